(** trivial_vector implements lists. *)
From iris.proofmode Require Import tactics.
From Verif Require Import Base Mem Sep Wp Allocators Contract Service Client Env EnvProofs Vector ElemProofs RepProofs.

Local Open Scope N_scope.

Lemma splice_all {X} (vs l : list X) : length vs = length l -> splice 0 vs l = vs.
Proof. intros H. unfold splice. cbn [take app]. rewrite drop_ge; [|lia]. by rewrite app_nil_r. Qed.
Lemma splice_end {X} (vs l : list X) : splice (length l) vs l = l ++ vs.
Proof. unfold splice. rewrite firstn_all drop_ge; [|lia]. by rewrite app_nil_r. Qed.

Section vector.
  Context {bad : event -> bool} {A : alloc} {req : N -> bool}.
  Context (CA : used bad A req) (b sz : N) (D : gset nat) (Hsz : 0 < sz).
  Local Notation inv := (inv CA b D).
  Local Notation szn := (N.to_nat sz).
  Local Notation rep := (rep sz D).
  Local Notation sto := (svec * list (list cell))%type.

  Definition vec_of (x : svec) : vec := Vec (s_al x) (s_data x) (s_data x + s_len x * sz) (s_data x + s_cap x * sz).

  Lemma v_size_of x : v_size sz (vec_of x) = s_len x.
  Proof. unfold v_size, vec_of. cbn [v_end v_beg]. replace (_ - _) with (s_len x * sz) by lia. apply N.div_mul. lia. Qed.
  Lemma v_cap_of x : v_cap sz (vec_of x) = s_cap x.
  Proof. unfold v_cap, vec_of. cbn [v_max v_beg]. replace (_ - _) with (s_cap x * sz) by lia. apply N.div_mul. lia. Qed.
  Lemma v_info_of x : v_info sz (vec_of x) = s_info x.
  Proof. unfold v_info, s_info. by rewrite v_size_of v_cap_of. Qed.

  Lemma get_of (Z : gmap nat sto) c : get_ c ((vec_of ∘ fst) <$> Z) = vec_of (s_get c (fst <$> Z)).
  Proof. unfold get_, s_get. rewrite !lookup_fmap. by destruct (Z !! c) as [[? ?]|]. Qed.

  (** * Functions *)
  Lemma release_spec E B x es : rep (x, es) ->
    inv E (one (x, es) ++ B) ⊢ wp bad (release A b sz (vec_of x) E) (fun E' => inv E' B).
  Proof.
    intros Hr. unfold release. rewrite v_cap_of. cbn [v_beg v_al vec_of]. destruct (N.eqb_spec (s_data x) 0) as [H0|H0].
    - unfold one. cbn [fst]. rewrite H0. iIntros "H". by iApply wp_ret.
    - by apply free_spec.
  Qed.

  Lemma new_n_spec E B h n : h ∈ D ->
    inv E B ⊢ wp bad (new_n A b sz h n E) (fun r => ∃ x es,
      ⌈fst r = vec_of x /\ rep (x, es) /\ s_al x = h /\ s_l x = repeat None (N.to_nat n) /\ s_cap x = n⌉ ∗
      inv (snd r) (one (x, es) ++ B)).
  Proof.
    intros Hh. iIntros "H". unfold new_n. iApply wp_bind. iApply wp_strong_mono.
    iSplitL; [by iApply (alloc_spec CA b sz D Hsz with "H")|]. iIntros ([p E']) "H". iDestruct "H" as (es) "[%Hr H]".
    iApply wp_ret. cbn [fst snd] in *. iExists _, es. iFrame "H". iPureIntro. split_and!; try done.
    unfold vec_of, s_len. cbn [s_al s_data s_l s_cap]. rewrite repeat_length. by rewrite N2Nat.id.
  Qed.

  Lemma put_front_spec E B x es src ds vs : rep (x, es) -> (length ds <= length es)%nat ->
    src_arr sz B src ds -> Forall2 (stands sz) vs ds ->
    inv E (one (x, es) ++ B) ⊢ wp bad (copy_in sz (s_data x) src) (fun _ => ∃ es',
      ⌈rep (SVec (s_al x) (splice 0 vs (s_l x)) (s_cap x) (s_data x), es')⌉ ∗
      inv E (one (SVec (s_al x) (splice 0 vs (s_l x)) (s_cap x) (s_data x), es') ++ B)).
  Proof.
    intros Hr Hl Hsrc Hst. replace (s_data x) with (s_data x + sz * N.of_nat 0) at 1 by lia.
    apply (put_range_spec CA b sz D Hsz _ _ _ _ _ _ ds); try done; lia.
  Qed.

  Lemma set_size_spec E B x es n : rep (x, es) ->
    inv E (one (x, es) ++ B) ⊢ wp bad (set_size A b sz (vec_of x) n E) (fun r => ∃ x' es',
      ⌈fst r = vec_of x' /\ rep (x', es') /\ s_al x' = s_al x /\ s_l x' = take (N.to_nat n) (s_l x) /\ s_cap x' = n⌉ ∗
      inv (snd r) (one (x', es') ++ B)).
  Proof.
    intros Hr. unfold set_size. rewrite v_size_of v_cap_of. cbn [v_al v_beg vec_of].
    iIntros "H". iApply wp_bind. iApply wp_strong_mono.
    iSplitL; [iApply (alloc_spec CA b sz D Hsz with "H"); apply Hr|]. iIntros ([p E']) "H". iDestruct "H" as (es') "[%Hr' H]".
    cbn [fst snd] in *. set (x1 := SVec (s_al x) (repeat None (N.to_nat n)) n p) in *.
    set (cur := N.min (s_len x) n).
    set (x2 := SVec (s_al x) (take (N.to_nat n) (s_l x)) n p).
    assert (Hcur : s_len x2 = cur). { subst cur x2. unfold s_len. cbn [s_l]. rewrite take_length. lia. }
    assert (Hfin : forall E (e2 : list (list cell)), rep (x2, e2) -> inv E (one (x2, e2) ++ B) ⊢
      wp bad (ret (Vec (s_al x) p (p + cur * sz) (p + n * sz), E)) (fun r => ∃ x' es',
      ⌈fst r = vec_of x' /\ rep (x', es') /\ s_al x' = s_al x /\ s_l x' = take (N.to_nat n) (s_l x) /\ s_cap x' = n⌉ ∗
      inv (snd r) (one (x', es') ++ B))).
    { intros E2 e2 H2. iIntros "H". iApply wp_ret. cbn [fst snd]. iExists x2, e2. iFrame "H". iPureIntro.
      split_and!; try done. unfold vec_of. by rewrite Hcur. }
    iApply wp_bind. destruct (N.eqb_spec (s_data x) 0) as [H0|H0].
    - destruct (rep_null _ _ Hsz _ Hr H0) as (H1&H2&H3). cbn [fst snd] in *. subst es. iApply wp_ret.
      iApply (Hfin _ es').
      + replace x2 with (SVec (s_al x1) (take 0 (s_l x1)) (s_cap x1) (s_data x1)); [by apply rep_trunc|].
        subst x2. by rewrite H2 take_nil.
      + unfold one at 2. cbn [fst]. rewrite H0. done.
    - iApply wp_bind.
      destruct (src_storage sz D Hsz (one (x, es) ++ B) x es cur Hr) as [Hsrc Hst].
      { intros y. rewrite elem_of_app. auto. } { subst cur. lia. }
      pose proof (rep_le _ _ Hsz _ Hr) as Hle. cbn [fst snd] in Hle.
      assert (Hl1 : length es' = N.to_nat n). { pose proof (r_len _ _ _ Hr') as H. cbn in H. lia. }
      iApply wp_strong_mono. iSplitL "H".
      + iApply (put_front_spec _ _ x1 _ (QAddr (s_data x) cur) with "H"); [done| |exact Hsrc|exact Hst].
        rewrite take_length Hl1. subst cur. lia.
      + iIntros (_) "H". iDestruct "H" as (e2) "[%Hr2 H]". cbn [s_data s_al s_cap s_l x1] in *.
        set (x3 := SVec (s_al x) (splice 0 (take (N.to_nat cur) (s_l x)) (repeat None (N.to_nat n))) n p) in *.
        iApply wp_strong_mono. iSplitL "H".
        * iApply (free_spec CA b sz D Hsz _ (one (x3, e2) ++ B) _ _ Hr H0). iApply (inv_perm with "H").
          by rewrite Permutation_app_swap_app.
        * iIntros (E2) "H".
          assert (Hl : take (N.to_nat n) (s_l x) = take (length (s_l x2)) (s_l x3)).
          { subst x2 x3. cbn [s_l]. unfold splice. cbn [take app].
            assert (take (N.to_nat cur) (s_l x) = take (N.to_nat n) (s_l x)) as ->.
            { subst cur. unfold s_len. destruct (decide (length (s_l x) <= N.to_nat n)%nat).
              - rewrite !take_ge //; lia.
              - f_equal. lia. }
            by rewrite take_app. }
          iApply (Hfin _ e2).
          { replace x2 with (SVec (s_al x3) (take (length (s_l x2)) (s_l x3)) (s_cap x3) (s_data x3)); [by apply rep_trunc|].
            subst x2. cbn [s_l] in *. by rewrite -Hl. }
          unfold one. cbn [fst snd s_data s_al x2 x3]. done.
  Qed.

  Lemma expand_spec E B x es n : rep (x, es) ->
    inv E (one (x, es) ++ B) ⊢ wp bad (expand A b sz (vec_of x) n E) (fun r => ∃ x' es',
      ⌈fst r = vec_of x' /\ rep (x', es') /\ s_al x' = s_al x /\ s_l x' = s_l x /\ s_cap x + N.max (s_cap x / 2) n <= s_cap x'⌉ ∗
      inv (snd r) (one (x', es') ++ B)).
  Proof.
    intros Hr. unfold expand. rewrite v_cap_of. set (c := s_cap x + N.max (s_cap x / 2) n).
    destruct (bad (EvReq (sz * c))) eqn:Hreq.
    - iIntros "H". by iApply (wp_bad with "H").
    - iIntros "H". iApply wp_bind. iApply wp_emit; [done|]. apply (s_modest _ _ _ (u_srv CA)) in Hreq as [_ Hlt].
      assert (w64 c = c) as ->. { unfold w64. apply N.mod_small. nia. }
      iApply wp_strong_mono. iSplitL; [by iApply (set_size_spec with "H")|].
      iIntros ([v' E']) "H". iDestruct "H" as (x' es') "[%HH H]". destruct HH as (H1&H2&H3&H4&H5).
      iExists x', es'. iFrame "H". iPureIntro. split_and!; try done; [|lia].
      rewrite H4. apply take_ge. pose proof (rep_le _ _ Hsz _ Hr) as Hle. pose proof (r_len _ _ _ Hr) as Hl. cbn in Hle, Hl. lia.
  Qed.

  Lemma copy_of_spec E B h x es : h ∈ D -> rep (x, es) -> one (x, es) ⊆ B ->
    inv E B ⊢ wp bad (copy_of A b sz h (vec_of x) E) (fun r => ∃ x' es',
      ⌈fst r = vec_of x' /\ rep (x', es') /\ s_al x' = h /\ s_l x' = s_l x /\ s_cap x' = s_len x⌉ ∗
      inv (snd r) (one (x', es') ++ B)).
  Proof.
    intros Hh Hr HB. unfold copy_of. rewrite v_size_of. iIntros "H". iApply wp_bind. iApply wp_strong_mono.
    iSplitL; [by iApply (new_n_spec with "H")|]. iIntros ([v E']) "H". iDestruct "H" as (x1 es1) "[%HH H]".
    destruct HH as (H1&H2&H3&H4&H5). cbn [fst snd] in *. subst v. cbn [v_beg vec_of].
    destruct (src_storage sz D Hsz B x es (s_len x) Hr HB) as [Hsrc Hst]; [lia|].
    pose proof (rep_le _ _ Hsz _ Hr) as Hle. cbn [fst snd] in Hle.
    assert (Hl1 : length es1 = length (s_l x)). { pose proof (r_len _ _ _ H2) as H. cbn [fst snd] in H. unfold s_len in H5. lia. }
    assert (Hln : N.to_nat (s_len x) = length (s_l x)) by (unfold s_len; lia).
    iApply wp_bind. iApply wp_strong_mono. iSplitL "H".
    - iAssert (wp bad (copy_in sz (s_data x1) (QAddr (s_data x) (s_len x))) (fun _ => ∃ es',
        ⌈rep (SVec (s_al x1) (s_l x) (s_cap x1) (s_data x1), es')⌉ ∗
        inv E' (one (SVec (s_al x1) (s_l x) (s_cap x1) (s_data x1), es') ++ B)))%I with "[H]" as "H".
      { iApply wp_strong_mono.
        iSplitL; [iApply (put_front_spec _ _ x1 with "H"); [done| |exact Hsrc|exact Hst]; rewrite take_length; lia|].
        iIntros (_) "H". rewrite Hln firstn_all splice_all; [|by rewrite H4 repeat_length].
        done. }
      cbn [copy_in]. destruct (N.eqb_spec (s_data x) 0) as [H0|H0]; [|iExact "H"].
      destruct (rep_null _ _ Hsz _ Hr H0) as (_&Hn&_). cbn in Hn. unfold s_len. rewrite Hn. cbn [length]. done.
    - iIntros (_) "H". iDestruct "H" as (es') "[%Hr' H]". iApply wp_ret. cbn [fst snd].
      iExists _, es'. iFrame "H". iPureIntro. split_and!; try done.
      unfold vec_of, s_len. cbn [s_al s_data s_l s_cap]. by rewrite H4 repeat_length Hln.
  Qed.

  Lemma fill_spec E B x es n src e v : rep (x, es) -> s_l x = repeat None n -> length es = n ->
    src_elem sz B src e -> stands sz v e ->
    inv E (one (x, es) ++ B) ⊢ wp bad (fill_n sz (s_data x) n src) (fun _ => ∃ es',
      ⌈rep (SVec (s_al x) (repeat v n) (s_cap x) (s_data x), es')⌉ ∗
      inv E (one (SVec (s_al x) (repeat v n) (s_cap x) (s_data x), es') ++ B)).
  Proof.
    intros Hr Hl Hn Hsrc Hst. destruct (src_elem_raw sz _ _ _ Hsrc) as [He Hd].
    assert (Hr' : rep (SVec (s_al x) (repeat v n) (s_cap x) (s_data x), splice 0 (repeat e n) es)).
    { rewrite -(splice_all (repeat v n) (s_l x)); [|by rewrite Hl !repeat_length].
      apply rep_splice; try done; try (rewrite repeat_length); try lia.
      - clear -Hst. induction n; cbn; by constructor.
      - apply list.Forall_forall. intros y Hy. apply elem_of_list_In, repeat_spec in Hy. by subst y.
      - apply list.Forall_forall. intros y Hy. apply elem_of_list_In, repeat_spec in Hy. by subst y. }
    destruct (N.eq_dec (s_data x) 0) as [H0|H0].
    - destruct (rep_null _ _ Hsz _ Hr H0) as (H1&_). cbn in H1. subst es. cbn in Hn. subst n. cbn [fill_n].
      iIntros "H". iApply wp_ret. iExists _. iSplit; [done|]. unfold one. cbn [fst s_data]. by rewrite H0.
    - iIntros "H". iApply wp_strong_mono. iSplitL.
      + rewrite one_nonnull //. replace (s_data x) with (s_data x + sz * N.of_nat 0) at 2 by lia.
        iApply (fill_n_spec CA b sz D Hsz with "H"); [apply Hr|lia|done].
      + iIntros (_) "H". iExists _. iSplit; [done|]. rewrite one_nonnull //.
  Qed.

  Lemma store_spec E B x es l : rep (x, es) -> length (s_l x) = length l -> length es = length l ->
    inv E (one (x, es) ++ B) ⊢ wp bad (store_list sz (s_data x) l) (fun _ => ∃ es',
      ⌈rep (SVec (s_al x) (map Some l) (s_cap x) (s_data x), es')⌉ ∗
      inv E (one (SVec (s_al x) (map Some l) (s_cap x) (s_data x), es') ++ B)).
  Proof.
    intros Hr Hl Hn.
    assert (Hr' : rep (SVec (s_al x) (map Some l) (s_cap x) (s_data x), splice 0 (map (chunk szn) l) es)).
    { rewrite -(splice_all (map Some l) (s_l x)); [|by rewrite map_length].
      apply rep_splice; try done; try (rewrite map_length); try lia.
      - clear. induction l; cbn; constructor; [by intros ? [= ->]|done].
      - apply Forall_map, Forall_true. intros; apply chunk_length.
      - apply Forall_map, Forall_true. intros; apply chunk_dead. }
    destruct (N.eq_dec (s_data x) 0) as [H0|H0].
    - destruct (rep_null _ _ Hsz _ Hr H0) as (H1&_). cbn in H1. subst es. destruct l; [|done]. cbn [store_list].
      iIntros "H". iApply wp_ret. iExists _. iSplit; [done|]. unfold one. cbn [fst s_data]. by rewrite H0.
    - iIntros "H". iApply wp_strong_mono. iSplitL.
      + rewrite one_nonnull //. replace (s_data x) with (s_data x + sz * N.of_nat 0) at 2 by lia.
        iApply (store_list_spec CA b sz D Hsz with "H"); [apply Hr|lia].
      + iIntros (_) "H". iExists _. iSplit; [done|]. rewrite one_nonnull //.
  Qed.

  Lemma remove_spec E B x es i j : rep (x, es) -> (i <= j)%nat -> (j <= length (s_l x))%nat ->
    inv E (one (x, es) ++ B) ⊢
    wp bad (memmove (s_data x + sz * N.of_nat i) (s_data x + sz * N.of_nat j) (N.of_nat (length (s_l x) - j) * sz)) (fun _ => ∃ es',
      ⌈rep (SVec (s_al x) (take i (s_l x) ++ drop j (s_l x)) (s_cap x) (s_data x), es')⌉ ∗
      inv E (one (SVec (s_al x) (take i (s_l x) ++ drop j (s_l x)) (s_cap x) (s_data x), es') ++ B)).
  Proof.
    intros Hr Hij Hj. pose proof (rep_le _ _ Hsz _ Hr) as Hle. cbn [fst snd] in Hle.
    set (n := (length (s_l x) - j)%nat).
    assert (Hr' : rep (SVec (s_al x) (take i (s_l x) ++ drop j (s_l x)) (s_cap x) (s_data x), splice i (take n (drop j es)) es)).
    { assert (Hr1 : rep (SVec (s_al x) (splice i (take n (drop j (s_l x))) (s_l x)) (s_cap x) (s_data x), splice i (take n (drop j es)) es)).
      { apply rep_splice; try done; [lia| | | |].
        - rewrite take_length drop_length. lia.
        - apply (stands_take sz D Hsz); [done|lia].
        - apply Forall_take, Forall_drop, Hr.
        - apply Forall_take, Forall_drop, Hr. }
      apply (rep_trunc sz D Hsz _ _ (i + n)) in Hr1. cbn [s_al s_l s_cap s_data] in Hr1.
      assert (take n (drop j (s_l x)) = drop j (s_l x)) as Ht. { apply take_ge. rewrite drop_length. lia. }
      rewrite Ht in Hr1. unfold splice in Hr1 at 1. rewrite app_assoc take_app_alt in Hr1; [done|].
      rewrite app_length take_length drop_length. lia. }
    destruct (N.eq_dec (s_data x) 0) as [H0|H0].
    - destruct (rep_null _ _ Hsz _ Hr H0) as (_&H1&_). cbn in H1. assert (n = 0%nat) as -> by (subst n; rewrite H1; cbn; lia).
      iIntros "H". unfold memmove. cbn. iApply wp_ret. iExists _. iSplit; [done|]. unfold one. cbn [fst s_data]. by rewrite H0.
    - iIntros "H". iApply wp_strong_mono. iSplitL.
      + rewrite one_nonnull //. iApply (memmove_spec CA b sz D Hsz with "H"); [apply Hr|lia|lia].
      + iIntros (_) "H". iExists _. iSplit; [done|]. rewrite one_nonnull //. by rewrite Nat2N.id.
  Qed.

  Lemma read_spec E B a e : src_elem sz B (PAddr a) e ->
    inv E B ⊢ wp bad (rds a szn) (fun cs => ⌈cs = e⌉ ∗ inv E B).
  Proof.
    intros Hsrc. destruct (src_elem_raw sz _ _ _ Hsrc) as [Hl _]. destruct Hsrc as (h&p&es&j&Hin&H1&H2&H3&->).
    iIntros "H". iDestruct (inv_read CA b sz D Hsz _ _ _ _ _ Hin with "H") as "[Hp H]".
    iDestruct (pts_elem sz _ _ _ _ H1 H3 with "Hp") as "[Hp Hq]".
    iApply (wp_rds' _ _ e); [done|]. iFrame "Hp". iIntros "Hp". iSpecialize ("Hq" $! e with "[//] Hp").
    rewrite list_insert_id //. iSplit; [done|]. by iApply "H".
  Qed.

  (** * Operations *)
  Local Notation cinv := (cinv CA b sz D vec_of).
  Local Notation stov := (fmap (M := gmap nat) (A := sto) (vec_of ∘ fst)).

  Lemma rep_emptied x es : rep (x, es) -> rep (emptied x, []).
  Proof.
    intros Hr. split; cbn; [|apply Hr|done|constructor|constructor| |done].
    - split_and!; done.
    - unfold W. lia.
  Qed.
  Lemma emptied_one x es : one (emptied x, es) = [].
  Proof. done. Qed.

  Lemma zget (Z : gmap nat sto) c : map_Forall (fun _ => rep) Z -> has (s_info <$> (fst <$> Z)) c = true ->
    exists x es, Z !! c = Some (x, es) /\ rep (x, es) /\ s_get c (fst <$> Z) = x /\ bl Z ≡ₚ one (x, es) ++ bl (delete c Z).
  Proof.
    intros HZ Hh. rewrite has_spec in Hh. destruct Hh as [x Hx]. rewrite lookup_fmap in Hx.
    destruct (Z !! c) as [[x' es]|] eqn:E; [|done]. cbn in Hx. injection Hx as ->. exists x, es. split_and!; try done.
    - by apply (HZ _ _ E).
    - unfold s_get. by rewrite lookup_fmap E.
    - by apply bl_delete.
  Qed.

  Lemma fin_born (Z : gmap nat sto) c h l E x es : map_Forall (fun _ => rep) (delete c Z) -> rep (x, es) ->
    s_al x = h -> s_l x = l -> s_cap x = s_len x ->
    inv E (one (x, es) ++ bl (delete c Z)) ⊢ wp bad (ret (CUnit, (E, <[c := vec_of x]> (stov Z)))) (fun r =>
      ∃ m', ⌈fst r = CUnit /\ born c h l (fst <$> Z) m'⌉ ∗ cinv (fst (snd r)) (snd (snd r)) m').
  Proof.
    intros HZ Hr Ha Hl Hc. iIntros "H". iApply wp_ret. cbn [fst snd]. iExists _. iSplitR; last by iApply (cinv_put with "H").
    iPureIntro. split; [done|]. exists x. split_and!; try done. apply Hr.
  Qed.

  Lemma fin_become (Z : gmap nat sto) c (ob ob' : cobs) n r' l E x es : map_Forall (fun _ => rep) (delete c Z) -> rep (x, es) ->
    ob = ob' -> s_al x = s_al (s_get c (fst <$> Z)) -> s_l x = l -> stable n r' (s_get c (fst <$> Z)) x ->
    inv E (one (x, es) ++ bl (delete c Z)) ⊢ wp bad (ret (ob, (E, <[c := vec_of x]> (stov Z)))) (fun r =>
      ∃ m', ⌈fst r = ob' /\ become c n r' l (fst <$> Z) m'⌉ ∗ cinv (fst (snd r)) (snd (snd r)) m').
  Proof.
    intros HZ Hr Hob Ha Hl Hc. iIntros "H". iApply wp_ret. cbn [fst snd]. iExists _. iSplitR; last by iApply (cinv_put with "H").
    iPureIntro. split; [done|]. exists x. split_and!; try done. apply Hr.
  Qed.

  Lemma locate_of Z r : locate sz r (stov Z) =
    match r with RVal x => PVal x | RElem c i => PAddr (elem_addr sz (s_data (s_get c (fst <$> Z))) i) end.
  Proof. destruct r; [done|]. cbn [locate]. by rewrite get_of. Qed.
  Lemma locate_range_of Z g : locate_range sz g (stov Z) =
    match g with GVals l => QVals l | GElems c i j => QAddr (elem_addr sz (s_data (s_get c (fst <$> Z))) i) (j - i) end.
  Proof. destruct g; [done|]. cbn [locate_range]. by rewrite get_of. Qed.

  Lemma infos_of Z : v_info sz <$> stov Z = s_info <$> (fst <$> Z).
  Proof. rewrite -!map_fmap_compose. apply map_fmap_ext. intros i [x es] _. cbn. apply v_info_of. Qed.

  Lemma Z_fresh (Z : gmap nat sto) c : has (s_info <$> (fst <$> Z)) c = false -> Z !! c = None /\ delete c Z = Z.
  Proof.
    intros H. rewrite has_false lookup_fmap in H. destruct (Z !! c) eqn:E; [done|]. split; [done|]. by apply delete_notin.
  Qed.

  Ltac bools :=
    repeat match goal with
    | H : (_ && _)%bool = true |- _ => let L := fresh "L" in let L' := fresh "L" in apply andb_true_iff in H as [L L']
    | H : negb _ = true |- _ => apply negb_true_iff in H
    | H : new_name _ _ _ _ = true |- _ => unfold new_name in H
    | H : (_ <? _)%nat = true |- _ => apply Nat.ltb_lt in H
    | H : (_ <? _) = true |- _ => apply N.ltb_lt in H
    | H : (_ <=? _) = true |- _ => apply N.leb_le in H
    end.

  Lemma argE Z Z' r : map_Forall (fun _ => rep) Z -> match r with RVal _ => True | RElem c _ => Z' !! c = Z !! c end ->
    ok_ref (s_info <$> (fst <$> Z)) r = true ->
    exists e, src_elem sz (bl Z') (locate sz r (stov Z)) e /\ stands sz (val_of r (fst <$> Z)) e.
  Proof. intros. rewrite locate_of. by apply (arg_elem sz D Hsz (fun c => s_data (s_get c (fst <$> Z)))). Qed.
  Lemma argR Z Z' g : map_Forall (fun _ => rep) Z -> match g with GVals _ => True | GElems c _ _ => Z' !! c = Z !! c end ->
    ok_range (s_info <$> (fst <$> Z)) g = true ->
    exists ds, src_arr sz (bl Z') (locate_range sz g (stov Z)) ds /\ Forall2 (stands sz) (vals_of g (fst <$> Z)) ds /\
      length ds = length (vals_of g (fst <$> Z)) /\ array_length (locate_range sz g (stov Z)) = N.of_nat (length (vals_of g (fst <$> Z))).
  Proof.
    intros. rewrite locate_range_of. destruct (arg_range sz D Hsz (fun c => s_data (s_get c (fst <$> Z))) Z Z' g) as (ds&H2&H3); try done.
    exists ds. assert (length ds = length (vals_of g (fst <$> Z))) as Hl by (symmetry; by eapply Forall2_length).
    split_and!; try done. rewrite -Hl. symmetry. by eapply src_arr_raw.
  Qed.

  Lemma stable_0 x x' : s_cap x' = s_cap x -> s_data x' = s_data x -> stable 0 0 x x'.
  Proof. intros H1 H2. unfold stable, amply. destruct (N.leb_spec 0 (s_cap x)); [done|lia]. Qed.

  Lemma get_self (vs : gmap nat vec) c src : get_ src (<[c := get_ src vs]> vs) = get_ src vs.
  Proof.
    destruct (decide (c = src)) as [->|Hne]; unfold get_ at 1; [by rewrite lookup_insert|]. rewrite lookup_insert_ne //.
  Qed.

  Lemma vassign_spec E Z c src x es x0 es0 : Z !! c = Some (x, es) -> Z !! src = Some (x0, es0) ->
    (c <> src \/ s_len x0 = 0) -> map_Forall (fun _ => rep) (delete c Z) -> rep (x0, es0) ->
    inv E (bl (delete c Z)) ⊢ wp bad (vassign A b sz c src (E, stov Z)) (fun r =>
      ∃ m', ⌈fst r = CUnit /\ born c (s_al x0) (s_l x0) (fst <$> Z) m'⌉ ∗ cinv (fst (snd r)) (snd (snd r)) m').
  Proof.
    intros Hs Hs0 L0 HZd Hr0. iIntros "H". unfold vassign. cbn zeta.
    assert (Hg : s_get c (fst <$> Z) = x) by (unfold s_get; by rewrite lookup_fmap Hs).
    assert (Hg0 : s_get src (fst <$> Z) = x0) by (unfold s_get; by rewrite lookup_fmap Hs0).
    rewrite !get_of !Hg !Hg0.
    set (vs1 := <[c := _]> (stov Z)).
    assert (Hc1 : get_ c vs1 = Vec (s_al x0) (s_data x) (s_data x + s_len x * sz) (s_data x + s_cap x * sz)).
    { subst vs1. unfold get_. by rewrite lookup_insert. }
    assert (Hs1 : v_size sz (get_ src vs1) = s_len x0).
    { destruct (decide (c = src)) as [->|Hne].
      - rewrite Hc1. rewrite Hs in Hs0. injection Hs0 as -> ->. apply (v_size_of x0).
      - subst vs1. unfold get_. rewrite lookup_insert_ne //. fold (get_ src (stov Z)). rewrite get_of Hg0. apply v_size_of. }
    rewrite Hs1 !Hc1. cbn [v_al].
    iApply wp_bind. iApply wp_strong_mono. iSplitL.
    { iApply (alloc_spec CA b sz D Hsz with "H"). apply Hr0. }
    iIntros ([p E2]) "H". iDestruct "H" as (es1) "[%Hr1 H]". cbn [fst snd] in *. cbn zeta.
    set (x1 := SVec (s_al x0) _ _ p) in *. set (y := SVec (s_al x0) (s_l x0) (s_len x0) p).
    assert (Hvs : <[c := Vec (s_al x0) p (p + s_len x0 * sz) (p + s_len x0 * sz)]> vs1 = <[c := vec_of y]> (stov Z)).
    { subst vs1. by rewrite insert_insert. }
    rewrite Hvs.
    assert (Hln : N.to_nat (s_len x0) = length (s_l x0)) by (unfold s_len; lia).
    iApply wp_bind. iApply wp_strong_mono. iSplitL "H".
    { iAssert (wp bad (memcpy p (v_beg (get_ src (<[c := vec_of y]> (stov Z)))) (s_len x0 * sz)) (fun _ =>
        ∃ es2, ⌈rep (y, es2)⌉ ∗ inv E2 (one (y, es2) ++ bl (delete c Z))))%I with "[H]" as "H"; [|iExact "H"].
      destruct (decide (c = src)) as [->|Hne].
      - rewrite Hs in Hs0. injection Hs0 as -> ->. destruct L0 as [L0|L0]; [done|].
        assert (Hnil : s_l x0 = []). { apply length_zero_iff_nil. unfold s_len in L0. lia. }
        rewrite L0. cbn [N.mul]. unfold memcpy. cbn. iApply wp_ret. iExists es1.
        assert (y = x1) as ->; [|by iFrame]. subst x1 y. by rewrite L0 Hnil.
      - unfold get_. rewrite lookup_insert_ne //. fold (get_ src (stov Z)). rewrite get_of Hg0. cbn [v_beg vec_of].
        destruct (src_storage sz D Hsz (bl (delete c Z)) x0 es0 (s_len x0) Hr0) as [Hsrc Hst]; [|lia|].
        { intros z Hz. eapply bl_in; [|done]. by rewrite lookup_delete_ne. }
        iApply wp_strong_mono. iSplitL "H".
        { iApply (put_front_spec _ _ x1 _ (QAddr (s_data x0) (s_len x0)) with "H"); [done| |exact Hsrc|exact Hst].
          rewrite take_length. pose proof (r_len _ _ _ Hr1) as Hl. cbn [fst snd s_cap x1] in Hl. lia. }
        iIntros (_) "H". rewrite Hln firstn_all splice_all; [|by subst x1; cbn [s_l]; rewrite repeat_length Hln].
        iExact "H". }
    iIntros (_) "H". iDestruct "H" as (es2) "[%Hr2 H]". by iApply (fin_born with "H").
  Qed.

  Lemma vmove_assign_spec E Z c src x es x0 es0 : Z !! c = Some (x, es) -> Z !! src = Some (x0, es0) ->
    map_Forall (fun _ => rep) (delete c Z) -> rep (x0, es0) ->
    inv E (bl (delete c Z)) ⊢ wp bad (vmove_assign A c src (E, stov Z)) (fun r =>
      ∃ m', ⌈fst r = CUnit /\ m' = <[src := emptied x0]> (<[c := x0]> (fst <$> Z))⌉ ∗ cinv (fst (snd r)) (snd (snd r)) m').
  Proof.
    intros Hs Hs0 HZd Hr0. iIntros "H". unfold vmove_assign.
    assert (Hg0 : s_get src (fst <$> Z) = x0) by (unfold s_get; by rewrite lookup_fmap Hs0).
    cbn zeta. rewrite get_self get_of Hg0. cbn [v_al vec_of].
    iApply wp_ret. cbn [fst snd]. iExists _. iSplitR; [done|].
    pose proof (cinv_put CA b sz D vec_of E (<[c := (x0, es0)]> Z) src (emptied x0) []) as Hput.
    rewrite !fmap_insert in Hput. cbn [fst compose] in Hput. iApply Hput.
    + apply map_Forall_delete. rewrite -insert_delete_insert. by apply map_Forall_insert_2.
    + by eapply rep_emptied.
    + rewrite emptied_one. cbn [app]. destruct (decide (c = src)) as [->|Hne].
      * by rewrite delete_insert_delete.
      * rewrite delete_insert_ne //. iApply (inv_perm with "H").
        rewrite bl_put. rewrite (bl_delete (delete c Z) src (x0, es0)); [|by rewrite lookup_delete_ne].
        by rewrite delete_commute.
  Qed.

  Lemma vstep_spec k o E vs m : (forall h, v_arg o = Some h -> vlegal sz k (s_info <$> m) o = true -> h ∈ D) ->
    cinv E vs m ⊢ wp bad (vstep A b sz k o (E, vs)) (fun r =>
    ∃ m', ⌈vcheck sz k o (fst r) m m'⌉ ∗ cinv (fst (snd r)) (snd (snd r)) m').
  Proof.
    intros Hdom. iIntros "H". iDestruct "H" as (Z) "[%HH H]". destruct HH as (->&->&HZ).
    unfold vstep, vcheck. cbn [snd]. rewrite infos_of.
    destruct (vlegal sz k (s_info <$> (fst <$> Z)) o) eqn:HL.
    2:{ iApply wp_ret. cbn [fst snd]. iExists _. iSplitR; [done|]. iExists Z. by iFrame. }
    assert (HZd : forall c, map_Forall (fun _ => rep) (delete c Z)) by (intros c; by apply map_Forall_delete).
    destruct o; cbn [vdo vlegal vcheck_do v_arg] in *; rewrite ?get_of;
      try (specialize (Hdom _ eq_refl eq_refl)); bools.
    - (* VNew *) destruct (Z_fresh _ _ ltac:(eassumption)) as [Hf Hd].
      iApply wp_ret. cbn [fst snd]. iExists _. iSplitR; [done|].
      iApply (cinv_put _ _ _ _ vec_of _ _ _ (SVec h [] 0 0) []); [done| |].
      + split; cbn; [split_and!; done|done|done|constructor|constructor|unfold W; lia|done].
      + rewrite Hd. done.
    - (* VNewN *) destruct (Z_fresh _ _ ltac:(eassumption)) as [Hf Hd].
      iApply wp_bind. iApply wp_strong_mono. iSplitL; [by iApply (new_n_spec with "H")|].
      iIntros ([v E']) "H". iDestruct "H" as (x es) "[%HH H]". destruct HH as (H1&H2&H3&H4&H5). cbn [fst snd] in *. subst v.
      iApply fin_born; try done; [|by rewrite Hd]. unfold s_len. rewrite H4 H5 repeat_length. lia.
    - (* VNewFill *) destruct (Z_fresh _ _ ltac:(eassumption)) as [Hf Hd].
      destruct (argE Z Z r HZ) as (e&Hsrc&Hst); [by destruct r|done|].
      iApply wp_bind. iApply wp_strong_mono. iSplitL; [by iApply (new_n_spec with "H")|].
      iIntros ([v E']) "H". iDestruct "H" as (x es) "[%HH H]". destruct HH as (H1&H2&H3&H4&H5). cbn [fst snd] in *. subst v.
      iApply wp_bind. iApply wp_strong_mono. iSplitL.
      { iApply (fill_spec with "H"); try done. pose proof (r_len _ _ _ H2) as Hl. cbn in Hl. lia. }
      iIntros (_) "H". iDestruct "H" as (es') "[%Hr H]".
      set (y := SVec _ _ _ _) in *.
      assert (Hy : vec_of x = vec_of y).
      { subst y. unfold vec_of, s_len. cbn [s_al s_data s_l s_cap]. by rewrite H4 !repeat_length. }
      rewrite Hy. iApply fin_born; try done; [|by rewrite Hd]. subst y. unfold s_len. cbn [s_l s_cap]. rewrite H5 repeat_length. lia.
    - (* VNewList *) destruct (Z_fresh _ _ ltac:(eassumption)) as [Hf Hd].
      iApply wp_bind. iApply wp_strong_mono. iSplitL; [by iApply (new_n_spec with "H")|].
      iIntros ([v E']) "H". iDestruct "H" as (x es) "[%HH H]". destruct HH as (H1&H2&H3&H4&H5). cbn [fst snd] in *. subst v.
      rewrite Nat2N.id in H4. iApply wp_bind. iApply wp_strong_mono. iSplitL.
      { iApply (store_spec with "H"); try done; [by rewrite H4 repeat_length|]. pose proof (r_len _ _ _ H2) as Hl. cbn in Hl. lia. }
      iIntros (_) "H". iDestruct "H" as (es') "[%Hr H]".
      set (y := SVec _ _ _ _) in *.
      assert (Hy : vec_of x = vec_of y).
      { subst y. unfold vec_of, s_len. cbn [s_al s_data s_l s_cap]. by rewrite H4 repeat_length map_length. }
      rewrite Hy. iApply fin_born; try done; [|by rewrite Hd]. subst y. unfold s_len. cbn [s_l s_cap]. by rewrite H5 map_length.
    - (* VNewRange *) destruct (Z_fresh _ _ ltac:(eassumption)) as [Hf Hd].
      destruct (argR Z Z g HZ) as (ds&Hsrc&Hst&Hl&Hal); [by destruct g|done|].
      iApply wp_bind. iApply wp_strong_mono. iSplitL; [by iApply (new_n_spec with "H")|].
      iIntros ([v E']) "H". iDestruct "H" as (x es) "[%HH H]". destruct HH as (H1&H2&H3&H4&H5). cbn [fst snd] in *. subst v.
      rewrite Hal in H4, H5. rewrite Nat2N.id in H4. iApply wp_bind. iApply wp_strong_mono. iSplitL.
      { iApply (put_front_spec _ _ _ _ _ ds with "H"); try done. pose proof (r_len _ _ _ H2) as Hl'. cbn [fst snd] in Hl'. lia. }
      iIntros (_) "H". iDestruct "H" as (es') "[%Hr H]".
      rewrite splice_all in Hr |- *; [|by rewrite H4 repeat_length]. set (y := SVec _ _ _ _) in *.
      assert (Hy : vec_of x = vec_of y).
      { subst y. unfold vec_of, s_len. cbn [s_al s_data s_l s_cap]. by rewrite H4 repeat_length. }
      rewrite Hy. iApply fin_born; try done. by rewrite Hd.
    - (* VCopy *) destruct (Z_fresh _ _ ltac:(eassumption)) as [Hf Hd].
      destruct (zget Z src HZ) as (x&es&Hs&Hr&Hg&Hp); [done|]. rewrite Hg. cbn [v_al vec_of].
      iApply wp_bind. iApply wp_strong_mono. iSplitL.
      { iApply (copy_of_spec with "H"); [apply Hr|done|]. intros y Hy. by eapply bl_in. }
      iIntros ([v E']) "H". iDestruct "H" as (x' es') "[%HH H]". destruct HH as (H1&H2&H3&H4&H5). cbn [fst snd] in *. subst v.
      iApply fin_born; try done; [|by rewrite Hd]. unfold s_len in *. by rewrite H4.
    - (* VMove *) destruct (Z_fresh _ _ ltac:(eassumption)) as [Hf Hd].
      destruct (zget Z src HZ) as (x&es&Hs&Hr&Hg&Hp); [done|]. rewrite Hg. cbn [v_al vec_of].
      assert (Hne : c <> src) by congruence.
      iApply wp_ret. cbn [fst snd]. iExists _. iSplitR; [done|].
      pose proof (cinv_put CA b sz D vec_of E (<[c := (x, es)]> Z) src (emptied x) []) as Hput.
      rewrite !fmap_insert in Hput. cbn [fst compose] in Hput. iApply Hput.
      + apply map_Forall_delete. by apply map_Forall_insert_2.
      + by eapply rep_emptied.
      + rewrite emptied_one delete_insert_ne //. iApply (inv_perm with "H"). cbn [app].
        rewrite bl_put Hp. rewrite (delete_notin (delete src Z)); [done|]. by rewrite lookup_delete_ne.
    - (* VCopyAl *) destruct (Z_fresh _ _ ltac:(eassumption)) as [Hf Hd].
      destruct (zget Z src HZ) as (x&es&Hs&Hr&Hg&Hp); [done|]. rewrite Hg.
      iApply wp_bind. iApply wp_strong_mono. iSplitL.
      { iApply (copy_of_spec with "H"); [done|done|]. intros y Hy. by eapply bl_in. }
      iIntros ([v E']) "H". iDestruct "H" as (x' es') "[%HH H]". destruct HH as (H1&H2&H3&H4&H5). cbn [fst snd] in *. subst v.
      iApply fin_born; try done; [|by rewrite Hd]. unfold s_len in *. by rewrite H4.
    - (* VMoveAl *) destruct (Z_fresh _ _ ltac:(eassumption)) as [Hf Hd].
      destruct (zget Z src HZ) as (x&es&Hs&Hr&Hg&Hp); [done|]. rewrite look_spec Hg in L0. rewrite Hg v_size_of v_cap_of.
      assert (Hne : c <> src) by congruence. cbn [v_beg v_al vec_of].
      iApply wp_bind. iApply wp_strong_mono. iSplitL; [by iApply (new_n_spec with "H")|].
      iIntros ([v E']) "H". iDestruct "H" as (x1 es1) "[%HH H]". destruct HH as (H1&H2&H3&H4&H5). cbn [fst snd] in *. subst v.
      cbn [v_beg vec_of].
      pose proof (rep_le _ _ Hsz _ Hr) as Hle. cbn [fst snd] in Hle.
      assert (Hln : N.to_nat (s_len x) = length (s_l x)) by (unfold s_len; lia).
      assert (Hl1 : length es1 = length (s_l x)). { pose proof (r_len _ _ _ H2) as Hl. cbn [fst snd] in Hl. unfold s_len in H5. lia. }
      destruct (src_storage sz D Hsz (bl Z) x es (s_len x) Hr) as [Hsrc Hst]; [intros y Hy; by eapply bl_in|lia|].
      set (y := SVec (s_al x1) (s_l x) (s_cap x1) (s_data x1)).
      assert (Hy : vec_of x1 = vec_of y).
      { subst y. unfold vec_of, s_len. cbn [s_al s_data s_l s_cap]. by rewrite H4 repeat_length Hln. }
      rewrite Hy.
      assert (Hfin : forall E2 es2, rep (y, es2) -> inv E2 (one (y, es2) ++ bl (delete src Z)) ⊢
        wp bad (ret (CUnit, (E2, <[src := Vec (s_al x) 0 0 0]> (<[c := vec_of y]> (stov Z))))) (fun r => ∃ m',
          ⌈fst r = CUnit /\ exists m1, born c h (s_l x) (fst <$> Z) m1 /\ m' = <[src := emptied x]> m1⌉ ∗
          cinv (fst (snd r)) (snd (snd r)) m')).
      { intros E2 es2 Hy2. iIntros "H". iApply wp_ret. cbn [fst snd]. iExists (<[src := emptied x]> (<[c := y]> (fst <$> Z))). iSplitR.
        - iPureIntro. split; [done|]. exists (<[c := y]> (fst <$> Z)). split; [|done]. exists y. split_and!; try done; apply Hy2.
        - pose proof (cinv_put CA b sz D vec_of E2 (<[c := (y, es2)]> Z) src (emptied x) []) as Hput.
          rewrite !fmap_insert in Hput. cbn [fst compose] in Hput. iApply Hput.
          + apply map_Forall_delete. by apply map_Forall_insert_2.
          + by eapply rep_emptied.
          + rewrite emptied_one delete_insert_ne //. iApply (inv_perm with "H"). cbn [app].
            rewrite bl_put. rewrite (delete_notin (delete src Z)); [done|]. by rewrite lookup_delete_ne. }
      destruct (N.eqb_spec (s_data x) 0) as [H0|H0].
      + iApply wp_bind. iApply wp_ret. destruct (rep_null _ _ Hsz _ Hr H0) as (_&Hn&_). cbn in Hn.
        iApply (Hfin _ es1).
        * assert (x1 = y) as <-; [|done]. subst y. destruct x1 as [? l1 ? ?]. cbn in *. f_equal. rewrite H4 Hln Hn. done.
        * iApply (inv_perm with "H"). rewrite Hp. unfold one at 2. cbn [fst]. by rewrite H0.
      + rewrite orb_true_iff in L0. destruct L0 as [L0|L0]; apply N.eqb_eq in L0; [|done].
        iApply wp_bind. iApply wp_bind. iApply wp_strong_mono. iSplitL "H".
        { iApply (put_front_spec _ _ x1 _ (QAddr (s_data x) (s_len x)) with "H"); [done| |exact Hsrc|exact Hst]. rewrite take_length. lia. }
        iIntros (_) "H". iDestruct "H" as (es2) "[%Hr2 H]".
        rewrite Hln firstn_all splice_all in Hr2 |- *; [|by rewrite H4 repeat_length Hln].
        fold y in Hr2 |- *. iApply wp_strong_mono. iSplitL "H".
        { assert (mul64 (s_cap x) sz = s_cap x) as ->.
          { unfold mul64, w64. rewrite L0 N.mul_1_r. apply N.mod_small. pose proof (r_fit _ _ _ Hr). cbn [fst] in *. nia. }
          iApply (free_spec CA b sz D Hsz _ (one (y, es2) ++ bl (delete src Z)) _ _ Hr H0).
          iApply (inv_perm with "H"). rewrite Hp. by rewrite Permutation_app_swap_app. }
        iIntros (E2) "H". by iApply (Hfin with "H").
    - (* VDestroy *)
      destruct (zget Z c HZ) as (x&es&Hs&Hr&Hg&Hp); [done|]. rewrite Hg.
      iApply wp_bind. iApply wp_strong_mono. iSplitL.
      { rewrite (inv_perm _ _ _ _ _ _ Hp). by iApply (release_spec with "H"). }
      iIntros (E') "H". iApply wp_ret. cbn [fst snd]. iExists _. iSplitR; [done|]. by iApply (cinv_del with "H").
    - (* VAssign *)
      destruct (zget Z c HZ) as (x&es&Hs&Hr&Hg&Hp); [done|].
      destruct (zget Z src HZ) as (x0&es0&Hs0&Hr0&Hg0&Hp0); [done|]. rewrite !Hg !Hg0.
      iApply wp_bind. iApply wp_strong_mono. iSplitL.
      { rewrite (inv_perm _ _ _ _ _ _ Hp). by iApply (release_spec with "H"). }
      iIntros (E') "H". iApply (vassign_spec with "H"); try done.
      rewrite orb_true_iff in L0. destruct L0 as [L0|L0].
      + left. by apply negb_true_iff, bool_decide_eq_false in L0.
      + destruct (decide (c = src)) as [->|]; [|by left]. right. apply N.eqb_eq in L0. by rewrite look_spec Hg0 in L0.
    - (* VMoveAssign *)
      destruct (zget Z c HZ) as (x&es&Hs&Hr&Hg&Hp); [done|].
      destruct (zget Z src HZ) as (x0&es0&Hs0&Hr0&Hg0&Hp0); [done|]. rewrite !Hg.
      iApply wp_bind. iApply wp_strong_mono. iSplitL.
      { rewrite (inv_perm _ _ _ _ _ _ Hp). by iApply (release_spec with "H"). }
      iIntros (E') "H". rewrite Hg0. by iApply (vmove_assign_spec with "H").
    - (* VGet *)
      destruct (zget Z c HZ) as (x&es&Hs&Hr&Hg&Hp); [done|].
      destruct (argE Z Z (RElem c i) HZ) as (e&Hsrc&Hst); [done| |].
      { cbn [ok_ref]. rewrite L. by apply N.ltb_lt. }
      cbn [locate] in Hsrc. rewrite get_of in Hsrc. rewrite v_size_of look_spec in L0 |- *.
      iApply wp_bind. iApply wp_assert; [by apply N.ltb_lt|].
      iApply wp_bind. iApply wp_strong_mono. iSplitL; [by iApply (read_spec with "H")|].
      iIntros (cs) "[%Hcs H]". subst cs. iApply wp_ret. cbn [fst snd]. iExists _. iSplitR; [|iExists Z; by iFrame].
      iPureIntro. split; [done|]. eexists. split; [done|]. intros v Hv. rewrite (Hst v).
      + rewrite unchunk_chunk //. lia.
      + cbn [val_of]. by rewrite Hv.
    - (* VSet *)
      destruct (zget Z c HZ) as (x&es&Hs&Hr&Hg&Hp); [done|].
      match goal with H : i < _ |- _ => rename H into Li end. rewrite look_spec Hg in Li. cbn [i_size s_info] in Li.
      destruct (argE Z Z r HZ) as (e&Hsrc&Hst); [by destruct r|done|].
      rewrite Hg v_size_of. iApply wp_bind. iApply wp_assert; [by apply N.ltb_lt|].
      pose proof (rep_le _ _ Hsz _ Hr) as Hle. cbn [fst snd] in Hle. unfold s_len in Li.
      iApply wp_bind. iApply wp_strong_mono. iSplitL.
      { rewrite {1}(inv_perm _ _ _ _ _ _ Hp). cbn [v_beg vec_of]. unfold elem_addr. rewrite -{1}(N2Nat.id i).
        iApply (put_elem_spec CA b sz D Hsz with "H"); [done|lia|lia| |done].
        eapply src_elem_mono; [|done]. intros z. by rewrite Hp. }
      iIntros (_) "H". iDestruct "H" as (es') "[%Hr' H]". iApply wp_ret. cbn [fst snd]. iExists _. iSplitR; [done|].
      rewrite splice_one in Hr' |- *; [|lia].
      set (y := SVec _ _ _ _) in *.
      assert (stov Z = <[c := vec_of y]> (stov Z)) as Hvs.
      { rewrite insert_id //. rewrite lookup_fmap Hs. cbn. f_equal. subst y. unfold vec_of, s_len. cbn [s_al s_l s_data s_cap].
        by rewrite insert_length. }
      rewrite Hvs. by iApply (cinv_put with "H").
    - (* VSize *) rewrite v_size_of. iApply wp_ret. cbn [fst snd]. iExists _. iSplitR; [done|]. iExists Z. by iFrame.
    - (* VCap *) rewrite v_cap_of. iApply wp_ret. cbn [fst snd]. iExists _. iSplitR; [done|]. iExists Z. by iFrame.
    - (* VEmpty *) iApply wp_ret. cbn [fst snd]. iExists _. iSplitR; [|iExists Z; by iFrame].
      iPureIntro. split; [done|]. f_equal. unfold vec_of. cbn [v_beg v_end]. set (n := s_len _). set (p := s_data _).
      destruct (N.eqb_spec n 0) as [->|Hn]; [apply N.eqb_eq; lia|apply N.eqb_neq; nia].
    - (* VData *) iApply wp_ret. cbn [fst snd]. iExists _. iSplitR; [done|]. iExists Z. by iFrame.
    - (* VResize *)
      destruct (zget Z c HZ) as (x&es&Hs&Hr&Hg&Hp); [done|]. rewrite Hg. rewrite (inv_perm _ _ _ _ _ _ Hp).
      assert (Hfin : forall E2 x2 es2, rep (x2, es2) -> s_al x2 = s_al x -> s_l x2 = s_l x -> n <= s_cap x2 -> stable n (amply n x) x x2 ->
        inv E2 (one (x2, es2) ++ bl (delete c Z)) ⊢ wp bad
          (ret (CUnit, (E2, <[c := Vec (v_al (vec_of x2)) (v_beg (vec_of x2)) (v_beg (vec_of x2) + n * sz) (v_max (vec_of x2))]> (stov Z)))) (fun r =>
          ∃ m', ⌈fst r = CUnit /\ become c n (amply n x) (take (N.to_nat n) (s_l x) ++ repeat None (N.to_nat (n - s_len x))) (fst <$> Z) m'⌉ ∗
          cinv (fst (snd r)) (snd (snd r)) m')).
      { intros E2 x2 es2 H1 H2 H3 H4 H5. iIntros "H".
        pose proof (rep_extend sz D Hsz _ _ (N.to_nat n) H1 ltac:(lia)) as Hr3. set (y := SVec _ _ _ _) in Hr3.
        assert (Vec (v_al (vec_of x2)) (v_beg (vec_of x2)) (v_beg (vec_of x2) + n * sz) (v_max (vec_of x2)) = vec_of y) as ->.
        { subst y. unfold vec_of, s_len. cbn [v_al v_beg v_max s_al s_data s_cap s_l]. f_equal. do 2 f_equal.
          rewrite app_length take_length repeat_length. lia. }
        change (one (x2, es2)) with (one (y, es2)). iApply (fin_become with "H"); try done.
        - by rewrite Hg.
        - subst y. cbn [s_l]. rewrite H3. do 2 f_equal. unfold s_len. lia.
        - rewrite Hg. exact H5. }
      iApply wp_bind. unfold resize. rewrite v_cap_of. iApply wp_bind. destruct (N.ltb_spec (s_cap x) n) as [Hlt|Hge].
      + iApply wp_strong_mono. iSplitL; [by iApply (expand_spec with "H")|].
        iIntros ([v E2]) "H". iDestruct "H" as (x2 es2) "[%HH H]". destruct HH as (H1&H2&H3&H4&H5). cbn [fst snd] in *. subst v.
        iApply wp_ret. iApply (Hfin with "H"); try done; [lia|]. unfold stable, amply.
        destruct (N.leb_spec n (s_cap x)); lia.
      + iApply wp_ret. iApply wp_ret. iApply (Hfin with "H"); try done. unfold stable, amply. destruct (N.leb_spec n (s_cap x)); [done|lia].
    - (* VReserve *)
      destruct (zget Z c HZ) as (x&es&Hs&Hr&Hg&Hp); [done|]. rewrite Hg. rewrite (inv_perm _ _ _ _ _ _ Hp).
      iApply wp_bind. unfold reserve. rewrite v_cap_of. destruct (N.ltb_spec (s_cap x) n) as [Hlt|Hge].
      + iApply wp_strong_mono. iSplitL; [by iApply (set_size_spec with "H")|].
        iIntros ([v E2]) "H". iDestruct "H" as (x2 es2) "[%HH H]". destruct HH as (H1&H2&H3&H4&H5). cbn [fst snd] in *. subst v.
        iApply (fin_become with "H"); try done; rewrite ?Hg; [done| |].
        * rewrite H4. apply take_ge. pose proof (r_ok _ _ _ Hr) as [Hok _]. cbn in Hok. unfold s_len in Hok. lia.
        * unfold stable, amply. destruct (N.leb_spec n (s_cap x)); lia.
      + iApply wp_ret. iApply (fin_become with "H"); try done; rewrite ?Hg; try done.
        unfold stable, amply. destruct (N.leb_spec n (s_cap x)); [done|lia].
    - (* VPush *)
      destruct (zget Z c HZ) as (x&es&Hs&Hr&Hg&Hp); [done|]. rewrite Hg. rewrite (inv_perm _ _ _ _ _ _ Hp).
      match goal with H : ok_ref _ _ = true |- _ => rename H into Lr end.
      assert (Hfin : forall E2 x2 es2 e, rep (x2, es2) -> s_al x2 = s_al x -> s_l x2 = s_l x -> s_len x < s_cap x2 ->
        stable (s_len x + 1) (amply (s_len x + 1) x) x x2 -> src_elem sz (one (x2, es2) ++ bl (delete c Z)) (locate sz r (stov Z)) e ->
        stands sz (val_of r (fst <$> Z)) e ->
        inv E2 (one (x2, es2) ++ bl (delete c Z)) ⊢ wp bad
          (assign sz (v_end (vec_of x2)) (locate sz r (stov Z)) ;;;
           ret (v_end (vec_of x2), Vec (v_al (vec_of x2)) (v_beg (vec_of x2)) (v_end (vec_of x2) + sz) (v_max (vec_of x2)), E2))
          (fun q => wp bad (ret (CNum (index_of sz (snd (fst q)) (fst (fst q))), (snd q, <[c := snd (fst q)]> (stov Z)))) (fun r' =>
          ∃ m', ⌈fst r' = CNum (s_len x) /\ become c (s_len x + 1) (amply (s_len x + 1) x) (s_l x ++ [val_of r (fst <$> Z)]) (fst <$> Z) m'⌉ ∗
          cinv (fst (snd r')) (snd (snd r')) m'))).
      { intros E2 x2 es2 e H1 H2 H3 H4 H5 Hsrc Hst. iIntros "H". iApply wp_bind. iApply wp_strong_mono. iSplitL.
        - cbn [v_end vec_of]. replace (s_data x2 + s_len x2 * sz) with (s_data x2 + sz * N.of_nat (length (s_l x2))) by (unfold s_len; lia).
          pose proof (r_len _ _ _ H1) as Hl. cbn [fst snd] in Hl. unfold s_len in H4.
          iApply (put_elem_spec CA b sz D Hsz with "H"); [done|lia|rewrite H3; lia|done|exact Hst].
        - iIntros (_) "H". iDestruct "H" as (es3) "[%Hr3 H]". iApply wp_ret. cbn [fst snd].
          rewrite splice_end in Hr3 |- *. set (y := SVec _ _ _ _) in *.
          assert (Vec (v_al (vec_of x2)) (v_beg (vec_of x2)) (v_end (vec_of x2) + sz) (v_max (vec_of x2)) = vec_of y) as ->.
          { subst y. unfold vec_of, s_len. cbn [v_al v_beg v_end v_max s_al s_data s_cap s_l]. f_equal.
            rewrite app_length. cbn [length]. lia. }
          iApply (fin_become with "H"); try done; rewrite ?Hg; try done.
          + f_equal. unfold index_of. cbn [v_beg v_end vec_of s_data y].
            replace (_ - _) with (s_len x2 * sz) by lia. rewrite N.div_mul; [|lia]. unfold s_len. by rewrite H3.
          + subst y. cbn [s_l]. by rewrite H3. }
      iApply wp_bind. iApply (wp_mono _ _ (fun q => wp bad (ret (CNum (index_of sz (snd (fst q)) (fst (fst q))), (snd q, <[c := snd (fst q)]> (stov Z)))) (fun r' =>
          ∃ m', ⌈fst r' = CNum (s_len x) /\ become c (s_len x + 1) (amply (s_len x + 1) x) (s_l x ++ [val_of r (fst <$> Z)]) (fst <$> Z) m'⌉ ∗
          cinv (fst (snd r')) (snd (snd r')) m')%I)).
      { intros [[it v] E2]. done. }
      unfold push_back. iApply wp_bind. pose proof (r_ok _ _ _ Hr) as [Hok _]. cbn [fst] in Hok.
      cbn [v_end v_max vec_of]. destruct (N.eqb_spec (s_data x + s_len x * sz) (s_data x + s_cap x * sz)) as [He|He].
      + assert (Hfull : s_len x = s_cap x) by nia.
        destruct (argE Z (delete c Z) r HZ) as (e&Hsrc&Hst); [|done|].
        { destruct r as [|c' i]; [done|]. rewrite lookup_delete_ne //. intros <-.
          match goal with H : (_ || room _ _ _)%bool = true |- _ => rename H into Lo end. rewrite orb_true_iff in Lo. destruct Lo as [Lo|Lo].
          - apply negb_true_iff, bool_decide_eq_false in Lo. done.
          - unfold room in Lo. apply N.leb_le in Lo. rewrite look_spec Hg in Lo. cbn in Lo. lia. }
        fold (vec_of x). iApply wp_strong_mono. iSplitL; [by iApply (expand_spec with "H")|].
        iIntros ([v E2]) "H". iDestruct "H" as (x2 es2) "[%HH H]". destruct HH as (H1&H2&H3&H4&H5). cbn [fst snd] in *. subst v.
        iApply (Hfin with "H"); try done; [lia| |].
        * unfold stable, amply. destruct (N.leb_spec (s_len x + 1) (s_cap x)); lia.
        * eapply src_elem_mono; [|done]. intros z Hz. apply elem_of_app. by right.
      + destruct (argE Z Z r HZ) as (e&Hsrc&Hst); [by destruct r|done|].
        fold (vec_of x). iApply wp_ret. iApply (Hfin with "H"); try done; [nia| |].
        * unfold stable, amply. destruct (N.leb_spec (s_len x + 1) (s_cap x)); [done|nia].
        * eapply src_elem_mono; [|done]. intros z. by rewrite Hp.
    - (* VPushRange *)
      destruct (zget Z c HZ) as (x&es&Hs&Hr&Hg&Hp); [done|]. rewrite Hg. rewrite (inv_perm _ _ _ _ _ _ Hp).
      match goal with H : ok_range _ _ = true |- _ => rename H into Lr end.
      set (vals := vals_of g (fst <$> Z)). set (n := N.of_nat (length vals)).
      set (Post := (fun q : N * vec * env A => wp bad (ret (CNum (index_of sz (snd (fst q)) (fst (fst q))), (snd q, <[c := snd (fst q)]> (stov Z)))) (fun r' =>
          ∃ m', ⌈fst r' = CNum (s_len x) /\ become c (s_len x + n) (amply (s_len x + n) x) (s_l x ++ vals) (fst <$> Z) m'⌉ ∗
          cinv (fst (snd r')) (snd (snd r')) m'))%I).
      assert (Hfin : forall E2 x2 es2, rep (x2, es2) -> s_al x2 = s_al x -> s_l x2 = s_l x ->
        stable (s_len x + n) (amply (s_len x + n) x) x x2 ->
        (inv E2 (one (x2, es2) ++ bl (delete c Z)) ⊢ wp bad (copy_in sz (s_data x2 + sz * N.of_nat (length (s_l x2))) (locate_range sz g (stov Z))) (fun _ => ∃ es',
          ⌈rep (SVec (s_al x2) (s_l x2 ++ vals) (s_cap x2) (s_data x2), es')⌉ ∗
          inv E2 (one (SVec (s_al x2) (s_l x2 ++ vals) (s_cap x2) (s_data x2), es') ++ bl (delete c Z)))) ->
        inv E2 (one (x2, es2) ++ bl (delete c Z)) ⊢ wp bad
          (copy_in sz (v_end (vec_of x2)) (locate_range sz g (stov Z)) ;;;
           ret (v_end (vec_of x2), Vec (v_al (vec_of x2)) (v_beg (vec_of x2)) (v_end (vec_of x2) + n * sz) (v_max (vec_of x2)), E2)) Post).
      { intros E2 x2 es2 H1 H2 H3 H4 Hcopy. iIntros "H". iApply wp_bind. iApply wp_strong_mono. iSplitL.
        - cbn [v_end vec_of]. replace (s_data x2 + s_len x2 * sz) with (s_data x2 + sz * N.of_nat (length (s_l x2))) by (unfold s_len; lia).
          by iApply (Hcopy with "H").
        - iIntros (_) "H". iDestruct "H" as (es3) "[%Hr3 H]". iApply wp_ret. unfold Post. cbn [fst snd].
          set (y := SVec _ _ _ _) in *.
          assert (Vec (v_al (vec_of x2)) (v_beg (vec_of x2)) (v_end (vec_of x2) + n * sz) (v_max (vec_of x2)) = vec_of y) as ->.
          { subst y. unfold vec_of, s_len. cbn [v_al v_beg v_end v_max s_al s_data s_cap s_l]. f_equal.
            rewrite app_length. subst n. lia. }
          iApply (fin_become with "H"); try done; rewrite ?Hg; try done.
          + f_equal. unfold index_of. cbn [v_beg v_end vec_of s_data y].
            replace (_ - _) with (s_len x2 * sz) by lia. rewrite N.div_mul; [|lia]. unfold s_len. by rewrite H3.
          + subst y. cbn [s_l]. by rewrite H3. }
      iApply wp_bind. iApply (wp_mono _ _ Post). { intros [[it v] E2]. done. }
      unfold push_back_range. pose proof (r_ok _ _ _ Hr) as [Hok _]. cbn [fst] in Hok.
      assert (Halen : array_length (locate_range sz g (stov Z)) = n).
      { destruct (argR Z Z g HZ) as (?&_&_&_&Hal); [by destruct g|done|done]. }
      rewrite Halen. iApply wp_bind. cbn [v_end v_max vec_of].
      replace (s_data x + s_cap x * sz - (s_data x + s_len x * sz)) with ((s_cap x - s_len x) * sz) by nia.
      rewrite N.div_mul; [|lia]. destruct (N.ltb_spec (s_cap x - s_len x) n) as [Hlt|Hge].
      + destruct (argR Z (delete c Z) g HZ) as (ds&Hsrc&Hst&Hdl&Hal); [|done|].
        { destruct g as [|c' i j]; [done|]. rewrite lookup_delete_ne //. intros <-.
          match goal with H : (_ || room _ _ _)%bool = true |- _ => rename H into Lo end. rewrite orb_true_iff in Lo. destruct Lo as [Lo|Lo].
          - apply negb_true_iff, bool_decide_eq_false in Lo. done.
          - unfold room in Lo. apply N.leb_le in Lo. rewrite look_spec Hg in Lo. cbn in Lo. cbn in Halen. lia. }
        fold (vec_of x). iApply wp_strong_mono. iSplitL; [by iApply (expand_spec with "H")|].
        iIntros ([v E2]) "H". iDestruct "H" as (x2 es2) "[%HH H]". destruct HH as (H1&H2&H3&H4&H5). cbn [fst snd] in *. subst v.
        iApply (Hfin with "H"); try done.
        * unfold stable, amply. destruct (N.leb_spec (s_len x + n) (s_cap x)); lia.
        * rewrite -(splice_end vals (s_l x2)). apply (put_range_spec CA b sz D Hsz _ _ _ _ _ _ ds); try done.
          pose proof (r_len _ _ _ H2) as Hl. cbn [fst snd] in Hl. rewrite H4 Hdl. unfold s_len in *. fold vals. subst n. lia.
      + fold (vec_of x). iApply wp_ret. iApply (Hfin with "H"); try done.
        { unfold stable, amply. destruct (N.leb_spec (s_len x + n) (s_cap x)); [done|lia]. }
        pose proof (r_len _ _ _ Hr) as Hl. cbn [fst snd] in Hl.
        destruct (match g with GVals _ => true | GElems c' _ _ => negb (bool_decide (c' = c)) end) eqn:Hown.
        * destruct (argR Z (delete c Z) g HZ) as (ds&Hsrc&Hst&Hdl&Hal); [|done|].
          { destruct g as [|c' i j]; [done|]. rewrite lookup_delete_ne //. intros <-. by rewrite bool_decide_true in Hown. }
          rewrite -(splice_end vals (s_l x)). apply (put_range_spec CA b sz D Hsz _ _ _ _ _ _ ds); try done.
          rewrite Hdl. unfold s_len in *. fold vals. subst n. lia.
        * destruct g as [|c' i j]; [done|]. apply negb_false_iff, bool_decide_eq_true in Hown. subst c'.
          cbn [ok_range] in Lr. bools. match goal with H : j <= _ |- _ => rename H into Lj end.
          rewrite look_spec Hg in Lj. cbn [i_size s_info] in Lj.
          match goal with H : i <= j |- _ => rename H into Li end.
          assert (Hvals : vals = take (N.to_nat (j - i)) (drop (N.to_nat i) (s_l x))) by (subst vals; cbn [vals_of]; by rewrite Hg).
          assert (Hn : n = j - i). { subst n. rewrite Hvals take_length drop_length. unfold s_len in Lj. lia. }
          set (ds := take (N.to_nat (j - i)) (drop (N.to_nat i) es)).
          assert (Hds : length ds = N.to_nat (j - i)). { subst ds. rewrite take_length drop_length. unfold s_len in *. lia. }
          assert (Hr3 : rep (SVec (s_al x) (s_l x ++ vals) (s_cap x) (s_data x), splice (length (s_l x)) ds es)).
          { rewrite -(splice_end vals (s_l x)). apply rep_splice; try done.
            - unfold s_len in *. rewrite Hds. lia.
            - rewrite Hvals. apply (stands_take sz D Hsz); [done|]. unfold s_len in *. lia.
            - apply Forall_take, Forall_drop, Hr.
            - apply Forall_take, Forall_drop, Hr. }
          cbn [locate_range]. rewrite get_of Hg. cbn [v_beg vec_of copy_in]. unfold elem_addr.
          destruct (N.eq_dec (s_data x) 0) as [H0|H0].
          { destruct (rep_null _ _ Hsz _ Hr H0) as (_&Hnil&_). cbn in Hnil. unfold s_len in Lj. rewrite Hnil in Lj. cbn in Lj.
            replace (j - i) with 0 by lia. iIntros "H". unfold memcpy. cbn. iApply wp_ret. iExists _. iSplit; [done|].
            unfold one. cbn [fst s_data]. by rewrite H0. }
          iIntros "H". iApply wp_strong_mono. iSplitL.
          { rewrite one_nonnull //. cbn [app]. replace (s_data x + sz * i) with (s_data x + sz * N.of_nat (N.to_nat i)) by lia.
            iApply (copy_own_spec CA b sz D Hsz with "H"); [apply Hr|unfold s_len in *; lia..]. }
          iIntros (_) "H". iExists _. iSplit; [done|]. rewrite one_nonnull //.
    - (* VErase *)
      destruct (zget Z c HZ) as (x&es&Hs&Hr&Hg&Hp); [done|]. rewrite Hg. rewrite (inv_perm _ _ _ _ _ _ Hp).
      match goal with H : i < _ |- _ => rename H into Li end. rewrite look_spec Hg in Li. cbn [i_size s_info] in Li.
      unfold erase, elem_addr. cbn [v_beg v_end vec_of]. iApply wp_bind. iApply wp_bind. iApply wp_assert.
      { apply andb_true_iff. split; [apply N.leb_le; lia|apply N.ltb_lt; nia]. }
      iApply wp_bind.
      replace (s_data x + s_len x * sz - (s_data x + sz * i)) with ((s_len x - i) * sz) by nia. rewrite N.div_mul; [|lia].
      replace (s_data x + sz * i + sz) with (s_data x + sz * N.of_nat (N.to_nat i + 1)) by lia.
      replace ((s_len x - i - 1) * sz) with (N.of_nat (length (s_l x) - (N.to_nat i + 1)) * sz) by (unfold s_len; f_equal; lia).
      replace (s_data x + sz * i) with (s_data x + sz * N.of_nat (N.to_nat i)) by lia.
      iApply wp_strong_mono. iSplitL; [iApply (remove_spec with "H"); [done|lia|unfold s_len in Li; lia]|].
      iIntros (_) "H". iDestruct "H" as (es') "[%Hr' H]". iApply wp_ret. set (y := SVec _ _ _ _) in *.
      assert (Hy : Vec (v_al (vec_of x)) (s_data x) (s_data x + s_len x * sz - sz) (v_max (vec_of x)) = vec_of y).
      { subst y. unfold vec_of, s_len in *. cbn [v_al v_max s_al s_data s_cap s_l]. f_equal.
        rewrite app_length take_length drop_length. nia. }
      rewrite Hy. iApply (fin_become with "H"); try done; rewrite ?Hg; try done.
      + f_equal. unfold index_of. cbn [v_beg vec_of s_data y]. replace (_ - _) with (i * sz) by lia. apply N.div_mul. lia.
      + subst y. cbn [s_l]. rewrite delete_take_drop. by rewrite Nat.add_1_r.
      + by apply stable_0.
    - (* VEraseRange *)
      destruct (zget Z c HZ) as (x&es&Hs&Hr&Hg&Hp); [done|]. rewrite Hg. rewrite (inv_perm _ _ _ _ _ _ Hp).
      match goal with H : j <= _ |- _ => rename H into Lj end. rewrite look_spec Hg in Lj. cbn [i_size s_info] in Lj.
      match goal with H : i <= j |- _ => rename H into Li end.
      unfold erase_range, elem_addr. cbn [v_beg v_end vec_of]. iApply wp_bind. iApply wp_bind. iApply wp_assert.
      { apply N.leb_le. nia. }
      iApply wp_bind. iApply wp_assert.
      { apply andb_true_iff. split; apply N.leb_le; nia. }
      iApply wp_bind.
      replace (s_data x + s_len x * sz - (s_data x + sz * j)) with ((s_len x - j) * sz) by nia. rewrite N.div_mul; [|lia].
      replace (s_data x + sz * j - (s_data x + sz * i)) with ((j - i) * sz) by nia.
      replace (s_data x + sz * j) with (s_data x + sz * N.of_nat (N.to_nat j)) by lia.
      replace ((s_len x - j) * sz) with (N.of_nat (length (s_l x) - N.to_nat j) * sz) by (unfold s_len; f_equal; lia).
      replace (s_data x + sz * i) with (s_data x + sz * N.of_nat (N.to_nat i)) by lia.
      iApply wp_strong_mono. iSplitL; [iApply (remove_spec with "H"); [done|lia|unfold s_len in Lj; lia]|].
      iIntros (_) "H". iDestruct "H" as (es') "[%Hr' H]". iApply wp_ret. set (y := SVec _ _ _ _) in *.
      assert (Hy : Vec (v_al (vec_of x)) (s_data x) (s_data x + s_len x * sz - (j - i) * sz) (v_max (vec_of x)) = vec_of y).
      { subst y. unfold vec_of, s_len in *. cbn [v_al v_max s_al s_data s_cap s_l]. f_equal.
        rewrite app_length take_length drop_length. nia. }
      rewrite Hy. iApply (fin_become with "H"); try done; rewrite ?Hg; try done; [|by apply stable_0].
      f_equal. unfold index_of. cbn [v_beg vec_of s_data y]. replace (_ - _) with (i * sz) by lia. apply N.div_mul. lia.
    - (* VClear *)
      destruct (zget Z c HZ) as (x&es&Hs&Hr&Hg&Hp); [done|]. rewrite Hg. rewrite (inv_perm _ _ _ _ _ _ Hp).
      pose proof (rep_trunc sz D Hsz _ _ 0 Hr) as Hr'. set (y := SVec _ _ _ _) in Hr'.
      assert (Vec (v_al (vec_of x)) (v_beg (vec_of x)) (v_beg (vec_of x)) (v_max (vec_of x)) = vec_of y) as ->.
      { subst y. unfold vec_of, s_len. cbn [v_al v_beg v_max s_al s_data s_cap s_l]. rewrite take_0. cbn [length]. by rewrite N.add_0_r. }
      change (one (x, es)) with (one (y, es)). iApply (fin_become with "H"); try done; rewrite ?Hg; [done..|by apply stable_0].
  Qed.

End vector.

Lemma vector_session {bad A req} (CA : service bad A req) b sz k (Hsz : 0 < sz) ops w :
  place b (N.of_nat k * a_size A) w ->
  csession_ok A b (vstep A b sz k) (release A b sz) (vcheck sz k) bad k ∅ ops w.
Proof.
  apply (csession_safe CA b _ _ _ _ _ (cinv CA b sz (set_seq 0 k) (vec_of sz))).
  - intros E. apply cinv_init.
  - intros o E vs s. apply vstep_spec; [done|]. intros h Ho HL. apply elem_of_set_seq.
    split; [lia|]. destruct o; cbn in *; try done; injection Ho as ->; unfold new_name in HL;
      repeat (apply andb_true_iff in HL as [HL ?]); by apply Nat.ltb_lt.
  - intros E vs s. apply (cinv_kill CA b sz _ _ _ (fun _ => True)); [|done]. intros. by apply release_spec.
Qed.
