(** trivial_array implements lists. *)
From iris.proofmode Require Import tactics.
From Verif Require Import Base Mem Sep Wp Allocators Contract Service Client Env EnvProofs Vector ElemProofs RepProofs VectorProofs Array.

Local Open Scope N_scope.

Section array.
  Context {bad : event -> bool} {A : alloc} {req : N -> bool}.
  Context (CA : used bad A req) (b sz : N) (D : gset nat) (Hsz : 0 < sz).
  Local Notation inv := (inv CA b D).
  Local Notation szn := (N.to_nat sz).
  Local Notation rep := (rep sz D).
  Local Notation sto := (svec * list (list cell))%type.
  Local Notation put_front_spec := (put_front_spec CA b sz D Hsz).

  Definition arr_of (x : svec) : arr := Arr (s_al x) (s_data x) (s_data x + s_len x * sz).
  Definition tight (x : svec) : Prop := s_cap x = s_len x.

  Lemma r_size_of x : r_size sz (arr_of x) = s_len x.
  Proof. unfold r_size, arr_of. cbn [r_end r_beg]. replace (_ - _) with (s_len x * sz) by lia. apply N.div_mul. lia. Qed.
  Lemma a_info_of x : tight x -> a_info sz (arr_of x) = s_info x.
  Proof. intros H. unfold a_info, s_info. by rewrite r_size_of H. Qed.

  Lemma aget_of (Z : gmap nat sto) c : aget c ((arr_of ∘ fst) <$> Z) = arr_of (s_get c (fst <$> Z)).
  Proof. unfold aget, s_get. rewrite !lookup_fmap. by destruct (Z !! c) as [[? ?]|]. Qed.

  Lemma drop_repeat {X} (x : X) i n : drop i (repeat x n) = repeat x (n - i).
  Proof. revert i. induction n as [|n IH]; intros [|i]; try done. cbn [repeat Nat.sub]. rewrite skipn_cons. apply IH. Qed.

  (** * Functions *)
  Lemma arelease_spec E B x es : rep (x, es) -> tight x ->
    inv E (one (x, es) ++ B) ⊢ wp bad (arelease A b sz (arr_of x) E) (fun E' => inv E' B).
  Proof.
    intros Hr Ht. unfold arelease. rewrite r_size_of -Ht. cbn [r_beg r_alc arr_of]. destruct (N.eqb_spec (s_data x) 0) as [H0|H0].
    - unfold one. cbn [fst]. rewrite H0. iIntros "H". by iApply wp_ret.
    - by apply free_spec.
  Qed.

  Lemma anew_n_spec E B h n : h ∈ D ->
    inv E B ⊢ wp bad (anew_n A b sz h n E) (fun r => ∃ x es,
      ⌈fst r = arr_of x /\ rep (x, es) /\ s_al x = h /\ s_l x = repeat None (N.to_nat n) /\ s_cap x = n⌉ ∗
      inv (snd r) (one (x, es) ++ B)).
  Proof.
    intros Hh. iIntros "H". unfold anew_n. iApply wp_bind. iApply wp_strong_mono.
    iSplitL; [by iApply (alloc_spec CA b sz D Hsz with "H")|]. iIntros ([p E']) "H". iDestruct "H" as (es) "[%Hr H]".
    iApply wp_ret. cbn [fst snd] in *. iExists _, es. iFrame "H". iPureIntro. split_and!; try done.
    unfold arr_of, s_len. cbn [s_al s_data s_l]. rewrite repeat_length. by rewrite N2Nat.id.
  Qed.

  Lemma aresize_spec E B x es n : rep (x, es) -> tight x -> n <> s_len x ->
    inv E (one (x, es) ++ B) ⊢ wp bad (aresize A b sz (arr_of x) n E) (fun r => ∃ x' es',
      ⌈fst r = arr_of x' /\ rep (x', es') /\ s_al x' = s_al x /\
       s_l x' = take (N.to_nat n) (s_l x) ++ repeat None (N.to_nat (n - s_len x)) /\ s_cap x' = n⌉ ∗
      inv (snd r) (one (x', es') ++ B)).
  Proof.
    intros Hr Ht Hn. unfold aresize. rewrite r_size_of. cbn [r_alc r_beg arr_of].
    destruct (N.eqb_spec (s_len x) n) as [Hx|_]; [done|]. cbn zeta.
    iIntros "H". iApply wp_bind. iApply wp_strong_mono.
    iSplitL; [iApply (alloc_spec CA b sz D Hsz with "H"); apply Hr|]. iIntros ([p E']) "H". iDestruct "H" as (es') "[%Hr' H]".
    cbn [fst snd] in *. set (x1 := SVec (s_al x) (repeat None (N.to_nat n)) n p) in *.
    set (cur := N.min (s_len x) n).
    set (l2 := take (N.to_nat n) (s_l x) ++ repeat None (N.to_nat (n - s_len x))).
    set (x2 := SVec (s_al x) l2 n p).
    assert (Hlen : s_len x2 = n). { subst x2 l2. unfold s_len. cbn [s_l]. rewrite app_length take_length repeat_length. lia. }
    assert (Hl2 : l2 = splice 0 (take (N.to_nat cur) (s_l x)) (repeat None (N.to_nat n))).
    { subst l2 cur. unfold splice, s_len. rewrite take_0. cbn [app]. rewrite drop_repeat take_length.
      destruct (decide (length (s_l x) <= N.to_nat n)%nat).
      - rewrite !take_ge; [|lia..]. do 2 f_equal. lia.
      - f_equal; [f_equal; lia|f_equal; lia]. }
    assert (Hfin : forall E (e2 : list (list cell)), rep (x2, e2) -> inv E (one (x2, e2) ++ B) ⊢
      wp bad (ret (Arr (s_al x) p (p + n * sz), E)) (fun r => ∃ x' es',
      ⌈fst r = arr_of x' /\ rep (x', es') /\ s_al x' = s_al x /\ s_l x' = l2 /\ s_cap x' = n⌉ ∗
      inv (snd r) (one (x', es') ++ B))).
    { intros E2 e2 H2. iIntros "H". iApply wp_ret. cbn [fst snd]. iExists x2, e2. iFrame "H". iPureIntro.
      split_and!; try done. unfold arr_of. by rewrite Hlen. }
    iApply wp_bind. destruct (N.eqb_spec (s_data x) 0) as [H0|H0].
    - destruct (rep_null _ _ Hsz _ Hr H0) as (H1&H2&H3). cbn [fst snd] in *. iApply wp_ret.
      iApply (Hfin _ es').
      + assert (x2 = x1) as ->; [|done]. subst x2 l2 x1. f_equal. unfold s_len. rewrite H2 take_nil. cbn [length app]. f_equal. lia.
      + unfold one at 2. cbn [fst]. rewrite H0. done.
    - iApply wp_bind.
      destruct (src_storage sz D Hsz (one (x, es) ++ B) x es cur Hr) as [Hsrc Hst].
      { intros y. rewrite elem_of_app. auto. } { subst cur. lia. }
      pose proof (rep_le _ _ Hsz _ Hr) as Hle. cbn [fst snd] in Hle.
      assert (Hl1 : length es' = N.to_nat n). { pose proof (r_len _ _ _ Hr') as H. cbn in H. lia. }
      iApply wp_strong_mono. iSplitL "H".
      + iApply (put_front_spec _ _ x1 _ (QAddr (s_data x) cur) with "H"); [done| |exact Hsrc|exact Hst].
        rewrite take_length Hl1. subst cur. lia.
      + iIntros (_) "H". iDestruct "H" as (e2) "[%Hr2 H]". cbn [s_data s_al s_cap s_l x1] in *.
        rewrite -Hl2 in Hr2 |- *. fold x2 in Hr2 |- *.
        iApply wp_strong_mono. iSplitL "H".
        * rewrite -Ht. iApply (free_spec CA b sz D Hsz _ (one (x2, e2) ++ B) _ _ Hr H0). iApply (inv_perm with "H").
          by rewrite Permutation_app_swap_app.
        * iIntros (E2) "H". by iApply (Hfin _ e2).
  Qed.

  Lemma acopy_of_spec E B h x es : h ∈ D -> rep (x, es) -> one (x, es) ⊆ B ->
    inv E B ⊢ wp bad (acopy_of A b sz h (arr_of x) E) (fun r => ∃ x' es',
      ⌈fst r = arr_of x' /\ rep (x', es') /\ s_al x' = h /\ s_l x' = s_l x /\ s_cap x' = s_len x⌉ ∗
      inv (snd r) (one (x', es') ++ B)).
  Proof.
    intros Hh Hr HB. unfold acopy_of. rewrite r_size_of. iIntros "H". iApply wp_bind. iApply wp_strong_mono.
    iSplitL; [by iApply (anew_n_spec with "H")|]. iIntros ([v E']) "H". iDestruct "H" as (x1 es1) "[%HH H]".
    destruct HH as (H1&H2&H3&H4&H5). cbn [fst snd] in *. subst v. cbn [r_beg arr_of].
    destruct (src_storage sz D Hsz B x es (s_len x) Hr HB) as [Hsrc Hst]; [lia|].
    pose proof (rep_le _ _ Hsz _ Hr) as Hle. cbn [fst snd] in Hle.
    assert (Hl1 : length es1 = length (s_l x)). { pose proof (r_len _ _ _ H2) as H. cbn [fst snd] in H. unfold s_len in H5. lia. }
    assert (Hln : N.to_nat (s_len x) = length (s_l x)) by (unfold s_len; lia).
    iApply wp_bind. iApply wp_strong_mono. iSplitL "H".
    - iAssert (wp bad (copy_in sz (s_data x1) (QAddr (s_data x) (s_len x))) (fun _ => ∃ es',
        ⌈rep (SVec (s_al x1) (s_l x) (s_cap x1) (s_data x1), es')⌉ ∗
        inv E' (one (SVec (s_al x1) (s_l x) (s_cap x1) (s_data x1), es') ++ B)))%I with "[H]" as "H".
      { iApply wp_strong_mono.
        iSplitL; [iApply (put_front_spec _ _ x1 with "H"); [done| |exact Hsrc|exact Hst]; rewrite take_length; lia|].
        iIntros (_) "H". rewrite Hln firstn_all splice_all; [|by rewrite H4 repeat_length].
        done. }
      cbn [copy_in]. destruct (N.eqb_spec (s_data x) 0) as [H0|H0]; [|iExact "H"].
      destruct (rep_null _ _ Hsz _ Hr H0) as (_&Hn&_). cbn in Hn. unfold s_len. rewrite Hn. cbn [length]. done.
    - iIntros (_) "H". iDestruct "H" as (es') "[%Hr' H]". iApply wp_ret. cbn [fst snd].
      iExists _, es'. iFrame "H". iPureIntro. split_and!; try done.
      unfold arr_of, s_len. cbn [s_al s_data s_l s_cap]. by rewrite H4 repeat_length Hln.
  Qed.

  (** * Operations *)
  Local Notation cinv := (cinv CA b sz D arr_of).
  Local Notation stov := (fmap (M := gmap nat) (A := sto) (arr_of ∘ fst)).

  Definition ainv (E : env A) (vs : gmap nat arr) (m : gmap nat svec) : hpropI :=
    ⌈map_Forall (fun _ => tight) m⌉ ∗ cinv E vs m.

  Lemma fin_aborn (Z : gmap nat sto) c h l E x es (P : gmap nat svec -> Prop) :
    map_Forall (fun _ => tight) (fst <$> Z) -> map_Forall (fun _ => rep) (delete c Z) -> rep (x, es) ->
    s_al x = h -> s_l x = l -> s_cap x = s_len x -> P (<[c := x]> (fst <$> Z)) ->
    inv E (one (x, es) ++ bl (delete c Z)) ⊢ wp bad (ret (CUnit, (E, <[c := arr_of x]> (stov Z)))) (fun r =>
      ∃ m', ⌈fst r = CUnit /\ born c h l (fst <$> Z) m' /\ P m'⌉ ∗ ainv (fst (snd r)) (snd (snd r)) m').
  Proof.
    intros HT HZ Hr Ha Hl Hc HP. iIntros "H". iApply wp_ret. cbn [fst snd]. iExists _. iSplitR; [|iSplitR; last by iApply (cinv_put with "H")].
    - iPureIntro. split; [done|]. split; [|exact HP]. exists x. split_and!; try done. apply Hr.
    - iPureIntro. by apply map_Forall_insert_2.
  Qed.
  Lemma fin_born (Z : gmap nat sto) c h l E x es :
    map_Forall (fun _ => tight) (fst <$> Z) -> map_Forall (fun _ => rep) (delete c Z) -> rep (x, es) ->
    s_al x = h -> s_l x = l -> s_cap x = s_len x ->
    inv E (one (x, es) ++ bl (delete c Z)) ⊢ wp bad (ret (CUnit, (E, <[c := arr_of x]> (stov Z)))) (fun r =>
      ∃ m', ⌈fst r = CUnit /\ born c h l (fst <$> Z) m'⌉ ∗ ainv (fst (snd r)) (snd (snd r)) m').
  Proof.
    intros HT HZ Hr Ha Hl Hc. iIntros "H". iApply wp_mono; last by iApply (fin_aborn _ _ _ _ _ _ _ (fun _ => True) with "H").
    intros r. iIntros "H". iDestruct "H" as (m') "[%H1 H]". iExists m'. iFrame "H". iPureIntro. naive_solver.
  Qed.

  Lemma alocate_of Z r : alocate sz r (stov Z) =
    match r with RVal x => PVal x | RElem c i => PAddr (elem_addr sz (s_data (s_get c (fst <$> Z))) i) end.
  Proof. destruct r; [done|]. cbn [alocate]. by rewrite aget_of. Qed.
  Lemma alocate_range_of Z g : alocate_range sz g (stov Z) =
    match g with GVals l => QVals l | GElems c i j => QAddr (elem_addr sz (s_data (s_get c (fst <$> Z))) i) (j - i) end.
  Proof. destruct g; [done|]. cbn [alocate_range]. by rewrite aget_of. Qed.

  Lemma ainfos_of (Z : gmap nat sto) : map_Forall (fun _ => tight) (fst <$> Z) -> a_info sz <$> stov Z = s_info <$> (fst <$> Z).
  Proof.
    intros HT. rewrite -!map_fmap_compose. apply map_fmap_ext. intros i [x es] Hi. cbn. apply a_info_of.
    apply (HT i). by rewrite lookup_fmap Hi.
  Qed.

  Ltac bools :=
    repeat match goal with
    | H : (_ && _)%bool = true |- _ => let L := fresh "L" in let L' := fresh "L" in apply andb_true_iff in H as [L L']
    | H : negb _ = true |- _ => apply negb_true_iff in H
    | H : new_name _ _ _ _ = true |- _ => unfold new_name in H
    | H : (_ <? _)%nat = true |- _ => apply Nat.ltb_lt in H
    | H : (_ <? _) = true |- _ => apply N.ltb_lt in H
    | H : (_ <=? _) = true |- _ => apply N.leb_le in H
    end.

  Lemma argE Z Z' r : map_Forall (fun _ => rep) Z -> match r with RVal _ => True | RElem c _ => Z' !! c = Z !! c end ->
    ok_ref (s_info <$> (fst <$> Z)) r = true ->
    exists e, src_elem sz (bl Z') (alocate sz r (stov Z)) e /\ stands sz (val_of r (fst <$> Z)) e.
  Proof. intros. rewrite alocate_of. by apply (arg_elem sz D Hsz (fun c => s_data (s_get c (fst <$> Z)))). Qed.
  Lemma argR Z Z' g : map_Forall (fun _ => rep) Z -> match g with GVals _ => True | GElems c _ _ => Z' !! c = Z !! c end ->
    ok_range (s_info <$> (fst <$> Z)) g = true ->
    exists ds, src_arr sz (bl Z') (alocate_range sz g (stov Z)) ds /\ Forall2 (stands sz) (vals_of g (fst <$> Z)) ds /\
      length ds = length (vals_of g (fst <$> Z)) /\ array_length (alocate_range sz g (stov Z)) = N.of_nat (length (vals_of g (fst <$> Z))).
  Proof.
    intros. rewrite alocate_range_of. destruct (arg_range sz D Hsz (fun c => s_data (s_get c (fst <$> Z))) Z Z' g) as (ds&H2&H3); try done.
    exists ds. assert (length ds = length (vals_of g (fst <$> Z))) as Hl by (symmetry; by eapply Forall2_length).
    split_and!; try done. rewrite -Hl. symmetry. by eapply src_arr_raw.
  Qed.

  Lemma aget_self (vs : gmap nat arr) c src : aget src (<[c := aget src vs]> vs) = aget src vs.
  Proof.
    destruct (decide (c = src)) as [->|Hne]; unfold aget at 1; [by rewrite lookup_insert|]. rewrite lookup_insert_ne //.
  Qed.

  Lemma s_get_tight (m : gmap nat svec) c : map_Forall (fun _ => tight) m -> tight (s_get c m).
  Proof. intros HT. unfold s_get. destruct (m !! c) as [x|] eqn:E; [by apply (HT c)|done]. Qed.

  Lemma aassign_spec E Z c src x es x0 es0 : Z !! c = Some (x, es) -> Z !! src = Some (x0, es0) ->
    (c <> src \/ s_len x0 = 0) -> map_Forall (fun _ => tight) (fst <$> Z) -> map_Forall (fun _ => rep) (delete c Z) -> rep (x0, es0) ->
    inv E (bl (delete c Z)) ⊢ wp bad (aassign A b sz c src (E, stov Z)) (fun r =>
      ∃ m', ⌈fst r = CUnit /\ born c (s_al x0) (s_l x0) (fst <$> Z) m'⌉ ∗ ainv (fst (snd r)) (snd (snd r)) m').
  Proof.
    intros Hs Hs0 L0 HT HZd Hr0. iIntros "H". unfold aassign. cbn zeta.
    assert (Hg : s_get c (fst <$> Z) = x) by (unfold s_get; by rewrite lookup_fmap Hs).
    assert (Hg0 : s_get src (fst <$> Z) = x0) by (unfold s_get; by rewrite lookup_fmap Hs0).
    rewrite !aget_of !Hg !Hg0.
    set (vs1 := <[c := _]> (stov Z)).
    assert (Hc1 : aget c vs1 = Arr (s_al x0) (s_data x) (s_data x + s_len x * sz)).
    { subst vs1. unfold aget. by rewrite lookup_insert. }
    assert (Hs1 : r_size sz (aget src vs1) = s_len x0).
    { destruct (decide (c = src)) as [->|Hne].
      - rewrite Hc1. rewrite Hs in Hs0. injection Hs0 as -> ->. apply (r_size_of x0).
      - subst vs1. unfold aget. rewrite lookup_insert_ne //. fold (aget src (stov Z)). rewrite aget_of Hg0. apply r_size_of. }
    rewrite Hs1 !Hc1. cbn [r_alc].
    iApply wp_bind. iApply wp_strong_mono. iSplitL.
    { iApply (alloc_spec CA b sz D Hsz with "H"). apply Hr0. }
    iIntros ([p E2]) "H". iDestruct "H" as (es1) "[%Hr1 H]". cbn [fst snd] in *. cbn zeta.
    set (x1 := SVec (s_al x0) _ _ p) in *. set (y := SVec (s_al x0) (s_l x0) (s_len x0) p).
    assert (Hvs : <[c := Arr (s_al x0) p (p + s_len x0 * sz)]> vs1 = <[c := arr_of y]> (stov Z)).
    { subst vs1. by rewrite insert_insert. }
    rewrite Hvs.
    assert (Hln : N.to_nat (s_len x0) = length (s_l x0)) by (unfold s_len; lia).
    iApply wp_bind. iApply wp_strong_mono. iSplitL "H".
    { iAssert (wp bad (memcpy p (r_beg (aget src (<[c := arr_of y]> (stov Z)))) (s_len x0 * sz)) (fun _ =>
        ∃ es2, ⌈rep (y, es2)⌉ ∗ inv E2 (one (y, es2) ++ bl (delete c Z))))%I with "[H]" as "H"; [|iExact "H"].
      destruct (decide (c = src)) as [->|Hne].
      - rewrite Hs in Hs0. injection Hs0 as -> ->. destruct L0 as [L0|L0]; [done|].
        assert (Hnil : s_l x0 = []). { apply length_zero_iff_nil. unfold s_len in L0. lia. }
        rewrite L0. cbn [N.mul]. unfold memcpy. cbn. iApply wp_ret. iExists es1.
        assert (y = x1) as ->; [|by iFrame]. subst x1 y. by rewrite L0 Hnil.
      - unfold aget. rewrite lookup_insert_ne //. fold (aget src (stov Z)). rewrite aget_of Hg0. cbn [r_beg arr_of].
        destruct (src_storage sz D Hsz (bl (delete c Z)) x0 es0 (s_len x0) Hr0) as [Hsrc Hst]; [|lia|].
        { intros z Hz. eapply bl_in; [|done]. by rewrite lookup_delete_ne. }
        iApply wp_strong_mono. iSplitL "H".
        { iApply (put_front_spec _ _ x1 _ (QAddr (s_data x0) (s_len x0)) with "H"); [done| |exact Hsrc|exact Hst].
          rewrite take_length. pose proof (r_len _ _ _ Hr1) as Hl. cbn [fst snd s_cap x1] in Hl. lia. }
        iIntros (_) "H". rewrite Hln firstn_all splice_all; [|by subst x1; cbn [s_l]; rewrite repeat_length Hln].
        iExact "H". }
    iIntros (_) "H". iDestruct "H" as (es2) "[%Hr2 H]". by iApply (fin_born with "H").
  Qed.

  Lemma amove_assign_spec E Z c src x es x0 es0 : Z !! c = Some (x, es) -> Z !! src = Some (x0, es0) ->
    map_Forall (fun _ => tight) (fst <$> Z) -> map_Forall (fun _ => rep) (delete c Z) -> rep (x0, es0) ->
    inv E (bl (delete c Z)) ⊢ wp bad (amove_assign A c src (E, stov Z)) (fun r =>
      ∃ m', ⌈fst r = CUnit /\ m' = <[src := emptied x0]> (<[c := x0]> (fst <$> Z))⌉ ∗ ainv (fst (snd r)) (snd (snd r)) m').
  Proof.
    intros Hs Hs0 HT HZd Hr0. iIntros "H". unfold amove_assign.
    assert (Hg0 : s_get src (fst <$> Z) = x0) by (unfold s_get; by rewrite lookup_fmap Hs0).
    assert (Ht0 : tight x0). { rewrite -Hg0. by apply s_get_tight. }
    cbn zeta. rewrite aget_self aget_of Hg0. cbn [r_alc arr_of].
    iApply wp_ret. cbn [fst snd]. iExists _. iSplitR; [done|]. iSplitR; [iPureIntro; by repeat apply map_Forall_insert_2|].
    pose proof (cinv_put CA b sz D arr_of E (<[c := (x0, es0)]> Z) src (emptied x0) []) as Hput.
    rewrite !fmap_insert in Hput. cbn [fst compose] in Hput. iApply Hput.
    + apply map_Forall_delete. rewrite -insert_delete_insert. by apply map_Forall_insert_2.
    + by eapply rep_emptied.
    + rewrite emptied_one. cbn [app]. destruct (decide (c = src)) as [->|Hne].
      * by rewrite delete_insert_delete.
      * rewrite delete_insert_ne //. iApply (inv_perm with "H").
        rewrite bl_put. rewrite (bl_delete (delete c Z) src (x0, es0)); [|by rewrite lookup_delete_ne].
        by rewrite delete_commute.
  Qed.

  Lemma astep_spec k o E vs m : (forall h, a_arg o = Some h -> alegal sz k (s_info <$> m) o = true -> h ∈ D) ->
    ainv E vs m ⊢ wp bad (astep A b sz k o (E, vs)) (fun r =>
    ∃ m', ⌈acheck sz k o (fst r) m m'⌉ ∗ ainv (fst (snd r)) (snd (snd r)) m').
  Proof.
    intros Hdom. iIntros "[%HT H]". iDestruct "H" as (Z) "[%HH H]". destruct HH as (->&->&HZ).
    unfold astep, acheck. cbn [snd]. rewrite ainfos_of //.
    assert (Hsame : inv E (bl Z) ⊢ ainv E (stov Z) (fst <$> Z)). { iIntros "H". iSplitR; [done|]. iExists Z. by iFrame. }
    destruct (alegal sz k (s_info <$> (fst <$> Z)) o) eqn:HL.
    2:{ iApply wp_ret. cbn [fst snd]. iExists _. iSplitR; [done|]. by iApply Hsame. }
    assert (HZd : forall c, map_Forall (fun _ => rep) (delete c Z)) by (intros c; by apply map_Forall_delete).
    destruct o; cbn [ado alegal acheck_do a_arg] in *; rewrite ?aget_of;
      try (specialize (Hdom _ eq_refl eq_refl)); bools.
    - (* ANew *) destruct (Z_fresh _ _ ltac:(eassumption)) as [Hf Hd].
      iApply wp_ret. cbn [fst snd]. iExists _. iSplitR; [done|]. iSplitR; [iPureIntro; by apply map_Forall_insert_2|].
      iApply (cinv_put _ _ _ _ arr_of _ _ _ (SVec h [] 0 0) []); [done| |].
      + split; cbn; [split_and!; done|done|done|constructor|constructor|unfold W; lia|done].
      + rewrite Hd. done.
    - (* ANewN *) destruct (Z_fresh _ _ ltac:(eassumption)) as [Hf Hd].
      iApply wp_bind. iApply wp_strong_mono. iSplitL; [by iApply (anew_n_spec with "H")|].
      iIntros ([v E']) "H". iDestruct "H" as (x es) "[%HH H]". destruct HH as (H1&H2&H3&H4&H5). cbn [fst snd] in *. subst v.
      iApply fin_born; try done; [|by rewrite Hd]. unfold s_len. rewrite H4 H5 repeat_length. lia.
    - (* ANewFill *) destruct (Z_fresh _ _ ltac:(eassumption)) as [Hf Hd].
      destruct (argE Z Z r HZ) as (e&Hsrc&Hst); [by destruct r|done|].
      iApply wp_bind. iApply wp_strong_mono. iSplitL; [by iApply (anew_n_spec with "H")|].
      iIntros ([v E']) "H". iDestruct "H" as (x es) "[%HH H]". destruct HH as (H1&H2&H3&H4&H5). cbn [fst snd] in *. subst v.
      iApply wp_bind. iApply wp_strong_mono. iSplitL.
      { iApply (fill_spec CA b sz D Hsz with "H"); try done. pose proof (r_len _ _ _ H2) as Hl. cbn in Hl. lia. }
      iIntros (_) "H". iDestruct "H" as (es') "[%Hr H]".
      set (y := SVec _ _ _ _) in *.
      assert (Hy : arr_of x = arr_of y).
      { subst y. unfold arr_of, s_len. cbn [s_al s_data s_l s_cap]. by rewrite H4 !repeat_length. }
      rewrite Hy. iApply fin_born; try done; [|by rewrite Hd]. subst y. unfold s_len. cbn [s_l s_cap]. rewrite H5 repeat_length. lia.
    - (* ANewList *) destruct (Z_fresh _ _ ltac:(eassumption)) as [Hf Hd].
      iApply wp_bind. iApply wp_strong_mono. iSplitL; [by iApply (anew_n_spec with "H")|].
      iIntros ([v E']) "H". iDestruct "H" as (x es) "[%HH H]". destruct HH as (H1&H2&H3&H4&H5). cbn [fst snd] in *. subst v.
      rewrite Nat2N.id in H4. iApply wp_bind. iApply wp_strong_mono. iSplitL.
      { iApply (store_spec CA b sz D Hsz with "H"); try done; [by rewrite H4 repeat_length|]. pose proof (r_len _ _ _ H2) as Hl. cbn in Hl. lia. }
      iIntros (_) "H". iDestruct "H" as (es') "[%Hr H]".
      set (y := SVec _ _ _ _) in *.
      assert (Hy : arr_of x = arr_of y).
      { subst y. unfold arr_of, s_len. cbn [s_al s_data s_l s_cap]. by rewrite H4 repeat_length map_length. }
      rewrite Hy. iApply fin_born; try done; [|by rewrite Hd]. subst y. unfold s_len. cbn [s_l s_cap]. by rewrite H5 map_length.
    - (* ANewRange *) destruct (Z_fresh _ _ ltac:(eassumption)) as [Hf Hd].
      destruct (argR Z Z g HZ) as (ds&Hsrc&Hst&Hl&Hal); [by destruct g|done|].
      iApply wp_bind. iApply wp_strong_mono. iSplitL; [by iApply (anew_n_spec with "H")|].
      iIntros ([v E']) "H". iDestruct "H" as (x es) "[%HH H]". destruct HH as (H1&H2&H3&H4&H5). cbn [fst snd] in *. subst v.
      rewrite Hal in H4, H5. rewrite Nat2N.id in H4. iApply wp_bind. iApply wp_strong_mono. iSplitL.
      { iApply (put_front_spec _ _ _ _ _ ds with "H"); try done. pose proof (r_len _ _ _ H2) as Hl'. cbn [fst snd] in Hl'. lia. }
      iIntros (_) "H". iDestruct "H" as (es') "[%Hr H]".
      rewrite splice_all in Hr |- *; [|by rewrite H4 repeat_length]. set (y := SVec _ _ _ _) in *.
      assert (Hy : arr_of x = arr_of y).
      { subst y. unfold arr_of, s_len. cbn [s_al s_data s_l s_cap]. by rewrite H4 repeat_length. }
      rewrite Hy. iApply fin_born; try done. by rewrite Hd.
    - (* ACopy *) destruct (Z_fresh _ _ ltac:(eassumption)) as [Hf Hd].
      destruct (zget sz D Z src HZ) as (x&es&Hs&Hr&Hg&Hp); [done|]. rewrite Hg. cbn [r_alc arr_of].
      iApply wp_bind. iApply wp_strong_mono. iSplitL.
      { iApply (acopy_of_spec with "H"); [apply Hr|done|]. intros y Hy. by eapply bl_in. }
      iIntros ([v E']) "H". iDestruct "H" as (x' es') "[%HH H]". destruct HH as (H1&H2&H3&H4&H5). cbn [fst snd] in *. subst v.
      iApply fin_born; try done; [|by rewrite Hd]. unfold s_len in *. by rewrite H4.
    - (* AMove *) destruct (Z_fresh _ _ ltac:(eassumption)) as [Hf Hd].
      pose proof (s_get_tight _ src HT) as Ht.
      destruct (zget sz D Z src HZ) as (x&es&Hs&Hr&Hg&Hp); [done|]. rewrite Hg in Ht |- *. cbn [r_alc arr_of].
      assert (Hne : c <> src) by congruence.
      iApply wp_ret. cbn [fst snd]. iExists _. iSplitR; [done|]. iSplitR; [iPureIntro; by repeat apply map_Forall_insert_2|].
      pose proof (cinv_put CA b sz D arr_of E (<[c := (x, es)]> Z) src (emptied x) []) as Hput.
      rewrite !fmap_insert in Hput. cbn [fst compose] in Hput. iApply Hput.
      + apply map_Forall_delete. by apply map_Forall_insert_2.
      + by eapply rep_emptied.
      + rewrite emptied_one delete_insert_ne //. iApply (inv_perm with "H"). cbn [app].
        rewrite bl_put Hp. rewrite (delete_notin (delete src Z)); [done|]. by rewrite lookup_delete_ne.
    - (* ACopyAl *) destruct (Z_fresh _ _ ltac:(eassumption)) as [Hf Hd].
      destruct (zget sz D Z src HZ) as (x&es&Hs&Hr&Hg&Hp); [done|]. rewrite Hg.
      iApply wp_bind. iApply wp_strong_mono. iSplitL.
      { iApply (acopy_of_spec with "H"); [done|done|]. intros y Hy. by eapply bl_in. }
      iIntros ([v E']) "H". iDestruct "H" as (x' es') "[%HH H]". destruct HH as (H1&H2&H3&H4&H5). cbn [fst snd] in *. subst v.
      iApply fin_born; try done; [|by rewrite Hd]. unfold s_len in *. by rewrite H4.
    - (* AMoveAl *) destruct (Z_fresh _ _ ltac:(eassumption)) as [Hf Hd].
      pose proof (s_get_tight _ src HT) as Ht.
      destruct (zget sz D Z src HZ) as (x&es&Hs&Hr&Hg&Hp); [done|]. rewrite look_spec Hg in L0. rewrite Hg in Ht |- *. rewrite r_size_of.
      assert (Hne : c <> src) by congruence. cbn [r_beg r_alc arr_of].
      iApply wp_bind. iApply wp_strong_mono. iSplitL; [by iApply (anew_n_spec with "H")|].
      iIntros ([v E']) "H". iDestruct "H" as (x1 es1) "[%HH H]". destruct HH as (H1&H2&H3&H4&H5). cbn [fst snd] in *. subst v.
      cbn [r_beg arr_of].
      pose proof (rep_le _ _ Hsz _ Hr) as Hle. cbn [fst snd] in Hle.
      assert (Hln : N.to_nat (s_len x) = length (s_l x)) by (unfold s_len; lia).
      assert (Hl1 : length es1 = length (s_l x)). { pose proof (r_len _ _ _ H2) as Hl. cbn [fst snd] in Hl. unfold s_len in H5. lia. }
      destruct (src_storage sz D Hsz (bl Z) x es (s_len x) Hr) as [Hsrc Hst]; [intros y Hy; by eapply bl_in|lia|].
      set (y := SVec (s_al x1) (s_l x) (s_cap x1) (s_data x1)).
      assert (Hy : arr_of x1 = arr_of y).
      { subst y. unfold arr_of, s_len. cbn [s_al s_data s_l s_cap]. by rewrite H4 repeat_length Hln. }
      rewrite Hy.
      assert (Hfin : forall E2 es2, rep (y, es2) -> inv E2 (one (y, es2) ++ bl (delete src Z)) ⊢
        wp bad (ret (CUnit, (E2, <[src := Arr (s_al x) 0 0]> (<[c := arr_of y]> (stov Z))))) (fun r => ∃ m',
          ⌈fst r = CUnit /\ exists m1, born c h (s_l x) (fst <$> Z) m1 /\ m' = <[src := emptied x]> m1⌉ ∗
          ainv (fst (snd r)) (snd (snd r)) m')).
      { intros E2 es2 Hy2. iIntros "H". iApply wp_ret. cbn [fst snd]. iExists (<[src := emptied x]> (<[c := y]> (fst <$> Z))). iSplitR.
        - iPureIntro. split; [done|]. exists (<[c := y]> (fst <$> Z)). split; [|done]. exists y. split_and!; try done; apply Hy2.
        - iSplitR; [iPureIntro; by repeat apply map_Forall_insert_2|].
          pose proof (cinv_put CA b sz D arr_of E2 (<[c := (y, es2)]> Z) src (emptied x) []) as Hput.
          rewrite !fmap_insert in Hput. cbn [fst compose] in Hput. iApply Hput.
          + apply map_Forall_delete. by apply map_Forall_insert_2.
          + by eapply rep_emptied.
          + rewrite emptied_one delete_insert_ne //. iApply (inv_perm with "H"). cbn [app].
            rewrite bl_put. rewrite (delete_notin (delete src Z)); [done|]. by rewrite lookup_delete_ne. }
      destruct (N.eqb_spec (s_data x) 0) as [H0|H0].
      + iApply wp_bind. iApply wp_ret. destruct (rep_null _ _ Hsz _ Hr H0) as (_&Hn&_). cbn in Hn.
        iApply (Hfin _ es1).
        * assert (x1 = y) as <-; [|done]. subst y. destruct x1 as [? l1 ? ?]. cbn in *. f_equal. rewrite H4 Hln Hn. done.
        * iApply (inv_perm with "H"). rewrite Hp. unfold one at 2. cbn [fst]. by rewrite H0.
      + rewrite orb_true_iff in L0. destruct L0 as [L0|L0]; apply N.eqb_eq in L0; [|done].
        iApply wp_bind. iApply wp_bind. iApply wp_strong_mono. iSplitL "H".
        { iApply (put_front_spec _ _ x1 _ (QAddr (s_data x) (s_len x)) with "H"); [done| |exact Hsrc|exact Hst]. rewrite take_length. lia. }
        iIntros (_) "H". iDestruct "H" as (es2) "[%Hr2 H]".
        rewrite Hln firstn_all splice_all in Hr2 |- *; [|by rewrite H4 repeat_length Hln].
        fold y in Hr2 |- *. iApply wp_strong_mono. iSplitL "H".
        { assert (mul64 (s_len x) sz = s_cap x) as ->.
          { unfold mul64, w64. rewrite L0 N.mul_1_r -Ht. apply N.mod_small. pose proof (r_fit _ _ _ Hr). cbn [fst] in *. nia. }
          iApply (free_spec CA b sz D Hsz _ (one (y, es2) ++ bl (delete src Z)) _ _ Hr H0).
          iApply (inv_perm with "H"). rewrite Hp. by rewrite Permutation_app_swap_app. }
        iIntros (E2) "H". by iApply (Hfin with "H").
    - (* ADestroy *)
      pose proof (s_get_tight _ c HT) as Ht.
      destruct (zget sz D Z c HZ) as (x&es&Hs&Hr&Hg&Hp); [done|]. rewrite Hg in Ht |- *.
      iApply wp_bind. iApply wp_strong_mono. iSplitL.
      { rewrite (inv_perm _ _ _ _ _ _ Hp). by iApply (arelease_spec with "H"). }
      iIntros (E') "H". iApply wp_ret. cbn [fst snd]. iExists _. iSplitR; [done|].
      iSplitR; [iPureIntro; by apply map_Forall_delete|]. by iApply (cinv_del with "H").
    - (* AAssign *)
      pose proof (s_get_tight _ c HT) as Ht.
      destruct (zget sz D Z c HZ) as (x&es&Hs&Hr&Hg&Hp); [done|]. rewrite Hg in Ht.
      destruct (zget sz D Z src HZ) as (x0&es0&Hs0&Hr0&Hg0&Hp0); [done|]. rewrite !Hg !Hg0.
      iApply wp_bind. iApply wp_strong_mono. iSplitL.
      { rewrite (inv_perm _ _ _ _ _ _ Hp). by iApply (arelease_spec with "H"). }
      iIntros (E') "H". iApply (aassign_spec with "H"); try done.
      rewrite orb_true_iff in L0. destruct L0 as [L0|L0].
      + left. by apply negb_true_iff, bool_decide_eq_false in L0.
      + destruct (decide (c = src)) as [->|]; [|by left]. right. apply N.eqb_eq in L0. by rewrite look_spec Hg0 in L0.
    - (* AMoveAssign *)
      pose proof (s_get_tight _ c HT) as Ht. pose proof (s_get_tight _ src HT) as Ht0.
      destruct (zget sz D Z c HZ) as (x&es&Hs&Hr&Hg&Hp); [done|].
      destruct (zget sz D Z src HZ) as (x0&es0&Hs0&Hr0&Hg0&Hp0); [done|]. rewrite Hg in Ht. rewrite Hg0 in Ht0. rewrite !Hg.
      iApply wp_bind. iApply wp_strong_mono. iSplitL.
      { rewrite (inv_perm _ _ _ _ _ _ Hp). by iApply (arelease_spec with "H"). }
      iIntros (E') "H". rewrite Hg0. by iApply (amove_assign_spec with "H").
    - (* AGet *)
      destruct (zget sz D Z c HZ) as (x&es&Hs&Hr&Hg&Hp); [done|].
      destruct (argE Z Z (RElem c i) HZ) as (e&Hsrc&Hst); [done| |].
      { cbn [ok_ref]. rewrite L. by apply N.ltb_lt. }
      cbn [alocate] in Hsrc. rewrite aget_of in Hsrc. rewrite r_size_of look_spec in L0 |- *.
      iApply wp_bind. iApply wp_assert; [by apply N.ltb_lt|].
      iApply wp_bind. iApply wp_strong_mono. iSplitL; [by iApply (read_spec CA b sz D Hsz with "H")|].
      iIntros (cs) "[%Hcs H]". subst cs. iApply wp_ret. cbn [fst snd]. iExists _. iSplitR; [|by iApply Hsame].
      iPureIntro. split; [done|]. eexists. split; [done|]. intros v Hv. rewrite (Hst v).
      + rewrite unchunk_chunk //. lia.
      + cbn [val_of]. by rewrite Hv.
    - (* ASet *)
      pose proof (s_get_tight _ c HT) as Ht.
      destruct (zget sz D Z c HZ) as (x&es&Hs&Hr&Hg&Hp); [done|]. rewrite Hg in Ht.
      match goal with H : i < _ |- _ => rename H into Li end. rewrite look_spec Hg in Li. cbn [i_size s_info] in Li.
      destruct (argE Z Z r HZ) as (e&Hsrc&Hst); [by destruct r|done|].
      rewrite Hg r_size_of. iApply wp_bind. iApply wp_assert; [by apply N.ltb_lt|].
      pose proof (rep_le _ _ Hsz _ Hr) as Hle. cbn [fst snd] in Hle. unfold s_len in Li.
      iApply wp_bind. iApply wp_strong_mono. iSplitL.
      { rewrite {1}(inv_perm _ _ _ _ _ _ Hp). cbn [r_beg arr_of]. unfold elem_addr. rewrite -{1}(N2Nat.id i).
        iApply (put_elem_spec CA b sz D Hsz with "H"); [done|lia|lia| |done].
        eapply src_elem_mono; [|done]. intros z. by rewrite Hp. }
      iIntros (_) "H". iDestruct "H" as (es') "[%Hr' H]". iApply wp_ret. cbn [fst snd]. iExists _. iSplitR; [done|].
      rewrite splice_one in Hr' |- *; [|lia].
      set (y := SVec _ _ _ _) in *.
      assert (stov Z = <[c := arr_of y]> (stov Z)) as Hvs.
      { rewrite insert_id //. rewrite lookup_fmap Hs. cbn. f_equal. subst y. unfold arr_of, s_len. cbn [s_al s_l s_data s_cap].
        by rewrite insert_length. }
      rewrite Hvs. iSplitR; [|by iApply (cinv_put with "H")]. iPureIntro. apply map_Forall_insert_2; [|done].
      subst y. unfold tight, s_len in *. cbn [s_l s_cap]. by rewrite insert_length.
    - (* ASize *) rewrite r_size_of. iApply wp_ret. cbn [fst snd]. iExists _. iSplitR; [done|]. by iApply Hsame.
    - (* AEmpty *) iApply wp_ret. cbn [fst snd]. iExists _. iSplitR; [|by iApply Hsame].
      iPureIntro. split; [done|]. f_equal. unfold arr_of. cbn [r_beg r_end]. set (n := s_len _). set (p := s_data _).
      destruct (N.eqb_spec n 0) as [->|Hn]; [apply N.eqb_eq; lia|apply N.eqb_neq; nia].
    - (* AData *) iApply wp_ret. cbn [fst snd]. iExists _. iSplitR; [done|]. by iApply Hsame.
    - (* AResize *)
      pose proof (s_get_tight _ c HT) as Ht.
      destruct (zget sz D Z c HZ) as (x&es&Hs&Hr&Hg&Hp); [done|]. rewrite Hg in Ht |- *.
      destruct (N.eqb_spec n (s_len x)) as [->|Hn].
      + unfold aresize. rewrite r_size_of N.eqb_refl. iApply wp_bind. iApply wp_ret. iApply wp_ret. cbn [fst snd].
        iExists _. iSplitR; [done|]. rewrite insert_id; [by iApply Hsame|]. by rewrite lookup_fmap Hs.
      + iApply wp_bind. iApply wp_strong_mono. iSplitL.
        { rewrite (inv_perm _ _ _ _ _ _ Hp). by iApply (aresize_spec with "H"). }
        iIntros ([v E2]) "H". iDestruct "H" as (x2 es2) "[%HH H]". destruct HH as (H1&H2&H3&H4&H5). cbn [fst snd] in *. subst v.
        iApply (fin_born with "H"); try done. rewrite H5. unfold s_len. rewrite H4 app_length take_length repeat_length. unfold s_len. lia.
    - (* AFrom *)
      pose proof (s_get_tight _ c HT) as Ht.
      destruct (zget sz D Z c HZ) as (x&es&Hs&Hr&Hg&Hp); [done|]. rewrite Hg in Ht |- *.
      match goal with H : ok_range _ _ = true |- _ => rename H into Lr end.
      (* the source is elsewhere, or of length zero *)
      assert (Hsrc : exists ds, src_arr sz (bl (delete c Z)) (alocate_range sz g (stov Z)) ds /\
        Forall2 (stands sz) (vals_of g (fst <$> Z)) ds /\ length ds = length (vals_of g (fst <$> Z)) /\
        array_length (alocate_range sz g (stov Z)) = N.of_nat (length (vals_of g (fst <$> Z)))).
      { destruct (match g with GVals _ => true | GElems c' _ _ => negb (bool_decide (c' = c)) end) eqn:Hown.
        - apply argR; try done. destruct g as [|c' i j]; [done|]. rewrite lookup_delete_ne //. intros <-. by rewrite bool_decide_true in Hown.
        - destruct g as [|c' i j]; [done|]. apply negb_false_iff, bool_decide_eq_true in Hown. subst c'.
          rewrite orb_true_iff bool_decide_true // in L0. destruct L0 as [L0|L0]; [done|]. apply N.eqb_eq in L0. subst j.
          exists []. cbn [alocate_range src_arr vals_of array_length]. rewrite N.sub_diag. cbn. split_and!; try done; by left. }
      destruct Hsrc as (ds&Hsrc&Hst&Hdl&Hal). set (vals := vals_of g (fst <$> Z)) in *.
      assert (Hcopy : forall E2 x2 es2, rep (x2, es2) -> s_al x2 = s_al x -> s_cap x2 = N.of_nat (length vals) -> tight x2 ->
        (length vals = length (s_l x) -> s_data x2 = s_data x) ->
        inv E2 (one (x2, es2) ++ bl (delete c Z)) ⊢ wp bad
          (copy_in sz (r_beg (arr_of x2)) (alocate_range sz g (stov Z)) ;;; ret (arr_of x2, E2)) (fun q =>
          wp bad (ret (CUnit, (snd q, <[c := fst q]> (stov Z)))) (fun r =>
            ∃ m', ⌈fst r = CUnit /\ born c (s_al x) vals (fst <$> Z) m' /\
                   (length vals = length (s_l x) -> s_data (s_get c m') = s_data x)⌉ ∗ ainv (fst (snd r)) (snd (snd r)) m'))).
      { intros E2 x2 es2 H1 H2 H3 H4 H5. iIntros "H". iApply wp_bind. iApply wp_strong_mono. iSplitL.
        - cbn [r_beg arr_of]. iApply (put_front_spec _ _ _ _ _ ds with "H"); try done.
          pose proof (r_len _ _ _ H1) as Hl. cbn [fst snd] in Hl. lia.
        - iIntros (_) "H". iDestruct "H" as (es3) "[%Hr3 H]". unfold tight, s_len in H4.
          rewrite splice_all in Hr3 |- *; [|lia]. iApply wp_ret. cbn [fst snd]. set (y := SVec _ _ _ _) in *.
          assert (arr_of x2 = arr_of y) as ->. { subst y. unfold arr_of, s_len. cbn [s_al s_data s_l]. f_equal. lia. }
          iApply (fin_aborn _ _ _ _ _ _ _ (fun m' => length vals = length (s_l x) -> s_data (s_get c m') = s_data x) with "H"); try done.
          intros Hv. unfold s_get. rewrite lookup_insert. cbn. by apply H5. }
      iApply wp_bind. iApply (wp_mono _ _ (fun q => wp bad (ret (CUnit, (snd q, <[c := fst q]> (stov Z)))) (fun r =>
            ∃ m', ⌈fst r = CUnit /\ born c (s_al x) vals (fst <$> Z) m' /\
                   (length vals = length (s_l x) -> s_data (s_get c m') = s_data x)⌉ ∗ ainv (fst (snd r)) (snd (snd r)) m')%I)).
      { intros [v E2]. done. }
      rewrite (inv_perm _ _ _ _ _ _ Hp). unfold afrom. rewrite Hal r_size_of. iApply wp_bind.
      destruct (N.eqb_spec (N.of_nat (length vals)) (s_len x)) as [He|He].
      + iApply wp_ret. iApply (Hcopy with "H"); try done. by rewrite Ht.
      + iApply wp_bind. cbn [r_alc r_beg arr_of]. iApply wp_strong_mono. iSplitL.
        { iApply (alloc_spec CA b sz D Hsz with "H"). apply Hr. }
        iIntros ([p E2]) "H". iDestruct "H" as (es1) "[%Hr1 H]". cbn [fst snd] in *. set (x1 := SVec _ _ _ p) in *.
        iApply wp_bind. iApply wp_strong_mono. iSplitL.
        { pose proof (arelease_spec E2 (one (x1, es1) ++ bl (delete c Z)) x es Hr Ht) as Hrel.
          unfold arelease in Hrel. rewrite r_size_of in Hrel. iApply Hrel. iApply (inv_perm with "H").
          by rewrite Permutation_app_swap_app. }
        iIntros (E3) "H". iApply wp_ret.
        assert (Arr (s_al x) p (p + N.of_nat (length vals) * sz) = arr_of x1) as ->.
        { subst x1. unfold arr_of, s_len. cbn [s_al s_data s_l]. by rewrite repeat_length Nat2N.id. }
        iApply (Hcopy with "H"); try done.
        * subst x1. unfold tight, s_len. cbn [s_cap s_l]. by rewrite repeat_length Nat2N.id.
        * intros Hv. exfalso. apply He. unfold s_len. by rewrite Hv.
  Qed.

End array.

Lemma array_session {bad A req} (CA : service bad A req) b sz k (Hsz : 0 < sz) ops w :
  place b (N.of_nat k * a_size A) w ->
  csession_ok A b (astep A b sz k) (arelease A b sz) (acheck sz k) bad k ∅ ops w.
Proof.
  apply (csession_safe CA b _ _ _ _ _ (ainv CA b sz (set_seq 0 k))).
  - intros E. iIntros "H". iSplitR; [iPureIntro; apply map_Forall_empty|]. by iApply cinv_init.
  - intros o E vs s. apply astep_spec; [done|]. intros h Ho HL. apply elem_of_set_seq.
    split; [lia|]. destruct o; cbn in *; try done; injection Ho as ->; unfold new_name in HL;
      repeat (apply andb_true_iff in HL as [HL ?]); by apply Nat.ltb_lt.
  - intros E vs s. iIntros "[%HT H]". iApply (cinv_kill CA b sz _ (arr_of sz) (arelease A b sz) tight with "H"); [|done].
    intros. by apply arelease_spec.
Qed.
