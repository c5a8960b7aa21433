(** Containers of trivial elements as lists: representation, and steps common to all of them. *)
From iris.proofmode Require Import tactics.
From Verif Require Import Base Mem Sep Wp Allocators Contract Service Env EnvProofs Vector ElemProofs.

Local Open Scope N_scope.

Lemma has_spec {X} (f : X -> info) (m : gmap nat X) c : has (f <$> m) c = true <-> exists x, m !! c = Some x.
Proof.
  unfold has. rewrite bool_decide_eq_true lookup_fmap. split.
  - intros [y Hy]. destruct (m !! c); [eauto|done].
  - intros [x ->]. by eexists.
Qed.
Lemma has_false {X} (f : X -> info) (m : gmap nat X) c : has (f <$> m) c = false <-> m !! c = None.
Proof.
  destruct (has (f <$> m) c) eqn:H.
  - apply has_spec in H as [x ->]. done.
  - split; [|done]. intros _. destruct (m !! c) eqn:Hm; [|done]. enough (has (f <$> m) c = true) by congruence. apply has_spec. eauto.
Qed.
Lemma look_spec (m : gmap nat svec) c : look (s_info <$> m) c = s_info (s_get c m).
Proof. unfold look, s_get. rewrite lookup_fmap. by destruct (m !! c). Qed.

Section rep.
  Context {bad : event -> bool} {A : alloc} {req : N -> bool}.
  Context (CA : used bad A req) (b sz : N) (D : gset nat) (Hsz : 0 < sz).
  Local Notation inv := (inv CA b D).
  Local Notation inv_acc := (inv_acc CA b sz D Hsz).
  Local Notation szn := (N.to_nat sz).
  Local Notation sized := (Forall (fun e : list cell => length e = szn)).
  Local Notation raws := (Forall (Forall dead)).
  Local Notation sto := (svec * list (list cell))%type.

  Record rep (y : sto) : Prop := Rep {
    r_ok : s_ok (fst y);
    r_al : s_al (fst y) ∈ D;
    r_len : N.of_nat (length (snd y)) = s_cap (fst y);
    r_sized : sized (snd y);
    r_raw : raws (snd y);
    r_fit : s_data (fst y) + sz * s_cap (fst y) < W;
    r_val : forall i v, s_l (fst y) !! i = Some (Some v) -> snd y !! i = Some (chunk szn v)
  }.

  Definition one (y : sto) : list oblk :=
    if s_data (fst y) =? 0 then [] else [(s_al (fst y), (s_data (fst y), concat (snd y)))].
  Definition bl (Z : gmap nat sto) : list oblk := flat_map (fun p => one (snd p)) (map_to_list Z).

  Lemma flat_map_perm {X Y} (f : X -> list Y) l l' : l ≡ₚ l' -> flat_map f l ≡ₚ flat_map f l'.
  Proof. induction 1; cbn; [done|by f_equiv|by rewrite Permutation_app_swap_app|by etrans]. Qed.

  Lemma bl_delete Z c y : Z !! c = Some y -> bl Z ≡ₚ one y ++ bl (delete c Z).
  Proof. intros H. unfold bl. rewrite (flat_map_perm _ _ _ (symmetry (map_to_list_delete _ _ _ H))). done. Qed.
  Lemma bl_put Z c y : bl (<[c := y]> Z) ≡ₚ one y ++ bl (delete c Z).
  Proof.
    rewrite -insert_delete_insert. unfold bl.
    rewrite (flat_map_perm _ _ _ (map_to_list_insert _ _ _ (lookup_delete _ _))). done.
  Qed.
  Lemma bl_empty : bl ∅ = [].
  Proof. unfold bl. by rewrite map_to_list_empty. Qed.
  Lemma bl_in Z c y x : Z !! c = Some y -> x ∈ one y -> x ∈ bl Z.
  Proof. intros H Hx. rewrite (bl_delete _ _ _ H). apply elem_of_app. by left. Qed.

  Lemma rep_null y : rep y -> s_data (fst y) = 0 -> snd y = [] /\ s_l (fst y) = [] /\ s_cap (fst y) = 0.
  Proof.
    intros [[H1 [H2 H3]] _ H4 _ _ _ _] H0. specialize (H3 H0). unfold s_len in H1. rewrite H3 in H1, H4.
    split_and!; [| |done]; apply length_zero_iff_nil; lia.
  Qed.
  Lemma rep_le y : rep y -> (length (s_l (fst y)) <= length (snd y))%nat.
  Proof. intros [[H1 _] _ H2 _ _ _ _]. unfold s_len in H1. lia. Qed.

  (** Overwriting a part with values [vs], represented by [ds]. *)
  Definition stands (v : option value) (e : list cell) : Prop := forall x, v = Some x -> e = chunk szn x.

  Lemma rep_splice x es i vs ds : rep (x, es) -> (i <= length (s_l x))%nat -> (i + length ds <= length es)%nat ->
    Forall2 stands vs ds -> sized ds -> raws ds ->
    rep (SVec (s_al x) (splice i vs (s_l x)) (s_cap x) (s_data x), splice i ds es).
  Proof.
    intros [[H1 [H2 H3]] H4 H5 H6 H7 H8 H9] Hi Hds HF Hs Hd. cbn [fst snd] in *.
    assert (Hlen : length vs = length ds) by (by eapply Forall2_length).
    split; cbn [fst snd s_al s_l s_cap s_data].
    - split; [|done]. unfold s_len in *. cbn [s_l s_cap].
      unfold splice. rewrite !app_length take_length drop_length. lia.
    - done.
    - by rewrite splice_length.
    - by apply splice_Forall.
    - by apply splice_Forall.
    - done.
    - intros j v. unfold s_len in *. rewrite !splice_lookup; [|lia..]. rewrite Hlen.
      destruct (j <? i)%nat; [apply H9|]. destruct (j <? i + length ds)%nat eqn:E; [|apply H9].
      intros Hv. rewrite Forall2_lookup in HF. specialize (HF (j - i)%nat). rewrite Hv in HF.
      inversion HF as [? e Hst He|]; subst. f_equal. by apply Hst.
  Qed.

  Lemma rep_trunc x es n : rep (x, es) -> rep (SVec (s_al x) (take n (s_l x)) (s_cap x) (s_data x), es).
  Proof.
    intros [[H1 [H2 H3]] H4 H5 H6 H7 H8 H9]. split; cbn [fst snd s_al s_l s_cap s_data] in *; try done.
    - split; [|done]. unfold s_len in *. cbn [s_l s_cap]. rewrite take_length. lia.
    - intros i v Hv. apply H9. rewrite lookup_take_Some in Hv. by destruct Hv.
  Qed.

  (** Elements without a value. *)
  Lemma rep_extend x es n : rep (x, es) -> N.of_nat n <= s_cap x ->
    rep (SVec (s_al x) (take n (s_l x) ++ repeat None (n - length (s_l x))) (s_cap x) (s_data x), es).
  Proof.
    intros [[H1 [H2 H3]] H4 H5 H6 H7 H8 H9] Hn. split; cbn [fst snd s_al s_l s_cap s_data] in *; try done.
    - split; [|done]. unfold s_len in *. cbn [s_l s_cap]. rewrite app_length take_length repeat_length. lia.
    - intros i v Hv. apply lookup_app_Some in Hv as [Hv|[_ Hv]].
      + apply H9. rewrite lookup_take_Some in Hv. by destruct Hv.
      + apply elem_of_list_lookup_2, elem_of_list_In, repeat_spec in Hv. done.
  Qed.

  (** * Arguments *)
  Lemma one_in x es : s_data x <> 0 -> (s_al x, (s_data x, concat es)) ∈ one (x, es).
  Proof. intros H. unfold one. cbn [fst snd]. destruct (N.eqb_spec (s_data x) 0); [done|]. by apply elem_of_list_singleton. Qed.

  Lemma arg_elem (base : nat -> N) (Z Z' : gmap nat sto) r : map_Forall (fun _ => rep) Z ->
    (forall c, base c = s_data (s_get c (fst <$> Z))) ->
    match r with RVal _ => True | RElem c _ => Z' !! c = Z !! c end ->
    ok_ref (s_info <$> (fst <$> Z)) r = true ->
    exists e, src_elem sz (bl Z') (match r with RVal x => PVal x | RElem c i => PAddr (elem_addr sz (base c) i) end) e /\
      stands (val_of r (fst <$> Z)) e.
  Proof.
    intros HZ Hb Hc Hok. destruct r as [x|c i]; cbn [src_elem val_of].
    - exists (chunk szn x). split; [done|]. intros ? [= ->]. done.
    - cbn [ok_ref] in Hok. apply andb_true_iff in Hok as [H1 H2]. rewrite has_spec in H1. destruct H1 as [x H1].
      rewrite lookup_fmap in H1. destruct (Z !! c) as [[x' es]|] eqn:HZc; [|done]. cbn in H1. injection H1 as ->.
      rewrite look_spec in H2. unfold s_get in *. rewrite Hb. rewrite lookup_fmap HZc in H2 |- *. cbn [fst fmap option_fmap option_map default from_option id] in *.
      cbn [s_info i_size] in H2. apply N.ltb_lt in H2. pose proof (HZ _ _ HZc) as Hr.
      assert (Hlt : (N.to_nat i < length es)%nat). { pose proof (rep_le _ Hr). cbn [fst snd] in *. unfold s_len in H2. lia. }
      destruct (lookup_lt_is_Some_2 _ _ Hlt) as [e He]. exists e. split.
      + exists (s_al x), (s_data x), es, (N.to_nat i). split_and!; [|apply Hr|apply Hr|done|unfold elem_addr; lia].
        eapply bl_in; [done|]. apply one_in. intros H0. destruct (rep_null _ Hr H0) as (?&_). cbn in *. by subst es.
      + intros v Hv. destruct (s_l x !! N.to_nat i) as [[w|]|] eqn:Hl; cbn in Hv; try done. injection Hv as ->.
        pose proof (r_val _ Hr _ _ Hl) as Hq. cbn in Hq. rewrite He in Hq. by injection Hq.
  Qed.

  Lemma stands_take x es i n : rep (x, es) -> (i + n <= length (s_l x))%nat ->
    Forall2 stands (take n (drop i (s_l x))) (take n (drop i es)).
  Proof.
    intros Hr Hn. pose proof (rep_le _ Hr) as Hle. cbn [fst snd] in Hle. apply Forall2_same_length_lookup_2.
    - rewrite !take_length !drop_length. lia.
    - intros j v e Hv He y ->. rewrite lookup_take_Some lookup_drop in Hv. destruct Hv as [Hv _].
      rewrite lookup_take_Some lookup_drop in He. destruct He as [He _].
      pose proof (r_val _ Hr _ _ Hv) as Hq. cbn in Hq. rewrite He in Hq. by injection Hq.
  Qed.

  Lemma arg_range (base : nat -> N) (Z Z' : gmap nat sto) g : map_Forall (fun _ => rep) Z ->
    (forall c, base c = s_data (s_get c (fst <$> Z))) ->
    match g with GVals _ => True | GElems c _ _ => Z' !! c = Z !! c end ->
    ok_range (s_info <$> (fst <$> Z)) g = true ->
    exists ds, src_arr sz (bl Z') (match g with GVals l => QVals l | GElems c i j => QAddr (elem_addr sz (base c) i) (j - i) end) ds /\
      Forall2 stands (vals_of g (fst <$> Z)) ds.
  Proof.
    intros HZ Hb Hc Hok. destruct g as [l|c i j]; cbn [src_arr vals_of].
    - exists (map (chunk szn) l). split; [done|]. clear. induction l as [|a l IH]; cbn; constructor; [|done]. by intros ? [= ->].
    - cbn [ok_range] in Hok. apply andb_true_iff in Hok as [H1 H3]. apply andb_true_iff in H1 as [H1 H2].
      apply N.leb_le in H2. rewrite has_spec in H1. destruct H1 as [x H1].
      rewrite lookup_fmap in H1. destruct (Z !! c) as [[x' es]|] eqn:HZc; [|done]. cbn in H1. injection H1 as ->.
      rewrite look_spec in H3. unfold s_get in *. rewrite Hb. rewrite lookup_fmap HZc in H3 |- *. cbn [fst fmap option_fmap option_map default from_option id] in *.
      cbn [s_info i_size] in H3. apply N.leb_le in H3. pose proof (HZ _ _ HZc) as Hr. unfold s_len in H3.
      pose proof (rep_le _ Hr) as Hle. cbn [fst snd] in Hle.
      exists (take (N.to_nat (j - i)) (drop (N.to_nat i) es)). split; [|apply stands_take; [done|lia]].
      destruct (N.eqb_spec (s_data x) 0) as [H0|H0].
      + left. destruct (rep_null _ Hr H0) as (?&Hn&_). cbn in Hn. rewrite Hn in H3. cbn in H3.
        split; [lia|]. by replace (j - i) with 0 by lia.
      + right. exists (s_al x), (s_data x), es, (N.to_nat i).
        split_and!; [|apply Hr|apply Hr|lia|done|unfold elem_addr; lia].
        eapply bl_in; [done|]. by apply one_in.
  Qed.

  (** * Steps *)
  Lemma one_nonnull x es : s_data x <> 0 -> one (x, es) = [(s_al x, (s_data x, concat es))].
  Proof. intros H. unfold one. cbn [fst snd]. by destruct (N.eqb_spec (s_data x) 0). Qed.

  (** A new block of [n] elements. *)
  Lemma alloc_spec E B h n : h ∈ D ->
    inv E B ⊢ wp bad (te_alloc A b sz h n E) (fun r => ∃ es,
      ⌈rep (SVec h (repeat None (N.to_nat n)) n (fst r), es)⌉ ∗
      inv (snd r) (one (SVec h (repeat None (N.to_nat n)) n (fst r), es) ++ B)).
  Proof.
    intros Hh. iIntros "H". iApply wp_strong_mono. iSplitL; [by iApply (te_alloc_spec CA b sz D Hsz with "H")|].
    iIntros ([p E']) "[[%H0 H]|H]"; cbn [fst snd] in *.
    - destruct H0 as [-> ->]. iExists []. unfold one. cbn [fst snd]. iFrame. iPureIntro.
      split; cbn [fst snd s_al s_l s_cap s_data]; [split_and!; done|done|done|constructor|constructor| |done].
      unfold W. lia.
    - iDestruct "H" as (es) "[%HH H]". destruct HH as (H1&H2&H3&H4&H5&H6). iExists es. rewrite one_nonnull //. iFrame. iPureIntro.
      split; cbn [fst snd s_al s_l s_cap s_data]; try done.
      + unfold s_ok, s_len. cbn [s_l s_cap s_data]. rewrite repeat_length. split_and!; [lia|done|done].
      + intros i v Hv. apply elem_of_list_lookup_2, elem_of_list_In, repeat_spec in Hv. done.
  Qed.

  Lemma free_spec E B x es : rep (x, es) -> s_data x <> 0 ->
    inv E (one (x, es) ++ B) ⊢ wp bad (te_free A b sz (s_al x) (s_data x) (s_cap x) E) (fun E' => inv E' B).
  Proof.
    intros Hr H0. rewrite one_nonnull //. iIntros "H". iApply (te_free_spec CA b sz D Hsz with "H").
    - rewrite (concat_length szn); [|apply Hr]. pose proof (r_len _ Hr). cbn in *. nia.
    - apply Forall_concat. apply Hr.
  Qed.

  (** Writing into a container at index [i]. *)
  Lemma put_elem_spec E B x es i src e v : rep (x, es) -> (i <= length (s_l x))%nat -> (i < length es)%nat ->
    src_elem sz (one (x, es) ++ B) src e -> stands v e ->
    inv E (one (x, es) ++ B) ⊢ wp bad (assign sz (s_data x + sz * N.of_nat i) src) (fun _ => ∃ es',
      ⌈rep (SVec (s_al x) (splice i [v] (s_l x)) (s_cap x) (s_data x), es')⌉ ∗
      inv E (one (SVec (s_al x) (splice i [v] (s_l x)) (s_cap x) (s_data x), es') ++ B)).
  Proof.
    intros Hr Hi Hi' Hsrc Hst.
    assert (H0 : s_data x <> 0). { intros H0. destruct (rep_null _ Hr H0) as (?&_). cbn in *. subst es. cbn in Hi'. lia. }
    rewrite one_nonnull // in Hsrc |- *. cbn [app] in *. destruct (src_elem_raw sz _ _ _ Hsrc) as [Hl Hd].
    iIntros "H". iApply wp_strong_mono. iSplitL; [by iApply (assign_spec CA b sz D Hsz with "H"); [apply Hr|..]|].
    iIntros (_) "H". iExists (<[i := e]> es). rewrite one_nonnull //. iFrame. iPureIntro.
    rewrite -splice_one //. apply rep_splice; try done; [cbn; lia|..]; repeat constructor; done.
  Qed.

  Lemma put_range_spec E B x es i src ds vs : rep (x, es) -> (i <= length (s_l x))%nat -> (i + length ds <= length es)%nat ->
    src_arr sz B src ds -> Forall2 stands vs ds ->
    inv E (one (x, es) ++ B) ⊢ wp bad (copy_in sz (s_data x + sz * N.of_nat i) src) (fun _ => ∃ es',
      ⌈rep (SVec (s_al x) (splice i vs (s_l x)) (s_cap x) (s_data x), es')⌉ ∗
      inv E (one (SVec (s_al x) (splice i vs (s_l x)) (s_cap x) (s_data x), es') ++ B)).
  Proof.
    intros Hr Hi Hi' Hsrc Hst. destruct (src_arr_raw sz Hsz _ _ _ Hsrc) as (Hs&Hd&Hn).
    destruct (N.eq_dec (s_data x) 0) as [H0|H0].
    - destruct (rep_null _ Hr H0) as (Hes&_). cbn [snd] in Hes. subst es. destruct ds; [|cbn in Hi'; lia].
      apply Forall2_nil_inv_r in Hst as ->. iIntros "H".
      assert (Hsame : forall y : sto, s_data (fst y) = 0 -> one y = []) by (intros y Hy; unfold one; by rewrite Hy).
      iAssert (inv E (one (SVec (s_al x) (splice i [] (s_l x)) (s_cap x) (s_data x), []) ++ B)) with "[H]" as "H".
      { rewrite !Hsame //. }
      assert (Hx : rep (SVec (s_al x) (splice i [] (s_l x)) (s_cap x) (s_data x), [])).
      { rewrite splice_nil. by destruct x. }
      destruct src as [l|a n]; cbn [copy_in].
      + cbn in Hn. destruct l; [|cbn in Hn; lia]. iApply wp_ret. iExists []. by iFrame.
      + cbn in Hn. subst n. unfold memcpy. iApply wp_ret. iExists []. by iFrame.
    - rewrite one_nonnull //. cbn [app].
      iIntros "H". iApply wp_strong_mono. iSplitL; [by iApply (copy_in_spec CA b sz D Hsz with "H"); [apply Hr|..]|].
      iIntros (_) "H". iExists (splice i ds es). rewrite one_nonnull //. iFrame. iPureIntro. by apply rep_splice.
  Qed.

  (** Another container's storage as a source. *)
  Lemma src_storage B x es n : rep (x, es) -> one (x, es) ⊆ B -> n <= s_len x ->
    src_arr sz B (QAddr (s_data x) n) (take (N.to_nat n) es) /\
    Forall2 stands (take (N.to_nat n) (s_l x)) (take (N.to_nat n) es).
  Proof.
    intros Hr HB Hn. pose proof (rep_le _ Hr) as Hle. cbn [fst snd] in Hle. unfold s_len in Hn.
    assert (Hst : Forall2 stands (take (N.to_nat n) (s_l x)) (take (N.to_nat n) es)).
    { apply (stands_take x es 0); [done|lia]. }
    split; [|done]. destruct (N.eq_dec (s_data x) 0) as [H0|H0].
    - left. destruct (rep_null _ Hr H0) as (H1&H2&_). cbn in H1, H2. subst es. rewrite H2 in Hn. cbn in Hn. split; [lia|]. by rewrite take_nil.
    - right. exists (s_al x), (s_data x), es, 0%nat.
      split_and!; [|apply Hr|apply Hr|lia|done|lia]. apply HB. by apply one_in.
  Qed.

  (** * Families of containers *)
  Context {X : Type} (conv : svec -> X).

  Definition cinv (E : env A) (vs : gmap nat X) (m : gmap nat svec) : hpropI :=
    ∃ Z : gmap nat sto, ⌈vs = (conv ∘ fst) <$> Z /\ m = fst <$> Z /\ map_Forall (fun _ => rep) Z⌉ ∗ inv E (bl Z).

  Lemma cinv_init E : inv E [] ⊢ cinv E ∅ ∅.
  Proof. iIntros "H". iExists ∅. rewrite bl_empty. iFrame. iPureIntro. by rewrite !fmap_empty. Qed.

  Lemma cinv_put E Z c x es : map_Forall (fun _ => rep) (delete c Z) -> rep (x, es) ->
    inv E (one (x, es) ++ bl (delete c Z)) ⊢ cinv E (<[c := conv x]> ((conv ∘ fst) <$> Z)) (<[c := x]> (fst <$> Z)).
  Proof.
    intros HZ Hr. iIntros "H". iExists (<[c := (x, es)]> Z). rewrite !fmap_insert. iSplit.
    - iPureIntro. split_and!; [done|done|]. rewrite -insert_delete_insert. apply map_Forall_insert_2; [done|].
      done.
    - iApply (inv_perm with "H"). by rewrite bl_put.
  Qed.

  Lemma cinv_del E Z c : map_Forall (fun _ => rep) Z ->
    inv E (bl (delete c Z)) ⊢ cinv E (delete c ((conv ∘ fst) <$> Z)) (delete c (fst <$> Z)).
  Proof.
    intros HZ. iIntros "H". iExists (delete c Z). rewrite !fmap_delete. iFrame. iPureIntro. split_and!; [done|done|].
    by apply map_Forall_delete.
  Qed.

  Context (kill : X -> env A -> M (env A)).
  Context (P : svec -> Prop).
  Context (Hkill : forall E B x es, rep (x, es) -> P x -> inv E (one (x, es) ++ B) ⊢ wp bad (kill (conv x) E) (fun E' => inv E' B)).

  Lemma kill_all_spec (l : list (nat * sto)) E : Forall (fun p => rep (snd p) /\ P (fst (snd p))) l ->
    inv E (flat_map (fun p => one (snd p)) l) ⊢
    wp bad (kill_all A kill (map (fun p => (fst p, conv (fst (snd p)))) l) E) (fun E' => inv E' []).
  Proof.
    revert E. induction l as [|[c [x es]] l IH]; intros E Hl; cbn [map kill_all flat_map fst snd].
    - iIntros "H". by iApply wp_ret.
    - apply Forall_cons_iff in Hl as [[H1 H2] H3]. iIntros "H". iApply wp_bind. iApply wp_strong_mono.
      iSplitL; [by iApply (Hkill with "H")|]. iIntros (E') "H". by iApply IH.
  Qed.

  Lemma cinv_kill E vs m : map_Forall (fun _ => P) m -> cinv E vs m ⊢ wp bad (kill_all A kill (map_to_list vs) E) (fun E' => inv E' []).
  Proof.
    intros HP. iIntros "H". iDestruct "H" as (Z) "[%HH H]". destruct HH as (->&->&HZ). set (f := fun p : nat * sto => (fst p, conv (fst (snd p)))).
    assert (Hp : map_to_list (conv ∘ fst <$> Z) ≡ₚ map f (map_to_list Z)).
    { rewrite map_to_list_fmap. induction (map_to_list Z) as [|[? [? ?]] l IH]; [done|]. cbn. by f_equiv. }
    apply Permutation_map_inv in Hp as (l&->&Hl).
    iApply kill_all_spec.
    - apply list.Forall_forall. intros [c y] Hin. rewrite -Hl in Hin. apply elem_of_map_to_list in Hin. split; [by apply (HZ _ _ Hin)|]. apply (HP c). cbn. by rewrite lookup_fmap Hin.
    - iApply (inv_perm with "H"). unfold bl. by apply flat_map_perm.
  Qed.
End rep.
