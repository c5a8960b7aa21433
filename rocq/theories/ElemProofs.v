(** Copying elements into the blocks of a family of allocators. *)
From iris.proofmode Require Import tactics.
From Verif Require Import Base Mem Sep Wp Allocators Contract Service Env EnvProofs Vector.

Local Open Scope N_scope.

(** [ds] in place of the elements from index [i] on. *)
Definition splice {X} (i : nat) (ds es : list X) : list X := take i es ++ ds ++ drop (i + length ds) es.

Lemma splice_length {X} i (ds es : list X) : (i + length ds <= length es)%nat -> length (splice i ds es) = length es.
Proof. intros H. unfold splice. rewrite !app_length take_length drop_length. lia. Qed.

Lemma splice_lookup {X} i (ds es : list X) j : (i <= length es)%nat ->
  splice i ds es !! j = if (j <? i)%nat then es !! j else if (j <? i + length ds)%nat then ds !! (j - i)%nat else es !! j.
Proof.
  intros H. unfold splice. destruct (j <? i)%nat eqn:E1; [|destruct (j <? i + length ds)%nat eqn:E2].
  - apply Nat.ltb_lt in E1. rewrite lookup_app_l; [|rewrite take_length; lia]. by rewrite lookup_take.
  - apply Nat.ltb_ge in E1. apply Nat.ltb_lt in E2. rewrite lookup_app_r; [|rewrite take_length; lia].
    rewrite take_length lookup_app_l; [f_equal; lia|lia].
  - apply Nat.ltb_ge in E1, E2. rewrite lookup_app_r; [|rewrite take_length; lia].
    rewrite take_length lookup_app_r; [|lia]. rewrite lookup_drop. f_equal. lia.
Qed.

Lemma splice_Forall {X} (P : X -> Prop) i ds es : Forall P ds -> Forall P es -> Forall P (splice i ds es).
Proof. intros H1 H2. unfold splice. apply Forall_app; split; [by apply Forall_take|]. apply Forall_app; split; [done|by apply Forall_drop]. Qed.

Lemma splice_nil {X} i (es : list X) : splice i [] es = es.
Proof. unfold splice. cbn [length app]. rewrite Nat.add_0_r. apply take_drop. Qed.

Lemma splice_one {X} i (e : X) es : (i < length es)%nat -> splice i [e] es = <[i := e]> es.
Proof. intros H. unfold splice. rewrite insert_take_drop //. cbn [length app]. by rewrite Nat.add_1_r. Qed.

Lemma splice_cons {X} i (e : X) ds es : (i < length es)%nat ->
  splice (S i) ds (<[i := e]> es) = splice i (e :: ds) es.
Proof.
  intros H. unfold splice. cbn [length]. rewrite drop_insert_gt; [|lia].
  rewrite (take_S_r _ _ e); [|by rewrite list_lookup_insert]. rewrite take_insert; [|lia].
  rewrite -app_assoc. cbn [app]. by rewrite (Nat.add_succ_r i).
Qed.

Section elem.
  Context {bad : event -> bool} {A : alloc} {req : N -> bool}.
  Context (CA : used bad A req) (b sz : N) (D : gset nat) (Hsz : 0 < sz).
  Local Notation inv := (inv CA b D).
  Local Notation inv_acc := (inv_acc CA b sz D Hsz).
  Local Notation inv_read := (inv_read CA b sz D Hsz).
  Local Notation szn := (N.to_nat sz).
  Local Notation sized := (Forall (fun e : list cell => length e = szn)).
  Local Notation raws := (Forall (Forall dead)).

  (** The argument of a copy has the bytes [e]. *)
  Definition src_elem (B : list oblk) (src : place_of) (e : list cell) : Prop :=
    match src with
    | PVal x => e = chunk szn x
    | PAddr a => exists h p es j,
      (h, (p, concat es)) ∈ B /\ sized es /\ raws es /\ es !! j = Some e /\ a = p + sz * N.of_nat j
    end.
  Definition src_arr (B : list oblk) (src : array_of) (ds : list (list cell)) : Prop :=
    match src with
    | QVals l => ds = map (chunk szn) l
    | QAddr a n => n = 0 /\ ds = [] \/ exists h p es j,
      (h, (p, concat es)) ∈ B /\ sized es /\ raws es /\ (j + N.to_nat n <= length es)%nat /\
      ds = take (N.to_nat n) (drop j es) /\ a = p + sz * N.of_nat j
    end.

  Lemma src_elem_raw B src e : src_elem B src e -> length e = szn /\ Forall dead e.
  Proof.
    destruct src; cbn.
    - intros ->. split; [apply chunk_length|apply chunk_dead].
    - intros (h&p&es&j&_&H1&H2&H3&_). split.
      + by rewrite Forall_lookup in H1; eapply H1.
      + by rewrite Forall_lookup in H2; eapply H2.
  Qed.
  Lemma src_arr_raw B src ds : src_arr B src ds -> sized ds /\ raws ds /\ N.of_nat (length ds) = array_length src.
  Proof.
    destruct src; cbn.
    - intros ->. rewrite map_length. split_and!; [| |done]; apply Forall_map, Forall_true; intros x; [apply chunk_length|apply chunk_dead].
    - intros [[-> ->]|(h&p&es&j&_&H1&H2&H3&->&_)]; [done|]. split_and!.
      + by apply Forall_take, Forall_drop.
      + by apply Forall_take, Forall_drop.
      + rewrite take_length drop_length. lia.
  Qed.

  Lemma src_elem_mono B B' src e : (forall x, x ∈ B -> x ∈ B') -> src_elem B src e -> src_elem B' src e.
  Proof. intros H. destruct src; [done|]. intros (h&p&es&j&Hin&?). exists h, p, es, j. by split; [apply H|]. Qed.
  Lemma src_arr_mono B B' src ds : (forall x, x ∈ B -> x ∈ B') -> src_arr B src ds -> src_arr B' src ds.
  Proof. intros H. destruct src; [done|]. intros [?|(h&p&es&j&Hin&?)]; [by left|right]. exists h, p, es, j. by split; [apply H|]. Qed.

  Lemma assign_spec E B h p es i src e : sized es -> (i < length es)%nat ->
    src_elem ((h, (p, concat es)) :: B) src e ->
    inv E ((h, (p, concat es)) :: B) ⊢ wp bad (assign sz (p + sz * N.of_nat i) src) (fun _ =>
      inv E ((h, (p, concat (<[i := e]> es))) :: B)).
  Proof.
    intros Hes Hi Hsrc. destruct (src_elem_raw _ _ _ Hsrc) as [Hl Hd].
    destruct (lookup_lt_is_Some_2 es i Hi) as [e0 He0].
    assert (Hl0 : length e0 = szn) by (by rewrite Forall_lookup in Hes; eapply Hes).
    assert (Hput : inv E ((h, (p, concat es)) :: B) ⊢ wp bad (wrs (p + sz * N.of_nat i) e) (fun _ =>
      inv E ((h, (p, concat (<[i := e]> es))) :: B))).
    { iIntros "H". iDestruct (inv_acc with "H") as "[Hp H]". iDestruct (pts_elem sz _ _ _ _ Hes He0 with "Hp") as "[Hp Hq]".
      iApply (wp_wrs _ _ e0); [by rewrite Hl Hl0|]. iFrame "Hp". iIntros "Hp". iSpecialize ("Hq" $! e with "[//] Hp").
      iApply ("H" with "[%] Hq"). rewrite !(concat_length szn) //; [by rewrite insert_length|]. by apply Forall_insert. }
    destruct src as [x|a]; cbn [assign].
    - cbn in Hsrc. subst e. done.
    - cbn in Hsrc. destruct Hsrc as (h2&p2&es2&j&Hin&H1&H2&H3&->). iIntros "H". iApply wp_bind.
      iDestruct (inv_read _ _ _ _ _ Hin with "H") as "[Hp H]".
      iDestruct (pts_elem sz _ _ _ _ H1 H3 with "Hp") as "[Hp Hq]".
      iApply (wp_rds' _ _ e); [by rewrite Hl|]. iFrame "Hp". iIntros "Hp". iSpecialize ("Hq" $! e with "[//] Hp").
      rewrite list_insert_id //. iSpecialize ("H" with "Hq"). by iApply Hput.
  Qed.

  (** From another block. *)
  Lemma copy_in_spec E B h p es i src ds : sized es -> (i + length ds <= length es)%nat -> src_arr B src ds ->
    inv E ((h, (p, concat es)) :: B) ⊢ wp bad (copy_in sz (p + sz * N.of_nat i) src) (fun _ =>
      inv E ((h, (p, concat (splice i ds es))) :: B)).
  Proof.
    intros Hes Hi Hsrc. destruct (src_arr_raw _ _ _ Hsrc) as (Hs&Hd&Hn).
    assert (Hlen : length (concat (splice i ds es)) = length (concat es)).
    { rewrite !(concat_length szn) //; [by rewrite splice_length|]. by apply splice_Forall. }
    destruct src as [l|a n]; cbn [copy_in].
    - cbn in Hsrc. rewrite -Hsrc. iIntros "H". iDestruct (inv_acc with "H") as "[Hp H]".
      iDestruct (pts_part sz _ _ i (length ds) Hes with "Hp") as "[Hp Hq]"; [done|].
      iApply wp_wrs; last iFrame "Hp".
      { rewrite !(concat_length szn) //; [|by apply Forall_take, Forall_drop]. rewrite take_length drop_length. f_equal. lia. }
      iIntros "Hp". iSpecialize ("Hq" $! ds with "[//] Hp"). by iApply ("H" with "[%] Hq").
    - cbn in Hsrc, Hn. destruct Hsrc as [[-> ->]|(h2&p2&es2&j&Hin&H1&H2&H3&->&->)].
      { rewrite splice_nil. iIntros "H". unfold memcpy. by iApply wp_ret. }
      apply elem_of_Permutation in Hin as [B' HB].
      set (ds := take (N.to_nat n) (drop j es2)) in *.
      assert (Hperm : forall x, x :: B ≡ₚ x :: (h2, (p2, concat es2)) :: B') by (intros x; by rewrite HB).
      rewrite (inv_perm _ _ _ _ _ _ (Hperm _)). iIntros "H".
      iDestruct (inv_acc2 with "H") as "(Hp & Hp2 & H)".
      iDestruct (pts_part sz _ _ i (length ds) Hes with "Hp") as "[Hp Hq]"; [done|].
      iDestruct (pts_part sz _ _ j (N.to_nat n) H1 with "Hp2") as "[Hp2 Hq2]"; [done|]. fold ds.
      iApply (wp_memcpy _ _ _ _ (concat ds)); last iFrame "Hp2 Hp".
      + rewrite (concat_length szn) //. nia.
      + rewrite !(concat_length szn) //; [|by apply Forall_take, Forall_drop]. rewrite take_length drop_length. f_equal. lia.
      + iIntros "Hp2 Hp". iSpecialize ("Hq" $! ds with "[//] Hp").
        iSpecialize ("Hq2" $! ds with "[%] Hp2"); [split; [lia|done]|].
        assert (take j es2 ++ ds ++ drop (j + N.to_nat n) es2 = es2) as ->.
        { subst ds. rewrite -drop_drop take_drop take_drop. done. }
        iApply (inv_perm _ _ _ _ _ _ (symmetry (Hperm _))). by iApply ("H" with "[%] Hq").
  Qed.

  (** From an earlier part of the same block. *)
  Lemma copy_own_spec E B h p es i j n : sized es ->
    (j + N.to_nat n <= i)%nat -> (i + N.to_nat n <= length es)%nat ->
    inv E ((h, (p, concat es)) :: B) ⊢ wp bad (memcpy (p + sz * N.of_nat i) (p + sz * N.of_nat j) (n * sz)) (fun _ =>
      inv E ((h, (p, concat (splice i (take (N.to_nat n) (drop j es)) es))) :: B)).
  Proof.
    intros Hes Hj Hi. set (ds := take (N.to_nat n) (drop j es)).
    assert (Hds : length ds = N.to_nat n) by (subst ds; rewrite take_length drop_length; lia).
    assert (Hs : sized ds) by (by apply Forall_take, Forall_drop).
    iIntros "H". iDestruct (inv_acc with "H") as "[Hp H]".
    rewrite (pts_elems sz _ _ i Hes); [|lia]. iDestruct "Hp" as "[Hp1 Hp2]".
    iDestruct (pts_part sz _ (take i es) j (N.to_nat n) with "Hp1") as "[Hp1 Hq1]"; [by apply Forall_take|rewrite take_length; lia|].
    iDestruct (pts_part sz _ (drop i es) 0 (N.to_nat n) with "Hp2") as "[Hp2 Hq2]"; [by apply Forall_drop|rewrite drop_length; lia|].
    rewrite N.mul_0_r N.add_0_r.
    replace (take (N.to_nat n) (drop j (take i es))) with ds.
    2:{ subst ds. rewrite !firstn_skipn_comm take_take. f_equal. f_equal. lia. }
    iApply (wp_memcpy _ _ _ _ (concat ds)); last iFrame "Hp1 Hp2".
    { rewrite (concat_length szn) //. nia. }
    { rewrite !(concat_length szn) //; [|by apply Forall_take, Forall_drop, Forall_drop]. rewrite take_length !drop_length. f_equal. lia. }
    iIntros "Hp1 Hp2". iSpecialize ("Hq1" $! ds with "[//] Hp1"). iSpecialize ("Hq2" $! ds with "[//] Hp2").
    iApply ("H" $! (concat (splice i ds es)) with "[%]").
    { rewrite !(concat_length szn) //; [rewrite splice_length //; lia|]. by apply splice_Forall. }
    assert (take j (take i es) ++ ds ++ drop (j + N.to_nat n) (take i es) = take i es) as ->.
    { replace ds with (take (N.to_nat n) (drop j (take i es))). { by rewrite -drop_drop !take_drop. }
      subst ds. rewrite !firstn_skipn_comm take_take. f_equal. f_equal. lia. }
    cbn [take app]. unfold splice. rewrite (concat_app (take i es)) pts_app. iFrame "Hq1".
    rewrite (concat_length szn); [|by apply Forall_take]. rewrite take_length Hds.
    replace (p + N.of_nat (i `min` length es * szn)) with (p + sz * N.of_nat i) by nia.
    rewrite take_0 drop_drop. done.
  Qed.

  Lemma fill_n_spec E B h p es i n src e : sized es -> (i + n <= length es)%nat -> src_elem B src e ->
    inv E ((h, (p, concat es)) :: B) ⊢ wp bad (fill_n sz (p + sz * N.of_nat i) n src) (fun _ =>
      inv E ((h, (p, concat (splice i (repeat e n) es))) :: B)).
  Proof.
    revert es i. induction n as [|n IH]; intros es i Hes Hi Hsrc; cbn [fill_n repeat].
    - rewrite splice_nil. iIntros "H". by iApply wp_ret.
    - iIntros "H". iApply wp_bind. iApply wp_strong_mono. iSplitL.
      { iApply (assign_spec with "H"); [done|lia|]. eapply src_elem_mono; [|done]. intros x. rewrite elem_of_cons. auto. }
      iIntros ([]) "H". rewrite -splice_cons; [|lia].
      replace (p + sz * N.of_nat i + sz) with (p + sz * N.of_nat (S i)) by lia.
      iApply (IH with "H"); [|rewrite insert_length; lia|done].
      apply Forall_insert; [done|]. by destruct (src_elem_raw _ _ _ Hsrc).
  Qed.

  Lemma store_list_spec E B h p es i l : sized es -> (i + length l <= length es)%nat ->
    inv E ((h, (p, concat es)) :: B) ⊢ wp bad (store_list sz (p + sz * N.of_nat i) l) (fun _ =>
      inv E ((h, (p, concat (splice i (map (chunk szn) l) es))) :: B)).
  Proof.
    revert es i. induction l as [|x l IH]; intros es i Hes Hi; cbn [store_list map length] in *.
    - rewrite splice_nil. iIntros "H". by iApply wp_ret.
    - iIntros "H". iApply wp_bind. iApply wp_strong_mono. iSplitL.
      { iApply (assign_spec with "H"); [done|lia|done]. }
      iIntros ([]) "H". rewrite -splice_cons; [|lia].
      replace (p + sz * N.of_nat i + sz) with (p + sz * N.of_nat (S i)) by lia.
      iApply (IH with "H"); [|rewrite insert_length; lia].
      apply Forall_insert; [done|]. apply chunk_length.
  Qed.

  (** memmove towards the front. *)
  Lemma memmove_spec E B h p es i j n : sized es -> (i <= j)%nat -> (j + N.to_nat n <= length es)%nat ->
    inv E ((h, (p, concat es)) :: B) ⊢ wp bad (memmove (p + sz * N.of_nat i) (p + sz * N.of_nat j) (n * sz)) (fun _ =>
      inv E ((h, (p, concat (splice i (take (N.to_nat n) (drop j es)) es))) :: B)).
  Proof.
    intros Hes Hj Hi. set (ds := take (N.to_nat n) (drop j es)).
    assert (Hds : length ds = N.to_nat n) by (subst ds; rewrite take_length drop_length; lia).
    assert (Hs : sized ds) by (by apply Forall_take, Forall_drop).
    unfold memmove. destruct (n * sz =? 0) eqn:En.
    { destruct ds; [|cbn in Hds; lia]. rewrite splice_nil. iIntros "H". by iApply wp_ret. }
    iIntros "H". iDestruct (inv_acc with "H") as "[Hp H]". iApply wp_bind.
    iDestruct (pts_part sz _ es j (N.to_nat n) Hes with "Hp") as "[Hp Hq]"; [done|]. fold ds.
    iApply (wp_rds' _ _ (concat ds)); [rewrite (concat_length szn) //; nia|]. iFrame "Hp". iIntros "Hp".
    iSpecialize ("Hq" $! ds with "[//] Hp").
    assert (take j es ++ ds ++ drop (j + N.to_nat n) es = es) as ->.
    { subst ds. by rewrite -drop_drop !take_drop. }
    iDestruct (pts_part sz _ es i (length ds) Hes with "Hq") as "[Hp Hq]"; [lia|].
    iApply wp_wrs; last iFrame "Hp".
    { rewrite !(concat_length szn) //; [|by apply Forall_take, Forall_drop]. rewrite take_length !drop_length. f_equal. lia. }
    iIntros "Hp". iSpecialize ("Hq" $! ds with "[//] Hp"). iApply ("H" with "[%] Hq").
    fold (splice i ds es). rewrite !(concat_length szn) //; [rewrite splice_length //; lia|]. by apply splice_Forall.
  Qed.
End elem.
