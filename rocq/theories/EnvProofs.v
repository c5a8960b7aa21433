(** A family of allocators that provide the service of Service.v, and blocks obtained from them. *)
From iris.proofmode Require Import tactics.
From Verif Require Import Base Mem Sep Wp Bits Allocators Contract Service Adequacy Client ClientProofs Env.

Local Open Scope N_scope.

(** A block and the allocator it came from. *)
Notation oblk := (nat * blk)%type.
Definition mine (h : nat) (B : list oblk) : list blk := map snd (filter (fun x => fst x = h) B).

Lemma mine_perm h B B' : B ≡ₚ B' -> mine h B ≡ₚ mine h B'.
Proof. intros H. unfold mine. by rewrite H. Qed.
Lemma mine_cons_eq h x B : mine h ((h, x) :: B) = x :: mine h B.
Proof. unfold mine. rewrite filter_cons_True; done. Qed.
Lemma mine_cons_ne h h' x B : h' <> h -> mine h ((h', x) :: B) = mine h B.
Proof. intros H. unfold mine. rewrite filter_cons_False; done. Qed.

(** * Arrays of elements *)
Section arrays.
  Context (n : nat).
  Local Notation sized := (Forall (fun e : list cell => length e = n)).

  Lemma concat_length (es : list (list cell)) : sized es -> length (concat es) = (length es * n)%nat.
  Proof. induction 1 as [|e es He Hes IH]; cbn [concat length]; [done|]. rewrite app_length IH He. lia. Qed.

  Lemma concat_take_drop (es : list (list cell)) i : concat es = concat (take i es) ++ concat (drop i es).
  Proof. by rewrite -concat_app take_drop. Qed.

  Lemma concat_insert (es : list (list cell)) i e : (i < length es)%nat ->
    concat (<[i := e]> es) = concat (take i es) ++ e ++ concat (drop (S i) es).
  Proof.
    intros Hi. rewrite insert_take_drop //. rewrite concat_app. done.
  Qed.
End arrays.

Lemma pts_elems sz p (es : list (list cell)) i : Forall (fun e : list cell => length e = N.to_nat sz) es ->
  (i <= length es)%nat ->
  p ↦∗ concat es ⊣⊢ p ↦∗ concat (take i es) ∗ (p + sz * N.of_nat i) ↦∗ concat (drop i es).
Proof.
  intros Hs Hi. rewrite {1}(concat_take_drop es i) pts_app.
  rewrite (concat_length (N.to_nat sz)); [|by apply Forall_take]. rewrite take_length.
  replace (p + N.of_nat (i `min` length es * N.to_nat sz)) with (p + sz * N.of_nat i) by nia. done.
Qed.

Lemma pts_elem sz p (es : list (list cell)) i e : Forall (fun e : list cell => length e = N.to_nat sz) es ->
  es !! i = Some e ->
  p ↦∗ concat es ⊢ (p + sz * N.of_nat i) ↦∗ e ∗
    (∀ e', ⌈length e' = N.to_nat sz⌉ -∗ (p + sz * N.of_nat i) ↦∗ e' -∗ p ↦∗ concat (<[i := e']> es)).
Proof.
  intros Hs Hi. assert (Hlt := lookup_lt_Some _ _ _ Hi).
  rewrite (pts_elems sz p es i Hs); [|lia]. rewrite (drop_S _ _ _ Hi). cbn [concat]. rewrite pts_app.
  iIntros "(H1 & H2 & H3)". iFrame "H2". iIntros (e') "%He' H2".
  rewrite concat_insert // pts_app pts_app.
  rewrite (concat_length (N.to_nat sz)); [|by apply Forall_take]. rewrite take_length.
  replace (p + N.of_nat (i `min` length es * N.to_nat sz)) with (p + sz * N.of_nat i) by nia.
  rewrite He'. assert (length e = N.to_nat sz) as -> by (by eapply (Forall_lookup_1 _ _ _ _ Hs Hi)). iFrame.
Qed.

(** Part [i, i+m) of an array. *)
Lemma pts_part sz p (es : list (list cell)) i m : Forall (fun e : list cell => length e = N.to_nat sz) es ->
  (i + m <= length es)%nat ->
  p ↦∗ concat es ⊢ (p + sz * N.of_nat i) ↦∗ concat (take m (drop i es)) ∗
    (∀ ds, ⌈length ds = m /\ Forall (fun e : list cell => length e = N.to_nat sz) ds⌉ -∗ (p + sz * N.of_nat i) ↦∗ concat ds -∗
      p ↦∗ concat (take i es ++ ds ++ drop (i + m) es)).
Proof.
  intros Hs Hi. rewrite (pts_elems sz p es i Hs); [|lia].
  rewrite (pts_elems sz _ (drop i es) m); [|by apply Forall_drop|rewrite drop_length; lia].
  iIntros "(H1 & H2 & H3)". iFrame "H2". iIntros (ds) "[%Hm %Hds] H2".
  rewrite !concat_app !pts_app !(concat_length (N.to_nat sz)) //; [|by apply Forall_take].
  rewrite drop_drop take_length Hm.
  replace (p + N.of_nat (i `min` length es * N.to_nat sz)) with (p + sz * N.of_nat i) by nia.
  replace (p + sz * N.of_nat i + N.of_nat (m * N.to_nat sz)) with (p + sz * N.of_nat i + sz * N.of_nat m) by nia.
  iFrame.
Qed.

(** * The family *)
Section env.
  Context {bad : event -> bool} {A : alloc} {req : N -> bool}.
  Context (CA : service bad A req) (b sz : N) (D : gset nat) (Hsz : 0 < sz).
  Local Notation at_ := (at_ A b).
  Local Notation szn := (N.to_nat sz).
  Local Notation sized := (Forall (fun e : list cell => length e = szn)).

  (** The allocators in [D] exist; [h] is in a state in which exactly its blocks in [B] are
      outstanding. *)
  Definition inv0 (E : env A) (B : list oblk) : hpropI :=
    ⌈dom E = D /\ Forall (fun x => fst x ∈ D) B⌉ ∗
    [∗ map] h ↦ s ∈ E, V CA (at_ h) s (shape (mine h B)) ∗ blocks (mine h B).

  Lemma inv_perm0 E B B' : B ≡ₚ B' -> inv0 E B ⊢ inv0 E B'.
  Proof.
    intros H. unfold inv0. iIntros "([%H1 %H2] & HE)". iSplit; [iPureIntro; by rewrite -H|].
    iApply (big_sepM_impl with "HE"). iIntros "!>" (h s Hs) "[HJ HB]".
    rewrite (blocks_perm _ _ (mine_perm h _ _ H)). iFrame. by iApply (s_perm _ _ _ CA with "HJ"); apply shape_perm, mine_perm.
  Qed.

  Lemma inv_upd0 E h s B : E !! h = Some s ->
    inv0 E B ⊢ (V CA (at_ h) s (shape (mine h B)) ∗ blocks (mine h B)) ∗
      (∀ s' B', ⌈(forall h', h' <> h -> mine h' B' = mine h' B) /\ Forall (fun x => fst x ∈ D) B'⌉ -∗
        V CA (at_ h) s' (shape (mine h B')) -∗ blocks (mine h B') -∗ inv0 (<[h := s']> E) B').
  Proof.
    intros Hh. unfold inv0. iIntros "([%H1 %H2] & HE)".
    rewrite (big_sepM_delete _ _ _ _ Hh). iDestruct "HE" as "[$ HE]".
    iIntros (s' B') "[%HB %Hk] HJ Hb". iSplit.
    - iPureIntro. split; [|done]. rewrite dom_insert_L. apply elem_of_dom_2 in Hh. set_solver.
    - rewrite big_sepM_insert_delete. iFrame "HJ Hb". iApply (big_sepM_impl with "HE").
      iIntros "!>" (h' x Hx) "H". apply lookup_delete_Some in Hx as [Hne _]. by rewrite HB.
  Qed.

  Lemma inv_bound0 E B : inv0 E B ⊢ ⌜dom E = D /\ Forall (fun x => fst x ∈ D) B⌝.
  Proof. unfold inv0. by iIntros "([%H1 %H2] & HE)". Qed.

  Lemma inv_lookup0 E B h : h ∈ D -> inv0 E B ⊢ ⌜exists s, E !! h = Some s⌝.
  Proof. intros Hh. unfold inv0. iIntros "([%H1 %H2] & HE)". iPureIntro. rewrite -H1 in Hh. by apply elem_of_dom in Hh. Qed.

  Lemma inv_good0 E B h p cs : (h, (p, cs)) ∈ B -> inv0 E B ⊢ ⌜p <> 0 /\ p mod 16 = 0 /\ p + N.of_nat (length cs) < W⌝.
  Proof.
    intros Hin. unfold inv0. iIntros "([%H1 %H2] & HE)". rewrite list.Forall_forall in H2. specialize (H2 _ Hin).
    cbn in H2. rewrite -H1 in H2. apply elem_of_dom in H2 as [s Hs].
    iDestruct (big_sepM_lookup_acc with "HE") as "[[HJ HB] _]"; [done|].
    iDestruct (s_good _ _ _ CA with "HJ") as %Hg. iPureIntro.
    rewrite list.Forall_forall in Hg. apply (Hg (p, N.of_nat (length cs))). apply elem_of_shape. exists cs. split; [|done].
    unfold mine. apply elem_of_list_fmap. exists (h, (p, cs)). split; [done|]. by apply elem_of_list_filter.
  Qed.

  (** Access to one block. *)
  Lemma inv_acc0 E h p cs B :
    inv0 E ((h, (p, cs)) :: B) ⊢ p ↦∗ cs ∗
      (∀ cs', ⌈length cs' = length cs⌉ -∗ p ↦∗ cs' -∗ inv0 E ((h, (p, cs')) :: B)).
  Proof.
    iIntros "H". iDestruct (inv_bound0 with "H") as %[H1 H2]. apply Forall_cons_iff in H2 as [H2 H3]. cbn [fst] in H2.
    iDestruct (inv_lookup0 _ _ h with "H") as %[s Hs]; [done|].
    iDestruct (inv_upd0 _ _ _ _ Hs with "H") as "[[HJ HB] H]".
    rewrite mine_cons_eq blocks_cons. iDestruct "HB" as "[Hp HB]". iFrame "Hp".
    iIntros (cs') "%Hl Hp". rewrite -{2}(insert_id E h s Hs). iApply ("H" with "[] [HJ]").
    - iPureIntro. split; [|by constructor]. intros h' Hne. by rewrite !mine_cons_ne.
    - rewrite mine_cons_eq. assert (shape ((p, cs') :: mine h B) = shape ((p, cs) :: mine h B)) as -> by (rewrite !shape_cons; unfold bsize; cbn [fst snd]; by rewrite Hl). done.
    - rewrite mine_cons_eq blocks_cons. iFrame.
  Qed.

  (** A fresh array of [n] elements. *)
  Definition fresh (n : N) (es : list (list cell)) : Prop :=
    N.of_nat (length es) = n /\ sized es /\ Forall (Forall dead) es.

  Lemma chop_array (m : nat) cs : length cs = (m * szn)%nat -> Forall dead cs ->
    exists es, cs = concat es /\ length es = m /\ sized es /\ Forall (Forall dead) es.
  Proof.
    revert cs. induction m as [|m IH]; intros cs Hl Hd.
    - destruct cs; [|done]. by exists [].
    - destruct (IH (drop szn cs)) as (es&H1&H2&H3&H4); [rewrite drop_length; lia|by apply Forall_drop|].
      exists (take szn cs :: es). cbn [concat length]. rewrite -H1 take_drop H2. split_and!; [done..| |].
      + constructor; [|done]. rewrite take_length. lia.
      + constructor; [|done]. by apply Forall_take.
  Qed.

  Lemma te_alloc_spec0 E B h n : h ∈ D ->
    inv0 E B ⊢ wp bad (te_alloc A b sz h n E) (fun r =>
      ⌈fst r = 0 /\ n = 0⌉ ∗ inv0 (snd r) B ∨
      ∃ es, ⌈fst r <> 0 /\ fst r mod 16 = 0 /\ fst r + sz * n < W /\ fresh n es⌉ ∗ inv0 (snd r) ((h, (fst r, concat es)) :: B)).
  Proof.
    intros Hh. iIntros "H". iDestruct (inv_lookup0 _ _ h with "H") as %[s Hs]; [done|].
    iDestruct (inv_bound0 with "H") as %[Hlen HB].
    unfold te_alloc. rewrite Hs.
    destruct (bad (EvReq (sz * n))) eqn:Hbad; [by iApply (wp_bad with "H")|].
    destruct (s_modest _ _ _ CA _ Hbad) as [Hreq HW].
    iApply wp_bind. iApply wp_emit; [done|]. unfold ta_alloc. rewrite mul64_small //.
    iDestruct (inv_upd0 _ _ _ _ Hs with "H") as "[[HJ HB] H]".
    iApply wp_bind. iApply wp_strong_mono. iSplitL "HJ HB"; [iApply (s_alloc _ _ _ CA); [done..|iFrame]|].
    iIntros ([p s']) "(HB & [[%Hp HJ]|(%Hp & Hr & HJ)])"; cbn [fst snd] in *.
    - destruct Hp as [-> Hp]. cbn [N.eqb andb]. destruct (sz * n =? 0) eqn:E0; cbn [negb].
      2: { destruct Hp as [Hp|Hp]; [lia|]. by iApply (wp_bad with "[HJ HB H]"); last iAccu. }
      iApply wp_bind. iApply wp_ret. iApply wp_ret. cbn [fst snd]. iLeft. iSplit; [iPureIntro; split; [done|nia]|].
      by iApply ("H" with "[] HJ HB").
    - rewrite (proj2 (N.eqb_neq p 0) Hp). cbn [andb].
      iApply wp_bind. iApply wp_ret. iApply wp_ret. cbn [fst snd]. iRight.
      iDestruct "Hr" as (cs) "[[%Hl %Hd] Hp]".
      destruct (chop_array (N.to_nat n) cs) as (es&->&H1&H2&H3); [nia|done|].
      iDestruct (s_good _ _ _ CA with "HJ") as %Hg. apply Forall_cons_iff in Hg as [(G1&G2&G3) _]. cbn [fst snd] in *.
      iExists es. iSplit; [iPureIntro; unfold fresh; split_and!; [done..|lia|done|done]|].
      iApply ("H" with "[] [HJ]").
      + iPureIntro. split; [|by constructor]. intros h' Hne. by rewrite mine_cons_ne.
      + rewrite mine_cons_eq shape_cons. unfold bsize. cbn [fst snd]. by rewrite Hl.
      + rewrite mine_cons_eq blocks_cons. iFrame.
  Qed.

  Lemma te_free_spec0 E B h p cs n : N.of_nat (length cs) = sz * n -> Forall dead cs ->
    inv0 E ((h, (p, cs)) :: B) ⊢ wp bad (te_free A b sz h p n E) (fun E' => inv0 E' B).
  Proof.
    intros Hl Hd. iIntros "H". iDestruct (inv_bound0 with "H") as %[Hlen HB].
    apply Forall_cons_iff in HB as [Hh HB]. cbn [fst] in Hh.
    iDestruct (inv_lookup0 _ _ h with "H") as %[s Hs]; [done|].
    iDestruct (inv_good0 _ _ h p cs with "H") as %(_&_&HW); [left|].
    unfold te_free. rewrite Hs. unfold ta_free. rewrite mul64_small; [|lia]. rewrite -Hl.
    iDestruct (inv_upd0 _ _ _ _ Hs with "H") as "[[HJ HB] H]".
    rewrite mine_cons_eq blocks_cons. iDestruct "HB" as "[Hp HB]".
    iApply wp_bind. iApply wp_strong_mono. iSplitL "HJ Hp HB".
    { iApply (s_free _ _ _ CA); [done|]. iFrame. }
    iIntros (s') "[HJ HB]". iApply wp_ret. iApply ("H" with "[] HJ HB").
    iPureIntro. split; [|done]. intros h' Hne. by rewrite mine_cons_ne.
  Qed.

  (** Construction or destruction of an object inside a block. *)
  Lemma te_cd_spec0 E B c h p cs q act (R : list cell -> Prop) :
    p <= q < p + N.of_nat (length cs) ->
    (p ↦∗ cs ⊢ wp bad act (fun _ => ∃ cs', ⌈R cs' /\ length cs' = length cs⌉ ∗ p ↦∗ cs')) ->
    inv0 E ((h, (p, cs)) :: B) ⊢ wp bad (te_cd A b c h q act E) (fun E' => ∃ cs', ⌈R cs'⌉ ∗ inv0 E' ((h, (p, cs')) :: B)).
  Proof.
    intros Hq Hact. iIntros "H". iDestruct (inv_bound0 with "H") as %[Hlen HB].
    apply Forall_cons_iff in HB as [Hh HB]. cbn [fst] in Hh.
    iDestruct (inv_lookup0 _ _ h with "H") as %[s Hs]; [done|].
    unfold te_cd. rewrite Hs. iDestruct (inv_upd0 _ _ _ _ Hs with "H") as "[[HJ HB] H]".
    rewrite mine_cons_eq.
    iApply wp_bind. iApply wp_strong_mono. iSplitL "HJ HB".
    { iApply (serve_cd CA (at_ h) c s ((p, cs) :: mine h B) q act
        (fun _ => ∃ cs', ⌈R cs' /\ length cs' = length cs⌉ ∗ blocks ((p, cs') :: mine h B))%I).
      { exists p, (N.of_nat (length cs)). split; [rewrite shape_cons; left|done]. }
      iFrame. iIntros "HB". rewrite blocks_cons. iDestruct "HB" as "[Hp HB]".
      iApply wp_strong_mono. iSplitL "Hp"; [by iApply Hact|]. iIntros ([]) "(%cs' & %HR & Hp)".
      iExists cs'. iSplit; [done|]. rewrite blocks_cons. iFrame. }
    iIntros (s') "(HJ & %cs' & [%HR %Hl] & HB)". iApply wp_ret. iExists cs'. iSplit; [done|].
    assert (Hsh : shape ((p, cs') :: mine h B) = shape ((p, cs) :: mine h B)) by (rewrite !shape_cons; unfold bsize; cbn [fst snd]; by rewrite Hl).
    iApply ("H" with "[] [HJ] [HB]").
    - iPureIntro. split; [|by constructor]. intros h' Hne. by rewrite !mine_cons_ne.
    - rewrite mine_cons_eq Hsh. done.
    - by rewrite mine_cons_eq.
  Qed.

  (** * The blocks, separately from the allocators *)
  Definition oblocks (B : list oblk) : hpropI := [∗ list] x ∈ B, fst (snd x) ↦∗ snd (snd x).
  Definition oshape (B : list oblk) : list (nat * (N * N)) := map (fun x => (fst x, bsize (snd x))) B.
  Definition core0 (E : env A) (T : list (nat * (N * N))) : hpropI :=
    ⌈dom E = D /\ Forall (fun x => fst x ∈ D) T⌉ ∗
    [∗ map] h ↦ s ∈ E, V CA (at_ h) s (map snd (filter (fun x => fst x = h) T)).

  Lemma oshape_mine h B : map snd (filter (fun x => fst x = h) (oshape B)) = shape (mine h B).
  Proof.
    unfold oshape, shape, mine. induction B as [|[h' x] B IH]; [done|]. cbn [map fst snd].
    destruct (decide (h' = h)) as [->|Hne].
    - rewrite !filter_cons_True //. cbn [map snd]. by rewrite IH.
    - rewrite !filter_cons_False //.
  Qed.

  Lemma sep_single {X} (l : gmap nat X) (i : nat) (P : hpropI) : i ∈ dom l ->
    ([∗ map] j ↦ _ ∈ l, if decide (j = i) then P else emp) ⊣⊢ P.
  Proof.
    intros [x Hx]%elem_of_dom. rewrite (big_sepM_delete _ _ _ _ Hx) decide_True //.
    assert (([∗ map] j ↦ _ ∈ delete i l, if decide (j = i) then P else emp) ⊣⊢ ([∗ map] _ ∈ delete i l, emp : hpropI)) as ->.
    { apply big_sepM_proper. intros j y [Hj _]%lookup_delete_Some. by rewrite decide_False. }
    rewrite big_opM_unit. by rewrite right_id.
  Qed.

  Lemma blocks_mine {X} (l : gmap nat X) B : Forall (fun x : oblk => fst x ∈ dom l) B ->
    ([∗ map] h ↦ _ ∈ l, blocks (mine h B)) ⊣⊢ oblocks B.
  Proof.
    induction B as [|[h x] B IH]; intros HB.
    - unfold oblocks. rewrite big_sepL_nil. etrans; [|exact (big_opM_unit (o := bi_sep) l)]. apply big_sepM_proper. intros j y Hj. done.
    - apply Forall_cons_iff in HB as [Hh HB]. cbn [fst] in Hh. unfold oblocks. rewrite big_sepL_cons.
      change ([∗ list] x ∈ B, x.2.1 ↦∗ x.2.2)%I with (oblocks B). rewrite -(IH HB). cbn [fst snd].
      rewrite -{1}(sep_single l h (fst x ↦∗ snd x) Hh) -big_sepM_sep. apply big_sepM_proper. intros j y Hj.
      destruct (decide (j = h)) as [->|Hne]; [by rewrite mine_cons_eq|]. rewrite mine_cons_ne // left_id. done.
  Qed.

  Lemma inv_split0 E B : inv0 E B ⊣⊢ core0 E (oshape B) ∗ oblocks B.
  Proof.
    unfold inv0, core0. iSplit.
    - iIntros "([%H1 %H2] & HE)". rewrite big_sepM_sep. iDestruct "HE" as "[HJ HB]".
      rewrite blocks_mine; [|by rewrite H1]. iFrame "HB". iSplit.
      + iPureIntro. split; [done|]. apply Forall_map. done.
      + iApply (big_sepM_impl with "HJ"). iIntros "!>" (h s Hs) "H". by rewrite oshape_mine.
    - iIntros "(([%H1 %H2] & HJ) & HB)". apply Forall_map in H2. iSplit; [done|].
      rewrite -(blocks_mine E); [|by rewrite H1]. rewrite big_sepM_sep. iFrame "HB".
      iApply (big_sepM_impl with "HJ"). iIntros "!>" (h s Hs) "H". by rewrite oshape_mine.
  Qed.

  Lemma inv_acc20 E h p cs h2 p2 cs2 B :
    inv0 E ((h, (p, cs)) :: (h2, (p2, cs2)) :: B) ⊢ p ↦∗ cs ∗ p2 ↦∗ cs2 ∗
      (∀ cs', ⌈length cs' = length cs⌉ -∗ p ↦∗ cs' -∗ p2 ↦∗ cs2 -∗ inv0 E ((h, (p, cs')) :: (h2, (p2, cs2)) :: B)).
  Proof.
    rewrite inv_split0. iIntros "(HE & H1 & H2 & HB)". cbn [fst snd]. iFrame "H1 H2". iIntros (cs') "%Hl H1 H2".
    rewrite inv_split0. iFrame "H1 H2 HB". unfold oshape. cbn [map fst snd]. unfold bsize. cbn [fst snd]. by rewrite Hl.
  Qed.

  (** Reading needs no more than the presence of a block. *)
  Lemma inv_read0 E h p cs B : (h, (p, cs)) ∈ B -> inv0 E B ⊢ p ↦∗ cs ∗ (p ↦∗ cs -∗ inv0 E B).
  Proof.
    intros Hin. apply elem_of_Permutation in Hin as [B' HB]. rewrite {1}(inv_perm0 _ _ _ HB).
    iIntros "H". iDestruct (inv_acc0 with "H") as "[$ H]". iIntros "Hp".
    iApply (inv_perm0 _ _ _ (symmetry HB)). by iApply "H".
  Qed.

  Lemma te_cd_all0 E B c h p cs q act (R : list oblk -> Prop) :
    (h, (p, cs)) ∈ B -> p <= q < p + N.of_nat (length cs) ->
    (oblocks B ⊢ wp bad act (fun _ => ∃ B', ⌈R B' /\ oshape B' = oshape B⌉ ∗ oblocks B')) ->
    inv0 E B ⊢ wp bad (te_cd A b c h q act E) (fun E' => ∃ B', ⌈R B'⌉ ∗ inv0 E' B').
  Proof.
    clear Hsz. intros Hin Hq Hact. iIntros "H". iDestruct (inv_bound0 with "H") as %[Hlen HB].
    assert (Hh : h ∈ D). { rewrite list.Forall_forall in HB. by apply (HB _ Hin). }
    assert (Hs : h ∈ dom E) by (by rewrite Hlen). apply elem_of_dom in Hs as [s Hs].
    unfold te_cd. rewrite Hs inv_split0. iDestruct "H" as "[HE HB]". unfold core0. iDestruct "HE" as "[_ HE]".
    iDestruct (big_sepM_insert_acc with "HE") as "[HJ HE]"; [done|].
    rewrite -(blocks_mine E); [|by rewrite Hlen].
    iDestruct (big_sepM_lookup_acc with "HB") as "[Hm HB]"; [done|]. rewrite oshape_mine.
    iApply wp_bind. iApply wp_strong_mono. iSplitL "HJ Hm HB".
    { iApply (serve_cd CA (at_ h) c s (mine h B) q act (fun _ => ∃ B', ⌈R B' /\ oshape B' = oshape B⌉ ∗ oblocks B')%I).
      { exists p, (N.of_nat (length cs)). split; [|done]. apply elem_of_shape. exists cs. split; [|done].
        unfold mine. apply elem_of_list_fmap. exists (h, (p, cs)). split; [done|]. by apply elem_of_list_filter. }
      iFrame "HJ Hm". iIntros "Hm". iSpecialize ("HB" with "Hm"). rewrite blocks_mine; [|by rewrite Hlen].
      by iApply Hact. }
    iIntros (s') "(HJ & %B' & %HH & HB)". destruct HH as [HR Hsh]. iApply wp_ret. iExists B'. iSplitR; [done|].
    rewrite inv_split0. iFrame "HB". rewrite Hsh. unfold core0. iSplitR.
    - iPureIntro. split; [|by apply Forall_map]. rewrite dom_insert_L Hlen. set_solver.
    - by iApply "HE".
  Qed.
End env.

(** * The family, when others also have blocks of it *)
(** Allocators, and the blocks that clients other than those in question hold. *)
Record used (bad : event -> bool) (A : alloc) (req : N -> bool) := Used {
  u_srv : service bad A req;
  u_more : list oblk
}.
Arguments u_srv {bad A req}.
Arguments u_more {bad A req}.
Definition used_of {bad A req} (CA : service bad A req) : used bad A req := Used _ _ _ CA [].
Coercion used_of : service >-> used.

Section use.
  Context {bad : event -> bool} {A : alloc} {req : N -> bool}.
  Context (CA : used bad A req) (b sz : N) (D : gset nat) (Hsz : 0 < sz).
  Local Notation at_ := (at_ A b).

  Definition inv (E : env A) (B : list oblk) : hpropI := inv0 (u_srv CA) b D E (B ++ u_more CA).

  Lemma inv_perm E B B' : B ≡ₚ B' -> inv E B ⊢ inv E B'.
  Proof. intros H. apply inv_perm0. by rewrite H. Qed.

  Lemma inv_bound E B : inv E B ⊢ ⌜dom E = D /\ Forall (fun x => fst x ∈ D) B⌝.
  Proof. unfold inv. rewrite inv_bound0. iIntros "[%H1 %H2]". iPureIntro. by apply Forall_app in H2 as [H2 _]. Qed.

  Lemma inv_lookup E B h : h ∈ D -> inv E B ⊢ ⌜exists s, E !! h = Some s⌝.
  Proof. apply inv_lookup0. Qed.

  Lemma inv_good E B h p cs : (h, (p, cs)) ∈ B -> inv E B ⊢ ⌜p <> 0 /\ p mod 16 = 0 /\ p + N.of_nat (length cs) < W⌝.
  Proof. intros H. apply (inv_good0 (u_srv CA) b D E (B ++ u_more CA) h p cs). apply elem_of_app. by left. Qed.

  Lemma inv_acc E h p cs B :
    inv E ((h, (p, cs)) :: B) ⊢ p ↦∗ cs ∗
      (∀ cs', ⌈length cs' = length cs⌉ -∗ p ↦∗ cs' -∗ inv E ((h, (p, cs')) :: B)).
  Proof. exact (inv_acc0 (u_srv CA) b sz D Hsz E h p cs (B ++ u_more CA)). Qed.

  Lemma te_alloc_spec E B h n : h ∈ D ->
    inv E B ⊢ wp bad (te_alloc A b sz h n E) (fun r =>
      ⌈fst r = 0 /\ n = 0⌉ ∗ inv (snd r) B ∨
      ∃ es, ⌈fst r <> 0 /\ fst r mod 16 = 0 /\ fst r + sz * n < W /\ fresh sz n es⌉ ∗ inv (snd r) ((h, (fst r, concat es)) :: B)).
  Proof. exact (te_alloc_spec0 (u_srv CA) b sz D Hsz E (B ++ u_more CA) h n). Qed.

  Lemma te_free_spec E B h p cs n : N.of_nat (length cs) = sz * n -> Forall dead cs ->
    inv E ((h, (p, cs)) :: B) ⊢ wp bad (te_free A b sz h p n E) (fun E' => inv E' B).
  Proof. exact (te_free_spec0 (u_srv CA) b sz D Hsz E (B ++ u_more CA) h p cs n). Qed.

  Lemma te_cd_spec E B c h p cs q act (R : list cell -> Prop) :
    p <= q < p + N.of_nat (length cs) ->
    (p ↦∗ cs ⊢ wp bad act (fun _ => ∃ cs', ⌈R cs' /\ length cs' = length cs⌉ ∗ p ↦∗ cs')) ->
    inv E ((h, (p, cs)) :: B) ⊢ wp bad (te_cd A b c h q act E) (fun E' => ∃ cs', ⌈R cs'⌉ ∗ inv E' ((h, (p, cs')) :: B)).
  Proof. exact (te_cd_spec0 (u_srv CA) b sz D Hsz E (B ++ u_more CA) c h p cs q act R). Qed.

  Definition core (E : env A) (T : list (nat * (N * N))) : hpropI :=
    core0 (u_srv CA) b D E (T ++ oshape (u_more CA)) ∗ oblocks (u_more CA).

  Lemma oblocks_app B B' : oblocks (B ++ B') ⊣⊢ oblocks B ∗ oblocks B'.
  Proof. unfold oblocks. by rewrite big_sepL_app. Qed.

  Lemma inv_split E B : inv E B ⊣⊢ core E (oshape B) ∗ oblocks B.
  Proof.
    unfold inv, core. rewrite inv_split0 oblocks_app. unfold oshape. rewrite map_app. iSplit.
    - iIntros "(H1 & H2 & H3)". iFrame.
    - iIntros "((H1 & H2) & H3)". iFrame.
  Qed.

  Lemma inv_acc2 E h p cs h2 p2 cs2 B :
    inv E ((h, (p, cs)) :: (h2, (p2, cs2)) :: B) ⊢ p ↦∗ cs ∗ p2 ↦∗ cs2 ∗
      (∀ cs', ⌈length cs' = length cs⌉ -∗ p ↦∗ cs' -∗ p2 ↦∗ cs2 -∗ inv E ((h, (p, cs')) :: (h2, (p2, cs2)) :: B)).
  Proof. exact (inv_acc20 (u_srv CA) b D E h p cs h2 p2 cs2 (B ++ u_more CA)). Qed.

  Lemma inv_read E h p cs B : (h, (p, cs)) ∈ B -> inv E B ⊢ p ↦∗ cs ∗ (p ↦∗ cs -∗ inv E B).
  Proof. intros H. apply (inv_read0 (u_srv CA) b sz D Hsz E h p cs (B ++ u_more CA)). apply elem_of_app. by left. Qed.

  Lemma te_cd_all E B c h p cs q act (R : list oblk -> Prop) :
    (h, (p, cs)) ∈ B -> p <= q < p + N.of_nat (length cs) ->
    (oblocks B ⊢ wp bad act (fun _ => ∃ B', ⌈R B' /\ oshape B' = oshape B⌉ ∗ oblocks B')) ->
    inv E B ⊢ wp bad (te_cd A b c h q act E) (fun E' => ∃ B', ⌈R B'⌉ ∗ inv E' B').
  Proof.
    intros Hin Hq Hact. iIntros "H". iApply wp_strong_mono. iSplitL.
    - iApply (te_cd_all0 (u_srv CA) b D E (B ++ u_more CA) c h p cs q act
        (fun X => exists B', X = B' ++ u_more CA /\ R B') with "H"); [apply elem_of_app; by left|done|].
      rewrite oblocks_app. iIntros "[H1 H2]". iApply wp_strong_mono. iSplitL "H1"; [by iApply Hact|].
      iIntros ([]) "(%B' & [%HR %Hs] & HB)". iExists (B' ++ u_more CA). rewrite oblocks_app. iFrame. iPureIntro.
      split; [by exists B'|]. unfold oshape in *. by rewrite !map_app Hs.
    - iIntros (E') "(%X & %HX & H)". destruct HX as (B'&->&HR). iExists B'. iSplitR; [done|]. iFrame.
  Qed.
End use.

(** * Whole programs *)
Section session.
  Context {bad : event -> bool} {A : alloc} {req : N -> bool}.
  Context (CA : service bad A req) (b : N).
  Local Notation at_ := (at_ A b).

  Lemma at_S h : at_ (S h) = at_ h + a_size A.
  Proof. unfold Env.at_. lia. Qed.

  Lemma inv_alone D E B : inv CA b D E B = inv0 CA b D E B.
  Proof. unfold inv. cbn [u_more used_of]. by rewrite app_nil_r. Qed.

  (** Construction and destruction of an allocator object. *)
  Lemma te_init_spec D E B h : h ∉ D -> mine h B = [] -> b <> 0 -> b mod 16 = 0 -> at_ h + a_size A < W ->
    inv CA b D E B ∗ raw (at_ h) (a_size A) ⊢ wp bad (te_init A b h E) (fun E' => inv CA b ({[h]} ∪ D) E' B).
  Proof.
    intros Hh HB H1 H2 H3. rewrite inv_alone. iIntros "[[[%HD %Hf] HE] Hr]". unfold te_init.
    iApply wp_bind. iApply wp_strong_mono. iSplitL "Hr".
    { iApply (s_init _ _ _ CA with "Hr"); [unfold Env.at_; lia| |lia]. unfold Env.at_.
      rewrite N.add_mod // N.mul_mod // (s_size _ _ _ CA) N.mul_0_r H2. done. }
    iIntros (s) "HJ". iApply wp_ret. rewrite inv_alone. unfold inv0. iSplit.
    - iPureIntro. rewrite dom_insert_L HD. split; [done|]. eapply list.Forall_impl; [exact Hf|]. intros x Hx. set_solver.
    - rewrite big_sepM_insert; [|apply not_elem_of_dom; by rewrite HD]. rewrite HB. cbn. iFrame "HJ". by iFrame.
  Qed.

  Lemma te_dtor_spec D E B h : h ∈ D -> mine h B = [] ->
    inv CA b D E B ⊢ wp bad (te_dtor A b h E) (fun E' => inv CA b (D ∖ {[h]}) E' B ∗ raw (at_ h) (a_size A)).
  Proof.
    intros Hh HB. iIntros "H". iDestruct (inv_lookup _ _ _ _ _ h with "H") as %[s Hs]; [done|].
    rewrite inv_alone. iDestruct "H" as "[[%HD %Hf] HE]". unfold te_dtor. rewrite Hs.
    rewrite (big_sepM_delete _ _ _ _ Hs) HB. iDestruct "HE" as "[[HJ Hb] HE]".
    iApply wp_bind. iApply wp_strong_mono. iSplitL "HJ"; [by iApply (s_dtor _ _ _ CA)|].
    iIntros ([]) "Hr". iApply wp_ret. iFrame "Hr". rewrite inv_alone. unfold inv0. cbn. iClear "Hb". iFrame "HE". iPureIntro.
    rewrite dom_delete_L HD. split; [done|]. apply list.Forall_forall. intros x Hx.
    rewrite list.Forall_forall in Hf. specialize (Hf _ Hx). enough (fst x <> h) by set_solver. intros <-.
    enough (snd x ∈ mine (fst x) B) as Hm by (rewrite HB in Hm; by apply elem_of_nil in Hm).
    unfold mine. apply elem_of_list_fmap. exists x. split; [done|]. by apply elem_of_list_filter.
  Qed.

  Lemma init_all_spec D E h m : b <> 0 -> b mod 16 = 0 -> b + N.of_nat (h + m) * a_size A < W ->
    (forall i, i ∈ D -> (i < h)%nat) ->
    inv CA b D E [] ∗ raw (at_ h) (N.of_nat m * a_size A) ⊢ wp bad (init_all A b h m E) (fun E' =>
      inv CA b (D ∪ set_seq h m) E' []).
  Proof.
    intros Hb Hmod. revert h D E. induction m as [|m IH]; intros h D E HW HD; cbn [init_all].
    - rewrite raw_0. iIntros "[H _]". iApply wp_ret. cbn [set_seq]. by replace (D ∪ ∅) with D by set_solver.
    - rewrite (raw_split _ _ (a_size A)); [|nia]. iIntros "(H & H1 & H2)".
      iApply wp_bind. iApply wp_strong_mono. iSplitL "H H1".
      { iApply te_init_spec; [| | | | |iFrame]; try done.
        - intros Hin%HD. lia.
        - unfold Env.at_. nia. }
      iIntros (E') "H". rewrite -at_S. replace (N.of_nat (S m) * a_size A - a_size A) with (N.of_nat m * a_size A) by lia.
      iApply wp_strong_mono. iSplitL.
      { iApply (IH (S h) with "[$H $H2]"). { by replace (S h + m)%nat with (h + S m)%nat by lia. }
        intros i [->%elem_of_singleton|Hi%HD]%elem_of_union; lia. }
      iIntros (E'') "H". cbn [set_seq]. by replace (D ∪ ({[h]} ∪ set_seq (S h) m)) with ({[h]} ∪ D ∪ set_seq (S h) m) by set_solver.
  Qed.

  Lemma dtor_all_spec D E h m : (forall i, i ∈ D -> (i < h)%nat) ->
    inv CA b (D ∪ set_seq h m) E [] ⊢ wp bad (dtor_all A b h m E) (fun E' =>
      inv CA b D E' [] ∗ raw (at_ h) (N.of_nat m * a_size A)).
  Proof.
    revert h E. induction m as [|m IH]; intros h E HD; cbn [dtor_all].
    - cbn [set_seq]. iIntros "H". iApply wp_ret. rewrite raw_0. replace (D ∪ ∅) with D by set_solver. by iFrame.
    - iIntros "H". iApply wp_bind. iApply wp_strong_mono. iSplitL.
      { iApply (te_dtor_spec with "H"); [cbn [set_seq]; set_solver|done]. }
      iIntros (E') "[H Hr]". iApply wp_strong_mono. iSplitL "H".
      { iApply (IH (S h)); [intros i Hi%HD; lia|].
        assert (Hq : (D ∪ set_seq h (S m)) ∖ {[h]} = D ∪ set_seq (S h) m).
        { apply set_eq. intros i. cbn [set_seq]. rewrite elem_of_difference !elem_of_union !elem_of_singleton elem_of_set_seq.
          specialize (HD i). split; [tauto|]. intros [Hi|Hi]; (split; [tauto|]); [apply HD in Hi|]; lia. }
        rewrite Hq. iFrame. }
      iIntros (E'') "[$ Hr2]". rewrite (raw_split _ (N.of_nat (S m) * a_size A) (a_size A)); [|nia].
      iFrame "Hr". rewrite -at_S.
      by replace (N.of_nat (S m) * a_size A - a_size A) with (N.of_nat m * a_size A) by lia.
  Qed.

  Context {X O S : Type}.
  Context (stp : O -> env A * gmap nat X -> M (cobs * (env A * gmap nat X))).
  Context (kill : X -> env A -> M (env A)).
  Context (chk : O -> cobs -> S -> S -> Prop) (s0 : S) (k : nat).
  Let D : gset nat := set_seq 0 k.
  Context (Iv : env A -> gmap nat X -> S -> hpropI).
  Context (Hinit : forall E, inv CA b D E [] ⊢ Iv E ∅ s0).
  Context (Hstep : forall o E vs s, Iv E vs s ⊢ wp bad (stp o (E, vs)) (fun r =>
    ∃ s', ⌈chk o (fst r) s s'⌉ ∗ Iv (fst (snd r)) (snd (snd r)) s')).
  Context (Hkill : forall E vs s, Iv E vs s ⊢ wp bad (kill_all A kill (map_to_list vs) E) (fun E' => inv CA b D E' [])).

  Lemma crun_spec ops E vs s : Iv E vs s ⊢ wp bad (crun A stp ops (E, vs)) (fun r =>
    ⌈ccheck chk ops (fst r) s⌉ ∗ ∃ s', Iv (fst (snd r)) (snd (snd r)) s').
  Proof.
    revert E vs s. induction ops as [|o ops IH]; intros E vs s; cbn [crun]; iIntros "H".
    - iApply wp_ret. cbn [fst snd ccheck]. iSplit; [done|]. by iExists s.
    - iApply wp_bind. iApply wp_strong_mono. iSplitL; [by iApply Hstep|].
      iIntros ([ob [E' vs']]) "(%s' & %Hc & H)". cbn [fst snd] in *.
      iApply wp_bind. iApply wp_strong_mono. iSplitL; [by iApply IH|].
      iIntros ([os [E'' vs'']]) "(%Hc' & H)". cbn [fst snd] in *. iApply wp_ret. cbn [fst snd ccheck].
      iFrame "H". iPureIntro. by exists s'.
  Qed.

  Lemma csession_spec ops : b <> 0 -> b mod 16 = 0 -> b + N.of_nat k * a_size A < W ->
    raw b (N.of_nat k * a_size A) ⊢ wp bad (csession A b stp kill k ops) (fun os =>
      ⌈ccheck chk ops os s0⌉ ∗ raw b (N.of_nat k * a_size A)).
  Proof.
    intros H1 H2 H3. assert (Hat : at_ 0 = b) by (unfold Env.at_; lia).
    unfold csession. iIntros "Hr". iApply wp_bind. iApply wp_strong_mono. iSplitL "Hr".
    { rewrite -{1}Hat. iApply (init_all_spec ∅ ∅ 0 k); [done..|]. iFrame. iSplit; [|by rewrite big_sepM_empty].
      iPureIntro. split; [by rewrite dom_empty_L|constructor]. }
    iIntros (E) "H". rewrite union_empty_l_L. iApply wp_bind. iApply wp_strong_mono. iSplitL "H".
    { iApply crun_spec. by iApply Hinit. }
    iIntros ([os [E' vs]]) "(%Hc & %s' & H)". cbn [fst snd] in *.
    iApply wp_bind. iApply wp_strong_mono. iSplitL; [by iApply Hkill|].
    iIntros (E'') "H". iApply wp_bind. iApply wp_strong_mono. iSplitL.
    { iApply (dtor_all_spec ∅); [done|]. by rewrite union_empty_l_L. }
    iIntros (E3) "[[[%HD _] HE] Hr]". apply dom_empty_inv_L in HD as ->. rewrite big_sepM_empty. iClear "HE".
    rewrite Hat. iApply wp_ret. by iFrame.
  Qed.

  Lemma csession_safe ops w : place b (N.of_nat k * a_size A) w ->
    csession_ok A b stp kill chk bad k s0 ops w.
  Proof.
    intros (H1&H2&H3&Hst&H0). unfold csession_ok. set (m := N.of_nat k * a_size A) in *.
    set (n := N.to_nat m). set (mF := clear b n (mem (st w))).
    pose proof (csession_spec ops H1 H2 H3) as Hwp.
    assert (Hpre : own (mem (st w)) ⊢ raw b m ∗ own mF).
    { rewrite (own_take (mem (st w)) b n).
      2:{ intros i Hi. destruct (Hst i) as (c&Hc&_); [lia|]. by exists c. }
      iIntros "[Hc $]". iApply (raw_intro with "Hc"); [rewrite cells_length; lia|].
      apply cells_Forall. intros i Hi. apply Hst. lia. }
    pose proof (wp_adequate bad (csession A b stp kill k ops) (fun os mm =>
      ccheck chk ops os s0 /\
      (forall i, ~ (b <= i < b + m) -> mm !! i = mem (st w) !! i) /\
      (forall i, b <= i < b + m -> exists c, mm !! i = Some c /\ dead c)) w) as Had.
    lapply Had; clear Had.
    - intros Had. destruct (csession A b stp kill k ops w) as [os w' evs|u evs]; [|done].
      destruct Had as [Hbad|(Hben&(Hchk&Hm1&Hm2)&Ht)]; [by left|right]. by split_and!.
    - rewrite Hpre. iIntros "[Hr HF]". iApply wp_strong_mono. iSplitL "Hr"; [by iApply Hwp|].
      iIntros (os') "(%Hchk & (%cs & (%Hl & %Hd) & Hr))".
      iDestruct (own_put with "[$HF $Hr]") as "[%Hn H]". iExists _. iFrame "H". iPureIntro.
      split_and!; [done|..].
      + intros i Hi. rewrite lookup_union. rewrite (proj2 (fill_dom_None b cs i)); [|fold m in Hl; lia].
        rewrite left_id_L. unfold mF. rewrite clear_lookup. destruct (_ && _) eqn:E; [lia|done].
      + intros i Hi. rewrite lookup_union fill_lookup. fold m in Hl. destruct (_ && _) eqn:E; [|lia].
        assert (is_Some (cs !! N.to_nat (i - b))) as [c Hc] by (apply lookup_lt_is_Some; lia).
        exists c. rewrite Hc. split; [by destruct (mF !! i)|]. rewrite Forall_lookup in Hd. by eapply Hd.
  Qed.
End session.
