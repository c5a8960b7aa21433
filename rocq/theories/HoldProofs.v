(** The heap that containers hold between two operations. *)
From iris.proofmode Require Import tactics.
From Verif Require Import Base Mem Sep Wp Bits AlignedMalloc AlignedMallocProofs Allocators Contract Adequacy
  LinearProofs BasicProofs PairProofs OverflowProofs NodeProofs CascadingProofs BitsProofs Checked CheckedProofs Tree TreeProofs
  Client ClientProofs AllocSpec AllocFacts Footprint Budget BudgetProofs Service TreeService Env EnvProofs Vector RepProofs VectorProofs
  Array ArrayProofs HeapPure Heap HeapSpec HeapProofs HeapFacts Books Hold.

Local Open Scope N_scope.

(** At most [k] blocks are owned. *)
Definition hle_def (k : nat) : hprop := HProp (λ s, (size (mtab s) <= k)%nat).
Definition hle_aux : seal (@hle_def). Proof. by eexists. Qed.
Definition hle : nat -> hpropI := hle_aux.(unseal).
Definition hle_eq : @hle = @hle_def := hle_aux.(seal_eq).

Lemma hle_sep j k : hle j ∗ hle k ⊢ hle (j + k).
Proof.
  rewrite hunfold_entails. intros s. rewrite hunfold_sep. intros (s1&s2&->&[_ Hd]&H1&H2).
  rewrite hle_eq in H1, H2 |- *. cbn in H1, H2 |- *. rewrite map_size_disj_union //. lia.
Qed.
Lemma hle_mono j k : (j <= k)%nat -> hle j ⊢ hle k.
Proof. intros H. rewrite hunfold_entails. intros s. rewrite hle_eq. cbn. lia. Qed.
Lemma ntok_hle k : ntok k ⊢ hle k.
Proof. rewrite hunfold_entails. intros s. rewrite ntok_eq hle_eq. cbn. lia. Qed.
Lemma hcap_hle k m : hcap k m ⊢ hle k.
Proof. rewrite hunfold_entails. intros s. rewrite hcap_eq hle_eq. cbn. lia. Qed.
Lemma hle_0 k : hle k ∗ ntok 0 ⊢ hle k.
Proof. rewrite ntok_hle hle_sep. apply hle_mono. lia. Qed.

(** * Compositions *)
Section tree.
  Context (bad : event -> bool) (pl : platform).

  Record lpack (e : aexp) := LP {
    lc : contract bad (den pl e) (ereq pl e);
    l_rdy b s : eready_now pl e b s = true -> rdy lc b s = true;
    l_foot b s S : J lc b s S ⊢ hle (spare e + length S)
  }.

  Lemma guards_ntok S : guards S ⊢ ntok 0.
  Proof.
    unfold guards. induction S as [|x S IH]; [rewrite big_sepL_nil; apply emp_ntok|].
    rewrite big_sepL_cons IH. unfold gbytes. rewrite !pts_ntok. iIntros "[[H1 H2] H3]".
    iDestruct (ntok_0 with "[$H1 $H2]") as "H". iApply (ntok_0 with "[$H $H3]").
  Qed.

  Lemma cl_hle Hpl Hb Size Hmod Hsz b s S : J (cl_contract bad pl Hpl Hb Size Hmod Hsz) b s S ⊢ hle (1 + length S).
  Proof.
    cbn [J cl_contract]. iIntros "[(%TT & [%HS _] & H) %Hu]". destruct s as [|nd s].
    - iDestruct (nodes_hcap bad pl Size Hmod Hsz with "H") as "H". iDestruct (hcap_hle with "H") as "H". iApply (hle_mono with "H"). cbn [length]. lia.
    - cbn [tail] in Hu. iAssert ⌜(length s <= length S)%nat⌝%I with "[H]" as %Hl.
      { rewrite nodes_cons_l. iDestruct "H" as "(%T & %TT' & -> & _ & Hns)". iDestruct (nodes_used bad pl Size Hmod Hsz with "Hns") as %Hl; [done|].
        iPureIntro. rewrite HS. cbn [concat]. rewrite app_length. lia. }
      iDestruct (nodes_hcap bad pl Size Hmod Hsz with "H") as "H". iDestruct (hcap_hle with "H") as "H". iApply (hle_mono with "H"). cbn [length]. lia.
  Qed.

  Definition lean_contract e : pl <> PPosix -> wf e = true -> lean e = true ->
    (eboxed e = true -> bad EvFail || bad EvRefuse = true) -> lpack e.
  Proof.
    intros Hpl. induction e as [| | | |Min Max e IH|e IH|p IHp f IHf|T p IHp f IHf|e IH|e IH|e IH|e IH|e IH|e IH]; cbn [wf lean eboxed]; intros Hwf Hst Hb.
    - refine (LP ENull (null_contract bad) _ _); [done|]. intros b s S. cbn [J null_contract]. unfold null_J. iIntros "_".
      iApply (hle_mono 0); [lia|]. iApply ntok_hle. by iApply emp_ntok.
    - refine (LP EMalloc (mal_contract bad pl Hpl) _ _); [done|]. intros b s S. cbn [J mal_contract spare]. rewrite mal_ntok. apply ntok_hle.
    - refine (LP (ELinear Size) (lin_contract Size bad) _ _); [done|]. intros b s S. cbn [J lin_contract].
      iIntros "[_ (%mm & _ & H)]". rewrite own_ntok ntok_hle. iApply (hle_mono with "H"). lia.
    - refine (LP (EStack Size) (stack_contract Size bad) _ _); [done|]. intros b s S. cbn [J stack_contract].
      iIntros "[_ (%mm & _ & H)]". rewrite own_ntok ntok_hle. iApply (hle_mono with "H"). lia.
    - done.
    - destruct e as [| |Size| | | | | | | | | | | ]; try done. apply N.eqb_eq in Hst.
      apply andb_true_iff in Hwf as [_ Hs]. apply N.ltb_lt in Hs.
      refine (LP (ECascading (ELinear Size)) (cl_contract bad pl Hpl (Hb eq_refl) Size Hst Hs) _ _); [intros b s; by destruct s|]. intros b s S. apply cl_hle.
    - apply andb_true_iff in Hwf as [[H1 H2]%andb_true_iff Ho]. apply andb_true_iff in Hst as [S1 S2].
      destruct (IHp H1 S1) as [CP HrP HfP]; [intros E; apply Hb; by rewrite E|].
      destruct (IHf H2 S2) as [CF HrF HfF]; [intros E; apply Hb; rewrite E; apply orb_true_r|].
      refine (LP (EFallback p f) (fallback_contract CP CF (den_owns pl p Ho)) _ _); [intros b s; cbn [rdy fallback_contract eready_now]; unfold pair_rdy; rewrite den_size; intros [E1 E2]%andb_true_iff; by rewrite HrP // HrF|].
      intros b s S. cbn [J fallback_contract spare]. iIntros "(%T1 & %T2 & (%Hp & _ & _) & HP & HF)".
      rewrite HfP HfF. iDestruct (hle_sep with "[$HP $HF]") as "H". iApply (hle_mono with "H"). rewrite Hp app_length. lia.
    - apply andb_true_iff in Hwf as [H1 H2]. apply andb_true_iff in Hst as [S1 S2].
      destruct (IHp H1 S1) as [CP HrP HfP]; [intros E; apply Hb; by rewrite E|].
      destruct (IHf H2 S2) as [CF HrF HfF]; [intros E; apply Hb; rewrite E; apply orb_true_r|].
      refine (LP (ESegragator T p f) (segragator_contract CP CF T) _ _); [intros b s; cbn [rdy segragator_contract eready_now]; unfold pair_rdy; rewrite den_size; intros [E1 E2]%andb_true_iff; by rewrite HrP // HrF|].
      intros b s S. cbn [J segragator_contract spare]. iIntros "(%T1 & %T2 & (%Hp & _ & _) & HP & HF)".
      rewrite HfP HfF. iDestruct (hle_sep with "[$HP $HF]") as "H". iApply (hle_mono with "H"). rewrite Hp app_length. lia.
    - destruct (IH Hwf Hst Hb) as [C Hr Hf]. refine (LP (EOverflow e) (overflow_contract C) _ _); [intros b s; apply Hr|].
      intros b s S. cbn [J overflow_contract spare]. iIntros "(HJ & Hg & _)". rewrite Hf guards_ntok map_length.
      iApply (hle_0 with "[$HJ $Hg]").
    - apply andb_true_iff in Hwf as [Hwf Hs]. apply N.ltb_lt in Hs. rewrite -(den_size pl) in Hs.
      destruct (IH Hwf Hst (fun _ => Hb eq_refl)) as [C Hr Hf].
      refine (LP (EShared e) (shared_contract C pl Hpl (Hb eq_refl) Hs) _ _); [intros b s; apply Hr|].
      intros b s S. cbn [J shared_contract spare]. iIntros "(HJ & Hraw & Htok & _)".
      rewrite Hf raw_ntok amtok_ntok (ntok_hle 1). iDestruct (hle_sep with "[$Htok $HJ]") as "H". iApply (hle_0 with "[$H $Hraw]").
    - destruct (IH Hwf Hst Hb) as [C Hr Hf]. exact (LP (EThreaded e) (forwarding_contract C) Hr Hf).
    - destruct (IH Hwf Hst Hb) as [C Hr Hf]. exact (LP (EReference e) (forwarding_contract C) Hr Hf).
    - destruct (IH Hwf Hst Hb) as [C Hr Hf]. exact (LP (EGlobal e) (forwarding_contract C) Hr Hf).
    - destruct (IH Hwf Hst Hb) as [C Hr Hf]. refine (LP (EChecked e) (checked_contract C) _ _); [intros b s; apply Hr|].
      intros b s S. cbn [J checked_contract spare]. iIntros "[HJ _]". by iApply Hf.
  Defined.
End tree.

(** * Families of allocators *)
Section family.
  Context {bad : event -> bool} {A : alloc} {req : N -> bool} (CA : service bad A req) (b : N) (d : nat).
  Context (HV : forall b s S, V CA b s S ⊢ hle (d + length S)).

  Lemma filter_dom (T : list (nat * (N * N))) (i : nat) (Y : gset nat) : i ∉ Y ->
    length (filter (fun x => fst x ∈ {[i]} ∪ Y) T) =
    (length (filter (fun x => fst x = i) T) + length (filter (fun x => fst x ∈ Y) T))%nat.
  Proof.
    intros Hi. induction T as [|x T IH]; [done|]. destruct (decide (fst x = i)) as [E|E].
    - rewrite (filter_cons_True (fun x => fst x ∈ {[i]} ∪ Y)); [|set_solver]. rewrite (filter_cons_True (fun x => fst x = i)) //.
      rewrite (filter_cons_False (fun x => fst x ∈ Y)); [|congruence]. cbn [length]. lia.
    - destruct (decide (fst x ∈ Y)) as [H|H].
      + rewrite (filter_cons_True (fun x => fst x ∈ {[i]} ∪ Y)); [|set_solver]. rewrite (filter_cons_False (fun x => fst x = i)) //.
        rewrite (filter_cons_True (fun x => fst x ∈ Y)) //. cbn [length]. lia.
      + rewrite (filter_cons_False (fun x => fst x ∈ {[i]} ∪ Y)); [|set_solver]. rewrite (filter_cons_False (fun x => fst x = i)) //.
        rewrite (filter_cons_False (fun x => fst x ∈ Y)) //.
  Qed.

  Lemma family_hle (E : env A) (T : list (nat * (N * N))) :
    ([∗ map] h ↦ s ∈ E, V CA (at_ A b h) s (map snd (filter (fun x => fst x = h) T))) ⊢
    hle (size E * d + length (filter (fun x => fst x ∈ dom E) T)).
  Proof.
    induction E as [|i s E Hi IH] using map_ind.
    - rewrite big_sepM_empty emp_ntok ntok_hle. apply hle_mono. lia.
    - rewrite big_sepM_insert // IH HV map_length map_size_insert_None // dom_insert_L filter_dom; [|by apply not_elem_of_dom].
      iIntros "H". iDestruct (hle_sep with "H") as "H". iApply (hle_mono with "H"). lia.
  Qed.

  Lemma inv_hle D E B : inv CA b D E B ⊢ hle (size D * d + length B).
  Proof.
    rewrite inv_alone inv_split0. iIntros "[[[%HD _] H] HB]". rewrite family_hle. unfold oblocks.
    iAssert (ntok 0) with "[HB]" as "HB".
    { clear. iInduction B as [|x B] "IH"; [rewrite big_sepL_nil; by iApply emp_ntok|]. rewrite big_sepL_cons.
      iDestruct "HB" as "[H1 H2]". iDestruct ("IH" with "H2") as "H2". rewrite pts_ntok. iApply (ntok_0 with "[$H1 $H2]"). }
    iDestruct (hle_0 with "[$H $HB]") as "H". iApply (hle_mono with "H").
    rewrite -(size_dom E) HD. pose proof (filter_length (fun x => fst x ∈ D) (oshape B)) as Hl.
    unfold oshape in *. rewrite map_length in Hl. lia.
  Qed.

  Context {X O S : Type}.
  Context (stp : O -> env A * gmap nat X -> M (cobs * (env A * gmap nat X))).
  Context (chk : O -> cobs -> S -> S -> Prop) (s0 : S) (k : nat).
  Let D : gset nat := set_seq 0 k.
  Context (Iv : env A -> gmap nat X -> S -> hpropI).
  Context (Hinit : forall E, inv CA b D E [] ⊢ Iv E ∅ s0).
  Context (Hstep : forall o E vs s, Iv E vs s ⊢ wp bad (stp o (E, vs)) (fun r =>
    ∃ s', ⌈chk o (fst r) s s'⌉ ∗ Iv (fst (snd r)) (snd (snd r)) s')).
  Context (cnt : gmap nat X -> nat).
  Context (Hcnt : forall E vs s, Iv E vs s ⊢ ∃ B, ⌈(length B <= cnt vs)%nat⌉ ∗ inv CA b D E B).

  Lemma crun_hold ops w os E vs w1 e1 : place b (N.of_nat k * a_size A) w ->
    crun_from A b stp k ops w = Ok (os, (E, vs)) w1 e1 -> existsb bad e1 = false ->
    (size (mtab (st w1)) <= size (mtab (st w)) + k * d + cnt vs)%nat.
  Proof.
    intros (H1&H2&H3&Hst&H0) Hrun Hbad. set (m := N.of_nat k * a_size A) in *.
    set (n := N.to_nat m). set (mF := clear b n (mem (st w))).
    assert (Hpre : own (mem (st w)) ⊢ raw b m ∗ own mF).
    { rewrite (own_take (mem (st w)) b n).
      2:{ intros i Hi. destruct (Hst i) as (c&Hc&_); [lia|]. by exists c. }
      iIntros "[Hc $]". iApply (raw_intro with "Hc"); [rewrite Wp.cells_length; lia|].
      apply cells_Forall. intros i Hi. apply Hst. lia. }
    assert (Hat : at_ A b 0 = b) by (unfold Env.at_; lia).
    pose proof (wp_adequate_store bad (crun_from A b stp k ops) (fun r => hle (k * d + cnt (snd (snd r))))%I w) as Had.
    lapply Had; clear Had.
    - rewrite Hrun. intros [Hb|(_&s'&Hst'&[_ Hd]&HQ)]; [congruence|]. rewrite hle_eq in HQ. cbn in HQ.
      rewrite Hst'. cbn. rewrite map_size_disj_union //. lia.
    - rewrite Hpre. iIntros "[Hr HF]". unfold crun_from. iApply wp_bind. iApply wp_strong_mono. iSplitL "Hr".
      { rewrite -{1}Hat. iApply (init_all_spec CA b ∅ ∅ 0 k); [done..|]. iFrame. iSplit; [|by rewrite big_sepM_empty].
        iPureIntro. split; [by rewrite dom_empty_L|constructor]. }
      iIntros (E0) "H". rewrite union_empty_l_L. iApply wp_strong_mono. iSplitL "H".
      { iApply (crun_spec stp chk Iv Hstep ops). by iApply Hinit. }
      iIntros ([os' [E' vs']]) "(_ & %s' & H)". cbn [fst snd]. iDestruct (Hcnt with "H") as (B) "[%HB H]".
      rewrite inv_hle own_ntok. iDestruct (hle_0 with "[$H $HF]") as "H". iApply (hle_mono with "H").
      unfold D. rewrite size_set_seq. lia.
  Qed.
End family.

(** * Containers *)
Lemma lean_service pl e req' : pl <> PPosix -> wf e = true -> lean e = true -> (forall n, req' n = true -> ereq pl e n = true) ->
  exists CA : service (unsupported req') (den pl e) req', forall b s S, V CA b s S ⊢ hle (spare e + length S).
Proof.
  intros Hpl Hwf Hl Hle. destruct (lean_contract (unsupported req') pl e Hpl Hwf Hl) as [C _ HC]; [done|].
  by exists (service_less req' (service_of C eq_refl (modest_un _ _ Hle)) Hle (modest_un _ _ (fun _ H => H))).
Qed.

Lemma stored_fmap {X Y} (f : Y -> X) (beg : X -> N) (Z : gmap nat Y) : stored beg (f <$> Z) = stored (beg ∘ f) Z.
Proof.
  unfold stored. rewrite map_to_list_fmap. induction (map_to_list Z) as [|[c y] l IH]; [done|]. cbn [fmap list_fmap prod_map].
  destruct (decide (beg (f y) = 0)) as [H|H].
  - rewrite (filter_cons_False (fun p => beg (snd p) <> 0)); [|cbn; tauto].
    rewrite (filter_cons_False (fun p => (beg ∘ f) (snd p) <> 0)); [|cbn; tauto]. exact IH.
  - rewrite (filter_cons_True (fun p => beg (snd p) <> 0)) //.
    rewrite (filter_cons_True (fun p => (beg ∘ f) (snd p) <> 0)) //. cbn [length]. f_equal. exact IH.
Qed.

Lemma stored_length {Y} (g : Y -> N) (f : Y -> list oblk) (Z : gmap nat Y) :
  (forall y, (length (f y) <= if decide (g y <> 0%N) then 1 else 0)%nat) ->
  (length (flat_map (fun p => f (snd p)) (map_to_list Z)) <= stored g Z)%nat.
Proof.
  intros H. unfold stored. induction (map_to_list Z) as [|[c y] l IH]; [done|]. cbn [flat_map snd]. rewrite app_length.
  specialize (H y). destruct (decide (g y <> 0)) as [Hg|Hg].
  - rewrite (filter_cons_True (fun p => g (snd p) <> 0)) //. cbn [length]. lia.
  - rewrite (filter_cons_False (fun p => g (snd p) <> 0)) //. lia.
Qed.

Section containers.
  Context (pl : platform) (e : aexp) (b sz : N) (k : nat).
  Local Notation A := (den pl e).

  Lemma vectors_hold ops w os E vs w1 e1 : pl <> PPosix -> wf e = true -> lean e = true -> 0 < sz ->
    place b (N.of_nat k * esize e) w ->
    crun_from A b (vstep A b sz k) k ops w = Ok (os, (E, vs)) w1 e1 -> existsb (unsupported (ereq pl e)) e1 = false ->
    (size (mtab (st w1)) <= size (mtab (st w)) + k * spare e + stored v_beg vs)%nat.
  Proof.
    intros Hpl Hwf Hl Hsz Hp Hrun Hbad. destruct (lean_service pl e (ereq pl e) Hpl Hwf Hl) as [CA HV]; [done|].
    rewrite -(den_size pl) in Hp.
    eapply (crun_hold CA b (spare e) HV (vstep A b sz k) (vcheck sz k) ∅ k (cinv CA b sz (set_seq 0 k) (vec_of sz))); try done.
    - intros E'. apply cinv_init.
    - intros o E' vs' s. apply vstep_spec; [done|]. intros h Ho HL. apply elem_of_set_seq.
      split; [lia|]. destruct o; cbn in *; try done; injection Ho as ->; unfold new_name in HL;
        repeat (apply andb_true_iff in HL as [HL ?]); by apply Nat.ltb_lt.
    - intros E' vs' s. iIntros "(%Z & %HZ & H)". destruct HZ as (->&_&_). iExists _. iFrame "H". iPureIntro. rewrite stored_fmap.
      apply stored_length. intros [x es]. unfold one. cbn. destruct (N.eqb_spec (s_data x) 0), (decide _); cbn; try lia; done.
  Qed.

  Lemma arrays_hold ops w os E vs w1 e1 : pl <> PPosix -> wf e = true -> lean e = true -> 0 < sz ->
    place b (N.of_nat k * esize e) w ->
    crun_from A b (astep A b sz k) k ops w = Ok (os, (E, vs)) w1 e1 -> existsb (unsupported (ereq pl e)) e1 = false ->
    (size (mtab (st w1)) <= size (mtab (st w)) + k * spare e + stored r_beg vs)%nat.
  Proof.
    intros Hpl Hwf Hl Hsz Hp Hrun Hbad. destruct (lean_service pl e (ereq pl e) Hpl Hwf Hl) as [CA HV]; [done|].
    rewrite -(den_size pl) in Hp.
    eapply (crun_hold CA b (spare e) HV (astep A b sz k) (acheck sz k) ∅ k (ainv CA b sz (set_seq 0 k))); try done.
    - intros E'. iIntros "H". iSplitR; [iPureIntro; apply map_Forall_empty|]. by iApply cinv_init.
    - intros o E' vs' s. apply astep_spec; [done|]. intros h Ho HL. apply elem_of_set_seq.
      split; [lia|]. destruct o; cbn in *; try done; injection Ho as ->; unfold new_name in HL;
        repeat (apply andb_true_iff in HL as [HL ?]); by apply Nat.ltb_lt.
    - intros E' vs' s. iIntros "(_ & %Z & %HZ & H)". destruct HZ as (->&_&_). iExists _. iFrame "H". iPureIntro. rewrite stored_fmap.
      apply stored_length. intros [x es]. unfold one. cbn. destruct (N.eqb_spec (s_data x) 0), (decide _); cbn; try lia; done.
  Qed.

  Lemma heaps_hold T comp eqv ops w os E vs w1 e1 : pl <> PPosix -> wf e = true -> lean e = true -> 0 < sz ->
    place b (N.of_nat k * esize e) w ->
    crun_from A b (hstep A b sz T comp eqv k) k ops w = Ok (os, (E, vs)) w1 e1 ->
    existsb (unsupported (half (ereq pl e))) e1 = false ->
    (size (mtab (st w1)) <= size (mtab (st w)) + k * spare e + stored h_beg vs)%nat.
  Proof.
    intros Hpl Hwf Hl Hsz Hp Hrun Hbad. destruct (lean_service pl e (half (ereq pl e)) Hpl Hwf Hl (half_le _)) as [CA HV].
    rewrite -(den_size pl) in Hp.
    eapply (crun_hold CA b (spare e) HV (hstep A b sz T comp eqv k) (hcheck sz T comp eqv k) ∅ k (hinv CA b sz T comp (set_seq 0 k))); try done.
    - intros E'. apply hinv_init.
    - intros o E' vs' s. apply hstep_spec; [done| |]. { intros n H. apply andb_true_iff in H as [_ H]. by apply N.ltb_lt. }
      intros h Ho HL. apply elem_of_set_seq.
      split; [lia|]. destruct o; cbn in *; try done; injection Ho as ->; unfold new_name in HL;
        repeat (apply andb_true_iff in HL as [HL ?]); by apply Nat.ltb_lt.
    - intros E' vs' s. iIntros "(%Z & %HZ & H)". destruct HZ as (->&_&_). iExists _. iFrame "H". iPureIntro. rewrite stored_fmap.
      apply stored_length. intros [x es]. unfold hone. cbn. destruct (N.eqb_spec (p_data x) 0), (decide _); cbn; try lia; done.
  Qed.
End containers.
