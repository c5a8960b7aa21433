(** The heap that containers hold over types whose storage is all from malloc. *)
From iris.proofmode Require Import tactics.
From Verif Require Import Base Mem Sep Wp Bits AlignedMalloc AlignedMallocProofs Allocators Contract Adequacy
  LinearProofs BasicProofs PairProofs OverflowProofs NodeProofs CascadingProofs BitsProofs Checked CheckedProofs Tree TreeProofs
  Client ClientProofs AllocSpec AllocFacts Footprint Budget BudgetProofs Service TreeService Env EnvProofs Vector RepProofs VectorProofs
  Array ArrayProofs HeapPure Heap HeapSpec HeapProofs HeapFacts Books Hold HoldProofs.

Local Open Scope N_scope.

(** Exactly [k] blocks with [m] bytes are owned. *)
Definition hex_def (k : nat) (m : N) : hprop := HProp (λ s, size (mtab s) = k /\ total (mtab s) = m).
Definition hex_aux : seal (@hex_def). Proof. by eexists. Qed.
Definition hex : nat -> N -> hpropI := hex_aux.(unseal).
Definition hex_eq : @hex = @hex_def := hex_aux.(seal_eq).

Lemma hex_sep k m k' m' : hex k m ∗ hex k' m' ⊢ hex (k + k') (m + m').
Proof.
  rewrite hunfold_entails. intros s. rewrite hunfold_sep. intros (s1&s2&->&[_ Hd]&H1&H2).
  rewrite hex_eq in H1, H2 |- *. cbn in H1, H2 |- *. rewrite map_size_disj_union // total_union //. lia.
Qed.
Lemma hex_is k m k' m' : k = k' -> m = m' -> hex k m ⊢ hex k' m'.
Proof. by intros -> ->. Qed.
Lemma ntok_hex : ntok 0 ⊢ hex 0 0.
Proof.
  rewrite hunfold_entails. intros s. rewrite ntok_eq hex_eq. cbn. intros H. apply map_size_empty_inv in H as ->.
  split; [done|]. unfold total. by rewrite map_fold_empty.
Qed.
Lemma hex_0 k m : hex k m ∗ ntok 0 ⊢ hex k m.
Proof. rewrite ntok_hex hex_sep. apply hex_is; lia. Qed.
Lemma tok_hex a n : tok a n ⊢ hex 1 n.
Proof.
  rewrite hunfold_entails. intros s. rewrite tok_eq hex_eq. cbn. intros ->. cbn. rewrite map_size_singleton.
  split; [done|]. unfold total. rewrite -insert_empty map_fold_insert_L; [rewrite map_fold_empty; lia|intros; lia|apply lookup_empty].
Qed.
Lemma amtok_hex pl p n : amtok pl p n ⊢ hex 1 (n + over pl).
Proof.
  unfold amtok. destruct pl; cbn [over]; rewrite ?N.add_0_r; try apply tok_hex; [by iIntros "[]"|].
  iIntros "(%ptr & %pre & %post & _ & Ht & H1 & H2 & H3)". rewrite tok_hex !pts_ntok.
  iDestruct (hex_0 with "[$Ht $H1]") as "Ht". iDestruct (hex_0 with "[$Ht $H2]") as "Ht".
  iApply (hex_0 with "[$Ht $H3]").
Qed.

Lemma sum_app l l' : sum (l ++ l') = sum l + sum l'.
Proof. unfold sum. induction l as [|x l IH]; cbn; lia. Qed.
Lemma sum_perm l l' : l ≡ₚ l' -> sum l = sum l'.
Proof. unfold sum. induction 1; cbn; lia. Qed.

Section tree.
  Context (bad : event -> bool) (pl : platform).

  Record xpack (e : aexp) := XP {
    xc : contract bad (den pl e) (ereq pl e);
    x_rdy b s : eready_now pl e b s = true -> rdy xc b s = true;
    x_foot b s S : J xc b s S ⊢ hex (spare e + length S) (base pl e + sum (map (fun x => cost pl e (snd x)) S))
  }.

  Definition solid_contract e : pl <> PPosix -> wf e = true -> solid e = true ->
    (eboxed e = true -> bad EvFail || bad EvRefuse = true) -> xpack e.
  Proof.
    intros Hpl. induction e as [| | | |Min Max e IH|e IH|p IHp f IHf|T p IHp f IHf|e IH|e IH|e IH|e IH|e IH|e IH]; cbn [wf solid eboxed]; intros Hwf Hst Hb; try done.
    - refine (XP EMalloc (mal_contract bad pl Hpl) _ _); [done|]. intros b s S. cbn [J mal_contract spare base]. unfold mal_J.
      induction S as [|x S IH]; [rewrite big_sepL_nil emp_ntok ntok_hex; apply hex_is; done|].
      rewrite big_sepL_cons IH amtok_hex. iIntros "[[_ H1] H2]". iDestruct (hex_sep with "[$H1 $H2]") as "H".
      iApply (hex_is with "H"); [cbn [length]; lia|]. cbn [map sum fold_right cost]. unfold sum. lia.
    - apply andb_true_iff in Hwf as [H1 H2]. apply andb_true_iff in Hst as [S1 S2].
      destruct (IHp H1 S1) as [CP HrP HfP]; [intros E; apply Hb; by rewrite E|].
      destruct (IHf H2 S2) as [CF HrF HfF]; [intros E; apply Hb; rewrite E; apply orb_true_r|].
      refine (XP (ESegragator T p f) (segragator_contract CP CF T) _ _); [intros b s; cbn [rdy segragator_contract eready_now]; unfold pair_rdy; rewrite den_size; intros [E1 E2]%andb_true_iff; by rewrite HrP // HrF|].
      intros b s S. cbn [J segragator_contract spare base]. iIntros "(%T1 & %T2 & (%Hp & %L1 & %L2) & HP & HF)".
      rewrite HfP HfF. iDestruct (hex_sep with "[$HP $HF]") as "H". iApply (hex_is with "H").
      + rewrite Hp app_length. lia.
      + rewrite (sum_perm (map (fun x => cost pl (ESegragator T p f) (snd x)) S) (map (fun x => cost pl (ESegragator T p f) (snd x)) (T1 ++ T2))); [|by apply Permutation_map].
        rewrite map_app sum_app.
        assert (map (fun x => cost pl (ESegragator T p f) (snd x)) T1 = map (fun x => cost pl p (snd x)) T1) as ->.
        { apply map_ext_in. intros x Hx. cbn [cost]. rewrite List.Forall_forall in L1. specialize (L1 x Hx). unfold seg_low in L1.
          destruct (N.leb_spec (snd x) T); [done|lia]. }
        assert (map (fun x => cost pl (ESegragator T p f) (snd x)) T2 = map (fun x => cost pl f (snd x)) T2) as ->.
        { apply map_ext_in. intros x Hx. cbn [cost]. rewrite List.Forall_forall in L2. specialize (L2 x Hx). unfold seg_high in L2.
          destruct (N.leb_spec (snd x) T); [lia|done]. }
        lia.
    - destruct (IH Hwf Hst Hb) as [C Hr Hf]. refine (XP (EOverflow e) (overflow_contract C) _ _); [intros b s; apply Hr|].
      intros b s S. cbn [J overflow_contract spare base]. iIntros "(HJ & Hg & _)". rewrite Hf guards_ntok map_length map_map.
      iApply (hex_0 with "[$HJ $Hg]").
    - apply andb_true_iff in Hwf as [Hwf Hs]. apply N.ltb_lt in Hs. rewrite -(den_size pl) in Hs.
      destruct (IH Hwf Hst (fun _ => Hb eq_refl)) as [C Hr Hf].
      refine (XP (EShared e) (shared_contract C pl Hpl (Hb eq_refl) Hs) _ _); [intros b s; apply Hr|].
      intros b s S. cbn [J shared_contract spare base]. iIntros "(HJ & Hraw & Htok & _)".
      rewrite Hf raw_ntok amtok_hex den_size. iDestruct (hex_sep with "[$Htok $HJ]") as "H".
      iDestruct (hex_0 with "[$H $Hraw]") as "H". iApply (hex_is with "H"); [done|]. cbn [cost]. lia.
    - destruct (IH Hwf Hst Hb) as [C Hr Hf]. exact (XP (EThreaded e) (forwarding_contract C) Hr Hf).
    - destruct (IH Hwf Hst Hb) as [C Hr Hf]. exact (XP (EReference e) (forwarding_contract C) Hr Hf).
    - destruct (IH Hwf Hst Hb) as [C Hr Hf]. exact (XP (EGlobal e) (forwarding_contract C) Hr Hf).
    - destruct (IH Hwf Hst Hb) as [C Hr Hf]. refine (XP (EChecked e) (checked_contract C) _ _); [intros b s; apply Hr|].
      intros b s S. cbn [J checked_contract spare base]. iIntros "[HJ _]". by iApply Hf.
  Defined.
End tree.

Section family.
  Context {bad : event -> bool} {A : alloc} {req : N -> bool} (CA : service bad A req) (b : N) (d : nat) (y : N) (g : N -> N).
  Context (HV : forall b s S, V CA b s S ⊢ hex (d + length S) (y + sum (map (fun x => g (snd x)) S))).
  Local Notation weight := (fun T : list (nat * (N * N)) => sum (map (fun x => g (snd (snd x))) T)).

  Lemma count_dom (T : list (nat * (N * N))) (i : nat) (Y : gset nat) : i ∉ Y ->
    length (filter (fun x => fst x ∈ {[i]} ∪ Y) T) = (
    length (filter (fun x => fst x = i) T) + length (filter (fun x => fst x ∈ Y) T))%nat.
  Proof.
    intros Hi. induction T as [|x T IH]; [done|]. destruct (decide (fst x = i)) as [E|E].
    - rewrite (filter_cons_True (fun x => fst x ∈ {[i]} ∪ Y)); [|set_solver]. rewrite (filter_cons_True (fun x => fst x = i)) //.
      rewrite (filter_cons_False (fun x => fst x ∈ Y)); [|congruence]. cbn [length]. lia.
    - destruct (decide (fst x ∈ Y)) as [H|H].
      + rewrite (filter_cons_True (fun x => fst x ∈ {[i]} ∪ Y)); [|set_solver]. rewrite (filter_cons_False (fun x => fst x = i)) //.
        rewrite (filter_cons_True (fun x => fst x ∈ Y)) //. cbn [length]. lia.
      + rewrite (filter_cons_False (fun x => fst x ∈ {[i]} ∪ Y)); [|set_solver]. rewrite (filter_cons_False (fun x => fst x = i)) //.
        rewrite (filter_cons_False (fun x => fst x ∈ Y)) //.
  Qed.

  Lemma weight_dom (T : list (nat * (N * N))) (i : nat) (Y : gset nat) : i ∉ Y ->
    weight (filter (fun x => fst x ∈ {[i]} ∪ Y) T) =
    weight (filter (fun x => fst x = i) T) + weight (filter (fun x => fst x ∈ Y) T).
  Proof.
    intros Hi. induction T as [|x T IH]; [done|]. destruct (decide (fst x = i)) as [E|E].
    - rewrite (filter_cons_True (fun x => fst x ∈ {[i]} ∪ Y)); [|set_solver]. rewrite (filter_cons_True (fun x => fst x = i)) //.
      rewrite (filter_cons_False (fun x => fst x ∈ Y)); [|congruence]. cbn [map sum fold_right] in *. unfold sum in *. lia.
    - destruct (decide (fst x ∈ Y)) as [H|H].
      + rewrite (filter_cons_True (fun x => fst x ∈ {[i]} ∪ Y)); [|set_solver]. rewrite (filter_cons_False (fun x => fst x = i)) //.
        rewrite (filter_cons_True (fun x => fst x ∈ Y)) //. cbn [map sum fold_right] in *. unfold sum in *. lia.
      + rewrite (filter_cons_False (fun x => fst x ∈ {[i]} ∪ Y)); [|set_solver]. rewrite (filter_cons_False (fun x => fst x = i)) //.
        rewrite (filter_cons_False (fun x => fst x ∈ Y)) //.
  Qed.

  Lemma family_hex (E : env A) (T : list (nat * (N * N))) :
    ([∗ map] h ↦ s ∈ E, V CA (at_ A b h) s (map snd (filter (fun x => fst x = h) T))) ⊢
    hex (size E * d + length (filter (fun x => fst x ∈ dom E) T)) (N.of_nat (size E) * y + weight (filter (fun x => fst x ∈ dom E) T)).
  Proof.
    induction E as [|i s E Hi IH] using map_ind.
    - rewrite big_sepM_empty emp_ntok ntok_hex. apply hex_is.
      + rewrite map_size_empty dom_empty_L. induction T as [|x T IH]; [done|]. rewrite filter_cons_False; [done|set_solver].
      + rewrite map_size_empty dom_empty_L. induction T as [|x T IH]; [done|]. rewrite filter_cons_False; [done|set_solver].
    - rewrite big_sepM_insert // IH HV map_length map_map map_size_insert_None // dom_insert_L count_dom; [|by apply not_elem_of_dom].
      rewrite weight_dom; [|by apply not_elem_of_dom].
      iIntros "H". iDestruct (hex_sep with "H") as "H". iApply (hex_is with "H"); [lia|]. rewrite Nat2N.inj_succ. lia.
  Qed.

  Lemma inv_hex D E B : inv CA b D E B ⊢ hex (size D * d + length B) (N.of_nat (size D) * y + sum (map (fun x => g (snd (bsize (snd x)))) B)).
  Proof.
    rewrite inv_alone inv_split0. iIntros "[[[%HD %HB0] H] HB]". rewrite family_hex. unfold oblocks.
    iAssert (ntok 0) with "[HB]" as "HB".
    { clear. iInduction B as [|x B] "IH"; [rewrite big_sepL_nil; by iApply emp_ntok|]. rewrite big_sepL_cons.
      iDestruct "HB" as "[H1 H2]". iDestruct ("IH" with "H2") as "H2". rewrite pts_ntok. iApply (ntok_0 with "[$H1 $H2]"). }
    iDestruct (hex_0 with "[$H $HB]") as "H". rewrite -(size_dom E) HD.
    assert (filter (fun x => fst x ∈ D) (oshape B) = oshape B) as HF.
    { clear HD. induction HB0 as [|x T Hx HT IH]; [done|]. rewrite filter_cons_True // IH //. }
    rewrite HF. iApply (hex_is with "H"); unfold oshape; [by rewrite map_length|by rewrite map_map].
  Qed.

  Context {X O S : Type}.
  Context (stp : O -> env A * gmap nat X -> M (cobs * (env A * gmap nat X))).
  Context (chk : O -> cobs -> S -> S -> Prop) (s0 : S) (k : nat).
  Let D : gset nat := set_seq 0 k.
  Context (Iv : env A -> gmap nat X -> S -> hpropI).
  Context (Hinit : forall E, inv CA b D E [] ⊢ Iv E ∅ s0).
  Context (Hstep : forall o E vs s, Iv E vs s ⊢ wp bad (stp o (E, vs)) (fun r =>
    ∃ s', ⌈chk o (fst r) s s'⌉ ∗ Iv (fst (snd r)) (snd (snd r)) s')).
  Context (cnt : gmap nat X -> nat) (chg : gmap nat X -> N).
  Context (Hcnt : forall E vs s, Iv E vs s ⊢ ∃ B, ⌈length B = cnt vs /\ sum (map (fun x => g (snd (bsize (snd x)))) B) = chg vs⌉ ∗ inv CA b D E B).

  Lemma crun_exact ops w os E vs w1 e1 : place b (N.of_nat k * a_size A) w ->
    crun_from A b stp k ops w = Ok (os, (E, vs)) w1 e1 -> existsb bad e1 = false ->
    size (mtab (st w1)) = (size (mtab (st w)) + k * d + cnt vs)%nat /\
    total (mtab (st w1)) = total (mtab (st w)) + N.of_nat k * y + chg vs.
  Proof.
    intros (H1&H2&H3&Hst&H0) Hrun Hbad. set (m := N.of_nat k * a_size A) in *.
    set (n := N.to_nat m). set (mF := clear b n (mem (st w))).
    assert (Hpre : own (mem (st w)) ⊢ raw b m ∗ own mF).
    { rewrite (own_take (mem (st w)) b n).
      2:{ intros i Hi. destruct (Hst i) as (c&Hc&_); [lia|]. by exists c. }
      iIntros "[Hc $]". iApply (raw_intro with "Hc"); [rewrite Wp.cells_length; lia|].
      apply cells_Forall. intros i Hi. apply Hst. lia. }
    assert (Hat : at_ A b 0 = b) by (unfold Env.at_; lia).
    pose proof (wp_adequate_store bad (crun_from A b stp k ops)
      (fun r => hex (k * d + cnt (snd (snd r))) (N.of_nat k * y + chg (snd (snd r))))%I w) as Had.
    lapply Had; clear Had.
    - rewrite Hrun. intros [Hb|(_&s'&Hst'&[_ Hd]&HQ)]; [congruence|]. rewrite hex_eq in HQ. cbn in HQ.
      rewrite Hst'. cbn. rewrite map_size_disj_union // total_union //. lia.
    - rewrite Hpre. iIntros "[Hr HF]". unfold crun_from. iApply wp_bind. iApply wp_strong_mono. iSplitL "Hr".
      { rewrite -{1}Hat. iApply (init_all_spec CA b ∅ ∅ 0 k); [done..|]. iFrame. iSplit; [|by rewrite big_sepM_empty].
        iPureIntro. split; [by rewrite dom_empty_L|constructor]. }
      iIntros (E0) "H". rewrite union_empty_l_L. iApply wp_strong_mono. iSplitL "H".
      { iApply (crun_spec stp chk Iv Hstep ops). by iApply Hinit. }
      iIntros ([os' [E' vs']]) "(_ & %s' & H)". cbn [fst snd]. iDestruct (Hcnt with "H") as (B) "[%HB H]". destruct HB as [HB1 HB2].
      rewrite inv_hex own_ntok. iDestruct (hex_0 with "[$H $HF]") as "H". iApply (hex_is with "H"); unfold D; rewrite size_set_seq; lia.
  Qed.
End family.

Lemma solid_service pl e req' : pl <> PPosix -> wf e = true -> solid e = true -> (forall n, req' n = true -> ereq pl e n = true) ->
  exists CA : service (unsupported req') (den pl e) req',
    forall b s S, V CA b s S ⊢ hex (spare e + length S) (base pl e + sum (map (fun x => cost pl e (snd x)) S)).
Proof.
  intros Hpl Hwf Hl Hle. destruct (solid_contract (unsupported req') pl e Hpl Hwf Hl) as [C _ HC]; [done|].
  by exists (service_less req' (service_of C eq_refl (modest_un _ _ Hle)) Hle (modest_un _ _ (fun _ H => H))).
Qed.

(** Containers with one block each. *)
Lemma charged_fmap {X Y} pl e (f : Y -> X) (beg len : X -> N) (Z : gmap nat Y) :
  charged pl e beg len (f <$> Z) = charged pl e (beg ∘ f) (len ∘ f) Z.
Proof.
  unfold charged. etrans; [apply sum_perm, Permutation_map, filter_Permutation, map_to_list_fmap|]. induction (map_to_list Z) as [|[c y] l IH]; [done|]. cbn [fmap list_fmap prod_map].
  destruct (decide (beg (f y) = 0)) as [H|H].
  - rewrite (filter_cons_False (fun p => beg (snd p) <> 0)); [|cbn; tauto].
    rewrite (filter_cons_False (fun p => (beg ∘ f) (snd p) <> 0)); [|cbn; tauto]. exact IH.
  - rewrite (filter_cons_True (fun p => beg (snd p) <> 0)) //.
    rewrite (filter_cons_True (fun p => (beg ∘ f) (snd p) <> 0)) //. cbn [map sum fold_right]. f_equal. exact IH.
Qed.

Lemma stored_blocks {Y} pl e (beg len : Y -> N) (f : Y -> list oblk) (P : Y -> Prop) (Z : gmap nat Y) :
  map_Forall (fun _ => P) Z ->
  (forall y, P y -> if decide (beg y <> 0) then exists x, f y = [x] /\ N.of_nat (length (snd (snd x))) = len y else f y = []) ->
  length (flat_map (fun p => f (snd p)) (map_to_list Z)) = stored beg Z /\
  sum (map (fun x => cost pl e (snd (bsize (snd x)))) (flat_map (fun p => f (snd p)) (map_to_list Z))) = charged pl e beg len Z.
Proof.
  intros HZ%map_Forall_to_list H. unfold stored, charged. induction HZ as [|[c y] l Hy Hl [IH1 IH2]]; [done|].
  cbn [flat_map snd]. rewrite app_length map_app sum_app IH1 IH2. specialize (H y Hy). destruct (decide (beg y <> 0)) as [Hg|Hg].
  - destruct H as (x&->&Hx). rewrite (filter_cons_True (fun p => beg (snd p) <> 0)) //. split; [done|].
    unfold bsize. cbn [map sum fold_right snd]. rewrite Hx. unfold sum. lia.
  - rewrite H (filter_cons_False (fun p => beg (snd p) <> 0)) //.
Qed.

Section containers.
  Context (pl : platform) (e : aexp) (b sz : N) (k : nat).
  Local Notation A := (den pl e).

  Lemma vectors_exact ops w os E vs w1 e1 : pl <> PPosix -> wf e = true -> solid e = true -> 0 < sz ->
    place b (N.of_nat k * esize e) w ->
    crun_from A b (vstep A b sz k) k ops w = Ok (os, (E, vs)) w1 e1 -> existsb (unsupported (ereq pl e)) e1 = false ->
    size (mtab (st w1)) = (size (mtab (st w)) + k * spare e + stored v_beg vs)%nat /\
    total (mtab (st w1)) = total (mtab (st w)) + N.of_nat k * base pl e + charged pl e v_beg (fun v => v_max v - v_beg v) vs.
  Proof.
    intros Hpl Hwf Hl Hsz Hp Hrun Hbad. destruct (solid_service pl e (ereq pl e) Hpl Hwf Hl) as [CA HV]; [done|].
    rewrite -(den_size pl) in Hp.
    eapply (crun_exact CA b (spare e) (base pl e) (cost pl e) HV (vstep A b sz k) (vcheck sz k) ∅ k (cinv CA b sz (set_seq 0 k) (vec_of sz))
      _ _ (stored v_beg) (charged pl e v_beg (fun v => v_max v - v_beg v))); try done.
    - intros E' vs' s. iIntros "(%Z & %HZ & H)". destruct HZ as (->&_&HR). iExists _. iFrame "H". iPureIntro. rewrite stored_fmap charged_fmap.
      eapply stored_blocks; [exact HR|]. intros [x es] Hr. unfold one. cbn [fst snd compose vec_of v_beg v_max].
      destruct (N.eqb_spec (s_data x) 0), (decide _); try done. eexists. split; [done|]. cbn [snd].
      rewrite (concat_length (N.to_nat sz)); [|apply Hr]. pose proof (r_len _ _ _ Hr). cbn [fst snd] in *. nia.
    Unshelve.
    + intros E'. apply cinv_init.
    + intros o E' vs' s. apply vstep_spec; [done|]. intros h Ho HL. apply elem_of_set_seq.
      split; [lia|]. destruct o; cbn in *; try done; injection Ho as ->; unfold new_name in HL;
        repeat (apply andb_true_iff in HL as [HL ?]); by apply Nat.ltb_lt.
  Qed.

  Lemma arrays_exact ops w os E vs w1 e1 : pl <> PPosix -> wf e = true -> solid e = true -> 0 < sz ->
    place b (N.of_nat k * esize e) w ->
    crun_from A b (astep A b sz k) k ops w = Ok (os, (E, vs)) w1 e1 -> existsb (unsupported (ereq pl e)) e1 = false ->
    size (mtab (st w1)) = (size (mtab (st w)) + k * spare e + stored r_beg vs)%nat /\
    total (mtab (st w1)) = total (mtab (st w)) + N.of_nat k * base pl e + charged pl e r_beg (fun v => r_end v - r_beg v) vs.
  Proof.
    intros Hpl Hwf Hl Hsz Hp Hrun Hbad. destruct (solid_service pl e (ereq pl e) Hpl Hwf Hl) as [CA HV]; [done|].
    rewrite -(den_size pl) in Hp.
    eapply (crun_exact CA b (spare e) (base pl e) (cost pl e) HV (astep A b sz k) (acheck sz k) ∅ k (ainv CA b sz (set_seq 0 k))
      _ _ (stored r_beg) (charged pl e r_beg (fun v => r_end v - r_beg v))); try done.
    - intros E' vs' s. iIntros "(%HT & %Z & %HZ & H)". destruct HZ as (->&->&HR). iExists _. iFrame "H". iPureIntro. rewrite stored_fmap charged_fmap.
      eapply (stored_blocks _ _ _ _ _ (fun y => rep sz (set_seq 0 k) y /\ tight (fst y))).
      { intros c y Hy. split; [by apply (HR c)|]. apply (HT c). by rewrite lookup_fmap Hy. }
      intros [x es] [Hr Ht]. unfold one, tight in *. cbn [fst snd compose arr_of r_beg r_end] in *.
      destruct (N.eqb_spec (s_data x) 0), (decide _); try done. eexists. split; [done|]. cbn [snd].
      rewrite (concat_length (N.to_nat sz)); [|apply Hr]. pose proof (r_len _ _ _ Hr). cbn [fst snd] in *. nia.
    Unshelve.
    + intros E'. iIntros "H". iSplitR; [iPureIntro; apply map_Forall_empty|]. by iApply cinv_init.
    + intros o E' vs' s. apply astep_spec; [done|]. intros h Ho HL. apply elem_of_set_seq.
      split; [lia|]. destruct o; cbn in *; try done; injection Ho as ->; unfold new_name in HL;
        repeat (apply andb_true_iff in HL as [HL ?]); by apply Nat.ltb_lt.
  Qed.

  Lemma heaps_exact T comp eqv ops w os E vs w1 e1 : pl <> PPosix -> wf e = true -> solid e = true -> 0 < sz ->
    place b (N.of_nat k * esize e) w ->
    crun_from A b (hstep A b sz T comp eqv k) k ops w = Ok (os, (E, vs)) w1 e1 ->
    existsb (unsupported (half (ereq pl e))) e1 = false ->
    size (mtab (st w1)) = (size (mtab (st w)) + k * spare e + stored h_beg vs)%nat /\
    total (mtab (st w1)) = total (mtab (st w)) + N.of_nat k * base pl e + charged pl e h_beg (fun v => sz * h_cap v) vs.
  Proof.
    intros Hpl Hwf Hl Hsz Hp Hrun Hbad. destruct (solid_service pl e (half (ereq pl e)) Hpl Hwf Hl (half_le _)) as [CA HV].
    rewrite -(den_size pl) in Hp.
    eapply (crun_exact CA b (spare e) (base pl e) (cost pl e) HV (hstep A b sz T comp eqv k) (hcheck sz T comp eqv k) ∅ k (hinv CA b sz T comp (set_seq 0 k))
      _ _ (stored h_beg) (charged pl e h_beg (fun v => sz * h_cap v))); try done.
    - intros E' vs' s. iIntros "(%Z & %HZ & H)". destruct HZ as (->&_&HR). iExists _. iFrame "H". iPureIntro. rewrite stored_fmap charged_fmap.
      eapply stored_blocks; [exact HR|]. intros [x es] Hr. unfold hone. cbn [fst snd compose heap_of h_beg h_cap].
      destruct (N.eqb_spec (p_data x) 0), (decide _); try done. eexists. split; [done|]. unfold hblk. cbn [fst snd].
      rewrite (HeapProofs.cells_length (req := half (ereq pl e))); [|done| |apply Hr];
        [|intros n' H'; apply andb_true_iff in H' as [_ H']; by apply N.ltb_lt]. pose proof (hr_len _ _ _ _ Hr). cbn [fst snd] in *. by f_equal.
    Unshelve.
    + intros E'. apply hinv_init.
    + intros o E' vs' s. apply hstep_spec; [done| |]. { intros n H. apply andb_true_iff in H as [_ H]. by apply N.ltb_lt. }
      intros h Ho HL. apply elem_of_set_seq.
      split; [lia|]. destruct o; cbn in *; try done; injection Ho as ->; unfold new_name in HL;
        repeat (apply andb_true_iff in HL as [HL ?]); by apply Nat.ltb_lt.
  Qed.
End containers.
