(** How much memory an allocator holds on to, in terms of what its client holds. *)
From iris.proofmode Require Import tactics.
From Verif Require Import Base Mem Sep Wp Bits BitsProofs AlignedMalloc AlignedMallocProofs Allocators Contract Adequacy
  LinearProofs BasicProofs NodeProofs FreelistProofs CascadingProofs Checked CheckedProofs Tree TreeProofs Client ClientProofs
  AllocSpec AllocFacts LinearFacts MiscFacts.

Local Open Scope N_scope.

(** * Specification: the largest number of blocks the program holds at any time, from its
    operations and what it saw, starting with [bl]. *)
Fixpoint peak (k : book) (ops : list op) (os : list obs) : nat :=
  Nat.max (length (bk_blocks k))
    match ops, os with
    | o :: ops, ob :: os => peak (book_step k o ob) ops os
    | _, _ => 0%nat
    end.

(** * Executions that need not end *)
Lemma wp_adequate_store bad {A} (m : M A) (Q : A -> hpropI) w :
  (own (mem (st w)) ⊢ wp bad m Q) ->
  match m w with
  | Ok a w' evs =>
    existsb bad evs = true \/
    forallb benign evs = true /\ exists s, st w' = s ∪ Store ∅ (mtab (st w)) /\ s ## Store ∅ (mtab (st w)) /\ Q a s
  | Err _ evs => existsb bad evs = true
  end.
Proof.
  intros Hwp. rewrite hunfold_entails in Hwp.
  specialize (Hwp (Store (mem (st w)) ∅)). rewrite own_eq in Hwp. specialize (Hwp eq_refl).
  rewrite wp_unfold in Hwp. specialize (Hwp (Store ∅ (mtab (st w))) w).
  assert (Hd : Store (mem (st w)) ∅ ## Store ∅ (mtab (st w))).
  { split; cbn; [apply map_disjoint_empty_r|apply map_disjoint_empty_l]. }
  assert (Hu : st w = Store (mem (st w)) ∅ ∪ Store ∅ (mtab (st w))).
  { destruct (st w) as [m0 t]. apply (f_equal2 Store); cbn; [by rewrite right_id_L|by rewrite left_id_L]. }
  specialize (Hwp Hd Hu). destruct (m w) as [a w' evs|u evs]; [|done].
  destruct Hwp as [Hbad|(Hben&s'&Hst'&Hd'&HQ)]; [by left|right]. split; [done|]. by exists s'.
Qed.

(** The number of heap blocks in the part of the store that is owned. *)
Definition ntok_def (k : nat) : hprop := HProp (λ s, size (mtab s) = k).
Definition ntok_aux : seal (@ntok_def). Proof. by eexists. Qed.
Definition ntok : nat -> hpropI := ntok_aux.(unseal).
Definition ntok_eq : @ntok = @ntok_def := ntok_aux.(seal_eq).

Lemma ntok_sep j k : ntok j ∗ ntok k ⊢ ntok (j + k).
Proof.
  rewrite hunfold_entails. intros s. rewrite hunfold_sep. intros (s1&s2&->&[_ Hd]&H1&H2).
  rewrite ntok_eq in H1, H2 |- *. cbn in H1, H2 |- *. rewrite map_size_disj_union //. lia.
Qed.
Lemma own_ntok m : own m ⊢ ntok 0.
Proof. rewrite hunfold_entails. intros s. rewrite own_eq ntok_eq. cbn. by intros ->. Qed.
Lemma emp_ntok : emp ⊢ ntok 0.
Proof. rewrite hunfold_entails. intros s. rewrite hunfold_emp ntok_eq. cbn. by intros ->. Qed.
Lemma tok_ntok a n : tok a n ⊢ ntok 1.
Proof.
  rewrite hunfold_entails. intros s. rewrite tok_eq ntok_eq. cbn. intros ->. cbn. apply map_size_singleton.
Qed.
Lemma pts_ntok a cs : a ↦∗ cs ⊢ ntok 0.
Proof.
  revert a. induction cs as [|c cs IH]; intros a.
  - rewrite pts_nil. apply emp_ntok.
  - rewrite pts_cons IH -own_pt own_ntok. apply (ntok_sep 0 0).
Qed.
Lemma raw_ntok a n : raw a n ⊢ ntok 0.
Proof. iIntros "(%cs & _ & H)". by iApply pts_ntok. Qed.
Lemma ntok_0 j : ntok j ∗ ntok 0 ⊢ ntok j.
Proof. rewrite ntok_sep. by rewrite Nat.add_0_r. Qed.
Lemma amtok_ntok pl p n : amtok pl p n ⊢ ntok 1.
Proof.
  unfold amtok. destruct pl; try apply tok_ntok; [by iIntros "[]"|].
  iIntros "(%ptr & %pre & %post & _ & Ht & H1 & H2 & H3)". rewrite tok_ntok !pts_ntok.
  iDestruct (ntok_0 with "[$Ht $H1]") as "Ht". iDestruct (ntok_0 with "[$Ht $H2]") as "Ht".
  iApply (ntok_0 with "[$Ht $H3]").
Qed.
Lemma blocks_ntok L : blocks L ⊢ ntok 0.
Proof.
  induction L as [|x L IH]; [unfold blocks; rewrite big_sepL_nil; apply emp_ntok|].
  destruct x as [p cs]. rewrite blocks_cons IH pts_ntok. apply (ntok_sep 0 0).
Qed.

(** * Programs, with their prefixes *)
Lemma run_prefix A b ready ops1 ops2 s bl w os s2 bl2 w2 e :
  run A b ready (ops1 ++ ops2) s bl w = Ok (os, (s2, bl2)) w2 e ->
  exists os1 s1 bl1 w1 e1 os2 e2, run A b ready ops1 s bl w = Ok (os1, (s1, bl1)) w1 e1 /\
    run A b ready ops2 s1 bl1 w1 = Ok (os2, (s2, bl2)) w2 e2 /\ os = os1 ++ os2 /\ e = e1 ++ e2.
Proof.
  revert s bl w os e. induction ops1 as [|o ops1 IH]; intros s bl w os e H; cbn [app run] in H |- *.
  - eexists [], s, bl, w, [], os, e. by split_and!.
  - inv_bind H as [ob [s1 bl1]] H0 H1. inv_bind H1 as [os2 [s3 bl3]] H2 H3. apply ret_Ok in H3 as ([= -> -> ->]&->&->).
    apply IH in H2 as (os1&s1'&bl1'&w1&e1&os2'&e2&H4&H5&->&->).
    eexists (ob :: os1), s1', bl1', w1, _, os2', e2. split_and!; [|exact H5|done|].
    + unfold bind at 1. rewrite H0. unfold bind. rewrite H4. cbn. done.
    + subst. rewrite !app_nil_r. by rewrite app_assoc.
Qed.
Lemma run_prefix_Ok A b ready ops1 ops2 s bl w os s2 bl2 w2 e os1 s1 bl1 w1 e1 :
  run A b ready (ops1 ++ ops2) s bl w = Ok (os, (s2, bl2)) w2 e ->
  run A b ready ops1 s bl w = Ok (os1, (s1, bl1)) w1 e1 -> exists e2, e = e1 ++ e2.
Proof.
  intros H1 H2. apply run_prefix in H1 as (?&?&?&?&?&?&?&H1&_&_&->). rewrite H2 in H1. injection H1 as -> -> -> -> ->. by eexists.
Qed.

(** A step keeps the book. *)
Lemma step_book A b ready o s w ob s' bl' w' e k :
  step A b ready o s (bk_blocks k) w = Ok (ob, (s', bl')) w' e -> bk_blocks (book_step k o ob) = bl'.
Proof.
  destruct o as [n|i|i off v|i off|q| |i off v|i off]; cbn [step book_step]; intros H.
  - inv_bind H as [p s1] H1 H2. apply ret_Ok in H2 as ([= -> -> ->]&_&_). cbn. by destruct (p =? 0).
  - cbn. destruct (bk_blocks k !! i) as [[p n]|] eqn:E.
    + inv_bind H as s1 H1 H2. by apply ret_Ok in H2 as ([= -> -> ->]&_&_).
    + apply ret_Ok in H as ([= -> -> ->]&_&_). clear -E. revert i E.
      induction (bk_blocks k) as [|x l IH]; intros [|i] E; [done..|]. cbn in *. f_equal. by apply IH.
  - destruct (bk_blocks k !! i) as [[p n]|]; [destruct (off <? n)|]; try inv_bind H as ? H1 H2;
      match goal with H : ret _ _ = _ |- _ => by apply ret_Ok in H as ([= -> -> ->]&_&_) end.
  - destruct (bk_blocks k !! i) as [[p n]|]; [destruct (off <? n)|]; try inv_bind H as ? H1 H2;
      match goal with H : ret _ _ = _ |- _ => by apply ret_Ok in H as ([= -> -> ->]&_&_) end.
  - destruct (a_owns A); by apply ret_Ok in H as ([= -> -> ->]&_&_).
  - destruct (a_max A); [destruct (ready b s)|]; try inv_bind H as ? H1 H2;
      match goal with H : ret _ _ = _ |- _ => by apply ret_Ok in H as ([= -> -> ->]&_&_) end.
  - destruct (bk_blocks k !! i) as [[p n]|]; [destruct (off <? n)|]; try inv_bind H as ? H1 H2;
      match goal with H : ret _ _ = _ |- _ => apply ret_Ok in H as ([= -> -> ->]&_&_) end;
      by destruct (in_range _ _ _).
  - destruct (bk_blocks k !! i) as [[p n]|]; [destruct (off <? n)|]; try inv_bind H as ? H1 H2;
      match goal with H : ret _ _ = _ |- _ => apply ret_Ok in H as ([= -> -> ->]&_&_) end;
      by destruct (in_range _ _ _).
Qed.

(** [K] is bounded by the peak if every step between states that satisfy [Φ] keeps it so. *)
Lemma run_peak A b ready (Φ : a_st A -> list (N * N) -> world -> Prop) (K : a_st A -> world -> nat) ops :
  (forall o s bl w ob s' bl' w' e, o ∈ ops -> Φ s bl w -> Φ s' bl' w' ->
    step A b ready o s bl w = Ok (ob, (s', bl')) w' e -> (K s' w' <= Nat.max (K s w) (length bl'))%nat) ->
  forall k s w os s' bl' w' e,
  (forall ops1 ops2 os1 s1 bl1 w1 e1, ops = ops1 ++ ops2 ->
    run A b ready ops1 s (bk_blocks k) w = Ok (os1, (s1, bl1)) w1 e1 -> Φ s1 bl1 w1) ->
  run A b ready ops s (bk_blocks k) w = Ok (os, (s', bl')) w' e -> (K s' w' <= Nat.max (K s w) (peak k ops os))%nat.
Proof.
  induction ops as [|o ops IH]; intros Hstep k s w os s' bl' w' e HΦ H; cbn [run] in H.
  - apply ret_Ok in H as ([= -> -> ->]&->&_). lia.
  - inv_bind H as [ob [s1 bl1]] H0 H1. inv_bind H1 as [os2 [s2 bl2]] H2 H3. apply ret_Ok in H3 as ([= -> -> ->]&->&->).
    assert (Φ s (bk_blocks k) w) as HΦ0 by (by eapply (HΦ [] (o :: ops))).
    assert (forall ops1 ops2 os1 s3 bl3 w3 e3, ops = ops1 ++ ops2 ->
      run A b ready ops1 s1 bl1 x = Ok (os1, (s3, bl3)) w3 e3 -> Φ s3 bl3 w3) as HΦ1.
    { intros ops1 ops2 os1 s3 bl3 w3 e3 -> H4. eapply (HΦ (o :: ops1) ops2 (ob :: os1)); [done|]. cbn [run].
      unfold bind at 1. rewrite H0. unfold bind. rewrite H4. cbn. done. }
    assert (Φ s1 bl1 x) as HΦ1' by (by eapply (HΦ1 [] ops)).
    pose proof (Hstep o _ _ _ _ _ _ _ _ ltac:(left) HΦ0 HΦ1' H0) as HK.
    apply step_book in H0. rewrite -H0 in H2 HΦ1 HK.
    cbn [peak]. specialize (IH ltac:(intros; eapply Hstep; [by right|done..]) _ _ _ _ _ _ _ _ HΦ1 H2).
    assert (length (bk_blocks (book_step k o ob)) <= peak (book_step k o ob) ops os2)%nat.
    { destruct ops; cbn [peak]; lia. }
    lia.
Qed.

(** What the invariant of an allocator says about the heap holds after every program. *)
Lemma run_heap bad A req (CA : contract bad A req) b ready (φ : a_st A -> list (N * N) -> nat -> Prop)
    ops w s0 w0 e0 os s bl w1 e1 :
  (forall s S, J CA b s S ⊢ ∃ k, ⌈φ s S k⌉ ∗ ntok k) ->
  (a_max A <> None -> forall b s, ready b s = true -> rdy CA b s = true) ->
  place b (a_size A) w -> asks req ops ->
  a_init A b w = Ok s0 w0 e0 -> run A b ready ops s0 [] w0 = Ok (os, (s, bl)) w1 e1 ->
  existsb bad (e0 ++ e1) = false ->
  exists k, φ s bl k /\ size (mtab (st w1)) = (size (mtab (st w)) + k)%nat.
Proof.
  intros HJ Hr (H1&H2&H3&Hst&H0) Hreq Hi Hrun Hbad.
  set (n := N.to_nat (a_size A)). set (mF := clear b n (mem (st w))).
  assert (HmF0 : mF !! 0 = None).
  { unfold mF. rewrite clear_lookup. by destruct (_ && _). }
  assert (Hpre : own (mem (st w)) ⊢ raw b (a_size A) ∗ own mF).
  { rewrite (own_take (mem (st w)) b n).
    2:{ intros i Hi'. destruct (Hst i) as (c&Hc&_); [lia|]. by exists c. }
    iIntros "[Hc $]". iApply (raw_intro with "Hc"); [rewrite cells_length; lia|].
    apply cells_Forall. intros i Hi'. apply Hst. lia. }
  pose proof (wp_adequate_store bad (s <- a_init A b ;; run A b ready ops s [])
    (fun r => ∃ k, ⌈φ (fst (snd r)) (snd (snd r)) k⌉ ∗ ntok k)%I w) as Had.
  lapply Had; clear Had.
  - unfold bind. rewrite Hi Hrun. intros [Hb|(_&s'&Hst'&[_ Hd]&HQ)]; [congruence|].
    rewrite hunfold_exist in HQ. destruct HQ as [k HQ]. rewrite hunfold_sep in HQ.
    destruct HQ as (sa&sb&->&_&HQ1&HQ2). rewrite hunfold_apure in HQ1. destruct HQ1 as [-> Hφ].
    rewrite sunion_empty_l in Hst' Hd. exists k. split; [exact Hφ|]. rewrite ntok_eq in HQ2. cbn in HQ2.
    rewrite Hst'. cbn. rewrite map_size_disj_union //. lia.
  - rewrite Hpre. iIntros "[Hraw HF]". iApply wp_bind. iApply wp_strong_mono.
    iSplitL "Hraw"; [by iApply (c_init _ _ _ CA)|]. iIntros (s1) "HJ".
    iApply wp_strong_mono. iSplitL.
    { iApply (run_spec CA b ready Hr mF HmF0 ops s1 [] [] (ops_requests _ _ Hreq)); [constructor|].
      iFrame. unfold blocks. by rewrite big_sepL_nil. }
    iIntros ([os' [s' bl']]) "(%L & %abl & (%Hc & %HA & %Hbl) & HJ & HL & HF)". cbn [fst snd] in *. subst bl'.
    rewrite HJ blocks_ntok own_ntok. iDestruct "HJ" as (k) "[%Hφ HJ]". iExists k. iSplit; [done|].
    iDestruct (ntok_0 with "[$HJ $HL]") as "HJ". iApply (ntok_0 with "[$HJ $HF]").
Qed.

(** ... and so does what it says about the state. *)
Lemma run_pure bad A req (CA : contract bad A req) b ready (φ : a_st A -> list (N * N) -> Prop)
    ops w s0 w0 e0 os s bl w1 e1 :
  (forall s S, J CA b s S ⊢ ⌜φ s S⌝) ->
  (a_max A <> None -> forall b s, ready b s = true -> rdy CA b s = true) ->
  place b (a_size A) w -> asks req ops ->
  a_init A b w = Ok s0 w0 e0 -> run A b ready ops s0 [] w0 = Ok (os, (s, bl)) w1 e1 ->
  existsb bad (e0 ++ e1) = false -> φ s bl.
Proof.
  intros HJ Hr Hp Hreq Hi Hrun Hbad.
  destruct (run_heap bad A req CA b ready (fun s S _ => φ s S) ops w s0 w0 e0 os s bl w1 e1) as (k&H&_); try done.
  intros s' S. rewrite hunfold_entails. intros x Hx. rewrite hunfold_exist.
  specialize (HJ s' S). rewrite hunfold_entails in HJ. specialize (HJ _ Hx). rewrite hunfold_pure in HJ.
  exists (size (mtab x)). rewrite hunfold_sep. exists sempty, x. split_and!.
  - by rewrite sunion_empty_l.
  - apply sdisj_empty_l.
  - by rewrite hunfold_apure.
  - by rewrite ntok_eq.
Qed.

(** * freelist, C67 *)
Section freelist.
  Context {bad : event -> bool} {A : alloc} {req : N -> bool} (CA : contract bad A req) (Min Max : N).
  Context (HMax : 8 <= Max) (HW : Max < W).

  Lemma chain_head h C p n S : Forall good ((fl_inner Max C S) : list (N * N)) -> C = p :: n ->
    chain Max h C ⊢ ⌜h <> 0⌝.
  Proof.
    intros Hg ->. cbn [chain]. iIntros "(%nxt & [%H1 %H2] & _)". subst h. iPureIntro.
    unfold fl_inner in Hg. cbn in Hg. apply Forall_cons_iff in Hg as [[Hg _] _]. exact Hg.
  Qed.

  (** The blocks obtained from the inner allocator: those of the client, and, only if m_Free
      is not null, others. *)
  Definition fl_holds (s : fl (checked A)) (S : list (N * N)) : Prop :=
    Forall (fun x => snd x = Max) (snd (f_in s)) /\ (length S <= length (snd (f_in s)))%nat /\
    (f_head s = 0 -> length (snd (f_in s)) = length S).

  Lemma fl_J_holds b (s : fl (checked A)) S : fl_J (checked_contract CA) Min Max b s S ⊢ ⌜fl_holds s S⌝.
  Proof.
    iIntros "(%C & %Hr & HJ & Hch & Hsl)".
    iAssert ⌜f_head s = 0 -> C = []⌝%I with "[HJ Hch]" as %HC.
    { iDestruct (c_good _ _ _ (checked_contract CA) with "HJ") as %Hg. destruct C as [|p C]; [by iPureIntro|].
      iDestruct (chain_head _ _ p C S with "Hch") as %Hh; [done..|]. iPureIntro. done. }
    iDestruct "HJ" as "[HJ %Hp]". iPureIntro. split_and!.
    - rewrite Hp. unfold fl_inner. apply Forall_app. split; apply Forall_map; by apply Forall_forall.
    - rewrite Hp. unfold fl_inner. rewrite app_length !map_length. lia.
    - intros Hh. rewrite Hp (HC Hh). unfold fl_inner. by rewrite app_length !map_length.
  Qed.

  Lemma fl_cd_list b c (s : fl (checked A)) q act w s' w' e :
    traits_cd (freelist Min Max (checked A)) b c s q act w = Ok s' w' e -> snd (f_in s') = snd (f_in s).
  Proof.
    unfold traits_cd. cbn [freelist a_cd checked]. destruct (a_cd A) as [o|]; cbn [option_map]; intros H.
    - inv_bind H as s1 H1 H2. apply ret_Ok in H2 as (->&_&_). cbn [f_in].
      inv_bind H1 as s2 H3 H4. by apply ret_Ok in H4 as (->&_&_).
    - inv_bind H as u H1 H2. by apply ret_Ok in H2 as (->&_&_).
  Qed.

  Lemma fl_step_peak b ready o (s : fl (checked A)) bl w ob s' bl' w' e : fl_holds s bl -> fl_holds s' bl' ->
    step (freelist Min Max (checked A)) b ready o s bl w = Ok (ob, (s', bl')) w' e ->
    (length (snd (f_in s')) <= Nat.max (length (snd (f_in s))) (length bl'))%nat.
  Proof.
    intros (_&_&Hh) (_&_&Hh'). destruct o as [n|i|i off v|i off|q| |i off v|i off]; cbn [step]; intros H.
    - inv_bind H as [p s1] H1 H2. apply ret_Ok in H2 as ([= -> -> ->]&_&_).
      cbn [freelist a_alloc] in H1. unfold fl_alloc in H1. destruct (fl_range Min Max n).
      2:{ apply ret_Ok in H1 as ([= -> ->]&_&_). lia. }
      destruct (f_head s =? 0) eqn:E.
      + apply N.eqb_eq in E. inv_bind H1 as [q s2] H2 H3. apply ret_Ok in H3 as ([= -> ->]&_&_).
        cbn [f_in f_head] in *. rewrite (Hh' E). lia.
      + inv_bind H1 as nxt H2 H3. apply ret_Ok in H3 as ([= -> ->]&_&_). cbn [f_in]. lia.
    - destruct (bl !! i) as [[p n]|].
      + inv_bind H as s1 H1 H2. apply ret_Ok in H2 as ([= -> -> ->]&_&_).
        cbn [freelist a_free] in H1. unfold fl_free in H1. inv_bind H1 as u H2 H3. destruct (_ && _).
        * inv_bind H3 as u2 H4 H5. apply ret_Ok in H5 as (->&_&_). cbn [f_in]. lia.
        * apply ret_Ok in H3 as (->&_&_). lia.
      + apply ret_Ok in H as ([= -> -> ->]&_&_). lia.
    - destruct (bl !! i) as [[p n]|]; [destruct (off <? n)|]; try inv_bind H as ? H1 H2;
        match goal with H : ret _ _ = _ |- _ => apply ret_Ok in H as ([= -> -> ->]&_&_) end; lia.
    - destruct (bl !! i) as [[p n]|]; [destruct (off <? n)|]; try inv_bind H as ? H1 H2;
        match goal with H : ret _ _ = _ |- _ => apply ret_Ok in H as ([= -> -> ->]&_&_) end; lia.
    - destruct (a_owns (freelist Min Max (checked A))); apply ret_Ok in H as ([= -> -> ->]&_&_); lia.
    - destruct (a_max (freelist Min Max (checked A))); [destruct (ready b s)|]; try inv_bind H as ? H1 H2;
        match goal with H : ret _ _ = _ |- _ => apply ret_Ok in H as ([= -> -> ->]&_&_) end; lia.
    - destruct (bl !! i) as [[p n]|]; [destruct (off <? n)|]; try inv_bind H as ? H1 H2;
        match goal with H : ret _ _ = _ |- _ => apply ret_Ok in H as ([= -> -> ->]&_&_) end; [|lia..].
      apply fl_cd_list in H1. rewrite H1. lia.
    - destruct (bl !! i) as [[p n]|]; [destruct (off <? n)|]; try inv_bind H as ? H1 H2;
        match goal with H : ret _ _ = _ |- _ => apply ret_Ok in H as ([= -> -> ->]&_&_) end; [|lia..].
      apply fl_cd_list in H1. rewrite H1. lia.
  Qed.

  Lemma fl_footprint b ready ops w s0 w0 e0 os (s : fl (checked A)) bl w1 e1 :
    let B := freelist Min Max (checked A) in
    (a_max B <> None -> forall b (s : fl (checked A)), ready b s = true -> rdy CA b (fst (f_in s)) = true) ->
    place b (a_size A) w -> asks (fl_req (req := req) Min Max) ops ->
    a_init B b w = Ok s0 w0 e0 -> run B b ready ops s0 [] w0 = Ok (os, (s, bl)) w1 e1 ->
    existsb bad (e0 ++ e1) = false ->
    Forall (fun x => snd x = Max) (snd (f_in s)) /\ (length bl <= length (snd (f_in s)) <= peak (Book [] 0 0) ops os)%nat.
  Proof.
    intros B Hr Hp Ha Hi Hrun Hbad.
    set (CB := freelist_contract (checked_contract CA) Min Max HMax HW).
    assert (Hφ : forall ops1 ops2 os1 s1 bl1 w2 e2, ops = ops1 ++ ops2 ->
      run B b ready ops1 s0 [] w0 = Ok (os1, (s1, bl1)) w2 e2 -> fl_holds s1 bl1).
    { intros ops1 ops2 os1 s1 bl1 w2 e2 -> H1. destruct (run_prefix_Ok _ _ _ _ _ _ _ _ _ _ _ _ _ _ _ _ _ _ Hrun H1) as [e3 ->].
      eapply (run_pure bad B (fl_req (req := req) Min Max) CB b ready fl_holds ops1 w s0 w0 e0); try done.
      - intros s2 S. apply fl_J_holds.
      - unfold asks, requests in Ha. rewrite flat_map_app in Ha. by apply Forall_app in Ha as [Ha _].
      - rewrite app_assoc existsb_app in Hbad. by apply orb_false_iff in Hbad as [Hbad _]. }
    destruct (Hφ ops [] os s bl w1 e1) as (H1&H2&_); [by rewrite app_nil_r|done|]. split_and!; [done|done|].
    assert (snd (f_in s0) = []) as H0.
    { cbn [B freelist a_init checked] in Hi. inv_bind Hi as s1 H3 H4. apply ret_Ok in H4 as (->&_&_). cbn [f_in].
      inv_bind H3 as s2 H5 H6. by apply ret_Ok in H6 as (->&_&_). }
    pose proof (run_peak B b ready (fun s bl _ => fl_holds s bl) (fun s _ => length (snd (f_in s))) ops) as HK.
    specialize (HK (fun o s1 bl1 w2 ob s2 bl2 w3 e2 _ HA HB HC => fl_step_peak b ready o s1 bl1 w2 ob s2 bl2 w3 e2 HA HB HC) (Book [] 0 0) s0 w0 os s bl w1 e1 Hφ Hrun). rewrite H0 in HK.
    cbn [length] in HK. lia.
  Qed.
End freelist.

(** Computations that leave the heap alone. *)
Definition still {X} (m : M X) : Prop := forall w a w' e, m w = Ok a w' e -> mtab (st w') = mtab (st w).

Lemma still_ret {X} (a : X) : still (ret a).
Proof. intros w a' w' e H. by apply ret_Ok in H as (_&->&_). Qed.
Lemma still_bind {X Y} (m : M X) (k : X -> M Y) : still m -> (forall a, still (k a)) -> still (bind m k).
Proof. intros H1 H2 w a w' e H. inv_bind H as x H3 H4. by rewrite (H2 _ _ _ _ _ H4) (H1 _ _ _ _ H3). Qed.
Lemma still_wr a c : still (wr a c).
Proof. intros w x w' e. unfold wr. destruct (mem (st w) !! a); [|done]. by intros [= _ <- _]. Qed.
Lemma still_rd a : still (rd a).
Proof. intros w x w' e. unfold rd. destruct (mem (st w) !! a); [|done]. by intros [= _ <- _]. Qed.
Lemma still_rds a n : still (rds a n).
Proof.
  revert a. induction n as [|n IH]; intros a; cbn [rds]; [apply still_ret|].
  apply still_bind; [apply still_rd|]. intros c. apply still_bind; [apply IH|]. intros cs. apply still_ret.
Qed.
Lemma still_wrs a cs : still (wrs a cs).
Proof.
  revert a. induction cs as [|c cs IH]; intros a; cbn [wrs]; [apply still_ret|].
  apply still_bind; [apply still_wr|]. intros _. apply IH.
Qed.
Lemma still_rd_ptr a : still (rd_ptr a).
Proof. apply still_bind; [apply still_rds|]. intros cs. by destruct (dec cs); [apply still_ret|]. Qed.
Lemma still_wr_ptr a v : still (wr_ptr a v).
Proof. apply still_wrs. Qed.
Lemma still_assert c : still (ktl_assert c).
Proof. destruct c; [apply still_ret|]. intros w a w' e H. by injection H as _ <- _. Qed.

(** The same for blocks of the heap. *)
Section freelist_malloc.
  Context (pl : platform) (Hpl : pl <> PPosix) (Min Max : N) (HMax : 8 <= Max) (HW : Max < W).
  Let bad : event -> bool := fun _ => false.
  Let CA := mal_contract bad pl Hpl.

  Lemma chain_ntok h C : chain Max h C ⊢ ntok 0.
  Proof.
    revert h. induction C as [|p C IH]; intros h; cbn [chain].
    - iIntros "_". iApply emp_ntok. done.
    - iIntros "(%nxt & _ & H1 & H2 & H3)". rewrite IH raw_ntok pts_ntok.
      iDestruct (ntok_0 with "[$H1 $H2]") as "H". iApply (ntok_0 with "[$H $H3]").
  Qed.
  Lemma slack_ntok S : slack Max S ⊢ ntok 0.
  Proof.
    unfold slack. induction S as [|x S IH]; [rewrite big_sepL_nil; apply emp_ntok|].
    rewrite big_sepL_cons IH raw_ntok. apply (ntok_sep 0 0).
  Qed.
  Lemma mal_ntok b s S : mal_J pl b s S ⊢ ntok (length S).
  Proof.
    unfold mal_J. induction S as [|x S IH]; [rewrite big_sepL_nil; apply emp_ntok|].
    rewrite big_sepL_cons IH amtok_ntok. iIntros "[[_ H1] H2]". iApply (ntok_sep 1). iFrame.
  Qed.

  Definition fl_heap (s : fl (mallocator pl)) (S : list (N * N)) (k : nat) : Prop :=
    (length S <= k)%nat /\ (f_head s = 0 -> k = length S).

  Lemma fl_J_heap b (s : fl (mallocator pl)) S : fl_J CA Min Max b s S ⊢ ∃ k, ⌈fl_heap s S k⌉ ∗ ntok k.
  Proof.
    iIntros "(%C & %Hr & HJ & Hch & Hsl)".
    iAssert ⌜f_head s = 0 -> C = []⌝%I with "[HJ Hch]" as %HC.
    { iDestruct (c_good _ _ _ CA with "HJ") as %Hg. destruct C as [|p C]; [by iPureIntro|].
      iDestruct (chain_head _ _ _ p C S with "Hch") as %Hh; [done..|]. iPureIntro. done. }
    cbn [J CA mal_contract]. rewrite mal_ntok chain_ntok slack_ntok. iExists _.
    iDestruct (ntok_0 with "[$HJ $Hch]") as "H". iDestruct (ntok_0 with "[$H $Hsl]") as "$". iPureIntro.
    unfold fl_heap, fl_inner. rewrite app_length !map_length. split; [lia|]. intros Hh. by rewrite HC.
  Qed.

  Lemma fl_step_heap b ready o (s : fl (mallocator pl)) bl w ob s' bl' w' e k0 k1 k2 :
    fl_heap s' bl' k2 -> size (mtab (st w)) = (k0 + k1)%nat -> size (mtab (st w')) = (k0 + k2)%nat ->
    step (freelist Min Max (mallocator pl)) b ready o s bl w = Ok (ob, (s', bl')) w' e ->
    (k2 <= Nat.max k1 (length bl'))%nat.
  Proof.
    intros (_&Hh) H1 H2 H.
    assert (mtab (st w') = mtab (st w) \/ f_head s' = 0) as [E|E]; [|rewrite E in H2; lia|rewrite Hh //; lia].
    destruct o as [n|i|i off v|i off|q| |i off v|i off]; cbn [step] in H.
    - inv_bind H as [p s1] H3 H4. apply ret_Ok in H4 as ([= -> -> ->]&->&_).
      cbn [freelist a_alloc] in H3. unfold fl_alloc in H3. destruct (fl_range Min Max n).
      2:{ apply ret_Ok in H3 as ([= -> ->]&->&_). by left. }
      destruct (f_head s =? 0) eqn:E.
      + right. apply N.eqb_eq in E. inv_bind H3 as [q s2] H4 H5. by apply ret_Ok in H5 as ([= -> ->]&_&_).
      + left. inv_bind H3 as nxt H4 H5. apply ret_Ok in H5 as (_&->&_). by apply still_rd_ptr in H4.
    - left. destruct (bl !! i) as [[p n]|].
      + inv_bind H as s1 H3 H4. apply ret_Ok in H4 as (_&->&_).
        cbn [freelist a_free] in H3. unfold fl_free in H3. inv_bind H3 as u H4 H5. apply still_assert in H4. destruct (_ && _).
        * inv_bind H5 as u2 H6 H7. apply ret_Ok in H7 as (_&->&_). apply still_wr_ptr in H6. congruence.
        * apply ret_Ok in H5 as (_&->&_). congruence.
      + by apply ret_Ok in H as (_&->&_).
    - left. destruct (bl !! i) as [[p n]|]; [destruct (off <? n)|].
      + inv_bind H as u H3 H4. apply ret_Ok in H4 as (_&->&_). by apply still_wr in H3.
      + by apply ret_Ok in H as (_&->&_).
      + by apply ret_Ok in H as (_&->&_).
    - left. destruct (bl !! i) as [[p n]|]; [destruct (off <? n)|].
      + inv_bind H as u H3 H4. apply ret_Ok in H4 as (_&->&_). by apply still_rd in H3.
      + by apply ret_Ok in H as (_&->&_).
      + by apply ret_Ok in H as (_&->&_).
    - left. by apply ret_Ok in H as (_&->&_).
    - left. by apply ret_Ok in H as (_&->&_).
    - left. destruct (bl !! i) as [[p n]|]; [destruct (off <? n)|].
      + inv_bind H as u H3 H4. apply ret_Ok in H4 as (_&->&_). unfold traits_cd in H3. cbn in H3.
        inv_bind H3 as u2 H5 H6. apply ret_Ok in H6 as (_&->&_). by apply still_wr in H5.
      + by apply ret_Ok in H as (_&->&_).
      + by apply ret_Ok in H as (_&->&_).
    - left. destruct (bl !! i) as [[p n]|]; [destruct (off <? n)|].
      + inv_bind H as u H3 H4. apply ret_Ok in H4 as (_&->&_). unfold traits_cd in H3. cbn in H3.
        by injection H3 as _ -> _.
      + by apply ret_Ok in H as (_&->&_).
      + by apply ret_Ok in H as (_&->&_).
  Qed.

  Lemma fl_heap_footprint b ready ops w s0 w0 e0 os s bl w1 e1 :
    let B := freelist Min Max (mallocator pl) in
    place b 0 w -> asks (ereq pl (EFreelist Min Max EMalloc)) ops ->
    a_init B b w = Ok s0 w0 e0 -> run B b ready ops s0 [] w0 = Ok (os, (s, bl)) w1 e1 ->
    (size (mtab (st w)) + length bl <= size (mtab (st w1)) <= size (mtab (st w)) + peak (Book [] 0 0) ops os)%nat.
  Proof.
    intros B Hp Ha Hi Hrun.
    set (CB := freelist_contract CA Min Max HMax HW).
    assert (Hφ : forall ops1 ops2 os1 s1 bl1 w2 e2, ops = ops1 ++ ops2 ->
      run B b ready ops1 s0 [] w0 = Ok (os1, (s1, bl1)) w2 e2 ->
      exists k, fl_heap s1 bl1 k /\ size (mtab (st w2)) = (size (mtab (st w)) + k)%nat).
    { intros ops1 ops2 os1 s1 bl1 w2 e2 -> H1.
      eapply (run_heap bad B (fl_req (req := mal_req pl) Min Max) CB b ready fl_heap ops1 w s0 w0 e0); try done.
      - intros s2 S. apply fl_J_heap.
      - unfold asks, requests in Ha. rewrite flat_map_app in Ha. by apply Forall_app in Ha as [Ha _].
      - generalize (e0 ++ e2). by induction l. }
    destruct (Hφ ops [] os s bl w1 e1) as (k&(H1&_)&H2); [by rewrite app_nil_r|done|]. split; [lia|].
    destruct (Hφ [] ops [] s0 [] w0 []) as (k'&(_&H3)&H4); [done|done|].
    assert (f_head s0 = 0) as H0.
    { cbn [B freelist a_init mallocator] in Hi. inv_bind Hi as s1 H5 H6. by apply ret_Ok in H6 as (->&_&_). }
    specialize (H3 H0). cbn [length] in H3.
    set (z := size (mtab (st w))) in *.
    pose proof (run_peak B b ready
      (fun s bl w' => exists k, fl_heap s bl k /\ size (mtab (st w')) = (z + k)%nat)
      (fun _ w' => (size (mtab (st w')) - z)%nat) ops) as HK.
    lapply HK; clear HK.
    - intros HK. specialize (HK (Book [] 0 0) s0 w0 os s bl w1 e1 Hφ Hrun). lia.
    - intros o s1 bl1 w2 ob s2 bl2 w3 e2 _ (k1&_&HA) (k2&HB&HC) HD.
      pose proof (fl_step_heap b ready o s1 bl1 w2 ob s2 bl2 w3 e2 z k1 k2 HB HA HC HD). lia.
  Qed.
End freelist_malloc.

(** * cascading over linear_allocator, C68 *)
Lemma run_inv A b ready (Φ Ψ : a_st A -> list (N * N) -> Prop) ops :
  (forall o s bl w ob s' bl' w' e, o ∈ ops -> Φ s bl -> Φ s' bl' -> Ψ s bl ->
    step A b ready o s bl w = Ok (ob, (s', bl')) w' e -> Ψ s' bl') ->
  forall s bl w os s' bl' w' e,
  (forall ops1 ops2 os1 s1 bl1 w1 e1, ops = ops1 ++ ops2 ->
    run A b ready ops1 s bl w = Ok (os1, (s1, bl1)) w1 e1 -> Φ s1 bl1) ->
  Ψ s bl -> run A b ready ops s bl w = Ok (os, (s', bl')) w' e -> Ψ s' bl'.
Proof.
  induction ops as [|o ops IH]; intros Hstep s bl w os s' bl' w' e HΦ HΨ H; cbn [run] in H.
  - by apply ret_Ok in H as ([= -> -> ->]&->&_).
  - inv_bind H as [ob [s1 bl1]] H0 H1. inv_bind H1 as [os2 [s2 bl2]] H2 H3. apply ret_Ok in H3 as ([= -> -> ->]&->&->).
    assert (Φ s bl) as HΦ0 by (by eapply (HΦ [] (o :: ops))).
    assert (forall ops1 ops2 os1 s3 bl3 w3 e3, ops = ops1 ++ ops2 ->
      run A b ready ops1 s1 bl1 x = Ok (os1, (s3, bl3)) w3 e3 -> Φ s3 bl3) as HΦ1.
    { intros ops1 ops2 os1 s3 bl3 w3 e3 -> H4. eapply (HΦ (o :: ops1) ops2 (ob :: os1)); [done|]. cbn [run].
      unfold bind at 1. rewrite H0. unfold bind. rewrite H4. cbn. done. }
    assert (Φ s1 bl1) as HΦ1' by (by eapply (HΦ1 [] ops)).
    eapply IH; [|exact HΦ1| |exact H2].
    + intros o' t bl0 v ob' t' bl0' v' e' Hin P1 P2 P3 P4. eapply Hstep; [right; exact Hin|exact P1|exact P2|exact P3|exact P4].
    + eapply Hstep; [left|exact HΦ0|exact HΦ1'|exact HΨ|exact H0].
Qed.

Section cascading_linear.
  Context (pl : platform) (Hpl : pl <> PPosix) (Size : N).
  Context (Hmod : Size mod 16 = 0) (Hsize : Size + Size + 32 < W).
  Let L := linear_allocator Size.
  Let CL := checked_contract (lin_contract Size is_fail).

  Notation lnode := (node (checked L)).
  Definition lst (nd : lnode) : lin := fst (nd_in nd : lin * list (N * N)).
  Definition lout (nd : lnode) : list (N * N) := snd (nd_in nd : lin * list (N * N)).
  Fixpoint louts (s : list lnode) : nat := match s with [] => 0%nat | nd :: s => (length (lout nd) + louts s)%nat end.

  Definition node_ok (nd : lnode) : Prop :=
    lin_inv Size (nd_addr nd) (lst nd) (lout nd) /\ nd_cnt nd = w64 (N.of_nat (length (lout nd))) /\
    Forall (fun x => 0 < snd x) (lout nd).

  (** From the contract. *)
  Definition casc_ok (s : list lnode) (S : list (N * N)) : Prop := length S = louts s /\ Forall node_ok s.

  Lemma nodes_ok s TT : Forall (fun x => 0 < snd x) (concat TT) ->
    nodes_J CL pl s TT ⊢ ⌜length (concat TT) = louts s /\ Forall node_ok s⌝ ∧ ntok (length s).
  Proof.
    revert TT. induction s as [|nd s IH]; intros TT Hpos.
    - rewrite nodes_nil_l. iIntros "->". iSplit; [iPureIntro; split; [done|constructor]|by iApply emp_ntok].
    - rewrite nodes_cons_l. iIntros "(%T & %TT' & -> & Hn & Hns)". cbn [concat] in Hpos |- *.
      apply Forall_app in Hpos as [Hpos1 Hpos2]. rewrite IH //. iDestruct "Hns" as "[%H Hns]". destruct H as [H1 H2].
      iDestruct "Hn" as "[(HJ & Hr & Ht & %Hp) %Hc]". iDestruct "HJ" as "[[[%Hinv _] HJ] %HT]".
      iDestruct "HJ" as (m) "[_ HJ]". iSplit.
      + iPureIntro. rewrite app_length H1. cbn [louts]. split; [f_equal; by rewrite -HT|].
        constructor; [|done]. split_and!.
        * eapply lin_inv_perm; [symmetry; exact HT|]. exact Hinv.
        * rewrite Hc. do 2 f_equal. by rewrite -HT.
        * unfold lout. by rewrite HT.
      + rewrite own_ntok raw_ntok amtok_ntok. iDestruct (ntok_0 with "[$Ht $Hr]") as "H".
        iDestruct (ntok_0 with "[$H $HJ]") as "H". iApply (ntok_sep 1). iFrame.
  Qed.

  Lemma casc_J_ok b s S : casc_J CL pl b s S ⊢ ∃ k, ⌈casc_ok s S /\ k = length s⌉ ∗ ntok k.
  Proof.
    iIntros "(%TT & [%HS %Hpos] & H)". iExists _. rewrite HS in Hpos. rewrite nodes_ok //.
    iDestruct "H" as "[%H $]". iPureIntro. destruct H as [H1 H2]. split; [|done]. split; [by rewrite HS|done].
  Qed.

  (** An instance without blocks starts from the beginning of its buffer. *)
  Definition rewound (nd : lnode) : Prop := l_cnt (lst nd) = 0 -> l_free (lst nd) = nd_addr nd.
  Definition tight (s : list lnode) (bl : list (N * N)) : Prop :=
    Forall rewound s /\ Forall (fun nd => lout nd <> []) (tail s).

  Lemma rewound_pos a s c x l : lin_inv Size a s (x :: l) -> 0 < snd x -> rewound (Node (A := checked L) a (s, x :: l) c).
  Proof.
    intros [_ _ [H _] _ _] Hx. unfold rewound, lst. cbn [nd_in fst]. rewrite H. cbn [sumpad].
    pose proof (padN_bounds (snd x)). lia.
  Qed.

  Lemma checked_lin_alloc a (s : lin) l n w p s' w' e : a_alloc (checked L) a (s, l) n w = Ok (p, s') w' e ->
    lin_alloc Size a s n w = Ok (p, fst s') w' e /\ snd s' = (if p =? 0 then l else (p, n) :: l).
  Proof.
    cbn [checked a_alloc fst snd]. intros H. inv_bind H as [q s1] H1 H2. apply ret_Ok in H2 as ([= -> ->]&->&->).
    cbn [fst snd]. subst. rewrite app_nil_r. done.
  Qed.
  Lemma lin_alloc_null a (s : lin) n w s' w' e : l_free s <> 0 ->
    lin_alloc Size a s n w = Ok (0, s') w' e -> s' = s.
  Proof. unfold lin_alloc. destruct (_ <? _); intros Hf H; apply ret_Ok in H as (H&_&_); congruence. Qed.

  Lemma new_lnode w nd w' e : new_node pl (checked L) w = Ok nd w' e ->
    nd_addr nd <> 0 /\ lst nd = Lin (nd_addr nd) 0 /\ lout nd = [].
  Proof.
    unfold new_node. intros H. inv_bind H as p H1 H2. destruct (N.eqb_spec p 0) as [|Hp].
    { inv_bind H2 as u H3 H4. done. }
    inv_bind H2 as s H3 H4. apply ret_Ok in H4 as (->&_&_). cbn [checked a_init] in H3. inv_bind H3 as s1 H5 H6.
    apply ret_Ok in H6 as (->&_&_). cbn [L linear_allocator a_init] in H5. unfold lin_init in H5. inv_bind H5 as u H7 H8.
    apply ret_Ok in H8 as (->&_&_). done.
  Qed.

  Lemma casc_alloc_tight s bl n w p s' bl' w' e : 0 < n <= Size -> casc_ok s bl -> casc_ok s' bl' -> tight s bl ->
    casc_alloc pl (checked L) s n w = Ok (p, s') w' e -> tight s' bl'.
  Proof.
    intros Hn [_ Hok] [_ Hok'] [Hre Htl] H. unfold casc_alloc in H. inv_bind H as [nd rest] H1 H2.
    assert (Forall (fun nd => lout nd <> []) rest /\ Forall rewound rest /\ rewound nd /\ l_free (lst nd) <> 0 /\
      (lout nd = [] -> forall w p s' w' e, lin_alloc Size (nd_addr nd) (lst nd) n w = Ok (p, s') w' e -> p <> 0)) as (G1&G2&G3&G4&G5).
    { assert (forall nd, lin_full Size (nd_addr nd) (lst nd) [] ->
        forall w p s' w' e, lin_alloc Size (nd_addr nd) (lst nd) n w = Ok (p, s') w' e -> p <> 0) as Hserve.
      { intros nd0 Hf w2 p2 s2 w3 e2. assert (lreq Size n = true) as Hl by (apply N.ltb_lt; lia).
        rewrite (lin_full_capacity Size _ _ n _ w2 Hf Hl (align_least n)).
        assert (n + align_to_architecture n <= Size) as E.
        { pose proof (padN_bounds n). pose proof (padN_mod n). unfold padN in *. lia. }
        apply N.leb_le in E. rewrite E. intros [= <- _ _ _]. destruct Hf as [[(?&_) _ _ _ _] _]. done. }
      destruct s as [|nd0 s].
      - inv_bind H1 as nd1 H3 H4. apply ret_Ok in H4 as ([= -> ->]&_&_). apply new_lnode in H3 as (H3&H4&H5).
        split_and!; [constructor..| | |].
        + unfold rewound. by rewrite H4.
        + by rewrite H4.
        + intros _ w2 p2 s2 w3 e2. rewrite H4. unfold lin_alloc. cbn [l_free].
          pose proof (padN_bounds n). pose proof (padN_mod n).
          rewrite padded_small; [|lia]. assert (forall x, sub64 x x = 0) as ->.
          { intros y. unfold sub64, w64. replace (y + W - y) with W by lia. done. }
          rewrite add64_small; [|lia].
          destruct (N.ltb_spec Size (0 + padN n)); [lia|]. intros H8. by apply ret_Ok in H8 as ([= -> _]&_&_).
      - apply ret_Ok in H1 as ([= -> ->]&_&_). cbn [tail] in Htl. apply Forall_cons_iff in Hre as [Hre1 Hre2].
        apply Forall_cons_iff in Hok as [(Hinv&Hcnt&Hpos) _]. split_and!; [done..| |].
        + destruct Hinv as [(?&_) (?&_) _ _ _]. lia.
        + intros Hout. apply Hserve. split; [by rewrite -Hout|exact Hre1]. }
    clear H1. inv_bind H2 as over H1 H3. destruct over.
    { apply ret_Ok in H3 as ([= -> ->]&_&_). by split; [constructor|]. }
    inv_bind H3 as [q si] H4 H5. destruct nd as [a [sa la] c]. unfold lst, lout in G3, G4, G5. cbn [nd_addr nd_in nd_cnt fst snd] in *.
    apply checked_lin_alloc in H4 as [H6 H7].
    destruct (N.eqb_spec q 0) as [->|Hq].
    - inv_bind H5 as nd2 H8 H9. inv_bind H9 as [q2 si2] H10 H11. apply ret_Ok in H11 as ([= -> ->]&_&_).
      assert (la <> []) as Hne by (intros E; exact (G5 E _ _ _ _ _ H6 eq_refl)).
      apply lin_alloc_null in H6; [|done]. apply new_lnode in H8 as (K1&K2&K3). destruct nd2 as [a2 [sa2 la2] c2].
      unfold lst, lout in K2, K3. cbn [nd_addr nd_in nd_cnt fst snd] in *. subst.
      apply checked_lin_alloc in H10 as [H12 H13]. split.
      + destruct si as [si1 si2']. cbn [fst snd] in *. subst. constructor; [|by constructor; [exact G3|]].
        apply Forall_cons_iff in Hok' as [(Hinv&_&Hpos) _]. destruct si2 as [sj lj]. cbn [fst snd] in *.
        unfold lst, lout in Hinv, Hpos. cbn [nd_addr nd_in fst snd] in Hinv, Hpos. subst lj.
        destruct (N.eqb_spec q2 0) as [->|].
        * apply lin_alloc_null in H12 as ->; [|done]. done.
        * eapply rewound_pos; [exact Hinv|]. cbn. lia.
      + cbn [tail]. constructor; [|done]. exact Hne.
    - apply ret_Ok in H5 as ([= -> ->]&_&_). split; [|done]. constructor; [|done].
      apply Forall_cons_iff in Hok' as [(Hinv&_&Hpos) _]. destruct si as [sj lj]. cbn [fst snd] in *.
      unfold lst, lout in Hinv, Hpos. cbn [nd_addr nd_in fst snd] in Hinv, Hpos. subst lj.
      eapply rewound_pos; [exact Hinv|]. cbn. lia.
  Qed.

  Lemma casc_free_tight prev s p n w s' w' e : Forall node_ok s -> Forall rewound s ->
    casc_free_loop pl (checked L) (owns_of (checked L)) prev s p n w = Ok s' w' e ->
    Forall rewound s' /\
    (Forall (fun nd => lout nd <> []) (if prev then s else tail s) ->
     Forall (fun nd => lout nd <> []) (if prev then s' else tail s')).
  Proof.
    revert prev w s' w' e. induction s as [|nd rest IH]; intros prev w s' w' e Hok Hre H; cbn [casc_free_loop] in H.
    - apply ret_Ok in H as (->&_&_). by split; [constructor|].
    - apply Forall_cons_iff in Hok as [(Hinv&Hcnt&Hpos) Hok]. apply Forall_cons_iff in Hre as [Hre0 Hre].
      destruct (owns_of _ _ _ _).
      + inv_bind H as si H1 H2. cbn [checked a_free] in H1.
        destruct (take_out (p, n) (snd (nd_in nd))) as [l|] eqn:Ht; [|done].
        inv_bind H1 as s1 H3 H4. apply ret_Ok in H4 as (->&_&_). apply take_out_length in Ht.
        cbn [L linear_allocator a_free] in H3. inv_bind H3 as u H5 H6. apply ret_Ok in H6 as (->&_&_).
        cbn [nd_cnt] in H2.
        assert (rewound (Node (A := checked L) (nd_addr nd) (lin_free (nd_addr nd) (lst nd) p n, l) (sub64 (nd_cnt nd) 1))) as Hrw.
        { unfold rewound, lst, lin_free. cbn [nd_in nd_addr fst l_cnt l_free]. by intros ->. }
        assert (nd_cnt nd = w64 (N.of_nat (S (length l)))) as Hcnt' by (rewrite Hcnt /lout Ht //).
        destruct (_ && _) eqn:E.
        * inv_bind H2 as u2 H7 H8. apply ret_Ok in H8 as (->&_&_). apply andb_true_iff in E as [_ ->].
          split; [done|]. by intros [_ ?]%Forall_cons_iff.
        * apply ret_Ok in H2 as (->&_&_). split; [by constructor|]. destruct prev; [|done].
          intros [_ G]%Forall_cons_iff. constructor; [|done]. unfold lout. cbn [nd_in snd]. intros ->.
          rewrite Hcnt' in E. by vm_compute in E.
      + inv_bind H as rest' H1 H2. apply ret_Ok in H2 as (->&_&_). apply IH in H1 as [H3 H4]; [|done..].
        split; [by constructor|]. cbn [tail]. destruct prev.
        * intros [G1 G2]%Forall_cons_iff. constructor; [done|]. by apply H4.
        * done.
  Qed.

  Lemma casc_step_tight b ready o s bl w ob s' bl' w' e :
    (forall n, o = OAlloc n -> 0 < n <= Size) -> casc_ok s bl -> casc_ok s' bl' -> tight s bl ->
    step (cascading pl (checked L)) b ready o s bl w = Ok (ob, (s', bl')) w' e -> tight s' bl'.
  Proof.
    intros Hn Hok Hok' Ht H. destruct o as [n|i|i off v|i off|q| |i off v|i off]; cbn [step] in H.
    - inv_bind H as [p s1] H3 H4. apply ret_Ok in H4 as ([= -> -> ->]&->&_).
      eapply casc_alloc_tight; [by apply Hn|exact Hok|exact Hok'|exact Ht|exact H3].
    - destruct (bl !! i) as [[p n]|].
      + inv_bind H as s1 H3 H4. apply ret_Ok in H4 as ([= -> -> ->]&->&_).
        cbn [cascading cascading_with a_free] in H3. unfold casc_free in H3. inv_bind H3 as u H5 H6.
        destruct Hok as [_ Hok], Ht as [Ht1 Ht2]. apply (casc_free_tight false) in H6 as [G1 G2]; [|done..].
        split; [done|by apply G2].
      + by apply ret_Ok in H as ([= -> -> ->]&->&_).
    - destruct (bl !! i) as [[p n]|]; [destruct (off <? n)|]; try inv_bind H as ? H1 H2;
        match goal with H : ret _ _ = _ |- _ => by apply ret_Ok in H as ([= -> -> ->]&_&_) end.
    - destruct (bl !! i) as [[p n]|]; [destruct (off <? n)|]; try inv_bind H as ? H1 H2;
        match goal with H : ret _ _ = _ |- _ => by apply ret_Ok in H as ([= -> -> ->]&_&_) end.
    - by apply ret_Ok in H as ([= -> -> ->]&_&_).
    - cbn [cascading cascading_with a_max checked L linear_allocator option_map] in H.
      destruct (ready b s); try inv_bind H as ? H1 H2;
        match goal with H : ret _ _ = _ |- _ => by apply ret_Ok in H as ([= -> -> ->]&_&_) end.
    - destruct (bl !! i) as [[p n]|]; [destruct (off <? n)|]; try inv_bind H as ? H1 H2;
        match goal with H : ret _ _ = _ |- _ => apply ret_Ok in H as ([= -> -> ->]&_&_) end; [|done..].
      unfold traits_cd in H1. cbn in H1. inv_bind H1 as u H2 H3. by apply ret_Ok in H3 as (->&_&_).
    - destruct (bl !! i) as [[p n]|]; [destruct (off <? n)|]; try inv_bind H as ? H1 H2;
        match goal with H : ret _ _ = _ |- _ => apply ret_Ok in H as ([= -> -> ->]&_&_) end; [|done..].
      unfold traits_cd in H1. cbn in H1. by injection H1 as -> _ _.
  Qed.

  Lemma louts_tail s : Forall (fun nd => lout nd <> []) s -> (length s <= louts s)%nat.
  Proof.
    induction 1 as [|nd s H _ IH]; cbn [length louts]; [lia|]. destruct (lout nd); cbn [length]; [done|lia].
  Qed.

  Lemma casc_footprint b ops w s0 w0 e0 os s bl w1 e1 :
    let B := cascading pl (checked L) in
    place b 0 w -> asks (fun n => (0 <? n) && (n <=? Size)) ops ->
    a_init B b w = Ok s0 w0 e0 -> run B b (fun _ _ => false) ops s0 [] w0 = Ok (os, (s, bl)) w1 e1 ->
    existsb is_fail (e0 ++ e1) = false ->
    size (mtab (st w1)) = (size (mtab (st w)) + length s)%nat /\ (length s <= length bl + 1)%nat.
  Proof.
    intros B Hp Ha Hi Hrun Hbad.
    assert (a_size (checked L) + 32 < W) as Hsz.
    { cbn [checked L linear_allocator a_size]. pose proof (padN_bounds Size). pose proof (padN_mod Size). unfold padN in *. lia. }
    set (CB := cascading_contract CL pl Hpl eq_refl Hsz eq_refl (fun _ _ _ => eq_refl)).
    assert (Ha' : forall n, OAlloc n ∈ ops -> 0 < n <= Size).
    { intros n Hin. unfold asks in Ha. rewrite List.Forall_forall in Ha. destruct (Ha n) as [H _]; [|lia].
      apply in_flat_map. exists (OAlloc n). split; [by apply elem_of_list_In|by left]. }
    assert (asks (casc_req (req := lin_req Size)) ops) as Ha2.
    { unfold asks in *. eapply List.Forall_impl; [|exact Ha]. intros n [H1 H2]. split; [|done].
      unfold casc_req, lin_req. lia. }
    assert (Hφ : forall ops1 ops2 os1 s1 bl1 w2 e2, ops = ops1 ++ ops2 ->
      run B b (fun _ _ => false) ops1 s0 [] w0 = Ok (os1, (s1, bl1)) w2 e2 ->
      exists k, (casc_ok s1 bl1 /\ k = length s1) /\ size (mtab (st w2)) = (size (mtab (st w)) + k)%nat).
    { intros ops1 ops2 os1 s1 bl1 w2 e2 -> H1. destruct (run_prefix_Ok _ _ _ _ _ _ _ _ _ _ _ _ _ _ _ _ _ _ Hrun H1) as [e3 ->].
      eapply (run_heap is_fail B (casc_req (req := lin_req Size)) CB b (fun _ _ => false)
        (fun s1 bl1 k => casc_ok s1 bl1 /\ k = length s1) ops1 w s0 w0 e0); try done.
      - intros s2 S. apply casc_J_ok.
      - unfold asks, requests in Ha2. rewrite flat_map_app in Ha2. by apply Forall_app in Ha2 as [Ha2 _].
      - rewrite app_assoc existsb_app in Hbad. by apply orb_false_iff in Hbad as [Hbad _]. }
    destruct (Hφ ops [] os s bl w1 e1) as (k&((H1&_)&->)&H2); [by rewrite app_nil_r|done|]. split; [done|].
    assert (tight s bl) as [_ Ht].
    { eapply (run_inv B b (fun _ _ => false) casc_ok tight ops); [| | |exact Hrun].
      - intros o s1 bl1 w2 ob s2 bl2 w3 e2 Hin P1 P2 P3 P4. eapply casc_step_tight; [|exact P1|exact P2|exact P3|exact P4].
        intros n ->. by apply Ha'.
      - intros ops1 ops2 os1 s1 bl1 w2 e2 E Hr. by destruct (Hφ _ _ _ _ _ _ _ E Hr) as (?&[? _]&_).
      - cbn [B cascading cascading_with a_init] in Hi. apply ret_Ok in Hi as (->&_&_). split; by apply Forall_nil. }
    apply louts_tail in Ht. rewrite H1. destruct s as [|nd s]; cbn [tail length louts] in *; lia.
  Qed.
End cascading_linear.
