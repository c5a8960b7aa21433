(** Compositions whose parts share an allocator obey the contract. *)
From iris.proofmode Require Import tactics.
From Verif Require Import Base Mem Sep Wp Allocators Contract FreelistProofs OverflowProofs PairProofs Upstream.

Local Open Scope N_scope.

(** The byte at [q] belongs to a block of [S]. *)
Definition inside (q : N) (S : list (N * N)) : Prop := exists p n, (p, n) ∈ S /\ p <= q < p + n.

Lemma inside_app q S1 S2 : inside q (S1 ++ S2) <-> inside q S1 \/ inside q S2.
Proof.
  unfold inside. split.
  - intros (p&n&Hin&Hq). apply elem_of_app in Hin as [Hin|Hin]; eauto.
  - intros [(p&n&Hin&Hq)|(p&n&Hin&Hq)]; exists p, n; rewrite elem_of_app; auto.
Qed.
Lemma inside_perm q S1 S2 : S1 ≡ₚ S2 -> inside q S1 -> inside q S2.
Proof. intros H (p&n&Hin&Hq). exists p, n. by rewrite -H. Qed.
Lemma inside_cell q L : inside q (shape L) -> blocks L ⊢ ∃ c, q ↦ c ∗ True.
Proof.
  intros (p&n&Hin&Hq). destruct (shape_block_of _ _ _ _ Hin Hq) as (cs&L'&HL&Hq').
  rewrite (blocks_perm _ _ HL) blocks_cons. iIntros "[Hp HL]".
  iDestruct (pts_take_ne with "[$Hp]") as (d) "(%Hd & Hd & Hp)"; [done|]. iExists d. by iFrame.
Qed.
Lemma inside_good q S : Forall good S -> inside q S -> q <> 0.
Proof.
  intros HG (p&n&Hin&Hq). rewrite List.Forall_forall in HG. apply elem_of_list_In, HG in Hin.
  unfold good in Hin. cbn [fst snd] in Hin. lia.
Qed.

Lemma shape_perm_inv L T : shape L ≡ₚ T -> exists LT, shape LT = T /\ L ≡ₚ LT.
Proof.
  intros H. symmetry in H. apply Permutation_map_inv in H as (LT&HT&HP). by exists LT.
Qed.

Lemma blocks_nil : blocks [] ⊣⊢ emp.
Proof. unfold blocks. by rewrite big_sepL_nil. Qed.

Section upstream.
  Context {bad : event -> bool} {U : alloc} {ureq : N -> bool} (CU : contract bad U ureq).
  Local Notation part := (part U).
  Local Notation p_st := (p_st U).
  Local Notation p_size := (p_size U).
  Local Notation p_init := (p_init U).
  Local Notation p_dtor := (p_dtor U).
  Local Notation p_alloc := (p_alloc U).
  Local Notation p_free := (p_free U).
  Local Notation p_owns := (p_owns U).
  Local Notation p_max := (p_max U).
  Local Notation p_cd := (p_cd U).

  (** [JP b l S T]: the part with fields [l] has given the blocks [S] to its client and holds the blocks
      [T] of the upstream allocator.  [R] and [LR] are the upstream blocks of everybody else. *)
  Record pcontract (P : part) (uses : bool) (req : N -> bool) := PC {
    JP : N -> p_st P -> list (N * N) -> list (N * N) -> hpropI;
    pmv : N;
    prdy : N -> N -> p_st P * a_st U -> bool;

    k_size : p_size P mod 16 = 0;
    k_perm b l S S' T T' : S ≡ₚ S' -> T ≡ₚ T' -> JP b l S T ⊢ JP b l S' T';
    k_uses b l S T : uses = false -> JP b l S T ⊢ ⌜T = []⌝;
    k_good ub b l u S T R : JP b l S T ∗ J CU ub u (T ++ R) ⊢ ⌜Forall good S⌝;

    k_init b : b <> 0 -> b mod 16 = 0 -> b + p_size P < W ->
      raw b (p_size P) ⊢ wp bad (p_init P b) (fun l => JP b l [] []);
    k_dtor ub b l u T LR : JP b l [] T ∗ J CU ub u (T ++ shape LR) ∗ blocks LR
      ⊢ wp bad (p_dtor P ub b (l, u)) (fun u' => raw b (p_size P) ∗ J CU ub u' (shape LR) ∗ blocks LR);

    k_alloc ub b l u S T R n : req n = true -> n < W ->
      JP b l S T ∗ J CU ub u (T ++ R) ⊢ wp bad (p_alloc P ub b (l, u) n) (fun ps =>
        ∃ T', J CU ub (snd (snd ps)) (T' ++ R) ∗
        (⌈fst ps = 0⌉ ∗ JP b (fst (snd ps)) S T' ∨
         ⌈fst ps <> 0⌉ ∗ raw (fst ps) n ∗ JP b (fst (snd ps)) ((fst ps, n) :: S) T'));
    k_free ub b l u p cs L T LR : Forall dead cs ->
      JP b l (bsize (p, cs) :: shape L) T ∗ J CU ub u (T ++ shape LR) ∗ p ↦∗ cs ∗ blocks L ∗ blocks LR
      ⊢ wp bad (p_free P ub b (l, u) p (N.of_nat (length cs))) (fun s' =>
        ∃ T', JP b (fst s') (shape L) T' ∗ J CU ub (snd s') (T' ++ shape LR) ∗ blocks L ∗ blocks LR);

    (** The memory of the upstream blocks. *)
    k_open b l L T : JP b l (shape L) T ∗ blocks L ⊢
      ∃ LT, ⌈shape LT = T⌉ ∗ blocks LT ∗ (blocks LT -∗ JP b l (shape L) T ∗ blocks L);
    (** A byte of a client's block lies in one of them or apart from all of them. *)
    k_where b l L T q : inside q (shape L) ->
      JP b l (shape L) T ∗ blocks L ⊢
      ⌜inside q T⌝ ∨ ∃ LT c, ⌜shape LT = T⌝ ∧ (blocks LT ∗ q ↦ c ∗ True);

    k_owns_in o ub b l u S T R : p_owns P = Some o ->
      JP b l S T ∗ J CU ub u (T ++ R) ⊢ ⌜forall p n q, (p, n) ∈ S -> p <= q < p + n -> o ub b (l, u) q = true⌝;
    k_owns_up o ub b l u X : p_owns P = Some o -> uses = true ->
      J CU ub u X ⊢ ⌜forall p n q, (p, n) ∈ X -> p <= q < p + n -> o ub b (l, u) q = true⌝;
    k_owns_out o ub b l u L T LR q c : p_owns P = Some o -> q <> 0 ->
      JP b l (shape L) T ∗ blocks L ∗ q ↦ c ∗ (if uses then J CU ub u (T ++ shape LR) ∗ blocks LR else True)
      ⊢ ⌜o ub b (l, u) q = false⌝;

    k_max mx ub b l u S T R : p_max P = Some mx -> prdy ub b (l, u) = true ->
      JP b l S T ∗ J CU ub u (T ++ R) ⊢ wp bad (mx ub b (l, u)) (fun v => ⌈v = pmv⌉ ∗ JP b l S T ∗ J CU ub u (T ++ R));
    k_bound ub b l u S T R : p_max P <> None ->
      JP b l S T ∗ J CU ub u (T ++ R) ⊢ ⌜Forall (fun x => snd x <= pmv) S⌝;

    k_cd o c ub b l u L T LR q act (R : unit -> hpropI) : p_cd P = Some o ->
      inside q (shape L) \/ uses = true /\ inside q (shape LR) ->
      JP b l (shape L) T ∗ J CU ub u (T ++ shape LR) ∗ blocks L ∗ blocks LR ∗ (blocks L ∗ blocks LR -∗ wp bad act R)
      ⊢ wp bad (o c ub b (l, u) q act) (fun s' => JP b (fst s') (shape L) T ∗ J CU ub (snd s') (T ++ shape LR) ∗ R tt)
  }.
  Global Arguments JP {P uses req}.
  Global Arguments pmv {P uses req}.
  Global Arguments prdy {P uses req}.

  Local Notation uperm := (c_perm _ _ _ CU).

  (** * A handle *)
  Definition handle_pcontract : pcontract (handle U) true ureq.
  Proof.
    refine {| JP := (fun _ _ S T => ⌈S ≡ₚ T⌉%I) : N -> p_st (handle U) -> _; pmv := mv CU;
              prdy := (fun ub _ s => rdy CU ub (snd s)) : N -> N -> p_st (handle U) * _ -> _ |}.
    - done.
    - iIntros (b l S S' T T' HS HT) "%H". iPureIntro. by rewrite -HS -HT.
    - done.
    - iIntros (ub b l u S T R) "[%H HJ]". iDestruct (c_good with "HJ") as %HG. iPureIntro.
      apply Forall_app in HG as [HG _]. by rewrite H.
    - iIntros (b _ _ _) "H". iApply wp_ret. rewrite raw_0. iPureIntro. constructor.
    - iIntros (ub b l u T LR) "(%H & HJ & HL)". apply Permutation_nil in H as ->. cbn [app]. iApply wp_ret.
      cbn [snd]. iFrame. by rewrite raw_0.
    - iIntros (ub b l u S T R n Hn HW) "[%H HJ]". iApply wp_bind. iApply wp_strong_mono.
      iSplitL; [by iApply (c_alloc _ _ _ CU)|].
      iIntros ([p u']) "[[%Hp HJ]|(%Hp & Hr & HJ)]"; cbn [fst snd] in *; iApply wp_ret; cbn [fst snd].
      + iExists T. iFrame. iLeft. by iSplit.
      + iExists ((p, n) :: T). cbn [app]. iFrame. iRight. iSplit; [done|]. iFrame. iPureIntro. by rewrite H.
    - iIntros (ub b l u p cs L T LR Hd) "(%H & HJ & Hp & HL & HLR)". iApply wp_bind.
      iDestruct (uperm _ _ _ (bsize (p, cs) :: shape (L ++ LR)) with "HJ") as "HJ".
      { by rewrite -H shape_app. }
      iApply wp_strong_mono. iSplitL.
      + iApply (c_free _ _ _ CU ub u p cs (L ++ LR)); [done|]. rewrite blocks_app. iFrame.
      + iIntros (u') "[HJ HL]". iApply wp_ret. cbn [fst snd]. iExists (shape L).
        rewrite shape_app blocks_app. by iFrame.
    - iIntros (b l L T) "[%H HL]".
      destruct (shape_perm_inv _ _ H) as (LT&HT&HP). iExists LT. iSplit; [by iPureIntro|].
      rewrite (blocks_perm _ _ HP). iFrame. iIntros "$". done.
    - iIntros (b l L T q Hq) "[%H HL]". iLeft. iPureIntro. by apply (inside_perm _ _ _ H).
    - intros o ub b l u S T R Ho. cbn [Upstream.p_owns handle] in Ho. destruct (a_owns U) as [oU|] eqn:EO; [|done].
      injection Ho as <-. iIntros "[%H HJ]". iDestruct (c_owns_in _ _ _ CU _ _ _ _ EO with "HJ") as %HO. iPureIntro.
      intros p n q Hin Hq. cbn [snd]. eapply HO; [|done]. apply elem_of_app. left. by rewrite -H.
    - intros o ub b l u X Ho _. cbn [Upstream.p_owns handle] in Ho. destruct (a_owns U) as [oU|] eqn:EO; [|done].
      injection Ho as <-. exact (c_owns_in _ _ _ CU _ _ _ _ EO).
    - intros o ub b l u L T LR q c Ho Hq. cbn [Upstream.p_owns handle] in Ho. destruct (a_owns U) as [oU|] eqn:EO; [|done].
      injection Ho as <-. iIntros "(%H & HL & Hc & HJ & HLR)". cbn [snd].
      iApply (c_owns_out _ _ _ CU _ ub u (L ++ LR) _ _ EO Hq). rewrite blocks_app. iFrame.
      iApply (uperm with "HJ"). by rewrite -H shape_app.
    - intros mx ub b l u S T R Hm Hr. cbn [Upstream.p_max handle] in Hm. destruct (a_max U) as [mU|] eqn:EM; [|done].
      injection Hm as <-. iIntros "[%H HJ]". iApply wp_strong_mono. iSplitL; [by iApply (c_max _ _ _ CU _ _ _ _ EM Hr)|].
      iIntros (v) "[$ $]". done.
    - intros ub b l u S T R Hm. cbn [Upstream.p_max handle] in Hm. iIntros "[%H HJ]".
      iDestruct (c_bound with "HJ") as %HB; [by destruct (a_max U)|]. iPureIntro. apply Forall_app in HB as [HB _].
      by rewrite H.
    - intros o c ub b l u L T LR q act R Ho Hin. cbn [Upstream.p_cd handle] in Ho. destruct (a_cd U) as [oU|] eqn:EC; [|done].
      injection Ho as <-. iIntros "(%H & HJ & HL & HLR & Hact)". cbn [snd].
      iDestruct (uperm _ _ _ (shape (L ++ LR)) with "HJ") as "HJ"; [by rewrite -H shape_app|].
      iApply wp_bind. iApply wp_strong_mono. iSplitL.
      + iApply (c_cd _ _ _ CU _ c ub u (L ++ LR) q act R EC).
        { change (inside q (shape (L ++ LR))). rewrite shape_app inside_app. tauto. }
        rewrite blocks_app. iFrame. 
      + iIntros (u') "[HJ HR]". iApply wp_ret. cbn [fst snd]. iFrame. iSplit; [done|].
        iApply (uperm with "HJ"). by rewrite -H shape_app.
  Defined.

  (** * A part without handles *)
  Section own.
    Context {A : alloc} {req : N -> bool} (CA : contract bad A req).
    Definition own_pcontract : pcontract (own U A) false req.
    Proof.
      refine {| JP := (fun b l S T => ⌈T = []⌉ ∗ J CA b l S)%I : N -> p_st (own U A) -> _; pmv := mv CA;
                prdy := (fun _ b s => rdy CA b (fst s)) : N -> N -> p_st (own U A) * _ -> _ |}.
      - exact (c_size _ _ _ CA).
      - iIntros (b l S S' T T' HS HT) "[-> HJ]". apply Permutation_nil in HT as ->. iSplit; [done|].
        by iApply (c_perm _ _ _ CA with "HJ").
      - iIntros (b l S T _) "[$ _]".
      - iIntros (ub b l u S T R) "[[_ HJ] _]". by iApply (c_good _ _ _ CA with "HJ").
      - intros b H1 H2 H3. iIntros "H". iApply wp_strong_mono. iSplitL; [by iApply (c_init _ _ _ CA)|].
        iIntros (l) "$". done.
      - iIntros (ub b l u T LR) "([-> HJ] & HU & HL)". cbn [Upstream.p_dtor own]. iApply wp_bind. iApply wp_strong_mono.
        iSplitL "HJ"; [by iApply (c_dtor _ _ _ CA)|]. iIntros ([]) "H". iApply wp_ret. iFrame.
      - iIntros (ub b l u S T R n Hn HW) "[[-> HJ] HU]". iApply wp_bind. iApply wp_strong_mono.
        iSplitL "HJ"; [by iApply (c_alloc _ _ _ CA)|].
        iIntros ([p l']) "[[%Hp HJ]|(%Hp & Hr & HJ)]"; cbn [fst snd] in *; iApply wp_ret; cbn [fst snd];
          iExists []; iFrame; [iLeft|iRight]; by iFrame.
      - iIntros (ub b l u p cs L T LR Hd) "([-> HJ] & HU & Hp & HL & HLR)". iApply wp_bind. iApply wp_strong_mono.
        iSplitL "HJ Hp HL"; [iApply (c_free _ _ _ CA); [done|iFrame]|].
        iIntros (l') "[HJ HL]". iApply wp_ret. cbn [fst snd]. iExists []. by iFrame.
      - iIntros (b l L T) "[[-> HJ] HL]". iExists []. iSplit; [done|]. unfold blocks at 2 3. rewrite big_sepL_nil.
        iSplit; [done|]. iIntros "_". by iFrame.
      - iIntros (b l L T q Hq) "[[-> HJ] HL]". iRight. iDestruct (inside_cell _ _ Hq with "HL") as (c) "[Hc _]".
        iExists [], c. iSplit; [done|]. unfold blocks. rewrite big_sepL_nil. iFrame.
      - intros o ub b l u S T R Ho. cbn [Upstream.p_owns own] in Ho. destruct (a_owns A) as [oA|] eqn:EO; [|done].
        injection Ho as <-. iIntros "[[_ HJ] _]". by iApply (c_owns_in _ _ _ CA _ _ _ _ EO with "HJ").
      - done.
      - intros o ub b l u L T LR q c Ho Hq. cbn [Upstream.p_owns own] in Ho. destruct (a_owns A) as [oA|] eqn:EO; [|done].
        injection Ho as <-. iIntros "([_ HJ] & HL & Hc & _)". cbn [fst].
        by iApply (c_owns_out _ _ _ CA _ _ _ _ _ _ EO Hq with "[$HJ $HL $Hc]").
      - intros mx ub b l u S T R Hm Hr. cbn [Upstream.p_max own] in Hm. destruct (a_max A) as [mA|] eqn:EM; [|done].
        injection Hm as <-. iIntros "[[-> HJ] HU]". iApply wp_strong_mono. iSplitL "HJ"; [by iApply (c_max _ _ _ CA _ _ _ _ EM Hr)|].
        iIntros (v) "[$ $]". by iFrame.
      - intros ub b l u S T R Hm. cbn [Upstream.p_max own] in Hm. iIntros "[[_ HJ] _]".
        iApply (c_bound _ _ _ CA with "HJ"). by destruct (a_max A).
      - intros o c ub b l u L T LR q act R Ho Hin. cbn [Upstream.p_cd own] in Ho. destruct (a_cd A) as [oA|] eqn:EC; [|done].
        injection Ho as <-. iIntros "([-> HJ] & HU & HL & HLR & Hact)". cbn [fst snd].
        iApply wp_bind. iApply wp_strong_mono. iSplitL "HJ HL HLR Hact".
        + iApply (c_cd _ _ _ CA _ c b l L q act R EC).
          { by destruct Hin as [Hin|[? _]]. }
          iFrame. iIntros "HL". iApply "Hact". iFrame.
        + iIntros (l') "[HJ HR]". iApply wp_ret. cbn [fst snd]. by iFrame.
    Defined.
  End own.

  (** * fallback and segragator *)
  Section pair.
    Context {P F : part} {uP uF : bool} {reqP reqF : N -> bool}.
    Context (CP : pcontract P uP reqP) (CF : pcontract F uF reqF).
    Context (φP φF : N -> Prop).
    Local Notation stt := (p_st P * p_st F)%type.

    Definition pp_J (b : N) (s : stt) (S T : list (N * N)) : hpropI :=
      ∃ S1 S2 T1 T2, ⌈S ≡ₚ S1 ++ S2 /\ T ≡ₚ T1 ++ T2 /\ Forall (fun x => φP (snd x)) S1 /\ Forall (fun x => φF (snd x)) S2⌉ ∗
        JP CP b (fst s) S1 T1 ∗ JP CF (b + p_size P) (snd s) S2 T2.

    Lemma pp_J_intro b sp sf S T S1 S2 T1 T2 : S ≡ₚ S1 ++ S2 -> T ≡ₚ T1 ++ T2 ->
      Forall (fun x => φP (snd x)) S1 -> Forall (fun x => φF (snd x)) S2 ->
      JP CP b sp S1 T1 ∗ JP CF (b + p_size P) sf S2 T2 ⊢ pp_J b (sp, sf) S T.
    Proof. intros. iIntros "[H1 H2]". iExists S1, S2, T1, T2. iFrame. done. Qed.

    (** The upstream blocks as seen from either part. *)
    Lemma left_view ub u T T1 T2 R : T ≡ₚ T1 ++ T2 -> J CU ub u (T ++ R) ⊣⊢ J CU ub u (T1 ++ T2 ++ R).
    Proof using CU. intros H. iSplit; iApply uperm; by rewrite H app_assoc. Qed.
    Lemma right_view ub u T T1 T2 R : T ≡ₚ T1 ++ T2 -> J CU ub u (T ++ R) ⊣⊢ J CU ub u (T2 ++ T1 ++ R).
    Proof using CU. intros H. iSplit; iApply uperm; by rewrite H (Permutation_app_comm T1 T2) app_assoc. Qed.

    Lemma pp_perm b s S S' T T' : S ≡ₚ S' -> T ≡ₚ T' -> pp_J b s S T ⊢ pp_J b s S' T'.
    Proof.
      intros HS HT. iIntros "(%S1 & %S2 & %T1 & %T2 & (%H1&%H2&%H3&%H4) & HP & HF)". iExists S1, S2, T1, T2. iFrame.
      iPureIntro. by rewrite -HS -HT.
    Qed.

    Lemma pp_uses b s S T : uP || uF = false -> pp_J b s S T ⊢ ⌜T = []⌝.
    Proof.
      intros [HP HF]%orb_false_iff. iIntros "(%S1 & %S2 & %T1 & %T2 & (%H1&%H2&%H3&%H4) & HP & HF)".
      iDestruct (k_uses _ _ _ CP _ _ _ _ HP with "HP") as %->. iDestruct (k_uses _ _ _ CF _ _ _ _ HF with "HF") as %->.
      iPureIntro. by apply Permutation_nil_r in H2.
    Qed.

    Lemma pp_good ub b s u S T R : pp_J b s S T ∗ J CU ub u (T ++ R) ⊢ ⌜Forall good S⌝.
    Proof.
      iIntros "[(%S1 & %S2 & %T1 & %T2 & (%H1&%H2&%H3&%H4) & HP & HF) HU]".
      iAssert ⌜Forall good S1⌝%I with "[HP HU]" as %G1.
      { rewrite (left_view _ _ _ _ _ _ H2). iApply (k_good _ _ _ CP with "[$HP $HU]"). }
      iAssert ⌜Forall good S2⌝%I with "[HF HU]" as %G2.
      { rewrite (right_view _ _ _ _ _ _ H2). iApply (k_good _ _ _ CF with "[$HF $HU]"). }
      iPureIntro. rewrite H1. by apply Forall_app.
    Qed.

    Lemma pp_size : (p_size P + p_size F) mod 16 = 0.
    Proof using CP CF. pose proof (k_size _ _ _ CP). pose proof (k_size _ _ _ CF). lia. Qed.

    Lemma pp_wp_init b : b <> 0 -> b mod 16 = 0 -> b + (p_size P + p_size F) < W ->
      raw b (p_size P + p_size F) ⊢ wp bad (ppair_init U P F b) (fun s => pp_J b s [] []).
    Proof.
      intros H1 H2 H3. rewrite (raw_split _ _ (p_size P)); [|lia].
      replace (p_size P + p_size F - p_size P) with (p_size F) by lia.
      iIntros "[HP HF]". iApply wp_bind.
      iApply wp_strong_mono. iSplitL "HP". { iApply (k_init _ _ _ CP); [done|done|lia|done]. }
      iIntros (sp) "HP". iApply wp_bind. pose proof (k_size _ _ _ CP).
      iApply wp_strong_mono. iSplitL "HF". { iApply (k_init _ _ _ CF); [lia|lia|lia|done]. }
      iIntros (sf) "HF". iApply wp_ret. iApply (pp_J_intro _ _ _ _ _ [] [] [] []); [done..|]. iFrame.
    Qed.

    Lemma pp_wp_dtor ub b l u T LR : pp_J b l [] T ∗ J CU ub u (T ++ shape LR) ∗ blocks LR
      ⊢ wp bad (ppair_dtor U P F ub b (l, u)) (fun u' => raw b (p_size P + p_size F) ∗ J CU ub u' (shape LR) ∗ blocks LR).
    Proof.
      iIntros "((%S1 & %S2 & %T1 & %T2 & (%H1&%H2&%H3&%H4) & HP & HF) & HU & HLR)". apply Permutation_nil in H1.
      apply app_eq_nil in H1 as [-> ->]. rewrite (right_view _ _ _ _ _ _ H2).
      iAssert (blocks []) as "Hnil"; [by rewrite /blocks big_sepL_nil|].
      iDestruct (k_open _ _ _ CP _ _ [] with "[$HP $Hnil]") as (LT) "(%HT & HLT & Hback)". subst T1.
      rewrite -shape_app. unfold ppair_dtor, fall. cbn [fst snd].
      iApply wp_bind. iApply wp_strong_mono. iSplitL "HF HU HLR HLT".
      { iApply (k_dtor _ _ _ CF _ _ _ _ _ (LT ++ LR)). rewrite blocks_app. iFrame. }
      iIntros (u') "(HF & HU & HLR)". rewrite blocks_app shape_app. iDestruct "HLR" as "[HLT HLR]".
      iDestruct ("Hback" with "HLT") as "[HP _]".
      iApply wp_strong_mono. iSplitL "HP HU HLR"; [iApply (k_dtor _ _ _ CP); iFrame|].
      iIntros (u2) "(HP & $ & $)". rewrite (raw_split _ (_ + _) (p_size P)); [|lia].
      replace (p_size P + p_size F - p_size P) with (p_size F) by lia. iFrame.
    Qed.

    Lemma pp_open b l L T : pp_J b l (shape L) T ∗ blocks L ⊢
      ∃ LT, ⌈shape LT = T⌉ ∗ blocks LT ∗ (blocks LT -∗ pp_J b l (shape L) T ∗ blocks L).
    Proof.
      iIntros "[(%S1 & %S2 & %T1 & %T2 & (%H1&%H2&%H3&%H4) & HP & HF) HL]".
      pose proof H1 as HS. apply shape_split in H1 as (L1&L2&HL&<-&<-). iEval (rewrite (blocks_perm _ _ HL) blocks_app) in "HL".
      iDestruct "HL" as "[HL1 HL2]".
      iDestruct (k_open _ _ _ CP with "[$HP $HL1]") as (LT1) "(%HT1 & HLT1 & Hb1)".
      iDestruct (k_open _ _ _ CF with "[$HF $HL2]") as (LT2) "(%HT2 & HLT2 & Hb2)".
      destruct (shape_perm_inv (LT1 ++ LT2) T) as (LT&HT&HP); [rewrite shape_app HT1 HT2; by symmetry|].
      iExists LT. iSplit; [done|]. rewrite -(blocks_perm _ _ HP) blocks_app. iFrame "HLT1 HLT2".
      iIntros "[HLT1 HLT2]". rewrite (blocks_perm _ _ HL) blocks_app. iDestruct ("Hb1" with "HLT1") as "[HP $]". iDestruct ("Hb2" with "HLT2") as "[HF $]".
      destruct l. iApply pp_J_intro; [done..|iFrame].
    Qed.

    Lemma pp_where b l L T q : inside q (shape L) -> pp_J b l (shape L) T ∗ blocks L ⊢
      ⌜inside q T⌝ ∨ ∃ LT c, ⌜shape LT = T⌝ ∧ (blocks LT ∗ q ↦ c ∗ True).
    Proof.
      iIntros (Hq) "[(%S1 & %S2 & %T1 & %T2 & (%H1&%H2&%H3&%H4) & HP & HF) HL]".
      apply (inside_perm _ _ _ H1) in Hq. apply inside_app in Hq.
      apply shape_split in H1 as (L1&L2&HL&<-&<-). rewrite (blocks_perm _ _ HL) blocks_app.
      iDestruct "HL" as "[HL1 HL2]". destruct Hq as [Hq|Hq].
      - iDestruct (k_where _ _ _ CP _ _ _ _ _ Hq with "[$HP $HL1]") as "[%Hin|(%LT1 & %c & %HT1 & HLT1 & Hc & Hrest)]".
        + iLeft. iPureIntro. symmetry in H2. apply (inside_perm _ _ _ H2), inside_app. by left.
        + iRight. iDestruct (k_open _ _ _ CF with "[$HF $HL2]") as (LT2) "(%HT2 & HLT2 & Hb2)".
          destruct (shape_perm_inv (LT1 ++ LT2) T) as (LT&HT&HP); [rewrite shape_app HT1 HT2; by symmetry|].
          iExists LT, c. iSplit; [done|]. rewrite -(blocks_perm _ _ HP) blocks_app. by iFrame.
      - iDestruct (k_where _ _ _ CF _ _ _ _ _ Hq with "[$HF $HL2]") as "[%Hin|(%LT2 & %c & %HT2 & HLT2 & Hc & Hrest)]".
        + iLeft. iPureIntro. symmetry in H2. apply (inside_perm _ _ _ H2), inside_app. by right.
        + iRight. iDestruct (k_open _ _ _ CP with "[$HP $HL1]") as (LT1) "(%HT1 & HLT1 & Hb1)".
          destruct (shape_perm_inv (LT1 ++ LT2) T) as (LT&HT&HP); [rewrite shape_app HT1 HT2; by symmetry|].
          iExists LT, c. iSplit; [done|]. rewrite -(blocks_perm _ _ HP) blocks_app. by iFrame.
    Qed.

    Lemma pp_owns_in o ub b l u S T R : ppair_owns U P F = Some o -> pp_J b l S T ∗ J CU ub u (T ++ R) ⊢
      ⌜forall p n q, (p, n) ∈ S -> p <= q < p + n -> o ub b (l, u) q = true⌝.
    Proof.
      unfold ppair_owns, omap2. destruct (p_owns P) as [oP|] eqn:EP; [|done].
      destruct (p_owns F) as [oF|] eqn:EF; [|done]. intros [= <-].
      iIntros "[(%S1 & %S2 & %T1 & %T2 & (%H1&%H2&%H3&%H4) & HP & HF) HU]". unfold prim, fall. cbn [fst snd].
      iAssert ⌜_⌝%I with "[HP HU]" as %HP.
      { rewrite (left_view _ _ _ _ _ _ H2). iApply (k_owns_in _ _ _ CP _ _ _ _ _ _ _ _ EP with "[$HP $HU]"). }
      iAssert ⌜_⌝%I with "[HF HU]" as %HF.
      { rewrite (right_view _ _ _ _ _ _ H2). iApply (k_owns_in _ _ _ CF _ _ _ _ _ _ _ _ EF with "[$HF $HU]"). }
      iPureIntro. intros p n q Hin Hq. rewrite H1 in Hin. apply elem_of_app in Hin as [Hin|Hin].
      - by rewrite (HP _ _ _ Hin Hq).
      - by rewrite (HF _ _ _ Hin Hq) orb_true_r.
    Qed.

    Lemma pp_owns_up o ub b l u X : ppair_owns U P F = Some o -> uP || uF = true -> J CU ub u X ⊢
      ⌜forall p n q, (p, n) ∈ X -> p <= q < p + n -> o ub b (l, u) q = true⌝.
    Proof.
      unfold ppair_owns, omap2. destruct (p_owns P) as [oP|] eqn:EP; [|done].
      destruct (p_owns F) as [oF|] eqn:EF; [|done]. intros [= <-] [HP|HF]%orb_true_iff; unfold prim, fall; cbn [fst snd].
      - iIntros "HU". iDestruct (k_owns_up _ _ _ CP _ _ b (fst l) _ _ EP HP with "HU") as %HO. iPureIntro.
        intros p n q Hin Hq. by rewrite (HO _ _ _ Hin Hq).
      - iIntros "HU". iDestruct (k_owns_up _ _ _ CF _ _ (b + p_size P) (snd l) _ _ EF HF with "HU") as %HO. iPureIntro.
        intros p n q Hin Hq. by rewrite (HO _ _ _ Hin Hq) orb_true_r.
    Qed.

    Lemma pp_owns_out o ub b l u L T LR q c : ppair_owns U P F = Some o -> q <> 0 ->
      pp_J b l (shape L) T ∗ blocks L ∗ q ↦ c ∗ (if uP || uF then J CU ub u (T ++ shape LR) ∗ blocks LR else True)
      ⊢ ⌜o ub b (l, u) q = false⌝.
    Proof.
      unfold ppair_owns, omap2. destruct (p_owns P) as [oP|] eqn:EP; [|done].
      destruct (p_owns F) as [oF|] eqn:EF; [|done]. intros [= <-] Hq. unfold prim, fall. cbn [fst snd].
      iIntros "((%S1 & %S2 & %T1 & %T2 & (%H1&%H2&%H3&%H4) & HP & HF) & HL & Hc & HU)".
      apply shape_split in H1 as (L1&L2&HL&<-&<-). rewrite (blocks_perm _ _ HL) blocks_app.
      iDestruct "HL" as "[HL1 HL2]".
      iAssert ⌜oP ub b (fst l, u) q = false⌝%I with "[HP HL1 HF HL2 Hc HU]" as %->.
      { iDestruct (k_open _ _ _ CF with "[$HF $HL2]") as (LT2) "(%HT2 & HLT2 & Hb2)".
        iDestruct (k_owns_out _ _ _ CP _ ub b (fst l) u L1 T1 (LT2 ++ LR) q c EP Hq with "[$HP $HL1 $Hc HU HLT2]") as %HO;
          [|by iPureIntro]. destruct uP; [|done]. cbn [orb]. iDestruct "HU" as "[HU HLR]".
        rewrite (left_view _ _ _ _ _ _ H2) shape_app HT2 blocks_app. iFrame. }
      iAssert ⌜oF ub (b + p_size P)%N (snd l, u) q = false⌝%I with "[HP HL1 HF HL2 Hc HU]" as %->; [|by iPureIntro].
      iDestruct (k_open _ _ _ CP with "[$HP $HL1]") as (LT1) "(%HT1 & HLT1 & Hb1)".
      iDestruct (k_owns_out _ _ _ CF _ ub (b + p_size P) (snd l) u L2 T2 (LT1 ++ LR) q c EF Hq with "[$HF $HL2 $Hc HU HLT1]") as %HO;
        [|by iPureIntro]. destruct uF; [|done]. rewrite orb_true_r. iDestruct "HU" as "[HU HLR]".
      rewrite (right_view _ _ _ _ _ _ H2) shape_app HT1 blocks_app. iFrame.
    Qed.

    Definition pp_mv : N := N.max (pmv CP) (pmv CF).
    Definition pp_rdy (ub b : N) (s : stt * a_st U) : bool :=
      prdy CP ub b (fst (fst s), snd s) && prdy CF ub (b + p_size P) (snd (fst s), snd s).

    Lemma pp_max mx ub b l u S T R : ppair_max U P F = Some mx -> pp_rdy ub b (l, u) = true ->
      pp_J b l S T ∗ J CU ub u (T ++ R) ⊢ wp bad (mx ub b (l, u)) (fun v => ⌈v = pp_mv⌉ ∗ pp_J b l S T ∗ J CU ub u (T ++ R)).
    Proof.
      unfold ppair_max, omap2, pp_rdy. destruct (p_max P) as [mP|] eqn:EP; [|done].
      destruct (p_max F) as [mF|] eqn:EF; [|done]. intros [= <-]. rewrite andb_true_iff. intros [RP RF].
      unfold prim, fall. cbn [fst snd] in *.
      iIntros "[(%S1 & %S2 & %T1 & %T2 & (%H1&%H2&%H3&%H4) & HP & HF) HU]".
      iEval (rewrite (left_view _ _ _ _ _ _ H2)) in "HU".
      iApply wp_bind. iApply wp_strong_mono. iSplitL "HP HU"; [by iApply (k_max _ _ _ CP _ _ _ _ _ _ _ _ EP RP); iFrame|].
      iIntros (x) "(-> & HP & HU)". iEval (rewrite -(left_view _ _ _ _ _ _ H2) (right_view _ _ _ _ _ _ H2)) in "HU".
      iApply wp_bind. iApply wp_strong_mono. iSplitL "HF HU"; [by iApply (k_max _ _ _ CF _ _ _ _ _ _ _ _ EF RF); iFrame|].
      iIntros (y) "(-> & HF & HU)". iApply wp_ret. iSplit; [done|].
      iEval (rewrite -(right_view _ _ _ _ _ _ H2)) in "HU". iFrame "HU". destruct l. by iApply pp_J_intro; [..|iFrame].
    Qed.

    Lemma pp_bound ub b l u S T R : ppair_max U P F <> None ->
      pp_J b l S T ∗ J CU ub u (T ++ R) ⊢ ⌜Forall (fun x => snd x <= pp_mv) S⌝.
    Proof.
      unfold ppair_max, omap2. intros Hm.
      assert (p_max P <> None) as EP by by destruct (p_max P).
      assert (p_max F <> None) as EF by by destruct (p_max P), (p_max F).
      iIntros "[(%S1 & %S2 & %T1 & %T2 & (%H1&%H2&%H3&%H4) & HP & HF) HU]".
      iAssert ⌜_⌝%I with "[HP HU]" as %G1.
      { rewrite (left_view _ _ _ _ _ _ H2). iApply (k_bound _ _ _ CP _ _ _ _ _ _ _ EP with "[$HP $HU]"). }
      iAssert ⌜_⌝%I with "[HF HU]" as %G2.
      { rewrite (right_view _ _ _ _ _ _ H2). iApply (k_bound _ _ _ CF _ _ _ _ _ _ _ EF with "[$HF $HU]"). }
      iPureIntro. rewrite H1. unfold pp_mv. apply Forall_app; split.
      - eapply List.Forall_impl; [|exact G1]. cbv beta. lia.
      - eapply List.Forall_impl; [|exact G2]. cbv beta. lia.
    Qed.

    Lemma pp_cd o c ub b l u L T LR q act (R : unit -> hpropI) : ppair_cd U P F = Some o ->
      inside q (shape L) \/ uP || uF = true /\ inside q (shape LR) ->
      pp_J b l (shape L) T ∗ J CU ub u (T ++ shape LR) ∗ blocks L ∗ blocks LR ∗ (blocks L ∗ blocks LR -∗ wp bad act R)
      ⊢ wp bad (o c ub b (l, u) q act) (fun s' => pp_J b (fst s') (shape L) T ∗ J CU ub (snd s') (T ++ shape LR) ∗ R tt).
    Proof.
      intros Ho Hin. unfold ppair_cd in Ho. destruct (p_owns P) as [oP|] eqn:EO; [|done].
      iIntros "(HJ & HU & HL & HLR & Hact)". iDestruct (pp_good with "[$HJ $HU]") as %HG.
      iDestruct (c_good with "HU") as %HGU.
      iDestruct "HJ" as "(%S1 & %S2 & %T1 & %T2 & (%H1&%H2&%H3&%H4) & HP & HF)".
      pose proof H1 as HS. apply shape_split in H1 as (L1&L2&HL&<-&<-). iEval (rewrite (blocks_perm _ _ HL) blocks_app) in "HL".
      iEval (rewrite (blocks_perm _ _ HL) blocks_app) in "Hact". iDestruct "HL" as "[HL1 HL2]".
      assert (Hq0 : q <> 0).
      { apply Forall_app in HGU as [_ HGU]. destruct Hin as [Hin|[_ Hin]]; [exact (inside_good _ _ HG Hin)|exact (inside_good _ _ HGU Hin)]. }
      (** Whom the byte belongs to, depending on what the primary says about it. *)
      iAssert ⌜oP ub b (l.1, u) q = true /\ (inside q (shape L1) \/ uP = true /\ inside q (T2 ++ shape LR)) \/
               oP ub b (l.1, u) q = false /\ (inside q (shape L2) \/ uF = true /\ inside q (shape LR))⌝%I as %Hown.
      { assert (Hcase : inside q (shape L1) \/ inside q (shape L2) \/ (uP || uF = true /\ inside q (shape LR))).
        { destruct Hin as [Hin|?]; [|tauto]. apply (inside_perm _ _ _ HS) in Hin. apply inside_app in Hin. tauto. }
        destruct Hcase as [Hin1|[Hin2|[Hu Hin3]]].
        - iEval (rewrite (left_view _ _ _ _ _ _ H2)) in "HU".
          iDestruct (k_owns_in _ _ _ CP _ _ _ _ _ _ _ _ EO with "[$HP $HU]") as %HO. iPureIntro. left.
          split; [|by left]. destruct Hin1 as (p&n&Hp&Hn). by eapply HO.
        - destruct (oP ub b (l.1, u) q) eqn:E; [|iPureIntro; tauto].
          destruct uP eqn:EU.
          + iDestruct (k_where _ _ _ CF _ _ _ _ _ Hin2 with "[$HF $HL2]") as "[%Hup|(%LT & %d & %HT & HLT & Hd & _)]".
            { iPureIntro. left. split; [done|right]. split; [done|]. apply inside_app. by left. }
            iDestruct (k_owns_out _ _ _ CP _ ub b l.1 u L1 T1 (LT ++ LR) q d EO Hq0 with "[$HP $HL1 $Hd HU HLR HLT]") as %HO;
              [|congruence].
            rewrite (left_view _ _ _ _ _ _ H2) shape_app HT blocks_app. iFrame.
          + iDestruct (inside_cell _ _ Hin2 with "HL2") as (d) "[Hd _]".
            iDestruct (k_owns_out _ _ _ CP _ ub b l.1 u L1 T1 [] q d EO Hq0 with "[$HP $HL1 $Hd]") as %HO. congruence.
        - destruct uP eqn:EU.
          + iDestruct (k_owns_up _ _ _ CP _ ub b l.1 _ _ EO eq_refl with "HU") as %HO. iPureIntro. left.
            destruct Hin3 as (p&n&Hp&Hn). split; [apply (HO p n); [apply elem_of_app; by right|done]|right; split; [done|]].
            apply inside_app. right. by exists p, n.
          + iDestruct (inside_cell _ _ Hin3 with "HLR") as (d) "[Hd _]".
            iDestruct (k_owns_out _ _ _ CP _ ub b l.1 u L1 T1 [] q d EO Hq0 with "[$HP $HL1 $Hd]") as %HO.
            iPureIntro. right. split; [done|]. right. by split. }
      assert (Hdirect : JP CP b l.1 (shape L1) T1 ∗ JP CF (b + p_size P) l.2 (shape L2) T2 ∗ J CU ub u (T ++ shape LR) ∗
          blocks L1 ∗ blocks L2 ∗ blocks LR ∗ ((blocks L1 ∗ blocks L2) ∗ blocks LR -∗ wp bad act R)
          ⊢ wp bad (act ;;; ret (l, u)) (fun s' => pp_J b (fst s') (shape L) T ∗ J CU ub (snd s') (T ++ shape LR) ∗ R tt)).
      { iIntros "(HP & HF & HU & HL1 & HL2 & HLR & Hact)". iApply wp_bind. iApply wp_strong_mono.
        iSplitL "Hact HL1 HL2 HLR"; [iApply "Hact"; iFrame|]. iIntros ([]) "HR". iApply wp_ret. cbn [fst snd]. iFrame "HR HU".
        destruct l. iApply pp_J_intro; [done..|iFrame]. }
      assert (HcP : forall cP, p_cd P = Some cP -> inside q (shape L1) \/ uP = true /\ inside q (T2 ++ shape LR) ->
          JP CP b l.1 (shape L1) T1 ∗ JP CF (b + p_size P) l.2 (shape L2) T2 ∗ J CU ub u (T ++ shape LR) ∗
          blocks L1 ∗ blocks L2 ∗ blocks LR ∗ ((blocks L1 ∗ blocks L2) ∗ blocks LR -∗ wp bad act R)
          ⊢ wp bad (x <- cP c ub b (l.1, u) q act ;; ret (prim_set U P F (l, u) x))
              (fun s' => pp_J b (fst s') (shape L) T ∗ J CU ub (snd s') (T ++ shape LR) ∗ R tt)).
      { intros cP EC Hin1. iIntros "(HP & HF & HU & HL1 & HL2 & HLR & Hact)". iEval (rewrite (left_view _ _ _ _ _ _ H2)) in "HU".
        iDestruct (k_open _ _ _ CF with "[$HF $HL2]") as (LT) "(%HT & HLT & Hback)".
        iApply wp_bind. iApply wp_strong_mono. iSplitL.
        - iApply (k_cd _ _ _ CP _ c ub b l.1 u L1 T1 (LT ++ LR) q act
            (fun _ => R tt ∗ JP CF (b + p_size P) l.2 (shape L2) T2)%I EC); [by rewrite shape_app HT|].
          rewrite shape_app HT blocks_app. iFrame "HP HU HL1 HLT HLR". iIntros "(HL1 & HLT & HLR)".
          iDestruct ("Hback" with "HLT") as "[HF HL2]". iApply wp_strong_mono.
          iSplitR "HF"; [iApply "Hact"; iFrame|]. iIntros ([]) "$". iFrame.
        - iIntros (s') "(HP & HU & HR & HF)". iEval (rewrite shape_app HT -(left_view _ _ _ _ _ _ H2)) in "HU". iApply wp_ret.
          unfold prim_set. cbn [fst snd]. iFrame "HR HU". iApply pp_J_intro; [done..|iFrame]. }
      assert (HcF : forall cF, p_cd F = Some cF -> inside q (shape L2) \/ uF = true /\ inside q (shape LR) ->
          JP CP b l.1 (shape L1) T1 ∗ JP CF (b + p_size P) l.2 (shape L2) T2 ∗ J CU ub u (T ++ shape LR) ∗
          blocks L1 ∗ blocks L2 ∗ blocks LR ∗ ((blocks L1 ∗ blocks L2) ∗ blocks LR -∗ wp bad act R)
          ⊢ wp bad (x <- cF c ub (b + p_size P) (l.2, u) q act ;; ret (fall_set U P F (l, u) x))
              (fun s' => pp_J b (fst s') (shape L) T ∗ J CU ub (snd s') (T ++ shape LR) ∗ R tt)).
      { intros cF EC Hin1. iIntros "(HP & HF & HU & HL1 & HL2 & HLR & Hact)". iEval (rewrite (right_view _ _ _ _ _ _ H2)) in "HU".
        iDestruct (k_open _ _ _ CP with "[$HP $HL1]") as (LT) "(%HT & HLT & Hback)".
        iApply wp_bind. iApply wp_strong_mono. iSplitL.
        - iApply (k_cd _ _ _ CF _ c ub (b + p_size P) l.2 u L2 T2 (LT ++ LR) q act
            (fun _ => R tt ∗ JP CP b l.1 (shape L1) T1)%I EC).
          { rewrite shape_app HT inside_app. tauto. }
          rewrite shape_app HT blocks_app. iFrame "HF HU HL2 HLT HLR". iIntros "(HL2 & HLT & HLR)".
          iDestruct ("Hback" with "HLT") as "[HP HL1]". iApply wp_strong_mono.
          iSplitR "HP"; [iApply "Hact"; iFrame|]. iIntros ([]) "$". iFrame.
        - iIntros (s') "(HF & HU & HR & HP)". iEval (rewrite shape_app HT -(right_view _ _ _ _ _ _ H2)) in "HU". iApply wp_ret.
          unfold fall_set. cbn [fst snd]. iFrame "HR HU". iApply pp_J_intro; [done..|iFrame]. }
      destruct (p_cd P) as [cP|] eqn:ECP, (p_cd F) as [cF|] eqn:ECF; try done; injection Ho as <-; unfold prim, fall; cbn [fst snd];
        destruct Hown as [[-> ?]|[-> ?]].
      - iApply HcP; [done|done|iFrame].
      - iApply HcF; [done|done|iFrame].
      - iApply HcP; [done|done|iFrame].
      - iApply Hdirect. iFrame.
      - iApply Hdirect. iFrame.
      - iApply HcF; [done|done|iFrame].
    Qed.
  End pair.

  Section fallback.
    Context {P F : part} {uP uF : bool} {reqP reqF : N -> bool}.
    Context (CP : pcontract P uP reqP) (CF : pcontract F uF reqF).
    (** static_assert of fallback.h:27, and the primary part has no handle *)
    Context (HO : p_owns P <> None) (HuP : uP = false).

    Definition pfallback_pcontract : pcontract (pfallback U P F) (uP || uF) (fun n => (0 <? n) && reqP n && reqF n).
    Proof using CP CF HO HuP.
      refine {| JP := pp_J CP CF nonempty nonempty : N -> p_st (pfallback U P F) -> _;
                pmv := pp_mv CP CF; prdy := pp_rdy CP CF : N -> N -> p_st (pfallback U P F) * _ -> _ |}.
      - exact (pp_size CP CF).
      - exact (pp_perm CP CF _ _).
      - exact (pp_uses CP CF _ _).
      - exact (pp_good CP CF _ _).
      - exact (pp_wp_init CP CF _ _).
      - exact (pp_wp_dtor CP CF _ _).
      - intros ub b l u S T R n Hn HW. rewrite !andb_true_iff in Hn. destruct Hn as [[Hn0 HnP] HnF].
        iIntros "[(%S1 & %S2 & %T1 & %T2 & (%H1&%H2&%H3&%H4) & HP & HF) HU]". cbn [Upstream.p_alloc pfallback]. unfold pfb_alloc.
        iEval (rewrite (left_view _ _ _ _ _ _ H2)) in "HU".
        iApply wp_bind. iApply wp_strong_mono. iSplitL "HP HU"; [by iApply (k_alloc _ _ _ CP _ _ _ _ _ _ _ _ HnP HW); iFrame|].
        iIntros ([p [lp u1]]) "(%T1' & HU & [[%Hp HP]|(%Hp & Hr & HP)])"; cbn [fst snd] in *.
        + subst p. cbn [N.eqb]. unfold prim_set, fall. cbn [fst snd].
          iEval (rewrite -(left_view _ _ _ T1' T2 _ (Permutation_refl _)) (right_view _ _ _ T1' T2 _ (Permutation_refl _))) in "HU".
          iApply wp_bind. iApply wp_strong_mono.
          iSplitL "HF HU"; [by iApply (k_alloc _ _ _ CF _ _ _ _ _ _ _ _ HnF HW); iFrame|].
          iIntros ([p [lf u2]]) "(%T2' & HU & [[%Hp HF]|(%Hp & Hr & HF)])"; cbn [fst snd] in *; iApply wp_ret; cbn [fst snd];
            iExists (T1' ++ T2'); iEval (rewrite -(right_view _ _ _ T1' T2' _ (Permutation_refl _))) in "HU"; iFrame "HU".
          * iLeft. iSplit; [done|]. iApply pp_J_intro; [done..|iFrame].
          * iRight. iSplit; [done|]. iFrame "Hr". iApply (pp_J_intro _ _ _ _ _ _ _ _ _ S1 ((p, n) :: S2)); last iFrame.
            -- by rewrite -Permutation_middle -H1.
            -- done.
            -- done.
            -- constructor; [|done]. unfold nonempty. cbn [snd]. lia.
        + destruct (p =? 0) eqn:E; [lia|]. iApply wp_ret. unfold prim_set. cbn [fst snd]. iExists (T1' ++ T2).
          iEval (rewrite -(left_view _ _ _ T1' T2 _ (Permutation_refl _))) in "HU". iFrame "HU". iRight. iSplit; [done|]. iFrame "Hr".
          iApply (pp_J_intro _ _ _ _ _ _ _ _ _ ((p, n) :: S1) S2); last iFrame.
          * by rewrite H1.
          * done.
          * constructor; [|done]. unfold nonempty. cbn [snd]. lia.
          * done.
      - intros ub b l u p cs L T LR Hd. iIntros "(HJ & HU & Hc & HL & HLR)". iDestruct (pp_good with "[$HJ $HU]") as %HG.
        iDestruct "HJ" as "(%S1 & %S2 & %T1 & %T2 & (%H1&%H2&%H3&%H4) & HP & HF)".
        cbn [Upstream.p_free pfallback]. unfold pfb_free. destruct (p_owns P) as [oP|] eqn:EO; [|done].
        change (bsize (p, cs) :: shape L) with (shape ((p, cs) :: L)) in H1.
        assert (Hne : 0 < N.of_nat (length cs)).
        { assert (bsize (p, cs) ∈ S1 ++ S2) as Hin by (rewrite -H1; left).
          apply elem_of_app in Hin as [Hin|Hin]; apply elem_of_list_In in Hin.
          - rewrite List.Forall_forall in H3. by apply H3 in Hin.
          - rewrite List.Forall_forall in H4. by apply H4 in Hin. }
        apply shape_split in H1 as (L1&L2&HL&<-&<-). unfold prim, fall. cbn [fst snd].
        apply perm_cons_app in HL as [(L1'&HL1&HL)|(L2'&HL2&HL)].
        + iDestruct (k_perm _ _ _ CP _ _ _ _ _ _ (shape_perm _ _ HL1) (Permutation_refl _) with "HP") as "HP".
          rewrite (shape_perm _ _ HL1) in H3. rewrite shape_cons in H3.
          iEval (rewrite (left_view _ _ _ _ _ _ H2)) in "HU".
          iDestruct (k_owns_in _ _ _ CP _ _ _ _ _ _ _ _ EO with "[$HP $HU]") as %HP.
          rewrite (HP p (N.of_nat (length cs)) p); [|by left|lia].
          iEval (rewrite (blocks_perm _ _ HL) blocks_app) in "HL". iDestruct "HL" as "[HL1 HL2]".
          iDestruct (k_open _ _ _ CF with "[$HF $HL2]") as (LT) "(%HT & HLT & Hback)". subst T2.
          iApply wp_bind. iApply wp_strong_mono. iSplitL "HP HL1 Hc HU HLT HLR".
          { iApply (k_free _ _ _ CP _ _ _ _ _ _ L1' _ (LT ++ LR)); [done|]. rewrite shape_app blocks_app. iFrame. }
          iIntros ([lp u']) "(%T1' & HP & HU & HL1 & HLR)". rewrite blocks_app shape_app. iDestruct "HLR" as "[HLT HLR]".
          iDestruct ("Hback" with "HLT") as "[HF HL2]". iApply wp_ret. unfold prim_set. cbn [fst snd].
          iExists (T1' ++ shape LT). rewrite (blocks_perm _ _ HL) blocks_app. iFrame "HL1 HL2 HLR".
          iEval (rewrite -(left_view _ _ _ T1' (shape LT) _ (Permutation_refl _))) in "HU". iFrame "HU".
          iApply (pp_J_intro _ _ _ _ _ _ _ _ _ (shape L1') (shape L2)); last iFrame.
          * rewrite -shape_app. by apply shape_perm.
          * done.
          * by apply Forall_cons_iff in H3 as [_ H3].
          * done.
        + iDestruct (k_perm _ _ _ CF _ _ _ _ _ _ (shape_perm _ _ HL2) (Permutation_refl _) with "HF") as "HF".
          rewrite (shape_perm _ _ HL2) in H4. rewrite shape_cons in H4.
          iEval (rewrite (blocks_perm _ _ HL) blocks_app) in "HL". iDestruct "HL" as "[HL1 HL2]".
          destruct (pts_head p cs ltac:(lia)) as (d&cs'&Hcs&Heq).
          assert (p <> 0) as Hp0. { apply Forall_cons_iff in HG as [HG _]. apply HG. }
          iAssert ⌜oP ub b (fst l, u) p = false⌝%I as %->.
          { iEval (rewrite Heq) in "Hc". iDestruct "Hc" as "[Hd Hc]".
            iDestruct (k_owns_out _ _ _ CP _ ub _ _ u L1 _ [] p d EO Hp0 with "[$HP $HL1 $Hd]") as %HOut; [|by iPureIntro].
            rewrite HuP. done. }
          iEval (rewrite (right_view _ _ _ _ _ _ H2)) in "HU".
          iDestruct (k_open _ _ _ CP with "[$HP $HL1]") as (LT) "(%HT & HLT & Hback)". subst T1.
          iApply wp_bind. iApply wp_strong_mono. iSplitL "HF HL2 Hc HU HLT HLR".
          { iApply (k_free _ _ _ CF _ _ _ _ _ _ L2' _ (LT ++ LR)); [done|]. rewrite shape_app blocks_app. iFrame. }
          iIntros ([lf u']) "(%T2' & HF & HU & HL2 & HLR)". rewrite blocks_app shape_app. iDestruct "HLR" as "[HLT HLR]".
          iDestruct ("Hback" with "HLT") as "[HP HL1]". iApply wp_ret. unfold fall_set. cbn [fst snd].
          iExists (shape LT ++ T2'). rewrite (blocks_perm _ _ HL) blocks_app. iFrame "HL1 HL2 HLR".
          iEval (rewrite -(right_view _ _ _ (shape LT) T2' _ (Permutation_refl _))) in "HU". iFrame "HU".
          iApply (pp_J_intro _ _ _ _ _ _ _ _ _ (shape L1) (shape L2')); last iFrame.
          * rewrite -shape_app. by apply shape_perm.
          * done.
          * done.
          * by apply Forall_cons_iff in H4 as [_ H4].
      - exact (pp_open CP CF _ _).
      - exact (pp_where CP CF _ _).
      - exact (pp_owns_in CP CF _ _).
      - exact (pp_owns_up CP CF).
      - exact (pp_owns_out CP CF _ _).
      - exact (pp_max CP CF _ _).
      - exact (pp_bound CP CF _ _).
      - exact (pp_cd CP CF _ _).
    Defined.
  End fallback.

  Section segragator.
    Context {P F : part} {uP uF : bool} {reqP reqF : N -> bool}.
    Context (CP : pcontract P uP reqP) (CF : pcontract F uF reqF) (Th : N).

    Definition psegragator_pcontract :
      pcontract (psegragator U P F Th) (uP || uF) (fun n => if n <=? Th then reqP n else reqF n).
    Proof using CP CF.
      refine {| JP := pp_J CP CF (seg_low Th) (seg_high Th) : N -> p_st (psegragator U P F Th) -> _;
                pmv := pp_mv CP CF; prdy := pp_rdy CP CF : N -> N -> p_st (psegragator U P F Th) * _ -> _ |}.
      - exact (pp_size CP CF).
      - exact (pp_perm CP CF _ _).
      - exact (pp_uses CP CF _ _).
      - exact (pp_good CP CF _ _).
      - exact (pp_wp_init CP CF _ _).
      - exact (pp_wp_dtor CP CF _ _).
      - intros ub b l u S T R n Hn HW.
        iIntros "[(%S1 & %S2 & %T1 & %T2 & (%H1&%H2&%H3&%H4) & HP & HF) HU]". cbn [Upstream.p_alloc psegragator]. unfold pseg_alloc.
        destruct (n <=? Th) eqn:E.
        + iEval (rewrite (left_view _ _ _ _ _ _ H2)) in "HU".
          iApply wp_bind. iApply wp_strong_mono. iSplitL "HP HU"; [by iApply (k_alloc _ _ _ CP _ _ _ _ _ _ _ _ Hn HW); iFrame|].
          iIntros ([p [lp u1]]) "(%T1' & HU & [[%Hp HP]|(%Hp & Hr & HP)])"; cbn [fst snd] in *; iApply wp_ret;
            unfold prim_set; cbn [fst snd]; iExists (T1' ++ T2);
            iEval (rewrite -(left_view _ _ _ T1' T2 _ (Permutation_refl _))) in "HU"; iFrame "HU".
          * iLeft. iSplit; [done|]. iApply pp_J_intro; [done..|iFrame].
          * iRight. iSplit; [done|]. iFrame "Hr".
            iApply (pp_J_intro _ _ _ _ _ _ _ _ _ ((p, n) :: S1) S2); last iFrame.
            -- by rewrite H1.
            -- done.
            -- constructor; [|done]. unfold seg_low. cbn [snd]. lia.
            -- done.
        + iEval (rewrite (right_view _ _ _ _ _ _ H2)) in "HU".
          iApply wp_bind. iApply wp_strong_mono. iSplitL "HF HU"; [by iApply (k_alloc _ _ _ CF _ _ _ _ _ _ _ _ Hn HW); iFrame|].
          iIntros ([p [lf u1]]) "(%T2' & HU & [[%Hp HF]|(%Hp & Hr & HF)])"; cbn [fst snd] in *; iApply wp_ret;
            unfold fall_set; cbn [fst snd]; iExists (T1 ++ T2');
            iEval (rewrite -(right_view _ _ _ T1 T2' _ (Permutation_refl _))) in "HU"; iFrame "HU".
          * iLeft. iSplit; [done|]. iApply pp_J_intro; [done..|iFrame].
          * iRight. iSplit; [done|]. iFrame "Hr".
            iApply (pp_J_intro _ _ _ _ _ _ _ _ _ S1 ((p, n) :: S2)); last iFrame.
            -- by rewrite -Permutation_middle -H1.
            -- done.
            -- done.
            -- constructor; [|done]. unfold seg_high. cbn [snd]. lia.
      - intros ub b l u p cs L T LR Hd.
        iIntros "((%S1 & %S2 & %T1 & %T2 & (%H1&%H2&%H3&%H4) & HP & HF) & HU & Hc & HL & HLR)".
        cbn [Upstream.p_free psegragator]. unfold pseg_free, prim, fall. cbn [fst snd].
        change (bsize (p, cs) :: shape L) with (shape ((p, cs) :: L)) in H1.
        apply shape_split in H1 as (L1&L2&HL&<-&<-).
        apply perm_cons_app in HL as [(L1'&HL1&HL)|(L2'&HL2&HL)].
        + iDestruct (k_perm _ _ _ CP _ _ _ _ _ _ (shape_perm _ _ HL1) (Permutation_refl _) with "HP") as "HP".
          rewrite (shape_perm _ _ HL1) in H3. rewrite shape_cons in H3.
          apply Forall_cons_iff in H3 as [Hlow H3]. unfold seg_low in Hlow. cbn [bsize fst snd] in Hlow.
          destruct (N.of_nat (length cs) <=? Th) eqn:E; [|lia].
          iEval (rewrite (left_view _ _ _ _ _ _ H2)) in "HU".
          iEval (rewrite (blocks_perm _ _ HL) blocks_app) in "HL". iDestruct "HL" as "[HL1 HL2]".
          iDestruct (k_open _ _ _ CF with "[$HF $HL2]") as (LT) "(%HT & HLT & Hback)". subst T2.
          iApply wp_bind. iApply wp_strong_mono. iSplitL "HP HL1 Hc HU HLT HLR".
          { iApply (k_free _ _ _ CP _ _ _ _ _ _ L1' _ (LT ++ LR)); [done|]. rewrite shape_app blocks_app. iFrame. }
          iIntros ([lp u']) "(%T1' & HP & HU & HL1 & HLR)". rewrite blocks_app shape_app. iDestruct "HLR" as "[HLT HLR]".
          iDestruct ("Hback" with "HLT") as "[HF HL2]". iApply wp_ret. unfold prim_set. cbn [fst snd].
          iExists (T1' ++ shape LT). rewrite (blocks_perm _ _ HL) blocks_app. iFrame "HL1 HL2 HLR".
          iEval (rewrite -(left_view _ _ _ T1' (shape LT) _ (Permutation_refl _))) in "HU". iFrame "HU".
          iApply (pp_J_intro _ _ _ _ _ _ _ _ _ (shape L1') (shape L2)); last iFrame; [|done..].
          rewrite -shape_app. by apply shape_perm.
        + iDestruct (k_perm _ _ _ CF _ _ _ _ _ _ (shape_perm _ _ HL2) (Permutation_refl _) with "HF") as "HF".
          rewrite (shape_perm _ _ HL2) in H4. rewrite shape_cons in H4.
          apply Forall_cons_iff in H4 as [Hhigh H4]. unfold seg_high in Hhigh. cbn [bsize fst snd] in Hhigh.
          destruct (N.of_nat (length cs) <=? Th) eqn:E; [lia|].
          iEval (rewrite (right_view _ _ _ _ _ _ H2)) in "HU".
          iEval (rewrite (blocks_perm _ _ HL) blocks_app) in "HL". iDestruct "HL" as "[HL1 HL2]".
          iDestruct (k_open _ _ _ CP with "[$HP $HL1]") as (LT) "(%HT & HLT & Hback)". subst T1.
          iApply wp_bind. iApply wp_strong_mono. iSplitL "HF HL2 Hc HU HLT HLR".
          { iApply (k_free _ _ _ CF _ _ _ _ _ _ L2' _ (LT ++ LR)); [done|]. rewrite shape_app blocks_app. iFrame. }
          iIntros ([lf u']) "(%T2' & HF & HU & HL2 & HLR)". rewrite blocks_app shape_app. iDestruct "HLR" as "[HLT HLR]".
          iDestruct ("Hback" with "HLT") as "[HP HL1]". iApply wp_ret. unfold fall_set. cbn [fst snd].
          iExists (shape LT ++ T2'). rewrite (blocks_perm _ _ HL) blocks_app. iFrame "HL1 HL2 HLR".
          iEval (rewrite -(right_view _ _ _ (shape LT) T2' _ (Permutation_refl _))) in "HU". iFrame "HU".
          iApply (pp_J_intro _ _ _ _ _ _ _ _ _ (shape L1) (shape L2')); last iFrame; [|done..].
          rewrite -shape_app. by apply shape_perm.
      - exact (pp_open CP CF _ _).
      - exact (pp_where CP CF _ _).
      - exact (pp_owns_in CP CF _ _).
      - exact (pp_owns_up CP CF).
      - exact (pp_owns_out CP CF _ _).
      - exact (pp_max CP CF _ _).
      - exact (pp_bound CP CF _ _).
      - exact (pp_cd CP CF _ _).
    Defined.
  End segragator.

  (** * freelist *)
  Section freelist.
    Context {P : part} {uP : bool} {req : N -> bool} (CP : pcontract P uP req) (Min Max : N).
    Context (HMax : 8 <= Max) (HW : Max < W).
    Local Notation stt := (p_st P * N)%type.

    Definition pfl_J (b : N) (s : stt) (S T : list (N * N)) : hpropI :=
      ∃ C, ⌈Forall (inrange Min Max) S⌉ ∗ JP CP b (fst s) (fl_inner Max C S) T ∗ chain Max (snd s) C ∗ slack Max S.

    Lemma pfl_view b l h L T : pfl_J b (l, h) (shape L) T ∗ blocks L ⊢
      ∃ L', JP CP b l (shape L') T ∗ blocks L' ∗
        ⌈Forall (inrange Min Max) (shape L) /\ forall x, x ∈ shape L -> (fst x, Max) ∈ shape L'⌉ ∗
        (blocks L' -∗ blocks L ∗ (∀ l', JP CP b l' (shape L') T -∗ pfl_J b (l', h) (shape L) T)).
    Proof using HMax HW.
      iIntros "[(%C & %Hr & HJ & Hch & Hsl) HL]". cbn [fst snd].
      rewrite (chain_open Max HMax HW). iDestruct "Hch" as (L1) "(%H1 & HL1 & Hb1)".
      iDestruct (slack_open Min Max HMax HW with "[$HL $Hsl]") as (L2) "(%H2 & HL2 & Hb2)"; [done|].
      iExists (L1 ++ L2). rewrite blocks_app shape_app H1 H2. iFrame "HJ HL1 HL2". iSplit.
      { iPureIntro. split; [done|]. intros x Hin. apply elem_of_app. right. apply elem_of_list_fmap. by exists x. }
      iIntros "[HL1 HL2]". iDestruct ("Hb1" with "HL1") as "Hch". iDestruct ("Hb2" with "HL2") as "[$ Hsl]".
      iIntros (s') "HJ". iExists C. by iFrame.
    Qed.

    Lemma inside_widened q L L' : Forall (inrange Min Max) (shape L) -> (forall x, x ∈ shape L -> (fst x, Max) ∈ shape L') ->
      inside q (shape L) -> inside q (shape L').
    Proof.
      intros Hr Hin' (p&n&Hp&Hq). exists p, Max. split; [by apply (Hin' (p, n))|].
      rewrite List.Forall_forall in Hr. specialize (Hr (p, n)). rewrite -elem_of_list_In in Hr.
      specialize (Hr Hp). unfold inrange in Hr. cbn [fst snd] in Hr. lia.
    Qed.

    Lemma pfl_good ub b s u S T R : pfl_J b s S T ∗ J CU ub u (T ++ R) ⊢ ⌜Forall good S⌝.
    Proof.
      iIntros "[(%C & %Hr & HJ & Hch & Hsl) HU]". iDestruct (k_good _ _ _ CP with "[$HJ $HU]") as %Hg. iPureIntro.
      unfold fl_inner in Hg. apply Forall_app in Hg as [_ Hg].
      rewrite List.Forall_forall in Hr. rewrite List.Forall_forall in Hg. rewrite List.Forall_forall.
      intros [p n] Hin. specialize (Hr _ Hin). specialize (Hg (p, Max)).
      unfold good, inrange in *. cbn [fst snd] in *.
      destruct Hg as (?&?&?); [|repeat split; lia || done].
      apply in_map_iff. by exists (p, n).
    Qed.

    Lemma pfl_release_spec ub fuel b l u h C T LR : (length C < fuel)%nat ->
      (JP CP b l (map (fun p => (p, Max)) C) T ∗ chain Max h C) ∗ J CU ub u (T ++ shape LR) ∗ blocks LR
      ⊢ wp bad (fl_release Max (inner U P ub) fuel b (l, u) h) (fun s' =>
        ∃ T', JP CP b (fst s') [] T' ∗ J CU ub (snd s') (T' ++ shape LR) ∗ blocks LR).
    Proof using HMax HW.
      revert fuel l u h T. induction C as [|p C IH]; intros fuel l u h T Hf;
        (destruct fuel as [|fuel]; [cbn [length] in Hf; lia|]); cbn [chain fl_release].
      - iIntros "([HJ %Hh] & HU & HLR)". rewrite Hh. cbn [N.eqb]. iApply wp_ret. cbn [fst snd]. iExists T. iFrame.
      - iIntros "([HJ (%nxt & (%Hh & %Hn) & Hp & Hr & Hch)] & HU & HLR)". subst p.
        iDestruct (k_good _ _ _ CP with "[$HJ $HU]") as %Hg. apply Forall_cons_iff in Hg as [(Hg1&_&_) _].
        cbn [fst] in Hg1. rewrite (proj2 (N.eqb_neq _ _) Hg1).
        iApply wp_bind. iApply (wp_rd_ptr _ _ nxt); [done|]. iFrame "Hp". iIntros "Hp".
        iDestruct "Hr" as (cs) "[(%Hl & %Hd) Hr]".
        rewrite (chain_open Max HMax HW). iDestruct "Hch" as (L) "(%HL & HL & Hback)".
        iApply wp_bind. iApply wp_strong_mono. iSplitL "HJ Hp Hr HL HU HLR".
        { iPoseProof (k_free _ _ _ CP ub b l u h (enc 8 nxt ++ cs) L T LR) as "H".
          { apply Forall_app. split; [apply enc_dead|done]. }
          replace (N.of_nat (length (enc 8 nxt ++ cs))) with Max; [|rewrite app_length enc_length; lia].
          iApply "H". rewrite pts_app enc_length. iFrame.
          replace (bsize (h, enc 8 nxt ++ cs)) with (h, Max); [by rewrite HL|].
          unfold bsize. cbn [fst snd]. rewrite app_length enc_length. f_equal. lia. }
        iIntros ([l' u']) "(%T' & HJ & HU & HL & HLR)". cbn [fst snd]. rewrite HL. iApply IH; [cbn [length] in Hf; lia|].
        iFrame. by iApply "Hback".
    Qed.

    Definition pfreelist_pcontract : pcontract (pfreelist U Min Max P) uP (fun n => negb (fl_range Min Max n) || req Max).
    Proof using CP HMax HW.
      refine {| JP := pfl_J : N -> p_st (pfreelist U Min Max P) -> _; pmv := pmv CP;
                prdy := (fun ub b s => prdy CP ub b (fst (fst s), snd s)) : N -> N -> p_st (pfreelist U Min Max P) * _ -> _ |}.
      - exact (k_size _ _ _ CP).
      - iIntros (b s S S' T T' HS HT) "(%C & %Hr & HJ & Hch & Hsl)". iExists C.
        rewrite (k_perm _ _ _ CP b _ (fl_inner Max C S) (fl_inner Max C S') T T'); [|unfold fl_inner; by rewrite HS|done].
        unfold slack. rewrite {1}HS. iFrame. iPureIntro. by rewrite -HS.
      - iIntros (b l S T Hu) "(%C & %Hr & HJ & Hch & Hsl)". by iApply (k_uses _ _ _ CP with "HJ").
      - apply pfl_good.
      - intros b H1 H2 H3. cbn [pfreelist Upstream.p_init Upstream.p_size]. iIntros "H". iApply wp_bind. iApply wp_strong_mono.
        iSplitL; [by iApply (k_init _ _ _ CP)|]. iIntros (s) "HJ". iApply wp_ret. iExists [].
        cbn [fst snd chain]. iFrame "HJ". unfold slack. rewrite big_sepL_nil. iSplit; [iPureIntro; constructor|].
        by iSplit.
      - intros ub b [l h] u T LR. iIntros "((%C & _ & HJ & Hch & Hsl) & HU & HLR)". unfold fl_inner. rewrite app_nil_r.
        iEval (unfold slack; rewrite big_sepL_nil) in "Hsl". iDestruct "Hsl" as "_". cbn [fst snd].
        iAssert ((JP CP b l (map (fun p => (p, Max)) C) T ∗ chain Max h C) ∗ J CU ub u (T ++ shape LR) ∗ blocks LR)%I
          with "[HJ Hch HU HLR]" as "H"; [iFrame|].
        iStopProof. apply (wp_fuel _ (fun k => s' <- fl_release Max (inner U P ub) (S k) b (l, u) h ;; p_dtor P ub b s') _ _ (length C)).
        + iIntros "[[H1 H2] H3]". rewrite (chain_memsize Max HMax HW). iApply memsize_frame. iFrame "H2". iCombine "H1 H3" as "H". iApply "H".
        + intros k Hk. iIntros "H". iApply wp_bind. iApply wp_strong_mono. iSplitL "H".
          { iApply pfl_release_spec; [|done]. lia. }
          iIntros ([l' u']) "(%T' & HJ & HU & HLR)". iApply (k_dtor _ _ _ CP). iFrame.
      - intros ub b [l h] u S T R n Hreq Hn. cbn [pfreelist Upstream.p_alloc]. unfold fl_alloc, fl_in. cbn [fst snd f_in f_head].
        destruct (fl_range Min Max n) eqn:Hr.
        2:{ iIntros "[H HU]". iApply wp_bind. iApply wp_ret. iApply wp_ret. cbn [fst snd fl_out f_in f_head]. iExists T. iFrame.
            iLeft. by iFrame. }
        apply (fl_range_spec Min Max HMax HW) in Hr. cbn [negb orb] in Hreq.
        iIntros "[(%C & %HS & HJ & Hch & Hsl) HU]". cbn [fst snd]. destruct C as [|p C]; cbn [chain].
        + iDestruct "Hch" as %Hh. rewrite Hh. cbn [N.eqb a_alloc inner].
          iApply wp_bind. iApply wp_bind. iApply wp_strong_mono.
          iSplitL "HJ HU"; [by iApply (k_alloc _ _ _ CP _ _ _ _ _ _ _ _ Hreq HW); iFrame|].
          iIntros ([q [l' u']]) "(%T' & HU & [[%Hq HJ]|(%Hq & Hraw & HJ)])"; cbn [fst snd] in *; iApply wp_ret; iApply wp_ret;
            unfold fl_out; cbn [fst snd f_in f_head]; iExists T'; iFrame "HU".
          * iLeft. iSplit; [done|]. iExists []. cbn [fst snd chain]. by iFrame.
          * iRight. iSplit; [done|].
            rewrite (raw_split q Max n); [|lia]. iDestruct "Hraw" as "[$ Hraw]".
            iExists []. cbn [fst snd chain]. rewrite slack_cons. cbn [fst snd].
            iFrame. iSplit; [|done]. iPureIntro. apply Forall_cons_iff. done.
        + iDestruct "Hch" as (nxt) "((%Hh & %Hnx) & Hp & Hraw & Hch)". subst p.
          iDestruct (k_good _ _ _ CP with "[$HJ $HU]") as %Hg. apply Forall_cons_iff in Hg as [(Hg1&_&_) _].
          cbn [fst] in Hg1. rewrite (proj2 (N.eqb_neq _ _) Hg1).
          iApply wp_bind. iApply wp_bind. iApply (wp_rd_ptr _ _ nxt); [done|]. iFrame "Hp". iIntros "Hp".
          iApply wp_ret. iApply wp_ret. unfold fl_out. cbn [fst snd f_in f_head]. iExists T. iFrame "HU". iRight. iSplit; [done|].
          iAssert (raw h Max) with "[Hp Hraw]" as "Hraw".
          { rewrite (raw_split _ Max 8); [|lia]. iFrame. iApply (raw_intro _ _ (enc 8 nxt)); [by rewrite enc_length|apply enc_dead|done]. }
          rewrite (raw_split _ Max n); [|lia]. iDestruct "Hraw" as "[$ Hraw]".
          iExists C. cbn [fst snd]. rewrite slack_cons. cbn [fst snd].
          iFrame. iSplit; [iPureIntro; by apply Forall_cons_iff|].
          iApply (k_perm _ _ _ CP with "HJ"); [|done]. unfold fl_inner. rewrite !List.map_cons. cbn [fst].
          rewrite -app_comm_cons. apply Permutation_middle.
      - intros ub b [l h] u p cs L T LR Hd. iIntros "(HJ & HU & Hp & HL & HLR)". iDestruct (pfl_good with "[$HJ $HU]") as %Hg.
        apply Forall_cons_iff in Hg as [(Hg1&_&_) _]. cbn [bsize fst snd] in Hg1.
        iDestruct "HJ" as (C) "(%Hr & HJ & Hch & Hsl)". apply Forall_cons_iff in Hr as [Hr0 Hr]. cbn [fst snd].
        cbn [pfreelist Upstream.p_free]. unfold fl_free, fl_in. cbn [fst snd f_in f_head].
        rewrite (proj2 (N.eqb_neq _ _) Hg1). cbn [negb].
        iApply wp_bind. iApply wp_bind. iApply wp_assert; [done|].
        assert (Hr1 := Hr0). apply (fl_range_spec Min Max HMax HW) in Hr1. cbn [bsize fst snd] in Hr1. rewrite Hr1. cbn [andb].
        rewrite slack_cons. cbn [bsize fst snd]. iDestruct "Hsl" as "[Hs0 Hsl]".
        unfold inrange in Hr0. cbn [bsize fst snd] in Hr0.
        iAssert (raw p Max) with "[Hp Hs0]" as "Hraw".
        { rewrite (raw_split _ Max (N.of_nat (length cs))); [|lia]. iFrame. by iApply raw_intro. }
        rewrite (raw_split _ Max 8); [|lia]. iDestruct "Hraw" as "[(%ds & (%Hl8 & %Hd8) & H8) Hraw]".
        iApply wp_bind.
        iAssert ⌜h < W⌝%I with "[HJ Hch HU]" as %HhW.
        { destruct C as [|q C]; cbn [chain]; [iDestruct "Hch" as %->; done|].
          iDestruct "Hch" as (nxt) "((-> & %) & H)". iDestruct (k_good _ _ _ CP with "[$HJ $HU]") as %Hg.
          apply Forall_cons_iff in Hg as [(_&_&?) _]. iPureIntro. cbn [fst snd] in *. lia. }
        iApply (wp_wr_ptr _ _ _ ds); [lia|]. iFrame "H8". iIntros "H8".
        iApply wp_ret. iApply wp_ret. unfold fl_out. cbn [fst snd f_in f_head]. iExists T. iFrame "HL HU HLR".
        iExists (p :: C). cbn [fst snd chain]. iFrame "Hsl".
        iSplit; [done|]. iSplitL "HJ".
        + iApply (k_perm _ _ _ CP with "HJ"); [|done]. unfold fl_inner. rewrite !List.map_cons. cbn [bsize fst].
          rewrite -app_comm_cons. symmetry. apply Permutation_middle.
        + iExists h. by iFrame.
      - iIntros (b [l h] L T) "[HJ HL]".
        iDestruct (pfl_view with "[$HJ $HL]") as (L') "(HJ & HL & _ & Hback)".
        iDestruct (k_open _ _ _ CP with "[$HJ $HL]") as (LT) "(%HT & HLT & Hb)". iExists LT. iSplit; [done|]. iFrame "HLT".
        iIntros "HLT". iDestruct ("Hb" with "HLT") as "[HJ HL]". iDestruct ("Hback" with "HL") as "[$ Hback]". by iApply "Hback".
      - iIntros (b [l h] L T q Hq) "[HJ HL]".
        iDestruct (pfl_view with "[$HJ $HL]") as (L') "(HJ & HL & [%Hr %Hin] & Hback)".
        iDestruct (k_where _ _ _ CP _ _ L' T q with "[$HJ $HL]") as "[%H|(%LT & %c & %HT & HLT & Hc & _)]".
        + by eapply inside_widened.
        + by iLeft.
        + iRight. iExists LT, c. iSplit; [done|]. iFrame.
      - intros o ub b [l h] u S T R Ho. cbn [pfreelist Upstream.p_owns] in Ho. destruct (p_owns P) as [oP|] eqn:HoP; [|done].
        injection Ho as <-. iIntros "[(%C & %Hr & HJ & Hch & Hsl) HU]". cbn [fst snd].
        iDestruct (k_owns_in _ _ _ CP _ _ _ _ _ _ _ _ HoP with "[$HJ $HU]") as %HO. iPureIntro. intros p n q Hin Hq.
        rewrite List.Forall_forall in Hr. specialize (Hr (p, n)). rewrite -elem_of_list_In in Hr.
        specialize (Hr Hin). unfold inrange in Hr. cbn [fst snd] in Hr.
        apply (HO p Max); [|lia]. apply elem_of_app. right. apply elem_of_list_fmap. by exists (p, n).
      - intros o ub b [l h] u X Ho. cbn [pfreelist Upstream.p_owns] in Ho. destruct (p_owns P) as [oP|] eqn:HoP; [|done].
        injection Ho as <-. exact (k_owns_up _ _ _ CP _ _ _ _ _ _ HoP).
      - intros o ub b [l h] u L T LR q c Ho Hq. cbn [pfreelist Upstream.p_owns] in Ho. destruct (p_owns P) as [oP|] eqn:HoP; [|done].
        injection Ho as <-. iIntros "(HJ & HL & Hc & HU)". cbn [fst snd].
        iDestruct (pfl_view with "[$HJ $HL]") as (L') "(HJ & HL & _ & _)".
        iDestruct (k_owns_out _ _ _ CP _ _ _ _ _ _ _ _ _ _ HoP Hq with "[$HJ $HL $Hc $HU]") as %HO. by iPureIntro.
      - intros mx ub b [l h] u S T R Hmx Hrdy. cbn [pfreelist Upstream.p_max] in Hmx. destruct (p_max P) as [mP|] eqn:HmP; [|done].
        injection Hmx as <-. iIntros "[(%C & %Hr & HJ & Hch & Hsl) HU]". cbn [fst snd] in *.
        iApply wp_strong_mono. iSplitL "HJ HU"; [by iApply (k_max _ _ _ CP _ _ _ _ _ _ _ _ HmP Hrdy); iFrame|].
        iIntros (v) "($ & HJ & $)". iExists C. by iFrame.
      - intros ub b [l h] u S T R Hm. cbn [pfreelist Upstream.p_max] in Hm. iIntros "[(%C & %Hr & HJ & Hch & Hsl) HU]". cbn [fst snd].
        iDestruct (k_bound _ _ _ CP with "[$HJ $HU]") as %HB; [by destruct (p_max P)|]. iPureIntro.
        unfold fl_inner in HB. apply Forall_app in HB as [_ HB].
        rewrite List.Forall_forall in Hr. rewrite List.Forall_forall in HB. rewrite List.Forall_forall. intros [p n] Hin.
        specialize (Hr _ Hin). specialize (HB (p, Max)). unfold inrange in Hr. cbn [fst snd] in *.
        enough (Max <= pmv CP) by lia. apply HB. apply in_map_iff. by exists (p, n).
      - intros o c ub b [l h] u L T LR q act R Ho Hin. cbn [pfreelist Upstream.p_cd] in Ho. destruct (p_cd P) as [oP|] eqn:HoP; [|done].
        injection Ho as <-. iIntros "(HJ & HU & HL & HLR & Hact)". cbn [fst snd].
        iDestruct (pfl_view with "[$HJ $HL]") as (L') "(HJ & HL & [%Hr %Hin'] & Hback)".
        iApply wp_bind. iApply wp_strong_mono. iSplitL "HJ HU HL HLR Hact Hback".
        { iApply (k_cd _ _ _ CP _ c ub b l u L' T LR q act
             (fun _ => R tt ∗ ∀ l', JP CP b l' (shape L') T -∗ pfl_J b (l', h) (shape L) T) HoP)%I.
          - destruct Hin as [Hin|Hin]; [left; by eapply inside_widened|by right].
          - iFrame "HJ HU HL HLR". iIntros "[HL HLR]". iDestruct ("Hback" with "HL") as "[HL Hback]".
            iApply wp_strong_mono. iSplitL "HL HLR Hact"; [iApply "Hact"; iFrame|].
            iIntros ([]) "$". iFrame. }
        iIntros ([l' u']) "(HJ & HU & HR & Hback)". iApply wp_ret. cbn [fst snd]. iFrame. by iApply "Hback".
    Defined.
  End freelist.

  (** * overflow *)
  Section overflow.
    Context {P : part} {uP : bool} {req : N -> bool} (CP : pcontract P uP req).
    Local Notation stt := (p_st P * (Z * Z))%type.

    Definition pov_J (b : N) (s : stt) (S T : list (N * N)) : hpropI :=
      JP CP b (fst s) (map widen S) T ∗ guards S ∗ ⌈Forall (fun x => 64 < fst x) S⌉.

    Lemma pov_good ub b s u S T R : pov_J b s S T ∗ J CU ub u (T ++ R) ⊢ ⌜Forall good S⌝.
    Proof.
      iIntros "[(HJ & Hg & %H64) HU]". iDestruct (k_good _ _ _ CP with "[$HJ $HU]") as %Hg. iPureIntro.
      rewrite List.Forall_forall in Hg. rewrite List.Forall_forall in H64. rewrite List.Forall_forall.
      intros [p n] Hin. specialize (H64 _ Hin). specialize (Hg (widen (p, n))).
      unfold good, widen in *. cbn [fst snd] in *.
      destruct Hg as (?&?&?); [apply in_map_iff; by exists (p, n)|]. repeat split; lia.
    Qed.

    Lemma inside_guarded q L L' : Forall (fun x => 64 < fst x) (shape L) -> shape L' = map widen (shape L) ->
      inside q (shape L) -> inside q (shape L').
    Proof.
      intros H64 HL (p&n&Hp&Hq). exists (p - 64), (n + 128). split.
      - rewrite HL. apply elem_of_list_fmap. by exists (p, n).
      - rewrite List.Forall_forall in H64. specialize (H64 (p, n)). rewrite -elem_of_list_In in H64.
        specialize (H64 Hp). cbn [fst snd] in H64. lia.
    Qed.

    Definition poverflow_pcontract : pcontract (poverflow U P) uP (fun n => (n + 128 <? W) && req (n + 128)).
    Proof using CP.
      refine {| JP := pov_J : N -> p_st (poverflow U P) -> _; pmv := pmv CP;
                prdy := (fun ub b s => prdy CP ub b (fst (fst s), snd s)) : N -> N -> p_st (poverflow U P) * _ -> _ |}.
      - exact (k_size _ _ _ CP).
      - iIntros (b s S S' T T' HS HT) "(HJ & Hg & %H64)". unfold pov_J.
        rewrite (k_perm _ _ _ CP b _ (map widen S) (map widen S') T T'); [|by rewrite HS|done].
        unfold guards. rewrite {1}HS. iFrame. iPureIntro. by rewrite -HS.
      - iIntros (b l S T Hu) "(HJ & Hg & %H64)". by iApply (k_uses _ _ _ CP with "HJ").
      - apply pov_good.
      - intros b H1 H2 H3. cbn [poverflow Upstream.p_init Upstream.p_size]. iIntros "H". iApply wp_bind. iApply wp_strong_mono.
        iSplitL; [by iApply (k_init _ _ _ CP)|]. iIntros (s) "HJ". iApply wp_ret. unfold pov_J, guards.
        cbn [fst]. rewrite big_sepL_nil. iFrame. by iSplit.
      - intros ub b [l [na nc]] u T LR. cbn [poverflow Upstream.p_dtor Upstream.p_size]. unfold pov_dtor, pov_J, guards.
        rewrite big_sepL_nil. iIntros "((HJ & _ & _) & HU & HLR)". iApply wp_bind.
        iApply wp_emit_if; [done|]. iApply wp_bind. iApply wp_emit_if; [done|]. cbn [fst snd]. iApply (k_dtor _ _ _ CP). iFrame.
      - intros ub b [l [na nc]] u S T R n [HW Hreq]%andb_true_iff Hn. apply N.ltb_lt in HW.
        cbn [poverflow Upstream.p_alloc]. unfold ov_alloc, ov_into. cbn [fst snd o_in o_allocs o_cons a_alloc inner].
        change (OVERFLOW_SIZE * 2) with 128. change OVERFLOW_SIZE with 64. rewrite (add64_small n 128) //.
        iIntros "[(HJ & Hg & %H64) HU]".
        iApply wp_bind. iApply wp_bind. iApply wp_strong_mono.
        iSplitL "HJ HU"; [by iApply (k_alloc _ _ _ CP _ _ _ _ _ _ _ _ Hreq HW); iFrame|].
        iIntros ([q [l' u']]) "(%T' & HU & [[%Hq HJ]|(%Hq & Hraw & HJ)])"; cbn [fst snd] in *.
        + rewrite Hq. cbn [N.eqb]. iApply wp_ret. iApply wp_ret. unfold ov_out. cbn [fst snd o_in o_allocs o_cons].
          iExists T'. iFrame "HU". iLeft. iSplit; [done|]. by iFrame.
        + rewrite (proj2 (N.eqb_neq _ _) Hq).
          iDestruct (k_good _ _ _ CP with "[$HJ $HU]") as %Hg. apply Forall_cons_iff in Hg as [(Hg1&Hg2&Hg3) _].
          cbn [fst snd] in *.
          rewrite (add64_small q 64); [|lia]. rewrite (add64_small (q + 64) n); [|lia].
          rewrite (raw_split q (n + 128) 64); [|lia]. iDestruct "Hraw" as "[Hr1 Hraw]".
          replace (n + 128 - 64) with (n + 64) by lia.
          rewrite (raw_split (q + 64) (n + 64) n); [|lia]. iDestruct "Hraw" as "[Hr2 Hr3]".
          replace (n + 64 - n) with 64 by lia.
          iDestruct "Hr1" as (c1) "[(%Hl1 & %Hd1) H1]". iDestruct "Hr3" as (c3) "[(%Hl3 & %Hd3) H3]".
          iApply wp_bind. iApply (wp_memset _ _ _ _ c1); [done|]. iFrame "H1". iIntros "H1".
          iApply wp_bind. iApply (wp_memset _ _ _ _ c3); [done|]. iFrame "H3". iIntros "H3".
          iApply wp_ret. iApply wp_ret. unfold ov_out. cbn [fst snd o_in o_allocs o_cons].
          iExists T'. iFrame "HU". iRight. iSplit; [iPureIntro; lia|]. iFrame "Hr2".
          unfold pov_J. rewrite guards_cons List.map_cons. unfold gbytes, pat. cbn [fst snd].
          replace (widen (q + 64, n)) with (q, n + 128) by (unfold widen; cbn [fst snd]; f_equal; lia).
          rewrite map_repeat. replace (q + 64 - 64) with q by lia.
          change (N.to_nat 64) with 64%nat. iFrame. iPureIntro. apply Forall_cons_iff. split; [|done].
          cbn [fst]. lia.
      - intros ub b [l [na nc]] u p cs L T LR Hd. iIntros "(HJ & HU & Hp & HL & HLR)". iDestruct (pov_good with "[$HJ $HU]") as %Hg.
        apply Forall_cons_iff in Hg as [(Hg1&_&Hg3) _]. cbn [bsize fst snd] in *.
        iDestruct "HJ" as "(HJ & Hgs & %H64)". apply Forall_cons_iff in H64 as [H0 H64].
        cbn [bsize fst snd] in H0.
        rewrite guards_cons. iDestruct "Hgs" as "[[Hb Ha] Hgs]". cbn [bsize fst snd].
        iDestruct (k_good _ _ _ CP with "[$HJ $HU]") as %HgA. rewrite List.map_cons in HgA.
        apply Forall_cons_iff in HgA as [(_&_&HgA) _]. unfold widen in HgA. cbn [bsize fst snd] in HgA.
        cbn [poverflow Upstream.p_free]. iApply wp_bind.
        unfold ov_free, ov_into. cbn [fst snd o_in o_allocs o_cons a_free inner].
        change (OVERFLOW_SIZE * 2) with 128. change (N.to_nat OVERFLOW_SIZE) with (length pat).
        rewrite (proj2 (N.eqb_neq _ _) Hg1). cbn [negb].
        iApply wp_bind. iApply wp_assert; [done|].
        iApply wp_bind. rewrite sub64_small; [|lia..]. iApply wp_scan_before; [change (length pat) with 64%nat; lia|].
        change (N.of_nat (length pat)) with 64. replace (p + 1 - 1 - 64) with (p - 64) by lia.
        change (rev pat) with pat. iFrame "Hb". iIntros "Hb".
        iApply wp_bind. rewrite (add64_small p); [|lia].
        rewrite -(N.add_sub (p + N.of_nat (length cs)) 1).
        iApply wp_scan_after; [done|]. rewrite N.add_sub. iFrame "Ha". iIntros "Ha".
        unfold pat at 1 2. rewrite !far_repeat. cbn [N.eqb andb].
        iApply wp_bind. iApply wp_ret.
        change OVERFLOW_SIZE with 64. rewrite sub64_small; [|lia..]. rewrite add64_small; [|lia].
        iDestruct (guards_open with "[$HL $Hgs]") as (L') "(%HL & HL & Hback)"; [done|].
        iApply wp_bind. iApply wp_strong_mono. iSplitL "HJ Hb Hp Ha HL HU HLR".
        { iPoseProof (k_free _ _ _ CP ub b l u (p - 64) (map Byte pat ++ cs ++ map Byte pat) L' T LR) as "H".
          { rewrite !Forall_app. split_and!; [apply bytes_dead|done|apply bytes_dead]. }
          replace (N.of_nat (length (map Byte pat ++ cs ++ map Byte pat))) with (N.of_nat (length cs) + 128).
          2:{ rewrite !app_length map_length. change (length pat) with 64%nat. lia. }
          iApply "H". rewrite !pts_app !map_length. change (N.of_nat (length pat)) with 64.
          replace (p - 64 + 64) with p by lia. iFrame.
          replace (bsize (p - 64, map Byte pat ++ cs ++ map Byte pat)) with (widen (bsize (p, cs))).
          { rewrite HL. done. }
          unfold bsize, widen. cbn [fst snd]. rewrite !app_length map_length. change (length pat) with 64%nat.
          f_equal. lia. }
        iIntros ([l' u']) "(%T' & HJ & HU & HL & HLR)". iApply wp_ret. iApply wp_ret. unfold ov_out.
        cbn [fst snd o_in o_allocs o_cons]. iExists T'. iDestruct ("Hback" with "HL") as "[$ Hg]". iFrame "HU HLR".
        unfold pov_J. cbn [fst]. rewrite HL. by iFrame.
      - iIntros (b [l n] L T) "[(HJ & Hg & %H64) HL]". cbn [fst].
        iDestruct (guards_open with "[$HL $Hg]") as (L') "(%HL & HL & Hback)"; [done|]. rewrite -HL.
        iDestruct (k_open _ _ _ CP with "[$HJ $HL]") as (LT) "(%HT & HLT & Hb)". iExists LT. iSplit; [done|]. iFrame "HLT".
        iIntros "HLT". iDestruct ("Hb" with "HLT") as "[HJ HL]". iDestruct ("Hback" with "HL") as "[$ Hg]".
        unfold pov_J. cbn [fst]. rewrite HL. by iFrame.
      - iIntros (b [l n] L T q Hq) "[(HJ & Hg & %H64) HL]". cbn [fst].
        iDestruct (guards_open with "[$HL $Hg]") as (L') "(%HL & HL & Hback)"; [done|]. rewrite -HL.
        iDestruct (k_where _ _ _ CP _ _ L' T q with "[$HJ $HL]") as "[%H|(%LT & %c & %HT & HLT & Hc & _)]".
        + by eapply inside_guarded.
        + by iLeft.
        + iRight. iExists LT, c. iSplit; [done|]. iFrame.
      - intros o ub b [l na] u S T R Ho. cbn [poverflow Upstream.p_owns] in Ho. destruct (p_owns P) as [oP|] eqn:HoP; [|done].
        injection Ho as <-. iIntros "[(HJ & Hg & %H64) HU]". cbn [fst snd].
        iDestruct (k_owns_in _ _ _ CP _ _ _ _ _ _ _ _ HoP with "[$HJ $HU]") as %HO. iPureIntro. intros p n q Hin Hq.
        rewrite List.Forall_forall in H64. specialize (H64 (p, n)). rewrite -elem_of_list_In in H64.
        specialize (H64 Hin). cbn [fst] in H64.
        apply (HO (p - 64) (n + 128)); [|lia]. apply elem_of_list_fmap. by exists (p, n).
      - intros o ub b [l na] u X Ho. cbn [poverflow Upstream.p_owns] in Ho. destruct (p_owns P) as [oP|] eqn:HoP; [|done].
        injection Ho as <-. exact (k_owns_up _ _ _ CP _ _ _ _ _ _ HoP).
      - intros o ub b [l na] u L T LR q c Ho Hq. cbn [poverflow Upstream.p_owns] in Ho. destruct (p_owns P) as [oP|] eqn:HoP; [|done].
        injection Ho as <-. iIntros "((HJ & Hg & %H64) & HL & Hc & HU)". cbn [fst snd].
        iDestruct (guards_open with "[$HL $Hg]") as (L') "(%HL & HL & _)"; [done|]. rewrite -HL.
        iDestruct (k_owns_out _ _ _ CP _ _ _ _ _ _ _ _ _ _ HoP Hq with "[$HJ $HL $Hc $HU]") as %HO. by iPureIntro.
      - intros mx ub b [l na] u S T R Hmx Hrdy. cbn [poverflow Upstream.p_max] in Hmx. destruct (p_max P) as [mP|] eqn:HmP; [|done].
        injection Hmx as <-. iIntros "[(HJ & Hg & %H64) HU]". cbn [fst snd] in *.
        iApply wp_strong_mono. iSplitL "HJ HU"; [by iApply (k_max _ _ _ CP _ _ _ _ _ _ _ _ HmP Hrdy); iFrame|].
        iIntros (v) "($ & HJ & $)". by iFrame.
      - intros ub b [l na] u S T R Hm. cbn [poverflow Upstream.p_max] in Hm. iIntros "[(HJ & Hg & %H64) HU]". cbn [fst snd].
        iDestruct (k_bound _ _ _ CP with "[$HJ $HU]") as %HB; [by destruct (p_max P)|]. iPureIntro.
        rewrite List.Forall_forall in HB. rewrite List.Forall_forall. intros [p n] Hin.
        specialize (HB (widen (p, n))). unfold widen in HB. cbn [fst snd] in *.
        enough (n + 128 <= pmv CP) by lia. apply HB. apply in_map_iff. by exists (p, n).
      - intros o c ub b [l [na nc]] u L T LR q act R Ho Hin. cbn [poverflow Upstream.p_cd] in Ho. injection Ho as <-.
        iIntros "((HJ & Hg & %H64) & HU & HL & HLR & Hact)". iApply wp_bind.
        unfold ov_cd, ov_into. cbn [fst snd o_in o_allocs o_cons a_cd inner]. destruct (p_cd P) as [oP|] eqn:HoP; cbn [option_map].
        + iDestruct (guards_open with "[$HL $Hg]") as (L') "(%HL & HL & Hback)"; [done|]. rewrite -HL.
          iApply wp_bind. iApply wp_strong_mono. iSplitL.
          { iApply (k_cd _ _ _ CP _ c ub b l u L' T LR q act (fun _ => R tt ∗ guards (shape L)) HoP)%I.
            - destruct Hin as [Hin|Hin]; [left; by eapply inside_guarded|by right].
            - iFrame "HJ HU HL HLR". iIntros "[HL HLR]". iDestruct ("Hback" with "HL") as "[HL Hg]".
              iApply wp_strong_mono. iSplitL "HL HLR Hact"; [iApply "Hact"; iFrame|].
              iIntros ([]) "$". iFrame. }
          iIntros ([l' u']) "(HJ & HU & HR & Hg)". iApply wp_ret. iApply wp_ret. unfold ov_out, pov_J.
          cbn [fst snd o_in o_allocs o_cons]. rewrite HL. by iFrame.
        + iApply wp_bind. iApply wp_strong_mono. iSplitL "HL HLR Hact"; [iApply "Hact"; iFrame|].
          iIntros ([]) "HR". iApply wp_ret. iApply wp_ret. unfold ov_out, pov_J. cbn [fst snd o_in o_allocs o_cons]. by iFrame.
    Defined.
  End overflow.

  (** * The upstream object together with the composition *)
  Section whole.
    Context {P : part} {uP : bool} {req : N -> bool} (CP : pcontract P uP req).

    Definition upstream_contract : contract bad (upstream U P) req.
    Proof using CU CP.
      refine {| J := (fun b s S => ∃ T, JP CP (b + a_size U) (fst s) S T ∗ J CU b (snd s) T)%I : N -> a_st (upstream U P) -> _;
                mv := pmv CP;
                rdy := (fun b s => prdy CP b (b + a_size U) s) : N -> a_st (upstream U P) -> _ |}.
      - pose proof (k_size _ _ _ CP). pose proof (c_size _ _ _ CU). cbn [a_size upstream]. lia.
      - iIntros (b [l u] S S' HS) "(%T & HP & HU)". iExists T. iFrame "HU". by iApply (k_perm _ _ _ CP with "HP").
      - iIntros (b [l u] S) "(%T & HP & HU)". iApply (k_good _ _ _ CP b _ _ u S T []). rewrite app_nil_r. iFrame.
      - intros b H1 H2 H3. cbn [a_init a_size upstream] in *. pose proof (c_size _ _ _ CU).
        rewrite (raw_split _ _ (a_size U)); [|lia]. replace (a_size U + p_size P - a_size U) with (p_size P) by lia.
        iIntros "[HU HP]". iApply wp_bind. iApply wp_strong_mono.
        iSplitL "HU"; [iApply (c_init _ _ _ CU); [done|done|lia|done]|]. iIntros (u) "HU".
        iApply wp_bind. iApply wp_strong_mono.
        iSplitL "HP"; [iApply (k_init _ _ _ CP); [lia|lia|lia|done]|]. iIntros (l) "HP". iApply wp_ret. iExists []. iFrame.
      - iIntros (b [l u]) "(%T & HP & HU)". cbn [a_dtor a_size upstream fst snd].
        iApply wp_bind. iApply wp_strong_mono. iSplitL.
        { iApply (k_dtor _ _ _ CP b (b + a_size U) l u T []). rewrite app_nil_r /blocks big_sepL_nil. iFrame. }
        iIntros (u') "(HP & HU & _)". iApply wp_strong_mono. iSplitL "HU"; [by iApply (c_dtor _ _ _ CU)|].
        iIntros ([]) "HU". rewrite (raw_split _ (_ + _) (a_size U)); [|lia].
        replace (a_size U + p_size P - a_size U) with (p_size P) by lia. iFrame.
      - iIntros (b [l u] S n Hn HW) "(%T & HP & HU)". cbn [a_alloc upstream fst snd].
        iApply wp_strong_mono. iSplitL.
        { iApply (k_alloc _ _ _ CP b (b + a_size U) l u S T [] n Hn HW). rewrite app_nil_r. iFrame. }
        iIntros ([p [l' u']]) "(%T' & HU & [[%Hp HP]|(%Hp & Hr & HP)])"; cbn [fst snd] in *; rewrite app_nil_r.
        + iLeft. iSplit; [done|]. iExists T'. iFrame.
        + iRight. iSplit; [done|]. iFrame "Hr". iExists T'. iFrame.
      - iIntros (b [l u] p cs L Hd) "((%T & HP & HU) & Hc & HL)". cbn [a_free upstream fst snd].
        iApply wp_strong_mono. iSplitL.
        { iApply (k_free _ _ _ CP b (b + a_size U) l u p cs L T [] Hd). rewrite app_nil_r blocks_nil. iFrame. }
        iIntros ([l' u']) "(%T' & HP & HU & $ & _)". cbn [fst snd]. rewrite app_nil_r. iExists T'. iFrame.
      - intros o b [l u] S Ho. cbn [a_owns upstream] in Ho. destruct (p_owns P) as [oP|] eqn:EO; [|done]. injection Ho as <-.
        iIntros "(%T & HP & HU)". cbn [fst snd].
        iApply (k_owns_in _ _ _ CP oP b (b + a_size U) l u S T [] EO). rewrite app_nil_r. iFrame.
      - intros o b [l u] L q c Ho Hq. cbn [a_owns upstream] in Ho. destruct (p_owns P) as [oP|] eqn:EO; [|done]. injection Ho as <-.
        iIntros "((%T & HP & HU) & HL & Hc)". cbn [fst snd].
        iApply (k_owns_out _ _ _ CP oP b (b + a_size U) l u L T [] q c EO Hq). iFrame "HP HL Hc".
        destruct uP; [|done]. rewrite app_nil_r /blocks big_sepL_nil. iFrame.
      - intros mx b [l u] S Hm Hr. cbn [a_max upstream] in Hm. destruct (p_max P) as [mP|] eqn:EM; [|done]. injection Hm as <-.
        iIntros "(%T & HP & HU)". cbn [fst snd]. iApply wp_strong_mono. iSplitL.
        { iApply (k_max _ _ _ CP mP b (b + a_size U) l u S T [] EM Hr). rewrite app_nil_r. iFrame. }
        iIntros (v) "($ & HP & HU)". rewrite app_nil_r. iExists T. iFrame.
      - intros b [l u] S Hm. cbn [a_max upstream] in Hm. iIntros "(%T & HP & HU)". cbn [fst snd].
        iApply (k_bound _ _ _ CP b (b + a_size U) l u S T []); [by destruct (p_max P)|]. rewrite app_nil_r. iFrame.
      - intros o c b [l u] L q act R Ho Hin. cbn [a_cd upstream] in Ho. destruct (p_cd P) as [oP|] eqn:EC; [|done]. injection Ho as <-.
        iIntros "((%T & HP & HU) & HL & Hact)". cbn [fst snd]. iApply wp_strong_mono. iSplitL.
        { iApply (k_cd _ _ _ CP oP c b (b + a_size U) l u L T [] q act R EC); [by left|].
          rewrite app_nil_r !blocks_nil. iFrame "HP HU HL". iSplit; [done|]. iIntros "[HL _]". by iApply "Hact". }
        iIntros ([l' u']) "(HP & HU & $)". cbn [fst snd]. rewrite app_nil_r. iExists T. iFrame.
    Defined.
  End whole.
End upstream.
