(** fallback and segragator obey the contract if their parts do. *)
From iris.proofmode Require Import tactics.
From Verif Require Import Base Mem Sep Wp Allocators Contract.

Local Open Scope N_scope.

Section pair.
  Context {bad : event -> bool} {P F : alloc} {reqP reqF : N -> bool}.
  Context (CP : contract bad P reqP) (CF : contract bad F reqF).
  (** which blocks the two parts may hold *)
  Context (φP φF : N -> Prop).

  Definition pair_J (b : N) (s : a_st P * a_st F) (S : list (N * N)) : hpropI :=
    ∃ S1 S2, ⌈S ≡ₚ S1 ++ S2 /\ Forall (fun x => φP (snd x)) S1 /\ Forall (fun x => φF (snd x)) S2⌉ ∗
      J CP b (fst s) S1 ∗ J CF (b + a_size P) (snd s) S2.

  Lemma pair_J_intro b sp sf S S1 S2 : S ≡ₚ S1 ++ S2 ->
    Forall (fun x => φP (snd x)) S1 -> Forall (fun x => φF (snd x)) S2 ->
    J CP b sp S1 ∗ J CF (b + a_size P) sf S2 ⊢ pair_J b (sp, sf) S.
  Proof. intros. iIntros "[H1 H2]". iExists S1, S2. iFrame. done. Qed.

  Lemma pair_perm b s S S' : S ≡ₚ S' -> pair_J b s S ⊢ pair_J b s S'.
  Proof.
    intros HP. iIntros "(%S1 & %S2 & (%H1&%H2&%H3) & HP & HF)". iExists S1, S2. iFrame. iPureIntro.
    by rewrite -HP.
  Qed.

  Lemma pair_good b s S : pair_J b s S ⊢ ⌜Forall good S⌝.
  Proof.
    iIntros "(%S1 & %S2 & (%H1&%H2&%H3) & HP & HF)".
    iDestruct (c_good with "HP") as %G1. iDestruct (c_good with "HF") as %G2. iPureIntro.
    rewrite H1. by apply Forall_app.
  Qed.

  Lemma pair_size : (a_size P + a_size F) mod 16 = 0.
  Proof using CP CF. pose proof (c_size _ _ _ CP). pose proof (c_size _ _ _ CF). lia. Qed.

  Lemma pair_wp_init b : b <> 0 -> b mod 16 = 0 -> b + (a_size P + a_size F) < W ->
    raw b (a_size P + a_size F) ⊢ wp bad (pair_init P F b) (fun s => pair_J b s []).
  Proof.
    intros H1 H2 H3. rewrite (raw_split _ _ (a_size P)); [|lia].
    replace (a_size P + a_size F - a_size P) with (a_size F) by lia.
    iIntros "[HP HF]". iApply wp_bind.
    iApply wp_strong_mono. iSplitL "HP". { iApply (c_init _ _ _ CP); [done|done|lia|done]. }
    iIntros (sp) "HP". iApply wp_bind. pose proof (c_size _ _ _ CP).
    iApply wp_strong_mono. iSplitL "HF". { iApply (c_init _ _ _ CF); [lia|lia|lia|done]. }
    iIntros (sf) "HF". iApply wp_ret. iApply (pair_J_intro _ _ _ _ [] []); [done..|]. iFrame.
  Qed.

  Lemma pair_wp_dtor b s : pair_J b s [] ⊢ wp bad (pair_dtor P F b s) (fun _ => raw b (a_size P + a_size F)).
  Proof.
    iIntros "(%S1 & %S2 & (%H1&%H2&%H3) & HP & HF)". apply Permutation_nil in H1.
    apply app_eq_nil in H1 as [-> ->].
    iApply wp_bind. iApply wp_strong_mono. iSplitL "HF"; [by iApply c_dtor|].
    iIntros ([]) "HF". iApply wp_strong_mono. iSplitL "HP"; [by iApply c_dtor|].
    iIntros ([]) "HP". rewrite (raw_split _ (_ + _) (a_size P)); [|lia].
    replace (a_size P + a_size F - a_size P) with (a_size F) by lia. iFrame.
  Qed.

  Lemma pair_wp_owns_in o b s S : pair_owns P F = Some o -> pair_J b s S ⊢
    ⌜forall p n q, (p, n) ∈ S -> p <= q < p + n -> o b s q = true⌝.
  Proof.
    unfold pair_owns, omap2. destruct (a_owns P) as [oP|] eqn:EP; [|done].
    destruct (a_owns F) as [oF|] eqn:EF; [|done]. intros [= <-].
    iIntros "(%S1 & %S2 & (%H1&%H2&%H3) & HP & HF)".
    iDestruct (c_owns_in _ _ _ CP _ _ _ _ EP with "HP") as %HP.
    iDestruct (c_owns_in _ _ _ CF _ _ _ _ EF with "HF") as %HF. iPureIntro.
    intros p n q Hin Hq. rewrite H1 in Hin. apply elem_of_app in Hin as [Hin|Hin].
    - by rewrite (HP _ _ _ Hin Hq).
    - by rewrite (HF _ _ _ Hin Hq) orb_true_r.
  Qed.

  Lemma pair_wp_owns_out o b s L q c : pair_owns P F = Some o -> q <> 0 ->
    pair_J b s (shape L) ∗ blocks L ∗ q ↦ c ⊢ ⌜o b s q = false⌝.
  Proof.
    unfold pair_owns, omap2. destruct (a_owns P) as [oP|] eqn:EP; [|done].
    destruct (a_owns F) as [oF|] eqn:EF; [|done]. intros [= <-] Hq.
    iIntros "((%S1 & %S2 & (%H1&%H2&%H3) & HP & HF) & HL & Hc)".
    apply shape_split in H1 as (L1&L2&HL&<-&<-). rewrite (blocks_perm _ _ HL) blocks_app.
    iDestruct "HL" as "[HL1 HL2]".
    iDestruct (c_owns_out _ _ _ CP _ _ _ _ _ _ EP Hq with "[$HP $HL1 $Hc]") as %->.
    iDestruct (c_owns_out _ _ _ CF _ _ _ _ _ _ EF Hq with "[$HF $HL2 $Hc]") as %->. done.
  Qed.

  Definition pair_mv : N := N.max (mv CP) (mv CF).
  Definition pair_rdy (b : N) (s : a_st P * a_st F) : bool := rdy CP b (fst s) && rdy CF (b + a_size P) (snd s).

  Lemma pair_wp_max mx b s S : pair_max P F = Some mx -> pair_rdy b s = true ->
    pair_J b s S ⊢ wp bad (mx b s) (fun v => ⌈v = pair_mv⌉ ∗ pair_J b s S).
  Proof.
    unfold pair_max, omap2, pair_rdy. destruct (a_max P) as [mP|] eqn:EP; [|done].
    destruct (a_max F) as [mF|] eqn:EF; [|done]. intros [= <-]. rewrite andb_true_iff. intros [RP RF].
    iIntros "(%S1 & %S2 & (%H1&%H2&%H3) & HP & HF)".
    iApply wp_bind. iApply wp_strong_mono. iSplitL "HP"; [by iApply (c_max _ _ _ CP _ _ _ _ EP RP)|].
    iIntros (x) "[-> HP]".
    iApply wp_bind. iApply wp_strong_mono. iSplitL "HF"; [by iApply (c_max _ _ _ CF _ _ _ _ EF RF)|].
    iIntros (y) "[-> HF]". iApply wp_ret. iSplit; [done|]. destruct s. by iApply pair_J_intro; [..|iFrame].
  Qed.

  Lemma pair_bound b s S : pair_max P F <> None -> pair_J b s S ⊢ ⌜Forall (fun x => snd x <= pair_mv) S⌝.
  Proof.
    unfold pair_max, omap2. intros Hm.
    assert (a_max P <> None) as EP by by destruct (a_max P).
    assert (a_max F <> None) as EF by by destruct (a_max P), (a_max F).
    iIntros "(%S1 & %S2 & (%H1&%H2&%H3) & HP & HF)".
    iDestruct (c_bound _ _ _ CP _ _ _ EP with "HP") as %G1.
    iDestruct (c_bound _ _ _ CF _ _ _ EF with "HF") as %G2. iPureIntro.
    rewrite H1. unfold pair_mv. apply Forall_app; split.
    - eapply List.Forall_impl; [|exact G1]. cbv beta. lia.
    - eapply List.Forall_impl; [|exact G2]. cbv beta. lia.
  Qed.

  Lemma shape_block_of L q p n : (p, n) ∈ shape L -> p <= q < p + n ->
    exists cs L', L ≡ₚ (p, cs) :: L' /\ p <= q < p + N.of_nat (length cs).
  Proof.
    intros Hin Hq. apply elem_of_shape in Hin as (cs&Hin&<-). apply elem_of_Permutation in Hin as [L' HL].
    eauto.
  Qed.

  Lemma pair_wp_cd o c b s L q act (R : unit -> hpropI) : pair_cd P F = Some o ->
    (exists p n, (p, n) ∈ shape L /\ p <= q < p + n) ->
    pair_J b s (shape L) ∗ blocks L ∗ (blocks L -∗ wp bad act R)
    ⊢ wp bad (o c b s q act) (fun s' => pair_J b s' (shape L) ∗ R tt).
  Proof.
    intros Ho (p&n&Hin&Hq). unfold pair_cd in Ho. destruct (a_owns P) as [oP|] eqn:EO; [|done].
    iIntros "((%S1 & %S2 & (%H1&%H2&%H3) & HP & HF) & HL & Hact)".
    iDestruct (c_good with "HF") as %GF.
    pose proof H1 as HS. apply shape_split in H1 as (L1&L2&HL&<-&<-). rewrite (blocks_perm _ _ HL) blocks_app.
    rewrite HS in Hin. apply elem_of_app in Hin.
    iDestruct "HL" as "[HL1 HL2]".
    iAssert ⌜oP b (fst s) q = true /\ (p, n) ∈ shape L1 \/ oP b (fst s) q = false /\ (p, n) ∈ shape L2⌝%I as %Hown.
    { destruct Hin as [Hin|Hin].
      - iDestruct (c_owns_in _ _ _ CP _ _ _ _ EO with "HP") as %HP. iPureIntro. left. split; [by eapply HP|done].
      - destruct (shape_block_of _ _ _ _ Hin Hq) as (cs&L2'&HL2&Hq'). rewrite (blocks_perm _ _ HL2) blocks_cons.
        iDestruct "HL2" as "[Hp HL2]".
        iDestruct (pts_take_ne with "[$Hp]") as (d) "(%Hd & Hd & Hp)"; [done|].
        assert (q <> 0). { rewrite List.Forall_forall in GF. apply elem_of_list_In, GF in Hin.
          unfold good in Hin. cbn [fst snd] in Hin. lia. }
        iDestruct (c_owns_out _ _ _ CP _ _ _ _ q _ EO with "[$HP $HL1 $Hd]") as %HP; [done|].
        iPureIntro. by right. }
    assert (Hdirect : J CP b (fst s) (shape L1) ∗ J CF (b + a_size P) (snd s) (shape L2) ∗
        blocks L1 ∗ blocks L2 ∗ (blocks L1 ∗ blocks L2 -∗ wp bad act R)
        ⊢ wp bad (act ;;; ret s) (fun s' => pair_J b s' (shape L) ∗ R tt)).
    { iIntros "(HP & HF & HL1 & HL2 & Hact)". iApply wp_bind. iApply wp_strong_mono.
      iSplitL "Hact HL1 HL2"; [iApply "Hact"; iFrame|]. iIntros ([]) "HR". iApply wp_ret. iFrame "HR".
      destruct s. iApply pair_J_intro; [done..|iFrame]. }
    assert (HcP : forall cP, a_cd P = Some cP -> (p, n) ∈ shape L1 ->
        J CP b (fst s) (shape L1) ∗ J CF (b + a_size P) (snd s) (shape L2) ∗
        blocks L1 ∗ blocks L2 ∗ (blocks L1 ∗ blocks L2 -∗ wp bad act R)
        ⊢ wp bad (s' <- cP c b (fst s) q act ;; ret (s', snd s)) (fun s' => pair_J b s' (shape L) ∗ R tt)).
    { intros cP EC Hin1. iIntros "(HP & HF & HL1 & HL2 & Hact)". iApply wp_bind. iApply wp_strong_mono.
      iSplitL "HP HL1 HL2 Hact".
      - iApply (c_cd _ _ _ CP _ _ _ _ L1 _ _ R EC); [by exists p, n|]. iFrame "HP HL1". iIntros "HL1". iApply "Hact". iFrame.
      - iIntros (s') "[HP HR]". iApply wp_ret. iFrame "HR". iApply pair_J_intro; [done..|iFrame]. }
    assert (HcF : forall cF, a_cd F = Some cF -> (p, n) ∈ shape L2 ->
        J CP b (fst s) (shape L1) ∗ J CF (b + a_size P) (snd s) (shape L2) ∗
        blocks L1 ∗ blocks L2 ∗ (blocks L1 ∗ blocks L2 -∗ wp bad act R)
        ⊢ wp bad (s' <- cF c (b + a_size P) (snd s) q act ;; ret (fst s, s')) (fun s' => pair_J b s' (shape L) ∗ R tt)).
    { intros cF EC Hin1. iIntros "(HP & HF & HL1 & HL2 & Hact)". iApply wp_bind. iApply wp_strong_mono.
      iSplitL "HF HL1 HL2 Hact".
      - iApply (c_cd _ _ _ CF _ _ _ _ L2 _ _ R EC); [by exists p, n|]. iFrame "HF HL2". iIntros "HL2". iApply "Hact". iFrame.
      - iIntros (s') "[HF HR]". iApply wp_ret. iFrame "HR". iApply pair_J_intro; [done..|iFrame]. }
    destruct (a_cd P) as [cP|] eqn:ECP, (a_cd F) as [cF|] eqn:ECF; try done; injection Ho as <-;
      destruct Hown as [[-> ?]|[-> ?]].
    - iApply HcP; [done|done|iFrame].
    - iApply HcF; [done|done|iFrame].
    - iApply HcP; [done|done|iFrame].
    - iApply Hdirect. iFrame.
    - iApply Hdirect. iFrame.
    - iApply HcF; [done|done|iFrame].
  Qed.
End pair.

(** * fallback *)
Section fallback.
  Context {bad : event -> bool} {P F : alloc} {reqP reqF : N -> bool}.
  Context (CP : contract bad P reqP) (CF : contract bad F reqF).
  (** static_assert of fallback.h:27 *)
  Context (HO : a_owns P <> None).

  (** Empty requests are excluded: see C18 for what happens. *)
  Definition fb_req (n : N) : bool := (0 <? n) && reqP n && reqF n.
  Definition nonempty (n : N) : Prop := 0 < n.

  Definition fallback_contract : contract bad (fallback P F) fb_req.
  Proof using CP CF HO.
    refine {| J := pair_J CP CF nonempty nonempty : N -> a_st (fallback P F) -> _;
              mv := pair_mv CP CF; rdy := pair_rdy CP CF : N -> a_st (fallback P F) -> _ |}.
    - exact (pair_size CP CF).
    - exact (pair_perm CP CF _ _).
    - exact (pair_good CP CF _ _).
    - exact (pair_wp_init CP CF _ _).
    - exact (pair_wp_dtor CP CF _ _).
    - intros b s S n Hn HW. unfold fb_req in Hn. rewrite !andb_true_iff in Hn. destruct Hn as [[Hn0 HnP] HnF].
      iIntros "(%S1 & %S2 & (%H1&%H2&%H3) & HP & HF)". cbn [a_alloc fallback]. unfold fb_alloc.
      iApply wp_bind. iApply wp_strong_mono. iSplitL "HP"; [by iApply (c_alloc _ _ _ CP _ _ _ _ HnP HW)|].
      iIntros ([p sp]) "[[%Hp HP]|(%Hp & Hr & HP)]"; cbn [fst snd] in *.
      + subst p. cbn [N.eqb]. iApply wp_bind. iApply wp_strong_mono.
        iSplitL "HF"; [by iApply (c_alloc _ _ _ CF _ _ _ _ HnF HW)|].
        iIntros ([p sf]) "[[%Hp HF]|(%Hp & Hr & HF)]"; cbn [fst snd] in *; iApply wp_ret; cbn [fst snd].
        * iLeft. iSplit; [done|]. iApply pair_J_intro; [done..|iFrame].
        * iRight. iSplit; [done|]. iFrame "Hr". iApply (pair_J_intro _ _ _ _ _ _ _ _ S1 ((p, n) :: S2)); last iFrame.
          -- by rewrite -Permutation_middle -H1.
          -- done.
          -- constructor; [|done]. unfold nonempty. cbn [snd]. lia.
      + destruct (p =? 0) eqn:E; [lia|]. iApply wp_ret. iRight. cbn [fst snd]. iSplit; [done|]. iFrame "Hr".
        iApply (pair_J_intro _ _ _ _ _ _ _ _ ((p, n) :: S1) S2); last iFrame.
        * by rewrite H1.
        * constructor; [|done]. unfold nonempty. cbn [snd]. lia.
        * done.
    - intros b s p cs L Hd. iIntros "((%S1 & %S2 & (%H1&%H2&%H3) & HP & HF) & Hc & HL)".
      cbn [a_free fallback]. unfold fb_free. destruct (a_owns P) as [oP|] eqn:EO; [|done].
      change (bsize (p, cs) :: shape L) with (shape ((p, cs) :: L)) in H1.
      iAssert ⌜Forall good (shape ((p, cs) :: L))⌝%I as %HG.
      { iDestruct (c_good with "HP") as %G1. iDestruct (c_good with "HF") as %G2. iPureIntro.
        rewrite H1. by apply Forall_app. }
      assert (Hne : 0 < N.of_nat (length cs)).
      { assert (bsize (p, cs) ∈ S1 ++ S2) as Hin by (rewrite -H1; left).
        apply elem_of_app in Hin as [Hin|Hin]; apply elem_of_list_In in Hin.
        - rewrite List.Forall_forall in H2. by apply H2 in Hin.
        - rewrite List.Forall_forall in H3. by apply H3 in Hin. }
      apply shape_split in H1 as (L1&L2&HL&<-&<-).
      apply perm_cons_app in HL as [(L1'&HL1&HL)|(L2'&HL2&HL)].
      + iDestruct (c_perm _ _ _ CP _ _ _ _ (shape_perm _ _ HL1) with "HP") as "HP".
        rewrite (shape_perm _ _ HL1) in H2. rewrite shape_cons in H2.
        iDestruct (c_owns_in _ _ _ CP _ _ _ _ EO with "HP") as %HP.
                rewrite (HP p (N.of_nat (length cs)) p); [|by left|lia].
        iEval (rewrite (blocks_perm _ _ HL) blocks_app) in "HL". iDestruct "HL" as "[HL1 HL2]".
        iApply wp_bind. iApply wp_strong_mono. iSplitL "HP HL1 Hc".
        { iApply (c_free _ _ _ CP); [done|]. iFrame. }
        iIntros (sp) "[HP HL1]". iApply wp_ret. rewrite (blocks_perm _ _ HL) blocks_app. iFrame "HL1 HL2".
        iApply (pair_J_intro _ _ _ _ _ _ _ _ (shape L1') (shape L2)); last iFrame.
        * rewrite -shape_app. by apply shape_perm.
        * by apply Forall_cons_iff in H2 as [_ H2].
        * done.
      + iDestruct (c_perm _ _ _ CF _ _ _ _ (shape_perm _ _ HL2) with "HF") as "HF".
        rewrite (shape_perm _ _ HL2) in H3. rewrite shape_cons in H3.
        iEval (rewrite (blocks_perm _ _ HL) blocks_app) in "HL". iDestruct "HL" as "[HL1 HL2]".
        destruct (pts_head p cs ltac:(lia)) as (d&cs'&Hcs&Heq).
        assert (p <> 0) as Hp0. { rewrite shape_cons in HG. apply Forall_cons_iff in HG as [HG _]. apply HG. }
        iAssert ⌜oP b (fst s) p = false⌝%I as %->.
        { rewrite Heq. iDestruct "Hc" as "[Hd Hc]".
          iDestruct (c_owns_out _ _ _ CP _ _ _ _ p _ EO Hp0 with "[$HP $HL1 $Hd]") as %->. done. }
        iApply wp_bind. iApply wp_strong_mono. iSplitL "HF HL2 Hc".
        { iApply (c_free _ _ _ CF); [done|]. iFrame. }
        iIntros (sf) "[HF HL2]". iApply wp_ret. rewrite (blocks_perm _ _ HL) blocks_app. iFrame "HL1 HL2".
        iApply (pair_J_intro _ _ _ _ _ _ _ _ (shape L1) (shape L2')); last iFrame.
        * rewrite -shape_app. by apply shape_perm.
        * done.
        * by apply Forall_cons_iff in H3 as [_ H3].
    - exact (pair_wp_owns_in CP CF _ _).
    - exact (pair_wp_owns_out CP CF _ _).
    - exact (pair_wp_max CP CF _ _).
    - exact (pair_bound CP CF _ _).
    - exact (pair_wp_cd CP CF _ _).
  Defined.
End fallback.

(** * segragator *)
Section segragator.
  Context {bad : event -> bool} {P F : alloc} {reqP reqF : N -> bool}.
  Context (CP : contract bad P reqP) (CF : contract bad F reqF) (T : N).

  Definition seg_req (n : N) : bool := if n <=? T then reqP n else reqF n.
  Definition seg_low (n : N) : Prop := n <= T.
  Definition seg_high (n : N) : Prop := T < n.

  Definition segragator_contract : contract bad (segragator P F T) seg_req.
  Proof using CP CF.
    refine {| J := pair_J CP CF seg_low seg_high : N -> a_st (segragator P F T) -> _;
              mv := pair_mv CP CF; rdy := pair_rdy CP CF : N -> a_st (segragator P F T) -> _ |}.
    - exact (pair_size CP CF).
    - exact (pair_perm CP CF _ _).
    - exact (pair_good CP CF _ _).
    - exact (pair_wp_init CP CF _ _).
    - exact (pair_wp_dtor CP CF _ _).
    - intros b s S n Hn HW. unfold seg_req in Hn.
      iIntros "(%S1 & %S2 & (%H1&%H2&%H3) & HP & HF)". cbn [a_alloc segragator]. unfold seg_alloc.
      destruct (n <=? T) eqn:E.
      + iApply wp_bind. iApply wp_strong_mono. iSplitL "HP"; [by iApply (c_alloc _ _ _ CP _ _ _ _ Hn HW)|].
        iIntros ([p sp]) "[[%Hp HP]|(%Hp & Hr & HP)]"; cbn [fst snd] in *; iApply wp_ret; cbn [fst snd].
        * iLeft. iSplit; [done|]. iApply pair_J_intro; [done..|iFrame].
        * iRight. iSplit; [done|]. iFrame "Hr".
          iApply (pair_J_intro _ _ _ _ _ _ _ _ ((p, n) :: S1) S2); last iFrame.
          -- by rewrite H1.
          -- constructor; [|done]. unfold seg_low. cbn [snd]. lia.
          -- done.
      + iApply wp_bind. iApply wp_strong_mono. iSplitL "HF"; [by iApply (c_alloc _ _ _ CF _ _ _ _ Hn HW)|].
        iIntros ([p sf]) "[[%Hp HF]|(%Hp & Hr & HF)]"; cbn [fst snd] in *; iApply wp_ret; cbn [fst snd].
        * iLeft. iSplit; [done|]. iApply pair_J_intro; [done..|iFrame].
        * iRight. iSplit; [done|]. iFrame "Hr".
          iApply (pair_J_intro _ _ _ _ _ _ _ _ S1 ((p, n) :: S2)); last iFrame.
          -- by rewrite -Permutation_middle -H1.
          -- done.
          -- constructor; [|done]. unfold seg_high. cbn [snd]. lia.
    - intros b s p cs L Hd. iIntros "((%S1 & %S2 & (%H1&%H2&%H3) & HP & HF) & Hc & HL)".
      cbn [a_free segragator]. unfold seg_free.
      change (bsize (p, cs) :: shape L) with (shape ((p, cs) :: L)) in H1.
      apply shape_split in H1 as (L1&L2&HL&<-&<-).
      apply perm_cons_app in HL as [(L1'&HL1&HL)|(L2'&HL2&HL)].
      + iDestruct (c_perm _ _ _ CP _ _ _ _ (shape_perm _ _ HL1) with "HP") as "HP".
        rewrite (shape_perm _ _ HL1) in H2. rewrite shape_cons in H2.
        apply Forall_cons_iff in H2 as [Hlow H2]. unfold seg_low in Hlow. cbn [bsize fst snd] in Hlow.
        destruct (N.of_nat (length cs) <=? T) eqn:E; [|lia].
        iEval (rewrite (blocks_perm _ _ HL) blocks_app) in "HL". iDestruct "HL" as "[HL1 HL2]".
        iApply wp_bind. iApply wp_strong_mono. iSplitL "HP HL1 Hc".
        { iApply (c_free _ _ _ CP); [done|]. iFrame. }
        iIntros (sp) "[HP HL1]". iApply wp_ret. rewrite (blocks_perm _ _ HL) blocks_app. iFrame "HL1 HL2".
        iApply (pair_J_intro _ _ _ _ _ _ _ _ (shape L1') (shape L2)); last iFrame; [|done|done].
        rewrite -shape_app. by apply shape_perm.
      + iDestruct (c_perm _ _ _ CF _ _ _ _ (shape_perm _ _ HL2) with "HF") as "HF".
        rewrite (shape_perm _ _ HL2) in H3. rewrite shape_cons in H3.
        apply Forall_cons_iff in H3 as [Hhigh H3]. unfold seg_high in Hhigh. cbn [bsize fst snd] in Hhigh.
        destruct (N.of_nat (length cs) <=? T) eqn:E; [lia|].
        iEval (rewrite (blocks_perm _ _ HL) blocks_app) in "HL". iDestruct "HL" as "[HL1 HL2]".
        iApply wp_bind. iApply wp_strong_mono. iSplitL "HF HL2 Hc".
        { iApply (c_free _ _ _ CF); [done|]. iFrame. }
        iIntros (sf) "[HF HL2]". iApply wp_ret. rewrite (blocks_perm _ _ HL) blocks_app. iFrame "HL1 HL2".
        iApply (pair_J_intro _ _ _ _ _ _ _ _ (shape L1) (shape L2')); last iFrame; [|done|done].
        rewrite -shape_app. by apply shape_perm.
    - exact (pair_wp_owns_in CP CF _ _).
    - exact (pair_wp_owns_out CP CF _ _).
    - exact (pair_wp_max CP CF _ _).
    - exact (pair_bound CP CF _ _).
    - exact (pair_wp_cd CP CF _ _).
  Defined.
End segragator.
