(** Moves transfer the outstanding blocks; equal allocators are interchangeable. *)
From iris.proofmode Require Import tactics.
From Verif Require Import Base Mem Sep Wp Bits AlignedMalloc AlignedMallocProofs Allocators Contract LinearProofs BasicProofs
  PairProofs FreelistProofs OverflowProofs NodeProofs CascadingProofs Checked CheckedProofs Tree TreeProofs Moves Transfer.

Local Open Scope N_scope.

(** * Facts about the decision functions *)
Lemma stateless_after pl e : stateless e = true -> forall s, same_after pl e s = true.
Proof.
  induction e as [| | | |Min Max e IH|e IH|p IHp f IHf|T p IHp f IHf|e IH|e IH|e IH|e IH|e IH|e IH];
    cbn [stateless same_after]; try done; intros H s; try (by apply IH);
    apply andb_true_iff in H as [H1 H2]; by rewrite IHp ?IHf.
Qed.
Lemma stateless_always e : stateless e = true -> moves_always e = true.
Proof.
  induction e as [| | | |Min Max e IH|e IH|p IHp f IHf|T p IHp f IHf|e IH|e IH|e IH|e IH|e IH|e IH];
    cbn [stateless moves_always]; try done; intros H; try (by apply IH);
    apply andb_true_iff in H as [H1 H2]; by rewrite IHp ?IHf.
Qed.
Lemma moves_always_may pl e : moves_always e = true -> forall s, may_move pl e s = true.
Proof.
  induction e as [| | | |Min Max e IH|e IH|p IHp f IHf|T p IHp f IHf|e IH|e IH|e IH|e IH|e IH|e IH];
    cbn [moves_always may_move]; try done; intros H s; try (by apply IH).
  - rewrite IH; [|by apply stateless_always]. by rewrite stateless_after.
  - apply andb_true_iff in H as [H1 H2]; by rewrite IHp ?IHf.
  - apply andb_true_iff in H as [H1 H2]; by rewrite IHp ?IHf.
Qed.

(** A type with inline bytes never has equal objects after a move. *)
Lemma same_after_size pl e : movable e = true -> forall s, same_after pl e s = true -> esize e = 0.
Proof.
  induction e as [| | | |Min Max e IH|e IH|p IHp f IHf|T p IHp f IHf|e IH|e IH|e IH|e IH|e IH|e IH];
    cbn [movable same_after esize]; try done; intros Hm s H.
  - apply andb_true_iff in H as [H _]. by eapply IH.
  - apply andb_true_iff in H as [H1 H2]. apply andb_true_iff in Hm as [Hm1 Hm2].
    rewrite (IHp Hm1 _ H1) (IHf Hm2 _ H2). done.
  - apply andb_true_iff in H as [H1 H2]. apply andb_true_iff in Hm as [Hm1 Hm2].
    rewrite (IHp Hm1 _ H1) (IHf Hm2 _ H2). done.
  - by eapply IH.
Qed.

(** Two objects of [n] inline bytes that do not overlap. *)
Definition apart (b b' n : N) : Prop := n = 0 \/ b + n <= b' \/ b' + n <= b.

Lemma apart_l b b' n m : apart b b' (n + m) -> apart b b' n.
Proof. unfold apart. lia. Qed.
Lemma apart_r b b' n m : apart b b' (n + m) -> apart (b + n) (b' + n) m.
Proof. unfold apart. lia. Qed.

(** A place for an object. *)
Definition fits (b n : N) : Prop := b <> 0 /\ b mod 16 = 0 /\ b + n < W.

(** * Laws of moves and comparison *)
Record laws {bad pl e} (C : contract bad (den pl e) (ereq pl e)) : Prop := Laws {
  (** move construction *)
  m_ctor b b' s S : fits b (esize e) -> apart b b' (esize e) -> may_move pl e s = true ->
    esize e = 0 \/ S = [] ->
    J C b' s S ∗ raw b (esize e) ⊢ wp bad (move_ctor pl e b b' s) (fun r =>
      J C b (fst r) S ∗ J C b' (snd r) [] ∗ ⌈same pl e b (fst r) b' (snd r) = same_after pl e s⌉);
  (** move assignment *)
  m_assign b b' d s S : assignable e = true -> apart b b' (esize e) -> may_move pl e s = true ->
    esize e = 0 \/ S = [] ->
    J C b d [] ∗ J C b' s S ⊢ wp bad (move_assign pl e b d b' s) (fun r =>
      J C b (fst r) S ∗ J C b' (snd r) [] ∗ ⌈same pl e b (fst r) b' (snd r) = same_after pl e s⌉);
  (** a block of one of two equal allocators belongs just as well to the other *)
  m_give b b' s s' x S S' : apart b b' (esize e) -> same pl e b s b' s' = true ->
    J C b s (x :: S) ∗ J C b' s' S' ⊢ J C b s S ∗ J C b' s' (x :: S');
  (** without outstanding blocks *)
  m_empty b s : moves_empty e = true -> J C b s [] ⊢ ⌜may_move pl e s = true⌝
}.

Lemma null_laws bad pl : laws (e := ENull) (pl := pl) (null_contract bad).
Proof.
  split; cbn [den J null_contract] in *; unfold null_J.
  - intros b b' s S _ _ _ _. cbn [esize move_ctor]. rewrite raw_0. iIntros "[%HS _]". iApply wp_ret. by iSplit.
  - intros b b' d s S _ _ _ _. cbn [esize move_assign]. iIntros "[_ %HS]". iApply wp_ret. by iSplit.
  - intros b b' s s' x S S' _ _. by iIntros "[%HS _]".
  - intros b s _. by iIntros "_".
Qed.

Lemma mal_laws bad pl Hpl : laws (e := EMalloc) (pl := pl) (mal_contract bad pl Hpl).
Proof.
  split; cbn [den J mal_contract] in *; unfold mal_J.
  - intros b b' s S _ _ _ _. cbn [esize move_ctor]. rewrite raw_0. iIntros "[HS _]". iApply wp_ret.
    rewrite big_sepL_nil. iFrame. by iSplit.
  - intros b b' d s S _ _ _ _. cbn [esize move_assign]. iIntros "[Hd HS]". iApply wp_ret.
    rewrite big_sepL_nil. iFrame. done.
  - intros b b' s s' x S S' _ _. rewrite !big_sepL_cons. iIntros "[[Hx HS] HS']". iFrame.
  - intros b s _. by iIntros "_".
Qed.

Lemma lin_laws bad pl Size : 0 < Size -> laws (e := ELinear Size) (pl := pl) (lin_contract Size bad).
Proof.
  intros Hpos. assert (Hne : esize (ELinear Size) <> 0) by (cbn [esize]; lia).
  split; cbn [den J lin_contract].
  - intros b b' s S (Hb1&Hb2&Hb3) Hap Hm HS. destruct HS as [HS| ->]; [done|].
    cbn [move_ctor may_move] in *. iIntros "[HJ Hr]". unfold lin_move_ctor. iApply wp_bind. iApply wp_bind.
    iApply wp_strong_mono. iSplitL "Hr"; [by iApply (lin_wp_init Size bad b)|].
    iIntros (s0) "H0". iApply wp_bind. iApply wp_assert; [done|]. iApply wp_ret. iApply wp_ret. cbn [fst snd same same_after].
    iFrame. iPureIntro. unfold apart in Hap. lia.
  - intros b b' d s S _ Hap Hm HS. destruct HS as [HS| ->]; [done|].
    cbn [move_assign may_move] in *. iIntros "[(%Hi & %m & %Hr & Ho) HJ]". unfold lin_move_assign.
    iApply wp_bind. iApply wp_bind. iApply wp_assert; [done|]. iApply wp_ret. iApply wp_ret. cbn [fst snd same same_after].
    iFrame "HJ". iSplit.
    + iSplit; [|iExists m; by iFrame]. iPureIntro. destruct Hi as [[H1 H2 H3 H4 H5] Hz]. split; [|by cbn [l_free l_cnt]]. split; cbn [l_free l_cnt] in *; try done; try lia.
      split; [lia|]. by rewrite N.sub_diag.
    + iPureIntro. unfold apart in Hap. lia.
  - intros b b' s s' x S S' Hap Hs. cbn [same] in Hs. exfalso. unfold apart in Hap. lia.
  - intros b s _. iIntros "(%Hi & _)". iPureIntro. destruct Hi as [[_ _ H3 _ _] _]. cbn [may_move]. cbn [sumpad] in H3. lia.
Qed.

Section freelist.
  Context {bad : event -> bool} {pl : platform} {e : aexp} (C : contract bad (den pl e) (ereq pl e)).
  Context (HL : laws C) (Hmov : movable e = true) (Min Max : N) (HMax : 8 <= Max) (HW : Max < W).

  Notation FJ := (fl_J C Min Max).

  (** The head of a non-empty chain is not null. *)
  Lemma chain_null b s h CC S : J C b s (fl_inner Max CC S) ∗ chain Max h CC ⊢ ⌜h = 0 <-> CC = []⌝.
  Proof.
    destruct CC as [|p CC]; cbn [chain].
    - by iIntros "[_ %H]".
    - iIntros "[HJ (%nxt & (%Hh & %Hn) & H)]". subst p.
      iDestruct (c_good _ _ _ C with "HJ") as %Hg. apply Forall_cons_iff in Hg as [(Hg1&_&_) _]. cbn [fst] in Hg1.
      iPureIntro. done.
  Qed.

  Lemma freelist_laws : laws (e := EFreelist Min Max e) (pl := pl) (freelist_contract C Min Max HMax HW).
  Proof.
    split; cbn [den J freelist_contract esize].
    - intros b b' s S Hb Hap Hm HS. cbn [may_move] in Hm. apply andb_true_iff in Hm as [Hm1 Hm2].
      iIntros "[(%CC & %Hr & HJ & Hch & Hsl) Hraw]".
      iDestruct (chain_null with "[$HJ $Hch]") as %Hn.
      assert (Hin : esize e = 0 \/ fl_inner Max CC S = []).
      { destruct HS as [HS| ->]; [by left|]. destruct (same_after pl e (f_in s)) eqn:Ha.
        - left. by eapply same_after_size.
        - right. rewrite Ha in Hm2. apply N.eqb_eq in Hm2. destruct Hn as [Hn _]. by rewrite Hn. }
      cbn [move_ctor]. iApply wp_bind. iApply wp_strong_mono. iSplitL "HJ Hraw".
      { iApply (m_ctor _ HL b b' (f_in s) _ Hb Hap Hm1 Hin). iFrame. }
      iIntros ([i i']) "(HJ & HJ' & %Heq)". cbn [fst snd] in *. iApply wp_bind. iApply wp_assert; [by rewrite Heq|].
      iApply wp_ret. cbn [fst snd same same_after f_in f_head]. iSplitL "HJ Hch Hsl".
      { iExists CC. by iFrame. }
      iSplitL.
      { iExists []. cbn [f_in f_head chain]. iFrame. unfold slack. rewrite big_sepL_nil. iSplit; [|by iSplit].
        iPureIntro. constructor. }
      iPureIntro. by rewrite Heq.
    - intros b b' d s S Has Hap Hm HS. cbn [may_move] in Hm. apply andb_true_iff in Hm as [Hm1 Hm2].
      iIntros "[(%CD & _ & HD & Hdch & Hdsl) (%CC & %Hr & HJ & Hch & Hsl)]".
      iDestruct (chain_null with "[$HJ $Hch]") as %Hn.
      assert (Hin : esize e = 0 \/ fl_inner Max CC S = []).
      { destruct HS as [HS| ->]; [by left|]. destruct (same_after pl e (f_in s)) eqn:Ha.
        - left. by eapply same_after_size.
        - right. rewrite Ha in Hm2. apply N.eqb_eq in Hm2. destruct Hn as [Hn _]. by rewrite Hn. }
      iEval (unfold fl_inner; rewrite app_nil_r) in "HD". iEval (unfold slack; rewrite big_sepL_nil) in "Hdsl". iDestruct "Hdsl" as "_".
      cbn [move_assign].
      iAssert ((J C b (f_in d) (map (fun p => (p, Max)) CD) ∗ chain Max (f_head d) CD) ∗
               (J C b' (f_in s) (fl_inner Max CC S) ∗ chain Max (f_head s) CC ∗ slack Max S))%I with "[HD Hdch HJ Hch Hsl]" as "H"; [iFrame|].
      iStopProof. eapply (wp_fuel _ (fun k => i0 <- fl_release Max (den pl e) (Datatypes.S k) b (f_in d) (f_head d) ;;
         ' (i, i') <- move_assign pl e b i0 b' (f_in s) ;;
         ktl_assert (same pl e b i b' i' || (f_head s =? 0)) ;;;
         ret (Fl i (f_head s), Fl i' 0)) _ _ (length CD)).
      + iIntros "[[H1 H2] H3]". rewrite (chain_memsize Max HMax HW). iCombine "H1 H3" as "H". iApply memsize_frame. iSplitL "H2"; [iExact "H2"|iExact "H"].
      + intros k Hk. iIntros "[H (HJ & Hch & Hsl)]". iApply wp_bind. iApply wp_strong_mono. iSplitL "H".
        { iApply fl_release_spec; [done|done| |done]. lia. }
        iIntros (i0) "HD". iApply wp_bind. iApply wp_strong_mono. iSplitL "HJ HD".
        { iApply (m_assign _ HL b b' i0 (f_in s) _ Has Hap Hm1 Hin). iFrame. }
        iIntros ([i i']) "(HJ & HJ' & %Heq)". cbn [fst snd] in *. iApply wp_bind. iApply wp_assert; [by rewrite Heq|].
        iApply wp_ret. cbn [fst snd same same_after f_in f_head]. iSplitL "HJ Hch Hsl".
        { iExists CC. by iFrame. }
        iSplitL.
        { iExists []. cbn [f_in f_head chain]. iFrame. unfold slack. rewrite big_sepL_nil. iSplit; [|by iSplit].
          iPureIntro. constructor. }
        iPureIntro. by rewrite Heq.
    - intros b b' s s' x S S' Hap Hs. cbn [same] in Hs. apply andb_true_iff in Hs as [Hs1 Hs2].
      apply N.eqb_eq in Hs2.
      iIntros "[(%CC & %Hr & HJ & Hch & Hsl) (%CC' & %Hr' & HJ' & Hch' & Hsl')]".
      iDestruct (chain_null with "[$HJ $Hch]") as %Hn. iDestruct (chain_null with "[$HJ' $Hch']") as %Hn'.
      iAssert ⌜CC = []⌝%I with "[Hch Hch']" as %->.
      { destruct CC as [|p CC]; [done|]. destruct CC' as [|p' CC'].
        - exfalso. destruct Hn as [Hn _]. destruct Hn' as [_ Hn']. rewrite Hs2 Hn' in Hn; [|done]. by discriminate Hn.
        - cbn [chain]. iDestruct "Hch" as (n1) "((%H1 & _) & Hp & _)". iDestruct "Hch'" as (n2) "((%H2 & _) & Hp' & _)".
          iDestruct (pts_disj with "[$Hp $Hp']") as %Hd. rewrite !enc_length in Hd. exfalso.
          assert (p = p') by (etransitivity; [symmetry; exact H1|]; etransitivity; [exact Hs2|exact H2]). subst p'. destruct Hd as [Hd|[Hd|Hd]]; [done|done|lia]. }
      apply Forall_cons_iff in Hr as [Hr0 Hr]. rewrite slack_cons. iDestruct "Hsl" as "[Hx Hsl]".
      iDestruct (m_give _ HL b b' _ _ (fst x, Max) (fl_inner Max [] S) (fl_inner Max CC' S') Hap Hs1 with "[$HJ $HJ']") as "[HJ HJ']".
      iSplitL "HJ Hch Hsl".
      + iExists []. by iFrame.
      + iExists CC'. rewrite slack_cons. iFrame. iSplit; [iPureIntro; by apply Forall_cons_iff|].
        iApply (c_perm _ _ _ C with "HJ'"). unfold fl_inner. rewrite List.map_cons. apply Permutation_middle.
    - intros b s He. cbn [moves_empty may_move] in *. iIntros "_". iPureIntro.
      rewrite (moves_always_may pl e (stateless_always _ He)). by rewrite stateless_after.
  Qed.
End freelist.

Section cascading.
  Context {bad : event -> bool} {pl : platform} {e : aexp} (C : contract bad (den pl e) (ereq pl e)).
  Context (Hpl : pl <> PPosix) (Hfail : bad EvFail || bad EvRefuse = true) (Hsz : a_size (den pl e) + 32 < W).
  Context (Howns : a_owns (den pl e) = Some (owns_of (den pl e))).
  Context (Hrdy : a_max (den pl e) <> None -> forall b s, rdy C b s = true).

  Lemma cascading_laws : laws (e := ECascading e) (pl := pl) (cascading_contract C pl Hpl Hfail Hsz Howns Hrdy).
  Proof.
    split; cbn [den J cascading_contract esize].
    - intros b b' s S _ _ _ _. rewrite raw_0. iIntros "[(%TT & (%HP & %Hpos) & H) _]". cbn [move_ctor]. iApply wp_ret.
      cbn [fst snd same same_after]. iSplitL; [iExists TT; by iFrame|]. iSplit; [|done].
      iExists []. cbn [nodes_J]. iSplit; [|done]. iPureIntro. split; [done|constructor].
    - intros b b' d s S _ _ _ _. iIntros "[(%TD & (%HPD & _) & HD) (%TT & (%HP & %Hpos) & H)]". cbn [move_assign].
      apply Permutation_nil in HPD. iApply wp_bind. iApply wp_strong_mono. iSplitL "HD"; [by iApply casc_release_spec|].
      iIntros ([]) "_". iApply wp_ret. cbn [fst snd same same_after]. iSplitL; [iExists TT; by iFrame|]. iSplit; [|done].
      iExists []. cbn [nodes_J]. iSplit; [|done]. iPureIntro. split; [done|constructor].
    - intros b b' s s' x S S' _ Hs. cbn [same] in Hs. apply N.eqb_eq in Hs.
      iIntros "[(%TT & (%HP & %Hpos) & H) (%TT' & (%HP' & %Hpos') & H')]". destruct s as [|nd s].
      + rewrite nodes_nil_l. iDestruct "H" as %->. cbn [concat] in HP. symmetry in HP. by apply Permutation_nil in HP.
      + rewrite nodes_cons_l. iDestruct "H" as (T TT0) "(-> & [(HJ & Hr & Ht & %Hp) %Hcnt] & Hns)".
        cbn [first_node] in Hs. destruct s' as [|nd' s']; [done|]. cbn [first_node] in Hs.
        rewrite nodes_cons_l. iDestruct "H'" as (T' TT0') "(-> & [(HJ' & Hr' & Ht' & %Hp') %Hcnt'] & Hns')".
        rewrite -Hs. iDestruct "Hr" as (cs) "[(%Hl & _) Hr]". iDestruct "Hr'" as (cs') "[(%Hl' & _) Hr']".
        iDestruct (pts_disj with "[$Hr $Hr']") as %Hd. exfalso.
        destruct Hd as [E|[E|Hd]]; [subst cs; cbn in Hl; lia|subst cs'; cbn in Hl'; lia|]. rewrite Hl Hl' in Hd.
        destruct Hd as [Hd|Hd]; revert Hd; apply N.lt_nge, N.lt_add_pos_r; done.
    - intros b s _. by iIntros "_".
  Qed.
End cascading.

Section pair.
  Context {bad : event -> bool} {pl : platform} {p f : aexp}.
  Context (CP : contract bad (den pl p) (ereq pl p)) (CF : contract bad (den pl f) (ereq pl f)).
  Context (LP : laws CP) (LF : laws CF) (φP φF : N -> Prop).
  Notation PJ := (pair_J CP CF φP φF).

  Lemma pair_nil {X} (S S1 S2 : list X) n m : S ≡ₚ S1 ++ S2 -> n + m = 0 \/ S = [] ->
    (n = 0 \/ S1 = []) /\ (m = 0 \/ S2 = []).
  Proof.
    intros HP [H| ->]; [lia|]. apply Permutation_nil in HP. apply app_eq_nil in HP as [-> ->]. auto.
  Qed.

  Lemma pair_ctor b b' s S : fits b (esize p + esize f) -> apart b b' (esize p + esize f) ->
    may_move pl p (fst s) && may_move pl f (snd s) = true -> esize p + esize f = 0 \/ S = [] ->
    PJ b' s S ∗ raw b (esize p + esize f) ⊢
    wp bad (' (x, x') <- move_ctor pl p b b' (fst s) ;;
            ' (y, y') <- move_ctor pl f (b + esize p) (b' + esize p) (snd s) ;;
            ret ((x, y), (x', y'))) (fun r =>
      PJ b (fst r) S ∗ PJ b' (snd r) [] ∗
      ⌈same pl p b (fst (fst r)) b' (fst (snd r)) &&
       same pl f (b + esize p) (snd (fst r)) (b' + esize p) (snd (snd r)) =
       same_after pl p (fst s) && same_after pl f (snd s)⌉).
  Proof.
    intros (Hb1&Hb2&Hb3) Hap [Hm1 Hm2]%andb_true_iff HS.
    iIntros "[(%S1 & %S2 & (%HP & %H1 & %H2) & HJ1 & HJ2) Hr]".
    destruct (pair_nil _ _ _ _ _ HP HS) as [HS1 HS2].
    assert (Hal : esize p mod 16 = 0) by (rewrite -(den_size pl); apply (c_size _ _ _ CP)).
    rewrite (raw_split b _ (esize p)); [|lia]. iDestruct "Hr" as "[Hr1 Hr2]".
    replace (esize p + esize f - esize p) with (esize f) by lia. rewrite den_size.
    iApply wp_bind. iApply wp_strong_mono. iSplitL "HJ1 Hr1".
    { iApply (m_ctor _ LP b b'); [split; [done|lia]|by eapply apart_l|done|done|iFrame]. }
    iIntros ([x x']) "(Hx & Hx' & %Hxe)". cbn [fst snd] in *.
    iApply wp_bind. iApply wp_strong_mono. iSplitL "HJ2 Hr2".
    { iApply (m_ctor _ LF (b + esize p) (b' + esize p)); [unfold fits; lia|by apply apart_r|done|done|iFrame]. }
    iIntros ([y y']) "(Hy & Hy' & %Hye)". cbn [fst snd] in *. iApply wp_ret. cbn [fst snd].
    iSplitL "Hx Hy". { iApply pair_J_intro; [exact HP|done|done|]. rewrite den_size. iFrame. }
    iSplitL. { iApply (pair_J_intro _ _ _ _ _ _ _ _ [] []); [done..|]. rewrite den_size. iFrame. }
    iPureIntro. by rewrite Hxe Hye.
  Qed.

  Lemma pair_assign b b' d s S : assignable p && assignable f = true -> apart b b' (esize p + esize f) ->
    may_move pl p (fst s) && may_move pl f (snd s) = true -> esize p + esize f = 0 \/ S = [] ->
    PJ b d [] ∗ PJ b' s S ⊢
    wp bad (' (x, x') <- move_assign pl p b (fst d) b' (fst s) ;;
            ' (y, y') <- move_assign pl f (b + esize p) (snd d) (b' + esize p) (snd s) ;;
            ret ((x, y), (x', y'))) (fun r =>
      PJ b (fst r) S ∗ PJ b' (snd r) [] ∗
      ⌈same pl p b (fst (fst r)) b' (fst (snd r)) &&
       same pl f (b + esize p) (snd (fst r)) (b' + esize p) (snd (snd r)) =
       same_after pl p (fst s) && same_after pl f (snd s)⌉).
  Proof.
    intros [Ha1 Ha2]%andb_true_iff Hap [Hm1 Hm2]%andb_true_iff HS.
    iIntros "[(%D1 & %D2 & (%HPD & _ & _) & HD1 & HD2) (%S1 & %S2 & (%HP & %H1 & %H2) & HJ1 & HJ2)]".
    apply Permutation_nil in HPD. apply app_eq_nil in HPD as [-> ->].
    destruct (pair_nil _ _ _ _ _ HP HS) as [HS1 HS2]. rewrite den_size.
    iApply wp_bind. iApply wp_strong_mono. iSplitL "HJ1 HD1".
    { iApply (m_assign _ LP b b'); [done|by eapply apart_l|done|done|iFrame]. }
    iIntros ([x x']) "(Hx & Hx' & %Hxe)". cbn [fst snd] in *.
    iApply wp_bind. iApply wp_strong_mono. iSplitL "HJ2 HD2".
    { iApply (m_assign _ LF (b + esize p) (b' + esize p)); [done|by apply apart_r|done|done|iFrame]. }
    iIntros ([y y']) "(Hy & Hy' & %Hye)". cbn [fst snd] in *. iApply wp_ret. cbn [fst snd].
    iSplitL "Hx Hy". { iApply pair_J_intro; [exact HP|done|done|]. rewrite den_size. iFrame. }
    iSplitL. { iApply (pair_J_intro _ _ _ _ _ _ _ _ [] []); [done..|]. rewrite den_size. iFrame. }
    iPureIntro. by rewrite Hxe Hye.
  Qed.

  Lemma pair_give b b' s s' x S S' : apart b b' (esize p + esize f) ->
    same pl p b (fst s) b' (fst s') && same pl f (b + esize p) (snd s) (b' + esize p) (snd s') = true ->
    PJ b s (x :: S) ∗ PJ b' s' S' ⊢ PJ b s S ∗ PJ b' s' (x :: S').
  Proof.
    intros Hap [Hs1 Hs2]%andb_true_iff.
    iIntros "[(%S1 & %S2 & (%HP & %H1 & %H2) & HJ1 & HJ2) (%T1 & %T2 & (%HT & %G1 & %G2) & HT1 & HT2)]".
    rewrite den_size. apply perm_cons_app in HP as [(S1'&E&HP)|(S2'&E&HP)].
    - rewrite (c_perm _ _ _ CP _ _ _ _ E). rewrite E in H1. apply Forall_cons_iff in H1 as [H0 H1].
      iDestruct (m_give _ LP with "[$HJ1 $HT1]") as "[HJ1 HT1]"; [by eapply apart_l|done|].
      iSplitL "HJ1 HJ2".
      + iExists S1', S2. rewrite den_size. by iFrame.
      + iExists (x :: T1), T2. rewrite den_size. iFrame. iPureIntro. split_and!; [by rewrite HT|by apply Forall_cons_iff|done].
    - rewrite (c_perm _ _ _ CF _ _ _ _ E). rewrite E in H2. apply Forall_cons_iff in H2 as [H0 H2].
      iDestruct (m_give _ LF with "[$HJ2 $HT2]") as "[HJ2 HT2]"; [by apply apart_r|done|].
      iSplitL "HJ1 HJ2".
      + iExists S1, S2'. rewrite den_size. by iFrame.
      + iExists T1, (x :: T2). rewrite den_size. iFrame. iPureIntro. split_and!; [|done|by apply Forall_cons_iff].
        rewrite HT. apply Permutation_middle.
  Qed.

  Lemma pair_empty b s : moves_empty p && moves_empty f = true ->
    PJ b s [] ⊢ ⌜may_move pl p (fst s) && may_move pl f (snd s) = true⌝.
  Proof.
    intros [H1 H2]%andb_true_iff. iIntros "(%S1 & %S2 & (%HP & _ & _) & HJ1 & HJ2)".
    apply Permutation_nil in HP. apply app_eq_nil in HP as [-> ->].
    iDestruct (m_empty _ LP with "HJ1") as %->; [done|]. iDestruct (m_empty _ LF with "HJ2") as %->; done.
  Qed.
End pair.

Section overflow.
  Context {bad : event -> bool} {pl : platform} {e : aexp} (C : contract bad (den pl e) (ereq pl e)).
  Context (HL : laws C).

  Lemma overflow_laws : laws (e := EOverflow e) (pl := pl) (overflow_contract C).
  Proof.
    split; cbn [den J overflow_contract esize].
    - intros b b' s S Hb Hap Hm HS. cbn [may_move move_ctor] in *. iIntros "[(HJ & Hg & %H64) Hr]".
      assert (Hin : esize e = 0 \/ map widen S = []) by (destruct HS as [HS| ->]; auto).
      iApply wp_bind. iApply wp_strong_mono. iSplitL "HJ Hr"; [iApply (m_ctor _ HL b b'); [done..|iFrame]|].
      iIntros ([i i']) "(HJ & HJ' & %Heq)". cbn [fst snd] in *. iApply wp_ret. cbn [fst snd same same_after o_in].
      iSplitL "HJ Hg"; [by iFrame|]. iSplitL; [|done]. unfold ov_J, guards. rewrite big_sepL_nil. iFrame "HJ'". iSplit; [done|].
      iPureIntro. constructor.
    - done.
    - intros b b' s s' x S S' Hap Hs. cbn [same] in Hs. iIntros "[(HJ & Hg & %H64) (HJ' & Hg' & %H64')]".
      rewrite List.map_cons guards_cons. iDestruct "Hg" as "[Hx Hg]". apply Forall_cons_iff in H64 as [H0 H64].
      iDestruct (m_give _ HL with "[$HJ $HJ']") as "[HJ HJ']"; [done..|].
      iSplitL "HJ Hg"; [by iFrame|]. unfold ov_J. rewrite List.map_cons guards_cons. iFrame. iPureIntro. by apply Forall_cons_iff.
    - intros b s He. cbn [moves_empty may_move] in *. iIntros "(HJ & _)". by iApply (m_empty _ HL with "HJ").
  Qed.
End overflow.

(** * Every movable composition *)
Definition move_contract bad pl e : pl <> PPosix -> wf e = true -> movable e = true ->
  (eboxed e = true -> bad EvFail || bad EvRefuse = true) -> exists T : tcontract bad pl e, laws (tc _ _ _ T).
Proof.
  intros Hpl. induction e as [| |Size| |Min Max e IH|e IH|p IHp f IHf|T p IHp f IHf|e IH|e IH|e IH|e IH|e IH|e IH];
    cbn [wf movable eboxed]; intros Hwf Hmov Hb; try done.
  - unshelve eexists (TC bad pl ENull (null_contract bad) _); [done|]. apply null_laws.
  - unshelve eexists (TC bad pl EMalloc (mal_contract bad pl Hpl) _); [done|]. apply mal_laws.
  - unshelve eexists (TC bad pl (ELinear Size) (lin_contract Size bad) _); [done|]. apply lin_laws. lia.
  - apply andb_true_iff in Hwf as [[H1 H2]%andb_true_iff Hwf].
    destruct (IH Hwf Hmov Hb) as [[C HC] HL].
    unshelve eexists (TC bad pl (EFreelist Min Max e) (freelist_contract C Min Max (proj1 (N.leb_le _ _) H1) (proj1 (N.ltb_lt _ _) H2)) _).
    { intros Hm b s Hr. apply HC; [|done]. intros E. apply Hm. cbn. by rewrite E. }
    by apply freelist_laws.
  - apply andb_true_iff in Hwf as [[[[Hwf Ho]%andb_true_iff Hd]%andb_true_iff Hr]%andb_true_iff Hs].
    apply N.ltb_lt in Hs. rewrite -(den_size pl) in Hs.
    destruct (tree_contract bad pl e Hpl Hwf (fun _ => Hb eq_refl)) as [C HC].
    unshelve eexists (TC bad pl (ECascading e) (cascading_contract C pl Hpl (Hb eq_refl) Hs (owns_of_Some _ (den_owns pl e Ho))
      (fun Hm b s => HC Hm b s (eready_always pl e Hr Hm b s))) _).
    { intros Hm b s. by destruct s. }
    apply cascading_laws.
  - apply andb_true_iff in Hwf as [[H1 H2]%andb_true_iff Ho]. apply andb_true_iff in Hmov as [M1 M2].
    destruct (IHp H1 M1) as [[CP HCP] LP]; [intros E; apply Hb; by rewrite E|].
    destruct (IHf H2 M2) as [[CF HCF] LF]; [intros E; apply Hb; rewrite E; apply orb_true_r|].
    unshelve eexists (TC bad pl (EFallback p f) (fallback_contract CP CF (den_owns pl p Ho)) _).
    { clear LP LF. cbn [eready_now]. intros Hm b s [Hr1 Hr2]%andb_true_iff. cbn in Hm |- *. unfold pair_max, omap2 in Hm.
      unfold pair_rdy. rewrite den_size. rewrite HCP; [|by destruct (a_max (den pl p))|done].
      rewrite HCF; [done| |done]. by destruct (a_max (den pl p)), (a_max (den pl f)). }
    cbn [tc] in *. split; cbn [den J fallback_contract esize].
    + intros. by apply pair_ctor.
    + intros. by apply pair_assign.
    + intros. by apply pair_give.
    + intros. by apply pair_empty.
  - apply andb_true_iff in Hwf as [H1 H2]. apply andb_true_iff in Hmov as [M1 M2].
    destruct (IHp H1 M1) as [[CP HCP] LP]; [intros E; apply Hb; by rewrite E|].
    destruct (IHf H2 M2) as [[CF HCF] LF]; [intros E; apply Hb; rewrite E; apply orb_true_r|].
    unshelve eexists (TC bad pl (ESegragator T p f) (segragator_contract CP CF T) _).
    { clear LP LF. cbn [eready_now]. intros Hm b s [Hr1 Hr2]%andb_true_iff. cbn in Hm |- *. unfold pair_max, omap2 in Hm.
      unfold pair_rdy. rewrite den_size. rewrite HCP; [|by destruct (a_max (den pl p))|done].
      rewrite HCF; [done| |done]. by destruct (a_max (den pl p)), (a_max (den pl f)). }
    cbn [tc] in *. split; cbn [den J segragator_contract esize].
    + intros. by apply pair_ctor.
    + intros. by apply pair_assign.
    + intros. by apply pair_give.
    + intros. by apply pair_empty.
  - destruct (IH Hwf Hmov Hb) as [[C HC] HL].
    unshelve eexists (TC bad pl (EOverflow e) (overflow_contract C) _).
    { intros Hm b s Hr. apply HC; [|done]. intros E. apply Hm. cbn. by rewrite E. }
    by apply overflow_laws.
Qed.
