(** cascading obeys the contract if its inner allocator does. *)
From iris.proofmode Require Import tactics.
From Verif Require Import Base Mem Sep Wp Bits AlignedMalloc AlignedMallocProofs Allocators Contract NodeProofs.

Local Open Scope N_scope.

(** owns of the inner allocator; cascading.h:31 requires it. *)
Definition owns_of (A : alloc) : N -> a_st A -> N -> bool :=
  match a_owns A with Some o => o | None => fun _ _ _ => false end.

Section cascading.
  Context {bad : event -> bool} {A : alloc} {req : N -> bool}.
  Context (CA : contract bad A req) (pl : platform).
  Context (Hpl : pl <> PPosix) (Hfail : bad EvFail || bad EvRefuse = true) (Hsz : a_size A + 32 < W).
  Context (Howns : a_owns A = Some (owns_of A)).
  (** max_size() of the inner allocator may be called in every state *)
  Context (Hrdy : a_max A <> None -> forall b s, rdy CA b s = true).

  Definition node_J (nd : node A) (T : list (N * N)) : hpropI :=
    box CA pl (nd_addr nd) (nd_in nd) T ∗ ⌈nd_cnt nd = w64 (N.of_nat (length T))⌉.

  Fixpoint nodes_J (nds : list (node A)) (TT : list (list (N * N))) : hpropI :=
    match nds, TT with
    | [], [] => emp
    | nd :: nds, T :: TT => node_J nd T ∗ nodes_J nds TT
    | _, _ => False
    end.

  Definition casc_J (b : N) (s : list (node A)) (S : list (N * N)) : hpropI :=
    ∃ TT, ⌈S ≡ₚ concat TT /\ Forall (fun x => 0 < snd x) S⌉ ∗ nodes_J s TT.

  Lemma node_intro p s c T : p <> 0 -> c = w64 (N.of_nat (length T)) ->
    J CA p s T ∗ raw (p + a_size A) 16 ∗ amtok pl p (a_size A + 16) ⊢ node_J (Node p s c) T.
  Proof. iIntros (??) "(?&?&?)". by iFrame. Qed.

  Lemma nodes_nil_l TT : nodes_J [] TT ⊢ ⌈TT = []⌉.
  Proof. destruct TT; cbn [nodes_J]; [by iIntros "_"|iIntros "[]"]. Qed.
  Lemma nodes_cons_l nd nds TT : nodes_J (nd :: nds) TT ⊢ ∃ T TT', ⌈TT = T :: TT'⌉ ∗ node_J nd T ∗ nodes_J nds TT'.
  Proof. destruct TT as [|T TT]; cbn [nodes_J]; [iIntros "[]"|]. iIntros "[? ?]". iExists T, TT. by iFrame. Qed.

  Lemma node_perm nd T T' : T ≡ₚ T' -> node_J nd T ⊢ node_J nd T'.
  Proof.
    iIntros (HT) "[(HJ & Hr & Ht & %Hp) %Hc]". unfold node_J, box. rewrite (c_perm _ _ _ CA _ _ T T') //.
    iFrame. iSplit; [done|]. iPureIntro. by rewrite -HT.
  Qed.

  Lemma node_good nd T : node_J nd T ⊢ ⌜Forall good T⌝.
  Proof. iIntros "[(HJ & Hr & Ht & %Hp) %Hc]". by iDestruct (c_good _ _ _ CA with "HJ") as %H. Qed.

  Lemma nodes_good nds TT : nodes_J nds TT ⊢ ⌜Forall good (concat TT)⌝.
  Proof.
    revert TT. induction nds as [|nd nds IH]; intros TT.
    - rewrite nodes_nil_l. iIntros "->". iPureIntro. constructor.
    - rewrite nodes_cons_l. iIntros "(%T & %TT' & -> & Hn & Hns)". iDestruct (node_good with "Hn") as %H1.
      iDestruct (IH with "Hns") as %H2. iPureIntro. cbn [concat]. by apply Forall_app.
  Qed.

  Lemma wp_new_node (Q : node A -> hpropI) :
    (∀ nd, node_J nd [] -∗ Q nd) ⊢ wp bad (new_node pl A) Q.
  Proof.
    iIntros "H". unfold new_node, node_size.
    iApply (wp_new_box CA pl Hpl Hfail Hsz (fun p s => ret (Node p s 0))).
    iIntros (p s) "Hb". iApply wp_ret. iApply "H". by iFrame.
  Qed.

  Lemma wp_del_node nd (Q : unit -> hpropI) : node_J nd [] ∗ Q tt ⊢ wp bad (del_node pl A nd) Q.
  Proof.
    iIntros "[[Hb %Hc] HQ]". unfold del_node. iApply (wp_del_box CA pl Hsz). iFrame.
  Qed.

  Lemma casc_alloc_spec b s S n : (0 <? n) && req n = true -> n < W ->
    casc_J b s S ⊢ wp bad (casc_alloc pl A s n) (fun ps =>
      ⌈fst ps = 0⌉ ∗ casc_J b (snd ps) S ∨
      ⌈fst ps <> 0⌉ ∗ raw (fst ps) n ∗ casc_J b (snd ps) ((fst ps, n) :: S)).
  Proof.
    intros [Hn0 Hreq]%andb_true_iff HnW. apply N.ltb_lt in Hn0. unfold casc_alloc.
    iIntros "(%TT & (%HS & %Hpos) & Hns)". iApply wp_bind.
    iApply (wp_strong_mono _ _ (fun x => ∃ T TT', ⌈S ≡ₚ T ++ concat TT'⌉ ∗ node_J (fst x) T ∗ nodes_J (snd x) TT')%I).
    iSplitL "Hns".
    { destruct s as [|nd rest].
      - rewrite nodes_nil_l. iDestruct "Hns" as %->. iApply wp_bind. iApply wp_new_node. iIntros (nd) "Hn".
        iApply wp_ret. iExists [], []. cbn [fst snd nodes_J]. by iFrame.
      - rewrite nodes_cons_l. iDestruct "Hns" as (T TT') "(-> & Hn & Hns)". iApply wp_ret.
        iExists T, TT'. cbn [fst snd]. by iFrame. }
    clear HS TT s. iIntros ([nd rest]) "(%T & %TT & %HS & Hn & Hns)". cbn [fst snd].
    iDestruct "Hn" as "[(HJ & Hr & Ht & %Hp) %Hc]".
    iApply wp_bind. iApply (wp_strong_mono _ _ (fun over => J CA (nd_addr nd) (nd_in nd) T)).
    iSplitL "HJ".
    { destruct (a_max A) as [mx|] eqn:Hmx; [|by iApply wp_ret].
      iApply wp_bind. iApply wp_strong_mono. iSplitL.
      { iApply (c_max _ _ _ CA with "HJ"); [done|]. apply Hrdy. done. }
      iIntros (v) "[_ HJ]". by iApply wp_ret. }
    iIntros (over) "HJ". destruct over.
    { iApply wp_ret. iLeft. cbn [fst snd]. iSplit; [done|]. iExists (T :: TT). cbn [concat nodes_J].
      by iFrame. }
    iApply wp_bind. iApply wp_strong_mono. iSplitL "HJ"; [by iApply (c_alloc _ _ _ CA)|].
    iIntros ([q si]) "[[%Hq HJ]|(%Hq & Hraw & HJ)]"; cbn [fst snd] in *.
    - rewrite Hq. cbn [N.eqb]. iApply wp_bind. iApply wp_new_node. iIntros (nd2) "[(HJ2 & Hr2 & Ht2 & %Hp2) %Hc2]".
      iApply wp_bind. iApply wp_strong_mono. iSplitL "HJ2"; [by iApply (c_alloc _ _ _ CA)|].
      iIntros ([q2 si2]) "[[%Hq2 HJ2]|(%Hq2 & Hraw2 & HJ2)]"; cbn [fst snd] in *; iApply wp_ret; cbn [fst snd].
      + iLeft. iSplit; [done|]. iExists ([] :: T :: TT). cbn [concat nodes_J app]. rewrite Hq2. cbn [N.eqb].
        iSplit; [done|]. iFrame "Hns". iSplitL "HJ2 Hr2 Ht2"; (iApply node_intro; [done..|]); iFrame.
      + iRight. iSplit; [done|]. iFrame "Hraw2". iExists ([(q2, n)] :: T :: TT). cbn [concat nodes_J app].
        rewrite (proj2 (N.eqb_neq _ _) Hq2). iSplit.
        { iPureIntro. split; [by rewrite HS|by apply Forall_cons_iff]. }
        iFrame "Hns". iSplitL "HJ2 Hr2 Ht2"; (iApply node_intro; [done|..|iFrame]); [|done].
        by rewrite Hc2.
    - rewrite (proj2 (N.eqb_neq _ _) Hq). iApply wp_ret. cbn [fst snd]. iRight. iSplit; [done|]. iFrame "Hraw".
      iExists (((q, n) :: T) :: TT). cbn [concat nodes_J]. iFrame "Hns". iSplit.
      { iPureIntro. split; [by rewrite HS|by apply Forall_cons_iff]. }
      iApply node_intro; [done|..|iFrame]. cbn [length]. rewrite Hc Nat2N.inj_succ -N.add_1_r.
      unfold add64, w64. rewrite N.add_mod_idemp_l //.
  Qed.

  Lemma w64_pred k : sub64 (w64 (N.of_nat (S k))) 1 = w64 (N.of_nat k).
  Proof.
    rewrite Nat2N.inj_succ -N.add_1_r. unfold sub64, w64.
    set (x := N.of_nat k). rewrite -(N.add_mod_idemp_l x 1) //.
    assert (HW : W <> 0) by done. pose proof (N.mod_upper_bound x W HW).
    destruct (decide (x mod W + 1 = W)) as [E|E].
    - rewrite E N.mod_same // N.mod_small; lia.
    - rewrite (N.mod_small (x mod W + 1)); [|lia].
      replace (x mod W + 1 + W - 1) with (x mod W + 1 * W) by lia. rewrite N.mod_add // N.mod_small; lia.
  Qed.

  (** owns is false for an accessible byte outside of the node's blocks. *)
  Lemma node_owns_out nd T L q c : shape L ≡ₚ T -> q <> 0 ->
    node_J nd T ∗ blocks L ∗ q ↦ c ⊢ ⌜owns_of A (nd_addr nd) (nd_in nd) q = false⌝.
  Proof.
    iIntros (HL Hq) "([(HJ & Hr & Ht & %Hp) %Hc] & HL & Hq)".
    rewrite (c_perm _ _ _ CA _ _ T (shape L)) //.
    by iDestruct (c_owns_out _ _ _ CA with "[$HJ $HL $Hq]") as %H.
  Qed.
  Lemma node_owns_in nd T p n q : (p, n) ∈ T -> p <= q < p + n ->
    node_J nd T ⊢ ⌜owns_of A (nd_addr nd) (nd_in nd) q = true⌝.
  Proof.
    iIntros (HT Hq) "[(HJ & Hr & Ht & %Hp) %Hc]".
    iDestruct (c_owns_in _ _ _ CA with "HJ") as %H; [done|]. iPureIntro. by apply (H p n).
  Qed.

  Lemma casc_free_loop_spec prev s p cs L TT : Forall dead cs -> (0 < length cs)%nat ->
    Forall (fun x => 0 < snd x) (shape L) ->
    bsize (p, cs) :: shape L ≡ₚ concat TT ->
    nodes_J s TT ∗ p ↦∗ cs ∗ blocks L ⊢
    wp bad (casc_free_loop pl A (owns_of A) prev s p (N.of_nat (length cs))) (fun s' =>
      ∃ TT', ⌈shape L ≡ₚ concat TT'⌉ ∗ nodes_J s' TT' ∗ blocks L).
  Proof.
    intros Hd Hlen. revert prev L TT. induction s as [|nd s IH]; intros prev L TT Hpos HP; cbn [casc_free_loop].
    - rewrite nodes_nil_l. iIntros "(-> & Hc & HL)". apply Permutation_nil_r in HP. done.
    - rewrite nodes_cons_l. iIntros "((%T & %TT' & -> & Hn & Hns) & Hc & HL)". cbn [concat] in HP.
      apply perm_cons_app in HP as [(T'&HT&HL)|(R&HR&HL)].
      + iDestruct (node_owns_in _ _ p (N.of_nat (length cs)) p with "Hn") as %HO; [by rewrite HT; left|lia|].
        rewrite HO. apply shape_split in HL as (L1&L2&HL&HL1&HL2).
        iEval (rewrite (blocks_perm _ _ HL) blocks_app) in "HL". iDestruct "HL" as "[HL1 HL2]".
        rewrite (node_perm nd T (bsize (p, cs) :: shape L1)); [|by rewrite HL1].
        iDestruct (node_good with "Hn") as %Hg. apply Forall_cons_iff in Hg as [_ Hg].
        iDestruct "Hn" as "[(HJ & Hr & Ht & %Hp) %Hcnt]".
        iApply wp_bind. iApply wp_strong_mono. iSplitL "HJ Hc HL1".
        { iApply (c_free _ _ _ CA); [done|]. iFrame. }
        iIntros (si) "[HJ HL1]". cbn [nd_cnt].
        iDestruct (blocks_lt with "HL1") as %Hlt; [done| |].
        { rewrite (shape_perm _ _ HL) shape_app in Hpos. by apply Forall_app in Hpos as [? _]. }
        assert (Hc' : sub64 (nd_cnt nd) 1 = N.of_nat (length (shape L1))).
        { rewrite Hcnt. cbn [length]. rewrite w64_pred w64_small //. unfold shape. by rewrite map_length. }
        destruct ((sub64 (nd_cnt nd) 1 =? 0) && prev) eqn:Hdel.
        * apply andb_true_iff in Hdel as [Hdel _]. apply N.eqb_eq in Hdel.
          assert (shape L1 = []) as HL1n. { destruct (shape L1); [done|]. cbn [length] in Hc'. lia. }
          iApply wp_bind. iApply wp_del_node. iSplitL "HJ Hr Ht".
          { iApply node_intro; [done|by rewrite Hdel|]. rewrite HL1n. iFrame. }
          iApply wp_ret. iExists TT'. iFrame. iSplit.
          { iPureIntro. rewrite (shape_perm _ _ HL) shape_app HL1n HL2 //. }
          rewrite (blocks_perm L (L1 ++ L2)) // blocks_app. iFrame.
        * iApply wp_ret. iExists (shape L1 :: TT'). cbn [concat nodes_J]. iFrame "Hns".
          rewrite (blocks_perm L (L1 ++ L2)) // blocks_app. iFrame "HL1 HL2". iSplit.
          { iPureIntro. rewrite (shape_perm _ _ HL) shape_app HL2 //. }
          iApply node_intro; [done| |iFrame]. rewrite Hc' w64_small //. unfold shape. by rewrite map_length.
      + apply shape_split in HL as (L1&L2&HL&HL1&HL2).
        iEval (rewrite (blocks_perm _ _ HL) blocks_app) in "HL". iDestruct "HL" as "[HL1 HL2]".
        iDestruct (nodes_good with "Hns") as %Hg. rewrite HR in Hg. apply Forall_cons_iff in Hg as [(Hg&_) _].
        destruct (pts_head p cs Hlen) as (c&cs'&Hcs&Hpt). cbn [bsize fst] in Hg.
        iAssert ⌜owns_of A (nd_addr nd) (nd_in nd) p = false⌝%I with "[Hn HL1 Hc]" as %HO.
        { rewrite Hpt. iDestruct "Hc" as "[Hc _]". iApply (node_owns_out with "[$Hn $HL1 $Hc]"); [by rewrite HL1|done]. }
        rewrite HO. iApply wp_bind. iApply wp_strong_mono. iSplitL "Hns Hc HL2".
        { iApply (IH true L2 TT'); [|by rewrite HL2 HR|iFrame].
          rewrite (shape_perm _ _ HL) shape_app in Hpos. by apply Forall_app in Hpos as [_ ?]. }
        iIntros (s') "(%TT2 & %HTT2 & Hns & HL2)". iApply wp_ret. iExists (T :: TT2). cbn [concat nodes_J].
        rewrite (blocks_perm L (L1 ++ L2)) // blocks_app. iFrame. iPureIntro.
        rewrite (shape_perm _ _ HL) shape_app HL1 HTT2 //.
  Qed.

  Lemma nodes_owns_out s TT L q c : shape L ≡ₚ concat TT -> q <> 0 ->
    nodes_J s TT ∗ blocks L ∗ q ↦ c ⊢ ⌜casc_owns A (owns_of A) s q = false⌝.
  Proof.
    intros HP Hq. revert TT L HP. induction s as [|nd s IH]; intros TT L HP; [by iIntros "_"|].
    rewrite nodes_cons_l. iIntros "((%T & %TT' & -> & Hn & Hns) & HL & Hc)". cbn [concat] in HP.
    apply shape_split in HP as (L1&L2&HL&HL1&HL2).
    iEval (rewrite (blocks_perm _ _ HL) blocks_app) in "HL". iDestruct "HL" as "[HL1 HL2]".
    unfold casc_owns. cbn [existsb].
    iAssert ⌜owns_of A (nd_addr nd) (nd_in nd) q = false⌝%I with "[Hn HL1 Hc]" as %->.
    { iApply (node_owns_out with "[$Hn $HL1 $Hc]"); [by rewrite HL1|done]. }
    iAssert ⌜casc_owns A (owns_of A) s q = false⌝%I with "[Hns HL2 Hc]" as %HO; [|done].
    iApply (IH with "[$Hns $HL2 $Hc]"). by rewrite HL2.
  Qed.

  Lemma nodes_owns_in s TT p n q : (p, n) ∈ concat TT -> p <= q < p + n ->
    nodes_J s TT ⊢ ⌜casc_owns A (owns_of A) s q = true⌝.
  Proof.
    intros Hin Hq. revert TT Hin. induction s as [|nd s IH]; intros TT Hin.
    - rewrite nodes_nil_l. iIntros "->". by apply elem_of_nil in Hin.
    - rewrite nodes_cons_l. iIntros "(%T & %TT' & -> & Hn & Hns)". cbn [concat] in Hin.
      unfold casc_owns. cbn [existsb]. apply elem_of_app in Hin as [Hin|Hin].
      + iDestruct (node_owns_in _ _ _ _ _ Hin Hq with "Hn") as %->. done.
      + iDestruct (IH _ Hin with "Hns") as %HO. iPureIntro. apply orb_true_iff. by right.
  Qed.

  Lemma casc_cd_spec o c s TT L q act (R : unit -> hpropI) : a_cd A = Some o ->
    shape L ≡ₚ concat TT -> (exists p n, (p, n) ∈ shape L /\ p <= q < p + n) ->
    nodes_J s TT ∗ blocks L ∗ (blocks L -∗ wp bad act R)
    ⊢ wp bad (casc_cd A (owns_of A) o c s q act) (fun s' => nodes_J s' TT ∗ R tt).
  Proof.
    intros Ho. revert TT L R. induction s as [|nd s IH]; intros TT L R HP Hin; cbn [casc_cd].
    - destruct Hin as (p&n&Hin&Hq). rewrite nodes_nil_l. iIntros "(-> & HL & Hact)".
      rewrite HP in Hin. by apply elem_of_nil in Hin.
    - rewrite nodes_cons_l. iIntros "((%T & %TT' & -> & Hn & Hns) & HL & Hact)". cbn [concat] in HP.
      iDestruct (nodes_good with "Hns") as %Hg.
      apply shape_split in HP as (L1&L2&HL&HL1&HL2).
      iEval (rewrite (blocks_perm _ _ HL) blocks_app) in "HL". iEval (rewrite (blocks_perm _ _ HL) blocks_app) in "Hact".
      iDestruct "HL" as "[HL1 HL2]".
      destruct Hin as (p&n&Hin&Hq). rewrite (shape_perm _ _ HL) shape_app in Hin.
      apply elem_of_app in Hin as [Hin|Hin].
      + iDestruct (node_owns_in _ _ p n q with "Hn") as %HO; [by rewrite -HL1|done|]. rewrite HO.
        iDestruct "Hn" as "[(HJ & Hr & Ht & %Hp) %Hcnt]". rewrite -HL1.
        iApply wp_bind. iApply wp_strong_mono. iSplitL "HJ HL1 HL2 Hact".
        { iApply (c_cd _ _ _ CA o c (nd_addr nd) (nd_in nd) L1 q act R Ho); [by exists p, n|].
          iFrame "HJ HL1". iIntros "HL1". iApply "Hact". iFrame. }
        iIntros (si) "[HJ HR]". iApply wp_ret. cbn [nodes_J]. iFrame "Hns HR".
        iApply node_intro; [done|by rewrite Hcnt HL1|iFrame].
      + apply elem_of_shape in Hin as Hin'. destruct Hin' as (cs&HinL&Hn).
        destruct (shape_in_blocks _ _ _ HinL) as (L2'&HL2').
        iAssert ⌜owns_of A (nd_addr nd) (nd_in nd) q = false⌝%I with "[Hn HL1 HL2]" as %HO.
        { rewrite (blocks_perm L2 _ HL2') blocks_cons. iDestruct "HL2" as "[Hc _]".
          iDestruct (pts_take_ne p cs q with "[$Hc]") as (x) "(_ & Hx & _)"; [iPureIntro; lia|].
          iApply (node_owns_out with "[$Hn $HL1 $Hx]"); [by rewrite HL1|].
          rewrite -HL2 in Hg. rewrite List.Forall_forall in Hg. specialize (Hg (p, n)).
          rewrite -elem_of_list_In in Hg. destruct (Hg Hin) as (Hp&_&_). cbn [fst] in Hp. lia. }
        rewrite HO. iApply wp_bind. iApply wp_strong_mono. iSplitL "Hns HL1 HL2 Hact".
        { iApply (IH TT' L2 R); [by rewrite HL2|by exists p, n|]. iFrame "Hns HL2". iIntros "HL2".
          iApply "Hact". iFrame. }
        iIntros (s') "[Hns HR]". iApply wp_ret. cbn [nodes_J]. iFrame.
  Qed.

  Lemma casc_release_spec first s TT : concat TT = [] ->
    nodes_J s TT ⊢ wp bad (casc_release pl A first s) (fun _ => emp).
  Proof.
    revert first TT. induction s as [|nd s IH]; intros first TT HTT; cbn [casc_release].
    - rewrite nodes_nil_l. iIntros "->". by iApply wp_ret.
    - rewrite nodes_cons_l. iIntros "(%T & %TT' & -> & Hn & Hns)". cbn [concat] in HTT.
      apply app_eq_nil in HTT as [-> HTT]. iApply wp_bind.
      iAssert (∀ Q : unit -> hpropI, Q tt -∗ wp bad (if first then ret tt else emit (EvAssert ARelease)) Q)%I as "Hem".
      { iIntros (Q) "HQ". destruct first; [by iApply wp_ret|by iApply wp_emit]. }
      iApply "Hem". iApply wp_bind. iApply wp_del_node. iFrame "Hn". by iApply IH.
  Qed.

  Definition casc_req (n : N) : bool := (0 <? n) && req n.

  Definition cascading_contract : contract bad (cascading pl A) casc_req.
  Proof.
    refine (Contract bad (cascading pl A) casc_req casc_J (mv CA)
              (fun b s => match s with [] => false | _ => true end)
              _ _ _ _ _ _ _ _ _ _ _ _).
    - done.
    - iIntros (b s S S' HS) "(%TT & (%HP & %Hpos) & H)". iExists TT. iFrame. iPureIntro. by rewrite -HS.
    - iIntros (b s S) "(%TT & (%HP & %Hpos) & H)". iDestruct (nodes_good with "H") as %Hg. iPureIntro. by rewrite HP.
    - intros b _ _ _. cbn [cascading cascading_with a_init a_size]. rewrite raw_0. iIntros "_". iApply wp_ret.
      iExists []. cbn [nodes_J]. iSplit; [|done]. iPureIntro. split; [done|constructor].
    - iIntros (b s) "(%TT & (%HP & %Hpos) & H)". apply Permutation_nil in HP.
      cbn [cascading cascading_with a_dtor a_size]. iApply wp_strong_mono. iSplitL; [by iApply casc_release_spec|].
      iIntros ([]) "_". by rewrite raw_0.
    - apply casc_alloc_spec.
    - intros b s p cs L Hd. iIntros "((%TT & (%HP & %Hpos) & H) & Hc & HL)".
      apply Forall_cons_iff in Hpos as [Hpos0 Hpos]. cbn [bsize snd] in Hpos0.
      iDestruct (nodes_good with "H") as %Hg. rewrite -HP in Hg. apply Forall_cons_iff in Hg as [(Hg&_&_) _].
      cbn [bsize fst] in Hg.
      cbn [cascading cascading_with a_free]. unfold casc_free. rewrite (proj2 (N.eqb_neq _ _) Hg). cbn [negb].
      iApply wp_bind. iApply wp_assert; [done|].
      iApply wp_strong_mono. iSplitL; [iApply (casc_free_loop_spec _ _ _ _ _ TT); [done|lia|done|done|iFrame]|].
      iIntros (s') "(%TT' & %HTT & Hns & $)". iExists TT'. by iFrame.
    - intros o b s S [= <-]. iIntros "(%TT & (%HP & %Hpos) & H)".
      iAssert ⌜forall p n q, (p, n) ∈ concat TT -> p <= q < p + n -> casc_owns A (owns_of A) s q = true⌝%I
        with "[H]" as %HO.
      { iIntros (p n q Hin Hq). by iApply (nodes_owns_in with "H"). }
      iPureIntro. intros p n q Hin. apply HO. by rewrite -HP.
    - intros o b s L q c [= <-] Hq. iIntros "((%TT & (%HP & %Hpos) & H) & HL & Hc)".
      by iApply (nodes_owns_out with "[$H $HL $Hc]").
    - intros mx b s S Hmx Hr. cbn [cascading cascading_with a_max] in Hmx.
      destruct (a_max A) as [mA|] eqn:HmA; [|done]. injection Hmx as <-.
      destruct s as [|nd s]; [done|]. iIntros "(%TT & (%HP & %Hpos) & H)". cbn [casc_max].
      rewrite nodes_cons_l. iDestruct "H" as (T TT') "(-> & [(HJ & Hr & Ht & %Hp) %Hcnt] & Hns)".
      iApply wp_strong_mono. iSplitL "HJ"; [iApply (c_max _ _ _ CA with "HJ"); [done|by apply Hrdy]|].
      iIntros (v) "[$ HJ]". iExists (T :: TT'). cbn [nodes_J]. by iFrame.
    - intros b s S Hm. cbn [cascading cascading_with a_max] in Hm.
      assert (HmA : a_max A <> None) by (by destruct (a_max A)).
      iIntros "(%TT & (%HP & %Hpos) & H)".
      iAssert ⌜Forall (fun x => snd x <= mv CA) (concat TT)⌝%I with "[H]" as %HB; [|iPureIntro; by rewrite HP].
      clear HP Hpos. iInduction s as [|nd s] "IH" forall (TT).
      + rewrite nodes_nil_l. iDestruct "H" as %->. iPureIntro. constructor.
      + rewrite nodes_cons_l. iDestruct "H" as (T TT') "(-> & [(HJ & Hr & Ht & %Hp) %Hcnt] & Hns)".
        iDestruct (c_bound _ _ _ CA with "HJ") as %H1; [done|].
        iDestruct ("IH" with "Hns") as %H2. iPureIntro. cbn [concat]. by apply Forall_app.
    - intros o c b s L q act R Ho Hin. cbn [cascading cascading_with a_cd] in Ho.
      destruct (a_cd A) as [oA|] eqn:HoA; [|done]. injection Ho as <-.
      iIntros "((%TT & (%HP & %Hpos) & H) & HL & Hact)".
      iApply wp_strong_mono. iSplitL; [iApply (casc_cd_spec _ _ _ TT L q act R HoA HP Hin); iFrame|].
      iIntros (s') "[H $]". iExists TT. by iFrame.
  Defined.
End cascading.
