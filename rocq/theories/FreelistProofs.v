(** freelist obeys the contract if its inner allocator does. *)
From iris.proofmode Require Import tactics.
From Verif Require Import Base Mem Sep Wp Allocators Contract.

Local Open Scope N_scope.

Section freelist.
  Context {bad : event -> bool} {A : alloc} {req : N -> bool}.
  Context (CA : contract bad A req) (Min Max : N).
  (** static_assert of freelist.h:28; Max is a size_t *)
  Context (HMax : 8 <= Max) (HW : Max < W).

  (** The cached blocks: each starts with the address of the next one. *)
  Fixpoint chain (h : N) (C : list N) : hpropI :=
    match C with
    | [] => ⌈h = 0⌉
    | p :: C => ∃ nxt, ⌈h = p /\ nxt < W⌉ ∗ p ↦∗ enc 8 nxt ∗ raw (p + 8) (Max - 8) ∗ chain nxt C
    end%I.

  (** The unused ends of the outstanding blocks. *)
  Definition slack (S : list (N * N)) : hpropI :=
    [∗ list] x ∈ S, raw (fst x + snd x) (Max - snd x).

  Definition fl_inner (C : list N) (S : list (N * N)) : list (N * N) :=
    map (fun p => (p, Max)) C ++ map (fun x => (fst x, Max)) S.

  Definition inrange (x : N * N) : Prop := Min < snd x <= Max.

  Definition fl_J (b : N) (s : fl A) (S : list (N * N)) : hpropI :=
    ∃ C, ⌈Forall inrange S⌉ ∗ J CA b (f_in s) (fl_inner C S) ∗ chain (f_head s) C ∗ slack S.

  Lemma fl_range_spec n : fl_range Min Max n = true <-> Min < n <= Max.
  Proof. unfold fl_range. lia. Qed.

  Lemma chain_open h C : chain h C ⊢
    ∃ L, ⌈shape L = map (fun p => (p, Max)) C⌉ ∗ blocks L ∗ (blocks L -∗ chain h C).
  Proof.
    revert h. induction C as [|p C IH]; intros h; cbn [chain].
    - iIntros "%Hh". iExists []. iSplit; [done|]. unfold blocks. rewrite big_sepL_nil. iSplit; [done|].
      by iIntros "_".
    - iIntros "(%nxt & (%Hh & %Hn) & Hl & (%cs & (%Hc1 & %Hc2) & Hr) & H)". rewrite IH.
      iDestruct "H" as (L) "(%HL & HL & Hback)".
      iExists ((p, enc 8 nxt ++ cs) :: L). iSplit.
      { iPureIntro. rewrite shape_cons HL. unfold bsize. cbn [fst snd]. rewrite app_length enc_length.
        rewrite List.map_cons. do 2 f_equal. lia. }
      rewrite blocks_cons pts_app enc_length. change (N.of_nat 8) with 8. iFrame.
      iIntros "[[Hl Hr] HL]". iExists nxt. iFrame. iSplit; [done|]. iSplitL "Hr"; [by iApply raw_intro|].
      by iApply "Hback".
  Qed.

  Lemma slack_cons x S : slack (x :: S) ⊣⊢ raw (fst x + snd x) (Max - snd x) ∗ slack S.
  Proof. done. Qed.

  Lemma slack_open L : Forall inrange (shape L) -> blocks L ∗ slack (shape L) ⊢
    ∃ L', ⌈shape L' = map (fun x => (fst x, Max)) (shape L)⌉ ∗ blocks L' ∗
          (blocks L' -∗ blocks L ∗ slack (shape L)).
  Proof.
    induction L as [|[p cs] L IH]; intros Hr.
    - iIntros "[H1 H2]". iExists []. iSplit; [done|]. iFrame. iIntros "$".
    - rewrite shape_cons in Hr. apply Forall_cons_iff in Hr as [Hr0 Hr].
      rewrite shape_cons.
      iIntros "[[Hc HL] [Hs HS]]". cbn [bsize fst snd]. iDestruct (IH Hr with "[$HL $HS]") as (L') "(%HL & HL & Hback)".
      iDestruct "Hs" as (ds) "[(%Hl & %Hd) Hs]". unfold inrange in Hr0. cbn [bsize fst snd] in Hr0.
      iExists ((p, cs ++ ds) :: L'). iSplit.
      { iPureIntro. rewrite shape_cons HL. unfold bsize. cbn [fst snd]. rewrite app_length List.map_cons.
        cbn [fst snd]. do 2 f_equal. lia. }
      rewrite !blocks_cons !slack_cons pts_app. cbn [bsize fst snd]. iFrame. iIntros "[[$ Hs] HL]".
      iDestruct ("Hback" with "HL") as "[$ $]". by iApply raw_intro.
  Qed.

  Lemma fl_open b s L : fl_J b s (shape L) ∗ blocks L ⊢
    ∃ L', J CA b (f_in s) (shape L') ∗ blocks L' ∗
      ⌈Forall inrange (shape L) /\ forall x, x ∈ shape L -> (fst x, Max) ∈ shape L'⌉ ∗
      (blocks L' -∗ blocks L ∗ (∀ s', J CA b s' (shape L') -∗ fl_J b (Fl s' (f_head s)) (shape L))).
  Proof.
    iIntros "[(%C & %Hr & HJ & Hch & Hsl) HL]".
    rewrite chain_open. iDestruct "Hch" as (L1) "(%H1 & HL1 & Hb1)".
    iDestruct (slack_open with "[$HL $Hsl]") as (L2) "(%H2 & HL2 & Hb2)"; [done|].
    iExists (L1 ++ L2). rewrite blocks_app shape_app H1 H2. iFrame "HJ HL1 HL2". iSplit.
    { iPureIntro. split; [done|]. intros x Hin. apply elem_of_app. right. apply elem_of_list_fmap. by exists x. }
    iIntros "[HL1 HL2]". iDestruct ("Hb1" with "HL1") as "Hch". iDestruct ("Hb2" with "HL2") as "[$ Hsl]".
    iIntros (s') "HJ". iExists C. by iFrame.
  Qed.

  Lemma chain_memsize h C : chain h C ⊢ memsize (length C).
  Proof.
    revert h. induction C as [|p C IH]; intros h; cbn [chain length].
    - apply memsize_0.
    - iIntros "(%nxt & (%Hh & %Hn) & Hl & Hr & H)". rewrite IH memsize_pts enc_length.
      iApply (memsize_frame _ (raw (p + 8) (Max - 8))). iFrame "Hr".
      iApply (memsize_cut 8 (length C)); [lia|]. iFrame.
  Qed.

  Lemma fl_J_perm b s S S' : S ≡ₚ S' -> fl_J b s S ⊢ fl_J b s S'.
  Proof.
    iIntros (HS) "(%C & %Hr & HJ & Hch & Hsl)". iExists C.
    rewrite (c_perm _ _ _ CA b _ (fl_inner C S) (fl_inner C S')); [|unfold fl_inner; by rewrite HS].
    unfold slack. rewrite {1}HS. iFrame. iPureIntro. by rewrite -HS.
  Qed.

  Lemma fl_good b s S : fl_J b s S ⊢ ⌜Forall good S⌝.
  Proof.
    iIntros "(%C & %Hr & HJ & Hch & Hsl)". iDestruct (c_good _ _ _ CA with "HJ") as %Hg. iPureIntro.
    unfold fl_inner in Hg. apply Forall_app in Hg as [_ Hg].
    rewrite List.Forall_forall in Hr. rewrite List.Forall_forall in Hg. rewrite List.Forall_forall.
    intros [p n] Hin. specialize (Hr _ Hin). specialize (Hg (p, Max)).
    unfold good, inrange in *. cbn [fst snd] in *.
    destruct Hg as (?&?&?); [|repeat split; lia || done].
    apply in_map_iff. by exists (p, n).
  Qed.

  Lemma fl_alloc_spec b s S n : negb (fl_range Min Max n) || req Max = true -> n < W ->
    fl_J b s S ⊢ wp bad (fl_alloc Min Max A b s n) (fun ps =>
      ⌈fst ps = 0⌉ ∗ fl_J b (snd ps) S ∨
      ⌈fst ps <> 0⌉ ∗ raw (fst ps) n ∗ fl_J b (snd ps) ((fst ps, n) :: S)).
  Proof.
    intros Hreq Hn. unfold fl_alloc. destruct (fl_range Min Max n) eqn:Hr.
    2:{ iIntros "H". iApply wp_ret. iLeft. cbn [fst snd]. by iFrame. }
    apply fl_range_spec in Hr. cbn [negb orb] in Hreq.
    iIntros "(%C & %HS & HJ & Hch & Hsl)". destruct C as [|p C]; cbn [chain].
    - iDestruct "Hch" as %Hh. rewrite Hh. cbn [N.eqb].
      iApply wp_bind. iApply wp_strong_mono. iSplitL "HJ"; [by iApply (c_alloc _ _ _ CA)|].
      iIntros ([q s']) "[[%Hq HJ]|(%Hq & Hraw & HJ)]"; cbn [fst snd] in *; iApply wp_ret; cbn [fst snd].
      + iLeft. iSplit; [done|]. iExists []. cbn [f_in f_head chain]. by iFrame.
      + iRight. iSplit; [done|].
        rewrite (raw_split q Max n); [|lia]. iDestruct "Hraw" as "[$ Hraw]".
        iExists []. cbn [f_in f_head chain]. rewrite slack_cons. cbn [fst snd].
        iFrame. iSplit; [|done]. iPureIntro. apply Forall_cons_iff. done.
    - iDestruct "Hch" as (nxt) "((%Hh & %Hnx) & Hp & Hraw & Hch)". subst p.
      iDestruct (c_good _ _ _ CA with "HJ") as %Hg. apply Forall_cons_iff in Hg as [(Hg1&_&_) _].
      cbn [fst] in Hg1. rewrite (proj2 (N.eqb_neq _ _) Hg1).
      iApply wp_bind. iApply (wp_rd_ptr _ _ nxt); [done|]. iFrame "Hp". iIntros "Hp".
      iApply wp_ret. cbn [fst snd]. iRight. iSplit; [done|].
      iAssert (raw (f_head s) Max) with "[Hp Hraw]" as "Hraw".
      { rewrite (raw_split _ Max 8); [|lia]. iFrame. iApply (raw_intro _ _ (enc 8 nxt)); [by rewrite enc_length|apply enc_dead|done]. }
      rewrite (raw_split _ Max n); [|lia]. iDestruct "Hraw" as "[$ Hraw]".
      iExists C. cbn [f_in f_head]. rewrite slack_cons. cbn [fst snd].
      iFrame. iSplit; [iPureIntro; by apply Forall_cons_iff|].
      iApply (c_perm _ _ _ CA with "HJ"). unfold fl_inner. rewrite !List.map_cons. cbn [fst].
      rewrite -app_comm_cons. apply Permutation_middle.
  Qed.

  Lemma fl_free_spec b s p cs L : Forall dead cs ->
    fl_J b s (bsize (p, cs) :: shape L) ∗ p ↦∗ cs ∗ blocks L
    ⊢ wp bad (fl_free Min Max A b s p (N.of_nat (length cs))) (fun s' => fl_J b s' (shape L) ∗ blocks L).
  Proof.
    iIntros (Hd) "(HJ & Hp & HL)". iDestruct (fl_good with "HJ") as %Hg.
    apply Forall_cons_iff in Hg as [(Hg1&_&_) _]. cbn [bsize fst snd] in Hg1.
    iDestruct "HJ" as (C) "(%Hr & HJ & Hch & Hsl)". apply Forall_cons_iff in Hr as [Hr0 Hr].
    unfold fl_free. rewrite (proj2 (N.eqb_neq _ _) Hg1). cbn [negb].
    iApply wp_bind. iApply wp_assert; [done|].
    assert (Hr1 := Hr0). apply fl_range_spec in Hr1. cbn [bsize fst snd] in Hr1. rewrite Hr1. cbn [andb].
    rewrite slack_cons. cbn [bsize fst snd]. iDestruct "Hsl" as "[Hs0 Hsl]".
    unfold inrange in Hr0. cbn [bsize fst snd] in Hr0.
    iAssert (raw p Max) with "[Hp Hs0]" as "Hraw".
    { rewrite (raw_split _ Max (N.of_nat (length cs))); [|lia]. iFrame. by iApply raw_intro. }
    rewrite (raw_split _ Max 8); [|lia]. iDestruct "Hraw" as "[(%ds & (%Hl8 & %Hd8) & H8) Hraw]".
    iApply wp_bind.
    iAssert ⌜f_head s < W⌝%I with "[HJ Hch]" as %HhW.
    { destruct C as [|q C]; cbn [chain]; [iDestruct "Hch" as %->; done|].
      iDestruct "Hch" as (nxt) "((-> & %) & H)". iDestruct (c_good _ _ _ CA with "HJ") as %Hg.
      apply Forall_cons_iff in Hg as [(_&_&?) _]. iPureIntro. cbn [fst snd] in *. lia. }
    iApply (wp_wr_ptr _ _ _ ds); [lia|]. iFrame "H8". iIntros "H8".
    iApply wp_ret. iFrame "HL". iExists (p :: C). cbn [f_in f_head chain]. iFrame "Hsl".
    iSplit; [done|]. iSplitL "HJ".
    - iApply (c_perm _ _ _ CA with "HJ"). unfold fl_inner. rewrite !List.map_cons. cbn [bsize fst].
      rewrite -app_comm_cons. symmetry. apply Permutation_middle.
    - iExists (f_head s). by iFrame.
  Qed.

  Lemma fl_release_spec fuel b s h C : (length C < fuel)%nat ->
    J CA b s (map (fun p => (p, Max)) C) ∗ chain h C
    ⊢ wp bad (fl_release Max A fuel b s h) (fun s' => J CA b s' []).
  Proof.
    revert fuel s h. induction C as [|p C IH]; intros fuel s h Hf; (destruct fuel as [|fuel]; [cbn [length] in Hf; lia|]);
      cbn [chain fl_release].
    - iIntros "[HJ %Hh]". rewrite Hh. cbn [N.eqb]. by iApply wp_ret.
    - iIntros "[HJ (%nxt & (%Hh & %Hn) & Hp & Hr & Hch)]". subst p.
      iDestruct (c_good _ _ _ CA with "HJ") as %Hg. apply Forall_cons_iff in Hg as [(Hg1&_&_) _].
      cbn [fst] in Hg1. rewrite (proj2 (N.eqb_neq _ _) Hg1).
      iApply wp_bind. iApply (wp_rd_ptr _ _ nxt); [done|]. iFrame "Hp". iIntros "Hp".
      iDestruct "Hr" as (cs) "[(%Hl & %Hd) Hr]".
      rewrite chain_open. iDestruct "Hch" as (L) "(%HL & HL & Hback)".
      iApply wp_bind. iApply wp_strong_mono. iSplitL "HJ Hp Hr HL".
      { iPoseProof (c_free _ _ _ CA b s h (enc 8 nxt ++ cs) L) as "H".
        { apply Forall_app. split; [apply enc_dead|done]. }
        replace (N.of_nat (length (enc 8 nxt ++ cs))) with Max; [|rewrite app_length enc_length; lia].
        iApply "H". rewrite pts_app enc_length. iFrame.
        replace (bsize (h, enc 8 nxt ++ cs)) with (h, Max); [by rewrite HL|].
        unfold bsize. cbn [fst snd]. rewrite app_length enc_length. f_equal. lia. }
      iIntros (s') "[HJ HL]". rewrite HL. iApply IH; [cbn [length] in Hf; lia|]. iFrame. by iApply "Hback".
  Qed.

  Lemma fl_dtor_spec b s : fl_J b s [] ⊢ wp bad (fl_dtor Max A b s) (fun _ => raw b (a_size A)).
  Proof.
    iIntros "(%C & _ & HJ & Hch & Hsl)". unfold fl_inner. rewrite app_nil_r. iEval (unfold slack; rewrite big_sepL_nil) in "Hsl". iDestruct "Hsl" as "_".
    iAssert (J CA b (f_in s) (map (fun p => (p, Max)) C) ∗ chain (f_head s) C)%I with "[HJ Hch]" as "H"; [iFrame|].
    iStopProof. apply (wp_fuel _ (fun k => s' <- fl_release Max A (S k) b (f_in s) (f_head s) ;; a_dtor A b s') _ _ (length C)).
    - iIntros "[H1 H2]". rewrite chain_memsize. iApply memsize_frame. iFrame "H2". iApply "H1".
    - intros k Hk. iIntros "H". iApply wp_bind. iApply wp_strong_mono. iSplitL "H".
      { iApply fl_release_spec; [|done]. lia. }
      iIntros (s') "HJ". by iApply (c_dtor _ _ _ CA).
  Qed.

  Definition fl_req (n : N) : bool := negb (fl_range Min Max n) || req Max.

  Definition freelist_contract : contract bad (freelist Min Max A) fl_req.
  Proof.
    refine (Contract bad (freelist Min Max A) fl_req fl_J (mv CA) (fun b s => rdy CA b (f_in s))
              _ _ _ _ _ _ _ _ _ _ _ _).
    - exact (c_size _ _ _ CA).
    - apply fl_J_perm.
    - apply fl_good.
    - intros b H1 H2 H3. cbn [freelist a_init a_size]. iIntros "H". iApply wp_bind. iApply wp_strong_mono.
      iSplitL; [by iApply (c_init _ _ _ CA)|]. iIntros (s) "HJ". iApply wp_ret. iExists [].
      cbn [f_in f_head chain]. iFrame "HJ". unfold slack. rewrite big_sepL_nil. iSplit; [iPureIntro; constructor|].
      by iSplit.
    - apply fl_dtor_spec.
    - apply fl_alloc_spec.
    - apply fl_free_spec.
    - intros o b s S Ho. cbn [freelist a_owns] in Ho. destruct (a_owns A) as [oA|] eqn:HoA; [|done].
      injection Ho as <-. iIntros "(%C & %Hr & HJ & Hch & Hsl)".
      iDestruct (c_owns_in _ _ _ CA with "HJ") as %HO; [done|]. iPureIntro. intros p n q Hin Hq.
      rewrite List.Forall_forall in Hr. specialize (Hr (p, n)). rewrite -elem_of_list_In in Hr.
      specialize (Hr Hin). unfold inrange in Hr. cbn [fst snd] in Hr.
      apply (HO p Max); [|lia]. apply elem_of_app. right. apply elem_of_list_fmap. by exists (p, n).
    - intros o b s L q c Ho Hq. cbn [freelist a_owns] in Ho. destruct (a_owns A) as [oA|] eqn:HoA; [|done].
      injection Ho as <-. iIntros "(HJ & HL & Hc)". iDestruct (fl_open with "[$HJ $HL]") as (L') "(HJ & HL & _ & _)".
      by iApply (c_owns_out _ _ _ CA with "[$HJ $HL $Hc]").
    - intros mx b s S Hmx Hrdy. cbn [freelist a_max] in Hmx. destruct (a_max A) as [mA|] eqn:HmA; [|done].
      injection Hmx as <-. iIntros "(%C & %Hr & HJ & Hch & Hsl)".
      iApply wp_strong_mono. iSplitL "HJ"; [by iApply (c_max _ _ _ CA)|].
      iIntros (v) "[$ HJ]". iExists C. by iFrame.
    - intros b s S Hm. cbn [freelist a_max] in Hm. iIntros "(%C & %Hr & HJ & Hch & Hsl)".
      iDestruct (c_bound _ _ _ CA with "HJ") as %HB; [by destruct (a_max A)|]. iPureIntro.
      unfold fl_inner in HB. apply Forall_app in HB as [_ HB].
      rewrite List.Forall_forall in Hr. rewrite List.Forall_forall in HB. rewrite List.Forall_forall. intros [p n] Hin.
      specialize (Hr _ Hin). specialize (HB (p, Max)). unfold inrange in Hr. cbn [fst snd] in *.
      enough (Max <= mv CA) by lia. apply HB. apply in_map_iff. by exists (p, n).
    - intros o c b s L q act R Ho Hin. cbn [freelist a_cd] in Ho. destruct (a_cd A) as [oA|] eqn:HoA; [|done].
      injection Ho as <-. iIntros "(HJ & HL & Hact)".
      iDestruct (fl_open with "[$HJ $HL]") as (L') "(HJ & HL & [%Hr %Hin'] & Hback)".
      iApply wp_bind. iApply wp_strong_mono. iSplitL "HJ HL Hact Hback".
      { iApply (c_cd _ _ _ CA _ c b (f_in s) L' q act
           (fun _ => R tt ∗ ∀ s', J CA b s' (shape L') -∗ fl_J b (Fl s' (f_head s)) (shape L)) HoA)%I.
        - destruct Hin as (p&n&Hp&Hq). exists p, Max. split; [by apply (Hin' (p, n))|].
          rewrite List.Forall_forall in Hr. specialize (Hr (p, n)). rewrite -elem_of_list_In in Hr.
          specialize (Hr Hp). unfold inrange in Hr. cbn [fst snd] in Hr. lia.
        - iFrame. iIntros "HL". iDestruct ("Hback" with "HL") as "[HL Hback]".
          iApply wp_strong_mono. iSplitL "HL Hact"; [by iApply "Hact"|].
          iIntros ([]) "$". iFrame. }
      iIntros (s') "[HJ [HR Hback]]". iApply wp_ret. iFrame. by iApply "Hback".
  Defined.
End freelist.
