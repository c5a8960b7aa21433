(** Programs with any number of handles of shared<A> are safe if [A] obeys the contract. *)
From iris.proofmode Require Import tactics.
From Verif Require Import Base Mem Sep Wp Bits AlignedMalloc AlignedMallocProofs Allocators Contract NodeProofs Adequacy
  Client ClientProofs Shared SharedProofs.

Local Open Scope N_scope.

(** The sizes a program with handles asks for. *)
Definition hrequests (ops : list hop) : list N :=
  flat_map (fun o => match o with HUse _ (OAlloc n) => [n] | _ => [] end) ops.

(** A computation that needs nothing leaves everything alone. *)
Lemma wp_adequate_emp bad {A} (m : M A) (Q : A -> hpropI) w :
  (emp ⊢ wp bad m Q) ->
  match m w with
  | Ok a w' evs =>
    existsb bad evs = true \/
    forallb benign evs = true /\ exists s, st w' = s ∪ st w /\ s ## st w /\ hholds (Q a) s
  | Err _ evs => existsb bad evs = true
  end.
Proof.
  intros Hwp. rewrite hunfold_entails in Hwp. specialize (Hwp sempty). rewrite hunfold_emp in Hwp.
  specialize (Hwp eq_refl). rewrite wp_unfold in Hwp.
  specialize (Hwp (st w) w (sdisj_empty_l _)). rewrite sunion_empty_l in Hwp. specialize (Hwp eq_refl).
  destruct (m w) as [a w' evs|u evs]; [|done]. destruct Hwp as [H|(H1&s&H2&H3&H4)]; [by left|right]. eauto.
Qed.

Section safe.
  Context {bad : event -> bool} {A : alloc} {req : N -> bool}.
  Context (CA : contract bad A req) (pl : platform).
  Context (Hpl : pl <> PPosix) (Hfail : bad EvFail || bad EvRefuse = true) (Hsz : a_size A + 32 < W).
  Context (ready : N -> a_st A -> bool).
  Context (Hready : a_max A <> None -> forall b s, ready b s = true -> rdy CA b s = true).

  Local Notation C := (shared_contract CA pl Hpl Hfail Hsz).
  Local Notation readysh := (fun _ s => ready (sh_block s) (sh_in s)).

  Lemma Hreadysh : a_max (shared pl A) <> None -> forall b s, readysh b s = true -> rdy C b s = true.
  Proof.
    intros Hm b s'. cbn [shared_contract rdy]. apply Hready. cbn [shared a_max] in Hm. by destruct (a_max A).
  Qed.

  Definition grp (out : list (N * N)) (s : sh A) : hpropI :=
    ∃ L bl, ⌈abs L bl /\ out = shape L⌉ ∗ J C 0 s (shape L) ∗ blocks L.

  Definition fam (f : family A) : hpropI :=
    ⌈forall g, (f_next f <= g)%nat -> f_gr f !! g = None⌉ ∗
    [∗ map] g ↦ s ∈ f_gr f, grp (default [] (f_out f !! g)) s.

  Definition hop_ok (o : hop) : Prop :=
    match o with HUse _ o => op_ok (req := req) o | _ => True end.

  (** The map of live groups after [h] has let go. *)
  Definition fam_gr (f : family A) (gr : gmap nat (sh A)) : hpropI :=
    ⌈forall g, (f_next f <= g)%nat -> gr !! g = None⌉ ∗
    [∗ map] g ↦ s ∈ gr, grp (default [] (f_out f !! g)) s.

  Lemma drop_spec h f : may_drop h (f_hs f) (f_out f) = true ->
    fam f ⊢ wp bad (drop pl A h f) (fam_gr f).
  Proof.
    unfold may_drop, drop. destruct (f_hs f !! h) as [[g|]|]; [|intros _; iIntros "H"; by iApply wp_ret|done].
    destruct (alone h g (f_hs f)); [|intros _; iIntros "H"; by iApply wp_ret].
    destruct (f_gr f !! g) as [s|] eqn:Hg; [|intros _; iIntros "H"; by iApply wp_ret].
    destruct (default [] (f_out f !! g)) as [|x out] eqn:Ho; [intros _|done].
    iIntros "[%Hf H]". iDestruct (big_sepM_delete _ _ _ _ Hg with "H") as "[H0 H]".
    rewrite Ho. iDestruct "H0" as (L bl) "((%HA & %HL) & HJ & HB)".
    destruct L as [|x L]; [|done]. iApply wp_bind. iApply wp_strong_mono. iSplitL "HJ"; [by iApply (c_dtor _ _ _ C)|].
    iIntros ([]) "Hr". cbn [shared a_size]. rewrite raw_0. iApply wp_ret.
    unfold blocks. rewrite big_sepL_nil. iClear "Hr HB". iSplit; [|done]. iPureIntro. intros g' Hg'.
    apply lookup_delete_None. right. by apply Hf.
  Qed.

  Lemma sstep_spec o f : hop_ok o -> legal o (f_hs f) (f_out f) = true ->
    fam f ⊢ wp bad (sstep pl A ready o f) (fun r => fam (snd r)).
  Proof.
    intros Hok HL. destruct o as [h|h src|h src|h src|h src|h|h o]; cbn [sstep legal hop_ok] in *.
    - iIntros "[%Hf H]". iApply wp_bind. iApply wp_strong_mono.
      iSplitR; [iApply (c_init _ _ _ C 16); [done..|cbn [shared a_size]; by rewrite raw_0]|].
      iIntros (s) "HJ". iApply wp_ret. unfold fam. cbn [snd f_next f_gr f_out]. iSplit.
      + iPureIntro. intros g Hg. rewrite lookup_insert_ne; [apply Hf; lia|lia].
      + iApply big_sepM_insert; [by apply Hf|]. iSplitL "HJ".
        * rewrite lookup_insert. iExists [], []. iSplit; [iPureIntro; split; [constructor|done]|]. iFrame "HJ".
          unfold blocks. by rewrite big_sepL_nil.
        * iApply (big_sepM_impl with "H"). iIntros "!>" (g s' Hg) "H".
          rewrite lookup_insert_ne; [done|]. intros <-. by rewrite Hf in Hg.
    - iIntros "H". by iApply wp_ret.
    - iIntros "H". by iApply wp_ret.
    - apply andb_true_iff in HL as [_ HL]. iIntros "H". iApply wp_bind. iApply wp_strong_mono.
      iSplitL; [by iApply drop_spec|]. iIntros (gr) "H". by iApply wp_ret.
    - apply andb_true_iff in HL as [_ HL]. iIntros "H". iApply wp_bind. iApply wp_strong_mono.
      iSplitL; [by iApply drop_spec|]. iIntros (gr) "H". by iApply wp_ret.
    - iIntros "H". iApply wp_bind. iApply wp_strong_mono.
      iSplitL; [by iApply drop_spec|]. iIntros (gr) "H". by iApply wp_ret.
    - destruct (target A h f) as [g|]; [|iIntros "H"; by iApply wp_ret].
      destruct (f_gr f !! g) as [s|] eqn:Hg; [|iIntros "H"; by iApply wp_ret].
      iIntros "[%Hf H]". iDestruct (big_sepM_delete _ _ _ _ Hg with "H") as "[H0 H]".
      iDestruct "H0" as (L bl) "((%HA & %HL') & HJ & HB)". rewrite HL'.
      iApply wp_bind. iApply wp_strong_mono. iSplitL "HJ HB".
      { iApply (step_spec C 0 readysh Hreadysh ∅ (lookup_empty 0) o s L bl Hok HA).
        iFrame. by rewrite own_empty. }
      iIntros ([ob [s' bl']]) "(%L' & %abl & (%Hc & %HA' & %Hbl) & HJ & HB & HF)". cbn [fst snd] in *. subst bl'.
      rewrite own_empty. iApply wp_ret. iClear "HF". unfold fam. cbn [snd f_next f_gr f_out]. iSplit.
      + iPureIntro. intros g' Hg'. rewrite lookup_insert_ne; [by apply Hf|]. intros <-. by rewrite Hf in Hg.
      + iApply big_sepM_insert_delete. iSplitL "HJ HB".
        * rewrite lookup_insert. iExists L', abl. by iFrame.
        * iApply (big_sepM_impl with "H"). iIntros "!>" (g' s'' Hg') "H".
          rewrite lookup_insert_ne; [done|]. intros <-. by rewrite lookup_delete in Hg'.
  Qed.

  Lemma srun_spec ops f : Forall hop_ok ops ->
    fam f ⊢ wp bad (srun pl A ready ops f) (fun r => fam (snd r)).
  Proof.
    revert f. induction ops as [|o ops IH]; intros f Hok; cbn [srun]; iIntros "H".
    - by iApply wp_ret.
    - apply Forall_cons_iff in Hok as [Hok0 Hok]. iApply wp_bind. iApply wp_strong_mono.
      iSplitL "H"; [instantiate (1 := fun r => fam (snd r))|].
      { destruct (legal o (f_hs f) (f_out f)) eqn:HL; [by iApply sstep_spec|by iApply wp_ret]. }
      iIntros ([ob f']) "H". cbn [snd]. iApply wp_bind. iApply wp_strong_mono.
      iSplitL "H"; [by iApply IH|]. iIntros ([os f'']) "H". by iApply wp_ret.
  Qed.

  (** The memory that exists before the first handle is created stays as it is; once all handles
      are gone, everything is as before. *)
  Lemma hrun_safe ops w : N.of_nat (length ops) < W -> Forall (fun n => req n = true /\ n < W) (hrequests ops) ->
    match hrun pl A ready ops pool0 w with
    | Ok (_, q) w' evs =>
      existsb bad evs = true \/
      forallb benign evs = true /\
      (forall i c, mem (st w) !! i = Some c -> mem (st w') !! i = Some c) /\
      (p_hs q = ∅ -> st w' = st w)
    | Err _ evs => existsb bad evs = true
    end.
  Proof.
    intros Hlen Hreq.
    assert (Hok : Forall hop_ok ops).
    { clear Hlen. induction ops as [|o ops IH]; [constructor|]. unfold hrequests in Hreq. cbn [flat_map] in Hreq.
      apply Forall_app in Hreq as [H0 H]. constructor; [|by apply IH].
      destruct o as [| | | | | |h o]; try exact I. destruct o; try exact I. by apply Forall_cons_iff in H0 as [? _]. }
    pose proof (shared_exact pl A ready ops w Hlen) as Hsame.
    assert (Hwp : emp ⊢ wp bad (srun pl A ready ops family0) (fun r => fam (snd r))).
    { rewrite -srun_spec //. unfold fam. cbn [family0 f_gr f_next]. rewrite big_sepM_empty.
      iIntros "_". by iSplit. }
    apply (wp_adequate_emp _ _ _ w) in Hwp.
    destruct (srun _ _ _ _ _ _) as [[os f] w1 e1|u e1], (hrun _ _ _ _ _ _) as [[os' q] w2 e2|u' e2]; try done.
    - destruct Hsame as (<-&<-&_&Hagree). cbn [fst snd] in *.
      destruct Hwp as [Had|(H1&s&H2&H3&H4)]; [by left|right]. split_and!; [done|..].
      + intros i c Hi. rewrite H2. cbn. rewrite map_union_comm; [|apply H3]. by apply lookup_union_Some_l.
      + intros Hq. assert (Hgr : f_gr f = ∅).
        { destruct Hagree as (_&_&_&Hg&Hl). apply map_empty. intros g. rewrite -Hg.
          destruct (p_bk q !! g) as [k|] eqn:Hk; [|done]. exfalso.
          destruct (proj1 (Hl g)) as [h Hh]; [by exists k|]. by rewrite Hq in Hh. }
        assert (fam f ⊢ emp) as Hemp.
        { unfold fam. rewrite Hgr big_sepM_empty. by iIntros "[_ $]". }
        rewrite hunfold_entails in Hemp. apply Hemp in H4. rewrite hunfold_emp in H4. subst s.
        by rewrite H2 sunion_empty_l.
    - destruct Hsame as [<- <-]. done.
  Qed.
End safe.
