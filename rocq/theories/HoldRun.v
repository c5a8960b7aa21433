(** The heap that an allocator holds for a program that uses it directly. *)
From iris.proofmode Require Import tactics.
From Verif Require Import Base Mem Sep Wp AlignedMalloc Allocators Contract Adequacy Checked Tree TreeProofs Client ClientProofs AllocSpec AllocFacts
  NoFail Footprint Budget BudgetProofs Hold HoldProofs HoldExact.

Local Open Scope N_scope.

Section run.
  Context {bad : event -> bool} {A : alloc} {req : N -> bool} (CA : contract bad A req) (b : N) (ready : N -> a_st A -> bool).
  Context (Hr : a_max A <> None -> forall b s, ready b s = true -> rdy CA b s = true).
  Context (P : list (N * N) -> hpropI) (HJ : forall s S, J CA b s S ⊢ P S) (HP : forall S, P S ∗ ntok 0 ⊢ P S).

  Lemma run_owns ops w : place b (a_size A) w -> asks req ops ->
    own (mem (st w)) ⊢ wp bad (s <- a_init A b ;; run A b ready ops s []) (fun r => P (snd (snd r))).
  Proof.
    intros (H1&H2&H3&Hst&H0) Hreq. set (n := N.to_nat (a_size A)). set (mF := clear b n (mem (st w))).
    assert (HmF0 : mF !! 0 = None). { unfold mF. rewrite clear_lookup. by destruct (_ && _). }
    assert (Hpre : own (mem (st w)) ⊢ raw b (a_size A) ∗ own mF).
    { rewrite (own_take (mem (st w)) b n).
      2:{ intros i Hi'. destruct (Hst i) as (c&Hc&_); [lia|]. by exists c. }
      iIntros "[Hc $]". iApply (raw_intro with "Hc"); [rewrite cells_length; lia|].
      apply cells_Forall. intros i Hi'. apply Hst. lia. }
    rewrite Hpre. iIntros "[Hraw HF]". iApply wp_bind. iApply wp_strong_mono.
    iSplitL "Hraw"; [by iApply (c_init _ _ _ CA)|]. iIntros (s1) "HJ".
    iApply wp_strong_mono. iSplitL.
    { iApply (run_spec CA b ready Hr mF HmF0 ops s1 [] [] (ops_requests _ _ Hreq)); [constructor|].
      iFrame. unfold blocks. by rewrite big_sepL_nil. }
    iIntros ([os' [s' bl']]) "(%L & %abl & (%Hc & %HA & %Hbl) & HJ & HL & HF)". cbn [fst snd] in *. subst bl'.
    rewrite HJ blocks_ntok own_ntok. iDestruct (HP with "[$HJ $HL]") as "HJ". iApply (HP with "[$HJ $HF]").
  Qed.
End run.

Section tree.
  Context (pl : platform) (e : aexp) (b : N).
  Local Notation A := (den pl e).

  Lemma run_quiet ops w s0 w0 e0 os s bl w1 e1 : pl <> PPosix -> wf e = true -> a_init A b w = Ok s0 w0 e0 ->
    run A b (eready_now pl e) ops s0 [] w0 = Ok (os, (s, bl)) w1 e1 -> existsb is_fail (e0 ++ e1) = false.
  Proof.
    intros Hpl Hwf Hi Hrun. assert (HA : afirm A) by (by apply tree_firm).
    pose proof (af_init A HA b w) as F1. rewrite Hi in F1. pose proof (run_firm A HA b (eready_now pl e) ops s0 [] w0) as F2.
    rewrite Hrun in F2. by rewrite existsb_app F1 F2.
  Qed.

  Lemma blocks_hold ops w s0 w0 e0 os s bl w1 e1 : pl <> PPosix -> wf e = true -> lean e = true ->
    place b (esize e) w -> asks (ereq pl e) ops -> a_init A b w = Ok s0 w0 e0 ->
    run A b (eready_now pl e) ops s0 [] w0 = Ok (os, (s, bl)) w1 e1 ->
    (size (mtab (st w1)) <= size (mtab (st w)) + spare e + length bl)%nat.
  Proof.
    intros Hpl Hwf Hl Hp Ha Hi Hrun. pose proof (run_quiet _ _ _ _ _ _ _ _ _ _ Hpl Hwf Hi Hrun) as Hbad.
    destruct (lean_contract is_fail pl e Hpl Hwf Hl (fun _ => eq_refl)) as [C Hr Hf]. rewrite -(den_size pl) in Hp.
    pose proof (wp_adequate_store _ _ _ w (run_owns C b _ (fun _ => Hr) (fun S => hle (spare e + length S)) (Hf b) (fun S => hle_0 _) ops w Hp Ha)) as Had.
    unfold bind in Had. rewrite Hi Hrun in Had. destruct Had as [Hb|(_&s'&Hst'&[_ Hd]&HQ)]; [congruence|].
    cbn [fst snd] in HQ. rewrite hle_eq in HQ. cbn in HQ. rewrite Hst'. cbn. rewrite map_size_disj_union //. lia.
  Qed.

  Lemma blocks_exact ops w s0 w0 e0 os s bl w1 e1 : pl <> PPosix -> wf e = true -> solid e = true ->
    place b (esize e) w -> asks (ereq pl e) ops -> a_init A b w = Ok s0 w0 e0 ->
    run A b (eready_now pl e) ops s0 [] w0 = Ok (os, (s, bl)) w1 e1 ->
    size (mtab (st w1)) = (size (mtab (st w)) + spare e + length bl)%nat /\
    total (mtab (st w1)) = total (mtab (st w)) + base pl e + sum (map (fun x => cost pl e (snd x)) bl).
  Proof.
    intros Hpl Hwf Hl Hp Ha Hi Hrun. pose proof (run_quiet _ _ _ _ _ _ _ _ _ _ Hpl Hwf Hi Hrun) as Hbad.
    destruct (solid_contract is_fail pl e Hpl Hwf Hl (fun _ => eq_refl)) as [C Hr Hf]. rewrite -(den_size pl) in Hp.
    pose proof (wp_adequate_store _ _ _ w (run_owns C b _ (fun _ => Hr) (fun S => hex (spare e + length S) (base pl e + sum (map (fun x => cost pl e (snd x)) S)))
      (Hf b) (fun S => hex_0 _ _) ops w Hp Ha)) as Had.
    unfold bind in Had. rewrite Hi Hrun in Had. destruct Had as [Hb|(_&s'&Hst'&[_ Hd]&HQ)]; [congruence|].
    cbn [fst snd] in HQ. rewrite hex_eq in HQ. cbn in HQ. rewrite Hst'. cbn. rewrite map_size_disj_union // total_union //. lia.
  Qed.
End tree.
