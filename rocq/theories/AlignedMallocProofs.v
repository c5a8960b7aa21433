(** Proofs about aligned_malloc. *)
From iris.proofmode Require Import tactics.
From Verif Require Import Base Mem Sep Wp AlignedMalloc PackedPtrProofs.

Local Open Scope N_scope.

Lemma land_not_15 p : p < W -> N.land p (not64 (sub64 16 1)) = p - p mod 16.
Proof.
  intros Hp. transitivity (N.ldiff p (N.ones 4)).
  - apply N.bits_inj. intros i. rewrite N.land_spec N.ldiff_spec. unfold not64.
    rewrite N.lxor_spec. change (W - 1) with (N.ones 64). change (sub64 16 1) with (N.ones 4).
    destruct (N.lt_ge_cases i 64).
    + by rewrite (N.ones_spec_low 64).
    + rewrite (testbit_lt p 64 i); [done|by rewrite -W_pow|done].
  - rewrite N.ldiff_ones_r N.shiftl_mul_pow2 N.shiftr_div_pow2. change (2 ^ 4) with 16. lia.
Qed.

(** The right to give the [n]-byte block at [p] back with [aligned_free]. *)
Definition amtok (pl : platform) (p n : N) : hpropI :=
  match pl with
  | PMalloc | PMm | PMsvc => tok p n
  | PPosix => False
  | PGeneric => ∃ ptr pre post,
      ⌈ptr <> 0 /\ ptr < W /\ ptr + N.of_nat (length pre) + 8 = p /\ p < W /\
       N.of_nat (length pre) + N.of_nat (length post) = 8⌉ ∗
      tok ptr (n + 16) ∗ ptr ↦∗ pre ∗ (p - 8) ↦∗ enc 8 ptr ∗ (p + n) ↦∗ post
  end.

Section proofs.
  Context (bad : event -> bool) (pl : platform).
  Local Notation wp := (wp bad).

  Lemma wp_aligned_malloc_or n (Q : N -> hpropI) :
    pl <> PPosix -> (pl = PGeneric -> n + 16 < W) ->
    ((⌜bad EvRefuse = false⌝ → Q 0) ∧ ∀ p, ⌈p <> 0 /\ p mod 16 = 0 /\ p + n < W⌉ -∗ raw p n ∗ amtok pl p n -∗ Q p)
    ⊢ wp (aligned_malloc pl n 16) Q.
  Proof.
    intros Hpl Hn. iIntros "H".
    assert (Hsimple : (((⌜bad EvRefuse = false⌝ → Q 0) ∧ ∀ p, ⌈p <> 0 /\ p mod 16 = 0 /\ p + n < W⌉ -∗ raw p n ∗ tok p n -∗ Q p)
                       ⊢ wp (malloc 16 n) Q)).
    { iIntros "H". iApply wp_malloc_or. iSplit; [by iDestruct "H" as "[$ _]"|].
      iDestruct "H" as "[_ H]". iIntros (a Ha) "[Hc Ht]". iApply ("H" $! a Ha). iFrame.
      iApply raw_intro; last done; [rewrite repeat_length; lia|apply undef_dead]. }
    unfold amtok, aligned_malloc. destruct pl; try by iApply Hsimple. 1: done. specialize (Hn eq_refl).
    iApply wp_bind. rewrite add64_small; [|lia]. iApply wp_malloc_or. iSplit.
    { iDestruct "H" as "[H _]". cbn [N.eqb]. iIntros (Hb). iApply wp_ret. by iApply "H". }
    iDestruct "H" as "[_ H]". iIntros (a (Ha1&Ha2&Ha3)) "[Hc Ht]".
    destruct (a =? 0) eqn:E; [lia|]. cbv zeta. rewrite land_not_15; [|lia].
    rewrite add64_small; [|lia]. set (p := a - a mod 16 + 16).
    rewrite sub64_small; [|lia|lia].
    set (k := N.to_nat (p - 8 - a)). set (l := N.to_nat (a + 16 - p)).
    assert (Hk : (k + l = 8)%nat) by lia.
    replace (N.to_nat (n + 16)) with (k + (8 + (N.to_nat n + l)))%nat by lia.
    rewrite !repeat_app !pts_app !repeat_length.
    replace (a + N.of_nat k) with (p - 8) by lia.
    replace (p - 8 + N.of_nat 8) with p by lia.
    iDestruct "Hc" as "(H1 & H2 & H3 & H4)". iApply wp_bind.
    iApply wp_wr_ptr; [|iFrame "H2"]; [by rewrite repeat_length|]. iIntros "H2". iApply wp_ret.
    iApply ("H" $! p). { iPureIntro. lia. }
    iSplitL "H3".
    - iApply raw_intro; last done; [rewrite repeat_length; lia|apply undef_dead].
    - iExists a, (repeat Undef k), (repeat Undef l). rewrite !repeat_length.
      replace (p + N.of_nat (N.to_nat n)) with (p + n) by lia. iFrame.
      iPureIntro. lia.
  Qed.

  Lemma wp_aligned_malloc n (Q : N -> hpropI) :
    pl <> PPosix -> (pl = PGeneric -> n + 16 < W) ->
    (Q 0 ∧ ∀ p, ⌈p <> 0 /\ p mod 16 = 0 /\ p + n < W⌉ -∗ raw p n ∗ amtok pl p n -∗ Q p)
    ⊢ wp (aligned_malloc pl n 16) Q.
  Proof.
    intros Hpl Hn. iIntros "H". iApply wp_aligned_malloc_or; [done..|].
    iSplit; [iIntros (_); by iDestruct "H" as "[$ _]"|by iDestruct "H" as "[_ $]"].
  Qed.

  Lemma wp_aligned_free p n cs (Q : unit -> hpropI) :
    p <> 0 -> N.of_nat (length cs) = n ->
    p ↦∗ cs ∗ amtok pl p n ∗ Q tt ⊢ wp (aligned_free pl p) Q.
  Proof.
    intros Hp Hn. unfold amtok, aligned_free.
    assert (Hsimple : p ↦∗ cs ∗ tok p n ∗ Q tt ⊢ wp (mfree p) Q).
    { by apply wp_free. }
    destruct pl; try done.
    { iIntros "(Hc & HF & HQ)". iDestruct "HF" as "[]". }
    iIntros "(Hc & (%ptr & %pre & %post & (%H1&%H2&%H3&%H4&%H5) & Ht & Hpre & Hlnk & Hpost) & HQ)".
    destruct (p =? 0) eqn:E; [lia|]. rewrite sub64_small; [|lia|lia].
    iApply wp_bind. iApply (wp_rd_ptr _ _ ptr); [done|]. iFrame "Hlnk". iIntros "Hlnk".
    iApply (wp_free _ _ (pre ++ enc 8 ptr ++ cs ++ post)); [done| |iFrame "Ht HQ"].
    - rewrite !app_length enc_length. lia.
    - rewrite !pts_app enc_length. replace (ptr + N.of_nat (length pre)) with (p - 8) by lia.
      replace (p - 8 + N.of_nat 8) with p by lia. rewrite Hn. iFrame.
  Qed.
End proofs.
