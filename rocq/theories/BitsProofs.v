(** Proofs about the arithmetic helpers. *)
From Verif Require Import Base Bits.

(** * Specifications, independent of the code *)

(** [pad] is the least number that completes [n] to a multiple of [al]. *)
Definition least_padding (al n pad : N) : Prop :=
  (al | n + pad) /\ forall pad', (al | n + pad') -> pad <= pad'.

(** [k] is the position of the most significant bit of [n]. *)
Definition floor_log2 (n k : N) : Prop := 2 ^ k <= n < 2 ^ (k + 1).

(** [r] is the least power of two that is at least [n]. *)
Definition least_pow2_ge (n r : N) : Prop :=
  (exists k, r = 2 ^ k) /\ n <= r /\ forall k, n <= 2 ^ k -> r <= 2 ^ k.

(** * align_to_architecture *)

Lemma align_mod n : N.land n ALIGNMENT_MASK = n mod 16.
Proof. unfold ALIGNMENT_MASK, ALIGNMENT. change (16 - 1) with (N.ones 4). rewrite N.land_ones. reflexivity. Qed.

Lemma align_eq n : align_to_architecture n = (16 - n mod 16) mod 16.
Proof.
  unfold align_to_architecture. rewrite align_mod. unfold ALIGNMENT.
  destruct (N.eqb_spec (n mod 16) 0); lia.
Qed.

Lemma align_lt n : align_to_architecture n < 16.
Proof. rewrite align_eq. lia. Qed.

Lemma align_total_mod n : (n + align_to_architecture n) mod 16 = 0.
Proof. rewrite align_eq. lia. Qed.

Lemma align_least n : least_padding 16 n (align_to_architecture n).
Proof.
  split.
  - apply N.mod_divide; [lia|]. apply align_total_mod.
  - intros p Hp. apply N.mod_divide in Hp; [|lia]. rewrite align_eq. lia.
Qed.

(** * log2 *)

Lemma log2_step_inv k r n L b :
  n <> 0 -> r + N.log2 n = L -> N.log2 n < 2 * k -> k = b ->
  let '(r', n') := log2_step k (r, n) in
  n' <> 0 /\ r' + N.log2 n' = L /\ N.log2 n' < b.
Proof.
  intros Hn HL Hlt <-. unfold log2_step.
  destruct (N.eqb_spec (N.shiftr n k) 0) as [E|E].
  - split; [done|]. split; [done|].
    destruct (N.eq_0_gt_0_cases k) as [->|Hk]; [by rewrite N.shiftr_0_r in E|].
    apply N.log2_lt_pow2; [lia|].
    rewrite N.shiftr_div_pow2 in E. apply N.div_small_iff in E; [done|].
    apply N.pow_nonzero; lia.
  - split; [done|].
    assert (k <= N.log2 n).
    { destruct (N.le_gt_cases k (N.log2 n)); [done|].
      exfalso. apply E. apply N.shiftr_eq_0. done. }
    rewrite N.log2_shiftr. lia.
Qed.

Lemma ktl_log2_eq n : 0 < n -> n < W -> ktl_log2 n = N.log2 n.
Proof.
  intros H0 HW. unfold ktl_log2.
  assert (Hl : N.log2 n < 2 * 32).
  { apply N.log2_lt_pow2; [done|]. by rewrite W_pow in HW. }
  pose proof (log2_step_inv 32 0 n (N.log2 n) (2*16)
     ltac:(lia) ltac:(lia) Hl eq_refl) as Hs.
  destruct (log2_step 32 (0, n)) as [r1 n1]. destruct Hs as (?&?&?).
  pose proof (log2_step_inv 16 r1 n1 (N.log2 n) (2*8) ltac:(done) ltac:(done) ltac:(done) eq_refl) as Hs.
  destruct (log2_step 16 (r1, n1)) as [r2 n2]. destruct Hs as (?&?&?).
  pose proof (log2_step_inv 8 r2 n2 (N.log2 n) (2*4) ltac:(done) ltac:(done) ltac:(done) eq_refl) as Hs.
  destruct (log2_step 8 (r2, n2)) as [r3 n3]. destruct Hs as (?&?&?).
  pose proof (log2_step_inv 4 r3 n3 (N.log2 n) (2*2) ltac:(done) ltac:(done) ltac:(done) eq_refl) as Hs.
  destruct (log2_step 4 (r3, n3)) as [r4 n4]. destruct Hs as (?&?&?).
  pose proof (log2_step_inv 2 r4 n4 (N.log2 n) (2*1) ltac:(done) ltac:(done) ltac:(done) eq_refl) as Hs.
  destruct (log2_step 2 (r4, n4)) as [r5 n5]. destruct Hs as (?&?&?).
  pose proof (log2_step_inv 1 r5 n5 (N.log2 n) 1 ltac:(done) ltac:(done) ltac:(done) eq_refl) as Hs.
  destruct (log2_step 1 (r5, n5)) as [r6 n6]. destruct Hs as (?&?&?).
  cbn [fst]. lia.
Qed.

Lemma ktl_log2_correct n : 0 < n -> n < W -> floor_log2 n (ktl_log2 n).
Proof.
  intros. rewrite ktl_log2_eq by done. unfold floor_log2.
  rewrite N.add_1_r. by apply N.log2_spec.
Qed.

(** * pow2 *)

(** After smearing with shifts 1, 2, .., 2^(j-1), bit [i] is set iff one of the bits
    [i .. i + 2^j - 1] of the original was. *)
Lemma smear_spec A B m k :
  (forall i, N.testbit B i = true <-> exists d, d < m /\ N.testbit A (i + d) = true) ->
  k = m -> m <> 0 ->
  forall i, N.testbit (smear k B) i = true <-> exists d, d < 2 * m /\ N.testbit A (i + d) = true.
Proof.
  intros HB -> Hm i. unfold smear.
  rewrite N.lor_spec, orb_true_iff, N.shiftr_spec', !HB. split.
  - intros [(d&?&?)|(d&?&H)].
    + exists d. split; [lia|done].
    + exists (m + d). split; [lia|]. rewrite <- H. f_equal. lia.
  - intros (d&?&H). destruct (N.lt_ge_cases d m).
    + left. eauto.
    + right. exists (d - m). split; [lia|]. rewrite <- H. f_equal. lia.
Qed.

Lemma smear_all A i :
  A <> 0 -> A < W ->
  N.testbit (smear 32 (smear 16 (smear 8 (smear 4 (smear 2 (smear 1 A)))))) i
  = (i <=? N.log2 A).
Proof.
  intros HA HW.
  assert (H0 : forall i, N.testbit A i = true <-> exists d, d < 1 /\ N.testbit A (i + d) = true).
  { intros j. split.
    - intros. exists 0. rewrite N.add_0_r. split; [lia|done].
    - intros (d&?&H). replace d with 0 in H by lia. by rewrite N.add_0_r in H. }
  pose proof (smear_spec A _ _ 1 H0 eq_refl ltac:(lia)) as H1.
  pose proof (smear_spec A _ _ 2 H1 eq_refl ltac:(lia)) as H2.
  pose proof (smear_spec A _ _ 4 H2 eq_refl ltac:(lia)) as H3.
  pose proof (smear_spec A _ _ 8 H3 eq_refl ltac:(lia)) as H4.
  pose proof (smear_spec A _ _ 16 H4 eq_refl ltac:(lia)) as H5.
  pose proof (smear_spec A _ _ 32 H5 eq_refl ltac:(lia)) as H6.
  specialize (H6 i). cbn in H6.
  assert (Hl : N.log2 A < 64).
  { apply N.log2_lt_pow2; [lia|]. by rewrite W_pow in HW. }
  destruct (N.leb_spec i (N.log2 A)).
  - apply H6. exists (N.log2 A - i). split; [lia|].
    replace (i + (N.log2 A - i)) with (N.log2 A) by lia. by apply N.bit_log2.
  - apply not_true_iff_false. intros E. apply H6 in E. destruct E as (d&?&E).
    rewrite N.bits_above_log2 in E; [done|lia].
Qed.

Lemma ktl_pow2_eq n : 2 <= n -> n <= 2 ^ 63 -> ktl_pow2 n = 2 ^ (N.log2 (n - 1) + 1).
Proof.
  intros H1 H2. unfold ktl_pow2.
  assert (n < W) by (unfold W; lia).
  rewrite sub64_small by lia.
  assert (E : smear 32 (smear 16 (smear 8 (smear 4 (smear 2 (smear 1 (n - 1))))))
              = N.ones (N.log2 (n - 1) + 1)).
  { apply N.bits_inj. intros i. rewrite smear_all by lia.
    destruct (N.leb_spec i (N.log2 (n-1))).
    - rewrite N.ones_spec_low; [done|lia].
    - rewrite N.ones_spec_high; [done|lia]. }
  rewrite E. clear E.
  assert (Hl : N.log2 (n - 1) < 63). { apply N.log2_lt_pow2; lia. }
  assert (Hp : 2 ^ (N.log2 (n - 1) + 1) <= 2 ^ 63). { apply N.pow_le_mono_r; lia. }
  assert (2 ^ (N.log2 (n - 1) + 1) <> 0) by (apply N.pow_nonzero; lia).
  rewrite N.ones_equiv. unfold add64.
  replace (N.pred (2 ^ (N.log2 (n - 1) + 1)) + 1) with (2 ^ (N.log2 (n - 1) + 1)) by lia.
  apply w64_small. unfold W. lia.
Qed.

Lemma ktl_pow2_correct n : 1 <= n -> n <= 2 ^ 63 -> least_pow2_ge n (ktl_pow2 n).
Proof.
  intros H1 H2. destruct (N.eq_dec n 1) as [->|Hn].
  { change (ktl_pow2 1) with 1. split; [by exists 0|]. split; [lia|].
    intros k _. pose proof (N.pow_nonzero 2 k). lia. }
  rewrite ktl_pow2_eq by lia.
  destruct (N.log2_spec (n - 1)) as [Hlo Hhi]; [lia|].
  rewrite <- N.add_1_r in Hhi.
  split; [eauto|]. split; [lia|].
  intros k Hk. apply N.pow_le_mono_r; [lia|].
  assert (N.log2 (n - 1) < k); [|lia].
  apply N.log2_lt_pow2; lia.
Qed.
