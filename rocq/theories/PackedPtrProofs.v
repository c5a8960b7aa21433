(** Proofs about [packed_ptr]. *)
From Verif Require Import Base Bits BitsProofs PackedPtr.

Lemma land_int_mask Bits v : N.land v (INT_MASK Bits) = v mod 2 ^ Bits.
Proof.
  unfold INT_MASK. rewrite N.shiftl_1_l, N.sub_1_r, <- N.ones_equiv. apply N.land_ones.
Qed.

Lemma testbit_lt v n i : v < 2 ^ n -> n <= i -> N.testbit v i = false.
Proof.
  intros Hv Hi. destruct (N.eq_dec v 0) as [->|Hz]; [apply N.bits_0|].
  apply N.bits_above_log2.
  assert (N.log2 v < n) by (apply N.log2_lt_pow2; lia). lia.
Qed.

Lemma testbit_mult p k i : (2 ^ k | p) -> i < k -> N.testbit p i = false.
Proof. intros [q ->] Hi. by apply N.mul_pow2_bits_low. Qed.

Section proofs.
  Context (Bits k : N) (Hk : k < 64) (HB : Bits <= k).
  Let Alignment := 2 ^ k.

  Lemma pp_free_bits : FREE_BITS Alignment = k.
  Proof.
    unfold FREE_BITS, Alignment. rewrite ktl_log2_eq.
    - apply N.log2_pow2. lia.
    - pose proof (N.pow_nonzero 2 k). lia.
    - rewrite W_pow. apply N.pow_lt_mono_r; lia.
  Qed.

  Lemma ptr_mask_bits i : N.testbit (PTR_MASK Alignment) i = (k <=? i) && (i <? 64).
  Proof.
    unfold PTR_MASK, not64. rewrite pp_free_bits.
    rewrite N.shiftl_1_l, N.sub_1_r, <- N.ones_equiv, W_pow, N.sub_1_r, <- N.ones_equiv.
    rewrite N.lxor_spec.
    destruct (N.leb_spec k i), (N.ltb_spec i 64).
    - by rewrite (N.ones_spec_high k), N.ones_spec_low by lia.
    - by rewrite !N.ones_spec_high by lia.
    - by rewrite !N.ones_spec_low by lia.
    - exfalso; lia.
  Qed.

  Lemma land_ptr_mask_id p : p < W -> (Alignment | p) -> N.land p (PTR_MASK Alignment) = p.
  Proof.
    intros Hp Hd. apply N.bits_inj. intros i. rewrite N.land_spec, ptr_mask_bits.
    destruct (N.leb_spec k i); cbn.
    - destruct (N.ltb_spec i 64); cbn; [by rewrite andb_true_r|].
      rewrite andb_false_r. symmetry. apply testbit_lt with 64; [by rewrite <- W_pow|done].
    - rewrite andb_false_r. symmetry. by apply testbit_mult with k.
  Qed.

  Lemma land_ptr_mask_0 v : v < 2 ^ Bits -> N.land v (PTR_MASK Alignment) = 0.
  Proof.
    intros Hv. apply N.bits_inj_0. intros i. rewrite N.land_spec, ptr_mask_bits.
    destruct (N.leb_spec k i); cbn; [|by rewrite andb_false_r].
    rewrite (testbit_lt v Bits) by (done || lia). done.
  Qed.

  Lemma land_int_mask_0 p : (Alignment | p) -> N.land p (INT_MASK Bits) = 0.
  Proof.
    intros [q ->]. rewrite land_int_mask. unfold Alignment.
    replace k with ((k - Bits) + Bits) by lia.
    rewrite N.pow_add_r, N.mul_assoc. apply N.mod_mul. apply N.pow_nonzero. lia.
  Qed.

  (** The word [m] represents pointer [p] and integer [v]. *)
  Definition pp_rep (m p v : N) : Prop :=
    m = N.lor p v /\ p < W /\ (Alignment | p) /\ v < 2 ^ Bits.

  Lemma pp_rep_ptr m p v : pp_rep m p v -> pp_get_ptr Alignment m = p.
  Proof.
    intros (->&?&?&?). unfold pp_get_ptr. rewrite N.land_lor_distr_l.
    rewrite land_ptr_mask_id, land_ptr_mask_0 by done. apply N.lor_0_r.
  Qed.

  Lemma pp_rep_int m p v : pp_rep m p v -> pp_get_int Bits m = v.
  Proof.
    intros (->&?&?&?). unfold pp_get_int. rewrite N.land_lor_distr_l.
    rewrite land_int_mask_0, land_int_mask, N.mod_small by done. apply N.lor_0_l.
  Qed.

  Lemma pp_rep_step m p v c :
    pp_rep m p v -> pp_call_ok Alignment c ->
    let s := pp_spec_step Bits (p, v) c in
    pp_rep (pp_step Bits Alignment m c) s.1 s.2.
  Proof.
    intros Hr Hc. pose proof (pp_rep_ptr _ _ _ Hr) as Hp. pose proof (pp_rep_int _ _ _ Hr) as Hi.
    unfold pp_get_ptr, pp_get_int in *. destruct Hr as (?&?&?&?).
    assert (2 ^ Bits <> 0) by (apply N.pow_nonzero; lia).
    destruct c as [q|w|q w]; unfold pp_call_ok in Hc; unfold pp_spec_step, pp_step, pp_rep, pp_set_ptr, pp_set_int, pp_make; cbn [fst snd].
    - destruct Hc. rewrite land_ptr_mask_id, Hi by done. done.
    - rewrite Hp, land_int_mask. repeat split; try done. by apply N.mod_lt.
    - destruct Hc. rewrite land_ptr_mask_id, land_int_mask by done. repeat split; try done.
      by apply N.mod_lt.
  Qed.

  Lemma pp_rep_null : pp_rep pp_null 0 0.
  Proof.
    repeat split; [apply N.divide_0_r|]. pose proof (N.pow_nonzero 2 Bits). lia.
  Qed.

  Lemma pp_rep_run cs m p v :
    pp_rep m p v -> Forall (pp_call_ok Alignment) cs ->
    let s := foldl (pp_spec_step Bits) (p, v) cs in
    pp_rep (pp_run Bits Alignment cs m) s.1 s.2.
  Proof.
    revert m p v. induction cs as [|c cs IH]; intros m p v Hr Hcs; cbn; [done|].
    inversion Hcs; subst.
    pose proof (pp_rep_step m p v c Hr ltac:(done)) as Hs. cbn in Hs.
    destruct (pp_spec_step Bits (p, v) c) as [p' v']. by apply IH.
  Qed.

  Lemma pp_rep_bool m p v : pp_rep m p v -> pp_bool m = false <-> p = 0 /\ v = 0.
  Proof.
    intros (->&_). unfold pp_bool. rewrite negb_false_iff, N.eqb_eq. apply N.lor_eq_0_iff.
  Qed.

  Lemma pp_assert_iff p : pp_assert Alignment p = true <-> (Alignment | p).
  Proof.
    unfold pp_assert, Alignment. rewrite N.eqb_eq, N.sub_1_r, <- N.ones_equiv, N.land_ones.
    apply N.mod_divide. apply N.pow_nonzero. lia.
  Qed.

  Lemma pp_history cs :
    Forall (pp_call_ok Alignment) cs ->
    let s := foldl (pp_spec_step Bits) (0, 0) cs in
    let m := pp_run Bits Alignment cs pp_null in
    pp_get_ptr Alignment m = s.1 /\ pp_get_int Bits m = s.2 /\
    (pp_bool m = false <-> s.1 = 0 /\ s.2 = 0).
  Proof.
    intros Hcs. pose proof (pp_rep_run cs pp_null 0 0 pp_rep_null Hcs) as Hr. cbn in Hr.
    cbn. destruct (foldl _ _ _) as [p v]. cbn in *.
    split; [by eapply pp_rep_ptr|]. split; [by eapply pp_rep_int|]. by eapply pp_rep_bool.
  Qed.
End proofs.

(** Without the alignment precondition the stored pointer is the argument rounded down. *)
Lemma pp_set_ptr_rounds Bits k m p :
  k < 64 -> Bits <= k -> p < W ->
  pp_get_ptr (2 ^ k) (pp_set_ptr Bits (2 ^ k) m p) = p - p mod 2 ^ k.
Proof.
  intros Hk HB Hp. unfold pp_get_ptr, pp_set_ptr.
  rewrite N.land_lor_distr_l, <- !N.land_assoc, N.land_diag.
  rewrite (N.land_assoc m), land_int_mask.
  assert (2 ^ Bits <> 0) by (apply N.pow_nonzero; lia).
  rewrite (land_ptr_mask_0 Bits k Hk HB (m mod 2 ^ Bits)) by (by apply N.mod_lt).
  rewrite N.lor_0_r.
  assert (Hz : 2 ^ k <> 0) by (apply N.pow_nonzero; lia).
  assert (Hdm : p - p mod 2 ^ k = p / 2 ^ k * 2 ^ k).
  { pose proof (N.div_mod p (2 ^ k) Hz) as HH. rewrite (N.mul_comm (2 ^ k)) in HH.
    revert HH. generalize (p / 2 ^ k * 2 ^ k), (p mod 2 ^ k). intros; lia. }
  assert (E : p = N.lor (p - p mod 2 ^ k) (p mod 2 ^ k)).
  { rewrite Hdm. rewrite <- N.shiftl_mul_pow2, <- N.shiftr_div_pow2, <- N.land_ones.
    rewrite <- N.ldiff_ones_r. symmetry. rewrite N.lor_comm. 
    apply N.bits_inj. intros i. rewrite N.lor_spec, N.land_spec, N.ldiff_spec.
    destruct (N.testbit p i), (N.testbit (N.ones k) i); done. }
  rewrite E at 1. rewrite N.land_lor_distr_l.
  rewrite (land_ptr_mask_0 k k Hk (N.le_refl k) (p mod 2 ^ k)) by (by apply N.mod_lt).
  rewrite N.lor_0_r. apply (land_ptr_mask_id Bits k Hk HB).
  { apply N.le_lt_trans with p; [apply N.le_sub_l|done]. }
  rewrite Hdm.
  by exists (p / 2 ^ k).
Qed.
