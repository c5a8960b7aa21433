(** Models of the arithmetic helpers in [include/ktl/utility]. *)
From Verif Require Import Base.

(** utility/alignment.h:7 — [ALIGNMENT = alignof(std::max_align_t)], 16 on the 64-bit
    ABIs considered here. *)
Definition ALIGNMENT : N := 16.
(** utility/alignment.h:8 *)
Definition ALIGNMENT_MASK : N := ALIGNMENT - 1.

(** utility/alignment.h:10-17 — [align_to_architecture]: padding needed after [n]. *)
Definition align_to_architecture (n : N) : N :=
  let align := N.land n ALIGNMENT_MASK in
  if align =? 0 then 0 else ALIGNMENT - align.

(** One line of utility/bits.h:11-16: [if (n >> k) { r += k; n >>= k; }]. *)
Definition log2_step (k : N) (rn : N * N) : N * N :=
  let '(r, n) := rn in
  if N.shiftr n k =? 0 then (r, n) else (r + k, N.shiftr n k).

(** utility/bits.h:7-19 — [log2]. *)
Definition ktl_log2 (n : N) : N :=
  fst (log2_step 1 (log2_step 2 (log2_step 4 (log2_step 8
      (log2_step 16 (log2_step 32 (0, n))))))).

(** One enumerator of utility/builder.h:15-21: [Y = X | (X >> k)]. *)
Definition smear (k x : N) : N := N.lor x (N.shiftr x k).

(** utility/builder.h:10-24 — [pow2<N>::Result] with [size_t] wrap-around. *)
Definition ktl_pow2 (n : N) : N :=
  let a := sub64 n 1 in
  let g := smear 32 (smear 16 (smear 8 (smear 4 (smear 2 (smear 1 a))))) in
  add64 g 1.

(** utility/builder.h:41-58 — [size_invert<R, N, M>], the pair (first, second). *)
Definition size_invert (r : bool) (n m : N) : N * N :=
  if r then (sub64 m n, n) else (n, sub64 m n).
