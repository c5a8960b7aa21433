(** Model of [packed_ptr<PtrT, Bits, Alignment>] (include/ktl/containers/packed_ptr.h).
    The object is its single member, the word [m_Value] (line 70). *)
From Verif Require Import Base Bits.

Section packed_ptr.
  (** Template parameters, packed_ptr.h:16. *)
  Context (Bits Alignment : N).

  (** packed_ptr.h:19 *)
  Definition FREE_BITS : N := ktl_log2 Alignment.
  (** packed_ptr.h:24 — [((1ULL << Bits) - 1)] *)
  Definition INT_MASK : N := N.shiftl 1 Bits - 1.
  (** packed_ptr.h:25 — [~((1ULL << FREE_BITS) - 1)] *)
  Definition PTR_MASK : N := not64 (N.shiftl 1 FREE_BITS - 1).

  (** packed_ptr.h:28-29 — default constructor *)
  Definition pp_null : N := 0.
  (** packed_ptr.h:31-39 — constructor from a pointer and an integer *)
  Definition pp_make (p v : N) : N := N.lor (N.land p PTR_MASK) (N.land v INT_MASK).
  (** packed_ptr.h:41 — [operator bool] *)
  Definition pp_bool (m : N) : bool := negb (m =? 0).
  (** packed_ptr.h:43 — [get_ptr] *)
  Definition pp_get_ptr (m : N) : N := N.land m PTR_MASK.
  (** packed_ptr.h:45-51 — [get_int], for an integer type of 64 bits *)
  Definition pp_get_int (m : N) : N := N.land m INT_MASK.
  (** packed_ptr.h:53-59 — [set_ptr] *)
  Definition pp_set_ptr (m p : N) : N := N.lor (N.land p PTR_MASK) (N.land m INT_MASK).
  (** packed_ptr.h:61-67 — [set_int] *)
  Definition pp_set_int (m v : N) : N := N.lor (N.land m PTR_MASK) (N.land v INT_MASK).
  (** packed_ptr.h:38 and 56 — the alignment assertion of the constructor and [set_ptr] *)
  Definition pp_assert (p : N) : bool := N.land p (Alignment - 1) =? 0.
End packed_ptr.

(** A call on a packed pointer, and the effect of a sequence of calls. *)
Inductive pp_call := PSetPtr (p : N) | PSetInt (v : N) | PMake (p v : N).

Definition pp_step (Bits Alignment m : N) (c : pp_call) : N :=
  match c with
  | PSetPtr p => pp_set_ptr Bits Alignment m p
  | PSetInt v => pp_set_int Bits Alignment m v
  | PMake p v => pp_make Bits Alignment p v
  end.

Definition pp_run (Bits Alignment : N) (cs : list pp_call) (m : N) : N :=
  foldl (pp_step Bits Alignment) m cs.

(** * Specification: a pointer variable and an integer variable, independent of masks. *)
Definition pp_spec_step (Bits : N) (s : N * N) (c : pp_call) : N * N :=
  match c with
  | PSetPtr p => (p, s.2)
  | PSetInt v => (s.1, v mod 2 ^ Bits)
  | PMake p v => (p, v mod 2 ^ Bits)
  end.

Definition pp_call_ok (Alignment : N) (c : pp_call) : Prop :=
  match c with
  | PSetPtr p | PMake p _ => p < W /\ (Alignment | p)
  | PSetInt _ => True
  end.
