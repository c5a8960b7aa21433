(** Shared machine arithmetic.

    [size_t], [uintptr_t] and addresses of the modelled 64-bit targets are natural
    numbers below 2^64; every arithmetic operation of the C++ code that can exceed that
    range is written with the wrapping operations below. *)
From Coq Require Export NArith ZArith Lia ZifyBool ZifyNat ZifyN.
From stdpp Require Export base list gmap fin_maps numbers.

Global Open Scope N_scope.

Ltac Zify.zify_post_hook ::= Z.div_mod_to_equations.

(** 2^64, kept as a literal so that [lia] can see its value. *)
Definition W : N := 18446744073709551616.

(** Truncation to 64 bits. *)
Definition w64 (x : N) : N := x mod W.

(** Wrapping [size_t] addition, subtraction and multiplication. *)
Definition add64 (a b : N) : N := w64 (a + b).
Definition sub64 (a b : N) : N := w64 (a + W - b).
Definition mul64 (a b : N) : N := w64 (a * b).

(** [~x] on 64 bits. *)
Definition not64 (x : N) : N := N.lxor x (W - 1).

Lemma W_pow : W = 2 ^ 64.
Proof. reflexivity. Qed.

Lemma w64_small x : x < W -> w64 x = x.
Proof. apply N.mod_small. Qed.

Lemma w64_lt x : w64 x < W.
Proof. apply N.mod_lt. discriminate. Qed.

Lemma add64_small a b : a + b < W -> add64 a b = a + b.
Proof. apply w64_small. Qed.

Lemma mul64_small a b : a * b < W -> mul64 a b = a * b.
Proof. apply w64_small. Qed.

Lemma sub64_small a b : b <= a -> a < W -> sub64 a b = a - b.
Proof.
  intros ??. unfold sub64, w64.
  replace (a + W - b) with ((a - b) + 1 * W) by lia.
  rewrite N.mod_add by discriminate. apply N.mod_small. lia.
Qed.
