(** Property theorems C81: the values of bytes have no influence on allocators. *)
From Verif Require Import Base Mem AlignedMalloc Allocators Tree Client AllocSpec ContExamples Oblivious ObliviousProofs.

Local Open Scope N_scope.

(** * C81 *)

(** Two programs make the same calls but write different values, in worlds whose bytes have
    different values: every request has the same answer (address, ownership, max_size), the same
    events happen, the memory that is accessible afterwards and the blocks of malloc are the same. *)
Theorem C81_oblivious :
  forall pl e ops ops' b w w',
  pl <> PPosix -> wf e = true -> place b (esize e) w -> asks (ereq pl e) ops ->
  Forall2 same_call ops ops' -> same_layout w w' ->
  same_course (session (den pl e) b (eready_now pl e) ops w) (session (den pl e) b (eready_now pl e) ops' w').
Proof. exact oblivious. Qed.
Print Assumptions C81_oblivious.

(** The second program overwrites the bytes where the freelist will keep its link with ones; the
    second world is full of twos. *)
Example C81_example :
  wf hybrid = true /\ place 4096 (esize hybrid) (w_full Undef) /\
  asks (ereq PMalloc hybrid) (one_way 0) /\ Forall2 same_call (one_way 0) (one_way 1) /\
  same_layout (w_full Undef) (w_full (Byte 2)) /\
  outcome (session (den PMalloc hybrid) 4096 (eready_now PMalloc hybrid) (one_way 0) (w_full Undef)) =
    Some ([ObPtr 65536; ObUnit; ObUnit; ObPtr 4096; ObUnit; ObByte (Some 0); ObUnit; ObPtr 65536; ObUnit; ObPtr 131072; ObUnit; ObUnit], []) /\
  outcome (session (den PMalloc hybrid) 4096 (eready_now PMalloc hybrid) (one_way 1) (w_full (Byte 2))) =
    Some ([ObPtr 65536; ObUnit; ObUnit; ObPtr 4096; ObUnit; ObByte (Some 1); ObUnit; ObPtr 65536; ObUnit; ObPtr 131072; ObUnit; ObUnit], []).
Proof. exact oblivious_example. Qed.
