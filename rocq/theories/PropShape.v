(** Values and comparators have no influence on storage. *)
From Verif Require Import Base Mem Bits AlignedMalloc Allocators Checked Tree Client AllocSpec AllocProofs Env EnvProofs Vector Array HeapPure Heap Mixed
  HeapSpec ContExamples HeapExamples MixedFacts Rename RenameFacts Shape ShapeFacts.

Local Open Scope N_scope.

(** * C92: two programs that differ in values and comparators use storage in the same way *)
Theorem C92_heap :
  forall pl e b sz T T' comp comp' eqv eqv' k ops ops' w,
  pl <> PPosix -> wf e = true -> 0 < sz -> place b (N.of_nat k * esize e) w ->
  e_triv T' = e_triv T -> Forall2 like_hop ops ops' ->
  let A := den pl e in
  like_runs_of like_answer (unsupported (half (ereq pl e))) ops
    (csession A b (hstep A b sz T comp eqv k) (hrelease A b sz T) k ops w)
    (csession A b (hstep A b sz T' comp' eqv' k) (hrelease A b sz T') k ops' w).
Proof. exact like_heap. Qed.
Print Assumptions C92_heap.

Theorem C92_mixed :
  forall pl e b ty ty' k ops ops' w,
  pl <> PPosix -> wf e = true -> (forall t, 0 < t_size (ty t)) -> place b (N.of_nat k * esize e) w ->
  (forall t, like_ctype (ty t) (ty' t)) -> Forall2 like_cop ops ops' ->
  let A := den pl e in
  like_runs_of like_canswer (unsupported (half (ereq pl e))) ops
    (csession A b (xstep A b ty k) (xkill A b) k ops w)
    (csession A b (xstep A b ty' k) (xkill A b) k ops' w).
Proof. exact like_mixed. Qed.
Print Assumptions C92_mixed.

(** std::less and std::greater; the element type of the second program is unchanged by a move. *)
Example C92_heap_example :
  wf mixed = true /\ place 4096 (N.of_nat 1 * esize mixed) (w_raw 0) /\ e_triv other_object = e_triv object /\
  Forall2 like_hop (some_heap 4 2) (some_heap 1 9) /\
  existsb (unsupported (half (ereq PMalloc mixed))) (trace (hprog mixed 4 object 1 (some_heap 4 2) (w_raw 0))) = false /\
  seen (fun _ => false) (hprog mixed 4 object 1 (some_heap 4 2) (w_raw 0)) =
    Some ([CUnit; CNum 2; CNum 1; CNum 3; CVal (Some (Val 2)); CVal (Some (Val 2)); CNum 4; CPtr 131072], false) /\
  seen (fun _ => false) (gprog mixed 4 other_object 1 (some_heap 1 9) (w_raw 0)) =
    Some ([CUnit; CNum 2; CNum 1; CNum 0; CVal (Some (Val 9)); CVal (Some (Val 9)); CNum 4; CPtr 131072], false).
Proof. exact like_heap_use. Qed.
Example C92_mixed_example :
  wf mixed = true /\ (forall t, 0 < t_size (kinds t)) /\ (forall t, like_ctype (kinds t) (other_kinds t)) /\
  place 4096 (N.of_nat 2 * esize mixed) (w_raw 0) /\
  Forall2 like_cop (all_kinds 4 2) (all_kinds 1 9) /\
  seen (unsupported (half (ereq PMalloc mixed))) (xprog (den PMalloc mixed) (all_kinds 4 2) (w_raw 0)) =
    Some ([CUnit; CNum 3; CNum 4; CNum 0; CVal (Some (Val 2)); CVal (Some (Val 4)); CNum 4; CPtr 131072; CUnit; CVal (Some (Val 2)); CPtr 196608;
           CUnit; CNum 2; CNum 1; CNum 3; CVal (Some (Val 2)); CVal (Some (Val 2)); CNum 4; CPtr 262144;
           CUnit; CUnit; CVal (Some (Val 2)); CVal (Some (Val 4)); CNum 4; CPtr 393216; CUnit; CVal (Some (Val 4)); CPtr 458752], false) /\
  seen (unsupported (half (ereq PMalloc mixed))) (yprog (den PMalloc mixed) (all_kinds 1 9) (w_raw 0)) =
    Some ([CUnit; CNum 3; CNum 4; CNum 0; CVal (Some (Val 9)); CVal (Some (Val 1)); CNum 4; CPtr 131072; CUnit; CVal (Some (Val 9)); CPtr 196608;
           CUnit; CNum 2; CNum 1; CNum 0; CVal (Some (Val 9)); CVal (Some (Val 9)); CNum 4; CPtr 262144;
           CUnit; CUnit; CVal (Some (Val 9)); CVal (Some (Val 1)); CNum 4; CPtr 393216; CUnit; CVal (Some (Val 1)); CPtr 458752], false).
Proof. exact like_mixed_use. Qed.
