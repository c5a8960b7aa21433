(** Property theorems C77: containers of several types over the same allocators. *)
From Verif Require Import Base Mem AlignedMalloc Allocators Checked Tree Client Contract Service AllocSpec Env EnvProofs
  Vector Array HeapPure Heap HeapSpec ContExamples HeapExamples Crowd CrowdFacts Mixed MixedProofs MixedFacts.

Local Open Scope N_scope.

(** * C77: [ty] gives the container types of the program. *)
Theorem C77_mixed_program :
  forall pl e b ty k ops w,
  pl <> PPosix -> wf e = true -> (forall t, 0 < t_size (ty t)) -> place b (N.of_nat k * esize e) w ->
  csession_ok (den pl e) b (xstep (den pl e) b ty k) (xkill (den pl e) b) (xcheck ty k) (unsupported (half (ereq pl e))) k ∅ ops w.
Proof. exact mixed_tree. Qed.
Print Assumptions C77_mixed_program.

Theorem C77_any_allocator :
  forall bad A req, service bad A req -> modest bad (half req) -> forall b ty k ops w,
  (forall t, 0 < t_size (ty t)) -> place b (N.of_nat k * a_size A) w ->
  csession_ok A b (xstep A b ty k) (xkill A b) (xcheck ty k) bad k ∅ ops w.
Proof. exact mixed_any. Qed.
Print Assumptions C77_any_allocator.

Theorem C77_among_threads :
  forall pl e plan b ty k ops w,
  pl <> PPosix -> wf e = true -> (forall t, 0 < t_size (ty t)) -> place b (N.of_nat k * esize e) w ->
  Forall (deeds_ask (ereq pl e)) plan ->
  let A := crowd (den pl (EThreaded e)) plan in
  csession_ok A b (xstep A b ty k) (xkill A b) (xcheck ty k) (unsupported (half (ereq pl e))) k ∅ ops w.
Proof. exact mixed_crowd. Qed.
Print Assumptions C77_among_threads.

(** What a program sees of its containers of one type is what it may see without the others. *)
Theorem C77_vectors_among :
  forall pl e b ty k, pl <> PPosix -> wf e = true -> (forall t, 0 < t_size (ty t)) ->
  forall ops w os w' evs t sz, place b (N.of_nat k * esize e) w ->
  csession (den pl e) b (xstep (den pl e) b ty k) (xkill (den pl e) b) k ops w = Ok os w' evs ->
  existsb (unsupported (half (ereq pl e))) evs = false -> ty t = TVec sz ->
  let p := part_of of_vec t ops os in ccheck (vcheck sz k) (map fst p) (map snd p) ∅.
Proof. exact vectors_among. Qed.
Print Assumptions C77_vectors_among.

Theorem C77_arrays_among :
  forall pl e b ty k, pl <> PPosix -> wf e = true -> (forall t, 0 < t_size (ty t)) ->
  forall ops w os w' evs t sz, place b (N.of_nat k * esize e) w ->
  csession (den pl e) b (xstep (den pl e) b ty k) (xkill (den pl e) b) k ops w = Ok os w' evs ->
  existsb (unsupported (half (ereq pl e))) evs = false -> ty t = TArr sz ->
  let p := part_of of_arr t ops os in ccheck (acheck sz k) (map fst p) (map snd p) ∅.
Proof. exact arrays_among. Qed.
Print Assumptions C77_arrays_among.

Theorem C77_heaps_among :
  forall pl e b ty k, pl <> PPosix -> wf e = true -> (forall t, 0 < t_size (ty t)) ->
  forall ops w os w' evs t sz T comp eqv, place b (N.of_nat k * esize e) w ->
  csession (den pl e) b (xstep (den pl e) b ty k) (xkill (den pl e) b) k ops w = Ok os w' evs ->
  existsb (unsupported (half (ereq pl e))) evs = false -> ty t = THeap sz T comp eqv ->
  let p := part_of of_heap t ops os in ccheck (hcheck sz T comp eqv k) (map fst p) (map snd p) ∅.
Proof. exact heaps_among. Qed.
Print Assumptions C77_heaps_among.

(** Vectors of two types, an array and a heap of objects that take blocks from the same free list;
    the last operation is not one of arrays. *)
Example C77_example :
  wf mixed = true /\ (forall t, 0 < t_size (kinds t)) /\ place 4096 (2 * esize mixed) (w_raw 0) /\
  Forall (deeds_ask (ereq PMalloc mixed)) busy /\
  let os := [CUnit; CUnit; CUnit; CUnit; CUnit; CNum 2; CNum 3; CNum 1; CVal (Some (Val 5)); CUnit; CUnit; CVal (Some (Val 7));
    CVal (Some (Val 40)); CVal (Some (Val 70)); CUnit] in
  seen (unsupported (half (ereq PMalloc mixed))) (xprog (den PMalloc mixed) potpourri (w_raw 0)) = Some (os, false) /\
  seen (unsupported (half (ereq PMalloc mixed))) (xprog (crowd (den PMalloc (EThreaded mixed)) busy) potpourri (w_raw 0)) = Some (os, false) /\
  part_of of_heap 2 potpourri os =
    [(HNewList 0 [Val 9; Val 5] 0 0, CUnit); (HInsert 0 (RVal (Val 7)), CNum 2); (HPop 0, CVal (Some (Val 5))); (HPop 0, CVal (Some (Val 7)))].
Proof.
  split; [done|]. split; [exact kinds_size|]. split; [exact (w0_place 2)|]. split; [exact busy_asks|]. by vm_compute.
Qed.
