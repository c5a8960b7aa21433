(** Property theorems C47-C52: binary_heap; its cases of C42-C44; C53. *)
From Verif Require Import Base Mem AlignedMalloc Allocators Checked Tree Client Contract Service AllocSpec Env EnvProofs
  Vector Array HeapPure Heap HeapSpec HeapProofs HeapFacts HeapExamples ContExamples.

Local Open Scope N_scope.

(** * C47 *)
Theorem C47_heap_is_priority_queue :
  forall pl e b sz T comp eqv k ops w,
  pl <> PPosix -> wf e = true -> 0 < sz -> place b (N.of_nat k * esize e) w -> forallb queue_op ops = true ->
  csession_ok (den pl e) b (hstep (den pl e) b sz T comp eqv k) (hrelease (den pl e) b sz T) (queue_check T comp k)
    (unsupported (half (ereq pl e))) k ∅ ops w.
Proof. exact heap_queue. Qed.
Print Assumptions C47_heap_is_priority_queue.

(** With every operation, and positions in the array (specification in Heap.v). *)
Theorem C47_heap_is_array :
  forall pl e b sz T comp eqv k ops w,
  pl <> PPosix -> wf e = true -> 0 < sz -> place b (N.of_nat k * esize e) w ->
  csession_ok (den pl e) b (hstep (den pl e) b sz T comp eqv k) (hrelease (den pl e) b sz T) (hcheck sz T comp eqv k)
    (unsupported (half (ereq pl e))) k ∅ ops w.
Proof. exact heap_tree. Qed.
Print Assumptions C47_heap_is_array.

(** The same for any allocator that provides what containers need (Service.v), for instance every
    one that meets the contract. *)
Theorem C47_heap_is_array_any_allocator :
  forall bad A req, service bad A req -> modest bad (half req) ->
  forall b sz T comp eqv k, 0 < sz -> forall ops w, place b (N.of_nat k * a_size A) w ->
  csession_ok A b (hstep A b sz T comp eqv k) (hrelease A b sz T) (hcheck sz T comp eqv k) bad k ∅ ops w.
Proof. exact heap_any. Qed.
Print Assumptions C47_heap_is_array_any_allocator.

Example C47_example :
  let ops := [HNew 0 0 0] ++ fills 0 [Val 5; Val 3; Val 9; Val 1; Val 7; Val 3; Val 8] ++
    [HCopyAl 1 0 1; HPop 0; HPop 0; HPeek 0; HSize 1; HMoveAssign 0 1; HPop 0; HSize 1; HSize 0] in
  wf mixed = true /\ place 4096 (2 * esize mixed) (w_raw 0) /\ forallb queue_op ops = true /\ strict_weak (cmps 0) /\
  seen (unsupported (half (ereq PMalloc mixed))) (hprog mixed 4 object 2 ops (w_raw 0)) =
  Some ([CUnit; CNum 0; CNum 0; CNum 2; CNum 0; CNum 4; CNum 2; CNum 6;
         CUnit; CVal (Some (Val 1)); CVal (Some (Val 3)); CVal (Some (Val 3)); CNum 7; CUnit; CVal (Some (Val 1)); CNum 0; CNum 6], false).
Proof. split; [done|]. split; [exact (w0_place 2)|]. split; [done|]. split; [exact less_strict_weak|by vm_compute]. Qed.

(** * C48 *)
Theorem C48_heap_sort :
  forall pl e b sz T comp eqv k q l w os w' evs,
  pl <> PPosix -> wf e = true -> 0 < sz -> place b (N.of_nat k * esize e) w -> (0 < k)%nat -> e_triv T = true -> strict_weak (comp q) ->
  csession (den pl e) b (hstep (den pl e) b sz T comp eqv k) (hrelease (den pl e) b sz T) k
    (HNew 0 q 0 :: fills 0 l ++ pops 0 (length l)) w = Ok os w' evs ->
  existsb (unsupported (half (ereq pl e))) evs = false ->
  exists os1 l', os = CUnit :: os1 ++ vals l' /\ length os1 = length l /\ l' ≡ₚ l /\ sorted (comp q) l'.
Proof. exact heap_sort. Qed.
Print Assumptions C48_heap_sort.

(** For types that are not trivial the last element must not be removed (C50): it is only looked at. *)
Theorem C48_heap_sort_objects_partial :
  forall pl e b sz T comp eqv k q l w os w' evs,
  pl <> PPosix -> wf e = true -> 0 < sz -> place b (N.of_nat k * esize e) w -> (0 < k)%nat -> l <> [] -> strict_weak (comp q) ->
  csession (den pl e) b (hstep (den pl e) b sz T comp eqv k) (hrelease (den pl e) b sz T) k
    (HNew 0 q 0 :: fills 0 l ++ pops 0 (length l - 1) ++ [HPeek 0]) w = Ok os w' evs ->
  existsb (unsupported (half (ereq pl e))) evs = false ->
  exists os1 l', os = CUnit :: os1 ++ vals l' /\ length os1 = length l /\ l' ≡ₚ l /\ sorted (comp q) l'.
Proof. exact heap_sort_other. Qed.
Print Assumptions C48_heap_sort_objects_partial.

Example C48_example :
  seen (unsupported (half (ereq PMalloc mixed))) (hprog mixed 4 int4 1
    (HNew 0 0 0 :: fills 0 [Val 5; Val 3; Val 9; Val 1; Val 3] ++ pops 0 5) (w_raw 0)) =
  Some (CUnit :: [CNum 0; CNum 0; CNum 2; CNum 0; CNum 4] ++ vals [Val 1; Val 3; Val 3; Val 5; Val 9], false) /\
  seen (unsupported (half (ereq PMalloc mixed))) (hprog mixed 4 object 1
    (HNew 0 0 0 :: fills 0 [Val 5; Val 3; Val 9; Val 1; Val 3] ++ pops 0 4 ++ [HPeek 0]) (w_raw 0)) =
  Some (CUnit :: [CNum 0; CNum 0; CNum 2; CNum 0; CNum 4] ++ vals [Val 1; Val 3; Val 3; Val 5; Val 9], false).
Proof. by vm_compute. Qed.

(** * C49: over allocators that treat any other use as an error (Checked.v); [comp] is any function. *)
Theorem C49_heap_memory_discipline :
  forall pl e b sz T comp eqv k ops w,
  pl <> PPosix -> wf e = true -> 0 < sz -> place b (N.of_nat k * esize e) w ->
  let A := checked (den pl e) in
  csession_ok A b (hstep A b sz T comp eqv k) (hrelease A b sz T) (hcheck sz T comp eqv k) (unsupported (half (ereq pl e))) k ∅ ops w.
Proof. exact (fun pl e => heap_tree pl (EChecked e)). Qed.
Print Assumptions C49_heap_memory_discipline.

(** Nothing is lost or duplicated: [queue_check] without assuming an order. *)
Theorem C49_no_element_lost :
  forall pl e b sz T comp eqv k ops w,
  pl <> PPosix -> wf e = true -> 0 < sz -> place b (N.of_nat k * esize e) w -> forallb queue_op ops = true ->
  let A := checked (den pl e) in
  csession_ok A b (hstep A b sz T comp eqv k) (hrelease A b sz T) (queue_check T comp k) (unsupported (half (ereq pl e))) k ∅ ops w.
Proof. exact (fun pl e => heap_queue pl (EChecked e)). Qed.
Print Assumptions C49_no_element_lost.

(** A comparator that always answers yes. *)
Example C49_example :
  seen (unsupported (half (ereq PMalloc mixed))) (hprog (EChecked mixed) 4 object 1
    (HNew 0 2 0 :: fills 0 [Val 5; Val 3; Val 9; Val 1] ++ pops 0 3 ++ [HPeek 0]) (w_raw 0)) =
  Some (CUnit :: [CNum 0; CNum 0; CNum 0; CNum 0] ++ vals [Val 1; Val 3; Val 9; Val 5], false).
Proof. by vm_compute. Qed.

(** * C50: in this model the use of an object that does not exist, the construction of an object
    on top of another one and the release of storage that contains objects are errors. *)
Theorem C50_object_lifetimes_partial :
  forall pl e b sz left comp eqv k ops w,
  pl <> PPosix -> wf e = true -> 0 < sz -> place b (N.of_nat k * esize e) w ->
  let A := checked (den pl e) in
  let T := Elt false left in
  csession_ok A b (hstep A b sz T comp eqv k) (hrelease A b sz T) (hcheck sz T comp eqv k) (unsupported (half (ereq pl e))) k ∅ ops w.
Proof. exact (fun pl e b sz left => heap_tree pl (EChecked e) b sz (Elt false left)). Qed.
Print Assumptions C50_object_lifetimes_partial.

(** What is missing: *)
Theorem C50_pop_last_refuted :
  exists w, place 4096 0 w /\ crash (hprog_any EMalloc 4 object 1 [HNew 0 0 0; HInsert 0 (RVal (Val 1)); HPop 0] w) = Some UBLifetime.
Proof. exact pop_last_object. Qed.
Print Assumptions C50_pop_last_refuted.

Theorem C50_move_with_allocator_refuted :
  exists w, place 4096 0 w /\ crash (hprog_any EMalloc 1 object 2 [HNewList 0 [Val 1; Val 2] 0 0; HMoveAl 1 0 1] w) = Some UBLifetime.
Proof. exact move_alloc_leaks_heap. Qed.
Print Assumptions C50_move_with_allocator_refuted.

Example C50_example :
  seen (unsupported (half (ereq PMalloc mixed))) (hprog (EChecked mixed) 4 object 2
    [HNewList 0 [Val 4; Val 2; Val 3] 0 0; HInsert 0 (RVal (Val 1)); HCopy 1 0; HPop 0; HClear 1; HInsert 1 (RElem 0 2); HAssign 0 1; HPeek 0] (w_raw 0)) =
  Some ([CUnit; CNum 0; CUnit; CVal (Some (Val 1)); CUnit; CNum 0; CUnit; CVal (Some (Val 3))], false).
Proof. by vm_compute. Qed.

(** * C51 *)
Theorem C51_find_first :
  forall pl e b sz T comp eqv k pre c v j w os n i y w' evs,
  pl <> PPosix -> wf e = true -> 0 < sz -> place b (N.of_nat k * esize e) w ->
  csession (den pl e) b (hstep (den pl e) b sz T comp eqv k) (hrelease (den pl e) b sz T) k
    (pre ++ [HSize c; HFind c (RVal v); HAt c j]) w = Ok (os ++ [CNum n; CNum i; CVal (Some y)]) w' evs -> length os = length pre ->
  existsb (unsupported (half (ereq pl e))) evs = false ->
  i <= n /\ (j < i -> eqv y v = false) /\ (j = i -> eqv y v = true).
Proof. exact heap_find_first. Qed.
Print Assumptions C51_find_first.

(** Also for an empty heap. *)
Theorem C51_find_in_range :
  forall pl e b sz T comp eqv k pre c v w os n i w' evs,
  pl <> PPosix -> wf e = true -> 0 < sz -> place b (N.of_nat k * esize e) w ->
  csession (den pl e) b (hstep (den pl e) b sz T comp eqv k) (hrelease (den pl e) b sz T) k
    (pre ++ [HSize c; HFind c (RVal v)]) w = Ok (os ++ [CNum n; CNum i]) w' evs -> length os = length pre ->
  existsb (unsupported (half (ereq pl e))) evs = false -> i <= n.
Proof. exact heap_find_range. Qed.
Print Assumptions C51_find_in_range.

Example C51_example :
  let pre := HNew 0 0 0 :: fills 0 [Val 5; Val 3; Val 9; Val 1; Val 3] in
  seen (unsupported (half (ereq PMalloc mixed))) (hprog mixed 4 object 1 (pre ++ [HSize 0; HFind 0 (RVal (Val 3)); HAt 0 1]) (w_raw 0)) =
  Some ([CUnit; CNum 0; CNum 0; CNum 2; CNum 0; CNum 4] ++ [CNum 5; CNum 1; CVal (Some (Val 3))], false) /\
  seen (unsupported (half (ereq PMalloc mixed))) (hprog mixed 4 object 1 (pre ++ [HSize 0; HFind 0 (RVal (Val 4)); HAt 0 4]) (w_raw 0)) =
  Some ([CUnit; CNum 0; CNum 0; CNum 2; CNum 0; CNum 4] ++ [CNum 5; CNum 5; CVal (Some (Val 3))], false).
Proof. by vm_compute. Qed.

(** * C52 *)
Theorem C52_insert_position :
  forall pl e b sz T comp eqv k pre c v w os i ob w' evs,
  pl <> PPosix -> wf e = true -> 0 < sz -> place b (N.of_nat k * esize e) w ->
  csession (den pl e) b (hstep (den pl e) b sz T comp eqv k) (hrelease (den pl e) b sz T) k
    (pre ++ [HInsert c (RVal v); HAt c i]) w = Ok (os ++ [CNum i; ob]) w' evs -> length os = length pre ->
  existsb (unsupported (half (ereq pl e))) evs = false -> ob = CVal (Some v).
Proof. exact heap_insert_position. Qed.
Print Assumptions C52_insert_position.

Example C52_example :
  seen (unsupported (half (ereq PMalloc mixed))) (hprog mixed 4 object 1
    ((HNew 0 0 0 :: fills 0 [Val 5; Val 3; Val 9; Val 1; Val 6]) ++ [HInsert 0 (RVal (Val 2)); HAt 0 2]) (w_raw 0)) =
  Some ([CUnit; CNum 0; CNum 0; CNum 2; CNum 0; CNum 4] ++ [CNum 2; CVal (Some (Val 2))], false).
Proof. by vm_compute. Qed.

(** * C42, C43, C44 for binary_heap.  (The cases in which these operations are correct are in C47.) *)
Theorem C42_heap_refuted :
  exists w, place 4096 0 w /\ crash (hprog_any (EChecked EMalloc) 4 int4 2 [HNewList 0 [Val 1; Val 2] 0 0; HMoveAl 1 0 1] w) = Some UBFree.
Proof. exact move_alloc_wrong_size_heap. Qed.
Print Assumptions C42_heap_refuted.

Theorem C43_heap_refuted :
  exists w, place 4096 0 w /\
    crash (hprog_any EMalloc 4 int4 1 [HNewList 0 [Val 1; Val 2] 0 0; HAssign 0 0] w) = Some UBUninit /\
    crash (hprog_any EMalloc 4 object 1 [HNewList 0 [Val 1; Val 2] 0 0; HAssign 0 0] w) = Some UBLifetime.
Proof. exact self_assign_heap. Qed.
Print Assumptions C43_heap_refuted.

Theorem C44_insert_own_refuted :
  exists w, place 4096 0 w /\
    crash (hprog_any EMalloc 4 int4 1 [HNewList 0 [Val 1; Val 2] 0 0; HInsert 0 (RElem 0 0)] w) = Some UBAccess /\
    crash (hprog_any EMalloc 4 object 1 [HNewList 0 [Val 1; Val 2] 0 0; HInsert 0 (RElem 0 0)] w) = Some UBAccess.
Proof. exact insert_own_heap. Qed.
Print Assumptions C44_insert_own_refuted.

(** * C53: no container checks the pointer it gets.  (C39, C45 and C47 exclude executions in which
    an allocation fails.) *)
Theorem C53_vector_refuted :
  exists w, place 4096 64 w /\ crash (vprog (EStack 64) 4 1 [VNewList 0 [Val 1] 0; VPushRange 0 (GVals (repeat (Val 2) 17))] w) = Some UBNull.
Proof. exact null_unchecked_vec. Qed.
Print Assumptions C53_vector_refuted.

Theorem C53_array_refuted :
  exists w, place 4096 64 w /\ crash (aprog (EStack 64) 4 1 [ANewFill 0 17 (RVal (Val 1)) 0] w) = Some UBNull.
Proof. exact null_unchecked_arr. Qed.
Print Assumptions C53_array_refuted.

Theorem C53_heap_refuted :
  exists w, place 4096 64 w /\ crash (hprog (EStack 64) 4 int4 1 [HNewCap 0 17 0 0; HInsert 0 (RVal (Val 1))] w) = Some UBNull.
Proof. exact null_unchecked_heap. Qed.
Print Assumptions C53_heap_refuted.
