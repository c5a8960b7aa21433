(** Property theorems C70: alignment of the elements of containers. *)
From Verif Require Import Base Mem AlignedMalloc Allocators Checked Tree Client Contract AllocSpec AllocProofs Env
  Vector Array HeapPure Heap HeapSpec HeapExamples ContExamples Align.

Local Open Scope N_scope.

(** * C70: whatever data() returns after any history, the elements are aligned. *)
Theorem C70_vector_elements_aligned :
  forall pl e b sz al k pre c w os p w' evs,
  pl <> PPosix -> wf e = true -> 0 < sz -> place b (N.of_nat k * esize e) w ->
  csession (den pl e) b (vstep (den pl e) b sz k) (release (den pl e) b sz) k (pre ++ [VData c]) w = Ok (os ++ [CPtr p]) w' evs ->
  length os = length pre -> existsb (unsupported (ereq pl e)) evs = false -> fundamental sz al -> aligned sz al p.
Proof. exact vector_aligned. Qed.
Print Assumptions C70_vector_elements_aligned.

Theorem C70_array_elements_aligned :
  forall pl e b sz al k pre c w os p w' evs,
  pl <> PPosix -> wf e = true -> 0 < sz -> place b (N.of_nat k * esize e) w ->
  csession (den pl e) b (astep (den pl e) b sz k) (arelease (den pl e) b sz) k (pre ++ [AData c]) w = Ok (os ++ [CPtr p]) w' evs ->
  length os = length pre -> existsb (unsupported (ereq pl e)) evs = false -> fundamental sz al -> aligned sz al p.
Proof. exact array_aligned. Qed.
Print Assumptions C70_array_elements_aligned.

Theorem C70_heap_elements_aligned :
  forall pl e b sz al k T comp eqv pre c w os p w' evs,
  pl <> PPosix -> wf e = true -> 0 < sz -> place b (N.of_nat k * esize e) w ->
  csession (den pl e) b (hstep (den pl e) b sz T comp eqv k) (hrelease (den pl e) b sz T) k (pre ++ [HData c]) w =
    Ok (os ++ [CPtr p]) w' evs ->
  length os = length pre -> existsb (unsupported (half (ereq pl e))) evs = false -> fundamental sz al -> aligned sz al p.
Proof. exact heap_aligned. Qed.
Print Assumptions C70_heap_elements_aligned.

(** Elements of 24 bytes, aligned to 8, in a linear_allocator: the second vector follows the first. *)
Example C70_example :
  let ops := [VNewList 0 [Val 1] 0; VNewList 1 [Val 2; Val 3] 0; VPush 1 (RVal (Val 4)); VData 1] in
  wf (ELinear 256) = true /\ fundamental 24 8 /\ place 4096 (1 * esize (ELinear 256)) (w_raw (N.to_nat 256)) /\
  seen (unsupported (ereq PMalloc (ELinear 256))) (vprog (ELinear 256) 24 1 ops (w_raw (N.to_nat 256))) =
    Some ([CUnit; CUnit; CNum 2; CPtr 4176], false).
Proof.
  split; [done|]. split; [split; [by exists 2|by exists 3]|]. split; [by apply (w_raw_place 256)|by vm_compute].
Qed.

(** Not for types that need more: 32 bytes, aligned to 32, in memory from malloc. *)
Theorem C70_overaligned_refuted :
  exists pl e b sz al k pre c w os p w' evs,
  pl <> PPosix /\ wf e = true /\ 0 < sz /\ place b (N.of_nat k * esize e) w /\
  csession (den pl e) b (vstep (den pl e) b sz k) (release (den pl e) b sz) k (pre ++ [VData c]) w = Ok (os ++ [CPtr p]) w' evs /\
  length os = length pre /\ existsb (unsupported (ereq pl e)) evs = false /\ (al | sz) /\ ~ aligned sz al p.
Proof. exact vector_overaligned. Qed.
Print Assumptions C70_overaligned_refuted.
