(** Property theorems C71 and C72: containers that share an allocator. *)
From Verif Require Import Base Mem AlignedMalloc Allocators Checked Tree Client Contract AllocSpec Env EnvProofs
  Vector Array HeapPure Heap HeapSpec RepProofs HeapProofs ContExamples HeapExamples SharedCont SharedContFacts.

Local Open Scope N_scope.

(** * C71: see [sharing_ok] in SharedCont.v. *)
Theorem C71_vectors :
  forall pl e sz ops w,
  pl <> PPosix -> wf (EShared e) = true -> 0 < sz -> N.of_nat (length ops) + 1 < W ->
  sharing_ok (vector_cont (den pl (EShared e)) sz) s_al s_info (vcheck sz) (unsupported (ereq pl e)) ops w.
Proof. exact vector_sharing_tree. Qed.
Print Assumptions C71_vectors.

Theorem C71_arrays :
  forall pl e sz ops w,
  pl <> PPosix -> wf (EShared e) = true -> 0 < sz -> N.of_nat (length ops) + 1 < W ->
  sharing_ok (array_cont (den pl (EShared e)) sz) s_al s_info (acheck sz) (unsupported (ereq pl e)) ops w.
Proof. exact array_sharing_tree. Qed.
Print Assumptions C71_arrays.

Theorem C71_heaps :
  forall pl e sz T comp eqv ops w,
  pl <> PPosix -> wf (EShared e) = true -> 0 < sz -> N.of_nat (length ops) + 1 < W ->
  sharing_ok (heap_cont (den pl (EShared e)) sz T comp eqv) p_al p_info (hcheck sz T comp eqv)
    (unsupported (half (ereq pl e))) ops w.
Proof. exact heap_sharing_tree. Qed.
Print Assumptions C71_heaps.

(** Three vectors over two blocks, whose handles are dropped first; block 1 is left with two
    handles of the program, block 0 with vectors 1 and 2.  The block that the default constructor
    made for vector 2 went away with the assignment, and self-assignment of the only handle is
    left out. *)
Example C71_example :
  wf (EShared pool) = true /\
  outline (srun (vshared 4) shared_vectors (sstate0 _) (w_raw 0)) =
    Some ([CUnit; CUnit; CUnit; CUnit; CUnit; CUnit; CUnit; CNum 3; CUnit; CVal (Some (Val 7)); CUnit; CVal (Some (Val 1)); CNum 0;
           CUnit; CUnit; CUnit], [(0%nat, 2); (1%nat, 2)], 6%nat) /\
  option_map snd (seen (unsupported (ereq PMalloc pool)) (srun (vshared 4) shared_vectors (sstate0 _) (w_raw 0))) = Some false /\
  outline (srun (vshared 4) (shared_vectors ++ [SDrop 1; SDrop 2; SOp (VDestroy 2); SOp (VDestroy 1)]) (sstate0 _) (w_raw 0)) =
    Some ([CUnit; CUnit; CUnit; CUnit; CUnit; CUnit; CUnit; CNum 3; CUnit; CVal (Some (Val 7)); CUnit; CVal (Some (Val 1)); CNum 0;
           CUnit; CUnit; CUnit; CUnit; CUnit; CUnit; CUnit], [], 0%nat).
Proof. by vm_compute. Qed.

(** The block lives on in containers whose handle came from a moved or destroyed container. *)
Example C71_array_example :
  let ops := [SNew 0; SOp (ANewList 0 [Val 1; Val 2] 0); SDrop 0; SOp (AMove 1 0); SOp (ADestroy 0); SDefault (ANewN 2 1 0);
              SOp (AAssign 2 1); SOp (ADestroy 1); SOp (AGet 2 1)] in
  outline (srun (ashared 4) ops (sstate0 _) (w_raw 0)) =
    Some ([CUnit; CUnit; CUnit; CUnit; CUnit; CUnit; CUnit; CUnit; CVal (Some (Val 2))], [(0%nat, 1)], 3%nat) /\
  outline (srun (ashared 4) (ops ++ [SOp (ADestroy 2)]) (sstate0 _) (w_raw 0)) =
    Some ([CUnit; CUnit; CUnit; CUnit; CUnit; CUnit; CUnit; CUnit; CVal (Some (Val 2)); CUnit], [], 0%nat).
Proof. by vm_compute. Qed.

Example C71_heap_example :
  let ops := [SDefault (HNewList 0 [Val 4; Val 2; Val 9] 0 0); SOp (HCopy 1 0); SOp (HPop 1); SOp (HDestroy 0); SDefault (HNew 0 0 0);
              SOp (HMoveAssign 0 1); SOp (HDestroy 1); SOp (HInsert 0 (RVal (Val 1))); SOp (HPeek 0)] in
  outline (srun (hshared 4 object) ops (sstate0 _) (w_raw 0)) =
    Some ([CUnit; CUnit; CVal (Some (Val 2)); CUnit; CUnit; CUnit; CUnit; CNum 0; CVal (Some (Val 1))], [(0%nat, 1)], 3%nat) /\
  outline (srun (hshared 4 object) (ops ++ [SOp (HDestroy 0)]) (sstate0 _) (w_raw 0)) =
    Some ([CUnit; CUnit; CVal (Some (Val 2)); CUnit; CUnit; CUnit; CUnit; CNum 0; CVal (Some (Val 1)); CUnit], [], 0%nat).
Proof. by vm_compute. Qed.

(** * C72.  Assignment of an empty container to itself destroys the block that its own handle refers to,
    if there is no other handle, and then uses it. *)
Theorem C72_self_assignment_refuted :
  exists w, crash (sany (vshared 4) [SDefault (VNew 0 0); SOp (VAssign 0 0)] (sstate0 _) w) = Some UBLifetime /\
    crash (sany (vshared 4) [SDefault (VNew 0 0); SOp (VMoveAssign 0 0)] (sstate0 _) w) = Some UBLifetime /\
    crash (sany (ashared 4) [SDefault (ANew 0 0); SOp (AAssign 0 0)] (sstate0 _) w) = Some UBLifetime /\
    crash (sany (ashared 4) [SDefault (ANew 0 0); SOp (AMoveAssign 0 0)] (sstate0 _) w) = Some UBLifetime /\
    crash (sany (hshared 4 int4) [SDefault (HNew 0 0 0); SOp (HAssign 0 0)] (sstate0 _) w) = Some UBLifetime /\
    crash (sany (hshared 4 int4) [SDefault (HNew 0 0 0); SOp (HMoveAssign 0 0)] (sstate0 _) w) = Some UBLifetime.
Proof. exact self_assign_shared_refuted. Qed.
Print Assumptions C72_self_assignment_refuted.
