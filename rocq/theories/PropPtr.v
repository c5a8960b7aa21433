(** Property theorems C79: pointers and iterators to elements of trivial_vector and trivial_array. *)
From Verif Require Import Base Mem AlignedMalloc Allocators Checked Tree Client Contract Service AllocSpec Env EnvProofs
  Vector VectorProofs Array ArrayProofs ContFacts ContExamples Ptr PtrProofs PtrFacts.

Local Open Scope N_scope.

(** * C79: a pointer to an element is another name of this element and of nothing else. *)
Theorem C79_vector_pointers :
  forall pl e b sz k ops w,
  pl <> PPosix -> wf e = true -> 0 < sz -> place b (N.of_nat k * esize e) w ->
  csession_ok (den pl e) b (pstep (den pl e) sz (v_info sz) (vstep (den pl e) b sz k)) (release (den pl e) b sz) (pcheck sz (vcheck sz k))
    (unsupported (ereq pl e)) k ∅ ops w.
Proof. exact vptr_tree. Qed.
Print Assumptions C79_vector_pointers.

Theorem C79_array_pointers :
  forall pl e b sz k ops w,
  pl <> PPosix -> wf e = true -> 0 < sz -> place b (N.of_nat k * esize e) w ->
  csession_ok (den pl e) b (pstep (den pl e) sz (a_info sz) (astep (den pl e) b sz k)) (arelease (den pl e) b sz) (pcheck sz (acheck sz k))
    (unsupported (ereq pl e)) k ∅ ops w.
Proof. exact aptr_tree. Qed.
Print Assumptions C79_array_pointers.

Theorem C79_vector_pointers_any_allocator :
  forall bad A req, service bad A req -> forall b sz k, 0 < sz -> forall ops w, place b (N.of_nat k * a_size A) w ->
  csession_ok A b (pstep A sz (v_info sz) (vstep A b sz k)) (release A b sz) (pcheck sz (vcheck sz k)) bad k ∅ ops w.
Proof. exact @vptr_session. Qed.
Print Assumptions C79_vector_pointers_any_allocator.

Theorem C79_array_pointers_any_allocator :
  forall bad A req, service bad A req -> forall b sz k, 0 < sz -> forall ops w, place b (N.of_nat k * a_size A) w ->
  csession_ok A b (pstep A sz (a_info sz) (astep A b sz k)) (arelease A b sz) (pcheck sz (acheck sz k)) bad k ∅ ops w.
Proof. exact @aptr_session. Qed.
Print Assumptions C79_array_pointers_any_allocator.

(** Begin() + i, taken after any history, stays a pointer to element i of [c] as long as what is done
    fits the capacity: what is written there is found by operator[]... *)
Theorem C79_write_through_pointer :
  forall pl e b sz k pre c mid i v w os K n p os2 n2 ob1 ob2 w' evs,
  pl <> PPosix -> wf e = true -> 0 < sz -> place b (N.of_nat k * esize e) w ->
  csession (den pl e) b (pstep (den pl e) sz (v_info sz) (vstep (den pl e) b sz k)) (release (den pl e) b sz) k
    (pre ++ [PLib (VCap c); PLib (VSize c); PLib (VData c)] ++ mid ++ [PLib (VSize c); PStore (p + sz * i) (PVal v); PLib (VGet c i)]) w =
    Ok (os ++ [CNum K; CNum n; CPtr p] ++ os2 ++ [CNum n2; ob1; ob2]) w' evs ->
  length os = length pre -> length os2 = length mid -> existsb (unsupported (ereq pl e)) evs = false ->
  v_fits c K (calls mid) n = true -> i < n2 -> ob2 = CVal (Some v).
Proof. exact vector_write_through. Qed.
Print Assumptions C79_write_through_pointer.

(** ... and what operator[] wrote is read there. *)
Theorem C79_read_through_pointer :
  forall pl e b sz k pre c mid i v w os K n p os2 n2 ob1 ob2 w' evs,
  pl <> PPosix -> wf e = true -> 0 < sz -> place b (N.of_nat k * esize e) w ->
  csession (den pl e) b (pstep (den pl e) sz (v_info sz) (vstep (den pl e) b sz k)) (release (den pl e) b sz) k
    (pre ++ [PLib (VCap c); PLib (VSize c); PLib (VData c)] ++ mid ++ [PLib (VSize c); PLib (VSet c i (RVal v)); PLoad (p + sz * i)]) w =
    Ok (os ++ [CNum K; CNum n; CPtr p] ++ os2 ++ [CNum n2; ob1; ob2]) w' evs ->
  length os = length pre -> length os2 = length mid -> existsb (unsupported (ereq pl e)) evs = false ->
  v_fits c K (calls mid) n = true -> i < n2 -> ob2 = CVal (Some v).
Proof. exact vector_read_through. Qed.
Print Assumptions C79_read_through_pointer.

(** After d = std::move(c) pointers to elements of c are pointers to those of d. *)
Theorem C79_pointer_follows_move :
  forall pl e b sz k pre c d i v w os n p ob1 ob2 ob3 n2 w' evs,
  pl <> PPosix -> wf e = true -> 0 < sz -> place b (N.of_nat k * esize e) w -> c <> d ->
  csession (den pl e) b (pstep (den pl e) sz (v_info sz) (vstep (den pl e) b sz k)) (release (den pl e) b sz) k
    (pre ++ [PLib (VSize c); PLib (VData c); PLib (VSize d); PLib (VMoveAssign d c); PStore (p + sz * i) (PVal v); PLib (VGet d i)]) w =
    Ok (os ++ [CNum n; CPtr p; CNum n2; ob1; ob2; ob3]) w' evs ->
  length os = length pre -> existsb (unsupported (ereq pl e)) evs = false -> i < n -> ob3 = CVal (Some v).
Proof. exact vector_follow_move. Qed.
Print Assumptions C79_pointer_follows_move.

Theorem C79_array_write_through_pointer :
  forall pl e b sz k pre c mid i v w os n p os2 n2 ob1 ob2 w' evs,
  pl <> PPosix -> wf e = true -> 0 < sz -> place b (N.of_nat k * esize e) w ->
  csession (den pl e) b (pstep (den pl e) sz (a_info sz) (astep (den pl e) b sz k)) (arelease (den pl e) b sz) k
    (pre ++ [PLib (ASize c); PLib (AData c)] ++ mid ++ [PLib (ASize c); PStore (p + sz * i) (PVal v); PLib (AGet c i)]) w =
    Ok (os ++ [CNum n; CPtr p] ++ os2 ++ [CNum n2; ob1; ob2]) w' evs ->
  length os = length pre -> length os2 = length mid -> existsb (unsupported (ereq pl e)) evs = false ->
  forallb (a_keeps c) (calls mid) = true -> i < n -> n2 = n /\ ob2 = CVal (Some v).
Proof. exact array_write_through. Qed.
Print Assumptions C79_array_write_through_pointer.

(** Elements of two vectors are copied by pointers between calls that do not move them; address 5 is no element. *)
Example C79_example :
  let mid := [PStore 131076 (PAddr 196608); PLib (VPush 0 (RVal (Val 4))); PLoad 131084; PStore 196612 (PVal (Val 8)); PLoad 5;
              PLib (VErase 0 0); PLib (VGet 1 1); PLib (VGet 0 0)] in
  wf mixed = true /\ place 4096 (2 * esize mixed) (w_raw 0) /\ v_fits 0 5 (calls mid) 3 = true /\
  seen (unsupported (ereq PMalloc mixed)) (pvprog mixed 4 2
    ([PLib (VNewList 0 [Val 1; Val 2; Val 3] 0); PLib (VReserve 0 5); PLib (VNewList 1 [Val 6; Val 7] 1); PLib (VData 1)] ++
     [PLib (VCap 0); PLib (VSize 0); PLib (VData 0)] ++ mid ++ [PLib (VSize 0); PStore (131072 + 4 * 2) (PVal (Val 9)); PLib (VGet 0 2)]) (w_raw 0)) =
  Some ([CUnit; CUnit; CUnit; CPtr 196608] ++ [CNum 5; CNum 3; CPtr 131072] ++
        [CUnit; CNum 3; CVal (Some (Val 4)); CUnit; CUnit; CNum 0; CVal (Some (Val 8)); CVal (Some (Val 6))] ++
        [CNum 3; CUnit; CVal (Some (Val 9))], false).
Proof. split; [done|]. split; [exact (w0_place 2)|]. split; [done|]. by vm_compute. Qed.

Example C79_move_example :
  seen (unsupported (ereq PMalloc mixed)) (pvprog mixed 4 2
    ([PLib (VNewList 0 [Val 1; Val 2; Val 3] 0); PLib (VNewList 1 [Val 6; Val 7] 1)] ++
     [PLib (VSize 0); PLib (VData 0); PLib (VSize 1); PLib (VMoveAssign 1 0); PStore (65536 + 4 * 2) (PVal (Val 9)); PLib (VGet 1 2)]) (w_raw 0)) =
  Some ([CUnit; CUnit] ++ [CNum 3; CPtr 65536; CNum 2; CUnit; CUnit; CVal (Some (Val 9))], false).
Proof. by vm_compute. Qed.

Example C79_array_example :
  let mid := [PStore 65540 (PAddr 65536); PLib (AResize 1 4); PLoad 65540] in
  forallb (a_keeps 0) (calls mid) = true /\
  seen (unsupported (ereq PMalloc mixed)) (paprog mixed 4 2
    ([PLib (ANewList 0 [Val 1; Val 2; Val 3] 0); PLib (ANewList 1 [Val 6; Val 7] 1)] ++ [PLib (ASize 0); PLib (AData 0)] ++ mid ++
     [PLib (ASize 0); PStore (65536 + 4 * 2) (PVal (Val 9)); PLib (AGet 0 2)]) (w_raw 0)) =
  Some ([CUnit; CUnit] ++ [CNum 3; CPtr 65536] ++ [CUnit; CUnit; CVal (Some (Val 1))] ++ [CNum 3; CUnit; CVal (Some (Val 9))], false).
Proof. by vm_compute. Qed.
