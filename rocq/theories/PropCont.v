(** Property theorems C39-C45: trivial_vector and trivial_array. *)
From Verif Require Import Base Mem AlignedMalloc Allocators Checked Tree Client Contract Service AllocSpec Env EnvProofs
  Vector VectorProofs Array ArrayProofs ContFacts ContExamples.

Local Open Scope N_scope.

(** * C39 *)
Theorem C39_vector_is_list :
  forall pl e b sz k ops w,
  pl <> PPosix -> wf e = true -> 0 < sz -> place b (N.of_nat k * esize e) w ->
  csession_ok (den pl e) b (vstep (den pl e) b sz k) (release (den pl e) b sz) (vcheck sz k) (unsupported (ereq pl e)) k ∅ ops w.
Proof. exact vector_tree. Qed.
Print Assumptions C39_vector_is_list.

(** The same for any allocator that provides what containers need (Service.v), for instance every
    one that meets the contract. *)
Theorem C39_vector_is_list_any_allocator :
  forall bad A req, service bad A req ->
  forall b sz k, 0 < sz -> forall ops w, place b (N.of_nat k * a_size A) w ->
  csession_ok A b (vstep A b sz k) (release A b sz) (vcheck sz k) bad k ∅ ops w.
Proof. exact @vector_session. Qed.
Print Assumptions C39_vector_is_list_any_allocator.

Example C39_example :
  wf mixed = true /\ place 4096 (2 * esize mixed) (w_raw 0) /\
  seen (unsupported (ereq PMalloc mixed)) (vprog mixed 4 2
    [VNewList 0 [Val 1; Val 2; Val 3] 0; VReserve 0 5; VPush 0 (RElem 0 1); VPush 0 (RVal (Val 9)); VCopyAl 1 0 1;
     VErase 0 0; VPushRange 1 (GElems 0 1 3); VGet 0 0; VSize 1; VCap 1; VGet 1 6; VMoveAssign 0 1; VGet 0 3; VSize 1] (w_raw 0)) =
  Some ([CUnit; CUnit; CNum 3; CNum 4; CUnit; CNum 0; CNum 5; CVal (Some (Val 2)); CNum 7; CNum 7; CVal (Some (Val 2));
         CUnit; CVal (Some (Val 2)); CNum 0], false).
Proof. split; [done|]. split; [exact (w0_place 2)|by vm_compute]. Qed.

(** * C40 *)
Theorem C40_size_at_most_capacity :
  forall pl e b sz k pre c w os n K w' evs,
  pl <> PPosix -> wf e = true -> 0 < sz -> place b (N.of_nat k * esize e) w ->
  csession (den pl e) b (vstep (den pl e) b sz k) (release (den pl e) b sz) k (pre ++ [VSize c; VCap c]) w =
    Ok (os ++ [CNum n; CNum K]) w' evs -> length os = length pre ->
  existsb (unsupported (ereq pl e)) evs = false -> n <= K.
Proof. exact vector_size_le_cap. Qed.
Print Assumptions C40_size_at_most_capacity.

Theorem C40_reserve :
  forall pl e b sz k pre c r w os ob K w' evs,
  pl <> PPosix -> wf e = true -> 0 < sz -> place b (N.of_nat k * esize e) w ->
  csession (den pl e) b (vstep (den pl e) b sz k) (release (den pl e) b sz) k (pre ++ [VReserve c r; VCap c]) w =
    Ok (os ++ [ob; CNum K]) w' evs -> length os = length pre ->
  existsb (unsupported (ereq pl e)) evs = false -> r <= K.
Proof. exact vector_reserve_cap. Qed.
Print Assumptions C40_reserve.

(** After any history, as long as what is done to [c] fits the capacity that capacity() reported,
    data() and capacity() stay the same. *)
Theorem C40_data_stable :
  forall pl e b sz k pre c mid w os K n p os2 ob1 ob2 w' evs,
  pl <> PPosix -> wf e = true -> 0 < sz -> place b (N.of_nat k * esize e) w ->
  csession (den pl e) b (vstep (den pl e) b sz k) (release (den pl e) b sz) k
    (pre ++ [VCap c; VSize c; VData c] ++ mid ++ [VData c; VCap c]) w =
    Ok (os ++ [CNum K; CNum n; CPtr p] ++ os2 ++ [ob1; ob2]) w' evs ->
  length os = length pre -> length os2 = length mid ->
  existsb (unsupported (ereq pl e)) evs = false ->
  v_fits c K mid n = true -> ob1 = CPtr p /\ ob2 = CNum K.
Proof. exact vector_data_stable. Qed.
Print Assumptions C40_data_stable.

Example C40_example :
  seen (unsupported (ereq PMalloc mixed)) (vprog mixed 4 2
    ([VNewList 0 [Val 1; Val 2; Val 3] 0; VReserve 0 5] ++ [VCap 0; VSize 0; VData 0] ++
     [VPush 0 (RElem 0 1); VPush 0 (RVal (Val 9)); VErase 0 1; VNewN 1 4 1; VResize 0 5] ++ [VData 0; VCap 0]) (w_raw 0)) =
  Some ([CUnit; CUnit] ++ [CNum 5; CNum 3; CPtr 131072] ++ [CNum 3; CNum 4; CNum 1; CUnit; CUnit] ++ [CPtr 131072; CNum 5], false) /\
  v_fits 0 5 [VPush 0 (RElem 0 1); VPush 0 (RVal (Val 9)); VErase 0 1; VNewN 1 4 1; VResize 0 5] 3 = true.
Proof. by vm_compute. Qed.

(** * C41: over allocators that treat any other use as an error (Checked.v). *)
Theorem C41_vector_memory_discipline :
  forall pl e b sz k ops w,
  pl <> PPosix -> wf e = true -> 0 < sz -> place b (N.of_nat k * esize e) w ->
  let A := checked (den pl e) in
  csession_ok A b (vstep A b sz k) (release A b sz) (vcheck sz k) (unsupported (ereq pl e)) k ∅ ops w.
Proof. exact (fun pl e => vector_tree pl (EChecked e)). Qed.
Print Assumptions C41_vector_memory_discipline.

Example C41_example :
  seen (unsupported (ereq PMalloc mixed)) (vprog (EChecked mixed) 4 2
    [VNewList 0 [Val 1; Val 2; Val 3] 0; VReserve 0 5; VCopyAl 1 0 1; VMoveAssign 0 1; VPush 0 (RVal (Val 4)); VGet 0 3] (w_raw 0)) =
  Some ([CUnit; CUnit; CUnit; CUnit; CNum 3; CVal (Some (Val 4))], false).
Proof. by vm_compute. Qed.

(** * C42: both containers multiply by sizeof(T) twice.  (If nothing is allocated or sizeof(T) = 1
    the operation is among those of C39, C41 and C45.) *)
Theorem C42_vector_refuted :
  exists w, place 4096 0 w /\ crash (vprog_any (EChecked EMalloc) 4 2 [VNewN 0 3 0; VMoveAl 1 0 1] w) = Some UBFree.
Proof. exact move_alloc_wrong_size_vec. Qed.
Print Assumptions C42_vector_refuted.

Theorem C42_array_refuted :
  exists w, place 4096 0 w /\ crash (aprog_any (EChecked EMalloc) 4 2 [ANewN 0 3 0; AMoveAl 1 0 1] w) = Some UBFree.
Proof. exact move_alloc_wrong_size_arr. Qed.
Print Assumptions C42_array_refuted.

(** A consequence: over segragator a block of the free list is handed to the other allocator. *)
Theorem C42_wrong_allocator_refuted :
  exists w, place 4096 0 w /\
    crash (vprog_any (ESegragator 16 (EFreelist 0 16 (EChecked EMalloc)) (EChecked EMalloc)) 4 2 [VNewN 0 4 0; VMoveAl 1 0 1] w) = Some UBFree.
Proof. exact move_alloc_wrong_place_vec. Qed.
Print Assumptions C42_wrong_allocator_refuted.

(** * C43.  (Assignment of another vector, or of an empty one to itself, is in C39 and C45.) *)
Theorem C43_vector_refuted :
  exists w, place 4096 0 w /\ crash (vprog_any EMalloc 4 1 [VNewList 0 [Val 1; Val 2; Val 3] 0; VAssign 0 0] w) = Some UBOverlap.
Proof. exact self_assign_vec. Qed.
Print Assumptions C43_vector_refuted.

Theorem C43_array_refuted :
  exists w, place 4096 0 w /\ crash (aprog_any EMalloc 4 1 [ANewList 0 [Val 1; Val 2; Val 3] 0; AAssign 0 0] w) = Some UBOverlap.
Proof. exact self_assign_arr. Qed.
Print Assumptions C43_array_refuted.

(** * C44.  (If there is room, appending an own element is in C39.) *)
Theorem C44_push_back_own_refuted :
  exists w, place 4096 0 w /\ crash (vprog_any EMalloc 4 1 [VNewList 0 [Val 1; Val 2; Val 3] 0; VPush 0 (RElem 0 0)] w) = Some UBAccess.
Proof. exact push_own_vec. Qed.
Print Assumptions C44_push_back_own_refuted.

Theorem C44_push_back_own_range_refuted :
  exists w, place 4096 0 w /\ crash (vprog_any EMalloc 4 1 [VNewList 0 [Val 1; Val 2; Val 3] 0; VPushRange 0 (GElems 0 0 2)] w) = Some UBAccess.
Proof. exact push_own_range_vec. Qed.
Print Assumptions C44_push_back_own_range_refuted.

Theorem C44_array_assign_own_refuted :
  exists w, place 4096 0 w /\
    crash (aprog_any EMalloc 4 1 [ANewList 0 [Val 1; Val 2; Val 3] 0; AFrom 0 (GElems 0 0 2)] w) = Some UBAccess /\
    crash (aprog_any EMalloc 4 1 [ANewList 0 [Val 1; Val 2; Val 3] 0; AFrom 0 (GElems 0 0 3)] w) = Some UBOverlap.
Proof. exact assign_own_arr. Qed.
Print Assumptions C44_array_assign_own_refuted.

(** * C45 *)
Theorem C45_array_is_list :
  forall pl e b sz k ops w,
  pl <> PPosix -> wf e = true -> 0 < sz -> place b (N.of_nat k * esize e) w ->
  csession_ok (den pl e) b (astep (den pl e) b sz k) (arelease (den pl e) b sz) (acheck sz k) (unsupported (ereq pl e)) k ∅ ops w.
Proof. exact array_tree. Qed.
Print Assumptions C45_array_is_list.

Theorem C45_array_is_list_any_allocator :
  forall bad A req, service bad A req ->
  forall b sz k, 0 < sz -> forall ops w, place b (N.of_nat k * a_size A) w ->
  csession_ok A b (astep A b sz k) (arelease A b sz) (acheck sz k) bad k ∅ ops w.
Proof. exact @array_session. Qed.
Print Assumptions C45_array_is_list_any_allocator.

Theorem C45_array_memory_discipline :
  forall pl e b sz k ops w,
  pl <> PPosix -> wf e = true -> 0 < sz -> place b (N.of_nat k * esize e) w ->
  let A := checked (den pl e) in
  csession_ok A b (astep A b sz k) (arelease A b sz) (acheck sz k) (unsupported (ereq pl e)) k ∅ ops w.
Proof. exact (fun pl e => array_tree pl (EChecked e)). Qed.
Print Assumptions C45_array_memory_discipline.

Example C45_example :
  seen (unsupported (ereq PMalloc mixed)) (aprog (EChecked mixed) 4 2
    [ANewList 0 [Val 1; Val 2; Val 3] 0; ACopyAl 1 0 1; ASet 1 1 (RElem 0 2); AResize 0 5; AFrom 0 (GElems 1 0 2); AGet 0 1;
     ASize 0; AMoveAssign 1 0; AGet 1 0; ASize 0; AEmpty 0] (w_raw 0)) =
  Some ([CUnit; CUnit; CUnit; CUnit; CUnit; CVal (Some (Val 3)); CNum 2; CUnit; CVal (Some (Val 1)); CNum 0; CBool true], false).
Proof. by vm_compute. Qed.
