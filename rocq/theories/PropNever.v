(** Property theorems C88 and C89: containers without memory, and operations that never end normally. *)
From Verif Require Import Base Mem AlignedMalloc Allocators Checked Tree Client Contract Service AllocSpec AllocProofs Env EnvProofs
  Vector Array HeapPure Heap HeapSpec HeapProofs HeapExamples ContExamples Buffer Never NeverFacts StarveFacts OwnFacts.
From Verif Require Shared NeverShared.

Local Open Scope N_scope.

(** * C88: a program of these operations that ends normally has had all its allocations, and then
    everything is as in C39, C45 and C47; if it does not end normally an allocation has failed or
    was too large. *)
Theorem C88_vector :
  forall pl e b sz k ops w,
  pl <> PPosix -> wf e = true -> 0 < sz -> place b (N.of_nat k * esize e) w -> forallb vstores ops = true ->
  csession_all (den pl e) b (vstep (den pl e) b sz k) (release (den pl e) b sz) (vcheck sz k) (ereq pl e) k ∅ ops w.
Proof. exact vector_all. Qed.
Print Assumptions C88_vector.

Theorem C88_array :
  forall pl e b sz k ops w,
  pl <> PPosix -> wf e = true -> 0 < sz -> place b (N.of_nat k * esize e) w -> forallb astores ops = true ->
  csession_all (den pl e) b (astep (den pl e) b sz k) (arelease (den pl e) b sz) (acheck sz k) (ereq pl e) k ∅ ops w.
Proof. exact array_all. Qed.
Print Assumptions C88_array.

Theorem C88_heap :
  forall pl e b sz T comp eqv k ops w,
  pl <> PPosix -> wf e = true -> 0 < sz -> place b (N.of_nat k * esize e) w -> forallb hstores ops = true ->
  csession_all (den pl e) b (hstep (den pl e) b sz T comp eqv k) (hrelease (den pl e) b sz T) (hcheck sz T comp eqv k)
    (half (ereq pl e)) k ∅ ops w.
Proof. exact heap_all. Qed.
Print Assumptions C88_heap.

(** 64 bytes are enough for the first five operations, not for the sixth. *)
Example C88_example :
  let ops := [VNewList 0 [Val 1; Val 2; Val 3] 0; VPush 0 (RVal (Val 4)); VCopy 1 0; VErase 0 0; VGet 0 0] in
  let more := ops ++ [VPushRange 1 (GVals (repeat (Val 7) 17))] in
  wf (EStack 64) = true /\ place 4096 (1 * esize (EStack 64)) (w_raw 64) /\
  forallb vstores more = true /\
  seen is_fail (vprog (EStack 64) 4 1 ops (w_raw 64)) = Some ([CUnit; CNum 3; CUnit; CNum 0; CVal (Some (Val 2))], false) /\
  crash (vprog (EStack 64) 4 1 more (w_raw 64)) = Some UBNull.
Proof. split; [done|]. split; [by apply (w_raw_place 64)|]. split; [done|]. by vm_compute. Qed.

Example C88_heap_example :
  let ops := [HNew 0 0 0] ++ fills 0 [Val 3; Val 1; Val 2] ++ [HPop 0; HCopy 1 0] in
  let more := ops ++ fills 1 (repeat (Val 5) 17) in
  forallb hstores more = true /\
  seen is_fail (hprog (EStack 64) 4 object 1 ops (w_raw 64)) =
    Some ([CUnit; CNum 0; CNum 0; CNum 2; CVal (Some (Val 1)); CUnit], false) /\
  crash (hprog (EStack 64) 4 object 1 more (w_raw 64)) = Some UBNull.
Proof. by vm_compute. Qed.

(** The other operations may go on without memory: the vector has no storage, reports a size and
    ends normally. *)
Theorem C88_size_constructor_refuted :
  exists w, place 4096 64 w /\
  seen is_fail (vprog (EStack 64) 4 1 [VNewN 0 17 0; VSize 0; VData 0] w) = Some ([CUnit; CNum 17; CPtr 0], true) /\
  seen is_fail (vprog (EStack 64) 4 1 [VNew 0 0; VReserve 0 17; VCap 0; VData 0] w) = Some ([CUnit; CUnit; CNum 17; CPtr 0], true).
Proof. exact size_constructor. Qed.
Print Assumptions C88_size_constructor_refuted.

(** * C89: in no state, over no allocator and with no behaviour of malloc do these end normally. *)
Theorem C89_vector_self_assign :
  forall A b sz c E vs, 0 < sz -> 0 < v_size sz (get_ c vs) -> never (vdo A b sz (VAssign c c) (E, vs)).
Proof. exact vec_self_assign. Qed.
Print Assumptions C89_vector_self_assign.

Theorem C89_array_self_assign :
  forall A b sz c E vs, 0 < sz -> 0 < r_size sz (aget c vs) -> never (ado A b sz (AAssign c c) (E, vs)).
Proof. exact arr_self_assign. Qed.
Print Assumptions C89_array_self_assign.

Theorem C89_array_own_range :
  forall A b sz c E vs, 0 < sz -> 0 < r_size sz (aget c vs) ->
  never (ado A b sz (AFrom c (GElems c 0 (r_size sz (aget c vs)))) (E, vs)).
Proof. exact arr_own_range. Qed.
Print Assumptions C89_array_own_range.

Theorem C89_buffer_self_assign :
  forall b sz size c s, 0 < sz -> 0 < size ->
  never (bdo b sz size (BAssign c c) s) /\ never (bdo b sz size (BMoveAssign c c) s) /\
  never (bdo b sz size (BFrom c (GElems c 0 size)) s).
Proof. exact buf_never. Qed.
Print Assumptions C89_buffer_self_assign.

Theorem C89_heap_self_assign :
  forall pl e b sz T comp eqv c E vs, e_triv T = false -> 0 < sz -> 0 < h_size (hget c vs) ->
  never (hdo (den pl e) b sz T comp eqv (HAssign c c) (E, vs)).
Proof. exact (fun pl e b sz T comp eqv c E vs HT Hsz => heap_self_assign pl e b sz T comp eqv HT Hsz c E vs). Qed.
Print Assumptions C89_heap_self_assign.

Theorem C89_heap_pop_last :
  forall pl e b sz T comp eqv c E vs, e_triv T = false -> 0 < sz -> h_size (hget c vs) = 1 ->
  never (hdo (den pl e) b sz T comp eqv (HPop c) (E, vs)).
Proof. exact (fun pl e b sz T comp eqv c E vs HT Hsz => heap_pop_last pl e b sz T comp eqv HT Hsz c E vs). Qed.
Print Assumptions C89_heap_pop_last.

Theorem C89_heap_move_objects :
  forall pl e b sz T comp eqv c src h E vs, e_triv T = false -> 0 < sz ->
  0 < h_size (hget src vs) <= h_cap (hget src vs) -> h_beg (hget src vs) <> 0 ->
  never (hdo (den pl e) b sz T comp eqv (HMoveAl c src h) (E, vs)).
Proof. exact (fun pl e b sz T comp eqv c src h E vs HT Hsz => heap_move_objects pl e b sz T comp eqv HT Hsz c src h E vs). Qed.
Print Assumptions C89_heap_move_objects.

(** Over malloc: appending an own element or range to a container that must grow, and assigning an
    own range of another length to an array. *)
Theorem C89_vector_push_own :
  forall pl b sz, direct pl = true -> 0 < sz -> forall c i E vs w, let v := get_ c vs in
  block_at (v_beg v) (v_size sz v * sz) w -> v_end v = v_max v -> i < v_size sz v ->
  ends_not (vdo (mallocator pl) b sz (VPush c (RElem c i)) (E, vs)) w.
Proof. exact push_own. Qed.
Print Assumptions C89_vector_push_own.

Theorem C89_vector_push_own_range :
  forall pl b sz, direct pl = true -> 0 < sz -> forall c i j E vs w, let v := get_ c vs in
  block_at (v_beg v) (v_size sz v * sz) w -> (v_max v - v_end v) / sz < j - i -> j <= v_size sz v ->
  ends_not (vdo (mallocator pl) b sz (VPushRange c (GElems c i j)) (E, vs)) w.
Proof. exact push_own_range. Qed.
Print Assumptions C89_vector_push_own_range.

Theorem C89_array_assign_own :
  forall pl b sz, direct pl = true -> 0 < sz -> forall c i j E vs w, let v := aget c vs in
  block_at (r_beg v) (r_size sz v * sz) w -> i < j -> j <= r_size sz v -> j - i <> r_size sz v ->
  ends_not (ado (mallocator pl) b sz (AFrom c (GElems c i j)) (E, vs)) w.
Proof. exact assign_own_range. Qed.
Print Assumptions C89_array_assign_own.

Theorem C89_heap_insert_own :
  forall pl b sz, direct pl = true -> 0 < sz -> forall T comp eqv c i E vs w, let x := hget c vs in
  block_at (h_beg x) (h_size x * sz) w -> h_size x = h_cap x -> i < h_size x ->
  ends_not (hdo (mallocator pl) b sz T comp eqv (HInsert c (RElem c i)) (E, vs)) w.
Proof. exact insert_own. Qed.
Print Assumptions C89_heap_insert_own.

(** Together with C33_self_assign_counted: self-assignment of a handle is harmless if and only if
    another handle refers to the same block. *)
Theorem C89_shared_self_assign :
  forall pl A ready ops os q h g w w' e,
  N.of_nat (length ops) < W -> Shared.hrun pl A ready ops Shared.pool0 w = Ok (os, q) w' e ->
  Shared.p_hs q !! h = Some (Some g) -> (forall h', Shared.p_hs q !! h' = Some (Some g) -> h' = h) ->
  never (Shared.hstep pl A ready (Shared.HAssign h h) q).
Proof. exact NeverShared.self_assign_alone. Qed.
Print Assumptions C89_shared_self_assign.

Example C89_example :
  crash (vprog_any EMalloc 4 1 [VNewList 0 [Val 1; Val 2] 0; VPush 0 (RElem 0 1)] (w_raw 0)) = Some UBAccess /\
  crash (hprog_any EMalloc 4 int4 1 [HNewList 0 [Val 1; Val 2] 0 0; HInsert 0 (RElem 0 1)] (w_raw 0)) = Some UBAccess /\
  crash (vprog_any EMalloc 4 1 [VNewList 0 [Val 1] 0; VAssign 0 0] (w_raw 0)) = Some UBOverlap /\
  crash (aprog_any (EFreelist 0 16 EMalloc) 4 1 [ANewList 0 [Val 1] 0; AFrom 0 (GElems 0 0 1)] (w_raw 0)) = Some UBOverlap /\
  crash (hprog_any EMalloc 4 object 1 [HNewList 0 [Val 1] 0 0; HPop 0] (w_raw 0)) = Some UBLifetime /\
  crash (hprog_any EMalloc 4 object 1 [HNewList 0 [Val 1] 0 0; HMoveAl 1 0 0] (w_raw 0)) = Some UBLifetime /\
  crash (hprog_any EMalloc 4 object 1 [HNewList 0 [Val 1; Val 2] 0 0; HAssign 0 0] (w_raw 0)) = Some UBLifetime /\
  crash ((' (_, q) <- Shared.hrun PMalloc (den PMalloc (ELinear 64)) (fun _ _ => true)
            [Shared.HNew 0; Shared.HCopy 1 0; Shared.HDestroy 0] Shared.pool0 ;;
          Shared.hstep PMalloc (den PMalloc (ELinear 64)) (fun _ _ => true) (Shared.HAssign 1 1) q) (w_raw 0)) = Some UBLifetime.
Proof. by vm_compute. Qed.
