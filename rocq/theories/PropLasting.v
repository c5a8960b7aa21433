(** Property theorems C84: containers over compositions that do not run out. *)
From Verif Require Import Base Mem AlignedMalloc Allocators Checked Tree Client AllocSpec Env
  Vector Array HeapPure Heap HeapSpec ContExamples HeapExamples Crowd Mixed MixedFacts SharedCont SharedContFacts Ptr PtrProofs
  CapacityProofs Lasting LastingProofs.

Local Open Scope N_scope.

(** * C84 *)

(** [unserved can] holds of two events: malloc refuses, and the program asks for a size that is not
    in [can].  A program in which neither happens ends normally, with the answers of the list
    specification, without a failed allocation, and gives everything back (csession_ok, Env.v).
    [lasting] is computed from the type of the allocators. *)
Theorem C84_vector :
  forall pl e b sz k ops w,
  pl <> PPosix -> wf e = true -> 0 < sz -> place b (N.of_nat k * esize e) w ->
  csession_ok (den pl e) b (vstep (den pl e) b sz k) (release (den pl e) b sz) (vcheck sz k) (unserved (lasting pl e)) k ∅ ops w.
Proof. exact vector_lasting. Qed.
Print Assumptions C84_vector.

Theorem C84_array :
  forall pl e b sz k ops w,
  pl <> PPosix -> wf e = true -> 0 < sz -> place b (N.of_nat k * esize e) w ->
  csession_ok (den pl e) b (astep (den pl e) b sz k) (arelease (den pl e) b sz) (acheck sz k) (unserved (lasting pl e)) k ∅ ops w.
Proof. exact array_lasting. Qed.
Print Assumptions C84_array.

Theorem C84_heap :
  forall pl e b sz T comp eqv k ops w,
  pl <> PPosix -> wf e = true -> 0 < sz -> place b (N.of_nat k * esize e) w ->
  csession_ok (den pl e) b (hstep (den pl e) b sz T comp eqv k) (hrelease (den pl e) b sz T) (hcheck sz T comp eqv k)
    (unserved (half (lasting pl e))) k ∅ ops w.
Proof. exact heap_lasting. Qed.
Print Assumptions C84_heap.

(** Containers of several types over the same allocators, *)
Theorem C84_mixed :
  forall pl e b ty k ops w,
  pl <> PPosix -> wf e = true -> (forall t, 0 < t_size (ty t)) -> place b (N.of_nat k * esize e) w ->
  csession_ok (den pl e) b (xstep (den pl e) b ty k) (xkill (den pl e) b) (xcheck ty k) (unserved (half (lasting pl e))) k ∅ ops w.
Proof. exact mixed_lasting. Qed.
Print Assumptions C84_mixed.

(** also while other threads use them, *)
Theorem C84_among_threads :
  forall pl e plan b ty k ops w,
  pl <> PPosix -> wf e = true -> (forall t, 0 < t_size (ty t)) -> place b (N.of_nat k * esize e) w ->
  Forall (deeds_ask (lasting pl e)) plan ->
  let A := crowd (den pl (EThreaded e)) plan in
  csession_ok A b (xstep A b ty k) (xkill A b) (xcheck ty k) (unserved (half (lasting pl e))) k ∅ ops w.
Proof. exact mixed_lasting_crowd. Qed.
Print Assumptions C84_among_threads.

(** programs that keep pointers to elements, *)
Theorem C84_vector_pointers :
  forall pl e b sz k ops w,
  pl <> PPosix -> wf e = true -> 0 < sz -> place b (N.of_nat k * esize e) w ->
  csession_ok (den pl e) b (pstep (den pl e) sz (v_info sz) (vstep (den pl e) b sz k)) (release (den pl e) b sz) (pcheck sz (vcheck sz k))
    (unserved (lasting pl e)) k ∅ ops w.
Proof. exact vptr_lasting. Qed.
Print Assumptions C84_vector_pointers.

Theorem C84_array_pointers :
  forall pl e b sz k ops w,
  pl <> PPosix -> wf e = true -> 0 < sz -> place b (N.of_nat k * esize e) w ->
  csession_ok (den pl e) b (pstep (den pl e) sz (a_info sz) (astep (den pl e) b sz k)) (arelease (den pl e) b sz) (pcheck sz (acheck sz k))
    (unserved (lasting pl e)) k ∅ ops w.
Proof. exact aptr_lasting. Qed.
Print Assumptions C84_array_pointers.

(** and containers over shared handles. *)
Theorem C84_shared_vector :
  forall pl e sz ops w,
  pl <> PPosix -> wf (EShared e) = true -> 0 < sz -> N.of_nat (length ops) + 1 < W ->
  sharing_ok (vector_cont (den pl (EShared e)) sz) s_al s_info (vcheck sz) (unserved (lasting pl e)) ops w.
Proof. exact vector_sharing_lasting. Qed.
Print Assumptions C84_shared_vector.

Theorem C84_shared_array :
  forall pl e sz ops w,
  pl <> PPosix -> wf (EShared e) = true -> 0 < sz -> N.of_nat (length ops) + 1 < W ->
  sharing_ok (array_cont (den pl (EShared e)) sz) s_al s_info (acheck sz) (unserved (lasting pl e)) ops w.
Proof. exact array_sharing_lasting. Qed.
Print Assumptions C84_shared_array.

Theorem C84_shared_heap :
  forall pl e sz T comp eqv ops w,
  pl <> PPosix -> wf (EShared e) = true -> 0 < sz -> N.of_nat (length ops) + 1 < W ->
  sharing_ok (heap_cont (den pl (EShared e)) sz T comp eqv) p_al p_info (hcheck sz T comp eqv)
    (unserved (half (lasting pl e))) ops w.
Proof. exact heap_sharing_lasting. Qed.
Print Assumptions C84_shared_heap.

(** Vectors in linear buffers of 64 bytes that are added as needed; larger ones from malloc. *)
Example C84_example :
  wf arena = true /\ place 4096 (1 * esize arena) (w_raw 0) /\
  map (lasting PMalloc arena) [1; 64; 65; W - 1] = [true; true; true; true] /\
  seen (unserved (lasting PMalloc arena)) (vprog arena 8 1 scores (w_raw 0)) =
    Some ([CUnit; CUnit; CUnit; CUnit; CNum 3; CVal (Some (Val 6)); CUnit; CNum 0; CNum 4; CVal (Some (Val 7)); CNum 11], false).
Proof. exact scores_run. Qed.

(** The same program where malloc refuses *)
Example C84_example_refused : stopped (vprog arena 8 1 scores (w_poor 0)) = Some (UBNull, [EvReq 24; EvRefuse; EvFail]).
Proof. exact scores_poor. Qed.

(** and over a single buffer: it runs out, and the program accesses null although malloc refused
    nothing. *)
Example C84_example_exhausted :
  seen (unserved (lasting PMalloc (ELinear 64))) (vprog (ELinear 64) 8 1 scores (w_raw 64)) = None /\
  lasting PMalloc (ELinear 64) 24 = false.
Proof. exact scores_linear. Qed.
