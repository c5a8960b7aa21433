(** Property theorems C97: the noexcept clauses. *)
From Verif Require Import Base Mem Bits AlignedMalloc Allocators Checked Tree Laws Client Env Vector Array Heap Noexcept NoexceptProofs.

Local Open Scope N_scope.

(** * C97: which promises of the noexcept clauses are kept. *)

(** Nothing throws in the first, everything in the second. *)
Local Definition calm_user := User true true true true true.
Local Definition wild_user := User false false false false false.

(** allocate and deallocate are declared noexcept exactly when they lock no mutex, and exactly
    then no exception can leave them: the clauses promise neither too little nor too much. *)
Theorem C97_clauses_exact :
  forall u e,
    ((nx u e MAllocate = true <-> alloc_locks e = false) /\ (leaves u e MAllocate <-> alloc_locks e = true)) /\
    ((nx u e MDeallocate = true <-> free_locks e = false) /\ (leaves u e MDeallocate <-> free_locks e = true)).
Proof. exact clauses_exact. Qed.
Print Assumptions C97_clauses_exact.

(** fallback<linear, threaded<mallocator>> behind a freelist: allocate may throw, deallocate not. *)
Example C97_clauses_exact_ex :
  let e := EFreelist 0 64 (EFallback (ELinear 256) (EThreaded EMalloc)) in
  wf e = true /\ alloc_locks e = true /\ free_locks e = false.
Proof. repeat split; vm_compute; reflexivity. Qed.

(** The clauses of construct and destroy follow the element type, and elements that throw are
    noticed by the caller. *)
Theorem C97_construct_exact :
  forall u e, ecd e = true ->
  ((nx u e MConstruct = true <-> nothrow_new u = true) /\ (u_new u = false -> leaves u e MConstruct)) /\
  ((nx u e MDestroy = true <-> u_del u = true) /\ (u_del u = false -> leaves u e MDestroy)).
Proof. exact construct_leaves. Qed.
Print Assumptions C97_construct_exact.

(** Whatever the user's types throw: allocate, owns, max_size, construct, destroy and the default
    constructors never terminate the program. *)
Theorem C97_clauses_honest :
  forall u e m, has e m = true -> m <> MDeallocate -> m <> MAssign -> m <> MSet -> m <> MDtor -> ~ terminates u e m.
Proof. exact clauses_honest. Qed.
Print Assumptions C97_clauses_honest.

Example C97_clauses_honest_ex :
  let e := ECascading (EFallback (EOverflow (ELinear 64)) (EThreaded (ELinear 512))) in
  has e MConstruct = true /\ nx wild_user e MConstruct = false /\ nx calm_user e MConstruct = true.
Proof. repeat split; vm_compute; reflexivity. Qed.

(** With streams that do not throw, destruction and deallocation terminate the program exactly
    for the types in which they give the blocks that a freelist kept back to an allocator that
    locks: a destructor has no other way to report the failure of the lock. *)
Theorem C97_release_exact :
  forall u e, u_out u = true ->
    (terminates u e MDtor <-> stops false e = true) /\ (terminates u e MDeallocate <-> stops true e = true).
Proof. exact release_exact. Qed.
Print Assumptions C97_release_exact.

Example C97_release_exact_ex :
  let e := EFallback (EFreelist 0 64 (EThreaded (ELinear 512))) (ECascading (EFreelist 0 32 (EThreaded (ELinear 64)))) in
  wf e = true /\ stops false e = true /\ stops true e = true /\ stops true (EFreelist 0 64 (EThreaded EMalloc)) = false.
Proof. repeat split; vm_compute; reflexivity. Qed.

(** The same for assignments and for set_allocator of global: an assignment gives back the blocks
    of the freelists assigned to, and destroys the instances of the cascadings and the block of
    the last shared handle. *)
Theorem C97_assign_exact :
  forall u e, u_out u = true -> assigns e = true ->
    (terminates u e MAssign <-> asg_stops e = true) /\ (leaves u e MAssign <-> asg_leaves e = true) /\
    (terminates u (EGlobal e) MSet <-> asg_stops e || asg_leaves e = true).
Proof. exact assign_exact. Qed.
Print Assumptions C97_assign_exact.

Example C97_assign_exact_ex :
  let e1 := EFallback (EFreelist 0 64 (EReference (EThreaded (ELinear 64)))) EMalloc in
  let e2 := EShared (EFreelist 0 64 (EThreaded EMalloc)) in
  let e3 := EFreelist 0 64 (ECascading (EThreaded (ELinear 512))) in
  assigns e1 && assigns e2 && assigns e3 = true /\ asg_stops e1 = true /\ asg_stops e2 = true /\
  asg_stops e3 = false /\ asg_leaves e3 = true.
Proof. repeat split; vm_compute; reflexivity. Qed.

(** So no member of a type without such freelists terminates the program. *)
Theorem C97_quiet :
  forall u e m, u_out u = true -> quiet_lists e = true -> has e m = true -> ~ terminates u e m.
Proof. exact (fun u e m Ho => quiet_calm u Ho e m). Qed.
Print Assumptions C97_quiet.

Example C97_quiet_ex :
  let e := EGlobal (EFreelist 0 64 (ECascading (EThreaded (ELinear 512)))) in
  wf e = true /\ quiet_lists e = false /\ quiet_lists (EThreaded (EFreelist 0 64 (ECascading (ELinear 512)))) = true /\
  has (EGlobal (EFreelist 0 64 (ELinear 64))) MSet = true /\ quiet_lists (EGlobal (EFreelist 0 64 (ELinear 64))) = true.
Proof. repeat split; vm_compute; reflexivity. Qed.

(** The claim without these conditions is false: the destructor of freelist<threaded<mallocator>>,
    the assignment of freelist<reference<threaded<mallocator>>> (freelist.h:78 looks at the
    assignment of the allocator only, not at release), and the deallocation of a cascading. *)
Theorem C97_release_refuted :
  exists e1 e2 e3, wf e1 = true /\ wf e2 = true /\ wf e3 = true /\ has e2 MAssign = true /\
    nx calm_user e1 MDeallocate = true /\
    terminates calm_user e1 MDtor /\ terminates calm_user e2 MAssign /\ terminates calm_user e3 MDeallocate.
Proof. exact release_refuted. Qed.
Print Assumptions C97_release_refuted.

(** Nor is it true for streams that throw: a report of overflow then terminates. *)
Theorem C97_stream_refuted :
  exists u e, wf e = true /\ u_new u = true /\ u_asg u = true /\ u_del u = true /\ u_cmp u = true /\
    terminates u e MDeallocate /\ terminates u e MDtor.
Proof. exact stream_refuted. Qed.
Print Assumptions C97_stream_refuted.

(** Operations of trivial_vector and trivial_array terminate the program exactly when they are
    declared noexcept and may call a member of the allocator that locks. *)
Theorem C97_vector_exact :
  forall u e o, u_out u = true -> quiet_lists e = true ->
    op_terminates u (vnx o) (vcalls e o) <->
    vnx o = true /\ (In (Call e MAllocate) (vcalls e o) /\ alloc_locks e = true \/
                     In (Call e MDeallocate) (vcalls e o) /\ free_locks e = true).
Proof. exact (fun u e o Ho => vector_iff u Ho e o). Qed.
Print Assumptions C97_vector_exact.
Theorem C97_array_exact :
  forall u e o, u_out u = true -> quiet_lists e = true ->
    op_terminates u (anx o) (acalls e o) <->
    anx o = true /\ (In (Call e MAllocate) (acalls e o) /\ alloc_locks e = true \/
                     In (Call e MDeallocate) (acalls e o) /\ free_locks e = true).
Proof. exact (fun u e o Ho => array_iff u Ho e o). Qed.
Print Assumptions C97_array_exact.

(** The calls listed are all that the executable models make: an allocator type whose other
    members are unusable gives the same results. *)
Theorem C97_vector_calls :
  forall A b sz k e o (q : env A * gmap nat vec) keep,
    (forall m, In (Call e m) (vcalls e o) -> keep m = true) ->
    vstep (mute keep A) b sz k o q = vstep A b sz k o q.
Proof. exact vcalls_complete. Qed.
Print Assumptions C97_vector_calls.
Theorem C97_array_calls :
  forall A b sz k e o (q : env A * gmap nat arr) keep,
    (forall m, In (Call e m) (acalls e o) -> keep m = true) ->
    astep (mute keep A) b sz k o q = astep A b sz k o q.
Proof. exact acalls_complete. Qed.
Print Assumptions C97_array_calls.
Theorem C97_heap_calls :
  forall A b sz T comp eqv k e o (q : env A * gmap nat heap) keep,
    (forall m, In (Call e m) (hcalls e o) -> keep m = true) ->
    hstep (mute keep A) b sz T comp eqv k o q = hstep A b sz T comp eqv k o q.
Proof. exact hcalls_complete. Qed.
Print Assumptions C97_heap_calls.

(** And none of them is superfluous: for every kind of operation there are programs in which it
    makes the call (the constructor of heaps from a list never deallocates). *)
Theorem C97_calls_made :
  forall e m, m = MAllocate \/ m = MDeallocate ->
    (forall o, In (Call e m) (vcalls e o) -> vmakes m o) /\
    (forall o, In (Call e m) (acalls e o) -> amakes m o) /\
    (forall o, In (Call e m) (hcalls e o) -> (forall c l q h, o = HNewList c l q h -> m = MAllocate) -> hmakes m o).
Proof. exact calls_made. Qed.
Print Assumptions C97_calls_made.

(** Heaps over allocators that do not lock, of elements that do not throw: no exception at all. *)
Theorem C97_heap_calm :
  forall u e o, u_out u = true -> u_new u = true -> u_asg u = true -> u_del u = true -> u_cmp u = true ->
    alloc_locks e = false -> free_locks e = false -> quiet_lists e = true ->
    ~ op_terminates u (hnx u o) (hcalls e o) /\ ~ op_leaves u (hnx u o) (hcalls e o).
Proof. exact (fun u e o Ho => heap_calm u Ho e o). Qed.
Print Assumptions C97_heap_calm.

Example C97_containers_ex :
  let e := EReference (EThreaded (ECascading (ELinear 512))) in
  let e' := EShared (EOverflow (EFreelist 0 64 EMalloc)) in
  quiet_lists e = true /\ vnx (VPush 0 (RVal (Val 1))) = true /\ alloc_locks e = true /\
  In (Call e MAllocate) (vcalls e (VPush 0 (RVal (Val 1)))) /\ vnx (VNewN 0 4 0) = false /\
  anx (AResize 0 3) = false /\ anx (AAssign 0 1) = true /\
  quiet_lists e' = true /\ alloc_locks e' = false /\ free_locks e' = false /\ ecd e' = true.
Proof. cbn; auto 20. Qed.

(** A heap whose insert may fail, because the allocator locks or because the elements can throw,
    terminates: insert is noexcept for all T and Alloc (binary_heap.h:298). *)
Theorem C97_heap_insert_refuted :
  exists u e e' c r, u_out u = true /\ wf e = true /\ wf e' = true /\
    (u_asg u = true /\ u_del u = true /\ u_cmp u = true /\ alloc_locks e = false /\ free_locks e = false /\
     op_terminates u (hnx u (HInsert c r)) (hcalls e (HInsert c r))) /\
    op_terminates calm_user (hnx calm_user (HInsert c r)) (hcalls e' (HInsert c r)).
Proof. exact insert_refuted. Qed.
Print Assumptions C97_heap_insert_refuted.
