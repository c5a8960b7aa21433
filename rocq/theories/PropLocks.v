(** Property theorems C100: compositions with several mutexes, used by several threads. *)
From Verif Require Import Base Mem AlignedMalloc Allocators Tree Client AllocSpec Env Mixed Upstream Noexcept Locks LockProofs LockSilent LockEraseCont.

(** * C100: each thread makes a sequence of calls; a call is any member of an allocator of a tower of shared
    allocators, an operation of a container that uses one, or several of these, in whatever state the
    objects are.  No thread ever locks a mutex that it holds or unlocks one that it does not hold, and there
    is an end to it. *)
Theorem C100_no_misuse :
  forall pl calls l, Forall (Forall (call_of pl)) calls ->
  exists n c, schedule l (start calls) = Some (n, c) /\ (n <= work calls)%nat.
Proof. exact never_wrong. Qed.
Print Assumptions C100_no_misuse.

(** In every state that can be reached, also after some lock() has thrown, all have finished or somebody
    can take a step. *)
Theorem C100_no_deadlock :
  forall pl calls l n c, Forall (Forall (call_of pl)) calls -> schedule l (start calls) = Some (n, c) ->
  forallb done c = true \/ exists k c', take_turn false k c = Moves c'.
Proof. exact somebody_moves. Qed.
Print Assumptions C100_no_deadlock.

Theorem C100_all_finish :
  forall pl calls l, Forall (Forall (call_of pl)) calls ->
  exists l' n c, Forall (fun t => snd t = false) l' /\ schedule (l ++ l') (start calls) = Some (n, c) /\ forallb done c = true.
Proof. exact can_finish. Qed.
Print Assumptions C100_all_finish.

(** No two threads hold the same mutex. *)
Theorem C100_one_owner :
  forall calls l n c, schedule l (start calls) = Some (n, c) -> forall j k t u m,
  c !! j = Some t -> c !! k = Some u -> j <> k -> m ∈ t_held t -> m ∈ t_held u -> False.
Proof. exact one_owner. Qed.
Print Assumptions C100_one_owner.

(** Only the template threaded has been replaced. *)
Theorem C100_same_code :
  forall pl s, sden_with (fun _ => threaded) (fun _ => pthreaded) pl s = sden pl s.
Proof. exact sden_with_sden. Qed.
Print Assumptions C100_same_code.

(** A thread that is alone does not notice the mutexes: same observations, same memory afterwards, and the
    same events apart from those that concern mutexes, for programs that use the allocator and for programs
    that use containers. *)
Theorem C100_single_thread :
  forall pl s,
  (forall b ops w,
    erased (session (slden nobody pl s) b (fun _ _ => true) ops w) = erased (session (sden pl s) b (fun _ _ => true) ops w)) /\
  (forall b ty k ops w,
    erased (csession (slden nobody pl s) b (xstep (slden nobody pl s) b ty k) (xkill (slden nobody pl s) b) k ops w) =
    erased (csession (sden pl s) b (xstep (sden pl s) b ty k) (xkill (sden pl s) b) k ops w)).
Proof. exact single_thread. Qed.
Print Assumptions C100_single_thread.

(** What locks nothing: constructors, max_size; allocate, deallocate and the destructor where the tables of
    C97 say so. *)
Theorem C100_lock_free :
  forall itf pl e i b, let A := lden itf pl i e in
  lock_free (a_init A b) /\
  (forall mx s, a_max A = Some mx -> lock_free (mx b s)) /\
  (alloc_locks e = false -> forall s n, lock_free (a_alloc A b s n)) /\
  (free_locks e = false -> quiet_lists e = true -> forall s p n, lock_free (a_free A b s p n)) /\
  (quiet_lists e = true -> forall s, lock_free (a_dtor A b s)).
Proof. exact quiet_members. Qed.
Print Assumptions C100_lock_free.

Theorem C100_elements_outside :
  forall itf, apart itf -> forall pl e i o c b s p m, a_cd (lden itf pl i e) = Some o ->
  lock_free m -> lock_free (o c b s p m).
Proof. exact quiet_cd. Qed.
Print Assumptions C100_elements_outside.

(** A shared allocator with two mutexes, and a composition with a third one that refers to it. *)
Definition city : sexp := XExp (EThreaded (EFallback (ELinear 64) (EThreaded EMalloc))).
Definition suburb : sexp := XLet city (PThreaded (PSegragator 32 (PFreelist 0 32 PHandle) PHandle)).

(** A large request through the handles, and one directly to the shared allocator. *)
Definition request (s : sexp) : list act :=
  match (x <- a_init (slden nobody PMalloc s) 4096 ;; a_alloc (slden nobody PMalloc s) 4096 x 100) (w_raw 64) with
  | Ok _ _ evs => acts id evs
  | Err _ _ => []
  end.
Example C100_example :
  request suburb = [Acq (2, 4160); Acq (1, 4096); Acq (0, 4160); Rel (0, 4160); Rel (1, 4096); Rel (2, 4160)] /\
  request city = [Acq (1, 4096); Acq (0, 4160); Rel (0, 4160); Rel (1, 4096)] /\
  let calls := [[request suburb]; [request city; request suburb]] in
  Forall (Forall (call_of PMalloc)) calls /\ work calls = 19%nat /\
  (** the second thread has to wait for the first one, whose next lock() fails *)
  let l := [(0, false); (0, false); (0, false); (1, false); (1, false); (0, true)]%nat in
  schedule l (start calls) =
    Some (5%nat, [Thread [(1, 4096); (2, 4160)] [Rel (1, 4096); Rel (2, 4160)] []; Thread [] (request city) [request suburb]]) /\
  option_map (fun r => forallb done (snd r))
    (schedule (l ++ repeat (0, false)%nat 2 ++ repeat (1, false)%nat 11) (start calls)) = Some true.
Proof.
  split; [by vm_compute|]. split; [by vm_compute|]. split.
  - repeat (constructor; try apply first_request).
  - by vm_compute.
Qed.

(** The machine notices if mutexes are locked in different orders: both wait. *)
Example C100_machine_deadlocks :
  let x := (0, 1) in let y := (1, 1) in
  exists n c, schedule [(0, false); (1, false); (0, false); (1, false)]%nat
    (start [[[Acq x; Acq y; Rel y; Rel x]]; [[Acq y; Acq x; Rel x; Rel y]]]) = Some (n, c) /\
  forallb done c = false /\ take_turn false 0 c = Waits /\ take_turn false 1 c = Waits.
Proof. do 2 eexists. split; [by vm_compute|]. by vm_compute. Qed.
(** ... and if one is locked twice. *)
Example C100_machine_wrong :
  schedule [(0, false); (0, false); (0, false)]%nat (start [[[Acq (0, 1); Acq (0, 1); Rel (0, 1); Rel (0, 1)]]]) = None.
Proof. by vm_compute. Qed.

(** The tables agree: a freelist keeps the blocks, its destructor gives them back under the lock. *)
Example C100_destructor_locks :
  let e := EFreelist 0 32 (EThreaded EMalloc) in
  free_locks e = false /\ quiet_lists e = false /\
  match (let A := lden nobody PMalloc 0 e in
         x <- a_init A 4096 ;; ' (p, x) <- a_alloc A 4096 x 8 ;; x <- a_free A 4096 x p 8 ;; a_dtor A 4096 x) (w_raw 0) with
  | Ok _ _ evs => acts id evs = [Acq (0, 4096); Rel (0, 4096); Acq (0, 4096); Rel (0, 4096)]
  | Err _ _ => False
  end.
Proof. by vm_compute. Qed.

(** The mutexes are there. *)
Example C100_single_example :
  match session (slden nobody PMalloc suburb) 4096 (fun _ _ => true) [OAlloc 100; OAlloc 20; OWrite 0 7 1; OFree 0] (w_raw 64),
        session (sden PMalloc suburb) 4096 (fun _ _ => true) [OAlloc 100; OAlloc 20; OWrite 0 7 1; OFree 0] (w_raw 64) with
  | Ok os _ evs, Ok os' _ evs' => os = os' /\ evs' = [] /\ unlocked evs = evs' /\ length (acts id evs) = 20%nat
  | _, _ => False
  end.
Proof. by vm_compute. Qed.
