(** Property theorems C94: how often malloc is called. *)
From Verif Require Import Base Mem AlignedMalloc Allocators Tree Client AllocSpec Env Vector Array HeapPure Heap ContExamples HeapExamples Mixed
  MixedFacts Frugal FrugalFacts.

Local Open Scope N_scope.

(** * C94: no state, program or behaviour of malloc makes the numbers larger; deallocation, construction
    and destruction of elements, max_size() and the destructor never call it. *)
Theorem C94_any_state :
  forall pl e, frugal (den pl e) (einit e) (ecalls e).
Proof. exact tree_frugal. Qed.
Print Assumptions C94_any_state.

Theorem C94_clients :
  forall pl e b ready ops w os w' ev,
  session (den pl e) b ready ops w = Ok os w' ev ->
  (tick w' <= tick w + einit e + count o_asks ops * ecalls e)%nat.
Proof. exact client_calls. Qed.
Print Assumptions C94_clients.

(** Each operation of a container asks its allocator at most once. *)
Theorem C94_vector :
  forall A i c b sz k o q, frugal A i c -> within (v_asks o * c) (vstep A b sz k o q).
Proof. exact vector_within. Qed.
Print Assumptions C94_vector.

Theorem C94_array :
  forall A i c b sz k o q, frugal A i c -> within (a_asks o * c) (astep A b sz k o q).
Proof. exact array_within. Qed.
Print Assumptions C94_array.

Theorem C94_heap :
  forall A i c b sz T comp eqv k o q, frugal A i c -> within (h_asks o * c) (hstep A b sz T comp eqv k o q).
Proof. exact heap_within. Qed.
Print Assumptions C94_heap.

Theorem C94_mixed_program :
  forall pl e b ty k ops w os w' ev,
  csession (den pl e) b (xstep (den pl e) b ty k) (xkill (den pl e) b) k ops w = Ok os w' ev ->
  (tick w' <= tick w + k * einit e + count (fun o => c_asks (snd o)) ops * ecalls e)%nat.
Proof. exact mixed_calls. Qed.
Print Assumptions C94_mixed_program.

(** The bounds are attained: the first request to cascading over linear_allocator creates two instances
    in vain and then goes to malloc; a shared allocator is itself created on the heap. *)
Example C94_example :
  let e := EShared (EFallback (ECascading (ELinear 40)) EMalloc) in
  wf e = true /\ einit e = 1%nat /\ ecalls e = 3%nat /\
  ticks (session (den PMalloc e) 4096 (fun _ _ => true) [OAlloc 40] (w_raw 64)) = Some 4%nat /\
  ticks (session (den PMalloc e) 4096 (fun _ _ => true) [OAlloc 40; OFree 0] (w_raw 64)) = Some 4%nat.
Proof. by vm_compute. Qed.

(** Fifteen operations on containers of four types over malloc alone; eight of them may need storage, and do. *)
Example C94_mixed_example :
  count (fun o => c_asks (snd o)) potpourri = 8%nat /\
  ticks (xprog (den PMalloc EMalloc) potpourri (w_raw 0)) = Some 8%nat.
Proof. by vm_compute. Qed.
