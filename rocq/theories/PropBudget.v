(** Property theorems C101: the heap that a composition holds on to. *)
From Verif Require Import Base Mem Bits AlignedMalloc Allocators Checked Tree Client AllocSpec Budget BudgetProofs.

(** A client that never holds more than [k] blocks of at most [m] bytes never makes a composition
    hold more than [eblocks e k] blocks with [ebytes pl e k m] bytes of the heap, however many
    requests it makes.  Every prefix of a program is a program. *)
Theorem C101_footprint :
  forall pl e k m b ops w s0 w0 e0 os s bl w1 e1,
  pl <> PPosix -> wf e = true -> steady e = true ->
  place b (esize e) w -> asks (ereq pl e) ops ->
  a_init (den pl e) b w = Ok s0 w0 e0 ->
  run (den pl e) b (eready_now pl e) ops s0 [] w0 = Ok (os, (s, bl)) w1 e1 ->
  modest k m (Book [] 0 0) ops os = true ->
  (size (mtab (st w1)) <= size (mtab (st w)) + eblocks e k)%nat /\
  total (mtab (st w1)) <= total (mtab (st w)) + ebytes pl e k m.
Proof. exact footprint. Qed.
Print Assumptions C101_footprint.

(** The bound is reached: two blocks at a time, five blocks of the heap with 536 bytes; twenty
    further requests do not change that. *)
Example C101_example :
  let e := EShared (ESegragator 32 (EFreelist 8 32 EMalloc) (EOverflow EMalloc)) in
  let small := [OAlloc 20; OAlloc 30; OFree 0; OFree 0] in
  let large := [OAlloc 100; OAlloc 100] in
  wf e = true /\ steady e = true /\ asks (ereq PMalloc e) (small ++ large) /\
  (eblocks e 2, ebytes PMalloc e 2 100) = (5%nat, 536) /\
  outcome (weigh 2 100 (den PMalloc e) (eready_now PMalloc e) 4096 (small ++ large) (w_raw 0)) = Some ((true, 5%nat, 536), []) /\
  outcome (weigh 2 100 (den PMalloc e) (eready_now PMalloc e) 4096
    (concat (repeat small 10) ++ large) (w_raw 0)) = Some ((true, 5%nat, 536), []).
Proof. split_and!; [by vm_compute|by vm_compute|repeat constructor|by vm_compute..]. Qed.

(** cascading over a size that is a multiple of 16, under a freelist and beside a malloc: three
    instances of 80 bytes for three blocks at a time, however often they are replaced. *)
Example C101_cascading_example :
  let e := EFallback (EFreelist 8 64 (ECascading (ELinear 64))) EMalloc in
  let turn := [OAlloc 40; OAlloc 64; OAlloc 20; OMax; OFree 1; OFree 0; OFree 0] in
  wf e = true /\ steady e = true /\ asks (ereq PMalloc e) turn /\
  (eblocks e 3, ebytes PMalloc e 3 64) = (6%nat, 432) /\
  outcome (weigh 3 64 (den PMalloc e) (eready_now PMalloc e) 4096 turn (w_raw 0)) = Some ((true, 3%nat, 240), []) /\
  outcome (weigh 3 64 (den PMalloc e) (eready_now PMalloc e) 4096 (concat (repeat turn 10)) (w_raw 0)) = Some ((true, 3%nat, 240), []) /\
  outcome (weigh 3 64 (den PMalloc (ECascading (ELinear 64))) (eready_now PMalloc (ECascading (ELinear 64))) 4096
    (concat (repeat turn 10)) (w_raw 0)) = Some ((true, 1%nat, 80), []).
Proof. split_and!; [by vm_compute|by vm_compute|repeat constructor|by vm_compute..]. Qed.

(** cascading does not have such a bound for any size that is not a multiple of 16: requests that
    even an empty instance refuses leave an instance behind each, and the client holds nothing. *)
Theorem C101_cascading_creeps :
  forall pl Size n b j w s0 w0 e0 os s bl w1 e1,
  pl <> PPosix -> Size mod 16 <> 0 -> Size - Size mod 16 < n <= Size -> Size + Size + 64 < W -> place b 0 w ->
  a_init (cascading pl (linear_allocator Size)) b w = Ok s0 w0 e0 ->
  run (cascading pl (linear_allocator Size)) b (fun _ _ => false) (repeat (OAlloc n) (S j)) s0 [] w0 = Ok (os, (s, bl)) w1 e1 ->
  os = repeat (ObPtr 0) (S j) /\ bl = [] /\ size (mtab (st w1)) = (size (mtab (st w)) + j + 2)%nat.
Proof. exact cascading_creeps. Qed.
Print Assumptions C101_cascading_creeps.

Example C101_creeps_example :
  outcome (weigh 1 24 (cascading PMalloc (linear_allocator 24)) (fun _ _ => false) 4096 (repeat (OAlloc 20) 30) (w_raw 0)) =
    Some ((true, 31%nat, 31 * 48), []).
Proof. by vm_compute. Qed.
