(** Property theorems C102: the heap that containers hold between two operations. *)
From Verif Require Import Base Mem Bits AlignedMalloc Allocators Checked Tree Client AllocSpec Env HeapPure Vector Array Heap HeapSpec Books Budget
  Mixed Hold HoldProofs HoldMixed HoldRun ContExamples HeapExamples MixedFacts.

Local Open Scope N_scope.

(** After any program: at most one block of the heap for each container that has storage and, for
    each allocator, one for each shared and one spare instance for each cascading in its type.
    Every prefix of a program is a program. *)
Theorem C102_vectors :
  forall pl e b sz k ops w os E vs w1 e1,
  pl <> PPosix -> wf e = true -> lean e = true -> 0 < sz -> place b (N.of_nat k * esize e) w ->
  crun_from (den pl e) b (vstep (den pl e) b sz k) k ops w = Ok (os, (E, vs)) w1 e1 ->
  existsb (unsupported (ereq pl e)) e1 = false ->
  (size (mtab (st w1)) <= size (mtab (st w)) + k * spare e + stored v_beg vs)%nat.
Proof. exact vectors_hold. Qed.
Print Assumptions C102_vectors.

Theorem C102_arrays :
  forall pl e b sz k ops w os E vs w1 e1,
  pl <> PPosix -> wf e = true -> lean e = true -> 0 < sz -> place b (N.of_nat k * esize e) w ->
  crun_from (den pl e) b (astep (den pl e) b sz k) k ops w = Ok (os, (E, vs)) w1 e1 ->
  existsb (unsupported (ereq pl e)) e1 = false ->
  (size (mtab (st w1)) <= size (mtab (st w)) + k * spare e + stored r_beg vs)%nat.
Proof. exact arrays_hold. Qed.
Print Assumptions C102_arrays.

Theorem C102_heaps :
  forall pl e b sz k T comp eqv ops w os E vs w1 e1,
  pl <> PPosix -> wf e = true -> lean e = true -> 0 < sz -> place b (N.of_nat k * esize e) w ->
  crun_from (den pl e) b (hstep (den pl e) b sz T comp eqv k) k ops w = Ok (os, (E, vs)) w1 e1 ->
  existsb (unsupported (half (ereq pl e))) e1 = false ->
  (size (mtab (st w1)) <= size (mtab (st w)) + k * spare e + stored h_beg vs)%nat.
Proof. exact heaps_hold. Qed.
Print Assumptions C102_heaps.

(** Containers of several types over the same allocators; [ty] gives the types. *)
Theorem C102_mixed :
  forall pl e ty k, (forall t, 0 < t_size (ty t)) -> forall b ops w os E xs w1 e1,
  pl <> PPosix -> wf e = true -> lean e = true -> place b (N.of_nat k * esize e) w ->
  crun_from (den pl e) b (xstep (den pl e) b ty k) k ops w = Ok (os, (E, xs)) w1 e1 ->
  existsb (unsupported (half (ereq pl e))) e1 = false ->
  (size (mtab (st w1)) <= size (mtab (st w)) + k * spare e + all_stored xs)%nat.
Proof. exact mixed_hold. Qed.
Print Assumptions C102_mixed.

(** A program that uses an allocator directly, whether or not malloc succeeds; [bl] are the blocks that
    it has received and not returned. *)
Theorem C102_blocks :
  forall pl e b ops w s0 w0 e0 os s bl w1 e1,
  pl <> PPosix -> wf e = true -> lean e = true -> place b (esize e) w -> asks (ereq pl e) ops ->
  a_init (den pl e) b w = Ok s0 w0 e0 ->
  run (den pl e) b (eready_now pl e) ops s0 [] w0 = Ok (os, (s, bl)) w1 e1 ->
  (size (mtab (st w1)) <= size (mtab (st w)) + spare e + length bl)%nat.
Proof. exact blocks_hold. Qed.
Print Assumptions C102_blocks.

(** Two allocators of a type with one shared and one cascading; the bound is reached. *)
Example C102_example :
  let e := EShared (ESegragator 32 (ECascading (ELinear 32)) (EOverflow EMalloc)) in
  let A := den PMalloc e in
  let vrun ops := held (unsupported (ereq PMalloc e)) v_beg (crun_from A 4096 (vstep A 4096 4 2) 2 ops (w_raw 0)) in
  let arun ops := held (unsupported (ereq PMalloc e)) r_beg (crun_from A 4096 (astep A 4096 4 2) 2 ops (w_raw 0)) in
  let hrun ops := held (unsupported (half (ereq PMalloc e))) h_beg
    (crun_from A 4096 (hstep A 4096 4 object cmps equal 2) 2 ops (w_raw 0)) in
  wf e = true /\ lean e = true /\ spare e = 2%nat /\ place 4096 (2 * esize e) (w_raw 0) /\
  vrun [] = Some (2, 0, false)%nat /\
  vrun [VNewList 0 [Val 1; Val 2] 0; VNewN 1 4 1; VReserve 0 30; VReserve 1 20; VCopy 2 1; VReserve 2 40] = Some (7, 3, false)%nat /\
  vrun [VNewList 0 [Val 1; Val 2] 0; VNewN 1 4 1; VReserve 0 30; VReserve 1 20; VCopy 2 1; VReserve 2 40; VDestroy 0; VMoveAssign 1 2] =
    Some (5, 1, false)%nat /\
  arun [ANewList 0 [Val 1; Val 2] 0; ANewN 1 4 1; AResize 0 30; AResize 1 20; ACopy 2 1; AResize 2 40] = Some (7, 3, false)%nat /\
  hrun [HNewList 0 [Val 1; Val 2] 0 0; HNewList 1 [Val 3; Val 4] 0 1; HReserve 0 30; HReserve 1 20; HCopy 2 1; HReserve 2 40] = Some (7, 3, false)%nat.
Proof. split_and!; [done|done|done|exact (w0_place 2)|by vm_compute..]. Qed.

(** A freelist keeps the storage of containers that no longer exist. *)
Example C102_freelist_keeps :
  let e := EFreelist 0 64 EMalloc in
  held (unsupported (ereq PMalloc e)) v_beg (crun_from (den PMalloc e) 4096 (vstep (den PMalloc e) 4096 4 1) 1
    [VNewN 0 4 0; VNewN 1 2 0; VDestroy 0; VDestroy 1] (w_raw 0)) = Some (2, 0, false)%nat.
Proof. by vm_compute. Qed.

(** Vectors, arrays and heaps with elements of several sizes: cascading needs no spare instance here. *)
Example C102_mixed_example :
  let e := EShared (ESegragator 4 (ECascading (ELinear 32)) (EOverflow EMalloc)) in
  let A := den PMalloc e in
  wf e = true /\ lean e = true /\ (forall t, 0 < t_size (kinds t)) /\ place 4096 (2 * esize e) (w_raw 0) /\
  match all_owed PMalloc e (unsupported (half (ereq PMalloc e))) 2 (crun_from A 4096 (xstep A 4096 kinds 2) 2 potpourri (w_raw 0)) with
  | Some (held, most, unsup) => (fst held, fst most, unsup) = (6%nat, 8%nat, false)
  | None => False
  end.
Proof. split_and!; [done|done|exact kinds_size|exact (w0_place 2)|]. by vm_compute. Qed.

Example C102_blocks_example :
  let e := EShared (EFallback (ECascading (ELinear 32)) EMalloc) in
  let ops := [OAlloc 24; OAlloc 32; OAlloc 40; OFree 1; OFree 1; OAlloc 8; OMax] in
  wf e = true /\ lean e = true /\ place 4096 (esize e) (w_raw 0) /\ asks (ereq PMalloc e) ops /\
  match (s <- a_init (den PMalloc e) 4096 ;; run (den PMalloc e) 4096 (eready_now PMalloc e) ops s []) (w_raw 0) with
  | Ok (_, (_, bl)) w _ => (size (mtab (st w)), spare e, length bl) = (3, 2, 2)%nat
  | Err _ _ => False
  end.
Proof. split_and!; [done|done|exact (w0_place 2)|by repeat constructor|by vm_compute]. Qed.
