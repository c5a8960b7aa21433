(** Property theorems C103: exactly the heap that containers hold over storage from malloc. *)
From Verif Require Import Base Mem Bits AlignedMalloc Allocators Checked Tree Client AllocSpec Env HeapPure Vector Array Heap HeapSpec Books Budget
  Mixed Hold HoldExact HoldMixed HoldRun ContExamples HeapExamples MixedFacts.

Local Open Scope N_scope.

(** Beside what was there before: one block of the heap for each container that has storage, of
    the size that its capacity costs, and the blocks of shared for each allocator. *)
Theorem C103_vectors :
  forall pl e b sz k ops w os E vs w1 e1,
  pl <> PPosix -> wf e = true -> solid e = true -> 0 < sz -> place b (N.of_nat k * esize e) w ->
  crun_from (den pl e) b (vstep (den pl e) b sz k) k ops w = Ok (os, (E, vs)) w1 e1 ->
  existsb (unsupported (ereq pl e)) e1 = false ->
  size (mtab (st w1)) = (size (mtab (st w)) + k * spare e + stored v_beg vs)%nat /\
  total (mtab (st w1)) = total (mtab (st w)) + N.of_nat k * base pl e + charged pl e v_beg (fun v => v_max v - v_beg v) vs.
Proof. exact vectors_exact. Qed.
Print Assumptions C103_vectors.

Theorem C103_arrays :
  forall pl e b sz k ops w os E vs w1 e1,
  pl <> PPosix -> wf e = true -> solid e = true -> 0 < sz -> place b (N.of_nat k * esize e) w ->
  crun_from (den pl e) b (astep (den pl e) b sz k) k ops w = Ok (os, (E, vs)) w1 e1 ->
  existsb (unsupported (ereq pl e)) e1 = false ->
  size (mtab (st w1)) = (size (mtab (st w)) + k * spare e + stored r_beg vs)%nat /\
  total (mtab (st w1)) = total (mtab (st w)) + N.of_nat k * base pl e + charged pl e r_beg (fun v => r_end v - r_beg v) vs.
Proof. exact arrays_exact. Qed.
Print Assumptions C103_arrays.

Theorem C103_heaps :
  forall pl e b sz k T comp eqv ops w os E vs w1 e1,
  pl <> PPosix -> wf e = true -> solid e = true -> 0 < sz -> place b (N.of_nat k * esize e) w ->
  crun_from (den pl e) b (hstep (den pl e) b sz T comp eqv k) k ops w = Ok (os, (E, vs)) w1 e1 ->
  existsb (unsupported (half (ereq pl e))) e1 = false ->
  size (mtab (st w1)) = (size (mtab (st w)) + k * spare e + stored h_beg vs)%nat /\
  total (mtab (st w1)) = total (mtab (st w)) + N.of_nat k * base pl e + charged pl e h_beg (fun v => sz * h_cap v) vs.
Proof. exact heaps_exact. Qed.
Print Assumptions C103_heaps.

(** Containers of several types over the same allocators; [ty] gives the types. *)
Theorem C103_mixed :
  forall pl e ty k, (forall t, 0 < t_size (ty t)) -> forall b ops w os E xs w1 e1,
  pl <> PPosix -> wf e = true -> solid e = true -> place b (N.of_nat k * esize e) w ->
  crun_from (den pl e) b (xstep (den pl e) b ty k) k ops w = Ok (os, (E, xs)) w1 e1 ->
  existsb (unsupported (half (ereq pl e))) e1 = false ->
  size (mtab (st w1)) = (size (mtab (st w)) + k * spare e + all_stored xs)%nat /\
  total (mtab (st w1)) = total (mtab (st w)) + N.of_nat k * base pl e + all_charged pl e xs.
Proof. exact mixed_exact. Qed.
Print Assumptions C103_mixed.

(** A program that uses an allocator directly, whether or not malloc succeeds; [bl] are the blocks that
    it has received and not returned. *)
Theorem C103_blocks :
  forall pl e b ops w s0 w0 e0 os s bl w1 e1,
  pl <> PPosix -> wf e = true -> solid e = true -> place b (esize e) w -> asks (ereq pl e) ops ->
  a_init (den pl e) b w = Ok s0 w0 e0 ->
  run (den pl e) b (eready_now pl e) ops s0 [] w0 = Ok (os, (s, bl)) w1 e1 ->
  size (mtab (st w1)) = (size (mtab (st w)) + spare e + length bl)%nat /\
  total (mtab (st w1)) = total (mtab (st w)) + base pl e + sum (map (fun x => cost pl e (snd x)) bl).
Proof. exact blocks_exact. Qed.
Print Assumptions C103_blocks.

(** Two allocators of a type with shared, a segragator and overflow; small storage has no guards. *)
Example C103_example :
  let e := EShared (ESegragator 32 EMalloc (EOverflow EMalloc)) in
  let A := den PMalloc e in
  let vrun ops := owed PMalloc e (unsupported (ereq PMalloc e)) 2 v_beg (fun v => v_max v - v_beg v)
    (crun_from A 4096 (vstep A 4096 4 2) 2 ops (w_raw 0)) in
  let arun ops := owed PMalloc e (unsupported (ereq PMalloc e)) 2 r_beg (fun v => r_end v - r_beg v)
    (crun_from A 4096 (astep A 4096 4 2) 2 ops (w_raw 0)) in
  let hrun ops := owed PMalloc e (unsupported (half (ereq PMalloc e))) 2 h_beg (fun v => 4 * h_cap v)
    (crun_from A 4096 (hstep A 4096 4 object cmps equal 2) 2 ops (w_raw 0)) in
  wf e = true /\ solid e = true /\ place 4096 (2 * esize e) (w_raw 0) /\
  vrun [] = Some ((2%nat, 32), (2%nat, 32), false) /\
  vrun [VNewList 0 [Val 1; Val 2] 0; VNewN 1 4 1; VReserve 0 30; VCopy 2 1] = Some ((5%nat, 312), (5%nat, 312), false) /\
  vrun [VNewList 0 [Val 1; Val 2] 0; VNewN 1 4 1; VReserve 0 30; VCopy 2 1; VDestroy 0; VMoveAssign 1 2] = Some ((3%nat, 48), (3%nat, 48), false) /\
  arun [ANewList 0 [Val 1; Val 2] 0; ANewN 1 4 1; AResize 0 30; ACopy 2 1] = Some ((5%nat, 312), (5%nat, 312), false) /\
  hrun [HNewList 0 [Val 1; Val 2] 0 0; HNewList 1 [Val 3; Val 4] 0 1; HReserve 0 30; HCopy 2 1] = Some ((5%nat, 296), (5%nat, 296), false).
Proof. split_and!; [done|done|exact (w0_place 2)|by vm_compute..]. Qed.

(** On the platform without an aligned malloc of its own: 16 bytes more for each block. *)
Example C103_mixed_example :
  let e := EShared (ESegragator 8 EMalloc (EOverflow EMalloc)) in
  let run pl := all_owed pl e (unsupported (half (ereq pl e))) 2
    (crun_from (den pl e) 4096 (xstep (den pl e) 4096 kinds 2) 2 potpourri (w_raw 0)) in
  wf e = true /\ solid e = true /\ (forall t, 0 < t_size (kinds t)) /\ place 4096 (2 * esize e) (w_raw 0) /\
  run PMalloc = Some ((6%nat, 468), (6%nat, 468), false) /\ run PGeneric = Some ((6%nat, 564), (6%nat, 564), false).
Proof. split_and!; [done|done|exact kinds_size|exact (w0_place 2)|by vm_compute..]. Qed.

(** malloc fails at its third call. *)
Example C103_blocks_example :
  let e := EShared (ESegragator 16 EMalloc (EOverflow EMalloc)) in
  let ops := [OAlloc 8; OAlloc 40; OAlloc 16; OAlloc 17; OFree 2] in
  let w := World (st (w_raw 0)) (fun k => match k with 2%nat => 0 | _ => 65536 * N.of_nat (k + 1) end) 0 in
  wf e = true /\ solid e = true /\ place 4096 (esize e) w /\ asks (ereq PMalloc e) ops /\
  match (s <- a_init (den PMalloc e) 4096 ;; run (den PMalloc e) 4096 (eready_now PMalloc e) ops s []) w with
  | Ok (os, (_, bl)) w _ => (os, bl, size (mtab (st w)), total (mtab (st w)), spare e, base PMalloc e) =
      ([ObPtr 131072; ObPtr 0; ObPtr 262144; ObPtr 327744; ObUnit], [(327744, 17); (262144, 16)], 3%nat, 177, 1%nat, 16)
  | Err _ _ => False
  end.
Proof. split_and!; [done|done|exact (w0_place 2)|by repeat constructor|by vm_compute]. Qed.
