(** Property theorems C67-C68: how many blocks freelist and cascading hold on to. *)
From Verif Require Import Base Mem Bits AlignedMalloc Allocators Checked Tree Client AllocSpec Footprint FootprintFacts.

(** * C67 *)
(** [checked A] keeps the list of the blocks that freelist has obtained from its inner
    allocator and not given back. *)
Theorem C67_freelist_footprint :
  forall pl Min Max e b ops w s0 w0 e0 os (s : fl (checked (den pl e))) bl w1 e1,
  pl <> PPosix -> wf (EFreelist Min Max e) = true ->
  place b (esize e) w -> asks (ereq pl (EFreelist Min Max e)) ops ->
  a_init (freelist Min Max (checked (den pl e))) b w = Ok s0 w0 e0 ->
  run (freelist Min Max (checked (den pl e))) b (fun _ _ => false) ops s0 [] w0 = Ok (os, (s, bl)) w1 e1 ->
  Forall (fun x => snd x = Max) (snd (f_in s)) /\
  (length bl <= length (snd (f_in s)) <= peak (Book [] 0 0) ops os)%nat.
Proof. exact freelist_footprint. Qed.
Print Assumptions C67_freelist_footprint.

(** Over mallocator: blocks of the heap. *)
Theorem C67_freelist_heap :
  forall pl Min Max b ops w s0 w0 e0 os s bl w1 e1,
  pl <> PPosix -> 8 <= Max -> Max < W ->
  place b 0 w -> asks (ereq pl (EFreelist Min Max EMalloc)) ops ->
  a_init (freelist Min Max (mallocator pl)) b w = Ok s0 w0 e0 ->
  run (freelist Min Max (mallocator pl)) b (fun _ _ => false) ops s0 [] w0 = Ok (os, (s, bl)) w1 e1 ->
  (size (mtab (st w)) + length bl <= size (mtab (st w1)) <= size (mtab (st w)) + peak (Book [] 0 0) ops os)%nat.
Proof. exact freelist_heap. Qed.
Print Assumptions C67_freelist_heap.

(** Ten requests, never more than two blocks at a time: two blocks of the heap. *)
Example C67_example :
  let ops := [OAlloc 9; OAlloc 20; OFree 0; OAlloc 10; OFree 1; OAlloc 11; OFree 0; OAlloc 12; OFree 0; OAlloc 13;
              OFree 1; OAlloc 14; OAlloc 99; OAlloc 8] in
  asks (ereq PMalloc (EFreelist 8 24 EMalloc)) ops /\
  outcome (watch (freelist 8 24 (mallocator PMalloc)) 4096 ops (w_raw 0)) = Some ((2%nat, 2%nat, 2%nat), []).
Proof. split; [repeat constructor|by vm_compute]. Qed.

(** * C68 *)
Theorem C68_cascading_footprint :
  forall pl Size b ops w s0 w0 e0 os s bl w1 e1,
  pl <> PPosix -> Size mod 16 = 0 -> Size + Size + 32 < W ->
  place b 0 w -> asks (fun n => (0 <? n) && (n <=? Size)) ops ->
  a_init (cascading pl (checked (linear_allocator Size))) b w = Ok s0 w0 e0 ->
  run (cascading pl (checked (linear_allocator Size))) b (fun _ _ => false) ops s0 [] w0 = Ok (os, (s, bl)) w1 e1 ->
  size (mtab (st w1)) = (size (mtab (st w)) + length s)%nat /\ (length s <= length bl + 1)%nat.
Proof. exact cascading_footprint. Qed.
Print Assumptions C68_cascading_footprint.

(** Four instances while four blocks of 48 bytes are live, one less after a free in the middle;
    peak, live blocks, heap blocks. *)
Example C68_example :
  let ops := [OAlloc 48; OAlloc 40; OAlloc 48; OAlloc 33] in
  outcome (watch (cascading PMalloc (checked (linear_allocator 64))) 4096 ops (w_raw 0)) = Some ((4%nat, 4%nat, 4%nat), []) /\
  outcome (watch (cascading PMalloc (checked (linear_allocator 64))) 4096 (ops ++ [OFree 2]) (w_raw 0)) = Some ((4%nat, 3%nat, 3%nat), []) /\
  outcome (watch (cascading PMalloc (checked (linear_allocator 64))) 4096 (ops ++ [OFree 0; OFree 0; OFree 0; OFree 0]) (w_raw 0)) =
    Some ((4%nat, 0%nat, 1%nat), []).
Proof. split_and!; by vm_compute. Qed.

(** If Size is not a multiple of 16, requests that an empty instance refuses although they do
    not exceed Size leave instances behind: three heap blocks, no live block. *)
Theorem C68_odd_size_refuted :
  exists Size ops, asks (fun n => (0 <? n) && (n <=? Size)) ops /\
  outcome (watch (cascading PMalloc (checked (linear_allocator Size))) 4096 ops (w_raw 0)) = Some ((0%nat, 0%nat, 3%nat), []).
Proof. exact odd_size_leaves. Qed.
Print Assumptions C68_odd_size_refuted.
