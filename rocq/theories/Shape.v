(** Vocabulary: programs over containers that differ in the values of elements, and in the order heaps
    keep them in. *)
From Verif Require Import Base Mem Allocators Env Vector Array HeapPure Heap Mixed Rename.

Definition like_hop (o o' : hop) : Prop :=
  match o, o' with
  | HNewList c l q h, HNewList c' l' q' h' => c = c' /\ length l = length l' /\ q = q' /\ h = h'
  | HInsert c r, HInsert c' r' => c = c' /\ like_ref r r'
  | HFind c r, HFind c' r' => c = c' /\ like_ref r r'
  | _, _ => o = o'
  end.
Definition like_cop (o o' : nat * cop) : Prop :=
  fst o = fst o' /\
  match snd o, snd o' with
  | OVec x, OVec y => like_vop x y
  | OArr x, OArr y => like_aop x y
  | OHeap x, OHeap y => like_hop x y
  | _, _ => False
  end.

(** The same answers, except for values of elements and, in heaps, the indices of elements. *)
Definition like_pos (ob ob' : cobs) : Prop :=
  match ob, ob' with CVal _, CVal _ => True | CNum _, CNum _ => True | _, _ => ob = ob' end.
Definition like_answer (o : hop) (ob ob' : cobs) : Prop :=
  match o with HInsert _ _ | HFind _ _ => like_pos ob ob' | _ => like_obs ob ob' end.
Definition like_canswer (o : nat * cop) (ob ob' : cobs) : Prop :=
  match snd o with OHeap o => like_answer o ob ob' | _ => like_obs ob ob' end.

(** Types that differ in the comparators and in operator==. *)
Definition like_ctype (t t' : ctype) : Prop :=
  match t, t' with
  | TVec sz, TVec sz' => sz = sz'
  | TArr sz, TArr sz' => sz = sz'
  | THeap sz T _ _, THeap sz' T' _ _ => sz = sz' /\ T = T'
  | _, _ => False
  end.

(** Memory with the same bytes, and elements at the same places; the same blocks exist, the same
    addresses come next. *)
Definition sc (c d : cell) : Prop :=
  match c, d with
  | Undef, Undef => True
  | Byte x, Byte y => x = y
  | Frag _ _, Frag _ _ => True
  | Obj _ _, Obj _ _ => True
  | _, _ => False
  end.
Definition soc (c d : option cell) : Prop :=
  match c, d with Some c, Some d => sc c d | None, None => True | _, _ => False end.
Definition sw (w w' : world) : Prop :=
  (forall a, soc (mem (st w) !! a) (mem (st w') !! a)) /\ mtab (st w) = mtab (st w') /\ orc w = orc w' /\ tick w = tick w'.

(** Two runs go the same way unless an event classified as [bad] occurs; if it occurs in one of them
    it occurs in both. *)
Definition like_runs_of {O} (answer : O -> cobs -> cobs -> Prop) (bad : event -> bool) (ops : list O) (r r' : res (list cobs)) : Prop :=
  existsb bad (trace r) = existsb bad (trace r') /\
  (existsb bad (trace r) = false ->
   exists os w os' w' e, r = Ok os w e /\ r' = Ok os' w' e /\ Forall3 answer ops os os' /\ sw w w').
