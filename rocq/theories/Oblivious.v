(** Vocabulary: programs and worlds that differ only in the values of bytes. *)
From Verif Require Import Base Mem Allocators Client.

(** The same calls; the values that are written may differ. *)
Definition same_call (o o' : op) : Prop :=
  match o, o' with
  | OWrite i off _, OWrite i' off' _ => i = i' /\ off = off'
  | OConstruct i off _, OConstruct i' off' _ => i = i' /\ off = off'
  | _, _ => o = o'
  end.

(** The same answers; the values that are read may differ. *)
Definition same_answer (x y : obs) : Prop :=
  match x, y with
  | ObByte _, ObByte _ => True
  | _, _ => x = y
  end.

(** The same memory is accessible, malloc has the same blocks and will propose the same addresses;
    bytes that are not part of a live object of non-trivial type may have different values. *)
Definition same_cell (c d : cell) : Prop := c = d \/ dead c /\ dead d.
Definition same_layout (w w' : world) : Prop :=
  (forall i, option_Forall2 same_cell (mem (st w) !! i) (mem (st w') !! i)) /\
  mtab (st w) = mtab (st w') /\ orc w = orc w' /\ tick w = tick w'.

(** Two sessions go the same way. *)
Definition same_course (r r' : res (list obs)) : Prop :=
  match r, r' with
  | Ok os w evs, Ok os' w' evs' => Forall2 same_answer os os' /\ evs = evs' /\ same_layout w w'
  | Err u evs, Err u' evs' => u = u' /\ evs = evs'
  | _, _ => False
  end.
