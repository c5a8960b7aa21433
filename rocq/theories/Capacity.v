(** Vocabulary: which sizes a composition of allocators can serve. *)
From Verif Require Import Base Mem Allocators Tree Client AllocSpec.

Local Open Scope N_scope.

(** The sizes that an object without outstanding blocks serves as long as malloc does not refuse. *)
Fixpoint fits (e : aexp) (n : N) : bool :=
  match e with
  | ENull => false
  | EMalloc => true
  | ELinear Size | EStack Size => (n + 15) / 16 * 16 <=? Size
  | EFreelist Min Max e => (Min <? n) && (n <=? Max) && fits e Max
  | EFallback p f => fits p n || fits f n
  | ESegragator T p f => if n <=? T then fits p n else fits f n
  | EOverflow e => fits e (n + 128)
  | ECascading e | EShared e | EThreaded e | EReference e | EGlobal e | EChecked e => fits e n
  end.

(** The sizes that are served in every state as long as malloc does not refuse. *)
Fixpoint endless (e : aexp) (n : N) : bool :=
  match e with
  | ENull | ELinear _ | EStack _ => false
  | EMalloc => true
  | EFreelist Min Max e => (Min <? n) && (n <=? Max) && endless e Max
  | ECascading e => fits e n
  | EFallback p f => endless p n || endless f n
  | ESegragator T p f => if n <=? T then endless p n else endless f n
  | EOverflow e => endless e (n + 128)
  | EShared e | EThreaded e | EReference e | EGlobal e | EChecked e => endless e n
  end.

(** The blocks that are outstanding after the first [i] operations. *)
Definition outstanding (i : nat) (ops : list op) (os : list obs) : list (N * N) :=
  bk_blocks (keep_book (Book [] 0 0) (take i ops) (take i os)).

(** What does not fit is never served. *)
Definition refuses (fit : N -> bool) (ops : list op) (os : list obs) : Prop :=
  forall i n, ops !! i = Some (OAlloc n) -> fit n = false -> os !! i = Some (ObPtr 0).

(** What fits is served whenever nothing is outstanding. *)
Definition revives (fit : N -> bool) (ops : list op) (os : list obs) : Prop :=
  forall i n, ops !! i = Some (OAlloc n) -> fit n = true -> outstanding i ops os = [] ->
  exists p, os !! i = Some (ObPtr p) /\ p <> 0.

(** What is in [alw] is always served. *)
Definition serves (alw : N -> bool) (ops : list op) (os : list obs) : Prop :=
  forall i n, ops !! i = Some (OAlloc n) -> alw n = true -> exists p, os !! i = Some (ObPtr p) /\ p <> 0.
