(** Vocabulary of the property theorems about single allocators; nothing here refers to how
    an allocator works. *)
From Verif Require Import Base Mem AlignedMalloc Allocators Client Moves.

(** The state [s] and the outstanding blocks [bl] (newest first) can be reached by some
    program that respects [req], from a fresh allocator at [b]. *)
Definition reachable (A : alloc) (req : N -> bool) (b : N) (s : a_st A) (bl : list (N * N)) : Prop :=
  exists w0 s0 w1 e1 ops os w2 e2,
    place b (a_size A) w0 /\ a_init A b w0 = Ok s0 w1 e1 /\ asks req ops /\
    run A b (fun _ _ => false) ops s0 [] w1 = Ok (os, (s, bl)) w2 e2.

(** [session_ok] (Client.v) without exceptions for sessions that end normally; the only other end
    is the dereference of a null pointer that malloc returned, in types that obtain storage for an
    allocator object at run time ([boxed]). *)
Definition session_strict (boxed : bool) (A : alloc) (ready : N -> a_st A -> bool) (b : N) (ops : list op) (w : world) : Prop :=
  match session A b ready ops w with
  | Ok os w' evs =>
    forallb benign evs = true /\
    (exists mv, (is_Some mv <-> is_Some (a_max A)) /\ check (elsewhere b (a_size A) w) (if a_owns A then true else false) mv ops os []) /\
    mtab (st w') = mtab (st w) /\
    (forall i, ~ (b <= i < b + a_size A) -> mem (st w') !! i = mem (st w) !! i) /\
    storage b (a_size A) w'
  | Err u evs => boxed = true /\ u = UBNull /\ starved evs = true
  end.

(** [x] and [y] have no byte in common. *)
Definition apart (x y : N * N) : Prop :=
  forall q, ~ (fst x <= q < fst x + snd x /\ fst y <= q < fst y + snd y).

Fixpoint all_apart (bl : list (N * N)) : Prop :=
  match bl with [] => True | x :: bl => Forall (apart x) bl /\ all_apart bl end.

(** [m], preceded by the events [evs]. *)
Definition after {X} (evs : list event) (m : M X) : M X := fun w =>
  match m w with
  | Ok a w' e => Ok a w' (evs ++ e)
  | Err u e => Err u (evs ++ e)
  end.

(** [d] is the distance of the furthest of 64 bytes that differs from the pattern 0xA5
    (0: there is none); [g k] is the byte at distance k. *)
Definition furthest (g : N -> N) (d : N) : Prop :=
  d = 0 /\ (forall k, 1 <= k <= 64 -> g k = 165) \/
  1 <= d <= 64 /\ g d <> 165 /\ (forall k, d < k <= 64 -> g k = 165).

(** Bookkeeping of a program, from its operations and what it saw: outstanding blocks, bytes
    of failed requests, constructs minus destroys. *)
Record book := Book { bk_blocks : list (N * N); bk_failed : N; bk_balance : Z }.

Definition in_range (i : nat) (off : N) (bl : list (N * N)) : bool :=
  match bl !! i with Some x => off <? snd x | None => false end.

Definition book_step (k : book) (o : op) (ob : obs) : book :=
  match o, ob with
  | OAlloc n, ObPtr p =>
    if p =? 0 then Book (bk_blocks k) (bk_failed k + n) (bk_balance k)
    else Book ((p, n) :: bk_blocks k) (bk_failed k) (bk_balance k)
  | OFree i, _ => Book (delete i (bk_blocks k)) (bk_failed k) (bk_balance k)
  | OConstruct i off _, _ =>
    if in_range i off (bk_blocks k) then Book (bk_blocks k) (bk_failed k) (bk_balance k + 1) else k
  | ODestroy i off, _ =>
    if in_range i off (bk_blocks k) then Book (bk_blocks k) (bk_failed k) (bk_balance k - 1) else k
  | _, _ => k
  end.

Fixpoint keep_book (k : book) (ops : list op) (os : list obs) : book :=
  match ops, os with
  | o :: ops, ob :: os => keep_book (book_step k o ob) ops os
  | _, _ => k
  end.

Fixpoint total (bl : list (N * N)) : N :=
  match bl with [] => 0 | x :: bl => snd x + total bl end.

(** * Worlds, results and small programs for examples and counterexamples *)
(** [n] raw bytes at 4096; malloc succeeds at 65536, 131072, ... *)
Definition w_raw (n : nat) : world :=
  World (Store (fill 4096 (repeat Undef n)) ∅) (fun k => 65536 * N.of_nat (k + 1)) 0.

(** Result and events, if there is no undefined behaviour. *)
Definition outcome {X} (r : res X) : option (X * list event) :=
  match r with Ok a _ e => Some (a, e) | Err _ _ => None end.
(** The kind of undefined behaviour, if any. *)
Definition crash {X} (r : res X) : option ub :=
  match r with Ok _ _ _ => None | Err u _ => Some u end.

(** The number of live malloc blocks. *)
Definition heap_blocks : M nat := fun w => Ok (size (mtab (st w))) w [].

(** The results of [k] requests for [n] bytes, each with the number of heap blocks afterwards. *)
Fixpoint ask (A : alloc) (b n : N) (k : nat) (s : a_st A) : M (list (N * nat)) :=
  match k with
  | O => ret []
  | S k =>
    ' (p, s') <- a_alloc A b s n ;;
    h <- heap_blocks ;;
    rest <- ask A b n k s' ;;
    ret ((p, h) :: rest)
  end.

(** max_size() of a fresh object, and the result of asking for that many bytes. *)
Definition ask_max (A : alloc) (b : N) : M (N * N) :=
  s <- a_init A b ;;
  match a_max A with
  | Some mx => m <- mx b s ;; ' (p, _) <- a_alloc A b s m ;; ret (m, p)
  | None => ret (0, 0)
  end.

(** What a program saw. *)
Definition answers {X Y} (r : res (X * Y)) : option X :=
  match r with Ok a _ _ => Some (fst a) | Err _ _ => None end.

(** Copy the allocator while 16 bytes are outstanding, give them back through the copy, destroy
    both; the result is the number of heap blocks that are left. *)
Definition copied_overflow : M nat :=
  let A := overflow (mallocator PMalloc) in
  s <- a_init A 4096 ;;
  ' (p, s1) <- a_alloc A 4096 s 16 ;;
  let '(c, src) := ov_copy (fun x => (x, x)) s1 in
  c' <- a_free A 4096 c p 16 ;;
  a_dtor A 4096 src ;;;
  a_dtor A 4096 c' ;;;
  heap_blocks.
