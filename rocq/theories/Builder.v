(** Models of the compile-time builders
    (include/ktl/allocators/segragator_fwd.h and fallback_fwd.h).

    A C++ type pack is a list, a type computed by the builder is a binary tree whose
    leaves are the allocator types.  [None] stands for a program rejected by the compiler
    (static_assert, tuple index out of range, allocator where a threshold is expected). *)
From Verif Require Import Base Bits.

(** utility/builder.h:28-39 — [tuple_split_indices<O, N.., M.., T..>]: [first] takes
    [n] elements, [second] takes [m] elements starting at [n + o]. *)
Definition tuple_split {A} (o n m : nat) (ts : list A) : option (list A * list A) :=
  if (Nat.leb n (length ts) && (Nat.eqb m 0 || Nat.leb (n + o + m) (length ts)))%bool
  then Some (take n ts, take m (drop (n + o) ts))
  else None.

Section segragator.
  Context {A : Type}.

  (** [segragator<t, l, r>] over leaf allocators (segragator_fwd.h:16-17). *)
  Inductive stree := SLeaf (a : A) | SNode (t : N) (l r : stree).

  (** segragator_fwd.h:22-58 — [segragator_builder<R, std::tuple<Ts...>>].  The fuel
      bounds the template instantiation depth; the length of the pack suffices. *)
  Fixpoint segragator_builder (fuel : nat) (r : bool) (ts : list (A + N)) : option stree :=
    match fuel with
    | O => None
    | S fuel =>
      match ts with
      | [inl a] => Some (SLeaf a)
      | _ =>
        let n := N.of_nat (length ts) in
        if n mod 2 =? 0 then None else
        let '(f, s) := size_invert r (sub64 (ktl_pow2 n) 1 / 2) (sub64 n 1) in
        match ts !! (N.to_nat f), tuple_split 1 (N.to_nat f) (N.to_nat s) ts with
        | Some (inr th), Some (ts1, ts2) =>
          match segragator_builder fuel r ts1, segragator_builder fuel r ts2 with
          | Some l, Some rr => Some (SNode th l rr)
          | _, _ => None
          end
        | _, _ => None
        end
      end
    end.

  (** segragator.h:97-113 — a [segragator] compares the size with its threshold, for
      allocation and for deallocation alike; the leaf reached serves the request. *)
  Fixpoint seg_route (t : stree) (n : N) : A :=
    match t with
    | SLeaf a => a
    | SNode th l r => if n <=? th then seg_route l n else seg_route r n
    end.

  (** The number of comparisons made for a request of size [n]. *)
  Fixpoint seg_comparisons (t : stree) (n : N) : nat :=
    match t with
    | SLeaf _ => 0
    | SNode th l r => S (if n <=? th then seg_comparisons l n else seg_comparisons r n)
    end.

  (** The argument pack [a0, threshold<t1>, a1, threshold<t2>, a2, ...]. *)
  Definition seg_pack (a0 : A) (l : list (N * A)) : list (A + N) :=
    inl a0 :: flat_map (fun ta : N * A => [inr ta.1; inl ta.2]) l.

  (** Specification of the routing: the allocator whose index is the number of thresholds
      smaller than the request. *)
  Definition count_below (ths : list N) (n : N) : nat :=
    length (List.filter (fun t => t <? n) ths).

  Definition seg_spec (a0 : A) (l : list (N * A)) (n : N) : option A :=
    (a0 :: map snd l) !! (count_below (map fst l) n).
End segragator.
Arguments stree : clear implicits.

Section fallback.
  Context {A : Type}.

  (** [fallback<l, r>] over leaf allocators (fallback_fwd.h:19-20). *)
  Inductive ftree := FLeaf (a : A) | FNode (l r : ftree).

  (** fallback_fwd.h:25-56 — [fallback_builder<R, std::tuple<Ts...>>]. *)
  Fixpoint fallback_builder (fuel : nat) (r : bool) (ts : list A) : option ftree :=
    match fuel with
    | O => None
    | S fuel =>
      match ts with
      | [a] => Some (FLeaf a)
      | _ =>
        let n := N.of_nat (length ts) in
        let '(f, s) := size_invert r (ktl_pow2 n / 2) n in
        match tuple_split 0 (N.to_nat f) (N.to_nat s) ts with
        | Some (ts1, ts2) =>
          match fallback_builder fuel r ts1, fallback_builder fuel r ts2 with
          | Some l, Some rr => Some (FNode l rr)
          | _, _ => None
          end
        | _ => None
        end
      end
    end.

  (** The leaves, left to right. *)
  Fixpoint fleaves (t : ftree) : list A :=
    match t with FLeaf a => [a] | FNode l r => fleaves l ++ fleaves r end.

  (** Nesting depth of the produced type. *)
  Fixpoint fdepth (t : ftree) : nat :=
    match t with FLeaf _ => 0 | FNode l r => S (Nat.max (fdepth l) (fdepth r)) end.

  (** fallback.h:100-107 — the primary is tried first, the fallback iff it returned null.
      [succ a] is the (arbitrary) outcome of leaf [a]; the result is the leaf that served
      the request and the list of leaves that were asked. *)
  Fixpoint fb_alloc {R} (succ : A -> option R) (t : ftree) : option R * list A :=
    match t with
    | FLeaf a => (succ a, [a])
    | FNode l r =>
      match fb_alloc succ l with
      | (Some x, asked) => (Some x, asked)
      | (None, asked) => let '(x, asked') := fb_alloc succ r in (x, asked ++ asked')
      end
    end.

  (** fallback.h:193-202 and 109-119 — [owns] is the disjunction; [deallocate] goes to the
      primary iff it owns the pointer. *)
  Fixpoint fb_owns (own : A -> bool) (t : ftree) : bool :=
    match t with FLeaf a => own a | FNode l r => fb_owns own l || fb_owns own r end.

  Fixpoint fb_dealloc (own : A -> bool) (t : ftree) : A :=
    match t with
    | FLeaf a => a
    | FNode l r => if fb_owns own l then fb_dealloc own l else fb_dealloc own r
    end.

  (** Specification over the plain list. *)
  Fixpoint spec_alloc {R} (succ : A -> option R) (l : list A) : option R * list A :=
    match l with
    | [] => (None, [])
    | a :: l =>
      match succ a with
      | Some x => (Some x, [a])
      | None => let '(x, asked) := spec_alloc succ l in (x, a :: asked)
      end
    end.

  (** The first owner, or the last allocator if there is none. *)
  Fixpoint spec_dealloc (own : A -> bool) (l : list A) (dflt : A) : A :=
    match l with
    | [] => dflt
    | [a] => a
    | a :: l => if own a then a else spec_dealloc own l dflt
    end.
End fallback.
Arguments ftree : clear implicits.
