(** Programs that use pointers to elements of binary_heaps.  data(), the iterators and the results of
    insert() and find() are plain pointers, peek() is a reference (binary_heap.h:33-36, 233-260,
    298-319, 343-352), and none of them is const, so elements are read and written without any call of
    the library. *)
From Verif Require Import Base Mem Allocators Env Vector HeapPure Heap Ptr.

(** A program names a pointer by its value; where it has it from does not matter. *)
Inductive hpop :=
| HLib (o : hop)                       (** an operation of the heap *)
| HLoad (a : N)                        (** x = *p *)
| HStore (a : N) (src : place_of)      (** *p = x or *p = *q *)
| HLower (c : nat) (v : value).        (** if (!comp(c.peek(), v)) c.peek() = v *)

Section ptr.
  Context (A : alloc) (b sz : N) (T : elt) (comp : nat -> value -> value -> bool) (eqv : value -> value -> bool) (k : nat).
  (** The heaps whose elements the program writes at will, by their comparators. *)
  Context (wild : nat -> bool).
  Local Notation state := (env A * gmap nat heap)%type.

  Definition is_elem (vs : gmap nat heap) (a : N) : bool := at_elem sz (h_info <$> vs) a.
  Definition in_wild (vs : gmap nat heap) (a : N) : bool := is_elem (filter (fun p => wild (h_cmp (snd p)) = true) vs) a.
  Definition is_src (vs : gmap nat heap) (src : place_of) : bool :=
    match src with PVal _ => true | PAddr a => is_elem vs a end.

  Definition hpstep (o : hpop) (s : state) : M (cobs * state) :=
    let vs := snd s in
    match o with
    | HLib o => hstep A b sz T comp eqv k o s
    | HLoad a => if is_elem vs a then v <- e_get sz T a ;; ret (CVal (Some v), s) else ret (CUnit, s)
    | HStore a src =>
      if in_wild vs a && is_src vs src then v <- e_src sz T src ;; e_set sz T a v ;;; ret (CUnit, s) else ret (CUnit, s)
    | HLower c v =>
      let x := hget c vs in
      if 0 <? h_size x then
        r <- e_get sz T (h_beg x) ;;
        if comp (h_cmp x) r v then ret (CBool false, s) else e_set sz T (h_beg x) v ;;; ret (CBool true, s)
      else ret (CUnit, s)
    end.
End ptr.

(** * Specification: such a pointer is another name of the element *)

(** An order is promised of the heaps that are not written at will. *)
Definition tame (wild : nat -> bool) (comp : nat -> value -> value -> bool) : order comp :=
  Order comp (fun q => wild q = false /\ strict_weak (comp q)) (fun q H => proj2 H).

Section check.
  Context (sz : N) (T : elt) (comp : nat -> value -> value -> bool) (eqv : value -> value -> bool) (k : nat) (wild : nat -> bool).
  Local Notation ok := (p_ok comp (ord := tame wild comp)).

  (** [a] points to element [i] of [c], whose value is [v]. *)
  Definition points (m : gmap nat sheap) (a : N) (c i : nat) (v : value) : Prop :=
    exists x, m !! c = Some x /\ p_l x !! i = Some v /\ a = p_data x + sz * N.of_nat i.
  (** ... and to nothing else *)
  Definition names (m : gmap nat sheap) (a : N) (c i : nat) (v : value) : Prop :=
    points m a c i v /\ forall c' i' v', points m a c' i' v' -> c' = c /\ i' = i.
  Definition astray (m : gmap nat sheap) (a : N) : Prop := forall c i v, ~ points m a c i v.

  Definition holds (m : gmap nat sheap) (src : place_of) (v : value) : Prop :=
    match src with PVal x => v = x | PAddr a => exists c i, names m a c i v end.
  (** Element [i] of [c] is replaced, nothing else changes. *)
  Definition replaced (m : gmap nat sheap) (c i : nat) (v : value) (m' : gmap nat sheap) : Prop :=
    let x := p_get c m in
    let x' := SHeap (p_al x) (p_cmp x) (<[i := v]> (p_l x)) (p_cap x) (p_data x) in
    m' = <[c := x']> m /\ ok x'.

  Definition hpcheck (o : hpop) (ob : cobs) (m m' : gmap nat sheap) : Prop :=
    match o with
    | HLib o => hcheck sz T comp (ord := tame wild comp) eqv k o ob m m'
    | HLoad a =>
      (exists c i v, names m a c i v /\ ob = CVal (Some v) /\ m' = m) \/ (astray m a /\ ob = CUnit /\ m' = m)
    | HStore a src =>
      (exists c i u v, names m a c i u /\ wild (p_cmp (p_get c m)) = true /\ holds m src v /\ ob = CUnit /\ replaced m c i v m') \/
      (((forall c i u, points m a c i u -> wild (p_cmp (p_get c m)) = false) \/ match src with PAddr a' => astray m a' | _ => False end) /\
       ob = CUnit /\ m' = m)
    | HLower c v =>
      match p_l (p_get c m) with
      | [] => ob = CUnit /\ m' = m
      | r :: _ =>
        if comp (p_cmp (p_get c m)) r v then ob = CBool false /\ m' = m else ob = CBool true /\ replaced m c 0 v m'
      end
    end.
End check.
