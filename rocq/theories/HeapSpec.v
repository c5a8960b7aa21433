(** Specification of binary_heap as a priority queue: every heap is a bag of values. *)
From Coq Require Import Sorting.Sorted.
From Verif Require Import Base Mem Allocators Env Vector HeapPure Heap.

Local Open Scope N_scope.

(** A comparator and the elements, in no particular order. *)
Notation bag := (nat * list value)%type.

Section queue.
  Context (T : elt) (comp : nat -> value -> value -> bool) (k : nat).

  (** What the specification talks about: everything except storage and positions. *)
  Definition queue_op (o : hop) : bool :=
    match o with
    | HNew _ _ _ | HNewCap _ _ _ _ | HNewList _ _ _ _ | HCopy _ _ | HMove _ _ | HCopyAl _ _ _ | HDestroy _
    | HMoveAssign _ _ | HSize _ | HEmpty _ | HReserve _ _ | HInsert _ (RVal _) | HPeek _ | HPop _ | HClear _ => true
    | HAssign c src => negb (c =? src)%nat
    | _ => false
    end.

  Definition alive (m : gmap nat bag) (c : nat) : bool := bool_decide (is_Some (m !! c)).
  Definition cmp_of (m : gmap nat bag) (c : nat) : nat := fst (default (0%nat, []) (m !! c)).
  Definition elems (m : gmap nat bag) (c : nat) : list value := snd (default (0%nat, []) (m !! c)).

  Definition allowed (m : gmap nat bag) (o : hop) : bool :=
    match o with
    | HNew c _ h | HNewCap c _ _ h | HNewList c _ _ h => negb (alive m c) && (h <? k)%nat
    | HCopy c src | HMove c src => negb (alive m c) && alive m src
    | HCopyAl c src h => negb (alive m c) && (h <? k)%nat && alive m src
    | HAssign c src | HMoveAssign c src => alive m c && alive m src
    | HDestroy c | HSize c | HEmpty c | HReserve c _ | HClear c | HInsert c _ => alive m c
    | HPeek c => alive m c && (0 <? length (elems m c))%nat
    | HPop c => alive m c && (0 <? length (elems m c))%nat && (e_triv T || (1 <? length (elems m c))%nat)
    | _ => false
    end.

  (** One of the elements, and no element is smaller. *)
  Definition least (less : value -> value -> bool) (v : value) (l : list value) : Prop :=
    v ∈ l /\ (strict_weak less -> forall y, y ∈ l -> less y v = false).

  Definition queue_do (o : hop) (ob : cobs) (m m' : gmap nat bag) : Prop :=
    match o with
    | HNew c q _ | HNewCap c _ q _ => ob = CUnit /\ m' = <[c := (q, [])]> m
    | HNewList c l q _ => ob = CUnit /\ m' = <[c := (q, l)]> m
    | HCopy c src | HCopyAl c src _ | HAssign c src => ob = CUnit /\ m' = <[c := (cmp_of m src, elems m src)]> m
    | HMove c src | HMoveAssign c src =>
      ob = CUnit /\ m' = <[src := (cmp_of m src, [])]> (<[c := (cmp_of m src, elems m src)]> m)
    | HDestroy c => ob = CUnit /\ m' = delete c m
    | HSize c => ob = CNum (N.of_nat (length (elems m c))) /\ m' = m
    | HEmpty c => ob = CBool (length (elems m c) =? 0)%nat /\ m' = m
    | HReserve c _ => ob = CUnit /\ m' = m
    | HInsert c (RVal v) => (exists i, ob = CNum i) /\ m' = <[c := (cmp_of m c, v :: elems m c)]> m
    | HPeek c => exists v, ob = CVal (Some v) /\ least (comp (cmp_of m c)) v (elems m c) /\ m' = m
    | HPop c =>
      exists v l, ob = CVal (Some v) /\ least (comp (cmp_of m c)) v (elems m c) /\ elems m c ≡ₚ v :: l /\
        m' = <[c := (cmp_of m c, l)]> m
    | HClear c => ob = CUnit /\ m' = <[c := (cmp_of m c, [])]> m
    | _ => False
    end.

  Definition queue_check (o : hop) (ob : cobs) (m m' : gmap nat bag) : Prop :=
    if allowed m o then queue_do o ob m m' else ob = CUnit /\ m' = m.
End queue.

(** Requests of at least half the address space are left out: no platform can serve them, and the
    index arithmetic of the heap (2 * i + 2) relies on it. *)
Definition half (req : N -> bool) (n : N) : bool := req n && (n <? 2 ^ 63).

(** Programs: insert the values of a list into heap [c]; remove [n] elements. *)
Definition fills (c : nat) (l : list value) : list hop := List.map (fun v => HInsert c (RVal v)) l.
Definition pops (c n : nat) : list hop := repeat (HPop c) n.
Definition vals (l : list value) : list cobs := List.map (fun v => CVal (Some v)) l.
(** No element is smaller than an earlier one. *)
Definition sorted (less : value -> value -> bool) (l : list value) : Prop := StronglySorted (fun x y => less y x = false) l.
