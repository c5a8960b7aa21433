(** containers/binary_heap.h with comparators that are not functions of their arguments.

    Comp may keep state, consult data that changes, or answer at random; operator== of T likewise.
    An operation is given the list of the answers it will get, in the order in which it asks.  Once
    the list is exhausted every answer is no.  Everything else is as in Heap.v. *)
From Verif Require Import Base Mem Allocators Env Vector HeapPure Heap HeapSpec HeapSteps.

Local Open Scope N_scope.

Definition ask (a : list bool) : bool * list bool :=
  match a with [] => (false, []) | x :: a => (x, a) end.

Section fickle.
  Context (A : alloc) (b sz : N) (T : elt).
  Local Notation env := (env A).
  Local Notation alloc_ := (te_alloc A b sz).
  Local Notation e_get := (e_get sz T).
  Local Notation e_set := (e_set sz T).
  Local Notation e_take := (e_take sz T).
  Local Notation e_mov := (e_mov sz T).
  Local Notation elem := (elem_addr sz).

  (** binary_heap.h:418-422.  Returns the answers that are left as well. *)
  Fixpoint up_ask (fuel : nat) (p i : N) (v : value) (a : list bool) : M (N * list bool) :=
    match fuel with
    | O => ubm UBLoop
    | S fuel =>
      if i =? 0 then ret (i, a)
      else
        e_get (elem p (par i)) ;;;
        let '(yes, a) := ask a in
        if yes then e_mov (elem p i) (elem p (par i)) ;;; up_ask fuel p (par i) v a
        else ret (i, a)
    end.
  (** 414-427 *)
  Definition percolate_up_ask (p i : N) (a : list bool) : M (N * list bool) :=
    v <- e_get (elem p i) ;;
    ' (i', a) <- up_ask (S (N.to_nat i)) p i v a ;;
    e_set (elem p i') v ;;;
    ret (i', a).

  (** 442-443, 445-446 *)
  Definition pick_ask (p n j c : N) (a : list bool) : M (N * list bool) :=
    if j <? n then
      e_get (elem p j) ;;; e_get (elem p c) ;;;
      let '(yes, a) := ask a in ret (if yes then j else c, a)
    else ret (c, a).
  (** 435-456 *)
  Fixpoint down_ask (fuel : nat) (p n i : N) (a : list bool) : M (N * list bool) :=
    match fuel with
    | O => ubm UBLoop
    | S fuel =>
      if i <? n then
        ' (c, a) <- pick_ask p n (lft i) i a ;;
        ' (c, a) <- pick_ask p n (rgt i) c a ;;
        if c =? i then ret (i, a)
        else
          t <- e_take (elem p c) ;;
          e_mov (elem p c) (elem p i) ;;;
          e_set (elem p i) t ;;;
          down_ask fuel p n c a
      else ret (i, a)
    end.
  (** 429-459 *)
  Definition percolate_down_ask (p n i : N) (a : list bool) : M unit :=
    v <- e_get (elem p i) ;;
    ' (i', _) <- down_ask (S (N.to_nat n)) p n i a ;;
    e_set (elem p i') v.

  (** 298-308 *)
  Definition insert_ask (x : heap) (src : place_of) (a : list bool) (E : env) : M (N * list bool * heap * env) :=
    ' (x, E) <- (if h_size x =? h_cap x then hexpand A b sz T x 1 E else ret (x, E)) ;;
    E <- construct A b sz T (h_al x) (elem (h_beg x) (h_size x)) src E ;;
    ' (i, a) <- percolate_up_ask (h_beg x) (h_size x) a ;;
    ret (i, a, Heap (h_al x) (h_cmp x) (h_size x + 1) (h_cap x) (h_beg x), E).
  (** 99-100, 116-117 *)
  Fixpoint insert_list_ask (x : heap) (l : list value) (a : list bool) (E : env) : M (heap * env) :=
    match l with
    | [] => ret (x, E)
    | v :: l => ' (_, a, x, E) <- insert_ask x (PVal v) a E ;; insert_list_ask x l a E
    end.
  (** 325-336 *)
  Definition pop_ask (x : heap) (a : list bool) (E : env) : M (value * heap * env) :=
    ktl_assert (0 <? h_size x) ;;;
    root <- e_get (elem (h_beg x) 0) ;;
    let n := h_size x - 1 in
    e_mov (elem (h_beg x) 0) (elem (h_beg x) n) ;;;
    E <- destroy A b sz T (h_al x) (elem (h_beg x) n) E ;;
    percolate_down_ask (h_beg x) n 0 a ;;;
    ret (root, Heap (h_al x) (h_cmp x) n (h_cap x) (h_beg x), E).
  (** 343-352 *)
  Fixpoint find_ask (src : place_of) (p : N) (i : N) (n : nat) (a : list bool) : M N :=
    match n with
    | O => ret i
    | S n =>
      e_get (elem p i) ;;;
      e_src sz T src ;;;
      let '(yes, a) := ask a in
      if yes then ret i else find_ask src p (i + 1) n a
    end.

  (** The comparator in the remaining operations, none of which compares; it promises no order. *)
  Definition unsure (q : nat) (x y : value) : bool := true.
  Definition unequal (x y : value) : bool := false.

  Definition fdo (o : hop) (a : list bool) (s : env * gmap nat heap) : M (cobs * (env * gmap nat heap)) :=
    let '(E, vs) := s in
    let get c := hget c vs in
    match o with
    | HNewList c l q h => (* 92-118 *)
      ' (p, E) <- alloc_ h (N.of_nat (length l)) E ;;
      ' (x, E) <- insert_list_ask (Heap h q 0 (N.of_nat (length l)) p) l a E ;;
      ret (CUnit, (E, <[c := x]> vs))
    | HInsert c r =>
      ' (i, _, x, E) <- insert_ask (get c) (hlocate sz r vs) a E ;; ret (CNum i, (E, <[c := x]> vs))
    | HPop c => ' (v, x, E) <- pop_ask (get c) a E ;; ret (CVal (Some v), (E, <[c := x]> vs))
    | HFind c r =>
      i <- find_ask (hlocate sz r vs) (h_beg (get c)) 0 (N.to_nat (h_size (get c))) a ;; ret (CNum i, (E, vs))
    | o => hdo A b sz T unsure unequal o s
    end.

  (** An operation, and the answers it gets. *)
  Definition fstep (k : nat) (oa : hop * list bool) (s : env * gmap nat heap) : M (cobs * (env * gmap nat heap)) :=
    if hlegal sz T k (h_info <$> snd s) (fst oa) then fdo (fst oa) (snd oa) s else ret (CUnit, s).
End fickle.

(** * Specification *)

(** The first of at most [n] answers that is yes, or [n]. *)
Definition first_yes (a : list bool) (n i : N) : Prop :=
  i <= n /\ (forall j, (j < N.to_nat i)%nat -> a !! j <> Some true) /\ (i < n -> a !! N.to_nat i = Some true).

Section check.
  Context (sz : N) (T : elt) (k : nat).

  (** As in Heap.v, where [unsure] makes no statement about an order; the result of find is determined by
      the answers. *)
  Definition fcheck (oa : hop * list bool) (ob : cobs) (m m' : gmap nat sheap) : Prop :=
    match oa with
    | (HFind c r, a) =>
      if hlegal sz T k (p_info <$> m) (HFind c r) then
        m' = m /\ exists i, ob = CNum i /\ first_yes a (p_len (p_get c m)) i
      else ob = CUnit /\ m' = m
    | (o, _) => hcheck sz T unsure unequal k o ob m m'
    end.

  (** Every heap is a bag; any element may be the first one. *)
  Definition bag_check (oa : hop * list bool) (ob : cobs) (m m' : gmap nat bag) : Prop :=
    queue_check T unsure k (fst oa) ob m m'.
End check.

(** How many answers an operation reads, if the heaps have at most [m] elements. *)
Definition f_cost (o : hop) (m : N) : N :=
  match o with HFind _ _ => m | o => h_cost o m end.
