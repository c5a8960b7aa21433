(** containers/binary_heap.h. *)
From Verif Require Import Base Mem Allocators Env Vector HeapPure.

(** The element type: trivially copyable or not, and what a move leaves behind (any value). *)
Record elt := Elt { e_triv : bool; e_left : value -> value }.

Section elem.
  Context (sz : N) (T : elt).
  Local Notation szn := (N.to_nat sz).

  (** Use of an element as a value, assignment, placement new, destructor call. *)
  Definition e_get (a : N) : M value := if e_triv T then load szn a else obj_get szn a.
  Definition e_set (a : N) (v : value) : M unit := if e_triv T then stor szn a v else obj_set szn a v.
  Definition e_new (a : N) (v : value) : M unit := if e_triv T then stor szn a v else obj_new szn a v.
  Definition e_del (a : N) : M unit := if e_triv T then ret tt else obj_del szn a.
  (** The state of an object after something else was initialised from it as an rvalue. *)
  Definition e_leave (a : N) (v : value) : M unit := if e_triv T then ret tt else obj_set szn a (e_left T v).

  Definition e_src (src : place_of) : M value :=
    match src with PVal x => ret x | PAddr a => e_get a end.
  (** const T temp(std::move( *a)) *)
  Definition e_take (a : N) : M value := v <- e_get a ;; e_leave a v ;;; ret v.
  (** *dst = std::move( *src); moving an object to itself leaves what a move leaves. *)
  Definition e_mov (dst src : N) : M unit := v <- e_get src ;; e_set dst v ;;; e_leave src v.
End elem.

(** Programs.  [h]: index of an allocator, [q]: index of a comparator. *)
Inductive hop :=
| HNew (c q h : nat)                       (** binary_heap c(h, q); *)
| HNewCap (c : nat) (n : N) (q h : nat)    (** c(n, h, q) *)
| HNewList (c : nat) (l : list value) (q h : nat) (** c({...}, h, q) *)
| HCopy (c src : nat)                      (** c(src) *)
| HMove (c src : nat)                      (** c(std::move(src)) *)
| HCopyAl (c src h : nat)                  (** c(src, h) *)
| HMoveAl (c src h : nat)                  (** c(std::move(src), h) *)
| HDestroy (c : nat)
| HAssign (c src : nat)                    (** c = src *)
| HMoveAssign (c src : nat)                (** c = std::move(src) *)
| HSize (c : nat) | HCap (c : nat) | HEmpty (c : nat) | HData (c : nat)
| HAt (c : nat) (i : N)                    (** c.begin()[i], read *)
| HReserve (c : nat) (n : N)
| HInsert (c : nat) (r : ref)              (** insert(r) - begin() *)
| HPeek (c : nat)
| HPop (c : nat)
| HFind (c : nat) (r : ref)                (** find(r) - begin() *)
| HClear (c : nat).

Section heap.
  Context (A : alloc) (b sz : N) (T : elt).
  (** The comparators of the program (the states of the objects of type Comp), and operator== of T. *)
  Context (comp : nat -> value -> value -> bool) (eqv : value -> value -> bool).
  Local Notation env := (env A).
  Local Notation alloc_ := (te_alloc A b sz).
  Local Notation free_ := (te_free A b sz).
  Local Notation e_get := (e_get sz T).
  Local Notation e_set := (e_set sz T).
  Local Notation e_take := (e_take sz T).
  Local Notation e_mov := (e_mov sz T).
  Local Notation elem := (elem_addr sz).

  (** 461-467 *)
  Record heap := Heap { h_al : nat; h_cmp : nat; h_size : N; h_cap : N; h_beg : N }.

  (** Traits::construct(m_Alloc, q, src), Traits::construct(m_Alloc, q, std::move( *a)),
      Traits::destroy(m_Alloc, q) *)
  Definition construct (h : nat) (q : N) (src : place_of) (E : env) : M env :=
    te_cd A b Construct h q (v <- e_src sz T src ;; e_new sz T q v) E.
  Definition construct_move (h : nat) (q a : N) (E : env) : M env :=
    te_cd A b Construct h q (v <- e_take a ;; e_new sz T q v) E.
  Definition destroy (h : nat) (q : N) (E : env) : M env :=
    te_cd A b Destroy h q (e_del sz T q) E.

  (** Traits::deallocate(m_Alloc, p, n) of storage with [cap] elements, which has to be free of
      objects. *)
  Definition give_back (h : nat) (p cap n : N) (E : env) : M env :=
    obj_none p (cap * sz) ;;; free_ h p n E.

  (** 127-128, 150-151, 162-163, 202-203 *)
  Fixpoint copy_n (h : nat) (dst src : N) (n : nat) (E : env) : M env :=
    match n with
    | O => ret E
    | S n => E <- construct h dst (PAddr src) E ;; copy_n h (dst + sz) (src + sz) n E
    end.
  (** 383-384 *)
  Fixpoint move_n (h : nat) (dst src : N) (n : nat) (E : env) : M env :=
    match n with
    | O => ret E
    | S n => E <- construct_move h dst src E ;; move_n h (dst + sz) (src + sz) n E
    end.
  (** 178-179, 189-190, 213-214, 359-360, 387-388 *)
  Fixpoint destroy_n (h : nat) (p : N) (n : nat) (E : env) : M env :=
    match n with
    | O => ret E
    | S n => E <- destroy h p E ;; destroy_n h (p + sz) n E
    end.

  (** 173-183; also the first lines of both assignments *)
  Definition hrelease (x : heap) (E : env) : M env :=
    if h_beg x =? 0 then ret E
    else
      E <- destroy_n (h_al x) (h_beg x) (N.to_nat (h_size x)) E ;;
      give_back (h_al x) (h_beg x) (h_cap x) (h_cap x) E.

  (** 374-397 *)
  Definition hset_size (x : heap) (n : N) (E : env) : M (heap * env) :=
    let cur := N.min (h_size x) n in
    ' (p, E) <- alloc_ (h_al x) n E ;;
    E <- (if h_beg x =? 0 then ret E
          else
            E <- move_n (h_al x) p (h_beg x) (N.to_nat cur) E ;;
            E <- destroy_n (h_al x) (h_beg x) (N.to_nat (h_size x)) E ;;
            give_back (h_al x) (h_beg x) (h_cap x) (h_cap x) E) ;;
    ret (Heap (h_al x) (h_cmp x) cur n p, E).

  (** 366-372.  The event records the request before it is reduced to 64 bits. *)
  Definition hexpand (x : heap) (n : N) (E : env) : M (heap * env) :=
    let k := h_cap x + N.max (h_cap x) n in
    emit (EvReq (sz * k)) ;;; hset_size x (w64 k) E.

  (** 399-402; only called with a positive index *)
  Definition par (i : N) : N := (i - 1) / 2.
  (** 404-412 *)
  Definition lft (i : N) : N := w64 (i * 2 + 1).
  Definition rgt (i : N) : N := w64 (i * 2 + 2).

  (** 418-422; [i] is an upper bound for the number of iterations *)
  Fixpoint up_loop (fuel : nat) (q : nat) (p i : N) (v : value) : M N :=
    match fuel with
    | O => ubm UBLoop
    | S fuel =>
      if i =? 0 then ret i
      else
        y <- e_get (elem p (par i)) ;;
        if comp q v y then e_mov (elem p i) (elem p (par i)) ;;; up_loop fuel q p (par i) v
        else ret i
    end.
  (** 414-427 *)
  Definition percolate_up (q : nat) (p i : N) : M N :=
    v <- e_get (elem p i) ;;
    i' <- up_loop (S (N.to_nat i)) q p i v ;;
    e_set (elem p i') v ;;;
    ret i'.

  (** 442-443, 445-446 *)
  Definition pick (q : nat) (p n j c : N) : M N :=
    if j <? n then
      x <- e_get (elem p j) ;; y <- e_get (elem p c) ;; ret (if comp q x y then j else c)
    else ret c.
  (** 435-456 *)
  Fixpoint down_loop (fuel : nat) (q : nat) (p n i : N) : M N :=
    match fuel with
    | O => ubm UBLoop
    | S fuel =>
      if i <? n then
        c <- pick q p n (lft i) i ;;
        c <- pick q p n (rgt i) c ;;
        if c =? i then ret i
        else
          t <- e_take (elem p c) ;;
          e_mov (elem p c) (elem p i) ;;;
          e_set (elem p i) t ;;;
          down_loop fuel q p n c
      else ret i
    end.
  (** 429-459 *)
  Definition percolate_down (q : nat) (p n i : N) : M unit :=
    v <- e_get (elem p i) ;;
    i' <- down_loop (S (N.to_nat n)) q p n i ;;
    e_set (elem p i') v.

  (** 298-308 *)
  Definition hinsert (x : heap) (src : place_of) (E : env) : M (N * heap * env) :=
    ' (x, E) <- (if h_size x =? h_cap x then hexpand x 1 E else ret (x, E)) ;;
    E <- construct (h_al x) (elem (h_beg x) (h_size x)) src E ;;
    i <- percolate_up (h_cmp x) (h_beg x) (h_size x) ;;
    ret (i, Heap (h_al x) (h_cmp x) (h_size x + 1) (h_cap x) (h_beg x), E).

  (** 99-100, 116-117 *)
  Fixpoint insert_list (x : heap) (l : list value) (E : env) : M (heap * env) :=
    match l with
    | [] => ret (x, E)
    | v :: l => ' (_, x, E) <- hinsert x (PVal v) E ;; insert_list x l E
    end.

  (** 325-336 *)
  Definition hpop (x : heap) (E : env) : M (value * heap * env) :=
    ktl_assert (0 <? h_size x) ;;;
    root <- e_get (elem (h_beg x) 0) ;;
    let n := h_size x - 1 in
    e_mov (elem (h_beg x) 0) (elem (h_beg x) n) ;;;
    E <- destroy (h_al x) (elem (h_beg x) n) E ;;
    percolate_down (h_cmp x) (h_beg x) n 0 ;;;
    ret (root, Heap (h_al x) (h_cmp x) n (h_cap x) (h_beg x), E).

  (** 343-352 *)
  Fixpoint find_loop (src : place_of) (p : N) (i : N) (n : nat) : M N :=
    match n with
    | O => ret i
    | S n =>
      y <- e_get (elem p i) ;;
      v <- e_src sz T src ;;
      if eqv y v then ret i else find_loop src p (i + 1) n
    end.

  (** 285-289 *)
  Definition hreserve (x : heap) (n : N) (E : env) : M (heap * env) :=
    if h_cap x <? n then hset_size x n E else ret (x, E).

  (** 120-129, 143-152 *)
  Definition hcopy_of (h : nat) (other : heap) (E : env) : M (heap * env) :=
    ' (p, E) <- alloc_ h (h_size other) E ;;
    E <- copy_n h p (h_beg other) (N.to_nat (h_size other)) E ;;
    ret (Heap h (h_cmp other) (h_size other) (h_size other) p, E).

  Definition hget (c : nat) (vs : gmap nat heap) : heap := default (Heap 0 0 0 0 0) (vs !! c).

  Definition hlocate (r : ref) (vs : gmap nat heap) : place_of :=
    match r with
    | RVal x => PVal x
    | RElem c i => PAddr (elem (h_beg (hget c vs)) i)
    end.

  (** 185-206 after the release of the storage of *this; [other] is read again after each change
      of *this. *)
  Definition hassign (c src : nat) (s : env * gmap nat heap) : M (cobs * (env * gmap nat heap)) :=
    let '(E, vs) := s in
    let o := hget src vs in
    let vs := <[c := Heap (h_al o) (h_cmp o) (h_size o) (h_size o) (h_beg (hget c vs))]> vs in
    ' (p, E) <- alloc_ (h_al (hget c vs)) (h_cap (hget c vs)) E ;;
    let x := hget c vs in
    let vs := <[c := Heap (h_al x) (h_cmp x) (h_size x) (h_cap x) p]> vs in
    E <- copy_n (h_al x) p (h_beg (hget src vs)) (N.to_nat (h_size x)) E ;;
    ret (CUnit, (E, vs)).

  (** 208-230 after the release of the storage of *this *)
  Definition hmove_assign (c src : nat) (s : env * gmap nat heap) : M (cobs * (env * gmap nat heap)) :=
    let '(E, vs) := s in
    let vs := <[c := hget src vs]> vs in
    let o := hget src vs in
    ret (CUnit, (E, <[src := Heap (h_al o) (h_cmp o) 0 0 0]> vs)).

  Definition hdo (o : hop) (s : env * gmap nat heap) : M (cobs * (env * gmap nat heap)) :=
    let '(E, vs) := s in
    let get c := hget c vs in
    match o with
    | HNew c q h => (* 43-60 *) ret (CUnit, (E, <[c := Heap h q 0 0 0]> vs))
    | HNewCap c n q h => (* 67-85 *) ' (p, E) <- alloc_ h n E ;; ret (CUnit, (E, <[c := Heap h q 0 n p]> vs))
    | HNewList c l q h => (* 92-118 *)
      ' (p, E) <- alloc_ h (N.of_nat (length l)) E ;;
      ' (x, E) <- insert_list (Heap h q 0 (N.of_nat (length l)) p) l E ;;
      ret (CUnit, (E, <[c := x]> vs))
    | HCopy c src => (* 120-129 *)
      ' (x, E) <- hcopy_of (h_al (get src)) (get src) E ;; ret (CUnit, (E, <[c := x]> vs))
    | HMove c src => (* 131-141 *)
      let o := get src in
      ret (CUnit, (E, <[src := Heap (h_al o) (h_cmp o) 0 0 0]> (<[c := o]> vs)))
    | HCopyAl c src h => (* 143-152 *)
      ' (x, E) <- hcopy_of h (get src) E ;; ret (CUnit, (E, <[c := x]> vs))
    | HMoveAl c src h => (* 154-171; line 163 copies, line 166 passes m_Capacity * sizeof(T) *)
      let o := get src in
      ' (x, E) <- hcopy_of h o E ;;
      E <- (if h_beg o =? 0 then ret E else give_back (h_al o) (h_beg o) (h_cap o) (mul64 (h_cap o) sz) E) ;;
      ret (CUnit, (E, <[src := Heap (h_al o) (h_cmp o) 0 0 0]> (<[c := x]> vs)))
    | HDestroy c => (* 173-183 *) E <- hrelease (get c) E ;; ret (CUnit, (E, delete c vs))
    | HAssign c src => (* 185-206 *) E <- hrelease (get c) E ;; hassign c src (E, vs)
    | HMoveAssign c src => (* 208-230 *) E <- hrelease (get c) E ;; hmove_assign c src (E, vs)
    | HSize c => (* 266 *) ret (CNum (h_size (get c)), (E, vs))
    | HCap c => (* 272 *) ret (CNum (h_cap (get c)), (E, vs))
    | HEmpty c => (* 278 *) ret (CBool (h_size (get c) =? 0), (E, vs))
    | HData c => (* 233, 254 *) ret (CPtr (h_beg (get c)), (E, vs))
    | HAt c i => v <- e_get (elem (h_beg (get c)) i) ;; ret (CVal (Some v), (E, vs))
    | HReserve c n => ' (x, E) <- hreserve (get c) n E ;; ret (CUnit, (E, <[c := x]> vs))
    | HInsert c r =>
      ' (i, x, E) <- hinsert (get c) (hlocate r vs) E ;; ret (CNum i, (E, <[c := x]> vs))
    | HPeek c => (* 314-319 *)
      ktl_assert (0 <? h_size (get c)) ;;;
      v <- e_get (elem (h_beg (get c)) 0) ;; ret (CVal (Some v), (E, vs))
    | HPop c => ' (v, x, E) <- hpop (get c) E ;; ret (CVal (Some v), (E, <[c := x]> vs))
    | HFind c r =>
      i <- find_loop (hlocate r vs) (h_beg (get c)) 0 (N.to_nat (h_size (get c))) ;; ret (CNum i, (E, vs))
    | HClear c => (* 357-363 *)
      let x := get c in
      E <- destroy_n (h_al x) (h_beg x) (N.to_nat (h_size x)) E ;;
      ret (CUnit, (E, <[c := Heap (h_al x) (h_cmp x) 0 (h_cap x) (h_beg x)]> vs))
    end.

  (** The argument [allocator] of a constructor. *)
  Definition h_arg (o : hop) : option nat :=
    match o with
    | HNew _ _ h | HNewCap _ _ _ h | HNewList _ _ _ h | HCopyAl _ _ h | HMoveAl _ _ h => Some h
    | _ => None
    end.

  (** Exclusions that are not self-evident: moving into another allocator (unless nothing is
      allocated, or sizeof(T) = 1 and there are no objects, see C42), self-assignment of a
      non-empty heap (C43), insertion of an own element if the heap must grow (C44), popping the
      last element if the type is not trivial (C50). *)
  Definition hlegal (k : nat) (m : gmap nat info) (o : hop) : bool :=
    let has := has m in
    let size c := i_size (look m c) in
    match o with
    | HNew c _ h | HNewCap c _ _ h | HNewList c _ _ h => new_name k m c h
    | HCopy c src | HMove c src => negb (has c) && has src
    | HCopyAl c src h => new_name k m c h && has src
    | HMoveAl c src h =>
      new_name k m c h && has src &&
      ((i_data (look m src) =? 0) || (sz =? 1) && (e_triv T || (size src =? 0)))
    | HAssign c src => has c && has src && (negb (bool_decide (c = src)) || (size c =? 0))
    | HMoveAssign c src => has c && has src
    | HDestroy c | HSize c | HCap c | HEmpty c | HData c | HReserve c _ | HClear c => has c
    | HAt c i => has c && (i <? size c)
    | HPeek c => has c && (0 <? size c)
    | HPop c => has c && (0 <? size c) && (e_triv T || (1 <? size c))
    | HInsert c r =>
      has c && ok_ref m r && match r with RElem c' _ => negb (bool_decide (c' = c)) || room m c 1 | _ => true end
    | HFind c r => has c && ok_ref m r
    end.

  Definition h_info (x : heap) : info := Info (h_size x) (h_cap x) (h_beg x).

  Definition hstep (k : nat) (o : hop) (s : env * gmap nat heap) : M (cobs * (env * gmap nat heap)) :=
    if hlegal k (h_info <$> snd s) o then hdo o s else ret (CUnit, s).
End heap.

(** * Specification: a bag of values, kept in an array

    Which arrangement the implementation chooses is left open, except that a smallest element comes
    first if the comparator is a strict weak order. *)
Record sheap := SHeap { p_al : nat; p_cmp : nat; p_l : list value; p_cap : N; p_data : N }.

Definition p_len (x : sheap) : N := N.of_nat (length (p_l x)).
Definition p_info (x : sheap) : info := Info (p_len x) (p_cap x) (p_data x).
Definition p_get (c : nat) (m : gmap nat sheap) : sheap := default (SHeap 0 0 [] 0 0) (m !! c).
Definition p_emptied (x : sheap) : sheap := SHeap (p_al x) (p_cmp x) [] 0 0.
Definition p_val (r : ref) (m : gmap nat sheap) : value :=
  match r with
  | RVal x => x
  | RElem c i => default Moved (p_l (p_get c m) !! N.to_nat i)
  end.

(** Which comparators promise an order: all strict weak orders, unless said otherwise (HeapPtr.v). *)
Class order (comp : nat -> value -> value -> bool) :=
  Order { sorts : nat -> Prop; sorts_weak : forall q, sorts q -> strict_weak (comp q) }.
Global Instance all_sort comp : order comp | 100 := Order comp (fun q => strict_weak (comp q)) (fun q H => H).

Section check.
  Context (sz : N) (T : elt) (comp : nat -> value -> value -> bool) {ord : order comp} (eqv : value -> value -> bool) (k : nat).

  Definition p_ok (x : sheap) : Prop :=
    p_len x <= p_cap x /\ p_data x mod 16 = 0 /\ (p_data x = 0 -> p_cap x = 0) /\
    (sorts (p_cmp x) -> forall y z, p_l x !! 0%nat = Some z -> y ∈ p_l x -> comp (p_cmp x) y z = false).

  (** A new heap: exactly that much storage, elements as required by [L]. *)
  Definition p_born (c h q : nat) (L : list value -> Prop) (m m' : gmap nat sheap) : Prop :=
    exists x, m' = <[c := x]> m /\ p_ok x /\ p_al x = h /\ p_cmp x = q /\ L (p_l x) /\ p_cap x = p_len x.
  (** A modified heap; it has moved only if there was no room for [n] elements, and then has room for [r]. *)
  Definition p_become (c : nat) (n r : N) (L : list value -> Prop) (m m' : gmap nat sheap) : Prop :=
    exists x', let x := p_get c m in
      m' = <[c := x']> m /\ p_ok x' /\ p_al x' = p_al x /\ p_cmp x' = p_cmp x /\ L (p_l x') /\
      if n <=? p_cap x then p_cap x' = p_cap x /\ p_data x' = p_data x else r <= p_cap x'.

  (** The first position of a value equal to [v], or the length. *)
  Definition first_equal (v : value) (l : list value) (i : N) : Prop :=
    (forall j y, j < i -> l !! N.to_nat j = Some y -> eqv y v = false) /\
    (i = N.of_nat (length l) \/ exists y, l !! N.to_nat i = Some y /\ eqv y v = true).

  Definition hcheck_do (o : hop) (ob : cobs) (m m' : gmap nat sheap) : Prop :=
    let get c := p_get c m in
    match o with
    | HNew c q h => ob = CUnit /\ m' = <[c := SHeap h q [] 0 0]> m
    | HNewCap c n q h =>
      ob = CUnit /\ exists x, m' = <[c := x]> m /\ p_ok x /\ p_al x = h /\ p_cmp x = q /\ p_l x = [] /\ p_cap x = n
    | HNewList c l q h => ob = CUnit /\ p_born c h q (fun l' => l' ≡ₚ l) m m'
    | HCopy c src => ob = CUnit /\ p_born c (p_al (get src)) (p_cmp (get src)) (eq (p_l (get src))) m m'
    | HMove c src => ob = CUnit /\ m' = <[src := p_emptied (get src)]> (<[c := get src]> m)
    | HCopyAl c src h => ob = CUnit /\ p_born c h (p_cmp (get src)) (eq (p_l (get src))) m m'
    | HMoveAl c src h =>
      ob = CUnit /\ exists m1, p_born c h (p_cmp (get src)) (eq (p_l (get src))) m m1 /\ m' = <[src := p_emptied (get src)]> m1
    | HDestroy c => ob = CUnit /\ m' = delete c m
    | HAssign c src => ob = CUnit /\ p_born c (p_al (get src)) (p_cmp (get src)) (eq (p_l (get src))) m m'
    | HMoveAssign c src => ob = CUnit /\ m' = <[src := p_emptied (get src)]> (<[c := get src]> m)
    | HSize c => m' = m /\ ob = CNum (p_len (get c))
    | HCap c => m' = m /\ ob = CNum (p_cap (get c))
    | HEmpty c => m' = m /\ ob = CBool (p_len (get c) =? 0)
    | HData c => m' = m /\ ob = CPtr (p_data (get c))
    | HAt c i => m' = m /\ exists v, p_l (get c) !! N.to_nat i = Some v /\ ob = CVal (Some v)
    | HReserve c n => ob = CUnit /\ p_become c n n (eq (p_l (get c))) m m'
    | HInsert c r =>
      exists i, ob = CNum i /\
      p_become c (p_len (get c) + 1) (N.max (p_len (get c) + 1) (2 * p_cap (get c)))
        (fun l' => l' ≡ₚ p_val r m :: p_l (get c) /\ l' !! N.to_nat i = Some (p_val r m)) m m'
    | HPeek c => m' = m /\ exists v, p_l (get c) !! 0%nat = Some v /\ ob = CVal (Some v)
    | HPop c =>
      exists v, p_l (get c) !! 0%nat = Some v /\ ob = CVal (Some v) /\
      p_become c 0 0 (fun l' => v :: l' ≡ₚ p_l (get c)) m m'
    | HFind c r => m' = m /\ exists i, ob = CNum i /\ first_equal (p_val r m) (p_l (get c)) i
    | HClear c => ob = CUnit /\ p_become c 0 0 (eq []) m m'
    end.

  Definition hcheck (o : hop) (ob : cobs) (m m' : gmap nat sheap) : Prop :=
    if hlegal sz T k (p_info <$> m) o then hcheck_do o ob m m' else ob = CUnit /\ m' = m.
End check.
