(** containers/trivial_vector.h.

    emplace (376-387) and pop_back (427) do not compile when used (assignment through a const
    pointer; subscript by a pointer) and have no model.  Iterators are pointers; a program sees them
    as indices. *)
From Verif Require Import Base Mem Allocators Env.

(** Programs; containers are named by numbers, [h] is the index of an allocator. *)
Inductive vop :=
| VNew (c h : nat)                         (** trivial_vector c(h); *)
| VNewN (c : nat) (n : N) (h : nat)        (** c(n, h) *)
| VNewFill (c : nat) (n : N) (r : ref) (h : nat)  (** c(n, r, h) *)
| VNewList (c : nat) (l : list value) (h : nat)   (** c({...}, h) *)
| VNewRange (c : nat) (g : range) (h : nat)       (** c(first, last, h) *)
| VCopy (c src : nat)                      (** c(src) *)
| VMove (c src : nat)                      (** c(std::move(src)) *)
| VCopyAl (c src h : nat)                  (** c(src, h) *)
| VMoveAl (c src h : nat)                  (** c(std::move(src), h) *)
| VDestroy (c : nat)
| VAssign (c src : nat)                    (** c = src *)
| VMoveAssign (c src : nat)                (** c = std::move(src) *)
| VGet (c : nat) (i : N)                   (** c[i] or c.at(i), read *)
| VSet (c : nat) (i : N) (r : ref)         (** c[i] = r *)
| VSize (c : nat) | VCap (c : nat) | VEmpty (c : nat) | VData (c : nat)
| VResize (c : nat) (n : N)
| VReserve (c : nat) (n : N)
| VPush (c : nat) (r : ref)                (** push_back(r) - begin(), also emplace_back *)
| VPushRange (c : nat) (g : range)         (** push_back(first, last) - begin() *)
| VErase (c : nat) (i : N)                 (** erase(begin() + i) - begin() *)
| VEraseRange (c : nat) (i j : N)          (** erase(begin() + i, begin() + j) - begin() *)
| VClear (c : nat).

Section vector.
  Context (A : alloc) (b sz : N).
  Local Notation env := (env A).
  Local Notation alloc_ := (te_alloc A b sz).
  Local Notation free_ := (te_free A b sz).

  (** * The code *)

  (** 461-465 *)
  Record vec := Vec { v_al : nat; v_beg : N; v_end : N; v_max : N }.

  (** 245, 251 *)
  Definition v_size (v : vec) : N := (v_end v - v_beg v) / sz.
  Definition v_cap (v : vec) : N := (v_max v - v_beg v) / sz.

  (** 443-458 *)
  Definition set_size (v : vec) (n : N) (E : env) : M (vec * env) :=
    let cur := N.min (v_size v) n in
    ' (p, E) <- alloc_ (v_al v) n E ;;
    E <- (if v_beg v =? 0 then ret E
          else memcpy p (v_beg v) (cur * sz) ;;; free_ (v_al v) (v_beg v) (v_cap v) E) ;;
    ret (Vec (v_al v) p (p + cur * sz) (p + n * sz), E).

  (** 435-441.  The event records the request before it is reduced to 64 bits. *)
  Definition expand (v : vec) (n : N) (E : env) : M (vec * env) :=
    let k := v_cap v + N.max (v_cap v / 2) n in
    emit (EvReq (sz * k)) ;;; set_size v (w64 k) E.

  (** 60-64 *)
  Definition new_n (h : nat) (n : N) (E : env) : M (vec * env) :=
    ' (p, E) <- alloc_ h n E ;; ret (Vec h p (p + n * sz) (p + n * sz), E).

  (** std::uninitialized_fill_n *)
  Fixpoint fill_n (p : N) (n : nat) (src : place_of) : M unit :=
    match n with
    | O => ret tt
    | S n => assign sz p src ;;; fill_n (p + sz) n src
    end.

  (** 92-97 *)
  Fixpoint store_list (p : N) (l : list value) : M unit :=
    match l with
    | [] => ret tt
    | x :: l => assign sz p (PVal x) ;;; store_list (p + sz) l
    end.

  (** 116-124, 137-145 *)
  Definition copy_of (h : nat) (other : vec) (E : env) : M (vec * env) :=
    ' (v, E) <- new_n h (v_size other) E ;;
    (if v_beg other =? 0 then ret tt else memcpy (v_beg v) (v_beg other) (v_size other * sz)) ;;;
    ret (v, E).

  (** 166-170; also the first lines of both assignments *)
  Definition release (v : vec) (E : env) : M env :=
    if v_beg v =? 0 then ret E else free_ (v_al v) (v_beg v) (v_cap v) E.

  (** 285-291 *)
  Definition resize (v : vec) (n : N) (E : env) : M (vec * env) :=
    ' (v, E) <- (if v_cap v <? n then expand v (n - v_cap v) E else ret (v, E)) ;;
    ret (Vec (v_al v) (v_beg v) (v_beg v + n * sz) (v_max v), E).

  (** 297-301 *)
  Definition reserve (v : vec) (n : N) (E : env) : M (vec * env) :=
    if v_cap v <? n then set_size v n E else ret (v, E).

  (** 308-315, 322-329, 359-366; the result is a pointer *)
  Definition push_back (v : vec) (src : place_of) (E : env) : M (N * vec * env) :=
    ' (v, E) <- (if v_end v =? v_max v then expand v 1 E else ret (v, E)) ;;
    assign sz (v_end v) src ;;;
    ret (v_end v, Vec (v_al v) (v_beg v) (v_end v + sz) (v_max v), E).

  (** 337-350 *)
  Definition push_back_range (v : vec) (src : array_of) (E : env) : M (N * vec * env) :=
    let n := array_length src in
    ' (v, E) <- (if (v_max v - v_end v) / sz <? n then expand v n E else ret (v, E)) ;;
    copy_in sz (v_end v) src ;;;
    ret (v_end v, Vec (v_al v) (v_beg v) (v_end v + n * sz) (v_max v), E).

  (** 394-403 *)
  Definition erase (v : vec) (it : N) : M (N * vec) :=
    ktl_assert ((v_beg v <=? it) && (it <? v_end v)) ;;;
    memmove it (it + sz) (((v_end v - it) / sz - 1) * sz) ;;;
    ret (it, Vec (v_al v) (v_beg v) (v_end v - sz) (v_max v)).

  (** 411-421 *)
  Definition erase_range (v : vec) (first last : N) : M (N * vec) :=
    ktl_assert (first <=? last) ;;;
    ktl_assert ((v_beg v <=? first) && (last <=? v_end v)) ;;;
    memmove first last ((v_end v - last) / sz * sz) ;;;
    ret (first, Vec (v_al v) (v_beg v) (v_end v - (last - first)) (v_max v)).

  (** * Programs *)
  Definition get_ (c : nat) (vs : gmap nat vec) : vec := default (Vec 0 0 0 0) (vs !! c).

  Definition index_of (v : vec) (it : N) : N := (it - v_beg v) / sz.

  Definition locate (r : ref) (vs : gmap nat vec) : place_of :=
    match r with
    | RVal x => PVal x
    | RElem c i => PAddr (elem_addr sz (v_beg (get_ c vs)) i)
    end.
  Definition locate_range (g : range) (vs : gmap nat vec) : array_of :=
    match g with
    | GVals l => QVals l
    | GElems c i j => QAddr (elem_addr sz (v_beg (get_ c vs)) i) (j - i)
    end.

  (** 172-189 after the release of the storage of *this; [other] is read again after each change
      of *this. *)
  Definition vassign (c src : nat) (q : env * gmap nat vec) : M (cobs * (env * gmap nat vec)) :=
    let '(E, vs) := q in
    let v := get_ c vs in
    let vs := <[c := Vec (v_al (get_ src vs)) (v_beg v) (v_end v) (v_max v)]> vs in
    let n := v_size (get_ src vs) in
    ' (p, E) <- alloc_ (v_al (get_ c vs)) n E ;;
    let vs := <[c := Vec (v_al (get_ c vs)) p (p + n * sz) (p + n * sz)]> vs in
    memcpy p (v_beg (get_ src vs)) (n * sz) ;;;
    ret (CUnit, (E, vs)).

  (** 191-205 after the release of the storage of *this *)
  Definition vmove_assign (c src : nat) (q : env * gmap nat vec) : M (cobs * (env * gmap nat vec)) :=
    let '(E, vs) := q in
    let vs := <[c := get_ src vs]> vs in
    ret (CUnit, (E, <[src := Vec (v_al (get_ src vs)) 0 0 0]> vs)).

  Definition vdo (o : vop) (q : env * gmap nat vec) : M (cobs * (env * gmap nat vec)) :=
    let '(E, vs) := q in
    let get c := get_ c vs in
    match o with
    | VNew c h => (* 39-53 *) ret (CUnit, (E, <[c := Vec h 0 0 0]> vs))
    | VNewN c n h => (* 60-64 *) ' (v, E) <- new_n h n E ;; ret (CUnit, (E, <[c := v]> vs))
    | VNewFill c n r h => (* 72-79 *)
      ' (v, E) <- new_n h n E ;; fill_n (v_beg v) (N.to_nat n) (locate r vs) ;;; ret (CUnit, (E, <[c := v]> vs))
    | VNewList c l h => (* 86-98 *)
      ' (v, E) <- new_n h (N.of_nat (length l)) E ;; store_list (v_beg v) l ;;; ret (CUnit, (E, <[c := v]> vs))
    | VNewRange c g h => (* 106-114 *)
      let src := locate_range g vs in
      ' (v, E) <- new_n h (array_length src) E ;; copy_in sz (v_beg v) src ;;; ret (CUnit, (E, <[c := v]> vs))
    | VCopy c src => (* 116-124 *)
      ' (v, E) <- copy_of (v_al (get src)) (get src) E ;; ret (CUnit, (E, <[c := v]> vs))
    | VMove c src => (* 126-135 *)
      let o := get src in
      ret (CUnit, (E, <[src := Vec (v_al o) 0 0 0]> (<[c := o]> vs)))
    | VCopyAl c src h => (* 137-145 *)
      ' (v, E) <- copy_of h (get src) E ;; ret (CUnit, (E, <[c := v]> vs))
    | VMoveAl c src h => (* 147-164; line 158 passes capacity() * sizeof(T) *)
      let o := get src in
      ' (v, E) <- new_n h (v_size o) E ;;
      E <- (if v_beg o =? 0 then ret E
            else memcpy (v_beg v) (v_beg o) (v_size o * sz) ;;; free_ (v_al o) (v_beg o) (mul64 (v_cap o) sz) E) ;;
      ret (CUnit, (E, <[src := Vec (v_al o) 0 0 0]> (<[c := v]> vs)))
    | VDestroy c => (* 166-170 *) E <- release (get c) E ;; ret (CUnit, (E, delete c vs))
    | VAssign c src => (* 172-189 *) E <- release (get c) E ;; vassign c src (E, vs)
    | VMoveAssign c src => (* 191-205 *) E <- release (get c) E ;; vmove_assign c src (E, vs)
    | VGet c i => (* 213, 221, 278 *)
      let v := get c in
      ktl_assert (i <? v_size v) ;;;
      cs <- rds (elem_addr sz (v_beg v) i) (N.to_nat sz) ;;
      ret (CVal (unchunk (N.to_nat sz) cs), (E, vs))
    | VSet c i r =>
      let v := get c in
      ktl_assert (i <? v_size v) ;;;
      assign sz (elem_addr sz (v_beg v) i) (locate r vs) ;;;
      ret (CUnit, (E, vs))
    | VSize c => ret (CNum (v_size (get c)), (E, vs))
    | VCap c => ret (CNum (v_cap (get c)), (E, vs))
    | VEmpty c => ret (CBool (v_beg (get c) =? v_end (get c)), (E, vs))
    | VData c => ret (CPtr (v_beg (get c)), (E, vs))
    | VResize c n => ' (v, E) <- resize (get c) n E ;; ret (CUnit, (E, <[c := v]> vs))
    | VReserve c n => ' (v, E) <- reserve (get c) n E ;; ret (CUnit, (E, <[c := v]> vs))
    | VPush c r =>
      ' (it, v, E) <- push_back (get c) (locate r vs) E ;; ret (CNum (index_of v it), (E, <[c := v]> vs))
    | VPushRange c g =>
      ' (it, v, E) <- push_back_range (get c) (locate_range g vs) E ;; ret (CNum (index_of v it), (E, <[c := v]> vs))
    | VErase c i =>
      ' (it, v) <- erase (get c) (elem_addr sz (v_beg (get c)) i) ;; ret (CNum (index_of v it), (E, <[c := v]> vs))
    | VEraseRange c i j =>
      ' (it, v) <- erase_range (get c) (elem_addr sz (v_beg (get c)) i) (elem_addr sz (v_beg (get c)) j) ;;
      ret (CNum (index_of v it), (E, <[c := v]> vs))
    | VClear c =>
      let v := get c in
      ret (CUnit, (E, <[c := Vec (v_al v) (v_beg v) (v_beg v) (v_max v)]> vs))
    end.

  (** * Which programs

      Names are used for one container at a time, indices are within range, an allocator exists.
      The exclusions that are not self-evident are the subject of C42, C43 and C44: moving into
      another allocator (unless nothing is allocated or sizeof(T) = 1), self-assignment of a
      non-empty vector, appending an own element or range if the vector must grow. *)
  Section legal.
    Context (k : nat) (m : gmap nat info).
    Definition has (c : nat) : bool := bool_decide (is_Some (m !! c)).
    Definition look (c : nat) : info := default (Info 0 0 0) (m !! c).
    Definition ok_ref (r : ref) : bool :=
      match r with RVal _ => true | RElem c i => has c && (i <? i_size (look c)) end.
    Definition ok_range (g : range) : bool :=
      match g with GVals _ => true | GElems c i j => has c && (i <=? j) && (j <=? i_size (look c)) end.
    Definition room (c : nat) (n : N) : bool := i_size (look c) + n <=? i_cap (look c).
    Definition new_name (c h : nat) : bool := negb (has c) && (h <? k)%nat.

    (** The argument [allocator] of a constructor. *)
    Definition v_arg (o : vop) : option nat :=
      match o with
      | VNew _ h | VNewN _ _ h | VNewFill _ _ _ h | VNewList _ _ h | VNewRange _ _ h | VCopyAl _ _ h | VMoveAl _ _ h => Some h
      | _ => None
      end.

    Definition vlegal (o : vop) : bool :=
      match o with
      | VNew c h | VNewN c _ h | VNewList c _ h => new_name c h
      | VNewFill c _ r h => new_name c h && ok_ref r
      | VNewRange c g h => new_name c h && ok_range g
      | VCopy c src | VMove c src => negb (has c) && has src
      | VCopyAl c src h => new_name c h && has src
      | VMoveAl c src h => new_name c h && has src && ((sz =? 1) || (i_data (look src) =? 0))
      | VAssign c src => has c && has src && (negb (bool_decide (c = src)) || (i_size (look c) =? 0))
      | VMoveAssign c src => has c && has src
      | VDestroy c | VSize c | VCap c | VEmpty c | VData c | VResize c _ | VReserve c _ | VClear c => has c
      | VGet c i | VErase c i => has c && (i <? i_size (look c))
      | VSet c i r => has c && (i <? i_size (look c)) && ok_ref r
      | VPush c r =>
        has c && ok_ref r && match r with RElem c' _ => negb (bool_decide (c' = c)) || room c 1 | _ => true end
      | VPushRange c g =>
        has c && ok_range g && match g with GElems c' i j => negb (bool_decide (c' = c)) || room c (j - i) | _ => true end
      | VEraseRange c i j => has c && (i <=? j) && (j <=? i_size (look c))
      end.
  End legal.

  Definition v_info (v : vec) : info := Info (v_size v) (v_cap v) (v_beg v).

  (** Operations that are not allowed are left out. *)
  Definition vstep (k : nat) (o : vop) (q : env * gmap nat vec) : M (cobs * (env * gmap nat vec)) :=
    if vlegal k (v_info <$> snd q) o then vdo o q else ret (CUnit, q).
End vector.

(** * Specification: lists

    An element is [None] if its value is indeterminate.  capacity() and data() are whatever the
    implementation chooses, within the rules given below. *)
Record svec := SVec { s_al : nat; s_l : list (option value); s_cap : N; s_data : N }.

Definition s_len (x : svec) : N := N.of_nat (length (s_l x)).
Definition s_info (x : svec) : info := Info (s_len x) (s_cap x) (s_data x).

(** No more elements than capacity; storage is aligned; no storage, no elements. *)
Definition s_ok (x : svec) : Prop :=
  s_len x <= s_cap x /\ s_data x mod 16 = 0 /\ (s_data x = 0 -> s_cap x = 0).

(** Room for [n] elements: nothing moves if there is enough capacity, otherwise there is room for
    [r] elements. *)
Definition stable (n r : N) (x x' : svec) : Prop :=
  if n <=? s_cap x then s_cap x' = s_cap x /\ s_data x' = s_data x else r <= s_cap x'.
(** Growth by half at least. *)
Definition amply (n : N) (x : svec) : N := N.max n (s_cap x + s_cap x / 2).

Section check.
  Context (sz : N) (k : nat).

  Definition s_get (c : nat) (m : gmap nat svec) : svec := default (SVec 0 [] 0 0) (m !! c).

  Definition val_of (r : ref) (m : gmap nat svec) : option value :=
    match r with
    | RVal x => Some x
    | RElem c i => default None (s_l (s_get c m) !! N.to_nat i)
    end.
  Definition vals_of (g : range) (m : gmap nat svec) : list (option value) :=
    match g with
    | GVals l => map Some l
    | GElems c i j => take (N.to_nat (j - i)) (drop (N.to_nat i) (s_l (s_get c m)))
    end.

  (** Container [c] now has the elements [l], and exactly that much storage. *)
  Definition born (c h : nat) (l : list (option value)) (m m' : gmap nat svec) : Prop :=
    exists x, m' = <[c := x]> m /\ s_ok x /\ s_al x = h /\ s_l x = l /\ s_cap x = s_len x.
  (** [c] has the elements [l]; it has moved only if there was no room. *)
  Definition become (c : nat) (n r : N) (l : list (option value)) (m m' : gmap nat svec) : Prop :=
    exists x', m' = <[c := x']> m /\ s_ok x' /\ s_al x' = s_al (s_get c m) /\ s_l x' = l /\ stable n r (s_get c m) x'.
  Definition emptied (x : svec) : svec := SVec (s_al x) [] 0 0.

  Definition vcheck_do (o : vop) (ob : cobs) (m m' : gmap nat svec) : Prop :=
    let get c := s_get c m in
    match o with
    | VNew c h => ob = CUnit /\ m' = <[c := SVec h [] 0 0]> m
    | VNewN c n h => ob = CUnit /\ born c h (repeat None (N.to_nat n)) m m'
    | VNewFill c n r h => ob = CUnit /\ born c h (repeat (val_of r m) (N.to_nat n)) m m'
    | VNewList c l h => ob = CUnit /\ born c h (map Some l) m m'
    | VNewRange c g h => ob = CUnit /\ born c h (vals_of g m) m m'
    | VCopy c src => ob = CUnit /\ born c (s_al (get src)) (s_l (get src)) m m'
    | VMove c src => ob = CUnit /\ m' = <[src := emptied (get src)]> (<[c := get src]> m)
    | VCopyAl c src h => ob = CUnit /\ born c h (s_l (get src)) m m'
    | VMoveAl c src h =>
      ob = CUnit /\ exists m1, born c h (s_l (get src)) m m1 /\ m' = <[src := emptied (get src)]> m1
    | VDestroy c => ob = CUnit /\ m' = delete c m
    | VAssign c src => ob = CUnit /\ born c (s_al (get src)) (s_l (get src)) m m'
    | VMoveAssign c src => ob = CUnit /\ m' = <[src := emptied (get src)]> (<[c := get src]> m)
    | VGet c i =>
      m' = m /\ exists r, ob = CVal r /\ forall x, s_l (get c) !! N.to_nat i = Some (Some x) -> r = Some x
    | VSet c i r =>
      let x := get c in
      ob = CUnit /\ m' = <[c := SVec (s_al x) (<[N.to_nat i := val_of r m]> (s_l x)) (s_cap x) (s_data x)]> m
    | VSize c => m' = m /\ ob = CNum (s_len (get c))
    | VCap c => m' = m /\ ob = CNum (s_cap (get c))
    | VEmpty c => m' = m /\ ob = CBool (s_len (get c) =? 0)
    | VData c => m' = m /\ ob = CPtr (s_data (get c))
    | VResize c n =>
      ob = CUnit /\ become c n (amply n (get c)) (take (N.to_nat n) (s_l (get c)) ++ repeat None (N.to_nat (n - s_len (get c)))) m m'
    | VReserve c n => ob = CUnit /\ become c n n (s_l (get c)) m m'
    | VPush c r => ob = CNum (s_len (get c)) /\ become c (s_len (get c) + 1) (amply (s_len (get c) + 1) (get c)) (s_l (get c) ++ [val_of r m]) m m'
    | VPushRange c g =>
      ob = CNum (s_len (get c)) /\
      become c (s_len (get c) + N.of_nat (length (vals_of g m)))
        (amply (s_len (get c) + N.of_nat (length (vals_of g m))) (get c)) (s_l (get c) ++ vals_of g m) m m'
    | VErase c i => ob = CNum i /\ become c 0 0 (delete (N.to_nat i) (s_l (get c))) m m'
    | VEraseRange c i j =>
      ob = CNum i /\ become c 0 0 (take (N.to_nat i) (s_l (get c)) ++ drop (N.to_nat j) (s_l (get c))) m m'
    | VClear c => ob = CUnit /\ become c 0 0 [] m m'
    end.

  Definition vcheck (o : vop) (ob : cobs) (m m' : gmap nat svec) : Prop :=
    if vlegal sz k (s_info <$> m) o then vcheck_do o ob m m' else ob = CUnit /\ m' = m.
End check.
