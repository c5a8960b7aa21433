(** containers/trivial_array.h. *)
From Verif Require Import Base Mem Allocators Env Vector.

Inductive aop :=
| ANew (c h : nat)                         (** trivial_array c(h); *)
| ANewN (c : nat) (n : N) (h : nat)        (** c(n, h) *)
| ANewFill (c : nat) (n : N) (r : ref) (h : nat)  (** c(n, r, h) *)
| ANewList (c : nat) (l : list value) (h : nat)   (** c({...}, h) *)
| ANewRange (c : nat) (g : range) (h : nat)       (** c(first, last, h) *)
| ACopy (c src : nat)                      (** c(src) *)
| AMove (c src : nat)                      (** c(std::move(src)) *)
| ACopyAl (c src h : nat)                  (** c(src, h) *)
| AMoveAl (c src h : nat)                  (** c(std::move(src), h) *)
| ADestroy (c : nat)
| AAssign (c src : nat)                    (** c = src *)
| AMoveAssign (c src : nat)                (** c = std::move(src) *)
| AGet (c : nat) (i : N)                   (** c[i] or c.at(i), read *)
| ASet (c : nat) (i : N) (r : ref)         (** c[i] = r *)
| ASize (c : nat) | AEmpty (c : nat) | AData (c : nat)
| AResize (c : nat) (n : N)
| AFrom (c : nat) (g : range).             (** c.assign(first, last) *)

Section array.
  Context (A : alloc) (b sz : N).
  Local Notation env := (env A).
  Local Notation alloc_ := (te_alloc A b sz).
  Local Notation free_ := (te_free A b sz).

  (** 305-308 *)
  Record arr := Arr { r_alc : nat; r_beg : N; r_end : N }.

  (** 230 *)
  Definition r_size (v : arr) : N := (r_end v - r_beg v) / sz.

  (** 58-61 *)
  Definition anew_n (h : nat) (n : N) (E : env) : M (arr * env) :=
    ' (p, E) <- alloc_ h n E ;; ret (Arr h p (p + n * sz), E).

  (** 110-117, 128-135 *)
  Definition acopy_of (h : nat) (other : arr) (E : env) : M (arr * env) :=
    ' (v, E) <- anew_n h (r_size other) E ;;
    (if r_beg other =? 0 then ret tt else memcpy (r_beg v) (r_beg other) (r_size other * sz)) ;;;
    ret (v, E).

  (** 154-158; also the first lines of both assignments *)
  Definition arelease (v : arr) (E : env) : M env :=
    if r_beg v =? 0 then ret E else free_ (r_alc v) (r_beg v) (r_size v) E.

  (** 264-280 *)
  Definition aresize (v : arr) (n : N) (E : env) : M (arr * env) :=
    if r_size v =? n then ret (v, E)
    else
      let cur := r_size v in
      ' (p, E) <- alloc_ (r_alc v) n E ;;
      E <- (if r_beg v =? 0 then ret E
            else memcpy p (r_beg v) (N.min cur n * sz) ;;; free_ (r_alc v) (r_beg v) cur E) ;;
      ret (Arr (r_alc v) p (p + n * sz), E).

  (** 287-303 *)
  Definition afrom (v : arr) (src : array_of) (E : env) : M (arr * env) :=
    let n := array_length src in
    ' (v, E) <- (if n =? r_size v then ret (v, E)
                 else
                   ' (p, E) <- alloc_ (r_alc v) n E ;;
                   E <- (if r_beg v =? 0 then ret E else free_ (r_alc v) (r_beg v) (r_size v) E) ;;
                   ret (Arr (r_alc v) p (p + n * sz), E)) ;;
    copy_in sz (r_beg v) src ;;;
    ret (v, E).

  Definition aget (c : nat) (vs : gmap nat arr) : arr := default (Arr 0 0 0) (vs !! c).

  Definition alocate (r : ref) (vs : gmap nat arr) : place_of :=
    match r with
    | RVal x => PVal x
    | RElem c i => PAddr (elem_addr sz (r_beg (aget c vs)) i)
    end.
  Definition alocate_range (g : range) (vs : gmap nat arr) : array_of :=
    match g with
    | GVals l => QVals l
    | GElems c i j => QAddr (elem_addr sz (r_beg (aget c vs)) i) (j - i)
    end.

  (** 160-176 after the release of the storage of *this; [other] is read again after each change
      of *this. *)
  Definition aassign (c src : nat) (q : env * gmap nat arr) : M (cobs * (env * gmap nat arr)) :=
    let '(E, vs) := q in
    let v := aget c vs in
    let vs := <[c := Arr (r_alc (aget src vs)) (r_beg v) (r_end v)]> vs in
    let n := r_size (aget src vs) in
    ' (p, E) <- alloc_ (r_alc (aget c vs)) n E ;;
    let vs := <[c := Arr (r_alc (aget c vs)) p (p + n * sz)]> vs in
    memcpy p (r_beg (aget src vs)) (n * sz) ;;;
    ret (CUnit, (E, vs)).

  (** 178-190 after the release of the storage of *this *)
  Definition amove_assign (c src : nat) (q : env * gmap nat arr) : M (cobs * (env * gmap nat arr)) :=
    let '(E, vs) := q in
    let vs := <[c := aget src vs]> vs in
    ret (CUnit, (E, <[src := Arr (r_alc (aget src vs)) 0 0]> vs)).

  Definition ado (o : aop) (q : env * gmap nat arr) : M (cobs * (env * gmap nat arr)) :=
    let '(E, vs) := q in
    let get c := aget c vs in
    match o with
    | ANew c h => (* 39-53 *) ret (CUnit, (E, <[c := Arr h 0 0]> vs))
    | ANewN c n h => (* 58-61 *) ' (v, E) <- anew_n h n E ;; ret (CUnit, (E, <[c := v]> vs))
    | ANewFill c n r h => (* 69-75 *)
      ' (v, E) <- anew_n h n E ;; fill_n sz (r_beg v) (N.to_nat n) (alocate r vs) ;;; ret (CUnit, (E, <[c := v]> vs))
    | ANewList c l h => (* 82-93 *)
      ' (v, E) <- anew_n h (N.of_nat (length l)) E ;; store_list sz (r_beg v) l ;;; ret (CUnit, (E, <[c := v]> vs))
    | ANewRange c g h => (* 101-108 *)
      let src := alocate_range g vs in
      ' (v, E) <- anew_n h (array_length src) E ;; copy_in sz (r_beg v) src ;;; ret (CUnit, (E, <[c := v]> vs))
    | ACopy c src => (* 110-117 *)
      ' (v, E) <- acopy_of (r_alc (get src)) (get src) E ;; ret (CUnit, (E, <[c := v]> vs))
    | AMove c src => (* 119-126 *)
      let o := get src in
      ret (CUnit, (E, <[src := Arr (r_alc o) 0 0]> (<[c := o]> vs)))
    | ACopyAl c src h => (* 128-135 *)
      ' (v, E) <- acopy_of h (get src) E ;; ret (CUnit, (E, <[c := v]> vs))
    | AMoveAl c src h => (* 137-152; line 147 passes size() * sizeof(T) *)
      let o := get src in
      ' (v, E) <- anew_n h (r_size o) E ;;
      E <- (if r_beg o =? 0 then ret E
            else memcpy (r_beg v) (r_beg o) (r_size o * sz) ;;; free_ (r_alc o) (r_beg o) (mul64 (r_size o) sz) E) ;;
      ret (CUnit, (E, <[src := Arr (r_alc o) 0 0]> (<[c := v]> vs)))
    | ADestroy c => (* 154-158 *) E <- arelease (get c) E ;; ret (CUnit, (E, delete c vs))
    | AAssign c src => (* 160-176 *) E <- arelease (get c) E ;; aassign c src (E, vs)
    | AMoveAssign c src => (* 178-190 *) E <- arelease (get c) E ;; amove_assign c src (E, vs)
    | AGet c i => (* 198, 206, 257 *)
      let v := get c in
      ktl_assert (i <? r_size v) ;;;
      cs <- rds (elem_addr sz (r_beg v) i) (N.to_nat sz) ;;
      ret (CVal (unchunk (N.to_nat sz) cs), (E, vs))
    | ASet c i r =>
      let v := get c in
      ktl_assert (i <? r_size v) ;;;
      assign sz (elem_addr sz (r_beg v) i) (alocate r vs) ;;;
      ret (CUnit, (E, vs))
    | ASize c => ret (CNum (r_size (get c)), (E, vs))
    | AEmpty c => ret (CBool (r_beg (get c) =? r_end (get c)), (E, vs))
    | AData c => ret (CPtr (r_beg (get c)), (E, vs))
    | AResize c n => ' (v, E) <- aresize (get c) n E ;; ret (CUnit, (E, <[c := v]> vs))
    | AFrom c g => ' (v, E) <- afrom (get c) (alocate_range g vs) E ;; ret (CUnit, (E, <[c := v]> vs))
    end.

  (** Exclusions that are not self-evident: moving into another allocator (unless nothing is
      allocated or sizeof(T) = 1, see C42), self-assignment of a non-empty array (see C43),
      assignment of an own, non-empty range. *)
  (** The argument [allocator] of a constructor. *)
  Definition a_arg (o : aop) : option nat :=
    match o with
    | ANew _ h | ANewN _ _ h | ANewFill _ _ _ h | ANewList _ _ h | ANewRange _ _ h | ACopyAl _ _ h | AMoveAl _ _ h => Some h
    | _ => None
    end.

  Definition alegal (k : nat) (m : gmap nat info) (o : aop) : bool :=
    match o with
    | ANew c h | ANewN c _ h | ANewList c _ h => new_name k m c h
    | ANewFill c _ r h => new_name k m c h && ok_ref m r
    | ANewRange c g h => new_name k m c h && ok_range m g
    | ACopy c src | AMove c src => negb (has m c) && has m src
    | ACopyAl c src h => new_name k m c h && has m src
    | AMoveAl c src h => new_name k m c h && has m src && ((sz =? 1) || (i_data (look m src) =? 0))
    | AAssign c src => has m c && has m src && (negb (bool_decide (c = src)) || (i_size (look m c) =? 0))
    | AMoveAssign c src => has m c && has m src
    | ADestroy c | ASize c | AEmpty c | AData c | AResize c _ => has m c
    | AGet c i => has m c && (i <? i_size (look m c))
    | ASet c i r => has m c && (i <? i_size (look m c)) && ok_ref m r
    | AFrom c g => has m c && ok_range m g && match g with GElems c' i j => negb (bool_decide (c' = c)) || (j =? i) | _ => true end
    end.

  Definition a_info (v : arr) : info := Info (r_size v) (r_size v) (r_beg v).

  Definition astep (k : nat) (o : aop) (q : env * gmap nat arr) : M (cobs * (env * gmap nat arr)) :=
    if alegal k (a_info <$> snd q) o then ado o q else ret (CUnit, q).
End array.

(** * Specification: lists.  [s_cap] is always the length. *)
Section check.
  Context (sz : N) (k : nat).

  Definition acheck_do (o : aop) (ob : cobs) (m m' : gmap nat svec) : Prop :=
    let get c := s_get c m in
    match o with
    | ANew c h => ob = CUnit /\ m' = <[c := SVec h [] 0 0]> m
    | ANewN c n h => ob = CUnit /\ born c h (repeat None (N.to_nat n)) m m'
    | ANewFill c n r h => ob = CUnit /\ born c h (repeat (val_of r m) (N.to_nat n)) m m'
    | ANewList c l h => ob = CUnit /\ born c h (map Some l) m m'
    | ANewRange c g h => ob = CUnit /\ born c h (vals_of g m) m m'
    | ACopy c src => ob = CUnit /\ born c (s_al (get src)) (s_l (get src)) m m'
    | AMove c src => ob = CUnit /\ m' = <[src := emptied (get src)]> (<[c := get src]> m)
    | ACopyAl c src h => ob = CUnit /\ born c h (s_l (get src)) m m'
    | AMoveAl c src h =>
      ob = CUnit /\ exists m1, born c h (s_l (get src)) m m1 /\ m' = <[src := emptied (get src)]> m1
    | ADestroy c => ob = CUnit /\ m' = delete c m
    | AAssign c src => ob = CUnit /\ born c (s_al (get src)) (s_l (get src)) m m'
    | AMoveAssign c src => ob = CUnit /\ m' = <[src := emptied (get src)]> (<[c := get src]> m)
    | AGet c i =>
      m' = m /\ exists r, ob = CVal r /\ forall x, s_l (get c) !! N.to_nat i = Some (Some x) -> r = Some x
    | ASet c i r =>
      let x := get c in
      ob = CUnit /\ m' = <[c := SVec (s_al x) (<[N.to_nat i := val_of r m]> (s_l x)) (s_cap x) (s_data x)]> m
    | ASize c => m' = m /\ ob = CNum (s_len (get c))
    | AEmpty c => m' = m /\ ob = CBool (s_len (get c) =? 0)
    | AData c => m' = m /\ ob = CPtr (s_data (get c))
    | AResize c n =>
      ob = CUnit /\
      if n =? s_len (get c) then m' = m
      else born c (s_al (get c)) (take (N.to_nat n) (s_l (get c)) ++ repeat None (N.to_nat (n - s_len (get c)))) m m'
    | AFrom c g => (** in place if the size is the same *)
      ob = CUnit /\ born c (s_al (get c)) (vals_of g m) m m' /\
      (length (vals_of g m) = length (s_l (get c)) -> s_data (s_get c m') = s_data (get c))
    end.

  Definition acheck (o : aop) (ob : cobs) (m m' : gmap nat svec) : Prop :=
    if alegal sz k (s_info <$> m) o then acheck_do o ob m m' else ob = CUnit /\ m' = m.
End check.
