(** containers/trivial_buffer.h.

    begin(), end(), rbegin(), rend() and data() only compile for T = uint8_t (they convert from
    uint8_t pointers to T pointers); at() and operator[] const never do (reinterpret_cast away from const).  None
    of these has a model; [BGet] and [BSet] are the non-const operator[].  m_Data has the alignment
    of uint8_t, whatever the alignment of T. *)
From Verif Require Import Base Mem Allocators Env Vector.

Local Open Scope N_scope.

(** Programs; [c] names a buffer. *)
Inductive bop :=
| BNew (c : nat)                       (** trivial_buffer c; *)
| BNewFill (c : nat) (r : ref)         (** c(r) *)
| BNewList (c : nat) (l : list value)  (** c({...}) *)
| BNewRange (c : nat) (g : range)      (** c(first, last) *)
| BCopy (c src : nat)                  (** c(src) *)
| BMove (c src : nat)                  (** c(std::move(src)) *)
| BDestroy (c : nat)
| BAssign (c src : nat)                (** c = src *)
| BMoveAssign (c src : nat)            (** c = std::move(src) *)
| BFrom (c : nat) (g : range)          (** c.assign(first, last) *)
| BGet (c : nat) (i : N)               (** c[i], read *)
| BSet (c : nat) (i : N) (r : ref)     (** c[i] = r *)
| BSize (c : nat).

Section buffer.
  (** sizeof(T), Size; the program has room for [k] buffers, one after the other from address [b] on. *)
  Context (b sz size : N) (k : nat).

  (** 152 *)
  Definition data (c : nat) : N := b + N.of_nat c * (size * sz).
  (** reinterpret_cast<T*>(m_Data)[index % Size], 84 *)
  Definition at_index (c : nat) (i : N) : N := elem_addr sz (data c) (i mod size).

  (** A reference or a range refers to elements of buffers through operator[]; a range is
      contiguous. *)
  Definition blocate (r : ref) : place_of :=
    match r with RVal x => PVal x | RElem c i => PAddr (at_index c i) end.
  Definition blocate_range (g : range) : array_of :=
    match g with GVals l => QVals l | GElems c i j => QAddr (elem_addr sz (data c) i) (j - i) end.

  (** std::memcpy(m_Data, first, Size * sizeof(T)) *)
  Definition bcopy_in (c : nat) (src : array_of) : M unit :=
    match src with
    | QVals l => wrs (data c) (concat (map (chunk (N.to_nat sz)) l))
    | QAddr a _ => memcpy (data c) a (size * sz)
    end.

  (** A new object: its bytes are indeterminate (30). *)
  Definition bnew (c : nat) : M unit := wrs (data c) (repeat Undef (N.to_nat (size * sz))).

  Definition bdo (o : bop) (s : gset nat) : M (cobs * gset nat) :=
    match o with
    | BNew c => (* 30 *) bnew c ;;; ret (CUnit, {[c]} ∪ s)
    | BNewFill c r => (* 32-35 *) bnew c ;;; fill_n sz (data c) (N.to_nat size) (blocate r) ;;; ret (CUnit, {[c]} ∪ s)
    | BNewList c l => (* 37-47 *)
      bnew c ;;; ktl_assert (N.of_nat (length l) <=? size) ;;; store_list sz (data c) l ;;; ret (CUnit, {[c]} ∪ s)
    | BNewRange c g => (* 49-54 *)
      bnew c ;;; ktl_assert (array_length (blocate_range g) =? size) ;;; bcopy_in c (blocate_range g) ;;; ret (CUnit, {[c]} ∪ s)
    | BCopy c src | BMove c src => (* 56-64 *)
      bnew c ;;; memcpy (data c) (data src) (size * sz) ;;; ret (CUnit, {[c]} ∪ s)
    | BDestroy c => bnew c ;;; ret (CUnit, s ∖ {[c]})
    | BAssign c src | BMoveAssign c src => (* 66-76 *)
      memcpy (data c) (data src) (size * sz) ;;; ret (CUnit, s)
    | BFrom c g => (* 144-149 *)
      ktl_assert (array_length (blocate_range g) =? size) ;;; bcopy_in c (blocate_range g) ;;; ret (CUnit, s)
    | BGet c i => (* 84 *)
      cs <- rds (at_index c i) (N.to_nat sz) ;; ret (CVal (unchunk (N.to_nat sz) cs), s)
    | BSet c i r => assign sz (at_index c i) (blocate r) ;;; ret (CUnit, s)
    | BSize c => (* 116 *) ret (CNum size, s)
    end.

  (** Names are used for one buffer at a time; lists and ranges have the length that the code
      asserts; a buffer is not assigned to itself (memcpy of overlapping ranges, C58). *)
  Definition bok_ref (s : gset nat) (r : ref) : bool :=
    match r with RVal _ => true | RElem c _ => bool_decide (c ∈ s) end.
  Definition bok_range (s : gset nat) (g : range) : bool :=
    match g with
    | GVals l => N.of_nat (length l) =? size
    | GElems c i j => bool_decide (c ∈ s) && (i =? 0) && (j =? size)
    end.
  Definition bfresh (s : gset nat) (c : nat) : bool := bool_decide (c ∉ s) && (c <? k)%nat.

  Definition blegal (s : gset nat) (o : bop) : bool :=
    match o with
    | BNew c => bfresh s c
    | BNewFill c r => bfresh s c && bok_ref s r
    | BNewList c l => bfresh s c && (N.of_nat (length l) <=? size)
    | BNewRange c g => bfresh s c && bok_range s g
    | BCopy c src | BMove c src => bfresh s c && bool_decide (src ∈ s)
    | BDestroy c | BGet c _ | BSize c => bool_decide (c ∈ s)
    | BAssign c src | BMoveAssign c src => bool_decide (c ∈ s) && bool_decide (src ∈ s) && negb (bool_decide (c = src))
    | BFrom c g =>
      bool_decide (c ∈ s) && bok_range s g && match g with GElems c' _ _ => negb (bool_decide (c' = c)) | _ => true end
    | BSet c _ r => bool_decide (c ∈ s) && bok_ref s r
    end.

  Definition bstep (o : bop) (s : gset nat) : M (cobs * gset nat) :=
    if blegal s o then bdo o s else ret (CUnit, s).

  (** The same without leaving anything out: [stp] is [bdo] or [bstep]. *)
  Fixpoint bruns (stp : bop -> gset nat -> M (cobs * gset nat)) (ops : list bop) (s : gset nat) : M (list cobs) :=
    match ops with
    | [] => ret []
    | o :: ops => ' (ob, s) <- stp o s ;; os <- bruns stp ops s ;; ret (ob :: os)
    end.

  (** * Specification: lists of [size] elements (None: indeterminate) *)
  Definition bget (m : gmap nat (list (option value))) (c : nat) : list (option value) := default [] (m !! c).
  (** Which element an index means: the one whose position is congruent. *)
  Definition bval (m : gmap nat (list (option value))) (r : ref) : option value :=
    match r with RVal x => Some x | RElem c i => mjoin (bget m c !! N.to_nat (i mod size)) end.
  Definition bvals (m : gmap nat (list (option value))) (g : range) : list (option value) :=
    match g with GVals l => map Some l | GElems c _ _ => bget m c end.

  Definition bcheck_do (o : bop) (ob : cobs) (m m' : gmap nat (list (option value))) : Prop :=
    match o with
    | BNew c => ob = CUnit /\ m' = <[c := repeat None (N.to_nat size)]> m
    | BNewFill c r => ob = CUnit /\ m' = <[c := repeat (bval m r) (N.to_nat size)]> m
    | BNewList c l => ob = CUnit /\ m' = <[c := map Some l ++ repeat None (N.to_nat size - length l)]> m
    | BNewRange c g | BFrom c g => ob = CUnit /\ m' = <[c := bvals m g]> m
    | BCopy c src | BMove c src | BAssign c src | BMoveAssign c src => ob = CUnit /\ m' = <[c := bget m src]> m
    | BDestroy c => ob = CUnit /\ m' = delete c m
    | BGet c i => ob = CVal (bval m (RElem c i)) /\ m' = m
    | BSet c i r => ob = CUnit /\ m' = <[c := <[N.to_nat (i mod size) := bval m r]> (bget m c)]> m
    | BSize c => ob = CNum size /\ m' = m
    end.
  Definition bcheck (o : bop) (ob : cobs) (m m' : gmap nat (list (option value))) : Prop :=
    if blegal (dom m) o then bcheck_do o ob m m' else ob = CUnit /\ m' = m.

  (** No undefined behaviour, no failed assertion, everything as specified, and nothing but the
      storage of the buffers has changed. *)
  Definition bprogram_ok (ops : list bop) (w : world) : Prop :=
    match bruns bstep ops ∅ w with
    | Ok os w' evs =>
      forallb benign evs = true /\ ccheck bcheck ops os ∅ /\ mtab (st w') = mtab (st w) /\
      (forall i, ~ (b <= i < b + N.of_nat k * (size * sz)) -> mem (st w') !! i = mem (st w) !! i)
    | Err _ _ => False
    end.
End buffer.
