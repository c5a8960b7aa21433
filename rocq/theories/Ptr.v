(** Programs that use pointers to elements: iterators and data() are plain pointers
    (trivial_vector.h:29-33, 224-238, 264-270; trivial_array.h:29-33, 209-223, 243-249), so they are
    read and written without any call of the library. *)
From Verif Require Import Base Mem Allocators Env Vector Array.

(** A program names a pointer by its value; where it has it from does not matter. *)
Inductive pop (O : Type) :=
| PLib (o : O)                       (** an operation of the container *)
| PLoad (a : N)                      (** read *p *)
| PStore (a : N) (src : place_of).   (** *p = x or *p = *q *)
Arguments PLib {O}.
Arguments PLoad {O}.
Arguments PStore {O}.

Section ptr.
  Context (A : alloc) (sz : N) {X O : Type} (inf : X -> info).
  Context (stp : O -> env A * gmap nat X -> M (cobs * (env A * gmap nat X))).

  (** [a] is the address of an element. *)
  Definition hits (a : N) (x : info) : bool :=
    (i_data x <=? a) && (a <? i_data x + sz * i_size x) && ((a - i_data x) mod sz =? 0).
  Definition at_elem (m : gmap nat info) (a : N) : bool := existsb (fun p => hits a (snd p)) (map_to_list m).
  Definition plegal (m : gmap nat info) (o : pop O) : bool :=
    match o with
    | PLib _ => true
    | PLoad a => at_elem m a
    | PStore a (PVal _) => at_elem m a
    | PStore a (PAddr a') => at_elem m a && at_elem m a'
    end.

  Definition pstep (o : pop O) (s : env A * gmap nat X) : M (cobs * (env A * gmap nat X)) :=
    if plegal (inf <$> snd s) o then
      match o with
      | PLib o => stp o s
      | PLoad a => cs <- rds a (N.to_nat sz) ;; ret (CVal (unchunk (N.to_nat sz) cs), s)
      | PStore a src => assign sz a src ;;; ret (CUnit, s)
      end
    else ret (CUnit, s).
End ptr.

(** * Specification: such a pointer is another name of the element *)
Section check.
  Context (sz : N) {O : Type} (chk : O -> cobs -> gmap nat svec -> gmap nat svec -> Prop).

  Definition pointee (m : gmap nat svec) (a : N) (c i : nat) : Prop :=
    exists x, m !! c = Some x /\ (i < length (s_l x))%nat /\ a = s_data x + sz * N.of_nat i.
  (** ... of this element and no other *)
  Definition only (m : gmap nat svec) (a : N) (c i : nat) : Prop :=
    pointee m a c i /\ forall c' i', pointee m a c' i' -> c' = c /\ i' = i.

  Definition elem (m : gmap nat svec) (c i : nat) : option value := default None (s_l (s_get c m) !! i).
  Definition with_elem (m : gmap nat svec) (c i : nat) (v : option value) : gmap nat svec :=
    let x := s_get c m in <[c := SVec (s_al x) (<[i := v]> (s_l x)) (s_cap x) (s_data x)]> m.

  Definition denotes (m : gmap nat svec) (src : place_of) (v : option value) : Prop :=
    match src with
    | PVal x => v = Some x
    | PAddr a => exists c i, only m a c i /\ v = elem m c i
    end.
  Definition nowhere (m : gmap nat svec) (a : N) : Prop := forall c i, ~ pointee m a c i.

  Definition pcheck (o : pop O) (ob : cobs) (m m' : gmap nat svec) : Prop :=
    match o with
    | PLib o => chk o ob m m'
    | PLoad a =>
      (exists c i r, only m a c i /\ m' = m /\ ob = CVal r /\ forall x, elem m c i = Some x -> r = Some x) \/
      (nowhere m a /\ ob = CUnit /\ m' = m)
    | PStore a src =>
      (exists c i v, only m a c i /\ denotes m src v /\ ob = CUnit /\ m' = with_elem m c i v) \/
      ((nowhere m a \/ match src with PAddr a' => nowhere m a' | _ => False end) /\ ob = CUnit /\ m' = m)
    end.
End check.
