(** Programs with containers of several types over the same allocators: trivial_vector<T>,
    trivial_array<T> and binary_heap<T> for any number of element types T. *)
From Verif Require Import Base Mem Allocators Env Vector Array HeapPure Heap.

(** The type of a container: the template and what it needs to know about its element type.
    trivial_vector.h:19-20, trivial_array.h:19-20, binary_heap.h:20-21 *)
Inductive ctype :=
| TVec (sz : N)
| TArr (sz : N)
| THeap (sz : N) (T : elt) (comp : nat -> value -> value -> bool) (eqv : value -> value -> bool).

Definition t_size (t : ctype) : N := match t with TVec sz | TArr sz | THeap sz _ _ _ => sz end.

Inductive cop := OVec (o : vop) | OArr (o : aop) | OHeap (o : hop).

(** All objects of one type, by name. *)
Inductive objs :=
| XVec (sz : N) (m : gmap nat vec)
| XArr (sz : N) (m : gmap nat arr)
| XHeap (sz : N) (T : elt) (m : gmap nat heap).

Definition vecs (x : option objs) : gmap nat vec := match x with Some (XVec _ m) => m | _ => ∅ end.
Definition arrs (x : option objs) : gmap nat arr := match x with Some (XArr _ m) => m | _ => ∅ end.
Definition heaps (x : option objs) : gmap nat heap := match x with Some (XHeap _ _ m) => m | _ => ∅ end.

Section mixed.
  Context (A : alloc) (b : N) (ty : nat -> ctype).
  Local Notation env := (env A).

  (** An operation on objects of type [t]; one that does not suit the type does nothing (it does not
      compile). *)
  Definition xstep (k : nat) (o : nat * cop) (q : env * gmap nat objs) : M (cobs * (env * gmap nat objs)) :=
    let '(t, o) := o in
    let '(E, xs) := q in
    match ty t, o with
    | TVec sz, OVec o =>
      ' (ob, (E', m)) <- vstep A b sz k o (E, vecs (xs !! t)) ;; ret (ob, (E', <[t := XVec sz m]> xs))
    | TArr sz, OArr o =>
      ' (ob, (E', m)) <- astep A b sz k o (E, arrs (xs !! t)) ;; ret (ob, (E', <[t := XArr sz m]> xs))
    | THeap sz T comp eqv, OHeap o =>
      ' (ob, (E', m)) <- hstep A b sz T comp eqv k o (E, heaps (xs !! t)) ;; ret (ob, (E', <[t := XHeap sz T m]> xs))
    | _, _ => ret (CUnit, q)
    end.

  (** The destructors of all objects of a type. *)
  Definition xkill (x : objs) (E : env) : M env :=
    match x with
    | XVec sz m => kill_all A (release A b sz) (map_to_list m) E
    | XArr sz m => kill_all A (arelease A b sz) (map_to_list m) E
    | XHeap sz T m => kill_all A (hrelease A b sz T) (map_to_list m) E
    end.
End mixed.

(** * Specification: the objects of each type behave as if there were no others *)
Inductive sobjs := SVecs (m : gmap nat svec) | SArrs (m : gmap nat svec) | SHeaps (m : gmap nat sheap).

Definition svecs (x : option sobjs) : gmap nat svec := match x with Some (SVecs m) => m | _ => ∅ end.
Definition sarrs (x : option sobjs) : gmap nat svec := match x with Some (SArrs m) => m | _ => ∅ end.
Definition sheaps (x : option sobjs) : gmap nat sheap := match x with Some (SHeaps m) => m | _ => ∅ end.

Definition xcheck (ty : nat -> ctype) (k : nat) (o : nat * cop) (ob : cobs) (s s' : gmap nat sobjs) : Prop :=
  let '(t, o) := o in
  match ty t, o with
  | TVec sz, OVec o => exists m, vcheck sz k o ob (svecs (s !! t)) m /\ s' = <[t := SVecs m]> s
  | TArr sz, OArr o => exists m, acheck sz k o ob (sarrs (s !! t)) m /\ s' = <[t := SArrs m]> s
  | THeap sz T comp eqv, OHeap o =>
    exists m, hcheck sz T comp eqv k o ob (sheaps (s !! t)) m /\ s' = <[t := SHeaps m]> s
  | _, _ => ob = CUnit /\ s' = s
  end.

(** What a program does with the vectors (arrays, heaps) of type [t], and what it sees of them. *)
Definition part_of {O} (f : cop -> option O) (t : nat) (ops : list (nat * cop)) (os : list cobs) : list (O * cobs) :=
  omap (fun p => match p with ((t', o), ob) => if (t' =? t)%nat then option_map (fun o => (o, ob)) (f o) else None end) (zip ops os).
Definition of_vec (o : cop) : option vop := match o with OVec o => Some o | _ => None end.
Definition of_arr (o : cop) : option aop := match o with OArr o => Some o | _ => None end.
Definition of_heap (o : cop) : option hop := match o with OHeap o => Some o | _ => None end.
