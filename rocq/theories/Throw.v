(** binary_heap when the copy constructor of an element throws (binary_heap.h).  Members that are
    noexcept end the program then and are left out: insert, reserve, pop, expand, set_size. *)
From Verif Require Import Base Mem Allocators Env Vector HeapPure Heap.

Section throw.
  Context (A : alloc) (b sz : N) (T : elt) (comp : nat -> value -> value -> bool) (eqv : value -> value -> bool).
  Local Notation env := (env A).
  Local Notation alloc_ := (te_alloc A b sz).

  (** Traits::construct when the constructor of the element throws: the storage remains as it was.
      Allocators with a construct member do their own work before they call the constructor
      (overflow.h:183-188) and nothing afterwards. *)
  Definition construct_throw (h : nat) (q : N) (E : env) : M env :=
    te_cd A b Construct h q (ret tt) E.

  (** 127-128, 150-151, 202-203 when the copy of element [j] throws *)
  Definition copy_throw (h : nat) (dst src : N) (j : nat) (E : env) : M env :=
    E <- copy_n A b sz T h dst src j E ;; construct_throw h (dst + sz * N.of_nat j) E.

  (** 120-129, 143-152: the destructor of the incomplete object does not run.  The result is the value
      of m_Begin. *)
  Definition hcopy_throw (h : nat) (other : heap) (j : nat) (E : env) : M (N * env) :=
    ' (p, E) <- alloc_ h (h_size other) E ;;
    E <- copy_throw h p (h_beg other) j E ;;
    ret (p, E).

  (** 92-118 when the initialisation of [value] by the element [j] of the list throws *)
  Definition hlist_throw (h q : nat) (l : list value) (j : nat) (E : env) : M (N * env) :=
    ' (p, E) <- alloc_ h (N.of_nat (length l)) E ;;
    ' (x, E) <- insert_list A b sz T comp (Heap h q 0 (N.of_nat (length l)) p) (take j l) E ;;
    ret (h_beg x, E).

  (** 185-206 *)
  Definition hassign_throw (c src j : nat) (s : env * gmap nat heap) : M (cobs * (env * gmap nat heap)) :=
    let '(E, vs) := s in
    E <- hrelease A b sz T (hget c vs) E ;;
    let o := hget src vs in
    ' (p, E) <- alloc_ (h_al o) (h_size o) E ;;
    let vs := <[c := Heap (h_al o) (h_cmp o) (h_size o) (h_size o) p]> vs in
    E <- copy_throw (h_al o) p (h_beg (hget src vs)) j E ;;
    ret (CUnit, (E, vs)).

  (** Programs that catch the exceptions. *)
  Inductive top :=
  | TOp (o : hop)
  | TCopy (src h j : nat)                       (** copy construction of a heap, which throws *)
  | TList (l : list value) (q h j : nat)        (** construction from a list, which throws *)
  | TAssign (c src j : nat).                    (** assignment, which throws *)

  Definition tstep (k : nat) (o : top) (s : env * gmap nat heap) : M (cobs * (env * gmap nat heap)) :=
    let '(E, vs) := s in
    match o with
    | TOp o => hstep A b sz T comp eqv k o s
    | TCopy src h j =>
      if bool_decide (h < k)%nat && (N.of_nat j <? h_size (hget src vs)) then
        ' (p, E) <- hcopy_throw h (hget src vs) j E ;; ret (CPtr p, (E, vs))
      else ret (CUnit, s)
    | TList l q h j =>
      if bool_decide (h < k)%nat && (j <? length l)%nat then
        ' (p, E) <- hlist_throw h q l j E ;; ret (CPtr p, (E, vs))
      else ret (CUnit, s)
    | TAssign c src j =>
      if bool_decide (c <> src) && bool_decide (is_Some (vs !! c)) && (N.of_nat j <? h_size (hget src vs)) then
        hassign_throw c src j s
      else ret (CUnit, s)
    end.

  (** A program whose heaps are destroyed at the end; the allocators remain. *)
  Definition tprog (k : nat) (ops : list top) : M (list cobs) :=
    E <- init_all A b 0 k ∅ ;;
    ' (os, (E, vs)) <- crun A (tstep k) ops (E, ∅) ;;
    _ <- kill_all A (hrelease A b sz T) (map_to_list vs) E ;;
    ret os.
End throw.

(** * What remains of a heap whose construction was abandoned: [t_l] objects in storage for [t_cap] *)
Record torso := Torso { t_at : N; t_l : list value; t_cap : N }.

(** A program without assignments that throw: the other heaps are not affected. *)
Definition tcheck (sz : N) (T : elt) (comp : nat -> value -> value -> bool) (eqv : value -> value -> bool) (k : nat)
  (o : top) (ob : cobs) (s s' : gmap nat sheap * list torso) : Prop :=
  let '(m, L) := s in
  match o with
  | TOp o => hcheck sz T comp eqv k o ob m (fst s') /\ snd s' = L
  | TCopy src h j =>
    let x := p_get src m in
    if bool_decide (h < k)%nat && (N.of_nat j <? p_len x) then
      exists p, ob = CPtr p /\ s' = (m, Torso p (take j (p_l x)) (p_len x) :: L)
    else ob = CUnit /\ s' = s
  | TList l q h j =>
    if bool_decide (h < k)%nat && (j <? length l)%nat then
      exists p l', l' ≡ₚ take j l /\ ob = CPtr p /\ s' = (m, Torso p l' (N.of_nat (length l)) :: L)
    else ob = CUnit /\ s' = s
  | TAssign _ _ _ => True
  end.

(** The storage is still there, with the objects. *)
Definition remains (sz : N) (w : world) (t : torso) : Prop :=
  t_at t <> 0 /\
  (forall i, i < sz * t_cap t -> is_Some (mem (st w) !! (t_at t + i))) /\
  (forall j v i, t_l t !! j = Some v -> (i < N.to_nat sz)%nat ->
    mem (st w) !! (t_at t + sz * N.of_nat j + N.of_nat i) = ochunk (N.to_nat sz) v !! i).

(** It came from the operating system, or lies in the memory of the allocators. *)
Definition obtained (sz b n : N) (w : world) (t : torso) : Prop :=
  forall i, i < sz * t_cap t -> mem (st w) !! (t_at t + i) = None \/ b <= t_at t + i < b + n.

Fixpoint apart (sz : N) (L : list torso) : Prop :=
  match L with
  | [] => True
  | t :: L => Forall (fun u => forall i, ~ (t_at t <= i < t_at t + sz * t_cap t /\ t_at u <= i < t_at u + sz * t_cap u)) L /\ apart sz L
  end.

Definition no_assign (o : top) : bool := match o with TAssign _ _ _ => false | _ => true end.
