(** What the containers use: a family of allocator objects of one type, seen through
    type_allocator and std::allocator_traits, and programs over named containers. *)
From Verif Require Import Base Mem Allocators Client.

(** The containers copy their allocator freely (m_Alloc = other.m_Alloc).  All copyable
    allocators of the library are handles (stack_allocator, reference, shared, global) or have no
    state (mallocator, null_allocator) and type_allocator turns moves into copies
    (type_allocator.h:59-90); so a container holds the index of an allocator object, and copying
    the allocator copies the index.  (What that means for the use count of shared is modelled in
    SharedCont.v; here the allocator objects exist as long as the program runs.  overflow by value is
    the exception: its two counters are copied, which only affects what it reports, see ByValue.v and, for all
    programs, Owned.v.) *)
Notation env A := (gmap nat (a_st A)).

Section env.
  Context (A : alloc) (b sz : N).

  Local Notation env := (env A).

  (** Inline bytes of allocator object [h]: the objects form an array at [b]. *)
  Definition at_ (h : nat) : N := b + N.of_nat h * a_size A.

  (** Traits::allocate(alloc, n), type_allocator.h:98-102.  The events say what was asked for and
      that nothing was delivered; none of the callers checks. *)
  Definition te_alloc (h : nat) (n : N) (E : env) : M (N * env) :=
    match E !! h with
    | None => ubm UBLifetime
    | Some s =>
      emit (EvReq (sz * n)) ;;;
      ' (p, s') <- ta_alloc sz A (at_ h) s n ;;
      (if (p =? 0) && negb (sz * n =? 0) then emit EvFail else ret tt) ;;;
      ret (p, <[h := s']> E)
    end.

  (** Traits::deallocate(alloc, p, n), type_allocator.h:109-113. *)
  Definition te_free (h : nat) (p n : N) (E : env) : M env :=
    match E !! h with
    | None => ubm UBLifetime
    | Some s => s' <- ta_free sz A (at_ h) s p n ;; ret (<[h := s']> E)
    end.

  (** Traits::construct and Traits::destroy, type_allocator.h:124-145: forwarded if the allocator
      has such a member, performed directly otherwise. *)
  Definition te_cd (c : cd) (h : nat) (q : N) (act : M unit) (E : env) : M env :=
    match E !! h with
    | None => ubm UBLifetime
    | Some s => s' <- traits_cd A (at_ h) c s q act ;; ret (<[h := s']> E)
    end.

  (** Construction and destruction of the allocator objects. *)
  Definition te_init (h : nat) (E : env) : M env := s <- a_init A (at_ h) ;; ret (<[h := s]> E).
  Definition te_dtor (h : nat) (E : env) : M env :=
    match E !! h with
    | None => ubm UBLifetime
    | Some s => a_dtor A (at_ h) s ;;; ret (delete h E)
    end.
  Fixpoint init_all (h k : nat) (E : env) : M env :=
    match k with
    | O => ret E
    | S k => E' <- te_init h E ;; init_all (S h) k E'
    end.
  Fixpoint dtor_all (h k : nat) (E : env) : M env :=
    match k with
    | O => ret E
    | S k => E' <- te_dtor h E ;; dtor_all (S h) k E'
    end.
End env.

(** std::memmove *)
Definition memmove (dst src n : N) : M unit :=
  if n =? 0 then ret tt else cs <- rds src (N.to_nat n) ;; wrs dst cs.

(** The i-th element of an array at [p] has this address. *)
Definition elem_addr (sz p i : N) : N := p + sz * i.

(** An argument of type const T&: an object of the program, or element [i] of container [c]. *)
Inductive ref := RVal (x : value) | RElem (c : nat) (i : N).
(** Arguments (const T* first, const T* last): an array of the program, or elements [i], ..., [j-1]
    of container [c]. *)
Inductive range := GVals (l : list value) | GElems (c : nat) (i j : N).

(** The same after evaluation of the argument: where the values are.  Values of the program are
    outside of the modelled memory. *)
Inductive place_of := PVal (x : value) | PAddr (a : N).
Inductive array_of := QVals (l : list value) | QAddr (a n : N).

(** *dst = src for a trivially copyable type of [sz] bytes: the bytes are copied.  (Copying an
    indeterminate value is not counted as undefined behaviour.) *)
Definition assign (sz : N) (dst : N) (src : place_of) : M unit :=
  match src with
  | PVal x => stor (N.to_nat sz) dst x
  | PAddr a => cs <- rds a (N.to_nat sz) ;; wrs dst cs
  end.

(** std::memcpy(dst, first, n * sizeof(T)) with n = last - first. *)
Definition copy_in (sz : N) (dst : N) (src : array_of) : M unit :=
  match src with
  | QVals l => wrs dst (concat (map (chunk (N.to_nat sz)) l))
  | QAddr a n => memcpy dst a (n * sz)
  end.
Definition array_length (src : array_of) : N :=
  match src with QVals l => N.of_nat (length l) | QAddr _ n => n end.

(** What a program sees. *)
Inductive cobs :=
| CUnit
| CNum (n : N)
| CPtr (p : N)
| CBool (x : bool)
| CVal (x : option value).     (** None: the bytes are not an object representation *)

(** size(), capacity() and data() of a container. *)
Record info := Info { i_size : N; i_cap : N; i_data : N }.

(** * Whole programs

    [k] allocator objects are constructed, the operations are executed, the containers that still
    exist and the allocators are destroyed. *)
Section session.
  Context (A : alloc) (b : N) {X O : Type}.
  Context (stp : O -> env A * gmap nat X -> M (cobs * (env A * gmap nat X))).
  Context (kill : X -> env A -> M (env A)).

  Fixpoint crun (ops : list O) (q : env A * gmap nat X) : M (list cobs * (env A * gmap nat X)) :=
    match ops with
    | [] => ret ([], q)
    | o :: ops => ' (ob, q') <- stp o q ;; ' (os, q'') <- crun ops q' ;; ret (ob :: os, q'')
    end.

  Fixpoint kill_all (xs : list (nat * X)) (E : env A) : M (env A) :=
    match xs with
    | [] => ret E
    | (_, x) :: xs => E' <- kill x E ;; kill_all xs E'
    end.

  Definition csession (k : nat) (ops : list O) : M (list cobs) :=
    E <- init_all A b 0 k ∅ ;;
    ' (os, (E', vs)) <- crun ops (E, ∅) ;;
    E'' <- kill_all (map_to_list vs) E' ;;
    dtor_all A b 0 k E'' ;;;
    ret os.

  Context {S : Type} (chk : O -> cobs -> S -> S -> Prop).

  Fixpoint ccheck (ops : list O) (os : list cobs) (s : S) : Prop :=
    match ops, os with
    | [], [] => True
    | o :: ops, ob :: os => exists s', chk o ob s s' /\ ccheck ops os s'
    | _, _ => False
    end.

  (** Unless an event classified as [bad] occurs: no undefined behaviour, no failed assertion, all
      observations as specified, and afterwards the heap and all memory except the storage of the
      allocator objects are as they were. *)
  Definition csession_ok (bad : event -> bool) (k : nat) (s0 : S) (ops : list O) (w : world) : Prop :=
    match csession k ops w with
    | Ok os w' evs =>
      existsb bad evs = true \/
      forallb benign evs = true /\
      ccheck ops os s0 /\
      mtab (st w') = mtab (st w) /\
      (forall i, ~ (b <= i < b + N.of_nat k * a_size A) -> mem (st w') !! i = mem (st w) !! i) /\
      storage b (N.of_nat k * a_size A) w'
    | Err _ evs => existsb bad evs = true
    end.
End session.

(** Out of scope: an allocation that fails, and requests the allocator does not support. *)
Definition unsupported (req : N -> bool) (e : event) : bool :=
  match e with
  | EvFail => true
  | EvReq n => negb (req n && (n <? W))
  | _ => false
  end.
