(** Vectors that hold overflow by value: the copy constructor of overflow copies the counters. *)
From Verif Require Import Base Mem Allocators Moves Client Env Vector Books.

Local Open Scope N_scope.

Section by_value.
  (** [cp]: the copy constructor of the inner allocator.  The allocator object with number [h] is the
      member m_Alloc of one vector. *)
  Context (A : alloc) (cp : a_st A -> a_st A) (b sz : N).
  Local Notation O := (overflow A).

  (** overflow.h:55 *)
  Definition ov_dup (s : ov A) : ov A := fst (ov_copy (fun x => (cp x, x)) s).

  (** trivial_vector.h:116-124.  The argument of select_on_container_copy_construction is a temporary
      (at [tmp]), which is destroyed before the storage is allocated; type_allocator.h:59. *)
  Definition bv_copy (tmp : N) (h : nat) (src : vec) (E : env O) : M (vec * env O) :=
    match E !! v_al src with
    | None => ubm UBLifetime
    | Some s =>
      let t := ov_dup s in
      let m := ov_dup t in
      a_dtor O tmp t ;;;
      copy_of O b sz h src (<[h := m]> E)
    end.

  (** trivial_vector.h:126-135; type_allocator.h:64-66 copies.  The new vector, and what is left of
      the old one. *)
  Definition bv_move (h : nat) (src : vec) (E : env O) : M (vec * vec * env O) :=
    match E !! v_al src with
    | None => ubm UBLifetime
    | Some s =>
      ret (Vec h (v_beg src) (v_end src) (v_max src), Vec (v_al src) 0 0 0, <[h := ov_dup s]> E)
    end.

  (** trivial_vector.h:166-170 and the destructor of m_Alloc. *)
  Definition bv_destroy (v : vec) (E : env O) : M (env O) :=
    E <- release O b sz v E ;; te_dtor O b (v_al v) E.

  (** vector<T> v({...}); { vector<T> c(v); }  *)
  Definition bv_copy_prog (tmp : N) (l : list value) : M unit :=
    E <- te_init O b 0 ∅ ;;
    ' (v, E) <- new_n O b sz 0 (N.of_nat (length l)) E ;; store_list sz (v_beg v) l ;;;
    ' (c, E) <- bv_copy tmp 1 v E ;;
    E <- bv_destroy c E ;;
    E <- bv_destroy v E ;;
    ret tt.
  (** vector<T> v({...}); vector<T> c(std::move(v));  *)
  Definition bv_move_prog (l : list value) : M unit :=
    E <- te_init O b 0 ∅ ;;
    ' (v, E) <- new_n O b sz 0 (N.of_nat (length l)) E ;; store_list sz (v_beg v) l ;;;
    ' (c, v, E) <- bv_move 1 v E ;;
    E <- bv_destroy c E ;;
    E <- bv_destroy v E ;;
    ret tt.
End by_value.
