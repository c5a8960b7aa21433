(** Copying and moving allocator objects: the members that differ from a plain transfer. *)
From Verif Require Import Base Mem Allocators.

(** linear_allocator.h:33-40: move construction.  [base] is the buffer of the new object,
    [other] the state of the source. *)
Definition lin_move_ctor (Size base : N) (other : lin) : M lin :=
  s <- lin_init Size base ;;
  ktl_assert (l_cnt other =? 0) ;;;
  ret s.

(** linear_allocator.h:49-57: move assignment; m_ObjectCount is not touched. *)
Definition lin_move_assign (base : N) (s rhs : lin) : M lin :=
  ktl_assert (l_cnt rhs =? 0) ;;;
  ret (Lin base (l_cnt s)).

(** overflow.h:55-57, 80-82: the defaulted copy and move operations copy the two counters.
    [mv] is the copy or move of the inner allocator: new object and remaining source. *)
Definition ov_copy {A : alloc} (mv : a_st A -> a_st A * a_st A) (s : ov A) : ov A * ov A :=
  (Ov (fst (mv (o_in s))) (o_allocs s) (o_cons s), Ov (snd (mv (o_in s))) (o_allocs s) (o_cons s)).
