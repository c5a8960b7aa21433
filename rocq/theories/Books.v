(** What the counters of overflow say about containers. *)
From Verif Require Import Base Mem Allocators Client Env Vector Array HeapPure Heap.

Local Open Scope N_scope.

(** * Specification *)

(** The sum of [val x] over the containers [x] that use allocator [h]. *)
Definition held {X} (al : X -> nat) (val : X -> N) (h : nat) (vs : gmap nat X) : Z :=
  map_fold (fun _ x z => ((if Nat.eqb (al x) h then Z.of_N (val x) else 0) + z)%Z) 0%Z vs.

(** Bytes of storage: capacity() * sizeof(T). *)
Definition v_bytes (sz : N) (v : vec) : N := if v_beg v =? 0 then 0 else v_cap sz v * sz.
Definition r_bytes (sz : N) (v : arr) : N := if r_beg v =? 0 then 0 else r_size sz v * sz.
Definition h_bytes (sz : N) (x : heap) : N := if h_beg x =? 0 then 0 else h_cap x * sz.

(** m_Allocs and m_Constructs of every allocator object are [f] and [g], in 64 bits. *)
Definition books {A : alloc} (E : env (overflow A)) (f g : nat -> Z) : Prop :=
  forall h s, E !! h = Some s -> o_allocs s = s64 (f h) /\ o_cons s = s64 (g h).

(** Failed allocations are counted as well (C25), and requests of 2^64 bytes or more are reduced. *)
Definition lost : event -> bool := unsupported (fun _ => true).

(** If [m] ends without such an event, then with [P]. *)
Definition ends {X} (m : M X) (P : X -> Prop) : Prop :=
  forall w, match m w with Ok a _ evs => existsb lost evs = true \/ P a | Err _ _ => True end.

(** What the destructor of overflow writes: the number of bytes not returned, and the number of
    objects not destroyed, unless they are 0. *)
Definition say (c : Z -> event) (z : Z) : M unit := if (s64 z =? 0)%Z then ret tt else emit (c (s64 z)).
Definition reports {A : alloc} (p : N) (s : ov A) (bytes objects : Z) : Prop :=
  forall w, a_dtor (overflow A) p s w = (say EvLeak bytes ;;; say EvLogic objects ;;; a_dtor A p (o_in s)) w.
Definition no_report {A : alloc} (p : N) (s : ov A) : Prop :=
  forall w, a_dtor (overflow A) p s w = a_dtor A p (o_in s) w.

(** A program without the move constructor of binary_heap that takes an allocator. *)
Definition no_move_al (o : hop) : bool := match o with HMoveAl _ _ _ => false | _ => true end.

(** The first half of a session: up to the destruction of the allocators. *)
Section upto.
  Context (A : alloc) (b : N) {X O : Type}.
  Context (stp : O -> env A * gmap nat X -> M (cobs * (env A * gmap nat X))).
  Context (kill : X -> env A -> M (env A)).

  Definition crun_from (k : nat) (ops : list O) : M (list cobs * (env A * gmap nat X)) :=
    E <- init_all A b 0 k ∅ ;; crun A stp ops (E, ∅).
  Definition crun_to_end (k : nat) (ops : list O) : M (list cobs * env A) :=
    ' (os, (E, vs)) <- crun_from k ops ;; E' <- kill_all A kill (map_to_list vs) E ;; ret (os, E').
End upto.
