(** Vocabulary: computations that never end normally, and programs that cannot go on without memory. *)
From Verif Require Import Base Mem AlignedMalloc Allocators Env Client Vector Array Heap.

(** From no memory and with no behaviour of malloc does [m] end normally. *)
Definition never {X} (m : M X) : Prop := forall w, match m w with Ok _ _ _ => False | Err _ _ => True end.

(** The same for one memory. *)
Definition ends_not {X} (m : M X) (w : world) : Prop := match m w with Ok _ _ _ => False | Err _ _ => True end.

(** The configurations in which aligned_malloc is malloc (lines 51, 53 and 60 of utility/aligned_malloc.h). *)
Definition direct (pl : platform) : bool := match pl with PMalloc | PMm | PMsvc => true | _ => false end.
(** At [p] there is a block of malloc with at least [n] bytes. *)
Definition block_at (p n : N) (w : world) : Prop := p <> 0 /\ exists k, mtab (st w) !! p = Some k /\ n <= k.

(** Operations that store as many elements as they ask room for.  The others are the constructors
    with a size (trivial_vector.h:60-64, trivial_array.h:58-61), with a capacity
    (binary_heap.h:67-85), resize and reserve (trivial_vector.h:285-301, trivial_array.h:264-280,
    binary_heap.h:285-289). *)
Definition vstores (o : vop) : bool :=
  match o with VNewN _ _ _ | VResize _ _ | VReserve _ _ => false | _ => true end.
Definition astores (o : aop) : bool := match o with ANewN _ _ _ | AResize _ _ => false | _ => true end.
Definition hstores (o : hop) : bool := match o with HNewCap _ _ _ _ | HReserve _ _ => false | _ => true end.

(** A request for more than the allocator supports. *)
Definition oversized (req : N -> bool) (e : event) : bool :=
  match e with EvReq n => negb (req n && (n <? W)) | _ => false end.

Section session.
  Context (A : alloc) (b : N) {X O S : Type}.
  Context (stp : O -> env A * gmap nat X -> M (cobs * (env A * gmap nat X))).
  Context (kill : X -> env A -> M (env A)) (chk : O -> cobs -> S -> S -> Prop).

  (** As [csession_ok], but nothing is conceded to a program that ends normally other than requests
      that are too large: every allocation has succeeded. *)
  Definition csession_all (req : N -> bool) (k : nat) (s0 : S) (ops : list O) (w : world) : Prop :=
    match csession A b stp kill k ops w with
    | Ok os w' evs =>
      existsb is_fail evs = false /\
      (existsb (oversized req) evs = true \/
       forallb benign evs = true /\
       ccheck chk ops os s0 /\
       mtab (st w') = mtab (st w) /\
       (forall i, ~ (b <= i < b + N.of_nat k * a_size A) -> mem (st w') !! i = mem (st w) !! i) /\
       storage b (N.of_nat k * a_size A) w')
    | Err _ evs => existsb is_fail evs = true \/ existsb (oversized req) evs = true
    end.
End session.
