(** shared<A> with any number of handles (one thread; AtomicShared in Threads.v treats several). *)
From Verif Require Import Base Mem Bits AlignedMalloc Allocators Client.

(** What a program does with handles, which are named by numbers. *)
Inductive hop :=
| HNew (h : nat)                 (** shared h; *)
| HCopy (h src : nat)            (** shared h(src); *)
| HMove (h src : nat)            (** shared h(std::move(src)); *)
| HAssign (h src : nat)          (** h = src; *)
| HMoveAssign (h src : nat)      (** h = std::move(src); *)
| HDestroy (h : nat)             (** end of the lifetime of h *)
| HUse (h : nat) (o : op).       (** any call of Client.v through h *)

Section shared.
  Context (pl : platform) (A : alloc) (ready : N -> a_st A -> bool).

  (** * The code *)

  (** shared.h:46-58: Allocator (inline bytes at [k_addr], fields [k_in]) and UseCount. *)
  Record block := Block { k_addr : N; k_in : a_st A; k_cnt : N }.

  (** Handles and live blocks.  A pointer to a block is represented by the identity of the block
      (a fresh number for every construction); a pointer whose block is gone dangles.  [None] is
      the null pointer.  [p_out] belongs to the program: the blocks of memory it has obtained
      through each shared block. *)
  Record pool := Pool {
    p_hs : gmap nat (option nat);
    p_bk : gmap nat block;
    p_next : nat;
    p_out : gmap nat (list (N * N))
  }.

  (** shared.h:63-66: aligned_new (utility/aligned_malloc.h:89-96) of a block with UseCount 1. *)
  Definition new_block : M block :=
    p <- aligned_malloc pl (a_size A + 16) ALIGNMENT ;;
    if p =? 0 then emit EvFail ;;; ubm UBNull
    else s <- a_init A p ;; ret (Block p s 1).

  (** shared.h:192-197 *)
  Definition increment (x : option nat) (bk : gmap nat block) : M (gmap nat block) :=
    match x with
    | None => ret bk
    | Some g =>
      match bk !! g with
      | None => ubm UBLifetime
      | Some k => ret (<[g := Block (k_addr k) (k_in k) (add64 (k_cnt k) 1)]> bk)
      end
    end.

  (** shared.h:199-206 *)
  Definition decrement (x : option nat) (bk : gmap nat block) : M (gmap nat block) :=
    match x with
    | None => ret bk
    | Some g =>
      match bk !! g with
      | None => ubm UBLifetime
      | Some k =>
        if k_cnt k =? 1 then
          (* aligned_delete, utility/aligned_malloc.h:98-104 *)
          a_dtor A (k_addr k) (k_in k) ;;; aligned_free pl (k_addr k) ;;; ret (delete g bk)
        else ret (<[g := Block (k_addr k) (k_in k) (sub64 (k_cnt k) 1)]> bk)
      end
    end.

  (** m_Block of a handle *)
  Definition ptr (h : nat) (q : pool) : option nat :=
    match p_hs q !! h with Some x => x | None => None end.

  Definition set_hs (hs : gmap nat (option nat)) (q : pool) : pool := Pool hs (p_bk q) (p_next q) (p_out q).
  Definition set_bk (bk : gmap nat block) (q : pool) : pool := Pool (p_hs q) bk (p_next q) (p_out q).

  Definition hstep (o : hop) (q : pool) : M (obs * pool) :=
    match o with
    | HNew h =>
      k <- new_block ;;
      ret (ObUnit, Pool (<[h := Some (p_next q)]> (p_hs q)) (<[p_next q := k]> (p_bk q)) (S (p_next q))
                        (<[p_next q := []]> (p_out q)))
    | HCopy h src =>
      (* 78-82 *)
      let q := set_hs (<[h := ptr src q]> (p_hs q)) q in
      bk <- increment (ptr h q) (p_bk q) ;;
      ret (ObUnit, set_bk bk q)
    | HMove h src =>
      (* 84-88 *)
      let q := set_hs (<[h := ptr src q]> (p_hs q)) q in
      ret (ObUnit, set_hs (<[src := None]> (p_hs q)) q)
    | HAssign h src =>
      (* 95-105 *)
      bk <- decrement (ptr h q) (p_bk q) ;;
      let q := set_bk bk q in
      let q := set_hs (<[h := ptr src q]> (p_hs q)) q in
      bk <- increment (ptr h q) (p_bk q) ;;
      ret (ObUnit, set_bk bk q)
    | HMoveAssign h src =>
      (* 107-117 *)
      bk <- decrement (ptr h q) (p_bk q) ;;
      let q := set_bk bk q in
      let q := set_hs (<[h := ptr src q]> (p_hs q)) q in
      ret (ObUnit, set_hs (<[src := None]> (p_hs q)) q)
    | HDestroy h =>
      (* 90-93 *)
      bk <- decrement (ptr h q) (p_bk q) ;;
      ret (ObUnit, set_hs (delete h (p_hs q)) (set_bk bk q))
    | HUse h o =>
      (* 132-183 *)
      match ptr h q with
      | None => ubm UBNull
      | Some g =>
        match p_bk q !! g with
        | None => ubm UBLifetime
        | Some k =>
          ' (ob, (s', bl')) <- step A (k_addr k) ready o (k_in k) (default [] (p_out q !! g)) ;;
          ret (ob, Pool (p_hs q) (<[g := Block (k_addr k) s' (k_cnt k)]> (p_bk q)) (p_next q) (<[g := bl']> (p_out q)))
        end
      end
    end.

  (** shared.h:119-123: operator==, where [eqA] is operator== of the allocators inside. *)
  Definition hsame (eqA : N -> a_st A -> N -> a_st A -> bool) (h h' : nat) (q : pool) : M bool :=
    if bool_decide (ptr h q = ptr h' q) then
      match ptr h q, ptr h' q with
      | Some g, Some g' =>
        match p_bk q !! g, p_bk q !! g' with
        | Some k, Some k' => ret (eqA (k_addr k) (k_in k) (k_addr k') (k_in k'))
        | _, _ => ubm UBLifetime
        end
      | _, _ => ubm UBNull
      end
    else ret false.

  (** * Which programs *)

  (** No handle except [h] refers to [g]. *)
  Definition alone (h g : nat) (hs : gmap nat (option nat)) : bool :=
    bool_decide (filter (fun kv => snd kv = Some g) (delete h hs) = ∅).

  (** If [h] is the last handle, the program has returned all memory. *)
  Definition may_drop (h : nat) (hs : gmap nat (option nat)) (out : gmap nat (list (N * N))) : bool :=
    match hs !! h with
    | Some (Some g) => if alone h g hs then match default [] (out !! g) with [] => true | _ => false end else true
    | Some None => true
    | None => false
    end.

  (** The C++ program is well-formed: objects are used while they exist, a handle that was moved
      from is only assigned to or destroyed, no handle is assigned to itself. *)
  Definition legal (o : hop) (hs : gmap nat (option nat)) (out : gmap nat (list (N * N))) : bool :=
    match o with
    | HNew h => bool_decide (hs !! h = None)
    | HCopy h src | HMove h src => bool_decide (hs !! h = None) && bool_decide (is_Some (hs !! src))
    | HAssign h src | HMoveAssign h src =>
      negb (bool_decide (h = src)) && bool_decide (is_Some (hs !! src)) && may_drop h hs out
    | HDestroy h => may_drop h hs out
    | HUse h _ => match hs !! h with Some (Some _) => true | _ => false end
    end.

  (** Operations that are not allowed are left out. *)
  Fixpoint hrun (ops : list hop) (q : pool) : M (list obs * pool) :=
    match ops with
    | [] => ret ([], q)
    | o :: ops =>
      ' (ob, q') <- (if legal o (p_hs q) (p_out q) then hstep o q else ret (ObUnit, q)) ;;
      ' (os, q'') <- hrun ops q' ;;
      ret (ob :: os, q'')
    end.

  Definition pool0 : pool := Pool ∅ ∅ 0 ∅.

  (** * Specification

      No counters: groups of handles, each with one object of the single-handle type [shared];
      the object is destroyed when the last handle of the group disappears.  Nothing in the
      specification itself can go wrong. *)
  Record family := Family {
    f_hs : gmap nat (option nat);
    f_gr : gmap nat (sh A);
    f_next : nat;
    f_out : gmap nat (list (N * N))
  }.

  (** [h] no longer refers to its group. *)
  Definition drop (h : nat) (f : family) : M (gmap nat (sh A)) :=
    match f_hs f !! h with
    | Some (Some g) =>
      match alone h g (f_hs f), f_gr f !! g with
      | true, Some s => a_dtor (shared pl A) 0 s ;;; ret (delete g (f_gr f))
      | _, _ => ret (f_gr f)
      end
    | _ => ret (f_gr f)
    end.

  Definition target (h : nat) (f : family) : option nat :=
    match f_hs f !! h with Some x => x | None => None end.

  Definition sstep (o : hop) (f : family) : M (obs * family) :=
    match o with
    | HNew h =>
      s <- a_init (shared pl A) 0 ;;
      ret (ObUnit, Family (<[h := Some (f_next f)]> (f_hs f)) (<[f_next f := s]> (f_gr f)) (S (f_next f))
                          (<[f_next f := []]> (f_out f)))
    | HCopy h src => ret (ObUnit, Family (<[h := target src f]> (f_hs f)) (f_gr f) (f_next f) (f_out f))
    | HMove h src =>
      ret (ObUnit, Family (<[src := None]> (<[h := target src f]> (f_hs f))) (f_gr f) (f_next f) (f_out f))
    | HAssign h src =>
      gr <- drop h f ;; ret (ObUnit, Family (<[h := target src f]> (f_hs f)) gr (f_next f) (f_out f))
    | HMoveAssign h src =>
      gr <- drop h f ;;
      ret (ObUnit, Family (<[src := None]> (<[h := target src f]> (f_hs f))) gr (f_next f) (f_out f))
    | HDestroy h => gr <- drop h f ;; ret (ObUnit, Family (delete h (f_hs f)) gr (f_next f) (f_out f))
    | HUse h o =>
      match target h f with
      | None => ret (ObUnit, f)
      | Some g =>
        match f_gr f !! g with
        | None => ret (ObUnit, f)
        | Some s =>
          ' (ob, (s', bl')) <- step (shared pl A) 0 (fun _ s => ready (sh_block s) (sh_in s)) o s (default [] (f_out f !! g)) ;;
          ret (ob, Family (f_hs f) (<[g := s']> (f_gr f)) (f_next f) (<[g := bl']> (f_out f)))
        end
      end
    end.

  Fixpoint srun (ops : list hop) (f : family) : M (list obs * family) :=
    match ops with
    | [] => ret ([], f)
    | o :: ops =>
      ' (ob, f') <- (if legal o (f_hs f) (f_out f) then sstep o f else ret (ObUnit, f)) ;;
      ' (os, f'') <- srun ops f' ;;
      ret (ob :: os, f'')
    end.

  Definition family0 : family := Family ∅ ∅ 0 ∅.

  (** The pool holds exactly the groups of the specification, at the same addresses and in the
      same states, and a group exists exactly as long as a handle refers to it. *)
  Definition agree (q : pool) (f : family) : Prop :=
    p_hs q = f_hs f /\ p_next q = f_next f /\ p_out q = f_out f /\
    (forall g, option_map (fun k => Sh (k_addr k) (k_in k)) (p_bk q !! g) = f_gr f !! g) /\
    (forall g, is_Some (p_bk q !! g) <-> exists h, p_hs q !! h = Some (Some g)).

  (** Two computations with the same effects and events and with related results. *)
  Definition same {X Y} (R : X -> Y -> Prop) (m : res X) (n : res Y) : Prop :=
    match m, n with
    | Ok a w e, Ok b w' e' => w = w' /\ e = e' /\ R a b
    | Err u e, Err u' e' => u = u' /\ e = e'
    | _, _ => False
    end.
End shared.
Arguments Block {A}.
Arguments k_addr {A}.
Arguments k_in {A}.
Arguments k_cnt {A}.
Arguments Pool {A}.
Arguments p_hs {A}.
Arguments p_bk {A}.
Arguments p_next {A}.
Arguments p_out {A}.
Arguments Family {A}.
Arguments f_hs {A}.
Arguments f_gr {A}.
Arguments f_next {A}.
Arguments f_out {A}.
Arguments pool0 {A}.
Arguments family0 {A}.
Arguments agree {A}.
