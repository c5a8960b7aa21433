(** Programs that use an allocator, and what they may observe.  The specification ([check])
    mentions neither allocator states nor separation logic. *)
From Verif Require Import Base Mem Allocators.

(** One use of the allocator, or of a block obtained from it.  [i] is the position in the
    list of outstanding blocks, newest first. *)
Inductive op :=
| OAlloc (n : N)                      (** allocate(n) *)
| OFree (i : nat)                     (** deallocate(p, n) of block i *)
| OWrite (i : nat) (off v : N)        (** p[off] = v *)
| ORead (i : nat) (off : N)           (** p[off] *)
| OOwns (q : N)                       (** owns(q) *)
| OMax                                (** max_size() *)
| OConstruct (i : nat) (off v : N)    (** construct<unsigned char>(p + off, v) *)
| ODestroy (i : nat) (off : N).       (** destroy<unsigned char>(p + off) *)

(** What the program sees. *)
Inductive obs :=
| ObPtr (p : N)
| ObByte (v : option N)               (** None: an indeterminate byte *)
| ObBool (b : bool)
| ObNum (v : N)
| ObUnit.

(** * Execution *)
Section run.
  Context (A : alloc) (b : N) (ready : N -> a_st A -> bool).

  (** std::allocator_traits: without construct/destroy the action is performed directly. *)
  Definition traits_cd (c : cd) (s : a_st A) (q : N) (act : M unit) : M (a_st A) :=
    match a_cd A with
    | Some o => o c b s q act
    | None => act ;;; ret s
    end.

  (** Uses of a block that does not exist are skipped, as are members the class lacks and
      max_size() in states in which it is undefined ([ready], see C22). *)
  Definition step (o : op) (s : a_st A) (bl : list (N * N)) : M (obs * (a_st A * list (N * N))) :=
    match o with
    | OAlloc n =>
      ' (p, s') <- a_alloc A b s n ;;
      ret (ObPtr p, (s', if p =? 0 then bl else (p, n) :: bl))
    | OFree i =>
      match bl !! i with
      | Some (p, n) => s' <- a_free A b s p n ;; ret (ObUnit, (s', delete i bl))
      | None => ret (ObUnit, (s, bl))
      end
    | OWrite i off v =>
      match bl !! i with
      | Some (p, n) => if off <? n then wr (p + off) (Byte v) ;;; ret (ObUnit, (s, bl)) else ret (ObUnit, (s, bl))
      | None => ret (ObUnit, (s, bl))
      end
    | ORead i off =>
      match bl !! i with
      | Some (p, n) =>
        if off <? n then
          c <- rd (p + off) ;;
          ret (match c with Byte v => ObByte (Some v) | _ => ObByte None end, (s, bl))
        else ret (ObUnit, (s, bl))
      | None => ret (ObUnit, (s, bl))
      end
    | OOwns q =>
      match a_owns A with
      | Some o => ret (ObBool (o b s q), (s, bl))
      | None => ret (ObUnit, (s, bl))
      end
    | OMax =>
      match a_max A with
      | Some mx => if ready b s then v <- mx b s ;; ret (ObNum v, (s, bl)) else ret (ObUnit, (s, bl))
      | None => ret (ObUnit, (s, bl))
      end
    | OConstruct i off v =>
      match bl !! i with
      | Some (p, n) =>
        if off <? n then s' <- traits_cd Construct s (p + off) (wr (p + off) (Byte v)) ;; ret (ObUnit, (s', bl))
        else ret (ObUnit, (s, bl))
      | None => ret (ObUnit, (s, bl))
      end
    | ODestroy i off =>
      match bl !! i with
      | Some (p, n) =>
        if off <? n then s' <- traits_cd Destroy s (p + off) (ret tt) ;; ret (ObUnit, (s', bl))
        else ret (ObUnit, (s, bl))
      | None => ret (ObUnit, (s, bl))
      end
    end.

  Fixpoint run (ops : list op) (s : a_st A) (bl : list (N * N)) : M (list obs * (a_st A * list (N * N))) :=
    match ops with
    | [] => ret ([], (s, bl))
    | o :: ops =>
      ' (ob, (s', bl')) <- step o s bl ;;
      ' (obs, fin) <- run ops s' bl' ;;
      ret (ob :: obs, fin)
    end.

  Fixpoint free_all (bl : list (N * N)) (s : a_st A) : M (a_st A) :=
    match bl with
    | [] => ret s
    | (p, n) :: bl => s' <- a_free A b s p n ;; free_all bl s'
    end.

  (** Construct the allocator, run the program, give all blocks back, destroy the allocator. *)
  Definition session (ops : list op) : M (list obs) :=
    s <- a_init A b ;;
    ' (os, (s', bl)) <- run ops s [] ;;
    s'' <- free_all bl s' ;;
    a_dtor A b s'' ;;;
    ret os.
End run.

(** * Specification *)

(** Expected contents of the outstanding blocks: address and, for each byte, the value last
    written, if any. *)
Notation ablk := (N * list (option N))%type.

Definition in_block (q : N) (x : ablk) : Prop := fst x <= q < fst x + N.of_nat (length (snd x)).

(** [F] is the memory of the rest of the program; [ow]: the class has owns; [mv] is what max_size() returns, [None] if
    there is no such member. *)
Definition check_step (F : N -> Prop) (ow : bool) (mv : option N) (o : op) (ob : obs) (bl bl' : list ablk) : Prop :=
  match o with
  | OAlloc n =>
    exists p, ob = ObPtr p /\
    (p = 0 /\ bl' = bl \/
     p <> 0 /\ p mod 16 = 0 /\ p + n < W /\ (forall v, mv = Some v -> n <= v) /\
     (forall q, p <= q < p + n -> ~ F q /\ Forall (fun x => ~ in_block q x) bl) /\
     bl' = (p, repeat None (N.to_nat n)) :: bl)
  | OFree i => ob = ObUnit /\ bl' = delete i bl
  | OWrite i off v | OConstruct i off v =>
    ob = ObUnit /\ bl' = alter (fun x => (fst x, <[N.to_nat off := Some v]> (snd x))) i bl
  | ODestroy i off => ob = ObUnit /\ bl' = bl
  | ORead i off =>
    bl' = bl /\
    forall p vs v, bl !! i = Some (p, vs) -> vs !! N.to_nat off = Some (Some v) -> ob = ObByte (Some v)
  | OOwns q =>
    bl' = bl /\
    if ow then exists r, ob = ObBool r /\ (Exists (in_block q) bl -> r = true) /\ (F q -> r = false)
    else ob = ObUnit
  | OMax => bl' = bl /\ forall v, ob = ObNum v -> mv = Some v
  end.

Fixpoint check (F : N -> Prop) (ow : bool) (mv : option N) (ops : list op) (os : list obs) (bl : list ablk) : Prop :=
  match ops, os with
  | [], [] => True
  | o :: ops, ob :: os => exists bl', check_step F ow mv o ob bl bl' /\ check F ow mv ops os bl'
  | _, _ => False
  end.

(** The sizes that are asked for. *)
Definition requests (ops : list op) : list N :=
  flat_map (fun o => match o with OAlloc n => [n] | _ => [] end) ops.

(** * Sessions

    Memory that exists besides the [n] bytes at [b]. *)
Definition elsewhere (b n : N) (w : world) (q : N) : Prop :=
  is_Some (mem (st w) !! q) /\ ~ (b <= q < b + n).

(** [n] bytes of raw storage at [b]. *)
Definition storage (b n : N) (w : world) : Prop :=
  forall i, b <= i < b + n -> exists c, mem (st w) !! i = Some c /\ dead c.

(** The whole claim about one session: unless an event classified as [bad] occurs, there is
    no undefined behaviour, no failed assertion, all observations are as specified, and
    afterwards the heap and all memory except the inline storage are as they were. *)
Definition session_ok (bad : event -> bool) (A : alloc) (ready : N -> a_st A -> bool) (b : N) (ops : list op) (w : world) : Prop :=
  match session A b ready ops w with
  | Ok os w' evs =>
    existsb bad evs = true \/
    forallb benign evs = true /\
    (exists mv, (is_Some mv <-> is_Some (a_max A)) /\ check (elsewhere b (a_size A) w) (if a_owns A then true else false) mv ops os []) /\
    (* the heap is as before and the rest of the memory is untouched *)
    mtab (st w') = mtab (st w) /\
    (forall i, ~ (b <= i < b + a_size A) -> mem (st w') !! i = mem (st w) !! i) /\
    storage b (a_size A) w'
  | Err _ evs => existsb bad evs = true
  end.

(** A place for the allocator object: aligned raw storage; the null page is not mapped. *)
Definition place (b n : N) (w : world) : Prop :=
  b <> 0 /\ b mod 16 = 0 /\ b + n < W /\ storage b n w /\ mem (st w) !! 0 = None.

(** Every request of the program satisfies [req]. *)
Definition asks (req : N -> bool) (ops : list op) : Prop :=
  Forall (fun n => req n = true /\ n < W) (requests ops).

(** The only event that is outside the scope of the claims. *)
Definition is_fail (e : event) : bool := match e with EvFail => true | _ => false end.
(** malloc returned null. *)
Definition is_refuse (e : event) : bool := match e with EvRefuse => true | _ => false end.
(** malloc refused a request and the null pointer was used without a check. *)
Definition starved (evs : list event) : bool := existsb is_refuse evs && existsb is_fail evs.
