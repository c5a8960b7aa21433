(** Programs that use several allocator objects of one type: they construct, move, assign,
    compare and destroy them.  The specification ([mcheck]) says that blocks follow moves and
    mentions neither allocator states nor separation logic. *)
From Verif Require Import Base Mem Bits AlignedMalloc Allocators Tree Transfer Client.

(** [k] and [j] are places for allocator objects. *)
Inductive mop :=
| MNew (k : nat)                     (** construct an object at place k *)
| MMove (k j : nat)                  (** construct an object at k from std::move(object at j) *)
| MAssign (k j : nat)                (** object at k = std::move(object at j) *)
| MDrop (k : nat)                    (** destroy the object at k *)
| MUse (k : nat) (o : op)            (** use the object at k, see Client.v *)
| MGive (k j i : nat).               (** if the objects at k and j compare equal, block i of k
                                         is from now on returned to j *)

Section run.
  Context (pl : platform) (e : aexp).
  Notation A := (den pl e).

  (** A place: its address, and the object there, if any, with its outstanding blocks. *)
  Notation slot := (N * option (a_st A * list (N * N)))%type.

  (** The object may be moved: the assertions of the move operations hold, and an object with
      a buffer has no outstanding blocks (linear_allocator.h:28-32). *)
  Definition movable_now (s : a_st A) (bl : list (N * N)) : bool :=
    may_move pl e s && ((esize e =? 0) || match bl with [] => true | _ => false end).

  (** Steps that make no sense (no object where one is needed, a place already taken, blocks
      outstanding at destruction, self-move) are skipped. *)
  Definition mstep (o : mop) (sl : list slot) : M (obs * list slot) :=
    match o with
    | MNew k =>
      match sl !! k with
      | Some (b, None) => s <- a_init A b ;; ret (ObUnit, <[k := (b, Some (s, []))]> sl)
      | _ => ret (ObUnit, sl)
      end
    | MMove k j =>
      match sl !! k, sl !! j with
      | Some (b, None), Some (b', Some (s, bl)) =>
        if movable_now s bl then
          ' (x, y) <- move_ctor pl e b b' s ;;
          ret (ObBool true, <[j := (b', Some (y, []))]> (<[k := (b, Some (x, bl))]> sl))
        else ret (ObBool false, sl)
      | _, _ => ret (ObUnit, sl)
      end
    | MAssign k j =>
      match sl !! k, sl !! j with
      | Some (b, Some (d, [])), Some (b', Some (s, bl)) =>
        if negb (Nat.eqb k j) && assignable e && movable_now s bl then
          ' (x, y) <- move_assign pl e b d b' s ;;
          ret (ObBool true, <[j := (b', Some (y, []))]> (<[k := (b, Some (x, bl))]> sl))
        else ret (ObBool false, sl)
      | _, _ => ret (ObUnit, sl)
      end
    | MDrop k =>
      match sl !! k with
      | Some (b, Some (s, [])) => a_dtor A b s ;;; ret (ObUnit, <[k := (b, None)]> sl)
      | _ => ret (ObUnit, sl)
      end
    | MUse k o =>
      match sl !! k with
      | Some (b, Some (s, bl)) =>
        ' (ob, (s', bl')) <- step A b (eready_now pl e) o s bl ;;
        ret (ob, <[k := (b, Some (s', bl'))]> sl)
      | _ => ret (ObUnit, sl)
      end
    | MGive k j i =>
      match sl !! k, sl !! j with
      | Some (b, Some (s, bl)), Some (b', Some (s', bl')) =>
        match bl !! i with
        | Some x =>
          if negb (Nat.eqb k j) && same pl e b s b' s' then
            ret (ObBool true, <[j := (b', Some (s', x :: bl'))]> (<[k := (b, Some (s, delete i bl))]> sl))
          else ret (ObBool false, sl)
        | None => ret (ObUnit, sl)
        end
      | _, _ => ret (ObUnit, sl)
      end
    end.

  Fixpoint mrun (ops : list mop) (sl : list slot) : M (list obs * list slot) :=
    match ops with
    | [] => ret ([], sl)
    | o :: ops =>
      ' (ob, sl') <- mstep o sl ;;
      ' (obs, fin) <- mrun ops sl' ;;
      ret (ob :: obs, fin)
    end.

  (** Give all blocks back and destroy all objects. *)
  Fixpoint mfinish (sl : list slot) : M unit :=
    match sl with
    | [] => ret tt
    | (b, None) :: sl => mfinish sl
    | (b, Some (s, bl)) :: sl => s' <- free_all A b bl s ;; a_dtor A b s' ;;; mfinish sl
    end.

  Definition msession (bs : list N) (ops : list mop) : M (list obs) :=
    ' (os, sl) <- mrun ops (map (fun b => (b, None)) bs) ;;
    mfinish sl ;;; ret os.
End run.

(** * Specification *)

(** Byte [q] is in a block of an object other than number [k]. *)
Definition in_other (k : nat) (sl : list (option (list ablk))) (q : N) : Prop :=
  exists j bl, j <> k /\ sl !! j = Some (Some bl) /\ Exists (in_block q) bl.

(** [always]: objects can be moved at any time; [empty]: objects can be moved when no block is
    outstanding; [asg]: the type has a move assignment; [st]: all objects of the type are
    interchangeable. *)
Definition mcheck_step (F : N -> Prop) (ow : bool) (mv : option N) (always empty asg st : bool)
    (o : mop) (ob : obs) (sl sl' : list (option (list ablk))) : Prop :=
  match o with
  | MNew k =>
    ob = ObUnit /\ sl' = match sl !! k with Some None => <[k := Some []]> sl | _ => sl end
  | MMove k j =>
    match sl !! k, sl !! j with
    | Some None, Some (Some bl) =>
      exists r, ob = ObBool r /\ (always = true \/ empty = true /\ bl = [] -> r = true) /\
      sl' = if r then <[j := Some []]> (<[k := Some bl]> sl) else sl
    | _, _ => ob = ObUnit /\ sl' = sl
    end
  | MAssign k j =>
    match sl !! k, sl !! j with
    | Some (Some []), Some (Some bl) =>
      exists r, ob = ObBool r /\ (k <> j -> asg = true -> always = true \/ empty = true /\ bl = [] -> r = true) /\
      sl' = if r then <[j := Some []]> (<[k := Some bl]> sl) else sl
    | _, _ => ob = ObUnit /\ sl' = sl
    end
  | MDrop k =>
    ob = ObUnit /\ sl' = match sl !! k with Some (Some []) => <[k := None]> sl | _ => sl end
  | MUse k o =>
    match sl !! k with
    | Some (Some bl) =>
      exists bl', check_step (fun q => F q \/ in_other k sl q) ow mv o ob bl bl' /\ sl' = <[k := Some bl']> sl
    | _ => ob = ObUnit /\ sl' = sl
    end
  | MGive k j i =>
    match sl !! k, sl !! j with
    | Some (Some bl), Some (Some bl') =>
      match bl !! i with
      | Some x =>
        exists r, ob = ObBool r /\ (k <> j -> st = true -> r = true) /\
        sl' = if r then <[j := Some (x :: bl')]> (<[k := Some (delete i bl)]> sl) else sl
      | None => ob = ObUnit /\ sl' = sl
      end
    | _, _ => ob = ObUnit /\ sl' = sl
    end
  end.

Fixpoint mcheck (F : N -> Prop) (ow : bool) (mv : option N) (always empty asg st : bool)
    (ops : list mop) (os : list obs) (sl : list (option (list ablk))) : Prop :=
  match ops, os with
  | [], [] => True
  | o :: ops, ob :: os => exists sl',
    mcheck_step F ow mv always empty asg st o ob sl sl' /\ mcheck F ow mv always empty asg st ops os sl'
  | _, _ => False
  end.

Definition mrequests (ops : list mop) : list N :=
  flat_map (fun o => match o with MUse _ (OAlloc n) => [n] | _ => [] end) ops.

(** Places for several objects of [n] bytes. *)
Definition places (bs : list N) (n : N) (w : world) : Prop :=
  Forall (fun b => place b n w) bs /\
  (forall i j b b', bs !! i = Some b -> bs !! j = Some b' -> i <> j -> b + n <= b' \/ b' + n <= b).

(** Memory that exists besides the places. *)
Definition beside (bs : list N) (n : N) (w : world) (q : N) : Prop :=
  is_Some (mem (st w) !! q) /\ Forall (fun b => ~ (b <= q < b + n)) bs.

Definition msession_ok (bad : event -> bool) (pl : platform) (e : aexp) (bs : list N) (ops : list mop) (w : world) : Prop :=
  match msession pl e bs ops w with
  | Ok os w' evs =>
    existsb bad evs = true \/
    forallb benign evs = true /\
    (exists mv, (is_Some mv <-> is_Some (a_max (den pl e))) /\
      mcheck (beside bs (esize e) w) (if a_owns (den pl e) then true else false) mv
        (moves_always e) (moves_empty e) (assignable e) (stateless e) ops os (map (fun _ => None) bs)) /\
    mtab (st w') = mtab (st w) /\
    (forall i, Forall (fun b => ~ (b <= i < b + esize e)) bs -> mem (st w') !! i = mem (st w) !! i) /\
    Forall (fun b => storage b (esize e) w') bs
  | Err _ evs => existsb bad evs = true
  end.
