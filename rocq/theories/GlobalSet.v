(** global<A>::set_allocator and get_allocator (global.h:102-115): the static allocator exchanges its
    state with allocator objects of the program. *)
From Verif Require Import Base Mem Bits AlignedMalloc Allocators Tree Transfer Client AllocSpec Slots Global.

(** [j] is a place for an allocator object of type A, see Slots.v; the last place is that of s_Alloc. *)
Inductive gsop :=
| GInst (o : gop)        (** an instance of global: constructed, copied, compared, used *)
| GSet (i j : nat)       (** i.set_allocator(std::move(object at j)) *)
| GObj (o : mop).        (** the program's own objects, and s_Alloc by way of get_allocator() *)

(** s_Alloc exists as long as the program runs. *)
Definition keeps_static (z : nat) (o : mop) : bool :=
  match o with
  | MNew k | MMove k _ | MDrop k => negb (Nat.eqb k z)
  | _ => true
  end.

Section run.
  Context (pl : platform) (e : aexp) (z : nat).
  Notation A := (den pl e).
  Notation slot := (N * option (a_st A * list (N * N)))%type.

  Definition gs_step (o : gsop) (sl : list slot) : M (obs * list slot) :=
    match o with
    (* 26-50: instances have no data *)
    | GInst (GNew _) | GInst (GCopy _ _) | GInst (GAssign _ _) | GInst (GDestroy _) => ret (ObUnit, sl)
    | GInst (GEqual _ _) | GInst (GUnequal _ _) => ret (ObBool true, sl)
    (* 53-99 *)
    | GInst (GUse _ o) =>
      match sl !! z with
      | Some (b, Some (s, bl)) =>
        ' (ob, (s', bl')) <- step A b (eready_now pl e) o s bl ;; ret (ob, <[z := (b, Some (s', bl'))]> sl)
      | _ => ret (ObUnit, sl)
      end
    (* 102-105; skipped if s_Alloc has outstanding blocks, or if the object cannot be moved *)
    | GSet _ j =>
      match sl !! z, sl !! j with
      | Some (b, Some (d, [])), Some (b', Some (s, bl)) =>
        if negb (Nat.eqb z j) && assignable e && movable_now pl e s bl then
          ' (x, y) <- move_assign pl e b d b' s ;;
          ret (ObBool true, <[j := (b', Some (y, []))]> (<[z := (b, Some (x, bl))]> sl))
        else ret (ObBool false, sl)
      | _, _ => ret (ObUnit, sl)
      end
    (* 107-115 *)
    | GObj o => if keeps_static z o then mstep pl e o sl else ret (ObUnit, sl)
    end.

  Fixpoint gs_run (ops : list gsop) (sl : list slot) : M (list obs * list slot) :=
    match ops with
    | [] => ret ([], sl)
    | o :: ops => ' (ob, sl') <- gs_step o sl ;; ' (os, fin) <- gs_run ops sl' ;; ret (ob :: os, fin)
    end.
End run.

(** s_Alloc (115, at [b]) is constructed before main and destroyed after all other objects. *)
Definition gs_session (pl : platform) (e : aexp) (bs : list N) (b : N) (ops : list gsop) : M (list obs) :=
  let z := length bs in
  s <- a_init (den pl e) b ;;
  ' (os, sl) <- gs_run pl e z ops (map (fun b => (b, None)) bs ++ [(b, Some (s, []))]) ;;
  mfinish pl e sl ;;; ret os.

(** * Specification: one object at [z] that is assigned to *)
Definition plain (z : nat) (o : gsop) : list mop :=
  match o with
  | GInst (GUse _ o) => [MUse z o]
  | GInst _ => []
  | GSet _ j => [MAssign z j]
  | GObj o => if keeps_static z o then [o] else []
  end.
Definition plains (z : nat) (ops : list gsop) : list mop := flat_map (plain z) ops.

(** The observations that belong to them; the others are fixed. *)
Fixpoint gs_seen (z : nat) (ops : list gsop) (os : list obs) : list obs :=
  match ops, os with
  | o :: ops, ob :: os => match plain z o with [] => gs_seen z ops os | _ => ob :: gs_seen z ops os end
  | _, _ => []
  end.
Fixpoint gs_rest (z : nat) (ops : list gsop) (os : list obs) : Prop :=
  match ops, os with
  | [], [] => True
  | o :: ops, ob :: os =>
    match o with
    | GInst (GEqual _ _) | GInst (GUnequal _ _) => ob = ObBool true
    | GInst (GUse _ _) | GSet _ _ => True
    | GInst _ => ob = ObUnit
    | GObj o => keeps_static z o = false -> ob = ObUnit
    end /\ gs_rest z ops os
  | _, _ => False
  end.

(** As [msession_ok] of Slots.v for the objects at [bs] and s_Alloc at [b]. *)
Definition gs_ok (bad : event -> bool) (pl : platform) (e : aexp) (bs : list N) (b : N) (ops : list gsop) (w : world) : Prop :=
  let all := bs ++ [b] in
  let z := length bs in
  match gs_session pl e bs b ops w with
  | Ok os w' evs =>
    existsb bad evs = true \/
    forallb benign evs = true /\
    gs_rest z ops os /\
    (exists mv, (is_Some mv <-> is_Some (a_max (den pl e))) /\
      mcheck (beside all (esize e) w) (if a_owns (den pl e) then true else false) mv
        (moves_always e) (moves_empty e) (assignable e) (stateless e)
        (plains z ops) (gs_seen z ops os) (map (fun _ => None) bs ++ [Some []])) /\
    mtab (st w') = mtab (st w) /\
    (forall i, Forall (fun b => ~ (b <= i < b + esize e)) all -> mem (st w') !! i = mem (st w) !! i) /\
    Forall (fun b => storage b (esize e) w') all
  | Err _ evs => existsb bad evs = true
  end.
