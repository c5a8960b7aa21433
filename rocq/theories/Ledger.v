(** What containers report that own an overflow allocator: every copy and every move of a container
    leaves a debt. *)
From Verif Require Import Base Mem AlignedMalloc Allocators Checked Tree Client Env Vector Array HeapPure Heap Books Owned.

Local Open Scope N_scope.

(** No other overflow inside *)
Fixpoint uncounted (e : aexp) : bool :=
  match e with
  | EOverflow _ => false
  | EFreelist _ _ e | ECascading e | EShared e | EThreaded e | EReference e | EGlobal e | EChecked e => uncounted e
  | EFallback p f | ESegragator _ p f => uncounted p && uncounted f
  | ENull | EMalloc | ELinear _ | EStack _ => true
  end.

Definition leaks (evs : list event) : list event := List.filter is_report evs.

(** * The ledger

    Beside an ordinary run, in which containers refer to the allocators of the program (Env.v), one
    keeps for every container a number of bytes and a number of objects: its debt. *)
Definition debt : Type := (Z * Z)%type.
Definition words (d : debt) : list event :=
  (if (s64 (fst d) =? 0)%Z then [] else [EvLeak (s64 (fst d))]) ++ (if (s64 (snd d) =? 0)%Z then [] else [EvLogic (s64 (snd d))]).

Section ledger.
  Context (A : alloc) (b : N) {X Op : Type}.
  Context (stp : Op -> env A * gmap nat X -> M (cobs * (env A * gmap nat X))).
  Context (legal : gmap nat X -> Op -> bool) (rl : Op -> role Op).
  Context (kill : X -> env A -> M (env A)).
  (** Bytes of storage, number of objects *)
  Context (val num : X -> N).

  Definition debt_of (c : nat) (D : gmap nat debt) : debt := default (0, 0)%Z (D !! c).
  Definition bytes_of (c : nat) (vs : gmap nat X) : Z := match vs !! c with Some x => Z.of_N (val x) | None => 0%Z end.
  Definition objects_of (c : nat) (vs : gmap nat X) : Z := match vs !! c with Some x => Z.of_N (num x) | None => 0%Z end.
  (** Debt and possessions of [c] *)
  Definition total (c : nat) (vs : gmap nat X) (D : gmap nat debt) : debt :=
    (fst (debt_of c D) + bytes_of c vs, snd (debt_of c D) + objects_of c vs)%Z.

  (** What operation [o] reports, and the debts afterwards. *)
  Definition entry (o : Op) (vs : gmap nat X) (D : gmap nat debt) : list event * gmap nat debt :=
    match rl o with
    | RMake c _ => ([], <[c := (0, 0)%Z]> D)                       (* a new container has no debt *)
    | RCopy tmp c src =>                                           (* a copy owes what the original has and owes *)
      (if tmp then words (total src vs D) else [], <[c := total src vs D]> D)
    | RMove c src =>                                               (* the debt moves; what was moved is owed *)
      ([], <[src := total src vs D]> (<[c := debt_of src D]> D))
    | RSplit c src _ _ =>                                          (* the objects are not destroyed *)
      ([], <[src := (fst (debt_of src D), snd (debt_of src D) + objects_of src vs)%Z]> (<[c := (0, 0)%Z]> D))
    | RKill c => (words (debt_of c D), delete c D)                 (* the debt is reported *)
    | RUse _ | RAssign _ _ => ([], D)
    end.

  Fixpoint lrun (ops : list Op) (q : env A * gmap nat X) (D : gmap nat debt)
    : M (list cobs * (list event * ((env A * gmap nat X) * gmap nat debt))) :=
    match ops with
    | [] => ret ([], ([], (q, D)))
    | o :: ops =>
      let (r, D') := if legal (snd q) o then entry o (snd q) D else ([], D) in
      ' (ob, q) <- stp o q ;;
      ' (os, (rs, y)) <- lrun ops q D' ;;
      ret (ob :: os, (r ++ rs, y))
    end.

  Definition lsession (k : nat) (ops : list Op) : M (list cobs * list event) :=
    E <- init_all A b 0 k ∅ ;;
    ' (os, (rs, ((E, vs), D))) <- lrun ops (E, ∅) ∅ ;;
    E <- kill_all A kill (map_to_list vs) E ;;
    dtor_all A b 0 k E ;;;
    ret (os, rs ++ concat (map (fun x => words (debt_of (fst x) D)) (map_to_list vs))).
End ledger.

(** The reports of a program are those in the ledger, unless memory runs out. *)
Definition tallies (r : res (list cobs)) (r' : res (list cobs * list event)) : Prop :=
  match r, r' with
  | Ok os _ evs, Ok (os', rs) _ _ => os = os' /\ (existsb lost evs = true \/ leaks evs = rs)
  | Err _ _, Err _ _ => True
  | _, _ => False
  end.

(** * The containers *)

(** What counts as a copy, a move, ... of a container.  These tables belong to the specification; those of the
    model are in Owned.v. *)
Definition v_deed (o : vop) : role vop :=
  match o with
  | VNew c h | VNewN c _ h | VNewFill c _ _ h | VNewList c _ h | VNewRange c _ h | VCopyAl c _ h => RMake c h
  | VCopy c src => RCopy true c src
  | VMove c src => RMove c src
  | VMoveAl c src h => RSplit c src h (VCopyAl c src h)
  | VAssign c src | VMoveAssign c src => RAssign c src
  | VDestroy c => RKill c
  | VGet c _ | VSet c _ _ | VSize c | VCap c | VEmpty c | VData c | VResize c _ | VReserve c _ | VPush c _ | VPushRange c _
  | VErase c _ | VEraseRange c _ _ | VClear c => RUse c
  end.
Definition a_deed (o : aop) : role aop :=
  match o with
  | ANew c h | ANewN c _ h | ANewFill c _ _ h | ANewList c _ h | ANewRange c _ h | ACopyAl c _ h => RMake c h
  | ACopy c src => RCopy false c src
  | AMove c src => RMove c src
  | AMoveAl c src h => RSplit c src h (ACopyAl c src h)
  | AAssign c src | AMoveAssign c src => RAssign c src
  | ADestroy c => RKill c
  | AGet c _ | ASet c _ _ | ASize c | AEmpty c | AData c | AResize c _ | AFrom c _ => RUse c
  end.
Definition h_deed (o : hop) : role hop :=
  match o with
  | HNew c _ h | HNewCap c _ _ h | HNewList c _ _ h | HCopyAl c _ h => RMake c h
  | HCopy c src => RCopy false c src
  | HMove c src => RMove c src
  | HMoveAl c src h => RSplit c src h (HCopyAl c src h)
  | HAssign c src | HMoveAssign c src => RAssign c src
  | HDestroy c => RKill c
  | HSize c | HCap c | HEmpty c | HData c | HAt c _ | HReserve c _ | HInsert c _ | HPeek c | HPop c | HFind c _ | HClear c => RUse c
  end.

Definition vector_ledger (pl : platform) (e : aexp) (b sz : N) (k : nat) (ops : list vop) : M (list cobs * list event) :=
  lsession (den pl e) b (vstep (den pl e) b sz k) (fun vs => vlegal sz k (v_info sz <$> vs)) v_deed (release (den pl e) b sz)
    (v_bytes sz) (fun _ => 0) k ops.
Definition array_ledger (pl : platform) (e : aexp) (b sz : N) (k : nat) (ops : list aop) : M (list cobs * list event) :=
  lsession (den pl e) b (astep (den pl e) b sz k) (fun vs => alegal sz k (a_info sz <$> vs)) a_deed (arelease (den pl e) b sz)
    (r_bytes sz) (fun _ => 0) k ops.
Definition heap_ledger (pl : platform) (e : aexp) (b sz : N) (k : nat) (T : elt) (comp : nat -> value -> value -> bool)
  (eqv : value -> value -> bool) (ops : list hop) : M (list cobs * list event) :=
  lsession (den pl e) b (hstep (den pl e) b sz T comp eqv k) (fun vs => hlegal sz T k (h_info <$> vs)) h_deed (hrelease (den pl e) b sz T)
    (h_bytes sz) h_size k ops.

(** The run without the ledger *)
Definition forget {X Y} (r : res (X * Y)) : res X :=
  match r with Ok (x, _) w evs => Ok x w evs | Err u evs => Err u evs end.

(** No container is copied or moved; for heaps, not even to another allocator. *)
Definition v_stays (o : vop) : bool := match o with VCopy _ _ | VMove _ _ => false | _ => true end.
Definition a_stays (o : aop) : bool := match o with ACopy _ _ | AMove _ _ => false | _ => true end.
Definition h_stays (o : hop) : bool := match o with HCopy _ _ | HMove _ _ | HMoveAl _ _ _ => false | _ => true end.
(** Nothing is reported, unless memory runs out. *)
Definition unreported {X} (r : res X) : Prop :=
  match r with Ok _ _ evs => existsb lost evs = true \/ leaks evs = [] | Err _ _ => True end.
