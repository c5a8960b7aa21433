(** Containers that hold their allocator by value: every container has an allocator object of its own,
    which is copied and destroyed with it.  (The other container programs refer to allocators by an
    index, see Env.v.) *)
From Verif Require Import Base Mem AlignedMalloc Allocators Checked Tree Client Env Vector Array HeapPure Heap.

(** * Copies of allocator objects *)

(** The copy constructor exists: not for linear_allocator (linear_allocator.h:26), freelist
    (freelist.h:57), cascading (cascading.h:48), threaded (threaded.h:42).  type_allocator also
    turns moves into copies (type_allocator.h:59-90). *)
Fixpoint copyable (e : aexp) : bool :=
  match e with
  | ENull | EMalloc | EStack _ | EShared _ | EReference _ | EGlobal _ => true
  | EFallback p f | ESegragator _ p f => copyable p && copyable f
  | EOverflow e => copyable e
  | ELinear _ | EFreelist _ _ _ | ECascading _ | EThreaded _ | EChecked _ => false
  end.

(** The copy assignment exists: not for overflow, which has a reference member (overflow.h:276). *)
Fixpoint reassignable (e : aexp) : bool :=
  match e with
  | ENull | EMalloc | EStack _ | EShared _ | EReference _ | EGlobal _ => true
  | EFallback p f | ESegragator _ p f => reassignable p && reassignable f
  | EOverflow _ | ELinear _ | EFreelist _ _ _ | ECascading _ | EThreaded _ | EChecked _ => false
  end.

(** An object and its copy have the same handles (stack_allocator.h:44, shared.h:78-82,
    reference.h:29-31, global.h:28), and what is behind the handles exists once.  (The use count of
    shared is in SharedCont.v.)  Of their own they have the counters of overflow (overflow.h:277-279,
    copied by overflow.h:55), also as members of fallback and segragator (fallback.h:79,
    segragator.h:76).  The object with the counters of [o] and with [s] behind its handles: *)
Fixpoint graft (pl : platform) (e : aexp) : a_st (den pl e) -> a_st (den pl e) -> a_st (den pl e) :=
  match e with
  | EFallback p f | ESegragator _ p f => fun o s => (graft pl p (fst o) (fst s), graft pl f (snd o) (snd s))
  | EOverflow e => fun o s => Ov (graft pl e (o_in o) (o_in s)) (o_allocs o) (o_cons o)
  | _ => fun _ s => s
  end.

(** What the destructor of a copy does while the original exists: overflow reports
    (overflow.h:59-78), members are destroyed in reverse order. *)
Fixpoint farewell (pl : platform) (e : aexp) : a_st (den pl e) -> M unit :=
  match e with
  | EFallback p f | ESegragator _ p f => fun s => farewell pl f (snd s) ;;; farewell pl p (fst s)
  | EOverflow e => fun s =>
    (if (o_allocs s =? 0)%Z then ret tt else emit (EvLeak (o_allocs s))) ;;;
    (if (o_cons s =? 0)%Z then ret tt else emit (EvLogic (o_cons s))) ;;;
    farewell pl e (o_in s)
  | _ => fun _ => ret tt
  end.

(** * What an operation of a container does with allocator objects *)
Inductive role {O : Type} :=
| RMake (c h : nat)                (** m_Alloc(allocator), for the new container [c] *)
| RCopy (tmp : bool) (c src : nat) (** m_Alloc(select_on_container_copy_construction(...)); [tmp]: of a temporary *)
| RMove (c src : nat)              (** m_Alloc(std::move(other.m_Alloc)), which copies *)
| RSplit (c src h : nat) (o : O)   (** [o], in which m_Alloc(allocator), then other.m_Alloc takes its storage back *)
| RAssign (c src : nat)            (** m_Alloc = other.m_Alloc *)
| RUse (c : nat)                   (** m_Alloc is used *)
| RKill (c : nat).                 (** the destructor *)
Arguments role : clear implicits.

Section owned.
  Context (pl : platform) (e : aexp) (b : N).
  Local Notation A := (den pl e).
  Context {X Op : Type}.

  (** Operation [o] with allocators referred to by index; whether it is allowed; the allocator of a
      container; the destructor. *)
  Context (run : Op -> env A * gmap nat X -> M (cobs * (env A * gmap nat X))).
  Context (legal : gmap nat X -> Op -> bool) (al : X -> nat) (rl : Op -> role Op).
  Context (kill : X -> env A -> M (env A)).
  (** The second half of the constructors from an rvalue and an allocator, and what is left. *)
  Context (back : X -> env A -> M (env A)) (gone : X -> X).

  (** The object number [h] is given the counters of [o], and used; then its counters are those of
      container [c]. *)
  Definition load (h : nat) (o : option (a_st A)) (E : env A) : env A :=
    match E !! h, o with
    | Some s, Some o => <[h := graft pl e o s]> E
    | _, _ => E
    end.
  Definition save (c h : nat) (E K : env A) : env A :=
    match E !! h with Some s => <[c := s]> K | None => K end.
  Definition same_as (c src : nat) (K : env A) : env A :=
    match K !! src with Some s => <[c := s]> K | None => K end.
  Definition part (o : option (a_st A)) : M unit :=
    match o with Some s => farewell pl e s | None => ret tt end.

  (** The allocator of container [c] *)
  Definition root (c : nat) (vs : gmap nat X) : nat := match vs !! c with Some x => al x | None => 0 end.

  (** [E]: what is behind the handles of the objects that the program has made.  [P]: these objects
      themselves; they serve as arguments of constructors only.  (An argument Alloc() works like a
      fresh object.)  [K]: the objects in the containers, of which only the counters matter. *)
  Definition bstate : Type := env A * (env A * gmap nat X).

  Definition bdo (P : env A) (o : Op) (q : bstate) : M (cobs * bstate) :=
    let '(E, (K, vs)) := q in
    match rl o with
    | RMake c h =>
      ' (ob, (E, vs)) <- run o (load h (P !! h) E, vs) ;; ret (ob, (E, (save c h E K, vs)))
    | RCopy tmp c src =>
      (if tmp then part (K !! src) else ret tt) ;;;
      let h := root src vs in
      ' (ob, (E, vs)) <- run o (load h (K !! src) E, vs) ;; ret (ob, (E, (save c h E K, vs)))
    | RMove c src | RAssign c src =>
      ' (ob, (E, vs)) <- run o (E, vs) ;; ret (ob, (E, (same_as c src K, vs)))
    | RSplit c src h o1 =>
      ' (ob, (E, vs1)) <- run o1 (load h (P !! h) E, vs) ;;
      let K := save c h E K in
      match vs !! src with
      | None => ubm UBLifetime
      | Some x =>
        E <- back x (load (al x) (K !! src) E) ;;
        ret (ob, (E, (save src (al x) E K, <[src := gone x]> vs1)))
      end
    | RUse c =>
      let h := root c vs in
      ' (ob, (E, vs)) <- run o (load h (K !! c) E, vs) ;; ret (ob, (E, (save c h E K, vs)))
    | RKill c =>
      let h := root c vs in
      ' (ob, (E, vs)) <- run o (load h (K !! c) E, vs) ;;
      part (E !! h) ;;;
      ret (ob, (E, (delete c K, vs)))
    end.

  Definition bstep (P : env A) (o : Op) (q : bstate) : M (cobs * bstate) :=
    if legal (snd (snd q)) o then bdo P o q else ret (CUnit, q).

  Fixpoint brun (P : env A) (ops : list Op) (q : bstate) : M (list cobs * bstate) :=
    match ops with
    | [] => ret ([], q)
    | o :: ops => ' (ob, q) <- bstep P o q ;; ' (os, q) <- brun P ops q ;; ret (ob :: os, q)
    end.

  (** The remaining containers are destroyed, each with its allocator; then the objects of the
      program. *)
  Fixpoint bkill_all (K : env A) (xs : list (nat * X)) (E : env A) : M (env A) :=
    match xs with
    | [] => ret E
    | (c, x) :: xs => E <- kill x (load (al x) (K !! c) E) ;; part (E !! al x) ;;; bkill_all K xs E
    end.
  Fixpoint bdtor_all (P : env A) (h k : nat) (E : env A) : M (env A) :=
    match k with
    | O => ret E
    | S k => E' <- te_dtor A b h (load h (P !! h) E) ;; bdtor_all P (S h) k E'
    end.

  Definition bsession (k : nat) (ops : list Op) : M (list cobs) :=
    P <- init_all A b 0 k ∅ ;;
    ' (os, (E, (K, vs))) <- brun P ops (P, (∅, ∅)) ;;
    E <- bkill_all K (map_to_list vs) E ;;
    bdtor_all P 0 k E ;;;
    ret os.

  (** Assignments do not compile if the allocator has none. *)
  Definition compiles (o : Op) : bool := match rl o with RAssign _ _ => reassignable e | _ => true end.
End owned.

(** * The containers *)

(** trivial_vector.h:39-205 *)
Definition v_role (o : vop) : role vop :=
  match o with
  | VNew c h | VNewN c _ h | VNewFill c _ _ h | VNewList c _ h | VNewRange c _ h | VCopyAl c _ h => RMake c h
  | VCopy c src => RCopy true c src   (* 117 *)
  | VMove c src => RMove c src        (* 127 *)
  | VMoveAl c src h => RSplit c src h (VCopyAl c src h)   (* 147-164 *)
  | VAssign c src | VMoveAssign c src => RAssign c src    (* 177, 196 *)
  | VDestroy c => RKill c
  | VGet c _ | VSet c _ _ | VSize c | VCap c | VEmpty c | VData c | VResize c _ | VReserve c _ | VPush c _ | VPushRange c _
  | VErase c _ | VEraseRange c _ _ | VClear c => RUse c
  end.
(** trivial_array.h:39-190 *)
Definition a_role (o : aop) : role aop :=
  match o with
  | ANew c h | ANewN c _ h | ANewFill c _ _ h | ANewList c _ h | ANewRange c _ h | ACopyAl c _ h => RMake c h
  | ACopy c src => RCopy false c src  (* 111 *)
  | AMove c src => RMove c src        (* 120 *)
  | AMoveAl c src h => RSplit c src h (ACopyAl c src h)   (* 137-152 *)
  | AAssign c src | AMoveAssign c src => RAssign c src    (* 165, 183 *)
  | ADestroy c => RKill c
  | AGet c _ | ASet c _ _ | ASize c | AEmpty c | AData c | AResize c _ | AFrom c _ => RUse c
  end.
(** binary_heap.h:43-230 *)
Definition h_role (o : hop) : role hop :=
  match o with
  | HNew c _ h | HNewCap c _ _ h | HNewList c _ _ h | HCopyAl c _ h => RMake c h
  | HCopy c src => RCopy false c src  (* 121 *)
  | HMove c src => RMove c src        (* 132 *)
  | HMoveAl c src h => RSplit c src h (HCopyAl c src h)   (* 154-171 *)
  | HAssign c src | HMoveAssign c src => RAssign c src    (* 195, 219 *)
  | HDestroy c => RKill c
  | HSize c | HCap c | HEmpty c | HData c | HAt c _ | HReserve c _ | HInsert c _ | HPeek c | HPop c | HFind c _ | HClear c => RUse c
  end.

Section programs.
  Context (pl : platform) (e : aexp) (b sz : N) (k : nat).
  Local Notation A := (den pl e).

  (** trivial_vector.h:153-163; line 158 passes capacity() * sizeof(T) *)
  Definition v_back (v : vec) (E : env A) : M (env A) :=
    if v_beg v =? 0 then ret E else te_free A b sz (v_al v) (v_beg v) (mul64 (v_cap sz v) sz) E.
  Definition v_gone (v : vec) : vec := Vec (v_al v) 0 0 0.
  Definition vector_program (ops : list vop) : M (list cobs) :=
    bsession pl e b (vdo A b sz) (fun vs => vlegal sz k (v_info sz <$> vs)) v_al v_role (release A b sz) v_back v_gone k ops.

  (** trivial_array.h:143-151; line 147 passes size() * sizeof(T) *)
  Definition a_back (v : arr) (E : env A) : M (env A) :=
    if r_beg v =? 0 then ret E else te_free A b sz (r_alc v) (r_beg v) (mul64 (r_size sz v) sz) E.
  Definition a_gone (v : arr) : arr := Arr (r_alc v) 0 0.
  Definition array_program (ops : list aop) : M (list cobs) :=
    bsession pl e b (ado A b sz) (fun vs => alegal sz k (a_info sz <$> vs)) r_alc a_role (arelease A b sz) a_back a_gone k ops.

  Context (T : elt) (comp : nat -> value -> value -> bool) (eqv : value -> value -> bool).
  (** binary_heap.h:165-170; line 166 passes m_Capacity * sizeof(T) *)
  Definition h_back (x : heap) (E : env A) : M (env A) :=
    if h_beg x =? 0 then ret E else give_back A b sz (h_al x) (h_beg x) (h_cap x) (mul64 (h_cap x) sz) E.
  Definition h_gone (x : heap) : heap := Heap (h_al x) (h_cmp x) 0 0 0.
  Definition heap_program (ops : list hop) : M (list cobs) :=
    bsession pl e b (hdo A b sz T comp eqv) (fun vs => hlegal sz T k (h_info <$> vs)) h_al h_role (hrelease A b sz T) h_back h_gone k ops.
End programs.

(** * Programs whose outcomes differ at most in what overflow reports at destruction *)
Definition is_report (ev : event) : bool := match ev with EvLeak _ | EvLogic _ => true | _ => false end.
Definition hush (evs : list event) : list event := List.filter (fun ev => negb (is_report ev)) evs.
Definition but_reports {X} (r r' : res X) : Prop :=
  match r, r' with
  | Ok x w evs, Ok x' w' evs' => x = x' /\ w = w' /\ hush evs = hush evs'
  | Err u evs, Err u' evs' => u = u' /\ hush evs = hush evs'
  | _, _ => False
  end.

(** The condition of csession_ok (Env.v) for programs of this kind. *)
Definition bsession_ok {O S} (chk : O -> cobs -> S -> S -> Prop) (bad : event -> bool) (b n : N) (s0 : S) (ops : list O)
  (m : M (list cobs)) (w : world) : Prop :=
  match m w with
  | Ok os w' evs =>
    existsb bad evs = true \/
    forallb benign evs = true /\
    ccheck chk ops os s0 /\
    mtab (st w') = mtab (st w) /\
    (forall i, ~ (b <= i < b + n) -> mem (st w') !! i = mem (st w) !! i) /\
    storage b n w'
  | Err _ evs => existsb bad evs = true
  end.
