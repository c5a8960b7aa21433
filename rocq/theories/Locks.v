(** Which mutexes the members of a composition lock, and threads that do so.

    threaded locks its mutex for the duration of allocate and deallocate, that is while the wrapped
    allocator is at work, which may lock other mutexes.  Here [threaded] of Allocators.v and Upstream.v
    is replaced by [locked], which records in the events what is done to the mutex; all other templates
    are taken as they are. *)
From Verif Require Import Base Mem Bits AlignedMalloc Allocators Checked Tree Client Env Vector Array Heap Upstream.

(** * What is locked *)

(** Other threads: what they do to the object (its fields, and memory) between the call and the moment
    in which the mutex is obtained. *)
Definition others := forall A : alloc, N -> a_st A -> M (a_st A).
Definition nobody : others := fun A _ s => ret s.

Section locked.
  Context (itf : others) (i : N).

  (** threaded.h:61-73; construct, destroy, max_size and owns do not lock (76-113).  [i] tells the
      mutexes of a composition apart; the address is that of the object. *)
  Definition locked (A : alloc) : alloc := {|
    a_st := a_st A;
    a_size := a_size A;
    a_init := a_init A;
    a_dtor := a_dtor A;
    a_alloc := fun b s n => emit (EvLock i b) ;;; s <- itf A b s ;; r <- a_alloc A b s n ;; emit (EvUnlock i b) ;;; ret r;
    a_free := fun b s p n => emit (EvLock i b) ;;; s <- itf A b s ;; s <- a_free A b s p n ;; emit (EvUnlock i b) ;;; ret s;
    a_owns := a_owns A;
    a_max := a_max A;
    a_cd := a_cd A |}.

  (** The same for a part of a composition that uses an upstream allocator. *)
  Definition plocked (U : alloc) (P : part U) : part U := {|
    p_st := p_st U P;
    p_size := p_size U P;
    p_init := p_init U P;
    p_dtor := p_dtor U P;
    p_alloc := fun ub b s n =>
      emit (EvLock i b) ;;; s <- itf (inner U P ub) b s ;; r <- p_alloc U P ub b s n ;; emit (EvUnlock i b) ;;; ret r;
    p_free := fun ub b s p n =>
      emit (EvLock i b) ;;; s <- itf (inner U P ub) b s ;; s <- p_free U P ub b s p n ;; emit (EvUnlock i b) ;;; ret s;
    p_owns := p_owns U P;
    p_max := p_max U P;
    p_cd := p_cd U P |}.
End locked.

(** The number of mutexes in an object of the type (those in nodes of a cascading once). *)
Fixpoint mutexes (e : aexp) : N :=
  match e with
  | ENull | EMalloc | ELinear _ | EStack _ => 0
  | EFallback p f | ESegragator _ p f => mutexes p + mutexes f
  | EThreaded e => mutexes e + 1
  | EFreelist _ _ e | ECascading e | EOverflow e | EShared e | EReference e | EGlobal e | EChecked e => mutexes e
  end.
Fixpoint pmutexes (p : pexp) : N :=
  match p with
  | PHandle => 0
  | POwn e => mutexes e
  | PFreelist _ _ p | POverflow p => pmutexes p
  | PFallback p f | PSegragator _ p f => pmutexes p + pmutexes f
  | PThreaded p => pmutexes p + 1
  end.
Fixpoint smutexes (s : sexp) : N :=
  match s with XExp e => mutexes e | XLet u p => smutexes u + pmutexes p end.

(** Compositions with another template in the place of threaded.  Its number is larger than the numbers
    of what it wraps, those of an upstream allocator are smaller than those of what refers to it. *)
Section den_with.
  Context (thr : N -> alloc -> alloc) (pthr : N -> forall U, part U -> part U) (pl : platform).

  Fixpoint den_with (i : N) (e : aexp) : alloc :=
    match e with
    | ENull => null_allocator
    | EMalloc => mallocator pl
    | ELinear Size => linear_allocator Size
    | EStack Size => stack_allocator Size
    | EFreelist Min Max e => freelist Min Max (den_with i e)
    | ECascading e => cascading pl (den_with i e)
    | EFallback p f => fallback (den_with i p) (den_with (i + mutexes p) f)
    | ESegragator T p f => segragator (den_with i p) (den_with (i + mutexes p) f) T
    | EOverflow e => overflow (den_with i e)
    | EShared e => shared pl (den_with i e)
    | EThreaded e => thr (i + mutexes e) (den_with i e)
    | EReference e => reference (den_with i e)
    | EGlobal e => global (den_with i e)
    | EChecked e => checked (den_with i e)
    end.

  Fixpoint pden_with (U : alloc) (i : N) (p : pexp) : part U :=
    match p with
    | PHandle => handle U
    | POwn e => own U (den_with i e)
    | PFreelist Min Max p => pfreelist U Min Max (pden_with U i p)
    | PFallback p f => pfallback U (pden_with U i p) (pden_with U (i + pmutexes p) f)
    | PSegragator T p f => psegragator U (pden_with U i p) (pden_with U (i + pmutexes p) f) T
    | POverflow p => poverflow U (pden_with U i p)
    | PThreaded p => pthr (i + pmutexes p) U (pden_with U i p)
    end.

  Fixpoint sden_with (s : sexp) : alloc :=
    match s with
    | XExp e => den_with 0 e
    | XLet u p => upstream (sden_with u) (pden_with (sden_with u) (smutexes u) p)
    end.
End den_with.

(** The compositions with their mutexes. *)
Definition lden (itf : others) (pl : platform) (i : N) (e : aexp) : alloc := den_with (locked itf) pl i e.
Definition plden (itf : others) (pl : platform) (U : alloc) (i : N) (p : pexp) : part U :=
  pden_with (locked itf) (plocked itf) pl U i p.
Definition slden (itf : others) (pl : platform) (s : sexp) : alloc := sden_with (locked itf) (plocked itf) pl s.

(** * Threads *)

Definition mutex : Type := N * N.
Inductive act := Acq (m : mutex) | Rel (m : mutex).

(** What a computation does with mutexes.  The addresses of the model may be replaced by others ([nm]), since
    the model does not count the size of a mutex. *)
Definition lock_act (nm : N -> N) (e : event) : option act :=
  match e with EvLock i a => Some (Acq (i, nm a)) | EvUnlock i a => Some (Rel (i, nm a)) | _ => None end.
Definition acts (nm : N -> N) (evs : list event) : list act := omap (lock_act nm) evs.

(** A thread: the mutexes it holds, the latest first; what it has yet to do in the present call; the
    calls after that one. *)
Record thread := Thread { t_held : list mutex; t_now : list act; t_later : list (list act) }.

Definition meq (m n : mutex) : bool := (fst m =? fst n) && (snd m =? snd n).
Definition holds (t : thread) (m : mutex) : bool := existsb (meq m) (t_held t).
Definition done (t : thread) : bool :=
  match t_held t, t_now t, t_later t with [], [], [] => true | _, _, _ => false end.

(** The outcome of giving a thread a turn. *)
Inductive turn :=
| Moves (c : list thread)
| Waits            (** the mutex is taken by another thread *)
| Finished         (** nothing left to do *)
| Wrong.           (** undefined behaviour: locking a mutex one holds, unlocking one that one does not hold *)

(** [fails]: lock() throws.  The exception leaves the call; the destructors of the lock_guards unlock
    what is held, the latest first.  The client catches it and proceeds with the next call. *)
Definition take_turn (fails : bool) (k : nat) (c : list thread) : turn :=
  match c !! k with
  | None => Finished
  | Some t =>
    match t_now t with
    | [] =>
      match t_later t with
      | [] => Finished
      | l :: r => Moves (<[k := Thread (t_held t) l r]> c)
      end
    | Acq m :: l =>
      if fails then Moves (<[k := Thread (t_held t) (map Rel (t_held t)) (t_later t)]> c)
      else if holds t m then Wrong
      else if existsb (fun u => holds u m) c then Waits
      else Moves (<[k := Thread (m :: t_held t) l (t_later t)]> c)
    | Rel m :: l =>
      match t_held t with
      | n :: h => if meq m n then Moves (<[k := Thread h l (t_later t)]> c) else Wrong
      | [] => Wrong
      end
    end
  end.

(** A schedule: whose turn it is, and whether its lock fails.  A turn in which the thread has to wait
    or has finished changes nothing.  Returns how many turns were moves; [None] if something went wrong. *)
Fixpoint schedule (l : list (nat * bool)) (c : list thread) : option (nat * list thread) :=
  match l with
  | [] => Some (O, c)
  | (k, f) :: l =>
    match take_turn f k c with
    | Moves c => option_map (fun r => (S (fst r), snd r)) (schedule l c)
    | Waits | Finished => schedule l c
    | Wrong => None
    end
  end.

Definition start (calls : list (list (list act))) : list thread := map (Thread [] []) calls.

(** * What a call may do *)

(** The levels of a tower of shared allocators. *)
Fixpoint level (u s : sexp) : Prop :=
  u = s \/ match s with XExp _ => False | XLet s _ => level u s end.

Section does.
  Context (itf : others) (pl : platform) (s : sexp).

  (** The allocator types in use: those of the tower, and any composition with handles to one of its
      levels (whose object is at [ub]). *)
  Inductive kind : alloc -> Prop :=
  | kind_level u : level u s -> kind (slden itf pl u)
  | kind_part u p ub : level u s -> kind (inner (slden itf pl u) (plden itf pl (slden itf pl u) (smutexes u) p) ub).

  (** The events of a call of a member, or of an operation of a container, in any state of the memory and
      of all objects.  Constructors and destructors of elements may do all this as well. *)
  Inductive does : list event -> Prop :=
  | does_init A b x w w' evs : kind A -> a_init A b w = Ok x w' evs -> does evs
  | does_dtor A b x w w' evs : kind A -> a_dtor A b x w = Ok tt w' evs -> does evs
  | does_alloc A b x n r w w' evs : kind A -> a_alloc A b x n w = Ok r w' evs -> does evs
  | does_free A b x p n y w w' evs : kind A -> a_free A b x p n w = Ok y w' evs -> does evs
  | does_max A mx b x r w w' evs : kind A -> a_max A = Some mx -> mx b x w = Ok r w' evs -> does evs
  | does_cd A o c b x p m y w w' evs : kind A -> a_cd A = Some o ->
      (forall w1 w2 e, m w1 = Ok tt w2 e -> does e) -> o c b x p m w = Ok y w' evs -> does evs
  | does_part_init u p b x w w' evs : level u s ->
      p_init _ (plden itf pl (slden itf pl u) (smutexes u) p) b w = Ok x w' evs -> does evs
  | does_part_dtor u p ub b x y w w' evs : level u s ->
      p_dtor _ (plden itf pl (slden itf pl u) (smutexes u) p) ub b x w = Ok y w' evs -> does evs
  | does_vector A b sz k o q r w w' evs : kind A -> vstep A b sz k o q w = Ok r w' evs -> does evs
  | does_array A b sz k o q r w w' evs : kind A -> astep A b sz k o q w = Ok r w' evs -> does evs
  | does_heap A b sz T comp eqv k o q r w w' evs : kind A -> hstep A b sz T comp eqv k o q w = Ok r w' evs -> does evs
  | does_nothing : does []
  | does_both evs evs' : does evs -> does evs' -> does (evs ++ evs').
End does.

(** The other threads do not lock in the name of this one. *)
Definition apart (itf : others) : Prop := forall A b s w,
  match itf A b s w with Ok _ _ evs => acts id evs = [] | Err _ _ => True end.

(** The computation leaves all mutexes alone. *)
Definition lock_free {X} (m : M X) : Prop := forall w x w' evs, m w = Ok x w' evs -> acts id evs = [].

(** The total number of actions, and of calls. *)
Definition work (calls : list (list (list act))) : nat :=
  list_sum (map (fun l => list_sum (map (fun c => S (length c)) l)) calls).

(** What one call of a thread does with mutexes: whatever the tower, the state of all objects, what other
    threads have done, and where the objects are. *)
Definition call_of (pl : platform) (c : list act) : Prop :=
  exists itf s nm evs, apart itf /\ does itf pl s evs /\ c = acts nm evs.

(** The events that do not concern mutexes, and what a computation did apart from these. *)
Definition unlocked (evs : list event) : list event :=
  List.filter (fun e => match e with EvLock _ _ | EvUnlock _ _ => false | _ => true end) evs.
Definition erased {X} (r : res X) : res X :=
  match r with Ok x w evs => Ok x w (unlocked evs) | Err u evs => Err u (unlocked evs) end.
