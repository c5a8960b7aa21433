(** Containers whose allocator is type_allocator<T, shared<A>> (type_shared_..._allocator).

    Env.v gives every container the index of an allocator object that lives as long as the
    program.  Here the objects are the blocks of shared<A> (shared.h:46-58), which are constructed
    by default constructors of handles and destroyed when the last handle is gone.  Handles are
    held by the program and by the containers; every copy, assignment and destruction of a member
    m_Alloc counts. *)
From Verif Require Import Base Mem Allocators Env Vector Array Heap.

(** What an operation of a container does with the handles. *)
Inductive kind :=
| KBorn (c h : nat)        (** constructs [c] with a copy of handle [h] *)
| KCopy (c src : nat)      (** constructs [c] with the allocator of [src], by way of a temporary *)
| KDup (c src : nat)       (** constructs [c] with a copy of the allocator of [src] *)
| KKill (c : nat)          (** destructor *)
| KAssign (c src : nat)    (** copy or move assignment *)
| KUse.                    (** nothing *)

(** What is needed of a container. *)
Record cont (A : alloc) := Cont {
  t_obj : Type;
  t_op : Type;
  t_al : t_obj -> nat;                      (** m_Alloc *)
  t_info : t_obj -> info;
  t_kind : t_op -> kind;
  t_with : nat -> t_op -> t_op;             (** another allocator argument *)
  t_legal : nat -> gmap nat info -> t_op -> bool;
  t_do : t_op -> env A * gmap nat t_obj -> M (cobs * (env A * gmap nat t_obj));
  t_release : t_obj -> env A -> M (env A);  (** the lines before m_Alloc = other.m_Alloc in an assignment *)
  t_after : t_op -> env A * gmap nat t_obj -> M (cobs * (env A * gmap nat t_obj))  (** the lines after it *)
}.
Arguments Cont {A}.
Arguments t_obj {A}.
Arguments t_op {A}.
Arguments t_al {A} _ _.
Arguments t_info {A} _ _.
Arguments t_kind {A} _ _.
Arguments t_with {A} _ _ _.
Arguments t_legal {A} _ _ _ _.
Arguments t_do {A} _ _ _.
Arguments t_release {A} _ _ _.
Arguments t_after {A} _ _ _.

(** Programs. *)
Inductive sop {O : Type} :=
| SNew (h : nat)              (** Alloc h; *)
| SCopy (h src : nat)         (** Alloc h(src); also h(std::move(src)), type_allocator.h:59-66 *)
| SAssign (h src : nat)       (** h = src; also h = std::move(src), type_allocator.h:80-90 *)
| SDrop (h : nat)             (** end of the lifetime of h *)
| SDefault (o : O)            (** a constructor with a default constructed allocator *)
| SOp (o : O).                (** an operation whose argument [allocator] is a handle of the program *)
Arguments sop : clear implicits.

Section sharing.
  Context {A : alloc} (K : cont A).

  (** * The code *)

  (** Blocks and their use counts.  A handle is the identity of a block.  The inline part of a
      handle is a pointer which is represented by that identity, so the address of the handle does
      not matter. *)
  Definition blocks_of : Type := env A * gmap nat N.

  (** shared.h:63-66; UseCount is 1 *)
  Definition fresh_block (g : nat) (p : blocks_of) : M blocks_of :=
    let '(E, C) := p in E <- te_init A 16 g E ;; ret (E, <[g := 1]> C).
  (** shared.h:192-197 *)
  Definition grab (g : nat) (p : blocks_of) : M blocks_of :=
    let '(E, C) := p in
    match C !! g with
    | None => ubm UBLifetime
    | Some n => ret (E, <[g := add64 n 1]> C)
    end.
  (** shared.h:199-206 *)
  Definition drop_ (g : nat) (p : blocks_of) : M blocks_of :=
    let '(E, C) := p in
    match C !! g with
    | None => ubm UBLifetime
    | Some n => if n =? 1 then E <- te_dtor A 16 g E ;; ret (E, delete g C) else ret (E, <[g := sub64 n 1]> C)
    end.

  Record sstate := SState {
    q_env : env A;
    q_cnt : gmap nat N;
    q_hs : gmap nat nat;          (** handles of the program *)
    q_vs : gmap nat (t_obj K);    (** containers *)
    q_next : nat                  (** a name for the next block *)
  }.

  (** The block that handle [h], or container [c], refers to. *)
  Definition handle (h : nat) (q : sstate) : M nat :=
    match q_hs q !! h with None => ubm UBLifetime | Some g => ret g end.
  Definition alloc_of (c : nat) (q : sstate) : M nat :=
    match q_vs q !! c with None => ubm UBLifetime | Some x => ret (t_al K x) end.

  Definition sdo (o : sop (t_op K)) (q : sstate) : M (cobs * sstate) :=
    let '(SState E C hs vs nx) := q in
    match o with
    | SNew h =>
      ' (E, C) <- fresh_block nx (E, C) ;; ret (CUnit, SState E C (<[h := nx]> hs) vs (S nx))
    | SCopy h src => (* shared.h:78-82 *)
      g <- handle src q ;; ' (E, C) <- grab g (E, C) ;; ret (CUnit, SState E C (<[h := g]> hs) vs nx)
    | SAssign h src => (* shared.h:95-105 *)
      g <- handle h q ;; ' (E, C) <- drop_ g (E, C) ;;
      g <- handle src q ;; ' (E, C) <- grab g (E, C) ;; ret (CUnit, SState E C (<[h := g]> hs) vs nx)
    | SDrop h => (* shared.h:90-93 *)
      g <- handle h q ;; ' (E, C) <- drop_ g (E, C) ;; ret (CUnit, SState E C (delete h hs) vs nx)
    | SDefault o => (* m_Alloc() (trivial_vector.h:39-43, trivial_array.h:39-42, binary_heap.h:43-48, 67-72,
                       92-101); a default argument Alloc() is a handle of the program that is
                       constructed before and destroyed after the constructor runs *)
      ' (E, C) <- fresh_block nx (E, C) ;;
      ' (ob, (E, vs)) <- t_do K (t_with K nx o) (E, vs) ;; ret (ob, SState E C hs vs (S nx))
    | SOp o =>
      match t_kind K o with
      | KBorn c h => (* m_Alloc(allocator) comes first *)
        g <- handle h q ;; ' (E, C) <- grab g (E, C) ;;
        ' (ob, (E, vs)) <- t_do K (t_with K g o) (E, vs) ;; ret (ob, SState E C hs vs nx)
      | KCopy c src => (* m_Alloc(select_on_container_copy_construction(static_cast<Alloc>(other.m_Alloc))):
                          a temporary, a copy of the temporary, end of the temporary *)
        g <- alloc_of src q ;; ' (E, C) <- grab g (E, C) ;; ' (E, C) <- grab g (E, C) ;; ' (E, C) <- drop_ g (E, C) ;;
        ' (ob, (E, vs)) <- t_do K o (E, vs) ;; ret (ob, SState E C hs vs nx)
      | KDup c src => (* m_Alloc(std::move(other.m_Alloc)), which copies (type_allocator.h:64-66);
                         m_Alloc(select_on_container_copy_construction(other.m_Alloc)) *)
        g <- alloc_of src q ;; ' (E, C) <- grab g (E, C) ;;
        ' (ob, (E, vs)) <- t_do K o (E, vs) ;; ret (ob, SState E C hs vs nx)
      | KKill c => (* the member m_Alloc is destroyed after the body of the destructor *)
        g <- alloc_of c q ;;
        ' (ob, (E, vs)) <- t_do K o (E, vs) ;;
        ' (E, C) <- drop_ g (E, C) ;; ret (ob, SState E C hs vs nx)
      | KAssign c src => (* m_Alloc = other.m_Alloc is shared.h:95-105, also for a move: type_allocator.h:84-90 *)
        match vs !! c with
        | None => ubm UBLifetime
        | Some x =>
          E <- t_release K x E ;;
          ' (E, C) <- drop_ (t_al K x) (E, C) ;;
          g <- alloc_of src q ;; ' (E, C) <- grab g (E, C) ;;
          ' (ob, (E, vs)) <- t_after K o (E, vs) ;; ret (ob, SState E C hs vs nx)
        end
      | KUse => ' (ob, (E, vs)) <- t_do K o (E, vs) ;; ret (ob, SState E C hs vs nx)
      end
    end.

  (** * Which programs

      Objects are used while they exist, and the operations of containers are subject to the rules
      of Vector.v, Array.v and Heap.v.  Moreover neither a handle nor a container is assigned to
      itself if it holds the only handle of the block. *)

  (** The number of references to block [g]. *)
  Definition count_of (g : nat) (m : gmap nat nat) : nat := size (filter (fun kv => snd kv = g) m).
  Definition refs (hs als : gmap nat nat) (g : nat) : nat := (count_of g hs + count_of g als)%nat.
  Definition shared_by_others (hs als : gmap nat nat) (x : option nat) : bool :=
    match x with Some g => (1 <? refs hs als g)%nat | None => false end.

  (** The operation with the block instead of the handle as its argument. *)
  Definition target (hs : gmap nat nat) (o : t_op K) : option (t_op K) :=
    match t_kind K o with
    | KBorn c h => match hs !! h with Some g => Some (t_with K g o) | None => None end
    | _ => Some o
    end.

  Definition slegal (o : sop (t_op K)) (hs als : gmap nat nat) (infos : gmap nat info) (nx : nat) : bool :=
    match o with
    | SNew h => bool_decide (hs !! h = None)
    | SCopy h src => bool_decide (hs !! h = None) && bool_decide (is_Some (hs !! src))
    | SAssign h src =>
      bool_decide (is_Some (hs !! h)) && bool_decide (is_Some (hs !! src)) &&
      (negb (bool_decide (h = src)) || shared_by_others hs als (hs !! h))
    | SDrop h => bool_decide (is_Some (hs !! h))
    | SDefault o =>
      match t_kind K o with KBorn _ _ => t_legal K (S nx) infos (t_with K nx o) | _ => false end
    | SOp o =>
      match target hs o with
      | None => false
      | Some o' =>
        t_legal K nx infos o' &&
        match t_kind K o with
        | KAssign c src => negb (bool_decide (c = src)) || shared_by_others hs als (als !! c)
        | _ => true
        end
      end
    end.

  (** Operations that are not allowed are left out. *)
  Definition sstep (o : sop (t_op K)) (q : sstate) : M (cobs * sstate) :=
    if slegal o (q_hs q) (t_al K <$> q_vs q) (t_info K <$> q_vs q) (q_next q) then sdo o q else ret (CUnit, q).

  Fixpoint srun (ops : list (sop (t_op K))) (q : sstate) : M (list cobs * sstate) :=
    match ops with
    | [] => ret ([], q)
    | o :: ops => ' (ob, q') <- sstep o q ;; ' (os, q'') <- srun ops q' ;; ret (ob :: os, q'')
    end.

  Definition sstate0 : sstate := SState ∅ ∅ ∅ ∅ 0.

  (** * Specification

      No counters and no memory: which block each handle refers to, and the contents [m] of the
      containers, which change as they do for allocators that are always there. *)
  Context {Sp : Type} (sp_al : Sp -> nat) (sp_info : Sp -> info).
  Context (check : nat -> t_op K -> cobs -> gmap nat Sp -> gmap nat Sp -> Prop).

  Record sspec := SSpec { z_hs : gmap nat nat; z_m : gmap nat Sp; z_next : nat }.

  Definition scheck_do (o : sop (t_op K)) (ob : cobs) (s s' : sspec) : Prop :=
    let '(SSpec hs m nx) := s in
    match o with
    | SNew h => ob = CUnit /\ s' = SSpec (<[h := nx]> hs) m (S nx)
    | SCopy h src | SAssign h src => ob = CUnit /\ exists g, hs !! src = Some g /\ s' = SSpec (<[h := g]> hs) m nx
    | SDrop h => ob = CUnit /\ s' = SSpec (delete h hs) m nx
    | SDefault o => exists m', check (S nx) (t_with K nx o) ob m m' /\ s' = SSpec hs m' (S nx)
    | SOp o => exists o' m', target hs o = Some o' /\ check nx o' ob m m' /\ s' = SSpec hs m' nx
    end.
  Definition scheck (o : sop (t_op K)) (ob : cobs) (s s' : sspec) : Prop :=
    if slegal o (z_hs s) (sp_al <$> z_m s) (sp_info <$> z_m s) (z_next s) then scheck_do o ob s s' else ob = CUnit /\ s' = s.

  Definition sspec0 : sspec := SSpec ∅ ∅ 0.

  (** Unless an event classified as [bad] occurs: no undefined behaviour, no failed assertion, all
      observations as specified; a block exists exactly as long as a handle of the program or a
      container refers to it; other memory is untouched; and when all handles and containers are
      gone, memory and heap are as they were. *)
  Definition sharing_ok (bad : event -> bool) (ops : list (sop (t_op K))) (w : world) : Prop :=
    match srun ops sstate0 w with
    | Ok (os, q) w' evs =>
      existsb bad evs = true \/
      forallb benign evs = true /\
      ccheck scheck ops os sspec0 /\
      (forall g, is_Some (q_env q !! g) <->
        (exists h, q_hs q !! h = Some g) \/ (exists c x, q_vs q !! c = Some x /\ t_al K x = g)) /\
      (forall i c, mem (st w) !! i = Some c -> mem (st w') !! i = Some c) /\
      (q_hs q = ∅ -> q_vs q = ∅ -> st w' = st w)
    | Err _ evs => existsb bad evs = true
    end.
End sharing.
Arguments SState {A K}.
Arguments q_env {A K}.
Arguments q_cnt {A K}.
Arguments q_hs {A K}.
Arguments q_vs {A K}.
Arguments q_next {A K}.

(** * The three containers *)
Section vector.
  Context (A : alloc) (sz : N).

  Definition v_kind (o : vop) : kind :=
    match o with
    | VNew c h | VNewN c _ h | VNewFill c _ _ h | VNewList c _ h | VNewRange c _ h | VCopyAl c _ h | VMoveAl c _ h => KBorn c h
    | VCopy c src => KCopy c src
    | VMove c src => KDup c src
    | VDestroy c => KKill c
    | VAssign c src | VMoveAssign c src => KAssign c src
    | _ => KUse
    end.
  Definition v_with (g : nat) (o : vop) : vop :=
    match o with
    | VNew c _ => VNew c g
    | VNewN c n _ => VNewN c n g
    | VNewFill c n r _ => VNewFill c n r g
    | VNewList c l _ => VNewList c l g
    | VNewRange c r _ => VNewRange c r g
    | VCopyAl c src _ => VCopyAl c src g
    | VMoveAl c src _ => VMoveAl c src g
    | o => o
    end.
  Definition v_after (o : vop) (q : env A * gmap nat vec) : M (cobs * (env A * gmap nat vec)) :=
    match o with
    | VAssign c src => vassign A 16 sz c src q
    | VMoveAssign c src => vmove_assign A c src q
    | _ => ret (CUnit, q)
    end.

  Definition vector_cont : cont A :=
    Cont vec vop v_al (v_info sz) v_kind v_with (vlegal sz) (vdo A 16 sz) (release A 16 sz) v_after.
End vector.

Section array.
  Context (A : alloc) (sz : N).

  Definition a_kind (o : aop) : kind :=
    match o with
    | ANew c h | ANewN c _ h | ANewFill c _ _ h | ANewList c _ h | ANewRange c _ h | ACopyAl c _ h | AMoveAl c _ h => KBorn c h
    | ACopy c src | AMove c src => KDup c src
    | ADestroy c => KKill c
    | AAssign c src | AMoveAssign c src => KAssign c src
    | _ => KUse
    end.
  Definition a_with (g : nat) (o : aop) : aop :=
    match o with
    | ANew c _ => ANew c g
    | ANewN c n _ => ANewN c n g
    | ANewFill c n r _ => ANewFill c n r g
    | ANewList c l _ => ANewList c l g
    | ANewRange c r _ => ANewRange c r g
    | ACopyAl c src _ => ACopyAl c src g
    | AMoveAl c src _ => AMoveAl c src g
    | o => o
    end.
  Definition a_after (o : aop) (q : env A * gmap nat arr) : M (cobs * (env A * gmap nat arr)) :=
    match o with
    | AAssign c src => aassign A 16 sz c src q
    | AMoveAssign c src => amove_assign A c src q
    | _ => ret (CUnit, q)
    end.

  Definition array_cont : cont A :=
    Cont arr aop r_alc (a_info sz) a_kind a_with (alegal sz) (ado A 16 sz) (arelease A 16 sz) a_after.
End array.

Section heap.
  Context (A : alloc) (sz : N) (T : elt) (comp : nat -> value -> value -> bool) (eqv : value -> value -> bool).

  Definition h_kind (o : hop) : kind :=
    match o with
    | HNew c _ h | HNewCap c _ _ h | HNewList c _ _ h | HCopyAl c _ h | HMoveAl c _ h => KBorn c h
    | HCopy c src | HMove c src => KDup c src
    | HDestroy c => KKill c
    | HAssign c src | HMoveAssign c src => KAssign c src
    | _ => KUse
    end.
  Definition h_with (g : nat) (o : hop) : hop :=
    match o with
    | HNew c q _ => HNew c q g
    | HNewCap c n q _ => HNewCap c n q g
    | HNewList c l q _ => HNewList c l q g
    | HCopyAl c src _ => HCopyAl c src g
    | HMoveAl c src _ => HMoveAl c src g
    | o => o
    end.
  Definition h_after (o : hop) (q : env A * gmap nat heap) : M (cobs * (env A * gmap nat heap)) :=
    match o with
    | HAssign c src => hassign A 16 sz T c src q
    | HMoveAssign c src => hmove_assign A c src q
    | _ => ret (CUnit, q)
    end.

  Definition heap_cont : cont A :=
    Cont heap hop h_al h_info h_kind h_with (hlegal sz T) (hdo A 16 sz T comp eqv) (hrelease A 16 sz T) h_after.
End heap.
