(** atomic_shared<threaded<A>> among threads: any number of threads, handles, shared blocks and
    blocks of memory.  Every call is carried out in steps, and the steps of the threads are
    interleaved in any order. *)
From Verif Require Import Base Mem Bits AlignedMalloc Allocators Client.

(** * Steps

    [h], [src] are handles (variables of type atomic_shared), [x] is a variable for a pointer to
    memory, [g] is a shared block (shared.h:46-58). *)
Inductive micro :=
| MNew (h : nat)                    (** m_Block(aligned_new<block>(...)) *)
| MSet (h src : nat)                (** m_Block = src.m_Block, to be followed by increment() *)
| MTake (h src : nat)               (** m_Block = src.m_Block, to be followed by src.m_Block = nullptr *)
| MNull (src : nat)                 (** src.m_Block = nullptr *)
| MInc (h : nat)                    (** increment() *)
| MDec (h : nat)                    (** decrement() up to and including fetch_sub *)
| MDel (g : nat)                    (** aligned_delete(m_Block) *)
| MEnd (h : nat)                    (** the storage of h is gone *)
| MLock (h : nat)                   (** m_Lock.lock() *)
| MEnter (h : nat)                  (** m_Alloc.allocate / m_Alloc.deallocate starts to run *)
| MAlloc (h x : nat) (n : N)        (** x = m_Alloc.allocate(n) returns *)
| MFree (h x : nat)                 (** m_Alloc.deallocate(x, n) returns *)
| MUnlock (h : nat)                 (** m_Lock.unlock() *)
| MWrite (x : nat) (off v : N)      (** x[off] = v *)
| MRead (x : nat) (off : N)         (** x[off] *)
| MGive (h to : nat)                (** h now belongs to another thread *)
| MPass (x to : nat).               (** x now belongs to another thread *)

(** What a thread may do. *)
Inductive tcall :=
| TNew (h : nat)
| TCopy (h src : nat)
| TMove (h src : nat)
| TAssign (h src : nat)
| TMoveAssign (h src : nat)
| TDestroy (h : nat)
| TAlloc (h x : nat) (n : N)
| TFree (h x : nat)
| TWrite (x : nat) (off v : N)
| TRead (x : nat) (off : N)
| TGive (h to : nat)
| TPass (x to : nat).

(** The steps of each call. *)
Definition code (c : tcall) : list micro :=
  match c with
  | TNew h => [MNew h]                                        (* shared.h:63-66 *)
  | TCopy h src => [MSet h src; MInc h]                       (* shared.h:78-82 *)
  | TMove h src => [MTake h src; MNull src]                   (* shared.h:84-88 *)
  | TDestroy h => [MDec h; MEnd h]                            (* shared.h:90-93 *)
  | TAssign h src => [MDec h; MSet h src; MInc h]             (* shared.h:95-105 *)
  | TMoveAssign h src => [MDec h; MTake h src; MNull src]     (* shared.h:107-117 *)
  | TAlloc h x n => [MLock h; MEnter h; MAlloc h x n; MUnlock h] (* shared.h:132-136, threaded.h:61-66 *)
  | TFree h x => [MLock h; MEnter h; MFree h x; MUnlock h]    (* shared.h:138-142, threaded.h:68-73 *)
  | TWrite x off v => [MWrite x off v]
  | TRead x off => [MRead x off]
  | TGive h to => [MGive h to]
  | TPass x to => [MPass x to]
  end.

Section team.
  Context (pl : platform) (A : alloc).

  (** shared.h:46-58 with threaded.h:127-128: the wrapped allocator (inline bytes at [tb_addr],
      fields [tb_in]), UseCount, m_Lock (the thread that holds it), and whether a member of the
      wrapped allocator is being executed. *)
  Record tblock := TBlock { tb_addr : N; tb_in : a_st A; tb_cnt : N; tb_lock : option nat; tb_busy : bool }.

  (** Handles with the thread they belong to and their m_Block, as in Shared.v; live blocks;
      variables with the thread they belong to and, unless they are null, the shared block the
      memory was obtained from, the address, and the bytes that were written to it; what remains
      to be done of the current call of each thread.

      [t_ref] is not part of the program: it says which handles own a reference, that is, have been
      constructed or assigned and have not been destroyed, assigned to or moved from since. *)
  Record team := Team {
    t_hs : gmap nat (nat * option nat);
    t_bk : gmap nat tblock;
    t_next : nat;
    t_has : gmap nat (nat * option (nat * ablk));
    t_ref : gmap nat nat;
    t_todo : gmap nat (list micro)
  }.

  Definition set_hs (hs : gmap nat (nat * option nat)) (q : team) : team :=
    Team hs (t_bk q) (t_next q) (t_has q) (t_ref q) (t_todo q).
  Definition set_bk (bk : gmap nat tblock) (q : team) : team :=
    Team (t_hs q) bk (t_next q) (t_has q) (t_ref q) (t_todo q).
  Definition set_has (has : gmap nat (nat * option (nat * ablk))) (q : team) : team :=
    Team (t_hs q) (t_bk q) (t_next q) has (t_ref q) (t_todo q).
  Definition set_ref (rf : gmap nat nat) (q : team) : team :=
    Team (t_hs q) (t_bk q) (t_next q) (t_has q) rf (t_todo q).
  Definition set_todo (td : gmap nat (list micro)) (q : team) : team :=
    Team (t_hs q) (t_bk q) (t_next q) (t_has q) (t_ref q) td.

  Definition todo (t : nat) (q : team) : list micro := default [] (t_todo q !! t).

  (** m_Block of a handle *)
  Definition tptr (h : nat) (q : team) : option nat :=
    match t_hs q !! h with Some (_, x) => x | None => None end.

  (** [*m_Block]: the block must exist. *)
  Definition deref (h : nat) (q : team) : M (nat * tblock) :=
    match tptr h q with
    | None => ubm UBNull
    | Some g => match t_bk q !! g with None => ubm UBLifetime | Some k => ret (g, k) end
    end.

  (** The handles that own a reference to [g], and the variables with memory obtained from it. *)
  Definition owners (g : nat) (rf : gmap nat nat) : gmap nat nat := filter (fun kv => snd kv = g) rf.
  Definition of_block (g : nat) (v : nat * option (nat * ablk)) : option ablk :=
    match snd v with Some (g', b) => if decide (g' = g) then Some b else None | None => None end.
  Definition blocks_of (g : nat) (has : gmap nat (nat * option (nat * ablk))) : gmap nat ablk := omap (of_block g) has.

  (** One step of thread [t]: [None] if it has to wait, otherwise the new state and steps to be
      done next.  Memory must be returned before the last handle disappears: a program that
      violates this is not considered any further ([MDec] waits). *)
  Definition exec (t : nat) (m : micro) (q : team) : M (option (team * list micro)) :=
    match m with
    | MNew h =>
      (* utility/aligned_malloc.h:89-96 *)
      p <- aligned_malloc pl (a_size A + 16) ALIGNMENT ;;
      if p =? 0 then emit EvFail ;;; ubm UBNull
      else
        s <- a_init A p ;;
        ret (Some (Team (<[h := (t, Some (t_next q))]> (t_hs q)) (<[t_next q := TBlock p s 1 None false]> (t_bk q))
                        (S (t_next q)) (t_has q) (<[h := t_next q]> (t_ref q)) (t_todo q), []))
    | MSet h src => ret (Some (set_hs (<[h := (t, tptr src q)]> (t_hs q)) q, []))
    | MTake h src =>
      let q' := set_hs (<[h := (t, tptr src q)]> (t_hs q)) q in
      ret (Some (match t_ref q !! src with Some g => set_ref (<[h := g]> (delete src (t_ref q))) q' | None => q' end, []))
    | MNull src => ret (Some (set_hs (<[src := (t, None)]> (t_hs q)) q, []))
    | MInc h =>
      (* shared.h:192-197 *)
      match tptr h q with
      | None => ret (Some (q, []))
      | Some _ =>
        ' (g, k) <- deref h q ;;
        let k' := TBlock (tb_addr k) (tb_in k) (add64 (tb_cnt k) 1) (tb_lock k) (tb_busy k) in
        ret (Some (set_ref (<[h := g]> (t_ref q)) (set_bk (<[g := k']> (t_bk q)) q), []))
      end
    | MDec h =>
      (* shared.h:199-206 *)
      match tptr h q with
      | None => ret (Some (q, []))
      | Some _ =>
        ' (g, k) <- deref h q ;;
        if bool_decide (owners g (delete h (t_ref q)) = ∅) && negb (bool_decide (blocks_of g (t_has q) = ∅)) then ret None
        else
          let k' := TBlock (tb_addr k) (tb_in k) (sub64 (tb_cnt k) 1) (tb_lock k) (tb_busy k) in
          ret (Some (set_ref (delete h (t_ref q)) (set_bk (<[g := k']> (t_bk q)) q), if tb_cnt k =? 1 then [MDel g] else []))
      end
    | MDel g =>
      (* utility/aligned_malloc.h:98-104; a mutex must not be destroyed while it is locked *)
      match t_bk q !! g with
      | None => ubm UBLifetime
      | Some k =>
        if bool_decide (tb_lock k = None) && negb (tb_busy k) then
          a_dtor A (tb_addr k) (tb_in k) ;;; aligned_free pl (tb_addr k) ;;; ret (Some (set_bk (delete g (t_bk q)) q, []))
        else ubm UBLifetime
      end
    | MEnd h => ret (Some (set_hs (delete h (t_hs q)) q, []))
    | MLock h =>
      ' (g, k) <- deref h q ;;
      match tb_lock k with
      | Some _ => ret None
      | None => ret (Some (set_bk (<[g := TBlock (tb_addr k) (tb_in k) (tb_cnt k) (Some t) (tb_busy k)]> (t_bk q)) q, []))
      end
    | MEnter h =>
      (* the members of the wrapped allocator are not made for concurrent calls *)
      ' (g, k) <- deref h q ;;
      if tb_busy k then ubm UBAccess
      else ret (Some (set_bk (<[g := TBlock (tb_addr k) (tb_in k) (tb_cnt k) (tb_lock k) true]> (t_bk q)) q, []))
    | MAlloc h x n =>
      ' (g, k) <- deref h q ;;
      ' (p, s') <- a_alloc A (tb_addr k) (tb_in k) n ;;
      let v := if p =? 0 then None else Some (g, (p, repeat None (N.to_nat n))) in
      ret (Some (set_has (<[x := (t, v)]> (t_has q))
                 (set_bk (<[g := TBlock (tb_addr k) s' (tb_cnt k) (tb_lock k) false]> (t_bk q)) q), []))
    | MFree h x =>
      ' (g, k) <- deref h q ;;
      match t_has q !! x with
      | Some (_, Some (_, (p, vs))) =>
        s' <- a_free A (tb_addr k) (tb_in k) p (N.of_nat (length vs)) ;;
        ret (Some (set_has (<[x := (t, None)]> (t_has q))
                   (set_bk (<[g := TBlock (tb_addr k) s' (tb_cnt k) (tb_lock k) false]> (t_bk q)) q), []))
      | _ => ubm UBNull
      end
    | MUnlock h =>
      ' (g, k) <- deref h q ;;
      ret (Some (set_bk (<[g := TBlock (tb_addr k) (tb_in k) (tb_cnt k) None (tb_busy k)]> (t_bk q)) q, []))
    | MWrite x off v =>
      match t_has q !! x with
      | Some (_, Some (g, (p, vs))) =>
        if off <? N.of_nat (length vs) then
          wr (p + off) (Byte v) ;;;
          ret (Some (set_has (<[x := (t, Some (g, (p, <[N.to_nat off := Some v]> vs)))]> (t_has q)) q, []))
        else ret (Some (q, []))
      | _ => ubm UBNull
      end
    | MRead x off =>
      (* the program stops if this is not what was written last *)
      match t_has q !! x with
      | Some (_, Some (_, (p, vs))) =>
        match vs !! N.to_nat off with
        | Some e =>
          c <- rd (p + off) ;;
          match e with
          | Some v => if bool_decide (c = Byte v) then ret (Some (q, [])) else ubm UBUninit
          | None => ret (Some (q, []))
          end
        | None => ret (Some (q, []))
        end
      | _ => ubm UBNull
      end
    | MGive h to => ret (Some (set_hs (<[h := (to, tptr h q)]> (t_hs q)) q, []))
    | MPass x to =>
      match t_has q !! x with
      | Some (_, v) => ret (Some (set_has (<[x := (to, v)]> (t_has q)) q, []))
      | None => ubm UBNull
      end
    end.

  (** * Which programs

      A thread uses its own handles and variables only; other threads get theirs by [TGive] and
      [TPass], which synchronise the two.  As in Shared.v, a handle that was moved from is only
      copied, moved, assigned to or destroyed and no handle is assigned to itself.  Memory is
      returned through a handle of the block it was obtained from. *)
  Definition mine (t h : nat) (q : team) : bool :=
    match t_hs q !! h with Some (u, _) => bool_decide (u = t) | None => false end.
  Definition free_var (t x : nat) (q : team) : bool :=
    match t_has q !! x with Some (u, v) => bool_decide (u = t) && bool_decide (v = None) | None => true end.
  Definition my_block (t x : nat) (q : team) : option nat :=
    match t_has q !! x with Some (u, Some (g, _)) => if decide (u = t) then Some g else None | _ => None end.

  Definition allowed (t : nat) (c : tcall) (q : team) : bool :=
    match c with
    | TNew h => bool_decide (t_hs q !! h = None)
    | TCopy h src | TMove h src => bool_decide (t_hs q !! h = None) && mine t src q
    | TAssign h src | TMoveAssign h src => negb (bool_decide (h = src)) && mine t h q && mine t src q
    | TDestroy h => mine t h q
    | TAlloc h x _ => mine t h q && bool_decide (is_Some (tptr h q)) && free_var t x q
    | TFree h x => mine t h q && bool_decide (is_Some (my_block t x q)) && bool_decide (tptr h q = my_block t x q)
    | TWrite x _ _ | TRead x _ => bool_decide (is_Some (my_block t x q))
    | TGive h _ => mine t h q
    | TPass x _ => bool_decide (is_Some (my_block t x q))
    end.

  (** Storage of new variables *)
  Definition declare (t : nat) (c : tcall) (q : team) : team :=
    match c with
    | TNew h | TCopy h _ | TMove h _ => set_hs (<[h := (t, None)]> (t_hs q)) q
    | TAlloc _ x _ => set_has (<[x := (t, None)]> (t_has q)) q
    | _ => q
    end.

  (** Thread [t] goes on with its current call, or starts the call [c]. *)
  Definition tstep (t : nat) (c : tcall) (q : team) : M team :=
    match todo t q with
    | [] => ret (if allowed t c q then set_todo (<[t := code c]> (t_todo q)) (declare t c q) else q)
    | m :: l =>
      r <- exec t m q ;;
      ret (match r with Some (q', pre) => set_todo (<[t := pre ++ l]> (t_todo q')) q' | None => q end)
    end.

  Fixpoint trun (sch : list (nat * tcall)) (q : team) : M team :=
    match sch with
    | [] => ret q
    | (t, c) :: sch => q' <- tstep t c q ;; trun sch q'
    end.

  Definition team0 : team := Team ∅ ∅ 0 ∅ ∅ ∅.

  (** * Specification *)

  (** No call is under way and there is no handle that owns a reference. *)
  Definition quiet (q : team) : Prop := (forall t, todo t q = []) /\ forall h t g, t_hs q !! h <> Some (t, Some g).

  (** No call is under way. *)
  Definition at_rest (q : team) : Prop := forall t, todo t q = [].

  (** How many handles refer to [g]. *)
  Definition refers (g : nat) (q : team) : nat := size (filter (fun kv => snd (snd kv) = Some g) (t_hs q)).

  (** The next step of [t] has to wait. *)
  Definition waits (t : nat) (q : team) (w : world) : Prop :=
    exists m l w' evs, todo t q = m :: l /\ exec t m q w = Ok None w' evs.

  (** Some thread still has memory that was obtained from [g]. *)
  Definition still_out (g : nat) (q : team) : Prop := exists x t b, t_has q !! x = Some (t, Some (g, b)).

  (** [t] waits for a mutex; the thread that holds it is on its way to unlock it and does not wait for anything. *)
  Definition waits_lock (t : nat) (q : team) : Prop :=
    exists h l g k u l', todo t q = MLock h :: l /\ tptr h q = Some g /\ t_bk q !! g = Some k /\ tb_lock k = Some u /\
      u <> t /\ todo u q = l' /\ (1 <= length l' <= 3)%nat /\
      (forall i m, l' !! i = Some m -> forall q1 w w' evs, exec u m q1 w <> Ok None w' evs) /\
      exists h', list.last l' = Some (MUnlock h') /\ tptr h' q = Some g.

  (** [t] gives up the last handle of a block although there is still memory that was obtained from it. *)
  Definition waits_memory (t : nat) (q : team) : Prop :=
    exists h l g, todo t q = MDec h :: l /\ tptr h q = Some g /\ still_out g q.

  (** What the threads hold: aligned, separate from the memory [m0] that was there before and from
      each other, and with the contents they gave it. *)
  Definition holds_blocks (m0 m : gmap N cell) (has : gmap nat (nat * option (nat * ablk))) : Prop :=
    forall x t g p vs, has !! x = Some (t, Some (g, (p, vs))) ->
    p <> 0 /\ p mod 16 = 0 /\ p + N.of_nat (length vs) < W /\
    (forall i, (i < length vs)%nat -> exists c, m !! (p + N.of_nat i) = Some c /\ m0 !! (p + N.of_nat i) = None /\
       forall v, vs !! i = Some (Some v) -> c = Byte v) /\
    (forall x' t' g' p' vs', has !! x' = Some (t', Some (g', (p', vs'))) -> x' <> x ->
       p + N.of_nat (length vs) <= p' \/ p' + N.of_nat (length vs') <= p \/ vs = [] \/ vs' = []).
End team.
Arguments TBlock {A}.
Arguments tb_addr {A}.
Arguments tb_in {A}.
Arguments tb_cnt {A}.
Arguments tb_lock {A}.
Arguments tb_busy {A}.
Arguments Team {A}.
Arguments t_hs {A}.
Arguments t_bk {A}.
Arguments t_next {A}.
Arguments t_has {A}.
Arguments t_ref {A}.
Arguments t_todo {A}.
Arguments team0 {A}.
Arguments todo {A}.
Arguments tptr {A}.
Arguments set_hs {A}.
Arguments set_bk {A}.
Arguments set_has {A}.
Arguments set_ref {A}.
Arguments set_todo {A}.
Arguments quiet {A}.
Arguments at_rest {A}.
Arguments refers {A}.
Arguments still_out {A}.
Arguments waits_memory {A}.
Arguments allowed {A}.
Arguments declare {A}.
Arguments mine {A}.
Arguments my_block {A}.
Arguments free_var {A}.

(** The sizes the threads ask for. *)
Definition trequests (sch : list (nat * tcall)) : list N :=
  flat_map (fun c => match snd c with TAlloc _ _ n => [n] | _ => [] end) sch.
