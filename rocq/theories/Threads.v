(** Several threads: the use count of atomic_shared (shared.h) and the mutex of threaded
    (threaded.h).  Threads are interleaved step by step in any order (a schedule). *)
From Verif Require Import Base Mem Bits AlignedMalloc Allocators Client.

(** * The use count *)

(** Where a thread is inside increment/decrement (shared.h:192-206). *)
Inductive cpc :=
| CIdle
| CAdd (c : N)      (** m_Count++ has read [c] but not written yet (notomic only) *)
| CSub (c : N)      (** m_Count-- has read [c] but not written yet (notomic only) *)
| CDelete.          (** fetch_sub returned 1: about to call aligned_delete *)

(** A thread: the number of handles it holds, where it is, and which uses of the wrapped
    allocator are ordered before its next action (the happens-before relation). *)
Record cthread := CThread { ct_own : nat; ct_pc : cpc; ct_know : gset nat }.

(** UseCount, whether the block exists, how often it was deleted, whether a dead block was
    accessed, the uses so far, the uses ordered before the last write of UseCount, whether the
    deletion was ordered after all uses. *)
Record cconf := CConf {
  cc_cnt : N;
  cc_alive : bool;
  cc_deleted : nat;
  cc_bad : bool;
  cc_uses : nat;
  cc_pub : gset nat;
  cc_race : bool;
  cc_ths : list cthread
}.

(** What a thread does next. *)
Inductive cact :=
| ACopy (from : nat)   (** copy-construct a handle from one that thread [from] holds *)
| ADrop                (** destroy one of its handles *)
| AUse                 (** use the wrapped allocator through one of its handles *)
| AGive (to : nat)     (** hand one of its handles to another thread (which synchronises the two) *)
| AGo.                 (** continue inside increment/decrement *)

(** [atomic]: std::atomic; otherwise notomic (shared.h:17-38), whose read and write are separate
    steps.  [acq], [rel]: the memory order of fetch_add/fetch_sub has acquire, release. *)
Section counter.
  Context (atomic acq rel : bool).

  Definition set_th (t : nat) (x : cthread) (c : cconf) : cconf :=
    CConf (cc_cnt c) (cc_alive c) (cc_deleted c) (cc_bad c) (cc_uses c) (cc_pub c) (cc_race c) (<[t := x]> (cc_ths c)).

  (** Any access to a block that is gone is recorded. *)
  Definition touch (c : cconf) : cconf :=
    CConf (cc_cnt c) (cc_alive c) (cc_deleted c) (cc_bad c || negb (cc_alive c)) (cc_uses c) (cc_pub c) (cc_race c) (cc_ths c).

  Definition set_cnt (n : N) (c : cconf) : cconf :=
    CConf n (cc_alive c) (cc_deleted c) (cc_bad c) (cc_uses c) (cc_pub c) (cc_race c) (cc_ths c).

  (** What thread [t] knows after an atomic operation on UseCount, and what the next operation
      on UseCount can learn from it.  Read-modify-write operations continue the release sequence. *)
  Definition learn (k pub : gset nat) : gset nat := if acq then k ∪ pub else k.
  Definition publish (k pub : gset nat) (c : cconf) : cconf :=
    CConf (cc_cnt c) (cc_alive c) (cc_deleted c) (cc_bad c) (cc_uses c) (if rel then pub ∪ k else pub) (cc_race c) (cc_ths c).

  Definition cstep (ta : nat * cact) (c : cconf) : cconf :=
    let '(t, a) := ta in
    match cc_ths c !! t with
    | None => c
    | Some x =>
      match a, ct_pc x with
      | ACopy from, CIdle =>
        match cc_ths c !! from with
        | Some y =>
          if (0 <? ct_own y)%nat then
            let c := touch c in
            if atomic then
              set_cnt (add64 (cc_cnt c) 1) (publish (ct_know x) (cc_pub c)
                (set_th t (CThread (S (ct_own x)) CIdle (learn (ct_know x) (cc_pub c))) c))
            else set_th t (CThread (ct_own x) (CAdd (cc_cnt c)) (ct_know x)) c
          else c
        | None => c
        end
      | ADrop, CIdle =>
        if (0 <? ct_own x)%nat then
          let c := touch c in
          if atomic then
            set_cnt (sub64 (cc_cnt c) 1) (publish (ct_know x) (cc_pub c)
              (set_th t (CThread (ct_own x - 1) (if cc_cnt c =? 1 then CDelete else CIdle) (learn (ct_know x) (cc_pub c))) c))
          else set_th t (CThread (ct_own x - 1) (CSub (cc_cnt c)) (ct_know x)) c
        else c
      | AUse, CIdle =>
        if (0 <? ct_own x)%nat then
          let c := touch c in
          let c := set_th t (CThread (ct_own x) CIdle ({[cc_uses c]} ∪ ct_know x)) c in
          CConf (cc_cnt c) (cc_alive c) (cc_deleted c) (cc_bad c) (S (cc_uses c)) (cc_pub c) (cc_race c) (cc_ths c)
        else c
      | AGive to, CIdle =>
        if (0 <? ct_own x)%nat then
          let c := set_th t (CThread (ct_own x - 1) CIdle (ct_know x)) c in
          match cc_ths c !! to with
          | Some y => set_th to (CThread (S (ct_own y)) (ct_pc y) (ct_know y ∪ ct_know x)) c
          | None => set_th t x c
          end
        else c
      | AGo, CAdd n =>
        set_cnt (add64 n 1) (set_th t (CThread (S (ct_own x)) CIdle (ct_know x)) (touch c))
      | AGo, CSub n =>
        set_cnt (sub64 n 1) (set_th t (CThread (ct_own x) (if n =? 1 then CDelete else CIdle) (ct_know x)) (touch c))
      | AGo, CDelete =>
        (* aligned_delete: destroys the allocator and returns the block *)
        let c := set_th t (CThread (ct_own x) CIdle (ct_know x)) (touch c) in
        CConf (cc_cnt c) false (S (cc_deleted c)) (cc_bad c) (cc_uses c) (cc_pub c)
              (cc_race c || negb (bool_decide (set_seq 0 (cc_uses c) ⊆ ct_know x))) (cc_ths c)
      | _, _ => c
      end
    end.

  Fixpoint csched (l : list (nat * cact)) (c : cconf) : cconf :=
    match l with [] => c | a :: l => csched l (cstep a c) end.
End counter.

(** [n] threads; the first one has constructed a handle (shared.h:63-66: UseCount is 1). *)
Definition cstart (n : nat) : cconf :=
  CConf 1 true 0 false 0 ∅ false (CThread 1 CIdle ∅ :: repeat (CThread 0 CIdle ∅) n).

(** How many handles exist, and whether no thread is inside increment/decrement. *)
Definition handles (c : cconf) : nat := sum_list_with ct_own (cc_ths c).
Definition settled (c : cconf) : Prop := Forall (fun x => ct_pc x = CIdle) (cc_ths c).

(** * The mutex *)

(** A call broken into atomic steps: each step updates the state, and what follows may depend on
    what was seen. *)
Inductive act (St R : Type) : Type :=
| Done (r : R)
| Do (upd : St -> St) (next : St -> act St R).
Arguments Done {St R}.
Arguments Do {St R}.

Fixpoint eval {St R} (a : act St R) (s : St) : St * R :=
  match a with
  | Done r => (s, r)
  | Do upd next => eval (next s) (upd s)
  end.

Section mutex.
  Context {St C R : Type}.
  (** How each call is executed, and whether it holds the lock meanwhile. *)
  Context (body : C -> act St R) (locked : C -> bool).

  Record mthread := MThread { mt_todo : list C; mt_cur : option (C * act St R); mt_res : list R }.
  Record mconf := MConf { mc_st : St; mc_lock : option nat; mc_hist : list (nat * C); mc_ths : list mthread }.

  (** One step of thread [t]; [None]: it has nothing left to do or waits for the lock.
      threaded.h:61-73: lock_guard around the call.  [mc_hist] records the order in which calls
      begin. *)
  Definition mstep (t : nat) (c : mconf) : option mconf :=
    match mc_ths c !! t with
    | None => None
    | Some x =>
      match mt_cur x with
      | None =>
        match mt_todo x with
        | [] => None
        | k :: ks =>
          if locked k then
            match mc_lock c with
            | None => Some (MConf (mc_st c) (Some t) (mc_hist c ++ [(t, k)]) (<[t := MThread ks (Some (k, body k)) (mt_res x)]> (mc_ths c)))
            | Some _ => None
            end
          else Some (MConf (mc_st c) (mc_lock c) (mc_hist c ++ [(t, k)]) (<[t := MThread ks (Some (k, body k)) (mt_res x)]> (mc_ths c)))
        end
      | Some (k, Do upd next) =>
        Some (MConf (upd (mc_st c)) (mc_lock c) (mc_hist c) (<[t := MThread (mt_todo x) (Some (k, next (mc_st c))) (mt_res x)]> (mc_ths c)))
      | Some (k, Done r) =>
        Some (MConf (mc_st c) (if locked k then None else mc_lock c) (mc_hist c)
                    (<[t := MThread (mt_todo x) None (mt_res x ++ [r])]> (mc_ths c)))
      end
    end.

  Fixpoint msched (l : list nat) (c : mconf) : mconf :=
    match l with [] => c | t :: l => msched l (default c (mstep t c)) end.

  Definition mstart (s : St) (progs : list (list C)) : mconf :=
    MConf s None [] (map (fun p => MThread p None []) progs).

  (** All calls of all threads have returned. *)
  Definition finished (c : mconf) : Prop := Forall (fun x => mt_todo x = [] /\ mt_cur x = None) (mc_ths c).

  (** ** Specification: one call after the other *)
  Fixpoint sequential (sem : C -> St -> St * R) (h : list (nat * C)) (s : St) : St * list (nat * R) :=
    match h with
    | [] => (s, [])
    | (t, k) :: h => let '(s', r) := sem k s in let '(s'', rs) := sequential sem h s' in (s'', (t, r) :: rs)
    end.

  (** The part of a history that belongs to thread [t]. *)
  Definition of_thread {X} (t : nat) (h : list (nat * X)) : list X := map snd (filter (fun x => fst x = t) h).
End mutex.
Arguments mthread : clear implicits.
Arguments mconf : clear implicits.

(** * threaded<A> *)

(** The allocator object, the memory and what the program has obtained so far; or the program
    has come to a stop. *)
Inductive tstate (A : alloc) :=
| TRun (w : world) (s : a_st A) (bl : list (N * N)) (evs : list event)
| TStop (u : ub) (evs : list event).
Arguments TRun {A}.
Arguments TStop {A}.

(** The effect of one call (Client.v). *)
Definition tcall (A : alloc) (b : N) (ready : N -> a_st A -> bool) (o : op) (x : tstate A) : tstate A * obs :=
  match x with
  | TStop u evs => (TStop u evs, ObUnit)
  | TRun w s bl evs =>
    match step A b ready o s bl w with
    | Ok (ob, (s', bl')) w' e => (TRun w' s' bl' (evs ++ e), ob)
    | Err u e => (TStop u (evs ++ e), ObUnit)
    end
  end.

(** threaded.h:61-111: allocate and deallocate take the lock, the other members do not. *)
Definition tlocked (o : op) : bool :=
  match o with OAlloc _ | OFree _ => true | _ => false end.

(** A way of executing calls step by step that has the effect of [tcall]. *)
Definition faithful (A : alloc) (b : N) (ready : N -> a_st A -> bool) (body : op -> act (tstate A) obs) : Prop :=
  forall o x, eval (body o) x = tcall A b ready o x.

(** [h] consists of the calls of all threads, in program order for each thread. *)
Definition interleaves {C} (progs : list (list C)) (h : list (nat * C)) : Prop :=
  Forall (fun x => (fst x < length progs)%nat) h /\ forall t p, progs !! t = Some p -> of_thread t h = p.

(** ** threaded<overflow<mallocator>>: construct is m_Constructs++ and then the construction
    (overflow.h:178-207, called without the lock by threaded.h:77-95) *)
Definition ov_heap : alloc := overflow (mallocator PMalloc).

Definition constructs (x : tstate ov_heap) : option Z :=
  match x with TRun _ s _ _ => Some (o_cons s) | TStop _ _ => None end.

Definition store_constructs (v : option Z) (x : tstate ov_heap) : tstate ov_heap :=
  match x, v with TRun w s bl e, Some v => TRun w (Ov (o_in s) (o_allocs s) v : a_st ov_heap) bl e | _, _ => x end.

(** Read m_Constructs; then write it and perform the rest of the call. *)
Definition split_body (b : N) (ready : N -> a_st ov_heap -> bool) (o : op) : act (tstate ov_heap) obs :=
  match o with
  | OConstruct _ _ _ | ODestroy _ _ =>
    Do (fun x => x) (fun old =>
    Do (fun x => store_constructs (constructs (fst (tcall ov_heap b ready o old))) (fst (tcall ov_heap b ready o x)))
       (fun x => Done (snd (tcall ov_heap b ready o x))))
  | _ => Do (fun x => fst (tcall ov_heap b ready o x)) (fun x => Done (snd (tcall ov_heap b ready o x)))
  end.
