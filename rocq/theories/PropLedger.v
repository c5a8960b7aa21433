(** Property theorems C98: what containers report that own an overflow allocator. *)
From Verif Require Import Base Mem AlignedMalloc Allocators Checked Tree Client AllocSpec AllocProofs Env Vector Array HeapPure Heap HeapSpec
  ContExamples HeapExamples Books BooksFacts Owned Ledger LedgerVec LedgerHeap LedgerFacts.

Local Open Scope N_scope.

(** * C98: the reports of containers that own an overflow allocator are those in the ledger. *)

(** All programs that compile with an overflow around an allocator that can be copied: results and
    reports, in this order, unless an allocation fails. *)
Theorem C98_vector :
  forall pl e b sz k ops w, copyable e = true -> uncounted e = true -> 0 < sz -> forallb (compiles (EOverflow e) v_role) ops = true ->
  tallies (vector_program pl (EOverflow e) b sz k ops w) (vector_ledger pl (EOverflow e) b sz k ops w).
Proof. exact (fun pl e b sz k ops w _ Hun Hsz HC => vector_tallies pl e b sz k Hun Hsz ops w HC). Qed.
Print Assumptions C98_vector.

Theorem C98_array :
  forall pl e b sz k ops w, copyable e = true -> uncounted e = true -> 0 < sz -> forallb (compiles (EOverflow e) a_role) ops = true ->
  tallies (array_program pl (EOverflow e) b sz k ops w) (array_ledger pl (EOverflow e) b sz k ops w).
Proof. exact (fun pl e b sz k ops w _ Hun Hsz HC => array_tallies pl e b sz k Hun Hsz ops w HC). Qed.
Print Assumptions C98_array.

Theorem C98_heap :
  forall pl e b sz k T comp eqv ops w, copyable e = true -> uncounted e = true -> 0 < sz -> forallb (compiles (EOverflow e) h_role) ops = true ->
  tallies (heap_program pl (EOverflow e) b sz k T comp eqv ops w) (heap_ledger pl (EOverflow e) b sz k T comp eqv ops w).
Proof. exact (fun pl e b sz k T comp eqv ops w _ Hun Hsz HC => heap_tallies pl e b sz k Hun Hsz T comp eqv ops w HC). Qed.
Print Assumptions C98_heap.

(** The ledger is kept beside an ordinary run, which it does not influence. *)
Theorem C98_vector_ledger :
  forall pl e b sz k ops w,
  forget (vector_ledger pl e b sz k ops w) = csession (den pl e) b (vstep (den pl e) b sz k) (release (den pl e) b sz) k ops w.
Proof. exact (fun pl e b sz k ops w => lsession_forget _ _ _ _ _ _ _ _ k ops w). Qed.
Print Assumptions C98_vector_ledger.

Theorem C98_array_ledger :
  forall pl e b sz k ops w,
  forget (array_ledger pl e b sz k ops w) = csession (den pl e) b (astep (den pl e) b sz k) (arelease (den pl e) b sz) k ops w.
Proof. exact (fun pl e b sz k ops w => lsession_forget _ _ _ _ _ _ _ _ k ops w). Qed.
Print Assumptions C98_array_ledger.

Theorem C98_heap_ledger :
  forall pl e b sz k T comp eqv ops w,
  forget (heap_ledger pl e b sz k T comp eqv ops w) =
  csession (den pl e) b (hstep (den pl e) b sz T comp eqv k) (hrelease (den pl e) b sz T) k ops w.
Proof. exact (fun pl e b sz k T comp eqv ops w => lsession_forget _ _ _ _ _ _ _ _ k ops w). Qed.
Print Assumptions C98_heap_ledger.

(** Programs that neither copy nor move a container report nothing. *)
Theorem C98_vector_stays :
  forall pl e b sz k ops w, copyable e = true -> uncounted e = true -> 0 < sz -> forallb (compiles (EOverflow e) v_role) ops = true ->
  forallb v_stays ops = true -> unreported (vector_program pl (EOverflow e) b sz k ops w).
Proof. exact (fun pl e b sz k ops w _ => vector_unreported pl e b sz k ops w). Qed.
Print Assumptions C98_vector_stays.

Theorem C98_array_stays :
  forall pl e b sz k ops w, copyable e = true -> uncounted e = true -> 0 < sz -> forallb (compiles (EOverflow e) a_role) ops = true ->
  forallb a_stays ops = true -> unreported (array_program pl (EOverflow e) b sz k ops w).
Proof. exact (fun pl e b sz k ops w _ => array_unreported pl e b sz k ops w). Qed.
Print Assumptions C98_array_stays.

Theorem C98_heap_stays :
  forall pl e b sz k T comp eqv ops w, copyable e = true -> uncounted e = true -> 0 < sz -> forallb (compiles (EOverflow e) h_role) ops = true ->
  forallb h_stays ops = true -> unreported (heap_program pl (EOverflow e) b sz k T comp eqv ops w).
Proof. exact (fun pl e b sz k T comp eqv ops w _ => heap_unreported pl e b sz k T comp eqv ops w). Qed.
Print Assumptions C98_heap_stays.

(** * Examples *)
Definition noted {X} (r : res (X * list event)) : option (list event) := match r with Ok (_, rs) _ _ => Some rs | Err _ _ => None end.

(** A copy owes what the original has; if the original was moved from, it owes that; a copy of the
    copy owes both. *)
Definition v_debts : list vop :=
  [VNewList 0 [Val 1; Val 2; Val 3; Val 4] 0; VCopy 1 0; VPush 1 (RVal (Val 6)); VMove 2 1; VCopy 3 2; VDestroy 1; VCopyAl 4 3 0; VDestroy 4].
Example C98_vector_example :
  exists w, place 4096 0 w /\
  forallb (compiles (EOverflow EMalloc) v_role) v_debts = true /\
  let m := vector_program PMalloc (EOverflow EMalloc) 4096 4 1 v_debts w in
  reported m = Some [EvLeak 16; EvLeak 40; EvLeak 40; EvLeak 40; EvLeak 16] /\
  reported m = noted (vector_ledger PMalloc (EOverflow EMalloc) 4096 4 1 v_debts w) /\
  match m with Ok _ _ evs => existsb lost evs = false | _ => False end.
Proof. exists (w_raw 0). split; [by apply (w_raw_place 0)|by vm_compute]. Qed.

Definition a_debts : list aop := [ANewN 0 3 0; AMove 1 0; AResize 0 5; ACopy 2 0; ADestroy 0; AMove 3 1].
Example C98_array_example :
  exists w, place 4096 0 w /\
  forallb (compiles (EOverflow EMalloc) a_role) a_debts = true /\
  let m := array_program PMalloc (EOverflow EMalloc) 4096 4 1 a_debts w in
  reported m = Some [EvLeak 12; EvLeak 12; EvLeak 32] /\
  reported m = noted (array_ledger PMalloc (EOverflow EMalloc) 4096 4 1 a_debts w) /\
  match m with Ok _ _ evs => existsb lost evs = false | _ => False end.
Proof. exists (w_raw 0). split; [by apply (w_raw_place 0)|by vm_compute]. Qed.

(** The objects in a heap are counted too; a move to another allocator does not destroy them. *)
Definition h_debts : list hop :=
  [HNewList 0 [Val 2; Val 1] 0 0; HCopy 1 0; HMoveAl 2 0 1; HInsert 2 (RVal (Val 3)); HDestroy 0; HMove 3 1].
Example C98_heap_example :
  exists w, place 4096 0 w /\
  forallb (compiles (EOverflow EMalloc) h_role) h_debts = true /\
  let m := heap_program PMalloc (EOverflow EMalloc) 4096 1 2 int4 cmps equal h_debts w in
  reported m = Some [EvLogic 2; EvLeak 4; EvLogic 4; EvLeak 2; EvLogic 2] /\
  reported m = noted (heap_ledger PMalloc (EOverflow EMalloc) 4096 1 2 int4 cmps equal h_debts w) /\
  match m with Ok _ _ evs => existsb lost evs = false | _ => False end.
Proof. exists (w_raw 0). split; [by apply (w_raw_place 0)|by vm_compute]. Qed.

Definition v_calm : list vop := [VNewList 0 [Val 1; Val 2] 0; VCopyAl 1 0 0; VPush 0 (RVal (Val 3)); VMoveAl 2 1 0; VDestroy 0; VSize 2].
Example C98_stays_example :
  exists w, place 4096 0 w /\
  forallb (compiles (EOverflow EMalloc) v_role) v_calm = true /\ forallb v_stays v_calm = true /\
  match vector_program PMalloc (EOverflow EMalloc) 4096 1 1 v_calm w with
  | Ok os _ evs => existsb lost evs = false /\ leaks evs = [] /\ os = [CUnit; CUnit; CNum 2; CUnit; CUnit; CNum 2]
  | _ => False
  end.
Proof. exists (w_raw 0). split; [by apply (w_raw_place 0)|by vm_compute]. Qed.
