(** Property theorems C96: containers that hold their allocator by value. *)
From Verif Require Import Base Mem AlignedMalloc Allocators Checked Tree Client AllocSpec AllocProofs Env Vector Array HeapPure Heap HeapSpec
  ContExamples HeapExamples BooksFacts Owned OwnedProofs.

Local Open Scope N_scope.

(** * C96: that containers copy and destroy allocator objects makes no difference except for what
    overflow reports. *)

(** The compositions [e] whose objects can be copied, and the programs [ops] that compile with them:
    the same results, the same final state and the same events as if all containers referred to the
    allocators made by the program (the programs of C42 and others), except reports. *)
Theorem C96_vector_like_index :
  forall pl e b sz k ops w, copyable e = true -> forallb (compiles e v_role) ops = true ->
  but_reports (vector_program pl e b sz k ops w)
    (csession (den pl e) b (vstep (den pl e) b sz k) (release (den pl e) b sz) k ops w).
Proof. exact (fun pl e b sz k ops w _ _ => vector_program_near pl e b sz k ops w). Qed.
Print Assumptions C96_vector_like_index.

Theorem C96_array_like_index :
  forall pl e b sz k ops w, copyable e = true -> forallb (compiles e a_role) ops = true ->
  but_reports (array_program pl e b sz k ops w)
    (csession (den pl e) b (astep (den pl e) b sz k) (arelease (den pl e) b sz) k ops w).
Proof. exact (fun pl e b sz k ops w _ _ => array_program_near pl e b sz k ops w). Qed.
Print Assumptions C96_array_like_index.

Theorem C96_heap_like_index :
  forall pl e b sz k T comp eqv ops w, copyable e = true -> forallb (compiles e h_role) ops = true ->
  but_reports (heap_program pl e b sz k T comp eqv ops w)
    (csession (den pl e) b (hstep (den pl e) b sz T comp eqv k) (hrelease (den pl e) b sz T) k ops w).
Proof. exact (fun pl e b sz k T comp eqv ops w _ _ => heap_program_near pl e b sz k T comp eqv ops w). Qed.
Print Assumptions C96_heap_like_index.

(** Hence the containers are lists, arrays and priority queues, and everything is given back. *)
Theorem C96_vector_is_list :
  forall pl e b sz k ops w, copyable e = true -> forallb (compiles e v_role) ops = true ->
  pl <> PPosix -> wf e = true -> 0 < sz -> place b (N.of_nat k * esize e) w ->
  bsession_ok (vcheck sz k) (unsupported (ereq pl e)) b (N.of_nat k * esize e) ∅ ops (vector_program pl e b sz k ops) w.
Proof. exact (fun pl e b sz k ops w _ _ Hpl Hwf Hsz => vector_owned pl e b sz k Hpl Hwf Hsz ops w). Qed.
Print Assumptions C96_vector_is_list.

Theorem C96_array_is_list :
  forall pl e b sz k ops w, copyable e = true -> forallb (compiles e a_role) ops = true ->
  pl <> PPosix -> wf e = true -> 0 < sz -> place b (N.of_nat k * esize e) w ->
  bsession_ok (acheck sz k) (unsupported (ereq pl e)) b (N.of_nat k * esize e) ∅ ops (array_program pl e b sz k ops) w.
Proof. exact (fun pl e b sz k ops w _ _ Hpl Hwf Hsz => array_owned pl e b sz k Hpl Hwf Hsz ops w). Qed.
Print Assumptions C96_array_is_list.

Theorem C96_heap_is_priority_queue :
  forall pl e b sz k T comp eqv ops w, copyable e = true -> forallb (compiles e h_role) ops = true ->
  pl <> PPosix -> wf e = true -> 0 < sz -> place b (N.of_nat k * esize e) w ->
  bsession_ok (hcheck sz T comp eqv k) (unsupported (half (ereq pl e))) b (N.of_nat k * esize e) ∅ ops
    (heap_program pl e b sz k T comp eqv ops) w.
Proof. exact (fun pl e b sz k T comp eqv ops w _ _ Hpl Hwf Hsz => heap_owned pl e b sz k Hpl Hwf Hsz T comp eqv ops w). Qed.
Print Assumptions C96_heap_is_priority_queue.

(** The reports themselves do differ: although nothing leaks, copies and moves are reported. *)
Theorem C96_reports_refuted :
  exists w, place 4096 0 w /\
  let e := EOverflow EMalloc in
  let vops := [VNewList 0 [Val 1; Val 2; Val 3; Val 4] 0; VCopy 1 0; VMove 2 1] in
  let aops := [ANewN 0 3 0; AMove 1 0] in
  let hops := [HNewList 0 [Val 2; Val 1] 0 0; HCopy 1 0; HDestroy 0] in
  reported (vector_program PMalloc e 4096 4 1 vops w) = Some [EvLeak 16; EvLeak 32; EvLeak 16] /\
  reported (vprog e 4 1 vops w) = Some [] /\
  reported (array_program PMalloc e 4096 4 1 aops w) = Some [EvLeak 12] /\
  reported (aprog e 4 1 aops w) = Some [] /\
  reported (heap_program PMalloc e 4096 4 1 int4 cmps equal hops w) = Some [EvLeak 8; EvLogic 2] /\
  reported (hprog e 4 int4 1 hops w) = Some [].
Proof. exists (w_raw 0). split; [by apply (w_raw_place 0)|by vm_compute]. Qed.
Print Assumptions C96_reports_refuted.

(** * Examples *)

(** Two objects that count what goes to malloc; blocks of up to 16 bytes come from a free list that
    they refer to. *)
Definition counted : aexp := ESegragator 16 (EReference (EFreelist 0 16 EMalloc)) (EOverflow EMalloc).
Definition many : list value := repeat (Val 7) 19 ++ [Val 5].
Definition v_ops : list vop :=
  [VNewList 0 many 0; VCopy 1 0; VPush 1 (RVal (Val 6)); VMoveAl 2 1 1; VMove 3 2; VNewN 4 4 1; VDestroy 1; VGet 3 20; VGet 0 19; VSize 4].
Definition a_ops : list aop :=
  [ANewList 0 many 0; ACopy 1 0; AResize 1 21; ASet 1 20 (RVal (Val 6)); AMoveAl 2 1 1; AMove 3 2; ADestroy 1; AGet 3 20; AGet 0 19; ASize 2].
Definition h_ops : list hop :=
  [HNewList 0 many 0 0; HCopy 1 0; HInsert 1 (RVal (Val 1)); HMoveAl 2 1 1; HMove 3 2; HDestroy 1; HPop 3; HPop 3; HSize 0; HSize 2].

Example C96_programs_exist :
  copyable counted = true /\ wf counted = true /\ esize counted = 0 /\
  forallb (compiles counted v_role) v_ops = true /\ forallb (compiles counted a_role) a_ops = true /\
  forallb (compiles counted h_role) h_ops = true.
Proof. by vm_compute. Qed.

Example C96_vector_example :
  place 4096 (N.of_nat 2 * 0) (w_raw 0) /\
  let r := vector_program PMalloc counted 4096 1 2 v_ops (w_raw 0) in
  seen (unsupported (ereq PMalloc counted)) r =
  Some ([CUnit; CUnit; CNum 20; CUnit; CUnit; CUnit; CUnit; CVal (Some (Val 6)); CVal (Some (Val 5)); CNum 4], false) /\
  reported r = Some [EvLeak 20; EvLeak 20; EvLeak 21].
Proof. split; [by apply (w0_place 2)|by vm_compute]. Qed.

Example C96_array_example :
  let r := array_program PMalloc counted 4096 1 2 a_ops (w_raw 0) in
  seen (unsupported (ereq PMalloc counted)) r =
  Some ([CUnit; CUnit; CUnit; CUnit; CUnit; CUnit; CUnit; CVal (Some (Val 6)); CVal (Some (Val 5)); CNum 0], false) /\
  reported r = Some [EvLeak 20; EvLeak 21].
Proof. by vm_compute. Qed.

Example C96_heap_example :
  let r := heap_program PMalloc counted 4096 1 2 int4 cmps equal h_ops (w_raw 0) in
  seen (unsupported (half (ereq PMalloc counted))) r =
  Some ([CUnit; CUnit; CNum 0; CUnit; CUnit; CUnit; CVal (Some (Val 1)); CVal (Some (Val 5)); CNum 20; CNum 0], false) /\
  reported r = Some [EvLeak 20; EvLeak 21].
Proof. by vm_compute. Qed.

(** With assignments: a stack of 64 bytes behind all containers. *)
Definition reset : list vop :=
  [VNewList 0 [Val 1; Val 2; Val 3] 0; VNewList 1 [Val 4; Val 5] 0; VAssign 1 0; VPush 1 (RVal (Val 6)); VMoveAssign 0 1; VGet 0 3; VSize 1].
Example C96_assignment_example :
  let e := EFallback (EStack 64) EMalloc in
  copyable e = true /\ wf e = true /\ forallb (compiles e v_role) reset = true /\ place 4096 (N.of_nat 1 * esize e) (w_raw 64) /\
  seen (unsupported (ereq PMalloc e)) (vector_program PMalloc e 4096 4 1 reset (w_raw 64)) =
  Some ([CUnit; CUnit; CUnit; CNum 3; CUnit; CVal (Some (Val 6)); CNum 0], false).
Proof. cbv zeta. split; [done|]. split; [done|]. split; [done|]. split; [by apply (w_raw_place 64)|by vm_compute]. Qed.
