(** Property theorems C73: containers over an allocator that other threads use as well. *)
From Verif Require Import Base Mem AlignedMalloc Allocators Checked Tree Client Contract Service AllocSpec Env EnvProofs
  Vector Array HeapPure Heap HeapSpec ContExamples HeapExamples Crowd CrowdFacts.

Local Open Scope N_scope.

(** * C73: [plan] is what the other threads do before and after each call of this one (Crowd.v). *)
Theorem C73_vector_among_threads :
  forall pl e plan b sz k ops w,
  pl <> PPosix -> wf e = true -> 0 < sz -> place b (N.of_nat k * esize e) w -> Forall (deeds_ask (ereq pl e)) plan ->
  let A := crowd (den pl (EThreaded e)) plan in
  csession_ok A b (vstep A b sz k) (release A b sz) (vcheck sz k) (unsupported (ereq pl e)) k ∅ ops w.
Proof. exact vector_crowd. Qed.
Print Assumptions C73_vector_among_threads.

Theorem C73_array_among_threads :
  forall pl e plan b sz k ops w,
  pl <> PPosix -> wf e = true -> 0 < sz -> place b (N.of_nat k * esize e) w -> Forall (deeds_ask (ereq pl e)) plan ->
  let A := crowd (den pl (EThreaded e)) plan in
  csession_ok A b (astep A b sz k) (arelease A b sz) (acheck sz k) (unsupported (ereq pl e)) k ∅ ops w.
Proof. exact array_crowd. Qed.
Print Assumptions C73_array_among_threads.

Theorem C73_heap_among_threads :
  forall pl e plan b sz T comp eqv k ops w,
  pl <> PPosix -> wf e = true -> 0 < sz -> place b (N.of_nat k * esize e) w -> Forall (deeds_ask (ereq pl e)) plan ->
  let A := crowd (den pl (EThreaded e)) plan in
  csession_ok A b (hstep A b sz T comp eqv k) (hrelease A b sz T) (hcheck sz T comp eqv k)
    (unsupported (half (ereq pl e))) k ∅ ops w.
Proof. exact heap_crowd. Qed.
Print Assumptions C73_heap_among_threads.

(** For any allocator: what containers need is preserved. *)
Theorem C73_service_among_threads :
  forall bad A req plan, service bad A req -> Forall (deeds_ask req) plan -> inhabited (service bad (crowd A plan) req).
Proof. exact crowd_serves. Qed.
Print Assumptions C73_service_among_threads.

(** The others write to their blocks and read them again after the vectors have grown and shrunk,
    with a free list that all of them share. *)
Example C73_example :
  wf mixed = true /\ place 4096 (1 * esize mixed) (w_raw 0) /\ Forall (deeds_ask (ereq PMalloc mixed)) busy /\
  seen (unsupported (ereq PMalloc mixed)) (vcrowd [VNewList 0 [Val 1; Val 2] 0; VPush 0 (RVal (Val 3)); VCopy 1 0; VPush 1 (RElem 0 0);
    VGet 1 3; VGet 0 2; VDestroy 0; VGet 1 1] (w_raw 0)) =
    Some ([CUnit; CNum 2; CUnit; CNum 3; CVal (Some (Val 1)); CVal (Some (Val 3)); CUnit; CVal (Some (Val 2))], false) /\
  seen (unsupported (half (ereq PMalloc mixed))) (hcrowd [HNewList 0 [Val 4; Val 2] 0 0; HInsert 0 (RVal (Val 1)); HInsert 0 (RVal (Val 3));
    HPop 0; HPop 0; HPeek 0] (w_raw 0)) =
    Some ([CUnit; CNum 0; CNum 1; CVal (Some (Val 1)); CVal (Some (Val 2)); CVal (Some (Val 3))], false).
Proof. split; [done|]. split; [exact (w0_place 1)|]. split; [exact busy_asks|]. by vm_compute. Qed.
