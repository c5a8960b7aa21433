(** Property theorems C78: binary_heap and copy constructors that throw. *)
From Verif Require Import Base Mem AlignedMalloc Allocators Checked Tree Client Contract Service AllocSpec Env EnvProofs
  Vector HeapPure Heap HeapSpec ContFacts ContExamples HeapExamples BooksFacts Throw ThrowFacts.

Local Open Scope N_scope.

(** * C78 *)

(** The other heaps behave as if the constructions that threw had not been attempted. *)
Theorem C78_others_unaffected_partial :
  forall pl e b sz T comp eqv k, pl <> PPosix -> wf e = true -> 0 < sz -> e_triv T = false ->
  forall ops w os w' evs, forallb no_assign ops = true -> place b (N.of_nat k * esize e) w ->
  tprog (den pl e) b sz T comp eqv k ops w = Ok os w' evs -> existsb (unsupported (half (ereq pl e))) evs = false ->
  let p := calm ops os in ccheck (hcheck sz T comp eqv k) (map fst p) (map snd p) ∅.
Proof. exact throw_unaffected. Qed.
Print Assumptions C78_others_unaffected_partial.

(** The exact consequences: no undefined behaviour, and of every construction that threw the storage
    and the objects made so far, in places of their own. *)
Theorem C78_consequences_partial :
  forall pl e b sz T comp eqv k ops w,
  pl <> PPosix -> wf e = true -> 0 < sz -> e_triv T = false -> forallb no_assign ops = true -> place b (N.of_nat k * esize e) w ->
  tprog_ok (den pl e) b sz T comp eqv k (unsupported (half (ereq pl e))) ops w.
Proof. exact throw_tree. Qed.
Print Assumptions C78_consequences_partial.

Theorem C78_any_allocator_partial :
  forall bad A req, service bad A req -> modest bad (half req) -> forall b sz T comp eqv k ops w,
  0 < sz -> e_triv T = false -> forallb no_assign ops = true -> place b (N.of_nat k * a_size A) w ->
  tprog_ok A b sz T comp eqv k bad ops w.
Proof. exact throw_any. Qed.
Print Assumptions C78_any_allocator_partial.

(** Every copy construction that throws leaks: at the end, when all heaps are gone, its storage is
    allocated and the copies made are alive. *)
Theorem C78_every_throw_leaks :
  forall pl e b sz T comp eqv k, pl <> PPosix -> wf e = true -> 0 < sz -> e_triv T = false ->
  forall ops w os w' evs i src h j p, forallb no_assign ops = true -> place b (N.of_nat k * esize e) w ->
  tprog (den pl e) b sz T comp eqv k ops w = Ok os w' evs -> existsb (unsupported (half (ereq pl e))) evs = false ->
  ops !! i = Some (TCopy src h j) -> os !! i = Some (CPtr p) ->
  p <> 0 /\
  (forall a, p <= a < p + sz * (N.of_nat j + 1) -> is_Some (mem (st w') !! a) /\
    (mem (st w) !! a = None \/ b <= a < b + N.of_nat k * esize e)) /\
  (forall i a, (i < j)%nat -> a < sz -> exists v, mem (st w') !! (p + sz * N.of_nat i + a) = ochunk (N.to_nat sz) v !! N.to_nat a).
Proof. exact throw_leaks. Qed.
Print Assumptions C78_every_throw_leaks.

(** So the memory is not as it was, even after the destruction of the allocator. *)
Theorem C78_no_leak_refuted :
  exists w ops os w' evs, place 4096 0 w /\ forallb no_assign ops = true /\ throwing_all EMalloc 1 ops w = Ok os w' evs /\
  existsb (unsupported (half (ereq PMalloc EMalloc))) evs = false /\ exists a, mem (st w) !! a = None /\ is_Some (mem (st w') !! a).
Proof. exact throw_leak_found. Qed.
Print Assumptions C78_no_leak_refuted.

(** After an assignment that throws the destructor of the heap destroys what is not there. *)
Theorem C78_assign_refuted :
  exists w ops, place 4096 0 w /\ exists evs, throwing EMalloc 2 ops w = Err UBLifetime evs /\
  existsb (unsupported (half (ereq PMalloc EMalloc))) evs = false.
Proof. exact throw_assign_found. Qed.
Print Assumptions C78_assign_refuted.

(** overflow has counted the object whose constructor threw: three objects are reported, two exist. *)
Theorem C78_report_refuted :
  exists w, place 4096 0 w /\
  reported (throwing_all (EOverflow EMalloc) 1 (three ++ [TCopy 0 0 2]) w) = Some [EvLeak 12; EvLogic 3].
Proof. exact throw_report_found. Qed.
Print Assumptions C78_report_refuted.

(** A heap of three; a copy and a construction from a list that throw; then the heap is used further. *)
Example C78_example :
  let ops := three ++ [TCopy 0 0 2; TOp (HPop 0); TList [Val 8; Val 7; Val 9] 0 1 1; TOp (HInsert 0 (RVal (Val 5))); TOp (HPop 0); TCopy 0 1 7] in
  wf mixed = true /\ place 4096 (2 * esize mixed) (w_raw 0) /\ forallb no_assign ops = true /\
  seen (unsupported (half (ereq PMalloc mixed))) (throwing mixed 2 ops (w_raw 0)) =
    Some ([CUnit; CPtr 131072; CVal (Some (Val 1)); CPtr 196608; CNum 2; CVal (Some (Val 2)); CUnit], false).
Proof. split; [done|]. split; [exact (w0_place 2)|]. split; [done|]. by vm_compute. Qed.
