(** Property theorems C99: binary_heap with comparators that answer anything at any time. *)
From Verif Require Import Base Mem AlignedMalloc Allocators Checked Tree Client Contract Service AllocSpec Env
  Vector HeapPure Heap HeapSpec HeapSteps HeapProofs HeapFacts HeapExamples ContExamples Fickle FickleProofs FickleFacts.

Local Open Scope N_scope.

(** * C99: an operation comes with the answers that the comparator, or operator==, gives while it
    runs (Fickle.v).  Over allocators that treat any other use as an error, as in C49. *)
Theorem C99_memory_discipline :
  forall pl e b sz T k (ops : list (hop * list bool)) w,
  pl <> PPosix -> wf e = true -> 0 < sz -> place b (N.of_nat k * esize e) w ->
  let A := checked (den pl e) in
  csession_ok A b (fstep A b sz T k) (hrelease A b sz T) (fcheck sz T k) (unsupported (half (ereq pl e))) k ∅ ops w.
Proof. exact (fun pl e => fickle_tree pl (EChecked e)). Qed.
Print Assumptions C99_memory_discipline.

(** Nothing is lost or duplicated. *)
Theorem C99_no_element_lost :
  forall pl e b sz T k (ops : list (hop * list bool)) w,
  pl <> PPosix -> wf e = true -> 0 < sz -> place b (N.of_nat k * esize e) w -> forallb (fun oa => queue_op (fst oa)) ops = true ->
  let A := checked (den pl e) in
  csession_ok A b (fstep A b sz T k) (hrelease A b sz T) (bag_check T k) (unsupported (half (ereq pl e))) k ∅ ops w.
Proof. exact (fun pl e => fickle_bag pl (EChecked e)). Qed.
Print Assumptions C99_no_element_lost.

Theorem C99_any_allocator :
  forall bad A req, service bad A req -> modest bad (half req) ->
  forall b sz T k, 0 < sz -> forall (ops : list (hop * list bool)) w, place b (N.of_nat k * a_size A) w ->
  csession_ok A b (fstep A b sz T k) (hrelease A b sz T) (fcheck sz T k) bad k ∅ ops w.
Proof. exact fickle_any. Qed.
Print Assumptions C99_any_allocator.

(** Each program with comparators that are functions (Heap.v) is one of these, for some answers. *)
Theorem C99_every_comparator :
  forall A b sz T comp eqv k ops w, exists ass, length ass = length ops /\
  csession A b (fstep A b sz T k) (hrelease A b sz T) k (zip ops ass) w =
  csession A b (hstep A b sz T comp eqv k) (hrelease A b sz T) k ops w.
Proof. exact session_covers. Qed.
Print Assumptions C99_every_comparator.

(** Only the first answers matter: floor(log2 (m + 1)) for insert, 2 * floor(log2 (m - 1)) for pop, [m] for
    find, if no heap has more than [m] elements. *)
Theorem C99_few_answers :
  forall A b sz T k o a s m, map_Forall (fun _ x => h_size x <= m) (snd s) -> m <= 2 ^ 63 -> forall w,
  fstep A b sz T k (o, a) s w = fstep A b sz T k (o, take (N.to_nat (f_cost o m)) a) s w.
Proof. exact step_reads. Qed.
Print Assumptions C99_few_answers.

(** The comparator changes its mind: the elements come out in no order, each once. *)
Definition moody : list (hop * list bool) :=
  [(HNew 0 0 0, []); (HInsert 0 (RVal (Val 5)), []); (HInsert 0 (RVal (Val 3)), [true]); (HInsert 0 (RVal (Val 9)), [true]);
   (HInsert 0 (RVal (Val 1)), [false]); (HInsert 0 (RVal (Val 7)), [true; false]); (HFind 0 (RVal (Val 4)), [false; false; true]);
   (HPop 0, [false; true; true; true]); (HPop 0, [true; true]); (HPop 0, [false]); (HPeek 0, [])].
Example C99_example :
  wf mixed = true /\ place 4096 (1 * esize mixed) (w_raw 0) /\
  seen (unsupported (half (ereq PMalloc mixed)))
    (let A := den PMalloc (EChecked mixed) in csession A 4096 (fstep A 4096 4 object 1) (hrelease A 4096 4 object) 1 moody (w_raw 0)) =
  Some ([CUnit; CNum 0; CNum 0; CNum 0; CNum 3; CNum 1; CNum 2] ++
        vals [Val 9; Val 3; Val 5; Val 1], false).
Proof. split; [done|]. split; [exact (w0_place 1)|]. by vm_compute. Qed.
