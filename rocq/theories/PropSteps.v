(** Property theorems C69: how many comparisons binary_heap makes. *)
From Verif Require Import Base Mem AlignedMalloc Allocators Checked Tree Client Contract AllocSpec Env
  Vector HeapPure Heap HeapSpec HeapExamples ContExamples HeapSteps.

Local Open Scope N_scope.

(** * C69: with any allocator, in any world, whatever the comparator answers.

    [compares n F]: everything that [F] does is determined by the answers to at most [n] comparisons.
    [h_costs ops 0] adds floor(log2 (m + 1)) for insert, 2 * floor(log2 (m - 1)) for pop, where [m]
    is the largest number of elements that a heap can have at that point, and floor(log2 1) + ... +
    floor(log2 n) for a list of [n] values. *)
Theorem C69_program_comparisons :
  forall A b sz T eqv k ops, h_mosts ops 0 <= 2 ^ 63 ->
  compares (h_costs ops 0) (fun comp => csession A b (hstep A b sz T comp eqv k) (hrelease A b sz T) k ops).
Proof. exact heap_compares. Qed.
Print Assumptions C69_program_comparisons.

(** In a state in which no heap has more than [m] elements. *)
Theorem C69_operation_comparisons :
  forall A b sz T eqv k o s m, map_Forall (fun _ x => h_size x <= m) (snd s) -> m <= 2 ^ 63 ->
  compares (h_cost o m) (fun comp => hstep A b sz T comp eqv k o s).
Proof. exact hstep_compares. Qed.
Print Assumptions C69_operation_comparisons.

Theorem C69_loglinear :
  forall A b sz T eqv k ops, forallb no_list ops = true -> N.of_nat (length ops) <= 2 ^ 63 ->
  compares (2 * N.of_nat (length ops) * N.log2 (N.of_nat (length ops)))
    (fun comp => csession A b (hstep A b sz T comp eqv k) (hrelease A b sz T) k ops).
Proof. exact heap_compares_n. Qed.
Print Assumptions C69_loglinear.

(** The loops: as many iterations as the tree has levels are enough (a smaller bound would end with
    UBLoop). *)
Theorem C69_up_iterations :
  forall sz T comp q p i v w,
  up_loop sz T comp (S (N.to_nat i)) q p i v w = up_loop sz T comp (S (N.to_nat (N.log2 (i + 1)))) q p i v w.
Proof. exact up_rounds. Qed.
Print Assumptions C69_up_iterations.

Theorem C69_down_iterations :
  forall sz T comp q p n w, n < 2 ^ 63 ->
  down_loop sz T comp (S (N.to_nat n)) q p n 0 w = down_loop sz T comp (S (N.to_nat (N.log2 n))) q p n 0 w.
Proof. exact down_rounds. Qed.
Print Assumptions C69_down_iterations.

(** Seven values are sorted: at most 10 comparisons for the insertions, 4 for each of the removals. *)
Definition sorting : list hop :=
  [HNewCap 0 8 0 0] ++ fills 0 [Val 5; Val 3; Val 9; Val 1; Val 7; Val 3; Val 8] ++
  [HPop 0; HPop 0; HPop 0; HPop 0; HPop 0; HPop 0].
Example C69_example :
  h_mosts sorting 0 <= 2 ^ 63 /\ h_costs sorting 0 = 34 /\ forallb no_list sorting = true /\
  seen (unsupported (half (ereq PMalloc mixed))) (hprog mixed 4 object 1 sorting (w_raw 0)) =
  Some ([CUnit; CNum 0; CNum 0; CNum 2; CNum 0; CNum 4; CNum 2; CNum 6;
         CVal (Some (Val 1)); CVal (Some (Val 3)); CVal (Some (Val 3)); CVal (Some (Val 5)); CVal (Some (Val 7)); CVal (Some (Val 8))], false).
Proof. by vm_compute. Qed.
