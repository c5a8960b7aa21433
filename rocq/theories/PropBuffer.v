(** Property theorems C46, C57, C58: trivial_buffer. *)
From Verif Require Import Base Mem Allocators Client AllocSpec Env Vector Buffer BufferProofs BufferFacts.

Local Open Scope N_scope.

(** * C46 *)

(** A value written through index [i] is what every congruent index reads, until something is
    written through a congruent index ([BSize c] is only there to say that [c] exists). *)
Theorem C46_index_rolls_over :
  forall b sz size k pre mid c i j x w,
  0 < sz -> 0 < size -> place b (N.of_nat k * (size * sz)) w ->
  i mod size = j mod size -> forallb (b_leaves size c j) mid = true ->
  match bruns (bstep b sz size k) (pre ++ [BSize c; BSet c i (RVal x)] ++ mid ++ [BGet c j]) ∅ w with
  | Ok os _ _ => forall os1 s ob os2 v, os = os1 ++ [CNum s; ob] ++ os2 ++ [v] -> length os1 = length pre -> length os2 = length mid ->
                 v = CVal (Some x)
  | Err _ _ => False
  end.
Proof. exact buffer_roll. Qed.
Print Assumptions C46_index_rolls_over.

Example C46_example :
  place 4096 (N.of_nat 2 * (4 * 4)) (w_raw 32) /\ 3 mod 4 = (2 ^ 64 - 1) mod 4 /\
  forallb (b_leaves 4 1 (2 ^ 64 - 1)) [BSet 1 4 (RVal (Val 8)); BSet 0 3 (RElem 1 3); BAssign 0 1] = true /\
  outcome (bruns (bstep 4096 4 4 2) ([BNew 0; BNewFill 1 (RVal (Val 5))] ++ [BSize 1; BSet 1 3 (RVal (Val 7))] ++
    [BSet 1 4 (RVal (Val 8)); BSet 0 3 (RElem 1 3); BAssign 0 1] ++ [BGet 1 (2 ^ 64 - 1)]) ∅ (w_raw 32)) =
  Some ([CUnit; CUnit] ++ [CNum 4; CUnit] ++ [CUnit; CUnit; CUnit] ++ [CVal (Some (Val 7))], []).
Proof. split; [exact w32_place|]. by vm_compute. Qed.

(** * C57 *)
Theorem C57_buffer_is_list :
  forall b sz size k, 0 < sz -> 0 < size ->
  forall ops w, place b (N.of_nat k * (size * sz)) w -> bprogram_ok b sz size k ops w.
Proof. exact buffer_program. Qed.
Print Assumptions C57_buffer_is_list.

Example C57_example :
  outcome (bruns (bstep 4096 4 4 2)
    [BNewList 0 [Val 1; Val 2; Val 3]; BGet 0 2; BGet 0 3; BCopy 1 0; BSet 0 5 (RElem 0 0); BGet 0 1; BGet 1 1; BMoveAssign 1 0; BGet 1 1;
     BFrom 0 (GVals [Val 6; Val 7; Val 8; Val 9]); BGet 0 3; BDestroy 1; BNewRange 1 (GElems 0 0 4); BGet 1 6] ∅ (w_raw 32)) =
  Some ([CUnit; CVal (Some (Val 3)); CVal None; CUnit; CUnit; CVal (Some (Val 1)); CVal (Some (Val 2)); CUnit; CVal (Some (Val 1));
     CUnit; CVal (Some (Val 9)); CUnit; CUnit; CVal (Some (Val 8))], []).
Proof. by vm_compute. Qed.

(** * C58: false; the destination and the source of memcpy overlap *)
Theorem C58_buffer_self_assign_refuted :
  exists w, place 4096 (N.of_nat 2 * (4 * 4)) w /\
  crash (bruns (bdo 4096 4 4) [BNewList 0 [Val 1; Val 2; Val 3; Val 4]; BAssign 0 0] ∅ w) = Some UBOverlap /\
  crash (bruns (bdo 4096 4 4) [BNewList 0 [Val 1; Val 2; Val 3; Val 4]; BMoveAssign 0 0] ∅ w) = Some UBOverlap /\
  crash (bruns (bdo 4096 4 4) [BNewList 0 [Val 1; Val 2; Val 3; Val 4]; BFrom 0 (GElems 0 0 4)] ∅ w) = Some UBOverlap.
Proof. exact self_assign_buffer. Qed.
Print Assumptions C58_buffer_self_assign_refuted.
