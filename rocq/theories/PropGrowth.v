(** Property theorems C64-C66: how often containers move their elements. *)
From Verif Require Import Base Mem AlignedMalloc Allocators Checked Tree Client Contract AllocSpec Env EnvProofs
  Vector ContFacts HeapPure Heap HeapSpec HeapProofs HeapFacts HeapExamples ContExamples Growth.

Local Open Scope N_scope.

(** * C64: after any history, during any operations that neither replace [c] nor reserve room in it.
    [moved]: how many elements were moved because the capacity changed; [moves]: how often it did;
    [v_peak]: at most the initial number of elements plus what was added. *)
Theorem C64_vector_amortised_growth :
  forall pl e b sz k pre c mid w os n K os2 w' evs,
  pl <> PPosix -> wf e = true -> 0 < sz -> place b (N.of_nat k * esize e) w ->
  csession (den pl e) b (vstep (den pl e) b sz k) (release (den pl e) b sz) k (pre ++ [VSize c; VCap c] ++ v_watch c mid) w =
    Ok (os ++ [CNum n; CNum K] ++ os2) w' evs ->
  length os = length pre -> existsb (unsupported (ereq pl e)) evs = false -> forallb (v_gentle c) mid = true ->
  moved n K os2 <= 4 * v_peak c mid n /\
  8 * 3 ^ N.of_nat (moves K os2) <= 27 * (v_peak c mid n + 1) * 2 ^ N.of_nat (moves K os2).
Proof. exact vector_moves_program. Qed.
Print Assumptions C64_vector_amortised_growth.

Example C64_example :
  let mid := [VPush 0 (RVal (Val 1)); VPush 0 (RVal (Val 2)); VPush 0 (RVal (Val 3)); VNewList 1 [Val 7; Val 8] 1; VErase 0 1;
              VPushRange 0 (GElems 1 0 2); VPush 0 (RElem 1 1); VResize 0 9] in
  let os2 := [CNum 0; CNum 1; CNum 1; CNum 1; CNum 2; CNum 2; CNum 2; CNum 3; CNum 3; CUnit; CNum 3; CNum 3; CNum 1; CNum 2; CNum 3;
              CNum 2; CNum 4; CNum 5; CNum 4; CNum 5; CNum 5; CUnit; CNum 9; CNum 9] in
  seen (unsupported (ereq PMalloc mixed)) (vprog mixed 4 2 ([VNew 0 0] ++ [VSize 0; VCap 0] ++ v_watch 0 mid) (w_raw 0)) =
    Some ([CUnit] ++ [CNum 0; CNum 0] ++ os2, false) /\
  forallb (v_gentle 0) mid = true /\ v_peak 0 mid 0 = 9 /\ moved 0 0 os2 = 10 /\ moves 0 os2 = 5%nat.
Proof. by vm_compute. Qed.

(** * C65 *)
Theorem C65_heap_size_at_most_capacity :
  forall pl e b sz k T comp eqv pre c w os n K w' evs,
  pl <> PPosix -> wf e = true -> 0 < sz -> place b (N.of_nat k * esize e) w ->
  csession (den pl e) b (hstep (den pl e) b sz T comp eqv k) (hrelease (den pl e) b sz T) k (pre ++ [HSize c; HCap c]) w =
    Ok (os ++ [CNum n; CNum K]) w' evs -> length os = length pre ->
  existsb (unsupported (half (ereq pl e))) evs = false -> n <= K.
Proof. exact heap_size_le_cap. Qed.
Print Assumptions C65_heap_size_at_most_capacity.

Theorem C65_heap_reserve :
  forall pl e b sz k T comp eqv pre c r w os ob K w' evs,
  pl <> PPosix -> wf e = true -> 0 < sz -> place b (N.of_nat k * esize e) w ->
  csession (den pl e) b (hstep (den pl e) b sz T comp eqv k) (hrelease (den pl e) b sz T) k (pre ++ [HReserve c r; HCap c]) w =
    Ok (os ++ [ob; CNum K]) w' evs -> length os = length pre ->
  existsb (unsupported (half (ereq pl e))) evs = false -> r <= K.
Proof. exact heap_reserve_cap. Qed.
Print Assumptions C65_heap_reserve.

(** After any history, as long as what is done to [c] fits the capacity that capacity() reported,
    data() and capacity() stay the same. *)
Theorem C65_heap_data_stable :
  forall pl e b sz k T comp eqv pre c mid w os K n p os2 ob1 ob2 w' evs,
  pl <> PPosix -> wf e = true -> 0 < sz -> place b (N.of_nat k * esize e) w ->
  csession (den pl e) b (hstep (den pl e) b sz T comp eqv k) (hrelease (den pl e) b sz T) k
    (pre ++ [HCap c; HSize c; HData c] ++ mid ++ [HData c; HCap c]) w =
    Ok (os ++ [CNum K; CNum n; CPtr p] ++ os2 ++ [ob1; ob2]) w' evs ->
  length os = length pre -> length os2 = length mid ->
  existsb (unsupported (half (ereq pl e))) evs = false ->
  h_fits c K mid n = true -> ob1 = CPtr p /\ ob2 = CNum K.
Proof. exact heap_data_stable. Qed.
Print Assumptions C65_heap_data_stable.

Example C65_example :
  let mid := [HInsert 0 (RVal (Val 9)); HPop 0; HNewList 1 [Val 4; Val 6] 0 1; HInsert 0 (RElem 1 1); HInsert 0 (RVal (Val 2)); HReserve 0 6] in
  seen (unsupported (half (ereq PMalloc mixed))) (hprog mixed 4 object 2
    ([HNewList 0 [Val 5; Val 1; Val 3] 0 0; HReserve 0 6] ++ [HCap 0; HSize 0; HData 0] ++ mid ++ [HData 0; HCap 0]) (w_raw 0)) =
  Some ([CUnit; CUnit] ++ [CNum 6; CNum 3; CPtr 131072] ++ [CNum 3; CVal (Some (Val 1)); CUnit; CNum 3; CNum 0; CUnit] ++ [CPtr 131072; CNum 6], false) /\
  h_fits 0 6 mid 3 = true.
Proof. by vm_compute. Qed.

(** * C66 *)
Theorem C66_heap_amortised_growth :
  forall pl e b sz k T comp eqv pre c mid w os n K os2 w' evs,
  pl <> PPosix -> wf e = true -> 0 < sz -> place b (N.of_nat k * esize e) w ->
  csession (den pl e) b (hstep (den pl e) b sz T comp eqv k) (hrelease (den pl e) b sz T) k (pre ++ [HSize c; HCap c] ++ h_watch c mid) w =
    Ok (os ++ [CNum n; CNum K] ++ os2) w' evs ->
  length os = length pre -> existsb (unsupported (half (ereq pl e))) evs = false -> forallb (h_gentle c) mid = true ->
  moved n K os2 <= 2 * h_peak c mid n /\ 2 ^ N.of_nat (moves K os2) <= 4 * h_peak c mid n + 1.
Proof. exact heap_moves_program. Qed.
Print Assumptions C66_heap_amortised_growth.

Example C66_example :
  let mid := [HInsert 0 (RVal (Val 5)); HInsert 0 (RVal (Val 4)); HInsert 0 (RVal (Val 3)); HPop 0; HInsert 0 (RVal (Val 2)); HInsert 0 (RVal (Val 1));
              HInsert 0 (RVal (Val 7)); HPeek 0] in
  let os2 := [CNum 0; CNum 1; CNum 1; CNum 0; CNum 2; CNum 2; CNum 0; CNum 3; CNum 4; CVal (Some (Val 3)); CNum 2; CNum 4; CNum 0; CNum 3; CNum 4;
              CNum 0; CNum 4; CNum 4; CNum 4; CNum 5; CNum 8; CVal (Some (Val 1)); CNum 5; CNum 8] in
  seen (unsupported (half (ereq PMalloc mixed))) (hprog mixed 4 object 2 ([HNew 0 0 0] ++ [HSize 0; HCap 0] ++ h_watch 0 mid) (w_raw 0)) =
    Some ([CUnit] ++ [CNum 0; CNum 0] ++ os2, false) /\
  forallb (h_gentle 0) mid = true /\ h_peak 0 mid 0 = 6 /\ moved 0 0 os2 = 7 /\ moves 0 os2 = 4%nat.
Proof. by vm_compute. Qed.
