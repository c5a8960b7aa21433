(** Containers and the values of their elements. *)
From Verif Require Import Base Mem Bits AlignedMalloc Allocators Checked Tree Client AllocSpec AllocProofs Env Vector Array HeapPure Heap Mixed
  ContExamples HeapExamples Rename RenameFacts.

Local Open Scope N_scope.

(** * C90: a program in which every value is replaced does the same with the new values *)
Theorem C90_vector :
  forall f pl e b sz k ops,
  let A := den pl e in
  let run ops := csession A b (vstep A b sz k) (release A b sz) k ops in
  natural f (run ops) (run (map (rvop f) ops)).
Proof. exact natural_vector. Qed.
Print Assumptions C90_vector.

Theorem C90_array :
  forall f pl e b sz k ops,
  let A := den pl e in
  let run ops := csession A b (astep A b sz k) (arelease A b sz) k ops in
  natural f (run ops) (run (map (raop f) ops)).
Proof. exact natural_array. Qed.
Print Assumptions C90_array.

Theorem C90_heap :
  forall f pl e b sz T T' comp comp' eqv eqv' k ops,
  relt f T T' -> rcomp f comp comp' -> reqv f eqv eqv' ->
  let A := den pl e in
  natural f (csession A b (hstep A b sz T comp eqv k) (hrelease A b sz T) k ops)
            (csession A b (hstep A b sz T' comp' eqv' k) (hrelease A b sz T') k (map (rhop f) ops)).
Proof. exact natural_heap. Qed.
Print Assumptions C90_heap.

Theorem C90_mixed :
  forall f pl e b ty ty' k ops,
  (forall t, rctype f (ty t) (ty' t)) ->
  let A := den pl e in
  natural f (csession A b (xstep A b ty k) (xkill A b) k ops)
            (csession A b (xstep A b ty' k) (xkill A b) k (map (fun o => (fst o, rcop f (snd o))) ops)).
Proof. exact natural_mixed. Qed.
Print Assumptions C90_mixed.

Example C90_vector_example :
  map (rvop twice) (some_vector 4 7) = some_vector 9 15 /\
  seen (fun _ => false) (vprog mixed 4 1 (some_vector 4 7) (w_raw 0)) =
    Some ([CUnit; CNum 3; CNum 4; CNum 0; CVal (Some (Val 7)); CVal (Some (Val 4)); CNum 4; CPtr 131072; CUnit; CVal (Some (Val 7)); CPtr 196608], false) /\
  seen (fun _ => false) (vprog mixed 4 1 (some_vector 9 15) (w_raw 0)) =
    Some ([CUnit; CNum 3; CNum 4; CNum 0; CVal (Some (Val 15)); CVal (Some (Val 9)); CNum 4; CPtr 131072; CUnit; CVal (Some (Val 15)); CPtr 196608], false).
Proof. exact natural_vector_use. Qed.
(** The order is preserved, hence also where elements are found. *)
Example C90_heap_example :
  relt twice object object /\ rcomp twice cmps cmps /\ reqv twice equal equal /\ map (rhop twice) (some_heap 4 2) = some_heap 9 5 /\
  seen (fun _ => false) (hprog mixed 4 object 1 (some_heap 4 2) (w_raw 0)) =
    Some ([CUnit; CNum 2; CNum 1; CNum 3; CVal (Some (Val 2)); CVal (Some (Val 2)); CNum 4; CPtr 131072], false) /\
  seen (fun _ => false) (hprog mixed 4 object 1 (some_heap 9 5) (w_raw 0)) =
    Some ([CUnit; CNum 2; CNum 1; CNum 3; CVal (Some (Val 5)); CVal (Some (Val 5)); CNum 4; CPtr 131072], false).
Proof. exact natural_heap_use. Qed.
Example C90_mixed_example :
  forall t, rctype twice (match t with O => TVec 4 | 1%nat => TArr 8 | _ => THeap 4 object cmps equal end)
    (match t with O => TVec 4 | 1%nat => TArr 8 | _ => THeap 4 object cmps equal end).
Proof. exact natural_mixed_use. Qed.

(** * C91: what is stored has no influence on anything else *)
Theorem C91_vector :
  forall pl e b sz k ops ops' w,
  pl <> PPosix -> wf e = true -> 0 < sz -> place b (N.of_nat k * esize e) w -> no_elements w -> Forall2 like_vop ops ops' ->
  let A := den pl e in
  let run ops := csession A b (vstep A b sz k) (release A b sz) k ops w in
  like_course (unsupported (ereq pl e)) (run ops) (run ops').
Proof. exact like_vector. Qed.
Print Assumptions C91_vector.

Theorem C91_array :
  forall pl e b sz k ops ops' w,
  pl <> PPosix -> wf e = true -> 0 < sz -> place b (N.of_nat k * esize e) w -> no_elements w -> Forall2 like_aop ops ops' ->
  let A := den pl e in
  let run ops := csession A b (astep A b sz k) (arelease A b sz) k ops w in
  like_course (unsupported (ereq pl e)) (run ops) (run ops').
Proof. exact like_array. Qed.
Print Assumptions C91_array.

Example C91_vector_example :
  wf mixed = true /\ place 4096 (N.of_nat 1 * esize mixed) (w_raw 0) /\ no_elements (w_raw 0) /\
  Forall2 like_vop (some_vector 4 7) (some_vector 1 1) /\
  existsb (unsupported (ereq PMalloc mixed)) (trace (vprog mixed 4 1 (some_vector 4 7) (w_raw 0))) = false /\
  seen (fun _ => false) (vprog mixed 4 1 (some_vector 1 1) (w_raw 0)) =
    Some ([CUnit; CNum 3; CNum 4; CNum 0; CVal (Some (Val 1)); CVal (Some (Val 1)); CNum 4; CPtr 131072; CUnit; CVal (Some (Val 1)); CPtr 196608], false).
Proof. exact like_vector_use. Qed.
Example C91_array_example :
  Forall2 like_aop (some_array 4 7) (some_array 1 1) /\
  existsb (unsupported (ereq PMalloc mixed)) (trace (aprog mixed 4 1 (some_array 4 7) (w_raw 0))) = false /\
  seen (fun _ => false) (aprog mixed 4 1 (some_array 9 15) (w_raw 0)) =
    Some ([CUnit; CUnit; CVal (Some (Val 15)); CVal (Some (Val 9)); CNum 4; CPtr 131072; CUnit; CVal (Some (Val 9)); CPtr 196608], false).
Proof. exact like_array_use. Qed.
