(** Property theorems C95: pointers to elements of binary_heap. *)
From Verif Require Import Base Mem AlignedMalloc Allocators Checked Tree Client Contract Service AllocSpec Env EnvProofs
  Vector HeapPure Heap HeapSpec HeapProofs HeapFacts HeapExamples ContExamples Ptr HeapPtr HeapPtrProofs HeapPtrFacts.

Local Open Scope N_scope.

(** * C95: such a pointer is another name of this element and of nothing else.  Heaps whose elements
    are written at will stay heaps except for the order; all others stay priority queues. *)
Theorem C95_heap_pointers :
  forall pl e b sz T comp eqv k wild ops w,
  pl <> PPosix -> wf e = true -> 0 < sz -> place b (N.of_nat k * esize e) w ->
  csession_ok (den pl e) b (hpstep (den pl e) b sz T comp eqv k wild) (hrelease (den pl e) b sz T) (hpcheck sz T comp eqv k wild)
    (unsupported (half (ereq pl e))) k ∅ ops w.
Proof. exact hptr_tree. Qed.
Print Assumptions C95_heap_pointers.

Theorem C95_heap_pointers_any_allocator :
  forall bad A req, service bad A req -> modest bad (half req) ->
  forall b sz T comp eqv k wild, 0 < sz -> forall ops w, place b (N.of_nat k * a_size A) w ->
  csession_ok A b (hpstep A b sz T comp eqv k wild) (hrelease A b sz T) (hpcheck sz T comp eqv k wild) bad k ∅ ops w.
Proof. exact hptr_any. Qed.
Print Assumptions C95_heap_pointers_any_allocator.

(** Over allocators that treat any other use as an error. *)
Theorem C95_memory_discipline :
  forall pl e b sz T comp eqv k wild ops w,
  pl <> PPosix -> wf e = true -> 0 < sz -> place b (N.of_nat k * esize e) w ->
  let A := checked (den pl e) in
  csession_ok A b (hpstep A b sz T comp eqv k wild) (hrelease A b sz T) (hpcheck sz T comp eqv k wild) (unsupported (half (ereq pl e))) k ∅ ops w.
Proof. exact (fun pl e => hptr_tree pl (EChecked e)). Qed.
Print Assumptions C95_memory_discipline.

(** After any history, what is written to begin() + i is what begin()[i] is ... *)
Theorem C95_write_through_pointer :
  forall pl e b sz T less eqv k pre c i v w os n p o1 o2 w' evs,
  pl <> PPosix -> wf e = true -> 0 < sz -> place b (N.of_nat k * esize e) w ->
  csession (den pl e) b (hpstep (den pl e) b sz T (fun _ => less) eqv k (fun _ => true)) (hrelease (den pl e) b sz T) k
    (pre ++ [HLib (HSize c); HLib (HData c); HStore (p + sz * i) (PVal v); HLib (HAt c i)]) w = Ok (os ++ [CNum n; CPtr p; o1; o2]) w' evs ->
  length os = length pre -> existsb (unsupported (half (ereq pl e))) evs = false -> i < n -> o2 = CVal (Some v).
Proof. exact heap_write_through. Qed.
Print Assumptions C95_write_through_pointer.

(** ... and is read there. *)
Theorem C95_read_through_pointer :
  forall pl e b sz T less eqv k wild pre c i w os p x o w' evs,
  pl <> PPosix -> wf e = true -> 0 < sz -> place b (N.of_nat k * esize e) w ->
  csession (den pl e) b (hpstep (den pl e) b sz T (fun _ => less) eqv k wild) (hrelease (den pl e) b sz T) k
    (pre ++ [HLib (HData c); HLib (HAt c i); HLoad (p + sz * i)]) w = Ok (os ++ [CPtr p; CVal (Some x); o]) w' evs ->
  length os = length pre -> existsb (unsupported (half (ereq pl e))) evs = false -> o = CVal (Some x).
Proof. exact heap_read_through. Qed.
Print Assumptions C95_read_through_pointer.

(** if (!comp(c.peek(), v)) c.peek() = v; *)
Theorem C95_replace_first :
  forall pl e b sz T less eqv k wild pre c v w os r t r' w' evs,
  pl <> PPosix -> wf e = true -> 0 < sz -> place b (N.of_nat k * esize e) w ->
  csession (den pl e) b (hpstep (den pl e) b sz T (fun _ => less) eqv k wild) (hrelease (den pl e) b sz T) k
    (pre ++ [HLib (HPeek c); HLower c v; HLib (HPeek c)]) w = Ok (os ++ [CVal (Some r); CBool t; CVal (Some r')]) w' evs ->
  length os = length pre -> existsb (unsupported (half (ereq pl e))) evs = false ->
  t = negb (less r v) /\ r' = if t then v else r.
Proof. exact heap_replace_first. Qed.
Print Assumptions C95_replace_first.

(** With this as the only way of writing, elements leave in order after any history. *)
Theorem C95_pops_stay_sorted :
  forall pl e b sz T less eqv k pre c n w os l w' evs,
  pl <> PPosix -> wf e = true -> 0 < sz -> place b (N.of_nat k * esize e) w -> strict_weak less ->
  csession (den pl e) b (hpstep (den pl e) b sz T (fun _ => less) eqv k (fun _ => false)) (hrelease (den pl e) b sz T) k
    (pre ++ map HLib (pops c n)) w = Ok (os ++ vals l) w' evs ->
  length os = length pre -> existsb (unsupported (half (ereq pl e))) evs = false -> sorted less l.
Proof. exact heap_lower_sorts. Qed.
Print Assumptions C95_pops_stay_sorted.

(** Other writes through the reference that peek() returns are accepted and destroy the order. *)
Theorem C95_any_write_keeps_order_refuted :
  exists w r, place 4096 0 w /\ strict_weak (cmps 0) /\
    seen (unsupported (half (ereq PMalloc EMalloc))) (hpprog EMalloc 4 int4 1 (fun _ => true)
      ([HLib (HNewList 0 [Val 1; Val 2; Val 3] 0 0); HLib (HData 0); HStore r (PVal (Val 9))] ++ map HLib (pops 0 3)) w) =
    Some ([CUnit; CPtr r; CUnit] ++ vals [Val 9; Val 2; Val 3], false).
Proof. exact write_breaks_order. Qed.
Print Assumptions C95_any_write_keeps_order_refuted.

(** Elements of two heaps are copied by pointers; address 5 is no element. *)
Example C95_example :
  wf mixed = true /\ place 4096 (2 * esize mixed) (w_raw 0) /\
  seen (unsupported (half (ereq PMalloc mixed))) (hpprog (EChecked mixed) 4 object 2 (fun _ => true)
    ([HLib (HNewList 0 [Val 4; Val 2; Val 3] 0 0); HLib (HData 0); HLib (HNewList 1 [Val 6; Val 7] 0 1); HLib (HData 1);
      HStore 65540 (PAddr 131072); HLoad 65540; HLoad 5] ++
     [HLib (HSize 0); HLib (HData 0); HStore (65536 + 4 * 2) (PVal (Val 8)); HLib (HAt 0 2)]) (w_raw 0)) =
  Some ([CUnit; CPtr 65536; CUnit; CPtr 131072; CUnit; CVal (Some (Val 6)); CUnit] ++ [CNum 3; CPtr 65536; CUnit; CVal (Some (Val 8))], false).
Proof. split; [done|]. split; [exact (w0_place 2)|]. by vm_compute. Qed.

Example C95_order_example :
  seen (unsupported (half (ereq PMalloc mixed))) (hpprog mixed 4 int4 1 (fun _ => false)
    ((HLib (HNewList 0 [Val 5; Val 3; Val 9; Val 4] 0 0) :: HLib (HData 0) :: HStore 65540 (PVal (Val 1)) ::
      [HLib (HPeek 0); HLower 0 (Val 2); HLib (HPeek 0); HLower 0 (Val 7)]) ++ map HLib (pops 0 4)) (w_raw 0)) =
  Some ((CUnit :: CPtr 65536 :: CUnit :: [CVal (Some (Val 3)); CBool true; CVal (Some (Val 2)); CBool false]) ++ vals [Val 2; Val 4; Val 5; Val 9], false).
Proof. by vm_compute. Qed.

Example C95_read_example :
  seen (unsupported (half (ereq PMalloc mixed))) (hpprog mixed 4 int4 1 (fun _ => false)
    ([HLib (HNewList 0 [Val 5; Val 3; Val 9; Val 4] 0 0)] ++ [HLib (HData 0); HLib (HAt 0 3); HLoad (65536 + 4 * 3)]) (w_raw 0)) =
  Some ([CUnit] ++ [CPtr 65536; CVal (Some (Val 5)); CVal (Some (Val 5))], false).
Proof. by vm_compute. Qed.
