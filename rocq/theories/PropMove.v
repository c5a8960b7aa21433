(** Property theorems C59-C63: comparing and moving allocators. *)
From Verif Require Import Base Mem Bits AlignedMalloc Allocators Tree Transfer Client AllocSpec Shared Slots SlotsProofs TransferFacts.

Local Open Scope N_scope.

(** * C59 *)

(** operator== is an equivalence relation on the objects of every composition ... *)
Theorem C59_equality :
  forall pl e,
  (forall b s, Transfer.same pl e b s b s = true) /\
  (forall b s b' s', Transfer.same pl e b s b' s' = true -> Transfer.same pl e b' s' b s = true) /\
  (forall b s b' s' b'' s'', Transfer.same pl e b s b' s' = true -> Transfer.same pl e b' s' b'' s'' = true ->
     Transfer.same pl e b s b'' s'' = true).
Proof. exact same_equivalence. Qed.
Print Assumptions C59_equality.

(** ... and operator!= is its negation, unless global is used. *)
Theorem C59_inequality :
  forall pl e b s b' s', no_global e = true -> differ pl e b s b' s' = negb (Transfer.same pl e b s b' s').
Proof. exact differ_negb. Qed.
Print Assumptions C59_inequality.

Theorem C59_global_refuted :
  exists pl e b s b' s', wf e = true /\ Transfer.same pl e b s b' s' = true /\ differ pl e b s b' s' = true.
Proof. exact global_both. Qed.
Print Assumptions C59_global_refuted.

(** Two objects that differ in the free list only, and two equal ones. *)
Example C59_example :
  let e := ESegragator 16 (EFreelist 0 16 EMalloc) (ECascading (ELinear 64)) in
  wf e = true /\ no_global e = true /\
  outcome ((s <- a_init (den PMalloc e) 4096 ;; t <- a_init (den PMalloc e) 4160 ;;
            ' (p, s') <- a_alloc (den PMalloc e) 4096 s 16 ;; s' <- a_free (den PMalloc e) 4096 s' p 16 ;;
            ret (Transfer.same PMalloc e 4096 s 4160 t, differ PMalloc e 4096 s 4160 t,
                 (Transfer.same PMalloc e 4096 s' 4160 t, differ PMalloc e 4096 s' 4160 t))) (w_raw 128)) =
  Some (true, false, (false, true), []).
Proof. by vm_compute. Qed.

(** * C60 *)

(** Programs with any number of objects: blocks follow moves, equal objects are
    interchangeable, the source of a move can be used further, no assertion fails, and in the end
    all memory is as before. *)
Theorem C60_moves :
  forall bad pl e bs ops w, pl <> PPosix -> wf e = true -> movable e = true ->
  (eboxed e = true -> bad EvFail || bad EvRefuse = true) ->
  places bs (esize e) w -> mem (st w) !! 0 = None ->
  Forall (fun n => ereq pl e n = true /\ n < W) (mrequests ops) ->
  msession_ok bad pl e bs ops w.
Proof. exact move_safe. Qed.
Print Assumptions C60_moves.

Definition C60_type : aexp := ESegragator 16 (EFreelist 0 16 EMalloc) (EFallback (ECascading (ELinear 64)) EMalloc).
Definition C60_program : list mop :=
  [MNew 0; MUse 0 (OAlloc 16); MUse 0 (OAlloc 48); MUse 0 (OAlloc 8); MUse 0 (OFree 0); MUse 0 (OWrite 0 3 7);
   MMove 1 0; MUse 1 (ORead 0 3); MUse 0 (OAlloc 24); MUse 1 (OFree 0); MNew 2; MAssign 2 1; MUse 2 (OAlloc 12);
   MGive 2 1 0; MDrop 1; MDrop 0; MUse 0 (OFree 0); MAssign 0 2; MDrop 0; MMove 1 0].
Example C60_example :
  wf C60_type = true /\ movable C60_type = true /\ moves_always C60_type = true /\
  forallb (fun n => ereq PMalloc C60_type n && (n <? W)) (mrequests C60_program) = true /\
  outcome (msession PMalloc C60_type [4096; 4160; 4224] C60_program (w_raw 192)) =
  Some ([ObUnit; ObPtr 65536; ObPtr 131072; ObPtr 196608; ObUnit; ObUnit; ObBool true; ObByte (Some 7); ObPtr 262144; ObUnit; ObUnit;
         ObBool true; ObPtr 196608; ObBool false; ObUnit; ObUnit; ObUnit; ObBool true; ObUnit; ObBool true], []).
Proof. by vm_compute. Qed.

(** An object with a buffer moves when nothing is outstanding. *)
Example C60_example_buffer :
  let e := EFallback (ELinear 64) EMalloc in
  wf e = true /\ movable e = true /\ moves_empty e = true /\ places [4096; 4160] (esize e) (w_raw 128) /\
  outcome (msession PMalloc e [4096; 4160]
    [MNew 0; MUse 0 (OAlloc 16); MMove 1 0; MUse 0 (OFree 0); MMove 1 0; MUse 1 (OAlloc 16); MUse 0 (OAlloc 16); MGive 0 1 0;
     MUse 0 (OFree 0); MUse 1 (OFree 0); MAssign 0 1] (w_raw 128)) =
  Some ([ObUnit; ObPtr 4096; ObBool false; ObUnit; ObBool true; ObPtr 4160; ObPtr 4096; ObBool false; ObUnit; ObUnit; ObBool true], []).
Proof. split; [done|]. split; [done|]. split; [done|]. split; [by apply (places2 64)|by vm_compute]. Qed.

(** * C61: false; the counters do not move with the block *)
Theorem C61_overflow_exchange_refuted :
  exists w, places [4096; 4160] (esize (EOverflow EMalloc)) w /\
  outcome (msession PMalloc (EOverflow EMalloc) [4096; 4160] [MNew 0; MNew 1; MUse 0 (OAlloc 16); MGive 0 1 0; MUse 1 (OFree 0)] w) =
  Some ([ObUnit; ObUnit; ObPtr 65600; ObBool true; ObUnit], [EvLeak 16; EvLeak (-16)]).
Proof. exact overflow_report. Qed.
Print Assumptions C61_overflow_exchange_refuted.

(** * C62: false; the assertion compares with an object that has just been moved from *)
Theorem C62_freelist_move_assert_refuted :
  exists e w p q, movable e = true /\ wf e = true /\ places [4096; 4160] (esize e) w /\ p <> 0 /\ q <> 0 /\
  outcome (late_move e w) = Some (p, q, 0%nat, [EvAssert AAny]) /\
  outcome (late_assign e w) = Some (p, q, 0%nat, [EvAssert AAny]).
Proof. exact freelist_assert. Qed.
Print Assumptions C62_freelist_move_assert_refuted.

(** * C63 *)

(** After any program, two handles of which at least one is not empty compare equal exactly if
    they refer to the same block. *)
Theorem C63_shared_equality :
  forall pl e ready ops os q h h' x x' w w' ev w1,
  N.of_nat (length ops) < W -> hrun pl (den pl e) ready ops pool0 w = Ok (os, q) w' ev ->
  p_hs q !! h = Some x -> p_hs q !! h' = Some x' -> (x <> None \/ x' <> None) ->
  hsame (den pl e) (Transfer.same pl e) h h' q w1 = Ok (bool_decide (x = x')) w1 [].
Proof. exact shared_same. Qed.
Print Assumptions C63_shared_equality.

Example C63_example :
  outcome ((' (_, q) <- hrun PMalloc (den PMalloc (ELinear 64)) (fun _ _ => true) [HNew 0; HCopy 1 0; HNew 2; HMove 3 1] pool0 ;;
            let eq := hsame (den PMalloc (ELinear 64)) (Transfer.same PMalloc (ELinear 64)) in
            a <- eq 0%nat 3%nat q ;; b <- eq 0%nat 2%nat q ;; c <- eq 1%nat 0%nat q ;; ret (a, b, c)) (w_raw 0)) =
  Some (true, false, false, []).
Proof. by vm_compute. Qed.

(** Two empty handles: a null pointer is dereferenced. *)
Theorem C63_empty_handles_refuted :
  exists w, crash ((' (_, q) <- hrun PMalloc (mallocator PMalloc) (fun _ _ => true)
                                 [HNew 0; HMove 1 0; HMove 2 1] pool0 ;;
                    hsame (mallocator PMalloc) (Transfer.same PMalloc EMalloc) 0 1 q) w) = Some UBNull.
Proof. exact shared_same_null. Qed.
Print Assumptions C63_empty_handles_refuted.
