(** Property theorems C75 and C76: what overflow reports about containers. *)
From Verif Require Import Base Mem AlignedMalloc Allocators Tree Client AllocSpec AllocProofs Env Vector Array HeapPure Heap
  Books BooksFacts ByValue ByValueFacts ContExamples HeapExamples.

Local Open Scope N_scope.

(** * C75 *)

(** [ends m P]: unless an allocation fails or 2^64 bytes or more are requested (both are counted
    wrongly), [P] holds at the end of [m].  No assumption about the inner allocator [A]. *)

(** At any time: if overflow object [h] were destroyed now it would report exactly the bytes that the
    containers using it hold, and the elements that they contain. *)
Theorem C75_vector_exact_report :
  forall A b sz k ops, 0 < sz ->
  ends (crun_from (overflow A) b (vstep (overflow A) b sz k) k ops)
    (fun '(_, (E, vs)) => forall h s p, E !! h = Some s -> reports p s (held v_al (v_bytes sz) h vs) (held v_al (fun _ => 0) h vs)).
Proof. exact vector_tells. Qed.
Print Assumptions C75_vector_exact_report.

Theorem C75_array_exact_report :
  forall A b sz k ops, 0 < sz ->
  ends (crun_from (overflow A) b (astep (overflow A) b sz k) k ops)
    (fun '(_, (E, vs)) => forall h s p, E !! h = Some s -> reports p s (held r_alc (r_bytes sz) h vs) (held r_alc (fun _ => 0) h vs)).
Proof. exact array_tells. Qed.
Print Assumptions C75_array_exact_report.

Theorem C75_heap_exact_report_partial :
  forall A b sz T comp eqv k ops, 0 < sz -> forallb no_move_al ops = true ->
  ends (crun_from (overflow A) b (hstep (overflow A) b sz T comp eqv k) k ops)
    (fun '(_, (E, vs)) => forall h s p, E !! h = Some s -> reports p s (held h_al (h_bytes sz) h vs) (held h_al h_size h vs)).
Proof. exact heap_tells. Qed.
Print Assumptions C75_heap_exact_report_partial.

(** After the destruction of the containers there is nothing to report. *)
Theorem C75_vector_no_false_report :
  forall A b sz k ops, 0 < sz ->
  ends (crun_to_end (overflow A) b (vstep (overflow A) b sz k) (release (overflow A) b sz) k ops)
    (fun '(_, E) => forall h s p, E !! h = Some s -> no_report p s).
Proof. exact vector_silent. Qed.
Print Assumptions C75_vector_no_false_report.

Theorem C75_array_no_false_report :
  forall A b sz k ops, 0 < sz ->
  ends (crun_to_end (overflow A) b (astep (overflow A) b sz k) (arelease (overflow A) b sz) k ops)
    (fun '(_, E) => forall h s p, E !! h = Some s -> no_report p s).
Proof. exact array_silent. Qed.
Print Assumptions C75_array_no_false_report.

Theorem C75_heap_no_false_report_partial :
  forall A b sz T comp eqv k ops, 0 < sz -> forallb no_move_al ops = true ->
  ends (crun_to_end (overflow A) b (hstep (overflow A) b sz T comp eqv k) (hrelease (overflow A) b sz T) k ops)
    (fun '(_, E) => forall h s p, E !! h = Some s -> no_report p s).
Proof. exact heap_silent. Qed.
Print Assumptions C75_heap_no_false_report_partial.

(** What is missing: the move constructor of binary_heap with an allocator copies the elements and
    does not destroy the originals, which is reported even if they need no destructor call. *)
Theorem C75_heap_move_refuted :
  exists w, place 4096 0 w /\
  reported (hprog (EOverflow EMalloc) 1 int4 2 [HNewList 0 [Val 1; Val 2] 0 0; HMoveAl 1 0 1] w) = Some [EvLogic 2].
Proof. exact heap_move_logic. Qed.
Print Assumptions C75_heap_move_refuted.

(** Two vectors, one of them moved to and fro, and a heap; if overflow is destroyed too early it
    reports what is outstanding. *)
Example C75_example :
  let vops := [VNewList 0 [Val 1; Val 2; Val 3] 0; VPush 0 (RVal (Val 4)); VCopyAl 1 0 1; VMoveAssign 0 1; VReserve 0 10; VNewN 2 3 1] in
  let hops := [HNew 0 0 0; HInsert 0 (RVal (Val 3)); HInsert 0 (RVal (Val 1)); HInsert 0 (RVal (Val 2)); HCopyAl 1 0 1; HPop 0; HClear 1] in
  let O := overflow (mallocator PMalloc) in
  forallb no_move_al hops = true /\
  reported (vprog (EOverflow EMalloc) 4 2 vops (w_raw 0)) = Some [] /\
  reported (early (vstep O 4096 4 2) 2 vops (w_raw 0)) = Some [EvLeak 52] /\
  reported (hprog (EOverflow EMalloc) 4 object 2 hops (w_raw 0)) = Some [] /\
  reported (early (hstep O 4096 4 object cmps equal 2) 2 hops (w_raw 0)) = Some [EvLeak 16; EvLogic 2; EvLeak 12].
Proof. by vm_compute. Qed.

(** * C76: overflow as a member of the container *)

(** If the original holds [f (v_al src)] bytes according to its counters, then so many are reported
    when the temporary in the copy constructor is destroyed, and again when the copy is destroyed,
    although it has returned its storage. *)
Theorem C76_copy_reports :
  forall A cp b sz, 0 < sz -> forall tmp h src (E : env (overflow A)) f g, books E f g ->
  (forall s, E !! v_al src = Some s -> reports tmp (ov_dup A cp s) (f (v_al src)) (g (v_al src))) /\
  ends (bind (bv_copy A cp b sz tmp h src E) (fun '(v, E) => release (overflow A) b sz v E))
    (fun E' => forall s p, E' !! h = Some s -> reports p s (f (v_al src)) (g (v_al src))).
Proof. exact copy_both. Qed.
Print Assumptions C76_copy_reports.

(** A vector that was moved from reports the bytes it has given away. *)
Theorem C76_move_reports :
  forall A cp b sz, 0 < sz -> forall h src (E : env (overflow A)) f g, books E f g -> h <> v_al src ->
  ends (bind (bv_move A cp h src E) (fun '(v, o, E) => bind (release (overflow A) b sz v E) (release (overflow A) b sz o)))
    (fun E' =>
      (forall s p, E' !! h = Some s -> reports p s (f (v_al src) - Z.of_N (v_bytes sz src)) (g (v_al src))) /\
      (forall s p, E' !! v_al src = Some s -> reports p s (f (v_al src)) (g (v_al src)))).
Proof. exact move_reports. Qed.
Print Assumptions C76_move_reports.

(** So programs without any error are reported. *)
Theorem C76_copy_refuted : exists w, place 4096 0 w /\ reported (copies w) = Some [EvLeak 16; EvLeak 16].
Proof. exact copy_false_report. Qed.
Print Assumptions C76_copy_refuted.

Theorem C76_move_refuted : exists w, place 4096 0 w /\ reported (moves w) = Some [EvLeak 16].
Proof. exact move_false_report. Qed.
Print Assumptions C76_move_refuted.
