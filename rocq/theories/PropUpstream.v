(** C87: Parts of a composition may share an allocator. *)
From Verif Require Import Base Mem AlignedMalloc Tree TreeProofs Client AllocSpec AllocProofs Env Vector VectorProofs
  Array ArrayProofs Heap HeapSpec TreeService ContExamples Mixed Upstream UpstreamFacts.

(** Direct use. *)
Theorem C87_clients pl s b ops w :
  pl <> PPosix -> swf s = true -> sclean s = true -> place b (ssize s) w -> asks (sreq pl s) ops ->
  session_strict (sboxed s) (sden pl s) (sready_now pl s) b ops w.
Proof. exact (upstream_strict pl s b ops w). Qed.

(** A freelist for small requests and direct requests to the same buffer, both through references. *)
Definition two_users : sexp := XLet (XExp (ELinear 256)) (PSegragator 64 (PFreelist 0 64 PHandle) PHandle).

Example C87_clients_use :
  let ops := [OAlloc 16; OAlloc 80; OFree 1; OAlloc 32; OAlloc 64; OWrite 0 63 7; ORead 0 63; OOwns 4100] in
  swf two_users = true /\ sclean two_users = true /\ place 4096 (ssize two_users) (w_raw 256) /\
  asks (sreq PMalloc two_users) ops /\
  outcome (session (sden PMalloc two_users) 4096 (sready_now PMalloc two_users) ops (w_raw 256)) =
    Some ([ObPtr 4096; ObPtr 4160; ObUnit; ObPtr 4096; ObPtr 4240; ObUnit; ObByte (Some 7); ObBool true], []).
Proof.
  split_and!; [by vm_compute|by vm_compute|by apply (w_raw_place 256)| |by vm_compute].
  repeat (apply Forall_cons; [by vm_compute|]); constructor.
Qed.

(** The upstream allocator may itself be such a composition; four handles, two objects. *)
Example C87_clients_nested :
  let s := XLet two_users (PSegragator 32 (PFreelist 0 32 PHandle) (PFallback (POwn (ELinear 128)) PHandle)) in
  swf s = true /\ sclean s = true /\ ssize s = 384.
Proof. by vm_compute. Qed.

(** Containers whose allocators are such compositions. *)
Theorem C87_vector pl s b sz k ops w :
  pl <> PPosix -> swf s = true -> sclean s = true -> 0 < sz -> place b (N.of_nat k * ssize s) w ->
  csession_ok (sden pl s) b (vstep (sden pl s) b sz k) (release (sden pl s) b sz) (vcheck sz k) (unsupported (sreq pl s)) k ∅ ops w.
Proof. exact (vector_upstream pl s b sz k ops w). Qed.

Theorem C87_array pl s b sz k ops w :
  pl <> PPosix -> swf s = true -> sclean s = true -> 0 < sz -> place b (N.of_nat k * ssize s) w ->
  csession_ok (sden pl s) b (astep (sden pl s) b sz k) (arelease (sden pl s) b sz) (acheck sz k) (unsupported (sreq pl s)) k ∅ ops w.
Proof. exact (array_upstream pl s b sz k ops w). Qed.

Theorem C87_heap pl s b sz T comp eqv k ops w :
  pl <> PPosix -> swf s = true -> sclean s = true -> 0 < sz -> place b (N.of_nat k * ssize s) w ->
  csession_ok (sden pl s) b (hstep (sden pl s) b sz T comp eqv k) (hrelease (sden pl s) b sz T) (hcheck sz T comp eqv k)
    (unsupported (half (sreq pl s))) k ∅ ops w.
Proof. exact (heap_upstream pl s b sz T comp eqv k ops w). Qed.

Theorem C87_mixed pl s b ty k ops w :
  pl <> PPosix -> swf s = true -> sclean s = true -> (forall t, 0 < t_size (ty t)) -> place b (N.of_nat k * ssize s) w ->
  csession_ok (sden pl s) b (xstep (sden pl s) b ty k) (xkill (sden pl s) b) (xcheck ty k) (unsupported (half (sreq pl s))) k ∅ ops w.
Proof. exact (mixed_upstream pl s b ty k ops w). Qed.

(** A vector that grows past the threshold: its first block goes to the freelist, the next one is
    requested from the buffer directly. *)
Example C87_vector_use :
  let A := sden PMalloc two_users in
  place 4096 (1 * ssize two_users) (w_raw 256) /\
  seen (unsupported (sreq PMalloc two_users))
    (csession A 4096 (vstep A 4096 8 1) (release A 4096 8) 1
      [VNewList 0 [Val 1; Val 2; Val 3; Val 4; Val 5; Val 6; Val 7] 0; VPush 0 (RVal (Val 8)); VPush 0 (RVal (Val 9));
       VNewList 1 [Val 11] 0; VGet 0 8; VGet 1 0; VSize 0] (w_raw 256)) =
    Some ([CUnit; CNum 7; CNum 8; CUnit; CVal (Some (Val 9)); CVal (Some (Val 11)); CNum 9], false).
Proof. split; [by apply (w_raw_place 256)|by vm_compute]. Qed.

(** Without the restriction on fallback the claim is false: a block that the second part got from
    the shared allocator is given back to the first part, which takes it for a larger one of its
    own.  An access inside a block that was just handed out is then outside of the buffer, or *)
Theorem C87_fallback_refuted : exists b w s ops,
  swf s = true /\ place b (ssize s) w /\ asks (sreq PMalloc s) ops /\
  crash (session (sden PMalloc s) b (sready_now PMalloc s) ops w) = Some UBAccess.
Proof. exact fallback_shared. Qed.

(** it hits another outstanding block: the client writes 7 to its block at [p] and reads 9. *)
Theorem C87_aliasing_refuted : exists b w s p q os,
  swf s = true /\ place b (ssize s) w /\ q <= p < q + 64 /\
  outcome (session (sden PMalloc s) b (sready_now PMalloc s)
    [OAlloc 64; OAlloc 32; OAlloc 16; OWrite 0 0 7; OFree 1; OAlloc 64; OWrite 0 (p - q) 9; ORead 1 0] w) = Some (os, []) /\
  os !! 2%nat = Some (ObPtr p) /\ os !! 5%nat = Some (ObPtr q) /\ os !! 7%nat = Some (ObByte (Some 9)).
Proof. exact fallback_aliased. Qed.

Print Assumptions C87_clients.
Print Assumptions C87_vector.
Print Assumptions C87_array.
Print Assumptions C87_heap.
Print Assumptions C87_mixed.
Print Assumptions C87_fallback_refuted.
Print Assumptions C87_aliasing_refuted.
