(** Property theorems C82 and C83: which sizes a composition of allocators serves. *)
From Verif Require Import Base Mem AlignedMalloc Allocators Tree Client AllocSpec Capacity CapacityProofs.

Local Open Scope N_scope.

(** * C82 *)

(** [fits e n] is computed from the type alone.  In every session a request that does not fit
    returns null, whatever the state; if malloc never returns null, a request that fits is served
    whenever no block is outstanding.  A session that does not end normally has seen malloc refuse. *)
Theorem C82_capacity :
  forall pl e b ops w,
  pl <> PPosix -> wf e = true -> place b (esize e) w -> asks (ereq pl e) ops ->
  match session (den pl e) b (eready_now pl e) ops w with
  | Ok os _ evs =>
    refuses (fits e) ops os /\ (existsb is_refuse evs = false -> revives (fits e) ops os)
  | Err _ evs => existsb is_refuse evs = true
  end.
Proof. exact capacity. Qed.
Print Assumptions C82_capacity.

(** 65 bytes fit neither part; 64 bytes fit the stack, which is full at the fourth request and
    empty again at the last. *)
Example C82_example :
  let e := EFallback (EStack 64) (EFreelist 0 48 EMalloc) in
  let ops := [OAlloc 65; OAlloc 64; OAlloc 48; OAlloc 64; OFree 0; OFree 0; OAlloc 49] in
  wf e = true /\ place 4096 (esize e) (w_raw 64) /\ asks (ereq PGeneric e) ops /\
  map (fits e) [64; 65; 48; 49] = [true; false; true; true] /\
  outcome (session (den PGeneric e) 4096 (eready_now PGeneric e) ops (w_raw 64)) =
    Some ([ObPtr 0; ObPtr 4096; ObPtr 65552; ObPtr 0; ObUnit; ObUnit; ObPtr 4096], []).
Proof. exact capacity_example. Qed.

(** * C83 *)

(** As long as malloc does not return null, requests of the sizes in [endless e] (also computed
    from the type) are served in every state: cascading adds nodes, freelist and fallback pass
    the request on. *)
Theorem C83_endless :
  forall pl e b ops w,
  pl <> PPosix -> wf e = true -> place b (esize e) w -> asks (ereq pl e) ops ->
  match session (den pl e) b (eready_now pl e) ops w with
  | Ok os _ evs => existsb is_refuse evs = false -> serves (endless e) ops os
  | Err _ evs => existsb is_refuse evs = true
  end.
Proof. exact supply. Qed.
Print Assumptions C83_endless.

(** 128 bytes and the two guards fill a node, so each request takes a node of its own; 129 bytes
    never fit and are then reported as a leak (C26).  The same program where malloc refuses. *)
Example C83_example :
  let e := EOverflow (ECascading (ELinear 256)) in
  let ops := [OAlloc 128; OAlloc 128; OFree 1; OAlloc 129; OAlloc 128] in
  wf e = true /\ place 4096 (esize e) (w_raw 0) /\ asks (ereq PMalloc e) ops /\
  map (endless e) [128; 129] = [true; false] /\
  outcome (session (den PMalloc e) 4096 (eready_now PMalloc e) ops (w_raw 0)) =
    Some ([ObPtr 65600; ObPtr 131136; ObUnit; ObPtr 0; ObPtr 196672], [EvLeak 129]) /\
  match session (den PMalloc e) 4096 (eready_now PMalloc e) ops (w_poor 0) with
  | Ok _ _ _ => None
  | Err u evs => Some (u, evs)
  end = Some (UBNull, [EvRefuse; EvFail]).
Proof. exact supply_example. Qed.
