(** Vocabulary: programs over containers whose allocators do not run out. *)
From Verif Require Import Base Mem AlignedMalloc Allocators Tree Client Capacity.

Local Open Scope N_scope.

(** The sizes that a composition serves in every state as long as malloc does not refuse; a request
    for nothing needs no answer. *)
Definition lasting (pl : platform) (e : aexp) (n : N) : bool := ereq pl e n && ((n =? 0) || endless e n).

(** Out of scope: malloc refuses, and requests of sizes other than those of [can].  That an allocation
    fails is within the scope. *)
Definition unserved (can : N -> bool) (ev : event) : bool :=
  match ev with
  | EvRefuse => true
  | EvReq n => negb (can n && (n <? W))
  | _ => false
  end.
