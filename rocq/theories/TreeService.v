(** Every composition provides the service of Service.v to programs that ask for supported sizes. *)
From iris.proofmode Require Import tactics.
From Verif Require Import Base Mem AlignedMalloc Allocators Checked CheckedProofs Tree Client Contract Service TreeProofs AllocSpec AllocProofs
  Env HeapSpec.

Local Open Scope N_scope.

Lemma modest_un req' req : (forall n, req' n = true -> req n = true) -> modest (unsupported req') req.
Proof. intros H n. cbn. intros [H1 H2]%negb_false_iff%andb_true_iff. split; [by apply H|by apply N.ltb_lt]. Qed.

Lemma half_le req n : half req n = true -> req n = true.
Proof. by intros [? _]%andb_true_iff. Qed.

Lemma modest_half req : modest (unsupported (half req)) (half req).
Proof. by apply modest_un. Qed.

Lemma tree_service pl e req' : pl <> PPosix -> wf e = true -> (forall n, req' n = true -> ereq pl e n = true) ->
  inhabited (service (unsupported req') (den pl e) (ereq pl e)).
Proof.
  intros Hpl Hwf Hle. destruct (tree_contract (unsupported req') pl e Hpl Hwf) as [C _]; [done|].
  constructor. apply (service_of C); [done|]. by apply modest_un.
Qed.
