(** Consequences of the contract for whole programs. *)
From Coq Require Import ssreflect.
From Verif Require Import Base Mem Bits AlignedMalloc Allocators Contract Tree TreeProofs Client ClientProofs AllocSpec NoFail.

Lemma tree_session bad pl e b ops w :
  pl <> PPosix -> wf e = true -> (eboxed e = true -> bad EvFail || bad EvRefuse = true) ->
  place b (esize e) w -> asks (ereq pl e) ops ->
  session_ok bad (den pl e) (eready_now pl e) b ops w.
Proof.
  intros Hpl Hwf Hb Hp Hreq. destruct (tree_contract bad pl e Hpl Hwf Hb) as [C HC].
  apply (client_safe bad (den pl e) (ereq pl e) C); [exact HC| |done]. by rewrite den_size.
Qed.

(** Events that are not counted among the claims do not occur in sessions that end normally. *)
Lemma strict boxed A ready b ops w : afirm A ->
  session_ok (fun ev => boxed && is_fail ev) A ready b ops w -> session_strict boxed A ready b ops w.
Proof.
  intros HA H. pose proof (session_firm A HA b ready ops w) as Hf. unfold session_ok, session_strict in *.
  assert (Hb : forall evs, existsb (fun ev => boxed && is_fail ev) evs = boxed && existsb is_fail evs).
  { intros evs. induction evs as [|ev evs IH]; cbn [existsb]; [by destruct boxed|]. rewrite IH. by destruct boxed. }
  destruct (session A b ready ops w) as [os w' evs|u evs]; rewrite Hb in H.
  - rewrite Hf andb_false_r in H. by destruct H.
  - apply andb_true_iff in H as [-> H]. destruct (Hf H) as [-> H2]. unfold starved. by rewrite H H2.
Qed.

Lemma tree_strict pl e b ops w :
  pl <> PPosix -> wf e = true -> place b (esize e) w -> asks (ereq pl e) ops ->
  session_strict (eboxed e) (den pl e) (eready_now pl e) b ops w.
Proof. intros. apply strict; [by apply tree_firm|]. apply tree_session; try done. by intros ->. Qed.

(** * Reading the specification at the end of a program *)
Fixpoint checks (F : N -> Prop) (ow : bool) (mv : option N) (ops : list op) (os : list obs) (bl bl' : list ablk) : Prop :=
  match ops, os with
  | [], [] => bl' = bl
  | o :: ops, ob :: os => exists bl1, check_step F ow mv o ob bl bl1 /\ checks F ow mv ops os bl1 bl'
  | _, _ => False
  end.

Lemma check_app F ow mv ops1 ops2 os bl : check F ow mv (ops1 ++ ops2) os bl ->
  exists os1 os2 bl1, os = os1 ++ os2 /\ checks F ow mv ops1 os1 bl bl1 /\ check F ow mv ops2 os2 bl1.
Proof.
  revert os bl. induction ops1 as [|o ops1 IH]; intros os bl; cbn [app].
  - intros H. by exists [], os, bl.
  - destruct os as [|ob os]; cbn [check]; [done|]. intros (bl1&H1&H2).
    apply IH in H2 as (os1&os2&bl2&->&H3&H4). exists (ob :: os1), os2, bl2. split; [done|].
    split; [|done]. exists bl1. done.
Qed.
