(** Facts about programs over trivial_buffer, from the list specification; examples. *)
From iris.proofmode Require Import tactics.
From Verif Require Import Base Mem Allocators Client AllocSpec AllocProofs Env Vector ContFacts Buffer BufferProofs ContExamples.

Local Open Scope N_scope.

(** [o] neither writes an index congruent to [j] of buffer [c] nor replaces or ends [c]. *)
Definition b_leaves (size : N) (c : nat) (j : N) (o : bop) : bool :=
  match o with
  | BNew d | BNewFill d _ | BNewList d _ | BNewRange d _ | BCopy d _ | BMove d _ | BDestroy d | BAssign d _ | BMoveAssign d _ | BFrom d _ =>
    negb (d =? c)%nat
  | BSet d i _ => negb (d =? c)%nat || negb (i mod size =? j mod size)
  | BGet _ _ | BSize _ => true
  end.

Section facts.
  Context (size : N) (k : nat) (Hsize : 0 < size).
  Local Notation n := (N.to_nat size).
  Local Notation bcheck := (bcheck size k).

  Definition lens (m : gmap nat (list (option value))) : Prop := forall c l, m !! c = Some l -> length l = n.

  Lemma bget_len m c : lens m -> c ∈ dom m -> length (bget m c) = n.
  Proof. intros H Hc. apply elem_of_dom in Hc as [l Hl]. unfold bget. rewrite Hl. by eapply H. Qed.
  Lemma lens_insert m c l : lens m -> length l = n -> lens (<[c := l]> m).
  Proof. intros H Hl c' l' H'. apply lookup_insert_Some in H' as [[_ <-]|[_ H']]; [done|]. by eapply H. Qed.

  Lemma lens_step o ob m m' : lens m -> bcheck o ob m m' -> lens m'.
  Proof.
    intros Hm. unfold Buffer.bcheck. destruct (blegal size k (dom m) o) eqn:HL; [|by intros [_ ->]].
    destruct o; cbn [blegal bcheck_do] in *; intros [_ ->]; repeat (apply andb_true_iff in HL as [HL ?]);
      repeat match goal with H : bool_decide _ = true |- _ => apply bool_decide_eq_true in H end; try done.
    - apply lens_insert; [done|apply repeat_length].
    - apply lens_insert; [done|apply repeat_length].
    - apply lens_insert; [done|]. rewrite app_length map_length repeat_length. lia.
    - apply lens_insert; [done|]. destruct g as [l|c' i j]; cbn [bvals bok_range] in *; [rewrite map_length; lia|].
      repeat (apply andb_true_iff in H as [H ?]). apply bool_decide_eq_true in H. by apply bget_len.
    - apply lens_insert; [done|]. by apply bget_len.
    - apply lens_insert; [done|]. by apply bget_len.
    - intros c' l' H'. apply lookup_delete_Some in H' as [_ H']. by eapply Hm.
    - apply lens_insert; [done|]. by apply bget_len.
    - apply lens_insert; [done|]. by apply bget_len.
    - apply lens_insert; [done|]. destruct g as [l|c' i j]; cbn [bvals bok_range] in *; [rewrite map_length; lia|].
      repeat (apply andb_true_iff in H0 as [H0 ?]). apply bool_decide_eq_true in H0. by apply bget_len.
    - apply lens_insert; [done|]. rewrite insert_length. by apply bget_len.
  Qed.

  Definition holds (c : nat) (j : N) (x : value) (m : gmap nat (list (option value))) : Prop :=
    exists l, m !! c = Some l /\ l !! N.to_nat (j mod size) = Some (Some x).

  Lemma holds_step c j x o ob m m' : b_leaves size c j o = true -> bcheck o ob m m' -> holds c j x m -> holds c j x m'.
  Proof.
    intros HF. unfold Buffer.bcheck. destruct (blegal size k (dom m) o) eqn:HL; [|by intros [_ ->]]. intros Hc (l&Hl&Hj).
    destruct o as [d|d r|d l'|d g|d s|d s|d|d s|d s|d g|d i|d i r|d]; cbn [b_leaves bcheck_do] in *; destruct Hc as [_ ->]; try (by exists l);
      try (destruct (Nat.eqb_spec d c) as [|Hne]; [done|]; exists l; rewrite ?lookup_insert_ne ?lookup_delete_ne //; fail).
    destruct (decide (d = c)) as [->|Hne]; [|exists l; by rewrite lookup_insert_ne].
    rewrite Nat.eqb_refl in HF. cbn in HF. apply negb_true_iff, N.eqb_neq in HF. eexists. rewrite lookup_insert. split; [done|].
    unfold bget. rewrite Hl. cbn. rewrite list_lookup_insert_ne //. lia.
  Qed.

  Lemma holds_trace c j x ops os m m' : forallb (b_leaves size c j) ops = true -> ctrace bcheck ops os m m' -> holds c j x m -> holds c j x m'.
  Proof.
    revert os m. induction ops as [|o ops IH]; intros [|ob os] m HF; try done; cbn; [by intros <-|].
    cbn in HF. apply andb_true_iff in HF as [H1 H2]. intros (m1&H3&H4) H5. eapply IH; [done..|]. by eapply holds_step.
  Qed.

  Lemma roll pre mid c i j x os1 s ob os2 v :
    ccheck bcheck (pre ++ [BSize c; BSet c i (RVal x)] ++ mid ++ [BGet c j]) (os1 ++ [CNum s; ob] ++ os2 ++ [v]) ∅ ->
    length os1 = length pre -> length os2 = length mid ->
    i mod size = j mod size -> forallb (b_leaves size c j) mid = true -> v = CVal (Some x).
  Proof.
    intros H Hl1 Hl2 Hij HF. apply ccheck_trace in H as [m H].
    apply (ctrace_app _ pre) in H as (p1&p2&m1&He&Hp&H1&H2). apply app_inj_1 in He as [-> <-]; [|congruence].
    cbn [app ctrace] in H2. destruct H2 as (m2&H2&m3&H3&H4).
    apply (ctrace_app _ mid) in H4 as (q1&q2&m4&He&Hq&H4&H5). apply app_inj_1 in He as [-> <-]; [|congruence].
    assert (Hlen : lens m1) by (eapply (ctrace_inv _ lens); [apply lens_step|exact H1|done]).
    unfold Buffer.bcheck at 1 in H2. cbn [blegal] in H2. destruct (bool_decide (c ∈ dom m1)) eqn:Hc; [|by destruct H2].
    cbn [bcheck_do] in H2. destruct H2 as [_ ->].
    unfold Buffer.bcheck at 1 in H3. cbn [blegal bok_ref] in H3. rewrite Hc in H3. cbn in H3. destruct H3 as [_ ->].
    apply bool_decide_eq_true in Hc. pose proof (bget_len _ _ Hlen Hc) as Hg.
    apply (holds_trace c j x) in H4; [|done|].
    - destruct H4 as (l&Hl&Hj). cbn [ctrace] in H5. destruct H5 as (m5&H5&_). unfold Buffer.bcheck in H5. cbn [blegal] in H5.
      rewrite bool_decide_eq_true_2 in H5; [|by eapply elem_of_dom_2]. cbn [bcheck_do bval] in H5. destruct H5 as [-> _].
      unfold bget. rewrite Hl. cbn. by rewrite Hj.
    - eexists. rewrite lookup_insert. split; [done|]. rewrite Hij. apply list_lookup_insert. pose proof (N.mod_lt j size). lia.
  Qed.
End facts.

Lemma buffer_roll b sz size k pre mid c i j x w :
  0 < sz -> 0 < size -> place b (N.of_nat k * (size * sz)) w ->
  i mod size = j mod size -> forallb (b_leaves size c j) mid = true ->
  match bruns (bstep b sz size k) (pre ++ [BSize c; BSet c i (RVal x)] ++ mid ++ [BGet c j]) ∅ w with
  | Ok os _ _ => forall os1 s ob os2 v, os = os1 ++ [CNum s; ob] ++ os2 ++ [v] -> length os1 = length pre -> length os2 = length mid ->
                 v = CVal (Some x)
  | Err _ _ => False
  end.
Proof.
  intros Hsz Hsize Hp Hij HF.
  pose proof (buffer_program b sz size k Hsz Hsize (pre ++ [BSize c; BSet c i (RVal x)] ++ mid ++ [BGet c j]) w Hp) as H.
  unfold bprogram_ok in H. destruct (bruns _ _ _ w) as [os w' evs|]; [|done]. destruct H as (_&H&_).
  intros os1 s ob os2 v -> H1 H2. by eapply roll.
Qed.

Lemma w32_place : place 4096 (N.of_nat 2 * (4 * 4)) (w_raw 32).
Proof. by apply (w_raw_place 32). Qed.

Lemma self_assign_buffer : exists w, place 4096 (N.of_nat 2 * (4 * 4)) w /\
  crash (bruns (bdo 4096 4 4) [BNewList 0 [Val 1; Val 2; Val 3; Val 4]; BAssign 0 0] ∅ w) = Some UBOverlap /\
  crash (bruns (bdo 4096 4 4) [BNewList 0 [Val 1; Val 2; Val 3; Val 4]; BMoveAssign 0 0] ∅ w) = Some UBOverlap /\
  crash (bruns (bdo 4096 4 4) [BNewList 0 [Val 1; Val 2; Val 3; Val 4]; BFrom 0 (GElems 0 0 4)] ∅ w) = Some UBOverlap.
Proof. exists (w_raw 32). split; [exact w32_place|]. by vm_compute. Qed.
