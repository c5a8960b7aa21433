(** Alignment of the elements of containers. *)
From iris.proofmode Require Import tactics.
From Verif Require Import Base Mem AlignedMalloc Allocators Checked Tree Client Contract AllocSpec Env
  Vector Array ContFacts HeapPure Heap HeapSpec HeapProofs HeapFacts Growth ContExamples HeapExamples.

Local Open Scope N_scope.

(** sizeof and alignof of a type that needs no more alignment than std::max_align_t. *)
Definition fundamental (sz al : N) : Prop := (al | 16) /\ (al | sz).
(** Every element of an array at [p] is at a multiple of [al]. *)
Definition aligned (sz al p : N) : Prop := forall i, (al | elem_addr sz p i).

Lemma aligned_16 sz al p : fundamental sz al -> p mod 16 = 0 -> aligned sz al p.
Proof.
  intros [H1 H2] Hp i. unfold elem_addr. apply N.divide_add_r.
  - etrans; [exact H1|]. by apply N.mod_divide.
  - by apply N.divide_mul_l.
Qed.

(** * trivial_array *)
Section arr.
  Context (sz : N) (k : nat).
  Lemma a_all_ok_step o ob m m' : all_ok m -> acheck sz k o ob m m' -> all_ok m'.
  Proof.
    intros Hm. unfold acheck. destruct (alegal _ _ _ _) eqn:HL; [|by intros [_ ->]].
    destruct o; cbn [acheck_do]; intros HH;
      repeat match goal with
      | H : _ /\ _ |- _ => destruct H
      | H : born _ _ _ _ _ |- _ => destruct H as (?&->&?&_)
      | H : exists _, _ |- _ => destruct H
      end; subst; auto using all_ok_insert, all_ok_emptied; try done.
    - apply all_ok_insert; [by split_and!|done].
    - intros d. unfold s_get. destruct (decide (c = d)) as [->|Hne]; [rewrite lookup_delete; apply s_ok_0|].
      rewrite lookup_delete_ne //. apply Hm.
    - apply all_ok_insert; [|done]. destruct (Hm c) as (H1&H2&H3). split_and!; try done.
      unfold s_len in *. cbn [s_l s_cap]. by rewrite insert_length.
    - case_match; [by subst|]. destruct H0 as (?&->&?&_). by apply all_ok_insert.
  Qed.
End arr.

Section last.
  Context {O S : Type} (chk : O -> cobs -> S -> S -> Prop).
  Lemma ccheck_last pre o os ob s : ccheck chk (pre ++ [o]) (os ++ [ob]) s -> length os = length pre ->
    exists s1 s2, ctrace chk pre os s s1 /\ chk o ob s1 s2.
  Proof.
    intros H Hl. apply ccheck_trace in H as [m H]. apply ctrace_app in H as (os1&os2&m1&He&Hl1&H1&H2).
    apply app_inj_1 in He as [-> <-]; [|lia]. destruct H2 as (m2&H3&_). eauto.
  Qed.
End last.

Section programs.
  Context (pl : platform) (e : aexp) (b sz al : N) (k : nat).

  Lemma vector_aligned pre c w os p w' evs :
    pl <> PPosix -> wf e = true -> 0 < sz -> place b (N.of_nat k * esize e) w ->
    csession (den pl e) b (vstep (den pl e) b sz k) (release (den pl e) b sz) k (pre ++ [VData c]) w = Ok (os ++ [CPtr p]) w' evs ->
    length os = length pre -> existsb (unsupported (ereq pl e)) evs = false -> fundamental sz al -> aligned sz al p.
  Proof.
    intros H1 H2 H3 H4 H5 H6 H7 H8. apply aligned_16; [done|].
    pose proof (session_check (vector_tree pl e b sz k _ w H1 H2 H3 H4) H5 H7) as H.
    apply ccheck_last in H as (m1&m2&Ht&Ho); [|done]. apply (obs_data _ _ _ _ _ _ p) in Ho as [_ ->]; [|done].
    apply (ctrace_inv _ all_ok _ _ _ _ (fun o ob s s' Hs Hc => all_ok_step sz k o ob s s' Hs Hc) Ht all_ok_empty c).
  Qed.

  Lemma array_aligned pre c w os p w' evs :
    pl <> PPosix -> wf e = true -> 0 < sz -> place b (N.of_nat k * esize e) w ->
    csession (den pl e) b (astep (den pl e) b sz k) (arelease (den pl e) b sz) k (pre ++ [AData c]) w = Ok (os ++ [CPtr p]) w' evs ->
    length os = length pre -> existsb (unsupported (ereq pl e)) evs = false -> fundamental sz al -> aligned sz al p.
  Proof.
    intros H1 H2 H3 H4 H5 H6 H7 H8. apply aligned_16; [done|].
    pose proof (session_check (array_tree pl e b sz k _ w H1 H2 H3 H4) H5 H7) as H.
    apply ccheck_last in H as (m1&m2&Ht&Ho); [|done]. unfold acheck in Ho. destruct (alegal _ _ _ _); [|by destruct Ho].
    destruct Ho as [_ [= ->]].
    apply (ctrace_inv _ all_ok _ _ _ _ (fun o ob s s' Hs Hc => a_all_ok_step sz k o ob s s' Hs Hc) Ht all_ok_empty c).
  Qed.

  Lemma heap_aligned T comp eqv pre c w os p w' evs :
    pl <> PPosix -> wf e = true -> 0 < sz -> place b (N.of_nat k * esize e) w ->
    csession (den pl e) b (hstep (den pl e) b sz T comp eqv k) (hrelease (den pl e) b sz T) k (pre ++ [HData c]) w = Ok (os ++ [CPtr p]) w' evs ->
    length os = length pre -> existsb (unsupported (half (ereq pl e))) evs = false -> fundamental sz al -> aligned sz al p.
  Proof.
    intros H1 H2 H3 H4 H5 H6 H7 H8. apply aligned_16; [done|].
    pose proof (session_check (heap_tree pl e b sz T comp eqv k _ w H1 H2 H3 H4) H5 H7) as H.
    apply ccheck_last in H as (m1&m2&Ht&Ho); [|done]. unfold hcheck in Ho. destruct (hlegal _ _ _ _ _); [|by destruct Ho].
    destruct Ho as [_ [= ->]]. by apply (h_all_ok_trace sz T comp eqv k _ _ _ Ht c).
  Qed.
End programs.

(** * A type of 32 bytes that needs alignment 32, in memory from malloc. *)
Definition w_16 : world := World (Store ∅ ∅) (fun k => 65536 * N.of_nat (k + 1) + 16) 0.

Lemma seen_ok {X} bad (r : res X) a : seen bad r = Some (a, false) -> exists w' evs, r = Ok a w' evs /\ existsb bad evs = false.
Proof. destruct r as [x w e|]; [|done]. intros [= -> H]. by exists w, e. Qed.

Lemma w_16_place : place 4096 0 w_16.
Proof. split_and!; try done. intros i Hi. exfalso. lia. Qed.
Lemma not_aligned_32 : ~ aligned 32 32 65552.
Proof. intros H. specialize (H 0). apply N.mod_divide in H; [|done]. by vm_compute in H. Qed.
Lemma overaligned_run : seen (unsupported (ereq PMalloc EMalloc)) (vprog EMalloc 32 1 ([VNewList 0 [Val 1] 0] ++ [VData 0]) w_16) =
  Some ([CUnit] ++ [CPtr 65552], false).
Proof. by vm_compute. Qed.

Lemma vector_overaligned :
  exists pl e b sz al k pre c w os p w' evs,
  pl <> PPosix /\ wf e = true /\ 0 < sz /\ place b (N.of_nat k * esize e) w /\
  csession (den pl e) b (vstep (den pl e) b sz k) (release (den pl e) b sz) k (pre ++ [VData c]) w = Ok (os ++ [CPtr p]) w' evs /\
  length os = length pre /\ existsb (unsupported (ereq pl e)) evs = false /\ (al | sz) /\ ~ aligned sz al p.
Proof.
  destruct (seen_ok _ _ _ overaligned_run) as (w'&evs&H1&H2).
  exists PMalloc, EMalloc, 4096, 32, 32, 1%nat, [VNewList 0 [Val 1] 0], 0%nat, w_16, [CUnit], 65552, w', evs.
  split; [done|]. split; [done|]. split; [done|]. split; [exact w_16_place|]. split; [exact H1|].
  split; [done|]. split; [exact H2|]. split; [by exists 1|exact not_aligned_32].
Qed.
