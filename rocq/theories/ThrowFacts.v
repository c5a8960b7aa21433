(** Consequences and cases of ThrowProofs.v. *)
From Verif Require Import Base Mem AlignedMalloc Allocators Checked Tree Client Contract Service TreeProofs AllocSpec AllocProofs
  Env EnvProofs Vector HeapPure Heap HeapSpec TreeService HeapProofs HeapFacts ContFacts Books BooksFacts ContExamples HeapExamples Throw ThrowProofs.

Local Open Scope N_scope.

Definition tprog_ok (A : alloc) (b sz : N) (T : elt) (comp : nat -> value -> value -> bool) (eqv : value -> value -> bool) (k : nat)
  (bad : event -> bool) (ops : list top) (w : world) : Prop :=
  match tprog A b sz T comp eqv k ops w with
  | Ok os w' evs => existsb bad evs = true \/
    (forallb benign evs = true /\ exists m L, ctrace (tcheck sz T comp eqv k) ops os (∅, []) (m, L) /\
      Forall (remains sz w') L /\ Forall (obtained sz b (N.of_nat k * a_size A) w) L /\ apart sz L)
  | Err _ evs => existsb bad evs = true
  end.

Lemma throw_any bad A req (C : service bad A req) (Hm : modest bad (half req)) b sz T comp eqv k ops w :
  0 < sz -> e_triv T = false -> forallb no_assign ops = true -> place b (N.of_nat k * a_size A) w ->
  tprog_ok A b sz T comp eqv k bad ops w.
Proof.
  intros Hsz HT Hna Hp.
  assert (H1 : forall n, half req n = true -> req n = true). { intros n H. by apply andb_true_iff in H as [? _]. }
  apply (throw_safe (service_less (half req) C H1 Hm) b sz T comp eqv k Hsz); [|done..].
  intros n H. apply andb_true_iff in H as [_ H]. by apply N.ltb_lt.
Qed.

Lemma throw_tree pl e b sz T comp eqv k ops w :
  pl <> PPosix -> wf e = true -> 0 < sz -> e_triv T = false -> forallb no_assign ops = true -> place b (N.of_nat k * esize e) w ->
  tprog_ok (den pl e) b sz T comp eqv k (unsupported (half (ereq pl e))) ops w.
Proof.
  intros Hpl Hwf Hsz HT Hna Hp. destruct (tree_service pl e (half (ereq pl e)) Hpl Hwf (half_le _)) as [C].
  apply (throw_any _ _ _ C (modest_half _)); [done..|]. by rewrite den_size.
Qed.

(** * Parts of a program *)
(** The operations that do not throw, with what was seen of them. *)
Fixpoint calm (ops : list top) (os : list cobs) : list (hop * cobs) :=
  match ops, os with
  | TOp o :: ops, ob :: os => (o, ob) :: calm ops os
  | _ :: ops, _ :: os => calm ops os
  | _, _ => []
  end.

Section parts.
  Context (sz : N) (T : elt) (comp : nat -> value -> value -> bool) (eqv : value -> value -> bool) (k : nat).
  Local Notation tcheck := (tcheck sz T comp eqv k).
  Local Notation hcheck := (hcheck sz T comp eqv k).

  Lemma tcheck_calm o ob s s' : no_assign o = true -> tcheck o ob s s' ->
    match o with TOp o => hcheck o ob (fst s) (fst s') | _ => fst s' = fst s end /\ snd s ⊆ snd s'.
  Proof.
    destruct s as [m L], s' as [m' L']. destruct o as [o|src h j|l q h j|c src j]; cbn [Throw.tcheck fst snd no_assign]; [..|done]; intros _.
    - by intros [H ->].
    - destruct (_ && _).
      + intros (p&_&[= -> ->]). split; [done|]. set_solver.
      + by intros (_&[= -> ->]).
    - destruct (_ && _).
      + intros (p&l'&_&_&[= -> ->]). split; [done|]. set_solver.
      + by intros (_&[= -> ->]).
  Qed.

  Lemma trace_calm ops os s s' : forallb no_assign ops = true -> ctrace tcheck ops os s s' ->
    ccheck hcheck (map fst (calm ops os)) (map snd (calm ops os)) (fst s) /\ snd s ⊆ snd s'.
  Proof.
    revert os s. induction ops as [|o ops IH]; intros os s Hna H; destruct os as [|ob os]; cbn [ctrace] in H; try done; [by subst|].
    cbn [forallb] in Hna. apply andb_true_iff in Hna as [Hn1 Hn2]. destruct H as (s1&H1&H2).
    destruct (tcheck_calm _ _ _ _ Hn1 H1) as [G1 G2]. destruct (IH _ _ Hn2 H2) as [I1 I2].
    split; [|set_solver]. destruct o as [o| | |]; cbn [calm map]; [|by rewrite <- G1..]. cbn [ccheck fst snd]. by exists (fst s1).
  Qed.

  Lemma trace_torso ops os s s' i p : forallb no_assign ops = true -> ctrace tcheck ops os s s' -> os !! i = Some (CPtr p) ->
    match ops !! i with
    | Some (TCopy _ _ j) => exists t, t ∈ snd s' /\ t_at t = p /\ length (t_l t) = j /\ N.of_nat j < t_cap t
    | Some (TList l _ _ j) => exists t, t ∈ snd s' /\ t_at t = p /\ t_l t ≡ₚ take j l /\ (j < length l)%nat /\ t_cap t = N.of_nat (length l)
    | _ => True
    end.
  Proof.
    revert os s i. induction ops as [|o ops IH]; intros os s i Hna H Hi; [by rewrite lookup_nil|].
    destruct os as [|ob os]; cbn [ctrace] in H; [done|].
    cbn [forallb] in Hna. apply andb_true_iff in Hna as [Hn1 Hn2]. destruct H as (s1&H1&H2).
    destruct i as [|i]; cbn in Hi |- *; [|by eapply IH].
    injection Hi as ->. destruct (trace_calm _ _ _ _ Hn2 H2) as [_ G]. destruct s as [m L].
    destruct o as [o|src h j|l q h j|c src j]; [done|..]; cbn [Throw.tcheck] in H1; [..|done].
    - destruct (_ && _) eqn:Hg; [|by destruct H1]. destruct H1 as (p'&[= <-]&->). eexists. split; [apply G; left|].
      cbn [t_at t_l t_cap]. apply andb_true_iff in Hg as [_ Hj%N.ltb_lt]. split_and!; [done| |done].
      rewrite take_length. unfold p_len in Hj. lia.
    - destruct (_ && _) eqn:Hg; [|by destruct H1]. destruct H1 as (p'&l'&Hl&[= <-]&->). eexists. split; [apply G; left|].
      apply andb_true_iff in Hg as [_ Hj%Nat.ltb_lt]. cbn [t_at t_l t_cap]. done.
  Qed.
End parts.

Lemma throw_unaffected pl e b sz T comp eqv k : pl <> PPosix -> wf e = true -> 0 < sz -> e_triv T = false ->
  forall ops w os w' evs, forallb no_assign ops = true -> place b (N.of_nat k * esize e) w ->
  tprog (den pl e) b sz T comp eqv k ops w = Ok os w' evs -> existsb (unsupported (half (ereq pl e))) evs = false ->
  let p := calm ops os in ccheck (hcheck sz T comp eqv k) (map fst p) (map snd p) ∅.
Proof.
  intros Hpl Hwf Hsz HT ops w os w' evs Hna Hp Hr He. pose proof (throw_tree pl e b sz T comp eqv k ops w Hpl Hwf Hsz HT Hna Hp) as H.
  unfold tprog_ok in H. rewrite Hr in H. destruct H as [H|(_&m&L&Ht&_)]; [congruence|].
  by destruct (trace_calm _ _ _ _ _ _ _ _ _ Hna Ht).
Qed.

(** The storage of a construction that threw, with at least one byte, is still allocated at the end. *)
Lemma throw_leaks pl e b sz T comp eqv k : pl <> PPosix -> wf e = true -> 0 < sz -> e_triv T = false ->
  forall ops w os w' evs i src h j p, forallb no_assign ops = true -> place b (N.of_nat k * esize e) w ->
  tprog (den pl e) b sz T comp eqv k ops w = Ok os w' evs -> existsb (unsupported (half (ereq pl e))) evs = false ->
  ops !! i = Some (TCopy src h j) -> os !! i = Some (CPtr p) ->
  p <> 0 /\
  (forall a, p <= a < p + sz * (N.of_nat j + 1) -> is_Some (mem (st w') !! a) /\
    (mem (st w) !! a = None \/ b <= a < b + N.of_nat k * esize e)) /\
  (forall i a, (i < j)%nat -> a < sz -> exists v, mem (st w') !! (p + sz * N.of_nat i + a) = ochunk (N.to_nat sz) v !! N.to_nat a).
Proof.
  intros Hpl Hwf Hsz HT ops w os w' evs i src h j p Hna Hp Hr He Hi Ho.
  pose proof (throw_tree pl e b sz T comp eqv k ops w Hpl Hwf Hsz HT Hna Hp) as H.
  unfold tprog_ok in H. rewrite Hr in H. destruct H as [H|(_&m&L&Ht&H1&H2&_)]; [congruence|].
  pose proof (trace_torso _ _ _ _ _ _ _ _ _ _ _ Hna Ht Ho) as H. rewrite Hi in H. destruct H as (t&Hin&<-&Hl&Hc). cbn [snd] in Hin.
  rewrite list.Forall_forall in H1. rewrite list.Forall_forall in H2. destruct (H1 t Hin) as (G1&G2&G3). specialize (H2 t Hin).
  split_and!; [done|..].
  - intros a Ha. replace a with (t_at t + (a - t_at t)) by lia. rewrite den_size in H2. split; [apply G2; nia|]. apply H2. nia.
  - intros i' a Hi' Ha. destruct (lookup_lt_is_Some_2 (t_l t) i') as [v Hv]; [lia|]. exists v.
    rewrite <- (G3 i' v (N.to_nat a) Hv); [|lia]. f_equal. lia.
Qed.

(** * Cases *)
Definition throwing (e : aexp) (k : nat) (ops : list top) : M (list cobs) :=
  tprog (den PMalloc e) 4096 4 object cmps equal k ops.
Definition throwing_all (e : aexp) (k : nat) (ops : list top) : M (list cobs) :=
  csession (den PMalloc e) 4096 (tstep (den PMalloc e) 4096 4 object cmps equal k) (hrelease (den PMalloc e) 4096 4 object) k ops.

Definition three : list top := [TOp (HNewList 0 [Val 3; Val 1; Val 2] 0 0)].

Lemma throw_leak_found :
  exists w ops os w' evs, place 4096 0 w /\ forallb no_assign ops = true /\ throwing_all EMalloc 1 ops w = Ok os w' evs /\
  existsb (unsupported (half (ereq PMalloc EMalloc))) evs = false /\ exists a, mem (st w) !! a = None /\ is_Some (mem (st w') !! a).
Proof.
  exists (w_raw 0), (three ++ [TCopy 0 0 2]).
  destruct (throwing_all EMalloc 1 (three ++ [TCopy 0 0 2]) (w_raw 0)) as [os w' evs|u evs] eqn:Hr.
  - exists os, w', evs. split; [exact (w0_place 0)|]. split; [done|]. split; [done|].
    pose (f := fun r : res (list cobs) => match r with Ok _ w' evs =>
      negb (existsb (unsupported (half (ereq PMalloc EMalloc))) evs) && bool_decide (is_Some (mem (st w') !! 131072)) | Err _ _ => false end).
    assert (Hf : f (throwing_all EMalloc 1 (three ++ [TCopy 0 0 2]) (w_raw 0)) = true) by (vm_compute; reflexivity).
    rewrite Hr in Hf. cbn [f] in Hf. apply andb_true_iff in Hf as [H1%negb_true_iff H2%bool_decide_eq_true].
    split; [done|]. exists 131072. by split.
  - exfalso. assert (Hf : match throwing_all EMalloc 1 (three ++ [TCopy 0 0 2]) (w_raw 0) with Ok _ _ _ => true | Err _ _ => false end = true)
      by (vm_compute; reflexivity). by rewrite Hr in Hf.
Qed.

Lemma throw_assign_found :
  exists w ops, place 4096 0 w /\ exists evs, throwing EMalloc 2 ops w = Err UBLifetime evs /\
  existsb (unsupported (half (ereq PMalloc EMalloc))) evs = false.
Proof.
  exists (w_raw 0), (three ++ [TOp (HNew 1 0 0); TAssign 1 0 1]). split; [exact (w0_place 0)|].
  eexists. split; [vm_compute; reflexivity|done].
Qed.

Lemma throw_report_found :
  exists w, place 4096 0 w /\
  reported (throwing_all (EOverflow EMalloc) 1 (three ++ [TCopy 0 0 2]) w) = Some [EvLeak 12; EvLogic 3].
Proof. exists (w_raw 0). split; [exact (w0_place 0)|]. by vm_compute. Qed.
