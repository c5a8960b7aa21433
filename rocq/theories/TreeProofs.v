(** Every well-formed composition obeys the contract. *)
From iris.proofmode Require Import tactics.
From Verif Require Import Base Mem Sep Wp Bits AlignedMalloc Allocators Contract LinearProofs BasicProofs
  PairProofs FreelistProofs OverflowProofs NodeProofs CascadingProofs Checked CheckedProofs Tree.

Local Open Scope N_scope.

Lemma den_owns pl e : eowns e = true -> a_owns (den pl e) <> None.
Proof.
  induction e as [| | | |Min Max e IH|e IH|p IHp f IHf|T p IHp f IHf|e IH|e IH|e IH|e IH|e IH|e IH]; cbn [eowns den]; try done; intros H;
    try (by specialize (IH H); cbn; destruct (a_owns (den pl e)));
    try exact (IH H);
    apply andb_true_iff in H as [H1 H2]; specialize (IHp H1); specialize (IHf H2); cbn; unfold pair_owns, omap2;
    by destruct (a_owns (den pl p)), (a_owns (den pl f)).
Qed.

Lemma den_max pl e : emax e = true <-> a_max (den pl e) <> None.
Proof.
  induction e as [| | | |Min Max e IH|e IH|p IHp f IHf|T p IHp f IHf|e IH|e IH|e IH|e IH|e IH|e IH]; cbn [emax den]; try done;
    try (rewrite IH; cbn; by destruct (a_max (den pl e)));
    rewrite andb_true_iff IHp IHf; cbn; unfold pair_max, omap2;
    destruct (a_max (den pl p)), (a_max (den pl f)); naive_solver.
Qed.

Lemma den_size pl e : a_size (den pl e) = esize e.
Proof. induction e; cbn [den esize]; try done; cbn; congruence. Qed.

Lemma owns_of_Some A : a_owns A <> None -> a_owns A = Some (owns_of A).
Proof. unfold owns_of. by destruct (a_owns A). Qed.

Lemma eready_always pl e : eready e = true -> a_max (den pl e) <> None -> forall b s, eready_now pl e b s = true.
Proof.
  induction e as [| | | |Min Max e IH|e IH|p IHp f IHf|T p IHp f IHf|e IH|e IH|e IH|e IH|e IH|e IH]; cbn [eready eready_now]; intros Hr Hm b s; try done;
    try (apply IH; [done|]; intros E; apply Hm; cbn; by rewrite E);
    try (by apply IH).
  - exfalso. apply negb_true_iff in Hr.
    assert (emax (ECascading e) = true) as E by (by apply (den_max pl)). cbn [emax] in E. congruence.
  - apply andb_true_iff in Hr as [Hr1 Hr2]. cbn in Hm. unfold pair_max, omap2 in Hm.
    rewrite IHp; [|done|by destruct (a_max (den pl p))].
    rewrite IHf; [done|done|]. by destruct (a_max (den pl p)), (a_max (den pl f)).
  - apply andb_true_iff in Hr as [Hr1 Hr2]. cbn in Hm. unfold pair_max, omap2 in Hm.
    rewrite IHp; [|done|by destruct (a_max (den pl p))].
    rewrite IHf; [done|done|]. by destruct (a_max (den pl p)), (a_max (den pl f)).
Qed.

(** The contract together with readiness of max_size. *)
Record tcontract (bad : event -> bool) (pl : platform) (e : aexp) := TC {
  tc : contract bad (den pl e) (ereq pl e);
  tc_rdy : a_max (den pl e) <> None -> forall b s, eready_now pl e b s = true -> rdy tc b s = true
}.

Definition tree_contract bad pl e : pl <> PPosix -> wf e = true ->
  (eboxed e = true -> bad EvFail || bad EvRefuse = true) -> tcontract bad pl e.
Proof.
  intros Hpl. induction e as [| | | |Min Max e IH|e IH|p IHp f IHf|T p IHp f IHf|e IH|e IH|e IH|e IH|e IH|e IH]; cbn [wf eboxed]; intros Hwf Hb.
  - by refine (TC bad pl ENull (null_contract bad) _).
  - by refine (TC bad pl EMalloc (mal_contract bad pl Hpl) _).
  - by refine (TC bad pl (ELinear Size) (lin_contract Size bad) _).
  - by refine (TC bad pl (EStack Size) (stack_contract Size bad) _).
  - apply andb_true_iff in Hwf as [[H1 H2]%andb_true_iff Hwf].
    destruct (IH Hwf Hb) as [C HC].
    refine (TC bad pl (EFreelist Min Max e) (freelist_contract C Min Max (proj1 (N.leb_le _ _) H1) (proj1 (N.ltb_lt _ _) H2)) _).
    intros Hm b s Hr. apply HC; [|done]. intros E. apply Hm. cbn. by rewrite E.
  - apply andb_true_iff in Hwf as [[[[Hwf Ho]%andb_true_iff Hd]%andb_true_iff Hr]%andb_true_iff Hs].
    apply N.ltb_lt in Hs. rewrite -(den_size pl) in Hs.
    destruct (IH Hwf (fun _ => Hb eq_refl)) as [C HC].
    refine (TC bad pl (ECascading e) (cascading_contract C pl Hpl (Hb eq_refl) Hs (owns_of_Some _ (den_owns pl e Ho))
      (fun Hm b s => HC Hm b s (eready_always pl e Hr Hm b s))) _).
    intros Hm b s. by destruct s.
  - apply andb_true_iff in Hwf as [[H1 H2]%andb_true_iff Ho].
    destruct (IHp H1) as [CP HCP]; [intros E; apply Hb; by rewrite E|].
    destruct (IHf H2) as [CF HCF]; [intros E; apply Hb; rewrite E; apply orb_true_r|].
    refine (TC bad pl (EFallback p f) (fallback_contract CP CF (den_owns pl p Ho)) _).
    cbn [eready_now]. intros Hm b s [Hr1 Hr2]%andb_true_iff. cbn in Hm |- *. unfold pair_max, omap2 in Hm.
    unfold pair_rdy. rewrite den_size. rewrite HCP; [|by destruct (a_max (den pl p))|done].
    rewrite HCF; [done| |done]. by destruct (a_max (den pl p)), (a_max (den pl f)).
  - apply andb_true_iff in Hwf as [H1 H2].
    destruct (IHp H1) as [CP HCP]; [intros E; apply Hb; by rewrite E|].
    destruct (IHf H2) as [CF HCF]; [intros E; apply Hb; rewrite E; apply orb_true_r|].
    refine (TC bad pl (ESegragator T p f) (segragator_contract CP CF T) _).
    cbn [eready_now]. intros Hm b s [Hr1 Hr2]%andb_true_iff. cbn in Hm |- *. unfold pair_max, omap2 in Hm.
    unfold pair_rdy. rewrite den_size. rewrite HCP; [|by destruct (a_max (den pl p))|done].
    rewrite HCF; [done| |done]. by destruct (a_max (den pl p)), (a_max (den pl f)).
  - destruct (IH Hwf Hb) as [C HC].
    refine (TC bad pl (EOverflow e) (overflow_contract C) _).
    intros Hm b s Hr. apply HC; [|done]. intros E. apply Hm. cbn. by rewrite E.
  - apply andb_true_iff in Hwf as [Hwf Hs]. apply N.ltb_lt in Hs. rewrite -(den_size pl) in Hs.
    destruct (IH Hwf (fun _ => Hb eq_refl)) as [C HC].
    refine (TC bad pl (EShared e) (shared_contract C pl Hpl (Hb eq_refl) Hs) _).
    intros Hm b s Hr. apply HC; [|done]. intros E. apply Hm. cbn. by rewrite E.
  - destruct (IH Hwf Hb) as [C HC]. exact (TC bad pl (EThreaded e) (forwarding_contract C) HC).
  - destruct (IH Hwf Hb) as [C HC]. exact (TC bad pl (EReference e) (forwarding_contract C) HC).
  - destruct (IH Hwf Hb) as [C HC]. exact (TC bad pl (EGlobal e) (forwarding_contract C) HC).
  - destruct (IH Hwf Hb) as [C HC].
    refine (TC bad pl (EChecked e) (checked_contract C) _).
    intros Hm b s Hr. apply HC; [|done]. intros E. apply Hm. cbn. by rewrite E.
Defined.
