(** Containers over an allocator that other threads use as well. *)
From Verif Require Import Base Mem AlignedMalloc Allocators Checked Tree Client Contract Service TreeProofs AllocSpec
  Env EnvProofs Vector Array HeapPure Heap HeapSpec RepProofs VectorProofs ArrayProofs HeapProofs TreeService HeapFacts ContExamples HeapExamples
  Crowd CrowdProofs.

Local Open Scope N_scope.

Section trees.
  Context (pl : platform) (e : aexp) (plan : list (list deed)).
  Local Notation A := (crowd (den pl (EThreaded e)) plan).

  Lemma vector_crowd b sz k ops w :
    pl <> PPosix -> wf e = true -> 0 < sz -> place b (N.of_nat k * esize e) w -> Forall (deeds_ask (ereq pl e)) plan ->
    csession_ok A b (vstep A b sz k) (release A b sz) (vcheck sz k) (unsupported (ereq pl e)) k ∅ ops w.
  Proof.
    intros Hpl Hwf Hsz Hp Hplan.
    destruct (tree_service pl (EThreaded e) (ereq pl e) Hpl Hwf) as [C]; [done|].
    apply (vector_session (crowd_service C plan Hplan) b sz k Hsz). cbn [a_size crowd]. by rewrite (den_size pl (EThreaded e)).
  Qed.

  Lemma array_crowd b sz k ops w :
    pl <> PPosix -> wf e = true -> 0 < sz -> place b (N.of_nat k * esize e) w -> Forall (deeds_ask (ereq pl e)) plan ->
    csession_ok A b (astep A b sz k) (arelease A b sz) (acheck sz k) (unsupported (ereq pl e)) k ∅ ops w.
  Proof.
    intros Hpl Hwf Hsz Hp Hplan.
    destruct (tree_service pl (EThreaded e) (ereq pl e) Hpl Hwf) as [C]; [done|].
    apply (array_session (crowd_service C plan Hplan) b sz k Hsz). cbn [a_size crowd]. by rewrite (den_size pl (EThreaded e)).
  Qed.

  Lemma heap_crowd b sz T comp eqv k ops w :
    pl <> PPosix -> wf e = true -> 0 < sz -> place b (N.of_nat k * esize e) w -> Forall (deeds_ask (ereq pl e)) plan ->
    csession_ok A b (hstep A b sz T comp eqv k) (hrelease A b sz T) (hcheck sz T comp eqv k)
      (unsupported (half (ereq pl e))) k ∅ ops w.
  Proof.
    intros Hpl Hwf Hsz Hp Hplan.
    destruct (tree_service pl (EThreaded e) (half (ereq pl e)) Hpl Hwf (half_le _)) as [C].
    apply (heap_any _ _ _ (crowd_service C plan Hplan) (modest_half _)); [done|]. cbn [a_size crowd]. by rewrite (den_size pl (EThreaded e)).
  Qed.
End trees.

(** * Concrete programs *)

(** Two other threads: one takes a small block and a large one, writes to them and reads again
    later; the other one takes and returns small blocks. *)
Definition busy : list (list deed) :=
  [[DAlloc 0 16; DWrite 0 3 77]; [DAlloc 1 16; DAlloc 2 40; DWrite 2 39 5]; [DFree 1; DAlloc 1 9]; [DWrite 1 0 1; DRead 0 3];
   [DRead 2 39; DFree 2]; [DRead 0 3; DFree 0; DAlloc 2 10; DWrite 2 9 8]; [DRead 1 0; DRead 2 9]].

Notation vcrowd ops := (csession (crowd (den PMalloc (EThreaded mixed)) busy) 4096 (vstep (crowd (den PMalloc (EThreaded mixed)) busy) 4096 4 1)
  (release (crowd (den PMalloc (EThreaded mixed)) busy) 4096 4) 1 ops).
Notation hcrowd ops := (csession (crowd (den PMalloc (EThreaded mixed)) busy) 4096
  (hstep (crowd (den PMalloc (EThreaded mixed)) busy) 4096 4 object cmps equal 1) (hrelease (crowd (den PMalloc (EThreaded mixed)) busy) 4096 4 object) 1 ops).

Lemma busy_asks : Forall (deeds_ask (ereq PMalloc mixed)) busy.
Proof. repeat constructor. Qed.

Lemma crowd_serves bad A req plan : service bad A req -> Forall (deeds_ask req) plan -> inhabited (service bad (crowd A plan) req).
Proof. intros C H. constructor. by apply crowd_service. Qed.
