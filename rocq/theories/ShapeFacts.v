(** Consequences for whole programs, and examples. *)
From iris.proofmode Require Import tactics.
From Verif Require Import Base Mem Bits AlignedMalloc Allocators Checked Tree Client AllocSpec AllocProofs Env EnvProofs Vector Array HeapPure Heap Mixed
  HeapSpec HeapFacts MixedProofs MixedFacts ContExamples HeapExamples Rename RenameFacts Shape ShapeProofs ShapeCont ShapeHeap.

Local Open Scope N_scope.

Lemma prefix_bad (bad : event -> bool) e e' : e `prefix_of` e' -> existsb bad e = true -> existsb bad e' = true.
Proof. intros [e'' ->] H. by rewrite existsb_app H. Qed.
Lemma sim_runs {O} (RA : O -> cobs -> cobs -> Prop) bad ops m m' w : sim (Forall3 RA ops) m m' ->
  match m w with Ok _ _ _ => True | Err _ e => existsb bad e = true end ->
  match m' w with Ok _ _ _ => True | Err _ e => existsb bad e = true end ->
  like_runs_of RA bad ops (m w) (m' w).
Proof.
  intros H. specialize (H w w (sw_refl w)). destruct (m w) as [os w1 e1|u1 e1], (m' w) as [os' w1' e1'|u1' e1']; cbn; intros H1 H2; unfold like_runs_of; cbn.
  - destruct H as (<-&Hos&Hw). split; [done|]. intros _. do 5 eexists. by split_and!.
  - rewrite H2 (prefix_bad _ _ _ H H2). done.
  - rewrite H1 (prefix_bad _ _ _ H H1). done.
  - rewrite H1 H2. done.
Qed.
Lemma csession_ok_err {X O S} A b stp kill (chk : O -> cobs -> S -> S -> Prop) bad k s0 ops w :
  csession_ok (X:=X) A b stp kill chk bad k s0 ops w ->
  match csession A b stp kill k ops w with Ok _ _ _ => True | Err _ e => existsb bad e = true end.
Proof. unfold csession_ok. by destruct (csession _ _ _ _ _ _ _). Qed.

Lemma like_heap pl e b sz T T' comp comp' eqv eqv' k ops ops' w :
  pl <> PPosix -> wf e = true -> 0 < sz -> place b (N.of_nat k * esize e) w ->
  e_triv T' = e_triv T -> Forall2 like_hop ops ops' ->
  like_runs_of like_answer (unsupported (half (ereq pl e))) ops
    (csession (den pl e) b (hstep (den pl e) b sz T comp eqv k) (hrelease (den pl e) b sz T) k ops w)
    (csession (den pl e) b (hstep (den pl e) b sz T' comp' eqv' k) (hrelease (den pl e) b sz T') k ops' w).
Proof.
  intros Hpl Hwf Hsz Hp HT H. pose proof (tree_sim pl e) as HA. apply sim_runs.
  - apply (sim_csession (den pl e) HA b) with (RO := like_hop); [| |done].
    + intros. by apply sim_hstep.
    + intros. by apply sim_hrelease.
  - eapply csession_ok_err, heap_tree; done.
  - eapply csession_ok_err, heap_tree; done.
Qed.

Lemma like_mixed pl e b ty ty' k ops ops' w :
  pl <> PPosix -> wf e = true -> (forall t, 0 < t_size (ty t)) -> place b (N.of_nat k * esize e) w ->
  (forall t, like_ctype (ty t) (ty' t)) -> Forall2 like_cop ops ops' ->
  like_runs_of like_canswer (unsupported (half (ereq pl e))) ops
    (csession (den pl e) b (xstep (den pl e) b ty k) (xkill (den pl e) b) k ops w)
    (csession (den pl e) b (xstep (den pl e) b ty' k) (xkill (den pl e) b) k ops' w).
Proof.
  intros Hpl Hwf Hsz Hp Hty H. pose proof (tree_sim pl e) as HA.
  assert (forall t, 0 < t_size (ty' t)) as Hsz'.
  { intros t. specialize (Hsz t). specialize (Hty t). destruct (ty t), (ty' t); cbn in *; try done; by destruct_and?; subst. }
  apply sim_runs.
  - apply (sim_csession (den pl e) HA b) with (RO := like_cop); [| |done].
    + intros [t o] [t' o'] [E xs] [Ht Ho]. cbn [fst snd] in Ht, Ho. subst t'. unfold xstep, like_canswer. specialize (Hty t). cbn [snd].
      destruct (ty t) as [sz|sz|sz T comp eqv], (ty' t) as [sz'|sz'|sz' T' comp' eqv']; try done; cbn in Hty; destruct_and?; subst;
        destruct o as [o|o|o], o' as [o'|o'|o']; try done; try apply sim_done; try apply sim_hsame.
      * eapply sim_bind; [by apply sim_vstep|]. intros [ob [E1 m]] [ob' [E1' m']] [Hob Hq]. cbn in Hob, Hq. injection Hq as -> ->. by apply sim_ret.
      * eapply sim_bind; [by apply sim_astep|]. intros [ob [E1 m]] [ob' [E1' m']] [Hob Hq]. cbn in Hob, Hq. injection Hq as -> ->. by apply sim_ret.
      * eapply sim_bind; [by apply sim_hstep|]. intros [ob [E1 m]] [ob' [E1' m']] [Hob Hq]. cbn in Hob, Hq. injection Hq as -> ->. by apply sim_ret.
    + intros [sz m|sz m|sz T m] E; cbn [xkill]; apply sim_kill_all; intros; [by apply sim_release|by apply sim_arelease|by apply sim_hrelease].
  - eapply csession_ok_err, mixed_tree; done.
  - eapply csession_ok_err, mixed_tree; done.
Qed.

(** * Examples *)
Definition gprog (e : aexp) (sz : N) (T : elt) (k : nat) (ops : list hop) : M (list cobs) :=
  csession (den PMalloc e) 4096 (hstep (den PMalloc e) 4096 sz T (fun q x y => cmps q y x) (fun _ _ => true) k) (hrelease (den PMalloc e) 4096 sz T) k ops.
Definition other_object : elt := Elt false (fun v => v).

Definition all_kinds (x y : N) : list (nat * cop) :=
  map (fun o => (0%nat, OVec o)) (some_vector x y) ++ map (fun o => (2%nat, OHeap o)) (some_heap x y) ++
  map (fun o => (1%nat, OArr o)) (some_array x y).
Definition other_kinds (t : nat) : ctype :=
  match t with 2%nat => THeap 4 object (fun q x y => cmps q y x) (fun _ _ => true) | _ => kinds t end.
Notation yprog A ops := (csession A 4096 (xstep A 4096 other_kinds 2) (xkill A 4096) 2 ops).
Lemma like_kinds t : like_ctype (kinds t) (other_kinds t).
Proof. by destruct t as [|[|[|[|t]]]]. Qed.
Lemma like_heap_use :
  wf mixed = true /\ place 4096 (N.of_nat 1 * esize mixed) (w_raw 0) /\ e_triv other_object = e_triv object /\
  Forall2 like_hop (some_heap 4 2) (some_heap 1 9) /\
  existsb (unsupported (half (ereq PMalloc mixed))) (trace (hprog mixed 4 object 1 (some_heap 4 2) (w_raw 0))) = false /\
  seen (fun _ => false) (hprog mixed 4 object 1 (some_heap 4 2) (w_raw 0)) =
    Some ([CUnit; CNum 2; CNum 1; CNum 3; CVal (Some (Val 2)); CVal (Some (Val 2)); CNum 4; CPtr 131072], false) /\
  seen (fun _ => false) (gprog mixed 4 other_object 1 (some_heap 1 9) (w_raw 0)) =
    Some ([CUnit; CNum 2; CNum 1; CNum 0; CVal (Some (Val 9)); CVal (Some (Val 9)); CNum 4; CPtr 131072], false).
Proof. split; [done|]. split; [by apply (w_raw_place 0)|]. split; [done|]. split; [by repeat constructor|]. split_and!; by vm_compute. Qed.
Lemma like_mixed_use :
  wf mixed = true /\ (forall t, 0 < t_size (kinds t)) /\ (forall t, like_ctype (kinds t) (other_kinds t)) /\
  place 4096 (N.of_nat 2 * esize mixed) (w_raw 0) /\
  Forall2 like_cop (all_kinds 4 2) (all_kinds 1 9) /\
  seen (unsupported (half (ereq PMalloc mixed))) (xprog (den PMalloc mixed) (all_kinds 4 2) (w_raw 0)) =
    Some ([CUnit; CNum 3; CNum 4; CNum 0; CVal (Some (Val 2)); CVal (Some (Val 4)); CNum 4; CPtr 131072; CUnit; CVal (Some (Val 2)); CPtr 196608;
           CUnit; CNum 2; CNum 1; CNum 3; CVal (Some (Val 2)); CVal (Some (Val 2)); CNum 4; CPtr 262144;
           CUnit; CUnit; CVal (Some (Val 2)); CVal (Some (Val 4)); CNum 4; CPtr 393216; CUnit; CVal (Some (Val 4)); CPtr 458752], false) /\
  seen (unsupported (half (ereq PMalloc mixed))) (yprog (den PMalloc mixed) (all_kinds 1 9) (w_raw 0)) =
    Some ([CUnit; CNum 3; CNum 4; CNum 0; CVal (Some (Val 9)); CVal (Some (Val 1)); CNum 4; CPtr 131072; CUnit; CVal (Some (Val 9)); CPtr 196608;
           CUnit; CNum 2; CNum 1; CNum 0; CVal (Some (Val 9)); CVal (Some (Val 9)); CNum 4; CPtr 262144;
           CUnit; CUnit; CVal (Some (Val 9)); CVal (Some (Val 1)); CNum 4; CPtr 393216; CUnit; CVal (Some (Val 1)); CPtr 458752], false).
Proof.
  split; [done|]. split; [apply kinds_size|]. split; [apply like_kinds|]. split; [by apply (w_raw_place 0)|]. split; [by repeat constructor|].
  split; by vm_compute.
Qed.
