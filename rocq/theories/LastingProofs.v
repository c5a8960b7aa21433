(** Containers over compositions that do not run out. *)
From iris.proofmode Require Import tactics.
From Verif Require Import Base Mem Sep Wp AlignedMalloc Allocators Checked CheckedProofs Tree Client Contract Service TreeProofs AllocSpec AllocProofs
  Env EnvProofs Vector RepProofs VectorProofs Array ArrayProofs HeapPure Heap HeapSpec TreeService HeapProofs ContFacts HeapFacts
  ContExamples HeapExamples Crowd CrowdProofs CrowdFacts Mixed MixedProofs Ptr PtrProofs Throw ThrowProofs ThrowFacts
  SharedCont SharedContProofs SharedContCases SharedContHeap SharedContFacts Capacity CapacityProofs Lasting.

Local Open Scope N_scope.

Lemma modest_served can req : (forall n, can n = true -> req n = true) -> modest (unserved can) req.
Proof. intros H n. cbn. intros [H1 H2]%negb_false_iff%andb_true_iff. split; [by apply H|by apply N.ltb_lt]. Qed.

(** Allocate never fails for the sizes in [alw]. *)
Lemma lasting_service {bad A req} (C : contract bad A req) fit alw (K : capable C fit alw) :
  bad EvRefuse = true -> modest bad (fun n => req n && ((n =? 0) || alw n)) ->
  service bad A (fun n => req n && ((n =? 0) || alw n)).
Proof.
  intros Hb Hm. refine (Service bad A _ (J C) Hm _ _ _ _ _ _ _ _).
  - exact (c_size _ _ _ C).
  - exact (c_perm _ _ _ C).
  - exact (c_good _ _ _ C).
  - exact (c_init _ _ _ C).
  - exact (c_dtor _ _ _ C).
  - intros b s L n [Hn Ha]%andb_true_iff HW. iIntros "[HJ HL]". destruct (n =? 0) eqn:E.
    + apply N.eqb_eq in E. iApply wp_strong_mono. iSplitL "HJ"; [by iApply (c_alloc _ _ _ C)|].
      iIntros (ps) "[[%H HJ]|H]"; iFrame "HL"; [|by iRight]. iLeft. iFrame. iPureIntro. auto.
    + iApply wp_strong_mono. iSplitL "HJ"; [by iApply (k_give K)|]. iIntros (ps) "H". iFrame "HL". by iRight.
  - exact (c_free _ _ _ C).
  - exact (c_cd _ _ _ C).
Qed.

Lemma tree_lasting pl e can : pl <> PPosix -> wf e = true -> (forall n, can n = true -> lasting pl e n = true) ->
  inhabited (service (unserved can) (den pl e) (lasting pl e)).
Proof.
  intros Hpl Hwf Hc. destruct (tree_capable (unserved can) pl e Hpl Hwf) as [[C HC] K]; [done|].
  constructor. apply (lasting_service C _ _ K); [done|]. by apply modest_served.
Qed.

Lemma vector_lasting pl e b sz k ops w :
  pl <> PPosix -> wf e = true -> 0 < sz -> place b (N.of_nat k * esize e) w ->
  csession_ok (den pl e) b (vstep (den pl e) b sz k) (release (den pl e) b sz) (vcheck sz k) (unserved (lasting pl e)) k ∅ ops w.
Proof.
  intros Hpl Hwf Hsz Hp. destruct (tree_lasting pl e (lasting pl e) Hpl Hwf) as [C]; [done|].
  apply (vector_session C b sz k Hsz). by rewrite den_size.
Qed.

Lemma array_lasting pl e b sz k ops w :
  pl <> PPosix -> wf e = true -> 0 < sz -> place b (N.of_nat k * esize e) w ->
  csession_ok (den pl e) b (astep (den pl e) b sz k) (arelease (den pl e) b sz) (acheck sz k) (unserved (lasting pl e)) k ∅ ops w.
Proof.
  intros Hpl Hwf Hsz Hp. destruct (tree_lasting pl e (lasting pl e) Hpl Hwf) as [C]; [done|].
  apply (array_session C b sz k Hsz). by rewrite den_size.
Qed.

Lemma modest_served_half req : modest (unserved (half req)) (half req).
Proof. by apply modest_served. Qed.

Lemma heap_lasting pl e b sz T comp eqv k ops w :
  pl <> PPosix -> wf e = true -> 0 < sz -> place b (N.of_nat k * esize e) w ->
  csession_ok (den pl e) b (hstep (den pl e) b sz T comp eqv k) (hrelease (den pl e) b sz T) (hcheck sz T comp eqv k)
    (unserved (half (lasting pl e))) k ∅ ops w.
Proof.
  intros Hpl Hwf Hsz Hp. destruct (tree_lasting pl e (half (lasting pl e)) Hpl Hwf (half_le _)) as [C].
  apply (heap_any _ _ _ C (modest_served_half _)); [done|]. by rewrite den_size.
Qed.

Lemma mixed_lasting pl e b ty k ops w :
  pl <> PPosix -> wf e = true -> (forall t, 0 < t_size (ty t)) -> place b (N.of_nat k * esize e) w ->
  csession_ok (den pl e) b (xstep (den pl e) b ty k) (xkill (den pl e) b) (xcheck ty k) (unserved (half (lasting pl e))) k ∅ ops w.
Proof.
  intros Hpl Hwf Hty Hp. destruct (tree_lasting pl e (half (lasting pl e)) Hpl Hwf (half_le _)) as [C].
  apply (mixed_any _ _ _ C (modest_served_half _)); [done|]. by rewrite den_size.
Qed.

(** The other threads ask for such sizes, too. *)
Lemma mixed_lasting_crowd pl e plan b ty k ops w :
  pl <> PPosix -> wf e = true -> (forall t, 0 < t_size (ty t)) -> place b (N.of_nat k * esize e) w ->
  Forall (deeds_ask (lasting pl e)) plan ->
  let A := crowd (den pl (EThreaded e)) plan in
  csession_ok A b (xstep A b ty k) (xkill A b) (xcheck ty k) (unserved (half (lasting pl e))) k ∅ ops w.
Proof.
  intros Hpl Hwf Hty Hp Hplan A.
  destruct (tree_lasting pl (EThreaded e) (half (lasting pl e)) Hpl Hwf (half_le _)) as [C].
  apply (mixed_any _ A _ (crowd_service C plan Hplan) (modest_served_half _)); [done|]. cbn [a_size A crowd]. by rewrite (den_size pl (EThreaded e)).
Qed.

Lemma vptr_lasting pl e b sz k ops w :
  pl <> PPosix -> wf e = true -> 0 < sz -> place b (N.of_nat k * esize e) w ->
  csession_ok (den pl e) b (pstep (den pl e) sz (v_info sz) (vstep (den pl e) b sz k)) (release (den pl e) b sz) (pcheck sz (vcheck sz k))
    (unserved (lasting pl e)) k ∅ ops w.
Proof.
  intros Hpl Hwf Hsz Hp. destruct (tree_lasting pl e (lasting pl e) Hpl Hwf) as [C]; [done|].
  apply (vptr_session C b sz k Hsz). by rewrite den_size.
Qed.

Lemma aptr_lasting pl e b sz k ops w :
  pl <> PPosix -> wf e = true -> 0 < sz -> place b (N.of_nat k * esize e) w ->
  csession_ok (den pl e) b (pstep (den pl e) sz (a_info sz) (astep (den pl e) b sz k)) (arelease (den pl e) b sz) (pcheck sz (acheck sz k))
    (unserved (lasting pl e)) k ∅ ops w.
Proof.
  intros Hpl Hwf Hsz Hp. destruct (tree_lasting pl e (lasting pl e) Hpl Hwf) as [C]; [done|].
  apply (aptr_session C b sz k Hsz). by rewrite den_size.
Qed.

Lemma throw_lasting pl e b sz T comp eqv k ops w :
  pl <> PPosix -> wf e = true -> 0 < sz -> e_triv T = false -> forallb no_assign ops = true -> place b (N.of_nat k * esize e) w ->
  tprog_ok (den pl e) b sz T comp eqv k (unserved (half (lasting pl e))) ops w.
Proof.
  intros Hpl Hwf Hsz HT Hna Hp. destruct (tree_lasting pl e (half (lasting pl e)) Hpl Hwf (half_le _)) as [C].
  apply (throw_any _ _ _ C (modest_served_half _)); [done..|]. by rewrite den_size.
Qed.

Lemma vector_sharing_lasting pl e sz ops w :
  pl <> PPosix -> wf (EShared e) = true -> 0 < sz -> N.of_nat (length ops) + 1 < W ->
  sharing_ok (vector_cont (den pl (EShared e)) sz) s_al s_info (vcheck sz) (unserved (lasting pl e)) ops w.
Proof.
  intros Hpl Hwf Hsz Hn. destruct (tree_lasting pl (EShared e) (lasting pl (EShared e)) Hpl Hwf) as [C]; [done|].
  by apply (vector_sharing C).
Qed.

Lemma array_sharing_lasting pl e sz ops w :
  pl <> PPosix -> wf (EShared e) = true -> 0 < sz -> N.of_nat (length ops) + 1 < W ->
  sharing_ok (array_cont (den pl (EShared e)) sz) s_al s_info (acheck sz) (unserved (lasting pl e)) ops w.
Proof.
  intros Hpl Hwf Hsz Hn. destruct (tree_lasting pl (EShared e) (lasting pl (EShared e)) Hpl Hwf) as [C]; [done|].
  by apply (array_sharing C).
Qed.

Lemma heap_sharing_lasting pl e sz T comp eqv ops w :
  pl <> PPosix -> wf (EShared e) = true -> 0 < sz -> N.of_nat (length ops) + 1 < W ->
  sharing_ok (heap_cont (den pl (EShared e)) sz T comp eqv) p_al p_info (hcheck sz T comp eqv)
    (unserved (half (lasting pl e))) ops w.
Proof.
  intros Hpl Hwf Hsz Hn.
  destruct (tree_lasting pl (EShared e) (half (lasting pl (EShared e))) Hpl Hwf (half_le _)) as [C].
  apply (heap_sharing (service_less (half (lasting pl (EShared e))) C (half_le _) (modest_served_half _))); try done.
  intros n H. apply andb_true_iff in H as [_ H]. by apply N.ltb_lt.
Qed.

(** * Concrete programs *)

(** Small vectors from linear buffers that are added as needed, larger ones from malloc. *)
Definition arena : aexp := ESegragator 64 (ECascading (ELinear 64)) EMalloc.

Definition scores : list vop :=
  [VNewList 0 [Val 1; Val 2; Val 3] 0; VNewList 1 [Val 4; Val 5; Val 6; Val 7] 0; VNewList 2 [Val 8] 0; VCopyAl 3 0 0;
   VPushRange 0 (GElems 1 0 4); VGet 0 5; VCopyAl 4 1 0; VErase 1 0; VPushRange 4 (GElems 0 0 7); VGet 4 10; VSize 4].

(** The answers, and whether malloc refused or the composition cannot last. *)
Lemma scores_run :
  wf arena = true /\ place 4096 (1 * esize arena) (w_raw 0) /\
  map (lasting PMalloc arena) [1; 64; 65; W - 1] = [true; true; true; true] /\
  seen (unserved (lasting PMalloc arena)) (vprog arena 8 1 scores (w_raw 0)) =
    Some ([CUnit; CUnit; CUnit; CUnit; CNum 3; CVal (Some (Val 6)); CUnit; CNum 0; CNum 4; CVal (Some (Val 7)); CNum 11], false).
Proof. split; [done|]. split; [exact (w0_place 1)|]. by vm_compute. Qed.

Definition stopped {X} (r : res X) : option (ub * list event) := match r with Ok _ _ _ => None | Err u e => Some (u, e) end.

Lemma scores_poor : stopped (vprog arena 8 1 scores (w_poor 0)) = Some (UBNull, [EvReq 24; EvRefuse; EvFail]).
Proof. by vm_compute. Qed.

(** A single buffer runs out, and then the program accesses null although malloc refused nothing. *)
Lemma scores_linear :
  seen (unserved (lasting PMalloc (ELinear 64))) (vprog (ELinear 64) 8 1 scores (w_raw 64)) = None /\
  lasting PMalloc (ELinear 64) 24 = false.
Proof. by vm_compute. Qed.
