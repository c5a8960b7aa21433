(** Containers over shared handles of any composition; concrete programs and counterexamples. *)
From iris.proofmode Require Import tactics.
From Verif Require Import Base Mem Sep Wp AlignedMalloc Allocators Checked Tree Client Contract Service TreeProofs AllocSpec
  Env EnvProofs Vector Array HeapPure Heap HeapSpec RepProofs VectorProofs ArrayProofs HeapProofs TreeService HeapFacts ContExamples HeapExamples
  SharedCont SharedContProofs SharedContCases SharedContHeap.

Local Open Scope N_scope.

Lemma vector_sharing_tree pl e sz ops w :
  pl <> PPosix -> wf (EShared e) = true -> 0 < sz -> N.of_nat (length ops) + 1 < W ->
  sharing_ok (vector_cont (den pl (EShared e)) sz) s_al s_info (vcheck sz) (unsupported (ereq pl e)) ops w.
Proof.
  intros Hpl Hwf Hsz Hn. destruct (tree_service pl (EShared e) (ereq pl (EShared e)) Hpl Hwf) as [C]; [done|].
  by apply (vector_sharing C).
Qed.

Lemma array_sharing_tree pl e sz ops w :
  pl <> PPosix -> wf (EShared e) = true -> 0 < sz -> N.of_nat (length ops) + 1 < W ->
  sharing_ok (array_cont (den pl (EShared e)) sz) s_al s_info (acheck sz) (unsupported (ereq pl e)) ops w.
Proof.
  intros Hpl Hwf Hsz Hn. destruct (tree_service pl (EShared e) (ereq pl (EShared e)) Hpl Hwf) as [C]; [done|].
  by apply (array_sharing C).
Qed.

Lemma heap_sharing_tree pl e sz T comp eqv ops w :
  pl <> PPosix -> wf (EShared e) = true -> 0 < sz -> N.of_nat (length ops) + 1 < W ->
  sharing_ok (heap_cont (den pl (EShared e)) sz T comp eqv) p_al p_info (hcheck sz T comp eqv)
    (unsupported (half (ereq pl e))) ops w.
Proof.
  intros Hpl Hwf Hsz Hn.
  destruct (tree_service pl (EShared e) (half (ereq pl (EShared e))) Hpl Hwf (half_le _)) as [C].
  apply (heap_sharing (service_less (half (ereq pl (EShared e))) C (half_le _) (modest_half _))); try done.
  intros n H. apply andb_true_iff in H as [_ H]. by apply N.ltb_lt.
Qed.

(** * Concrete programs *)

(** The observations, the blocks that exist, their use counts, and how many blocks of memory the
    program holds. *)
Definition outline {A} {K : cont A} (r : res (list cobs * sstate K)) : option (list cobs * list (nat * N) * nat) :=
  match r with
  | Ok (os, q) w' evs =>
    Some (os, map_to_list (q_cnt q), size (mtab (st w')))
  | Err _ _ => None
  end.

(** A free list over malloc, shared. *)
Definition pool : aexp := ESegragator 16 (EFreelist 0 16 EMalloc) EMalloc.
Notation vshared sz := (vector_cont (den PMalloc (EShared pool)) sz).
Notation ashared sz := (array_cont (den PMalloc (EShared pool)) sz).
Notation hshared sz T := (heap_cont (den PMalloc (EShared pool)) sz T cmps equal).

(** Without leaving anything out. *)
Fixpoint sany {A} (K : cont A) (ops : list (sop (t_op K))) (q : sstate K) : M (list cobs * sstate K) :=
  match ops with
  | [] => ret ([], q)
  | o :: ops => ' (ob, q') <- sdo K o q ;; ' (os, q'') <- sany K ops q' ;; ret (ob :: os, q'')
  end.

Definition shared_vectors : list (sop vop) :=
  [SNew 0; SOp (VNewList 0 [Val 1; Val 2; Val 3] 0); SOp (VCopy 1 0); SDrop 0; SNew 1; SDefault (VNewList 2 [Val 9] 0);
   SOp (VAssign 2 0); SOp (VPush 2 (RVal (Val 7))); SOp (VDestroy 0); SOp (VGet 2 3); SOp (VMoveAssign 1 2); SOp (VGet 1 0);
   SOp (VSize 2); SAssign 1 1; SCopy 2 1; SAssign 1 1].

Lemma self_assign_shared :
  crash (sany (vshared 4) [SDefault (VNew 0 0); SOp (VAssign 0 0)] (sstate0 _) (w_raw 0)) = Some UBLifetime /\
  crash (sany (vshared 4) [SDefault (VNew 0 0); SOp (VMoveAssign 0 0)] (sstate0 _) (w_raw 0)) = Some UBLifetime /\
  crash (sany (ashared 4) [SDefault (ANew 0 0); SOp (AAssign 0 0)] (sstate0 _) (w_raw 0)) = Some UBLifetime /\
  crash (sany (ashared 4) [SDefault (ANew 0 0); SOp (AMoveAssign 0 0)] (sstate0 _) (w_raw 0)) = Some UBLifetime /\
  crash (sany (hshared 4 int4) [SDefault (HNew 0 0 0); SOp (HAssign 0 0)] (sstate0 _) (w_raw 0)) = Some UBLifetime /\
  crash (sany (hshared 4 int4) [SDefault (HNew 0 0 0); SOp (HMoveAssign 0 0)] (sstate0 _) (w_raw 0)) = Some UBLifetime.
Proof. by vm_compute. Qed.
Lemma self_assign_shared_refuted :
  exists w, crash (sany (vshared 4) [SDefault (VNew 0 0); SOp (VAssign 0 0)] (sstate0 _) w) = Some UBLifetime /\
    crash (sany (vshared 4) [SDefault (VNew 0 0); SOp (VMoveAssign 0 0)] (sstate0 _) w) = Some UBLifetime /\
    crash (sany (ashared 4) [SDefault (ANew 0 0); SOp (AAssign 0 0)] (sstate0 _) w) = Some UBLifetime /\
    crash (sany (ashared 4) [SDefault (ANew 0 0); SOp (AMoveAssign 0 0)] (sstate0 _) w) = Some UBLifetime /\
    crash (sany (hshared 4 int4) [SDefault (HNew 0 0 0); SOp (HAssign 0 0)] (sstate0 _) w) = Some UBLifetime /\
    crash (sany (hshared 4 int4) [SDefault (HNew 0 0 0); SOp (HMoveAssign 0 0)] (sstate0 _) w) = Some UBLifetime.
Proof. exists (w_raw 0). exact self_assign_shared. Qed.
