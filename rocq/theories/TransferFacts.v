(** Comparison of allocators; counterexamples for moves. *)
From iris.proofmode Require Import tactics.
From Verif Require Import Base Mem Bits AlignedMalloc Allocators Checked Tree Transfer Client AllocSpec AllocProofs Slots
  Shared SharedProofs.

Local Open Scope N_scope.

(** No part of the composition is a global (global.h:42-50). *)
Fixpoint no_global (e : aexp) : bool :=
  match e with
  | ENull | EMalloc | ELinear _ | EStack _ => true
  | EFreelist _ _ e | ECascading e | EOverflow e | EShared e | EThreaded e | EReference e | EChecked e => no_global e
  | EFallback p f | ESegragator _ p f => no_global p && no_global f
  | EGlobal _ => false
  end.

Lemma same_refl pl e b s : Transfer.same pl e b s b s = true.
Proof.
  revert b s. induction e as [| | | |Min Max e IH|e IH|p IHp f IHf|TT p IHp f IHf|e IH|e IH|e IH|e IH|e IH|e IH];
    intros b s; cbn [Transfer.same]; rewrite ?N.eqb_refl; cbn [andb]; auto.
  - by rewrite IH.
  - by rewrite IHp IHf.
  - by rewrite IHp IHf.
Qed.

Lemma same_sym pl e b s b' s' : Transfer.same pl e b s b' s' = Transfer.same pl e b' s' b s.
Proof.
  revert b s b' s'. induction e as [| | | |Min Max e IH|e IH|p IHp f IHf|TT p IHp f IHf|e IH|e IH|e IH|e IH|e IH|e IH];
    intros b s b' s'; cbn [Transfer.same]; auto using N.eqb_sym.
  - by rewrite IH (N.eqb_sym (f_head s)).
  - by rewrite IHp IHf.
  - by rewrite IHp IHf.
  - by rewrite IH (N.eqb_sym (sh_block s)).
  - by rewrite IH (N.eqb_sym b).
Qed.

Lemma same_trans pl e b s b' s' b'' s'' : Transfer.same pl e b s b' s' = true -> Transfer.same pl e b' s' b'' s'' = true ->
  Transfer.same pl e b s b'' s'' = true.
Proof.
  revert b s b' s' b'' s''. induction e as [| | | |Min Max e IH|e IH|p IHp f IHf|TT p IHp f IHf|e IH|e IH|e IH|e IH|e IH|e IH];
    intros b s b' s' b'' s''; cbn [Transfer.same]; rewrite ?andb_true_iff ?N.eqb_eq; intros H1 H2;
    repeat match goal with H : _ /\ _ |- _ => destruct H end; split_and?; try congruence; eauto.
Qed.

Lemma same_equivalence pl e :
  (forall b s, Transfer.same pl e b s b s = true) /\
  (forall b s b' s', Transfer.same pl e b s b' s' = true -> Transfer.same pl e b' s' b s = true) /\
  (forall b s b' s' b'' s'', Transfer.same pl e b s b' s' = true -> Transfer.same pl e b' s' b'' s'' = true ->
     Transfer.same pl e b s b'' s'' = true).
Proof. split_and!; [apply same_refl|intros *; by rewrite same_sym|apply same_trans]. Qed.

Lemma differ_negb pl e b s b' s' : no_global e = true -> differ pl e b s b' s' = negb (Transfer.same pl e b s b' s').
Proof.
  revert b s b' s'. induction e as [| | | |Min Max e IH|e IH|p IHp f IHf|TT p IHp f IHf|e IH|e IH|e IH|e IH|e IH|e IH];
    intros b s b' s'; cbn [no_global Transfer.same differ]; rewrite ?negb_andb; try done; intros H.
  all: try (apply andb_true_iff in H as [H1 H2]).
  all: rewrite ?IH ?IHp ?IHf //.
Qed.

(** global: both operators answer true. *)
Lemma global_both : exists pl e b s b' s', wf e = true /\ Transfer.same pl e b s b' s' = true /\ differ pl e b s b' s' = true.
Proof. by exists PMalloc, (EGlobal EMalloc), 4096, tt, 4096, tt. Qed.

(** * Counterexamples *)

Lemma places2 n : (n <= 64)%nat -> places [4096; 4160] (N.of_nat n) (w_raw 128).
Proof.
  intros Hn. assert (HP : forall b, b = 4096 \/ b = 4160 -> place b (N.of_nat n) (w_raw 128)).
  { intros b Hb. destruct (w_raw_place 128) as (_&_&_&Hst&H0); [done|by vm_compute|].
    unfold place. split_and!; [by destruct Hb; subst| | | |done].
    - by destruct Hb; subst.
    - destruct Hb; subst; unfold W; lia.
    - intros i Hi. apply Hst. destruct Hb; subst; lia. }
  split.
  - repeat constructor; apply HP; auto.
  - intros [|[|i]] [|[|j]] b b' H1 H2 Hne; cbn in H1, H2; try done; injection H1 as <-; injection H2 as <-; lia.
Qed.

(** freelist over cascading: a block waits in the free list, none is outstanding.  The assertion
    in the move operations fails although nothing is wrong: the new object takes over the free
    block and in the end everything is given back. *)
Definition late_move (e : aexp) : M (N * N * nat) :=
  ' (_, sl) <- mrun PMalloc e [MNew 0; MUse 0 (OAlloc 16); MUse 0 (OFree 0)] [(4096, None); (4160, None)] ;;
  match sl !! 0%nat with
  | Some (b, Some (s, [])) =>
    ' (x, y) <- move_ctor PMalloc e 4160 b s ;;
    ' (p, x) <- a_alloc (den PMalloc e) 4160 x 16 ;;
    ' (q, y) <- a_alloc (den PMalloc e) b y 16 ;;
    x <- a_free (den PMalloc e) 4160 x p 16 ;;
    y <- a_free (den PMalloc e) b y q 16 ;;
    a_dtor (den PMalloc e) 4160 x ;;; a_dtor (den PMalloc e) b y ;;;
    h <- heap_blocks ;; ret (p, q, h)
  | _ => ret (0, 0, 0%nat)
  end.
Definition late_assign (e : aexp) : M (N * N * nat) :=
  ' (_, sl) <- mrun PMalloc e [MNew 0; MUse 0 (OAlloc 16); MUse 0 (OFree 0); MNew 1] [(4096, None); (4160, None)] ;;
  match sl !! 0%nat, sl !! 1%nat with
  | Some (b, Some (s, [])), Some (b', Some (d, [])) =>
    ' (x, y) <- move_assign PMalloc e b' d b s ;;
    ' (p, x) <- a_alloc (den PMalloc e) b' x 16 ;;
    ' (q, y) <- a_alloc (den PMalloc e) b y 16 ;;
    x <- a_free (den PMalloc e) b' x p 16 ;;
    y <- a_free (den PMalloc e) b y q 16 ;;
    a_dtor (den PMalloc e) b' x ;;; a_dtor (den PMalloc e) b y ;;;
    h <- heap_blocks ;; ret (p, q, h)
  | _, _ => ret (0, 0, 0%nat)
  end.
Lemma freelist_assert :
  exists e w p q, movable e = true /\ wf e = true /\ places [4096; 4160] (esize e) w /\ p <> 0 /\ q <> 0 /\
  outcome (late_move e w) = Some (p, q, 0%nat, [EvAssert AAny]) /\
  outcome (late_assign e w) = Some (p, q, 0%nat, [EvAssert AAny]).
Proof.
  exists (EFreelist 0 16 (ECascading (ELinear 64))), (w_raw 128).
  let r := eval vm_compute in (outcome (late_move (EFreelist 0 16 (ECascading (ELinear 64))) (w_raw 128))) in
  match r with Some (?p, ?q, _, _) => exists p, q | ?r => idtac r end.
  split_and!; [done|done|by apply (places2 0); lia|done|done|by vm_compute|by vm_compute].
Qed.

(** overflow: a block is exchanged between equal objects, everything is returned, and both report. *)
Lemma overflow_report :
  exists w, places [4096; 4160] (esize (EOverflow EMalloc)) w /\
  outcome (msession PMalloc (EOverflow EMalloc) [4096; 4160] [MNew 0; MNew 1; MUse 0 (OAlloc 16); MGive 0 1 0; MUse 1 (OFree 0)] w) =
  Some ([ObUnit; ObUnit; ObPtr 65600; ObBool true; ObUnit], [EvLeak 16; EvLeak (-16)]).
Proof. exists (w_raw 128). split; [by apply (places2 0); lia|by vm_compute]. Qed.

(** * Shared handles *)
Lemma shared_same pl e ready ops os q h h' x x' w w' ev w1 :
  N.of_nat (length ops) < W -> hrun pl (den pl e) ready ops pool0 w = Ok (os, q) w' ev ->
  p_hs q !! h = Some x -> p_hs q !! h' = Some x' -> (x <> None \/ x' <> None) ->
  hsame (den pl e) (Transfer.same pl e) h h' q w1 = Ok (bool_decide (x = x')) w1 [].
Proof.
  intros Hl Hr Hh Hh' Hx. pose proof (shared_exact pl (den pl e) ready ops w Hl) as HE. rewrite Hr in HE.
  unfold Shared.same in HE. destruct (srun pl (den pl e) ready ops family0 w) as [[os' f] ? ?|]; [|done].
  destruct HE as (_&_&_&_&_&_&_&Hb). cbn [snd] in Hb. unfold hsame, ptr. rewrite Hh Hh'.
  destruct (bool_decide (x = x')) eqn:E; [|done]. apply bool_decide_eq_true in E as <-.
  destruct x as [g|]; [|by destruct Hx]. destruct (proj2 (Hb g) (ex_intro _ h Hh)) as [k Hk]. rewrite Hk same_refl. done.
Qed.

Lemma shared_same_null :
  exists w, crash ((' (_, q) <- hrun PMalloc (mallocator PMalloc) (fun _ _ => true)
                                 [HNew 0; HMove 1 0; HMove 2 1] pool0 ;;
                    hsame (mallocator PMalloc) (Transfer.same PMalloc EMalloc) 0 1 q) w) = Some UBNull.
Proof. exists (w_raw 0). by vm_compute. Qed.
