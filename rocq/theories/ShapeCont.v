(** Programs over containers that differ in values and orders. *)
From iris.proofmode Require Import tactics.
From Verif Require Import Base Mem Bits AlignedMalloc Allocators Checked Tree Client Env Vector Array HeapPure Heap Mixed Rename Shape ShapeProofs.

Local Open Scope N_scope.
Local Notation scs := (Forall2 sc).
Local Notation any := (fun _ _ => True).

Definition lplace (p p' : place_of) : Prop := match p, p' with PVal _, PVal _ => True | PAddr a, PAddr a' => a = a' | _, _ => False end.
Definition larray (p p' : array_of) : Prop :=
  match p, p' with QVals l, QVals l' => length l = length l' | QAddr a n, QAddr a' n' => a = a' /\ n = n' | _, _ => False end.

Lemma dead_sim cs cs' : scs cs cs' -> forallb deadb cs = forallb deadb cs'.
Proof. induction 1 as [|c c' cs cs' Hc _ IH]; [done|]. destruct c, c'; cbn in Hc |- *; try done. Qed.

Lemma sim_stor n a v v' : sim eq (stor n a v) (stor n a v').
Proof. apply sim_wrs, scs_chunk. Qed.
Lemma sim_load n a : sim any (load n a) (load n a).
Proof.
  unfold load. apply (sim_bind scs); [apply sim_rds|]. intros cs cs' _.
  destruct (unchunk n cs), (unchunk n cs'); first [by apply sim_ret|apply sim_ubm|apply sim_ubm_r].
Qed.
Lemma sim_obj_get n a : sim any (obj_get n a) (obj_get n a).
Proof.
  unfold obj_get. apply (sim_bind scs); [apply sim_rds|]. intros cs cs' _.
  destruct (unochunk n cs), (unochunk n cs'); first [by apply sim_ret|apply sim_ubm|apply sim_ubm_r].
Qed.
Lemma sim_obj_set n a v v' : sim eq (obj_set n a v) (obj_set n a v').
Proof. unfold obj_set. apply (sim_bind any); [apply sim_obj_get|]. intros. apply sim_wrs, scs_ochunk. Qed.
Lemma sim_obj_new n a v v' : sim eq (obj_new n a v) (obj_new n a v').
Proof.
  unfold obj_new. apply (sim_bind scs); [apply sim_rds|]. intros cs cs' H. rewrite (dead_sim _ _ H).
  destruct (forallb deadb cs'); [apply sim_wrs, scs_ochunk|apply sim_ubm].
Qed.
Lemma sim_obj_del n a : sim eq (obj_del n a) (obj_del n a).
Proof. unfold obj_del. apply (sim_bind any); [apply sim_obj_get|]. intros. apply sim_wrs, scs_refl. Qed.
Lemma sim_obj_none a n : sim eq (obj_none a n) (obj_none a n).
Proof.
  unfold obj_none. apply (sim_bind scs); [apply sim_rds|]. intros cs cs' H. rewrite (dead_sim _ _ H).
  destruct (forallb deadb cs'); [by apply sim_ret|apply sim_ubm].
Qed.
Lemma sim_assign sz d src src' : lplace src src' -> sim eq (assign sz d src) (assign sz d src').
Proof.
  destruct src as [x|a], src' as [x'|a']; cbn; intros H; try done; [apply sim_stor|subst]. apply (sim_bind scs); [apply sim_rds|].
  intros cs cs' ?. by apply sim_wrs.
Qed.
Lemma sim_copy_in sz d src src' : larray src src' -> sim eq (copy_in sz d src) (copy_in sz d src').
Proof. destruct src as [l|a n], src' as [l'|a' n']; cbn; intros H; try done; [by apply sim_wrs, scs_chunks|destruct H; subst; apply sim_memcpy]. Qed.
Lemma larray_length src src' : larray src src' -> array_length src = array_length src'.
Proof. destruct src, src'; cbn; intros H; try done; [by rewrite H|by destruct H]. Qed.
Lemma sim_fill_n sz p n src src' : lplace src src' -> sim eq (fill_n sz p n src) (fill_n sz p n src').
Proof.
  intros H. revert p. induction n as [|n IH]; intros p; cbn [fill_n]; [apply sim_ret_eq|].
  apply sim_bind_eq; [by apply sim_assign|]. intros _. apply IH.
Qed.
Lemma sim_store_list sz p l l' : length l = length l' -> sim eq (store_list sz p l) (store_list sz p l').
Proof.
  revert l' p. induction l as [|x l IH]; intros [|x' l'] p H; try done; cbn [store_list]. injection H as H.
  apply sim_bind_eq; [by apply sim_assign|]. intros _. by apply IH.
Qed.
Lemma sim_done {Q} ob (q : Q) : sim (fun x x' => like_obs (fst x) (fst x') /\ snd x = snd x') (ret (ob, q)) (ret (ob, q)).
Proof. apply sim_ret. split; [by destruct ob|done]. Qed.

Section env.
  Context (A : alloc) (HA : asim A) (b : N).

  Lemma sim_te_alloc sz h n E : sim eq (te_alloc A b sz h n E) (te_alloc A b sz h n E).
  Proof. unfold te_alloc, ta_alloc. destruct HA. sim. Qed.
  Lemma sim_te_free sz h p n E : sim eq (te_free A b sz h p n E) (te_free A b sz h p n E).
  Proof. unfold te_free, ta_free. destruct HA. sim. Qed.
  Lemma sim_te_cd c h q act act' E : sim eq act act' -> sim eq (te_cd A b c h q act E) (te_cd A b c h q act' E).
  Proof.
    intros H. unfold te_cd, traits_cd. destruct (E !! h); [|apply sim_ubm]. apply sim_bind_eq; [|sim].
    destruct (a_cd A) as [o|] eqn:Eo; [by apply (as_cd _ HA)|]. apply sim_bind_eq; [done|]. sim.
  Qed.
  Lemma sim_init_all h k E : sim eq (init_all A b h k E) (init_all A b h k E).
  Proof.
    revert h E. induction k as [|k IH]; intros h E; cbn [init_all]; [apply sim_ret_eq|]. unfold te_init. destruct HA. sim.
  Qed.
  Lemma sim_dtor_all h k E : sim eq (dtor_all A b h k E) (dtor_all A b h k E).
  Proof.
    revert h E. induction k as [|k IH]; intros h E; cbn [dtor_all]; [apply sim_ret_eq|]. unfold te_dtor. destruct HA. sim.
  Qed.

  Section session.
    Context {X O : Type} (RO : O -> O -> Prop) (RA : O -> cobs -> cobs -> Prop).
    Local Notation state := (env A * gmap nat X)%type.
    Context (stp stp' : O -> state -> M (cobs * state)).
    Context (kill kill' : X -> env A -> M (env A)).
    Context (Hstp : forall o o' q, RO o o' -> sim (fun x x' => RA o (fst x) (fst x') /\ snd x = snd x') (stp o q) (stp' o' q)).
    Context (Hkill : forall x E, sim eq (kill x E) (kill' x E)).

    Lemma sim_crun ops ops' q : Forall2 RO ops ops' ->
      sim (fun x x' => Forall3 RA ops (fst x) (fst x') /\ snd x = snd x') (crun A stp ops q) (crun A stp' ops' q).
    Proof.
      intros H. revert q. induction H as [|o o' ops ops' Ho _ IH]; intros q; cbn [crun].
      - apply sim_ret. split; [constructor|done].
      - eapply sim_bind; [by apply Hstp|]. intros [ob q1] [ob' q1'] [Hob Hq1]. cbn in Hob, Hq1. subst q1'.
        eapply sim_bind; [by apply IH|]. intros [os q2] [os' q2'] [Hos Hq2]. apply sim_ret. split; [by constructor|done].
    Qed.
    Lemma sim_kill_all xs E : sim eq (kill_all A kill xs E) (kill_all A kill' xs E).
    Proof.
      revert E. induction xs as [|[i x] xs IH]; intros E; cbn [kill_all]; [apply sim_ret_eq|].
      apply sim_bind_eq; [by apply Hkill|]. apply IH.
    Qed.
    Lemma sim_csession k ops ops' : Forall2 RO ops ops' ->
      sim (Forall3 RA ops) (csession A b stp kill k ops) (csession A b stp' kill' k ops').
    Proof.
      intros H. unfold csession. apply sim_bind_eq; [apply sim_init_all|]. intros E.
      eapply sim_bind; [by apply sim_crun|].
      intros [os [E1 vs]] [os' q'] (Hos&Hq). cbn in Hos, Hq. subst q'.
      apply sim_bind_eq; [apply sim_kill_all|]. intros E2.
      apply sim_bind_eq; [apply sim_dtor_all|]. intros _. by apply sim_ret.
    Qed.
  End session.
End env.

(** * Vectors *)
Ltac simc :=
  repeat (intros; first
    [ solve [auto with sim]
    | by apply sim_done
    | apply sim_bind_eq
    | match goal with
      | |- sim _ (if ?c then _ else _) _ => destruct c
      | |- sim _ (match ?x with _ => _ end) _ => destruct x
      | |- sim _ (let '(_, _) := ?x in _) _ => destruct x
      end
    | by apply sim_emit ]).
Global Hint Resolve sim_te_alloc sim_te_free sim_assign sim_copy_in sim_fill_n sim_store_list : sim.

Section vector.
  Context (A : alloc) (HA : asim A) (b sz : N).

  Lemma sim_set_size v n E : sim eq (set_size A b sz v n E) (set_size A b sz v n E).
  Proof. unfold set_size. simc. Qed.
  Hint Resolve sim_set_size : sim.
  Lemma sim_expand v n E : sim eq (expand A b sz v n E) (expand A b sz v n E).
  Proof. unfold expand. simc. Qed.
  Lemma sim_new_n h n E : sim eq (new_n A b sz h n E) (new_n A b sz h n E).
  Proof. unfold new_n. simc. Qed.
  Hint Resolve sim_expand sim_new_n : sim.
  Lemma sim_copy_of h o E : sim eq (copy_of A b sz h o E) (copy_of A b sz h o E).
  Proof. unfold copy_of. simc. Qed.
  Lemma sim_release v E : sim eq (release A b sz v E) (release A b sz v E).
  Proof. unfold release. simc. Qed.
  Lemma sim_resize v n E : sim eq (resize A b sz v n E) (resize A b sz v n E).
  Proof. unfold resize. simc. Qed.
  Lemma sim_reserve v n E : sim eq (reserve A b sz v n E) (reserve A b sz v n E).
  Proof. unfold reserve. simc. Qed.
  Lemma sim_push_back v src src' E : lplace src src' -> sim eq (push_back A b sz v src E) (push_back A b sz v src' E).
  Proof. intros Hs. unfold push_back. simc. Qed.
  Lemma sim_push_back_range v src src' E : larray src src' -> sim eq (push_back_range A b sz v src E) (push_back_range A b sz v src' E).
  Proof. intros Hs. unfold push_back_range. rewrite (larray_length _ _ Hs). simc. Qed.
  Lemma sim_erase v it : sim eq (erase sz v it) (erase sz v it).
  Proof. unfold erase. simc. Qed.
  Lemma sim_erase_range v i j : sim eq (erase_range sz v i j) (erase_range sz v i j).
  Proof. unfold erase_range. simc. Qed.
  Hint Resolve sim_copy_of sim_release sim_resize sim_reserve sim_push_back sim_push_back_range sim_erase sim_erase_range : sim.

  Lemma locate_sim r r' vs : like_ref r r' -> lplace (locate sz r vs) (locate sz r' vs).
  Proof. destruct r, r'; cbn; intros H; try done. by injection H as -> ->. Qed.
  Lemma locate_range_sim g g' vs : like_range g g' -> larray (locate_range sz g vs) (locate_range sz g' vs).
  Proof. destruct g, g'; cbn; intros H; try done. by injection H as -> -> ->. Qed.
  Hint Resolve locate_sim locate_range_sim : sim.

  Lemma sim_vdo o o' q : like_vop o o' -> sim (fun x x' => like_obs (fst x) (fst x') /\ snd x = snd x') (vdo A b sz o q) (vdo A b sz o' q).
  Proof.
    intros H. destruct q as [E vs]. destruct o, o'; cbn in H; try done; try (injection H as H; subst); destruct_and?; subst; cbn [vdo];
      unfold vassign, vmove_assign;
      repeat match goal with
      | H : like_range ?g _ |- _ => apply (locate_range_sim _ _ vs) in H; rewrite ?(larray_length _ _ H)
      | H : like_ref _ _ |- _ => apply (locate_sim _ _ vs) in H
      | H : length ?l = length _ |- context [N.of_nat (length ?l)] => rewrite H
      end; try by simc.
    all: apply sim_bind_eq; [apply sim_assert|]; intros _; apply (sim_bind scs); [apply sim_rds|]; intros cs cs' _;
      by apply sim_ret.
  Qed.
  Lemma vlegal_sim k m o o' : like_vop o o' -> vlegal sz k m o = vlegal sz k m o'.
  Proof.
    intros H. destruct o, o'; cbn in H; try done; try (injection H as H; subst; done); destruct_and?; subst;
      repeat match goal with
      | H : like_ref ?r ?r' |- _ => destruct r, r'; cbn in H; try done; try (injection H as H); subst; clear H
      | H : like_range ?r ?r' |- _ => destruct r, r'; cbn in H; try done; try (injection H as H); subst; clear H
      end; done.
  Qed.
  Lemma sim_vstep k o o' q : like_vop o o' ->
    sim (fun x x' => like_obs (fst x) (fst x') /\ snd x = snd x') (vstep A b sz k o q) (vstep A b sz k o' q).
  Proof. intros H. unfold vstep. rewrite (vlegal_sim _ _ _ _ H). destruct (vlegal _ _ _ _); [by apply sim_vdo|by apply sim_done]. Qed.
End vector.

(** * Arrays *)
Section array.
  Context (A : alloc) (HA : asim A) (b sz : N).

  Lemma sim_anew_n h n E : sim eq (anew_n A b sz h n E) (anew_n A b sz h n E).
  Proof. unfold anew_n. simc. Qed.
  Hint Resolve sim_anew_n : sim.
  Lemma sim_acopy_of h o E : sim eq (acopy_of A b sz h o E) (acopy_of A b sz h o E).
  Proof. unfold acopy_of. simc. Qed.
  Lemma sim_arelease v E : sim eq (arelease A b sz v E) (arelease A b sz v E).
  Proof. unfold arelease. simc. Qed.
  Lemma sim_aresize v n E : sim eq (aresize A b sz v n E) (aresize A b sz v n E).
  Proof. unfold aresize. simc. Qed.
  Lemma sim_afrom v src src' E : larray src src' -> sim eq (afrom A b sz v src E) (afrom A b sz v src' E).
  Proof. intros Hs. unfold afrom. rewrite (larray_length _ _ Hs). simc. Qed.
  Hint Resolve sim_acopy_of sim_arelease sim_aresize sim_afrom : sim.

  Lemma alocate_sim r r' vs : like_ref r r' -> lplace (alocate sz r vs) (alocate sz r' vs).
  Proof. destruct r, r'; cbn; intros H; try done. by injection H as -> ->. Qed.
  Lemma alocate_range_sim g g' vs : like_range g g' -> larray (alocate_range sz g vs) (alocate_range sz g' vs).
  Proof. destruct g, g'; cbn; intros H; try done. by injection H as -> -> ->. Qed.
  Hint Resolve alocate_sim alocate_range_sim : sim.

  Lemma sim_ado o o' q : like_aop o o' -> sim (fun x x' => like_obs (fst x) (fst x') /\ snd x = snd x') (ado A b sz o q) (ado A b sz o' q).
  Proof.
    intros H. destruct q as [E vs]. destruct o, o'; cbn in H; try done; try (injection H as H; subst); destruct_and?; subst; cbn [ado];
      unfold aassign, amove_assign;
      repeat match goal with
      | H : like_range ?g _ |- _ => apply (alocate_range_sim _ _ vs) in H; rewrite ?(larray_length _ _ H)
      | H : like_ref _ _ |- _ => apply (alocate_sim _ _ vs) in H
      | H : length ?l = length _ |- context [N.of_nat (length ?l)] => rewrite H
      end; try by simc.
    all: apply sim_bind_eq; [apply sim_assert|]; intros _; apply (sim_bind scs); [apply sim_rds|]; intros cs cs' _;
      by apply sim_ret.
  Qed.
  Lemma alegal_sim k m o o' : like_aop o o' -> alegal sz k m o = alegal sz k m o'.
  Proof.
    intros H. destruct o, o'; cbn in H; try done; try (injection H as H; subst; done); destruct_and?; subst;
      repeat match goal with
      | H : like_ref ?r ?r' |- _ => destruct r, r'; cbn in H; try done; try (injection H as H); subst; clear H
      | H : like_range ?r ?r' |- _ => destruct r, r'; cbn in H; try done; try (injection H as H); subst; clear H
      end; done.
  Qed.
  Lemma sim_astep k o o' q : like_aop o o' ->
    sim (fun x x' => like_obs (fst x) (fst x') /\ snd x = snd x') (astep A b sz k o q) (astep A b sz k o' q).
  Proof. intros H. unfold astep. rewrite (alegal_sim _ _ _ _ H). destruct (alegal _ _ _ _); [by apply sim_ado|by apply sim_done]. Qed.
End array.

