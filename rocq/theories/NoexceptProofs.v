From Verif Require Import Base Mem Bits AlignedMalloc Allocators Checked Tree Laws Client AllocSpec Env Vector Array Heap Noexcept.

Section nx.
  Context (u : user).

  Lemma nx_plain e m : m = MOwns \/ m = MMaxSize \/ m = MDefault -> nx u e m = true.
  Proof.
    intros H. induction e; destruct H as [->|[->| ->]]; cbn [nx]; auto;
      rewrite ?IHe1, ?IHe2; done.
  Qed.
  Lemma nx_alloc e : nx u e MAllocate = negb (alloc_locks e).
  Proof.
    induction e; cbn [nx alloc_locks]; try done; rewrite ?negb_orb; try congruence.
    rewrite (nx_plain e MDefault), (nx_plain e MMaxSize), orb_true_r by auto. cbn [andb]. by rewrite andb_true_r.
  Qed.
  Lemma nx_free e : nx u e MDeallocate = negb (free_locks e).
  Proof.
    induction e; cbn [nx free_locks]; try done; rewrite ?negb_orb; try congruence.
    by rewrite nx_plain by auto.
  Qed.

  Lemma nx_new e : nothrow_new u = true -> nx u e MConstruct = true.
  Proof.
    intros H. induction e; cbn [nx]; try done; rewrite ?(nx_plain _ MOwns) by auto;
      rewrite ?IHe, ?IHe1, ?IHe2, ?H, ?orb_true_r; done.
  Qed.
  Lemma nx_del e : u_del u = true -> nx u e MDestroy = true.
  Proof.
    intros H. induction e; cbn [nx]; try done; rewrite ?(nx_plain _ MOwns) by auto;
      rewrite ?IHe, ?IHe1, ?IHe2, ?H, ?orb_true_r; done.
  Qed.
  Lemma nx_new_inv e : ecd e = true -> nx u e MConstruct = true -> nothrow_new u = true.
  Proof.
    induction e; cbn [nx ecd]; intros Hc H; try done; auto.
    - apply andb_true_iff in H as [_ H]. auto.
    - by apply andb_true_iff in H as [_ H].
    - by apply andb_true_iff in H as [_ H].
    - apply orb_true_iff in H as [H|H]; [|done]. apply andb_true_iff in H as [? H]. auto.
  Qed.
  Lemma nx_del_inv e : ecd e = true -> nx u e MDestroy = true -> u_del u = true.
  Proof.
    induction e; cbn [nx ecd]; intros Hc H; try done; auto.
    - apply andb_true_iff in H as [_ H]. auto.
    - by apply andb_true_iff in H as [_ H].
    - by apply andb_true_iff in H as [_ H].
    - apply orb_true_iff in H as [H|H]; [|done]. apply andb_true_iff in H as [? H]. auto.
  Qed.
  Lemma new_del : nothrow_new u = true -> u_new u = true.
  Proof. unfold nothrow_new. by destruct (u_new u). Qed.

  Lemma leaves_nx e m : leaves u e m -> nx u e m = false.
  Proof. by inversion 1. Qed.
  Lemma fails_call_nx e m : fails u (Call e m) -> nx u e m = false.
  Proof. inversion 1; subst. by apply leaves_nx. Qed.
  Lemma nofail e m : nx u e m = true -> ~ fails u (Call e m).
  Proof. intros H Hf. apply fails_call_nx in Hf. congruence. Qed.

  Lemma alloc_leaves e : leaves u e MAllocate <-> alloc_locks e = true.
  Proof.
    split.
    - intros H%leaves_nx. rewrite nx_alloc in H. by destruct (alloc_locks e).
    - assert (forall e, alloc_locks e = true -> nx u e MAllocate = false) as Hn by (intros ? H; by rewrite nx_alloc, H).
      induction e; cbn [alloc_locks]; intros H; try done;
        try (apply leaves_intro with (Call e MAllocate); [cbn; auto|by apply fails_call; auto|by apply Hn]).
      + destruct (alloc_locks e1) eqn:H1.
        * apply leaves_intro with (Call e1 MAllocate); [cbn; auto|apply fails_call; auto|by apply Hn; cbn [alloc_locks]; rewrite H1].
        * apply leaves_intro with (Call e2 MAllocate); [cbn; auto|apply fails_call; auto|by apply Hn; cbn [alloc_locks]; rewrite H1].
      + destruct (alloc_locks e1) eqn:H1.
        * apply leaves_intro with (Call e1 MAllocate); [cbn; auto|apply fails_call; auto|by apply Hn; cbn [alloc_locks]; rewrite H1].
        * apply leaves_intro with (Call e2 MAllocate); [cbn; auto|apply fails_call; auto|by apply Hn; cbn [alloc_locks]; rewrite H1].
      + apply leaves_intro with Lock; [cbn; auto|apply fails_lock|reflexivity].
  Qed.
  Lemma free_leaves e : leaves u e MDeallocate <-> free_locks e = true.
  Proof.
    split.
    - intros H%leaves_nx. rewrite nx_free in H. by destruct (free_locks e).
    - assert (forall e, free_locks e = true -> nx u e MDeallocate = false) as Hn by (intros ? H; by rewrite nx_free, H).
      induction e; cbn [free_locks]; intros H; try done;
        try (apply leaves_intro with (Call e MDeallocate); [cbn; auto|by apply fails_call; auto|by apply Hn]).
      + destruct (free_locks e1) eqn:H1.
        * apply leaves_intro with (Call e1 MDeallocate); [cbn; auto|apply fails_call; auto|by apply Hn; cbn [free_locks]; rewrite H1].
        * apply leaves_intro with (Call e2 MDeallocate); [cbn; auto|apply fails_call; auto|by apply Hn; cbn [free_locks]; rewrite H1].
      + destruct (free_locks e1) eqn:H1.
        * apply leaves_intro with (Call e1 MDeallocate); [cbn; auto|apply fails_call; auto|by apply Hn; cbn [free_locks]; rewrite H1].
        * apply leaves_intro with (Call e2 MDeallocate); [cbn; auto|apply fails_call; auto|by apply Hn; cbn [free_locks]; rewrite H1].
      + apply leaves_intro with Lock; [cbn; auto|apply fails_lock|reflexivity].
  Qed.

  (** To show that a member does not terminate: no action fails, or there is no clause; and no
      callee terminates. *)
  Lemma calm_intro e m : (nx u e m = true -> Forall (fun a => ~ fails u a) (calls e m)) ->
    Forall (fun a => forall e' m', a = Call e' m' -> ~ terminates u e' m') (calls e m) -> ~ terminates u e m.
  Proof.
    intros H1 H2 Ht. inversion Ht as [? ? a Ha Hf Hn|? ? e' m' Hin Hs]; subst.
    - specialize (H1 Hn). rewrite List.Forall_forall in H1. by apply (H1 _ Ha).
    - rewrite List.Forall_forall in H2. by apply (H2 _ Hin _ _ eq_refl).
  Qed.

  Ltac fa := repeat first [apply List.Forall_nil | apply List.Forall_cons].
  Ltac subcall := intros ? ? [= <- <-].

  Lemma calm_plain e m : m = MOwns \/ m = MMaxSize \/ m = MDefault -> ~ terminates u e m.
  Proof.
    intros Hm. assert (forall e, ~ fails u (Call e m)) as Hn by (intros; by apply nofail, nx_plain).
    induction e; apply calm_intro; try intros _;
      destruct Hm as [->|[->| ->]]; cbn [calls]; fa; try subcall; auto.
  Qed.

  Lemma calm_alloc e : ~ terminates u e MAllocate.
  Proof.
    induction e; apply calm_intro; cbn [calls app]; rewrite ?nx_alloc; cbn [alloc_locks]; try intros Hn; fa; try subcall; auto.
    all: try by apply nofail; rewrite nx_alloc.
    - by apply nofail, nx_plain; auto.
    - destruct (emax e); fa. by apply nofail, nx_plain; auto.
    - apply calm_plain; auto.
    - destruct (emax e); fa; subcall. apply calm_plain; auto.
    - apply nofail. rewrite nx_alloc. by destruct (alloc_locks e1).
    - apply nofail. rewrite nx_alloc. by destruct (alloc_locks e1), (alloc_locks e2).
    - apply nofail. rewrite nx_alloc. by destruct (alloc_locks e1).
    - apply nofail. rewrite nx_alloc. by destruct (alloc_locks e1), (alloc_locks e2).
    - done.
  Qed.

  Lemma calm_new e : ecd e = true -> ~ terminates u e MConstruct.
  Proof.
    assert (forall e, ~ fails u (Call e MOwns)) as Ho by (intros; apply nofail, nx_plain; auto).
    assert (forall e, ~ terminates u e MOwns) as Hto by (intros; apply calm_plain; auto).
    assert (nothrow_new u = true -> ~ fails u NewT) as Hnew.
    { intros Hn Hf. inversion Hf. apply new_del in Hn. congruence. }
    induction e; cbn [ecd]; intros Hc; try done; apply calm_intro; cbn [calls];
      try (intros Hn; cbn [nx] in Hn); fa; try subcall; auto; try by apply nofail.
    - apply andb_true_iff in Hn as [_ Hn]. by apply nofail.
    - apply andb_true_iff in Hn as [_ Hn]. eauto using nx_new_inv.
    - apply andb_true_iff in Hn as [[H1 H2]%andb_true_iff Hn]. apply Forall_app. split; [|apply Forall_app; split].
      + destruct (ecd e1); fa. by apply nofail.
      + destruct (ecd e2); fa. by apply nofail.
      + fa. auto.
    - apply Forall_app. split; [|apply Forall_app; split]; [destruct (ecd e1) eqn:H1|destruct (ecd e2) eqn:H2|]; fa; try subcall; auto.
    - apply andb_true_iff in Hn as [[H1 H2]%andb_true_iff Hn]. apply Forall_app. split; [|apply Forall_app; split].
      + destruct (ecd e1); fa. by apply nofail.
      + destruct (ecd e2); fa. by apply nofail.
      + fa. auto.
    - apply Forall_app. split; [|apply Forall_app; split]; [destruct (ecd e1) eqn:H1|destruct (ecd e2) eqn:H2|]; fa; try subcall; auto.
    - destruct (ecd e) eqn:He; fa.
      + apply nofail. apply orb_true_iff in Hn as [Hn|Hn]; [by apply andb_true_iff in Hn as [_ Hn]|by apply nx_new].
      + apply orb_true_iff in Hn as [Hn|Hn]; [done|auto].
    - destruct (ecd e) eqn:He; fa; subcall; auto.
  Qed.
  Lemma calm_del e : ecd e = true -> ~ terminates u e MDestroy.
  Proof.
    assert (forall e, ~ fails u (Call e MOwns)) as Ho by (intros; apply nofail, nx_plain; auto).
    assert (forall e, ~ terminates u e MOwns) as Hto by (intros; apply calm_plain; auto).
    assert (u_del u = true -> ~ fails u DelT) as Hnew.
    { intros Hn Hf. inversion Hf. congruence. }
    induction e; cbn [ecd]; intros Hc; try done; apply calm_intro; cbn [calls];
      try (intros Hn; cbn [nx] in Hn); fa; try subcall; auto; try by apply nofail.
    - apply andb_true_iff in Hn as [_ Hn]. by apply nofail.
    - apply andb_true_iff in Hn as [_ Hn]. eauto using nx_del_inv.
    - apply andb_true_iff in Hn as [[H1 H2]%andb_true_iff Hn]. apply Forall_app. split; [|apply Forall_app; split].
      + destruct (ecd e1); fa. by apply nofail.
      + destruct (ecd e2); fa. by apply nofail.
      + fa. auto.
    - apply Forall_app. split; [|apply Forall_app; split]; [destruct (ecd e1) eqn:H1|destruct (ecd e2) eqn:H2|]; fa; try subcall; auto.
    - apply andb_true_iff in Hn as [[H1 H2]%andb_true_iff Hn]. apply Forall_app. split; [|apply Forall_app; split].
      + destruct (ecd e1); fa. by apply nofail.
      + destruct (ecd e2); fa. by apply nofail.
      + fa. auto.
    - apply Forall_app. split; [|apply Forall_app; split]; [destruct (ecd e1) eqn:H1|destruct (ecd e2) eqn:H2|]; fa; try subcall; auto.
    - destruct (ecd e) eqn:He; fa.
      + apply nofail. apply orb_true_iff in Hn as [Hn|Hn]; [by apply andb_true_iff in Hn as [_ Hn]|by apply nx_del].
      + apply orb_true_iff in Hn as [Hn|Hn]; [done|auto].
    - destruct (ecd e) eqn:He; fa; subcall; auto.
  Qed.

  (** ** Deallocation, destruction *)
  Context (Hout : u_out u = true).

  Lemma no_print : ~ fails u Print.
  Proof. inversion 1. congruence. Qed.

  Lemma stops_calm e : (stops false e = false -> ~ terminates u e MDtor) /\ (stops true e = false -> ~ terminates u e MDeallocate).
  Proof.
    pose proof no_print as Hp.
    assert (forall e, ~ fails u (Call e MOwns)) as Ho by (intros; apply nofail, nx_plain; auto).
    assert (forall e, ~ terminates u e MOwns) as Hto by (intros; apply calm_plain; auto).
    assert (forall e, ~ fails u (Call e MDtor)) as Hd by (intros e0; apply nofail; by destruct e0).
    assert (forall e, free_locks e = false -> ~ fails u (Call e MDeallocate)) as Hfr
      by (intros ? H; apply nofail; by rewrite nx_free, H).
    assert (forall p f, negb (free_locks p || free_locks f) = true -> free_locks p = false /\ free_locks f = false) as Hor
      by (intros p f; by destruct (free_locks p), (free_locks f)).
    induction e as [| | | |? ? e IH|e IH|p IHp f IHf|? p IHp f IHf|e IH|e IH|e IH|e IH|e IH|e IH];
      (split; intros H; cbn [stops andb negb] in H; apply calm_intro; cbn [calls]; rewrite ?nx_free; cbn [free_locks]; try intros Hn; fa; try subcall; auto);
      repeat match goal with H : _ || _ = false |- _ => apply orb_false_iff in H as [? ?] end;
      try (apply Hor in Hn as [? ?]); auto;
      try (by apply IH); try (by apply IHp); try (by apply IHf);
      try (apply Hfr; by destruct (free_locks e)); try done.
  Qed.

  Lemma stops_terminates e : (stops false e = true -> terminates u e MDtor) /\ (stops true e = true -> terminates u e MDeallocate).
  Proof.
    induction e; (split; intros H; cbn [stops andb negb] in H; rewrite ?orb_false_r in H; try done;
      repeat match goal with H : _ || _ = true |- _ => apply orb_true_iff in H as [H|H] end).
    all: repeat match goal with IH : _ /\ _ |- _ => destruct IH end.
    all: try by (eapply terminates_call; [|match goal with IH : _ -> terminates _ _ _ |- _ => apply IH; eassumption end]; cbn; auto).
    all: apply terminates_here with (Call e MDeallocate); [cbn; auto| |done]; by apply fails_call, free_leaves.
  Qed.

  Lemma dtor_iff e : terminates u e MDtor <-> stops false e = true.
  Proof.
    split; [|apply stops_terminates]. intros H. destruct (stops false e) eqn:Hs; [done|].
    by destruct (proj1 (stops_calm e) Hs).
  Qed.
  Lemma dealloc_iff e : terminates u e MDeallocate <-> stops true e = true.
  Proof.
    split; [|apply stops_terminates]. intros H. destruct (stops true e) eqn:Hs; [done|].
    by destruct (proj2 (stops_calm e) Hs).
  Qed.

  Lemma quiet_stops e : quiet_lists e = true -> forall b, stops b e = false.
  Proof.
    induction e; cbn [quiet_lists stops]; intros H b; try done; auto.
    - apply andb_true_iff in H as [H1 H2]. rewrite !IHe by done. destruct (free_locks e); [done|]. by destruct b.
    - rewrite !IHe by done. by destruct b.
    - apply andb_true_iff in H as [H1 H2]. by rewrite IHe1, IHe2.
    - apply andb_true_iff in H as [H1 H2]. by rewrite IHe1, IHe2.
    - rewrite IHe by done. by destruct b.
    - rewrite IHe by done. by destruct b.
  Qed.

  Lemma quiet_assign_stays e : quiet_lists e = true -> ~ leaves u e MAssign.
  Proof.
    induction e; cbn [quiet_lists]; intros H Hl; inversion Hl as [? ? a Ha Hf Hn]; subst; cbn [calls In] in Ha;
      try (apply andb_true_iff in H as [H1 H2]);
      repeat match goal with H : _ \/ _ |- _ => destruct H as [<-|H] end; try done;
      try (inversion Hf; subst; naive_solver).
    - apply fails_call_nx in Hf. rewrite nx_free in Hf. by rewrite H1 in Hf.
    - by apply fails_call_nx in Hf; destruct e.
  Qed.

  Lemma quiet_assign e : quiet_lists e = true -> ~ terminates u e MAssign.
  Proof.
    assert (forall e, ~ fails u (Call e MDtor)) as Hd by (intros e0; apply nofail; by destruct e0).
    induction e; cbn [quiet_lists]; intros H; apply calm_intro; cbn [calls]; try intros Hn; fa; try subcall; auto.
    all: try (apply andb_true_iff in H as [H1 H2]); auto.
    all: try (intros Hf; inversion Hf; subst; by eapply quiet_assign_stays; [|eassumption]).
    all: try (rewrite dtor_iff, quiet_stops by done; done).
    all: try (rewrite dealloc_iff, quiet_stops by done; done).
    apply nofail. by rewrite nx_free.
  Qed.

  Lemma quiet_set e : quiet_lists e = true -> ~ terminates u e MSet.
  Proof.
    induction e; cbn [quiet_lists]; intros H; apply calm_intro; cbn [calls]; try intros Hn; fa; try subcall; auto.
    - intros Hf; inversion Hf; subst. by eapply quiet_assign_stays; [|eassumption].
    - by apply quiet_assign.
    - intros Hf; inversion Hf; subst. assert (nx u e MSet = true) by (by destruct e).
      match goal with H : leaves _ _ MSet |- _ => apply leaves_nx in H end. congruence.
  Qed.

  (** ** Assignment *)
  Lemma nx_assign e : assigns e = true -> nx u e MAssign = asg_clause e.
  Proof.
    induction e; cbn [assigns nx asg_clause]; intros H; try done; auto.
    - by rewrite H, IHe.
    - destruct (assigns e); [by rewrite IHe|done].
    - apply andb_true_iff in H as [? ?]. by rewrite IHe1, IHe2.
    - apply andb_true_iff in H as [? ?]. by rewrite IHe1, IHe2.
  Qed.
  Lemma leaves_iff e m : leaves u e m <-> nx u e m = false /\ Exists (fails u) (calls e m).
  Proof.
    rewrite List.Exists_exists. split; [inversion 1; subst; eauto|]. intros [? (a & ? & ?)]. by eapply leaves_intro.
  Qed.
  Lemma fails_call_iff e m : fails u (Call e m) <-> leaves u e m.
  Proof. split; [by inversion 1|apply fails_call]. Qed.
  Lemma terminates_iff e m : terminates u e m <->
    (nx u e m = true /\ Exists (fails u) (calls e m)) \/
    Exists (fun a => match a with Call e' m' => terminates u e' m' | _ => False end) (calls e m).
  Proof.
    rewrite !List.Exists_exists. split.
    - inversion 1; subst; [left; eauto|right; eexists; split; [eassumption|done]].
    - intros [[? (a & ? & ?)]|(a & ? & ?)]; [by eapply terminates_here|].
      destruct a; try done. by eapply terminates_call.
  Qed.
  Lemma never_leaves_dtor e : leaves u e MDtor <-> False.
  Proof. split; [|done]. intros H%leaves_nx. by destruct e. Qed.

  Lemma assign_leaves e : assigns e = true -> (leaves u e MAssign <-> asg_leaves e = true).
  Proof.
    induction e; intros H; rewrite leaves_iff, nx_assign by done; cbn [assigns] in H; cbn [calls asg_clause asg_leaves];
      rewrite ?List.Exists_cons, ?List.Exists_nil, ?fails_call_iff, ?never_leaves_dtor, ?free_leaves;
      try (apply andb_true_iff in H as [? ?]); rewrite ?IHe, ?IHe1, ?IHe2 by done; try naive_solver;
      rewrite ?andb_true_iff, ?orb_true_iff, ?negb_true_iff; try naive_solver.
    split; [naive_solver|]. intros H'. split; [|by left]. apply (IHe H), leaves_nx in H'. by rewrite nx_assign in H'.
  Qed.
  Lemma assign_iff e : assigns e = true -> (terminates u e MAssign <-> asg_stops e = true).
  Proof.
    induction e; intros H; rewrite terminates_iff, nx_assign by done; cbn [assigns] in H; cbn [calls asg_clause asg_stops];
      rewrite ?List.Exists_cons, ?List.Exists_nil, ?fails_call_iff, ?never_leaves_dtor, ?free_leaves, ?dtor_iff, ?dealloc_iff;
      try (apply andb_true_iff in H as [? ?]); rewrite ?IHe, ?IHe1, ?IHe2 by done; try (intuition (try congruence); fail);
      rewrite ?orb_true_iff, ?andb_true_iff.
    - assert (asg_clause e = true -> ~ leaves u e MAssign) by (intros Hc Hl%leaves_nx; rewrite nx_assign in Hl by done; congruence). tauto.
    - assert (asg_clause e1 = true -> ~ leaves u e1 MAssign) by (intros Hc Hl%leaves_nx; rewrite nx_assign in Hl by done; congruence).
      assert (asg_clause e2 = true -> ~ leaves u e2 MAssign) by (intros Hc Hl%leaves_nx; rewrite nx_assign in Hl by done; congruence). tauto.
    - assert (asg_clause e1 = true -> ~ leaves u e1 MAssign) by (intros Hc Hl%leaves_nx; rewrite nx_assign in Hl by done; congruence).
      assert (asg_clause e2 = true -> ~ leaves u e2 MAssign) by (intros Hc Hl%leaves_nx; rewrite nx_assign in Hl by done; congruence). tauto.
    - assert (asg_clause e = true -> ~ leaves u e MAssign) by (intros Hc Hl%leaves_nx; rewrite nx_assign in Hl by done; congruence). tauto.
  Qed.
  Lemma set_iff e : assigns e = true -> (terminates u (EGlobal e) MSet <-> asg_stops e || asg_leaves e = true).
  Proof.
    intros H. rewrite terminates_iff. cbn [calls nx]. rewrite ?List.Exists_cons, ?List.Exists_nil, fails_call_iff, assign_leaves, assign_iff by done.
    rewrite orb_true_iff. naive_solver.
  Qed.

  Lemma quiet_calm e m : quiet_lists e = true -> has e m = true -> ~ terminates u e m.
  Proof.
    intros Hq Hh. destruct m; cbn [has] in Hh.
    - apply calm_alloc.
    - rewrite dealloc_iff, quiet_stops; done.
    - apply calm_plain; auto.
    - apply calm_plain; auto.
    - by apply calm_new.
    - by apply calm_del.
    - apply calm_plain; auto.
    - by apply quiet_assign.
    - by apply quiet_set.
    - rewrite dtor_iff, quiet_stops; done.
  Qed.

  (** ** Containers *)
  Lemma vector_iff e o : quiet_lists e = true ->
    op_terminates u (vnx o) (vcalls e o) <->
    vnx o = true /\ (In (Call e MAllocate) (vcalls e o) /\ alloc_locks e = true \/
                     In (Call e MDeallocate) (vcalls e o) /\ free_locks e = true).
  Proof.
    intros Hq.
    assert (~ fails u (Call e MAssign)) as H1 by (intros Hf; inversion Hf; subst; by eapply quiet_assign_stays; [|eassumption]).
    assert (~ fails u (Call e MDtor)) as H2 by (apply nofail; by destruct e).
    split.
    - intros [[Hc (a & Ha & Hf)]|(e' & m & Hin & Ht)].
      + split; [done|]. assert (a = Call e MAllocate \/ a = Call e MDeallocate \/ a = Call e MAssign \/ a = Call e MDtor) as Hc'
          by (destruct o; cbn [vcalls In] in Ha; naive_solver).
        destruct Hc' as [->|[->|[->| ->]]]; try done.
        * left. split; [done|]. inversion Hf; subst. by apply alloc_leaves.
        * right. split; [done|]. inversion Hf; subst. by apply free_leaves.
      + exfalso. assert (e' = e /\ (m = MAllocate \/ m = MDeallocate \/ m = MAssign \/ m = MDtor)) as [-> Hm]
          by (destruct o; cbn [vcalls In] in Hin; naive_solver).
        destruct Hm as [->|[->|[->| ->]]].
        * by apply calm_alloc in Ht.
        * rewrite dealloc_iff, quiet_stops in Ht; done.
        * by apply quiet_assign in Ht.
        * rewrite dtor_iff, quiet_stops in Ht; done.
    - intros [Hc [[Hin Hl]|[Hin Hl]]]; left; (split; [done|]).
      + exists (Call e MAllocate). split; [done|]. by apply fails_call, alloc_leaves.
      + exists (Call e MDeallocate). split; [done|]. by apply fails_call, free_leaves.
  Qed.
  Lemma array_iff e o : quiet_lists e = true ->
    op_terminates u (anx o) (acalls e o) <->
    anx o = true /\ (In (Call e MAllocate) (acalls e o) /\ alloc_locks e = true \/
                     In (Call e MDeallocate) (acalls e o) /\ free_locks e = true).
  Proof.
    intros Hq.
    assert (~ fails u (Call e MAssign)) as H1 by (intros Hf; inversion Hf; subst; by eapply quiet_assign_stays; [|eassumption]).
    assert (~ fails u (Call e MDtor)) as H2 by (apply nofail; by destruct e).
    split.
    - intros [[Hc (a & Ha & Hf)]|(e' & m & Hin & Ht)].
      + split; [done|]. assert (a = Call e MAllocate \/ a = Call e MDeallocate \/ a = Call e MAssign \/ a = Call e MDtor) as Hc'
          by (destruct o; cbn [acalls In] in Ha; naive_solver).
        destruct Hc' as [->|[->|[->| ->]]]; try done.
        * left. split; [done|]. inversion Hf; subst. by apply alloc_leaves.
        * right. split; [done|]. inversion Hf; subst. by apply free_leaves.
      + exfalso. assert (e' = e /\ (m = MAllocate \/ m = MDeallocate \/ m = MAssign \/ m = MDtor)) as [-> Hm]
          by (destruct o; cbn [acalls In] in Hin; naive_solver).
        destruct Hm as [->|[->|[->| ->]]].
        * by apply calm_alloc in Ht.
        * rewrite dealloc_iff, quiet_stops in Ht; done.
        * by apply quiet_assign in Ht.
        * rewrite dtor_iff, quiet_stops in Ht; done.
    - intros [Hc [[Hin Hl]|[Hin Hl]]]; left; (split; [done|]).
      + exists (Call e MAllocate). split; [done|]. by apply fails_call, alloc_leaves.
      + exists (Call e MDeallocate). split; [done|]. by apply fails_call, free_leaves.
  Qed.

  Lemma heap_calm e o : u_new u = true -> u_asg u = true -> u_del u = true -> u_cmp u = true ->
    alloc_locks e = false -> free_locks e = false -> quiet_lists e = true ->
    ~ op_terminates u (hnx u o) (hcalls e o) /\ ~ op_leaves u (hnx u o) (hcalls e o).
  Proof.
    intros Hw Hg Hd Hc Ha Hf Hq.
    assert (nothrow_new u = true) as Hnn by (unfold nothrow_new; by rewrite Hw, Hd).
    assert (forall a, In a (hcalls e o) -> a = Call e MAllocate \/ a = Call e MDeallocate \/ a = Call e MAssign \/ a = Call e MDtor \/
      a = NewT \/ a = AsgT \/ a = DelT \/ a = CmpT \/ (ecd e = true /\ (a = Call e MConstruct \/ a = Call e MDestroy))) as Hin.
    { intros a Hi. unfold hcalls, tnew, tdel in Hi. destruct (ecd e); destruct o; cbn [In app] in Hi; naive_solver. }
    assert (forall a, In a (hcalls e o) -> ~ fails u a) as Hnf.
    { intros a Hi Hfa. apply Hin in Hi. destruct Hi as [->|[->|[->|[->|[->|[->|[->|[->|[He [->| ->]]]]]]]]]];
        try (inversion Hfa; congruence).
      - apply fails_call_nx in Hfa. rewrite nx_alloc, Ha in Hfa. done.
      - apply fails_call_nx in Hfa. rewrite nx_free, Hf in Hfa. done.
      - inversion Hfa; subst. by eapply quiet_assign_stays; [|eassumption].
      - apply fails_call_nx in Hfa. by destruct e.
      - apply fails_call_nx in Hfa. by rewrite nx_new in Hfa.
      - apply fails_call_nx in Hfa. by rewrite nx_del in Hfa. }
    split.
    - intros [[_ (a & Hi & Hfa)]|(e' & m & Hi & Ht)]; [by eapply Hnf|].
      assert (e' = e /\ (m = MAllocate \/ m = MDeallocate \/ m = MAssign \/ m = MDtor \/ (ecd e = true /\ (m = MConstruct \/ m = MDestroy)))) as [-> Hm]
        by (apply Hin in Hi; naive_solver).
      destruct Hm as [->|[->|[->|[->|[He [->| ->]]]]]].
      + by apply calm_alloc in Ht.
      + rewrite dealloc_iff, quiet_stops in Ht; done.
      + by apply quiet_assign in Ht.
      + rewrite dtor_iff, quiet_stops in Ht; done.
      + by apply calm_new in Ht.
      + by apply calm_del in Ht.
    - intros [_ (a & Hi & Hfa)]. by eapply Hnf.
  Qed.

  (** Whatever may fail in an operation of a heap that is declared noexcept terminates. *)
  Lemma heap_growth e c r : alloc_locks e || free_locks e = true \/ u_new u = false /\ ecd e = false ->
    op_terminates u (hnx u (HInsert c r)) (hcalls e (HInsert c r)).
  Proof.
    intros H. left. split; [done|]. destruct H as [[H|H]%orb_true_iff|[H He]].
    - exists (Call e MAllocate). split; [cbn; auto|]. by apply fails_call, alloc_leaves.
    - exists (Call e MDeallocate). split; [cbn; auto|]. by apply fails_call, free_leaves.
    - exists NewT. split; [|by apply fails_new]. cbn [hcalls]. unfold tnew. rewrite He. cbn; auto.
  Qed.
End nx.

(** * The tables of calls against the executable models *)
Lemma vcalls_complete A b sz k e o (q : env A * gmap nat vec) (keep : member -> bool) :
  (forall m, In (Call e m) (vcalls e o) -> keep m = true) ->
  vstep (mute keep A) b sz k o q = vstep A b sz k o q.
Proof.
  intros H. destruct o; cbn [vcalls In] in H;
    try (assert (keep MAllocate = true) as Ha by (apply H; auto));
    try (assert (keep MDeallocate = true) as Hf by (apply H; auto)); clear H;
    unfold mute; rewrite ?Ha, ?Hf; reflexivity.
Qed.
Lemma acalls_complete A b sz k e o (q : env A * gmap nat arr) (keep : member -> bool) :
  (forall m, In (Call e m) (acalls e o) -> keep m = true) ->
  astep (mute keep A) b sz k o q = astep A b sz k o q.
Proof.
  intros H. destruct o; cbn [acalls In] in H;
    try (assert (keep MAllocate = true) as Ha by (apply H; auto));
    try (assert (keep MDeallocate = true) as Hf by (apply H; auto)); clear H;
    unfold mute; rewrite ?Ha, ?Hf; reflexivity.
Qed.
Lemma hcalls_complete A b sz T comp eqv k e o (q : env A * gmap nat heap) (keep : member -> bool) :
  (forall m, In (Call e m) (hcalls e o) -> keep m = true) ->
  hstep (mute keep A) b sz T comp eqv k o q = hstep A b sz T comp eqv k o q.
Proof.
  intros H. destruct o; cbn [hcalls In app] in H;
    try (assert (keep MAllocate = true) as Ha by (apply H; auto));
    try (assert (keep MDeallocate = true) as Hf by (apply H; auto 10)); clear H;
    unfold mute; rewrite ?Ha, ?Hf; reflexivity.
Qed.

(** The lists contain nothing superfluous. *)
Definition vsample (o : vop) : list vop * vop :=
  let l := [Val 1; Val 2] in let two := [VNewList 0 l 0; VNewList 1 l 0] in
  match o with
  | VNewN _ _ _ => ([], VNewN 0 2 0)
  | VNewFill _ _ _ _ => ([], VNewFill 0 2 (RVal (Val 1)) 0)
  | VNewList _ _ _ => ([], VNewList 0 l 0)
  | VNewRange _ _ _ => ([], VNewRange 0 (GVals l) 0)
  | VCopy _ _ => (two, VCopy 2 0)
  | VCopyAl _ _ _ => (two, VCopyAl 2 0 0)
  | VMoveAl _ _ _ => (two, VMoveAl 2 0 0)
  | VDestroy _ => (two, VDestroy 0)
  | VAssign _ _ => (two, VAssign 0 1)
  | VMoveAssign _ _ => (two, VMoveAssign 0 1)
  | VResize _ _ => (two, VResize 0 5)
  | VReserve _ _ => (two, VReserve 0 5)
  | VPush _ _ => (two, VPush 0 (RVal (Val 3)))
  | VPushRange _ _ => (two, VPushRange 0 (GVals l))
  | o => ([], o)
  end.
Lemma vmakes_all e o m : In (Call e m) (vcalls e o) -> m = MAllocate \/ m = MDeallocate -> vmakes m o.
Proof.
  intros H Hm. exists (mallocator PMalloc), 1, (fst (vsample o)), (snd (vsample o)), (w_raw 0).
  destruct o; cbn [vcalls In] in H; destruct Hm as [-> | ->];
    try (exfalso; naive_solver); (split; [done|]); clear H; by vm_compute.
Qed.
Definition asample (o : aop) : list aop * aop :=
  let l := [Val 1; Val 2] in let two := [ANewList 0 l 0; ANewList 1 l 0] in
  match o with
  | ANewN _ _ _ => ([], ANewN 0 2 0)
  | ANewFill _ _ _ _ => ([], ANewFill 0 2 (RVal (Val 1)) 0)
  | ANewList _ _ _ => ([], ANewList 0 l 0)
  | ANewRange _ _ _ => ([], ANewRange 0 (GVals l) 0)
  | ACopy _ _ => (two, ACopy 2 0)
  | ACopyAl _ _ _ => (two, ACopyAl 2 0 0)
  | AMoveAl _ _ _ => (two, AMoveAl 2 0 0)
  | ADestroy _ => (two, ADestroy 0)
  | AAssign _ _ => (two, AAssign 0 1)
  | AMoveAssign _ _ => (two, AMoveAssign 0 1)
  | AResize _ _ => (two, AResize 0 5)
  | AFrom _ _ => (two, AFrom 0 (GVals [Val 7]))
  | o => ([], o)
  end.
Lemma amakes_all e o m : In (Call e m) (acalls e o) -> m = MAllocate \/ m = MDeallocate -> amakes m o.
Proof.
  intros H Hm. exists (mallocator PMalloc), 1, (fst (asample o)), (snd (asample o)), (w_raw 0).
  destruct o; cbn [acalls In] in H; destruct Hm as [-> | ->];
    try (exfalso; naive_solver); (split; [done|]); clear H; by vm_compute.
Qed.
Definition hsample (o : hop) : list hop * hop :=
  let l := [Val 1; Val 2] in let two := [HNewList 0 l 0 0; HNewList 1 l 0 0] in
  match o with
  | HNewCap _ _ _ _ => ([], HNewCap 0 2 0 0)
  | HNewList _ _ _ _ => ([], HNewList 0 l 0 0)
  | HCopy _ _ => (two, HCopy 2 0)
  | HCopyAl _ _ _ => (two, HCopyAl 2 0 0)
  | HMoveAl _ _ _ => (two, HMoveAl 2 0 0)
  | HDestroy _ => (two, HDestroy 0)
  | HAssign _ _ => (two, HAssign 0 1)
  | HMoveAssign _ _ => (two, HMoveAssign 0 1)
  | HReserve _ _ => (two, HReserve 0 5)
  | HInsert _ _ => (two, HInsert 0 (RVal (Val 3)))
  | o => ([], o)
  end.
Lemma hmakes_all e o m : In (Call e m) (hcalls e o) -> m = MAllocate \/ m = MDeallocate ->
  (forall c l q h, o = HNewList c l q h -> m = MAllocate) -> hmakes m o.
Proof.
  intros H Hm Hl. exists (mallocator PMalloc), 1, (Elt true (fun v => v)), (fun _ _ _ => true), (fun _ _ => true), (fst (hsample o)), (snd (hsample o)), (w_raw 0).
  unfold hcalls, tnew, tdel in H.
  destruct o; destruct (ecd e); cbn [In app] in H; destruct Hm as [-> | ->];
    try (exfalso; naive_solver); try (exfalso; by specialize (Hl _ _ _ _ eq_refl)); (split; [done|]); clear H; by vm_compute.
Qed.

(** Construction and destruction: the clauses and the exceptions follow the element type. *)
Lemma construct_leaves u e : ecd e = true ->
  ((nx u e MConstruct = true <-> nothrow_new u = true) /\ (u_new u = false -> leaves u e MConstruct)) /\
  ((nx u e MDestroy = true <-> u_del u = true) /\ (u_del u = false -> leaves u e MDestroy)).
Proof.
  intros He. assert (forall e, ecd e = true -> u_new u = false -> nx u e MConstruct = false) as Hc.
  { intros e0 H0 Hn. destruct (nx u e0 MConstruct) eqn:Hx; [|done]. apply nx_new_inv in Hx; [|done].
    apply new_del in Hx. congruence. }
  assert (forall e, ecd e = true -> u_del u = false -> nx u e MDestroy = false) as Hd.
  { intros e0 H0 Hn. destruct (nx u e0 MDestroy) eqn:Hx; [|done]. apply nx_del_inv in Hx; [|done]. congruence. }
  split; (split; [split; [by apply nx_new_inv || by apply nx_del_inv|apply nx_new || apply nx_del]|]).
  - intros Hn. induction e; cbn [ecd] in He; try done;
      try (apply leaves_intro with (Call e MConstruct); [cbn; auto|by apply fails_call; auto|by apply Hc]);
      try (apply leaves_intro with NewT; [cbn [calls]; right; apply in_or_app; right; apply in_or_app; right; by left|by apply fails_new|by apply Hc]).
    destruct (ecd e) eqn:Hi.
    + apply leaves_intro with (Call e MConstruct); [cbn; rewrite Hi; cbn; auto|by apply fails_call; auto|by apply Hc].
    + apply leaves_intro with NewT; [cbn; rewrite Hi; cbn; auto|by apply fails_new|by apply Hc].
  - intros Hn. induction e; cbn [ecd] in He; try done;
      try (apply leaves_intro with (Call e MDestroy); [cbn; auto|by apply fails_call; auto|by apply Hd]);
      try (apply leaves_intro with DelT; [cbn [calls]; right; apply in_or_app; right; apply in_or_app; right; by left|by apply fails_del|by apply Hd]).
    destruct (ecd e) eqn:Hi.
    + apply leaves_intro with (Call e MDestroy); [cbn; rewrite Hi; cbn; auto|by apply fails_call; auto|by apply Hd].
    + apply leaves_intro with DelT; [cbn; rewrite Hi; cbn; auto|by apply fails_del|by apply Hd].
Qed.

(** * The theorems *)
Lemma clauses_exact u e :
  ((nx u e MAllocate = true <-> alloc_locks e = false) /\ (leaves u e MAllocate <-> alloc_locks e = true)) /\
  ((nx u e MDeallocate = true <-> free_locks e = false) /\ (leaves u e MDeallocate <-> free_locks e = true)).
Proof.
  repeat split; try apply alloc_leaves; try apply free_leaves; rewrite ?nx_alloc, ?nx_free.
  all: destruct (alloc_locks e), (free_locks e); done.
Qed.
Lemma clauses_honest u e m :
  has e m = true -> m <> MDeallocate -> m <> MAssign -> m <> MSet -> m <> MDtor -> ~ terminates u e m.
Proof.
  intros H ? ? ? ?. destruct m; try done.
  - apply calm_alloc.
  - apply calm_plain; auto.
  - apply calm_plain; auto.
  - by apply calm_new.
  - by apply calm_del.
  - apply calm_plain; auto.
Qed.
Lemma release_exact u e : u_out u = true ->
  (terminates u e MDtor <-> stops false e = true) /\ (terminates u e MDeallocate <-> stops true e = true).
Proof. intros H. split; [by apply dtor_iff|by apply dealloc_iff]. Qed.

Lemma release_refuted : exists e1 e2 e3, wf e1 = true /\ wf e2 = true /\ wf e3 = true /\ has e2 MAssign = true /\
  nx (User true true true true true) e1 MDeallocate = true /\
  terminates (User true true true true true) e1 MDtor /\
  terminates (User true true true true true) e2 MAssign /\
  terminates (User true true true true true) e3 MDeallocate.
Proof.
  exists (EFreelist 0 64 (EThreaded EMalloc)), (EFreelist 0 64 (EReference (EThreaded EMalloc))),
    (ECascading (EFreelist 0 64 (EThreaded (ELinear 512)))).
  repeat (split; [vm_compute; reflexivity|]). split; [|split].
  - apply dtor_iff; done.
  - apply terminates_here with (Call (EReference (EThreaded EMalloc)) MDeallocate); [cbn; auto| |done].
    by apply fails_call, free_leaves.
  - apply dealloc_iff; done.
Qed.
Lemma stream_refuted : exists u e, wf e = true /\ u_new u = true /\ u_asg u = true /\ u_del u = true /\ u_cmp u = true /\
  terminates u e MDeallocate /\ terminates u e MDtor.
Proof.
  exists (User true true true true false), (EOverflow EMalloc). repeat (split; [done|]).
  split; (apply terminates_here with Print; [cbn; auto|by apply fails_print|done]).
Qed.
Lemma insert_refuted : exists u e e' c r, u_out u = true /\ wf e = true /\ wf e' = true /\
  (u_asg u = true /\ u_del u = true /\ u_cmp u = true /\ alloc_locks e = false /\ free_locks e = false /\
   op_terminates u (hnx u (HInsert c r)) (hcalls e (HInsert c r))) /\
  op_terminates (User true true true true true) (hnx (User true true true true true) (HInsert c r)) (hcalls e' (HInsert c r)).
Proof.
  exists (User false true true true true), EMalloc, (EThreaded EMalloc), 0%nat, (RVal (Val 3)).
  repeat (split; [done|]). split; [repeat (split; [done|])|].
  - apply heap_growth; auto.
  - apply heap_growth; auto.
Qed.
Lemma calls_made e m : m = MAllocate \/ m = MDeallocate ->
  (forall o, In (Call e m) (vcalls e o) -> vmakes m o) /\
  (forall o, In (Call e m) (acalls e o) -> amakes m o) /\
  (forall o, In (Call e m) (hcalls e o) -> (forall c l q h, o = HNewList c l q h -> m = MAllocate) -> hmakes m o).
Proof. intros H. split; [|split]; intros; [by eapply vmakes_all|by eapply amakes_all|by eapply hmakes_all]. Qed.
Lemma assign_exact u e : u_out u = true -> assigns e = true ->
  (terminates u e MAssign <-> asg_stops e = true) /\ (leaves u e MAssign <-> asg_leaves e = true) /\
  (terminates u (EGlobal e) MSet <-> asg_stops e || asg_leaves e = true).
Proof. intros Ho He. split; [by apply assign_iff|split; [by apply assign_leaves|by apply set_iff]]. Qed.
