(** atomic_shared<threaded<A>> among threads: the invariant of the handles. *)
From iris.proofmode Require Import tactics.
From Verif Require Import Base Mem Bits AlignedMalloc Allocators Client Team.

Local Open Scope N_scope.

(** * Counting *)
Definition refn (g : nat) (rf : gmap nat nat) : nat := size (owners g rf).

Definition hitn (y g : nat) : nat := if decide (y = g) then 1%nat else 0%nat.

Lemma refn_new g rf h y : rf !! h = None -> refn g (<[h := y]> rf) = (hitn y g + refn g rf)%nat.
Proof.
  intros Hh. unfold refn, owners, hitn. destruct (decide (y = g)) as [->|Hx].
  - rewrite map_filter_insert_True //. apply map_size_insert_None. apply map_filter_lookup_None. by left.
  - by rewrite map_filter_insert_not' // Hh.
Qed.
Lemma refn_del g rf h y : rf !! h = Some y -> refn g rf = (hitn y g + refn g (delete h rf))%nat.
Proof.
  intros Hh. rewrite -{1}(insert_id rf h y Hh) -insert_delete_insert. apply refn_new. apply lookup_delete.
Qed.
Lemma refn_pos g rf : (0 < refn g rf)%nat <-> exists h, rf !! h = Some g.
Proof.
  unfold refn, owners. split.
  - intros H. destruct (map_choose (filter (fun kv : nat * nat => snd kv = g) rf)) as (h&x&Hx).
    { intros E. rewrite E map_size_empty in H. lia. }
    apply map_filter_lookup_Some in Hx as [Hx Hg]. cbn in Hg. subst x. by exists h.
  - intros [h Hh]. apply Nat.neq_0_lt_0. intros E. apply map_size_empty_inv in E.
    assert (filter (fun kv : nat * nat => snd kv = g) rf !! h = Some g) as H by by apply map_filter_lookup_Some.
    by rewrite E in H.
Qed.
Lemma refn_le g rf : (refn g rf <= size rf)%nat.
Proof. unfold refn, owners. rewrite -!size_dom. apply subseteq_size, subseteq_dom, map_filter_subseteq. Qed.
Lemma hitn_same g : hitn g g = 1%nat.
Proof. unfold hitn. by rewrite decide_True. Qed.
Lemma hitn_other y g : y <> g -> hitn y g = 0%nat.
Proof. intros H. unfold hitn. by rewrite decide_False. Qed.

Section inv.
  Context {A : alloc}.
  Implicit Types q : team A.

  Definition has_h q t h : Prop := exists x, t_hs q !! h = Some (t, x).
  Definition body_ok q t (b : micro) (h g : nat) : Prop :=
    (exists x n, b = MAlloc h x n /\ t_has q !! x = Some (t, None)) \/
    (exists x k, b = MFree h x /\ t_has q !! x = Some (t, Some (g, k))).
  (** [t] has the mutex of [g]; whether the allocator is running. *)
  Definition locked q t g (busy : bool) : Prop :=
    exists k, t_bk q !! g = Some k /\ tb_lock k = Some t /\ tb_busy k = busy.

  (** Where a thread can be, and the handle whose m_Block does not count as a reference there. *)
  Inductive at_point q (t : nat) : list micro -> option nat -> Prop :=
  | P_idle : at_point q t [] None
  | P_new h : t_hs q !! h = Some (t, None) -> at_point q t [MNew h] None
  | P_set h src : h <> src -> has_h q t h -> has_h q t src -> at_point q t [MSet h src; MInc h] (Some h)
  | P_inc h src x : h <> src -> t_hs q !! h = Some (t, x) -> t_hs q !! src = Some (t, x) -> at_point q t [MInc h] (Some h)
  | P_take h src : h <> src -> has_h q t h -> has_h q t src -> at_point q t [MTake h src; MNull src] (Some h)
  | P_null src : has_h q t src -> at_point q t [MNull src] (Some src)
  | P_dec_set h src : h <> src -> has_h q t h -> has_h q t src -> at_point q t [MDec h; MSet h src; MInc h] None
  | P_dec_take h src : h <> src -> has_h q t h -> has_h q t src -> at_point q t [MDec h; MTake h src; MNull src] None
  | P_dec_end h : has_h q t h -> at_point q t [MDec h; MEnd h] None
  | P_end h : has_h q t h -> at_point q t [MEnd h] (Some h)
  | P_lock h g b : t_hs q !! h = Some (t, Some g) -> body_ok q t b h g -> at_point q t [MLock h; MEnter h; b; MUnlock h] None
  | P_enter h g b : t_hs q !! h = Some (t, Some g) -> body_ok q t b h g -> locked q t g false ->
      at_point q t [MEnter h; b; MUnlock h] None
  | P_body h g b : t_hs q !! h = Some (t, Some g) -> body_ok q t b h g -> locked q t g true -> at_point q t [b; MUnlock h] None
  | P_unlock h g : t_hs q !! h = Some (t, Some g) -> locked q t g false -> at_point q t [MUnlock h] None
  | P_write x off v y : t_has q !! x = Some (t, Some y) -> at_point q t [MWrite x off v] None
  | P_read x off y : t_has q !! x = Some (t, Some y) -> at_point q t [MRead x off] None
  | P_give h to : has_h q t h -> at_point q t [MGive h to] None
  | P_pass x to y : t_has q !! x = Some (t, Some y) -> at_point q t [MPass x to] None.

  (** Perhaps with a deletion to be done first. *)
  Definition at_list q t (l : list micro) (e : option nat) : Prop :=
    at_point q t l e \/ exists g l', l = MDel g :: l' /\ at_point q t l' e /\ is_Some e.

  Definition holder q t g : Prop :=
    exists h, t_hs q !! h = Some (t, Some g) /\
    ((exists b, todo t q = [MEnter h; b; MUnlock h]) \/ (exists b, todo t q = [b; MUnlock h]) \/ todo t q = [MUnlock h]).
  Definition deleting q t g : Prop := exists l, todo t q = MDel g :: l.

  (** [n] more steps are to come. *)
  Record inv (n : nat) q : Prop := {
    i_thr t : exists e, at_list q t (todo t q) e /\
      forall h x, t_hs q !! h = Some (t, x) -> t_ref q !! h = if decide (e = Some h) then None else x;
    i_dom h : t_hs q !! h = None -> t_ref q !! h = None;
    i_cnt g k : t_bk q !! g = Some k -> tb_cnt k = N.of_nat (refn g (t_ref q)) /\
      ((0 < refn g (t_ref q))%nat \/ exists t, deleting q t g);
    i_live h g : t_ref q !! h = Some g -> is_Some (t_bk q !! g);
    i_del t g : deleting q t g -> is_Some (t_bk q !! g) /\ refn g (t_ref q) = 0%nat /\ forall u, deleting q u g -> u = t;
    i_free g k : t_bk q !! g = Some k -> tb_lock k = None -> tb_busy k = false;
    i_lock g k t : t_bk q !! g = Some k -> tb_lock k = Some t -> holder q t g;
    i_fresh g : (t_next q <= g)%nat -> t_bk q !! g = None;
    i_size : N.of_nat (size (t_ref q) + n) < W;
    i_has x t g b : t_has q !! x = Some (t, Some (g, b)) -> (0 < refn g (t_ref q))%nat
  }.

  (** What other threads rely on. *)
  Record keeps q q' (u : nat) : Prop := {
    k_hs h x : t_hs q !! h = Some (u, x) -> t_hs q' !! h = Some (u, x);
    k_has x v : t_has q !! x = Some (u, v) -> t_has q' !! x = Some (u, v);
    k_lock g b : locked q u g b -> locked q' u g b
  }.

  Lemma keeps_point q q' u l e : keeps q q' u -> at_point q u l e -> at_point q' u l e.
  Proof.
    intros K H. assert (Hh : forall h, has_h q u h -> has_h q' u h). { intros h [x Hx]. exists x. by apply (k_hs _ _ _ K). }
    assert (Hb : forall b h g, body_ok q u b h g -> body_ok q' u b h g).
    { intros b h g [(x&n&->&Hx)|(x&k&->&Hx)]; [left|right].
      - exists x, n. split; [done|]. by apply (k_has _ _ _ K).
      - exists x, k. split; [done|]. by apply (k_has _ _ _ K). }
    destruct H; econstructor; eauto using k_hs, k_has, k_lock.
  Qed.
  Lemma keeps_list q q' u l e : keeps q q' u -> at_list q u l e -> at_list q' u l e.
  Proof.
    intros K [H|(g&l'&->&H&He)]; [left; by eapply keeps_point|right]. exists g, l'. split_and!; [done| |done]. by eapply keeps_point.
  Qed.

  Lemma point_exc q t l h : at_point q t l (Some h) -> has_h q t h.
  Proof. intros H. inversion H; subst; try done. by eexists. Qed.
  Lemma list_exc q t l h : at_list q t l (Some h) -> has_h q t h.
  Proof. intros [H|(g&l'&->&H&He)]; by eapply point_exc. Qed.

  Lemma todo_set q t l td : todo t (set_todo (<[t := l]> td) q) = l.
  Proof. unfold todo, set_todo. cbn. by rewrite lookup_insert. Qed.
  Lemma todo_set_ne q t u l : u <> t -> todo u (set_todo (<[t := l]> (t_todo q)) q) = todo u q.
  Proof. intros H. unfold todo, set_todo. cbn. by rewrite lookup_insert_ne. Qed.

  Lemma inv_weaken n n' q : (n' <= n)%nat -> inv n q -> inv n' q.
  Proof. intros Hn I. split; try apply I. pose proof (i_size _ _ I). lia. Qed.

  (** * Steps that do not change blocks or references *)
  Lemma inv_plain n q q' t l e' :
    inv n q -> t_bk q' = t_bk q -> t_ref q' = t_ref q -> t_next q' = t_next q -> t_todo q' = <[t := l]> (t_todo q) ->
    (forall g, ~ deleting q t g) -> (forall g l', l <> MDel g :: l') ->
    (forall g, ~ holder q t g) ->
    (forall u, u <> t -> keeps q q' u) ->
    at_list q' t l e' -> (forall h x, t_hs q' !! h = Some (t, x) -> t_ref q !! h = if decide (e' = Some h) then None else x) ->
    (forall u h x, u <> t -> t_hs q' !! h = Some (u, x) -> t_hs q !! h = Some (u, x) \/ (t_hs q !! h = Some (t, x) /\ t_ref q !! h = x)) ->
    (forall h, t_hs q' !! h = None -> t_ref q !! h = None) ->
    (forall x u g b, t_has q' !! x = Some (u, Some (g, b)) -> exists u' b', t_has q !! x = Some (u', Some (g, b'))) ->
    inv n q'.
  Proof.
    intros I Hbk Hrf Hnx Htd Hnd Hnl Hnh K HL HR Hu Hd Hh.
    assert (Ht : todo t q' = l). { unfold todo. by rewrite Htd lookup_insert. }
    assert (Hto : forall u, u <> t -> todo u q' = todo u q). { intros u Hne. unfold todo. by rewrite Htd lookup_insert_ne. }
    assert (Hdel : forall u g, deleting q' u g <-> deleting q u g).
    { intros u g. destruct (decide (u = t)) as [->|Hne].
      - split; [|by intros H%Hnd]. intros [l' H]. rewrite Ht in H. by apply Hnl in H.
      - unfold deleting. by rewrite Hto. }
    split.
    - intros u. destruct (decide (u = t)) as [->|Hne].
      + exists e'. rewrite Ht Hrf. by split.
      + destruct (i_thr _ _ I u) as (e&He&Hr). exists e. rewrite (Hto u Hne) Hrf. split; [by apply (keeps_list q); [apply K|]|].
        intros h x Hx. destruct (Hu u h x Hne Hx) as [Hx'|[Hx' Hx'']]; [by apply Hr|].
        rewrite decide_False //. intros ->. destruct (list_exc _ _ _ _ He) as [y Hy]. congruence.
    - intros h. rewrite Hrf. apply Hd.
    - intros g k. rewrite Hbk Hrf. intros Hg. destruct (i_cnt _ _ I g k Hg) as [H1 [H2|[u H2]]]; split; auto.
      right. exists u. by apply Hdel.
    - intros h g. rewrite Hbk Hrf. apply (i_live _ _ I).
    - intros u g. rewrite Hdel Hbk Hrf. intros H. destruct (i_del _ _ I u g H) as (H1&H2&H3). split_and!; [done..|].
      intros u'. rewrite Hdel. apply H3.
    - intros g k. rewrite Hbk. apply (i_free _ _ I).
    - intros g k u. rewrite Hbk. intros Hg Hk. pose proof (i_lock _ _ I g k u Hg Hk) as H.
      destruct (decide (u = t)) as [->|Hne]; [by apply Hnh in H|]. destruct H as (h&Hx&H). exists h.
      rewrite (Hto u Hne). split; [by apply (k_hs _ _ _ (K u Hne))|done].
    - intros g. rewrite Hbk Hnx. apply (i_fresh _ _ I).
    - rewrite Hrf. apply (i_size _ _ I).
    - intros x u g b Hx. destruct (Hh x u g b Hx) as (u'&b'&Hx'). rewrite Hrf. by apply (i_has _ _ I x u' g b').
  Qed.

  Lemma keep_same q q' u : t_hs q' = t_hs q -> t_has q' = t_has q -> t_bk q' = t_bk q -> keeps q q' u.
  Proof. intros H1 H2 H3. split; rewrite ?H1 ?H2 //. unfold locked. by rewrite H3. Qed.
  Lemma keep_hs q q' t u h v : u <> t -> (forall w x, t_hs q !! h = Some (w, x) -> w = t) ->
    t_hs q' = partial_alter (fun _ => v) h (t_hs q) -> t_has q' = t_has q -> t_bk q' = t_bk q -> keeps q q' u.
  Proof.
    intros Hne Hh H1 H2 H3. split; rewrite ?H1 ?H2 //; [|unfold locked; by rewrite H3].
    intros h' x Hx. rewrite lookup_partial_alter_ne //. intros <-. by apply Hh in Hx.
  Qed.
  Lemma keep_has q q' t u x v : u <> t -> (forall w y, t_has q !! x = Some (w, y) -> w = t) ->
    t_has q' = <[x := v]> (t_has q) -> t_hs q' = t_hs q -> t_bk q' = t_bk q -> keeps q q' u.
  Proof.
    intros Hne Hh H1 H2 H3. split; rewrite ?H1 ?H2 //; [|unfold locked; by rewrite H3].
    intros x' y Hx. rewrite lookup_insert_ne //. intros <-. by apply Hh in Hx.
  Qed.

  (** The point a thread is at. *)
  Lemma at_todo n q t : inv n q -> exists e, at_list q t (todo t q) e /\
    forall h x, t_hs q !! h = Some (t, x) -> t_ref q !! h = if decide (e = Some h) then None else x.
  Proof. intros I. apply (i_thr _ _ I). Qed.

  (** * Start of a call *)
  Lemma mine_has t h q : mine t h q = true -> has_h q t h.
  Proof.
    unfold mine, has_h. destruct (t_hs q !! h) as [[u x]|]; [|done]. intros H%bool_decide_eq_true. subst. by exists x.
  Qed.
  Lemma my_block_some t x q g : my_block t x q = Some g -> exists b, t_has q !! x = Some (t, Some (g, b)).
  Proof.
    unfold my_block. destruct (t_has q !! x) as [[u [[g' b]|]]|]; try done. destruct (decide (u = t)) as [->|]; [|done].
    intros [= ->]. by exists b.
  Qed.

  Lemma inv_start n q t c : inv n q -> todo t q = [] -> allowed t c q = true ->
    inv n (set_todo (<[t := code c]> (t_todo q)) (declare t c q)).
  Proof.
    intros I Ht HA.
    assert (Hd : forall g, ~ deleting q t g). { intros g [l Hl]. congruence. }
    assert (Hh : forall g, ~ holder q t g). { intros g (h&_&[[b H]|[[b H]|H]]); congruence. }
    destruct (at_todo n q t I) as (e&He&Hr). rewrite Ht in He.
    assert (e = None) as ->. { destruct He as [He|(?&?&[=]&_)]. by inversion He. }
    assert (HR : forall h x, t_hs q !! h = Some (t, x) -> t_ref q !! h = x). { intros h x Hx. by rewrite (Hr h x Hx). }
    assert (Hc : forall g l', code c <> MDel g :: l') by by destruct c.
    assert (Hnew : forall h, t_hs q !! h = None -> forall h' x, <[h := (t, None)]> (t_hs q) !! h' = Some (t, x) -> t_ref q !! h' = x).
    { intros h Hn h' x. destruct (decide (h' = h)) as [->|Hne].
      - rewrite lookup_insert. intros [= <-]. by apply (i_dom _ _ I).
      - rewrite lookup_insert_ne //. apply HR. }
    assert (Hnew' : forall h, t_hs q !! h = None -> forall h' x, <[h := (t, None)]> (t_hs q) !! h' = Some (t, x) -> t_ref q !! h' = if decide (Some h = Some h') then None else x).
    { intros h Hn h' x Hx. destruct (decide (Some h = Some h')) as [[= <-]|]; [by apply (i_dom _ _ I)|by apply (Hnew h Hn)]. }
    assert (Hoth : forall h, t_hs q !! h = None -> forall u h' x, u <> t -> <[h := (t, None)]> (t_hs q) !! h' = Some (u, x) ->
              t_hs q !! h' = Some (u, x) \/ (t_hs q !! h' = Some (t, x) /\ t_ref q !! h' = x)).
    { intros h Hn u h' x Hne. destruct (decide (h' = h)) as [->|].
      - rewrite lookup_insert. congruence.
      - rewrite lookup_insert_ne //. by left. }
    assert (Hdom : forall h h', <[h := (t, None)]> (t_hs q) !! h' = None -> t_ref q !! h' = None).
    { intros h h'. rewrite lookup_insert_None. intros [H _]. by apply (i_dom _ _ I). }
    assert (Hsrc : forall h src, t_hs q !! h = None -> mine t src q = true -> h <> src /\ exists x, <[h := (t, None)]> (t_hs q) !! src = Some (t, x)).
    { intros h src Hn [x Hx]%mine_has. assert (h <> src) by congruence. split; [done|]. exists x. by rewrite lookup_insert_ne. }
    destruct c as [h|h src|h src|h src|h src|h|h x m|h x|x off v|x off|h to|x to]; cbn [allowed declare] in *.
    - apply bool_decide_eq_true in HA.
      eapply (inv_plain n q _ t _ None I); try done; try (cbn; eauto; fail).
      + intros u Hne. eapply (keep_hs _ _ t u h (Some (t, None))); try done. intros w x. by rewrite HA.
      + left. constructor. cbn. by rewrite lookup_insert.
    - apply andb_true_iff in HA as [HA Hs]. apply bool_decide_eq_true in HA. destruct (Hsrc h src HA Hs) as [Hns [xs Hxs]].
      eapply (inv_plain n q _ t _ (Some h) I); try done; try (cbn; eauto; fail).
      + intros u Hne. eapply (keep_hs _ _ t u h (Some (t, None))); try done. intros w x. by rewrite HA.
      + left. constructor; [done|by exists None; cbn; rewrite lookup_insert|by exists xs].
    - apply andb_true_iff in HA as [HA Hs]. apply bool_decide_eq_true in HA. destruct (Hsrc h src HA Hs) as [Hns [xs Hxs]].
      eapply (inv_plain n q _ t _ (Some h) I); try done; try (cbn; eauto; fail).
      + intros u Hne. eapply (keep_hs _ _ t u h (Some (t, None))); try done. intros w x. by rewrite HA.
      + left. constructor; [done|by exists None; cbn; rewrite lookup_insert|by exists xs].
    - apply andb_true_iff in HA as [HA Hs]. apply andb_true_iff in HA as [Hn HA].
      apply negb_true_iff, bool_decide_eq_false in Hn. apply mine_has in HA. apply mine_has in Hs.
      eapply (inv_plain n q _ t _ None I); try done; try (cbn; eauto using (i_dom _ _ I); fail).
      left. by constructor.
    - apply andb_true_iff in HA as [HA Hs]. apply andb_true_iff in HA as [Hn HA].
      apply negb_true_iff, bool_decide_eq_false in Hn. apply mine_has in HA. apply mine_has in Hs.
      eapply (inv_plain n q _ t _ None I); try done; try (cbn; eauto using (i_dom _ _ I); fail).
      left. by constructor.
    - apply mine_has in HA.
      eapply (inv_plain n q _ t _ None I); try done; try (cbn; eauto using (i_dom _ _ I); fail).
      left. by constructor.
    - apply andb_true_iff in HA as [HA Hf]. apply andb_true_iff in HA as [HA Hg]. apply mine_has in HA as [y Hy].
      apply bool_decide_eq_true in Hg. unfold tptr in Hg. rewrite Hy in Hg. destruct Hg as [g ->].
      assert (Hx : forall w y, t_has q !! x = Some (w, y) -> w = t /\ y = None).
      { intros w y Hxy. unfold free_var in Hf. rewrite Hxy in Hf. apply andb_true_iff in Hf as [Hf1%bool_decide_eq_true Hf2%bool_decide_eq_true].
        by subst. }
      eapply (inv_plain n q _ t _ None I); try done; try (cbn; eauto using (i_dom _ _ I); fail).
      + intros u Hne. eapply (keep_has _ _ t u x (t, None)); try done. intros w y Hxy. by apply Hx in Hxy as [-> _].
      + left. econstructor; [exact Hy|]. left. exists x, m. split; [done|]. cbn. by rewrite lookup_insert.
      + cbn. intros x' u g' b. destruct (decide (x' = x)) as [->|]; [by rewrite lookup_insert|].
        rewrite lookup_insert_ne //. eauto.
    - apply andb_true_iff in HA as [HA Hf]. apply andb_true_iff in HA as [HA Hg]. apply mine_has in HA as [y Hy].
      apply bool_decide_eq_true in Hg as [g Hg]. apply bool_decide_eq_true in Hf. unfold tptr in Hf. rewrite Hy Hg in Hf. subst y.
      apply my_block_some in Hg as [b Hb].
      eapply (inv_plain n q _ t _ None I); try done; try (cbn; eauto using (i_dom _ _ I); fail).
      left. econstructor; [exact Hy|]. right. by exists x, b.
    - apply bool_decide_eq_true in HA as [g Hg]. apply my_block_some in Hg as [b Hb].
      eapply (inv_plain n q _ t _ None I); try done; try (cbn; eauto using (i_dom _ _ I); fail).
      left. by econstructor.
    - apply bool_decide_eq_true in HA as [g Hg]. apply my_block_some in Hg as [b Hb].
      eapply (inv_plain n q _ t _ None I); try done; try (cbn; eauto using (i_dom _ _ I); fail).
      left. by econstructor.
    - apply mine_has in HA.
      eapply (inv_plain n q _ t _ None I); try done; try (cbn; eauto using (i_dom _ _ I); fail).
      left. by constructor.
    - apply bool_decide_eq_true in HA as [g Hg]. apply my_block_some in Hg as [b Hb].
      eapply (inv_plain n q _ t _ None I); try done; try (cbn; eauto using (i_dom _ _ I); fail).
      left. by econstructor.
  Qed.

  (** * Plain steps *)
  Ltac here I t Ht e He Hr :=
    destruct (at_todo _ _ t I) as (e&He&Hr); rewrite Ht in He;
    destruct He as [He|(?&?&[=]&_)]; inversion He; subst; clear He;
    try solve [match goal with H : body_ok _ _ _ _ _ |- _ => destruct H as [(?&?&[=]&_)|(?&?&[=]&_)] end].
  Ltac has h x H := match goal with H0 : has_h _ _ h |- _ => destruct H0 as [x H] end.
  Ltac nodel Ht := let g := fresh in let l := fresh in let H := fresh in
    try (intros g [l H]; rewrite Ht in H; congruence).
  Ltac nohold Ht := let g := fresh in let h := fresh in let b := fresh in let H := fresh in
    try (intros g (h&_&[[b H]|[[b H]|H]]); rewrite Ht in H; congruence).

  Lemma inv_set n q t h src l : inv n q -> todo t q = MSet h src :: l ->
    inv n (set_todo (<[t := l]> (t_todo q)) (set_hs (<[h := (t, tptr src q)]> (t_hs q)) q)).
  Proof.
    intros I Ht. here I t Ht e He Hr. has h xh Hh. has src xs Hs.
    eapply (inv_plain n q _ t _ (Some h) I); try done; nodel Ht; nohold Ht; cbn.
    - intros u Hne. eapply (keep_hs _ _ t u h (Some (t, tptr src q))); try done. congruence.
    - left. unfold tptr. rewrite Hs. apply (P_inc _ t h src xs); [done|cbn..]; [by rewrite lookup_insert|by rewrite lookup_insert_ne].
    - intros h' x. destruct (decide (h' = h)) as [->|Hne].
      + intros _. rewrite decide_True //. rewrite (Hr h xh Hh). by rewrite decide_True.
      + rewrite lookup_insert_ne //. apply Hr.
    - intros u h' x Hne. destruct (decide (h' = h)) as [->|]; [rewrite lookup_insert; congruence|].
      rewrite lookup_insert_ne //. by left.
    - intros h' [H _]%lookup_insert_None. by apply (i_dom _ _ I).
    - eauto.
  Qed.

  Lemma inv_null n q t src l : inv n q -> todo t q = MNull src :: l ->
    inv n (set_todo (<[t := l]> (t_todo q)) (set_hs (<[src := (t, None)]> (t_hs q)) q)).
  Proof.
    intros I Ht. here I t Ht e He Hr. has src xs Hs.
    eapply (inv_plain n q _ t _ None I); try done; nodel Ht; nohold Ht; cbn.
    - intros u Hne. eapply (keep_hs _ _ t u src (Some (t, None))); try done. congruence.
    - left. constructor.
    - intros h' x. destruct (decide (h' = src)) as [->|Hne].
      + rewrite lookup_insert. intros [= <-]. rewrite (Hr src xs Hs). by rewrite decide_True.
      + rewrite lookup_insert_ne //. intros Hx. rewrite (Hr _ _ Hx). rewrite decide_False //. congruence.
    - intros u h' x Hne. destruct (decide (h' = src)) as [->|]; [rewrite lookup_insert; congruence|].
      rewrite lookup_insert_ne //. by left.
    - intros h' [H _]%lookup_insert_None. by apply (i_dom _ _ I).
    - eauto.
  Qed.

  Lemma inv_end n q t h l : inv n q -> todo t q = MEnd h :: l ->
    inv n (set_todo (<[t := l]> (t_todo q)) (set_hs (delete h (t_hs q)) q)).
  Proof.
    intros I Ht. here I t Ht e He Hr. has h xs Hs.
    eapply (inv_plain n q _ t _ None I); try done; nodel Ht; nohold Ht; cbn.
    - intros u Hne. eapply (keep_hs _ _ t u h None); try done. congruence.
    - left. constructor.
    - intros h' x [Hne Hx]%lookup_delete_Some. rewrite (Hr _ _ Hx). rewrite decide_False //. congruence.
    - intros u h' x Hne [_ Hx]%lookup_delete_Some. by left.
    - intros h' [->|H]%lookup_delete_None; [|by apply (i_dom _ _ I)]. rewrite (Hr _ _ Hs). by rewrite decide_True.
    - eauto.
  Qed.

  Lemma inv_give n q t h to l : inv n q -> todo t q = MGive h to :: l ->
    inv n (set_todo (<[t := l]> (t_todo q)) (set_hs (<[h := (to, tptr h q)]> (t_hs q)) q)).
  Proof.
    intros I Ht. here I t Ht e He Hr. has h xs Hs. unfold tptr. rewrite Hs.
    eapply (inv_plain n q _ t _ None I); try done; nodel Ht; nohold Ht; cbn.
    - intros u Hne. eapply (keep_hs _ _ t u h (Some (to, xs))); try done. congruence.
    - left. constructor.
    - intros h' x. destruct (decide (h' = h)) as [->|Hne].
      + rewrite lookup_insert. intros [= -> <-]. by rewrite (Hr h xs Hs).
      + rewrite lookup_insert_ne //. intros Hx. by rewrite (Hr _ _ Hx).
    - intros u h' x Hne. destruct (decide (h' = h)) as [->|].
      + rewrite lookup_insert. intros [= -> <-]. right. split; [done|]. by rewrite (Hr h xs Hs).
      + rewrite lookup_insert_ne //. by left.
    - intros h' [H _]%lookup_insert_None. by apply (i_dom _ _ I).
    - eauto.
  Qed.

  (** Steps that change nothing here *)
  Lemma inv_skip n q t m l e : inv n q -> todo t q = m :: l -> (forall g, m <> MDel g) ->
    (forall g, ~ holder q t g) -> at_point q t l e ->
    (forall h x, t_hs q !! h = Some (t, x) -> t_ref q !! h = if decide (e = Some h) then None else x) ->
    inv n (set_todo (<[t := l]> (t_todo q)) q).
  Proof.
    intros I Ht Hm Hh HP Hr.
    eapply (inv_plain n q _ t _ e I); try done; nodel Ht; cbn.
    - intros g l' ->. inversion HP; subst.
      match goal with H : body_ok _ _ _ _ _ |- _ => destruct H as [(?&?&[=]&_)|(?&?&[=]&_)] end.
    - left. by apply (keeps_point q); [by apply keep_same|].
    - by left.
    - apply (i_dom _ _ I).
    - eauto.
  Qed.

  Lemma inv_has n q t m x u g y y' l : inv n q -> todo t q = m :: l ->
    (exists off v, m = MWrite x off v /\ u = t) \/ m = MPass x u -> t_has q !! x = Some (t, Some (g, y)) ->
    inv n (set_todo (<[t := l]> (t_todo q)) (set_has (<[x := (u, Some (g, y'))]> (t_has q)) q)).
  Proof.
    intros I Ht Hm Hx.
    assert (l = [] /\ forall h x, t_hs q !! h = Some (t, x) -> t_ref q !! h = x) as [-> Hr].
    { destruct Hm as [(off&v&->&_)| ->].
      - here I t Ht e He Hr. split; [done|]. intros h z Hz. by rewrite (Hr h z Hz).
      - here I t Ht e He Hr. split; [done|]. intros h z Hz. by rewrite (Hr h z Hz). }
    assert (Hd : forall g0, m <> MDel g0) by by destruct Hm as [(?&?&->&_)| ->].
    assert (Hu : forall h, m <> MUnlock h) by by destruct Hm as [(?&?&->&_)| ->].
    eapply (inv_plain n q _ t _ None I); try done; cbn.
    - intros g0 [l' Hl']. rewrite Ht in Hl'. injection Hl' as ->. by eapply Hd.
    - intros g0 (h&_&[[b H]|[[b H]|H]]); rewrite Ht in H; congruence.
    - intros w Hne. eapply (keep_has _ _ t w x (u, Some (g, y'))); try done. congruence.
    - left. constructor.
    - by left.
    - apply (i_dom _ _ I).
    - intros x' w g' b. destruct (decide (x' = x)) as [->|]; [|rewrite lookup_insert_ne //; eauto].
      rewrite lookup_insert. intros [= <- <- <-]. eauto.
  Qed.

  (** * Locks *)
  Lemma inv_locks n q q' t m l g k k' :
    inv n q -> todo t q = m :: l -> (forall g, m <> MDel g) -> (forall g l', l <> MDel g :: l') ->
    t_bk q !! g = Some k -> t_bk q' = <[g := k']> (t_bk q) -> t_ref q' = t_ref q -> t_next q' = t_next q ->
    t_hs q' = t_hs q -> t_todo q' = <[t := l]> (t_todo q) ->
    tb_cnt k' = tb_cnt k -> (forall u, tb_lock k = Some u -> u = t) -> (tb_lock k' = None -> tb_busy k' = false) ->
    (forall u, tb_lock k' = Some u -> u = t /\ holder q' t g) -> (forall g', holder q t g' -> g' = g) ->
    (forall u x v, u <> t -> t_has q !! x = Some (u, v) -> t_has q' !! x = Some (u, v)) ->
    at_list q' t l None -> (forall h x, t_hs q !! h = Some (t, x) -> t_ref q !! h = x) ->
    (forall x u g' b, t_has q' !! x = Some (u, Some (g', b)) ->
       (0 < refn g' (t_ref q))%nat \/ exists u' b', t_has q !! x = Some (u', Some (g', b'))) ->
    inv n q'.
  Proof.
    intros I Ht Hm Hl Hg Hbk Hrf Hnx Hhs Htd Hcnt Hold Hfree Hnew Honly Hhas HL Hr Hh.
    assert (Ht' : todo t q' = l). { unfold todo. by rewrite Htd lookup_insert. }
    assert (Hto : forall u, u <> t -> todo u q' = todo u q). { intros u Hne. unfold todo. by rewrite Htd lookup_insert_ne. }
    assert (Hdel : forall u g, deleting q' u g <-> deleting q u g).
    { intros u g0. destruct (decide (u = t)) as [->|Hne].
      - split; intros [l' H]; [rewrite Ht' in H; by apply Hl in H|rewrite Ht in H; injection H as -> _; by destruct (Hm g0)].
      - unfold deleting. by rewrite Hto. }
    assert (K : forall u, u <> t -> keeps q q' u).
    { intros u Hne. split; rewrite ?Hhs //.
      - intros x v. by apply Hhas.
      - intros g0 b (k0&H1&H2&H3). destruct (decide (g0 = g)) as [->|].
        + assert (k0 = k) as -> by congruence. by apply Hold in H2.
        + exists k0. rewrite Hbk lookup_insert_ne //. }
    assert (Hin : forall g, is_Some (t_bk q' !! g) <-> is_Some (t_bk q !! g)).
    { intros g0. rewrite Hbk. destruct (decide (g0 = g)) as [->|]; [rewrite lookup_insert Hg; split; eauto|by rewrite lookup_insert_ne]. }
    split.
    - intros u. destruct (decide (u = t)) as [->|Hne].
      + exists None. rewrite Ht' Hrf Hhs. by split.
      + destruct (i_thr _ _ I u) as (e&He&Hr'). exists e. rewrite (Hto u Hne) Hrf Hhs. split; [by apply (keeps_list q); [apply K|]|done].
    - intros h. rewrite Hrf Hhs. apply (i_dom _ _ I).
    - intros g0 k0. rewrite Hbk Hrf. intros H0.
      assert (exists k1, t_bk q !! g0 = Some k1 /\ tb_cnt k1 = tb_cnt k0) as (k1&H1&H2).
      { destruct (decide (g0 = g)) as [->|]; [|rewrite lookup_insert_ne // in H0; eauto].
        rewrite lookup_insert in H0. injection H0 as <-. eauto. }
      rewrite -H2. destruct (i_cnt _ _ I g0 k1 H1) as [H3 [H4|[u H4]]]; split; auto. right. exists u. by apply Hdel.
    - intros h g0. rewrite Hin Hrf. apply (i_live _ _ I).
    - intros u g0. rewrite Hdel Hin Hrf. intros H. destruct (i_del _ _ I u g0 H) as (H1&H2&H3). split_and!; [done..|].
      intros u'. rewrite Hdel. apply H3.
    - intros g0 k0. rewrite Hbk. destruct (decide (g0 = g)) as [->|].
      + rewrite lookup_insert. intros [= <-]. done.
      + rewrite lookup_insert_ne //. apply (i_free _ _ I).
    - intros g0 k0 u. rewrite Hbk. destruct (decide (g0 = g)) as [->|Hne].
      + rewrite lookup_insert. intros [= <-] H. by destruct (Hnew u H) as [-> H'].
      + rewrite lookup_insert_ne //. intros H1 H2. pose proof (i_lock _ _ I g0 k0 u H1 H2) as H.
        destruct (decide (u = t)) as [->|Hne']; [by apply Honly in H|]. destruct H as (h&Hx&H). exists h.
        rewrite (Hto u Hne'). split; [by apply (k_hs _ _ _ (K u Hne'))|done].
    - intros g0. rewrite Hbk Hnx. intros H. rewrite lookup_insert_ne; [by apply (i_fresh _ _ I)|].
      intros <-. by rewrite (i_fresh _ _ I _ H) in Hg.
    - rewrite Hrf. apply (i_size _ _ I).
    - intros x u g0 b Hx. rewrite Hrf. destruct (Hh x u g0 b Hx) as [?|(u'&b'&Hx')]; [done|]. by apply (i_has _ _ I x u' g0 b').
  Qed.

  Lemma ref_live n q t h g : inv n q -> (forall h x, t_hs q !! h = Some (t, x) -> t_ref q !! h = x) ->
    t_hs q !! h = Some (t, Some g) -> exists k, t_bk q !! g = Some k /\ (0 < refn g (t_ref q))%nat.
  Proof.
    intros I Hr Hh. destruct (i_live _ _ I h g (Hr _ _ Hh)) as [k Hk]. exists k. split; [done|]. apply refn_pos. exists h. by apply Hr.
  Qed.

  Ltac sole Hg0 := let g' := fresh in let h' := fresh in let b' := fresh in let H := fresh in let Hx := fresh in
    intros g' (h'&Hx&[[b' H]|[[b' H]|H]]); rewrite Hg0 in H; try congruence.

  Lemma inv_lock n q t h l g k : inv n q -> todo t q = MLock h :: l -> tptr h q = Some g -> t_bk q !! g = Some k -> tb_lock k = None ->
    inv n (set_todo (<[t := l]> (t_todo q)) (set_bk (<[g := TBlock (tb_addr k) (tb_in k) (tb_cnt k) (Some t) (tb_busy k)]> (t_bk q)) q)).
  Proof.
    intros I Ht Hp Hk Hl. here I t Ht e He Hr.
    match goal with H : t_hs q !! h = Some (t, Some ?g') |- _ => rename H into Hh;
      assert (g' = g) by (unfold tptr in Hp; rewrite Hh in Hp; congruence); subst g' end.
    assert (Hb : body_ok (set_todo (<[t := [MEnter h; b; MUnlock h]]> (t_todo q))
      (set_bk (<[g := TBlock (tb_addr k) (tb_in k) (tb_cnt k) (Some t) (tb_busy k)]> (t_bk q)) q)) t b h g) by done.
    eapply (inv_locks n q _ t _ _ g k _ I Ht); try done; cbn.
    - intros u. by rewrite Hl.
    - intros u [= <-]. split; [done|]. exists h. split; [done|]. left. exists b. apply todo_set.
    - sole Ht.
    - left. apply (P_enter _ t h g b); [done..|]. eexists. cbn. rewrite lookup_insert. split_and!; [done..|].
      cbn. by apply (i_free _ _ I g k).
    - eauto.
  Qed.

  Lemma inv_enter n q t h l g k : inv n q -> todo t q = MEnter h :: l -> tptr h q = Some g -> t_bk q !! g = Some k ->
    tb_busy k = false /\
    inv n (set_todo (<[t := l]> (t_todo q)) (set_bk (<[g := TBlock (tb_addr k) (tb_in k) (tb_cnt k) (tb_lock k) true]> (t_bk q)) q)).
  Proof.
    intros I Ht Hp Hk. here I t Ht e He Hr.
    match goal with H : t_hs q !! h = Some (t, Some ?g') |- _ => rename H into Hh;
      assert (g' = g) by (unfold tptr in Hp; rewrite Hh in Hp; congruence); subst g' end.
    match goal with H : locked _ _ _ _ |- _ => destruct H as (k0&Hk0&Hlk&Hbz) end. assert (k0 = k) as -> by congruence. split; [done|].
    assert (Hb : body_ok (set_todo (<[t := [b; MUnlock h]]> (t_todo q))
      (set_bk (<[g := TBlock (tb_addr k) (tb_in k) (tb_cnt k) (tb_lock k) true]> (t_bk q)) q)) t b h g) by done.
    eapply (inv_locks n q _ t _ _ g k _ I Ht); try done; cbn.
    - match goal with H : body_ok _ _ _ _ _ |- _ => by destruct H as [(x&m&->&_)|(x&m&->&_)] end.
    - intros u. congruence.
    - congruence.
    - intros u Hu. split; [congruence|]. exists h. split; [done|]. right. left. exists b. apply todo_set.
    - sole Ht.
    - left. apply (P_body _ t h g b); [done..|]. eexists. cbn. rewrite lookup_insert. split_and!; done.
    - eauto.
  Qed.

  (** The body of a call: variable [x] gets [v]. *)
  Lemma inv_body n q t m h x l g k s' v : inv n q -> todo t q = m :: l -> (exists n, m = MAlloc h x n) \/ m = MFree h x ->
    tptr h q = Some g -> t_bk q !! g = Some k -> (forall g' b, v = Some (g', b) -> g' = g) ->
    inv n (set_todo (<[t := l]> (t_todo q)) (set_has (<[x := (t, v)]> (t_has q))
      (set_bk (<[g := TBlock (tb_addr k) s' (tb_cnt k) (tb_lock k) false]> (t_bk q)) q))).
  Proof.
    intros I Ht Hm Hp Hk Hv.
    assert (exists b, m = b /\ l = [MUnlock h] /\ t_hs q !! h = Some (t, Some g) /\ body_ok q t b h g /\ locked q t g true /\
      forall h x, t_hs q !! h = Some (t, x) -> t_ref q !! h = x) as (b&->&->&Hh&Hb&Hlk&Hr).
    { destruct (at_todo _ _ t I) as (e&He&Hr). rewrite Ht in He. destruct He as [He|(?&?&[=->]&_)]; [|by destruct Hm as [[? [=]]|[=]]].
      assert (exists h' g' b, m = b /\ l = [MUnlock h'] /\ t_hs q !! h' = Some (t, Some g') /\ body_ok q t b h' g' /\ locked q t g' true /\
        e = None) as (h'&g'&b&->&->&Hh'&Hb&Hlk&->).
      { inversion He; subst; try (by destruct Hm as [[? [=]]|[=]]). eauto 10. }
      assert (h' = h) as ->.
      { destruct Hb as [(x'&n'&->&_)|(x'&n'&->&_)]; destruct Hm as [[? [=]]|[=]]; done. }
      assert (g' = g) as -> by (unfold tptr in Hp; rewrite Hh' in Hp; congruence).
      exists b. by split_and!. }
    destruct Hlk as (k0&Hk0&Hl&Hbz). assert (k0 = k) as -> by congruence.
    assert (Hx : exists y, t_has q !! x = Some (t, y)).
    { destruct Hb as [(x'&n'&->&Hx)|(x'&n'&->&Hx)]; destruct Hm as [[? [=]]|[=]]; subst; eauto. }
    destruct Hx as [y Hx].
    eapply (inv_locks n q _ t _ _ g k _ I Ht); try done; cbn.
    - intros g0 ->. by destruct Hm as [[? [=]]|[=]].
    - intros u. congruence.
    - intros u Hu. split; [congruence|]. exists h. split; [done|]. right. right. apply todo_set.
    - sole Ht; try congruence.
    - intros u x' w Hne Hx'. rewrite lookup_insert_ne //. congruence.
    - left. apply (P_unlock _ t h g); [done|]. eexists. cbn. rewrite lookup_insert. by split_and!.
    - intros x' u g' b'. destruct (decide (x' = x)) as [->|].
      + rewrite lookup_insert. intros [= <- ->]. left. rewrite (Hv g' b' eq_refl). apply refn_pos. exists h. by apply Hr.
      + rewrite lookup_insert_ne //. right. eauto.
  Qed.

  Lemma inv_unlock n q t h l g k : inv n q -> todo t q = MUnlock h :: l -> tptr h q = Some g -> t_bk q !! g = Some k ->
    inv n (set_todo (<[t := l]> (t_todo q)) (set_bk (<[g := TBlock (tb_addr k) (tb_in k) (tb_cnt k) None (tb_busy k)]> (t_bk q)) q)).
  Proof.
    intros I Ht Hp Hk. here I t Ht e He Hr.
    match goal with H : t_hs q !! h = Some (t, Some ?g') |- _ => rename H into Hh;
      assert (g' = g) by (unfold tptr in Hp; rewrite Hh in Hp; congruence); subst g' end.
    match goal with H : locked _ _ _ _ |- _ => destruct H as (k0&Hk0&Hlk&Hbz) end. assert (k0 = k) as -> by congruence.
    eapply (inv_locks n q _ t _ _ g k _ I Ht); try done; cbn.
    - intros u. congruence.
    - sole Ht.
    - left. constructor.
    - eauto.
  Qed.

  (** * Steps that change references *)
  Lemma thr_gen n q q' t l e' :
    inv n q -> t_todo q' = <[t := l]> (t_todo q) -> (forall u, u <> t -> keeps q q' u) ->
    at_list q' t l e' -> (forall h x, t_hs q' !! h = Some (t, x) -> t_ref q' !! h = if decide (e' = Some h) then None else x) ->
    (forall u h x, u <> t -> t_hs q' !! h = Some (u, x) -> t_hs q !! h = Some (u, x) /\ t_ref q' !! h = t_ref q !! h) ->
    forall u, exists e, at_list q' u (todo u q') e /\
      forall h x, t_hs q' !! h = Some (u, x) -> t_ref q' !! h = if decide (e = Some h) then None else x.
  Proof.
    intros I Htd K HL HR Hu u. destruct (decide (u = t)) as [->|Hne].
    - exists e'. unfold todo. rewrite Htd lookup_insert. by split.
    - destruct (i_thr _ _ I u) as (e&He&Hr). exists e. unfold todo. rewrite Htd lookup_insert_ne //. split.
      + by apply (keeps_list q); [apply K|].
      + intros h x Hx. destruct (Hu u h x Hne Hx) as [H1 ->]. by apply Hr.
  Qed.

  Lemma lock_keep n q q' t l : inv n q -> t_todo q' = <[t := l]> (t_todo q) -> (forall u, u <> t -> keeps q q' u) ->
    (forall g, ~ holder q t g) -> forall g k u, t_bk q !! g = Some k -> tb_lock k = Some u -> holder q' u g.
  Proof.
    intros I Htd K Hh g k u Hg Hk. pose proof (i_lock _ _ I g k u Hg Hk) as H.
    destruct (decide (u = t)) as [->|Hne]; [by apply Hh in H|]. destruct H as (h&Hx&H). exists h. unfold todo in H |- *.
    rewrite Htd lookup_insert_ne //. split; [by apply (k_hs _ _ _ (K u Hne))|done].
  Qed.

  Lemma del_keep q q' t l : t_todo q' = <[t := l]> (t_todo q) -> (forall g l', l <> MDel g :: l') ->
    (forall g, ~ deleting q t g) -> forall u g, deleting q' u g <-> deleting q u g.
  Proof.
    intros Htd Hl Hd u g. destruct (decide (u = t)) as [->|Hne].
    - split; [|by intros H%Hd]. intros [l' H]. unfold todo in H. rewrite Htd lookup_insert in H. by apply Hl in H.
    - unfold deleting, todo. by rewrite Htd lookup_insert_ne.
  Qed.

  Lemma inv_new n q t h l p s : inv (S n) q -> todo t q = MNew h :: l ->
    inv n (set_todo (<[t := l]> (t_todo q))
      (Team (<[h := (t, Some (t_next q))]> (t_hs q)) (<[t_next q := TBlock p s 1 None false]> (t_bk q))
            (S (t_next q)) (t_has q) (<[h := t_next q]> (t_ref q)) (t_todo q))).
  Proof.
    intros I Ht. here I t Ht e He Hr. match goal with H : t_hs q !! h = _ |- _ => rename H into Hh end.
    assert (Hrh : t_ref q !! h = None) by by rewrite (Hr _ _ Hh).
    assert (Hfr := i_fresh _ _ I (t_next q) (Nat.le_refl _)).
    assert (Hz : refn (t_next q) (t_ref q) = 0%nat).
    { destruct (refn (t_next q) (t_ref q)) eqn:E; [done|]. destruct (proj1 (refn_pos (t_next q) (t_ref q))) as [h' Hh']; [lia|].
      apply (i_live _ _ I) in Hh'. rewrite Hfr in Hh'. by destruct Hh'. }
    match goal with |- inv n ?q' => set (q1 := q') end.
    assert (Htd : t_todo q1 = <[t := []]> (t_todo q)) by done.
    assert (K : forall u, u <> t -> keeps q q1 u).
    { intros u Hne. split; cbn; [|done|].
      - intros h' x Hx. rewrite lookup_insert_ne //. congruence.
      - intros g b (k&Hk&H). exists k. cbn. rewrite lookup_insert_ne //. congruence. }
    assert (Hdel := del_keep q q1 t [] Htd ltac:(done) ltac:(nodel Ht)).
    assert (Hrn : forall g, refn g (t_ref q1) = (hitn (t_next q) g + refn g (t_ref q))%nat) by (intros g; by apply refn_new).
    split; cbn.
    - apply (thr_gen (S n) q q1 t [] None I Htd K); [left; constructor|..]; cbn.
      + intros h' x. destruct (decide (h' = h)) as [->|]; [by rewrite !lookup_insert; intros [= <-]|].
        rewrite !lookup_insert_ne //. apply Hr.
      + intros u h' x Hne. destruct (decide (h' = h)) as [->|]; [rewrite lookup_insert; congruence|].
        by rewrite !lookup_insert_ne.
    - intros h' [H1 H2]%lookup_insert_None. rewrite lookup_insert_ne //. by apply (i_dom _ _ I).
    - intros g k. rewrite Hrn. destruct (decide (g = t_next q)) as [->|Hne].
      + rewrite lookup_insert hitn_same Hz. intros [= <-]. cbn. split; [done|]. left. lia.
      + rewrite lookup_insert_ne // hitn_other //. intros Hk. destruct (i_cnt _ _ I g k Hk) as [H1 [H2|[u H2]]]; split; auto.
        right. exists u. by apply Hdel.
    - intros h' g. destruct (decide (h' = h)) as [->|].
      + rewrite lookup_insert. intros [= <-]. rewrite lookup_insert. by eexists.
      + rewrite lookup_insert_ne //. intros Hx%(i_live _ _ I). rewrite lookup_insert_is_Some'. by right.
    - intros u g H%Hdel. destruct (i_del _ _ I u g H) as (H1&H2&H3). rewrite Hrn.
      assert (t_next q <> g). { intros <-. rewrite Hfr in H1. by destruct H1. }
      rewrite hitn_other // lookup_insert_ne //. split_and!; [done..|]. intros u' Hu'. apply H3. by apply Hdel.
    - intros g k. destruct (decide (g = t_next q)) as [->|]; [by rewrite lookup_insert; intros [= <-]|].
      rewrite lookup_insert_ne //. apply (i_free _ _ I).
    - intros g k u. destruct (decide (g = t_next q)) as [->|]; [by rewrite lookup_insert; intros [= <-]|].
      rewrite lookup_insert_ne //. apply (lock_keep (S n) q q1 t [] I Htd K). nohold Ht.
    - intros g Hg. rewrite lookup_insert_ne; [|lia]. apply (i_fresh _ _ I). lia.
    - rewrite map_size_insert_None //. pose proof (i_size _ _ I). lia.
    - intros x u g b Hx. rewrite Hrn. pose proof (i_has _ _ I x u g b Hx). lia.
  Qed.

  Lemma inv_inc n q t h l g k : inv (S n) q -> todo t q = MInc h :: l -> tptr h q = Some g -> t_bk q !! g = Some k ->
    inv n (set_todo (<[t := l]> (t_todo q)) (set_ref (<[h := g]> (t_ref q))
      (set_bk (<[g := TBlock (tb_addr k) (tb_in k) (add64 (tb_cnt k) 1) (tb_lock k) (tb_busy k)]> (t_bk q)) q))).
  Proof.
    intros I Ht Hp Hk. here I t Ht e He Hr.
    match goal with H : t_hs q !! h = Some (t, x) |- _ => rename H into Hh end.
    match goal with H : t_hs q !! src = Some (t, x) |- _ => rename H into Hs end.
    match goal with H : h <> src |- _ => rename H into Hns end.
    assert (x = Some g) as ->. { unfold tptr in Hp. by rewrite Hh in Hp. }
    assert (Hrh : t_ref q !! h = None). { rewrite (Hr _ _ Hh). by rewrite decide_True. }
    assert (Hrs : t_ref q !! src = Some g). { rewrite (Hr _ _ Hs). rewrite decide_False //. congruence. }
    assert (Hpos : (0 < refn g (t_ref q))%nat). { apply refn_pos. by exists src. }
    match goal with |- inv n ?q' => set (q1 := q') end.
    assert (Htd : t_todo q1 = <[t := []]> (t_todo q)) by done.
    assert (K : forall u, u <> t -> keeps q q1 u).
    { intros u Hne. split; cbn; [done|done|].
      intros g' b (k'&Hk'&H1&H2). destruct (decide (g' = g)) as [->|]; [|exists k'; cbn; by rewrite lookup_insert_ne].
      assert (k' = k) as -> by congruence. eexists. cbn. rewrite lookup_insert. done. }
    assert (Hdel := del_keep q q1 t [] Htd ltac:(done) ltac:(nodel Ht)).
    assert (Hrn : forall g', refn g' (t_ref q1) = (hitn g g' + refn g' (t_ref q))%nat) by (intros g'; by apply refn_new).
    pose proof (i_size _ _ I) as Hsz. pose proof (refn_le g (t_ref q)) as Hle.
    split; cbn.
    - apply (thr_gen (S n) q q1 t [] None I Htd K); [left; constructor|..]; cbn.
      + intros h' y Hy. destruct (decide (h' = h)) as [->|]; [rewrite lookup_insert; by assert (y = Some g) as -> by congruence|].
        rewrite lookup_insert_ne //. rewrite (Hr _ _ Hy). rewrite decide_False //. congruence.
      + intros u h' y Hne Hy. split; [done|]. rewrite lookup_insert_ne //. congruence.
    - intros h' H1. rewrite lookup_insert_ne; [|congruence]. by apply (i_dom _ _ I).
    - intros g' k'. rewrite Hrn. destruct (decide (g' = g)) as [->|Hne].
      + rewrite lookup_insert hitn_same. intros [= <-]. cbn. destruct (i_cnt _ _ I g k Hk) as [-> _]. split; [|left; lia].
        rewrite add64_small; lia.
      + rewrite lookup_insert_ne // hitn_other //. intros Hk'. destruct (i_cnt _ _ I g' k' Hk') as [H1 [H2|[u H2]]]; split; auto.
        right. exists u. by apply Hdel.
    - intros h' g' Hx. rewrite lookup_insert_is_Some'. destruct (decide (h' = h)) as [->|].
      + rewrite lookup_insert in Hx. left. congruence.
      + rewrite lookup_insert_ne // in Hx. right. by eapply (i_live _ _ I).
    - intros u g' H%Hdel. destruct (i_del _ _ I u g' H) as (H1&H2&H3). rewrite Hrn.
      assert (g <> g') by (intros <-; lia).
      rewrite hitn_other // lookup_insert_ne //. split_and!; [done..|]. intros u' Hu'. apply H3. by apply Hdel.
    - intros g' k'. destruct (decide (g' = g)) as [->|]; [rewrite lookup_insert; intros [= <-]; by apply (i_free _ _ I g k)|].
      rewrite lookup_insert_ne //. apply (i_free _ _ I).
    - intros g' k' u. assert (L := lock_keep (S n) q q1 t [] I Htd K ltac:(nohold Ht)).
      destruct (decide (g' = g)) as [->|]; [rewrite lookup_insert; intros [= <-]; by apply (L g k)|].
      rewrite lookup_insert_ne //. apply L.
    - intros g' Hg. rewrite lookup_insert_ne; [by apply (i_fresh _ _ I)|]. intros <-. by rewrite (i_fresh _ _ I _ Hg) in Hk.
    - rewrite map_size_insert_None //. lia.
    - intros x u g' b Hx. rewrite Hrn. pose proof (i_has _ _ I x u g' b Hx). lia.
  Qed.

  Lemma inv_take n q t h src l : inv n q -> todo t q = MTake h src :: l ->
    inv n (set_todo (<[t := l]> (t_todo q)) (match t_ref q !! src with
      | Some g => set_ref (<[h := g]> (delete src (t_ref q))) (set_hs (<[h := (t, tptr src q)]> (t_hs q)) q)
      | None => set_hs (<[h := (t, tptr src q)]> (t_hs q)) q end)).
  Proof.
    intros I Ht. here I t Ht e He Hr. has h xh Hh. has src xs Hs. unfold tptr. rewrite Hs.
    match goal with H : h <> src |- _ => rename H into Hns end.
    assert (Hrh : t_ref q !! h = None). { rewrite (Hr _ _ Hh). by rewrite decide_True. }
    assert (Hrs : t_ref q !! src = xs). { rewrite (Hr _ _ Hs). rewrite decide_False //. congruence. }
    rewrite Hrs. set (rf := match xs with Some g => <[h := g]> (delete src (t_ref q)) | None => t_ref q end).
    assert (Hrf : forall h', rf !! h' = if decide (h' = h) then xs else if decide (h' = src) then None else t_ref q !! h').
    { intros h'. unfold rf. destruct xs as [g|].
      - destruct (decide (h' = h)) as [->|]; [by rewrite lookup_insert|]. rewrite lookup_insert_ne //.
        destruct (decide (h' = src)) as [->|]; [by rewrite lookup_delete|]. by rewrite lookup_delete_ne.
      - destruct (decide (h' = h)) as [->|]; [done|]. by destruct (decide (h' = src)) as [->|]. }
    assert (Hrn : forall g, refn g rf = refn g (t_ref q)).
    { intros g. unfold rf. destruct xs as [g'|]; [|done].
      rewrite refn_new; [|rewrite lookup_delete_ne //]. by rewrite (refn_del g (t_ref q) src g' Hrs). }
    match goal with |- inv n ?q' => set (q1 := q') end.
    assert (q1 = set_todo (<[t := [MNull src]]> (t_todo q)) (set_ref rf (set_hs (<[h := (t, xs)]> (t_hs q)) q))) as ->.
    { unfold q1, rf. destruct xs; done. }
    match goal with |- inv n ?q' => set (q1 := q') end.
    assert (Htd : t_todo q1 = <[t := [MNull src]]> (t_todo q)) by done.
    assert (K : forall u, u <> t -> keeps q q1 u).
    { intros u Hne. split; cbn; [|done|done]. intros h' x Hx. rewrite lookup_insert_ne //. congruence. }
    assert (Hdel := del_keep q q1 t [MNull src] Htd ltac:(done) ltac:(nodel Ht)).
    split; cbn.
    - apply (thr_gen n q q1 t [MNull src] (Some src) I Htd K); cbn.
      + left. constructor. exists xs. cbn. by rewrite lookup_insert_ne.
      + intros h' x Hx. rewrite Hrf. destruct (decide (h' = h)) as [->|].
        * rewrite lookup_insert in Hx. injection Hx as <-. rewrite decide_False //. congruence.
        * rewrite lookup_insert_ne // in Hx. destruct (decide (h' = src)) as [->|].
          -- by rewrite decide_True.
          -- rewrite (Hr _ _ Hx). rewrite !decide_False //; congruence.
      + intros u h' x Hne. rewrite Hrf. destruct (decide (h' = h)) as [->|]; [rewrite lookup_insert; congruence|].
        rewrite lookup_insert_ne //. intros Hx. rewrite decide_False //. congruence.
    - intros h' [H1 H2]%lookup_insert_None. rewrite Hrf. rewrite decide_False //. destruct (decide (h' = src)); [done|].
      by apply (i_dom _ _ I).
    - intros g k Hk. rewrite Hrn. destruct (i_cnt _ _ I g k Hk) as [H1 [H2|[u H2]]]; split; auto.
      right. exists u. by apply Hdel.
    - intros h' g. rewrite Hrf. destruct (decide (h' = h)) as [->|]; [intros ->; by apply (i_live _ _ I src)|].
      destruct (decide (h' = src)); [done|]. apply (i_live _ _ I).
    - intros u g H%Hdel. destruct (i_del _ _ I u g H) as (H1&H2&H3). rewrite Hrn.
      split_and!; [done..|]. intros u' Hu'. apply H3. by apply Hdel.
    - apply (i_free _ _ I).
    - apply (lock_keep n q q1 t _ I Htd K). nohold Ht.
    - apply (i_fresh _ _ I).
    - assert (size rf <= size (t_ref q))%nat as Hsz.
      { unfold rf. destruct xs as [g|]; [|done]. rewrite map_size_insert_None; [|rewrite lookup_delete_ne //].
        rewrite map_size_delete Hrs. assert (size (t_ref q) <> 0)%nat; [|lia]. intros E%map_size_empty_inv. by rewrite E in Hrs. }
      pose proof (i_size _ _ I). lia.
    - intros x u g b Hx. rewrite Hrn. by apply (i_has _ _ I x u g b).
  Qed.

  Lemma dec_at n q t h l : inv n q -> todo t q = MDec h :: l ->
    exists xh, t_hs q !! h = Some (t, xh) /\ at_point q t l (Some h) /\
      forall h x, t_hs q !! h = Some (t, x) -> t_ref q !! h = x.
  Proof.
    intros I Ht. here I t Ht e He Hr; has h xh Hh; exists xh; (split; [done|]); (split; [constructor; try done; by exists xh|done]).
  Qed.

  Lemma inv_dec n q t h l g k : inv n q -> todo t q = MDec h :: l -> tptr h q = Some g -> t_bk q !! g = Some k ->
    bool_decide (owners g (delete h (t_ref q)) = ∅) && negb (bool_decide (blocks_of g (t_has q) = ∅)) = false ->
    inv n (set_todo (<[t := (if tb_cnt k =? 1 then [MDel g] else []) ++ l]> (t_todo q)) (set_ref (delete h (t_ref q))
      (set_bk (<[g := TBlock (tb_addr k) (tb_in k) (sub64 (tb_cnt k) 1) (tb_lock k) (tb_busy k)]> (t_bk q)) q))).
  Proof.
    intros I Ht Hp Hk Hout.
    destruct (dec_at n q t h l I Ht) as (xh&Hh&HP&Hr).
    assert (xh = Some g) as ->. { unfold tptr in Hp. by rewrite Hh in Hp. }
    assert (Hrh := Hr _ _ Hh).
    assert (Hrn : forall g', refn g' (t_ref q) = (hitn g g' + refn g' (delete h (t_ref q)))%nat) by (intros g'; by apply refn_del).
    pose proof (Hrn g) as Hg1. rewrite hitn_same in Hg1.
    destruct (i_cnt _ _ I g k Hk) as [Hc _].
    pose proof (i_size _ _ I) as Hsz. pose proof (refn_le g (t_ref q)) as Hle.
    assert (Hndel : forall u, ~ deleting q u g). { intros u H%(i_del _ _ I). lia. }
    assert (Hnd : forall g0, ~ deleting q t g0). { nodel Ht. }
    assert (Hnh : forall g0, ~ holder q t g0).
    { intros g0 (h'&_&[[b H]|[[b H]|H]]); rewrite Ht in H; try congruence. injection H as _ ->. by inversion HP. }
    assert (Hl0 : forall g0 l', l <> MDel g0 :: l').
    { intros g0 l' ->. inversion HP; subst; match goal with H : body_ok _ _ _ _ _ |- _ => destruct H as [(?&?&[=]&_)|(?&?&[=]&_)] end. }
    match goal with |- inv n ?q' => set (q1 := q') end.
    set (l1 := (if tb_cnt k =? 1 then [MDel g] else []) ++ l) in *.
    assert (Htd : t_todo q1 = <[t := l1]> (t_todo q)) by done.
    assert (K' : forall u, keeps q q1 u).
    { intros u. split; cbn; [done|done|].
      intros g' b (k'&Hk'&H1&H2). destruct (decide (g' = g)) as [->|]; [|exists k'; cbn; by rewrite lookup_insert_ne].
      assert (k' = k) as -> by congruence. eexists. cbn. rewrite lookup_insert. done. }
    assert (K : forall u, u <> t -> keeps q q1 u) by auto.
    (* the deletion begins exactly when no reference is left *)
    assert (Hdel : forall u g', deleting q1 u g' <-> deleting q u g' \/ (u = t /\ g' = g /\ refn g (delete h (t_ref q)) = 0%nat)).
    { intros u g'. destruct (decide (u = t)) as [->|Hne].
      - split.
        + intros [l' H]. unfold todo in H. rewrite Htd lookup_insert in H. unfold l1 in H. cbn [default] in H.
          destruct (N.eqb_spec (tb_cnt k) 1) as [E|E]; cbn [app] in H; [|by apply Hl0 in H].
          injection H as <- _. right. split_and!; [done..|]. lia.
        + intros [H|(_&->&H)]; [by apply Hnd in H|]. exists l. unfold todo. rewrite Htd lookup_insert. unfold l1. cbn [default].
          rewrite (proj2 (N.eqb_eq (tb_cnt k) 1)); [done|]. lia.
      - split.
        + intros [l' H]. left. exists l'. unfold todo in H |- *. rewrite Htd lookup_insert_ne // in H.
        + intros [[l' H]|[? _]]; [|done]. exists l'. unfold todo in H |- *. rewrite Htd lookup_insert_ne //. }
    split; cbn.
    - apply (thr_gen n q q1 t l1 (Some h) I Htd K); cbn.
      + apply (keeps_point _ q1) in HP; [|done]. unfold l1. destruct (tb_cnt k =? 1); [|by left]. right. exists g, l. by split_and!.
      + intros h' x Hx. destruct (decide (h' = h)) as [->|].
        * rewrite decide_True //. by rewrite lookup_delete.
        * rewrite decide_False; [|congruence]. rewrite lookup_delete_ne //. by apply Hr.
      + intros u h' x Hne Hx. split; [done|]. rewrite lookup_delete_ne //. congruence.
    - intros h' H1. apply lookup_delete_None. right. by apply (i_dom _ _ I).
    - intros g' k'. destruct (decide (g' = g)) as [->|Hne].
      + rewrite lookup_insert. intros [= <-]. cbn. split.
        * rewrite Hc Hg1. rewrite sub64_small; lia.
        * destruct (refn g (delete h (t_ref q))) as [|r] eqn:E; [|left; lia]. right. exists t. apply Hdel. by right.
      + rewrite lookup_insert_ne //. intros Hk'. pose proof (Hrn g') as Hg2. rewrite hitn_other // in Hg2. cbn in Hg2. rewrite -Hg2.
        destruct (i_cnt _ _ I g' k' Hk') as [H1 [H2|[u H2]]]; split; auto. right. exists u. apply Hdel. by left.
    - intros h' g' [_ Hx]%lookup_delete_Some. rewrite lookup_insert_is_Some'. right. by eapply (i_live _ _ I).
    - intros u g' [H|(->&->&H)]%Hdel.
      + destruct (i_del _ _ I u g' H) as (H1&H2&H3). pose proof (Hrn g') as Hg2.
        assert (g <> g') by (intros <-; by eapply Hndel).
        rewrite lookup_insert_ne //. split_and!; [done|lia|]. intros u' [H'|(->&->&_)]%Hdel; [by apply H3|done].
      + rewrite lookup_insert. split_and!; [by eexists|done|]. intros u' [H'|(->&_&_)]%Hdel; [by apply Hndel in H'|done].
    - intros g' k'. destruct (decide (g' = g)) as [->|]; [rewrite lookup_insert; intros [= <-]; by apply (i_free _ _ I g k)|].
      rewrite lookup_insert_ne //. apply (i_free _ _ I).
    - intros g' k' u. assert (L := lock_keep n q q1 t l1 I Htd K Hnh).
      destruct (decide (g' = g)) as [->|]; [rewrite lookup_insert; intros [= <-]; by apply (L g k)|].
      rewrite lookup_insert_ne //. apply L.
    - intros g' Hg. rewrite lookup_insert_ne; [by apply (i_fresh _ _ I)|]. intros <-. by rewrite (i_fresh _ _ I _ Hg) in Hk.
    - rewrite map_size_delete Hrh. lia.
    - intros x u g' b Hx. pose proof (i_has _ _ I x u g' b Hx) as Hpos. destruct (decide (g' = g)) as [->|Hne].
      + destruct (refn g (delete h (t_ref q))) as [|r] eqn:E; [exfalso|lia].
        apply map_size_empty_inv in E. rewrite (bool_decide_eq_true_2 _ E) in Hout. cbn in Hout.
        apply negb_false_iff, bool_decide_eq_true in Hout.
        assert (blocks_of g (t_has q) !! x = Some b) as Hb.
        { unfold blocks_of. rewrite lookup_omap Hx. cbn. unfold of_block. cbn. by rewrite decide_True. }
        by rewrite Hout in Hb.
      + rewrite Hrn hitn_other // in Hpos.
  Qed.

  Lemma inv_del n q t g l k : inv n q -> todo t q = MDel g :: l -> t_bk q !! g = Some k ->
    tb_lock k = None /\ tb_busy k = false /\ blocks_of g (t_has q) = ∅ /\
    inv n (set_todo (<[t := l]> (t_todo q)) (set_bk (delete g (t_bk q)) q)).
  Proof.
    intros I Ht Hk. destruct (i_del _ _ I t g) as (_&Hz&Huniq); [by exists l|].
    assert (Hnh : forall u, ~ holder q u g).
    { intros u (h&Hx&H). destruct (at_todo n q u I) as (e&He&Hr).
      assert (e = None) as ->.
      { destruct H as [[b H]|[[b H]|H]]; rewrite H in He; (destruct He as [He|(g'&l'&E&He&Hs)]; [by inversion He; subst|]);
          injection E as E1 E2; subst; inversion He; subst; by destruct Hs. }
      assert (refn g (t_ref q) <> 0)%nat; [|done]. apply Nat.neq_0_lt_0, refn_pos. exists h. by rewrite (Hr _ _ Hx). }
    assert (Hlk : tb_lock k = None).
    { destruct (tb_lock k) as [u|] eqn:E; [|done]. by destruct (Hnh u (i_lock _ _ I g k u Hk E)). }
    split; [done|]. split; [by apply (i_free _ _ I g k)|]. split.
    { apply map_empty. intros x. unfold blocks_of. rewrite lookup_omap. destruct (t_has q !! x) as [[u [[g' b]|]]|] eqn:Hx; try done.
      cbn. unfold of_block. cbn. destruct (decide (g' = g)) as [->|]; [|done]. pose proof (i_has _ _ I x u g b Hx). lia. }
    destruct (at_todo n q t I) as (e&He&Hr). rewrite Ht in He.
    destruct He as [He|(g'&l'&[= <- <-]&HP&Hs)].
    { inversion He; subst. match goal with H : body_ok _ _ _ _ _ |- _ => destruct H as [(?&?&[=]&_)|(?&?&[=]&_)] end. }
    assert (Hl0 : forall g0 l', l <> MDel g0 :: l').
    { intros g0 l' ->. inversion HP; subst; match goal with H : body_ok _ _ _ _ _ |- _ => destruct H as [(?&?&[=]&_)|(?&?&[=]&_)] end. }
    match goal with |- inv n ?q' => set (q1 := q') end.
    assert (Htd : t_todo q1 = <[t := l]> (t_todo q)) by done.
    assert (K' : forall u, keeps q q1 u).
    { intros u. split; cbn; [done|done|]. intros g' b (k'&Hk'&H1&H2). exists k'. cbn.
      rewrite lookup_delete_ne //. intros <-. congruence. }
    assert (K : forall u, u <> t -> keeps q q1 u) by auto.
    assert (Hnt : forall g', ~ holder q t g').
    { intros g' (h&_&[[b H]|[[b H]|H]]); rewrite Ht in H; try congruence. injection H as _ ->. by inversion HP; subst; destruct Hs. }
    assert (Hdel : forall u g', deleting q1 u g' <-> deleting q u g' /\ g' <> g).
    { intros u g'. destruct (decide (u = t)) as [->|Hne].
      - split; [intros [l' H]; unfold todo in H; rewrite Htd lookup_insert in H; by apply Hl0 in H|].
        intros [[l' H] Hg]. rewrite Ht in H. congruence.
      - split.
        + intros [l' H]. unfold todo in H. rewrite Htd lookup_insert_ne // in H. split; [by exists l'|]. intros ->. apply Hne, Huniq. by exists l'.
        + intros [[l' H] _]. exists l'. unfold todo. by rewrite Htd lookup_insert_ne. }
    split; cbn.
    - apply (thr_gen n q q1 t l e I Htd K); cbn; [|done|done]. left. by apply (keeps_point q).
    - apply (i_dom _ _ I).
    - intros g' k' [Hne Hk']%lookup_delete_Some. destruct (i_cnt _ _ I g' k' Hk') as [H1 [H2|[u H2]]]; split; auto.
      right. exists u. by apply Hdel.
    - intros h g' Hx. rewrite lookup_delete_ne; [by apply (i_live _ _ I h)|]. intros <-.
      assert (0 < refn g (t_ref q))%nat; [|lia]. apply refn_pos. by exists h.
    - intros u g' [H Hne]%Hdel. destruct (i_del _ _ I u g' H) as (H1&H2&H3). rewrite lookup_delete_ne //. split_and!; [done..|].
      intros u' [H' _]%Hdel. by apply H3.
    - intros g' k' [Hne Hk']%lookup_delete_Some. by apply (i_free _ _ I g').
    - intros g' k' u [Hne Hk']%lookup_delete_Some. by apply (lock_keep n q q1 t l I Htd K Hnt).
    - intros g' Hg. apply lookup_delete_None. right. by apply (i_fresh _ _ I).
    - apply (i_size _ _ I).
    - apply (i_has _ _ I).
  Qed.
End inv.
