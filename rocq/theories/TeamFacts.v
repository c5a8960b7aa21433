(** What holds for every schedule of threads that use atomic_shared<threaded<...>>. *)
From iris.proofmode Require Import tactics.
From Verif Require Import Base Mem Sep Wp Bits AlignedMalloc AlignedMallocProofs Allocators Contract NodeProofs Adequacy
  Env Tree TreeProofs NoFail AllocSpec AllocFacts AllocProofs Client ClientProofs CrowdProofs SharedSafe Team TeamProofs TeamSafe.

Local Open Scope N_scope.

Lemma holds_pure (P : hpropI) φ s : (P ⊢ ⌜φ⌝) -> hholds P s -> φ.
Proof. intros H Hs. rewrite hunfold_entails in H. apply H in Hs. by rewrite hunfold_pure in Hs. Qed.

Section facts.
  Context {bad : event -> bool} {A : alloc} {req : N -> bool}.
  Context (CA : contract bad A req) (pl : platform).
  Context (Hpl : pl <> PPosix) (Hfail : bad EvFail || bad EvRefuse = true) (Hsz : a_size A + 32 < W).
  Implicit Types q : team A.

  Lemma inv0 n : N.of_nat n < W -> inv n (@team0 A).
  Proof.
    intros Hn. split; cbn; try done.
    - intros t. exists None. split; [left; constructor|done].
    - by intros t g [l H].

  Qed.

  (** One block, all of it. *)
  Lemma fam_one n q x t g p vs : inv n q -> t_has q !! x = Some (t, Some (g, (p, vs))) ->
    fam CA pl (t_bk q) (t_has q) ⊢ ∃ cs, ⌈Forall2 cmatch cs vs /\ good (p, N.of_nat (length vs))⌉ ∗ p ↦∗ cs ∗ ⌜True⌝.
  Proof.
    intros I Hx. destruct (has_live _ q x t g (p, vs) I Hx) as [k Hk]. assert (Hbx := blocks_of_lookup _ _ _ _ _ Hx).
    iIntros "H". iDestruct (fam_take _ _ _ _ _ _ Hk with "H") as "[(%B & %HB & Hbox & Hbl) H]".
    destruct (has_match_some _ _ _ _ _ HB Hbx) as (cs&HBx&Hcs).
    iAssert ⌜good (p, N.of_nat (length vs))⌝%I as %Hg.
    { iDestruct "Hbox" as "(HJ & _)". iDestruct (c_good _ _ _ CA with "HJ") as %Hg. iPureIntro.
      rewrite (shape_perm _ _ (held_delete B x _ HBx)) shape_cons in Hg. apply Forall_cons_iff in Hg as [Hg _].
      unfold bsize in Hg. cbn [fst snd] in Hg. by rewrite -(Forall2_length _ _ _ Hcs). }
    rewrite (blocks_perm _ _ (held_delete B x _ HBx)) blocks_cons. iDestruct "Hbl" as "[Hpt Hbl]".
    iExists cs. iFrame "Hpt". iSplit; [by iPureIntro|by iPureIntro].
  Qed.

  (** Two blocks *)
  Lemma fam_two n q x t g p vs x' t' g' p' vs' : inv n q -> x' <> x ->
    t_has q !! x = Some (t, Some (g, (p, vs))) -> t_has q !! x' = Some (t', Some (g', (p', vs'))) ->
    fam CA pl (t_bk q) (t_has q) ⊢
      ⌜p + N.of_nat (length vs) <= p' \/ p' + N.of_nat (length vs') <= p \/ vs = [] \/ vs' = []⌝.
  Proof.
    intros I Hne Hx Hx'. destruct (has_live _ q x t g (p, vs) I Hx) as [k Hk].
    destruct (has_live _ q x' t' g' (p', vs') I Hx') as [k' Hk'].
    assert (Hbx := blocks_of_lookup _ _ _ _ _ Hx). assert (Hbx' := blocks_of_lookup _ _ _ _ _ Hx').
    assert (Hend : forall cs cs', Forall2 cmatch cs vs -> Forall2 cmatch cs' vs' ->
      p ↦∗ cs ∗ p' ↦∗ cs' ⊢ ⌜p + N.of_nat (length vs) <= p' \/ p' + N.of_nat (length vs') <= p \/ vs = [] \/ vs' = []⌝).
    { intros cs cs' H1 H2. rewrite pts_disj. iPureIntro. rewrite -(Forall2_length _ _ _ H1) -(Forall2_length _ _ _ H2).
      intros [->|[->|Hd]]; [right; right; left; by inversion H1|do 3 right; by inversion H2|lia]. }
    iIntros "H". iDestruct (fam_take _ _ _ _ _ _ Hk with "H") as "[(%B & %HB & Hbox & Hbl) H]".
    destruct (has_match_some _ _ _ _ _ HB Hbx) as (cs&HBx&Hcs).
    rewrite (blocks_perm _ _ (held_delete B x _ HBx)) blocks_cons. iDestruct "Hbl" as "[Hpt Hbl]".
    destruct (decide (g' = g)) as [->|Hg].
    - destruct (has_match_some _ _ _ _ _ HB Hbx') as (cs'&HBx'&Hcs').
      rewrite -(lookup_delete_ne B x x') // in HBx'.
      rewrite (blocks_perm _ _ (held_delete _ x' _ HBx')) blocks_cons. iDestruct "Hbl" as "[Hpt' Hbl]".
      iDestruct (Hend cs cs' Hcs Hcs' with "[$Hpt $Hpt']") as %He. by iPureIntro.
    - rewrite -(lookup_delete_ne (t_bk q) g g') // in Hk'.
      iDestruct (fam_take _ _ _ _ _ _ Hk' with "H") as "[(%B' & %HB' & Hbox' & Hbl') H]".
      destruct (has_match_some _ _ _ _ _ HB' Hbx') as (cs'&HBx'&Hcs').
      rewrite (blocks_perm _ _ (held_delete B' x' _ HBx')) blocks_cons. iDestruct "Hbl'" as "[Hpt' Hbl']".
      iDestruct (Hend cs cs' Hcs Hcs' with "[$Hpt $Hpt']") as %He. by iPureIntro.
  Qed.

  Lemma pts_in p cs s i c : hholds (p ↦∗ cs ∗ ⌜True⌝)%I s -> cs !! i = Some c -> mem s !! (p + N.of_nat i) = Some c.
  Proof.
    intros H Hi. assert (Hl := lookup_lt_Some _ _ _ Hi).
    assert (E : (p ↦∗ cs ∗ ⌜True⌝ ⊢ (p + N.of_nat i) ↦ c ∗ ⌜True⌝)%I).
    { iIntros "[H _]". iDestruct (pts_take_ne p cs (p + N.of_nat i) with "[$H]") as (c') "(%Hc & Hx & Hx')"; [iPureIntro; lia|].
      replace (N.to_nat (p + N.of_nat i - p)) with i in Hc by lia. assert (c' = c) as -> by congruence. iFrame. }
    rewrite hunfold_entails in E. apply E in H. rewrite hunfold_sep in H. destruct H as (s1&s2&->&Hd&H1&_).
    by apply pt_lookup.
  Qed.

  Lemma run_inv sch w : N.of_nat (length sch) < W -> Forall (fun n => req n = true /\ n < W) (trequests sch) ->
    match trun pl A sch team0 w with
    | Ok q w' evs =>
      existsb bad evs = true \/
      forallb benign evs = true /\ inv 0 q /\
      (forall i c, mem (st w) !! i = Some c -> mem (st w') !! i = Some c) /\
      holds_blocks (mem (st w)) (mem (st w')) (t_has q) /\
      (quiet q -> st w' = st w)
    | Err _ evs => existsb bad evs = true
    end.
  Proof.
    intros Hlen Hreq.
    assert (Hok : Forall (fun x => call_ok (req := req) (snd x)) sch).
    { clear Hlen. induction sch as [|[t c] sch IH]; [constructor|]. unfold trequests in Hreq. cbn [flat_map] in Hreq.
      apply Forall_app in Hreq as [H0 H]. constructor; [|by apply IH]. cbn [snd] in *.
      destruct c; try exact Logic.I. by apply Forall_cons_iff in H0 as [? _]. }
    assert (Hwp : emp ⊢ wp bad (trun pl A sch team0) (good_state CA pl 0)).
    { rewrite -(trun_spec CA pl Hpl Hfail Hsz sch 0 team0 Hok). iIntros "_". unfold good_state. iSplit.
      - iPureIntro. split; [apply inv0; lia|]. intros t. constructor.
      - unfold fam. cbn. by rewrite big_sepM_empty. }
    apply (wp_adequate_emp _ _ _ w) in Hwp. destruct (trun _ _ _ _ _) as [q w' evs|u evs]; [|done].
    destruct Hwp as [Hb|(H1&s&H2&H3&H4)]; [by left|right].
    unfold good_state in H4. rewrite hunfold_sep in H4. destruct H4 as (s1&s2&->&Hd&Hp&Hf).
    rewrite hunfold_apure in Hp. destruct Hp as [-> [I _]]. rewrite sunion_empty_l in H2 H3. clear Hd.
    assert (Hdis : forall i c, mem s2 !! i = Some c -> mem (st w') !! i = Some c /\ mem (st w) !! i = None).
    { intros i c Hi. rewrite H2. split; [cbn; by apply lookup_union_Some_l|].
      destruct H3 as [H3 _]. by eapply map_disjoint_Some_l. }
    split_and!; [done|done|..].
    - intros i c Hi. rewrite H2. cbn. rewrite map_union_comm; [|apply H3]. by apply lookup_union_Some_l.
    - intros x t g p vs Hx.
      pose proof Hf as Hf1. pose proof (fam_one 0 q x t g p vs I Hx) as E. rewrite hunfold_entails in E. apply E in Hf1. clear E.
      rewrite hunfold_exist in Hf1. destruct Hf1 as [cs Hf1]. rewrite hunfold_sep in Hf1. destruct Hf1 as (sa&sb&Es&_&Ha&Hb).
      rewrite hunfold_apure in Ha. destruct Ha as [-> [Hcs (Hg1&Hg2&Hg3)]]. rewrite sunion_empty_l in Es. subst sb. cbn [fst snd] in *.
      assert (Hlen' := Forall2_length _ _ _ Hcs).
      split_and!; [done..| |].
      + intros i Hi. destruct (lookup_lt_is_Some_2 cs i) as [c Hc]; [lia|]. exists c.
        destruct (Hdis _ _ (pts_in p cs s2 i c Hb Hc)) as [H5 H6]. split_and!; [done..|]. intros v Hv.
        by destruct (Forall2_lookup_lr _ _ _ _ _ _ Hcs Hc Hv) as [_ ?].
      + intros x' t' g' p' vs' Hx' Hne. by apply (holds_pure _ _ _ (fam_two 0 q x t g p vs x' t' g' p' vs' I Hne Hx Hx') Hf).
    - intros [Hq1 Hq2].
      assert (Hbk : t_bk q = ∅).
      { apply map_empty. intros g. destruct (t_bk q !! g) as [k|] eqn:Hk; [exfalso|done].
        destruct (i_cnt _ _ I g k Hk) as [_ [Hpos|[t [l Hl]]]]; [|by rewrite Hq1 in Hl].
        apply refn_pos in Hpos as [h Hh]. destruct (t_hs q !! h) as [[t x]|] eqn:Hx; [|by rewrite (i_dom _ _ I _ Hx) in Hh].
        destruct (i_thr _ _ I t) as (e&_&Hr). rewrite (Hr _ _ Hx) in Hh. destruct (decide (e = Some h)); [done|]. subst x.
        by eapply Hq2. }
      assert (fam CA pl (t_bk q) (t_has q) ⊢ emp) as Hemp by (unfold fam; by rewrite Hbk big_sepM_empty).
      rewrite hunfold_entails in Hemp. apply Hemp in Hf. rewrite hunfold_emp in Hf. subst s2.
      by rewrite H2 sunion_empty_l.
  Qed.
End facts.

(** * At rest and progress *)
Section progress.
  Context {A : alloc} (pl : platform).
  Implicit Types q : team A.

  Lemma rest_refs n q g : inv n q -> at_rest q -> refn g (t_ref q) = refers g q.
  Proof.
    intros I Hr. unfold refn, owners, refers. rewrite -!size_dom. f_equal. apply set_eq. intros h.
    assert (Hh : t_ref q !! h = Some g <-> exists t, t_hs q !! h = Some (t, Some g)).
    { destruct (t_hs q !! h) as [[t x]|] eqn:Hx.
      - destruct (i_thr _ _ I t) as (e&He&Hr1). rewrite Hr in He. destruct He as [He|(g0&l0&E&_)]; [|done]. inversion He; subst e.
        assert (Hrx := Hr1 _ _ Hx). destruct (decide (None = Some h)); [done|]. rewrite Hrx. split; [intros ->; by exists t|intros [t' [= -> ->]]; done].
      - rewrite (i_dom _ _ I _ Hx). split; [done|]. by intros [t ?]. }
    rewrite !elem_of_dom. split.
    - intros [y Hy]. apply map_filter_lookup_Some in Hy as [Hy Hg]. cbn in Hg. subst y. apply Hh in Hy as [t Ht].
      exists (t, Some g). by apply map_filter_lookup_Some.
    - intros [[t y] Hy]. apply map_filter_lookup_Some in Hy as [Hy Hg]. cbn in Hg. subst y.
      exists g. apply map_filter_lookup_Some. split; [|done]. apply Hh. by exists t.
  Qed.

  Lemma rest_blocks n q : inv n q -> at_rest q ->
    (forall g k, t_bk q !! g = Some k ->
       tb_cnt k = N.of_nat (refers g q) /\ (0 < refers g q)%nat /\ tb_lock k = None /\ tb_busy k = false) /\
    (forall h t g, t_hs q !! h = Some (t, Some g) -> is_Some (t_bk q !! g)).
  Proof.
    intros I Hr. split.
    - intros g k Hk. destruct (i_cnt _ _ I g k Hk) as [H1 H2]. rewrite (rest_refs n q g I Hr) in H1 H2.
      destruct H2 as [H2|[t [l Hl]]]; [|by rewrite Hr in Hl].
      assert (Hl : tb_lock k = None).
      { destruct (tb_lock k) as [t|] eqn:Ht; [exfalso|done]. destruct (i_lock _ _ I g k t Hk Ht) as (h&_&[[b H]|[[b H]|H]]);
          by rewrite Hr in H. }
      split_and!; [done..|]. by apply (i_free _ _ I g k).
    - intros h t g Hh. apply (i_live _ _ I h). destruct (i_thr _ _ I t) as (e&He&Hr1). rewrite Hr in He.
      destruct He as [He|(g0&l0&E&_)]; [|done]. inversion He; subst e. assert (Hrx := Hr1 _ _ Hh). by destruct (decide (None = Some h)).
  Qed.

  Lemma bind_none {S T} (m : M S) (f : S -> M T) w r w' evs : bind m f w = Ok r w' evs ->
    exists s w1 e1 e2, m w = Ok s w1 e1 /\ f s w1 = Ok r w' e2.
  Proof.
    unfold bind. destruct (m w) as [s w1 e1|u e1]; [|done]. destruct (f s w1) as [x w2 e2|u e2] eqn:E; [|done].
    intros [= -> -> _]. eauto 10.
  Qed.

  (** Only these two steps ever wait. *)
  Lemma exec_goes t m q w w' evs : exec pl A t m q w = Ok None w' evs ->
    (exists h g k u, m = MLock h /\ tptr h q = Some g /\ t_bk q !! g = Some k /\ tb_lock k = Some u) \/
    (exists h g, m = MDec h /\ tptr h q = Some g /\ blocks_of g (t_has q) <> ∅).
  Proof.
    assert (Hd : forall h w s w1 e, deref A h q w = Ok s w1 e -> tptr h q = Some (fst s) /\ t_bk q !! fst s = Some (snd s)).
    { intros h w0 s w1 e. unfold deref. destruct (tptr h q) as [g|]; [|done]. destruct (t_bk q !! g) as [k|] eqn:Hk; [|done].
      by intros [= <- _ _]. }
    destruct m; cbn [exec]; intros H; repeat match goal with
    | H : bind _ _ _ = Ok None _ _ |- _ => apply bind_none in H as (?&?&?&?&?&H)
    | H : (if ?c then _ else _) _ = Ok None _ _ |- _ => destruct c eqn:?
    | H : (match ?c with _ => _ end) _ = Ok None _ _ |- _ => destruct c eqn:?
    | H : ret _ _ = Ok None _ _ |- _ => unfold ret in H
    | H : ubm _ _ = Ok _ _ _ |- _ => done
    | H : Ok (Some _) _ _ = Ok None _ _ |- _ => done
    end; try done.
    - right. match goal with H : deref _ _ _ _ = _ |- _ => apply Hd in H as [H1 H2] end. cbn in *.
      exists h. eexists. split_and!; [done|done|]. intros E.
      match goal with H : _ && _ = true |- _ => apply andb_true_iff in H as [_ H]; rewrite bool_decide_eq_true_2 // in H end.
    - left. match goal with H : deref _ _ _ _ = _ |- _ => apply Hd in H as [H1 H2] end. cbn in *. eauto 10.
  Qed.

  Lemma waits_why n q t w : inv n q -> waits pl A t q w -> waits_lock pl A t q \/ waits_memory t q.
  Proof.
    intros I (m&l&w'&evs&Ht&H). destruct (exec_goes _ _ _ _ _ _ H) as [(h&g&k&u&->&Hh&Hk&Hu)|(h&g&->&Hh&Hne)].
    - left. exists h, l, g, k, u, (todo u q). destruct (i_lock _ _ I g k u Hk Hu) as (h'&Hh'&Hl).
      assert (Hp : tptr h' q = Some g) by (unfold tptr; by rewrite Hh').
      assert (Hb : forall b, In b (todo u q) -> forall q1 w w' evs, exec pl A u b q1 w <> Ok None w' evs).
      { destruct (i_thr _ _ I u) as (e&He&_). intros b Hin q1 w1 w1' ev1 E.
        apply exec_goes in E. assert (Hno : forall h0, b <> MLock h0 /\ b <> MDec h0).
        { assert (Hbd : forall b0 hh gg, body_ok q u b0 hh gg -> forall h0, b0 <> MLock h0 /\ b0 <> MDec h0).
          { by intros b0 hh gg [(x&nn&->&_)|(x&kk&->&_)]. }
          intros h0. destruct Hl as [[b0 E0]|[[b0 E0]|E0]]; rewrite E0 in Hin, He.
          - destruct He as [He|(g0&l0&E1&_)]; [|done]. inversion He; subst; destruct Hin as [<-|[<-|[<-|[]]]]; try done; by eapply Hbd.
          - destruct He as [He|(g0&l0&E1&He&_)].
            + inversion He; subst; try (destruct Hin as [<-|[<-|[]]]; try done; by eapply Hbd).
            + injection E1 as -> <-. destruct Hin as [<-|[<-|[]]]; done.
          - destruct Hin as [<-|[]]; done. }
        destruct E as [(hh&?&?&?&->&_)|(hh&?&->&_)]; by destruct (Hno hh). }
      assert (u <> t) as Hne.
      { intros ->. apply (Hb (MLock h)) in H; [done|]. rewrite Ht. by left. }
      split_and!; try done.
      + destruct Hl as [[b E]|[[b E]|E]]; rewrite E; cbn; lia.
      + destruct Hl as [[b E]|[[b E]|E]]; rewrite E; cbn; lia.
      + intros i m Hi. apply Hb. apply elem_of_list_In. by eapply elem_of_list_lookup_2.
      + exists h'. split; [|done]. destruct Hl as [[b E]|[[b E]|E]]; by rewrite E.
    - right. exists h, l, g. split_and!; [done|done|]. apply map_choose in Hne as (x&b&Hx).
      unfold blocks_of in Hx. rewrite lookup_omap in Hx. destruct (t_has q !! x) as [[u v]|] eqn:Hv; [|done].
      cbn in Hx. unfold of_block in Hx. cbn in Hx. destruct v as [[g' b']|]; [|done]. destruct (decide (g' = g)) as [->|]; [|done].
      exists x, u, b'. done.
  Qed.

  Lemma no_deadlock n q w : inv n q -> (exists t, todo t q <> []) ->
    (exists t, todo t q <> [] /\ ~ waits pl A t q w) \/ exists t, waits pl A t q w /\ waits_memory t q.
  Proof.
    intros I [t Ht].
    assert (Hdec : waits pl A t q w \/ ~ waits pl A t q w).
    { destruct (todo t q) as [|m l] eqn:E; [done|]. unfold waits. rewrite E.
      destruct (exec pl A t m q w) as [[r|] w' evs|u evs] eqn:He;
        [right|left; by exists m, l, w', evs|right]; intros (m'&l'&w1&ev1&[= <- <-]&?); congruence. }
    destruct Hdec as [Hw|Hw]; [|left; by exists t]. destruct (waits_why n q t w I Hw) as [H|H]; [left|right; by exists t].
    destruct H as (h&l&g&k&u&l'&_&_&_&_&_&Hu&Hlen&Hgo&_). exists u. split; [intros E; rewrite -Hu E in Hlen; cbn in Hlen; lia|].
    intros (m&l1&w'&evs&E&He). rewrite -Hu E in Hgo. by apply (Hgo 0%nat m eq_refl) in He.
  Qed.
End progress.

(** * Whole programs *)

Lemma trun_firm pl A sch q : pl <> PPosix -> a_size A + 32 < W -> afirm A -> firm (trun pl A sch q).
Proof.
  intros Hpl Hsz HA. revert q. induction sch as [|[t c] sch IH]; intros q; cbn [trun]; [apply firm_ret|].
  apply firm_bind; [|auto]. unfold tstep. destruct (todo t q) as [|m l]; [apply firm_ret|].
  apply firm_bind; [|intros; apply firm_ret].
  assert (Hd : forall h, firm (deref A h q)). { intros h. unfold deref. firm. }
  destruct HA as [Hi Hdt Ha Hf _ _]. destruct m; cbn [exec]; try (apply firm_new; [done|lia|]); firm; auto with firm.
Qed.

Section team.
  Context (pl : platform) (e : aexp).
  Local Notation A := (den pl (EThreaded e)).

  (** The state after any schedule *)
  Lemma team_tree_inv sch w :
    pl <> PPosix -> wf (EShared (EThreaded e)) = true -> N.of_nat (length sch) < W ->
    Forall (fun n => ereq pl e n = true /\ n < W) (trequests sch) ->
    match trun pl A sch team0 w with
    | Ok q w' evs =>
      forallb benign evs = true /\ inv 0 q /\
      (forall i c, mem (st w) !! i = Some c -> mem (st w') !! i = Some c) /\
      holds_blocks (mem (st w)) (mem (st w')) (t_has q) /\
      (quiet q -> st w' = st w)
    | Err u evs => u = UBNull /\ starved evs = true
    end.
  Proof.
    intros Hpl Hwf Hlen Hreq. cbn [wf] in Hwf. apply andb_true_iff in Hwf as [Hwf Hs].
    destruct (tree_contract is_fail pl (EThreaded e) Hpl Hwf) as [C _]; [done|].
    pose proof (run_inv C pl Hpl eq_refl ltac:(rewrite den_size; lia) sch w Hlen Hreq) as H.
    pose proof (trun_firm pl A sch team0 Hpl ltac:(rewrite den_size; lia) (tree_firm pl (EThreaded e) Hpl Hwf) w) as Hf.
    destruct (trun _ _ _ _ _) as [q w' evs|u evs].
    - rewrite Hf in H. by destruct H.
    - destruct (Hf H) as [-> Hr]. unfold starved. by rewrite H Hr.
  Qed.
End team.

Section results.
  Context (pl : platform) (e : aexp).
  Local Notation A := (den pl (EThreaded e)).
  Context (sch : list (nat * tcall)) (w : world).
  Context (Hpl : pl <> PPosix) (Hwf : wf (EShared (EThreaded e)) = true) (Hlen : N.of_nat (length sch) < W)
    (Hreq : Forall (fun n => ereq pl e n = true /\ n < W) (trequests sch)).

  Lemma team_tree_safe :
    match trun pl A sch team0 w with
    | Ok q w' evs =>
      forallb benign evs = true /\
      (forall i c, mem (st w) !! i = Some c -> mem (st w') !! i = Some c) /\
      holds_blocks (mem (st w)) (mem (st w')) (t_has q) /\
      (quiet q -> st w' = st w)
    | Err u evs => u = UBNull /\ starved evs = true
    end.
  Proof.
    pose proof (team_tree_inv pl e sch w Hpl Hwf Hlen Hreq) as H. destruct (trun _ _ _ _ _); [|done]. naive_solver.
  Qed.

  Context (q : team A) (w' : world) (evs : list event) (Hrun : trun pl A sch team0 w = Ok q w' evs).

  Lemma team_reach : inv 0 q.
  Proof. pose proof (team_tree_inv pl e sch w Hpl Hwf Hlen Hreq) as H. rewrite Hrun in H. apply H. Qed.

  Lemma team_rest : at_rest q ->
    (forall g k, t_bk q !! g = Some k ->
       tb_cnt k = N.of_nat (refers g q) /\ (0 < refers g q)%nat /\ tb_lock k = None /\ tb_busy k = false) /\
    (forall h t g, t_hs q !! h = Some (t, Some g) -> is_Some (t_bk q !! g)).
  Proof. exact (rest_blocks 0 q team_reach). Qed.

  Lemma team_waits t w1 : waits pl A t q w1 -> waits_lock pl A t q \/ waits_memory t q.
  Proof. exact (waits_why pl 0 q t w1 team_reach). Qed.

  Lemma team_progress w1 : (exists t, todo t q <> []) ->
    (exists t, todo t q <> [] /\ ~ waits pl A t q w1) \/ exists t, waits pl A t q w1 /\ waits_memory t q.
  Proof. exact (no_deadlock pl 0 q w1 team_reach). Qed.
End results.

(** * Example *)

Definition times (n : nat) (x : nat * tcall) : list (nat * tcall) := repeat x n.

(** Three threads.  Thread 0 makes two groups and hands out copies; threads 0 and 1 allocate at the
    same time (the second has to wait); memory of thread 0 is returned by thread 2; assignment and
    move; two threads drop the last two handles of a group at the same time. *)
Definition team_setup : list (nat * tcall) :=
  (times 2 (0, TNew 0) ++ times 3 (0, TCopy 1 0) ++ times 2 (0, TGive 1 1) ++ times 3 (0, TCopy 2 0) ++ times 2 (0, TGive 2 2) ++
  times 2 (2, TNew 3))%nat.
Definition team_race : list (nat * tcall) :=
  ([(0, TAlloc 0 10 8); (1, TAlloc 1 11 16); (0, TAlloc 0 10 8); (1, TAlloc 1 11 16); (0, TAlloc 0 10 8)])%nat.
Definition team_use : list (nat * tcall) :=
  (times 4 (0, TAlloc 0 10 8) ++ times 5 (1, TAlloc 1 11 16) ++ times 2 (0, TWrite 10 3 7) ++ times 2 (0, TPass 10 2) ++
  times 2 (2, TRead 10 3))%nat.
Definition team_end : list (nat * tcall) :=
  (times 5 (2, TFree 2 10) ++ times 5 (1, TFree 1 11) ++ times 3 (0, TMove 4 0) ++ times 3 (0, TDestroy 0) ++
  times 5 (2, TAssign 3 2) ++ times 3 (2, TDestroy 2) ++
  [(1, TDestroy 1); (0, TDestroy 4); (1, TDestroy 1); (0, TDestroy 4); (1, TDestroy 1); (0, TDestroy 4)] ++
  times 4 (2, TDestroy 3))%nat.

(** What can be seen of a state: handles, counters with locks, variables, steps to do. *)
Definition view {A} (q : team A) :=
  (map_to_list (t_hs q), map (fun x => (fst x, tb_cnt (snd x), tb_lock (snd x))) (map_to_list (t_bk q)),
   map_to_list (t_has q), map (fun x => (fst x, length (snd x))) (map_to_list (t_todo q))).
Definition team_view (sch : list (nat * tcall)) :=
  outcome ((q <- trun PMalloc (den PMalloc (EThreaded (ELinear 64))) sch team0 ;; h <- heap_blocks ;; ret (view q, h)) (w_raw 0)).
