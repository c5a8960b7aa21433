(** freelist order, routing, cascading instances, construct/destroy (C14, C16, C17, C20, C38). *)
From Coq Require Import ssreflect.
From Verif Require Import Base Mem Wp Bits AlignedMalloc Allocators Checked Tree Client AllocSpec AllocFacts.

(** * Words in memory *)
Lemma wrs_ok cs a w : (forall i, a <= i < a + N.of_nat (length cs) -> is_Some (mem (st w) !! i)) ->
  exists w', wrs a cs w = Ok tt w' [] /\
    (forall i, mem (st w') !! i =
       if (a <=? i) && (i <? a + N.of_nat (length cs)) then cs !! N.to_nat (i - a) else mem (st w) !! i) /\
    mtab (st w') = mtab (st w).
Proof.
  revert a w. induction cs as [|c cs IH]; intros a w Ha; cbn [wrs length].
  - exists w. split_and!; [done| |done]. intros i. destruct (_ && _) eqn:E; [lia|done].
  - destruct (Ha a) as [c0 Hc0]; [cbn [length]; lia|]. unfold bind, wr. rewrite Hc0.
    destruct (IH (a + 1) (upd_mem <[a:=c]> w)) as (w'&H1&H2&H3).
    { intros i Hi. cbn. destruct (decide (i = a)) as [->|]; [rewrite lookup_insert; by eexists|].
      rewrite lookup_insert_ne //. apply Ha. cbn [length]. lia. }
    exists w'. rewrite H1. split_and!; [done| |done]. intros i. rewrite H2. cbn.
    destruct (decide (i = a)) as [->|Hne].
    + replace (a - a) with 0 by lia. rewrite lookup_insert.
      destruct (a + 1 <=? a) eqn:E1; [lia|]. cbn [andb].
      destruct (a <=? a) eqn:E2; [|lia]. destruct (a <? _) eqn:E3; [|lia]. done.
    + rewrite lookup_insert_ne //.
      destruct (N.leb_spec (a + 1) i), (N.ltb_spec i (a + 1 + N.of_nat (length cs))),
        (N.leb_spec a i), (N.ltb_spec i (a + N.pos (Pos.of_succ_nat (length cs)))); cbn [andb]; try lia; try done.
      replace (N.to_nat (i - a)) with (S (N.to_nat (i - (a + 1)))) by lia. done.
Qed.

Lemma rds_ok cs a w : (forall j c, cs !! j = Some c -> mem (st w) !! (a + N.of_nat j) = Some c) ->
  rds a (length cs) w = Ok cs w [].
Proof.
  revert a. induction cs as [|c cs IH]; intros a Ha; cbn [rds length]; [done|].
  unfold bind, rd. assert (Hc := Ha 0%nat c eq_refl). replace (a + N.of_nat 0) with a in Hc by lia. rewrite Hc.
  rewrite IH; [done|]. intros j c' Hj. rewrite -(Ha (S j) c' Hj). f_equal. lia.
Qed.

Lemma rds_same k a w cs w' e : rds a k w = Ok cs w' e -> w' = w.
Proof.
  revert a w cs w' e. induction k as [|k IH]; intros a w cs w' e H; cbn [rds] in H.
  - by apply ret_Ok in H as (_&->&_).
  - inv_bind H as c Ha Hb. inv_bind Hb as cs' Hc Hd. apply ret_Ok in Hd as (_&->&_).
    rewrite (IH _ _ _ _ _ Hc). unfold rd in Ha. destruct (mem (st w) !! a); [|done].
    by injection Ha.
Qed.

(** * freelist, C14 *)
Section freelist.
  Context (Min Max : N) (A : alloc) (b : N).

  Lemma fl_reuse s p n m w : p <> 0 -> f_head s < W ->
    fl_range Min Max n = true -> fl_range Min Max m = true ->
    (forall i, p <= i < p + 8 -> is_Some (mem (st w) !! i)) ->
    exists w1, fl_free Min Max A b s p n w = Ok (Fl (f_in s) p) w1 [] /\
      fl_alloc Min Max A b (Fl (f_in s) p) m w1 = Ok (p, s) w1 [].
  Proof.
    intros Hp Hh Hn Hm Hacc. unfold fl_free, fl_alloc. rewrite Hn Hm. cbn [f_head f_in].
    rewrite (proj2 (N.eqb_neq p 0) Hp). cbn [negb ktl_assert andb]. rewrite bind_ret.
    destruct (wrs_ok (enc 8 (f_head s)) p w) as (w1&H1&H2&H3).
    { intros i Hi. apply Hacc. rewrite enc_length in Hi. lia. }
    exists w1. split.
    - unfold wr_ptr, bind. by rewrite H1.
    - unfold rd_ptr, bind.
      pose proof (rds_ok (enc 8 (f_head s)) p w1) as Hr. rewrite enc_length in Hr. rewrite Hr.
      + rewrite dec_enc. change (256 ^ N.of_nat 8) with W. rewrite N.mod_small //. by destruct s.
      + intros j c Hj. rewrite H2. assert (Hl := lookup_lt_Some _ _ _ Hj). rewrite enc_length in Hl |- *.
        destruct (N.leb_spec p (p + N.of_nat j)); [|lia]. destruct (N.ltb_spec (p + N.of_nat j) (p + N.of_nat 8)); [|lia].
        cbn [andb]. by replace (N.to_nat (p + N.of_nat j - p)) with j by lia.
  Qed.

  (** The inner allocator is consulted only when nothing is cached. *)
  Lemma fl_inner_idle s n w p s' w' e : f_head s <> 0 ->
    fl_alloc Min Max A b s n w = Ok (p, s') w' e -> f_in s' = f_in s /\ st w' = st w /\ (p = f_head s \/ p = 0).
  Proof.
    intros Hh. unfold fl_alloc. destruct (fl_range _ _ _).
    - rewrite (proj2 (N.eqb_neq _ _) Hh). intros H. inv_bind H as nxt H1 H2. apply ret_Ok in H2 as ([= -> ->]&->&_).
      cbn [f_in]. split_and!; [done| |by left].
      unfold rd_ptr in H1. inv_bind H1 as cs H3 H4. destruct (dec cs); [|done]. apply ret_Ok in H4 as (_&->&_).
      by rewrite (rds_same _ _ _ _ _ _ H3).
    - intros H. apply ret_Ok in H as ([= -> ->]&->&_). auto.
  Qed.

  Lemma fl_out_of_range s n w : fl_range Min Max n = false -> fl_alloc Min Max A b s n w = Ok (0, s) w [].
  Proof. intros H. unfold fl_alloc. by rewrite H. Qed.
End freelist.

(** * Routing, C16 and C17 *)
Section routing.
  Context (P F : alloc) (b : N).

  Lemma seg_alloc_routes T s n w p s' w' e : seg_alloc P F T b s n w = Ok (p, s') w' e ->
    (n <= T -> snd s' = snd s /\ exists e', a_alloc P b (fst s) n w = Ok (p, fst s') w' e') /\
    (T < n -> fst s' = fst s /\ exists e', a_alloc F (b + a_size P) (snd s) n w = Ok (p, snd s') w' e').
  Proof.
    unfold seg_alloc. destruct (N.leb_spec n T); intros H'; inv_bind H' as [q x] H1 H2;
      apply ret_Ok in H2 as ([= -> ->]&->&_); split; intros; try lia; cbn [fst snd]; split; try done; by eexists.
  Qed.

  Lemma seg_free_routes T s p n w s' w' e : seg_free P F T b s p n w = Ok s' w' e ->
    (n <= T -> snd s' = snd s /\ exists e', a_free P b (fst s) p n w = Ok (fst s') w' e') /\
    (T < n -> fst s' = fst s /\ exists e', a_free F (b + a_size P) (snd s) p n w = Ok (snd s') w' e').
  Proof.
    unfold seg_free. destruct (N.leb_spec n T); intros H'; inv_bind H' as x H1 H2;
      apply ret_Ok in H2 as (->&->&_); split; intros; try lia; cbn [fst snd]; split; try done; by eexists.
  Qed.

  Lemma fb_alloc_order s n w p s' w' e : fb_alloc P F b s n w = Ok (p, s') w' e ->
    exists q w1 e1, a_alloc P b (fst s) n w = Ok (q, fst s') w1 e1 /\
      (q <> 0 -> p = q /\ snd s' = snd s /\ w' = w1) /\
      (q = 0 -> exists e2, a_alloc F (b + a_size P) (snd s) n w1 = Ok (p, snd s') w' e2).
  Proof.
    unfold fb_alloc. intros H. inv_bind H as [q sp] H1 H2. destruct (N.eqb_spec q 0).
    - inv_bind H2 as [r sf] H3 H4. apply ret_Ok in H4 as ([= -> ->]&->&_).
      eexists _, _, _. split; [exact H1|]. split; [done|]. intros _. by eexists.
    - apply ret_Ok in H2 as ([= -> ->]&->&_). eexists _, _, _. split; [exact H1|]. split; [done|]. done.
  Qed.
End routing.

(** * cascading, C20 *)
  Lemma casc_loop_deletes pl A (owns : N -> a_st A -> N -> bool) prev pre nd post p n w s' w' e :
    Forall (fun x => owns (nd_addr x) (nd_in x) p = false) pre ->
    owns (nd_addr nd) (nd_in nd) p = true -> nd_cnt nd = 1 -> prev = true \/ pre <> [] ->
    casc_free_loop pl A owns prev (pre ++ nd :: post) p n w = Ok s' w' e -> s' = pre ++ post.
  Proof.
    intros Hpre Ho Hc. revert prev w s' w' e. induction pre as [|x pre IH]; intros prev w s' w' e Hp H; cbn [app casc_free_loop] in H.
    - rewrite Ho in H. destruct Hp as [->|]; [|done]. inv_bind H as si H1 H2. cbn [nd_cnt] in H2.
      rewrite Hc in H2. cbn in H2. inv_bind H2 as u H3 H4. by apply ret_Ok in H4 as (->&_&_).
    - apply Forall_cons_iff in Hpre as [Hx Hpre]. rewrite Hx in H. inv_bind H as rest H1 H2.
      apply ret_Ok in H2 as (->&_&_). cbn [app]. f_equal. eapply (IH Hpre true); [by left|exact H1].
  Qed.

Section cascading.
  Context (pl : platform) (A : alloc).

  (** Allocations of every node is the number of blocks outstanding in it. *)
  Definition nout (nd : node (checked A)) : list (N * N) := snd (nd_in nd : a_st A * list (N * N)).
  Definition exact_counts (s : list (node (checked A))) : Prop :=
    Forall (fun nd => nd_cnt nd = N.of_nat (length (nout nd)) mod W) s.

  Lemma take_out_length x l l' : take_out x l = Some l' -> length l = S (length l').
  Proof.
    revert l'. induction l as [|y l IH]; intros l' H; cbn [take_out] in H; [done|].
    destruct (beq x y); [by injection H as ->|]. destruct (take_out x l) as [l1|]; [|done].
    injection H as <-. cbn [length]. by rewrite (IH l1).
  Qed.

  Lemma count_succ k : add64 (N.of_nat k mod W) 1 = N.of_nat (S k) mod W.
  Proof. unfold add64, w64. rewrite N.add_mod_idemp_l; [|discriminate]. f_equal. lia. Qed.
  Lemma count_pred k : sub64 (N.of_nat (S k) mod W) 1 = N.of_nat k mod W.
  Proof.
    unfold sub64, w64. replace (N.of_nat (S k)) with (N.of_nat k + 1) by lia.
    rewrite -N.add_sub_assoc; [|discriminate]. rewrite N.add_mod_idemp_l; [|discriminate].
    replace (N.of_nat k + 1 + (W - 1)) with (N.of_nat k + 1 * W) by (unfold W; lia).
    rewrite N.mod_add; [done|discriminate].
  Qed.

  Lemma new_node_counts w nd w' e : new_node pl (checked A) w = Ok nd w' e ->
    nd_cnt nd = N.of_nat (length (nout nd)) mod W.
  Proof.
    unfold new_node, nout. intros H. inv_bind H as p H1 H2. destruct (p =? 0).
    { inv_bind H2 as u H3 H4. done. }
    inv_bind H2 as s H3 H4. apply ret_Ok in H4 as (->&_&_). cbn [nd_cnt nd_in].
    cbn [checked a_init] in H3. inv_bind H3 as s1 H5 H6. apply ret_Ok in H6 as (->&_&_). by vm_compute.
  Qed.

  Lemma checked_alloc_list b s n w p s' w' e : a_alloc (checked A) b s n w = Ok (p, s') w' e ->
    snd (s' : a_st A * list (N * N)) = if p =? 0 then snd (s : a_st A * list (N * N)) else (p, n) :: snd s.
  Proof. cbn [checked a_alloc]. intros H. inv_bind H as [q s1] H1 H2. by apply ret_Ok in H2 as ([= -> ->]&_&_). Qed.

  Lemma casc_alloc_counts s n w p s' w' e : exact_counts s ->
    casc_alloc pl (checked A) s n w = Ok (p, s') w' e -> exact_counts s'.
  Proof.
    unfold casc_alloc, exact_counts, nout. intros Hs H. inv_bind H as [nd rest] H1 H2.
    assert (Forall (fun nd : node (checked A) => nd_cnt nd = N.of_nat (length (snd (nd_in nd : a_st A * list (N * N)))) mod W) (nd :: rest)) as [Hnd Hrest]%Forall_cons_iff.
    { destruct s as [|nd0 s].
      - inv_bind H1 as nd1 H3 H4. apply ret_Ok in H4 as ([= -> ->]&_&_). constructor; [|constructor].
        by eapply new_node_counts.
      - by apply ret_Ok in H1 as ([= -> ->]&_&_). }
    clear H1. inv_bind H2 as over H1 H3. clear H1. destruct over.
    { apply ret_Ok in H3 as ([= -> ->]&_&_). by constructor. }
    inv_bind H3 as [q si] H1 H4. apply checked_alloc_list in H1. destruct (N.eqb_spec q 0) as [->|Hq].
    - inv_bind H4 as nd2 H5 H6. inv_bind H6 as [q2 si2] H7 H8. apply ret_Ok in H8 as ([= -> ->]&_&_).
      apply new_node_counts in H5. apply checked_alloc_list in H7. constructor; [|constructor; [|done]]; cbn [nd_cnt nd_in].
      + rewrite H7. destruct (q2 =? 0); [done|]. cbn [length]. by rewrite H5 count_succ.
      + by rewrite H1.
    - apply ret_Ok in H4 as ([= -> ->]&_&_). constructor; [|done]. cbn [nd_cnt nd_in nd_addr]. rewrite H1.
      cbn [length]. by rewrite Hnd count_succ.
  Qed.

  Lemma casc_free_counts owns prev s p n w s' w' e : exact_counts s ->
    casc_free_loop pl (checked A) owns prev s p n w = Ok s' w' e -> exact_counts s'.
  Proof.
    unfold exact_counts, nout. revert prev w s' w' e. induction s as [|nd rest IH]; intros prev w s' w' e Hs H; cbn [casc_free_loop] in H.
    - by apply ret_Ok in H as (->&_&_).
    - apply Forall_cons_iff in Hs as [Hnd Hrest]. destruct (owns _ _ _).
      + inv_bind H as si H1 H2. cbn [checked a_free] in H1.
        destruct (take_out (p, n) (snd (nd_in nd))) as [l|] eqn:Ht; [|done].
        inv_bind H1 as s1 H3 H4. apply ret_Ok in H4 as (->&_&_). apply take_out_length in Ht.
        cbn [nd_cnt] in H2. destruct (_ && _).
        * inv_bind H2 as u H5 H6. by apply ret_Ok in H6 as (->&_&_).
        * apply ret_Ok in H2 as (->&_&_). constructor; [|done]. cbn [nd_cnt nd_in snd].
          by rewrite Hnd Ht count_pred.
      + inv_bind H as rest' H1 H2. apply ret_Ok in H2 as (->&_&_). constructor; [done|]. by eapply IH.
  Qed.

  Lemma casc_cd_counts owns o c s q act w s' w' e :
    (forall b s' w w' e x, o c b x q act w = Ok s' w' e -> snd (s' : a_st A * list (N * N)) = snd (x : a_st A * list (N * N))) -> exact_counts s ->
    casc_cd (checked A) owns o c s q act w = Ok s' w' e -> exact_counts s'.
  Proof.
    unfold exact_counts, nout. intros Ho. revert w s' w' e. induction s as [|nd rest IH]; intros w s' w' e Hs H; cbn [casc_cd] in H.
    - inv_bind H as u H1 H2. inv_bind H2 as u2 H3 H4. apply ret_Ok in H4 as (->&_&_). constructor.
    - apply Forall_cons_iff in Hs as [Hnd Hrest]. destruct (owns _ _ _).
      + inv_bind H as si H1 H2. apply ret_Ok in H2 as (->&_&_). constructor; [|done]. cbn [nd_cnt nd_in].
        rewrite (Ho _ _ _ _ _ _ H1). exact Hnd.
      + inv_bind H as rest' H1 H2. apply ret_Ok in H2 as (->&_&_). constructor; [done|]. by eapply IH.
  Qed.

  Lemma casc_reach_counts req b s bl : reachable (cascading pl (checked A)) req b s bl -> exact_counts s.
  Proof.
    apply (reach_inv (cascading pl (checked A)) b (fun s _ => exact_counts s)).
    - intros w s0 w' e _ H. cbn [cascading cascading_with a_init] in H. apply ret_Ok in H as (->&_&_). constructor.
    - intros s0 bl0 n w p s' w' e Hs _ _ H. exact (casc_alloc_counts _ _ _ _ _ _ _ Hs H).
    - intros s0 bl0 i p n w s' w' e Hs _ H. cbn [cascading cascading_with a_free] in H. unfold casc_free in H.
      inv_bind H as u H1 H2. by eapply casc_free_counts.
    - intros s0 bl0 c q act w s' w' e Hs H. unfold traits_cd in H. cbn [cascading cascading_with a_cd checked] in H.
      destruct (a_cd A) as [o|]; cbn [option_map] in H.
      + eapply casc_cd_counts; [|exact Hs|exact H]. intros b0 s1 w0 w1 e0 x0 H0.
        inv_bind H0 as si H1 H2. by apply ret_Ok in H2 as (->&_&_).
      + inv_bind H as u H1 H2. by apply ret_Ok in H2 as (->&_&_).
  Qed.

  Lemma casc_deletes req b owns pre nd post bl p n w s' w' e :
    a_owns (checked A) = Some owns ->
    reachable (cascading pl (checked A)) req b (pre ++ nd :: post) bl ->
    nout nd = [(p, n)] -> pre <> [] ->
    Forall (fun x => owns (nd_addr x) (nd_in x) p = false) pre -> owns (nd_addr nd) (nd_in nd) p = true ->
    a_free (cascading pl (checked A)) b (pre ++ nd :: post) p n w = Ok s' w' e -> s' = pre ++ post.
  Proof.
    intros HO Hr Hl Hpre Hp Hn H. apply casc_reach_counts in Hr.
    cbn [cascading cascading_with a_free] in H. rewrite HO in H.
    unfold casc_free in H. inv_bind H as u H1 H2.
    assert (nd_cnt nd = 1) as Hc.
    { unfold exact_counts in Hr. apply Forall_app in Hr as [_ Hr]. apply Forall_cons_iff in Hr as [Hr _].
      rewrite Hr Hl. by vm_compute. }
    eapply (casc_loop_deletes pl (checked A) owns false pre nd post p n); try done. by right.
  Qed.
End cascading.

(** * construct and destroy, C38 *)
Definition only_asserts (evs : list event) : Prop := Forall (fun e => exists t, e = EvAssert t) evs.

Definition cd_once (A : alloc) : Prop :=
  forall o c b s q act, a_cd A = Some o -> exists evs s', only_asserts evs /\
    forall w, o c b s q act w =
      match act w with
      | Ok _ w' e => Ok s' w' (evs ++ e)
      | Err u e => Err u (evs ++ e)
      end.

Lemma cd_once_map A B (f : a_st B -> a_st A) (g : a_st B -> a_st A -> a_st B) (base : N -> a_st B -> N) :
  a_cd B = option_map (fun o c b s q act => s' <- o c (base b s) (f s) q act ;; ret (g s s')) (a_cd A) ->
  cd_once A -> cd_once B.
Proof.
  intros HB HA o c b s q act Ho. rewrite HB in Ho. destruct (a_cd A) as [oA|] eqn:E; [|done]. injection Ho as <-.
  destruct (HA oA c (base b s) (f s) q act E) as (evs&s'&H1&H2). exists evs, (g s s'). split; [done|].
  intros w. unfold bind, ret. rewrite H2. destruct (act w); [|done]. by rewrite app_nil_r.
Qed.

Lemma act_once {S} (act : M unit) (s : S) w :
  (act ;;; ret s) w = match act w with Ok _ w' e => Ok s w' ([] ++ e) | Err u e => Err u ([] ++ e) end.
Proof. unfold bind, ret. destruct (act w); [|done]. by rewrite app_nil_r. Qed.

Lemma pair_cd_once P F o c b s q act : cd_once P -> cd_once F -> pair_cd P F = Some o ->
  exists evs s', only_asserts evs /\ forall w, o c b s q act w =
    match act w with Ok _ w' e => Ok s' w' (evs ++ e) | Err u e => Err u (evs ++ e) end.
Proof.
  intros HP HF Ho. unfold pair_cd in Ho. destruct (a_owns P) as [oP|]; [|done].
  assert (Hd : exists evs s', only_asserts evs /\ forall w, (act ;;; ret s) w =
    match act w with Ok _ w' e => Ok s' w' (evs ++ e) | Err u e => Err u (evs ++ e) end).
  { exists [], s. split; [constructor|]. apply act_once. }
  assert (HdP : forall cP, a_cd P = Some cP -> exists evs s', only_asserts evs /\
    forall w, (s' <- cP c b (fst s) q act ;; ret (s', snd s)) w =
    match act w with Ok _ w' e => Ok s' w' (evs ++ e) | Err u e => Err u (evs ++ e) end).
  { intros cP E. destruct (HP cP c b (fst s) q act E) as (evs&s'&H1&H2). exists evs, (s', snd s). split; [done|].
    intros w. unfold bind, ret. rewrite H2. destruct (act w); [|done]. by rewrite app_nil_r. }
  assert (HdF : forall cF, a_cd F = Some cF -> exists evs s', only_asserts evs /\
    forall w, (s' <- cF c (b + a_size P) (snd s) q act ;; ret (fst s, s')) w =
    match act w with Ok _ w' e => Ok s' w' (evs ++ e) | Err u e => Err u (evs ++ e) end).
  { intros cF E. destruct (HF cF c (b + a_size P) (snd s) q act E) as (evs&s'&H1&H2). exists evs, (fst s, s'). split; [done|].
    intros w. unfold bind, ret. rewrite H2. destruct (act w); [|done]. by rewrite app_nil_r. }
  destruct (a_cd P) as [cP|], (a_cd F) as [cF|]; try done; injection Ho as <-;
    destruct (oP b (fst s) q); eauto.
Qed.

Lemma casc_cd_once A owns : cd_once A -> forall o c s q act, a_cd A = Some o ->
  exists evs s', only_asserts evs /\ forall w, casc_cd A owns o c s q act w =
    match act w with Ok _ w' e => Ok s' w' (evs ++ e) | Err u e => Err u (evs ++ e) end.
Proof.
  intros HA o c s q act Ho. induction s as [|nd rest IH]; cbn [casc_cd].
  - exists [EvAssert AAny], []. split; [repeat constructor; by eexists|]. intros w. cbn [ktl_assert].
    rewrite bind_emit. unfold after. rewrite act_once. by destruct (act w).
  - destruct (owns _ _ _).
    + destruct (HA o c (nd_addr nd) (nd_in nd) q act Ho) as (evs&s'&H1&H2). eexists evs, _. split; [done|].
      intros w. unfold bind, ret. rewrite H2. destruct (act w); [|done]. by rewrite app_nil_r.
    + destruct IH as (evs&s'&H1&H2). eexists evs, _. split; [done|].
      intros w. unfold bind, ret. rewrite H2. destruct (act w); [|done]. by rewrite app_nil_r.
Qed.

Lemma tree_cd_once pl e : cd_once (den pl e).
Proof.
  induction e as [| | | |Min Max e IH|e IH|p IHp f IHf|T p IHp f IHf|e IH|e IH|e IH|e IH|e IH|e IH]; cbn [den]; try done.
  - by apply (cd_once_map (den pl e) (freelist Min Max (den pl e)) f_in (fun s s' => Fl s' (f_head s)) (fun b _ => b)).
  - intros o c b s q act Ho. cbn [cascading cascading_with a_cd] in Ho.
    destruct (a_cd (den pl e)) as [oA|] eqn:E; [|done]. injection Ho as <-. by apply casc_cd_once.
  - intros o c b s q act Ho. by apply (pair_cd_once (den pl p) (den pl f)).
  - intros o c b s q act Ho. by apply (pair_cd_once (den pl p) (den pl f)).
  - intros o c b s q act Ho. cbn [overflow a_cd] in Ho. injection Ho as <-. unfold ov_cd.
    destruct (a_cd (den pl e)) as [oA|] eqn:E.
    + destruct (IH oA c b (o_in s) q act E) as (evs&s'&H1&H2). eexists evs, _. split; [done|].
      intros w. unfold bind, ret. rewrite H2. destruct (act w); [|done]. by rewrite app_nil_r.
    + eexists [], _. split; [constructor|]. apply act_once.
  - by apply (cd_once_map (den pl e) (shared pl (den pl e)) sh_in (fun s s' => Sh (sh_block s) s') (fun _ s => sh_block s)).
  - by apply (cd_once_map (den pl e) (checked (den pl e)) fst (fun s s' => (s', snd s)) (fun b _ => b)).
Qed.
