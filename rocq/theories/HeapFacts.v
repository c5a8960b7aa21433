(** Facts about programs over binary_heap. *)
From Coq Require Import Sorting.Sorted.
From iris.proofmode Require Import tactics.
From Verif Require Import Base Mem Sep Wp AlignedMalloc Allocators Checked CheckedProofs Tree Client Contract Service TreeProofs AllocSpec AllocProofs
  Env EnvProofs Vector RepProofs HeapPure Heap HeapSpec TreeService HeapProofs ContFacts.

Local Open Scope N_scope.

(** * Every composition *)
Lemma heap_any bad A req (C : service bad A req) (Hm : modest bad (half req)) b sz T comp eqv k : 0 < sz -> forall ops w,
  place b (N.of_nat k * a_size A) w ->
  csession_ok A b (hstep A b sz T comp eqv k) (hrelease A b sz T) (hcheck sz T comp eqv k) bad k ∅ ops w.
Proof.
  intros Hsz ops w Hp.
  assert (H1 : forall n, half req n = true -> req n = true). { intros n H. by apply andb_true_iff in H as [? _]. }
  apply (heap_session (service_less (half req) C H1 Hm) b sz T comp eqv k Hsz); [|done].
  intros n H. apply andb_true_iff in H as [_ H]. by apply N.ltb_lt.
Qed.

Lemma heap_tree pl e b sz T comp eqv k ops w :
  pl <> PPosix -> wf e = true -> 0 < sz -> place b (N.of_nat k * esize e) w ->
  csession_ok (den pl e) b (hstep (den pl e) b sz T comp eqv k) (hrelease (den pl e) b sz T) (hcheck sz T comp eqv k)
    (unsupported (half (ereq pl e))) k ∅ ops w.
Proof.
  intros Hpl Hwf Hsz Hp. destruct (tree_service pl e (half (ereq pl e)) Hpl Hwf (half_le _)) as [C].
  apply (heap_any _ _ _ C (modest_half _)); [done|]. by rewrite den_size.
Qed.

(** * Bags *)
Section bags.
  Context (sz : N) (T : elt) (comp : nat -> value -> value -> bool) (eqv : value -> value -> bool) (k : nat).
  Local Notation hcheck := (hcheck sz T comp eqv k).
  Local Notation qcheck := (queue_check T comp k).

  Definition same (x : sheap) (y : bag) : Prop := p_cmp x = fst y /\ p_l x ≡ₚ snd y /\ p_ok comp x.
  Definition sim (m : gmap nat sheap) (n : gmap nat bag) : Prop := forall c, option_Forall2 same (m !! c) (n !! c).

  Lemma sim_empty : sim ∅ ∅.
  Proof. intros c. rewrite !lookup_empty. constructor. Qed.
  Lemma sim_insert m n c x y : sim m n -> same x y -> sim (<[c := x]> m) (<[c := y]> n).
  Proof.
    intros H Hs d. destruct (decide (c = d)) as [->|Hne]; [rewrite !lookup_insert; by constructor|]. by rewrite !lookup_insert_ne.
  Qed.
  Lemma sim_delete m n c : sim m n -> sim (delete c m) (delete c n).
  Proof.
    intros H d. destruct (decide (c = d)) as [->|Hne]; [rewrite !lookup_delete; by constructor|]. by rewrite !lookup_delete_ne.
  Qed.
  Lemma sim_alive m n c : sim m n -> has (p_info <$> m) c = alive n c.
  Proof.
    intros H. specialize (H c). unfold has, alive. rewrite lookup_fmap. by inversion H.
  Qed.
  Lemma p_ok_0 : p_ok comp (SHeap 0 0 [] 0 0).
  Proof. by split_and!. Qed.
  Lemma sim_get m n c : sim m n -> same (p_get c m) (cmp_of n c, elems n c).
  Proof.
    intros H. specialize (H c). unfold p_get, cmp_of, elems. inversion H as [x y Hs|]; cbn; [done|]. split_and!; try done. 
  Qed.
  Lemma sim_len m n c : sim m n -> p_len (p_get c m) = N.of_nat (length (elems n c)).
  Proof. intros H. destruct (sim_get _ _ c H) as (_&Hp&_). unfold p_len. by rewrite Hp. Qed.
  Lemma sim_size m n c : sim m n -> i_size (look (p_info <$> m) c) = N.of_nat (length (elems n c)).
  Proof. intros H. rewrite hlook_spec. by apply sim_len. Qed.

  Lemma ltb_of_nat i j : (N.of_nat i <? N.of_nat j) = (i <? j)%nat.
  Proof. destruct (N.ltb_spec (N.of_nat i) (N.of_nat j)), (Nat.ltb_spec i j); try done; lia. Qed.

  Lemma sim_legal m n o : sim m n -> queue_op o = true -> hlegal sz T k (p_info <$> m) o = allowed T k n o.
  Proof.
    intros H Ho. destruct o; try done; cbn [hlegal allowed queue_op] in *; unfold new_name; rewrite ?(sim_alive m n) //.
    - rewrite bool_decide_false; [|by apply negb_true_iff, Nat.eqb_neq in Ho]. by rewrite orb_true_l andb_true_r.
    - destruct r; [|done]. by rewrite !andb_true_r.
    - rewrite (sim_size m n) //. by rewrite (ltb_of_nat 0).
    - rewrite (sim_size m n) //. by rewrite (ltb_of_nat 0) (ltb_of_nat 1).
  Qed.

  Lemma same_least x y v : same x y -> p_l x !! 0%nat = Some v -> least (comp (fst y)) v (snd y).
  Proof.
    intros (H1&H2&_&_&_&H3) Hv. split.
    - rewrite -H2. by eapply elem_of_list_lookup_2.
    - intros Hsw z Hz. rewrite -H2 in Hz. rewrite -H1. apply H3; [by rewrite H1|done|done].
  Qed.

  Lemma born_same c h q L m m' (n : gmap nat bag) l : p_born comp c h q L m m' -> (forall l', L l' -> l' ≡ₚ l) -> sim m n ->
    sim m' (<[c := (q, l)]> n).
  Proof. intros (x&->&H1&H2&H3&H4&H5) Hl H. apply sim_insert; [done|]. split_and!; [done|by apply Hl|done..]. Qed.
  Lemma become_same c r r' L m m' (n : gmap nat bag) l : p_become comp c r r' L m m' -> (forall l', L l' -> l' ≡ₚ l) -> sim m n ->
    sim m' (<[c := (cmp_of n c, l)]> n).
  Proof.
    intros (x&->&H1&H2&H3&H4&H5) Hl H. apply sim_insert; [done|]. split_and!; [|by apply Hl|done..].
    cbn [fst]. rewrite H3. apply (sim_get _ _ c H).
  Qed.
  Lemma self_same m (n : gmap nat bag) c : sim m n -> alive n c = true -> <[c := (cmp_of n c, elems n c)]> n = n.
  Proof.
    intros H Hc. apply insert_id. unfold alive in Hc. apply bool_decide_eq_true in Hc as [[q l] Hc]. unfold cmp_of, elems. by rewrite Hc.
  Qed.

  Lemma sim_step m n o ob m' : sim m n -> queue_op o = true -> hcheck o ob m m' -> exists n', qcheck o ob n n' /\ sim m' n'.
  Proof.
    intros H Ho. unfold Heap.hcheck, queue_check. rewrite (sim_legal m n o H Ho). destruct (allowed T k n o) eqn:HL.
    2:{ intros [-> ->]. by exists n. }
    assert (Hg : forall c, same (p_get c m) (cmp_of n c, elems n c)) by (intros; by apply sim_get).
    assert (Hc : forall c, p_cmp (p_get c m) = cmp_of n c) by (intros; apply Hg).
    assert (Hp : forall c, p_l (p_get c m) ≡ₚ elems n c) by (intros; apply Hg).
    assert (Hempt : forall x y, same x y -> same (p_emptied x) (fst y, [])).
    { intros x y (H1&H2&H3&H4&H5&H6). split_and!; try done. }
    destruct o; try done; cbn [hcheck_do queue_do queue_op allowed] in *.
    - intros [-> ->]. eexists. split; [done|]. apply sim_insert; [done|]. split_and!; done.
    - intros (->&x&->&H1&H2&H3&H4&H5). eexists. split; [done|]. apply sim_insert; [done|]. split_and!; try done; try apply H1. by rewrite H4.
    - intros [-> HH]. eexists. split; [done|]. by eapply born_same.
    - intros [-> HH]. eexists. split; [done|]. rewrite Hc in HH. eapply born_same; [done|by intros l' <-|done].
    - intros [-> ->]. eexists. split; [done|]. apply sim_insert; [by apply sim_insert|]. by apply (Hempt _ _ (Hg src)).
    - intros [-> HH]. eexists. split; [done|]. rewrite Hc in HH. eapply born_same; [done|by intros l' <-|done].
    - intros [-> ->]. eexists. split; [done|]. by apply sim_delete.
    - intros [-> HH]. eexists. split; [done|]. rewrite Hc in HH. eapply born_same; [done|by intros l' <-|done].
    - intros [-> ->]. eexists. split; [done|]. apply sim_insert; [by apply sim_insert|]. by apply (Hempt _ _ (Hg src)).
    - intros [-> ->]. exists n. rewrite (sim_len m n) //.
    - intros [-> ->]. exists n. rewrite (sim_len m n) //. split; [|done]. split; [|done]. f_equal. by destruct (elems n c).
    - intros [-> HH]. exists n. split; [done|]. rewrite -(self_same m n c H HL). eapply become_same; [done|by intros l' <-|done].
    - destruct r as [v|]; [|done]. cbn [p_val]. intros (i&->&HH). eexists. split; [split; [by eauto|done]|].
      eapply become_same; [done| |done]. intros l' [Hl' _]. by rewrite Hl' Hp.
    - intros (->&v&Hv&->). exists n. split; [|done]. exists v. split_and!; try done. by apply (same_least _ _ _ (Hg c) Hv).
    - intros (v&Hv&->&HH). destruct HH as (x'&->&H1&H2&H3&H4&H5). eexists. split.
      + exists v, (p_l x'). split_and!; try done; [by apply (same_least _ _ _ (Hg c) Hv)|]. by rewrite H4 -Hp.
      + apply sim_insert; [done|]. split_and!; try done; try apply H1. by rewrite H3 Hc.
    - intros [-> HH]. eexists. split; [done|]. eapply become_same; [done|by intros l' <-|done].
  Qed.

  Lemma sim_run ops os m n : sim m n -> forallb queue_op ops = true -> ccheck hcheck ops os m -> ccheck qcheck ops os n.
  Proof.
    revert os m n. induction ops as [|o ops IH]; intros [|ob os] m n H; try done. cbn [forallb ccheck].
    intros Ho (m'&H1&H2). apply andb_true_iff in Ho as [Ho1 Ho2].
    destruct (sim_step _ _ _ _ _ H Ho1 H1) as (n'&H3&H4). exists n'. split; [done|]. by eapply IH.
  Qed.
End bags.

Lemma csession_ok_mono {A b X O S S'} {stp : O -> env A * gmap nat X -> M (cobs * (env A * gmap nat X))} {kill}
  {chk : O -> cobs -> S -> S -> Prop} {chk' : O -> cobs -> S' -> S' -> Prop} {bad k s0 s0' ops w} :
  (forall os, ccheck chk ops os s0 -> ccheck chk' ops os s0') ->
  csession_ok A b stp kill chk bad k s0 ops w -> csession_ok A b stp kill chk' bad k s0' ops w.
Proof.
  intros H. unfold csession_ok. destruct (csession _ _ _ _ _ _ _); [|done]. intros [?|(H1&H2&H3)]; [by left|right].
  split_and!; [done|by apply H|apply H3..].
Qed.

Lemma heap_queue pl e b sz T comp eqv k ops w :
  pl <> PPosix -> wf e = true -> 0 < sz -> place b (N.of_nat k * esize e) w -> forallb queue_op ops = true ->
  csession_ok (den pl e) b (hstep (den pl e) b sz T comp eqv k) (hrelease (den pl e) b sz T) (queue_check T comp k)
    (unsupported (half (ereq pl e))) k ∅ ops w.
Proof.
  intros Hpl Hwf Hsz Hp Ho. eapply csession_ok_mono; [|by apply (heap_tree pl e b sz T comp eqv k ops w)].
  intros os. apply sim_run; [apply sim_empty|done].
Qed.

(** * Sorting *)
Section sort.
  Context (T : elt) (comp : nat -> value -> value -> bool) (k : nat).
  Local Notation qcheck := (queue_check T comp k).

  Lemma pops_sorted c os (m m' : gmap nat bag) q l n : ctrace qcheck (pops c n) os m m' -> m !! c = Some (q, l) ->
    strict_weak (comp q) -> (if e_triv T then n <= length l else n < length l)%nat ->
    exists l1 l2, os = vals l1 /\ length l1 = n /\ l ≡ₚ l1 ++ l2 /\ sorted (comp q) l1 /\ m' = <[c := (q, l2)]> m /\
      forall x y, x ∈ l1 -> y ∈ l2 -> comp q y x = false.
  Proof.
    revert os m l. induction n as [|n IH]; intros [|ob os] m l; try done; cbn [pops repeat ctrace].
    - intros <- Hm Hsw Hn. exists [], l. split_and!; try done; [constructor|by rewrite insert_id|]. intros x y Hx. by apply elem_of_nil in Hx.
    - intros (m1&H1&H2) Hm Hsw Hn. unfold queue_check in H1.
      assert (He : elems m c = l) by (unfold elems; by rewrite Hm). assert (Hq : cmp_of m c = q) by (unfold cmp_of; by rewrite Hm).
      assert (HL : allowed T k m (HPop c) = true).
      { cbn [allowed]. rewrite He. unfold alive. rewrite bool_decide_true; [|rewrite Hm; by eexists].
        destruct (e_triv T); cbn [orb andb]; rewrite ?andb_true_r;
        repeat (apply andb_true_iff; split); try apply Nat.ltb_lt; lia. }
      rewrite HL in H1. cbn [queue_do] in H1. rewrite He Hq in H1. destruct H1 as (v&l'&->&Hv&Hl&->).
      destruct (IH os _ l' H2) as (l1&l2&->&Hl1&Hp&Hs&->&Hlt).
      { by rewrite lookup_insert. } { done. } { apply Permutation_length in Hl. cbn [length] in Hl. destruct (e_triv T); lia. }
      exists (v :: l1), l2. split_and!; try done.
      + cbn. lia.
      + by rewrite Hl Hp.
      + constructor; [done|]. apply list.Forall_forall. intros y Hy. apply Hv; [done|]. rewrite Hl Hp.
        apply elem_of_cons. right. apply elem_of_app. by left.
      + by rewrite insert_insert.
      + intros x y Hx Hy. apply elem_of_cons in Hx as [->|Hx]; [|by apply Hlt].
        apply Hv; [done|]. rewrite Hl Hp. apply elem_of_cons. right. apply elem_of_app. by right.
  Qed.

  Lemma fills_bag c os (m m' : gmap nat bag) q l0 l : ctrace qcheck (fills c l) os m m' -> m !! c = Some (q, l0) ->
    exists l', m' !! c = Some (q, l') /\ l' ≡ₚ l ++ l0.
  Proof.
    revert os m l0. induction l as [|v l IH]; intros [|ob os] m l0; try done; cbn [fills List.map ctrace].
    - intros <- Hm. by exists l0.
    - intros (m1&H1&H2) Hm. unfold queue_check in H1.
      assert (He : elems m c = l0) by (unfold elems; by rewrite Hm). assert (Hq : cmp_of m c = q) by (unfold cmp_of; by rewrite Hm).
      assert (HL : allowed T k m (HInsert c (RVal v)) = true). { cbn [allowed]. unfold alive. rewrite bool_decide_true; [done|]. rewrite Hm; by eexists. }
      rewrite HL in H1. cbn [queue_do] in H1. rewrite He Hq in H1. destruct H1 as [_ ->].
      destruct (IH os _ (v :: l0) H2) as (l'&H3&H4); [by rewrite lookup_insert|]. exists l'. split; [done|]. rewrite H4. cbn [app]. by rewrite Permutation_middle.
  Qed.

  (** Insert everything, remove everything. *)
  Lemma sort_trivial q os l : (0 < k)%nat -> e_triv T = true -> strict_weak (comp q) ->
    ccheck qcheck (HNew 0 q 0 :: fills 0 l ++ pops 0 (length l)) os ∅ ->
    exists os1 l', os = CUnit :: os1 ++ vals l' /\ length os1 = length l /\ l' ≡ₚ l /\ sorted (comp q) l'.
  Proof.
    intros Hk Ht Hsw H. apply ccheck_trace in H as [m H]. destruct os as [|ob os]; [done|]. destruct H as (m1&H1&H2).
    unfold queue_check in H1. cbn [allowed] in H1. unfold alive in H1. rewrite lookup_empty bool_decide_false in H1; [|by intros [? ?]].
    destruct (Nat.ltb_spec 0 k); [|lia]. cbn [negb andb queue_do] in H1. destruct H1 as [-> ->].
    apply (ctrace_app _ (fills 0 l)) in H2 as (os1&os2&m2&->&Hl1&H2&H3).
    destruct (fills_bag _ _ _ _ q [] _ H2) as (l2&Hm2&Hp2); [by rewrite lookup_insert|].
    destruct (pops_sorted _ _ _ _ q l2 _ H3 Hm2 Hsw) as (l1&l3&->&Hl&Hp&Hs&_).
    { rewrite Ht Hp2 app_nil_r. done. }
    exists os1, l1. split_and!; try done.
    - rewrite Hl1. unfold fills. by rewrite map_length.
    - assert (l3 = []) as ->. { apply length_zero_iff_nil. assert (length l2 = length (l1 ++ l3)) as He by (by rewrite Hp). rewrite Hp2 !app_length Hl in He. cbn in He. lia. }
      rewrite app_nil_r in Hp. by rewrite -Hp Hp2 app_nil_r.
  Qed.

  (** The same, but the last element is only looked at. *)
  Lemma sort_other q os l : (0 < k)%nat -> l <> [] -> strict_weak (comp q) ->
    ccheck qcheck (HNew 0 q 0 :: fills 0 l ++ pops 0 (length l - 1) ++ [HPeek 0]) os ∅ ->
    exists os1 l', os = CUnit :: os1 ++ vals l' /\ length os1 = length l /\ l' ≡ₚ l /\ sorted (comp q) l'.
  Proof.
    intros Hk Hne Hsw H. apply ccheck_trace in H as [m H]. destruct os as [|ob os]; [done|]. destruct H as (m1&H1&H2).
    assert (Hlen : (0 < length l)%nat) by (destruct l; [done|cbn; lia]).
    unfold queue_check in H1. cbn [allowed] in H1. unfold alive in H1. rewrite lookup_empty bool_decide_false in H1; [|by intros [? ?]].
    destruct (Nat.ltb_spec 0 k); [|lia]. cbn [negb andb queue_do] in H1. destruct H1 as [-> ->].
    apply (ctrace_app _ (fills 0 l)) in H2 as (os1&os2&m2&->&Hl1&H2&H3).
    destruct (fills_bag _ _ _ _ q [] _ H2) as (l2&Hm2&Hp2); [by rewrite lookup_insert|]. rewrite app_nil_r in Hp2.
    apply (ctrace_app _ (pops 0 (length l - 1))) in H3 as (os3&os4&m3&->&Hl3&H3&H4).
    destruct (pops_sorted _ _ _ _ q l2 _ H3 Hm2 Hsw) as (l1&l3&->&Hl&Hp&Hs&->&Hlt).
    { apply Permutation_length in Hp2. destruct (e_triv T); lia. }
    assert (length l3 = 1%nat) as Hl4. { assert (length l2 = length (l1 ++ l3)) as He by (by rewrite Hp). rewrite Hp2 app_length Hl in He. lia. }
    destruct l3 as [|z [|? ?]]; try done.
    destruct os4 as [|ob4 os4]; [done|]. destruct H4 as (m4&H4&H5). destruct os4; [|done].
    unfold queue_check in H4. cbn [allowed queue_do] in H4. unfold alive, elems, cmp_of in H4. rewrite lookup_insert in H4.
    cbn [default from_option id fst snd length] in H4. rewrite bool_decide_true in H4; [|by eexists]. cbn [andb Nat.ltb Nat.leb] in H4.
    destruct H4 as (v&->&[Hv _]&->). apply elem_of_list_singleton in Hv as ->.
    exists os1, (l1 ++ [z]). split_and!.
    - unfold vals. rewrite map_app. done.
    - rewrite Hl1. unfold fills. by rewrite map_length.
    - by rewrite -Hp.
    - clear -Hs Hlt. induction Hs as [|x l Hs IH Hx]; [repeat constructor|]. cbn [app]. constructor.
      + apply IH. intros u y Hu Hy. apply Hlt; [by right|done].
      + apply Forall_app. split; [done|]. constructor; [|constructor]. apply Hlt; left.
  Qed.
End sort.

(** * Positions *)
Section positions.
  Context (sz : N) (T : elt) (comp : nat -> value -> value -> bool) (eqv : value -> value -> bool) (k : nat).
  Local Notation hcheck := (hcheck sz T comp eqv k).

  Lemma find_first pre c v j os n i y :
    ccheck hcheck (pre ++ [HSize c; HFind c (RVal v); HAt c j]) (os ++ [CNum n; CNum i; CVal (Some y)]) ∅ -> length os = length pre ->
    i <= n /\ (j < i -> eqv y v = false) /\ (j = i -> eqv y v = true).
  Proof.
    intros H Hl. apply ccheck_trace in H as [m H]. apply (ctrace_app _ pre) in H as (os1&os2&m1&He&Hl1&H1&H2).
    apply app_inj_1 in He as [-> <-]; [|lia]. destruct H2 as (m2&H3&m3&H4&m4&H5&_).
    unfold Heap.hcheck in H3, H4, H5. cbn [hlegal hcheck_do] in *.
    destruct (has (p_info <$> m1) c) eqn:Hh; [|by destruct H3]. destruct H3 as [-> [= ->]]. rewrite Hh in H4. cbn [ok_ref andb] in H4.
    destruct H4 as (->&i'&[= <-]&Hf1&Hf2). rewrite Hh in H5. cbn [andb] in H5. rewrite hlook_spec in H5. cbn [p_info i_size] in H5.
    destruct (N.ltb_spec j (p_len (p_get c m1))) as [Hj|Hj]; [|by destruct H5]. destruct H5 as (->&v'&Hv'&[= <-]). cbn [p_val] in *.
    unfold p_len in *. split_and!.
    - destruct Hf2 as [->|(z&Hz&_)]; [done|]. apply lookup_lt_Some in Hz. lia.
    - intros Hji. by apply (Hf1 j).
    - intros ->. destruct Hf2 as [->|(z&Hz&He)]; [lia|]. congruence.
  Qed.

  Lemma find_none pre c v os n i :
    ccheck hcheck (pre ++ [HSize c; HFind c (RVal v)]) (os ++ [CNum n; CNum i]) ∅ -> length os = length pre -> i <= n.
  Proof.
    intros H Hl. apply ccheck_trace in H as [m H]. apply (ctrace_app _ pre) in H as (os1&os2&m1&He&Hl1&H1&H2).
    apply app_inj_1 in He as [-> <-]; [|lia]. destruct H2 as (m2&H3&m3&H4&_).
    unfold Heap.hcheck in H3, H4. cbn [hlegal hcheck_do] in *.
    destruct (has (p_info <$> m1) c) eqn:Hh; [|by destruct H3]. destruct H3 as [-> [= ->]]. rewrite Hh in H4. cbn [ok_ref andb] in H4.
    destruct H4 as (->&i'&[= <-]&Hf1&Hf2). unfold p_len in *.
    destruct Hf2 as [->|(z&Hz&_)]; [done|]. apply lookup_lt_Some in Hz. lia.
  Qed.

  Lemma insert_position pre c v os i ob :
    ccheck hcheck (pre ++ [HInsert c (RVal v); HAt c i]) (os ++ [CNum i; ob]) ∅ -> length os = length pre -> ob = CVal (Some v).
  Proof.
    intros H Hl. apply ccheck_trace in H as [m H]. apply (ctrace_app _ pre) in H as (os1&os2&m1&He&Hl1&H1&H2).
    apply app_inj_1 in He as [-> <-]; [|lia]. destruct H2 as (m2&H3&m3&H4&_).
    unfold Heap.hcheck in H3, H4. cbn [hlegal hcheck_do ok_ref p_val] in *.
    destruct (has (p_info <$> m1) c) eqn:Hh; [|by destruct H3]. cbn [andb] in H3. destruct H3 as (i'&[= <-]&x&->&Hok&_&_&[_ Hi]&_).
    assert (Hg : p_get c (<[c := x]> m1) = x) by (unfold p_get; by rewrite lookup_insert).
    rewrite hlook_spec Hg in H4. unfold has in H4. rewrite lookup_fmap lookup_insert in H4. cbn [fmap option_fmap option_map p_info i_size] in H4.
    rewrite bool_decide_true in H4; [|by eexists]. cbn [andb] in H4.
    destruct (N.ltb_spec i (p_len x)) as [Hj|Hj]; [|apply lookup_lt_Some in Hi; unfold p_len in Hj; lia].
    destruct H4 as (_&v'&Hv'&->). congruence.
  Qed.
End positions.

(** * Programs as executions *)
Section programs.
  Context (pl : platform) (e : aexp) (b sz : N) (T : elt) (comp : nat -> value -> value -> bool) (eqv : value -> value -> bool) (k : nat).
  Notation program := (csession (den pl e) b (hstep (den pl e) b sz T comp eqv k) (hrelease (den pl e) b sz T) k).

  Lemma heap_sort q l w os w' evs :
    pl <> PPosix -> wf e = true -> 0 < sz -> place b (N.of_nat k * esize e) w -> (0 < k)%nat -> e_triv T = true -> strict_weak (comp q) ->
    program (HNew 0 q 0 :: fills 0 l ++ pops 0 (length l)) w = Ok os w' evs -> existsb (unsupported (half (ereq pl e))) evs = false ->
    exists os1 l', os = CUnit :: os1 ++ vals l' /\ length os1 = length l /\ l' ≡ₚ l /\ sorted (comp q) l'.
  Proof.
    intros H1 H2 H3 H4 Hk Ht Hsw H5 H6. apply (sort_trivial T comp k q os l Hk Ht Hsw).
    refine (session_check (heap_queue pl e b sz T comp eqv k _ w H1 H2 H3 H4 _) H5 H6).
    cbn. rewrite forallb_app. apply andb_true_iff. split; apply forallb_forall; intros o Ho.
    - apply in_map_iff in Ho as (v&<-&_). done.
    - apply repeat_spec in Ho as ->. done.
  Qed.

  Lemma heap_sort_other q l w os w' evs :
    pl <> PPosix -> wf e = true -> 0 < sz -> place b (N.of_nat k * esize e) w -> (0 < k)%nat -> l <> [] -> strict_weak (comp q) ->
    program (HNew 0 q 0 :: fills 0 l ++ pops 0 (length l - 1) ++ [HPeek 0]) w = Ok os w' evs ->
    existsb (unsupported (half (ereq pl e))) evs = false ->
    exists os1 l', os = CUnit :: os1 ++ vals l' /\ length os1 = length l /\ l' ≡ₚ l /\ sorted (comp q) l'.
  Proof.
    intros H1 H2 H3 H4 Hk Ht Hsw H5 H6. apply (sort_other T comp k q os l Hk Ht Hsw).
    refine (session_check (heap_queue pl e b sz T comp eqv k _ w H1 H2 H3 H4 _) H5 H6).
    cbn. rewrite !forallb_app. rewrite !andb_true_iff. split_and!; try done; apply forallb_forall; intros o Ho.
    - apply in_map_iff in Ho as (v&<-&_). done.
    - apply repeat_spec in Ho as ->. done.
  Qed.

  Lemma heap_find_first pre c v j w os n i y w' evs :
    pl <> PPosix -> wf e = true -> 0 < sz -> place b (N.of_nat k * esize e) w ->
    program (pre ++ [HSize c; HFind c (RVal v); HAt c j]) w = Ok (os ++ [CNum n; CNum i; CVal (Some y)]) w' evs -> length os = length pre ->
    existsb (unsupported (half (ereq pl e))) evs = false ->
    i <= n /\ (j < i -> eqv y v = false) /\ (j = i -> eqv y v = true).
  Proof.
    intros H1 H2 H3 H4 H5 H6 H7. eapply (find_first sz T comp eqv k); [|done].
    exact (session_check (heap_tree pl e b sz T comp eqv k _ w H1 H2 H3 H4) H5 H7).
  Qed.

  Lemma heap_find_range pre c v w os n i w' evs :
    pl <> PPosix -> wf e = true -> 0 < sz -> place b (N.of_nat k * esize e) w ->
    program (pre ++ [HSize c; HFind c (RVal v)]) w = Ok (os ++ [CNum n; CNum i]) w' evs -> length os = length pre ->
    existsb (unsupported (half (ereq pl e))) evs = false -> i <= n.
  Proof.
    intros H1 H2 H3 H4 H5 H6 H7. eapply (find_none sz T comp eqv k); [|done].
    exact (session_check (heap_tree pl e b sz T comp eqv k _ w H1 H2 H3 H4) H5 H7).
  Qed.

  Lemma heap_insert_position pre c v w os i ob w' evs :
    pl <> PPosix -> wf e = true -> 0 < sz -> place b (N.of_nat k * esize e) w ->
    program (pre ++ [HInsert c (RVal v); HAt c i]) w = Ok (os ++ [CNum i; ob]) w' evs -> length os = length pre ->
    existsb (unsupported (half (ereq pl e))) evs = false -> ob = CVal (Some v).
  Proof.
    intros H1 H2 H3 H4 H5 H6 H7. eapply (insert_position sz T comp eqv k); [|done].
    exact (session_check (heap_tree pl e b sz T comp eqv k _ w H1 H2 H3 H4) H5 H7).
  Qed.
End programs.
