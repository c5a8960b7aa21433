(** Facts about programs over trivial_vector and trivial_array, from their list specifications. *)
From iris.proofmode Require Import tactics.
From Verif Require Import Base Mem AlignedMalloc Allocators Checked CheckedProofs Tree Client Contract Service TreeProofs AllocSpec AllocProofs
  Env EnvProofs Vector TreeService RepProofs VectorProofs Array ArrayProofs.

Local Open Scope N_scope.

(** * Every composition *)
Lemma vector_tree pl e b sz k ops w :
  pl <> PPosix -> wf e = true -> 0 < sz -> place b (N.of_nat k * esize e) w ->
  csession_ok (den pl e) b (vstep (den pl e) b sz k) (release (den pl e) b sz) (vcheck sz k) (unsupported (ereq pl e)) k ∅ ops w.
Proof.
  intros Hpl Hwf Hsz Hp. destruct (tree_service pl e (ereq pl e) Hpl Hwf) as [C]; [done|].
  apply (vector_session C b sz k Hsz). by rewrite den_size.
Qed.

Lemma array_tree pl e b sz k ops w :
  pl <> PPosix -> wf e = true -> 0 < sz -> place b (N.of_nat k * esize e) w ->
  csession_ok (den pl e) b (astep (den pl e) b sz k) (arelease (den pl e) b sz) (acheck sz k) (unsupported (ereq pl e)) k ∅ ops w.
Proof.
  intros Hpl Hwf Hsz Hp. destruct (tree_service pl e (ereq pl e) Hpl Hwf) as [C]; [done|].
  apply (array_session C b sz k Hsz). by rewrite den_size.
Qed.

(** * Reading the list specification *)
Section trace.
  Context {O S : Type} (chk : O -> cobs -> S -> S -> Prop).

  Fixpoint ctrace (ops : list O) (os : list cobs) (s s' : S) : Prop :=
    match ops, os with
    | [], [] => s = s'
    | o :: ops, ob :: os => exists s1, chk o ob s s1 /\ ctrace ops os s1 s'
    | _, _ => False
    end.

  Lemma ccheck_trace ops os s : ccheck chk ops os s -> exists s', ctrace ops os s s'.
  Proof.
    revert os s. induction ops as [|o ops IH]; intros [|ob os] s; try done; cbn; [by eauto|].
    intros (s1&H1&H2). destruct (IH _ _ H2) as [s2 H3]. eauto.
  Qed.
  Lemma ctrace_app ops1 ops2 os s s' : ctrace (ops1 ++ ops2) os s s' ->
    exists os1 os2 s1, os = os1 ++ os2 /\ length os1 = length ops1 /\ ctrace ops1 os1 s s1 /\ ctrace ops2 os2 s1 s'.
  Proof.
    revert os s. induction ops1 as [|o ops IH]; intros os s; cbn [app].
    - intros H. exists [], os, s. by split_and!.
    - destruct os as [|ob os]; [done|]. intros (s1&H1&H2). apply IH in H2 as (os1&os2&s2&->&Hl&H3&H4).
      exists (ob :: os1), os2, s2. split_and!; [done|cbn; lia|cbn; eauto|done].
  Qed.
  Lemma ctrace_length ops os s s' : ctrace ops os s s' -> length os = length ops.
  Proof. revert os s. induction ops as [|o ops IH]; intros [|ob os] s; try done. intros (s1&_&H). cbn. by rewrite (IH _ _ H). Qed.
  Lemma ctrace_inv (P : S -> Prop) ops os s s' :
    (forall o ob s s', P s -> chk o ob s s' -> P s') -> ctrace ops os s s' -> P s -> P s'.
  Proof.
    intros HP. revert os s. induction ops as [|o ops IH]; intros [|ob os] s; try done; cbn; [by intros ->|].
    intros (s1&H1&H2) Hs. eauto.
  Qed.
End trace.

(** * C40 *)

(** Operations on the elements of [c]; anything that does not name [c] (except as an argument). *)
Definition v_keeps (c : nat) (o : vop) : bool :=
  match o with
  | VNew d _ | VNewN d _ _ | VNewFill d _ _ _ | VNewList d _ _ | VNewRange d _ _ | VCopy d _ | VCopyAl d _ _
  | VDestroy d | VAssign d _ => negb (d =? c)%nat
  | VMove d s | VMoveAl d s _ | VMoveAssign d s => negb (d =? c)%nat && negb (s =? c)%nat
  | _ => true
  end.
Definition range_len (g : range) : N := match g with GVals l => N.of_nat (length l) | GElems _ i j => j - i end.
(** How much room [o] needs in [c], and the size of [c] afterwards, if it is at most [n] before. *)
Definition v_need (c : nat) (o : vop) (n : N) : N :=
  match o with
  | VResize d m | VReserve d m => if (d =? c)%nat then m else 0
  | VPush d _ => if (d =? c)%nat then n + 1 else 0
  | VPushRange d g => if (d =? c)%nat then n + range_len g else 0
  | _ => 0
  end.
Definition v_after (c : nat) (o : vop) (n : N) : N :=
  match o with
  | VResize d m => if (d =? c)%nat then N.max m n else n
  | VPush d _ => if (d =? c)%nat then n + 1 else n
  | VPushRange d g => if (d =? c)%nat then n + range_len g else n
  | _ => n
  end.
Fixpoint v_fits (c : nat) (K : N) (ops : list vop) (n : N) : bool :=
  match ops with
  | [] => true
  | o :: ops => v_keeps c o && (v_need c o n <=? K) && v_fits c K ops (v_after c o n)
  end.

Section vec.
  Context (sz : N) (k : nat).
  Notation vcheck := (vcheck sz k).
  Notation trace := (ctrace vcheck).

  Lemma range_len_of g (m : gmap nat svec) : N.of_nat (length (vals_of g m)) <= range_len g.
  Proof. destruct g; cbn; [by rewrite map_length|]. rewrite take_length. lia. Qed.

  Lemma s_get_insert c d (x : svec) m : s_get c (<[d := x]> m) = if (d =? c)%nat then x else s_get c m.
  Proof.
    unfold s_get. destruct (Nat.eqb_spec d c) as [->|H]; [by rewrite lookup_insert|]. by rewrite lookup_insert_ne.
  Qed.
  Lemma s_get_delete c d (m : gmap nat svec) : d <> c -> s_get c (delete d m) = s_get c m.
  Proof. intros. unfold s_get. by rewrite lookup_delete_ne. Qed.

  Definition all_ok (m : gmap nat svec) : Prop := forall c, s_ok (s_get c m).

  Lemma s_ok_0 : s_ok (SVec 0 [] 0 0).
  Proof. by split_and!. Qed.
  Lemma all_ok_empty : all_ok ∅.
  Proof. intros c. apply s_ok_0. Qed.
  Lemma all_ok_insert c x m : s_ok x -> all_ok m -> all_ok (<[c := x]> m).
  Proof. intros Hx Hm d. rewrite s_get_insert. by destruct (_ =? _)%nat. Qed.
  Lemma all_ok_emptied c m m1 : all_ok m1 -> all_ok (<[c := emptied (s_get c m)]> m1).
  Proof. intros. apply all_ok_insert; [|done]. by split_and!. Qed.

  Lemma all_ok_step o ob m m' : all_ok m -> vcheck o ob m m' -> all_ok m'.
  Proof.
    intros Hm. unfold Vector.vcheck. destruct (vlegal _ _ _ _) eqn:HL; [|by intros [_ ->]].
    destruct o; cbn [vcheck_do]; intros HH;
      repeat match goal with
      | H : _ /\ _ |- _ => destruct H
      | H : born _ _ _ _ _ |- _ => destruct H as (?&->&?&_)
      | H : become _ _ _ _ _ _ |- _ => destruct H as (?&->&?&_)
      | H : exists _, _ |- _ => destruct H
      end; subst; auto using all_ok_insert, all_ok_emptied; try done.
    - apply all_ok_insert; [by split_and!|done].
    - intros d. unfold s_get. destruct (decide (c = d)) as [->|Hne]; [rewrite lookup_delete; apply s_ok_0|].
      rewrite lookup_delete_ne //. apply Hm.
    - apply all_ok_insert; [|done]. destruct (Hm c) as (H1&H2&H3). split_and!; try done.
      unfold s_len in *. cbn [s_l s_cap]. by rewrite insert_length.
  Qed.

  (** One step. *)
  Lemma stable_step c o ob m m' n : all_ok m -> vcheck o ob m m' -> v_keeps c o = true ->
    s_len (s_get c m) <= n -> v_need c o n <= s_cap (s_get c m) ->
    s_cap (s_get c m') = s_cap (s_get c m) /\ s_data (s_get c m') = s_data (s_get c m) /\ s_len (s_get c m') <= v_after c o n /\
    (is_Some (m !! c) <-> is_Some (m' !! c)).
  Proof.
    intros Hok. unfold Vector.vcheck. destruct (vlegal _ _ _ o) eqn:HL.
    2:{ intros [_ ->] _ Hn _. split_and!; try done. destruct o; cbn [v_after]; try done; destruct (_ =? _)%nat; lia. }
    intros HH Hk Hn Hneed.
    assert (Hother : forall d x, d <> c -> s_get c (<[d := x]> m) = s_get c m /\ (is_Some (m !! c) <-> is_Some (<[d := x]> m !! c))).
    { intros d x Hd. rewrite s_get_insert lookup_insert_ne //. by destruct (Nat.eqb_spec d c). }
    assert (Hsame : forall x, s_cap x = s_cap (s_get c m) -> s_data x = s_data (s_get c m) -> is_Some (m !! c) ->
      s_cap (s_get c (<[c := x]> m)) = s_cap (s_get c m) /\ s_data (s_get c (<[c := x]> m)) = s_data (s_get c m) /\
      s_get c (<[c := x]> m) = x /\ (is_Some (m !! c) <-> is_Some (<[c := x]> m !! c))).
    { intros x H1 H2 H3. rewrite s_get_insert Nat.eqb_refl lookup_insert. split_and!; try done. }
    assert (Hbec : forall d r r' l, become d r r' l m m' -> (d = c -> r <= s_cap (s_get c m)) -> is_Some (m !! d) ->
      s_cap (s_get c m') = s_cap (s_get c m) /\ s_data (s_get c m') = s_data (s_get c m) /\
      (is_Some (m !! c) <-> is_Some (m' !! c)) /\ s_l (s_get c m') = if (d =? c)%nat then l else s_l (s_get c m)).
    { intros d r r' l (x&->&H1&H2&H3&H4) Hr Hd. destruct (Nat.eqb_spec d c) as [->|Hne].
      - unfold stable in H4. destruct (N.leb_spec r (s_cap (s_get c m))) as [Hle|Hle]; [|specialize (Hr eq_refl); lia].
        destruct H4 as [H4 H5]. destruct (Hsame x H4 H5 Hd) as (H6&H7&H8&H9). rewrite H8. by split_and!.
      - by destruct (Hother d x Hne) as [-> H0]. }
    assert (Hborn : forall d h l m1, d <> c -> born d h l m m1 -> s_get c m1 = s_get c m /\ (is_Some (m !! c) <-> is_Some (m1 !! c))).
    { intros d h l m1 Hd (x&->&_). by apply Hother. }
    assert (Hhas : forall d, has (s_info <$> m) d = true -> is_Some (m !! d)).
    { intros d Hd. unfold has in Hd. apply bool_decide_eq_true in Hd. rewrite lookup_fmap in Hd. by destruct (m !! d); [|destruct Hd]. }
    destruct o; cbn [vcheck_do v_keeps v_need v_after vlegal] in *;
      repeat match goal with
      | H : (_ && _)%bool = true |- _ => apply andb_true_iff in H as [? ?]
      | H : negb (_ =? _)%nat = true |- _ => apply negb_true_iff, Nat.eqb_neq in H
      end.
    all: try (destruct HH as [-> _]; split_and!; done).
    all: try (destruct HH as [_ HH]; destruct (Hborn _ _ _ _ ltac:(eassumption) HH) as [-> ?]; split_and!; done).
    - (* VNew *) destruct HH as [_ ->]. destruct (Hother c0 (SVec h [] 0 0)) as [-> ?]; [done|]. by split_and!.
    - (* VMove *) destruct HH as [_ ->]. rewrite !s_get_insert !lookup_insert_ne //.
      destruct (Nat.eqb_spec src c), (Nat.eqb_spec c0 c); try done; by split_and!.
    - (* VMoveAl *) destruct HH as (_&m1&HH&->). edestruct (fun Hne => Hborn _ _ _ _ Hne HH) as [H9 ?]; [done|].
      rewrite !s_get_insert !lookup_insert_ne //. destruct (Nat.eqb_spec src c); [done|]. by rewrite H9.
    - (* VDestroy *) destruct HH as [_ ->]. rewrite s_get_delete // lookup_delete_ne //.
    - (* VMoveAssign *) destruct HH as [_ ->]. rewrite !s_get_insert !lookup_insert_ne //.
      destruct (Nat.eqb_spec src c), (Nat.eqb_spec c0 c); try done; by split_and!.
    - (* VSet *) destruct HH as [_ ->]. destruct (Nat.eqb_spec c0 c) as [->|Hne].
      + rewrite s_get_insert Nat.eqb_refl lookup_insert. cbn [s_cap s_data]. split_and!; try done.
        * unfold s_len in *. cbn [s_l]. by rewrite insert_length.
        * split; [done|]. intros _. by apply Hhas.
      + by destruct (Hother c0 (SVec (s_al (s_get c0 m)) (<[N.to_nat i:=val_of r m]> (s_l (s_get c0 m))) (s_cap (s_get c0 m)) (s_data (s_get c0 m))) Hne) as [-> ?].
    - (* VResize *) destruct HH as [_ HH]. destruct (Hbec _ _ _ _ HH) as (->&->&?&Hl); [|by apply Hhas|].
      { intros ->. by rewrite Nat.eqb_refl in Hneed. }
      split_and!; try done. unfold s_len. rewrite Hl. destruct (_ =? _)%nat eqn:E; [|done].
      apply Nat.eqb_eq in E as ->. rewrite app_length take_length repeat_length. unfold s_len in *. lia.
    - (* VReserve *) destruct HH as [_ HH]. destruct (Hbec _ _ _ _ HH) as (->&->&?&Hl); [|by apply Hhas|].
      { intros ->. by rewrite Nat.eqb_refl in Hneed. }
      split_and!; try done. unfold s_len. rewrite Hl. destruct (_ =? _)%nat eqn:E; [|done]. by apply Nat.eqb_eq in E as ->.
    - (* VPush *) destruct HH as [_ HH]. destruct (Hbec _ _ _ _ HH) as (->&->&?&Hl); [|by apply Hhas|].
      { intros ->. rewrite Nat.eqb_refl in Hneed. lia. }
      split_and!; try done. unfold s_len. rewrite Hl. destruct (_ =? _)%nat eqn:E; [|done].
      apply Nat.eqb_eq in E as ->. rewrite app_length. unfold s_len in *. cbn. lia.
    - (* VPushRange *) destruct HH as [_ HH]. pose proof (range_len_of g m). destruct (Hbec _ _ _ _ HH) as (->&->&?&Hl); [|by apply Hhas|].
      { intros ->. rewrite Nat.eqb_refl in Hneed. lia. }
      split_and!; try done. unfold s_len. rewrite Hl. destruct (_ =? _)%nat eqn:E; [|done].
      apply Nat.eqb_eq in E as ->. rewrite app_length. unfold s_len in *. lia.
    - (* VErase *) destruct HH as [_ HH]. destruct (Hbec _ _ _ _ HH) as (->&->&?&Hl); [intros; lia|by apply Hhas|].
      split_and!; try done. unfold s_len in *. rewrite Hl. destruct (_ =? _)%nat eqn:E; [|done].
      apply Nat.eqb_eq in E as ->. rewrite delete_take_drop app_length take_length drop_length. lia.
    - (* VEraseRange *) destruct HH as [_ HH]. destruct (Hbec _ _ _ _ HH) as (->&->&?&Hl); [intros; lia|by apply Hhas|].
      split_and!; try done. unfold s_len in *. rewrite Hl. destruct (_ =? _)%nat eqn:E; [|done].
      apply Nat.eqb_eq in E as ->. rewrite app_length take_length drop_length.
      match goal with H : (i <=? j) = true |- _ => apply N.leb_le in H end. lia.
    - (* VClear *) destruct HH as [_ HH]. destruct (Hbec _ _ _ _ HH) as (->&->&?&Hl); [intros; lia|by apply Hhas|].
      split_and!; try done. unfold s_len in *. rewrite Hl. destruct (_ =? _)%nat eqn:E; [|done]. cbn. lia.
  Qed.

  Lemma stable_steps c mid os m m' n : all_ok m -> trace mid os m m' ->
    s_len (s_get c m) <= n -> v_fits c (s_cap (s_get c m)) mid n = true ->
    s_cap (s_get c m') = s_cap (s_get c m) /\ s_data (s_get c m') = s_data (s_get c m).
  Proof.
    revert os m n. induction mid as [|o mid IH]; intros [|ob os] m n Hok; try done; cbn [ctrace v_fits]; [by intros ->|].
    intros (m1&H1&H2) Hn HF. apply andb_true_iff in HF as [HF HF3]. apply andb_true_iff in HF as [HF1 HF2]. apply N.leb_le in HF2.
    destruct (stable_step c o ob m m1 n Hok H1 HF1 Hn HF2) as (H3&H4&H5&_).
    destruct (IH os m1 _ (all_ok_step _ _ _ _ Hok H1) H2 H5) as [H6 H7]; [by rewrite H3|]. by rewrite H6 H7.
  Qed.

  (** Observations of one container. *)
  Lemma obs_cap c ob m m' K : vcheck (VCap c) ob m m' -> ob = CNum K -> m' = m /\ K = s_cap (s_get c m).
  Proof. unfold Vector.vcheck. destruct (vlegal _ _ _ _); cbn [vcheck_do]; intros [H1 H2] ->; subst; [|done]. by injection H2. Qed.
  Lemma obs_size c ob m m' n : vcheck (VSize c) ob m m' -> ob = CNum n -> m' = m /\ n = s_len (s_get c m).
  Proof. unfold Vector.vcheck. destruct (vlegal _ _ _ _); cbn [vcheck_do]; intros [H1 H2] ->; subst; [|done]. by injection H2. Qed.
  Lemma obs_data c ob m m' p : vcheck (VData c) ob m m' -> ob = CPtr p -> m' = m /\ p = s_data (s_get c m).
  Proof. unfold Vector.vcheck. destruct (vlegal _ _ _ _); cbn [vcheck_do]; intros [H1 H2] ->; subst; [|done]. by injection H2. Qed.

  Lemma size_le_cap pre c os n K :
    ccheck vcheck (pre ++ [VSize c; VCap c]) (os ++ [CNum n; CNum K]) ∅ -> length os = length pre -> n <= K.
  Proof.
    intros H Hl. apply ccheck_trace in H as [m H]. apply ctrace_app in H as (os1&os2&m1&He&Hl1&H1&H2).
    apply app_inj_1 in He as [-> <-]; [|lia]. destruct H2 as (m2&H3&m3&H4&_).
    apply (obs_size _ _ _ _ n) in H3 as [-> ->]; [|done]. apply (obs_cap _ _ _ _ K) in H4 as [-> ->]; [|done].
    apply (ctrace_inv _ all_ok _ _ _ _ (fun o ob s s' Hs Hc => all_ok_step o ob s s' Hs Hc) H1 all_ok_empty c).
  Qed.

  Lemma reserve_cap pre c r os ob K :
    ccheck vcheck (pre ++ [VReserve c r; VCap c]) (os ++ [ob; CNum K]) ∅ -> length os = length pre -> r <= K.
  Proof.
    intros H Hl. apply ccheck_trace in H as [m H]. apply ctrace_app in H as (os1&os2&m1&He&Hl1&H1&H2).
    apply app_inj_1 in He as [-> <-]; [|lia]. destruct H2 as (m2&H3&m3&H4&_).
    pose proof H4 as H5. apply (obs_cap _ _ _ _ K) in H4 as [-> ->]; [|done].
    unfold Vector.vcheck in H3, H5. cbn [vlegal] in H3, H5. destruct (has (s_info <$> m1) c) eqn:Hh.
    - cbn [vcheck_do] in H3. destruct H3 as (_&x&->&_&_&_&H6). rewrite s_get_insert Nat.eqb_refl.
      unfold stable in H6. destruct (N.leb_spec r (s_cap (s_get c m1))); [|done]. lia.
    - destruct H3 as [_ ->]. rewrite Hh in H5. by destruct H5.
  Qed.

  Lemma data_stable pre c mid os K n p os2 ob1 ob2 :
    ccheck vcheck (pre ++ [VCap c; VSize c; VData c] ++ mid ++ [VData c; VCap c])
      (os ++ [CNum K; CNum n; CPtr p] ++ os2 ++ [ob1; ob2]) ∅ ->
    length os = length pre -> length os2 = length mid -> v_fits c K mid n = true ->
    ob1 = CPtr p /\ ob2 = CNum K.
  Proof.
    intros H Hl Hl2 HF. apply ccheck_trace in H as [m H]. apply ctrace_app in H as (os1&os3&m1&He&Hl1&H1&H2).
    apply app_inj_1 in He as [-> <-]; [|lia]. destruct H2 as (m2&H3&m3&H4&m4&H5&H6).
    assert (Hm1 : is_Some (m1 !! c)).
    { unfold Vector.vcheck in H3. cbn [vlegal] in H3. destruct (has _ _) eqn:Hh in H3; [|by destruct H3].
      unfold has in Hh. apply bool_decide_eq_true in Hh. rewrite lookup_fmap in Hh. by destruct (m1 !! c); [|destruct Hh]. }
    apply (obs_cap _ _ _ _ K) in H3 as [-> ->]; [|done]. apply (obs_size _ _ _ _ n) in H4 as [-> ->]; [|done].
    apply (obs_data _ _ _ _ p) in H5 as [-> ->]; [|done].
    pose proof (ctrace_inv _ all_ok _ _ _ _ (fun o ob s s' Hs Hc => all_ok_step o ob s s' Hs Hc) H1 all_ok_empty) as Hok.
    apply (ctrace_app _ mid) in H6 as (os4&os5&m5&He&Hl4&H6&H7). cbn [app] in He. apply app_inj_1 in He as [-> <-]; [|lia].
    destruct (stable_steps c mid os4 m1 m5 (s_len (s_get c m1)) Hok H6) as [H8 H9]; [done|done|].
    assert (Hm5 : is_Some (m5 !! c)).
    { clear -Hok H6 HF Hm1. revert HF. generalize (eq_refl (s_cap (s_get c m1))). generalize (s_cap (s_get c m1)) at 1 3 as K.
      assert (s_len (s_get c m1) <= s_len (s_get c m1)) as Hn by done. revert Hn. generalize (s_len (s_get c m1)) at 2 3 as n.
      revert os4 m1 H6 Hok Hm1. induction mid as [|o mid IH]; intros [|ob os] m H6 Hok Hm n Hn K HK HF; try done.
      - cbn in H6. by subst.
      - cbn [ctrace v_fits] in *. destruct H6 as (m1&H1&H2). apply andb_true_iff in HF as [HF HF3]. apply andb_true_iff in HF as [HF1 HF2].
        apply N.leb_le in HF2. subst K. destruct (stable_step c o ob m m1 n Hok H1 HF1 Hn HF2) as (H3&H4&H5&H6).
        apply (IH os m1 H2 (all_ok_step _ _ _ _ Hok H1) (proj1 H6 Hm) _ H5 _ (eq_sym H3) HF3). }
    assert (Hh5 : has (s_info <$> m5) c = true).
    { unfold has. apply bool_decide_eq_true. rewrite lookup_fmap. by destruct Hm5 as [x ->]. }
    destruct H7 as (m6&H7&m7&H10&_). unfold Vector.vcheck in H7, H10. cbn [vlegal] in H7, H10. rewrite Hh5 in H7.
    destruct H7 as [-> ->]. rewrite Hh5 in H10. destruct H10 as [-> ->]. by rewrite H8 H9.
  Qed.
End vec.

(** * Programs as executions *)
Lemma session_check {A b X O S} {stp : O -> env A * gmap nat X -> M (cobs * (env A * gmap nat X))} {kill} {chk : O -> cobs -> S -> S -> Prop}
  {bad k s0 ops w os w' evs} :
  csession_ok A b stp kill chk bad k s0 ops w -> csession A b stp kill k ops w = Ok os w' evs -> existsb bad evs = false ->
  ccheck chk ops os s0.
Proof. unfold csession_ok. intros H1 H2 H3. rewrite H2 in H1. rewrite H3 in H1. by destruct H1 as [?|(_&?&_)]. Qed.

Section programs.
  Context (pl : platform) (e : aexp) (b sz : N) (k : nat).
  Notation program := (csession (den pl e) b (vstep (den pl e) b sz k) (release (den pl e) b sz) k).

  Lemma vector_size_le_cap pre c w os n K w' evs :
    pl <> PPosix -> wf e = true -> 0 < sz -> place b (N.of_nat k * esize e) w ->
    program (pre ++ [VSize c; VCap c]) w = Ok (os ++ [CNum n; CNum K]) w' evs -> length os = length pre ->
    existsb (unsupported (ereq pl e)) evs = false -> n <= K.
  Proof.
    intros H1 H2 H3 H4 H5 H6 H7. eapply (size_le_cap sz k); [|done].
    exact (session_check (vector_tree pl e b sz k _ w H1 H2 H3 H4) H5 H7).
  Qed.
  Lemma vector_reserve_cap pre c r w os ob K w' evs :
    pl <> PPosix -> wf e = true -> 0 < sz -> place b (N.of_nat k * esize e) w ->
    program (pre ++ [VReserve c r; VCap c]) w = Ok (os ++ [ob; CNum K]) w' evs -> length os = length pre ->
    existsb (unsupported (ereq pl e)) evs = false -> r <= K.
  Proof.
    intros H1 H2 H3 H4 H5 H6 H7. eapply (reserve_cap sz k); [|done].
    exact (session_check (vector_tree pl e b sz k _ w H1 H2 H3 H4) H5 H7).
  Qed.
  Lemma vector_data_stable pre c mid w os K n p os2 ob1 ob2 w' evs :
    pl <> PPosix -> wf e = true -> 0 < sz -> place b (N.of_nat k * esize e) w ->
    program (pre ++ [VCap c; VSize c; VData c] ++ mid ++ [VData c; VCap c]) w =
      Ok (os ++ [CNum K; CNum n; CPtr p] ++ os2 ++ [ob1; ob2]) w' evs ->
    length os = length pre -> length os2 = length mid ->
    existsb (unsupported (ereq pl e)) evs = false ->
    v_fits c K mid n = true -> ob1 = CPtr p /\ ob2 = CNum K.
  Proof.
    intros H1 H2 H3 H4 H5 H6 H7 H8 H9. eapply (data_stable sz k _ _ _ _ _ _ _ _ _ _); [|exact H6|exact H7|exact H9].
    exact (session_check (vector_tree pl e b sz k _ w H1 H2 H3 H4) H5 H8).
  Qed.
End programs.
