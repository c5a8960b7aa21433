(** How often containers move their elements, from their specifications. *)
From iris.proofmode Require Import tactics.
From Verif Require Import Base Mem AlignedMalloc Allocators Tree Client Env Vector Contract AllocSpec EnvProofs ContFacts HeapPure Heap HeapSpec HeapProofs HeapFacts.

Local Open Scope N_scope.

(** * Counting

    Observations come in groups of three: of an operation, of size() and of capacity().  If the
    capacity has changed, all elements were moved. *)
Fixpoint moved (n K : N) (os : list cobs) : N :=
  match os with
  | _ :: CNum n' :: CNum K' :: os => (if K' =? K then 0 else n) + moved n' K' os
  | _ => 0
  end.
Fixpoint moves (K : N) (os : list cobs) : nat :=
  match os with
  | _ :: _ :: CNum K' :: os => ((if (K' =? K)%N then 0 else 1) + moves K' os)%nat
  | _ => 0%nat
  end.

Fixpoint chain (q : N -> N) (P n K : N) (os : list cobs) : Prop :=
  match os with
  | [] => True
  | _ :: CNum n' :: CNum K' :: os =>
    n' <= K' /\ (K' = K \/ K < P /\ K + 1 <= K' /\ q K <= K') /\ chain q P n' K' os
  | _ => False
  end.

Lemma chain_ind (q : N -> N) (P : N) (Q : N -> N -> list cobs -> Prop) :
  (forall n K, Q n K []) ->
  (forall n K ob n' K' os, n <= K -> n' <= K' -> (K' = K \/ K < P /\ K + 1 <= K' /\ q K <= K') -> Q n' K' os ->
    Q n K (ob :: CNum n' :: CNum K' :: os)) ->
  forall os n K, n <= K -> chain q P n K os -> Q n K os.
Proof.
  intros H1 H2. fix IH 1. intros [|ob [|[] [|[] os]]] a K Hn; cbn [chain]; try done.
  intros (H3&H4&H5). apply H2; try done. by apply IH.
Qed.

Lemma chain_mono q P P' os n K : P <= P' -> chain q P n K os -> chain q P' n K os.
Proof.
  intros HP. revert os n K. fix IH 1. intros [|ob [|[] [|[] os]]] a K; cbn [chain]; try done.
  intros (H1&H2&H3). split_and!; [done| |by apply IH]. destruct H2 as [?|(?&?&?)]; [by left|right]. split_and!; [lia|done..].
Qed.

Lemma moved_half P os n K : n <= K -> chain (fun K => K + K / 2) P n K os ->
  moves K os = 0%nat /\ moved n K os = 0 \/
  (0 < moves K os)%nat /\ moved n K os + 2 * K + 4 <= 3 * P + N.of_nat (moves K os) /\ K + N.of_nat (moves K os) <= P.
Proof.
  revert os n K. refine (chain_ind _ P _ _ _).
  - intros n K. by left.
  - intros n K ob n' K' os Hn Hn' HK IH. cbn [moved moves]. destruct (N.eqb_spec K' K) as [->|Hne].
    + destruct IH as [IH|IH]; [left|right]; cbn [Nat.add]; rewrite ?N.add_0_l; done.
    + right. destruct HK as [?|(H1&H2&H3)]; [done|].
      pose proof (N.div_mod' K 2). pose proof (N.mod_lt K 2 ltac:(lia)).
      destruct IH as [[IH1 IH2]|(IH1&IH2&IH3)]; split_and!; lia.
Qed.

Lemma moved_half_le P os n K : n <= K -> chain (fun K => K + K / 2) P n K os -> moved n K os <= 4 * P.
Proof. intros Hn H. destruct (moved_half _ _ _ _ Hn H) as [[? ?]|(?&?&?)]; lia. Qed.

Definition weight (K : N) : N := if K =? 0 then 4 else if K =? 1 then 6 else 9 * (K - 1).
Lemma moves_half P os n K : n <= K -> chain (fun K => K + K / 2) P n K os -> (0 < moves K os)%nat ->
  weight K * 3 ^ N.of_nat (moves K os) * 2 <= 27 * P * 2 ^ N.of_nat (moves K os).
Proof.
  revert os n K. refine (chain_ind _ P _ _ _).
  - intros n K H. cbn in H. lia.
  - intros n K ob n' K' os Hn Hn' HK IH. cbn [moves]. destruct (N.eqb_spec K' K) as [->|Hne]; cbn [Nat.add]; [done|]. intros _.
    destruct HK as [?|(H1&H2&H3)]; [done|]. rewrite Nat2N.inj_succ !N.pow_succ_r'.
    assert (Hw : weight K * 3 <= weight K' * 2).
    { pose proof (N.div_mod' K 2). pose proof (N.mod_lt K 2 ltac:(lia)). unfold weight.
      destruct (N.eqb_spec K 0), (N.eqb_spec K 1), (N.eqb_spec K' 0), (N.eqb_spec K' 1); lia. }
    destruct (moves K' os) as [|r].
    + cbn [N.of_nat]. rewrite !N.pow_0_r. assert (weight K <= 9 * P); [|lia].
      unfold weight. destruct (N.eqb_spec K 0), (N.eqb_spec K 1); lia.
    + specialize (IH ltac:(lia)). set (x := 3 ^ _) in *. set (y := 2 ^ _) in *.
      assert (weight K * 3 * x <= weight K' * 2 * x) by (by apply N.mul_le_mono_r). lia.
Qed.
Lemma moves_half_le P os n K : n <= K -> chain (fun K => K + K / 2) P n K os ->
  8 * 3 ^ N.of_nat (moves K os) <= 27 * (P + 1) * 2 ^ N.of_nat (moves K os).
Proof.
  intros Hn H. destruct (moves K os) as [|r] eqn:Hr; [cbn [N.of_nat]; rewrite !N.pow_0_r; lia|].
  pose proof (moves_half _ _ _ _ Hn H ltac:(lia)) as Hm. rewrite Hr in Hm.
  set (x := 3 ^ _) in *. set (y := 2 ^ _) in *.
  assert (4 * x <= weight K * x); [|lia]. apply N.mul_le_mono_r. unfold weight.
  destruct (N.eqb_spec K 0), (N.eqb_spec K 1); lia.
Qed.

Lemma moved_double P os n K : n <= K -> chain (fun K => 2 * K) P n K os ->
  moves K os = 0%nat /\ moved n K os = 0 \/ (0 < moves K os)%nat /\ moved n K os + K <= 2 * P /\ K < P.
Proof.
  revert os n K. refine (chain_ind _ P _ _ _).
  - intros n K. by left.
  - intros n K ob n' K' os Hn Hn' HK IH. cbn [moved moves]. destruct (N.eqb_spec K' K) as [->|Hne].
    + destruct IH as [IH|IH]; [left|right]; cbn [Nat.add]; rewrite ?N.add_0_l; done.
    + right. destruct HK as [?|(H1&H2&H3)]; [done|].
      destruct IH as [[IH1 IH2]|(IH1&IH2&IH3)]; split_and!; lia.
Qed.
Lemma moved_double_le P os n K : n <= K -> chain (fun K => 2 * K) P n K os -> moved n K os <= 2 * P.
Proof. intros Hn H. destruct (moved_double _ _ _ _ Hn H) as [[? ?]|(?&?&?)]; lia. Qed.

Definition weight2 (K : N) : N := if K =? 0 then 1 else 2 * K.
Lemma moves_double P os n K : n <= K -> chain (fun K => 2 * K) P n K os -> (0 < moves K os)%nat ->
  weight2 K * 2 ^ N.of_nat (moves K os) <= 4 * P.
Proof.
  revert os n K. refine (chain_ind _ P _ _ _).
  - intros n K H. cbn in H. lia.
  - intros n K ob n' K' os Hn Hn' HK IH. cbn [moves]. destruct (N.eqb_spec K' K) as [->|Hne]; cbn [Nat.add]; [done|]. intros _.
    destruct HK as [?|(H1&H2&H3)]; [done|]. rewrite Nat2N.inj_succ !N.pow_succ_r'.
    assert (Hw : weight2 K * 2 <= weight2 K').
    { unfold weight2. destruct (N.eqb_spec K 0), (N.eqb_spec K' 0); lia. }
    destruct (moves K' os) as [|r].
    + cbn [N.of_nat]. rewrite !N.pow_0_r. unfold weight2. destruct (N.eqb_spec K 0); lia.
    + specialize (IH ltac:(lia)). set (y := 2 ^ _) in *.
      assert (weight2 K * 2 * y <= weight2 K' * y) by (by apply N.mul_le_mono_r). lia.
Qed.
Lemma moves_double_le P os n K : n <= K -> chain (fun K => 2 * K) P n K os -> 2 ^ N.of_nat (moves K os) <= 4 * P + 1.
Proof.
  intros Hn H. destruct (moves K os) as [|r] eqn:Hr; [cbn [N.of_nat]; rewrite !N.pow_0_r; lia|].
  pose proof (moves_double _ _ _ _ Hn H ltac:(lia)) as Hm. rewrite Hr in Hm. set (y := 2 ^ _) in *.
  assert (1 * y <= weight2 K * y); [|lia]. apply N.mul_le_mono_r. unfold weight2. destruct (N.eqb_spec K 0); lia.
Qed.

(** * trivial_vector *)
Definition v_watch (c : nat) (ops : list vop) : list vop := flat_map (fun o => [o; VSize c; VCap c]) ops.
(** Anything that does not replace [c] or reserve room in it. *)
Definition v_gentle (c : nat) (o : vop) : bool :=
  v_keeps c o && match o with VReserve d _ => negb (d =? c)%nat | _ => true end.
Definition v_peak (c : nat) (ops : list vop) (n : N) : N := fold_left (fun n o => v_after c o n) ops n.

Lemma v_peak_ge c ops n : n <= v_peak c ops n.
Proof.
  revert n. induction ops as [|o ops IH]; intros n; [done|]. cbn [v_peak fold_left]. etrans; [|apply IH].
  destruct o; cbn [v_after]; try done; destruct (_ =? _)%nat; lia.
Qed.

Section vec.
  Context (sz : N) (k : nat).
  Notation vcheck := (vcheck sz k).
  Notation trace := (ctrace vcheck).

  Lemma grow_step c o ob m m' n : all_ok m -> vcheck o ob m m' -> v_gentle c o = true -> is_Some (m !! c) ->
    s_len (s_get c m) <= n ->
    s_len (s_get c m') <= v_after c o n /\ is_Some (m' !! c) /\
    (s_cap (s_get c m') = s_cap (s_get c m) \/
     s_cap (s_get c m) < v_after c o n /\ s_cap (s_get c m) + 1 <= s_cap (s_get c m') /\
     s_cap (s_get c m) + s_cap (s_get c m) / 2 <= s_cap (s_get c m')).
  Proof.
    intros Hok H HG Hc Hn. apply andb_true_iff in HG as [HK HG].
    destruct (N.leb_spec (v_need c o n) (s_cap (s_get c m))) as [Hle|Hlt].
    { destruct (stable_step sz k c o ob m m' n Hok H HK Hn Hle) as (H1&H2&H3&H4).
      split_and!; [done|by apply H4|by left]. }
    assert (Hbec : forall r l, become c r (amply r (s_get c m)) l m m' -> r <= v_after c o n ->
      N.of_nat (length l) <= v_after c o n ->
      s_len (s_get c m') <= v_after c o n /\ is_Some (m' !! c) /\
      (s_cap (s_get c m') = s_cap (s_get c m) \/
       s_cap (s_get c m) < v_after c o n /\ s_cap (s_get c m) + 1 <= s_cap (s_get c m') /\
       s_cap (s_get c m) + s_cap (s_get c m) / 2 <= s_cap (s_get c m'))).
    { intros r l (x&->&H1&H2&H3&H4) Hr Hl. rewrite s_get_insert Nat.eqb_refl lookup_insert. unfold s_len. rewrite H3.
      split_and!; [done|by eexists|]. unfold stable, amply in H4.
      destruct (N.leb_spec r (s_cap (s_get c m))); [left; apply H4|right]. lia. }
    unfold Vector.vcheck in H. destruct (vlegal _ _ _ o) eqn:HL.
    2:{ destruct H as [_ ->]. split_and!; [|done|by left]. etrans; [done|]. destruct o; cbn [v_after]; try done; destruct (_ =? _)%nat; lia. }
    destruct o; cbn [v_need] in Hlt; try lia; destruct (Nat.eqb_spec c0 c) as [->|Hne]; try lia; cbn [vcheck_do v_after] in *; rewrite ?Nat.eqb_refl in Hbec |- *.
    - destruct H as [_ H]. apply (Hbec _ _ H); [lia|]. rewrite app_length take_length repeat_length. unfold s_len in *. lia.
    - destruct H as [_ H]. apply (Hbec _ _ H); [lia|]. rewrite app_length. cbn [length]. unfold s_len in *. lia.
    - destruct H as [_ H]. pose proof (range_len_of g m). apply (Hbec _ _ H); [lia|]. rewrite app_length. unfold s_len in *. lia.
  Qed.

  Lemma grow_chain c mid os m m' n : all_ok m -> is_Some (m !! c) -> s_len (s_get c m) <= n ->
    trace (v_watch c mid) os m m' -> forallb (v_gentle c) mid = true ->
    chain (fun K => K + K / 2) (v_peak c mid n) (s_len (s_get c m)) (s_cap (s_get c m)) os.
  Proof.
    revert os m n. induction mid as [|o mid IH]; intros os m n Hok Hc Hn; cbn [v_watch flat_map app ctrace forallb].
    { by destruct os. }
    destruct os as [|ob [|ob1 [|ob2 os]]]; [done|by intros (?&_&[])|by intros (?&_&?&_&[])|].
    intros (m1&H1&m2&H2&m3&H3&H4) HG. apply andb_true_iff in HG as [HG HGs].
    destruct (grow_step c o ob m m1 n Hok H1 HG Hc Hn) as (H5&H6&H7). pose proof (all_ok_step _ _ _ _ _ _ Hok H1) as Hok1.
    assert (Hh : has (s_info <$> m1) c = true). { unfold has. apply bool_decide_eq_true. rewrite lookup_fmap. by destruct H6 as [? ->]. }
    unfold Vector.vcheck in H2, H3. cbn [vlegal] in H2, H3. rewrite Hh in H2. destruct H2 as [-> ->]. rewrite Hh in H3. destruct H3 as [-> ->].
    cbn [chain v_peak fold_left]. split_and!.
    - apply (Hok1 c).
    - destruct H7 as [->|(H7&H8&H9)]; [by left|right]. split_and!; [|done..]. eapply N.lt_le_trans; [done|apply (v_peak_ge c mid)].
    - by apply IH.
  Qed.

  Lemma vector_moves pre c mid os n K os2 :
    ccheck vcheck (pre ++ [VSize c; VCap c] ++ v_watch c mid) (os ++ [CNum n; CNum K] ++ os2) ∅ ->
    length os = length pre -> forallb (v_gentle c) mid = true ->
    moved n K os2 <= 4 * v_peak c mid n /\
    8 * 3 ^ N.of_nat (moves K os2) <= 27 * (v_peak c mid n + 1) * 2 ^ N.of_nat (moves K os2).
  Proof.
    intros H Hl HG. apply ccheck_trace in H as [m H]. apply ctrace_app in H as (os1&os3&m1&He&Hl1&H1&H2).
    apply app_inj_1 in He as [-> <-]; [|lia]. destruct H2 as (m2&H3&m3&H4&H5).
    assert (Hm1 : is_Some (m1 !! c)).
    { unfold Vector.vcheck in H3. cbn [vlegal] in H3. destruct (has _ _) eqn:Hh in H3; [|by destruct H3].
      unfold has in Hh. apply bool_decide_eq_true in Hh. rewrite lookup_fmap in Hh. by destruct (m1 !! c); [|destruct Hh]. }
    apply (obs_size sz k _ _ _ _ n) in H3 as [-> ->]; [|done]. apply (obs_cap sz k _ _ _ _ K) in H4 as [-> ->]; [|done].
    pose proof (ctrace_inv _ all_ok _ _ _ _ (fun o ob s s' Hs Hc => all_ok_step sz k o ob s s' Hs Hc) H1 all_ok_empty) as Hok.
    pose proof (grow_chain c mid os2 m1 m (s_len (s_get c m1)) Hok Hm1 ltac:(done) H5 HG) as HC.
    split; [exact (moved_half_le _ _ _ _ (proj1 (Hok c)) HC)|exact (moves_half_le _ _ _ _ (proj1 (Hok c)) HC)].
  Qed.
End vec.

(** * binary_heap *)
Definition h_keeps (c : nat) (o : hop) : bool :=
  match o with
  | HNew d _ _ | HNewCap d _ _ _ | HNewList d _ _ _ | HCopy d _ | HCopyAl d _ _ | HDestroy d | HAssign d _ => negb (d =? c)%nat
  | HMove d s | HMoveAl d s _ | HMoveAssign d s => negb (d =? c)%nat && negb (s =? c)%nat
  | _ => true
  end.
(** How much room [o] needs in [c], and the size of [c] afterwards, if it is at most [n] before. *)
Definition h_need (c : nat) (o : hop) (n : N) : N :=
  match o with
  | HReserve d m => if (d =? c)%nat then m else 0
  | HInsert d _ => if (d =? c)%nat then n + 1 else 0
  | _ => 0
  end.
Definition h_after (c : nat) (o : hop) (n : N) : N :=
  match o with
  | HInsert d _ => if (d =? c)%nat then n + 1 else n
  | _ => n
  end.
Fixpoint h_fits (c : nat) (K : N) (ops : list hop) (n : N) : bool :=
  match ops with
  | [] => true
  | o :: ops => h_keeps c o && (h_need c o n <=? K) && h_fits c K ops (h_after c o n)
  end.
Definition h_watch (c : nat) (ops : list hop) : list hop := flat_map (fun o => [o; HSize c; HCap c]) ops.
Definition h_gentle (c : nat) (o : hop) : bool :=
  h_keeps c o && match o with HReserve d _ => negb (d =? c)%nat | _ => true end.
Definition h_peak (c : nat) (ops : list hop) (n : N) : N := fold_left (fun n o => h_after c o n) ops n.

Lemma h_peak_ge c ops n : n <= h_peak c ops n.
Proof.
  revert n. induction ops as [|o ops IH]; intros n; [done|]. cbn [h_peak fold_left]. etrans; [|apply IH].
  destruct o; cbn [h_after]; try done; destruct (_ =? _)%nat; lia.
Qed.

Section heap.
  Context (sz : N) (T : elt) (comp : nat -> value -> value -> bool) (eqv : value -> value -> bool) (k : nat).
  Notation hcheck := (hcheck sz T comp eqv k).
  Notation trace := (ctrace hcheck).

  Lemma p_get_insert c d (x : sheap) m : p_get c (<[d := x]> m) = if (d =? c)%nat then x else p_get c m.
  Proof.
    unfold p_get. destruct (Nat.eqb_spec d c) as [->|H]; [by rewrite lookup_insert|]. by rewrite lookup_insert_ne.
  Qed.
  Lemma p_get_delete c d (m : gmap nat sheap) : d <> c -> p_get c (delete d m) = p_get c m.
  Proof. intros. unfold p_get. by rewrite lookup_delete_ne. Qed.

  Definition h_all_ok (m : gmap nat sheap) : Prop := forall c, p_ok comp (p_get c m).

  Lemma h_all_ok_empty : h_all_ok ∅.
  Proof. intros c. apply p_ok_0. Qed.
  Lemma h_all_ok_insert c x m : p_ok comp x -> h_all_ok m -> h_all_ok (<[c := x]> m).
  Proof. intros Hx Hm d. rewrite p_get_insert. by destruct (_ =? _)%nat. Qed.
  Lemma h_all_ok_emptied c m m1 : h_all_ok m1 -> h_all_ok (<[c := p_emptied (p_get c m)]> m1).
  Proof. intros. apply h_all_ok_insert; [|done]. by split_and!. Qed.

  Lemma h_all_ok_step o ob m m' : h_all_ok m -> hcheck o ob m m' -> h_all_ok m'.
  Proof.
    intros Hm. unfold Heap.hcheck. destruct (hlegal _ _ _ _ _) eqn:HL; [|by intros [_ ->]].
    destruct o; cbn [hcheck_do]; intros HH;
      repeat match goal with
      | H : _ /\ _ |- _ => destruct H
      | H : p_born _ _ _ _ _ _ _ |- _ => destruct H as (?&->&?&_)
      | H : p_become _ _ _ _ _ _ _ |- _ => destruct H as (?&->&?&_)
      | H : exists _, _ |- _ => destruct H
      end; subst; auto using h_all_ok_insert, h_all_ok_emptied; try done.
    - apply h_all_ok_insert; [|done]. by split_and!.
    - intros d. unfold p_get. destruct (decide (c = d)) as [->|Hne]; [rewrite lookup_delete; apply p_ok_0|].
      rewrite lookup_delete_ne //. apply Hm.
  Qed.
  Lemma h_all_ok_trace ops os m : trace ops os ∅ m -> h_all_ok m.
  Proof. intros H. exact (ctrace_inv _ h_all_ok _ _ _ _ (fun o ob s s' Hs Hc => h_all_ok_step o ob s s' Hs Hc) H h_all_ok_empty). Qed.

  Lemma h_has m c : has (p_info <$> m) c = true <-> is_Some (m !! c).
  Proof.
    unfold has. rewrite bool_decide_eq_true lookup_fmap. destruct (m !! c); cbn; [done|]. split; intros [? ?]; done.
  Qed.

  (** One step. *)
  Lemma h_step c o ob m m' n : h_all_ok m -> hcheck o ob m m' -> h_keeps c o = true -> is_Some (m !! c) ->
    p_len (p_get c m) <= n ->
    p_len (p_get c m') <= h_after c o n /\ is_Some (m' !! c) /\
    (p_cap (p_get c m') = p_cap (p_get c m) /\ p_data (p_get c m') = p_data (p_get c m) \/
     p_cap (p_get c m) < h_need c o n /\ p_cap (p_get c m) + 1 <= p_cap (p_get c m') /\
     (h_gentle c o = true -> 2 * p_cap (p_get c m) <= p_cap (p_get c m'))).
  Proof.
    intros Hok H HK Hc Hn. unfold Heap.hcheck in H. destruct (hlegal _ _ _ _ _) eqn:HL.
    2:{ destruct H as [_ ->]. split_and!; [|done|by left]. etrans; [done|]. destruct o; cbn [h_after]; try done; destruct (_ =? _)%nat; lia. }
    assert (Hother : forall d x m1, d <> c -> p_get c (<[d := x]> m1) = p_get c m1 /\ (is_Some (m1 !! c) -> is_Some (<[d := x]> m1 !! c))).
    { intros d x m1 Hd. rewrite p_get_insert lookup_insert_ne //. by destruct (Nat.eqb_spec d c). }
    assert (Hsk : forall m', p_get c m' = p_get c m -> is_Some (m' !! c) -> p_len (p_get c m') <= n /\ is_Some (m' !! c) /\
      (p_cap (p_get c m') = p_cap (p_get c m) /\ p_data (p_get c m') = p_data (p_get c m) \/
       p_cap (p_get c m) < h_need c o n /\ p_cap (p_get c m) + 1 <= p_cap (p_get c m') /\
       (h_gentle c o = true -> 2 * p_cap (p_get c m) <= p_cap (p_get c m')))).
    { intros m2 -> ?. split_and!; [done|done|by left]. }
    assert (Hborn : forall d h q L, d <> c -> p_born comp d h q L m m' -> p_get c m' = p_get c m /\ is_Some (m' !! c)).
    { intros d h q L Hd (x&->&_). destruct (Hother d x m Hd) as [-> H2]. auto. }
    destruct o; cbn [hcheck_do h_keeps h_after] in *;
      repeat match goal with
      | H : (_ && _)%bool = true |- _ => apply andb_true_iff in H as [? ?]
      | H : negb (_ =? _)%nat = true |- _ => apply negb_true_iff, Nat.eqb_neq in H
      | H : _ /\ _ |- _ => destruct H
      end; subst;
      try (by apply Hsk);
      try (match goal with HB : p_born _ _ _ _ _ _ _ |- _ => destruct (Hborn _ _ _ _ ltac:(done) HB); by apply Hsk end).
    - destruct (Hother c0 (SHeap h q [] 0 0) m) as [? ?]; [done|]. apply Hsk; auto.
    - match goal with HB : exists _, _ |- _ => destruct HB as (x&->&_) end. destruct (Hother c0 x m) as [? ?]; [done|]. apply Hsk; auto.
    - destruct (Hother c0 (p_get src m) m) as [G1 G2]; [done|]. destruct (Hother src (p_emptied (p_get src m)) (<[c0 := p_get src m]> m)) as [G3 G4]; [done|].
      apply Hsk; [by rewrite G3|auto].
    - match goal with HB : exists _, _ |- _ => destruct HB as (m1&(x&->&_)&->) end.
      destruct (Hother c0 x m) as [G1 G2]; [done|]. destruct (Hother src (p_emptied (p_get src m)) (<[c0 := x]> m)) as [G3 G4]; [done|].
      apply Hsk; [by rewrite G3|auto].
    - apply Hsk; [by rewrite p_get_delete|by rewrite lookup_delete_ne].
    - destruct (Hother c0 (p_get src m) m) as [G1 G2]; [done|]. destruct (Hother src (p_emptied (p_get src m)) (<[c0 := p_get src m]> m)) as [G3 G4]; [done|].
      apply Hsk; [by rewrite G3|auto].
    - match goal with HB : p_become _ _ _ _ _ _ _ |- _ => destruct HB as (x&->&_&_&_&Hl&HB) end.
      destruct (Nat.eqb_spec c0 c) as [->|Hne].
      + cbn [h_need h_gentle]. rewrite p_get_insert lookup_insert Nat.eqb_refl. unfold p_len in *. rewrite -Hl. split_and!; [done|by eexists|].
        destruct (N.leb_spec n0 (p_cap (p_get c m))); [by left|right]. split_and!; [lia|lia|]. unfold h_gentle. by rewrite Nat.eqb_refl andb_false_r.
      + destruct (Hother c0 x m Hne) as [? ?]. apply Hsk; auto.
    - destruct H as (i&_&HB). destruct HB as (x&->&_&_&_&[Hl _]&HB). destruct (Nat.eqb_spec c0 c) as [->|Hne].
      + cbn [h_need h_gentle]. rewrite p_get_insert lookup_insert Nat.eqb_refl. unfold p_len in *. rewrite Hl. cbn [length].
        split_and!; [lia|by eexists|]. destruct (N.leb_spec (N.of_nat (length (p_l (p_get c m))) + 1) (p_cap (p_get c m))); [by left|right].
        split_and!; lia.
      + destruct (Hother c0 x m Hne) as [? ?]. apply Hsk; auto.
    - destruct H as (v&_&_&HB). destruct HB as (x&->&_&_&_&Hl&HB). destruct (Nat.eqb_spec c0 c) as [->|Hne].
      + rewrite p_get_insert lookup_insert Nat.eqb_refl. split_and!; [|by eexists|].
        * unfold p_len in *. apply Permutation_length in Hl. cbn [length] in Hl. lia.
        * left. destruct (N.leb_spec 0 (p_cap (p_get c m))); [done|lia].
      + destruct (Hother c0 x m Hne) as [? ?]. apply Hsk; auto.
    - match goal with HB : p_become _ _ _ _ _ _ _ |- _ => destruct HB as (x&->&_&_&_&Hl&HB) end.
      destruct (Nat.eqb_spec c0 c) as [->|Hne].
      + rewrite p_get_insert lookup_insert Nat.eqb_refl. split_and!; [|by eexists|].
        * unfold p_len. rewrite -Hl. cbn. lia.
        * left. destruct (N.leb_spec 0 (p_cap (p_get c m))); [done|lia].
      + destruct (Hother c0 x m Hne) as [? ?]. apply Hsk; auto.
  Qed.

  (** Observations of one heap. *)
  Lemma h_obs_cap c ob m m' K : hcheck (HCap c) ob m m' -> ob = CNum K -> m' = m /\ K = p_cap (p_get c m) /\ is_Some (m !! c).
  Proof.
    unfold Heap.hcheck. cbn [hlegal]. destruct (has _ _) eqn:Hh; cbn [hcheck_do]; intros [H1 H2] ->; subst; [|done].
    injection H2 as ->. split_and!; [done..|]. by apply h_has.
  Qed.
  Lemma h_obs_size c ob m m' n : hcheck (HSize c) ob m m' -> ob = CNum n -> m' = m /\ n = p_len (p_get c m) /\ is_Some (m !! c).
  Proof.
    unfold Heap.hcheck. cbn [hlegal]. destruct (has _ _) eqn:Hh; cbn [hcheck_do]; intros [H1 H2] ->; subst; [|done].
    injection H2 as ->. split_and!; [done..|]. by apply h_has.
  Qed.
  Lemma h_obs_data c ob m m' p : hcheck (HData c) ob m m' -> ob = CPtr p -> m' = m /\ p = p_data (p_get c m) /\ is_Some (m !! c).
  Proof.
    unfold Heap.hcheck. cbn [hlegal]. destruct (has _ _) eqn:Hh; cbn [hcheck_do]; intros [H1 H2] ->; subst; [|done].
    injection H2 as ->. split_and!; [done..|]. by apply h_has.
  Qed.

  Lemma h_size_le_cap pre c os n K :
    ccheck hcheck (pre ++ [HSize c; HCap c]) (os ++ [CNum n; CNum K]) ∅ -> length os = length pre -> n <= K.
  Proof.
    intros H Hl. apply ccheck_trace in H as [m H]. apply ctrace_app in H as (os1&os2&m1&He&Hl1&H1&H2).
    apply app_inj_1 in He as [-> <-]; [|lia]. destruct H2 as (m2&H3&m3&H4&_).
    apply (h_obs_size _ _ _ _ n) in H3 as (->&->&_); [|done]. apply (h_obs_cap _ _ _ _ K) in H4 as (->&->&_); [|done].
    apply (h_all_ok_trace _ _ _ H1 c).
  Qed.

  Lemma h_reserve_cap pre c r os ob K :
    ccheck hcheck (pre ++ [HReserve c r; HCap c]) (os ++ [ob; CNum K]) ∅ -> length os = length pre -> r <= K.
  Proof.
    intros H Hl. apply ccheck_trace in H as [m H]. apply ctrace_app in H as (os1&os2&m1&He&Hl1&H1&H2).
    apply app_inj_1 in He as [-> <-]; [|lia]. destruct H2 as (m2&H3&m3&H4&_).
    apply (h_obs_cap _ _ _ _ K) in H4 as (->&->&Hc); [|done].
    unfold Heap.hcheck in H3. cbn [hlegal] in H3. destruct (has (p_info <$> m1) c) eqn:Hh.
    - cbn [hcheck_do] in H3. destruct H3 as (_&x&->&_&_&_&_&H6). rewrite p_get_insert Nat.eqb_refl.
      destruct (N.leb_spec r (p_cap (p_get c m1))); [|done]. lia.
    - destruct H3 as [_ ->]. apply h_has in Hc. congruence.
  Qed.

  Lemma h_stable_steps c mid os m m' n : h_all_ok m -> is_Some (m !! c) -> trace mid os m m' ->
    p_len (p_get c m) <= n -> h_fits c (p_cap (p_get c m)) mid n = true ->
    p_cap (p_get c m') = p_cap (p_get c m) /\ p_data (p_get c m') = p_data (p_get c m) /\ is_Some (m' !! c).
  Proof.
    revert os m n. induction mid as [|o mid IH]; intros [|ob os] m n Hok Hc; try done; cbn [ctrace h_fits]; [by intros ->|].
    intros (m1&H1&H2) Hn HF. apply andb_true_iff in HF as [HF HF3]. apply andb_true_iff in HF as [HF1 HF2]. apply N.leb_le in HF2.
    destruct (h_step c o ob m m1 n Hok H1 HF1 Hc Hn) as (H3&H4&[[H5 H6]|[H5 _]]); [|lia].
    destruct (IH os m1 _ (h_all_ok_step _ _ _ _ Hok H1) H4 H2 H3) as (H7&H8&H9); [by rewrite H5|]. rewrite H7 H8. done.
  Qed.

  Lemma h_data_stable pre c mid os K n p os2 ob1 ob2 :
    ccheck hcheck (pre ++ [HCap c; HSize c; HData c] ++ mid ++ [HData c; HCap c])
      (os ++ [CNum K; CNum n; CPtr p] ++ os2 ++ [ob1; ob2]) ∅ ->
    length os = length pre -> length os2 = length mid -> h_fits c K mid n = true ->
    ob1 = CPtr p /\ ob2 = CNum K.
  Proof.
    intros H Hl Hl2 HF. apply ccheck_trace in H as [m H]. apply ctrace_app in H as (os1&os3&m1&He&Hl1&H1&H2).
    apply app_inj_1 in He as [-> <-]; [|lia]. destruct H2 as (m2&H3&m3&H4&m4&H5&H6).
    apply (h_obs_cap _ _ _ _ K) in H3 as (->&->&Hm1); [|done]. apply (h_obs_size _ _ _ _ n) in H4 as (->&->&_); [|done].
    apply (h_obs_data _ _ _ _ p) in H5 as (->&->&_); [|done].
    apply (ctrace_app _ mid) in H6 as (os4&os5&m5&He&Hl4&H6&H7). cbn [app] in He. apply app_inj_1 in He as [-> <-]; [|lia].
    destruct (h_stable_steps c mid os4 m1 m5 (p_len (p_get c m1)) (h_all_ok_trace _ _ _ H1) Hm1 H6) as (H8&H9&H10); [done|done|].
    destruct H7 as (m6&H7&m7&H11&_). apply h_has in H10. unfold Heap.hcheck in H7, H11. cbn [hlegal] in H7, H11. rewrite H10 in H7.
    destruct H7 as [-> ->]. rewrite H10 in H11. destruct H11 as [-> ->]. by rewrite H8 H9.
  Qed.

  Lemma h_grow_chain c mid os m m' n : h_all_ok m -> is_Some (m !! c) -> p_len (p_get c m) <= n ->
    trace (h_watch c mid) os m m' -> forallb (h_gentle c) mid = true ->
    chain (fun K => 2 * K) (h_peak c mid n) (p_len (p_get c m)) (p_cap (p_get c m)) os.
  Proof.
    revert os m n. induction mid as [|o mid IH]; intros os m n Hok Hc Hn; cbn [h_watch flat_map app ctrace forallb].
    { by destruct os. }
    destruct os as [|ob [|ob1 [|ob2 os]]]; [done|by intros (?&_&[])|by intros (?&_&?&_&[])|].
    intros (m1&H1&m2&H2&m3&H3&H4) HG. apply andb_true_iff in HG as [HG HGs]. pose proof HG as HG'. apply andb_true_iff in HG' as [HK HG'].
    destruct (h_step c o ob m m1 n Hok H1 HK Hc Hn) as (H5&H6&H7). pose proof (h_all_ok_step _ _ _ _ Hok H1) as Hok1.
    pose proof (proj2 (h_has m1 c) H6) as Hh.
    unfold Heap.hcheck in H2, H3. cbn [hlegal] in H2, H3. rewrite Hh in H2. destruct H2 as [-> ->]. rewrite Hh in H3. destruct H3 as [-> ->].
    cbn [chain h_peak fold_left]. split_and!.
    - apply (Hok1 c).
    - destruct H7 as [[-> _]|(H7&H8&H9)]; [by left|right]. split_and!; [|done|by apply H9].
      eapply N.lt_le_trans; [done|]. etrans; [|apply (h_peak_ge c mid)]. clear -HG'.
      destruct o; cbn [h_need h_after]; try lia; destruct (_ =? _)%nat; try lia.
    - by apply IH.
  Qed.

  Lemma heap_moves pre c mid os n K os2 :
    ccheck hcheck (pre ++ [HSize c; HCap c] ++ h_watch c mid) (os ++ [CNum n; CNum K] ++ os2) ∅ ->
    length os = length pre -> forallb (h_gentle c) mid = true ->
    moved n K os2 <= 2 * h_peak c mid n /\ 2 ^ N.of_nat (moves K os2) <= 4 * h_peak c mid n + 1.
  Proof.
    intros H Hl HG. apply ccheck_trace in H as [m H]. apply ctrace_app in H as (os1&os3&m1&He&Hl1&H1&H2).
    apply app_inj_1 in He as [-> <-]; [|lia]. destruct H2 as (m2&H3&m3&H4&H5).
    apply (h_obs_size _ _ _ _ n) in H3 as (->&->&Hm1); [|done]. apply (h_obs_cap _ _ _ _ K) in H4 as (->&->&_); [|done].
    pose proof (h_all_ok_trace _ _ _ H1) as Hok.
    pose proof (h_grow_chain c mid os2 m1 m (p_len (p_get c m1)) Hok Hm1 ltac:(done) H5 HG) as HC.
    split; [exact (moved_double_le _ _ _ _ (proj1 (Hok c)) HC)|exact (moves_double_le _ _ _ _ (proj1 (Hok c)) HC)].
  Qed.
End heap.

(** * Programs *)
Section programs.
  Context (pl : platform) (e : aexp) (b sz : N) (k : nat).

  Lemma vector_moves_program pre c mid w os n K os2 w' evs :
    pl <> PPosix -> wf e = true -> 0 < sz -> place b (N.of_nat k * esize e) w ->
    csession (den pl e) b (vstep (den pl e) b sz k) (release (den pl e) b sz) k (pre ++ [VSize c; VCap c] ++ v_watch c mid) w =
      Ok (os ++ [CNum n; CNum K] ++ os2) w' evs ->
    length os = length pre -> existsb (unsupported (ereq pl e)) evs = false -> forallb (v_gentle c) mid = true ->
    moved n K os2 <= 4 * v_peak c mid n /\
    8 * 3 ^ N.of_nat (moves K os2) <= 27 * (v_peak c mid n + 1) * 2 ^ N.of_nat (moves K os2).
  Proof.
    intros H1 H2 H3 H4 H5 H6 H7 H8. eapply (vector_moves sz k); [|exact H6|exact H8].
    exact (session_check (vector_tree pl e b sz k _ w H1 H2 H3 H4) H5 H7).
  Qed.

  Context (T : elt) (comp : nat -> value -> value -> bool) (eqv : value -> value -> bool).
  Notation program := (csession (den pl e) b (hstep (den pl e) b sz T comp eqv k) (hrelease (den pl e) b sz T) k).

  Lemma heap_size_le_cap pre c w os n K w' evs :
    pl <> PPosix -> wf e = true -> 0 < sz -> place b (N.of_nat k * esize e) w ->
    program (pre ++ [HSize c; HCap c]) w = Ok (os ++ [CNum n; CNum K]) w' evs -> length os = length pre ->
    existsb (unsupported (half (ereq pl e))) evs = false -> n <= K.
  Proof.
    intros H1 H2 H3 H4 H5 H6 H7. eapply (h_size_le_cap sz T comp eqv k); [|done].
    exact (session_check (heap_tree pl e b sz T comp eqv k _ w H1 H2 H3 H4) H5 H7).
  Qed.
  Lemma heap_reserve_cap pre c r w os ob K w' evs :
    pl <> PPosix -> wf e = true -> 0 < sz -> place b (N.of_nat k * esize e) w ->
    program (pre ++ [HReserve c r; HCap c]) w = Ok (os ++ [ob; CNum K]) w' evs -> length os = length pre ->
    existsb (unsupported (half (ereq pl e))) evs = false -> r <= K.
  Proof.
    intros H1 H2 H3 H4 H5 H6 H7. eapply (h_reserve_cap sz T comp eqv k); [|done].
    exact (session_check (heap_tree pl e b sz T comp eqv k _ w H1 H2 H3 H4) H5 H7).
  Qed.
  Lemma heap_data_stable pre c mid w os K n p os2 ob1 ob2 w' evs :
    pl <> PPosix -> wf e = true -> 0 < sz -> place b (N.of_nat k * esize e) w ->
    program (pre ++ [HCap c; HSize c; HData c] ++ mid ++ [HData c; HCap c]) w =
      Ok (os ++ [CNum K; CNum n; CPtr p] ++ os2 ++ [ob1; ob2]) w' evs ->
    length os = length pre -> length os2 = length mid ->
    existsb (unsupported (half (ereq pl e))) evs = false ->
    h_fits c K mid n = true -> ob1 = CPtr p /\ ob2 = CNum K.
  Proof.
    intros H1 H2 H3 H4 H5 H6 H7 H8 H9. eapply (h_data_stable sz T comp eqv k _ _ _ _ _ _ _ _ _ _); [|exact H6|exact H7|exact H9].
    exact (session_check (heap_tree pl e b sz T comp eqv k _ w H1 H2 H3 H4) H5 H8).
  Qed.
  Lemma heap_moves_program pre c mid w os n K os2 w' evs :
    pl <> PPosix -> wf e = true -> 0 < sz -> place b (N.of_nat k * esize e) w ->
    program (pre ++ [HSize c; HCap c] ++ h_watch c mid) w = Ok (os ++ [CNum n; CNum K] ++ os2) w' evs ->
    length os = length pre -> existsb (unsupported (half (ereq pl e))) evs = false -> forallb (h_gentle c) mid = true ->
    moved n K os2 <= 2 * h_peak c mid n /\ 2 ^ N.of_nat (moves K os2) <= 4 * h_peak c mid n + 1.
  Proof.
    intros H1 H2 H3 H4 H5 H6 H7 H8. eapply (heap_moves sz T comp eqv k); [|exact H6|exact H8].
    exact (session_check (heap_tree pl e b sz T comp eqv k _ w H1 H2 H3 H4) H5 H7).
  Qed.
End programs.
