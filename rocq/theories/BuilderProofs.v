(** Proofs about the compile-time builders. *)
From Coq Require Import Sorting.Sorted.
From Verif Require Import Base Bits BitsProofs Builder.

(** * The arithmetic of the split points *)

(** The largest power of two below [k], for [k >= 2]. *)
Definition half_pow (k : N) : N := 2 ^ N.log2 (k - 1).

Lemma half_pow_bounds k : 2 <= k -> half_pow k <= k - 1 < 2 * half_pow k.
Proof.
  intros. unfold half_pow. destruct (N.log2_spec (k - 1)) as [H1 H2]; [lia|].
  rewrite N.pow_succ_r' in H2. lia.
Qed.

Lemma half_pow_le k d : 2 <= k -> k <= 2 ^ (d + 1) -> half_pow k <= 2 ^ d.
Proof.
  intros. unfold half_pow. apply N.pow_le_mono_r; [lia|].
  assert (N.log2 (k - 1) < d + 1); [|lia]. apply N.log2_lt_pow2; lia.
Qed.

Lemma pow2_fallback k : 2 <= k -> k <= 2 ^ 62 -> ktl_pow2 k / 2 = half_pow k.
Proof.
  intros. rewrite ktl_pow2_eq by lia. unfold half_pow.
  rewrite N.add_1_r, N.pow_succ_r', N.mul_comm. apply N.div_mul. lia.
Qed.

Lemma pow2_segragator k : 2 <= k -> k <= 2 ^ 62 ->
  sub64 (ktl_pow2 (2 * k - 1)) 1 / 2 = 2 * half_pow k - 1.
Proof.
  intros. rewrite ktl_pow2_eq by lia.
  replace (2 * k - 1 - 1) with (2 * (k - 1)) by lia.
  rewrite N.log2_double by lia.
  rewrite N.add_1_r, !N.pow_succ_r'. fold (half_pow k).
  pose proof (half_pow_bounds k ltac:(lia)).
  rewrite sub64_small; unfold W in *; lia.
Qed.

(** * segragator_builder *)
Section segragator.
  Context {A : Type}.
  Implicit Types (a : A).

  Lemma seg_pack_length a0 l : length (seg_pack a0 l) = S (2 * length l).
  Proof. unfold seg_pack. cbn. f_equal. induction l as [|[??] l IH]; cbn in *; lia. Qed.

  Lemma seg_pack_app a0 l1 t a l2 :
    seg_pack a0 (l1 ++ (t, a) :: l2) = seg_pack a0 l1 ++ inr t :: seg_pack a l2.
  Proof. unfold seg_pack. by rewrite flat_map_app. Qed.

  Lemma seg_split a0 l1 t a l2 :
    seg_pack a0 (l1 ++ (t, a) :: l2) !! S (2 * length l1) = Some (inr t) /\
    tuple_split 1 (S (2 * length l1)) (S (2 * length l2)) (seg_pack a0 (l1 ++ (t, a) :: l2))
      = Some (seg_pack a0 l1, seg_pack a l2).
  Proof.
    rewrite seg_pack_app. split.
    - rewrite lookup_app_r; rewrite seg_pack_length; [|lia].
      by rewrite Nat.sub_diag.
    - unfold tuple_split. rewrite app_length. cbn [length]. rewrite !seg_pack_length.
      rewrite (proj2 (Nat.leb_le _ _)) by lia. cbn [andb].
      rewrite (proj2 (Nat.leb_le _ _)) by lia. rewrite orb_true_r.
      f_equal. f_equal.
      + rewrite <- (seg_pack_length a0 l1). apply take_app.
      + rewrite <- (seg_pack_length a0 l1), <- drop_drop, drop_app. cbn [drop].
        rewrite <- (seg_pack_length a l2). apply firstn_all.
  Qed.

  (** Number of allocators on the left of the root, for both leanings. *)
  Definition seg_left (r : bool) (k : N) : N := if r then k - half_pow k else half_pow k.

  Lemma seg_left_bounds r k : 2 <= k -> 1 <= seg_left r k <= k - 1.
  Proof.
    intros. pose proof (half_pow_bounds k ltac:(lia)). pose proof (N.pow_nonzero 2 (N.log2 (k-1))).
    fold (half_pow k) in *. unfold seg_left. destruct r; lia.
  Qed.

  Lemma size_invert_seg r k : 2 <= k -> k <= 2 ^ 62 ->
    size_invert r (sub64 (ktl_pow2 (2 * k - 1)) 1 / 2) (sub64 (2 * k - 1) 1)
    = (2 * seg_left r k - 1, 2 * (k - seg_left r k) - 1).
  Proof.
    intros. rewrite pow2_segragator by lia.
    pose proof (half_pow_bounds k ltac:(lia)). pose proof (N.pow_nonzero 2 (N.log2 (k-1))).
    fold (half_pow k) in *.
    rewrite (sub64_small (2 * k - 1)) by (unfold W; lia).
    unfold size_invert, seg_left. destruct r; rewrite sub64_small by (unfold W; lia); f_equal; lia.
  Qed.

  Lemma seg_route_step th (l r : stree A) n :
    seg_route (SNode th l r) n = if n <=? th then seg_route l n else seg_route r n.
  Proof. done. Qed.

  Lemma seg_builder_unfold fuel r a0 l1 t a l2 l :
    l = l1 ++ (t, a) :: l2 ->
    N.of_nat (length l) < 2 ^ 62 ->
    N.of_nat (S (length l1)) = seg_left r (N.of_nat (S (length l))) ->
    segragator_builder (S fuel) r (seg_pack a0 l) =
      match segragator_builder fuel r (seg_pack a0 l1), segragator_builder fuel r (seg_pack a l2) with
      | Some x, Some y => Some (SNode t x y)
      | _, _ => None
      end.
  Proof.
    intros -> Hlen Hl1. set (l := l1 ++ (t, a) :: l2) in *.
    pose proof (seg_pack_length a0 l) as HL.
    assert (Hlen2 : length l = S (length l1 + length l2)).
    { subst l. rewrite app_length. cbn. lia. }
    destruct (seg_split a0 l1 t a l2) as [Hth Hsp]. fold l in Hth, Hsp.
    assert (Hk : N.of_nat (length (seg_pack a0 l)) = 2 * N.of_nat (S (length l)) - 1) by lia.
    assert (E : segragator_builder (S fuel) r (seg_pack a0 l) =
      (let n := N.of_nat (length (seg_pack a0 l)) in
        if n mod 2 =? 0 then None else
        let '(f, s) := size_invert r (sub64 (ktl_pow2 n) 1 / 2) (sub64 n 1) in
        match seg_pack a0 l !! (N.to_nat f), tuple_split 1 (N.to_nat f) (N.to_nat s) (seg_pack a0 l) with
        | Some (inr th), Some (ts1, ts2) =>
          match segragator_builder fuel r ts1, segragator_builder fuel r ts2 with
          | Some l, Some rr => Some (SNode th l rr)
          | _, _ => None
          end
        | _, _ => None
        end)).
    { cbn [segragator_builder]. destruct (seg_pack a0 l) as [|[x|x] [|y q]] eqn:Ep; try done; cbn in HL; exfalso; lia. }
    rewrite E. clear E. cbv zeta. rewrite Hk.
    replace ((2 * N.of_nat (S (length l)) - 1) mod 2 =? 0) with false by (symmetry; apply N.eqb_neq; lia).
    rewrite size_invert_seg by lia.
    replace (N.to_nat (2 * seg_left r (N.of_nat (S (length l))) - 1)) with (S (2 * length l1)) by lia.
    replace (N.to_nat (2 * (N.of_nat (S (length l)) - seg_left r (N.of_nat (S (length l)))) - 1))
      with (S (2 * length l2)) by lia.
    rewrite Hth, Hsp. done.
  Qed.

  Lemma seg_cut r (l : list (N * A)) : l <> [] ->
    exists l1 t a l2, l = l1 ++ (t, a) :: l2 /\
      N.of_nat (S (length l1)) = seg_left r (N.of_nat (S (length l))).
  Proof.
    intros Hl. pose proof (seg_left_bounds r (N.of_nat (S (length l)))) as Hb.
    assert (length l <> 0%nat) by (by destruct l).
    specialize (Hb ltac:(lia)).
    set (j := N.to_nat (seg_left r (N.of_nat (S (length l))) - 1)).
    assert (Hj : (j < length l)%nat) by lia.
    destruct (lookup_lt_is_Some_2 l j Hj) as [[t a] Hta].
    exists (take j l), t, a, (drop (S j) l). split.
    - symmetry. by apply take_drop_middle.
    - rewrite take_length. lia.
  Qed.

  Lemma count_below_app (l1 l2 : list N) n : count_below (l1 ++ l2) n = (count_below l1 n + count_below l2 n)%nat.
  Proof. unfold count_below. by rewrite List.filter_app, app_length. Qed.

  Lemma count_below_none l n : Forall (fun t => n <= t) l -> count_below l n = 0%nat.
  Proof.
    unfold count_below. induction 1 as [|t l Ht _ IH]; [done|]. cbn.
    destruct (N.ltb_spec t n); [lia|done].
  Qed.

  Lemma count_below_all l n : Forall (fun t => t < n) l -> count_below l n = length l.
  Proof.
    unfold count_below. induction 1 as [|t l Ht _ IH]; [done|]. cbn.
    destruct (N.ltb_spec t n); [cbn; lia|lia].
  Qed.

  Lemma count_below_le l n : (count_below l n <= length l)%nat.
  Proof. unfold count_below. induction l as [|t l IH]; [done|]. cbn. destruct (t <? n); cbn; lia. Qed.

  Lemma StronglySorted_app_inv (l1 : list N) t l2 :
    StronglySorted N.le (l1 ++ t :: l2) ->
    StronglySorted N.le l1 /\ StronglySorted N.le l2 /\
    Forall (fun x => x <= t) l1 /\ Forall (fun x => t <= x) l2.
  Proof.
    induction l1 as [|x l1 IH]; cbn; intros H; apply StronglySorted_inv in H as [H1 H2].
    - repeat split; try done. constructor.
    - destruct (IH H1) as (?&?&?&?). apply Forall_app in H2 as [? H2]. apply Forall_cons_1 in H2 as [? ?].
      repeat split; try done; by constructor.
  Qed.

  Lemma seg_builder_correct r fuel a0 l :
    (length l < fuel)%nat -> N.of_nat (length l) < 2 ^ 62 ->
    exists t, segragator_builder fuel r (seg_pack a0 l) = Some t /\
      (StronglySorted N.le (map fst l) -> forall n, seg_spec a0 l n = Some (seg_route t n)) /\
      (forall d n, N.of_nat (S (length l)) <= 2 ^ N.of_nat d -> (seg_comparisons t n <= d)%nat).
  Proof.
    revert a0 l. induction fuel as [|fuel IH]; intros a0 l Hf Hlen; [lia|].
    destruct (decide (l = [])) as [->|Hne].
    { exists (SLeaf a0). split; [done|]. split; [done|]. cbn. lia. }
    destruct (seg_cut r l Hne) as (l1&t&a&l2&El&Hl1).
    rewrite (seg_builder_unfold fuel r a0 l1 t a l2 l El Hlen Hl1).
    assert (Hll : length l = S (length l1 + length l2)) by (rewrite El, app_length; cbn; lia).
    destruct (IH a0 l1) as (x&Ex&Rx&Dx); [lia|lia|].
    destruct (IH a l2) as (y&Ey&Ry&Dy); [lia|lia|].
    rewrite Ex, Ey. exists (SNode t x y). split; [done|]. split.
    - intros Hs n. rewrite El, map_app in Hs. cbn [map fst] in Hs.
      apply StronglySorted_app_inv in Hs as (Hs1&Hs2&Hb1&Hb2).
      unfold seg_spec. rewrite El, !map_app. cbn [map fst snd].
      rewrite count_below_app. cbn [seg_route].
      destruct (N.leb_spec n t) as [Hn|Hn].
      + rewrite (count_below_none (t :: map fst l2)).
        2:{ constructor; [done|]. eapply List.Forall_impl; [|exact Hb2]. intros z; cbv beta; lia. }
        rewrite Nat.add_0_r, <- Rx by done. unfold seg_spec.
        rewrite app_comm_cons. apply lookup_app_l. cbn. rewrite map_length.
        pose proof (count_below_le (map fst l1) n). rewrite map_length in *. lia.
      + rewrite (count_below_all (map fst l1)).
        2:{ eapply List.Forall_impl; [|exact Hb1]. intros z; cbv beta; lia. }
        replace (count_below (t :: map fst l2) n) with (S (count_below (map fst l2) n)).
        2:{ unfold count_below. cbn. destruct (N.ltb_spec t n); [done|lia]. }
        rewrite <- Ry by done. unfold seg_spec.
        rewrite app_comm_cons, lookup_app_r; cbn [length]; rewrite !map_length; [|lia].
        f_equal. lia.
    - intros d n Hd. cbn [seg_comparisons].
      destruct d as [|d]; [cbn in Hd; lia|].
      rewrite (Nat2N.inj_succ d), <- N.add_1_r in Hd.
      pose proof (half_pow_le (N.of_nat (S (length l))) (N.of_nat d) ltac:(lia) Hd) as HP.
      pose proof (half_pow_bounds (N.of_nat (S (length l))) ltac:(lia)) as HB.
      assert (N.of_nat (S (length l1)) <= 2 ^ N.of_nat d /\ N.of_nat (S (length l2)) <= 2 ^ N.of_nat d) as [H1 H2].
      { unfold seg_left in Hl1. destruct r; lia. }
      specialize (Dx d n H1). specialize (Dy d n H2). destruct (n <=? t); lia.
  Qed.
End segragator.

(** * fallback_builder *)
Section fallback.
  Context {A : Type}.
  Implicit Types (l : list A).

  Lemma size_invert_fb r k : 2 <= k -> k <= 2 ^ 62 ->
    size_invert r (ktl_pow2 k / 2) k = (seg_left r k, k - seg_left r k).
  Proof.
    intros. rewrite pow2_fallback by lia.
    pose proof (half_pow_bounds k ltac:(lia)).
    unfold size_invert, seg_left. destruct r; rewrite sub64_small by (unfold W; lia); f_equal; lia.
  Qed.

  Lemma fb_builder_correct r fuel l :
    l <> [] -> (length l <= fuel)%nat -> N.of_nat (length l) <= 2 ^ 62 ->
    exists t, fallback_builder fuel r l = Some t /\ fleaves t = l /\
      (forall d, N.of_nat (length l) <= 2 ^ N.of_nat d -> (fdepth t <= d)%nat).
  Proof.
    revert l. induction fuel as [|fuel IH]; intros l Hne Hf Hlen; [destruct l; [done|cbn in Hf; lia]|].
    destruct l as [|a [|b q]]; [done| |].
    { exists (FLeaf a). split; [done|]. split; [done|]. cbn; lia. }
    remember (a :: b :: q) as l eqn:El.
    assert (H2 : 2 <= N.of_nat (length l)) by (rewrite El; cbn [length]; lia).
    pose proof (seg_left_bounds r (N.of_nat (length l)) H2) as Hb.
    set (k1 := seg_left r (N.of_nat (length l))) in *.
    assert (E : fallback_builder (S fuel) r l =
      (let n := N.of_nat (length l) in
        let '(f, s) := size_invert r (ktl_pow2 n / 2) n in
        match tuple_split 0 (N.to_nat f) (N.to_nat s) l with
        | Some (ts1, ts2) =>
          match fallback_builder fuel r ts1, fallback_builder fuel r ts2 with
          | Some l, Some rr => Some (FNode l rr)
          | _, _ => None
          end
        | _ => None
        end)) by (rewrite El; reflexivity).
    rewrite E. clear E. cbv zeta. rewrite size_invert_fb by lia. fold k1.
    unfold tuple_split. rewrite (proj2 (Nat.leb_le _ _)) by lia. cbn [andb].
    rewrite (proj2 (Nat.leb_le _ _)) by lia. rewrite orb_true_r.
    rewrite Nat.add_0_r.
    replace (take (N.to_nat (N.of_nat (length l) - k1)) (drop (N.to_nat k1) l)) with (drop (N.to_nat k1) l).
    2:{ symmetry. apply firstn_all2. rewrite drop_length. lia. }
    destruct (IH (take (N.to_nat k1) l)) as (x&Ex&Lx&Dx).
    { intros HH. apply (f_equal length) in HH. rewrite take_length in HH. cbn [length] in HH. lia. }
    { rewrite take_length. lia. } { rewrite take_length. lia. }
    destruct (IH (drop (N.to_nat k1) l)) as (y&Ey&Ly&Dy).
    { intros HH. apply (f_equal length) in HH. rewrite drop_length in HH. cbn [length] in HH. lia. }
    { rewrite drop_length. lia. } { rewrite drop_length. lia. }
    rewrite Ex, Ey. exists (FNode x y). split; [done|]. split.
    { cbn. rewrite Lx, Ly. apply take_drop. }
    intros d Hd. cbn [fdepth].
    destruct d as [|d]; [cbn in Hd; lia|].
    rewrite (Nat2N.inj_succ d), <- N.add_1_r in Hd.
    pose proof (half_pow_le (N.of_nat (length l)) (N.of_nat d) ltac:(lia) Hd) as HP.
    pose proof (half_pow_bounds (N.of_nat (length l)) ltac:(lia)) as HB.
    rewrite take_length in Dx. rewrite drop_length in Dy.
    assert (k1 <= 2 ^ N.of_nat d /\ N.of_nat (length l) - k1 <= 2 ^ N.of_nat d) as [Q1 Q2].
    { unfold k1, seg_left. destruct r; lia. }
    specialize (Dx d ltac:(lia)). specialize (Dy d ltac:(lia)). lia.
  Qed.

  Lemma spec_alloc_app {R} (succ : A -> option R) l1 l2 :
    spec_alloc succ (l1 ++ l2) =
      match spec_alloc succ l1 with
      | (Some x, asked) => (Some x, asked)
      | (None, asked) => let '(x, asked') := spec_alloc succ l2 in (x, asked ++ asked')
      end.
  Proof.
    induction l1 as [|a l1 IH]; cbn; [by destruct (spec_alloc succ l2)|].
    destruct (succ a); [done|]. rewrite IH.
    destruct (spec_alloc succ l1) as [[x|] asked]; [done|].
    by destruct (spec_alloc succ l2).
  Qed.

  Lemma fb_alloc_leaves {R} (succ : A -> option R) t :
    fb_alloc succ t = spec_alloc succ (fleaves t).
  Proof.
    induction t as [a|l IHl r IHr]; cbn; [by destruct (succ a)|].
    rewrite spec_alloc_app, IHl, IHr. done.
  Qed.

  Lemma fb_owns_leaves own (t : ftree A) : fb_owns own t = existsb own (fleaves t).
  Proof. induction t as [a|l IHl r IHr]; cbn; [by rewrite orb_false_r|]. by rewrite existsb_app, IHl, IHr. Qed.

  Lemma fleaves_ne (t : ftree A) : fleaves t <> [].
  Proof. induction t as [|l IHl r IHr]; [done|]. cbn. by destruct (fleaves l). Qed.

  Lemma spec_dealloc_app own l1 l2 d :
    l2 <> [] ->
    spec_dealloc own (l1 ++ l2) d =
      if existsb own l1 then spec_dealloc own l1 d else spec_dealloc own l2 d.
  Proof.
    intros H2. induction l1 as [|a l1 IH]; [done|].
    cbn [app existsb]. destruct l1 as [|b l1].
    - cbn. rewrite orb_false_r. destruct l2; [done|]. done.
    - change (spec_dealloc own (a :: (b :: l1) ++ l2) d)
        with (if own a then a else spec_dealloc own ((b :: l1) ++ l2) d).
      change (spec_dealloc own (a :: b :: l1) d)
        with (if own a then a else spec_dealloc own (b :: l1) d).
      destruct (own a) eqn:Ea; [done|]. exact IH.
  Qed.

  Lemma fb_dealloc_leaves own (t : ftree A) d : fb_dealloc own t = spec_dealloc own (fleaves t) d.
  Proof.
    induction t as [a|l IHl r IHr]; cbn; [done|].
    rewrite spec_dealloc_app by apply fleaves_ne. rewrite fb_owns_leaves, IHl, IHr. done.
  Qed.

  (** The allocator that served the request is found again: if ownership identifies the
      serving leaf uniquely, deallocation reaches it. *)
  Lemma fb_dealloc_unique own (t : ftree A) a :
    (forall b, In b (fleaves t) -> (own b = true <-> b = a)) -> In a (fleaves t) ->
    fb_dealloc own t = a.
  Proof.
    intros H Ha. rewrite (fb_dealloc_leaves own t a).
    assert (forall l, (forall b, In b l -> (own b = true <-> b = a)) -> In a l -> spec_dealloc own l a = a).
    { clear. induction l as [|b l IH]; intros H Ha; [done|].
      destruct l as [|c l].
      - destruct Ha as [->|[]]. done.
      - cbn [spec_dealloc]. destruct (own b) eqn:Eb; [by apply H; [left|]|].
        apply IH; [intros x Hx; apply H; by right|].
        destruct Ha as [->|Ha]; [|done].
        exfalso. assert (own a = true) by (apply H; [by left|done]). congruence. }
    eauto.
  Qed.
End fallback.
