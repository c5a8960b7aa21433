(** Binary heaps as lists. *)
From iris.proofmode Require Import tactics.
From Verif Require Import Base.

Local Open Scope nat_scope.

Section heap.
  Context {X : Type} (comp : X -> X -> bool).

  Definition parent (i : nat) : nat := (i - 1) / 2.

  Definition swap (i j : nat) (l : list X) : list X :=
    match l !! i, l !! j with
    | Some a, Some b => <[i := b]> (<[j := a]> l)
    | _, _ => l
    end.

  (** Move the element at [i] up while it is smaller than its parent. *)
  Fixpoint up (fuel : nat) (l : list X) (i : nat) : list X * nat :=
    match fuel with
    | O => (l, i)
    | S fuel =>
      match i, l !! i, l !! parent i with
      | S _, Some x, Some y => if comp x y then up fuel (swap i (parent i) l) (parent i) else (l, i)
      | _, _, _ => (l, i)
      end
    end.

  Definition smaller (l : list X) (j i : nat) : nat :=
    match l !! j, l !! i with
    | Some x, Some y => if comp x y then j else i
    | _, _ => i
    end.
  (** The smallest of [i] and its children. *)
  Definition best (l : list X) (i : nat) : nat := smaller l (2 * i + 2) (smaller l (2 * i + 1) i).

  Fixpoint down (fuel : nat) (l : list X) (i : nat) : list X :=
    match fuel with
    | O => l
    | S fuel => if (best l i =? i)%nat then l else down fuel (swap i (best l i) l) (best l i)
    end.

  (** * No element is lost, for any comparator *)
  Lemma swap_length i j l : length (swap i j l) = length l.
  Proof. unfold swap. destruct (l !! i), (l !! j); try done. by rewrite !insert_length. Qed.

  Lemma swap_perm i j l : swap i j l ≡ₚ l.
  Proof.
    unfold swap. destruct (l !! i) as [a|] eqn:Hi; [|done]. destruct (l !! j) as [b|] eqn:Hj; [|done].
    destruct (decide (i = j)) as [->|Hne].
    { rewrite Hi in Hj. injection Hj as ->. rewrite list_insert_insert list_insert_id //. }
    apply Permutation_inj. split; [by rewrite !insert_length|].
    pose (f n := if decide (n = i) then j else if decide (n = j) then i else n).
    exists f. split.
    - intros n m. unfold f. repeat destruct (decide _); congruence.
    - assert (Hli := lookup_lt_Some _ _ _ Hi). assert (Hlj := lookup_lt_Some _ _ _ Hj).
      intros n. unfold f. destruct (decide (n = i)) as [->|Hn1].
      { rewrite list_lookup_insert ?insert_length //. }
      destruct (decide (n = j)) as [->|Hn2].
      { rewrite list_lookup_insert_ne // list_lookup_insert //. }
      by rewrite !list_lookup_insert_ne.
  Qed.

  Lemma up_perm fuel l i : fst (up fuel l i) ≡ₚ l.
  Proof.
    revert l i. induction fuel as [|fuel IH]; intros l i; [done|]. cbn [up].
    destruct i as [|i]; [done|]. destruct (l !! S i); [|done]. destruct (l !! parent (S i)); [|done].
    destruct (comp _ _); [|done]. by rewrite IH swap_perm.
  Qed.
  Lemma down_perm fuel l i : down fuel l i ≡ₚ l.
  Proof.
    revert l i. induction fuel as [|fuel IH]; intros l i; [done|]. cbn [down].
    destruct (_ =? _)%nat; [done|]. by rewrite IH swap_perm.
  Qed.
  Lemma up_length fuel l i : length (fst (up fuel l i)) = length l.
  Proof. apply Permutation_length, up_perm. Qed.
  Lemma down_length fuel l i : length (down fuel l i) = length l.
  Proof. apply Permutation_length, down_perm. Qed.

  Lemma swap_lookup i j l a b n : l !! i = Some a -> l !! j = Some b ->
    swap i j l !! n = if decide (n = i) then Some b else if decide (n = j) then Some a else l !! n.
  Proof.
    intros Hi Hj. unfold swap. rewrite Hi Hj.
    assert (Hli := lookup_lt_Some _ _ _ Hi). assert (Hlj := lookup_lt_Some _ _ _ Hj).
    destruct (decide (n = i)) as [->|H1]; [rewrite list_lookup_insert ?insert_length //|]. rewrite list_lookup_insert_ne //.
    destruct (decide (n = j)) as [->|H2]; [rewrite list_lookup_insert //|]. by rewrite list_lookup_insert_ne.
  Qed.

  (** [up] reports where the element went. *)
  Lemma up_where fuel l i x : l !! i = Some x -> fst (up fuel l i) !! snd (up fuel l i) = Some x.
  Proof.
    revert l i. induction fuel as [|fuel IH]; intros l i Hi; [done|]. cbn [up].
    destruct i as [|i]; [done|]. rewrite Hi. destruct (l !! parent (S i)) as [y|] eqn:Hp; [|done].
    destruct (comp _ _); [|done]. apply IH. rewrite (swap_lookup _ _ _ _ _ _ Hi Hp).
    destruct (decide (parent (S i) = S i)) as [He|]; [by rewrite He Hi in Hp|]. by rewrite decide_True.
  Qed.
  Lemma up_bound fuel l i : snd (up fuel l i) <= i.
  Proof.
    revert l i. induction fuel as [|fuel IH]; intros l i; [done|]. cbn [up].
    destruct i as [|i]; [done|]. destruct (l !! S i); [|done]. destruct (l !! parent (S i)); [|done].
    destruct (comp _ _); [|done]. etransitivity; [apply IH|]. unfold parent. apply Nat.div_le_upper_bound; lia.
  Qed.

  (** * Order *)
  Definition strict_weak : Prop :=
    (forall x, comp x x = false) /\
    (forall x y z, comp x y = true -> comp y z = true -> comp x z = true) /\
    (forall x y z, comp x y = false -> comp y x = false -> comp y z = false -> comp z y = false ->
       comp x z = false /\ comp z x = false).

  Context (Hsw : strict_weak).

  Lemma sw_asym x y : comp x y = true -> comp y x = false.
  Proof.
    destruct Hsw as (H1&H2&_). intros H. destruct (comp y x) eqn:E; [|done]. pose proof (H2 _ _ _ H E) as H3. by rewrite H1 in H3.
  Qed.
  (** "not smaller" is transitive *)
  Lemma sw_neg x y z : comp x y = false -> comp y z = false -> comp x z = false.
  Proof.
    destruct Hsw as (H1&H2&H3). intros Hxy Hyz. destruct (comp x z) eqn:E; [|done].
    destruct (comp y x) eqn:Eyx.
    - by rewrite (H2 _ _ _ Eyx E) in Hyz.
    - destruct (comp z y) eqn:Ezy.
      + by rewrite (H2 _ _ _ E Ezy) in Hxy.
      + destruct (H3 x y z) as [H4 _]; try done. by rewrite H4 in E.
  Qed.

  Definition pair_ok (l : list X) (j i : nat) : Prop :=
    forall x y, l !! j = Some x -> l !! i = Some y -> comp x y = false.
  Definition ordered (l : list X) : Prop := forall j, 0 < j -> pair_ok l j (parent j).

  Lemma parent_lt j : 0 < j -> parent j < j.
  Proof. intros. unfold parent. apply Nat.div_lt_upper_bound; lia. Qed.
  Lemma parent_left i : parent (2 * i + 1) = i.
  Proof. unfold parent. replace (2 * i + 1 - 1) with (i * 2) by lia. by apply Nat.div_mul. Qed.
  Lemma parent_right i : parent (2 * i + 2) = i.
  Proof. unfold parent. replace (2 * i + 2 - 1) with (1 + i * 2) by lia. rewrite Nat.div_add //. Qed.
  Lemma parent_child j i : 0 < j -> parent j = i -> j = 2 * i + 1 \/ j = 2 * i + 2.
  Proof.
    intros Hj <-. unfold parent. pose proof (Nat.div_mod (j - 1) 2 ltac:(lia)) as H.
    pose proof (Nat.mod_upper_bound (j - 1) 2 ltac:(lia)). lia.
  Qed.

  (** The first element is a smallest one. *)
  Lemma ordered_min l x : ordered l -> l !! 0 = Some x -> forall y, y ∈ l -> comp y x = false.
  Proof.
    intros Ho H0 y Hy. apply elem_of_list_lookup in Hy as [j Hj]. revert y Hj.
    induction j as [j IH] using lt_wf_ind. intros y Hj. destruct j as [|j].
    - rewrite H0 in Hj. injection Hj as ->. apply Hsw.
    - assert (Hp := parent_lt (S j) ltac:(lia)).
      destruct (lookup_lt_is_Some_2 l (parent (S j))) as [z Hz]; [apply lookup_lt_Some in Hj; lia|].
      apply (sw_neg y z x); [|by eapply IH]. eapply Ho; [|done|done]. lia.
  Qed.

  (** ... except that the element at [i] may be too small *)
  Definition ordered_up (l : list X) (i : nat) : Prop :=
    (forall j, 0 < j -> j <> i -> pair_ok l j (parent j)) /\
    (forall j, 0 < j -> 0 < i -> parent j = i -> pair_ok l j (parent i)).

  Lemma up_ordered fuel l i : i < fuel -> i < length l -> ordered_up l i -> ordered (fst (up fuel l i)).
  Proof.
    revert l i. induction fuel as [|fuel IH]; intros l i Hf Hl [H1 H2]; [lia|]. cbn [up].
    destruct i as [|i].
    { intros j Hj. apply H1; lia. }
    destruct (lookup_lt_is_Some_2 l (S i) Hl) as [x Hx]. rewrite Hx.
    assert (Hp := parent_lt (S i) ltac:(lia)). set (p := parent (S i)) in *.
    destruct (lookup_lt_is_Some_2 l p) as [y Hy]; [lia|]. rewrite Hy.
    destruct (comp x y) eqn:Hxy.
    - apply IH; [lia|rewrite swap_length; lia|]. split.
      + intros j Hj Hne u v. rewrite !(swap_lookup _ _ _ _ _ _ Hx Hy).
        destruct (decide (j = S i)) as [->|Hji].
        * fold p. rewrite decide_False; [|lia]. rewrite decide_True //. intros [= <-] [= <-]. by apply sw_asym.
        * rewrite (decide_False _ _ Hne). destruct (decide (parent j = S i)) as [Hq|Hq].
          -- intros Hu [= <-]. eapply (H2 j); done || lia.
          -- destruct (decide (parent j = p)) as [Hq2|Hq2].
             ++ intros Hu [= <-]. apply (sw_neg u y x); [|by apply sw_asym]. eapply (H1 j Hj Hji); [done|]. by rewrite Hq2.
             ++ intros Hu Hv. by eapply (H1 j Hj Hji).
      + intros j Hj Hp0 Hjp u v. rewrite !(swap_lookup _ _ _ _ _ _ Hx Hy).
        assert (Hpp := parent_lt p Hp0).
        rewrite (decide_False _ _ (_ : parent p <> S i)); [|lia]. rewrite (decide_False _ _ (_ : parent p <> p)); [|lia].
        destruct (decide (j = S i)) as [->|Hji].
        * intros [= <-] Hv. eapply (H1 p); [lia|lia|done|done].
        * destruct (decide (j = p)) as [->|Hjp2]; [pose proof (parent_lt p); lia|].
          intros Hu Hv. apply (sw_neg u y v).
          -- eapply (H1 j Hj Hji); [done|]. by rewrite Hjp.
          -- eapply (H1 p); [lia|lia|done|done].
    - intros j Hj. destruct (decide (j = S i)) as [->|Hne]; [|by apply H1].
      fold p. intros u v Hu Hv. rewrite Hx in Hu. rewrite Hy in Hv. by injection Hu as <-; injection Hv as <-.
  Qed.

  Lemma ordered_snoc l x : ordered l -> ordered_up (l ++ [x]) (length l).
  Proof.
    intros Ho. split.
    - intros j Hj Hne u v Hu Hv. assert (Hlt := lookup_lt_Some _ _ _ Hu). rewrite app_length in Hlt. cbn in Hlt.
      assert (Hp := parent_lt j Hj). rewrite lookup_app_l in Hu; [|lia]. rewrite lookup_app_l in Hv; [|lia]. by eapply Ho.
    - intros j Hj Hl Hp u v Hu _. apply lookup_lt_Some in Hu. rewrite app_length in Hu. cbn in Hu.
      pose proof (parent_lt j Hj). lia.
  Qed.

  (** ... except that the element at [i] may be too large *)
  Definition ordered_down (l : list X) (i : nat) : Prop :=
    (forall j, 0 < j -> parent j <> i -> pair_ok l j (parent j)) /\
    (forall j, 0 < j -> 0 < i -> parent j = i -> pair_ok l j (parent i)).

  Lemma smaller_cases l j i : smaller l j i = i \/
    smaller l j i = j /\ exists x y, l !! j = Some x /\ l !! i = Some y /\ comp x y = true.
  Proof.
    unfold smaller. destruct (l !! j) as [x|]; [|by left]. destruct (l !! i) as [y|]; [|by left].
    destruct (comp x y) eqn:E; [right|by left]. split; [done|]. by exists x, y.
  Qed.
  Lemma smaller_false l j i x y : smaller l j i = i -> j <> i -> l !! j = Some x -> l !! i = Some y -> comp x y = false.
  Proof. unfold smaller. intros H Hne Hj Hi. rewrite Hj Hi in H. by destruct (comp x y). Qed.

  (** What [best] finds. *)
  Lemma best_spec l i x : l !! i = Some x ->
    exists y, l !! best l i = Some y /\
      (best l i = i \/ (parent (best l i) = i /\ i < best l i /\ comp y x = true)) /\
      (forall j u, 0 < j -> parent j = i -> l !! j = Some u -> comp u y = false) /\ comp x y = false.
  Proof.
    intros Hx. unfold best. set (a := smaller l (2 * i + 1) i).
    assert (Ha : exists y, l !! a = Some y /\ (a = i \/ (a = 2 * i + 1 /\ comp y x = true)) /\
      (forall u, l !! (2 * i + 1) = Some u -> comp u y = false) /\ comp x y = false).
    { subst a. destruct (smaller_cases l (2 * i + 1) i) as [H|(H&u&v&H1&H2&H3)].
      - exists x. rewrite H. split_and!; [done|by left| |apply Hsw].
        intros u Hu. eapply smaller_false; [exact H|lia|done|done].
      - rewrite Hx in H2. injection H2 as <-. exists u. rewrite H. split_and!; [done|by right| |by apply sw_asym].
        intros u' Hu'. rewrite H1 in Hu'. injection Hu' as <-. apply Hsw. }
    destruct Ha as (y&Hy&Hcase&Hl&Hxy).
    destruct (smaller_cases l (2 * i + 2) a) as [H|(H&u&v&H1&H2&H3)]; rewrite H.
    - exists y. split_and!; [done| | |done].
      + destruct Hcase as [->|[-> Hc]]; [by left|right]. split_and!; [apply parent_left|lia|done].
      + intros j u Hj Hp Hu. destruct (parent_child _ _ Hj Hp) as [->| ->]; [by apply Hl|].
        eapply smaller_false; [exact H| |done|done]. lia.
    - rewrite Hy in H2. injection H2 as <-. exists u. split_and!; [done|right| |].
      + split_and!; [apply parent_right|lia|]. destruct Hcase as [Ha|[Ha Hc]].
        * rewrite Ha Hx in Hy. injection Hy as ->. done.
        * destruct Hsw as (_&Ht&_). by apply (Ht u y x).
      + intros j u' Hj Hp Hu. destruct (parent_child _ _ Hj Hp) as [->| ->].
        * apply (sw_neg u' y u); [by apply Hl|by apply sw_asym].
        * rewrite H1 in Hu. injection Hu as <-. apply Hsw.
      + apply (sw_neg x y u); [done|by apply sw_asym].
  Qed.

  Lemma down_ordered fuel l i : length l <= fuel + i -> ordered_down l i -> ordered (down fuel l i).
  Proof.
    revert l i. induction fuel as [|fuel IH]; intros l i Hf [H1 H2].
    - cbn [down]. intros j Hj. destruct (decide (parent j = i)) as [Hp|Hp]; [|by apply H1].
      intros u v Hu Hv. apply lookup_lt_Some in Hv. rewrite Hp in Hv. cbn in Hf. lia.
    - cbn [down]. destruct (l !! i) as [x|] eqn:Hx.
      2:{ assert (Hb : best l i = i).
          { unfold best, smaller. rewrite Hx. destruct (l !! (2 * i + 1)); rewrite Hx; by destruct (l !! (2 * i + 2)). }
          rewrite Hb Nat.eqb_refl. intros j Hj. destruct (decide (parent j = i)) as [Hp|Hp]; [|by apply H1].
          intros u v Hu Hv. by rewrite Hp Hx in Hv. }
      destruct (best_spec l i x Hx) as (y&Hy&Hcase&Hch&Hxy).
      destruct (Nat.eqb_spec (best l i) i) as [Hb|Hb].
      { rewrite Hb Hx in Hy. injection Hy as <-. intros j Hj. destruct (decide (parent j = i)) as [Hp|Hp]; [|by apply H1].
        intros u v Hu Hv. rewrite Hp Hx in Hv. injection Hv as <-. by eapply Hch. }
      destruct Hcase as [?|(Hpb&Hlt&Hyx)]; [done|]. set (c := best l i) in *.
      apply IH; [rewrite swap_length; lia|]. split.
      + intros j Hj Hp u v. rewrite !(swap_lookup _ _ _ _ _ _ Hx Hy).
        destruct (decide (j = i)) as [->|Hji].
        * intros [= <-]. pose proof (parent_lt i Hj). rewrite (decide_False _ _ (_ : parent i <> i)); [|lia].
          rewrite (decide_False _ _ Hp). intros Hv. eapply (H2 c); try done; lia.
        * destruct (decide (j = c)) as [->|Hjc].
          -- rewrite (decide_True _ _ Hpb). intros [= <-] [= <-]. done.
          -- destruct (decide (parent j = i)) as [Hpi|Hpi].
             ++ intros Hu [= <-]. by eapply Hch.
             ++ rewrite (decide_False _ _ Hp). intros Hu Hv. by eapply (H1 j).
      + intros j Hj Hc0 Hjc u v. rewrite !(swap_lookup _ _ _ _ _ _ Hx Hy) Hpb.
        rewrite (decide_True _ _ eq_refl). pose proof (parent_lt j Hj).
        rewrite (decide_False _ _ (_ : j <> i)); [|lia]. rewrite (decide_False _ _ (_ : j <> c)); [|lia].
        intros Hu [= <-]. eapply (H1 j Hj); [lia|done|by rewrite Hjc].
  Qed.

  (** Removal of the first element: the last one takes its place. *)
  Definition refill (l : list X) : list X :=
    match l !! (length l - 1) with
    | Some z => <[0 := z]> (take (length l - 1) l)
    | None => []
    end.

  Lemma refill_ordered l : ordered l -> ordered_down (refill l) 0.
  Proof.
    intros Ho. split; [|lia]. intros j Hj Hp u v. unfold refill. destruct (l !! _) as [z|]; [|done].
    rewrite !list_lookup_insert_ne; [|lia..]. intros Hu Hv. apply lookup_take_Some in Hu as [Hu _]. apply lookup_take_Some in Hv as [Hv _].
    by eapply Ho.
  Qed.
End heap.

Lemma refill_perm {X} (x : X) l : x :: refill (x :: l) ≡ₚ x :: l.
Proof.
  unfold refill. cbn [length]. replace (S (length l) - 1) with (length l) by lia.
  destruct l as [|y l] using rev_ind; [done|]. clear IHl. rewrite app_length. cbn [length].
  replace (length l + 1) with (S (length l)) by lia. cbn [lookup list_lookup].
  rewrite list_lookup_middle //. cbn [take]. rewrite take_app. cbn [insert list_insert].
  by rewrite Permutation_app_comm.
Qed.
