(** linear_allocator and stack_allocator obey the contract. *)
From iris.proofmode Require Import tactics.
From Verif Require Import Base Mem Sep Wp Bits BitsProofs Allocators Contract.

Local Open Scope N_scope.

(** Size including padding, without wrap-around. *)
Definition padN (n : N) : N := n + align_to_architecture n.

Lemma padN_mod n : padN n mod 16 = 0.
Proof. apply align_total_mod. Qed.
Lemma padN_bounds n : n <= padN n < n + 16.
Proof. pose proof (align_lt n). unfold padN. lia. Qed.
Lemma padN_0 n : padN n = 0 <-> n = 0.
Proof.
  split; intros H.
  - pose proof (padN_bounds n). lia.
  - subst. reflexivity.
Qed.
Lemma padded_small n : n + 15 < W -> padded n = padN n.
Proof. intros. unfold padded. apply add64_small. pose proof (padN_bounds n). unfold padN in *. lia. Qed.
Lemma padN_mono n m : n <= m -> padN n <= padN m.
Proof.
  intros. pose proof (padN_bounds n). pose proof (padN_bounds m).
  pose proof (padN_mod n). pose proof (padN_mod m). lia.
Qed.

Fixpoint sumpad (S : list (N * N)) : N :=
  match S with [] => 0 | x :: T => padN (snd x) + sumpad T end.

(** Two blocks do not overlap, padding included. *)
Definition bdisj (x y : N * N) : Prop :=
  snd x = 0 \/ snd y = 0 \/ fst x + padN (snd x) <= fst y \/ fst y + padN (snd y) <= fst x.
Fixpoint pdisj (S : list (N * N)) : Prop :=
  match S with [] => True | x :: T => Forall (bdisj x) T /\ pdisj T end.

Lemma sumpad_perm S S' : S ≡ₚ S' -> sumpad S = sumpad S'.
Proof. induction 1; cbn; lia. Qed.
Lemma bdisj_sym x y : bdisj x y -> bdisj y x.
Proof. unfold bdisj. tauto. Qed.
Lemma pdisj_perm S S' : S ≡ₚ S' -> pdisj S -> pdisj S'.
Proof.
  induction 1 as [|x l l' H IH|x y l|l l' l'' H1 IH1 H2 IH2]; cbn; auto.
  - intros [Ha Hb]. split; [|auto]. by rewrite -H.
  - intros [Ha [Hb Hc]]. apply Forall_cons_iff in Ha as [Ha1 Ha2].
    split_and!; auto. constructor; [by apply bdisj_sym|done].
Qed.

Section linear.
  Context (Size : N).

  Definition lin_size : N := Size + align_to_architecture Size.

  Record lin_inv (b : N) (s : lin) (S : list (N * N)) : Prop := {
    li_base : b <> 0 /\ b mod 16 = 0 /\ b + lin_size < W;
    li_free : b <= l_free s <= b + Size /\ (l_free s - b) mod 16 = 0;
    li_cnt : l_cnt s = sumpad S /\ sumpad S <= l_free s - b;
    li_blocks : Forall (fun x => b <= fst x /\ (fst x - b) mod 16 = 0 /\ fst x + padN (snd x) <= b + Size /\
                          (0 < snd x -> fst x + padN (snd x) <= l_free s)) S;
    li_disj : pdisj S
  }.

  (** The bytes of the buffer that are not in an outstanding block. *)
  Definition lin_rest (b : N) (S : list (N * N)) (m : gmap N cell) : Prop :=
    (forall i, is_Some (m !! i) <->
      b <= i < b + lin_size /\ Forall (fun x => ~ (fst x <= i < fst x + snd x)) S) /\
    (forall i c, m !! i = Some c -> dead c).

  Definition lin_J (b : N) (s : lin) (S : list (N * N)) : hpropI :=
    ⌈lin_inv b s S /\ (l_cnt s = 0 -> l_free s = b)⌉ ∗ ∃ m, ⌈lin_rest b S m⌉ ∗ own m.

  Lemma lin_inv_perm b s S S' : S ≡ₚ S' -> lin_inv b s S -> lin_inv b s S'.
  Proof.
    intros HP []. split; try done.
    - by rewrite -(sumpad_perm _ _ HP).
    - by rewrite -HP.
    - by eapply pdisj_perm.
  Qed.

  Lemma lin_rest_perm b S S' m : S ≡ₚ S' -> lin_rest b S m -> lin_rest b S' m.
  Proof. intros HP [H1 H2]. split; [|done]. intros i. rewrite H1. by rewrite HP. Qed.

  Lemma lin_inv_init b : b <> 0 -> b mod 16 = 0 -> b + lin_size < W -> lin_inv b (Lin b 0) [].
  Proof. intros. split; cbn; try done; lia. Qed.

  Lemma lin_size_ge : Size <= lin_size.
  Proof. unfold lin_size. lia. Qed.

  (** The outcome of allocate, without wrap-around. *)
  Lemma lin_alloc_eq b s S n : lin_inv b s S -> n + 15 + Size < W ->
    lin_alloc Size b s n =
    if Size <? l_free s - b + padN n then ret (0, s)
    else ret (l_free s, Lin (l_free s + padN n) (l_cnt s + padN n)).
  Proof.
    intros [(?&?&?) (?&?) (?&?) ? ?] Hn. unfold lin_alloc. pose proof (padN_bounds n). pose proof lin_size_ge.
    rewrite padded_small; [|lia]. rewrite sub64_small; [|lia|lia]. rewrite add64_small; [|lia].
    destruct (_ <? _) eqn:?; [done|].
    rewrite !add64_small; [done|lia|lia].
  Qed.

  Lemma lin_alloc_inv b s S n : lin_inv b s S -> n + 15 + Size < W -> l_free s - b + padN n <= Size ->
    lin_inv b (Lin (l_free s + padN n) (l_cnt s + padN n)) ((l_free s, n) :: S).
  Proof.
    intros [(?&?&?) (?&?) (?&?) Hb ?] Hn Hfit. pose proof (padN_bounds n). pose proof (padN_mod n).
    pose proof lin_size_ge.
    split; cbn [l_free l_cnt fst snd sumpad pdisj]; try done.
    - lia.
    - lia.
    - constructor; cbn [fst snd]; [lia|]. eapply List.Forall_impl; [|exact Hb]. intros x. cbv beta. lia.
    - split; [|done]. eapply List.Forall_impl; [|exact Hb]. intros [q k]. unfold bdisj. cbn [fst snd].
      destruct (decide (k = 0)); [auto|]. lia.
  Qed.

  Lemma sumpad_0 S : sumpad S = 0 -> Forall (fun x => snd x = 0) S.
  Proof.
    induction S as [|x S IH]; cbn; [done|]. intros. constructor; [|apply IH; lia].
    apply padN_0. lia.
  Qed.

  Lemma lin_free_inv b s p n S : lin_inv b s ((p, n) :: S) -> lin_inv b (lin_free b s p n) S.
  Proof.
    intros [(?&?&?) (?&?) (Hc&Hs) Hb [Hd1 Hd2]]. pose proof (padN_bounds n). pose proof (padN_mod n).
    pose proof lin_size_ge. inversion_clear Hb as [|? ? Hx Hb']. cbn [fst snd sumpad] in *.
    unfold lin_free. rewrite padded_small; [|lia].
    rewrite (sub64_small (l_cnt s)); [|lia|lia].
    replace (l_cnt s - padN n) with (sumpad S) by lia.
    destruct (decide (n = 0)) as [->|Hn0].
    { assert (padN 0 = 0) as E by reflexivity. rewrite E in Hx Hs Hc |- *.
      rewrite sub64_small; [|lia|lia]. rewrite N.sub_0_r. 
      replace (if l_free s =? p then l_free s else l_free s) with (l_free s) by by case_match.
      destruct (sumpad S =? 0) eqn:E0.
      - assert (HS : sumpad S = 0) by lia. pose proof (sumpad_0 _ HS) as HF.
        split; cbn [l_free l_cnt]; try done; [lia| |].
        { replace (b - b) with 0 by lia. change (0 mod 16) with 0. lia. }
        rewrite List.Forall_forall. rewrite !List.Forall_forall in HF Hb'. intros x Hin.
        specialize (HF x Hin). specialize (Hb' x Hin). cbv beta in *. lia.
      - split; cbn [l_free l_cnt]; try done; lia. }
    rewrite sub64_small; [|lia|lia].
    set (f := if l_free s - padN n =? p then l_free s - padN n else l_free s).
    assert (Hf : b <= f <= l_free s /\ (f - b) mod 16 = 0 /\ sumpad S <= f - b /\
                 (f = l_free s - padN n /\ f = p \/ f = l_free s)).
    { unfold f. destruct (l_free s - padN n =? p) eqn:E; lia. }
    clearbody f. destruct Hf as (Hf1&Hf2&Hf3&Hf4).
    destruct (sumpad S =? 0) eqn:E0.
    - assert (HS : sumpad S = 0) by lia. pose proof (sumpad_0 _ HS) as HF.
      split; cbn [l_free l_cnt]; try done; [lia| |].
      { replace (b - b) with 0 by lia. change (0 mod 16) with 0. lia. }
      rewrite List.Forall_forall. rewrite !List.Forall_forall in HF Hb'. intros x Hin.
      specialize (HF x Hin). specialize (Hb' x Hin). cbv beta in *. lia.
    - split; cbn [l_free l_cnt]; try done; [lia|].
      rewrite List.Forall_forall. rewrite !List.Forall_forall in Hd1 Hb'. intros x Hin.
      specialize (Hd1 x Hin). specialize (Hb' x Hin). cbv beta in *.
      unfold bdisj in Hd1. cbn [fst snd] in Hd1. pose proof (padN_bounds (snd x)). lia.
  Qed.

  Lemma lin_rest_alloc b s S n m : lin_inv b s S -> lin_rest b S m -> n + 15 + Size < W ->
    l_free s - b + padN n <= Size ->
    (forall i, l_free s <= i < l_free s + N.of_nat (N.to_nat n) -> is_Some (m !! i)) /\
    lin_rest b ((l_free s, n) :: S) (clear (l_free s) (N.to_nat n) m).
  Proof.
    intros [(?&?&?) (?&?) (?&?) Hb ?] [Hm1 Hm2] Hn Hfit. pose proof (padN_bounds n). pose proof lin_size_ge.
    assert (Hin : forall i, l_free s <= i < l_free s + n -> is_Some (m !! i)).
    { intros i Hi. apply Hm1. split; [lia|]. eapply List.Forall_impl; [|exact Hb].
      intros [q k]. cbv beta. cbn [fst snd]. intros Hx ?. pose proof (padN_bounds k). lia. }
    split; [intros i Hi; apply Hin; lia|]. split.
    - intros i. rewrite clear_lookup. destruct (_ && _) eqn:E.
      + split; [by intros []|]. intros [_ HF]. apply Forall_cons_iff in HF as [HF _]. cbn [fst snd] in HF. lia.
      + rewrite Hm1 Forall_cons_iff. cbn [fst snd]. split; intros HH; split_and!; try apply HH. lia.
    - intros i c. rewrite clear_lookup. destruct (_ && _); [done|]. apply Hm2.
  Qed.

  Lemma lin_rest_free b s S p cs m : lin_inv b s (bsize (p, cs) :: S) -> Forall dead cs ->
    lin_rest b (bsize (p, cs) :: S) m ->
    lin_rest b S (fill p cs ∪ m).
  Proof.
    intros [(?&?&?) (?&?) (?&?) Hb [Hd ?]] Hdead [Hm1 Hm2]. unfold bsize in *. cbn [fst snd] in *.
    inversion_clear Hb as [|? ? Hx Hb']. cbn [fst snd] in Hx. pose proof (padN_bounds (N.of_nat (length cs))).
    pose proof lin_size_ge.
    split.
    - intros i. rewrite lookup_union. destruct (decide (p <= i < p + N.of_nat (length cs))) as [Hi|Hi].
      + assert (is_Some (fill p cs !! i)) as [c Hc] by by apply fill_dom. rewrite Hc.
        assert (union_with (λ x _ : cell, Some x) (Some c) (m !! i) = Some c) as -> by by destruct (m !! i).
        split; [|by eauto]. intros _. split; [lia|].
        rewrite List.Forall_forall. rewrite !List.Forall_forall in Hd Hb'. intros x Hin ?.
        specialize (Hd x Hin). specialize (Hb' x Hin). cbv beta in *.
        unfold bdisj in Hd. cbn [fst snd] in Hd. pose proof (padN_bounds (snd x)). lia.
      + assert (fill p cs !! i = None) as -> by by apply fill_dom_None.
        rewrite left_id_L Hm1 Forall_cons_iff. cbn [fst snd]. tauto.
    - intros i c. rewrite lookup_union_Some_raw. intros [Hi|[_ Hi]]; [|by eapply Hm2].
      rewrite fill_lookup in Hi. destruct (_ && _); [|done].
      by eapply Forall_lookup_1 in Hdead.
  Qed.

  Lemma lin_good b s S : lin_inv b s S -> Forall good S.
  Proof.
    intros [(?&?&?) (?&?) (?&?) Hb ?]. eapply List.Forall_impl; [|exact Hb].
    intros [p n]. cbv beta. unfold good. cbn [fst snd]. pose proof (padN_bounds n). pose proof lin_size_ge. lia.
  Qed.

  Section wp.
    Context (bad : event -> bool).

    Lemma lin_wp_init b : b <> 0 -> b mod 16 = 0 -> b + lin_size < W ->
      raw b lin_size ⊢ wp bad (lin_init Size b) (fun s => lin_J b s []).
    Proof.
      intros Hb1 Hb2 Hb3. iIntros "H". pose proof lin_size_ge. rewrite (raw_split _ _ Size); [|done].
      iDestruct "H" as "[(%cs&(%Hl&%Hd)&H) (%cs2&(%Hl2&%Hd2)&H2)]".
      iApply wp_bind. iApply wp_memset; [done|]. iFrame "H". iIntros "H".
      iApply wp_ret. iSplit; [iPureIntro; split; [by apply lin_inv_init|done]|].
      iCombine "H H2" as "H". set (zs := repeat (Byte 0) (N.to_nat Size)).
      assert (Hz : N.of_nat (length zs) = Size) by (unfold zs; rewrite repeat_length; lia).
      replace (b + Size) with (b + N.of_nat (length zs)) by lia. rewrite -pts_app -fill_own. iExists _. iFrame. iPureIntro. split.
      - intros i. rewrite fill_dom app_length. split; [split; [lia|done]|lia].
      - intros i c Hi. rewrite fill_lookup in Hi. destruct (_ && _); [|done].
        eapply Forall_lookup_1; [|exact Hi]. apply Forall_app. split; [apply byte_dead|done].
    Qed.

    Lemma lin_wp_alloc b s S n : n + 15 + Size < W ->
      lin_J b s S ⊢ wp bad (lin_alloc Size b s n) (fun ps =>
        ⌈fst ps = 0⌉ ∗ lin_J b (snd ps) S ∨
        ⌈fst ps <> 0⌉ ∗ raw (fst ps) n ∗ lin_J b (snd ps) ((fst ps, n) :: S)).
    Proof.
      intros Hn. iIntros "([%Hi %Hz] & %m & %Hm & H)". rewrite (lin_alloc_eq _ _ _ _ Hi Hn).
      destruct (_ <? _) eqn:E; iApply wp_ret; cbn [fst snd].
      - iLeft. iSplit; [done|]. iSplit; [done|]. iExists m. by iFrame.
      - iRight. assert (Hfit : l_free s - b + padN n <= Size) by lia.
        destruct (lin_rest_alloc _ _ _ _ _ Hi Hm Hn Hfit) as [H1 H2].
        rewrite (own_take m _ _ H1). iDestruct "H" as "[Hc H]".
        iSplit; [iPureIntro; destruct Hi; lia|].
        iSplitL "Hc".
        + iApply raw_intro; last done.
          * rewrite cells_length. lia.
          * apply cells_Forall. intros i Hin. destruct (H1 i Hin) as [c Hc]. exists c. split; [done|].
            by eapply Hm.
        + iSplit; [iPureIntro; split; [by apply lin_alloc_inv|]; cbn [l_free l_cnt]; intros; rewrite Hz; lia|]. iExists _. by iFrame.
    Qed.

    Lemma lin_ent_free b s p cs S : Forall dead cs ->
      lin_J b s (bsize (p, cs) :: S) ∗ p ↦∗ cs ⊢ lin_J b (lin_free b s p (N.of_nat (length cs))) S.
    Proof.
      intros Hd. iIntros "[([%Hi %Hz] & %m & %Hm & H) Hc]".
      iSplit; [iPureIntro; split; [by apply lin_free_inv|]; unfold lin_free; cbn [l_free l_cnt]; by intros ->|].
      iDestruct (own_put with "[$H $Hc]") as (_) "H". iExists _. iFrame. iPureIntro.
      by eapply lin_rest_free.
    Qed.

    Lemma lin_ent_dtor b s : lin_J b s [] ⊢ raw b lin_size.
    Proof.
      iIntros "([%Hi %Hz] & %m & (%Hm1 & %Hm2) & H)".
      assert (HH : forall i, b <= i < b + N.of_nat (N.to_nat lin_size) -> is_Some (m !! i)).
      { intros i Hin. apply Hm1. split; [lia|done]. }
      rewrite (own_take m b (N.to_nat lin_size) HH).
      assert (clear b (N.to_nat lin_size) m = ∅) as ->.
      { apply map_eq. intros i. rewrite lookup_empty clear_lookup. destruct (_ && _) eqn:E; [done|].
        apply eq_None_not_Some. rewrite Hm1. lia. }
      rewrite own_empty. iDestruct "H" as "[H _]". iApply raw_intro; last done.
      - rewrite cells_length. lia.
      - apply cells_Forall. intros i Hin. destruct (HH i Hin) as [c Hc]. exists c. split; [done|].
        by eapply Hm2.
    Qed.

    Lemma lin_owns_spec b q : b + lin_size < W -> lin_owns Size b q = true <-> b <= q < b + Size.
    Proof. intros. unfold lin_owns. pose proof lin_size_ge. rewrite add64_small; [|lia]. lia. Qed.

    Lemma lin_ent_owns_in b s S : lin_J b s S ⊢
      ⌜forall p n q, (p, n) ∈ S -> p <= q < p + n -> lin_owns Size b q = true⌝.
    Proof.
      iIntros "([%Hi %Hz] & %m & %Hm & H)". iPureIntro. intros p n q Hin Hq.
      destruct Hi as [(?&?&?) ? ? Hb ?]. apply lin_owns_spec; [done|].
      rewrite List.Forall_forall in Hb. apply elem_of_list_In, Hb in Hin. cbn [fst snd] in Hin. pose proof (padN_bounds n). lia.
    Qed.

    Lemma lin_ent_owns_out b s L q c : lin_J b s (shape L) ∗ blocks L ∗ q ↦ c ⊢ ⌜lin_owns Size b q = false⌝.
    Proof.
      iIntros "(([%Hi %Hz] & %m & %Hm & H) & HL & Hq)".
      destruct (lin_owns Size b q) eqn:E; [|done].
      destruct Hi as [(?&?&?) ? ? Hb ?]. apply lin_owns_spec in E; [|done].
      pose proof lin_size_ge.
      destruct (decide (is_Some (m !! q))) as [[d Hd]|Hn].
      - iExFalso. rewrite -own_pt. iDestruct (own_sep_disj with "[$H $Hq]") as %Hdj.
        exfalso. apply (map_disjoint_Some_l _ _ q d) in Hdj; [|done]. by rewrite lookup_singleton in Hdj.
      - destruct (decide (Forall (fun x => ~ (fst x <= q < fst x + snd x)) (shape L))) as [HF|HF].
        + exfalso. apply Hn. apply Hm. split; [lia|done].
        + iExFalso. apply not_Forall_Exists in HF; [|solve_decision].
          apply Exists_exists in HF as ([p n]&Hin&Hx). cbn [fst snd] in Hx.
          apply elem_of_list_In, elem_of_shape in Hin as (cs&Hin&Hl).
          apply elem_of_Permutation in Hin as [L' HL]. rewrite (blocks_perm _ _ HL) blocks_cons.
          iDestruct "HL" as "[Hp HL]". iDestruct (pts_ne with "[$Hp $Hq]") as %?. exfalso. apply Hx. cbv beta. cbn [fst snd] in *. intros ?. lia.
    Qed.

    Lemma lin_bound b s S : lin_inv b s S -> Forall (fun x => snd x <= Size) S.
    Proof.
      intros [? ? ? Hb ?]. eapply List.Forall_impl; [|exact Hb]. intros [p n]. cbn [fst snd].
      pose proof (padN_bounds n). lia.
    Qed.
  End wp.

  (** The requests for which the arithmetic of allocate does not wrap around. *)
  Definition lin_req (n : N) : bool := n + 15 + Size <? W.

  Definition lin_contract (bad : event -> bool) : contract bad (linear_allocator Size) lin_req.
  Proof.
    refine {| J := lin_J : N -> a_st (linear_allocator Size) -> _; mv := Size; rdy := fun _ _ => true |}.
    - apply padN_mod.
    - intros b s S S' HP. iIntros "([%Hi %Hz] & %m & %Hm & H)". iSplit; [iPureIntro; split; [by eapply lin_inv_perm|done]|].
      iExists m. iFrame. iPureIntro. by eapply lin_rest_perm.
    - intros. iIntros "([%Hi _] & _)". iPureIntro. by eapply lin_good.
    - apply lin_wp_init.
    - intros b s. iIntros "H". iApply wp_ret. by iApply lin_ent_dtor.
    - intros. apply lin_wp_alloc. unfold lin_req in *. lia.
    - intros b s p cs L Hd. iIntros "(H & Hc & HL)". iApply wp_bind. iAssert ⌜p <> 0⌝%I as %Hp.
      { iDestruct "H" as "([%Hi _] & _)". iPureIntro. apply lin_good in Hi. inversion_clear Hi as [|? ? Hx].
        unfold bsize, good in Hx. cbn [fst snd] in Hx. lia. }
      iApply wp_assert; [lia|]. iApply wp_ret. iFrame. iApply lin_ent_free; [done|iFrame].
    - intros o b s S [= <-]. apply lin_ent_owns_in.
    - intros o b s L q c [= <-] _. apply lin_ent_owns_out.
    - intros mx b s S [= <-] _. iIntros "H". iApply wp_ret. by iFrame.
    - intros b s S _. iIntros "([%Hi _] & _)". iPureIntro. by eapply lin_bound.
    - intros. done.
  Defined.

  Definition stack_contract (bad : event -> bool) : contract bad (stack_allocator Size) lin_req.
  Proof.
    refine {| J := lin_J : N -> a_st (stack_allocator Size) -> _; mv := Size; rdy := fun _ _ => true |}.
    - apply padN_mod.
    - apply (c_perm _ _ _ (lin_contract bad)).
    - apply (c_good _ _ _ (lin_contract bad)).
    - apply lin_wp_init.
    - intros b s. iIntros "H". iApply wp_ret. by iApply lin_ent_dtor.
    - intros. apply lin_wp_alloc. unfold lin_req in *. lia.
    - intros b s p cs L Hd. iIntros "(H & Hc & HL)".
      iApply wp_ret. iFrame. iApply lin_ent_free; [done|iFrame].
    - intros o b s S [= <-]. apply lin_ent_owns_in.
    - intros o b s L q c [= <-] _. apply lin_ent_owns_out.
    - intros mx b s S [= <-] _. iIntros "H". iApply wp_ret. by iFrame.
    - intros b s S _. iIntros "([%Hi _] & _)". iPureIntro. by eapply lin_bound.
    - intros. done.
  Defined.
End linear.
