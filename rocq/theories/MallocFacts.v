(** aligned_malloc in terms of worlds (C07). *)
From iris.proofmode Require Import tactics.
From Verif Require Import Base Mem Sep Wp Adequacy AlignedMalloc AlignedMallocProofs.

Local Open Scope N_scope.

Definition nobad (e : event) : bool := false.

(** Adequacy for programs that keep resources. *)
Lemma wp_adequate_keep bad {A} (m : M A) (φ : A -> gmap N cell -> Prop) (R : A -> hpropI) w :
  (own (mem (st w)) ⊢ wp bad m (fun a => ∃ m', ⌈φ a m'⌉ ∗ own m' ∗ R a)) ->
  match m w with
  | Ok a w' evs => existsb bad evs = true \/
    (forallb benign evs = true /\ exists m', φ a m' /\ m' ⊆ mem (st w'))
  | Err _ evs => existsb bad evs = true
  end.
Proof.
  intros Hwp. rewrite hunfold_entails in Hwp.
  specialize (Hwp (Store (mem (st w)) ∅)). rewrite own_eq in Hwp. specialize (Hwp eq_refl).
  rewrite wp_unfold in Hwp. specialize (Hwp (Store ∅ (mtab (st w))) w).
  assert (Hd : Store (mem (st w)) ∅ ## Store ∅ (mtab (st w))).
  { split; cbn; [apply map_disjoint_empty_r|apply map_disjoint_empty_l]. }
  assert (Hu : st w = Store (mem (st w)) ∅ ∪ Store ∅ (mtab (st w))).
  { destruct (st w) as [m0 t]. apply (f_equal2 Store); cbn; [by rewrite right_id_L|by rewrite left_id_L]. }
  specialize (Hwp Hd Hu). destruct (m w) as [a w' evs|u evs]; [|done].
  destruct Hwp as [Hbad|(Hben&s'&Hst'&Hd'&HQ)]; [by left|right]. split; [done|].
  rewrite hunfold_exist in HQ. destruct HQ as [m' HQ]. rewrite hunfold_sep in HQ.
  destruct HQ as (s1&s2&->&_&HQ1&HQ2). rewrite hunfold_apure in HQ1. destruct HQ1 as [-> Hφ].
  rewrite hunfold_sep in HQ2. destruct HQ2 as (s3&s4&->&Hd4&HQ3&HQ4). cbn in HQ3. subst s3.
  exists m'. split; [done|]. rewrite Hst'. cbn. rewrite right_id_L left_id_L.
  apply map_union_subseteq_l.
Qed.

Lemma existsb_nobad evs : existsb nobad evs = true -> False.
Proof. by induction evs. Qed.

Lemma aligned_malloc_block pl n w : pl <> PPosix -> (pl = PGeneric -> n + 16 < W) -> mem (st w) !! 0 = None ->
  match aligned_malloc pl n 16 w with
  | Ok p w' evs =>
    forallb benign evs = true /\
    (forall i c, mem (st w) !! i = Some c -> mem (st w') !! i = Some c) /\
    (p <> 0 -> p mod 16 = 0 /\ p + n < W /\
      forall i, p <= i < p + n -> mem (st w) !! i = None /\ exists c, mem (st w') !! i = Some c /\ dead c)
  | Err _ _ => False
  end.
Proof.
  intros Hpl Hn H0.
  pose proof (wp_adequate_keep nobad (aligned_malloc pl n 16) (fun p m' =>
    mem (st w) ⊆ m' /\
    (p <> 0 -> p mod 16 = 0 /\ p + n < W /\
      forall i, p <= i < p + n -> mem (st w) !! i = None /\ exists c, m' !! i = Some c /\ dead c))
    (fun p => if p =? 0 then emp else amtok pl p n)%I w) as Had.
  lapply Had; clear Had.
  - intros Had. destruct (aligned_malloc pl n 16 w) as [p w' evs|u evs]; [|by eapply existsb_nobad].
    destruct Had as [Hb|(Hb&m'&(Hm&Hp)&Hsub)]; [by apply existsb_nobad in Hb|]. split; [done|].
    split.
    + intros i c Hi. eapply lookup_weaken; [by eapply lookup_weaken|done].
    + intros Hp0. destruct (Hp Hp0) as (H1&H2&H3). split_and!; [done..|]. intros i Hi.
      destruct (H3 i Hi) as (H4&c&H5&H6). split; [done|]. exists c. split; [|done]. by eapply lookup_weaken.
  - iIntros "H". iApply wp_aligned_malloc; [done|done|]. iSplit.
    + iExists (mem (st w)). iFrame. iPureIntro. done.
    + iIntros (p (Hp0&Hp1&Hp2)) "[(%cs & (%Hl & %Hd) & Hc) Ht]".
      iDestruct (own_put with "[$H $Hc]") as "[%Hnone H]".
      iExists _. iFrame "H". rewrite (proj2 (N.eqb_neq p 0)) //. iFrame "Ht". iPureIntro.
      split.
      * apply map_subseteq_spec. intros i c Hi. rewrite lookup_union fill_lookup.
        destruct (_ && _) eqn:E; [|by rewrite Hi].
        exfalso. assert (mem (st w) !! i = None); [|congruence]. apply Hnone. lia.
      * intros _. split_and!; [done..|]. intros i Hi. split; [apply Hnone; lia|].
        rewrite lookup_union fill_lookup. destruct (_ && _) eqn:E; [|lia].
        assert (is_Some (cs !! N.to_nat (i - p))) as [c Hc] by (apply lookup_lt_is_Some; lia).
        exists c. rewrite Hc. split; [by destruct (mem (st w) !! i)|]. rewrite Forall_lookup in Hd. by eapply Hd.
Qed.

Definition malloc_cycle (pl : platform) (n : N) (cs : list cell) : M N :=
  p <- aligned_malloc pl n 16 ;;
  if p =? 0 then ret 0 else wrs p cs ;;; aligned_free pl p ;;; ret p.

Lemma malloc_cycle_exact pl n cs w : pl <> PPosix -> (pl = PGeneric -> n + 16 < W) ->
  N.of_nat (length cs) = n ->
  match malloc_cycle pl n cs w with
  | Ok _ w' evs => forallb benign evs = true /\ st w' = st w
  | Err _ _ => False
  end.
Proof.
  intros Hpl Hn Hcs.
  pose proof (wp_adequate nobad (malloc_cycle pl n cs) (fun _ m' => m' = mem (st w)) w) as Had.
  lapply Had; clear Had.
  - intros Had. destruct (malloc_cycle pl n cs w) as [p w' evs|u evs]; [|by eapply existsb_nobad].
    destruct Had as [Hb|(Hb&Hm&Ht)]; [by apply existsb_nobad in Hb|]. split; [done|].
    destruct (st w'), (st w). cbn in *. congruence.
  - iIntros "H". unfold malloc_cycle. iApply wp_bind. iApply wp_aligned_malloc; [done|done|]. iSplit.
    + cbn [N.eqb]. iApply wp_ret. iExists _. iFrame. done.
    + iIntros (p (Hp0&Hp1&Hp2)) "[(%cs0 & (%Hl & %Hd) & Hc) Ht]". rewrite (proj2 (N.eqb_neq p 0)) //.
      iApply wp_bind. iApply (wp_wrs _ p cs0 cs); [lia|]. iFrame "Hc". iIntros "Hc".
      iApply wp_bind. iApply (wp_aligned_free _ _ _ n cs); [done|done|]. iFrame "Hc Ht".
      iApply wp_ret. iExists _. by iFrame.
Qed.
