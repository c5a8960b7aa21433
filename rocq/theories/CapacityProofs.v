(** Which sizes a composition of allocators can serve. *)
From iris.proofmode Require Import tactics.
From Verif Require Import Base Mem Sep Wp Bits AlignedMalloc AlignedMallocProofs Allocators Contract LinearProofs BasicProofs
  PairProofs FreelistProofs OverflowProofs NodeProofs CascadingProofs Checked CheckedProofs Tree TreeProofs Adequacy Client
  ClientProofs CrowdProofs NoFail AllocSpec AllocFacts AllocProofs SharedSafe Footprint Capacity.

Local Open Scope N_scope.

(** * Facts about results *)
Lemma wp_fact bad {X} (m : M X) (Q : X -> hpropI) (φ : X -> Prop) :
  (forall w a w' e, m w = Ok a w' e -> existsb bad e = true \/ φ a) ->
  wp bad m Q ⊢ wp bad m (fun a => Q a ∗ ⌈φ a⌉).
Proof.
  intros H. apply hunfold_entails. intros s. rewrite !wp_unfold. intros Hwp sf w Hd Hst.
  specialize (Hwp sf w Hd Hst). specialize (H w). destruct (m w) as [a w' e|u e]; [|done].
  destruct Hwp as [Hb|(Hbe&s'&H1&H2&H3)]; [by left|].
  destruct (H a w' e eq_refl) as [Hb|Hφ]; [by left|]. right. split; [done|]. exists s'. split_and!; [done..|].
  rewrite hunfold_sep. exists s', sempty. rewrite sunion_empty_r hunfold_apure. split_and!; try done. apply sdisj_empty_r.
Qed.

Lemma wp_also bad {X} (m : M X) (Q : X -> hpropI) (φ : X -> Prop) :
  wp bad m Q ∧ wp bad m (fun a => ⌜φ a⌝) ⊢ wp bad m (fun a => Q a ∗ ⌈φ a⌉).
Proof.
  apply hunfold_entails. intros s. rewrite hunfold_and !wp_unfold. intros [Hwp Hφ] sf w Hd Hst.
  specialize (Hwp sf w Hd Hst). specialize (Hφ sf w Hd Hst). destruct (m w) as [a w' e|u e]; [|done].
  destruct Hwp as [Hb|(Hbe&s'&H1&H2&H3)]; [by left|].
  destruct Hφ as [Hb|(_&s2&_&_&H4)]; [by left|]. rewrite hunfold_pure in H4. right. split; [done|]. exists s'. split_and!; [done..|].
  rewrite hunfold_sep. exists s', sempty. rewrite sunion_empty_r hunfold_apure. split_and!; try done. apply sdisj_empty_r.
Qed.

(** * The property for one allocator *)
Record capable {bad A req} (C : contract bad A req) (fit alw : N -> bool) : Prop := {
  k_bound b s S : J C b s S ⊢ ⌜Forall (fun x => fit (snd x) = true) S⌝;
  k_max n : a_max A <> None -> fit n = true -> n <= mv C;
  k_rest b s n : bad EvRefuse = true -> req n = true -> n < W -> fit n = true ->
    J C b s [] ⊢ wp bad (a_alloc A b s n) (fun ps => ⌜fst ps <> 0⌝);
  k_any b s S n : bad EvRefuse = true -> req n = true -> n < W -> alw n = true ->
    J C b s S ⊢ wp bad (a_alloc A b s n) (fun ps => ⌜fst ps <> 0⌝)
}.
Arguments k_bound {bad A req C fit alw}.
Arguments k_max {bad A req C fit alw}.
Arguments k_rest {bad A req C fit alw}.
Arguments k_any {bad A req C fit alw}.

(** The complete law of allocate for an object at rest. *)
Lemma k_alloc {bad A req} {C : contract bad A req} {fit alw} (K : capable C fit alw) b s n :
  bad EvRefuse = true -> req n = true -> n < W -> fit n = true ->
  J C b s [] ⊢ wp bad (a_alloc A b s n) (fun ps => ⌈fst ps <> 0⌉ ∗ raw (fst ps) n ∗ J C b (snd ps) [(fst ps, n)]).
Proof.
  intros Hb Hr Hn Hf. iIntros "H". iApply wp_strong_mono. iSplitL.
  - iApply wp_also. iSplit; [by iApply (c_alloc _ _ _ C b s [] n Hr Hn)|by iApply (k_rest K)].
  - iIntros ([p s']) "[[[%Hp HJ]|(%Hp & Hraw & HJ)] %Hp']"; cbn [fst snd] in *; [done|]. by iFrame.
Qed.

Lemma k_give {bad A req} {C : contract bad A req} {fit alw} (K : capable C fit alw) b s S n :
  bad EvRefuse = true -> req n = true -> n < W -> alw n = true ->
  J C b s S ⊢ wp bad (a_alloc A b s n) (fun ps => ⌈fst ps <> 0⌉ ∗ raw (fst ps) n ∗ J C b (snd ps) ((fst ps, n) :: S)).
Proof.
  intros Hb Hr Hn Hf. iIntros "H". iApply wp_strong_mono. iSplitL.
  - iApply wp_also. iSplit; [by iApply (c_alloc _ _ _ C b s S n Hr Hn)|by iApply (k_any K)].
  - iIntros ([p s']) "[[[%Hp HJ]|(%Hp & Hraw & HJ)] %Hp']"; cbn [fst snd] in *; [done|]. by iFrame.
Qed.

(** What does not fit is refused in every state. *)
Lemma k_refuse {bad A req} {C : contract bad A req} {fit alw} (K : capable C fit alw) b s S n :
  req n = true -> n < W -> fit n = false ->
  J C b s S ⊢ wp bad (a_alloc A b s n) (fun ps => ⌈fst ps = 0⌉ ∗ J C b (snd ps) S).
Proof.
  intros Hr Hn Hf. iIntros "H". iApply wp_strong_mono. iSplitL; [by iApply (c_alloc _ _ _ C b s S n Hr Hn)|].
  iIntros ([p s']) "[[%Hp HJ]|(%Hp & Hraw & HJ)]"; cbn [fst snd] in *; [by iFrame|].
  iDestruct (k_bound K with "HJ") as %HB. apply Forall_cons_iff in HB as [HB _]. cbn in HB. congruence.
Qed.

Lemma null_capable bad : capable (null_contract bad) (fun _ => false) (fun _ => false).
Proof. split; try done. iIntros (b s S) "->". iPureIntro. constructor. Qed.

Lemma mal_serves bad pl n : pl <> PPosix -> (pl = PGeneric -> n + 16 < W) -> bad EvRefuse = true ->
  True ⊢ wp bad (aligned_malloc pl n 16) (fun p => True ∗ ⌈p <> 0⌉).
Proof.
  intros Hpl Hn Hb. iIntros "H".
  iApply (wp_fact bad _ (fun _ => True)%I (fun p => p <> 0)).
  - intros w a w' e He. destruct (sure_am pl n w a w' e Hpl Hn He) as [H|H]; [left|by right].
    clear -Hb H. induction e as [|x e IH]; [done|]. cbn in *. apply orb_true_iff in H as [H|H].
    + destruct x; try done. by rewrite Hb.
    + rewrite (IH H). apply orb_true_r.
  - iApply wp_aligned_malloc; [done..|]. iSplit; [done|]. by iIntros (p Hp) "_".
Qed.

Lemma mal_capable bad pl Hpl : capable (mal_contract bad pl Hpl) (fun _ => true) (fun _ => true).
Proof.
  assert (K : forall b s S n, bad EvRefuse = true -> mal_req pl n = true ->
    J (mal_contract bad pl Hpl) b s S ⊢ wp bad (a_alloc (mallocator pl) b s n) (fun ps => ⌜fst ps <> 0⌝)).
  { intros b s S n Hb Hn. cbn [a_alloc mallocator]. iIntros "H". iApply wp_bind. unfold mal_req in Hn.
    iApply wp_strong_mono. iSplitL.
    - iApply mal_serves; [done| |done|done]. intros ->. by apply N.ltb_lt.
    - iIntros (p) "[H %Hp]". iApply wp_ret. by iPureIntro. }
  split.
  - iIntros (b s S) "_". iPureIntro. by apply List.Forall_forall.
  - done.
  - intros b s n Hb Hn HW _. by apply K.
  - intros b s S n Hb Hn HW _. by apply K.
Qed.

Lemma sure_split bad {X} (m : M X) (φ : X -> Prop) : wp bad m (fun x => ⌜φ x⌝) ⊢ wp bad m (fun x => ⌈φ x⌉ ∗ True).
Proof.
  iIntros "H". iApply wp_strong_mono. iFrame "H". iIntros (x) "H".
  iDestruct (bi.persistent_absorbingly_affinely_2 with "H") as "H". rewrite /bi_absorbingly. iDestruct "H" as "[T H]". iFrame.
Qed.
Lemma k_serve {bad A req} {C : contract bad A req} {fit alw} (K : capable C fit alw) b s n :
  bad EvRefuse = true -> req n = true -> n < W -> fit n = true ->
  J C b s [] ⊢ wp bad (a_alloc A b s n) (fun ps => ⌈fst ps <> 0⌉ ∗ True).
Proof. intros Hb Hr HW Hf. rewrite (k_rest K b s n Hb Hr HW Hf). apply sure_split. Qed.
Lemma k_always {bad A req} {C : contract bad A req} {fit alw} (K : capable C fit alw) b s S n :
  bad EvRefuse = true -> req n = true -> n < W -> alw n = true ->
  J C b s S ⊢ wp bad (a_alloc A b s n) (fun ps => ⌈fst ps <> 0⌉ ∗ True).
Proof. intros Hb Hr HW Hf. rewrite (k_any K b s S n Hb Hr HW Hf). apply sure_split. Qed.

Lemma pad_round n : padN n = (n + 15) / 16 * 16.
Proof.
  pose proof (padN_bounds n). pose proof (padN_mod n). pose proof (N.div_mod (n + 15) 16). pose proof (N.mod_lt (n + 15) 16).
  lia.
Qed.

Definition lin_fits (Size n : N) : bool := (n + 15) / 16 * 16 <=? Size.

Lemma lin_fits_all Size b s S : lin_inv Size b s S -> Forall (fun x => lin_fits Size (snd x) = true) S.
Proof.
  intros [_ _ _ Hb _]. eapply List.Forall_impl; [|exact Hb]. intros x Hx. cbv beta in *.
  unfold lin_fits. rewrite -pad_round. apply N.leb_le. lia.
Qed.

Lemma lin_fits_max Size n : lin_fits Size n = true -> n <= Size.
Proof. unfold lin_fits. rewrite -pad_round. intros H%N.leb_le. pose proof (padN_bounds n). lia. Qed.

Lemma lin_rest_alloc Size bad b s n : lin_req Size n = true -> lin_fits Size n = true ->
  lin_J Size b s [] ⊢ wp bad (lin_alloc Size b s n) (fun ps => ⌜fst ps <> 0⌝).
Proof.
  intros Hn Hf. unfold lin_req in Hn. iIntros "([%Hi %Hz] & %m & %Hm & H)".
  rewrite (lin_alloc_eq _ _ _ _ _ Hi); [|lia]. destruct Hi as [(Hb&_&_) _ (Hc&_) _ _]. cbn [sumpad] in Hc.
  rewrite (Hz Hc). unfold lin_fits in Hf. rewrite -pad_round in Hf.
  rewrite (proj2 (N.ltb_ge _ _)); [|lia]. iApply wp_ret. by iPureIntro.
Qed.

Lemma lin_capable Size bad : capable (lin_contract Size bad) (lin_fits Size) (fun _ => false).
Proof.
  split.
  - iIntros (b s S) "([%Hi _] & _)". iPureIntro. by eapply lin_fits_all.
  - intros n _. apply lin_fits_max.
  - intros b s n _ Hr _ Hf. by apply lin_rest_alloc.
  - done.
Qed.
Lemma stack_capable Size bad : capable (stack_contract Size bad) (lin_fits Size) (fun _ => false).
Proof.
  split.
  - iIntros (b s S) "([%Hi _] & _)". iPureIntro. by eapply lin_fits_all.
  - intros n _. apply lin_fits_max.
  - intros b s n _ Hr _ Hf. by apply lin_rest_alloc.
  - done.
Qed.

Lemma freelist_capable {bad A req} (C : contract bad A req) fit alw Min Max H1 H2 : capable C fit alw ->
  capable (freelist_contract C Min Max H1 H2) (fun n => (Min <? n) && (n <=? Max) && fit Max)
    (fun n => (Min <? n) && (n <=? Max) && alw Max).
Proof.
  intros K. split.
  - iIntros (b s S) "(%CC & %Hr & HJ & Hch & Hsl)". iDestruct (k_bound K with "HJ") as %HB. iPureIntro.
    unfold fl_inner in HB. apply Forall_app in HB as [_ HB]. rewrite List.Forall_forall in Hr. rewrite List.Forall_forall in HB.
    apply List.Forall_forall. intros x Hx. specialize (Hr x Hx). unfold inrange in Hr.
    specialize (HB (fst x, Max)). cbn [snd] in HB. rewrite HB; [lia|]. apply in_map_iff. by exists x.
  - intros n Hm. cbn [mv freelist_contract]. intros [[_ Hn]%andb_true_iff Hf]%andb_true_iff.
    assert (Max <= mv C); [|lia]. apply (k_max K); [|done]. intros E. apply Hm. cbn. by rewrite E.
  - intros b s n Hb Hr HW [[Hn1 Hn2]%andb_true_iff Hf]%andb_true_iff. cbn [a_alloc freelist J freelist_contract].
    unfold fl_alloc, fl_req in *. rewrite /fl_range Hn1 Hn2. cbn [andb]. rewrite /fl_range Hn1 Hn2 in Hr. cbn in Hr.
    iIntros "(%CC & %HS & HJ & Hch & Hsl)". destruct CC as [|p CC]; cbn [chain].
    + iDestruct "Hch" as %Hh. rewrite Hh. cbn [N.eqb]. iApply wp_bind. iApply wp_strong_mono.
      iSplitL "HJ"; [by iApply (k_serve K _ _ _)|]. iIntros ([q s']) "[%Hq T]". iApply wp_ret. by iPureIntro.
    + iDestruct "Hch" as (nxt) "((%Hh & %Hnx) & Hp & Hraw & Hch)". subst p.
      iDestruct (c_good _ _ _ C with "HJ") as %Hg. apply Forall_cons_iff in Hg as [(Hg1&_&_) _].
      cbn [fst] in Hg1. rewrite (proj2 (N.eqb_neq _ _) Hg1).
      iApply wp_bind. iApply (wp_rd_ptr _ _ nxt); [done|]. iFrame "Hp". iIntros "Hp". iApply wp_ret. by iPureIntro.
  - intros b s S n Hb Hr HW [[Hn1 Hn2]%andb_true_iff Hf]%andb_true_iff. cbn [a_alloc freelist J freelist_contract].
    unfold fl_alloc, fl_req in *. rewrite /fl_range Hn1 Hn2. cbn [andb]. rewrite /fl_range Hn1 Hn2 in Hr. cbn in Hr.
    iIntros "(%CC & %HS & HJ & Hch & Hsl)". destruct CC as [|p CC]; cbn [chain].
    + iDestruct "Hch" as %Hh. rewrite Hh. cbn [N.eqb]. iApply wp_bind. iApply wp_strong_mono.
      iSplitL "HJ"; [by iApply (k_always K _ _ _ _)|]. iIntros ([q s']) "[%Hq T]". iApply wp_ret. by iPureIntro.
    + iDestruct "Hch" as (nxt) "((%Hh & %Hnx) & Hp & Hraw & Hch)". subst p.
      iDestruct (c_good _ _ _ C with "HJ") as %Hg. apply Forall_cons_iff in Hg as [(Hg1&_&_) _].
      cbn [fst] in Hg1. rewrite (proj2 (N.eqb_neq _ _) Hg1).
      iApply wp_bind. iApply (wp_rd_ptr _ _ nxt); [done|]. iFrame "Hp". iIntros "Hp". iApply wp_ret. by iPureIntro.
Qed.

Lemma fallback_capable {bad P F rP rF} (CP : contract bad P rP) (CF : contract bad F rF) HO fp ff ap af :
  capable CP fp ap -> capable CF ff af ->
  capable (fallback_contract CP CF HO) (fun n => fp n || ff n) (fun n => ap n || af n).
Proof.
  intros KP KF. split.
  - iIntros (b s S) "(%S1 & %S2 & (%H1&%H2&%H3) & HP & HF)".
    iDestruct (k_bound KP with "HP") as %B1. iDestruct (k_bound KF with "HF") as %B2. iPureIntro. rewrite H1.
    apply Forall_app. split; (eapply List.Forall_impl; [|eassumption]); intros x Hx; cbv beta in *; rewrite Hx; [done|apply orb_true_r].
  - intros n Hm. cbn [mv fallback_contract]. unfold pair_mv. cbn in Hm. unfold pair_max, omap2 in Hm.
    destruct (a_max P) eqn:EP, (a_max F) eqn:EF; try done. intros [H|H]%orb_true_iff.
    + assert (n <= mv CP); [|lia]. apply (k_max KP); [by rewrite EP|done].
    + assert (n <= mv CF); [|lia]. apply (k_max KF); [by rewrite EF|done].
  - intros b s n Hb Hr HW Hf. cbn [a_alloc fallback J fallback_contract]. unfold fb_req in Hr.
    rewrite !andb_true_iff in Hr. destruct Hr as [[Hn0 HnP] HnF].
    iIntros "(%S1 & %S2 & (%H1&%H2&%H3) & HP & HF)". apply Permutation_nil in H1. apply app_eq_nil in H1 as [-> ->].
    unfold fb_alloc. iApply wp_bind. destruct (fp n) eqn:Ep.
    + iApply wp_strong_mono. iSplitL "HP"; [by iApply (k_serve KP _ _ _)|]. iIntros ([p sp]) "[%Hp T]". cbn [fst] in Hp.
      rewrite (proj2 (N.eqb_neq _ _) Hp). iApply wp_ret. by iPureIntro.
    + cbn [orb] in Hf. iApply wp_strong_mono. iSplitL "HP"; [by iApply (k_refuse KP)|].
      iIntros ([p sp]) "[%Hp HP]". cbn [fst snd] in *. subst p. cbn [N.eqb]. iApply wp_bind. iApply wp_strong_mono.
      iSplitL "HF"; [by iApply (k_serve KF _ _ _)|]. iIntros ([p sf]) "[%Hp T]". iApply wp_ret. by iPureIntro.
  - intros b s S n Hb Hr HW Hf. cbn [a_alloc fallback J fallback_contract]. unfold fb_req in Hr.
    rewrite !andb_true_iff in Hr. destruct Hr as [[Hn0 HnP] HnF].
    iIntros "(%S1 & %S2 & (%H1&%H2&%H3) & HP & HF)".
    unfold fb_alloc. iApply wp_bind. destruct (ap n) eqn:Ep.
    + iApply wp_strong_mono. iSplitL "HP"; [by iApply (k_always KP _ _ _ _)|]. iIntros ([p sp]) "[%Hp T]". cbn [fst] in Hp.
      rewrite (proj2 (N.eqb_neq _ _) Hp). iApply wp_ret. by iPureIntro.
    + cbn [orb] in Hf. iApply wp_strong_mono. iSplitL "HP"; [by iApply (c_alloc _ _ _ CP)|].
      iIntros ([p sp]) "[[%Hp HP]|(%Hp & Hraw & HP)]"; cbn [fst snd] in *.
      * subst p. cbn [N.eqb]. iApply wp_bind. iApply wp_strong_mono.
        iSplitL "HF"; [by iApply (k_always KF _ _ _ _)|]. iIntros ([p sf]) "[%Hp T]". iApply wp_ret. by iPureIntro.
      * rewrite (proj2 (N.eqb_neq _ _) Hp). iApply wp_ret. by iPureIntro.
Qed.

Lemma segragator_capable {bad P F rP rF} (CP : contract bad P rP) (CF : contract bad F rF) T fp ff ap af :
  capable CP fp ap -> capable CF ff af ->
  capable (segragator_contract CP CF T) (fun n => if n <=? T then fp n else ff n) (fun n => if n <=? T then ap n else af n).
Proof.
  intros KP KF. split.
  - iIntros (b s S) "(%S1 & %S2 & (%H1&%H2&%H3) & HP & HF)".
    iDestruct (k_bound KP with "HP") as %B1. iDestruct (k_bound KF with "HF") as %B2. iPureIntro. rewrite H1.
    apply Forall_app. rewrite List.Forall_forall in H2. rewrite List.Forall_forall in H3.
    rewrite List.Forall_forall in B1. rewrite List.Forall_forall in B2.
    split; apply List.Forall_forall; intros x Hx.
    + specialize (H2 x Hx). unfold seg_low in H2. rewrite (proj2 (N.leb_le _ _) H2). by apply B1.
    + specialize (H3 x Hx). unfold seg_high in H3. rewrite (proj2 (N.leb_gt _ _) H3). by apply B2.
  - intros n Hm. cbn [mv segragator_contract]. unfold pair_mv. cbn in Hm. unfold pair_max, omap2 in Hm.
    destruct (a_max P) eqn:EP, (a_max F) eqn:EF; try done. destruct (n <=? T); intros H.
    + assert (n <= mv CP); [|lia]. apply (k_max KP); [by rewrite EP|done].
    + assert (n <= mv CF); [|lia]. apply (k_max KF); [by rewrite EF|done].
  - intros b s n Hb Hr HW Hf. cbn [a_alloc segragator J segragator_contract]. unfold seg_req in Hr.
    iIntros "(%S1 & %S2 & (%H1&%H2&%H3) & HP & HF)". apply Permutation_nil in H1. apply app_eq_nil in H1 as [-> ->].
    unfold seg_alloc. destruct (n <=? T).
    + iApply wp_bind. iApply wp_strong_mono. iSplitL "HP"; [by iApply (k_serve KP _ _ _)|]. iIntros ([p sp]) "[%Hp T]".
      iApply wp_ret. by iPureIntro.
    + iApply wp_bind. iApply wp_strong_mono. iSplitL "HF"; [by iApply (k_serve KF _ _ _)|]. iIntros ([p sp]) "[%Hp T]".
      iApply wp_ret. by iPureIntro.
  - intros b s S n Hb Hr HW Hf. cbn [a_alloc segragator J segragator_contract]. unfold seg_req in Hr.
    iIntros "(%S1 & %S2 & (%H1&%H2&%H3) & HP & HF)".
    unfold seg_alloc. destruct (n <=? T).
    + iApply wp_bind. iApply wp_strong_mono. iSplitL "HP"; [by iApply (k_always KP _ _ _ _)|]. iIntros ([p sp]) "[%Hp T]".
      iApply wp_ret. by iPureIntro.
    + iApply wp_bind. iApply wp_strong_mono. iSplitL "HF"; [by iApply (k_always KF _ _ _ _)|]. iIntros ([p sp]) "[%Hp T]".
      iApply wp_ret. by iPureIntro.
Qed.

Lemma overflow_capable {bad A req} (C : contract bad A req) fit alw : capable C fit alw ->
  capable (overflow_contract C) (fun n => fit (n + 128)) (fun n => alw (n + 128)).
Proof.
  intros K. split.
  - iIntros (b s S) "(HJ & Hg & %H64)". iDestruct (k_bound K with "HJ") as %HB. iPureIntro.
    rewrite List.Forall_forall in HB. apply List.Forall_forall. intros x Hx. apply (HB (widen x)). apply in_map_iff. by exists x.
  - intros n Hm Hf. cbn [mv overflow_contract]. assert (n + 128 <= mv C); [|lia]. apply (k_max K); [|done].
    intros E. apply Hm. cbn. by rewrite E.
  - intros b s n Hb Hr HW' Hf. cbn [a_alloc overflow J overflow_contract]. unfold ov_req in Hr.
    apply andb_true_iff in Hr as [HW Hr]. apply N.ltb_lt in HW. unfold ov_alloc.
    change (OVERFLOW_SIZE * 2) with 128. change OVERFLOW_SIZE with 64. rewrite (add64_small n 128) //.
    iIntros "(HJ & Hg & %H64)". iApply wp_bind. iApply wp_strong_mono.
    iSplitL "HJ"; [by iApply (k_alloc K b (o_in s) (n + 128) Hb Hr HW Hf)|].
    iIntros ([q s']) "(%Hq & Hraw & HJ)"; cbn [fst snd] in *. rewrite (proj2 (N.eqb_neq _ _) Hq).
    iDestruct (c_good _ _ _ C with "HJ") as %HgJ. apply Forall_cons_iff in HgJ as [(Hg1&Hg2&Hg3) _]. cbn [fst snd] in *.
    rewrite (add64_small q 64); [|lia]. rewrite (add64_small (q + 64) n); [|lia].
    rewrite (raw_split q (n + 128) 64); [|lia]. iDestruct "Hraw" as "[Hr1 Hraw]".
    replace (n + 128 - 64) with (n + 64) by lia.
    rewrite (raw_split (q + 64) (n + 64) n); [|lia]. iDestruct "Hraw" as "[Hr2 Hr3]".
    replace (n + 64 - n) with 64 by lia.
    iDestruct "Hr1" as (c1) "[(%Hl1 & %Hd1) H1]". iDestruct "Hr3" as (c3) "[(%Hl3 & %Hd3) H3]".
    iApply wp_bind. iApply (wp_memset _ _ _ _ c1); [done|]. iFrame "H1". iIntros "H1".
    iApply wp_bind. iApply (wp_memset _ _ _ _ c3); [done|]. iFrame "H3". iIntros "H3". iApply wp_ret. iPureIntro. cbn. lia.
  - intros b s S n Hb Hr HW' Hf. cbn [a_alloc overflow J overflow_contract]. unfold ov_req in Hr.
    apply andb_true_iff in Hr as [HW Hr]. apply N.ltb_lt in HW. unfold ov_alloc.
    change (OVERFLOW_SIZE * 2) with 128. change OVERFLOW_SIZE with 64. rewrite (add64_small n 128) //.
    iIntros "(HJ & Hg & %H64)". iApply wp_bind. iApply wp_strong_mono.
    iSplitL "HJ"; [by iApply (k_give K b (o_in s) _ (n + 128) Hb Hr HW Hf)|].
    iIntros ([q s']) "(%Hq & Hraw & HJ)"; cbn [fst snd] in *. rewrite (proj2 (N.eqb_neq _ _) Hq).
    iDestruct (c_good _ _ _ C with "HJ") as %HgJ. apply Forall_cons_iff in HgJ as [(Hg1&Hg2&Hg3) _]. cbn [fst snd] in *.
    rewrite (add64_small q 64); [|lia]. rewrite (add64_small (q + 64) n); [|lia].
    rewrite (raw_split q (n + 128) 64); [|lia]. iDestruct "Hraw" as "[Hr1 Hraw]".
    replace (n + 128 - 64) with (n + 64) by lia.
    rewrite (raw_split (q + 64) (n + 64) n); [|lia]. iDestruct "Hraw" as "[Hr2 Hr3]".
    replace (n + 64 - n) with 64 by lia.
    iDestruct "Hr1" as (c1) "[(%Hl1 & %Hd1) H1]". iDestruct "Hr3" as (c3) "[(%Hl3 & %Hd3) H3]".
    iApply wp_bind. iApply (wp_memset _ _ _ _ c1); [done|]. iFrame "H1". iIntros "H1".
    iApply wp_bind. iApply (wp_memset _ _ _ _ c3); [done|]. iFrame "H3". iIntros "H3". iApply wp_ret. iPureIntro. cbn. lia.
Qed.

Lemma shared_capable {bad A req} (C : contract bad A req) pl H1 H2 H3 fit alw : capable C fit alw ->
  capable (shared_contract C pl H1 H2 H3) fit alw.
Proof.
  intros K. split.
  - iIntros (b s S) "(HJ & Hr & Ht & %Hp)". by iDestruct (k_bound K with "HJ") as %HB.
  - intros n Hm. cbn [mv shared_contract]. apply (k_max K). intros E. apply Hm. cbn. by rewrite E.
  - intros b s n Hb Hr HW Hf. cbn [a_alloc shared J shared_contract]. iIntros "(HJ & Hr & Ht & %Hp)".
    iApply wp_bind. iApply wp_strong_mono. iSplitL "HJ"; [by iApply (k_serve K _ _ _)|].
    iIntros ([q s']) "[%Hq T]". iApply wp_ret. by iPureIntro.
  - intros b s S n Hb Hr HW Hf. cbn [a_alloc shared J shared_contract]. iIntros "(HJ & Hr & Ht & %Hp)".
    iApply wp_bind. iApply wp_strong_mono. iSplitL "HJ"; [by iApply (k_always K _ _ _ _)|].
    iIntros ([q s']) "[%Hq T]". iApply wp_ret. by iPureIntro.
Qed.

Lemma forwarding_capable {bad A req} (C : contract bad A req) fit alw : capable C fit alw -> capable (forwarding_contract C) fit alw.
Proof. intros [K1 K2 K3 K4]. split; [exact K1|exact K2|exact K3|exact K4]. Qed.

Lemma checked_capable {bad A req} (C : contract bad A req) fit alw : capable C fit alw -> capable (checked_contract C) fit alw.
Proof.
  intros K. split.
  - iIntros (b s S) "[HJ %Hp]". by iDestruct (k_bound K with "HJ") as %HB.
  - intros n Hm. cbn [mv checked_contract]. apply (k_max K). intros E. apply Hm. cbn. by rewrite E.
  - intros b s n Hb Hr HW Hf. cbn [a_alloc checked J checked_contract]. iIntros "[HJ %Hp]".
    iApply wp_bind. iApply wp_strong_mono. iSplitL "HJ"; [by iApply (k_serve K _ _ _)|].
    iIntros ([q s']) "[%Hq T]". iApply wp_ret. by iPureIntro.
  - intros b s S n Hb Hr HW Hf. cbn [a_alloc checked J checked_contract]. iIntros "[HJ %Hp]".
    iApply wp_bind. iApply wp_strong_mono. iSplitL "HJ"; [by iApply (k_always K _ _ _ _)|].
    iIntros ([q s']) "[%Hq T]". iApply wp_ret. by iPureIntro.
Qed.

Lemma nodes_fit {bad A req} (C : contract bad A req) pl fit alw nds TT : capable C fit alw ->
  nodes_J C pl nds TT ⊢ ⌜Forall (fun x => fit (snd x) = true) (concat TT)⌝.
Proof.
  intros K. revert TT. induction nds as [|nd nds IH]; intros TT.
  - rewrite nodes_nil_l. iIntros "->". iPureIntro. constructor.
  - rewrite nodes_cons_l. iIntros "(%T & %TT' & -> & [(HJ & Hr & Ht & %Hp) %Hc] & Hns)".
    iDestruct (k_bound K with "HJ") as %H1. iDestruct (IH with "Hns") as %H2. iPureIntro. cbn [concat]. by apply Forall_app.
Qed.

Lemma cascading_capable {bad A req} (C : contract bad A req) pl H1 H2 H3 H4 H5 fit alw : capable C fit alw ->
  capable (cascading_contract C pl H1 H2 H3 H4 H5) fit fit.
Proof.
  intros K.
  assert (KA : forall b s S n, bad EvRefuse = true -> casc_req (req := req) n = true -> n < W -> fit n = true ->
    J (cascading_contract C pl H1 H2 H3 H4 H5) b s S ⊢ wp bad (a_alloc (cascading pl A) b s n) (fun ps => ⌜fst ps <> 0⌝)).
  { intros b s S n Hb Hr HW Hf. cbn [a_alloc cascading cascading_with J cascading_contract]. unfold casc_req in Hr.
    apply andb_true_iff in Hr as [Hn0 Hr]. apply N.ltb_lt in Hn0. unfold casc_alloc.
    iIntros "(%TT & (%HS & %Hpos) & Hns)". iApply wp_bind.
    iApply (wp_strong_mono _ _ (fun x => ∃ T TT', node_J C pl (fst x) T ∗ nodes_J C pl (snd x) TT')%I).
    iSplitL "Hns".
    { destruct s as [|nd rest].
      - rewrite nodes_nil_l. iDestruct "Hns" as %->. iApply wp_bind. iApply wp_new_node; [done..|]. iIntros (nd) "Hn".
        iApply wp_ret. iExists [], []. cbn [fst snd nodes_J]. by iFrame.
      - rewrite nodes_cons_l. iDestruct "Hns" as (T TT') "(-> & Hn & Hns)".
        iApply wp_ret. iExists T, TT'. cbn [fst snd]. by iFrame. }
    iIntros ([nd rest]) "(%T & %TT' & [(HJ & Hr & Ht & %Hp) %Hc] & Hns)". cbn [fst snd].
    iApply wp_bind. iApply (wp_strong_mono _ _ (fun over => ⌈over = false⌉ ∗ J C (nd_addr nd) (nd_in nd) T)%I).
    iSplitL "HJ".
    { destruct (a_max A) as [mx|] eqn:Hmx; [|iApply wp_ret; by iFrame].
      iApply wp_bind. iApply wp_strong_mono. iSplitL.
      { iApply (c_max _ _ _ C with "HJ"); [done|]. apply H5. done. }
      iIntros (v) "[-> HJ]". iApply wp_ret. iFrame. iPureIntro. apply N.ltb_ge. apply (k_max K); [by rewrite Hmx|done]. }
    iIntros (over) "[-> HJ]". iApply wp_bind. iApply wp_strong_mono. iSplitL "HJ"; [by iApply (c_alloc _ _ _ C)|].
    iIntros ([q si]) "[[%Hq HJ]|(%Hq & Hraw & HJ)]"; cbn [fst snd] in *.
    - subst q. cbn [N.eqb]. iApply wp_bind. iApply wp_new_node; [done..|].
      iIntros (nd2) "[(HJ2 & Hr2 & Ht2 & %Hp2) %Hc2]". iApply wp_bind. iApply wp_strong_mono.
      iSplitL "HJ2"; [by iApply (k_serve K)|]. iIntros ([q2 si2]) "[%Hq2 H]". iApply wp_ret. by iPureIntro.
    - rewrite (proj2 (N.eqb_neq _ _) Hq). iApply wp_ret. by iPureIntro. }
  split.
  - iIntros (b s S) "(%TT & (%HP & %Hpos) & H)". iDestruct (nodes_fit with "H") as %HB; [done|]. iPureIntro. by rewrite HP.
  - intros n Hm. cbn [mv cascading_contract]. apply (k_max K). intros E. apply Hm. cbn. by rewrite E.
  - intros b s n Hb Hr HW Hf. by apply KA.
  - intros b s S n Hb Hr HW Hf. by apply KA.
Qed.

Lemma tree_capable bad pl e : pl <> PPosix -> wf e = true -> (eboxed e = true -> bad EvFail || bad EvRefuse = true) ->
  exists T : tcontract bad pl e, capable (tc _ _ _ T) (fits e) (endless e).
Proof.
  intros Hpl. induction e as [| |Size|Size|Min Max e IH|e IH|p IHp f IHf|T p IHp f IHf|e IH|e IH|e IH|e IH|e IH|e IH]; cbn [wf eboxed]; intros Hwf Hb.
  - unshelve eexists (TC bad pl ENull (null_contract bad) _); [done|]. apply null_capable.
  - unshelve eexists (TC bad pl EMalloc (mal_contract bad pl Hpl) _); [done|]. by apply mal_capable.
  - unshelve eexists (TC bad pl (ELinear Size) (lin_contract Size bad) _); [done|]. apply lin_capable.
  - unshelve eexists (TC bad pl (EStack Size) (stack_contract Size bad) _); [done|]. apply stack_capable.
  - apply andb_true_iff in Hwf as [[H1 H2]%andb_true_iff Hwf].
    destruct (IH Hwf Hb) as [[C HC] K].
    unshelve eexists (TC bad pl (EFreelist Min Max e) (freelist_contract C Min Max (proj1 (N.leb_le _ _) H1) (proj1 (N.ltb_lt _ _) H2)) _).
    + intros Hm b s Hr. apply HC; [|done]. intros E. apply Hm. cbn. by rewrite E.
    + exact (freelist_capable C _ _ _ _ _ _ K).
  - apply andb_true_iff in Hwf as [[[[Hwf Ho]%andb_true_iff Hd]%andb_true_iff Hr]%andb_true_iff Hs].
    apply N.ltb_lt in Hs. rewrite -(den_size pl) in Hs.
    destruct (IH Hwf (fun _ => Hb eq_refl)) as [[C HC] K].
    unshelve eexists (TC bad pl (ECascading e) (cascading_contract C pl Hpl (Hb eq_refl) Hs (owns_of_Some _ (den_owns pl e Ho))
      (fun Hm b s => HC Hm b s (eready_always pl e Hr Hm b s))) _).
    + intros Hm b s. by destruct s.
    + exact (cascading_capable C _ _ _ _ _ _ _ _ K).
  - apply andb_true_iff in Hwf as [[H1 H2]%andb_true_iff Ho].
    destruct (IHp H1) as [[CP HCP] KP]; [intros E; apply Hb; by rewrite E|].
    destruct (IHf H2) as [[CF HCF] KF]; [intros E; apply Hb; rewrite E; apply orb_true_r|].
    unshelve eexists (TC bad pl (EFallback p f) (fallback_contract CP CF (den_owns pl p Ho)) _).
    + clear KP KF. cbn [eready_now]. intros Hm b s [Hr1 Hr2]%andb_true_iff. cbn in Hm |- *. unfold pair_max, omap2 in Hm.
      unfold pair_rdy. rewrite den_size. rewrite HCP; [|by destruct (a_max (den pl p))|done].
      rewrite HCF; [done| |done]. by destruct (a_max (den pl p)), (a_max (den pl f)).
    + exact (fallback_capable CP CF _ _ _ _ _ KP KF).
  - apply andb_true_iff in Hwf as [H1 H2].
    destruct (IHp H1) as [[CP HCP] KP]; [intros E; apply Hb; by rewrite E|].
    destruct (IHf H2) as [[CF HCF] KF]; [intros E; apply Hb; rewrite E; apply orb_true_r|].
    unshelve eexists (TC bad pl (ESegragator T p f) (segragator_contract CP CF T) _).
    + clear KP KF. cbn [eready_now]. intros Hm b s [Hr1 Hr2]%andb_true_iff. cbn in Hm |- *. unfold pair_max, omap2 in Hm.
      unfold pair_rdy. rewrite den_size. rewrite HCP; [|by destruct (a_max (den pl p))|done].
      rewrite HCF; [done| |done]. by destruct (a_max (den pl p)), (a_max (den pl f)).
    + exact (segragator_capable CP CF _ _ _ _ _ KP KF).
  - destruct (IH Hwf Hb) as [[C HC] K].
    unshelve eexists (TC bad pl (EOverflow e) (overflow_contract C) _).
    + intros Hm b s Hr. apply HC; [|done]. intros E. apply Hm. cbn. by rewrite E.
    + exact (overflow_capable C _ _ K).
  - apply andb_true_iff in Hwf as [Hwf Hs]. apply N.ltb_lt in Hs. rewrite -(den_size pl) in Hs.
    destruct (IH Hwf (fun _ => Hb eq_refl)) as [[C HC] K].
    unshelve eexists (TC bad pl (EShared e) (shared_contract C pl Hpl (Hb eq_refl) Hs) _).
    + intros Hm b s Hr. apply HC; [|done]. intros E. apply Hm. cbn. by rewrite E.
    + exact (shared_capable C _ _ _ _ _ _ K).
  - destruct (IH Hwf Hb) as [[C HC] K]. exists (TC bad pl (EThreaded e) (forwarding_contract C) HC). exact (forwarding_capable C _ _ K).
  - destruct (IH Hwf Hb) as [[C HC] K]. exists (TC bad pl (EReference e) (forwarding_contract C) HC). exact (forwarding_capable C _ _ K).
  - destruct (IH Hwf Hb) as [[C HC] K]. exists (TC bad pl (EGlobal e) (forwarding_contract C) HC). exact (forwarding_capable C _ _ K).
  - destruct (IH Hwf Hb) as [[C HC] K].
    unshelve eexists (TC bad pl (EChecked e) (checked_contract C) _).
    + intros Hm b s Hr. apply HC; [|done]. intros E. apply Hm. cbn. by rewrite E.
    + exact (checked_capable C _ _ K).
Qed.

Lemma endless_fits e n : endless e n = true -> fits e n = true.
Proof.
  revert n. induction e as [| | | |Min Max e IH|e IH|p IHp f IHf|T p IHp f IHf|e IH|e IH|e IH|e IH|e IH|e IH]; intros n; cbn [endless fits]; auto; try done.
  - intros [H1 H2]%andb_true_iff. by rewrite H1 (IH _ H2).
  - intros [H|H]%orb_true_iff; [by rewrite (IHp _ H)|]. rewrite (IHf _ H). apply orb_true_r.
  - destruct (n <=? T); auto.
Qed.

(** * Whole programs *)
Lemma delete_past (bl : list (N * N)) i : bl !! i = None -> delete i bl = bl.
Proof. revert i. induction bl as [|y l IH]; intros [|i]; cbn; intros H; [done..|]. f_equal. by apply IH. Qed.

Lemma book_inrange (k : book) i off (f : book) : bk_blocks f = bk_blocks k ->
  bk_blocks (if in_range i off (bk_blocks k) then f else k) = bk_blocks k.
Proof. by destruct (in_range _ _ _). Qed.

Lemma step_book A b ready o s k w ob s' bl' w' e :
  step A b ready o s (bk_blocks k) w = Ok (ob, (s', bl')) w' e -> bl' = bk_blocks (book_step k o ob).
Proof.
  destruct o as [n|i|i off v|i off|q| |i off v|i off]; cbn [step book_step]; intros H.
  - inv_bind H as [p s1] H1 H2. inv_ret H2. by destruct (p =? 0).
  - destruct (bk_blocks k !! i) as [[p n]|] eqn:Hi.
    + inv_bind H as a H1 H2. by inv_ret H2.
    + inv_ret H. by rewrite delete_past.
  - assert (bl' = bk_blocks k) as ->; [|by destruct ob].
    destruct (bk_blocks k !! i) as [[p n]|]; [destruct (off <? n)|]; try inv_bind H as ? H1 H2;
      match goal with H : ret _ _ = _ |- _ => by inv_ret H end.
  - assert (bl' = bk_blocks k) as ->; [|by destruct ob].
    destruct (bk_blocks k !! i) as [[p n]|]; [destruct (off <? n)|]; try inv_bind H as ? H1 H2;
      match goal with H : ret _ _ = _ |- _ => by inv_ret H end.
  - assert (bl' = bk_blocks k) as ->; [|by destruct ob]. destruct (a_owns A); by inv_ret H.
  - assert (bl' = bk_blocks k) as ->; [|by destruct ob].
    destruct (a_max A); [destruct (ready b s)|]; try inv_bind H as ? H1 H2;
      match goal with H : ret _ _ = _ |- _ => by inv_ret H end.
  - rewrite book_inrange //. destruct (bk_blocks k !! i) as [[p n]|]; [destruct (off <? n)|]; try inv_bind H as ? H1 H2;
      match goal with H : ret _ _ = _ |- _ => by inv_ret H end.
  - rewrite book_inrange //. destruct (bk_blocks k !! i) as [[p n]|]; [destruct (off <? n)|]; try inv_bind H as ? H1 H2;
      match goal with H : ret _ _ = _ |- _ => by inv_ret H end.
Qed.

Section sessions.
  Context {bad : event -> bool} {A : alloc} {req : N -> bool}.
  Context (CA : contract bad A req) (b : N) (ready : N -> a_st A -> bool).
  Context (Hready : a_max A <> None -> forall b s, ready b s = true -> rdy CA b s = true).
  Context (mF : gmap N cell) (HmF : mF !! 0 = None).
  Context (fit alw : N -> bool) (K : capable CA fit alw) (Hsub : forall n, alw n = true -> fit n = true).

  (** What the answer to a request must be. *)
  Definition answer (bl : list (N * N)) (o : op) (ob : obs) : Prop :=
    match o with
    | OAlloc n =>
      (fit n = false -> ob = ObPtr 0) /\
      (bad EvRefuse = true -> alw n = true \/ fit n = true /\ bl = [] -> exists p, ob = ObPtr p /\ p <> 0)
    | _ => True
    end.

  Lemma wp_trivial {X} (m : M X) (Q : X -> hpropI) (φ : X -> Prop) : (forall a, φ a) -> wp bad m Q ⊢ wp bad m (fun a => ⌜φ a⌝).
  Proof. intros H. apply wp_mono. intros a. iIntros "_". iPureIntro. apply H. Qed.

  Lemma alloc_answer s bl n : req n = true -> n < W ->
    J CA b s bl ⊢ wp bad (a_alloc A b s n) (fun ps => ⌜answer bl (OAlloc n) (ObPtr (fst ps))⌝).
  Proof.
    intros Hr Hn. cbn [answer]. destruct (fit n) eqn:Hf.
    - assert (KS : forall P : hpropI, (P ⊢ wp bad (a_alloc A b s n) (fun ps => ⌜fst ps <> 0⌝)) ->
        P ⊢ wp bad (a_alloc A b s n) (fun ps => ⌜(true = false -> ObPtr (fst ps) = ObPtr 0) /\
          (bad EvRefuse = true -> alw n = true \/ true = true /\ bl = [] -> exists p, ObPtr (fst ps) = ObPtr p /\ p <> 0)⌝)).
      { intros P ->. apply wp_mono. intros ps. iIntros "%H". iPureIntro. split; [done|]. intros _ _. by eexists. }
      destruct (bad EvRefuse) eqn:Hb.
      2:{ rewrite (c_alloc _ _ _ CA b s bl n Hr Hn). apply wp_trivial. done. }
      destruct (alw n) eqn:Ha; [apply KS; by apply (k_any K)|].
      destruct bl as [|x bl]; [apply KS; by apply (k_rest K)|].
      rewrite (c_alloc _ _ _ CA b s _ n Hr Hn). apply wp_trivial. intros ps. split; [done|]. by intros _ [?|[_ ?]].
    - rewrite (k_refuse K b s bl n Hr Hn Hf). apply wp_mono. intros ps. iIntros "[%H _]". iPureIntro. rewrite H. split; [done|].
      intros _ [H'|[H' _]]; [|done]. apply Hsub in H'. congruence.
  Qed.

  Lemma step_answer o s L bl k : op_ok (req := req) o -> abs L bl -> shape L = bk_blocks k ->
    J CA b s (shape L) ∗ blocks L ∗ own mF ⊢ wp bad (step A b ready o s (shape L)) (fun r =>
      fin CA b mF o bl r ∗ ⌈answer (bk_blocks k) o (fst r)⌉ ∗ ⌈snd (snd r) = bk_blocks (book_step k o (fst r))⌉).
  Proof.
    intros Hok HA Hk.
    assert (H1 : J CA b s (shape L) ∗ blocks L ∗ own mF ⊢ wp bad (step A b ready o s (shape L)) (fun r =>
      fin CA b mF o bl r ∗ ⌈answer (bk_blocks k) o (fst r)⌉)).
    { iIntros "H". iApply wp_also. iSplit; [by iApply (step_spec CA b ready Hready mF HmF)|].
      destruct o as [n|i|i off v|i off|q| |i off v|i off];
        try (iApply wp_trivial; [done|by iApply (step_spec CA b ready Hready mF HmF with "H")]).
      destruct Hok as [Hr Hn]. cbn [step]. iDestruct "H" as "(HJ & HL & HF)". iApply wp_bind.
      iApply wp_strong_mono. iSplitL "HJ"; [iApply sure_split; by iApply (alloc_answer s (shape L) n Hr Hn)|].
      iIntros ([p s']) "[%H T]". iApply wp_ret. iPureIntro. cbn [fst] in *. by rewrite -Hk. }
    iIntros "H". rewrite H1. iApply wp_strong_mono. iSplitL.
    - iApply (wp_fact bad _ _ (fun r => snd (snd r) = bk_blocks (book_step k o (fst r))) with "H"). intros w [ob [s' bl']] w' e Hs. right. rewrite Hk in Hs. exact (step_book _ _ _ _ _ _ _ _ _ _ _ _ Hs).
    - iIntros (r) "[[$ $] $]".
  Qed.

  Fixpoint answers (k : book) (ops : list op) (os : list obs) : Prop :=
    match ops, os with
    | o :: ops, ob :: os => answer (bk_blocks k) o ob /\ answers (book_step k o ob) ops os
    | [], [] => True
    | _, _ => False
    end.

  Lemma run_answers ops s L bl k : Forall (op_ok (req := req)) ops -> abs L bl -> shape L = bk_blocks k ->
    J CA b s (shape L) ∗ blocks L ∗ own mF ⊢ wp bad (run A b ready ops s (shape L)) (fun r =>
      ∃ L' bl', ⌈answers k ops (fst r) /\ abs L' bl' /\ snd (snd r) = shape L'⌉ ∗
        J CA b (fst (snd r)) (shape L') ∗ blocks L' ∗ own mF).
  Proof.
    revert s L bl k. induction ops as [|o ops IH]; intros s L bl k Hok HA Hk; cbn [run].
    - iIntros "H". iApply wp_ret. iExists L, bl. cbn [fst snd answers]. by iFrame.
    - apply Forall_cons_iff in Hok as [Hok0 Hok]. iIntros "H". iApply wp_bind. iApply wp_strong_mono.
      iSplitL; [by iApply (step_answer o s L bl k)|].
      iIntros ([ob [s' bl']]) "((%L' & %abl' & (%Hc & %HA' & %Hbl) & H) & %Ha & %Hb)". cbn [fst snd] in *. subst bl'.
      iApply wp_bind. iApply wp_strong_mono. iSplitL; [by iApply (IH s' L' abl' (book_step k o ob))|].
      iIntros ([os [s'' bl'']]) "(%L'' & %abl'' & (%Hc' & %HA'' & %Hbl') & H)". cbn [fst snd] in *. iApply wp_ret.
      iExists L'', abl''. cbn [fst snd answers]. iFrame. by iPureIntro.
  Qed.

  Lemma session_answers ops : b <> 0 -> b mod 16 = 0 -> b + a_size A < W -> Forall (op_ok (req := req)) ops ->
    raw b (a_size A) ∗ own mF ⊢ wp bad (session A b ready ops) (fun os =>
      ⌈answers (Book [] 0 0) ops os⌉ ∗ raw b (a_size A) ∗ own mF).
  Proof.
    iIntros (H1 H2 H3 Hok) "[Hr HF]". unfold session. iApply wp_bind. iApply wp_strong_mono.
    iSplitL "Hr"; [by iApply (c_init _ _ _ CA)|]. iIntros (s) "HJ".
    iApply wp_bind. iApply wp_strong_mono. iSplitL.
    { iApply (run_answers ops s [] [] (Book [] 0 0) Hok); [constructor|done|]. iFrame. unfold blocks. by rewrite big_sepL_nil. }
    iIntros ([os [s' bl]]) "(%L & %abl & (%Hc & %HA & %Hbl) & HJ & HL & HF)". cbn [fst snd] in *. subst bl.
    iApply wp_bind. iApply wp_strong_mono. iSplitL "HJ HL"; [iApply (free_all_spec CA b _ _ _ HA); iFrame|].
    iIntros (s'') "HJ". iApply wp_bind. iApply wp_strong_mono. iSplitL "HJ"; [by iApply (c_dtor _ _ _ CA)|].
    iIntros ([]) "Hr". iApply wp_ret. by iFrame.
  Qed.
End sessions.

Lemma answers_at bad fit alw k ops os i o ob : answers (bad := bad) fit alw k ops os -> ops !! i = Some o -> os !! i = Some ob ->
  answer (bad := bad) fit alw (bk_blocks (keep_book k (take i ops) (take i os))) o ob.
Proof.
  revert k os i. induction ops as [|o' ops IH]; intros k os i H; [done|]. destruct os as [|ob' os]; [done|].
  destruct H as [H0 H]. destruct i as [|i]; cbn.
  - by intros [= <-] [= <-].
  - intros H1 H2. by apply (IH (book_step k o' ob') os i).
Qed.
Lemma answers_length bad fit alw k ops os i o : answers (bad := bad) fit alw k ops os -> ops !! i = Some o -> exists ob, os !! i = Some ob.
Proof.
  revert k os i. induction ops as [|o' ops IH]; intros k os i H; [done|]. destruct os as [|ob' os]; [done|].
  destruct H as [H0 H]. destruct i as [|i]; cbn; [by eexists|]. by eapply IH.
Qed.

Lemma tree_answers bad pl e b ops w : pl <> PPosix -> wf e = true -> (eboxed e = true -> bad EvFail || bad EvRefuse = true) ->
  place b (esize e) w -> asks (ereq pl e) ops ->
  match session (den pl e) b (eready_now pl e) ops w with
  | Ok os _ evs => existsb bad evs = true \/ answers (bad := bad) (fits e) (endless e) (Book [] 0 0) ops os
  | Err _ evs => existsb bad evs = true
  end.
Proof.
  intros Hpl Hwf Hb Hp Hreq. destruct (tree_capable bad pl e Hpl Hwf Hb) as [[C HC] K]. cbn [tc] in K.
  rewrite -(den_size pl e) in Hp. destruct Hp as (H1&H2&H3&Hst&H0). set (A := den pl e) in *.
  set (n := N.to_nat (a_size A)). set (mF := clear b n (mem (st w))).
  assert (HmF0 : mF !! 0 = None).
  { unfold mF. rewrite clear_lookup. by destruct (_ && _). }
  pose proof (session_answers C b (eready_now pl e) HC mF HmF0 _ _ K (endless_fits e) ops H1 H2 H3 (ops_requests _ _ Hreq)) as Hwp.
  assert (Hpre : own (mem (st w)) ⊢ raw b (a_size A) ∗ own mF).
  { rewrite (own_take (mem (st w)) b n).
    2:{ intros i Hi. destruct (Hst i) as (c&Hc&_); [lia|]. by exists c. }
    iIntros "[Hc $]". iApply (raw_intro with "Hc"); [rewrite cells_length; lia|].
    apply cells_Forall. intros i Hi. apply Hst. lia. }
  pose proof (wp_adequate bad (session A b (eready_now pl e) ops) (fun os m =>
    answers (bad := bad) (fits e) (endless e) (Book [] 0 0) ops os) w) as Had.
  lapply Had; clear Had.
  - intros Had. destruct (session A b _ ops w) as [os w' evs|u evs]; [|done].
    destruct Had as [Hbad|(Hben&Hchk&Ht)]; [by left|by right].
  - rewrite Hpre. iIntros "H". iApply wp_strong_mono. iSplitL; [by iApply Hwp|].
    iIntros (os') "(%Hchk & (%cs & (%Hl & %Hd) & Hr) & HF)".
    iDestruct (own_put with "[$HF $Hr]") as "[%Hn H]". iExists _. iFrame "H". by iPureIntro.
Qed.

Lemma existsb_or (p q : event -> bool) l : existsb (fun x => p x || q x) l = existsb p l || existsb q l.
Proof. induction l as [|x l IH]; [done|]. cbn. rewrite IH. destruct (p x), (q x), (existsb p l); done. Qed.

Lemma tree_capacity pl e b ops w :
  pl <> PPosix -> wf e = true -> place b (esize e) w -> asks (ereq pl e) ops ->
  match session (den pl e) b (eready_now pl e) ops w with
  | Ok os _ evs =>
    refuses (fits e) ops os /\
    (existsb is_refuse evs = false -> revives (fits e) ops os /\ serves (endless e) ops os)
  | Err _ evs => existsb is_refuse evs = true
  end.
Proof.
  intros Hpl Hwf Hp Ha.
  pose proof (tree_answers is_fail pl e b ops w Hpl Hwf (fun _ => eq_refl) Hp Ha) as H1.
  pose proof (tree_answers (fun ev => is_refuse ev || is_fail ev) pl e b ops w Hpl Hwf (fun _ => eq_refl) Hp Ha) as H2.
  pose proof (session_firm _ (tree_firm pl e Hpl Hwf) b (eready_now pl e) ops w) as Hf.
  destruct (session _ _ _ _ _) as [os w' evs|u evs].
  - rewrite Hf in H1. destruct H1 as [H1|H1]; [done|]. split.
    + intros i n Hi Hn. destruct (answers_length _ _ _ _ _ _ _ _ H1 Hi) as [ob Hob].
      destruct (answers_at _ _ _ _ _ _ _ _ _ H1 Hi Hob) as [H _]. by rewrite Hob (H Hn).
    + intros Hr. rewrite existsb_or Hf Hr in H2. destruct H2 as [H2|H2]; [done|]. split.
      * intros i n Hi Hn He. destruct (answers_length _ _ _ _ _ _ _ _ H2 Hi) as [ob Hob].
        destruct (answers_at _ _ _ _ _ _ _ _ _ H2 Hi Hob) as [_ H]. destruct (H eq_refl) as (p&->&Hp'); [by right|]. by exists p.
      * intros i n Hi Hn. destruct (answers_length _ _ _ _ _ _ _ _ H2 Hi) as [ob Hob].
        destruct (answers_at _ _ _ _ _ _ _ _ _ H2 Hi Hob) as [_ H]. destruct (H eq_refl) as (p&->&Hp'); [by left|]. by exists p.
  - by apply Hf.
Qed.

Lemma capacity pl e b ops w :
  pl <> PPosix -> wf e = true -> place b (esize e) w -> asks (ereq pl e) ops ->
  match session (den pl e) b (eready_now pl e) ops w with
  | Ok os _ evs =>
    refuses (fits e) ops os /\ (existsb is_refuse evs = false -> revives (fits e) ops os)
  | Err _ evs => existsb is_refuse evs = true
  end.
Proof. intros H1 H2 H3 H4. pose proof (tree_capacity pl e b ops w H1 H2 H3 H4) as H. destruct (session _ _ _ _ _); naive_solver. Qed.

Lemma supply pl e b ops w :
  pl <> PPosix -> wf e = true -> place b (esize e) w -> asks (ereq pl e) ops ->
  match session (den pl e) b (eready_now pl e) ops w with
  | Ok os _ evs => existsb is_refuse evs = false -> serves (endless e) ops os
  | Err _ evs => existsb is_refuse evs = true
  end.
Proof. intros H1 H2 H3 H4. pose proof (tree_capacity pl e b ops w H1 H2 H3 H4) as H. destruct (session _ _ _ _ _); naive_solver. Qed.

(** malloc refuses everything. *)
Definition w_poor (n : nat) : world := World (st (w_raw n)) (fun _ => 0) 0.

Lemma capacity_example :
  let e := EFallback (EStack 64) (EFreelist 0 48 EMalloc) in
  let ops := [OAlloc 65; OAlloc 64; OAlloc 48; OAlloc 64; OFree 0; OFree 0; OAlloc 49] in
  wf e = true /\ place 4096 (esize e) (w_raw 64) /\ asks (ereq PGeneric e) ops /\
  map (fits e) [64; 65; 48; 49] = [true; false; true; true] /\
  outcome (session (den PGeneric e) 4096 (eready_now PGeneric e) ops (w_raw 64)) =
    Some ([ObPtr 0; ObPtr 4096; ObPtr 65552; ObPtr 0; ObUnit; ObUnit; ObPtr 4096], []).
Proof.
  split; [by vm_compute|]. split; [by apply (w_raw_place 64)|].
  split; [repeat (apply Forall_cons; [by vm_compute|]); constructor|]. split_and!; by vm_compute.
Qed.

Lemma supply_example :
  let e := EOverflow (ECascading (ELinear 256)) in
  let ops := [OAlloc 128; OAlloc 128; OFree 1; OAlloc 129; OAlloc 128] in
  wf e = true /\ place 4096 (esize e) (w_raw 0) /\ asks (ereq PMalloc e) ops /\
  map (endless e) [128; 129] = [true; false] /\
  outcome (session (den PMalloc e) 4096 (eready_now PMalloc e) ops (w_raw 0)) =
    Some ([ObPtr 65600; ObPtr 131136; ObUnit; ObPtr 0; ObPtr 196672], [EvLeak 129]) /\
  match session (den PMalloc e) 4096 (eready_now PMalloc e) ops (w_poor 0) with
  | Ok _ _ _ => None
  | Err u evs => Some (u, evs)
  end = Some (UBNull, [EvRefuse; EvFail]).
Proof.
  split; [by vm_compute|]. split; [by apply (w_raw_place 0)|].
  split; [repeat (apply Forall_cons; [by vm_compute|]); constructor|]. split_and!; by vm_compute.
Qed.
