(** The three containers over shared handles. *)
From iris.proofmode Require Import tactics.
From Verif Require Import Base Mem Sep Wp Allocators Contract Service Client Env EnvProofs SharedCont SharedContProofs
  Vector Array ElemProofs RepProofs VectorProofs ArrayProofs.

Local Open Scope N_scope.

Lemma put_back (als : gmap nat nat) c src g a : als !! src = Some a -> (c = src -> g = a) -> <[src := a]> (<[c := g]> als) = <[c := g]> als.
Proof.
  intros Ha Hc. destruct (decide (c = src)) as [->|Hne]; [rewrite insert_insert; by rewrite Hc|].
  apply insert_id. by rewrite lookup_insert_ne.
Qed.

Section vector.
  Context {bad : event -> bool} {A : alloc} {req : N -> bool}.
  Context (CA : service bad A req) (H0 : a_size A = 0) (sz : N) (Hsz : 0 < sz).
  Local Notation K := (vector_cont A sz).
  Local Notation Iv D := (cinv CA 16 sz D (vec_of sz)).

  Lemma rep_D D D' y : rep sz D y -> s_al (fst y) ∈ D' -> rep sz D' y.
  Proof. intros [? ? ? ? ? ? ?] ?. by split. Qed.
  Lemma reps_D D D' Z : map_Forall (fun _ => rep sz D) Z -> within (s_al <$> (fst <$> Z)) D' -> map_Forall (fun _ => rep sz D') Z.
  Proof. intros HZ Hw c y Hy. eapply rep_D; [by eapply HZ|]. apply (Hw c). by rewrite !lookup_fmap Hy. Qed.

  Lemma owners_bl D (Z : gmap nat (svec * list (list cell))) : map_Forall (fun _ => rep sz D) Z -> owners (bl Z) (s_al <$> (fst <$> Z)).
  Proof.
    intros HZ. unfold owners, bl. apply Forall_flat_map, list.Forall_forall. intros [c y] Hc. apply elem_of_map_to_list in Hc.
    cbn [snd]. unfold one. destruct (_ =? _); [constructor|]. repeat constructor. cbn [fst]. exists c. by rewrite !lookup_fmap Hc.
  Qed.

  Lemma v_open D E vs m : Iv D E vs m ⊢ ∃ B, ⌈owners B (s_al <$> m)⌉ ∗ inv CA 16 D E B ∗
    (∀ D' E', ⌈within (s_al <$> m) D'⌉ -∗ inv CA 16 D' E' B -∗ Iv D' E' vs m).
  Proof.
    iIntros "H". iDestruct "H" as (Z) "[%HH H]". destruct HH as (->&->&HZ). iExists (bl Z). iFrame "H".
    iSplit; [iPureIntro; by eapply owners_bl|]. iIntros (D' E') "%Hw H". iExists Z. iFrame "H". iPureIntro. split_and!; [done|done|].
    by eapply reps_D.
  Qed.

  Lemma v_pure D E vs m : Iv D E vs m ⊢
    ⌜v_al <$> vs = s_al <$> m /\ v_info sz <$> vs = s_info <$> m /\ within (s_al <$> m) D⌝.
  Proof.
    iIntros "H". iDestruct "H" as (Z) "[%HH _]". destruct HH as (->&->&HZ). iPureIntro. split_and!.
    - apply map_eq. intros c. rewrite !lookup_fmap. by destruct (Z !! c).
    - by apply infos_of.
    - intros c g Hg. rewrite !lookup_fmap in Hg. destruct (Z !! c) as [y|] eqn:Hy; [|done]. injection Hg as <-. by apply (HZ c y Hy).
  Qed.

  Lemma v_do k D E vs m o : vlegal sz k (s_info <$> m) o = true -> (forall c h, v_kind o = KBorn c h -> h ∈ D) ->
    Iv D E vs m ⊢ wp bad (vdo A 16 sz o (E, vs)) (fun r => ∃ m', ⌈vcheck sz k o (fst r) m m'⌉ ∗ Iv D (fst (snd r)) (snd (snd r)) m').
  Proof.
    intros HL Hd. iIntros "H". iDestruct (v_pure with "H") as %(_&Hi&_).
    iPoseProof (vstep_spec CA 16 sz D Hsz k o E vs m with "H") as "H".
    - intros h Ho _. destruct o; cbn in Ho; try done; injection Ho as <-; by eapply Hd.
    - unfold vstep. cbn [snd]. rewrite Hi HL. done.
  Qed.

  Lemma v_assign k D E vs m o c src x : vlegal sz k (s_info <$> m) o = true -> v_kind o = KAssign c src -> vs !! c = Some x ->
    Iv D E vs m ⊢ wp bad (release A 16 sz x E) (fun E' => ∃ B, ⌈owners B (delete c (s_al <$> m))⌉ ∗ inv CA 16 D E' B ∗
      (∀ D' E'', ⌈within (delete c (s_al <$> m)) D' /\ (forall g, (s_al <$> m) !! src = Some g -> g ∈ D')⌉ -∗ inv CA 16 D' E'' B -∗
        wp bad (v_after A sz o (E'', vs)) (fun r => ∃ m', ⌈vcheck sz k o (fst r) m m'⌉ ∗ Iv D' (fst (snd r)) (snd (snd r)) m'))).
  Proof.
    intros HL Hk Hx. iIntros "H". iDestruct "H" as (Z) "[%HH H]". destruct HH as (->&->&HZ).
    rewrite lookup_fmap in Hx. destruct (Z !! c) as [[y es]|] eqn:Hy; [|done]. injection Hx as <-. cbn [compose fst].
    iDestruct (inv_perm _ _ _ _ _ _ (bl_delete Z c _ Hy) with "H") as "H".
    iApply wp_strong_mono. iSplitL; [iApply (release_spec CA 16 sz D Hsz with "H"); by apply (HZ c)|].
    iIntros (E') "H". iExists _. iFrame "H". iSplitR.
    { iPureIntro. rewrite -!fmap_delete. eapply (owners_bl D). by apply map_Forall_delete. }
    iIntros (D' E'') "[%Hw %Hs] H". rewrite -!fmap_delete in Hw.
    assert (HZ' : map_Forall (fun _ => rep sz D') (delete c Z)) by (eapply reps_D; [by apply map_Forall_delete|done]).
    assert (Hsrc : exists y0 es0, Z !! src = Some (y0, es0)).
    { assert (has (s_info <$> (fst <$> Z)) src = true) as Hh.
      { destruct o; try done; injection Hk as -> ->; cbn in HL; repeat (apply andb_true_iff in HL as [HL ?]); done. }
      apply has_spec in Hh as [y0 Hy0]. rewrite lookup_fmap in Hy0. destruct (Z !! src) as [[? ?]|]; [eauto|done]. }
    destruct Hsrc as (y0&es0&Hy0).
    assert (Hr0 : rep sz D' (y0, es0)).
    { eapply rep_D; [by apply (HZ src)|]. apply Hs. by rewrite !lookup_fmap Hy0. }
    assert (Hg0 : s_get src (fst <$> Z) = y0) by (unfold s_get; by rewrite lookup_fmap Hy0).
    unfold vcheck. rewrite HL. destruct o; try done; injection Hk as -> ->; cbn [v_after vcheck_do]; rewrite Hg0.
    - iApply (vassign_spec CA 16 sz D' Hsz _ _ _ _ y es y0 es0 with "H"); try done.
      cbn in HL. apply andb_true_iff in HL as [_ HL]. apply orb_true_iff in HL as [HL|HL].
      + left. by apply negb_true_iff, bool_decide_eq_false in HL.
      + destruct (decide (c = src)) as [->|Hne]; [right|by left]. rewrite look_spec Hg0 in HL. by apply N.eqb_eq in HL.
    - iApply (vmove_assign_spec CA 16 sz D' Hsz _ _ _ _ y es y0 es0 with "H"); done.
  Qed.

  Lemma v_with_kind o c h g : v_kind o = KBorn c h -> v_kind (v_with g o) = KBorn c g.
  Proof. destruct o; cbn; intros; congruence. Qed.

  Lemma v_needs k infos o : vlegal sz k infos o = true -> needs (v_kind o) infos.
  Proof.
    assert (Hh : forall c, has infos c = true -> is_Some (infos !! c)) by (intros c H; by apply bool_decide_eq_true in H).
    assert (Hf : forall c, has infos c = false -> infos !! c = None).
    { intros c H. apply bool_decide_eq_false in H. by apply eq_None_not_Some. }
    intros HL. destruct o; cbn in *; unfold new_name in HL; try done;
      repeat match goal with
      | H : (_ && _)%bool = true |- _ => let L := fresh "L" in let L' := fresh "L" in apply andb_true_iff in H as [L L']
      | H : negb _ = true |- _ => apply negb_true_iff in H
      end; eauto.
  Qed.

  Lemma al_ins (m : gmap nat svec) c x : s_al <$> <[c := x]> m = <[c := s_al x]> (s_al <$> m).
  Proof. apply fmap_insert. Qed.
  Lemma al_get (m : gmap nat svec) c : has (s_info <$> m) c = true -> (s_al <$> m) !! c = Some (s_al (s_get c m)).
  Proof. intros H. apply has_spec in H as [x Hx]. unfold s_get. by rewrite lookup_fmap Hx. Qed.
  Lemma al_become (m m' : gmap nat svec) c n r l : has (s_info <$> m) c = true -> become c n r l m m' -> s_al <$> m' = s_al <$> m.
  Proof. intros Hh (x&->&_&Ha&_). rewrite al_ins Ha. apply insert_id. by apply al_get. Qed.
  Lemma al_self (m m' : gmap nat svec) c x : has (s_info <$> m) c = true -> s_al x = s_al (s_get c m) -> s_al <$> <[c := x]> m = s_al <$> m.
  Proof. intros Hh Ha. rewrite al_ins Ha. apply insert_id. by apply al_get. Qed.

  Lemma v_effect k o ob m m' : vlegal sz k (s_info <$> m) o = true -> vcheck sz k o ob m m' ->
    s_al <$> m' = effect (v_kind o) (s_al <$> m).
  Proof.
    intros HL. unfold vcheck. rewrite HL. destruct o; cbn [vlegal vcheck_do v_kind effect] in *; unfold new_name in HL;
      repeat match goal with
      | H : (_ && _)%bool = true |- _ => let L := fresh "L" in let L' := fresh "L" in apply andb_true_iff in H as [L L']
      | H : negb _ = true |- _ => apply negb_true_iff in H
      end; intros Hc;
      repeat match goal with
      | H : _ /\ _ |- _ => destruct H
      | H : exists _, _ |- _ => destruct H
      | H : born _ _ _ _ _ |- _ => destruct H as (?&->&_&?&_&_)
      | H : ?x = _ |- _ => subst x
      end; rewrite ?al_ins ?fmap_delete; try done.
    all: try (by eapply al_become).
    all: try match goal with L : has _ ?s = true |- context [default _ (_ !! ?s)] => rewrite (al_get _ s L); cbn [default id] end.
    all: try (by f_equal).
    all: try (rewrite put_back; [by f_equal|by apply al_get|]; first [done|congruence]).
    cbn [s_al]. apply insert_id. by apply al_get.
  Qed.

  Lemma v_end D E m : Iv D E ∅ m ⊢ inv CA 16 D E [].
  Proof.
    iIntros "H". iDestruct "H" as (Z) "[%HH H]". destruct HH as (HE&_&_). symmetry in HE. apply fmap_empty_inv in HE as ->.
    by rewrite bl_empty.
  Qed.

  Lemma vector_sharing ops w : N.of_nat (length ops) + 1 < W -> sharing_ok K s_al s_info (vcheck sz) bad ops w.
  Proof.
    apply (sharing_safe CA H0 K s_al s_info (vcheck sz) (fun D => Iv D)).
    - intros. apply cinv_init.
    - apply v_end.
    - apply v_pure.
    - apply v_open.
    - apply v_do.
    - apply v_assign.
    - apply v_with_kind.
    - apply v_needs.
    - apply v_effect.
  Qed.
End vector.

Section array.
  Context {bad : event -> bool} {A : alloc} {req : N -> bool}.
  Context (CA : service bad A req) (H0 : a_size A = 0) (sz : N) (Hsz : 0 < sz).
  Local Notation K := (array_cont A sz).
  Local Notation Iv D := (ainv CA 16 sz D).

  Lemma a_open D E vs m : Iv D E vs m ⊢ ∃ B, ⌈owners B (s_al <$> m)⌉ ∗ inv CA 16 D E B ∗
    (∀ D' E', ⌈within (s_al <$> m) D'⌉ -∗ inv CA 16 D' E' B -∗ Iv D' E' vs m).
  Proof.
    iIntros "[%HT H]". iDestruct "H" as (Z) "[%HH H]". destruct HH as (->&->&HZ). iExists (bl Z). iFrame "H".
    iSplit; [iPureIntro; by eapply owners_bl|]. iIntros (D' E') "%Hw H". iSplitR; [done|]. iExists Z. iFrame "H". iPureIntro. split_and!; [done|done|].
    by eapply reps_D.
  Qed.

  Lemma a_pure D E vs m : Iv D E vs m ⊢
    ⌜r_alc <$> vs = s_al <$> m /\ a_info sz <$> vs = s_info <$> m /\ within (s_al <$> m) D⌝.
  Proof.
    iIntros "[%HT H]". iDestruct "H" as (Z) "[%HH _]". destruct HH as (->&->&HZ). iPureIntro. split_and!.
    - apply map_eq. intros c. rewrite !lookup_fmap. by destruct (Z !! c).
    - by apply ainfos_of.
    - intros c g Hg. rewrite !lookup_fmap in Hg. destruct (Z !! c) as [y|] eqn:Hy; [|done]. injection Hg as <-. by apply (HZ c y Hy).
  Qed.

  Lemma a_do k D E vs m o : alegal sz k (s_info <$> m) o = true -> (forall c h, a_kind o = KBorn c h -> h ∈ D) ->
    Iv D E vs m ⊢ wp bad (ado A 16 sz o (E, vs)) (fun r => ∃ m', ⌈acheck sz k o (fst r) m m'⌉ ∗ Iv D (fst (snd r)) (snd (snd r)) m').
  Proof.
    intros HL Hd. iIntros "H". iDestruct (a_pure with "H") as %(_&Hi&_).
    iPoseProof (astep_spec CA 16 sz D Hsz k o E vs m with "H") as "H".
    - intros h Ho _. destruct o; cbn in Ho; try done; injection Ho as <-; by eapply Hd.
    - unfold astep. cbn [snd]. rewrite Hi HL. done.
  Qed.

  Lemma a_assign k D E vs m o c src x : alegal sz k (s_info <$> m) o = true -> a_kind o = KAssign c src -> vs !! c = Some x ->
    Iv D E vs m ⊢ wp bad (arelease A 16 sz x E) (fun E' => ∃ B, ⌈owners B (delete c (s_al <$> m))⌉ ∗ inv CA 16 D E' B ∗
      (∀ D' E'', ⌈within (delete c (s_al <$> m)) D' /\ (forall g, (s_al <$> m) !! src = Some g -> g ∈ D')⌉ -∗ inv CA 16 D' E'' B -∗
        wp bad (a_after A sz o (E'', vs)) (fun r => ∃ m', ⌈acheck sz k o (fst r) m m'⌉ ∗ Iv D' (fst (snd r)) (snd (snd r)) m'))).
  Proof.
    intros HL Hk Hx. iIntros "[%HT H]". iDestruct "H" as (Z) "[%HH H]". destruct HH as (->&->&HZ).
    rewrite lookup_fmap in Hx. destruct (Z !! c) as [[y es]|] eqn:Hy; [|done]. injection Hx as <-. cbn [compose fst].
    assert (Hty : tight y) by (apply (HT c); by rewrite lookup_fmap Hy).
    iDestruct (inv_perm _ _ _ _ _ _ (bl_delete Z c _ Hy) with "H") as "H".
    iApply wp_strong_mono. iSplitL; [iApply (arelease_spec CA 16 sz D Hsz with "H"); [by apply (HZ c)|done]|].
    iIntros (E') "H". iExists _. iFrame "H". iSplitR.
    { iPureIntro. rewrite -!fmap_delete. eapply (owners_bl sz D). by apply map_Forall_delete. }
    iIntros (D' E'') "[%Hw %Hs] H". rewrite -!fmap_delete in Hw.
    assert (HZ' : map_Forall (fun _ => rep sz D') (delete c Z)) by (eapply reps_D; [by apply map_Forall_delete|done]).
    assert (Hsrc : exists y0 es0, Z !! src = Some (y0, es0)).
    { assert (has (s_info <$> (fst <$> Z)) src = true) as Hh.
      { destruct o; try done; injection Hk as -> ->; cbn in HL; repeat (apply andb_true_iff in HL as [HL ?]); done. }
      apply has_spec in Hh as [y0 Hy0]. rewrite lookup_fmap in Hy0. destruct (Z !! src) as [[? ?]|]; [eauto|done]. }
    destruct Hsrc as (y0&es0&Hy0).
    assert (Hr0 : rep sz D' (y0, es0)).
    { eapply rep_D; [by apply (HZ src)|]. apply Hs. by rewrite !lookup_fmap Hy0. }
    assert (Hg0 : s_get src (fst <$> Z) = y0) by (unfold s_get; by rewrite lookup_fmap Hy0).
    unfold acheck. rewrite HL. destruct o; try done; injection Hk as -> ->; cbn [a_after acheck_do]; rewrite Hg0.
    - iApply (aassign_spec CA 16 sz D' Hsz _ _ _ _ y es y0 es0 with "H"); try done.
      cbn in HL. apply andb_true_iff in HL as [_ HL]. apply orb_true_iff in HL as [HL|HL].
      + left. by apply negb_true_iff, bool_decide_eq_false in HL.
      + destruct (decide (c = src)) as [->|Hne]; [right|by left]. rewrite look_spec Hg0 in HL. by apply N.eqb_eq in HL.
    - iApply (amove_assign_spec CA 16 sz D' Hsz _ _ _ _ y es y0 es0 with "H"); done.
  Qed.

  Lemma a_with_kind o c h g : a_kind o = KBorn c h -> a_kind (a_with g o) = KBorn c g.
  Proof. destruct o; cbn; intros; congruence. Qed.

  Lemma a_needs k infos o : alegal sz k infos o = true -> needs (a_kind o) infos.
  Proof.
    assert (Hh : forall c, has infos c = true -> is_Some (infos !! c)) by (intros c H; by apply bool_decide_eq_true in H).
    assert (Hf : forall c, has infos c = false -> infos !! c = None).
    { intros c H. apply bool_decide_eq_false in H. by apply eq_None_not_Some. }
    intros HL. destruct o; cbn in *; unfold new_name in HL; try done;
      repeat match goal with
      | H : (_ && _)%bool = true |- _ => let L := fresh "L" in let L' := fresh "L" in apply andb_true_iff in H as [L L']
      | H : negb _ = true |- _ => apply negb_true_iff in H
      end; eauto.
  Qed.

  Lemma a_effect k o ob m m' : alegal sz k (s_info <$> m) o = true -> acheck sz k o ob m m' ->
    s_al <$> m' = effect (a_kind o) (s_al <$> m).
  Proof.
    intros HL. unfold acheck. rewrite HL. destruct o; cbn [alegal acheck_do a_kind effect] in *; unfold new_name in HL;
      repeat match goal with
      | H : (_ && _)%bool = true |- _ => let L := fresh "L" in let L' := fresh "L" in apply andb_true_iff in H as [L L']
      | H : negb _ = true |- _ => apply negb_true_iff in H
      end; intros Hc;
      repeat match goal with
      | H : _ /\ _ |- _ => destruct H
      | H : exists _, _ |- _ => destruct H
      | H : if ?n =? _ then _ else _ |- _ => destruct (n =? _)
      | H : born _ _ _ _ _ |- _ => destruct H as (?&->&_&?&_&_)
      | H : ?x = _ |- _ => subst x
      end; rewrite ?al_ins ?fmap_delete; try done.
    all: try match goal with L : has _ ?s = true |- context [default _ (_ !! ?s)] => rewrite (al_get _ s L); cbn [default id] end.
    all: try (by f_equal).
    all: try (rewrite put_back; [by f_equal|by apply al_get|]; first [done|congruence]).
    all: apply insert_id; cbn [s_al]; rewrite (al_get _ _ ltac:(eassumption)); by f_equal.
  Qed.

  Lemma a_end D E m : Iv D E ∅ m ⊢ inv CA 16 D E [].
  Proof.
    iIntros "[_ H]". iDestruct "H" as (Z) "[%HH H]". destruct HH as (HE&_&_). symmetry in HE. apply fmap_empty_inv in HE as ->.
    by rewrite bl_empty.
  Qed.

  Lemma array_sharing ops w : N.of_nat (length ops) + 1 < W -> sharing_ok K s_al s_info (acheck sz) bad ops w.
  Proof.
    apply (sharing_safe CA H0 K s_al s_info (acheck sz) (fun D => Iv D)).
    - intros. iIntros "H". iSplitR; [done|]. by iApply cinv_init.
    - apply a_end.
    - apply a_pure.
    - apply a_open.
    - apply a_do.
    - apply a_assign.
    - apply a_with_kind.
    - apply a_needs.
    - apply a_effect.
  Qed.
End array.
