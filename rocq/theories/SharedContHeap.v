(** binary_heap over shared handles. *)
From iris.proofmode Require Import tactics.
From Verif Require Import Base Mem Sep Wp Allocators Contract Service Client Env EnvProofs SharedCont SharedContProofs
  Vector Heap ElemProofs RepProofs HeapProofs.
From Verif Require SharedContCases.

Local Open Scope N_scope.

Section heap.
  Context {bad : event -> bool} {A : alloc} {req : N -> bool}.
  Context (CA : service bad A req) (H0 : a_size A = 0) (sz : N) (T : elt) (comp : nat -> value -> value -> bool) (eqv : value -> value -> bool)
    (Hsz : 0 < sz) (Hreq : forall n, req n = true -> n < 2 ^ 63).
  Local Notation K := (heap_cont A sz T comp eqv).
  Local Notation Iv D := (hinv CA 16 sz T comp D).
  Local Notation hrep := (hrep sz comp).
  Local Notation hbl := (hbl sz T).

  Lemma hrep_D D D' y : hrep D y -> p_al (fst y) ∈ D' -> hrep D' y.
  Proof. intros [? ? ? ? ? ? ? ?] ?. by split. Qed.
  Lemma hreps_D D D' Z : map_Forall (fun _ => hrep D) Z -> within (p_al <$> (fst <$> Z)) D' -> map_Forall (fun _ => hrep D') Z.
  Proof. intros HZ Hw c y Hy. eapply hrep_D; [by eapply HZ|]. apply (Hw c). by rewrite !lookup_fmap Hy. Qed.

  Lemma owners_hbl (Z : gmap nat (sheap * list (list cell))) : owners (hbl Z) (p_al <$> (fst <$> Z)).
  Proof.
    unfold owners, HeapProofs.hbl. apply Forall_flat_map, list.Forall_forall. intros [c y] Hc. apply elem_of_map_to_list in Hc.
    cbn [snd]. unfold hone. destruct (_ =? _); [constructor|]. repeat constructor. cbn [fst hblk]. exists c. by rewrite !lookup_fmap Hc.
  Qed.

  Lemma h_open D E vs m : Iv D E vs m ⊢ ∃ B, ⌈owners B (p_al <$> m)⌉ ∗ inv CA 16 D E B ∗
    (∀ D' E', ⌈within (p_al <$> m) D'⌉ -∗ inv CA 16 D' E' B -∗ Iv D' E' vs m).
  Proof.
    iIntros "H". iDestruct "H" as (Z) "[%HH H]". destruct HH as (->&->&HZ). iExists (hbl Z). iFrame "H".
    iSplit; [iPureIntro; by apply owners_hbl|]. iIntros (D' E') "%Hw H". iExists Z. iFrame "H". iPureIntro. split_and!; [done|done|].
    by eapply hreps_D.
  Qed.

  Lemma h_pure D E vs m : Iv D E vs m ⊢
    ⌜h_al <$> vs = p_al <$> m /\ h_info <$> vs = p_info <$> m /\ within (p_al <$> m) D⌝.
  Proof.
    iIntros "H". iDestruct "H" as (Z) "[%HH _]". destruct HH as (->&->&HZ). iPureIntro. split_and!.
    - apply map_eq. intros c. rewrite !lookup_fmap. by destruct (Z !! c).
    - by apply hinfos_of.
    - intros c g Hg. rewrite !lookup_fmap in Hg. destruct (Z !! c) as [y|] eqn:Hy; [|done]. injection Hg as <-. by apply (HZ c y Hy).
  Qed.

  Lemma h_do k D E vs m o : hlegal sz T k (p_info <$> m) o = true -> (forall c h, h_kind o = KBorn c h -> h ∈ D) ->
    Iv D E vs m ⊢ wp bad (hdo A 16 sz T comp eqv o (E, vs)) (fun r =>
      ∃ m', ⌈hcheck sz T comp eqv k o (fst r) m m'⌉ ∗ Iv D (fst (snd r)) (snd (snd r)) m').
  Proof.
    intros HL Hd. iIntros "H". iDestruct (h_pure with "H") as %(_&Hi&_).
    iPoseProof (hstep_spec CA 16 sz T comp eqv D Hsz Hreq k o E vs m with "H") as "H".
    - intros h Ho _. destruct o; cbn in Ho; try done; injection Ho as <-; by eapply Hd.
    - unfold hstep. cbn [snd]. rewrite Hi HL. done.
  Qed.

  Lemma h_assign k D E vs m o c src x : hlegal sz T k (p_info <$> m) o = true -> h_kind o = KAssign c src -> vs !! c = Some x ->
    Iv D E vs m ⊢ wp bad (hrelease A 16 sz T x E) (fun E' => ∃ B, ⌈owners B (delete c (p_al <$> m))⌉ ∗ inv CA 16 D E' B ∗
      (∀ D' E'', ⌈within (delete c (p_al <$> m)) D' /\ (forall g, (p_al <$> m) !! src = Some g -> g ∈ D')⌉ -∗ inv CA 16 D' E'' B -∗
        wp bad (h_after A sz T o (E'', vs)) (fun r => ∃ m', ⌈hcheck sz T comp eqv k o (fst r) m m'⌉ ∗ Iv D' (fst (snd r)) (snd (snd r)) m'))).
  Proof.
    intros HL Hk Hx. iIntros "H". iDestruct "H" as (Z) "[%HH H]". destruct HH as (->&->&HZ).
    rewrite lookup_fmap in Hx. destruct (Z !! c) as [[y rs]|] eqn:Hy; [|done]. injection Hx as <-. cbn [compose fst].
    iDestruct (inv_perm _ _ _ _ _ _ (hbl_delete sz T Z c _ Hy) with "H") as "H".
    iApply wp_strong_mono. iSplitL; [iApply (hrelease_spec CA 16 sz T comp eqv D Hsz Hreq with "H"); by apply (HZ c)|].
    iIntros (E') "H". iExists _. iFrame "H". iSplitR.
    { iPureIntro. rewrite -!fmap_delete. apply owners_hbl. }
    iIntros (D' E'') "[%Hw %Hs] H". rewrite -!fmap_delete in Hw.
    assert (HZ' : map_Forall (fun _ => hrep D') (delete c Z)) by (eapply hreps_D; [by apply map_Forall_delete|done]).
    assert (Hsrc : exists y0 rs0, Z !! src = Some (y0, rs0)).
    { assert (has (p_info <$> (fst <$> Z)) src = true) as Hh.
      { destruct o; try done; injection Hk as -> ->; cbn in HL; repeat (apply andb_true_iff in HL as [HL ?]); done. }
      apply has_spec in Hh as [y0 Hy0]. rewrite lookup_fmap in Hy0. destruct (Z !! src) as [[? ?]|]; [eauto|done]. }
    destruct Hsrc as (y0&rs0&Hy0).
    assert (Hr0 : hrep D' (y0, rs0)).
    { eapply hrep_D; [by apply (HZ src)|]. apply Hs. by rewrite !lookup_fmap Hy0. }
    assert (Hg0 : p_get src (fst <$> Z) = y0) by (unfold p_get; by rewrite lookup_fmap Hy0).
    unfold hcheck. rewrite HL. destruct o; try done; injection Hk as -> ->; cbn [h_after hcheck_do]; rewrite Hg0.
    - iApply (hassign_spec CA 16 sz T comp eqv D' Hsz Hreq _ _ _ _ y rs y0 rs0 with "H"); try done.
      cbn in HL. apply andb_true_iff in HL as [_ HL]. apply orb_true_iff in HL as [HL|HL].
      + left. by apply negb_true_iff, bool_decide_eq_false in HL.
      + destruct (decide (c = src)) as [->|Hne]; [right|by left]. rewrite hlook_spec Hg0 in HL. by apply N.eqb_eq in HL.
    - iApply (hmove_assign_spec CA 16 sz T comp D' _ _ _ _ y rs y0 rs0 with "H"); done.
  Qed.

  Lemma h_with_kind o c h g : h_kind o = KBorn c h -> h_kind (h_with g o) = KBorn c g.
  Proof. destruct o; cbn; intros; congruence. Qed.

  Lemma h_needs k infos o : hlegal sz T k infos o = true -> needs (h_kind o) infos.
  Proof.
    assert (Hh : forall c, has infos c = true -> is_Some (infos !! c)) by (intros c H; by apply bool_decide_eq_true in H).
    assert (Hf : forall c, has infos c = false -> infos !! c = None).
    { intros c H. apply bool_decide_eq_false in H. by apply eq_None_not_Some. }
    intros HL. destruct o; cbn in *; unfold new_name in HL; try done;
      repeat match goal with
      | H : (_ && _)%bool = true |- _ => let L := fresh "L" in let L' := fresh "L" in apply andb_true_iff in H as [L L']
      | H : negb _ = true |- _ => apply negb_true_iff in H
      end; eauto.
  Qed.

  Lemma pal_ins (m : gmap nat sheap) c x : p_al <$> <[c := x]> m = <[c := p_al x]> (p_al <$> m).
  Proof. apply fmap_insert. Qed.
  Lemma pal_get (m : gmap nat sheap) c : has (p_info <$> m) c = true -> (p_al <$> m) !! c = Some (p_al (p_get c m)).
  Proof. intros H. apply has_spec in H as [x Hx]. unfold p_get. by rewrite lookup_fmap Hx. Qed.
  Lemma pal_become (m m' : gmap nat sheap) c n r L : has (p_info <$> m) c = true -> p_become comp c n r L m m' -> p_al <$> m' = p_al <$> m.
  Proof. intros Hh (x&->&_&Ha&_). rewrite pal_ins Ha. apply insert_id. by apply pal_get. Qed.

  Lemma h_effect k o ob m m' : hlegal sz T k (p_info <$> m) o = true -> hcheck sz T comp eqv k o ob m m' ->
    p_al <$> m' = effect (h_kind o) (p_al <$> m).
  Proof.
    intros HL. unfold hcheck. rewrite HL. destruct o; cbn [hlegal hcheck_do h_kind effect] in *; unfold new_name in HL;
      repeat match goal with
      | H : (_ && _)%bool = true |- _ => let L := fresh "L" in let L' := fresh "L" in apply andb_true_iff in H as [L L']
      | H : negb _ = true |- _ => apply negb_true_iff in H
      end; intros Hc;
      repeat match goal with
      | H : _ /\ _ |- _ => destruct H
      | H : exists _, _ |- _ => destruct H
      | H : p_born _ _ _ _ _ _ _ |- _ => destruct H as (?&->&_&?&_&_&_)
      | H : ?x = _ |- _ => subst x
      end; rewrite ?pal_ins ?fmap_delete; try done.
    all: try (by eapply pal_become).
    all: try match goal with L : has _ ?s = true |- context [default _ (_ !! ?s)] => rewrite (pal_get _ s L); cbn [default id] end.
    all: try (by f_equal).
    all: rewrite SharedContCases.put_back; [by f_equal|by apply pal_get|]; first [done|congruence].
  Qed.

  Lemma h_end D E m : Iv D E ∅ m ⊢ inv CA 16 D E [].
  Proof.
    iIntros "H". iDestruct "H" as (Z) "[%HH H]". destruct HH as (HE&_&_). symmetry in HE. apply fmap_empty_inv in HE as ->.
    by rewrite hbl_empty.
  Qed.

  Lemma heap_sharing ops w : N.of_nat (length ops) + 1 < W -> sharing_ok K p_al p_info (hcheck sz T comp eqv) bad ops w.
  Proof.
    apply (sharing_safe CA H0 K p_al p_info (hcheck sz T comp eqv) (fun D => Iv D)).
    - intros. apply hinv_init.
    - apply h_end.
    - apply h_pure.
    - apply h_open.
    - apply h_do.
    - apply h_assign.
    - apply h_with_kind.
    - apply h_needs.
    - apply h_effect.
  Qed.
End heap.
