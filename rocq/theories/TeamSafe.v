(** atomic_shared<threaded<A>> among threads is safe if [A] obeys the contract. *)
From iris.proofmode Require Import tactics.
From Verif Require Import Base Mem Sep Wp Bits AlignedMalloc AlignedMallocProofs Allocators Contract NodeProofs Adequacy
  Client ClientProofs CrowdProofs SharedSafe Team TeamProofs.

Local Open Scope N_scope.

(** * Blocks by group *)
Notation vars := (gmap nat (nat * option (nat * ablk))).

Lemma blocks_of_insert g (has : vars) x u v :
  blocks_of g (<[x := (u, v)]> has) = match of_block g (u, v) with Some b => <[x := b]> (blocks_of g has) | None => delete x (blocks_of g has) end.
Proof.
  apply map_eq. intros y. unfold blocks_of. rewrite lookup_omap. destruct (decide (y = x)) as [->|].
  - rewrite lookup_insert. cbn. destruct (of_block g (u, v)); [by rewrite lookup_insert|by rewrite lookup_delete].
  - rewrite lookup_insert_ne //. destruct (of_block g (u, v)); [rewrite lookup_insert_ne //|rewrite lookup_delete_ne //]; by rewrite lookup_omap.
Qed.
Lemma of_block_same g u b : of_block g (u, Some (g, b)) = Some b.
Proof. unfold of_block. cbn. by rewrite decide_True. Qed.
Lemma of_block_other g g' u b : g' <> g -> of_block g (u, Some (g', b)) = None.
Proof. intros H. unfold of_block. cbn. by rewrite decide_False. Qed.
Lemma of_block_null g u : of_block g (u, None) = None.
Proof. done. Qed.
Lemma blocks_of_lookup g (has : vars) x u b : has !! x = Some (u, Some (g, b)) -> blocks_of g has !! x = Some b.
Proof. intros H. unfold blocks_of. rewrite lookup_omap H. apply (of_block_same g u b). Qed.
Lemma blocks_of_lookup_null g (has : vars) x u : has !! x = Some (u, None) -> blocks_of g has !! x = None.
Proof. intros H. unfold blocks_of. by rewrite lookup_omap H. Qed.
Lemma blocks_of_lookup_other g g' (has : vars) x u b : g' <> g -> has !! x = Some (u, Some (g', b)) -> blocks_of g has !! x = None.
Proof. intros Hne H. unfold blocks_of. rewrite lookup_omap H. by apply (of_block_other g g' u b). Qed.

Section safe.
  Context {bad : event -> bool} {A : alloc} {req : N -> bool}.
  Context (CA : contract bad A req) (pl : platform).
  Context (Hpl : pl <> PPosix) (Hfail : bad EvFail || bad EvRefuse = true) (Hsz : a_size A + 32 < W).
  Implicit Types q : team A.

  Local Notation box := (box CA pl).

  Definition grp (has : vars) (g : nat) (k : tblock A) : hpropI :=
    ∃ B, ⌈has_match B (blocks_of g has)⌉ ∗ box (tb_addr k) (tb_in k) (shape (held B)) ∗ blocks (held B).
  Definition fam (bk : gmap nat (tblock A)) (has : vars) : hpropI := [∗ map] g ↦ k ∈ bk, grp has g k.

  (** Only address and state of the allocator matter. *)
  Lemma fam_same bk has g k k' : bk !! g = Some k -> tb_addr k' = tb_addr k -> tb_in k' = tb_in k ->
    fam bk has ⊢ fam (<[g := k']> bk) has.
  Proof.
    intros Hg H1 H2. unfold fam. rewrite -insert_delete_insert. rewrite (big_sepM_delete _ _ _ _ Hg).
    rewrite big_sepM_insert; [|apply lookup_delete]. unfold grp. by rewrite H1 H2.
  Qed.

  (** Groups to which [x] does not belong *)
  Lemma fam_other (bk : gmap nat (tblock A)) (has : vars) x u v :
    (forall g k, bk !! g = Some k -> blocks_of g (<[x := (u, v)]> has) = blocks_of g has) ->
    fam bk has ⊢ fam bk (<[x := (u, v)]> has).
  Proof.
    intros H. unfold fam. apply big_sepM_mono. intros g k Hg. unfold grp. by rewrite (H g k Hg).
  Qed.

  Lemma fam_take bk has g k : bk !! g = Some k -> fam bk has ⊢ grp has g k ∗ fam (delete g bk) has.
  Proof. intros H. unfold fam. by rewrite (big_sepM_delete _ _ _ _ H). Qed.
  Lemma fam_put bk has g k : grp has g k ∗ fam (delete g bk) has ⊢ fam (<[g := k]> bk) has.
  Proof. unfold fam. rewrite -insert_delete_insert. rewrite big_sepM_insert; [done|apply lookup_delete]. Qed.

  Definition micro_ok (m : micro) : Prop := match m with MAlloc _ _ n => req n = true /\ n < W | _ => True end.
  Definition sizes q : Prop := forall t, Forall micro_ok (todo t q).
  Definition call_ok (c : tcall) : Prop := match c with TAlloc _ _ n => req n = true /\ n < W | _ => True end.

  Lemma sizes_set q t l td : (forall u, u <> t -> Forall micro_ok (default [] (td !! u))) -> Forall micro_ok l ->
    sizes (set_todo (<[t := l]> td) q).
  Proof.
    intros H Hl u. unfold todo. cbn. destruct (decide (u = t)) as [->|].
    - by rewrite lookup_insert.
    - rewrite lookup_insert_ne //. by apply H.
  Qed.

  (** * One step *)
  Definition good_state (n : nat) q : hpropI := ⌈inv n q /\ sizes q⌉ ∗ fam (t_bk q) (t_has q).

  Lemma finish n q q' t l : sizes q -> t_todo q' = <[t := l]> (t_todo q) -> Forall micro_ok l -> inv n q' -> inv n q' /\ sizes q'.
  Proof.
    intros Hs Htd Hl I. split; [done|]. intros u. unfold todo. rewrite Htd. destruct (decide (u = t)) as [->|].
    - by rewrite lookup_insert.
    - rewrite lookup_insert_ne //. apply Hs.
  Qed.

  Definition step_post n q t l (r : option (team A * list micro)) : hpropI :=
    good_state n (match r with Some (q', pre) => set_todo (<[t := pre ++ l]> (t_todo q')) q' | None => q end).

  Lemma deref_at q h g k : tptr h q = Some g -> t_bk q !! g = Some k -> deref A h q = ret (g, k).
  Proof. intros H1 H2. unfold deref. by rewrite H1 H2. Qed.

  Lemma wp_ret_bind {X Y} (x : X) (f : X -> M Y) Q : wp bad (f x) Q ⊢ wp bad (bind (ret x) f) Q.
  Proof. iIntros "H". iApply wp_bind. by iApply wp_ret. Qed.

  (** aligned_delete *)
  Lemma wp_del_then {B} p s (x : B) (Q : B -> hpropI) :
    box p s [] ∗ Q x ⊢ wp bad (a_dtor A p s ;;; aligned_free pl p ;;; ret x) Q.
  Proof.
    iIntros "[(HJ & Hr2 & Ht & %Hp) HQ]". iApply wp_bind. iApply wp_strong_mono.
    iSplitL "HJ"; [by iApply (c_dtor _ _ _ CA)|]. iIntros ([]) "Hr".
    iAssert (raw p (a_size A + 16)) with "[Hr Hr2]" as "Hr".
    { rewrite (raw_split p (a_size A + 16) (a_size A)); [|lia].
      replace (a_size A + 16 - a_size A) with 16 by lia. iFrame. }
    iDestruct "Hr" as (cs) "[(%Hl & %Hd) Hr]". iApply wp_bind.
    iApply (wp_aligned_free _ _ _ (a_size A + 16) cs); [done..|]. iFrame. by iApply wp_ret.
  Qed.

  Lemma has_live n q x t g b : inv n q -> t_has q !! x = Some (t, Some (g, b)) -> exists k, t_bk q !! g = Some k.
  Proof.
    intros I Hx. destruct (proj1 (refn_pos _ _) (i_has _ _ I x t g b Hx)) as [h Hh]. apply (i_live _ _ I) in Hh as [k Hk]. by exists k.
  Qed.
  Lemma box_perm p s S S' : S ≡ₚ S' -> box p s S ⊢ box p s S'.
  Proof. intros H. unfold NodeProofs.box. by rewrite (c_perm _ _ _ CA _ _ S S' H). Qed.

  (** What the current point says about the handle of a call. *)
  Lemma use_at n q t m l h : inv n q -> todo t q = m :: l ->
    (m = MLock h \/ m = MEnter h \/ (exists x s, m = MAlloc h x s) \/ (exists x, m = MFree h x) \/ m = MUnlock h) ->
    exists g k, tptr h q = Some g /\ t_bk q !! g = Some k /\
      (forall x s, m = MAlloc h x s -> t_has q !! x = Some (t, None)) /\
      (forall x, m = MFree h x -> exists y, t_has q !! x = Some (t, Some (g, y))).
  Proof.
    intros I Ht Hm. destruct (at_todo _ _ t I) as (e&He&Hr). rewrite Ht in He.
    destruct He as [He|(?&?&[= ->]&_)]; [|by destruct Hm as [[=]|[[=]|[(?&?&[=])|[(?&[=])|[=]]]]]].
    assert (exists g, t_hs q !! h = Some (t, Some g) /\ e = None /\
      (forall x s, m = MAlloc h x s -> t_has q !! x = Some (t, None)) /\
      (forall x, m = MFree h x -> exists y, t_has q !! x = Some (t, Some (g, y)))) as (g&Hg&->&H1&H2).
    { inversion He; subst; try (by destruct Hm as [[=]|[[=]|[(?&?&[=])|[(?&[=])|[=]]]]]).
      - destruct Hm as [[= ->]|[[=]|[(?&?&[=])|[(?&[=])|[=]]]]]. by exists g.
      - destruct Hm as [[=]|[[= ->]|[(?&?&[=])|[(?&[=])|[=]]]]]. by exists g.
      - match goal with H : body_ok _ _ _ _ _ |- _ => destruct H as [(x&s&->&Hx)|(x&y&->&Hx)] end.
        + destruct Hm as [[=]|[[=]|[(?&?&[=])|[(?&[=])|[=]]]]]; subst. exists g. split_and!; try done. by intros ?? [= -> ->].
        + destruct Hm as [[=]|[[=]|[(?&?&[=])|[(?&[=])|[=]]]]]; subst. exists g. split_and!; try done. intros ? [= ->]. by exists y.
      - destruct Hm as [[=]|[[=]|[(?&?&[=])|[(?&[=])|[= ->]]]]]. by exists g. }
    assert (Hrh : t_ref q !! h = Some g) by by rewrite (Hr _ _ Hg).
    destruct (i_live _ _ I _ _ Hrh) as [k Hk]. exists g, k. split; [by unfold tptr; rewrite Hg|done].
  Qed.

  (** A step of an allocator in group [g], seen from outside *)
  Lemma exec_spec n q t m l : inv (S n) q -> sizes q -> todo t q = m :: l ->
    fam (t_bk q) (t_has q) ⊢ wp bad (exec pl A t m q) (step_post n q t l).
  Proof.
    intros I Hs Ht.
    assert (Hl : Forall micro_ok (m :: l)) by (rewrite -Ht; apply Hs). apply Forall_cons_iff in Hl as [Hm Hl].
    assert (I' : inv n q) by (apply (inv_weaken (S n)); [lia|done]).
    assert (Hstay : fam (t_bk q) (t_has q) ⊢ step_post n q t l None).
    { iIntros "H". unfold step_post, good_state. iFrame. by iPureIntro. }
    unfold step_post, good_state.
    destruct m as [h|h src|h src|src|h|h|g|h|h|h|h x s|h x|h|x off v|x off|h to|x to]; cbn [exec].
    - (* MNew *)
      iIntros "H". iApply (wp_new_box CA pl Hpl Hfail Hsz). iIntros (p s) "Hbox". iApply wp_ret. cbn [app]. iSplit.
      + iPureIntro. eapply (finish n q); [done|reflexivity|done|]. exact (inv_new n q t h l p s I Ht).
      + cbn. unfold fam. rewrite big_sepM_insert; [|by apply (i_fresh _ _ I)]. iFrame "H". iExists ∅.
        assert (Hz : blocks_of (t_next q) (t_has q) = ∅).
        { apply map_empty. intros x. unfold blocks_of. rewrite lookup_omap. destruct (t_has q !! x) as [[u [[g b]|]]|] eqn:Hx; try done.
          cbn. unfold of_block. cbn. destruct (decide (g = t_next q)) as [->|]; [exfalso|done].
          destruct (proj1 (refn_pos _ _) (i_has _ _ I x u _ b Hx)) as [h' Hh']. apply (i_live _ _ I) in Hh'.
          rewrite (i_fresh _ _ I) // in Hh'. by destruct Hh'. }
        iSplit.
        * iPureIntro. rewrite Hz. intros x. rewrite !lookup_empty. constructor.
        * change (held ∅) with (@nil blk). cbn [tb_addr tb_in]. iFrame "Hbox". by rewrite blocks_nil.
    - (* MSet *)
      iIntros "H". iApply wp_ret. cbn [app]. iFrame "H". iPureIntro. eapply (finish n q); [done|reflexivity|done|]. exact (inv_set n q t h src l I' Ht).
    - (* MTake *)
      iIntros "H". iApply wp_ret. cbn [app].
      pose proof (inv_take n q t h src l I' Ht) as I1.
      destruct (t_ref q !! src) as [g|]; (iSplit; [|iExact "H"]); iPureIntro; (eapply (finish n q); [done|reflexivity|done|exact I1]).
    - (* MNull *)
      iIntros "H". iApply wp_ret. cbn [app]. iFrame "H". iPureIntro. eapply (finish n q); [done|reflexivity|done|]. exact (inv_null n q t src l I' Ht).
    - (* MInc *)
      destruct (at_todo _ _ t I) as (e&He&Hr). rewrite Ht in He.
      destruct He as [He|(?&?&[=]&_)]. inversion He as [| | |h' src x Hns Hh Hsrc| | | | | | | | |? ? ? ? Hb| | | | |]; subst.
      2:{ destruct Hb as [(?&?&[=]&_)|(?&?&[=]&_)]. }
      assert (Hp : tptr h q = x) by by (unfold tptr; rewrite Hh).
      destruct x as [g|].
      + assert (Hrs : t_ref q !! src = Some g). { rewrite (Hr _ _ Hsrc). rewrite decide_False //. congruence. }
        destruct (i_live _ _ I _ _ Hrs) as [k Hk]. rewrite Hp (deref_at q h g k Hp Hk).
        iIntros "H". iApply wp_ret_bind. iApply wp_ret. cbn [app]. iSplit.
        * iPureIntro. eapply (finish n q); [done|reflexivity|done|]. exact (inv_inc n q t h [] g k I Ht Hp Hk).
        * cbn. by iApply (fam_same _ _ g k).
      + rewrite Hp. iIntros "H". iApply wp_ret. cbn [app]. iFrame "H". iPureIntro. eapply (finish n q); [done|reflexivity|done|].
        apply (inv_skip n q t (MInc h) [] None I' Ht); [done| |constructor|].
        * intros g (h0&_&[[b H]|[[b H]|H]]); rewrite Ht in H; congruence.
        * intros h0 y Hy. rewrite (Hr _ _ Hy). destruct (decide (Some h = Some h0)) as [[= <-]|]; [|done].
          by assert (y = None) as -> by congruence.
    - (* MDec *)
      destruct (dec_at _ q t h l I Ht) as (xh&Hh&HP&Hr).
      assert (Hp : tptr h q = xh) by by (unfold tptr; rewrite Hh).
      destruct xh as [g|].
      + destruct (i_live _ _ I _ _ (Hr _ _ Hh)) as [k Hk]. rewrite Hp (deref_at q h g k Hp Hk).
        iIntros "H". iApply wp_ret_bind. destruct (bool_decide _ && _) eqn:E; [iApply wp_ret; by iApply Hstay|].
        iApply wp_ret. iSplit.
        * iPureIntro. eapply (finish n q); [done|reflexivity| |].
          -- destruct (tb_cnt k =? 1); cbn [app]; [by constructor|done].
          -- exact (inv_dec n q t h l g k I' Ht Hp Hk E).
        * cbn. by iApply (fam_same _ _ g k).
      + rewrite Hp. iIntros "H". iApply wp_ret. cbn [app]. iFrame "H". iPureIntro. eapply (finish n q); [done|reflexivity|done|].
        apply (inv_skip n q t (MDec h) l (Some h) I' Ht); [done| |done|].
        * intros g (h0&_&[[b H]|[[b H]|H]]); rewrite Ht in H; try congruence. injection H as _ ->. by inversion HP.
        * intros h0 y Hy. rewrite (Hr _ _ Hy). destruct (decide (Some h = Some h0)) as [[= <-]|]; [|done]. congruence.
    - (* MDel *)
      destruct (i_del _ _ I t g) as ([k Hk]&_&_); [by exists l|]. rewrite Hk.
      destruct (inv_del n q t g l k I' Ht Hk) as (H1&H2&H3&I1). rewrite H1 H2. cbn [negb]. rewrite bool_decide_eq_true_2 //. cbn [andb].
      iIntros "H". iDestruct (fam_take _ _ _ _ Hk with "H") as "[(%B & %HB & Hbox & Hbl) H]". rewrite H3 in HB.
      assert (B = ∅) as ->. { apply map_empty. intros x. apply (has_match_none _ _ _ HB). apply lookup_empty. }
      change (held ∅) with (@nil blk). rewrite blocks_nil.
      iApply wp_del_then. iFrame "Hbox". cbn [app]. iClear "Hbl". iSplit; [|iExact "H"].
      iPureIntro. eapply (finish n q); [done|reflexivity|done|exact I1].
    - (* MEnd *)
      iIntros "H". iApply wp_ret. cbn [app]. iFrame "H". iPureIntro. eapply (finish n q); [done|reflexivity|done|]. exact (inv_end n q t h l I' Ht).
    - (* MLock *)
      destruct (use_at _ q t _ l h I Ht) as (g&k&Hp&Hk&_); [tauto|]. rewrite (deref_at q h g k Hp Hk).
      iIntros "H". iApply wp_ret_bind. destruct (tb_lock k) as [u|] eqn:Hlk; iApply wp_ret; [by iApply Hstay|]. cbn [app]. iSplit.
      + iPureIntro. eapply (finish n q); [done|reflexivity|done|]. exact (inv_lock n q t h l g k I' Ht Hp Hk Hlk).
      + cbn. by iApply (fam_same _ _ g k).
    - (* MEnter *)
      destruct (use_at _ q t _ l h I Ht) as (g&k&Hp&Hk&_); [tauto|]. rewrite (deref_at q h g k Hp Hk).
      destruct (inv_enter n q t h l g k I' Ht Hp Hk) as [Hb I1].
      iIntros "H". iApply wp_ret_bind. rewrite Hb. iApply wp_ret. cbn [app]. iSplit.
      + iPureIntro. eapply (finish n q); [done|reflexivity|done|exact I1].
      + cbn. by iApply (fam_same _ _ g k).
    - (* MAlloc *)
      destruct (use_at _ q t _ l h I Ht) as (g&k&Hp&Hk&Hx&_); [eauto 10|]. rewrite (deref_at q h g k Hp Hk). specialize (Hx x s eq_refl).
      iIntros "H". iApply wp_ret_bind. destruct Hm as [Hreq Hn].
      iDestruct (fam_take _ _ _ _ Hk with "H") as "[(%B & %HB & (HJ & Hr & Htk & %Hp0) & Hbl) H]".
      iApply wp_bind. iApply wp_strong_mono. iSplitL "HJ"; [by iApply (c_alloc _ _ _ CA)|].
      assert (Hbx : forall g', blocks_of g' (t_has q) !! x = None) by (intros g'; by eapply blocks_of_lookup_null).
      iIntros ([p s']) "[[%Hp1 HJ]|(%Hp1 & Hraw & HJ)]"; cbn [fst snd] in *.
      + subst p. cbn [N.eqb]. iApply wp_ret. cbn [app]. iSplit.
        { iPureIntro. eapply (finish n q); [done|reflexivity|done|].
          apply (inv_body n q t (MAlloc h x s) h x l g k s' None I' Ht); try done. left. by exists s. }
        cbn. iApply fam_other.
        { intros g' k' _. rewrite blocks_of_insert of_block_null. by rewrite delete_notin. }
        iApply fam_put. iFrame "H". iExists B. iFrame "Hbl". iSplit; [done|]. cbn. unfold NodeProofs.box. by iFrame.
      + rewrite (proj2 (N.eqb_neq p 0) Hp1). iApply wp_ret. cbn [app]. iSplit.
        { iPureIntro. eapply (finish n q); [done|reflexivity|done|].
          apply (inv_body n q t (MAlloc h x s) h x l g k s' _ I' Ht); try done; [left; by exists s|]. by intros g' b [= <- _]. }
        cbn. iApply fam_put. iSplitR "H".
        * iDestruct "Hraw" as (cs) "[[%Hl1 %Hd] Hraw]". assert (Hbn := has_match_none _ _ _ HB (Hbx g)).
          iExists (<[x := (p, cs)]> B). iSplit.
          { iPureIntro. rewrite blocks_of_insert of_block_same. apply has_match_insert; [done|].
            replace (N.to_nat s) with (length cs) by lia. by apply raw_none. }
          rewrite (blocks_perm _ _ (held_insert B x (p, cs) Hbn)) blocks_cons. iFrame "Hraw Hbl". cbn [tb_addr tb_in].
          unfold NodeProofs.box. iFrame "Hr Htk". iSplit; [|done].
          iApply (c_perm _ _ _ CA with "HJ"). rewrite (shape_perm _ _ (held_insert B x (p, cs) Hbn)) shape_cons.
          unfold bsize. cbn [fst snd]. by rewrite Hl1.
        * iApply fam_other; [|done]. intros g' k' [Hne _]%lookup_delete_Some. rewrite blocks_of_insert of_block_other //. by rewrite delete_notin.
    - (* MFree *)
      destruct (use_at _ q t _ l h I Ht) as (g&k&Hp&Hk&_&Hx); [eauto 10|]. rewrite (deref_at q h g k Hp Hk).
      destruct (Hx x eq_refl) as [[p vs] Hx']. clear Hx. rewrite Hx'.
      iIntros "H". iApply wp_ret_bind.
      iDestruct (fam_take _ _ _ _ Hk with "H") as "[(%B & %HB & (HJ & Hr & Htk & %Hp0) & Hbl) H]".
      assert (Hbx := blocks_of_lookup _ _ _ _ _ Hx').
      destruct (has_match_some _ _ _ _ _ HB Hbx) as (cs&HBx&Hcs).
      rewrite (blocks_perm _ _ (held_delete B x _ HBx)) blocks_cons. iDestruct "Hbl" as "[Hpt Hbl]".
      rewrite -(Forall2_length _ _ _ Hcs). iApply wp_bind. iApply wp_strong_mono. iSplitL "HJ Hpt Hbl".
      { iApply (c_free _ _ _ CA _ _ p cs (held (delete x B))); [by eapply cmatch_dead|]. iFrame.
        iApply (c_perm _ _ _ CA with "HJ"). by rewrite (shape_perm _ _ (held_delete B x _ HBx)) shape_cons. }
      iIntros (s') "[HJ Hbl]". iApply wp_ret. cbn [app]. iSplit.
      { iPureIntro. eapply (finish n q); [done|reflexivity|done|].
        apply (inv_body n q t (MFree h x) h x l g k s' None I' Ht); try done. by right. }
      cbn. iApply fam_put. iSplitR "H".
      + iExists (delete x B). iFrame "Hbl". iSplit.
        * iPureIntro. rewrite blocks_of_insert of_block_null. by apply has_match_delete.
        * cbn. unfold NodeProofs.box. by iFrame.
      + iApply fam_other; [|done]. intros g' k' [Hne _]%lookup_delete_Some. rewrite blocks_of_insert of_block_null.
        rewrite delete_notin //. eapply blocks_of_lookup_other; [|done]. done.
    - (* MUnlock *)
      destruct (use_at _ q t _ l h I Ht) as (g&k&Hp&Hk&_); [tauto|]. rewrite (deref_at q h g k Hp Hk).
      iIntros "H". iApply wp_ret_bind. iApply wp_ret. cbn [app]. iSplit.
      + iPureIntro. eapply (finish n q); [done|reflexivity|done|]. exact (inv_unlock n q t h l g k I' Ht Hp Hk).
      + cbn. by iApply (fam_same _ _ g k).
    - (* MWrite *)
      assert (exists g p vs, t_has q !! x = Some (t, Some (g, (p, vs))) /\ l = [] /\
        forall h x, t_hs q !! h = Some (t, x) -> t_ref q !! h = x) as (g&p&vs&Hx&->&Hr).
      { destruct (at_todo _ _ t I) as (e&He&Hr). rewrite Ht in He. destruct He as [He|(?&?&[=]&_)].
        inversion He as [| | | | | | | | | | | |? ? ? ? Hb| |? ? ? [g [p vs]] Hx| | |]; subst; [by destruct Hb as [(?&?&[=]&_)|(?&?&[=]&_)]|].
        by exists g, p, vs. }
      rewrite Hx. destruct (has_live _ q x t g (p, vs) I Hx) as [k Hk].
      destruct (N.ltb_spec off (N.of_nat (length vs))) as [Ho|Ho].
      2:{ iIntros "H". iApply wp_ret. cbn [app]. iFrame "H". iPureIntro. eapply (finish n q); [done|reflexivity|done|].
          apply (inv_skip n q t (MWrite x off v) [] None I' Ht); [done| |constructor|done].
          intros g0 (h0&_&[[b H]|[[b H]|H]]); rewrite Ht in H; congruence. }
      iIntros "H". iDestruct (fam_take _ _ _ _ Hk with "H") as "[(%B & %HB & Hbox & Hbl) H]".
      assert (Hbx := blocks_of_lookup _ _ _ _ _ Hx).
      destruct (has_match_some _ _ _ _ _ HB Hbx) as (cs&HBx&Hcs). assert (Hlen := Forall2_length _ _ _ Hcs).
      rewrite (blocks_perm _ _ (held_delete B x _ HBx)) blocks_cons. iDestruct "Hbl" as "[Hpt Hbl]".
      iDestruct (pts_take_ne p cs (p + off) with "[$Hpt]") as (c) "(%Hc & Hx & Hx')"; [iPureIntro; lia|].
      replace (p + off - p) with off in * by lia.
      iApply wp_bind. iApply wp_wr. iFrame "Hx". iIntros "Hx". iApply wp_ret. cbn [app].
      iDestruct ("Hx'" with "Hx") as "Hpt". iSplit.
      { iPureIntro. eapply (finish n q); [done|reflexivity|done|].
        apply (inv_has n q t (MWrite x off v) x t g (p, vs) _ [] I' Ht); [|done]. left. by exists off, v. }
      cbn. rewrite -{2}(insert_id (t_bk q) g k Hk). iApply fam_put. iSplitR "H".
      + iExists (<[x := (p, <[N.to_nat off := Byte v]> cs)]> B). iSplit.
        { iPureIntro. rewrite blocks_of_insert of_block_same. apply has_match_insert; [done|]. split; [done|]. cbn [snd].
          apply Forall2_insert; [done|]. by split. }
        rewrite (blocks_perm _ _ (held_update B x _ _ HBx)) blocks_cons. iFrame "Hpt Hbl".
        iApply (box_perm with "Hbox").
        rewrite (shape_perm _ _ (held_update B x _ _ HBx)) (shape_perm _ _ (held_delete B x _ HBx)) !shape_cons.
        unfold bsize. cbn [fst snd]. by rewrite insert_length.
      + iApply fam_other; [|done]. intros g' k' [Hne _]%lookup_delete_Some. rewrite blocks_of_insert of_block_other //.
        rewrite delete_notin //. eapply blocks_of_lookup_other; [|done]. done.
    - (* MRead *)
      assert (exists g p vs, t_has q !! x = Some (t, Some (g, (p, vs))) /\ l = [] /\
        forall h x, t_hs q !! h = Some (t, x) -> t_ref q !! h = x) as (g&p&vs&Hx&->&Hr).
      { destruct (at_todo _ _ t I) as (e&He&Hr). rewrite Ht in He. destruct He as [He|(?&?&[=]&_)].
        inversion He as [| | | | | | | | | | | |? ? ? ? Hb| | |? ? [g [p vs]] Hx| |]; subst; [by destruct Hb as [(?&?&[=]&_)|(?&?&[=]&_)]|].
        by exists g, p, vs. }
      rewrite Hx. destruct (has_live _ q x t g (p, vs) I Hx) as [k Hk].
      assert (Hskip : inv n (set_todo (<[t := []]> (t_todo q)) q) /\ sizes (set_todo (<[t := []]> (t_todo q)) q)).
      { eapply (finish n q); [done|reflexivity|done|].
        apply (inv_skip n q t (MRead x off) [] None I' Ht); [done| |constructor|done].
        intros g0 (h0&_&[[b H]|[[b H]|H]]); rewrite Ht in H; congruence. }
      destruct (vs !! N.to_nat off) as [e|] eqn:Ho.
      2:{ iIntros "H". iApply wp_ret. cbn [app]. by iFrame "H". }
      iIntros "H". iDestruct (fam_take _ _ _ _ Hk with "H") as "[(%B & %HB & Hbox & Hbl) H]".
      assert (Hbx := blocks_of_lookup _ _ _ _ _ Hx).
      destruct (has_match_some _ _ _ _ _ HB Hbx) as (cs&HBx&Hcs). assert (Hlen := Forall2_length _ _ _ Hcs).
      assert (Hlt := lookup_lt_Some _ _ _ Ho).
      rewrite (blocks_perm _ _ (held_delete B x _ HBx)) blocks_cons. iDestruct "Hbl" as "[Hpt Hbl]".
      iDestruct (pts_take_ne p cs (p + off) with "[$Hpt]") as (c) "(%Hc & Hx & Hx')"; [iPureIntro; lia|].
      replace (p + off - p) with off in * by lia.
      iApply wp_bind. iApply wp_rd. iFrame "Hx". iIntros "Hx". iDestruct ("Hx'" with "Hx") as "Hpt".
      rewrite (list_insert_id _ _ _ Hc).
      destruct (Forall2_lookup_lr _ _ _ _ _ _ Hcs Hc Ho) as [_ Hm'].
      iAssert (fam (t_bk q) (t_has q)) with "[Hbox Hbl Hpt H]" as "H".
      { rewrite -{2}(insert_id (t_bk q) g k Hk). iApply fam_put. iFrame "H". iExists B. iFrame "Hbox". iSplit; [done|].
        rewrite (blocks_perm _ _ (held_delete B x _ HBx)) blocks_cons. iFrame. }
      destruct e as [v|].
      + rewrite bool_decide_eq_true_2 //. iApply wp_ret. cbn [app]. by iFrame "H".
      + iApply wp_ret. cbn [app]. by iFrame "H".
    - (* MGive *)
      iIntros "H". iApply wp_ret. cbn [app]. iFrame "H". iPureIntro. eapply (finish n q); [done|reflexivity|done|]. exact (inv_give n q t h to l I' Ht).
    - (* MPass *)
      assert (exists g y, t_has q !! x = Some (t, Some (g, y))) as (g&y&Hx).
      { destruct (at_todo _ _ t I) as (e&He&Hr). rewrite Ht in He. destruct He as [He|(?&?&[=]&_)].
        inversion He as [| | | | | | | | | | | |? ? ? ? Hb| | | | |? ? [g y] Hx]; subst; [by destruct Hb as [(?&?&[=]&_)|(?&?&[=]&_)]|].
        by exists g, y. }
      rewrite Hx. iIntros "H". iApply wp_ret. cbn [app]. iSplit.
      + iPureIntro. eapply (finish n q); [done|reflexivity|done|].
        apply (inv_has n q t (MPass x to) x to g y y l I' Ht); [|done]. by right.
      + cbn. iApply fam_other; [|done]. intros g' k' _. rewrite blocks_of_insert. destruct (decide (g' = g)) as [->|].
        * rewrite of_block_same. apply insert_id. by eapply blocks_of_lookup.
        * rewrite of_block_other //. apply delete_notin. eapply blocks_of_lookup_other; [|done]. done.
  Qed.

  Lemma tstep_spec n t c q : call_ok c -> good_state (S n) q ⊢ wp bad (tstep pl A t c q) (good_state n).
  Proof.
    intros Hc. iIntros "[[%I %Hs] H]". unfold tstep.
    assert (I' : inv n q) by (apply (inv_weaken (S n)); [lia|done]).
    destruct (todo t q) as [|m l] eqn:Ht.
    - iApply wp_ret. destruct (allowed t c q) eqn:HA; [|by iFrame "H"].
      iSplit.
      + iPureIntro. split; [by apply inv_start|]. apply sizes_set; [intros u _; apply Hs|]. destruct c; repeat constructor; apply Hc.
      + destruct c as [h|h src|h src|h src|h src|h|h x m|h x|x off v|x off|h to|x to]; cbn [declare]; try iExact "H".
        cbn. iApply fam_other; [|done]. intros g k _. rewrite blocks_of_insert of_block_null. apply delete_notin.
        cbn [allowed] in HA. apply andb_true_iff in HA as [_ HA]. unfold free_var in HA. unfold blocks_of. rewrite lookup_omap.
        destruct (t_has q !! x) as [[u v]|]; [|done]. apply andb_true_iff in HA as [_ HA%bool_decide_eq_true]. by subst v.
    - iApply wp_bind. iApply wp_strong_mono. iSplitL "H"; [by iApply (exec_spec n q t m l I Hs Ht)|].
      iIntros (r) "H". by iApply wp_ret.
  Qed.

  Lemma trun_spec sch n q : Forall (fun x => call_ok (snd x)) sch ->
    good_state (length sch + n) q ⊢ wp bad (trun pl A sch q) (good_state n).
  Proof.
    revert q. induction sch as [|[t c] sch IH]; intros q Hok; cbn [trun length Nat.add]; iIntros "H"; [by iApply wp_ret|].
    apply Forall_cons_iff in Hok as [Hok0 Hok]. iApply wp_bind. iApply wp_strong_mono.
    iSplitL "H"; [by iApply tstep_spec|]. iIntros (q') "H". by iApply IH.
  Qed.
End safe.
