(** An allocator that other threads use as well still serves containers. *)
From iris.proofmode Require Import tactics.
From Verif Require Import Base Mem Sep Wp Allocators Client Contract Service ClientProofs Crowd.

Local Open Scope N_scope.

Definition has_match (B : gmap nat blk) (m : gmap nat ablk) : Prop := forall x, option_Forall2 bmatch (B !! x) (m !! x).
Definition held (B : gmap nat blk) : list blk := map snd (map_to_list B).

Lemma held_insert B x k : B !! x = None -> held (<[x := k]> B) ≡ₚ k :: held B.
Proof. intros H. unfold held. by rewrite map_to_list_insert. Qed.
Lemma held_delete B x k : B !! x = Some k -> held B ≡ₚ k :: held (delete x B).
Proof. intros H. unfold held. by rewrite -(map_to_list_delete B x k H). Qed.
Lemma held_update B x k k' : B !! x = Some k -> held (<[x := k']> B) ≡ₚ k' :: held (delete x B).
Proof. intros H. rewrite -insert_delete_insert. apply held_insert, lookup_delete. Qed.

Lemma has_match_insert B m x k y : has_match B m -> bmatch k y -> has_match (<[x := k]> B) (<[x := y]> m).
Proof.
  intros H Hk z. destruct (decide (z = x)) as [->|Hne].
  - rewrite !lookup_insert. by constructor.
  - rewrite !lookup_insert_ne //.
Qed.
Lemma has_match_delete B m x : has_match B m -> has_match (delete x B) (delete x m).
Proof.
  intros H z. destruct (decide (z = x)) as [->|Hne].
  - rewrite !lookup_delete. constructor.
  - rewrite !lookup_delete_ne //.
Qed.
Lemma has_match_some B m x p vs : has_match B m -> m !! x = Some (p, vs) ->
  exists cs, B !! x = Some (p, cs) /\ Forall2 cmatch cs vs.
Proof.
  intros H Hx. specialize (H x). rewrite Hx in H. inversion H as [[p' cs] ? [H1 H2] H3|]; subst.
  cbn in H1, H2. subst p'. by exists cs.
Qed.
Lemma has_match_none B m x : has_match B m -> m !! x = None -> B !! x = None.
Proof. intros H Hx. specialize (H x). rewrite Hx in H. by inversion H. Qed.
Lemma has_match_dom B m : has_match B m -> dom B = dom m.
Proof.
  intros H. apply set_eq. intros x. rewrite !elem_of_dom. specialize (H x).
  split; intros [y Hy]; rewrite Hy in H; inversion H; eauto.
Qed.

Lemma blocks_nil : blocks [] ⊣⊢ emp.
Proof. done. Qed.

Section crowd.
  Context {bad : event -> bool} {A : alloc} {req : N -> bool} (CA : service bad A req).

  (** The blocks of the others are outstanding too. *)
  Definition share (b : N) (s : a_st A) (m : gmap nat ablk) (S : list (N * N)) : hpropI :=
    ∃ B, ⌈has_match B m⌉ ∗ V CA b s (S ++ shape (held B)) ∗ blocks (held B).

  Lemma share_perm b s m S S' : S ≡ₚ S' -> share b s m S ⊢ share b s m S'.
  Proof.
    intros H. iIntros "(%B & %HB & HV & HB)". iExists B. iSplit; [done|]. iFrame "HB".
    iApply (s_perm _ _ _ CA with "HV"). by rewrite H.
  Qed.

  Ltac quiet := iPureIntro; intros ? [=]; subst; first [done|by rewrite delete_notin].
  Lemma deed_spec b o s m L : deeds_ask req [o] ->
    share b s m (shape L) ∗ blocks L ⊢ wp bad (deed_do A b o (s, m)) (fun q =>
      ⌈forall x, o = DFree x -> snd q = delete x m⌉ ∗ share b (fst q) (snd q) (shape L) ∗ blocks L).
  Proof.
    intros Hask. apply Forall_cons_iff in Hask as [Hask _]. iIntros "[(%B & %HB & HV & HB) HL]".
    destruct o as [x n|x|x off v|x off]; cbn [deed_do].
    - destruct (m !! x) as [y|] eqn:Hx.
      { iApply wp_ret. cbn [fst snd]. iSplit; [quiet|]. iFrame "HL". iExists B. by iFrame. }
      destruct Hask as [Hn HW]. iApply wp_bind. iApply wp_strong_mono. iSplitL "HV HB HL".
      { iApply (s_alloc _ _ _ CA b s (L ++ held B) n); [done..|]. rewrite shape_app blocks_app. iFrame. }
      iIntros ([p s']) "[HL HV]". rewrite blocks_app. iDestruct "HL" as "[HL HB]". cbn [fst snd]. rewrite shape_app.
      iDestruct "HV" as "[[%Hp HV]|(%Hp & Hr & HV)]"; iApply wp_ret; cbn [fst snd].
      + destruct Hp as [-> _]. iSplit; [quiet|]. iFrame "HL". iExists B. by iFrame.
      + rewrite (proj2 (N.eqb_neq p 0) Hp). iSplit; [quiet|]. iFrame "HL". iDestruct "Hr" as (cs) "[[%Hl %Hd] Hr]".
        assert (Hbx := has_match_none _ _ _ HB Hx).
        iExists (<[x := (p, cs)]> B). iSplit.
        { iPureIntro. apply has_match_insert; [done|]. replace (N.to_nat n) with (length cs) by lia. by apply raw_none. }
        rewrite (blocks_perm _ _ (held_insert B x (p, cs) Hbx)) blocks_cons. iFrame.
        iApply (s_perm _ _ _ CA with "HV"). rewrite (shape_perm _ _ (held_insert B x (p, cs) Hbx)) shape_cons.
        unfold bsize. cbn [fst snd]. rewrite Hl. by rewrite Permutation_middle.
    - destruct (m !! x) as [[p vs]|] eqn:Hx.
      2:{ iApply wp_ret. cbn [fst snd]. iSplit; [quiet|]. iFrame "HL". iExists B. by iFrame. }
      destruct (has_match_some _ _ _ _ _ HB Hx) as (cs&Hbx&Hcs).
      rewrite (blocks_perm _ _ (held_delete B x _ Hbx)) blocks_cons. iDestruct "HB" as "[Hp HB]".
      rewrite -(Forall2_length _ _ _ Hcs).
      iApply wp_bind. iApply wp_strong_mono. iSplitL "HV HB HL Hp".
      { iApply (s_free _ _ _ CA b s p cs (L ++ held (delete x B))); [by eapply cmatch_dead|].
        rewrite shape_app blocks_app. iFrame. iApply (s_perm _ _ _ CA with "HV").
        rewrite (shape_perm _ _ (held_delete B x _ Hbx)) shape_cons. by rewrite Permutation_middle. }
      iIntros (s') "[HV HL]". rewrite blocks_app. iDestruct "HL" as "[HL HB]". iApply wp_ret. cbn [fst snd]. iSplit; [quiet|].
      iFrame "HL". iExists (delete x B). rewrite shape_app. iFrame. iPureIntro. by apply has_match_delete.
    - destruct (m !! x) as [[p vs]|] eqn:Hx.
      2:{ iApply wp_ret. cbn [fst snd]. iSplit; [quiet|]. iFrame "HL". iExists B. by iFrame. }
      destruct (has_match_some _ _ _ _ _ HB Hx) as (cs&Hbx&Hcs). assert (Hlen := Forall2_length _ _ _ Hcs).
      destruct (N.ltb_spec off (N.of_nat (length vs))).
      2:{ iApply wp_ret. cbn [fst snd]. iSplit; [quiet|]. iFrame "HL". iExists B. by iFrame. }
      rewrite (blocks_perm _ _ (held_delete B x _ Hbx)) blocks_cons. iDestruct "HB" as "[Hp HB]". cbn [fst snd].
      iDestruct (pts_take_ne p cs (p + off) with "[$Hp]") as (c) "(%Hc & Hx & Hx')"; [iPureIntro; lia|].
      replace (p + off - p) with off in * by lia.
      iApply wp_bind. iApply wp_wr. iFrame "Hx". iIntros "Hx". iApply wp_ret. cbn [fst snd]. iSplit; [quiet|]. iFrame "HL".
      iDestruct ("Hx'" with "Hx") as "Hp".
      iExists (<[x := (p, <[N.to_nat off := Byte v]> cs)]> B). iSplit.
      { iPureIntro. apply has_match_insert; [done|]. split; [done|]. cbn [snd]. apply Forall2_insert; [done|]. by split. }
      rewrite (blocks_perm _ _ (held_update B x _ _ Hbx)) blocks_cons. iFrame.
      iApply (s_perm _ _ _ CA with "HV").
      rewrite (shape_perm _ _ (held_update B x _ _ Hbx)) (shape_perm _ _ (held_delete B x _ Hbx)) !shape_cons.
      unfold bsize. cbn [fst snd]. by rewrite insert_length.
    - destruct (m !! x) as [[p vs]|] eqn:Hx.
      2:{ iApply wp_ret. cbn [fst snd]. iSplit; [quiet|]. iFrame "HL". iExists B. by iFrame. }
      destruct (has_match_some _ _ _ _ _ HB Hx) as (cs&Hbx&Hcs). assert (Hlen := Forall2_length _ _ _ Hcs).
      destruct (vs !! N.to_nat off) as [e|] eqn:Hoff.
      2:{ iApply wp_ret. cbn [fst snd]. iSplit; [quiet|]. iFrame "HL". iExists B. by iFrame. }
      destruct (Forall2_lookup_r _ _ _ _ _ Hcs Hoff) as (c&Hc&[_ Hce]).
      assert (Hlt := lookup_lt_Some _ _ _ Hc).
      rewrite (blocks_perm _ _ (held_delete B x _ Hbx)) blocks_cons. iDestruct "HB" as "[Hp HB]". cbn [fst snd].
      iDestruct (pts_take_ne p cs (p + off) with "[$Hp]") as (c') "(%Hc' & Hx & Hx')"; [iPureIntro; lia|].
      replace (p + off - p) with off in * by lia. rewrite Hc in Hc'. injection Hc' as <-.
      iApply wp_bind. iApply wp_rd. iFrame "Hx". iIntros "Hx". iDestruct ("Hx'" with "Hx") as "Hp".
      rewrite (list_insert_id cs) //.
      iAssert (share b s m (shape L)) with "[HV Hp HB]" as "HS".
      { iExists B. iSplit; [done|]. iFrame "HV". rewrite (blocks_perm _ _ (held_delete B x _ Hbx)) blocks_cons. iFrame. }
      destruct e as [v|]; [|iApply wp_ret; cbn [fst snd]; iSplit; [quiet|iFrame]].
      rewrite bool_decide_true //. iApply wp_ret. cbn [fst snd]. iSplit; [quiet|iFrame].
  Qed.

  Lemma deeds_spec b l s m L : deeds_ask req l ->
    share b s m (shape L) ∗ blocks L ⊢ wp bad (deeds_do A b l (s, m)) (fun q => share b (fst q) (snd q) (shape L) ∗ blocks L).
  Proof.
    revert s m. induction l as [|o l IH]; intros s m Hl; cbn [deeds_do].
    - iIntros "H". by iApply wp_ret.
    - apply Forall_cons_iff in Hl as [Ho Hl]. iIntros "H". iApply wp_bind. iApply wp_strong_mono. iSplitL.
      { iApply deed_spec; [by apply Forall_singleton|done]. }
      iIntros ([s' m']) "[_ H]". cbn [fst snd]. by iApply IH.
  Qed.

  (** All variables are cleared. *)
  Lemma frees_spec b l s m L :
    share b s m (shape L) ∗ blocks L ⊢ wp bad (deeds_do A b (map DFree l) (s, m)) (fun q =>
      ⌈forall x, x ∈ l \/ m !! x = None -> snd q !! x = None⌉ ∗ share b (fst q) (snd q) (shape L) ∗ blocks L).
  Proof.
    revert s m. induction l as [|x l IH]; intros s m; cbn [map deeds_do].
    - iIntros "H". iApply wp_ret. iFrame. iPureIntro. intros y [[]%elem_of_nil|H]; done.
    - iIntros "H". iApply wp_bind. iApply wp_strong_mono. iSplitL; [iApply deed_spec; [by repeat constructor|done]|].
      iIntros ([s' m']) "[%Hd H]". cbn [fst snd] in *. rewrite (Hd x) //.
      iApply wp_strong_mono. iSplitL; [by iApply IH|]. iIntros ([s2 m2]) "[%H2 H]". cbn [fst snd] in *. iFrame. iPureIntro.
      intros y Hy. apply H2. destruct (decide (y = x)) as [->|Hne]; [right; apply lookup_delete|].
      destruct Hy as [[->|Hy]%elem_of_cons|Hy]; [done|by left|right; by rewrite lookup_delete_ne].
  Qed.

  Definition crowd_V (b : N) (s : crowd_st A) (S : list (N * N)) : hpropI :=
    ⌈Forall (deeds_ask req) (cw_plan s)⌉ ∗ share b (cw_in s) (cw_has s) S.

  Lemma turn_spec b s L :
    crowd_V b s (shape L) ∗ blocks L ⊢ wp bad (turn A b s) (fun s' => crowd_V b s' (shape L) ∗ blocks L).
  Proof.
    destruct s as [s m [|l rest]]; unfold turn, crowd_V; cbn [cw_in cw_has cw_plan]; iIntros "[[%Hp HS] HL]".
    - iApply wp_ret. cbn [cw_in cw_has cw_plan]. by iFrame.
    - apply Forall_cons_iff in Hp as [Hl Hp]. iApply wp_bind. iApply wp_strong_mono. iSplitL.
      { iApply deeds_spec; [done|iFrame]. }
      iIntros ([s' m']) "[HS HL]". iApply wp_ret. cbn [cw_in cw_has cw_plan fst snd]. by iFrame.
  Qed.

  Definition crowd_service (plan : list (list deed)) (Hplan : Forall (deeds_ask req) plan) : service bad (crowd A plan) req.
  Proof.
    refine (Service bad (crowd A plan) req crowd_V (s_modest _ _ _ CA) _ _ _ _ _ _ _ _).
    - exact (s_size _ _ _ CA).
    - iIntros (b s S S' HS) "[$ H]". by iApply (share_perm with "H").
    - iIntros (b s S) "[_ (%B & %HB & HV & HB)]". iDestruct (s_good _ _ _ CA with "HV") as %Hg. iPureIntro.
      by apply Forall_app in Hg as [? _].
    - intros b H1 H2 H3. cbn [crowd a_init a_size]. iIntros "H". iApply wp_bind. iApply wp_strong_mono. iSplitL.
      { by iApply (s_init _ _ _ CA). }
      iIntros (s) "HV". iApply wp_ret. unfold crowd_V. cbn [cw_in cw_has cw_plan]. iSplit; [done|].
      iExists ∅. iSplit; [iPureIntro; intros x; rewrite !lookup_empty; constructor|].
      unfold held. rewrite map_to_list_empty. cbn [map app shape]. iFrame "HV". by rewrite blocks_nil.
    - intros b [s m pl]. cbn [crowd a_dtor a_size]. unfold crowd_V. cbn [cw_in cw_has cw_plan]. iIntros "[%Hp HS]".
      iApply wp_bind. iApply wp_strong_mono. iSplitL.
      { iApply (deeds_spec b (concat pl) s m []); [by apply Forall_concat|]. iFrame "HS". by rewrite blocks_nil. }
      iIntros ([s1 m1]) "[HS HL]". iEval (rewrite blocks_nil) in "HL". cbn [fst snd].
      iApply wp_bind. iApply wp_strong_mono. iSplitL "HS".
      { iApply (frees_spec b (elements (dom m1)) s1 m1 []). iFrame "HS". by rewrite blocks_nil. }
      iIntros ([s2 m2]) "(%Hm & (%B & %HB & HV & HB) & HL')". iEval (rewrite blocks_nil) in "HL'". cbn [fst snd] in *.
      assert (B = ∅) as ->.
      { apply map_eq. intros x. rewrite lookup_empty. apply (has_match_none _ _ _ HB). apply Hm.
        destruct (m1 !! x) eqn:E; [left|by right]. apply elem_of_elements, elem_of_dom. eauto. }
      unfold held. rewrite map_to_list_empty. cbn [map app shape]. iEval (rewrite blocks_nil) in "HB". iClear "HL HL' HB". iApply wp_strong_mono. iSplitL "HV"; [by iApply (s_dtor _ _ _ CA)|].
      by iIntros (_) "$".
    - intros b s L n Hn HW. cbn [crowd a_alloc]. iIntros "H". iApply wp_bind. iApply wp_strong_mono. iSplitL; [by iApply turn_spec|].
      clear s. iIntros (s) "[[%Hp (%B & %HB & HV & HB)] HL]".
      iApply wp_bind. iApply wp_strong_mono. iSplitL "HV HB HL".
      { iApply (s_alloc _ _ _ CA b (cw_in s) (L ++ held B) n); [done..|]. rewrite shape_app blocks_app. iFrame. }
      iIntros ([p s']) "[HL HV]". rewrite blocks_app shape_app. iDestruct "HL" as "[HL HB]". cbn [fst snd].
      iDestruct "HV" as "[[%Hz HV]|(%Hz & Hr & HV)]".
      + iApply wp_bind. iApply wp_strong_mono. iSplitL.
        { iApply (turn_spec b (Crowd s' (cw_has s) (cw_plan s)) L). iFrame "HL". iSplit; [done|]. iExists B. by iFrame. }
        iIntros (s2) "[HS HL]". iApply wp_ret. cbn [fst snd]. iFrame "HL". iLeft. by iFrame.
      + iDestruct "Hr" as (cs) "[[%Hl %Hd] Hr]".
        iApply wp_bind. iApply wp_strong_mono. iSplitL.
        { iApply (turn_spec b (Crowd s' (cw_has s) (cw_plan s)) ((p, cs) :: L)). rewrite blocks_cons. iFrame "HL Hr".
          iSplit; [done|]. iExists B. iFrame "HB". iSplit; [done|]. cbn [cw_in]. rewrite shape_cons. unfold bsize. cbn [fst snd]. by rewrite Hl. }
        iIntros (s2) "[HS HL]". iApply wp_ret. cbn [fst snd]. rewrite blocks_cons. iDestruct "HL" as "[Hr $]". iRight.
        iSplit; [done|]. iSplitL "Hr"; [by iApply (raw_intro with "Hr")|]. rewrite shape_cons. unfold bsize. cbn [fst snd]. by rewrite Hl.
    - intros b s p cs L Hd. cbn [crowd a_free]. iIntros "(HS & Hp & HL)".
      iApply wp_bind. iApply wp_strong_mono. iSplitL.
      { iApply (turn_spec b s ((p, cs) :: L)). rewrite blocks_cons. iFrame. }
      clear s. iIntros (s) "[[%Hp (%B & %HB & HV & HB)] HL]". rewrite blocks_cons. iDestruct "HL" as "[Hr HL]".
      iApply wp_bind. iApply wp_strong_mono. iSplitL "HV HB HL Hr".
      { iApply (s_free _ _ _ CA b (cw_in s) p cs (L ++ held B)); [done|]. rewrite shape_app blocks_app. iFrame. }
      iIntros (s') "[HV HL]". rewrite blocks_app shape_app. iDestruct "HL" as "[HL HB]".
      iApply (turn_spec b (Crowd s' (cw_has s) (cw_plan s)) L). iFrame "HL". iSplit; [done|]. iExists B. by iFrame.
    - intros o c b s L q act R [= <-] Hin. iIntros "(HS & HL & Hact)".
      iApply wp_bind. iApply wp_strong_mono. iSplitL "HS HL"; [iApply (turn_spec b s L); iFrame|].
      clear s. iIntros (s) "[[%Hp (%B & %HB & HV & HB)] HL]".
      iApply wp_bind. iApply wp_strong_mono. iSplitL "HV HB HL Hact".
      { iApply (serve_cd CA b c (cw_in s) (L ++ held B) q act (fun _ => R tt ∗ blocks (held B))%I).
        { destruct Hin as (p&n&H1&H2). exists p, n. split; [|done]. rewrite shape_app. apply elem_of_app. by left. }
        rewrite shape_app blocks_app. iFrame. iIntros "[HL HB]". iApply wp_strong_mono. iSplitL "HL Hact"; [by iApply "Hact"|].
        iIntros ([]) "$". done. }
      iIntros (s') "(HV & HR & HB)". iApply wp_ret. iFrame "HR". iSplit; [done|]. iExists B. rewrite shape_app. by iFrame.
  Defined.
End crowd.
