(** Containers over shared handles: blocks live exactly as long as they are needed. *)
From iris.proofmode Require Import tactics.
From Verif Require Import Base Mem Sep Wp Allocators Contract Service Client Env EnvProofs SharedCont.
From Verif Require SharedSafe.

Local Open Scope N_scope.

(** * Counting *)
Definition hit (x g : nat) : nat := if decide (g = x) then 1%nat else 0%nat.

Lemma hit_same g : hit g g = 1%nat.
Proof. unfold hit. by rewrite decide_True. Qed.

Lemma count_new g m h x : m !! h = None -> count_of g (<[h := x]> m) = (hit x g + count_of g m)%nat.
Proof.
  intros Hh. unfold count_of, hit. destruct (decide (g = x)) as [->|Hx].
  - rewrite map_filter_insert_True //. apply map_size_insert_None. apply map_filter_lookup_None. by left.
  - rewrite map_filter_insert_not'; [done|cbn; congruence|intros y; by rewrite Hh].
Qed.
Lemma count_del g m h x : m !! h = Some x -> count_of g m = (hit x g + count_of g (delete h m))%nat.
Proof. intros Hh. rewrite -{1}(insert_id m h x Hh) -insert_delete_insert. apply count_new. apply lookup_delete. Qed.
Lemma count_ins g m h x : count_of g (<[h := x]> m) = (hit x g + count_of g (delete h m))%nat.
Proof. rewrite -insert_delete_insert. apply count_new. apply lookup_delete. Qed.
Lemma count_pos g m : (0 < count_of g m)%nat <-> exists h, m !! h = Some g.
Proof.
  unfold count_of. split.
  - intros H. destruct (map_choose (filter (fun kv : nat * nat => snd kv = g) m)) as (h&x&Hx).
    { intros E. rewrite E map_size_empty in H. lia. }
    apply map_filter_lookup_Some in Hx as [Hx Hg]. cbn in Hg. subst x. by exists h.
  - intros [h Hh]. apply Nat.neq_0_lt_0. intros E. apply map_size_empty_inv in E.
    assert (filter (fun kv : nat * nat => snd kv = g) m !! h = Some g) as H by by apply map_filter_lookup_Some.
    by rewrite E in H.
Qed.
Lemma count_le g m : (count_of g m <= size m)%nat.
Proof. unfold count_of. rewrite -!size_dom. apply subseteq_size, subseteq_dom, map_filter_subseteq. Qed.

Lemma size_ins (m : gmap nat nat) h x : (size (<[h := x]> m) <= S (size m))%nat.
Proof. rewrite map_size_insert. destruct (m !! h); cbn; lia. Qed.
Lemma size_del (m : gmap nat nat) h : (size (delete h m) <= size m)%nat.
Proof. rewrite map_size_delete. destruct (m !! h); cbn; lia. Qed.

(** The use count of [g] is [f g]; blocks that nobody uses do not exist. *)
Definition tally (f : nat -> nat) (C : gmap nat N) : Prop :=
  forall g, C !! g = if decide (f g = 0%nat) then None else Some (N.of_nat (f g)).

Lemma tally_dom f C g : tally f C -> g ∈ dom C <-> (0 < f g)%nat.
Proof.
  intros H. rewrite elem_of_dom H. destruct (decide _) as [->|Hn]; [|split; [lia|by eexists]].
  split; [by intros []|lia].
Qed.

Lemma mine_none g (B : list oblk) : Forall (fun x : oblk => fst x <> g) B -> mine g B = [].
Proof.
  intros H. unfold mine. induction H as [|x B Hx HB IH]; [done|]. by rewrite filter_cons_False.
Qed.

Section blocks.
  Context {bad : event -> bool} {A : alloc} {req : N -> bool}.
  Context (CA : service bad A req) (H0 : a_size A = 0).
  Local Notation inv := (inv CA 16).

  Lemma grab_spec f f' g (E : env A) C (P : hpropI) : tally f C -> (0 < f g)%nat -> N.of_nat (f g) + 1 < W ->
    (forall g', f' g' = (hit g g' + f g')%nat) ->
    P ⊢ wp bad (grab g (E, C)) (fun r => ⌈fst r = E /\ tally f' (snd r) /\ dom (snd r) = dom C⌉ ∗ P).
  Proof.
    intros HT Hg HW Hf. iIntros "H". unfold grab. rewrite (HT g) decide_False; [|lia].
    iApply wp_ret. cbn [fst snd]. iFrame "H". iPureIntro. split_and!; [done| |].
    - intros g'. rewrite Hf. unfold hit. destruct (decide (g' = g)) as [->|Hne].
      + rewrite lookup_insert. destruct (decide _) as [Hz'|Hz']; [lia|]. f_equal. unfold add64, w64. rewrite N.mod_small; lia.
      + rewrite lookup_insert_ne; [|done]. by rewrite HT.
    - apply dom_insert_lookup_L. rewrite (HT g) decide_False; [by eexists|lia].
  Qed.

  Lemma drop_spec f f' g (E : env A) C B : tally f C -> N.of_nat (f g) < W ->
    (forall g', f g' = (hit g g' + f' g')%nat) -> (f' g = 0%nat -> mine g B = []) ->
    inv (dom C) E B ⊢ wp bad (drop_ g (E, C)) (fun r => ⌈tally f' (snd r)⌉ ∗ inv (dom (snd r)) (fst r) B).
  Proof.
    intros HT HW Hf HB. assert (Hg : f g = S (f' g)) by by rewrite Hf hit_same.
    iIntros "H". unfold drop_. rewrite (HT g) decide_False; [|lia].
    destruct (N.eqb_spec (N.of_nat (f g)) 1) as [H1|H1].
    - assert (f' g = 0%nat) as Hz by lia. iApply wp_bind. iApply wp_strong_mono. iSplitL.
      { iApply (te_dtor_spec with "H"); [|by apply HB]. apply (tally_dom f); [done|lia]. }
      iIntros (E') "[H Hr]". iApply wp_ret. cbn [fst snd]. rewrite H0. rewrite raw_0. iClear "Hr".
      iSplitR.
      + iPureIntro. intros g'. destruct (decide (g' = g)) as [->|Hne].
        * by rewrite lookup_delete decide_True.
        * rewrite lookup_delete_ne; [|done]. rewrite HT Hf. unfold hit. by rewrite (decide_False (P := g' = g)).
      + by rewrite dom_delete_L.
    - iApply wp_ret. cbn [fst snd]. iSplitR.
      + iPureIntro. intros g'. destruct (decide (g' = g)) as [->|Hne].
        * rewrite lookup_insert. destruct (decide _) as [Hz'|Hz']; [lia|]. f_equal. rewrite sub64_small; lia.
        * rewrite lookup_insert_ne; [|done]. rewrite HT Hf. unfold hit. by rewrite (decide_False (P := g' = g)).
      + rewrite dom_insert_lookup_L; [done|]. rewrite (HT g) decide_False; [by eexists|lia].
  Qed.

  Lemma fresh_spec f f' g (E : env A) C B : tally f C -> f g = 0%nat -> Forall (fun x : oblk => fst x ∈ dom C) B ->
    (forall g', f' g' = (hit g g' + f g')%nat) ->
    inv (dom C) E B ⊢ wp bad (fresh_block g (E, C)) (fun r => ⌈tally f' (snd r) /\ dom (snd r) = {[g]} ∪ dom C⌉ ∗ inv (dom (snd r)) (fst r) B).
  Proof.
    intros HT Hz HB Hf. assert (Hn : g ∉ dom C) by (rewrite (tally_dom f) //; lia).
    iIntros "H". unfold fresh_block. iApply wp_bind. iApply wp_strong_mono. iSplitL.
    { iApply (te_init_spec CA 16 (dom C) E B g); [done| |done|done| |].
      - apply mine_none. eapply list.Forall_impl; [exact HB|]. cbn. intros x Hx Hxg. by rewrite Hxg in Hx.
      - unfold at_. rewrite H0. unfold W. lia.
      - rewrite H0 raw_0. by iFrame. }
    iIntros (E') "H". iApply wp_ret. cbn [fst snd]. rewrite dom_insert_L. iFrame "H". iPureIntro. split; [|done].
    intros g'. rewrite Hf. unfold hit. destruct (decide (g' = g)) as [->|Hne].
    - rewrite lookup_insert. destruct (decide _) as [Hz'|Hz']; [lia|]. f_equal. lia.
    - rewrite lookup_insert_ne; [|done]. by rewrite HT.
  Qed.
End blocks.

(** * Programs *)

(** How an operation changes the allocators of the containers. *)
Definition effect (k : kind) (als : gmap nat nat) : gmap nat nat :=
  match k with
  | KBorn c h => <[c := h]> als
  | KCopy c src | KDup c src | KAssign c src => <[c := default 0%nat (als !! src)]> als
  | KKill c => delete c als
  | KUse => als
  end.
Definition needs {X} (k : kind) (m : gmap nat X) : Prop :=
  match k with
  | KBorn c h => m !! c = None
  | KCopy c src | KDup c src => m !! c = None /\ is_Some (m !! src)
  | KAssign c src => is_Some (m !! c) /\ is_Some (m !! src)
  | KKill c => is_Some (m !! c)
  | KUse => True
  end.

Definition owners (B : list oblk) (als : gmap nat nat) : Prop :=
  Forall (fun x : oblk => exists c, als !! c = Some (fst x)) B.
Definition within (als : gmap nat nat) (D : gset nat) : Prop := forall c g, als !! c = Some g -> g ∈ D.

Lemma refs_le hs als g : (refs hs als g <= size hs + size als)%nat.
Proof. unfold refs. pose proof (count_le g hs). pose proof (count_le g als). lia. Qed.
Lemma owners_none B als g : owners B als -> count_of g als = 0%nat -> mine g B = [].
Proof.
  intros HB Hc. apply mine_none. eapply list.Forall_impl; [exact HB|]. cbn. intros x (c&Hx) <-.
  enough (0 < count_of (fst x) als)%nat by lia. apply count_pos. eauto.
Qed.

Lemma tally_ext f f' C : tally f C -> (forall g, f g = f' g) -> tally f' C.
Proof. intros HT Hf g. by rewrite HT Hf. Qed.

(** What is used of the proofs about a container. *)
Section programs.
  Context {bad : event -> bool} {A : alloc} {req : N -> bool}.
  Context (CA : service bad A req) (H0 : a_size A = 0).
  Context (K : cont A) {Sp : Type} (sp_al : Sp -> nat) (sp_info : Sp -> info).
  Context (check : nat -> t_op K -> cobs -> gmap nat Sp -> gmap nat Sp -> Prop).
  Context (Iv : gset nat -> env A -> gmap nat (t_obj K) -> gmap nat Sp -> hpropI).
  Local Notation inv := (inv CA 16).
  Local Notation grab := (grab (A := A)).
  Local Notation drop_ := (drop_ (A := A)).

  Context (I_init : forall D E, inv D E [] ⊢ Iv D E ∅ ∅).
  Context (I_end : forall D E m, Iv D E ∅ m ⊢ inv D E []).
  Context (I_pure : forall D E vs m, Iv D E vs m ⊢
    ⌜t_al K <$> vs = sp_al <$> m /\ t_info K <$> vs = sp_info <$> m /\ within (sp_al <$> m) D⌝).
  Context (I_open : forall D E vs m, Iv D E vs m ⊢ ∃ B, ⌈owners B (sp_al <$> m)⌉ ∗ inv D E B ∗
    (∀ D' E', ⌈within (sp_al <$> m) D'⌉ -∗ inv D' E' B -∗ Iv D' E' vs m)).
  Context (I_do : forall k D E vs m o, t_legal K k (sp_info <$> m) o = true -> (forall c h, t_kind K o = KBorn c h -> h ∈ D) ->
    Iv D E vs m ⊢ wp bad (t_do K o (E, vs)) (fun r => ∃ m', ⌈check k o (fst r) m m'⌉ ∗ Iv D (fst (snd r)) (snd (snd r)) m')).
  Context (I_assign : forall k D E vs m o c src x, t_legal K k (sp_info <$> m) o = true -> t_kind K o = KAssign c src ->
    vs !! c = Some x ->
    Iv D E vs m ⊢ wp bad (t_release K x E) (fun E' => ∃ B, ⌈owners B (delete c (sp_al <$> m))⌉ ∗ inv D E' B ∗
      (∀ D' E'', ⌈within (delete c (sp_al <$> m)) D' /\ (forall g, (sp_al <$> m) !! src = Some g -> g ∈ D')⌉ -∗ inv D' E'' B -∗
        wp bad (t_after K o (E'', vs)) (fun r => ∃ m', ⌈check k o (fst r) m m'⌉ ∗ Iv D' (fst (snd r)) (snd (snd r)) m')))).
  Context (P_with : forall o c h g, t_kind K o = KBorn c h -> t_kind K (t_with K g o) = KBorn c g).
  Context (P_needs : forall k infos o, t_legal K k infos o = true -> needs (t_kind K o) infos).
  Context (P_effect : forall k o ob m m', t_legal K k (sp_info <$> m) o = true -> check k o ob m m' ->
    sp_al <$> m' = effect (t_kind K o) (sp_al <$> m)).

  Definition SI (n : nat) (q : sstate K) (s : sspec) : hpropI :=
    ⌈z_hs s = q_hs q /\ z_next s = q_next q /\ tally (refs (q_hs q) (sp_al <$> z_m s)) (q_cnt q) /\
      (forall g, g ∈ dom (q_cnt q) -> (g < q_next q)%nat) /\
      N.of_nat (size (q_hs q) + size (sp_al <$> z_m s) + n + 1) < W⌉ ∗
    Iv (dom (q_cnt q)) (q_env q) (q_vs q) (z_m s).

  Lemma needs_als k m : needs k (sp_info <$> m) -> needs k (sp_al <$> m).
  Proof. destruct k; cbn; rewrite ?lookup_fmap ?fmap_None ?fmap_is_Some //. Qed.

  (** A block is left by a handle of the program. *)
  Lemma leave f' g D E C vs m hs : D = dom C -> tally (refs hs (sp_al <$> m)) C ->
    N.of_nat (refs hs (sp_al <$> m) g) < W ->
    (forall g', refs hs (sp_al <$> m) g' = (hit g g' + f' g')%nat) -> (forall g, count_of g (sp_al <$> m) <= f' g)%nat ->
    Iv D E vs m ⊢ wp bad (drop_ g (E, C)) (fun r => ⌈tally f' (snd r)⌉ ∗ Iv (dom (snd r)) (fst r) vs m).
  Proof.
    intros -> HT HW Hf Hc. iIntros "H". iDestruct (I_open with "H") as (B) "(%HB & H & Hclose)".
    iApply wp_strong_mono. iSplitL "H".
    { iApply (drop_spec CA H0 _ f' with "H"); [done|done|done|]. intros Hz. eapply owners_none; [done|].
      specialize (Hc g). lia. }
    iIntros ([E' C']) "[%HT' H]". cbn [fst snd] in *. iSplitR; [done|]. iApply ("Hclose" with "[] H").
    iPureIntro. intros c g' Hg'. apply (tally_dom f'); [done|]. specialize (Hc g').
    enough (0 < count_of g' (sp_al <$> m))%nat by lia. apply count_pos. eauto.
  Qed.

  Lemma sstep_spec n o q s : SI (S n) q s ⊢ wp bad (sstep K o q) (fun r =>
    ∃ s', ⌈scheck K sp_al sp_info check o (fst r) s s'⌉ ∗ SI n (snd r) s').
  Proof.
    destruct q as [E C hs vs nx], s as [hs' m nx']. unfold SI, sstep, scheck. cbn [z_hs z_m z_next q_env q_cnt q_hs q_vs q_next].
    iIntros "[%HH H]". destruct HH as (->&->&HT&Hnx&HW).
    iDestruct (I_pure with "H") as %(Hal&Hin&Hwi). rewrite Hal Hin.
    set (als := sp_al <$> m) in *.
    assert (Hle : forall g, N.of_nat (refs hs als g) + 2 < W) by (intros g; pose proof (refs_le hs als g); lia).
    assert (Hpos : forall h g, hs !! h = Some g -> (0 < count_of g hs)%nat) by (intros; apply count_pos; eauto).
    assert (Hpos' : forall c g, als !! c = Some g -> (0 < count_of g als)%nat) by (intros; apply count_pos; eauto).
    destruct (slegal K o hs als (sp_info <$> m) nx) eqn:HL.
    2:{ iApply wp_ret. cbn [fst snd]. iExists _. iSplitR; [done|]. iFrame "H". iPureIntro.
        cbn [z_hs z_m z_next q_env q_cnt q_hs q_vs q_next]. split_and!; try done. fold als. lia. }
    destruct o as [h|h src|h src|h|o|o]; cbn [sdo slegal scheck_do] in *.
    - (* SNew *) apply bool_decide_eq_true in HL.
      assert (Hfr : refs hs als nx = 0%nat).
      { destruct (refs hs als nx) eqn:Hr; [done|]. specialize (Hnx nx). rewrite (tally_dom _ _ _ HT) in Hnx. lia. }
      iDestruct (I_open with "H") as (B) "(%HB & H & Hclose)".
      iApply wp_bind. iApply wp_strong_mono. iSplitL "H".
      { iApply (fresh_spec CA H0 _ (refs (<[h := nx]> hs) als) with "H"); [done|done| |].
        - eapply list.Forall_impl; [exact HB|]. intros x (c&Hc). by eapply Hwi.
        - intros g. unfold refs. rewrite count_new //. lia. }
      iIntros ([E' C']) "[[%HT' %HD] H]". cbn [fst snd] in *. iApply wp_ret. cbn [fst snd].
      iExists _. iSplitR; [done|]. cbn [z_hs z_m z_next q_env q_cnt q_hs q_vs q_next]. iSplitR.
      + iPureIntro. split_and!; try done.
        * intros g. rewrite HD elem_of_union elem_of_singleton. intros [->|Hg]; [lia|]. specialize (Hnx _ Hg). lia.
        * fold als. pose proof (size_ins hs h nx). lia.
      + iApply ("Hclose" with "[] H"). iPureIntro. intros c g Hg. rewrite HD. apply elem_of_union_r. by eapply Hwi.
    - (* SCopy *) apply andb_true_iff in HL as [HL HL2]. apply bool_decide_eq_true in HL, HL2. destruct HL2 as [g Hg].
      unfold handle. cbn [q_hs]. rewrite Hg. iApply wp_bind. iApply wp_ret. iApply wp_bind. iApply wp_strong_mono. iSplitL "H".
      { iApply (grab_spec H0 (refs hs als) (refs (<[h := g]> hs) als) with "H"); [done|specialize (Hpos _ _ Hg); unfold refs; lia|specialize (Hle g); lia|].
        intros g'. unfold refs. rewrite count_new //. lia. }
      iIntros ([E' C']) "[(%HE & %HT' & %HD) H]". cbn [fst snd] in *. subst E'. iApply wp_ret. cbn [fst snd].
      iExists _. iSplitR; [iPureIntro; split; [done|]; by exists g|]. cbn [z_hs z_m z_next q_env q_cnt q_hs q_vs q_next]. rewrite HD. iFrame "H".
      iPureIntro. split_and!; try done. fold als. pose proof (size_ins hs h g). lia.
    - (* SAssign *) apply andb_true_iff in HL as [HL HL3]. apply andb_true_iff in HL as [HL HL2].
      apply bool_decide_eq_true in HL, HL2. destruct HL as [g0 Hg0], HL2 as [g Hg]. rewrite Hg0 in HL3.
      assert (Hrd : forall g', refs hs als g' = (hit g0 g' + refs (delete h hs) als g')%nat).
      { intros g'. unfold refs. rewrite (count_del g' hs h g0 Hg0). lia. }
      unfold handle at 1. cbn [q_hs]. rewrite Hg0. iApply wp_bind. iApply wp_ret. iApply wp_bind. iApply wp_strong_mono. iSplitL "H".
      { iApply (leave (refs (delete h hs) als) g0 _ _ _ _ m hs with "H"); fold als; [done|done|specialize (Hle g0); lia|done|].
        intros g'. unfold refs. lia. }
      iIntros ([E' C']) "[%HT' H]". cbn [fst snd] in *.
      unfold handle. cbn [q_hs]. rewrite Hg. iApply wp_bind. iApply wp_ret. iApply wp_bind. iApply wp_strong_mono. iSplitL "H".
      { iApply (grab_spec H0 (refs (delete h hs) als) (refs (<[h := g]> hs) als) with "H"); [done| | |].
        - destruct (decide (h = src)) as [->|Hne].
          + rewrite Hg0 in Hg. injection Hg as ->. rewrite bool_decide_eq_true_2 // in HL3. cbn [negb orb shared_by_others] in HL3. apply Nat.ltb_lt in HL3.
            rewrite Hrd hit_same in HL3. lia.
          + assert (0 < count_of g (delete h hs))%nat; [|unfold refs; lia]. apply count_pos. exists src. by rewrite lookup_delete_ne.
        - specialize (Hle g). rewrite Hrd in Hle. lia.
        - intros g'. unfold refs. rewrite count_ins. lia. }
      iIntros ([E2 C2]) "[(%HE & %HT2 & %HD) H]". cbn [fst snd] in *. subst E2. iApply wp_ret. cbn [fst snd].
      iExists _. iSplitR; [iPureIntro; split; [done|]; by exists g|]. cbn [z_hs z_m z_next q_env q_cnt q_hs q_vs q_next]. rewrite HD. iFrame "H".
      iPureIntro. split_and!; try done.
      + intros g' Hg'. apply (tally_dom _ _ _ HT') in Hg'. apply Hnx. apply (tally_dom _ _ _ HT). rewrite Hrd. lia.
      + fold als. pose proof (size_ins hs h g). lia.
    - (* SDrop *) apply bool_decide_eq_true in HL. destruct HL as [g0 Hg0].
      assert (Hrd : forall g', refs hs als g' = (hit g0 g' + refs (delete h hs) als g')%nat).
      { intros g'. unfold refs. rewrite (count_del g' hs h g0 Hg0). lia. }
      unfold handle. cbn [q_hs]. rewrite Hg0. iApply wp_bind. iApply wp_ret. iApply wp_bind. iApply wp_strong_mono. iSplitL "H".
      { iApply (leave (refs (delete h hs) als) g0 _ _ _ _ m hs with "H"); fold als; [done|done|specialize (Hle g0); lia|done|].
        intros g'. unfold refs. lia. }
      iIntros ([E' C']) "[%HT' H]". cbn [fst snd] in *. iApply wp_ret. cbn [fst snd].
      iExists _. iSplitR; [done|]. cbn [z_hs z_m z_next q_env q_cnt q_hs q_vs q_next]. iFrame "H".
      iPureIntro. split_and!; try done.
      + intros g' Hg'. apply (tally_dom _ _ _ HT') in Hg'. apply Hnx. apply (tally_dom _ _ _ HT). rewrite Hrd. lia.
      + fold als. pose proof (size_del hs h). lia.
    - (* SDefault *) destruct (t_kind K o) as [c h| | | | |] eqn:Hk; try done.
      assert (Hfr : refs hs als nx = 0%nat).
      { destruct (refs hs als nx) eqn:Hr; [done|]. specialize (Hnx nx). rewrite (tally_dom _ _ _ HT) in Hnx. lia. }
      pose proof (P_with _ _ _ nx Hk) as Hk'. pose proof (needs_als _ _ (P_needs _ _ _ HL)) as Hn. rewrite Hk' in Hn. cbn in Hn. fold als in Hn.
      iDestruct (I_open with "H") as (B) "(%HB & H & Hclose)".
      iApply wp_bind. iApply wp_strong_mono. iSplitL "H".
      { iApply (fresh_spec CA H0 _ (refs hs (<[c := nx]> als)) with "H"); [done|done| |].
        - eapply list.Forall_impl; [exact HB|]. intros x (c'&Hc). by eapply Hwi.
        - intros g. unfold refs. rewrite count_new //. lia. }
      iIntros ([E' C']) "[[%HT' %HD] H]". cbn [fst snd] in *.
      iSpecialize ("Hclose" with "[] H").
      { iPureIntro. intros c' g Hg. rewrite HD. apply elem_of_union_r. by eapply Hwi. }
      iApply wp_bind. iApply wp_strong_mono. iSplitL.
      { iApply (I_do with "Hclose"); [done|]. intros c' h'. rewrite Hk'. intros [= -> <-]. rewrite HD. set_solver. }
      iIntros ([ob [E2 vs2]]) "H". iDestruct "H" as (m') "[%Hc H]". cbn [fst snd] in *.
      pose proof (P_effect _ _ _ _ _ HL Hc) as He. rewrite Hk' in He. cbn in He. fold als in He.
      iApply wp_ret. cbn [fst snd]. iExists _. iSplitR; [iPureIntro; by exists m'|].
      cbn [z_hs z_m z_next q_env q_cnt q_hs q_vs q_next]. rewrite He. iFrame "H". iPureIntro. split_and!; try done.
      + intros g. rewrite HD elem_of_union elem_of_singleton. intros [->|Hg]; [lia|]. specialize (Hnx _ Hg). lia.
      + pose proof (size_ins als c nx). lia.
    - (* SOp *)
      destruct (target K hs o) as [o'|] eqn:Ht; [|done]. apply andb_true_iff in HL as [HL HL2]. unfold target in Ht.
      pose proof (needs_als _ _ (P_needs _ _ _ HL)) as Hn. fold als in Hn.
      destruct (t_kind K o) as [c h|c src|c src|c|c src|] eqn:Hk.
      + destruct (hs !! h) as [g|] eqn:Hg; [|done]. injection Ht as <-.
        pose proof (P_with _ _ _ g Hk) as Hk'. rewrite Hk' in Hn. cbn in Hn.
        unfold handle. cbn [q_hs]. rewrite Hg. iApply wp_bind. iApply wp_ret. iApply wp_bind. iApply wp_strong_mono. iSplitL "H".
        { iApply (grab_spec H0 (refs hs als) (refs hs (<[c := g]> als)) with "H"); [done|specialize (Hpos _ _ Hg); unfold refs; lia|specialize (Hle g); lia|].
          intros g'. unfold refs. rewrite count_new //. lia. }
        iIntros ([E' C']) "[(%HE & %HT' & %HD) H]". cbn [fst snd] in *. subst E'.
        iApply wp_bind. iApply wp_strong_mono. iSplitL.
        { iApply (I_do with "H"); [done|]. intros c' h'. rewrite Hk'. intros [= -> <-].
          apply (tally_dom _ _ _ HT). specialize (Hpos _ _ Hg). unfold refs. lia. }
        iIntros ([ob [E2 vs2]]) "H". iDestruct "H" as (m') "[%Hc H]". cbn [fst snd] in *.
        pose proof (P_effect _ _ _ _ _ HL Hc) as He. rewrite Hk' in He. cbn in He. fold als in He.
        iApply wp_ret. cbn [fst snd]. iExists _. iSplitR.
        { iPureIntro. exists (t_with K g o), m'. split_and!; try done; unfold target; by rewrite Hk Hg. }
        cbn [z_hs z_m z_next q_env q_cnt q_hs q_vs q_next]. rewrite He HD. iFrame "H". iPureIntro. split_and!; try done.
        pose proof (size_ins als c g). lia.
      + injection Ht as <-. rewrite Hk in Hn. destruct Hn as [Hn [g Hg]].
        assert (exists x, vs !! src = Some x /\ t_al K x = g) as (x&Hx&Hxg).
        { rewrite -Hal lookup_fmap in Hg. destruct (vs !! src) as [x|]; [|done]. injection Hg as <-. eauto. }
        unfold alloc_of. cbn [q_vs]. rewrite Hx Hxg. iApply wp_bind. iApply wp_ret.
        pose proof (Hpos' _ _ Hg) as Hp. pose proof (Hle g) as Hl.
        assert (Hrn : forall g', refs hs (<[c := g]> als) g' = (hit g g' + refs hs als g')%nat).
        { intros g'. unfold refs. rewrite count_new //. lia. }
        set (f2 := fun g' => (hit g g' + refs hs (<[c := g]> als) g')%nat).
        iApply wp_bind. iApply wp_strong_mono. iSplitL "H".
        { iApply (grab_spec H0 (refs hs als) (refs hs (<[c := g]> als)) with "H"); [done|unfold refs; lia|lia|done]. }
        iIntros ([E' C']) "[(%HE & %HT' & %HD) H]". cbn [fst snd] in *. subst E'.
        iApply wp_bind. iApply wp_strong_mono. iSplitL "H".
        { iApply (grab_spec H0 (refs hs (<[c := g]> als)) f2 with "H"); [done|rewrite Hrn hit_same; lia|rewrite Hrn hit_same; lia|done]. }
        iIntros ([E' C2]) "[(%HE & %HT2 & %HD2) H]". cbn [fst snd] in *. subst E'.
        iDestruct (I_open with "H") as (B) "(%HB & H & Hclose)".
        rewrite -HD -HD2.
        iApply wp_bind. iApply wp_strong_mono. iSplitL "H".
        { iApply (drop_spec CA H0 f2 (refs hs (<[c := g]> als)) with "H"); [done| |done|].
          - subst f2. cbn. rewrite Hrn hit_same. lia.
          - rewrite Hrn hit_same. lia. }
        iIntros ([E3 C3]) "[%HT3 H]". cbn [fst snd] in *.
        assert (HD3 : dom C3 = dom C').
        { apply set_eq. intros g'. by rewrite (tally_dom _ _ _ HT') (tally_dom _ _ _ HT3). }
        iSpecialize ("Hclose" with "[] H"). { iPureIntro. rewrite HD3 HD. exact Hwi. }
        iApply wp_bind. iApply wp_strong_mono. iSplitL.
        { iApply (I_do with "Hclose"); [done|]. intros c' h'. by rewrite Hk. }
        iIntros ([ob [E4 vs4]]) "H". iDestruct "H" as (m') "[%Hc H]". cbn [fst snd] in *.
        pose proof (P_effect _ _ _ _ _ HL Hc) as He. rewrite Hk in He. cbn in He. fold als in He. rewrite Hg in He. cbn in He.
        iApply wp_ret. cbn [fst snd]. iExists _. iSplitR.
        { iPureIntro. exists o, m'. split_and!; try done; unfold target; by rewrite Hk. }
        cbn [z_hs z_m z_next q_env q_cnt q_hs q_vs q_next]. rewrite He. iFrame "H". iPureIntro. split_and!; try done.
        * rewrite HD3 HD. done.
        * pose proof (size_ins als c g). lia.
      + injection Ht as <-. rewrite Hk in Hn. destruct Hn as [Hn [g Hg]].
        assert (exists x, vs !! src = Some x /\ t_al K x = g) as (x&Hx&Hxg).
        { rewrite -Hal lookup_fmap in Hg. destruct (vs !! src) as [x|]; [|done]. injection Hg as <-. eauto. }
        unfold alloc_of. cbn [q_vs]. rewrite Hx Hxg. iApply wp_bind. iApply wp_ret.
        pose proof (Hpos' _ _ Hg) as Hp. pose proof (Hle g) as Hl.
        iApply wp_bind. iApply wp_strong_mono. iSplitL "H".
        { iApply (grab_spec H0 (refs hs als) (refs hs (<[c := g]> als)) with "H"); [done|unfold refs; lia|lia|].
          intros g'. unfold refs. rewrite count_new //. lia. }
        iIntros ([E' C']) "[(%HE & %HT' & %HD) H]". cbn [fst snd] in *. subst E'.
        iApply wp_bind. iApply wp_strong_mono. iSplitL.
        { iApply (I_do with "H"); [done|]. intros c' h'. by rewrite Hk. }
        iIntros ([ob [E4 vs4]]) "H". iDestruct "H" as (m') "[%Hc H]". cbn [fst snd] in *.
        pose proof (P_effect _ _ _ _ _ HL Hc) as He. rewrite Hk in He. cbn in He. fold als in He. rewrite Hg in He. cbn in He.
        iApply wp_ret. cbn [fst snd]. iExists _. iSplitR.
        { iPureIntro. exists o, m'. split_and!; try done; unfold target; by rewrite Hk. }
        cbn [z_hs z_m z_next q_env q_cnt q_hs q_vs q_next]. rewrite He HD. iFrame "H". iPureIntro. split_and!; try done.
        pose proof (size_ins als c g). lia.
      + injection Ht as <-. rewrite Hk in Hn. destruct Hn as [g Hg].
        assert (exists x, vs !! c = Some x /\ t_al K x = g) as (x&Hx&Hxg).
        { rewrite -Hal lookup_fmap in Hg. destruct (vs !! c) as [x|]; [|done]. injection Hg as <-. eauto. }
        unfold alloc_of. cbn [q_vs]. rewrite Hx Hxg. iApply wp_bind. iApply wp_ret.
        assert (Hrd : forall g', refs hs als g' = (hit g g' + refs hs (delete c als) g')%nat).
        { intros g'. unfold refs. rewrite (count_del g' als c g Hg). lia. }
        iApply wp_bind. iApply wp_strong_mono. iSplitL.
        { iApply (I_do with "H"); [done|]. intros c' h'. by rewrite Hk. }
        iIntros ([ob [E4 vs4]]) "H". iDestruct "H" as (m') "[%Hc H]". cbn [fst snd] in *.
        pose proof (P_effect _ _ _ _ _ HL Hc) as He. rewrite Hk in He. cbn in He. fold als in He.
        iDestruct (I_open with "H") as (B) "(%HB & H & Hclose)". rewrite He in HB |- *.
        iApply wp_bind. iApply wp_strong_mono. iSplitL "H".
        { iApply (drop_spec CA H0 (refs hs als) (refs hs (delete c als)) with "H"); [done|specialize (Hle g); lia|done|].
          intros Hz. eapply owners_none; [done|]. unfold refs in Hz. lia. }
        iIntros ([E' C']) "[%HT' H]". cbn [fst snd] in *.
        iApply wp_ret. cbn [fst snd]. iExists _. iSplitR.
        { iPureIntro. exists o, m'. split_and!; try done; unfold target; by rewrite Hk. }
        cbn [z_hs z_m z_next q_env q_cnt q_hs q_vs q_next]. rewrite He. iSplitR.
        * iPureIntro. split_and!; try done.
          -- intros g' Hg'. apply (tally_dom _ _ _ HT') in Hg'. apply Hnx. apply (tally_dom _ _ _ HT). rewrite Hrd. lia.
          -- pose proof (size_del als c). lia.
        * iApply ("Hclose" with "[] H"). iPureIntro. intros c' g' Hg'. apply (tally_dom _ _ _ HT').
          assert (0 < count_of g' (delete c als))%nat; [|unfold refs; lia]. apply count_pos. eauto.
      + injection Ht as <-. rewrite Hk in Hn. destruct Hn as [[g0 Hg0] [g Hg]].
        assert (exists x, vs !! c = Some x /\ t_al K x = g0) as (x&Hx&Hxg).
        { rewrite -Hal lookup_fmap in Hg0. destruct (vs !! c) as [x|]; [|done]. injection Hg0 as <-. eauto. }
        assert (exists x, vs !! src = Some x /\ t_al K x = g) as (y&Hy&Hyg).
        { rewrite -Hal lookup_fmap in Hg. destruct (vs !! src) as [y|]; [|done]. injection Hg as <-. eauto. }
        rewrite Hx Hxg. unfold alloc_of. cbn [q_vs]. rewrite Hy Hyg.
        assert (Hrd : forall g', refs hs als g' = (hit g0 g' + refs hs (delete c als) g')%nat).
        { intros g'. unfold refs. rewrite (count_del g' als c g0 Hg0). lia. }
        assert (Hgp : (0 < refs hs (delete c als) g)%nat).
        { destruct (decide (c = src)) as [->|Hne].
          - rewrite Hg0 in Hg. injection Hg as ->. rewrite bool_decide_eq_true_2 // Hg0 in HL2. cbn [negb orb shared_by_others] in HL2. apply Nat.ltb_lt in HL2.
            rewrite Hrd hit_same in HL2. lia.
          - assert (0 < count_of g (delete c als))%nat; [|unfold refs; lia]. apply count_pos. exists src. by rewrite lookup_delete_ne. }
        iApply wp_bind. iApply wp_strong_mono. iSplitL; [by iApply (I_assign with "H")|].
        iIntros (E1) "H". iDestruct "H" as (B) "(%HB & H & Hafter)". fold als in HB |- *.
        iApply wp_bind. iApply wp_strong_mono. iSplitL "H".
        { iApply (drop_spec CA H0 (refs hs als) (refs hs (delete c als)) with "H"); [done|specialize (Hle g0); lia|done|].
          intros Hz. eapply owners_none; [done|]. unfold refs in Hz. lia. }
        iIntros ([E2 C2]) "[%HT2 H]". cbn [fst snd] in *. iApply wp_bind. iApply wp_ret.
        iApply wp_bind. iApply wp_strong_mono. iSplitL "H".
        { iApply (grab_spec H0 (refs hs (delete c als)) (refs hs (<[c := g]> als)) with "H"); [done|done| |].
          - specialize (Hle g). rewrite Hrd in Hle. lia.
          - intros g'. unfold refs. rewrite count_ins. lia. }
        iIntros ([E' C3]) "[(%HE & %HT3 & %HD) H]". cbn [fst snd] in *. subst E'.
        iApply wp_bind. iApply wp_strong_mono. iSplitL.
        { iApply ("Hafter" with "[] H"). iPureIntro. split.
          - intros c' g' Hg'. apply (tally_dom _ _ _ HT2).
            assert (0 < count_of g' (delete c als))%nat; [|unfold refs; lia]. apply count_pos. eauto.
          - intros g' Hg'. rewrite Hg in Hg'. injection Hg' as <-. by apply (tally_dom _ _ _ HT2). }
        iIntros ([ob [E4 vs4]]) "H". iDestruct "H" as (m') "[%Hc H]". cbn [fst snd] in *.
        pose proof (P_effect _ _ _ _ _ HL Hc) as He. rewrite Hk in He. cbn in He. fold als in He. rewrite Hg in He. cbn in He.
        iApply wp_ret. cbn [fst snd]. iExists _. iSplitR.
        { iPureIntro. exists o, m'. split_and!; try done; unfold target; by rewrite Hk. }
        cbn [z_hs z_m z_next q_env q_cnt q_hs q_vs q_next]. rewrite He HD. iFrame "H". iPureIntro. split_and!; try done.
        * intros g' Hg'. apply (tally_dom _ _ _ HT2) in Hg'. apply Hnx. apply (tally_dom _ _ _ HT). rewrite Hrd. lia.
        * pose proof (size_ins als c g). lia.
      + injection Ht as <-. iApply wp_bind. iApply wp_strong_mono. iSplitL.
        { iApply (I_do with "H"); [done|]. intros c' h'. by rewrite Hk. }
        iIntros ([ob [E2 vs2]]) "H". iDestruct "H" as (m') "[%Hc H]". cbn [fst snd] in *.
        pose proof (P_effect _ _ _ _ _ HL Hc) as He. rewrite Hk in He. cbn in He. fold als in He.
        iApply wp_ret. cbn [fst snd]. iExists _. iSplitR.
        { iPureIntro. exists o, m'. split_and!; try done; unfold target; by rewrite Hk. }
        cbn [z_hs z_m z_next q_env q_cnt q_hs q_vs q_next]. rewrite He. iFrame "H". iPureIntro. split_and!; try done. lia.
  Qed.

  Lemma srun_spec ops q s n : n = length ops -> SI n q s ⊢ wp bad (srun K ops q) (fun r =>
    ⌈ccheck (scheck K sp_al sp_info check) ops (fst r) s⌉ ∗ ∃ s', SI 0 (snd r) s').
  Proof.
    revert q s n. induction ops as [|o ops IH]; intros q s n ->; cbn [srun length].
    - iIntros "H". iApply wp_ret. cbn. iSplitR; [done|]. by iExists s.
    - iIntros "H". iApply wp_bind. iApply wp_strong_mono. iSplitL; [by iApply sstep_spec|].
      iIntros ([ob q']) "H". iDestruct "H" as (s') "[%Hc H]". cbn [fst snd] in *.
      iApply wp_bind. iApply wp_strong_mono. iSplitL; [by iApply IH|].
      iIntros ([os q'']) "[%Hc' H]". cbn [fst snd] in *. iApply wp_ret. cbn. iFrame "H". iPureIntro. by exists s'.
  Qed.

  Lemma sharing_safe ops w : N.of_nat (length ops) + 1 < W -> sharing_ok K sp_al sp_info check bad ops w.
  Proof.
    intros Hlen. unfold sharing_ok.
    assert (Hwp : emp ⊢ wp bad (srun K ops (sstate0 K)) (fun r =>
      ⌈ccheck (scheck K sp_al sp_info check) ops (fst r) sspec0⌉ ∗ ∃ s', SI 0 (snd r) s')).
    { rewrite -(srun_spec ops _ _ _ eq_refl). unfold SI, sstate0, sspec0. cbn [z_hs z_m z_next q_env q_cnt q_hs q_vs q_next].
      iIntros "_". iSplitR.
      - iPureIntro. rewrite fmap_empty !map_size_empty. split_and!; try done. lia.
      - rewrite dom_empty_L. iApply I_init. rewrite inv_alone. unfold inv0. rewrite big_sepM_empty. iSplit; [|done].
        iPureIntro. split; [by rewrite dom_empty_L|constructor]. }
    apply (SharedSafe.wp_adequate_emp _ _ _ w) in Hwp.
    destruct (srun K ops (sstate0 K) w) as [[os q] w' e|u e]; [|done]. cbn [fst snd] in Hwp.
    destruct Hwp as [Hb|(H1&h&H2&H3&H4)]; [by left|right].
    assert (Hpure : forall R : Prop, ((⌈ccheck (scheck K sp_al sp_info check) ops os sspec0⌉ ∗ ∃ s', SI 0 q s') ⊢ ⌜R⌝) -> R).
    { intros R HR. rewrite hunfold_entails in HR. apply HR in H4. by rewrite hunfold_pure in H4. }
    split_and!; [done| | | |].
    - apply Hpure. by iIntros "[%H _]".
    - apply Hpure. iIntros "[_ (%s & %HH & H)]". destruct HH as (_&_&HT&_&_).
      iDestruct (I_pure with "H") as %(Hal&_&_). iDestruct (I_open with "H") as (B) "(_ & H & _)".
      iDestruct (inv_bound with "H") as %[HD _]. iPureIntro. intros g. rewrite -elem_of_dom HD (tally_dom _ _ _ HT).
      rewrite -Hal. unfold refs. split.
      + intros Hp. assert (0 < count_of g (q_hs q) \/ 0 < count_of g (t_al K <$> q_vs q))%nat as [Hc|Hc] by lia.
        * left. by apply count_pos.
        * right. apply count_pos in Hc as [c Hc]. rewrite lookup_fmap in Hc.
          destruct (q_vs q !! c) as [x|] eqn:Hx; [|done]. injection Hc as <-. eauto.
      + intros [Hc|(c&x&Hx&Hg)].
        * apply count_pos in Hc. lia.
        * assert (0 < count_of g (t_al K <$> q_vs q))%nat; [|lia]. apply count_pos. exists c. rewrite lookup_fmap Hx. cbn. by f_equal.
    - intros i c Hi. rewrite H2. cbn. rewrite map_union_comm; [|apply H3]. by apply lookup_union_Some_l.
    - intros Hh Hv. assert (Hemp : (⌈ccheck (scheck K sp_al sp_info check) ops os sspec0⌉ ∗ ∃ s', SI 0 q s') ⊢ emp).
      { iIntros "[_ (%s & %HH & H)]". destruct HH as (_&_&HT&_&_).
        iDestruct (I_pure with "H") as %(Hal&_&_). assert (HC : q_cnt q = ∅).
        { apply map_empty. intros g. rewrite (HT g) decide_True; [done|]. rewrite -Hal Hh Hv. unfold refs, count_of.
          rewrite fmap_empty map_filter_empty map_size_empty. done. }
        rewrite HC dom_empty_L Hv. iDestruct (I_end with "H") as "[[%HD _] H]".
        apply dom_empty_inv_L in HD as ->. by rewrite big_sepM_empty. }
      rewrite hunfold_entails in Hemp. apply Hemp in H4. rewrite hunfold_emp in H4. subst h. by rewrite H2 sunion_empty_l.
  Qed.
End programs.
