(** A copy constructor that throws leaves storage behind, and the other heaps as they were. *)
From iris.proofmode Require Import tactics.
From Verif Require Import Base Mem Sep Wp AlignedMalloc Allocators Checked CheckedProofs Tree Client Contract Service TreeProofs
  AllocSpec AllocProofs Adequacy MallocFacts ClientProofs Env EnvProofs Vector ElemProofs RepProofs HeapPure Heap HeapElem HeapSpec
  HeapProofs HeapFacts ContFacts Throw.

Local Open Scope N_scope.

Section throw.
  Context {bad : event -> bool} {A : alloc} {req : N -> bool}.
  Context (CA : service bad A req) (b sz : N) (T : elt) (comp : nat -> value -> value -> bool) (eqv : value -> value -> bool) (k : nat).
  Context (Hsz : 0 < sz) (Hreq : forall n, req n = true -> n < 2 ^ 63).
  Let D : gset nat := set_seq 0 k.
  Local Notation szn := (N.to_nat sz).
  Local Notation sized := (Forall (fun e : list cell => length e = szn)).
  Local Notation ec := (ec sz T).
  Local Notation used BL := (Used _ _ _ CA BL).

  (** The block that belongs to an abandoned construction. *)
  Definition is_torso (t : torso) (x : oblk) : Prop :=
    exists h rs, x = (h, (t_at t, concat (map ec (t_l t) ++ rs))) /\ sized rs /\
      N.of_nat (length (t_l t) + length rs) = t_cap t /\ t_at t <> 0.

  Definition tinv (E : env A) (vs : gmap nat heap) (s : gmap nat sheap * list torso) : hpropI :=
    ∃ BL, ⌈Forall2 is_torso (snd s) BL⌉ ∗ hinv (used BL) b sz T comp D E vs (fst s).

  Lemma throw_spec BL E B h p ms rs : sized rs -> (0 < length rs)%nat ->
    inv (used BL) b D E ((h, (p, concat (map ec ms ++ rs))) :: B) ⊢
    wp bad (construct_throw A b h (p + sz * N.of_nat (length ms)) E) (fun E' =>
      inv (used BL) b D E' ((h, (p, concat (map ec ms ++ rs))) :: B)).
  Proof.
    intros Hs Hl. iIntros "H". unfold construct_throw. iApply wp_strong_mono. iSplitL.
    - iApply (te_cd_spec (used BL) b sz D Hsz E B Construct h p _ _ _ (eq (concat (map ec ms ++ rs))) with "H").
      + rewrite (cells_length (req := req) sz T Hsz Hreq) //. nia.
      + iIntros "H". iApply wp_ret. iExists _. by iFrame.
    - iIntros (E') "(%cs & <- & H)". done.
  Qed.

  Lemma hcopy_throw_spec BL E B h x rs j : h ∈ D -> hrep sz comp D (x, rs) -> hone sz T (x, rs) ⊆ B -> (j < length (p_l x))%nat ->
    inv (used BL) b D E B ⊢ wp bad (hcopy_throw A b sz T h (heap_of x) j E) (fun r => ∃ blk,
      ⌈is_torso (Torso (fst r) (take j (p_l x)) (p_len x)) blk⌉ ∗ inv (used BL) b D (snd r) (blk :: B)).
  Proof.
    intros Hh Hr HB Hj. unfold hcopy_throw, copy_throw. cbn [h_al h_cmp h_size h_cap h_beg heap_of].
    iIntros "H". iApply wp_bind. iApply wp_strong_mono.
    iSplitL; [by iApply (halloc_spec (used BL) b sz T comp D Hsz Hreq _ _ _ (p_cmp x) with "H")|].
    iIntros ([p E']) "H". iDestruct "H" as (rs1) "[%Hr1 H]". cbn [fst snd] in *.
    pose proof (hr_len _ _ _ _ Hr1) as Hl1. cbn [fst snd p_l p_cap length] in Hl1.
    assert (H0 : p_data x <> 0).
    { intros H0. destruct (hrep_null sz comp D Hsz Hreq _ _ Hr H0) as (Hl&_). rewrite Hl in Hj. cbn in Hj. lia. }
    assert (H1 : p <> 0). { apply (hrep_nonnull sz comp D Hsz Hreq _ _ Hr1). cbn. unfold p_len. lia. }
    rewrite (hone_nonnull _ _ (_, rs1)) //. unfold hblk. cbn [fst snd app p_al p_data p_l List.map].
    unfold p_len in Hl1.
    assert (Hlj : length (take j (p_l x)) = j) by (rewrite take_length; lia).
    pose proof (hr_sized _ _ _ _ Hr1) as Hs1. pose proof (hr_raw _ _ _ _ Hr1) as Hd1. cbn [snd] in Hs1, Hd1.
    iApply wp_bind. iApply wp_bind. iApply wp_strong_mono. iSplitL.
    { assert (copy_n A b sz T h p (p_data x) j E' = copy_n A b sz T h (p + sz * N.of_nat (length ([] : list value)))
        (p_data x + sz * N.of_nat 0) (length (take j (p_l x))) E') as ->.
      { rewrite Hlj. f_equal; cbn; lia. }
      iApply (copy_n_spec (used BL) b sz T eqv D Hsz Hreq _ _ _ _ [] _ (p_al x) (p_data x) (p_l x) rs 0 (take j (p_l x)) with "H");
        [done|done|lia| |apply Hr|].
      - apply HB. rewrite hone_nonnull //. by apply elem_of_list_singleton.
      - intros t v Ht. by apply lookup_take_Some in Ht as [Ht _]. }
    iIntros (E2) "H". cbn [app]. rewrite Hlj. iApply wp_strong_mono. iSplitL.
    { replace (N.of_nat j) with (N.of_nat (length (take j (p_l x)))) by (by rewrite Hlj). iApply (throw_spec with "H"); [by apply Forall_drop|]. rewrite drop_length. lia. }
    iIntros (E3) "H". iApply wp_ret. cbn [fst snd]. iExists _. iFrame "H". iPureIntro.
    exists h, (drop j rs1). cbn [t_at t_l t_cap]. split_and!; [done|by apply Forall_drop| |done].
    rewrite Hlj drop_length. unfold p_len. lia.
  Qed.

  Lemma hlist_throw_spec BL E B h q l j : h ∈ D -> (j < length l)%nat ->
    inv (used BL) b D E B ⊢ wp bad (hlist_throw A b sz T comp h q l j E) (fun r => ∃ blk l',
      ⌈l' ≡ₚ take j l /\ is_torso (Torso (fst r) l' (N.of_nat (length l))) blk⌉ ∗ inv (used BL) b D (snd r) (blk :: B)).
  Proof.
    intros Hh Hj. unfold hlist_throw.
    iIntros "H". iApply wp_bind. iApply wp_strong_mono.
    iSplitL; [by iApply (halloc_spec (used BL) b sz T comp D Hsz Hreq _ _ _ q with "H")|].
    iIntros ([p E']) "H". iDestruct "H" as (rs1) "[%Hr1 H]". cbn [fst snd] in *.
    iApply wp_bind. iApply wp_strong_mono. iSplitL.
    { iApply (insert_list_spec (used BL) b sz T comp eqv D Hsz Hreq _ _ (SHeap h q [] (N.of_nat (length l)) p) rs1 with "H"); [done|].
      cbn [p_cap]. unfold p_len. cbn [p_l length]. rewrite take_length. lia. }
    iIntros ([w E2]) "H". iDestruct "H" as (x' rs') "[%HH H]". destruct HH as (G1&G2&G3&G4&G5&G6). cbn [fst snd p_al p_cmp p_cap p_l app] in *. subst w.
    assert (H1 : p_data x' <> 0). { apply (hrep_nonnull sz comp D Hsz Hreq _ _ G2). rewrite G5. lia. }
    iApply wp_ret. cbn [fst snd h_beg heap_of]. rewrite hone_nonnull //. cbn [app]. iExists _, (p_l x'). iFrame "H". iPureIntro.
    split; [done|]. exists (p_al x'), rs'. cbn [t_at t_l t_cap]. split_and!; [done|apply G2| |done].
    rewrite (hr_len _ _ _ _ G2). done.
  Qed.

  (** A block that the heaps do not use any more. *)
  Lemma leave_block BL E Z blk : inv (used BL) b D E (blk :: hbl sz T Z) ⊢ inv (used (blk :: BL)) b D E (hbl sz T Z).
  Proof. apply inv_perm0. cbn [u_more]. rewrite -app_comm_cons. apply Permutation_middle. Qed.

  Lemma tstep_spec o E vs s : no_assign o = true ->
    tinv E vs s ⊢ wp bad (tstep A b sz T comp eqv k o (E, vs)) (fun r =>
      ∃ s', ⌈tcheck sz T comp eqv k o (fst r) s s'⌉ ∗ tinv (fst (snd r)) (snd (snd r)) s').
  Proof.
    intros Hna. destruct s as [m L]. iIntros "H". iDestruct "H" as (BL) "[%HL H]". cbn [fst snd] in *.
    destruct o as [o|src h j|l q h j|c src j]; cbn [tstep tcheck] in *; [| | |done].
    - iApply wp_strong_mono. iSplitL.
      { iApply (hstep_spec (used BL) b sz T comp eqv D Hsz Hreq k o with "H").
        intros h Ho HLg. apply elem_of_set_seq. split; [lia|].
        destruct o; cbn in *; try done; injection Ho as ->; unfold new_name in HLg;
            repeat (apply andb_true_iff in HLg as [HLg ?]); by apply Nat.ltb_lt. }
      iIntros ([ob [E' vs']]) "(%m' & %Hc & H)". cbn [fst snd] in *. iExists (m', L). iSplitR; [done|]. iExists BL. by iFrame.
    - iDestruct "H" as (Z) "[%HH H]". destruct HH as (->&->&HZ). rewrite hget_of. cbn [h_size heap_of].
      destruct (bool_decide (h < k)%nat && (N.of_nat j <? p_len (p_get src (fst <$> Z)))) eqn:Hg.
      2:{ iApply wp_ret. iExists (fst <$> Z, L). iSplitR; [done|]. iExists BL. iSplitR; [done|]. iExists Z. by iFrame. }
      apply andb_true_iff in Hg as [Hh%bool_decide_eq_true Hj%N.ltb_lt].
      unfold p_get in *. rewrite lookup_fmap in Hj |- *. destruct (Z !! src) as [[x rs]|] eqn:Hs; cbn in Hj |- *; [|unfold p_len in Hj; cbn in Hj; lia].
      iApply wp_bind. iApply wp_strong_mono. iSplitL.
      { iApply (hcopy_throw_spec BL _ _ _ x rs with "H"); [apply elem_of_set_seq; lia|by apply (HZ src)|by eapply hbl_in|unfold p_len in Hj; lia]. }
      iIntros ([p E']) "(%blk & %Hb & H)". cbn [fst snd] in *. iApply wp_ret. cbn [fst snd].
      iExists (fst <$> Z, _). iSplitR; [iPureIntro; by exists p|]. iExists (blk :: BL). iSplitR; [iPureIntro; by constructor|].
      iExists Z. iSplitR; [done|]. by iApply leave_block.
    - destruct (bool_decide (h < k)%nat && (j <? length l)%nat) eqn:Hg.
      2:{ iApply wp_ret. iExists (m, L). iSplitR; [done|]. iExists BL. by iFrame. }
      apply andb_true_iff in Hg as [Hh%bool_decide_eq_true Hj%Nat.ltb_lt].
      iDestruct "H" as (Z) "[%HH H]". destruct HH as (->&->&HZ).
      iApply wp_bind. iApply wp_strong_mono. iSplitL.
      { iApply (hlist_throw_spec BL with "H"); [apply elem_of_set_seq; lia|done]. }
      iIntros ([p E']) "(%blk & %l' & [%Hl' %Hb] & H)". cbn [fst snd] in *. iApply wp_ret. cbn [fst snd].
      iExists (fst <$> Z, _). iSplitR; [iPureIntro; by exists p, l'|]. iExists (blk :: BL). iSplitR; [iPureIntro; by constructor|].
      iExists Z. iSplitR; [done|]. by iApply leave_block.
  Qed.

  Lemma trun_spec ops E vs s : forallb no_assign ops = true ->
    tinv E vs s ⊢ wp bad (crun A (tstep A b sz T comp eqv k) ops (E, vs)) (fun r =>
      ∃ s', ⌈ctrace (tcheck sz T comp eqv k) ops (fst r) s s'⌉ ∗ tinv (fst (snd r)) (snd (snd r)) s').
  Proof.
    revert E vs s. induction ops as [|o ops IH]; intros E vs s Hna; cbn [crun]; iIntros "H".
    - iApply wp_ret. cbn [fst snd]. iExists s. by iFrame.
    - cbn [forallb] in Hna. apply andb_true_iff in Hna as [Hn1 Hn2].
      iApply wp_bind. iApply wp_strong_mono. iSplitL; [by iApply tstep_spec|].
      iIntros ([ob [E' vs']]) "(%s' & %Hc & H)". cbn [fst snd] in *.
      iApply wp_bind. iApply wp_strong_mono. iSplitL; [by iApply IH|].
      iIntros ([os [E'' vs'']]) "(%s'' & %Hc' & H)". cbn [fst snd] in *. iApply wp_ret. cbn [fst snd].
      iExists s''. iFrame "H". iPureIntro. by exists s'.
  Qed.

  (** The bytes of the blocks. *)
  Definition bytes_of (x : oblk) : gmap N cell := fill (fst (snd x)) (snd (snd x)).
  Fixpoint separate (BL : list oblk) : Prop :=
    match BL with [] => True | x :: BL => Forall (fun y => bytes_of x ##ₘ bytes_of y) BL /\ separate BL end.

  Lemma oblocks_own BL : oblocks BL ⊢ ∃ m, ⌈Forall (fun x => bytes_of x ⊆ m) BL /\ separate BL⌉ ∗ own m.
  Proof.
    induction BL as [|[h [p cs]] BL IH]; unfold oblocks.
    - iIntros "H". iExists ∅. rewrite own_empty. iFrame. done.
    - rewrite big_sepL_cons. iIntros "[H1 H2]". iDestruct (IH with "H2") as (m) "[%HH H2]". destruct HH as [Hm Hs]. cbn [fst snd].
      rewrite -fill_own. iDestruct (own_sep with "[$H1 $H2]") as "[%Hd H]". iExists _. iFrame "H". iPureIntro.
      split; [|split; [|done]].
      + constructor; [apply map_union_subseteq_l|]. eapply Forall_impl; [|exact Hm]. intros x Hx.
        etrans; [exact Hx|]. by apply map_union_subseteq_r.
      + eapply Forall_impl; [|exact Hm]. intros x Hx. by eapply map_disjoint_weaken_r.
  Qed.

  Lemma tprog_spec ops : b <> 0 -> b mod 16 = 0 -> b + N.of_nat k * a_size A < W -> forallb no_assign ops = true ->
    raw b (N.of_nat k * a_size A) ⊢ wp bad (tprog A b sz T comp eqv k ops) (fun os =>
      ∃ s BL E, ⌈ctrace (tcheck sz T comp eqv k) ops os (∅, []) s /\ Forall2 is_torso (snd s) BL⌉ ∗ inv0 CA b D E BL).
  Proof.
    intros H1 H2 H3 Hna. assert (Hat : at_ A b 0 = b) by (unfold Env.at_; lia).
    unfold tprog. iIntros "Hr". iApply wp_bind. iApply wp_strong_mono. iSplitL "Hr".
    { rewrite -{1}Hat. iApply (init_all_spec CA b ∅ ∅ 0 k); [done..|]. iFrame. iSplit; [|by rewrite big_sepM_empty].
      iPureIntro. split; [by rewrite dom_empty_L|constructor]. }
    iIntros (E) "H". rewrite union_empty_l_L. iApply wp_bind. iApply wp_strong_mono. iSplitL "H".
    { iApply (trun_spec ops E ∅ (∅, [])); [done|]. iExists []. iSplitR; [iPureIntro; constructor|]. cbn [fst]. by iApply (hinv_init CA). }
    iIntros ([os [E' vs]]) "(%s' & %Hc & %BL & %HL & H)". cbn [fst snd] in *.
    iApply wp_bind. iApply wp_strong_mono. iSplitL; [by iApply (hinv_kill (used BL) b sz T comp eqv D Hsz Hreq with "H")|].
    iIntros (E'') "H". iApply wp_ret. iExists s', BL, E''. by iFrame.
  Qed.

  Lemma torso_chunk t x : e_triv T = false -> is_torso t x -> forall m, bytes_of x ⊆ m ->
    t_at t <> 0 /\
    (forall i, i < sz * t_cap t -> is_Some (bytes_of x !! (t_at t + i))) /\
    (forall j v i, t_l t !! j = Some v -> (i < szn)%nat ->
      m !! (t_at t + sz * N.of_nat j + N.of_nat i) = ochunk szn v !! i).
  Proof.
    intros HT (h&rs&->&Hs&Hl&H0) m Hm. unfold bytes_of in *. cbn [fst snd] in *. split_and!; [done|..].
    - intros i Hi. apply fill_dom. rewrite (cells_length (req := req) sz T Hsz Hreq) //. nia.
    - intros j v i Hj Hi. assert (Hjl := lookup_lt_Some _ _ _ Hj).
      destruct (lookup_lt_is_Some_2 (ochunk szn v) i) as [c Hc]; [by rewrite ochunk_length|]. rewrite Hc.
      eapply lookup_weaken; [|exact Hm]. rewrite fill_lookup.
      assert (Hin : t_at t <= t_at t + sz * N.of_nat j + N.of_nat i < t_at t + N.of_nat (length (concat (map ec (t_l t) ++ rs)))).
      { rewrite (cells_length (req := req) sz T Hsz Hreq) //. nia. }
      destruct (_ && _) eqn:Eb; [|lia].
      replace (N.to_nat (t_at t + sz * N.of_nat j + N.of_nat i - t_at t)) with (j * szn + i)%nat by nia.
      rewrite -(take_drop_middle _ _ _ Hj) map_app. cbn [List.map]. rewrite -app_assoc concat_app.
      rewrite lookup_app_r; rewrite (EnvProofs.concat_length szn); try (by apply ec_sized); rewrite map_length take_length; [|nia].
      cbn [app concat]. replace (j * szn + i - j `min` length (t_l t) * szn)%nat with i by nia.
      rewrite lookup_app_l; [|by rewrite ec_length]. unfold HeapElem.ec. by rewrite HT.
  Qed.

  Lemma throw_safe ops w : e_triv T = false -> forallb no_assign ops = true -> place b (N.of_nat k * a_size A) w ->
    match tprog A b sz T comp eqv k ops w with
    | Ok os w' evs => existsb bad evs = true \/
      (forallb benign evs = true /\ exists m L, ctrace (tcheck sz T comp eqv k) ops os (∅, []) (m, L) /\
        Forall (remains sz w') L /\ Forall (obtained sz b (N.of_nat k * a_size A) w) L /\ apart sz L)
    | Err _ evs => existsb bad evs = true
    end.
  Proof.
    intros HT Hna (H1&H2&H3&Hst&H0). set (m := N.of_nat k * a_size A) in *.
    set (n := N.to_nat m). set (mF := clear b n (mem (st w))).
    pose proof (tprog_spec ops H1 H2 H3 Hna) as Hwp.
    assert (Hpre : own (mem (st w)) ⊢ raw b m ∗ own mF).
    { rewrite (own_take (mem (st w)) b n).
      2:{ intros i Hi. destruct (Hst i) as (c&Hc&_); [lia|]. by exists c. }
      iIntros "[Hc $]". iApply (raw_intro with "Hc"); [rewrite Wp.cells_length; lia|].
      apply cells_Forall. intros i Hi. apply Hst. lia. }
    pose proof (wp_adequate_keep bad (tprog A b sz T comp eqv k ops) (fun os mm => exists s BL,
      ctrace (tcheck sz T comp eqv k) ops os (∅, []) s /\ Forall2 is_torso (snd s) BL /\
      Forall (fun x => bytes_of x ⊆ mm) BL /\ separate BL /\ mm ##ₘ mF) (fun _ => True)%I w) as Had.
    lapply Had; clear Had.
    - intros Had. destruct (tprog A b sz T comp eqv k ops w) as [os w' evs|u evs]; [|done].
      destruct Had as [Hbad|(Hben&mm&(s&BL&Hc&HL&Hb&Hs&Hd)&Hmm)]; [by left|right]. split; [done|].
      destruct s as [mm' L]. exists mm', L. cbn [snd] in HL. split; [done|]. clear Hc.
      assert (Hone : forall t x, is_torso t x -> bytes_of x ⊆ mm -> remains sz w' t /\ obtained sz b m w t).
      { intros t x Ht Hx. destruct (torso_chunk t x HT Ht (mem (st w'))) as (G1&G2&G3); [by etrans|].
        assert (G4 : forall i, i < sz * t_cap t -> is_Some (mm !! (t_at t + i))).
        { intros i Hi. destruct (G2 i Hi) as [c Hcc]. exists c. by eapply lookup_weaken. }
        split.
        - split_and!; [done| |done]. intros i Hi. destruct (G4 i Hi) as [c Hcc]. exists c. by eapply lookup_weaken.
        - intros i Hi. destruct (G4 i Hi) as [c Hcc].
          pose proof (map_disjoint_Some_l _ _ _ _ Hd Hcc) as Hn. unfold mF in Hn. rewrite clear_lookup in Hn.
          destruct (_ && _) eqn:Eb; [right; lia|by left]. }
      clear Hmm Hd. induction HL as [|t x L BL Ht HL IH]; [done|].
      apply Forall_cons_iff in Hb as [Hx Hb]. destruct Hs as [Hs1 Hs2]. destruct (IH Hb Hs2) as (I1&I2&I3).
      destruct (Hone t x Ht Hx). split_and!; [by constructor|by constructor|]. split; [|done].
      apply list.Forall_forall. intros t' Ht'. clear I1 I2 I3 IH Hs2 Hone.
      induction HL as [|t2 x2 L BL Ht2 HL IH]; [by apply elem_of_nil in Ht'|].
      apply Forall_cons_iff in Hs1 as [Hs1 Hs2]. apply Forall_cons_iff in Hb as [Hx2 Hb].
      apply elem_of_cons in Ht' as [->|Ht']; [|by apply IH]. intros i [Hi1 Hi2].
      destruct (torso_chunk t x HT Ht mm Hx) as (_&G2&_). destruct (torso_chunk t2 x2 HT Ht2 mm Hx2) as (_&K2&_).
      destruct (G2 (i - t_at t)) as [c Hcc]; [lia|]. destruct (K2 (i - t_at t2)) as [c2 Hcc2]; [lia|].
      replace (t_at t + (i - t_at t)) with i in Hcc by lia. replace (t_at t2 + (i - t_at t2)) with i in Hcc2 by lia.
      pose proof (map_disjoint_Some_l _ _ _ _ Hs1 Hcc). congruence.
    - rewrite Hpre. iIntros "[Hr HF]". iApply wp_strong_mono. iSplitL "Hr"; [by iApply Hwp|].
      iIntros (os) "(%s & %BL & %E & [%Hc %HL] & H)". rewrite inv_split0. iDestruct "H" as "[HC HB]".
      iDestruct (oblocks_own with "HB") as (mm) "[[%Hb %Hs] HB]".
      iDestruct (own_sep_disj with "[$HB $HF]") as %Hd.
      iExists mm. iFrame "HB". iSplitR; [|done]. iPureIntro. by exists s, BL.
  Qed.
End throw.
