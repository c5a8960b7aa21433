(** A pointer to an element is another name of it. *)
From iris.proofmode Require Import tactics.
From Verif Require Import Base Mem Sep Wp AlignedMalloc Allocators Checked CheckedProofs Tree Client Contract Service TreeProofs
  AllocSpec AllocProofs Env EnvProofs Vector ElemProofs RepProofs VectorProofs Array ArrayProofs Ptr.

Local Open Scope N_scope.

Lemma at_elem_spec sz (m : gmap nat svec) a : 0 < sz ->
  if at_elem sz (s_info <$> m) a then exists c i, pointee sz m a c i else nowhere sz m a.
Proof.
  intros Hsz. unfold at_elem.
  assert (Hhit : forall x, hits sz a (s_info x) = true <-> exists i, (i < length (s_l x))%nat /\ a = s_data x + sz * N.of_nat i).
  { intros x. unfold hits, s_info, s_len. cbn [i_data i_size]. split.
    - intros H. apply andb_true_iff in H as [H H3%N.eqb_eq]. apply andb_true_iff in H as [H1%N.leb_le H2%N.ltb_lt].
      exists (N.to_nat ((a - s_data x) / sz)). pose proof (N.div_mod (a - s_data x) sz ltac:(lia)) as Hd. rewrite H3 in Hd.
      rewrite N2Nat.id. split; [|lia]. enough ((a - s_data x) / sz < N.of_nat (length (s_l x))) by lia.
      apply N.div_lt_upper_bound; lia.
    - intros (i&Hi&->). replace (s_data x + sz * N.of_nat i - s_data x) with (N.of_nat i * sz) by lia.
      rewrite N.mod_mul; [|lia]. apply andb_true_iff. split; [|done]. apply andb_true_iff. split; [apply N.leb_le; lia|apply N.ltb_lt; nia]. }
  destruct (existsb _ _) eqn:He.
  - apply existsb_exists in He as ([c y]&Hin&Hy). apply elem_of_list_In, elem_of_map_to_list in Hin. rewrite lookup_fmap in Hin.
    destruct (m !! c) as [x|] eqn:Hx; [|done]. cbn in Hin, Hy. injection Hin as <-. apply Hhit in Hy as (i&Hi&->). exists c, i, x. done.
  - intros c i (x&Hx&Hi&Ha). enough (existsb (fun p => hits sz a (snd p)) (map_to_list (s_info <$> m)) = true) by congruence.
    apply existsb_exists. exists (c, s_info x). split; [|apply Hhit; eauto].
    apply elem_of_list_In, elem_of_map_to_list. by rewrite lookup_fmap Hx.
Qed.

Section ptr.
  Context {bad : event -> bool} {A : alloc} {req : N -> bool}.
  Context (CA : used bad A req) (b sz : N) (D : gset nat) (Hsz : 0 < sz).
  Local Notation inv := (inv CA b D).
  Local Notation szn := (N.to_nat sz).
  Local Notation rep := (rep sz D).
  Local Notation sto := (svec * list (list cell))%type.

  (** Two containers have different storage. *)
  Lemma storage_apart E (Z : gmap nat sto) c c' y y' : map_Forall (fun _ => rep) Z -> Z !! c = Some y -> Z !! c' = Some y' -> c' <> c ->
    inv E (bl Z) ⊢ ⌜forall i i', (i < length (s_l (fst y)))%nat -> (i' < length (s_l (fst y')))%nat ->
      (s_data (fst y) + sz * N.of_nat i <> s_data (fst y') + sz * N.of_nat i')%N⌝.
  Proof.
    intros HZ H1 H2 Hne. pose proof (HZ _ _ H1) as Hr. pose proof (HZ _ _ H2) as Hr'. destruct y as [x es], y' as [x' es'].
    pose proof (rep_le _ _ Hsz _ Hr) as Hl. pose proof (rep_le _ _ Hsz _ Hr') as Hl'. cbn [fst snd] in *.
    destruct (N.eq_dec (s_data x) 0) as [H0|H0].
    { destruct (rep_null _ _ Hsz _ Hr H0) as (_&Hn&_). cbn in Hn. iIntros "_". iPureIntro. intros i i' Hi. rewrite Hn in Hi. cbn in Hi. lia. }
    destruct (N.eq_dec (s_data x') 0) as [H0'|H0'].
    { destruct (rep_null _ _ Hsz _ Hr' H0') as (_&Hn&_). cbn in Hn. iIntros "_". iPureIntro. intros i i' _ Hi. rewrite Hn in Hi. cbn in Hi. lia. }
    assert (Hp : bl Z ≡ₚ (s_al x, (s_data x, concat es)) :: (s_al x', (s_data x', concat es')) :: bl (delete c' (delete c Z))).
    { rewrite (bl_delete _ _ _ H1). rewrite (bl_delete (delete c Z) c' (x', es')); [|by rewrite lookup_delete_ne].
      rewrite !one_nonnull //. }
    rewrite (inv_perm _ _ _ _ _ _ Hp) inv_acc2. iIntros "(Hp1 & Hp2 & _)".
    iDestruct (pts_disj with "[$Hp1 $Hp2]") as %Hd. iPureIntro. intros i i' Hi Hi'.
    pose proof (r_sized _ _ _ Hr) as Hs1. pose proof (r_sized _ _ _ Hr') as Hs2. cbn [snd] in Hs1, Hs2.
    assert (G1 := concat_length szn es Hs1). assert (G2 := concat_length szn es' Hs2).
    destruct Hd as [Hd|[Hd|[Hd|Hd]]]; [rewrite Hd in G1|rewrite Hd in G2| |]; cbn [length] in *; nia.
  Qed.

  Lemma elem_only E (Z : gmap nat sto) a c i : map_Forall (fun _ => rep) Z -> pointee sz (fst <$> Z) a c i ->
    inv E (bl Z) ⊢ ⌜only sz (fst <$> Z) a c i⌝.
  Proof.
    intros HZ Hp. assert (H : inv E (bl Z) ⊢ ∀ c', ⌜forall i', pointee sz (fst <$> Z) a c' i' -> c' = c /\ i' = i⌝).
    { iIntros "H" (c'). pose proof Hp as (x&Hx&Hi&Ha). rewrite lookup_fmap in Hx. destruct (Z !! c) as [[x1 es]|] eqn:Hc; [|done]. cbn in Hx. injection Hx as ->.
      destruct (decide (c' = c)) as [->|Hne].
      - iPureIntro. intros i' (y&Hy&Hi'&Ha'). rewrite lookup_fmap Hc in Hy. cbn in Hy. injection Hy as <-. split; [done|]. nia.
      - destruct (Z !! c') as [[x' es']|] eqn:Hc'.
        + iDestruct (storage_apart _ _ c c' _ _ HZ Hc Hc' Hne with "H") as %Hd. cbn [fst] in Hd. iPureIntro.
          intros i' (y&Hy&Hi'&Ha'). rewrite lookup_fmap Hc' in Hy. cbn in Hy. injection Hy as <-. exfalso. apply (Hd i i'); [done|done|]. by rewrite -Ha -Ha'.
        + iPureIntro. intros i' (y&Hy&_). by rewrite lookup_fmap Hc' in Hy. }
    rewrite H. rewrite -bi.pure_forall. iIntros "%H1". iPureIntro. split; [done|]. intros c' i'. apply H1.
  Qed.

  Context {X O : Type} (conv : svec -> X) (inf : X -> info) (P : svec -> Prop).
  Context (stp : O -> env A * gmap nat X -> M (cobs * (env A * gmap nat X))).
  Context (chk : O -> cobs -> gmap nat svec -> gmap nat svec -> Prop).
  Let Iv (E : env A) (vs : gmap nat X) (m : gmap nat svec) : hpropI := ⌈map_Forall (fun _ => P) m⌉ ∗ cinv CA b sz D conv E vs m.
  Context (Hinf : forall x, P x -> inf (conv x) = s_info x).
  Context (Hconv : forall x l, P x -> length l = length (s_l x) ->
    conv (SVec (s_al x) l (s_cap x) (s_data x)) = conv x /\ P (SVec (s_al x) l (s_cap x) (s_data x))).
  Context (Hstp : forall o E vs m, Iv E vs m ⊢ wp bad (stp o (E, vs)) (fun r =>
    ∃ m', ⌈chk o (fst r) m m'⌉ ∗ Iv (fst (snd r)) (snd (snd r)) m')).

  (** The element that a pointer stands for. *)
  Lemma ptr_elem (Z : gmap nat sto) a c i : map_Forall (fun _ => rep) Z -> pointee sz (fst <$> Z) a c i ->
    exists x es e, Z !! c = Some (x, es) /\ rep (x, es) /\ s_get c (fst <$> Z) = x /\ (i < length (s_l x))%nat /\ (i < length es)%nat /\
      a = s_data x + sz * N.of_nat i /\ es !! i = Some e /\ src_elem sz (bl Z) (PAddr a) e /\ stands sz (elem (fst <$> Z) c i) e.
  Proof.
    intros HZ (x&Hx&Hi&->). rewrite lookup_fmap in Hx. destruct (Z !! c) as [[x1 es]|] eqn:Hc; [|done]. cbn in Hx. injection Hx as ->.
    pose proof (HZ _ _ Hc) as Hr. pose proof (rep_le _ _ Hsz _ Hr) as Hl. cbn [fst snd] in Hl.
    destruct (lookup_lt_is_Some_2 es i ltac:(lia)) as [e He]. exists x, es, e.
    assert (Hg : s_get c (fst <$> Z) = x) by (unfold s_get; by rewrite lookup_fmap Hc).
    assert (H0 : s_data x <> 0). { intros H0. destruct (rep_null _ _ Hsz _ Hr H0) as (_&Hn&_). cbn in Hn. rewrite Hn in Hi. cbn in Hi. lia. }
    split_and!; try done; [lia|..].
    - exists (s_al x), (s_data x), es, i. split_and!; [|apply Hr|apply Hr|done|done]. eapply bl_in; [done|]. by apply one_in.
    - unfold elem. rewrite Hg. intros v Hv. destruct (s_l x !! i) as [[u|]|] eqn:Hu; cbn in Hv; try done. injection Hv as ->.
      pose proof (r_val _ _ _ Hr _ _ Hu) as Hq. cbn in Hq. rewrite He in Hq. by injection Hq.
  Qed.

  Lemma pstep_spec o E vs m : Iv E vs m ⊢ wp bad (pstep A sz inf stp o (E, vs)) (fun r =>
    ∃ m', ⌈pcheck sz chk o (fst r) m m'⌉ ∗ Iv (fst (snd r)) (snd (snd r)) m').
  Proof.
    unfold pstep. cbn [snd]. destruct o as [o|a|a src]; cbn [plegal].
    { apply Hstp. }
    all: iIntros "[%HP H]"; iDestruct "H" as (Z) "[%HH H]"; destruct HH as (->&->&HZ).
    all: assert (Hif : inf <$> (conv ∘ fst <$> Z) = s_info <$> (fst <$> Z))
      by (rewrite -!map_fmap_compose; apply map_fmap_ext; intros c [x es] Hc; cbn; apply Hinf; apply (HP c); by rewrite lookup_fmap Hc).
    all: rewrite Hif.
    - pose proof (at_elem_spec sz (fst <$> Z) a Hsz) as Ha. destruct (at_elem _ _ _).
      2:{ iApply wp_ret. iExists (fst <$> Z). iSplitR; [iPureIntro; by right|]. iSplitR; [done|]. iExists Z. by iFrame. }
      destruct Ha as (c&i&Hp). destruct (ptr_elem Z a c i HZ Hp) as (x&es&e&H1&H2&H3&H4&H5&H6&H7&H8&H9).
      iDestruct (elem_only _ _ _ _ _ HZ Hp with "H") as %Ho.
      iApply wp_bind. iApply wp_strong_mono. iSplitL; [by iApply (read_spec CA b sz D Hsz with "H")|].
      iIntros (cs) "[%Hcs H]". subst cs. iApply wp_ret. cbn [fst snd]. iExists (fst <$> Z). iSplitR.
      + iPureIntro. left. exists c, i. eexists. split; [done|]. split; [done|]. split; [done|]. intros v Hv.
        rewrite (H9 v Hv). rewrite unchunk_chunk //. lia.
      + iSplitR; [done|]. iExists Z. by iFrame.
    - assert (Hno : forall Q : Prop, Q -> inv E (bl Z) ⊢ wp bad (ret (CUnit, (E, conv ∘ fst <$> Z))) (fun r =>
        ∃ m', ⌈Q /\ fst r = CUnit /\ m' = fst <$> Z⌉ ∗ Iv (fst (snd r)) (snd (snd r)) m')).
      { intros Q HQ. iIntros "H". iApply wp_ret. iExists (fst <$> Z). iSplitR; [done|]. iSplitR; [done|]. iExists Z. by iFrame. }
      assert (Hput : forall c i e v, pointee sz (fst <$> Z) a c i -> only sz (fst <$> Z) a c i -> src_elem sz (bl Z) src e -> stands sz v e ->
        denotes sz (fst <$> Z) src v ->
        inv E (bl Z) ⊢ wp bad (bind (assign sz a src) (fun _ => ret (CUnit, (E, conv ∘ fst <$> Z)))) (fun r =>
          ∃ m', ⌈pcheck sz chk (PStore a src) (fst r) (fst <$> Z) m'⌉ ∗ Iv (fst (snd r)) (snd (snd r)) m')).
      { intros c i e v Hp Ho Hsrc Hst Hden. destruct (ptr_elem Z a c i HZ Hp) as (x&es&e0&H1&H2&H3&H4&H5&H6&H7&H8&H9).
        pose proof (bl_delete _ _ _ H1) as Hperm. iIntros "H". iApply wp_bind. iApply wp_strong_mono. iSplitL.
        { rewrite {1}(inv_perm _ _ _ _ _ _ Hperm).
          assert (Hsrc' : src_elem sz (one (x, es) ++ bl (delete c Z)) src e) by (eapply src_elem_mono; [|exact Hsrc]; intros z; by rewrite Hperm).
          iPoseProof (put_elem_spec CA b sz D Hsz E _ x es i src e v H2 ltac:(lia) ltac:(lia) Hsrc' Hst with "H") as "H".
          rewrite -H6. iExact "H". }
        iIntros (_) "H". iDestruct "H" as (es') "[%Hr' H]". iApply wp_ret. cbn [fst snd].
        rewrite splice_one in Hr' |- *; [|lia]. set (y := SVec _ _ _ _) in *.
        destruct (Hconv x (<[i := v]> (s_l x))) as [Hcy HPy]; [apply (HP c); by rewrite lookup_fmap H1|by rewrite insert_length|].
        iExists (<[c := y]> (fst <$> Z)). iSplitR.
        { iPureIntro. left. exists c, i, v. split_and!; try done. unfold with_elem. rewrite H3. done. }
        iSplitR. { iPureIntro. by apply map_Forall_insert_2. }
        assert (conv ∘ fst <$> Z = <[c := conv y]> (conv ∘ fst <$> Z)) as ->.
        { rewrite insert_id //. rewrite lookup_fmap H1. cbn. f_equal. by rewrite -Hcy. }
        iApply (cinv_put with "H"); [by apply map_Forall_delete|done]. }
      pose proof (at_elem_spec sz (fst <$> Z) a Hsz) as Ha.
      destruct src as [v|a'].
      + destruct (at_elem _ _ _).
        2:{ iApply wp_mono; last iApply (Hno (nowhere sz (fst <$> Z) a) Ha with "H"). iIntros (r) "(%m' & %Hr & H)".
            destruct Hr as (?&?&?). iExists m'. iFrame "H". iPureIntro. right. split_and!; [by left|done|done]. }
        destruct Ha as (c&i&Hp). iDestruct (elem_only _ _ _ _ _ HZ Hp with "H") as %Ho.
        iApply (Hput c i (chunk szn v) (Some v) with "H"); [done|done|done| |done]. by intros ? [= ->].
      + destruct (at_elem _ _ a) eqn:Ea; cbn [andb].
        2:{ iApply wp_mono; last iApply (Hno (nowhere sz (fst <$> Z) a) Ha with "H"). iIntros (r) "(%m' & %Hr & H)".
            destruct Hr as (?&?&?). iExists m'. iFrame "H". iPureIntro. right. split_and!; [by left|done|done]. }
        pose proof (at_elem_spec sz (fst <$> Z) a' Hsz) as Ha'. destruct (at_elem _ _ a').
        2:{ iApply wp_mono; last iApply (Hno (nowhere sz (fst <$> Z) a') Ha' with "H"). iIntros (r) "(%m' & %Hr & H)".
            destruct Hr as (?&?&?). iExists m'. iFrame "H". iPureIntro. right. split_and!; [by right|done|done]. }
        destruct Ha as (c&i&Hp). iDestruct (elem_only _ _ _ _ _ HZ Hp with "H") as %Ho.
        destruct Ha' as (c'&i'&Hp'). iDestruct (elem_only _ _ _ _ _ HZ Hp' with "H") as %Ho'.
        destruct (ptr_elem Z a' c' i' HZ Hp') as (x&es&e0&H1&H2&H3&H4&H5&H6&H7&H8&H9).
        iApply (Hput c i e0 (elem (fst <$> Z) c' i') with "H"); [done|done|done|done|]. by exists c', i'.
  Qed.
End ptr.

Definition always (x : svec) : Prop := True.

Lemma vptr_session {bad A req} (CA : service bad A req) b sz k (Hsz : 0 < sz) ops w :
  place b (N.of_nat k * a_size A) w ->
  csession_ok A b (pstep A sz (v_info sz) (vstep A b sz k)) (release A b sz) (pcheck sz (vcheck sz k)) bad k ∅ ops w.
Proof.
  apply (csession_safe CA b _ _ _ _ _ (fun E vs m => ⌈map_Forall (fun (_ : nat) => always) m⌉ ∗ cinv CA b sz (set_seq 0 k) (vec_of sz) E vs m)%I).
  - intros E. iIntros "H". iSplitR; [iPureIntro; apply map_Forall_empty|]. by iApply cinv_init.
  - intros o E vs s. apply (pstep_spec CA b sz (set_seq 0 k) Hsz (vec_of sz) (v_info sz) always _ _).
    + intros x _. by apply v_info_of.
    + intros x l _ Hl. split; [|done]. unfold vec_of, s_len. cbn [s_al s_l s_cap s_data]. by rewrite Hl.
    + intros o' E' vs' m. iIntros "[_ H]". iApply wp_strong_mono. iSplitL.
      { iApply (vstep_spec with "H"); [done|]. intros h Ho HL. apply elem_of_set_seq.
        split; [lia|]. destruct o'; cbn in *; try done; injection Ho as ->; unfold new_name in HL;
          repeat (apply andb_true_iff in HL as [HL ?]); by apply Nat.ltb_lt. }
      iIntros (r) "(%m' & %Hc & H)". iExists m'. iSplitR; [done|]. iFrame "H". done.
  - intros E vs s. iIntros "[_ H]". iApply (cinv_kill CA b sz _ (vec_of sz) (release A b sz) always with "H"); [|done]. intros. by apply release_spec.
Qed.

Lemma aptr_session {bad A req} (CA : service bad A req) b sz k (Hsz : 0 < sz) ops w :
  place b (N.of_nat k * a_size A) w ->
  csession_ok A b (pstep A sz (a_info sz) (astep A b sz k)) (arelease A b sz) (pcheck sz (acheck sz k)) bad k ∅ ops w.
Proof.
  apply (csession_safe CA b _ _ _ _ _ (ainv CA b sz (set_seq 0 k))).
  - intros E. iIntros "H". iSplitR; [iPureIntro; apply map_Forall_empty|]. by iApply cinv_init.
  - intros o E vs s. apply (pstep_spec CA b sz (set_seq 0 k) Hsz (arr_of sz) (a_info sz) tight _ _).
    + intros x Hx. by apply a_info_of.
    + intros x l Hx Hl. unfold tight, arr_of, s_len in *. cbn [s_al s_l s_cap s_data]. by rewrite Hl.
    + intros o' E' vs' m. apply astep_spec; [done|]. intros h Ho HL. apply elem_of_set_seq.
      split; [lia|]. destruct o'; cbn in *; try done; injection Ho as ->; unfold new_name in HL;
        repeat (apply andb_true_iff in HL as [HL ?]); by apply Nat.ltb_lt.
  - intros E vs s. iIntros "[%HT H]". iApply (cinv_kill CA b sz _ (arr_of sz) (arelease A b sz) tight with "H"); [|done].
    intros. by apply arelease_spec.
Qed.
