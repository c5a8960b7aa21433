(** binary_heap implements bags. *)
From iris.proofmode Require Import tactics.
From Verif Require Import Base Mem Sep Wp Allocators Contract Service Client ClientProofs Env EnvProofs Vector ElemProofs RepProofs HeapPure Heap HeapElem.

Local Open Scope N_scope.

Section heap.
  Context {bad : event -> bool} {A : alloc} {req : N -> bool}.
  Context (CA : used bad A req) (b sz : N) (T : elt) (comp : nat -> value -> value -> bool) {ord : order comp} (eqv : value -> value -> bool).
  Context (D : gset nat) (Hsz : 0 < sz) (Hreq : forall n, req n = true -> n < 2 ^ 63).
  Local Notation inv := (inv CA b D).
  Local Notation szn := (N.to_nat sz).
  Local Notation sized := (Forall (fun e : list cell => length e = szn)).
  Local Notation raws := (Forall (Forall dead)).
  Local Notation ec := (ec sz T).

  Lemma cells_sized ms rs : sized rs -> sized (map ec ms ++ rs).
  Proof. intros H. apply Forall_app. split; [|done]. apply Forall_map, Forall_true. intros x. apply ec_length. Qed.
  Lemma cells_length ms rs : sized rs ->
    N.of_nat (length (concat (map ec ms ++ rs))) = sz * N.of_nat (length ms + length rs).
  Proof. intros H. rewrite (concat_length szn); [|by apply cells_sized]. rewrite app_length map_length. nia. Qed.

  (** * One object *)

  (** The argument of a constructor or comparison has value [v]. *)
  Definition hsrc (B : list oblk) (src : place_of) (v : value) : Prop :=
    match src with
    | PVal x => x = v
    | PAddr a => exists h p ms rs j,
      (h, (p, concat (map ec ms ++ rs))) ∈ B /\ sized rs /\ ms !! j = Some v /\ a = p + sz * N.of_nat j
    end.

  Lemma hsrc_mono B B' src v : B ⊆ B' -> hsrc B src v -> hsrc B' src v.
  Proof. intros HB. destruct src; [done|]. intros (h&p&ms&rs&j&H1&H). exists h, p, ms, rs, j. split; [by apply HB|done]. Qed.

  Lemma oblocks_in h p cs B : (h, (p, cs)) ∈ B -> oblocks B ⊢ p ↦∗ cs ∗ (p ↦∗ cs -∗ oblocks B).
  Proof.
    intros Hin. unfold oblocks. apply elem_of_list_lookup in Hin as [i Hi].
    exact (big_sepL_lookup_acc (fun _ (x : oblk) => (fst (snd x) ↦∗ snd (snd x))%I) _ _ _ Hi).
  Qed.

  Lemma e_src_oblocks B src v Q : hsrc B src v -> oblocks B ∗ (oblocks B -∗ Q v) ⊢ wp bad (e_src sz T src) Q.
  Proof.
    intros Hsrc. iIntros "[H HQ]". destruct src as [x|a]; cbn [e_src].
    - cbn in Hsrc. subst x. iApply wp_ret. by iApply "HQ".
    - destruct Hsrc as (h&p&ms&rs&j&Hin&Hs&Hj&->). iDestruct (oblocks_in _ _ _ _ Hin with "H") as "[Hp H]".
      iApply (wp_arr_get bad sz T Hsz p ms rs j v _ Hs Hj). iFrame "Hp". iIntros "Hp". iApply "HQ". by iApply "H".
  Qed.
  Lemma e_src_spec E B src v : hsrc B src v -> inv E B ⊢ wp bad (e_src sz T src) (fun r => ⌈r = v⌉ ∗ inv E B).
  Proof.
    intros Hsrc. rewrite {1}inv_split. iIntros "[HE HB]". iApply (e_src_oblocks _ _ _ _ Hsrc). iFrame "HB". iIntros "HB".
    iSplit; [done|]. rewrite inv_split. iFrame.
  Qed.

  Lemma oshape_front h p cs cs' B : length cs' = length cs -> oshape ((h, (p, cs')) :: B) = oshape ((h, (p, cs)) :: B).
  Proof. intros H. unfold oshape. cbn [map fst snd]. unfold bsize. cbn [fst snd]. by rewrite H. Qed.

  Lemma construct_spec E B h p ms r rs src v : sized (r :: rs) -> Forall dead r ->
    hsrc ((h, (p, concat (map ec ms ++ r :: rs))) :: B) src v ->
    inv E ((h, (p, concat (map ec ms ++ r :: rs))) :: B) ⊢
    wp bad (construct A b sz T h (p + sz * N.of_nat (length ms)) src E) (fun E' =>
      inv E' ((h, (p, concat (map ec (ms ++ [v]) ++ rs))) :: B)).
  Proof.
    intros Hs Hd Hsrc. pose proof Hs as [Hr Hrs]%Forall_cons_iff.
    assert (Hl : length (concat (map ec (ms ++ [v]) ++ rs)) = length (concat (map ec ms ++ r :: rs))).
    { apply Nat2N.inj. rewrite !cells_length // app_length. cbn. lia. }
    iIntros "H". unfold construct. iApply wp_mono; last iApply (te_cd_all CA b D _ _ _ _ _ _ _ _
      (fun B' => B' = (h, (p, concat (map ec (ms ++ [v]) ++ rs))) :: B) with "H"); [|left| |].
    - cbn. intros E'. iIntros "(%B' & -> & H)". done.
    - rewrite cells_length //. cbn. nia.
    - iIntros "H". iApply wp_bind. iApply (e_src_oblocks _ _ _ _ Hsrc). iFrame "H". iIntros "H".
      unfold oblocks. rewrite big_sepL_cons. iDestruct "H" as "[Hp H]". cbn [fst snd].
      iDestruct (pts_elem sz p _ (length ms) r with "Hp") as "[Hr Hp]".
      { by apply cells_sized. }
      { rewrite lookup_app_r; rewrite map_length; [|done]. by rewrite Nat.sub_diag. }
      iApply (wp_e_new bad sz T); [exact Hr|exact Hd|]. iFrame "Hr". iIntros "Hr".
      iSpecialize ("Hp" $! (ec v) with "[] Hr"); [iPureIntro; apply ec_length|].
      iExists _. iSplitR.
      { iPureIntro. split; [done|]. by apply oshape_front. }
      rewrite big_sepL_cons. cbn [fst snd]. iFrame "H".
      assert (<[length ms := ec v]> (map ec ms ++ r :: rs) = map ec (ms ++ [v]) ++ rs) as ->; [|done].
      rewrite map_app -app_assoc. cbn [List.map app]. rewrite -{1}(map_length ec ms).
      rewrite insert_app_r_alt; [|done]. by rewrite Nat.sub_diag.
  Qed.

  Lemma construct_move_spec E B h p ms r rs h2 p2 ms2 rs2 j v : sized (r :: rs) -> Forall dead r -> sized rs2 -> ms2 !! j = Some v ->
    inv E ((h, (p, concat (map ec ms ++ r :: rs))) :: (h2, (p2, concat (map ec ms2 ++ rs2))) :: B) ⊢
    wp bad (construct_move A b sz T h (p + sz * N.of_nat (length ms)) (p2 + sz * N.of_nat j) E) (fun E' =>
      inv E' ((h, (p, concat (map ec (ms ++ [v]) ++ rs))) :: (h2, (p2, concat (map ec (<[j := lv T v]> ms2) ++ rs2))) :: B)).
  Proof.
    intros Hs Hd Hs2 Hj. pose proof Hs as [Hr Hrs]%Forall_cons_iff.
    assert (Hl : length (concat (map ec (ms ++ [v]) ++ rs)) = length (concat (map ec ms ++ r :: rs))).
    { apply Nat2N.inj. rewrite !cells_length // app_length. cbn. lia. }
    assert (Hl2 : length (concat (map ec (<[j := lv T v]> ms2) ++ rs2)) = length (concat (map ec ms2 ++ rs2))).
    { apply Nat2N.inj. rewrite !cells_length // insert_length. lia. }
    iIntros "H". unfold construct_move. iApply wp_mono; last iApply (te_cd_all CA b D _ _ _ _ _ _ _ _
      (fun B' => B' = (h, (p, concat (map ec (ms ++ [v]) ++ rs))) :: (h2, (p2, concat (map ec (<[j := lv T v]> ms2) ++ rs2))) :: B) with "H"); [|left| |].
    - cbn. intros E'. iIntros "(%B' & -> & H)". done.
    - rewrite cells_length //. cbn. nia.
    - iIntros "H". unfold oblocks. rewrite !big_sepL_cons. iDestruct "H" as "(Hp & Hp2 & H)". cbn [fst snd].
      iApply wp_bind. iApply (wp_arr_take bad sz T Hsz p2 ms2 rs2 j v _ Hs2 Hj). iFrame "Hp2". iIntros "Hp2".
      iDestruct (pts_elem sz p _ (length ms) r with "Hp") as "[Hr Hp]".
      { by apply cells_sized. }
      { rewrite lookup_app_r; rewrite map_length; [|done]. by rewrite Nat.sub_diag. }
      iApply (wp_e_new bad sz T); [exact Hr|exact Hd|]. iFrame "Hr". iIntros "Hr".
      iSpecialize ("Hp" $! (ec v) with "[] Hr"); [iPureIntro; apply ec_length|].
      iExists _. iSplitR.
      { iPureIntro. split; [done|]. unfold oshape. cbn [map fst snd]. unfold bsize. cbn [fst snd]. by rewrite Hl Hl2. }
      rewrite !big_sepL_cons. cbn [fst snd]. iFrame "H Hp2".
      assert (<[length ms := ec v]> (map ec ms ++ r :: rs) = map ec (ms ++ [v]) ++ rs) as ->; [|done].
      rewrite map_app -app_assoc. cbn [List.map app]. rewrite -{1}(map_length ec ms).
      rewrite insert_app_r_alt; [|done]. by rewrite Nat.sub_diag.
  Qed.

  Lemma destroy_spec E B h p es0 v rs : sized es0 -> sized rs ->
    inv E ((h, (p, concat (es0 ++ ec v :: rs))) :: B) ⊢
    wp bad (destroy A b sz T h (p + sz * N.of_nat (length es0)) E) (fun E' => ∃ e,
      ⌈length e = szn /\ Forall dead e⌉ ∗ inv E' ((h, (p, concat (es0 ++ e :: rs))) :: B)).
  Proof.
    intros H0 Hs. assert (Hs' : forall e, length e = szn -> sized (es0 ++ e :: rs)).
    { intros e He. apply Forall_app. split; [done|]. by constructor. }
    iIntros "H". unfold destroy. iApply wp_mono; last iApply (te_cd_spec CA b sz D Hsz _ _ _ _ _ _ _ _
      (fun cs => exists e, cs = concat (es0 ++ e :: rs) /\ length e = szn /\ Forall dead e) with "H").
    - cbn. intros E'. iIntros "(%cs & %HH & H)". destruct HH as (e&->&He). iExists e. by iFrame.
    - rewrite (concat_length szn); [|apply Hs', ec_length]. rewrite app_length. cbn. nia.
    - iIntros "Hp". iDestruct (pts_elem sz p _ (length es0) (ec v) with "Hp") as "[Hr Hp]".
      { apply Hs', ec_length. }
      { rewrite lookup_app_r; [|done]. by rewrite Nat.sub_diag. }
      iApply (wp_e_del bad sz T Hsz). iFrame "Hr". iIntros (e) "%He Hr". destruct He as [He Hd].
      iSpecialize ("Hp" $! e with "[//] Hr"). iExists (concat (es0 ++ e :: rs)). iSplitR.
      + iPureIntro. split; [by exists e|]. rewrite !(concat_length szn); [|apply Hs', ec_length|by apply Hs'].
        by rewrite !app_length.
      + assert (<[length es0 := e]> (es0 ++ ec v :: rs) = es0 ++ e :: rs) as ->; [|done].
        rewrite insert_app_r_alt; [|done]. by rewrite Nat.sub_diag.
  Qed.

  (** * Loops *)
  Lemma copy_n_spec E B h p ms rs h2 p2 ms2 rs2 j ls : sized rs -> raws rs -> (length ls <= length rs)%nat ->
    (h2, (p2, concat (map ec ms2 ++ rs2))) ∈ B -> sized rs2 -> (forall t v, ls !! t = Some v -> ms2 !! (j + t)%nat = Some v) ->
    inv E ((h, (p, concat (map ec ms ++ rs))) :: B) ⊢
    wp bad (copy_n A b sz T h (p + sz * N.of_nat (length ms)) (p2 + sz * N.of_nat j) (length ls) E) (fun E' =>
      inv E' ((h, (p, concat (map ec (ms ++ ls) ++ drop (length ls) rs))) :: B)).
  Proof.
    intros Hs Hd Hl Hin Hs2. revert E ms rs j Hs Hd Hl. induction ls as [|v ls IH]; intros E ms rs j Hs Hd Hl Hls; cbn [length copy_n].
    - iIntros "H". iApply wp_ret. by rewrite app_nil_r.
    - destruct rs as [|r rs]; [cbn in Hl; lia|]. iIntros "H". iApply wp_bind. iApply wp_strong_mono. iSplitL.
      { iApply (construct_spec with "H"); [done|by apply Forall_cons_iff in Hd as [? _]|].
        exists h2, p2, ms2, rs2, j. split_and!; [by right|done| |done]. specialize (Hls 0%nat v eq_refl). by rewrite Nat.add_0_r in Hls. }
      iIntros (E') "H".
      replace (p + sz * N.of_nat (length ms) + sz) with (p + sz * N.of_nat (length (ms ++ [v]))) by (rewrite app_length; cbn; lia).
      replace (p2 + sz * N.of_nat j + sz) with (p2 + sz * N.of_nat (S j)) by lia.
      iApply wp_strong_mono. iSplitL.
      { iApply (IH with "H"); [by apply Forall_cons_iff in Hs as [_ ?]|by apply Forall_cons_iff in Hd as [_ ?]|cbn in Hl; lia|].
        intros t u Ht. specialize (Hls (S t) u Ht). by replace (S j + t)%nat with (j + S t)%nat by lia. }
      iIntros (E'') "H". rewrite -app_assoc. done.
  Qed.

  Lemma move_n_spec E B h p ms rs h2 p2 ms2 rs2 j n : sized rs -> raws rs -> (n <= length rs)%nat -> (j + n <= length ms2)%nat ->
    sized rs2 ->
    inv E ((h, (p, concat (map ec ms ++ rs))) :: (h2, (p2, concat (map ec ms2 ++ rs2))) :: B) ⊢
    wp bad (move_n A b sz T h (p + sz * N.of_nat (length ms)) (p2 + sz * N.of_nat j) n E) (fun E' => ∃ ms2',
      ⌈length ms2' = length ms2⌉ ∗
      inv E' ((h, (p, concat (map ec (ms ++ take n (drop j ms2)) ++ drop n rs))) :: (h2, (p2, concat (map ec ms2' ++ rs2))) :: B)).
  Proof.
    intros Hs Hd Hl Hj Hs2. revert E ms rs j ms2 Hs Hd Hl Hj. induction n as [|n IH]; intros E ms rs j ms2 Hs Hd Hl Hj; cbn [move_n].
    - iIntros "H". iApply wp_ret. iExists ms2. rewrite take_0 app_nil_r drop_0. by iFrame.
    - destruct rs as [|r rs]; [cbn in Hl; lia|]. destruct (lookup_lt_is_Some_2 ms2 j ltac:(lia)) as [v Hv].
      iIntros "H". iApply wp_bind. iApply wp_strong_mono. iSplitL.
      { iApply (construct_move_spec with "H"); [done|by apply Forall_cons_iff in Hd as [? _]|done|done]. }
      iIntros (E') "H".
      replace (p + sz * N.of_nat (length ms) + sz) with (p + sz * N.of_nat (length (ms ++ [v]))) by (rewrite app_length; cbn; lia).
      replace (p2 + sz * N.of_nat j + sz) with (p2 + sz * N.of_nat (S j)) by lia.
      iApply wp_strong_mono. iSplitL.
      { iApply (IH with "H"); [by apply Forall_cons_iff in Hs as [_ ?]|by apply Forall_cons_iff in Hd as [_ ?]|cbn in Hl; lia|].
        rewrite insert_length. lia. }
      iIntros (E'') "H". iDestruct "H" as (ms2') "[%Hl' H]". rewrite insert_length in Hl'. iExists ms2'. iSplitR; [done|].
      rewrite drop_insert_gt; [|lia]. rewrite -app_assoc. cbn [app]. rewrite (drop_S ms2 v j Hv). done.
  Qed.

  Lemma destroy_n_spec E B h p es0 ms rs : sized es0 -> sized rs ->
    inv E ((h, (p, concat (es0 ++ map ec ms ++ rs))) :: B) ⊢
    wp bad (destroy_n A b sz T h (p + sz * N.of_nat (length es0)) (length ms) E) (fun E' => ∃ es1,
      ⌈length es1 = length ms /\ sized es1 /\ raws es1⌉ ∗ inv E' ((h, (p, concat (es0 ++ es1 ++ rs))) :: B)).
  Proof.
    intros H0 Hs. revert E es0 H0. induction ms as [|v ms IH]; intros E es0 H0; cbn [length destroy_n map app].
    - iIntros "H". iApply wp_ret. iExists []. by iFrame.
    - iIntros "H". iApply wp_bind. iApply wp_strong_mono. iSplitL.
      { iApply (destroy_spec with "H"); [done|]. by apply cells_sized. }
      iIntros (E') "H". iDestruct "H" as (e) "[%HH H]". destruct HH as [He Hd].
      replace (p + sz * N.of_nat (length es0) + sz) with (p + sz * N.of_nat (length (es0 ++ [e]))) by (rewrite app_length; cbn; lia).
      replace (es0 ++ e :: map ec ms ++ rs) with ((es0 ++ [e]) ++ map ec ms ++ rs) by (by rewrite -app_assoc).
      iApply wp_strong_mono. iSplitL.
      { iApply (IH with "H"). apply Forall_app. split; [done|]. by repeat constructor. }
      iIntros (E'') "H". iDestruct "H" as (es1) "[%HH H]". destruct HH as (H1&H2&H3).
      iExists (e :: es1). rewrite -app_assoc. cbn [app]. iFrame "H". iPureIntro.
      split_and!; [cbn; lia|by constructor|by constructor].
  Qed.

  (** * Representation *)
  Local Notation sto := (sheap * list (list cell))%type.

  Record hrep (y : sto) : Prop := HRep {
    hr_len : N.of_nat (length (p_l (fst y)) + length (snd y)) = p_cap (fst y);
    hr_mod : p_data (fst y) mod 16 = 0;
    hr_null : p_data (fst y) = 0 -> p_cap (fst y) = 0;
    hr_al : p_al (fst y) ∈ D;
    hr_sized : sized (snd y);
    hr_raw : raws (snd y);
    hr_fit : sz * p_cap (fst y) < 2 ^ 63;
    hr_ord : sorts (p_cmp (fst y)) -> ordered (comp (p_cmp (fst y))) (p_l (fst y))
  }.

  Definition hblk (y : sto) : oblk := (p_al (fst y), (p_data (fst y), concat (map ec (p_l (fst y)) ++ snd y))).
  Definition hone (y : sto) : list oblk := if p_data (fst y) =? 0 then [] else [hblk y].
  Definition hbl (Z : gmap nat sto) : list oblk := flat_map (fun p => hone (snd p)) (map_to_list Z).
  Definition heap_of (x : sheap) : heap := Heap (p_al x) (p_cmp x) (p_len x) (p_cap x) (p_data x).

  Lemma hone_nonnull y : p_data (fst y) <> 0 -> hone y = [hblk y].
  Proof. intros H. unfold hone. by destruct (N.eqb_spec (p_data (fst y)) 0). Qed.
  Lemma hone_null y : p_data (fst y) = 0 -> hone y = [].
  Proof. intros H. unfold hone. by rewrite H. Qed.

  Lemma hrep_ok x rs : hrep (x, rs) -> p_ok comp x.
  Proof.
    intros [H1 H2 H3 H4 H5 H6 H7 H8]. cbn [fst snd] in *. unfold p_ok, p_len. split_and!; [lia|done|done|].
    intros Hsw y z Hz Hy. eapply ordered_min; eauto using sorts_weak.
  Qed.
  Lemma hrep_null x rs : hrep (x, rs) -> p_data x = 0 -> p_l x = [] /\ rs = [] /\ p_cap x = 0.
  Proof.
    intros [H1 _ H3 _ _ _ _ _] H0. cbn [fst snd] in *. rewrite (H3 H0) in H1. split_and!; [| |by apply H3]; apply length_zero_iff_nil; lia.
  Qed.
  Lemma hrep_nonnull x rs : hrep (x, rs) -> 0 < p_cap x -> p_data x <> 0.
  Proof. intros H Hc H0. destruct (hrep_null _ _ H H0) as (_&_&?). lia. Qed.

  Lemma hbl_delete Z c y : Z !! c = Some y -> hbl Z ≡ₚ hone y ++ hbl (delete c Z).
  Proof. intros H. unfold hbl. rewrite (flat_map_perm _ _ _ (symmetry (map_to_list_delete _ _ _ H))). done. Qed.
  Lemma hbl_put Z c y : hbl (<[c := y]> Z) ≡ₚ hone y ++ hbl (delete c Z).
  Proof.
    rewrite -insert_delete_insert. unfold hbl.
    rewrite (flat_map_perm _ _ _ (map_to_list_insert _ _ _ (lookup_delete _ _))). done.
  Qed.
  Lemma hbl_empty : hbl ∅ = [].
  Proof. unfold hbl. by rewrite map_to_list_empty. Qed.
  Lemma hbl_in Z c y : Z !! c = Some y -> hone y ⊆ hbl Z.
  Proof. intros H x Hx. rewrite (hbl_delete _ _ _ H). apply elem_of_app. by left. Qed.

  (** * Functions *)
  Lemma halloc_spec E B h q n : h ∈ D ->
    inv E B ⊢ wp bad (te_alloc A b sz h n E) (fun r => ∃ rs,
      ⌈hrep (SHeap h q [] n (fst r), rs)⌉ ∗ inv (snd r) (hone (SHeap h q [] n (fst r), rs) ++ B)).
  Proof.
    intros Hh. iIntros "H". destruct (bad (EvReq (sz * n))) eqn:Hbad.
    { iDestruct (inv_lookup CA b D _ _ h with "H") as %[s Hs]; [done|]. unfold te_alloc. rewrite Hs. by iApply (wp_bad with "H"). }
    assert (Hfit : sz * n < 2 ^ 63). { apply Hreq. by apply (s_modest _ _ _ (u_srv CA)) in Hbad as [? _]. }
    iApply wp_strong_mono. iSplitL; [by iApply (te_alloc_spec CA b sz D Hsz with "H")|].
    assert (Hord : sorts q -> ordered (comp q) []) by (intros _ j Hj u v Hu; by rewrite lookup_nil in Hu).
    iIntros ([p E']) "[[%H0 H]|H]"; cbn [fst snd] in *.
    - destruct H0 as [-> ->]. iExists []. rewrite hone_null //. iFrame. iPureIntro. split; cbn; try done; constructor.
    - iDestruct "H" as (es) "[%HH H]". destruct HH as (H1&H2&H3&H4&H5&H6). iExists es. rewrite hone_nonnull //. iFrame. iPureIntro.
      split; cbn [fst snd p_al p_cmp p_l p_cap p_data length]; done.
  Qed.

  Lemma give_back_spec E B h p n es : N.of_nat (length es) = n -> sized es -> raws es ->
    inv E ((h, (p, concat es)) :: B) ⊢ wp bad (give_back A b sz h p n n E) (fun E' => inv E' B).
  Proof.
    intros Hl Hs Hd. assert (Hlen : N.of_nat (length (concat es)) = sz * n) by (rewrite (concat_length szn) //; nia).
    assert (Hdd : Forall dead (concat es)) by (by apply Forall_concat).
    iIntros "H". unfold give_back. iDestruct (inv_acc CA b sz D Hsz with "H") as "[Hp H]".
    iApply wp_bind. iApply (wp_obj_none bad p (n * sz) (concat es)); [lia|done|]. iFrame "Hp". iIntros "Hp".
    iSpecialize ("H" $! (concat es) with "[//] Hp"). by iApply (te_free_spec CA b sz D Hsz with "H").
  Qed.

  Lemma hdestroy_spec E B x rs : hrep (x, rs) ->
    inv E (hone (x, rs) ++ B) ⊢ wp bad (destroy_n A b sz T (p_al x) (p_data x) (N.to_nat (p_len x)) E) (fun E' => ∃ rs',
      ⌈hrep (SHeap (p_al x) (p_cmp x) [] (p_cap x) (p_data x), rs')⌉ ∗
      inv E' (hone (SHeap (p_al x) (p_cmp x) [] (p_cap x) (p_data x), rs') ++ B)).
  Proof.
    intros Hr. assert (Hord : forall q, sorts q -> ordered (comp q) []) by (intros q _ j Hj u v Hu; by rewrite lookup_nil in Hu).
    unfold p_len. rewrite Nat2N.id. destruct (N.eq_dec (p_data x) 0) as [H0|H0].
    - destruct (hrep_null _ _ Hr H0) as (Hl&->&Hc). rewrite Hl. cbn [length destroy_n]. iIntros "H". iApply wp_ret. iExists [].
      rewrite !hone_null //. iFrame "H". iPureIntro. split; cbn; try done; apply Hr.
    - rewrite hone_nonnull //. unfold hblk. cbn [app fst snd]. iIntros "H".
      iApply wp_strong_mono. iSplitL.
      { replace (p_data x) with (p_data x + sz * N.of_nat (length ([] : list (list cell)))) at 2 by (cbn; lia).
        iApply (destroy_n_spec _ _ _ _ [] with "H"); [constructor|apply Hr]. }
      iIntros (E') "H". iDestruct "H" as (es1) "[%HH H]". destruct HH as (H1&H2&H3). cbn [app].
      iExists (es1 ++ rs). rewrite hone_nonnull //. iFrame "H". iPureIntro.
      destruct Hr as [G1 G2 G3 G4 G5 G6 G7 G8]. cbn [fst snd] in *.
      split; cbn [fst snd p_al p_cmp p_l p_cap p_data]; try done; try (by apply Forall_app).
      rewrite app_length H1. cbn. lia.
  Qed.

  Lemma hfree_spec E B x rs : hrep (x, rs) -> p_l x = [] -> p_data x <> 0 ->
    inv E (hone (x, rs) ++ B) ⊢ wp bad (give_back A b sz (p_al x) (p_data x) (p_cap x) (p_cap x) E) (fun E' => inv E' B).
  Proof.
    intros Hr Hl H0. rewrite hone_nonnull //. unfold hblk. cbn [fst snd app]. rewrite Hl. cbn [List.map app]. iIntros "H".
    iApply (give_back_spec with "H"); [|apply Hr|apply Hr]. pose proof (hr_len _ Hr) as Hlen. cbn [fst snd] in Hlen. by rewrite Hl in Hlen.
  Qed.

  Lemma hrelease_spec E B x rs : hrep (x, rs) ->
    inv E (hone (x, rs) ++ B) ⊢ wp bad (hrelease A b sz T (heap_of x) E) (fun E' => inv E' B).
  Proof.
    intros Hr. unfold hrelease. cbn [h_beg h_al h_size h_cap heap_of]. destruct (N.eqb_spec (p_data x) 0) as [H0|H0].
    - rewrite hone_null //. iIntros "H". by iApply wp_ret.
    - iIntros "H". iApply wp_bind. iApply wp_strong_mono. iSplitL; [by iApply (hdestroy_spec with "H")|].
      iIntros (E') "H". iDestruct "H" as (rs') "[%Hr' H]". by iApply (hfree_spec with "H").
  Qed.

  Lemma hset_size_spec E B x rs n : hrep (x, rs) -> p_len x <= n ->
    inv E (hone (x, rs) ++ B) ⊢ wp bad (hset_size A b sz T (heap_of x) n E) (fun r => ∃ x' rs',
      ⌈fst r = heap_of x' /\ hrep (x', rs') /\ p_al x' = p_al x /\ p_cmp x' = p_cmp x /\ p_l x' = p_l x /\ p_cap x' = n⌉ ∗
      inv (snd r) (hone (x', rs') ++ B)).
  Proof.
    intros Hr Hn. unfold hset_size. cbn [h_beg h_al h_size h_cap h_cmp heap_of]. rewrite N.min_l //.
    iIntros "H". iApply wp_bind. iApply wp_strong_mono. iSplitL; [iApply (halloc_spec _ _ _ (p_cmp x) with "H"); apply Hr|].
    iIntros ([p E']) "H". iDestruct "H" as (rs1) "[%Hr1 H]". cbn [fst snd] in *.
    set (x1 := SHeap (p_al x) (p_cmp x) [] n p) in *. set (x2 := SHeap (p_al x) (p_cmp x) (p_l x) n p).
    destruct (N.eqb_spec (p_data x) 0) as [H0|H0].
    - destruct (hrep_null _ _ Hr H0) as (Hl&->&Hc). rewrite (hone_null (x, [])) //. cbn [app].
      iApply wp_bind. iApply wp_ret. iApply wp_ret. cbn [fst snd]. iExists x1, rs1. iFrame "H". iPureIntro. split_and!; try done.
      unfold heap_of, p_len, x1. cbn [p_al p_cmp p_l p_cap p_data]. by rewrite Hl.
    - destruct (N.eq_dec (p_len x) 0) as [Hz|Hz].
      + assert (Hl : p_l x = []) by (apply length_zero_iff_nil; unfold p_len in Hz; lia).
        rewrite Hz. cbn [N.to_nat move_n destroy_n].
        iApply wp_bind. iApply wp_bind. iApply wp_ret. iApply wp_bind. iApply wp_ret.
        iApply wp_strong_mono. iSplitL.
        { iApply (hfree_spec _ (hone (x1, rs1) ++ B) x rs with "[H]"); [done|done|done|]. iApply (inv_perm with "H").
          by rewrite Permutation_app_swap_app. }
        iIntros (E2) "H". iApply wp_ret. cbn [fst snd]. iExists x1, rs1. iFrame "H". iPureIntro. split_and!; try done.
      + assert (H1 : p <> 0). { apply (hrep_nonnull _ _ Hr1). unfold x1. cbn. lia. }
        rewrite (hone_nonnull (x1, rs1)) // (hone_nonnull (x, rs)) //. unfold hblk at 1 2. unfold x1 at 1 2 3. cbn [fst snd app p_al p_data p_l List.map].
        pose proof (hr_len _ Hr1) as Hl1. cbn in Hl1. unfold p_len in *. rewrite Nat2N.id.
        iApply wp_bind. iApply wp_bind. iApply wp_strong_mono. iSplitL.
        { replace p with (p + sz * N.of_nat (length ([] : list value))) at 2 by (cbn; lia).
          replace (p_data x) with (p_data x + sz * N.of_nat 0) at 2 by lia.
          iApply (move_n_spec _ _ _ _ [] _ _ _ _ _ 0 (length (p_l x)) with "H"); [apply Hr1|apply Hr1|lia|lia|apply Hr]. }
        iIntros (E2) "H". iDestruct "H" as (ms) "[%Hms H]". cbn [app]. rewrite drop_0 firstn_all.
        pose proof (hr_len _ Hr) as Hl0. cbn [fst snd] in Hl0.
        iApply wp_bind. iApply wp_strong_mono. iSplitL.
        { iDestruct (inv_perm _ _ _ _ _ _ (perm_swap _ _ _) with "H") as "H".
          replace (p_data x) with (p_data x + sz * N.of_nat (length ([] : list (list cell)))) at 2 by (cbn; lia).
          rewrite -Hms. iApply (destroy_n_spec _ _ _ _ [] with "H"); [constructor|apply Hr]. }
        iIntros (E3) "H". iDestruct "H" as (es1) "[%HH H]". destruct HH as (G1&G2&G3). cbn [app].
        iApply wp_strong_mono. iSplitL.
        { iApply (give_back_spec with "H"); [rewrite app_length; lia|apply Forall_app; split; [done|apply Hr]|apply Forall_app; split; [done|apply Hr]]. }
        iIntros (E4) "H". iApply wp_ret. cbn [fst snd]. iExists x2, (drop (length (p_l x)) rs1).
        rewrite Hms hone_nonnull //. iFrame "H". iPureIntro. split_and!; try done.
        destruct Hr1 as [F1 F2 F3 F4 F5 F6 F7 _]. unfold x1 in *; cbn [fst snd p_al p_cmp p_l p_cap p_data] in *.
        unfold x2; split; cbn [fst snd p_al p_cmp p_l p_cap p_data]; try done; try (by apply Forall_drop); try apply Hr.
        rewrite drop_length. lia.
  Qed.

  Lemma hexpand_spec E B x rs : hrep (x, rs) ->
    inv E (hone (x, rs) ++ B) ⊢ wp bad (hexpand A b sz T (heap_of x) 1 E) (fun r => ∃ x' rs',
      ⌈fst r = heap_of x' /\ hrep (x', rs') /\ p_al x' = p_al x /\ p_cmp x' = p_cmp x /\ p_l x' = p_l x /\ p_cap x + N.max (p_cap x) 1 <= p_cap x'⌉ ∗
      inv (snd r) (hone (x', rs') ++ B)).
  Proof.
    intros Hr. unfold hexpand. cbn [h_cap heap_of]. set (n := p_cap x + N.max (p_cap x) 1). iIntros "H".
    destruct (bad (EvReq (sz * n))) eqn:Hbad; [by iApply (wp_bad with "H")|].
    iApply wp_bind. iApply wp_emit; [done|]. apply (s_modest _ _ _ (u_srv CA)) in Hbad as [Hq _].
    apply Hreq in Hq. rewrite w64_small; [|unfold W; nia].
    pose proof (hr_len _ Hr) as Hl. cbn [fst snd] in Hl.
    iApply wp_strong_mono. iSplitL; [iApply (hset_size_spec with "H"); [done|unfold p_len; lia]|].
    iIntros ([v E']) "H". iDestruct "H" as (x' rs') "[%HH H]". destruct HH as (H1&H2&H3&H4&H5&H6). cbn [fst snd] in *.
    iExists x', rs'. iFrame "H". iPureIntro. split_and!; try done. lia.
  Qed.

  (** Inserting where there is room. *)
  Lemma hput_spec E B x rs src v : hrep (x, rs) -> p_len x < p_cap x -> hsrc (hone (x, rs) ++ B) src v ->
    inv E (hone (x, rs) ++ B) ⊢
    wp bad (E <- construct A b sz T (p_al x) (elem_addr sz (p_data x) (p_len x)) src E ;;
            i <- percolate_up sz T comp (p_cmp x) (p_data x) (p_len x) ;;
            ret (i, Heap (p_al x) (p_cmp x) (p_len x + 1) (p_cap x) (p_data x), E)) (fun r => ∃ i x' rs',
      ⌈fst r = (N.of_nat i, heap_of x') /\ hrep (x', rs') /\ p_al x' = p_al x /\ p_cmp x' = p_cmp x /\
       p_cap x' = p_cap x /\ p_data x' = p_data x /\ p_l x' ≡ₚ v :: p_l x /\ p_l x' !! i = Some v⌉ ∗
      inv (snd r) (hone (x', rs') ++ B)).
  Proof.
    intros Hr Hroom Hsrc. pose proof (hr_len _ Hr) as Hl. cbn [fst snd] in Hl. unfold p_len in Hroom.
    assert (H0 : p_data x <> 0) by (apply (hrep_nonnull _ _ Hr); lia).
    destruct rs as [|r rs]; [cbn in Hl; lia|].
    pose proof (hr_sized _ Hr) as Hs. cbn [snd] in Hs. pose proof (hr_raw _ Hr) as Hd. cbn [snd] in Hd.
    rewrite hone_nonnull // in Hsrc |- *. unfold hblk in *. cbn [fst snd app] in *.
    iIntros "H". iApply wp_bind. iApply wp_strong_mono. iSplitL.
    { unfold elem_addr, p_len. iApply (construct_spec with "H"); [done|by apply Forall_cons_iff in Hd as [? _]|done]. }
    iIntros (E') "H". set (ms := p_l x ++ [v]).
    set (u := up (comp (p_cmp x)) (S (length (p_l x))) ms (length (p_l x))).
    assert (Hms : length ms = S (length (p_l x))) by (unfold ms; rewrite app_length; cbn; lia).
    iDestruct (inv_acc CA b sz D Hsz with "H") as "[Hp H]".
    iApply wp_bind. iApply wp_strong_mono. iSplitL "Hp".
    { unfold p_len. iApply (percolate_up_spec bad sz T Hsz with "Hp"); [by apply Forall_cons_iff in Hs as [_ ?]|].
      fold ms. lia. }
    iIntros (i) "[-> Hp]". fold ms. fold u.
    assert (Hu : fst u ≡ₚ v :: p_l x). { unfold u, ms. rewrite up_perm. symmetry. apply Permutation_cons_append. }
    assert (Hul : length (fst u) = length ms) by (unfold u; by rewrite up_length).
    iSpecialize ("H" with "[] Hp").
    { iPureIntro. apply Nat2N.inj. rewrite !cells_length; [|by apply Forall_cons_iff in Hs as [_ ?]..]. by rewrite Hul. }
    iApply wp_ret. cbn [fst snd]. iExists (snd u), (SHeap (p_al x) (p_cmp x) (fst u) (p_cap x) (p_data x)), rs.
    rewrite hone_nonnull //. iFrame "H". iPureIntro. split_and!; try done.
    - unfold heap_of, p_len. cbn [p_al p_cmp p_l p_cap p_data]. do 2 f_equal. lia.
    - destruct Hr as [G1 G2 G3 G4 G5 G6 G7 G8]. cbn [fst snd] in *.
      split; cbn [fst snd p_al p_cmp p_l p_cap p_data]; try done.
      + rewrite Hul. cbn in G1. lia.
      + by apply Forall_cons_iff in G5 as [_ ?].
      + by apply Forall_cons_iff in G6 as [_ ?].
      + intros Hsw. unfold u. apply up_ordered; [by apply sorts_weak|lia|lia|]. apply ordered_snoc. by apply G8.
    - cbn [p_l]. unfold u. apply up_where. unfold ms. rewrite lookup_app_r; [|done]. by rewrite Nat.sub_diag.
  Qed.

  Lemma hinsert_spec E B x rs src v : hrep (x, rs) ->
    (if p_len x + 1 <=? p_cap x then hsrc (hone (x, rs) ++ B) src v else hsrc B src v) ->
    inv E (hone (x, rs) ++ B) ⊢ wp bad (hinsert A b sz T comp (heap_of x) src E) (fun r => ∃ i x' rs',
      ⌈fst r = (N.of_nat i, heap_of x') /\ hrep (x', rs') /\ p_al x' = p_al x /\ p_cmp x' = p_cmp x /\
       p_l x' ≡ₚ v :: p_l x /\ p_l x' !! i = Some v /\
       (if p_len x + 1 <=? p_cap x then p_cap x' = p_cap x /\ p_data x' = p_data x else N.max (p_len x + 1) (2 * p_cap x) <= p_cap x')⌉ ∗
      inv (snd r) (hone (x', rs') ++ B)).
  Proof.
    intros Hr Hsrc. unfold hinsert. cbn [h_size h_cap heap_of]. pose proof (hr_len _ Hr) as Hl. cbn [fst snd] in Hl.
    iIntros "H". iApply wp_bind. destruct (N.eqb_spec (p_len x) (p_cap x)) as [He|He].
    - iApply wp_strong_mono. iSplitL; [by iApply (hexpand_spec with "H")|].
      iIntros ([w E']) "H". iDestruct "H" as (x1 rs1) "[%HH H]". destruct HH as (H1&H2&H3&H4&H5&H6). cbn [fst snd] in *. subst w.
      destruct (N.leb_spec (p_len x + 1) (p_cap x)) as [?|_]; [lia|].
      assert (Hlen : p_len x1 = p_len x) by (unfold p_len; by rewrite H5).
      cbn [h_al h_cmp h_size h_cap h_beg heap_of].
      iApply wp_strong_mono. iSplitL.
      { iApply (hput_spec with "H"); [done|lia|]. eapply hsrc_mono; [|done]. intros y Hy. apply elem_of_app. by right. }
      iIntros ([q E2]) "H". iDestruct "H" as (i x2 rs2) "[%HH H]". destruct HH as (G1&G2&G3&G4&G5&G6&G7&G8). cbn [fst snd] in *. subst q.
      iExists i, x2, rs2. iFrame "H". iPureIntro. split_and!; try done; [congruence|congruence|by rewrite -H5|lia].
    - iApply wp_ret. cbn [h_al h_cmp h_size h_cap h_beg heap_of].
      destruct (N.leb_spec (p_len x + 1) (p_cap x)) as [Hle|?]; [|unfold p_len in *; lia].
      iApply wp_strong_mono. iSplitL.
      { iApply (hput_spec with "H"); [done|lia|done]. }
      iIntros ([q E2]) "H". iDestruct "H" as (i x2 rs2) "[%HH H]". destruct HH as (G1&G2&G3&G4&G5&G6&G7&G8). cbn [fst snd] in *. subst q.
      iExists i, x2, rs2. iFrame "H". iPureIntro. split_and!; done.
  Qed.

  Lemma insert_list_spec E B x rs l : hrep (x, rs) -> p_len x + N.of_nat (length l) <= p_cap x ->
    inv E (hone (x, rs) ++ B) ⊢ wp bad (insert_list A b sz T comp (heap_of x) l E) (fun r => ∃ x' rs',
      ⌈fst r = heap_of x' /\ hrep (x', rs') /\ p_al x' = p_al x /\ p_cmp x' = p_cmp x /\ p_cap x' = p_cap x /\
       p_l x' ≡ₚ p_l x ++ l⌉ ∗
      inv (snd r) (hone (x', rs') ++ B)).
  Proof.
    revert E x rs. induction l as [|v l IH]; intros E x rs Hr Hl; cbn [insert_list].
    - iIntros "H". iApply wp_ret. iExists x, rs. iFrame. iPureIntro. split_and!; try done. by rewrite app_nil_r.
    - cbn [length] in Hl. iIntros "H". iApply wp_bind. iApply wp_strong_mono. iSplitL.
      { iApply (hinsert_spec with "H"); [done|]. by destruct (_ <=? _). }
      iIntros ([[i w] E']) "H". iDestruct "H" as (i' x1 rs1) "[%HH H]". destruct HH as (H1&H2&H3&H4&H5&H6&H7). cbn [fst snd] in *.
      injection H1 as -> ->. destruct (N.leb_spec (p_len x + 1) (p_cap x)) as [_|?]; [|lia]. destruct H7 as [H7 H8].
      assert (Hlen : p_len x1 = p_len x + 1) by (unfold p_len; rewrite H5; cbn; lia).
      iApply wp_strong_mono. iSplitL; [iApply (IH with "H"); [done|lia]|].
      iIntros ([w E2]) "H". iDestruct "H" as (x2 rs2) "[%HH H]". destruct HH as (G1&G2&G3&G4&G5&G6). cbn [fst snd] in *. subst w.
      iExists x2, rs2. iFrame "H". iPureIntro. split_and!; try done; [congruence..|].
      rewrite G6 H5. rewrite -Permutation_middle. done.
  Qed.

  Lemma hpop_spec E B x rs v : hrep (x, rs) -> p_l x !! 0%nat = Some v -> e_triv T = true \/ (1 < length (p_l x))%nat ->
    inv E (hone (x, rs) ++ B) ⊢ wp bad (hpop A b sz T comp (heap_of x) E) (fun r => ∃ x' rs',
      ⌈fst r = (v, heap_of x') /\ hrep (x', rs') /\ p_al x' = p_al x /\ p_cmp x' = p_cmp x /\
       p_cap x' = p_cap x /\ p_data x' = p_data x /\ v :: p_l x' ≡ₚ p_l x⌉ ∗
      inv (snd r) (hone (x', rs') ++ B)).
  Proof.
    intros Hr Hv Htr. pose proof (hr_len _ Hr) as Hl. cbn [fst snd] in Hl. assert (Hlt := lookup_lt_Some _ _ _ Hv).
    assert (H0 : p_data x <> 0) by (apply (hrep_nonnull _ _ Hr); lia).
    pose proof (hr_sized _ Hr) as Hs. cbn [snd] in Hs.
    rewrite hone_nonnull //. unfold hblk. cbn [fst snd app].
    unfold hpop. cbn [h_al h_cmp h_size h_cap h_beg heap_of]. unfold p_len.
    iIntros "H". iApply wp_bind. iApply wp_assert; [apply N.ltb_lt; lia|].
    iDestruct (inv_acc CA b sz D Hsz with "H") as "[Hp H]".
    change 0 with (N.of_nat 0) at 1 2. iApply wp_bind. iApply (wp_arr_get bad sz T Hsz _ _ _ _ _ _ Hs Hv). iFrame "Hp". iIntros "Hp".
    set (n := (length (p_l x) - 1)%nat). replace (N.of_nat (length (p_l x)) - 1) with (N.of_nat n) by lia.
    destruct (lookup_lt_is_Some_2 (p_l x) n ltac:(lia)) as [z Hz].
    iApply wp_bind. iApply (wp_arr_mov bad sz T Hsz _ _ _ _ _ _ _ Hs Hlt Hz). iFrame "Hp". iIntros "Hp".
    destruct (decide (n = 0)%nat) as [Hn|Hn].
    - (* the only element *)
      destruct Htr as [Htr|?]; [|lia]. rewrite Hn in Hz |- *.
      assert (z = v) as -> by congruence.
      assert (Hlx : p_l x = [v]). { destruct (p_l x) as [|a [|]]; cbn in *; [lia|by injection Hv as ->|lia]. }
      rewrite Hlx. cbn [insert list_insert]. assert (lv T v = v) as -> by (unfold lv; by rewrite Htr).
      iSpecialize ("H" with "[] Hp"); [done|].
      iApply wp_bind. iApply wp_strong_mono. iSplitL.
      { unfold destroy. iApply (te_cd_spec CA b sz D Hsz _ _ _ _ _ _ _ _ (fun cs => cs = concat (List.map ec [v] ++ rs)) with "H").
        - unfold elem_addr. rewrite cells_length //. cbn. nia.
        - iIntros "Hp". unfold e_del. rewrite Htr. iApply wp_ret. iExists _. by iFrame. }
      iIntros (E') "H". iDestruct "H" as (cs) "[-> H]".
      iDestruct (inv_acc CA b sz D Hsz with "H") as "[Hp H]".
      iApply wp_bind. iApply wp_strong_mono. iSplitL "Hp"; [by iApply (percolate_down_none bad sz T Hsz with "Hp")|].
      iIntros (_) "Hp". iSpecialize ("H" with "[//] Hp"). iApply wp_ret. cbn [fst snd].
      iExists (SHeap (p_al x) (p_cmp x) [] (p_cap x) (p_data x)), (ec v :: rs). rewrite hone_nonnull //. iFrame "H". iPureIntro.
      split_and!; try done. destruct Hr as [G1 G2 G3 G4 G5 G6 G7 G8]. cbn [fst snd] in *.
      split; cbn [fst snd p_al p_cmp p_l p_cap p_data]; try done.
      + rewrite -G1 Hlx. done.
      + constructor; [apply ec_length|done].
      + constructor; [|done]. unfold HeapElem.ec. rewrite Htr. apply chunk_dead.
    - set (ms := refill (p_l x)).
      assert (Hms : <[n := lv T z]> (<[0%nat := z]> (p_l x)) = ms ++ [lv T z]).
      { unfold ms, refill. fold n. rewrite Hz. apply list_eq. intros i.
        assert (Hlen : length (<[0%nat := z]> (take n (p_l x))) = n) by (rewrite insert_length take_length; lia).
        destruct (decide (i = n)) as [->|Hi].
        - rewrite list_lookup_insert; [|rewrite insert_length; lia]. rewrite lookup_app_r; [|lia]. by rewrite Hlen Nat.sub_diag.
        - rewrite list_lookup_insert_ne //. destruct (decide (i < n)%nat) as [Hin|Hin].
          + rewrite lookup_app_l; [|lia]. destruct i as [|i].
            * rewrite !list_lookup_insert //. rewrite take_length. lia.
            * rewrite !list_lookup_insert_ne //. by rewrite lookup_take.
          + rewrite !lookup_ge_None_2 //; [rewrite app_length Hlen; cbn; lia|rewrite insert_length; lia]. }
      assert (Hmsl : length ms = n). { unfold ms, refill. fold n. rewrite Hz insert_length take_length. lia. }
      rewrite Hms. iSpecialize ("H" with "[] Hp").
      { iPureIntro. apply Nat2N.inj. rewrite !cells_length // app_length Hmsl. cbn. lia. }
      rewrite map_app -app_assoc. cbn [List.map app].
      iApply wp_bind. iApply wp_strong_mono. iSplitL.
      { unfold elem_addr. replace (p_data x + sz * N.of_nat n) with (p_data x + sz * N.of_nat (length (List.map ec ms))) by (by rewrite map_length Hmsl).
        iApply (destroy_spec with "H"); [|done].
        apply Forall_map, Forall_true. intros ?. apply ec_length. }
      iIntros (E') "H". iDestruct "H" as (e) "[%HH H]". destruct HH as [He Hd].
      assert (Hs' : sized (e :: rs)) by (by constructor).
      iDestruct (inv_acc CA b sz D Hsz with "H") as "[Hp H]".
      iApply wp_bind. iApply wp_strong_mono. iSplitL "Hp".
      { rewrite -Hmsl. iApply (percolate_down_spec bad sz T Hsz with "Hp"); [done| |lia].
        pose proof (hr_fit _ Hr) as Hf. cbn [fst] in Hf. nia. }
      iIntros (_) "Hp". set (d := down _ _ _ _).
      assert (Hdl : length d = n) by (unfold d; by rewrite down_length).
      iSpecialize ("H" with "[] Hp").
      { iPureIntro. apply Nat2N.inj. rewrite !cells_length //. by rewrite Hdl Hmsl. }
      iApply wp_ret. cbn [fst snd].
      iExists (SHeap (p_al x) (p_cmp x) d (p_cap x) (p_data x)), (e :: rs). rewrite hone_nonnull //. iFrame "H". iPureIntro.
      split_and!; try done.
      + unfold heap_of, p_len. cbn [p_al p_cmp p_l p_cap p_data]. by rewrite Hdl.
      + destruct Hr as [G1 G2 G3 G4 G5 G6 G7 G8]. cbn [fst snd] in *.
        split; cbn [fst snd p_al p_cmp p_l p_cap p_data]; try done.
        * rewrite Hdl. cbn. lia.
        * by constructor.
        * intros Hsw. unfold d. apply down_ordered; [by apply sorts_weak|lia|]. apply refill_ordered. by apply G8.
      + cbn [p_l]. unfold d. rewrite down_perm. unfold ms. destruct (p_l x) as [|a l]; [done|]. cbn in Hv. injection Hv as ->.
        apply refill_perm.
  Qed.

  Lemma hcopy_of_spec E B h x rs : h ∈ D -> hrep (x, rs) -> hone (x, rs) ⊆ B ->
    inv E B ⊢ wp bad (hcopy_of A b sz T h (heap_of x) E) (fun r => ∃ x' rs',
      ⌈fst r = heap_of x' /\ hrep (x', rs') /\ p_al x' = h /\ p_cmp x' = p_cmp x /\ p_l x' = p_l x /\ p_cap x' = p_len x⌉ ∗
      inv (snd r) (hone (x', rs') ++ B)).
  Proof.
    intros Hh Hr HB. unfold hcopy_of. cbn [h_al h_cmp h_size h_cap h_beg heap_of].
    iIntros "H". iApply wp_bind. iApply wp_strong_mono. iSplitL; [by iApply (halloc_spec _ _ _ (p_cmp x) with "H")|].
    iIntros ([p E']) "H". iDestruct "H" as (rs1) "[%Hr1 H]". cbn [fst snd] in *.
    pose proof (hr_len _ Hr1) as Hl1. cbn [fst snd p_l p_cap length] in Hl1.
    set (x2 := SHeap h (p_cmp x) (p_l x) (p_len x) p).
    assert (Hx2 : hrep (x2, drop (length (p_l x)) rs1)).
    { destruct Hr1 as [F1 F2 F3 F4 F5 F6 F7 _]. cbn [fst snd p_al p_cmp p_l p_cap p_data] in *. unfold p_len in *.
      split; cbn [fst snd p_al p_cmp p_l p_cap p_data x2]; try done; try (by apply Forall_drop); try apply Hr.
      rewrite drop_length. lia. }
    destruct (N.eq_dec (p_len x) 0) as [Hz|Hz].
    - assert (Hl : p_l x = []) by (apply length_zero_iff_nil; unfold p_len in Hz; lia).
      replace (N.to_nat (p_len x)) with 0%nat by lia. cbn [copy_n]. iApply wp_bind. iApply wp_ret. iApply wp_ret. cbn [fst snd].
      iExists x2, rs1. rewrite Hl drop_0 in Hx2. iSplitR; [done|].
      assert (SHeap h (p_cmp x) [] (p_len x) p = x2) as <- by (unfold x2; by rewrite Hl). done.
    - assert (H0 : p_data x <> 0). { intros H0. destruct (hrep_null _ _ Hr H0) as (Hl&_). unfold p_len in Hz. by rewrite Hl in Hz. }
      assert (H1 : p <> 0). { apply (hrep_nonnull _ _ Hr1). cbn. lia. }
      rewrite (hone_nonnull (_, rs1)) //. unfold hblk. cbn [fst snd app p_al p_data p_l List.map].
      unfold p_len. rewrite Nat2N.id. iApply wp_bind. iApply wp_strong_mono. iSplitL.
      { replace p with (p + sz * N.of_nat (length ([] : list value))) at 2 by (cbn; lia).
        replace (p_data x) with (p_data x + sz * N.of_nat 0) by lia.
        iApply (copy_n_spec _ _ _ _ [] _ (p_al x) (p_data x) (p_l x) rs 0 (p_l x) with "H"); [apply Hr1|apply Hr1|unfold p_len in *; lia| |apply Hr|done].
        apply HB. rewrite hone_nonnull //. by apply elem_of_list_singleton. }
      iIntros (E2) "H". iApply wp_ret. cbn [fst snd app]. iExists x2, (drop (length (p_l x)) rs1).
      rewrite hone_nonnull //. iFrame "H". done.
  Qed.

  Lemma find_spec E B x rs src v n i : hrep (x, rs) -> hone (x, rs) ⊆ B -> hsrc B src v -> (i + n = length (p_l x))%nat ->
    (forall j y, (j < i)%nat -> p_l x !! j = Some y -> eqv y v = false) ->
    inv E B ⊢ wp bad (find_loop sz T eqv src (p_data x) (N.of_nat i) n) (fun r =>
      ⌈first_equal eqv v (p_l x) r⌉ ∗ inv E B).
  Proof.
    intros Hr HB Hsrc. revert i. induction n as [|n IH]; intros i Hn Hi; cbn [find_loop]; iIntros "H".
    - iApply wp_ret. iSplitR; [|done]. iPureIntro. split.
      + intros j y Hj Hy. eapply (Hi (N.to_nat j)); [lia|done].
      + left. f_equal. lia.
    - assert (H0 : p_data x <> 0). { intros H0. destruct (hrep_null _ _ Hr H0) as (Hl&_). rewrite Hl in Hn. cbn in Hn. lia. }
      destruct (lookup_lt_is_Some_2 (p_l x) i ltac:(lia)) as [y Hy].
      iDestruct (inv_read CA b sz D Hsz with "H") as "[Hp H]".
      { apply HB. rewrite hone_nonnull //. apply elem_of_list_singleton. done. }
      iApply wp_bind. iApply (wp_arr_get bad sz T Hsz _ _ _ _ _ _ (hr_sized _ Hr) Hy). iFrame "Hp". iIntros "Hp". iSpecialize ("H" with "Hp").
      iApply wp_bind. iApply wp_strong_mono. iSplitL; [by iApply (e_src_spec with "H")|]. iIntros (u) "[-> H]".
      destruct (eqv y v) eqn:Eq.
      + iApply wp_ret. iSplitR; [|done]. iPureIntro. split.
        * intros j z Hj Hz. eapply (Hi (N.to_nat j)); [lia|done].
        * right. exists y. rewrite Nat2N.id. done.
      + replace (N.of_nat i + 1) with (N.of_nat (S i)) by lia. iApply (IH with "H"); [lia|].
        intros j z Hj Hz. destruct (decide (j = i)) as [->|Hne]; [congruence|]. eapply (Hi j); [lia|done].
  Qed.

  (** * Families of heaps *)
  Local Notation stov := (fmap (M := gmap nat) (A := sto) (heap_of ∘ fst)).

  Definition hinv (E : env A) (vs : gmap nat heap) (m : gmap nat sheap) : hpropI :=
    ∃ Z : gmap nat sto, ⌈vs = stov Z /\ m = fst <$> Z /\ map_Forall (fun _ => hrep) Z⌉ ∗ inv E (hbl Z).

  Lemma hinv_init E : inv E [] ⊢ hinv E ∅ ∅.
  Proof. iIntros "H". iExists ∅. rewrite hbl_empty. iFrame. iPureIntro. by rewrite !fmap_empty. Qed.

  Lemma hinv_put E Z c x rs : map_Forall (fun _ => hrep) (delete c Z) -> hrep (x, rs) ->
    inv E (hone (x, rs) ++ hbl (delete c Z)) ⊢ hinv E (<[c := heap_of x]> (stov Z)) (<[c := x]> (fst <$> Z)).
  Proof.
    intros HZ Hr. iIntros "H". iExists (<[c := (x, rs)]> Z). rewrite !fmap_insert. iSplit.
    - iPureIntro. split_and!; [done|done|]. rewrite -insert_delete_insert. by apply map_Forall_insert_2.
    - iApply (inv_perm with "H"). by rewrite hbl_put.
  Qed.

  Lemma hinv_del E Z c : map_Forall (fun _ => hrep) Z ->
    inv E (hbl (delete c Z)) ⊢ hinv E (delete c (stov Z)) (delete c (fst <$> Z)).
  Proof.
    intros HZ. iIntros "H". iExists (delete c Z). rewrite !fmap_delete. iFrame. iPureIntro. split_and!; [done|done|].
    by apply map_Forall_delete.
  Qed.

  Lemma hkill_all_spec (l : list (nat * sto)) E : Forall (fun p => hrep (snd p)) l ->
    inv E (flat_map (fun p => hone (snd p)) l) ⊢
    wp bad (kill_all A (hrelease A b sz T) (List.map (fun p => (fst p, heap_of (fst (snd p)))) l) E) (fun E' => inv E' []).
  Proof.
    revert E. induction l as [|[c [x es]] l IH]; intros E Hl; cbn [List.map kill_all flat_map fst snd].
    - iIntros "H". by iApply wp_ret.
    - apply Forall_cons_iff in Hl as [H1 H2]. iIntros "H". iApply wp_bind. iApply wp_strong_mono.
      iSplitL; [by iApply (hrelease_spec with "H")|]. iIntros (E') "H". by iApply IH.
  Qed.

  Lemma hinv_kill E vs m : hinv E vs m ⊢ wp bad (kill_all A (hrelease A b sz T) (map_to_list vs) E) (fun E' => inv E' []).
  Proof.
    iIntros "H". iDestruct "H" as (Z) "[%HH H]". destruct HH as (->&->&HZ). set (f := fun p : nat * sto => (fst p, heap_of (fst (snd p)))).
    assert (Hp : map_to_list (stov Z) ≡ₚ List.map f (map_to_list Z)).
    { rewrite map_to_list_fmap. induction (map_to_list Z) as [|[? [? ?]] l IH]; [done|]. cbn. by f_equiv. }
    apply Permutation_map_inv in Hp as (l&->&Hl).
    iApply hkill_all_spec.
    - apply list.Forall_forall. intros [c y] Hin. rewrite -Hl in Hin. apply elem_of_map_to_list in Hin. by apply (HZ _ _ Hin).
    - iApply (inv_perm with "H"). unfold hbl. by apply flat_map_perm.
  Qed.

  (** * Operations *)
  Lemma hget_of (Z : gmap nat sto) c : hget c (stov Z) = heap_of (p_get c (fst <$> Z)).
  Proof. unfold hget, p_get. rewrite !lookup_fmap. by destruct (Z !! c) as [[? ?]|]. Qed.
  Lemma h_info_of x : h_info (heap_of x) = p_info x.
  Proof. done. Qed.
  Lemma hinfos_of Z : h_info <$> stov Z = p_info <$> (fst <$> Z).
  Proof. rewrite -!map_fmap_compose. apply map_fmap_ext. by intros i [x es] _. Qed.
  Lemma hlook_spec (m : gmap nat sheap) c : look (p_info <$> m) c = p_info (p_get c m).
  Proof. unfold look, p_get. rewrite lookup_fmap. by destruct (m !! c). Qed.

  Lemma hzget (Z : gmap nat sto) c : map_Forall (fun _ => hrep) Z -> has (p_info <$> (fst <$> Z)) c = true ->
    exists x rs, Z !! c = Some (x, rs) /\ hrep (x, rs) /\ p_get c (fst <$> Z) = x /\ hbl Z ≡ₚ hone (x, rs) ++ hbl (delete c Z).
  Proof.
    intros HZ Hh. rewrite has_spec in Hh. destruct Hh as [x Hx]. rewrite lookup_fmap in Hx.
    destruct (Z !! c) as [[x' es]|] eqn:E; [|done]. cbn in Hx. injection Hx as ->. exists x, es. split_and!; try done.
    - by apply (HZ _ _ E).
    - unfold p_get. by rewrite lookup_fmap E.
    - by apply hbl_delete.
  Qed.
  Lemma hZ_fresh (Z : gmap nat sto) c : has (p_info <$> (fst <$> Z)) c = false -> Z !! c = None /\ delete c Z = Z.
  Proof.
    intros H. rewrite has_false lookup_fmap in H. destruct (Z !! c) eqn:E; [done|]. split; [done|]. by apply delete_notin.
  Qed.

  Lemma harg Z Z' r : map_Forall (fun _ => hrep) Z -> match r with RVal _ => True | RElem c _ => Z' !! c = Z !! c end ->
    ok_ref (p_info <$> (fst <$> Z)) r = true -> hsrc (hbl Z') (hlocate sz r (stov Z)) (p_val r (fst <$> Z)).
  Proof.
    intros HZ Hc Hok. destruct r as [x|c i]; [done|]. cbn [hlocate p_val hsrc]. rewrite hget_of.
    cbn [ok_ref] in Hok. apply andb_true_iff in Hok as [H1 H2].
    destruct (hzget Z c HZ H1) as (x&rs&Hz&Hr&Hg&_). rewrite hlook_spec Hg in H2. rewrite Hg. cbn [p_info i_size] in H2. apply N.ltb_lt in H2.
    unfold p_len in H2. destruct (lookup_lt_is_Some_2 (p_l x) (N.to_nat i) ltac:(lia)) as [v Hv].
    exists (p_al x), (p_data x), (p_l x), rs, (N.to_nat i). split_and!; [|apply Hr|by rewrite Hv|unfold elem_addr; cbn; lia].
    apply (hbl_in Z' c (x, rs)); [by rewrite Hc|]. rewrite hone_nonnull; [by apply elem_of_list_singleton|].
    apply (hrep_nonnull _ _ Hr). pose proof (hr_len _ Hr) as Hl. cbn in *. lia.
  Qed.

  Lemma hrep_emptied x rs : hrep (x, rs) -> hrep (p_emptied x, []).
  Proof. intros Hr. split; cbn; try done; try apply Hr; try constructor. rewrite N.mul_0_r. done. Qed.
  Lemma hemptied_one x rs : hone (p_emptied x, rs) = [].
  Proof. done. Qed.

  Lemma hfin_born (Z : gmap nat sto) c h q (L : list value -> Prop) E x rs : map_Forall (fun _ => hrep) (delete c Z) -> hrep (x, rs) ->
    p_al x = h -> p_cmp x = q -> L (p_l x) -> p_cap x = p_len x ->
    inv E (hone (x, rs) ++ hbl (delete c Z)) ⊢ wp bad (ret (CUnit, (E, <[c := heap_of x]> (stov Z)))) (fun r =>
      ∃ m', ⌈fst r = CUnit /\ p_born comp c h q L (fst <$> Z) m'⌉ ∗ hinv (fst (snd r)) (snd (snd r)) m').
  Proof.
    intros HZ Hr Ha Hq Hl Hc. iIntros "H". iApply wp_ret. cbn [fst snd]. iExists _. iSplitR; last by iApply (hinv_put with "H").
    iPureIntro. split; [done|]. exists x. split_and!; try done; apply (hrep_ok _ _ Hr).
  Qed.

  Lemma hfin_become (Z : gmap nat sto) c (ob : cobs) n r' (L : list value -> Prop) (Q : cobs -> gmap nat sheap -> Prop) E x rs :
    map_Forall (fun _ => hrep) (delete c Z) -> hrep (x, rs) ->
    (forall m', p_become comp c n r' L (fst <$> Z) m' -> Q ob m') ->
    p_al x = p_al (p_get c (fst <$> Z)) -> p_cmp x = p_cmp (p_get c (fst <$> Z)) -> L (p_l x) ->
    (if n <=? p_cap (p_get c (fst <$> Z)) then p_cap x = p_cap (p_get c (fst <$> Z)) /\ p_data x = p_data (p_get c (fst <$> Z)) else r' <= p_cap x) ->
    inv E (hone (x, rs) ++ hbl (delete c Z)) ⊢ wp bad (ret (ob, (E, <[c := heap_of x]> (stov Z)))) (fun r =>
      ∃ m', ⌈Q (fst r) m'⌉ ∗ hinv (fst (snd r)) (snd (snd r)) m').
  Proof.
    intros HZ Hr HQ Ha Hq Hl Hc. iIntros "H". iApply wp_ret. cbn [fst snd]. iExists _. iSplitR; last by iApply (hinv_put with "H").
    iPureIntro. apply HQ. exists x. cbn zeta. split_and!; try done. apply (hrep_ok _ _ Hr).
  Qed.

  Lemma hget_insert (vs : gmap nat heap) c w : hget c (<[c := w]> vs) = w.
  Proof. unfold hget. by rewrite lookup_insert. Qed.
  Lemma hget_self (vs : gmap nat heap) c src : hget src (<[c := hget src vs]> vs) = hget src vs.
  Proof.
    destruct (decide (c = src)) as [->|Hne]; unfold hget at 1; [by rewrite lookup_insert|]. rewrite lookup_insert_ne //.
  Qed.

  Ltac bools :=
    repeat match goal with
    | H : (_ && _)%bool = true |- _ => let L := fresh "L" in let L' := fresh "L" in apply andb_true_iff in H as [L L']
    | H : negb _ = true |- _ => apply negb_true_iff in H
    | H : new_name _ _ _ _ = true |- _ => unfold new_name in H
    | H : (_ <? _)%nat = true |- _ => apply Nat.ltb_lt in H
    | H : (_ <? _) = true |- _ => apply N.ltb_lt in H
    | H : (_ <=? _) = true |- _ => apply N.leb_le in H
    end.

  Lemma hassign_spec E Z c src x rs y rs2 : Z !! c = Some (x, rs) -> Z !! src = Some (y, rs2) ->
    (c <> src \/ p_len y = 0) -> map_Forall (fun _ => hrep) (delete c Z) -> hrep (y, rs2) ->
    inv E (hbl (delete c Z)) ⊢ wp bad (hassign A b sz T c src (E, stov Z)) (fun r =>
      ∃ m', ⌈fst r = CUnit /\ p_born comp c (p_al y) (p_cmp y) (eq (p_l y)) (fst <$> Z) m'⌉ ∗ hinv (fst (snd r)) (snd (snd r)) m').
  Proof.
    intros Hs Hs2 Lo HZd Hr2. iIntros "H". unfold hassign. cbn zeta.
    assert (Hg : p_get c (fst <$> Z) = x) by (unfold p_get; by rewrite lookup_fmap Hs).
    assert (Hg2 : p_get src (fst <$> Z) = y) by (unfold p_get; by rewrite lookup_fmap Hs2).
    rewrite !hget_of !Hg !Hg2.
    cbn [h_al h_cmp h_size h_beg heap_of]. rewrite !hget_insert. cbn [h_al h_cap].
    iApply wp_bind. iApply wp_strong_mono. iSplitL; [iApply (halloc_spec _ _ _ (p_cmp y) with "H"); apply Hr2|].
    iIntros ([p E2]) "H". iDestruct "H" as (rs1) "[%Hr1 H]". cbn [fst snd] in *.
    cbn [h_cmp h_size]. rewrite insert_insert.
    pose proof (hr_len _ Hr1) as Hl1. cbn [fst snd p_l p_cap length] in Hl1.
    set (x2 := SHeap (p_al y) (p_cmp y) (p_l y) (p_len y) p).
    change (Heap (p_al y) (p_cmp y) (p_len y) (p_len y) p) with (heap_of x2).
    assert (Hx2 : hrep (x2, drop (length (p_l y)) rs1)).
    { destruct Hr1 as [F1 F2 F3 F4 F5 F6 F7 _]. cbn [fst snd p_al p_cmp p_l p_cap p_data] in *. unfold p_len in *.
      split; cbn [fst snd p_al p_cmp p_l p_cap p_data x2]; try done; try (by apply Forall_drop); try apply Hr2.
      rewrite drop_length. lia. }
    destruct (N.eq_dec (p_len y) 0) as [Hz|Hz].
    + assert (Hl : p_l y = []) by (apply length_zero_iff_nil; unfold p_len in Hz; lia).
      replace (N.to_nat (p_len y)) with 0%nat by lia. cbn [copy_n]. iApply wp_bind. iApply wp_ret.
      rewrite Hl drop_0 in Hx2.
      assert (SHeap (p_al y) (p_cmp y) [] (p_len y) p = x2) as -> by (unfold x2; by rewrite Hl).
      iApply (hfin_born with "H"); try done.
    + assert (Hne : c <> src).
      { by destruct Lo. }
      unfold hget. rewrite lookup_insert_ne // lookup_fmap Hs2. cbn [fmap option_fmap option_map default from_option id compose fst h_beg heap_of].
      assert (H0 : p_data y <> 0). { intros H0. destruct (hrep_null _ _ Hr2 H0) as (Hl&_). unfold p_len in Hz. by rewrite Hl in Hz. }
      assert (H1 : p <> 0). { apply (hrep_nonnull _ _ Hr1). cbn. lia. }
      rewrite (hone_nonnull (_, rs1)) //. unfold hblk. cbn [fst snd app p_al p_data p_l List.map].
      unfold p_len. rewrite Nat2N.id. iApply wp_bind. iApply wp_strong_mono. iSplitL.
      { replace p with (p + sz * N.of_nat (length ([] : list value))) at 2 by (cbn; lia).
        replace (p_data y) with (p_data y + sz * N.of_nat 0) by lia.
        iApply (copy_n_spec _ _ _ _ [] _ (p_al y) (p_data y) (p_l y) rs2 0 (p_l y) with "H"); [apply Hr1|apply Hr1|unfold p_len in *; lia| |apply Hr2|done].
        eapply (hbl_in (delete c Z) src); [by rewrite lookup_delete_ne|]. rewrite hone_nonnull //. by apply elem_of_list_singleton. }
      iIntros (E3) "H". cbn [app]. iApply (hfin_born _ _ _ _ _ _ x2 with "[H]"); try done. rewrite hone_nonnull //.
  Qed.

  Lemma hmove_assign_spec E Z c src x rs y rs2 : Z !! c = Some (x, rs) -> Z !! src = Some (y, rs2) ->
    map_Forall (fun _ => hrep) (delete c Z) -> hrep (y, rs2) ->
    inv E (hbl (delete c Z)) ⊢ wp bad (hmove_assign A c src (E, stov Z)) (fun r =>
      ∃ m', ⌈fst r = CUnit /\ m' = <[src := p_emptied y]> (<[c := y]> (fst <$> Z))⌉ ∗ hinv (fst (snd r)) (snd (snd r)) m').
  Proof.
    intros Hs Hs2 HZd Hr2. iIntros "H". unfold hmove_assign. cbn zeta.
    assert (Hg2 : p_get src (fst <$> Z) = y) by (unfold p_get; by rewrite lookup_fmap Hs2).
    rewrite hget_of Hg2.
    assert (Hself : hget src (<[c := heap_of y]> (stov Z)) = heap_of y).
    { unfold hget. destruct (decide (c = src)) as [->|Hne]; [by rewrite lookup_insert|]. rewrite lookup_insert_ne // lookup_fmap Hs2. done. }
    rewrite Hself. cbn [h_al h_cmp heap_of].
    iApply wp_ret. cbn [fst snd]. iExists _. iSplitR; [done|].
    pose proof (hinv_put E (<[c := (y, rs2)]> Z) src (p_emptied y) []) as Hput.
    rewrite !fmap_insert in Hput. cbn [fst compose] in Hput. iApply Hput.
    + apply map_Forall_delete. rewrite -insert_delete_insert. by apply map_Forall_insert_2.
    + by eapply hrep_emptied.
    + rewrite hemptied_one. cbn [app]. destruct (decide (c = src)) as [->|Hne].
      * rewrite delete_insert_delete. done.
      * rewrite delete_insert_ne //. iApply (inv_perm with "H"). rewrite hbl_put.
        rewrite (hbl_delete (delete c Z) src (y, rs2)); [|by rewrite lookup_delete_ne]. by rewrite delete_commute.
  Qed.

  Lemma hstep_spec k o E vs m : (forall h, h_arg o = Some h -> hlegal sz T k (p_info <$> m) o = true -> h ∈ D) ->
    hinv E vs m ⊢ wp bad (hstep A b sz T comp eqv k o (E, vs)) (fun r =>
    ∃ m', ⌈hcheck sz T comp eqv k o (fst r) m m'⌉ ∗ hinv (fst (snd r)) (snd (snd r)) m').
  Proof.
    intros Hdom. iIntros "H". iDestruct "H" as (Z) "[%HH H]". destruct HH as (->&->&HZ).
    unfold hstep, hcheck. cbn [snd]. rewrite hinfos_of.
    destruct (hlegal sz T k (p_info <$> (fst <$> Z)) o) eqn:HL.
    2:{ iApply wp_ret. cbn [fst snd]. iExists _. iSplitR; [done|]. iExists Z. by iFrame. }
    assert (HZd : forall c, map_Forall (fun _ => hrep) (delete c Z)) by (intros c; by apply map_Forall_delete).
    destruct o; cbn [hdo hlegal hcheck_do h_arg] in *; rewrite ?hget_of;
      try (specialize (Hdom _ eq_refl eq_refl)); bools.
    - (* HNew *) destruct (hZ_fresh _ _ ltac:(eassumption)) as [Hf Hd].
      iApply wp_ret. cbn [fst snd]. iExists _. iSplitR; [done|].
      iApply (hinv_put _ _ _ (SHeap h q [] 0 0) []); [done| |].
      + split; cbn; try done; try constructor. rewrite N.mul_0_r. done.
      + rewrite Hd. done.
    - (* HNewCap *) destruct (hZ_fresh _ _ ltac:(eassumption)) as [Hf Hd].
      iApply wp_bind. iApply wp_strong_mono. iSplitL; [by iApply (halloc_spec _ _ _ q with "H")|].
      iIntros ([p E']) "H". iDestruct "H" as (rs) "[%Hr H]". cbn [fst snd] in *.
      iApply wp_ret. cbn [fst snd]. iExists (<[c := SHeap h q [] n p]> (fst <$> Z)). iSplitR.
      { iPureIntro. split; [done|]. eexists. split_and!; try done; apply (hrep_ok _ _ Hr). }
      iApply (hinv_put E' Z c (SHeap h q [] n p) rs); [done|done|by rewrite Hd].
    - (* HNewList *) destruct (hZ_fresh _ _ ltac:(eassumption)) as [Hf Hd].
      iApply wp_bind. iApply wp_strong_mono. iSplitL; [by iApply (halloc_spec _ _ _ q with "H")|].
      iIntros ([p E']) "H". iDestruct "H" as (rs) "[%Hr H]". cbn [fst snd] in *.
      iApply wp_bind. iApply wp_strong_mono. iSplitL; [iApply (insert_list_spec _ _ _ _ l with "H"); [done|cbn; lia]|].
      iIntros ([w E2]) "H". iDestruct "H" as (x' rs') "[%HH H]". destruct HH as (H1&H2&H3&H4&H5&H6). cbn [fst snd p_al p_cmp p_cap p_l app] in *. subst w.
      iApply hfin_born; try done; [|by rewrite Hd]. unfold p_len. by rewrite H5 H6.
    - (* HCopy *) destruct (hZ_fresh _ _ ltac:(eassumption)) as [Hf Hd].
      destruct (hzget Z src HZ) as (x&rs&Hs&Hr&Hg&Hp); [done|]. rewrite Hg. cbn [h_al heap_of].
      iApply wp_bind. iApply wp_strong_mono. iSplitL.
      { iApply (hcopy_of_spec with "H"); [apply Hr|done|]. by eapply hbl_in. }
      iIntros ([w E']) "H". iDestruct "H" as (x' rs') "[%HH H]". destruct HH as (H1&H2&H3&H4&H5&H6). cbn [fst snd] in *. subst w.
      iApply hfin_born; try done; [|by rewrite Hd]. unfold p_len in *. by rewrite H5.
    - (* HMove *) destruct (hZ_fresh _ _ ltac:(eassumption)) as [Hf Hd].
      destruct (hzget Z src HZ) as (x&rs&Hs&Hr&Hg&Hp); [done|]. rewrite Hg. cbn [h_al h_cmp heap_of].
      assert (Hne : c <> src) by congruence.
      iApply wp_ret. cbn [fst snd]. iExists _. iSplitR; [done|].
      pose proof (hinv_put E (<[c := (x, rs)]> Z) src (p_emptied x) []) as Hput.
      rewrite !fmap_insert in Hput. cbn [fst compose] in Hput. iApply Hput.
      + apply map_Forall_delete. by apply map_Forall_insert_2.
      + by eapply hrep_emptied.
      + rewrite hemptied_one delete_insert_ne //. iApply (inv_perm with "H"). cbn [app].
        rewrite hbl_put Hp. rewrite (delete_notin (delete src Z)); [done|]. by rewrite lookup_delete_ne.
    - (* HCopyAl *) destruct (hZ_fresh _ _ ltac:(eassumption)) as [Hf Hd].
      destruct (hzget Z src HZ) as (x&rs&Hs&Hr&Hg&Hp); [done|]. rewrite Hg.
      iApply wp_bind. iApply wp_strong_mono. iSplitL.
      { iApply (hcopy_of_spec with "H"); [done|done|]. by eapply hbl_in. }
      iIntros ([w E']) "H". iDestruct "H" as (x' rs') "[%HH H]". destruct HH as (H1&H2&H3&H4&H5&H6). cbn [fst snd] in *. subst w.
      iApply hfin_born; try done; [|by rewrite Hd]. unfold p_len in *. by rewrite H5.
    - (* HMoveAl *) destruct (hZ_fresh _ _ ltac:(eassumption)) as [Hf Hd].
      destruct (hzget Z src HZ) as (x&rs&Hs&Hr&Hg&Hp); [done|]. rewrite hlook_spec Hg in L0. rewrite Hg. cbn [p_info i_data i_size] in L0.
      assert (Hne : c <> src) by congruence. cbn [h_beg h_al h_cap h_cmp heap_of].
      iApply wp_bind. iApply wp_strong_mono. iSplitL.
      { iApply (hcopy_of_spec with "H"); [done|done|]. by eapply hbl_in. }
      iIntros ([w E']) "H". iDestruct "H" as (y rs') "[%HH H]". destruct HH as (H1&H2&H3&H4&H5&H6). cbn [fst snd] in *. subst w.
      assert (Hfin : forall E2, inv E2 (hone (y, rs') ++ hbl (delete src Z)) ⊢
        wp bad (ret (CUnit, (E2, <[src := Heap (p_al x) (p_cmp x) 0 0 0]> (<[c := heap_of y]> (stov Z))))) (fun r => ∃ m',
          ⌈fst r = CUnit /\ exists m1, p_born comp c h (p_cmp x) (eq (p_l x)) (fst <$> Z) m1 /\ m' = <[src := p_emptied x]> m1⌉ ∗
          hinv (fst (snd r)) (snd (snd r)) m')).
      { intros E2. iIntros "H". iApply wp_ret. cbn [fst snd]. iExists (<[src := p_emptied x]> (<[c := y]> (fst <$> Z))). iSplitR.
        - iPureIntro. split; [done|]. exists (<[c := y]> (fst <$> Z)). split; [|done]. exists y.
          split_and!; try done; try apply (hrep_ok _ _ H2). unfold p_len in *. by rewrite H5.
        - pose proof (hinv_put E2 (<[c := (y, rs')]> Z) src (p_emptied x) []) as Hput.
          rewrite !fmap_insert in Hput. cbn [fst compose] in Hput. iApply Hput.
          + apply map_Forall_delete. by apply map_Forall_insert_2.
          + by eapply hrep_emptied.
          + rewrite hemptied_one delete_insert_ne //. iApply (inv_perm with "H"). cbn [app].
            rewrite hbl_put. rewrite (delete_notin (delete src Z)); [done|]. by rewrite lookup_delete_ne. }
      iApply wp_bind. destruct (N.eqb_spec (p_data x) 0) as [H0|H0].
      + iApply wp_ret. iApply Hfin. iApply (inv_perm with "H"). by rewrite Hp (hone_null (x, rs)).
      + cbn [orb] in L0. apply andb_true_iff in L0 as [Hsz1 Hnone]. apply N.eqb_eq in Hsz1.
        pose proof (hr_fit _ Hr) as Hfit. cbn [fst] in Hfit. pose proof (hr_len _ Hr) as Hlen. cbn [fst snd] in Hlen.
        rewrite mul64_small; [|unfold W; nia]. replace (p_cap x * sz) with (p_cap x) by nia.
        iApply wp_strong_mono. iSplitL.
        { iApply (give_back_spec _ (hone (y, rs') ++ hbl (delete src Z)) _ _ _ (List.map ec (p_l x) ++ rs) with "[H]").
          - rewrite app_length map_length. lia.
          - apply cells_sized, Hr.
          - apply Forall_app. split; [|apply Hr]. apply orb_true_iff in Hnone as [Ht|Hz].
            + apply Forall_map, Forall_true. intros v. unfold HeapElem.ec. rewrite Ht. apply chunk_dead.
            + apply N.eqb_eq in Hz. unfold p_len in Hz. destruct (p_l x); [constructor|done].
          - iApply (inv_perm with "H"). rewrite Hp (hone_nonnull (x, rs)) //. cbn [app]. symmetry. apply Permutation_middle. }
        iIntros (E2) "H". by iApply Hfin.
    - (* HDestroy *)
      destruct (hzget Z c HZ) as (x&rs&Hs&Hr&Hg&Hp); [done|]. rewrite Hg. rewrite (inv_perm _ _ _ _ _ _ Hp).
      iApply wp_bind. iApply wp_strong_mono. iSplitL; [by iApply (hrelease_spec with "H")|]. iIntros (E') "H".
      iApply wp_ret. cbn [fst snd]. iExists _. iSplitR; [done|]. by iApply hinv_del.
    - (* HAssign *)
      destruct (hzget Z c HZ) as (x&rs&Hs&Hr&Hg&Hp); [done|]. destruct (hzget Z src HZ) as (y&rs2&Hs2&Hr2&Hg2&Hp2); [done|].
      rewrite Hg Hg2. rewrite (inv_perm _ _ _ _ _ _ Hp).
      iApply wp_bind. iApply wp_strong_mono. iSplitL; [by iApply (hrelease_spec with "H")|]. iIntros (E') "H".
      iApply (hassign_spec with "H"); try done.
      match goal with H : (_ || _)%bool = true |- _ => rename H into Lo end.
      destruct (decide (c = src)) as [->|]; [|by left]. right.
      rewrite hlook_spec Hg2 in Lo. cbn [p_info i_size] in Lo. rewrite bool_decide_true // in Lo. cbn in Lo. by apply N.eqb_eq in Lo.
    - (* HMoveAssign *)
      destruct (hzget Z c HZ) as (x&rs&Hs&Hr&Hg&Hp); [done|]. destruct (hzget Z src HZ) as (y&rs2&Hs2&Hr2&Hg2&Hp2); [done|].
      rewrite Hg Hg2. rewrite (inv_perm _ _ _ _ _ _ Hp).
      iApply wp_bind. iApply wp_strong_mono. iSplitL; [by iApply (hrelease_spec with "H")|]. iIntros (E') "H".
      by iApply (hmove_assign_spec with "H").
    - (* HSize *) iApply wp_ret. cbn [fst snd]. iExists _. iSplitR; [done|]. iExists Z. by iFrame.
    - (* HCap *) iApply wp_ret. cbn [fst snd]. iExists _. iSplitR; [done|]. iExists Z. by iFrame.
    - (* HEmpty *) iApply wp_ret. cbn [fst snd]. iExists _. iSplitR; [done|]. iExists Z. by iFrame.
    - (* HData *) iApply wp_ret. cbn [fst snd]. iExists _. iSplitR; [done|]. iExists Z. by iFrame.
    - (* HAt *)
      destruct (hzget Z c HZ) as (x&rs&Hs&Hr&Hg&Hp); [done|]. rewrite Hg. cbn [h_beg heap_of].
      match goal with H : i < _ |- _ => rename H into Li end. rewrite hlook_spec Hg in Li. cbn [i_size p_info] in Li.
      pose proof (harg Z Z (RElem c i) HZ eq_refl) as Hsrc. cbn [ok_ref hlocate p_val] in Hsrc. rewrite hget_of hlook_spec Hg in Hsrc.
      unfold p_len in Li. destruct (lookup_lt_is_Some_2 (p_l x) (N.to_nat i) ltac:(lia)) as [v Hv]. rewrite Hv in Hsrc. cbn [default from_option id] in Hsrc.
      assert (Hh : has (p_info <$> (fst <$> Z)) c = true) by done.
      pose proof (e_src_spec E (hbl Z) _ v (Hsrc ltac:(rewrite Hh; cbn; apply N.ltb_lt; unfold p_len; lia))) as Hget. cbn [e_src] in Hget.
      iApply wp_bind. iApply wp_strong_mono. iSplitL; [iApply (Hget with "H")|].
      iIntros (u) "[-> H]". iApply wp_ret. cbn [fst snd]. iExists _. iSplitR; last (iExists Z; by iFrame). iPureIntro. eauto.
    - (* HReserve *)
      destruct (hzget Z c HZ) as (x&rs&Hs&Hr&Hg&Hp); [done|]. rewrite Hg. rewrite (inv_perm _ _ _ _ _ _ Hp).
      unfold hreserve. cbn [h_cap heap_of]. iApply wp_bind. pose proof (hr_len _ Hr) as Hlen. cbn [fst snd] in Hlen.
      destruct (N.ltb_spec (p_cap x) n) as [Hn|Hn].
      + iApply wp_strong_mono. iSplitL; [iApply (hset_size_spec with "H"); [done|unfold p_len; lia]|].
        iIntros ([w E']) "H". iDestruct "H" as (x' rs') "[%HH H]". destruct HH as (H1&H2&H3&H4&H5&H6). cbn [fst snd] in *. subst w.
        iApply (hfin_become _ _ _ n n (eq (p_l x)) (fun ob m' => ob = CUnit /\ p_become comp c n n (eq (p_l x)) (fst <$> Z) m') with "H"); try done; rewrite ?Hg; try done.
        destruct (N.leb_spec n (p_cap x)); [lia|]. lia.
      + iApply wp_ret.
        iApply (hfin_become _ _ _ n n (eq (p_l x)) (fun ob m' => ob = CUnit /\ p_become comp c n n (eq (p_l x)) (fst <$> Z) m') with "H"); try done; rewrite ?Hg; try done.
        destruct (N.leb_spec n (p_cap x)); [done|]. lia.
    - (* HInsert *)
      match goal with H : (match r with _ => _ end) = true |- _ => rename H into Lown end.
      match goal with H : ok_ref _ _ = true |- _ => rename H into Lref end.
      destruct (hzget Z c HZ) as (x&rs&Hs&Hr&Hg&Hp); [done|]. rewrite Hg.
      set (v := p_val r (fst <$> Z)).
      assert (Hsrc : if p_len x + 1 <=? p_cap x then hsrc (hone (x, rs) ++ hbl (delete c Z)) (hlocate sz r (stov Z)) v
                     else hsrc (hbl (delete c Z)) (hlocate sz r (stov Z)) v).
      { destruct (N.leb_spec (p_len x + 1) (p_cap x)) as [Hroom|Hroom].
        - eapply hsrc_mono; [|apply (harg Z Z); [done|by destruct r|done]]. intros w Hw. by rewrite Hp in Hw.
        - apply harg; [done| |done]. destruct r as [|c' i]; [done|]. apply orb_true_iff in Lown as [Hne|Hroom'].
          + apply negb_true_iff, bool_decide_eq_false in Hne. by rewrite lookup_delete_ne.
          + unfold room in Hroom'. rewrite hlook_spec Hg in Hroom'. cbn [p_info i_size i_cap] in Hroom'. apply N.leb_le in Hroom'. lia. }
      rewrite (inv_perm _ _ _ _ _ _ Hp).
      iApply wp_bind. iApply wp_strong_mono. iSplitL; [by iApply (hinsert_spec with "H")|].
      iIntros ([[i w] E']) "H". iDestruct "H" as (i' x' rs') "[%HH H]". destruct HH as (H1&H2&H3&H4&H5&H6&H7). cbn [fst snd] in *.
      injection H1 as -> ->.
      iApply (hfin_become _ _ _ (p_len x + 1) (N.max (p_len x + 1) (2 * p_cap x)) (fun l' => l' ≡ₚ v :: p_l x /\ l' !! i' = Some v) (fun ob m' => exists i, ob = CNum i /\
         p_become comp c (p_len x + 1) (N.max (p_len x + 1) (2 * p_cap x)) (fun l' => l' ≡ₚ v :: p_l x /\ l' !! N.to_nat i = Some v) (fst <$> Z) m') with "H"); try done; rewrite ?Hg; try done.
      intros m' Hm'. exists (N.of_nat i'). split; [done|]. by rewrite Nat2N.id.
    - (* HPeek *)
      destruct (hzget Z c HZ) as (x&rs&Hs&Hr&Hg&Hp); [done|]. rewrite Hg. cbn [h_beg h_size heap_of].
      match goal with H : 0 < _ |- _ => rename H into Li end. rewrite hlook_spec Hg in Li. cbn [i_size p_info] in Li.
      iApply wp_bind. iApply wp_assert; [by apply N.ltb_lt|].
      pose proof (harg Z Z (RElem c 0) HZ eq_refl) as Hsrc. cbn [ok_ref hlocate p_val] in Hsrc. rewrite hget_of hlook_spec Hg in Hsrc.
      unfold p_len in Li. destruct (lookup_lt_is_Some_2 (p_l x) (N.to_nat 0) ltac:(lia)) as [v Hv]. rewrite Hv in Hsrc. cbn [default from_option id] in Hsrc.
      assert (Hh : has (p_info <$> (fst <$> Z)) c = true) by done.
      pose proof (e_src_spec E (hbl Z) _ v (Hsrc ltac:(rewrite Hh; cbn; apply N.ltb_lt; unfold p_len; lia))) as Hget. cbn [e_src] in Hget.
      iApply wp_bind. iApply wp_strong_mono. iSplitL; [iApply (Hget with "H")|].
      iIntros (u) "[-> H]". iApply wp_ret. cbn [fst snd]. iExists _. iSplitR; last (iExists Z; by iFrame). iPureIntro. eauto.
    - (* HPop *)
      destruct (hzget Z c HZ) as (x&rs&Hs&Hr&Hg&Hp); [done|]. rewrite Hg.
      match goal with H : 0 < _ |- _ => rename H into Li end. match goal with H : (_ || _)%bool = true |- _ => rename H into Lo end.
      rewrite hlook_spec Hg in Li, Lo. cbn [i_size p_info] in Li, Lo. unfold p_len in Li, Lo.
      destruct (lookup_lt_is_Some_2 (p_l x) 0 ltac:(lia)) as [v Hv].
      rewrite (inv_perm _ _ _ _ _ _ Hp). iApply wp_bind. iApply wp_strong_mono. iSplitL.
      { iApply (hpop_spec with "H"); [done|done|]. apply orb_true_iff in Lo as [Lo|Lo]; [by left|right]. apply N.ltb_lt in Lo. lia. }
      iIntros ([[u w] E']) "H". iDestruct "H" as (x' rs') "[%HH H]". destruct HH as (H1&H2&H3&H4&H5&H6&H7). cbn [fst snd] in *.
      injection H1 as -> ->.
      iApply (hfin_become _ _ _ 0 0 (fun l' => v :: l' ≡ₚ p_l x) (fun ob m' => exists v, p_l x !! 0%nat = Some v /\ ob = CVal (Some v) /\
         p_become comp c 0 0 (fun l' => v :: l' ≡ₚ p_l x) (fst <$> Z) m') with "H"); try done; rewrite ?Hg; try done.
      + intros m' Hm'. by exists v.
      + destruct (N.leb_spec 0 (p_cap x)); [done|lia].
    - (* HFind *)
      destruct (hzget Z c HZ) as (x&rs&Hs&Hr&Hg&Hp); [done|]. rewrite Hg. cbn [h_beg h_size heap_of].
      assert (Hsrc : hsrc (hbl Z) (hlocate sz r (stov Z)) (p_val r (fst <$> Z))) by (apply harg; [done|by destruct r|done]).
      iApply wp_bind. iApply wp_strong_mono. iSplitL.
      { change 0 with (N.of_nat 0). iApply (find_spec with "H"); [done|by eapply hbl_in|done|unfold p_len; lia|lia]. }
      iIntros (i) "[%Hi H]". iApply wp_ret. cbn [fst snd]. iExists _. iSplitR; last (iExists Z; by iFrame). iPureIntro. eauto.
    - (* HClear *)
      destruct (hzget Z c HZ) as (x&rs&Hs&Hr&Hg&Hp); [done|]. rewrite Hg. rewrite (inv_perm _ _ _ _ _ _ Hp).
      cbn [h_al h_cmp h_size h_cap h_beg heap_of].
      iApply wp_bind. iApply wp_strong_mono. iSplitL; [by iApply (hdestroy_spec with "H")|].
      iIntros (E') "H". iDestruct "H" as (rs') "[%Hr' H]".
      iApply (hfin_become _ _ _ 0 0 (eq []) (fun ob m' => ob = CUnit /\ p_become comp c 0 0 (eq []) (fst <$> Z) m') with "H"); try done; rewrite ?Hg; try done.
      cbn. destruct (N.leb_spec 0 (p_cap x)); [done|lia].
  Qed.

End heap.

Lemma heap_session {bad A req} (CA : service bad A req) b sz T comp eqv k (Hsz : 0 < sz)
  (Hreq : forall n, req n = true -> n < 2 ^ 63) ops w :
  place b (N.of_nat k * a_size A) w ->
  csession_ok A b (hstep A b sz T comp eqv k) (hrelease A b sz T) (hcheck sz T comp eqv k) bad k ∅ ops w.
Proof.
  apply (csession_safe CA b _ _ _ _ _ (hinv CA b sz T comp (set_seq 0 k))).
  - intros E. apply hinv_init.
  - intros o E vs s. apply hstep_spec; [done..|]. intros h Ho HL. apply elem_of_set_seq.
    split; [lia|]. destruct o; cbn in *; try done; injection Ho as ->; unfold new_name in HL;
      repeat (apply andb_true_iff in HL as [HL ?]); by apply Nat.ltb_lt.
  - intros E vs s. by apply hinv_kill.
Qed.
