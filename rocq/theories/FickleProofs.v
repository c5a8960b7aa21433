(** binary_heap with any answers implements bags. *)
From iris.proofmode Require Import tactics.
From Verif Require Import Base Mem Sep Wp AlignedMalloc Allocators Checked Tree Contract Service TreeProofs Client ClientProofs Env EnvProofs Vector ElemProofs RepProofs
  AllocSpec TreeService HeapPure Heap HeapElem HeapSpec HeapProofs ContFacts HeapFacts Fickle FickleElem.

Local Open Scope N_scope.

Section fickle.
  Context {bad : event -> bool} {A : alloc} {req : N -> bool}.
  Context (CA : used bad A req) (b sz : N) (T : elt).
  Context (D : gset nat) (Hsz : 0 < sz) (Hreq : forall n, req n = true -> n < 2 ^ 63).
  Local Notation inv := (inv CA b D).
  Local Notation szn := (N.to_nat sz).
  Local Notation sized := (Forall (fun e : list cell => length e = szn)).
  Local Notation raws := (Forall (Forall dead)).
  Local Notation ec := (ec sz T).
  Local Notation hrep := (hrep sz unsure D).
  Local Notation hone := (hone sz T).
  Local Notation hblk := (hblk sz T).
  Local Notation hbl := (hbl sz T).
  Local Notation hsrc := (hsrc sz T).
  Local Notation hinv := (hinv CA b sz T unsure D).
  Local Notation hrep_nonnull := (HeapProofs.hrep_nonnull sz unsure D Hsz Hreq).
  Local Notation hrep_null := (HeapProofs.hrep_null sz unsure D Hsz Hreq).
  Local Notation hzget := (HeapProofs.hzget sz T unsure D).
  Local Notation harg := (HeapProofs.harg sz T unsure unequal D Hsz Hreq).
  Local Notation halloc_spec := (HeapProofs.halloc_spec CA b sz T unsure D Hsz Hreq).
  Local Notation construct_spec := (HeapProofs.construct_spec CA b sz T unequal D Hsz Hreq).
  Local Notation destroy_spec := (HeapProofs.destroy_spec CA b sz T unequal D Hsz Hreq).
  Local Notation hexpand_spec := (HeapProofs.hexpand_spec CA b sz T unsure unequal D Hsz Hreq).
  Local Notation hfin_born := (HeapProofs.hfin_born CA b sz T unsure D Hsz Hreq).
  Local Notation hfin_become := (HeapProofs.hfin_become CA b sz T unsure D Hsz Hreq).
  Local Notation e_src_spec := (HeapProofs.e_src_spec CA b sz T D Hsz).
  Local Notation cells_length := (HeapProofs.cells_length sz T Hsz Hreq).
  Local Notation sto := (sheap * list (list cell))%type.
  Local Notation stov := (fmap (M := gmap nat) (A := sto) (heap_of ∘ fst)).

  (** [unsure] is not an order. *)
  Lemma unsure_not q : ~ strict_weak (unsure q).
  Proof. intros [H _]. by specialize (H Moved). Qed.
  Lemma unordered q l : sorts (comp := unsure) q -> ordered (unsure q) l.
  Proof. intros H. by destruct (unsure_not q). Qed.

  Lemma put_ask_spec E B x rs src v a : hrep (x, rs) -> p_len x < p_cap x -> hsrc (hone (x, rs) ++ B) src v ->
    inv E (hone (x, rs) ++ B) ⊢
    wp bad (E <- construct A b sz T (p_al x) (elem_addr sz (p_data x) (p_len x)) src E ;;
            ' (i, a) <- percolate_up_ask sz T (p_data x) (p_len x) a ;;
            ret (i, a, Heap (p_al x) (p_cmp x) (p_len x + 1) (p_cap x) (p_data x), E)) (fun r => ∃ i x' rs',
      ⌈fst (fst (fst r)) = N.of_nat i /\ snd (fst r) = heap_of x' /\ hrep (x', rs') /\ p_al x' = p_al x /\ p_cmp x' = p_cmp x /\
       p_cap x' = p_cap x /\ p_data x' = p_data x /\ p_l x' ≡ₚ v :: p_l x /\ p_l x' !! i = Some v⌉ ∗
      inv (snd r) (hone (x', rs') ++ B)).
  Proof using Hsz Hreq.
    intros Hr Hroom Hsrc. pose proof (hr_len _ _ _ _ Hr) as Hl. cbn [fst snd] in Hl. unfold p_len in Hroom.
    assert (H0 : p_data x <> 0) by (apply (hrep_nonnull _ _ Hr); lia).
    destruct rs as [|r rs]; [cbn in Hl; lia|].
    pose proof (hr_sized _ _ _ _ Hr) as Hs. cbn [snd] in Hs. pose proof (hr_raw _ _ _ _ Hr) as Hd. cbn [snd] in Hd.
    rewrite hone_nonnull // in Hsrc |- *. unfold HeapProofs.hblk in *. cbn [fst snd app] in *.
    iIntros "H". iApply wp_bind. iApply wp_strong_mono. iSplitL.
    { unfold elem_addr, p_len. iApply (construct_spec with "H"); [done|by apply Forall_cons_iff in Hd as [? _]|done]. }
    iIntros (E') "H". set (ms := p_l x ++ [v]).
    assert (Hms : length ms = S (length (p_l x))) by (unfold ms; rewrite app_length; cbn; lia).
    iDestruct (inv_acc CA b sz D Hsz with "H") as "[Hp H]".
    iApply wp_bind. iApply wp_strong_mono. iSplitL "Hp".
    { unfold p_len. iApply (percolate_up_ask_spec bad sz T Hsz _ _ _ _ v with "Hp"); [by apply Forall_cons_iff in Hs as [_ ?]|].
      rewrite lookup_app_r; [|done]. by rewrite Nat.sub_diag. }
    iIntros ([i a']) "Hu". iDestruct "Hu" as (i' u) "[%HH Hp]". cbn [fst] in HH. destruct HH as (->&Hu&Hi'). fold ms in Hu.
    assert (Hul : length u = length ms) by (by rewrite Hu).
    assert (Hu' : u ≡ₚ v :: p_l x). { rewrite Hu. unfold ms. symmetry. apply Permutation_cons_append. }
    iSpecialize ("H" with "[] Hp").
    { iPureIntro. apply Nat2N.inj. rewrite !cells_length; [|by apply Forall_cons_iff in Hs as [_ ?]..]. fold ms. by rewrite Hul. }
    iApply wp_ret. cbn [fst snd]. iExists i', (SHeap (p_al x) (p_cmp x) u (p_cap x) (p_data x)), rs.
    rewrite hone_nonnull //. iFrame "H". iPureIntro. split_and!; try done.
    - unfold heap_of, p_len. cbn [p_al p_cmp p_l p_cap p_data]. f_equal. lia.
    - destruct Hr as [G1 G2 G3 G4 G5 G6 G7 G8]. cbn [fst snd] in *.
      split; cbn [fst snd p_al p_cmp p_l p_cap p_data]; try done.
      + rewrite Hul. cbn in G1. lia.
      + by apply Forall_cons_iff in G5 as [_ ?].
      + by apply Forall_cons_iff in G6 as [_ ?].
      + apply unordered.
  Qed.

  Lemma insert_ask_spec E B x rs src v a : hrep (x, rs) ->
    (if p_len x + 1 <=? p_cap x then hsrc (hone (x, rs) ++ B) src v else hsrc B src v) ->
    inv E (hone (x, rs) ++ B) ⊢ wp bad (insert_ask A b sz T (heap_of x) src a E) (fun r => ∃ i x' rs',
      ⌈fst (fst (fst r)) = N.of_nat i /\ snd (fst r) = heap_of x' /\ hrep (x', rs') /\ p_al x' = p_al x /\ p_cmp x' = p_cmp x /\
       p_l x' ≡ₚ v :: p_l x /\ p_l x' !! i = Some v /\
       (if p_len x + 1 <=? p_cap x then p_cap x' = p_cap x /\ p_data x' = p_data x else N.max (p_len x + 1) (2 * p_cap x) <= p_cap x')⌉ ∗
      inv (snd r) (hone (x', rs') ++ B)).
  Proof using Hsz Hreq.
    intros Hr Hsrc. unfold insert_ask. cbn [h_size h_cap heap_of]. pose proof (hr_len _ _ _ _ Hr) as Hl. cbn [fst snd] in Hl.
    iIntros "H". iApply wp_bind. destruct (N.eqb_spec (p_len x) (p_cap x)) as [He|He].
    - iApply wp_strong_mono. iSplitL; [by iApply (hexpand_spec with "H")|].
      iIntros ([w E']) "H". iDestruct "H" as (x1 rs1) "[%HH H]". destruct HH as (H1&H2&H3&H4&H5&H6). cbn [fst snd] in *. subst w.
      destruct (N.leb_spec (p_len x + 1) (p_cap x)) as [?|_]; [lia|].
      assert (Hlen : p_len x1 = p_len x) by (unfold p_len; by rewrite H5).
      cbn [h_al h_cmp h_size h_cap h_beg heap_of].
      iApply wp_strong_mono. iSplitL.
      { iApply (put_ask_spec with "H"); [done|lia|]. eapply hsrc_mono; [|done]. intros y Hy. apply elem_of_app. by right. }
      iIntros ([q E2]) "H". iDestruct "H" as (i x2 rs2) "[%HH H]". destruct HH as (G0&G1&G2&G3&G4&G5&G6&G7&G8). cbn [fst snd] in *.
      iExists i, x2, rs2. iFrame "H". iPureIntro. split_and!; try done; [congruence|congruence|by rewrite -H5|lia].
    - iApply wp_ret. cbn [h_al h_cmp h_size h_cap h_beg heap_of].
      destruct (N.leb_spec (p_len x + 1) (p_cap x)) as [Hle|?]; [|unfold p_len in *; lia].
      iApply wp_strong_mono. iSplitL.
      { iApply (put_ask_spec with "H"); [done|lia|done]. }
      iIntros ([q E2]) "H". iDestruct "H" as (i x2 rs2) "[%HH H]". destruct HH as (G0&G1&G2&G3&G4&G5&G6&G7&G8). cbn [fst snd] in *.
      iExists i, x2, rs2. iFrame "H". iPureIntro. split_and!; done.
  Qed.

  Lemma insert_list_ask_spec E B x rs l a : hrep (x, rs) -> p_len x + N.of_nat (length l) <= p_cap x ->
    inv E (hone (x, rs) ++ B) ⊢ wp bad (insert_list_ask A b sz T (heap_of x) l a E) (fun r => ∃ x' rs',
      ⌈fst r = heap_of x' /\ hrep (x', rs') /\ p_al x' = p_al x /\ p_cmp x' = p_cmp x /\ p_cap x' = p_cap x /\
       p_l x' ≡ₚ p_l x ++ l⌉ ∗
      inv (snd r) (hone (x', rs') ++ B)).
  Proof using Hsz Hreq.
    revert E x rs a. induction l as [|v l IH]; intros E x rs a Hr Hl; cbn [insert_list_ask].
    - iIntros "H". iApply wp_ret. iExists x, rs. iFrame. iPureIntro. split_and!; try done. by rewrite app_nil_r.
    - cbn [length] in Hl. iIntros "H". iApply wp_bind. iApply wp_strong_mono. iSplitL.
      { iApply (insert_ask_spec with "H"); [done|]. by destruct (_ <=? _). }
      iIntros ([[[i a'] w] E']) "H". iDestruct "H" as (i' x1 rs1) "[%HH H]". destruct HH as (H0&H1&H2&H3&H4&H5&H6&H7). cbn [fst snd] in *.
      subst w. destruct (N.leb_spec (p_len x + 1) (p_cap x)) as [_|?]; [|lia]. destruct H7 as [H7 H8].
      assert (Hlen : p_len x1 = p_len x + 1) by (unfold p_len; rewrite H5; cbn; lia).
      iApply wp_strong_mono. iSplitL; [iApply (IH with "H"); [done|lia]|].
      iIntros ([w E2]) "H". iDestruct "H" as (x2 rs2) "[%HH H]". destruct HH as (G1&G2&G3&G4&G5&G6). cbn [fst snd] in *. subst w.
      iExists x2, rs2. iFrame "H". iPureIntro. split_and!; try done; [congruence..|].
      rewrite G6 H5. rewrite -Permutation_middle. done.
  Qed.

  Lemma pop_ask_spec E B x rs v a : hrep (x, rs) -> p_l x !! 0%nat = Some v -> e_triv T = true \/ (1 < length (p_l x))%nat ->
    inv E (hone (x, rs) ++ B) ⊢ wp bad (pop_ask A b sz T (heap_of x) a E) (fun r => ∃ x' rs',
      ⌈fst r = (v, heap_of x') /\ hrep (x', rs') /\ p_al x' = p_al x /\ p_cmp x' = p_cmp x /\
       p_cap x' = p_cap x /\ p_data x' = p_data x /\ v :: p_l x' ≡ₚ p_l x⌉ ∗
      inv (snd r) (hone (x', rs') ++ B)).
  Proof using Hsz Hreq.
    intros Hr Hv Htr. pose proof (hr_len _ _ _ _ Hr) as Hl. cbn [fst snd] in Hl. assert (Hlt := lookup_lt_Some _ _ _ Hv).
    assert (H0 : p_data x <> 0) by (apply (hrep_nonnull _ _ Hr); lia).
    pose proof (hr_sized _ _ _ _ Hr) as Hs. cbn [snd] in Hs.
    rewrite hone_nonnull //. unfold HeapProofs.hblk. cbn [fst snd app].
    unfold pop_ask. cbn [h_al h_cmp h_size h_cap h_beg heap_of]. unfold p_len.
    iIntros "H". iApply wp_bind. iApply wp_assert; [apply N.ltb_lt; lia|].
    iDestruct (inv_acc CA b sz D Hsz with "H") as "[Hp H]".
    change 0 with (N.of_nat 0) at 1 2. iApply wp_bind. iApply (wp_arr_get bad sz T Hsz _ _ _ _ _ _ Hs Hv). iFrame "Hp". iIntros "Hp".
    set (n := (length (p_l x) - 1)%nat). replace (N.of_nat (length (p_l x)) - 1) with (N.of_nat n) by lia.
    destruct (lookup_lt_is_Some_2 (p_l x) n ltac:(lia)) as [z Hz].
    iApply wp_bind. iApply (wp_arr_mov bad sz T Hsz _ _ _ _ _ _ _ Hs Hlt Hz). iFrame "Hp". iIntros "Hp".
    destruct (decide (n = 0)%nat) as [Hn|Hn].
    - (* the only element *)
      destruct Htr as [Htr|?]; [|lia]. rewrite Hn in Hz |- *.
      assert (z = v) as -> by congruence.
      assert (Hlx : p_l x = [v]). { destruct (p_l x) as [|y [|]]; cbn in *; [lia|by injection Hv as ->|lia]. }
      rewrite Hlx. cbn [insert list_insert]. assert (lv T v = v) as -> by (unfold lv; by rewrite Htr).
      iSpecialize ("H" with "[] Hp"); [done|].
      iApply wp_bind. iApply wp_strong_mono. iSplitL.
      { unfold destroy. iApply (te_cd_spec CA b sz D Hsz _ _ _ _ _ _ _ _ (fun cs => cs = concat (List.map ec [v] ++ rs)) with "H").
        - unfold elem_addr. rewrite cells_length //. cbn. nia.
        - iIntros "Hp". unfold e_del. rewrite Htr. iApply wp_ret. iExists _. by iFrame. }
      iIntros (E') "H". iDestruct "H" as (cs) "[-> H]".
      iDestruct (inv_acc CA b sz D Hsz with "H") as "[Hp H]".
      iApply wp_bind. iApply wp_strong_mono. iSplitL "Hp"; [by iApply (percolate_down_ask_none bad sz T Hsz with "Hp")|].
      iIntros (_) "Hp". iSpecialize ("H" with "[//] Hp"). iApply wp_ret. cbn [fst snd].
      iExists (SHeap (p_al x) (p_cmp x) [] (p_cap x) (p_data x)), (ec v :: rs). rewrite hone_nonnull //. iFrame "H". iPureIntro.
      split_and!; try done. destruct Hr as [G1 G2 G3 G4 G5 G6 G7 G8]. cbn [fst snd] in *.
      split; cbn [fst snd p_al p_cmp p_l p_cap p_data]; try done.
      + rewrite -G1 Hlx. done.
      + constructor; [apply ec_length|done].
      + constructor; [|done]. unfold HeapElem.ec. rewrite Htr. apply chunk_dead.
    - set (ms := refill (p_l x)).
      assert (Hms : <[n := lv T z]> (<[0%nat := z]> (p_l x)) = ms ++ [lv T z]).
      { unfold ms, refill. fold n. rewrite Hz. apply list_eq. intros i.
        assert (Hlen : length (<[0%nat := z]> (take n (p_l x))) = n) by (rewrite insert_length take_length; lia).
        destruct (decide (i = n)) as [->|Hi].
        - rewrite list_lookup_insert; [|rewrite insert_length; lia]. rewrite lookup_app_r; [|lia]. by rewrite Hlen Nat.sub_diag.
        - rewrite list_lookup_insert_ne //. destruct (decide (i < n)%nat) as [Hin|Hin].
          + rewrite lookup_app_l; [|lia]. destruct i as [|i].
            * rewrite !list_lookup_insert //. rewrite take_length. lia.
            * rewrite !list_lookup_insert_ne //. by rewrite lookup_take.
          + rewrite !lookup_ge_None_2 //; [rewrite app_length Hlen; cbn; lia|rewrite insert_length; lia]. }
      assert (Hmsl : length ms = n). { unfold ms, refill. fold n. rewrite Hz insert_length take_length. lia. }
      rewrite Hms. iSpecialize ("H" with "[] Hp").
      { iPureIntro. apply Nat2N.inj. rewrite !cells_length // app_length Hmsl. cbn. lia. }
      rewrite map_app -app_assoc. cbn [List.map app].
      iApply wp_bind. iApply wp_strong_mono. iSplitL.
      { unfold elem_addr. replace (p_data x + sz * N.of_nat n) with (p_data x + sz * N.of_nat (length (List.map ec ms))) by (by rewrite map_length Hmsl).
        iApply (destroy_spec with "H"); [|done].
        apply Forall_map, Forall_true. intros ?. apply ec_length. }
      iIntros (E') "H". iDestruct "H" as (e) "[%HH H]". destruct HH as [He Hd].
      assert (Hs' : sized (e :: rs)) by (by constructor).
      iDestruct (inv_acc CA b sz D Hsz with "H") as "[Hp H]".
      iApply wp_bind. iApply wp_strong_mono. iSplitL "Hp".
      { rewrite -Hmsl. iApply (percolate_down_ask_spec bad sz T Hsz with "Hp"); [done| |lia].
        pose proof (hr_fit _ _ _ _ Hr) as Hf. cbn [fst] in Hf. nia. }
      iIntros (_) "Hp". iDestruct "Hp" as (d) "[%Hdp Hp]".
      assert (Hdl : length d = n) by (rewrite Hdp; done).
      iSpecialize ("H" with "[] Hp").
      { iPureIntro. apply Nat2N.inj. rewrite !cells_length //. by rewrite Hdl Hmsl. }
      iApply wp_ret. cbn [fst snd].
      iExists (SHeap (p_al x) (p_cmp x) d (p_cap x) (p_data x)), (e :: rs). rewrite hone_nonnull //. iFrame "H". iPureIntro.
      split_and!; try done.
      + unfold heap_of, p_len. cbn [p_al p_cmp p_l p_cap p_data]. by rewrite Hdl.
      + destruct Hr as [G1 G2 G3 G4 G5 G6 G7 G8]. cbn [fst snd] in *.
        split; cbn [fst snd p_al p_cmp p_l p_cap p_data]; try done.
        * rewrite Hdl. cbn. lia.
        * by constructor.
        * apply unordered.
      + cbn [p_l]. rewrite Hdp. unfold ms. destruct (p_l x) as [|y l]; [done|]. cbn in Hv. injection Hv as ->.
        apply refill_perm.
  Qed.

  Lemma find_ask_spec E B x rs src v n i a a0 : hrep (x, rs) -> hone (x, rs) ⊆ B -> hsrc B src v -> (i + n = length (p_l x))%nat ->
    a = drop i a0 -> (forall j, (j < i)%nat -> a0 !! j <> Some true) ->
    inv E B ⊢ wp bad (find_ask sz T src (p_data x) (N.of_nat i) n a) (fun r =>
      ⌈first_yes a0 (p_len x) r⌉ ∗ inv E B).
  Proof using Hsz Hreq.
    intros Hr HB Hsrc. revert i a. induction n as [|n IH]; intros i a Hn Ha Hi; cbn [find_ask]; iIntros "H".
    - iApply wp_ret. iSplitR; [|done]. iPureIntro. unfold first_yes, p_len. split_and!; [lia| |lia].
      intros j Hj. apply Hi. lia.
    - assert (H0 : p_data x <> 0). { intros H0. destruct (hrep_null _ _ Hr H0) as (Hl&_). rewrite Hl in Hn. cbn in Hn. lia. }
      destruct (lookup_lt_is_Some_2 (p_l x) i ltac:(lia)) as [y Hy].
      iDestruct (inv_read CA b sz D Hsz with "H") as "[Hp H]".
      { apply HB. rewrite hone_nonnull //. apply elem_of_list_singleton. done. }
      iApply wp_bind. iApply (wp_arr_get bad sz T Hsz _ _ _ _ _ _ (hr_sized _ _ _ _ Hr) Hy). iFrame "Hp". iIntros "Hp". iSpecialize ("H" with "Hp").
      iApply wp_bind. iApply wp_strong_mono. iSplitL; [by iApply (e_src_spec with "H")|]. iIntros (u) "[-> H]".
      assert (Hask : ask a = (default false (a0 !! i), drop (S i) a0)).
      { subst a. rewrite -(Nat.add_0_r i) -lookup_drop. rewrite Nat.add_0_r. replace (drop (S i) a0) with (drop 1 (drop i a0)).
        - by destruct (drop i a0).
        - rewrite drop_drop. f_equal. lia. }
      rewrite Hask. destruct (a0 !! i) as [[|]|] eqn:Eq; cbn [default from_option id].
      + iApply wp_ret. iSplitR; [|done]. iPureIntro. unfold first_yes, p_len. rewrite Nat2N.id. split_and!; [lia|done|done].
      + replace (N.of_nat i + 1) with (N.of_nat (S i)) by lia. iApply (IH with "H"); [lia|done|].
        intros j Hj. destruct (decide (j = i)) as [->|Hne]; [congruence|]. apply Hi. lia.
      + replace (N.of_nat i + 1) with (N.of_nat (S i)) by lia. iApply (IH with "H"); [lia|done|].
        intros j Hj. destruct (decide (j = i)) as [->|Hne]; [congruence|]. apply Hi. lia.
  Qed.

  Local Ltac bools :=
    repeat match goal with
    | H : (_ && _)%bool = true |- _ => let L := fresh "L" in let L' := fresh "L" in apply andb_true_iff in H as [L L']
    | H : negb _ = true |- _ => apply negb_true_iff in H
    | H : new_name _ _ _ _ = true |- _ => unfold new_name in H
    | H : (_ <? _)%nat = true |- _ => apply Nat.ltb_lt in H
    | H : (_ <? _) = true |- _ => apply N.ltb_lt in H
    | H : (_ <=? _) = true |- _ => apply N.leb_le in H
    end.

  (** The operations that do not compare. *)
  Lemma fstep_other k o a s : match o with HNewList _ _ _ _ | HInsert _ _ | HPop _ | HFind _ _ => False | _ => True end ->
    fstep A b sz T k (o, a) s = hstep A b sz T unsure unequal k o s.
  Proof. unfold fstep, hstep. cbn [fst snd]. destruct s as [E vs]. by destruct o. Qed.

  Lemma fstep_spec k oa E vs m : (forall h, h_arg (fst oa) = Some h -> hlegal sz T k (p_info <$> m) (fst oa) = true -> h ∈ D) ->
    hinv E vs m ⊢ wp bad (fstep A b sz T k oa (E, vs)) (fun r =>
    ∃ m', ⌈fcheck sz T k oa (fst r) m m'⌉ ∗ hinv (fst (snd r)) (snd (snd r)) m').
  Proof using Hsz Hreq.
    destruct oa as [o a]. cbn [fst]. intros Hdom.
    destruct (match o with HNewList _ _ _ _ | HInsert _ _ | HPop _ | HFind _ _ => true | _ => false end) eqn:Ho.
    2:{ rewrite fstep_other; [|by destruct o].
        replace (fcheck sz T k (o, a)) with (hcheck sz T unsure unequal k o) by (by destruct o). by apply hstep_spec. }
    iIntros "H". iDestruct "H" as (Z) "[%HH H]". destruct HH as (->&->&HZ).
    unfold fstep, fcheck, hcheck. cbn [fst snd]. rewrite hinfos_of.
    destruct (hlegal sz T k (p_info <$> (fst <$> Z)) o) eqn:HL.
    2:{ iApply wp_ret. cbn [fst snd]. iExists (fst <$> Z). iSplitR; [destruct o; try done; by rewrite HL|]. iExists Z. by iFrame. }
    assert (HZd : forall c, map_Forall (fun _ => hrep) (delete c Z)) by (intros c; by apply map_Forall_delete).
    destruct o; try done; cbn [fdo hcheck_do]; rewrite ?HL; cbn [hlegal h_arg] in *; rewrite ?hget_of;
      try (specialize (Hdom _ eq_refl eq_refl)); bools.
    - (* HNewList *) destruct (hZ_fresh _ _ ltac:(eassumption)) as [Hf Hd].
      iApply wp_bind. iApply wp_strong_mono. iSplitL; [by iApply (halloc_spec _ _ _ q with "H")|].
      iIntros ([p E']) "H". iDestruct "H" as (rs) "[%Hr H]". cbn [fst snd] in *.
      iApply wp_bind. iApply wp_strong_mono. iSplitL; [iApply (insert_list_ask_spec _ _ _ _ l with "H"); [done|cbn; lia]|].
      iIntros ([w E2]) "H". iDestruct "H" as (x' rs') "[%HH H]". destruct HH as (H1&H2&H3&H4&H5&H6). cbn [fst snd p_al p_cmp p_cap p_l app] in *. subst w.
      iApply hfin_born; try done; [|by rewrite Hd]. unfold p_len. by rewrite H5 H6.
    - (* HInsert *)
      match goal with H : (match r with _ => _ end) = true |- _ => rename H into Lown end.
      match goal with H : ok_ref _ _ = true |- _ => rename H into Lref end.
      destruct (hzget Z c HZ) as (x&rs&Hs&Hr&Hg&Hp); [done|]. rewrite Hg.
      set (v := p_val r (fst <$> Z)).
      assert (Hsrc : if p_len x + 1 <=? p_cap x then hsrc (hone (x, rs) ++ hbl (delete c Z)) (hlocate sz r (stov Z)) v
                     else hsrc (hbl (delete c Z)) (hlocate sz r (stov Z)) v).
      { destruct (N.leb_spec (p_len x + 1) (p_cap x)) as [Hroom|Hroom].
        - eapply hsrc_mono; [|apply (harg Z Z); [done|by destruct r|done]]. intros w Hw. by rewrite Hp in Hw.
        - apply harg; [done| |done]. destruct r as [|c' i]; [done|]. apply orb_true_iff in Lown as [Hne|Hroom'].
          + apply negb_true_iff, bool_decide_eq_false in Hne. by rewrite lookup_delete_ne.
          + unfold room in Hroom'. rewrite hlook_spec Hg in Hroom'. cbn [p_info i_size i_cap] in Hroom'. apply N.leb_le in Hroom'. lia. }
      rewrite (inv_perm _ _ _ _ _ _ Hp).
      iApply wp_bind. iApply wp_strong_mono. iSplitL; [by iApply (insert_ask_spec with "H")|].
      iIntros ([[[i a'] w] E']) "H". iDestruct "H" as (i' x' rs') "[%HH H]". destruct HH as (H0&H1&H2&H3&H4&H5&H6&H7). cbn [fst snd] in *.
      subst i w.
      iApply (hfin_become _ _ _ (p_len x + 1) (N.max (p_len x + 1) (2 * p_cap x)) (fun l' => l' ≡ₚ v :: p_l x /\ l' !! i' = Some v) (fun ob m' => exists i, ob = CNum i /\
         p_become unsure c (p_len x + 1) (N.max (p_len x + 1) (2 * p_cap x)) (fun l' => l' ≡ₚ v :: p_l x /\ l' !! N.to_nat i = Some v) (fst <$> Z) m') with "H"); try done; rewrite ?Hg; try done.
      intros m' Hm'. exists (N.of_nat i'). split; [done|]. by rewrite Nat2N.id.
    - (* HPop *)
      destruct (hzget Z c HZ) as (x&rs&Hs&Hr&Hg&Hp); [done|]. rewrite Hg.
      match goal with H : 0 < _ |- _ => rename H into Li end. match goal with H : (_ || _)%bool = true |- _ => rename H into Lo end.
      rewrite hlook_spec Hg in Li, Lo. cbn [i_size p_info] in Li, Lo. unfold p_len in Li, Lo.
      destruct (lookup_lt_is_Some_2 (p_l x) 0 ltac:(lia)) as [v Hv].
      rewrite (inv_perm _ _ _ _ _ _ Hp). iApply wp_bind. iApply wp_strong_mono. iSplitL.
      { iApply (pop_ask_spec with "H"); [done|done|]. apply orb_true_iff in Lo as [Lo|Lo]; [by left|right]. apply N.ltb_lt in Lo. lia. }
      iIntros ([[u w] E']) "H". iDestruct "H" as (x' rs') "[%HH H]". destruct HH as (H1&H2&H3&H4&H5&H6&H7). cbn [fst snd] in *.
      injection H1 as -> ->.
      iApply (hfin_become _ _ _ 0 0 (fun l' => v :: l' ≡ₚ p_l x) (fun ob m' => exists v, p_l x !! 0%nat = Some v /\ ob = CVal (Some v) /\
         p_become unsure c 0 0 (fun l' => v :: l' ≡ₚ p_l x) (fst <$> Z) m') with "H"); try done; rewrite ?Hg; try done.
      + intros m' Hm'. by exists v.
      + destruct (N.leb_spec 0 (p_cap x)); [done|lia].
    - (* HFind *)
      destruct (hzget Z c HZ) as (x&rs&Hs&Hr&Hg&Hp); [done|]. rewrite Hg. cbn [h_beg h_size heap_of].
      assert (Hsrc : hsrc (hbl Z) (hlocate sz r (stov Z)) (p_val r (fst <$> Z))) by (apply harg; [done|by destruct r|done]).
      iApply wp_bind. iApply wp_strong_mono. iSplitL.
      { change 0 with (N.of_nat 0). iApply (find_ask_spec _ _ _ _ _ _ _ _ _ a with "H"); [done|by eapply hbl_in|done|unfold p_len; lia|done|lia]. }
      iIntros (i) "[%Hi H]". iApply wp_ret. cbn [fst snd]. iExists _. iSplitR; last (iExists Z; by iFrame). iPureIntro. eauto.
  Qed.
End fickle.

Lemma fickle_session {bad A req} (CA : service bad A req) b sz T k (Hsz : 0 < sz)
  (Hreq : forall n, req n = true -> n < 2 ^ 63) ops w :
  place b (N.of_nat k * a_size A) w ->
  csession_ok A b (fstep A b sz T k) (hrelease A b sz T) (fcheck sz T k) bad k ∅ ops w.
Proof.
  apply (csession_safe CA b _ _ _ _ _ (hinv CA b sz T unsure (set_seq 0 k))).
  - intros E. apply hinv_init.
  - intros o E vs s. apply fstep_spec; [done..|]. intros h Ho HL. apply elem_of_set_seq.
    split; [lia|]. destruct o as [o a]. destruct o; cbn in *; try done; injection Ho as ->; unfold new_name in HL;
      repeat (apply andb_true_iff in HL as [HL ?]); by apply Nat.ltb_lt.
  - intros E vs s. by apply (hinv_kill CA b sz T unsure unequal).
Qed.

Lemma fickle_any bad A req (C : service bad A req) (Hm : modest bad (half req)) b sz T k : 0 < sz -> forall ops w,
  place b (N.of_nat k * a_size A) w ->
  csession_ok A b (fstep A b sz T k) (hrelease A b sz T) (fcheck sz T k) bad k ∅ ops w.
Proof.
  intros Hsz ops w Hp.
  assert (H1 : forall n, half req n = true -> req n = true). { intros n H. by apply andb_true_iff in H as [? _]. }
  apply (fickle_session (service_less (half req) C H1 Hm) b sz T k Hsz); [|done].
  intros n H. apply andb_true_iff in H as [_ H]. by apply N.ltb_lt.
Qed.

Lemma fickle_tree pl e b sz T k ops w :
  pl <> PPosix -> wf e = true -> 0 < sz -> place b (N.of_nat k * esize e) w ->
  csession_ok (den pl e) b (fstep (den pl e) b sz T k) (hrelease (den pl e) b sz T) (fcheck sz T k)
    (unsupported (half (ereq pl e))) k ∅ ops w.
Proof.
  intros Hpl Hwf Hsz Hp. destruct (tree_service pl e (half (ereq pl e)) Hpl Hwf (half_le _)) as [C].
  apply (fickle_any _ _ _ C (modest_half _)); [done|]. by rewrite den_size.
Qed.

Lemma fickle_bag pl e b sz T k ops w :
  pl <> PPosix -> wf e = true -> 0 < sz -> place b (N.of_nat k * esize e) w -> forallb (fun oa => queue_op (fst oa)) ops = true ->
  csession_ok (den pl e) b (fstep (den pl e) b sz T k) (hrelease (den pl e) b sz T) (bag_check T k)
    (unsupported (half (ereq pl e))) k ∅ ops w.
Proof.
  intros Hpl Hwf Hsz Hp Ho. eapply csession_ok_mono; [|by apply (fickle_tree pl e b sz T k ops w)].
  intros os. clear Hp. assert (Hs : sim unsure ∅ ∅) by apply sim_empty. revert Hs. generalize (∅ : gmap nat sheap) (∅ : gmap nat bag).
  revert os Ho. induction ops as [|[o a] ops IH]; intros [|ob os] Ho m n Hs; try done. cbn [ccheck forallb fst] in *.
  apply andb_true_iff in Ho as [Ho1 Ho2]. intros (m'&H1&H2).
  assert (H1' : hcheck sz T unsure unequal k o ob m m') by (by destruct o).
  destruct (sim_step sz T unsure unequal k _ _ _ _ _ Hs Ho1 H1') as (n'&H3&H4). exists n'. split; [done|]. by eapply IH.
Qed.
