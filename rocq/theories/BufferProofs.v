(** trivial_buffer does what its specification says. *)
From iris.proofmode Require Import tactics.
From Verif Require Import Base Mem Sep Wp Adequacy Allocators Client Contract Env EnvProofs Vector ElemProofs Buffer.

Local Open Scope N_scope.

Section buffer.
  Context (b sz size : N) (k : nat) (Hsz : 0 < sz) (Hsize : 0 < size).
  Let bad : event -> bool := fun _ => false.
  Local Notation szn := (N.to_nat sz).
  Local Notation n := (N.to_nat size).
  Local Notation sized := (Forall (fun e : list cell => length e = szn)).
  Local Notation data := (data b sz size).
  Local Notation undef := (repeat Undef szn).
  Local Notation unchunk := (unchunk szn).

  (** * The storage as one array of elements *)
  Lemma splice_whole {X} i m (es : list X) : (i + m <= length es)%nat -> splice i (take m (drop i es)) es = es.
  Proof.
    intros H. unfold splice. rewrite take_length drop_length. replace (m `min` (length es - i))%nat with m by lia.
    by rewrite -drop_drop !take_drop.
  Qed.

  Lemma rds_flat ES i m : sized ES -> (i + m <= length ES)%nat ->
    b ↦∗ concat ES ⊢ wp bad (rds (b + sz * N.of_nat i) (m * szn)) (fun cs => ⌈cs = concat (take m (drop i ES))⌉ ∗ b ↦∗ concat ES).
  Proof.
    intros Hs Hi. iIntros "H". iDestruct (pts_part sz _ _ i m Hs with "H") as "[Hp Hq]"; [done|].
    iApply (wp_rds' _ _ (concat (take m (drop i ES)))).
    { rewrite (concat_length szn); [|by apply Forall_take, Forall_drop]. rewrite take_length drop_length. f_equal. lia. }
    iFrame "Hp". iIntros "Hp". iSplitR; [done|].
    iSpecialize ("Hq" $! (take m (drop i ES)) with "[%] Hp").
    { split; [rewrite take_length drop_length; lia|by apply Forall_take, Forall_drop]. }
    by rewrite -drop_drop !take_drop.
  Qed.

  Lemma wrs_flat ES i ds : sized ES -> sized ds -> (i + length ds <= length ES)%nat ->
    b ↦∗ concat ES ⊢ wp bad (wrs (b + sz * N.of_nat i) (concat ds)) (fun _ => b ↦∗ concat (splice i ds ES)).
  Proof.
    intros Hs Hd Hi. iIntros "H". iDestruct (pts_part sz _ _ i (length ds) Hs with "H") as "[Hp Hq]"; [done|].
    iApply wp_wrs; last iFrame "Hp".
    { rewrite !(concat_length szn) //; [|by apply Forall_take, Forall_drop]. rewrite take_length drop_length. f_equal. lia. }
    iIntros "Hp". by iApply ("Hq" with "[//] Hp").
  Qed.

  Definition bsrc (ES : list (list cell)) (src : place_of) (e : list cell) : Prop :=
    length e = szn /\ match src with PVal x => e = chunk szn x | PAddr a => exists j, ES !! j = Some e /\ a = b + sz * N.of_nat j end.

  Lemma assign_flat ES i src e : sized ES -> (i < length ES)%nat -> bsrc ES src e ->
    b ↦∗ concat ES ⊢ wp bad (assign sz (b + sz * N.of_nat i) src) (fun _ => b ↦∗ concat (splice i [e] ES)).
  Proof.
    intros Hs Hi [Hl Hsrc].
    pose proof (wrs_flat ES i [e] Hs ltac:(by constructor) ltac:(cbn; lia)) as Hw. cbn [concat] in Hw. rewrite app_nil_r in Hw.
    destruct src as [x|a]; cbn [assign].
    - subst e. exact Hw.
    - destruct Hsrc as (j&Hj&->). iIntros "H". iApply wp_bind. iApply wp_strong_mono. iSplitL.
      + pose proof (rds_flat ES j 1 Hs) as Hr. rewrite Nat.mul_1_l in Hr. iApply (Hr with "H"). apply lookup_lt_Some in Hj. lia.
      + iIntros (cs) "[-> H]". rewrite (drop_S _ _ _ Hj) /= app_nil_r. by iApply Hw.
  Qed.

  Lemma fill_flat ES i m src e : sized ES -> (i + m <= length ES)%nat -> bsrc ES src e ->
    (match src with PVal _ => True | PAddr a => forall j, a = b + sz * N.of_nat j -> (j < i \/ i + m <= j)%nat end) ->
    b ↦∗ concat ES ⊢ wp bad (fill_n sz (b + sz * N.of_nat i) m src) (fun _ => b ↦∗ concat (splice i (repeat e m) ES)).
  Proof.
    revert ES i. induction m as [|m IH]; intros ES i Hs Hi Hsrc Hout; cbn [fill_n repeat].
    - rewrite splice_nil. iIntros "H". by iApply wp_ret.
    - iIntros "H". iApply wp_bind. iApply wp_strong_mono. iSplitL; [iApply (assign_flat with "H"); [done|lia|done]|].
      iIntros ([]) "H". rewrite splice_one; [|lia].
      replace (b + sz * N.of_nat i + sz) with (b + sz * N.of_nat (S i)) by lia.
      rewrite -splice_cons; [|lia]. iApply (IH with "H").
      + apply Forall_insert; [done|]. apply Hsrc.
      + rewrite insert_length. lia.
      + destruct Hsrc as [Hl Hsrc]. split; [done|]. destruct src as [x|a]; [done|]. destruct Hsrc as (j&Hj&->). exists j. split; [|done].
        specialize (Hout j eq_refl). rewrite list_lookup_insert_ne //. lia.
      + destruct src as [x|a]; [done|]. intros j Hj. specialize (Hout j Hj). destruct Hsrc as [_ (j'&Hj'&Ha)]. lia.
  Qed.

  Lemma store_flat ES i l : sized ES -> (i + length l <= length ES)%nat ->
    b ↦∗ concat ES ⊢ wp bad (store_list sz (b + sz * N.of_nat i) l) (fun _ => b ↦∗ concat (splice i (map (chunk szn) l) ES)).
  Proof.
    revert ES i. induction l as [|x l IH]; intros ES i Hs Hi; cbn [store_list length List.map] in *.
    - rewrite splice_nil. iIntros "H". by iApply wp_ret.
    - iIntros "H". iApply wp_bind. iApply wp_strong_mono.
      iSplitL; [iApply (assign_flat _ _ _ (chunk szn x) with "H"); [done|lia|split; [apply chunk_length|done]]|].
      iIntros ([]) "H". rewrite splice_one; [|lia].
      replace (b + sz * N.of_nat i + sz) with (b + sz * N.of_nat (S i)) by lia.
      rewrite -splice_cons; [|lia]. iApply (IH with "H").
      + apply Forall_insert; [done|]. apply chunk_length.
      + rewrite insert_length. lia.
  Qed.

  Lemma memcpy_flat ES i j : sized ES -> (i + n <= length ES)%nat -> (j + n <= length ES)%nat -> (i + n <= j \/ j + n <= i)%nat ->
    b ↦∗ concat ES ⊢ wp bad (memcpy (b + sz * N.of_nat i) (b + sz * N.of_nat j) (size * sz)) (fun _ =>
      b ↦∗ concat (splice i (take n (drop j ES)) ES)).
  Proof.
    intros Hs Hi Hj Hd. unfold memcpy. destruct (N.eqb_spec (size * sz) 0) as [H0|H0]; [nia|].
    assert ((b + sz * N.of_nat i <? b + sz * N.of_nat j + size * sz) && (b + sz * N.of_nat j <? b + sz * N.of_nat i + size * sz) = false) as ->.
    { apply andb_false_iff. rewrite !N.ltb_ge. destruct Hd as [Hd|Hd]; [right|left].
      - assert (N.of_nat i + size <= N.of_nat j) as Hle by lia. apply (N.mul_le_mono_l _ _ sz) in Hle. lia.
      - assert (N.of_nat j + size <= N.of_nat i) as Hle by lia. apply (N.mul_le_mono_l _ _ sz) in Hle. lia. }
    iIntros "H". iApply wp_bind. iApply wp_strong_mono. iSplitL.
    { replace (N.to_nat (size * sz)) with (n * szn)%nat by lia. by iApply (rds_flat with "H"). }
    iIntros (cs) "[-> H]". iApply (wrs_flat with "H"); [done|by apply Forall_take, Forall_drop|].
    rewrite take_length drop_length. lia.
  Qed.

  (** * Buffers as parts of the array *)
  Definition slot (c : nat) (ES : list (list cell)) : list (list cell) := take n (drop (c * n) ES).

  Lemma slot_lookup c ES i : (i < n)%nat -> slot c ES !! i = ES !! (c * n + i)%nat.
  Proof. intros H. unfold slot. by rewrite lookup_take // lookup_drop. Qed.
  Lemma slot_length c ES : (c < k)%nat -> length ES = (k * n)%nat -> length (slot c ES) = n.
  Proof. intros H1 H2. unfold slot. rewrite take_length drop_length. nia. Qed.
  Lemma slot_out c ES i : (n <= i)%nat -> slot c ES !! i = None.
  Proof. intros H. apply lookup_ge_None. unfold slot. rewrite take_length. lia. Qed.

  Lemma slot_splice c ES i ds : (c < k)%nat -> length ES = (k * n)%nat -> (i + length ds <= n)%nat ->
    slot c (splice (c * n + i) ds ES) = splice i ds (slot c ES).
  Proof.
    intros Hc HE Hi. pose proof (slot_length c ES Hc HE) as Hl. apply list_eq. intros j. destruct (decide (j < n)%nat) as [Hj|Hj].
    - rewrite slot_lookup // !splice_lookup; [|lia|nia].
      destruct (Nat.ltb_spec j i), (Nat.ltb_spec (c * n + j) (c * n + i)); try lia; [by rewrite slot_lookup|].
      destruct (Nat.ltb_spec j (i + length ds)), (Nat.ltb_spec (c * n + j) (c * n + i + length ds)); try lia; [f_equal; lia|by rewrite slot_lookup].
    - rewrite slot_out; [|lia]. symmetry. apply lookup_ge_None. rewrite splice_length; lia.
  Qed.
  Lemma slot_other c c' ES i ds : c <> c' -> (c < k)%nat -> length ES = (k * n)%nat -> (i + length ds <= n)%nat ->
    slot c' (splice (c * n + i) ds ES) = slot c' ES.
  Proof.
    intros Hne Hc HE Hi. apply list_eq. intros j. destruct (decide (j < n)%nat) as [Hj|Hj].
    - rewrite !slot_lookup // splice_lookup; [|nia].
      destruct (Nat.ltb_spec (c' * n + j) (c * n + i)); [done|].
      destruct (Nat.ltb_spec (c' * n + j) (c * n + i + length ds)); [|done]. assert (c < c' \/ c' < c)%nat as [?|?] by lia; nia.
    - rewrite !slot_out //; lia.
  Qed.
  Lemma splice_0 {X} (ds es : list X) : length ds = length es -> splice 0 ds es = ds.
  Proof. intros H. unfold splice. rewrite take_0 /= drop_ge; [|lia]. by rewrite app_nil_r. Qed.

  Definition brep (m : gmap nat (list (option value))) (ES : list (list cell)) : Prop :=
    sized ES /\ length ES = (k * n)%nat /\ forall c l, m !! c = Some l -> (c < k)%nat /\ l = map unchunk (slot c ES).

  Lemma brep_upd m ES c i ds : brep m ES -> (c < k)%nat -> sized ds -> (i + length ds <= n)%nat ->
    brep (<[c := map unchunk (splice i ds (slot c ES))]> m) (splice (c * n + i) ds ES).
  Proof.
    intros (H1&H2&H3) Hc Hd Hi. split_and!.
    - by apply splice_Forall.
    - rewrite splice_length //. nia.
    - intros c' l. destruct (decide (c = c')) as [->|Hne].
      + rewrite lookup_insert. intros [= <-]. split; [done|]. by rewrite slot_splice.
      + rewrite lookup_insert_ne //. intros Hl. destruct (H3 _ _ Hl) as [H4 ->]. split; [done|]. by rewrite slot_other.
  Qed.
  Lemma brep_set m ES c ds : brep m ES -> (c < k)%nat -> sized ds -> length ds = n ->
    brep (<[c := map unchunk ds]> m) (splice (c * n) ds ES).
  Proof.
    intros Hr Hc Hd Hl. pose proof (brep_upd m ES c 0 ds Hr Hc Hd ltac:(lia)) as H. rewrite Nat.add_0_r in H.
    rewrite splice_0 in H; [done|]. rewrite slot_length //. apply Hr.
  Qed.
  Lemma brep_del m ES c : brep m ES -> brep (delete c m) ES.
  Proof.
    intros (H1&H2&H3). split_and!; try done. intros c' l Hl. apply lookup_delete_Some in Hl as [_ Hl]. by apply H3.
  Qed.
  Lemma brep_get m ES c : brep m ES -> c ∈ dom m -> (c < k)%nat /\ bget m c = map unchunk (slot c ES).
  Proof.
    intros (H1&H2&H3) Hc. apply elem_of_dom in Hc as [l Hl]. destruct (H3 _ _ Hl) as [H4 ->]. split; [done|]. unfold bget. by rewrite Hl.
  Qed.

  Lemma data_flat c : data c = b + sz * N.of_nat (c * n).
  Proof. unfold Buffer.data. lia. Qed.
  Lemma index_flat c i : at_index b sz size c i = b + sz * N.of_nat (c * n + N.to_nat (i mod size)).
  Proof. unfold at_index, elem_addr. rewrite data_flat. lia. Qed.

  Lemma unchunk_undef : unchunk undef = None.
  Proof. destruct szn eqn:E; [lia|done]. Qed.
  Lemma undef_sized m : sized (repeat undef m).
  Proof. apply Forall_forall. intros x Hx. apply repeat_spec in Hx as ->. apply repeat_length. Qed.
  Lemma concat_undef m : concat (repeat undef m) = repeat Undef (m * szn).
  Proof. induction m as [|m IH]; [done|]. cbn [repeat concat]. rewrite IH -repeat_app. done. Qed.
  Lemma map_repeat {X Y} (f : X -> Y) x m : map f (repeat x m) = repeat (f x) m.
  Proof. induction m; cbn; congruence. Qed.

  Lemma map_insert {X Y} (f : X -> Y) l i x : map f (<[i := x]> l) = <[i := f x]> (map f l).
  Proof. revert i. induction l as [|y l IH]; intros [|i]; cbn; [done..|]. f_equal. apply IH. Qed.

  Lemma bnew_spec m ES c : brep m ES -> (c < k)%nat ->
    b ↦∗ concat ES ⊢ wp bad (bnew b sz size c) (fun _ => b ↦∗ concat (splice (c * n) (repeat undef n) ES)).
  Proof.
    intros (H1&H2&H3) Hc. unfold bnew. rewrite data_flat. replace (N.to_nat (size * sz)) with (n * szn)%nat by lia. rewrite -concat_undef.
    apply wrs_flat; [done|apply undef_sized|]. rewrite repeat_length. nia.
  Qed.
  Lemma bnew_rep m ES c : brep m ES -> (c < k)%nat -> c ∉ dom m ->
    brep m (splice (c * n) (repeat undef n) ES) /\ slot c (splice (c * n) (repeat undef n) ES) = repeat undef n.
  Proof.
    intros Hr Hc Hd. pose proof (brep_set m ES c (repeat undef n) Hr Hc (undef_sized _) (repeat_length _ _)) as (H1&H2&H3). split; [split_and!; try done|].
    - intros c' l Hl. apply H3. rewrite lookup_insert_ne //. intros ->. apply Hd. by eapply elem_of_dom_2.
    - rewrite -{1}(Nat.add_0_r (c * n)) slot_splice //; [|apply Hr|rewrite repeat_length; lia].
      apply splice_0. rewrite repeat_length slot_length //. apply Hr.
  Qed.

  Lemma blocate_spec m ES r : brep m ES -> bok_ref (dom m) r = true ->
    exists e, bsrc ES (blocate b sz size r) e /\ unchunk e = bval size m r.
  Proof.
    intros Hr Hok. destruct r as [x|c i]; cbn [blocate bval bok_ref] in *.
    - exists (chunk szn x). split; [split; [apply chunk_length|done]|]. apply unchunk_chunk. lia.
    - apply bool_decide_eq_true in Hok. destruct (brep_get _ _ _ Hr Hok) as [Hc Hg]. destruct Hr as (H1&H2&H3).
      assert (Hi : (N.to_nat (i mod size) < n)%nat). { pose proof (N.mod_lt i size). lia. }
      destruct (lookup_lt_is_Some_2 ES (c * n + N.to_nat (i mod size))%nat) as [e He]; [nia|].
      exists e. split.
      + split; [by rewrite Forall_lookup in H1; eapply H1|]. eexists. split; [exact He|apply index_flat].
      + rewrite Hg list_lookup_fmap slot_lookup // He. done.
  Qed.

  Ltac bools :=
    repeat match goal with
    | H : (_ && _)%bool = true |- _ => let L := fresh "L" in let L' := fresh "L" in apply andb_true_iff in H as [L L']
    | H : bool_decide _ = true |- _ => apply bool_decide_eq_true in H
    | H : negb _ = true |- _ => apply negb_true_iff in H
    | H : bool_decide _ = false |- _ => apply bool_decide_eq_false in H
    | H : bfresh _ _ _ = true |- _ => unfold bfresh in H
    | H : (_ <? _)%nat = true |- _ => apply Nat.ltb_lt in H
    | H : (_ <=? _) = true |- _ => apply N.leb_le in H
    | H : (_ =? _) = true |- _ => apply N.eqb_eq in H
    end.

  Definition binv (s : gset nat) (m : gmap nat (list (option value))) : hpropI :=
    ∃ ES, ⌈s = dom m /\ brep m ES⌉ ∗ b ↦∗ concat ES.

  Lemma binv_intro s m ES : s = dom m -> brep m ES -> b ↦∗ concat ES ⊢ binv s m.
  Proof. intros H1 H2. iIntros "H". iExists ES. by iFrame. Qed.

  (** Copying a whole buffer. *)
  Lemma bcopy_spec m ES c src : brep m ES -> (c < k)%nat -> src ∈ dom m -> c <> src ->
    b ↦∗ concat ES ⊢ wp bad (memcpy (data c) (data src) (size * sz)) (fun _ =>
      ∃ ES', ⌈brep (<[c := bget m src]> m) ES'⌉ ∗ b ↦∗ concat ES').
  Proof.
    intros Hr Hc Hs Hne. destruct (brep_get _ _ _ Hr Hs) as [Hsk Hg]. rewrite !data_flat. iIntros "H".
    iApply wp_strong_mono. iSplitL.
    { iApply (memcpy_flat with "H"); destruct Hr as (H1&H2&H3); try done; nia. }
    iIntros ([]) "H". iExists _. iFrame "H". iPureIntro. fold (slot src ES). rewrite Hg. apply brep_set; try done.
    - apply Forall_take, Forall_drop, Hr.
    - apply slot_length; [done|apply Hr].
  Qed.

  Lemma bcopy_in_spec m ES c g : brep m ES -> (c < k)%nat -> bok_range size (dom m) g = true ->
    match g with GElems c' _ _ => c' <> c | _ => True end ->
    b ↦∗ concat ES ⊢ wp bad (ktl_assert (array_length (blocate_range b sz size g) =? size) ;;; bcopy_in b sz size c (blocate_range b sz size g))
      (fun _ => ∃ ES', ⌈brep (<[c := bvals m g]> m) ES'⌉ ∗ b ↦∗ concat ES').
  Proof.
    intros Hr Hc Hok Hne. iIntros "H". iApply wp_bind. destruct g as [l|c' i j]; cbn [bok_range blocate_range array_length bcopy_in bvals] in *; bools.
    - iApply wp_assert; [by apply N.eqb_eq|]. iApply wp_strong_mono. iSplitL.
      { rewrite data_flat. iApply (wrs_flat with "H"); [apply Hr|apply Forall_map, Forall_true; intros; apply chunk_length|].
        rewrite map_length. destruct Hr as (H1&H2&H3). nia. }
      iIntros ([]) "H". iExists _. iFrame "H". iPureIntro. replace (map Some l) with (map unchunk (map (chunk szn) l)).
      + apply brep_set; try done; [apply Forall_map, Forall_true; intros; apply chunk_length|]. rewrite map_length. lia.
      + rewrite map_map. apply map_ext. intros x. apply unchunk_chunk. lia.
    - subst i j. iApply wp_assert; [by rewrite N.sub_0_r; apply N.eqb_eq|]. unfold elem_addr. rewrite N.mul_0_r N.add_0_r.
      by iApply bcopy_spec.
  Qed.

  Lemma bstep_spec o s m : binv s m ⊢ wp bad (bstep b sz size k o s) (fun r =>
    ∃ m', ⌈bcheck size k o (fst r) m m'⌉ ∗ binv (snd r) m').
  Proof.
    iIntros "H". iDestruct "H" as (ES) "[%HH H]". destruct HH as [-> Hr]. unfold bstep, bcheck.
    destruct (blegal size k (dom m) o) eqn:HL.
    2:{ iApply wp_ret. cbn [fst snd]. iExists _. iSplitR; [done|]. by iApply binv_intro. }
    destruct o; cbn [blegal bdo bcheck_do] in *; bools.
    - (* BNew *) iApply wp_bind. iApply wp_strong_mono. iSplitL; [by iApply (bnew_spec with "H")|]. iIntros ([]) "H".
      iApply wp_ret. cbn [fst snd]. iExists _. iSplitR; [done|]. iApply (binv_intro with "H"); [by rewrite dom_insert_L|].
      rewrite -unchunk_undef -map_repeat. apply brep_set; try done; [apply undef_sized|apply repeat_length].
    - (* BNewFill *) iApply wp_bind. iApply wp_strong_mono. iSplitL; [by iApply (bnew_spec with "H")|]. iIntros ([]) "H".
      destruct (bnew_rep _ _ _ Hr ltac:(eassumption) ltac:(eassumption)) as [Hr' _]. destruct (blocate_spec m _ r Hr') as (e&He&Hv); [done|].
      iApply wp_bind. iApply wp_strong_mono. iSplitL.
      { rewrite data_flat. iApply (fill_flat with "H"); [apply Hr'| |done|].
        - destruct Hr' as (H1&->&H3). nia.
        - destruct r as [|c' i']; [done|]. cbn [blocate]. rewrite index_flat. intros j Hj. cbn [bok_ref] in *. bools.
          assert (c' <> c) by (intros ->; done). assert (Hi : (N.to_nat (i' mod size) < n)%nat). { pose proof (N.mod_lt i' size). lia. }
          assert (j = (c' * n + N.to_nat (i' mod size))%nat) as -> by nia. assert (c < c' \/ c' < c)%nat as [?|?] by lia; nia. }
      iIntros ([]) "H". iApply wp_ret. cbn [fst snd]. iExists _. iSplitR; [done|]. iApply (binv_intro with "H"); [by rewrite dom_insert_L|].
      rewrite -Hv -map_repeat. apply brep_set; try done; [|apply repeat_length].
      apply Forall_forall. intros x Hx. apply repeat_spec in Hx as ->. apply He.
    - (* BNewList *) iApply wp_bind. iApply wp_strong_mono. iSplitL; [by iApply (bnew_spec with "H")|]. iIntros ([]) "H".
      destruct (bnew_rep _ _ _ Hr ltac:(eassumption) ltac:(eassumption)) as [Hr' Hs'].
      iApply wp_bind. iApply wp_assert; [by apply N.leb_le|]. iApply wp_bind. iApply wp_strong_mono. iSplitL.
      { rewrite data_flat. iApply (store_flat with "H"); [apply Hr'|]. destruct Hr' as (H1&->&H3). nia. }
      iIntros ([]) "H". iApply wp_ret. cbn [fst snd]. iExists _. iSplitR; [done|]. iApply (binv_intro with "H"); [by rewrite dom_insert_L|].
      pose proof (brep_upd m _ c 0 (map (chunk szn) l) Hr' ltac:(done)) as Hu. rewrite Nat.add_0_r Hs' in Hu.
      replace (map Some l ++ repeat None (n - length l)) with (map unchunk (splice 0 (map (chunk szn) l) (repeat undef n))).
      + apply Hu; [apply Forall_map, Forall_true; intros; apply chunk_length|]. rewrite map_length. lia.
      + unfold splice. rewrite take_0 map_length. cbn [app Nat.add].
        assert (drop (length l) (repeat undef n) = repeat undef (n - length l)) as ->.
        { replace n with (length l + (n - length l))%nat at 1 by lia. rewrite repeat_app drop_app_alt //. by rewrite repeat_length. }
        rewrite map_app map_repeat unchunk_undef map_map. f_equal. apply map_ext. intros x. apply unchunk_chunk. lia.
    - (* BNewRange *) iApply wp_bind. iApply wp_strong_mono. iSplitL; [by iApply (bnew_spec with "H")|]. iIntros ([]) "H".
      destruct (bnew_rep _ _ _ Hr ltac:(eassumption) ltac:(eassumption)) as [Hr' _].
      pose proof (bcopy_in_spec m _ c g Hr' ltac:(eassumption) ltac:(eassumption)) as Hc.
      iAssert (wp bad (ktl_assert (array_length (blocate_range b sz size g) =? size) ;;; bcopy_in b sz size c (blocate_range b sz size g))
        (fun _ => ∃ ES', ⌈brep (<[c := bvals m g]> m) ES'⌉ ∗ b ↦∗ concat ES'))%I with "[H]" as "H".
      { iApply (Hc with "H"). destruct g; [done|]. cbn [bok_range] in *. bools. intros ->. done. }
      iApply (wp_ext _ ((ktl_assert (array_length (blocate_range b sz size g) =? size) ;;; bcopy_in b sz size c (blocate_range b sz size g)) ;;; ret (CUnit, {[c]} ∪ dom m))).
      { intros w. unfold bind. destruct (ktl_assert _ w); [|done]. destruct (bcopy_in _ _ _ _ _ w0); cbn; by rewrite ?app_nil_r ?app_assoc. }
      iApply wp_bind. iApply wp_strong_mono. iSplitL "H"; [done|]. iIntros ([]) "H". iDestruct "H" as (ES') "[% H]".
      iApply wp_ret. cbn [fst snd]. iExists _. iSplitR; [done|]. iApply (binv_intro with "H"); [by rewrite dom_insert_L|done].
    - (* BCopy *) iApply wp_bind. iApply wp_strong_mono. iSplitL; [by iApply (bnew_spec with "H")|]. iIntros ([]) "H".
      destruct (bnew_rep _ _ _ Hr ltac:(eassumption) ltac:(eassumption)) as [Hr' _].
      iApply wp_bind. iApply wp_strong_mono. iSplitL; [iApply (bcopy_spec with "H"); try done; congruence|]. iIntros ([]) "H". iDestruct "H" as (ES') "[% H]".
      iApply wp_ret. cbn [fst snd]. iExists _. iSplitR; [done|]. iApply (binv_intro with "H"); [by rewrite dom_insert_L|done].
    - (* BMove *) iApply wp_bind. iApply wp_strong_mono. iSplitL; [by iApply (bnew_spec with "H")|]. iIntros ([]) "H".
      destruct (bnew_rep _ _ _ Hr ltac:(eassumption) ltac:(eassumption)) as [Hr' _].
      iApply wp_bind. iApply wp_strong_mono. iSplitL; [iApply (bcopy_spec with "H"); try done; congruence|]. iIntros ([]) "H". iDestruct "H" as (ES') "[% H]".
      iApply wp_ret. cbn [fst snd]. iExists _. iSplitR; [done|]. iApply (binv_intro with "H"); [by rewrite dom_insert_L|done].
    - (* BDestroy *) destruct (brep_get _ _ _ Hr HL) as [Hc _].
      iApply wp_bind. iApply wp_strong_mono. iSplitL; [by iApply (bnew_spec with "H")|]. iIntros ([]) "H".
      iApply wp_ret. cbn [fst snd]. iExists _. iSplitR; [done|]. iApply (binv_intro with "H"); [by rewrite dom_delete_L|].
      pose proof (brep_set m ES c (repeat undef n) Hr Hc (undef_sized _) (repeat_length _ _)) as Hs. apply (brep_del _ _ c) in Hs.
      by rewrite delete_insert_delete in Hs.
    - (* BAssign *) destruct (brep_get m ES c Hr ltac:(done)) as [Hc _].
      iApply wp_bind. iApply wp_strong_mono. iSplitL; [by iApply (bcopy_spec with "H")|]. iIntros ([]) "H". iDestruct "H" as (ES') "[% H]".
      iApply wp_ret. cbn [fst snd]. iExists _. iSplitR; [done|]. iApply (binv_intro with "H"); [|done].
      rewrite dom_insert_L subseteq_union_1_L //. by apply singleton_subseteq_l.
    - (* BMoveAssign *) destruct (brep_get m ES c Hr ltac:(done)) as [Hc _].
      iApply wp_bind. iApply wp_strong_mono. iSplitL; [by iApply (bcopy_spec with "H")|]. iIntros ([]) "H". iDestruct "H" as (ES') "[% H]".
      iApply wp_ret. cbn [fst snd]. iExists _. iSplitR; [done|]. iApply (binv_intro with "H"); [|done].
      rewrite dom_insert_L subseteq_union_1_L //. by apply singleton_subseteq_l.
    - (* BFrom *) destruct (brep_get m ES c Hr ltac:(done)) as [Hc _].
      iApply (wp_ext _ ((ktl_assert (array_length (blocate_range b sz size g) =? size) ;;; bcopy_in b sz size c (blocate_range b sz size g)) ;;; ret (CUnit, dom m))).
      { intros w. unfold bind. destruct (ktl_assert _ w); [|done]. destruct (bcopy_in _ _ _ _ _ w0); cbn; by rewrite ?app_nil_r ?app_assoc. }
      iApply wp_bind. iApply wp_strong_mono. iSplitL "H".
      { iApply (bcopy_in_spec with "H"); [done|done|done|]. destruct g; [done|]. by bools. }
      iIntros ([]) "H". iDestruct "H" as (ES') "[% H]".
      iApply wp_ret. cbn [fst snd]. iExists _. iSplitR; [done|]. iApply (binv_intro with "H"); [|done].
      rewrite dom_insert_L subseteq_union_1_L //. by apply singleton_subseteq_l.
    - (* BGet *) destruct (blocate_spec m ES (RElem c i) Hr) as (e&[Hl (j&Hj&Ha)]&Hv); [by apply bool_decide_eq_true|]. cbn [blocate] in Ha.
      rewrite Ha. iApply wp_bind. iApply wp_strong_mono. iSplitL.
      { pose proof (rds_flat ES j 1 ltac:(apply Hr)) as Hrd. rewrite Nat.mul_1_l in Hrd. iApply (Hrd with "H"). apply lookup_lt_Some in Hj. lia. }
      iIntros (cs) "[-> H]". rewrite (drop_S _ _ _ Hj) /= app_nil_r. iApply wp_ret. cbn [fst snd]. iExists _. iSplitR; [by rewrite Hv|].
      by iApply binv_intro.
    - (* BSet *) destruct (brep_get m ES c Hr ltac:(done)) as [Hc Hg]. destruct (blocate_spec m ES r Hr ltac:(done)) as (e&He&Hv).
      assert (Hi : (N.to_nat (i mod size) < n)%nat). { pose proof (N.mod_lt i size). lia. }
      iApply wp_bind. iApply wp_strong_mono. iSplitL.
      { rewrite index_flat. iApply (assign_flat with "H"); [apply Hr| |done]. destruct Hr as (H1&->&H3). nia. }
      iIntros ([]) "H". iApply wp_ret. cbn [fst snd]. iExists _. iSplitR; [done|]. iApply (binv_intro with "H").
      { rewrite dom_insert_L subseteq_union_1_L //. by apply singleton_subseteq_l. }
      pose proof (brep_upd m ES c (N.to_nat (i mod size)) [e] Hr Hc) as Hu.
      rewrite splice_one in Hu; [|rewrite slot_length //; apply Hr].
      rewrite map_insert Hv -Hg in Hu. apply Hu; [constructor; [apply He|constructor]|cbn; lia].
    - (* BSize *) iApply wp_ret. cbn [fst snd]. iExists _. iSplitR; [done|]. by iApply binv_intro.
  Qed.

  Lemma bruns_spec ops s m : binv s m ⊢ wp bad (bruns (bstep b sz size k) ops s) (fun os =>
    ⌈ccheck (bcheck size k) ops os m⌉ ∗ ∃ ES, ⌈sized ES /\ length ES = (k * n)%nat⌉ ∗ b ↦∗ concat ES).
  Proof.
    revert s m. induction ops as [|o ops IH]; intros s m; cbn [bruns]; iIntros "H".
    - iApply wp_ret. iSplitR; [done|]. iDestruct "H" as (ES) "[%HH H]". iExists ES. iFrame "H". iPureIntro. by destruct HH as (_&?&?&_).
    - iApply wp_bind. iApply wp_strong_mono. iSplitL; [by iApply bstep_spec|]. iIntros ([ob s']) "H". cbn [fst snd].
      iDestruct "H" as (m') "[%Hc H]". iApply wp_bind. iApply wp_strong_mono. iSplitL; [by iApply IH|].
      iIntros (os) "[%Hos H]". iApply wp_ret. iFrame "H". iPureIntro. by exists m'.
  Qed.

  Lemma split_cells (cs : list cell) t : length cs = (t * szn)%nat -> exists ES, sized ES /\ length ES = t /\ concat ES = cs.
  Proof.
    revert cs. induction t as [|t IH]; intros cs Hl.
    - exists []. destruct cs; [done|cbn in Hl; lia].
    - destruct (IH (drop szn cs)) as (ES&H1&H2&H3); [rewrite drop_length; lia|]. exists (take szn cs :: ES). split_and!.
      + constructor; [rewrite take_length; lia|done].
      + cbn. lia.
      + cbn [concat]. by rewrite H3 take_drop.
  Qed.

  Lemma no_bad evs : existsb bad evs = true -> False.
  Proof. unfold bad. induction evs; cbn; [discriminate|done]. Qed.

  Lemma buffer_program ops w : place b (N.of_nat k * (size * sz)) w -> bprogram_ok b sz size k ops w.
  Proof.
    intros (_&_&_&Hst&_). unfold bprogram_ok. set (t := N.of_nat k * (size * sz)) in *. set (tn := N.to_nat t). set (mF := clear b tn (mem (st w))).
    assert (Hpre : own (mem (st w)) ⊢ binv ∅ ∅ ∗ own mF).
    { rewrite (own_take (mem (st w)) b tn).
      2:{ intros i Hi. destruct (Hst i) as (c&Hc&_); [lia|]. by exists c. }
      iIntros "[Hc $]". destruct (split_cells (cells (mem (st w)) b tn) (k * n)) as (ES&H1&H2&H3); [rewrite cells_length; nia|].
      rewrite -H3. iApply (binv_intro with "Hc"); [by rewrite dom_empty_L|]. split_and!; try done. }
    pose proof (wp_adequate bad (bruns (bstep b sz size k) ops ∅) (fun os mm =>
      ccheck (bcheck size k) ops os ∅ /\ (forall i, ~ (b <= i < b + t) -> mm !! i = mem (st w) !! i)) w) as Had.
    lapply Had; clear Had.
    - intros Had. destruct (bruns _ _ _ w) as [os w' evs|u evs].
      + destruct Had as [Hbad|(Hben&(Hchk&Hm)&Ht)]; [exfalso; apply (no_bad evs), Hbad|]. by split_and!.
      + apply (no_bad evs), Had.
    - rewrite Hpre. iIntros "[Hb HF]". iApply wp_strong_mono. iSplitL "Hb"; [by iApply bruns_spec|].
      iIntros (os) "(%Hchk & (%ES & (%H1 & %H2) & Hr))".
      iDestruct (own_put with "[$HF $Hr]") as "[%Hn H]". iExists _. iFrame "H". iPureIntro.
      split_and!; [done|]. intros i Hi. rewrite lookup_union.
      assert (Hlen : N.of_nat (length (concat ES)) = t) by (rewrite (concat_length szn) //; nia).
      rewrite (proj2 (fill_dom_None b (concat ES) i)); [|lia].
      rewrite left_id_L. unfold mF. rewrite clear_lookup. destruct (_ && _) eqn:E; [lia|done].
  Qed.
End buffer.
