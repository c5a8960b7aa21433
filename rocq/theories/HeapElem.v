(** Elements of binary_heap in an array, and the two percolations. *)
From iris.proofmode Require Import tactics.
From Verif Require Import Base Mem Sep Wp Allocators Contract Env EnvProofs Vector ElemProofs HeapPure Heap.

Local Open Scope N_scope.

Section elem.
  Context (bad : event -> bool) (sz : N) (T : elt) (Hsz : 0 < sz).
  Local Notation szn := (N.to_nat sz).
  Local Notation sized := (Forall (fun e : list cell => length e = szn)).
  Local Notation wp := (wp bad).

  (** The bytes of an element, and what a move leaves. *)
  Definition ec (v : value) : list cell := if e_triv T then chunk szn v else ochunk szn v.
  Definition lv (v : value) : value := if e_triv T then v else e_left T v.

  Lemma ec_length v : length (ec v) = szn.
  Proof. unfold ec. destruct (e_triv T); [apply chunk_length|apply ochunk_length]. Qed.
  Lemma ec_sized l : sized (map ec l).
  Proof. apply Forall_map, Forall_true. intros x. apply ec_length. Qed.

  Lemma wp_e_get a v Q : a ↦∗ ec v ∗ (a ↦∗ ec v -∗ Q v) ⊢ wp (e_get sz T a) Q.
  Proof. unfold e_get, ec. destruct (e_triv T); [apply wp_load; lia|apply wp_obj_get; lia]. Qed.
  Lemma wp_e_set a v v' Q : a ↦∗ ec v ∗ (a ↦∗ ec v' -∗ Q tt) ⊢ wp (e_set sz T a v') Q.
  Proof. unfold e_set, ec. destruct (e_triv T); [apply wp_stor, chunk_length|apply wp_obj_set; lia]. Qed.
  Lemma wp_e_new a cs v Q : length cs = szn -> Forall dead cs -> a ↦∗ cs ∗ (a ↦∗ ec v -∗ Q tt) ⊢ wp (e_new sz T a v) Q.
  Proof. intros. unfold e_new, ec. destruct (e_triv T); [by apply wp_stor|by apply wp_obj_new]. Qed.
  Lemma wp_e_del a v Q :
    a ↦∗ ec v ∗ (∀ e, ⌈length e = szn /\ Forall dead e⌉ -∗ a ↦∗ e -∗ Q tt) ⊢ wp (e_del sz T a) Q.
  Proof.
    unfold e_del, ec. destruct (e_triv T).
    - iIntros "[H HQ]". iApply wp_ret. iApply ("HQ" with "[] H"). iPureIntro. split; [apply chunk_length|apply chunk_dead].
    - iIntros "[H HQ]". iApply wp_obj_del; [lia|]. iFrame. iIntros "H". iApply ("HQ" with "[] H"). iPureIntro.
      split; [apply repeat_length|]. apply list.Forall_forall. intros x Hx. apply elem_of_list_In, repeat_spec in Hx. by subst.
  Qed.
  Lemma wp_e_leave a v Q : a ↦∗ ec v ∗ (a ↦∗ ec (lv v) -∗ Q tt) ⊢ wp (e_leave sz T a v) Q.
  Proof.
    unfold e_leave, ec, lv. destruct (e_triv T).
    - iIntros "[H HQ]". iApply wp_ret. by iApply "HQ".
    - apply wp_obj_set. lia.
  Qed.
  Lemma wp_e_take a v Q : a ↦∗ ec v ∗ (a ↦∗ ec (lv v) -∗ Q v) ⊢ wp (e_take sz T a) Q.
  Proof.
    iIntros "[H HQ]". unfold e_take. iApply wp_bind. iApply wp_e_get. iFrame "H". iIntros "H".
    iApply wp_bind. iApply wp_e_leave. iFrame "H". iIntros "H". iApply wp_ret. by iApply "HQ".
  Qed.

  (** * An array with elements [ms], followed by other bytes *)
  Definition arr (p : N) (ms : list value) (rs : list (list cell)) : hpropI := p ↦∗ concat (map ec ms ++ rs).

  Lemma arr_elem p ms rs i v : sized rs -> ms !! i = Some v ->
    arr p ms rs ⊢ (p + sz * N.of_nat i) ↦∗ ec v ∗ (∀ v', (p + sz * N.of_nat i) ↦∗ ec v' -∗ arr p (<[i := v']> ms) rs).
  Proof.
    intros Hs Hi. assert (Hlt := lookup_lt_Some _ _ _ Hi).
    assert (Hes : (map ec ms ++ rs) !! i = Some (ec v)).
    { rewrite lookup_app_l; [|by rewrite map_length]. by rewrite list_lookup_fmap Hi. }
    unfold arr. rewrite (pts_elem sz p _ i (ec v)); [|apply Forall_app; split; [apply ec_sized|done]|done].
    iIntros "[$ H]". iIntros (v') "Hv". iSpecialize ("H" $! (ec v') with "[] Hv"); [iPureIntro; apply ec_length|].
    rewrite insert_app_l; [|by rewrite map_length]. rewrite -list_fmap_insert. done.
  Qed.

  Lemma wp_arr_get p ms rs i v Q : sized rs -> ms !! i = Some v ->
    arr p ms rs ∗ (arr p ms rs -∗ Q v) ⊢ wp (e_get sz T (elem_addr sz p (N.of_nat i))) Q.
  Proof.
    intros Hs Hi. iIntros "[H HQ]". iDestruct (arr_elem _ _ _ _ _ Hs Hi with "H") as "[Hv H]".
    iApply wp_e_get. iFrame "Hv". iIntros "Hv". iSpecialize ("H" with "Hv"). rewrite list_insert_id //. by iApply "HQ".
  Qed.
  Lemma wp_arr_set p ms rs i v Q : sized rs -> (i < length ms)%nat ->
    arr p ms rs ∗ (arr p (<[i := v]> ms) rs -∗ Q tt) ⊢ wp (e_set sz T (elem_addr sz p (N.of_nat i)) v) Q.
  Proof.
    intros Hs Hi. destruct (lookup_lt_is_Some_2 _ _ Hi) as [u Hu].
    iIntros "[H HQ]". iDestruct (arr_elem _ _ _ _ _ Hs Hu with "H") as "[Hv H]".
    iApply wp_e_set. iFrame "Hv". iIntros "Hv". iSpecialize ("H" with "Hv"). by iApply "HQ".
  Qed.
  Lemma wp_arr_take p ms rs i v Q : sized rs -> ms !! i = Some v ->
    arr p ms rs ∗ (arr p (<[i := lv v]> ms) rs -∗ Q v) ⊢ wp (e_take sz T (elem_addr sz p (N.of_nat i))) Q.
  Proof.
    intros Hs Hi. iIntros "[H HQ]". iDestruct (arr_elem _ _ _ _ _ Hs Hi with "H") as "[Hv H]".
    iApply wp_e_take. iFrame "Hv". iIntros "Hv". iSpecialize ("H" with "Hv"). by iApply "HQ".
  Qed.
  (** for i = j as well *)
  Lemma wp_arr_mov p ms rs i j v Q : sized rs -> (i < length ms)%nat -> ms !! j = Some v ->
    arr p ms rs ∗ (arr p (<[j := lv v]> (<[i := v]> ms)) rs -∗ Q tt) ⊢
    wp (e_mov sz T (elem_addr sz p (N.of_nat i)) (elem_addr sz p (N.of_nat j))) Q.
  Proof.
    intros Hs Hi Hj. iIntros "[H HQ]". unfold e_mov. iApply wp_bind. iApply (wp_arr_get _ _ _ _ _ _ Hs Hj). iFrame "H". iIntros "H".
    iApply wp_bind. iApply (wp_arr_set _ _ _ _ _ _ Hs Hi). iFrame "H". iIntros "H".
    assert (Hj' : <[i := v]> ms !! j = Some v).
    { destruct (decide (i = j)) as [->|Hne]; [by rewrite list_lookup_insert|by rewrite list_lookup_insert_ne]. }
    iDestruct (arr_elem _ _ _ _ _ Hs Hj' with "H") as "[Hv H]".
    iApply wp_e_leave. iFrame "Hv". iIntros "Hv". iSpecialize ("H" with "Hv"). by iApply "HQ".
  Qed.

  (** * percolateUp *)
  Context (comp : nat -> value -> value -> bool).

  Lemma par_of i : par (N.of_nat i) = N.of_nat (parent i).
  Proof. unfold par, parent. rewrite Nat2N.inj_div Nat2N.inj_sub. done. Qed.

  Lemma up_loop_spec fuel q p rs ms i v : sized rs -> (i < length ms)%nat -> (i < fuel)%nat ->
    arr p ms rs ⊢ wp (up_loop sz T comp fuel q p (N.of_nat i) v) (fun r => ∃ i' ms',
      ⌈r = N.of_nat i' /\ (i' < length ms')%nat /\ up (comp q) fuel (<[i := v]> ms) i = (<[i' := v]> ms', i')⌉ ∗ arr p ms' rs).
  Proof.
    intros Hs. revert ms i. induction fuel as [|fuel IH]; intros ms i Hi Hf; [lia|]. cbn [up_loop up].
    destruct i as [|i].
    { iIntros "H". iApply wp_ret. iExists 0%nat, ms. iFrame. done. }
    destruct (N.eqb_spec (N.of_nat (S i)) 0) as [?|_]; [lia|].
    assert (Hp := parent_lt (S i) ltac:(lia)). rewrite par_of.
    destruct (lookup_lt_is_Some_2 ms (parent (S i)) ltac:(lia)) as [y Hy].
    assert (HLi : <[S i := v]> ms !! S i = Some v) by (by rewrite list_lookup_insert).
    assert (HLp : <[S i := v]> ms !! parent (S i) = Some y) by (rewrite list_lookup_insert_ne; [done|lia]).
    rewrite HLi HLp. iIntros "H". iApply wp_bind. iApply (wp_arr_get _ _ _ _ _ _ Hs Hy). iFrame "H". iIntros "H".
    destruct (comp q v y).
    - iApply wp_bind. iApply (wp_arr_mov _ _ _ _ _ _ _ Hs Hi Hy). iFrame "H". iIntros "H".
      set (ms1 := <[parent (S i) := lv y]> (<[S i := y]> ms)).
      assert (Hsw : swap (S i) (parent (S i)) (<[S i := v]> ms) = <[parent (S i) := v]> ms1).
      { unfold swap. rewrite HLi HLp. unfold ms1. rewrite list_insert_insert.
        rewrite list_insert_commute; [|lia]. by rewrite list_insert_insert. }
      rewrite Hsw. assert (Hl1 : length ms1 = length ms) by (unfold ms1; by rewrite !insert_length).
      iApply (IH with "H"); rewrite ?Hl1; lia.
    - iApply wp_ret. iExists (S i), ms. iFrame. done.
  Qed.

  Lemma percolate_up_spec q p rs ms i : sized rs -> (i < length ms)%nat ->
    arr p ms rs ⊢ wp (percolate_up sz T comp q p (N.of_nat i)) (fun r =>
      ⌈r = N.of_nat (snd (up (comp q) (S i) ms i))⌉ ∗ arr p (fst (up (comp q) (S i) ms i)) rs).
  Proof.
    intros Hs Hi. destruct (lookup_lt_is_Some_2 _ _ Hi) as [v Hv]. iIntros "H". unfold percolate_up.
    iApply wp_bind. iApply (wp_arr_get _ _ _ _ _ _ Hs Hv). iFrame "H". iIntros "H". rewrite Nat2N.id.
    iApply wp_bind. iApply wp_strong_mono. iSplitL; [iApply (up_loop_spec with "H"); [done|done|lia]|].
    iIntros (r) "H". iDestruct "H" as (i' ms') "[%HH H]". destruct HH as (->&Hi'&Hup). rewrite list_insert_id // in Hup.
    rewrite Hup. cbn [fst snd]. iApply wp_bind. iApply (wp_arr_set _ _ _ _ _ _ Hs Hi'). iFrame "H". iIntros "H".
    iApply wp_ret. by iFrame.
  Qed.

  (** * percolateDown *)
  Lemma pick_spec q p rs ms j c u : sized rs -> ms !! c = Some u ->
    arr p ms rs ⊢ wp (pick sz T comp q p (N.of_nat (length ms)) (N.of_nat j) (N.of_nat c)) (fun r =>
      ⌈r = N.of_nat (smaller (comp q) ms j c)⌉ ∗ arr p ms rs).
  Proof.
    intros Hs Hc. unfold pick, smaller. rewrite Hc. iIntros "H". destruct (N.ltb_spec (N.of_nat j) (N.of_nat (length ms))) as [Hj|Hj].
    - destruct (lookup_lt_is_Some_2 ms j ltac:(lia)) as [x Hx]. rewrite Hx.
      iApply wp_bind. iApply (wp_arr_get _ _ _ _ _ _ Hs Hx). iFrame "H". iIntros "H".
      iApply wp_bind. iApply (wp_arr_get _ _ _ _ _ _ Hs Hc). iFrame "H". iIntros "H".
      iApply wp_ret. iFrame. iPureIntro. by destruct (comp q x u).
    - rewrite lookup_ge_None_2; [|lia]. iApply wp_ret. by iFrame.
  Qed.

  Lemma down_loop_spec fuel q p rs ms i v : sized rs -> N.of_nat (length ms) < 2 ^ 63 -> ms !! i = Some v ->
    (length ms < fuel + i)%nat ->
    arr p ms rs ⊢ wp (down_loop sz T comp fuel q p (N.of_nat (length ms)) (N.of_nat i)) (fun r => ∃ i',
      ⌈r = N.of_nat i' /\ down (comp q) fuel ms i !! i' = Some v⌉ ∗ arr p (down (comp q) fuel ms i) rs).
  Proof.
    intros Hs. revert ms i. induction fuel as [|fuel IH]; intros ms i HW Hi Hf.
    { apply lookup_lt_Some in Hi. lia. }
    assert (Hlt := lookup_lt_Some _ _ _ Hi). cbn [down_loop down].
    destruct (N.ltb_spec (N.of_nat i) (N.of_nat (length ms))) as [_|?]; [|lia].
    assert (lft (N.of_nat i) = N.of_nat (2 * i + 1)) as ->.
    { unfold lft. rewrite w64_small; [lia|]. unfold W. lia. }
    assert (rgt (N.of_nat i) = N.of_nat (2 * i + 2)) as ->.
    { unfold rgt. rewrite w64_small; [lia|]. unfold W. lia. }
    iIntros "H". iApply wp_bind. iApply wp_strong_mono. iSplitL; [by iApply (pick_spec with "H")|]. iIntros (r) "[-> H]".
    set (a := smaller (comp q) ms (2 * i + 1) i).
    assert (Ha : (a = i \/ a = (2 * i + 1)%nat) /\ exists y, ms !! a = Some y).
    { subst a. destruct (smaller_cases (comp q) ms (2 * i + 1) i) as [->|(->&x&y&H1&_)]; eauto. }
    destruct Ha as [Ha [y Hy]].
    iApply wp_bind. iApply wp_strong_mono. iSplitL; [by iApply (pick_spec with "H")|]. iIntros (r) "[-> H]".
    change (smaller (comp q) ms (2 * i + 2) a) with (best (comp q) ms i). set (c := best (comp q) ms i).
    assert (Hc : (c = i \/ (i < c)%nat) /\ exists z, ms !! c = Some z).
    { subst c. unfold best. fold a. destruct (smaller_cases (comp q) ms (2 * i + 2) a) as [->|(->&x&z&H1&_)]; [|split; [lia|eauto]].
      split; [lia|eauto]. }
    destruct Hc as [Hc [z Hz]].
    destruct (Nat.eqb_spec c i) as [Hci|Hci]; destruct (N.eqb_spec (N.of_nat c) (N.of_nat i)) as [Hci'|Hci']; try lia.
    - iApply wp_ret. iExists i. by iFrame.
    - iApply wp_bind. iApply (wp_arr_take _ _ _ _ _ _ Hs Hz). iFrame "H". iIntros "H".
      assert (Hi' : <[c := lv z]> ms !! i = Some v) by (by rewrite list_lookup_insert_ne).
      assert (Hlc := lookup_lt_Some _ _ _ Hz).
      assert (Hlc' : (c < length (<[c := lv z]> ms))%nat) by (rewrite insert_length; lia).
      iApply wp_bind. iApply (wp_arr_mov _ _ _ _ _ _ _ Hs Hlc' Hi'). iFrame "H". iIntros "H".
      iApply wp_bind. iApply (wp_arr_set p (<[i := lv v]> (<[c := v]> (<[c := lv z]> ms))) rs i z _ Hs); [rewrite !insert_length; lia|]. iFrame "H". iIntros "H".
      assert (Hsw : <[i := z]> (<[i := lv v]> (<[c := v]> (<[c := lv z]> ms))) = swap i c ms).
      { unfold swap. rewrite Hi Hz. by rewrite !list_insert_insert. }
      rewrite Hsw. rewrite -(swap_length i c ms). iApply (IH with "H"); rewrite ?swap_length; [done| |lia].
      rewrite (swap_lookup _ _ _ _ _ _ Hi Hz). rewrite decide_False //. by rewrite decide_True.
  Qed.

  Lemma percolate_down_spec q p rs ms : sized rs -> N.of_nat (length ms) < 2 ^ 63 -> (0 < length ms)%nat ->
    arr p ms rs ⊢ wp (percolate_down sz T comp q p (N.of_nat (length ms)) 0) (fun _ =>
      arr p (down (comp q) (S (length ms)) ms 0) rs).
  Proof.
    intros Hs HW Hl. destruct (lookup_lt_is_Some_2 _ _ Hl) as [v Hv]. iIntros "H". unfold percolate_down.
    change 0 with (N.of_nat 0).
    iApply wp_bind. iApply (wp_arr_get _ _ _ _ _ _ Hs Hv). iFrame "H". iIntros "H". rewrite Nat2N.id.
    iApply wp_bind. iApply wp_strong_mono. iSplitL; [iApply (down_loop_spec with "H"); [done|done|done|lia]|].
    iIntros (r) "H". iDestruct "H" as (i') "[%HH H]". destruct HH as (->&Hi').
    iApply (wp_arr_set _ _ _ _ _ _ Hs); [by apply lookup_lt_Some in Hi'|]. iFrame "H". iIntros "H".
    by rewrite list_insert_id.
  Qed.

  (** After removal of the only element; only for trivial types is there still something to read. *)
  Lemma percolate_down_none q p rs v : sized rs ->
    arr p [v] rs ⊢ wp (percolate_down sz T comp q p 0 0) (fun _ => arr p [v] rs).
  Proof.
    intros Hs. iIntros "H". unfold percolate_down. change 0 with (N.of_nat 0).
    iApply wp_bind. iApply (wp_arr_get _ [v] _ _ v _ Hs); [done|]. iFrame "H". iIntros "H".
    cbn [N.of_nat N.to_nat down_loop N.ltb N.compare]. iApply wp_bind. iApply wp_ret. change 0 with (N.of_nat 0).
    iApply (wp_arr_set _ [v] _ _ v _ Hs); [cbn; lia|]. iFrame "H". iIntros "H". done.
  Qed.
End elem.
