(** The loops of binary_heap.h with any answers: the elements are permuted. *)
From iris.proofmode Require Import tactics.
From Verif Require Import Base Mem Sep Wp Allocators Env EnvProofs Vector RepProofs HeapPure Heap HeapElem Fickle.

Local Open Scope N_scope.

Section elem.
  Context (bad : event -> bool) (sz : N) (T : elt) (Hsz : 0 < sz).
  Local Notation szn := (N.to_nat sz).
  Local Notation sized := (Forall (fun e : list cell => length e = szn)).
  Local Notation wp := (wp bad).
  Local Notation arr := (arr sz T).

  (** [i]: the place of the element that is moved up; it is in none of the cells. *)
  Lemma up_ask_spec fuel p rs ms i v a : sized rs -> (i < length ms)%nat -> (i < fuel)%nat ->
    arr p ms rs ⊢ wp (up_ask sz T fuel p (N.of_nat i) v a) (fun r => ∃ i' ms',
      ⌈fst r = N.of_nat i' /\ (i' < length ms')%nat /\ <[i' := v]> ms' ≡ₚ <[i := v]> ms⌉ ∗ arr p ms' rs).
  Proof using Hsz.
    intros Hs. revert ms i a. induction fuel as [|fuel IH]; intros ms i a Hi Hf; [lia|]. cbn [up_ask].
    destruct i as [|i].
    { iIntros "H". iApply wp_ret. iExists 0%nat, ms. iFrame. done. }
    destruct (N.eqb_spec (N.of_nat (S i)) 0) as [?|_]; [lia|].
    assert (Hp := parent_lt (S i) ltac:(lia)). rewrite par_of.
    destruct (lookup_lt_is_Some_2 ms (parent (S i)) ltac:(lia)) as [y Hy].
    assert (HLi : <[S i := v]> ms !! S i = Some v) by (by rewrite list_lookup_insert).
    assert (HLp : <[S i := v]> ms !! parent (S i) = Some y) by (rewrite list_lookup_insert_ne; [done|lia]).
    iIntros "H". iApply wp_bind. iApply (wp_arr_get _ _ _ Hsz _ _ _ _ _ _ Hs Hy). iFrame "H". iIntros "H".
    destruct (ask a) as [[|] a'].
    - iApply wp_bind. iApply (wp_arr_mov _ _ _ Hsz _ _ _ _ _ _ _ Hs Hi Hy). iFrame "H". iIntros "H".
      set (ms1 := <[parent (S i) := lv T y]> (<[S i := y]> ms)).
      assert (Hsw : swap (S i) (parent (S i)) (<[S i := v]> ms) = <[parent (S i) := v]> ms1).
      { unfold swap. rewrite HLi HLp. unfold ms1. rewrite list_insert_insert.
        rewrite list_insert_commute; [|lia]. by rewrite list_insert_insert. }
      assert (Hl1 : length ms1 = length ms) by (unfold ms1; by rewrite !insert_length).
      iApply wp_strong_mono. iSplitL; [iApply (IH with "H"); rewrite ?Hl1; lia|].
      iIntros (r) "H". iDestruct "H" as (i' ms') "[%HH H]". destruct HH as (H1&H2&H3).
      iExists i', ms'. iFrame. iPureIntro. split_and!; [done|done|]. by rewrite H3 -Hsw swap_perm.
    - iApply wp_ret. iExists (S i), ms. iFrame. done.
  Qed.

  Lemma percolate_up_ask_spec p rs ms i v a : sized rs -> ms !! i = Some v ->
    arr p ms rs ⊢ wp (percolate_up_ask sz T p (N.of_nat i) a) (fun r => ∃ i' ms',
      ⌈fst r = N.of_nat i' /\ ms' ≡ₚ ms /\ ms' !! i' = Some v⌉ ∗ arr p ms' rs).
  Proof using Hsz.
    intros Hs Hv. assert (Hi := lookup_lt_Some _ _ _ Hv). iIntros "H". unfold percolate_up_ask.
    iApply wp_bind. iApply (wp_arr_get _ _ _ Hsz _ _ _ _ _ _ Hs Hv). iFrame "H". iIntros "H". rewrite Nat2N.id.
    iApply wp_bind. iApply wp_strong_mono. iSplitL; [iApply (up_ask_spec with "H"); [done|done|lia]|].
    iIntros ([r a']) "H". iDestruct "H" as (i' ms') "[%HH H]". destruct HH as (H1&Hi'&Hup). cbn [fst] in H1. subst r.
    rewrite (list_insert_id ms) // in Hup.
    iApply wp_bind. iApply (wp_arr_set _ _ _ Hsz _ _ _ _ _ _ Hs Hi'). iFrame "H". iIntros "H".
    iApply wp_ret. iExists i', (<[i' := v]> ms'). iFrame. iPureIntro. split_and!; [done|done|]. by rewrite list_lookup_insert.
  Qed.

  Lemma pick_ask_spec p rs ms j c u a : sized rs -> ms !! c = Some u ->
    arr p ms rs ⊢ wp (pick_ask sz T p (N.of_nat (length ms)) (N.of_nat j) (N.of_nat c) a) (fun r => ∃ d,
      ⌈fst r = N.of_nat d /\ (d = c \/ d = j) /\ is_Some (ms !! d)⌉ ∗ arr p ms rs).
  Proof using Hsz.
    intros Hs Hc. unfold pick_ask. iIntros "H". destruct (N.ltb_spec (N.of_nat j) (N.of_nat (length ms))) as [Hj|Hj].
    - destruct (lookup_lt_is_Some_2 ms j ltac:(lia)) as [x Hx].
      iApply wp_bind. iApply (wp_arr_get _ _ _ Hsz _ _ _ _ _ _ Hs Hx). iFrame "H". iIntros "H".
      iApply wp_bind. iApply (wp_arr_get _ _ _ Hsz _ _ _ _ _ _ Hs Hc). iFrame "H". iIntros "H".
      destruct (ask a) as [[|] a'].
      + iApply wp_ret. iExists j. iFrame. iPureIntro. split_and!; [done|by right|by eexists].
      + iApply wp_ret. iExists c. iFrame. iPureIntro. split_and!; [done|by left|by eexists].
    - iApply wp_ret. iExists c. iFrame. iPureIntro. split_and!; [done|by left|by eexists].
  Qed.

  Lemma down_ask_spec fuel p rs ms i v a : sized rs -> N.of_nat (length ms) < 2 ^ 63 -> ms !! i = Some v ->
    (length ms < fuel + i)%nat ->
    arr p ms rs ⊢ wp (down_ask sz T fuel p (N.of_nat (length ms)) (N.of_nat i) a) (fun r => ∃ i' ms',
      ⌈fst r = N.of_nat i' /\ ms' ≡ₚ ms /\ ms' !! i' = Some v⌉ ∗ arr p ms' rs).
  Proof using Hsz.
    intros Hs. revert ms i a. induction fuel as [|fuel IH]; intros ms i a HW Hi Hf.
    { apply lookup_lt_Some in Hi. lia. }
    assert (Hlt := lookup_lt_Some _ _ _ Hi). cbn [down_ask].
    destruct (N.ltb_spec (N.of_nat i) (N.of_nat (length ms))) as [_|?]; [|lia].
    assert (lft (N.of_nat i) = N.of_nat (2 * i + 1)) as ->.
    { unfold lft. rewrite w64_small; [lia|]. unfold W. lia. }
    assert (rgt (N.of_nat i) = N.of_nat (2 * i + 2)) as ->.
    { unfold rgt. rewrite w64_small; [lia|]. unfold W. lia. }
    iIntros "H". iApply wp_bind. iApply wp_strong_mono. iSplitL; [by iApply (pick_ask_spec with "H")|].
    iIntros ([r a1]) "H". iDestruct "H" as (d) "[%HH H]". destruct HH as (H1&Hd&[y Hy]). cbn [fst] in H1. subst r.
    iApply wp_bind. iApply wp_strong_mono. iSplitL; [by iApply (pick_ask_spec with "H")|].
    iIntros ([r a2]) "H". iDestruct "H" as (c) "[%HH H]". destruct HH as (H1&Hc&[z Hz]). cbn [fst] in H1. subst r.
    destruct (N.eqb_spec (N.of_nat c) (N.of_nat i)) as [Hci|Hci].
    - iApply wp_ret. iExists i, ms. by iFrame.
    - assert (Hne : c <> i) by congruence. assert (i < c)%nat by lia.
      iApply wp_bind. iApply (wp_arr_take _ _ _ Hsz _ _ _ _ _ _ Hs Hz). iFrame "H". iIntros "H".
      assert (Hi' : <[c := lv T z]> ms !! i = Some v) by (by rewrite list_lookup_insert_ne).
      assert (Hlc := lookup_lt_Some _ _ _ Hz).
      assert (Hlc' : (c < length (<[c := lv T z]> ms))%nat) by (rewrite insert_length; lia).
      iApply wp_bind. iApply (wp_arr_mov _ _ _ Hsz _ _ _ _ _ _ _ Hs Hlc' Hi'). iFrame "H". iIntros "H".
      iApply wp_bind. iApply (wp_arr_set _ _ _ Hsz p (<[i := lv T v]> (<[c := v]> (<[c := lv T z]> ms))) rs i z _ Hs); [rewrite !insert_length; lia|]. iFrame "H". iIntros "H".
      assert (Hsw : <[i := z]> (<[i := lv T v]> (<[c := v]> (<[c := lv T z]> ms))) = swap i c ms).
      { unfold swap. rewrite Hi Hz. by rewrite !list_insert_insert. }
      rewrite Hsw. rewrite -(swap_length i c ms). iApply wp_strong_mono. iSplitL.
      { iApply (IH with "H"); rewrite ?swap_length; [done| |lia].
        rewrite (swap_lookup _ _ _ _ _ _ Hi Hz). rewrite decide_False //. by rewrite decide_True. }
      iIntros (r) "H". iDestruct "H" as (i' ms') "[%HH H]". destruct HH as (H1&H2&H3).
      iExists i', ms'. iFrame. iPureIntro. split_and!; [done| |done]. by rewrite H2 swap_perm.
  Qed.

  Lemma percolate_down_ask_spec p rs ms a : sized rs -> N.of_nat (length ms) < 2 ^ 63 -> (0 < length ms)%nat ->
    arr p ms rs ⊢ wp (percolate_down_ask sz T p (N.of_nat (length ms)) 0 a) (fun _ => ∃ ms', ⌈ms' ≡ₚ ms⌉ ∗ arr p ms' rs).
  Proof using Hsz.
    intros Hs HW Hl. destruct (lookup_lt_is_Some_2 _ _ Hl) as [v Hv]. iIntros "H". unfold percolate_down_ask.
    change 0 with (N.of_nat 0).
    iApply wp_bind. iApply (wp_arr_get _ _ _ Hsz _ _ _ _ _ _ Hs Hv). iFrame "H". iIntros "H". rewrite Nat2N.id.
    iApply wp_bind. iApply wp_strong_mono. iSplitL; [iApply (down_ask_spec with "H"); [done|done|done|lia]|].
    iIntros ([r a']) "H". iDestruct "H" as (i' ms') "[%HH H]". destruct HH as (H1&H2&Hi'). cbn [fst] in H1. subst r.
    iApply (wp_arr_set _ _ _ Hsz _ _ _ _ _ _ Hs); [by apply lookup_lt_Some in Hi'|]. iFrame "H". iIntros "H".
    iExists ms'. rewrite list_insert_id //. by iFrame.
  Qed.

  Lemma percolate_down_ask_none p rs v a : sized rs ->
    arr p [v] rs ⊢ wp (percolate_down_ask sz T p 0 0 a) (fun _ => arr p [v] rs).
  Proof using Hsz.
    intros Hs. iIntros "H". unfold percolate_down_ask. change 0 with (N.of_nat 0).
    iApply wp_bind. iApply (wp_arr_get _ _ _ Hsz _ [v] _ _ v _ Hs); [done|]. iFrame "H". iIntros "H".
    cbn [N.of_nat N.to_nat down_ask N.ltb N.compare]. iApply wp_bind. iApply wp_ret. change 0 with (N.of_nat 0).
    iApply (wp_arr_set _ _ _ Hsz _ [v] _ _ v _ Hs); [cbn; lia|]. iFrame "H". iIntros "H". done.
  Qed.
End elem.
