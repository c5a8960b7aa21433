(** An allocator object inside a block of its own, as used by shared and cascading; the
    contract of shared with one handle. *)
From iris.proofmode Require Import tactics.
From Verif Require Import Base Mem Sep Wp Bits AlignedMalloc AlignedMallocProofs Allocators Contract.

Local Open Scope N_scope.

(** * Fewer than 2^64 non-empty blocks *)
Lemma blocks_own L : Forall good (shape L) -> Forall (fun x => 0 < snd x) (shape L) ->
  blocks L ⊢ ∃ m, own m ∗ ⌈(length L <= size m)%nat /\ forall i, is_Some (m !! i) -> 0 < i < W⌉.
Proof.
  induction L as [|[p cs] L IH]; intros Hg Hn.
  - iIntros "H". iExists ∅. rewrite own_empty. iSplitL; [done|]. iPureIntro.
    split; [cbn [length]; lia|]. intros i. rewrite lookup_empty. by intros [].
  - rewrite shape_cons in Hg. rewrite shape_cons in Hn.
    apply Forall_cons_iff in Hg as [Hg0 Hg]. apply Forall_cons_iff in Hn as [Hn0 Hn].
    unfold good in Hg0. cbn [bsize fst snd] in Hg0, Hn0.
    rewrite blocks_cons IH //. iIntros "[Hc (%m & Hm & (%Hs & %Hi))]".
    iDestruct (own_put with "[$Hm $Hc]") as "[%Hd Hm]".
    iExists (fill p cs ∪ m). iFrame "Hm". iPureIntro.
    assert (Hdj : fill p cs ##ₘ m).
    { apply map_disjoint_spec. intros i x y Hx Hy.
      assert (p <= i < p + N.of_nat (length cs)) as Hr.
      { apply fill_dom. by exists x. }
      rewrite (Hd i Hr) in Hy. done. }
    split.
    + rewrite map_size_disj_union //. cbn [length].
      assert (is_Some (fill p cs !! p)) as [x Hx].
      { apply fill_dom. lia. }
      assert (size (fill p cs) <> 0)%nat; [|lia]. intros H0%map_size_empty_inv.
      rewrite H0 lookup_empty in Hx. done.
    + intros i [x Hx]. apply (lookup_union_Some _ _ _ _ Hdj) in Hx as [Hx|Hx]; [|apply Hi; by exists x].
      assert (p <= i < p + N.of_nat (length cs)) by (apply fill_dom; by exists x). lia.
Qed.

Lemma blocks_lt L : Forall good (shape L) -> Forall (fun x => 0 < snd x) (shape L) ->
  blocks L ⊢ ⌜N.of_nat (length L) < W⌝.
Proof.
  intros Hg Hn. rewrite blocks_own //. iIntros "(%m & Hm & (%Hs & %Hi))". iPureIntro.
  assert (N.of_nat (size (<[0 := Undef]> m)) <= W) as Hb.
  { apply map_size_bound. intros i Hi'. destruct (decide (i = 0)) as [->|]; [done|].
    rewrite lookup_insert_ne // in Hi'. apply Hi in Hi'. lia. }
  rewrite map_size_insert_None in Hb; [lia|].
  apply eq_None_not_Some. intros H%Hi. lia.
Qed.

Section node.
  Context {bad : event -> bool} {A : alloc} {req : N -> bool}.
  Context (CA : contract bad A req) (pl : platform).
  Context (Hpl : pl <> PPosix) (Hfail : bad EvFail || bad EvRefuse = true) (Hsz : a_size A + 32 < W).

  (** A heap block with an allocator object and two further words. *)
  Definition box (p : N) (s : a_st A) (S : list (N * N)) : hpropI :=
    J CA p s S ∗ raw (p + a_size A) 16 ∗ amtok pl p (a_size A + 16) ∗ ⌈p <> 0⌉.

  Lemma wp_new_box {B} (k : N -> a_st A -> M B) (Q : B -> hpropI) :
    (∀ p s, box p s [] -∗ wp bad (k p s) Q)
    ⊢ wp bad (p <- aligned_malloc pl (a_size A + 16) ALIGNMENT ;;
              if p =? 0 then emit EvFail ;;; ubm UBNull
              else s <- a_init A p ;; k p s) Q.
  Proof.
    iIntros "H". iApply wp_bind. iApply wp_aligned_malloc_or; [done|lia|]. iSplit.
    - iIntros (Hb). assert (Hf := Hfail). rewrite Hb orb_false_r in Hf. cbn [N.eqb]. iStopProof. by apply wp_bad.
    - iIntros (p (Hp0&Hp16&HpW)) "[Hr Ht]". rewrite (proj2 (N.eqb_neq _ _) Hp0).
      rewrite (raw_split p (a_size A + 16) (a_size A)); [|lia]. iDestruct "Hr" as "[Hr Hr2]".
      replace (a_size A + 16 - a_size A) with 16 by lia.
      iApply wp_bind. iApply wp_strong_mono. iSplitL "Hr"; [iApply (c_init _ _ _ CA with "Hr"); [done..|lia]|].
      iIntros (s) "HJ". iApply "H". by iFrame.
  Qed.

  Lemma wp_del_box p s (Q : unit -> hpropI) :
    box p s [] ∗ Q tt ⊢ wp bad (a_dtor A p s ;;; aligned_free pl p) Q.
  Proof.
    iIntros "[(HJ & Hr2 & Ht & %Hp) HQ]". iApply wp_bind. iApply wp_strong_mono.
    iSplitL "HJ"; [by iApply (c_dtor _ _ _ CA)|]. iIntros ([]) "Hr".
    iAssert (raw p (a_size A + 16)) with "[Hr Hr2]" as "Hr".
    { rewrite (raw_split p (a_size A + 16) (a_size A)); [|lia].
      replace (a_size A + 16 - a_size A) with 16 by lia. iFrame. }
    iDestruct "Hr" as (cs) "[(%Hl & %Hd) Hr]".
    iApply (wp_aligned_free _ _ _ (a_size A + 16) cs); [done..|]. iFrame.
  Qed.

  (** * shared *)
  Definition sh_J (b : N) (s : sh A) (S : list (N * N)) : hpropI := box (sh_block s) (sh_in s) S.

  Definition shared_contract : contract bad (shared pl A) req.
  Proof.
    refine (Contract bad (shared pl A) req sh_J (mv CA) (fun b s => rdy CA (sh_block s) (sh_in s))
              _ _ _ _ _ _ _ _ _ _ _ _).
    - done.
    - iIntros (b s S S' HS) "(HJ & Hr & Ht & %Hp)". unfold sh_J, box.
      rewrite (c_perm _ _ _ CA _ _ S S') //. by iFrame.
    - iIntros (b s S) "(HJ & Hr & Ht & %Hp)". by iDestruct (c_good _ _ _ CA with "HJ") as %H.
    - intros b _ _ _. cbn [shared a_init a_size]. rewrite raw_0. iIntros "_".
      iApply (wp_new_box (fun p s => ret (Sh p s))). iIntros (p s) "H". by iApply wp_ret.
    - intros b s. cbn [shared a_dtor a_size]. iIntros "H". iApply wp_del_box. rewrite raw_0. unfold sh_J.
      by iFrame.
    - intros b s S n Hreq Hn. cbn [shared a_alloc]. iIntros "(HJ & Hr & Ht & %Hp)".
      iApply wp_bind. iApply wp_strong_mono. iSplitL "HJ"; [by iApply (c_alloc _ _ _ CA)|].
      iIntros ([q s']) "[[%Hq HJ]|(%Hq & Hraw & HJ)]"; cbn [fst snd] in *; iApply wp_ret; cbn [fst snd].
      + iLeft. iSplit; [done|]. by iFrame.
      + iRight. iSplit; [done|]. by iFrame.
    - intros b s p cs L Hd. cbn [shared a_free]. iIntros "((HJ & Hr & Ht & %Hp) & Hc & HL)".
      iApply wp_bind. iApply wp_strong_mono. iSplitL "HJ Hc HL".
      { iApply (c_free _ _ _ CA); [done|]. iFrame. }
      iIntros (s') "[HJ HL]". iApply wp_ret. by iFrame.
    - intros o b s S Ho. cbn [shared a_owns] in Ho. destruct (a_owns A) as [oA|] eqn:HoA; [|done].
      injection Ho as <-. iIntros "(HJ & Hr & Ht & %Hp)". by iDestruct (c_owns_in _ _ _ CA with "HJ") as %H.
    - intros o b s L q c Ho Hq. cbn [shared a_owns] in Ho. destruct (a_owns A) as [oA|] eqn:HoA; [|done].
      injection Ho as <-. iIntros "((HJ & Hr & Ht & %Hp) & HL & Hc)".
      by iDestruct (c_owns_out _ _ _ CA with "[$HJ $HL $Hc]") as %H.
    - intros mx b s S Hmx Hrdy. cbn [shared a_max] in Hmx. destruct (a_max A) as [mA|] eqn:HmA; [|done].
      injection Hmx as <-. iIntros "(HJ & Hr & Ht & %Hp)".
      iApply wp_strong_mono. iSplitL "HJ"; [by iApply (c_max _ _ _ CA)|].
      iIntros (v) "[$ HJ]". by iFrame.
    - intros b s S Hm. cbn [shared a_max] in Hm. iIntros "(HJ & Hr & Ht & %Hp)".
      iDestruct (c_bound _ _ _ CA with "HJ") as %H; [by destruct (a_max A)|done].
    - intros o c b s L q act R Ho Hin. cbn [shared a_cd] in Ho. destruct (a_cd A) as [oA|] eqn:HoA; [|done].
      injection Ho as <-. iIntros "((HJ & Hr & Ht & %Hp) & HL & Hact)".
      iApply wp_bind. iApply wp_strong_mono. iSplitL "HJ HL Hact".
      { iApply (c_cd _ _ _ CA _ c (sh_block s) (sh_in s) L q act R HoA Hin). iFrame. }
      iIntros (s') "[HJ HR]". iApply wp_ret. by iFrame.
  Defined.
End node.
