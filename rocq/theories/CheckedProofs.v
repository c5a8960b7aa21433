(** Watching an allocator does not change whether it obeys the contract. *)
From iris.proofmode Require Import tactics.
From Verif Require Import Base Mem Sep Wp Allocators Contract Checked.

Local Open Scope N_scope.

Lemma beq_true x y : beq x y = true <-> x = y.
Proof.
  destruct x as [x1 x2], y as [y1 y2]. unfold beq. cbn [fst snd]. rewrite andb_true_iff !N.eqb_eq.
  split; [by intros [-> ->]|by intros [= -> ->]].
Qed.

Lemma take_out_in x l : x ∈ l -> exists l', take_out x l = Some l' /\ l ≡ₚ x :: l'.
Proof.
  induction l as [|y l IH]; [by intros ?%elem_of_nil|]. cbn [take_out]. intros Hin.
  destruct (beq x y) eqn:E.
  - apply beq_true in E as ->. by exists l.
  - apply elem_of_cons in Hin as [->|Hin].
    { exfalso. assert (beq y y = true) by (by apply beq_true). congruence. }
    destruct (IH Hin) as (l'&->&Hl). exists (y :: l'). split; [done|]. rewrite Hl. constructor.
Qed.

Section checked.
  Context {bad : event -> bool} {A : alloc} {req : N -> bool} (CA : contract bad A req).

  Definition ch_J (b : N) (s : a_st (checked A)) (S : list (N * N)) : hpropI :=
    J CA b (fst s) S ∗ ⌈snd s ≡ₚ S⌉.

  Definition checked_contract : contract bad (checked A) req.
  Proof.
    refine (Contract bad (checked A) req ch_J (mv CA) (fun b s => rdy CA b (fst s)) _ _ _ _ _ _ _ _ _ _ _ _).
    - exact (c_size _ _ _ CA).
    - iIntros (b s S S' HS) "[HJ %Hp]". iSplitL.
      + by iApply (c_perm _ _ _ CA).
      + iPureIntro. by rewrite Hp.
    - iIntros (b s S) "[HJ %Hp]". by iDestruct (c_good _ _ _ CA with "HJ") as %H.
    - intros b H1 H2 H3. cbn [checked a_init a_size]. iIntros "H". iApply wp_bind. iApply wp_strong_mono.
      iSplitL; [by iApply (c_init _ _ _ CA)|]. iIntros (s) "HJ". iApply wp_ret. iSplitL; [done|by iPureIntro].
    - intros b [s l]. cbn [checked a_dtor a_size fst snd]. iIntros "[HJ %Hp]". cbn [fst snd] in *.
      symmetry in Hp. apply Permutation_nil in Hp as ->. by iApply (c_dtor _ _ _ CA).
    - intros b [s l] S n Hreq Hn. cbn [checked a_alloc fst snd]. iIntros "[HJ %Hp]". cbn [fst snd] in *.
      iApply wp_bind. iApply wp_strong_mono. iSplitL "HJ"; [by iApply (c_alloc _ _ _ CA)|].
      iIntros ([q s']) "[[%Hq HJ]|(%Hq & Hraw & HJ)]"; cbn [fst snd] in *; iApply wp_ret; cbn [fst snd].
      + subst q. iLeft. iSplit; [done|]. iSplitL; [done|by iPureIntro].
      + iRight. iSplit; [done|]. iFrame "Hraw". rewrite (proj2 (N.eqb_neq q 0)) //. iSplitL; [done|].
        iPureIntro. cbn [snd]. by rewrite Hp.
    - intros b [s l] p cs L Hd. cbn [checked a_free fst snd]. iIntros "([HJ %Hp] & Hc & HL)". cbn [fst snd] in *.
      unfold bsize in Hp. cbn [fst snd] in Hp.
      destruct (take_out_in (p, N.of_nat (length cs)) l) as (l'&->&Hl); [rewrite Hp; left|].
      rewrite Hl in Hp. apply Permutation_cons_inv in Hp.
      iApply wp_bind. iApply wp_strong_mono. iSplitL "HJ Hc HL".
      { iApply (c_free _ _ _ CA); [done|]. iFrame. }
      iIntros (s') "[HJ HL]". iApply wp_ret. iFrame "HL". iSplitL; [done|by iPureIntro].
    - intros o b s S Ho. cbn [checked a_owns] in Ho. destruct (a_owns A) as [oA|] eqn:HoA; [|done].
      injection Ho as <-. iIntros "[HJ %Hp]". by iDestruct (c_owns_in _ _ _ CA with "HJ") as %H.
    - intros o b s L q c Ho Hq. cbn [checked a_owns] in Ho. destruct (a_owns A) as [oA|] eqn:HoA; [|done].
      injection Ho as <-. iIntros "([HJ %Hp] & HL & Hc)".
      by iDestruct (c_owns_out _ _ _ CA with "[$HJ $HL $Hc]") as %H.
    - intros mx b s S Hmx Hrdy. cbn [checked a_max] in Hmx. destruct (a_max A) as [mA|] eqn:HmA; [|done].
      injection Hmx as <-. iIntros "[HJ %Hp]".
      iApply wp_strong_mono. iSplitL "HJ"; [by iApply (c_max _ _ _ CA)|].
      iIntros (v) "[$ HJ]". iSplitL; [done|by iPureIntro].
    - intros b s S Hm. cbn [checked a_max] in Hm. iIntros "[HJ %Hp]".
      iDestruct (c_bound _ _ _ CA with "HJ") as %H; [by destruct (a_max A)|done].
    - intros o c b s L q act R Ho Hin. cbn [checked a_cd] in Ho. destruct (a_cd A) as [oA|] eqn:HoA; [|done].
      injection Ho as <-. iIntros "([HJ %Hp] & HL & Hact)".
      iApply wp_bind. iApply wp_strong_mono. iSplitL "HJ HL Hact".
      { iApply (c_cd _ _ _ CA _ c b (fst s) L q act R HoA Hin). iFrame. }
      iIntros (s') "[HJ HR]". iApply wp_ret. iFrame "HR". iSplitL; [done|by iPureIntro].
  Defined.
End checked.
