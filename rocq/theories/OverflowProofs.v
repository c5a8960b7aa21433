(** overflow obeys the contract if its inner allocator does; the corruption scan is exact. *)
From iris.proofmode Require Import tactics.
From Verif Require Import Base Mem Sep Wp Allocators Contract.

Local Open Scope N_scope.

(** The greatest 1-based index (counted from [j]) of a byte that differs from the pattern. *)
Fixpoint far (bs : list N) (j acc : N) : N :=
  match bs with
  | [] => acc
  | b :: bs => far bs (j + 1) (if b =? OVERFLOW_TEST then acc else j)
  end.

Definition pat : list N := repeat OVERFLOW_TEST 64.

Lemma far_repeat k j acc : far (repeat OVERFLOW_TEST k) j acc = acc.
Proof. revert j. induction k as [|k IH]; intros j; cbn [repeat far]; [done|]. apply IH. Qed.

Lemma rev_repeat {X} (x : X) k : rev (repeat x k) = repeat x k.
Proof.
  induction k as [|k IH]; cbn [repeat rev]; [done|]. rewrite IH. clear IH.
  induction k as [|k IH]; cbn [repeat app]; [done|]. by rewrite IH.
Qed.

Lemma map_repeat {X Y} (f : X -> Y) x k : map f (repeat x k) = repeat (f x) k.
Proof. induction k; cbn; congruence. Qed.

Lemma bytes_dead bs : Forall dead (map Byte bs).
Proof. induction bs; cbn; constructor; auto. done. Qed.

Section scans.
  Context (bad : event -> bool).

  Lemma wp_rd_byte a b (Q : N -> hpropI) : a ↦ Byte b ∗ (a ↦ Byte b -∗ Q b) ⊢ wp bad (rd_byte a) Q.
  Proof.
    iIntros "[H HQ]". iApply wp_bind. iApply wp_rd. iFrame. iIntros "H". iApply wp_ret. by iApply "HQ".
  Qed.

  Lemma wp_emit_if (c : bool) e (Q : unit -> hpropI) : benign e = true ->
    Q tt ⊢ wp bad (if c then ret tt else emit e) Q.
  Proof. intros He. destruct c; [apply wp_ret|by apply wp_emit]. Qed.

  Lemma wp_scan_before bs ptr j acc (Q : N -> hpropI) :
    j + N.of_nat (length bs) <= ptr + 1 ->
    (ptr + 1 - j - N.of_nat (length bs)) ↦∗ map Byte (rev bs) ∗
    ((ptr + 1 - j - N.of_nat (length bs)) ↦∗ map Byte (rev bs) -∗ Q (far bs j acc))
    ⊢ wp bad (scan_before (length bs) ptr (ptr - j) acc) Q.
  Proof.
    revert j acc Q. induction bs as [|b bs IH]; intros j acc Q Hj; cbn [length scan_before far rev].
    - iIntros "[H HQ]". iApply wp_ret. by iApply "HQ".
    - cbn [length] in Hj. rewrite map_app pts_app map_length rev_length.
      replace (ptr + 1 - j - N.of_nat (S (length bs)) + N.of_nat (length bs)) with (ptr - j) by lia.
      iIntros "[[H1 [H2 H3]] HQ]". iApply wp_bind. iApply wp_rd_byte. iFrame. iIntros "H2".
      replace (ptr - j - 1) with (ptr - (j + 1)) by lia.
      replace (ptr - (ptr - j)) with j by lia.
      iApply IH; [lia|].
      replace (ptr + 1 - (j + 1) - N.of_nat (length bs)) with (ptr + 1 - j - N.of_nat (S (length bs))) by lia.
      iFrame. iIntros "H1". iApply "HQ". iFrame.
  Qed.

  Lemma wp_scan_after bs ptr n j acc (Q : N -> hpropI) : 1 <= j ->
    (ptr + n + j - 1) ↦∗ map Byte bs ∗
    ((ptr + n + j - 1) ↦∗ map Byte bs -∗ Q (far bs j acc))
    ⊢ wp bad (scan_after (length bs) ptr n (ptr + n + j - 1) acc) Q.
  Proof.
    revert j acc Q. induction bs as [|b bs IH]; intros j acc Q Hj; cbn [length scan_after far].
    - iIntros "[H HQ]". iApply wp_ret. by iApply "HQ".
    - iIntros "[[H1 H2] HQ]". iApply wp_bind. iApply wp_rd_byte. iFrame. iIntros "H1".
      replace (ptr + n + j - 1 + 1) with (ptr + n + (j + 1) - 1) by lia.
      replace (ptr + n + j - 1 - ptr - n + 1) with j by lia.
      iApply IH; [lia|]. iFrame "H2". iIntros "H2". iApply "HQ". rewrite List.map_cons pts_cons.
      replace (ptr + n + j - 1 + 1) with (ptr + n + (j + 1) - 1) by lia. iFrame.
  Qed.
End scans.

Section overflow.
  Context {bad : event -> bool} {A : alloc} {req : N -> bool}.
  Context (CA : contract bad A req).

  Definition gbytes (bs : list N) (a : N) : hpropI := a ↦∗ map Byte bs.

  (** The gbytes bytes around the outstanding blocks. *)
  Definition guards (S : list (N * N)) : hpropI :=
    [∗ list] x ∈ S, gbytes pat (fst x - 64) ∗ gbytes pat (fst x + snd x).

  Definition widen (x : N * N) : N * N := (fst x - 64, snd x + 128).

  Definition ov_J (b : N) (s : ov A) (S : list (N * N)) : hpropI :=
    J CA b (o_in s) (map widen S) ∗ guards S ∗ ⌈Forall (fun x => 64 < fst x) S⌉.

  Lemma guards_cons x S : guards (x :: S) ⊣⊢ (gbytes pat (fst x - 64) ∗ gbytes pat (fst x + snd x)) ∗ guards S.
  Proof. done. Qed.

  Lemma guards_open L : Forall (fun x => 64 < fst x) (shape L) -> blocks L ∗ guards (shape L) ⊢
    ∃ L', ⌈shape L' = map widen (shape L)⌉ ∗ blocks L' ∗ (blocks L' -∗ blocks L ∗ guards (shape L)).
  Proof.
    induction L as [|[p cs] L IH]; intros Hr.
    - iIntros "[H1 H2]". iExists []. iSplit; [done|]. iFrame. iIntros "$".
    - rewrite shape_cons in Hr. apply Forall_cons_iff in Hr as [Hr0 Hr].
      cbn [bsize fst snd] in Hr0. rewrite shape_cons.
      iIntros "[[Hc HL] [[Hg1 Hg2] HS]]". cbn [bsize fst snd].
      iDestruct (IH Hr with "[$HL $HS]") as (L') "(%HL & HL & Hback)".
      iExists ((p - 64, map Byte pat ++ cs ++ map Byte pat) :: L'). iSplit.
      { iPureIntro. rewrite shape_cons HL List.map_cons. unfold bsize, widen. cbn [fst snd].
        rewrite !app_length map_length. change (length pat) with 64%nat. do 2 f_equal. lia. }
      rewrite !blocks_cons !guards_cons !pts_app !map_length. change (N.of_nat (length pat)) with 64.
      cbn [bsize fst snd]. unfold gbytes.
      replace (p - 64 + 64) with p by lia. iFrame. iIntros "[($ & $ & $) HL]".
      by iApply "Hback".
  Qed.

  Lemma ov_good b s S : ov_J b s S ⊢ ⌜Forall good S⌝.
  Proof.
    iIntros "(HJ & Hg & %H64)". iDestruct (c_good _ _ _ CA with "HJ") as %Hg. iPureIntro.
    rewrite List.Forall_forall in Hg. rewrite List.Forall_forall in H64. rewrite List.Forall_forall.
    intros [p n] Hin. specialize (H64 _ Hin). specialize (Hg (widen (p, n))).
    unfold good, widen in *. cbn [fst snd] in *.
    destruct Hg as (?&?&?); [apply in_map_iff; by exists (p, n)|]. repeat split; lia.
  Qed.

  Lemma ov_alloc_spec b s S n : (n + 128 <? W) && req (n + 128) = true -> n < W ->
    ov_J b s S ⊢ wp bad (ov_alloc A b s n) (fun ps =>
      ⌈fst ps = 0⌉ ∗ ov_J b (snd ps) S ∨
      ⌈fst ps <> 0⌉ ∗ raw (fst ps) n ∗ ov_J b (snd ps) ((fst ps, n) :: S)).
  Proof.
    intros [HW Hreq]%andb_true_iff Hn. apply N.ltb_lt in HW. unfold ov_alloc.
    change (OVERFLOW_SIZE * 2) with 128. change OVERFLOW_SIZE with 64. rewrite (add64_small n 128) //.
    iIntros "(HJ & Hg & %H64)".
    iApply wp_bind. iApply wp_strong_mono. iSplitL "HJ"; [by iApply (c_alloc _ _ _ CA)|].
    iIntros ([q s']) "[[%Hq HJ]|(%Hq & Hraw & HJ)]"; cbn [fst snd] in *.
    - rewrite Hq. cbn [N.eqb]. iApply wp_ret. cbn [fst snd]. iLeft. iSplit; [done|]. by iFrame.
    - rewrite (proj2 (N.eqb_neq _ _) Hq).
      iDestruct (c_good _ _ _ CA with "HJ") as %Hg. apply Forall_cons_iff in Hg as [(Hg1&Hg2&Hg3) _].
      cbn [fst snd] in *.
      rewrite (add64_small q 64); [|lia]. rewrite (add64_small (q + 64) n); [|lia].
      rewrite (raw_split q (n + 128) 64); [|lia]. iDestruct "Hraw" as "[Hr1 Hraw]".
      replace (n + 128 - 64) with (n + 64) by lia.
      rewrite (raw_split (q + 64) (n + 64) n); [|lia]. iDestruct "Hraw" as "[Hr2 Hr3]".
      replace (n + 64 - n) with 64 by lia.
      iDestruct "Hr1" as (c1) "[(%Hl1 & %Hd1) H1]". iDestruct "Hr3" as (c3) "[(%Hl3 & %Hd3) H3]".
      iApply wp_bind. iApply (wp_memset _ _ _ _ c1); [done|]. iFrame "H1". iIntros "H1".
      iApply wp_bind. iApply (wp_memset _ _ _ _ c3); [done|]. iFrame "H3". iIntros "H3".
      iApply wp_ret. cbn [fst snd]. iRight. iSplit; [iPureIntro; lia|]. iFrame "Hr2".
      unfold ov_J. rewrite guards_cons List.map_cons. unfold gbytes, pat. cbn [fst snd o_in].
      replace (widen (q + 64, n)) with (q, n + 128) by (unfold widen; cbn [fst snd]; f_equal; lia).
      rewrite map_repeat. replace (q + 64 - 64) with q by lia.
      change (N.to_nat 64) with 64%nat. iFrame. iPureIntro. apply Forall_cons_iff. split; [|done].
      cbn [fst]. lia.
  Qed.

  Lemma ov_free_spec b s p cs L : Forall dead cs ->
    ov_J b s (bsize (p, cs) :: shape L) ∗ p ↦∗ cs ∗ blocks L
    ⊢ wp bad (ov_free A b s p (N.of_nat (length cs))) (fun s' => ov_J b s' (shape L) ∗ blocks L).
  Proof.
    iIntros (Hd) "(HJ & Hp & HL)". iDestruct (ov_good with "HJ") as %Hg.
    apply Forall_cons_iff in Hg as [(Hg1&_&Hg3) _]. cbn [bsize fst snd] in *.
    iDestruct "HJ" as "(HJ & Hgs & %H64)". apply Forall_cons_iff in H64 as [H0 H64].
    cbn [bsize fst snd] in H0.
    rewrite guards_cons. iDestruct "Hgs" as "[[Hb Ha] Hgs]". cbn [bsize fst snd].
    iDestruct (c_good _ _ _ CA with "HJ") as %HgA. rewrite List.map_cons in HgA.
    apply Forall_cons_iff in HgA as [(_&_&HgA) _]. unfold widen in HgA. cbn [bsize fst snd] in HgA.
    unfold ov_free. change (OVERFLOW_SIZE * 2) with 128. change (N.to_nat OVERFLOW_SIZE) with (length pat).
    rewrite (proj2 (N.eqb_neq _ _) Hg1). cbn [negb].
    iApply wp_bind. iApply wp_assert; [done|].
    iApply wp_bind. rewrite sub64_small; [|lia..]. iApply wp_scan_before; [change (length pat) with 64%nat; lia|].
    change (N.of_nat (length pat)) with 64. replace (p + 1 - 1 - 64) with (p - 64) by lia.
    change (rev pat) with pat. iFrame "Hb". iIntros "Hb".
    iApply wp_bind. rewrite (add64_small p); [|lia].
    rewrite -(N.add_sub (p + N.of_nat (length cs)) 1).
    iApply wp_scan_after; [done|]. rewrite N.add_sub. iFrame "Ha". iIntros "Ha".
    unfold pat at 1 2. rewrite !far_repeat. cbn [N.eqb andb].
    iApply wp_bind. iApply wp_ret.
    change OVERFLOW_SIZE with 64. rewrite sub64_small; [|lia..]. rewrite add64_small; [|lia].
    iDestruct (guards_open with "[$HL $Hgs]") as (L') "(%HL & HL & Hback)"; [done|].
    iApply wp_bind. iApply wp_strong_mono. iSplitL "HJ Hb Hp Ha HL".
    { iPoseProof (c_free _ _ _ CA b (o_in s) (p - 64) (map Byte pat ++ cs ++ map Byte pat) L') as "H".
      { rewrite !Forall_app. split_and!; [apply bytes_dead|done|apply bytes_dead]. }
      replace (N.of_nat (length (map Byte pat ++ cs ++ map Byte pat))) with (N.of_nat (length cs) + 128).
      2:{ rewrite !app_length map_length. change (length pat) with 64%nat. lia. }
      iApply "H". rewrite !pts_app !map_length. change (N.of_nat (length pat)) with 64.
      replace (p - 64 + 64) with p by lia. iFrame.
      replace (bsize (p - 64, map Byte pat ++ cs ++ map Byte pat)) with (widen (bsize (p, cs))).
      { rewrite HL. done. }
      unfold bsize, widen. cbn [fst snd]. rewrite !app_length map_length. change (length pat) with 64%nat.
      f_equal. lia. }
    iIntros (s') "[HJ HL]". iApply wp_ret. iDestruct ("Hback" with "HL") as "[$ $]".
    cbn [o_in]. rewrite HL. by iFrame.
  Qed.

  Definition ov_req (n : N) : bool := (n + 128 <? W) && req (n + 128).

  Definition overflow_contract : contract bad (overflow A) ov_req.
  Proof.
    refine (Contract bad (overflow A) ov_req ov_J (mv CA) (fun b s => rdy CA b (o_in s))
              _ _ _ _ _ _ _ _ _ _ _ _).
    - exact (c_size _ _ _ CA).
    - iIntros (b s S S' HS) "(HJ & Hg & %H64)". unfold ov_J.
      rewrite (c_perm _ _ _ CA b _ (map widen S) (map widen S')); [|by rewrite HS].
      unfold guards. rewrite {1}HS. iFrame. iPureIntro. by rewrite -HS.
    - apply ov_good.
    - intros b H1 H2 H3. cbn [overflow a_init a_size]. iIntros "H". iApply wp_bind. iApply wp_strong_mono.
      iSplitL; [by iApply (c_init _ _ _ CA)|]. iIntros (s) "HJ". iApply wp_ret. unfold ov_J, guards.
      cbn [o_in]. rewrite big_sepL_nil. iFrame. by iSplit.
    - intros b s. cbn [overflow a_dtor a_size]. unfold ov_dtor, ov_J, guards. rewrite big_sepL_nil.
      iIntros "(HJ & _ & _)". iApply wp_bind.
      iApply wp_emit_if; [done|]. iApply wp_bind. iApply wp_emit_if; [done|]. by iApply (c_dtor _ _ _ CA).
    - apply ov_alloc_spec.
    - apply ov_free_spec.
    - intros o b s S Ho. cbn [overflow a_owns] in Ho. destruct (a_owns A) as [oA|] eqn:HoA; [|done].
      injection Ho as <-. iIntros "(HJ & Hg & %H64)".
      iDestruct (c_owns_in _ _ _ CA with "HJ") as %HO; [done|]. iPureIntro. intros p n q Hin Hq.
      rewrite List.Forall_forall in H64. specialize (H64 (p, n)). rewrite -elem_of_list_In in H64.
      specialize (H64 Hin). cbn [fst] in H64.
      apply (HO (p - 64) (n + 128)); [|lia]. apply elem_of_list_fmap. by exists (p, n).
    - intros o b s L q c Ho Hq. cbn [overflow a_owns] in Ho. destruct (a_owns A) as [oA|] eqn:HoA; [|done].
      injection Ho as <-. iIntros "((HJ & Hg & %H64) & HL & Hc)".
      iDestruct (guards_open with "[$HL $Hg]") as (L') "(%HL & HL & _)"; [done|]. rewrite -HL.
      by iApply (c_owns_out _ _ _ CA with "[$HJ $HL $Hc]").
    - intros mx b s S Hmx Hrdy. cbn [overflow a_max] in Hmx. destruct (a_max A) as [mA|] eqn:HmA; [|done].
      injection Hmx as <-. iIntros "(HJ & Hg & %H64)".
      iApply wp_strong_mono. iSplitL "HJ"; [by iApply (c_max _ _ _ CA)|].
      iIntros (v) "[$ HJ]". by iFrame.
    - intros b s S Hm. cbn [overflow a_max] in Hm. iIntros "(HJ & Hg & %H64)".
      iDestruct (c_bound _ _ _ CA with "HJ") as %HB; [by destruct (a_max A)|]. iPureIntro.
      rewrite List.Forall_forall in HB. rewrite List.Forall_forall. intros [p n] Hin.
      specialize (HB (widen (p, n))). unfold widen in HB. cbn [fst snd] in *.
      enough (n + 128 <= mv CA) by lia. apply HB. apply in_map_iff. by exists (p, n).
    - intros o c b s L q act R Ho Hin. cbn [overflow a_cd] in Ho. injection Ho as <-.
      unfold ov_cd. iIntros "((HJ & Hg & %H64) & HL & Hact)". destruct (a_cd A) as [oA|] eqn:HoA.
      + iDestruct (guards_open with "[$HL $Hg]") as (L') "(%HL & HL & Hback)"; [done|]. rewrite -HL.
        iApply wp_bind. iApply wp_strong_mono. iSplitL.
        { iApply (c_cd _ _ _ CA _ c b (o_in s) L' q act (fun _ => R tt ∗ guards (shape L)) HoA)%I.
          - destruct Hin as (p&n&Hp&Hq). exists (p - 64), (n + 128). split.
            + rewrite HL. apply elem_of_list_fmap. by exists (p, n).
            + rewrite List.Forall_forall in H64. specialize (H64 (p, n)). rewrite -elem_of_list_In in H64.
              specialize (H64 Hp). cbn [fst snd] in H64. lia.
          - iFrame. iIntros "HL". iDestruct ("Hback" with "HL") as "[HL Hg]".
            iApply wp_strong_mono. iSplitL "HL Hact"; [by iApply "Hact"|].
            iIntros ([]) "$". iFrame. }
        iIntros (s') "[HJ [HR Hg]]". iApply wp_ret. unfold ov_J. cbn [o_in]. rewrite HL. by iFrame.
      + iApply wp_bind. iApply wp_strong_mono. iSplitL "HL Hact"; [by iApply "Hact"|].
        iIntros ([]) "HR". iApply wp_ret. unfold ov_J. cbn [o_in]. by iFrame.
  Defined.
End overflow.
