(** overflow: exact reports (C24-C26). *)
From Coq Require Import ssreflect.
From Verif Require Import Base Mem Allocators Client AllocSpec AllocFacts.

(** * Guard bytes *)
Lemma rd_byte_ok a w b : mem (st w) !! a = Some (Byte b) -> rd_byte a w = Ok b w [].
Proof. intros H. unfold rd_byte, bind, rd. by rewrite H. Qed.

(** [d] is the furthest among the distances 1..m. *)
Definition upto (g : N -> N) (m d : N) : Prop :=
  d = 0 /\ (forall k, 1 <= k <= m -> g k = 165) \/
  1 <= d <= m /\ g d <> 165 /\ (forall k, d < k <= m -> g k = 165).

Lemma upto_step g m d : upto g m d ->
  upto g (m + 1) (if g (m + 1) =? 165 then d else m + 1).
Proof.
  intros H. destruct (N.eqb_spec (g (m + 1)) 165) as [E|E].
  - destruct H as [[-> H]|(H1&H2&H3)]; [left|right].
    + split; [done|]. intros k Hk. destruct (decide (k = m + 1)) as [->|]; [done|]. apply H. lia.
    + split_and!; [lia|lia|done|]. intros k Hk. destruct (decide (k = m + 1)) as [->|]; [done|]. apply H3. lia.
  - right. split_and!; [lia|lia|done|]. intros. lia.
Qed.

Lemma scan_before_exact g p w k m d : m + N.of_nat k < p ->
  (forall j, m < j <= m + N.of_nat k -> mem (st w) !! (p - j) = Some (Byte (g j))) -> upto g m d ->
  exists d', scan_before k p (p - (m + 1)) d w = Ok d' w [] /\ upto g (m + N.of_nat k) d'.
Proof.
  revert m d. induction k as [|k IH]; intros m d Hp Hg Hd; cbn [scan_before].
  - exists d. split; [done|]. by replace (m + N.of_nat 0) with m by lia.
  - unfold bind. rewrite (rd_byte_ok (p - (m + 1)) w (g (m + 1)) (Hg (m + 1) ltac:(lia))).
    replace (p - (m + 1) - 1) with (p - (m + 1 + 1)) by lia.
    replace (p - (p - (m + 1))) with (m + 1) by lia.
    destruct (IH (m + 1) (if g (m + 1) =? 165 then d else m + 1)) as (d'&H1&H2);
      [lia|intros; apply Hg; lia|by apply upto_step|].
    exists d'. unfold OVERFLOW_TEST. rewrite H1. split; [done|].
    by replace (m + N.of_nat (S k)) with (m + 1 + N.of_nat k) by lia.
Qed.

Lemma scan_after_exact g p n w k m d :
  (forall j, m < j <= m + N.of_nat k -> mem (st w) !! (p + n + j - 1) = Some (Byte (g j))) -> upto g m d ->
  exists d', scan_after k p n (p + n + m) d w = Ok d' w [] /\ upto g (m + N.of_nat k) d'.
Proof.
  revert m d. induction k as [|k IH]; intros m d Hg Hd; cbn [scan_after].
  - exists d. split; [done|]. by replace (m + N.of_nat 0) with m by lia.
  - assert (Hm : mem (st w) !! (p + n + m) = Some (Byte (g (m + 1)))).
    { replace (p + n + m) with (p + n + (m + 1) - 1) by lia. apply Hg. lia. }
    unfold bind. rewrite (rd_byte_ok _ _ _ Hm).
    replace (p + n + m + 1) with (p + n + (m + 1)) by lia.
    replace (p + n + m - p - n + 1) with (m + 1) by lia.
    destruct (IH (m + 1) (if g (m + 1) =? 165 then d else m + 1)) as (d'&H1&H2);
      [intros; apply Hg; lia|by apply upto_step|].
    exists d'. unfold OVERFLOW_TEST. rewrite H1. split; [done|].
    by replace (m + N.of_nat (S k)) with (m + 1 + N.of_nat k) by lia.
Qed.

(** C24 *)
Lemma ov_free_report A b s p n w (before after : N -> N) :
  64 < p -> p + n + 64 < W ->
  (forall k, 1 <= k <= 64 -> mem (st w) !! (p - k) = Some (Byte (before k))) ->
  (forall k, 1 <= k <= 64 -> mem (st w) !! (p + n + k - 1) = Some (Byte (after k))) ->
  exists x y, furthest before x /\ furthest after y /\
    ov_free A b s p n w =
    AllocSpec.after (if (x =? 0) && (y =? 0) then [] else [EvCorrupt p n x y])
      (bind (a_free A b (o_in s) (p - 64) (n + 128)) (fun s' =>
         ret (Ov s' (s64 (o_allocs s - Z.of_N n)) (o_cons s)))) w.
Proof.
  intros Hp Hw Hb Ha.
  destruct (scan_before_exact before p w 64 0 0) as (x&Hx1&Hx2); [lia|intros; apply Hb; lia|left; split; [done|lia]|].
  destruct (scan_after_exact after p n w 64 0 0) as (y&Hy1&Hy2); [intros; apply Ha; lia|left; split; [done|lia]|].
  exists x, y. split_and!; [exact Hx2|exact Hy2|].
  unfold ov_free. rewrite (proj2 (N.eqb_neq p 0)); [lia|]. cbn [negb ktl_assert]. rewrite bind_ret.
  rewrite sub64_small; [lia|lia|]. rewrite (add64_small p n); [lia|].
  unfold bind at 1. unfold OVERFLOW_SIZE. replace (N.to_nat 64) with 64%nat by lia.
  replace (0 + 1) with 1 in Hx1 by lia. rewrite Hx1.
  unfold bind at 1. replace (p + n + 0) with (p + n) in Hy1 by lia. rewrite Hy1.
  rewrite sub64_small; [lia|lia|]. rewrite add64_small; [lia|]. replace (n + 64 * 2) with (n + 128) by lia.
  destruct ((x =? 0) && (y =? 0)).
  - rewrite bind_ret after_nil. by destruct (bind _ _ w).
  - rewrite bind_emit. unfold AllocSpec.after. by destruct (bind _ _ w).
Qed.

(** * Counters *)
Lemma s64_mod z k : s64 (z + k * 2 ^ 64) = s64 z.
Proof. unfold s64. f_equal. replace (z + k * 2 ^ 64 + 2 ^ 63)%Z with (z + 2 ^ 63 + k * 2 ^ 64)%Z by ring. by rewrite Z.mod_add. Qed.
Lemma s64_eq z : exists k, s64 z = (z + k * 2 ^ 64)%Z.
Proof.
  unfold s64. exists (- ((z + 2 ^ 63) / 2 ^ 64))%Z.
  rewrite Z.mod_eq; [done|]. ring.
Qed.
Lemma s64_add z d : s64 (s64 z + d) = s64 (z + d).
Proof.
  destruct (s64_eq z) as [k ->]. replace (z + k * 2 ^ 64 + d)%Z with (z + d + k * 2 ^ 64)%Z by ring. apply s64_mod.
Qed.
Lemma s64_small z : (- 2 ^ 63 <= z < 2 ^ 63)%Z -> s64 z = z.
Proof. intros. unfold s64. rewrite Z.mod_small; lia. Qed.

Lemma total_delete bl i p n : bl !! i = Some (p, n) -> total bl = total (delete i bl) + n.
Proof.
  revert i. induction bl as [|x bl IH]; intros [|i] H; try done.
  - injection H as ->. cbn. lia.
  - specialize (IH i H). change (delete (S i) (x :: bl)) with (x :: delete i bl). cbn [total]. lia.
Qed.

Lemma delete_out {X} (l : list X) (i : nat) : l !! i = None -> delete i l = l.
Proof.
  revert i. induction l as [|x l IH]; intros [|i] H; try done.
  change (delete (S i) (x :: l)) with (x :: delete i l). by rewrite IH.
Qed.

Section counters.
  Context (A : alloc) (b : N).

  (** What the counters of an overflow allocator say about the program so far. *)
  Definition counted (s : ov A) (k : book) : Prop :=
    o_allocs s = s64 (Z.of_N (total (bk_blocks k) + bk_failed k)) /\ o_cons s = s64 (bk_balance k).

  Lemma ov_cd_counts c s q act w s' w' e k :
    traits_cd (overflow A) b c s q act w = Ok s' w' e -> counted s k ->
    counted s' (Book (bk_blocks k) (bk_failed k) (bk_balance k + match c with Construct => 1 | Destroy => -1 end)).
  Proof.
    intros H [H1 H2]. unfold traits_cd in H. cbn [overflow a_cd] in H. unfold ov_cd in H.
    assert (exists si, s' = Ov si (o_allocs s) (s64 match c with Construct => o_cons s + 1 | Destroy => o_cons s - 1 end)) as [si ->].
    { destruct (a_cd A); inv_bind H as a Ha Hb; apply ret_Ok in Hb as (->&_&_); by eexists. }
    split; [done|]. cbn [o_cons bk_balance]. rewrite H2.
    destruct c; [apply s64_add|]. by rewrite -Z.add_opp_r s64_add.
  Qed.

  Lemma step_counts ready o s bl w ob s' bl' w' e k : bl = bk_blocks k -> counted s k ->
    step (overflow A) b ready o s bl w = Ok (ob, (s', bl')) w' e ->
    bl' = bk_blocks (book_step k o ob) /\ counted s' (book_step k o ob).
  Proof.
    intros -> Hk. destruct o as [n|i|i off v|i off|q| |i off v|i off]; cbn [step book_step]; intros H.
    - inv_bind H as [p s1] H1 H2. inv_ret H2. cbn [overflow a_alloc] in H1. unfold ov_alloc in H1.
      inv_bind H1 as [ptr s2] H3 H4. destruct Hk as [Hk1 Hk2].
      assert (s1 = Ov s2 (s64 (o_allocs s + Z.of_N n)) (o_cons s)) as ->.
      { destruct (ptr =? 0); [by apply ret_Ok in H4 as ([= -> ->]&_&_)|].
        inv_bind H4 as u1 Ha Hb. inv_bind Hb as u2 Hc Hd. by apply ret_Ok in Hd as ([= -> ->]&_&_). }
      assert (Hs : s64 (o_allocs s + Z.of_N n) = s64 (Z.of_N (total (bk_blocks k) + bk_failed k + n))).
      { rewrite Hk1 s64_add. f_equal. lia. }
      destruct (p =? 0); (split; [done|]); split; cbn [o_allocs o_cons bk_blocks bk_failed bk_balance total fst snd]; try done;
        rewrite Hs; f_equal; f_equal; lia.
    - destruct (bk_blocks k !! i) as [[p n]|] eqn:Hi.
      + inv_bind H as a H1 H2. inv_ret H2. split; [done|]. cbn [overflow a_free] in H1. unfold ov_free in H1.
        inv_bind H1 as u1 Ha Hb. destruct Hk as [Hk1 Hk2].
        assert (exists si, a = Ov si (s64 (o_allocs s - Z.of_N n)) (o_cons s)) as [si ->].
        { destruct (p =? 0); [apply ret_Ok in Hb as (->&_&_); by eexists|].
          inv_bind Hb as ? Hc Hd. inv_bind Hd as ? He Hf. inv_bind Hf as ? Hg Hh. inv_bind Hh as si Hj Hl.
          apply ret_Ok in Hl as (->&_&_). by eexists. }
        split; [|done]. cbn [o_allocs bk_blocks bk_failed]. rewrite Hk1 -Z.add_opp_r s64_add. f_equal.
        rewrite (total_delete _ _ _ _ Hi). lia.
      + inv_ret H. by rewrite delete_out.
    - assert (s' = s /\ bl' = bk_blocks k) as [-> ->]; [|by destruct ob].
      destruct (bk_blocks k !! i) as [[p n]|]; [destruct (off <? n)|]; try inv_bind H as ? H1 H2;
        match goal with H : ret _ _ = _ |- _ => by inv_ret H end.
    - assert (s' = s /\ bl' = bk_blocks k) as [-> ->]; [|by destruct ob].
      destruct (bk_blocks k !! i) as [[p n]|]; [destruct (off <? n)|]; try inv_bind H as ? H1 H2;
        match goal with H : ret _ _ = _ |- _ => by inv_ret H end.
    - assert (s' = s /\ bl' = bk_blocks k) as [-> ->]; [|by destruct ob].
      destruct (a_owns (overflow A)); by inv_ret H.
    - assert (s' = s /\ bl' = bk_blocks k) as [-> ->]; [|by destruct ob].
      destruct (a_max (overflow A)); [destruct (ready b s)|]; try inv_bind H as ? H1 H2;
        match goal with H : ret _ _ = _ |- _ => by inv_ret H end.
    - unfold in_range. destruct (bk_blocks k !! i) as [[p n]|]; [cbn [snd]; destruct (off <? n)|].
      + inv_bind H as a H1 H2. inv_ret H2. split; [done|]. by eapply (ov_cd_counts Construct) in H1.
      + by inv_ret H.
      + by inv_ret H.
    - unfold in_range. destruct (bk_blocks k !! i) as [[p n]|]; [cbn [snd]; destruct (off <? n)|].
      + inv_bind H as a H1 H2. inv_ret H2. split; [done|]. by eapply (ov_cd_counts Destroy) in H1.
      + by inv_ret H.
      + by inv_ret H.
  Qed.

  Lemma run_counts ready ops s bl w os s' bl' w' e k : bl = bk_blocks k -> counted s k ->
    run (overflow A) b ready ops s bl w = Ok (os, (s', bl')) w' e ->
    bl' = bk_blocks (keep_book k ops os) /\ counted s' (keep_book k ops os).
  Proof.
    revert s bl w os w' e k. induction ops as [|o ops IH]; intros s bl w os w' e k Hbl Hk H; cbn [run] in H.
    - by inv_ret H.
    - inv_bind H as [ob [s1 bl1]] H0 H1. inv_bind H1 as [os2 [s2 bl2]] H2 H3. inv_ret H3.
      destruct (step_counts _ _ _ _ _ _ _ _ _ _ _ Hbl Hk H0) as [Hb1 Hk1].
      cbn [keep_book]. by eapply IH.
  Qed.

  (** C25, C26 *)
  Definition reports (k : book) : list event :=
    (if (Z.of_N (total (bk_blocks k) + bk_failed k) =? 0)%Z then []
     else [EvLeak (Z.of_N (total (bk_blocks k) + bk_failed k))]) ++
    (if (bk_balance k =? 0)%Z then [] else [EvLogic (bk_balance k)]).

  Lemma dtor_reports ready ops w0 s0 w1 e1 os s bl w2 e2 :
    a_init (overflow A) b w0 = Ok s0 w1 e1 ->
    run (overflow A) b ready ops s0 [] w1 = Ok (os, (s, bl)) w2 e2 ->
    let k := keep_book (Book [] 0 0) ops os in
    total (bk_blocks k) + bk_failed k < 2 ^ 63 -> (- 2 ^ 63 <= bk_balance k < 2 ^ 63)%Z ->
    bl = bk_blocks k /\
    forall w, a_dtor (overflow A) b s w = AllocSpec.after (reports k) (a_dtor A b (o_in s)) w.
  Proof.
    intros Hi Hr k Hk1 Hk2. cbn [overflow a_init] in Hi. inv_bind Hi as a H1 H2. apply ret_Ok in H2 as (->&->&->).
    apply (run_counts ready ops _ _ _ _ _ _ _ _ (Book [] 0 0)) in Hr as [Hb [Hc1 Hc2]]; [|done|done].
    split; [done|]. intros w. fold k in Hc1, Hc2. rewrite s64_small in Hc1; [lia|]. rewrite s64_small in Hc2; [lia|].
    cbn [overflow a_dtor]. unfold ov_dtor, reports. rewrite -Hc1 -Hc2.
    destruct (o_allocs s =? 0)%Z, (o_cons s =? 0)%Z; cbn [app].
    - by rewrite !bind_ret after_nil.
    - by rewrite bind_ret bind_emit.
    - rewrite bind_emit. unfold AllocSpec.after. rewrite bind_ret. by destruct (a_dtor A b (o_in s) w).
    - rewrite bind_emit. unfold AllocSpec.after. rewrite bind_emit. unfold AllocSpec.after.
      by destruct (a_dtor A b (o_in s) w).
  Qed.
End counters.
