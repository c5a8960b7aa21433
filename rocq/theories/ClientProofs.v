(** Programs using an allocator that obeys the contract observe what [check] allows. *)
From iris.proofmode Require Import tactics.
From Verif Require Import Base Mem Sep Wp Bits AlignedMalloc Allocators Contract Adequacy Client.

Local Open Scope N_scope.

Definition cmatch (c : cell) (e : option N) : Prop :=
  dead c /\ match e with Some v => c = Byte v | None => True end.
Definition bmatch (x : blk) (y : ablk) : Prop := fst x = fst y /\ Forall2 cmatch (snd x) (snd y).
Definition abs : list blk -> list ablk -> Prop := Forall2 bmatch.

Lemma alter_insert {X} (f : X -> X) (l : list X) i x : l !! i = Some x -> alter f i l = <[i := f x]> l.
Proof. revert i. induction l as [|y l IH]; intros [|i]; cbn; intros H; [done..|congruence|]. f_equal. by apply IH. Qed.

Lemma shape_lookup L i p n : shape L !! i = Some (p, n) ->
  exists cs, L !! i = Some (p, cs) /\ N.of_nat (length cs) = n.
Proof.
  unfold shape. rewrite list_lookup_fmap. destruct (L !! i) as [[p' cs]|]; cbn; [|done].
  intros [= <- <-]. by exists cs.
Qed.
Lemma shape_lookup_None L i : shape L !! i = None -> L !! i = None.
Proof. unfold shape. rewrite list_lookup_fmap. by destruct (L !! i). Qed.
Lemma shape_delete L i : shape (delete i L) = delete i (shape L).
Proof. revert i. induction L as [|x L IH]; intros [|i]; [done..|].
  change (bsize x :: shape (delete i L) = bsize x :: delete i (shape L)). by rewrite IH. Qed.

Lemma abs_lookup L bl i p cs : abs L bl -> L !! i = Some (p, cs) ->
  exists vs, bl !! i = Some (p, vs) /\ Forall2 cmatch cs vs.
Proof.
  intros HA HL. destruct (Forall2_lookup_l _ _ _ _ _ HA HL) as ([p' vs]&Hbl&[Hp Hc]).
  cbn in Hp, Hc. subst p'. by exists vs.
Qed.
Lemma abs_lookup_None L bl i : abs L bl -> L !! i = None -> bl !! i = None.
Proof.
  intros HA HL. apply lookup_ge_None. apply lookup_ge_None in HL. by rewrite -(Forall2_length _ _ _ HA).
Qed.
Lemma cmatch_dead cs vs : Forall2 cmatch cs vs -> Forall dead cs.
Proof. induction 1 as [|c e cs vs [H _]]; constructor; auto. Qed.
Lemma abs_delete L bl i : abs L bl -> abs (delete i L) (delete i bl).
Proof. apply Forall2_delete. Qed.

Lemma raw_none p cs : Forall dead cs -> bmatch (p, cs) (p, repeat None (length cs)).
Proof. intros H. split; [done|]. cbn [snd]. induction H; cbn; constructor; auto. done. Qed.

Section client.
  Context {bad : event -> bool} {A : alloc} {req : N -> bool}.
  Context (CA : contract bad A req) (b : N) (ready : N -> a_st A -> bool).
  Context (Hready : a_max A <> None -> forall b s, ready b s = true -> rdy CA b s = true).
  Context (mF : gmap N cell) (HmF : mF !! 0 = None).

  Definition F (q : N) : Prop := is_Some (mF !! q).

  Definition op_ok (o : op) : Prop := match o with OAlloc n => req n = true /\ n < W | _ => True end.

  Lemma own_pts_disj p cs : own mF ∗ p ↦∗ cs ⊢ ⌜forall q, p <= q < p + N.of_nat (length cs) -> ~ F q⌝.
  Proof.
    iIntros "[H Hp]". iDestruct (own_put with "[$H $Hp]") as "[%Hn _]". iPureIntro.
    intros q Hq [c Hc]. rewrite (Hn q Hq) in Hc. done.
  Qed.

  Lemma blocks_pts_disj L p cs : blocks L ∗ p ↦∗ cs ⊢
    ⌜forall q, p <= q < p + N.of_nat (length cs) -> Forall (fun x : blk => ~ (fst x <= q < fst x + N.of_nat (length (snd x)))) L⌝.
  Proof.
    induction L as [|[p' cs'] L IH]; [iIntros "_"; iPureIntro; intros; constructor|].
    rewrite blocks_cons. iIntros "[[H1 HL] Hp]". iDestruct (IH with "[$HL $Hp]") as %H.
    iDestruct (pts_disj with "[$H1 $Hp]") as %Hd. iPureIntro. intros q Hq. constructor; [|by apply H].
    cbn [fst snd]. destruct Hd as [->|[->|Hd]]; cbn [length] in *; lia.
  Qed.

  Lemma abs_in_block L bl q : abs L bl ->
    Forall (fun x : blk => ~ (fst x <= q < fst x + N.of_nat (length (snd x)))) L ->
    Forall (fun x => ~ in_block q x) bl.
  Proof.
    induction 1 as [|[p cs] [p' vs] L bl [Hp Hc] HA IH]; intros H; [constructor|].
    apply Forall_cons_iff in H as [H0 H]. constructor; [|by apply IH].
    cbn in Hp, Hc. subst p'. unfold in_block. cbn [fst snd] in *. by rewrite -(Forall2_length _ _ _ Hc).
  Qed.

  Lemma abs_exists L bl q : abs L bl -> Exists (in_block q) bl ->
    exists p n, (p, n) ∈ shape L /\ p <= q < p + n.
  Proof.
    induction 1 as [|[p cs] [p' vs] L bl [Hp Hc] HA IH]; intros H; inversion H as [?? H'|?? H']; subst.
    - cbn in Hp, Hc. subst p'. unfold in_block in H'. cbn [fst snd] in *. rewrite -(Forall2_length _ _ _ Hc) in H'.
      exists p, (N.of_nat (length cs)). split; [|done]. rewrite shape_cons. left.
    - destruct (IH H') as (p0&n&Hin&Hq). exists p0, n. split; [|done]. rewrite shape_cons. by right.
  Qed.

  Lemma abs_write L bl i p cs off v : abs L bl -> L !! i = Some (p, cs) ->
    abs (<[i := (p, <[off := Byte v]> cs)]> L)
        (alter (fun x => (fst x, <[off := Some v]> (snd x))) i bl).
  Proof.
    intros HA HL. destruct (abs_lookup _ _ _ _ _ HA HL) as (vs&Hbl&Hc).
    rewrite (alter_insert _ _ _ _ Hbl). apply Forall2_insert; [done|]. split; [done|]. cbn [fst snd].
    apply Forall2_insert; [done|]. by split.
  Qed.

  Lemma shape_write L i p cs off c : L !! i = Some (p, cs) -> shape (<[i := (p, <[off := c]> cs)]> L) = shape L.
  Proof.
    intros HL. apply list_eq. intros j. unfold shape. rewrite !list_lookup_fmap.
    destruct (decide (i = j)) as [->|].
    - rewrite list_lookup_insert; [|by eapply lookup_lt_Some]. rewrite HL. cbn.
      unfold bsize. cbn [fst snd]. by rewrite insert_length.
    - by rewrite list_lookup_insert_ne.
  Qed.

  Lemma blocks_acc L i p cs : L !! i = Some (p, cs) ->
    blocks L ⊢ p ↦∗ cs ∗ (∀ cs', p ↦∗ cs' -∗ blocks (<[i := (p, cs')]> L)).
  Proof.
    intros HL. iIntros "H". unfold blocks. iDestruct (big_sepL_insert_acc _ _ _ _ HL with "H") as "[$ H]".
    iIntros (cs') "Hc". by iApply ("H" $! (p, cs')).
  Qed.

  Lemma blocks_byte L i p cs off : L !! i = Some (p, cs) -> off < N.of_nat (length cs) ->
    blocks L ⊢ ∃ c, ⌈cs !! N.to_nat off = Some c⌉ ∗ (p + off) ↦ c ∗
      (∀ c', (p + off) ↦ c' -∗ blocks (<[i := (p, <[N.to_nat off := c']> cs)]> L)).
  Proof.
    intros HL Hoff. rewrite (blocks_acc L i p cs HL). iIntros "[Hc Hback]".
    iDestruct (pts_take_ne p cs (p + off) with "[$Hc]") as (c) "(%Hc & Hx & Hx')"; [iPureIntro; lia|].
    replace (p + off - p) with off in * by lia. iExists c. iFrame "Hx". iSplit; [done|].
    iIntros (c') "Hx". iApply "Hback". by iApply "Hx'".
  Qed.

  Lemma insert_same (L : list blk) (i : nat) p cs (off : nat) c : L !! i = Some (p, cs) -> cs !! off = Some c ->
    <[i := (p, <[off := c]> cs)]> L = L.
  Proof. intros HL Hc. rewrite (list_insert_id cs) // list_insert_id //. Qed.

  Definition owo : bool := if a_owns A then true else false.
  Definition mvo : option N := match a_max A with Some _ => Some (mv CA) | None => None end.

  Definition fin (o : op) (bl : list ablk) (r : obs * (a_st A * list (N * N))) : hpropI :=
    ∃ L' bl', ⌈check_step F owo mvo o (fst r) bl bl' /\ abs L' bl' /\ snd (snd r) = shape L'⌉ ∗
      J CA b (fst (snd r)) (shape L') ∗ blocks L' ∗ own mF.

  Lemma fin_intro o bl ob s L' bl' : check_step F owo mvo o ob bl bl' -> abs L' bl' ->
    J CA b s (shape L') ∗ blocks L' ∗ own mF ⊢ fin o bl (ob, (s, shape L')).
  Proof. iIntros (??) "H". iExists L', bl'. by iFrame. Qed.

  Lemma alter_none bl i f : bl !! i = None -> alter f i bl = (bl : list ablk).
  Proof. revert i. induction bl as [|y l IH]; intros [|i]; cbn; intros H; [done..|]. f_equal. by apply IH. Qed.

  Lemma delete_none (bl : list ablk) i : bl !! i = None -> delete i bl = bl.
  Proof. revert i. induction bl as [|y l IH]; intros [|i]; cbn; intros H; [done..|]. f_equal. by apply IH. Qed.

  Lemma alter_out (bl : list ablk) (i : nat) p vs (off : nat) (v : N) : bl !! i = Some (p, vs) -> (length vs <= off)%nat ->
    alter (fun x : ablk => (fst x, <[off := Some v]> (snd x))) i bl = bl.
  Proof.
    intros Hbl Hoff. rewrite (alter_insert _ _ _ _ Hbl). cbn [fst snd]. rewrite (list_insert_ge vs) //. by apply list_insert_id.
  Qed.

  (** construct/destroy in an outstanding block *)
  Lemma traits_cd_spec c s L q act (R : unit -> hpropI) :
    (exists p n, (p, n) ∈ shape L /\ p <= q < p + n) ->
    J CA b s (shape L) ∗ blocks L ∗ (blocks L -∗ wp bad act R)
    ⊢ wp bad (traits_cd A b c s q act) (fun s' => J CA b s' (shape L) ∗ R tt).
  Proof.
    intros Hin. unfold traits_cd. destruct (a_cd A) as [o|] eqn:Ho.
    - by apply (c_cd _ _ _ CA).
    - iIntros "(HJ & HL & Hact)". iApply wp_bind. iApply wp_strong_mono. iSplitL "HL Hact"; [by iApply "Hact"|].
      iIntros ([]) "HR". iApply wp_ret. iFrame.
  Qed.

  Lemma step_spec o s L bl : op_ok o -> abs L bl ->
    J CA b s (shape L) ∗ blocks L ∗ own mF ⊢ wp bad (step A b ready o s (shape L)) (fin o bl).
  Proof.
    intros Hok HA. destruct o as [n|i|i off v|i off|q| |i off v|i off]; cbn [step op_ok] in *.
    - destruct Hok as [Hr Hn]. iIntros "(HJ & HL & HF)". iApply wp_bind. iApply wp_strong_mono.
      iSplitL "HJ"; [by iApply (c_alloc _ _ _ CA)|].
      iIntros ([p s']) "[[%Hq HJ]|(%Hq & Hraw & HJ)]"; cbn [fst snd] in *; iApply wp_ret.
      + rewrite Hq. cbn [N.eqb]. iApply (fin_intro _ _ _ _ L bl); [|done|iFrame].
        exists 0. auto.
      + rewrite (proj2 (N.eqb_neq _ _) Hq).
        iDestruct "Hraw" as (cs) "[(%Hl & %Hd) Hc]".
        iDestruct (c_good _ _ _ CA with "HJ") as %Hg. apply Forall_cons_iff in Hg as [(_&Hg1&Hg2) _].
        cbn [fst snd] in *.
        iAssert ⌜forall v, mvo = Some v -> n <= v⌝%I with "[HJ]" as %Hmv.
        { unfold mvo. destruct (a_max A) as [mx|] eqn:Hmx; [|by iPureIntro].
          iDestruct (c_bound _ _ _ CA with "HJ") as %HB; [by rewrite Hmx|]. iPureIntro. intros v [= <-].
          by apply Forall_cons_iff in HB as [HB _]. }
        iDestruct (own_pts_disj with "[$HF $Hc]") as %HdF.
        iDestruct (blocks_pts_disj with "[$HL $Hc]") as %HdL. subst n.
        replace ((p, N.of_nat (length cs)) :: shape L) with (shape ((p, cs) :: L)) by done.
        iApply (fin_intro _ _ _ _ ((p, cs) :: L) ((p, repeat None (length cs)) :: bl)).
        * exists p. split; [done|]. right. split_and!; [done..| |by rewrite Nat2N.id].
          intros q Hq'. split; [by apply HdF|]. eapply abs_in_block; [done|]. by apply HdL.
        * constructor; [by apply raw_none|done].
        * rewrite blocks_cons. iFrame.
    - destruct (shape L !! i) as [[p n]|] eqn:Hi.
      + apply shape_lookup in Hi as (cs&Hi&<-). destruct (abs_lookup _ _ _ _ _ HA Hi) as (vs&Hbl&Hc).
        assert (HP := delete_Permutation _ _ _ Hi).
        iIntros "(HJ & HL & HF)". iEval (rewrite (blocks_perm _ _ HP) blocks_cons) in "HL". iDestruct "HL" as "[Hc HL]".
        rewrite (c_perm _ _ _ CA _ _ _ _ (shape_perm _ _ HP)) shape_cons.
        iApply wp_bind. iApply wp_strong_mono. iSplitL "HJ HL Hc".
        { iApply (c_free _ _ _ CA); [by eapply cmatch_dead|]. iFrame. }
        iIntros (s') "[HJ HL]". iApply wp_ret. rewrite -shape_delete.
        iApply (fin_intro _ _ _ _ (delete i L) (delete i bl)); [done|by apply abs_delete|iFrame].
      + apply shape_lookup_None in Hi. assert (Hbl := abs_lookup_None _ _ _ HA Hi).
        iIntros "H". iApply wp_ret. iApply (fin_intro _ _ _ _ L bl); [|done|iFrame].
        split; [done|]. by rewrite delete_none.
    - destruct (shape L !! i) as [[p n]|] eqn:Hi.
      + apply shape_lookup in Hi as (cs&Hi&<-). destruct (abs_lookup _ _ _ _ _ HA Hi) as (vs&Hbl&Hc).
        destruct (N.ltb_spec off (N.of_nat (length cs))) as [Hoff|Hoff].
        * iIntros "(HJ & HL & HF)". iDestruct (blocks_byte _ _ _ _ _ Hi Hoff with "HL") as (c) "(%Hoc & Hx & Hback)".
          iApply wp_bind. iApply wp_wr. iFrame "Hx". iIntros "Hx". iApply wp_ret.
          rewrite -(shape_write L i p cs (N.to_nat off) (Byte v) Hi).
          iApply fin_intro; [|exact (abs_write _ _ _ _ _ (N.to_nat off) v HA Hi)|]; [done|].
          iFrame. by iApply "Hback".
        * iIntros "H". iApply wp_ret. iApply (fin_intro _ _ _ _ L bl); [|done|iFrame].
          split; [done|]. rewrite (alter_out bl i p vs) //. rewrite -(Forall2_length _ _ _ Hc). lia.
      + apply shape_lookup_None in Hi. assert (Hbl := abs_lookup_None _ _ _ HA Hi).
        iIntros "H". iApply wp_ret. iApply (fin_intro _ _ _ _ L bl); [|done|iFrame].
        split; [done|]. by rewrite alter_none.
    - destruct (shape L !! i) as [[p n]|] eqn:Hi.
      + apply shape_lookup in Hi as (cs&Hi&<-). destruct (abs_lookup _ _ _ _ _ HA Hi) as (vs&Hbl&Hc).
        destruct (N.ltb_spec off (N.of_nat (length cs))) as [Hoff|Hoff].
        * iIntros "(HJ & HL & HF)". iDestruct (blocks_byte _ _ _ _ _ Hi Hoff with "HL") as (c) "(%Hoc & Hx & Hback)".
          iApply wp_bind. iApply wp_rd. iFrame "Hx". iIntros "Hx". iApply wp_ret.
          iDestruct ("Hback" with "Hx") as "HL". rewrite insert_same //.
          iApply (fin_intro _ _ _ _ L bl); [|done|iFrame]. split; [done|].
          intros p' vs' v. rewrite Hbl. intros [= <- <-] Hv.
          destruct (Forall2_lookup_l _ _ _ _ _ Hc Hoc) as (e&He&[_ Hm]). rewrite Hv in He. injection He as <-.
          by rewrite Hm.
        * iIntros "H". iApply wp_ret. iApply (fin_intro _ _ _ _ L bl); [|done|iFrame].
          split; [done|]. intros p' vs' v. rewrite Hbl. intros [= <- <-] Hv. apply lookup_lt_Some in Hv.
          rewrite -(Forall2_length _ _ _ Hc) in Hv. lia.
      + apply shape_lookup_None in Hi. assert (Hbl := abs_lookup_None _ _ _ HA Hi).
        iIntros "H". iApply wp_ret. iApply (fin_intro _ _ _ _ L bl); [|done|iFrame].
        split; [done|]. intros p' vs' v. by rewrite Hbl.
    - destruct (a_owns A) as [o|] eqn:Ho.
      + iIntros "(HJ & HL & HF)". iApply wp_ret. 
        iDestruct (c_owns_in _ _ _ CA with "HJ") as %Hin; [done|].
        iAssert ⌜F q -> o b s q = false⌝%I with "[HJ HL HF]" as %Hout.
        { iIntros ([c Hc]). assert (q <> 0) by (intros ->; congruence).
          rewrite (own_take mF q 1).
          2:{ intros j Hj. replace j with q by lia. by exists c. }
          iDestruct "HF" as "[Hq _]". cbn [cells]. rewrite pts_cons. iDestruct "Hq" as "[Hq _]".
          by iApply (c_owns_out _ _ _ CA with "[$HJ $HL $Hq]"). }
        iApply (fin_intro _ _ _ _ L bl); [|done|iFrame]. split; [done|]. unfold owo. rewrite Ho. eexists. split; [done|]. split; [|done].
        intros HE. destruct (abs_exists _ _ _ HA HE) as (p&n&Hpn&Hq). by apply (Hin p n).
      + iIntros "H". iApply wp_ret. iApply (fin_intro _ _ _ _ L bl); [|done|iFrame].
        split; [done|]. unfold owo. by rewrite Ho.
    - destruct (a_max A) as [mx|] eqn:Hmx; [destruct (ready b s) eqn:Hrd|].
      + iIntros "(HJ & HL & HF)". iApply wp_bind. iApply wp_strong_mono. iSplitL "HJ".
        { iApply (c_max _ _ _ CA with "HJ"); [done|]. by apply Hready. }
        iIntros (v) "[%Hv HJ]". iApply wp_ret. iApply (fin_intro _ _ _ _ L bl); [|done|iFrame].
        split; [done|]. intros v' [= <-]. unfold mvo. by rewrite Hmx Hv.
      + iIntros "H". iApply wp_ret. iApply (fin_intro _ _ _ _ L bl); done.
      + iIntros "H". iApply wp_ret. iApply (fin_intro _ _ _ _ L bl); done.
    - destruct (shape L !! i) as [[p n]|] eqn:Hi.
      + assert (Hin := elem_of_list_lookup_2 _ _ _ Hi).
        apply shape_lookup in Hi as (cs&Hi&<-). destruct (abs_lookup _ _ _ _ _ HA Hi) as (vs&Hbl&Hc).
        destruct (N.ltb_spec off (N.of_nat (length cs))) as [Hoff|Hoff].
        * iIntros "(HJ & HL & HF)". iApply wp_bind. iApply wp_strong_mono. iSplitL "HJ HL".
          { iApply (traits_cd_spec Construct s L (p + off) _
              (fun _ => blocks (<[i:=(p, <[N.to_nat off := Byte v]> cs)]> L))).
            { eexists p, _. split; [done|]. lia. }
            iFrame. iIntros "HL". iDestruct (blocks_byte _ _ _ _ _ Hi Hoff with "HL") as (c) "(%Hoc & Hx & Hback)".
            iApply wp_wr. iFrame "Hx". iIntros "Hx". by iApply "Hback". }
          iIntros (s') "[HJ HL]". iApply wp_ret.
          rewrite -(shape_write L i p cs (N.to_nat off) (Byte v) Hi).
          iApply fin_intro; [|exact (abs_write _ _ _ _ _ (N.to_nat off) v HA Hi)|]; [done|]. iFrame.
        * iIntros "H". iApply wp_ret. iApply (fin_intro _ _ _ _ L bl); [|done|iFrame].
          split; [done|]. rewrite (alter_out bl i p vs) //. rewrite -(Forall2_length _ _ _ Hc). lia.
      + apply shape_lookup_None in Hi. assert (Hbl := abs_lookup_None _ _ _ HA Hi).
        iIntros "H". iApply wp_ret. iApply (fin_intro _ _ _ _ L bl); [|done|iFrame].
        split; [done|]. by rewrite alter_none.
    - destruct (shape L !! i) as [[p n]|] eqn:Hi.
      + assert (Hin := elem_of_list_lookup_2 _ _ _ Hi).
        destruct (N.ltb_spec off n) as [Hoff|Hoff].
        * iIntros "(HJ & HL & HF)". iApply wp_bind. iApply wp_strong_mono. iSplitL "HJ HL".
          { iApply (traits_cd_spec Destroy s L (p + off) _ (fun _ => blocks L)).
            { eexists p, _. split; [done|]. lia. }
            iFrame. iIntros "HL". by iApply wp_ret. }
          iIntros (s') "[HJ HL]". iApply wp_ret. iApply (fin_intro _ _ _ _ L bl); [done|done|iFrame].
        * iIntros "H". iApply wp_ret. iApply (fin_intro _ _ _ _ L bl); done.
      + iIntros "H". iApply wp_ret. iApply (fin_intro _ _ _ _ L bl); done.
  Qed.

  Lemma run_spec ops s L bl : Forall op_ok ops -> abs L bl ->
    J CA b s (shape L) ∗ blocks L ∗ own mF ⊢ wp bad (run A b ready ops s (shape L)) (fun r =>
      ∃ L' bl', ⌈check F owo mvo ops (fst r) bl /\ abs L' bl' /\ snd (snd r) = shape L'⌉ ∗
        J CA b (fst (snd r)) (shape L') ∗ blocks L' ∗ own mF).
  Proof.
    revert s L bl. induction ops as [|o ops IH]; intros s L bl Hok HA; cbn [run].
    - iIntros "H". iApply wp_ret. iExists L, bl. cbn [fst snd check]. by iFrame.
    - apply Forall_cons_iff in Hok as [Hok0 Hok]. iIntros "H". iApply wp_bind. iApply wp_strong_mono.
      iSplitL; [by iApply step_spec|].
      iIntros ([ob [s' bl']]) "(%L' & %abl' & (%Hc & %HA' & %Hbl) & H)". cbn [fst snd] in *. subst bl'.
      iApply wp_bind. iApply wp_strong_mono. iSplitL; [by iApply (IH s' L' abl')|].
      iIntros ([os [s'' bl'']]) "(%L'' & %abl'' & (%Hc' & %HA'' & %Hbl') & H)". cbn [fst snd] in *. iApply wp_ret.
      iExists L'', abl''. cbn [fst snd check]. iFrame. iPureIntro. split_and!; [|done..].
      by exists abl'.
  Qed.

  Lemma free_all_spec s L bl : abs L bl ->
    J CA b s (shape L) ∗ blocks L ⊢ wp bad (free_all A b (shape L) s) (fun s' => J CA b s' []).
  Proof.
    revert s bl. induction L as [|[p cs] L IH]; intros s bl HA.
    - iIntros "[HJ _]". by iApply wp_ret.
    - inversion HA as [|? [p' vs] ? bl' [Hp Hc] HA']; subst. cbn [snd] in Hc.
      rewrite blocks_cons. iIntros "(HJ & Hc & HL)". rewrite shape_cons. cbn [free_all bsize fst snd].
      iApply wp_bind. iApply wp_strong_mono. iSplitL.
      { iApply (c_free _ _ _ CA); [by eapply cmatch_dead|]. iFrame. }
      iIntros (s') "H". by iApply IH.
  Qed.

  Lemma session_spec ops : b <> 0 -> b mod 16 = 0 -> b + a_size A < W -> Forall op_ok ops ->
    raw b (a_size A) ∗ own mF ⊢ wp bad (session A b ready ops) (fun os =>
      ⌈check F owo mvo ops os []⌉ ∗ raw b (a_size A) ∗ own mF).
  Proof.
    iIntros (H1 H2 H3 Hok) "[Hr HF]". unfold session. iApply wp_bind. iApply wp_strong_mono.
    iSplitL "Hr"; [by iApply (c_init _ _ _ CA)|]. iIntros (s) "HJ".
    iApply wp_bind. iApply wp_strong_mono. iSplitL.
    { iApply (run_spec ops s [] [] Hok); [constructor|]. iFrame. unfold blocks. by rewrite big_sepL_nil. }
    iIntros ([os [s' bl]]) "(%L & %abl & (%Hc & %HA & %Hbl) & HJ & HL & HF)". cbn [fst snd] in *. subst bl.
    iApply wp_bind. iApply wp_strong_mono. iSplitL "HJ HL"; [iApply (free_all_spec _ _ _ HA); iFrame|].
    iIntros (s'') "HJ". iApply wp_bind. iApply wp_strong_mono. iSplitL "HJ"; [by iApply (c_dtor _ _ _ CA)|].
    iIntros ([]) "Hr". iApply wp_ret. by iFrame.
  Qed.
End client.

Lemma check_step_ext F F' ow mv o ob bl bl' : (forall q, F q <-> F' q) ->
  check_step F ow mv o ob bl bl' -> check_step F' ow mv o ob bl bl'.
Proof.
  intros HF. destruct o; cbn [check_step]; try done.
  - intros (p&H1&H2). exists p. split; [done|]. destruct H2 as [H2|(H2&H3&H4&H5&H6&H7)]; [by left|right].
    split_and!; try done. intros q Hq. rewrite -HF. by apply H6.
  - intros [H1 H2]. split; [done|]. destruct ow; [|done]. destruct H2 as (r&H2&H3&H4). exists r.
    split_and!; [done..|]. intros Hq. by apply H4, HF.
Qed.
Lemma check_ext F F' ow mv ops os bl : (forall q, F q <-> F' q) -> check F ow mv ops os bl -> check F' ow mv ops os bl.
Proof.
  intros HF. revert os bl. induction ops as [|o ops IH]; intros [|ob os] bl; cbn [check]; try done.
  intros (bl'&H1&H2). exists bl'. split; [by eapply check_step_ext|by apply IH].
Qed.

Lemma ops_requests (req : N -> bool) ops : Forall (fun n => req n = true /\ n < W) (requests ops) ->
  Forall (op_ok (req := req)) ops.
Proof.
  induction ops as [|o ops IH]; intros H; [constructor|]. unfold requests in H. cbn [flat_map] in H.
  apply Forall_app in H as [H0 H]. constructor; [|by apply IH].
  destruct o; try exact I. by apply Forall_cons_iff in H0 as [? _].
Qed.

Theorem client_safe bad A req (CA : contract bad A req) ready b ops w :
  (a_max A <> None -> forall b s, ready b s = true -> rdy CA b s = true) ->
  place b (a_size A) w -> asks req ops -> session_ok bad A ready b ops w.
Proof.
  intros Hr (H1&H2&H3&Hst&H0) Hreq. unfold session_ok.
  set (n := N.to_nat (a_size A)). set (mF := clear b n (mem (st w))).
  assert (HmF0 : mF !! 0 = None).
  { unfold mF. rewrite clear_lookup. by destruct (_ && _). }
  pose proof (session_spec CA b ready Hr mF HmF0 ops H1 H2 H3 (ops_requests _ _ Hreq)) as Hwp.
  assert (Hpre : own (mem (st w)) ⊢ raw b (a_size A) ∗ own mF).
  { rewrite (own_take (mem (st w)) b n).
    2:{ intros i Hi. destruct (Hst i) as (c&Hc&_); [lia|]. by exists c. }
    iIntros "[Hc $]". iApply (raw_intro with "Hc"); [rewrite cells_length; lia|].
    apply cells_Forall. intros i Hi. apply Hst. lia. }
  pose proof (wp_adequate bad (session A b ready ops) (fun os m =>
    check (F mF) (owo (A := A)) (mvo CA) ops os [] /\
    (forall i, ~ (b <= i < b + a_size A) -> m !! i = mem (st w) !! i) /\
    (forall i, b <= i < b + a_size A -> exists c, m !! i = Some c /\ dead c)) w) as Had.
  assert (HF : forall q, F mF q <-> elsewhere b (a_size A) w q).
  { intros q. unfold F, elsewhere, mF. rewrite clear_lookup. destruct (_ && _) eqn:E.
    - split; [by intros []|]. intros [_ Hn]. exfalso. apply Hn. lia.
    - split; [|by intros []]. intros H. split; [done|]. lia. }
  lapply Had; clear Had.
  - intros Had. destruct (session A b ready ops w) as [os w' evs|u evs]; [|done].
    destruct Had as [Hbad|(Hben&(Hchk&Hm1&Hm2)&Ht)]; [by left|right].
    split_and!; try done. exists (mvo CA). split; [|by eapply check_ext]. unfold mvo. destruct (a_max A); split; (by intros [? ?]) || by eexists.
  - rewrite Hpre. iIntros "H". iApply wp_strong_mono. iSplitL; [by iApply Hwp|].
    iIntros (os') "(%Hchk & (%cs & (%Hl & %Hd) & Hr) & HF)".
    iDestruct (own_put with "[$HF $Hr]") as "[%Hn H]". iExists _. iFrame "H". iPureIntro.
    split_and!; [done|..].
    + intros i Hi. rewrite lookup_union. rewrite (proj2 (fill_dom_None b cs i)); [|lia].
      rewrite left_id_L. unfold mF. rewrite clear_lookup. destruct (_ && _) eqn:E; [lia|done].
    + intros i Hi. rewrite lookup_union fill_lookup. destruct (_ && _) eqn:E; [|lia].
      assert (is_Some (cs !! N.to_nat (i - b))) as [c Hc] by (apply lookup_lt_is_Some; lia).
      exists c. rewrite Hc. split; [by destruct (mF !! i)|]. rewrite Forall_lookup in Hd. by eapply Hd.
Qed.
