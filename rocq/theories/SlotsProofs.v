(** Programs that use several allocator objects observe what [mcheck] allows. *)
From iris.proofmode Require Import tactics.
From Verif Require Import Base Mem Sep Wp Bits AlignedMalloc Allocators Contract Adequacy Tree TreeProofs Transfer TransferProofs
  Client ClientProofs Slots.

Local Open Scope N_scope.

Lemma blocks_perm1 L L' : L ≡ₚ L' -> blocks L ⊢ blocks L'.
Proof. intros H. by rewrite (blocks_perm _ _ H). Qed.

(** The memory of a list of blocks. *)
Lemma blocks_own L : blocks L ⊢ ∃ m,
  ⌈forall q, is_Some (m !! q) <-> Exists (fun x : blk => fst x <= q < fst x + N.of_nat (length (snd x))) L⌉ ∗
  own m ∗ (own m -∗ blocks L).
Proof.
  induction L as [|[p cs] L IH].
  - iIntros "H". iExists ∅. iEval (rewrite own_empty). unfold blocks. rewrite big_sepL_nil. iSplit; [|by iFrame; iIntros "_"].
    iPureIntro. intros q. rewrite lookup_empty. split; [by intros []|by inversion 1].
  - iIntros "H". iEval (rewrite blocks_cons) in "H". iDestruct "H" as "[Hc HL]".
    iDestruct (IH with "HL") as (m) "(%Hm & Ho & Hb)".
    iEval (rewrite -fill_own) in "Hc". iDestruct (own_sep with "[$Hc $Ho]") as (Hd) "H".
    iExists (fill p cs ∪ m). iFrame "H". iSplit.
    + iPureIntro. intros q. rewrite Exists_cons. cbn [fst snd]. rewrite -fill_dom -Hm.
      rewrite lookup_union. destruct (fill p cs !! q) as [c|]; destruct (m !! q) as [d|]; cbn.
      * split; eauto.
      * split; eauto.
      * split; eauto.
      * split; [by intros []|]. by intros [[]|[]].
    + rewrite own_union // fill_own. iIntros "[$ H]". by iApply "Hb".
Qed.

(** A place in the proof: taken apart, empty, or with an object and its blocks. *)
Inductive lv := Hole | Dead | Live (L : list blk).
Definition lcells (y : lv) : list blk := match y with Live L => L | _ => [] end.
Definition flat (LL : list lv) : list blk := concat (map lcells LL).

Lemma flat_take LL k y : LL !! k = Some y -> flat LL ≡ₚ lcells y ++ flat (<[k := Hole]> LL).
Proof.
  revert k. induction LL as [|z LL IH]; intros [|k]; cbn [lookup list_lookup]; intros H; [done|done| |].
  - injection H as ->. done.
  - unfold flat in *. cbn [insert list_insert List.map concat]. rewrite {1}(IH _ H).
    rewrite !app_assoc. by rewrite (Permutation_app_comm (lcells z)).
Qed.
Lemma flat_fill LL k y : (k < length LL)%nat -> flat (<[k := y]> LL) ≡ₚ lcells y ++ flat (<[k := Hole]> LL).
Proof.
  intros H. rewrite (flat_take (<[k := y]> LL) k y); [|by apply list_lookup_insert]. by rewrite list_insert_insert.
Qed.

(** Relation to the specification. *)
Definition lrel (y : lv) (a : option (list ablk)) : Prop :=
  match y, a with Dead, None => True | Live L, Some bl => abs L bl | _, _ => False end.

Section slots.
  Context {bad : event -> bool} {pl : platform} {e : aexp}.
  Context (T : tcontract bad pl e) (HL : laws (tc _ _ _ T)).
  Context (bs : list N).
  Context (Hbs : forall i b, bs !! i = Some b -> fits b (esize e)).
  Context (Hap : forall i j b b', bs !! i = Some b -> bs !! j = Some b' -> i <> j -> apart b b' (esize e)).
  Context (mF : gmap N cell) (HmF : mF !! 0 = None).

  Notation A := (den pl e).
  Notation C := (tc _ _ _ T).
  Notation slot := (N * option (a_st A * list (N * N)))%type.

  Definition srel (x : slot) (y : lv) : Prop :=
    match snd x, y with None, Dead => True | Some (_, bl), Live L => bl = shape L | _, _ => False end.

  Definition Js (x : slot) (y : lv) : hpropI :=
    match snd x, y with
    | None, Dead => raw (fst x) (esize e)
    | Some (s, _), Live L => J C (fst x) s (shape L)
    | _, _ => emp
    end.
  Definition big (sl : list slot) (LL : list lv) : hpropI := [∗ list] x;y ∈ sl;LL, Js x y.

  Lemma Js_hole x : Js x Hole ⊣⊢ emp.
  Proof. unfold Js. by destruct (snd x) as [[? ?]|]. Qed.

  Lemma big_take sl LL k x y : sl !! k = Some x -> LL !! k = Some y ->
    big sl LL ⊢ Js x y ∗ big sl (<[k := Hole]> LL).
  Proof.
    intros H1 H2. unfold big. iIntros "H". iDestruct (big_sepL2_insert_acc _ _ _ _ _ _ H1 H2 with "H") as "[$ H]".
    iDestruct ("H" $! x Hole with "[]") as "H"; [by rewrite Js_hole|]. by rewrite (list_insert_id sl k x H1).
  Qed.
  Lemma big_fill sl LL k x x' y' : sl !! k = Some x -> LL !! k = Some Hole ->
    Js x' y' ∗ big sl LL ⊢ big (<[k := x']> sl) (<[k := y']> LL).
  Proof.
    intros H1 H2. unfold big. iIntros "[Hx H]". iDestruct (big_sepL2_insert_acc _ _ _ _ _ _ H1 H2 with "H") as "[He H]".
    iEval (rewrite Js_hole) in "He". iDestruct "He" as "_". by iApply "H".
  Qed.

  (** The relation between the three views of the places. *)
  Definition rel (sl : list slot) (LL : list lv) (al : list (option (list ablk))) : Prop :=
    map fst sl = bs /\ Forall2 srel sl LL /\ Forall2 lrel LL al.

  Lemma rel_none sl LL al k : rel sl LL al -> sl !! k = None -> al !! k = None.
  Proof.
    intros (_&H1&H2) H. apply lookup_ge_None. apply lookup_ge_None in H.
    by rewrite -(Forall2_length _ _ _ H2) -(Forall2_length _ _ _ H1).
  Qed.
  Lemma rel_dead sl LL al k b : rel sl LL al -> sl !! k = Some (b, None) ->
    LL !! k = Some Dead /\ al !! k = Some None /\ bs !! k = Some b.
  Proof.
    intros (H0&H1&H2) H. destruct (Forall2_lookup_l _ _ _ _ _ H1 H) as (y&Hy&Hs). destruct y as [| |L]; [done| |done].
    destruct (Forall2_lookup_l _ _ _ _ _ H2 Hy) as (a&Ha&Hl). destruct a; [done|]. split_and!; [done..|].
    rewrite -H0 list_lookup_fmap H. done.
  Qed.
  Lemma rel_live sl LL al k b s bl : rel sl LL al -> sl !! k = Some (b, Some (s, bl)) ->
    exists L vs, LL !! k = Some (Live L) /\ bl = shape L /\ al !! k = Some (Some vs) /\ abs L vs /\ bs !! k = Some b.
  Proof.
    intros (H0&H1&H2) H. destruct (Forall2_lookup_l _ _ _ _ _ H1 H) as (y&Hy&Hs). destruct y as [| |L]; [done|done|].
    destruct (Forall2_lookup_l _ _ _ _ _ H2 Hy) as (a&Ha&Hl). destruct a as [vs|]; [|done]. exists L, vs. split_and!; [done..|].
    rewrite -H0 list_lookup_fmap H. done.
  Qed.

  Lemma rel_insert sl LL al k b o o' y a : rel sl LL al -> sl !! k = Some (b, o) ->
    srel (b, o') y -> lrel y a -> rel (<[k := (b, o')]> sl) (<[k := y]> LL) (<[k := a]> al).
  Proof.
    intros (H0&H1&H2) H Hs Hl. split_and!; [|by apply Forall2_insert|by apply Forall2_insert].
    rewrite -H0. apply list_eq. intros i. rewrite !list_lookup_fmap. destruct (decide (i = k)) as [->|].
    - rewrite list_lookup_insert; [|by eapply lookup_lt_Some]. by rewrite H.
    - by rewrite list_lookup_insert_ne.
  Qed.

  Definition FF (k : nat) (al : list (option (list ablk))) (q : N) : Prop := F mF q \/ in_other k al q.

  Lemma abs_block_iff L bl q : abs L bl ->
    Exists (fun x : blk => fst x <= q < fst x + N.of_nat (length (snd x))) L <-> Exists (in_block q) bl.
  Proof.
    induction 1 as [|[p cs] [p' vs] L bl [Hp Hc] HA IH]; [split; inversion 1|]. rewrite !Exists_cons IH.
    unfold in_block. cbn [fst snd] in *. by rewrite Hp (Forall2_length _ _ _ Hc).
  Qed.

  Lemma flat_exists (P : blk -> Prop) LL : Exists P (flat LL) <-> exists j L, LL !! j = Some (Live L) /\ Exists P L.
  Proof.
    induction LL as [|y LL IH]; unfold flat in *; cbn [List.map concat].
    - split; [inversion 1|]. intros (j&L&H&_). done.
    - rewrite Exists_app IH. split.
      + intros [H|(j&L&H1&H2)].
        * destruct y as [| |L]; cbn [lcells] in H; [inversion H|inversion H|]. by exists O, L.
        * by exists (S j), L.
      + intros ([|j]&L&H1&H2); cbn [lookup list_lookup] in H1.
        * injection H1 as ->. by left.
        * right. by exists j, L.
  Qed.

  Lemma others_iff sl LL al k q : rel sl LL al ->
    Exists (fun x : blk => fst x <= q < fst x + N.of_nat (length (snd x))) (flat (<[k := Hole]> LL)) <-> in_other k al q.
  Proof.
    intros (_&_&H2). rewrite flat_exists. unfold in_other. split.
    - intros (j&L&Hj&HE). destruct (decide (j = k)) as [->|Hne].
      { assert (Hl := lookup_lt_Some _ _ _ Hj). rewrite insert_length in Hl. by rewrite list_lookup_insert in Hj. }
      rewrite list_lookup_insert_ne // in Hj. destruct (Forall2_lookup_l _ _ _ _ _ H2 Hj) as (a&Ha&Hl).
      destruct a as [bl|]; [|done]. exists j, bl. split_and!; [done..|]. by apply (abs_block_iff L).
    - intros (j&bl&Hne&Hj&HE). destruct (Forall2_lookup_r _ _ _ _ _ H2 Hj) as (y&Hy&Hl).
      destruct y as [| |L]; [done|done|]. exists j, L. rewrite list_lookup_insert_ne //. split; [done|].
      by apply (abs_block_iff L bl).
  Qed.

  Definition mop_ok (o : mop) : Prop := match o with MUse _ (OAlloc n) => ereq pl e n = true /\ n < W | _ => True end.

  Notation mcs := (mcheck_step (F mF) (owo (A := A)) (mvo C) (moves_always e) (moves_empty e) (assignable e) (stateless e)).

  Definition mfin (o : mop) (al : list (option (list ablk))) (r : obs * list slot) : hpropI :=
    ∃ LL' al', ⌈mcs o (fst r) al al' /\ rel (snd r) LL' al'⌉ ∗ big (snd r) LL' ∗ blocks (flat LL') ∗ own mF.

  Lemma mfin_intro o al ob sl LL al' : mcs o ob al al' -> rel sl LL al' ->
    big sl LL ∗ blocks (flat LL) ∗ own mF ⊢ mfin o al (ob, sl).
  Proof. iIntros (??) "H". iExists LL, al'. by iFrame. Qed.

  Lemma movable_when s vs L b : abs L vs -> (moves_always e = true \/ moves_empty e = true /\ vs = []) ->
    J C b s (shape L) ⊢ ⌜movable_now pl e s (shape L) = true⌝.
  Proof.
    intros HA Hw. unfold movable_now. destruct Hw as [Hw|[Hw ->]].
    - iIntros "_". iPureIntro. rewrite moves_always_may //. cbn [andb].
      assert (E : esize e = 0).
      { clear -Hw. revert Hw. induction e as [| | | |Min Max e' IH|e' IH|p IHp f IHf|TT p IHp f IHf|e' IH|e' IH|e' IH|e' IH|e' IH|e' IH]; cbn [moves_always esize]; try done.
        - intros H. apply IH. by apply stateless_always.
        - intros [H1 H2]%andb_true_iff. by rewrite IHp ?IHf.
        - intros [H1 H2]%andb_true_iff. by rewrite IHp ?IHf. }
      by rewrite E.
    - inversion HA; subst. iIntros "H". iDestruct (m_empty _ HL with "H") as %->; [done|]. iPureIntro. by rewrite orb_true_r.
  Qed.

  Lemma stateless_same : stateless e = true -> forall b s b' s', same pl e b s b' s' = true.
  Proof.
    clear. induction e as [| | | |Min Max e' IH|e' IH|p IHp f IHf|TT p IHp f IHf|e' IH|e' IH|e' IH|e' IH|e' IH|e' IH]; cbn [stateless same]; try done.
    - intros [H1 H2]%andb_true_iff b s b' s'. by rewrite IHp ?IHf.
    - intros [H1 H2]%andb_true_iff b s b' s'. by rewrite IHp ?IHf.
    - intros H b s b' s'. by apply IH.
  Qed.

  (** Two places after a transfer of the blocks. *)
  Lemma move_done sl LL al k j b b' o o' x y L L' vs M M' ms : rel sl LL al -> k <> j ->
    sl !! k = Some (b, o) -> sl !! j = Some (b', o') -> abs M vs -> abs M' ms ->
    LL !! k = Some L -> LL !! j = Some L' -> lcells L ++ lcells L' ≡ₚ M ++ M' ->
    J C b x (shape M) ∗ J C b' y (shape M') ∗ big sl (<[j := Hole]> (<[k := Hole]> LL)) ∗ blocks (flat LL)
    ⊢ ∃ LL', ⌈rel (<[j := (b', Some (y, shape M'))]> (<[k := (b, Some (x, shape M))]> sl)) LL'
                 (<[j := Some ms]> (<[k := Some vs]> al))⌉ ∗
      big (<[j := (b', Some (y, shape M'))]> (<[k := (b, Some (x, shape M))]> sl)) LL' ∗ blocks (flat LL').
  Proof.
    intros Hrel Hne Hk Hj HA HA' HLk HLj HP. iIntros "(HJ & HJ' & HB & HL)".
    assert (Hlk := lookup_lt_Some _ _ _ HLk). assert (Hlj := lookup_lt_Some _ _ _ HLj).
    iExists (<[j := Live M']> (<[k := Live M]> LL)). iSplit; [|iSplitR "HL"].
    - iPureIntro. eapply rel_insert; [eapply rel_insert; [done|done|done|done]| |done|done].
      rewrite list_lookup_insert_ne //.
    - iDestruct (big_fill _ _ k (b, o) (b, Some (x, shape M)) (Live M) with "[$HB HJ]") as "HB"; [done| | |].
      { rewrite list_lookup_insert_ne //. by apply list_lookup_insert. }
      { by unfold Js; cbn [fst snd]. }
      iDestruct (big_fill _ _ j (b', o') (b', Some (y, shape M')) (Live M') with "[$HB HJ']") as "HB".
      { by rewrite list_lookup_insert_ne. }
      { rewrite list_lookup_insert_ne //. apply list_lookup_insert. by rewrite insert_length. }
      { by unfold Js; cbn [fst snd]. }
      assert (E : <[j:=Live M']> (<[k:=Live M]> (<[j:=Hole]> (<[k:=Hole]> LL))) = <[j:=Live M']> (<[k:=Live M]> LL)).
      { rewrite (list_insert_commute (<[k:=Hole]> LL) k j) // list_insert_insert. by rewrite list_insert_insert. }
      by rewrite E.
    - iApply (blocks_perm1 with "HL"). rewrite (flat_take LL k L) // (flat_take (<[k := Hole]> LL) j L').
      2:{ by rewrite list_lookup_insert_ne. }
      rewrite (flat_fill (<[k := Live M]> LL) j); [|by rewrite insert_length].
      rewrite (list_insert_commute LL j k Hole (Live M)) // (flat_fill (<[j := Hole]> LL) k); [|by rewrite insert_length].
      rewrite (list_insert_commute LL k j Hole Hole) //. cbn [lcells].
      rewrite !app_assoc HP. by rewrite (Permutation_app_comm M M').
  Qed.

  Lemma put2 sl LL k j x x' y y' : k <> j -> sl !! k = Some x -> sl !! j = Some x' ->
    LL !! k = Some y -> LL !! j = Some y' ->
    Js x y ∗ Js x' y' ∗ big sl (<[j := Hole]> (<[k := Hole]> LL)) ⊢ big sl LL.
  Proof.
    intros Hne Hk Hj HLk HLj. iIntros "(Hx & Hx' & HB)".
    assert (Hlk := lookup_lt_Some _ _ _ HLk). assert (Hlj := lookup_lt_Some _ _ _ HLj).
    iDestruct (big_fill _ _ j x' x' y' with "[$HB $Hx']") as "HB"; [done| |].
    { apply list_lookup_insert. by rewrite insert_length. }
    rewrite list_insert_insert (list_insert_id sl) // (list_insert_commute _ j k) // (list_insert_id LL j) //.
    iDestruct (big_fill _ _ k x x y with "[$HB $Hx]") as "HB"; [done|by apply list_lookup_insert|].
    by rewrite list_insert_insert (list_insert_id sl) // (list_insert_id LL).
  Qed.

  Lemma big_good sl LL : Forall2 srel sl LL -> big sl LL ⊢ ⌜Forall good (shape (flat LL))⌝.
  Proof.
    unfold big. induction 1 as [|x y sl LL Hx HF IH]; [iIntros "_"; iPureIntro; constructor|]. rewrite big_sepL2_cons.
    unfold flat. cbn [List.map concat]. rewrite shape_app. iIntros "[HJ HB]".
    iDestruct (IH with "HB") as %H2. unfold srel in Hx. unfold Js. destruct (snd x) as [[s bl]|]; destruct y as [| |L]; try done.
    iDestruct (c_good with "HJ") as %H1. iPureIntro. by apply Forall_app.
  Qed.

  Lemma mstep_spec o sl LL al : mop_ok o -> rel sl LL al ->
    big sl LL ∗ blocks (flat LL) ∗ own mF ⊢ wp bad (mstep pl e o sl) (mfin o al).
  Proof.
    intros Hok Hrel. destruct o as [k|k j|k j|k|k o|k j i]; cbn [mstep].
    - (* MNew *)
      destruct (sl !! k) as [[b [[s bl]|]]|] eqn:Hk.
      + destruct (rel_live _ _ _ _ _ _ _ Hrel Hk) as (L&vs&HLk&->&Hal&HA&Hb).
        iIntros "H". iApply wp_ret. iApply (mfin_intro with "H"); [|done]. cbn [mcheck_step]. by rewrite Hal.
      + destruct (rel_dead _ _ _ _ _ Hrel Hk) as (HLk&Hal&Hb). destruct (Hbs _ _ Hb) as (Hb1&Hb2&Hb3).
        iIntros "(HB & HL & HF)". iDestruct (big_take _ _ _ _ _ Hk HLk with "HB") as "[Hr HB]".
        unfold Js. cbn [fst snd]. iApply wp_bind. iApply wp_strong_mono. iSplitL "Hr".
        { iApply (c_init _ _ _ C); [done|done|by rewrite den_size|by rewrite den_size]. }
        iIntros (s) "HJ". iApply wp_ret.
        iApply (mfin_intro _ _ _ _ (<[k := Live []]> LL) (<[k := Some []]> al)).
        { cbn [mcheck_step]. by rewrite Hal. }
        { eapply rel_insert; [done|done|done|by constructor]. }
        iFrame "HF". iSplitR "HL".
        * rewrite -(list_insert_insert LL k (Live []) Hole). iApply big_fill; [done| |].
          { apply list_lookup_insert. by eapply lookup_lt_Some. }
          by iFrame.
        * iApply (blocks_perm1 with "HL"). rewrite (flat_take LL k Dead) // (flat_fill LL k (Live [])); [done|by eapply lookup_lt_Some].
      + iIntros "H". iApply wp_ret. iApply (mfin_intro with "H"); [|done]. cbn [mcheck_step]. by rewrite (rel_none _ _ _ _ Hrel Hk).
    - (* MMove *)
      destruct (sl !! k) as [[b [[s0 bl0]|]]|] eqn:Hk.
      + destruct (rel_live _ _ _ _ _ _ _ Hrel Hk) as (L&vs&HLk&->&Hal&HA&Hb).
        iIntros "H". iApply wp_ret. iApply (mfin_intro with "H"); [|done]. cbn [mcheck_step]. by rewrite Hal.
      + destruct (rel_dead _ _ _ _ _ Hrel Hk) as (HLk&Hal&Hb).
        destruct (sl !! j) as [[b' [[s bl]|]]|] eqn:Hj.
        * destruct (rel_live _ _ _ _ _ _ _ Hrel Hj) as (L&vs&HLj&->&Halj&HA&Hb').
          assert (Hne : k <> j) by (intros ->; congruence).
          iIntros "(HB & HL & HF)".
          iDestruct (big_take _ _ _ _ _ Hk HLk with "HB") as "[Hr HB]".
          iDestruct (big_take _ _ j _ (Live L) Hj with "HB") as "[HJ HB]"; [by rewrite list_lookup_insert_ne|].
          unfold Js. cbn [fst snd].
          destruct (movable_now pl e s (shape L)) eqn:Hmn.
          { unfold movable_now in Hmn. apply andb_true_iff in Hmn as [Hm1 Hm2].
            assert (HS : esize e = 0 \/ shape L = []).
            { apply orb_true_iff in Hm2 as [Hm2|Hm2]; [left; lia|right]. by destruct (shape L). }
            iApply wp_bind. iApply wp_strong_mono. iSplitL "HJ Hr".
            { iApply (m_ctor _ HL b b' s (shape L) (Hbs _ _ Hb) (Hap _ _ _ _ Hb Hb' Hne) Hm1 HS). iFrame. }
            iIntros ([x y]) "(Hx & Hy & _)". cbn [fst snd]. iApply wp_ret.
            iDestruct (move_done sl LL al k j b b' None (Some (s, shape L)) x y Dead (Live L) vs L [] []
              with "[$Hx $Hy $HB $HL]") as (LL') "(%Hrel' & HB & HL)"; try done; [constructor|by rewrite app_nil_r|].
            iApply (mfin_intro _ _ _ _ LL' _ with "[$HB $HL $HF]"); [|exact Hrel'].
            cbn [mcheck_step]. rewrite Hal Halj. exists true. done. }
          iAssert ⌜~ (moves_always e = true \/ moves_empty e = true /\ vs = [])⌝%I as %Hnm.
          { iIntros (Hw). iDestruct (movable_when s vs L b' HA Hw with "HJ") as %Hc. congruence. }
          iApply wp_ret. iApply (mfin_intro _ _ _ _ LL al); [|done|].
          { cbn [mcheck_step]. rewrite Hal Halj. exists false. split_and!; [done| |done]. by intros Hw%Hnm. }
          iFrame "HL HF".
          iApply (put2 sl LL k j (b, None) (b', Some (s, shape L)) Dead (Live L)); [done..|]. iFrame.
        * destruct (rel_dead _ _ _ _ _ Hrel Hj) as (HLj&Halj&Hb').
          iIntros "H". iApply wp_ret. iApply (mfin_intro with "H"); [|done]. cbn [mcheck_step]. by rewrite Hal Halj.
        * iIntros "H". iApply wp_ret. iApply (mfin_intro with "H"); [|done]. cbn [mcheck_step]. by rewrite Hal (rel_none _ _ _ _ Hrel Hj).
      + iIntros "H". iApply wp_ret. iApply (mfin_intro with "H"); [|done]. cbn [mcheck_step]. by rewrite (rel_none _ _ _ _ Hrel Hk).
    - (* MAssign *)
      destruct (sl !! k) as [[b [[d bl0]|]]|] eqn:Hk.
      + destruct (rel_live _ _ _ _ _ _ _ Hrel Hk) as (L0&vs0&HLk&->&Hal&HA0&Hb).
        destruct L0 as [|z L0].
        2:{ inversion HA0 as [|? z' ? vs' Hz HA1]; subst. rewrite shape_cons. iIntros "H". iApply wp_ret.
            iApply (mfin_intro with "H"); [|done]. cbn [mcheck_step]. by rewrite Hal. }
        inversion HA0; subst. cbn [shape List.map].
        destruct (sl !! j) as [[b' [[s bl]|]]|] eqn:Hj.
        * destruct (rel_live _ _ _ _ _ _ _ Hrel Hj) as (L&vs&HLj&->&Halj&HA&Hb').
          destruct (decide (k = j)) as [<-|Hne].
          { rewrite Nat.eqb_refl. cbn [negb andb]. iIntros "H". iApply wp_ret. iApply (mfin_intro with "H"); [|done].
            cbn [mcheck_step]. rewrite Hal. exists false. done. }
          replace (Nat.eqb k j) with false by (symmetry; by apply Nat.eqb_neq). cbn [negb andb].
          iIntros "(HB & HL & HF)".
          iDestruct (big_take _ _ _ _ _ Hk HLk with "HB") as "[Hr HB]".
          iDestruct (big_take _ _ j _ (Live L) Hj with "HB") as "[HJ HB]"; [by rewrite list_lookup_insert_ne|].
          unfold Js at 1 2. cbn [fst snd].
          destruct (assignable e && movable_now pl e s (shape L)) eqn:Hmn.
          { apply andb_true_iff in Hmn as [Hasg Hmn].
            unfold movable_now in Hmn. apply andb_true_iff in Hmn as [Hm1 Hm2].
            assert (HS : esize e = 0 \/ shape L = []).
            { apply orb_true_iff in Hm2 as [Hm2|Hm2]; [left; lia|right]. by destruct (shape L). }
            iApply wp_bind. iApply wp_strong_mono. iSplitL "HJ Hr".
            { iApply (m_assign _ HL b b' d s (shape L) Hasg (Hap _ _ _ _ Hb Hb' Hne) Hm1 HS). iFrame. }
            iIntros ([x y]) "(Hx & Hy & _)". cbn [fst snd]. iApply wp_ret.
            iDestruct (move_done sl LL al k j b b' (Some (d, [])) (Some (s, shape L)) x y (Live []) (Live L) vs L [] []
              with "[$Hx $Hy $HB $HL]") as (LL') "(%Hrel' & HB & HL)"; try done; [by cbn [lcells]; rewrite app_nil_r|].
            iApply (mfin_intro _ _ _ _ LL' _ with "[$HB $HL $HF]"); [|exact Hrel'].
            cbn [mcheck_step]. rewrite Hal Halj. exists true. done. }
          iAssert ⌜~ (assignable e = true /\ (moves_always e = true \/ moves_empty e = true /\ vs = []))⌝%I as %Hnm.
          { iIntros ([Ha Hw]). iDestruct (movable_when s vs L b' HA Hw with "HJ") as %Hc. rewrite Ha Hc in Hmn. done. }
          iApply wp_ret. iApply (mfin_intro _ _ _ _ LL al); [|done|].
          { cbn [mcheck_step]. rewrite Hal Halj. exists false. split_and!; [done| |done]. intros _ Ha Hw. exfalso. by apply Hnm. }
          iFrame "HL HF".
          iApply (put2 sl LL k j (b, Some (d, [])) (b', Some (s, shape L)) (Live []) (Live L)); [done..|]. iFrame.
        * destruct (rel_dead _ _ _ _ _ Hrel Hj) as (HLj&Halj&Hb').
          iIntros "H". iApply wp_ret. iApply (mfin_intro with "H"); [|done]. cbn [mcheck_step]. by rewrite Hal Halj.
        * iIntros "H". iApply wp_ret. iApply (mfin_intro with "H"); [|done]. cbn [mcheck_step]. by rewrite Hal (rel_none _ _ _ _ Hrel Hj).
      + destruct (rel_dead _ _ _ _ _ Hrel Hk) as (HLk&Hal&Hb).
        iIntros "H". iApply wp_ret. iApply (mfin_intro with "H"); [|done]. cbn [mcheck_step]. by rewrite Hal.
      + iIntros "H". iApply wp_ret. iApply (mfin_intro with "H"); [|done]. cbn [mcheck_step]. by rewrite (rel_none _ _ _ _ Hrel Hk).
    - (* MDrop *)
      destruct (sl !! k) as [[b [[s bl]|]]|] eqn:Hk.
      + destruct (rel_live _ _ _ _ _ _ _ Hrel Hk) as (L&vs&HLk&->&Hal&HA&Hb).
        destruct L as [|z L].
        2:{ inversion HA as [|? z' ? vs' Hz HA1]; subst. rewrite shape_cons. iIntros "H". iApply wp_ret.
            iApply (mfin_intro with "H"); [|done]. cbn [mcheck_step]. by rewrite Hal. }
        inversion HA; subst. cbn [shape List.map].
        iIntros "(HB & HL & HF)". iDestruct (big_take _ _ _ _ _ Hk HLk with "HB") as "[HJ HB]".
        unfold Js. cbn [fst snd]. iApply wp_bind. iApply wp_strong_mono. iSplitL "HJ".
        { by iApply (c_dtor _ _ _ C). }
        iIntros ([]) "Hr". rewrite den_size. iApply wp_ret.
        iApply (mfin_intro _ _ _ _ (<[k := Dead]> LL) (<[k := None]> al)).
        { cbn [mcheck_step]. by rewrite Hal. }
        { eapply rel_insert; [done|done|done|done]. }
        iFrame "HF". iSplitR "HL".
        * rewrite -(list_insert_insert LL k Dead Hole). iApply big_fill; [done| |].
          { apply list_lookup_insert. by eapply lookup_lt_Some. }
          by iFrame.
        * iApply (blocks_perm1 with "HL"). rewrite (flat_take LL k (Live [])) // (flat_fill LL k Dead); [done|by eapply lookup_lt_Some].
      + destruct (rel_dead _ _ _ _ _ Hrel Hk) as (HLk&Hal&Hb).
        iIntros "H". iApply wp_ret. iApply (mfin_intro with "H"); [|done]. cbn [mcheck_step]. by rewrite Hal.
      + iIntros "H". iApply wp_ret. iApply (mfin_intro with "H"); [|done]. cbn [mcheck_step]. by rewrite (rel_none _ _ _ _ Hrel Hk).
    - (* MUse *)
      destruct (sl !! k) as [[b [[s bl]|]]|] eqn:Hk.
      + destruct (rel_live _ _ _ _ _ _ _ Hrel Hk) as (L&vs&HLk&->&Hal&HA&Hb).
        assert (Hlk := lookup_lt_Some _ _ _ HLk).
        iIntros "(HB & HL & HF)". iDestruct (big_good with "HB") as %Hg; [by destruct Hrel as (_&?&_)|].
        iDestruct (big_take _ _ _ _ _ Hk HLk with "HB") as "[HJ HB]".
        unfold Js at 1. cbn [fst snd].
        iDestruct (blocks_perm1 _ _ (flat_take _ _ _ HLk) with "HL") as "HL". cbn [lcells].
        iEval (rewrite blocks_app) in "HL". iDestruct "HL" as "[HL HO]".
        iDestruct (blocks_own with "HO") as (mo) "(%Hmo & Ho & HO)".
        iDestruct (own_sep with "[$HF $Ho]") as (Hd) "HF".
        assert (Hz : (mF ∪ mo) !! 0 = None).
        { rewrite lookup_union HmF left_id_L. destruct (mo !! 0) as [c|] eqn:E; [exfalso|done].
          assert (HE : is_Some (mo !! 0)) by (by rewrite E). apply Hmo in HE.
          rewrite (shape_perm _ _ (flat_take _ _ _ HLk)) shape_app in Hg. apply Forall_app in Hg as [_ Hg].
          apply Exists_exists in HE as ([p cs]&Hin&HE). cbn [fst snd] in HE.
          rewrite list.Forall_forall in Hg. specialize (Hg (p, N.of_nat (length cs))).
          destruct Hg as (Hg&_); [|cbn [fst] in Hg; lia]. unfold shape. apply elem_of_list_fmap. exists (p, cs). split; [done|]. by (exact Hin || apply elem_of_list_In). }
        iApply wp_bind. iApply wp_strong_mono. iSplitL "HJ HL HF".
        { iApply (step_spec C b (eready_now pl e) (tc_rdy _ _ _ T) (mF ∪ mo) Hz o s L vs); [by destruct o|done|iFrame]. }
        iIntros ([ob [s' bl']]) "(%L' & %vs' & (%Hck & %HA' & %Hsh) & HJ & HL & HF)". cbn [fst snd] in *. subst bl'.
        iApply wp_ret. iEval (rewrite own_union //) in "HF". iDestruct "HF" as "[HF Ho]". iDestruct ("HO" with "Ho") as "HO".
        iApply (mfin_intro _ _ _ _ (<[k := Live L']> LL) (<[k := Some vs']> al)).
        { cbn [mcheck_step]. rewrite Hal. exists vs'. split; [|done]. eapply check_step_ext; [|exact Hck].
          intros q. rewrite -(others_iff _ _ _ _ _ Hrel) -Hmo. unfold F. rewrite lookup_union.
          destruct (mF !! q) as [c|]; destruct (mo !! q) as [c'|]; cbn.
          - split; eauto.
          - split; eauto.
          - split; eauto.
          - split; [by intros []|]. by intros [[]|[]]. }
        { eapply rel_insert; [done|done|done|done]. }
        iFrame "HF". iSplitL "HJ HB".
        * rewrite -(list_insert_insert LL k (Live L') Hole). iApply big_fill; [done|by apply list_lookup_insert|].
          by iFrame.
        * iApply (blocks_perm1 (L' ++ flat (<[k := Hole]> LL))); [by rewrite (flat_fill LL k (Live L'))|]. rewrite blocks_app. iFrame.
      + destruct (rel_dead _ _ _ _ _ Hrel Hk) as (HLk&Hal&Hb).
        iIntros "H". iApply wp_ret. iApply (mfin_intro with "H"); [|done]. cbn [mcheck_step]. by rewrite Hal.
      + iIntros "H". iApply wp_ret. iApply (mfin_intro with "H"); [|done]. cbn [mcheck_step]. by rewrite (rel_none _ _ _ _ Hrel Hk).
    - (* MGive *)
      destruct (sl !! k) as [[b [[s bl]|]]|] eqn:Hk.
      + destruct (rel_live _ _ _ _ _ _ _ Hrel Hk) as (L&vs&HLk&->&Hal&HA&Hb).
        destruct (sl !! j) as [[b' [[s' bl']|]]|] eqn:Hj.
        * destruct (rel_live _ _ _ _ _ _ _ Hrel Hj) as (L'&vs'&HLj&->&Halj&HA'&Hb').
          destruct (shape L !! i) as [[p n]|] eqn:Hi.
          { apply shape_lookup in Hi as (cs&Hi&<-). destruct (abs_lookup _ _ _ _ _ HA Hi) as (ws&Hws&Hc).
            destruct (decide (k = j)) as [<-|Hne].
            { rewrite Nat.eqb_refl. cbn [negb andb]. iIntros "H". iApply wp_ret. iApply (mfin_intro with "H"); [|done].
              cbn [mcheck_step]. rewrite Hal Hws. exists false. done. }
            replace (Nat.eqb k j) with false by (symmetry; by apply Nat.eqb_neq). cbn [negb andb].
            destruct (same pl e b s b' s') eqn:Hsm.
            2:{ iIntros "H". iApply wp_ret. iApply (mfin_intro with "H"); [|done]. cbn [mcheck_step]. rewrite Hal Halj Hws.
                exists false. split_and!; [done| |done]. intros _ Hst. by rewrite stateless_same in Hsm. }
            assert (HP := delete_Permutation _ _ _ Hi).
            iIntros "(HB & HL & HF)".
            iDestruct (big_take _ _ _ _ _ Hk HLk with "HB") as "[HJ HB]".
            iDestruct (big_take _ _ j _ (Live L') Hj with "HB") as "[HJ' HB]"; [by rewrite list_lookup_insert_ne|].
            unfold Js at 1 2. cbn [fst snd].
            iDestruct (c_perm _ _ _ C _ _ _ _ (shape_perm _ _ HP) with "HJ") as "HJ". iEval (rewrite shape_cons) in "HJ".
            iDestruct (m_give _ HL _ _ _ _ _ _ _ (Hap _ _ _ _ Hb Hb' Hne) Hsm with "[$HJ $HJ']") as "[HJ HJ']".
            iApply wp_ret.
            iDestruct (move_done sl LL al k j b b' (Some (s, shape L)) (Some (s', shape L')) s s' (Live L) (Live L')
              (delete i vs) (delete i L) ((p, cs) :: L') ((p, ws) :: vs')
              with "[$HJ HJ' $HB $HL]") as (LL') "(%Hrel' & HB & HL)"; [done|done|done|done|by apply abs_delete| |done|done| | |].
            { by constructor. }
            { cbn [lcells]. rewrite {1}HP. cbn [app]. by rewrite Permutation_middle. }
            { by rewrite shape_cons. }
            rewrite shape_cons shape_delete in Hrel'. rewrite shape_cons shape_delete.
            iApply (mfin_intro _ _ _ _ LL' _ with "[$HB $HL $HF]"); [|exact Hrel'].
            cbn [mcheck_step]. rewrite Hal Halj Hws. exists true. done. }
          iIntros "H". iApply wp_ret. iApply (mfin_intro with "H"); [|done]. cbn [mcheck_step].
          by rewrite Hal Halj (abs_lookup_None _ _ _ HA (shape_lookup_None _ _ Hi)).
        * destruct (rel_dead _ _ _ _ _ Hrel Hj) as (HLj&Halj&Hb').
          iIntros "H". iApply wp_ret. iApply (mfin_intro with "H"); [|done]. cbn [mcheck_step]. by rewrite Hal Halj.
        * iIntros "H". iApply wp_ret. iApply (mfin_intro with "H"); [|done]. cbn [mcheck_step]. by rewrite Hal (rel_none _ _ _ _ Hrel Hj).
      + destruct (rel_dead _ _ _ _ _ Hrel Hk) as (HLk&Hal&Hb).
        iIntros "H". iApply wp_ret. iApply (mfin_intro with "H"); [|done]. cbn [mcheck_step]. by rewrite Hal.
      + iIntros "H". iApply wp_ret. iApply (mfin_intro with "H"); [|done]. cbn [mcheck_step]. by rewrite (rel_none _ _ _ _ Hrel Hk).
  Qed.

  Lemma mrun_spec ops sl LL al : Forall mop_ok ops -> rel sl LL al ->
    big sl LL ∗ blocks (flat LL) ∗ own mF ⊢ wp bad (mrun pl e ops sl) (fun r => ∃ LL' al',
      ⌈mcheck (F mF) (owo (A := A)) (mvo C) (moves_always e) (moves_empty e) (assignable e) (stateless e) ops (fst r) al /\
       rel (snd r) LL' al'⌉ ∗ big (snd r) LL' ∗ blocks (flat LL') ∗ own mF).
  Proof.
    revert sl LL al. induction ops as [|o ops IH]; intros sl LL al Hok Hrel; cbn [mrun].
    - iIntros "H". iApply wp_ret. iExists LL, al. by iFrame.
    - apply Forall_cons_iff in Hok as [Ho Hok]. iIntros "H". iApply wp_bind. iApply wp_strong_mono.
      iSplitL; [by iApply (mstep_spec _ _ _ _ Ho Hrel with "H")|].
      iIntros ([ob sl']) "(%LL' & %al' & (%Hck & %Hrel') & H)". cbn [fst snd] in *.
      iApply wp_bind. iApply wp_strong_mono. iSplitL; [by iApply (IH _ _ _ Hok Hrel' with "H")|].
      iIntros ([os sl'']) "(%LL'' & %al'' & (%Hck' & %Hrel'') & H)". cbn [fst snd] in *.
      iApply wp_ret. iExists LL'', al''. iFrame. iPureIntro. split; [|done]. cbn [fst mcheck]. by exists al'.
  Qed.

  Lemma mfinish_spec sl LL al : Forall2 srel sl LL -> Forall2 lrel LL al ->
    big sl LL ∗ blocks (flat LL) ⊢ wp bad (mfinish pl e sl) (fun _ => [∗ list] b ∈ map fst sl, raw b (esize e)).
  Proof.
    intros H. revert al. induction H as [|[b o] y sl LL Hx HF IH]; intros al Hal; cbn [mfinish List.map].
    - iIntros "[HB HL]". iApply wp_ret. unfold big, flat, blocks. cbn. iDestruct "HB" as "_". by iDestruct "HL" as "_".
    - inversion Hal as [|? a ? al' Ha Hal']; subst. unfold big, flat. rewrite big_sepL2_cons. cbn [List.map concat fst].
      rewrite blocks_app. iIntros "[[HJ HB] [HL HO]]". unfold srel in Hx. unfold Js at 1. cbn [fst snd] in *.
      destruct o as [[s bl]|]; destruct y as [| |L]; try done.
      + subst bl. destruct a as [vs|]; [|done]. cbn [lrel lcells] in *. iApply wp_bind. iApply wp_strong_mono.
        iSplitL "HJ HL"; [iApply (free_all_spec C b s L vs Ha); iFrame|].
        iIntros (s') "HJ". iApply wp_bind. iApply wp_strong_mono. iSplitL "HJ"; [by iApply (c_dtor _ _ _ C)|].
        iIntros ([]) "Hr". rewrite den_size. iApply wp_strong_mono. iSplitL "HB HO"; [iApply (IH _ Hal'); by iFrame|].
        iIntros ([]) "H". rewrite big_sepL_cons. iFrame.
      + cbn [lcells]. unfold blocks at 1. rewrite big_sepL_nil. iDestruct "HL" as "_".
        iApply wp_strong_mono. iSplitL "HB HO"; [iApply (IH _ Hal'); by iFrame|].
        iIntros ([]) "H". rewrite big_sepL_cons. iFrame.
  Qed.

  Lemma msession_spec ops : Forall mop_ok ops ->
    ([∗ list] b ∈ bs, raw b (esize e)) ∗ own mF ⊢ wp bad (msession pl e bs ops) (fun os =>
      ⌈mcheck (F mF) (owo (A := A)) (mvo C) (moves_always e) (moves_empty e) (assignable e) (stateless e) ops os
         (map (fun _ => None) bs)⌉ ∗ ([∗ list] b ∈ bs, raw b (esize e)) ∗ own mF).
  Proof.
    intros Hok. unfold msession. iIntros "[Hr HF]".
    set (sl0 := map (fun b => (b, None)) bs : list slot).
    assert (HR : rel sl0 (map (fun _ => Dead) bs) (map (fun _ => None) bs)).
    { unfold rel, sl0. split_and!.
      - rewrite map_map. cbn [fst]. apply map_id.
      - clear. induction bs; constructor; done.
      - clear. induction bs; constructor; done. }
    iApply wp_bind. iApply wp_strong_mono. iSplitL.
    { iApply (mrun_spec ops sl0 _ _ Hok HR). iFrame "HF". iSplitL.
      - unfold big, sl0. clear. iInduction bs as [|b bs'] "IH"; [done|]. cbn [List.map]. rewrite big_sepL_cons big_sepL2_cons.
        iDestruct "Hr" as "[Hr H]". iSplitL "Hr"; [done|]. by iApply "IH".
      - assert (E : flat (map (fun _ => Dead) bs) = []) by (clear; unfold flat; induction bs; done).
        rewrite E. unfold blocks. by rewrite big_sepL_nil. }
    iIntros ([os sl]) "(%LL & %al & (%Hck & %Hrel) & HB & HL & HF)". cbn [fst snd] in *.
    destruct Hrel as (E&H1&H2). iApply wp_bind. iApply wp_strong_mono. iSplitL "HB HL".
    { iApply (mfinish_spec _ _ _ H1 H2). iFrame. }
    iIntros ([]) "H". rewrite E. iApply wp_ret. by iFrame.
  Qed.
End slots.

Lemma mcheck_ext F F' ow mv al em asg st ops os sl : (forall q, F q <-> F' q) ->
  mcheck F ow mv al em asg st ops os sl -> mcheck F' ow mv al em asg st ops os sl.
Proof.
  intros HF. revert os sl. induction ops as [|o ops IH]; intros [|ob os] sl; cbn [mcheck]; try done.
  intros (sl'&H1&H2). exists sl'. split; [|by apply IH].
  destruct o as [k|k j|k j|k|k o|k j i]; try exact H1. cbn [mcheck_step] in *. destruct (sl !! k) as [[bl|]|]; try done.
  destruct H1 as (bl'&H1&->). exists bl'. split; [|done]. eapply check_step_ext; [|exact H1]. intros q. cbn beta. by rewrite HF.
Qed.

Lemma mops_requests pl e ops : Forall (fun n => ereq pl e n = true /\ n < W) (mrequests ops) ->
  Forall (mop_ok (pl := pl) (e := e)) ops.
Proof.
  induction ops as [|o ops IH]; [constructor|]. unfold mrequests. cbn [flat_map]. intros [H1 H2]%Forall_app.
  constructor; [|by apply IH]. destruct o as [| | | |k o|]; try done. destruct o; try done. by apply Forall_cons_iff in H1 as [? _].
Qed.

(** The memory of the places. *)
Fixpoint clears (bs : list N) (n : nat) (m : gmap N cell) : gmap N cell :=
  match bs with [] => m | b :: bs => clears bs n (clear b n m) end.

Lemma clears_lookup bs n m q : clears bs n m !! q =
  if existsb (fun b => (b <=? q) && (q <? b + N.of_nat n)) bs then None else m !! q.
Proof.
  revert m. induction bs as [|b bs IH]; intros m; cbn [clears existsb]; [done|]. rewrite IH clear_lookup.
  destruct (existsb _ bs); [by rewrite orb_true_r|]. by rewrite orb_false_r.
Qed.

Lemma own_places bs n m :
  Forall (fun b => forall i, b <= i < b + n -> exists c, m !! i = Some c /\ dead c) bs ->
  (forall i j b b', bs !! i = Some b -> bs !! j = Some b' -> i <> j -> b + n <= b' \/ b' + n <= b) ->
  own m ⊢ ([∗ list] b ∈ bs, raw b n) ∗ own (clears bs (N.to_nat n) m).
Proof.
  revert m. induction bs as [|b bs IH]; intros m Hst Hap; cbn [clears].
  - iIntros "$". done.
  - apply Forall_cons_iff in Hst as [Hb Hst]. rewrite big_sepL_cons. rewrite (own_take m b (N.to_nat n)).
    2:{ intros i Hi. destruct (Hb i) as (c&Hc&_); [lia|]. by exists c. }
    iIntros "[Hc Ho]".
    iDestruct (IH with "Ho") as "[Hr Ho]".
    + apply List.Forall_forall. intros b' Hin i Hi. rewrite List.Forall_forall in Hst. destruct (Hst _ Hin i Hi) as (c&Hc&Hd).
      exists c. split; [|done]. rewrite clear_lookup. destruct (_ && _) eqn:E; [|done]. exfalso.
      apply elem_of_list_In, elem_of_list_lookup in Hin as [j Hj]. specialize (Hap O (S j) b b' eq_refl Hj). lia.
    + intros i j x y Hi Hj Hne. apply (Hap (S i) (S j) x y Hi Hj). lia.
    + iFrame. iApply (raw_intro with "Hc"); [rewrite cells_length; lia|].
      apply cells_Forall. intros i Hi. apply Hb. lia.
Qed.

Lemma places_own bs n m : ([∗ list] b ∈ bs, raw b n) ∗ own m ⊢ ∃ m',
  ⌈(forall i, Forall (fun b => ~ (b <= i < b + n)) bs -> m' !! i = m !! i) /\
   Forall (fun b => forall i, b <= i < b + n -> exists c, m' !! i = Some c /\ dead c) bs⌉ ∗ own m'.
Proof.
  revert m. induction bs as [|b bs IH]; intros m.
  - iIntros "[_ H]". iExists m. iFrame. iPureIntro. split; [done|constructor].
  - rewrite big_sepL_cons. iIntros "[[(%cs & (%Hl & %Hd) & Hr) HR] HF]".
    iDestruct (IH with "[$HR $HF]") as (m') "((%H1 & %H2) & HF)".
    iDestruct (own_put with "[$HF $Hr]") as "[%Hn H]". iExists _. iFrame "H". iPureIntro. split.
    + intros i [Hi Hi']%Forall_cons_iff. rewrite lookup_union. rewrite (proj2 (fill_dom_None b cs i)); [|lia].
      rewrite left_id_L. by apply H1.
    + constructor.
      * intros i Hi. rewrite lookup_union fill_lookup. destruct (_ && _) eqn:E; [|lia].
        assert (is_Some (cs !! N.to_nat (i - b))) as [c Hc] by (apply lookup_lt_is_Some; lia).
        exists c. rewrite Hc. split; [by destruct (m' !! i)|]. rewrite Forall_lookup in Hd. by eapply Hd.
      * eapply List.Forall_impl; [|exact H2]. intros b' Hb' i Hi. destruct (Hb' i Hi) as (c&Hc&Hdc). exists c. split; [|done].
        rewrite lookup_union. rewrite (proj2 (fill_dom_None b cs i)); [by rewrite Hc|].
        destruct (decide (b <= i < b + N.of_nat (length cs))) as [Hin|Hin]; [|lia]. specialize (Hn i Hin). congruence.
Qed.

Theorem slots_safe bad pl e (T : tcontract bad pl e) (HL : laws (tc _ _ _ T)) bs ops w :
  places bs (esize e) w -> Forall (fun n => ereq pl e n = true /\ n < W) (mrequests ops) ->
  mem (st w) !! 0 = None -> msession_ok bad pl e bs ops w.
Proof.
  intros [Hpl Hap] Hreq H0. unfold msession_ok. set (mF := clears bs (N.to_nat (esize e)) (mem (st w))).
  assert (HmF0 : mF !! 0 = None).
  { unfold mF. rewrite clears_lookup. by destruct (existsb _ _). }
  assert (Hbs : forall i b, bs !! i = Some b -> fits b (esize e)).
  { intros i b Hi. rewrite Forall_lookup in Hpl. destruct (Hpl _ _ Hi) as (H1&H2&H3&_). done. }
  assert (Hap' : forall i j b b', bs !! i = Some b -> bs !! j = Some b' -> i <> j -> apart b b' (esize e)).
  { intros i j b b' Hi Hj Hne. right. by eapply Hap. }
  pose proof (msession_spec T HL bs Hbs Hap' mF HmF0 ops (mops_requests _ _ _ Hreq)) as Hwp.
  pose proof (own_places bs (esize e) (mem (st w))) as Hpre. lapply Hpre; clear Hpre.
  2:{ eapply List.Forall_impl; [|exact Hpl]. intros b (_&_&_&Hst&_) i Hi. by apply Hst. }
  intros Hpre. specialize (Hpre Hap). fold mF in Hpre.
  assert (HF : forall q, F mF q <-> beside bs (esize e) w q).
  { intros q. unfold F, beside, mF. rewrite clears_lookup. rewrite N2Nat.id. destruct (existsb _ bs) eqn:E.
    - split; [by intros []|]. intros [_ Hn]. exfalso. apply existsb_exists in E as (b&Hin&E).
      rewrite List.Forall_forall in Hn. apply (Hn b Hin). lia.
    - split; [|by intros []]. intros H. split; [done|]. apply List.Forall_forall. intros b Hin Hb.
      assert (existsb (fun b => (b <=? q) && (q <? b + esize e)) bs = true); [|congruence].
      apply existsb_exists. exists b. split; [done|lia]. }
  pose proof (wp_adequate bad (msession pl e bs ops) (fun os m =>
    mcheck (F mF) (owo (A := den pl e)) (mvo (tc _ _ _ T)) (moves_always e) (moves_empty e) (assignable e) (stateless e) ops os
      (map (fun _ => None) bs) /\
    (forall i, Forall (fun b => ~ (b <= i < b + esize e)) bs -> m !! i = mem (st w) !! i) /\
    Forall (fun b => forall i, b <= i < b + esize e -> exists c, m !! i = Some c /\ dead c) bs) w) as Had.
  lapply Had; clear Had.
  - intros Had. destruct (msession pl e bs ops w) as [os w' evs|u evs]; [|done].
    destruct Had as [Hbad|(Hben&(Hchk&Hm1&Hm2)&Ht)]; [by left|right].
    split_and!; try done. exists (mvo (tc _ _ _ T)). split; [|by eapply mcheck_ext].
    unfold mvo. destruct (a_max (den pl e)); split; (by intros [? ?]) || by eexists.
  - rewrite Hpre. iIntros "H". iApply wp_strong_mono. iSplitL; [by iApply Hwp|].
    iIntros (os') "(%Hchk & Hr)". iDestruct (places_own with "Hr") as (m') "((%H1 & %H2) & H)".
    iExists m'. iFrame "H". iPureIntro. split_and!; [done| |done].
    intros i Hi. rewrite H1 // /mF clears_lookup N2Nat.id. destruct (existsb _ bs) eqn:E; [|done].
    exfalso. apply existsb_exists in E as (b&Hin&E). rewrite List.Forall_forall in Hi. apply (Hi b Hin). lia.
Qed.

(** Every movable composition. *)
Theorem move_safe bad pl e bs ops w : pl <> PPosix -> wf e = true -> movable e = true ->
  (eboxed e = true -> bad EvFail || bad EvRefuse = true) ->
  places bs (esize e) w -> mem (st w) !! 0 = None ->
  Forall (fun n => ereq pl e n = true /\ n < W) (mrequests ops) ->
  msession_ok bad pl e bs ops w.
Proof.
  intros H1 H2 H3 H4 H5 H6 H7. destruct (move_contract bad pl e H1 H2 H3 H4) as [T HL].
  by apply (slots_safe bad pl e T HL).
Qed.
