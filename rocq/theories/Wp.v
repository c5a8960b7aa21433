(** Points-to assertions and weakest preconditions. *)
From iris.proofmode Require Import tactics.
From Verif Require Import Base Mem Sep.

Local Open Scope N_scope.
Implicit Types s : store.

(** * Resources *)
Definition pt_def (a : N) (c : cell) : hprop := HProp (λ s, s = Store {[a := c]} ∅).
Definition pt_aux : seal (@pt_def). Proof. by eexists. Qed.
Definition pt := pt_aux.(unseal).
Definition pt_eq : @pt = @pt_def := pt_aux.(seal_eq).

(** The right to free the malloc block of [n] bytes at [a]. *)
Definition tok_def (a n : N) : hprop := HProp (λ s, s = Store ∅ {[a := n]}).
Definition tok_aux : seal (@tok_def). Proof. by eexists. Qed.
Definition tok := tok_aux.(unseal).
Definition tok_eq : @tok = @tok_def := tok_aux.(seal_eq).

(** A pure fact that owns nothing.  (A bare [⌜φ⌝] next to [∗] would absorb resources.) *)
Notation "⌈ φ ⌉" := (bi_affinely (bi_pure φ%N)) (at level 1, φ at level 200, format "⌈ φ ⌉") : bi_scope.
Lemma hunfold_apure φ s : hholds (⌈φ⌉%I : hpropI) s <-> s = sempty /\ φ.
Proof. unfold bi_affinely. rewrite hunfold_and hunfold_emp hunfold_pure. done. Qed.

Notation "a ↦ c" := (pt a c) (at level 20, format "a  ↦  c") : bi_scope.

Fixpoint pts (a : N) (cs : list cell) : hpropI :=
  match cs with [] => emp | c :: cs => a ↦ c ∗ pts (a + 1) cs end%I.
Notation "a ↦∗ cs" := (pts a cs) (at level 20, format "a  ↦∗  cs") : bi_scope.

(** * Weakest preconditions *)

(** [wp bad m Q]: from every world whose store contains the current resources, whatever
    the rest of the store is, [m] either emits an event classified as [bad] (the execution
    is then outside the scope of the claim) or terminates without undefined behaviour,
    with benign events only, leaves the rest of the store untouched, and ends with [Q]. *)
Definition wp_holds (bad : event -> bool) {A} (m : M A) (Q : A -> hpropI) (s : store) : Prop :=
  forall sf w, s ## sf -> st w = s ∪ sf ->
    match m w with
    | Ok a w' evs =>
      existsb bad evs = true \/
      (forallb benign evs = true /\ exists s', st w' = s' ∪ sf /\ s' ## sf /\ hholds (Q a) s')
    | Err _ evs => existsb bad evs = true
    end.

Definition wp_def (bad : event -> bool) {A} (m : M A) (Q : A -> hpropI) : hpropI := HProp (wp_holds bad m Q).
Definition wp_aux : seal (@wp_def). Proof. by eexists. Qed.
Definition wp := wp_aux.(unseal).
Definition wp_eq : @wp = @wp_def := wp_aux.(seal_eq).
Arguments wp bad {A} m Q.

Lemma wp_unfold bad {A} (m : M A) Q s : hholds (wp bad m Q) s = wp_holds bad m Q s.
Proof. by rewrite wp_eq. Qed.

Section rules.
  Context (bad : event -> bool).
  Local Notation wp := (wp bad).

  Lemma wp_strong_mono {A} (m : M A) (Q R : A -> hpropI) :
    wp m Q ∗ (∀ a, Q a -∗ R a) ⊢ wp m R.
  Proof.
    apply hunfold_entails. intros s. rewrite hunfold_sep wp_unfold.
    intros (s1&s2&->&Hd&Hwp&Hw). rewrite wp_unfold in Hwp. intros sf w Hsf Hst.
    specialize (Hwp (s2 ∪ sf) w).
    assert (s1 ## s2 ∪ sf) as Hd' by sdisj_solve.
    specialize (Hwp Hd'). rewrite sunion_assoc in Hwp. specialize (Hwp Hst).
    destruct (m w) as [a w' evs|u evs]; [|done].
    destruct Hwp as [?|(?&s'&Hst'&Hd1&HQ)]; [by left|]. right. split; [done|].
    rewrite sunion_assoc in Hst'. exists (s' ∪ s2). split_and!; [done|sdisj_solve|].
    rewrite hunfold_forall in Hw. specialize (Hw a). rewrite hunfold_wand in Hw.
    assert (s2 ## s') by sdisj_solve.
    rewrite sunion_comm; [|sdisj_solve]. apply Hw; [sdisj_solve|done].
  Qed.

  Lemma wp_mono {A} (m : M A) (Q R : A -> hpropI) : (forall a, Q a ⊢ R a) -> wp m Q ⊢ wp m R.
  Proof.
    intros H. iIntros "H". iApply wp_strong_mono. iFrame. iIntros (a) "HQ". by iApply H.
  Qed.

  Lemma wp_frame {A} (m : M A) (Q : A -> hpropI) (R : hpropI) :
    wp m Q ∗ R ⊢ wp m (fun a => Q a ∗ R)%I.
  Proof. iIntros "[H R]". iApply wp_strong_mono. iFrame. by iIntros (a) "$". Qed.

  Lemma wp_ret {A} (a : A) (Q : A -> hpropI) : Q a ⊢ wp (ret a) Q.
  Proof.
    apply hunfold_entails. intros s HQ. rewrite wp_unfold. intros sf w Hd Hst. cbn.
    right. split; [done|]. exists s. done.
  Qed.

  Lemma existsb_app_l (l1 l2 : list event) : existsb bad l1 = true -> existsb bad (l1 ++ l2) = true.
  Proof. intros H. by rewrite existsb_app H. Qed.
  Lemma existsb_app_r (l1 l2 : list event) : existsb bad l2 = true -> existsb bad (l1 ++ l2) = true.
  Proof. intros H. by rewrite existsb_app H orb_true_r. Qed.

  Lemma wp_bind {A B} (m : M A) (k : A -> M B) Q :
    wp m (fun a => wp (k a) Q) ⊢ wp (bind m k) Q.
  Proof.
    apply hunfold_entails. intros s. rewrite !wp_unfold. intros Hwp sf w Hd Hst.
    specialize (Hwp sf w Hd Hst). unfold bind.
    destruct (m w) as [a w1 e1|u e1]; [|done].
    destruct Hwp as [Hb|(Hb1&s1&Hst1&Hd1&Hk)].
    - destruct (k a w1) as [b w2 e2|u e2]; [left|]; by apply existsb_app_l.
    - rewrite wp_unfold in Hk. specialize (Hk sf w1 Hd1 Hst1).
      destruct (k a w1) as [b w2 e2|u e2].
      + destruct Hk as [?|(?&?)]; [left; by apply existsb_app_r|right].
        split; [|done]. by rewrite forallb_app Hb1.
      + by apply existsb_app_r.
  Qed.

  Lemma wp_emit e (Q : unit -> hpropI) : benign e = true -> Q tt ⊢ wp (emit e) Q.
  Proof.
    intros He. apply hunfold_entails. intros s HQ. rewrite wp_unfold. intros sf w Hd Hst. cbn.
    right. rewrite He. split; [done|]. exists s. done.
  Qed.

  (** Once a [bad] event has been emitted nothing remains to be proved. *)
  Lemma wp_bad {B} e (k : unit -> M B) (P : hpropI) Q : bad e = true -> P ⊢ wp (bind (emit e) k) Q.
  Proof.
    intros He. apply hunfold_entails. intros s _. rewrite wp_unfold. intros sf w Hd Hst.
    unfold bind, emit. destruct (k tt w) as [b w2 e2|u e2]; cbn; rewrite He; auto.
  Qed.

  Lemma wp_assert c (Q : unit -> hpropI) : c = true -> Q tt ⊢ wp (ktl_assert c) Q.
  Proof. intros ->. apply wp_ret. Qed.

  (** Equal computations. *)
  Lemma wp_ext {A} (m1 m2 : M A) Q : (forall w, m1 w = m2 w) -> wp m1 Q ⊢ wp m2 Q.
  Proof.
    intros H. apply hunfold_entails. intros s. rewrite !wp_unfold. intros Hwp sf w Hd Hst.
    rewrite -H. by apply Hwp.
  Qed.

  (** * Cells *)
  Lemma pt_lookup s1 sf a c : hholds (a ↦ c)%I s1 -> s1 ## sf -> mem (s1 ∪ sf) !! a = Some c.
  Proof.
    rewrite pt_eq. intros ->. intros _. cbn. apply lookup_union_Some_l. apply lookup_singleton.
  Qed.

  Lemma wp_rd a c (Q : cell -> hpropI) : a ↦ c ∗ (a ↦ c -∗ Q c) ⊢ wp (rd a) Q.
  Proof.
    apply hunfold_entails. intros s. rewrite hunfold_sep wp_unfold.
    intros (s1&s2&->&Hd&Hp&Hw). intros sf w Hsf Hst. unfold rd. rewrite Hst.
    rewrite -sunion_assoc (pt_lookup _ _ _ _ Hp); [|sdisj_solve].
    right. split; [done|]. exists (s1 ∪ s2). rewrite -sunion_assoc.
    split_and!; [rewrite Hst sunion_assoc //|done|].
    rewrite hunfold_wand in Hw. rewrite sunion_comm //. apply Hw; [sdisj_solve|done].
  Qed.

  Lemma wp_wr a c c' (Q : unit -> hpropI) : a ↦ c ∗ (a ↦ c' -∗ Q tt) ⊢ wp (wr a c') Q.
  Proof.
    apply hunfold_entails. intros s. rewrite hunfold_sep wp_unfold.
    intros (s1&s2&->&Hd&Hp&Hw). intros sf w Hsf Hst. unfold wr. rewrite Hst.
    rewrite -sunion_assoc (pt_lookup _ _ _ _ Hp); [|sdisj_solve].
    right. split; [done|].
    rewrite pt_eq in Hp. cbn in Hp. subst s1.
    assert (Hd2 : forall x, Store {[a := c]} ∅ ## x -> Store {[a := c']} ∅ ## x).
    { intros x [H1 H2]. split; [|done]. cbn in *. rewrite map_disjoint_singleton_l in H1.
      by rewrite map_disjoint_singleton_l. }
    exists (Store {[a := c']} ∅ ∪ s2). split_and!.
    - unfold upd_mem. cbn. rewrite Hst. unfold union, sunion. cbn. f_equal.
      rewrite -!insert_union_l. by rewrite !(left_id_L ∅ (∪)) insert_insert || idtac.
    - apply sdisj_union_l in Hsf as [??]. apply sdisj_union_l. split; [by apply Hd2|done].
    - rewrite hunfold_wand in Hw. rewrite sunion_comm; [|by apply Hd2].
      apply Hw; [apply sdisj_sym; by apply Hd2|]. by rewrite pt_eq.
  Qed.

  Lemma wp_rds a cs (Q : list cell -> hpropI) :
    a ↦∗ cs ∗ (a ↦∗ cs -∗ Q cs) ⊢ wp (rds a (length cs)) Q.
  Proof.
    revert a Q. induction cs as [|c cs IH]; intros a Q; cbn [length rds pts].
    - iIntros "[H HQ]". iApply wp_ret. by iApply "HQ".
    - iIntros "[[Hc Hcs] HQ]". iApply wp_bind. iApply wp_rd. iFrame "Hc". iIntros "Hc".
      iApply wp_bind. iApply IH. iFrame "Hcs". iIntros "Hcs". iApply wp_ret. iApply "HQ". iFrame.
  Qed.

  Lemma wp_wrs a cs cs' (Q : unit -> hpropI) :
    length cs = length cs' ->
    a ↦∗ cs ∗ (a ↦∗ cs' -∗ Q tt) ⊢ wp (wrs a cs') Q.
  Proof.
    revert a cs Q. induction cs' as [|c' cs' IH]; intros a [|c cs] Q Hl; try done; cbn [wrs pts].
    - iIntros "[H HQ]". iApply wp_ret. by iApply "HQ".
    - iIntros "[[Hc Hcs] HQ]". iApply wp_bind. iApply wp_wr. iFrame "Hc". iIntros "Hc".
      iApply IH; last iFrame "Hcs"; [by injection Hl|]. iIntros "Hcs". iApply "HQ". iFrame.
  Qed.

  Lemma wp_memset a b n cs (Q : unit -> hpropI) :
    n = N.of_nat (length cs) ->
    a ↦∗ cs ∗ (a ↦∗ repeat (Byte b) (N.to_nat n) -∗ Q tt) ⊢ wp (memset a b n) Q.
  Proof. intros ->. apply wp_wrs. rewrite repeat_length. lia. Qed.
End rules.

(** * Structure of ranges *)
Lemma pts_nil a : a ↦∗ [] ⊣⊢ emp.
Proof. done. Qed.

Lemma pts_cons a c cs : a ↦∗ (c :: cs) ⊣⊢ a ↦ c ∗ (a + 1) ↦∗ cs.
Proof. done. Qed.

Lemma pts_app a cs1 cs2 : a ↦∗ (cs1 ++ cs2) ⊣⊢ a ↦∗ cs1 ∗ (a + N.of_nat (length cs1)) ↦∗ cs2.
Proof.
  revert a. induction cs1 as [|c cs1 IH]; intros a; cbn [app pts length].
  - rewrite N.add_0_r left_id. done.
  - rewrite IH assoc. f_equiv. f_equiv. lia.
Qed.

Lemma pts_split a cs n : (n <= length cs)%nat ->
  a ↦∗ cs ⊣⊢ a ↦∗ take n cs ∗ (a + N.of_nat n) ↦∗ drop n cs.
Proof. intros Hn. rewrite -{1}(take_drop n cs) pts_app take_length_le //. Qed.

Lemma pt_ne a b c d : a ↦ c ∗ b ↦ d ⊢ ⌜a <> b⌝.
Proof.
  apply hunfold_entails. intros s. rewrite hunfold_sep hunfold_pure.
  intros (s1&s2&->&Hd&H1&H2) ->. rewrite pt_eq in H1 H2. cbn in H1, H2. subst.
  destruct Hd as [Hd _]. cbn in Hd. apply map_disjoint_singleton_l in Hd.
  by rewrite lookup_singleton in Hd.
Qed.

Lemma pts_ne a cs q d : a ↦∗ cs ∗ q ↦ d ⊢ ⌜q < a \/ a + N.of_nat (length cs) <= q⌝.
Proof.
  revert a. induction cs as [|c cs IH]; intros a; cbn [pts length].
  - iIntros "_". iPureIntro. lia.
  - iIntros "[[H1 H2] H3]". iDestruct (pt_ne with "[$H1 $H3]") as %?.
    iDestruct (IH with "[$H2 $H3]") as %?. iPureIntro. lia.
Qed.

Lemma pts_disj a cs b ds : a ↦∗ cs ∗ b ↦∗ ds ⊢
  ⌜cs = [] \/ ds = [] \/ a + N.of_nat (length cs) <= b \/ b + N.of_nat (length ds) <= a⌝.
Proof.
  revert b. induction ds as [|d ds IH]; intros b; cbn [pts length].
  - iIntros "_". iPureIntro. auto.
  - iIntros "[H1 [H2 H3]]". iDestruct (pts_ne with "[$H1 $H2]") as %H.
    iDestruct (IH with "[$H1 $H3]") as %H'. iPureIntro.
    destruct cs; [by left|]. cbn [length] in *. destruct H' as [?|[->|?]]; cbn in *; [by left|lia|lia].
Qed.

Lemma pts_take_ne a cs q : a ↦∗ cs ∗ ⌈a <= q < a + N.of_nat (length cs)⌉ ⊢
  ∃ c, ⌈cs !! N.to_nat (q - a) = Some c⌉ ∗ q ↦ c ∗ (∀ c', q ↦ c' -∗ a ↦∗ <[N.to_nat (q - a) := c']> cs).
Proof.
  iIntros "[H %Hq]". set (i := N.to_nat (q - a)).
  destruct (lookup_lt_is_Some_2 cs i) as [c Hc]; [lia|].
  iExists c. rewrite Hc.
  rewrite -{1}(take_drop_middle cs i c Hc) pts_app pts_cons take_length_le; [|lia].
  replace (a + N.of_nat i) with q by lia.
  iDestruct "H" as "(H1 & $ & H2)". iSplit; [done|]. iIntros (c') "Hc".
  rewrite insert_take_drop; [|lia]. rewrite pts_app pts_cons take_length_le; [|lia].
  replace (a + N.of_nat i) with q by lia. iFrame.
Qed.

(** * Ownership of a finite map of bytes *)
Definition own_def (m : gmap N cell) : hprop := HProp (λ s, s = Store m ∅).
Definition own_aux : seal (@own_def). Proof. by eexists. Qed.
Definition own := own_aux.(unseal).
Definition own_eq : @own = @own_def := own_aux.(seal_eq).

Lemma own_empty : own ∅ ⊣⊢ emp.
Proof.
  apply bi.equiv_entails. rewrite own_eq.
  split; apply hunfold_entails; intros s; rewrite hunfold_emp; intros H; exact H.
Qed.

Lemma own_union m1 m2 : m1 ##ₘ m2 -> own (m1 ∪ m2) ⊣⊢ own m1 ∗ own m2.
Proof.
  intros Hd. apply bi.equiv_entails. rewrite own_eq.
  split; apply hunfold_entails; intros s; rewrite hunfold_sep; cbn.
  - intros ->. exists (Store m1 ∅), (Store m2 ∅). split_and!; try done.
    unfold union at 2, sunion. cbn. by rewrite (left_id_L ∅ (∪)).
  - intros (s1&s2&->&?&->&->). unfold union at 1, sunion. cbn. by rewrite (left_id_L ∅ (∪)).
Qed.

Lemma own_sep_disj m1 m2 : own m1 ∗ own m2 ⊢ ⌜m1 ##ₘ m2⌝.
Proof.
  rewrite own_eq. apply hunfold_entails; intros s; rewrite hunfold_sep hunfold_pure; cbn.
  intros (s1&s2&->&[H _]&->&->). done.
Qed.

Lemma own_sep m1 m2 : own m1 ∗ own m2 ⊢ ⌈m1 ##ₘ m2⌉ ∗ own (m1 ∪ m2).
Proof.
  iIntros "[H1 H2]". iDestruct (own_sep_disj with "[$H1 $H2]") as %H.
  rewrite own_union //. by iFrame.
Qed.

Lemma own_pt a c : own {[a := c]} ⊣⊢ a ↦ c.
Proof.
  apply bi.equiv_entails. rewrite own_eq pt_eq.
  split; apply hunfold_entails; intros s H; exact H.
Qed.

Lemma fill_lookup a cs i : fill a cs !! i =
  if (a <=? i) && (i <? a + N.of_nat (length cs)) then cs !! N.to_nat (i - a) else None.
Proof.
  revert a. induction cs as [|c cs IH]; intros a; cbn [fill length].
  - rewrite lookup_empty. destruct (_ && _) eqn:?; [lia|done].
  - destruct (decide (i = a)) as [->|Hne].
    + rewrite lookup_insert. replace (N.to_nat (a - a)) with O by lia.
      destruct (_ && _) eqn:?; [done|lia].
    + rewrite lookup_insert_ne // IH.
      destruct (_ && _) eqn:?; destruct (_ && _) eqn:? in |- *; try lia; [|done].
      replace (N.to_nat (i - a)) with (S (N.to_nat (i - (a + 1)))) by lia. done.
Qed.

Lemma fill_dom a cs i : is_Some (fill a cs !! i) <-> a <= i < a + N.of_nat (length cs).
Proof.
  rewrite fill_lookup. destruct (_ && _) eqn:?.
  - split; [lia|]. intros. apply lookup_lt_is_Some_2. lia.
  - split; [by intros []|lia].
Qed.

Lemma fill_dom_None a cs i : fill a cs !! i = None <-> ~ (a <= i < a + N.of_nat (length cs)).
Proof. rewrite -fill_dom eq_None_not_Some. done. Qed.

Lemma fill_own a cs : own (fill a cs) ⊣⊢ a ↦∗ cs.
Proof.
  revert a. induction cs as [|c cs IH]; intros a; cbn [fill pts].
  - apply own_empty.
  - rewrite insert_union_singleton_l own_union.
    + rewrite own_pt IH. done.
    + apply map_disjoint_singleton_l_2. apply fill_dom_None. lia.
Qed.

(** The contents of [n] bytes at [a] in a map. *)
Fixpoint cells (m : gmap N cell) (a : N) (n : nat) : list cell :=
  match n with O => [] | S n => default Undef (m !! a) :: cells m (a + 1) n end.

Lemma cells_length m a n : length (cells m a n) = n.
Proof. revert a; induction n; intros; cbn; f_equal; auto. Qed.

Lemma cells_lookup m a n i : (i < n)%nat -> cells m a n !! i = Some (default Undef (m !! (a + N.of_nat i))).
Proof.
  revert a i. induction n as [|n IH]; intros a i Hi; [lia|]. cbn. destruct i; cbn.
  - by rewrite N.add_0_r.
  - rewrite IH; [|lia]. do 3 f_equal. lia.
Qed.

Lemma cells_Forall (P : cell -> Prop) m a n :
  (forall i, a <= i < a + N.of_nat n -> exists c, m !! i = Some c /\ P c) -> Forall P (cells m a n).
Proof.
  intros H. apply Forall_lookup. intros i c Hi.
  pose proof (lookup_lt_Some _ _ _ Hi) as Hl. rewrite cells_length in Hl.
  rewrite cells_lookup // in Hi. destruct (H (a + N.of_nat i)) as (c'&Hc&Hp); [lia|].
  rewrite Hc in Hi. cbn in Hi. congruence.
Qed.

Lemma clear_lookup a n m i : clear a n m !! i = if (a <=? i) && (i <? a + N.of_nat n) then None else m !! i.
Proof.
  revert a. induction n as [|n IH]; intros a; cbn [clear].
  - destruct (_ && _) eqn:?; [lia|done].
  - destruct (decide (i = a)) as [->|].
    + rewrite lookup_delete. destruct (_ && _) eqn:?; [done|lia].
    + rewrite lookup_delete_ne // IH. destruct (_ && _) eqn:?; destruct (_ && _) eqn:? in |- *; try done; lia.
Qed.

(** Take a range out of a map and put it back. *)
Lemma own_take m a n :
  (forall i, a <= i < a + N.of_nat n -> is_Some (m !! i)) ->
  own m ⊣⊢ a ↦∗ cells m a n ∗ own (clear a n m).
Proof.
  intros H. rewrite -fill_own -own_union.
  - f_equiv. apply map_eq. intros i. rewrite lookup_union fill_lookup clear_lookup cells_length.
    destruct (_ && _) eqn:E.
    + destruct (H i) as [c Hc]; [lia|]. rewrite cells_lookup; [|lia].
      replace (a + N.of_nat (N.to_nat (i - a))) with i by lia. by rewrite Hc.
    + by rewrite left_id_L.
  - apply map_disjoint_spec. intros i x y. rewrite fill_lookup clear_lookup cells_length.
    destruct (_ && _); done.
Qed.

Lemma own_put m a cs : own m ∗ a ↦∗ cs ⊢
  ⌈forall i, a <= i < a + N.of_nat (length cs) -> m !! i = None⌉ ∗ own (fill a cs ∪ m).
Proof.
  rewrite -fill_own. iIntros "[H1 H2]". iDestruct (own_sep with "[$H2 $H1]") as (Hd) "$".
  iPureIntro. intros i Hi. apply fill_dom in Hi as [c Hc]. by eapply map_disjoint_Some_l.
Qed.

(** * malloc and free *)
Section malloc.
  Context (bad : event -> bool).
  Local Notation wp := (wp bad).

  Lemma vacant_spec a n s : vacant a n s = true <->
    forall i, a <= i < a + N.of_nat n -> mem s !! i = None /\ mtab s !! i = None.
  Proof.
    revert a. induction n as [|n IH]; intros a; cbn [vacant].
    - split; [lia|done].
    - destruct (mem s !! a) eqn:E1; [|destruct (mtab s !! a) eqn:E2].
      + split; [done|]. intros H. destruct (H a); [lia|congruence].
      + split; [done|]. intros H. destruct (H a); [lia|congruence].
      + rewrite IH. split.
        * intros H i Hi. destruct (decide (i = a)) as [->|]; [done|]. apply H. lia.
        * intros H i Hi. apply H. lia.
  Qed.

  Lemma store_union_split (m1 m2 : gmap N cell) (t1 t2 : gmap N N) :
    Store (m1 ∪ m2) (t1 ∪ t2) = Store m1 t1 ∪ Store m2 t2.
  Proof. done. Qed.

  (** The null case need not be considered if a refusal of malloc is out of scope. *)
  Lemma wp_malloc_or al n (Q : N -> hpropI) :
    ((⌜bad EvRefuse = false⌝ → Q 0) ∧ ∀ a, ⌈a <> 0 /\ a mod al = 0 /\ a + n < W⌉ -∗
                a ↦∗ repeat Undef (N.to_nat n) ∗ tok a n -∗ Q a) ⊢ wp (malloc al n) Q.
  Proof.
    apply hunfold_entails. intros s. rewrite hunfold_and wp_unfold. intros [H0 H1] sf w Hd Hst.
    unfold malloc. destruct (malloc_valid _ _ _ _) eqn:Hv.
    - right. split; [done|]. unfold malloc_valid in Hv.
      rewrite !andb_true_iff in Hv. destruct Hv as (((Ha&Hal)&Hw)&Hvac).
      set (a := orc w (tick w)) in *. rewrite vacant_spec in Hvac. rewrite Hst in Hvac. cbn in Hvac.
      assert (Hfd : fill a (repeat Undef (N.to_nat n)) ##ₘ (mem s ∪ mem sf)).
      { apply map_disjoint_spec. intros i x y Hx Hy.
        assert (is_Some (fill a (repeat Undef (N.to_nat n)) !! i)) as Hi by eauto.
        apply fill_dom in Hi. rewrite repeat_length in Hi. destruct (Hvac i); [lia|]. congruence. }
      assert (Htd : ({[a := n]} : gmap N N) ##ₘ (mtab s ∪ mtab sf)).
      { apply map_disjoint_singleton_l_2. apply Hvac. lia. }
      apply map_disjoint_union_r in Hfd as [Hfd1 Hfd2].
      apply map_disjoint_union_r in Htd as [Htd1 Htd2].
      set (s' := Store (fill a (repeat Undef (N.to_nat n))) {[a := n]}).
      assert (s' ## s) by (split; done). assert (s' ## sf) by (split; done).
      exists (s ∪ s'). cbn. split_and!.
      + rewrite Hst. destruct s as [ms ts], sf as [mf tf]. unfold s'.
        rewrite -!store_union_split. cbn [mem mtab]. f_equal.
        * rewrite -!map_union_assoc. f_equal. by apply map_union_comm.
        * rewrite insert_union_singleton_l map_union_assoc. f_equal. by apply map_union_comm.
      + sdisj_solve.
      + rewrite hunfold_forall in H1. specialize (H1 a).
        rewrite hunfold_wand in H1.
        specialize (H1 sempty (sdisj_empty_r _)). rewrite hunfold_apure sunion_empty_r hunfold_wand in H1.
        apply H1; [split; [done|lia]|sdisj_solve|].
        rewrite hunfold_sep.
        exists (Store (fill a (repeat Undef (N.to_nat n))) ∅), (Store ∅ {[a := n]}).
        split_and!.
        * unfold union, sunion. cbn. by rewrite (left_id_L ∅ (∪)) (right_id_L ∅ (∪)).
        * split; cbn; [apply map_disjoint_empty_r|apply map_disjoint_empty_l].
        * assert (HH : hholds (own (fill a (repeat Undef (N.to_nat n)))) (Store (fill a (repeat Undef (N.to_nat n))) ∅)).
          { by rewrite own_eq. }
          destruct (fill_own a (repeat Undef (N.to_nat n))  (Store (fill a (repeat Undef (N.to_nat n))) ∅)) as [Hx _].
          by apply Hx.
        * by rewrite tok_eq.
    - cbn [existsb]. destruct (bad EvRefuse) eqn:Hbr; [by left|]. right. split; [done|]. exists s.
      split_and!; [done..|]. rewrite hunfold_impl hunfold_pure in H0. by apply H0.
  Qed.

  Lemma wp_malloc al n (Q : N -> hpropI) :
    (Q 0 ∧ ∀ a, ⌈a <> 0 /\ a mod al = 0 /\ a + n < W⌉ -∗
                a ↦∗ repeat Undef (N.to_nat n) ∗ tok a n -∗ Q a) ⊢ wp (malloc al n) Q.
  Proof.
    iIntros "H". iApply wp_malloc_or. iSplit; [iIntros (_); by iDestruct "H" as "[$ _]"|by iDestruct "H" as "[_ $]"].
  Qed.

  Lemma wp_free_null (Q : unit -> hpropI) : Q tt ⊢ wp (mfree 0) Q.
  Proof.
    apply hunfold_entails. intros s. rewrite wp_unfold. intros HQ sf w Hd Hst.
    right. split; [done|]. by exists s.
  Qed.

  Lemma wp_free a cs n (Q : unit -> hpropI) :
    a <> 0 -> n = N.of_nat (length cs) ->
    a ↦∗ cs ∗ tok a n ∗ Q tt ⊢ wp (mfree a) Q.
  Proof.
    intros Ha ->. apply hunfold_entails. intros s. rewrite hunfold_sep wp_unfold.
    intros (s1&s2'&->&Hd1&H1&H2) sf w Hd Hst. rewrite hunfold_sep in H2.
    destruct H2 as (s2&s3&->&Hd2&H2&H3).
    rewrite tok_eq in H2. cbn in H2. subst s2.
    destruct (fill_own a cs s1) as [_ Hx]. apply Hx in H1. clear Hx.
    rewrite own_eq in H1. cbn in H1. subst s1.
    unfold mfree. destruct (a =? 0) eqn:?; [lia|]. rewrite Hst.
    destruct s3 as [m3 t3], sf as [mf tf].
    rewrite -!store_union_split. cbn [mtab mem]. rewrite !(left_id_L ∅ (∪)).
    rewrite -!insert_union_singleton_l -insert_union_l lookup_insert.
    right. split; [done|]. exists (Store m3 t3). cbn [st].
    sdisj_solve. split_and!; try done.
    repeat match goal with H : _ ## _ |- _ => destruct H as [??] end. cbn [mem mtab] in *.
    rewrite -!store_union_split. f_equal.
    - apply map_eq. intros i. rewrite clear_lookup Nat2N.id.
      destruct (_ && _) eqn:E.
      + symmetry. apply lookup_union_None.
        assert (is_Some (fill a cs !! i)) as [c Hc] by (apply fill_dom; lia).
        split; eapply (map_disjoint_Some_l (fill a cs)); eassumption.
      + rewrite -map_union_assoc. rewrite lookup_union_r; [done|]. apply fill_dom_None. lia.
    - apply delete_insert. apply lookup_union_None.
      split; apply map_disjoint_singleton_l with (x := N.of_nat (length cs)); done.
  Qed.
End malloc.

(** * Derived operations *)
Lemma enc_length k x : length (enc k x) = k.
Proof. revert x; induction k; intros; cbn; f_equal; auto. Qed.

Lemma dec_enc k x : dec (enc k x) = Some (x mod 256 ^ N.of_nat k).
Proof.
  revert x. induction k as [|k IH]; intros x; cbn [enc dec].
  - change (256 ^ N.of_nat 0) with 1. by rewrite N.mod_1_r.
  - rewrite IH. f_equal. rewrite Nat2N.inj_succ N.pow_succ_r'.
    rewrite (N.mul_comm 256 (256 ^ _)) N.mul_comm.
    rewrite (N.mul_comm (256 ^ N.of_nat k) 256) N.mod_mul_r; [lia|lia|].
    apply N.pow_nonzero. lia.
Qed.

Lemma dec_enc8 x : x < W -> dec (enc 8 x) = Some x.
Proof.
  intros Hx. rewrite dec_enc. f_equal. apply N.mod_small.
  change (256 ^ N.of_nat 8) with W. done.
Qed.

Lemma enc_dead k x : Forall dead (enc k x).
Proof. revert x; induction k; intros; cbn; constructor; auto. done. Qed.

Lemma undef_dead k : Forall dead (repeat Undef k).
Proof. induction k; cbn; constructor; auto. done. Qed.

Lemma byte_dead b k : Forall dead (repeat (Byte b) k).
Proof. induction k; cbn; constructor; auto. done. Qed.

(** [n] accessible bytes at [p] without live objects in them. *)
Definition raw (p n : N) : hpropI :=
  ∃ cs, ⌈N.of_nat (length cs) = n /\ Forall dead cs⌉ ∗ p ↦∗ cs.

Lemma raw_intro p n cs : N.of_nat (length cs) = n -> Forall dead cs -> p ↦∗ cs ⊢ raw p n.
Proof. intros. iIntros "H". iExists cs. by iFrame. Qed.

Lemma raw_split p n m : m <= n -> raw p n ⊣⊢ raw p m ∗ raw (p + m) (n - m).
Proof.
  intros Hm. iSplit.
  - iIntros "(%cs&(%Hl&%Hd)&H)". rewrite (pts_split _ _ (N.to_nat m)); [|lia].
    iDestruct "H" as "[H1 H2]". rewrite N2Nat.id. iSplitL "H1".
    + iApply raw_intro; last done; [rewrite take_length; lia|by apply Forall_take].
    + iApply raw_intro; last done; [rewrite drop_length; lia|by apply Forall_drop].
  - iIntros "[(%cs&(%Hl&%Hd)&H) (%cs2&(%Hl2&%Hd2)&H2)]". iApply (raw_intro _ _ (cs ++ cs2)).
    + rewrite app_length. lia.
    + by apply Forall_app.
    + rewrite pts_app Hl. iFrame.
Qed.

Lemma raw_0 p : raw p 0 ⊣⊢ emp.
Proof.
  iSplit.
  - iIntros "(%cs&(%Hl&%Hd)&H)". destruct cs; [done|cbn in Hl; lia].
  - iIntros "_". by iApply (raw_intro _ _ []).
Qed.

Section derived.
  Context (bad : event -> bool).
  Local Notation wp := (wp bad).

  Lemma wp_rds' a cs n (Q : list cell -> hpropI) :
    n = length cs -> a ↦∗ cs ∗ (a ↦∗ cs -∗ Q cs) ⊢ wp (rds a n) Q.
  Proof. intros ->. apply wp_rds. Qed.

  Lemma wp_rd_ptr a x (Q : N -> hpropI) :
    x < W -> a ↦∗ enc 8 x ∗ (a ↦∗ enc 8 x -∗ Q x) ⊢ wp (rd_ptr a) Q.
  Proof.
    intros Hx. iIntros "[H HQ]". iApply wp_bind. iApply (wp_rds' _ (enc 8 x)); [by rewrite enc_length|].
    iFrame. iIntros "H". rewrite dec_enc8 //. iApply wp_ret. by iApply "HQ".
  Qed.

  Lemma wp_wr_ptr a x cs (Q : unit -> hpropI) :
    length cs = 8%nat -> a ↦∗ cs ∗ (a ↦∗ enc 8 x -∗ Q tt) ⊢ wp (wr_ptr a x) Q.
  Proof. intros Hl. apply wp_wrs. by rewrite enc_length. Qed.

  Lemma wp_memcpy dst src n cs ds (Q : unit -> hpropI) :
    N.of_nat (length cs) = n -> length ds = length cs ->
    src ↦∗ cs ∗ dst ↦∗ ds ∗ (src ↦∗ cs -∗ dst ↦∗ cs -∗ Q tt) ⊢ wp (memcpy dst src n) Q.
  Proof.
    intros Hn Hl. iIntros "(Hs & Hd & HQ)". unfold memcpy.
    destruct (n =? 0) eqn:E.
    - destruct cs; [|cbn in Hn; lia]. destruct ds; [|done]. iApply wp_ret. by iApply ("HQ" with "Hs").
    - iDestruct (pts_disj with "[$Hs $Hd]") as %H.
      destruct (_ && _) eqn:E'.
      + exfalso. destruct H as [->|[->|H]]; cbn in *; lia.
      + iApply wp_bind. iApply (wp_rds' _ cs); [lia|]. iFrame. iIntros "Hs".
        iApply (wp_wrs _ _ ds); [lia|]. iFrame. iIntros "Hd". by iApply ("HQ" with "Hs").
  Qed.

  (** * Elements *)
  Lemma chunk_length sz v : length (chunk sz v) = sz.
  Proof. unfold chunk. by rewrite map_length seq_length. Qed.
  Lemma ochunk_length sz v : length (ochunk sz v) = sz.
  Proof. unfold ochunk. by rewrite map_length seq_length. Qed.
  Lemma chunk_dead sz v : Forall dead (chunk sz v).
  Proof. unfold chunk. apply Forall_map. by apply Forall_true. Qed.

  Lemma unchunk_chunk sz v : (0 < sz)%nat -> unchunk sz (chunk sz v) = Some v.
  Proof.
    intros H. destruct sz as [|sz]; [lia|]. unfold unchunk.
    change (chunk (S sz) v) with (Frag v 0 :: map (Frag v) (seq 1 sz)) at 1.
    rewrite decide_True //.
  Qed.
  Lemma unochunk_ochunk sz v : (0 < sz)%nat -> unochunk sz (ochunk sz v) = Some v.
  Proof.
    intros H. destruct sz as [|sz]; [lia|]. unfold unochunk.
    change (ochunk (S sz) v) with (Obj v 0 :: map (Obj v) (seq 1 sz)) at 1.
    rewrite decide_True //.
  Qed.

  Lemma forallb_deadb cs : forallb deadb cs = true <-> Forall dead cs.
  Proof.
    unfold dead. induction cs; cbn; [done|]. rewrite andb_true_iff IHcs Forall_cons_iff. done.
  Qed.

  Lemma wp_load sz a v (Q : value -> hpropI) : (0 < sz)%nat ->
    a ↦∗ chunk sz v ∗ (a ↦∗ chunk sz v -∗ Q v) ⊢ wp (load sz a) Q.
  Proof.
    intros Hs. iIntros "[H HQ]". iApply wp_bind. iApply (wp_rds' _ (chunk sz v)); [by rewrite chunk_length|].
    iFrame. iIntros "H". rewrite unchunk_chunk //. iApply wp_ret. by iApply "HQ".
  Qed.

  Lemma wp_stor sz a v cs (Q : unit -> hpropI) : length cs = sz ->
    a ↦∗ cs ∗ (a ↦∗ chunk sz v -∗ Q tt) ⊢ wp (stor sz a v) Q.
  Proof. intros Hs. apply wp_wrs. by rewrite chunk_length. Qed.

  Lemma wp_obj_get sz a v (Q : value -> hpropI) : (0 < sz)%nat ->
    a ↦∗ ochunk sz v ∗ (a ↦∗ ochunk sz v -∗ Q v) ⊢ wp (obj_get sz a) Q.
  Proof.
    intros Hs. iIntros "[H HQ]". iApply wp_bind. iApply (wp_rds' _ (ochunk sz v)); [by rewrite ochunk_length|].
    iFrame. iIntros "H". rewrite unochunk_ochunk //. iApply wp_ret. by iApply "HQ".
  Qed.

  Lemma wp_obj_set sz a v v' (Q : unit -> hpropI) : (0 < sz)%nat ->
    a ↦∗ ochunk sz v ∗ (a ↦∗ ochunk sz v' -∗ Q tt) ⊢ wp (obj_set sz a v') Q.
  Proof.
    intros Hs. iIntros "[H HQ]". iApply wp_bind. iApply wp_obj_get; [done|]. iFrame. iIntros "H".
    iApply wp_wrs; last iFrame. by rewrite !ochunk_length.
  Qed.

  Lemma wp_obj_new sz a cs v (Q : unit -> hpropI) : length cs = sz -> Forall dead cs ->
    a ↦∗ cs ∗ (a ↦∗ ochunk sz v -∗ Q tt) ⊢ wp (obj_new sz a v) Q.
  Proof.
    intros Hs Hd. iIntros "[H HQ]". iApply wp_bind. iApply (wp_rds' _ cs); [done|]. iFrame. iIntros "H".
    apply forallb_deadb in Hd. rewrite Hd. iApply wp_wrs; last iFrame. by rewrite !ochunk_length.
  Qed.

  Lemma wp_obj_del sz a v (Q : unit -> hpropI) : (0 < sz)%nat ->
    a ↦∗ ochunk sz v ∗ (a ↦∗ repeat Undef sz -∗ Q tt) ⊢ wp (obj_del sz a) Q.
  Proof.
    intros Hs. iIntros "[H HQ]". iApply wp_bind. iApply wp_obj_get; [done|]. iFrame. iIntros "H".
    iApply wp_wrs; last iFrame. by rewrite ochunk_length repeat_length.
  Qed.

  Lemma wp_obj_none a n cs (Q : unit -> hpropI) : N.of_nat (length cs) = n -> Forall dead cs ->
    a ↦∗ cs ∗ (a ↦∗ cs -∗ Q tt) ⊢ wp (obj_none a n) Q.
  Proof.
    intros Hs Hd. iIntros "[H HQ]". iApply wp_bind. iApply (wp_rds' _ cs); [lia|]. iFrame. iIntros "H".
    apply forallb_deadb in Hd. rewrite Hd. iApply wp_ret. by iApply "HQ".
  Qed.
End derived.

(** * The number of accessible bytes *)
Definition memsize_def (k : nat) : hprop := HProp (λ s, (k <= size (mem s))%nat).
Definition memsize_aux : seal (@memsize_def). Proof. by eexists. Qed.
Definition memsize := memsize_aux.(unseal).
Definition memsize_eq : @memsize = @memsize_def := memsize_aux.(seal_eq).

Lemma size_sunion (s1 s2 : store) : s1 ## s2 -> size (mem (s1 ∪ s2)) = (size (mem s1) + size (mem s2))%nat.
Proof. intros [H _]. cbn. by apply map_size_disj_union. Qed.

Lemma memsize_0 (P : hpropI) : P ⊢ memsize 0.
Proof. rewrite memsize_eq. apply hunfold_entails. intros s _. cbn. lia. Qed.

Lemma memsize_sep j k : memsize j ∗ memsize k ⊢ memsize (j + k).
Proof.
  rewrite memsize_eq. apply hunfold_entails. intros s. rewrite hunfold_sep.
  intros (s1&s2&->&Hd&H1&H2). cbn in *. rewrite (map_size_disj_union _ _ (proj1 Hd)). lia.
Qed.

Lemma memsize_pt a c : a ↦ c ⊢ memsize 1.
Proof.
  rewrite memsize_eq pt_eq. apply hunfold_entails. intros s ->. cbn. rewrite map_size_singleton. lia.
Qed.

Lemma memsize_pts a cs : a ↦∗ cs ⊢ memsize (length cs).
Proof.
  revert a. induction cs as [|c cs IH]; intros a; cbn [length].
  - apply memsize_0.
  - rewrite pts_cons memsize_pt IH. apply memsize_sep.
Qed.

Lemma memsize_frame k (P : hpropI) : memsize k ∗ P ⊢ memsize k.
Proof. rewrite (memsize_0 P) memsize_sep. by rewrite Nat.add_0_r. Qed.

Lemma wp_fuel bad {A} (f : nat -> M A) (P : hpropI) Q n :
  (P ⊢ memsize n) -> (forall k, (n <= k)%nat -> P ⊢ wp bad (f k) Q) ->
  P ⊢ wp bad (fun w => f (size (mem (st w))) w) Q.
Proof.
  intros HP Hf. apply hunfold_entails. intros s Hs. rewrite wp_unfold. intros sf w Hd Hst.
  assert (Hsz : (n <= size (mem (st w)))%nat).
  { rewrite hunfold_entails in HP. specialize (HP s Hs). rewrite memsize_eq in HP. cbn in HP.
    rewrite Hst size_sunion //. lia. }
  specialize (Hf _ Hsz). rewrite hunfold_entails in Hf. specialize (Hf s Hs). rewrite wp_unfold in Hf.
  by apply Hf.
Qed.

(** All addresses are below 2^64, hence there are fewer than 2^64 accessible bytes. *)
Lemma map_size_bound {V} (m : gmap N V) k : (forall i, is_Some (m !! i) -> i < k) -> N.of_nat (size m) <= k.
Proof.
  revert m. induction k as [|k IH] using N.peano_ind; intros m Hm.
  - assert (m = ∅) as ->.
    { apply map_eq. intros i. rewrite lookup_empty. apply eq_None_not_Some. intros H. apply Hm in H. lia. }
    rewrite map_size_empty. lia.
  - assert (N.of_nat (size (delete k m)) <= k).
    { apply IH. intros i. destruct (decide (i = k)) as [->|]; [by rewrite lookup_delete; intros []|].
      rewrite lookup_delete_ne //. intros Hi. apply Hm in Hi. lia. }
    destruct (m !! k) eqn:E.
    + rewrite map_size_delete E in H. cbn in H. lia.
    + rewrite delete_notin // in H. lia.
Qed.

Lemma memsize_cut i j k : (k <= i + j)%nat -> memsize i ∗ memsize j ⊢ memsize k.
Proof.
  intros H. rewrite memsize_sep memsize_eq. apply hunfold_entails. intros s. cbn. lia.
Qed.
