(** Threads that lock mutexes in descending order never block each other for good. *)
From Coq Require Import ssreflect.
From Verif Require Import Base Locks.

Local Open Scope N_scope.

(** Locks and unlocks are nested, and while a mutex is held only mutexes with smaller numbers are locked. *)
Inductive nested : N -> list act -> Prop :=
| nested_nil hi : nested hi []
| nested_use hi m l1 l2 : fst m < hi -> nested (fst m) l1 -> nested hi l2 -> nested hi (Acq m :: l1 ++ Rel m :: l2).

Lemma nested_mono hi hi' l : nested hi l -> hi <= hi' -> nested hi' l.
Proof.
  intros H. revert hi'. induction H as [hi|hi m l1 l2 Hm H1 IH1 H2 IH2]; intros hi' Hle; [constructor|].
  constructor; [lia|done|by apply IH2].
Qed.
Lemma nested_app hi l l' : nested hi l -> nested hi l' -> nested hi (l ++ l').
Proof.
  intros H. induction H as [hi|hi m l1 l2 Hm H1 IH1 H2 IH2]; intros H'; [done|].
  cbn [app]. rewrite -app_assoc. cbn [app]. constructor; [done|done|by apply IH2].
Qed.

(** What a thread that holds [held] has yet to do. *)
Fixpoint closing (hi : N) (held : list mutex) (l : list act) : Prop :=
  match held with
  | [] => nested hi l
  | m :: held => exists l1 l2, l = l1 ++ Rel m :: l2 /\ nested (fst m) l1 /\ closing hi held l2
  end.
(** The mutexes held are in descending order, the latest is the smallest. *)
Fixpoint ordered (held : list mutex) : Prop :=
  match held with
  | [] => True
  | m :: held => Forall (fun n => fst m < fst n) held /\ ordered held
  end.

Lemma nested_acq hi m l : nested hi (Acq m :: l) -> fst m < hi /\ exists l1 l2, l = l1 ++ Rel m :: l2 /\ nested (fst m) l1 /\ nested hi l2.
Proof. intros H. inversion H; subst. eauto 10. Qed.
Lemma nested_rel hi m l : nested hi (Rel m :: l) -> False.
Proof. inversion 1. Qed.

Lemma closing_nil hi held : closing hi held [] -> held = [].
Proof. destruct held as [|m held]; [done|]. intros (l1&l2&H&_). by destruct l1. Qed.
Lemma closing_acq hi m held l : closing hi held (Acq m :: l) ->
  closing hi (m :: held) l /\ match held with [] => True | n :: _ => fst m < fst n end.
Proof.
  destruct held as [|n held]; cbn [closing].
  - intros (H&l1&l2&->&H1&H2)%nested_acq. split; [|done]. eauto.
  - intros (l1&l2&H&H1&H2). destruct l1 as [|a l1]; [done|]. injection H as <- ->.
    apply nested_acq in H1 as (Hm&k1&k2&->&K1&K2). split; [|done].
    exists k1, (k2 ++ Rel n :: l2). rewrite -app_assoc. split; [done|]. split; [done|]. eauto.
Qed.
Lemma closing_rel hi m held l : closing hi held (Rel m :: l) -> exists h, held = m :: h /\ closing hi h l.
Proof.
  destruct held as [|n held]; cbn [closing]; [by intros H%nested_rel|].
  intros (l1&l2&H&H1&H2). destruct l1 as [|a l1].
  - injection H as -> ->. eauto.
  - injection H as <- ->. by apply nested_rel in H1.
Qed.
Lemma closing_unwind hi held : closing hi held (map Rel held).
Proof.
  induction held as [|m held IH]; cbn [closing map]; [constructor|]. exists [], (map Rel held).
  split; [done|]. split; [constructor|done].
Qed.
Lemma closing_length hi held l : closing hi held l -> (length held <= length l)%nat.
Proof.
  revert l. induction held as [|m held IH]; intros l; cbn [closing length]; [lia|].
  intros (l1&l2&->&_&H). apply IH in H. rewrite app_length. cbn. lia.
Qed.

Lemma ordered_cons m held : ordered held -> match held with [] => True | n :: _ => fst m < fst n end -> ordered (m :: held).
Proof.
  intros H Hm. split; [|done]. destruct held as [|n held]; [done|]. destruct H as [H _]. constructor; [done|].
  rewrite Forall_forall in H. apply Forall_forall. intros x Hx. specialize (H x Hx). cbn in *. lia.
Qed.

Lemma meq_true m n : meq m n = true <-> m = n.
Proof. destruct m, n. unfold meq. cbn. rewrite andb_true_iff !N.eqb_eq. naive_solver. Qed.
Lemma holds_in t m : holds t m = true <-> m ∈ t_held t.
Proof.
  unfold holds. rewrite existsb_exists. split.
  - intros (n&Hn&->%meq_true). by apply elem_of_list_In.
  - intros H. exists m. split; [by apply elem_of_list_In|by apply meq_true].
Qed.

Lemma list_sum_cons x l : list_sum (x :: l) = (x + list_sum l)%nat.
Proof. done. Qed.

(** * The invariant *)
Section inv.
  Context (hi : N).

  Definition fine (t : thread) : Prop := ordered (t_held t) /\ closing hi (t_held t) (t_now t) /\ Forall (nested hi) (t_later t).

  Definition todo (t : thread) : nat := length (t_now t) + list_sum (map (fun c => S (length c)) (t_later t)).
  Definition left (c : list thread) : nat := list_sum (map todo c).

  Lemma left_insert c k t t' : c !! k = Some t -> (todo t' < todo t)%nat -> (left (<[k := t']> c) < left c)%nat.
  Proof.
    unfold left. revert k. induction c as [|x c IH]; intros [|k] Hk Ht; try done.
    - injection Hk as ->. cbn. unfold list_sum. lia.
    - specialize (IH k Hk Ht). change (<[S k:=t']> (x :: c)) with (x :: <[k:=t']> c). cbn [map]. rewrite !list_sum_cons. lia.
  Qed.

  Lemma turn_fine f k c : Forall fine c ->
    match take_turn f k c with Moves c' => Forall fine c' /\ (left c' < left c)%nat | Wrong => False | _ => True end.
  Proof.
    intros Hc. unfold take_turn. destruct (c !! k) as [t|] eqn:Hk; [|done].
    pose proof (Forall_lookup_1 _ _ _ _ Hc Hk) as (Ho&Hcl&Hl).
    assert (Hput : forall t', fine t' -> (todo t' < todo t)%nat -> Forall fine (<[k:=t']> c) /\ (left (<[k:=t']> c) < left c)%nat).
    { intros t' Ht Hlt. split; [by apply Forall_insert|by eapply left_insert]. }
    destruct (t_now t) as [|a l] eqn:Hn.
    - destruct (t_later t) as [|x r] eqn:Hr; [done|]. apply closing_nil in Hcl as Hh. apply Hput.
      + apply Forall_cons_1 in Hl as [Hx Hl]. split_and!; cbn; [done|by rewrite Hh|done].
      + unfold todo. rewrite Hn Hr. cbn. lia.
    - destruct a as [m|m].
      + destruct f.
        { apply Hput; [split_and!; cbn; [done|apply closing_unwind|done]|].
          apply closing_acq in Hcl as [Hcl _]. apply closing_length in Hcl. unfold todo. rewrite Hn. cbn [t_now t_later length] in *. rewrite map_length. unfold mutex in *. lia. }
        destruct (holds t m) eqn:Hm.
        { apply holds_in in Hm. apply closing_acq in Hcl as [_ Hlt]. pose proof (ordered_cons m _ Ho Hlt) as [HF _].
          apply elem_of_list_In in Hm. rewrite Forall_forall in HF. specialize (HF _ Hm). lia. }
        destruct (existsb _ c); [done|]. apply closing_acq in Hcl as [Hcl Hlt].
        apply Hput; [split_and!; [by apply ordered_cons|done|done]|]. unfold todo. rewrite Hn. cbn [t_now t_later length]. lia.
      + apply closing_rel in Hcl as (h&Hh&Hcl). rewrite Hh. rewrite (proj2 (meq_true m m)); [|done].
        apply Hput; [|unfold todo; rewrite Hn; cbn [t_now t_later length]; lia]. rewrite Hh in Ho. destruct Ho as [_ Ho]. by split_and!.
  Qed.

  Lemma schedule_fine l c : Forall fine c ->
    exists n c', schedule l c = Some (n, c') /\ Forall fine c' /\ (n + left c' <= left c)%nat.
  Proof.
    revert c. induction l as [|[k f] l IH]; intros c Hc; cbn [schedule]; [by exists O, c|].
    pose proof (turn_fine f k c Hc) as H. destruct (take_turn f k c) as [c1| | |]; [|by apply IH|by apply IH|done].
    destruct H as [H1 H2]. destruct (IH c1 H1) as (n&c'&->&Hc'&Hn). exists (S n), c'. split; [done|]. split; [done|]. lia.
  Qed.

  (** * Progress *)
  Definition wants (t : thread) : N := match t_now t with Acq m :: _ => fst m | _ => 0 end.

  (** If nobody can move, whoever waits waits for somebody who waits for something smaller. *)
  Lemma waits_down k t c : Forall fine c -> (forall k c', take_turn false k c <> Moves c') -> c !! k = Some t -> t_now t <> [] ->
    exists k' t', c !! k' = Some t' /\ t_now t' <> [] /\ wants t' < wants t.
  Proof.
    intros Hc Hstuck Hk Hn. pose proof (turn_fine false k c Hc) as Hw. pose proof (Hstuck k) as Hs.
    unfold take_turn in Hw, Hs. rewrite Hk in Hw, Hs.
    destruct (t_now t) as [|[m|m] l] eqn:En; [done| |].
    - destruct (holds t m); [done|]. destruct (existsb (fun u => holds u m) c) eqn:E; [|by edestruct Hs].
      apply existsb_exists in E as (t'&Hin&Hm). apply elem_of_list_In, elem_of_list_lookup in Hin as (k'&Hk').
      exists k', t'. split; [done|]. apply holds_in in Hm.
      pose proof (Forall_lookup_1 _ _ _ _ Hc Hk') as (Ho&Hcl&Hl).
      pose proof (turn_fine false k' c Hc) as Hw'. pose proof (Hstuck k') as Hs'. unfold take_turn in Hw', Hs'. rewrite Hk' in Hw', Hs'.
      unfold wants. rewrite En. destruct (t_now t') as [|[m'|m'] l'] eqn:En'.
      + apply closing_nil in Hcl. rewrite Hcl in Hm. by apply elem_of_nil in Hm.
      + split; [done|]. apply closing_acq in Hcl as [_ Hlt]. pose proof (ordered_cons m' _ Ho Hlt) as [HF _].
        rewrite Forall_forall in HF. by apply HF, elem_of_list_In.
      + destruct (t_held t') as [|n h]; [done|]. destruct (meq m' n); [|done]. by edestruct Hs'.
    - destruct (t_held t) as [|n h]; [done|]. destruct (meq m n); [|done]. by edestruct Hs.
  Qed.

  Lemma nobody_waits c : Forall fine c -> (forall k c', take_turn false k c <> Moves c') -> forall w k t, c !! k = Some t -> wants t < w -> t_now t = [].
  Proof.
    intros Hc Hstuck w. induction w as [|w IH] using N.peano_ind; intros k t Hk Hw; [lia|].
    destruct (t_now t) as [|a l] eqn:En; [done|]. exfalso.
    destruct (waits_down k t c Hc Hstuck Hk) as (k'&t'&Hk'&Hn'&Hlt); [by rewrite En|].
    apply Hn', (IH k'); [done|]. lia.
  Qed.

  Lemma progress c : Forall fine c -> forallb done c = true \/ exists k c', take_turn false k c = Moves c'.
  Proof.
    intros Hc.
    assert (Hdec : (exists k c', take_turn false k c = Moves c') \/ forall k c', take_turn false k c <> Moves c').
    { assert (Hk : forall n, (exists k c', take_turn false k c = Moves c') \/ forall k c', (k < n)%nat -> take_turn false k c <> Moves c').
      { induction n as [|n [IH|IH]]; [right; lia|by left|].
        destruct (take_turn false n c) as [c'| | |] eqn:E; [left; eauto|right..];
          (intros k c' Hk; destruct (decide (k = n)) as [->|]; [by rewrite E|apply IH; lia]). }
      destruct (Hk (length c)) as [H|H]; [by left|right]. intros k c'. destruct (decide (k < length c)%nat); [by apply H|].
      unfold take_turn. rewrite lookup_ge_None_2; [done|lia]. }
    destruct Hdec as [H|Hstuck]; [by right|left]. apply forallb_forall. intros t Hin.
    apply elem_of_list_In, elem_of_list_lookup in Hin as (k&Hk).
    pose proof (nobody_waits c Hc Hstuck (wants t + 1) k t Hk ltac:(lia)) as Hn.
    pose proof (Forall_lookup_1 _ _ _ _ Hc Hk) as (_&Hcl&_). rewrite Hn in Hcl. apply closing_nil in Hcl.
    unfold done. rewrite Hn Hcl. destruct (t_later t) as [|x r] eqn:Er; [done|].
    exfalso. eapply (Hstuck k). unfold take_turn. by rewrite Hk Hn Er.
  Qed.

  (** From any such state the threads can be run to the end. *)
  Lemma finish c : Forall fine c -> exists l n c', schedule l c = Some (n, c') /\ forallb done c' = true /\ Forall (fun x => snd x = false) l.
  Proof.
    remember (left c) as n eqn:Hn. revert c Hn. induction n as [n IH] using lt_wf_ind. intros c -> Hc.
    destruct (progress c Hc) as [Hd|(k&c1&Hk)]; [by exists [], O, c|].
    pose proof (turn_fine false k c Hc) as H. rewrite Hk in H. destruct H as [H1 H2].
    destruct (IH _ H2 c1 eq_refl H1) as (l&n&c'&Hl&Hd&Hf). exists ((k, false) :: l), (S n), c'.
    cbn [schedule]. rewrite Hk Hl. split; [done|]. split; [done|]. by constructor.
  Qed.
End inv.

(** * Mutual exclusion *)
Definition exclusive (c : list thread) : Prop := forall j k t u m, c !! j = Some t -> c !! k = Some u -> j <> k ->
  m ∈ t_held t -> m ∈ t_held u -> False.

Lemma exclusive_less c k t t' : exclusive c -> c !! k = Some t -> (forall m, m ∈ t_held t' -> m ∈ t_held t) -> exclusive (<[k := t']> c).
Proof.
  intros Hc Hk Hs i j x y m Hi Hj Hne Hx Hy.
  apply list_lookup_insert_Some in Hi as [(<-&<-&_)|[Hik Hi]]; apply list_lookup_insert_Some in Hj as [(<-&<-&_)|[Hjk Hj]]; [done|..].
  - by apply (Hc k j t y m Hk Hj Hne (Hs m Hx)).
  - by apply (Hc i k x t m Hi Hk Hne Hx (Hs m Hy)).
  - by apply (Hc i j x y m).
Qed.
Lemma exclusive_more c k t m l r : exclusive c -> c !! k = Some t -> existsb (fun u => holds u m) c = false ->
  exclusive (<[k := Thread (m :: t_held t) l r]> c).
Proof.
  intros Hc Hk Hm i j x y n Hi Hj Hne Hx Hy.
  assert (Hno : forall i u, c !! i = Some u -> m ∉ t_held u).
  { intros i' u Hu Hin. apply elem_of_list_lookup_2, elem_of_list_In in Hu. apply holds_in in Hin.
    assert (existsb (fun u => holds u m) c = true) as E by (apply existsb_exists; eauto). congruence. }
  apply list_lookup_insert_Some in Hi as [(<-&<-&_)|[Hik Hi]]; apply list_lookup_insert_Some in Hj as [(<-&<-&_)|[Hjk Hj]]; [done|..].
  - cbn in Hx. apply elem_of_cons in Hx as [->|Hx]; [by apply (Hno j y)|by apply (Hc k j t y n)].
  - cbn in Hy. apply elem_of_cons in Hy as [->|Hy]; [by apply (Hno i x)|by apply (Hc i k x t n)].
  - by apply (Hc i j x y n).
Qed.
Lemma turn_exclusive f k c c' : exclusive c -> take_turn f k c = Moves c' -> exclusive c'.
Proof.
  intros Hc. unfold take_turn. destruct (c !! k) as [t|] eqn:Hk; [|done]. destruct (t_now t) as [|[m|m] l].
  - destruct (t_later t); [done|]. intros [= <-]. by eapply exclusive_less.
  - destruct f; [intros [= <-]; by eapply exclusive_less|]. destruct (holds t m); [done|].
    destruct (existsb _ c) eqn:E; [done|]. intros [= <-]. by apply exclusive_more.
  - destruct (t_held t) as [|n h] eqn:Eh; [done|]. destruct (meq m n); [|done]. intros [= <-].
    eapply exclusive_less; [done|done|]. cbn. rewrite Eh. set_solver.
Qed.
Lemma schedule_exclusive l c n c' : exclusive c -> schedule l c = Some (n, c') -> exclusive c'.
Proof.
  revert c n. induction l as [|[k f] l IH]; intros c n Hc; cbn [schedule]; [by intros [= _ <-]|].
  destruct (take_turn f k c) as [c1| | |] eqn:E; [|by apply IH|by apply IH|done].
  destruct (schedule l c1) as [[n1 c2]|] eqn:E1; [|done]. intros [= _ <-]. eapply IH, E1. by eapply turn_exclusive.
Qed.
