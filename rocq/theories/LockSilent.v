(** Which members lock no mutex. *)
From Coq Require Import ssreflect.
From Verif Require Import Base Mem AlignedMalloc Allocators Checked Tree Client Env Vector Array HeapPure Heap Upstream Noexcept Locks LockMachine LockFacts.

Local Open Scope N_scope.

Definition silent (evs : list event) : Prop := acts id evs = [].
Global Instance silent_good : good silent.
Proof.
  split; [done| |].
  - intros e e' H H'. unfold silent. by rewrite acts_app H H'.
  - intros ev. by destruct ev.
Qed.

(** What of the type [A] is silent. *)
Record calls_silent (al fr dt : bool) (A : alloc) : Prop := {
  cs_init : forall b, still silent (a_init A b);
  cs_max : forall mx b s, a_max A = Some mx -> still silent (mx b s);
  cs_alloc : al = true -> forall b s n, still silent (a_alloc A b s n);
  cs_free : fr = true -> forall b s p n, still silent (a_free A b s p n);
  cs_dtor : dt = true -> forall b s, still silent (a_dtor A b s) }.

Lemma hushed_silent al fr dt A : hushed silent A -> calls_silent al fr dt A.
Proof. intros [Hi Hd Ha Hf Hm Hc]. by split. Qed.

Ltac pass_m Hm := intros mx b s; lazymatch goal with |- option_map _ ?x = _ -> _ => destruct x as [mx'|] end; [|done]; intros [= <-]; by apply Hm.

Lemma freelist_silent al fr dt Min Max A :
  calls_silent al fr dt A -> calls_silent al true (fr && dt) (freelist Min Max A).
Proof.
  intros [Hi Hm Ha Hf Hd]. split; cbn [a_init a_dtor a_alloc a_free a_max freelist].
  - s0. apply Hi.
  - pass_m Hm.
  - intros Hal b s n. apply fl_alloc_still; [apply _|]. auto.
  - intros _ b s p n. unfold fl_free. s0.
  - intros [H1 H2]%andb_true_iff b s.
    assert (HH : forall fuel, still silent (s' <- fl_release Max A fuel b (f_in s) (f_head s) ;; a_dtor A b s')).
    { intros fuel. apply still_bind; [apply release_still; [apply _|]; auto|auto]. }
    intros w. exact (HH _ w).
Qed.

Lemma cascading_silent al fr dt pl A : calls_silent al fr dt A -> calls_silent al (fr && dt) dt (cascading pl A).
Proof.
  intros [Hi Hm Ha Hf Hd].
  assert (Hnew : still silent (new_node pl A)).
  { unfold new_node. s0; first [apply still_amalloc, _|apply Hi]. }
  assert (Hdel : dt = true -> forall nd, still silent (del_node pl A nd)).
  { intros Hdt nd. unfold del_node. s0; [by apply Hd|apply still_afree, _]. }
  split; cbn [a_init a_dtor a_alloc a_free a_max cascading cascading_with].
  - s0.
  - intros mx b s. destruct (a_max A) as [mx'|] eqn:Em; [|done]. intros [= <-]. unfold casc_max. destruct s; [s0|by apply Hm].
  - intros Hal _ s n. unfold casc_alloc. apply still_bind.
    { destruct s as [|nd rest]; [|apply still_ret]. s0. done. }
    intros [nd rest]. apply still_bind.
    { destruct (a_max A) as [mx|] eqn:Em; [|apply still_ret]. apply still_bind; [by apply Hm|s0]. }
    intros [|]; [apply still_ret|]. s0; first [by apply Ha|apply Hnew].
  - intros [H1 H2]%andb_true_iff _ s p n. unfold casc_free. apply still_bind; [s0|intros _].
    lazymatch goal with |- still _ (casc_free_loop _ _ ?ow _ _ _ _) => generalize ow as owns end.
    intros owns. generalize false as prev.
    induction s as [|nd s IH]; intros prev; cbn [casc_free_loop]; s0; first [by apply Hf|by apply Hdel|apply IH].
  - intros Hdt _ s. generalize true as first. induction s as [|nd s IH]; intros first; cbn [casc_release]; s0; [by apply Hdel..|apply IH].
Qed.

Lemma pair_silent al fr dt al' fr' dt' P F A :
  calls_silent al fr dt P -> calls_silent al' fr' dt' F ->
  (exists T, A = segragator P F T) \/ A = fallback P F -> calls_silent (al && al') (fr && fr') (dt && dt') A.
Proof.
  intros HP HF HA.
  assert (Hmax : forall mx b s, pair_max P F = Some mx -> still silent (mx b s)).
  { intros mx b s. unfold pair_max, omap2. destruct (a_max P) as [mP|] eqn:EP; [|done]. destruct (a_max F) as [mF|] eqn:EF; [|done].
    intros [= <-]. s0; [by apply (cs_max _ _ _ _ HP)|by apply (cs_max _ _ _ _ HF)]. }
  assert (Hini : forall b, still silent (pair_init P F b)).
  { intros b. unfold pair_init. s0; [apply (cs_init _ _ _ _ HP)|apply (cs_init _ _ _ _ HF)]. }
  assert (Hdt : dt && dt' = true -> forall b s, still silent (pair_dtor P F b s)).
  { intros [H1 H2]%andb_true_iff b s. unfold pair_dtor. s0; [by apply (cs_dtor _ _ _ _ HF)|by apply (cs_dtor _ _ _ _ HP)]. }
  destruct HA as [ [T ->] | -> ]; (split; [done|done| | |done]); intros [H1 H2]%andb_true_iff.
  - intros b s n. cbn [a_alloc segragator]. unfold seg_alloc. s0; first [by apply (cs_alloc _ _ _ _ HP)|by apply (cs_alloc _ _ _ _ HF)].
  - intros b s p n. cbn [a_free segragator]. unfold seg_free. s0; first [by apply (cs_free _ _ _ _ HP)|by apply (cs_free _ _ _ _ HF)].
  - intros b s n. cbn [a_alloc fallback]. unfold fb_alloc. s0; first [by apply (cs_alloc _ _ _ _ HP)|by apply (cs_alloc _ _ _ _ HF)].
  - intros b s p n. cbn [a_free fallback]. unfold fb_free. s0; first [by apply (cs_free _ _ _ _ HP)|by apply (cs_free _ _ _ _ HF)].
Qed.

Lemma overflow_silent al fr dt A : calls_silent al fr dt A -> calls_silent al fr dt (overflow A).
Proof.
  intros [Hi Hm Ha Hf Hd]. split; cbn [a_init a_dtor a_alloc a_free a_max overflow].
  - s0. apply Hi.
  - pass_m Hm.
  - intros H b s n. apply ov_alloc_still; [apply _|]. auto.
  - intros H b s p n. apply ov_free_still; [apply _|]. auto.
  - intros H b s. unfold ov_dtor. s0. by apply Hd.
Qed.
Lemma shared_silent al fr dt pl A : calls_silent al fr dt A -> calls_silent al fr dt (shared pl A).
Proof.
  intros [Hi Hm Ha Hf Hd]. split; cbn [a_init a_dtor a_alloc a_free a_max shared].
  - s0; first [apply still_amalloc, _|apply Hi].
  - pass_m Hm.
  - s0. by apply Ha.
  - s0. by apply Hf.
  - s0; first [by apply Hd|apply still_afree, _].
Qed.
Lemma checked_silent al fr dt A : calls_silent al fr dt A -> calls_silent al fr dt (checked A).
Proof.
  intros [Hi Hm Ha Hf Hd]. split; cbn [a_init a_dtor a_alloc a_free a_max checked].
  - s0. apply Hi.
  - pass_m Hm.
  - s0. by apply Ha.
  - s0. by apply Hf.
  - s0. by apply Hd.
Qed.
Lemma forwarding_silent al fr dt A : calls_silent al fr dt A -> calls_silent al fr dt (forwarding A).
Proof. by intros [Hi Hm Ha Hf Hd]. Qed.

Lemma weaken al fr dt al' fr' dt' A : calls_silent al' fr' dt' A ->
  (al = true -> al' = true) -> (fr = true -> fr' = true) -> (dt = true -> dt' = true) -> calls_silent al fr dt A.
Proof. intros [Hi Hm Ha Hf Hd] H1 H2 H3. split; auto. Qed.

Lemma tree_silent itf pl e i :
  calls_silent (negb (alloc_locks e)) (negb (free_locks e) && quiet_lists e) (quiet_lists e) (lden itf pl i e).
Proof.
  unfold lden. revert i.
  induction e as [| | | |Min Max e IH|e IH|p IHp f IHf|T p IHp f IHf|e IH|e IH|e IH|e IH|e IH|e IH]; intros i;
    cbn [den_with alloc_locks free_locks quiet_lists].
  - apply hushed_silent, null_hushed, _.
  - apply hushed_silent, malloc_hushed, _.
  - apply hushed_silent, linear_hushed, _.
  - apply hushed_silent, stack_hushed, _.
  - eapply weaken; [apply freelist_silent, IH|done|done|]. intros [H1 H2]%andb_true_iff. by rewrite H1 H2.
  - eapply weaken; [apply cascading_silent, IH|done| |done]. intros [H1 H2]%andb_true_iff. by rewrite H1 H2.
  - eapply weaken; [eapply pair_silent; [apply IHp|apply IHf|by right]|..]; rewrite ?negb_orb ?andb_true_iff; tauto.
  - eapply weaken; [eapply pair_silent; [apply IHp|apply IHf|left; by eexists]|..]; rewrite ?negb_orb ?andb_true_iff; tauto.
  - apply overflow_silent, IH.
  - apply shared_silent, IH.
  - destruct (IH i) as [Hi Hm Ha Hf Hd]. by split.
  - apply forwarding_silent, IH.
  - apply forwarding_silent, IH.
  - apply checked_silent, IH.
Qed.

Lemma quiet_members itf pl e i b :
  let A := lden itf pl i e in
  lock_free (a_init A b) /\
  (forall mx s, a_max A = Some mx -> lock_free (mx b s)) /\
  (alloc_locks e = false -> forall s n, lock_free (a_alloc A b s n)) /\
  (free_locks e = false -> quiet_lists e = true -> forall s p n, lock_free (a_free A b s p n)) /\
  (quiet_lists e = true -> forall s, lock_free (a_dtor A b s)).
Proof.
  destruct (tree_silent itf pl e i) as [Hi Hm Ha Hf Hd]. split_and!.
  - intros w x w' evs. apply (still_ok silent). done.
  - intros mx s E w x w' evs. apply (still_ok silent). by apply Hm.
  - intros H s n w x w' evs. apply (still_ok silent). apply Ha. by rewrite H.
  - intros H H' s p n w x w' evs. apply (still_ok silent). apply Hf. by rewrite H H'.
  - intros H s w x w' evs. apply (still_ok silent). by apply Hd.
Qed.

(** construct and destroy do what the element does, and nothing else. *)
Lemma quiet_cd itf (Hitf : apart itf) pl e i o c b s p m : a_cd (lden itf pl i e) = Some o ->
  lock_free m -> lock_free (o c b s p m).
Proof.
  intros Eo Hm w y w' evs. apply (still_ok silent). apply (hs_cd _ _ (lden_hushed itf Hitf pl e i) silent); [done|].
  intros w1. destruct (m w1) eqn:E; [by eapply Hm|done].
Qed.
