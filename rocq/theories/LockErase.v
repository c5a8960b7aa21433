(** The mutexes make no difference to a single thread. *)
From Coq Require Import ssreflect.
From Verif Require Import Base Mem Bits AlignedMalloc Allocators Checked Tree Client Upstream Locks.

Local Open Scope N_scope.

(** * Two computations that do the same apart from mutexes.  As in LawsProofs.v, but [EvLock] and [EvUnlock] do
    not count. *)
Lemma unlocked_app e e' : unlocked (e ++ e') = unlocked e ++ unlocked e'.
Proof. apply List.filter_app. Qed.

Definition same {X Y} (R : X -> Y -> Prop) (m : M X) (m' : M Y) : Prop := forall w,
  match m w, m' w with
  | Ok a w1 e, Ok a' w1' e' => R a a' /\ w1 = w1' /\ unlocked e = unlocked e'
  | Err u e, Err u' e' => u = u' /\ unlocked e = unlocked e'
  | _, _ => False
  end.

Lemma same_ret {X Y} (R : X -> Y -> Prop) a a' : R a a' -> same R (ret a) (ret a').
Proof. by intros H w. Qed.
Lemma same_refl {X} (m : M X) : same eq m m.
Proof. intros w. by destruct (m w). Qed.
Lemma same_bind {X Y X' Y'} (R : X -> Y -> Prop) (S : X' -> Y' -> Prop) m m' k k' :
  same R m m' -> (forall a a', R a a' -> same S (k a) (k' a')) -> same S (bind m k) (bind m' k').
Proof.
  intros Hm Hk w. unfold bind. specialize (Hm w). destruct (m w) as [a w1 e1|u e1], (m' w) as [a' w1' e1'|u' e1']; try done.
  destruct Hm as (HR&<-&E). specialize (Hk a a' HR w1). destruct (k a w1), (k' a' w1); try done.
  - destruct Hk as (?&<-&E'). by rewrite !unlocked_app E E'.
  - destruct Hk as (<-&E'). by rewrite !unlocked_app E E'.
Qed.
Lemma same_bind_eq {X X' Y'} (S : X' -> Y' -> Prop) (m : M X) k k' :
  (forall a, same S (k a) (k' a)) -> same S (bind m k) (bind m k').
Proof. intros H. eapply same_bind; [apply same_refl|]. by intros a ? <-. Qed.
Lemma same_bind_eq2 {X X' Y'} (S : X' -> Y' -> Prop) (m m' : M X) k k' :
  same eq m m' -> (forall a, same S (k a) (k' a)) -> same S (bind m k) (bind m' k').
Proof. intros Hm H. eapply same_bind; [apply Hm|]. by intros a ? <-. Qed.
Lemma same_weaken {X Y} (R S : X -> Y -> Prop) m m' : same R m m' -> (forall a a', R a a' -> S a a') -> same S m m'.
Proof. intros H HS w. specialize (H w). destruct (m w), (m' w); try done. destruct H as (?&?&?). auto. Qed.
Lemma same_trans {X Y Z} (R : X -> Y -> Prop) (S : Y -> Z -> Prop) m m' m'' :
  same R m m' -> same S m' m'' -> same (fun a c => exists b, R a b /\ S b c) m m''.
Proof.
  intros H H' w. specialize (H w). specialize (H' w). destruct (m w), (m' w), (m'' w); try done.
  - destruct H as (?&->&->), H' as (?&->&->). eauto.
  - by destruct H as (->&->), H' as (->&->).
Qed.
Lemma same_sym {X Y} (R : X -> Y -> Prop) m m' : same R m m' -> same (fun a b => R b a) m' m.
Proof. intros H w. specialize (H w). destruct (m w), (m' w); try done; naive_solver. Qed.
Lemma same_assoc {X Y Z} (m : M X) (k : X -> M Y) (h : Y -> M Z) : same eq (bind (bind m k) h) (bind m (fun a => bind (k a) h)).
Proof.
  intros w. unfold bind. destruct (m w) as [a w1 e1|]; [|done]. destruct (k a w1) as [b w2 e2|]; [|done].
  destruct (h b w2); by rewrite app_assoc.
Qed.
Lemma same_assoc_l {X Y Z Z'} (S : Z -> Z' -> Prop) (m : M X) (k : X -> M Y) (h : Y -> M Z) m' :
  same S (bind m (fun a => bind (k a) h)) m' -> same S (bind (bind m k) h) m'.
Proof. intros H. eapply same_weaken; [eapply same_trans; [apply same_assoc|apply H]|]. by intros a c (? & -> & ?). Qed.
Lemma same_assoc_r {X Y Z Z'} (S : Z' -> Z -> Prop) (m : M X) (k : X -> M Y) (h : Y -> M Z) m' :
  same S m' (bind m (fun a => bind (k a) h)) -> same S m' (bind (bind m k) h).
Proof. intros H. eapply same_weaken; [eapply same_trans; [apply H|apply same_sym, same_assoc]|]. by intros a c (? & ? & <-). Qed.
Lemma same_ret_l {X Y Y'} (S : Y -> Y' -> Prop) (a : X) (k : X -> M Y) m' : same S (k a) m' -> same S (bind (ret a) k) m'.
Proof. intros H w. specialize (H w). unfold bind, ret. by destruct (k a w). Qed.
Lemma same_ret_r {X Y Y'} (S : Y' -> Y -> Prop) (a : X) (k : X -> M Y) m' : same S m' (k a) -> same S m' (bind (ret a) k).
Proof. intros H w. specialize (H w). unfold bind, ret. destruct (m' w); by destruct (k a w). Qed.
Lemma same_erased {X} (m m' : M X) w : same eq m m' -> erased (m w) = erased (m' w).
Proof. intros H. specialize (H w). destruct (m w), (m' w); cbn; try done; naive_solver congruence. Qed.

(** With the mutex held. *)
Lemma same_guard {X Y} (S : X -> Y -> Prop) i b A s (m : a_st A -> M X) m' : same S (m s) m' ->
  same S (emit (EvLock i b) ;;; s <- nobody A b s ;; r <- m s ;; emit (EvUnlock i b) ;;; ret r) m'.
Proof.
  intros H w. specialize (H w). unfold bind, emit, nobody, ret. destruct (m s w) as [a w1 e|], (m' w) as [a' w1' e'|]; try done.
  destruct H as (?&<-&E). split; [done|]. split; [done|].
  change (unlocked (e ++ [EvUnlock i b]) = unlocked e'). rewrite unlocked_app -E. apply app_nil_r.
Qed.

Definition osame {X Y} (P : X -> Y -> Prop) (x : option X) (y : option Y) : Prop :=
  match x, y with Some a, Some b => P a b | None, None => True | _, _ => False end.

(** * Two allocator types that do the same *)
Record alike (A B : alloc) (R : a_st A -> a_st B -> Prop) : Prop := {
  k_size : a_size A = a_size B;
  k_init b : same R (a_init A b) (a_init B b);
  k_dtor b s t : R s t -> same eq (a_dtor A b s) (a_dtor B b t);
  k_alloc b s t n : R s t -> same (fun x y => fst x = fst y /\ R (snd x) (snd y)) (a_alloc A b s n) (a_alloc B b t n);
  k_free b s t p n : R s t -> same R (a_free A b s p n) (a_free B b t p n);
  k_owns : osame (fun o o' => forall b s t p, R s t -> o b s p = o' b t p) (a_owns A) (a_owns B);
  k_max : osame (fun o o' => forall b s t, R s t -> same eq (o b s) (o' b t)) (a_max A) (a_max B);
  k_cd : osame (fun o o' => forall c b s t p act, R s t -> same R (o c b s p act) (o' c b t p act)) (a_cd A) (a_cd B)
}.

Lemma alike_refl A : alike A A eq.
Proof.
  split.
  - done.
  - intros. apply same_refl.
  - intros b s ? <-. apply same_refl.
  - intros b s ? n <-. eapply same_weaken; [apply same_refl|]. by intros ? ? <-.
  - intros b s ? p n <-. apply same_refl.
  - destruct (a_owns A) as [o|]; [|done]. by intros b s ? p <-.
  - destruct (a_max A) as [o|]; [|done]. intros b s ? <-. apply same_refl.
  - destruct (a_cd A) as [o|]; [|done]. intros c b s ? p act <-. apply same_refl.
Qed.

(** * All templates preserve it *)
Definition rel_fl {A B : alloc} (R : a_st A -> a_st B -> Prop) (s : fl A) (t : fl B) : Prop :=
  R (f_in s) (f_in t) /\ f_head s = f_head t.
Lemma alike_freelist Min Max A B R : alike A B R -> alike (freelist Min Max A) (freelist Min Max B) (rel_fl R).
Proof.
  intros [H1 H2 H3 H4 H5 H6 H7 H8]. split; cbn [freelist a_st a_size a_init a_dtor a_alloc a_free a_owns a_max a_cd].
  - done.
  - intros b. eapply same_bind; [apply H2|]. intros s t Hs. by apply same_ret.
  - intros b s t [Hs Hh].
    enough (forall k s t h, R s t -> same eq (s' <- fl_release Max A k b s h ;; a_dtor A b s') (s' <- fl_release Max B k b t h ;; a_dtor B b s')) as H.
    { intros w. unfold fl_dtor. rewrite Hh. by apply H. }
    intros k s0 t0 h Hs0. eapply (same_bind R); [|auto]. revert s0 t0 h Hs0.
    induction k as [|k IH]; intros s0 t0 h Hs0; cbn [fl_release]; [by intros w|].
    destruct (h =? 0); [by apply same_ret|]. apply same_bind_eq. intros nx. eapply same_bind; [by apply H5|]. intros. by apply IH.
  - intros b s t n [Hs Hh]. unfold fl_alloc. rewrite Hh. destruct (fl_range _ _ _); [|by apply same_ret].
    destruct (f_head t =? 0).
    + eapply same_bind; [by apply H4|]. intros [p s'] [q t'] [Hp Hs']; cbn in *. by apply same_ret.
    + apply same_bind_eq. intros nx. by apply same_ret.
  - intros b s t p n [Hs Hh]. unfold fl_free. apply same_bind_eq. intros _. rewrite Hh. destruct (_ && _); [|by apply same_ret].
    apply same_bind_eq. intros _. by apply same_ret.
  - destruct (a_owns A) as [oA|], (a_owns B) as [oB|]; try done. cbn in *. intros b s t p [Hs Hh]. by apply H6.
  - destruct (a_max A) as [oA|], (a_max B) as [oB|]; try done. cbn in *. intros b s t [Hs Hh]. by apply H7.
  - destruct (a_cd A) as [oA|], (a_cd B) as [oB|]; try done. cbn in *. intros c b s t p act [Hs Hh]. eapply same_bind; [by apply H8|].
    intros s' t' Hs'. by apply same_ret.
Qed.

Definition rel_pair {A A' B B' : Type} (R : A -> A' -> Prop) (S : B -> B' -> Prop) (s : A * B) (t : A' * B') : Prop :=
  R (fst s) (fst t) /\ S (snd s) (snd t).

Section pairs.
  Context {P P' F F' : alloc} {R : a_st P -> a_st P' -> Prop} {S : a_st F -> a_st F' -> Prop}.
  Context (HP : alike P P' R) (HF : alike F F' S).

  Lemma alike_pair_owns : osame (fun o o' => forall b s t p, rel_pair R S s t -> o b s p = o' b t p) (pair_owns P F) (pair_owns P' F').
  Proof.
    unfold pair_owns. pose proof (k_owns _ _ _ HP) as H. pose proof (k_owns _ _ _ HF) as G. pose proof (k_size _ _ _ HP) as E.
    destruct (a_owns P) as [oP|], (a_owns P') as [oP'|], (a_owns F) as [oF|], (a_owns F') as [oF'|]; try done. cbn in *. intros b s t p [Hs Ht].
    rewrite E. f_equal; auto.
  Qed.
  Lemma alike_pair_max : osame (fun o o' => forall b s t, rel_pair R S s t -> same eq (o b s) (o' b t)) (pair_max P F) (pair_max P' F').
  Proof.
    unfold pair_max. pose proof (k_max _ _ _ HP) as H. pose proof (k_max _ _ _ HF) as G. pose proof (k_size _ _ _ HP) as E.
    destruct (a_max P) as [oP|], (a_max P') as [oP'|], (a_max F) as [oF|], (a_max F') as [oF'|]; try done. cbn in *. intros b s t [Hs Ht].
    rewrite E. apply same_bind_eq2; [by apply H|]. intros x. apply same_bind_eq2; [by apply G|]. intros y. apply same_refl.
  Qed.
  Lemma alike_pair_cd : osame (fun o o' => forall c b s t p act, rel_pair R S s t -> same (rel_pair R S) (o c b s p act) (o' c b t p act))
    (pair_cd P F) (pair_cd P' F').
  Proof.
    unfold pair_cd. pose proof (k_owns _ _ _ HP) as H. pose proof (k_cd _ _ _ HP) as HC. pose proof (k_cd _ _ _ HF) as GC.
    pose proof (k_size _ _ _ HP) as E. destruct (a_owns P) as [oP|], (a_owns P') as [oP'|]; try done. cbn in H.
    destruct (a_cd P), (a_cd P'), (a_cd F), (a_cd F'); try done; cbn in *; intros c b s t p act [Hs Ht]; rewrite ?E -(H _ _ _ p Hs);
      destruct (oP b (fst s) p); try (apply same_bind_eq; intros _; by apply same_ret);
      (eapply same_bind; [first [by apply HC|by apply GC]|intros s' t' Hs'; by apply same_ret]).
  Qed.
  Lemma alike_pair_init b : same (rel_pair R S) (pair_init P F b) (pair_init P' F' b).
  Proof.
    unfold pair_init. rewrite (k_size _ _ _ HP). eapply same_bind; [apply (k_init _ _ _ HP)|]. intros s t Hs.
    eapply same_bind; [apply (k_init _ _ _ HF)|]. intros s' t' Hs'. by apply same_ret.
  Qed.
  Lemma alike_pair_dtor b s t : rel_pair R S s t -> same eq (pair_dtor P F b s) (pair_dtor P' F' b t).
  Proof.
    intros [Hs Ht]. unfold pair_dtor. rewrite (k_size _ _ _ HP). apply same_bind_eq2; [by apply (k_dtor _ _ _ HF)|]. intros _.
    by apply (k_dtor _ _ _ HP).
  Qed.

  Lemma alike_fallback : alike (fallback P F) (fallback P' F') (rel_pair R S).
  Proof.
    split; cbn [fallback a_st a_size a_init a_dtor a_alloc a_free a_owns a_max a_cd].
    - by rewrite (k_size _ _ _ HP) (k_size _ _ _ HF).
    - apply alike_pair_init.
    - apply alike_pair_dtor.
    - intros b s t n [Hs Ht]. unfold fb_alloc. eapply same_bind; [by apply (k_alloc _ _ _ HP)|].
      intros [p s'] [q t'] [Hp Hs']; cbn in *. subst q. rewrite (k_size _ _ _ HP). destruct (p =? 0); [|by apply same_ret].
      eapply same_bind; [by apply (k_alloc _ _ _ HF)|]. intros [p' s2] [q' t2] [Hp' Hs2]; cbn in *. by apply same_ret.
    - intros b s t p n [Hs Ht]. unfold fb_free. rewrite (k_size _ _ _ HP). pose proof (k_owns _ _ _ HP) as H.
      assert (match a_owns P with Some o => o b (fst s) p | None => false end =
              match a_owns P' with Some o => o b (fst t) p | None => false end) as ->.
      { destruct (a_owns P) as [oP|], (a_owns P') as [oP'|]; try done. by apply H. }
      destruct (match a_owns P' with Some o => o b (fst t) p | None => false end).
      + eapply same_bind; [by apply (k_free _ _ _ HP)|]. intros s' t' Hs'. by apply same_ret.
      + eapply same_bind; [by apply (k_free _ _ _ HF)|]. intros s' t' Hs'. by apply same_ret.
    - apply alike_pair_owns.
    - apply alike_pair_max.
    - apply alike_pair_cd.
  Qed.

  Lemma alike_segragator T : alike (segragator P F T) (segragator P' F' T) (rel_pair R S).
  Proof.
    split; cbn [segragator a_st a_size a_init a_dtor a_alloc a_free a_owns a_max a_cd].
    - by rewrite (k_size _ _ _ HP) (k_size _ _ _ HF).
    - apply alike_pair_init.
    - apply alike_pair_dtor.
    - intros b s t n [Hs Ht]. unfold seg_alloc. rewrite (k_size _ _ _ HP). destruct (n <=? T).
      + eapply same_bind; [by apply (k_alloc _ _ _ HP)|]. intros [p s'] [q t'] [Hp Hs']; cbn in *. by apply same_ret.
      + eapply same_bind; [by apply (k_alloc _ _ _ HF)|]. intros [p s'] [q t'] [Hp Hs']; cbn in *. by apply same_ret.
    - intros b s t p n [Hs Ht]. unfold seg_free. rewrite (k_size _ _ _ HP). destruct (n <=? T).
      + eapply same_bind; [by apply (k_free _ _ _ HP)|]. intros s' t' Hs'. by apply same_ret.
      + eapply same_bind; [by apply (k_free _ _ _ HF)|]. intros s' t' Hs'. by apply same_ret.
    - apply alike_pair_owns.
    - apply alike_pair_max.
    - apply alike_pair_cd.
  Qed.
End pairs.

Definition rel_ov {A B : alloc} (R : a_st A -> a_st B -> Prop) (s : ov A) (t : ov B) : Prop :=
  R (o_in s) (o_in t) /\ o_allocs s = o_allocs t /\ o_cons s = o_cons t.
Lemma alike_overflow A B R : alike A B R -> alike (overflow A) (overflow B) (rel_ov R).
Proof.
  intros [H1 H2 H3 H4 H5 H6 H7 H8]. split; cbn [overflow a_st a_size a_init a_dtor a_alloc a_free a_owns a_max a_cd].
  - done.
  - intros b. eapply same_bind; [apply H2|]. intros s t Hs. by apply same_ret.
  - intros b s t (Hs&E1&E2). unfold ov_dtor. rewrite E1 E2. apply same_bind_eq. intros _. apply same_bind_eq. intros _. by apply H3.
  - intros b s t n (Hs&E1&E2). unfold ov_alloc. rewrite E1 E2. eapply same_bind; [by apply H4|].
    intros [p s'] [q t'] [Hp Hs']; cbn in *. subst q. destruct (p =? 0); [by apply same_ret|].
    apply same_bind_eq. intros _. apply same_bind_eq. intros _. by apply same_ret.
  - intros b s t p n (Hs&E1&E2). unfold ov_free. rewrite E1 E2. apply same_bind_eq. intros _. destruct (p =? 0); [by apply same_ret|].
    apply same_bind_eq. intros x. apply same_bind_eq. intros y. apply same_bind_eq. intros _.
    eapply same_bind; [by apply H5|]. intros s' t' Hs'. by apply same_ret.
  - destruct (a_owns A) as [oA|], (a_owns B) as [oB|]; try done. cbn in *. intros b s t p (Hs&_). by apply H6.
  - destruct (a_max A) as [oA|], (a_max B) as [oB|]; try done. cbn in *. intros b s t (Hs&_). by apply H7.
  - cbn. intros c b s t p act (Hs&E1&E2). unfold ov_cd. rewrite E1 E2.
    destruct (a_cd A) as [oA|], (a_cd B) as [oB|]; try done; cbn in H8.
    + eapply same_bind; [by apply H8|]. intros s' t' Hs'. by apply same_ret.
    + apply same_bind_eq. intros _. by apply same_ret.
Qed.

Definition rel_sh {A B : alloc} (R : a_st A -> a_st B -> Prop) (s : sh A) (t : sh B) : Prop :=
  R (sh_in s) (sh_in t) /\ sh_block s = sh_block t.
Lemma alike_shared pl A B R : alike A B R -> alike (shared pl A) (shared pl B) (rel_sh R).
Proof.
  intros [H1 H2 H3 H4 H5 H6 H7 H8]. split; cbn [shared a_st a_size a_init a_dtor a_alloc a_free a_owns a_max a_cd].
  - done.
  - intros b. rewrite H1. apply same_bind_eq. intros p. destruct (p =? 0); [by intros w|].
    eapply same_bind; [apply H2|]. intros s t Hs. by apply same_ret.
  - intros b s t [Hs E]. rewrite E. apply same_bind_eq2; [by apply H3|]. intros _. apply same_refl.
  - intros b s t n [Hs E]. rewrite E. eapply same_bind; [by apply H4|]. intros [p s'] [q t'] [Hp Hs']; cbn in *. by apply same_ret.
  - intros b s t p n [Hs E]. rewrite E. eapply same_bind; [by apply H5|]. intros s' t' Hs'. by apply same_ret.
  - destruct (a_owns A) as [oA|], (a_owns B) as [oB|]; try done. cbn in *. intros b s t p [Hs E]. rewrite E. by apply H6.
  - destruct (a_max A) as [oA|], (a_max B) as [oB|]; try done. cbn in *. intros b s t [Hs E]. rewrite E. by apply H7.
  - destruct (a_cd A) as [oA|], (a_cd B) as [oB|]; try done. cbn in *. intros c b s t p act [Hs E]. rewrite E. eapply same_bind; [by apply H8|].
    intros s' t' Hs'. by apply same_ret.
Qed.

Lemma alike_forwarding A B R : alike A B R -> alike (forwarding A) (forwarding B) R.
Proof. by intros []. Qed.

Definition rel_checked {A B : alloc} (R : a_st A -> a_st B -> Prop) (s : a_st A * list (N * N)) (t : a_st B * list (N * N)) : Prop :=
  R (fst s) (fst t) /\ snd s = snd t.
Lemma alike_checked A B R : alike A B R -> alike (checked A) (checked B) (rel_checked R).
Proof.
  intros [H1 H2 H3 H4 H5 H6 H7 H8]. split; cbn [checked a_st a_size a_init a_dtor a_alloc a_free a_owns a_max a_cd].
  - done.
  - intros b. eapply same_bind; [apply H2|]. intros s t Hs. by apply same_ret.
  - intros b s t [Hs E]. rewrite E. destruct (snd t); [by apply H3|by intros w].
  - intros b s t n [Hs E]. rewrite E. eapply same_bind; [by apply H4|]. intros [p s'] [q t'] [Hp Hs']; cbn in *. subst q. by apply same_ret.
  - intros b s t p n [Hs E]. rewrite E. destruct (take_out _ _); [|by intros w]. eapply same_bind; [by apply H5|].
    intros s' t' Hs'. by apply same_ret.
  - destruct (a_owns A) as [oA|], (a_owns B) as [oB|]; try done. cbn in *. intros b s t p [Hs E]. by apply H6.
  - destruct (a_max A) as [oA|], (a_max B) as [oB|]; try done. cbn in *. intros b s t [Hs E]. by apply H7.
  - destruct (a_cd A) as [oA|], (a_cd B) as [oB|]; try done. cbn in *. intros c b s t p act [Hs E]. rewrite E. eapply same_bind; [by apply H8|].
    intros s' t' Hs'. by apply same_ret.
Qed.

Definition rel_node {A B : alloc} (R : a_st A -> a_st B -> Prop) (x : node A) (y : node B) : Prop :=
  R (nd_in x) (nd_in y) /\ nd_addr x = nd_addr y /\ nd_cnt x = nd_cnt y.
Lemma alike_cascading pl A B R : alike A B R -> alike (cascading pl A) (cascading pl B) (Forall2 (rel_node R)).
Proof.
  intros [H1 H2 H3 H4 H5 H6 H7 H8]. unfold cascading.
  assert (Ho : forall b s t p, R s t -> (match a_owns A with Some o => o | None => fun _ _ _ => false end) b s p =
                                   (match a_owns B with Some o => o | None => fun _ _ _ => false end) b t p).
  { intros b s t p Hs. destruct (a_owns A) as [oA|], (a_owns B) as [oB|]; try done. by apply H6. }
  revert Ho. generalize (match a_owns A with Some o => o | None => fun _ _ _ => false end) as oA.
  generalize (match a_owns B with Some o => o | None => fun _ _ _ => false end) as oB. intros oB oA Ho.
  assert (Hnew : same (rel_node R) (new_node pl A) (new_node pl B)).
  { unfold new_node, node_size. rewrite H1. apply same_bind_eq. intros p. destruct (p =? 0); [by intros w|].
    eapply same_bind; [apply H2|]. intros s t Hs. by apply same_ret. }
  assert (Hdel : forall x y, rel_node R x y -> same eq (del_node pl A x) (del_node pl B y)).
  { intros x y (Hs&E1&E2). unfold del_node. rewrite E1. apply same_bind_eq2; [by apply H3|]. intros _. apply same_refl. }
  split; cbn [cascading_with a_st a_size a_init a_dtor a_alloc a_free a_owns a_max a_cd].
  - done.
  - intros _. by apply same_ret.
  - intros _ s t H. generalize true. induction H as [|x y s t Hx _ IH]; intros first; cbn [casc_release]; [by apply same_ret|].
    apply same_bind_eq. intros _. apply same_bind_eq2; [by apply Hdel|]. intros _. apply IH.
  - intros _ s t n H. unfold casc_alloc.
    eapply (same_bind (fun x y => rel_node R (fst x) (fst y) /\ Forall2 (rel_node R) (snd x) (snd y))).
    { destruct H as [|x y s t Hx Hs].
      - eapply same_bind; [apply Hnew|]. intros x y Hx. apply same_ret. split; [done|constructor].
      - by apply same_ret. }
    intros [x s'] [y t'] [(Hs&E1&E2) Hr]; cbn [fst snd] in Hs, E1, E2, Hr. rewrite E1.
    apply same_bind_eq2.
    { destruct (a_max A) as [mA|], (a_max B) as [mB|]; try done. apply same_bind_eq2; [by apply H7|]. intros m. apply same_refl. }
    intros over. destruct over.
    { apply same_ret. split; [done|]. cbn. constructor; [|done]. by split_and!. }
    eapply same_bind; [by apply H4|]. intros [p si] [q ti] [Hp Hsi]; cbn in Hp, Hsi. subst q. destruct (p =? 0).
    + eapply same_bind; [apply Hnew|]. intros x2 y2 (Hs2&E3&E4). rewrite E3. eapply same_bind; [by apply H4|].
      intros [p2 si2] [q2 ti2] [Hp2 Hsi2]; cbn in Hp2, Hsi2. subst q2. apply same_ret. cbn. rewrite E4 E2. split; [done|].
      repeat constructor; done.
    + apply same_ret. cbn. rewrite E2. split; [done|]. repeat constructor; done.
  - intros _ s t p n H. unfold casc_free. apply same_bind_eq. intros _. generalize false.
    induction H as [|x y s t Hx Hs IH]; intros prev; cbn [casc_free_loop]; [by apply same_ret|].
    pose proof Hx as (Hx1&E1&E2). rewrite E1 (Ho _ _ _ _ Hx1). destruct (oB _ _ p).
    + eapply same_bind; [by apply H5|]. intros si ti Hsi. cbn [nd_cnt]. rewrite E2. destruct (_ && _).
      * apply same_bind_eq2; [by apply Hdel|]. intros _. by apply same_ret.
      * apply same_ret. constructor; [|done]. by split_and!.
    + eapply same_bind; [apply IH|]. intros s' t' Hs'. apply same_ret. by constructor.
  - cbn. intros _ s t p H. unfold casc_owns. induction H as [|x y s t (Hx&E1&E2) Hs IH]; cbn [existsb]; [done|].
    by rewrite E1 (Ho _ _ _ _ Hx) IH.
  - destruct (a_max A) as [mA|], (a_max B) as [mB|]; try done. cbn in *. intros _ s t H. destruct H as [|x y s t (Hx&E1&E2) Hs]; [by intros w|].
    cbn [casc_max]. rewrite E1. by apply H7.
  - destruct (a_cd A) as [mA|], (a_cd B) as [mB|]; try done. cbn in *. intros c _ s t p act H.
    induction H as [|x y s t Hx Hs IH]; cbn [casc_cd].
    + apply same_bind_eq. intros _. apply same_bind_eq. intros _. apply same_ret. constructor.
    + pose proof Hx as (Hx1&E1&E2). rewrite E1 (Ho _ _ _ _ Hx1). destruct (oB _ _ p).
      * eapply same_bind; [by apply H8|]. intros si ti Hsi. apply same_ret. constructor; [|done]. by split_and!.
      * eapply same_bind; [apply IH|]. intros s' t' Hs'. apply same_ret. by constructor.
Qed.


(** * The mutex *)
Lemma alike_locked i A B R : alike A B R -> alike (locked nobody i A) (threaded B) R.
Proof.
  intros [H1 H2 H3 H4 H5 H6 H7 H8].
  split; cbn [locked threaded forwarding a_st a_size a_init a_dtor a_alloc a_free a_owns a_max a_cd]; try done.
  - intros b s t n Hs. apply (same_guard _ i b A s (fun s => a_alloc A b s n)). by apply H4.
  - intros b s t p n Hs. apply (same_guard _ i b A s (fun s => a_free A b s p n)). by apply H5.
Qed.

Lemma lden_alike pl e : forall i, exists R, alike (den_with (locked nobody) pl i e) (den pl e) R.
Proof.
  induction e; intros i; cbn [den_with den].
  1-4: eexists; apply alike_refl.
  - destruct (IHe i). eexists. by apply alike_freelist.
  - destruct (IHe i). eexists. by apply alike_cascading.
  - destruct (IHe1 i), (IHe2 (i + mutexes e1)). eexists. eapply alike_fallback; eassumption.
  - destruct (IHe1 i), (IHe2 (i + mutexes e1)). eexists. eapply alike_segragator; eassumption.
  - destruct (IHe i). eexists. by apply alike_overflow.
  - destruct (IHe i). eexists. by apply alike_shared.
  - destruct (IHe i). eexists. by apply alike_locked.
  - destruct (IHe i). eexists. by apply alike_forwarding.
  - destruct (IHe i). eexists. by apply alike_forwarding.
  - destruct (IHe i). eexists. by apply alike_checked.
Qed.

(** * Parts that use an upstream allocator *)
Section parts.
  Context {U V : alloc} {RU : a_st U -> a_st V -> Prop} (HU : alike U V RU).

  Record palike (P : part U) (Q : part V) (R : p_st U P -> p_st V Q -> Prop) : Prop := {
    q_size : p_size U P = p_size V Q;
    q_init b : same R (p_init U P b) (p_init V Q b);
    q_dtor ub b s t : rel_pair R RU s t -> same RU (p_dtor U P ub b s) (p_dtor V Q ub b t);
    q_alloc ub b s t n : rel_pair R RU s t ->
      same (fun x y => fst x = fst y /\ rel_pair R RU (snd x) (snd y)) (p_alloc U P ub b s n) (p_alloc V Q ub b t n);
    q_free ub b s t p n : rel_pair R RU s t -> same (rel_pair R RU) (p_free U P ub b s p n) (p_free V Q ub b t p n);
    q_owns : osame (fun o o' => forall ub b s t p, rel_pair R RU s t -> o ub b s p = o' ub b t p) (p_owns U P) (p_owns V Q);
    q_max : osame (fun o o' => forall ub b s t, rel_pair R RU s t -> same eq (o ub b s) (o' ub b t)) (p_max U P) (p_max V Q);
    q_cd : osame (fun o o' => forall c ub b s t p act, rel_pair R RU s t -> same (rel_pair R RU) (o c ub b s p act) (o' c ub b t p act))
      (p_cd U P) (p_cd V Q)
  }.

  Lemma alike_inner P Q R ub : palike P Q R -> alike (inner U P ub) (inner V Q ub) (rel_pair R RU).
  Proof.
    intros [H1 H2 H3 H4 H5 H6 H7 H8]. split; cbn [inner a_st a_size a_init a_dtor a_alloc a_free a_owns a_max a_cd]; auto.
    - by intros b w.
    - intros b s t _. by apply same_ret.
    - destruct (p_owns U P) as [oA|], (p_owns V Q) as [oB|]; try done. cbn in *. auto.
    - destruct (p_max U P) as [oA|], (p_max V Q) as [oB|]; try done. cbn in *. auto.
    - destruct (p_cd U P) as [oA|], (p_cd V Q) as [oB|]; try done. cbn in *. auto.
  Qed.

  Lemma palike_handle : palike (handle U) (handle V) eq.
  Proof.
    destruct HU as [H1 H2 H3 H4 H5 H6 H7 H8]. split; cbn [handle p_st p_size p_init p_dtor p_alloc p_free p_owns p_max p_cd].
    - done.
    - intros b. by apply same_ret.
    - intros ub b s t [_ Hs]. by apply same_ret.
    - intros ub b s t n [_ Hs]. eapply same_bind; [by apply H4|]. intros [p u] [q v] [Hp Hs']; cbn in *. by apply same_ret.
    - intros ub b s t p n [_ Hs]. eapply same_bind; [by apply H5|]. intros u v Hs'. by apply same_ret.
    - destruct (a_owns U) as [oA|], (a_owns V) as [oB|]; try done. cbn in *. intros ub b s t p [_ Hs]. by apply H6.
    - destruct (a_max U) as [oA|], (a_max V) as [oB|]; try done. cbn in *. intros ub b s t [_ Hs]. by apply H7.
    - destruct (a_cd U) as [oA|], (a_cd V) as [oB|]; try done. cbn in *. intros c ub b s t p act [_ Hs]. eapply same_bind; [by apply H8|].
      intros u v Hs'. by apply same_ret.
  Qed.

  Lemma palike_own A B R : alike A B R -> palike (own U A) (own V B) R.
  Proof.
    intros [H1 H2 H3 H4 H5 H6 H7 H8]. split; cbn [own p_st p_size p_init p_dtor p_alloc p_free p_owns p_max p_cd].
    - done.
    - done.
    - intros ub b s t [Hs Hu]. apply same_bind_eq2; [by apply H3|]. intros _. by apply same_ret.
    - intros ub b s t n [Hs Hu]. eapply same_bind; [by apply H4|]. intros [p u] [q v] [Hp Hs']; cbn in *. by apply same_ret.
    - intros ub b s t p n [Hs Hu]. eapply same_bind; [by apply H5|]. intros u v Hs'. by apply same_ret.
    - destruct (a_owns A) as [oA|], (a_owns B) as [oB|]; try done. cbn in *. intros ub b s t p [Hs Hu]. by apply H6.
    - destruct (a_max A) as [oA|], (a_max B) as [oB|]; try done. cbn in *. intros ub b s t [Hs Hu]. by apply H7.
    - destruct (a_cd A) as [oA|], (a_cd B) as [oB|]; try done. cbn in *. intros c ub b s t p act [Hs Hu]. eapply same_bind; [by apply H8|].
      intros u v Hs'. by apply same_ret.
  Qed.

  Lemma release_same Max A B R : alike A B R -> forall k b s t h, R s t -> same R (fl_release Max A k b s h) (fl_release Max B k b t h).
  Proof.
    intros H. induction k as [|k IH]; intros b s t h Hs; cbn [fl_release]; [by intros w|].
    destruct (h =? 0); [by apply same_ret|]. apply same_bind_eq. intros nx. eapply same_bind; [by apply (k_free _ _ _ H)|]. intros. by apply IH.
  Qed.

  Lemma palike_freelist Min Max P Q R : palike P Q R -> palike (pfreelist U Min Max P) (pfreelist V Min Max Q) (rel_pair R eq).
  Proof.
    intros HP. pose proof (fun ub => alike_inner _ _ _ ub HP) as HI. pose proof (fun ub => alike_freelist Min Max _ _ _ (HI ub)) as HF.
    destruct HP as [H1 H2 H3 H4 H5 H6 H7 H8]. split; cbn [pfreelist p_st p_size p_init p_dtor p_alloc p_free p_owns p_max p_cd].
    - done.
    - intros b. eapply same_bind; [apply H2|]. intros s t Hs. by apply same_ret.
    - intros ub b s t [[Hs Hh] Hu]. unfold pfl_dtor. rewrite Hh. intros w.
      refine (same_bind (rel_pair R RU) RU _ _ _ _ _ _ w); [|intros; by apply H3]. by apply (release_same Max _ _ _ (HI ub)).
    - intros ub b s t n [[Hs Hh] Hu]. eapply same_bind; [by apply (k_alloc _ _ _ (HF ub) b (fl_in _ _ ub s) (fl_in _ _ ub t))|].
      intros [p x] [q y] [Hp [[Hx Hy] Hz]]; cbn in *. by apply same_ret.
    - intros ub b s t p n [[Hs Hh] Hu]. eapply same_bind; [by apply (k_free _ _ _ (HF ub) b (fl_in _ _ ub s) (fl_in _ _ ub t))|].
      intros x y [[Hx Hy] Hz]. by apply same_ret.
    - destruct (p_owns U P) as [oA|], (p_owns V Q) as [oB|]; try done. cbn in *. intros ub b s t p [[Hs Hh] Hu]. by apply H6.
    - destruct (p_max U P) as [oA|], (p_max V Q) as [oB|]; try done. cbn in *. intros ub b s t [[Hs Hh] Hu]. by apply H7.
    - destruct (p_cd U P) as [oA|], (p_cd V Q) as [oB|]; try done. cbn in *. intros c ub b s t p act [[Hs Hh] Hu]. eapply same_bind; [by apply H8|].
      intros x y [Hx Hy]. by apply same_ret.
  Qed.

  Lemma palike_overflow P Q R : palike P Q R -> palike (poverflow U P) (poverflow V Q) (rel_pair R eq).
  Proof.
    intros HP. pose proof (fun ub => alike_overflow _ _ _ (alike_inner _ _ _ ub HP)) as HF.
    destruct HP as [H1 H2 H3 H4 H5 H6 H7 H8]. split; cbn [poverflow p_st p_size p_init p_dtor p_alloc p_free p_owns p_max p_cd].
    - done.
    - intros b. eapply same_bind; [apply H2|]. intros s t Hs. by apply same_ret.
    - intros ub b s t [[Hs Hh] Hu]. unfold pov_dtor. rewrite Hh. do 2 (apply same_bind_eq; intros _). by apply H3.
    - intros ub b s t n [[Hs Hh] Hu].
      eapply same_bind; [apply (k_alloc _ _ _ (HF ub) b (ov_into _ _ ub s) (ov_into _ _ ub t)); unfold rel_ov; cbn; by rewrite Hh|].
      intros [p x] [q y] [Hp ([Hx Hy]&E1&E2)]; cbn in *. apply same_ret. unfold ov_out. cbn. by rewrite E1 E2.
    - intros ub b s t p n [[Hs Hh] Hu].
      eapply same_bind; [apply (k_free _ _ _ (HF ub) b (ov_into _ _ ub s) (ov_into _ _ ub t)); unfold rel_ov; cbn; by rewrite Hh|].
      intros x y ([Hx Hy]&E1&E2). apply same_ret. unfold ov_out. by rewrite E1 E2.
    - destruct (p_owns U P) as [oA|], (p_owns V Q) as [oB|]; try done. cbn in *. intros ub b s t p [[Hs Hh] Hu]. by apply H6.
    - destruct (p_max U P) as [oA|], (p_max V Q) as [oB|]; try done. cbn in *. intros ub b s t [[Hs Hh] Hu]. by apply H7.
    - cbn. intros c ub b s t p act [[Hs Hh] Hu].
      eapply same_bind; [apply (k_cd _ _ _ (HF ub) c b (ov_into _ _ ub s) (ov_into _ _ ub t)); unfold rel_ov; cbn; by rewrite Hh|].
      intros x y ([Hx Hy]&E1&E2). apply same_ret. unfold ov_out. by rewrite E1 E2.
  Qed.

  Lemma palike_locked i P Q R : palike P Q R -> palike (plocked nobody i U P) (pthreaded V Q) R.
  Proof.
    intros [H1 H2 H3 H4 H5 H6 H7 H8]. unfold pthreaded. split; cbn [plocked p_st p_size p_init p_dtor p_alloc p_free p_owns p_max p_cd]; try done.
    - intros ub b s t n Hs. apply (same_guard _ i b (inner U P ub) s (fun s => p_alloc U P ub b s n)). by apply H4.
    - intros ub b s t p n Hs. apply (same_guard _ i b (inner U P ub) s (fun s => p_free U P ub b s p n)). by apply H5.
  Qed.

  Section pair.
    Context {P F : part U} {P' F' : part V} {R : p_st U P -> p_st V P' -> Prop} {S : p_st U F -> p_st V F' -> Prop}.
    Context (HP : palike P P' R) (HF : palike F F' S).

    Lemma prim_rel s t : rel_pair (rel_pair R S) RU s t -> rel_pair R RU (prim U P F s) (prim V P' F' t).
    Proof using. by intros [[? ?] ?]. Qed.
    Lemma fall_rel s t : rel_pair (rel_pair R S) RU s t -> rel_pair S RU (fall U P F s) (fall V P' F' t).
    Proof using. by intros [[? ?] ?]. Qed.
    Lemma prim_set_rel s t x y : rel_pair (rel_pair R S) RU s t -> rel_pair R RU x y ->
      rel_pair (rel_pair R S) RU (prim_set U P F s x) (prim_set V P' F' t y).
    Proof using. by intros [[? ?] ?] [? ?]. Qed.
    Lemma fall_set_rel s t x y : rel_pair (rel_pair R S) RU s t -> rel_pair S RU x y ->
      rel_pair (rel_pair R S) RU (fall_set U P F s x) (fall_set V P' F' t y).
    Proof using. by intros [[? ?] ?] [? ?]. Qed.

    Lemma ppair_init_same b : same (rel_pair R S) (ppair_init U P F b) (ppair_init V P' F' b).
    Proof using HP HF.
      unfold ppair_init. rewrite (q_size _ _ _ HP). eapply same_bind; [apply (q_init _ _ _ HP)|]. intros s t Hs.
      eapply same_bind; [apply (q_init _ _ _ HF)|]. intros s' t' Hs'. by apply same_ret.
    Qed.
    Lemma ppair_dtor_same ub b s t : rel_pair (rel_pair R S) RU s t -> same RU (ppair_dtor U P F ub b s) (ppair_dtor V P' F' ub b t).
    Proof using HP HF.
      intros Hs. unfold ppair_dtor. rewrite (q_size _ _ _ HP). eapply same_bind; [by apply (q_dtor _ _ _ HF), fall_rel|]. intros u v Hu.
      apply (q_dtor _ _ _ HP). split; [apply Hs|done].
    Qed.
    Lemma ppair_owns_same : osame (fun o o' => forall ub b s t p, rel_pair (rel_pair R S) RU s t -> o ub b s p = o' ub b t p)
      (ppair_owns U P F) (ppair_owns V P' F').
    Proof using HP HF.
      unfold ppair_owns. pose proof (q_owns _ _ _ HP) as H. pose proof (q_owns _ _ _ HF) as G. pose proof (q_size _ _ _ HP) as E.
      destruct (p_owns U P) as [o1|], (p_owns V P') as [o2|], (p_owns U F) as [o3|], (p_owns V F') as [o4|]; try done. cbn in *. intros ub b s t p Hs.
      rewrite E (H _ _ _ _ p (prim_rel _ _ Hs)) (G _ _ _ _ p (fall_rel _ _ Hs)). done.
    Qed.
    Lemma ppair_max_same : osame (fun o o' => forall ub b s t, rel_pair (rel_pair R S) RU s t -> same eq (o ub b s) (o' ub b t))
      (ppair_max U P F) (ppair_max V P' F').
    Proof using HP HF.
      unfold ppair_max. pose proof (q_max _ _ _ HP) as H. pose proof (q_max _ _ _ HF) as G. pose proof (q_size _ _ _ HP) as E.
      destruct (p_max U P) as [o1|], (p_max V P') as [o2|], (p_max U F) as [o3|], (p_max V F') as [o4|]; try done. cbn in *. intros ub b s t Hs.
      rewrite E. apply same_bind_eq2; [by apply H, prim_rel|]. intros x. apply same_bind_eq2; [by apply G, fall_rel|]. intros y. apply same_refl.
    Qed.
    Lemma ppair_cd_same : osame (fun o o' => forall c ub b s t p act, rel_pair (rel_pair R S) RU s t ->
        same (rel_pair (rel_pair R S) RU) (o c ub b s p act) (o' c ub b t p act)) (ppair_cd U P F) (ppair_cd V P' F').
    Proof using HP HF.
      unfold ppair_cd. pose proof (q_owns _ _ _ HP) as H. pose proof (q_cd _ _ _ HP) as HC. pose proof (q_cd _ _ _ HF) as GC.
      pose proof (q_size _ _ _ HP) as E. destruct (p_owns U P) as [oP|], (p_owns V P') as [oP'|]; try done. cbn in H.
      destruct (p_cd U P) as [o1|], (p_cd V P') as [o2|], (p_cd U F) as [o3|], (p_cd V F') as [o4|]; try done; cbn in *; intros c ub b s t p act Hs;
        rewrite ?E -(H _ _ _ _ p (prim_rel _ _ Hs)); destruct (oP ub b (prim U P F s) p);
        try (apply same_bind_eq; intros _; by apply same_ret);
        (eapply same_bind; [first [by apply HC, prim_rel|by apply GC, fall_rel]|intros x y Hx; apply same_ret;
           first [by apply prim_set_rel|by apply fall_set_rel]]).
    Qed.

    Lemma palike_fallback : palike (pfallback U P F) (pfallback V P' F') (rel_pair R S).
    Proof using HP HF.
      split; cbn [pfallback p_st p_size p_init p_dtor p_alloc p_free p_owns p_max p_cd].
      - by rewrite (q_size _ _ _ HP) (q_size _ _ _ HF).
      - apply ppair_init_same.
      - apply ppair_dtor_same.
      - intros ub b s t n Hs. unfold pfb_alloc. eapply same_bind; [by apply (q_alloc _ _ _ HP), prim_rel|].
        intros [p x] [q y] [Hp Hx]; cbn in Hp, Hx. subst q. rewrite (q_size _ _ _ HP). pose proof (prim_set_rel _ _ _ _ Hs Hx) as Hs'.
        cbv zeta. destruct (p =? 0); [|by apply same_ret].
        eapply same_bind; [by apply (q_alloc _ _ _ HF), fall_rel|]. intros [p' x'] [q' y'] [Hp' Hx']; cbn in Hp', Hx'. apply same_ret.
        split; [done|]. by apply fall_set_rel.
      - intros ub b s t p n Hs. unfold pfb_free. rewrite (q_size _ _ _ HP). pose proof (q_owns _ _ _ HP) as H.
        assert (match p_owns U P with Some o => o ub b (prim U P F s) p | None => false end =
                match p_owns V P' with Some o => o ub b (prim V P' F' t) p | None => false end) as ->.
        { destruct (p_owns U P) as [oA|], (p_owns V P') as [oB|]; try done. by apply H, prim_rel. }
        destruct (match p_owns V P' with Some o => o ub b (prim V P' F' t) p | None => false end).
        + eapply same_bind; [by apply (q_free _ _ _ HP), prim_rel|]. intros x y Hx. apply same_ret. by apply prim_set_rel.
        + eapply same_bind; [by apply (q_free _ _ _ HF), fall_rel|]. intros x y Hx. apply same_ret. by apply fall_set_rel.
      - apply ppair_owns_same.
      - apply ppair_max_same.
      - apply ppair_cd_same.
    Qed.

    Lemma palike_segragator T : palike (psegragator U P F T) (psegragator V P' F' T) (rel_pair R S).
    Proof using HP HF.
      split; cbn [psegragator p_st p_size p_init p_dtor p_alloc p_free p_owns p_max p_cd].
      - by rewrite (q_size _ _ _ HP) (q_size _ _ _ HF).
      - apply ppair_init_same.
      - apply ppair_dtor_same.
      - intros ub b s t n Hs. unfold pseg_alloc. rewrite (q_size _ _ _ HP). destruct (n <=? T).
        + eapply same_bind; [by apply (q_alloc _ _ _ HP), prim_rel|]. intros [p x] [q y] [Hp Hx]; cbn in Hp, Hx. apply same_ret.
          split; [done|]. by apply prim_set_rel.
        + eapply same_bind; [by apply (q_alloc _ _ _ HF), fall_rel|]. intros [p x] [q y] [Hp Hx]; cbn in Hp, Hx. apply same_ret.
          split; [done|]. by apply fall_set_rel.
      - intros ub b s t p n Hs. unfold pseg_free. rewrite (q_size _ _ _ HP). destruct (n <=? T).
        + eapply same_bind; [by apply (q_free _ _ _ HP), prim_rel|]. intros x y Hx. apply same_ret. by apply prim_set_rel.
        + eapply same_bind; [by apply (q_free _ _ _ HF), fall_rel|]. intros x y Hx. apply same_ret. by apply fall_set_rel.
      - apply ppair_owns_same.
      - apply ppair_max_same.
      - apply ppair_cd_same.
    Qed.
  End pair.

  Lemma alike_upstream P Q R : palike P Q R -> alike (upstream U P) (upstream V Q) (rel_pair R RU).
  Proof using HU.
    intros [H1 H2 H3 H4 H5 H6 H7 H8]. pose proof (k_size _ _ _ HU) as E.
    split; cbn [upstream a_st a_size a_init a_dtor a_alloc a_free a_owns a_max a_cd]; rewrite ?E.
    - by rewrite H1.
    - intros b. eapply same_bind; [apply (k_init _ _ _ HU)|]. intros u v Hu. eapply same_bind; [apply H2|]. intros s t Hs. by apply same_ret.
    - intros b s t Hs. eapply same_bind; [by apply H3|]. intros u v Hu. by apply (k_dtor _ _ _ HU).
    - intros b s t n Hs. by apply H4.
    - intros b s t p n Hs. by apply H5.
    - destruct (p_owns U P) as [oA|], (p_owns V Q) as [oB|]; try done. cbn in *. intros b s t p Hs. by apply H6.
    - destruct (p_max U P) as [oA|], (p_max V Q) as [oB|]; try done. cbn in *. intros b s t Hs. by apply H7.
    - destruct (p_cd U P) as [oA|], (p_cd V Q) as [oB|]; try done. cbn in *. intros c b s t p act Hs. by apply H8.
  Qed.

  Lemma plden_alike pl p : forall i, exists R, palike (pden_with (locked nobody) (plocked nobody) pl U i p) (pden pl V p) R.
  Proof using HU.
    induction p; intros i; cbn [pden_with pden].
    - eexists. apply palike_handle.
    - destruct (lden_alike pl e i). eexists. by apply palike_own.
    - destruct (IHp i). eexists. by apply palike_freelist.
    - destruct (IHp1 i), (IHp2 (i + pmutexes p1)). eexists. eapply palike_fallback; eassumption.
    - destruct (IHp1 i), (IHp2 (i + pmutexes p1)). eexists. eapply palike_segragator; eassumption.
    - destruct (IHp i). eexists. by apply palike_overflow.
    - destruct (IHp i). eexists. by apply palike_locked.
  Qed.
End parts.

Lemma slden_alike pl s : exists R, alike (slden nobody pl s) (sden pl s) R.
Proof.
  unfold slden. induction s as [e|u IH p]; cbn [sden_with sden]; [apply lden_alike|].
  destruct IH as [RU HU]. destruct (plden_alike HU pl p (smutexes u)) as [R HP]. eexists. exact (alike_upstream HU _ _ _ HP).
Qed.

(** * Programs cannot tell *)
Section sessions.
  Context {A B : alloc} {R : a_st A -> a_st B -> Prop} (H : alike A B R) (b : N).
  Context (rA : N -> a_st A -> bool) (rB : N -> a_st B -> bool) (Hr : forall b s t, R s t -> rA b s = rB b t).

  Lemma step_same o s t bl : R s t ->
    same (fun x y => fst x = fst y /\ R (fst (snd x)) (fst (snd y)) /\ snd (snd x) = snd (snd y)) (step A b rA o s bl) (step B b rB o t bl).
  Proof.
    intros Hs. destruct H as [H1 H2 H3 H4 H5 H6 H7 H8].
    assert (Hc : forall c p act, same R (traits_cd A b c s p act) (traits_cd B b c t p act)).
    { intros c p act. unfold traits_cd. destruct (a_cd A) as [oA|], (a_cd B) as [oB|]; try done; [by apply H8|].
      apply same_bind_eq. intros _. by apply same_ret. }
    destruct o; cbn [step].
    - eapply same_bind; [by apply H4|]. intros [p s'] [q t'] [Hp Hs']; cbn in *. subst q. by apply same_ret.
    - destruct (bl !! i) as [[p n]|]; [|by apply same_ret]. eapply same_bind; [by apply H5|]. intros s' t' Hs'. by apply same_ret.
    - destruct (bl !! i) as [[p n]|]; [|by apply same_ret]. destruct (off <? n); [|by apply same_ret].
      apply same_bind_eq. intros _. by apply same_ret.
    - destruct (bl !! i) as [[p n]|]; [|by apply same_ret]. destruct (off <? n); [|by apply same_ret].
      apply same_bind_eq. intros c. by apply same_ret.
    - destruct (a_owns A) as [oA|], (a_owns B) as [oB|]; try done; apply same_ret. cbn. by rewrite (H6 b s t q Hs).
    - destruct (a_max A) as [oA|], (a_max B) as [oB|]; try done. rewrite (Hr _ _ _ Hs).
      destruct (rB b t); [|by apply same_ret]. apply same_bind_eq2; [by apply H7|]. intros v. by apply same_ret.
    - destruct (bl !! i) as [[p n]|]; [|by apply same_ret]. destruct (off <? n); [|by apply same_ret].
      eapply same_bind; [by apply Hc|]. intros s' t' Hs'. by apply same_ret.
    - destruct (bl !! i) as [[p n]|]; [|by apply same_ret]. destruct (off <? n); [|by apply same_ret].
      eapply same_bind; [by apply Hc|]. intros s' t' Hs'. by apply same_ret.
  Qed.

  Lemma run_same ops : forall s t bl, R s t ->
    same (fun x y => fst x = fst y /\ R (fst (snd x)) (fst (snd y)) /\ snd (snd x) = snd (snd y)) (run A b rA ops s bl) (run B b rB ops t bl).
  Proof.
    induction ops as [|o ops IH]; intros s t bl Hs; cbn [run]; [by apply same_ret|].
    eapply same_bind; [by apply step_same|]. intros [ob [s' bl']] [ob' [t' bl2]] (E1&Hs'&E2); cbn in *. subst ob' bl2.
    eapply same_bind; [by apply IH|]. intros [os [s2 l2]] [os' [t2 l2']] (E1&Hs2&E2); cbn in *. subst. by apply same_ret.
  Qed.

  Lemma free_all_same bl : forall s t, R s t -> same R (free_all A b bl s) (free_all B b bl t).
  Proof.
    induction bl as [|[p n] bl IH]; intros s t Hs; cbn [free_all]; [by apply same_ret|].
    eapply same_bind; [by apply (k_free _ _ _ H)|]. intros s' t' Hs'. by apply IH.
  Qed.

  Lemma session_same ops : same eq (session A b rA ops) (session B b rB ops).
  Proof.
    unfold session. eapply same_bind; [apply (k_init _ _ _ H)|]. intros s t Hs.
    eapply same_bind; [by apply run_same|]. intros [os [s2 l2]] [os' [t2 l2']] (E1&Hs2&E2); cbn in *. subst.
    eapply same_bind; [by apply free_all_same|]. intros s3 t3 Hs3. apply same_bind_eq2; [by apply (k_dtor _ _ _ H)|]. intros _.
    apply same_refl.
  Qed.
End sessions.
