(** Nesting of fallback and segragator is not observable. *)
From Coq Require Import Sorted.
From iris.proofmode Require Import tactics.
From Verif Require Import Base Mem Bits AlignedMalloc Allocators Checked Tree TreeProofs Client Builder BuilderProofs Laws.

Local Open Scope N_scope.

(** * Two computations that do the same *)
Definition same {X Y} (R : X -> Y -> Prop) (m : M X) (m' : M Y) : Prop := forall w,
  match m w, m' w with
  | Ok a w1 e, Ok a' w1' e' => R a a' /\ w1 = w1' /\ e = e'
  | Err u e, Err u' e' => u = u' /\ e = e'
  | _, _ => False
  end.

Lemma same_ret {X Y} (R : X -> Y -> Prop) a a' : R a a' -> same R (ret a) (ret a').
Proof. by intros H w. Qed.
Lemma same_refl {X} (m : M X) : same eq m m.
Proof. intros w. by destruct (m w). Qed.
Lemma same_bind {X Y X' Y'} (R : X -> Y -> Prop) (S : X' -> Y' -> Prop) m m' k k' :
  same R m m' -> (forall a a', R a a' -> same S (k a) (k' a')) -> same S (bind m k) (bind m' k').
Proof.
  intros Hm Hk w. unfold bind. specialize (Hm w). destruct (m w) as [a w1 e1|u e1], (m' w) as [a' w1' e1'|u' e1']; try done.
  destruct Hm as (HR&<-&<-). specialize (Hk a a' HR w1). destruct (k a w1), (k' a' w1); try done.
  - by destruct Hk as (?&<-&<-).
  - by destruct Hk as (<-&<-).
Qed.
Lemma same_bind_eq {X X' Y'} (S : X' -> Y' -> Prop) (m : M X) k k' :
  (forall a, same S (k a) (k' a)) -> same S (bind m k) (bind m k').
Proof. intros H. eapply same_bind; [apply same_refl|]. by intros a ? <-. Qed.
Lemma same_bind_eq2 {X X' Y'} (S : X' -> Y' -> Prop) (m m' : M X) k k' :
  same eq m m' -> (forall a, same S (k a) (k' a)) -> same S (bind m k) (bind m' k').
Proof. intros Hm H. eapply same_bind; [apply Hm|]. by intros a ? <-. Qed.
Lemma same_weaken {X Y} (R S : X -> Y -> Prop) m m' : same R m m' -> (forall a a', R a a' -> S a a') -> same S m m'.
Proof. intros H HS w. specialize (H w). destruct (m w), (m' w); try done. destruct H as (?&?&?). auto. Qed.
Lemma same_trans {X Y Z} (R : X -> Y -> Prop) (S : Y -> Z -> Prop) m m' m'' :
  same R m m' -> same S m' m'' -> same (fun a c => exists b, R a b /\ S b c) m m''.
Proof.
  intros H H' w. specialize (H w). specialize (H' w). destruct (m w), (m' w), (m'' w); try done.
  - destruct H as (?&->&->), H' as (?&->&->). eauto.
  - by destruct H as (->&->), H' as (->&->).
Qed.
Lemma same_sym {X Y} (R : X -> Y -> Prop) m m' : same R m m' -> same (fun a b => R b a) m' m.
Proof. intros H w. specialize (H w). destruct (m w), (m' w); try done; naive_solver. Qed.
Lemma same_eq {X} (m m' : M X) w : same eq m m' -> m w = m' w.
Proof. intros H. specialize (H w). destruct (m w), (m' w); naive_solver. Qed.
Lemma same_assoc {X Y Z} (m : M X) (k : X -> M Y) (h : Y -> M Z) : same eq (bind (bind m k) h) (bind m (fun a => bind (k a) h)).
Proof.
  intros w. unfold bind. destruct (m w) as [a w1 e1|]; [|done]. destruct (k a w1) as [b w2 e2|]; [|done].
  destruct (h b w2); by rewrite app_assoc.
Qed.
Lemma same_assoc_l {X Y Z Z'} (S : Z -> Z' -> Prop) (m : M X) (k : X -> M Y) (h : Y -> M Z) m' :
  same S (bind m (fun a => bind (k a) h)) m' -> same S (bind (bind m k) h) m'.
Proof.
  intros H. eapply same_weaken; [eapply same_trans; [apply same_assoc|apply H]|]. naive_solver.
Qed.
Lemma same_assoc_r {X Y Z Z'} (S : Z' -> Z -> Prop) (m : M X) (k : X -> M Y) (h : Y -> M Z) m' :
  same S m' (bind m (fun a => bind (k a) h)) -> same S m' (bind (bind m k) h).
Proof.
  intros H. eapply same_weaken; [eapply same_trans; [apply H|apply same_sym, same_assoc]|]. naive_solver.
Qed.
Lemma same_ret_l {X Y Y'} (S : Y -> Y' -> Prop) (a : X) (k : X -> M Y) m' : same S (k a) m' -> same S (bind (ret a) k) m'.
Proof. intros H w. specialize (H w). unfold bind, ret. by destruct (k a w). Qed.
Lemma same_ret_r {X Y Y'} (S : Y' -> Y -> Prop) (a : X) (k : X -> M Y) m' : same S m' (k a) -> same S m' (bind (ret a) k).
Proof. intros H w. specialize (H w). unfold bind, ret. destruct (m' w); by destruct (k a w). Qed.

Definition osame {X Y} (P : X -> Y -> Prop) (x : option X) (y : option Y) : Prop :=
  match x, y with Some a, Some b => P a b | None, None => True | _, _ => False end.

(** * Two allocator types that do the same *)
Record alike (A B : alloc) (R : a_st A -> a_st B -> Prop) : Prop := {
  k_size : a_size A = a_size B;
  k_init b : same R (a_init A b) (a_init B b);
  k_dtor b s t : R s t -> same eq (a_dtor A b s) (a_dtor B b t);
  k_alloc b s t n : R s t -> same (fun x y => fst x = fst y /\ R (snd x) (snd y)) (a_alloc A b s n) (a_alloc B b t n);
  k_free b s t p n : R s t -> same R (a_free A b s p n) (a_free B b t p n);
  k_owns : osame (fun o o' => forall b s t p, R s t -> o b s p = o' b t p) (a_owns A) (a_owns B);
  k_max : osame (fun o o' => forall b s t, R s t -> same eq (o b s) (o' b t)) (a_max A) (a_max B);
  k_cd : osame (fun o o' => forall c b s t p act, R s t -> same R (o c b s p act) (o' c b t p act)) (a_cd A) (a_cd B)
}.

Lemma alike_refl A : alike A A eq.
Proof.
  split.
  - done.
  - intros. apply same_refl.
  - intros b s ? <-. apply same_refl.
  - intros b s ? n <-. eapply same_weaken; [apply same_refl|]. by intros ? ? <-.
  - intros b s ? p n <-. apply same_refl.
  - destruct (a_owns A) as [o|]; [|done]. by intros b s ? p <-.
  - destruct (a_max A) as [o|]; [|done]. intros b s ? <-. apply same_refl.
  - destruct (a_cd A) as [o|]; [|done]. intros c b s ? p act <-. apply same_refl.
Qed.

Lemma alike_trans A B C R S : alike A B R -> alike B C S -> alike A C (fun a c => exists b, R a b /\ S b c).
Proof.
  intros [H1 H2 H3 H4 H5 H6 H7 H8] [G1 G2 G3 G4 G5 G6 G7 G8]. split.
  - congruence.
  - intros b. eapply same_trans; eauto.
  - intros b s t (u&?&?). eapply same_weaken; [eapply same_trans; eauto|]. naive_solver.
  - intros b s t n (u&?&?). eapply same_weaken; [eapply same_trans; eauto|]. cbn.
    intros [x1 x2] [y1 y2] ([z1 z2]&[Ha Hb]&[Hc Hd]); cbn in *. subst. eauto.
  - intros b s t p n (u&?&?). eapply same_trans; eauto.
  - destruct (a_owns A) as [oA|], (a_owns B) as [oB|], (a_owns C) as [oC|]; try done. cbn in *. intros b s t p (u&?&?).
    etrans; eauto.
  - destruct (a_max A) as [oA|], (a_max B) as [oB|], (a_max C) as [oC|]; try done. cbn in *. intros b s t (u&?&?).
    eapply same_weaken; [eapply same_trans; eauto|]. naive_solver.
  - destruct (a_cd A) as [oA|], (a_cd B) as [oB|], (a_cd C) as [oC|]; try done. cbn in *. intros c b s t p act (u&?&?).
    eapply same_trans; eauto.
Qed.

(** * All templates preserve it *)
Definition rel_fl {A B : alloc} (R : a_st A -> a_st B -> Prop) (s : fl A) (t : fl B) : Prop :=
  R (f_in s) (f_in t) /\ f_head s = f_head t.
Lemma alike_freelist Min Max A B R : alike A B R -> alike (freelist Min Max A) (freelist Min Max B) (rel_fl R).
Proof.
  intros [H1 H2 H3 H4 H5 H6 H7 H8]. split; cbn [freelist a_st a_size a_init a_dtor a_alloc a_free a_owns a_max a_cd].
  - done.
  - intros b. eapply same_bind; [apply H2|]. intros s t Hs. by apply same_ret.
  - intros b s t [Hs Hh].
    enough (forall k s t h, R s t -> same eq (s' <- fl_release Max A k b s h ;; a_dtor A b s') (s' <- fl_release Max B k b t h ;; a_dtor B b s')) as H.
    { intros w. unfold fl_dtor. rewrite Hh. by apply H. }
    intros k s0 t0 h Hs0. eapply (same_bind R); [|auto]. revert s0 t0 h Hs0.
    induction k as [|k IH]; intros s0 t0 h Hs0; cbn [fl_release]; [by intros w|].
    destruct (h =? 0); [by apply same_ret|]. apply same_bind_eq. intros nx. eapply same_bind; [by apply H5|]. intros. by apply IH.
  - intros b s t n [Hs Hh]. unfold fl_alloc. rewrite Hh. destruct (fl_range _ _ _); [|by apply same_ret].
    destruct (f_head t =? 0).
    + eapply same_bind; [by apply H4|]. intros [p s'] [q t'] [Hp Hs']; cbn in *. by apply same_ret.
    + apply same_bind_eq. intros nx. by apply same_ret.
  - intros b s t p n [Hs Hh]. unfold fl_free. apply same_bind_eq. intros _. rewrite Hh. destruct (_ && _); [|by apply same_ret].
    apply same_bind_eq. intros _. by apply same_ret.
  - destruct (a_owns A) as [oA|], (a_owns B) as [oB|]; try done. cbn in *. intros b s t p [Hs Hh]. by apply H6.
  - destruct (a_max A) as [oA|], (a_max B) as [oB|]; try done. cbn in *. intros b s t [Hs Hh]. by apply H7.
  - destruct (a_cd A) as [oA|], (a_cd B) as [oB|]; try done. cbn in *. intros c b s t p act [Hs Hh]. eapply same_bind; [by apply H8|].
    intros s' t' Hs'. by apply same_ret.
Qed.

Definition rel_pair {A A' B B' : Type} (R : A -> A' -> Prop) (S : B -> B' -> Prop) (s : A * B) (t : A' * B') : Prop :=
  R (fst s) (fst t) /\ S (snd s) (snd t).

Section pairs.
  Context {P P' F F' : alloc} {R : a_st P -> a_st P' -> Prop} {S : a_st F -> a_st F' -> Prop}.
  Context (HP : alike P P' R) (HF : alike F F' S).

  Lemma alike_pair_owns : osame (fun o o' => forall b s t p, rel_pair R S s t -> o b s p = o' b t p) (pair_owns P F) (pair_owns P' F').
  Proof.
    unfold pair_owns. pose proof (k_owns _ _ _ HP) as H. pose proof (k_owns _ _ _ HF) as G. pose proof (k_size _ _ _ HP) as E.
    destruct (a_owns P) as [oP|], (a_owns P') as [oP'|], (a_owns F) as [oF|], (a_owns F') as [oF'|]; try done. cbn in *. intros b s t p [Hs Ht].
    rewrite E. f_equal; auto.
  Qed.
  Lemma alike_pair_max : osame (fun o o' => forall b s t, rel_pair R S s t -> same eq (o b s) (o' b t)) (pair_max P F) (pair_max P' F').
  Proof.
    unfold pair_max. pose proof (k_max _ _ _ HP) as H. pose proof (k_max _ _ _ HF) as G. pose proof (k_size _ _ _ HP) as E.
    destruct (a_max P) as [oP|], (a_max P') as [oP'|], (a_max F) as [oF|], (a_max F') as [oF'|]; try done. cbn in *. intros b s t [Hs Ht].
    rewrite E. apply same_bind_eq2; [by apply H|]. intros x. apply same_bind_eq2; [by apply G|]. intros y. apply same_refl.
  Qed.
  Lemma alike_pair_cd : osame (fun o o' => forall c b s t p act, rel_pair R S s t -> same (rel_pair R S) (o c b s p act) (o' c b t p act))
    (pair_cd P F) (pair_cd P' F').
  Proof.
    unfold pair_cd. pose proof (k_owns _ _ _ HP) as H. pose proof (k_cd _ _ _ HP) as HC. pose proof (k_cd _ _ _ HF) as GC.
    pose proof (k_size _ _ _ HP) as E. destruct (a_owns P) as [oP|], (a_owns P') as [oP'|]; try done. cbn in H.
    destruct (a_cd P), (a_cd P'), (a_cd F), (a_cd F'); try done; cbn in *; intros c b s t p act [Hs Ht]; rewrite ?E -(H _ _ _ p Hs);
      destruct (oP b (fst s) p); try (apply same_bind_eq; intros _; by apply same_ret);
      (eapply same_bind; [first [by apply HC|by apply GC]|intros s' t' Hs'; by apply same_ret]).
  Qed.
  Lemma alike_pair_init b : same (rel_pair R S) (pair_init P F b) (pair_init P' F' b).
  Proof.
    unfold pair_init. rewrite (k_size _ _ _ HP). eapply same_bind; [apply (k_init _ _ _ HP)|]. intros s t Hs.
    eapply same_bind; [apply (k_init _ _ _ HF)|]. intros s' t' Hs'. by apply same_ret.
  Qed.
  Lemma alike_pair_dtor b s t : rel_pair R S s t -> same eq (pair_dtor P F b s) (pair_dtor P' F' b t).
  Proof.
    intros [Hs Ht]. unfold pair_dtor. rewrite (k_size _ _ _ HP). apply same_bind_eq2; [by apply (k_dtor _ _ _ HF)|]. intros _.
    by apply (k_dtor _ _ _ HP).
  Qed.

  Lemma alike_fallback : alike (fallback P F) (fallback P' F') (rel_pair R S).
  Proof.
    split; cbn [fallback a_st a_size a_init a_dtor a_alloc a_free a_owns a_max a_cd].
    - by rewrite (k_size _ _ _ HP) (k_size _ _ _ HF).
    - apply alike_pair_init.
    - apply alike_pair_dtor.
    - intros b s t n [Hs Ht]. unfold fb_alloc. eapply same_bind; [by apply (k_alloc _ _ _ HP)|].
      intros [p s'] [q t'] [Hp Hs']; cbn in *. subst q. rewrite (k_size _ _ _ HP). destruct (p =? 0); [|by apply same_ret].
      eapply same_bind; [by apply (k_alloc _ _ _ HF)|]. intros [p' s2] [q' t2] [Hp' Hs2]; cbn in *. by apply same_ret.
    - intros b s t p n [Hs Ht]. unfold fb_free. rewrite (k_size _ _ _ HP). pose proof (k_owns _ _ _ HP) as H.
      assert (match a_owns P with Some o => o b (fst s) p | None => false end =
              match a_owns P' with Some o => o b (fst t) p | None => false end) as ->.
      { destruct (a_owns P) as [oP|], (a_owns P') as [oP'|]; try done. by apply H. }
      destruct (match a_owns P' with Some o => o b (fst t) p | None => false end).
      + eapply same_bind; [by apply (k_free _ _ _ HP)|]. intros s' t' Hs'. by apply same_ret.
      + eapply same_bind; [by apply (k_free _ _ _ HF)|]. intros s' t' Hs'. by apply same_ret.
    - apply alike_pair_owns.
    - apply alike_pair_max.
    - apply alike_pair_cd.
  Qed.

  Lemma alike_segragator T : alike (segragator P F T) (segragator P' F' T) (rel_pair R S).
  Proof.
    split; cbn [segragator a_st a_size a_init a_dtor a_alloc a_free a_owns a_max a_cd].
    - by rewrite (k_size _ _ _ HP) (k_size _ _ _ HF).
    - apply alike_pair_init.
    - apply alike_pair_dtor.
    - intros b s t n [Hs Ht]. unfold seg_alloc. rewrite (k_size _ _ _ HP). destruct (n <=? T).
      + eapply same_bind; [by apply (k_alloc _ _ _ HP)|]. intros [p s'] [q t'] [Hp Hs']; cbn in *. by apply same_ret.
      + eapply same_bind; [by apply (k_alloc _ _ _ HF)|]. intros [p s'] [q t'] [Hp Hs']; cbn in *. by apply same_ret.
    - intros b s t p n [Hs Ht]. unfold seg_free. rewrite (k_size _ _ _ HP). destruct (n <=? T).
      + eapply same_bind; [by apply (k_free _ _ _ HP)|]. intros s' t' Hs'. by apply same_ret.
      + eapply same_bind; [by apply (k_free _ _ _ HF)|]. intros s' t' Hs'. by apply same_ret.
    - apply alike_pair_owns.
    - apply alike_pair_max.
    - apply alike_pair_cd.
  Qed.
End pairs.

Definition rel_ov {A B : alloc} (R : a_st A -> a_st B -> Prop) (s : ov A) (t : ov B) : Prop :=
  R (o_in s) (o_in t) /\ o_allocs s = o_allocs t /\ o_cons s = o_cons t.
Lemma alike_overflow A B R : alike A B R -> alike (overflow A) (overflow B) (rel_ov R).
Proof.
  intros [H1 H2 H3 H4 H5 H6 H7 H8]. split; cbn [overflow a_st a_size a_init a_dtor a_alloc a_free a_owns a_max a_cd].
  - done.
  - intros b. eapply same_bind; [apply H2|]. intros s t Hs. by apply same_ret.
  - intros b s t (Hs&E1&E2). unfold ov_dtor. rewrite E1 E2. apply same_bind_eq. intros _. apply same_bind_eq. intros _. by apply H3.
  - intros b s t n (Hs&E1&E2). unfold ov_alloc. rewrite E1 E2. eapply same_bind; [by apply H4|].
    intros [p s'] [q t'] [Hp Hs']; cbn in *. subst q. destruct (p =? 0); [by apply same_ret|].
    apply same_bind_eq. intros _. apply same_bind_eq. intros _. by apply same_ret.
  - intros b s t p n (Hs&E1&E2). unfold ov_free. rewrite E1 E2. apply same_bind_eq. intros _. destruct (p =? 0); [by apply same_ret|].
    apply same_bind_eq. intros x. apply same_bind_eq. intros y. apply same_bind_eq. intros _.
    eapply same_bind; [by apply H5|]. intros s' t' Hs'. by apply same_ret.
  - destruct (a_owns A) as [oA|], (a_owns B) as [oB|]; try done. cbn in *. intros b s t p (Hs&_). by apply H6.
  - destruct (a_max A) as [oA|], (a_max B) as [oB|]; try done. cbn in *. intros b s t (Hs&_). by apply H7.
  - cbn. intros c b s t p act (Hs&E1&E2). unfold ov_cd. rewrite E1 E2.
    destruct (a_cd A) as [oA|], (a_cd B) as [oB|]; try done; cbn in H8.
    + eapply same_bind; [by apply H8|]. intros s' t' Hs'. by apply same_ret.
    + apply same_bind_eq. intros _. by apply same_ret.
Qed.

Definition rel_sh {A B : alloc} (R : a_st A -> a_st B -> Prop) (s : sh A) (t : sh B) : Prop :=
  R (sh_in s) (sh_in t) /\ sh_block s = sh_block t.
Lemma alike_shared pl A B R : alike A B R -> alike (shared pl A) (shared pl B) (rel_sh R).
Proof.
  intros [H1 H2 H3 H4 H5 H6 H7 H8]. split; cbn [shared a_st a_size a_init a_dtor a_alloc a_free a_owns a_max a_cd].
  - done.
  - intros b. rewrite H1. apply same_bind_eq. intros p. destruct (p =? 0); [by intros w|].
    eapply same_bind; [apply H2|]. intros s t Hs. by apply same_ret.
  - intros b s t [Hs E]. rewrite E. apply same_bind_eq2; [by apply H3|]. intros _. apply same_refl.
  - intros b s t n [Hs E]. rewrite E. eapply same_bind; [by apply H4|]. intros [p s'] [q t'] [Hp Hs']; cbn in *. by apply same_ret.
  - intros b s t p n [Hs E]. rewrite E. eapply same_bind; [by apply H5|]. intros s' t' Hs'. by apply same_ret.
  - destruct (a_owns A) as [oA|], (a_owns B) as [oB|]; try done. cbn in *. intros b s t p [Hs E]. rewrite E. by apply H6.
  - destruct (a_max A) as [oA|], (a_max B) as [oB|]; try done. cbn in *. intros b s t [Hs E]. rewrite E. by apply H7.
  - destruct (a_cd A) as [oA|], (a_cd B) as [oB|]; try done. cbn in *. intros c b s t p act [Hs E]. rewrite E. eapply same_bind; [by apply H8|].
    intros s' t' Hs'. by apply same_ret.
Qed.

Lemma alike_forwarding A B R : alike A B R -> alike (forwarding A) (forwarding B) R.
Proof. by intros []. Qed.

Definition rel_checked {A B : alloc} (R : a_st A -> a_st B -> Prop) (s : a_st A * list (N * N)) (t : a_st B * list (N * N)) : Prop :=
  R (fst s) (fst t) /\ snd s = snd t.
Lemma alike_checked A B R : alike A B R -> alike (checked A) (checked B) (rel_checked R).
Proof.
  intros [H1 H2 H3 H4 H5 H6 H7 H8]. split; cbn [checked a_st a_size a_init a_dtor a_alloc a_free a_owns a_max a_cd].
  - done.
  - intros b. eapply same_bind; [apply H2|]. intros s t Hs. by apply same_ret.
  - intros b s t [Hs E]. rewrite E. destruct (snd t); [by apply H3|by intros w].
  - intros b s t n [Hs E]. rewrite E. eapply same_bind; [by apply H4|]. intros [p s'] [q t'] [Hp Hs']; cbn in *. subst q. by apply same_ret.
  - intros b s t p n [Hs E]. rewrite E. destruct (take_out _ _); [|by intros w]. eapply same_bind; [by apply H5|].
    intros s' t' Hs'. by apply same_ret.
  - destruct (a_owns A) as [oA|], (a_owns B) as [oB|]; try done. cbn in *. intros b s t p [Hs E]. by apply H6.
  - destruct (a_max A) as [oA|], (a_max B) as [oB|]; try done. cbn in *. intros b s t [Hs E]. by apply H7.
  - destruct (a_cd A) as [oA|], (a_cd B) as [oB|]; try done. cbn in *. intros c b s t p act [Hs E]. rewrite E. eapply same_bind; [by apply H8|].
    intros s' t' Hs'. by apply same_ret.
Qed.

Definition rel_node {A B : alloc} (R : a_st A -> a_st B -> Prop) (x : node A) (y : node B) : Prop :=
  R (nd_in x) (nd_in y) /\ nd_addr x = nd_addr y /\ nd_cnt x = nd_cnt y.
Lemma alike_cascading pl A B R : alike A B R -> alike (cascading pl A) (cascading pl B) (Forall2 (rel_node R)).
Proof.
  intros [H1 H2 H3 H4 H5 H6 H7 H8]. unfold cascading.
  assert (Ho : forall b s t p, R s t -> (match a_owns A with Some o => o | None => fun _ _ _ => false end) b s p =
                                   (match a_owns B with Some o => o | None => fun _ _ _ => false end) b t p).
  { intros b s t p Hs. destruct (a_owns A) as [oA|], (a_owns B) as [oB|]; try done. by apply H6. }
  revert Ho. generalize (match a_owns A with Some o => o | None => fun _ _ _ => false end) as oA.
  generalize (match a_owns B with Some o => o | None => fun _ _ _ => false end) as oB. intros oB oA Ho.
  assert (Hnew : same (rel_node R) (new_node pl A) (new_node pl B)).
  { unfold new_node, node_size. rewrite H1. apply same_bind_eq. intros p. destruct (p =? 0); [by intros w|].
    eapply same_bind; [apply H2|]. intros s t Hs. by apply same_ret. }
  assert (Hdel : forall x y, rel_node R x y -> same eq (del_node pl A x) (del_node pl B y)).
  { intros x y (Hs&E1&E2). unfold del_node. rewrite E1. apply same_bind_eq2; [by apply H3|]. intros _. apply same_refl. }
  split; cbn [cascading_with a_st a_size a_init a_dtor a_alloc a_free a_owns a_max a_cd].
  - done.
  - intros _. by apply same_ret.
  - intros _ s t H. generalize true. induction H as [|x y s t Hx _ IH]; intros first; cbn [casc_release]; [by apply same_ret|].
    apply same_bind_eq. intros _. apply same_bind_eq2; [by apply Hdel|]. intros _. apply IH.
  - intros _ s t n H. unfold casc_alloc.
    eapply (same_bind (fun x y => rel_node R (fst x) (fst y) /\ Forall2 (rel_node R) (snd x) (snd y))).
    { destruct H as [|x y s t Hx Hs].
      - eapply same_bind; [apply Hnew|]. intros x y Hx. apply same_ret. split; [done|constructor].
      - by apply same_ret. }
    intros [x s'] [y t'] [(Hs&E1&E2) Hr]; cbn [fst snd] in Hs, E1, E2, Hr. rewrite E1.
    apply same_bind_eq2.
    { destruct (a_max A) as [mA|], (a_max B) as [mB|]; try done. apply same_bind_eq2; [by apply H7|]. intros m. apply same_refl. }
    intros over. destruct over.
    { apply same_ret. split; [done|]. cbn. constructor; [|done]. by split_and!. }
    eapply same_bind; [by apply H4|]. intros [p si] [q ti] [Hp Hsi]; cbn in Hp, Hsi. subst q. destruct (p =? 0).
    + eapply same_bind; [apply Hnew|]. intros x2 y2 (Hs2&E3&E4). rewrite E3. eapply same_bind; [by apply H4|].
      intros [p2 si2] [q2 ti2] [Hp2 Hsi2]; cbn in Hp2, Hsi2. subst q2. apply same_ret. cbn. rewrite E4 E2. split; [done|].
      repeat constructor; done.
    + apply same_ret. cbn. rewrite E2. split; [done|]. repeat constructor; done.
  - intros _ s t p n H. unfold casc_free. apply same_bind_eq. intros _. generalize false.
    induction H as [|x y s t Hx Hs IH]; intros prev; cbn [casc_free_loop]; [by apply same_ret|].
    pose proof Hx as (Hx1&E1&E2). rewrite E1 (Ho _ _ _ _ Hx1). destruct (oB _ _ p).
    + eapply same_bind; [by apply H5|]. intros si ti Hsi. cbn [nd_cnt]. rewrite E2. destruct (_ && _).
      * apply same_bind_eq2; [by apply Hdel|]. intros _. by apply same_ret.
      * apply same_ret. constructor; [|done]. by split_and!.
    + eapply same_bind; [apply IH|]. intros s' t' Hs'. apply same_ret. by constructor.
  - cbn. intros _ s t p H. unfold casc_owns. induction H as [|x y s t (Hx&E1&E2) Hs IH]; cbn [existsb]; [done|].
    by rewrite E1 (Ho _ _ _ _ Hx) IH.
  - destruct (a_max A) as [mA|], (a_max B) as [mB|]; try done. cbn in *. intros _ s t H. destruct H as [|x y s t (Hx&E1&E2) Hs]; [by intros w|].
    cbn [casc_max]. rewrite E1. by apply H7.
  - destruct (a_cd A) as [mA|], (a_cd B) as [mB|]; try done. cbn in *. intros c _ s t p act H.
    induction H as [|x y s t Hx Hs IH]; cbn [casc_cd].
    + apply same_bind_eq. intros _. apply same_bind_eq. intros _. apply same_ret. constructor.
    + pose proof Hx as (Hx1&E1&E2). rewrite E1 (Ho _ _ _ _ Hx1). destruct (oB _ _ p).
      * eapply same_bind; [by apply H8|]. intros si ti Hsi. apply same_ret. constructor; [|done]. by split_and!.
      * eapply same_bind; [apply IH|]. intros s' t' Hs'. apply same_ret. by constructor.
Qed.

(** * The two laws *)
Definition nest {A B C : Type} (s : A * B * C) (t : A * (B * C)) : Prop := t = (fst (fst s), (snd (fst s), snd s)).

Section assoc.
  Context (A B C : alloc).

  Lemma nest_init b P : P = a_size A + a_size B ->
    same nest (s <- pair_init A B b ;; t <- a_init C (b + P) ;; ret (s, t))
              (s <- a_init A b ;; t <- pair_init B C (b + a_size A) ;; ret (s, t)).
  Proof.
    intros ->. unfold pair_init. apply same_assoc_l, same_bind_eq. intros s. apply same_assoc_l, same_assoc_r, same_bind_eq. intros t.
    apply same_assoc_r, same_ret_l. rewrite N.add_assoc. apply same_bind_eq. intros u. apply same_ret_r. by apply same_ret.
  Qed.
  Lemma nest_dtor b s t : nest s t -> same eq (pair_dtor (fallback A B) C b s) (pair_dtor A (fallback B C) b t).
  Proof.
    intros Hn. unfold nest in Hn. subst t. unfold pair_dtor. cbn [fallback a_st a_size a_dtor fst snd]. unfold pair_dtor. rewrite N.add_assoc. cbn [fst snd].
    apply same_assoc_r, same_bind_eq. intros _. apply same_refl.
  Qed.
  Lemma nest_owns :
    osame (fun o o' => forall b s t p, nest s t -> o b s p = o' b t p)
      (omap2 (fun oP oF base (s : a_st A * a_st B * a_st C) p => oP base (fst s) p || oF (base + (a_size A + a_size B)) (snd s) p) (pair_owns A B) (a_owns C))
      (omap2 (fun oP oF base (s : a_st A * (a_st B * a_st C)) p => oP base (fst s) p || oF (base + a_size A) (snd s) p) (a_owns A) (pair_owns B C)).
  Proof.
    unfold pair_owns. destruct (a_owns A) as [oA|], (a_owns B) as [oB|], (a_owns C) as [oC|]; try done. cbn. intros b s t p Hn. unfold nest in Hn. subst t. cbn.
    by rewrite N.add_assoc orb_assoc.
  Qed.
  Lemma nest_max :
    osame (fun o o' => forall b s t, nest s t -> same eq (o b s) (o' b t))
      (omap2 (fun mP mF base (s : a_st A * a_st B * a_st C) => x <- mP base (fst s) ;; y <- mF (base + (a_size A + a_size B)) (snd s) ;; ret (N.max x y)) (pair_max A B) (a_max C))
      (omap2 (fun mP mF base (s : a_st A * (a_st B * a_st C)) => x <- mP base (fst s) ;; y <- mF (base + a_size A) (snd s) ;; ret (N.max x y)) (a_max A) (pair_max B C)).
  Proof.
    unfold pair_max. destruct (a_max A) as [oA|], (a_max B) as [oB|], (a_max C) as [oC|]; try done. cbn. intros b s t Hn. unfold nest in Hn. subst t. cbn.
    apply same_assoc_l, same_bind_eq. intros x. apply same_assoc_l, same_assoc_r, same_bind_eq. intros y.
    apply same_ret_l, same_assoc_r. rewrite N.add_assoc. apply same_bind_eq. intros z. apply same_ret_r, same_ret.
    by rewrite N.max_assoc.
  Qed.

  (** segragator and fallback share construct and destroy. *)
  Lemma nest_cd : (a_owns A <> None -> a_cd A <> None -> a_owns B <> None) ->
    osame (fun o o' => forall c b s t p act, nest s t -> same nest (o c b s p act) (o' c b t p act))
      (pair_cd (fallback A B) C) (pair_cd A (fallback B C)).
  Proof.
    intros H. unfold pair_cd. cbn [fallback a_owns a_cd a_st a_size]. unfold pair_owns, pair_cd.
    destruct (a_owns A) as [oA|]; cbn [omap2]; [|done].
    destruct (a_owns B) as [oB|]; cbn [omap2]; [|by destruct (a_cd A); [destruct H|]].
    destruct (a_cd A) as [cA|], (a_cd B) as [cB|], (a_cd C) as [cC|]; try done; cbn;
      intros c b s t p act Hn; unfold nest in Hn; subst t; cbn; destruct (oA _ _ p); cbn; try (destruct (oB _ _ p); cbn); rewrite ?N.add_assoc;
      repeat first [ apply same_assoc_l | apply same_assoc_r | apply same_bind_eq; intros ? | apply same_ret_l | apply same_ret_r
        | apply same_ret; done ].
  Qed.
End assoc.

(** fallback<fallback<A, B>, C> and fallback<A, fallback<B, C>>. *)
Lemma fallback_assoc A B C : a_owns A <> None -> a_owns B <> None ->
  alike (fallback (fallback A B) C) (fallback A (fallback B C)) nest.
Proof.
  intros HA HB. split; cbn [fallback a_st a_size a_init a_dtor a_alloc a_free a_owns a_max a_cd].
  - lia.
  - intros b. by apply nest_init.
  - apply nest_dtor.
  - intros b s t n Hn. unfold nest in Hn. subst t. unfold fb_alloc. cbn [fallback a_st a_size a_alloc fst snd]. unfold fb_alloc. cbn [fst snd].
    apply same_assoc_l, same_bind_eq. intros [p sa]. destruct (p =? 0) eqn:E.
    + apply same_assoc_l, same_assoc_r, same_bind_eq. intros [p' sb]. apply same_ret_l. destruct (p' =? 0) eqn:E'.
      * apply same_assoc_r. rewrite N.add_assoc. apply same_bind_eq. intros [p2 sc]. apply same_ret_r. by apply same_ret.
      * apply same_ret_r. by apply same_ret.
    + apply same_ret_l. rewrite E. by apply same_ret.
  - intros b s t p n Hn. unfold nest in Hn. subst t. unfold fb_free. cbn [fallback a_st a_size a_free a_owns fst snd]. unfold fb_free, pair_owns. cbn [fst snd].
    destruct (a_owns A) as [oA|], (a_owns B) as [oB|]; try done. cbn [omap2 fst snd].
    destruct (oA _ _ p); cbn [orb].
    + apply same_assoc_l, same_bind_eq. intros sa. apply same_ret_l. by apply same_ret.
    + destruct (oB _ _ p).
      * apply same_assoc_l, same_assoc_r, same_bind_eq. intros sa. apply same_ret_l, same_ret_r. by apply same_ret.
      * apply same_assoc_r. rewrite N.add_assoc. apply same_bind_eq. intros sa. apply same_ret_r. by apply same_ret.
  - apply nest_owns.
  - apply nest_max.
  - by apply nest_cd.
Qed.

(** segragator<T, segragator<T', A, B>, C> and segragator<T', A, segragator<T, B, C>>. *)
Lemma segragator_assoc A B C T T' : T' <= T -> (a_owns A <> None -> a_cd A <> None -> a_owns B <> None) ->
  alike (segragator (segragator A B T') C T) (segragator A (segragator B C T) T') nest.
Proof.
  intros HT HO. split; cbn [segragator a_st a_size a_init a_dtor a_alloc a_free a_owns a_max a_cd].
  - lia.
  - intros b. by apply nest_init.
  - apply nest_dtor.
  - intros b s t n Hn. unfold nest in Hn. subst t. unfold seg_alloc. cbn [segragator a_st a_size a_alloc fst snd]. unfold seg_alloc. cbn [fst snd].
    rewrite N.add_assoc. destruct (N.leb_spec n T), (N.leb_spec n T'); try lia;
      repeat first [ apply same_assoc_l | apply same_assoc_r | apply same_bind_eq; intros [??] | apply same_ret_l | apply same_ret_r
        | apply same_ret; done ].
  - intros b s t p n Hn. unfold nest in Hn. subst t. unfold seg_free. cbn [segragator a_st a_size a_free fst snd]. unfold seg_free. cbn [fst snd].
    rewrite N.add_assoc. destruct (N.leb_spec n T), (N.leb_spec n T'); try lia;
      repeat first [ apply same_assoc_l | apply same_assoc_r | apply same_bind_eq; intros ? | apply same_ret_l | apply same_ret_r
        | apply same_ret; done ].
  - apply nest_owns.
  - apply nest_max.
  - by apply (nest_cd A B C).
Qed.

(** * Compositions *)
Definition like (pl : platform) (e e' : aexp) : Prop := exists R,
  alike (den pl e) (den pl e') R /\ forall b s t, R s t -> eready_now pl e b s = eready_now pl e' b t.

Lemma like_refl pl e : like pl e e.
Proof. exists eq. split; [apply alike_refl|]. by intros b s ? <-. Qed.
Lemma like_trans pl e e' e'' : like pl e e' -> like pl e' e'' -> like pl e e''.
Proof.
  intros (R&H1&H2) (S&G1&G2). eexists. split; [by eapply alike_trans|]. intros b s t (u&?&?). etrans; [by apply H2|by apply G2].
Qed.
Lemma like_size pl e e' : like pl e e' -> esize e = esize e'.
Proof. intros (R&H&_). rewrite -(den_size pl e) -(den_size pl e'). apply (k_size _ _ _ H). Qed.

Lemma like_freelist pl Min Max e e' : like pl e e' -> like pl (EFreelist Min Max e) (EFreelist Min Max e').
Proof. intros (R&H&G). eexists. split; [by apply alike_freelist|]. intros b s t [Hs _]. by apply G. Qed.
Lemma like_cascading pl e e' : like pl e e' -> like pl (ECascading e) (ECascading e').
Proof.
  intros (R&H&G). eexists. split; [by apply alike_cascading|]. intros b s t Hs. destruct Hs as [|x y s t (Hx&E&_) _]; [done|].
  cbn [eready_now]. rewrite E. by apply G.
Qed.
Lemma like_fallback pl p p' f f' : like pl p p' -> like pl f f' -> like pl (EFallback p f) (EFallback p' f').
Proof.
  intros Hp (S&H'&G'). pose proof (like_size _ _ _ Hp) as E. destruct Hp as (R&H&G). eexists. split; [by apply (alike_fallback H H')|].
  intros b s t [Hs Ht]. cbn [eready_now]. rewrite E. f_equal; auto.
Qed.
Lemma like_segragator pl T p p' f f' : like pl p p' -> like pl f f' -> like pl (ESegragator T p f) (ESegragator T p' f').
Proof.
  intros Hp (S&H'&G'). pose proof (like_size _ _ _ Hp) as E. destruct Hp as (R&H&G). eexists. split; [by apply (alike_segragator H H')|].
  intros b s t [Hs Ht]. cbn [eready_now]. rewrite E. f_equal; auto.
Qed.
Lemma like_overflow pl e e' : like pl e e' -> like pl (EOverflow e) (EOverflow e').
Proof. intros (R&H&G). eexists. split; [by apply alike_overflow|]. intros b s t [Hs _]. by apply G. Qed.
Lemma like_shared pl e e' : like pl e e' -> like pl (EShared e) (EShared e').
Proof. intros (R&H&G). eexists. split; [by apply alike_shared|]. intros b s t [Hs E]. cbn [eready_now]. rewrite E. by apply G. Qed.
Lemma like_checked pl e e' : like pl e e' -> like pl (EChecked e) (EChecked e').
Proof. intros (R&H&G). eexists. split; [by apply alike_checked|]. intros b s t [Hs E]. by apply G. Qed.

Lemma like_fallback_assoc pl a b c : eowns a = true -> eowns b = true ->
  like pl (EFallback (EFallback a b) c) (EFallback a (EFallback b c)).
Proof.
  intros Ha Hb. eexists. split; [apply fallback_assoc; by apply den_owns|]. intros base s t Hn. unfold nest in Hn. subst t. cbn [eready_now esize fst snd].
  by rewrite N.add_assoc andb_assoc.
Qed.

Lemma den_cd pl e : a_cd (den pl e) <> None -> ecd e = true.
Proof.
  assert (Ho : forall e, a_owns (den pl e) <> None -> eowns e = true).
  { intros e0. induction e0 as [| | | |Min Max e0 IH|e0 IH|p IHp f IHf|T p IHp f IHf|e0 IH|e0 IH|e0 IH|e0 IH|e0 IH|e0 IH]; cbn [eowns den]; try done; cbn;
      try (intros H; apply IH; by destruct (a_owns (den pl e0)));
      unfold pair_owns, omap2; intros H; rewrite IHp ?IHf //; by destruct (a_owns (den pl p)), (a_owns (den pl f)). }
  induction e as [| | | |Min Max e IH|e IH|p IHp f IHf|T p IHp f IHf|e IH|e IH|e IH|e IH|e IH|e IH]; cbn [ecd den]; try done; cbn;
    try (intros H; apply IH; by destruct (a_cd (den pl e)));
    unfold pair_cd; intros H; (rewrite Ho; [|by destruct (a_owns (den pl p))]); destruct (a_owns (den pl p)); try done;
    destruct (a_cd (den pl p)); [by rewrite IHp|..|by rewrite IHp|]; (rewrite IHf; [by rewrite orb_true_r|]; by destruct (a_cd (den pl f))).
Qed.

Lemma like_segragator_assoc pl T T' a b c : T' <= T -> (eowns b || negb (ecd a)) = true ->
  like pl (ESegragator T (ESegragator T' a b) c) (ESegragator T' a (ESegragator T b c)).
Proof.
  intros HT H. eexists. split.
  - apply segragator_assoc; [done|]. intros _ Hc. apply den_cd in Hc. rewrite Hc orb_false_r in H. by apply den_owns.
  - intros base s t Hn. unfold nest in Hn. subst t. cbn [eready_now esize fst snd]. by rewrite N.add_assoc andb_assoc.
Qed.

Lemma eowns_graft p f : eowns (fb_graft p f) = eowns p && eowns f.
Proof. induction p; try done. cbn [fb_graft eowns]. by rewrite IHp2 andb_assoc. Qed.
Lemma eowns_unbracket e : eowns (unbracket e) = eowns e.
Proof. induction e; try done; cbn [unbracket eowns]; try congruence. rewrite eowns_graft. congruence. Qed.

Lemma like_graft pl p f : eowns p = true -> like pl (EFallback p f) (fb_graft p f).
Proof.
  induction p as [| | | | | |a _ b IH| | | | | | |]; intros Ho; try apply like_refl. cbn [eowns] in Ho. apply andb_true_iff in Ho as [Ha Hb].
  cbn [fb_graft]. eapply like_trans; [by apply like_fallback_assoc|]. apply like_fallback; [apply like_refl|]. by apply IH.
Qed.

Lemma like_unbracket pl e : wf e = true -> like pl e (unbracket e).
Proof.
  induction e as [| | | |Min Max e IH|e IH|p IHp f IHf|T p IHp f IHf|e IH|e IH|e IH|e IH|e IH|e IH]; cbn [wf unbracket]; intros H; try apply like_refl;
    repeat match goal with H : _ && _ = true |- _ => apply andb_true_iff in H as [? ?] end.
  - by apply like_freelist, IH.
  - by apply like_cascading, IH.
  - eapply like_trans; [apply like_fallback; [by apply IHp|by apply IHf]|]. apply like_graft. by rewrite eowns_unbracket.
  - apply like_segragator; auto.
  - by apply like_overflow, IH.
  - by apply like_shared, IH.
  - destruct (IH H) as (R&G1&G2). exists R. split; [by apply alike_forwarding|done].
  - destruct (IH H) as (R&G1&G2). exists R. split; [by apply alike_forwarding|done].
  - destruct (IH H) as (R&G1&G2). exists R. split; [by apply alike_forwarding|done].
  - by apply like_checked, IH.
Qed.

(** * Programs cannot tell *)
Section sessions.
  Context {A B : alloc} {R : a_st A -> a_st B -> Prop} (H : alike A B R) (b : N).
  Context (rA : N -> a_st A -> bool) (rB : N -> a_st B -> bool) (Hr : forall b s t, R s t -> rA b s = rB b t).

  Lemma step_same o s t bl : R s t ->
    same (fun x y => fst x = fst y /\ R (fst (snd x)) (fst (snd y)) /\ snd (snd x) = snd (snd y)) (step A b rA o s bl) (step B b rB o t bl).
  Proof.
    intros Hs. destruct H as [H1 H2 H3 H4 H5 H6 H7 H8].
    assert (Hc : forall c p act, same R (traits_cd A b c s p act) (traits_cd B b c t p act)).
    { intros c p act. unfold traits_cd. destruct (a_cd A) as [oA|], (a_cd B) as [oB|]; try done; [by apply H8|].
      apply same_bind_eq. intros _. by apply same_ret. }
    destruct o; cbn [step].
    - eapply same_bind; [by apply H4|]. intros [p s'] [q t'] [Hp Hs']; cbn in *. subst q. by apply same_ret.
    - destruct (bl !! i) as [[p n]|]; [|by apply same_ret]. eapply same_bind; [by apply H5|]. intros s' t' Hs'. by apply same_ret.
    - destruct (bl !! i) as [[p n]|]; [|by apply same_ret]. destruct (off <? n); [|by apply same_ret].
      apply same_bind_eq. intros _. by apply same_ret.
    - destruct (bl !! i) as [[p n]|]; [|by apply same_ret]. destruct (off <? n); [|by apply same_ret].
      apply same_bind_eq. intros c. by apply same_ret.
    - destruct (a_owns A) as [oA|], (a_owns B) as [oB|]; try done; apply same_ret. cbn. by rewrite (H6 b s t q Hs).
    - destruct (a_max A) as [oA|], (a_max B) as [oB|]; try done. rewrite (Hr _ _ _ Hs).
      destruct (rB b t); [|by apply same_ret]. apply same_bind_eq2; [by apply H7|]. intros v. by apply same_ret.
    - destruct (bl !! i) as [[p n]|]; [|by apply same_ret]. destruct (off <? n); [|by apply same_ret].
      eapply same_bind; [by apply Hc|]. intros s' t' Hs'. by apply same_ret.
    - destruct (bl !! i) as [[p n]|]; [|by apply same_ret]. destruct (off <? n); [|by apply same_ret].
      eapply same_bind; [by apply Hc|]. intros s' t' Hs'. by apply same_ret.
  Qed.

  Lemma run_same ops : forall s t bl, R s t ->
    same (fun x y => fst x = fst y /\ R (fst (snd x)) (fst (snd y)) /\ snd (snd x) = snd (snd y)) (run A b rA ops s bl) (run B b rB ops t bl).
  Proof.
    induction ops as [|o ops IH]; intros s t bl Hs; cbn [run]; [by apply same_ret|].
    eapply same_bind; [by apply step_same|]. intros [ob [s' bl']] [ob' [t' bl2]] (E1&Hs'&E2); cbn in *. subst ob' bl2.
    eapply same_bind; [by apply IH|]. intros [os [s2 l2]] [os' [t2 l2']] (E1&Hs2&E2); cbn in *. subst. by apply same_ret.
  Qed.

  Lemma free_all_same bl : forall s t, R s t -> same R (free_all A b bl s) (free_all B b bl t).
  Proof.
    induction bl as [|[p n] bl IH]; intros s t Hs; cbn [free_all]; [by apply same_ret|].
    eapply same_bind; [by apply (k_free _ _ _ H)|]. intros s' t' Hs'. by apply IH.
  Qed.

  Lemma session_same ops : same eq (session A b rA ops) (session B b rB ops).
  Proof.
    unfold session. eapply same_bind; [apply (k_init _ _ _ H)|]. intros s t Hs.
    eapply same_bind; [by apply run_same|]. intros [os [s2 l2]] [os' [t2 l2']] (E1&Hs2&E2); cbn in *. subst.
    eapply same_bind; [by apply free_all_same|]. intros s3 t3 Hs3. apply same_bind_eq2; [by apply (k_dtor _ _ _ H)|]. intros _.
    apply same_refl.
  Qed.
End sessions.

Lemma like_session pl e e' b ops w : like pl e e' ->
  session (den pl e) b (eready_now pl e) ops w = session (den pl e') b (eready_now pl e') ops w.
Proof. intros (R&H&G). apply same_eq. by apply (session_same H). Qed.

(** * What the builders compute *)
Lemma eowns_fb_chain a l : eowns (fb_chain a l) = forallb eowns (a :: l).
Proof. revert a. induction l as [|x l IH]; intros a; cbn [fb_chain eowns forallb]; [by rewrite andb_true_r|]. by rewrite IH. Qed.
Lemma like_fb_chain_app pl a l a' l' : forallb eowns (a :: l) = true ->
  like pl (EFallback (fb_chain a l) (fb_chain a' l')) (fb_chain a (l ++ a' :: l')).
Proof.
  revert a. induction l as [|x l IH]; intros a H; [apply like_refl|]. cbn [fb_chain app]. cbn [forallb] in H. apply andb_true_iff in H as [Ha Hx].
  eapply like_trans; [apply like_fallback_assoc; [done|by rewrite eowns_fb_chain]|]. apply like_fallback; [apply like_refl|]. by apply IH.
Qed.

Lemma removelast_app_ne {X} (l l' : list X) : l' <> [] -> removelast (l ++ l') = l ++ removelast l'.
Proof. intros. by apply removelast_app. Qed.

Lemma like_fb_type pl t a l : fleaves t = a :: l -> forallb eowns (removelast (a :: l)) = true ->
  like pl (fb_type t) (fb_chain a l).
Proof.
  revert a l. induction t as [x|t1 IH1 t2 IH2]; intros a l E H; cbn [fleaves fb_type] in *; [injection E as -> <-; apply like_refl|].
  destruct (fleaves t1) as [|a1 l1] eqn:E1; [by destruct (fleaves_ne t1)|].
  destruct (fleaves t2) as [|a2 l2] eqn:E2; [by destruct (fleaves_ne t2)|].
  cbn in E. injection E as -> <-.
  change (a :: l1 ++ a2 :: l2) with ((a :: l1) ++ a2 :: l2) in H. rewrite removelast_app_ne // forallb_app in H. apply andb_true_iff in H as [H1 H2].
  eapply like_trans; [|by apply like_fb_chain_app]. apply like_fallback; [|by apply IH2].
  apply IH1; [done|]. destruct (exists_last (l := a :: l1) ltac:(done)) as (l0&z&Ez). rewrite Ez in H1 |- *. rewrite removelast_last.
  rewrite forallb_app in H1. by apply andb_true_iff in H1 as [? _].
Qed.

Lemma fallback_builder_like pl r a l : N.of_nat (length (a :: l)) <= 2 ^ 62 -> forallb eowns (removelast (a :: l)) = true ->
  exists t, fallback_builder (length (a :: l)) r (a :: l) = Some t /\ like pl (fb_type t) (fb_chain a l).
Proof.
  intros Hn Ho. destruct (fb_builder_correct r (length (a :: l)) (a :: l) ltac:(done) (le_n _) Hn) as (t&H1&H2&_).
  exists t. split; [done|]. by apply like_fb_type.
Qed.

Lemma eowns_seg_chain a l : eowns (seg_chain a l) = forallb eowns (a :: map snd l).
Proof. revert a. induction l as [|[t x] l IH]; intros a; cbn [seg_chain eowns forallb map snd]; [by rewrite andb_true_r|]. by rewrite IH. Qed.

Lemma uniform_app l l' : uniform (l ++ l') = true -> uniform l = true /\ uniform l' = true.
Proof.
  unfold uniform. rewrite !forallb_app. intros H. apply orb_true_iff in H as [H|H]; apply andb_true_iff in H as [-> ->]; by rewrite ?orb_true_r.
Qed.

Lemma like_seg_chain_app pl a l t a' l' : Forall (fun x => x <= t) (map fst l) -> uniform (a :: map snd l) = true ->
  like pl (ESegragator t (seg_chain a l) (seg_chain a' l')) (seg_chain a (l ++ (t, a') :: l')).
Proof.
  revert a. induction l as [|[t0 x] l IH]; intros a H Hu; [apply like_refl|]. cbn [seg_chain app]. cbn [map fst snd] in H, Hu.
  inversion H as [|? ? Ht Hl]; subst. destruct (uniform_app [a] (x :: map snd l) Hu) as [_ Hu'].
  eapply like_trans; [apply like_segragator_assoc; [done|]|].
  - rewrite eowns_seg_chain. unfold uniform in Hu. cbn [forallb] in Hu |- *. destruct (ecd a); [|by rewrite orb_true_r].
    cbn in Hu. rewrite orb_false_r in Hu. apply andb_true_iff in Hu as [_ Hu]. by rewrite Hu.
  - apply like_segragator; [apply like_refl|]. by apply IH.
Qed.

Lemma segragator_builder_like pl r fuel a l : (length l < fuel)%nat -> N.of_nat (length l) < 2 ^ 62 ->
  StronglySorted N.le (map fst l) -> uniform (removelast (a :: map snd l)) = true ->
  exists t, segragator_builder fuel r (seg_pack a l) = Some t /\ like pl (seg_type t) (seg_chain a l).
Proof.
  revert a l. induction fuel as [|fuel IH]; intros a l Hf Hn Hs Hu; [lia|].
  destruct l as [|x0 l0]; [exists (SLeaf a); split; [done|apply like_refl]|].
  destruct (seg_cut r (x0 :: l0) ltac:(done)) as (l1&t&x&l2&E&Hl). rewrite E in Hf Hn Hs Hu Hl |- *.
  rewrite (seg_builder_unfold fuel r a l1 t x l2); [|done|done|done].
  rewrite map_app in Hs. cbn [map fst] in Hs. apply StronglySorted_app_inv in Hs as (Hs1&Hs2&Hle&_).
  rewrite map_app in Hu. cbn [map snd] in Hu.
  change (a :: map snd l1 ++ x :: map snd l2) with ((a :: map snd l1) ++ x :: map snd l2) in Hu.
  rewrite removelast_app_ne // in Hu. destruct (uniform_app _ _ Hu) as [Hu1 Hu2].
  assert (Hu1' : uniform (removelast (a :: map snd l1)) = true).
  { destruct (exists_last (l := a :: map snd l1) ltac:(done)) as (l3&z&Ez). rewrite Ez in Hu1 |- *. rewrite removelast_last.
    by destruct (uniform_app _ _ Hu1). }
  rewrite app_length in Hf, Hn. cbn [length] in Hf, Hn.
  destruct (IH a l1) as (t1&->&H1); [lia|lia|done|done|]. destruct (IH x l2) as (t2&->&H2); [lia|lia|done|done|].
  exists (SNode t t1 t2). split; [done|]. cbn [seg_type]. eapply like_trans; [by apply like_segragator|]. by apply like_seg_chain_app.
Qed.
