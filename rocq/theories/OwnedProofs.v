(** Containers that own their allocators do what containers with allocators by index do, except for the
    reports of overflow. *)
From iris.proofmode Require Import tactics.
From Verif Require Import Base Mem AlignedMalloc Allocators Checked Tree TreeProofs Client AllocSpec Env Vector Array HeapPure Heap HeapSpec
  ContFacts HeapFacts Laws LawsProofs LawsCont Owned.

Local Open Scope N_scope.

(** * Computations that differ in reports *)
Definition near {X Y} (R : X -> Y -> Prop) (m : M X) (m' : M Y) : Prop := forall w,
  match m w, m' w with
  | Ok a w1 e, Ok a' w1' e' => R a a' /\ w1 = w1' /\ hush e = hush e'
  | Err u e, Err u' e' => u = u' /\ hush e = hush e'
  | _, _ => False
  end.

Lemma hush_app e e' : hush (e ++ e') = hush e ++ hush e'.
Proof. unfold hush. apply List.filter_app. Qed.

Lemma near_same {X Y} (R : X -> Y -> Prop) m m' : same R m m' -> near R m m'.
Proof. intros H w. specialize (H w). destruct (m w), (m' w); try done; naive_solver. Qed.
Lemma near_ret {X Y} (R : X -> Y -> Prop) a a' : R a a' -> near R (ret a) (ret a').
Proof. intros H. by apply near_same, same_ret. Qed.
Lemma near_bind {X Y X' Y'} (R : X -> Y -> Prop) (S : X' -> Y' -> Prop) m m' k k' :
  near R m m' -> (forall a a', R a a' -> near S (k a) (k' a')) -> near S (bind m k) (bind m' k').
Proof.
  intros Hm Hk w. unfold bind. specialize (Hm w). destruct (m w) as [a w1 e1|u e1], (m' w) as [a' w1' e1'|u' e1']; try done.
  destruct Hm as (HR&<-&He). specialize (Hk a a' HR w1). destruct (k a w1), (k' a' w1); try done.
  - destruct Hk as (?&<-&Hk). by rewrite !hush_app He Hk.
  - destruct Hk as (<-&Hk). by rewrite !hush_app He Hk.
Qed.
(** The continuation does nothing. *)
Lemma near_tail {X Y X'} (R : X -> Y -> Prop) (S : X' -> Y -> Prop) m m' k :
  near R m m' -> (forall a a', R a a' -> near S (k a) (ret a')) -> near S (bind m k) m'.
Proof.
  intros Hm Hk w. pose proof (near_bind R S m m' k ret Hm Hk w) as H. unfold bind, ret in *.
  destruct (m' w); [|done]. by rewrite app_nil_r in H.
Qed.
Lemma near_weaken {X Y} (R S : X -> Y -> Prop) m m' : near R m m' -> (forall a a', R a a' -> S a a') -> near S m m'.
Proof. intros H HS w. specialize (H w). destruct (m w), (m' w); try done. destruct H as (?&?&?). auto. Qed.
(** A prefix that reports only *)
Definition mute (m : M unit) : Prop := forall w, exists evs, m w = Ok tt w evs /\ hush evs = [].
Lemma mute_ret : mute (ret tt).
Proof. intros w. by exists []. Qed.
Lemma mute_emit ev : is_report ev = true -> mute (emit ev).
Proof. intros H w. exists [ev]. split; [done|]. unfold hush. cbn. by rewrite H. Qed.
Lemma mute_bind m m' : mute m -> mute m' -> mute (m ;;; m').
Proof.
  intros H H' w. destruct (H w) as (e1&E1&F1). destruct (H' w) as (e2&E2&F2). exists (e1 ++ e2).
  unfold bind. rewrite E1 E2. split; [done|]. by rewrite hush_app F1 F2.
Qed.
Lemma near_mute {X Y} (R : X -> Y -> Prop) m n n' : mute m -> near R n n' -> near R (m ;;; n) n'.
Proof.
  intros H Hn w. specialize (Hn w). destruct (H w) as (e1&E1&F1). unfold bind. rewrite E1.
  destruct (n w), (n' w); try done; by rewrite hush_app F1.
Qed.
Lemma near_mute2 {X Y} (R : X -> Y -> Prop) m m' n n' : mute m -> mute m' -> near R n n' -> near R (m ;;; n) (m' ;;; n').
Proof.
  intros H H' Hn. apply near_mute; [done|]. intros w. specialize (Hn w). destruct (H' w) as (e1&E1&F1). unfold bind. rewrite E1.
  destruct (n w), (n' w); try done; by rewrite hush_app F1.
Qed.

(** * States that differ in the counters of an object and its copy *)
Fixpoint akin (pl : platform) (e : aexp) : a_st (den pl e) -> a_st (den pl e) -> Prop :=
  match e with
  | EFallback p f | ESegragator _ p f => rel_pair (akin pl p) (akin pl f)
  | EOverflow e => fun s t => akin pl e (o_in s) (o_in t)
  | _ => eq
  end.

Lemma akin_refl pl e s : akin pl e s s.
Proof.
  revert s. induction e as [| | | |Min Max e IH|e IH|p IHp f IHf|T p IHp f IHf|e IH|e IH|e IH|e IH|e IH|e IH]; cbn [akin]; done.
Qed.
Lemma akin_graft pl e o s t : akin pl e s t -> akin pl e (graft pl e o s) t.
Proof.
  revert o s t. induction e as [| | | |Min Max e IH|e IH|p IHp f IHf|T p IHp f IHf|e IH|e IH|e IH|e IH|e IH|e IH]; cbn [akin graft]; try done.
  - intros o s t [H1 H2]. split; cbn [fst snd]; auto.
  - intros o s t [H1 H2]. split; cbn [fst snd]; auto.
  - intros o s t H. cbn [o_in]. auto.
Qed.
Lemma mute_farewell pl e s : mute (farewell pl e s).
Proof.
  revert s. induction e as [| | | |Min Max e IH|e IH|p IHp f IHf|T p IHp f IHf|e IH|e IH|e IH|e IH|e IH|e IH]; intros s; cbn [farewell];
    try apply mute_ret.
  - by apply mute_bind.
  - by apply mute_bind.
  - apply mute_bind; [|apply mute_bind; [|done]].
    + destruct (_ =? _)%Z; [apply mute_ret|by apply mute_emit].
    + destruct (_ =? _)%Z; [apply mute_ret|by apply mute_emit].
Qed.

(** The allocator without its destructor *)
Definition quiet (A : alloc) : alloc :=
  {| a_st := a_st A; a_size := a_size A; a_init := a_init A; a_dtor := fun _ _ => ret tt;
     a_alloc := a_alloc A; a_free := a_free A; a_owns := a_owns A; a_max := a_max A; a_cd := a_cd A |}.
Lemma alike_quiet A B R : alike A B R -> alike (quiet A) (quiet B) R.
Proof. intros [H1 H2 H3 H4 H5 H6 H7 H8]. split; cbn; done. Qed.

Lemma quiet_overflow A R : alike (quiet A) (quiet A) R -> alike (quiet (overflow A)) (quiet (overflow A)) (fun s t => R (o_in s) (o_in t)).
Proof.
  intros [H1 H2 H3 H4 H5 H6 H7 H8]. cbn in *. split; cbn [quiet overflow a_st a_size a_init a_dtor a_alloc a_free a_owns a_max a_cd].
  - done.
  - intros b. eapply same_bind; [apply H2|]. intros s t Hs. by apply same_ret.
  - intros. by apply same_ret.
  - intros b s t n Hs. unfold ov_alloc. eapply same_bind; [by apply H4|].
    intros [p s'] [q t'] [Hp Hs']; cbn in *. subst q. destruct (p =? 0); [by apply same_ret|].
    apply same_bind_eq. intros _. apply same_bind_eq. intros _. by apply same_ret.
  - intros b s t p n Hs. unfold ov_free. apply same_bind_eq. intros _. destruct (p =? 0); [by apply same_ret|].
    apply same_bind_eq. intros x. apply same_bind_eq. intros y. apply same_bind_eq. intros _.
    eapply same_bind; [by apply H5|]. intros s' t' Hs'. by apply same_ret.
  - destruct (a_owns A) as [oA|]; try done. cbn in *. intros b s t p Hs. by apply H6.
  - destruct (a_max A) as [oA|]; try done. cbn in *. intros b s t Hs. by apply H7.
  - cbn. intros c b s t p act Hs. unfold ov_cd. destruct (a_cd A) as [oA|].
    + eapply same_bind; [by apply H8|]. intros s' t' Hs'. by apply same_ret.
    + apply same_bind_eq. intros _. by apply same_ret.
Qed.

Lemma akin_alike pl e : alike (quiet (den pl e)) (quiet (den pl e)) (akin pl e).
Proof.
  induction e as [| | | |Min Max e IH|e IH|p IHp f IHf|T p IHp f IHf|e IH|e IH|e IH|e IH|e IH|e IH]; cbn [akin];
    try apply alike_quiet, alike_refl.
  - exact (alike_quiet _ _ _ (alike_fallback IHp IHf)).
  - exact (alike_quiet _ _ _ (alike_segragator IHp IHf T)).
  - exact (quiet_overflow _ _ IH).
Qed.

Lemma akin_dtor pl e b s t : akin pl e s t -> near eq (a_dtor (den pl e) b s) (a_dtor (den pl e) b t).
Proof.
  assert (Hrefl : forall X (m : M X), near eq m m) by (intros; apply near_same, same_refl).
  revert b s t. induction e as [| | | |Min Max e IH|e IH|p IHp f IHf|T p IHp f IHf|e IH|e IH|e IH|e IH|e IH|e IH]; cbn [akin];
    intros b s t H; try (subst t; apply Hrefl).
  - destruct H as [H1 H2]. cbn [den fallback a_dtor]. unfold pair_dtor. eapply near_bind; [by apply IHf|]. intros _ _ _. by apply IHp.
  - destruct H as [H1 H2]. cbn [den segragator a_dtor]. unfold pair_dtor. eapply near_bind; [by apply IHf|]. intros _ _ _. by apply IHp.
  - cbn [den overflow a_dtor]. unfold ov_dtor. apply near_mute2; [| |apply near_mute2; [| |by apply IH]];
      (destruct (_ =? _)%Z; [apply mute_ret|by apply mute_emit]).
Qed.

Lemma insert_left {S} (R : S -> S -> Prop) (E E' : gmap nat S) h s s' :
  (forall h, option_Forall2 R (E !! h) (E' !! h)) -> E !! h = Some s -> (forall t, R s t -> R s' t) ->
  forall h', option_Forall2 R (<[h := s']> E !! h') (E' !! h').
Proof.
  intros H Hs Hs' h'. destruct (decide (h' = h)) as [->|Hne]; [|rewrite lookup_insert_ne //].
  rewrite lookup_insert. specialize (H h). rewrite Hs in H. inversion H; subst. constructor. auto.
Qed.

Lemma look_both {S} (R : S -> S -> Prop) (E E' : gmap nat S) h : (forall h, option_Forall2 R (E !! h) (E' !! h)) ->
  E !! h = None /\ E' !! h = None \/ exists s t, E !! h = Some s /\ E' !! h = Some t /\ R s t.
Proof. intros H. specialize (H h). inversion H; eauto 6. Qed.

Lemma all_refl {S} (R : S -> S -> Prop) (E : gmap nat S) : (forall s, R s s) -> forall h, option_Forall2 R (E !! h) (E !! h).
Proof. intros H h. destruct (E !! h); constructor. auto. Qed.

Section owned.
  Context (pl : platform) (e : aexp) (b : N).
  Local Notation A := (den pl e).
  Local Notation QA := (quiet (den pl e)).
  Local Notation kin := (@renv QA QA (akin pl e)).
  Context {X Op : Type}.
  Context (run : Op -> env A * gmap nat X -> M (cobs * (env A * gmap nat X))).
  Context (legal : gmap nat X -> Op -> bool) (al : X -> nat) (rl : Op -> role Op).
  Context (kill : X -> env A -> M (env A)).
  Context (back : X -> env A -> M (env A)) (gone : X -> X).

  Definition lawful (o : Op) (q : env A * gmap nat X) : M (cobs * (env A * gmap nat X)) :=
    if legal (snd q) o then run o q else ret (CUnit, q).

  Context (Hrun : forall o (E E' : env A) vs, kin E E' -> same (@rst QA QA (akin pl e) (gmap nat X) cobs) (run o (E, vs)) (run o (E', vs))).
  Context (Hkill : forall x (E E' : env A), kin E E' -> same kin (kill x E) (kill x E')).
  Context (Hback : forall x (E E' : env A), kin E E' -> same kin (back x E) (back x E')).
  Context (Hsplit : forall o c src h o1 E vs, rl o = RSplit c src h o1 -> legal vs o = true ->
    exists x, vs !! src = Some x /\
    same eq (run o (E, vs)) (' (ob, (E, vs1)) <- run o1 (E, vs) ;; E <- back x E ;; ret (ob, (E, <[src := gone x]> vs1)))).

  Lemma kin_load h o (E E' : env A) : kin E E' -> kin (load pl e h o E) E'.
  Proof.
    intros H. unfold load. destruct (E !! h) as [s|] eqn:Hs; [|done]. destruct o as [o|]; [|done].
    exact (insert_left (akin pl e) E E' h s _ H Hs (fun t => akin_graft pl e o s t)).
  Qed.
  Lemma mute_part o : mute (part pl e o).
  Proof. destruct o; cbn [part]; [apply mute_farewell|apply mute_ret]. Qed.

  (** By value on the left, by index on the right *)
  Definition rb {Y} (x : Y * bstate pl e (X := X)) (y : Y * (env A * gmap nat X)) : Prop :=
    fst x = fst y /\ kin (fst (snd x)) (fst (snd y)) /\ snd (snd (snd x)) = snd (snd y).

  Ltac openr :=
    repeat (cbn [fst snd] in *; match goal with
      | x : _ * _ |- _ => destruct x
      | K : rst _ _ |- _ => unfold rst in K
      | K : rb _ _ |- _ => unfold rb in K
      | K : _ /\ _ |- _ => destruct K
      | K : _ = _ |- _ => first [discriminate K | injection K as K; subst | subst]
      end).

  Lemma bstep_near P o (E E' : env A) K vs : kin E E' ->
    near rb (bstep pl e run legal al rl back gone P o (E, (K, vs))) (lawful o (E', vs)).
  Proof.
    intros HE. unfold bstep, lawful. cbn [snd]. destruct (legal vs o) eqn:HL; [|by apply near_ret].
    unfold bdo. destruct (rl o) as [c h|tmp c src|c src|c src h o1|c src|c|c] eqn:Hrl; cbv zeta.
    - eapply near_tail; [apply near_same, Hrun, kin_load, HE|]. intros [ob [E2 vs2]] [ob' [E2' vs2']] (?&?&?). by apply near_ret.
    - apply near_mute; [destruct tmp; [apply mute_part|apply mute_ret]|].
      eapply near_tail; [apply near_same, Hrun, kin_load, HE|]. intros [ob [E2 vs2]] [ob' [E2' vs2']] (?&?&?). by apply near_ret.
    - eapply near_tail; [apply near_same, Hrun, HE|]. intros [ob [E2 vs2]] [ob' [E2' vs2']] (?&?&?). by apply near_ret.
    - destruct (Hsplit o c src h o1 E' vs Hrl HL) as (x&Hx&Hs). rewrite Hx.
      assert (Hn : near rb
        (' (ob, (E, vs1)) <- run o1 (load pl e h (P !! h) E, vs) ;;
         E0 <- back x (load pl e (al x) (save pl e c h E K !! src) E) ;;
         ret (ob, (E0, (save pl e src (al x) E0 (save pl e c h E K), <[src := gone x]> vs1))))
        (' (ob, (E, vs1)) <- run o1 (E', vs) ;; E <- back x E ;; ret (ob, (E, <[src := gone x]> vs1)))).
      { eapply near_bind; [apply near_same, Hrun, kin_load, HE|]. intros [ob [E2 vs2]] [ob' [E2' vs2']] (?&?&?). cbn [fst snd] in *. subst ob' vs2'.
        eapply near_bind; [by apply near_same, Hback, kin_load|]. intros E3 E3' HE3. by apply near_ret. }
      intros w. specialize (Hn w). specialize (Hs w). destruct (run o (E', vs) w) as [[ob q] w1 e1|u e1], (bind (run o1 (E', vs)) _ w); try done.
      + by destruct Hs as (->&->&->).
      + by destruct Hs as (->&->).
    - eapply near_tail; [apply near_same, Hrun, HE|]. intros [ob [E2 vs2]] [ob' [E2' vs2']] (?&?&?). by apply near_ret.
    - eapply near_tail; [apply near_same, Hrun, kin_load, HE|]. intros [ob [E2 vs2]] [ob' [E2' vs2']] (?&?&?). by apply near_ret.
    - eapply near_tail; [apply near_same, Hrun, kin_load, HE|]. intros [ob [E2 vs2]] [ob' [E2' vs2']] (?&?&?).
      apply near_mute; [apply mute_part|]. by apply near_ret.
  Qed.

  Lemma brun_near P ops : forall (E E' : env A) K vs, kin E E' ->
    near rb (brun pl e run legal al rl back gone P ops (E, (K, vs))) (crun A lawful ops (E', vs)).
  Proof.
    induction ops as [|o ops IH]; intros E E' K vs HE; cbn [brun crun]; [by apply near_ret|].
    eapply near_bind; [by apply bstep_near|]. intros [ob [E2 [K2 vs2]]] [ob' [E2' vs2']] (?&?&?). cbn [fst snd] in *. subst ob' vs2'.
    eapply near_bind; [by apply IH|]. intros [os [E3 [K3 vs3]]] [os' [E3' vs3']] (?&?&?). cbn [fst snd] in *. subst os' vs3'. by apply near_ret.
  Qed.

  Lemma bkill_near K xs : forall (E E' : env A), kin E E' -> near kin (bkill_all pl e al kill K xs E) (kill_all A kill xs E').
  Proof.
    induction xs as [|[c x] xs IH]; intros E E' HE; cbn [bkill_all kill_all]; [by apply near_ret|].
    eapply near_bind; [by apply near_same, Hkill, kin_load|]. intros E2 E2' HE2. apply near_mute; [apply mute_part|]. by apply IH.
  Qed.

  Lemma bdtor_near P k : forall h (E E' : env A), kin E E' -> near kin (bdtor_all pl e b P h k E) (dtor_all A b h k E').
  Proof.
    induction k as [|k IH]; intros h E E' HE; cbn [bdtor_all dtor_all]; [by apply near_ret|].
    eapply near_bind; [|intros E2 E2' HE2; by apply IH].
    apply (kin_load h (P !! h)) in HE. unfold te_dtor. destruct (look_both (akin pl e) _ _ h HE) as [[H1 H2]|(s&t&H1&H2&Hs)];
      rewrite H1 H2; [by intros w|].
    eapply near_bind; [by apply akin_dtor|]. intros _ _ _. apply near_ret. by apply (@renv_delete QA QA).
  Qed.

  Lemma bsession_near k ops w :
    but_reports (bsession pl e b run legal al rl kill back gone k ops w) (csession A b lawful kill k ops w).
  Proof.
    assert (H : near eq (bsession pl e b run legal al rl kill back gone k ops) (csession A b lawful kill k ops)).
    { unfold bsession, csession. eapply (near_bind eq); [apply near_same, same_refl|]. intros P ? <-.
      eapply near_bind; [apply brun_near; exact (all_refl (akin pl e) P (akin_refl pl e))|].
      intros [os [E [K vs]]] [os' [E' vs']] (?&?&?). cbn [fst snd] in *. subst os' vs'.
      eapply near_bind; [by apply bkill_near|]. intros E2 E2' HE2.
      eapply near_bind; [by apply bdtor_near|]. intros _ _ _. by apply near_ret. }
    specialize (H w). unfold but_reports. by destruct (bsession _ _ _ _ _ _ _ _ _ _ _ _ w), (csession _ _ _ _ _ _ w).
  Qed.
End owned.

(** * The containers *)
Section containers.
  Context (pl : platform) (e : aexp) (b sz : N) (k : nat).
  Local Notation A := (den pl e).
  Local Notation QA := (quiet (den pl e)).

  Lemma has_get {X} (g : X -> info) (vs : gmap nat X) c : has (g <$> vs) c = true -> is_Some (vs !! c).
  Proof. unfold has. rewrite bool_decide_eq_true lookup_fmap. by intros [? (x&->&_)%fmap_Some]. Qed.
  Lemma same_tail {X Y} (m : M X) (n n' : X -> M Y) : (forall a, same eq (n a) (n' a)) -> same eq (bind m n) (bind m n').
  Proof. intros H. by apply same_bind_eq. Qed.

  Lemma v_back_same x (E E' : env A) : @renv QA QA (akin pl e) E E' -> same (@renv QA QA (akin pl e)) (v_back pl e b sz x E) (v_back pl e b sz x E').
  Proof.
    intros HE. unfold v_back. destruct (v_beg x =? 0); [by apply same_ret|].
    exact (te_free_same (akin_alike pl e) b sz _ _ _ E E' HE).
  Qed.
  Lemma v_split o c src h o1 (E : env A) vs : v_role o = RSplit c src h o1 -> vlegal sz k (v_info sz <$> vs) o = true ->
    exists x, vs !! src = Some x /\
    same eq (vdo A b sz o (E, vs)) (' (ob, (E, vs1)) <- vdo A b sz o1 (E, vs) ;; E <- v_back pl e b sz x E ;; ret (ob, (E, <[src := v_gone x]> vs1))).
  Proof.
    intros Ho HL. destruct o; try discriminate Ho. injection Ho as <- <- <- <-. cbn [vlegal] in HL.
    apply andb_true_iff in HL as [HL _]. apply andb_true_iff in HL as [_ HL]. apply has_get in HL as [x Hx]. exists x. split; [done|].
    cbn [vdo]. unfold get_. rewrite Hx. cbn [from_option id]. unfold copy_of, v_back.
    apply same_assoc_r, same_assoc_r, same_bind_eq. intros [v E2]. destruct (v_beg x =? 0).
    + apply same_ret_l. apply same_assoc_r. do 3 apply same_ret_r. by apply same_ret.
    + apply same_assoc_l, same_assoc_r, same_bind_eq. intros _. do 2 apply same_ret_r. apply same_bind_eq. intros E3. by apply same_ret.
  Qed.

  Lemma vector_program_near ops w :
    but_reports (vector_program pl e b sz k ops w) (csession A b (vstep A b sz k) (release A b sz) k ops w).
  Proof.
    apply (bsession_near pl e b (vdo A b sz) (fun vs => vlegal sz k (v_info sz <$> vs)) v_al v_role (release A b sz)
      (v_back pl e b sz) v_gone).
    - intros o E E' vs HE. exact (vdo_same (akin_alike pl e) b sz o E E' vs HE).
    - intros x E E' HE. exact (release_same (akin_alike pl e) b sz x E E' HE).
    - exact v_back_same.
    - exact v_split.
  Qed.

  Lemma a_back_same x (E E' : env A) : @renv QA QA (akin pl e) E E' -> same (@renv QA QA (akin pl e)) (a_back pl e b sz x E) (a_back pl e b sz x E').
  Proof.
    intros HE. unfold a_back. destruct (r_beg x =? 0); [by apply same_ret|].
    exact (te_free_same (akin_alike pl e) b sz _ _ _ E E' HE).
  Qed.
  Lemma a_split o c src h o1 (E : env A) vs : a_role o = RSplit c src h o1 -> alegal sz k (a_info sz <$> vs) o = true ->
    exists x, vs !! src = Some x /\
    same eq (ado A b sz o (E, vs)) (' (ob, (E, vs1)) <- ado A b sz o1 (E, vs) ;; E <- a_back pl e b sz x E ;; ret (ob, (E, <[src := a_gone x]> vs1))).
  Proof.
    intros Ho HL. destruct o; try discriminate Ho. injection Ho as <- <- <- <-. cbn [alegal] in HL.
    apply andb_true_iff in HL as [HL _]. apply andb_true_iff in HL as [_ HL]. apply has_get in HL as [x Hx]. exists x. split; [done|].
    cbn [ado]. unfold aget. rewrite Hx. cbn [from_option id]. unfold acopy_of, a_back.
    apply same_assoc_r, same_assoc_r, same_bind_eq. intros [v E2]. destruct (r_beg x =? 0).
    + apply same_ret_l. apply same_assoc_r. do 3 apply same_ret_r. by apply same_ret.
    + apply same_assoc_l, same_assoc_r, same_bind_eq. intros _. do 2 apply same_ret_r. apply same_bind_eq. intros E3. by apply same_ret.
  Qed.

  Lemma array_program_near ops w :
    but_reports (array_program pl e b sz k ops w) (csession A b (astep A b sz k) (arelease A b sz) k ops w).
  Proof.
    apply (bsession_near pl e b (ado A b sz) (fun vs => alegal sz k (a_info sz <$> vs)) r_alc a_role (arelease A b sz)
      (a_back pl e b sz) a_gone).
    - intros o E E' vs HE. exact (ado_same (akin_alike pl e) b sz o E E' vs HE).
    - intros x E E' HE. exact (arelease_same (akin_alike pl e) b sz x E E' HE).
    - exact a_back_same.
    - exact a_split.
  Qed.

  Lemma h_back_same x (E E' : env A) : @renv QA QA (akin pl e) E E' -> same (@renv QA QA (akin pl e)) (h_back pl e b sz x E) (h_back pl e b sz x E').
  Proof.
    intros HE. unfold h_back. destruct (h_beg x =? 0); [by apply same_ret|].
    exact (give_back_same (akin_alike pl e) b sz _ _ _ _ E E' HE).
  Qed.
  Lemma h_split T comp eqv o c src h o1 (E : env A) vs : h_role o = RSplit c src h o1 -> hlegal sz T k (h_info <$> vs) o = true ->
    exists x, vs !! src = Some x /\
    same eq (hdo A b sz T comp eqv o (E, vs)) (' (ob, (E, vs1)) <- hdo A b sz T comp eqv o1 (E, vs) ;; E <- h_back pl e b sz x E ;; ret (ob, (E, <[src := h_gone x]> vs1))).
  Proof.
    intros Ho HL. destruct o; try discriminate Ho. injection Ho as <- <- <- <-. cbn [hlegal] in HL.
    apply andb_true_iff in HL as [HL _]. apply andb_true_iff in HL as [_ HL]. apply has_get in HL as [x Hx]. exists x. split; [done|].
    cbn [hdo]. unfold hget. rewrite Hx. cbn [from_option id]. unfold h_back.
    apply same_assoc_r, same_bind_eq. intros [v E2]. apply same_ret_r. apply same_bind_eq. intros E3. by apply same_ret.
  Qed.

  Lemma heap_program_near T comp eqv ops w :
    but_reports (heap_program pl e b sz k T comp eqv ops w)
      (csession A b (hstep A b sz T comp eqv k) (hrelease A b sz T) k ops w).
  Proof.
    apply (bsession_near pl e b (hdo A b sz T comp eqv) (fun vs => hlegal sz T k (h_info <$> vs)) h_al h_role (hrelease A b sz T)
      (h_back pl e b sz) h_gone).
    - intros o E E' vs HE. exact (hdo_same (akin_alike pl e) b sz T comp eqv o E E' vs HE).
    - intros x E E' HE. exact (hrelease_same (akin_alike pl e) b sz T x E E' HE).
    - exact h_back_same.
    - exact (h_split T comp eqv).
  Qed.
End containers.

(** * Hence they satisfy the same specifications *)
Lemma hush_exists (bad : event -> bool) evs : (forall ev, is_report ev = true -> bad ev = false) ->
  existsb bad (hush evs) = existsb bad evs.
Proof.
  intros H. induction evs as [|ev evs IH]; [done|]. unfold hush. cbn [List.filter existsb]. destruct (is_report ev) eqn:Hr; cbn [negb].
  - by rewrite (H _ Hr).
  - cbn [existsb]. by rewrite -IH.
Qed.
Lemma hush_benign evs : forallb benign (hush evs) = forallb benign evs.
Proof.
  induction evs as [|ev evs IH]; [done|]. unfold hush. cbn [List.filter forallb]. destruct (is_report ev) eqn:Hr; cbn [negb].
  - rewrite IH. by destruct ev.
  - cbn [forallb]. by rewrite -IH.
Qed.

Lemma near_ok {A : alloc} {X O S} b stp kill (chk : O -> cobs -> S -> S -> Prop) bad k s0 ops (m : M (list cobs)) w :
  (forall ev, is_report ev = true -> bad ev = false) ->
  but_reports (m w) (csession A b (X := X) stp kill k ops w) ->
  csession_ok A b stp kill chk bad k s0 ops w ->
  bsession_ok chk bad b (N.of_nat k * a_size A) s0 ops m w.
Proof.
  intros Hbad H. unfold csession_ok, bsession_ok, but_reports in *.
  destruct (m w) as [os w1 evs|u evs], (csession A b stp kill k ops w) as [os' w1' evs'|u' evs']; try done.
  - destruct H as (<-&<-&He). by rewrite -(hush_exists bad evs Hbad) -(hush_exists bad evs' Hbad) -(hush_benign evs) -(hush_benign evs') He.
  - destruct H as (<-&He). by rewrite -(hush_exists bad evs Hbad) -(hush_exists bad evs' Hbad) He.
Qed.
Lemma unsupported_quiet req ev : is_report ev = true -> unsupported req ev = false.
Proof. by destruct ev. Qed.

Section tree.
  Context (pl : platform) (e : aexp) (b sz : N) (k : nat) (Hpl : pl <> PPosix) (Hwf : wf e = true) (Hsz : 0 < sz).

  Lemma vector_owned ops w : place b (N.of_nat k * esize e) w ->
    bsession_ok (vcheck sz k) (unsupported (ereq pl e)) b (N.of_nat k * esize e) ∅ ops (vector_program pl e b sz k ops) w.
  Proof.
    intros Hp. pose proof (near_ok b _ _ _ _ k _ ops _ w (unsupported_quiet (ereq pl e)) (vector_program_near pl e b sz k ops w)
      (vector_tree pl e b sz k ops w Hpl Hwf Hsz Hp)) as H. by rewrite den_size in H.
  Qed.
  Lemma array_owned ops w : place b (N.of_nat k * esize e) w ->
    bsession_ok (acheck sz k) (unsupported (ereq pl e)) b (N.of_nat k * esize e) ∅ ops (array_program pl e b sz k ops) w.
  Proof.
    intros Hp. pose proof (near_ok b _ _ _ _ k _ ops _ w (unsupported_quiet (ereq pl e)) (array_program_near pl e b sz k ops w)
      (array_tree pl e b sz k ops w Hpl Hwf Hsz Hp)) as H. by rewrite den_size in H.
  Qed.
  Lemma heap_owned T comp eqv ops w : place b (N.of_nat k * esize e) w ->
    bsession_ok (hcheck sz T comp eqv k) (unsupported (HeapSpec.half (ereq pl e))) b (N.of_nat k * esize e) ∅ ops
      (heap_program pl e b sz k T comp eqv ops) w.
  Proof.
    intros Hp. pose proof (near_ok b _ _ _ _ k _ ops _ w (unsupported_quiet (HeapSpec.half (ereq pl e))) (heap_program_near pl e b sz k T comp eqv ops w)
      (heap_tree pl e b sz T comp eqv k ops w Hpl Hwf Hsz Hp)) as H. by rewrite den_size in H.
  Qed.
End tree.
