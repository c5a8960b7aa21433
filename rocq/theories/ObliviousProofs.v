(** Values of bytes have no influence on allocators. *)
From iris.proofmode Require Import tactics.
From Verif Require Import Base Mem Sep Wp Bits AlignedMalloc Allocators Contract Checked Tree TreeProofs Adequacy Client
  ClientProofs CrowdProofs NoFail AllocSpec AllocProofs SharedSafe Footprint Oblivious.

Local Open Scope N_scope.

(** * Less defined memory *)
Definition cle (c d : cell) : Prop := c = d \/ c = Undef /\ dead d.
Record wle (w w' : world) : Prop := {
  l_mem i : option_Forall2 cle (mem (st w) !! i) (mem (st w') !! i);
  l_tab : mtab (st w) = mtab (st w');
  l_orc : orc w = orc w';
  l_tick : tick w = tick w'
}.

(** Whatever [m] does in a world, [m'] does in every world with the same memory that is more defined.
    Nothing is said about undefined behaviour of [m], unless it is caused by malloc. *)
Definition mono {X} (R : X -> X -> Prop) (m m' : M X) : Prop := forall w w', wle w w' ->
  match m w with
  | Ok a w1 e => existsb is_fail e = false /\ exists a' w1', m' w' = Ok a' w1' e /\ R a a' /\ wle w1 w1'
  | Err u e => existsb is_fail e = true -> m' w' = Err u e
  end.

Lemma mono_ret {X} (R : X -> X -> Prop) a a' : R a a' -> mono R (ret a) (ret a').
Proof. intros H w w' Hw. split; [done|]. by exists a', w'. Qed.
Lemma mono_ubm {X} (R : X -> X -> Prop) u u' : mono R (ubm u) (ubm u').
Proof. by intros w w' Hw. Qed.
Lemma mono_err {X} (R : X -> X -> Prop) u m' : mono R (ubm u) m'.
Proof. by intros w w' Hw. Qed.
Lemma mono_fail {X} (R : X -> X -> Prop) : mono R (emit EvFail ;;; ubm UBNull) (emit EvFail ;;; ubm UBNull).
Proof. by intros w w' Hw. Qed.
Lemma mono_emit (R : unit -> unit -> Prop) e : R tt tt -> is_fail e = false -> mono R (emit e) (emit e).
Proof. intros HR H w w' Hw. cbn. rewrite H. split; [done|]. by exists tt, w'. Qed.
Lemma mono_bind {X Y} R (S : Y -> Y -> Prop) (m m' : M X) k k' :
  mono R m m' -> (forall a a', R a a' -> mono S (k a) (k' a')) -> mono S (bind m k) (bind m' k').
Proof.
  intros Hm Hk w w' Hw. unfold bind. specialize (Hm w w' Hw). destruct (m w) as [a w1 e1|u e1].
  - destruct Hm as (Hf&a'&w1'&->&HR&Hw1). specialize (Hk a a' HR w1 w1' Hw1). destruct (k a w1) as [b w2 e2|u e2].
    + destruct Hk as (Hf2&b'&w2'&->&HS&Hw2). rewrite existsb_app Hf Hf2. split; [done|]. by exists b', w2'.
    + rewrite existsb_app Hf. cbn. intros H. by rewrite (Hk H).
  - intros H. by rewrite (Hm H).
Qed.
Lemma mono_bind_eq {X Y} (S : Y -> Y -> Prop) (m m' : M X) k k' :
  mono eq m m' -> (forall a, mono S (k a) (k' a)) -> mono S (bind m k) (bind m' k').
Proof. intros Hm Hk. apply (mono_bind eq); [done|]. by intros a ? <-. Qed.

Lemma wle_lookup w w' a : wle w w' -> match mem (st w) !! a with
  | Some c => exists d, mem (st w') !! a = Some d /\ cle c d | None => mem (st w') !! a = None end.
Proof. intros H. destruct (l_mem _ _ H a); eauto. Qed.

Lemma mono_rd a : mono cle (rd a) (rd a).
Proof.
  intros w w' Hw. unfold rd. pose proof (wle_lookup _ _ a Hw) as H. destruct (mem (st w) !! a) as [c|].
  - destruct H as (d&->&Hc). split; [done|]. eauto.
  - by rewrite H.
Qed.
Lemma mono_wr a c d : cle c d -> mono eq (wr a c) (wr a d).
Proof.
  intros Hcd w w' Hw. unfold wr. pose proof (wle_lookup _ _ a Hw) as H. destruct (mem (st w) !! a) as [x|].
  - destruct H as (y&->&Hxy). split; [done|]. eexists _, _. split_and!; [done|done|]. destruct Hw as [H1 H2 H3 H4].
    split; try done. intros i. cbn. destruct (decide (i = a)) as [->|]; [rewrite !lookup_insert; by constructor|].
    rewrite !lookup_insert_ne //.
  - by rewrite H.
Qed.
Lemma mono_rds a n : mono (Forall2 cle) (rds a n) (rds a n).
Proof.
  revert a. induction n as [|n IH]; intros a; cbn [rds]; [apply mono_ret; constructor|].
  apply (mono_bind cle); [apply mono_rd|]. intros c c' Hc. apply (mono_bind (Forall2 cle)); [apply IH|].
  intros cs cs' Hcs. apply mono_ret. by constructor.
Qed.
Lemma mono_wrs a cs cs' : Forall2 cle cs cs' -> mono eq (wrs a cs) (wrs a cs').
Proof.
  intros H. revert a. induction H as [|c c' cs cs' Hc _ IH]; intros a; cbn [wrs]; [by apply mono_ret|].
  apply mono_bind_eq; [by apply mono_wr|]. intros _. apply IH.
Qed.
Lemma cle_refl cs : Forall2 cle cs cs.
Proof. induction cs; constructor; [by left|done]. Qed.
Lemma mono_wrs_eq a cs : mono eq (wrs a cs) (wrs a cs).
Proof. apply mono_wrs, cle_refl. Qed.

Lemma vacant_le w w' a n : wle w w' -> vacant a n (st w) = vacant a n (st w').
Proof.
  intros Hw. revert a. induction n as [|n IH]; intros a; cbn [vacant]; [done|]. rewrite -(l_tab _ _ Hw) -IH.
  by destruct (l_mem _ _ Hw a).
Qed.
Lemma mono_malloc al n : mono eq (malloc al n) (malloc al n).
Proof.
  intros w w' Hw. unfold malloc, malloc_valid. rewrite -(l_orc _ _ Hw) -(l_tick _ _ Hw) -(vacant_le w w' _ _ Hw).
  destruct (_ && _ && _ && _) eqn:Hv; (split; [done|]); eexists _, _; (split; [done|]); (split; [done|]); destruct Hw as [H1 H2 H3 H4];
    split; cbn; try congruence; try done.
  intros i. rewrite !lookup_union. destruct (H1 i) as [x y Hxy|]; destruct (fill _ _ !! i) as [c|]; cbn; constructor; try done. by left.
Qed.
Lemma clear_le (m m' : gmap N cell) p n : (forall i, option_Forall2 cle (m !! i) (m' !! i)) ->
  forall i, option_Forall2 cle (clear p n m !! i) (clear p n m' !! i).
Proof.
  intros H. revert p. induction n as [|n IH]; intros p i; cbn [clear]; [done|].
  destruct (decide (i = p)) as [->|]; [rewrite !lookup_delete; constructor|]. rewrite !lookup_delete_ne //.
Qed.
Lemma mono_mfree p : mono eq (mfree p) (mfree p).
Proof.
  intros w w' Hw. unfold mfree. destruct (p =? 0); [by split; [|exists tt, w']|]. rewrite -(l_tab _ _ Hw).
  destruct (mtab (st w) !! p) as [n|]; [|done]. split; [done|]. eexists _, _. split; [done|]. split; [done|].
  destruct Hw as [H1 H2 H3 H4]. split; cbn; try congruence. by apply clear_le.
Qed.
Lemma dec_le cs cs' x : Forall2 cle cs cs' -> dec cs = Some x -> dec cs' = Some x.
Proof.
  intros H. revert x. induction H as [|c c' cs cs' Hc _ IH]; intros x; cbn [dec]; [done|].
  destruct c as [|b| |]; try done. destruct Hc as [<-|[? _]]; [|done]. destruct (dec cs) as [y|]; [|done].
  intros [= <-]. by rewrite (IH y).
Qed.
Lemma mono_rd_ptr a : mono eq (rd_ptr a) (rd_ptr a).
Proof.
  unfold rd_ptr. apply (mono_bind (Forall2 cle)); [apply mono_rds|]. intros cs cs' Hcs.
  destruct (dec cs) as [x|] eqn:E; [|apply mono_err]. rewrite (dec_le _ _ _ Hcs E). by apply mono_ret.
Qed.
Lemma mono_rd_byte a : mono eq (rd_byte a) (rd_byte a).
Proof.
  unfold rd_byte. apply (mono_bind cle); [apply mono_rd|]. intros c c' Hc.
  destruct c; try apply mono_err. destruct Hc as [<-|[? _]]; [|done]. by apply mono_ret.
Qed.
Lemma mono_ret_eq {X} (a : X) : mono eq (ret a) (ret a).
Proof. by apply mono_ret. Qed.
Lemma mono_ubm_eq {X} u : mono eq (ubm u : M X) (ubm u).
Proof. apply mono_ubm. Qed.
Lemma mono_fail_eq {X} : mono eq (emit EvFail ;;; ubm UBNull : M X) (emit EvFail ;;; ubm UBNull).
Proof. apply mono_fail. Qed.
Lemma mono_assert c : mono eq (ktl_assert c) (ktl_assert c).
Proof. destruct c; [by apply mono_ret|by apply mono_emit]. Qed.
Lemma mono_memset a b n : mono eq (memset a b n) (memset a b n).
Proof. apply mono_wrs_eq. Qed.
Lemma mono_wr_ptr a p : mono eq (wr_ptr a p) (wr_ptr a p).
Proof. apply mono_wrs_eq. Qed.

Create HintDb mono discriminated.
Global Hint Resolve mono_ret_eq mono_ubm_eq mono_fail_eq mono_assert mono_wrs_eq mono_malloc mono_mfree mono_rd_ptr mono_rd_byte
  mono_memset mono_wr_ptr : mono.

Ltac mono :=
  repeat (intros; first
    [ solve [auto with mono]
    | apply mono_bind_eq
    | match goal with
      | |- mono _ (if ?c then _ else _) _ => destruct c
      | |- mono _ (match ?x with _ => _ end) _ => destruct x
      | |- mono _ (let '(_, _) := ?x in _) _ => destruct x
      end
    | by apply mono_emit ]).

Lemma mono_am pl n al : mono eq (aligned_malloc pl n al) (aligned_malloc pl n al).
Proof. unfold aligned_malloc, posix_memalign. mono. Qed.
Lemma mono_af pl p : mono eq (aligned_free pl p) (aligned_free pl p).
Proof. unfold aligned_free. mono. Qed.
Global Hint Resolve mono_am mono_af : mono.

(** All members of an allocator. *)
Record amono (A : alloc) : Prop := {
  am_init b : mono eq (a_init A b) (a_init A b);
  am_dtor b s : mono eq (a_dtor A b s) (a_dtor A b s);
  am_alloc b s n : mono eq (a_alloc A b s n) (a_alloc A b s n);
  am_free b s p n : mono eq (a_free A b s p n) (a_free A b s p n);
  am_max mx b s : a_max A = Some mx -> mono eq (mx b s) (mx b s);
  am_cd o c b s q act act' : a_cd A = Some o -> mono eq act act' -> mono eq (o c b s q act) (o c b s q act')
}.

Lemma am_freelist Min Max A : amono A -> amono (freelist Min Max A).
Proof.
  intros [H1 H2 H3 H4 H5 H6]. split; cbn [freelist a_init a_dtor a_alloc a_free a_max a_cd].
  - mono.
  - intros b s.
    enough (forall k s h, mono eq (s' <- fl_release Max A k b s h ;; a_dtor A b s') (s' <- fl_release Max A k b s h ;; a_dtor A b s')) as H.
    { intros w w' Hw. unfold fl_dtor. replace (size (mem (st w'))) with (size (mem (st w))); [by apply H|].
      rewrite -!size_dom. f_equal. apply set_eq. intros i. rewrite !elem_of_dom. destruct (l_mem _ _ Hw i); split; intros []; eauto; done. }
    intros k s0 h. apply mono_bind_eq; [|auto]. revert s0 h. induction k as [|k IH]; intros s0 h; cbn [fl_release]; mono.
  - intros. unfold fl_alloc. mono.
  - intros. unfold fl_free. mono.
  - intros mx b s E. destruct (a_max A) eqn:E'; [|done]. injection E as <-. by apply H5.
  - intros o c b s q act act' E Ha. destruct (a_cd A) eqn:E'; [|done]. injection E as <-. mono; try by apply H6.
Qed.

Lemma am_pair_cd P F o c b s q act act' : amono P -> amono F -> pair_cd P F = Some o -> mono eq act act' ->
  mono eq (o c b s q act) (o c b s q act').
Proof.
  intros HP HF E Ha. unfold pair_cd in E. destruct (a_owns P) as [oP|]; [|done].
  destruct (a_cd P) as [cP|] eqn:EP, (a_cd F) as [cF|] eqn:EF; try done; injection E as <-;
    destruct (oP b (fst s) q); apply mono_bind_eq; try done; try (intros; apply mono_ret_eq);
    (by apply (am_cd _ HP)) || by apply (am_cd _ HF).
Qed.

Lemma am_pair_max P F mx b s : amono P -> amono F -> pair_max P F = Some mx -> mono eq (mx b s) (mx b s).
Proof.
  intros HP HF E. unfold pair_max, omap2 in E. destruct (a_max P) as [mP|] eqn:EP; [|done].
  destruct (a_max F) as [mF|] eqn:EF; [|done]. injection E as <-.
  apply mono_bind_eq; [by apply (am_max _ HP)|]. intros. apply mono_bind_eq; [by apply (am_max _ HF)|]. mono.
Qed.

Lemma am_fallback P F : amono P -> amono F -> amono (fallback P F).
Proof.
  intros HP HF. pose proof HP as [H1 H2 H3 H4 _ _]. pose proof HF as [G1 G2 G3 G4 _ _].
  split; cbn [fallback a_init a_dtor a_alloc a_free a_max a_cd].
  - unfold pair_init. mono.
  - unfold pair_dtor. mono.
  - unfold fb_alloc. mono.
  - unfold fb_free. mono.
  - intros. by eapply am_pair_max.
  - intros. by eapply am_pair_cd.
Qed.

Lemma am_segragator P F T : amono P -> amono F -> amono (segragator P F T).
Proof.
  intros HP HF. pose proof HP as [H1 H2 H3 H4 _ _]. pose proof HF as [G1 G2 G3 G4 _ _].
  split; cbn [segragator a_init a_dtor a_alloc a_free a_max a_cd].
  - unfold pair_init. mono.
  - unfold pair_dtor. mono.
  - unfold seg_alloc. mono.
  - unfold seg_free. mono.
  - intros. by eapply am_pair_max.
  - intros. by eapply am_pair_cd.
Qed.

Lemma mono_scan_before k p i x : mono eq (scan_before k p i x) (scan_before k p i x).
Proof. revert i x. induction k as [|k IH]; intros i x; cbn [scan_before]; mono. Qed.
Lemma mono_scan_after k p n i x : mono eq (scan_after k p n i x) (scan_after k p n i x).
Proof. revert i x. induction k as [|k IH]; intros i x; cbn [scan_after]; mono. Qed.
Global Hint Resolve mono_scan_before mono_scan_after : mono.

Lemma am_overflow A : amono A -> amono (overflow A).
Proof.
  intros [H1 H2 H3 H4 H5 H6]. split; cbn [overflow a_init a_dtor a_alloc a_free a_max a_cd].
  - mono.
  - unfold ov_dtor. mono.
  - unfold ov_alloc. mono.
  - unfold ov_free. mono.
  - intros mx b s E. destruct (a_max A) eqn:E'; [|done]. injection E as <-. by apply H5.
  - intros o c b s q act act' E Ha. injection E as <-. unfold ov_cd. destruct (a_cd A) eqn:E'; mono; try by apply H6.
Qed.

Lemma am_shared pl A : amono A -> amono (shared pl A).
Proof.
  intros [H1 H2 H3 H4 H5 H6]. split; cbn [shared a_init a_dtor a_alloc a_free a_max a_cd].
  - mono.
  - mono.
  - mono.
  - mono.
  - intros mx b s E. destruct (a_max A) eqn:E'; [|done]. injection E as <-. by apply H5.
  - intros o c b s q act act' E Ha. destruct (a_cd A) eqn:E'; [|done]. injection E as <-. mono; try by apply H6.
Qed.

Lemma am_cascading pl A : amono A -> amono (cascading pl A).
Proof.
  intros [H1 H2 H3 H4 H5 H6]. unfold cascading.
  generalize (match a_owns A with Some o => o | None => fun _ _ _ => false end). intros owns.
  assert (Hnew : mono eq (new_node pl A) (new_node pl A)) by (unfold new_node; mono).
  assert (Hdel : forall nd, mono eq (del_node pl A nd) (del_node pl A nd)) by (intros; unfold del_node; mono).
  split; cbn [cascading_with a_init a_dtor a_alloc a_free a_max a_cd].
  - mono.
  - intros _ s. generalize true. induction s as [|nd s IH]; intros first; cbn [casc_release]; mono.
  - intros _ s n. unfold casc_alloc. destruct (a_max A) eqn:E; mono; try by apply H5.
  - intros _ s p n. unfold casc_free. apply mono_bind_eq; [mono|]. intros _. generalize false.
    induction s as [|nd s IH]; intros prev; cbn [casc_free_loop]; mono.
  - intros mx b s E. destruct (a_max A) eqn:E'; [|done]. injection E as <-. unfold casc_max. mono.
  - intros o c b s q act act' E Ha. destruct (a_cd A) eqn:E'; [|done]. injection E as <-.
    induction s as [|nd s IH]; cbn [casc_cd]; mono; try by apply H6.
Qed.

Lemma am_checked A : amono A -> amono (checked A).
Proof.
  intros [H1 H2 H3 H4 H5 H6]. split; cbn [checked a_init a_dtor a_alloc a_free a_max a_cd].
  - mono.
  - mono.
  - mono.
  - mono.
  - intros mx b s E. destruct (a_max A) eqn:E'; [|done]. injection E as <-. by apply H5.
  - intros o c b s q act act' E Ha. destruct (a_cd A) eqn:E'; [|done]. injection E as <-. mono; try by apply H6.
Qed.

Lemma am_forwarding A : amono A -> amono (forwarding A).
Proof. by intros []. Qed.

Lemma tree_mono pl e : amono (den pl e).
Proof.
  induction e as [| | | |Min Max e IH|e IH|p IHp f IHf|T p IHp f IHf|e IH|e IH|e IH|e IH|e IH|e IH]; cbn [den].
  - split; cbn; mono; done.
  - split; cbn; mono; done.
  - split; cbn; try (unfold lin_init, lin_alloc; by mono); try done; intros mx b s [= <-]; mono.
  - split; cbn; try (unfold lin_init, lin_alloc; by mono); try done; intros mx b s [= <-]; mono.
  - by apply am_freelist.
  - by apply am_cascading.
  - by apply am_fallback.
  - by apply am_segragator.
  - by apply am_overflow.
  - by apply am_shared.
  - by apply am_forwarding.
  - by apply am_forwarding.
  - by apply am_forwarding.
  - by apply am_checked.
Qed.

(** * Programs that write indeterminate bytes *)
Section erased.
  Context (A : alloc) (b : N) (ready : N -> a_st A -> bool).

  Definition estep (o : op) (s : a_st A) (bl : list (N * N)) : M (obs * (a_st A * list (N * N))) :=
    match o with
    | OWrite i off _ =>
      match bl !! i with
      | Some (p, n) => if off <? n then wr (p + off) Undef ;;; ret (ObUnit, (s, bl)) else ret (ObUnit, (s, bl))
      | None => ret (ObUnit, (s, bl))
      end
    | OConstruct i off _ =>
      match bl !! i with
      | Some (p, n) =>
        if off <? n then s' <- traits_cd A b Construct s (p + off) (wr (p + off) Undef) ;; ret (ObUnit, (s', bl))
        else ret (ObUnit, (s, bl))
      | None => ret (ObUnit, (s, bl))
      end
    | _ => step A b ready o s bl
    end.

  Fixpoint erun (ops : list op) (s : a_st A) (bl : list (N * N)) : M (list obs * (a_st A * list (N * N))) :=
    match ops with
    | [] => ret ([], (s, bl))
    | o :: ops =>
      ' (ob, (s', bl')) <- estep o s bl ;;
      ' (obs, fin) <- erun ops s' bl' ;;
      ret (ob :: obs, fin)
    end.

  Definition esession (ops : list op) : M (list obs) :=
    s <- a_init A b ;;
    ' (os, (s', bl)) <- erun ops s [] ;;
    s'' <- free_all A b bl s' ;;
    a_dtor A b s'' ;;;
    ret os.

  Context (HA : amono A).
  Definition both (x y : obs * (a_st A * list (N * N))) : Prop := same_answer (fst x) (fst y) /\ snd x = snd y.

  Lemma same_answer_refl x : same_answer x x.
  Proof. by destruct x. Qed.
  Lemma both_refl x : both x x.
  Proof. split; [apply same_answer_refl|done]. Qed.

  Lemma mono_traits c s q act act' : mono eq act act' -> mono eq (traits_cd A b c s q act) (traits_cd A b c s q act').
  Proof.
    intros Ha. unfold traits_cd. destruct (a_cd A) as [o|] eqn:Ho; [by apply (am_cd _ HA)|].
    apply mono_bind_eq; [done|]. mono.
  Qed.

  Lemma estep_mono o o' s bl : same_call o o' -> mono both (estep o s bl) (step A b ready o' s bl).
  Proof.
    intros H. assert (Hr : forall x, mono both (ret x) (ret x)) by (intros; apply mono_ret, both_refl).
    destruct o, o'; cbn in H; try done; try simplify_eq; cbn [estep step].
    - apply mono_bind_eq; [apply (am_alloc _ HA)|]. intros [p s']. apply Hr.
    - destruct (bl !! _) as [[p n]|]; [|apply Hr]. apply mono_bind_eq; [apply (am_free _ HA)|]. intros s'. apply Hr.
    - destruct H as [<- <-]. destruct (bl !! i) as [[p n]|]; [|apply Hr]. destruct (off <? n); [|apply Hr].
      apply mono_bind_eq; [apply mono_wr; right; done|]. intros _. apply Hr.
    - destruct (bl !! _) as [[p n]|]; [|apply Hr]. destruct (_ <? n); [|apply Hr].
      apply (mono_bind cle); [apply mono_rd|]. intros c c' _. apply mono_ret. split; [|done]. by destruct c, c'.
    - destruct (a_owns A); apply Hr.
    - destruct (a_max A) as [mx|] eqn:E; [|apply Hr]. destruct (ready b s); [|apply Hr].
      apply mono_bind_eq; [by apply (am_max _ HA)|]. intros v. apply Hr.
    - destruct H as [<- <-]. destruct (bl !! i) as [[p n]|]; [|apply Hr]. destruct (off <? n); [|apply Hr].
      apply mono_bind_eq; [apply mono_traits, mono_wr; right; done|]. intros s'. apply Hr.
    - destruct (bl !! _) as [[p n]|]; [|apply Hr]. destruct (_ <? n); [|apply Hr].
      apply mono_bind_eq; [apply mono_traits, mono_ret_eq|]. intros s'. apply Hr.
  Qed.

  Lemma erun_mono ops ops' s bl : Forall2 same_call ops ops' ->
    mono (fun x y => Forall2 same_answer (fst x) (fst y) /\ snd x = snd y) (erun ops s bl) (run A b ready ops' s bl).
  Proof.
    intros H. revert s bl. induction H as [|o o' ops ops' Ho _ IH]; intros s bl; cbn [erun run]; [apply mono_ret; split; [constructor|done]|].
    apply (mono_bind both); [by apply estep_mono|]. intros [ob [s1 bl1]] [ob' [s1' bl1']] [H1 [= <- <-]].
    eapply mono_bind; [apply IH|]. intros [os fin] [os' fin'] [H2 H3]. cbn in H2, H3. subst fin'.
    apply mono_ret. split; [|done]. by constructor.
  Qed.

  Lemma free_all_mono bl s : mono eq (free_all A b bl s) (free_all A b bl s).
  Proof.
    revert s. induction bl as [|[p n] bl IH]; intros s; cbn [free_all]; [apply mono_ret_eq|].
    apply mono_bind_eq; [apply (am_free _ HA)|]. intros s'. apply IH.
  Qed.

  Lemma esession_mono ops ops' : Forall2 same_call ops ops' ->
    mono (Forall2 same_answer) (esession ops) (session A b ready ops').
  Proof.
    intros H. unfold esession, session. apply mono_bind_eq; [apply (am_init _ HA)|]. intros s.
    eapply mono_bind; [by apply erun_mono|]. intros [os [s1 bl1]] [os' [s1' bl1']] [H1 [= <- <-]]. cbn in H1.
    apply mono_bind_eq; [apply free_all_mono|]. intros s2. apply mono_bind_eq; [apply (am_dtor _ HA)|].
    intros _. by apply mono_ret.
  Qed.
End erased.

(** They have defined behaviour. *)
Section safe.
  Context {bad : event -> bool} {A : alloc} {req : N -> bool}.
  Context (CA : contract bad A req) (b : N) (ready : N -> a_st A -> bool).
  Context (Hready : a_max A <> None -> forall b s, ready b s = true -> rdy CA b s = true).

  Definition clear_of (L : list blk) : Prop := Forall (fun x : blk => Forall dead (snd x)) L.
  Definition good_now (s : a_st A) (bl : list (N * N)) : hpropI :=
    ∃ L, ⌈clear_of L /\ bl = shape L⌉ ∗ J CA b s (shape L) ∗ blocks L.

  Lemma good_intro s L : clear_of L -> J CA b s (shape L) ∗ blocks L ⊢ good_now s (shape L).
  Proof. iIntros (H) "H". iExists L. by iFrame. Qed.

  Lemma clear_write L i p cs off : clear_of L -> L !! i = Some (p, cs) -> clear_of (<[i := (p, <[off := Undef]> cs)]> L).
  Proof.
    intros H Hi. apply Forall_insert; [done|]. cbn. apply Forall_insert; [|done].
    by apply (Forall_lookup_1 _ _ _ _ H Hi).
  Qed.

  Lemma estep_spec o s bl : op_ok (req := req) o ->
    good_now s bl ⊢ wp bad (estep A b ready o s bl) (fun r => good_now (fst (snd r)) (snd (snd r))).
  Proof.
    iIntros (Hok) "(%L & (%HL & ->) & HJ & HB)".
    destruct o as [n|i|i off v|i off|q| |i off v|i off]; cbn [estep step op_ok] in *.
    - destruct Hok as [Hr Hn]. iApply wp_bind. iApply wp_strong_mono.
      iSplitL "HJ"; [by iApply (c_alloc _ _ _ CA)|].
      iIntros ([p s']) "[[%Hq HJ]|(%Hq & Hraw & HJ)]"; cbn [fst snd] in *; iApply wp_ret; cbn [fst snd].
      + rewrite Hq. cbn [N.eqb]. iApply good_intro; [done|iFrame].
      + rewrite (proj2 (N.eqb_neq _ _) Hq). iDestruct "Hraw" as (cs) "[(%Hl & %Hd) Hc]". subst n.
        replace ((p, N.of_nat (length cs)) :: shape L) with (shape ((p, cs) :: L)) by done.
        iApply good_intro; [by constructor|]. rewrite blocks_cons. iFrame.
    - destruct (shape L !! i) as [[p n]|] eqn:Hi.
      + apply shape_lookup in Hi as (cs&Hi&<-). assert (HP := delete_Permutation _ _ _ Hi).
        iEval (rewrite (blocks_perm _ _ HP) blocks_cons) in "HB". iDestruct "HB" as "[Hc HB]".
        rewrite (c_perm _ _ _ CA _ _ _ _ (shape_perm _ _ HP)) shape_cons.
        iApply wp_bind. iApply wp_strong_mono. iSplitL.
        { iApply (c_free _ _ _ CA); [|iFrame]. by apply (Forall_lookup_1 _ _ _ _ HL Hi). }
        iIntros (s') "[HJ HL]". iApply wp_ret. cbn [fst snd]. rewrite -shape_delete.
        iApply good_intro; [by apply Forall_delete|iFrame].
      + iApply wp_ret. iApply good_intro; [done|iFrame].
    - destruct (shape L !! i) as [[p n]|] eqn:Hi; [|iApply wp_ret; iApply good_intro; [done|iFrame]].
      apply shape_lookup in Hi as (cs&Hi&<-). destruct (N.ltb_spec off (N.of_nat (length cs))) as [Hoff|Hoff].
      + iDestruct (blocks_byte CA ready Hready _ _ _ _ _ Hi Hoff with "HB") as (c) "(%Hoc & Hx & Hback)".
        iApply wp_bind. iApply wp_wr. iFrame "Hx". iIntros "Hx". iApply wp_ret. cbn [fst snd].
        rewrite -(shape_write L i p cs (N.to_nat off) Undef Hi). iApply good_intro; [by apply clear_write|].
        iFrame. by iApply "Hback".
      + iApply wp_ret. iApply good_intro; [done|iFrame].
    - destruct (shape L !! i) as [[p n]|] eqn:Hi; [|iApply wp_ret; iApply good_intro; [done|iFrame]].
      apply shape_lookup in Hi as (cs&Hi&<-). destruct (N.ltb_spec off (N.of_nat (length cs))) as [Hoff|Hoff].
      + iDestruct (blocks_byte CA ready Hready _ _ _ _ _ Hi Hoff with "HB") as (c) "(%Hoc & Hx & Hback)".
        iApply wp_bind. iApply wp_rd. iFrame "Hx". iIntros "Hx". iApply wp_ret. cbn [fst snd].
        iDestruct ("Hback" with "Hx") as "HB". rewrite insert_same //. iApply good_intro; [done|iFrame].
      + iApply wp_ret. iApply good_intro; [done|iFrame].
    - destruct (a_owns A); iApply wp_ret; (iApply good_intro; [done|iFrame]).
    - destruct (a_max A) as [mx|] eqn:Hmx; [destruct (ready b s) eqn:Hrd|]; try (iApply wp_ret; iApply good_intro; [done|iFrame]; fail).
      iApply wp_bind. iApply wp_strong_mono. iSplitL "HJ".
      { iApply (c_max _ _ _ CA with "HJ"); [done|]. by apply Hready. }
      iIntros (v) "[%Hv HJ]". iApply wp_ret. iApply good_intro; [done|iFrame].
    - destruct (shape L !! i) as [[p n]|] eqn:Hi; [|iApply wp_ret; iApply good_intro; [done|iFrame]].
      assert (Hin := elem_of_list_lookup_2 _ _ _ Hi).
      apply shape_lookup in Hi as (cs&Hi&<-). destruct (N.ltb_spec off (N.of_nat (length cs))) as [Hoff|Hoff].
      + iApply wp_bind. iApply wp_strong_mono. iSplitL "HJ HB".
        { iApply (traits_cd_spec CA b Construct s L (p + off) _
            (fun _ => blocks (<[i:=(p, <[N.to_nat off := Undef]> cs)]> L))).
          { eexists p, _. split; [done|]. lia. }
          iFrame. iIntros "HL". iDestruct (blocks_byte CA ready Hready _ _ _ _ _ Hi Hoff with "HL") as (c) "(%Hoc & Hx & Hback)".
          iApply wp_wr. iFrame "Hx". iIntros "Hx". by iApply "Hback". }
        iIntros (s') "[HJ HL]". iApply wp_ret. cbn [fst snd].
        rewrite -(shape_write L i p cs (N.to_nat off) Undef Hi). iApply good_intro; [by apply clear_write|iFrame].
      + iApply wp_ret. iApply good_intro; [done|iFrame].
    - destruct (shape L !! i) as [[p n]|] eqn:Hi; [|iApply wp_ret; iApply good_intro; [done|iFrame]].
      assert (Hin := elem_of_list_lookup_2 _ _ _ Hi). destruct (N.ltb_spec off n) as [Hoff|Hoff].
      + iApply wp_bind. iApply wp_strong_mono. iSplitL "HJ HB".
        { iApply (traits_cd_spec CA b Destroy s L (p + off) _ (fun _ => blocks L)).
          { eexists p, _. split; [done|]. lia. }
          iFrame. iIntros "HL". by iApply wp_ret. }
        iIntros (s') "[HJ HL]". iApply wp_ret. iApply good_intro; [done|iFrame].
      + iApply wp_ret. iApply good_intro; [done|iFrame].
  Qed.

  Lemma erun_spec ops s bl : Forall (op_ok (req := req)) ops ->
    good_now s bl ⊢ wp bad (erun A b ready ops s bl) (fun r => good_now (fst (snd r)) (snd (snd r))).
  Proof.
    revert s bl. induction ops as [|o ops IH]; intros s bl Hok; cbn [erun].
    - iIntros "H". by iApply wp_ret.
    - apply Forall_cons_iff in Hok as [Hok0 Hok]. iIntros "H". iApply wp_bind. iApply wp_strong_mono.
      iSplitL; [by iApply estep_spec|]. iIntros ([ob [s' bl']]) "H". cbn [fst snd].
      iApply wp_bind. iApply wp_strong_mono. iSplitL; [by iApply IH|].
      iIntros ([os [s'' bl'']]) "H". by iApply wp_ret.
  Qed.

  Lemma efree_spec s L : clear_of L ->
    J CA b s (shape L) ∗ blocks L ⊢ wp bad (free_all A b (shape L) s) (fun s' => J CA b s' []).
  Proof.
    revert s. induction L as [|[p cs] L IH]; intros s HL.
    - iIntros "[HJ _]". by iApply wp_ret.
    - apply Forall_cons_iff in HL as [HL0 HL].
      rewrite blocks_cons. iIntros "(HJ & Hc & HL)". rewrite shape_cons. cbn [free_all bsize fst snd].
      iApply wp_bind. iApply wp_strong_mono. iSplitL.
      { iApply (c_free _ _ _ CA); [done|]. iFrame. }
      iIntros (s') "H". by iApply IH.
  Qed.

  Lemma esession_spec ops : b <> 0 -> b mod 16 = 0 -> b + a_size A < W -> Forall (op_ok (req := req)) ops ->
    raw b (a_size A) ⊢ wp bad (esession A b ready ops) (fun _ => raw b (a_size A)).
  Proof.
    iIntros (H1 H2 H3 Hok) "Hr". unfold esession. iApply wp_bind. iApply wp_strong_mono.
    iSplitL "Hr"; [by iApply (c_init _ _ _ CA)|]. iIntros (s) "HJ".
    iApply wp_bind. iApply wp_strong_mono. iSplitL.
    { iApply (erun_spec ops s [] Hok). iApply (good_intro s []); [by constructor|]. rewrite blocks_nil. iFrame. }
    iIntros ([os [s' bl]]) "(%L & (%HL & %Hbl) & HJ & HL)". cbn [fst snd] in *. subst bl.
    iApply wp_bind. iApply wp_strong_mono. iSplitL "HJ HL"; [iApply (efree_spec _ _ HL); iFrame|].
    iIntros (s'') "HJ". iApply wp_bind. iApply wp_strong_mono. iSplitL "HJ"; [by iApply (c_dtor _ _ _ CA)|].
    iIntros ([]) "Hr". by iApply wp_ret.
  Qed.
End safe.

(** * Two sessions *)
Definition forget (c : cell) : cell := if deadb c then Undef else c.
Definition forget_all (w : world) : world := World (Store (forget <$> mem (st w)) (mtab (st w))) (orc w) (tick w).

Lemma forget_le w w' : same_layout w w' -> wle (forget_all w) w'.
Proof.
  intros (H1&H2&H3&H4). split; cbn; try done. intros i. rewrite lookup_fmap. destruct (H1 i) as [c d Hcd|]; cbn; constructor.
  unfold forget. destruct Hcd as [<-|[Hc Hd]].
  - destruct (deadb c) eqn:E; [right; done|by left].
  - unfold dead in Hc. rewrite Hc. by right.
Qed.
Lemma same_layout_refl w : same_layout w w.
Proof. split; [|done]. intros i. destruct (mem (st w) !! i); constructor. by left. Qed.
Lemma wle_same w0 w w' : wle w0 w -> wle w0 w' -> same_layout w w'.
Proof.
  intros [H1 H2 H3 H4] [G1 G2 G3 G4]. split; [|by rewrite -H2 -H3 -H4 G2 G3 G4]. intros i.
  specialize (H1 i). specialize (G1 i). destruct H1 as [c d Hcd|]; inversion G1 as [? d' Hcd'|]; subst; constructor.
  destruct Hcd as [<-|[-> Hd]], Hcd' as [<-|[E Hd']]; try subst c; unfold same_cell; (by left) || (by right).
Qed.

Lemma oblivious pl e ops ops' b w w' :
  pl <> PPosix -> wf e = true -> place b (esize e) w -> asks (ereq pl e) ops ->
  Forall2 same_call ops ops' -> same_layout w w' ->
  same_course (session (den pl e) b (eready_now pl e) ops w) (session (den pl e) b (eready_now pl e) ops' w').
Proof.
  intros Hpl Hwf (H1&H2&H3&Hst&H0) Hreq Hops Hw.
  destruct (tree_contract is_fail pl e Hpl Hwf) as [C HC]; [done|].
  set (w0 := forget_all w). set (A := den pl e) in *. set (m := esession A b (eready_now pl e) ops).
  assert (Hsafe : match m w0 with Ok _ _ _ => True | Err _ evs => existsb is_fail evs = true end).
  { rewrite <- (den_size pl e) in Hst, H3. fold A in Hst, H3.
    pose proof (esession_spec C b (eready_now pl e) HC ops H1 H2 H3 (ops_requests _ _ Hreq)) as Hwp.
    assert (Hpre : own (mem (st w0)) ⊢ raw b (a_size A) ∗ own (clear b (N.to_nat (a_size A)) (mem (st w0)))).
    { rewrite {1}(own_take (mem (st w0)) b (N.to_nat (a_size A))).
      2:{ intros i Hi. destruct (Hst i) as (c&Hc&_); [lia|]. exists (forget c). unfold w0. cbn. by rewrite lookup_fmap Hc. }
      iIntros "[Hc $]". iApply (raw_intro with "Hc"); [rewrite cells_length; lia|].
      apply cells_Forall. intros i Hi. destruct (Hst i) as (c&Hc&Hd); [lia|]. exists (forget c).
      split; [unfold w0; cbn; by rewrite lookup_fmap Hc|]. unfold forget. by rewrite Hd. }
    pose proof (wp_adequate_store is_fail m (fun _ => raw b (a_size A) ∗ own (clear b (N.to_nat (a_size A)) (mem (st w0))))%I w0) as Had.
    lapply Had; clear Had; [by destruct (m w0)|]. iIntros "H". iDestruct (Hpre with "H") as "[Hr Hc]".
    iApply wp_strong_mono. iSplitL "Hr"; [by iApply Hwp|]. iIntros (x) "Hr". iFrame. }
  pose proof (esession_mono A b (eready_now pl e) (tree_mono pl e) ops ops) as Hm1.
  pose proof (esession_mono A b (eready_now pl e) (tree_mono pl e) ops ops' Hops w0 w' (forget_le _ _ Hw)) as Hm2.
  lapply Hm1; clear Hm1; [intros Hm1; specialize (Hm1 w0 w (forget_le _ _ (same_layout_refl w)))|].
  2:{ apply Forall2_same_length_lookup_2; [done|]. intros i x y Hx Hy. assert (x = y) as -> by congruence. by destruct y. }
  fold m in Hm1, Hm2. destruct (m w0) as [os w1 evs|u evs].
  - destruct Hm1 as (_&os1&w1'&->&Ho1&Hw1), Hm2 as (_&os2&w2'&->&Ho2&Hw2). cbn.
    split_and!; [|done|by eapply wle_same].
    clear -Ho1 Ho2. revert os2 Ho2. induction Ho1 as [|x y os os1 Hxy _ IH]; intros os2 Ho2; inversion Ho2 as [|? z ? os2' Hxz]; subst; [constructor|].
    constructor; [|by apply IH]. destruct x, y, z; cbn in *; congruence || done.
  - rewrite (Hm1 Hsafe) (Hm2 Hsafe). done.
Qed.

(** * A case *)
Definition hybrid : aexp := ESegragator 16 (EFreelist 0 16 EMalloc) (EFallback (EStack 64) EMalloc).
Definition one_way (v : N) : list op :=
  [OAlloc 16; OWrite 0 0 v; OConstruct 0 8 v; OAlloc 40; OWrite 0 3 v; ORead 0 3; OFree 1; OAlloc 16; ODestroy 0 8;
   OAlloc 40; OOwns 65536; OMax].
Definition w_full (c : cell) : world :=
  World (Store (fill 4096 (repeat c (N.to_nat (esize hybrid)))) ∅) (fun k => 65536 * N.of_nat (k + 1)) 0.
Lemma oblivious_example :
  wf hybrid = true /\ place 4096 (esize hybrid) (w_full Undef) /\
  asks (ereq PMalloc hybrid) (one_way 0) /\ Forall2 same_call (one_way 0) (one_way 1) /\
  same_layout (w_full Undef) (w_full (Byte 2)) /\
  outcome (session (den PMalloc hybrid) 4096 (eready_now PMalloc hybrid) (one_way 0) (w_full Undef)) =
    Some ([ObPtr 65536; ObUnit; ObUnit; ObPtr 4096; ObUnit; ObByte (Some 0); ObUnit; ObPtr 65536; ObUnit; ObPtr 131072; ObUnit; ObUnit], []) /\
  outcome (session (den PMalloc hybrid) 4096 (eready_now PMalloc hybrid) (one_way 1) (w_full (Byte 2))) =
    Some ([ObPtr 65536; ObUnit; ObUnit; ObPtr 4096; ObUnit; ObByte (Some 1); ObUnit; ObPtr 65536; ObUnit; ObPtr 131072; ObUnit; ObUnit], []).
Proof.
  split; [done|]. split; [by apply (w_raw_place (esize hybrid))|].
  split; [by repeat constructor|]. split; [by repeat constructor|].
  split; [|by vm_compute]. split; [|done]. intros i. cbn -[fill repeat esize].
  rewrite !fill_lookup !repeat_length. destruct (_ && _) eqn:E; [|constructor].
  apply andb_prop in E as [E1 E2]. apply N.leb_le in E1. apply N.ltb_lt in E2.
  assert (HR : forall (c : cell) n k, (k < n)%nat -> repeat c n !! k = Some c).
  { intros c n. induction n as [|n IH]; intros k Hk; [lia|]. destruct k as [|k]; [done|]. cbn. apply IH. lia. }
  rewrite !HR; [constructor; by right|lia|lia].
Qed.
