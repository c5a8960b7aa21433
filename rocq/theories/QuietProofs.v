(** Compositions without cascading never fail the assertion of cascading.h:273. *)
From Coq Require Import ssreflect.
From Verif Require Import Base Mem Bits AlignedMalloc Allocators Checked Tree Client AllocSpec.

Definition is_release (e : event) : bool := match e with EvAssert ARelease => true | _ => false end.

Definition evs_of {X} (r : res X) : list event := match r with Ok _ _ e => e | Err _ e => e end.

Definition quiet {X} (m : M X) : Prop := forall w, existsb is_release (evs_of (m w)) = false.

Lemma quiet_ret {X} (a : X) : quiet (ret a).
Proof. done. Qed.
Lemma quiet_ubm {X} u : quiet (ubm u : M X).
Proof. done. Qed.
Lemma quiet_emit e : is_release e = false -> quiet (emit e).
Proof. intros H w. cbn. by rewrite H. Qed.
Lemma quiet_bind {X Y} (m : M X) (k : X -> M Y) : quiet m -> (forall a, quiet (k a)) -> quiet (bind m k).
Proof.
  intros Hm Hk w. unfold bind. specialize (Hm w). destruct (m w) as [a w1 e1|u e1]; [|done].
  specialize (Hk a w1). destruct (k a w1) as [b w2 e2|u e2]; cbn [evs_of] in *; by rewrite existsb_app Hm Hk.
Qed.
Lemma quiet_assert c : quiet (ktl_assert c).
Proof. destruct c; by apply quiet_ret || by apply quiet_emit. Qed.
Lemma quiet_rd a : quiet (rd a).
Proof. intros w. unfold rd. by destruct (mem (st w) !! a). Qed.
Lemma quiet_wr a c : quiet (wr a c).
Proof. intros w. unfold wr. by destruct (mem (st w) !! a). Qed.
Lemma quiet_rds a n : quiet (rds a n).
Proof.
  revert a. induction n as [|n IH]; intros a; cbn [rds]; [apply quiet_ret|].
  apply quiet_bind; [apply quiet_rd|]. intros c. apply quiet_bind; [apply IH|]. intros. apply quiet_ret.
Qed.
Lemma quiet_wrs a cs : quiet (wrs a cs).
Proof.
  revert a. induction cs as [|c cs IH]; intros a; cbn [wrs]; [apply quiet_ret|].
  apply quiet_bind; [apply quiet_wr|]. intros _. apply IH.
Qed.
Lemma quiet_malloc al n : quiet (malloc al n).
Proof. intros w. unfold malloc. by destruct (malloc_valid _ _ _ _). Qed.
Lemma quiet_mfree p : quiet (mfree p).
Proof. intros w. unfold mfree. destruct (p =? 0); [done|]. by destruct (mtab (st w) !! p). Qed.

Create HintDb quiet discriminated.
Global Hint Resolve quiet_ret quiet_ubm quiet_assert quiet_rd quiet_wr quiet_rds quiet_wrs quiet_malloc quiet_mfree : quiet.

(** Walk through the syntax of a computation. *)
Ltac quiet :=
  repeat (intros; first
    [ solve [auto with quiet]
    | apply quiet_bind
    | match goal with
      | |- quiet (if ?c then _ else _) => destruct c
      | |- quiet (match ?x with _ => _ end) => destruct x
      | |- quiet (let '(_, _) := ?x in _) => destruct x
      end
    | by apply quiet_emit ]).

Lemma quiet_memset a b n : quiet (memset a b n).
Proof. apply quiet_wrs. Qed.
Lemma quiet_rd_ptr a : quiet (rd_ptr a).
Proof. unfold rd_ptr. quiet. Qed.
Lemma quiet_wr_ptr a p : quiet (wr_ptr a p).
Proof. apply quiet_wrs. Qed.
Global Hint Resolve quiet_memset quiet_rd_ptr quiet_wr_ptr : quiet.
Lemma quiet_am pl n al : quiet (aligned_malloc pl n al).
Proof. unfold aligned_malloc, posix_memalign. quiet. Qed.
Lemma quiet_af pl p : quiet (aligned_free pl p).
Proof. unfold aligned_free. quiet. Qed.
Global Hint Resolve quiet_am quiet_af : quiet.

(** All members of an allocator are quiet. *)
Record aquiet (A : alloc) : Prop := {
  aq_init b : quiet (a_init A b);
  aq_dtor b s : quiet (a_dtor A b s);
  aq_alloc b s n : quiet (a_alloc A b s n);
  aq_free b s p n : quiet (a_free A b s p n);
  aq_max mx b s : a_max A = Some mx -> quiet (mx b s);
  aq_cd o c b s q act : a_cd A = Some o -> quiet act -> quiet (o c b s q act)
}.

Lemma aq_freelist Min Max A : aquiet A -> aquiet (freelist Min Max A).
Proof.
  intros [H1 H2 H3 H4 H5 H6]. split; cbn [freelist a_init a_dtor a_alloc a_free a_max a_cd].
  - quiet.
  - intros b s w. unfold fl_dtor. revert w. generalize (f_in s), (f_head s).
    enough (forall k s h, quiet (s' <- fl_release Max A k b s h ;; a_dtor A b s')) as H; [intros; apply H|].
    intros k s0 h. apply quiet_bind; [|auto]. revert s0 h. induction k as [|k IH]; intros s0 h; cbn [fl_release]; quiet.
  - intros. unfold fl_alloc. quiet.
  - intros. unfold fl_free. quiet.
  - intros mx b s E. destruct (a_max A) eqn:E'; [|done]. injection E as <-. by apply H5.
  - intros o c b s q act E Ha. destruct (a_cd A) eqn:E'; [|done]. injection E as <-. quiet; try by apply H6.
Qed.

Lemma aq_pair_cd P F o c b s q act : aquiet P -> aquiet F -> pair_cd P F = Some o -> quiet act -> quiet (o c b s q act).
Proof.
  intros HP HF E Ha. unfold pair_cd in E. destruct (a_owns P) as [oP|]; [|done].
  destruct (a_cd P) as [cP|] eqn:EP, (a_cd F) as [cF|] eqn:EF; try done; injection E as <-;
    destruct (oP b (fst s) q); apply quiet_bind; try done; try (intros; apply quiet_ret);
    (by apply (aq_cd _ HP)) || by apply (aq_cd _ HF).
Qed.

Lemma aq_pair_max P F mx b s : aquiet P -> aquiet F -> pair_max P F = Some mx -> quiet (mx b s).
Proof.
  intros HP HF E. unfold pair_max, omap2 in E. destruct (a_max P) as [mP|] eqn:EP; [|done].
  destruct (a_max F) as [mF|] eqn:EF; [|done]. injection E as <-.
  apply quiet_bind; [by apply (aq_max _ HP)|]. intros. apply quiet_bind; [by apply (aq_max _ HF)|]. quiet.
Qed.

Lemma aq_fallback P F : aquiet P -> aquiet F -> aquiet (fallback P F).
Proof.
  intros HP HF. pose proof HP as [H1 H2 H3 H4 _ _]. pose proof HF as [G1 G2 G3 G4 _ _].
  split; cbn [fallback a_init a_dtor a_alloc a_free a_max a_cd].
  - unfold pair_init. quiet.
  - unfold pair_dtor. quiet.
  - unfold fb_alloc. quiet.
  - unfold fb_free. quiet.
  - intros. by eapply aq_pair_max.
  - intros. by eapply aq_pair_cd.
Qed.

Lemma aq_segragator P F T : aquiet P -> aquiet F -> aquiet (segragator P F T).
Proof.
  intros HP HF. pose proof HP as [H1 H2 H3 H4 _ _]. pose proof HF as [G1 G2 G3 G4 _ _].
  split; cbn [segragator a_init a_dtor a_alloc a_free a_max a_cd].
  - unfold pair_init. quiet.
  - unfold pair_dtor. quiet.
  - unfold seg_alloc. quiet.
  - unfold seg_free. quiet.
  - intros. by eapply aq_pair_max.
  - intros. by eapply aq_pair_cd.
Qed.

Lemma quiet_rd_byte a : quiet (rd_byte a).
Proof. unfold rd_byte. quiet. Qed.
Global Hint Resolve quiet_rd_byte : quiet.
Lemma quiet_scan_before k p i x : quiet (scan_before k p i x).
Proof. revert i x. induction k as [|k IH]; intros i x; cbn [scan_before]; quiet. Qed.
Lemma quiet_scan_after k p n i x : quiet (scan_after k p n i x).
Proof. revert i x. induction k as [|k IH]; intros i x; cbn [scan_after]; quiet. Qed.
Global Hint Resolve quiet_scan_before quiet_scan_after : quiet.

Lemma aq_overflow A : aquiet A -> aquiet (overflow A).
Proof.
  intros [H1 H2 H3 H4 H5 H6]. split; cbn [overflow a_init a_dtor a_alloc a_free a_max a_cd].
  - quiet.
  - unfold ov_dtor. quiet.
  - unfold ov_alloc. quiet.
  - unfold ov_free. quiet.
  - intros mx b s E. destruct (a_max A) eqn:E'; [|done]. injection E as <-. by apply H5.
  - intros o c b s q act E Ha. injection E as <-. unfold ov_cd. destruct (a_cd A) eqn:E'; quiet; try by apply H6.
Qed.

Lemma aq_shared pl A : aquiet A -> aquiet (shared pl A).
Proof.
  intros [H1 H2 H3 H4 H5 H6]. split; cbn [shared a_init a_dtor a_alloc a_free a_max a_cd].
  - quiet.
  - quiet.
  - quiet.
  - quiet.
  - intros mx b s E. destruct (a_max A) eqn:E'; [|done]. injection E as <-. by apply H5.
  - intros o c b s q act E Ha. destruct (a_cd A) eqn:E'; [|done]. injection E as <-. quiet; try by apply H6.
Qed.

Lemma aq_checked A : aquiet A -> aquiet (checked A).
Proof.
  intros [H1 H2 H3 H4 H5 H6]. split; cbn [checked a_init a_dtor a_alloc a_free a_max a_cd].
  - quiet.
  - quiet.
  - quiet.
  - quiet.
  - intros mx b s E. destruct (a_max A) eqn:E'; [|done]. injection E as <-. by apply H5.
  - intros o c b s q act E Ha. destruct (a_cd A) eqn:E'; [|done]. injection E as <-. quiet; try by apply H6.
Qed.

Lemma aq_forwarding A : aquiet A -> aquiet (forwarding A).
Proof. by intros []. Qed.

Fixpoint no_cascading (e : aexp) : bool :=
  match e with
  | ENull | EMalloc | ELinear _ | EStack _ => true
  | ECascading _ => false
  | EFallback p f | ESegragator _ p f => no_cascading p && no_cascading f
  | EFreelist _ _ e | EOverflow e | EShared e | EThreaded e | EReference e | EGlobal e | EChecked e => no_cascading e
  end.

Lemma tree_quiet pl e : no_cascading e = true -> aquiet (den pl e).
Proof.
  induction e as [| | | |Min Max e IH|e IH|p IHp f IHf|T p IHp f IHf|e IH|e IH|e IH|e IH|e IH|e IH]; cbn [no_cascading den]; intros H; try done.
  - split; cbn; quiet; done.
  - split; cbn; quiet; done.
  - split; cbn; try (unfold lin_init, lin_alloc; by quiet); try done; intros mx b s [= <-]; quiet.
  - split; cbn; try (unfold lin_init, lin_alloc; by quiet); try done; intros mx b s [= <-]; quiet.
  - by apply aq_freelist, IH.
  - apply andb_true_iff in H as [H1 H2]. apply aq_fallback; auto.
  - apply andb_true_iff in H as [H1 H2]. apply aq_segragator; auto.
  - by apply aq_overflow, IH.
  - by apply aq_shared, IH.
  - by apply aq_forwarding, IH.
  - by apply aq_forwarding, IH.
  - by apply aq_forwarding, IH.
  - by apply aq_checked, IH.
Qed.

Lemma session_quiet A ready b ops : aquiet A -> quiet (session A b ready ops).
Proof.
  intros [H1 H2 H3 H4 H5 H6].
  assert (Hcd : forall c s q act, quiet act -> quiet (traits_cd A b c s q act)).
  { intros c s q act Ha. unfold traits_cd. destruct (a_cd A) eqn:E; [by apply H6|quiet]. }
  assert (Hstep : forall o s bl, quiet (step A b ready o s bl)).
  { intros o s bl. destruct o; cbn [step]; quiet; try (apply Hcd; by quiet).
  }
  assert (Hrun : forall ops s bl, quiet (run A b ready ops s bl)).
  { induction ops0 as [|o ops0 IH]; intros s bl; cbn [run]; quiet; try by apply IH. }
  assert (Hfree : forall bl s, quiet (free_all A b bl s)).
  { induction bl as [|[p n] bl IH]; intros s; cbn [free_all]; quiet; try by apply IH. }
  unfold session. quiet; auto.
Qed.
