(** A computation that ends normally has not run into an unchecked null result of malloc; one that
    has dereferences null. *)
From Coq Require Import ssreflect.
From Verif Require Import Base Mem Bits AlignedMalloc AlignedMallocProofs Allocators Checked Tree TreeProofs Client Shared.

Definition firm {X} (m : M X) : Prop := forall w,
  match m w with
  | Ok _ _ e => existsb is_fail e = false
  | Err u e => existsb is_fail e = true -> u = UBNull /\ existsb is_refuse e = true
  end.

Lemma firm_ret {X} (a : X) : firm (ret a).
Proof. done. Qed.
Lemma firm_ubm {X} u : firm (ubm u : M X).
Proof. done. Qed.
Lemma firm_emit e : is_fail e = false -> firm (emit e).
Proof. intros H w. cbn. by rewrite H. Qed.
Lemma firm_bind {X Y} (m : M X) (k : X -> M Y) : firm m -> (forall a, firm (k a)) -> firm (bind m k).
Proof.
  intros Hm Hk w. unfold bind. specialize (Hm w). destruct (m w) as [a w1 e1|u e1]; [|done].
  specialize (Hk a w1). destruct (k a w1) as [b w2 e2|u e2]; rewrite !existsb_app Hm; [done|].
  intros H. destruct (Hk H) as [-> ->]. by rewrite orb_true_r.
Qed.
Lemma firm_assert c : firm (ktl_assert c).
Proof. destruct c; by apply firm_ret || by apply firm_emit. Qed.
Lemma firm_rd a : firm (rd a).
Proof. intros w. unfold rd. by destruct (mem (st w) !! a). Qed.
Lemma firm_wr a c : firm (wr a c).
Proof. intros w. unfold wr. by destruct (mem (st w) !! a). Qed.
Lemma firm_rds a n : firm (rds a n).
Proof.
  revert a. induction n as [|n IH]; intros a; cbn [rds]; [apply firm_ret|].
  apply firm_bind; [apply firm_rd|]. intros c. apply firm_bind; [apply IH|]. intros. apply firm_ret.
Qed.
Lemma firm_wrs a cs : firm (wrs a cs).
Proof.
  revert a. induction cs as [|c cs IH]; intros a; cbn [wrs]; [apply firm_ret|].
  apply firm_bind; [apply firm_wr|]. intros _. apply IH.
Qed.
Lemma firm_malloc al n : firm (malloc al n).
Proof. intros w. unfold malloc. by destruct (malloc_valid _ _ _ _). Qed.
Lemma firm_mfree p : firm (mfree p).
Proof. intros w. unfold mfree. destruct (p =? 0); [done|]. by destruct (mtab (st w) !! p). Qed.

Create HintDb firm discriminated.
Global Hint Resolve firm_ret firm_ubm firm_assert firm_rd firm_wr firm_rds firm_wrs firm_malloc firm_mfree : firm.

Ltac firm :=
  repeat (intros; first
    [ solve [auto with firm]
    | apply firm_bind
    | match goal with
      | |- firm (if ?c then _ else _) => destruct c
      | |- firm (match ?x with _ => _ end) => destruct x
      | |- firm (let '(_, _) := ?x in _) => destruct x
      end
    | by apply firm_emit ]).

Lemma firm_memset a b n : firm (memset a b n).
Proof. apply firm_wrs. Qed.
Lemma firm_rd_ptr a : firm (rd_ptr a).
Proof. unfold rd_ptr. firm. Qed.
Lemma firm_wr_ptr a p : firm (wr_ptr a p).
Proof. apply firm_wrs. Qed.
Global Hint Resolve firm_memset firm_rd_ptr firm_wr_ptr : firm.
Lemma firm_am pl n al : firm (aligned_malloc pl n al).
Proof. unfold aligned_malloc, posix_memalign. firm. Qed.
Lemma firm_af pl p : firm (aligned_free pl p).
Proof. unfold aligned_free. firm. Qed.
Global Hint Resolve firm_am firm_af : firm.

(** * An allocator object in storage from malloc *)
Lemma sure_malloc al n w a w' e : malloc al n w = Ok a w' e -> existsb is_refuse e = true \/ a <> 0 /\ a + n < W.
Proof.
  unfold malloc. destruct (malloc_valid _ _ _ _) eqn:E; intros [= <- <- <-]; [|by left]. right.
  unfold malloc_valid in E. rewrite !andb_true_iff in E. destruct E as [[[E0 _] E1] _]. lia.
Qed.

Lemma sure_am pl n w a w' e : pl <> PPosix -> (pl = PGeneric -> n + 16 < W) ->
  aligned_malloc pl n 16 w = Ok a w' e -> existsb is_refuse e = true \/ a <> 0.
Proof.
  intros Hpl Hn. unfold aligned_malloc. destruct pl; try done; try (intros H; apply sure_malloc in H; tauto).
  specialize (Hn eq_refl). unfold bind. rewrite add64_small; [|lia].
  destruct (malloc _ _ w) as [q w1 e1|u e1] eqn:E; [|done]. apply sure_malloc in E.
  destruct E as [E|[E E']].
  { destruct (_ w1) as [x w2 e2|]; [|done]. intros [= <- <- <-]. left. by rewrite existsb_app E. }
  rewrite (proj2 (N.eqb_neq _ _) E). cbv zeta. rewrite land_not_15; [|lia].
  rewrite add64_small; [|lia]. destruct (wr_ptr _ _ w1) as [[] w3 e3|]; [|done]. cbn. intros [= <- <- <-]. right. lia.
Qed.

Lemma firm_new {X} pl n (k : N -> M X) : pl <> PPosix -> n + 16 < W -> (forall p, firm (k p)) ->
  firm (p <- aligned_malloc pl n ALIGNMENT ;; if p =? 0 then emit EvFail ;;; ubm UBNull else k p).
Proof.
  intros Hpl Hn Hk w. pose proof (firm_am pl n ALIGNMENT w) as Hf. unfold bind at 1.
  destruct (aligned_malloc pl n ALIGNMENT w) as [p w1 e1|u e1] eqn:E; [|done].
  destruct (N.eqb_spec p 0) as [->|Hp].
  - cbn. intros _. split; [done|]. change ALIGNMENT with 16 in E. apply sure_am in E as [E|E]; [|done..].
    by rewrite existsb_app E.
  - specialize (Hk p w1). destruct (k p w1) as [x w2 e2|u e2]; rewrite !existsb_app Hf; [done|].
    intros H. destruct (Hk H) as [-> ->]. by rewrite orb_true_r.
Qed.

(** All members of an allocator. *)
Record afirm (A : alloc) : Prop := {
  af_init b : firm (a_init A b);
  af_dtor b s : firm (a_dtor A b s);
  af_alloc b s n : firm (a_alloc A b s n);
  af_free b s p n : firm (a_free A b s p n);
  af_max mx b s : a_max A = Some mx -> firm (mx b s);
  af_cd o c b s q act : a_cd A = Some o -> firm act -> firm (o c b s q act)
}.

Lemma af_freelist Min Max A : afirm A -> afirm (freelist Min Max A).
Proof.
  intros [H1 H2 H3 H4 H5 H6]. split; cbn [freelist a_init a_dtor a_alloc a_free a_max a_cd].
  - firm.
  - intros b s w. unfold fl_dtor. revert w. generalize (f_in s), (f_head s).
    enough (forall k s h, firm (s' <- fl_release Max A k b s h ;; a_dtor A b s')) as H; [intros; apply H|].
    intros k s0 h. apply firm_bind; [|auto]. revert s0 h. induction k as [|k IH]; intros s0 h; cbn [fl_release]; firm.
  - intros. unfold fl_alloc. firm.
  - intros. unfold fl_free. firm.
  - intros mx b s E. destruct (a_max A) eqn:E'; [|done]. injection E as <-. by apply H5.
  - intros o c b s q act E Ha. destruct (a_cd A) eqn:E'; [|done]. injection E as <-. firm; try by apply H6.
Qed.

Lemma af_pair_cd P F o c b s q act : afirm P -> afirm F -> pair_cd P F = Some o -> firm act -> firm (o c b s q act).
Proof.
  intros HP HF E Ha. unfold pair_cd in E. destruct (a_owns P) as [oP|]; [|done].
  destruct (a_cd P) as [cP|] eqn:EP, (a_cd F) as [cF|] eqn:EF; try done; injection E as <-;
    destruct (oP b (fst s) q); apply firm_bind; try done; try (intros; apply firm_ret);
    (by apply (af_cd _ HP)) || by apply (af_cd _ HF).
Qed.

Lemma af_pair_max P F mx b s : afirm P -> afirm F -> pair_max P F = Some mx -> firm (mx b s).
Proof.
  intros HP HF E. unfold pair_max, omap2 in E. destruct (a_max P) as [mP|] eqn:EP; [|done].
  destruct (a_max F) as [mF|] eqn:EF; [|done]. injection E as <-.
  apply firm_bind; [by apply (af_max _ HP)|]. intros. apply firm_bind; [by apply (af_max _ HF)|]. firm.
Qed.

Lemma af_fallback P F : afirm P -> afirm F -> afirm (fallback P F).
Proof.
  intros HP HF. pose proof HP as [H1 H2 H3 H4 _ _]. pose proof HF as [G1 G2 G3 G4 _ _].
  split; cbn [fallback a_init a_dtor a_alloc a_free a_max a_cd].
  - unfold pair_init. firm.
  - unfold pair_dtor. firm.
  - unfold fb_alloc. firm.
  - unfold fb_free. firm.
  - intros. by eapply af_pair_max.
  - intros. by eapply af_pair_cd.
Qed.

Lemma af_segragator P F T : afirm P -> afirm F -> afirm (segragator P F T).
Proof.
  intros HP HF. pose proof HP as [H1 H2 H3 H4 _ _]. pose proof HF as [G1 G2 G3 G4 _ _].
  split; cbn [segragator a_init a_dtor a_alloc a_free a_max a_cd].
  - unfold pair_init. firm.
  - unfold pair_dtor. firm.
  - unfold seg_alloc. firm.
  - unfold seg_free. firm.
  - intros. by eapply af_pair_max.
  - intros. by eapply af_pair_cd.
Qed.

Lemma firm_rd_byte a : firm (rd_byte a).
Proof. unfold rd_byte. firm. Qed.
Global Hint Resolve firm_rd_byte : firm.
Lemma firm_scan_before k p i x : firm (scan_before k p i x).
Proof. revert i x. induction k as [|k IH]; intros i x; cbn [scan_before]; firm. Qed.
Lemma firm_scan_after k p n i x : firm (scan_after k p n i x).
Proof. revert i x. induction k as [|k IH]; intros i x; cbn [scan_after]; firm. Qed.
Global Hint Resolve firm_scan_before firm_scan_after : firm.

Lemma af_overflow A : afirm A -> afirm (overflow A).
Proof.
  intros [H1 H2 H3 H4 H5 H6]. split; cbn [overflow a_init a_dtor a_alloc a_free a_max a_cd].
  - firm.
  - unfold ov_dtor. firm.
  - unfold ov_alloc. firm.
  - unfold ov_free. firm.
  - intros mx b s E. destruct (a_max A) eqn:E'; [|done]. injection E as <-. by apply H5.
  - intros o c b s q act E Ha. injection E as <-. unfold ov_cd. destruct (a_cd A) eqn:E'; firm; try by apply H6.
Qed.

Lemma af_shared pl A : pl <> PPosix -> a_size A + 32 < W -> afirm A -> afirm (shared pl A).
Proof.
  intros Hpl Hs [H1 H2 H3 H4 H5 H6]. split; cbn [shared a_init a_dtor a_alloc a_free a_max a_cd].
  - intros _. apply firm_new; [done|lia|firm].
  - firm.
  - firm.
  - firm.
  - intros mx b s E. destruct (a_max A) eqn:E'; [|done]. injection E as <-. by apply H5.
  - intros o c b s q act E Ha. destruct (a_cd A) eqn:E'; [|done]. injection E as <-. firm; try by apply H6.
Qed.

Lemma af_cascading pl A : pl <> PPosix -> a_size A + 32 < W -> afirm A -> afirm (cascading pl A).
Proof.
  intros Hpl Hs [H1 H2 H3 H4 H5 H6]. unfold cascading.
  generalize (match a_owns A with Some o => o | None => fun _ _ _ => false end). intros owns.
  assert (Hnew : firm (new_node pl A)) by (unfold new_node, node_size; apply firm_new; [done|lia|firm]).
  assert (Hdel : forall nd, firm (del_node pl A nd)) by (intros; unfold del_node; firm).
  split; cbn [cascading_with a_init a_dtor a_alloc a_free a_max a_cd].
  - firm.
  - intros _ s. generalize true. induction s as [|nd s IH]; intros first; cbn [casc_release]; firm.
  - intros _ s n. unfold casc_alloc. destruct (a_max A) eqn:E; firm; try by apply H5.
  - intros _ s p n. unfold casc_free. apply firm_bind; [firm|]. intros _. generalize false.
    induction s as [|nd s IH]; intros prev; cbn [casc_free_loop]; firm.
  - intros mx b s E. destruct (a_max A) eqn:E'; [|done]. injection E as <-. unfold casc_max. firm.
  - intros o c b s q act E Ha. destruct (a_cd A) eqn:E'; [|done]. injection E as <-.
    induction s as [|nd s IH]; cbn [casc_cd]; firm; try by apply H6.
Qed.

Lemma af_checked A : afirm A -> afirm (checked A).
Proof.
  intros [H1 H2 H3 H4 H5 H6]. split; cbn [checked a_init a_dtor a_alloc a_free a_max a_cd].
  - firm.
  - firm.
  - firm.
  - firm.
  - intros mx b s E. destruct (a_max A) eqn:E'; [|done]. injection E as <-. by apply H5.
  - intros o c b s q act E Ha. destruct (a_cd A) eqn:E'; [|done]. injection E as <-. firm; try by apply H6.
Qed.

Lemma af_forwarding A : afirm A -> afirm (forwarding A).
Proof. by intros []. Qed.

Lemma tree_firm pl e : pl <> PPosix -> wf e = true -> afirm (den pl e).
Proof.
  intros Hpl. induction e as [| | | |Min Max e IH|e IH|p IHp f IHf|T p IHp f IHf|e IH|e IH|e IH|e IH|e IH|e IH]; cbn [den wf]; intros Hwf.
  - split; cbn; firm; done.
  - split; cbn; firm; done.
  - split; cbn; try (unfold lin_init, lin_alloc; by firm); try done; intros mx b s [= <-]; firm.
  - split; cbn; try (unfold lin_init, lin_alloc; by firm); try done; intros mx b s [= <-]; firm.
  - apply af_freelist. apply andb_true_iff in Hwf as [_ Hwf]. auto.
  - rewrite !andb_true_iff in Hwf. destruct Hwf as [[[[Hwf _] _] _] Hs]. apply N.ltb_lt in Hs. rewrite -(den_size pl) in Hs.
    apply af_cascading; auto.
  - rewrite !andb_true_iff in Hwf. destruct Hwf as [[Hp Hf] _]. apply af_fallback; auto.
  - rewrite !andb_true_iff in Hwf. destruct Hwf as [Hp Hf]. apply af_segragator; auto.
  - apply af_overflow; auto.
  - apply andb_true_iff in Hwf as [Hwf Hs]. apply N.ltb_lt in Hs. rewrite -(den_size pl) in Hs. apply af_shared; auto.
  - apply af_forwarding; auto.
  - apply af_forwarding; auto.
  - apply af_forwarding; auto.
  - apply af_checked; auto.
Qed.

Section programs.
  Context (A : alloc) (HA : afirm A) (b : N) (ready : N -> a_st A -> bool).

  Lemma step_firm b' o s bl : firm (step A b' ready o s bl).
  Proof.
    destruct HA as [H1 H2 H3 H4 H5 H6].
    assert (Hcd : forall c s q act, firm act -> firm (traits_cd A b' c s q act)).
    { intros c s' q act Ha. unfold traits_cd. destruct (a_cd A) eqn:E; [by apply H6|firm]. }
    destruct o; cbn [step]; firm; try (apply Hcd; by firm).
  Qed.

  Lemma run_firm ops s bl : firm (run A b ready ops s bl).
  Proof.
    revert s bl. induction ops as [|o ops IH]; intros s bl; cbn [run]; [firm|].
    apply firm_bind; [apply step_firm|]. intros [ob [s' bl']]. apply firm_bind; [apply IH|]. firm.
  Qed.

  Lemma free_all_firm bl s : firm (free_all A b bl s).
  Proof.
    destruct HA as [H1 H2 H3 H4 H5 H6].
    revert s. induction bl as [|[p n] bl IH]; intros s; cbn [free_all]; firm.
  Qed.

  Lemma session_firm ops : firm (session A b ready ops).
  Proof.
    unfold session. apply firm_bind; [apply (af_init _ HA)|]. intros s.
    apply firm_bind; [apply run_firm|]. intros [os [s' bl]].
    apply firm_bind; [apply free_all_firm|]. intros s''.
    apply firm_bind; [apply (af_dtor _ HA)|]. firm.
  Qed.
End programs.

(** Programs over handles of shared<A>. *)
Lemma hrun_firm pl A ready ops q : pl <> PPosix -> a_size A + 32 < W -> afirm A -> firm (hrun pl A ready ops q).
Proof.
  intros Hpl Hs HA. pose proof HA as [H1 H2 H3 H4 H5 H6].
  assert (Hnew : firm (new_block pl A)) by (unfold new_block; apply firm_new; [done|lia|firm]).
  assert (Hinc : forall x bk, firm (increment A x bk)) by (intros; unfold increment; firm).
  assert (Hdec : forall x bk, firm (decrement pl A x bk)) by (intros; unfold decrement; firm).
  revert q. induction ops as [|o ops IH]; intros q; cbn [hrun]; [firm|].
  apply firm_bind; [|firm]. destruct (legal o (p_hs q) (p_out q)); [|firm].
  destruct o; cbn [hstep]; firm; by apply step_firm.
Qed.
