(** Nothing makes address zero accessible. *)
From Coq Require Import ssreflect.
From Verif Require Import Base Mem Bits AlignedMalloc Allocators Checked Tree.

Definition low {X} (m : M X) : Prop := forall w, mem (st w) !! 0 = None ->
  match m w with Ok _ w' _ => mem (st w') !! 0 = None | Err _ _ => True end.

Lemma low_ret {X} (a : X) : low (ret a).
Proof. by intros w Hw. Qed.
Lemma low_ubm {X} u : low (ubm u : M X).
Proof. done. Qed.
Lemma low_emit e : low (emit e).
Proof. by intros w Hw. Qed.
Lemma low_bind {X Y} (m : M X) (k : X -> M Y) : low m -> (forall a, low (k a)) -> low (bind m k).
Proof.
  intros Hm Hk w Hw. unfold bind. specialize (Hm w Hw). destruct (m w) as [a w1 e1|u e1]; [|done].
  specialize (Hk a w1 Hm). by destruct (k a w1).
Qed.
Lemma low_assert c : low (ktl_assert c).
Proof. destruct c; by intros w Hw. Qed.
Lemma low_rd a : low (rd a).
Proof. intros w Hw. unfold rd. by destruct (mem (st w) !! a). Qed.
Lemma low_wr a c : low (wr a c).
Proof.
  intros w Hw. unfold wr. destruct (mem (st w) !! a) eqn:E; [|done]. cbn.
  rewrite lookup_insert_ne; [intros ->; by rewrite E in Hw|done].
Qed.
Lemma low_rds a n : low (rds a n).
Proof.
  revert a. induction n as [|n IH]; intros a; cbn [rds]; [apply low_ret|].
  apply low_bind; [apply low_rd|]. intros c. apply low_bind; [apply IH|]. intros. apply low_ret.
Qed.
Lemma low_wrs a cs : low (wrs a cs).
Proof.
  revert a. induction cs as [|c cs IH]; intros a; cbn [wrs]; [apply low_ret|].
  apply low_bind; [apply low_wr|]. intros _. apply IH.
Qed.
Lemma fill_low a cs : a <> 0 -> fill a cs !! 0 = None.
Proof.
  revert a. induction cs as [|c cs IH]; intros a Ha; cbn [fill]; [done|].
  rewrite lookup_insert_ne; [done|]. apply IH. lia.
Qed.
Lemma clear_low a n (m : gmap N cell) : m !! 0 = None -> clear a n m !! 0 = None.
Proof.
  intros Hm. revert a. induction n as [|n IH]; intros a; cbn [clear]; [done|]. apply lookup_delete_None. right. apply IH.
Qed.
Lemma low_malloc al n : low (malloc al n).
Proof.
  intros w Hw. unfold malloc. destruct (malloc_valid _ _ _ _) eqn:E; [|done]. cbn.
  unfold malloc_valid in E. rewrite !andb_true_iff in E. destruct E as [[[E _] _] _].
  apply lookup_union_None. split; [done|]. apply fill_low. by apply negb_true_iff, N.eqb_neq in E.
Qed.
Lemma low_mfree p : low (mfree p).
Proof.
  intros w Hw. unfold mfree. destruct (p =? 0); [done|]. destruct (mtab (st w) !! p); [|done]. cbn. by apply clear_low.
Qed.

Create HintDb low discriminated.
Global Hint Resolve low_ret low_ubm low_assert low_rd low_wr low_rds low_wrs low_malloc low_mfree low_emit : low.

Ltac low :=
  repeat (intros; first
    [ solve [auto with low]
    | apply low_bind
    | match goal with
      | |- low (if ?c then _ else _) => destruct c
      | |- low (match ?x with _ => _ end) => destruct x
      | |- low (let '(_, _) := ?x in _) => destruct x
      end ]).

Lemma low_memset a b n : low (memset a b n).
Proof. apply low_wrs. Qed.
Lemma low_rd_ptr a : low (rd_ptr a).
Proof. unfold rd_ptr. low. Qed.
Lemma low_wr_ptr a p : low (wr_ptr a p).
Proof. apply low_wrs. Qed.
Global Hint Resolve low_memset low_rd_ptr low_wr_ptr : low.
Lemma low_am pl n al : low (aligned_malloc pl n al).
Proof. unfold aligned_malloc, posix_memalign. low. Qed.
Lemma low_af pl p : low (aligned_free pl p).
Proof. unfold aligned_free. low. Qed.
Global Hint Resolve low_am low_af : low.

(** All members of an allocator. *)
Record alow (A : alloc) : Prop := {
  lo_init b : low (a_init A b);
  lo_dtor b s : low (a_dtor A b s);
  lo_alloc b s n : low (a_alloc A b s n);
  lo_free b s p n : low (a_free A b s p n);
  lo_max mx b s : a_max A = Some mx -> low (mx b s);
  lo_cd o c b s q act : a_cd A = Some o -> low act -> low (o c b s q act)
}.

Lemma lo_freelist Min Max A : alow A -> alow (freelist Min Max A).
Proof.
  intros [H1 H2 H3 H4 H5 H6]. split; cbn [freelist a_init a_dtor a_alloc a_free a_max a_cd].
  - low.
  - intros b s w. unfold fl_dtor. revert w. generalize (f_in s), (f_head s).
    enough (forall k s h, low (s' <- fl_release Max A k b s h ;; a_dtor A b s')) as H; [intros; by apply H|].
    intros k s0 h. apply low_bind; [|auto]. revert s0 h. induction k as [|k IH]; intros s0 h; cbn [fl_release]; low.
  - intros. unfold fl_alloc. low.
  - intros. unfold fl_free. low.
  - intros mx b s E. destruct (a_max A) eqn:E'; [|done]. injection E as <-. by apply H5.
  - intros o c b s q act E Ha. destruct (a_cd A) eqn:E'; [|done]. injection E as <-. low; try by apply H6.
Qed.

Lemma lo_pair_cd P F o c b s q act : alow P -> alow F -> pair_cd P F = Some o -> low act -> low (o c b s q act).
Proof.
  intros HP HF E Ha. unfold pair_cd in E. destruct (a_owns P) as [oP|]; [|done].
  destruct (a_cd P) as [cP|] eqn:EP, (a_cd F) as [cF|] eqn:EF; try done; injection E as <-;
    destruct (oP b (fst s) q); apply low_bind; try done; try (intros; apply low_ret);
    (by apply (lo_cd _ HP)) || by apply (lo_cd _ HF).
Qed.

Lemma lo_pair_max P F mx b s : alow P -> alow F -> pair_max P F = Some mx -> low (mx b s).
Proof.
  intros HP HF E. unfold pair_max, omap2 in E. destruct (a_max P) as [mP|] eqn:EP; [|done].
  destruct (a_max F) as [mF|] eqn:EF; [|done]. injection E as <-.
  apply low_bind; [by apply (lo_max _ HP)|]. intros. apply low_bind; [by apply (lo_max _ HF)|]. low.
Qed.

Lemma lo_fallback P F : alow P -> alow F -> alow (fallback P F).
Proof.
  intros HP HF. pose proof HP as [H1 H2 H3 H4 _ _]. pose proof HF as [G1 G2 G3 G4 _ _].
  split; cbn [fallback a_init a_dtor a_alloc a_free a_max a_cd].
  - unfold pair_init. low.
  - unfold pair_dtor. low.
  - unfold fb_alloc. low.
  - unfold fb_free. low.
  - intros. by eapply lo_pair_max.
  - intros. by eapply lo_pair_cd.
Qed.

Lemma lo_segragator P F T : alow P -> alow F -> alow (segragator P F T).
Proof.
  intros HP HF. pose proof HP as [H1 H2 H3 H4 _ _]. pose proof HF as [G1 G2 G3 G4 _ _].
  split; cbn [segragator a_init a_dtor a_alloc a_free a_max a_cd].
  - unfold pair_init. low.
  - unfold pair_dtor. low.
  - unfold seg_alloc. low.
  - unfold seg_free. low.
  - intros. by eapply lo_pair_max.
  - intros. by eapply lo_pair_cd.
Qed.

Lemma low_rd_byte a : low (rd_byte a).
Proof. unfold rd_byte. low. Qed.
Global Hint Resolve low_rd_byte : low.
Lemma low_scan_before k p i x : low (scan_before k p i x).
Proof. revert i x. induction k as [|k IH]; intros i x; cbn [scan_before]; low. Qed.
Lemma low_scan_after k p n i x : low (scan_after k p n i x).
Proof. revert i x. induction k as [|k IH]; intros i x; cbn [scan_after]; low. Qed.
Global Hint Resolve low_scan_before low_scan_after : low.

Lemma lo_overflow A : alow A -> alow (overflow A).
Proof.
  intros [H1 H2 H3 H4 H5 H6]. split; cbn [overflow a_init a_dtor a_alloc a_free a_max a_cd].
  - low.
  - unfold ov_dtor. low.
  - unfold ov_alloc. low.
  - unfold ov_free. low.
  - intros mx b s E. destruct (a_max A) eqn:E'; [|done]. injection E as <-. by apply H5.
  - intros o c b s q act E Ha. injection E as <-. unfold ov_cd. destruct (a_cd A) eqn:E'; low; try by apply H6.
Qed.

Lemma lo_shared pl A : alow A -> alow (shared pl A).
Proof.
  intros [H1 H2 H3 H4 H5 H6]. split; cbn [shared a_init a_dtor a_alloc a_free a_max a_cd].
  - low.
  - low.
  - low.
  - low.
  - intros mx b s E. destruct (a_max A) eqn:E'; [|done]. injection E as <-. by apply H5.
  - intros o c b s q act E Ha. destruct (a_cd A) eqn:E'; [|done]. injection E as <-. low; try by apply H6.
Qed.

Lemma lo_cascading pl A : alow A -> alow (cascading pl A).
Proof.
  intros [H1 H2 H3 H4 H5 H6]. unfold cascading.
  generalize (match a_owns A with Some o => o | None => fun _ _ _ => false end). intros owns.
  assert (Hnew : low (new_node pl A)) by (unfold new_node, node_size; low).
  assert (Hdel : forall nd, low (del_node pl A nd)) by (intros; unfold del_node; low).
  split; cbn [cascading_with a_init a_dtor a_alloc a_free a_max a_cd].
  - low.
  - intros _ s. generalize true. induction s as [|nd s IH]; intros first; cbn [casc_release]; low.
  - intros _ s n. unfold casc_alloc. destruct (a_max A) eqn:E; low; try by apply H5.
  - intros _ s p n. unfold casc_free. apply low_bind; [low|]. intros _. generalize false.
    induction s as [|nd s IH]; intros prev; cbn [casc_free_loop]; low.
  - intros mx b s E. destruct (a_max A) eqn:E'; [|done]. injection E as <-. unfold casc_max. low.
  - intros o c b s q act E Ha. destruct (a_cd A) eqn:E'; [|done]. injection E as <-.
    induction s as [|nd s IH]; cbn [casc_cd]; low; try by apply H6.
Qed.

Lemma lo_checked A : alow A -> alow (checked A).
Proof.
  intros [H1 H2 H3 H4 H5 H6]. split; cbn [checked a_init a_dtor a_alloc a_free a_max a_cd].
  - low.
  - low.
  - low.
  - low.
  - intros mx b s E. destruct (a_max A) eqn:E'; [|done]. injection E as <-. by apply H5.
  - intros o c b s q act E Ha. destruct (a_cd A) eqn:E'; [|done]. injection E as <-. low; try by apply H6.
Qed.

Lemma lo_forwarding A : alow A -> alow (forwarding A).
Proof. by intros []. Qed.

Lemma tree_low pl e : alow (den pl e).
Proof.
  induction e as [| | | |Min Max e IH|e IH|p IHp f IHf|T p IHp f IHf|e IH|e IH|e IH|e IH|e IH|e IH]; cbn [den].
  - split; cbn; low; done.
  - split; cbn; low; done.
  - split; cbn; try (unfold lin_init, lin_alloc; by low); try done; intros mx b s [= <-]; low.
  - split; cbn; try (unfold lin_init, lin_alloc; by low); try done; intros mx b s [= <-]; low.
  - by apply lo_freelist.
  - by apply lo_cascading.
  - by apply lo_fallback.
  - by apply lo_segragator.
  - by apply lo_overflow.
  - by apply lo_shared.
  - by apply lo_forwarding.
  - by apply lo_forwarding.
  - by apply lo_forwarding.
  - by apply lo_checked.
Qed.
