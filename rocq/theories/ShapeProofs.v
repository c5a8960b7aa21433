(** Neither the values of elements nor the order they are kept in influence anything else. *)
From iris.proofmode Require Import tactics.
From Verif Require Import Base Mem Bits AlignedMalloc Allocators Checked Tree Client Env Vector Array HeapPure Heap Mixed Rename Shape.

Local Open Scope N_scope.

Lemma sc_refl c : sc c c.
Proof. by destruct c. Qed.
Lemma sc_sym c d : sc c d -> sc d c.
Proof. destruct c, d; cbn; done. Qed.
Lemma sc_trans c d e : sc c d -> sc d e -> sc c e.
Proof. destruct c, d, e; cbn; try done. congruence. Qed.
Lemma soc_refl c : soc c c.
Proof. destruct c; cbn; [apply sc_refl|done]. Qed.
Lemma soc_sym c d : soc c d -> soc d c.
Proof. destruct c, d; cbn; try done. apply sc_sym. Qed.
Lemma soc_trans c d e : soc c d -> soc d e -> soc c e.
Proof. destruct c, d, e; cbn; try done. apply sc_trans. Qed.
Lemma sw_refl w : sw w w.
Proof. split_and!; try done. intros a. apply soc_refl. Qed.
Lemma sw_sym w w' : sw w w' -> sw w' w.
Proof. intros (H&?&?&?). split_and!; try done. intros a. apply soc_sym, H. Qed.
Lemma sw_trans w w' w'' : sw w w' -> sw w' w'' -> sw w w''.
Proof. intros (H&?&?&?) (H'&?&?&?). split_and!; try congruence. intros a. eapply soc_trans; [apply H|apply H']. Qed.
Lemma sw_size w w' : sw w w' -> size (mem (st w)) = size (mem (st w')).
Proof.
  intros (H&_). rewrite -!size_dom. f_equal. apply set_eq. intros a. rewrite !elem_of_dom. specialize (H a).
  destruct (mem (st w) !! a), (mem (st w') !! a); cbn in H; try done; split; by eauto.
Qed.
(** In step until one of the two gets stuck. *)
Definition sim {X Y} (R : X -> Y -> Prop) (m : M X) (m' : M Y) : Prop := forall w w', sw w w' ->
  match m w, m' w' with
  | Ok a w1 e, Ok a' w1' e' => e = e' /\ R a a' /\ sw w1 w1'
  | Err _ e, Ok _ _ e' => e `prefix_of` e'
  | Ok _ _ e, Err _ e' => e' `prefix_of` e
  | Err _ e, Err _ e' => e `prefix_of` e' \/ e' `prefix_of` e
  end.

Lemma sim_ret {X Y} (R : X -> Y -> Prop) a a' : R a a' -> sim R (ret a) (ret a').
Proof. intros H w w' Hw. done. Qed.
Lemma sim_ubm {X Y} (R : X -> Y -> Prop) u m' : sim R (ubm u) m'.
Proof. intros w w' Hw. cbn. destruct (m' w'); [|left]; apply prefix_nil. Qed.
Lemma sim_ubm_r {X Y} (R : X -> Y -> Prop) u m : sim R m (ubm u).
Proof. intros w w' Hw. cbn. destruct (m w); [|right]; apply prefix_nil. Qed.
Lemma sim_emit (R : unit -> unit -> Prop) e : R tt tt -> sim R (emit e) (emit e).
Proof. intros H w w' Hw. done. Qed.
Lemma sim_bind {X X' Y Y'} (R : X -> X' -> Prop) (S : Y -> Y' -> Prop) m m' k k' :
  sim R m m' -> (forall a a', R a a' -> sim S (k a) (k' a')) -> sim S (bind m k) (bind m' k').
Proof.
  intros Hm Hk w w' Hw. unfold bind. specialize (Hm w w' Hw). destruct (m w) as [a w1 e1|u e1].
  - destruct (m' w') as [a' w1' e1'|u' e1']; cbn in Hm.
    + destruct Hm as (<-&HR&Hw1). specialize (Hk a a' HR w1 w1' Hw1).
      destruct (k a w1) as [b w2 e2|u e2], (k' a' w1') as [b' w2' e2'|u' e2']; cbn in Hk |- *.
      * by destruct Hk as (<-&?&?).
      * by apply prefix_app.
      * by apply prefix_app.
      * destruct Hk; [left|right]; by apply prefix_app.
    + destruct (k a w1); [|right]; by apply prefix_app_r.
  - destruct (m' w') as [a' w1' e1'|u' e1']; cbn in Hm; [|done]. destruct (k' a' w1'); [|left]; by apply prefix_app_r.
Qed.
Lemma sim_bind_eq {X Y Y'} (S : Y -> Y' -> Prop) (m m' : M X) k k' :
  sim eq m m' -> (forall a, sim S (k a) (k' a)) -> sim S (bind m k) (bind m' k').
Proof. intros Hm Hk. apply (sim_bind eq); [done|]. by intros a ? <-. Qed.
Lemma sim_impl {X Y} (R S : X -> Y -> Prop) m m' : sim R m m' -> (forall a a', R a a' -> S a a') -> sim S m m'.
Proof.
  intros H HS w w' Hw. specialize (H w w' Hw). destruct (m w), (m' w'); try done. destruct H as (?&?&?). eauto.
Qed.

(** * Memory *)
Local Notation scs := (Forall2 sc).

Lemma sim_rd a : sim sc (rd a) (rd a).
Proof.
  intros w w' Hw. unfold rd. destruct Hw as (H&Hr). pose proof (H a) as Ha.
  destruct (mem (st w) !! a), (mem (st w') !! a); cbn in Ha |- *; try done. left. apply prefix_nil.
Qed.
Lemma sim_wr a c c' : sc c c' -> sim eq (wr a c) (wr a c').
Proof.
  intros Hc w w' Hw. unfold wr. destruct Hw as (H&?&?&?). pose proof (H a) as Ha.
  destruct (mem (st w) !! a), (mem (st w') !! a); cbn in Ha |- *; try done; try (left; apply prefix_nil).
  split_and!; try done. split_and!; try done. intros i. cbn.
  destruct (decide (i = a)) as [->|Hn]; [by rewrite !lookup_insert|by rewrite !lookup_insert_ne].
Qed.
Lemma sim_rds a n : sim scs (rds a n) (rds a n).
Proof.
  revert a. induction n as [|n IH]; intros a; cbn [rds]; [by apply sim_ret|].
  apply (sim_bind sc); [apply sim_rd|]. intros c c' Hc. apply (sim_bind scs); [apply IH|].
  intros cs cs' Hcs. apply sim_ret. by constructor.
Qed.
Lemma sim_wrs a cs cs' : scs cs cs' -> sim eq (wrs a cs) (wrs a cs').
Proof.
  intros H. revert a. induction H as [|c c' cs cs' Hc _ IH]; intros a; cbn [wrs]; [by apply sim_ret|].
  apply sim_bind_eq; [by apply sim_wr|]. intros _. apply IH.
Qed.
Lemma scs_refl cs : scs cs cs.
Proof. induction cs; constructor; [apply sc_refl|done]. Qed.
Lemma scs_chunk n v v' : scs (chunk n v) (chunk n v').
Proof. unfold chunk. generalize (seq 0 n). induction l; cbn [List.map]; by constructor. Qed.
Lemma scs_ochunk n v v' : scs (ochunk n v) (ochunk n v').
Proof. unfold ochunk. generalize (seq 0 n). induction l; cbn [List.map]; by constructor. Qed.
Lemma scs_chunks n l l' : length l = length l' -> scs (concat (map (chunk n) l)) (concat (map (chunk n) l')).
Proof.
  revert l'. induction l as [|v l IH]; intros [|v' l'] H; try done; [constructor|]. injection H as H. cbn [List.map concat].
  apply Forall2_app; [apply scs_chunk|by apply IH].
Qed.
Lemma sim_memset a x n : sim eq (memset a x n) (memset a x n).
Proof. apply sim_wrs, scs_refl. Qed.
Lemma sim_memcpy d s n : sim eq (memcpy d s n) (memcpy d s n).
Proof.
  unfold memcpy. destruct (n =? 0); [by apply sim_ret|]. destruct (_ && _); [apply sim_ubm|].
  apply (sim_bind scs); [apply sim_rds|]. intros cs cs' H. by apply sim_wrs.
Qed.
Lemma sim_memmove d s n : sim eq (memmove d s n) (memmove d s n).
Proof.
  unfold memmove. destruct (n =? 0); [by apply sim_ret|].
  apply (sim_bind scs); [apply sim_rds|]. intros cs cs' H. by apply sim_wrs.
Qed.
Lemma dec_sim cs cs' : scs cs cs' -> dec cs = dec cs'.
Proof. induction 1 as [|c c' cs cs' Hc _ IH]; [done|]. destruct c, c'; cbn in Hc |- *; try done. by rewrite Hc IH. Qed.
Lemma sim_rd_ptr a : sim eq (rd_ptr a) (rd_ptr a).
Proof.
  unfold rd_ptr. apply (sim_bind scs); [apply sim_rds|]. intros cs cs' H. rewrite (dec_sim _ _ H).
  destruct (dec cs'); [by apply sim_ret|apply sim_ubm].
Qed.
Lemma sim_wr_ptr a p : sim eq (wr_ptr a p) (wr_ptr a p).
Proof. apply sim_wrs, scs_refl. Qed.
Lemma sim_rd_byte a : sim eq (rd_byte a) (rd_byte a).
Proof.
  unfold rd_byte. apply (sim_bind sc); [apply sim_rd|]. intros c c' Hc.
  destruct c, c'; cbn in Hc; try done; apply sim_ubm.
Qed.
Lemma vacant_sim w w' a n : sw w w' -> vacant a n (st w) = vacant a n (st w').
Proof.
  intros Hw. revert a. induction n as [|n IH]; intros a; cbn [vacant]; [done|]. rewrite IH (proj1 (proj2 Hw)). pose proof (proj1 Hw a) as Ha.
  destruct (mem (st w) !! a), (mem (st w') !! a); cbn in Ha; done.
Qed.
Lemma sim_malloc al n : sim eq (malloc al n) (malloc al n).
Proof.
  intros w w' Hw. unfold malloc, malloc_valid. pose proof Hw as (Hm&Ht&Ho&Hk). rewrite (vacant_sim w w' _ _ Hw) Ho Hk.
  destruct (_ && _ && _ && _); cbn; (split_and!; [done|done|]).
  - split_and!; cbn; try congruence. intros a. rewrite !lookup_union. specialize (Hm a).
    destruct (mem (st w) !! a), (mem (st w') !! a), (fill _ _ !! a); cbn in Hm |- *; try done. apply sc_refl.
  - split_and!; cbn; try congruence. done.
Qed.
Lemma lookup_clear_sim p n (m m' : gmap N cell) a : (forall a, soc (m !! a) (m' !! a)) -> soc (clear p n m !! a) (clear p n m' !! a).
Proof.
  intros H. revert p. induction n as [|n IH]; intros p; cbn; [apply H|].
  destruct (decide (a = p)) as [->|Hn]; [by rewrite !lookup_delete|rewrite !lookup_delete_ne //].
Qed.
Lemma sim_mfree p : sim eq (mfree p) (mfree p).
Proof.
  intros w w' Hw. unfold mfree. destruct (p =? 0); [done|]. pose proof Hw as (Hm&Ht&Ho&Hk). rewrite -Ht.
  destruct (mtab (st w) !! p) as [n|]; cbn; [|left; apply prefix_nil]. split_and!; try done. split_and!; cbn; try congruence.
  intros a. by apply lookup_clear_sim.
Qed.
Lemma sim_ret_eq {X} (a : X) : sim eq (ret a) (ret a).
Proof. by apply sim_ret. Qed.
Lemma sim_ubm_eq {X} u : sim eq (ubm u : M X) (ubm u).
Proof. apply sim_ubm. Qed.
Lemma sim_assert c : sim eq (ktl_assert c) (ktl_assert c).
Proof. destruct c; [by apply sim_ret|by apply sim_emit]. Qed.

Create HintDb sim discriminated.
Global Hint Resolve sim_ret_eq sim_ubm_eq sim_assert sim_malloc sim_mfree sim_rd_ptr sim_rd_byte sim_memset sim_wr_ptr sim_memcpy sim_memmove : sim.

Ltac sim :=
  repeat (intros; first
    [ solve [auto with sim]
    | apply sim_bind_eq
    | match goal with
      | |- sim _ (if ?c then _ else _) _ => destruct c
      | |- sim _ (match ?x with _ => _ end) _ => destruct x
      | |- sim _ (let '(_, _) := ?x in _) _ => destruct x
      end
    | by apply sim_emit ]).

(** * Allocators *)
Section alloc.
  Lemma sim_am pl n al : sim eq (aligned_malloc pl n al) (aligned_malloc pl n al).
  Proof. unfold aligned_malloc, posix_memalign. sim. Qed.
  Lemma sim_af pl p : sim eq (aligned_free pl p) (aligned_free pl p).
  Proof. unfold aligned_free. sim. Qed.
  Hint Resolve sim_am sim_af : sim.

  Record asim (A : alloc) : Prop := {
    as_init b : sim eq (a_init A b) (a_init A b);
    as_dtor b s : sim eq (a_dtor A b s) (a_dtor A b s);
    as_alloc b s n : sim eq (a_alloc A b s n) (a_alloc A b s n);
    as_free b s p n : sim eq (a_free A b s p n) (a_free A b s p n);
    as_max mx b s : a_max A = Some mx -> sim eq (mx b s) (mx b s);
    as_cd o c b s q act act' : a_cd A = Some o -> sim eq act act' -> sim eq (o c b s q act) (o c b s q act')
  }.

  Lemma as_freelist Min Max A : asim A -> asim (freelist Min Max A).
  Proof.
    intros [H1 H2 H3 H4 H5 H6]. split; cbn [freelist a_init a_dtor a_alloc a_free a_max a_cd].
    - sim.
    - intros b s.
      enough (forall k s h, sim eq (s' <- fl_release Max A k b s h ;; a_dtor A b s') (s' <- fl_release Max A k b s h ;; a_dtor A b s')) as H.
      { intros w w' Hw. unfold fl_dtor. replace (size (mem (st w'))) with (size (mem (st w))) by (by apply sw_size). by apply H. }
      intros k s0 h. apply sim_bind_eq; [|auto]. revert s0 h. induction k as [|k IH]; intros s0 h; cbn [fl_release]; sim.
    - intros. unfold fl_alloc. sim.
    - intros. unfold fl_free. sim.
    - intros mx b s E. destruct (a_max A) eqn:E'; [|done]. injection E as <-. by apply H5.
    - intros o c b s q act act' E Ha. destruct (a_cd A) eqn:E'; [|done]. injection E as <-. sim; try by apply H6.
  Qed.

  Lemma as_pair_cd P F o c b s q act act' : asim P -> asim F -> pair_cd P F = Some o -> sim eq act act' ->
    sim eq (o c b s q act) (o c b s q act').
  Proof.
    intros HP HF E Ha. unfold pair_cd in E. destruct (a_owns P) as [oP|]; [|done].
    destruct (a_cd P) as [cP|] eqn:EP, (a_cd F) as [cF|] eqn:EF; try done; injection E as <-;
      destruct (oP b (fst s) q); apply sim_bind_eq; try done; try (intros; apply sim_ret_eq);
      (by apply (as_cd _ HP)) || by apply (as_cd _ HF).
  Qed.

  Lemma as_pair_max P F mx b s : asim P -> asim F -> pair_max P F = Some mx -> sim eq (mx b s) (mx b s).
  Proof.
    intros HP HF E. unfold pair_max, omap2 in E. destruct (a_max P) as [mP|] eqn:EP; [|done].
    destruct (a_max F) as [mF|] eqn:EF; [|done]. injection E as <-.
    apply sim_bind_eq; [by apply (as_max _ HP)|]. intros. apply sim_bind_eq; [by apply (as_max _ HF)|]. sim.
  Qed.

  Lemma as_fallback P F : asim P -> asim F -> asim (fallback P F).
  Proof.
    intros HP HF. pose proof HP as [H1 H2 H3 H4 _ _]. pose proof HF as [G1 G2 G3 G4 _ _].
    split; cbn [fallback a_init a_dtor a_alloc a_free a_max a_cd].
    - unfold pair_init. sim.
    - unfold pair_dtor. sim.
    - unfold fb_alloc. sim.
    - unfold fb_free. sim.
    - intros. by eapply as_pair_max.
    - intros. by eapply as_pair_cd.
  Qed.

  Lemma as_segragator P F T : asim P -> asim F -> asim (segragator P F T).
  Proof.
    intros HP HF. pose proof HP as [H1 H2 H3 H4 _ _]. pose proof HF as [G1 G2 G3 G4 _ _].
    split; cbn [segragator a_init a_dtor a_alloc a_free a_max a_cd].
    - unfold pair_init. sim.
    - unfold pair_dtor. sim.
    - unfold seg_alloc. sim.
    - unfold seg_free. sim.
    - intros. by eapply as_pair_max.
    - intros. by eapply as_pair_cd.
  Qed.

  Lemma sim_scan_before k p i x : sim eq (scan_before k p i x) (scan_before k p i x).
  Proof. revert i x. induction k as [|k IH]; intros i x; cbn [scan_before]; sim. Qed.
  Lemma sim_scan_after k p n i x : sim eq (scan_after k p n i x) (scan_after k p n i x).
  Proof. revert i x. induction k as [|k IH]; intros i x; cbn [scan_after]; sim. Qed.
  Hint Resolve sim_scan_before sim_scan_after : sim.

  Lemma as_overflow A : asim A -> asim (overflow A).
  Proof.
    intros [H1 H2 H3 H4 H5 H6]. split; cbn [overflow a_init a_dtor a_alloc a_free a_max a_cd].
    - sim.
    - unfold ov_dtor. sim.
    - unfold ov_alloc. sim.
    - unfold ov_free. sim.
    - intros mx b s E. destruct (a_max A) eqn:E'; [|done]. injection E as <-. by apply H5.
    - intros o c b s q act act' E Ha. injection E as <-. unfold ov_cd. destruct (a_cd A) eqn:E'; sim; try by apply H6.
  Qed.

  Lemma as_shared pl A : asim A -> asim (shared pl A).
  Proof.
    intros [H1 H2 H3 H4 H5 H6]. split; cbn [shared a_init a_dtor a_alloc a_free a_max a_cd].
    - sim.
    - sim.
    - sim.
    - sim.
    - intros mx b s E. destruct (a_max A) eqn:E'; [|done]. injection E as <-. by apply H5.
    - intros o c b s q act act' E Ha. destruct (a_cd A) eqn:E'; [|done]. injection E as <-. sim; try by apply H6.
  Qed.

  Lemma as_cascading pl A : asim A -> asim (cascading pl A).
  Proof.
    intros [H1 H2 H3 H4 H5 H6]. unfold cascading.
    generalize (match a_owns A with Some o => o | None => fun _ _ _ => false end). intros owns.
    assert (Hnew : sim eq (new_node pl A) (new_node pl A)) by (unfold new_node; sim).
    assert (Hdel : forall nd, sim eq (del_node pl A nd) (del_node pl A nd)) by (intros; unfold del_node; sim).
    split; cbn [cascading_with a_init a_dtor a_alloc a_free a_max a_cd].
    - sim.
    - intros _ s. generalize true. induction s as [|nd s IH]; intros first; cbn [casc_release]; sim.
    - intros _ s n. unfold casc_alloc. destruct (a_max A) eqn:E; sim; try by apply H5.
    - intros _ s p n. unfold casc_free. apply sim_bind_eq; [sim|]. intros _. generalize false.
      induction s as [|nd s IH]; intros prev; cbn [casc_free_loop]; sim.
    - intros mx b s E. destruct (a_max A) eqn:E'; [|done]. injection E as <-. unfold casc_max. sim.
    - intros o c b s q act act' E Ha. destruct (a_cd A) eqn:E'; [|done]. injection E as <-.
      induction s as [|nd s IH]; cbn [casc_cd]; sim; try by apply H6.
  Qed.

  Lemma as_checked A : asim A -> asim (checked A).
  Proof.
    intros [H1 H2 H3 H4 H5 H6]. split; cbn [checked a_init a_dtor a_alloc a_free a_max a_cd].
    - sim.
    - sim.
    - sim.
    - sim.
    - intros mx b s E. destruct (a_max A) eqn:E'; [|done]. injection E as <-. by apply H5.
    - intros o c b s q act act' E Ha. destruct (a_cd A) eqn:E'; [|done]. injection E as <-. sim; try by apply H6.
  Qed.

  Lemma as_forwarding A : asim A -> asim (forwarding A).
  Proof. by intros []. Qed.

  Lemma tree_sim pl e : asim (den pl e).
  Proof.
    induction e as [| | | |Min Max e IH|e IH|p IHp g IHg|T p IHp g IHg|e IH|e IH|e IH|e IH|e IH|e IH]; cbn [den].
    - split; cbn; sim; done.
    - split; cbn; sim; done.
    - split; cbn; try (unfold lin_init, lin_alloc; by sim); try done; intros mx b s [= <-]; sim.
    - split; cbn; try (unfold lin_init, lin_alloc; by sim); try done; intros mx b s [= <-]; sim.
    - by apply as_freelist.
    - by apply as_cascading.
    - by apply as_fallback.
    - by apply as_segragator.
    - by apply as_overflow.
    - by apply as_shared.
    - by apply as_forwarding.
    - by apply as_forwarding.
    - by apply as_forwarding.
    - by apply as_checked.
  Qed.

End alloc.
