(** Replacing the values of elements changes nothing else. *)
From iris.proofmode Require Import tactics.
From Verif Require Import Base Mem Bits AlignedMalloc Allocators Checked Tree Client Env Vector Array HeapPure Heap Mixed Rename.

Local Open Scope N_scope.

Section ren.
  Context (f : value -> value).
  Local Notation rcell := (rcell f).
  Local Notation rworld := (rworld f).
  Local Notation inj := (Inj (=) (=) f).

  Definition ren {X Y} (R : X -> Y -> Prop) (m : M X) (m' : M Y) : Prop := forall w,
    match m w with
    | Ok a w1 e => exists a', m' (rworld w) = Ok a' (rworld w1) e /\ R a a'
    | Err u e => (exists e', trace (m' (rworld w)) = e ++ e') /\ (inj -> m' (rworld w) = Err u e)
    end.

  Lemma ren_ret {X Y} (R : X -> Y -> Prop) a a' : R a a' -> ren R (ret a) (ret a').
  Proof. intros H w. cbn. eauto. Qed.
  Lemma ren_ubm {X Y} (R : X -> Y -> Prop) u : ren R (ubm u) (ubm u).
  Proof. intros w. cbn. split; [by exists []|done]. Qed.
  Lemma ren_err {X Y} (R : X -> Y -> Prop) u m' : (inj -> m' = ubm u) -> ren R (ubm u) m'.
  Proof. intros H w. cbn. split; [eauto|]. intros Hi. by rewrite (H Hi). Qed.
  Lemma ren_emit (R : unit -> unit -> Prop) e : R tt tt -> ren R (emit e) (emit e).
  Proof. intros H w. cbn. eauto. Qed.
  Lemma ren_bind {X X' Y Y'} (R : X -> X' -> Prop) (S : Y -> Y' -> Prop) m m' k k' :
    ren R m m' -> (forall a a', R a a' -> ren S (k a) (k' a')) -> ren S (bind m k) (bind m' k').
  Proof.
    intros Hm Hk w. unfold bind. specialize (Hm w). destruct (m w) as [a w1 e1|u e1].
    - destruct Hm as (a'&->&HR). specialize (Hk a a' HR w1). destruct (k a w1) as [b w2 e2|u e2].
      + destruct Hk as (b'&->&HS). eauto.
      + destruct Hk as ((e'&He)&Hi). split.
        * exists e'. destruct (k' a' (rworld w1)) as [? ? e3|? e3]; cbn in *; subst; by rewrite app_assoc.
        * intros Hf. by rewrite (Hi Hf).
    - destruct Hm as ((e'&He)&Hi). split.
      + destruct (m' (rworld w)) as [a' w1 e2|u' e2]; cbn in *; subst; [|eauto].
        destruct (k' a' w1); cbn; rewrite -app_assoc; eauto.
      + intros Hf. by rewrite (Hi Hf).
  Qed.
  Lemma ren_bind_eq {X Y Y'} (S : Y -> Y' -> Prop) (m m' : M X) k k' :
    ren eq m m' -> (forall a, ren S (k a) (k' a)) -> ren S (bind m k) (bind m' k').
  Proof. intros Hm Hk. apply (ren_bind eq); [done|]. by intros a ? <-. Qed.

  (** * Memory *)
  Lemma rlookup w a : mem (st (rworld w)) !! a = rcell <$> mem (st w) !! a.
  Proof. cbn. by rewrite lookup_fmap. Qed.

  Definition rc (c c' : cell) : Prop := c' = rcell c.
  Definition rcs (cs cs' : list cell) : Prop := cs' = map rcell cs.

  Lemma ren_rd a : ren rc (rd a) (rd a).
  Proof.
    intros w. unfold rd. rewrite rlookup. destruct (mem (st w) !! a) as [c|]; cbn.
    - eexists. split; done.
    - split; [by exists []|done].
  Qed.
  Lemma ren_wr a c c' : rc c c' -> ren eq (wr a c) (wr a c').
  Proof.
    intros -> w. unfold wr. rewrite rlookup. destruct (mem (st w) !! a) as [x|]; cbn.
    - exists tt. split; [|done]. unfold upd_mem. cbn. unfold rworld. cbn. by rewrite fmap_insert.
    - split; [by exists []|done].
  Qed.
  Lemma ren_rds a n : ren rcs (rds a n) (rds a n).
  Proof.
    revert a. induction n as [|n IH]; intros a; cbn [rds]; [by apply ren_ret|].
    apply (ren_bind rc); [apply ren_rd|]. intros c ? ->. apply (ren_bind rcs); [apply IH|].
    intros cs ? ->. by apply ren_ret.
  Qed.
  Lemma ren_wrs a cs cs' : rcs cs cs' -> ren eq (wrs a cs) (wrs a cs').
  Proof.
    intros ->. revert a. induction cs as [|c cs IH]; intros a; cbn [wrs List.map]; [by apply ren_ret|].
    apply ren_bind_eq; [by apply ren_wr|]. intros _. apply IH.
  Qed.
  Lemma rcs_bytes x n : rcs (repeat (Byte x) n) (repeat (Byte x) n).
  Proof. unfold rcs. induction n as [|n IH]; cbn; [done|]. by f_equal. Qed.
  Lemma rcs_undef n : rcs (repeat Undef n) (repeat Undef n).
  Proof. unfold rcs. induction n as [|n IH]; cbn; [done|]. by f_equal. Qed.
  Lemma rcs_enc k x : rcs (enc k x) (enc k x).
  Proof. unfold rcs. revert x. induction k as [|k IH]; intros x; cbn; [done|]. f_equal. apply IH. Qed.
  Lemma rcs_chunk n v : rcs (chunk n v) (chunk n (f v)).
  Proof. unfold rcs, chunk. rewrite map_map. by apply map_ext. Qed.
  Lemma rcs_ochunk n v : rcs (ochunk n v) (ochunk n (f v)).
  Proof. unfold rcs, ochunk. rewrite map_map. by apply map_ext. Qed.
  Lemma rcs_chunks n l : rcs (concat (map (chunk n) l)) (concat (map (chunk n) (map f l))).
  Proof.
    unfold rcs. rewrite concat_map !map_map. f_equal. apply map_ext. intros v. apply rcs_chunk.
  Qed.

  Lemma ren_memset a x n : ren eq (memset a x n) (memset a x n).
  Proof. apply ren_wrs, rcs_bytes. Qed.
  Lemma ren_memcpy d s n : ren eq (memcpy d s n) (memcpy d s n).
  Proof.
    unfold memcpy. destruct (n =? 0); [by apply ren_ret|]. destruct (_ && _); [apply ren_ubm|].
    apply (ren_bind rcs); [apply ren_rds|]. intros cs cs' H. by apply ren_wrs.
  Qed.
  Lemma ren_memmove d s n : ren eq (memmove d s n) (memmove d s n).
  Proof.
    unfold memmove. destruct (n =? 0); [by apply ren_ret|].
    apply (ren_bind rcs); [apply ren_rds|]. intros cs cs' H. by apply ren_wrs.
  Qed.

  Lemma dec_ren cs : dec (map rcell cs) = dec cs.
  Proof. induction cs as [|[] cs IH]; cbn; [done..| |done|done]. by rewrite IH. Qed.
  Lemma ren_rd_ptr a : ren eq (rd_ptr a) (rd_ptr a).
  Proof.
    unfold rd_ptr. apply (ren_bind rcs); [apply ren_rds|]. intros cs ? ->. rewrite dec_ren.
    destruct (dec cs); [by apply ren_ret|apply ren_ubm].
  Qed.
  Lemma ren_wr_ptr a p : ren eq (wr_ptr a p) (wr_ptr a p).
  Proof. apply ren_wrs, rcs_enc. Qed.
  Lemma ren_rd_byte a : ren eq (rd_byte a) (rd_byte a).
  Proof.
    unfold rd_byte. apply (ren_bind rc); [apply ren_rd|]. intros c ? ->.
    destruct c; cbn; [apply ren_ubm|by apply ren_ret|apply ren_ubm|apply ren_ubm].
  Qed.

  Lemma vacant_ren w a n : vacant a n (st (rworld w)) = vacant a n (st w).
  Proof.
    revert a. induction n as [|n IH]; intros a; cbn [vacant]; [done|]. rewrite rlookup IH. cbn.
    by destruct (mem (st w) !! a).
  Qed.
  Lemma fill_ren a n : rcell <$> fill a (repeat Undef n) = fill a (repeat Undef n).
  Proof. revert a. induction n as [|n IH]; intros a; cbn; [apply fmap_empty|]. by rewrite fmap_insert IH. Qed.
  Lemma clear_ren p n m : rcell <$> clear p n m = clear p n (rcell <$> m).
  Proof. revert p. induction n as [|n IH]; intros p; cbn; [done|]. by rewrite fmap_delete IH. Qed.
  Lemma ren_malloc al n : ren eq (malloc al n) (malloc al n).
  Proof.
    intros w. unfold malloc, malloc_valid. rewrite vacant_ren. change (orc (rworld w)) with (orc w). change (tick (rworld w)) with (tick w).
    destruct (_ && _ && _ && _); eexists; (split; [|done]); [|done]. f_equal. unfold rworld. cbn. rewrite map_fmap_union fill_ren. done.
  Qed.
  Lemma ren_mfree p : ren eq (mfree p) (mfree p).
  Proof.
    intros w. unfold mfree. destruct (p =? 0); [by exists tt|]. cbn.
    destruct (mtab (st w) !! p) as [n|]; [|split; [by exists []|done]]. exists tt. split; [|done].
    f_equal. unfold rworld. cbn. by rewrite clear_ren.
  Qed.
  Lemma ren_ret_eq {X} (a : X) : ren eq (ret a) (ret a).
  Proof. by apply ren_ret. Qed.
  Lemma ren_ubm_eq {X} u : ren eq (ubm u : M X) (ubm u).
  Proof. apply ren_ubm. Qed.
  Lemma ren_assert c : ren eq (ktl_assert c) (ktl_assert c).
  Proof. destruct c; [by apply ren_ret|by apply ren_emit]. Qed.
End ren.

Create HintDb ren discriminated.
Global Hint Resolve ren_ret_eq ren_ubm_eq ren_assert ren_malloc ren_mfree ren_rd_ptr ren_rd_byte ren_memset ren_wr_ptr ren_memcpy ren_memmove : ren.

Ltac ren :=
  repeat (intros; first
    [ solve [auto with ren]
    | apply ren_bind_eq
    | match goal with
      | |- ren _ _ (if ?c then _ else _) _ => destruct c
      | |- ren _ _ (match ?x with _ => _ end) _ => destruct x
      | |- ren _ _ (let '(_, _) := ?x in _) _ => destruct x
      end
    | by apply ren_emit ]).

(** * Allocators *)
Section alloc.
  Context (f : value -> value).
  Local Notation ren := (ren f).

  Lemma ren_am pl n al : ren eq (aligned_malloc pl n al) (aligned_malloc pl n al).
  Proof. unfold aligned_malloc, posix_memalign. ren. Qed.
  Lemma ren_af pl p : ren eq (aligned_free pl p) (aligned_free pl p).
  Proof. unfold aligned_free. ren. Qed.
  Hint Resolve ren_am ren_af : ren.

  Record aren (A : alloc) : Prop := {
    an_init b : ren eq (a_init A b) (a_init A b);
    an_dtor b s : ren eq (a_dtor A b s) (a_dtor A b s);
    an_alloc b s n : ren eq (a_alloc A b s n) (a_alloc A b s n);
    an_free b s p n : ren eq (a_free A b s p n) (a_free A b s p n);
    an_max mx b s : a_max A = Some mx -> ren eq (mx b s) (mx b s);
    an_cd o c b s q act act' : a_cd A = Some o -> ren eq act act' -> ren eq (o c b s q act) (o c b s q act')
  }.

  Lemma an_freelist Min Max A : aren A -> aren (freelist Min Max A).
  Proof.
    intros [H1 H2 H3 H4 H5 H6]. split; cbn [freelist a_init a_dtor a_alloc a_free a_max a_cd].
    - ren.
    - intros b s.
      enough (forall k s h, ren eq (s' <- fl_release Max A k b s h ;; a_dtor A b s') (s' <- fl_release Max A k b s h ;; a_dtor A b s')) as H.
      { intros w. unfold fl_dtor. replace (size (mem (st (rworld f w)))) with (size (mem (st w))); [by apply H|]. cbn. by rewrite map_size_fmap. }
      intros k s0 h. apply ren_bind_eq; [|auto]. revert s0 h. induction k as [|k IH]; intros s0 h; cbn [fl_release]; ren.
    - intros. unfold fl_alloc. ren.
    - intros. unfold fl_free. ren.
    - intros mx b s E. destruct (a_max A) eqn:E'; [|done]. injection E as <-. by apply H5.
    - intros o c b s q act act' E Ha. destruct (a_cd A) eqn:E'; [|done]. injection E as <-. ren; try by apply H6.
  Qed.

  Lemma an_pair_cd P F o c b s q act act' : aren P -> aren F -> pair_cd P F = Some o -> ren eq act act' ->
    ren eq (o c b s q act) (o c b s q act').
  Proof.
    intros HP HF E Ha. unfold pair_cd in E. destruct (a_owns P) as [oP|]; [|done].
    destruct (a_cd P) as [cP|] eqn:EP, (a_cd F) as [cF|] eqn:EF; try done; injection E as <-;
      destruct (oP b (fst s) q); apply ren_bind_eq; try done; try (intros; apply ren_ret_eq);
      (by apply (an_cd _ HP)) || by apply (an_cd _ HF).
  Qed.

  Lemma an_pair_max P F mx b s : aren P -> aren F -> pair_max P F = Some mx -> ren eq (mx b s) (mx b s).
  Proof.
    intros HP HF E. unfold pair_max, omap2 in E. destruct (a_max P) as [mP|] eqn:EP; [|done].
    destruct (a_max F) as [mF|] eqn:EF; [|done]. injection E as <-.
    apply ren_bind_eq; [by apply (an_max _ HP)|]. intros. apply ren_bind_eq; [by apply (an_max _ HF)|]. ren.
  Qed.

  Lemma an_fallback P F : aren P -> aren F -> aren (fallback P F).
  Proof.
    intros HP HF. pose proof HP as [H1 H2 H3 H4 _ _]. pose proof HF as [G1 G2 G3 G4 _ _].
    split; cbn [fallback a_init a_dtor a_alloc a_free a_max a_cd].
    - unfold pair_init. ren.
    - unfold pair_dtor. ren.
    - unfold fb_alloc. ren.
    - unfold fb_free. ren.
    - intros. by eapply an_pair_max.
    - intros. by eapply an_pair_cd.
  Qed.

  Lemma an_segragator P F T : aren P -> aren F -> aren (segragator P F T).
  Proof.
    intros HP HF. pose proof HP as [H1 H2 H3 H4 _ _]. pose proof HF as [G1 G2 G3 G4 _ _].
    split; cbn [segragator a_init a_dtor a_alloc a_free a_max a_cd].
    - unfold pair_init. ren.
    - unfold pair_dtor. ren.
    - unfold seg_alloc. ren.
    - unfold seg_free. ren.
    - intros. by eapply an_pair_max.
    - intros. by eapply an_pair_cd.
  Qed.

  Lemma ren_scan_before k p i x : ren eq (scan_before k p i x) (scan_before k p i x).
  Proof. revert i x. induction k as [|k IH]; intros i x; cbn [scan_before]; ren. Qed.
  Lemma ren_scan_after k p n i x : ren eq (scan_after k p n i x) (scan_after k p n i x).
  Proof. revert i x. induction k as [|k IH]; intros i x; cbn [scan_after]; ren. Qed.
  Hint Resolve ren_scan_before ren_scan_after : ren.

  Lemma an_overflow A : aren A -> aren (overflow A).
  Proof.
    intros [H1 H2 H3 H4 H5 H6]. split; cbn [overflow a_init a_dtor a_alloc a_free a_max a_cd].
    - ren.
    - unfold ov_dtor. ren.
    - unfold ov_alloc. ren.
    - unfold ov_free. ren.
    - intros mx b s E. destruct (a_max A) eqn:E'; [|done]. injection E as <-. by apply H5.
    - intros o c b s q act act' E Ha. injection E as <-. unfold ov_cd. destruct (a_cd A) eqn:E'; ren; try by apply H6.
  Qed.

  Lemma an_shared pl A : aren A -> aren (shared pl A).
  Proof.
    intros [H1 H2 H3 H4 H5 H6]. split; cbn [shared a_init a_dtor a_alloc a_free a_max a_cd].
    - ren.
    - ren.
    - ren.
    - ren.
    - intros mx b s E. destruct (a_max A) eqn:E'; [|done]. injection E as <-. by apply H5.
    - intros o c b s q act act' E Ha. destruct (a_cd A) eqn:E'; [|done]. injection E as <-. ren; try by apply H6.
  Qed.

  Lemma an_cascading pl A : aren A -> aren (cascading pl A).
  Proof.
    intros [H1 H2 H3 H4 H5 H6]. unfold cascading.
    generalize (match a_owns A with Some o => o | None => fun _ _ _ => false end). intros owns.
    assert (Hnew : ren eq (new_node pl A) (new_node pl A)) by (unfold new_node; ren).
    assert (Hdel : forall nd, ren eq (del_node pl A nd) (del_node pl A nd)) by (intros; unfold del_node; ren).
    split; cbn [cascading_with a_init a_dtor a_alloc a_free a_max a_cd].
    - ren.
    - intros _ s. generalize true. induction s as [|nd s IH]; intros first; cbn [casc_release]; ren.
    - intros _ s n. unfold casc_alloc. destruct (a_max A) eqn:E; ren; try by apply H5.
    - intros _ s p n. unfold casc_free. apply ren_bind_eq; [ren|]. intros _. generalize false.
      induction s as [|nd s IH]; intros prev; cbn [casc_free_loop]; ren.
    - intros mx b s E. destruct (a_max A) eqn:E'; [|done]. injection E as <-. unfold casc_max. ren.
    - intros o c b s q act act' E Ha. destruct (a_cd A) eqn:E'; [|done]. injection E as <-.
      induction s as [|nd s IH]; cbn [casc_cd]; ren; try by apply H6.
  Qed.

  Lemma an_checked A : aren A -> aren (checked A).
  Proof.
    intros [H1 H2 H3 H4 H5 H6]. split; cbn [checked a_init a_dtor a_alloc a_free a_max a_cd].
    - ren.
    - ren.
    - ren.
    - ren.
    - intros mx b s E. destruct (a_max A) eqn:E'; [|done]. injection E as <-. by apply H5.
    - intros o c b s q act act' E Ha. destruct (a_cd A) eqn:E'; [|done]. injection E as <-. ren; try by apply H6.
  Qed.

  Lemma an_forwarding A : aren A -> aren (forwarding A).
  Proof. by intros []. Qed.

  Lemma tree_ren pl e : aren (den pl e).
  Proof.
    induction e as [| | | |Min Max e IH|e IH|p IHp g IHg|T p IHp g IHg|e IH|e IH|e IH|e IH|e IH|e IH]; cbn [den].
    - split; cbn; ren; done.
    - split; cbn; ren; done.
    - split; cbn; try (unfold lin_init, lin_alloc; by ren); try done; intros mx b s [= <-]; ren.
    - split; cbn; try (unfold lin_init, lin_alloc; by ren); try done; intros mx b s [= <-]; ren.
    - by apply an_freelist.
    - by apply an_cascading.
    - by apply an_fallback.
    - by apply an_segragator.
    - by apply an_overflow.
    - by apply an_shared.
    - by apply an_forwarding.
    - by apply an_forwarding.
    - by apply an_forwarding.
    - by apply an_checked.
  Qed.

  (** * Programs that write indeterminate bytes *)
End alloc.
