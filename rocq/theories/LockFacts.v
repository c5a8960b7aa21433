(** What the members of compositions and the operations of containers do with mutexes. *)
From Coq Require Import ssreflect.
From Verif Require Import Base Mem AlignedMalloc Allocators Checked Tree Client Env Vector Array HeapPure Heap Upstream Locks LockMachine.

Local Open Scope N_scope.

Definition is_lock (ev : event) : bool := match ev with EvLock _ _ | EvUnlock _ _ => true | _ => false end.

(** Properties of traces that only concern mutexes and are closed under composition. *)
Class good (Q : list event -> Prop) : Prop := {
  good_nil : Q [];
  good_app : forall e e', Q e -> Q e' -> Q (e ++ e');
  good_one : forall ev, is_lock ev = false -> Q [ev] }.
Definition still (Q : list event -> Prop) {X} (m : M X) : Prop := forall w, match m w with Ok _ _ e => Q e | Err _ _ => True end.

Section still.
Context {Q : list event -> Prop} {HQ : good Q}.
Local Notation still := (still Q).

Lemma still_ret {X} (x : X) : still (ret x).
Proof using HQ. intros w. apply good_nil. Qed.
Lemma still_ubm {X} u : still (ubm (A:=X) u).
Proof using. done. Qed.
Lemma still_emit ev : is_lock ev = false -> still (emit ev).
Proof using HQ. intros H w. by apply good_one. Qed.
Lemma still_assert c : still (ktl_assert c).
Proof using HQ. destruct c; [apply still_ret|by apply still_emit]. Qed.
Lemma still_bind {X Y} (m : M X) (f : X -> M Y) : still m -> (forall x, still (f x)) -> still (bind m f).
Proof using HQ.
  intros Hm Hf w. unfold bind. specialize (Hm w). destruct (m w) as [x w1 e1|]; [|done]. specialize (Hf x w1).
  destruct (f x w1); [|done]. by apply good_app.
Qed.
Lemma still_rd a : still (rd a).
Proof using HQ. intros w. unfold rd. destruct (mem _ !! a); [apply good_nil|done]. Qed.
Lemma still_wr a c : still (wr a c).
Proof using HQ. intros w. unfold wr. destruct (mem _ !! a); [apply good_nil|done]. Qed.
Lemma still_rds n a : still (rds a n).
Proof using HQ.
  revert a. induction n as [|n IH]; intros a; cbn [rds]; [apply still_ret|]. apply still_bind; [apply still_rd|intros c].
  apply still_bind; [apply IH|intros; apply still_ret].
Qed.
Lemma still_wrs cs a : still (wrs a cs).
Proof using HQ. revert a. induction cs as [|c cs IH]; intros a; cbn [wrs]; [apply still_ret|]. apply still_bind; [apply still_wr|intros _; apply IH]. Qed.
Lemma still_malloc al n : still (malloc al n).
Proof using HQ. intros w. unfold malloc. cbv zeta. destruct (malloc_valid _ _ _ _); by first [apply good_nil|apply good_one]. Qed.
Lemma still_mfree p : still (mfree p).
Proof using HQ. intros w. unfold mfree. destruct (p =? 0); [apply good_nil|]. cbv zeta. destruct (mtab _ !! p); [|done]. by first [apply good_nil|apply good_one]. Qed.
End still.

Ltac s0 :=
  intros; cbv zeta; repeat (
  lazymatch goal with
  | |- still _ (ret _) => apply still_ret
  | |- still _ (ubm _) => apply still_ubm
  | |- still _ (emit _) => apply still_emit; done
  | |- still _ (ktl_assert _) => apply still_assert
  | |- still _ (rd _) => apply still_rd
  | |- still _ (wr _ _) => apply still_wr
  | |- still _ (rds _ _) => apply still_rds
  | |- still _ (wrs _ _) => apply still_wrs
  | |- still _ (malloc _ _) => apply still_malloc
  | |- still _ (mfree _) => apply still_mfree
  | |- still _ (bind _ _) => apply still_bind
  | |- still _ (if ?c then _ else _) => destruct c
  | |- still _ (match ?x with _ => _ end) => destruct x
  | |- still _ (let '(_, _) := ?x in _) => destruct x
  | |- still _ (memset _ _ _) => unfold memset
  | |- still _ (memcpy _ _ _) => unfold memcpy
  | |- still _ (memmove _ _ _) => unfold memmove
  | |- still _ (rd_ptr _) => unfold rd_ptr
  | |- still _ (wr_ptr _ _) => unfold wr_ptr
  | |- still _ (Mem.load _ _) => unfold Mem.load
  | |- still _ (stor _ _ _) => unfold stor
  | |- still _ (obj_get _ _) => unfold obj_get
  | |- still _ (obj_set _ _ _) => unfold obj_set
  | |- still _ (obj_new _ _ _) => unfold obj_new
  | |- still _ (obj_del _ _) => unfold obj_del
  | |- still _ (obj_none _ _) => unfold obj_none
  | |- still _ (rd_byte _) => unfold rd_byte
  | |- still _ (e_get _ _ _) => unfold e_get
  | |- still _ (e_set _ _ _ _) => unfold e_set
  | |- still _ (e_new _ _ _ _) => unfold e_new
  | |- still _ (e_del _ _ _) => unfold e_del
  | |- still _ (e_leave _ _ _ _) => unfold e_leave
  | |- still _ (e_src _ _ _) => unfold e_src
  | |- still _ (e_take _ _ _) => unfold e_take
  | |- still _ (e_mov _ _ _ _) => unfold e_mov
  | |- still _ (assign _ _ _) => unfold assign
  | |- still _ (copy_in _ _ _) => unfold copy_in
  end; intros; cbv zeta).

Lemma still_amalloc Q `{good Q} pl n al : still Q (aligned_malloc pl n al).
Proof. destruct pl; cbn [aligned_malloc]; unfold posix_memalign; s0. Qed.
Lemma still_afree Q `{good Q} pl p : still Q (aligned_free pl p).
Proof. destruct pl; cbn [aligned_free]; s0. Qed.

(** * Allocators *)
Record hushed (Q : list event -> Prop) (A : alloc) : Prop := {
  hs_init : forall b, still Q (a_init A b);
  hs_dtor : forall b s, still Q (a_dtor A b s);
  hs_alloc : forall b s n, still Q (a_alloc A b s n);
  hs_free : forall b s p n, still Q (a_free A b s p n);
  hs_max : forall mx b s, a_max A = Some mx -> still Q (mx b s);
  hs_cd : forall Q' `{good Q'} o k b s q act, a_cd A = Some o -> still Q' act -> still Q' (o k b s q act) }.

Ltac fields := cbn [a_init a_dtor a_alloc a_free a_max a_cd null_allocator mallocator linear_allocator stack_allocator].

Section allocators.
  Context (Q : list event -> Prop) `{HQ : good Q} (pl : platform).
  Local Notation hushed := (hushed Q).

  Lemma null_hushed : hushed null_allocator.
  Proof using HQ. split; fields; try done; s0. Qed.
  Lemma malloc_hushed : hushed (mallocator pl).
  Proof using HQ. split; fields; try done; s0; first [by apply still_amalloc|by apply still_afree]. Qed.
  Lemma linear_hushed Size : hushed (linear_allocator Size).
  Proof using HQ. split; fields; try done; unfold lin_init, lin_alloc; s0. injection H as <-. s0. Qed.
  Lemma stack_hushed Size : hushed (stack_allocator Size).
  Proof using HQ. split; fields; try done; unfold lin_init, lin_alloc; s0. injection H as <-. s0. Qed.

  Lemma release_still Max A fuel b s nxt : (forall s p n, still Q (a_free A b s p n)) -> still Q (fl_release Max A fuel b s nxt).
  Proof using HQ. intros Hf. revert s nxt. induction fuel as [|fuel IH]; intros s1 nxt; cbn [fl_release]; s0; [apply Hf|apply IH]. Qed.
  Lemma fl_alloc_still Min Max A b s n : (forall s n, still Q (a_alloc A b s n)) -> still Q (fl_alloc Min Max A b s n).
  Proof using HQ. intros Ha. unfold fl_alloc. s0. apply Ha. Qed.
  Lemma fl_free_still Min Max A b s p n : (forall s p n, still Q (a_free A b s p n)) -> still Q (fl_free Min Max A b s p n).
  Proof using HQ. intros Ha. unfold fl_free. s0; apply Ha. Qed.
  Lemma freelist_hushed Min Max A : hushed A -> hushed (freelist Min Max A).
  Proof using HQ.
    intros [Hi Hd Ha Hf Hm Hc]. split; cbn [a_init a_dtor a_alloc a_free a_max a_cd freelist].
    - s0. apply Hi.
    - intros b s w. unfold fl_dtor. generalize (S (size (mem (st w)))). intros fuel. revert w.
      fold (still Q (s' <- fl_release Max A fuel b (f_in s) (f_head s) ;; a_dtor A b s')).
      s0; [apply release_still; auto|apply Hd].
    - intros b s n. apply fl_alloc_still. auto.
    - intros b s p n. apply fl_free_still. auto.
    - intros mx b s. destruct (a_max A) as [mx'|]; [|done]. intros [= <-]. by apply Hm.
    - intros Q' HQ' o k b s q act. destruct (a_cd A) as [o'|]; [|done]. intros [= <-] Hact. s0. by apply Hc.
  Qed.

  Lemma cascading_hushed A : hushed A -> hushed (cascading pl A).
  Proof using HQ.
    intros [Hi Hd Ha Hf Hm Hc].
    assert (Hnew : still Q (new_node pl A)).
    { unfold new_node. s0; first [by apply still_amalloc|apply Hi]. }
    assert (Hdel : forall nd, still Q (del_node pl A nd)).
    { intros nd. unfold del_node. s0; [apply Hd|by apply still_afree]. }
    split; cbn [a_init a_dtor a_alloc a_free a_max a_cd cascading cascading_with].
    - s0.
    - intros _ s. generalize true as first. induction s as [|nd s IH]; intros first; cbn [casc_release]; s0; [apply Hdel..|apply IH].
    - intros _ s n. unfold casc_alloc. apply still_bind.
      { destruct s as [|nd rest]; [|apply still_ret]. s0. done. }
      intros [nd rest]. apply still_bind.
      { destruct (a_max A) as [mx|] eqn:Em; [|apply still_ret]. apply still_bind; [by apply Hm|s0]. }
      intros [|]; [apply still_ret|]. s0; first [apply Ha|apply Hnew].
    - intros _ s p n. unfold casc_free. apply still_bind; [s0|intros _]. lazymatch goal with |- still _ (casc_free_loop _ _ ?ow _ _ _ _) => generalize ow as owns end.
      intros owns. generalize false as prev.
      induction s as [|nd s IH]; intros prev; cbn [casc_free_loop]; s0; first [apply Hf|apply Hdel|apply IH].
    - intros mx b s. destruct (a_max A) as [mx'|] eqn:Em; [|done]. intros [= <-]. unfold casc_max. destruct s; [s0|by apply Hm].
    - intros Q' HQ' o k b s q act. destruct (a_cd A) as [o'|] eqn:Ec; [|done]. intros [= <-] Hact.
      induction s as [|nd s IH]; cbn [casc_cd]; s0; try done. by apply Hc.
  Qed.

  Section pair.
    Context (P F : alloc) (HP : hushed P) (HF : hushed F).

    Lemma pair_init_still b : still Q (pair_init P F b).
    Proof using HQ HP HF. unfold pair_init. s0; [apply (hs_init _ _ HP)|apply (hs_init _ _ HF)]. Qed.
    Lemma pair_dtor_still b s : still Q (pair_dtor P F b s).
    Proof using HQ HP HF. unfold pair_dtor. s0; [apply (hs_dtor _ _ HF)|apply (hs_dtor _ _ HP)]. Qed.
    Lemma pair_max_still mx b s : pair_max P F = Some mx -> still Q (mx b s).
    Proof using HQ HP HF.
      unfold pair_max, omap2. destruct (a_max P) as [mP|] eqn:EP; [|done]. destruct (a_max F) as [mF|] eqn:EF; [|done].
      intros [= <-]. s0; [by apply (hs_max _ _ HP)|by apply (hs_max _ _ HF)].
    Qed.
    Lemma pair_cd_still Q' `{good Q'} o k b s q act : pair_cd P F = Some o -> still Q' act -> still Q' (o k b s q act).
    Proof using HP HF.
      unfold pair_cd. destruct (a_owns P) as [oP|]; [|done]. cbv zeta.
      destruct (a_cd P) as [cP|] eqn:EP, (a_cd F) as [cF|] eqn:EF; intros [= <-] Hact; s0;
        first [done|by apply (hs_cd _ _ HP)|by apply (hs_cd _ _ HF)].
    Qed.
    Lemma fallback_hushed : hushed (fallback P F).
    Proof using HQ HP HF.
      split; cbn [a_init a_dtor a_alloc a_free a_max a_cd fallback].
      - apply pair_init_still.
      - apply pair_dtor_still.
      - intros b s n. unfold fb_alloc. s0; first [apply (hs_alloc _ _ HP)|apply (hs_alloc _ _ HF)].
      - intros b s p n. unfold fb_free. s0; first [apply (hs_free _ _ HP)|apply (hs_free _ _ HF)].
      - apply pair_max_still.
      - intros Q' HQ'. by apply pair_cd_still.
    Qed.
    Lemma segragator_hushed T : hushed (segragator P F T).
    Proof using HQ HP HF.
      split; cbn [a_init a_dtor a_alloc a_free a_max a_cd segragator].
      - apply pair_init_still.
      - apply pair_dtor_still.
      - intros b s n. unfold seg_alloc. s0; first [apply (hs_alloc _ _ HP)|apply (hs_alloc _ _ HF)].
      - intros b s p n. unfold seg_free. s0; first [apply (hs_free _ _ HP)|apply (hs_free _ _ HF)].
      - apply pair_max_still.
      - intros Q' HQ'. by apply pair_cd_still.
    Qed.
  End pair.

  Lemma ov_alloc_still A b s n : (forall s n, still Q (a_alloc A b s n)) -> still Q (ov_alloc A b s n).
  Proof using HQ. intros Ha. unfold ov_alloc. s0. apply Ha. Qed.
  Lemma ov_free_still A b s p n : (forall s p n, still Q (a_free A b s p n)) -> still Q (ov_free A b s p n).
  Proof using HQ.
    intros Hf. unfold ov_free.
    assert (H1 : forall k p i z, still Q (scan_before k p i z)).
    { induction k as [|k IH]; intros p0 j z; cbn [scan_before]; s0. apply IH. }
    assert (H2 : forall k p m i z, still Q (scan_after k p m i z)).
    { induction k as [|k IH]; intros p0 m j z; cbn [scan_after]; s0. apply IH. }
    s0; first [apply H1|apply H2|apply Hf].
  Qed.
  Lemma ov_cd_still A k b s q act : (forall o k b s q act, a_cd A = Some o -> still Q act -> still Q (o k b s q act)) ->
    still Q act -> still Q (ov_cd A k b s q act).
  Proof using HQ. intros Hc Hact. unfold ov_cd. cbv zeta. destruct (a_cd A) as [o'|]; s0; first [done|by apply Hc]. Qed.
  Lemma overflow_hushed A : hushed A -> hushed (overflow A).
  Proof using HQ.
    intros [Hi Hd Ha Hf Hm Hc]. split; cbn [a_init a_dtor a_alloc a_free a_max a_cd overflow].
    - s0. apply Hi.
    - intros b s. unfold ov_dtor. s0. apply Hd.
    - intros b s n. apply ov_alloc_still. auto.
    - intros b s p n. apply ov_free_still. auto.
    - intros mx b s. destruct (a_max A) as [mx'|]; [|done]. intros [= <-]. by apply Hm.
    - intros Q' HQ' o k b s q act [= <-] Hact. unfold ov_cd. cbv zeta. destruct (a_cd A) as [o'|]; s0; first [done|by apply Hc].
  Qed.

  Lemma shared_hushed A : hushed A -> hushed (shared pl A).
  Proof using HQ.
    intros [Hi Hd Ha Hf Hm Hc]. split; cbn [a_init a_dtor a_alloc a_free a_max a_cd shared].
    - s0; first [by apply still_amalloc|apply Hi].
    - s0; first [apply Hd|by apply still_afree].
    - s0. apply Ha.
    - s0. apply Hf.
    - intros mx b s. destruct (a_max A) as [mx'|]; [|done]. intros [= <-]. by apply Hm.
    - intros Q' HQ' o k b s q act. destruct (a_cd A) as [o'|]; [|done]. intros [= <-] Hact. s0. by apply Hc.
  Qed.

  Lemma forwarding_hushed A : hushed A -> hushed (forwarding A).
  Proof using. by intros [Hi Hd Ha Hf Hm Hc]. Qed.

  Lemma checked_hushed A : hushed A -> hushed (checked A).
  Proof using HQ.
    intros [Hi Hd Ha Hf Hm Hc]. split; cbn [a_init a_dtor a_alloc a_free a_max a_cd checked].
    - s0. apply Hi.
    - s0. apply Hd.
    - s0. apply Ha.
    - s0. apply Hf.
    - intros mx b s. destruct (a_max A) as [mx'|]; [|done]. intros [= <-]. by apply Hm.
    - intros Q' HQ' o k b s q act. destruct (a_cd A) as [o'|]; [|done]. intros [= <-] Hact. s0. by apply Hc.
  Qed.
End allocators.

(** * Parts with handles *)
Record phushed (Q : list event -> Prop) (U : alloc) (P : part U) : Prop := {
  ph_init : forall b, still Q (p_init U P b);
  ph_dtor : forall ub b s, still Q (p_dtor U P ub b s);
  ph_in : forall ub, hushed Q (inner U P ub) }.

Section parts.
  Context (Q : list event -> Prop) `{HQ : good Q} (U : alloc).
  Local Notation phushed := (phushed Q U).

  Lemma handle_hushed : hushed Q U -> phushed (handle U).
  Proof using HQ.
    intros [Hi Hd Ha Hf Hm Hc]. split; cbn [handle p_init p_dtor]; [s0|s0|]. intros ub.
    split; cbn [a_init a_dtor a_alloc a_free a_max a_cd inner handle p_alloc p_free p_max p_cd]; [s0|s0|s0|s0|..].
    - apply Ha.
    - apply Hf.
    - intros mx b s. destruct (a_max U) as [mx'|]; [|done]. intros [= <-]. by apply Hm.
    - intros Q' HQ' o k b s q act. destruct (a_cd U) as [o'|]; [|done]. intros [= <-] Hact. s0. by apply Hc.
  Qed.
  Lemma own_hushed A : hushed Q A -> phushed (own U A).
  Proof using HQ.
    intros [Hi Hd Ha Hf Hm Hc]. split; cbn [own p_init p_dtor]; [apply Hi|s0; apply Hd|]. intros ub.
    split; cbn [a_init a_dtor a_alloc a_free a_max a_cd inner own p_alloc p_free p_max p_cd]; [s0|s0|s0|s0|..].
    - apply Ha.
    - apply Hf.
    - intros mx b s. destruct (a_max A) as [mx'|]; [|done]. intros [= <-]. by apply Hm.
    - intros Q' HQ' o k b s q act. destruct (a_cd A) as [o'|]; [|done]. intros [= <-] Hact. s0. by apply Hc.
  Qed.
  Lemma ph_max P mx ub b s : phushed P -> p_max U P = Some mx -> still Q (mx ub b s).
  Proof using. intros HP E. apply (hs_max _ _ (ph_in _ _ _ HP ub) (mx ub)). cbn. by rewrite E. Qed.
  Lemma ph_cd P o k ub b s q act Q' `{good Q'} : phushed P -> p_cd U P = Some o -> still Q' act -> still Q' (o k ub b s q act).
  Proof using. intros HP E. apply (hs_cd _ _ (ph_in _ _ _ HP ub) Q' (fun c => o c ub)). cbn. by rewrite E. Qed.
  Lemma ph_alloc P ub b s n : phushed P -> still Q (p_alloc U P ub b s n).
  Proof using. intros HP. apply (hs_alloc _ _ (ph_in _ _ _ HP ub)). Qed.
  Lemma ph_free P ub b s p n : phushed P -> still Q (p_free U P ub b s p n).
  Proof using. intros HP. apply (hs_free _ _ (ph_in _ _ _ HP ub)). Qed.

  Lemma pfreelist_hushed Min Max P : phushed P -> phushed (pfreelist U Min Max P).
  Proof using HQ.
    intros HP. split; cbn [pfreelist p_init p_dtor].
    - s0. apply (ph_init _ _ _ HP).
    - intros ub b s.
      assert (HH : forall fuel, still Q (s' <- fl_release Max (inner U P ub) fuel b (fst (fst s), snd s) (snd (fst s)) ;; p_dtor U P ub b s')).
      { intros fuel. apply still_bind; [apply release_still; [done|]; apply (hs_free _ _ (ph_in _ _ _ HP ub))|intros; apply (ph_dtor _ _ _ HP)]. }
      intros w. exact (HH _ w).
    - intros ub. split; cbn [a_init a_dtor a_alloc a_free a_max a_cd inner pfreelist p_alloc p_free p_max p_cd]; [s0|s0|..].
      + s0. apply fl_alloc_still; [done|]. apply (hs_alloc _ _ (ph_in _ _ _ HP ub)).
      + s0. apply fl_free_still; [done|]. apply (hs_free _ _ (ph_in _ _ _ HP ub)).
      + intros mx b s. destruct (p_max U P) as [mx'|] eqn:E; [|done]. intros [= <-]. by apply (ph_max P).
      + intros Q' HQ' o k b s q act. destruct (p_cd U P) as [o'|] eqn:E; [|done]. intros [= <-] Hact. s0. by apply (ph_cd P).
  Qed.
  Lemma poverflow_hushed P : phushed P -> phushed (poverflow U P).
  Proof using HQ.
    intros HP. split; cbn [poverflow p_init p_dtor].
    - s0. apply (ph_init _ _ _ HP).
    - intros ub b s. unfold pov_dtor. s0. apply (ph_dtor _ _ _ HP).
    - intros ub. split; cbn [a_init a_dtor a_alloc a_free a_max a_cd inner poverflow p_alloc p_free p_max p_cd]; [s0|s0|..].
      + s0. apply ov_alloc_still; [done|]. apply (hs_alloc _ _ (ph_in _ _ _ HP ub)).
      + s0. apply ov_free_still; [done|]. apply (hs_free _ _ (ph_in _ _ _ HP ub)).
      + intros mx b s. destruct (p_max U P) as [mx'|] eqn:E; [|done]. intros [= <-]. by apply (ph_max P).
      + intros Q' HQ' o k b s q act [= <-] Hact. s0. apply ov_cd_still; [done| |done].
        intros o1 k1 b1 s1 q1 act1. apply (hs_cd _ _ (ph_in _ _ _ HP ub) Q').
  Qed.

  Section pair.
    Context (P F : part U) (HP : phushed P) (HF : phushed F).

    Lemma ppair_init_still b : still Q (ppair_init U P F b).
    Proof using HQ HP HF. unfold ppair_init. s0; [apply (ph_init _ _ _ HP)|apply (ph_init _ _ _ HF)]. Qed.
    Lemma ppair_dtor_still ub b s : still Q (ppair_dtor U P F ub b s).
    Proof using HQ HP HF. unfold ppair_dtor. s0; [apply (ph_dtor _ _ _ HF)|apply (ph_dtor _ _ _ HP)]. Qed.
    Lemma ppair_max_still mx ub b s : ppair_max U P F = Some mx -> still Q (mx ub b s).
    Proof using HQ HP HF.
      unfold ppair_max, omap2. destruct (p_max U P) as [mP|] eqn:EP; [|done]. destruct (p_max U F) as [mF|] eqn:EF; [|done].
      intros [= <-]. s0; [by apply (ph_max P)|by apply (ph_max F)].
    Qed.
    Lemma ppair_cd_still Q' `{good Q'} o k ub b s q act : ppair_cd U P F = Some o -> still Q' act -> still Q' (o k ub b s q act).
    Proof using HP HF.
      unfold ppair_cd. destruct (p_owns U P) as [oP|]; [|done]. cbv zeta.
      destruct (p_cd U P) as [cP|] eqn:EP, (p_cd U F) as [cF|] eqn:EF; intros [= <-] Hact; s0;
        first [done|by apply (ph_cd P)|by apply (ph_cd F)].
    Qed.
    Lemma pfallback_hushed : phushed (pfallback U P F).
    Proof using HQ HP HF.
      split; cbn [pfallback p_init p_dtor]; [apply ppair_init_still|apply ppair_dtor_still|]. intros ub.
      split; cbn [a_init a_dtor a_alloc a_free a_max a_cd inner pfallback p_alloc p_free p_max p_cd]; [s0|s0|..].
      - intros b s n. unfold pfb_alloc. s0; by apply ph_alloc.
      - intros b s p n. unfold pfb_free. s0; by apply ph_free.
      - intros mx b s. destruct (ppair_max U P F) as [mx'|] eqn:E; [|done]. intros [= <-]. by apply ppair_max_still.
      - intros Q' HQ' o k b s q act. destruct (ppair_cd U P F) as [o'|] eqn:E; [|done]. intros [= <-] Hact. by apply (ppair_cd_still Q').
    Qed.
    Lemma psegragator_hushed T : phushed (psegragator U P F T).
    Proof using HQ HP HF.
      split; cbn [psegragator p_init p_dtor]; [apply ppair_init_still|apply ppair_dtor_still|]. intros ub.
      split; cbn [a_init a_dtor a_alloc a_free a_max a_cd inner psegragator p_alloc p_free p_max p_cd]; [s0|s0|..].
      - intros b s n. unfold pseg_alloc. s0; by apply ph_alloc.
      - intros b s p n. unfold pseg_free. s0; by apply ph_free.
      - intros mx b s. destruct (ppair_max U P F) as [mx'|] eqn:E; [|done]. intros [= <-]. by apply ppair_max_still.
      - intros Q' HQ' o k b s q act. destruct (ppair_cd U P F) as [o'|] eqn:E; [|done]. intros [= <-] Hact. by apply (ppair_cd_still Q').
    Qed.
  End pair.

  Lemma upstream_hushed P : hushed Q U -> phushed P -> hushed Q (upstream U P).
  Proof using HQ.
    intros HU HP. split; cbn [a_init a_dtor a_alloc a_free a_max a_cd upstream].
    - s0; [apply (hs_init _ _ HU)|apply (ph_init _ _ _ HP)].
    - s0; [apply (ph_dtor _ _ _ HP)|apply (hs_dtor _ _ HU)].
    - intros. by apply ph_alloc.
    - intros. by apply ph_free.
    - intros mx b s. destruct (p_max U P) as [mx'|] eqn:E; [|done]. intros [= <-]. by apply (ph_max P).
    - intros Q' HQ' o k b s q act. destruct (p_cd U P) as [o'|] eqn:E; [|done]. intros [= <-] Hact. by apply (ph_cd P).
  Qed.
End parts.

(** * Mutexes *)
Definition below (hi : N) (evs : list event) : Prop := forall nm, nested hi (acts nm evs).

Lemma acts_app nm e e' : acts nm (e ++ e') = acts nm e ++ acts nm e'.
Proof. apply omap_app. Qed.
Lemma acts_nil nm nm' e : acts nm e = [] -> acts nm' e = [].
Proof.
  unfold acts. induction e as [|ev e IH]; [done|]. cbn [omap list_omap]. intros H.
  destruct ev; cbn in H |- *; try discriminate; by apply IH.
Qed.
Global Instance below_good hi : good (below hi).
Proof.
  split.
  - intros nm. constructor.
  - intros e e' H H' nm. rewrite acts_app. by apply nested_app.
  - intros ev Hev nm. destruct ev; try discriminate; constructor.
Qed.
Lemma below_mono hi hi' e : below hi e -> hi <= hi' -> below hi' e.
Proof. intros H Hle nm. by eapply nested_mono. Qed.
Lemma still_mono {X} hi hi' (m : M X) : still (below hi) m -> hi <= hi' -> still (below hi') m.
Proof. intros H Hle w. specialize (H w). destruct (m w); [|done]. by eapply below_mono. Qed.
Lemma hushed_mono hi hi' A : hushed (below hi) A -> hi <= hi' -> hushed (below hi') A.
Proof.
  intros [Hi Hd Ha Hf Hm Hc] Hle. split; try (intros; by eapply still_mono); [|done].
  intros mx b s E. eapply still_mono; [by apply Hm|done].
Qed.
Lemma phushed_mono hi hi' U P : phushed (below hi) U P -> hi <= hi' -> phushed (below hi') U P.
Proof.
  intros [Hi Hd Ha] Hle. split; try (intros; by eapply still_mono). intros ub. by eapply hushed_mono.
Qed.

Section itf.
  Context (itf : others) (Hitf : apart itf).

  Lemma itf_still Q `{good Q} (HQ : forall e, acts id e = [] -> Q e) A b s : still Q (itf A b s).
  Proof using Hitf. intros w. specialize (Hitf A b s w). destruct (itf A b s w); [by apply HQ|done]. Qed.

  (** Whatever is done between lock and unlock uses smaller numbers. *)
  Lemma bracket_still {X Y} i b hi (m : M X) (f : X -> M Y) : i < hi -> still (below i) m -> (forall x, still (below i) (f x)) ->
    still (below hi) (emit (EvLock i b) ;;; x <- m ;; r <- f x ;; emit (EvUnlock i b) ;;; ret r).
  Proof using.
    intros Hi Hm Hf w. unfold bind, emit, ret. cbn. specialize (Hm w). destruct (m w) as [x w' e|]; [|done].
    specialize (Hf x w'). destruct (f x w') as [r w2 e2|]; [|done]. intros nm.
    assert (E : acts nm ([EvLock i b] ++ e ++ e2 ++ [EvUnlock i b] ++ []) = Acq (i, nm b) :: (acts nm e ++ acts nm e2) ++ Rel (i, nm b) :: []).
    { rewrite !acts_app -app_assoc. done. }
    match goal with |- nested _ (acts _ ?l) => change l with ([EvLock i b] ++ e ++ e2 ++ [EvUnlock i b] ++ []) end.
    rewrite E. apply nested_use; [done| |constructor]. apply nested_app; [apply Hm|apply Hf].
  Qed.

  Lemma locked_hushed i hi A : i < hi -> hushed (below i) A -> hushed (below hi) (locked itf i A).
  Proof using Hitf.
    intros Hi HA. pose proof (hushed_mono i hi A HA ltac:(lia)) as HB. destruct HA as [_ _ Ha Hf _ _].
    destruct HB as [Bi Bd _ _ Bm Bc]. split; cbn [a_init a_dtor a_alloc a_free a_max a_cd locked]; try done.
    - intros b s n. apply bracket_still; [done|apply itf_still; [apply _|]|intros; apply Ha].
      intros e He nm. rewrite (acts_nil id nm e He). constructor.
    - intros b s p n. apply bracket_still; [done|apply itf_still; [apply _|]|intros; apply Hf].
      intros e He nm. rewrite (acts_nil id nm e He). constructor.
  Qed.
  Lemma plocked_hushed i hi U P : i < hi -> phushed (below i) U P -> phushed (below hi) U (plocked itf i U P).
  Proof using Hitf.
    intros Hi HP. pose proof (phushed_mono i hi U P HP ltac:(lia)) as HB.
    split; cbn [plocked p_init p_dtor]; [apply (ph_init _ _ _ HB)|apply (ph_dtor _ _ _ HB)|]. intros ub.
    destruct (ph_in _ _ _ HB ub) as [_ _ _ _ Bm Bc]. destruct (ph_in _ _ _ HP ub) as [_ _ Ha Hf _ _].
    split; cbn [a_init a_dtor a_alloc a_free a_max a_cd inner plocked p_alloc p_free p_max p_cd]; [s0|s0|..|done|done].
    - intros b s n. apply bracket_still; [done|apply itf_still; [apply _|]|intros; apply Ha].
      intros e He nm. rewrite (acts_nil id nm e He). constructor.
    - intros b s p n. apply bracket_still; [done|apply itf_still; [apply _|]|intros; apply Hf].
      intros e He nm. rewrite (acts_nil id nm e He). constructor.
  Qed.

  Context (pl : platform).

  Lemma lden_hushed e i : hushed (below (i + mutexes e)) (lden itf pl i e).
  Proof using Hitf.
    unfold lden. revert i.
    induction e as [| | | |Min Max e IH|e IH|p IHp f IHf|T p IHp f IHf|e IH|e IH|e IH|e IH|e IH|e IH]; intros i; cbn [den_with mutexes].
    - apply null_hushed, _.
    - apply malloc_hushed, _.
    - apply linear_hushed, _.
    - apply stack_hushed, _.
    - apply freelist_hushed; [apply _|apply IH].
    - apply cascading_hushed; [apply _|apply IH].
    - apply fallback_hushed; [apply _|eapply hushed_mono; [apply IHp|lia]|eapply hushed_mono; [apply IHf|lia]].
    - apply segragator_hushed; [apply _|eapply hushed_mono; [apply IHp|lia]|eapply hushed_mono; [apply IHf|lia]].
    - apply overflow_hushed; [apply _|apply IH].
    - apply shared_hushed; [apply _|apply IH].
    - apply locked_hushed; [lia|apply IH].
    - apply forwarding_hushed, IH.
    - apply forwarding_hushed, IH.
    - apply checked_hushed; [apply _|apply IH].
  Qed.
  Lemma plden_hushed U p i : hushed (below i) U -> phushed (below (i + pmutexes p)) U (plden itf pl U i p).
  Proof using Hitf.
    intros HU. assert (HU' : forall j, i <= j -> hushed (below j) U) by (intros; by eapply hushed_mono). clear HU.
    unfold plden. revert i HU'. induction p as [|e|Min Max p IH|p IHp f IHf|T p IHp f IHf|p IH|p IH]; intros i HU; cbn [pden_with pmutexes].
    - apply handle_hushed; [apply _|]. apply HU. lia.
    - apply own_hushed; [apply _|]. apply lden_hushed.
    - apply pfreelist_hushed; [apply _|]. by apply IH.
    - apply pfallback_hushed; [apply _|eapply phushed_mono; [by apply IHp|lia]|eapply phushed_mono; [apply IHf|lia]]. intros. apply HU. lia.
    - apply psegragator_hushed; [apply _|eapply phushed_mono; [by apply IHp|lia]|eapply phushed_mono; [apply IHf|lia]]. intros. apply HU. lia.
    - apply poverflow_hushed; [apply _|]. by apply IH.
    - apply plocked_hushed; [lia|]. by apply IH.
  Qed.
  Lemma slden_hushed s : hushed (below (smutexes s)) (slden itf pl s).
  Proof using Hitf.
    unfold slden. induction s as [e|u IH p]; cbn [sden_with smutexes]; [apply (lden_hushed e 0)|].
    apply upstream_hushed; [apply _|eapply hushed_mono; [exact IH|lia]|]. by apply plden_hushed.
  Qed.
End itf.

(** * Containers *)
Section cont.
  Context (Q : list event -> Prop) {HQ : good Q} (A : alloc) (HA : hushed Q A) (b : N).

  Lemma traits_still k p s q act : still Q act -> still Q (traits_cd A p k s q act).
  Proof using HQ HA. intros H. unfold traits_cd. destruct (a_cd A) as [o|] eqn:Eo; [by apply (hs_cd _ _ HA)|s0; done]. Qed.
  Lemma te_alloc_still sz h n (E : env A) : still Q (te_alloc A b sz h n E).
  Proof using HQ HA. unfold te_alloc, ta_alloc. s0. apply (hs_alloc _ _ HA). Qed.
  Lemma te_free_still sz h p n (E : env A) : still Q (te_free A b sz h p n E).
  Proof using HQ HA. unfold te_free, ta_free. s0. apply (hs_free _ _ HA). Qed.
  Lemma te_cd_still k h q act (E : env A) : still Q act -> still Q (te_cd A b k h q act E).
  Proof using HQ HA. intros H. unfold te_cd. s0. by apply traits_still. Qed.
  Lemma fill_still sz n p src : still Q (fill_n sz p n src).
  Proof using HQ. revert p. induction n as [|n IH]; intros p; cbn [fill_n]; s0. apply IH. Qed.
  Lemma store_still sz l p : still Q (store_list sz p l).
  Proof using HQ. revert p. induction l as [|x l IH]; intros p; cbn [store_list]; s0. apply IH. Qed.

  Ltac t0 := s0; repeat (lazymatch goal with
    | |- still _ (te_alloc _ _ _ _ _ _) => apply te_alloc_still
    | |- still _ (te_free _ _ _ _ _ _ _) => apply te_free_still
    | |- still _ (te_cd _ _ _ _ _ _ _) => apply te_cd_still
    | |- still _ (fill_n _ _ _ _) => apply fill_still
    | |- still _ (store_list _ _ _) => apply store_still
    end; s0).

  Section vector.
    Context (sz : N).
    Lemma new_still h n (E : env A) : still Q (new_n A b sz h n E).
    Proof using HQ HA. unfold new_n. t0. Qed.
    Lemma set_size_still v n (E : env A) : still Q (set_size A b sz v n E).
    Proof using HQ HA. unfold set_size. t0. Qed.
    Lemma expand_still v n (E : env A) : still Q (expand A b sz v n E).
    Proof using HQ HA. unfold expand. t0. apply set_size_still. Qed.
    Lemma copy_still h v (E : env A) : still Q (copy_of A b sz h v E).
    Proof using HQ HA. unfold copy_of. t0. apply new_still. Qed.
    Lemma vrelease_still v (E : env A) : still Q (release A b sz v E).
    Proof using HQ HA. unfold release. t0. Qed.
    Lemma vdo_still o (E : env A) vs : still Q (vdo A b sz o (E, vs)).
    Proof using HQ HA.
      destruct o; cbn [vdo]; unfold vassign, vmove_assign, resize, reserve, push_back, push_back_range, erase, erase_range; t0;
        first [apply new_still|apply copy_still|apply vrelease_still|apply expand_still|apply set_size_still].
    Qed.
    Lemma vstep_still k o q : still Q (vstep A b sz k o q).
    Proof using HQ HA. destruct q. unfold vstep. s0. apply vdo_still. Qed.
  End vector.

  Section array.
    Context (sz : N).
    Lemma anew_still h n (E : env A) : still Q (anew_n A b sz h n E).
    Proof using HQ HA. unfold anew_n. t0. Qed.
    Lemma acopy_still h v (E : env A) : still Q (acopy_of A b sz h v E).
    Proof using HQ HA. unfold acopy_of. t0. apply anew_still. Qed.
    Lemma arelease_still v (E : env A) : still Q (arelease A b sz v E).
    Proof using HQ HA. unfold arelease. t0. Qed.
    Lemma ado_still o (E : env A) vs : still Q (ado A b sz o (E, vs)).
    Proof using HQ HA.
      destruct o; cbn [ado]; unfold aassign, amove_assign, aresize, afrom; t0;
        first [apply anew_still|apply acopy_still|apply arelease_still].
    Qed.
    Lemma astep_still k o q : still Q (astep A b sz k o q).
    Proof using HQ HA. destruct q. unfold astep. s0. apply ado_still. Qed.
  End array.

  Section heap.
    Context (sz : N) (T : elt) (comp : nat -> value -> value -> bool) (eqv : value -> value -> bool).
    Lemma construct_still h q src (E : env A) : still Q (construct A b sz T h q src E).
    Proof using HQ HA. unfold construct. t0. Qed.
    Lemma construct_move_still h q a (E : env A) : still Q (construct_move A b sz T h q a E).
    Proof using HQ HA. unfold construct_move. t0. Qed.
    Lemma destroy_still h q (E : env A) : still Q (destroy A b sz T h q E).
    Proof using HQ HA. unfold destroy. t0. Qed.
    Lemma give_back_still h p cap n (E : env A) : still Q (give_back A b sz h p cap n E).
    Proof using HQ HA. unfold give_back. t0. Qed.
    Lemma copy_n_still h n dst src (E : env A) : still Q (copy_n A b sz T h dst src n E).
    Proof using HQ HA. revert dst src E. induction n as [|n IH]; intros dst src E; cbn [copy_n]; t0; [apply construct_still|apply IH]. Qed.
    Lemma move_n_still h n dst src (E : env A) : still Q (move_n A b sz T h dst src n E).
    Proof using HQ HA. revert dst src E. induction n as [|n IH]; intros dst src E; cbn [move_n]; t0; [apply construct_move_still|apply IH]. Qed.
    Lemma destroy_n_still h n p (E : env A) : still Q (destroy_n A b sz T h p n E).
    Proof using HQ HA. revert p E. induction n as [|n IH]; intros p E; cbn [destroy_n]; t0; [apply destroy_still|apply IH]. Qed.
    Lemma hrelease_still x (E : env A) : still Q (hrelease A b sz T x E).
    Proof using HQ HA. unfold hrelease. t0; [apply destroy_n_still|apply give_back_still]. Qed.
    Lemma hset_size_still x n (E : env A) : still Q (hset_size A b sz T x n E).
    Proof using HQ HA. unfold hset_size. t0; first [apply move_n_still|apply destroy_n_still|apply give_back_still]. Qed.
    Lemma hexpand_still x n (E : env A) : still Q (hexpand A b sz T x n E).
    Proof using HQ HA. unfold hexpand. t0. apply hset_size_still. Qed.
    Lemma up_still fuel q p j v : still Q (up_loop sz T comp fuel q p j v).
    Proof using HQ. revert j. induction fuel as [|fuel IH]; intros j; cbn [up_loop]; s0. apply IH. Qed.
    Lemma percolate_up_still q p j : still Q (percolate_up sz T comp q p j).
    Proof using HQ. unfold percolate_up. s0. apply up_still. Qed.
    Lemma down_still fuel q p n j : still Q (down_loop sz T comp fuel q p n j).
    Proof using HQ. revert j. induction fuel as [|fuel IH]; intros j; cbn [down_loop]; unfold pick; s0. apply IH. Qed.
    Lemma percolate_down_still q p n j : still Q (percolate_down sz T comp q p n j).
    Proof using HQ. unfold percolate_down. s0. apply down_still. Qed.
    Lemma find_still src p n j : still Q (find_loop sz T eqv src p j n).
    Proof using HQ. revert j. induction n as [|n IH]; intros j; cbn [find_loop]; s0; apply IH. Qed.
    Lemma hinsert_still x src (E : env A) : still Q (hinsert A b sz T comp x src E).
    Proof using HQ HA. unfold hinsert. t0; first [apply hexpand_still|apply construct_still|apply percolate_up_still]. Qed.
    Lemma insert_list_still l x (E : env A) : still Q (insert_list A b sz T comp x l E).
    Proof using HQ HA. revert x E. induction l as [|v l IH]; intros x E; cbn [insert_list]; t0; [apply hinsert_still|apply IH]. Qed.
    Lemma hcopy_still h x (E : env A) : still Q (hcopy_of A b sz T h x E).
    Proof using HQ HA. unfold hcopy_of. t0. apply copy_n_still. Qed.
    Lemma hpop_still x (E : env A) : still Q (hpop A b sz T comp x E).
    Proof using HQ HA. unfold hpop. t0; first [apply destroy_still|apply percolate_down_still]. Qed.
    Lemma hdo_still o (E : env A) vs : still Q (hdo A b sz T comp eqv o (E, vs)).
    Proof using HQ HA.
      destruct o; cbn [hdo]; unfold hassign, hmove_assign, hreserve; t0;
        first [apply insert_list_still|apply hcopy_still|apply hrelease_still|apply hinsert_still|apply hset_size_still|apply hpop_still
              |apply destroy_n_still|apply give_back_still|apply copy_n_still|apply find_still].
    Qed.
    Lemma hstep_still k o q : still Q (hstep A b sz T comp eqv k o q).
    Proof using HQ HA. destruct q. unfold hstep. s0. apply hdo_still. Qed.
  End heap.
End cont.

(** * Calls *)
Definition tidy (evs : list event) : Prop := exists hi, below hi evs.
Global Instance tidy_good : good tidy.
Proof.
  split.
  - exists 0. apply good_nil.
  - intros e e' [h H] [h' H']. exists (N.max h h'). apply good_app; eapply below_mono; eauto; lia.
  - intros ev Hev. exists 0. by apply good_one.
Qed.

Section does.
  Context (itf : others) (Hitf : apart itf) (pl : platform) (s : sexp).

  Lemma kind_hushed A : kind itf pl s A -> hushed tidy A.
  Proof using Hitf.
    assert (Hup : forall hi B, hushed (below hi) B -> hushed tidy B).
    { intros hi B [Hi Hd Ha Hf Hm Hc]. assert (HS : forall X (m : M X), still (below hi) m -> still tidy m).
      { intros X m H w. specialize (H w). destruct (m w); [by exists hi|done]. }
      split; eauto. }
    intros [u Hu|u p ub Hu]; eapply Hup; [by apply slden_hushed|].
    eapply (ph_in _ _ _ (plden_hushed itf Hitf pl _ p _ (slden_hushed itf Hitf pl u))).
  Qed.
  Lemma part_still u p : phushed tidy _ (plden itf pl (slden itf pl u) (smutexes u) p).
  Proof using Hitf.
    pose proof (plden_hushed itf Hitf pl _ p _ (slden_hushed itf Hitf pl u)) as [Hi Hd Hin].
    set (hi := smutexes u + pmutexes p) in *. assert (HS : forall X (m : M X), still (below hi) m -> still tidy m).
    { intros X m H w. specialize (H w). destruct (m w); [by exists hi|done]. }
    split; eauto. intros ub. destruct (Hin ub) as [Ji Jd Ja Jf Jm Jc]. split; eauto.
  Qed.
  Lemma still_ok {X} Q (m : M X) w x w' e : still Q m -> m w = Ok x w' e -> Q e.
  Proof. intros H E. specialize (H w). by rewrite E in H. Qed.

  Lemma does_tidy evs : does itf pl s evs -> tidy evs.
  Proof using Hitf.
    induction 1 as [A b x w w' evs K E|A b x w w' evs K E|A b x n r w w' evs K E|A b x p n y w w' evs K E
      |A mx b x r w w' evs K Em E|A o c b x p m y w w' evs K Eo Hm IH E|u p b x w w' evs L E|u p ub b x y w w' evs L E
      |A b sz k o q r w w' evs K E|A b sz k o q r w w' evs K E|A b sz T comp eqv k o q r w w' evs K E| |evs evs' _ IH1 _ IH2];
      try (apply kind_hushed in K).
    - eapply still_ok, E. apply (hs_init _ _ K).
    - eapply still_ok, E. apply (hs_dtor _ _ K).
    - eapply still_ok, E. apply (hs_alloc _ _ K).
    - eapply still_ok, E. apply (hs_free _ _ K).
    - eapply still_ok, E. by apply (hs_max _ _ K).
    - eapply still_ok, E. apply (hs_cd _ _ K _ o); [done|]. intros w1. destruct (m w1) as [[] w2 e|] eqn:Em; [by eapply IH|done].
    - eapply still_ok, E. apply (ph_init _ _ _ (part_still u p)).
    - eapply still_ok, E. apply (ph_dtor _ _ _ (part_still u p)).
    - eapply still_ok, E. apply vstep_still; [apply _|exact K].
    - eapply still_ok, E. apply astep_still; [apply _|exact K].
    - eapply still_ok, E. apply hstep_still; [apply _|exact K].
    - apply good_nil.
    - by apply good_app.
  Qed.
End does.
