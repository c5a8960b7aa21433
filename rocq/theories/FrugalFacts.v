(** Proofs about the number of calls of malloc (C94). *)
From Coq Require Import ssreflect.
From Verif Require Import Base Mem AlignedMalloc Allocators Checked Tree Client Env Vector Array HeapPure Heap Mixed NeverFacts Frugal.


Lemma within_le {X} k k' (m : M X) : within k m -> (k <= k')%nat -> within k' m.
Proof. intros H Hk w x w' e E. specialize (H w x w' e E). lia. Qed.
Lemma within_0 {X} k (m : M X) : within 0 m -> within k m.
Proof. intros H. eapply within_le; [done|lia]. Qed.
Lemma within_ret {X} k (x : X) : within k (ret x).
Proof. intros w y w' e [= _ <- _]. lia. Qed.
Lemma within_ubm {X} k u : within k (ubm (A:=X) u).
Proof. done. Qed.
Lemma within_emit k ev : within k (emit ev).
Proof. intros w y w' e [= _ <- _]. lia. Qed.
Lemma within_assert k c : within k (ktl_assert c).
Proof. destruct c; [apply within_ret|apply within_emit]. Qed.
Lemma within_bind {X Y} k1 k2 (m : M X) (f : X -> M Y) : within k1 m -> (forall x, within k2 (f x)) -> within (k1 + k2) (bind m f).
Proof.
  intros H1 H2 w y w' e (x&w1&e1&e2&E1&E2&_)%bind_inv. specialize (H1 _ _ _ _ E1). specialize (H2 _ _ _ _ _ E2). lia.
Qed.
Lemma within_then {X Y} k (m : M X) (f : X -> M Y) : within 0 m -> (forall x, within k (f x)) -> within k (bind m f).
Proof. apply within_bind. Qed.
Lemma within_first {X Y} k (m : M X) (f : X -> M Y) : within k m -> (forall x, within 0 (f x)) -> within k (bind m f).
Proof. intros H1 H2. rewrite -(Nat.add_0_r k). by apply within_bind. Qed.
Lemma within_rd k a : within k (rd a).
Proof. intros w x w' e. unfold rd. destruct (mem _ !! a); [|done]. intros [= _ <- _]. lia. Qed.
Lemma within_wr k a c : within k (wr a c).
Proof. intros w x w' e. unfold wr. destruct (mem _ !! a); [|done]. intros [= _ <- _]. cbn. lia. Qed.
Lemma within_rds n a : within 0 (rds a n).
Proof.
  revert a. induction n as [|n IH]; intros a; cbn [rds]; [apply within_ret|]. apply within_then; [apply within_rd|intros c].
  apply within_then; [apply IH|intros; apply within_ret].
Qed.
Lemma within_wrs cs a : within 0 (wrs a cs).
Proof.
  revert a. induction cs as [|c cs IH]; intros a; cbn [wrs]; [apply within_ret|]. apply within_then; [apply within_wr|intros _; apply IH].
Qed.
Lemma within_malloc al n : within 1 (malloc al n).
Proof. intros w x w' e. unfold malloc. cbv zeta. destruct (malloc_valid _ _ _ _); intros [= _ <- _]; cbn; lia. Qed.
Lemma within_mfree k p : within k (mfree p).
Proof.
  intros w x w' e. unfold mfree. destruct (p =? 0); [intros [= _ <- _]; lia|]. cbv zeta. destruct (mtab _ !! p); [|done].
  intros [= _ <- _]. cbn. lia.
Qed.

(** Straight-line code without calls of malloc. *)
Ltac w0 :=
  intros; cbv zeta; repeat (
  lazymatch goal with
  | |- within _ (ret _) => apply within_ret
  | |- within _ (ubm _) => apply within_ubm
  | |- within _ (emit _) => apply within_emit
  | |- within _ (ktl_assert _) => apply within_assert
  | |- within _ (rd _) => apply within_rd
  | |- within _ (wr _ _) => apply within_wr
  | |- within _ (rds _ _) => apply within_0, within_rds
  | |- within _ (wrs _ _) => apply within_0, within_wrs
  | |- within _ (mfree _) => apply within_mfree
  | |- within 0 (bind _ _) => apply within_then
  | |- within _ (if ?c then _ else _) => destruct c
  | |- within _ (match ?x with _ => _ end) => destruct x
  | |- within _ (let '(_, _) := ?x in _) => destruct x
  | |- within _ (memset _ _ _) => unfold memset
  | |- within _ (memcpy _ _ _) => unfold memcpy
  | |- within _ (memmove _ _ _) => unfold memmove
  | |- within _ (rd_ptr _) => unfold rd_ptr
  | |- within _ (wr_ptr _ _) => unfold wr_ptr
  | |- within _ (load _ _) => unfold load
  | |- within _ (stor _ _ _) => unfold stor
  | |- within _ (obj_get _ _) => unfold obj_get
  | |- within _ (obj_set _ _ _) => unfold obj_set
  | |- within _ (obj_new _ _ _) => unfold obj_new
  | |- within _ (obj_del _ _) => unfold obj_del
  | |- within _ (obj_none _ _) => unfold obj_none
  | |- within _ (rd_byte _) => unfold rd_byte
  | |- within _ (e_get _ _ _) => unfold e_get
  | |- within _ (e_set _ _ _ _) => unfold e_set
  | |- within _ (e_new _ _ _ _) => unfold e_new
  | |- within _ (e_del _ _ _) => unfold e_del
  | |- within _ (e_leave _ _ _ _) => unfold e_leave
  | |- within _ (e_src _ _ _) => unfold e_src
  | |- within _ (e_take _ _ _) => unfold e_take
  | |- within _ (e_mov _ _ _ _) => unfold e_mov
  | |- within _ (assign _ _ _) => unfold assign
  | |- within _ (copy_in _ _ _) => unfold copy_in
  end; intros; cbv zeta).

Lemma within_amalloc pl n al : within 1 (aligned_malloc pl n al).
Proof.
  destruct pl; cbn [aligned_malloc]; try apply within_malloc.
  - unfold posix_memalign. destruct (_ && _); [apply within_malloc|apply within_ret].
  - apply within_first; [apply within_malloc|]. w0.
Qed.
Lemma within_afree k pl p : within k (aligned_free pl p).
Proof. apply within_0. destruct pl; cbn [aligned_free]; w0. Qed.

(** * Allocators *)
Section allocators.
  Context (pl : platform).

  Lemma null_frugal : frugal null_allocator 0 0.
  Proof. split; cbn [a_init a_dtor a_alloc a_free a_max a_cd null_allocator mallocator linear_allocator stack_allocator]; try done; w0. Qed.
  Lemma malloc_frugal : frugal (mallocator pl) 0 1.
  Proof.
    split; cbn [a_init a_dtor a_alloc a_free a_max a_cd null_allocator mallocator linear_allocator stack_allocator]; try done; w0.
    - apply within_first; [apply within_amalloc|w0].
    - apply within_afree.
  Qed.
  Lemma linear_frugal Size : frugal (linear_allocator Size) 0 0.
  Proof. split; cbn [a_init a_dtor a_alloc a_free a_max a_cd null_allocator mallocator linear_allocator stack_allocator]; try done; unfold lin_init, lin_alloc; w0. injection H as <-. w0. Qed.
  Lemma stack_frugal Size : frugal (stack_allocator Size) 0 0.
  Proof. split; cbn [a_init a_dtor a_alloc a_free a_max a_cd null_allocator mallocator linear_allocator stack_allocator]; try done; unfold lin_init, lin_alloc; w0. injection H as <-. w0. Qed.

  Lemma freelist_frugal Min Max A i c : frugal A i c -> frugal (freelist Min Max A) i c.
  Proof.
    intros [Hi Hd Ha Hf Hm Hc]. split; cbn [a_init a_dtor a_alloc a_free a_max a_cd freelist].
    - intros b. apply within_first; [apply Hi|w0].
    - intros b s w x w' e. unfold fl_dtor.
      assert (Hr : forall fuel s nxt, within 0 (fl_release Max A fuel b s nxt)).
      { induction fuel as [|fuel IH]; intros s0 nxt; cbn [fl_release]; w0; [apply Hf|apply IH]. }
      generalize (S (size (mem (st w)))). intros fuel. revert w x w' e. fold (within 0 (s' <- fl_release Max A fuel b (f_in s) (f_head s) ;; a_dtor A b s')).
      w0; [apply Hr|apply Hd].
    - intros b s n. unfold fl_alloc. destruct (fl_range _ _ n); [|w0]. destruct (f_head s =? 0).
      + apply within_first; [apply Ha|w0].
      + apply within_0. w0.
    - intros b s p n. unfold fl_free. w0.
    - intros mx b s. destruct (a_max A) as [mx'|]; [|done]. intros [= <-]. by apply Hm.
    - intros o k b s q act. destruct (a_cd A) as [o'|]; [|done]. intros [= <-] Hact. apply within_then; [by apply Hc|w0].
  Qed.

  Lemma cascading_frugal A i c : frugal A i c -> frugal (cascading pl A) 0 (2 * (1 + i + c)).
  Proof.
    intros [Hi Hd Ha Hf Hm Hc].
    assert (Hnew : within (1 + i) (new_node pl A)).
    { unfold new_node. apply within_bind; [apply within_amalloc|]. intros p. destruct (p =? 0).
      - apply within_0. w0.
      - apply within_first; [apply Hi|w0]. }
    assert (Hdel : forall nd, within 0 (del_node pl A nd)).
    { intros nd. unfold del_node. apply within_then; [apply Hd|]. intros. apply within_afree. }
    split; cbn [a_init a_dtor a_alloc a_free a_max a_cd cascading cascading_with].
    - w0.
    - intros _ s. generalize true as first. induction s as [|nd s IH]; intros first; cbn [casc_release]; w0; [apply Hdel..|apply IH].
    - intros _ s n. unfold casc_alloc.
      replace (2 * (1 + i + c))%nat with ((1 + i) + (0 + (c + (1 + i + c))))%nat by lia.
      apply within_bind.
      { destruct s as [|nd rest]; [|apply within_ret]. apply within_first; [done|w0]. }
      intros [nd rest]. apply within_bind.
      { destruct (a_max A) as [mx|] eqn:Em; [|apply within_ret]. apply within_then; [by apply Hm|w0]. }
      intros [|]; [apply within_ret|]. apply within_bind; [apply Ha|]. intros [p si]. cbv zeta. destruct (p =? 0); [|apply within_ret].
      apply within_bind; [done|]. intros nd2. apply within_first; [apply Ha|w0].
    - intros _ s p n. unfold casc_free. apply within_then; [w0|intros _]. lazymatch goal with |- within _ (casc_free_loop _ _ ?ow _ _ _ _) => generalize ow as owns end.
      intros owns. generalize false as prev.
      induction s as [|nd s IH]; intros prev; cbn [casc_free_loop]; w0; first [apply Hf|apply Hdel|apply IH].
    - intros mx b s. destruct (a_max A) as [mx'|] eqn:Em; [|done]. intros [= <-]. unfold casc_max. destruct s; [w0|by apply Hm].
    - intros o k b s q act. destruct (a_cd A) as [o'|] eqn:Ec; [|done]. intros [= <-] Hact.
      induction s as [|nd s IH]; cbn [casc_cd]; w0; try done. by apply Hc.
  Qed.

  Section pair.
    Context (P F : alloc) (i1 c1 i2 c2 : nat) (HP : frugal P i1 c1) (HF : frugal F i2 c2).

    Lemma pair_init_within b : within (i1 + i2) (pair_init P F b).
    Proof.
      destruct HP as [Hi Hd Ha Hf Hm Hc], HF as [Hi' Hd' Ha' Hf' Hm' Hc']. apply within_bind; [apply Hi|]. intros sp.
      apply within_first; [apply Hi'|w0].
    Qed.
    Lemma pair_dtor_within b s : within 0 (pair_dtor P F b s).
    Proof. unfold pair_dtor. w0; [apply (fr_dtor _ _ _ HF)|apply (fr_dtor _ _ _ HP)]. Qed.
    Lemma pair_max_within mx b s : pair_max P F = Some mx -> within 0 (mx b s).
    Proof.
      unfold pair_max, omap2. destruct (a_max P) as [mP|] eqn:EP; [|done]. destruct (a_max F) as [mF|] eqn:EF; [|done].
      intros [= <-]. w0; [by apply (fr_max _ _ _ HP)|by apply (fr_max _ _ _ HF)].
    Qed.
    Lemma pair_cd_within o k b s q act : pair_cd P F = Some o -> within 0 act -> within 0 (o k b s q act).
    Proof.
      unfold pair_cd. destruct (a_owns P) as [oP|]; [|done]. cbv zeta.
      destruct (a_cd P) as [cP|] eqn:EP, (a_cd F) as [cF|] eqn:EF; intros [= <-] Hact; w0;
        first [done|by apply (fr_cd _ _ _ HP)|by apply (fr_cd _ _ _ HF)].
    Qed.
    Lemma fallback_frugal : frugal (fallback P F) (i1 + i2) (c1 + c2).
    Proof.
      split; cbn [a_init a_dtor a_alloc a_free a_max a_cd fallback].
      - apply pair_init_within.
      - apply pair_dtor_within.
      - intros b s n. unfold fb_alloc. apply within_bind; [apply (fr_alloc _ _ _ HP)|]. intros [p sp].
        destruct (p =? 0); [|w0]. apply within_first; [apply (fr_alloc _ _ _ HF)|w0].
      - intros b s p n. unfold fb_free. w0; first [apply (fr_free _ _ _ HP)|apply (fr_free _ _ _ HF)].
      - apply pair_max_within.
      - apply pair_cd_within.
    Qed.
    Lemma segragator_frugal T : frugal (segragator P F T) (i1 + i2) (Nat.max c1 c2).
    Proof.
      split; cbn [a_init a_dtor a_alloc a_free a_max a_cd segragator].
      - apply pair_init_within.
      - apply pair_dtor_within.
      - intros b s n. unfold seg_alloc. destruct (n <=? T).
        + apply within_first; [|w0]. eapply within_le; [apply (fr_alloc _ _ _ HP)|lia].
        + apply within_first; [|w0]. eapply within_le; [apply (fr_alloc _ _ _ HF)|lia].
      - intros b s p n. unfold seg_free. w0; first [apply (fr_free _ _ _ HP)|apply (fr_free _ _ _ HF)].
      - apply pair_max_within.
      - apply pair_cd_within.
    Qed.
  End pair.

  Lemma overflow_frugal A i c : frugal A i c -> frugal (overflow A) i c.
  Proof.
    intros [Hi Hd Ha Hf Hm Hc]. split; cbn [a_init a_dtor a_alloc a_free a_max a_cd overflow].
    - intros b. apply within_first; [apply Hi|w0].
    - intros b s. unfold ov_dtor. w0; apply Hd.
    - intros b s n. unfold ov_alloc. cbv zeta. apply within_first; [apply Ha|w0].
    - intros b s p n. unfold ov_free.
      assert (H1 : forall k p i z, within 0 (scan_before k p i z)).
      { induction k as [|k IH]; intros p0 j z; cbn [scan_before]; w0. apply IH. }
      assert (H2 : forall k p m i z, within 0 (scan_after k p m i z)).
      { induction k as [|k IH]; intros p0 m j z; cbn [scan_after]; w0. apply IH. }
      w0; first [apply H1|apply H2|apply Hf].
    - intros mx b s. destruct (a_max A) as [mx'|]; [|done]. intros [= <-]. by apply Hm.
    - intros o k b s q act [= <-] Hact. unfold ov_cd. cbv zeta. destruct (a_cd A) as [o'|]; w0; first [done|by apply Hc].
  Qed.

  Lemma shared_frugal A i c : frugal A i c -> frugal (shared pl A) (1 + i) c.
  Proof.
    intros [Hi Hd Ha Hf Hm Hc]. split; cbn [a_init a_dtor a_alloc a_free a_max a_cd shared].
    - intros _. apply within_bind; [apply within_amalloc|]. intros p. destruct (p =? 0).
      + apply within_0. w0.
      + apply within_first; [apply Hi|w0].
    - intros _ s. w0; [apply Hd|apply within_afree].
    - intros _ s n. apply within_first; [apply Ha|w0].
    - intros _ s p n. w0. apply Hf.
    - intros mx b s. destruct (a_max A) as [mx'|]; [|done]. intros [= <-]. by apply Hm.
    - intros o k b s q act. destruct (a_cd A) as [o'|]; [|done]. intros [= <-] Hact. apply within_then; [by apply Hc|w0].
  Qed.

  Lemma forwarding_frugal A i c : frugal A i c -> frugal (forwarding A) i c.
  Proof. by intros [Hi Hd Ha Hf Hm Hc]. Qed.

  Lemma checked_frugal A i c : frugal A i c -> frugal (checked A) i c.
  Proof.
    intros [Hi Hd Ha Hf Hm Hc]. split; cbn [a_init a_dtor a_alloc a_free a_max a_cd checked].
    - intros b. apply within_first; [apply Hi|w0].
    - intros b s. destruct (snd s); [apply Hd|w0].
    - intros b s n. apply within_first; [apply Ha|w0].
    - intros b s p n. destruct (take_out _ _); [|w0]. w0. apply Hf.
    - intros mx b s. destruct (a_max A) as [mx'|]; [|done]. intros [= <-]. by apply Hm.
    - intros o k b s q act. destruct (a_cd A) as [o'|]; [|done]. intros [= <-] Hact. apply within_then; [by apply Hc|w0].
  Qed.

  Lemma tree_frugal e : frugal (den pl e) (einit e) (ecalls e).
  Proof.
    induction e; cbn [den einit ecalls].
    - apply null_frugal.
    - apply malloc_frugal.
    - apply linear_frugal.
    - apply stack_frugal.
    - by apply freelist_frugal.
    - by apply cascading_frugal.
    - by apply fallback_frugal.
    - by apply segragator_frugal.
    - by apply overflow_frugal.
    - by apply shared_frugal.
    - by apply forwarding_frugal.
    - by apply forwarding_frugal.
    - by apply forwarding_frugal.
    - by apply checked_frugal.
  Qed.
End allocators.

(** * Programs over one allocator *)
Section client.
  Context (A : alloc) (i c : nat) (HA : frugal A i c) (b : N) (ready : N -> a_st A -> bool).

  Lemma traits_within k s q act : within 0 act -> within 0 (traits_cd A b k s q act).
  Proof.
    intros H. unfold traits_cd. destruct (a_cd A) as [o|] eqn:E; [by apply (fr_cd _ _ _ HA)|w0; done].
  Qed.
  Lemma step_within o s bl : within (o_asks o * c) (step A b ready o s bl).
  Proof.
    destruct o; cbn [step o_asks]; rewrite ?Nat.mul_1_l ?Nat.mul_0_l.
    - apply within_first; [apply (fr_alloc _ _ _ HA)|w0].
    - w0. apply (fr_free _ _ _ HA).
    - w0.
    - w0.
    - w0.
    - destruct (a_max A) eqn:E; w0. by apply (fr_max _ _ _ HA).
    - w0. apply traits_within. w0.
    - w0. apply traits_within. w0.
  Qed.
  Lemma session_within ops : within (i + count o_asks ops * c) (session A b ready ops).
  Proof.
    unfold session. apply within_bind; [apply (fr_init _ _ _ HA)|]. intros s. apply within_first.
    - generalize (@nil (N * N)). revert s. induction ops as [|o ops IH]; intros s bl; cbn [run count foldr]; [w0|].
      fold (count o_asks ops). rewrite Nat.mul_add_distr_r. apply within_bind; [apply step_within|]. intros [ob [s' bl']].
      apply within_first; [apply IH|w0].
    - intros [os [s' bl]]. apply within_then.
      + revert s'. induction bl as [|[p n] bl IH]; intros s'; cbn [free_all]; [w0|]. apply within_then; [apply (fr_free _ _ _ HA)|apply IH].
      + intros s''. apply within_then; [apply (fr_dtor _ _ _ HA)|w0].
  Qed.
End client.

(** * Containers *)
Section cont.
  Context (A : alloc) (i c : nat) (HA : frugal A i c) (b : N).

  Lemma te_alloc_within sz h n E : within c (te_alloc A b sz h n E).
  Proof.
    unfold te_alloc. destruct (E !! h); [|w0]. apply within_then; [w0|intros _]. unfold ta_alloc.
    apply within_first; [apply (fr_alloc _ _ _ HA)|w0].
  Qed.
  Lemma te_free_within sz h p n E : within 0 (te_free A b sz h p n E).
  Proof. unfold te_free, ta_free. w0. apply (fr_free _ _ _ HA). Qed.
  Lemma te_cd_within k h q act E : within 0 act -> within 0 (te_cd A b k h q act E).
  Proof. intros H. unfold te_cd. w0. by eapply traits_within. Qed.

  (** One request, at the first place where the code asks. *)
  Ltac w1 :=
    intros; cbv zeta; repeat (
    lazymatch goal with
    | |- within _ (te_alloc _ _ _ _ _ _) => apply te_alloc_within
    | |- within _ (te_free _ _ _ _ _ _ _) => apply within_0, te_free_within
    | |- within _ (let '(_, _) := ?x in _) => destruct x
    | |- within _ (bind (te_alloc _ _ _ _ _ _) _) => apply within_first
    | |- within _ (bind (emit _) _) => apply within_then
    | |- within _ (match ?x with _ => _ end) => destruct x
    | |- within ?k (bind _ _) => first [constr_eq k 0%nat; apply within_then|fail 1]
    | |- _ => progress w0
    end; intros; cbv zeta).

  Lemma fill_within sz n p src : within 0 (fill_n sz p n src).
  Proof. revert p. induction n as [|n IH]; intros p; cbn [fill_n]; w0. apply IH. Qed.
  Lemma store_within sz l p : within 0 (store_list sz p l).
  Proof. revert p. induction l as [|x l IH]; intros p; cbn [store_list]; w0. apply IH. Qed.

  Section vector.
    Context (sz : N).
    Lemma new_within h n E : within c (new_n A b sz h n E).
    Proof. unfold new_n. w1. Qed.
    Lemma set_size_within v n E : within c (set_size A b sz v n E).
    Proof. unfold set_size. w1. Qed.
    Lemma expand_within v n E : within c (expand A b sz v n E).
    Proof. unfold expand. w1. apply set_size_within. Qed.
    Lemma copy_within h v E : within c (copy_of A b sz h v E).
    Proof. unfold copy_of. apply within_first; [apply new_within|w1]. Qed.
    Lemma release_within v E : within 0 (release A b sz v E).
    Proof. unfold release. w1. Qed.
    Lemma vdo_within o q : within (v_asks o * c) (vdo A b sz o q).
    Proof.
      destruct q as [E vs]. destruct o; cbn [vdo v_asks]; rewrite ?Nat.mul_1_l ?Nat.mul_0_l; cbv zeta.
      all: try (apply within_first; [apply new_within|]; w1; first [apply fill_within|apply store_within]).
      - w1.
      - apply within_first; [apply copy_within|w1].
      - w1.
      - apply within_first; [apply copy_within|w1].
      - w1. apply release_within.
      - apply within_then; [apply release_within|]. intros E'. unfold vassign. w1.
      - w1; [apply release_within|]. unfold vmove_assign. w1.
      - w1.
      - w1.
      - w1.
      - w1.
      - w1.
      - w1.
      - unfold resize. apply within_first; [|w1]. apply within_first; [|w1]. destruct (_ <? _); [apply expand_within|w1].
      - unfold reserve. apply within_first; [|w1]. destruct (_ <? _); [apply set_size_within|w1].
      - unfold push_back. apply within_first; [|w1]. apply within_first; [|w1]. destruct (_ =? _); [apply expand_within|w1].
      - unfold push_back_range. apply within_first; [|w1]. cbv zeta. apply within_first; [|w1]. destruct (_ <? _); [apply expand_within|w1].
      - unfold erase. w1.
      - unfold erase_range. w1.
      - w1.
    Qed.
    Lemma vstep_within k o q : within (v_asks o * c) (vstep A b sz k o q).
    Proof. unfold vstep. destruct (vlegal _ _ _ _); [apply vdo_within|w1]. Qed.
  End vector.

  Section array.
    Context (sz : N).
    Lemma anew_within h n E : within c (anew_n A b sz h n E).
    Proof. unfold anew_n. w1. Qed.
    Lemma acopy_within h v E : within c (acopy_of A b sz h v E).
    Proof. unfold acopy_of. apply within_first; [apply anew_within|w1]. Qed.
    Lemma arelease_within v E : within 0 (arelease A b sz v E).
    Proof. unfold arelease. w1. Qed.
    Lemma ado_within o q : within (a_asks o * c) (ado A b sz o q).
    Proof.
      destruct q as [E vs]. destruct o; cbn [ado a_asks]; rewrite ?Nat.mul_1_l ?Nat.mul_0_l; cbv zeta.
      all: try (apply within_first; [apply anew_within|]; w1; first [apply fill_within|apply store_within]).
      - w1.
      - apply within_first; [apply acopy_within|w1].
      - w1.
      - apply within_first; [apply acopy_within|w1].
      - w1. apply arelease_within.
      - apply within_then; [apply arelease_within|]. intros E'. unfold aassign. w1.
      - w1; [apply arelease_within|]. unfold amove_assign. w1.
      - w1.
      - w1.
      - w1.
      - w1.
      - w1.
      - unfold aresize. apply within_first; [|w1]. w1.
      - unfold afrom. apply within_first; [|w1]. cbv zeta. apply within_first; [|w1]. w1.
    Qed.
    Lemma astep_within k o q : within (a_asks o * c) (astep A b sz k o q).
    Proof. unfold astep. destruct (alegal _ _ _ _); [apply ado_within|w1]. Qed.
  End array.

  Section heap.
    Context (sz : N) (T : elt) (comp : nat -> value -> value -> bool) (eqv : value -> value -> bool).
    Lemma construct_within h q src E : within 0 (construct A b sz T h q src E).
    Proof. unfold construct. apply te_cd_within. w0. Qed.
    Lemma construct_move_within h q a E : within 0 (construct_move A b sz T h q a E).
    Proof. unfold construct_move. apply te_cd_within. w0. Qed.
    Lemma destroy_within h q E : within 0 (destroy A b sz T h q E).
    Proof. unfold destroy. apply te_cd_within. w0. Qed.
    Lemma give_back_within h p cap n E : within 0 (give_back A b sz h p cap n E).
    Proof. unfold give_back. w1. Qed.
    Lemma copy_n_within h n dst src E : within 0 (copy_n A b sz T h dst src n E).
    Proof. revert dst src E. induction n as [|n IH]; intros dst src E; cbn [copy_n]; w1; [apply construct_within|apply IH]. Qed.
    Lemma move_n_within h n dst src E : within 0 (move_n A b sz T h dst src n E).
    Proof. revert dst src E. induction n as [|n IH]; intros dst src E; cbn [move_n]; w1; [apply construct_move_within|apply IH]. Qed.
    Lemma destroy_n_within h n p E : within 0 (destroy_n A b sz T h p n E).
    Proof. revert p E. induction n as [|n IH]; intros p E; cbn [destroy_n]; w1; [apply destroy_within|apply IH]. Qed.
    Lemma hrelease_within x E : within 0 (hrelease A b sz T x E).
    Proof. unfold hrelease. w1; [apply destroy_n_within|apply give_back_within]. Qed.
    Lemma hset_size_within x n E : within c (hset_size A b sz T x n E).
    Proof. unfold hset_size. w1; first [apply move_n_within|apply destroy_n_within|apply give_back_within]. Qed.
    Lemma up_within fuel q p j v : within 0 (up_loop sz T comp fuel q p j v).
    Proof. revert j. induction fuel as [|fuel IH]; intros j; cbn [up_loop]; w0. apply IH. Qed.
    Lemma percolate_up_within q p j : within 0 (percolate_up sz T comp q p j).
    Proof. unfold percolate_up. w0. apply up_within. Qed.
    Lemma down_within fuel q p n j : within 0 (down_loop sz T comp fuel q p n j).
    Proof. revert j. induction fuel as [|fuel IH]; intros j; cbn [down_loop]; unfold pick; w0. apply IH. Qed.
    Lemma percolate_down_within q p n j : within 0 (percolate_down sz T comp q p n j).
    Proof. unfold percolate_down. w0. apply down_within. Qed.
    Lemma hinsert_within x src E : within (if h_size x =? h_cap x then c else 0%nat) (hinsert A b sz T comp x src E).
    Proof.
      unfold hinsert. destruct (h_size x =? h_cap x).
      - apply within_first; [unfold hexpand; w1; apply hset_size_within|]. w1; [apply construct_within|apply percolate_up_within].
      - w1; [apply construct_within|apply percolate_up_within].
    Qed.
    Lemma hinsert_next x src E w j x' E' w' e : h_size x < h_cap x ->
      hinsert A b sz T comp x src E w = Ok (j, x', E') w' e -> h_size x' = h_size x + 1 /\ h_cap x' = h_cap x.
    Proof.
      intros Hx H. unfold hinsert in H. rewrite (proj2 (N.eqb_neq _ _)) in H; [|lia].
      apply bind_inv in H as ([x1 E1]&w1&e1&e2&H1&H&_). apply ret_inv in H1 as ([= <- <-]&_&_).
      apply bind_inv in H as (E2&w2&e3&e4&_&H&_). apply bind_inv in H as (j'&w3&e5&e6&_&H&_).
      by apply ret_inv in H as ([= _ <- _]&_&_).
    Qed.
    Lemma insert_list_within l x E : h_size x + N.of_nat (length l) <= h_cap x -> within 0 (insert_list A b sz T comp x l E).
    Proof.
      revert x E. induction l as [|v l IH]; intros x E Hx; cbn [insert_list]; [w0|]. cbn [length] in Hx.
      intros w y w' e ([[j x'] E']&w1&e1&e2&H1&H2&_)%bind_inv.
      assert (Hlt : h_size x < h_cap x) by lia. pose proof (hinsert_next _ _ _ _ _ _ _ _ _ Hlt H1) as [Hs Hc].
      pose proof (hinsert_within x (PVal v) E _ _ _ _ H1) as Hw. rewrite (proj2 (N.eqb_neq (h_size x) (h_cap x))) in Hw; [|lia].
      assert (Hle : h_size x' + N.of_nat (length l) <= h_cap x') by lia. specialize (IH x' E' Hle _ _ _ _ H2). lia.
    Qed.
    Lemma hcopy_within h x E : within c (hcopy_of A b sz T h x E).
    Proof. unfold hcopy_of. w1. apply copy_n_within. Qed.
    Lemma find_within src p n j : within 0 (find_loop sz T eqv src p j n).
    Proof. revert j. induction n as [|n IH]; intros j; cbn [find_loop]; w0; apply IH. Qed.
    Lemma hdo_within o q : within (h_asks o * c) (hdo A b sz T comp eqv o q).
    Proof.
      destruct q as [E vs]. destruct o; cbn [hdo h_asks]; rewrite ?Nat.mul_1_l ?Nat.mul_0_l; cbv zeta.
      - w1.
      - w1.
      - w1. apply insert_list_within. cbn [h_size h_cap]. lia.
      - apply within_first; [apply hcopy_within|w1].
      - w1.
      - apply within_first; [apply hcopy_within|w1].
      - apply within_first; [apply hcopy_within|w1]. apply give_back_within.
      - w1. apply hrelease_within.
      - apply within_then; [apply hrelease_within|]. intros E'. unfold hassign. w1. apply copy_n_within.
      - w1; [apply hrelease_within|]. unfold hmove_assign. w1.
      - w1.
      - w1.
      - w1.
      - w1.
      - w1.
      - unfold hreserve. apply within_first; [|w1]. destruct (_ <? _); [apply hset_size_within|w1].
      - apply within_first; [|w1]. eapply within_le; [apply hinsert_within|]. destruct (_ =? _); lia.
      - w1.
      - unfold hpop. w1; first [apply destroy_within|apply percolate_down_within].
      - w1. apply find_within.
      - w1. apply destroy_n_within.
    Qed.
    Lemma hstep_within k o q : within (h_asks o * c) (hstep A b sz T comp eqv k o q).
    Proof. unfold hstep. destruct (hlegal _ _ _ _ _); [apply hdo_within|w1]. Qed.
  End heap.

  Lemma kill_within {X} (kill : X -> env A -> M (env A)) xs E : (forall x E, within 0 (kill x E)) -> within 0 (kill_all A kill xs E).
  Proof.
    intros Hk. revert E. induction xs as [|[j x] xs IH]; intros E; cbn [kill_all]; [w0|]. apply within_then; [apply Hk|apply IH].
  Qed.

  Lemma csession_within {X O} (f : O -> nat) (stp : O -> env A * gmap nat X -> M (cobs * (env A * gmap nat X)))
      (kill : X -> env A -> M (env A)) k ops :
    (forall o q, within (f o * c) (stp o q)) -> (forall x E, within 0 (kill x E)) ->
    within (k * i + count f ops * c) (csession A b stp kill k ops).
  Proof.
    intros Hs Hk. unfold csession. apply within_bind.
    { enough (Hi : forall h E, within (k * i) (init_all A b h k E)) by apply Hi. clear -HA.
      induction k as [|k IH]; intros h E; cbn [init_all]; [w0|].
      cbn [Nat.mul]. apply within_bind; [|intros; apply IH]. unfold te_init. apply within_first; [apply (fr_init _ _ _ HA)|w0]. }
    intros E. apply within_first.
    - generalize (E, ∅ : gmap nat X). induction ops as [|o ops IH]; intros q; cbn [crun count foldr]; [w0|].
      fold (count f ops). rewrite Nat.mul_add_distr_r. apply within_bind; [apply Hs|]. intros [ob q'].
      apply within_first; [apply IH|w0].
    - intros [os [E' vs]]. apply within_then; [by apply kill_within|]. intros E''. apply within_then; [|w0].
      enough (Hd : forall j h E, within 0 (dtor_all A b h j E)) by apply Hd.
      induction j as [|j IH]; intros h E2; cbn [dtor_all]; [w0|].
      apply within_then; [|intros; apply IH]. unfold te_dtor. w0. apply (fr_dtor _ _ _ HA).
  Qed.

  Lemma mixed_within ty k ops :
    within (k * i + count (fun o => c_asks (snd o)) ops * c) (csession A b (xstep A b ty k) (xkill A b) k ops).
  Proof.
    apply csession_within.
    - intros [t o] [E xs]. cbn [xstep snd]. destruct (ty t) as [sz|sz|sz T comp eqv], o as [o|o|o]; try apply within_ret; cbn [c_asks].
      + apply within_first; [apply vstep_within|w0].
      + apply within_first; [apply astep_within|w0].
      + apply within_first; [apply hstep_within|w0].
    - intros [sz m|sz m|sz T m] E; cbn [xkill]; apply kill_within; intros x E'.
      + apply release_within.
      + apply arelease_within.
      + apply hrelease_within.
  Qed.
End cont.

(** * For every composition *)
Lemma alloc_calls pl e b s n w p w' ev : a_alloc (den pl e) b s n w = Ok p w' ev -> (tick w' <= tick w + ecalls e)%nat.
Proof. apply (fr_alloc _ _ _ (tree_frugal pl e)). Qed.
Lemma free_calls pl e b s p n w x w' ev : a_free (den pl e) b s p n w = Ok x w' ev -> (tick w' <= tick w)%nat.
Proof. intros H. apply (fr_free _ _ _ (tree_frugal pl e)) in H. lia. Qed.
Lemma client_calls pl e b ready ops w os w' ev : session (den pl e) b ready ops w = Ok os w' ev ->
  (tick w' <= tick w + einit e + count o_asks ops * ecalls e)%nat.
Proof. intros H. apply (session_within _ _ _ (tree_frugal pl e)) in H. lia. Qed.
Lemma vector_calls pl e b sz k ops w os w' ev :
  csession (den pl e) b (vstep (den pl e) b sz k) (release (den pl e) b sz) k ops w = Ok os w' ev ->
  (tick w' <= tick w + k * einit e + count v_asks ops * ecalls e)%nat.
Proof.
  intros H. apply (csession_within _ _ _ (tree_frugal pl e) b v_asks) in H; [lia| |]; intros.
  - apply (vstep_within _ _ _ (tree_frugal pl e)).
  - apply (release_within _ _ _ (tree_frugal pl e)).
Qed.
Lemma array_calls pl e b sz k ops w os w' ev :
  csession (den pl e) b (astep (den pl e) b sz k) (arelease (den pl e) b sz) k ops w = Ok os w' ev ->
  (tick w' <= tick w + k * einit e + count a_asks ops * ecalls e)%nat.
Proof.
  intros H. apply (csession_within _ _ _ (tree_frugal pl e) b a_asks) in H; [lia| |]; intros.
  - apply (astep_within _ _ _ (tree_frugal pl e)).
  - apply (arelease_within _ _ _ (tree_frugal pl e)).
Qed.
Lemma heap_calls pl e b sz T comp eqv k ops w os w' ev :
  csession (den pl e) b (hstep (den pl e) b sz T comp eqv k) (hrelease (den pl e) b sz T) k ops w = Ok os w' ev ->
  (tick w' <= tick w + k * einit e + count h_asks ops * ecalls e)%nat.
Proof.
  intros H. apply (csession_within _ _ _ (tree_frugal pl e) b h_asks) in H; [lia| |]; intros.
  - apply (hstep_within _ _ _ (tree_frugal pl e)).
  - apply (hrelease_within _ _ _ (tree_frugal pl e)).
Qed.
Lemma mixed_calls pl e b ty k ops w os w' ev :
  csession (den pl e) b (xstep (den pl e) b ty k) (xkill (den pl e) b) k ops w = Ok os w' ev ->
  (tick w' <= tick w + k * einit e + count (fun o => c_asks (snd o)) ops * ecalls e)%nat.
Proof. intros H. apply (mixed_within _ _ _ (tree_frugal pl e)) in H. lia. Qed.

(** * For every allocator *)
Lemma vector_within A i c b sz k o q : frugal A i c -> within (v_asks o * c) (vstep A b sz k o q).
Proof. intros HA. by apply (vstep_within A i). Qed.
Lemma array_within A i c b sz k o q : frugal A i c -> within (a_asks o * c) (astep A b sz k o q).
Proof. intros HA. by apply (astep_within A i). Qed.
Lemma heap_within A i c b sz T comp eqv k o q : frugal A i c -> within (h_asks o * c) (hstep A b sz T comp eqv k o q).
Proof. intros HA. by apply (hstep_within A i). Qed.
