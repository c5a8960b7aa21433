(** Which programs never report a leak: all those without the destructor of overflow. *)
From Coq Require Import ssreflect.
From Verif Require Import Base Mem AlignedMalloc Allocators Checked Tree Client Env Vector Array HeapPure Heap Owned Ledger.

Local Open Scope N_scope.

Definition plain (evs : list event) : Prop := leaks evs = [].
Definition still {X} (m : M X) : Prop := forall w, match m w with Ok _ _ e => plain e | Err _ _ => True end.

Lemma leaks_app e e' : leaks (e ++ e') = leaks e ++ leaks e'.
Proof. apply List.filter_app. Qed.
Lemma plain_app e e' : plain e -> plain e' -> plain (e ++ e').
Proof. unfold plain. by rewrite leaks_app => -> ->. Qed.

Lemma still_ret {X} (x : X) : still (ret x).
Proof. by intros w. Qed.
Lemma still_ubm {X} u : still (ubm (A:=X) u).
Proof. done. Qed.
Lemma still_emit ev : is_report ev = false -> still (emit ev).
Proof. intros H w. cbn. unfold plain, leaks. cbn. by rewrite H. Qed.
Lemma still_assert c : still (ktl_assert c).
Proof. destruct c; [apply still_ret|by apply still_emit]. Qed.
Lemma still_bind {X Y} (m : M X) (f : X -> M Y) : still m -> (forall x, still (f x)) -> still (bind m f).
Proof.
  intros Hm Hf w. unfold bind. specialize (Hm w). destruct (m w) as [x w1 e1|]; [|done]. specialize (Hf x w1).
  destruct (f x w1); [|done]. by apply plain_app.
Qed.
Lemma still_rd a : still (rd a).
Proof. intros w. unfold rd. by destruct (mem _ !! a). Qed.
Lemma still_wr a c : still (wr a c).
Proof. intros w. unfold wr. by destruct (mem _ !! a). Qed.
Lemma still_rds n a : still (rds a n).
Proof.
  revert a. induction n as [|n IH]; intros a; cbn [rds]; [apply still_ret|]. apply still_bind; [apply still_rd|intros c].
  apply still_bind; [apply IH|intros; apply still_ret].
Qed.
Lemma still_wrs cs a : still (wrs a cs).
Proof. revert a. induction cs as [|c cs IH]; intros a; cbn [wrs]; [apply still_ret|]. apply still_bind; [apply still_wr|intros _; apply IH]. Qed.
Lemma still_malloc al n : still (malloc al n).
Proof. intros w. unfold malloc. cbv zeta. by destruct (malloc_valid _ _ _ _). Qed.
Lemma still_mfree p : still (mfree p).
Proof. intros w. unfold mfree. destruct (p =? 0); [done|]. cbv zeta. by destruct (mtab _ !! p). Qed.

Ltac s0 :=
  intros; cbv zeta; repeat (
  lazymatch goal with
  | |- still (ret _) => apply still_ret
  | |- still (ubm _) => apply still_ubm
  | |- still (emit _) => apply still_emit; done
  | |- still (ktl_assert _) => apply still_assert
  | |- still (rd _) => apply still_rd
  | |- still (wr _ _) => apply still_wr
  | |- still (rds _ _) => apply still_rds
  | |- still (wrs _ _) => apply still_wrs
  | |- still (malloc _ _) => apply still_malloc
  | |- still (mfree _) => apply still_mfree
  | |- still (bind _ _) => apply still_bind
  | |- still (if ?c then _ else _) => destruct c
  | |- still (match ?x with _ => _ end) => destruct x
  | |- still (let '(_, _) := ?x in _) => destruct x
  | |- still (memset _ _ _) => unfold memset
  | |- still (memcpy _ _ _) => unfold memcpy
  | |- still (memmove _ _ _) => unfold memmove
  | |- still (rd_ptr _) => unfold rd_ptr
  | |- still (wr_ptr _ _) => unfold wr_ptr
  | |- still (Mem.load _ _) => unfold Mem.load
  | |- still (stor _ _ _) => unfold stor
  | |- still (obj_get _ _) => unfold obj_get
  | |- still (obj_set _ _ _) => unfold obj_set
  | |- still (obj_new _ _ _) => unfold obj_new
  | |- still (obj_del _ _) => unfold obj_del
  | |- still (obj_none _ _) => unfold obj_none
  | |- still (rd_byte _) => unfold rd_byte
  | |- still (e_get _ _ _) => unfold e_get
  | |- still (e_set _ _ _ _) => unfold e_set
  | |- still (e_new _ _ _ _) => unfold e_new
  | |- still (e_del _ _ _) => unfold e_del
  | |- still (e_leave _ _ _ _) => unfold e_leave
  | |- still (e_src _ _ _) => unfold e_src
  | |- still (e_take _ _ _) => unfold e_take
  | |- still (e_mov _ _ _ _) => unfold e_mov
  | |- still (assign _ _ _) => unfold assign
  | |- still (copy_in _ _ _) => unfold copy_in
  end; intros; cbv zeta).

Lemma still_amalloc pl n al : still (aligned_malloc pl n al).
Proof. destruct pl; cbn [aligned_malloc]; unfold posix_memalign; s0. Qed.
Lemma still_afree pl p : still (aligned_free pl p).
Proof. destruct pl; cbn [aligned_free]; s0. Qed.

(** * Allocators *)
Record hushed (A : alloc) : Prop := {
  hs_init : forall b, still (a_init A b);
  hs_alloc : forall b s n, still (a_alloc A b s n);
  hs_free : forall b s p n, still (a_free A b s p n);
  hs_max : forall mx b s, a_max A = Some mx -> still (mx b s);
  hs_cd : forall o k b s q act, a_cd A = Some o -> still act -> still (o k b s q act) }.
Definition discreet (A : alloc) : Prop := hushed A /\ forall b s, still (a_dtor A b s).

Ltac fields := cbn [a_init a_dtor a_alloc a_free a_max a_cd null_allocator mallocator linear_allocator stack_allocator].

Section allocators.
  Context (pl : platform).

  Lemma null_discreet : discreet null_allocator.
  Proof. split; [split|]; fields; try done; s0. Qed.
  Lemma malloc_discreet : discreet (mallocator pl).
  Proof. split; [split|]; fields; try done; s0; first [apply still_amalloc|apply still_afree]. Qed.
  Lemma linear_discreet Size : discreet (linear_allocator Size).
  Proof. split; [split|]; fields; try done; unfold lin_init, lin_alloc; s0. injection H as <-. s0. Qed.
  Lemma stack_discreet Size : discreet (stack_allocator Size).
  Proof. split; [split|]; fields; try done; unfold lin_init, lin_alloc; s0. injection H as <-. s0. Qed.

  Lemma freelist_discreet Min Max A : discreet A -> discreet (freelist Min Max A).
  Proof.
    intros [[Hi Ha Hf Hm Hc] Hd]. split; [split|]; cbn [a_init a_dtor a_alloc a_free a_max a_cd freelist].
    - s0. apply Hi.
    - intros b s n. unfold fl_alloc. s0. apply Ha.
    - intros b s p n. unfold fl_free. s0.
    - intros mx b s. destruct (a_max A) as [mx'|]; [|done]. intros [= <-]. by apply Hm.
    - intros o k b s q act. destruct (a_cd A) as [o'|]; [|done]. intros [= <-] Hact. s0. by apply Hc.
    - intros b s w. unfold fl_dtor.
      assert (Hr : forall fuel s nxt, still (fl_release Max A fuel b s nxt)).
      { induction fuel as [|fuel IH]; intros s1 nxt; cbn [fl_release]; s0; [apply Hf|apply IH]. }
      generalize (S (size (mem (st w)))). intros fuel. revert w. fold (still (s' <- fl_release Max A fuel b (f_in s) (f_head s) ;; a_dtor A b s')).
      s0; [apply Hr|apply Hd].
  Qed.

  Lemma cascading_discreet A : discreet A -> discreet (cascading pl A).
  Proof.
    intros [[Hi Ha Hf Hm Hc] Hd].
    assert (Hnew : still (new_node pl A)).
    { unfold new_node. s0; first [apply still_amalloc|apply Hi]. }
    assert (Hdel : forall nd, still (del_node pl A nd)).
    { intros nd. unfold del_node. s0; [apply Hd|apply still_afree]. }
    split; [split|]; cbn [a_init a_dtor a_alloc a_free a_max a_cd cascading cascading_with].
    - s0.
    - intros _ s n. unfold casc_alloc. apply still_bind.
      { destruct s as [|nd rest]; [|apply still_ret]. s0. done. }
      intros [nd rest]. apply still_bind.
      { destruct (a_max A) as [mx|] eqn:Em; [|apply still_ret]. apply still_bind; [by apply Hm|s0]. }
      intros [|]; [apply still_ret|]. s0; first [apply Ha|apply Hnew].
    - intros _ s p n. unfold casc_free. apply still_bind; [s0|intros _]. lazymatch goal with |- still (casc_free_loop _ _ ?ow _ _ _ _) => generalize ow as owns end.
      intros owns. generalize false as prev.
      induction s as [|nd s IH]; intros prev; cbn [casc_free_loop]; s0; first [apply Hf|apply Hdel|apply IH].
    - intros mx b s. destruct (a_max A) as [mx'|] eqn:Em; [|done]. intros [= <-]. unfold casc_max. destruct s; [s0|by apply Hm].
    - intros o k b s q act. destruct (a_cd A) as [o'|] eqn:Ec; [|done]. intros [= <-] Hact.
      induction s as [|nd s IH]; cbn [casc_cd]; s0; try done. by apply Hc.
    - intros _ s. generalize true as first. induction s as [|nd s IH]; intros first; cbn [casc_release]; s0; [apply Hdel..|apply IH].
  Qed.

  Section pair.
    Context (P F : alloc) (HP : discreet P) (HF : discreet F).

    Lemma pair_init_still b : still (pair_init P F b).
    Proof. unfold pair_init. s0; [apply (hs_init _ (proj1 HP))|apply (hs_init _ (proj1 HF))]. Qed.
    Lemma pair_dtor_still b s : still (pair_dtor P F b s).
    Proof. unfold pair_dtor. s0; [apply (proj2 HF)|apply (proj2 HP)]. Qed.
    Lemma pair_max_still mx b s : pair_max P F = Some mx -> still (mx b s).
    Proof.
      unfold pair_max, omap2. destruct (a_max P) as [mP|] eqn:EP; [|done]. destruct (a_max F) as [mF|] eqn:EF; [|done].
      intros [= <-]. s0; [by apply (hs_max _ (proj1 HP))|by apply (hs_max _ (proj1 HF))].
    Qed.
    Lemma pair_cd_still o k b s q act : pair_cd P F = Some o -> still act -> still (o k b s q act).
    Proof.
      unfold pair_cd. destruct (a_owns P) as [oP|]; [|done]. cbv zeta.
      destruct (a_cd P) as [cP|] eqn:EP, (a_cd F) as [cF|] eqn:EF; intros [= <-] Hact; s0;
        first [done|by apply (hs_cd _ (proj1 HP))|by apply (hs_cd _ (proj1 HF))].
    Qed.
    Lemma fallback_discreet : discreet (fallback P F).
    Proof.
      split; [split|]; cbn [a_init a_dtor a_alloc a_free a_max a_cd fallback].
      - apply pair_init_still.
      - intros b s n. unfold fb_alloc. s0; first [apply (hs_alloc _ (proj1 HP))|apply (hs_alloc _ (proj1 HF))].
      - intros b s p n. unfold fb_free. s0; first [apply (hs_free _ (proj1 HP))|apply (hs_free _ (proj1 HF))].
      - apply pair_max_still.
      - apply pair_cd_still.
      - apply pair_dtor_still.
    Qed.
    Lemma segragator_discreet T : discreet (segragator P F T).
    Proof.
      split; [split|]; cbn [a_init a_dtor a_alloc a_free a_max a_cd segragator].
      - apply pair_init_still.
      - intros b s n. unfold seg_alloc. s0; first [apply (hs_alloc _ (proj1 HP))|apply (hs_alloc _ (proj1 HF))].
      - intros b s p n. unfold seg_free. s0; first [apply (hs_free _ (proj1 HP))|apply (hs_free _ (proj1 HF))].
      - apply pair_max_still.
      - apply pair_cd_still.
      - apply pair_dtor_still.
    Qed.
  End pair.

  (** overflow itself reports nothing before it is destroyed. *)
  Lemma overflow_hushed A : discreet A -> hushed (overflow A).
  Proof.
    intros [[Hi Ha Hf Hm Hc] Hd]. split; cbn [a_init a_dtor a_alloc a_free a_max a_cd overflow].
    - s0. apply Hi.
    - intros b s n. unfold ov_alloc. s0. apply Ha.
    - intros b s p n. unfold ov_free.
      assert (H1 : forall k p i z, still (scan_before k p i z)).
      { induction k as [|k IH]; intros p0 j z; cbn [scan_before]; s0. apply IH. }
      assert (H2 : forall k p m i z, still (scan_after k p m i z)).
      { induction k as [|k IH]; intros p0 m j z; cbn [scan_after]; s0. apply IH. }
      s0; first [apply H1|apply H2|apply Hf].
    - intros mx b s. destruct (a_max A) as [mx'|]; [|done]. intros [= <-]. by apply Hm.
    - intros o k b s q act [= <-] Hact. unfold ov_cd. cbv zeta. destruct (a_cd A) as [o'|]; s0; first [done|by apply Hc].
  Qed.

  Lemma shared_discreet A : discreet A -> discreet (shared pl A).
  Proof.
    intros [[Hi Ha Hf Hm Hc] Hd]. split; [split|]; cbn [a_init a_dtor a_alloc a_free a_max a_cd shared].
    - s0; first [apply still_amalloc|apply Hi].
    - s0. apply Ha.
    - s0. apply Hf.
    - intros mx b s. destruct (a_max A) as [mx'|]; [|done]. intros [= <-]. by apply Hm.
    - intros o k b s q act. destruct (a_cd A) as [o'|]; [|done]. intros [= <-] Hact. s0. by apply Hc.
    - s0; first [apply Hd|apply still_afree].
  Qed.

  Lemma forwarding_discreet A : discreet A -> discreet (forwarding A).
  Proof. by intros [[Hi Ha Hf Hm Hc] Hd]. Qed.

  Lemma checked_discreet A : discreet A -> discreet (checked A).
  Proof.
    intros [[Hi Ha Hf Hm Hc] Hd]. split; [split|]; cbn [a_init a_dtor a_alloc a_free a_max a_cd checked].
    - s0. apply Hi.
    - s0. apply Ha.
    - s0. apply Hf.
    - intros mx b s. destruct (a_max A) as [mx'|]; [|done]. intros [= <-]. by apply Hm.
    - intros o k b s q act. destruct (a_cd A) as [o'|]; [|done]. intros [= <-] Hact. s0. by apply Hc.
    - s0. apply Hd.
  Qed.

  Lemma tree_discreet e : uncounted e = true -> discreet (den pl e).
  Proof.
    induction e as [| | | |Min Max e IH|e IH|p IHp f IHf|T p IHp f IHf|e IH|e IH|e IH|e IH|e IH|e IH]; cbn [den uncounted]; intros H;
      try (apply andb_true_iff in H as [H1 H2]); try discriminate H.
    - apply null_discreet.
    - apply malloc_discreet.
    - apply linear_discreet.
    - apply stack_discreet.
    - apply freelist_discreet. auto.
    - apply cascading_discreet. auto.
    - apply fallback_discreet; auto.
    - apply segragator_discreet; auto.
    - apply shared_discreet. auto.
    - apply forwarding_discreet. auto.
    - apply forwarding_discreet. auto.
    - apply forwarding_discreet. auto.
    - apply checked_discreet. auto.
  Qed.
End allocators.

(** * Containers

    Moreover no allocator object is lost. *)
Class Carry (A : alloc) (Y : Type) := carry : Y -> option (env A).
Global Instance carry_env A : Carry A (env A) | 0 := Some.
Global Instance carry_pair A Y Z `{Carry A Y, Carry A Z} : Carry A (Y * Z) | 1 :=
  fun x => match carry (snd x) with Some E => Some E | None => carry (fst x) end.
Global Instance carry_none A Y : Carry A Y | 100 := fun _ => None.

Definition full {A : alloc} (L : nat -> Prop) (E : env A) : Prop := forall h, L h -> is_Some (E !! h).
Definition keeps (A : alloc) (L : nat -> Prop) {Y} `{Carry A Y} (y : Y) : Prop := forall E : env A, carry y = Some E -> full L E.
Definition tame (A : alloc) (L : nat -> Prop) {Y} `{Carry A Y} (m : M Y) : Prop := forall w,
  match m w with Ok y _ e => plain e /\ keeps A L y | Err _ _ => True end.

Section cont.
  Context (A : alloc) (HA : hushed A) (b : N) (L : nat -> Prop).
  Local Notation tame := (tame A L).
  Local Notation keeps := (keeps A L).

  Lemma tame_ret {Y} `{Carry A Y} (y : Y) : keeps y -> tame (ret y).
  Proof. by intros Hy w. Qed.
  Lemma tame_ubm {Y} `{Carry A Y} u : tame (ubm (A:=Y) u).
  Proof. done. Qed.
  Lemma tame_bind {Y Z} `{Carry A Y, Carry A Z} (m : M Y) (f : Y -> M Z) :
    tame m -> (forall y, keeps y -> tame (f y)) -> tame (bind m f).
  Proof.
    intros Hm Hf w. unfold bind. specialize (Hm w). destruct (m w) as [y w1 e1|]; [|done]. destruct Hm as [H1 Hy].
    specialize (Hf y Hy w1). destruct (f y w1); [|done]. destruct Hf. split; [by apply plain_app|done].
  Qed.
  Lemma tame_still {Y} (m : M Y) : still m -> @StillFacts.tame A L Y (carry_none A Y) m.
  Proof. intros Hm w. specialize (Hm w). by destruct (m w). Qed.
  Lemma tame_skip {Y Z} `{Carry A Z} (m : M Y) (f : Y -> M Z) : still m -> (forall y, tame (f y)) -> tame (bind m f).
  Proof.
    intros Hm Hf. eapply (@tame_bind Y Z (carry_none A Y)); [by apply tame_still|]. auto.
  Qed.
  Lemma full_insert h s (E : env A) : full L E -> full L (<[h := s]> E).
  Proof. intros HE i Hi. rewrite lookup_insert_is_Some. destruct (decide (h = i)); auto. Qed.

  Lemma traits_still k p s q act : still act -> still (traits_cd A p k s q act).
  Proof using HA. intros H. unfold traits_cd. destruct (a_cd A) as [o|] eqn:Eo; [by apply (hs_cd _ HA)|s0; done]. Qed.
  Lemma te_alloc_tame sz h n (E : env A) : full L E -> tame (te_alloc A b sz h n E).
  Proof using HA.
    intros HE. unfold te_alloc. destruct (E !! h); [|by apply tame_ubm]. apply tame_skip; [by apply still_emit|intros _]. unfold ta_alloc.
    apply tame_skip; [apply (hs_alloc _ HA)|]. intros [p s']. apply tame_skip; [s0|intros _]. apply tame_ret.
    intros E' [= <-]. by apply full_insert.
  Qed.
  Lemma te_free_tame sz h p n (E : env A) : full L E -> tame (te_free A b sz h p n E).
  Proof using HA.
    intros HE. unfold te_free, ta_free. destruct (E !! h); [|by apply tame_ubm]. apply tame_skip; [apply (hs_free _ HA)|].
    intros s'. apply tame_ret. intros E' [= <-]. by apply full_insert.
  Qed.
  Lemma te_cd_tame k h q act (E : env A) : full L E -> still act -> tame (te_cd A b k h q act E).
  Proof using HA.
    intros HE Hact. unfold te_cd. destruct (E !! h); [|by apply tame_ubm]. apply tame_skip; [by apply traits_still|].
    intros s'. apply tame_ret. intros E' [= <-]. by apply full_insert.
  Qed.

  Lemma fill_still sz n p src : still (fill_n sz p n src).
  Proof. revert p. induction n as [|n IH]; intros p; cbn [fill_n]; s0. apply IH. Qed.
  Lemma store_still sz l p : still (store_list sz p l).
  Proof. revert p. induction l as [|x l IH]; intros p; cbn [store_list]; s0. apply IH. Qed.

  Ltac keep := let E' := fresh in intros E' [= <-]; assumption.
  Ltac learn := intros;
    repeat lazymatch goal with
    | y : _ * _ |- _ => destruct y
    | K : StillFacts.keeps _ _ _ |- _ => let K' := fresh "K" in pose proof (K _ eq_refl) as K'; clear K
    end.
  Ltac t0 := cbv zeta; repeat (
    lazymatch goal with
    | |- StillFacts.tame _ _ (ret _) => apply tame_ret; keep
    | |- StillFacts.tame _ _ (ubm _) => by apply tame_ubm
    | |- StillFacts.tame _ _ (te_alloc _ _ _ _ _ _) => by apply te_alloc_tame
    | |- StillFacts.tame _ _ (te_free _ _ _ _ _ _ _) => by apply te_free_tame
    | |- StillFacts.tame _ _ (te_cd _ _ _ _ _ _ _) => apply te_cd_tame; [assumption|s0]
    | |- StillFacts.tame _ _ (if ?c then _ else _) => destruct c
    | |- StillFacts.tame _ _ (let '(_, _) := ?x in _) => destruct x
    | |- StillFacts.tame _ _ (match ?x with _ => _ end) => destruct x
    | |- StillFacts.tame _ _ (bind _ _) =>
      first [apply tame_skip; [solve [s0; try first [apply fill_still|apply store_still]]|intros; learn]
            |apply tame_bind; [|intros; learn]]
    end; cbv zeta).

  Section vector.
    Context (sz : N).
    Lemma new_tame h n (E : env A) : full L E -> tame (new_n A b sz h n E).
    Proof using HA. intros HE. unfold new_n. t0. Qed.
    Lemma set_size_tame v n (E : env A) : full L E -> tame (set_size A b sz v n E).
    Proof using HA. intros HE. unfold set_size. t0. Qed.
    Lemma expand_tame v n (E : env A) : full L E -> tame (expand A b sz v n E).
    Proof using HA. intros HE. unfold expand. t0. by apply set_size_tame. Qed.
    Lemma copy_tame h v (E : env A) : full L E -> tame (copy_of A b sz h v E).
    Proof using HA. intros HE. unfold copy_of. t0. by apply new_tame. Qed.
    Lemma release_tame v (E : env A) : full L E -> tame (release A b sz v E).
    Proof using HA. intros HE. unfold release. t0. Qed.
    Lemma vdo_tame o (E : env A) vs : full L E -> tame (vdo A b sz o (E, vs)).
    Proof using HA.
      intros HE. destruct o; cbn [vdo]; unfold vassign, vmove_assign, resize, reserve, push_back, push_back_range, erase, erase_range; t0;
        first [by apply new_tame|by apply copy_tame|by apply release_tame|by apply expand_tame|by apply set_size_tame].
    Qed.
  End vector.

  Section array.
    Context (sz : N).
    Lemma anew_tame h n (E : env A) : full L E -> tame (anew_n A b sz h n E).
    Proof using HA. intros HE. unfold anew_n. t0. Qed.
    Lemma acopy_tame h v (E : env A) : full L E -> tame (acopy_of A b sz h v E).
    Proof using HA. intros HE. unfold acopy_of. t0. by apply anew_tame. Qed.
    Lemma arelease_tame v (E : env A) : full L E -> tame (arelease A b sz v E).
    Proof using HA. intros HE. unfold arelease. t0. Qed.
    Lemma ado_tame o (E : env A) vs : full L E -> tame (ado A b sz o (E, vs)).
    Proof using HA.
      intros HE. destruct o; cbn [ado]; unfold aassign, amove_assign, aresize, afrom; t0;
        first [by apply anew_tame|by apply acopy_tame|by apply arelease_tame].
    Qed.
  End array.

  Section heap.
    Context (sz : N) (T : elt) (comp : nat -> value -> value -> bool) (eqv : value -> value -> bool).
    Lemma construct_tame h q src (E : env A) : full L E -> tame (construct A b sz T h q src E).
    Proof using HA. intros HE. unfold construct. t0. Qed.
    Lemma construct_move_tame h q a (E : env A) : full L E -> tame (construct_move A b sz T h q a E).
    Proof using HA. intros HE. unfold construct_move. t0. Qed.
    Lemma destroy_tame h q (E : env A) : full L E -> tame (destroy A b sz T h q E).
    Proof using HA. intros HE. unfold destroy. t0. Qed.
    Lemma give_back_tame h p cap n (E : env A) : full L E -> tame (give_back A b sz h p cap n E).
    Proof using HA. intros HE. unfold give_back. t0. Qed.
    Lemma copy_n_tame h n dst src (E : env A) : full L E -> tame (copy_n A b sz T h dst src n E).
    Proof using HA. revert dst src E. induction n as [|n IH]; intros dst src E HE; cbn [copy_n]; t0; [by apply construct_tame|by apply IH]. Qed.
    Lemma move_n_tame h n dst src (E : env A) : full L E -> tame (move_n A b sz T h dst src n E).
    Proof using HA. revert dst src E. induction n as [|n IH]; intros dst src E HE; cbn [move_n]; t0; [by apply construct_move_tame|by apply IH]. Qed.
    Lemma destroy_n_tame h n p (E : env A) : full L E -> tame (destroy_n A b sz T h p n E).
    Proof using HA. revert p E. induction n as [|n IH]; intros p E HE; cbn [destroy_n]; t0; [by apply destroy_tame|by apply IH]. Qed.
    Lemma hrelease_tame x (E : env A) : full L E -> tame (hrelease A b sz T x E).
    Proof using HA. intros HE. unfold hrelease. t0; [by apply destroy_n_tame|by apply give_back_tame]. Qed.
    Lemma hset_size_tame x n (E : env A) : full L E -> tame (hset_size A b sz T x n E).
    Proof using HA. intros HE. unfold hset_size. t0; first [by apply move_n_tame|by apply destroy_n_tame|by apply give_back_tame]. Qed.
    Lemma hexpand_tame x n (E : env A) : full L E -> tame (hexpand A b sz T x n E).
    Proof using HA. intros HE. unfold hexpand. t0. by apply hset_size_tame. Qed.
    Lemma up_still fuel q p j v : still (up_loop sz T comp fuel q p j v).
    Proof. revert j. induction fuel as [|fuel IH]; intros j; cbn [up_loop]; s0. apply IH. Qed.
    Lemma percolate_up_still q p j : still (percolate_up sz T comp q p j).
    Proof. unfold percolate_up. s0. apply up_still. Qed.
    Lemma down_still fuel q p n j : still (down_loop sz T comp fuel q p n j).
    Proof. revert j. induction fuel as [|fuel IH]; intros j; cbn [down_loop]; unfold pick; s0. apply IH. Qed.
    Lemma percolate_down_still q p n j : still (percolate_down sz T comp q p n j).
    Proof. unfold percolate_down. s0. apply down_still. Qed.
    Lemma find_still src p n j : still (find_loop sz T eqv src p j n).
    Proof. revert j. induction n as [|n IH]; intros j; cbn [find_loop]; s0; apply IH. Qed.
    Lemma hinsert_tame x src (E : env A) : full L E -> tame (hinsert A b sz T comp x src E).
    Proof using HA.
      intros HE. unfold hinsert. apply tame_bind.
      - t0. by apply hexpand_tame.
      - intros [y E1] K. learn. apply tame_bind; [by apply construct_tame|]. intros E2 K2. learn.
        apply tame_skip; [apply percolate_up_still|]. intros i. t0.
    Qed.
    Lemma insert_list_tame l x (E : env A) : full L E -> tame (insert_list A b sz T comp x l E).
    Proof using HA. revert x E. induction l as [|v l IH]; intros x E HE; cbn [insert_list]; t0; [by apply hinsert_tame|by apply IH]. Qed.
    Lemma hcopy_tame h x (E : env A) : full L E -> tame (hcopy_of A b sz T h x E).
    Proof using HA. intros HE. unfold hcopy_of. t0. by apply copy_n_tame. Qed.
    Lemma hpop_tame x (E : env A) : full L E -> tame (hpop A b sz T comp x E).
    Proof using HA.
      intros HE. unfold hpop. do 3 (apply tame_skip; [s0|intros]). apply tame_bind; [by apply destroy_tame|]. intros E1 K. learn.
      apply tame_skip; [s0; apply percolate_down_still|]. intros i. t0.
    Qed.
    Lemma hdo_tame o (E : env A) vs : full L E -> tame (hdo A b sz T comp eqv o (E, vs)).
    Proof using HA.
      intros HE. destruct o; cbn [hdo]; unfold hassign, hmove_assign, hreserve; t0;
        first [by apply insert_list_tame|by apply hcopy_tame|by apply hrelease_tame|by apply hinsert_tame|by apply hset_size_tame|by apply hpop_tame
              |by apply destroy_n_tame|by apply give_back_tame|by apply copy_n_tame|by apply tame_still, find_still].
    Qed.
  End heap.
End cont.
