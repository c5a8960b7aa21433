(** What the allocators do exactly where the general claims fail (C93). *)
From Coq Require Import ssreflect.
From Verif Require Import Base Mem Wp Bits BitsProofs AlignedMalloc Allocators Client LinearProofs AllocSpec AllocFacts
  LinearFacts MiscFacts Never NeverFacts.
Local Open Scope N_scope.

(** * linear_allocator, stack_allocator *)
Lemma round_unique n R : R mod 16 = 0 -> n <= R < n + 16 -> R = padN n.
Proof. intros. pose proof (padN_mod n). pose proof (padN_bounds n). lia. Qed.

Lemma lin_exact Size b s bl n R w :
  reachable (linear_allocator Size) (fun n => n + 15 + Size <? W) b s bl \/
  reachable (stack_allocator Size) (fun n => n + 15 + Size <? W) b s bl ->
  n < W -> R mod 16 = 0 -> n <= R < n + 16 ->
  exists s', lin_alloc Size b s n w =
    Ok (if (l_free s - b + R <=? Size) || (W <=? l_free s - b + R) then l_free s else 0, s') w [] /\
    l_free s' = if l_free s - b + R <=? Size then l_free s + R
                else if W <=? l_free s - b + R then l_free s + R - W else l_free s.
Proof.
  intros Hr Hn HR1 HR2.
  assert (lin_full Size b s bl) as [[(Hb1&Hb2&Hb3) ((Hf1&Hf2)&Hf3) _ _ _] _].
  { destruct Hr as [Hr|Hr]; [by apply lin_reach|by apply stack_reach]. }
  unfold lin_size in Hb3. rewrite (round_unique n R HR1 HR2). clear R HR1 HR2. unfold lin_alloc. cbv zeta.
  pose proof (padN_bounds n) as HP. pose proof (padN_mod n) as HPm.
  rewrite sub64_small; [|lia|lia]. unfold padded. change (n + align_to_architecture n) with (padN n).
  unfold add64 at 2. unfold w64. fold (padN n). change (n + align_to_architecture n) with (padN n).
  assert (Hbp : padN n <= W). { change W with 18446744073709551616 in *. lia. }
  destruct (N.leb_spec (l_free s - b + padN n) Size) as [H1|H1]; cbn [orb].
  - rewrite (N.mod_small (padN n)); [|lia]. rewrite add64_small; [|lia].
    rewrite (proj2 (N.ltb_ge _ _)); [|lia]. eexists. split; [done|]. cbn [l_free].
    unfold add64, w64. rewrite !(N.mod_small (n + align_to_architecture n)); [|unfold padN in *; lia].
    rewrite N.mod_small; unfold padN in *; lia.
  - destruct (N.leb_spec W (l_free s - b + padN n)) as [H2|H2].
    + assert (Hm : (l_free s - b + padN n mod W) mod W = l_free s - b + padN n - W).
      { rewrite N.add_mod_idemp_r; [|by vm_compute]. symmetry. apply (N.mod_unique _ _ 1); lia. }
      unfold add64 at 1, w64 at 1. rewrite Hm. rewrite (proj2 (N.ltb_ge _ _)); [|lia].
      eexists. split; [done|]. cbn [l_free]. unfold add64, w64.
      change (n + align_to_architecture n) with (padN n). rewrite N.add_mod_idemp_r; [|by vm_compute].
      symmetry. apply (N.mod_unique _ _ 1); lia.
    + rewrite (N.mod_small (padN n)); [|lia]. rewrite add64_small; [|lia].
      rewrite (proj2 (N.ltb_lt _ _)); [|lia]. by eexists.
Qed.

Lemma lin_attain Size b s w :
  reachable (linear_allocator Size) (fun n => n + 15 + Size <? W) b s [] \/
  reachable (stack_allocator Size) (fun n => n + 15 + Size <? W) b s [] ->
  exists s', lin_alloc Size b s Size w = Ok (if Size mod 16 =? 0 then b else 0, s') w [].
Proof.
  intros Hr.
  assert (lin_full Size b s []) as [[(Hb1&Hb2&Hb3) _ (Hc1&_) _ _] Hf].
  { destruct Hr as [Hr|Hr]; [by apply lin_reach|by apply stack_reach]. }
  specialize (Hf Hc1). unfold lin_size in Hb3. pose proof (padN_bounds Size). pose proof (padN_mod Size).
  change (Size + align_to_architecture Size) with (padN Size) in Hb3.
  destruct (lin_exact Size b s [] Size (padN Size) w Hr) as (s'&H1&_); [lia|done|done|]. exists s'. rewrite H1. clear H1.
  rewrite Hf. repeat f_equal.
  destruct (Size mod 16 =? 0) eqn:E.
  - assert (padN Size = Size) by lia. rewrite (proj2 (N.leb_le (b - b + padN Size) Size)); [done|lia].
  - rewrite (proj2 (N.leb_gt (b - b + padN Size) Size)); [|lia]. cbn [orb].
    rewrite (proj2 (N.leb_gt W _)); [done|lia].
Qed.

(** * The POSIX branch of aligned_malloc *)
Lemma pow2_iff n : is_pow2 n = true <-> exists k, n = 2 ^ k.
Proof.
  unfold is_pow2. rewrite andb_true_iff N.ltb_lt N.eqb_eq. split.
  - intros [Hn Hl]. exists (N.log2 n). destruct (N.log2_spec n Hn) as [H1 H2].
    destruct (N.eq_dec n (2 ^ N.log2 n)) as [E|E]; [done|exfalso].
    assert (Hk : N.log2 (n - 1) = N.log2 n).
    { apply N.log2_unique; [lia|]. split; [lia|]. lia. }
    assert (N.testbit (N.land n (n - 1)) (N.log2 n) = true) as Ht.
    { rewrite N.land_spec. rewrite -{2}Hk. rewrite !N.bit_log2; [done| |]; [|lia].
      assert (1 <= 2 ^ N.log2 n) by (apply (N.pow_le_mono_r 2 0); lia). lia. }
    rewrite Hl N.bits_0 in Ht. done.
  - intros [k ->]. assert (0 < 2 ^ k) by (apply N.neq_0_lt_0; by apply N.pow_nonzero). split; [done|].
    replace (2 ^ k - 1) with (N.ones k) by (rewrite N.ones_equiv; lia).
    rewrite N.land_ones N.mod_same; [done|lia].
Qed.

Lemma pow2_mod8 k : (2 ^ k) mod 8 = 0 <-> 3 <= k.
Proof.
  split.
  - intros H. destruct (N.le_gt_cases 3 k); [done|]. assert (k = 0 \/ k = 1 \/ k = 2) as [->|[-> | ->]] by lia; done.
  - intros H. replace k with (k - 3 + 3) by lia. rewrite N.pow_add_r. change (2 ^ 3) with 8. by apply N.mod_mul.
Qed.

Lemma posix_exact n w :
  match aligned_malloc PPosix n 16 w with
  | Ok p w' e =>
    p = 0 /\ st w' = st w \/
    (exists k, 3 <= k /\ n = 2 ^ k) /\ p <> 0 /\ p mod n = 0 /\ mtab (st w') = <[p := 16]> (mtab (st w)) /\
    (forall i, is_Some (mem (st w') !! i) <-> is_Some (mem (st w) !! i) \/ p <= i < p + 16) /\
    (forall i, p <= i < p + 16 -> mem (st w) !! i = None)
  | Err _ _ => False
  end.
Proof.
  cbn [aligned_malloc]. unfold posix_memalign. destruct (_ && _) eqn:E; [|by left].
  apply andb_true_iff in E as [E1 E2]. apply pow2_iff in E1 as [k ->]. apply N.eqb_eq, pow2_mod8 in E2.
  unfold malloc. cbv zeta. set (p := orc w (tick w)). destruct (malloc_valid _ _ _ _) eqn:V; [right|by left].
  unfold malloc_valid in V. apply andb_true_iff in V as [[[V1 V2]%andb_true_iff V3]%andb_true_iff V4].
  apply negb_true_iff, N.eqb_neq in V1. apply N.eqb_eq in V2. rewrite vacant_spec in V4.
  split; [by exists k|]. split; [done|]. split; [done|]. split; [done|]. cbn [st mem].
  change (N.of_nat (N.to_nat (N.max 16 1))) with 16 in V4. split.
  - intros i. rewrite lookup_union_is_Some fill_dom repeat_length. by rewrite N2Nat.id.
  - intros i Hi. by apply V4.
Qed.

Lemma posix_only_pow2 n w : (forall k, 3 <= k -> n <> 2 ^ k) -> aligned_malloc PPosix n 16 w = Ok 0 w [].
Proof.
  intros Hk. cbn [aligned_malloc]. unfold posix_memalign. destruct (_ && _) eqn:E; [|done].
  apply andb_true_iff in E as [E1 E2]. apply pow2_iff in E1 as [k ->]. apply N.eqb_eq, pow2_mod8 in E2. by destruct (Hk k).
Qed.

(** * type_allocator over malloc *)
Lemma type_exact pl sz n b w p s w' e : direct pl = true ->
  ta_alloc sz (mallocator pl) b tt n w = Ok (p, s) w' e -> p <> 0 ->
  mtab (st w') = <[p := (sz * n) mod W]> (mtab (st w)) /\
  (forall i, is_Some (mem (st w') !! i) <-> is_Some (mem (st w) !! i) \/ p <= i < p + (sz * n) mod W).
Proof.
  intros Hpl H Hp. unfold ta_alloc, mul64, w64 in H. cbn [a_alloc mallocator] in H.
  set (m := (sz * n) mod W) in *.
  assert (Hal : aligned_malloc pl m ALIGNMENT = malloc 16 m) by by destruct pl. rewrite Hal in H.
  apply bind_inv in H as (p'&w1&e1&e2&H1&H2&_). apply ret_inv in H2 as ([= -> _]&<-&_).
  unfold malloc in H1. cbv zeta in H1. destruct (malloc_valid _ _ _ _); injection H1 as E1 E2 _; [|done].
  subst w1. cbn [st mem mtab]. rewrite E1. split; [done|].
  intros i. by rewrite lookup_union_is_Some fill_dom repeat_length N2Nat.id.
Qed.

(** * cascading *)
Section casc.
  Context (pl : platform) (A : alloc).
  Local Notation C := (cascading pl A).

  Lemma casc_alloc_some s n w p s' w' e : casc_alloc pl A s n w = Ok (p, s') w' e -> s' <> [].
  Proof.
    intros H. unfold casc_alloc in H. apply bind_inv in H as ([nd rest]&w1&e1&e2&_&H&_).
    apply bind_inv in H as (over&w2&e3&e4&_&H&_). destruct over.
    { by apply ret_inv in H as ([= _ <-]&_&_). }
    apply bind_inv in H as ([q si]&w3&e5&e6&_&H&_). cbv zeta in H. destruct (q =? 0).
    - apply bind_inv in H as (nd2&w4&e7&e8&_&H&_). apply bind_inv in H as ([q2 si2]&w5&e9&e10&_&H&_).
      by apply ret_inv in H as ([= _ <-]&_&_).
    - by apply ret_inv in H as ([= _ <-]&_&_).
  Qed.

  Lemma casc_free_some o s p n w s' w' e : casc_free pl A o s p n w = Ok s' w' e -> (s' = [] <-> s = []).
  Proof.
    unfold casc_free. intros (?&w1&e1&e2&_&H&_)%bind_inv. revert H.
    destruct s as [|nd rest]; cbn [casc_free_loop]; [by intros (<-&_&_)%ret_inv|].
    destruct (o _ _ p).
    - intros (si&w2&e3&e4&_&H&_)%bind_inv. cbv zeta in H. rewrite andb_false_r in H. by apply ret_inv in H as (<-&_&_).
    - intros (si&w2&e3&e4&_&H&_)%bind_inv. by apply ret_inv in H as (<-&_&_).
  Qed.

  Lemma casc_cd_some o f c s p act w s' w' e : casc_cd A o f c s p act w = Ok s' w' e -> (s' = [] <-> s = []).
  Proof.
    destruct s as [|nd rest]; cbn [casc_cd].
    - intros (?&w1&e1&e2&_&H&_)%bind_inv. apply bind_inv in H as (?&w2&e3&e4&_&H&_). by apply ret_inv in H as (<-&_&_).
    - destruct (o _ _ p); intros (si&w2&e3&e4&_&H&_)%bind_inv; by apply ret_inv in H as (<-&_&_).
  Qed.

  Lemma casc_step_some b ready o s bl ob s' bl' w w' e : step C b ready o s bl w = Ok (ob, (s', bl')) w' e ->
    (s' = [] <-> s = [] /\ forall n, o <> OAlloc n).
  Proof.
    destruct o as [n|i|i off v|i off|q| |i off v|i off]; cbn [step]; intros H.
    - apply bind_inv in H as ([p s1]&w1&e1&e2&H1&H2&_). apply ret_inv in H2 as ([= _ <- _]&_&_).
      apply casc_alloc_some in H1. split; [done|]. intros [_ H]. by destruct (H n).
    - destruct (bl !! i) as [[p n]|].
      + apply bind_inv in H as (s1&w1&e1&e2&H1&H2&_). apply ret_inv in H2 as ([= _ <- _]&_&_).
        rewrite (casc_free_some _ _ _ _ _ _ _ _ H1). naive_solver.
      + apply ret_inv in H as ([= _ <- _]&_&_). naive_solver.
    - destruct (bl !! i) as [[p n]|]; [destruct (off <? n)|]; try apply bind_inv in H as (?&?&?&?&_&H&_);
        apply ret_inv in H as ([= _ <- _]&_&_); naive_solver.
    - destruct (bl !! i) as [[p n]|]; [destruct (off <? n)|]; try apply bind_inv in H as (?&?&?&?&_&H&_);
        apply ret_inv in H as ([= _ <- _]&_&_); naive_solver.
    - destruct (a_owns C); apply ret_inv in H as ([= _ <- _]&_&_); naive_solver.
    - destruct (a_max C); [destruct (ready b s)|]; try apply bind_inv in H as (?&?&?&?&_&H&_);
        apply ret_inv in H as ([= _ <- _]&_&_); naive_solver.
    - destruct (bl !! i) as [[p n]|]; [destruct (off <? n)|].
      2-3: apply ret_inv in H as ([= _ <- _]&_&_); naive_solver.
      apply bind_inv in H as (s1&w1&e1&e2&H1&H2&_). apply ret_inv in H2 as ([= _ <- _]&_&_).
      assert (s1 = [] <-> s = []) as ->; [|naive_solver]. unfold traits_cd in H1. cbn [a_cd cascading cascading_with] in H1.
      destruct (a_cd A); cbn [option_map] in H1; [by eapply casc_cd_some|].
      apply bind_inv in H1 as (?&?&?&?&_&H1&_). by apply ret_inv in H1 as (<-&_&_).
    - destruct (bl !! i) as [[p n]|]; [destruct (off <? n)|].
      2-3: apply ret_inv in H as ([= _ <- _]&_&_); naive_solver.
      apply bind_inv in H as (s1&w1&e1&e2&H1&H2&_). apply ret_inv in H2 as ([= _ <- _]&_&_).
      assert (s1 = [] <-> s = []) as ->; [|naive_solver]. unfold traits_cd in H1. cbn [a_cd cascading cascading_with] in H1.
      destruct (a_cd A); cbn [option_map] in H1; [by eapply casc_cd_some|].
      apply bind_inv in H1 as (?&?&?&?&_&H1&_). by apply ret_inv in H1 as (<-&_&_).
  Qed.

  Lemma casc_run_some b ready ops s bl os s' bl' w w' e : run C b ready ops s bl w = Ok (os, (s', bl')) w' e ->
    (s' = [] <-> s = [] /\ forall n, ~ In (OAlloc n) ops).
  Proof.
    revert s bl os w w' e. induction ops as [|o ops IH]; intros s bl os w w' e H; cbn [run] in H.
    - apply ret_inv in H as ([= _ <- _]&_&_). naive_solver.
    - apply bind_inv in H as ([ob [s1 bl1]]&w1&e1&e2&H1&H&_).
      apply bind_inv in H as ([os1 [s2 bl2]]&w2&e3&e4&H2&H&_). apply ret_inv in H as ([= _ <- <-]&_&_).
      apply IH in H2. apply casc_step_some in H1. rewrite H2 H1. cbn [In]. naive_solver.
  Qed.

  (** max_size of the composition. *)
  Lemma casc_max_exact b ready ops os s bl w w' e mx : a_max C = Some mx ->
    run C b ready ops [] [] w = Ok (os, (s, bl)) w' e ->
    ((forall n, ~ In (OAlloc n) ops) -> forall w, mx b s w = Err UBNull []) /\
    (forall n, In (OAlloc n) ops -> exists nd rest mx', s = nd :: rest /\ a_max A = Some mx' /\
      forall w, mx b s w = mx' (nd_addr nd) (nd_in nd) w).
  Proof.
    cbn [a_max cascading cascading_with]. destruct (a_max A) as [mx'|] eqn:EA; [|done]. intros [= <-] H.
    apply casc_run_some in H. split.
    - intros Hn w0. rewrite (proj2 H); [done|]. done.
    - intros n Hn. destruct s as [|nd rest]; [|by exists nd, rest, mx'].
      exfalso. destruct H as [H _]. destruct (H eq_refl) as [_ H']. by apply (H' n).
  Qed.

  Lemma nested_never pl' b n : a_max A <> None -> never (a_alloc (cascading pl' C) b [] n).
  Proof.
    intros HA. apply never_alt. intros w x w' e. cbn [a_alloc cascading cascading_with]. unfold casc_alloc.
    intros ([nd rest]&w1&e1&e2&H1&H&_)%bind_inv. apply bind_inv in H1 as (nd'&w2&e3&e4&H1&H2&_).
    apply ret_inv in H2 as ([= -> <-]&->&_). unfold new_node in H1.
    apply bind_inv in H1 as (p&w3&e5&e6&_&H1&_). destruct (p =? 0).
    { by apply bind_inv in H1 as (?&?&?&?&_&H1&_). }
    apply bind_inv in H1 as (si&w4&e7&e8&H3&H1&_). apply ret_inv in H1 as (<-&->&_).
    cbn [a_init cascading cascading_with] in H3. apply ret_inv in H3 as (<-&_&_).
    apply bind_inv in H as (over&w5&e9&e10&H&_&_). cbn [a_max cascading cascading_with nd_addr nd_in] in H.
    destruct (a_max A); [|done]. cbn [option_map] in H. by apply bind_inv in H as (?&?&?&?&H&_&_).
  Qed.

  (** The destructor reports once for every instance but the first. *)
  Lemma release_exact b s w w' e : (forall b s w w' u e, a_dtor A b s w = Ok u w' e -> e = []) ->
    a_dtor C b s w = Ok tt w' e -> e = repeat (EvAssert ARelease) (length s - 1).
  Proof.
    intros HA. cbn [a_dtor cascading cascading_with].
    assert (Hf : forall p w u w' e, aligned_free pl p w = Ok u w' e -> e = []).
    { clear. intros p w u w' e. assert (forall p w u w' e, mfree p w = Ok u w' e -> e = []) as Hm.
      { clear. intros p w u w' e. unfold mfree. destruct (p =? 0); [by intros [= _ _ <-]|].
        cbv zeta. destruct (mtab _ !! p); [by intros [= _ _ <-]|done]. }
      destruct pl; cbn [aligned_free]; try apply Hm. destruct (p =? 0); [by intros (_&_&->)%ret_inv|].
      intros (q&w1&e1&e2&H1&H2&->)%bind_inv. apply Hm in H2 as ->. unfold rd_ptr in H1.
      apply bind_inv in H1 as (cs&w2&e3&e4&H1&H2&->).
      assert (forall k a w cs w' e, rds a k w = Ok cs w' e -> e = []) as Hr.
      { clear. induction k as [|k IH]; intros a w cs w' e; cbn [rds]; [by intros (_&_&->)%ret_inv|].
        intros (c&w1&e1&e2&H1&H2&->)%bind_inv. apply bind_inv in H2 as (?&w2&e3&e4&H2&H3&->).
        apply ret_inv in H3 as (_&_&->). apply IH in H2 as ->. unfold rd in H1.
        destruct (mem _ !! a); [by injection H1 as _ _ <-|done]. }
      apply Hr in H1 as ->. destruct (dec cs); [by apply ret_inv in H2 as (_&_&->)|done]. }
    assert (Hrest : forall s w w' e, casc_release pl A false s w = Ok tt w' e -> e = repeat (EvAssert ARelease) (length s)).
    { clear s w w' e. induction s as [|nd s IH]; intros w w' e; cbn [casc_release]; [by intros (_&_&->)%ret_inv|].
      intros (?&w1&e1&e2&H1&H2&->)%bind_inv. injection H1 as _ _ <-.
      apply bind_inv in H2 as ([]&w2&e3&e4&H2&H3&->). apply IH in H3 as ->.
      unfold del_node in H2. apply bind_inv in H2 as (?&w3&e5&e6&H2&H4&->). apply HA in H2 as ->. apply Hf in H4 as ->.
      done. }
    destruct s as [|nd s]; cbn [casc_release]; [by intros (_&_&->)%ret_inv|].
    intros (?&w1&e1&e2&H1&H2&->)%bind_inv. apply ret_inv in H1 as (_&_&->).
    apply bind_inv in H2 as ([]&w2&e3&e4&H2&H3&->). apply Hrest in H3 as ->.
    unfold del_node in H2. apply bind_inv in H2 as (?&w3&e5&e6&H2&H4&->). apply HA in H2 as ->. apply Hf in H4 as ->.
    cbn [length app]. f_equal. lia.
  Qed.
End casc.

(** * Refused requests *)
Section refused.
  Context (pl : platform) (Size n : N).
  Context (Hpl : direct pl = true) (Hn : n <= Size) (HR : Size < padN n) (HW : padN n < W).
  Local Notation L := (linear_allocator Size).
  Local Notation C := (cascading pl L).

  Lemma new_lin w :
    (exists p w', new_node pl L w = Ok (Node p (Lin p 0 : a_st L) 0) w' [] /\ p <> 0 /\ p < W /\
       size (mtab (st w')) = S (size (mtab (st w)))) \/
    new_node pl L w = Err UBNull [EvRefuse; EvFail].
  Proof.
    unfold new_node. assert (Hal : forall m, aligned_malloc pl m ALIGNMENT = malloc 16 m) by (intros; by destruct pl).
    rewrite Hal. set (p := orc w (tick w)).
    destruct (malloc_valid 16 p (node_size L) (st w)) eqn:V; [left|right].
    2: { unfold bind at 1. unfold malloc at 1. cbv zeta. fold p. by rewrite V. }
    set (w1 := World (Store (mem (st w) ∪ fill p (repeat Undef (N.to_nat (node_size L)))) (<[p := node_size L]> (mtab (st w))))
                   (orc w) (S (tick w))).
    assert (Hm : malloc 16 (node_size L) w = Ok p w1 []). { unfold malloc. cbv zeta. fold p. by rewrite V. }
    unfold malloc_valid in V.
    apply andb_true_iff in V as [[[V1 V2]%andb_true_iff V3]%andb_true_iff V4].
    apply negb_true_iff in V1. apply N.ltb_lt in V3. rewrite vacant_spec in V4.
    destruct (wrs_ok (repeat (Byte 0) (N.to_nat Size)) p w1) as (w2&H2&_&H3).
    { intros i Hi. rewrite repeat_length N2Nat.id in Hi. cbn [w1 st mem]. apply lookup_union_is_Some. right.
      apply fill_dom. rewrite repeat_length N2Nat.id. unfold node_size. cbn [a_size linear_allocator]. lia. }
    exists p, w2. split.
    { unfold bind at 1. rewrite Hm V1. cbn [a_init linear_allocator]. unfold lin_init, memset, bind. by rewrite H2. }
    apply N.eqb_neq in V1. split; [done|]. split; [lia|]. rewrite H3. cbn [w1 st mtab].
    rewrite map_size_insert_None; [done|]. apply V4. split; [lia|]. rewrite N2Nat.id. lia.
  Qed.

  Lemma fresh_refuses p w : p < W -> lin_alloc Size p (Lin p 0) n w = Ok (0, Lin p 0) w [].
  Proof.
    intros Hp. unfold lin_alloc. cbv zeta. cbn [l_free]. rewrite sub64_small; [|lia|lia].
    assert (padded n = padN n) as -> by (unfold padded; by apply add64_small).
    replace (p - p + padN n) with (padN n) by lia. rewrite N.sub_diag add64_small; [|lia].
    rewrite (proj2 (N.ltb_lt Size _)); [done|lia].
  Qed.

  Definition idle (s : list (node L)) : Prop := exists p rest, s = Node p (Lin p 0 : a_st L) 0 :: rest /\ p < W.

  Lemma refuse_eq p rest w : p < W -> casc_alloc pl L (Node p (Lin p 0 : a_st L) 0 :: rest) n w =
    (nd2 <- new_node pl L ;; ' (p2, si2) <- lin_alloc Size (nd_addr nd2) (nd_in nd2) n ;;
     ret (p2, Node (nd_addr nd2) (si2 : a_st L) (if p2 =? 0 then nd_cnt nd2 else add64 (nd_cnt nd2) 1) ::
              Node p (Lin p 0 : a_st L) 0 :: rest)) w.
  Proof.
    intros Hp. unfold casc_alloc. rewrite bind_ret. cbn [a_max linear_allocator nd_addr nd_in nd_cnt a_alloc].
    unfold bind at 1. rewrite bind_ret. unfold ret at 1. rewrite (proj2 (N.ltb_ge Size n)); [|lia].
    unfold bind at 1. rewrite fresh_refuses; [|done]. cbn [N.eqb app]. cbv zeta.
    by destruct (bind _ _ w).
  Qed.

  Lemma refuse_step s w : idle s ->
    (exists s' w', casc_alloc pl L s n w = Ok (0, s') w' [] /\ idle s' /\ length s' = S (length s) /\
       size (mtab (st w')) = S (size (mtab (st w)))) \/
    casc_alloc pl L s n w = Err UBNull [EvRefuse; EvFail].
  Proof.
    intros (p&rest&->&Hp). rewrite refuse_eq //. unfold bind at 1 3.
    destruct (new_lin w) as [(q&w'&H1&H2&H3&H4)|H1]; rewrite H1; [left|by right].
    cbn [nd_addr nd_in nd_cnt]. unfold bind. rewrite fresh_refuses; [|done]. cbn [N.eqb ret app].
    eexists _, w'. split; [done|]. split; [by eexists _, _|]. split; [done|done].
  Qed.

  Lemma refuse_first w :
    (exists s' w', casc_alloc pl L [] n w = Ok (0, s') w' [] /\ idle s' /\ length s' = 2%nat /\
       size (mtab (st w')) = S (S (size (mtab (st w))))) \/
    casc_alloc pl L [] n w = Err UBNull [EvRefuse; EvFail].
  Proof.
    destruct (new_lin w) as [(q&w1&H1&H2&H3&H4)|H1].
    - assert (Heq : casc_alloc pl L [] n w = casc_alloc pl L [Node q (Lin q 0 : a_st L) 0] n w1).
      { unfold casc_alloc. rewrite bind_ret. unfold bind at 1. unfold bind at 1. rewrite H1. unfold ret at 1. cbn [app].
        by destruct (bind _ _ w1). }
      rewrite Heq. destruct (refuse_step [Node q (Lin q 0 : a_st L) 0] w1) as [(s'&w'&H5&H6&H7&H8)|H5]; [by eexists _, _| |].
      + left. exists s', w'. split; [done|]. split; [done|]. split; [done|]. by rewrite H8 H4.
      + by right.
    - right. unfold casc_alloc. unfold bind at 1. unfold bind at 1. by rewrite H1.
  Qed.

  Lemma ask_idle b k s w : idle s ->
    match ask C b n k s w with
    | Ok l _ e => e = [] /\ l = map (fun i => (0, (size (mtab (st w)) + S i)%nat)) (seq 0 k)
    | Err u e => u = UBNull /\ e = [EvRefuse; EvFail]
    end.
  Proof.
    revert s w. induction k as [|k IH]; intros s w Hs; [done|]. cbn [ask]. unfold bind at 1.
    cbn [a_alloc cascading cascading_with].
    destruct (refuse_step s w Hs) as [(s'&w'&H1&H2&_&H3)|H1]; rewrite H1; [|done].
    unfold bind at 1. unfold heap_blocks at 1. unfold bind at 1. specialize (IH s' w' H2).
    destruct (ask C b n k s' w') as [l w2 e|u e]; [|done]. destruct IH as [-> IH]. cbn [ret app]. split; [done|].
    cbn [seq map]. f_equal; [f_equal; lia|]. rewrite IH -seq_shift map_map. apply map_ext. intros i. f_equal. lia.
  Qed.

  Lemma ask_fresh b k w :
    match (s <- a_init C b ;; ask C b n k s) w with
    | Ok l _ e => e = [] /\ l = map (fun i => (0, (size (mtab (st w)) + 2 + i)%nat)) (seq 0 k)
    | Err u e => u = UBNull /\ e = [EvRefuse; EvFail]
    end.
  Proof.
    cbn [a_init cascading cascading_with]. unfold bind at 1, ret at 1. destruct k as [|k]; [done|]. cbn [ask]. unfold bind at 1.
    cbn [a_alloc cascading cascading_with].
    destruct (refuse_first w) as [(s'&w'&H1&H2&_&H3)|H1]; rewrite H1; [|done].
    unfold bind at 1. unfold heap_blocks at 1. unfold bind at 1. pose proof (ask_idle b k s' w' H2) as IH.
    destruct (ask C b n k s' w') as [l w2 e|u e]; [|done]. destruct IH as [-> IH]. cbn [ret app]. split; [done|].
    cbn [seq map]. f_equal; [f_equal; lia|]. rewrite IH -seq_shift map_map. apply map_ext. intros i. f_equal. lia.
  Qed.
End refused.

(** * An empty request to a fallback whose primary is full *)
Lemma fallback_zero pl Size b s bl w : direct pl = true ->
  reachable (linear_allocator Size) (fun n => n + 15 + Size <? W) b s bl -> l_free s = b + Size ->
  let F := fallback (linear_allocator Size) (mallocator pl) in
  a_alloc F b (s, tt) 0 w = Ok (b + Size, (s, tt)) w [] /\
  a_free F b (s, tt) (b + Size) 0 w =
    match mtab (st w) !! (b + Size) with
    | Some m => Ok (s, tt) (World (Store (clear (b + Size) (N.to_nat m) (mem (st w))) (delete (b + Size) (mtab (st w)))) (orc w) (tick w)) []
    | None => Err UBFree []
    end.
Proof.
  intros Hpl Hr Hf. destruct (lin_reach _ _ _ _ Hr) as [[(Hb1&Hb2&Hb3) _ (Hc1&Hc2) _ _] _]. unfold lin_size in Hb3. cbv zeta.
  assert (Ha : lin_alloc Size b s 0 w = Ok (b + Size, s) w []).
  { unfold lin_alloc. cbv zeta. change (padded 0) with 0. rewrite Hf sub64_small; [|lia|lia].
    rewrite add64_small; [|lia]. rewrite (proj2 (N.ltb_ge _ _)); [|lia]. rewrite !add64_small; [|lia|].
    - destruct s as [f c]. cbn [l_free l_cnt] in *. by rewrite Hf !N.add_0_r.
    - lia. }
  split.
  - cbn [a_alloc fallback]. unfold fb_alloc. cbn [fst snd a_alloc linear_allocator]. unfold bind at 1. rewrite Ha.
    destruct (b + Size =? 0) eqn:E; [lia|done].
  - cbn [a_free fallback]. unfold fb_free. cbn [fst snd a_owns a_free linear_allocator mallocator]. unfold lin_owns.
    rewrite add64_small; [|lia]. rewrite (proj2 (N.ltb_ge (b + Size) _)); [|lia]. rewrite andb_false_r.
    assert (aligned_free pl (b + Size) = mfree (b + Size)) as -> by by destruct pl.
    unfold bind, mfree. destruct (b + Size =? 0) eqn:E; [lia|]. cbv zeta. by destruct (mtab (st w) !! (b + Size)).
Qed.

Lemma ask_refused pl Size n R b k w : direct pl = true -> R mod 16 = 0 -> n <= R < n + 16 -> n <= Size -> Size < R -> R < W ->
  let C := cascading pl (linear_allocator Size) in
  match (s <- a_init C b ;; ask C b n k s) w with
  | Ok l _ e => e = [] /\ l = map (fun i => (0, (size (mtab (st w)) + 2 + i)%nat)) (seq 0 k)
  | Err u e => u = UBNull /\ e = [EvRefuse; EvFail]
  end.
Proof.
  intros Hpl H1 H2 H3 H4 H5. cbv zeta. rewrite (round_unique n R H1 H2) in H4, H5. by apply ask_fresh.
Qed.

Lemma reach_run A req b w0 ops s bl : place b (a_size A) w0 -> asks req ops ->
  match (s0 <- a_init A b ;; run A b (fun _ _ => false) ops s0 []) w0 with Ok (_, r) _ _ => Some r | Err _ _ => None end = Some (s, bl) ->
  reachable A req b s bl.
Proof.
  intros Hp Ha. destruct (bind _ _ w0) as [[os r] w2 e|] eqn:E; [|done]. intros [= ->].
  apply bind_inv in E as (s0&w1&e1&e2&E1&E2&_). by exists w0, s0, w1, e1, ops, os, w2, e2.
Qed.
