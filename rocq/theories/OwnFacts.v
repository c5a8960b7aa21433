(** Over malloc: appending an own element to a container that must grow reads storage that was given
    back. *)
From Coq Require Import ssreflect.
From Verif Require Import Base Mem Bits AlignedMalloc Allocators Checked Tree Client Env Vector Array HeapPure Heap MiscFacts Never NeverFacts.
Local Open Scope N_scope.

(** The table of blocks does not change. *)
Definition keeps {X} (m : M X) : Prop := forall w, match m w with Ok _ w' _ => mtab (st w') = mtab (st w) | Err _ _ => True end.
Lemma keeps_ret {X} (x : X) : keeps (ret x).
Proof. done. Qed.
Lemma keeps_ubm {X} u : keeps (ubm u : M X).
Proof. done. Qed.
Lemma keeps_emit e : keeps (emit e).
Proof. done. Qed.
Lemma keeps_bind {X Y} (m : M X) (k : X -> M Y) : keeps m -> (forall x, keeps (k x)) -> keeps (bind m k).
Proof.
  intros Hm Hk w. unfold bind. specialize (Hm w). destruct (m w) as [x w1 e1|]; [|done]. specialize (Hk x w1).
  destruct (k x w1); [|done]. by rewrite Hk.
Qed.
Lemma keeps_rd a : keeps (rd a).
Proof. intros w. unfold rd. by destruct (mem (st w) !! a). Qed.
Lemma keeps_wr a c : keeps (wr a c).
Proof. intros w. unfold wr. by destruct (mem (st w) !! a). Qed.
Create HintDb keeps discriminated.
Global Hint Resolve keeps_ret keeps_ubm keeps_emit keeps_rd keeps_wr : keeps.
Lemma keeps_rds n : forall a, keeps (rds a n).
Proof.
  induction n as [|n IH]; intros a; cbn [rds]; [apply keeps_ret|]. apply keeps_bind; [apply keeps_rd|]. intros c.
  apply keeps_bind; [apply IH|]. intros. apply keeps_ret.
Qed.
Lemma keeps_wrs cs : forall a, keeps (wrs a cs).
Proof. induction cs as [|c cs IH]; intros a; cbn [wrs]; [apply keeps_ret|]. apply keeps_bind; [apply keeps_wr|]. intros. apply IH. Qed.
Global Hint Resolve keeps_rds keeps_wrs : keeps.
Ltac keeps :=
  repeat (intros; first
    [ solve [auto with keeps]
    | apply keeps_bind
    | match goal with
      | |- keeps (if ?c then _ else _) => destruct c
      | |- keeps (match ?x with _ => _ end) => destruct x
      end ]).
Lemma keeps_memcpy d s n : keeps (memcpy d s n).
Proof. unfold memcpy. keeps. Qed.
Lemma keeps_inv {X} (m : M X) w x w' e : keeps m -> m w = Ok x w' e -> mtab (st w') = mtab (st w).
Proof. intros Hm E. specialize (Hm w). by rewrite E in Hm. Qed.

(** Memory that is not accessible. *)
Definition gone (a n : N) (w : world) : Prop := forall i, a <= i < a + n -> mem (st w) !! i = None.

Lemma clear_gone a n m i : a <= i < a + N.of_nat n -> clear a n m !! i = None.
Proof.
  revert a. induction n as [|n IH]; intros a Hi; [lia|]. cbn [clear].
  destruct (N.eq_dec i a) as [->|Hne]; [by rewrite lookup_delete|]. rewrite lookup_delete_ne; [|done]. apply IH. lia.
Qed.
Lemma rds_gone a n w x w' e p k : gone p k w -> p <= a < p + k -> (0 < n)%nat -> rds a n w = Ok x w' e -> False.
Proof.
  intros Hg Ha Hn H. apply rds_inv in H as (_&Hl&H). destruct x as [|c x]; [cbn in Hl; lia|].
  specialize (H 0%nat c eq_refl). rewrite N.add_0_r Hg // in H.
Qed.

Section malloc.
  Context (pl : platform) (b sz : N) (Hpl : direct pl = true) (Hsz : 0 < sz).
  Local Notation A := (mallocator pl).

  Lemma alloc_keeps h n E w p E' w' e a k : te_alloc A b sz h n E w = Ok (p, E') w' e ->
    mtab (st w) !! a = Some k -> mtab (st w') !! a = Some k.
  Proof.
    unfold te_alloc. destruct (E !! h) as [s|]; [|done]. intros (?&w1&e1&e2&H1&H&_)%bind_inv.
    injection H1 as _ <- _. apply bind_inv in H as ([p' s']&w2&e3&e4&H&H2&_).
    apply bind_inv in H2 as (?&w3&e5&e6&H2&H3&_). apply ret_inv in H3 as (_&<-&_).
    assert (mtab (st w3) = mtab (st w2)) as -> by (refine (keeps_inv _ _ _ _ _ _ H2); keeps).
    unfold ta_alloc in H. cbn [a_alloc mallocator] in H. apply bind_inv in H as (p2&w4&e7&e8&H&H4&_).
    apply ret_inv in H4 as (_&<-&_). intros Ha.
    assert (Hm : exists al m, malloc al m w = Ok p2 w4 e7) by (destruct pl; try done; by eexists _, _).
    destruct Hm as (al&m&Hm). unfold malloc in Hm. destruct (malloc_valid _ _ _ _) eqn:Ev; injection Hm as <- <- _; [|done].
    cbn. rewrite lookup_insert_ne; [done|]. intros He. unfold malloc_valid in Ev. apply andb_true_iff in Ev as [_ Ev].
    rewrite He in Ev. replace (N.to_nat (N.max m 1)) with (S (N.to_nat (N.max m 1) - 1)) in Ev by lia. cbn [vacant] in Ev.
    rewrite Ha in Ev. by destruct (mem (st w) !! a).
  Qed.
  Lemma free_gone h p n E w E' w' e k : te_free A b sz h p n E w = Ok E' w' e -> p <> 0 ->
    mtab (st w) !! p = Some k -> gone p k w'.
  Proof.
    unfold te_free. destruct (E !! h) as [s|]; [|done]. intros (s'&w1&e1&e2&H&H2&_)%bind_inv Hp Hk.
    apply ret_inv in H2 as (_&<-&_). unfold ta_free in H. cbn [a_free mallocator] in H.
    apply bind_inv in H as (?&w2&e3&e4&H&H2&_). apply ret_inv in H2 as (_&<-&_).
    assert (mfree p w = Ok x w2 e3) as Hf by (by destruct pl).
    unfold mfree in Hf. rewrite (proj2 (N.eqb_neq _ _) Hp) Hk in Hf. injection Hf as _ <- _.
    intros i Hi. cbn. apply clear_gone. lia.
  Qed.

  (** * trivial_vector *)
  Lemma set_size_gone v n E w x w' e k : set_size A b sz v n E w = Ok x w' e ->
    v_beg v <> 0 -> mtab (st w) !! v_beg v = Some k -> gone (v_beg v) k w'.
  Proof.
    unfold set_size. intros ([p E1]&w1&e1&e2&H1&H&_)%bind_inv Hb Hk. apply (alloc_keeps _ _ _ _ _ _ _ _ _ _ H1) in Hk.
    apply bind_inv in H as (E2&w2&e3&e4&H&H3&_). apply ret_inv in H3 as (_&<-&_).
    rewrite (proj2 (N.eqb_neq _ _) Hb) in H. apply bind_inv in H as (?&w3&e5&e6&H&H3&_).
    apply (keeps_inv _ _ _ _ _ (keeps_memcpy _ _ _)) in H. apply (free_gone _ _ _ _ _ _ _ _ _ H3 Hb). by rewrite H.
  Qed.

  Lemma push_own c i E vs w : let v := get_ c vs in
    block_at (v_beg v) (v_size sz v * sz) w -> v_end v = v_max v -> i < v_size sz v ->
    ends_not (vdo A b sz (VPush c (RElem c i)) (E, vs)) w.
  Proof.
    intros v (Hb&k&Hk&Hn) Hf Hi. unfold ends_not. destruct (vdo _ _ _ _ _ _) as [x w' e|] eqn:H; [|done]. exfalso. revert H. cbn [vdo]. fold v.
    intros ([[it v'] E']&w1&e1&e2&H&_)%bind_inv. unfold push_back in H. rewrite Hf N.eqb_refl in H.
    apply bind_inv in H as ([v2 E2]&w2&e3&e4&H1&H&_). apply bind_inv in H as (?&w3&e5&e6&H&_&_).
    unfold expand in H1. apply bind_inv in H1 as (?&w4&e7&e8&H0&H1&_). injection H0 as _ <- _.
    apply (set_size_gone _ _ _ _ _ _ _ _ H1 Hb) in Hk. cbn [assign locate] in H.
    apply bind_inv in H as (cs&w5&e9&e10&H&_&_). apply (rds_gone _ _ _ _ _ _ _ _ Hk) in H; [done| |lia].
    unfold elem_addr. fold v. nia.
  Qed.
  Lemma push_own_range c i j E vs w : let v := get_ c vs in
    block_at (v_beg v) (v_size sz v * sz) w -> (v_max v - v_end v) / sz < j - i -> j <= v_size sz v ->
    ends_not (vdo A b sz (VPushRange c (GElems c i j)) (E, vs)) w.
  Proof.
    intros v (Hb&k&Hk&Hn) Hf Hi. unfold ends_not. destruct (vdo _ _ _ _ _ _) as [x w' e|] eqn:H; [|done]. exfalso. revert H. cbn [vdo]. fold v.
    intros ([[it v'] E']&w1&e1&e2&H&_)%bind_inv. unfold push_back_range in H. cbn [locate_range array_length] in H.
    apply N.ltb_lt in Hf as Hf'. rewrite Hf' in H.
    apply bind_inv in H as ([v2 E2]&w2&e3&e4&H1&H&_). apply bind_inv in H as (?&w3&e5&e6&H&_&_).
    unfold expand in H1. apply bind_inv in H1 as (?&w4&e7&e8&H0&H1&_). injection H0 as _ <- _.
    apply (set_size_gone _ _ _ _ _ _ _ _ H1 Hb) in Hk. cbn [copy_in] in H.
    assert (0 < j - i) as Hij by (eapply N.le_lt_trans; [|exact Hf]; apply N.le_0_l). clear Hf Hf'.
    unfold memcpy in H. rewrite (proj2 (N.eqb_neq _ _)) in H; [|nia]. destruct (_ && _); [done|].
    apply bind_inv in H as (cs&w5&e9&e10&H&_&_). apply (rds_gone _ _ _ _ _ _ _ _ Hk) in H; [done| |nia].
    unfold elem_addr. fold v. nia.
  Qed.

  (** * trivial_array *)
  Lemma assign_own_range c i j E vs w : let v := aget c vs in
    block_at (r_beg v) (r_size sz v * sz) w -> i < j -> j <= r_size sz v -> j - i <> r_size sz v ->
    ends_not (ado A b sz (AFrom c (GElems c i j)) (E, vs)) w.
  Proof.
    intros v (Hb&k&Hk&Hn) Hij Hj Hne. unfold ends_not. destruct (ado _ _ _ _ _ _) as [x w' e|] eqn:H; [|done]. exfalso. revert H. cbn [ado]. fold v.
    intros ([v' E']&w1&e1&e2&H&_)%bind_inv. unfold afrom in H. cbn [alocate_range array_length] in H.
    rewrite (proj2 (N.eqb_neq _ _) Hne) (proj2 (N.eqb_neq _ _) Hb) in H.
    apply bind_inv in H as ([v2 E2]&w2&e3&e4&H1&H&_). apply bind_inv in H as (?&w3&e5&e6&H&_&_).
    apply bind_inv in H1 as ([p E3]&w4&e7&e8&H0&H1&_). apply (alloc_keeps _ _ _ _ _ _ _ _ _ _ H0) in Hk.
    apply bind_inv in H1 as (E4&w5&e9&e10&H1&H2&_). apply ret_inv in H2 as (_&<-&_).
    apply (free_gone _ _ _ _ _ _ _ _ _ H1 Hb) in Hk. cbn [copy_in] in H.
    unfold memcpy in H. rewrite (proj2 (N.eqb_neq _ _)) in H; [|nia]. destruct (_ && _); [done|].
    apply bind_inv in H as (cs&w6&e11&e12&H&_&_). apply (rds_gone _ _ _ _ _ _ _ _ Hk) in H; [done| |nia].
    unfold elem_addr. fold v. nia.
  Qed.

  (** * binary_heap *)
  Section heap.
    Context (T : elt) (comp : nat -> value -> value -> bool) (eqv : value -> value -> bool).

    Lemma keeps_get a : keeps (e_get sz T a).
    Proof. unfold e_get, load, obj_get. keeps. Qed.
    Lemma keeps_new a v : keeps (e_new sz T a v).
    Proof. unfold e_new, stor, obj_new. keeps. Qed.
    Lemma keeps_take a : keeps (e_take sz T a).
    Proof. unfold e_take, e_leave, obj_set, obj_get. apply keeps_bind; [apply keeps_get|]. keeps. Qed.
    Lemma keeps_del a : keeps (e_del sz T a).
    Proof. unfold e_del, obj_del, obj_get. keeps. Qed.
    Lemma keeps_cd c h q act (E : env A) : keeps act -> keeps (te_cd A b c h q act E).
    Proof.
      intros Ha. unfold te_cd. destruct (E !! h); [|apply keeps_ubm]. apply keeps_bind; [|intros; apply keeps_ret].
      unfold traits_cd. cbn [a_cd mallocator]. apply keeps_bind; [done|]. intros. apply keeps_ret.
    Qed.
    Lemma keeps_move_n n : forall h d s (E : env A), keeps (move_n A b sz T h d s n E).
    Proof.
      induction n as [|n IH]; intros h d s E; cbn [move_n]; [apply keeps_ret|]. apply keeps_bind; [|intros; apply IH].
      apply keeps_cd, keeps_bind; [apply keeps_take|]. intros. apply keeps_new.
    Qed.
    Lemma keeps_destroy_n n : forall h p (E : env A), keeps (destroy_n A b sz T h p n E).
    Proof.
      induction n as [|n IH]; intros h p E; cbn [destroy_n]; [apply keeps_ret|]. apply keeps_bind; [|intros; apply IH].
      apply keeps_cd, keeps_del.
    Qed.
    Lemma hset_size_gone v n E w x w' e k : hset_size A b sz T v n E w = Ok x w' e ->
      h_beg v <> 0 -> mtab (st w) !! h_beg v = Some k -> gone (h_beg v) k w'.
    Proof.
      unfold hset_size. intros ([p E1]&w1&e1&e2&H1&H&_)%bind_inv Hb Hk. apply (alloc_keeps _ _ _ _ _ _ _ _ _ _ H1) in Hk.
      apply bind_inv in H as (E2&w2&e3&e4&H&H3&_). apply ret_inv in H3 as (_&<-&_).
      rewrite (proj2 (N.eqb_neq _ _) Hb) in H. apply bind_inv in H as (?&w3&e5&e6&H&H3&_).
      apply (keeps_inv _ _ _ _ _ (keeps_move_n _ _ _ _ _)) in H.
      apply bind_inv in H3 as (?&w4&e7&e8&H2&H3&_). apply (keeps_inv _ _ _ _ _ (keeps_destroy_n _ _ _ _)) in H2.
      unfold give_back, obj_none in H3. apply bind_inv in H3 as (?&w5&e9&e10&H4&H3&_).
      assert (mtab (st w5) = mtab (st w4)) as H5 by (refine (keeps_inv _ _ _ _ _ _ H4); keeps).
      apply (free_gone _ _ _ _ _ _ _ _ _ H3 Hb). by rewrite H5 H2 H.
    Qed.
    Lemma insert_own c i E vs w : let x := hget c vs in
      block_at (h_beg x) (h_size x * sz) w -> h_size x = h_cap x -> i < h_size x ->
      ends_not (hdo A b sz T comp eqv (HInsert c (RElem c i)) (E, vs)) w.
    Proof.
      intros x (Hb&k&Hk&Hn) Hf Hi. unfold ends_not. destruct (hdo _ _ _ _ _ _ _ _ _) as [y w' e|] eqn:H; [|done]. exfalso. revert H. cbn [hdo]. fold x.
      intros ([[it x'] E']&w1&e1&e2&H&_)%bind_inv. unfold hinsert in H. rewrite {1}Hf N.eqb_refl in H.
      apply bind_inv in H as ([v2 E2]&w2&e3&e4&H1&H&_). apply bind_inv in H as (?&w3&e5&e6&H&_&_).
      unfold hexpand in H1. apply bind_inv in H1 as (?&w4&e7&e8&H0&H1&_). injection H0 as _ <- _.
      apply (hset_size_gone _ _ _ _ _ _ _ _ H1 Hb) in Hk. unfold construct, te_cd in H. destruct (E2 !! h_al v2); [|done].
      unfold traits_cd in H. cbn [a_cd mallocator] in H. apply bind_inv in H as (?&w5&e9&e10&H&_&_).
      apply bind_inv in H as (?&w6&e11&e12&H&_&_). apply bind_inv in H as (?&w7&e13&e14&H&_&_). cbn [e_src hlocate] in H.
      assert (exists cs w8 e15, rds (elem_addr sz (h_beg x) i) (N.to_nat sz) w2 = Ok cs w8 e15) as (cs&w8&e15&Hr).
      { unfold e_get, load, obj_get in H. destruct (e_triv T); apply bind_inv in H as (?&?&?&?&H&_&_); by eexists _, _, _. }
      apply (rds_gone _ _ _ _ _ _ _ _ Hk) in Hr; [done| |lia]. unfold elem_addr. nia.
    Qed.
  End heap.
End malloc.
