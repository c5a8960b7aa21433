(** Operations that do not end normally, in whatever state they are performed. *)
From Coq Require Import ssreflect.
From Verif Require Import Base Mem Bits AlignedMalloc Allocators Checked Tree Client Env Vector Array HeapPure Heap Buffer
  MiscFacts Never.
Local Open Scope N_scope.

(** * Computations that end normally *)
Lemma bind_inv {X Y} (m : M X) (k : X -> M Y) w y w' e : bind m k w = Ok y w' e ->
  exists x w1 e1 e2, m w = Ok x w1 e1 /\ k x w1 = Ok y w' e2 /\ e = e1 ++ e2.
Proof.
  unfold bind. destruct (m w) as [x w1 e1|] eqn:E1; [|done]. destruct (k x w1) as [y' w2 e2|] eqn:E2; [|done].
  intros [= <- <- <-]. by exists x, w1, e1, e2.
Qed.
Lemma ret_inv {X} (x y : X) w w' e : ret x w = Ok y w' e -> x = y /\ w = w' /\ e = [].
Proof. by intros [= -> -> <-]. Qed.
Lemma never_alt {X} (m : M X) : never m <-> forall w x w' e, m w = Ok x w' e -> False.
Proof.
  split; [intros H w x w' e E|intros H w]; specialize (H w); [by rewrite E in H|]. destruct (m w); [by eapply H|done].
Qed.

Lemma rds_inv n a w cs w' e : rds a n w = Ok cs w' e ->
  w' = w /\ length cs = n /\ forall i c, cs !! i = Some c -> mem (st w) !! (a + N.of_nat i) = Some c.
Proof.
  revert a cs w' e. induction n as [|n IH]; intros a cs w' e; cbn [rds].
  { intros (<-&<-&_)%ret_inv. done. }
  intros (c&w1&e1&e2&H1&H2&_)%bind_inv. unfold rd in H1. destruct (mem (st w) !! a) eqn:E; [|done]. injection H1 as <- <- <-.
  apply bind_inv in H2 as (cs'&w2&e3&e4&H2&H3&_). apply ret_inv in H3 as (<-&<-&_). apply IH in H2 as (->&H2&H3).
  split; [done|]. split; [cbn; lia|]. intros [|i] c' Hi; cbn in Hi.
  - injection Hi as <-. by rewrite N.add_0_r.
  - apply H3 in Hi. rewrite -Hi. f_equal. lia.
Qed.

Lemma wrs_inv cs a w u w' e : wrs a cs w = Ok u w' e ->
  (forall i, ~ (a <= i < a + N.of_nat (length cs)) -> mem (st w') !! i = mem (st w) !! i) /\
  (forall i c, cs !! i = Some c -> mem (st w') !! (a + N.of_nat i) = Some c).
Proof.
  revert a w e. induction cs as [|c cs IH]; intros a w e; cbn [wrs].
  { intros (_&<-&_)%ret_inv. done. }
  intros (?&w1&e1&e2&H1&H2&_)%bind_inv. unfold wr in H1. destruct (mem (st w) !! a) eqn:E; [|done]. injection H1 as <- <- <-.
  apply IH in H2 as [H2 H3]. cbn [length]. split.
  - intros i Hi. rewrite H2; [|lia]. cbn. rewrite lookup_insert_ne; [done|lia].
  - intros [|i] c' Hi; cbn in Hi.
    + injection Hi as <-. rewrite H2; [|lia]. cbn. by rewrite N.add_0_r lookup_insert.
    + apply H3 in Hi. rewrite -Hi. f_equal. lia.
Qed.

(** A memcpy onto itself. *)
Lemma memcpy_self p n w x w' e : 0 < n -> memcpy p p n w = Ok x w' e -> False.
Proof.
  intros Hn. unfold memcpy. rewrite (proj2 (N.eqb_neq _ _)); [|lia]. rewrite (proj2 (N.ltb_lt p (p + n))); [done|lia].
Qed.

(** * trivial_vector, trivial_array, trivial_buffer *)
Lemma vec_self_assign A b sz c E vs : 0 < sz -> 0 < v_size sz (get_ c vs) -> never (vdo A b sz (VAssign c c) (E, vs)).
Proof.
  intros Hsz Hn. apply never_alt. intros w x w' e. cbn [vdo]. intros (E1&w1&e1&e2&_&H&_)%bind_inv.
  unfold vassign in H. apply bind_inv in H as ([p E2]&w2&e3&e4&_&H&_). apply bind_inv in H as (?&w3&e5&e6&H&_&_).
  revert H. unfold get_. rewrite !lookup_insert /=. apply memcpy_self.
  unfold v_size in *. cbn [v_end v_beg]. unfold get_ in Hn. nia.
Qed.

Lemma arr_self_assign A b sz c E vs : 0 < sz -> 0 < r_size sz (aget c vs) -> never (ado A b sz (AAssign c c) (E, vs)).
Proof.
  intros Hsz Hn. apply never_alt. intros w x w' e. cbn [ado]. intros (E1&w1&e1&e2&_&H&_)%bind_inv.
  unfold aassign in H. apply bind_inv in H as ([p E2]&w2&e3&e4&_&H&_). apply bind_inv in H as (?&w3&e5&e6&H&_&_).
  revert H. unfold aget. rewrite !lookup_insert /=. apply memcpy_self.
  unfold r_size in *. cbn [r_end r_beg]. unfold aget in Hn. nia.
Qed.

Lemma arr_own_range A b sz c E vs : 0 < sz -> 0 < r_size sz (aget c vs) ->
  never (ado A b sz (AFrom c (GElems c 0 (r_size sz (aget c vs)))) (E, vs)).
Proof.
  intros Hsz Hn. apply never_alt. intros w x w' e. cbn [ado]. unfold afrom. cbn [alocate_range array_length].
  rewrite N.sub_0_r N.eqb_refl. intros ([v E1]&w1&e1&e2&H&_)%bind_inv.
  apply bind_inv in H as ([v2 E2]&w2&e3&e4&H1&H2&_). apply ret_inv in H1 as ([= <- <-]&<-&_).
  apply bind_inv in H2 as (?&w3&e5&e6&H&_&_). revert H. cbn [copy_in]. unfold elem_addr. rewrite N.mul_0_r N.add_0_r.
  apply memcpy_self. nia.
Qed.

Lemma buf_self_assign b sz size c s : 0 < sz -> 0 < size ->
  never (bdo b sz size (BAssign c c) s) /\ never (bdo b sz size (BMoveAssign c c) s).
Proof.
  intros Hsz Hn. split; apply never_alt; intros w x w' e; cbn [bdo]; intros (?&w1&e1&e2&H&_)%bind_inv;
    revert H; apply memcpy_self; nia.
Qed.

Lemma buf_own_range b sz size c s : 0 < sz -> 0 < size -> never (bdo b sz size (BFrom c (GElems c 0 size)) s).
Proof.
  intros Hsz Hn. apply never_alt. intros w x w' e. cbn [bdo]. intros (?&w1&e1&e2&_&H&_)%bind_inv.
  apply bind_inv in H as (?&w3&e5&e6&H&_&_). revert H. cbn [bcopy_in blocate_range]. unfold elem_addr.
  rewrite N.mul_0_r N.add_0_r. apply memcpy_self. nia.
Qed.

Lemma buf_never b sz size c s : 0 < sz -> 0 < size ->
  never (bdo b sz size (BAssign c c) s) /\ never (bdo b sz size (BMoveAssign c c) s) /\
  never (bdo b sz size (BFrom c (GElems c 0 size)) s).
Proof. intros Hsz Hn. destruct (buf_self_assign b sz size c s Hsz Hn). split_and!; [done..|by apply buf_own_range]. Qed.

(** * binary_heap with elements that are objects *)
Section heap.
  Context (pl : platform) (e : aexp) (b sz : N) (T : elt).
  Context (comp : nat -> value -> value -> bool) (eqv : value -> value -> bool).
  Context (HT : e_triv T = false) (Hsz : 0 < sz).
  Local Notation A := (den pl e).
  Local Notation szn := (N.to_nat sz).

  (** The first byte at [a] belongs to an object. *)
  Definition alive (a : N) (w : world) : Prop := exists v i, mem (st w) !! a = Some (Obj v i).

  Lemma te_cd_inv c h q act E w E' w' ev : te_cd A b c h q act E w = Ok E' w' ev ->
    exists u ev', act w = Ok u w' ev'.
  Proof.
    unfold te_cd. destruct (E !! h) as [s|]; [|done]. intros (s'&w1&e1&e2&H&H2&_)%bind_inv. apply ret_inv in H2 as (_&<-&_).
    unfold traits_cd in H. destruct (a_cd A) as [o|] eqn:Ho.
    - destruct (tree_cd_once pl e o c (at_ A b h) s q act Ho) as (evs&s2&_&Hw). rewrite Hw in H.
      destruct (act w) as [u w2 e3|]; [|done]. injection H as _ <- _. by eexists _, _.
    - apply bind_inv in H as (u&w2&e3&e4&H&H2&_). apply ret_inv in H2 as (_&<-&_). by eexists _, _.
  Qed.

  Lemma get_alive a w v w' ev : e_get sz T a w = Ok v w' ev -> w' = w /\ alive a w.
  Proof.
    unfold e_get. rewrite HT. unfold obj_get. intros (cs&w1&e1&e2&H&H2&_)%bind_inv. apply rds_inv in H as (->&Hl&H).
    destruct cs as [|[] cs]; try done.
    destruct (unochunk _ _) eqn:Eu; [|done]. apply ret_inv in H2 as (_&<-&_). split; [done|].
    unfold unochunk in Eu.  eexists _, _. rewrite -(N.add_0_r a). by apply (H 0%nat).
  Qed.

  (** Construction takes place where there is no object, and does not touch objects. *)
  Lemma new_dead a v w u w' ev : e_new sz T a v w = Ok u w' ev ->
    ~ alive a w /\ forall i, alive i w -> alive i w'.
  Proof.
    unfold e_new. rewrite HT. unfold obj_new. intros (cs&w1&e1&e2&H&H2&_)%bind_inv. apply rds_inv in H as (->&Hl&H).
    destruct (forallb deadb cs) eqn:Ed; [|done].
    assert (Hd : forall i, a <= i < a + sz -> ~ alive i w).
    { intros i Hi (v'&j&Hv). destruct (cs !! N.to_nat (i - a)) as [c|] eqn:Ec.
      - assert (deadb c = true) as Hc.
        { rewrite forallb_forall in Ed. apply Ed. apply elem_of_list_In. by eapply elem_of_list_lookup_2. }
        apply H in Ec. replace (a + N.of_nat (N.to_nat (i - a))) with i in Ec by lia. rewrite Hv in Ec. by injection Ec as <-.
      - apply lookup_ge_None in Ec. lia. }
    split; [apply Hd; lia|]. intros i Hi. apply wrs_inv in H2 as [H2 _]. destruct Hi as (v'&j&Hv). exists v', j.
    rewrite H2 //. unfold ochunk. rewrite map_length seq_length. intros Hr. apply (Hd i); [lia|]. by exists v', j.
  Qed.

  Lemma construct_own h q E w E' w' ev : construct A b sz T h q (PAddr q) E w = Ok E' w' ev -> False.
  Proof.
    unfold construct. intros (u&e1&H)%te_cd_inv. apply bind_inv in H as (v&w1&e2&e3&H1&H2&_). cbn [e_src] in H1.
    apply get_alive in H1 as [-> H1]. by apply new_dead in H2 as [H2 _].
  Qed.

  Lemma heap_self_assign c E vs : 0 < h_size (hget c vs) -> never (hdo A b sz T comp eqv (HAssign c c) (E, vs)).
  Proof.
    intros Hn. apply never_alt. intros w x w' ev. cbn [hdo]. intros (E1&w1&e1&e2&_&H&_)%bind_inv.
    unfold hassign in H. apply bind_inv in H as ([p E2]&w2&e3&e4&_&H&_). apply bind_inv in H as (E3&w3&e5&e6&H&_&_).
    revert H. unfold hget. rewrite !lookup_insert /=. fold (hget c vs).
    destruct (N.to_nat (h_size (hget c vs))) as [|n] eqn:En; [lia|]. cbn [copy_n].
    intros (E4&w4&e7&e8&H&_)%bind_inv. by apply construct_own in H.
  Qed.

  Lemma heap_pop_last c E vs : h_size (hget c vs) = 1 -> never (hdo A b sz T comp eqv (HPop c) (E, vs)).
  Proof.
    intros Hn. apply never_alt. intros w x w' ev. cbn [hdo]. intros ([[v x'] E1]&w1&e1&e2&H&_)%bind_inv.
    unfold hpop in H. rewrite Hn in H. cbn zeta in H. change (1 - 1) with 0 in H.
    apply bind_inv in H as (?&w2&e3&e4&_&H&_). apply bind_inv in H as (?&w3&e5&e6&_&H&_).
    apply bind_inv in H as (?&w4&e7&e8&_&H&_). apply bind_inv in H as (E2&w5&e9&e10&H1&H&_).
    apply bind_inv in H as (?&w6&e11&e12&H2&_&_). unfold percolate_down in H2.
    apply bind_inv in H2 as (?&w7&e13&e14&H2&_&_). apply get_alive in H2 as [_ (v'&i&H2)].
    unfold destroy in H1. apply te_cd_inv in H1 as (?&?&H1). unfold e_del in H1. rewrite HT in H1. unfold obj_del in H1.
    apply bind_inv in H1 as (?&w8&e15&e16&_&H1&_). apply wrs_inv in H1 as [_ H1].
    destruct szn as [|n] eqn:En; [lia|]. specialize (H1 0%nat Undef eq_refl). rewrite N.add_0_r in H1. by rewrite H1 in H2.
  Qed.

  Lemma construct_alive h q src E w E' w' ev i : construct A b sz T h q src E w = Ok E' w' ev -> alive i w -> alive i w'.
  Proof.
    unfold construct. intros (u&e1&H)%te_cd_inv Hi. apply bind_inv in H as (v&w1&e2&e3&H1&H2&_).
    apply new_dead in H2 as [_ H2]. apply H2. destruct src as [x|a]; cbn [e_src] in H1.
    - by apply ret_inv in H1 as (_&<-&_).
    - by apply get_alive in H1 as [-> _].
  Qed.
  Lemma copy_alive n : forall h dst src E w E' w' ev i,
    copy_n A b sz T h dst src n E w = Ok E' w' ev -> alive i w -> alive i w'.
  Proof.
    induction n as [|n IH]; intros h dst src E w E' w' ev i; cbn [copy_n].
    - by intros (_&<-&_)%ret_inv.
    - intros (E1&w1&e1&e2&H1&H2&_)%bind_inv Hi. apply (IH _ _ _ _ _ _ _ _ _ H2). by eapply construct_alive.
  Qed.

  Lemma heap_move_objects c src h E vs :
    0 < h_size (hget src vs) <= h_cap (hget src vs) -> h_beg (hget src vs) <> 0 ->
    never (hdo A b sz T comp eqv (HMoveAl c src h) (E, vs)).
  Proof.
    intros Hn Hb. apply never_alt. intros w x w' ev. cbn [hdo]. intros ([x' E1]&w1&e1&e2&H1&H&_)%bind_inv.
    apply bind_inv in H as (E2&w2&e3&e4&H&_&_). rewrite (proj2 (N.eqb_neq _ _) Hb) in H. unfold give_back in H.
    apply bind_inv in H as (?&w3&e5&e6&H&_&_). unfold obj_none in H. apply bind_inv in H as (cs&w4&e7&e8&H&H2&_).
    apply rds_inv in H as (->&Hl&H). destruct (forallb deadb cs) eqn:Ed; [|done].
    assert (alive (h_beg (hget src vs)) w1) as (v&i&Hv).
    { unfold hcopy_of in H1. apply bind_inv in H1 as ([p E3]&w5&e9&e10&_&H1&_).
      apply bind_inv in H1 as (E4&w6&e11&e12&H1&H3&_). apply ret_inv in H3 as (_&<-&_).
      destruct (N.to_nat (h_size (hget src vs))) as [|n] eqn:En; [lia|]. cbn [copy_n] in H1.
      apply bind_inv in H1 as (E5&w7&e13&e14&H1&H3&_). apply (copy_alive _ _ _ _ _ _ _ _ _ _ H3).
      apply (construct_alive _ _ _ _ _ _ _ _ _ H1). unfold construct in H1. apply te_cd_inv in H1 as (u&e15&H1).
      apply bind_inv in H1 as (v&w8&e16&e17&H1&_&_). cbn [e_src] in H1. by apply get_alive in H1 as [_ H1]. }
    destruct cs as [|c0 cs]; [cbn in Hl; nia|]. specialize (H 0%nat c0 eq_refl). rewrite N.add_0_r Hv in H. injection H as <-.
    done.
  Qed.
End heap.
