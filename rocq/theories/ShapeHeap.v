(** Heaps that differ in values and orders. *)
From iris.proofmode Require Import tactics.
From Verif Require Import Base Mem Bits AlignedMalloc Allocators Checked Tree Client Env Vector Array HeapPure Heap Mixed Rename Shape ShapeProofs ShapeCont.

Local Open Scope N_scope.
Local Notation scs := (Forall2 sc).
Local Notation any := (fun _ _ => True).

(** * Computations that at most exchange elements *)
Definition qw {X} (w : world) (m : M X) (Q : X -> world -> Prop) : Prop :=
  match m w with Ok a w' e => e = [] /\ sw w w' /\ Q a w' | Err _ e => e = [] end.

Lemma qw_ret {X} w (a : X) (Q : X -> world -> Prop) : Q a w -> qw w (ret a) Q.
Proof. intros H. split_and!; [done|apply sw_refl|done]. Qed.
Lemma qw_ubm {X} w u (Q : X -> world -> Prop) : qw w (ubm u) Q.
Proof. done. Qed.
Lemma qw_bind {X Y} w (m : M X) (k : X -> M Y) Q S :
  qw w m Q -> (forall a w', sw w w' -> Q a w' -> qw w' (k a) S) -> qw w (bind m k) S.
Proof.
  unfold qw, bind. intros Hm Hk. destruct (m w) as [a w1 e1|u e1]; [|done]. destruct Hm as (->&Hw&HQ).
  specialize (Hk a w1 Hw HQ). destruct (k a w1) as [b w2 e2|u e2]; cbn; [|done]. destruct Hk as (->&Hw2&HS).
  split_and!; [done|by eapply sw_trans|done].
Qed.
Lemma qw_sim {X Y} (m : M X) (m' : M Y) :
  (forall w, qw w m (fun _ _ => True)) -> (forall w, qw w m' (fun _ _ => True)) -> sim any m m'.
Proof.
  intros H H' w w' Hw. specialize (H w). specialize (H' w'). unfold qw in *. destruct (m w), (m' w').
  - destruct H as (->&H1&_), H' as (->&H2&_). split_and!; try done. eapply sw_trans; [by apply sw_sym|]. by eapply sw_trans.
  - rewrite H'. apply prefix_nil.
  - rewrite H. apply prefix_nil.
  - rewrite H. left. apply prefix_nil.
Qed.

Definition held (d : cell) (n : nat) (a : N) (w : world) : Prop :=
  forall j, (j < n)%nat -> exists c, mem (st w) !! (a + N.of_nat j) = Some c /\ sc c d.
Lemma held_sw d n a w w' : sw w w' -> held d n a w -> held d n a w'.
Proof.
  intros Hw H j Hj. destruct (H j Hj) as (c&Hc&Hd). pose proof (proj1 Hw (a + N.of_nat j)) as Ha. rewrite Hc in Ha.
  destruct (mem (st w') !! (a + N.of_nat j)) as [c'|]; [|done]. exists c'. split; [done|]. cbn in Ha.
  eapply sc_trans; [by apply sc_sym|done].
Qed.

Lemma qw_rds w a n : qw w (rds a n) (fun cs w' => w' = w /\ length cs = n /\
  forall j c, cs !! j = Some c -> mem (st w) !! (a + N.of_nat j) = Some c).
Proof.
  revert a. induction n as [|n IH]; intros a; cbn [rds]; [by apply qw_ret|].
  eapply (qw_bind w _ _ (fun c w' => w' = w /\ mem (st w) !! a = Some c)).
  { unfold qw, rd. destruct (mem (st w) !! a) eqn:E; [|done]. split_and!; try done. apply sw_refl. }
  intros c ? _ [-> Hc]. eapply qw_bind; [apply IH|]. intros cs ? _ (->&Hl&Hcs). apply qw_ret. split; [done|].
  split; [by cbn; rewrite Hl|]. intros [|j] d; cbn; [intros [= <-]; by rewrite N.add_0_r|].
  intros H%Hcs. rewrite -H. f_equal. lia.
Qed.
Lemma qw_wrs w a cs : (forall j d, cs !! j = Some d -> exists c, mem (st w) !! (a + N.of_nat j) = Some c /\ sc c d) ->
  qw w (wrs a cs) (fun _ _ => True).
Proof.
  revert a w. induction cs as [|d cs IH]; intros a w H; cbn [wrs]; [by apply qw_ret|].
  destruct (H 0%nat d eq_refl) as (c&Hc&Hd). rewrite N.add_0_r in Hc.
  eapply (qw_bind w _ _ (fun _ w' => True)).
  { unfold qw, wr. rewrite Hc. split_and!; try done. split_and!; try done. cbn. intros i. destruct (decide (i = a)) as [->|Hn].
    - by rewrite Hc lookup_insert.
    - rewrite lookup_insert_ne //. apply soc_refl. }
  intros _ w' Hw _. apply IH. intros j d' Hj. destruct (H (S j) d' Hj) as (c'&Hc'&Hd').
  pose proof (proj1 Hw (a + N.of_nat (S j))) as Ha. rewrite Hc' in Ha. replace (a + 1 + N.of_nat j) with (a + N.of_nat (S j)) by lia.
  destruct (mem (st w') !! (a + N.of_nat (S j))) as [x|]; [|done]. exists x. split; [done|]. cbn in Ha.
  eapply sc_trans; [by apply sc_sym|done].
Qed.

Section elem.
  Context (sz : N) (T : elt).
  Definition kind : cell := if e_triv T then Frag Moved 0 else Obj Moved 0.
  Local Notation at_ a w := (held kind (N.to_nat sz) a w).

  Lemma chunk_kind n v j c : chunk n v !! j = Some c -> sc c (Frag Moved 0).
  Proof. unfold chunk. rewrite list_lookup_fmap. destruct (_ !! j); [|done]. by intros [= <-]. Qed.
  Lemma ochunk_kind n v j c : ochunk n v !! j = Some c -> sc c (Obj Moved 0).
  Proof. unfold ochunk. rewrite list_lookup_fmap. destruct (_ !! j); [|done]. by intros [= <-]. Qed.
  Lemma chunk_len n v : length (chunk n v) = n.
  Proof. unfold chunk. by rewrite map_length seq_length. Qed.
  Lemma ochunk_len n v : length (ochunk n v) = n.
  Proof. unfold ochunk. by rewrite map_length seq_length. Qed.

  Lemma unchunk_is n cs v : unchunk n cs = Some v -> cs = chunk n v.
  Proof. destruct cs as [|[] cs]; cbn; try done. destruct (decide _) as [E|]; [|done]. by intros [= ->]. Qed.
  Lemma unochunk_is n cs v : unochunk n cs = Some v -> cs = ochunk n v.
  Proof. destruct cs as [|[] cs]; cbn; try done. destruct (decide _) as [E|]; [|done]. by intros [= ->]. Qed.

  Lemma qw_obj_get w n a : qw w (obj_get n a) (fun _ w' => held (Obj Moved 0) n a w').
  Proof.
    unfold obj_get. eapply qw_bind; [apply qw_rds|]. intros cs ? _ (->&Hl&Hcs).
    destruct (unochunk n cs) as [v|] eqn:E; [|done]. apply qw_ret. apply unochunk_is in E. intros j Hj.
    destruct (lookup_lt_is_Some_2 cs j) as [c Hc]; [lia|]. exists c. split; [by apply Hcs|]. rewrite E in Hc. by eapply ochunk_kind.
  Qed.
  Lemma qw_load w n a : qw w (load n a) (fun _ w' => held (Frag Moved 0) n a w').
  Proof.
    unfold load. eapply qw_bind; [apply qw_rds|]. intros cs ? _ (->&Hl&Hcs).
    destruct (unchunk n cs) as [v|] eqn:E; [|done]. apply qw_ret. apply unchunk_is in E. intros j Hj.
    destruct (lookup_lt_is_Some_2 cs j) as [c Hc]; [lia|]. exists c. split; [by apply Hcs|]. rewrite E in Hc. by eapply chunk_kind.
  Qed.
  Lemma qw_obj_set w n a v : qw w (obj_set n a v) (fun _ _ => True).
  Proof.
    unfold obj_set. eapply qw_bind; [apply qw_obj_get|]. intros ? w' Hw H. apply qw_wrs. intros j d Hd.
    destruct (H j) as (c&Hc&Hk). { apply lookup_lt_Some in Hd. by rewrite ochunk_len in Hd. }
    exists c. split; [done|]. eapply sc_trans; [done|]. apply sc_sym. by eapply ochunk_kind.
  Qed.
  Lemma qw_stor w n a v : held (Frag Moved 0) n a w -> qw w (stor n a v) (fun _ _ => True).
  Proof.
    intros H. unfold stor. apply qw_wrs. intros j d Hd. destruct (H j) as (c&Hc&Hk). { apply lookup_lt_Some in Hd. by rewrite chunk_len in Hd. }
    exists c. split; [done|]. eapply sc_trans; [done|]. apply sc_sym. by eapply chunk_kind.
  Qed.

  Lemma qw_get w a : qw w (e_get sz T a) (fun _ w' => at_ a w').
  Proof. unfold e_get, kind. destruct (e_triv T); [apply qw_load|apply qw_obj_get]. Qed.
  Lemma qw_set w a v : at_ a w -> qw w (e_set sz T a v) (fun _ _ => True).
  Proof. unfold e_set, kind. destruct (e_triv T); [apply qw_stor|intros _; apply qw_obj_set]. Qed.
  Lemma qw_leave w a v : qw w (e_leave sz T a v) (fun _ _ => True).
  Proof. unfold e_leave. destruct (e_triv T); [by apply qw_ret|apply qw_obj_set]. Qed.
  Lemma qw_take w a : qw w (e_take sz T a) (fun _ w' => at_ a w').
  Proof.
    unfold e_take. eapply qw_bind; [apply qw_get|]. intros v w1 Hw1 H1. eapply qw_bind; [apply qw_leave|]. intros ? w2 Hw2 _.
    apply qw_ret. by eapply held_sw.
  Qed.
  Lemma qw_mov w d s : at_ d w -> qw w (e_mov sz T d s) (fun _ w' => at_ s w').
  Proof.
    intros Hd. unfold e_mov. eapply qw_bind; [apply qw_get|]. intros v w1 Hw1 H1.
    eapply qw_bind; [apply qw_set; by eapply held_sw|]. intros ? w2 Hw2 _.
    unfold qw. pose proof (qw_leave w2 s v) as H. unfold qw in H. destruct (e_leave _ _ _ _ _); [|done]. destruct H as (?&?&_).
    split_and!; try done. eapply held_sw; [done|]. by eapply held_sw.
  Qed.
  Lemma qw_src w src : qw w (e_src sz T src) (fun _ _ => True).
  Proof.
    destruct src; cbn [e_src]; [by apply (qw_ret w x)|]. unfold qw. pose proof (qw_get w a) as H. unfold qw in H.
    destruct (e_get _ _ _ _); [|done]. destruct H as (?&?&_). done.
  Qed.
End elem.

Section loops.
  Context (sz : N) (T : elt) (comp : nat -> value -> value -> bool) (eqv : value -> value -> bool).
  Local Notation at_ a w := (held (kind T) (N.to_nat sz) a w).
  Local Notation elem := (elem_addr sz).

  Lemma qw_up_loop w k q p i v : at_ (elem p i) w -> qw w (up_loop sz T comp k q p i v) (fun i w => at_ (elem p i) w).
  Proof.
    revert i w. induction k as [|k IH]; intros i w H; cbn [up_loop]; [done|]. destruct (i =? 0); [by apply qw_ret|].
    eapply qw_bind; [apply qw_get|]. intros y w1 Hw1 H1. assert (at_ (elem p i) w1) as H0 by by eapply held_sw.
    destruct (comp q v y); [|by apply qw_ret]. eapply qw_bind; [by apply qw_mov|]. intros ? w2 Hw2 H2. by apply IH.
  Qed.
  Lemma qw_percolate_up w q p i : qw w (percolate_up sz T comp q p i) (fun _ _ => True).
  Proof.
    unfold percolate_up. eapply qw_bind; [apply qw_get|]. intros v w1 Hw1 H1. eapply qw_bind; [by apply qw_up_loop|].
    intros j w2 Hw2 H2. eapply qw_bind; [by apply qw_set|]. intros. by apply qw_ret.
  Qed.
  Lemma qw_pick w q p n j c : at_ (elem p c) w -> qw w (pick sz T comp q p n j c) (fun i w => at_ (elem p i) w).
  Proof.
    intros H. unfold pick. destruct (j <? n); [|by apply qw_ret]. eapply qw_bind; [apply qw_get|]. intros x w1 Hw1 H1.
    eapply qw_bind; [apply qw_get|]. intros y w2 Hw2 H2. apply qw_ret. destruct (comp q x y); [|done]. by eapply held_sw.
  Qed.
  Lemma qw_down_loop w k q p n i : at_ (elem p i) w -> qw w (down_loop sz T comp k q p n i) (fun i w => at_ (elem p i) w).
  Proof.
    revert i w. induction k as [|k IH]; intros i w H; cbn [down_loop]; [done|]. destruct (i <? n); [|by apply qw_ret].
    eapply qw_bind; [by apply qw_pick|]. intros c w1 Hw1 H1. eapply qw_bind; [by apply qw_pick|]. intros c' w2 Hw2 H2.
    destruct (c' =? i); [apply qw_ret; eapply held_sw; [done|]; by eapply held_sw|].
    eapply qw_bind; [apply qw_take|]. intros t w3 Hw3 H3. eapply qw_bind; [by apply qw_mov|]. intros ? w4 Hw4 H4.
    eapply qw_bind; [by apply qw_set|]. intros ? w5 Hw5 _. apply IH. eapply held_sw; [done|]. by eapply held_sw.
  Qed.
  Lemma qw_percolate_down w q p n i : qw w (percolate_down sz T comp q p n i) (fun _ _ => True).
  Proof.
    unfold percolate_down. eapply qw_bind; [apply qw_get|]. intros v w1 Hw1 H1. eapply qw_bind; [by apply qw_down_loop|].
    intros j w2 Hw2 H2. by apply qw_set.
  Qed.
  Lemma qw_find_loop w src p i n : qw w (find_loop sz T eqv src p i n) (fun _ _ => True).
  Proof.
    revert i w. induction n as [|n IH]; intros i w; cbn [find_loop]; [by apply qw_ret|].
    eapply qw_bind; [apply qw_get|]. intros y w1 Hw1 H1. eapply qw_bind; [apply qw_src|]. intros v w2 Hw2 _.
    destruct (eqv y v); [by apply qw_ret|apply IH].
  Qed.
End loops.

Section heap.
  Context (A : alloc) (HA : asim A) (b sz : N).
  Context (T T' : elt) (comp comp' : nat -> value -> value -> bool) (eqv eqv' : value -> value -> bool).
  Context (HT : e_triv T' = e_triv T).

  Lemma sim_e_get a : sim any (e_get sz T a) (e_get sz T' a).
  Proof. unfold e_get. rewrite HT. destruct (e_triv T); [apply sim_load|apply sim_obj_get]. Qed.
  Lemma sim_e_set a v v' : sim eq (e_set sz T a v) (e_set sz T' a v').
  Proof. unfold e_set. rewrite HT. destruct (e_triv T); [apply sim_stor|apply sim_obj_set]. Qed.
  Lemma sim_e_new a v v' : sim eq (e_new sz T a v) (e_new sz T' a v').
  Proof. unfold e_new. rewrite HT. destruct (e_triv T); [apply sim_stor|apply sim_obj_new]. Qed.
  Lemma sim_e_del a : sim eq (e_del sz T a) (e_del sz T' a).
  Proof. unfold e_del. rewrite HT. destruct (e_triv T); [apply sim_ret_eq|apply sim_obj_del]. Qed.
  Lemma sim_e_leave a v v' : sim eq (e_leave sz T a v) (e_leave sz T' a v').
  Proof. unfold e_leave. rewrite HT. destruct (e_triv T); [apply sim_ret_eq|apply sim_obj_set]. Qed.
  Lemma sim_e_src src src' : lplace src src' -> sim any (e_src sz T src) (e_src sz T' src').
  Proof. destruct src, src'; cbn; intros H; try done. subst. apply sim_e_get. Qed.
  Lemma sim_e_take a : sim any (e_take sz T a) (e_take sz T' a).
  Proof.
    unfold e_take. apply (sim_bind any); [apply sim_e_get|]. intros v v' _. apply sim_bind_eq; [apply sim_e_leave|].
    intros _. by apply sim_ret.
  Qed.
  Lemma sim_e_mov d s : sim eq (e_mov sz T d s) (e_mov sz T' d s).
  Proof.
    unfold e_mov. apply (sim_bind any); [apply sim_e_get|]. intros v v' _. apply sim_bind_eq; [apply sim_e_set|].
    intros _. apply sim_e_leave.
  Qed.
  Hint Resolve sim_e_set sim_e_new sim_e_del sim_e_leave sim_e_mov : sim.

  Lemma sim_construct h q src src' E : lplace src src' -> sim eq (construct A b sz T h q src E) (construct A b sz T' h q src' E).
  Proof.
    intros H. unfold construct. apply sim_te_cd; [done|]. apply (sim_bind any); [by apply sim_e_src|]. intros. apply sim_e_new.
  Qed.
  Lemma sim_construct_move h q a E : sim eq (construct_move A b sz T h q a E) (construct_move A b sz T' h q a E).
  Proof.
    unfold construct_move. apply sim_te_cd; [done|]. apply (sim_bind any); [apply sim_e_take|]. intros. apply sim_e_new.
  Qed.
  Lemma sim_destroy h q E : sim eq (destroy A b sz T h q E) (destroy A b sz T' h q E).
  Proof. unfold destroy. apply sim_te_cd; [done|]. apply sim_e_del. Qed.
  Lemma sim_give_back h p cap n E : sim eq (give_back A b sz h p cap n E) (give_back A b sz h p cap n E).
  Proof. unfold give_back. apply sim_bind_eq; [apply sim_obj_none|]. simc. Qed.
  Hint Resolve sim_construct sim_construct_move sim_destroy sim_give_back : sim.
  Lemma sim_copy_n h d s n E : sim eq (copy_n A b sz T h d s n E) (copy_n A b sz T' h d s n E).
  Proof.
    revert d s E. induction n as [|n IH]; intros d s E; cbn [copy_n]; [apply sim_ret_eq|].
    apply sim_bind_eq; [by apply sim_construct|]. intros. apply IH.
  Qed.
  Lemma sim_move_n h d s n E : sim eq (move_n A b sz T h d s n E) (move_n A b sz T' h d s n E).
  Proof. revert d s E. induction n as [|n IH]; intros d s E; cbn [move_n]; simc. Qed.
  Lemma sim_destroy_n h p n E : sim eq (destroy_n A b sz T h p n E) (destroy_n A b sz T' h p n E).
  Proof. revert p E. induction n as [|n IH]; intros p E; cbn [destroy_n]; simc. Qed.
  Hint Resolve sim_copy_n sim_move_n sim_destroy_n : sim.
  Lemma sim_hrelease x E : sim eq (hrelease A b sz T x E) (hrelease A b sz T' x E).
  Proof. unfold hrelease. simc. Qed.
  Lemma sim_hset_size x n E : sim eq (hset_size A b sz T x n E) (hset_size A b sz T' x n E).
  Proof. unfold hset_size. simc. Qed.
  Hint Resolve sim_hrelease sim_hset_size : sim.
  Lemma sim_hexpand x n E : sim eq (hexpand A b sz T x n E) (hexpand A b sz T' x n E).
  Proof. unfold hexpand. simc. Qed.
  Lemma sim_hreserve x n E : sim eq (hreserve A b sz T x n E) (hreserve A b sz T' x n E).
  Proof. unfold hreserve. simc. Qed.
  Lemma sim_hcopy_of h x E : sim eq (hcopy_of A b sz T h x E) (hcopy_of A b sz T' h x E).
  Proof. unfold hcopy_of. simc. Qed.
  Hint Resolve sim_hexpand sim_hreserve sim_hcopy_of : sim.

  Lemma sim_hinsert x src src' E : lplace src src' ->
    sim (fun r r' => r.1.2 = r'.1.2 /\ r.2 = r'.2) (hinsert A b sz T comp x src E) (hinsert A b sz T' comp' x src' E).
  Proof.
    intros H. unfold hinsert. apply sim_bind_eq; [simc|]. intros [x1 E1]. apply sim_bind_eq; [by apply sim_construct|]. intros E2.
    eapply (sim_bind any); [apply qw_sim; intros w; apply qw_percolate_up|]. intros. by apply sim_ret.
  Qed.
  Lemma sim_insert_list x l l' E : length l = length l' -> sim eq (insert_list A b sz T comp x l E) (insert_list A b sz T' comp' x l' E).
  Proof.
    revert x E l'. induction l as [|v l IH]; intros x E [|v' l'] H; try done; cbn [insert_list]. injection H as H.
    eapply sim_bind; [by apply sim_hinsert|]. intros [[i x1] E1] [[i' x1'] E1'] [Hx HE]. cbn in Hx, HE. subst. by apply IH.
  Qed.
  Lemma sim_hpop x E : sim (fun r r' => r.1.2 = r'.1.2 /\ r.2 = r'.2) (hpop A b sz T comp x E) (hpop A b sz T' comp' x E).
  Proof.
    unfold hpop. apply sim_bind_eq; [apply sim_assert|]. intros _. apply (sim_bind any); [apply sim_e_get|]. intros v v' _.
    apply sim_bind_eq; [apply sim_e_mov|]. intros _. apply sim_bind_eq; [apply sim_destroy|]. intros E1.
    eapply (sim_bind any); [apply qw_sim; intros w; apply qw_percolate_down|]. intros. by apply sim_ret.
  Qed.
  Hint Resolve sim_insert_list : sim.

  Lemma hlocate_sim r r' vs : like_ref r r' -> lplace (hlocate sz r vs) (hlocate sz r' vs).
  Proof. destruct r, r'; cbn; intros H; try done. by injection H as -> ->. Qed.

  Lemma sim_hsame {Q} o ob (q : Q) : sim (fun x x' => like_answer o (fst x) (fst x') /\ snd x = snd x') (ret (ob, q)) (ret (ob, q)).
  Proof. apply sim_ret. split; [by destruct o, ob|done]. Qed.
  Lemma sim_hdo o o' q : like_hop o o' ->
    sim (fun x x' => like_answer o (fst x) (fst x') /\ snd x = snd x') (hdo A b sz T comp eqv o q) (hdo A b sz T' comp' eqv' o' q).
  Proof.
    intros H. destruct q as [E vs]. destruct o, o'; cbn in H; try done; try (injection H as H; subst); destruct_and?; subst; cbn [hdo];
      unfold hassign, hmove_assign;
      repeat match goal with
      | H : like_ref _ _ |- _ => apply (hlocate_sim _ _ vs) in H
      | H : length ?l = length _ |- context [N.of_nat (length ?l)] => rewrite H
      end; try (repeat first [apply sim_hsame | progress simc]; done).
    - apply (sim_bind any); [apply sim_e_get|]. intros. by apply sim_ret.
    - eapply sim_bind; [by apply sim_hinsert|]. intros [[i x1] E1] [[i' x1'] E1'] [Hx HE]. cbn in Hx, HE. subst. by apply sim_ret.
    - apply sim_bind_eq; [apply sim_assert|]. intros _. apply (sim_bind any); [apply sim_e_get|]. intros. by apply sim_ret.
    - eapply sim_bind; [apply sim_hpop|]. intros [[i x1] E1] [[i' x1'] E1'] [Hx HE]. cbn in Hx, HE. subst. by apply sim_ret.
    - eapply (sim_bind any); [apply qw_sim; intros w; apply qw_find_loop|]. intros. by apply sim_ret.
  Qed.
  Lemma hlegal_sim k m o o' : like_hop o o' -> hlegal sz T k m o = hlegal sz T' k m o'.
  Proof.
    intros H. destruct o, o'; cbn in H; try done; try (injection H as H; subst; cbn; rewrite ?HT; done); destruct_and?; subst;
      repeat match goal with
      | H : like_ref ?r ?r' |- _ => destruct r, r'; cbn in H; try done; try (injection H as H); subst; clear H
      end; done.
  Qed.
  Lemma sim_hstep k o o' q : like_hop o o' ->
    sim (fun x x' => like_answer o (fst x) (fst x') /\ snd x = snd x') (hstep A b sz T comp eqv k o q) (hstep A b sz T' comp' eqv' k o' q).
  Proof. intros H. unfold hstep. rewrite (hlegal_sim _ _ _ _ H). destruct (hlegal _ _ _ _ _); [by apply sim_hdo|apply sim_hsame]. Qed.
End heap.
