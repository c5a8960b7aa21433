(** Proofs about several threads, for every schedule. *)
From Coq Require Import ssreflect.
From Verif Require Import Base Mem Bits Allocators Client Threads.

(** * The use count *)
Lemma sum_insert {X} (f : X -> nat) (l : list X) i x y : l !! i = Some x ->
  (sum_list_with f (<[i := y]> l) + f x = sum_list_with f l + f y)%nat.
Proof.
  revert i. induction l as [|z l IH]; intros [|i] H; [done..|injection H as ->; cbn; lia|].
  change (<[S i := y]> (z :: l)) with (z :: <[i := y]> l). specialize (IH i H). cbn [sum_list_with]. lia.
Qed.

Lemma sum_lookup {X} (f : X -> nat) (l : list X) i x : l !! i = Some x -> (f x <= sum_list_with f l)%nat.
Proof.
  revert i. induction l as [|z l IH]; intros [|i]; cbn; intros H; [done..|injection H as ->; lia|].
  specialize (IH i H). lia.
Qed.

Notation thr c t x := (cc_ths c !! t = Some x).

(** Every use is visible through UseCount or known to a thread that holds a handle. *)
Definition visible (c : cconf) : Prop :=
  forall e, (e < cc_uses c)%nat -> e ∈ cc_pub c \/ exists t x, thr c t x /\ (0 < ct_own x)%nat /\ e ∈ ct_know x.

Definition phase (c : cconf) : Prop :=
  ((0 < handles c)%nat /\ cc_alive c = true /\ cc_deleted c = 0%nat /\ cc_cnt c = N.of_nat (handles c) /\
     (forall t x, thr c t x -> ct_pc x = CIdle) /\ visible c) \/
  (handles c = 0%nat /\ cc_alive c = true /\ cc_deleted c = 0%nat /\
     exists t x, thr c t x /\ ct_pc x = CDelete /\ (forall e, (e < cc_uses c)%nat -> e ∈ ct_know x) /\
       forall t' x', thr c t' x' -> t' <> t -> ct_pc x' = CIdle) \/
  (handles c = 0%nat /\ cc_alive c = false /\ cc_deleted c = 1%nat /\ forall t x, thr c t x -> ct_pc x = CIdle).

Definition cinv (n : nat) (c : cconf) : Prop :=
  cc_bad c = false /\ cc_race c = false /\ N.of_nat (handles c + n) < W /\ phase c.

Lemma cinv_less n c : cinv (S n) c -> cinv n c.
Proof. intros (H1&H2&H3&H4). split_and!; try done. lia. Qed.

Lemma no_handles c t x : handles c = 0%nat -> thr c t x -> ct_own x = 0%nat.
Proof. intros H Hx. pose proof (sum_lookup ct_own _ _ _ Hx). unfold handles in H. lia. Qed.

Ltac ccbn := cbn [set_th touch set_cnt publish learn cc_cnt cc_alive cc_deleted cc_bad cc_uses cc_pub cc_race cc_ths orb negb].
Ltac ccbn_in H := cbn [set_th touch set_cnt publish learn cc_cnt cc_alive cc_deleted cc_bad cc_uses cc_pub cc_race cc_ths orb negb] in H.

Lemma cstep_inv n a c : cinv (S n) c -> cinv n (cstep true true true a c).
Proof.
  intros HI. pose proof (cinv_less _ _ HI) as HI'. destruct HI as (Hb&Hr&Hn&HP).
  destruct a as [t a]. cbn [cstep]. destruct (cc_ths c !! t) as [x|] eqn:Hx; [|done].
  destruct a as [from| | |to|]; destruct (ct_pc x) eqn:Hpc; try done.
  - (* copy *)
    destruct (cc_ths c !! from) as [y|] eqn:Hy; [|done]. destruct (Nat.ltb_spec 0 (ct_own y)) as [Hown|]; [|done].
    pose proof (sum_lookup ct_own _ _ _ Hy) as Hh. fold (handles c) in Hh.
    destruct HP as [(H1&H2&H3&H4&H5&H6)|[(H1&_)|(H1&_)]]; [|lia..].
    pose proof (sum_insert ct_own _ _ _ (CThread (S (ct_own x)) CIdle (ct_know x ∪ cc_pub c)) Hx) as Hs.
    cbn [ct_own] in Hs.
    assert (Hs' : handles (set_th t (CThread (S (ct_own x)) CIdle (ct_know x ∪ cc_pub c)) c) = S (handles c)).
    { unfold handles at 1. cbn. unfold handles. lia. }
    unfold cinv. cbn. rewrite Hb H2. split_and!; try done.
    { unfold handles in *. cbn. cbn in Hs'. lia. }
    left. unfold handles in *. cbn in *. split_and!; try done; try lia.
    + rewrite H4 add64_small; lia.
    + intros t' x' Hx'. apply list_lookup_insert_Some in Hx' as [(_&<-&_)|[_ Hx']]; [done|]. by eapply H5.
    + intros e He. cbn in He. destruct (H6 e He) as [H|(t'&x'&Ht'&Ho&Hk)]; [left; cbn; set_solver|right].
      destruct (decide (t = t')) as [<-|Hne].
      * rewrite Hx in Ht'. injection Ht' as <-. eexists t, _. cbn. rewrite list_lookup_insert; [by eapply lookup_lt_Some|].
        split; [done|]. cbn. split; [lia|]. set_solver.
      * exists t', x'. cbn. by rewrite list_lookup_insert_ne.
  - (* drop *)
    destruct (Nat.ltb_spec 0 (ct_own x)) as [Hown|]; [|done].
    pose proof (sum_lookup ct_own _ _ _ Hx) as Hh. fold (handles c) in Hh.
    destruct HP as [(H1&H2&H3&H4&H5&H6)|[(H1&_)|(H1&_)]]; [|lia..].
    ccbn. set (x' := CThread (ct_own x - 1) (if cc_cnt c =? 1 then CDelete else CIdle) (ct_know x ∪ cc_pub c)).
    pose proof (sum_insert ct_own _ _ _ x' Hx) as Hs. cbn [ct_own x'] in Hs. fold (handles c) in Hs.
    unfold cinv. ccbn. rewrite Hb H2. split_and!; try done.
    { unfold handles in *. ccbn. lia. }
    destruct (N.eqb_spec (cc_cnt c) 1) as [E|E].
    + right. left. split_and!.
      * unfold handles. ccbn. lia.
      * done.
      * done.
      * exists t, x'. ccbn. rewrite list_lookup_insert; [by eapply lookup_lt_Some|].
        split_and!; [done|done|..].
        -- intros e He. ccbn_in He. destruct (H6 e He) as [H|(t'&y&Ht'&Ho&Hk)].
           ++ rewrite /x' /=. set_solver.
           ++ assert (t' = t) as ->.
              { destruct (decide (t' = t)) as [->|Hne]; [done|]. exfalso.
                assert (thr (set_th t x' c) t' y) as Hy by (ccbn; by rewrite list_lookup_insert_ne).
                pose proof (sum_lookup ct_own _ _ _ Hy) as Hyl. ccbn_in Hyl. lia. }
              rewrite Hx in Ht'. injection Ht' as <-. rewrite /x' /=. set_solver.
        -- intros t' y Hy Hne. rewrite list_lookup_insert_ne // in Hy. by eapply H5.
    + left. split_and!; try done.
      * unfold handles. ccbn. lia.
      * unfold handles. ccbn. rewrite H4 sub64_small; lia.
      * intros t' y Hy. apply list_lookup_insert_Some in Hy as [(_&<-&_)|[_ Hy]]; [done|by eapply H5].
      * intros e He. ccbn_in He. destruct (H6 e He) as [H|(t'&y&Ht'&Ho&Hk)]; [left; cbn; set_solver|].
        destruct (decide (t = t')) as [<-|Hne].
        -- rewrite Hx in Ht'. injection Ht' as <-. left. cbn. set_solver.
        -- right. exists t', y. ccbn. by rewrite list_lookup_insert_ne.
  - (* use *)
    destruct (Nat.ltb_spec 0 (ct_own x)) as [Hown|]; [|done].
    pose proof (sum_lookup ct_own _ _ _ Hx) as Hh. fold (handles c) in Hh.
    destruct HP as [(H1&H2&H3&H4&H5&H6)|[(H1&_)|(H1&_)]]; [|lia..].
    ccbn. set (x' := CThread (ct_own x) CIdle ({[cc_uses c]} ∪ ct_know x)).
    pose proof (sum_insert ct_own _ _ _ x' Hx) as Hs. cbn [ct_own x'] in Hs. fold (handles c) in Hs.
    unfold cinv. ccbn. rewrite Hb H2. split_and!; try done.
    { unfold handles in *. ccbn. lia. }
    left. split_and!; try done.
    + unfold handles. ccbn. lia.
    + unfold handles in *. ccbn. rewrite H4. lia.
    + intros t' y Hy. ccbn_in Hy. apply list_lookup_insert_Some in Hy as [(_&<-&_)|[_ Hy]]; [done|by eapply H5].
    + intros e He. ccbn_in He.
      assert (Ht : thr (set_th t x' c) t x').
      { ccbn. apply list_lookup_insert. by eapply lookup_lt_Some. }
      destruct (decide (e = cc_uses c)) as [->|Hne].
      { right. exists t, x'. split; [done|]. split; [done|]. rewrite /x' /=. set_solver. }
      destruct (H6 e) as [H|(t'&y&Ht'&Ho&Hk)]; [lia|by left|right].
      destruct (decide (t = t')) as [<-|Hne'].
      * exists t, x'. split; [done|]. rewrite Hx in Ht'. injection Ht' as <-. split; [done|]. rewrite /x' /=. set_solver.
      * exists t', y. ccbn. by rewrite list_lookup_insert_ne.
  - (* give *)
    destruct (Nat.ltb_spec 0 (ct_own x)) as [Hown|]; [|done].
    pose proof (sum_lookup ct_own _ _ _ Hx) as Hh. fold (handles c) in Hh.
    destruct HP as [(H1&H2&H3&H4&H5&H6)|[(H1&_)|(H1&_)]]; [|lia..].
    ccbn. set (x' := CThread (ct_own x - 1) CIdle (ct_know x)).
    pose proof (sum_insert ct_own _ _ _ x' Hx) as Hs. cbn [ct_own x'] in Hs. fold (handles c) in Hs.
    assert (Htl : (t < length (cc_ths c))%nat) by by eapply lookup_lt_Some.
    destruct (<[t := x']> (cc_ths c) !! to) as [y|] eqn:Hy.
    + ccbn_in Hy. ccbn. set (y' := CThread (S (ct_own y)) (ct_pc y) (ct_know y ∪ ct_know x)).
      pose proof (sum_insert ct_own _ _ _ y' Hy) as Hs2. cbn [ct_own y'] in Hs2.
      assert (Hyi : ct_pc y = CIdle).
      { apply list_lookup_insert_Some in Hy as [(_&<-&_)|[_ Hy]]; [done|by eapply H5]. }
      assert (Hyl : thr (set_th to y' (set_th t x' c)) to y').
      { ccbn. apply list_lookup_insert. by eapply lookup_lt_Some. }
      unfold cinv. ccbn. rewrite Hb. split_and!; try done.
      { unfold handles in *. ccbn. lia. }
      left. split_and!; try done.
      * unfold handles. ccbn. lia.
      * unfold handles in *. ccbn. rewrite H4. lia.
      * intros t' z Hz. ccbn_in Hz.
        apply list_lookup_insert_Some in Hz as [(_&<-&_)|[_ Hz]]; [done|].
        apply list_lookup_insert_Some in Hz as [(_&<-&_)|[_ Hz]]; [done|]. by eapply H5.
      * intros e He. destruct (H6 e He) as [H|(t'&z&Ht'&Ho&Hk)]; [by left|right].
        destruct (decide (to = t')) as [<-|Hne'].
        -- exists to, y'. split; [done|]. split; [cbn; lia|]. rewrite /y' /=.
           apply list_lookup_insert_Some in Hy as [(->&<-&_)|[_ Hy]].
           ++ rewrite Hx in Ht'. injection Ht' as <-. set_solver.
           ++ rewrite Hy in Ht'. injection Ht' as <-. set_solver.
        -- destruct (decide (t = t')) as [<-|Hne2].
           ++ exists to, y'. split; [done|]. split; [cbn; lia|]. rewrite Hx in Ht'. injection Ht' as <-. rewrite /y' /=. set_solver.
           ++ exists t', z. ccbn. by rewrite list_lookup_insert_ne // list_lookup_insert_ne.
    + unfold set_th. ccbn. rewrite list_insert_insert list_insert_id //.
  - destruct HP as [(H1&H2&H3&H4&H5&H6)|[(H1&H2&H3&t0&x0&H4&H5&H6&H7)|(H1&H2&H3&H4)]].
    + rewrite (H5 t x Hx) in Hpc. done.
    + destruct (decide (t = t0)) as [->|Hne]; [congruence|]. rewrite (H7 t x Hx Hne) in Hpc. done.
    + rewrite (H4 t x Hx) in Hpc. done.
  - destruct HP as [(H1&H2&H3&H4&H5&H6)|[(H1&H2&H3&t0&x0&H4&H5&H6&H7)|(H1&H2&H3&H4)]].
    + rewrite (H5 t x Hx) in Hpc. done.
    + destruct (decide (t = t0)) as [->|Hne]; [congruence|]. rewrite (H7 t x Hx Hne) in Hpc. done.
    + rewrite (H4 t x Hx) in Hpc. done.
  - (* delete *)
    destruct HP as [(H1&H2&H3&H4&H5&H6)|[(H1&H2&H3&t0&x0&H4&H5&H6&H7)|(H1&H2&H3&H4)]].
    + rewrite (H5 t x Hx) in Hpc. done.
    + destruct (decide (t = t0)) as [<-|Hne]; [|rewrite (H7 t x Hx Hne) in Hpc; done].
      rewrite Hx in H4. injection H4 as <-.
      ccbn. set (x' := CThread (ct_own x) CIdle (ct_know x)).
      pose proof (sum_insert ct_own _ _ _ x' Hx) as Hs. cbn [ct_own x'] in Hs. fold (handles c) in Hs.
      unfold cinv. ccbn. rewrite Hb H2 Hr. cbn [orb negb]. split_and!; try done.
      * rewrite bool_decide_true //. intros e He%elem_of_set_seq. apply H6. lia.
      * unfold handles in *. ccbn. lia.
      * right. right. split_and!; try done.
        -- unfold handles in *. ccbn. lia.
        -- cbn. lia.
        -- intros t' y Hy. ccbn_in Hy. apply list_lookup_insert_Some in Hy as [(_&<-&_)|[Hne Hy]]; [done|]. by eapply H7.
    + rewrite (H4 t x Hx) in Hpc. done.
Qed.

Lemma csched_inv l n c : cinv (length l + n) c -> cinv n (csched true true true l c).
Proof.
  revert c. induction l as [|a l IH]; intros c HI; [done|]. cbn [csched]. apply IH. cbn [length] in HI. by apply cstep_inv.
Qed.

Lemma handles_repeat n : sum_list_with ct_own (repeat (CThread 0 CIdle ∅) n) = 0%nat.
Proof. induction n; cbn; auto. Qed.

Lemma cstart_inv n m : N.of_nat m + 1 < W -> cinv m (cstart n).
Proof.
  intros Hm. assert (Hh : handles (cstart n) = 1%nat). { unfold handles. cbn. by rewrite handles_repeat. }
  split_and!; try done.
  - rewrite Hh. lia.
  - left. rewrite Hh. split_and!; try done; try lia.
    + intros [|t] x Hx; cbn in Hx; [by injection Hx as <-|]. apply elem_of_list_lookup_2, elem_of_list_In, repeat_spec in Hx. by subst.
    + intros e He. cbn in He. lia.
Qed.

Lemma counter_safe n l : N.of_nat (length l) + 1 < W ->
  let c := csched true true true l (cstart n) in
  cc_bad c = false /\ cc_race c = false /\ (cc_deleted c <= 1)%nat /\
  (cc_deleted c = 1%nat -> handles c = 0%nat) /\
  (handles c = 0%nat -> settled c -> cc_deleted c = 1%nat).
Proof.
  intros Hl c. assert (HI : cinv 0 c). { apply csched_inv, cstart_inv. lia. }
  destruct HI as (H1&H2&_&[(H3&H4&H5&_)|[(H3&H4&H5&t&x&H6&H7&_)|(H3&H4&H5&H6)]]); split_and!; try done; try lia.
  intros _ Hs. unfold settled in Hs. rewrite Forall_lookup in Hs. specialize (Hs _ _ H6). congruence.
Qed.

(** * The mutex *)
Lemma of_thread_app {X} t (h1 h2 : list (nat * X)) : of_thread t (h1 ++ h2) = of_thread t h1 ++ of_thread t h2.
Proof. unfold of_thread. by rewrite list.filter_app map_app. Qed.
Lemma of_thread_same {X} t (x : X) : of_thread t [(t, x)] = [x].
Proof. unfold of_thread. by rewrite filter_cons_True. Qed.
Lemma of_thread_other {X} t t' (x : X) : t <> t' -> of_thread t [(t', x)] = [].
Proof. intros H. unfold of_thread. by rewrite filter_cons_False. Qed.

Section mutex.
  Context {St C R : Type} (body : C -> act St R) (locked : C -> bool).
  Definition sem (k : C) (s : St) : St * R := eval (body k) s.
  (** A call needs no lock if it neither reads nor writes the state. *)
  Definition fine (k : C) : Prop := locked k = true \/ exists r, body k = Done r.

  Lemma sequential_snoc h t k s :
    sequential sem (h ++ [(t, k)]) s =
      (fst (sem k (fst (sequential sem h s))), snd (sequential sem h s) ++ [(t, snd (sem k (fst (sequential sem h s))))]).
  Proof.
    revert s. induction h as [|[t' k'] h IH]; intros s; cbn [app sequential fst snd].
    - by destruct (sem k s).
    - destruct (sem k' s) as [s' r]. rewrite IH. destruct (sequential sem h s') as [s'' rs]. done.
  Qed.

  Definition pending (x : mthread St C R) (s : St) : list R :=
    match mt_cur x with Some (_, a) => [snd (eval a s)] | None => [] end.

  Record minv (s0 : St) (progs : list (list C)) (c : mconf St C R) : Prop := {
    m_fine : Forall (Forall fine) progs;
    m_len : length (mc_ths c) = length progs;
    m_prog t x : mc_ths c !! t = Some x -> progs !! t = Some (of_thread t (mc_hist c) ++ mt_todo x);
    m_res t x : mc_ths c !! t = Some x -> of_thread t (snd (sequential sem (mc_hist c) s0)) = mt_res x ++ pending x (mc_st c);
    m_held t x k a : mc_ths c !! t = Some x -> mt_cur x = Some (k, a) -> locked k = true -> mc_lock c = Some t;
    m_free t x k a : mc_ths c !! t = Some x -> mt_cur x = Some (k, a) -> locked k = false -> exists r, a = Done r;
    m_lock : match mc_lock c with
             | None => mc_st c = fst (sequential sem (mc_hist c) s0)
             | Some t => exists x k a, mc_ths c !! t = Some x /\ mt_cur x = Some (k, a) /\ locked k = true /\
                         fst (eval a (mc_st c)) = fst (sequential sem (mc_hist c) s0)
             end
  }.

  Lemma mstart_inv s0 progs : Forall (Forall fine) progs -> minv s0 progs (mstart s0 progs).
  Proof.
    intros Hf. split; cbn [mstart mc_ths mc_hist mc_st mc_lock sequential fst snd]; try done.
    - by rewrite map_length.
    - intros t x Hx. rewrite list_lookup_fmap in Hx. destruct (progs !! t) as [p|]; [|done]. cbn in Hx. injection Hx as <-. done.
    - intros t x Hx. rewrite list_lookup_fmap in Hx. destruct (progs !! t) as [p|]; [|done]. cbn in Hx. injection Hx as <-. done.
    - intros t x k a Hx. rewrite list_lookup_fmap in Hx. destruct (progs !! t) as [p|]; [|done]. cbn in Hx. injection Hx as <-. done.
    - intros t x k a Hx. rewrite list_lookup_fmap in Hx. destruct (progs !! t) as [p|]; [|done]. cbn in Hx. injection Hx as <-. done.
  Qed.

  Lemma mstep_inv s0 progs t c c' : minv s0 progs c -> mstep body locked t c = Some c' -> minv s0 progs c'.
  Proof.
    intros [Hf Hlen Hp Hr Hh Hu Hl]. unfold mstep. destruct (mc_ths c !! t) as [x|] eqn:Hx; [|done].
    assert (Htl : (t < length (mc_ths c))%nat) by by eapply lookup_lt_Some.
    destruct (mt_cur x) as [[k [r|upd next]]|] eqn:Hc.
    - (* return *)
      intros [= <-]. split; cbn [mc_ths mc_hist mc_st mc_lock]; try done.
      + by rewrite insert_length.
      + intros t' x' Hx'. apply list_lookup_insert_Some in Hx' as [(<-&<-&_)|[_ Hx']]; [exact (Hp _ _ Hx)|by apply Hp].
      + intros t' x' Hx'. apply list_lookup_insert_Some in Hx' as [(<-&<-&_)|[_ Hx']]; [|by apply Hr].
        rewrite (Hr t x Hx). unfold pending. rewrite Hc. cbn. by rewrite app_nil_r.
      + intros t' x' k' a' Hx' Hc' Hk'. apply list_lookup_insert_Some in Hx' as [(<-&<-&_)|[Hne Hx']]; [done|].
        destruct (locked k) eqn:Hk; [|by eapply Hh].
        assert (E1 := Hh _ _ _ _ Hx' Hc' Hk'). assert (E2 := Hh _ _ _ _ Hx Hc Hk). congruence.
      + intros t' x' k' a' Hx' Hc' Hk'. apply list_lookup_insert_Some in Hx' as [(<-&<-&_)|[Hne Hx']]; [done|]. by eapply Hu.
      + destruct (locked k) eqn:Hk.
        * rewrite (Hh _ _ _ _ Hx Hc Hk) in Hl. destruct Hl as (x1&k1&a1&H1&H2&H3&H4).
          rewrite Hx in H1. injection H1 as <-. rewrite Hc in H2. injection H2 as <- <-. done.
        * destruct (mc_lock c) as [t1|]; [|done]. destruct Hl as (x1&k1&a1&H1&H2&H3&H4).
          exists x1, k1, a1. split; [|done]. rewrite list_lookup_insert_ne //. intros <-.
          rewrite Hx in H1. injection H1 as <-. congruence.
    - (* a step inside the call *)
      intros [= <-]. destruct (locked k) eqn:Hk; [|by destruct (Hu _ _ _ _ Hx Hc Hk)].
      assert (Hlk := Hh _ _ _ _ Hx Hc Hk). rewrite Hlk in Hl.
      destruct Hl as (x1&k1&a1&H1&H2&H3&H4). rewrite Hx in H1. injection H1 as <-. rewrite Hc in H2. injection H2 as <- <-.
      cbn [eval] in H4.
      split; cbn [mc_ths mc_hist mc_st mc_lock]; try done.
      + by rewrite insert_length.
      + intros t' x' Hx'. apply list_lookup_insert_Some in Hx' as [(<-&<-&_)|[_ Hx']]; [exact (Hp _ _ Hx)|by apply Hp].
      + intros t' x' Hx'. apply list_lookup_insert_Some in Hx' as [(<-&<-&_)|[Hne Hx']].
        * rewrite (Hr t x Hx). unfold pending. rewrite Hc. done.
        * rewrite (Hr t' x' Hx'). f_equal. unfold pending. destruct (mt_cur x') as [[k' a']|] eqn:Hc'; [|done].
          destruct (locked k') eqn:Hk'.
          -- assert (E1 := Hh _ _ _ _ Hx' Hc' Hk'). congruence.
          -- by destruct (Hu _ _ _ _ Hx' Hc' Hk') as [r ->].
      + intros t' x' k' a' Hx' Hc' Hk'. apply list_lookup_insert_Some in Hx' as [(<-&<-&_)|[Hne Hx']]; [done|by eapply Hh].
      + intros t' x' k' a' Hx' Hc' Hk'. apply list_lookup_insert_Some in Hx' as [(<-&<-&_)|[Hne Hx']]; [|by eapply Hu].
        cbn in Hc'. injection Hc' as <- <-. congruence.
      + rewrite Hlk. eexists _, k, _. split; [by apply list_lookup_insert|]. done.
    - (* begin *)
      destruct (mt_todo x) as [|k ks] eqn:Ht; [done|].
      assert (Hfk : fine k).
      { pose proof (Hp t x Hx) as E. rewrite Ht in E. rewrite Forall_lookup in Hf. specialize (Hf _ _ E).
        apply Forall_app in Hf as [_ Hf]. by apply Forall_cons_iff in Hf as [? _]. }
      assert (Hprog : forall c1, mc_hist c1 = mc_hist c ++ [(t, k)] ->
        mc_ths c1 = <[t := MThread ks (Some (k, body k)) (mt_res x)]> (mc_ths c) ->
        length (mc_ths c1) = length progs /\
        forall t' x', mc_ths c1 !! t' = Some x' -> progs !! t' = Some (of_thread t' (mc_hist c1) ++ mt_todo x')).
      { intros c1 -> ->. split; [by rewrite insert_length|]. intros t' x' Hx'. rewrite of_thread_app.
        apply list_lookup_insert_Some in Hx' as [(<-&<-&_)|[Hne Hx']].
        - rewrite of_thread_same -app_assoc. rewrite (Hp t x Hx) Ht. done.
        - rewrite of_thread_other // app_nil_r. by apply Hp. }
      destruct (locked k) eqn:Hk.
      + destruct (mc_lock c) as [t1|] eqn:Hlk; [done|]. intros [= <-].
        destruct (Hprog (MConf (mc_st c) (Some t) (mc_hist c ++ [(t, k)]) (<[t:=MThread ks (Some (k, body k)) (mt_res x)]> (mc_ths c))) eq_refl eq_refl) as [HP1 HP2].
        assert (Hseq := sequential_snoc (mc_hist c) t k s0). rewrite -Hl in Hseq.
        assert (Hnone : forall t' x' k' a', mc_ths c !! t' = Some x' -> mt_cur x' = Some (k', a') -> locked k' = false).
        { intros t' x' k' a' H1 H2. destruct (locked k') eqn:H3; [|done]. assert (E := Hh _ _ _ _ H1 H2 H3). congruence. }
        split; try done; cbn [mc_ths mc_hist mc_st mc_lock].
        * intros t' x' Hx'. rewrite Hseq. cbn [snd]. rewrite of_thread_app.
          apply list_lookup_insert_Some in Hx' as [(<-&<-&_)|[Hne Hx']].
          -- rewrite of_thread_same (Hr t x Hx). unfold pending. rewrite Hc. cbn. by rewrite app_nil_r.
          -- rewrite of_thread_other // app_nil_r. by apply Hr.
        * intros t' x' k' a' Hx' Hc' Hk'. apply list_lookup_insert_Some in Hx' as [(<-&<-&_)|[Hne Hx']]; [done|].
          rewrite (Hnone _ _ _ _ Hx' Hc') in Hk'. done.
        * intros t' x' k' a' Hx' Hc' Hk'. apply list_lookup_insert_Some in Hx' as [(<-&<-&_)|[Hne Hx']]; [|by eapply Hu].
          cbn in Hc'. injection Hc' as <- <-. congruence.
        * eexists _, k, _. split; [by apply list_lookup_insert|]. rewrite Hseq. done.
      + intros [= <-]. destruct Hfk as [?|[r Hb]]; [congruence|].
        destruct (Hprog (MConf (mc_st c) (mc_lock c) (mc_hist c ++ [(t, k)]) (<[t:=MThread ks (Some (k, body k)) (mt_res x)]> (mc_ths c))) eq_refl eq_refl) as [HP1 HP2].
        assert (Hseq := sequential_snoc (mc_hist c) t k s0).
        assert (Hsk : forall s, sem k s = (s, r)) by (intros s; unfold sem; by rewrite Hb).
        rewrite Hsk in Hseq. cbn [fst snd] in Hseq.
        split; try done; cbn [mc_ths mc_hist mc_st mc_lock].
        * intros t' x' Hx'. rewrite Hseq. cbn [snd]. rewrite of_thread_app.
          apply list_lookup_insert_Some in Hx' as [(<-&<-&_)|[Hne Hx']].
          -- rewrite of_thread_same (Hr t x Hx). unfold pending. rewrite Hc. cbn. by rewrite Hb app_nil_r.
          -- rewrite of_thread_other // app_nil_r. by apply Hr.
        * intros t' x' k' a' Hx' Hc' Hk'. apply list_lookup_insert_Some in Hx' as [(<-&<-&_)|[Hne Hx']]; [|by eapply Hh].
          cbn in Hc'. injection Hc' as <- <-. congruence.
        * intros t' x' k' a' Hx' Hc' Hk'. apply list_lookup_insert_Some in Hx' as [(<-&<-&_)|[Hne Hx']]; [|by eapply Hu].
          cbn in Hc'. injection Hc' as <- <-. by exists r.
        * rewrite Hseq. cbn [fst]. destruct (mc_lock c) as [t1|]; [|done].
          destruct Hl as (x1&k1&a1&H1&H2&H3&H4). exists x1, k1, a1. split; [|done].
          rewrite list_lookup_insert_ne //. intros <-. rewrite Hx in H1. injection H1 as <-. congruence.
  Qed.

  Lemma msched_inv s0 progs l c : minv s0 progs c -> minv s0 progs (msched body locked l c).
  Proof.
    revert c. induction l as [|t l IH]; intros c HI; [done|]. cbn [msched]. apply IH.
    destruct (mstep body locked t c) as [c'|] eqn:E; [|done]. by eapply mstep_inv.
  Qed.

  (** Linearisation, in every reachable configuration. *)
  Lemma mutex_linear s0 progs l : Forall (Forall fine) progs ->
    let c := msched body locked l (mstart s0 progs) in
    let '(s, rs) := sequential sem (mc_hist c) s0 in
    (mc_lock c = None -> mc_st c = s) /\
    forall t p, progs !! t = Some p -> exists x, mc_ths c !! t = Some x /\
      p = of_thread t (mc_hist c) ++ mt_todo x /\
      mt_res x `prefix_of` of_thread t rs /\ (mt_cur x = None -> mt_res x = of_thread t rs).
  Proof.
    intros Hf c. destruct (msched_inv s0 progs l _ (mstart_inv s0 progs Hf)) as [_ Hlen Hp Hr Hh Hu Hl].
    fold c in Hlen, Hp, Hr, Hh, Hu, Hl. destruct (sequential sem (mc_hist c) s0) as [s rs]. cbn [fst snd] in *.
    split.
    - intros Hn. by rewrite Hn in Hl.
    - intros t p Ht. destruct (mc_ths c !! t) as [x|] eqn:Hx.
      2:{ apply lookup_ge_None in Hx. apply lookup_lt_Some in Ht. lia. }
      exists x. split; [done|]. rewrite (Hp t x Hx) in Ht. injection Ht as <-. split; [done|].
      rewrite (Hr t x Hx). split; [by apply prefix_app_r|]. unfold pending. intros ->. by rewrite app_nil_r.
  Qed.

  Lemma mutex_finished s0 progs l : Forall (Forall fine) progs ->
    let c := msched body locked l (mstart s0 progs) in
    finished c ->
    let '(s, rs) := sequential sem (mc_hist c) s0 in
    mc_st c = s /\ forall t p, progs !! t = Some p -> exists x, mc_ths c !! t = Some x /\
      p = of_thread t (mc_hist c) /\ mt_res x = of_thread t rs.
  Proof.
    intros Hf c Hfin. destruct (msched_inv s0 progs l _ (mstart_inv s0 progs Hf)) as [_ _ _ _ _ _ Hl]. fold c in Hl.
    pose proof (mutex_linear s0 progs l Hf) as H. cbn zeta in H. fold c in H. unfold finished in Hfin. rewrite Forall_lookup in Hfin.
    assert (Hlk : mc_lock c = None).
    { destruct (mc_lock c) as [t|]; [|done]. destruct Hl as (x&k&a&H1&H2&_). destruct (Hfin _ _ H1). congruence. }
    destruct (sequential sem (mc_hist c) s0) as [s rs]. destruct H as [H1 H2]. split; [by apply H1|].
    intros t p Ht. destruct (H2 t p Ht) as (x&Hx&H3&_&H4). destruct (Hfin _ _ Hx) as [H5 H6].
    exists x. split; [done|]. rewrite H5 app_nil_r in H3. auto.
  Qed.

  (** A thread that cannot move has finished or waits for another one that can. *)
  Lemma mutex_waits s0 progs l t x : Forall (Forall fine) progs ->
    let c := msched body locked l (mstart s0 progs) in
    mc_ths c !! t = Some x -> mstep body locked t c = None ->
    (mt_todo x = [] /\ mt_cur x = None) \/ exists t', mc_lock c = Some t' /\ is_Some (mstep body locked t' c).
  Proof.
    intros Hf c Hx Hs. destruct (msched_inv s0 progs l _ (mstart_inv s0 progs Hf)) as [_ _ _ _ _ _ Hl]. fold c in Hl.
    unfold mstep in Hs. rewrite Hx in Hs. destruct (mt_cur x) as [[k [r|upd next]]|] eqn:Hc; [done..|].
    destruct (mt_todo x) as [|k ks]; [by left|right]. destruct (locked k); [|done].
    destruct (mc_lock c) as [t'|]; [|done]. exists t'. split; [done|]. destruct Hl as (x'&k'&a'&H1&H2&_).
    unfold mstep. rewrite H1 H2. destruct a'; by eexists.
  Qed.

  Lemma msched_app l1 l2 c : msched body locked (l1 ++ l2) c = msched body locked l2 (msched body locked l1 c).
  Proof. revert c. induction l1 as [|t l1 IH]; intros c; [done|]. cbn. apply IH. Qed.

  Global Instance finished_dec (c : mconf St C R) : Decision (finished c).
  Proof. unfold finished. apply _. Defined.

  Definition load1 (x : mthread St C R) : nat :=
    (2 * length (mt_todo x) + match mt_cur x with Some _ => 1 | None => 0 end)%nat.
  Definition work (c : mconf St C R) : nat :=
    sum_list_with load1 (mc_ths c).

  (** A call that has begun can be completed. *)
  Lemma run_call t k a c x : mc_ths c !! t = Some x -> mt_cur x = Some (k, a) ->
    exists l x', mc_ths (msched body locked l c) = <[t := x']> (mc_ths c) /\ mt_todo x' = mt_todo x /\ mt_cur x' = None.
  Proof.
    revert c x. induction a as [r|upd next IH]; intros c x Hx Hc.
    - exists [t]. cbn [msched]. unfold mstep. rewrite Hx Hc. cbn. eexists. split; [done|]. done.
    - set (x1 := MThread (mt_todo x) (Some (k, next (mc_st c))) (mt_res x)).
      set (c1 := MConf (upd (mc_st c)) (mc_lock c) (mc_hist c) (<[t := x1]> (mc_ths c))).
      destruct (IH (mc_st c) c1 x1) as (l&x'&H1&H2&H3).
      { apply list_lookup_insert. by eapply lookup_lt_Some. }
      { done. }
      exists (t :: l), x'. cbn [msched]. unfold mstep at 1. rewrite Hx Hc. cbn [default]. fold x1. fold c1.
      rewrite H1. cbn. split; [by rewrite list_insert_insert|]. done.
  Qed.

  Lemma work_less s0 progs c : minv s0 progs c -> ~ finished c ->
    exists l, (work (msched body locked l c) < work c)%nat.
  Proof.
    intros HI Hn. destruct (decide (Forall (fun x => mt_cur x = None) (mc_ths c))) as [Hall|Hex].
    - assert (Hex : Exists (fun x => mt_todo x <> []) (mc_ths c)).
      { apply (not_Forall_Exists (fun x => mt_todo x = [])). intros H. apply Hn. unfold finished. rewrite Forall_lookup in Hall. rewrite Forall_lookup in H.
        apply Forall_lookup. intros i x Hx. split; [by eapply H|by eapply Hall]. }
      apply Exists_exists in Hex as (x&Hin&Hx). apply elem_of_list_In, elem_of_list_lookup in Hin as [t Ht].
      assert (Hc : mt_cur x = None) by (rewrite Forall_lookup in Hall; by eapply Hall).
      assert (Hlk : mc_lock c = None).
      { destruct (mc_lock c) as [t1|] eqn:E; [|done]. destruct HI as [_ _ _ _ _ _ Hl]. rewrite E in Hl.
        destruct Hl as (x1&k1&a1&H1&H2&_). rewrite Forall_lookup in Hall. specialize (Hall _ _ H1). congruence. }
      exists [t]. cbn [msched]. unfold mstep. rewrite Ht Hc Hlk. destruct (mt_todo x) as [|k ks] eqn:E; [done|].
      pose proof (sum_insert load1 _ _ _
        (MThread ks (Some (k, body k)) (mt_res x)) Ht) as Hs. 
      assert (load1 x = S (S (2 * length ks))) as E1 by (unfold load1; rewrite E Hc; cbn [length]; lia).
      assert (load1 (MThread ks (Some (k, body k)) (mt_res x)) = S (2 * length ks)) as E2 by (unfold load1; cbn [mt_todo mt_cur]; lia).
      destruct (locked k); unfold work; cbn -[load1 insert]; lia.
    - apply not_Forall_Exists in Hex; [|apply _].
      apply Exists_exists in Hex as (x&Hin&Hx). apply elem_of_list_In, elem_of_list_lookup in Hin as [t Ht].
      destruct (mt_cur x) as [[k a]|] eqn:Hc; [|done].
      destruct (run_call t k a c x Ht Hc) as (l&x'&H1&H2&H3). exists l.
      pose proof (sum_insert load1 _ _ _ x' Ht) as Hs.
      assert (load1 x = S (load1 x')) as E1 by (unfold load1; rewrite H2 H3 Hc; lia). unfold work. rewrite H1. lia.
  Qed.

  (** Every execution can be completed. *)
  Lemma mutex_completes s0 progs l : Forall (Forall fine) progs ->
    exists l', finished (msched body locked (l ++ l') (mstart s0 progs)).
  Proof.
    intros Hf. pose proof (msched_inv s0 progs l _ (mstart_inv s0 progs Hf)) as HI.
    setoid_rewrite msched_app. set (c := msched body locked l (mstart s0 progs)) in *. clearbody c.
    remember (work c) as n eqn:Hw. revert c HI Hw. induction n as [n IH] using lt_wf_ind. intros c HI ->.
    destruct (decide (finished c)) as [H|H]; [by exists []|].
    destruct (work_less s0 progs c HI H) as [l1 H1].
    destruct (IH _ H1 (msched body locked l1 c)) as [l2 H2]; [by apply msched_inv|done|].
    exists (l1 ++ l2). by rewrite msched_app.
  Qed.
End mutex.

(** * threaded<A> *)
Section threaded.
  Context (A : alloc) (b : N) (ready : N -> a_st A -> bool).

  Lemma sequential_ext (f g : op -> tstate A -> tstate A * obs) h x :
    (forall o y, f o y = g o y) -> sequential f h x = sequential g h x.
  Proof.
    intros H. revert x. induction h as [|[t o] h IH]; intros x; [done|]. cbn [sequential]. rewrite H.
    destruct (g o x) as [x' r]. by rewrite IH.
  Qed.

  Lemma sequential_stop h u evs :
    fst (sequential (tcall A b ready) h (TStop u evs)) = TStop u evs.
  Proof.
    induction h as [|[t o] h IH]; [done|]. cbn [sequential tcall].
    destruct (sequential (tcall A b ready) h (TStop u evs)) as [x rs]. done.
  Qed.

  (** One call after the other is a program of Client.v. *)
  Lemma sequential_run h w s bl evs :
    match run A b ready (map snd h) s bl w with
    | Ok (os, (s', bl')) w' e =>
      sequential (tcall A b ready) h (TRun w s bl evs) = (TRun w' s' bl' (evs ++ e), zip (map fst h) os)
    | Err u e => fst (sequential (tcall A b ready) h (TRun w s bl evs)) = TStop u (evs ++ e)
    end.
  Proof.
    revert w s bl evs. induction h as [|[t o] h IH]; intros w s bl evs; cbn [map snd fst run].
    - cbn. by rewrite app_nil_r.
    - cbn [sequential tcall]. unfold bind. destruct (step A b ready o s bl w) as [[ob [s' bl']] w1 e1|u e1].
      + specialize (IH w1 s' bl' (evs ++ e1)).
        destruct (run A b ready (map snd h) s' bl' w1) as [[os [s'' bl'']] w2 e2|u e2].
        * rewrite IH. cbn. by rewrite app_nil_r app_assoc.
        * destruct (sequential (tcall A b ready) h (TRun w1 s' bl' (evs ++ e1))) as [x rs]. cbn in *. by rewrite IH app_assoc.
      + pose proof (sequential_stop h u (evs ++ e1)) as H.
        destruct (sequential (tcall A b ready) h (TStop u (evs ++ e1))) as [x rs]. done.
  Qed.
End threaded.
