(** threaded<A> for every composition of allocators, the members that do not lock, and handles of
    shared<A>: the lemmas behind PropShared.v. *)
From Coq Require Import ssreflect.
From Verif Require Import Base Mem Bits AlignedMalloc Allocators Contract NodeProofs Tree TreeProofs Client ClientProofs SessionProofs
  AllocSpec Shared SharedProofs SharedSafe Threads ThreadsProofs NoFail.

(** * threaded *)
Lemma of_thread_map {X} t (h : list (nat * X)) x : x ∈ of_thread t h -> (t, x) ∈ h.
Proof.
  unfold of_thread. intros H. apply elem_of_list_fmap in H as ([t' y]&->&H).
  apply elem_of_list_filter in H as [H1 H]. cbn in *. by subst.
Qed.

(** Every entry of the history is a call of some thread. *)
Lemma hist_in {St C R} (body : C -> act St R) locked l c t k :
  (t, k) ∈ mc_hist (msched body locked l c) -> Forall (fun x => (fst x < length (mc_ths c))%nat) (mc_hist c) ->
  (t < length (mc_ths c))%nat.
Proof.
  revert c. induction l as [|t' l IH]; intros c H Hf; cbn [msched] in H.
  - rewrite list.Forall_forall in Hf. by apply (Hf (t, k)).
  - destruct (mstep body locked t' c) as [c'|] eqn:E; cbn in H; [|by apply IH].
    assert (Hlen : length (mc_ths c') = length (mc_ths c) /\ Forall (fun x => (fst x < length (mc_ths c))%nat) (mc_hist c')).
    { unfold mstep in E. destruct (mc_ths c !! t') as [x|] eqn:Hx; [|done].
      assert (Hlt : (t' < length (mc_ths c))%nat) by by eapply lookup_lt_Some.
      destruct (mt_cur x) as [[k' [r|upd next]]|].
      - injection E as <-. cbn. by rewrite insert_length.
      - injection E as <-. cbn. by rewrite insert_length.
      - destruct (mt_todo x) as [|k' ks]; [done|]. destruct (locked k').
        + destruct (mc_lock c); [done|]. injection E as <-. cbn. rewrite insert_length. split; [done|].
          apply Forall_app. split; [done|]. by apply Forall_singleton.
        + injection E as <-. cbn. rewrite insert_length. split; [done|].
          apply Forall_app. split; [done|]. by apply Forall_singleton. }
    destruct Hlen as [H1 H2]. rewrite -H1. apply IH; [done|]. by rewrite H1.
Qed.

Lemma finished_interleaves {St C R} (body : C -> act St R) locked s0 progs l :
  Forall (Forall (fine body locked)) progs ->
  let c := msched body locked l (mstart s0 progs) in
  finished c -> interleaves progs (mc_hist c).
Proof.
  intros Hf c Hfin. split.
  - apply list.Forall_forall. intros [t k] Hin. cbn.
    assert (H := hist_in body locked l (mstart s0 progs) t k Hin). cbn in H. rewrite map_length in H. by apply H.
  - pose proof (mutex_finished body locked s0 progs l Hf Hfin) as H. fold c in H.
    destruct (sequential _ _ _) as [s rs]. intros t p Hp. destruct H as [_ H]. by destruct (H t p Hp) as (x&_&<-&_).
Qed.

Lemma interleaves_asks req progs h : interleaves progs h -> Forall (asks req) progs -> asks req (map snd h).
Proof.
  intros [H1 H2] Ha. unfold asks. unfold requests. rewrite list.Forall_forall. intros n Hn.
  apply elem_of_list_In, in_flat_map in Hn as (o&Ho&Hn). apply elem_of_list_In, elem_of_list_fmap in Ho as ([t o']&->&Hin).
  rewrite list.Forall_forall in H1. specialize (H1 _ Hin). cbn in H1.
  destruct (lookup_lt_is_Some_2 progs t H1) as [p Hp]. specialize (H2 t p Hp).
  rewrite Forall_lookup in Ha. specialize (Ha t p Hp). unfold asks in Ha. rewrite list.Forall_forall in Ha.
  apply Ha. unfold requests. apply elem_of_list_In, in_flat_map. exists o'. split; [|done].
  apply elem_of_list_In. rewrite -H2. unfold of_thread. apply elem_of_list_fmap. exists (t, o'). split; [done|].
  by apply elem_of_list_filter.
Qed.

Lemma threaded_tree pl e b w s0 w0 e0 body progs l :
  let A := den pl (EThreaded e) in
  let ready := eready_now pl (EThreaded e) in
  pl <> PPosix -> wf e = true -> place b (esize e) w ->
  Forall (asks (ereq pl e)) progs ->
  Forall (Forall (fun o => (exists n, o = OAlloc n) \/ exists i, o = OFree i)) progs ->
  faithful A b ready body ->
  a_init A b w = Ok s0 w0 e0 ->
  let c := msched body tlocked l (mstart (TRun w0 s0 [] []) progs) in
  finished c ->
  interleaves progs (mc_hist c) /\
  session_strict (eboxed e) A ready b (map snd (mc_hist c)) w /\
  match mc_st c with
  | TRun w' s' bl' evs =>
    exists os, run A b ready (map snd (mc_hist c)) s0 [] w0 = Ok (os, (s', bl')) w' evs /\
      forall t x, mc_ths c !! t = Some x -> mt_res x = of_thread t (zip (map fst (mc_hist c)) os)
  | TStop u evs => eboxed e = true /\ u = UBNull /\ starved (e0 ++ evs) = true
  end.
Proof.
  intros A ready Hpl Hwf Hp Hasks Hlock Hb Hinit c Hfin.
  assert (Hfine : Forall (Forall (fine body tlocked)) progs).
  { eapply list.Forall_impl; [exact Hlock|]. intros p Hpp. eapply list.Forall_impl; [exact Hpp|]. intros o [[n ->]|[i ->]]; by left. }
  pose proof (finished_interleaves body tlocked (TRun w0 s0 [] []) progs l Hfine Hfin) as Hint. fold c in Hint.
  assert (Hok : session_strict (eboxed e) A ready b (map snd (mc_hist c)) w).
  { apply (tree_strict pl (EThreaded e)); try done. by eapply interleaves_asks. }
  split; [done|]. split; [done|].
  pose proof (mutex_finished body tlocked (TRun w0 s0 [] []) progs l Hfine Hfin) as H. fold c in H.
  assert (Hse : forall o y, sem body o y = tcall A b ready o y) by exact Hb.
  rewrite (sequential_ext A (sem body) (tcall A b ready) _ _ Hse) in H.
  pose proof (sequential_run A b ready (mc_hist c) w0 s0 [] []) as Hr.
  destruct (run A b ready (map snd (mc_hist c)) s0 [] w0) as [[os [s' bl']] w' e1|u e1] eqn:Hrun.
  - rewrite Hr in H. destruct H as [-> H]. cbn [app]. exists os. split; [done|]. intros t x Hx.
    destruct (lookup_lt_is_Some_2 progs t) as [p Hpt].
    { pose proof (msched_inv body tlocked (TRun w0 s0 [] []) progs l _ (mstart_inv _ _ _ progs Hfine)) as HI.
      rewrite -(m_len _ _ _ _ _ HI). by eapply lookup_lt_Some. }
    destruct (H t p Hpt) as (x'&Hx'&_&Hres). rewrite Hx in Hx'. by injection Hx' as <-.
  - destruct (sequential (tcall A b ready) (mc_hist c) (TRun w0 s0 [] [])) as [x rs] eqn:E. rewrite E in Hr. cbn [fst] in Hr. subst x.
    destruct H as [-> _]. cbn [app]. unfold session_strict, session, bind in Hok. rewrite Hinit Hrun in Hok.
    exact Hok.
Qed.

(** * Members of threaded that do not take the lock *)

(** Two threads construct one byte each in a block of 16 bytes. *)
Definition race_start : tstate ov_heap :=
  match run ov_heap 4096 (fun _ _ => true) [OAlloc 16] (Ov (A := mallocator PMalloc) tt 0 0 : a_st ov_heap) [] (w_raw 0) with
  | Ok (_, (s, bl)) w e => TRun w s bl e
  | Err u e => TStop u e
  end.
Definition race_progs : list (list op) := [[OConstruct 0 0 1]; [OConstruct 0 1 2]].
Definition race_end : mconf (tstate ov_heap) op obs :=
  msched (split_body 4096 (fun _ _ => true)) tlocked [0; 1; 0; 1; 0; 1; 0; 1]%nat (mstart race_start race_progs).

Lemma split_faithful b ready : faithful ov_heap b ready (split_body b ready).
Proof.
  intros o x. destruct o; cbn [split_body eval]; try by destruct (tcall ov_heap b ready _ x).
  - destruct (tcall ov_heap b ready (OConstruct i off v) x) as [[w s bl e|u e] ob]; [|done]. by destruct s.
  - destruct (tcall ov_heap b ready (ODestroy i off) x) as [[w s bl e|u e] ob]; [|done]. by destruct s.
Qed.

Lemma race_orders h : interleaves race_progs h ->
  h = [(0%nat, OConstruct 0 0 1); (1%nat, OConstruct 0 1 2)] \/ h = [(1%nat, OConstruct 0 1 2); (0%nat, OConstruct 0 0 1)].
Proof.
  intros [H1 H2]. pose proof (H2 0%nat _ eq_refl) as Ha. pose proof (H2 1%nat _ eq_refl) as Hb. clear H2.
  destruct h as [|[t1 o1] h]; [done|]. apply Forall_cons_iff in H1 as [Ht1 H1]. cbn in Ht1.
  destruct h as [|[t2 o2] h].
  { destruct t1 as [|[|t1]]; [| |lia]; done. }
  apply Forall_cons_iff in H1 as [Ht2 H1]. cbn in Ht2.
  destruct h as [|[t3 o3] h].
  { destruct t1 as [|[|t1]]; [| |lia]; (destruct t2 as [|[|t2]]; [| |lia]); cbn in Ha, Hb; try done.
    - left. injection Ha as ->. injection Hb as ->. done.
    - right. injection Ha as ->. injection Hb as ->. done. }
  apply Forall_cons_iff in H1 as [Ht3 H1]. cbn in Ht3.
  destruct t1 as [|[|t1]]; [| |lia]; (destruct t2 as [|[|t2]]; [| |lia]); (destruct t3 as [|[|t3]]; [| |lia]); cbn in Ha, Hb; done.
Qed.

Lemma finished_b {St C R} (c : mconf St C R) :
  forallb (fun x => match mt_todo x, mt_cur x with [], None => true | _, _ => false end) (mc_ths c) = true -> finished c.
Proof.
  unfold finished. induction (mc_ths c) as [|x l IH]; intros H; [constructor|].
  cbn [forallb] in H. apply andb_true_iff in H as [H1 H2]. constructor; [|by apply IH].
  destruct (mt_todo x); [|done]. by destruct (mt_cur x).
Qed.

Lemma construct_races :
  exists body l, faithful ov_heap 4096 (fun _ _ => true) body /\
    let c := msched body tlocked l (mstart race_start race_progs) in
    finished c /\ constructs (mc_st c) = Some 1%Z /\
    forall h, interleaves race_progs h ->
      constructs (fst (sequential (tcall ov_heap 4096 (fun _ _ => true)) h race_start)) = Some 2%Z.
Proof.
  exists (split_body 4096 (fun _ _ => true)), [0; 1; 0; 1; 0; 1; 0; 1]%nat. split; [apply split_faithful|].
  cbn zeta. split_and!.
  - apply finished_b. by vm_compute.
  - by vm_compute.
  - intros h [->| ->]%race_orders; by vm_compute.
Qed.

(** * Handles of shared *)
Lemma self_assign_crashes :
  exists w, crash ((' (_, q) <- hrun PMalloc (mallocator PMalloc) (fun _ _ => true) [HNew 0] pool0 ;;
                    hstep PMalloc (mallocator PMalloc) (fun _ _ => true) (HAssign 0 0) q) w) = Some UBLifetime /\
    crash ((' (_, q) <- hrun PMalloc (mallocator PMalloc) (fun _ _ => true) [HNew 0] pool0 ;;
            hstep PMalloc (mallocator PMalloc) (fun _ _ => true) (HUse 0 (OAlloc 8)) q) w) = None.
Proof. exists (w_raw 0). by vm_compute. Qed.

Lemma self_assign_shared pl A ready ops os q h h' g w w' e w1 :
  N.of_nat (length ops) < W -> hrun pl A ready ops pool0 w = Ok (os, q) w' e ->
  p_hs q !! h = Some (Some g) -> h' <> h -> p_hs q !! h' = Some (Some g) ->
  hstep pl A ready (HAssign h h) q w1 = Ok (ObUnit, q) w1 [].
Proof.
  intros Hl Hrun Hh Hne Hh'.
  assert (HR : rel A (length ops + 0) pool0 family0).
  { split; cbn; try done. by rewrite map_size_empty; lia. }
  pose proof (hrun_sim pl A ready ops 0 _ _ w HR) as H. rewrite Hrun in H.
  destruct (srun pl A ready ops family0 w) as [[os' f] w2 e2|]; [|done]. destruct H as (_&_&_&HR'). cbn [fst snd] in HR'.
  destruct (r_live _ _ _ _ HR' h g Hh) as [k Hk]. destruct (r_cnt _ _ _ _ HR' g k Hk) as [Hc _].
  pose proof (refs_del g (p_hs q) h _ Hh) as Hd. rewrite hit_self in Hd.
  assert (0 < refs g (delete h (p_hs q)))%nat as Hp.
  { apply refs_pos. exists h'. by rewrite lookup_delete_ne. }
  pose proof (refs_le g (p_hs q)) as Hle. pose proof (r_size _ _ _ _ HR') as Hsz.
  cbn [hstep]. unfold bind. unfold ptr at 1. rewrite Hh. cbn [decrement]. rewrite Hk.
  destruct (N.eqb_spec (k_cnt k) 1) as [E|E]; [lia|]. cbn [ret]. unfold ret.
  unfold ptr, set_hs, set_bk. cbn [p_hs p_bk p_next p_out]. rewrite Hh lookup_insert. cbn [increment]. rewrite lookup_insert.
  cbn [k_addr k_in k_cnt]. rewrite insert_insert. rewrite Hc. rewrite sub64_small; [|lia..]. rewrite add64_small; [|lia].
  unfold ret. cbn. do 2 f_equal. destruct q as [hs bk nx out]. cbn in *. rewrite (insert_id hs) //. f_equal.
  apply insert_id. rewrite Hk. destruct k as [ka ki kc]. cbn in *. do 2 f_equal. lia.
Qed.

Lemma shared_tree_safe pl e ops w :
  pl <> PPosix -> wf (EShared e) = true -> N.of_nat (length ops) < W ->
  Forall (fun n => ereq pl e n = true /\ n < W) (hrequests ops) ->
  match hrun pl (den pl e) (eready_now pl e) ops pool0 w with
  | Ok (_, q) w' evs =>
    forallb benign evs = true /\
    (forall i c, mem (st w) !! i = Some c -> mem (st w') !! i = Some c) /\
    (p_hs q = ∅ -> st w' = st w)
  | Err u evs => u = UBNull /\ starved evs = true
  end.
Proof.
  intros Hpl Hwf Hl Hreq. cbn [wf] in Hwf. apply andb_true_iff in Hwf as [Hwf Hsz].
  destruct (tree_contract is_fail pl e Hpl Hwf) as [C HC]; [done|].
  pose proof (hrun_firm pl (den pl e) (eready_now pl e) ops pool0 Hpl ltac:(rewrite den_size; lia) (tree_firm pl e Hpl Hwf) w) as Hf.
  enough (H : match hrun pl (den pl e) (eready_now pl e) ops pool0 w with
    | Ok (_, q) w' evs => existsb is_fail evs = true \/ forallb benign evs = true /\
      (forall i c, mem (st w) !! i = Some c -> mem (st w') !! i = Some c) /\ (p_hs q = ∅ -> st w' = st w)
    | Err _ evs => existsb is_fail evs = true end).
  { destruct (hrun _ _ _ _ _ _) as [[os q] w' evs|u evs].
    - rewrite Hf in H. by destruct H.
    - destruct (Hf H) as [-> Hr]. unfold starved. by rewrite H Hr. }
  apply (hrun_safe C pl Hpl); try done. rewrite den_size. lia.
Qed.

(** * The use count without atomic operations *)

(** Two threads with one handle each drop them at the same time. *)
Definition drop_race : list (nat * cact) :=
  [(0, ACopy 0); (0, AGo); (0, AGive 1); (0, ADrop); (1, ADrop); (0, AGo); (1, AGo); (0, AGo); (1, AGo)]%nat.
(** Two threads copy at the same time; after three of the four handles are gone the block is too. *)
Definition copy_race : list (nat * cact) :=
  [(0, ACopy 0); (0, AGo); (0, AGive 1); (0, ACopy 0); (1, ACopy 1); (0, AGo); (1, AGo);
   (0, ADrop); (0, AGo); (0, ADrop); (0, AGo); (1, ADrop); (1, AGo); (1, AGo); (1, AUse)]%nat.

Lemma settled_b c : forallb (fun x => match ct_pc x with CIdle => true | _ => false end) (cc_ths c) = true -> settled c.
Proof.
  unfold settled. induction (cc_ths c) as [|x l IH]; intros H; [constructor|].
  cbn [forallb] in H. apply andb_true_iff in H as [H1 H2]. constructor; [|by apply IH]. by destruct (ct_pc x).
Qed.

Lemma notomic_leaks :
  exists n l, let c := csched false true true l (cstart n) in
    handles c = 0%nat /\ settled c /\ cc_deleted c = 0%nat.
Proof.
  exists 1%nat, drop_race. cbn zeta. split_and!; [by vm_compute|apply settled_b; by vm_compute|by vm_compute].
Qed.

Lemma notomic_dangles :
  exists n l, let c := csched false true true l (cstart n) in
    (0 < handles c)%nat /\ cc_deleted c = 1%nat /\ cc_bad c = true.
Proof. exists 1%nat, copy_race. cbn zeta. split_and!; by vm_compute. Qed.

(** Atomic operations without acquire or without release. *)
Lemma relaxed_races :
  exists n l, cc_race (csched true false true l (cstart n)) = true /\ cc_race (csched true true false l (cstart n)) = true.
Proof.
  exists 1%nat, [(0, ACopy 0); (0, AGive 1); (0, AUse); (0, ADrop); (1, ADrop); (1, AGo)]%nat. by vm_compute.
Qed.

Lemma mutex_progress St C R (body : C -> act St R) (locked : C -> bool) s0 progs l :
  Forall (Forall (fine body locked)) progs ->
  let c := msched body locked l (mstart s0 progs) in
  (forall t x, mc_ths c !! t = Some x -> mstep body locked t c = None ->
    (mt_todo x = [] /\ mt_cur x = None) \/ exists t', mc_lock c = Some t' /\ is_Some (mstep body locked t' c)) /\
  exists l', finished (msched body locked (l ++ l') (mstart s0 progs)).
Proof. intros H. split; [intros t x; by apply mutex_waits|by apply mutex_completes]. Qed.
