(** Deadlock freedom of compositions with several mutexes. *)
From Coq Require Import ssreflect.
From Verif Require Import Base Mem AlignedMalloc Allocators Tree Upstream Locks LockMachine LockFacts.

Local Open Scope N_scope.

(** * The compositions are the same, apart from the mutexes *)
Lemma den_with_den pl e i : den_with (fun _ => threaded) pl i e = den pl e.
Proof.
  revert i. induction e as [| | | |Min Max e IH|e IH|p IHp f IHf|T p IHp f IHf|e IH|e IH|e IH|e IH|e IH|e IH]; intros i;
    cbn [den_with den]; rewrite ?IH ?IHp ?IHf; done.
Qed.
Lemma pden_with_pden pl U p i : pden_with (fun _ => threaded) (fun _ => pthreaded) pl U i p = pden pl U p.
Proof.
  revert i. induction p as [|e|Min Max p IH|p IHp f IHf|T p IHp f IHf|p IH|p IH]; intros i;
    cbn [pden_with pden]; rewrite ?den_with_den ?IH ?IHp ?IHf; done.
Qed.
Lemma sden_with_sden pl s : sden_with (fun _ => threaded) (fun _ => pthreaded) pl s = sden pl s.
Proof. induction s as [e|u IH p]; cbn [sden_with sden]; [apply den_with_den|]. by rewrite IH pden_with_pden. Qed.

(** * Threads *)
Lemma call_nested pl c : call_of pl c -> exists hi, nested hi c.
Proof. intros (itf&s&nm&evs&Hitf&H&->). destruct (does_tidy itf Hitf pl s evs H) as [hi Hhi]. by exists hi. Qed.

Lemma calls_nested pl l : Forall (call_of pl) l -> exists hi, Forall (nested hi) l.
Proof.
  induction 1 as [|c l Hc Hl [hi IH]]; [by exists 0|]. destruct (call_nested pl c Hc) as [h Hh].
  exists (N.max h hi). constructor; [eapply nested_mono; [done|lia]|]. eapply Forall_impl; [|exact IH].
  intros x Hx. eapply nested_mono; [exact Hx|lia].
Qed.
Lemma threads_nested pl l : Forall (Forall (call_of pl)) l -> exists hi, Forall (Forall (nested hi)) l.
Proof.
  induction 1 as [|c l Hc Hl [hi IH]]; [by exists 0|]. destruct (calls_nested pl c Hc) as [h Hh].
  exists (N.max h hi). constructor.
  - eapply Forall_impl; [|exact Hh]. intros x Hx. eapply nested_mono; [exact Hx|lia].
  - eapply Forall_impl; [|exact IH]. intros y Hy. eapply Forall_impl; [|exact Hy]. intros x Hx. eapply nested_mono; [exact Hx|lia].
Qed.

Lemma start_fine hi calls : Forall (Forall (nested hi)) calls -> Forall (fine hi) (start calls).
Proof.
  intros H. unfold start. apply Forall_map. eapply Forall_impl; [|exact H]. intros l Hl.
  split; cbn; [done|]. split; [constructor|done].
Qed.
Lemma left_start calls : left (start calls) = work calls.
Proof.
  unfold left, work, start. induction calls as [|l calls IH]; [done|]. cbn [map]. rewrite !list_sum_cons IH. done.
Qed.

Lemma schedule_app l l' c n c' : schedule l c = Some (n, c') ->
  schedule (l ++ l') c = option_map (fun r => (n + fst r, snd r)%nat) (schedule l' c').
Proof.
  revert c n. induction l as [|[k f] l IH]; intros c n; cbn [schedule app].
  { intros [= <- <-]. destruct (schedule l' c) as [[? ?]|]; done. }
  destruct (take_turn f k c) as [c1| | |]; [|by apply IH|by apply IH|done].
  destruct (schedule l c1) as [[n1 c2]|] eqn:E; [|done]. cbn. intros [= <- <-]. rewrite (IH _ _ E).
  destruct (schedule l' c2) as [[? ?]|]; done.
Qed.

Lemma never_wrong pl calls l : Forall (Forall (call_of pl)) calls ->
  exists n c, schedule l (start calls) = Some (n, c) /\ (n <= work calls)%nat.
Proof.
  intros H. destruct (threads_nested pl calls H) as [hi Hhi].
  destruct (schedule_fine hi l (start calls) (start_fine hi calls Hhi)) as (n&c&E&Hc&Hn). rewrite left_start in Hn.
  exists n, c. split; [done|]. lia.
Qed.
Lemma somebody_moves pl calls l n c : Forall (Forall (call_of pl)) calls -> schedule l (start calls) = Some (n, c) ->
  forallb done c = true \/ exists k c', take_turn false k c = Moves c'.
Proof.
  intros H E. destruct (threads_nested pl calls H) as [hi Hhi].
  destruct (schedule_fine hi l (start calls) (start_fine hi calls Hhi)) as (n'&c'&E'&Hc&Hn). rewrite E' in E. injection E as <- <-.
  by eapply progress.
Qed.
Lemma can_finish pl calls l : Forall (Forall (call_of pl)) calls ->
  exists l' n c, Forall (fun t => snd t = false) l' /\ schedule (l ++ l') (start calls) = Some (n, c) /\ forallb done c = true.
Proof.
  intros H. destruct (threads_nested pl calls H) as [hi Hhi].
  destruct (schedule_fine hi l (start calls) (start_fine hi calls Hhi)) as (n&c&E&Hc&Hn).
  destruct (finish hi c Hc) as (l'&n'&c'&E'&Hd&Hl'). exists l', (n + n')%nat, c'. split; [done|].
  rewrite (schedule_app _ _ _ _ _ E) E'. done.
Qed.

Lemma one_owner calls l n c : schedule l (start calls) = Some (n, c) -> forall j k t u m,
  c !! j = Some t -> c !! k = Some u -> j <> k -> m ∈ t_held t -> m ∈ t_held u -> False.
Proof.
  apply schedule_exclusive. intros j k t u m Hj _ _ Hm. unfold start in Hj. rewrite list_lookup_fmap in Hj.
  destruct (calls !! j); [|done]. injection Hj as <-. by apply elem_of_nil in Hm.
Qed.

(** For examples: construction and a first request. *)
Lemma first_request pl s b n w : call_of pl
  (match (x <- a_init (slden nobody pl s) b ;; a_alloc (slden nobody pl s) b x n) w with Ok _ _ evs => acts id evs | Err _ _ => [] end).
Proof.
  assert (Hk : kind nobody pl s (slden nobody pl s)) by (constructor; destruct s; by left).
  exists nobody, s, id.
  assert (HH : match (x <- a_init (slden nobody pl s) b ;; a_alloc (slden nobody pl s) b x n) w with
    Ok _ _ evs => does nobody pl s evs | Err _ _ => True end).
  { unfold bind. destruct (a_init (slden nobody pl s) b w) as [x w1 e1|] eqn:E1; [|done].
    destruct (a_alloc (slden nobody pl s) b x n w1) as [r w2 e2|] eqn:E2; [|done].
    apply does_both; [by eapply does_init|by eapply does_alloc]. }
  destruct ((x <- a_init (slden nobody pl s) b ;; a_alloc (slden nobody pl s) b x n) w) as [r w' evs|].
  - by exists evs.
  - exists []. split; [done|]. split; [constructor|done].
Qed.
