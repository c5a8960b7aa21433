(** set_allocator is an assignment to the static object. *)
From iris.proofmode Require Import tactics.
From Verif Require Import Base Mem Bits AlignedMalloc Allocators Tree Transfer Client AllocSpec AllocProofs Slots SlotsProofs TransferFacts Global GlobalSet.

Local Open Scope N_scope.

(** Equal up to the observations. *)
Definition alike (z : nat) (ops : list gsop) {S} (r : res (list obs * S)) (r' : res (list obs * S)) : Prop :=
  match r, r' with
  | Ok (os, fin) w e, Ok (os', fin') w' e' => gs_seen z ops os = os' /\ gs_rest z ops os /\ fin = fin' /\ w = w' /\ e = e'
  | Err u e, Err u' e' => u = u' /\ e = e'
  | _, _ => False
  end.

Lemma gs_step_plain pl e z o sl :
  match plain z o with
  | [] => exists ob, gs_step pl e z o sl = ret (ob, sl) /\ (forall ops os, gs_rest z ops os -> gs_rest z (o :: ops) (ob :: os))
  | p :: rest => rest = [] /\ gs_step pl e z o sl = mstep pl e p sl /\ (forall ob ops os, gs_rest z ops os -> gs_rest z (o :: ops) (ob :: os))
  end.
Proof.
  destruct o as [o|i j|o]; cbn [plain].
  - destruct o; cbn [gs_step]; try (eexists; split; [done|]; by cbn [gs_rest]).
  - split; [done|]. split; [done|]. by cbn [gs_rest].
  - cbn [gs_step]. destruct (keeps_static z o) eqn:Hk.
    + split; [done|]. split; [done|]. cbn [gs_rest]. intros ob ops os H. split; [by rewrite Hk|done].
    + eexists; split; [done|]. by cbn [gs_rest].
Qed.

Lemma gs_run_plain pl e z ops sl w : alike z ops (gs_run pl e z ops sl w) (mrun pl e (plains z ops) sl w).
Proof.
  revert sl w. induction ops as [|o ops IH]; intros sl w; [done|].
  cbn [gs_run plains flat_map]. fold (plains z ops). pose proof (gs_step_plain pl e z o sl) as H.
  destruct (plain z o) as [|p rest] eqn:Hp.
  - destruct H as (ob&H1&H2). rewrite H1. cbn [app]. unfold bind at 1, ret at 1.
    specialize (IH sl w). unfold bind, ret.
    destruct (gs_run pl e z ops sl w) as [[os fin] w1 e1|u e1], (mrun pl e (plains z ops) sl w) as [[os' fin'] w2 e2|u2 e2]; cbn [alike] in *; try done.
    destruct IH as (I1&I2&->&->&->). cbn [gs_seen]. rewrite Hp app_nil_r. split_and!; auto.
  - destruct H as (->&H1&H2). rewrite H1. cbn [app mrun]. unfold bind.
    destruct (mstep pl e p sl w) as [[ob sl'] w1 e1|u e1]; [|done].
    specialize (IH sl' w1).
    destruct (gs_run pl e z ops sl' w1) as [[os fin] w2 e2|u e2], (mrun pl e (plains z ops) sl' w1) as [[os' fin'] w3 e3|u3 e3]; cbn [alike] in *; try done.
    + destruct IH as (I1&I2&->&->&->). unfold ret. cbn [alike gs_seen]. rewrite Hp I1. split_and!; auto.
    + by destruct IH as (->&->).
Qed.

Lemma insert_last {X} (l : list X) x y : <[length l := y]> (l ++ [x]) = l ++ [y].
Proof. induction l as [|a l IH]; cbn; [done|by rewrite IH]. Qed.
Lemma lookup_last {X} (l : list X) x : (l ++ [x]) !! length l = Some x.
Proof. induction l as [|a l IH]; cbn; [done|by rewrite IH]. Qed.

Lemma gs_session_plain pl e bs b ops w :
  match gs_session pl e bs b ops w, msession pl e (bs ++ [b]) (MNew (length bs) :: plains (length bs) ops) w with
  | Ok os w1 e1, Ok os' w2 e2 => ObUnit :: gs_seen (length bs) ops os = os' /\ gs_rest (length bs) ops os /\ w1 = w2 /\ e1 = e2
  | Err u e1, Err u' e2 => u = u' /\ e1 = e2
  | _, _ => False
  end.
Proof.
  unfold gs_session, msession. cbn [mrun mstep].
  rewrite map_app /=. set (sl := map (fun b : N => (b, None)) bs : list (N * option (a_st (den pl e) * list (N * N)))).
  assert (length sl = length bs) as Hl by (unfold sl; by rewrite map_length).
  rewrite -Hl lookup_last. unfold bind. destruct (a_init (den pl e) b w) as [s w1 e1|u e1]; [|done]. cbn [ret].
  rewrite insert_last. pose proof (gs_run_plain pl e (length sl) ops (sl ++ [(b, Some (s, []))]) w1) as H.
  destruct (gs_run pl e (length sl) ops _ w1) as [[os fin] w2 e2|u e2], (mrun pl e (plains (length sl) ops) _ w1) as [[os' fin'] w3 e3|u3 e3]; cbn [alike] in H; try done.
  - destruct H as (<-&Hr&->&->&->). cbn [ret]. destruct (mfinish pl e fin' w3) as [[] w4 e4|u e4].
    + split_and!; try done. by rewrite !app_nil_r -!app_assoc.
    + split; [done|]. by rewrite !app_nil_r -!app_assoc.
  - destruct H as (->&->). by rewrite app_nil_r.
Qed.

Lemma set_safe bad pl e bs b ops w : pl <> PPosix -> wf e = true -> movable e = true ->
  (eboxed e = true -> bad EvFail || bad EvRefuse = true) ->
  places (bs ++ [b]) (esize e) w -> mem (st w) !! 0 = None ->
  Forall (fun n => ereq pl e n = true /\ n < W) (mrequests (plains (length bs) ops)) ->
  gs_ok bad pl e bs b ops w.
Proof.
  intros H1 H2 H3 H4 H5 H6 H7.
  pose proof (move_safe bad pl e (bs ++ [b]) (MNew (length bs) :: plains (length bs) ops) w H1 H2 H3 H4 H5 H6 H7) as H.
  unfold msession_ok in H. unfold gs_ok. pose proof (gs_session_plain pl e bs b ops w) as HS.
  destruct (gs_session pl e bs b ops w) as [os w1 e1|u e1], (msession pl e _ _ w) as [os' w2 e2|u2 e2]; try done.
  - destruct HS as (<-&Hr&->&->). destruct H as [H|(Ha&(mv&Hm&Hc)&Hb)]; [by left|right].
    split; [done|]. split; [done|]. split; [|done]. exists mv. split; [done|].
    cbn [mcheck mcheck_step] in Hc. destruct Hc as (sl'&(_&->)&Hc).
    rewrite map_app /= in Hc. assert (length bs = length (map (fun _ : N => None : option (list ablk)) bs)) as Hl by (by rewrite map_length).
    set (nl := map _ bs) in *.
    assert ((nl ++ [None]) !! length bs = Some None) as Hn1 by (rewrite Hl; apply lookup_last).
    assert (<[length bs := Some []]> (nl ++ [None]) = nl ++ [Some []]) as Hn2 by (rewrite Hl; apply insert_last).
    by rewrite Hn1 Hn2 in Hc.
  - by destruct HS as (->&->).
Qed.

(** set_allocator while a block is outstanding: the node that contains it is given back. *)
Definition set_with_block (e : aexp) : M N :=
  s <- a_init (den PMalloc e) 4096 ;;
  ' (p, s) <- a_alloc (den PMalloc e) 4096 s 16 ;;
  wr p (Byte 1) ;;;
  x <- a_init (den PMalloc e) 4160 ;;
  ' (s, x) <- move_assign PMalloc e 4096 s 4160 x ;;
  c <- rd p ;; ret p.
Lemma set_loses_block :
  exists e w, movable e = true /\ assignable e = true /\ wf e = true /\ places [4096; 4160] (esize e) w /\
  crash (set_with_block e w) = Some UBAccess.
Proof.
  exists (ECascading (ELinear 64)), (w_raw 128).
  split; [done|]. split; [done|]. split; [done|]. split; [by apply (places2 0); lia|by vm_compute].
Qed.

Lemma places3 n : (n <= 64)%nat -> places [4096; 4160; 4224] (N.of_nat n) (w_raw 192).
Proof.
  intros Hn. assert (HP : forall b, b = 4096 \/ b = 4160 \/ b = 4224 -> place b (N.of_nat n) (w_raw 192)).
  { intros b Hb. destruct (w_raw_place 192) as (_&_&_&Hst&H0); [done|by vm_compute|].
    unfold place. split_and!; [by destruct Hb as [|[|]]; subst| | | |done].
    - by destruct Hb as [|[|]]; subst.
    - destruct Hb as [|[|]]; subst; unfold W; lia.
    - intros i Hi. apply Hst. destruct Hb as [|[|]]; subst; lia. }
  split.
  - repeat constructor; apply HP; auto.
  - intros [|[|[|i]]] [|[|[|j]]] b b' H1 H2 Hne; cbn in H1, H2; try done; injection H1 as <-; injection H2 as <-; lia.
Qed.
