(** Facts about programs with containers of several types. *)
From Verif Require Import Base Mem Sep Wp AlignedMalloc Allocators Checked CheckedProofs Tree Client Contract Service TreeProofs
  AllocSpec AllocProofs Env EnvProofs Vector Array HeapPure Heap HeapSpec TreeService HeapFacts ContExamples HeapExamples Crowd CrowdProofs CrowdFacts
  Mixed MixedProofs.

Local Open Scope N_scope.

Lemma mixed_crowd pl e plan b ty k ops w :
  pl <> PPosix -> wf e = true -> (forall t, 0 < t_size (ty t)) -> place b (N.of_nat k * esize e) w -> Forall (deeds_ask (ereq pl e)) plan ->
  let A := crowd (den pl (EThreaded e)) plan in
  csession_ok A b (xstep A b ty k) (xkill A b) (xcheck ty k) (unsupported (half (ereq pl e))) k ∅ ops w.
Proof.
  intros Hpl Hwf Hty Hp Hplan A.
  destruct (tree_service pl (EThreaded e) (half (ereq pl e)) Hpl Hwf (half_le _)) as [C].
  apply (mixed_any _ A _ (crowd_service C plan Hplan) (modest_half _)); [done|]. cbn [a_size A crowd]. by rewrite (den_size pl (EThreaded e)).
Qed.

(** * The containers of one type *)
Section alone.
  Context (ty : nat -> ctype) (k t : nat).

  Lemma vecs_alone sz ops os s : ty t = TVec sz -> ccheck (xcheck ty k) ops os s ->
    let p := part_of of_vec t ops os in ccheck (vcheck sz k) (map fst p) (map snd p) (svecs (s !! t)).
  Proof.
    intros Ht. revert os s. induction ops as [|[t' o] ops IH]; intros [|ob os] s; try done. cbn [ccheck].
    intros (s'&Hc&Hr). specialize (IH _ _ Hr). cbn in IH. unfold part_of in *. cbn [zip zip_with omap list_omap] in *.
    destruct (Nat.eqb_spec t' t) as [->|Hne].
    - cbn [xcheck] in Hc. rewrite Ht in Hc. destruct o as [o|o|o]; cbn [of_vec option_map] in *.
      + destruct Hc as (m&Hm&->). cbn [map fst snd ccheck]. exists m. split; [done|]. by rewrite lookup_insert in IH.
      + by destruct Hc as [_ ->].
      + by destruct Hc as [_ ->].
    - assert (Hs : s' !! t = s !! t).
      { cbn [xcheck] in Hc. destruct (ty t'), o; try (by destruct Hc as [_ ->]); destruct Hc as (m&_&->); by rewrite lookup_insert_ne. }
      by rewrite Hs in IH.
  Qed.

  Lemma arrs_alone sz ops os s : ty t = TArr sz -> ccheck (xcheck ty k) ops os s ->
    let p := part_of of_arr t ops os in ccheck (acheck sz k) (map fst p) (map snd p) (sarrs (s !! t)).
  Proof.
    intros Ht. revert os s. induction ops as [|[t' o] ops IH]; intros [|ob os] s; try done. cbn [ccheck].
    intros (s'&Hc&Hr). specialize (IH _ _ Hr). cbn in IH. unfold part_of in *. cbn [zip zip_with omap list_omap] in *.
    destruct (Nat.eqb_spec t' t) as [->|Hne].
    - cbn [xcheck] in Hc. rewrite Ht in Hc. destruct o as [o|o|o]; cbn [of_arr option_map] in *.
      + by destruct Hc as [_ ->].
      + destruct Hc as (m&Hm&->). cbn [map fst snd ccheck]. exists m. split; [done|]. by rewrite lookup_insert in IH.
      + by destruct Hc as [_ ->].
    - assert (Hs : s' !! t = s !! t).
      { cbn [xcheck] in Hc. destruct (ty t'), o; try (by destruct Hc as [_ ->]); destruct Hc as (m&_&->); by rewrite lookup_insert_ne. }
      by rewrite Hs in IH.
  Qed.

  Lemma heaps_alone sz T comp eqv ops os s : ty t = THeap sz T comp eqv -> ccheck (xcheck ty k) ops os s ->
    let p := part_of of_heap t ops os in ccheck (hcheck sz T comp eqv k) (map fst p) (map snd p) (sheaps (s !! t)).
  Proof.
    intros Ht. revert os s. induction ops as [|[t' o] ops IH]; intros [|ob os] s; try done. cbn [ccheck].
    intros (s'&Hc&Hr). specialize (IH _ _ Hr). cbn in IH. unfold part_of in *. cbn [zip zip_with omap list_omap] in *.
    destruct (Nat.eqb_spec t' t) as [->|Hne].
    - cbn [xcheck] in Hc. rewrite Ht in Hc. destruct o as [o|o|o]; cbn [of_heap option_map] in *.
      + by destruct Hc as [_ ->].
      + by destruct Hc as [_ ->].
      + destruct Hc as (m&Hm&->). cbn [map fst snd ccheck]. exists m. split; [done|]. by rewrite lookup_insert in IH.
    - assert (Hs : s' !! t = s !! t).
      { cbn [xcheck] in Hc. destruct (ty t'), o; try (by destruct Hc as [_ ->]); destruct Hc as (m&_&->); by rewrite lookup_insert_ne. }
      by rewrite Hs in IH.
  Qed.
End alone.

(** A whole program, and the part of it that concerns one type. *)
Section programs.
  Context (pl : platform) (e : aexp) (b : N) (ty : nat -> ctype) (k : nat).
  Context (Hpl : pl <> PPosix) (Hwf : wf e = true) (Hty : forall t, 0 < t_size (ty t)).
  Local Notation A := (den pl e).
  Local Notation run := (csession A b (xstep A b ty k) (xkill A b) k).

  Lemma checked_run ops w os w' evs : place b (N.of_nat k * esize e) w -> run ops w = Ok os w' evs ->
    existsb (unsupported (half (ereq pl e))) evs = false -> ccheck (xcheck ty k) ops os ∅.
  Proof using Hpl Hwf Hty.
    intros Hp Hr Hb. pose proof (mixed_tree pl e b ty k ops w Hpl Hwf Hty Hp) as H. unfold csession_ok in H. rewrite Hr in H.
    destruct H as [H|H]; [congruence|]. apply H.
  Qed.

  Lemma vectors_among ops w os w' evs t sz : place b (N.of_nat k * esize e) w -> run ops w = Ok os w' evs ->
    existsb (unsupported (half (ereq pl e))) evs = false -> ty t = TVec sz ->
    let p := part_of of_vec t ops os in ccheck (vcheck sz k) (map fst p) (map snd p) ∅.
  Proof using Hpl Hwf Hty.
    intros Hp Hr Hb Ht. pose proof (vecs_alone ty k t sz ops os ∅ Ht (checked_run _ _ _ _ _ Hp Hr Hb)) as H. exact H.
  Qed.
  Lemma arrays_among ops w os w' evs t sz : place b (N.of_nat k * esize e) w -> run ops w = Ok os w' evs ->
    existsb (unsupported (half (ereq pl e))) evs = false -> ty t = TArr sz ->
    let p := part_of of_arr t ops os in ccheck (acheck sz k) (map fst p) (map snd p) ∅.
  Proof using Hpl Hwf Hty.
    intros Hp Hr Hb Ht. pose proof (arrs_alone ty k t sz ops os ∅ Ht (checked_run _ _ _ _ _ Hp Hr Hb)) as H. exact H.
  Qed.
  Lemma heaps_among ops w os w' evs t sz T comp eqv : place b (N.of_nat k * esize e) w -> run ops w = Ok os w' evs ->
    existsb (unsupported (half (ereq pl e))) evs = false -> ty t = THeap sz T comp eqv ->
    let p := part_of of_heap t ops os in ccheck (hcheck sz T comp eqv k) (map fst p) (map snd p) ∅.
  Proof using Hpl Hwf Hty.
    intros Hp Hr Hb Ht. pose proof (heaps_alone ty k t sz T comp eqv ops os ∅ Ht (checked_run _ _ _ _ _ Hp Hr Hb)) as H. exact H.
  Qed.
End programs.

(** * A concrete program *)
Definition kinds (t : nat) : ctype :=
  match t with 0%nat => TVec 4 | 1%nat => TArr 8 | 2%nat => THeap 4 object cmps equal | 3%nat => TVec 2 | _ => TVec 1 end.
Lemma kinds_size t : 0 < t_size (kinds t).
Proof. by destruct t as [|[|[|[|t]]]]. Qed.
Notation xprog A ops := (csession A 4096 (xstep A 4096 kinds 2) (xkill A 4096) 2 ops).

Definition potpourri : list (nat * cop) :=
  [(0%nat, OVec (VNewList 0 [Val 1; Val 2; Val 3] 0)); (1%nat, OArr (ANewN 0 2 0)); (1%nat, OArr (ASet 0 1 (RVal (Val 70))));
   (2%nat, OHeap (HNewList 0 [Val 9; Val 5] 0 0)); (3%nat, OVec (VNewList 0 [Val 40] 0)); (2%nat, OHeap (HInsert 0 (RVal (Val 7))));
   (0%nat, OVec (VPush 0 (RVal (Val 4)))); (3%nat, OVec (VPush 0 (RVal (Val 41)))); (2%nat, OHeap (HPop 0)); (0%nat, OVec (VDestroy 0));
   (1%nat, OArr (ACopy 1 0)); (2%nat, OHeap (HPop 0)); (3%nat, OVec (VGet 0 0)); (1%nat, OArr (AGet 1 1)); (1%nat, OVec (VClear 0))].
