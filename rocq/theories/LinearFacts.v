(** linear_allocator and stack_allocator beyond the contract (C08-C11). *)
From Coq Require Import ssreflect.
From Verif Require Import Base Mem Bits BitsProofs Allocators Client LinearProofs AllocSpec AllocFacts.

Section linear.
  Context (Size b : N).

  (** The invariant of LinearProofs, and: nothing counted means nothing used. *)
  Definition lin_full (s : lin) (bl : list (N * N)) : Prop :=
    lin_inv Size b s bl /\ (l_cnt s = 0 -> l_free s = b).

  Definition lreq (n : N) : bool := n + 15 + Size <? W.

  Lemma lin_full_alloc s bl n w p s' w' e : lin_full s bl -> lreq n = true ->
    lin_alloc Size b s n w = Ok (p, s') w' e -> lin_full s' (if p =? 0 then bl else (p, n) :: bl).
  Proof.
    intros [HI Hc] Hn. apply N.ltb_lt in Hn. rewrite (lin_alloc_eq Size b s bl n HI Hn).
    destruct (_ <? _) eqn:E; intros H; apply ret_Ok in H as ([= -> ->]&_&_).
    - done.
    - destruct (l_free s =? 0) eqn:E0.
      { exfalso. destruct HI as [(?&?&?) (?&?) _ _ _]. lia. }
      split; [apply lin_alloc_inv; [done..|lia]|]. cbn [l_free l_cnt]. intros. rewrite Hc; [|lia]. lia.
  Qed.

  Lemma delete_perm {X} (l : list X) i x : l !! i = Some x -> l ≡ₚ x :: delete i l.
  Proof. apply delete_Permutation. Qed.

  Lemma lin_full_free s bl i p n : lin_full s bl -> bl !! i = Some (p, n) ->
    lin_full (lin_free b s p n) (delete i bl).
  Proof.
    intros [HI _] Hi. split.
    - apply lin_free_inv. eapply lin_inv_perm; [|exact HI]. by apply delete_perm.
    - unfold lin_free. cbn [l_free l_cnt]. by intros ->.
  Qed.

  Lemma lin_full_init w s w' e : place b (lin_size Size) w -> lin_init Size b w = Ok s w' e -> lin_full s [].
  Proof.
    intros (H1&H2&H3&_) H. unfold lin_init in H. inv_bind H as u Ha Hb.
    apply ret_Ok in Hb as (->&_&_). split; [by apply lin_inv_init|done].
  Qed.

  Lemma lin_reach s bl : reachable (linear_allocator Size) lreq b s bl -> lin_full s bl.
  Proof.
    apply (reach_inv (linear_allocator Size) b lin_full).
    - apply lin_full_init.
    - intros s0 bl0 n w p s' w' e HI Hn _. by apply lin_full_alloc.
    - intros s0 bl0 i p n w s' w' e HI Hi H. cbn [linear_allocator a_free] in H.
      inv_bind H as u Ha Hb. apply ret_Ok in Hb as (->&_&_). by apply lin_full_free.
    - intros s0 bl0 c q act w s' w' e HI H. unfold traits_cd in H. cbn in H.
      inv_bind H as u Ha Hb. by apply ret_Ok in Hb as (->&_&_).
  Qed.

  Lemma stack_reach s bl : reachable (stack_allocator Size) lreq b s bl -> lin_full s bl.
  Proof.
    apply (reach_inv (stack_allocator Size) b lin_full).
    - apply lin_full_init.
    - intros s0 bl0 n w p s' w' e HI Hn _. by apply lin_full_alloc.
    - intros s0 bl0 i p n w s' w' e HI Hi H. cbn [stack_allocator a_free] in H.
      apply ret_Ok in H as (->&_&_). by apply lin_full_free.
    - intros s0 bl0 c q act w s' w' e HI H. unfold traits_cd in H. cbn in H.
      inv_bind H as u Ha Hb. by apply ret_Ok in Hb as (->&_&_).
  Qed.

  (** C08 *)
  Definition lin_layout (bl : list (N * N)) : Prop :=
    Forall (fun x => b <= fst x /\ fst x + snd x <= b + Size /\ fst x mod 16 = 0) bl /\ all_apart bl.

  Lemma pdisj_apart bl : pdisj bl -> all_apart bl.
  Proof.
    induction bl as [|x bl IH]; [done|]. intros [H1 H2]. split; [|by apply IH].
    eapply List.Forall_impl; [|exact H1]. intros y Hd q [Hx Hy]. unfold bdisj in Hd.
    pose proof (padN_bounds (snd x)). pose proof (padN_bounds (snd y)). lia.
  Qed.

  Lemma lin_full_layout s bl : lin_full s bl -> lin_layout bl.
  Proof.
    intros [[(?&?&?) _ _ Hb Hd] _]. split; [|by apply pdisj_apart].
    eapply List.Forall_impl; [|exact Hb]. intros x (?&?&?&?). pose proof (padN_bounds (snd x)). lia.
  Qed.

  (** C09 *)
  Lemma lin_full_capacity s n pad w : lin_full s [] -> lreq n = true -> least_padding 16 n pad ->
    lin_alloc Size b s n w = Ok (if n + pad <=? Size then b else 0, if n + pad <=? Size then Lin (b + (n + pad)) (n + pad) else s) w [].
  Proof.
    intros [HI Hc] Hn Hpad. apply N.ltb_lt in Hn. rewrite (lin_alloc_eq Size b s [] n HI Hn).
    destruct HI as [_ _ (HC&_) _ _]. cbn [sumpad] in HC. rewrite Hc //.
    assert (padN n = n + pad) as ->.
    { unfold padN. f_equal. destruct (align_least n) as [Ha1 Ha2]. destruct Hpad as [Hb1 Hb2].
      apply N.le_antisymm; [by apply Ha2|by apply Hb2]. }
    destruct (N.leb_spec (n + pad) Size), (N.ltb_spec Size (b - b + (n + pad))); try lia; [|done].
    unfold ret. do 3 f_equal. by rewrite HC N.add_0_l.
  Qed.

  (** C10 *)
  Lemma lin_undo s bl n w p s' w' e : lin_full s bl -> lreq n = true ->
    lin_alloc Size b s n w = Ok (p, s') w' e -> p <> 0 -> lin_free b s' p n = s.
  Proof.
    intros [HI Hc] Hn. apply N.ltb_lt in Hn. rewrite (lin_alloc_eq Size b s bl n HI Hn).
    destruct (_ <? _) eqn:E; intros H; apply ret_Ok in H as ([= -> ->]&_&_); [done|]. intros Hp.
    destruct HI as [(?&?&?) (?&?) (?&?) _ _]. pose proof (padN_bounds n). pose proof (lin_size_ge Size).
    unfold lin_free. cbn [l_free l_cnt]. rewrite padded_small; [|lia]. rewrite !sub64_small; [|lia..].
    rewrite !N.add_sub. rewrite N.eqb_refl. destruct s as [f c]. cbn [l_free l_cnt] in *.
    destruct (N.eqb_spec c 0); [|done]. rewrite Hc //.
  Qed.

  (** C11 *)
  Lemma lin_refuses s bl n w : lin_full s bl -> lreq n = true -> Size < n ->
    lin_alloc Size b s n w = Ok (0, s) w [].
  Proof.
    intros [HI Hc] Hn Hs. apply N.ltb_lt in Hn. rewrite (lin_alloc_eq Size b s bl n HI Hn).
    pose proof (padN_bounds n). destruct (N.ltb_spec Size (l_free s - b + padN n)); [done|lia].
  Qed.
End linear.
