(** Assignment of the only handle of a block to itself. *)
From Coq Require Import ssreflect.
From Verif Require Import Base Mem Bits AlignedMalloc Allocators Client Shared SharedProofs Never.
Local Open Scope N_scope.

Lemma self_assign_alone pl A ready ops os q h g w w' e :
  N.of_nat (length ops) < W -> hrun pl A ready ops pool0 w = Ok (os, q) w' e ->
  p_hs q !! h = Some (Some g) -> (forall h', p_hs q !! h' = Some (Some g) -> h' = h) ->
  never (hstep pl A ready (HAssign h h) q).
Proof.
  intros Hl Hrun Hh Hal w1.
  assert (HR : rel A (length ops + 0) pool0 family0).
  { split; cbn; try done. by rewrite map_size_empty; lia. }
  pose proof (hrun_sim pl A ready ops 0 _ _ w HR) as H. rewrite Hrun in H.
  destruct (srun pl A ready ops family0 w) as [[os' f] w2 e2|]; [|done]. destruct H as (_&_&_&HR'). cbn [fst snd] in HR'.
  destruct (r_live _ _ _ _ HR' h g Hh) as [k Hk]. destruct (r_cnt _ _ _ _ HR' g k Hk) as [Hc _].
  pose proof (refs_del g (p_hs q) h _ Hh) as Hd. rewrite hit_self in Hd.
  assert (refs g (delete h (p_hs q)) = 0%nat) as Hz.
  { destruct (refs g (delete h (p_hs q))) eqn:E; [done|]. destruct (proj1 (refs_pos g (delete h (p_hs q)))) as [h' Hh']; [lia|].
    apply lookup_delete_Some in Hh' as [Hne Hh']. apply Hal in Hh'. congruence. }
  cbn [hstep]. unfold bind at 1. unfold ptr at 1. rewrite Hh. cbn [decrement]. rewrite Hk.
  destruct (N.eqb_spec (k_cnt k) 1) as [E|E]; [|lia].
  destruct (bind _ _ w1) as [bk w3 e3|] eqn:Eb; [|done].
  assert (bk = delete g (p_bk q)) as ->.
  { unfold bind in Eb. destruct (a_dtor A (k_addr k) (k_in k) w1) as [? w4 e4|]; [|done].
    destruct (aligned_free pl (k_addr k) w4) as [? w5 e5|]; [|done]. cbn in Eb. by injection Eb as <-. }
  unfold bind, ptr, set_hs, set_bk. cbn [p_hs p_bk p_next p_out]. rewrite Hh lookup_insert. cbn [increment]. by rewrite lookup_delete.
Qed.
