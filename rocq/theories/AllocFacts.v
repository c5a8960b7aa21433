(** Facts about single allocators that go beyond the contract. *)
From Verif Require Import Base Mem Bits BitsProofs AlignedMalloc Allocators Checked Client AllocSpec.

Lemma bind_Ok {A B} (m : M A) (k : A -> M B) w b w2 e :
  bind m k w = Ok b w2 e -> exists a w1 e1 e2, m w = Ok a w1 e1 /\ k a w1 = Ok b w2 e2 /\ e = e1 ++ e2.
Proof.
  unfold bind. destruct (m w) as [a w1 e1|]; [|done]. destruct (k a w1) as [b' w2' e2|] eqn:E; [|done].
  intros [= -> -> <-]. by exists a, w1, e1, e2.
Qed.
Lemma ret_Ok {A} (a b : A) w w' e : ret a w = Ok b w' e -> b = a /\ w' = w /\ e = [].
Proof. by intros [= <- <- <-]. Qed.
Lemma after_nil {X} (m : M X) w : after [] m w = m w.
Proof. unfold after. by destruct (m w). Qed.
Lemma bind_ret {A B} (a : A) (k : A -> M B) w : bind (ret a) k w = k a w.
Proof. unfold bind, ret. destruct (k a w); done. Qed.
Lemma bind_emit {B} e (k : unit -> M B) w : bind (emit e) k w = after [e] (k tt) w.
Proof. done. Qed.
Lemma after_after {X} e1 e2 (m : M X) w : after e1 (after e2 m) w = after (e1 ++ e2) m w.
Proof. unfold after. destruct (m w); by rewrite app_assoc. Qed.

(** Invert one monadic step: result [a], [H1] for the first part, [H2] for the rest. *)
Tactic Notation "inv_bind" hyp(H) "as" simple_intropattern(a) ident(H1) ident(H2) :=
  apply bind_Ok in H as (a&?&?&?&H1&H2&?).
Tactic Notation "inv_ret" hyp(H) := apply ret_Ok in H as ([= -> -> ->]&->&?).

(** * Every program step keeps an invariant of states and blocks *)
Section invariant.
  Context (A : alloc) (b : N) (ready : N -> a_st A -> bool) (I : a_st A -> list (N * N) -> Prop) (req : N -> bool).
  Context (Halloc : forall s bl n w p s' w' e, I s bl -> req n = true -> n < W ->
    a_alloc A b s n w = Ok (p, s') w' e -> I s' (if p =? 0 then bl else (p, n) :: bl)).
  Context (Hfree : forall s bl i p n w s' w' e, I s bl -> bl !! i = Some (p, n) ->
    a_free A b s p n w = Ok s' w' e -> I s' (delete i bl)).
  Context (Hcd : forall s bl c q (act : M unit) w s' w' e, I s bl ->
    traits_cd A b c s q act w = Ok s' w' e -> I s' bl).

  Lemma step_keeps o s bl w ob s' bl' w' e : I s bl ->
    (forall n, o = OAlloc n -> req n = true /\ n < W) ->
    step A b ready o s bl w = Ok (ob, (s', bl')) w' e -> I s' bl'.
  Proof.
    intros HI Hreq. destruct o as [n|i|i off v|i off|q| |i off v|i off]; cbn [step]; intros H.
    - inv_bind H as [p s1] H1 H2. inv_ret H2.
      destruct (Hreq n eq_refl). by eapply Halloc.
    - destruct (bl !! i) as [[p n]|] eqn:Hi.
      + inv_bind H as a H1 H2. inv_ret H2. by eapply Hfree.
      + by inv_ret H.
    - destruct (bl !! i) as [[p n]|]; [destruct (off <? n)|]; try inv_bind H as ? H1 H2;
        match goal with H : ret _ _ = _ |- _ => by inv_ret H end.
    - destruct (bl !! i) as [[p n]|]; [destruct (off <? n)|]; try inv_bind H as ? H1 H2;
        match goal with H : ret _ _ = _ |- _ => by inv_ret H end.
    - destruct (a_owns A); by inv_ret H.
    - destruct (a_max A); [destruct (ready b s)|]; try inv_bind H as ? H1 H2;
        match goal with H : ret _ _ = _ |- _ => by inv_ret H end.
    - destruct (bl !! i) as [[p n]|]; [destruct (off <? n)|].
      + inv_bind H as a H1 H2. inv_ret H2. by eapply Hcd.
      + by inv_ret H.
      + by inv_ret H.
    - destruct (bl !! i) as [[p n]|]; [destruct (off <? n)|].
      + inv_bind H as a H1 H2. inv_ret H2. by eapply Hcd.
      + by inv_ret H.
      + by inv_ret H.
  Qed.

  Lemma run_keeps ops s bl w os s' bl' w' e : I s bl -> asks req ops ->
    run A b ready ops s bl w = Ok (os, (s', bl')) w' e -> I s' bl'.
  Proof.
    revert s bl w os w' e. induction ops as [|o ops IH]; intros s bl w os w' e HI Hreq H; cbn [run] in H.
    - by inv_ret H.
    - inv_bind H as [ob [s1 bl1]] H0 H1. inv_bind H1 as [os2 [s2 bl2]] H2 H3. inv_ret H3.
      unfold asks, requests in Hreq. cbn [flat_map] in Hreq. apply Forall_app in Hreq as [Hr1 Hr2].
      eapply IH; [|exact Hr2|exact H2]. eapply step_keeps; [exact HI| |exact H0].
      intros n ->. by apply Forall_cons_iff in Hr1 as [? _].
  Qed.
End invariant.

Lemma reach_inv (A : alloc) b (I : a_st A -> list (N * N) -> Prop) req s bl :
  (forall w s w' e, place b (a_size A) w -> a_init A b w = Ok s w' e -> I s []) ->
  (forall s bl n w p s' w' e, I s bl -> req n = true -> n < W ->
    a_alloc A b s n w = Ok (p, s') w' e -> I s' (if p =? 0 then bl else (p, n) :: bl)) ->
  (forall s bl i p n w s' w' e, I s bl -> bl !! i = Some (p, n) ->
    a_free A b s p n w = Ok s' w' e -> I s' (delete i bl)) ->
  (forall s bl c q (act : M unit) w s' w' e, I s bl ->
    traits_cd A b c s q act w = Ok s' w' e -> I s' bl) ->
  reachable A req b s bl -> I s bl.
Proof.
  intros Hi Ha Hf Hc (w0&s0&w1&e1&ops&os&w2&e2&Hp&Hinit&Hreq&Hrun).
  eapply (run_keeps A b (fun _ _ => false) I req Ha Hf Hc); [by eapply Hi|exact Hreq|exact Hrun].
Qed.
