(** What the containers need of an allocator: the part of the contract that concerns allocate,
    deallocate, construct and destroy.  The client presents all its blocks at every call, so that
    other clients of the same allocator can make progress meanwhile (Crowd.v). *)
From iris.proofmode Require Import tactics.
From Verif Require Import Base Mem Sep Wp Allocators Client Contract.

Local Open Scope N_scope.

(** A program that is within the scope [bad] asks only for supported sizes. *)
Definition modest (bad : event -> bool) (req : N -> bool) : Prop :=
  forall n, bad (EvReq n) = false -> req n = true /\ n < W.

Record service (bad : event -> bool) (A : alloc) (req : N -> bool) := Service {
  (** the object is in a state in which exactly the blocks in [S] are outstanding *)
  V : N -> a_st A -> list (N * N) -> hpropI;

  s_modest : modest bad req;
  s_size : a_size A mod 16 = 0;
  s_perm b s S S' : S ≡ₚ S' -> V b s S ⊢ V b s S';
  s_good b s S : V b s S ⊢ ⌜Forall good S⌝;

  s_init b : b <> 0 -> b mod 16 = 0 -> b + a_size A < W ->
    raw b (a_size A) ⊢ wp bad (a_init A b) (fun s => V b s []);
  s_dtor b s : V b s [] ⊢ wp bad (a_dtor A b s) (fun _ => raw b (a_size A));

  s_alloc b s L n : req n = true -> n < W ->
    V b s (shape L) ∗ blocks L ⊢ wp bad (a_alloc A b s n) (fun ps => blocks L ∗
      (⌈fst ps = 0 /\ (n = 0 \/ bad EvFail = true)⌉ ∗ V b (snd ps) (shape L) ∨
       ⌈fst ps <> 0⌉ ∗ raw (fst ps) n ∗ V b (snd ps) ((fst ps, n) :: shape L)));
  s_free b s p cs L : Forall dead cs ->
    V b s (bsize (p, cs) :: shape L) ∗ p ↦∗ cs ∗ blocks L
    ⊢ wp bad (a_free A b s p (N.of_nat (length cs))) (fun s' => V b s' (shape L) ∗ blocks L);
  s_cd o c b s L q act (R : unit -> hpropI) : a_cd A = Some o ->
    (exists p n, (p, n) ∈ shape L /\ p <= q < p + n) ->
    V b s (shape L) ∗ blocks L ∗ (blocks L -∗ wp bad act R)
    ⊢ wp bad (o c b s q act) (fun s' => V b s' (shape L) ∗ R tt)
}.
Arguments V {bad A req}.

Definition service_of {bad A req} (C : contract bad A req) (Hfail : bad EvFail = true) (Hreq : modest bad req) : service bad A req.
Proof.
  refine (Service bad A req (J C) Hreq _ _ _ _ _ _ _ _).
  - exact (c_size _ _ _ C).
  - exact (c_perm _ _ _ C).
  - exact (c_good _ _ _ C).
  - exact (c_init _ _ _ C).
  - exact (c_dtor _ _ _ C).
  - intros b s L n Hn HW. iIntros "[HJ HL]". iApply wp_strong_mono. iSplitL "HJ"; [by iApply (c_alloc _ _ _ C)|].
    iIntros (ps) "[[%H HJ]|H]"; iFrame "HL"; [|by iRight]. iLeft. iFrame. iPureIntro. auto.
  - exact (c_free _ _ _ C).
  - exact (c_cd _ _ _ C).
Defined.

Definition service_less {bad A req} (req' : N -> bool) (C : service bad A req) (H : forall n, req' n = true -> req n = true) (Hreq : modest bad req') :
  service bad A req' :=
  {| V := V C; s_modest := Hreq; s_size := s_size _ _ _ C; s_perm := s_perm _ _ _ C; s_good := s_good _ _ _ C;
     s_init := s_init _ _ _ C; s_dtor := s_dtor _ _ _ C;
     s_alloc := fun b s L n Hn => s_alloc _ _ _ C b s L n (H n Hn);
     s_free := s_free _ _ _ C; s_cd := s_cd _ _ _ C |}.

(** std::allocator_traits::construct and destroy *)
Lemma serve_cd {bad A req} (C : service bad A req) b c s L q act (R : unit -> hpropI) :
  (exists p n, (p, n) ∈ shape L /\ p <= q < p + n) ->
  V C b s (shape L) ∗ blocks L ∗ (blocks L -∗ wp bad act R)
  ⊢ wp bad (traits_cd A b c s q act) (fun s' => V C b s' (shape L) ∗ R tt).
Proof.
  intros Hin. unfold traits_cd. destruct (a_cd A) as [o|] eqn:Ho.
  - by apply (s_cd _ _ _ C).
  - iIntros "(HJ & HL & Hact)". iApply wp_bind. iApply wp_strong_mono. iSplitL "HL Hact"; [by iApply "Hact"|].
    iIntros ([]) "HR". iApply wp_ret. iFrame.
Qed.
