(** Proofs of C76. *)
From Coq Require Import ssreflect.
From Verif Require Import Base Mem AlignedMalloc Allocators Moves Checked Tree Client AllocSpec AllocProofs Env Vector Array HeapPure Heap
  Books BooksProofs BooksVec BooksFacts ByValue ContExamples.

Local Open Scope N_scope.

Section by_value.
  Context (A : alloc) (cp : a_st A -> a_st A) (b sz : N).
  Hypothesis Hsz : 0 < sz.
  Local Notation O := (overflow A).

  Definition put (h : nat) (z : Z) (f : nat -> Z) : nat -> Z := fun i => if Nat.eqb h i then z else f i.
  Lemma dup_books (E : env O) f g h a s (t : ov A) :
    books E f g -> E !! a = Some s -> o_allocs t = o_allocs s -> o_cons t = o_cons s -> books (<[h := t]> E) (put h (f a) f) (put h (g a) g).
  Proof.
    clear Hsz. intros HB Hs H1 H2 i u Hi. unfold put. destruct (decide (h = i)) as [->|Hn].
    - rewrite lookup_insert in Hi. injection Hi as <-. rewrite Nat.eqb_refl H1 H2. by apply HB.
    - rewrite lookup_insert_ne // in Hi. apply Nat.eqb_neq in Hn as ->. by apply HB.
  Qed.

  (** Copy: the temporary and the copy are destroyed with the counters of the original. *)
  Lemma copy_temporary (E : env O) f g a s tmp :
    books E f g -> E !! a = Some s -> reports tmp (ov_dup A cp s) (f a) (g a).
  Proof.
    clear Hsz. intros HB Hs. apply (books_report (<[a := ov_dup A cp s]> E) f g a); [|apply lookup_insert].
    intros i t Hi. destruct (decide (a = i)) as [->|Hn].
    - rewrite lookup_insert in Hi. injection Hi as <-. cbn. by apply HB.
    - rewrite lookup_insert_ne // in Hi. by apply HB.
  Qed.
  Lemma copy_reports tmp h src (E : env O) f g :
    books E f g ->
    ends (' (v, E) <- bv_copy A cp b sz tmp h src E ;; release O b sz v E)
      (fun E' => forall s p, E' !! h = Some s -> reports p s (f (v_al src)) (g (v_al src))).
  Proof using Hsz.
    intros HB. unfold bv_copy. destruct (E !! v_al src) as [s|] eqn:Es; [|intros w; done].
    eapply ends_bind.
    { apply ends_bind'. intros _. apply copy_of_books; [done|].
      by eapply (dup_books E f g h (v_al src) s). }
    intros [v E1] [H1 H2]. cbn [fst snd] in *.
    eapply ends_imp; [by apply release_books|]. intros E2 H3 t p Ht.
    eassert (reports p t _ _) as Hr by by apply (books_report E2 _ _ h t p H3).
    rewrite H1 in Hr. unfold upd, put in Hr. rewrite Nat.eqb_refl in Hr.
    rewrite Z.add_opp_r Z.add_simpl_r in Hr. exact Hr.
  Qed.
  Lemma move_reports h src (E : env O) f g :
    books E f g -> h <> v_al src ->
    ends (' (v, o, E) <- bv_move A cp h src E ;; E <- release O b sz v E ;; release O b sz o E)
      (fun E' =>
        (forall s p, E' !! h = Some s -> reports p s (f (v_al src) - Z.of_N (v_bytes sz src)) (g (v_al src))) /\
        (forall s p, E' !! v_al src = Some s -> reports p s (f (v_al src)) (g (v_al src)))).
  Proof using Hsz.
    intros HB Hh. unfold bv_move. destruct (E !! v_al src) as [s|] eqn:Es; [|intros w; done].
    eapply ends_bind; [apply (ends_ret _ (fun r => r = (Vec h (v_beg src) (v_end src) (v_max src), Vec (v_al src) 0 0 0, <[h := ov_dup A cp s]> E))); done|].
    intros r ->. eapply ends_bind; [apply release_books; [done|]; by eapply (dup_books E f g h (v_al src) s)|]. intros E1 H1.
    apply ends_ret. cbn [v_al] in H1. split; intros t p Ht.
    - eassert (reports p t _ _) as Hr by by apply (books_report E1 _ _ h t p H1).
      unfold upd, put in Hr. rewrite !Nat.eqb_refl in Hr. by rewrite Z.add_opp_r in Hr.
    - eassert (reports p t _ _) as Hr by by apply (books_report E1 _ _ (v_al src) t p H1).
      unfold upd, put in Hr. apply Nat.eqb_neq in Hh. rewrite Hh Z.add_0_r in Hr. done.
  Qed.
End by_value.

(** Over mallocator, four elements of four bytes each. *)
Definition copies : M unit := bv_copy_prog (mallocator PMalloc) (fun s => s) 4096 4 8192 [Val 1; Val 2; Val 3; Val 4].
Definition moves : M unit := bv_move_prog (mallocator PMalloc) (fun s => s) 4096 4 [Val 1; Val 2; Val 3; Val 4].
Lemma copy_false_report : exists w, place 4096 0 w /\ reported (copies w) = Some [EvLeak 16; EvLeak 16].
Proof. exists (w_raw 0). split; [by apply (w_raw_place 0)|by vm_compute]. Qed.
Lemma move_false_report : exists w, place 4096 0 w /\ reported (moves w) = Some [EvLeak 16].
Proof. exists (w_raw 0). split; [by apply (w_raw_place 0)|by vm_compute]. Qed.
Lemma copy_both A cp b sz : 0 < sz -> forall tmp h src (E : env (overflow A)) f g, books E f g ->
  (forall s, E !! v_al src = Some s -> reports tmp (ov_dup A cp s) (f (v_al src)) (g (v_al src))) /\
  ends (bind (bv_copy A cp b sz tmp h src E) (fun '(v, E) => release (overflow A) b sz v E))
    (fun E' => forall s p, E' !! h = Some s -> reports p s (f (v_al src)) (g (v_al src))).
Proof. intros Hsz tmp h src E f g HB. split; [intros s Hs; by apply (copy_temporary A cp E)|by apply copy_reports]. Qed.
