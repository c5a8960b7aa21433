(** The ledger is an annotation; programs with nothing to report. *)
From iris.proofmode Require Import tactics.
From Verif Require Import Base Mem AlignedMalloc Allocators Checked Tree Client Env Vector Array HeapPure Heap LawsProofs LawsCont Books BooksProofs BooksVec
  BooksHeap Owned OwnedProofs Ledger StillFacts LedgerProofs LedgerVec LedgerHeap.

Local Open Scope N_scope.

Section ledger.
  Context (A : alloc) (b : N) {X Op : Type}.
  Context (stp : Op -> env A * gmap nat X -> M (cobs * (env A * gmap nat X))).
  Context (legal : gmap nat X -> Op -> bool) (rl : Op -> role Op).
  Context (kill : X -> env A -> M (env A)).
  Context (val num : X -> N).
  Local Notation lrun := (lrun A stp legal rl val num).
  Local Notation lsession := (lsession A b stp legal rl kill val num).

  Lemma lrun_same ops : forall q D, same (fun a a' => fst a = fst a' /\ fst (snd (snd a)) = snd a') (lrun ops q D) (crun A stp ops q).
  Proof.
    induction ops as [|o ops IH]; intros q D; cbn [Ledger.lrun crun]; [by apply same_ret|].
    destruct (if legal (snd q) o then entry rl val num o (snd q) D else ([], D)) as [r D'].
    eapply (same_bind eq); [apply same_refl|]. intros [ob q1] ? <-.
    eapply same_bind; [apply (IH q1 D')|]. intros [os [rs [q2 D2]]] [os' q2'] [H1 H2]. cbn [fst snd] in *. subst os' q2'. by apply same_ret.
  Qed.
  Lemma lsession_forget k ops w : forget (lsession k ops w) = csession A b stp kill k ops w.
  Proof.
    assert (H : same (fun a a' => fst a = a') (lsession k ops) (csession A b stp kill k ops)).
    { unfold Ledger.lsession, csession. eapply (same_bind eq); [apply same_refl|]. intros E ? <-.
      eapply same_bind; [apply (lrun_same ops (E, ∅) ∅)|]. intros [os [rs [[E1 vs] D]]] [os' [E1' vs']] [H1 H2]. cbn [fst snd] in *.
      injection H2 as <- <-. subst os'.
      eapply (same_bind eq); [apply same_refl|]. intros E2 ? <-. eapply (same_bind eq); [apply same_refl|]. intros _ _ _. by apply same_ret. }
    specialize (H w). destruct (lsession k ops w) as [[os rs] w1 e1|u e1], (csession A b stp kill k ops w) as [os' w1' e1'|u' e1']; try done.
    - by destruct H as (<-&<-&<-).
    - by destruct H as (<-&<-).
  Qed.

  (** No debts *)
  Definition even (D : gmap nat debt) : Prop := forall c, debt_of c D = (0, 0)%Z.
  Definition stays (o : Op) : Prop :=
    match rl o with RCopy _ _ _ | RMove _ _ => False | RSplit _ _ _ _ => forall x, num x = 0 | _ => True end.

  Lemma even_insert c D : even D -> even (<[c := (0, 0)%Z]> D).
  Proof.
    intros H c'. unfold debt_of. destruct (decide (c = c')) as [<-|Hn]; [by rewrite lookup_insert|]. rewrite lookup_insert_ne //. apply H.
  Qed.
  Lemma entry_even o vs D : stays o -> even D -> fst (entry rl val num o vs D) = [] /\ even (snd (entry rl val num o vs D)).
  Proof.
    unfold stays, entry. intros Ho HD. destruct (rl o) as [c h|tmp c src|c src|c src h o1|c src|c|c]; cbn [fst snd]; try done.
    - split; [done|]. by apply even_insert.
    - rewrite HD. cbn [fst snd]. assert (objects_of num src vs = 0%Z) as ->.
      { unfold objects_of. destruct (vs !! src); [by rewrite Ho|done]. }
      split; [done|]. by apply even_insert, even_insert.
    - rewrite HD. split; [done|]. intros c'. unfold debt_of. destruct (decide (c = c')) as [<-|Hn]; [by rewrite lookup_delete|].
      rewrite lookup_delete_ne //. apply HD.
  Qed.
  Lemma lrun_even ops : Forall stays ops -> forall q D w, even D ->
    match lrun ops q D w with Ok (_, (rs, (_, D'))) _ _ => rs = [] /\ even D' | Err _ _ => True end.
  Proof.
    induction ops as [|o ops IH]; intros Hops q D w HD; cbn [Ledger.lrun]; [by cbn|].
    apply Forall_cons_1 in Hops as [Ho Hops].
    assert (H : let x := if legal (snd q) o then entry rl val num o (snd q) D else ([], D) in fst x = [] /\ even (snd x)).
    { cbv zeta. destruct (legal (snd q) o); [by apply entry_even|done]. }
    cbv zeta in H. destruct (if legal (snd q) o then entry rl val num o (snd q) D else ([], D)) as [r D']. cbn [fst snd] in H. destruct H as [-> HD'].
    unfold bind. destruct (stp o q w) as [[ob q1] w1 e1|]; [|done]. specialize (IH Hops q1 D' w1 HD').
    destruct (lrun ops q1 D' w1) as [[os [rs [q2 D2]]] w2 e2|]; [|done]. done.
  Qed.
  Lemma lsession_even k ops w : Forall stays ops -> match lsession k ops w with Ok (_, rs) _ _ => rs = [] | Err _ _ => True end.
  Proof.
    intros Hops. unfold Ledger.lsession, bind. destruct (init_all A b 0 k ∅ w) as [E w1 e1|]; [|done].
    pose proof (lrun_even ops Hops (E, ∅) ∅ w1 (fun c => f_equal (default (0, 0)%Z) (lookup_empty c))) as H.
    destruct (lrun ops (E, ∅) ∅ w1) as [[os [rs [[E2 vs] D]]] w2 e2|]; [|done]. destruct H as [-> HD].
    destruct (kill_all A kill (map_to_list vs) E2 w2) as [E3 w3 e3|]; [|done]. destruct (dtor_all A b 0 k E3 w3) as [E4 w4 e4|]; [|done].
    cbn [ret]. clear -HD. induction (map_to_list vs) as [|x l IH]; [done|]. cbn [map concat app]. rewrite HD. cbn. exact IH.
  Qed.
End ledger.

Lemma tallies_unreported r r' : tallies r r' -> match r' with Ok (_, rs) _ _ => rs = [] | Err _ _ => True end -> unreported r.
Proof. unfold tallies, unreported. destruct r as [os w evs|], r' as [[os' rs] ? ?|]; try done. intros [_ [H|H]] ->; auto. Qed.

Lemma forallb_stays {Op} (f : Op -> bool) (P : Op -> Prop) ops : (forall o, f o = true -> P o) -> forallb f ops = true -> Forall P ops.
Proof. intros H. induction ops as [|o ops IH]; [done|]. cbn. intros [H1 H2]%andb_true_iff. constructor; auto. Qed.

Lemma vector_unreported pl e b sz k ops w : uncounted e = true -> 0 < sz -> forallb (compiles (EOverflow e) v_role) ops = true ->
  forallb v_stays ops = true -> unreported (vector_program pl (EOverflow e) b sz k ops w).
Proof.
  intros Hun Hsz HC Hs. eapply tallies_unreported; [by apply vector_tallies|]. apply lsession_even.
  eapply forallb_stays; [|exact Hs]. by intros [].
Qed.
Lemma array_unreported pl e b sz k ops w : uncounted e = true -> 0 < sz -> forallb (compiles (EOverflow e) a_role) ops = true ->
  forallb a_stays ops = true -> unreported (array_program pl (EOverflow e) b sz k ops w).
Proof.
  intros Hun Hsz HC Hs. eapply tallies_unreported; [by apply array_tallies|]. apply lsession_even.
  eapply forallb_stays; [|exact Hs]. by intros [].
Qed.
Lemma heap_unreported pl e b sz k T comp eqv ops w : uncounted e = true -> 0 < sz -> forallb (compiles (EOverflow e) h_role) ops = true ->
  forallb h_stays ops = true -> unreported (heap_program pl (EOverflow e) b sz k T comp eqv ops w).
Proof.
  intros Hun Hsz HC Hs. eapply tallies_unreported; [by apply heap_tallies|]. apply lsession_even.
  eapply forallb_stays; [|exact Hs]. by intros [].
Qed.
