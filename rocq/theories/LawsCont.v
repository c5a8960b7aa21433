(** Containers over allocators that do the same. *)
From Coq Require Import Sorted.
From iris.proofmode Require Import tactics.
From Verif Require Import Base Mem AlignedMalloc Allocators Tree TreeProofs Client Env Vector Array HeapPure Heap Mixed Builder AllocSpec AllocProofs Laws
  LawsProofs.

Local Open Scope N_scope.

Section cont.
  Context {A B : alloc} {R : a_st A -> a_st B -> Prop} (H : alike A B R) (b : N).

  Definition renv (E : env A) (E' : env B) : Prop := forall h, option_Forall2 R (E !! h) (E' !! h).
  Definition rout {X} (x : X * env A) (y : X * env B) : Prop := fst x = fst y /\ renv (snd x) (snd y).
  Definition rst {X Y} (x : Y * (env A * X)) (y : Y * (env B * X)) : Prop :=
    fst x = fst y /\ renv (fst (snd x)) (fst (snd y)) /\ snd (snd x) = snd (snd y).

  Lemma renv_empty : renv ∅ ∅.
  Proof. intros h. rewrite !lookup_empty. constructor. Qed.
  Lemma renv_insert h s t E E' : R s t -> renv E E' -> renv (<[h := s]> E) (<[h := t]> E').
  Proof.
    intros Hs HE h'. destruct (decide (h' = h)) as [->|]; [rewrite !lookup_insert; by constructor|]. rewrite !lookup_insert_ne //.
  Qed.
  Lemma renv_delete h E E' : renv E E' -> renv (delete h E) (delete h E').
  Proof.
    intros HE h'. destruct (decide (h' = h)) as [->|]; [rewrite !lookup_delete; by constructor|]. rewrite !lookup_delete_ne //.
  Qed.
  Lemma same_at h : at_ A b h = at_ B b h.
  Proof. unfold at_. by rewrite (k_size _ _ _ H). Qed.

  Lemma te_alloc_same sz h n E E' : renv E E' -> same rout (te_alloc A b sz h n E) (te_alloc B b sz h n E').
  Proof.
    intros HE. unfold te_alloc. destruct (HE h) as [s t Hs|]; [|by intros w]. rewrite same_at. apply same_bind_eq. intros _.
    eapply same_bind; [by apply (k_alloc _ _ _ H)|]. intros [p s'] [q t'] [Hp Hs']; cbn in *. subst q.
    apply same_bind_eq. intros _. apply same_ret. split; [done|]. by apply renv_insert.
  Qed.
  Lemma te_free_same sz h p n E E' : renv E E' -> same renv (te_free A b sz h p n E) (te_free B b sz h p n E').
  Proof.
    intros HE. unfold te_free. destruct (HE h) as [s t Hs|]; [|by intros w]. rewrite same_at.
    eapply same_bind; [by apply (k_free _ _ _ H)|]. intros s' t' Hs'. apply same_ret. by apply renv_insert.
  Qed.
  Lemma te_cd_same c h p act E E' : renv E E' -> same renv (te_cd A b c h p act E) (te_cd B b c h p act E').
  Proof.
    intros HE. unfold te_cd. destruct (HE h) as [s t Hs|]; [|by intros w]. rewrite same_at.
    eapply (same_bind R).
    - unfold traits_cd. pose proof (k_cd _ _ _ H) as Hc. destruct (a_cd A) as [oA|], (a_cd B) as [oB|]; try done; [by apply Hc|].
      apply same_bind_eq. intros _. by apply same_ret.
    - intros s' t' Hs'. apply same_ret. by apply renv_insert.
  Qed.
  Lemma init_all_same k : forall h E E', renv E E' -> same renv (init_all A b h k E) (init_all B b h k E').
  Proof.
    induction k as [|k IH]; intros h E E' HE; cbn [init_all]; [by apply same_ret|]. eapply (same_bind renv); [|intros; by apply IH].
    unfold te_init. rewrite same_at. eapply same_bind; [apply (k_init _ _ _ H)|]. intros s t Hs. apply same_ret. by apply renv_insert.
  Qed.
  Lemma dtor_all_same k : forall h E E', renv E E' -> same renv (dtor_all A b h k E) (dtor_all B b h k E').
  Proof.
    induction k as [|k IH]; intros h E E' HE; cbn [dtor_all]; [by apply same_ret|]. eapply (same_bind renv); [|intros; by apply IH].
    unfold te_dtor. destruct (HE h) as [s t Hs|]; [|by intros w]. rewrite same_at.
    apply same_bind_eq2; [by apply (k_dtor _ _ _ H)|]. intros _. apply same_ret. by apply renv_delete.
  Qed.

  Ltac open :=
    repeat (cbn [fst snd] in *; match goal with
      | x : _ * _ |- _ => destruct x
      | K : rout _ _ |- _ => unfold rout in K
      | K : rst _ _ |- _ => unfold rst in K
      | K : _ /\ _ |- _ => destruct K
      | K : _ = _ |- _ => first [discriminate K | injection K as K; subst | subst]
      end).
  Ltac done_ret := apply same_ret; repeat split; cbn [fst snd]; first [done | assumption | congruence].
  Ltac sm1 tac :=
    first
      [ solve [done_ret]
      | solve [tac]
      | apply same_ret_l, same_ret_r
      | apply same_assoc_l, same_assoc_r
      | apply same_bind_eq; intros ?; open
      | eapply same_bind; [solve [tac]|intros ? ? ?; open]
      | match goal with
        | |- same _ (bind (if ?c then _ else _) _) _ => destruct c
        | |- same _ (if ?c then _ else _) _ => destruct c
        | |- same _ (match ?x with _ => _ end) _ => destruct x
        end ].
  Ltac sm tac := cbv zeta; open; repeat (sm1 tac).

  Create HintDb same discriminated.
  Hint Resolve te_alloc_same te_free_same te_cd_same : same.
  Ltac go := sm ltac:(eauto 3 with same).

  Section vector.
    Context (sz : N).
    Lemma set_size_same v n E E' : renv E E' -> same rout (set_size A b sz v n E) (set_size B b sz v n E').
    Proof. intros HE. unfold set_size. go. Qed.
    Hint Resolve set_size_same : same.
    Lemma expand_same v n E E' : renv E E' -> same rout (expand A b sz v n E) (expand B b sz v n E').
    Proof. intros HE. unfold expand. go. Qed.
    Hint Resolve expand_same : same.
    Lemma new_n_same h n E E' : renv E E' -> same rout (new_n A b sz h n E) (new_n B b sz h n E').
    Proof. intros HE. unfold new_n. go. Qed.
    Hint Resolve new_n_same : same.
    Lemma copy_of_same h v E E' : renv E E' -> same rout (copy_of A b sz h v E) (copy_of B b sz h v E').
    Proof. intros HE. unfold copy_of. go. Qed.
    Hint Resolve copy_of_same : same.
    Lemma release_same v E E' : renv E E' -> same renv (release A b sz v E) (release B b sz v E').
    Proof. intros HE. unfold release. go. Qed.
    Hint Resolve release_same : same.
    Lemma resize_same v n E E' : renv E E' -> same rout (resize A b sz v n E) (resize B b sz v n E').
    Proof. intros HE. unfold resize. go. Qed.
    Hint Resolve resize_same : same.
    Lemma reserve_same v n E E' : renv E E' -> same rout (reserve A b sz v n E) (reserve B b sz v n E').
    Proof. intros HE. unfold reserve. go. Qed.
    Hint Resolve reserve_same : same.
    Lemma push_back_same v n E E' : renv E E' -> same rout (push_back A b sz v n E) (push_back B b sz v n E').
    Proof. intros HE. unfold push_back. go. Qed.
    Hint Resolve push_back_same : same.
    Lemma push_back_range_same v n E E' : renv E E' -> same rout (push_back_range A b sz v n E) (push_back_range B b sz v n E').
    Proof. intros HE. unfold push_back_range. go. Qed.
    Hint Resolve push_back_range_same : same.
    Lemma vassign_same c s E E' vs : renv E E' -> same rst (vassign A b sz c s (E, vs)) (vassign B b sz c s (E', vs)).
    Proof. intros HE. unfold vassign. go. Qed.
    Lemma vmove_assign_same c s E E' vs : renv E E' -> same rst (vmove_assign A c s (E, vs)) (vmove_assign B c s (E', vs)).
    Proof. intros HE. unfold vmove_assign. go. Qed.
    Hint Resolve vassign_same vmove_assign_same : same.
    Lemma vdo_same o E E' vs : renv E E' -> same rst (vdo A b sz o (E, vs)) (vdo B b sz o (E', vs)).
    Proof. intros HE. destruct o; cbn [vdo]; go. Qed.
    Hint Resolve vdo_same : same.
    Lemma vstep_same k o E E' vs : renv E E' -> same rst (vstep A b sz k o (E, vs)) (vstep B b sz k o (E', vs)).
    Proof. intros HE. unfold vstep. cbn [snd]. go. Qed.
  End vector.

  Section array.
    Context (sz : N).
    Lemma anew_n_same h n E E' : renv E E' -> same rout (anew_n A b sz h n E) (anew_n B b sz h n E').
    Proof. intros HE. unfold anew_n. go. Qed.
    Hint Resolve anew_n_same : same.
    Lemma acopy_of_same h v E E' : renv E E' -> same rout (acopy_of A b sz h v E) (acopy_of B b sz h v E').
    Proof. intros HE. unfold acopy_of. go. Qed.
    Hint Resolve acopy_of_same : same.
    Lemma arelease_same v E E' : renv E E' -> same renv (arelease A b sz v E) (arelease B b sz v E').
    Proof. intros HE. unfold arelease. go. Qed.
    Hint Resolve arelease_same : same.
    Lemma aresize_same v n E E' : renv E E' -> same rout (aresize A b sz v n E) (aresize B b sz v n E').
    Proof. intros HE. unfold aresize. go. Qed.
    Hint Resolve aresize_same : same.
    Lemma afrom_same v n E E' : renv E E' -> same rout (afrom A b sz v n E) (afrom B b sz v n E').
    Proof. intros HE. unfold afrom. go. Qed.
    Hint Resolve afrom_same : same.
    Lemma aassign_same c s E E' vs : renv E E' -> same rst (aassign A b sz c s (E, vs)) (aassign B b sz c s (E', vs)).
    Proof. intros HE. unfold aassign. go. Qed.
    Lemma amove_assign_same c s E E' vs : renv E E' -> same rst (amove_assign A c s (E, vs)) (amove_assign B c s (E', vs)).
    Proof. intros HE. unfold amove_assign. go. Qed.
    Hint Resolve aassign_same amove_assign_same : same.
    Lemma ado_same o E E' vs : renv E E' -> same rst (ado A b sz o (E, vs)) (ado B b sz o (E', vs)).
    Proof. intros HE. destruct o; cbn [ado]; go. Qed.
    Hint Resolve ado_same : same.
    Lemma astep_same k o E E' vs : renv E E' -> same rst (astep A b sz k o (E, vs)) (astep B b sz k o (E', vs)).
    Proof. intros HE. unfold astep. cbn [snd]. go. Qed.
  End array.

  Section heap.
    Context (sz : N) (T : elt) (comp : nat -> value -> value -> bool) (eqv : value -> value -> bool).
    Lemma construct_same h q src E E' : renv E E' -> same renv (construct A b sz T h q src E) (construct B b sz T h q src E').
    Proof. intros HE. unfold construct. go. Qed.
    Lemma construct_move_same h q a E E' : renv E E' -> same renv (construct_move A b sz T h q a E) (construct_move B b sz T h q a E').
    Proof. intros HE. unfold construct_move. go. Qed.
    Lemma destroy_same h q E E' : renv E E' -> same renv (destroy A b sz T h q E) (destroy B b sz T h q E').
    Proof. intros HE. unfold destroy. go. Qed.
    Lemma give_back_same h p c n E E' : renv E E' -> same renv (give_back A b sz h p c n E) (give_back B b sz h p c n E').
    Proof. intros HE. unfold give_back. go. Qed.
    Hint Resolve construct_same construct_move_same destroy_same give_back_same : same.
    Lemma copy_n_same n : forall h dst src E E', renv E E' -> same renv (copy_n A b sz T h dst src n E) (copy_n B b sz T h dst src n E').
    Proof. induction n as [|n IH]; intros h dst src E E' HE; cbn [copy_n]; go. Qed.
    Lemma move_n_same n : forall h dst src E E', renv E E' -> same renv (move_n A b sz T h dst src n E) (move_n B b sz T h dst src n E').
    Proof. induction n as [|n IH]; intros h dst src E E' HE; cbn [move_n]; go. Qed.
    Lemma destroy_n_same n : forall h p E E', renv E E' -> same renv (destroy_n A b sz T h p n E) (destroy_n B b sz T h p n E').
    Proof. induction n as [|n IH]; intros h p E E' HE; cbn [destroy_n]; go. Qed.
    Hint Resolve copy_n_same move_n_same destroy_n_same : same.
    Lemma hrelease_same x E E' : renv E E' -> same renv (hrelease A b sz T x E) (hrelease B b sz T x E').
    Proof. intros HE. unfold hrelease. go. Qed.
    Lemma hset_size_same x n E E' : renv E E' -> same rout (hset_size A b sz T x n E) (hset_size B b sz T x n E').
    Proof. intros HE. unfold hset_size. go. Qed.
    Hint Resolve hrelease_same hset_size_same : same.
    Lemma hexpand_same x n E E' : renv E E' -> same rout (hexpand A b sz T x n E) (hexpand B b sz T x n E').
    Proof. intros HE. unfold hexpand. go. Qed.
    Hint Resolve hexpand_same : same.
    Lemma hinsert_same x src E E' : renv E E' -> same rout (hinsert A b sz T comp x src E) (hinsert B b sz T comp x src E').
    Proof. intros HE. unfold hinsert. go. Qed.
    Hint Resolve hinsert_same : same.
    Lemma insert_list_same l : forall x E E', renv E E' -> same rout (insert_list A b sz T comp x l E) (insert_list B b sz T comp x l E').
    Proof. induction l as [|v l IH]; intros x E E' HE; cbn [insert_list]; go. Qed.
    Lemma hpop_same x E E' : renv E E' -> same rout (hpop A b sz T comp x E) (hpop B b sz T comp x E').
    Proof. intros HE. unfold hpop. go. Qed.
    Lemma hreserve_same x n E E' : renv E E' -> same rout (hreserve A b sz T x n E) (hreserve B b sz T x n E').
    Proof. intros HE. unfold hreserve. go. Qed.
    Lemma hcopy_of_same h x E E' : renv E E' -> same rout (hcopy_of A b sz T h x E) (hcopy_of B b sz T h x E').
    Proof. intros HE. unfold hcopy_of. go. Qed.
    Lemma hassign_same c s E E' vs : renv E E' -> same rst (hassign A b sz T c s (E, vs)) (hassign B b sz T c s (E', vs)).
    Proof. intros HE. unfold hassign. go. Qed.
    Lemma hmove_assign_same c s E E' vs : renv E E' -> same rst (hmove_assign A c s (E, vs)) (hmove_assign B c s (E', vs)).
    Proof. intros HE. unfold hmove_assign. go. Qed.
    Hint Resolve insert_list_same hpop_same hreserve_same hcopy_of_same hassign_same hmove_assign_same : same.
    Lemma hdo_same o E E' vs : renv E E' -> same rst (hdo A b sz T comp eqv o (E, vs)) (hdo B b sz T comp eqv o (E', vs)).
    Proof. intros HE. destruct o; cbn [hdo]; go. Qed.
    Hint Resolve hdo_same : same.
    Lemma hstep_same k o E E' vs : renv E E' -> same rst (hstep A b sz T comp eqv k o (E, vs)) (hstep B b sz T comp eqv k o (E', vs)).
    Proof. intros HE. unfold hstep. cbn [snd]. go. Qed.
  End heap.

  Section session.
    Context {X O : Type}.
    Context (stpA : O -> env A * gmap nat X -> M (cobs * (env A * gmap nat X))) (stpB : O -> env B * gmap nat X -> M (cobs * (env B * gmap nat X))).
    Context (killA : X -> env A -> M (env A)) (killB : X -> env B -> M (env B)).
    Context (Hstp : forall o E E' vs, renv E E' -> same rst (stpA o (E, vs)) (stpB o (E', vs))).
    Context (Hkill : forall x E E', renv E E' -> same renv (killA x E) (killB x E')).

    Lemma crun_same ops : forall E E' vs, renv E E' -> same rst (crun A stpA ops (E, vs)) (crun B stpB ops (E', vs)).
    Proof.
      induction ops as [|o ops IH]; intros E E' vs HE; cbn [crun]; [by apply same_ret|].
      eapply same_bind; [by apply Hstp|]. intros ? ? ?. open. eapply same_bind; [by apply IH|]. intros ? ? ?. open. by apply same_ret.
    Qed.
    Lemma kill_all_same xs : forall E E', renv E E' -> same renv (kill_all A killA xs E) (kill_all B killB xs E').
    Proof.
      induction xs as [|[? x] xs IH]; intros E E' HE; cbn [kill_all]; [by apply same_ret|].
      eapply same_bind; [by apply Hkill|]. intros. by apply IH.
    Qed.
    Lemma csession_same k ops : same eq (csession A b stpA killA k ops) (csession B b stpB killB k ops).
    Proof.
      unfold csession. eapply same_bind; [apply init_all_same, renv_empty|]. intros E E' HE.
      eapply same_bind; [by apply crun_same|]. intros ? ? ?. open.
      eapply same_bind; [by apply kill_all_same|]. intros E2 E2' HE2.
      eapply same_bind; [by apply dtor_all_same|]. intros _ _ _. by apply same_ret.
    Qed.
  End session.

  Lemma xstep_same ty k o E E' xs : renv E E' -> same rst (xstep A b ty k o (E, xs)) (xstep B b ty k o (E', xs)).
  Proof.
    intros HE. destruct o as [t o]. cbn [xstep]. destruct (ty t), o; try (by apply same_ret).
    - eapply same_bind; [by apply vstep_same|]. intros ? ? ?. open. by apply same_ret.
    - eapply same_bind; [by apply astep_same|]. intros ? ? ?. open. by apply same_ret.
    - eapply same_bind; [by apply hstep_same|]. intros ? ? ?. open. by apply same_ret.
  Qed.
  Lemma xkill_same x E E' : renv E E' -> same renv (xkill A b x E) (xkill B b x E').
  Proof.
    intros HE. destruct x; cbn [xkill]; apply kill_all_same; try done; intros.
    - by apply release_same.
    - by apply arelease_same.
    - by apply hrelease_same.
  Qed.
End cont.

Lemma like_mixed pl e e' b ty k ops w : like pl e e' ->
  csession (den pl e) b (xstep (den pl e) b ty k) (xkill (den pl e) b) k ops w =
  csession (den pl e') b (xstep (den pl e') b ty k) (xkill (den pl e') b) k ops w.
Proof. intros (R&H&_). apply same_eq. apply (csession_same H); intros; [by apply xstep_same|by apply xkill_same]. Qed.

Lemma like_indist pl e e' : like pl e e' -> indistinguishable pl e e'.
Proof. intros H. split; intros; [by apply like_session|by apply like_mixed]. Qed.

Lemma indist_brackets pl e e' : wf e = true -> wf e' = true -> unbracket e = unbracket e' -> indistinguishable pl e e'.
Proof.
  intros H H' E. destruct (like_indist pl e (unbracket e)) as [H1 H2]; [by apply like_unbracket|].
  destruct (like_indist pl e' (unbracket e')) as [G1 G2]; [by apply like_unbracket|].
  split; intros; [by rewrite H1 G1 E|by rewrite H2 G2 E].
Qed.

Lemma indist_fallback_builder pl r a l : N.of_nat (length (a :: l)) <= 2 ^ 62 -> forallb eowns (removelast (a :: l)) = true ->
  exists t, fallback_builder (length (a :: l)) r (a :: l) = Some t /\ indistinguishable pl (fb_type t) (fb_chain a l).
Proof. intros H1 H2. destruct (fallback_builder_like pl r a l H1 H2) as (t&?&?). exists t. split; [done|]. by apply like_indist. Qed.

Lemma indist_segragator_builder pl r a l : N.of_nat (length l) < 2 ^ 62 ->
  StronglySorted N.le (map fst l) -> uniform (removelast (a :: map snd l)) = true ->
  exists t, segragator_builder (S (length l)) r (seg_pack a l) = Some t /\ indistinguishable pl (seg_type t) (seg_chain a l).
Proof.
  intros H1 H2 H3. destruct (segragator_builder_like pl r (S (length l)) a l ltac:(lia) H1 H2 H3) as (t&?&?).
  exists t. split; [done|]. by apply like_indist.
Qed.

Lemma segragator_rotation pl T T' a b c : T' <= T -> (eowns b || negb (ecd a)) = true ->
  indistinguishable pl (ESegragator T (ESegragator T' a b) c) (ESegragator T' a (ESegragator T b c)).
Proof. intros H1 H2. by apply like_indist, like_segragator_assoc. Qed.

Lemma rotation_descending :
  exists T T' a b c w, T < T' /\ place 4096 0 w /\
  outcome (session (den PMalloc (ESegragator T (ESegragator T' a b) c)) 4096 (fun _ _ => true) [OAlloc 20] w) <>
  outcome (session (den PMalloc (ESegragator T' a (ESegragator T b c))) 4096 (fun _ _ => true) [OAlloc 20] w).
Proof.
  exists 16, 32, EMalloc, ENull, ENull, (w_raw 0). split_and!; [done|by apply (w_raw_place 0)|]. by vm_compute.
Qed.
