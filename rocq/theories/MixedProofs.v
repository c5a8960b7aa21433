(** Containers of several types share allocators. *)
From iris.proofmode Require Import tactics.
From Verif Require Import Base Mem Sep Wp AlignedMalloc Allocators Checked CheckedProofs Tree Client Contract Service TreeProofs
  AllocSpec AllocProofs Env EnvProofs Vector RepProofs VectorProofs Array ArrayProofs HeapPure Heap HeapSpec TreeService HeapProofs HeapFacts Mixed.

Local Open Scope N_scope.

Section mixed.
  Context {bad : event -> bool} {A : alloc} {req : N -> bool}.
  Context (CA : service bad A req) (b : N) (ty : nat -> ctype) (k : nat).
  Context (Hty : forall t, 0 < t_size (ty t)) (Hreq : forall n, req n = true -> n < 2 ^ 63).
  Let D : gset nat := set_seq 0 k.

  (** The objects of a type, their specification, the blocks that belong to them. *)
  Definition xrel (t : ctype) (x : objs) (y : sobjs) (B : list oblk) : Prop :=
    match t, x, y with
    | TVec sz, XVec sz' vs, SVecs m => sz' = sz /\
      exists Z, vs = (vec_of sz ∘ fst) <$> Z /\ m = fst <$> Z /\ map_Forall (fun _ => rep sz D) Z /\ B = bl Z
    | TArr sz, XArr sz' vs, SArrs m => sz' = sz /\ map_Forall (fun _ => tight) m /\
      exists Z, vs = (arr_of sz ∘ fst) <$> Z /\ m = fst <$> Z /\ map_Forall (fun _ => rep sz D) Z /\ B = bl Z
    | THeap sz T comp eqv, XHeap sz' T' vs, SHeaps m => sz' = sz /\ T' = T /\
      exists Z, vs = (heap_of ∘ fst) <$> Z /\ m = fst <$> Z /\ map_Forall (fun _ => hrep sz comp D) Z /\ B = hbl sz T Z
    | _, _, _ => False
    end.

  Definition knot := (objs * sobjs * list oblk)%type.
  Definition k_x (z : knot) : objs := fst (fst z).
  Definition k_y (z : knot) : sobjs := snd (fst z).
  Definition k_b (z : knot) : list oblk := snd z.
  Definition allb (Z : gmap nat knot) : list oblk := flat_map (fun p => k_b (snd p)) (map_to_list Z).

  Definition xinv (E : env A) (xs : gmap nat objs) (s : gmap nat sobjs) : hpropI :=
    ∃ Z : gmap nat knot, ⌈xs = k_x <$> Z /\ s = k_y <$> Z /\ map_Forall (fun t z => xrel (ty t) (k_x z) (k_y z) (k_b z)) Z⌉ ∗
      inv0 CA b D E (allb Z).

  Lemma allb_delete Z t z : Z !! t = Some z -> allb Z ≡ₚ k_b z ++ allb (delete t Z).
  Proof. intros H. unfold allb. rewrite (flat_map_perm _ _ _ (symmetry (map_to_list_delete _ _ _ H))). done. Qed.
  Lemma allb_put Z t z : allb (<[t := z]> Z) ≡ₚ k_b z ++ allb (delete t Z).
  Proof.
    rewrite -insert_delete_insert. unfold allb.
    rewrite (flat_map_perm _ _ _ (map_to_list_insert _ _ _ (lookup_delete _ _))). done.
  Qed.

  Definition at_type (t : nat) (x : option objs) (y : option sobjs) (B : list oblk) : Prop :=
    match x, y with
    | Some x, Some y => xrel (ty t) x y B
    | None, None => B = []
    | _, _ => False
    end.

  (** The objects of type [t], and what belongs to the others. *)
  Lemma xinv_open E xs s t : xinv E xs s ⊢ ∃ F,
    (∃ B, ⌈at_type t (xs !! t) (s !! t) B⌉ ∗ inv0 CA b D E (B ++ F)) ∗
    (∀ E' x y B, ⌈xrel (ty t) x y B⌉ -∗ inv0 CA b D E' (B ++ F) -∗ xinv E' (<[t := x]> xs) (<[t := y]> s)).
  Proof.
    iIntros "H". iDestruct "H" as (Z) "[%HH H]". destruct HH as (->&->&HZ). iExists (allb (delete t Z)). iSplitL.
    - rewrite !lookup_fmap. destruct (Z !! t) as [z|] eqn:Ht; cbn [fmap option_fmap option_map].
      + iExists (k_b z). iSplitR; [iPureIntro; by apply (HZ t)|]. iApply (inv_perm0 with "H"). by apply allb_delete.
      + iExists []. iSplitR; [done|]. cbn [app]. by rewrite delete_notin.
    - iIntros (E' x y B) "%Hr H". iExists (<[t := (x, y, B)]> Z). rewrite !fmap_insert. iSplitR.
      + iPureIntro. split_and!; [done|done|]. apply map_Forall_insert_2; [done|done].
      + iApply (inv_perm0 with "H"). rewrite allb_put. done.
  Qed.

  Lemma xstep_spec o E xs s : xinv E xs s ⊢ wp bad (xstep A b ty k o (E, xs)) (fun r =>
    ∃ s', ⌈xcheck ty k o (fst r) s s'⌉ ∗ xinv (fst (snd r)) (snd (snd r)) s').
  Proof.
    destruct o as [t o]. cbn [xstep xcheck].
    assert (Hno : xinv E xs s ⊢ wp bad (ret (CUnit, (E, xs))) (fun r =>
      ∃ s', ⌈fst r = CUnit /\ s' = s⌉ ∗ xinv (fst (snd r)) (snd (snd r)) s')).
    { iIntros "H". iApply wp_ret. iExists s. by iFrame. }
    pose proof (Hty t) as Ht.
    destruct (ty t) as [sz|sz|sz T comp eqv] eqn:Hk; destruct o as [o|o|o]; try exact Hno; clear Hno; cbn [t_size] in Ht;
      iIntros "H"; iDestruct (xinv_open _ _ _ t with "H") as (F) "[H Hcl]"; iDestruct "H" as (B) "[%HB H]"; unfold at_type in HB; rewrite Hk in HB |- *.
    - iApply wp_bind. iApply wp_strong_mono. iSplitL "H".
      { iApply (vstep_spec (Used _ _ _ CA F) b sz D Ht k o E (vecs (xs !! t)) (svecs (s !! t))).
        - intros h Ho HL. apply elem_of_set_seq.
          split; [lia|]. destruct o; cbn in *; try done; injection Ho as ->; unfold new_name in HL;
            repeat (apply andb_true_iff in HL as [HL ?]); by apply Nat.ltb_lt.
        - destruct (xs !! t) as [x|], (s !! t) as [y|]; try done; cbn [vecs svecs].
          + destruct x, y; try done. cbn in HB. destruct HB as (->&Z&->&->&HZ&->). iExists Z. iFrame "H". done.
          + subst B. iApply cinv_init. iFrame "H". }
      iIntros ([ob [E' m]]) "(%m' & %Hc & H)". cbn [fst snd] in *. iApply wp_ret. cbn [fst snd].
      iDestruct "H" as (Z) "[%HH H]". destruct HH as (->&->&HZ). iExists _. iSplitR; [iPureIntro; by exists (fst <$> Z)|].
      iApply ("Hcl" with "[] H"). iPureIntro. split; [done|]. by exists Z.
    - iApply wp_bind. iApply wp_strong_mono. iSplitL "H".
      { iApply (astep_spec (Used _ _ _ CA F) b sz D Ht k o E (arrs (xs !! t)) (sarrs (s !! t))).
        - intros h Ho HL. apply elem_of_set_seq.
          split; [lia|]. destruct o; cbn in *; try done; injection Ho as ->; unfold new_name in HL;
            repeat (apply andb_true_iff in HL as [HL ?]); by apply Nat.ltb_lt.
        - destruct (xs !! t) as [x|], (s !! t) as [y|]; try done; cbn [arrs sarrs].
          + destruct x, y; try done. cbn in HB. destruct HB as (->&HT&Z&->&->&HZ&->). iSplitR; [done|]. iExists Z. iFrame "H". done.
          + subst B. iSplitR; [iPureIntro; apply map_Forall_empty|]. iApply cinv_init. iFrame "H". }
      iIntros ([ob [E' m]]) "(%m' & %Hc & H)". cbn [fst snd] in *. iApply wp_ret. cbn [fst snd].
      iDestruct "H" as "[%HT H]". iDestruct "H" as (Z) "[%HH H]". destruct HH as (->&->&HZ).
      iExists _. iSplitR; [iPureIntro; by exists (fst <$> Z)|].
      iApply ("Hcl" with "[] H"). iPureIntro. split; [done|]. split; [done|]. by exists Z.
    - iApply wp_bind. iApply wp_strong_mono. iSplitL "H".
      { iApply (hstep_spec (Used _ _ _ CA F) b sz T comp eqv D Ht Hreq k o E (heaps (xs !! t)) (sheaps (s !! t))).
        - intros h Ho HL. apply elem_of_set_seq.
          split; [lia|]. destruct o; cbn in *; try done; injection Ho as ->; unfold new_name in HL;
            repeat (apply andb_true_iff in HL as [HL ?]); by apply Nat.ltb_lt.
        - destruct (xs !! t) as [x|], (s !! t) as [y|]; try done; cbn [heaps sheaps].
          + destruct x, y; try done. cbn in HB. destruct HB as (->&->&Z&->&->&HZ&->). iExists Z. iFrame "H". done.
          + subst B. iApply hinv_init. iFrame "H". }
      iIntros ([ob [E' m]]) "(%m' & %Hc & H)". cbn [fst snd] in *. iApply wp_ret. cbn [fst snd].
      iDestruct "H" as (Z) "[%HH H]". destruct HH as (->&->&HZ). iExists _. iSplitR; [iPureIntro; by exists (fst <$> Z)|].
      iApply ("Hcl" with "[] H"). iPureIntro. split; [done|]. split; [done|]. by exists Z.
  Qed.

  Lemma xkill_spec E t x y B F : xrel (ty t) x y B ->
    inv0 CA b D E (B ++ F) ⊢ wp bad (xkill A b x E) (fun E' => inv0 CA b D E' F).
  Proof.
    intros Hr. pose proof (Hty t) as Ht. destruct (ty t) as [sz|sz|sz T comp eqv], x, y; try done; cbn [t_size] in Ht; cbn in Hr; iIntros "H".
    - destruct Hr as (->&Z&->&->&HZ&->).
      iApply (cinv_kill (Used _ _ _ CA F) b sz D (vec_of sz) (release A b sz) (fun _ => True)); [|done|by iExists Z; iFrame "H"].
      intros. by apply (release_spec (Used _ _ _ CA F)).
    - destruct Hr as (->&HT&Z&->&->&HZ&->).
      iApply (cinv_kill (Used _ _ _ CA F) b sz D (arr_of sz) (arelease A b sz) tight); [|done|by iExists Z; iFrame "H"].
      intros. by apply (arelease_spec (Used _ _ _ CA F)).
    - destruct Hr as (->&->&Z&->&->&HZ&->).
      iApply (hinv_kill (Used _ _ _ CA F) b sz T comp eqv D); [done..|]. iExists Z. iFrame "H". done.
  Qed.

  Lemma xkill_all_spec (l : list (nat * knot)) E : Forall (fun p => xrel (ty (fst p)) (k_x (snd p)) (k_y (snd p)) (k_b (snd p))) l ->
    inv0 CA b D E (flat_map (fun p => k_b (snd p)) l) ⊢
    wp bad (kill_all A (xkill A b) (map (fun p => (fst p, k_x (snd p))) l) E) (fun E' => inv0 CA b D E' []).
  Proof.
    revert E. induction l as [|[t z] l IH]; intros E Hl; cbn [map kill_all flat_map fst snd].
    - iIntros "H". by iApply wp_ret.
    - apply Forall_cons_iff in Hl as [H1 H2]. iIntros "H". iApply wp_bind. iApply wp_strong_mono.
      iSplitL; [by iApply (xkill_spec with "H")|]. iIntros (E') "H". by iApply IH.
  Qed.

  Lemma xinv_kill E xs s : xinv E xs s ⊢ wp bad (kill_all A (xkill A b) (map_to_list xs) E) (fun E' => inv0 CA b D E' []).
  Proof.
    iIntros "H". iDestruct "H" as (Z) "[%HH H]". destruct HH as (->&->&HZ). set (f := fun p : nat * knot => (fst p, k_x (snd p))).
    assert (Hp : map_to_list (k_x <$> Z) ≡ₚ map f (map_to_list Z)).
    { rewrite map_to_list_fmap. induction (map_to_list Z) as [|[? ?] l IH]; [done|]. cbn. by f_equiv. }
    apply Permutation_map_inv in Hp as (l&->&Hl).
    iApply xkill_all_spec.
    - apply list.Forall_forall. intros [c y] Hin. rewrite -Hl in Hin. apply elem_of_map_to_list in Hin. by apply (HZ _ _ Hin).
    - iApply (inv_perm0 with "H"). unfold allb. by apply flat_map_perm.
  Qed.

  Lemma mixed_session ops w : place b (N.of_nat k * a_size A) w ->
    csession_ok A b (xstep A b ty k) (xkill A b) (xcheck ty k) bad k ∅ ops w.
  Proof.
    apply (csession_safe CA b _ _ _ _ _ xinv).
    - intros E. rewrite inv_alone. iIntros "H". iExists ∅. unfold allb. rewrite map_to_list_empty. iFrame "H". iPureIntro.
      rewrite !fmap_empty. split_and!; [done|done|apply map_Forall_empty].
    - intros o E vs s. apply xstep_spec.
    - intros E vs s. rewrite xinv_kill. apply wp_mono. intros E'. by rewrite inv_alone.
  Qed.
End mixed.

Lemma mixed_any bad A req (C : service bad A req) (Hm : modest bad (half req)) b ty k ops w : (forall t, 0 < t_size (ty t)) ->
  place b (N.of_nat k * a_size A) w ->
  csession_ok A b (xstep A b ty k) (xkill A b) (xcheck ty k) bad k ∅ ops w.
Proof.
  intros Hty.
  assert (H1 : forall n, half req n = true -> req n = true). { intros n H. by apply andb_true_iff in H as [? _]. }
  apply (mixed_session (service_less (half req) C H1 Hm) b ty k Hty).
  intros n H. apply andb_true_iff in H as [_ H]. by apply N.ltb_lt.
Qed.

Lemma mixed_tree pl e b ty k ops w :
  pl <> PPosix -> wf e = true -> (forall t, 0 < t_size (ty t)) -> place b (N.of_nat k * esize e) w ->
  csession_ok (den pl e) b (xstep (den pl e) b ty k) (xkill (den pl e) b) (xcheck ty k) (unsupported (half (ereq pl e))) k ∅ ops w.
Proof.
  intros Hpl Hwf Hty Hp. destruct (tree_service pl e (half (ereq pl e)) Hpl Hwf (half_le _)) as [C].
  apply (mixed_any _ _ _ C (modest_half _)); [done|]. by rewrite den_size.
Qed.
