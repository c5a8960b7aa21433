(** The heap that containers of several types hold. *)
From iris.proofmode Require Import tactics.
From Verif Require Import Base Mem Sep Wp AlignedMalloc Allocators Checked CheckedProofs Tree Client Contract Service TreeProofs
  AllocSpec AllocProofs Env EnvProofs Vector RepProofs VectorProofs Array ArrayProofs HeapPure Heap HeapSpec TreeService HeapProofs HeapFacts
  Mixed MixedProofs Budget Books Hold HoldProofs HoldExact.

Local Open Scope N_scope.

Lemma plus_perm (l l' : list nat) : l ≡ₚ l' -> fold_right Nat.add 0%nat l = fold_right Nat.add 0%nat l'.
Proof. induction 1; cbn; lia. Qed.

Section mixed.
  Context (pl : platform) (e : aexp) (ty : nat -> ctype) (k : nat) (Hty : forall t, 0 < t_size (ty t)).

  Lemma type_blocks t x y B : 0 < t_size t -> xrel k t x y B ->
    length B = type_stored x /\ sum (map (fun x => cost pl e (snd (bsize (snd x)))) B) = type_charged pl e x.
  Proof.
    intros Hsz. unfold xrel. destruct t as [sz|sz|sz T comp eqv], x as [sz' vs|sz' vs|sz' T' vs], y as [m|m|m]; try done; cbn [t_size] in Hsz.
    - intros (->&Z&->&_&HR&->). cbn [type_stored type_charged]. rewrite stored_fmap charged_fmap.
      eapply stored_blocks; [exact HR|]. intros [x es] Hr. unfold one. cbn [fst snd compose vec_of v_beg v_max].
      destruct (N.eqb_spec (s_data x) 0), (decide _); try done. eexists. split; [done|]. cbn [snd].
      rewrite (concat_length (N.to_nat sz)); [|apply Hr]. pose proof (r_len _ _ _ Hr). cbn [fst snd] in *. nia.
    - intros (->&HT&Z&->&->&HR&->). cbn [type_stored type_charged]. rewrite stored_fmap charged_fmap.
      eapply (stored_blocks _ _ _ _ _ (fun y => rep sz (set_seq 0 k) y /\ tight (fst y))).
      { intros c y Hy. split; [by apply (HR c)|]. apply (HT c). by rewrite lookup_fmap Hy. }
      intros [x es] [Hr Ht]. unfold one, tight in *. cbn [fst snd compose arr_of r_beg r_end] in *.
      destruct (N.eqb_spec (s_data x) 0), (decide _); try done. eexists. split; [done|]. cbn [snd].
      rewrite (concat_length (N.to_nat sz)); [|apply Hr]. pose proof (r_len _ _ _ Hr). cbn [fst snd] in *. nia.
    - intros (->&->&Z&->&_&HR&->). cbn [type_stored type_charged]. rewrite stored_fmap charged_fmap.
      eapply stored_blocks; [exact HR|]. intros [x es] Hr. unfold hone. cbn [fst snd compose heap_of h_beg h_cap].
      destruct (N.eqb_spec (p_data x) 0), (decide _); try done. eexists. split; [done|]. unfold hblk. cbn [fst snd].
      rewrite (HeapProofs.cells_length (req := half (ereq pl e))); [|done| |apply Hr];
        [|intros n' H'; apply andb_true_iff in H' as [_ H']; by apply N.ltb_lt]. pose proof (hr_len _ _ _ _ Hr). cbn [fst snd] in *. by f_equal.
  Qed.

  Lemma all_blocks (Z : gmap nat knot) : map_Forall (fun t z => xrel k (ty t) (k_x z) (k_y z) (k_b z)) Z ->
    length (allb Z) = all_stored (k_x <$> Z) /\
    sum (map (fun x => cost pl e (snd (bsize (snd x)))) (allb Z)) = all_charged pl e (k_x <$> Z).
  Proof.
    intros HZ%map_Forall_to_list. unfold all_stored, all_charged, allb.
    erewrite plus_perm; [|apply Permutation_map, map_to_list_fmap].
    erewrite (sum_perm (map _ (map_to_list (k_x <$> Z)))); [|apply Permutation_map, map_to_list_fmap].
    induction HZ as [|[t z] l Hz Hl [IH1 IH2]]; [done|]. cbn [flat_map fmap list_fmap prod_map map fold_right snd].
    rewrite app_length map_app sum_app. cbn in Hz. destruct (type_blocks _ _ _ _ (Hty t) Hz) as [H1 H2].
    cbn [fmap list_fmap] in IH1, IH2. split; [|unfold sum in *; cbn [fold_right]]; lia.
  Qed.

  Lemma mixed_hold b ops w os E xs w1 e1 : pl <> PPosix -> wf e = true -> lean e = true -> place b (N.of_nat k * esize e) w ->
    crun_from (den pl e) b (xstep (den pl e) b ty k) k ops w = Ok (os, (E, xs)) w1 e1 ->
    existsb (unsupported (half (ereq pl e))) e1 = false ->
    (size (mtab (st w1)) <= size (mtab (st w)) + k * spare e + all_stored xs)%nat.
  Proof.
    intros Hpl Hwf Hl Hp Hrun Hbad. destruct (lean_service pl e (half (ereq pl e)) Hpl Hwf Hl (half_le _)) as [CA HV].
    rewrite -(den_size pl) in Hp.
    eapply (crun_hold CA b (spare e) HV (xstep (den pl e) b ty k) (xcheck ty k) ∅ k (xinv CA b ty k)); try done.
    - intros E'. rewrite inv_alone. iIntros "H". iExists ∅. unfold allb. rewrite map_to_list_empty. iFrame "H". iPureIntro.
      rewrite !fmap_empty. split_and!; [done|done|apply map_Forall_empty].
    - intros o E' vs' s. apply xstep_spec; [done|]. intros n H. apply andb_true_iff in H as [_ H]. by apply N.ltb_lt.
    - intros E' vs' s. iIntros "(%Z & %HZ & H)". destruct HZ as (->&_&HR). iExists _. rewrite inv_alone. iFrame "H". iPureIntro.
      by destruct (all_blocks Z HR) as [-> _].
  Qed.

  Lemma mixed_exact b ops w os E xs w1 e1 : pl <> PPosix -> wf e = true -> solid e = true -> place b (N.of_nat k * esize e) w ->
    crun_from (den pl e) b (xstep (den pl e) b ty k) k ops w = Ok (os, (E, xs)) w1 e1 ->
    existsb (unsupported (half (ereq pl e))) e1 = false ->
    size (mtab (st w1)) = (size (mtab (st w)) + k * spare e + all_stored xs)%nat /\
    total (mtab (st w1)) = total (mtab (st w)) + N.of_nat k * base pl e + all_charged pl e xs.
  Proof.
    intros Hpl Hwf Hl Hp Hrun Hbad. destruct (solid_service pl e (half (ereq pl e)) Hpl Hwf Hl (half_le _)) as [CA HV].
    rewrite -(den_size pl) in Hp.
    eapply (crun_exact CA b (spare e) (base pl e) (cost pl e) HV (xstep (den pl e) b ty k) (xcheck ty k) ∅ k (xinv CA b ty k)
      _ _ all_stored (all_charged pl e)); try done.
    - intros E' vs' s. iIntros "(%Z & %HZ & H)". destruct HZ as (->&_&HR). iExists _. rewrite inv_alone. iFrame "H". iPureIntro.
      exact (all_blocks Z HR).
    Unshelve.
    + intros E'. rewrite inv_alone. iIntros "H". iExists ∅. unfold allb. rewrite map_to_list_empty. iFrame "H". iPureIntro.
      rewrite !fmap_empty. split_and!; [done|done|apply map_Forall_empty].
    + intros o E' vs' s. apply xstep_spec; [done|]. intros n H. apply andb_true_iff in H as [_ H]. by apply N.ltb_lt.
  Qed.
End mixed.
