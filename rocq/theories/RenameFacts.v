(** Consequences for whole programs, and examples. *)
From iris.proofmode Require Import tactics.
From Verif Require Import Base Mem Bits AlignedMalloc Allocators Checked Tree Client AllocSpec AllocProofs Env Vector Array HeapPure Heap Mixed
  ContFacts ContExamples HeapExamples Rename RenameProofs RenameCont.

Local Open Scope N_scope.

Lemma obr_renamed f os os' : Forall2 (obr f) os os' -> Forall2 (renamed f) os os'.
Proof. intros H. eapply Forall2_impl; [exact H|]. by intros ?? []. Qed.
Lemma obr_map f os os' : Inj (=) (=) f -> Forall2 (obr f) os os' -> os' = map (robs f) os.
Proof. intros Hf. induction 1 as [|ob ob' os os' [_ Hob] _ IH]; cbn; [done|]. by rewrite IH (Hob Hf). Qed.
Lemma ren_natural f m m' : ren f (Forall2 (obr f)) m m' -> natural f m m'.
Proof.
  intros H w. specialize (H w). destruct (m w) as [os w1 e|u e].
  - destruct H as (os'&E&Hos). split.
    + intros ??? [= <- <- <-]. exists os'. split; [done|by apply obr_renamed].
    + intros Hf. rewrite E (obr_map f os os' Hf Hos). done.
  - destruct H as (_&Hi). split; [done|]. intros Hf. by rewrite Hi.
Qed.
Lemma renamed_ops {O O'} (g : O -> O') ops : Forall2 (fun o o' => o' = g o) ops (map g ops).
Proof. induction ops; constructor; done. Qed.

Lemma ren_good f {A X} (m m' : M (cobs * (A * gmap nat X))) : ren f (rst f) m m' ->
  ren f (fun x x' => rst f x x' /\ map_Forall (fun _ _ => True) (snd (snd x))) m m'.
Proof. intros H. eapply ren_impl; [exact H|]. intros [? [? ?]] ? ?. by split. Qed.

Section tree.
  Context (f : value -> value) (pl : platform) (e : aexp) (b : N).
  Local Notation A := (den pl e).

  Lemma ren_vector sz k ops : ren f (Forall2 (obr f))
    (csession A b (vstep A b sz k) (release A b sz) k ops) (csession A b (vstep A b sz k) (release A b sz) k (map (rvop f) ops)).
  Proof.
    pose proof (tree_ren f pl e). eapply (ren_csession f A) with (RO := fun o o' => o' = rvop f o) (P := fun _ => True); [done| | |apply renamed_ops].
    - intros o ? q -> _. by apply ren_good, ren_vstep.
    - intros. by apply ren_release.
  Qed.
  Lemma ren_array sz k ops : ren f (Forall2 (obr f))
    (csession A b (astep A b sz k) (arelease A b sz) k ops) (csession A b (astep A b sz k) (arelease A b sz) k (map (raop f) ops)).
  Proof.
    pose proof (tree_ren f pl e). eapply (ren_csession f A) with (RO := fun o o' => o' = raop f o) (P := fun _ => True); [done| | |apply renamed_ops].
    - intros o ? q -> _. by apply ren_good, ren_astep.
    - intros. by apply ren_arelease.
  Qed.
End tree.

Lemma natural_vector f pl e b sz k ops :
  natural f (csession (den pl e) b (vstep (den pl e) b sz k) (release (den pl e) b sz) k ops)
            (csession (den pl e) b (vstep (den pl e) b sz k) (release (den pl e) b sz) k (map (rvop f) ops)).
Proof. apply ren_natural, ren_vector. Qed.
Lemma natural_array f pl e b sz k ops :
  natural f (csession (den pl e) b (astep (den pl e) b sz k) (arelease (den pl e) b sz) k ops)
            (csession (den pl e) b (astep (den pl e) b sz k) (arelease (den pl e) b sz) k (map (raop f) ops)).
Proof. apply ren_natural, ren_array. Qed.
Lemma natural_heap f pl e b sz T T' comp comp' eqv eqv' k ops :
  relt f T T' -> rcomp f comp comp' -> reqv f eqv eqv' ->
  natural f (csession (den pl e) b (hstep (den pl e) b sz T comp eqv k) (hrelease (den pl e) b sz T) k ops)
            (csession (den pl e) b (hstep (den pl e) b sz T' comp' eqv' k) (hrelease (den pl e) b sz T') k (map (rhop f) ops)).
Proof.
  intros HT Hc He. pose proof (tree_ren f pl e). apply ren_natural.
  eapply (ren_csession f (den pl e)) with (RO := fun o o' => o' = rhop f o) (P := fun _ => True); [done| | |apply renamed_ops].
  - intros o ? q -> _. by apply ren_good, ren_hstep.
  - intros. by apply ren_hrelease.
Qed.
Lemma natural_mixed f pl e b ty ty' k ops :
  (forall t, rctype f (ty t) (ty' t)) ->
  natural f (csession (den pl e) b (xstep (den pl e) b ty k) (xkill (den pl e) b) k ops)
            (csession (den pl e) b (xstep (den pl e) b ty' k) (xkill (den pl e) b) k (map (fun o => (fst o, rcop f (snd o))) ops)).
Proof.
  intros Hty. pose proof (tree_ren f pl e) as HA. apply ren_natural.
  eapply (ren_csession f (den pl e)) with (RO := fun o o' => o' = (fst o, rcop f (snd o)))
    (P := fun x => match x with XHeap _ T _ => relt f T T | _ => True end); [done| | |apply renamed_ops].
  - intros [t o] ? [E xs] -> Hg. cbn [fst snd] in *. unfold xstep. specialize (Hty t).
    assert (forall q : env (den pl e) * gmap nat objs, map_Forall (fun _ x => match x with XHeap _ T _ => relt f T T | _ => True end) (snd q) ->
      ren f (fun x x' => rst f x x' /\ map_Forall (fun _ x => match x with XHeap _ T _ => relt f T T | _ => True end) (snd (snd x)))
        (ret (CUnit, q)) (ret (CUnit, q))) as Hskip.
    { intros q Hq. apply ren_ret. by split. }
    destruct (ty t) as [sz|sz|sz T comp eqv], (ty' t) as [sz'|sz'|sz' T' comp' eqv']; try done; cbn in Hty.
    + subst sz'. destruct o as [o|o|o]; cbn [rcop]; try by apply Hskip.
      eapply ren_bind; [by apply ren_vstep|]. intros [ob [E1 m]] [ob' [E1' m']] [Hob Hq]. cbn in Hob, Hq. injection Hq as -> ->.
      apply ren_ret. split; [by split|]. by apply map_Forall_insert_2.
    + subst sz'. destruct o as [o|o|o]; cbn [rcop]; try by apply Hskip.
      eapply ren_bind; [by apply ren_astep|]. intros [ob [E1 m]] [ob' [E1' m']] [Hob Hq]. cbn in Hob, Hq. injection Hq as -> ->.
      apply ren_ret. split; [by split|]. by apply map_Forall_insert_2.
    + destruct Hty as (->&->&HT&Hc&He). destruct o as [o|o|o]; cbn [rcop]; try by apply Hskip.
      eapply ren_bind; [by apply ren_hstep|]. intros [ob [E1 m]] [ob' [E1' m']] [Hob Hq]. cbn in Hob, Hq. injection Hq as -> ->.
      apply ren_ret. split; [by split|]. by apply map_Forall_insert_2.
  - intros [sz m|sz m|sz T m] E Hx; cbn [xkill]; (apply (ren_kill_all f (den pl e)) with (P := fun _ => True); [|by apply Forall_true]);
      intros x E' _; [by apply ren_release|by apply ren_arelease|by apply ren_hrelease].
Qed.

(** * Two programs that differ in values only *)
Global Instance value_countable : Countable value :=
  inj_countable' (fun v => match v with Val n => Some n | Moved => None end) (fun o => match o with Some n => Val n | None => Moved end)
    ltac:(by intros []).

Definition both (x y : value) : value := Val (Npos (encode (x, y))).
Definition left_ (v : value) : value :=
  match v with Val (Npos p) => match decode (A:=value * value) p with Some (x, _) => x | None => Moved end | _ => Moved end.
Definition right_ (v : value) : value :=
  match v with Val (Npos p) => match decode (A:=value * value) p with Some (_, y) => y | None => Moved end | _ => Moved end.
Lemma left_both x y : left_ (both x y) = x.
Proof. unfold left_, both. by rewrite (decode_encode (A:=value * value)). Qed.
Lemma right_both x y : right_ (both x y) = y.
Proof. unfold right_, both. by rewrite (decode_encode (A:=value * value)). Qed.
Lemma pair_list l l' : length l = length l' -> exists l0, map left_ l0 = l /\ map right_ l0 = l'.
Proof.
  revert l'. induction l as [|x l IH]; intros [|y l'] H; try done; [by exists []|]. injection H as H.
  destruct (IH _ H) as (l0&<-&<-). exists (both x y :: l0). cbn [List.map]. by rewrite left_both right_both.
Qed.
Lemma pair_ref r r' : like_ref r r' -> exists r0, rref left_ r0 = r /\ rref right_ r0 = r'.
Proof.
  destruct r as [x|c i], r' as [y|c' i']; cbn; intros H; try done; [|by exists (RElem c i); rewrite -H].
  exists (RVal (both x y)). cbn [rref]. by rewrite left_both right_both.
Qed.
Lemma pair_range g g' : like_range g g' -> exists g0, rrange left_ g0 = g /\ rrange right_ g0 = g'.
Proof.
  destruct g as [l|c i j], g' as [l'|c' i' j']; cbn; intros H; try done; [|by exists (GElems c i j); rewrite -H].
  destruct (pair_list _ _ H) as (l0&<-&<-). by exists (GVals l0).
Qed.
Lemma pair_vop o o' : like_vop o o' -> exists o0, rvop left_ o0 = o /\ rvop right_ o0 = o'.
Proof.
  intros H. destruct o, o'; cbn in H; try done; try (match type of H with ?x = _ => rewrite -H; by exists x end);
    destruct_and?; subst;
    repeat match goal with
    | H : like_ref _ _ |- _ => destruct (pair_ref _ _ H) as (?&<-&<-); clear H
    | H : like_range _ _ |- _ => destruct (pair_range _ _ H) as (?&<-&<-); clear H
    | H : length _ = length _ |- _ => destruct (pair_list _ _ H) as (?&<-&<-); clear H
    end.
  all: first [by (eexists (VNewFill _ _ _ _); split; reflexivity) | by (eexists (VNewList _ _ _); split; reflexivity) | by (eexists (VNewRange _ _ _); split; reflexivity) | by (eexists (VSet _ _ _); split; reflexivity) | by (eexists (VPush _ _); split; reflexivity) | by (eexists (VPushRange _ _); split; reflexivity)].
Qed.
Lemma pair_aop o o' : like_aop o o' -> exists o0, raop left_ o0 = o /\ raop right_ o0 = o'.
Proof.
  intros H. destruct o, o'; cbn in H; try done; try (match type of H with ?x = _ => rewrite -H; by exists x end);
    destruct_and?; subst;
    repeat match goal with
    | H : like_ref _ _ |- _ => destruct (pair_ref _ _ H) as (?&<-&<-); clear H
    | H : like_range _ _ |- _ => destruct (pair_range _ _ H) as (?&<-&<-); clear H
    | H : length _ = length _ |- _ => destruct (pair_list _ _ H) as (?&<-&<-); clear H
    end.
  all: first [by (eexists (ANewFill _ _ _ _); split; reflexivity) | by (eexists (ANewList _ _ _); split; reflexivity) | by (eexists (ANewRange _ _ _); split; reflexivity) | by (eexists (ASet _ _ _); split; reflexivity) | by (eexists (AFrom _ _); split; reflexivity)].
Qed.
Lemma pair_ops {O} (like : O -> O -> Prop) (r1 r2 : O -> O) ops ops' :
  (forall o o', like o o' -> exists o0, r1 o0 = o /\ r2 o0 = o') -> Forall2 like ops ops' ->
  exists ops0, map r1 ops0 = ops /\ map r2 ops0 = ops'.
Proof.
  intros H. induction 1 as [|o o' ops ops' Ho _ (l&<-&<-)]; [by exists []|]. destruct (H _ _ Ho) as (o0&<-&<-). by exists (o0 :: l).
Qed.

Lemma rworld_id f w : no_elements w -> rworld f w = w.
Proof.
  intros H. destruct w as [[m t] o k]. unfold rworld. cbn. f_equal. f_equal. apply map_eq. intros i. rewrite lookup_fmap.
  destruct (m !! i) as [c|] eqn:E; [|done]. cbn. f_equal. specialize (H i c E). by destruct c.
Qed.
Lemma rworld_like f g w : like_world (rworld f w) (rworld g w).
Proof. split_and!; try done. intros i. rewrite !rlookup. destruct (mem (st w) !! i); cbn; split; eauto; by intros []. Qed.
Lemma obr_like f g os os1 os2 : Forall2 (obr f) os os1 -> Forall2 (obr g) os os2 -> Forall2 like_obs os1 os2.
Proof.
  intros H. revert os2. induction H as [|ob ob1 os os1 [H1 _] _ IH]; intros os2 H2; inversion H2 as [|? ob2 ? os2' [H3 _]]; subst; constructor; [|by apply IH].
  destruct ob as [| | | |[x|]]; cbn in H1, H3; subst; try done. by destruct H1 as [? ->], H3 as [? ->].
Qed.
Lemma like_runs bad m m1 m2 f g w : ren f (Forall2 (obr f)) m m1 -> ren g (Forall2 (obr g)) m m2 -> no_elements w ->
  match m w with Ok _ _ _ => True | Err _ evs => existsb bad evs = true end -> like_course bad (m1 w) (m2 w).
Proof.
  intros H1 H2 Hw Hm. specialize (H1 w). specialize (H2 w). rewrite rworld_id // in H1. rewrite rworld_id // in H2.
  destruct (m w) as [os w0 e|u e].
  - destruct H1 as (os1&->&Ho1), H2 as (os2&->&Ho2). split; [done|]. intros _. do 5 eexists. split_and!; [done|done| |].
    + by eapply obr_like.
    + apply rworld_like.
  - destruct H1 as ((e1&E1)&_), H2 as ((e2&E2)&_). unfold like_course. rewrite E1 E2 !existsb_app Hm. done.
Qed.

Lemma like_vector pl e b sz k ops ops' w :
  pl <> PPosix -> wf e = true -> 0 < sz -> place b (N.of_nat k * esize e) w -> no_elements w -> Forall2 like_vop ops ops' ->
  let run ops := csession (den pl e) b (vstep (den pl e) b sz k) (release (den pl e) b sz) k ops w in
  like_course (unsupported (ereq pl e)) (run ops) (run ops').
Proof.
  intros Hpl Hwf Hsz Hp Hw H. destruct (pair_ops _ _ _ _ _ pair_vop H) as (ops0&<-&<-). cbn zeta.
  eapply like_runs; [apply ren_vector|apply ren_vector|done|]. pose proof (vector_tree pl e b sz k ops0 w Hpl Hwf Hsz Hp) as Hs.
  unfold csession_ok in Hs. by destruct (csession _ _ _ _ _ _ _).
Qed.
Lemma like_array pl e b sz k ops ops' w :
  pl <> PPosix -> wf e = true -> 0 < sz -> place b (N.of_nat k * esize e) w -> no_elements w -> Forall2 like_aop ops ops' ->
  let run ops := csession (den pl e) b (astep (den pl e) b sz k) (arelease (den pl e) b sz) k ops w in
  like_course (unsupported (ereq pl e)) (run ops) (run ops').
Proof.
  intros Hpl Hwf Hsz Hp Hw H. destruct (pair_ops _ _ _ _ _ pair_aop H) as (ops0&<-&<-). cbn zeta.
  eapply like_runs; [apply ren_array|apply ren_array|done|]. pose proof (array_tree pl e b sz k ops0 w Hpl Hwf Hsz Hp) as Hs.
  unfold csession_ok in Hs. by destruct (csession _ _ _ _ _ _ _).
Qed.

(** * Examples *)
Definition twice (v : value) : value := match v with Val n => Val (2 * n + 1) | Moved => Moved end.
Lemma twice_inj : Inj (=) (=) twice.
Proof. intros [a|] [b|]; cbn [twice]; intros H; try done. assert (2 * a + 1 = 2 * b + 1) by congruence. f_equal. lia. Qed.
Lemma twice_less : rcomp twice cmps cmps.
Proof.
  assert (forall x y, less (twice x) (twice y) = less x y) as H.
  { intros [a|] [b|]; cbn [less twice]; try done. apply eq_iff_eq_true. rewrite !N.ltb_lt. lia. }
  intros [|[|q]] x y; cbn; [apply H|apply H|done].
Qed.
Lemma twice_equal : reqv twice equal equal.
Proof. intros [a|] [b|]; cbn [equal twice]; try done. apply eq_iff_eq_true. rewrite !N.eqb_eq. lia. Qed.
Lemma twice_object : relt twice object object.
Proof. done. Qed.

Definition some_vector (x y : N) : list vop :=
  [VNewList 0 [Val x; Val y; Val x] 0; VPush 0 (RVal (Val y)); VPushRange 0 (GElems 0 0 0); VErase 0 0; VGet 0 0; VGet 0 1; VCap 0; VData 0;
   VNewFill 1 5 (RElem 0 2) 0; VGet 1 4; VData 1].
Definition some_array (x y : N) : list aop :=
  [ANewList 0 [Val x; Val y; Val x] 0; AFrom 0 (GVals [Val y; Val x; Val x; Val y]); AGet 0 0; AGet 0 1; ASize 0; AData 0; ANewFill 1 5 (RElem 0 2) 0;
   AGet 1 4; AData 1].
Definition some_heap (x y : N) : list hop :=
  [HNewList 0 [Val x; Val y] 0 0; HInsert 0 (RVal (Val y)); HInsert 0 (RElem 0 2); HFind 0 (RVal (Val x)); HPop 0; HPeek 0; HCap 0; HData 0].

Lemma some_vector_twice : map (rvop twice) (some_vector 4 7) = some_vector 9 15.
Proof. done. Qed.
Lemma some_array_twice : map (raop twice) (some_array 4 7) = some_array 9 15.
Proof. done. Qed.
Lemma some_heap_twice : map (rhop twice) (some_heap 4 2) = some_heap 9 5.
Proof. done. Qed.

Local Notation out r := (seen (fun _ => false) r).
Lemma natural_vector_use :
  map (rvop twice) (some_vector 4 7) = some_vector 9 15 /\
  out (vprog mixed 4 1 (some_vector 4 7) (w_raw 0)) =
    Some ([CUnit; CNum 3; CNum 4; CNum 0; CVal (Some (Val 7)); CVal (Some (Val 4)); CNum 4; CPtr 131072; CUnit; CVal (Some (Val 7)); CPtr 196608], false) /\
  out (vprog mixed 4 1 (some_vector 9 15) (w_raw 0)) =
    Some ([CUnit; CNum 3; CNum 4; CNum 0; CVal (Some (Val 15)); CVal (Some (Val 9)); CNum 4; CPtr 131072; CUnit; CVal (Some (Val 15)); CPtr 196608], false).
Proof. split; [done|]. split; by vm_compute. Qed.
Lemma natural_heap_use :
  relt twice object object /\ rcomp twice cmps cmps /\ reqv twice equal equal /\ map (rhop twice) (some_heap 4 2) = some_heap 9 5 /\
  out (hprog mixed 4 object 1 (some_heap 4 2) (w_raw 0)) =
    Some ([CUnit; CNum 2; CNum 1; CNum 3; CVal (Some (Val 2)); CVal (Some (Val 2)); CNum 4; CPtr 131072], false) /\
  out (hprog mixed 4 object 1 (some_heap 9 5) (w_raw 0)) =
    Some ([CUnit; CNum 2; CNum 1; CNum 3; CVal (Some (Val 5)); CVal (Some (Val 5)); CNum 4; CPtr 131072], false).
Proof. split; [done|]. split; [apply twice_less|]. split; [apply twice_equal|]. split; [done|]. split; by vm_compute. Qed.
Lemma natural_mixed_use :
  forall t, rctype twice (match t with O => TVec 4 | 1%nat => TArr 8 | _ => THeap 4 object cmps equal end)
    (match t with O => TVec 4 | 1%nat => TArr 8 | _ => THeap 4 object cmps equal end).
Proof. intros [|[|t]]; [done|done|]. split_and!; try done; [apply twice_less|apply twice_equal]. Qed.

Lemma w_raw_no_elements n : no_elements (w_raw n).
Proof.
  intros i c. unfold w_raw. cbn. generalize 4096. induction n as [|n IH]; intros a; cbn; [done|].
  rewrite lookup_insert_Some. intros [[_ <-]|[_ H]]; [done|]. by eapply IH.
Qed.
Lemma like_vector_use :
  wf mixed = true /\ place 4096 (N.of_nat 1 * esize mixed) (w_raw 0) /\ no_elements (w_raw 0) /\
  Forall2 like_vop (some_vector 4 7) (some_vector 1 1) /\
  existsb (unsupported (ereq PMalloc mixed)) (trace (vprog mixed 4 1 (some_vector 4 7) (w_raw 0))) = false /\
  out (vprog mixed 4 1 (some_vector 1 1) (w_raw 0)) =
    Some ([CUnit; CNum 3; CNum 4; CNum 0; CVal (Some (Val 1)); CVal (Some (Val 1)); CNum 4; CPtr 131072; CUnit; CVal (Some (Val 1)); CPtr 196608], false).
Proof.
  split; [done|]. split; [by apply (w_raw_place 0)|]. split; [apply w_raw_no_elements|]. split; [by repeat constructor|]. split; by vm_compute.
Qed.
Lemma like_array_use :
  Forall2 like_aop (some_array 4 7) (some_array 1 1) /\
  existsb (unsupported (ereq PMalloc mixed)) (trace (aprog mixed 4 1 (some_array 4 7) (w_raw 0))) = false /\
  out (aprog mixed 4 1 (some_array 9 15) (w_raw 0)) =
    Some ([CUnit; CUnit; CVal (Some (Val 15)); CVal (Some (Val 9)); CNum 4; CPtr 131072; CUnit; CVal (Some (Val 9)); CPtr 196608], false).
Proof. split; [by repeat constructor|]. split; by vm_compute. Qed.
