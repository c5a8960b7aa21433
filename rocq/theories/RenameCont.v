(** Replacing the values of elements in programs over containers. *)
From iris.proofmode Require Import tactics.
From Verif Require Import Base Mem Bits AlignedMalloc Allocators Checked Tree Client Env Vector Array HeapPure Heap Mixed Rename RenameProofs.

Local Open Scope N_scope.

Section elems.
  Context (f : value -> value).
  Local Notation ren := (ren f).
  Local Notation rcs := (rcs f).
  Local Notation injf := (Inj (=) (=) f).

  Definition rv (v v' : value) : Prop := v' = f v.
  Definition rplace (p : place_of) : place_of := match p with PVal x => PVal (f x) | _ => p end.
  Definition rarray (p : array_of) : array_of := match p with QVals l => QVals (map f l) | _ => p end.

  Lemma rcell_inj : injf -> Inj (=) (=) (rcell f).
  Proof. intros H [] []; cbn; intros E; try done; injection E; try (intros; subst; done); intros ? E2%H; by subst. Qed.

  Lemma rcells_inj : injf -> Inj (=) (=) (map (rcell f)).
  Proof. intros H. pose proof (rcell_inj H). apply (_ : Inj (=) (=) (fmap (M:=list) (rcell f))). Qed.

  Lemma unchunk_ren n cs v : unchunk n cs = Some v -> unchunk n (map (rcell f) cs) = Some (f v).
  Proof.
    destruct cs as [|[] cs]; cbn; try done. destruct (decide _) as [E|]; [|done]. intros [= ->].
    rewrite decide_True //. rewrite (rcs_chunk f n v) -E. done.
  Qed.
  Lemma unchunk_some n cs v : unchunk n cs = Some v -> cs = chunk n v.
  Proof. destruct cs as [|[] cs]; cbn; try done. destruct (decide _) as [E|]; [|done]. by intros [= ->]. Qed.
  Lemma unchunk_inj n cs : injf -> unchunk n (map (rcell f) cs) = f <$> unchunk n cs.
  Proof.
    intros H. destruct (unchunk n cs) as [v|] eqn:E; [by rewrite (unchunk_ren _ _ _ E)|]. destruct cs as [|c cs]; [done|].
    destruct c as [| |v i|]; try done. cbn in E |- *. destruct (decide _) as [|Hn] in E; [done|]. rewrite decide_False //.
    intros E2. apply Hn. rewrite (rcs_chunk f n v) in E2. by apply (rcells_inj H (Frag v i :: cs)) in E2.
  Qed.
  Lemma unochunk_ren n cs v : unochunk n cs = Some v -> unochunk n (map (rcell f) cs) = Some (f v).
  Proof.
    destruct cs as [|[] cs]; cbn; try done. destruct (decide _) as [E|]; [|done]. intros [= ->].
    rewrite decide_True //. rewrite (rcs_ochunk f n v) -E. done.
  Qed.
  Lemma unochunk_inj n cs : injf -> unochunk n (map (rcell f) cs) = f <$> unochunk n cs.
  Proof.
    intros H. destruct (unochunk n cs) as [v|] eqn:E; [by rewrite (unochunk_ren _ _ _ E)|]. destruct cs as [|c cs]; [done|].
    destruct c as [| | |v i]; try done. cbn in E |- *. destruct (decide _) as [|Hn] in E; [done|]. rewrite decide_False //.
    intros E2. apply Hn. rewrite (rcs_ochunk f n v) in E2. by apply (rcells_inj H (Obj v i :: cs)) in E2.
  Qed.
  Lemma dead_ren cs : forallb deadb (map (rcell f) cs) = forallb deadb cs.
  Proof. induction cs as [|[] cs IH]; cbn; [done|by rewrite ?IH..]. Qed.

  Lemma ren_stor n a v : ren eq (stor n a v) (stor n a (f v)).
  Proof. apply ren_wrs, rcs_chunk. Qed.
  Lemma ren_load n a : ren rv (load n a) (load n a).
  Proof.
    unfold load. apply (ren_bind f rcs); [apply ren_rds|]. intros cs ? ->. destruct (unchunk n cs) as [v|] eqn:E.
    - rewrite (unchunk_ren _ _ _ E). by apply ren_ret.
    - apply ren_err. intros H. by rewrite unchunk_inj // E.
  Qed.
  Lemma ren_obj_get n a : ren rv (obj_get n a) (obj_get n a).
  Proof.
    unfold obj_get. apply (ren_bind f rcs); [apply ren_rds|]. intros cs ? ->. destruct (unochunk n cs) as [v|] eqn:E.
    - rewrite (unochunk_ren _ _ _ E). by apply ren_ret.
    - apply ren_err. intros H. by rewrite unochunk_inj // E.
  Qed.
  Lemma ren_obj_set n a v : ren eq (obj_set n a v) (obj_set n a (f v)).
  Proof. unfold obj_set. apply (ren_bind f rv); [apply ren_obj_get|]. intros. apply ren_wrs, rcs_ochunk. Qed.
  Lemma ren_obj_new n a v : ren eq (obj_new n a v) (obj_new n a (f v)).
  Proof.
    unfold obj_new. apply (ren_bind f rcs); [apply ren_rds|]. intros cs ? ->. rewrite dead_ren.
    destruct (forallb deadb cs); [apply ren_wrs, rcs_ochunk|apply ren_ubm].
  Qed.
  Lemma ren_obj_del n a : ren eq (obj_del n a) (obj_del n a).
  Proof. unfold obj_del. apply (ren_bind f rv); [apply ren_obj_get|]. intros. apply ren_wrs, rcs_undef. Qed.
  Lemma ren_obj_none a n : ren eq (obj_none a n) (obj_none a n).
  Proof.
    unfold obj_none. apply (ren_bind f rcs); [apply ren_rds|]. intros cs ? ->. rewrite dead_ren.
    destruct (forallb deadb cs); [by apply ren_ret|apply ren_ubm].
  Qed.

  Lemma ren_assign sz d src : ren eq (assign sz d src) (assign sz d (rplace src)).
  Proof.
    destruct src as [x|a]; cbn; [apply ren_stor|]. apply (ren_bind f rcs); [apply ren_rds|]. intros cs ? ?. by apply ren_wrs.
  Qed.
  Lemma ren_copy_in sz d src : ren eq (copy_in sz d src) (copy_in sz d (rarray src)).
  Proof. destruct src as [l|a n]; cbn; [apply ren_wrs, rcs_chunks|apply ren_memcpy]. Qed.
  Lemma rarray_length src : array_length (rarray src) = array_length src.
  Proof. destruct src; cbn; [by rewrite map_length|done]. Qed.
  Lemma ren_fill_n sz p n src : ren eq (fill_n sz p n src) (fill_n sz p n (rplace src)).
  Proof.
    revert p. induction n as [|n IH]; intros p; cbn [fill_n]; [apply ren_ret_eq|].
    apply ren_bind_eq; [apply ren_assign|]. intros _. apply IH.
  Qed.
  Lemma ren_store_list sz p l : ren eq (store_list sz p l) (store_list sz p (map f l)).
  Proof.
    revert p. induction l as [|x l IH]; intros p; cbn [store_list List.map]; [apply ren_ret_eq|].
    apply ren_bind_eq; [apply (ren_assign sz p (PVal x))|]. intros _. apply IH.
  Qed.

  (** What a step delivers. *)
  Definition obr (ob ob' : cobs) : Prop := renamed f ob ob' /\ (injf -> ob' = robs f ob).
  Definition rst {Q} (x x' : cobs * Q) : Prop := obr (fst x) (fst x') /\ snd x = snd x'.

  Lemma obr_same ob : match ob with CVal _ => False | _ => True end -> obr ob ob.
  Proof. destruct ob; done. Qed.
  Lemma obr_val v : obr (CVal (Some v)) (CVal (Some (f v))).
  Proof. done. Qed.
  Lemma obr_chunk n cs : obr (CVal (unchunk n cs)) (CVal (unchunk n (map (rcell f) cs))).
  Proof.
    split; [|intros H; cbn; by rewrite unchunk_inj]. destruct (unchunk n cs) as [v|] eqn:E; cbn; [|by eexists].
    by rewrite (unchunk_ren _ _ _ E).
  Qed.
  Lemma ren_done {Q} ob (q : Q) : match ob with CVal _ => False | _ => True end -> ren rst (ret (ob, q)) (ret (ob, q)).
  Proof. intros H. apply ren_ret. split; [by apply obr_same|done]. Qed.
End elems.

Lemma ren_impl f {X Y} (R S : X -> Y -> Prop) m m' : ren f R m m' -> (forall a a', R a a' -> S a a') -> ren f S m m'.
Proof.
  intros H HS w. specialize (H w). destruct (m w); [|done]. destruct H as (a'&?&?). eauto.
Qed.

Section env.
  Context (f : value -> value) (A : alloc) (HA : aren f A) (b : N).
  Local Notation ren := (ren f).

  Lemma ren_te_alloc sz h n E : ren eq (te_alloc A b sz h n E) (te_alloc A b sz h n E).
  Proof. unfold te_alloc, ta_alloc. destruct HA. ren. Qed.
  Lemma ren_te_free sz h p n E : ren eq (te_free A b sz h p n E) (te_free A b sz h p n E).
  Proof. unfold te_free, ta_free. destruct HA. ren. Qed.
  Lemma ren_te_cd c h q act act' E : ren eq act act' -> ren eq (te_cd A b c h q act E) (te_cd A b c h q act' E).
  Proof.
    intros H. unfold te_cd, traits_cd. destruct (E !! h); [|apply ren_ubm]. apply ren_bind_eq; [|ren].
    destruct (a_cd A) as [o|] eqn:Eo; [by apply (an_cd _ _ HA)|]. apply ren_bind_eq; [done|]. ren.
  Qed.
  Lemma ren_init_all h k E : ren eq (init_all A b h k E) (init_all A b h k E).
  Proof.
    revert h E. induction k as [|k IH]; intros h E; cbn [init_all]; [apply ren_ret_eq|]. unfold te_init. destruct HA. ren.
  Qed.
  Lemma ren_dtor_all h k E : ren eq (dtor_all A b h k E) (dtor_all A b h k E).
  Proof.
    revert h E. induction k as [|k IH]; intros h E; cbn [dtor_all]; [apply ren_ret_eq|]. unfold te_dtor. destruct HA. ren.
  Qed.

  Section session.
    Context {X O O' : Type} (RO : O -> O' -> Prop) (P : X -> Prop).
    Local Notation state := (env A * gmap nat X)%type.
    Local Notation good := (fun q : state => map_Forall (fun _ => P) (snd q)).
    Context (stp : O -> state -> M (cobs * state)) (stp' : O' -> state -> M (cobs * state)).
    Context (kill kill' : X -> env A -> M (env A)).
    Context (Hstp : forall o o' q, RO o o' -> good q -> ren (fun x x' => rst f x x' /\ good (snd x)) (stp o q) (stp' o' q)).
    Context (Hkill : forall x E, P x -> ren eq (kill x E) (kill' x E)).

    Lemma ren_crun ops ops' q : Forall2 RO ops ops' -> good q ->
      ren (fun x x' => Forall2 (obr f) (fst x) (fst x') /\ snd x = snd x' /\ good (snd x)) (crun A stp ops q) (crun A stp' ops' q).
    Proof.
      intros H. revert q. induction H as [|o o' ops ops' Ho _ IH]; intros q Hq; cbn [crun].
      - apply ren_ret. split; [constructor|done].
      - eapply ren_bind; [by apply Hstp|]. intros [ob q1] [ob' q1'] [[Hob Hq1] Hg]. cbn in Hob, Hq1, Hg. subst q1'.
        eapply ren_bind; [by apply IH|]. intros [os q2] [os' q2'] [Hos Hq2]. apply ren_ret. split; [by constructor|done].
    Qed.
    Lemma ren_kill_all xs E : Forall (fun x => P (snd x)) xs -> ren eq (kill_all A kill xs E) (kill_all A kill' xs E).
    Proof.
      intros H. revert E. induction H as [|[i x] xs Hx _ IH]; intros E; cbn [kill_all]; [apply ren_ret_eq|].
      apply ren_bind_eq; [by apply Hkill|]. apply IH.
    Qed.
    Lemma ren_csession k ops ops' : Forall2 RO ops ops' ->
      ren (Forall2 (obr f)) (csession A b stp kill k ops) (csession A b stp' kill' k ops').
    Proof.
      intros H. unfold csession. apply ren_bind_eq; [apply ren_init_all|]. intros E.
      eapply ren_bind; [apply ren_crun; [done|apply map_Forall_empty]|].
      intros [os [E1 vs]] [os' q'] (Hos&Hq&Hg). cbn in Hos, Hq, Hg. subst q'.
      apply ren_bind_eq.
      { apply ren_kill_all, Forall_forall. intros [i x] Hi%elem_of_list_In%elem_of_map_to_list. exact (Hg i x Hi). }
      intros E2.
      apply ren_bind_eq; [apply ren_dtor_all|]. intros _. by apply ren_ret.
    Qed.
  End session.
End env.

(** * Vectors *)
Ltac renc :=
  repeat (intros; first
    [ solve [auto with ren]
    | by apply ren_done
    | apply ren_bind_eq
    | match goal with
      | |- ren _ _ (if ?c then _ else _) _ => destruct c
      | |- ren _ _ (match ?x with _ => _ end) _ => destruct x
      | |- ren _ _ (let '(_, _) := ?x in _) _ => destruct x
      end
    | by apply ren_emit ]).
Global Hint Resolve ren_te_alloc ren_te_free ren_assign ren_copy_in ren_fill_n ren_store_list : ren.

Section vector.
  Context (f : value -> value) (A : alloc) (HA : aren f A) (b sz : N).
  Local Notation ren := (ren f).

  Lemma ren_set_size v n E : ren eq (set_size A b sz v n E) (set_size A b sz v n E).
  Proof. unfold set_size. renc. Qed.
  Hint Resolve ren_set_size : ren.
  Lemma ren_expand v n E : ren eq (expand A b sz v n E) (expand A b sz v n E).
  Proof. unfold expand. renc. Qed.
  Lemma ren_new_n h n E : ren eq (new_n A b sz h n E) (new_n A b sz h n E).
  Proof. unfold new_n. renc. Qed.
  Hint Resolve ren_expand ren_new_n : ren.
  Lemma ren_copy_of h o E : ren eq (copy_of A b sz h o E) (copy_of A b sz h o E).
  Proof. unfold copy_of. renc. Qed.
  Lemma ren_release v E : ren eq (release A b sz v E) (release A b sz v E).
  Proof. unfold release. renc. Qed.
  Lemma ren_resize v n E : ren eq (resize A b sz v n E) (resize A b sz v n E).
  Proof. unfold resize. renc. Qed.
  Lemma ren_reserve v n E : ren eq (reserve A b sz v n E) (reserve A b sz v n E).
  Proof. unfold reserve. renc. Qed.
  Lemma ren_push_back v src E : ren eq (push_back A b sz v src E) (push_back A b sz v (rplace f src) E).
  Proof. unfold push_back. renc. Qed.
  Lemma ren_push_back_range v src E : ren eq (push_back_range A b sz v src E) (push_back_range A b sz v (rarray f src) E).
  Proof. unfold push_back_range. rewrite rarray_length. renc. Qed.
  Lemma ren_erase v it : ren eq (erase sz v it) (erase sz v it).
  Proof. unfold erase. renc. Qed.
  Lemma ren_erase_range v i j : ren eq (erase_range sz v i j) (erase_range sz v i j).
  Proof. unfold erase_range. renc. Qed.
  Hint Resolve ren_copy_of ren_release ren_resize ren_reserve ren_push_back ren_push_back_range ren_erase ren_erase_range : ren.

  Lemma locate_ren r vs : locate sz (rref f r) vs = rplace f (locate sz r vs).
  Proof. by destruct r. Qed.
  Lemma locate_range_ren g vs : locate_range sz (rrange f g) vs = rarray f (locate_range sz g vs).
  Proof. by destruct g. Qed.

  Lemma ren_vdo o q : ren (rst f) (vdo A b sz o q) (vdo A b sz (rvop f o) q).
  Proof.
    destruct q as [E vs]. destruct o; cbn [rvop vdo]; rewrite ?locate_ren ?locate_range_ren ?rarray_length ?map_length;
      unfold vassign, vmove_assign; try by renc.
    apply ren_bind_eq; [apply ren_assert|]. intros _. apply (ren_bind f (rcs f)); [apply ren_rds|]. intros cs ? ->.
    apply ren_ret. split; [apply obr_chunk|done].
  Qed.
  Lemma vlegal_ren k m o : vlegal sz k m (rvop f o) = vlegal sz k m o.
  Proof. destruct o as [| | c n [] h| |c [] h| | | | | | | | |c i []| | | | | | |c []|c []| | |]; done. Qed.
  Lemma ren_vstep k o q : ren (rst f) (vstep A b sz k o q) (vstep A b sz k (rvop f o) q).
  Proof. unfold vstep. rewrite vlegal_ren. destruct (vlegal _ _ _ _); [apply ren_vdo|by apply ren_done]. Qed.
End vector.

(** * Arrays *)
Section array.
  Context (f : value -> value) (A : alloc) (HA : aren f A) (b sz : N).
  Local Notation ren := (ren f).

  Lemma ren_anew_n h n E : ren eq (anew_n A b sz h n E) (anew_n A b sz h n E).
  Proof. unfold anew_n. renc. Qed.
  Hint Resolve ren_anew_n : ren.
  Lemma ren_acopy_of h o E : ren eq (acopy_of A b sz h o E) (acopy_of A b sz h o E).
  Proof. unfold acopy_of. renc. Qed.
  Lemma ren_arelease v E : ren eq (arelease A b sz v E) (arelease A b sz v E).
  Proof. unfold arelease. renc. Qed.
  Lemma ren_aresize v n E : ren eq (aresize A b sz v n E) (aresize A b sz v n E).
  Proof. unfold aresize. renc. Qed.
  Lemma ren_afrom v src E : ren eq (afrom A b sz v src E) (afrom A b sz v (rarray f src) E).
  Proof. unfold afrom. rewrite rarray_length. renc. Qed.
  Hint Resolve ren_acopy_of ren_arelease ren_aresize ren_afrom : ren.

  Lemma alocate_ren r vs : alocate sz (rref f r) vs = rplace f (alocate sz r vs).
  Proof. by destruct r. Qed.
  Lemma alocate_range_ren g vs : alocate_range sz (rrange f g) vs = rarray f (alocate_range sz g vs).
  Proof. by destruct g. Qed.

  Lemma ren_ado o q : ren (rst f) (ado A b sz o q) (ado A b sz (raop f o) q).
  Proof.
    destruct q as [E vs]. destruct o; cbn [raop ado]; rewrite ?alocate_ren ?alocate_range_ren ?rarray_length ?map_length;
      unfold aassign, amove_assign; try by renc.
    apply ren_bind_eq; [apply ren_assert|]. intros _. apply (ren_bind f (rcs f)); [apply ren_rds|]. intros cs ? ->.
    apply ren_ret. split; [apply obr_chunk|done].
  Qed.
  Lemma alegal_ren k m o : alegal sz k m (raop f o) = alegal sz k m o.
  Proof. destruct o as [| | c n [] h| |c [] h| | | | | | | | |c i []| | | | |c []]; done. Qed.
  Lemma ren_astep k o q : ren (rst f) (astep A b sz k o q) (astep A b sz k (raop f o) q).
  Proof. unfold astep. rewrite alegal_ren. destruct (alegal _ _ _ _); [apply ren_ado|by apply ren_done]. Qed.
End array.

(** * Heaps *)
Section heap.
  Context (f : value -> value) (A : alloc) (HA : aren f A) (b sz : N).
  Context (T T' : elt) (comp comp' : nat -> value -> value -> bool) (eqv eqv' : value -> value -> bool).
  Context (HT : relt f T T') (Hc : rcomp f comp comp') (He : reqv f eqv eqv').
  Local Notation ren := (ren f).
  Local Notation rv := (rv f).

  Lemma ren_e_get a : ren rv (e_get sz T a) (e_get sz T' a).
  Proof. unfold e_get. rewrite (proj1 HT). destruct (e_triv T); [apply ren_load|apply ren_obj_get]. Qed.
  Lemma ren_e_set a v : ren eq (e_set sz T a v) (e_set sz T' a (f v)).
  Proof. unfold e_set. rewrite (proj1 HT). destruct (e_triv T); [apply ren_stor|apply ren_obj_set]. Qed.
  Lemma ren_e_new a v : ren eq (e_new sz T a v) (e_new sz T' a (f v)).
  Proof. unfold e_new. rewrite (proj1 HT). destruct (e_triv T); [apply ren_stor|apply ren_obj_new]. Qed.
  Lemma ren_e_del a : ren eq (e_del sz T a) (e_del sz T' a).
  Proof. unfold e_del. rewrite (proj1 HT). destruct (e_triv T); [apply ren_ret_eq|apply ren_obj_del]. Qed.
  Lemma ren_e_leave a v : ren eq (e_leave sz T a v) (e_leave sz T' a (f v)).
  Proof. unfold e_leave. rewrite (proj1 HT) (proj2 HT). destruct (e_triv T); [apply ren_ret_eq|apply ren_obj_set]. Qed.
  Lemma ren_e_src src : ren rv (e_src sz T src) (e_src sz T' (rplace f src)).
  Proof. destruct src; cbn; [by apply ren_ret|apply ren_e_get]. Qed.
  Lemma ren_e_take a : ren rv (e_take sz T a) (e_take sz T' a).
  Proof.
    unfold e_take. apply (ren_bind f rv); [apply ren_e_get|]. intros v ? ->. apply ren_bind_eq; [apply ren_e_leave|].
    intros _. by apply ren_ret.
  Qed.
  Lemma ren_e_mov d s : ren eq (e_mov sz T d s) (e_mov sz T' d s).
  Proof.
    unfold e_mov. apply (ren_bind f rv); [apply ren_e_get|]. intros v ? ->. apply ren_bind_eq; [apply ren_e_set|].
    intros _. apply ren_e_leave.
  Qed.
  Hint Resolve ren_e_set ren_e_new ren_e_del ren_e_leave ren_e_mov : ren.

  Lemma ren_construct h q src E : ren eq (construct A b sz T h q src E) (construct A b sz T' h q (rplace f src) E).
  Proof.
    unfold construct. apply ren_te_cd; [done|]. apply (ren_bind f rv); [apply ren_e_src|]. intros v ? ->. apply ren_e_new.
  Qed.
  Lemma ren_construct_move h q a E : ren eq (construct_move A b sz T h q a E) (construct_move A b sz T' h q a E).
  Proof.
    unfold construct_move. apply ren_te_cd; [done|]. apply (ren_bind f rv); [apply ren_e_take|]. intros v ? ->. apply ren_e_new.
  Qed.
  Lemma ren_destroy h q E : ren eq (destroy A b sz T h q E) (destroy A b sz T' h q E).
  Proof. unfold destroy. apply ren_te_cd; [done|]. apply ren_e_del. Qed.
  Lemma ren_give_back h p cap n E : ren eq (give_back A b sz h p cap n E) (give_back A b sz h p cap n E).
  Proof. unfold give_back. apply ren_bind_eq; [apply ren_obj_none|]. renc. Qed.
  Hint Resolve ren_construct ren_construct_move ren_destroy ren_give_back : ren.
  Lemma ren_copy_n h d s n E : ren eq (copy_n A b sz T h d s n E) (copy_n A b sz T' h d s n E).
  Proof.
    revert d s E. induction n as [|n IH]; intros d s E; cbn [copy_n]; [apply ren_ret_eq|].
    apply ren_bind_eq; [apply (ren_construct h d (PAddr s))|]. intros. apply IH.
  Qed.
  Lemma ren_move_n h d s n E : ren eq (move_n A b sz T h d s n E) (move_n A b sz T' h d s n E).
  Proof. revert d s E. induction n as [|n IH]; intros d s E; cbn [move_n]; renc. Qed.
  Lemma ren_destroy_n h p n E : ren eq (destroy_n A b sz T h p n E) (destroy_n A b sz T' h p n E).
  Proof. revert p E. induction n as [|n IH]; intros p E; cbn [destroy_n]; renc. Qed.
  Hint Resolve ren_copy_n ren_move_n ren_destroy_n : ren.
  Lemma ren_hrelease x E : ren eq (hrelease A b sz T x E) (hrelease A b sz T' x E).
  Proof. unfold hrelease. renc. Qed.
  Lemma ren_hset_size x n E : ren eq (hset_size A b sz T x n E) (hset_size A b sz T' x n E).
  Proof. unfold hset_size. renc. Qed.
  Hint Resolve ren_hrelease ren_hset_size : ren.
  Lemma ren_hexpand x n E : ren eq (hexpand A b sz T x n E) (hexpand A b sz T' x n E).
  Proof. unfold hexpand. renc. Qed.
  Lemma ren_hreserve x n E : ren eq (hreserve A b sz T x n E) (hreserve A b sz T' x n E).
  Proof. unfold hreserve. renc. Qed.
  Lemma ren_hcopy_of h x E : ren eq (hcopy_of A b sz T h x E) (hcopy_of A b sz T' h x E).
  Proof. unfold hcopy_of. renc. Qed.
  Hint Resolve ren_hexpand ren_hreserve ren_hcopy_of : ren.

  Lemma ren_up_loop k q p i v : ren eq (up_loop sz T comp k q p i v) (up_loop sz T' comp' k q p i (f v)).
  Proof.
    revert i. induction k as [|k IH]; intros i; cbn [up_loop]; [apply ren_ubm|]. destruct (i =? 0); [apply ren_ret_eq|].
    apply (ren_bind f rv); [apply ren_e_get|]. intros y ? ->. rewrite Hc. renc.
  Qed.
  Lemma ren_percolate_up q p i : ren eq (percolate_up sz T comp q p i) (percolate_up sz T' comp' q p i).
  Proof.
    unfold percolate_up. apply (ren_bind f rv); [apply ren_e_get|]. intros v ? ->. apply ren_bind_eq; [apply ren_up_loop|]. renc.
  Qed.
  Lemma ren_pick q p n j c : ren eq (pick sz T comp q p n j c) (pick sz T' comp' q p n j c).
  Proof.
    unfold pick. destruct (j <? n); [|apply ren_ret_eq]. apply (ren_bind f rv); [apply ren_e_get|]. intros x ? ->.
    apply (ren_bind f rv); [apply ren_e_get|]. intros y ? ->. rewrite Hc. apply ren_ret_eq.
  Qed.
  Lemma ren_down_loop k q p n i : ren eq (down_loop sz T comp k q p n i) (down_loop sz T' comp' k q p n i).
  Proof.
    revert i. induction k as [|k IH]; intros i; cbn [down_loop]; [apply ren_ubm|]. destruct (i <? n); [|apply ren_ret_eq].
    apply ren_bind_eq; [apply ren_pick|]. intros c. apply ren_bind_eq; [apply ren_pick|]. intros c'.
    destruct (c' =? i); [apply ren_ret_eq|]. apply (ren_bind f rv); [apply ren_e_take|]. intros t ? ->. renc.
  Qed.
  Lemma ren_percolate_down q p n i : ren eq (percolate_down sz T comp q p n i) (percolate_down sz T' comp' q p n i).
  Proof.
    unfold percolate_down. apply (ren_bind f rv); [apply ren_e_get|]. intros v ? ->. apply ren_bind_eq; [apply ren_down_loop|]. renc.
  Qed.
  Hint Resolve ren_percolate_up ren_percolate_down : ren.
  Lemma ren_hinsert x src E : ren eq (hinsert A b sz T comp x src E) (hinsert A b sz T' comp' x (rplace f src) E).
  Proof. unfold hinsert. renc. Qed.
  Lemma ren_insert_list x l E : ren eq (insert_list A b sz T comp x l E) (insert_list A b sz T' comp' x (map f l) E).
  Proof.
    revert x E. induction l as [|v l IH]; intros x E; cbn [insert_list List.map]; [apply ren_ret_eq|].
    apply ren_bind_eq; [apply (ren_hinsert x (PVal v))|]. renc.
  Qed.
  Lemma ren_hpop x E : ren (fun r r' => r' = (f r.1.1, r.1.2, r.2)) (hpop A b sz T comp x E) (hpop A b sz T' comp' x E).
  Proof.
    unfold hpop. apply ren_bind_eq; [apply ren_assert|]. intros _. apply (ren_bind f rv); [apply ren_e_get|]. intros v ? ->.
    repeat (apply ren_bind_eq; [by auto with ren|]; intros). by apply ren_ret.
  Qed.
  Lemma ren_find_loop src p i n : ren eq (find_loop sz T eqv src p i n) (find_loop sz T' eqv' (rplace f src) p i n).
  Proof.
    revert i. induction n as [|n IH]; intros i; cbn [find_loop]; [apply ren_ret_eq|].
    apply (ren_bind f rv); [apply ren_e_get|]. intros y ? ->. apply (ren_bind f rv); [apply ren_e_src|]. intros v ? ->.
    rewrite He. renc.
  Qed.
  Hint Resolve ren_hinsert ren_insert_list ren_find_loop : ren.

  Lemma hlocate_ren r vs : hlocate sz (rref f r) vs = rplace f (hlocate sz r vs).
  Proof. by destruct r. Qed.

  Lemma ren_hdo o q : ren (rst f) (hdo A b sz T comp eqv o q) (hdo A b sz T' comp' eqv' (rhop f o) q).
  Proof.
    destruct q as [E vs]. destruct o; cbn [rhop hdo]; rewrite ?hlocate_ren ?map_length; unfold hassign, hmove_assign; try by renc.
    - apply (ren_bind f rv); [apply ren_e_get|]. intros v ? ->. by apply ren_ret.
    - apply ren_bind_eq; [apply ren_assert|]. intros _. apply (ren_bind f rv); [apply ren_e_get|]. intros v ? ->. by apply ren_ret.
    - eapply ren_bind; [apply ren_hpop|]. intros [[v x] E1] ? ->. by apply ren_ret.
  Qed.
  Lemma hlegal_ren k m o : hlegal sz T' k m (rhop f o) = hlegal sz T k m o.
  Proof. destruct o as [| | | | | | | | | | | | | | | |c []| | |c []|]; cbn; rewrite ?(proj1 HT) //. Qed.
  Lemma ren_hstep k o q : ren (rst f) (hstep A b sz T comp eqv k o q) (hstep A b sz T' comp' eqv' k (rhop f o) q).
  Proof. unfold hstep. rewrite hlegal_ren. destruct (hlegal _ _ _ _ _); [apply ren_hdo|by apply ren_done]. Qed.
End heap.
