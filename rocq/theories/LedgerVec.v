(** The ledger of trivial_vector and trivial_array. *)
From iris.proofmode Require Import tactics.
From Verif Require Import Base Mem AlignedMalloc Allocators Checked Tree Client Env Vector Array HeapPure Heap LawsProofs LawsCont Books BooksProofs BooksVec
  Owned OwnedProofs Ledger StillFacts LedgerProofs.

Local Open Scope N_scope.

Lemma new_name_no {X} (f : X -> info) k (vs : gmap nat X) c h : new_name k (f <$> vs) c h = true -> (h < k)%nat /\ vs !! c = None.
Proof. unfold new_name. intros [H1%negb_true_iff H2]%andb_true_iff. split; [by apply Nat.ltb_lt|by eapply not_has]. Qed.
Lemma upd_zero_ext {A : alloc} (E : env (overflow A)) f g h h' z z' : z = 0%Z -> z' = 0%Z -> books E f g -> books E (upd h z f) (upd h' z' g).
Proof. intros -> -> HB. eapply books_ext; [exact HB|intros i; by rewrite upd_0..]. Qed.
Lemma upd_objects {A : alloc} (E : env (overflow A)) f g h z : z = 0%Z -> books E f g -> books E f (upd h z g).
Proof. intros -> HB. eapply books_ext; [exact HB|done|intros i; by rewrite upd_0]. Qed.

Section vector.
  Context (pl : platform) (e : aexp) (b sz : N) (k : nat) (Hun : uncounted e = true) (Hsz : 0 < sz).
  Local Notation EO := (EOverflow e).
  Local Notation A := (overflow (den pl e)).
  Local Notation num := (fun _ : vec => 0).
  Local Notation good := (fun _ : vec => True).
  Local Notation legal := (fun vs => vlegal sz k (v_info sz <$> vs)).
  Local Notation born := (newborn pl e v_al (v_bytes sz) num good).

  Lemma v_born c h vs f g ob v (E : env A) :
    v_al v = h -> books E (upd h (Z.of_N (v_bytes sz v)) f) g -> born c h vs f g (ob, (E, <[c := v]> vs)).
  Proof. intros H1 H2. exists v. split; [done|]. split; [done|]. split; [done|]. by apply upd_objects. Qed.

  Lemma v_make o c h vs : v_role o = RMake c h -> legal vs o = true -> goods good vs ->
    (h < k)%nat /\ vs !! c = None /\ forall E f g, books E f g -> ends (vdo A b sz o (E, vs)) (born c h vs f g).
  Proof.
    intros Ho HL _. assert (new_name k (v_info sz <$> vs) c h = true) as [Hh Hc]%new_name_no.
    { destruct o; try discriminate Ho; injection Ho as <- <-; cbn [vlegal] in HL; first [exact HL|by apply andb_true_iff in HL as [HL _]]. }
    split; [done|]. split; [done|]. intros E f g HB. destruct o; try discriminate Ho; injection Ho as <- <-; cbn [vdo].
    - apply ends_ret. apply v_born; [done|]. eapply books_ext; [exact HB| |done]. intros i. by rewrite upd_0.
    - eapply ends_bind; [by apply new_n_books|]. intros [v E1] [H1 H2]. apply ends_ret. by apply v_born.
    - eapply ends_bind; [by apply new_n_books|]. intros [v E1] [H1 H2]. apply ends_bind'. intros _. apply ends_ret. by apply v_born.
    - eapply ends_bind; [by apply new_n_books|]. intros [v E1] [H1 H2]. apply ends_bind'. intros _. apply ends_ret. by apply v_born.
    - eapply ends_bind; [by apply new_n_books|]. intros [v E1] [H1 H2]. apply ends_bind'. intros _. apply ends_ret. by apply v_born.
    - eapply ends_bind; [by apply copy_of_books|]. intros [v E1] [H1 H2]. apply ends_ret. by apply v_born.
  Qed.

  Lemma v_use o c vs : v_role o = RUse c -> legal vs o = true -> goods good vs ->
    exists x, vs !! c = Some x /\ forall E f g, books E f g -> ends (vdo A b sz o (E, vs)) (fun r => exists x', snd (snd r) = <[c := x']> vs /\
      v_al x' = v_al x /\ True /\ books (fst (snd r)) (upd (v_al x) (vz (v_bytes sz) x' - vz (v_bytes sz) x) f) (upd (v_al x) (nz num x' - nz num x) g)).
  Proof.
    intros Ho HL _. assert (has (v_info sz <$> vs) c = true) as [x Hx]%has_get.
    { destruct o; try discriminate Ho; injection Ho as <-; cbn [vlegal] in HL; repeat first [exact HL|apply andb_true_iff in HL as [HL _]]. }
    exists x. split; [done|]. intros E f g HB.
    assert (get_ c vs = x) as Hg by by rewrite /get_ Hx.
    set (R := fun r : cobs * (env A * gmap nat vec) => exists x' : vec, _).
    assert (Hsame : forall ob, R (ob, (E, vs))).
    { intros ob. exists x. cbn [fst snd]. rewrite insert_id //. split; [done|]. split; [done|]. split; [done|]. apply upd_zero_ext; [lia..|done]. }
    assert (Hturn : forall ob v (E1 : env A), turns (den pl e) sz x f g (v, E1) -> R (ob, (E1, <[c := v]> vs))).
    { intros ob v E1 [H1 H2]. exists v. split; [done|]. split; [done|]. split; [done|]. apply upd_objects; [done|done]. }
    destruct o; try discriminate Ho; injection Ho as <-; cbn [vdo]; cbv zeta; rewrite ?Hg.
    - do 2 (apply ends_bind'; intros ?). by apply ends_ret.
    - do 2 (apply ends_bind'; intros ?). by apply ends_ret.
    - by apply ends_ret.
    - by apply ends_ret.
    - by apply ends_ret.
    - by apply ends_ret.
    - (* VResize *) eapply ends_bind; [|intros [v E1] H1; apply ends_ret; by apply Hturn].
      unfold resize. eapply turns_end; [|done]. destruct (_ <? _); [by apply expand_books|]. apply ends_ret. by apply turns_refl.
    - (* VReserve *) eapply ends_bind; [|intros [v E1] H1; apply ends_ret; by apply Hturn].
      unfold reserve. destruct (_ <? _); [by apply set_size_books|]. apply ends_ret. by apply turns_refl.
    - (* VPush *)
      apply (ends_bind _ _ (fun r : N * vec * env A => turns (den pl e) sz x f g (snd (fst r), snd r))).
      2: { intros [[it v] E1] H1. apply ends_ret. by apply Hturn. }
      unfold push_back. eapply (ends_bind _ _ (turns (den pl e) sz x f g)).
      { destruct (_ =? _); [by apply expand_books|]. apply ends_ret. by apply turns_refl. }
      intros [v E1] H1. apply ends_bind'. intros _. by apply ends_ret.
    - (* VPushRange *)
      apply (ends_bind _ _ (fun r : N * vec * env A => turns (den pl e) sz x f g (snd (fst r), snd r))).
      2: { intros [[it v] E1] H1. apply ends_ret. by apply Hturn. }
      unfold push_back_range. eapply (ends_bind _ _ (turns (den pl e) sz x f g)).
      { destruct (_ <? _); [by apply expand_books|]. apply ends_ret. by apply turns_refl. }
      intros [v E1] H1. apply ends_bind'. intros _. by apply ends_ret.
    - (* VErase *)
      apply (ends_bind _ _ (fun r : N * vec => turns (den pl e) sz x f g (snd r, E))).
      { unfold erase. do 2 (apply ends_bind'; intros ?). apply ends_ret. by apply turns_refl. }
      intros [it v] H1. apply ends_ret. by apply Hturn.
    - (* VEraseRange *)
      apply (ends_bind _ _ (fun r : N * vec => turns (den pl e) sz x f g (snd r, E))).
      { unfold erase_range. do 3 (apply ends_bind'; intros ?). apply ends_ret. by apply turns_refl. }
      intros [it v] H1. apply ends_ret. by apply Hturn.
    - (* VClear *) apply ends_ret. apply Hturn. by apply turns_refl.
  Qed.

  Lemma v_back_books x vs src (E : env A) f g : vs !! src = Some x -> (sz =? 1) || (i_data (look (v_info sz <$> vs) src) =? 0) = true -> books E f g ->
    ends (v_back pl EO b sz x E) (fun E' : env A => books E' (upd (v_al x) (- vz (v_bytes sz) x) f) g).
  Proof.
    intros Hx HL HB. unfold v_back, vz, v_bytes. destruct (v_beg x =? 0) eqn:Hb.
    - apply ends_ret. eapply books_ext; [exact HB| |done]. intros i. by rewrite upd_0.
    - assert (sz = 1) as ->.
      { apply orb_true_iff in HL as [HL|HL]; [by apply N.eqb_eq|]. exfalso. unfold look in HL. rewrite lookup_fmap Hx in HL. cbn in HL. congruence. }
      eapply ends_imp; [exact (free_books (den pl e) b 1 _ _ _ E f g HB)|]. intros E2 HE2.
      intros i s Hs. destruct (HE2 i s Hs) as [Ha Hc]. split; [|done]. rewrite Ha.
      unfold upd. rewrite !N.mul_1_r ?N.mul_1_l /mul64. destruct (Nat.eqb (v_al x) i); [|done].
      by rewrite !Z.add_opp_r s64_w64_sub ?N.mul_1_r.
  Qed.

  Lemma vector_tallies ops w : forallb (compiles EO v_role) ops = true ->
    tallies (vector_program pl EO b sz k ops w)
      (lsession (den pl EO) b (vstep (den pl EO) b sz k) legal v_role (release (den pl EO) b sz) (v_bytes sz) num k ops w).
  Proof.
    intros HC.
    pose proof (overflow_hushed _ (tree_discreet pl e Hun)) as HA.
    refine (bsession_tallies pl e b k Hun (vdo A b sz) legal v_al v_role (release A b sz)
      (v_back pl EO b sz) v_gone (v_bytes sz) num good _ _ _ _ _ _ _ _ _ _ _ _ _ ops w HC).
    - intros o E vs HF. by apply vdo_tame.
    - intros x E HF. by apply release_tame.
    - intros x E HF. unfold v_back. destruct (_ =? _); [apply tame_ret; by intros ? [= <-]|]. exact (te_free_tame A HA b _ sz _ _ _ E HF).
    - exact v_make.
    - intros o tmp c src vs Ho HL _. destruct o; try discriminate Ho. injection Ho as <- <- <-. cbn [vlegal] in HL.
      apply andb_true_iff in HL as [L1%negb_true_iff%not_has [x Hx]%has_get]. exists x. split; [done|]. split; [done|].
      intros E f g HB. cbn [vdo]. rewrite /get_ Hx. cbn [default from_option id]. eapply ends_bind; [by apply copy_of_books|].
      intros [v E1] [H1 H2]. apply ends_ret. by apply v_born.
    - intros o c src vs Ho HL _. destruct o; try discriminate Ho. injection Ho as <- <-. cbn [vlegal] in HL.
      apply andb_true_iff in HL as [L1%negb_true_iff%not_has [x Hx]%has_get]. exists x, x, (Vec (v_al x) 0 0 0).
      repeat split; [done..|]. intros E. cbn [vdo]. rewrite /get_ Hx. cbn [default from_option id]. by apply ends_ret.
    - intros o c src h o1 vs Ho HL _. destruct o; try discriminate Ho. injection Ho as <- <- <- <-. cbn [vlegal] in HL.
      apply andb_true_iff in HL as [HL L3]. apply andb_true_iff in HL as [[Hh Hc]%new_name_no [x Hx]%has_get].
      exists x. split; [done|]. split; [done|]. split; [done|]. split; [done|]. split.
      + intros E f g HB. cbn [vdo]. eapply ends_bind; [by apply copy_of_books|]. intros [v E1] [H1 H2]. apply ends_ret. by apply v_born.
      + intros E f g HB. by eapply v_back_books.
    - exact v_use.
    - intros o c vs Ho HL _. destruct o; try discriminate Ho. injection Ho as <-. cbn [vlegal] in HL. apply has_get in HL as [x Hx].
      exists x. split; [done|]. intros E f g HB. cbn [vdo]. rewrite /get_ Hx. cbn [default from_option id].
      eapply ends_bind; [by apply release_books|]. intros E1 H1. apply ends_ret. split; [done|]. by apply upd_objects.
    - intros x E f g _ HB. eapply ends_imp; [by apply release_books|]. intros E1 H1. by apply upd_objects.
    - intros o c src vs Ho _ Hc. unfold compiles in Hc. by rewrite Ho in Hc.
    - intros P o E E' K vs HE. eapply bstep_near; [..|exact HE].
      + intros o' E1 E1' vs' HE'. exact (vdo_same (akin_alike pl EO) b sz o' E1 E1' vs' HE').
      + intros x E1 E1' HE1. exact (v_back_same pl EO b sz x E1 E1' HE1).
      + exact (v_split pl EO b sz k).
    - intros K xs E E' HE. eapply bkill_near; [|exact HE]. intros x E1 E1' HE1. exact (release_same (akin_alike pl EO) b sz x E1 E1' HE1).
  Qed.
End vector.

Section array.
  Context (pl : platform) (e : aexp) (b sz : N) (k : nat) (Hun : uncounted e = true) (Hsz : 0 < sz).
  Local Notation EO := (EOverflow e).
  Local Notation A := (overflow (den pl e)).
  Local Notation num := (fun _ : arr => 0).
  Local Notation good := (fun _ : arr => True).
  Local Notation legal := (fun vs => alegal sz k (a_info sz <$> vs)).
  Local Notation born := (newborn pl e r_alc (r_bytes sz) num good).

  Lemma a_born c h vs f g ob v (E : env A) :
    r_alc v = h -> books E (upd h (Z.of_N (r_bytes sz v)) f) g -> born c h vs f g (ob, (E, <[c := v]> vs)).
  Proof. intros H1 H2. exists v. split; [done|]. split; [done|]. split; [done|]. by apply upd_objects. Qed.

  Lemma a_make o c h vs : a_role o = RMake c h -> legal vs o = true -> goods good vs ->
    (h < k)%nat /\ vs !! c = None /\ forall E f g, books E f g -> ends (ado A b sz o (E, vs)) (born c h vs f g).
  Proof.
    intros Ho HL _. assert (new_name k (a_info sz <$> vs) c h = true) as [Hh Hc]%new_name_no.
    { destruct o; try discriminate Ho; injection Ho as <- <-; cbn [alegal] in HL; first [exact HL|by apply andb_true_iff in HL as [HL _]]. }
    split; [done|]. split; [done|]. intros E f g HB. destruct o; try discriminate Ho; injection Ho as <- <-; cbn [ado].
    - apply ends_ret. apply a_born; [done|]. eapply books_ext; [exact HB| |done]. intros i. by rewrite upd_0.
    - eapply ends_bind; [by apply anew_n_books|]. intros [v E1] [H1 H2]. apply ends_ret. by apply a_born.
    - eapply ends_bind; [by apply anew_n_books|]. intros [v E1] [H1 H2]. apply ends_bind'. intros _. apply ends_ret. by apply a_born.
    - eapply ends_bind; [by apply anew_n_books|]. intros [v E1] [H1 H2]. apply ends_bind'. intros _. apply ends_ret. by apply a_born.
    - eapply ends_bind; [by apply anew_n_books|]. intros [v E1] [H1 H2]. apply ends_bind'. intros _. apply ends_ret. by apply a_born.
    - eapply ends_bind; [by apply acopy_of_books|]. intros [v E1] [H1 H2]. apply ends_ret. by apply a_born.
  Qed.

  Lemma a_use o c vs : a_role o = RUse c -> legal vs o = true -> goods good vs ->
    exists x, vs !! c = Some x /\ forall E f g, books E f g -> ends (ado A b sz o (E, vs)) (fun r => exists x', snd (snd r) = <[c := x']> vs /\
      r_alc x' = r_alc x /\ True /\ books (fst (snd r)) (upd (r_alc x) (vz (r_bytes sz) x' - vz (r_bytes sz) x) f) (upd (r_alc x) (nz num x' - nz num x) g)).
  Proof.
    intros Ho HL _. assert (has (a_info sz <$> vs) c = true) as [x Hx]%has_get.
    { destruct o; try discriminate Ho; injection Ho as <-; cbn [alegal] in HL; repeat first [exact HL|apply andb_true_iff in HL as [HL _]]. }
    exists x. split; [done|]. intros E f g HB.
    assert (aget c vs = x) as Hg by by rewrite /aget Hx.
    set (R := fun r : cobs * (env A * gmap nat arr) => exists x' : arr, _).
    assert (Hsame : forall ob, R (ob, (E, vs))).
    { intros ob. exists x. cbn [fst snd]. rewrite insert_id //. split; [done|]. split; [done|]. split; [done|]. apply upd_zero_ext; [lia..|done]. }
    assert (Hturn : forall ob v (E1 : env A), aturns (den pl e) sz x f g (v, E1) -> R (ob, (E1, <[c := v]> vs))).
    { intros ob v E1 [H1 H2]. exists v. split; [done|]. split; [done|]. split; [done|]. apply upd_objects; [done|done]. }
    destruct o; try discriminate Ho; injection Ho as <-; cbn [ado]; cbv zeta; rewrite ?Hg.
    - do 2 (apply ends_bind'; intros ?). by apply ends_ret.
    - do 2 (apply ends_bind'; intros ?). by apply ends_ret.
    - by apply ends_ret.
    - by apply ends_ret.
    - by apply ends_ret.
    - (* AResize *) eapply ends_bind; [by apply aresize_books|]. intros [v E1] H1. apply ends_ret. by apply Hturn.
    - (* AFrom *) eapply ends_bind; [by apply afrom_books|]. intros [v E1] H1. apply ends_ret. by apply Hturn.
  Qed.

  Lemma a_back_books x vs src (E : env A) f g : vs !! src = Some x -> (sz =? 1) || (i_data (look (a_info sz <$> vs) src) =? 0) = true -> books E f g ->
    ends (a_back pl EO b sz x E) (fun E' : env A => books E' (upd (r_alc x) (- vz (r_bytes sz) x) f) g).
  Proof.
    intros Hx HL HB. unfold a_back, vz, r_bytes. destruct (r_beg x =? 0) eqn:Hb.
    - apply ends_ret. eapply books_ext; [exact HB| |done]. intros i. by rewrite upd_0.
    - assert (sz = 1) as ->.
      { apply orb_true_iff in HL as [HL|HL]; [by apply N.eqb_eq|]. exfalso. unfold look in HL. rewrite lookup_fmap Hx in HL. cbn in HL. congruence. }
      eapply ends_imp; [exact (free_books (den pl e) b 1 _ _ _ E f g HB)|]. intros E2 HE2.
      intros i s Hs. destruct (HE2 i s Hs) as [Ha Hc]. split; [|done]. rewrite Ha.
      unfold upd. rewrite !N.mul_1_r ?N.mul_1_l /mul64. destruct (Nat.eqb (r_alc x) i); [|done].
      by rewrite !Z.add_opp_r s64_w64_sub ?N.mul_1_r.
  Qed.

  Lemma array_tallies ops w : forallb (compiles EO a_role) ops = true ->
    tallies (array_program pl EO b sz k ops w)
      (lsession (den pl EO) b (astep (den pl EO) b sz k) legal a_role (arelease (den pl EO) b sz) (r_bytes sz) num k ops w).
  Proof.
    intros HC.
    pose proof (overflow_hushed _ (tree_discreet pl e Hun)) as HA.
    refine (bsession_tallies pl e b k Hun (ado A b sz) legal r_alc a_role (arelease A b sz)
      (a_back pl EO b sz) a_gone (r_bytes sz) num good _ _ _ _ _ _ _ _ _ _ _ _ _ ops w HC).
    - intros o E vs HF. by apply ado_tame.
    - intros x E HF. by apply arelease_tame.
    - intros x E HF. unfold a_back. destruct (_ =? _); [apply tame_ret; by intros ? [= <-]|]. exact (te_free_tame A HA b _ sz _ _ _ E HF).
    - exact a_make.
    - intros o tmp c src vs Ho HL _. destruct o; try discriminate Ho. injection Ho as <- <- <-. cbn [alegal] in HL.
      apply andb_true_iff in HL as [L1%negb_true_iff%not_has [x Hx]%has_get]. exists x. split; [done|]. split; [done|].
      intros E f g HB. cbn [ado]. rewrite /aget Hx. cbn [default from_option id]. eapply ends_bind; [by apply acopy_of_books|].
      intros [v E1] [H1 H2]. apply ends_ret. by apply a_born.
    - intros o c src vs Ho HL _. destruct o; try discriminate Ho. injection Ho as <- <-. cbn [alegal] in HL.
      apply andb_true_iff in HL as [L1%negb_true_iff%not_has [x Hx]%has_get]. exists x, x, (Arr (r_alc x) 0 0).
      repeat split; [done..|]. intros E. cbn [ado]. rewrite /aget Hx. cbn [default from_option id]. by apply ends_ret.
    - intros o c src h o1 vs Ho HL _. destruct o; try discriminate Ho. injection Ho as <- <- <- <-. cbn [alegal] in HL.
      apply andb_true_iff in HL as [HL L3]. apply andb_true_iff in HL as [[Hh Hc]%new_name_no [x Hx]%has_get].
      exists x. split; [done|]. split; [done|]. split; [done|]. split; [done|]. split.
      + intros E f g HB. cbn [ado]. eapply ends_bind; [by apply acopy_of_books|]. intros [v E1] [H1 H2]. apply ends_ret. by apply a_born.
      + intros E f g HB. by eapply a_back_books.
    - exact a_use.
    - intros o c vs Ho HL _. destruct o; try discriminate Ho. injection Ho as <-. cbn [alegal] in HL. apply has_get in HL as [x Hx].
      exists x. split; [done|]. intros E f g HB. cbn [ado]. rewrite /aget Hx. cbn [default from_option id].
      eapply ends_bind; [by apply arelease_books|]. intros E1 H1. apply ends_ret. split; [done|]. by apply upd_objects.
    - intros x E f g _ HB. eapply ends_imp; [by apply arelease_books|]. intros E1 H1. by apply upd_objects.
    - intros o c src vs Ho _ Hc. unfold compiles in Hc. by rewrite Ho in Hc.
    - intros P o E E' K vs HE. eapply bstep_near; [..|exact HE].
      + intros o' E1 E1' vs' HE'. exact (ado_same (akin_alike pl EO) b sz o' E1 E1' vs' HE').
      + intros x E1 E1' HE1. exact (a_back_same pl EO b sz x E1 E1' HE1).
      + exact (a_split pl EO b sz k).
    - intros K xs E E' HE. eapply bkill_near; [|exact HE]. intros x E1 E1' HE1. exact (arelease_same (akin_alike pl EO) b sz x E1 E1' HE1).
  Qed.
End array.
