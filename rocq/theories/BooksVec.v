(** C75 for trivial_vector and trivial_array. *)
From Coq Require Import ssreflect.
From Verif Require Import Base Mem Allocators Client Env Vector Array HeapPure Heap Books BooksProofs.

Local Open Scope N_scope.

Lemma not_has {X} (f : X -> info) (vs : gmap nat X) c : has (f <$> vs) c = false -> vs !! c = None.
Proof.
  unfold has. rewrite lookup_fmap. destruct (vs !! c); [|done]. cbn. done.
Qed.
Lemma is_has {X} (f : X -> info) (vs : gmap nat X) c : has (f <$> vs) c = true -> exists x, vs !! c = Some x.
Proof. unfold has. rewrite lookup_fmap. intros H%bool_decide_eq_true. destruct (vs !! c); [eauto|]. by destruct H. Qed.
Lemma held_zero {X} (al : X -> nat) h (vs : gmap nat X) : held al (fun _ => 0) h vs = 0%Z.
Proof.
  induction vs as [|c x vs Hc IH] using map_ind; [apply held_empty|].
  rewrite held_new // IH /part. destruct (Nat.eqb _ _); lia.
Qed.

Section vector.
  Context (A : alloc) (b sz : N).
  Hypothesis Hsz : 0 < sz.
  Local Notation O := (overflow A).
  Local Notation bytes v := (Z.of_N (v_bytes sz v)).

  Lemma bytes_new h p m n : (p = 0 -> sz * n = 0) -> v_bytes sz (Vec h p m (p + n * sz)) = sz * n.
  Proof.
    intros Hp. unfold v_bytes, v_cap. cbn. destruct (p =? 0) eqn:E.
    - apply N.eqb_eq in E. symmetry. by apply Hp.
    - replace (p + n * sz - p) with (n * sz) by lia. rewrite N.div_mul; lia.
  Qed.

  (** The new vector replaces the old one. *)
  Definition turns (v : vec) (f g : nat -> Z) (r : vec * env O) : Prop :=
    v_al (fst r) = v_al v /\ books (snd r) (upd (v_al v) (bytes (fst r) - bytes v) f) g.

  Lemma turns_refl v v' E f g :
    books E f g -> v_al v' = v_al v -> v_beg v' = v_beg v -> v_max v' = v_max v -> turns v f g (v', E).
  Proof.
    intros HB H1 H2 H3. split; [done|]. cbn [fst snd]. eapply books_ext; [exact HB| |done].
    intros i. unfold upd, v_bytes, v_cap. rewrite H2 H3. destruct (Nat.eqb _ _); lia.
  Qed.

  Lemma set_size_books v n E f g : books E f g -> ends (set_size O b sz v n E) (turns v f g).
  Proof.
    intros HB. unfold set_size. eapply ends_bind; [by apply alloc_books|]. intros [p E1] (HE & Hp & _). cbn [fst snd] in *.
    apply (ends_bind _ _ (fun E2 => books E2 (upd (v_al v) (Z.of_N (sz * n) - bytes v) f) g)).
    - unfold v_bytes. destruct (v_beg v =? 0).
      + apply ends_ret. eapply books_ext; [exact HE| |done]. intros i. unfold upd. destruct (Nat.eqb _ _); lia.
      + apply ends_bind'. intros _. eapply ends_imp; [by apply free_books|]. intros E2 H2.
        eapply books_ext; [exact H2| |done]. intros i. unfold upd. rewrite (N.mul_comm sz (v_cap sz v)). destruct (Nat.eqb _ _); lia.
    - intros E2 H2. apply ends_ret. split; [done|]. cbn [fst snd]. by rewrite bytes_new.
  Qed.
  Lemma expand_books v n E f g : books E f g -> ends (expand O b sz v n E) (turns v f g).
  Proof. intros HB. unfold expand. apply ends_emit. intros _. by apply set_size_books. Qed.
  Lemma new_n_books h n E f g :
    books E f g -> ends (new_n O b sz h n E) (fun r => v_al (fst r) = h /\ books (snd r) (upd h (bytes (fst r)) f) g).
  Proof.
    intros HB. unfold new_n. eapply ends_bind; [by apply alloc_books|]. intros [p E1] (HE & Hp & _). cbn [fst snd] in *.
    apply ends_ret. split; [done|]. cbn [fst snd]. by rewrite bytes_new.
  Qed.
  Lemma copy_of_books h o E f g :
    books E f g -> ends (copy_of O b sz h o E) (fun r => v_al (fst r) = h /\ books (snd r) (upd h (bytes (fst r)) f) g).
  Proof.
    intros HB. unfold copy_of. eapply ends_bind; [by apply new_n_books|]. intros [v E1] H1. apply ends_bind'. intros _. by apply ends_ret.
  Qed.
  Lemma release_books v E f g :
    books E f g -> ends (release O b sz v E) (fun E' => books E' (upd (v_al v) (- bytes v) f) g).
  Proof.
    intros HB. unfold release, v_bytes. destruct (v_beg v =? 0).
    - apply ends_ret. eapply books_ext; [exact HB| |done]. intros i. unfold upd. destruct (Nat.eqb _ _); lia.
    - eapply ends_imp; [by apply free_books|]. intros E2 H2. by rewrite (N.mul_comm _ sz).
  Qed.

  Lemma turns_end v f g (m : M (vec * env O)) (h : vec -> vec) :
    ends m (turns v f g) -> (forall v', v_al (h v') = v_al v' /\ v_beg (h v') = v_beg v' /\ v_max (h v') = v_max v') ->
    ends (' (v, E) <- m ;; ret (h v, E)) (turns v f g).
  Proof.
    intros Hm Hh. eapply ends_bind; [exact Hm|]. intros [v' E'] [H1 H2]. cbn [fst snd] in *.
    destruct (Hh v') as (Ha & Hb & Hc). apply ends_ret. split; [cbn; congruence|]. cbn [fst snd].
    unfold v_bytes, v_cap in *. by rewrite Hb Hc.
  Qed.

  Definition v_in := in_books A v_al (v_bytes sz) (fun _ => 0) (fun _ => True).

  Lemma v_in_ext E (vs : gmap nat vec) f g :
    books E f g -> (forall i, f i = held v_al (v_bytes sz) i vs) -> (forall i, g i = 0%Z) -> v_in (E, vs).
  Proof.
    intros HB Hf Hg. split; [|done]. eapply books_ext; [exact HB|done|]. intros i. by rewrite Hg held_zero.
  Qed.
  Lemma v_ins i c x vs :
    held v_al (v_bytes sz) i (<[c := x]> vs) =
    (held v_al (v_bytes sz) i vs - part v_al (v_bytes sz) i (get_ c vs) + part v_al (v_bytes sz) i x)%Z.
  Proof. by apply held_insert. Qed.
  Lemma v_del i c vs :
    held v_al (v_bytes sz) i (delete c vs) =
    (held v_al (v_bytes sz) i vs - part v_al (v_bytes sz) i (get_ c vs))%Z.
  Proof. by apply held_delete. Qed.
  Lemma v_part_turn i v v' : v_al v' = v_al v -> (part v_al (v_bytes sz) i v' - part v_al (v_bytes sz) i v = if Nat.eqb (v_al v) i then bytes v' - bytes v else 0)%Z.
  Proof. intros H. unfold part. rewrite H. destruct (Nat.eqb _ _); lia. Qed.

  Lemma v_turn c vs f g r :
    turns (get_ c vs) f g r -> (forall i, f i = held v_al (v_bytes sz) i vs) -> (forall i, g i = 0%Z) -> v_in (snd r, <[c := fst r]> vs).
  Proof.
    intros [H1 H2] Hf Hg. eapply v_in_ext; [exact H2| |done]. intros i. unfold upd. rewrite v_ins Hf -(v_part_turn i _ _ H1). lia.
  Qed.
  Lemma part_empty i a m : part v_al (v_bytes sz) i (Vec a 0 m m) = 0%Z.
  Proof. unfold part. cbn. destruct (Nat.eqb _ _); done. Qed.
  Lemma get_none c vs : vs !! c = None -> get_ c vs = Vec 0 0 0 0.
  Proof. unfold get_. by intros ->. Qed.
  Lemma v_new c vs f g h v E :
    v_al v = h -> books E (upd h (bytes v) f) g -> (forall i, f i = held v_al (v_bytes sz) i vs) -> (forall i, g i = 0%Z) ->
    vs !! c = None -> v_in (E, <[c := v]> vs).
  Proof.
    intros H1 H2 Hf Hg Hc. eapply v_in_ext; [exact H2| |done]. intros i. unfold upd. rewrite v_ins Hf (get_none c vs Hc) part_empty /part H1.
    destruct (Nat.eqb h i); lia.
  Qed.
  Lemma upd_part i v f : upd (v_al v) (- bytes v) f i = (f i - part v_al (v_bytes sz) i v)%Z.
  Proof. unfold upd, part. destruct (Nat.eqb _ _); lia. Qed.
  Lemma upd_part' i v f : upd (v_al v) (bytes v) f i = (f i + part v_al (v_bytes sz) i v)%Z.
  Proof. unfold upd, part. destruct (Nat.eqb _ _); lia. Qed.

  Lemma vstep_books k o q : v_in q -> ends (vstep O b sz k o q) (fun r => v_in (snd r)).
  Proof using Hsz.
    destruct q as [E vs]. intros Hin. unfold vstep. cbn [snd]. destruct (vlegal sz k (v_info sz <$> vs) o) eqn:L; [|by apply ends_ret].
    destruct Hin as [HB _]. cbn [fst snd] in HB.
    set (f := fun h => held v_al (v_bytes sz) h vs) in HB. set (g := fun h => held v_al (fun _ => 0) h vs) in HB.
    assert (forall i, f i = held v_al (v_bytes sz) i vs) as Hf by done.
    assert (forall i, g i = 0%Z) as Hg by (intros; apply held_zero).
    assert (v_in (E, vs)) as Hin by by eapply v_in_ext.
    destruct o; cbn [vdo]; cbn [vlegal] in L; unfold new_name in L; rewrite -?andb_assoc ?andb_true_iff ?negb_true_iff in L.
    - (* VNew *) apply ends_ret. cbn [snd]. destruct L as [L _]. eapply v_new; [done| |exact Hf|exact Hg|by eapply not_has].
      eapply books_ext; [exact HB| |done]. intros i. by rewrite upd_0.
    - (* VNewN *) eapply ends_bind; [by apply new_n_books|]. intros [v E1] [H1 H2]. apply ends_ret. cbn [fst snd] in *.
      destruct L as [L _]. eapply v_new; eauto. by eapply not_has.
    - (* VNewFill *) eapply ends_bind; [by apply new_n_books|]. intros [v E1] [H1 H2]. apply ends_bind'. intros _. apply ends_ret. cbn [fst snd] in *.
      destruct L as [L _]. eapply v_new; eauto. by eapply not_has.
    - (* VNewList *) eapply ends_bind; [by apply new_n_books|]. intros [v E1] [H1 H2]. apply ends_bind'. intros _. apply ends_ret. cbn [fst snd] in *.
      destruct L as [L _]. eapply v_new; eauto. by eapply not_has.
    - (* VNewRange *) eapply ends_bind; [by apply new_n_books|]. intros [v E1] [H1 H2]. apply ends_bind'. intros _. apply ends_ret. cbn [fst snd] in *.
      destruct L as [L _]. eapply v_new; eauto. by eapply not_has.
    - (* VCopy *) eapply ends_bind; [by apply copy_of_books|]. intros [v E1] [H1 H2]. apply ends_ret. cbn [fst snd] in *.
      destruct L as [L _]. eapply v_new; eauto. by eapply not_has.
    - (* VMove *) apply ends_ret. cbn [snd]. destruct L as [L1 L2]. apply not_has in L1. apply is_has in L2 as [x Hx].
      eapply v_in_ext; [exact HB| |done]. intros i. rewrite !v_ins part_empty Hf. unfold get_.
      rewrite lookup_insert_ne; last (intros ->; congruence). rewrite L1 Hx. cbn. rewrite part_empty. lia.
    - (* VCopyAl *) eapply ends_bind; [by apply copy_of_books|]. intros [v E1] [H1 H2]. apply ends_ret. cbn [fst snd] in *.
      destruct L as [L _]. eapply v_new; eauto. by eapply not_has.
    - (* VMoveAl *) destruct L as (L1 & _ & L2 & L3). apply not_has in L1.
      eapply ends_bind; [by apply new_n_books|]. intros [v E1] [H1 H2]. cbn [fst snd] in *.
      apply (ends_bind _ _ (fun E2 => books E2 (upd (v_al (get_ src vs)) (- bytes (get_ src vs)) (upd h (bytes v) f)) g)).
      + unfold v_bytes at 1. destruct (v_beg (get_ src vs) =? 0) eqn:Eb.
        * apply ends_ret. eapply books_ext; [exact H2| |done]. intros i. by rewrite upd_0.
        * apply ends_bind'. intros _. eapply ends_imp; [by apply free_books|]. intros E2 HE2.
          apply orb_true_iff in L3 as [L3|L3].
          2: { exfalso. unfold look in L3. rewrite lookup_fmap in L3. apply is_has in L2 as [x Hx].
               unfold get_ in Eb. rewrite Hx in L3, Eb. cbn in L3, Eb. unfold id in Eb. congruence. }
          apply N.eqb_eq in L3. intros i s Hs. destruct (HE2 i s Hs) as [Ha Hc]. split; [|done]. rewrite Ha.
          unfold upd. rewrite L3 N.mul_1_r N.mul_1_l /mul64. destruct (Nat.eqb (v_al (get_ src vs)) i); [|done].
          by rewrite !Z.add_opp_r s64_w64_sub N.mul_1_r.
      + intros E2 HE2. apply ends_ret. cbn [snd]. eapply v_in_ext; [exact HE2| |done]. intros i.
        rewrite upd_part -H1 upd_part' Hf !v_ins part_empty. apply is_has in L2 as [x Hx]. unfold get_.
        rewrite lookup_insert_ne; last (intros ->; congruence). rewrite L1 Hx. cbn. rewrite part_empty. lia.
    - (* VDestroy *) eapply ends_bind; [by apply release_books|]. intros E1 H1. apply ends_ret. cbn [snd].
      eapply v_in_ext; [exact H1| |done]. intros i. by rewrite upd_part v_del Hf.
    - (* VAssign *) eapply ends_bind; [by apply release_books|]. intros E1 H1. unfold vassign. cbv beta iota zeta.
      set (v := get_ c vs) in *. set (vs1 := <[c := _]> vs).
      eapply ends_bind; [eapply alloc_books; exact H1|]. intros [p E2] (H2 & Hp & _). cbn [fst snd] in *. apply ends_bind'. intros _. apply ends_ret. cbn [snd].
      eapply v_in_ext; [exact H2| |done]. intros i. rewrite v_ins.
      assert (held v_al (v_bytes sz) i vs1 - part v_al (v_bytes sz) i (get_ c vs1) = f i - part v_al (v_bytes sz) i v)%Z as Ev.
      { rewrite /vs1 v_ins Hf /get_ lookup_insert. unfold v, get_. cbn [default from_option]. unfold id. lia. }
      set (n := v_size sz (get_ src vs1)) in *. rewrite Ev {2}/part. cbn [v_al]. rewrite bytes_new //.
      unfold upd at 1. rewrite upd_part. destruct (Nat.eqb (v_al (get_ c vs1)) i); lia.
    - (* VMoveAssign *) eapply ends_bind; [by apply release_books|]. intros E1 H1. unfold vmove_assign. apply ends_ret. cbn [snd].
      eapply v_in_ext; [exact H1| |done]. intros i. rewrite upd_part !v_ins part_empty Hf.
      destruct (decide (c = src)) as [->|Hn].
      + unfold get_ at 4. rewrite lookup_insert. cbn. lia.
      + unfold get_ at 4. rewrite lookup_insert_ne //. fold (get_ src vs). lia.
    - (* VGet *) do 2 (apply ends_bind'; intros ?). by apply ends_ret.
    - (* VSet *) do 2 (apply ends_bind'; intros ?). by apply ends_ret.
    - by apply ends_ret.
    - by apply ends_ret.
    - by apply ends_ret.
    - by apply ends_ret.
    - (* VResize *) eapply ends_bind; [|intros [v E1] H1; apply ends_ret; by eapply (v_turn _ _ _ _ (v, E1))].
      unfold resize. eapply turns_end; [|done]. destruct (_ <? _); [by apply expand_books|]. apply ends_ret. by apply turns_refl.
    - (* VReserve *) eapply ends_bind; [|intros [v E1] H1; apply ends_ret; by eapply (v_turn _ _ _ _ (v, E1))].
      unfold reserve. destruct (_ <? _); [by apply set_size_books|]. apply ends_ret. by apply turns_refl.
    - (* VPush *)
      apply (ends_bind _ _ (fun r : N * vec * env O => turns (get_ c vs) f g (snd (fst r), snd r))).
      2: { intros [[it v] E1] H1. apply ends_ret. by eapply (v_turn _ _ _ _ (v, E1)). }
      unfold push_back. eapply (ends_bind _ _ (turns (get_ c vs) f g)).
      { destruct (_ =? _); [by apply expand_books|]. apply ends_ret. by apply turns_refl. }
      intros [v E1] H1. apply ends_bind'. intros _. by apply ends_ret.
    - (* VPushRange *)
      apply (ends_bind _ _ (fun r : N * vec * env O => turns (get_ c vs) f g (snd (fst r), snd r))).
      2: { intros [[it v] E1] H1. apply ends_ret. by eapply (v_turn _ _ _ _ (v, E1)). }
      unfold push_back_range. eapply (ends_bind _ _ (turns (get_ c vs) f g)).
      { destruct (_ <? _); [by apply expand_books|]. apply ends_ret. by apply turns_refl. }
      intros [v E1] H1. apply ends_bind'. intros _. by apply ends_ret.
    - (* VErase *)
      apply (ends_bind _ _ (fun r : N * vec => turns (get_ c vs) f g (snd r, E))).
      { unfold erase. do 2 (apply ends_bind'; intros ?). apply ends_ret. by apply turns_refl. }
      intros [it v] H1. apply ends_ret. by eapply (v_turn _ _ _ _ (v, E)).
    - (* VEraseRange *)
      apply (ends_bind _ _ (fun r : N * vec => turns (get_ c vs) f g (snd r, E))).
      { unfold erase_range. do 3 (apply ends_bind'; intros ?). apply ends_ret. by apply turns_refl. }
      intros [it v] H1. apply ends_ret. by eapply (v_turn _ _ _ _ (v, E)).
    - (* VClear *) apply ends_ret. cbn [snd]. eapply (v_turn _ _ _ _ (_, E)); [by apply turns_refl|done|done].
  Qed.
End vector.

Section array.
  Context (A : alloc) (b sz : N).
  Hypothesis Hsz : 0 < sz.
  Local Notation O := (overflow A).
  Local Notation bytes v := (Z.of_N (r_bytes sz v)).
  Local Notation sum := (held r_alc (r_bytes sz)).
  Local Notation part := (part r_alc (r_bytes sz)).

  Lemma abytes_new h p n : (p = 0 -> sz * n = 0) -> r_bytes sz (Arr h p (p + n * sz)) = sz * n.
  Proof.
    intros Hp. unfold r_bytes, r_size. cbn. destruct (p =? 0) eqn:E.
    - apply N.eqb_eq in E. symmetry. by apply Hp.
    - replace (p + n * sz - p) with (n * sz) by lia. rewrite N.div_mul; lia.
  Qed.

  Definition aturns (v : arr) (f g : nat -> Z) (r : arr * env O) : Prop :=
    r_alc (fst r) = r_alc v /\ books (snd r) (upd (r_alc v) (bytes (fst r) - bytes v) f) g.
  Lemma aturns_refl v E f g : books E f g -> aturns v f g (v, E).
  Proof.
    intros HB. split; [done|]. cbn [fst snd]. eapply books_ext; [exact HB| |done].
    intros i. unfold upd. destruct (Nat.eqb _ _); lia.
  Qed.
  (** New storage, then the old one is given back. *)
  Lemma aswap_books v n E f g (m : N -> M unit) :
    books E f g ->
    ends (' (p, E) <- te_alloc O b sz (r_alc v) n E ;;
          E <- (if r_beg v =? 0 then ret E else m p ;;; te_free O b sz (r_alc v) (r_beg v) (r_size sz v) E) ;;
          ret (Arr (r_alc v) p (p + n * sz), E)) (aturns v f g).
  Proof.
    intros HB. eapply ends_bind; [by apply alloc_books|]. intros [p E1] (HE & Hp & _). cbn [fst snd] in *.
    apply (ends_bind _ _ (fun E2 => books E2 (upd (r_alc v) (Z.of_N (sz * n) - bytes v) f) g)).
    - unfold r_bytes. destruct (r_beg v =? 0).
      + apply ends_ret. eapply books_ext; [exact HE| |done]. intros i. unfold upd. destruct (Nat.eqb _ _); lia.
      + apply ends_bind'. intros _. eapply ends_imp; [by apply free_books|]. intros E2 H2.
        eapply books_ext; [exact H2| |done]. intros i. unfold upd. rewrite (N.mul_comm sz (r_size sz v)). destruct (Nat.eqb _ _); lia.
    - intros E2 H2. apply ends_ret. split; [done|]. cbn [fst snd]. by rewrite abytes_new.
  Qed.
  Lemma aresize_books v n E f g : books E f g -> ends (aresize O b sz v n E) (aturns v f g).
  Proof.
    intros HB. unfold aresize. destruct (_ =? _); [apply ends_ret; by apply aturns_refl|].
    by apply (aswap_books v n E f g (fun p => memcpy p (r_beg v) (N.min (r_size sz v) n * sz))).
  Qed.
  Lemma afrom_books v src E f g : books E f g -> ends (afrom O b sz v src E) (aturns v f g).
  Proof.
    intros HB. unfold afrom. apply (ends_bind _ _ (aturns v f g)).
    - destruct (_ =? _); [apply ends_ret; by apply aturns_refl|].
      eapply ends_bind; [by apply alloc_books|]. intros [p E1] (HE & Hp & _). cbn [fst snd] in *.
      apply (ends_bind _ _ (fun E2 => books E2 (upd (r_alc v) (Z.of_N (sz * array_length src) - bytes v) f) g)).
      + unfold r_bytes. destruct (r_beg v =? 0).
        * apply ends_ret. eapply books_ext; [exact HE| |done]. intros i. unfold upd. destruct (Nat.eqb _ _); lia.
        * eapply ends_imp; [by apply free_books|]. intros E2 H2.
          eapply books_ext; [exact H2| |done]. intros i. unfold upd. rewrite (N.mul_comm sz (r_size sz v)). destruct (Nat.eqb _ _); lia.
      + intros E2 H2. apply ends_ret. split; [done|]. cbn [fst snd]. by rewrite abytes_new.
    - intros [v' E'] H. apply ends_bind'. intros _. by apply ends_ret.
  Qed.
  Lemma anew_n_books h n E f g :
    books E f g -> ends (anew_n O b sz h n E) (fun r => r_alc (fst r) = h /\ books (snd r) (upd h (bytes (fst r)) f) g).
  Proof.
    intros HB. unfold anew_n. eapply ends_bind; [by apply alloc_books|]. intros [p E1] (HE & Hp & _). cbn [fst snd] in *.
    apply ends_ret. split; [done|]. cbn [fst snd]. by rewrite abytes_new.
  Qed.
  Lemma acopy_of_books h o E f g :
    books E f g -> ends (acopy_of O b sz h o E) (fun r => r_alc (fst r) = h /\ books (snd r) (upd h (bytes (fst r)) f) g).
  Proof.
    intros HB. unfold acopy_of. eapply ends_bind; [by apply anew_n_books|]. intros [v E1] H1. apply ends_bind'. intros _. by apply ends_ret.
  Qed.
  Lemma arelease_books v E f g :
    books E f g -> ends (arelease O b sz v E) (fun E' => books E' (upd (r_alc v) (- bytes v) f) g).
  Proof.
    intros HB. unfold arelease, r_bytes. destruct (r_beg v =? 0).
    - apply ends_ret. eapply books_ext; [exact HB| |done]. intros i. unfold upd. destruct (Nat.eqb _ _); lia.
    - eapply ends_imp; [by apply free_books|]. intros E2 H2. by rewrite (N.mul_comm _ sz).
  Qed.

  Definition a_in := in_books A r_alc (r_bytes sz) (fun _ => 0) (fun _ => True).

  Lemma a_in_ext E (vs : gmap nat arr) f g : books E f g -> (forall i, f i = sum i vs) -> (forall i, g i = 0%Z) -> a_in (E, vs).
  Proof. intros HB Hf Hg. split; [|done]. eapply books_ext; [exact HB|done|]. intros i. by rewrite Hg held_zero. Qed.
  Lemma a_ins i c x vs : sum i (<[c := x]> vs) = (sum i vs - part i (aget c vs) + part i x)%Z.
  Proof. by apply held_insert. Qed.
  Lemma a_del i c vs : sum i (delete c vs) = (sum i vs - part i (aget c vs))%Z.
  Proof. by apply held_delete. Qed.
  Lemma a_turn c vs f g r :
    aturns (aget c vs) f g r -> (forall i, f i = sum i vs) -> (forall i, g i = 0%Z) -> a_in (snd r, <[c := fst r]> vs).
  Proof.
    intros [H1 H2] Hf Hg. eapply a_in_ext; [exact H2| |done]. intros i. unfold upd. rewrite a_ins Hf /BooksProofs.part H1.
    destruct (Nat.eqb _ _); lia.
  Qed.
  Lemma apart_empty i a m : part i (Arr a 0 m) = 0%Z.
  Proof. unfold BooksProofs.part. cbn. destruct (Nat.eqb _ _); done. Qed.
  Lemma aget_none c vs : vs !! c = None -> aget c vs = Arr 0 0 0.
  Proof. unfold aget. by intros ->. Qed.
  Lemma a_new c vs f g h v E :
    r_alc v = h -> books E (upd h (bytes v) f) g -> (forall i, f i = sum i vs) -> (forall i, g i = 0%Z) ->
    vs !! c = None -> a_in (E, <[c := v]> vs).
  Proof.
    intros H1 H2 Hf Hg Hc. eapply a_in_ext; [exact H2| |done]. intros i. unfold upd.
    rewrite a_ins Hf (aget_none c vs Hc) apart_empty /BooksProofs.part H1. destruct (Nat.eqb h i); lia.
  Qed.
  Lemma aupd_part i v f : upd (r_alc v) (- bytes v) f i = (f i - part i v)%Z.
  Proof. unfold upd, BooksProofs.part. destruct (Nat.eqb _ _); lia. Qed.
  Lemma aupd_part' i v f : upd (r_alc v) (bytes v) f i = (f i + part i v)%Z.
  Proof. unfold upd, BooksProofs.part. destruct (Nat.eqb _ _); lia. Qed.

  Lemma astep_books k o q : a_in q -> ends (astep O b sz k o q) (fun r => a_in (snd r)).
  Proof using Hsz.
    destruct q as [E vs]. intros Hin. unfold astep. cbn [snd]. destruct (alegal sz k (a_info sz <$> vs) o) eqn:L; [|by apply ends_ret].
    destruct Hin as [HB _]. cbn [fst snd] in HB.
    set (f := fun h => sum h vs) in HB. set (g := fun h => held r_alc (fun _ => 0) h vs) in HB.
    assert (forall i, f i = sum i vs) as Hf by done.
    assert (forall i, g i = 0%Z) as Hg by (intros; apply held_zero).
    assert (a_in (E, vs)) as Hin by by eapply a_in_ext.
    destruct o; cbn [ado]; cbn [alegal] in L; unfold new_name in L; rewrite -?andb_assoc ?andb_true_iff ?negb_true_iff in L.
    - (* ANew *) apply ends_ret. cbn [snd]. destruct L as [L _]. eapply a_new; [done| |exact Hf|exact Hg|by eapply not_has].
      eapply books_ext; [exact HB| |done]. intros i. by rewrite upd_0.
    - (* ANewN *) eapply ends_bind; [by apply anew_n_books|]. intros [v E1] [H1 H2]. apply ends_ret. cbn [fst snd] in *.
      destruct L as [L _]. eapply a_new; eauto. by eapply not_has.
    - (* ANewFill *) eapply ends_bind; [by apply anew_n_books|]. intros [v E1] [H1 H2]. apply ends_bind'. intros _. apply ends_ret. cbn [fst snd] in *.
      destruct L as [L _]. eapply a_new; eauto. by eapply not_has.
    - (* ANewList *) eapply ends_bind; [by apply anew_n_books|]. intros [v E1] [H1 H2]. apply ends_bind'. intros _. apply ends_ret. cbn [fst snd] in *.
      destruct L as [L _]. eapply a_new; eauto. by eapply not_has.
    - (* ANewRange *) eapply ends_bind; [by apply anew_n_books|]. intros [v E1] [H1 H2]. apply ends_bind'. intros _. apply ends_ret. cbn [fst snd] in *.
      destruct L as [L _]. eapply a_new; eauto. by eapply not_has.
    - (* ACopy *) eapply ends_bind; [by apply acopy_of_books|]. intros [v E1] [H1 H2]. apply ends_ret. cbn [fst snd] in *.
      destruct L as [L _]. eapply a_new; eauto. by eapply not_has.
    - (* AMove *) apply ends_ret. cbn [snd]. destruct L as [L1 L2]. apply not_has in L1. apply is_has in L2 as [x Hx].
      eapply a_in_ext; [exact HB| |done]. intros i. rewrite !a_ins apart_empty Hf. unfold aget.
      rewrite lookup_insert_ne; last (intros ->; congruence). rewrite L1 Hx. cbn. rewrite apart_empty. lia.
    - (* ACopyAl *) eapply ends_bind; [by apply acopy_of_books|]. intros [v E1] [H1 H2]. apply ends_ret. cbn [fst snd] in *.
      destruct L as [L _]. eapply a_new; eauto. by eapply not_has.
    - (* AMoveAl *) destruct L as (L1 & _ & L2 & L3). apply not_has in L1.
      eapply ends_bind; [by apply anew_n_books|]. intros [v E1] [H1 H2]. cbn [fst snd] in *.
      apply (ends_bind _ _ (fun E2 => books E2 (upd (r_alc (aget src vs)) (- bytes (aget src vs)) (upd h (bytes v) f)) g)).
      + unfold r_bytes at 1. destruct (r_beg (aget src vs) =? 0) eqn:Eb.
        * apply ends_ret. eapply books_ext; [exact H2| |done]. intros i. by rewrite upd_0.
        * apply ends_bind'. intros _. eapply ends_imp; [by apply free_books|]. intros E2 HE2.
          apply orb_true_iff in L3 as [L3|L3].
          2: { exfalso. unfold look in L3. rewrite lookup_fmap in L3. apply is_has in L2 as [x Hx].
               unfold aget in Eb. rewrite Hx in L3, Eb. cbn in L3, Eb. unfold id in Eb. congruence. }
          apply N.eqb_eq in L3. intros i s Hs. destruct (HE2 i s Hs) as [Ha Hc]. split; [|done]. rewrite Ha.
          unfold upd. rewrite L3 N.mul_1_r N.mul_1_l /mul64. destruct (Nat.eqb (r_alc (aget src vs)) i); [|done].
          by rewrite !Z.add_opp_r s64_w64_sub N.mul_1_r.
      + intros E2 HE2. apply ends_ret. cbn [snd]. eapply a_in_ext; [exact HE2| |done]. intros i.
        rewrite aupd_part -H1 aupd_part' Hf !a_ins apart_empty. apply is_has in L2 as [x Hx]. unfold aget.
        rewrite lookup_insert_ne; last (intros ->; congruence). rewrite L1 Hx. cbn. rewrite apart_empty. lia.
    - (* ADestroy *) eapply ends_bind; [by apply arelease_books|]. intros E1 H1. apply ends_ret. cbn [snd].
      eapply a_in_ext; [exact H1| |done]. intros i. by rewrite aupd_part a_del Hf.
    - (* AAssign *) eapply ends_bind; [by apply arelease_books|]. intros E1 H1. unfold aassign. cbv beta iota zeta.
      set (v := aget c vs) in *. set (vs1 := <[c := _]> vs).
      eapply ends_bind; [eapply alloc_books; exact H1|]. intros [p E2] (H2 & Hp & _). cbn [fst snd] in *. apply ends_bind'. intros _. apply ends_ret. cbn [snd].
      eapply a_in_ext; [exact H2| |done]. intros i. rewrite a_ins.
      assert (sum i vs1 - part i (aget c vs1) = f i - part i v)%Z as Ev.
      { rewrite /vs1 a_ins Hf /aget lookup_insert. unfold v, aget. cbn [default from_option]. unfold id. lia. }
      set (n := r_size sz (aget src vs1)) in *. rewrite Ev {2}/BooksProofs.part. cbn [r_alc]. rewrite abytes_new //.
      unfold upd at 1. rewrite aupd_part. destruct (Nat.eqb (r_alc (aget c vs1)) i); lia.
    - (* AMoveAssign *) eapply ends_bind; [by apply arelease_books|]. intros E1 H1. unfold amove_assign. apply ends_ret. cbn [snd].
      eapply a_in_ext; [exact H1| |done]. intros i. rewrite aupd_part !a_ins apart_empty Hf.
      destruct (decide (c = src)) as [->|Hn].
      + unfold aget at 4. rewrite lookup_insert. cbn. lia.
      + unfold aget at 4. rewrite lookup_insert_ne //. fold (aget src vs). lia.
    - do 2 (apply ends_bind'; intros ?). by apply ends_ret.
    - do 2 (apply ends_bind'; intros ?). by apply ends_ret.
    - by apply ends_ret.
    - by apply ends_ret.
    - by apply ends_ret.
    - eapply ends_bind; [by apply aresize_books|]. intros [v E1] H1. apply ends_ret. by eapply (a_turn _ _ _ _ (v, E1)).
    - eapply ends_bind; [by apply afrom_books|]. intros [v E1] H1. apply ends_ret. by eapply (a_turn _ _ _ _ (v, E1)).
  Qed.
End array.
