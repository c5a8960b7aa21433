(** C75 for binary_heap. *)
From Coq Require Import ssreflect.
From Verif Require Import Base Mem Allocators Client Env Vector Array HeapPure Heap Books BooksProofs BooksVec.

Local Open Scope N_scope.

(** No storage, no elements. *)
Definition h_good (x : heap) : Prop := h_beg x = 0 -> h_size x = 0 /\ h_cap x = 0.

Section heap.
  Context (A : alloc) (b sz : N) (T : elt).
  Hypothesis Hsz : 0 < sz.
  Local Notation O := (overflow A).
  Local Notation bytes x := (Z.of_N (h_bytes sz x)).
  Local Notation num x := (Z.of_N (h_size x)).
  Local Notation sum := (held h_al (h_bytes sz)).
  Local Notation cnt := (held h_al h_size).
  Local Notation pb := (part h_al (h_bytes sz)).
  Local Notation pn := (part h_al h_size).

  Lemma hbytes_new h q m n p : (p = 0 -> sz * n = 0) -> h_bytes sz (Heap h q m n p) = sz * n.
  Proof.
    intros Hp. unfold h_bytes. cbn. destruct (p =? 0) eqn:E; [|lia]. apply N.eqb_eq in E. symmetry. by apply Hp.
  Qed.
  Lemma upd_upd h z z' f i : upd h z (upd h z' f) i = upd h (z' + z) f i.
  Proof. clear Hsz. unfold upd. destruct (Nat.eqb _ _); lia. Qed.

  Lemma copy_n_books h dst src n E f g :
    books E f g -> ends (copy_n O b sz T h dst src n E) (fun E' => books E' f (upd h (Z.of_nat n) g)).
  Proof.
    clear Hsz. revert dst src E g. induction n as [|n IH]; intros dst src E g HB; cbn [copy_n].
    - apply ends_ret. eapply books_ext; [exact HB|done|]. intros i. by rewrite upd_0.
    - eapply ends_bind; [unfold construct; by apply cd_books|]. intros E1 H1. eapply ends_imp; [apply IH; exact H1|].
      intros E2 H2. eapply books_ext; [exact H2|done|]. intros i. rewrite upd_upd. f_equal. cbn [sign]. lia.
  Qed.
  Lemma move_n_books h dst src n E f g :
    books E f g -> ends (move_n O b sz T h dst src n E) (fun E' => books E' f (upd h (Z.of_nat n) g)).
  Proof.
    clear Hsz. revert dst src E g. induction n as [|n IH]; intros dst src E g HB; cbn [move_n].
    - apply ends_ret. eapply books_ext; [exact HB|done|]. intros i. by rewrite upd_0.
    - eapply ends_bind; [unfold construct_move; by apply cd_books|]. intros E1 H1. eapply ends_imp; [apply IH; exact H1|].
      intros E2 H2. eapply books_ext; [exact H2|done|]. intros i. rewrite upd_upd. f_equal. cbn [sign]. lia.
  Qed.
  Lemma destroy_n_books h p n E f g :
    books E f g -> ends (destroy_n O b sz T h p n E) (fun E' => books E' f (upd h (- Z.of_nat n) g)).
  Proof.
    clear Hsz. revert p E g. induction n as [|n IH]; intros p E g HB; cbn [destroy_n].
    - apply ends_ret. eapply books_ext; [exact HB|done|]. intros i. by rewrite upd_0.
    - eapply ends_bind; [unfold destroy; by apply cd_books|]. intros E1 H1. eapply ends_imp; [apply IH; exact H1|].
      intros E2 H2. eapply books_ext; [exact H2|done|]. intros i. rewrite upd_upd. f_equal. cbn [sign]. lia.
  Qed.

  Lemma hrelease_books x E f g :
    h_good x -> books E f g ->
    ends (hrelease O b sz T x E) (fun E' => books E' (upd (h_al x) (- bytes x) f) (upd (h_al x) (- num x) g)).
  Proof.
    intros Hg HB. unfold hrelease, h_bytes. destruct (h_beg x =? 0) eqn:E0.
    - apply N.eqb_eq in E0. destruct (Hg E0) as [-> _]. apply ends_ret. eapply books_ext; [exact HB| |]; intros i; by rewrite upd_0.
    - eapply ends_bind; [by apply destroy_n_books|]. intros E1 H1. unfold give_back. apply ends_bind'. intros _.
      eapply ends_imp; [eapply free_books; exact H1|]. intros E2 H2. rewrite (N.mul_comm _ sz).
      by rewrite N_nat_Z in H2.
  Qed.

  Definition hturns (x : heap) (f g : nat -> Z) (r : heap * env O) : Prop :=
    h_al (fst r) = h_al x /\ h_good (fst r) /\
    books (snd r) (upd (h_al x) (bytes (fst r) - bytes x) f) (upd (h_al x) (num (fst r) - num x) g).

  Lemma hturns_refl x E f g : h_good x -> books E f g -> hturns x f g (x, E).
  Proof.
    intros Hg HB. split; [done|]. split; [done|]. cbn [fst snd]. eapply books_ext; [exact HB| |];
      intros i; unfold upd; destruct (Nat.eqb _ _); lia.
  Qed.

  Lemma hset_size_books x n E f g :
    h_good x -> books E f g -> ends (hset_size O b sz T x n E) (fun r => hturns x f g r /\ h_cap (fst r) = n /\ h_size (fst r) = N.min (h_size x) n).
  Proof using Hsz.
    intros Hg HB. unfold hset_size. eapply ends_bind; [by apply alloc_books|]. intros [p E1] (HE & Hp & _). cbn [fst snd] in *.
    apply (ends_bind _ _ (fun E2 => books E2 (upd (h_al x) (Z.of_N (sz * n) - bytes x) f) (upd (h_al x) (Z.of_N (N.min (h_size x) n) - num x) g))).
    - unfold h_bytes. destruct (h_beg x =? 0) eqn:E0.
      + apply ends_ret. apply N.eqb_eq in E0. destruct (Hg E0) as [-> _].
        eapply books_ext; [exact HE| |]; intros i; unfold upd; destruct (Nat.eqb _ _); lia.
      + eapply ends_bind; [eapply move_n_books; exact HE|]. intros E2 H2.
        eapply ends_bind; [eapply destroy_n_books; exact H2|]. intros E3 H3. unfold give_back. apply ends_bind'. intros _.
        eapply ends_imp; [eapply free_books; exact H3|]. intros E4 H4. rewrite !N_nat_Z in H4.
        eapply books_ext; [exact H4| |]; intros i; unfold upd; rewrite ?(N.mul_comm sz (h_cap x)); destruct (Nat.eqb _ _); lia.
    - intros E2 H2. apply ends_ret. cbn [fst snd h_cap h_size]. split; [|done]. split; [done|]. cbn [fst snd]. split.
      + unfold h_good. cbn. intros Ep. specialize (Hp Ep). assert (n = 0) as -> by nia. lia.
      + by rewrite hbytes_new.
  Qed.
  Lemma hexpand_books x n E f g :
    h_good x -> 0 < n -> books E f g -> ends (hexpand O b sz T x n E) (fun r => hturns x f g r /\ 0 < h_cap (fst r)).
  Proof using Hsz.
    intros Hg Hn HB. unfold hexpand. apply ends_emit. intros HL. cbn in HL. apply negb_false_iff, N.ltb_lt in HL.
    eapply ends_imp; [by apply hset_size_books|]. intros [y E'] (H1 & H2 & _). split; [done|]. rewrite H2.
    rewrite w64_small; nia.
  Qed.
  Lemma hreserve_books x n E f g : h_good x -> books E f g -> ends (hreserve O b sz T x n E) (hturns x f g).
  Proof using Hsz.
    intros Hg HB. unfold hreserve. destruct (_ <? _); [|apply ends_ret; by apply hturns_refl].
    eapply ends_imp; [by apply hset_size_books|]. intros r H. apply H.
  Qed.

  Lemma hcopy_of_books h o E f g :
    books E f g ->
    ends (hcopy_of O b sz T h o E) (fun r => h_al (fst r) = h /\ h_good (fst r) /\ books (snd r) (upd h (bytes (fst r)) f) (upd h (num (fst r)) g)).
  Proof using Hsz.
    intros HB. unfold hcopy_of. eapply ends_bind; [by apply alloc_books|]. intros [p E1] (HE & Hp & _). cbn [fst snd] in *.
    eapply ends_bind; [eapply copy_n_books; exact HE|]. intros E2 H2. apply ends_ret. split; [done|]. cbn [fst snd]. split.
    - unfold h_good. cbn. intros Ep. specialize (Hp Ep). nia.
    - rewrite hbytes_new //. by rewrite N_nat_Z in H2.
  Qed.

  Definition h_in := in_books A h_al (h_bytes sz) h_size h_good.

  Lemma h_in_ext E (vs : gmap nat heap) f g :
    books E f g -> map_Forall (fun _ x => h_good x) vs -> (forall i, f i = sum i vs) -> (forall i, g i = cnt i vs) -> h_in (E, vs).
  Proof. clear Hsz. intros HB HF Hf Hg. split; [|done]. by eapply books_ext. Qed.
  Lemma b_ins i c x vs : sum i (<[c := x]> vs) = (sum i vs - pb i (hget c vs) + pb i x)%Z.
  Proof. clear Hsz. by apply held_insert. Qed.
  Lemma n_ins i c x vs : cnt i (<[c := x]> vs) = (cnt i vs - pn i (hget c vs) + pn i x)%Z.
  Proof. clear Hsz. by apply held_insert. Qed.
  Lemma b_del i c vs : sum i (delete c vs) = (sum i vs - pb i (hget c vs))%Z.
  Proof. clear Hsz. by apply held_delete. Qed.
  Lemma n_del i c vs : cnt i (delete c vs) = (cnt i vs - pn i (hget c vs))%Z.
  Proof. clear Hsz. by apply held_delete. Qed.
  Lemma pb_empty i a q m n : pb i (Heap a q m n 0) = 0%Z.
  Proof. clear Hsz. unfold part. cbn. destruct (Nat.eqb _ _); done. Qed.
  Lemma pn_empty i a q n p : pn i (Heap a q 0 n p) = 0%Z.
  Proof. clear Hsz. unfold part. cbn. destruct (Nat.eqb _ _); done. Qed.
  Lemma hget_none c vs : vs !! c = None -> hget c vs = Heap 0 0 0 0 0.
  Proof. unfold hget. by intros ->. Qed.
  Lemma hget_good c vs : map_Forall (fun _ x => h_good x) vs -> h_good (hget c vs).
  Proof.
    intros H. unfold hget. destruct (vs !! c) as [x|] eqn:E; cbn; [by apply (H c x)|]. done.
  Qed.

  Lemma h_turn c vs f g r :
    hturns (hget c vs) f g r -> map_Forall (fun _ x => h_good x) vs -> (forall i, f i = sum i vs) -> (forall i, g i = cnt i vs) ->
    h_in (snd r, <[c := fst r]> vs).
  Proof.
    clear Hsz. intros (H1 & H2 & H3) HF Hf Hg. eapply h_in_ext; [exact H3|by apply map_Forall_insert_2| |]; intros i; unfold upd.
    - rewrite b_ins Hf /part H1. destruct (Nat.eqb _ _); lia.
    - rewrite n_ins Hg /part H1. destruct (Nat.eqb _ _); lia.
  Qed.
  Lemma h_new c vs f g h x E :
    h_al x = h -> h_good x -> books E (upd h (bytes x) f) (upd h (num x) g) -> map_Forall (fun _ x => h_good x) vs ->
    (forall i, f i = sum i vs) -> (forall i, g i = cnt i vs) -> vs !! c = None -> h_in (E, <[c := x]> vs).
  Proof.
    clear Hsz. intros H1 H2 H3 HF Hf Hg Hc. eapply h_in_ext; [exact H3|by apply map_Forall_insert_2| |]; intros i; unfold upd.
    - rewrite b_ins Hf (hget_none c vs Hc) pb_empty /part H1. destruct (Nat.eqb h i); lia.
    - rewrite n_ins Hg (hget_none c vs Hc) pn_empty /part H1. destruct (Nat.eqb h i); lia.
  Qed.
  Lemma upd_pb i x f : upd (h_al x) (- bytes x) f i = (f i - pb i x)%Z.
  Proof. clear Hsz. unfold upd, part. destruct (Nat.eqb _ _); lia. Qed.
  Lemma upd_pn i x f : upd (h_al x) (- num x) f i = (f i - pn i x)%Z.
  Proof. clear Hsz. unfold upd, part. destruct (Nat.eqb _ _); lia. Qed.

  Context (comp : nat -> value -> value -> bool).
  Lemma hinsert_books x src E f g :
    h_good x -> books E f g -> ends (hinsert O b sz T comp x src E) (fun r => hturns x f g (snd (fst r), snd r)).
  Proof using Hsz.
    intros Hg HB. unfold hinsert.
    apply (ends_bind _ _ (fun r => hturns x f g r /\ h_beg (fst r) <> 0)).
    - destruct (h_size x =? h_cap x) eqn:Ec.
      + eapply ends_imp; [apply hexpand_books; [done|lia|done]|]. intros r (H1 & H2). split; [done|].
        intros H0. destruct H1 as (_ & Hr & _). destruct (Hr H0). lia.
      + apply ends_ret. split; [by apply hturns_refl|]. cbn [fst]. intros H0. destruct (Hg H0). apply N.eqb_neq in Ec. lia.
    - intros [y E1] ((H1 & H2 & H3) & H0). cbn [fst snd] in *.
      eapply ends_bind; [unfold construct; eapply cd_books; exact H3|]. intros E2 HE2. apply ends_bind'. intros i. apply ends_ret.
      split; [done|]. cbn [fst snd]. split; [by unfold h_good|].
      eapply books_ext; [exact HE2|done|]. intros j. rewrite H1 upd_upd. f_equal. cbn [sign h_size]. lia.
  Qed.
  Lemma insert_list_books x l E f g :
    h_good x -> books E f g -> ends (insert_list O b sz T comp x l E) (hturns x f g).
  Proof using Hsz.
    revert x E f g. induction l as [|v l IH]; intros x E f g Hg HB; cbn [insert_list].
    - apply ends_ret. by apply hturns_refl.
    - eapply ends_bind; [by apply hinsert_books|]. intros [[i y] E1] (H1 & H2 & H3). cbn [fst snd] in *.
      eapply ends_imp; [apply IH; [exact H2|exact H3]|]. intros [z E2] (K1 & K2 & K3). cbn [fst snd] in *.
      split; [by rewrite -H1|]. split; [done|]. cbn [fst snd].
      eapply books_ext; [exact K3| |]; intros j; rewrite H1 upd_upd; f_equal; lia.
  Qed.
  Lemma hpop_books x E f g :
    h_good x -> 0 < h_size x -> books E f g -> ends (hpop O b sz T comp x E) (fun r => hturns x f g (snd (fst r), snd r)).
  Proof using.
    clear Hsz. intros Hg Hs HB. unfold hpop. do 3 (apply ends_bind'; intros ?).
    eapply ends_bind; [unfold destroy; eapply cd_books; exact HB|]. intros E1 H1. apply ends_bind'. intros _. apply ends_ret.
    split; [done|]. cbn [fst snd]. split; [unfold h_good; cbn; intros H0; destruct (Hg H0); lia|].
    eapply books_ext; [exact H1| |].
    - intros i. unfold upd, h_bytes. cbn. destruct (Nat.eqb _ _), (h_beg x =? 0); lia.
    - intros i. unfold upd. cbn [sign h_size]. destruct (Nat.eqb _ _); lia.
  Qed.
  Context (eqv : value -> value -> bool).
  Lemma hstep_books k o q : no_move_al o = true -> h_in q -> ends (hstep O b sz T comp eqv k o q) (fun r => h_in (snd r)).
  Proof using Hsz.
    intros Hno. destruct q as [E vs]. intros Hin. unfold hstep. cbn [snd].
    destruct (hlegal sz T k (h_info <$> vs) o) eqn:L; [|by apply ends_ret].
    assert (h_in (E, vs)) as Hin' by done.
    destruct Hin as [HB HF]. cbn [fst snd] in HB, HF.
    set (f := fun h => sum h vs) in HB. set (g := fun h => cnt h vs) in HB.
    assert (forall i, f i = sum i vs) as Hf by done.
    assert (forall i, g i = cnt i vs) as Hg by done.
    destruct o; cbn [hdo]; cbn [hlegal] in L; unfold new_name in L; rewrite -?andb_assoc ?andb_true_iff ?negb_true_iff in L.
    - (* HNew *) apply ends_ret. cbn [snd]. destruct L as [L _]. eapply h_new; [done|done| |exact HF|exact Hf|exact Hg|by eapply not_has].
      eapply books_ext; [exact HB| |]; intros i; by rewrite upd_0.
    - (* HNewCap *) eapply ends_bind; [by apply alloc_books|]. intros [p E1] (H1 & Hp & _). apply ends_ret. cbn [fst snd] in *.
      destruct L as [L _]. eapply h_new; [done| | |exact HF|exact Hf|exact Hg|by eapply not_has].
      + unfold h_good. cbn. intros E0. specialize (Hp E0). nia.
      + rewrite hbytes_new //. eapply books_ext; [exact H1|done|]. intros i. by rewrite upd_0.
    - (* HNewList *) eapply ends_bind; [by apply alloc_books|]. intros [p E1] (H1 & Hp & _). cbn [fst snd] in *.
      eapply ends_bind; [eapply insert_list_books; [|exact H1]|].
      { unfold h_good. cbn. intros E0. specialize (Hp E0). nia. }
      intros [x E2] (K1 & K2 & K3). cbn [fst snd h_al h_size] in *. apply ends_ret. cbn [snd].
      destruct L as [L _]. eapply h_new; [exact K1|done| |exact HF|exact Hf|exact Hg|by eapply not_has].
      eapply books_ext; [exact K3| |]; intros i.
      + rewrite hbytes_new // upd_upd. f_equal. lia.
      + f_equal. lia.
    - (* HCopy *) eapply ends_bind; [by apply hcopy_of_books|]. intros [x E1] (H1 & H2 & H3). apply ends_ret. cbn [fst snd] in *.
      destruct L as [L _]. eapply h_new; eauto. by eapply not_has.
    - (* HMove *) apply ends_ret. cbn [snd]. destruct L as [L1 L2]. apply not_has in L1. apply is_has in L2 as [x Hx].
      eapply h_in_ext; [exact HB| | |].
      { apply map_Forall_insert_2; [done|]. apply map_Forall_insert_2; [|done]. by apply hget_good. }
      + intros i. rewrite !b_ins pb_empty Hf. unfold hget.
        rewrite lookup_insert_ne; last (intros ->; congruence). rewrite L1 Hx. cbn. rewrite pb_empty. lia.
      + intros i. rewrite !n_ins pn_empty Hg. unfold hget.
        rewrite lookup_insert_ne; last (intros ->; congruence). rewrite L1 Hx. cbn. rewrite pn_empty. lia.
    - (* HCopyAl *) eapply ends_bind; [by apply hcopy_of_books|]. intros [x E1] (H1 & H2 & H3). apply ends_ret. cbn [fst snd] in *.
      destruct L as [L _]. eapply h_new; eauto. by eapply not_has.
    - (* HMoveAl *) done.
    - (* HDestroy *) eapply ends_bind; [by apply hrelease_books; [apply hget_good|]|]. intros E1 H1. apply ends_ret. cbn [snd].
      eapply h_in_ext; [exact H1|by apply map_Forall_delete| |]; intros i.
      + by rewrite upd_pb b_del Hf.
      + by rewrite upd_pn n_del Hg.
    - (* HAssign *) eapply ends_bind; [by apply hrelease_books; [apply hget_good|]|]. intros E1 H1. unfold hassign. cbv beta iota zeta.
      set (v := hget c vs) in *. set (o := hget src vs) in *. set (vs1 := <[c := _]> vs).
      assert (hget c vs1 = Heap (h_al o) (h_cmp o) (h_size o) (h_size o) (h_beg v)) as Ex by by rewrite /hget lookup_insert.
      rewrite Ex. cbn [h_al h_cap h_size h_cmp].
      eapply ends_bind; [eapply alloc_books; exact H1|]. intros [p E2] (H2 & Hp & _). cbn [fst snd] in *.
      eapply ends_bind; [eapply copy_n_books; exact H2|]. intros E3 H3. apply ends_ret. cbn [snd]. rewrite N_nat_Z in H3.
      rewrite /vs1 insert_insert.
      eapply h_in_ext; [exact H3| | |].
      { apply map_Forall_insert_2; [|done]. unfold h_good. cbn. intros E0. specialize (Hp E0). nia. }
      + intros i. rewrite b_ins. fold v. rewrite {2}/part. cbn [h_al]. rewrite hbytes_new //. unfold upd at 1. rewrite upd_pb Hf.
        destruct (Nat.eqb (h_al o) i); lia.
      + intros i. rewrite n_ins. fold v. rewrite {2}/part. cbn [h_al h_size]. unfold upd at 1. rewrite upd_pn Hg.
        destruct (Nat.eqb (h_al o) i); lia.
    - (* HMoveAssign *) eapply ends_bind; [by apply hrelease_books; [apply hget_good|]|]. intros E1 H1. unfold hmove_assign. apply ends_ret. cbn [snd].
      eapply h_in_ext; [exact H1| | |].
      { apply map_Forall_insert_2; [done|]. apply map_Forall_insert_2; [|done]. by apply hget_good. }
      + intros i. rewrite upd_pb !b_ins pb_empty Hf. destruct (decide (c = src)) as [->|Hn].
        * unfold hget at 4. rewrite lookup_insert. cbn. lia.
        * unfold hget at 4. rewrite lookup_insert_ne //. fold (hget src vs). lia.
      + intros i. rewrite upd_pn !n_ins pn_empty Hg. destruct (decide (c = src)) as [->|Hn].
        * unfold hget at 4. rewrite lookup_insert. cbn. lia.
        * unfold hget at 4. rewrite lookup_insert_ne //. fold (hget src vs). lia.
    - by apply ends_ret.
    - by apply ends_ret.
    - by apply ends_ret.
    - by apply ends_ret.
    - (* HAt *) apply ends_bind'. intros ?. by apply ends_ret.
    - (* HReserve *) eapply ends_bind; [by apply hreserve_books; [apply hget_good|]|]. intros [x E1] H1. apply ends_ret.
      by eapply (h_turn _ _ _ _ (x, E1)).
    - (* HInsert *) eapply ends_bind; [by apply hinsert_books; [apply hget_good|]|]. intros [[i x] E1] H1. apply ends_ret.
      by eapply (h_turn _ _ _ _ (x, E1)).
    - (* HPeek *) do 2 (apply ends_bind'; intros ?). by apply ends_ret.
    - (* HPop *) destruct L as (L1 & L2 & _). apply is_has in L1 as [y Hy]. unfold look in L2. rewrite lookup_fmap Hy in L2. cbn in L2.
      eapply ends_bind; [apply hpop_books; [by apply hget_good| |exact HB]|].
      { unfold hget. rewrite Hy. cbn. unfold id. by apply N.ltb_lt. }
      intros [[i x] E1] H1. apply ends_ret. by eapply (h_turn _ _ _ _ (x, E1)).
    - (* HFind *) apply ends_bind'. intros ?. by apply ends_ret.
    - (* HClear *) eapply ends_bind; [by apply destroy_n_books|]. intros E1 H1. apply ends_ret. cbn [snd].
      set (x := hget c vs) in *. assert (h_good x) as Hx by by apply hget_good.
      eapply (h_turn c vs f g (_, E1)); [|done|done|done]. split; [done|]. cbn [fst snd]. split.
      { unfold h_good. cbn. intros E0. destruct (Hx E0). done. }
      rewrite N_nat_Z in H1. eapply books_ext; [exact H1| |]; intros i; unfold upd, h_bytes; cbn; fold x; destruct (Nat.eqb _ _); lia.
  Qed.
End heap.
