(** The ledger of binary_heap. *)
From iris.proofmode Require Import tactics.
From Verif Require Import Base Mem AlignedMalloc Allocators Checked Tree Client Env Vector Array HeapPure Heap LawsProofs LawsCont Books BooksProofs BooksVec
  BooksHeap Owned OwnedProofs Ledger StillFacts LedgerProofs LedgerVec.

Local Open Scope N_scope.

Section heap.
  Context (pl : platform) (e : aexp) (b sz : N) (k : nat) (Hun : uncounted e = true) (Hsz : 0 < sz).
  Context (T : elt) (comp : nat -> value -> value -> bool) (eqv : value -> value -> bool).
  Local Notation EO := (EOverflow e).
  Local Notation A := (overflow (den pl e)).
  Local Notation legal := (fun vs => hlegal sz T k (h_info <$> vs)).
  Local Notation born := (newborn pl e h_al (h_bytes sz) h_size h_good).
  Local Notation hdo := (hdo A b sz T comp eqv).

  Lemma h_born c h vs f g ob x (E : env A) :
    h_al x = h -> h_good x -> books E (upd h (Z.of_N (h_bytes sz x)) f) (upd h (Z.of_N (h_size x)) g) -> born c h vs f g (ob, (E, <[c := x]> vs)).
  Proof. intros H1 H2 H3. by exists x. Qed.

  Lemma h_make o c h vs : h_role o = RMake c h -> legal vs o = true -> goods h_good vs ->
    (h < k)%nat /\ vs !! c = None /\ forall E f g, books E f g -> ends (hdo o (E, vs)) (born c h vs f g).
  Proof.
    intros Ho HL HG. assert (new_name k (h_info <$> vs) c h = true) as [Hh Hc]%new_name_no.
    { destruct o; try discriminate Ho; injection Ho as <- <-; cbn [hlegal] in HL; first [exact HL|by apply andb_true_iff in HL as [HL _]]. }
    split; [done|]. split; [done|]. intros E f g HB. destruct o; try discriminate Ho; injection Ho as <- <-; cbn [Heap.hdo].
    - apply ends_ret. apply h_born; [done..|]. by apply upd_zero_ext.
    - eapply ends_bind; [by apply alloc_books|]. intros [p E1] (H1 & Hp & _). apply ends_ret. cbn [fst snd] in *. apply h_born; [done|..].
      + unfold h_good. cbn. intros E0. specialize (Hp E0). nia.
      + rewrite hbytes_new //. by apply upd_objects.
    - eapply ends_bind; [by apply alloc_books|]. intros [p E1] (H1 & Hp & _). cbn [fst snd] in *.
      eapply ends_bind; [eapply insert_list_books; [done| |exact H1]|].
      { unfold h_good. cbn. intros E0. specialize (Hp E0). nia. }
      intros [x E2] (K1 & K2 & K3). cbn [fst snd h_al h_size] in *. apply ends_ret. apply h_born; [done..|].
      eapply books_ext; [exact K3| |]; intros i.
      + rewrite hbytes_new // upd_upd. f_equal. lia.
      + f_equal. lia.
    - eapply ends_bind; [by apply hcopy_of_books|]. intros [x E1] (H1 & H2 & H3). apply ends_ret. by apply h_born.
  Qed.

  Lemma h_use o c vs : h_role o = RUse c -> legal vs o = true -> goods h_good vs ->
    exists x, vs !! c = Some x /\ forall E f g, books E f g -> ends (hdo o (E, vs)) (fun r => exists x', snd (snd r) = <[c := x']> vs /\
      h_al x' = h_al x /\ h_good x' /\ books (fst (snd r)) (upd (h_al x) (vz (h_bytes sz) x' - vz (h_bytes sz) x) f) (upd (h_al x) (nz h_size x' - nz h_size x) g)).
  Proof.
    intros Ho HL HG. assert (has (h_info <$> vs) c = true) as [x Hx]%has_get.
    { destruct o; try discriminate Ho; injection Ho as <-; cbn [hlegal] in HL; repeat first [exact HL|apply andb_true_iff in HL as [HL _]]. }
    exists x. split; [done|]. intros E f g HB. assert (h_good x) as Hgx by by apply (HG c x).
    assert (hget c vs = x) as Hg by by rewrite /hget Hx.
    set (R := fun r : cobs * (env A * gmap nat heap) => exists x' : heap, _).
    assert (Hsame : forall ob, R (ob, (E, vs))).
    { intros ob. exists x. cbn [fst snd]. rewrite insert_id //. split; [done|]. split; [done|]. split; [done|]. apply upd_zero_ext; [lia..|done]. }
    assert (Hturn : forall ob v (E1 : env A), hturns (den pl e) sz x f g (v, E1) -> R (ob, (E1, <[c := v]> vs))).
    { intros ob v E1 (H1&H2&H3). by exists v. }
    destruct o; try discriminate Ho; injection Ho as <-; cbn [Heap.hdo]; cbv zeta; rewrite ?Hg.
    - by apply ends_ret.
    - by apply ends_ret.
    - by apply ends_ret.
    - by apply ends_ret.
    - apply ends_bind'. intros ?. by apply ends_ret.
    - (* HReserve *) eapply ends_bind; [by apply hreserve_books|]. intros [v E1] H1. apply ends_ret. by apply Hturn.
    - (* HInsert *) eapply ends_bind; [by apply hinsert_books|]. intros [[i v] E1] H1. apply ends_ret. by apply Hturn.
    - do 2 (apply ends_bind'; intros ?). by apply ends_ret.
    - (* HPop *) cbn [hlegal] in HL. apply andb_true_iff in HL as [HL _]. apply andb_true_iff in HL as [_ HL].
      unfold look in HL. rewrite lookup_fmap Hx in HL. cbn in HL. apply N.ltb_lt in HL.
      eapply ends_bind; [by apply hpop_books|]. intros [[i v] E1] H1. apply ends_ret. by apply Hturn.
    - apply ends_bind'. intros ?. by apply ends_ret.
    - (* HClear *) eapply ends_bind; [by apply destroy_n_books|]. intros E1 H1. apply ends_ret. apply Hturn. split; [done|]. cbn [fst snd]. split.
      { unfold h_good. cbn. intros E0. by destruct (Hgx E0). }
      rewrite N_nat_Z in H1. eapply books_ext; [exact H1| |]; intros i; unfold upd, h_bytes; cbn; destruct (Nat.eqb _ _); lia.
  Qed.

  Lemma h_back_books x vs src (E : env A) f g : vs !! src = Some x ->
    (i_data (look (h_info <$> vs) src) =? 0) || (sz =? 1) && (e_triv T || (i_size (look (h_info <$> vs) src) =? 0)) = true -> books E f g ->
    ends (h_back pl EO b sz x E) (fun E' : env A => books E' (upd (h_al x) (- vz (h_bytes sz) x) f) g).
  Proof.
    intros Hx HL HB. unfold h_back, vz, h_bytes. destruct (h_beg x =? 0) eqn:Hb.
    - apply ends_ret. eapply books_ext; [exact HB| |done]. intros i. by rewrite upd_0.
    - assert (sz = 1) as ->.
      { apply orb_true_iff in HL as [HL|[HL _]%andb_true_iff]; [|by apply N.eqb_eq].
        exfalso. unfold look in HL. rewrite lookup_fmap Hx in HL. cbn in HL. congruence. }
      unfold give_back. apply ends_bind'. intros _.
      eapply ends_imp; [exact (free_books (den pl e) b 1 _ _ _ E f g HB)|]. intros E2 HE2.
      intros i s Hs. destruct (HE2 i s Hs) as [Ha Hc]. split; [|done]. rewrite Ha.
      unfold upd. rewrite !N.mul_1_r ?N.mul_1_l /mul64. destruct (Nat.eqb (h_al x) i); [|done].
      by rewrite !Z.add_opp_r s64_w64_sub ?N.mul_1_r.
  Qed.

  Lemma heap_tallies ops w : forallb (compiles EO h_role) ops = true ->
    tallies (heap_program pl EO b sz k T comp eqv ops w)
      (lsession (den pl EO) b (hstep (den pl EO) b sz T comp eqv k) legal h_role (hrelease (den pl EO) b sz T) (h_bytes sz) h_size k ops w).
  Proof.
    intros HC.
    pose proof (overflow_hushed _ (tree_discreet pl e Hun)) as HA.
    refine (bsession_tallies pl e b k Hun hdo legal h_al h_role (hrelease A b sz T)
      (h_back pl EO b sz) h_gone (h_bytes sz) h_size h_good _ _ _ _ _ _ _ _ _ _ _ _ _ ops w HC).
    - intros o E vs HF. by apply hdo_tame.
    - intros x E HF. by apply hrelease_tame.
    - intros x E HF. unfold h_back. destruct (_ =? _); [apply tame_ret; by intros ? [= <-]|]. exact (give_back_tame A HA b _ sz _ _ _ _ E HF).
    - exact h_make.
    - intros o tmp c src vs Ho HL _. destruct o; try discriminate Ho. injection Ho as <- <- <-. cbn [hlegal] in HL.
      apply andb_true_iff in HL as [L1%negb_true_iff%not_has [x Hx]%has_get]. exists x. split; [done|]. split; [done|].
      intros E f g HB. cbn [Heap.hdo]. rewrite /hget Hx. cbn [default from_option id]. eapply ends_bind; [by apply hcopy_of_books|].
      intros [v E1] (H1&H2&H3). apply ends_ret. by apply h_born.
    - intros o c src vs Ho HL HG. destruct o; try discriminate Ho. injection Ho as <- <-. cbn [hlegal] in HL.
      apply andb_true_iff in HL as [L1%negb_true_iff%not_has [x Hx]%has_get]. exists x, x, (Heap (h_al x) (h_cmp x) 0 0 0).
      split; [done|]. split; [done|]. split; [split; [done|]; split; [done|]; split; [done|]; exact (HG _ _ Hx)|]. split; [done|].
      intros E. cbn [Heap.hdo]. rewrite /hget Hx. cbn [default from_option id]. by apply ends_ret.
    - intros o c src h o1 vs Ho HL HG. destruct o; try discriminate Ho. injection Ho as <- <- <- <-. cbn [hlegal] in HL.
      apply andb_true_iff in HL as [HL L3]. apply andb_true_iff in HL as [[Hh Hc]%new_name_no [x Hx]%has_get].
      exists x. split; [done|]. split; [done|]. split; [done|]. split; [done|]. split.
      + intros E f g HB. cbn [Heap.hdo]. eapply ends_bind; [by apply hcopy_of_books|]. intros [v E1] (H1&H2&H3). apply ends_ret. by apply h_born.
      + intros E f g HB. by eapply h_back_books.
    - exact h_use.
    - intros o c vs Ho HL HG. destruct o; try discriminate Ho. injection Ho as <-. cbn [hlegal] in HL. apply has_get in HL as [x Hx].
      exists x. split; [done|]. intros E f g HB. cbn [Heap.hdo]. rewrite /hget Hx. cbn [default from_option id].
      eapply ends_bind; [apply hrelease_books; [exact (HG _ _ Hx)|exact HB]|]. intros E1 H1. by apply ends_ret.
    - intros x E f g Hg HB. by apply hrelease_books.
    - intros o c src vs Ho _ Hc. unfold compiles in Hc. by rewrite Ho in Hc.
    - intros P o E E' K vs HE. eapply bstep_near; [..|exact HE].
      + intros o' E1 E1' vs' HE'. exact (hdo_same (akin_alike pl EO) b sz T comp eqv o' E1 E1' vs' HE').
      + intros x E1 E1' HE1. exact (h_back_same pl EO b sz x E1 E1' HE1).
      + exact (h_split pl EO b sz k T comp eqv).
    - intros K xs E E' HE. eapply bkill_near; [|exact HE]. intros x E1 E1' HE1. exact (hrelease_same (akin_alike pl EO) b sz T x E1 E1' HE1).
  Qed.
End heap.
