(** Proofs of C75: the books of overflow under containers. *)
From Coq Require Import ssreflect.
From Verif Require Import Base Mem Allocators Client AllocSpec AllocFacts OverflowFacts Env Vector Array HeapPure Heap Books.

Local Open Scope N_scope.

(** * [ends] *)
Lemma ends_ret {X} (a : X) (P : X -> Prop) : P a -> ends (ret a) P.
Proof. intros H w. by right. Qed.
Lemma ends_ub {X} u (P : X -> Prop) : ends (ubm u) P.
Proof. by intros w. Qed.
Lemma ends_any {X} (m : M X) : ends m (fun _ => True).
Proof. intros w. destruct (m w); auto. Qed.
Lemma ends_bind {X Y} (m : M X) (k : X -> M Y) P Q : ends m P -> (forall a, P a -> ends (k a) Q) -> ends (bind m k) Q.
Proof.
  intros Hm Hk w. unfold bind. specialize (Hm w). destruct (m w) as [a w1 e1|]; [|done].
  destruct Hm as [Hl|Hm].
  - destruct (k a w1); [|done]. left. rewrite existsb_app Hl. done.
  - specialize (Hk a Hm w1). destruct (k a w1); [|done]. destruct Hk as [Hk|Hk]; [|by right].
    left. rewrite existsb_app Hk orb_true_r. done.
Qed.
Lemma ends_bind' {X Y} (m : M X) (k : X -> M Y) Q : (forall a, ends (k a) Q) -> ends (bind m k) Q.
Proof. intros Hk. apply (ends_bind m k (fun _ => True)); [apply ends_any|auto]. Qed.
Lemma ends_imp {X} (m : M X) (P Q : X -> Prop) : ends m P -> (forall a, P a -> Q a) -> ends m Q.
Proof. intros H HQ w. specialize (H w). destruct (m w); [|done]. destruct H; auto. Qed.
Lemma ends_emit {X} e (m : M X) P : (lost e = false -> ends m P) -> ends (emit e ;;; m) P.
Proof.
  intros H w. unfold bind, emit. destruct (lost e) eqn:L.
  - destruct (m w); [|done]. left. cbn. by rewrite L.
  - specialize (H eq_refl w). destruct (m w); [|done]. cbn. by rewrite L.
Qed.

(** * Arithmetic *)
Lemma s64_w64 z x : s64 (z + Z.of_N (w64 x)) = s64 (z + Z.of_N x).
Proof.
  unfold w64. rewrite N2Z.inj_mod. change (Z.of_N W) with (2 ^ 64)%Z. rewrite Z.mod_eq //.
  rewrite -(s64_mod (z + Z.of_N x) (- (Z.of_N x / 2 ^ 64))). f_equal. ring.
Qed.
Lemma s64_w64_sub z x : s64 (z - Z.of_N (w64 x)) = s64 (z - Z.of_N x).
Proof.
  unfold w64. rewrite N2Z.inj_mod. change (Z.of_N W) with (2 ^ 64)%Z. rewrite Z.mod_eq //.
  rewrite -(s64_mod (z - Z.of_N x) (Z.of_N x / 2 ^ 64)). f_equal. ring.
Qed.
Lemma s64_sub z d : s64 (s64 z - d) = s64 (z - d).
Proof. by rewrite -Z.add_opp_r s64_add Z.add_opp_r. Qed.

(** * Sums *)
Section held.
  Context {X : Type} (al : X -> nat) (val : X -> N) (d : X).
  Hypothesis Hd : val d = 0.
  Definition part (h : nat) (x : X) : Z := if Nat.eqb (al x) h then Z.of_N (val x) else 0%Z.

  Lemma held_empty h : held al val h ∅ = 0%Z.
  Proof. unfold held. by rewrite map_fold_empty. Qed.
  Lemma held_new h c x vs : vs !! c = None -> held al val h (<[c := x]> vs) = (part h x + held al val h vs)%Z.
  Proof. clear Hd. intros H. unfold held. rewrite map_fold_insert_L //. intros. lia. Qed.
  Lemma held_delete h c vs : held al val h (delete c vs) = (held al val h vs - part h (default d (vs !! c)))%Z.
  Proof using Hd.
    destruct (vs !! c) as [x|] eqn:E; cbn [default from_option].
    - rewrite -{2}(insert_delete vs c x E) held_new ?lookup_delete //. unfold id. lia.
    - rewrite delete_notin //. unfold id, part. rewrite Hd. destruct (Nat.eqb _ _); lia.
  Qed.
  Lemma held_insert h c x vs :
    held al val h (<[c := x]> vs) = (held al val h vs - part h (default d (vs !! c)) + part h x)%Z.
  Proof using Hd. rewrite -insert_delete_insert held_new ?lookup_delete //. rewrite held_delete. lia. Qed.
End held.

Definition upd (h : nat) (z : Z) (f : nat -> Z) : nat -> Z := fun i => (f i + if Nat.eqb h i then z else 0)%Z.

(** * The operations of the allocator *)
Section ops.
  Context (A : alloc) (b sz : N).
  Local Notation O := (overflow A).

  Lemma books_ext (E : env O) f g f' g' : books E f g -> (forall i, f i = f' i) -> (forall i, g i = g' i) -> books E f' g'.
  Proof. intros H Hf Hg h s Hs. rewrite -Hf -Hg. by apply H. Qed.
  Lemma books_insert (E : env O) h s z zc f g :
    books E f g -> o_allocs s = s64 (f h + z) -> o_cons s = s64 (g h + zc) -> books (<[h := s]> E) (upd h z f) (upd h zc g).
  Proof.
    intros H H1 H2 i t Hi. unfold upd. destruct (decide (h = i)) as [->|Hn].
    - rewrite lookup_insert in Hi. injection Hi as <-. by rewrite Nat.eqb_refl.
    - rewrite lookup_insert_ne // in Hi. apply Nat.eqb_neq in Hn as ->. rewrite !Z.add_0_r. by apply H.
  Qed.
  Lemma upd_0 h f i : upd h 0 f i = f i.
  Proof. unfold upd. destruct (Nat.eqb _ _); lia. Qed.

  Lemma alloc_books h n E f g :
    books E f g ->
    ends (te_alloc O b sz h n E)
      (fun r => books (snd r) (upd h (Z.of_N (sz * n)) f) g /\ (fst r = 0 -> sz * n = 0) /\ sz * n < W).
  Proof.
    intros HB. unfold te_alloc. destruct (E !! h) as [s|] eqn:Es; [|apply ends_ub].
    destruct (HB h s Es) as [H1 H2]. apply ends_emit. intros HL. cbn in HL. apply negb_false_iff, N.ltb_lt in HL.
    apply (ends_bind _ _ (fun r : N * a_st O => o_allocs (snd r) = s64 (f h + Z.of_N (sz * n)) /\ o_cons (snd r) = o_cons s)).
    { unfold ta_alloc. cbn [a_alloc O]. unfold ov_alloc. apply ends_bind'. intros [p s'].
      assert (s64 (o_allocs s + Z.of_N (mul64 sz n)) = s64 (f h + Z.of_N (sz * n))) as Hc.
      { unfold mul64. by rewrite s64_w64 H1 s64_add. }
      destruct (p =? 0); [by apply ends_ret|]. do 2 (apply ends_bind'; intros _). by apply ends_ret. }
    intros [p s'] [Ha Hc]. cbn [fst snd] in *.
    apply (ends_bind _ _ (fun _ => p = 0 -> sz * n = 0)).
    { destruct (p =? 0) eqn:Ep, (sz * n =? 0) eqn:En; cbn [andb negb].
      - apply ends_ret. apply N.eqb_eq in En. done.
      - intros w. left. done.
      - apply ends_ret. apply N.eqb_eq in En. done.
      - apply ends_ret. apply N.eqb_neq in Ep. done. }
    intros _ Hp. apply ends_ret. cbn [fst snd]. split; [|done].
    eapply books_ext; [apply (books_insert E h s' (Z.of_N (sz * n)) 0 f g HB); [done|]|done|apply upd_0].
    by rewrite Hc H2 Z.add_0_r.
  Qed.
  Lemma free_books h p n E f g :
    books E f g -> ends (te_free O b sz h p n E) (fun E' => books E' (upd h (- Z.of_N (sz * n)) f) g).
  Proof.
    intros HB. unfold te_free. destruct (E !! h) as [s|] eqn:Es; [|apply ends_ub].
    destruct (HB h s Es) as [H1 H2].
    apply (ends_bind _ _ (fun s' : a_st O => o_allocs s' = s64 (f h + - Z.of_N (sz * n)) /\ o_cons s' = o_cons s)).
    { unfold ta_free. cbn [a_free O]. unfold ov_free. apply ends_bind'. intros _.
      assert (s64 (o_allocs s - Z.of_N (mul64 sz n)) = s64 (f h + - Z.of_N (sz * n))) as Hc.
      { unfold mul64. by rewrite s64_w64_sub H1 s64_sub Z.add_opp_r. }
      destruct (p =? 0); [by apply ends_ret|]. do 4 (apply ends_bind'; intros ?). by apply ends_ret. }
    intros s' [Ha Hc]. apply ends_ret.
    eapply books_ext; [apply (books_insert E h s' (- Z.of_N (sz * n)) 0 f g HB); [done|]|done|apply upd_0].
    by rewrite Hc H2 Z.add_0_r.
  Qed.
  Definition sign (c : cd) : Z := match c with Construct => 1%Z | Destroy => (-1)%Z end.
  Lemma cd_books c h q act E f g :
    books E f g -> ends (te_cd O b c h q act E) (fun E' => books E' f (upd h (sign c) g)).
  Proof.
    intros HB. unfold te_cd. destruct (E !! h) as [s|] eqn:Es; [|apply ends_ub].
    destruct (HB h s Es) as [H1 H2].
    apply (ends_bind _ _ (fun s' : a_st O => o_allocs s' = o_allocs s /\ o_cons s' = s64 (g h + sign c))).
    { unfold traits_cd. cbn [a_cd O]. unfold ov_cd.
      assert (s64 (match c with Construct => o_cons s + 1 | Destroy => o_cons s - 1 end) = s64 (g h + sign c)) as Hc.
      { rewrite H2. destruct c; [apply s64_add|]. cbn [sign]. by rewrite s64_sub. }
      destruct (a_cd A); apply ends_bind'; intros ?; by apply ends_ret. }
    intros s' [Ha Hc]. apply ends_ret.
    eapply books_ext; [apply (books_insert E h s' 0 (sign c) f g HB); [|done]|apply upd_0|done].
    by rewrite Ha H1 Z.add_0_r.
  Qed.

  Lemma init_books h E f g : books E f g -> f h = 0%Z -> g h = 0%Z -> ends (te_init O b h E) (fun E' => books E' f g).
  Proof.
    intros HB Hf Hg. unfold te_init. cbn [a_init O].
    apply (ends_bind _ _ (fun s : a_st O => o_allocs s = 0%Z /\ o_cons s = 0%Z)).
    { apply ends_bind'. intros s. by apply ends_ret. }
    intros s [H1 H2]. apply ends_ret. eapply books_ext; [apply (books_insert E h s 0 0 f g HB)|apply upd_0|apply upd_0].
    - by rewrite H1 Hf.
    - by rewrite H2 Hg.
  Qed.
  Lemma init_all_books k h E : books E (fun _ => 0%Z) (fun _ => 0%Z) -> ends (init_all O b h k E) (fun E' => books E' (fun _ => 0%Z) (fun _ => 0%Z)).
  Proof.
    revert h E. induction k as [|k IH]; intros h E HB; cbn [init_all]; [by apply ends_ret|].
    eapply ends_bind; [by apply init_books|]. intros E' HE. by apply IH.
  Qed.

  (** * Programs *)
  Section run.
    Context {X Op : Type} (al : X -> nat) (val num : X -> N) (d : X) (good : X -> Prop).
    Context (stp : Op -> env O * gmap nat X -> M (cobs * (env O * gmap nat X))).
    Context (kill : X -> env O -> M (env O)) (allowed : Op -> bool).
    Definition in_books (q : env O * gmap nat X) : Prop :=
      books (fst q) (fun h => held al val h (snd q)) (fun h => held al num h (snd q)) /\ map_Forall (fun _ x => good x) (snd q).
    Hypothesis Hstep : forall o q, allowed o = true -> in_books q -> ends (stp o q) (fun r => in_books (snd r)).
    Hypothesis Hkill : forall x E f g, good x -> books E f g ->
      ends (kill x E) (fun E' => books E' (upd (al x) (- Z.of_N (val x)) f) (upd (al x) (- Z.of_N (num x)) g)).

    Lemma crun_books ops q : forallb allowed ops = true -> in_books q -> ends (crun O stp ops q) (fun r => in_books (snd r)).
    Proof using Hstep.
      clear Hkill. revert q. induction ops as [|o ops IH]; intros q Ha Hq; cbn [crun]; [by apply ends_ret|].
      cbn in Ha. apply andb_true_iff in Ha as [Ho Ha].
      eapply ends_bind; [by apply Hstep|]. intros [ob q'] Hq'. cbn in Hq'.
      eapply ends_bind; [by apply IH|]. intros [os q''] Hq''. by apply ends_ret.
    Qed.
    Lemma crun_from_books k ops : forallb allowed ops = true -> ends (crun_from O b stp k ops) (fun r => in_books (snd r)).
    Proof using Hstep.
      clear Hkill. intros Ha. unfold crun_from. eapply ends_bind; [apply (init_all_books k 0 ∅)|].
      { intros h s Hs. by rewrite lookup_empty in Hs. }
      intros E HE. apply crun_books; [done|]. split; [|apply map_Forall_empty]. cbn [fst snd].
      eapply books_ext; [exact HE| |]; intros i; by rewrite held_empty.
    Qed.

    Definition lsum (v : X -> N) (xs : list (nat * X)) (h : nat) : Z := foldr (fun kx z => (part al v h (snd kx) + z)%Z) 0%Z xs.
    Lemma held_list v h vs : held al v h vs = lsum v (map_to_list vs) h.
    Proof.
      clear Hstep Hkill. unfold held, lsum, part, map_fold. cbn. induction (map_to_list vs) as [|[k x] l IH]; [done|]. cbn. by rewrite -IH.
    Qed.
    Lemma lsum_cons v c x xs h : lsum v ((c, x) :: xs) h = (part al v h x + lsum v xs h)%Z.
    Proof. done. Qed.
    Lemma kill_all_books xs E :
      books E (lsum val xs) (lsum num xs) -> Forall (fun kx => good (snd kx)) xs ->
      ends (kill_all O kill xs E) (fun E' => books E' (fun _ => 0%Z) (fun _ => 0%Z)).
    Proof using Hkill.
      clear Hstep. revert E. induction xs as [|[c x] xs IH]; intros E HB HF; cbn [kill_all].
      { by apply ends_ret. }
      apply Forall_cons_iff in HF as [Hx HF]. cbn [snd] in Hx.
      eapply ends_bind; [by apply Hkill|]. intros E' HE. apply IH; [|done].
      eapply books_ext; [exact HE| |]; intros i; unfold upd; rewrite lsum_cons; unfold part; destruct (Nat.eqb _ _); lia.
    Qed.
    Lemma crun_to_end_books k ops :
      forallb allowed ops = true -> ends (crun_to_end O b stp kill k ops) (fun r => books (snd r) (fun _ => 0%Z) (fun _ => 0%Z)).
    Proof using Hstep Hkill.
      intros Ha. unfold crun_to_end. eapply ends_bind; [by apply crun_from_books|]. intros [os [E vs]] [HB HF]. cbn [fst snd] in *.
      eapply ends_bind; [apply kill_all_books|intros E' HE; by apply ends_ret].
      - eapply books_ext; [exact HB| |]; intros i; apply held_list.
      - apply Forall_forall. intros [c x] Hin. apply elem_of_list_In, elem_of_map_to_list in Hin. by apply (HF c x).
    Qed.
  End run.
End ops.
