(** The heap that a composition holds on to is bounded by what its client holds. *)
From iris.proofmode Require Import tactics.
From Verif Require Import Base Mem Sep Wp Bits AlignedMalloc AlignedMallocProofs Allocators Contract Adequacy
  LinearProofs BasicProofs PairProofs FreelistProofs OverflowProofs NodeProofs CascadingProofs BitsProofs Checked CheckedProofs Tree TreeProofs
  Client ClientProofs AllocSpec AllocFacts LinearFacts NoFail LawsProofs MiscFacts Footprint Budget.

Local Open Scope N_scope.

(** * Bytes of the heap *)
Lemma total_insert t i n : t !! i = None -> total (<[i := n]> t) = n + total t.
Proof. intros H. unfold total. rewrite map_fold_insert_L //. intros. lia. Qed.
Lemma total_union t1 t2 : t1 ##ₘ t2 -> total (t1 ∪ t2) = total t1 + total t2.
Proof.
  induction t1 as [|i n t1 Hi IH] using map_ind; intros Hd.
  - rewrite left_id_L. unfold total. rewrite map_fold_empty. lia.
  - apply map_disjoint_insert_l in Hd as [H1 Hd]. rewrite -insert_union_l !total_insert //; [rewrite IH //; lia|].
    by apply lookup_union_None.
Qed.

(** At most [k] blocks with at most [m] bytes are owned. *)
Definition hcap_def (k : nat) (m : N) : hprop := HProp (λ s, (size (mtab s) <= k)%nat /\ total (mtab s) <= m).
Definition hcap_aux : seal (@hcap_def). Proof. by eexists. Qed.
Definition hcap : nat -> N -> hpropI := hcap_aux.(unseal).
Definition hcap_eq : @hcap = @hcap_def := hcap_aux.(seal_eq).

Lemma hcap_sep k m k' m' : hcap k m ∗ hcap k' m' ⊢ hcap (k + k') (m + m').
Proof.
  rewrite hunfold_entails. intros s. rewrite hunfold_sep. intros (s1&s2&->&[_ Hd]&H1&H2).
  rewrite hcap_eq in H1, H2 |- *. cbn in H1, H2 |- *. rewrite map_size_disj_union // total_union //. lia.
Qed.
Lemma hcap_mono k m k' m' : (k <= k')%nat -> m <= m' -> hcap k m ⊢ hcap k' m'.
Proof. intros H1 H2. rewrite hunfold_entails. intros s. rewrite hcap_eq. cbn. lia. Qed.
Lemma ntok_hcap : ntok 0 ⊢ hcap 0 0.
Proof.
  rewrite hunfold_entails. intros s. rewrite ntok_eq hcap_eq. cbn. intros H. apply map_size_empty_inv in H as ->.
  rewrite map_size_empty. unfold total. rewrite map_fold_empty. lia.
Qed.
Lemma hcap_0 k m : hcap k m ∗ hcap 0 0 ⊢ hcap k m.
Proof. rewrite hcap_sep. apply hcap_mono; lia. Qed.
Lemma tok_hcap a n : tok a n ⊢ hcap 1 n.
Proof.
  rewrite hunfold_entails. intros s. rewrite tok_eq hcap_eq. cbn. intros ->. cbn. rewrite map_size_singleton.
  unfold total. rewrite -insert_empty. change (map_fold _ _ _) with (total (<[a := n]> ∅)).
  rewrite total_insert; [|apply lookup_empty]. unfold total. rewrite map_fold_empty. lia.
Qed.
Lemma amtok_hcap pl p n : amtok pl p n ⊢ hcap 1 (n + over pl).
Proof.
  unfold amtok. destruct pl; cbn [over]; rewrite ?N.add_0_r; try apply tok_hcap; [by iIntros "[]"|].
  iIntros "(%ptr & %pre & %post & _ & Ht & H1 & H2 & H3)". rewrite tok_hcap !pts_ntok !ntok_hcap.
  iDestruct (hcap_0 with "[$Ht $H1]") as "Ht". iDestruct (hcap_0 with "[$Ht $H2]") as "Ht".
  iApply (hcap_0 with "[$Ht $H3]").
Qed.

(** What the invariant of an allocator says about the heap holds after every program. *)
Lemma run_cap bad A req (CA : contract bad A req) b ready K Y ops w s0 w0 e0 os s bl w1 e1 :
  (forall s S, J CA b s S ⊢ hcap K Y) ->
  (a_max A <> None -> forall b s, ready b s = true -> rdy CA b s = true) ->
  place b (a_size A) w -> asks req ops ->
  a_init A b w = Ok s0 w0 e0 -> run A b ready ops s0 [] w0 = Ok (os, (s, bl)) w1 e1 ->
  existsb bad (e0 ++ e1) = false ->
  (size (mtab (st w1)) <= size (mtab (st w)) + K)%nat /\ total (mtab (st w1)) <= total (mtab (st w)) + Y.
Proof.
  intros HJ Hr (H1&H2&H3&Hst&H0) Hreq Hi Hrun Hbad.
  set (n := N.to_nat (a_size A)). set (mF := clear b n (mem (st w))).
  assert (HmF0 : mF !! 0 = None).
  { unfold mF. rewrite clear_lookup. by destruct (_ && _). }
  assert (Hpre : own (mem (st w)) ⊢ raw b (a_size A) ∗ own mF).
  { rewrite (own_take (mem (st w)) b n).
    2:{ intros i Hi'. destruct (Hst i) as (c&Hc&_); [lia|]. by exists c. }
    iIntros "[Hc $]". iApply (raw_intro with "Hc"); [rewrite cells_length; lia|].
    apply cells_Forall. intros i Hi'. apply Hst. lia. }
  pose proof (wp_adequate_store bad (s <- a_init A b ;; run A b ready ops s [])
    (fun r => hcap K Y)%I w) as Had.
  lapply Had; clear Had.
  - unfold bind. rewrite Hi Hrun. intros [Hb|(_&s'&Hst'&[_ Hd]&HQ)]; [congruence|].
    rewrite hcap_eq in HQ. cbn in HQ. rewrite Hst'. cbn. rewrite map_size_disj_union // total_union //. lia.
  - rewrite Hpre. iIntros "[Hraw HF]". iApply wp_bind. iApply wp_strong_mono.
    iSplitL "Hraw"; [by iApply (c_init _ _ _ CA)|]. iIntros (s1) "HJ".
    iApply wp_strong_mono. iSplitL.
    { iApply (run_spec CA b ready Hr mF HmF0 ops s1 [] [] (ops_requests _ _ Hreq)); [constructor|].
      iFrame. unfold blocks. by rewrite big_sepL_nil. }
    iIntros ([os' [s' bl']]) "(%L & %abl & (%Hc & %HA & %Hbl) & HJ & HL & HF)". cbn [fst snd] in *. subst bl'.
    rewrite HJ blocks_ntok own_ntok !ntok_hcap.
    iDestruct (hcap_0 with "[$HJ $HL]") as "HJ". iApply (hcap_0 with "[$HJ $HF]").
Qed.

(** * The limit *)
Section limited.
  Context {bad : event -> bool} {A : alloc} {req : N -> bool} (CA : contract bad A req) (k : nat) (ok : N -> bool).

  Definition lim_J (b : N) (s : a_st (limited k ok A)) (S : list (N * N)) : hpropI :=
    J CA b (fst s) S ∗ ⌈snd s = length S /\ (length S <= k)%nat /\ Forall (fun x => ok (snd x) = true) S⌉.

  Definition limited_contract : contract bad (limited k ok A) req.
  Proof.
    refine (Contract bad (limited k ok A) req lim_J (mv CA) (fun b s => rdy CA b (fst s)) _ _ _ _ _ _ _ _ _ _ _ _).
    - exact (c_size _ _ _ CA).
    - iIntros (b s S S' HS) "[HJ (%Hp & %Hk & %Hm)]". iSplitL.
      + by iApply (c_perm _ _ _ CA).
      + iPureIntro. by rewrite -HS.
    - iIntros (b s S) "[HJ %Hp]". by iDestruct (c_good _ _ _ CA with "HJ") as %H.
    - intros b H1 H2 H3. cbn [limited a_init a_size]. iIntros "H". iApply wp_bind. iApply wp_strong_mono.
      iSplitL; [by iApply (c_init _ _ _ CA)|]. iIntros (s) "HJ". iApply wp_ret. iSplitL; [done|iPureIntro].
      cbn [snd length]. split_and!; [done|lia|constructor].
    - intros b [s l]. cbn [limited a_dtor a_size fst snd]. iIntros "[HJ %Hp]". by iApply (c_dtor _ _ _ CA).
    - intros b [s l] S n Hreq Hn. cbn [limited a_alloc fst snd]. iIntros "[HJ (%Hp & %Hk & %Hm)]". cbn [fst snd] in *.
      destruct (Nat.ltb l k && ok n) eqn:E.
      + apply andb_true_iff in E as [E1%Nat.ltb_lt E2].
        iApply wp_bind. iApply wp_strong_mono. iSplitL "HJ"; [by iApply (c_alloc _ _ _ CA)|].
        iIntros ([q s']) "[[%Hq HJ]|(%Hq & Hraw & HJ)]"; cbn [fst snd] in *; iApply wp_ret; cbn [fst snd].
        * subst q. iLeft. iSplit; [done|]. iSplitL; [done|by iPureIntro].
        * iRight. iSplit; [done|]. iFrame "Hraw". rewrite (proj2 (N.eqb_neq q 0)) //. iSplitL; [done|].
          iPureIntro. cbn [snd length]. split_and!; [lia|lia|by constructor].
      + iApply wp_ret. iLeft. iSplit; [done|]. cbn [fst snd]. iSplitL; [done|by iPureIntro].
    - intros b [s l] p cs L Hd. cbn [limited a_free fst snd]. iIntros "([HJ (%Hp & %Hk & %Hm)] & Hc & HL)". cbn [fst snd length] in *.
      iApply wp_bind. iApply wp_strong_mono. iSplitL "HJ Hc HL".
      { iApply (c_free _ _ _ CA); [done|]. iFrame. }
      iIntros (s') "[HJ HL]". iApply wp_ret. iFrame "HL". iSplitL; [done|iPureIntro]. cbn [snd].
      apply Forall_cons_iff in Hm as [_ Hm]. split_and!; [lia|lia|done].
    - intros o b s S Ho. cbn [limited a_owns] in Ho. destruct (a_owns A) as [oA|] eqn:HoA; [|done].
      injection Ho as <-. iIntros "[HJ %Hp]". by iDestruct (c_owns_in _ _ _ CA with "HJ") as %H.
    - intros o b s L q c Ho Hq. cbn [limited a_owns] in Ho. destruct (a_owns A) as [oA|] eqn:HoA; [|done].
      injection Ho as <-. iIntros "([HJ %Hp] & HL & Hc)".
      by iDestruct (c_owns_out _ _ _ CA with "[$HJ $HL $Hc]") as %H.
    - intros mx b s S Hmx Hrdy. cbn [limited a_max] in Hmx. destruct (a_max A) as [mA|] eqn:HmA; [|done].
      injection Hmx as <-. iIntros "[HJ %Hp]".
      iApply wp_strong_mono. iSplitL "HJ"; [by iApply (c_max _ _ _ CA)|].
      iIntros (v) "[$ HJ]". iSplitL; [done|by iPureIntro].
    - intros b s S Hm. cbn [limited a_max] in Hm. iIntros "[HJ %Hp]".
      iDestruct (c_bound _ _ _ CA with "HJ") as %H; [by destruct (a_max A)|done].
    - intros o c b s L q act R Ho Hin. cbn [limited a_cd] in Ho. destruct (a_cd A) as [oA|] eqn:HoA; [|done].
      injection Ho as <-. iIntros "([HJ %Hp] & HL & Hact)".
      iApply wp_bind. iApply wp_strong_mono. iSplitL "HJ HL Hact".
      { iApply (c_cd _ _ _ CA _ c b (fst s) L q act R HoA Hin). iFrame. }
      iIntros (s') "[HJ HR]". iApply wp_ret. iFrame "HR". iSplitL; [done|by iPureIntro].
  Defined.
End limited.

Lemma upto_le m (S : list (N * N)) : Forall (fun x => upto m (snd x) = true) S -> Forall (fun x => snd x <= m) S.
Proof. apply List.Forall_impl. intros x H. by apply N.leb_le in H. Qed.

Lemma af_limited k ok A : afirm A -> afirm (limited k ok A).
Proof.
  intros [H1 H2 H3 H4 H5 H6]. split; cbn [limited a_init a_dtor a_alloc a_free a_max a_cd].
  - firm.
  - firm.
  - firm.
  - firm.
  - intros mx b s E. destruct (a_max A) eqn:E'; [|done]. injection E as <-. by apply H5.
  - intros o c b s q act E Ha. destruct (a_cd A) eqn:E'; [|done]. injection E as <-. firm; try by apply H6.
Qed.

Lemma bden_owns k pl e : eowns e = true -> a_owns (bden k pl e) <> None.
Proof.
  induction e as [| | | |Min Max e IH|e IH|p IHp f IHf|T p IHp f IHf|e IH|e IH|e IH|e IH|e IH|e IH]; cbn [eowns bden]; try done; intros H;
    try (by specialize (IH H); cbn; destruct (a_owns (bden k pl e)));
    try exact (IH H);
    apply andb_true_iff in H as [H1 H2]; specialize (IHp H1); specialize (IHf H2); cbn; unfold pair_owns, omap2;
    by destruct (a_owns (bden k pl p)), (a_owns (bden k pl f)).
Qed.
Lemma bden_size k pl e : a_size (bden k pl e) = esize e.
Proof. induction e; cbn [bden esize]; try done; cbn; congruence. Qed.

Lemma bden_firm k pl e : pl <> PPosix -> wf e = true -> afirm (bden k pl e).
Proof.
  intros Hpl. induction e as [| | | |Min Max e IH|e IH|p IHp f IHf|T p IHp f IHf|e IH|e IH|e IH|e IH|e IH|e IH]; cbn [bden wf]; intros Hwf.
  - exact (tree_firm pl ENull Hpl Hwf).
  - exact (tree_firm pl EMalloc Hpl Hwf).
  - exact (tree_firm pl (ELinear Size) Hpl Hwf).
  - exact (tree_firm pl (EStack Size) Hpl Hwf).
  - apply af_freelist, af_limited. apply andb_true_iff in Hwf as [_ Hwf]. auto.
  - rewrite !andb_true_iff in Hwf. destruct Hwf as [[[[Hwf _] _] _] Hs]. apply N.ltb_lt in Hs. rewrite -(bden_size k pl) in Hs.
    apply af_limited, af_cascading; auto.
  - rewrite !andb_true_iff in Hwf. destruct Hwf as [[Hp Hf] _]. apply af_fallback; auto.
  - rewrite !andb_true_iff in Hwf. destruct Hwf as [Hp Hf]. apply af_segragator; auto.
  - apply af_overflow; auto.
  - apply andb_true_iff in Hwf as [Hwf Hs]. apply N.ltb_lt in Hs. rewrite -(bden_size k pl) in Hs. apply af_shared; auto.
  - apply af_forwarding; auto.
  - apply af_forwarding; auto.
  - apply af_forwarding; auto.
  - apply af_checked; auto.
Qed.

(** * The limits are not felt *)
(** [B] does the same as [A] as long as fewer than [k] blocks are outstanding; [φ t j]: the
    state [t] is one with [j] outstanding blocks. *)
Record tame (k : nat) (A B : alloc) (R : a_st A -> a_st B -> Prop) (φ : a_st B -> nat -> Prop) : Prop := {
  t_size : a_size A = a_size B;
  t_init b : same R (a_init A b) (a_init B b);
  t_dtor b s t : R s t -> same eq (a_dtor A b s) (a_dtor B b t);
  t_alloc b s t n j : R s t -> φ t j -> (j < k)%nat ->
    same (fun x y => fst x = fst y /\ R (snd x) (snd y)) (a_alloc A b s n) (a_alloc B b t n);
  t_free b s t p n : R s t -> same R (a_free A b s p n) (a_free B b t p n);
  t_owns : osame (fun o o' => forall b s t p, R s t -> o b s p = o' b t p) (a_owns A) (a_owns B);
  t_max : osame (fun o o' => forall b s t, R s t -> same eq (o b s) (o' b t)) (a_max A) (a_max B);
  t_cd : osame (fun o o' => forall c b s t p act, R s t -> same R (o c b s p act) (o' c b t p act)) (a_cd A) (a_cd B)
}.

Lemma tame_refl k A : tame k A A eq (fun _ _ => True).
Proof. destruct (alike_refl A) as [H1 H2 H3 H4 H5 H6 H7 H8]. split; auto. Qed.

Definition phi_fl {A : alloc} {k ok} (φ : a_st A -> nat -> Prop) (t : fl (limited k ok A)) (j : nat) : Prop :=
  (f_head t = 0 -> snd (f_in t) = j) /\ φ (fst (f_in t)) (snd (f_in t)).
Definition rel_lfl {A B : alloc} {k ok} (R : a_st A -> a_st B -> Prop) (s : fl A) (t : fl (limited k ok B)) : Prop :=
  R (f_in s) (fst (f_in t)) /\ f_head s = f_head t.

Lemma tame_freelist k Min Max A B R φ : tame k A B R φ ->
  tame k (freelist Min Max A) (freelist Min Max (limited k (upto Max) B)) (rel_lfl R) (phi_fl φ).
Proof.
  intros [H1 H2 H3 H4 H5 H6 H7 H8].
  assert (HF : forall b s t p n, R s (fst t) ->
    same (fun s t => R s (fst t)) (a_free A b s p n) (a_free (limited k (upto Max) B) b t p n)).
  { intros b s t p n Hs w. specialize (H5 b s (fst t) p n Hs w). cbn [limited a_free]. unfold bind, ret.
    destruct (a_free A b s p n w), (a_free B b (fst t) p n w); try done. destruct H5 as (?&->&->). split_and!; [done..|]. by rewrite app_nil_r. }
  split; cbn [freelist a_st a_size a_init a_dtor a_alloc a_free a_owns a_max a_cd].
  - done.
  - intros b. cbn [limited a_init]. apply same_assoc_r. eapply same_bind; [apply H2|]. intros s t Hs. apply same_ret_r. by apply same_ret.
  - intros b s t [Hs Hh].
    enough (forall j s t h, R s (fst t) -> same eq (s' <- fl_release Max A j b s h ;; a_dtor A b s')
      (s' <- fl_release Max (limited k (upto Max) B) j b t h ;; a_dtor (limited k (upto Max) B) b s')) as H.
    { intros w. unfold fl_dtor. rewrite Hh. by apply H. }
    intros j s0 t0 h Hs0. eapply (same_bind (fun s t => R s (fst t))); [|intros; by apply H3]. revert s0 t0 h Hs0.
    induction j as [|j IH]; intros s0 t0 h Hs0; cbn [fl_release]; [by intros w|].
    destruct (h =? 0); [by apply same_ret|]. apply same_bind_eq. intros nx. eapply same_bind; [by apply HF|]. intros. by apply IH.
  - intros b s t n j [Hs Hh] [Hφ1 Hφ2] Hj. unfold fl_alloc. rewrite Hh. destruct (fl_range _ _ _); [|by apply same_ret].
    destruct (f_head t =? 0) eqn:E.
    + apply N.eqb_eq in E. specialize (Hφ1 E). cbn [limited a_alloc].
      rewrite (proj2 (Nat.ltb_lt _ _)); [|lia]. unfold upto. rewrite N.leb_refl. cbn [andb].
      apply same_assoc_r. eapply same_bind; [eapply H4; [done|done|lia]|].
      intros [p s'] [q t'] [Hp Hs']; cbn in Hp, Hs'. subst q. apply same_ret_r. by apply same_ret.
    + apply same_bind_eq. intros nx. by apply same_ret.
  - intros b s t p n [Hs Hh]. unfold fl_free. apply same_bind_eq. intros _. rewrite Hh. destruct (_ && _); [|by apply same_ret].
    apply same_bind_eq. intros _. by apply same_ret.
  - cbn [limited a_owns]. destruct (a_owns A) as [oA|], (a_owns B) as [oB|]; try done. cbn in *. intros b s t p [Hs Hh]. by apply H6.
  - cbn [limited a_max]. destruct (a_max A) as [oA|], (a_max B) as [oB|]; try done. cbn in *. intros b s t [Hs Hh]. by apply H7.
  - cbn [limited a_cd]. destruct (a_cd A) as [oA|], (a_cd B) as [oB|]; try done. cbn in *. intros c b s t p act [Hs Hh].
    apply same_assoc_r. eapply same_bind; [by apply H8|]. intros s' t' Hs'. apply same_ret_r. by apply same_ret.
Qed.

Section pairs.
  Context {P P' F F' : alloc} {R : a_st P -> a_st P' -> Prop} {S : a_st F -> a_st F' -> Prop}.
  Context {k : nat} {φ : a_st P' -> nat -> Prop} {ψ : a_st F' -> nat -> Prop}.

  Definition phi_pair (t : a_st P' * a_st F') (j : nat) : Prop :=
    exists j1 j2, (j = j1 + j2)%nat /\ φ (fst t) j1 /\ ψ (snd t) j2.

  Context (HP : tame k P P' R φ) (HF : tame k F F' S ψ).

  Lemma tame_pair_owns : osame (fun o o' => forall b s t p, rel_pair R S s t -> o b s p = o' b t p) (pair_owns P F) (pair_owns P' F').
  Proof.
    unfold pair_owns. pose proof (t_owns _ _ _ _ _ HP) as H. pose proof (t_owns _ _ _ _ _ HF) as G. pose proof (t_size _ _ _ _ _ HP) as E.
    destruct (a_owns P) as [oP|], (a_owns P') as [oP'|], (a_owns F) as [oF|], (a_owns F') as [oF'|]; try done. cbn in *. intros b s t p [Hs Ht].
    rewrite E. f_equal; auto.
  Qed.
  Lemma tame_pair_max : osame (fun o o' => forall b s t, rel_pair R S s t -> same eq (o b s) (o' b t)) (pair_max P F) (pair_max P' F').
  Proof.
    unfold pair_max. pose proof (t_max _ _ _ _ _ HP) as H. pose proof (t_max _ _ _ _ _ HF) as G. pose proof (t_size _ _ _ _ _ HP) as E.
    destruct (a_max P) as [oP|], (a_max P') as [oP'|], (a_max F) as [oF|], (a_max F') as [oF'|]; try done. cbn in *. intros b s t [Hs Ht].
    rewrite E. apply same_bind_eq2; [by apply H|]. intros x. apply same_bind_eq2; [by apply G|]. intros y. apply same_refl.
  Qed.
  Lemma tame_pair_cd : osame (fun o o' => forall c b s t p act, rel_pair R S s t -> same (rel_pair R S) (o c b s p act) (o' c b t p act))
    (pair_cd P F) (pair_cd P' F').
  Proof.
    unfold pair_cd. pose proof (t_owns _ _ _ _ _ HP) as H. pose proof (t_cd _ _ _ _ _ HP) as HC. pose proof (t_cd _ _ _ _ _ HF) as GC.
    pose proof (t_size _ _ _ _ _ HP) as E. destruct (a_owns P) as [oP|], (a_owns P') as [oP'|]; try done. cbn in H.
    destruct (a_cd P), (a_cd P'), (a_cd F), (a_cd F'); try done; cbn in *; intros c b s t p act [Hs Ht]; rewrite ?E -(H _ _ _ p Hs);
      destruct (oP b (fst s) p); try (apply same_bind_eq; intros _; by apply same_ret);
      (eapply same_bind; [first [by apply HC|by apply GC]|intros s' t' Hs'; by apply same_ret]).
  Qed.
  Lemma tame_pair_init b : same (rel_pair R S) (pair_init P F b) (pair_init P' F' b).
  Proof.
    unfold pair_init. rewrite (t_size _ _ _ _ _ HP). eapply same_bind; [apply (t_init _ _ _ _ _ HP)|]. intros s t Hs.
    eapply same_bind; [apply (t_init _ _ _ _ _ HF)|]. intros s' t' Hs'. by apply same_ret.
  Qed.
  Lemma tame_pair_dtor b s t : rel_pair R S s t -> same eq (pair_dtor P F b s) (pair_dtor P' F' b t).
  Proof.
    intros [Hs Ht]. unfold pair_dtor. rewrite (t_size _ _ _ _ _ HP). apply same_bind_eq2; [by apply (t_dtor _ _ _ _ _ HF)|]. intros _.
    by apply (t_dtor _ _ _ _ _ HP).
  Qed.

  Lemma tame_fallback : tame k (fallback P F) (fallback P' F') (rel_pair R S) phi_pair.
  Proof.
    split; cbn [fallback a_st a_size a_init a_dtor a_alloc a_free a_owns a_max a_cd].
    - by rewrite (t_size _ _ _ _ _ HP) (t_size _ _ _ _ _ HF).
    - apply tame_pair_init.
    - apply tame_pair_dtor.
    - intros b s t n j [Hs Ht] (j1&j2&->&Hj1&Hj2) Hj. unfold fb_alloc. eapply same_bind; [eapply (t_alloc _ _ _ _ _ HP); [done|done|lia]|].
      intros [p s'] [q t'] [Hp Hs']; cbn in *. subst q. rewrite (t_size _ _ _ _ _ HP). destruct (p =? 0); [|by apply same_ret].
      eapply same_bind; [eapply (t_alloc _ _ _ _ _ HF); [done|done|lia]|]. intros [p' s2] [q' t2] [Hp' Hs2]; cbn in *. by apply same_ret.
    - intros b s t p n [Hs Ht]. unfold fb_free. rewrite (t_size _ _ _ _ _ HP). pose proof (t_owns _ _ _ _ _ HP) as H.
      assert (match a_owns P with Some o => o b (fst s) p | None => false end =
              match a_owns P' with Some o => o b (fst t) p | None => false end) as ->.
      { destruct (a_owns P) as [oP|], (a_owns P') as [oP'|]; try done. by apply H. }
      destruct (match a_owns P' with Some o => o b (fst t) p | None => false end).
      + eapply same_bind; [by apply (t_free _ _ _ _ _ HP)|]. intros s' t' Hs'. by apply same_ret.
      + eapply same_bind; [by apply (t_free _ _ _ _ _ HF)|]. intros s' t' Hs'. by apply same_ret.
    - apply tame_pair_owns.
    - apply tame_pair_max.
    - apply tame_pair_cd.
  Qed.

  Lemma tame_segragator T : tame k (segragator P F T) (segragator P' F' T) (rel_pair R S) phi_pair.
  Proof.
    split; cbn [segragator a_st a_size a_init a_dtor a_alloc a_free a_owns a_max a_cd].
    - by rewrite (t_size _ _ _ _ _ HP) (t_size _ _ _ _ _ HF).
    - apply tame_pair_init.
    - apply tame_pair_dtor.
    - intros b s t n j [Hs Ht] (j1&j2&->&Hj1&Hj2) Hj. unfold seg_alloc. rewrite (t_size _ _ _ _ _ HP). destruct (n <=? T).
      + eapply same_bind; [eapply (t_alloc _ _ _ _ _ HP); [done|done|lia]|]. intros [p s'] [q t'] [Hp Hs']; cbn in *. by apply same_ret.
      + eapply same_bind; [eapply (t_alloc _ _ _ _ _ HF); [done|done|lia]|]. intros [p s'] [q t'] [Hp Hs']; cbn in *. by apply same_ret.
    - intros b s t p n [Hs Ht]. unfold seg_free. rewrite (t_size _ _ _ _ _ HP). destruct (n <=? T).
      + eapply same_bind; [by apply (t_free _ _ _ _ _ HP)|]. intros s' t' Hs'. by apply same_ret.
      + eapply same_bind; [by apply (t_free _ _ _ _ _ HF)|]. intros s' t' Hs'. by apply same_ret.
    - apply tame_pair_owns.
    - apply tame_pair_max.
    - apply tame_pair_cd.
  Qed.
End pairs.

Lemma tame_overflow k A B R φ : tame k A B R φ -> tame k (overflow A) (overflow B) (rel_ov R) (fun t j => φ (o_in t) j).
Proof.
  intros [H1 H2 H3 H4 H5 H6 H7 H8]. split; cbn [overflow a_st a_size a_init a_dtor a_alloc a_free a_owns a_max a_cd].
  - done.
  - intros b. eapply same_bind; [apply H2|]. intros s t Hs. by apply same_ret.
  - intros b s t (Hs&E1&E2). unfold ov_dtor. rewrite E1 E2. apply same_bind_eq. intros _. apply same_bind_eq. intros _. by apply H3.
  - intros b s t n j (Hs&E1&E2) Hφ Hj. unfold ov_alloc. rewrite E1 E2. eapply same_bind; [by eapply H4|].
    intros [p s'] [q t'] [Hp Hs']; cbn in *. subst q. destruct (p =? 0); [by apply same_ret|].
    apply same_bind_eq. intros _. apply same_bind_eq. intros _. by apply same_ret.
  - intros b s t p n (Hs&E1&E2). unfold ov_free. rewrite E1 E2. apply same_bind_eq. intros _. destruct (p =? 0); [by apply same_ret|].
    apply same_bind_eq. intros x. apply same_bind_eq. intros y. apply same_bind_eq. intros _.
    eapply same_bind; [by apply H5|]. intros s' t' Hs'. by apply same_ret.
  - destruct (a_owns A) as [oA|], (a_owns B) as [oB|]; try done. cbn in *. intros b s t p (Hs&_). by apply H6.
  - destruct (a_max A) as [oA|], (a_max B) as [oB|]; try done. cbn in *. intros b s t (Hs&_). by apply H7.
  - cbn. intros c b s t p act (Hs&E1&E2). unfold ov_cd. rewrite E1 E2.
    destruct (a_cd A) as [oA|], (a_cd B) as [oB|]; try done; cbn in H8.
    + eapply same_bind; [by apply H8|]. intros s' t' Hs'. by apply same_ret.
    + apply same_bind_eq. intros _. by apply same_ret.
Qed.

Lemma tame_shared k pl A B R φ : tame k A B R φ -> tame k (shared pl A) (shared pl B) (rel_sh R) (fun t j => φ (sh_in t) j).
Proof.
  intros [H1 H2 H3 H4 H5 H6 H7 H8]. split; cbn [shared a_st a_size a_init a_dtor a_alloc a_free a_owns a_max a_cd].
  - done.
  - intros b. rewrite H1. apply same_bind_eq. intros p. destruct (p =? 0); [by intros w|].
    eapply same_bind; [apply H2|]. intros s t Hs. by apply same_ret.
  - intros b s t [Hs E]. rewrite E. apply same_bind_eq2; [by apply H3|]. intros _. apply same_refl.
  - intros b s t n j [Hs E] Hφ Hj. rewrite E. eapply same_bind; [by eapply H4|]. intros [p s'] [q t'] [Hp Hs']; cbn in *. by apply same_ret.
  - intros b s t p n [Hs E]. rewrite E. eapply same_bind; [by apply H5|]. intros s' t' Hs'. by apply same_ret.
  - destruct (a_owns A) as [oA|], (a_owns B) as [oB|]; try done. cbn in *. intros b s t p [Hs E]. rewrite E. by apply H6.
  - destruct (a_max A) as [oA|], (a_max B) as [oB|]; try done. cbn in *. intros b s t [Hs E]. rewrite E. by apply H7.
  - destruct (a_cd A) as [oA|], (a_cd B) as [oB|]; try done. cbn in *. intros c b s t p act [Hs E]. rewrite E. eapply same_bind; [by apply H8|].
    intros s' t' Hs'. by apply same_ret.
Qed.

Lemma tame_forwarding k A B R φ : tame k A B R φ -> tame k (forwarding A) (forwarding B) R φ.
Proof. by intros []. Qed.

Lemma tame_checked k A B R φ : tame k A B R φ -> tame k (checked A) (checked B) (rel_checked R) (fun t j => φ (fst t) j).
Proof.
  intros [H1 H2 H3 H4 H5 H6 H7 H8]. split; cbn [checked a_st a_size a_init a_dtor a_alloc a_free a_owns a_max a_cd].
  - done.
  - intros b. eapply same_bind; [apply H2|]. intros s t Hs. by apply same_ret.
  - intros b s t [Hs E]. rewrite E. destruct (snd t); [by apply H3|by intros w].
  - intros b s t n j [Hs E] Hφ Hj. rewrite E. eapply same_bind; [by eapply H4|]. intros [p s'] [q t'] [Hp Hs']; cbn in *. subst q. by apply same_ret.
  - intros b s t p n [Hs E]. rewrite E. destruct (take_out _ _); [|by intros w]. eapply same_bind; [by apply H5|].
    intros s' t' Hs'. by apply same_ret.
  - destruct (a_owns A) as [oA|], (a_owns B) as [oB|]; try done. cbn in *. intros b s t p [Hs E]. by apply H6.
  - destruct (a_max A) as [oA|], (a_max B) as [oB|]; try done. cbn in *. intros b s t [Hs E]. by apply H7.
  - destruct (a_cd A) as [oA|], (a_cd B) as [oB|]; try done. cbn in *. intros c b s t p act [Hs E]. rewrite E. eapply same_bind; [by apply H8|].
    intros s' t' Hs'. by apply same_ret.
Qed.

Lemma tame_capped k A : tame k A (limited k (fun _ => true) A) (fun s t => s = fst t) (fun t j => snd t = j).
Proof.
  split; cbn [limited a_size a_init a_dtor a_alloc a_free a_owns a_max a_cd].
  - done.
  - intros b w. unfold bind, ret. destruct (a_init A b w); [|done]. split_and!; [done..|]. by rewrite app_nil_r.
  - intros b s t -> w. by destruct (a_dtor A b (fst t) w).
  - intros b s t n j -> -> Hj w. rewrite (proj2 (Nat.ltb_lt _ _) Hj). cbn [andb]. unfold bind, ret.
    destruct (a_alloc A b (fst t) n w) as [[p s']|]; [|done]. split_and!; [done..|]. by rewrite app_nil_r.
  - intros b s t p n -> w. unfold bind, ret. destruct (a_free A b (fst t) p n w); [|done]. split_and!; [done..|]. by rewrite app_nil_r.
  - destruct (a_owns A) as [o|]; [|done]. cbn. by intros b s t p ->.
  - destruct (a_max A) as [o|]; [|done]. cbn. intros b s t -> w. by destruct (o b (fst t) w).
  - destruct (a_cd A) as [o|]; [|done]. cbn. intros c b s t p act -> w. unfold bind, ret. destruct (o c b (fst t) p act w); [|done].
    split_and!; [done..|]. by rewrite app_nil_r.
Qed.

(** * cascading over a linear_allocator whose size is a multiple of 16 *)
(** What is known of the result of a computation may be assumed of it. *)
Lemma wp_fact bad {X} (m : M X) (Q : X -> hpropI) (P : X -> Prop) : (forall w a w' e, m w = Ok a w' e -> P a) ->
  wp bad m Q ⊢ wp bad m (fun a => Q a ∗ ⌈P a⌉).
Proof.
  intros H. rewrite hunfold_entails. intros s. rewrite !wp_unfold. intros Hwp sf w Hd Hst. specialize (Hwp sf w Hd Hst).
  destruct (m w) as [a w' e|] eqn:E; [|done]. destruct Hwp as [Hb|(He&s'&H1&H2&H3)]; [by left|right]. split; [done|].
  exists s'. split_and!; [done..|]. rewrite hunfold_sep. exists s', sempty. split_and!; [by rewrite sunion_empty_r|apply sdisj_empty_r|done|].
  rewrite hunfold_apure. split; [done|]. by eapply H.
Qed.

Lemma of_nat_le (i j : nat) : (i <= j)%nat -> N.of_nat i <= N.of_nat j.
Proof. lia. Qed.

Section casclin.
  Context (bad : event -> bool) (pl : platform) (Hpl : pl <> PPosix) (Hb : bad EvFail || bad EvRefuse = true).
  Context (Size : N) (Hmod : Size mod 16 = 0) (Hsz : a_size (linear_allocator Size) + 32 < W).
  Let L := linear_allocator Size.
  Let CL := lin_contract Size bad.
  Let CC : contract bad (cascading pl L) (casc_req (req := lin_req Size)) :=
    cascading_contract CL pl Hpl Hb Hsz eq_refl (fun _ _ _ => eq_refl).

  Definition used (nd : node L) : Prop := nd_cnt nd <> 0.
  Definition fresh (nd : node L) : Prop := nd_cnt nd = 0 -> l_free (nd_in nd) = nd_addr nd.

  Lemma sumpad_length T : Forall (fun x => 0 < snd x) T -> N.of_nat (length T) <= sumpad T.
  Proof.
    induction T as [|x T IH]; intros H; [done|]. apply Forall_cons_iff in H as [Hx H]. specialize (IH H).
    cbn [length sumpad]. pose proof (padN_bounds (snd x)). lia.
  Qed.

  Lemma nodes_fresh s TT : Forall (fun x => 0 < snd x) (concat TT) -> nodes_J CL pl s TT ⊢ ⌜Forall fresh s⌝.
  Proof.
    revert TT. induction s as [|nd s IH]; intros TT Hpos; [iIntros "_"; iPureIntro; constructor|].
    rewrite nodes_cons_l. iIntros "(%T & %TT' & -> & [([[%Hi %Hz] _] & _) %Hc] & Hns)".
    cbn [concat] in Hpos. apply Forall_app in Hpos as [P1 P2]. iDestruct (IH with "Hns") as %H; [done|]. iPureIntro.
    constructor; [|done]. intros H0. destruct Hi as [(B1&B2&B3) (F1&F2) (C1&C2) _ _].
    pose proof (sumpad_length T P1) as HT. unfold lin_size in B3. apply Hz. rewrite Hc in H0.
    unfold w64 in H0. rewrite N.mod_small in H0; [|lia]. destruct T; [done|]. cbn [length] in H0. lia.
  Qed.
  Lemma casc_fresh b s S : casc_J CL pl b s S ⊢ ⌜Forall fresh s⌝.
  Proof. iIntros "(%TT & [%HS %Hpos] & H)". rewrite HS in Hpos. by iApply (nodes_fresh with "H"). Qed.

  Lemma nodes_used s TT : Forall used s -> nodes_J CL pl s TT ⊢ ⌜(length s <= length (concat TT))%nat⌝.
  Proof.
    revert TT. induction s as [|nd s IH]; intros TT Hu; [iIntros "_"; iPureIntro; cbn; lia|].
    apply Forall_cons_iff in Hu as [Hnd Hu].
    rewrite nodes_cons_l. iIntros "(%T & %TT' & -> & [_ %Hc] & Hns)". iDestruct (IH with "Hns") as %H; [done|]. iPureIntro.
    cbn [concat length]. rewrite app_length. unfold used in Hnd. rewrite Hc in Hnd. destruct T; [done|]. cbn [length]. lia.
  Qed.
  Lemma nodes_hcap s TT : nodes_J CL pl s TT ⊢ hcap (length s) (N.of_nat (length s) * (a_size L + 16 + over pl)).
  Proof.
    revert TT. induction s as [|nd s IH]; intros TT.
    - rewrite nodes_nil_l. iIntros "->". iApply (hcap_mono 0 0); [cbn [length]; lia..|]. iApply ntok_hcap. by iApply emp_ntok.
    - rewrite nodes_cons_l. iIntros "(%T & %TT' & -> & [(HJ & Hr & Ht & _) _] & Hns)". rewrite IH.
      iDestruct "HJ" as "[_ (%mm & _ & HJ)]". rewrite own_ntok raw_ntok !ntok_hcap amtok_hcap.
      iDestruct (hcap_0 with "[$Ht $Hr]") as "H". iDestruct (hcap_0 with "[$H $HJ]") as "H".
      iDestruct (hcap_sep with "[$H $Hns]") as "H". iApply (hcap_mono with "H"); cbn [length]; [lia|]. fold L. generalize (a_size L + 16 + over pl). intros. lia.
  Qed.

  Lemma new_fresh w nd w' e : new_node pl L w = Ok nd w' e -> fresh nd /\ nd_cnt nd = 0.
  Proof.
    unfold new_node. intros H. inv_bind H as p H1 H2. destruct (p =? 0).
    { inv_bind H2 as u H3 H4. done. }
    inv_bind H2 as s H3 H4. apply ret_Ok in H4 as (->&_&_). cbn [L linear_allocator a_init] in H3. unfold lin_init in H3. inv_bind H3 as u H7 H8.
    apply ret_Ok in H8 as (->&_&_). done.
  Qed.

  (** A fresh instance serves every request up to Size. *)
  Lemma fresh_serves (nd : node L) n w p s' w' e : 0 < n <= Size -> fresh nd -> nd_cnt nd = 0 -> nd_addr nd <> 0 ->
    a_alloc L (nd_addr nd) (nd_in nd) n w = Ok (p, s') w' e -> p <> 0.
  Proof.
    intros Hn Hf Hc Ha. cbn [L linear_allocator a_alloc]. unfold lin_alloc. rewrite (Hf Hc).
    pose proof (padN_bounds n). pose proof (padN_mod n). cbn [linear_allocator a_size] in Hsz.
    rewrite padded_small; [|lia]. assert (forall x, sub64 x x = 0) as ->.
    { intros y. unfold sub64, w64. replace (y + W - y) with W by lia. done. }
    unfold padN in *. rewrite add64_small; [|lia].
    destruct (N.ltb_spec Size (0 + (n + align_to_architecture n))); [lia|]. intros H8. by apply ret_Ok in H8 as ([= -> _]&_&_).
  Qed.

  Lemma casc_alloc_used s n w p s' w' e : 0 < n -> Forall fresh s -> Forall (fun nd => nd_addr nd <> 0) s -> Forall used (tail s) ->
    casc_alloc pl L s n w = Ok (p, s') w' e -> Forall used (tail s').
  Proof.
    intros Hn Hfr Had Hu H. unfold casc_alloc in H. inv_bind H as [nd rest] H1 H2.
    assert (Forall used rest /\ (s <> [] -> fresh nd /\ nd_addr nd <> 0) /\ (s = [] -> rest = [] )) as (G1&G2&G3).
    { destruct s as [|nd0 s].
      - inv_bind H1 as nd1 H3 H4. apply ret_Ok in H4 as ([= -> ->]&_&_). split_and!; [constructor|done|done].
      - apply ret_Ok in H1 as ([= -> ->]&_&_). apply Forall_cons_iff in Hfr as [? _]. apply Forall_cons_iff in Had as [? _]. done. }
    assert (fresh nd /\ nd_addr nd <> 0) as [G4 G5].
    { destruct s as [|nd0 s]; [|by apply G2]. inv_bind H1 as nd1 H3 H4. apply ret_Ok in H4 as ([= -> ->]&_&_).
      unfold new_node in H3. inv_bind H3 as q H5 H6. destruct (N.eqb_spec q 0) as [|Hq]; [by inv_bind H6 as u H7 H8|].
      inv_bind H6 as si H7 H8. apply ret_Ok in H8 as (->&_&_). cbn [L linear_allocator a_init] in H7. unfold lin_init in H7. inv_bind H7 as u H9 H10.
      apply ret_Ok in H10 as (->&_&_). done. }
    clear H1 G2 G3 Hfr Had Hu. inv_bind H2 as over H3 H4.
    cbn [L linear_allocator a_max] in H3. inv_bind H3 as mx H5 H6. apply ret_Ok in H5 as (->&_&_). apply ret_Ok in H6 as (->&_&_).
    destruct (N.ltb_spec Size n) as [|Hle]; [by apply ret_Ok in H4 as ([= -> ->]&_&_)|].
    inv_bind H4 as [q si] H7 H8. destruct (N.eqb_spec q 0) as [->|Hq].
    - inv_bind H8 as nd2 H9 H10. inv_bind H10 as [q2 si2] H11 H12. apply ret_Ok in H12 as ([= -> ->]&_&_).
      cbn [tail]. constructor; [|done]. unfold used. cbn [nd_cnt]. intros Hc.
      by apply (fresh_serves nd n) in H7.
    - apply ret_Ok in H8 as ([= -> ->]&_&_). done.
  Qed.

  Lemma casc_free_used prev s p n w s' w' e :
    casc_free_loop pl L (owns_of L) prev s p n w = Ok s' w' e ->
    Forall used (if prev then s else tail s) -> Forall used (if prev then s' else tail s').
  Proof.
    revert prev w s' w' e. induction s as [|nd rest IH]; intros prev w s' w' e H Hu; cbn [casc_free_loop] in H.
    - apply ret_Ok in H as (->&_&_). done.
    - destruct (owns_of _ _ _ _).
      + inv_bind H as si H1 H2. cbn [nd_cnt] in H2. destruct (_ && _) eqn:E.
        * inv_bind H2 as u2 H7 H8. apply ret_Ok in H8 as (->&_&_). apply andb_true_iff in E as [_ ->].
          by apply Forall_cons_iff in Hu as [_ Hu].
        * apply ret_Ok in H2 as (->&_&_). destruct prev; [|done]. rewrite andb_true_r in E. apply N.eqb_neq in E.
          apply Forall_cons_iff in Hu as [_ Hu]. by constructor.
      + inv_bind H as rest' H1 H2. apply ret_Ok in H2 as (->&_&_). apply IH in H1.
        * destruct prev; [|done]. apply Forall_cons_iff in Hu as [Hx _]. by constructor.
        * destruct prev; [by apply Forall_cons_iff in Hu as [_ Hu]|done].
  Qed.

  Lemma nodes_addr s TT : nodes_J CL pl s TT ⊢ ⌜Forall (fun nd => nd_addr nd <> 0) s⌝.
  Proof.
    revert TT. induction s as [|nd s IH]; intros TT; [iIntros "_"; iPureIntro; constructor|].
    rewrite nodes_cons_l. iIntros "(%T & %TT' & -> & [(_ & _ & _ & %Hp) _] & Hns)". iDestruct (IH with "Hns") as %H. iPureIntro. by constructor.
  Qed.

  Definition cl_J (b : N) (s : list (node L)) (S : list (N * N)) : hpropI := casc_J CL pl b s S ∗ ⌈Forall used (tail s)⌉.

  Definition cl_contract : contract bad (cascading pl L) (casc_req (req := lin_req Size)).
  Proof.
    refine (Contract bad (cascading pl L) (casc_req (req := lin_req Size)) cl_J Size
      (fun b s => match s with [] => false | _ => true end) _ _ _ _ _ _ _ _ _ _ _ _).
    - done.
    - iIntros (b s S S' HS) "[HJ $]". by iApply (c_perm _ _ _ CC).
    - iIntros (b s S) "[HJ _]". by iDestruct (c_good _ _ _ CC with "HJ") as %H.
    - intros b H1 H2 H3. iIntros "H". iApply wp_strong_mono. iSplitL; [iApply (wp_fact _ _ _ (fun s => s = [])); [|by iApply (c_init _ _ _ CC)]|].
      + intros w a w' e H. by apply ret_Ok in H as (->&_&_).
      + iIntros (s) "[HJ ->]". iFrame "HJ". iPureIntro. constructor.
    - intros b s. iIntros "[HJ _]". by iApply (c_dtor _ _ _ CC).
    - intros b s S n Hreq Hn. iIntros "[HJ %Hu]". iDestruct (casc_fresh with "HJ") as %Hfr.
      iAssert ⌜Forall (fun nd => nd_addr nd <> 0) s⌝%I with "[HJ]" as %Had.
      { iDestruct "HJ" as "(%TT & _ & H)". by iApply (nodes_addr with "H"). }
      assert (0 < n) as Hn0. { apply andb_true_iff in Hreq as [Hreq%N.ltb_lt _]. done. }
      iApply wp_strong_mono. iSplitL; [iApply (wp_fact _ _ _ (fun r => Forall used (tail (snd r)))); [|by iApply (c_alloc _ _ _ CC)]|].
      + intros w [p s'] w' e H. cbn [snd]. exact (casc_alloc_used s n w p s' w' e Hn0 Hfr Had Hu H).
      + iIntros ([p s']) "[[[%Hp HJ]|(%Hp & Hr & HJ)] %Hu']"; cbn [fst snd] in *; [iLeft|iRight].
        * iSplit; [done|]. by iFrame.
        * iSplit; [done|]. by iFrame.
    - intros b s p cs Lb Hd. iIntros "([HJ %Hu] & Hc & HL)".
      iApply wp_strong_mono. iSplitL; [iApply (wp_fact _ _ _ (fun s' => Forall used (tail s'))); [|iApply (c_free _ _ _ CC); [done|iFrame]]|].
      + intros w s' w' e H. cbn [cascading cascading_with a_free] in H. unfold casc_free in H. inv_bind H as u H1 H2.
        by apply casc_free_used in H2.
      + iIntros (s') "[[HJ $] %Hu']". by iFrame.
    - intros o b s S Ho. iIntros "[HJ _]". by iDestruct (c_owns_in _ _ _ CC _ _ _ _ Ho with "HJ") as %H.
    - intros o b s Lb q c Ho Hq. iIntros "([HJ _] & HL & Hc)". by iDestruct (c_owns_out _ _ _ CC _ _ _ _ _ _ Ho Hq with "[$HJ $HL $Hc]") as %H.
    - intros mx b s S Hmx Hr. iIntros "[HJ %Hu]". iApply wp_strong_mono. iSplitL; [by iApply (c_max _ _ _ CC)|].
      iIntros (v) "[$ $]". by iPureIntro.
    - intros b s S Hm. iIntros "[HJ _]". by iDestruct (c_bound _ _ _ CC with "HJ") as %H.
    - intros o c b s Lb q act R Ho. done.
  Defined.

  (** The same with at most [k] blocks: at most [k] instances. *)
  Lemma casc_alloc_len k s n w p s' w' e : 0 < n -> Forall fresh s -> Forall (fun nd => nd_addr nd <> 0) s -> Forall used (tail s) ->
    (0 < k)%nat -> (Forall used s -> (length s < k)%nat) -> (length s <= k)%nat ->
    casc_alloc pl L s n w = Ok (p, s') w' e -> (length s' <= k)%nat.
  Proof.
    intros Hn Hfr Had Hu Hk Hlt Hle H. unfold casc_alloc in H. inv_bind H as [nd rest] H1 H2.
    assert ((S (length rest) <= k)%nat /\ (nd_cnt nd <> 0 -> (S (length rest) < k)%nat \/ s = []) /\ fresh nd /\ nd_addr nd <> 0 /\ (s = [] -> nd_cnt nd = 0)) as (G1&G2&G4&G5&G6).
    { destruct s as [|nd0 s].
      - inv_bind H1 as nd1 H3 H4. apply ret_Ok in H4 as ([= -> ->]&_&_). pose proof (new_fresh _ _ _ _ H3) as [F1 F2].
        unfold new_node in H3. inv_bind H3 as q H5 H6. destruct (N.eqb_spec q 0) as [|Hq]; [by inv_bind H6 as u H7 H8|].
        inv_bind H6 as si H7 H8. apply ret_Ok in H8 as (->&_&_). split_and!; [cbn [length]; lia|by right|done..].
      - apply ret_Ok in H1 as ([= -> ->]&_&_). apply Forall_cons_iff in Hfr as [? _]. apply Forall_cons_iff in Had as [? _].
        split_and!; [exact Hle| |done..]. intros Hc. left. apply Hlt. by constructor. }
    clear H1 Hlt Hle. inv_bind H2 as over H3 H4.
    cbn [L linear_allocator a_max] in H3. inv_bind H3 as mx H5 H6. apply ret_Ok in H5 as (->&_&_). apply ret_Ok in H6 as (->&_&_).
    destruct (N.ltb_spec Size n) as [|Hsn]; [by apply ret_Ok in H4 as ([= -> ->]&_&_)|].
    inv_bind H4 as [q si] H7 H8. destruct (N.eqb_spec q 0) as [->|Hq].
    - inv_bind H8 as nd2 H9 H10. inv_bind H10 as [q2 si2] H11 H12. apply ret_Ok in H12 as ([= -> ->]&_&_).
      cbn [length]. destruct (N.eq_dec (nd_cnt nd) 0) as [Hc|Hc].
      + exfalso. by apply (fresh_serves nd n) in H7.
      + destruct (G2 Hc) as [?|E]; [done|]. exfalso. by apply Hc, G6.
    - apply ret_Ok in H8 as ([= -> ->]&_&_). exact G1.
  Qed.
  Lemma casc_free_len prev s p n w s' w' e :
    casc_free_loop pl L (owns_of L) prev s p n w = Ok s' w' e -> (length s' <= length s)%nat.
  Proof.
    revert prev w s' w' e. induction s as [|nd rest IH]; intros prev w s' w' e H; cbn [casc_free_loop] in H.
    - apply ret_Ok in H as (->&_&_). done.
    - destruct (owns_of _ _ _ _).
      + inv_bind H as si H1 H2. cbn [nd_cnt] in H2. destruct (_ && _) eqn:E.
        * inv_bind H2 as u2 H7 H8. apply ret_Ok in H8 as (->&_&_). cbn [length]. apply Nat.le_succ_diag_r.
        * apply ret_Ok in H2 as (->&_&_). cbn [length]. done.
      + inv_bind H as rest' H1 H2. apply ret_Ok in H2 as (->&_&_). apply IH in H1. cbn [length]. by apply le_n_S.
  Qed.

  Definition kl_J (k : nat) (b : N) (s : list (node L) * nat) (S : list (N * N)) : hpropI :=
    lim_J cl_contract k (fun _ => true) b s S ∗ ⌈(length (fst s) <= k)%nat⌉.

  Lemma kl_hcap k b s S : kl_J k b s S ⊢ hcap k (N.of_nat k * (a_size L + 16 + over pl)).
  Proof.
    iIntros "[[[(%TT & _ & H) _] _] %Hl]". rewrite nodes_hcap. iApply (hcap_mono with "H"); [exact Hl|].
    apply N.mul_le_mono_r. by apply of_nat_le.
  Qed.

  Definition kl_contract (k : nat) : contract bad (limited k (fun _ => true) (cascading pl L)) (casc_req (req := lin_req Size)).
  Proof.
    pose (C := limited_contract cl_contract k (fun _ => true)).
    refine (Contract bad (limited k (fun _ => true) (cascading pl L)) (casc_req (req := lin_req Size)) (kl_J k) Size
      (fun b s => match fst s with [] => false | _ => true end) _ _ _ _ _ _ _ _ _ _ _ _).
    - done.
    - iIntros (b s S S' HS) "[HJ $]". by iApply (c_perm _ _ _ C).
    - iIntros (b s S) "[HJ _]". by iDestruct (c_good _ _ _ C with "HJ") as %H.
    - intros b H1 H2 H3. iIntros "H". iApply wp_strong_mono. iSplitL; [iApply (wp_fact _ _ _ (fun s => fst s = [])); [|by iApply (c_init _ _ _ C)]|].
      + intros w a w' e H. cbn [limited a_init] in H. inv_bind H as s H4 H5. apply ret_Ok in H4 as (->&_&_). by apply ret_Ok in H5 as (->&_&_).
      + iIntros ([s l]) "[HJ %E]". iFrame "HJ". iPureIntro. rewrite E. cbn [length]. apply Nat.le_0_l.
    - intros b s. iIntros "[HJ _]". by iApply (c_dtor _ _ _ C).
    - intros b s S n Hreq Hn. iIntros "[HJ %Hl]".
      iAssert ⌜Forall fresh (fst s) /\ Forall (fun nd => nd_addr nd <> 0) (fst s) /\ Forall used (tail (fst s)) /\
        (Forall used (fst s) -> (length (fst s) <= snd s)%nat)⌝%I with "[HJ]" as %(Hfr&Had&Hu&Hlt).
      { iDestruct "HJ" as "[[HJ %Hu] (%E & _)]". iDestruct (casc_fresh with "HJ") as %Hfr. iDestruct "HJ" as "(%TT & [%HS _] & H)".
        iDestruct (nodes_addr with "H") as %Had.
        iAssert ⌜Forall used (fst s) -> (length (fst s) <= snd s)%nat⌝%I with "[H]" as %Hlt; [|by iPureIntro].
        iIntros (Hu'). iDestruct (nodes_used with "H") as %Hl'; [done|]. iPureIntro. rewrite E HS. exact Hl'. }
      assert (0 < n) as Hn0. { apply andb_true_iff in Hreq as [Hreq%N.ltb_lt _]. done. }
      iApply wp_strong_mono. iSplitL; [iApply (wp_fact _ _ _ (fun r => (length (fst (snd r)) <= k)%nat)); [|by iApply (c_alloc _ _ _ C)]|].
      + intros w [p s'] w' e H. cbn [snd]. cbn [limited a_alloc] in H. rewrite andb_true_r in H.
        destruct (Nat.ltb_spec (snd s) k) as [Hsk|Hsk]; [|by apply ret_Ok in H as ([= -> ->]&_&_)].
        inv_bind H as [p0 s0] H1 H2. apply ret_Ok in H2 as ([= -> ->]&_&_). cbn [fst].
        apply (casc_alloc_len k (fst s) n _ _ _ _ _ Hn0 Hfr Had Hu) in H1; [exact H1|by eapply Nat.le_lt_trans; [apply Nat.le_0_l|]| |exact Hl].
        intros Hus. eapply Nat.le_lt_trans; [by apply Hlt|exact Hsk].
      + iIntros ([p s']) "[[[%Hp HJ]|(%Hp & Hr & HJ)] %Hu']"; cbn [fst snd] in *; [iLeft|iRight].
        * iSplit; [done|]. by iFrame.
        * iSplit; [done|]. by iFrame.
    - intros b s p cs Lb Hd. iIntros "([HJ %Hl] & Hc & HL)".
      iApply wp_strong_mono. iSplitL; [iApply (wp_fact _ _ _ (fun s' => (length (fst s') <= k)%nat)); [|iApply (c_free _ _ _ C); [done|iFrame]]|].
      + intros w s' w' e H. cbn [limited a_free cascading cascading_with] in H. inv_bind H as s0 H1 H2. apply ret_Ok in H2 as (->&_&_).
        unfold casc_free in H1. inv_bind H1 as u H3 H4. apply casc_free_len in H4. cbn [fst]. eapply Nat.le_trans; [exact H4|exact Hl].
      + iIntros (s') "[[HJ $] %Hu']". by iFrame.
    - intros o b s S Ho. iIntros "[HJ _]". by iDestruct (c_owns_in _ _ _ C _ _ _ _ Ho with "HJ") as %H.
    - intros o b s Lb q c Ho Hq. iIntros "([HJ _] & HL & Hc)". by iDestruct (c_owns_out _ _ _ C _ _ _ _ _ _ Ho Hq with "[$HJ $HL $Hc]") as %H.
    - intros mx b s S Hmx Hr. iIntros "[HJ %Hl]". iApply wp_strong_mono. iSplitL; [by iApply (c_max _ _ _ C)|].
      iIntros (v) "[$ $]". by iPureIntro.
    - intros b s S Hm. iIntros "[HJ _]". by iDestruct (c_bound _ _ _ C with "HJ") as %H.
    - intros o c b s Lb q act R Ho. done.
  Defined.
End casclin.

(** * Every composition *)
Section tree.
  Context (bad : event -> bool) (pl : platform) (k : nat).

  Record bpack (e : aexp) := BP {
    bc : contract bad (bden k pl e) (ereq pl e);
    b_rdy b s : bready k pl e b s = true -> rdy bc b s = true;
    b_foot b s S m : (length S <= k)%nat -> Forall (fun x => snd x <= m) S ->
      J bc b s S ⊢ hcap (eblocks e k) (ebytes pl e k m);
    b_tame : exists R φ, tame k (den pl e) (bden k pl e) R φ /\ (forall b s S, J bc b s S ⊢ ⌜φ s (length S)⌝) /\
      forall b s t, R s t -> eready_now pl e b s = bready k pl e b t
  }.

  Lemma lin_hcap Size b s S : lin_J Size b s S ⊢ hcap 0 0.
  Proof. iIntros "[_ (%mm & _ & H)]". rewrite own_ntok. by iApply ntok_hcap. Qed.
  Lemma mal_hcap b s S m : Forall (fun x => snd x <= m) S ->
    mal_J pl b s S ⊢ hcap (length S) (N.of_nat (length S) * (m + over pl)).
  Proof.
    unfold mal_J. induction S as [|x S IH]; intros H.
    - rewrite big_sepL_nil emp_ntok ntok_hcap. apply hcap_mono; cbn [length]; lia.
    - apply Forall_cons_iff in H as [Hx H]. rewrite big_sepL_cons IH // amtok_hcap. iIntros "[[_ H1] H2]".
      iDestruct (hcap_sep with "[$H1 $H2]") as "H". iApply (hcap_mono with "H"); cbn [length]; lia.
  Qed.
  Lemma chain_hcap Max h C : chain Max h C ⊢ hcap 0 0.
  Proof. rewrite chain_ntok. apply ntok_hcap. Qed.
  Lemma slack_hcap Max S : slack Max S ⊢ hcap 0 0.
  Proof. rewrite slack_ntok. apply ntok_hcap. Qed.
  Lemma guards_hcap S : guards S ⊢ hcap 0 0.
  Proof.
    unfold guards. induction S as [|x S IH]; [rewrite big_sepL_nil emp_ntok; apply ntok_hcap|].
    rewrite big_sepL_cons IH. unfold gbytes. rewrite !pts_ntok !ntok_hcap. iIntros "[[H1 H2] H3]".
    iDestruct (hcap_0 with "[$H1 $H2]") as "H". iApply (hcap_0 with "[$H $H3]").
  Qed.

  Definition budget e : pl <> PPosix -> wf e = true -> steady e = true ->
    (eboxed e = true -> bad EvFail || bad EvRefuse = true) -> bpack e.
  Proof.
    intros Hpl. induction e as [| | | |Min Max e IH|e IH|p IHp f IHf|T p IHp f IHf|e IH|e IH|e IH|e IH|e IH|e IH]; cbn [wf steady eboxed]; intros Hwf Hst Hb.
    - refine (BP ENull (null_contract bad) _ _ _).
      + done.
      + intros. cbn [J null_contract eblocks ebytes]. unfold null_J. iIntros "_". iApply ntok_hcap. by iApply emp_ntok.
      + exists eq, (fun _ _ => True). split_and!; [apply tame_refl| |done]. intros. by iIntros "_".
    - refine (BP EMalloc (mal_contract bad pl Hpl) _ _ _).
      + done.
      + intros b s S m Hk Hm. cbn [J mal_contract eblocks ebytes]. rewrite (mal_hcap b s S m Hm). apply hcap_mono; [done|].
        apply N.mul_le_mono_r. lia.
      + exists eq, (fun _ _ => True). split_and!; [apply tame_refl| |done]. intros. by iIntros "_".
    - refine (BP (ELinear Size) (lin_contract Size bad) _ _ _).
      + done.
      + intros. apply lin_hcap.
      + exists eq, (fun _ _ => True). split_and!; [apply tame_refl| |done]. intros. by iIntros "_".
    - refine (BP (EStack Size) (stack_contract Size bad) _ _ _).
      + done.
      + intros. apply lin_hcap.
      + exists eq, (fun _ _ => True). split_and!; [apply tame_refl| |done]. intros. by iIntros "_".
    - apply andb_true_iff in Hwf as [[H1 H2]%andb_true_iff Hwf].
      destruct (IH Hwf Hst Hb) as [C Hr Hf Ht].
      refine (BP (EFreelist Min Max e) (freelist_contract (limited_contract C k (upto Max)) Min Max (proj1 (N.leb_le _ _) H1) (proj1 (N.ltb_lt _ _) H2)) _ _ _).
      + intros b s. apply Hr.
      + intros b s S m Hk Hm. cbn [J freelist_contract eblocks ebytes]. iIntros "(%Cc & %Hrg & [HJ (%E & %Hk' & %Hm')] & Hch & Hsl)".
        apply upto_le in Hm'. rewrite (Hf b (fst (f_in s)) _ Max Hk' Hm') chain_hcap slack_hcap.
        iDestruct (hcap_0 with "[$HJ $Hch]") as "H". iApply (hcap_0 with "[$H $Hsl]").
      + destruct Ht as (R&φ&HT&HJφ&HR). exists (rel_lfl R), (phi_fl φ). split_and!; [by apply tame_freelist| |intros b s t [Hs _]; by apply HR].
        intros b s S. cbn [J freelist_contract]. iIntros "(%Cc & %Hrg & HJ & Hch & Hsl)".
        iAssert ⌜f_head s = 0 -> Cc = []⌝%I with "[HJ Hch]" as %HC.
        { iDestruct (c_good _ _ _ (limited_contract C k (upto Max)) with "HJ") as %Hg. destruct Cc as [|q Cc]; [by iPureIntro|].
          iDestruct (chain_head _ _ _ q Cc S with "Hch") as %Hh; [done..|]. iPureIntro. done. }
        iDestruct "HJ" as "[HJ (%E & %Hk' & %Hm')]". iDestruct (HJφ with "HJ") as %Hφ. iPureIntro. split.
        * intros Hh. rewrite E (HC Hh). unfold fl_inner. by rewrite app_length !map_length.
        * by rewrite E.
    - destruct e as [| |Size| | | | | | | | | | | ]; try done. apply N.eqb_eq in Hst.
      apply andb_true_iff in Hwf as [_ Hs]. apply N.ltb_lt in Hs.
      refine (BP (ECascading (ELinear Size)) (kl_contract bad pl Hpl (Hb eq_refl) Size Hst Hs k) _ _ _).
      + intros b [s l] Hr. cbn [rdy kl_contract fst]. by destruct s.
      + intros b s S m Hk Hm. cbn [J kl_contract eblocks ebytes]. exact (kl_hcap bad pl Hpl (Hb eq_refl) Size Hst Hs k b s S).
      + exists (fun s t => s = fst t), (fun t j => snd t = j). split_and!; [apply tame_capped| |by intros b s t ->].
        intros b s S. cbn [J kl_contract]. iIntros "[[_ (%E & _)] _]". done.
    - apply andb_true_iff in Hwf as [[H1 H2]%andb_true_iff Ho]. apply andb_true_iff in Hst as [S1 S2].
      destruct (IHp H1 S1) as [CP HrP HfP HtP]; [intros E; apply Hb; by rewrite E|].
      destruct (IHf H2 S2) as [CF HrF HfF HtF]; [intros E; apply Hb; rewrite E; apply orb_true_r|].
      refine (BP (EFallback p f) (fallback_contract CP CF (bden_owns k pl p Ho)) _ _ _).
      + intros b s. cbn [rdy fallback_contract]. unfold pair_rdy. intros [E1 E2]%andb_true_iff. rewrite HrP // HrF // bden_size //.
      + intros b s S m Hk Hm. cbn [J fallback_contract eblocks ebytes]. iIntros "(%T1 & %T2 & (%Hp & _ & _) & HP & HF)".
        rewrite Hp in Hm. apply Forall_app in Hm as [M1 M2]. rewrite Hp app_length in Hk.
        rewrite (HfP b (fst s) T1 m) // ?(HfF (b + a_size (bden k pl p)) (snd s) T2 m) //; [|lia..]. iApply hcap_sep. iFrame.
      + destruct HtP as (R&φ&HTP&HP&HRP), HtF as (R'&ψ&HTF&HF&HRF). exists (rel_pair R R'), (phi_pair (φ := φ) (ψ := ψ)).
        split_and!; [by apply tame_fallback| |intros b s t [Hs Ht]; cbn [eready_now bready]; f_equal; auto]. intros b s S. cbn [J fallback_contract]. iIntros "(%T1 & %T2 & (%Hp & _ & _) & H1 & H2)".
        iDestruct (HP with "H1") as %P1. iDestruct (HF with "H2") as %P2. iPureIntro.
        exists (length T1), (length T2). split_and!; [by rewrite Hp app_length|done..].
    - apply andb_true_iff in Hwf as [H1 H2]. apply andb_true_iff in Hst as [S1 S2].
      destruct (IHp H1 S1) as [CP HrP HfP HtP]; [intros E; apply Hb; by rewrite E|].
      destruct (IHf H2 S2) as [CF HrF HfF HtF]; [intros E; apply Hb; rewrite E; apply orb_true_r|].
      refine (BP (ESegragator T p f) (segragator_contract CP CF T) _ _ _).
      + intros b s. cbn [rdy segragator_contract]. unfold pair_rdy. intros [E1 E2]%andb_true_iff. rewrite HrP // HrF // bden_size //.
      + intros b s S m Hk Hm. cbn [J segragator_contract eblocks ebytes]. iIntros "(%T1 & %T2 & (%Hp & %L1 & _) & HP & HF)".
        rewrite Hp in Hm. apply Forall_app in Hm as [M1 M2]. rewrite Hp app_length in Hk.
        assert (Forall (fun x => snd x <= N.min m T) T1) as M1'.
        { rewrite List.Forall_forall in M1. rewrite List.Forall_forall in L1. apply List.Forall_forall. intros x Hx.
          specialize (M1 x Hx). specialize (L1 x Hx). unfold seg_low in L1. lia. }
        rewrite (HfP b (fst s) T1 (N.min m T)) // ?(HfF (b + a_size (bden k pl p)) (snd s) T2 m) //; [|lia..]. iApply hcap_sep. iFrame.
      + destruct HtP as (R&φ&HTP&HP&HRP), HtF as (R'&ψ&HTF&HF&HRF). exists (rel_pair R R'), (phi_pair (φ := φ) (ψ := ψ)).
        split_and!; [by apply tame_segragator| |intros b s t [Hs Ht]; cbn [eready_now bready]; f_equal; auto]. intros b s S. cbn [J segragator_contract]. iIntros "(%T1 & %T2 & (%Hp & _ & _) & H1 & H2)".
        iDestruct (HP with "H1") as %P1. iDestruct (HF with "H2") as %P2. iPureIntro.
        exists (length T1), (length T2). split_and!; [by rewrite Hp app_length|done..].
    - destruct (IH Hwf Hst Hb) as [C Hr Hf Ht].
      refine (BP (EOverflow e) (overflow_contract C) _ _ _).
      + intros b s. apply Hr.
      + intros b s S m Hk Hm. cbn [J overflow_contract eblocks ebytes]. iIntros "(HJ & Hg & _)".
        rewrite (Hf b (o_in s) (map widen S) (m + 128)) ?guards_hcap.
        * iApply (hcap_0 with "[$HJ $Hg]").
        * by rewrite map_length.
        * apply Forall_map. eapply List.Forall_impl; [|exact Hm]. intros x Hx. cbn in *. lia.
      + destruct Ht as (R&φ&HT&HJφ&HR). exists (rel_ov R), (fun t j => φ (o_in t) j). split_and!; [by apply tame_overflow| |intros b s t Hs; by apply HR; apply Hs].
        intros b s S. cbn [J overflow_contract]. iIntros "(HJ & Hg & _)". iDestruct (HJφ with "HJ") as %H. rewrite map_length in H. done.
    - apply andb_true_iff in Hwf as [Hwf Hs]. apply N.ltb_lt in Hs. rewrite -(bden_size k pl) in Hs.
      destruct (IH Hwf Hst (fun _ => Hb eq_refl)) as [C Hr Hf Ht].
      refine (BP (EShared e) (shared_contract C pl Hpl (Hb eq_refl) Hs) _ _ _).
      + intros b s. apply Hr.
      + intros b s S m Hk Hm. cbn [J shared_contract eblocks ebytes]. iIntros "(HJ & Hraw & Htok & _)".
        rewrite (Hf _ _ S m Hk Hm) raw_ntok ntok_hcap amtok_hcap bden_size.
        iDestruct (hcap_sep with "[$Htok $HJ]") as "H". iApply (hcap_0 with "[$H $Hraw]").
      + destruct Ht as (R&φ&HT&HJφ&HR). exists (rel_sh R), (fun t j => φ (sh_in t) j). split_and!; [by apply tame_shared| |intros b s t [Hst2 E]; cbn [eready_now bready]; rewrite E; by apply HR].
        intros b s S. cbn [J shared_contract]. iIntros "(HJ & _ & _)". by iDestruct (HJφ with "HJ") as %H.
    - destruct (IH Hwf Hst Hb) as [C Hr Hf Ht]. refine (BP (EThreaded e) (forwarding_contract C) Hr Hf _).
      destruct Ht as (R&φ&HT&HJφ&HR). exists R, φ. split_and!; [by apply tame_forwarding|exact HJφ|exact HR].
    - destruct (IH Hwf Hst Hb) as [C Hr Hf Ht]. refine (BP (EReference e) (forwarding_contract C) Hr Hf _).
      destruct Ht as (R&φ&HT&HJφ&HR). exists R, φ. split_and!; [by apply tame_forwarding|exact HJφ|exact HR].
    - destruct (IH Hwf Hst Hb) as [C Hr Hf Ht]. refine (BP (EGlobal e) (forwarding_contract C) Hr Hf _).
      destruct Ht as (R&φ&HT&HJφ&HR). exists R, φ. split_and!; [by apply tame_forwarding|exact HJφ|exact HR].
    - destruct (IH Hwf Hst Hb) as [C Hr Hf Ht].
      refine (BP (EChecked e) (checked_contract C) _ _ _).
      + intros b s. apply Hr.
      + intros b s S m Hk Hm. cbn [J checked_contract eblocks ebytes]. iIntros "[HJ _]". by iApply (Hf _ _ S m Hk Hm).
      + destruct Ht as (R&φ&HT&HJφ&HR). exists (rel_checked R), (fun t j => φ (fst t) j). split_and!; [by apply tame_checked| |intros b s t Hs; by apply HR; apply Hs].
        intros b s S. cbn [J checked_contract]. iIntros "[HJ _]". by iDestruct (HJφ with "HJ") as %H.
  Defined.
End tree.

(** * Programs *)
Section programs.
  Context (k : nat) (m : N) {A B : alloc} {R : a_st A -> a_st B -> Prop} {φ : a_st B -> nat -> Prop} (H : tame k A B R φ) (b : N).
  Let T := limited k (upto m) B.
  Context (ra : N -> a_st A -> bool) (rb : N -> a_st B -> bool) (Hrr : forall b s t, R s t -> ra b s = rb b t).
  Let rt : N -> a_st T -> bool := fun b t => rb b (fst t).
  Let RT (s : a_st A) (t : a_st T) : Prop := R s (fst t).

  Lemma tame_step o s (t : a_st T) bl : RT s t -> snd t = length bl -> φ (fst t) (length bl) ->
    match o with OAlloc n => (length bl < k)%nat /\ n <= m | _ => True end ->
    same (fun x y => fst x = fst y /\ RT (fst (snd x)) (fst (snd y)) /\ snd (snd x) = snd (snd y)) (step A b ra o s bl) (step T b rt o t bl).
  Proof.
    intros Hs Hc Hφ Ho. destruct H as [H1 H2 H3 H4 H5 H6 H7 H8].
    assert (Hcd : forall c p act, same RT (traits_cd A b c s p act) (traits_cd T b c t p act)).
    { intros c p act. unfold traits_cd, T. cbn [limited a_cd]. destruct (a_cd A) as [oA|], (a_cd B) as [oB|]; try done; cbn [option_map].
      - intros w. specialize (H8 c b s (fst t) p act Hs w). unfold bind, ret.
        destruct (oA c b s p act w), (oB c b (fst t) p act w); try done. destruct H8 as (?&->&->). by rewrite app_nil_r.
      - apply same_bind_eq. intros _. by apply same_ret. }
    destruct o; cbn [step].
    - destruct Ho as [Ho1 Ho2]. unfold T. cbn [limited a_alloc]. unfold upto. rewrite Hc (proj2 (Nat.ltb_lt _ _) Ho1) (proj2 (N.leb_le _ _) Ho2). cbn [andb].
      apply same_assoc_r. eapply same_bind; [by eapply H4|]. intros [p s'] [q t'] [Hp Hs']; cbn in Hp, Hs'. subst q.
      apply same_ret_r. by apply same_ret.
    - destruct (bl !! i) as [[p n]|]; [|by apply same_ret]. unfold T. cbn [limited a_free]. apply same_assoc_r.
      eapply same_bind; [by apply H5|]. intros s' t' Hs'. apply same_ret_r. by apply same_ret.
    - destruct (bl !! i) as [[p n]|]; [|by apply same_ret]. destruct (off <? n); [|by apply same_ret].
      apply same_bind_eq. intros _. by apply same_ret.
    - destruct (bl !! i) as [[p n]|]; [|by apply same_ret]. destruct (off <? n); [|by apply same_ret].
      apply same_bind_eq. intros c. by apply same_ret.
    - unfold T. cbn [limited a_owns]. destruct (a_owns A) as [oA|], (a_owns B) as [oB|]; try done; apply same_ret. cbn.
      by rewrite (H6 b s (fst t) q Hs).
    - unfold T. cbn [limited a_max]. destruct (a_max A) as [oA|], (a_max B) as [oB|]; try done; cbn [option_map].
      unfold rt. rewrite (Hrr b s (fst t) Hs). destruct (rb b (fst t)); [|by apply same_ret]. apply same_bind_eq2; [by apply H7|]. intros v. by apply same_ret.
    - destruct (bl !! i) as [[p n]|]; [|by apply same_ret]. destruct (off <? n); [|by apply same_ret].
      eapply same_bind; [by apply Hcd|]. intros s' t' Hs'. by apply same_ret.
    - destruct (bl !! i) as [[p n]|]; [|by apply same_ret]. destruct (off <? n); [|by apply same_ret].
      eapply same_bind; [by apply Hcd|]. intros s' t' Hs'. by apply same_ret.
  Qed.

  Lemma tame_run ops : forall bk s (t : a_st T) w os s1 bl1 w1 e1,
    RT s t -> modest k m bk ops os = true ->
    (forall ops1 ops2 os1 t1 bl2 w2 e2, ops = ops1 ++ ops2 ->
      run T b rt ops1 t (bk_blocks bk) w = Ok (os1, (t1, bl2)) w2 e2 -> snd t1 = length bl2 /\ φ (fst t1) (length bl2)) ->
    run A b ra ops s (bk_blocks bk) w = Ok (os, (s1, bl1)) w1 e1 ->
    exists t1, run T b rt ops t (bk_blocks bk) w = Ok (os, (t1, bl1)) w1 e1.
  Proof.
    induction ops as [|o ops IH]; intros bk s t w os s1 bl1 w1 e1 Hs Hmod HΦ Hrun; cbn [run] in Hrun |- *.
    - cbn in Hrun. injection Hrun as <- <- <- <- <-. by exists t.
    - unfold bind at 1 in Hrun. unfold bind at 1.
      destruct (HΦ [] (o :: ops) [] t (bk_blocks bk) w [] eq_refl eq_refl) as [Hc Hφ].
      destruct (step A b ra o s (bk_blocks bk) w) as [[ob [s2 bl2]] w2 e2|] eqn:E1; [|done].
      unfold bind in Hrun. destruct (run A b ra ops s2 bl2 w2) as [[os2 [s3 bl3]] w3 e3|] eqn:E2; [|done].
      cbn in Hrun. injection Hrun as <- <- <- <- <-. cbn [modest] in Hmod.
      apply andb_true_iff in Hmod as [Ho Hmod].
      assert (match o with OAlloc n => (length (bk_blocks bk) < k)%nat /\ n <= m | _ => True end) as Ho'.
      { destruct o; try done. by apply andb_true_iff in Ho as [?%Nat.ltb_lt ?%N.leb_le]. }
      pose proof (tame_step o s t (bk_blocks bk) Hs Hc Hφ Ho' w) as HS. rewrite E1 in HS.
      destruct (step T b rt o t (bk_blocks bk) w) as [[ob' [t2 bl2']] w2' e2'|] eqn:E3; [|done].
      destruct HS as ((Hob&Hs2&Hbl)&<-&<-). cbn in Hob, Hs2, Hbl. subst ob' bl2'.
      pose proof (step_book _ _ _ _ _ _ _ _ _ _ _ _ E1) as Hbk. rewrite -Hbk in E2.
      destruct (IH _ s2 t2 w2 os2 s3 bl3 w3 e3 Hs2 Hmod) as [t3 HT]; [|done|].
      { intros ops1 ops2 os1 t1 bl4 w4 e4 -> H4. eapply (HΦ (o :: ops1) ops2 (ob :: os1)); [done|]. cbn [run].
        unfold bind at 1. rewrite E3. unfold bind. rewrite Hbk in H4. rewrite H4. cbn. done. }
      rewrite Hbk in HT. unfold bind. rewrite HT. cbn. by exists t3.
  Qed.
End programs.

Lemma footprint pl e k m b ops w s0 w0 e0 os s bl w1 e1 :
  pl <> PPosix -> wf e = true -> steady e = true ->
  place b (esize e) w -> asks (ereq pl e) ops ->
  a_init (den pl e) b w = Ok s0 w0 e0 ->
  run (den pl e) b (eready_now pl e) ops s0 [] w0 = Ok (os, (s, bl)) w1 e1 ->
  modest k m (Book [] 0 0) ops os = true ->
  (size (mtab (st w1)) <= size (mtab (st w)) + eblocks e k)%nat /\
  total (mtab (st w1)) <= total (mtab (st w)) + ebytes pl e k m.
Proof.
  intros Hpl Hwf Hst Hp Ha Hi Hrun Hmod.
  destruct (budget is_fail pl k e Hpl Hwf Hst (fun _ => eq_refl)) as [C Hr Hf (R&φ&HT&HJφ&HRR)].
  set (T := limited k (upto m) (bden k pl e)). set (CT := limited_contract C k (upto m)).
  set (rt := fun (b : N) (t : a_st T) => bready k pl e b (fst t)).
  assert (HaT : afirm T) by (by apply af_limited, bden_firm).
  assert (a_size T = esize e) as HsT by apply bden_size.
  pose proof (t_init _ _ _ _ _ HT b w) as Hi'. rewrite Hi in Hi'.
  destruct (a_init (bden k pl e) b w) as [t0 w0' e0'|] eqn:EI; [|done]. destruct Hi' as (HR&<-&<-).
  assert (a_init T b w = Ok (t0, 0%nat) w0 e0) as HiT.
  { unfold T. cbn [limited a_init]. unfold bind. rewrite EI. cbn. by rewrite app_nil_r. }
  assert (HrT : a_max T <> None -> forall b s, rt b s = true -> rdy CT b s = true).
  { intros _ b' s' H'. by apply Hr. }
  destruct (tame_run k m HT b (eready_now pl e) (bready k pl e) HRR ops (Book [] 0 0) s0 (t0, 0%nat) w0 os s bl w1 e1) as [t1 HrunT]; [done|done| |done|].
  - intros ops1 ops2 os1 t1 bl2 w2 e2 -> H1. cbn [bk_blocks] in H1.
    eapply (run_pure is_fail T (ereq pl e) CT b rt (fun t S => snd t = length S /\ φ (fst t) (length S)) ops1 w (t0, 0%nat) w0 e0); try done.
    + intros t S. iIntros "[HJ (%E & _ & _)]". iDestruct (HJφ with "HJ") as %Hφ. done.
    + by rewrite HsT.
    + unfold asks, requests in Ha. rewrite flat_map_app in Ha. by apply Forall_app in Ha as [Ha _].
    + pose proof (af_init T HaT b w) as F1. rewrite HiT in F1. pose proof (run_firm T HaT b rt ops1 (t0, 0%nat) [] w0) as F2.
      rewrite H1 in F2. by rewrite existsb_app F1 F2.
  - cbn [bk_blocks] in HrunT.
    eapply (run_cap is_fail T (ereq pl e) CT b rt _ _ ops w (t0, 0%nat) w0 e0); try done.
    + intros t S. iIntros "[HJ (%E & %Hk & %Hm)]". apply upto_le in Hm. by iApply (Hf with "HJ").
    + by rewrite HsT.
    + pose proof (af_init T HaT b w) as F1. rewrite HiT in F1. pose proof (run_firm T HaT b rt ops (t0, 0%nat) [] w0) as F2.
      rewrite HrunT in F2. by rewrite existsb_app F1 F2.
Qed.

(** * cascading is left out for a reason *)
Section creep.
  Context (pl : platform) (Hpl : pl <> PPosix) (Size n : N).
  Context (HS : Size + Size + 64 < W) (Hn : 0 < n <= Size) (Hpad : Size < padN n).
  Let A := cascading pl (linear_allocator Size).
  Let no {X} : N -> X -> bool := fun _ _ => false.

  Definition blank (s : list (node (linear_allocator Size))) : Prop :=
    Forall (fun nd : node (linear_allocator Size) => l_free (nd_in nd) = nd_addr nd) s.

  Lemma blank_refuses (nd : node (linear_allocator Size)) w : l_free (nd_in nd) = nd_addr nd ->
    a_alloc (linear_allocator Size) (nd_addr nd) (nd_in nd) n w = Ok (0, nd_in nd) w [].
  Proof using Hn Hpad HS.
    intros E. cbn [linear_allocator a_alloc]. unfold lin_alloc. rewrite E.
    pose proof (padN_bounds n). rewrite padded_small; [|lia]. assert (forall x, sub64 x x = 0) as ->.
    { intros y. unfold sub64, w64. replace (y + W - y) with W by lia. done. }
    rewrite add64_small; [|lia]. rewrite (proj2 (N.ltb_lt _ _)); [done|lia].
  Qed.

  Lemma new_blank w nd w' e : new_node pl (linear_allocator Size) w = Ok nd w' e -> l_free (nd_in nd) = nd_addr nd.
  Proof.
    unfold new_node. intros H. inv_bind H as p H1 H2. destruct (p =? 0).
    { inv_bind H2 as u H3 H4. done. }
    inv_bind H2 as s H3 H4. apply ret_Ok in H4 as (->&_&_). cbn [linear_allocator a_init] in H3. unfold lin_init in H3. inv_bind H3 as u H7 H8.
    apply ret_Ok in H8 as (->&_&_). done.
  Qed.

  Lemma blank_alloc s w p s' w' e : blank s -> casc_alloc pl (linear_allocator Size) s n w = Ok (p, s') w' e ->
    p = 0 /\ blank s' /\ length s' = S (Nat.max 1 (length s)).
  Proof using Hn Hpad HS.
    intros Hb H. unfold casc_alloc in H. inv_bind H as [nd rest] H1 H2.
    assert (blank (nd :: rest) /\ length (nd :: rest) = Nat.max 1 (length s)) as [Hb1 Hl].
    { destruct s as [|nd0 s].
      - inv_bind H1 as nd1 H3 H4. apply ret_Ok in H4 as ([= -> ->]&_&_). apply new_blank in H3. split; [by repeat constructor|done].
      - apply ret_Ok in H1 as ([= -> ->]&_&_). done. }
    clear H1 Hb. apply Forall_cons_iff in Hb1 as [Hnd Hrest]. inv_bind H2 as over H3 H4.
    cbn [linear_allocator a_max] in H3. inv_bind H3 as mx H5 H6. apply ret_Ok in H5 as (->&_&_). apply ret_Ok in H6 as (->&_&_).
    rewrite (proj2 (N.ltb_ge Size n)) in H4; [|lia].
    inv_bind H4 as [q si] H7 H8. rewrite blank_refuses // in H7. injection H7 as <- <- _ _. cbn [N.eqb] in H8.
    inv_bind H8 as nd2 H9 H10. apply new_blank in H9. inv_bind H10 as [q2 si2] H11 H12.
    rewrite blank_refuses // in H11. injection H11 as <- <- _ _. apply ret_Ok in H12 as ([= -> ->]&_&_).
    split_and!; [done| |cbn [length] in *; lia]. by repeat constructor.
  Qed.

  Lemma blank_run b j : forall (s : list (node (linear_allocator Size))) w os s' bl w' e, blank s ->
    run A b no (repeat (OAlloc n) j) s [] w = Ok (os, (s', bl)) w' e ->
    os = repeat (ObPtr 0) j /\ bl = [] /\ length s' = match j with 0%nat => length s | _ => (Nat.max 1 (length s) + j)%nat end.
  Proof using Hn Hpad HS.
    induction j as [|j IH]; intros s w os s' bl w' e Hb H; cbn [repeat run] in H.
    - by apply ret_Ok in H as ([= -> -> ->]&_&_).
    - inv_bind H as [ob [s1 bl1]] H0 H1. inv_bind H1 as [os2 [s3 bl3]] H2 H3. apply ret_Ok in H3 as ([= -> -> ->]&->&->).
      cbn [step] in H0. inv_bind H0 as [p s2] H4 H5. apply ret_Ok in H5 as ([= -> -> ->]&_&_).
      cbn [A cascading cascading_with a_alloc] in H4. apply blank_alloc in H4 as (->&Hb2&Hl); [|done]. cbn [N.eqb] in H2.
      apply IH in H2 as (->&->&->); [|done]. split_and!; [done..|]. rewrite Hl. destruct j; lia.
  Qed.

  Lemma nodes_ntok bad (C := lin_contract Size bad) s TT : nodes_J C pl s TT ⊢ ntok (length s).
  Proof.
    revert TT. induction s as [|nd s IH]; intros TT.
    - rewrite nodes_nil_l. iIntros "->". by iApply emp_ntok.
    - rewrite nodes_cons_l. iIntros "(%T & %TT' & -> & [(HJ & Hr & Ht & _) _] & Hns)". rewrite IH.
      iDestruct "HJ" as "[_ (%mm & _ & HJ)]". rewrite own_ntok raw_ntok amtok_ntok. iDestruct (ntok_0 with "[$Ht $Hr]") as "H".
      iDestruct (ntok_0 with "[$H $HJ]") as "H". iApply (ntok_sep 1). iFrame.
  Qed.

  Lemma creep b j w s0 w0 e0 os s bl w1 e1 : place b 0 w ->
    a_init A b w = Ok s0 w0 e0 -> run A b no (repeat (OAlloc n) (S j)) s0 [] w0 = Ok (os, (s, bl)) w1 e1 ->
    os = repeat (ObPtr 0) (S j) /\ bl = [] /\ size (mtab (st w1)) = (size (mtab (st w)) + j + 2)%nat.
  Proof using Hn Hpad HS Hpl.
    intros Hp Hi Hrun.
    assert (s0 = []) as -> by (by apply ret_Ok in Hi as (->&_&_)).
    destruct (blank_run b (S j) [] w0 os s bl w1 e1) as (->&->&Hl); [constructor|done|]. split_and!; [done..|].
    assert (a_size (linear_allocator Size) + 32 < W) as HsA.
    { cbn [linear_allocator a_size]. pose proof (padN_bounds Size). unfold padN in *. lia. }
    set (C := cascading_contract (lin_contract Size is_fail) pl Hpl eq_refl HsA eq_refl (fun _ _ _ => eq_refl)).
    destruct (run_heap is_fail A _ C b (fun _ _ => false) (fun s _ k => k = length s) (repeat (OAlloc n) (S j)) w [] w0 e0
      (repeat (ObPtr 0) (S j)) s [] w1 e1) as (k&->&->).
    - intros t S. cbn [J C cascading_contract]. iIntros "(%TT & _ & H)". iExists _. iSplit; [done|]. by iApply nodes_ntok.
    - done.
    - done.
    - unfold asks. apply List.Forall_forall. intros x Hx. assert (x = n) as ->.
      { unfold requests in Hx. apply in_flat_map in Hx as (o&Ho&Hx). apply repeat_spec in Ho as ->. cbn in Hx. naive_solver. }
      split; [|lia]. unfold casc_req, lin_req. lia.
    - done.
    - exact Hrun.
    - assert (afirm A) as HA.
      { apply (tree_firm pl (ECascading (ELinear Size)) Hpl). cbn [wf eowns edefault eready emax esize negb].
        rewrite !andb_true_iff. split_and!; try done; apply N.ltb_lt; cbn [linear_allocator a_size] in HsA; lia. }
      pose proof (af_init A HA b w) as F1. rewrite Hi in F1. pose proof (run_firm A HA b no (repeat (OAlloc n) (S j)) [] [] w0) as F2.
      unfold A in F2. rewrite Hrun in F2. by rewrite existsb_app F1 F2.
    - cbn [length] in Hl. lia.
  Qed.
End creep.

Lemma odd_pad Size n : Size mod 16 <> 0 -> Size - Size mod 16 < n -> Size < padN n.
Proof. intros H1 H2. pose proof (padN_bounds n). pose proof (padN_mod n). unfold padN in *. lia. Qed.

Lemma cascading_creeps pl Size n b j w s0 w0 e0 os s bl w1 e1 :
  pl <> PPosix -> Size mod 16 <> 0 -> Size - Size mod 16 < n <= Size -> Size + Size + 64 < W -> place b 0 w ->
  a_init (cascading pl (linear_allocator Size)) b w = Ok s0 w0 e0 ->
  run (cascading pl (linear_allocator Size)) b (fun _ _ => false) (repeat (OAlloc n) (S j)) s0 [] w0 = Ok (os, (s, bl)) w1 e1 ->
  os = repeat (ObPtr 0) (S j) /\ bl = [] /\ size (mtab (st w1)) = (size (mtab (st w)) + j + 2)%nat.
Proof. intros Hpl Hm Hn HS. apply (creep pl Hpl Size n HS); [lia|apply odd_pad; [done|lia]]. Qed.
