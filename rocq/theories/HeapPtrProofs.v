(** A pointer to an element of a binary_heap is another name of it. *)
From iris.proofmode Require Import tactics.
From Verif Require Import Base Mem Sep Wp AlignedMalloc Allocators Checked Tree Client Contract Service TreeProofs
  AllocSpec AllocProofs Env EnvProofs Vector ElemProofs RepProofs HeapPure Heap HeapElem HeapSpec HeapProofs HeapFacts Ptr HeapPtr.

Local Open Scope N_scope.

Lemma lower_ordered {X} (comp : X -> X -> bool) l r v : strict_weak comp -> ordered comp l -> l !! 0%nat = Some r -> comp r v = false ->
  ordered comp (<[0%nat := v]> l).
Proof.
  intros Hsw Ho Hr Hv j Hj x y Hx Hy. rewrite list_lookup_insert_ne in Hx; [|lia].
  destruct (decide (parent j = 0%nat)) as [E|E].
  - rewrite E in Hy. rewrite list_lookup_insert in Hy; [|by eapply lookup_lt_Some]. injection Hy as <-.
    apply (sw_neg comp Hsw x r v); [|done]. apply (Ho j Hj); [done|by rewrite E].
  - rewrite list_lookup_insert_ne in Hy; [|done]. by apply (Ho j Hj).
Qed.

Section ptr.
  Context {bad : event -> bool} {A : alloc} {req : N -> bool}.
  Context (CA : used bad A req) (b sz : N) (T : elt) (comp : nat -> value -> value -> bool) (eqv : value -> value -> bool).
  Context (D : gset nat) (Hsz : 0 < sz) (Hreq : forall n, req n = true -> n < 2 ^ 63) (k : nat) (wild : nat -> bool).
  Local Instance ord : order comp := tame wild comp.
  Local Notation inv := (inv CA b D).
  Local Notation hrep := (hrep sz comp D).
  Local Notation hbl := (hbl sz T).
  Local Notation sto := (sheap * list (list cell))%type.
  Local Notation stov := (fmap (M := gmap nat) (A := sto) (heap_of ∘ fst)).

  Lemma hits_spec a x : hits sz a (p_info x) = true <-> exists i v, p_l x !! i = Some v /\ a = p_data x + sz * N.of_nat i.
  Proof.
    unfold hits, p_info, p_len. cbn [i_data i_size]. split.
    - intros H. apply andb_true_iff in H as [H H3%N.eqb_eq]. apply andb_true_iff in H as [H1%N.leb_le H2%N.ltb_lt].
      pose proof (N.div_mod (a - p_data x) sz ltac:(lia)) as Hd. rewrite H3 in Hd.
      assert (Hi : (a - p_data x) / sz < N.of_nat (length (p_l x))) by (apply N.div_lt_upper_bound; lia).
      destruct (lookup_lt_is_Some_2 (p_l x) (N.to_nat ((a - p_data x) / sz)) ltac:(lia)) as [v Hv].
      exists (N.to_nat ((a - p_data x) / sz)), v. split; [done|]. rewrite N2Nat.id. lia.
    - intros (i&v&Hi%lookup_lt_Some&->). replace (p_data x + sz * N.of_nat i - p_data x) with (N.of_nat i * sz) by lia.
      rewrite N.mod_mul; [|lia]. apply andb_true_iff. split; [|done]. apply andb_true_iff. split; [apply N.leb_le; lia|apply N.ltb_lt; nia].
  Qed.
  Lemma is_elem_spec (m : gmap nat sheap) a :
    if at_elem sz (p_info <$> m) a then exists c i v, points sz m a c i v else astray sz m a.
  Proof.
    unfold at_elem. destruct (existsb _ _) eqn:He.
    - apply existsb_exists in He as ([c y]&Hin&Hy). apply elem_of_list_In, elem_of_map_to_list in Hin. rewrite lookup_fmap in Hin.
      destruct (m !! c) as [x|] eqn:Hx; [|done]. cbn in Hin, Hy. injection Hin as <-. apply hits_spec in Hy as (i&v&Hi&->). by exists c, i, v, x.
    - intros c i v (x&Hx&Hi&Ha). enough (existsb (fun p => hits sz a (snd p)) (map_to_list (p_info <$> m)) = true) by congruence.
      apply existsb_exists. exists (c, p_info x). split; [|apply hits_spec; eauto].
      apply elem_of_list_In, elem_of_map_to_list. by rewrite lookup_fmap Hx.
  Qed.
  Lemma is_elem_of (Z : gmap nat sto) a :
    if is_elem sz (stov Z) a then exists c i v, points sz (fst <$> Z) a c i v else astray sz (fst <$> Z) a.
  Proof. unfold is_elem. rewrite hinfos_of. apply is_elem_spec. Qed.
  Lemma in_wild_of (Z : gmap nat sto) a :
    if in_wild sz wild (stov Z) a then exists c i v, points sz (fst <$> Z) a c i v /\ wild (p_cmp (p_get c (fst <$> Z))) = true
    else forall c i v, points sz (fst <$> Z) a c i v -> wild (p_cmp (p_get c (fst <$> Z))) = false.
  Proof.
    unfold in_wild. set (Z' := filter (fun p : nat * sto => wild (p_cmp (fst (snd p))) = true) Z).
    assert (HZ' : filter (fun p : nat * heap => wild (h_cmp (snd p)) = true) (stov Z) = stov Z').
    { unfold Z'. apply map_eq. intros c. apply option_eq. intros y. rewrite map_filter_lookup_Some !lookup_fmap. cbn [snd].
      destruct (Z !! c) as [[x rs]|] eqn:Hc.
      - destruct (wild (p_cmp x)) eqn:Hw.
        + rewrite (proj2 (map_filter_lookup_Some _ Z c (x, rs))); [|done]. cbn. split; [by intros [? _]|]. intros Hy. split; [done|].
          injection Hy as <-. done.
        + rewrite (proj2 (map_filter_lookup_None _ Z c)).
          * cbn. split; [|done]. intros [[= <-] Hy]. cbn in Hy. congruence.
          * right. intros z Hz. rewrite Hc in Hz. injection Hz as <-. cbn. congruence.
      - rewrite (proj2 (map_filter_lookup_None _ Z c)); [|by left]. cbn. split; [by intros [? _]|done]. }
    rewrite HZ'. pose proof (is_elem_of Z' a) as H. destruct (is_elem sz (stov Z') a).
    - destruct H as (c&i&v&x&Hx&Hi&Ha). rewrite lookup_fmap in Hx. destruct (Z' !! c) as [[x1 rs]|] eqn:Hc; [|done].
      cbn in Hx. injection Hx as ->. apply map_filter_lookup_Some in Hc as [Hc Hw]. cbn in Hw. exists c, i, v. split.
      + exists x. by rewrite lookup_fmap Hc.
      + unfold p_get. by rewrite lookup_fmap Hc.
    - intros c i v (x&Hx&Hi&Ha). rewrite lookup_fmap in Hx. destruct (Z !! c) as [[x1 rs]|] eqn:Hc; [|done]. cbn in Hx. injection Hx as ->.
      unfold p_get. rewrite lookup_fmap Hc. cbn. destruct (wild (p_cmp x)) eqn:Hw; [|done]. exfalso. apply (H c i v). exists x.
      split_and!; [|done|done]. rewrite lookup_fmap. by rewrite (proj2 (map_filter_lookup_Some _ Z c (x, rs))).
  Qed.

  (** Two heaps have different storage. *)
  Lemma heaps_apart E (Z : gmap nat sto) c c' x rs x' rs' i i' v v' : map_Forall (fun _ => hrep) Z ->
    Z !! c = Some (x, rs) -> Z !! c' = Some (x', rs') -> c' <> c -> p_l x !! i = Some v -> p_l x' !! i' = Some v' ->
    inv E (hbl Z) ⊢ ⌜(p_data x + sz * N.of_nat i)%N <> (p_data x' + sz * N.of_nat i')%N⌝.
  Proof.
    intros HZ H1 H2 Hne Hi Hi'. pose proof (HZ _ _ H1) as Hr. pose proof (HZ _ _ H2) as Hr'.
    apply lookup_lt_Some in Hi, Hi'. pose proof (hr_len _ _ _ _ Hr) as Hl. pose proof (hr_len _ _ _ _ Hr') as Hl'. cbn [fst snd] in Hl, Hl'.
    assert (H0 : p_data x <> 0) by (apply (hrep_nonnull sz comp D Hsz Hreq _ _ Hr); lia).
    assert (H0' : p_data x' <> 0) by (apply (hrep_nonnull sz comp D Hsz Hreq _ _ Hr'); lia).
    assert (Hp : hbl Z ≡ₚ hblk sz T (x, rs) :: hblk sz T (x', rs') :: hbl (delete c' (delete c Z))).
    { rewrite (hbl_delete sz T _ _ _ H1). rewrite (hbl_delete sz T (delete c Z) c' (x', rs')); [|by rewrite lookup_delete_ne].
      rewrite !hone_nonnull //. }
    rewrite (inv_perm _ _ _ _ _ _ Hp) inv_acc2. iIntros "(Hp1 & Hp2 & _)".
    iDestruct (pts_disj with "[$Hp1 $Hp2]") as %Hd. iPureIntro.
    assert (G1 := cells_length sz T Hsz Hreq (p_l x) rs (hr_sized _ _ _ _ Hr)). assert (G2 := cells_length sz T Hsz Hreq (p_l x') rs' (hr_sized _ _ _ _ Hr')).
    cbn [fst snd] in Hd.
    destruct Hd as [Hd|[Hd|[Hd|Hd]]]; [rewrite Hd in G1|rewrite Hd in G2| |]; cbn [length] in *; nia.
  Qed.
  Lemma names_of E (Z : gmap nat sto) a c i v : map_Forall (fun _ => hrep) Z -> points sz (fst <$> Z) a c i v ->
    inv E (hbl Z) ⊢ ⌜names sz (fst <$> Z) a c i v⌝.
  Proof.
    intros HZ Hp. assert (H : inv E (hbl Z) ⊢ ∀ c', ∀ i', ⌜forall v', points sz (fst <$> Z) a c' i' v' -> c' = c /\ i' = i⌝).
    { iIntros "H" (c' i'). pose proof Hp as (x&Hx&Hi&Ha). rewrite lookup_fmap in Hx. destruct (Z !! c) as [[x1 rs]|] eqn:Hc; [|done]. cbn in Hx. injection Hx as ->.
      destruct (decide (c' = c)) as [->|Hne].
      - iPureIntro. intros v' (y&Hy&Hi'&Ha'). rewrite lookup_fmap Hc in Hy. cbn in Hy. injection Hy as <-. split; [done|]. nia.
      - destruct (Z !! c') as [[x' rs']|] eqn:Hc'.
        + destruct (p_l x' !! i') as [w|] eqn:Hw.
          * iDestruct (heaps_apart _ _ c c' _ _ _ _ _ _ _ _ HZ Hc Hc' Hne Hi Hw with "H") as %Hd. iPureIntro.
            intros v' (y&Hy&Hi'&Ha'). rewrite lookup_fmap Hc' in Hy. cbn in Hy. injection Hy as <-. exfalso. apply Hd. by rewrite -Ha -Ha'.
          * iPureIntro. intros v' (y&Hy&Hi'&_). rewrite lookup_fmap Hc' in Hy. cbn in Hy. injection Hy as <-. congruence.
        + iPureIntro. intros v' (y&Hy&_). by rewrite lookup_fmap Hc' in Hy. }
    rewrite H. setoid_rewrite <- bi.pure_forall. rewrite -bi.pure_forall. iIntros "%H1". iPureIntro. split; [done|]. intros c' i' v'. apply H1.
  Qed.

  Lemma points_src (Z : gmap nat sto) a c i v : map_Forall (fun _ => hrep) Z -> points sz (fst <$> Z) a c i v -> hsrc sz T (hbl Z) (PAddr a) v.
  Proof.
    intros HZ (x&Hx&Hi&->). rewrite lookup_fmap in Hx. destruct (Z !! c) as [[x1 rs]|] eqn:Hc; [|done]. cbn in Hx. injection Hx as ->.
    pose proof (HZ _ _ Hc) as Hr. exists (p_al x), (p_data x), (p_l x), rs, i. split_and!; [|apply Hr|done|done].
    apply (hbl_in sz T Z c (x, rs)); [done|]. rewrite hone_nonnull; [by apply elem_of_list_singleton|].
    apply (hrep_nonnull sz comp D Hsz Hreq _ _ Hr). pose proof (hr_len _ _ _ _ Hr) as Hl. apply lookup_lt_Some in Hi. cbn in *. lia.
  Qed.

  Definition put (x : sheap) (i : nat) (v : value) : sheap := SHeap (p_al x) (p_cmp x) (<[i := v]> (p_l x)) (p_cap x) (p_data x).
  Lemma hrep_put x rs i v : hrep (x, rs) -> (sorts (p_cmp x) -> ordered (comp (p_cmp x)) (<[i := v]> (p_l x))) -> hrep (put x i v, rs).
  Proof.
    intros [G1 G2 G3 G4 G5 G6 G7 G8] Ho. cbn [fst snd] in *. split; cbn [fst snd put p_al p_cmp p_l p_cap p_data]; try done.
    by rewrite insert_length.
  Qed.

  Lemma set_spec E (Z : gmap nat sto) c x rs i v : map_Forall (fun _ => hrep) Z -> Z !! c = Some (x, rs) -> (i < length (p_l x))%nat ->
    (sorts (p_cmp x) -> ordered (comp (p_cmp x)) (<[i := v]> (p_l x))) ->
    inv E (hbl Z) ⊢ wp bad (e_set sz T (p_data x + sz * N.of_nat i) v) (fun _ =>
      ∃ m', ⌈replaced comp wild (fst <$> Z) c i v m'⌉ ∗ hinv CA b sz T comp D E (stov Z) m').
  Proof.
    intros HZ Hc Hi Ho. pose proof (HZ _ _ Hc) as Hr. pose proof (hrep_put _ _ i v Hr Ho) as Hr'.
    pose proof (hr_len _ _ _ _ Hr) as Hl. cbn [fst snd] in Hl. pose proof (hr_sized _ _ _ _ Hr) as Hs. cbn [snd] in Hs.
    assert (H0 : p_data x <> 0) by (apply (hrep_nonnull sz comp D Hsz Hreq _ _ Hr); lia).
    rewrite (inv_perm _ _ _ _ _ _ (hbl_delete sz T _ _ _ Hc)) hone_nonnull //. unfold hblk. cbn [fst snd app].
    iIntros "H". iDestruct (inv_acc CA b sz D Hsz with "H") as "[Hp H]".
    iApply (wp_arr_set bad sz T Hsz _ _ _ _ _ _ Hs Hi). iFrame "Hp". iIntros "Hp".
    iSpecialize ("H" with "[] Hp").
    { iPureIntro. apply Nat2N.inj. rewrite !(cells_length sz T Hsz Hreq) //. by rewrite insert_length. }
    iExists (<[c := put x i v]> (fst <$> Z)). iSplitR.
    - iPureIntro. assert (Hg : p_get c (fst <$> Z) = x) by (unfold p_get; by rewrite lookup_fmap Hc). unfold replaced. rewrite Hg. split; [done|].
      by apply (hrep_ok sz comp D Hsz Hreq) in Hr'.
    - assert (stov Z = <[c := heap_of (put x i v)]> (stov Z)) as ->.
      { rewrite insert_id //. rewrite lookup_fmap Hc. cbn. f_equal. unfold heap_of, put, p_len. cbn [p_al p_cmp p_l p_cap p_data]. by rewrite insert_length. }
      iApply (hinv_put CA b sz T comp D E Z c (put x i v) rs); [by apply map_Forall_delete|done|].
      rewrite hone_nonnull //.
  Qed.

  Local Ltac same Z := iApply wp_ret; iExists (fst <$> Z); iSplitR; [iPureIntro; cbn [fst snd]|iExists Z; by iFrame "H"].
  Lemma hpstep_spec o E vs m : (forall o' h, o = HLib o' -> h_arg o' = Some h -> hlegal sz T k (p_info <$> m) o' = true -> h ∈ D) ->
    hinv CA b sz T comp D E vs m ⊢ wp bad (hpstep A b sz T comp eqv k wild o (E, vs)) (fun r =>
    ∃ m', ⌈hpcheck sz T comp eqv k wild o (fst r) m m'⌉ ∗ hinv CA b sz T comp D (fst (snd r)) (snd (snd r)) m').
  Proof.
    intros Hdom. unfold hpstep. cbn [snd]. destruct o as [o|a|a src|c v]; cbn [hpcheck].
    { apply hstep_spec; [done..|]. intros h. by apply Hdom. }
    all: iIntros "H"; iDestruct "H" as (Z) "[%HH H]"; destruct HH as (->&->&HZ).
    - pose proof (is_elem_of Z a) as Ha. destruct (is_elem _ _ _).
      2:{ same Z. by right. }
      destruct Ha as (c&i&v&Hp). iDestruct (names_of _ _ _ _ _ _ HZ Hp with "H") as %Hn.
      iApply wp_bind. iApply wp_strong_mono. iSplitL; [by iApply (e_src_spec CA b sz T D Hsz _ _ (PAddr a) v with "H"); eapply points_src|].
      iIntros (r) "[-> H]". same Z.
      left. by exists c, i, v.
    - pose proof (in_wild_of Z a) as Ha. destruct (in_wild _ _ _ _); cbn [andb].
      2:{ same Z. right. split_and!; [by left|done|done]. }
      destruct Ha as (c&i&u&Hp&Hw). iDestruct (names_of _ _ _ _ _ _ HZ Hp with "H") as %Hn.
      assert (Hsrc : if is_src sz (stov Z) src then exists v, hsrc sz T (hbl Z) src v /\
          match src with PVal x => v = x | PAddr a' => exists c i, points sz (fst <$> Z) a' c i v end
        else match src with PAddr a' => astray sz (fst <$> Z) a' | _ => False end).
      { destruct src as [x|a']; cbn [is_src]; [by exists x|]. pose proof (is_elem_of Z a') as Ha'. destruct (is_elem _ _ _); [|done].
        destruct Ha' as (c'&i'&v&Hp'). exists v. split; [by eapply points_src|]. eauto. }
      destruct (is_src _ _ _).
      2:{ same Z. right. split_and!; [by right|done|done]. }
      destruct Hsrc as (v&Hsrc&Hv).
      iAssert (⌜holds sz (fst <$> Z) src v⌝)%I as %Hh.
      { destruct src as [x|a']; [done|]. destruct Hv as (c'&i'&Hp'). iDestruct (names_of _ _ _ _ _ _ HZ Hp' with "H") as %Hn'. iPureIntro. by exists c', i'. }
      iApply wp_bind. iApply wp_strong_mono. iSplitL; [by iApply (e_src_spec CA b sz T D Hsz with "H")|].
      iIntros (r) "[-> H]". pose proof Hp as (x&Hx&Hi&Ha). rewrite lookup_fmap in Hx. destruct (Z !! c) as [[x1 rs]|] eqn:Hc; [|done]. cbn in Hx. injection Hx as ->.
      assert (Hg : p_get c (fst <$> Z) = x) by (unfold p_get; by rewrite lookup_fmap Hc). rewrite Hg in Hw.
      iApply wp_bind. iApply wp_strong_mono. iSplitL.
      { rewrite Ha. iApply (set_spec E Z c x rs i v HZ Hc with "H"); [by eapply lookup_lt_Some|]. intros [Hq _]. congruence. }
      iIntros (_) "(%m' & %Hm & H)". iApply wp_ret. cbn [fst snd]. iExists m'. iFrame "H". iPureIntro. left. exists c, i, u, v. rewrite Hg. done.
    - rewrite hget_of. cbn [heap_of h_size h_beg h_cmp]. unfold p_len at 1.
      destruct (p_l (p_get c (fst <$> Z))) as [|r l] eqn:Hl; cbn [length].
      { same Z. done. }
      destruct (N.ltb_spec 0 (N.of_nat (S (length l)))) as [_|?]; [|lia].
      destruct (Z !! c) as [[x rs]|] eqn:Hc.
      2:{ exfalso. unfold p_get in Hl. rewrite lookup_fmap Hc in Hl. done. }
      assert (Hg : p_get c (fst <$> Z) = x) by (unfold p_get; by rewrite lookup_fmap Hc). rewrite Hg in Hl |- *.
      assert (Hp : points sz (fst <$> Z) (p_data x) c 0 r). { exists x. rewrite lookup_fmap Hc Hl. split_and!; [done|done|lia]. }
      iApply wp_bind. iApply wp_strong_mono. iSplitL; [by iApply (e_src_spec CA b sz T D Hsz _ _ (PAddr (p_data x)) r with "H"); eapply points_src|].
      iIntros (r') "[-> H]". destruct (comp (p_cmp x) r v) eqn:Er.
      { same Z. done. }
      iApply wp_bind. iApply wp_strong_mono. iSplitL.
      { replace (p_data x) with (p_data x + sz * N.of_nat 0) at 1 by lia. iApply (set_spec E Z c x rs 0 v HZ Hc with "H"); [rewrite Hl; cbn; lia|].
        intros Hs. apply (lower_ordered _ _ r); [by apply sorts_weak| |by rewrite Hl|done]. by apply (hr_ord _ _ _ _ (HZ _ _ Hc)). }
      iIntros (_) "(%m' & %Hm & H)". iApply wp_ret. cbn [fst snd]. iExists m'. by iFrame "H".
  Qed.
End ptr.

Lemma hptr_session {bad A req} (CA : service bad A req) b sz T comp eqv k wild (Hsz : 0 < sz)
  (Hreq : forall n, req n = true -> n < 2 ^ 63) ops w :
  place b (N.of_nat k * a_size A) w ->
  csession_ok A b (hpstep A b sz T comp eqv k wild) (hrelease A b sz T) (hpcheck sz T comp eqv k wild) bad k ∅ ops w.
Proof.
  apply (csession_safe CA b _ _ _ _ _ (hinv CA b sz T comp (ord := tame wild comp) (set_seq 0 k))).
  - intros E. apply hinv_init.
  - intros o E vs s. apply hpstep_spec; [done..|]. intros o' h _ Ho HL. apply elem_of_set_seq.
    split; [lia|]. destruct o'; cbn in *; try done; injection Ho as ->; unfold new_name in HL;
      repeat (apply andb_true_iff in HL as [HL ?]); by apply Nat.ltb_lt.
  - intros E vs s. by apply hinv_kill.
Qed.
