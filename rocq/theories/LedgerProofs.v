(** Containers that own an overflow allocator report what the ledger says. *)
From iris.proofmode Require Import tactics.
From Verif Require Import Base Mem AlignedMalloc Allocators Checked Tree Client Env Vector Array HeapPure Heap LawsProofs LawsCont Books BooksProofs BooksVec
  BooksHeap Owned OwnedProofs Ledger StillFacts.

Local Open Scope N_scope.

(** * Computations whose reports are known *)
Definition knows {X} (m : M X) (R : X -> list event -> Prop) : Prop := forall w,
  match m w with Ok a _ e => existsb lost e = true \/ R a (leaks e) | Err _ _ => True end.

Lemma knows_ret {X} (a : X) (R : X -> list event -> Prop) : R a [] -> knows (ret a) R.
Proof. intros H w. by right. Qed.
Lemma knows_bind {X Y} (m : M X) (k : X -> M Y) R S :
  knows m R -> (forall a r, R a r -> knows (k a) (fun y r' => S y (r ++ r'))) -> knows (bind m k) S.
Proof.
  intros Hm Hk w. unfold bind. specialize (Hm w). destruct (m w) as [a w1 e1|]; [|done]. destruct Hm as [Hl|Hm].
  - destruct (k a w1); [|done]. left. by rewrite existsb_app Hl.
  - specialize (Hk a _ Hm w1). destruct (k a w1); [|done]. rewrite leaks_app. destruct Hk as [Hk|Hk]; [|by right].
    left. by rewrite existsb_app Hk orb_true_r.
Qed.
Lemma knows_imp {X} (m : M X) (R S : X -> list event -> Prop) : knows m R -> (forall a r, R a r -> S a r) -> knows m S.
Proof. intros H HS w. specialize (H w). destruct (m w); [|done]. destruct H; auto. Qed.
Lemma knows_still {X} (m : M X) : still m -> knows m (fun _ r => r = []).
Proof. intros H w. specialize (H w). destruct (m w); [|done]. by right. Qed.
Lemma knows_tame (A : alloc) L {Y} `{Carry A Y} (m : M Y) (P : Y -> Prop) :
  tame A L m -> ends m P -> knows m (fun y r => r = [] /\ P y /\ keeps A L y).
Proof.
  intros Ht He w. specialize (Ht w). specialize (He w). destruct (m w); [|done]. destruct Ht as [H1 H2], He as [He|He]; [by left|by right].
Qed.

(** Two computations that end alike; of the first one the events are known. *)
Definition track {X Y} (R : X -> Y -> list event -> Prop) (m : M X) (m' : M Y) : Prop := forall w,
  match m w, m' w with
  | Ok a w1 ev, Ok a' w1' _ => R a a' ev /\ w1 = w1'
  | Err _ _, Err _ _ => True
  | _, _ => False
  end.
Lemma track_ret {X Y} (R : X -> Y -> list event -> Prop) a a' : R a a' [] -> track R (ret a) (ret a').
Proof. by intros H w. Qed.
Lemma track_bind {X Y X' Y'} (R : X -> Y -> list event -> Prop) (S : X' -> Y' -> list event -> Prop) m m' k k' :
  track R m m' -> (forall a a' ev, R a a' ev -> track (fun y y' ev' => S y y' (ev ++ ev')) (k a) (k' a')) ->
  track S (bind m k) (bind m' k').
Proof.
  intros Hm Hk w. unfold bind. specialize (Hm w). destruct (m w) as [a w1 ev|], (m' w) as [a' w1' ev'|]; try done.
  destruct Hm as [Ha <-]. specialize (Hk a a' ev Ha w1). by destruct (k a w1), (k' a' w1).
Qed.
Lemma track_near {X Y} (R : X -> Y -> Prop) m m' (good : Prop) (S : X -> list event -> Prop) :
  near R m m' -> (good -> knows m S) -> track (fun a a' ev => R a a' /\ (good -> existsb lost ev = true \/ S a (leaks ev))) m m'.
Proof.
  intros Hn Hk w. specialize (Hn w). assert (Hk' := fun G => Hk G w). clear Hk. destruct (m w), (m' w); try done.
  by destruct Hn as (?&?&_).
Qed.

(** * The counters of an object *)
Definition reads {A : alloc} (s : ov A) (z : Z * Z) : Prop := o_allocs s = s64 (fst z) /\ o_cons s = s64 (snd z).

Lemma knows_say {X} c z (m : M X) R : is_report (c (s64 z)) = true -> lost (c (s64 z)) = false ->
  knows m (fun a r => R a ((if (s64 z =? 0)%Z then [] else [c (s64 z)]) ++ r)) -> knows ((if (s64 z =? 0)%Z then ret tt else emit (c (s64 z))) ;;; m) R.
Proof.
  intros Hc Hl Hm. destruct (s64 z =? 0)%Z.
  - eapply knows_bind; [apply (knows_ret tt (fun _ r => r = [])); done|]. intros _ r ->. exact Hm.
  - eapply (knows_bind _ _ (fun _ r => r = [c (s64 z)])).
    + intros w. right. unfold emit. cbn. unfold leaks. cbn. by rewrite Hc.
    + intros _ r ->. exact Hm.
Qed.

Lemma farewell_uncounted pl e s : uncounted e = true -> forall w, farewell pl e s w = Ok tt w [].
Proof.
  revert s. induction e as [| | | |Min Max e IH|e IH|p IHp f IHf|T p IHp f IHf|e IH|e IH|e IH|e IH|e IH|e IH]; cbn [farewell uncounted]; try done;
    intros s [H1 H2]%andb_true_iff w; unfold bind; by rewrite IHf // IHp.
Qed.

Section owned.
  Context (pl : platform) (e : aexp) (b : N) (k : nat) (Hun : uncounted e = true).
  Local Notation EO := (EOverflow e).
  Local Notation A := (overflow (den pl e)).
  Local Notation lo := (fun h => (h < k)%nat).
  Context {X Op : Type}.
  Context (run : Op -> env A * gmap nat X -> M (cobs * (env A * gmap nat X))).
  Context (legal : gmap nat X -> Op -> bool) (al : X -> nat) (rl : Op -> role Op).
  Context (kill : X -> env A -> M (env A)).
  Context (back : X -> env A -> M (env A)) (gone : X -> X).
  Context (val num : X -> N) (good : X -> Prop).

  Definition vz (x : X) : Z := Z.of_N (val x).
  Definition nz (x : X) : Z := Z.of_N (num x).
  Definition newborn (c h : nat) (vs : gmap nat X) (f g : nat -> Z) (r : cobs * (env A * gmap nat X)) : Prop :=
    exists x, snd (snd r) = <[c := x]> vs /\ al x = h /\ good x /\ books (fst (snd r)) (upd h (vz x) f) (upd h (nz x) g).
  Definition goods (vs : gmap nat X) : Prop := map_Forall (fun _ x => good x) vs.

  Context (Trun : forall o (E : env A) vs, full lo E -> tame A lo (run o (E, vs))).
  Context (Tkill : forall x (E : env A), full lo E -> tame A lo (kill x E)).
  Context (Tback : forall x (E : env A), full lo E -> tame A lo (back x E)).
  Context (Hmake : forall o c h vs, rl o = RMake c h -> legal vs o = true -> goods vs ->
    (h < k)%nat /\ vs !! c = None /\ forall E f g, books E f g -> ends (run o (E, vs)) (newborn c h vs f g)).
  Context (Hcopy : forall o tmp c src vs, rl o = RCopy tmp c src -> legal vs o = true -> goods vs ->
    exists x, vs !! src = Some x /\ vs !! c = None /\ forall E f g, books E f g -> ends (run o (E, vs)) (newborn c (al x) vs f g)).
  Context (Hmove : forall o c src vs, rl o = RMove c src -> legal vs o = true -> goods vs ->
    exists x xc xs, vs !! src = Some x /\ vs !! c = None /\ (al xc = al x /\ val xc = val x /\ num xc = num x /\ good xc) /\
    (al xs = al x /\ val xs = 0 /\ num xs = 0 /\ good xs) /\ forall E, ends (run o (E, vs)) (fun r => snd r = (E, <[src := xs]> (<[c := xc]> vs)))).
  Context (Hsplit : forall o c src h o1 vs, rl o = RSplit c src h o1 -> legal vs o = true -> goods vs ->
    exists x, vs !! src = Some x /\ vs !! c = None /\ (h < k)%nat /\
    (al (gone x) = al x /\ val (gone x) = 0 /\ num (gone x) = 0 /\ good (gone x)) /\
    (forall E f g, books E f g -> ends (run o1 (E, vs)) (newborn c h vs f g)) /\
    (forall E f g, books E f g -> ends (back x E) (fun E' => books E' (upd (al x) (- vz x) f) g))).
  Context (Huse : forall o c vs, rl o = RUse c -> legal vs o = true -> goods vs ->
    exists x, vs !! c = Some x /\ forall E f g, books E f g -> ends (run o (E, vs)) (fun r => exists x', snd (snd r) = <[c := x']> vs /\
      al x' = al x /\ good x' /\ books (fst (snd r)) (upd (al x) (vz x' - vz x) f) (upd (al x) (nz x' - nz x) g))).
  Context (Hdrop : forall o c vs, rl o = RKill c -> legal vs o = true -> goods vs ->
    exists x, vs !! c = Some x /\ forall E f g, books E f g -> ends (run o (E, vs)) (fun r => snd (snd r) = delete c vs /\
      books (fst (snd r)) (upd (al x) (- vz x) f) (upd (al x) (- nz x) g))).
  Context (Hkill : forall x E f g, good x -> books E f g ->
    ends (kill x E) (fun E' => books E' (upd (al x) (- vz x) f) (upd (al x) (- nz x) g))).
  Context (Hassign : forall o c src vs, rl o = RAssign c src -> legal vs o = true -> compiles EO rl o = true -> False).

  Definition inv_E (E : env A) : Prop := (exists f g, books E f g) /\ full lo E.
  Definition inv_c (K : env A) (D : gmap nat debt) (c : nat) (x : X) : Prop :=
    good x /\ (al x < k)%nat /\ exists s, K !! c = Some s /\ reads s (vz x + fst (debt_of c D), nz x + snd (debt_of c D))%Z.
  Definition inv (E K : env A) (vs : gmap nat X) (D : gmap nat debt) : Prop :=
    inv_E E /\ map_Forall (inv_c K D) vs.

  Definition put (h : nat) (z : Z) (f : nat -> Z) : nat -> Z := fun i => if Nat.eqb h i then z else f i.

  Definition load' (h : nat) (o : option (ov (den pl e))) (E : env A) : env A :=
    match E !! h, o with
    | Some s, Some o => <[h := Ov (graft pl e (o_in o) (o_in s)) (o_allocs o) (o_cons o)]> E
    | _, _ => E
    end.
  Lemma load_eq h o E : Owned.load pl EO h o E = load' h o E.
  Proof. reflexivity. Qed.
  Definition save' (c h : nat) (E K : env A) : env A :=
    match E !! h with Some s => <[c := s]> K | None => K end.
  Lemma save_eq c h E K : save pl EO c h E K = save' c h E K.
  Proof. reflexivity. Qed.

  Lemma load_at h (t : ov (den pl e)) (E : env A) :
    load' h (Some t) E !! h = None \/ exists s : ov (den pl e), load' h (Some t) E !! h = Some s /\ o_allocs s = o_allocs t /\ o_cons s = o_cons t.
  Proof.
    unfold load'. destruct (E !! h) as [s|] eqn:Hs.
    - right. eexists. split; [exact (lookup_insert E h _)|done].
    - left. exact Hs.
  Qed.
  Lemma load_books h s z (E : env A) f g : books E f g -> reads s z ->
    full lo E -> books (Owned.load pl EO h (Some s) E) (put h (fst z) f) (put h (snd z) g) /\ full lo (Owned.load pl EO h (Some s) E).
  Proof.
    intros HB [H1 H2] HF. rewrite load_eq. unfold load'. destruct (E !! h) as [t|] eqn:Ht.
    - split; [|exact (full_insert A lo h _ E HF)]. intros i u Hu. unfold put. destruct (decide (h = i)) as [<-|Hn].
      + rewrite lookup_insert in Hu. injection Hu as <-. rewrite Nat.eqb_refl. done.
      + rewrite lookup_insert_ne // in Hu. apply Nat.eqb_neq in Hn as ->. by apply HB.
    - split; [|done]. intros i u Hu. unfold put. destruct (Nat.eqb h i) eqn:Hi; [|by apply HB].
      apply Nat.eqb_eq in Hi as <-. pose proof (eq_trans (eq_sym Ht) Hu) as Hx. discriminate Hx.
  Qed.
  Lemma save_reads c h z f g (E K : env A) : full lo E -> (h < k)%nat -> books E f g -> f h = fst z -> g h = snd z ->
    exists s, save pl EO c h E K = <[c := s]> K /\ E !! h = Some s /\ reads s z.
  Proof.
    intros HF Hh HB Hf Hg. destruct (HF h Hh) as [s Hs]. exists s. rewrite save_eq. unfold save'. rewrite Hs. split; [done|]. split; [done|].
    destruct (HB h s Hs) as [H1 H2]. split; congruence.
  Qed.
  Lemma upd_here h z f : upd h z f h = (f h + z)%Z.
  Proof. unfold upd. by rewrite Nat.eqb_refl. Qed.
  Lemma put_here h z f : put h z f h = z.
  Proof. unfold put. by rewrite Nat.eqb_refl. Qed.
  Lemma put_there h z f i : h <> i -> put h z f i = f i.
  Proof. unfold put. by intros ->%Nat.eqb_neq. Qed.

  Lemma debt_here c d D : debt_of c (<[c := d]> D) = d.
  Proof. unfold debt_of. by rewrite lookup_insert. Qed.

  Lemma part_reads s z : reads s z -> knows (part pl EO (Some s)) (fun _ r => r = words z).
  Proof.
    intros [H1 H2]. cbn [part farewell]. rewrite H1 H2. apply knows_say; [done..|]. apply knows_say; [done..|].
    intros w. rewrite (farewell_uncounted pl e (o_in s) Hun w). right. cbn [leaks List.filter]. by rewrite app_nil_r.
  Qed.

  Lemma inv_goods E K vs D : inv E K vs D -> goods vs.
  Proof. intros [_ H] c x Hx. by destruct (H c x Hx). Qed.

  (** Containers other than [c] *)
  Lemma others (K K' : env A) (D D' : gmap nat debt) c x (vs : gmap nat X) : map_Forall (inv_c K D) vs ->
    (forall c', c' <> c -> K' !! c' = K !! c' /\ D' !! c' = D !! c') -> inv_c K' D' c x -> map_Forall (inv_c K' D') (<[c := x]> vs).
  Proof.
    intros H Hk Hx c' y Hy. destruct (decide (c' = c)) as [->|Hn].
    - rewrite lookup_insert in Hy. by injection Hy as <-.
    - rewrite lookup_insert_ne // in Hy. destruct (H c' y Hy) as (H1&H2&s&H3&H4). destruct (Hk c' Hn) as [HK HD].
      split; [done|]. split; [done|]. exists s. unfold debt_of in *. by rewrite HK HD.
  Qed.
  Lemma others_delete (K K' : env A) (D D' : gmap nat debt) c (vs : gmap nat X) : map_Forall (inv_c K D) vs ->
    (forall c', c' <> c -> K' !! c' = K !! c' /\ D' !! c' = D !! c') -> map_Forall (inv_c K' D') (delete c vs).
  Proof.
    intros H Hk c' y Hy. apply lookup_delete_Some in Hy as [Hn Hy]. destruct (H c' y Hy) as (H1&H2&s&H3&H4).
    destruct (Hk c' (not_eq_sym Hn)) as [HK HD]. split; [done|]. split; [done|]. exists s. unfold debt_of in *. by rewrite HK HD.
  Qed.

  Local Notation bdo' := (bdo pl EO run al rl back gone).

  Lemma bdo_knows P o E K vs D :
    books P (fun _ => 0%Z) (fun _ => 0%Z) -> full lo P -> compiles EO rl o = true -> legal vs o = true -> inv E K vs D ->
    knows (bdo' P o (E, (K, vs))) (fun a r =>
      let '(_, (E', (K', vs'))) := a in r = fst (entry rl val num o vs D) /\ inv E' K' vs' (snd (entry rl val num o vs D))).
  Proof.
    intros HPb HPf HC HL Hinv. assert (goods vs) as HG by by eapply inv_goods. destruct Hinv as [[(f&g&HB) HF] Hvs].
    unfold bdo, entry. destruct (rl o) as [c h|tmp c src|c src|c src h o1|c src|c|c] eqn:Hrl; cbv zeta; cbn [fst snd].
    - (* a constructor *)
      destruct (Hmake o c h vs Hrl HL HG) as (Hh&Hc&Hrun). destruct (HPf h Hh) as [t Ht]. rewrite Ht.
      assert (reads t (0, 0)%Z) as Hr by apply (HPb h t Ht).
      destruct (load_books h t _ E f g HB Hr HF) as [HB1 HF1]. cbn [fst snd] in HB1.
      eapply knows_bind; [apply (knows_tame A lo); [by apply Trun|by apply Hrun]|].
      intros [ob [E2 vs2]] r (->&(x&Hx&Ha&Hgx&HB2)&HK). cbn [fst snd] in *. subst vs2. specialize (HK E2 eq_refl).
      destruct (save_reads c h (vz x, nz x)%Z _ _ E2 K HK Hh HB2) as (s&Hs&_&Hrs); [by rewrite upd_here put_here..|].
      apply knows_ret. split; [done|]. rewrite Hs. split; [split; [by eauto|done]|].
      eapply others; [exact Hvs| |].
      + intros c' Hn. by rewrite !lookup_insert_ne.
      + split; [done|]. split; [by rewrite Ha|]. exists s. rewrite !debt_here lookup_insert. cbn [fst snd]. by rewrite !Z.add_0_r.
    - (* a copy *)
      destruct (Hcopy o tmp c src vs Hrl HL HG) as (x0&Hx0&Hc&Hrun). destruct (Hvs src x0 Hx0) as (_&Hh&t&Ht&Hr). rewrite Ht.
      assert (root al src vs = al x0) as -> by by rewrite /root Hx0.
      assert (total val num src vs D = (vz x0 + fst (debt_of src D), nz x0 + snd (debt_of src D))%Z) as ->.
      { unfold total, bytes_of, objects_of. rewrite Hx0. f_equal; unfold vz, nz; lia. }
      set (z := (vz x0 + fst (debt_of src D), nz x0 + snd (debt_of src D))%Z) in *.
      eapply (knows_bind _ _ (fun _ r => r = if tmp then words z else [])).
      { destruct tmp; [by apply part_reads|by apply knows_ret]. }
      intros _ r0 ->. destruct (load_books (al x0) t _ E f g HB Hr HF) as [HB1 HF1].
      eapply knows_bind; [apply (knows_tame A lo); [by apply Trun|by apply Hrun]|].
      intros [ob [E2 vs2]] r (->&(x&Hx&Ha&Hgx&HB2)&HK). cbn [fst snd] in *. subst vs2. specialize (HK E2 eq_refl).
      destruct (save_reads c (al x0) (fst z + vz x, snd z + nz x)%Z _ _ E2 K HK Hh HB2) as (s&Hs&_&Hrs);
        [by rewrite upd_here put_here..|].
      apply knows_ret. rewrite Hs. split; [by rewrite ?app_nil_l ?app_nil_r|]. split; [split; [by eauto|done]|].
      eapply others; [exact Hvs| |].
      + intros c' Hn. by rewrite !lookup_insert_ne.
      + split; [done|]. split; [by rewrite Ha|]. exists s. rewrite !debt_here lookup_insert.
        split; [done|]. destruct Hrs as [R1 R2]. split; cbn [fst snd] in *; [rewrite R1|rewrite R2]; f_equal; lia.
    - (* a move *)
      destruct (Hmove o c src vs Hrl HL HG) as (x&xc&xs&Hx&Hc&(A1&A2&A3&A4)&(B1&B2&B3&B4)&Hrun).
      destruct (Hvs src x Hx) as (_&Hh&t&Ht&Hr). assert (c <> src) as Hn by congruence.
      eapply knows_bind; [apply (knows_tame A lo); [by apply Trun|by apply Hrun]|].
      intros [ob [E2 vs2]] r (->&[= -> ->]&HK). apply knows_ret. split; [done|]. unfold same_as. rewrite Ht.
      split; [split; [by eauto|done]|].
      apply (others (<[c := t]> K) (<[c := t]> K) (<[c := debt_of src D]> D)).
      + eapply others; [exact Hvs| |].
        * intros c' Hn'. by rewrite !lookup_insert_ne.
        * split; [done|]. split; [by rewrite A1|]. exists t. rewrite !debt_here lookup_insert.
          split; [done|]. unfold vz, nz. by rewrite A2 A3.
      + intros c' Hn'. by rewrite lookup_insert_ne.
      + split; [done|]. split; [by rewrite B1|]. exists t. rewrite lookup_insert_ne //. split; [done|].
        rewrite !debt_here. unfold total, bytes_of, objects_of. rewrite Hx.
        unfold vz, nz in *. rewrite B2 B3. destruct Hr as [R1 R2]. split; cbn [fst snd] in *; [rewrite R1|rewrite R2]; f_equal; lia.
    - (* a move to another allocator *)
      destruct (Hsplit o c src h o1 vs Hrl HL HG) as (x&Hx&Hc&Hh&(B1&B2&B3&B4)&Hrun&Hbk).
      destruct (HPf h Hh) as [t Ht]. rewrite Ht Hx. assert (reads t (0, 0)%Z) as Hr by apply (HPb h t Ht).
      destruct (load_books h t _ E f g HB Hr HF) as [HB1 HF1]. cbn [fst snd] in HB1. assert (c <> src) as Hn by congruence.
      destruct (Hvs src x Hx) as (_&Hh'&t'&Ht'&Hr').
      eapply knows_bind; [apply (knows_tame A lo); [by apply Trun|by apply Hrun]|].
      intros [ob [E2 vs2]] r (->&(y&Hy&Ha&Hgy&HB2)&HK). cbn [fst snd] in *. subst vs2. specialize (HK E2 eq_refl).
      destruct (save_reads c h (vz y, nz y)%Z _ _ E2 K HK Hh HB2) as (s&Hs&_&Hrs); [by rewrite upd_here put_here..|].
      rewrite Hs lookup_insert_ne // Ht'. destruct (load_books (al x) t' _ E2 _ _ HB2 Hr' HK) as [HB3 HF3].
      eapply knows_bind; [apply (knows_tame A lo); [by apply Tback|by apply Hbk]|].
      intros E3 r (->&HB4&HK3). specialize (HK3 E3 eq_refl).
      destruct (save_reads src (al x) (fst (debt_of src D), nz x + snd (debt_of src D))%Z _ _ E3 (<[c := s]> K) HK3 Hh' HB4) as (u&Hu&_&Hru).
      { rewrite upd_here put_here. cbn [fst snd]. lia. }
      { by rewrite put_here. }
      rewrite Hu. apply knows_ret. split; [done|]. split; [split; [by eauto|done]|].
      apply (others (<[c := s]> K) _ (<[c := (0, 0)%Z]> D)).
      + eapply others; [exact Hvs| |].
        * intros c' Hn'. by rewrite !lookup_insert_ne.
        * split; [done|]. split; [by rewrite Ha|]. exists s. rewrite !debt_here lookup_insert. cbn [fst snd]. by rewrite !Z.add_0_r.
      + intros c' Hn'. by rewrite !(lookup_insert_ne _ src).
      + split; [done|]. split; [by rewrite B1|]. exists u. rewrite lookup_insert. split; [done|].
        rewrite !debt_here. unfold objects_of. rewrite Hx.
        unfold vz, nz in *. rewrite B2 B3. destruct Hru as [R1 R2]. split; cbn [fst snd] in *; [rewrite R1|rewrite R2]; f_equal; lia.
    - (* an assignment *) by destruct (Hassign o c src vs Hrl HL HC).
    - (* any other member *)
      destruct (Huse o c vs Hrl HL HG) as (x&Hx&Hrun). destruct (Hvs c x Hx) as (_&Hh&t&Ht&Hr). rewrite Ht.
      assert (root al c vs = al x) as -> by by rewrite /root Hx.
      destruct (load_books (al x) t _ E f g HB Hr HF) as [HB1 HF1].
      eapply knows_bind; [apply (knows_tame A lo); [by apply Trun|by apply Hrun]|].
      intros [ob [E2 vs2]] r (->&(x'&Hx'&Ha&Hgx&HB2)&HK). cbn [fst snd] in *. subst vs2. specialize (HK E2 eq_refl).
      destruct (save_reads c (al x) (vz x' + fst (debt_of c D), nz x' + snd (debt_of c D))%Z _ _ E2 K HK Hh HB2) as (s&Hs&_&Hrs);
        [rewrite upd_here put_here; cbn [fst snd]; lia..|].
      apply knows_ret. rewrite Hs. split; [done|]. split; [split; [by eauto|done]|].
      eapply others; [exact Hvs| |].
      + intros c' Hn. by rewrite !lookup_insert_ne.
      + split; [done|]. split; [by rewrite Ha|]. exists s. by rewrite lookup_insert.
    - (* the destructor *)
      destruct (Hdrop o c vs Hrl HL HG) as (x&Hx&Hrun). destruct (Hvs c x Hx) as (_&Hh&t&Ht&Hr). rewrite Ht.
      assert (root al c vs = al x) as -> by by rewrite /root Hx.
      destruct (load_books (al x) t _ E f g HB Hr HF) as [HB1 HF1].
      eapply knows_bind; [apply (knows_tame A lo); [by apply Trun|by apply Hrun]|].
      intros [ob [E2 vs2]] r (->&[Hv HB2]&HK). cbn [fst snd] in *. subst vs2. specialize (HK E2 eq_refl).
      destruct (save_reads c (al x) (debt_of c D) _ _ E2 K HK Hh HB2) as (s&_&Hs&Hrs);
        [rewrite upd_here put_here; cbn [fst snd]; lia..|].
      rewrite Hs. eapply knows_bind; [by apply part_reads|]. intros _ r ->. apply knows_ret. split; [by rewrite app_nil_r|].
      split; [split; [by eauto|done]|]. eapply others_delete; [exact Hvs|]. intros c' Hn. by rewrite !lookup_delete_ne.
  Qed.

  (** ** Whole programs *)
  Local Notation QA := (quiet (den pl EO)).
  Local Notation kin := (@renv QA QA (akin pl EO)).
  Local Notation stp := (lawful pl EO run legal).
  Context (Nstep : forall P o (E E' : env A) K vs, kin E E' -> near (rb pl EO) (bstep pl EO run legal al rl back gone P o (E, (K, vs))) (stp o (E', vs))).
  Context (Nkill : forall K xs (E E' : env A), kin E E' -> near kin (bkill_all pl EO al kill K xs E) (kill_all A kill xs E')).

  Definition rt (good : Prop) (a : list cobs * bstate pl EO (X := X)) (a' : list cobs * (list event * ((env A * gmap nat X) * gmap nat debt)))
    (ev : list event) : Prop :=
    let '(os, (E1, (K1, vs1))) := a in let '(os', (rs, ((E1', vs1'), D1))) := a' in
    os = os' /\ kin E1 E1' /\ vs1 = vs1' /\ (good -> existsb lost ev = true \/ leaks ev = rs /\ inv E1 K1 vs1 D1).

  Definition ready (P : env A) : Prop := books P (fun _ => 0%Z) (fun _ => 0%Z) /\ full lo P.
  Lemma brun_track P ops :
    forallb (compiles EO rl) ops = true -> forall (E E' : env A) K vs D, kin E E' ->
    track (rt (ready P /\ inv E K vs D)) (brun pl EO run legal al rl back gone P ops (E, (K, vs))) (lrun A stp legal rl val num ops (E', vs) D).
  Proof.
    induction ops as [|o ops IH]; intros HC E E' K vs D HE; [apply track_ret; repeat split; [done..|]; intros [_ Hi]; by right|].
    apply andb_true_iff in HC as [HCo HC]. cbn [brun lrun snd].
    assert (Hk : ready P /\ inv E K vs D -> knows (bstep pl EO run legal al rl back gone P o (E, (K, vs))) (fun a r =>
      let '(_, (E', (K', vs'))) := a in let q := if legal vs o then entry rl val num o vs D else ([], D) in r = fst q /\ inv E' K' vs' (snd q))).
    { intros [[HPb HPf] Hi]. unfold bstep. cbn [snd]. destruct (legal vs o) eqn:HL; [by apply bdo_knows|by apply knows_ret]. }
    destruct (if legal vs o then entry rl val num o vs D else ([], D)) as [r D'] eqn:Hq. cbv zeta in Hk. cbn [fst snd] in Hk.
    eapply track_bind; [exact (track_near _ _ _ _ _ (Nstep P o E E' K vs HE) Hk)|].
    intros [ob [E1 [K1 vs1]]] [ob' [E1' vs1']] ev [(Ho&HE1&Hv) Hk']. cbn [fst snd] in *. subst ob' vs1'. clear Hk.
    eapply track_bind; [exact (IH HC E1 E1' K1 vs1 D' HE1)|].
    intros [os [E2 [K2 vs2]]] [os' [rs [[E2' vs2'] D2]]] ev2 (->&HE2&->&Hr). apply track_ret.
    split; [done|]. split; [done|]. split; [done|]. intros Hi. rewrite !app_nil_r leaks_app existsb_app.
    destruct (Hk' Hi) as [Hl|[<- Hi1]]; [by rewrite Hl; left|].
    destruct (Hr (conj (proj1 Hi) Hi1)) as [Hl|[<- Hi2]]; [rewrite Hl orb_true_r; by left|]. by right.
  Qed.

  Lemma bkill_knows K D xs : Forall (fun cx => inv_c K D (fst cx) (snd cx)) xs -> forall E, inv_E E ->
    knows (bkill_all pl EO al kill K xs E) (fun _ r => r = concat (map (fun x => words (debt_of (fst x) D)) xs)).
  Proof.
    induction xs as [|[c x] xs IH]; intros Hxs E HE; cbn [bkill_all]; [by apply knows_ret|].
    apply Forall_cons_1 in Hxs as [(Hg&Hh&t&Ht&Hr) Hxs]. cbn [fst snd] in *. rewrite Ht. destruct HE as [(f&g&HB) HF].
    destruct (load_books (al x) t _ E f g HB Hr HF) as [HB1 HF1].
    eapply knows_bind; [apply (knows_tame A lo); [by apply Tkill|by apply Hkill]|].
    intros E2 r (->&HB2&HK). specialize (HK E2 eq_refl).
    destruct (save_reads c (al x) (debt_of c D) _ _ E2 K HK Hh HB2) as (s&_&Hs&Hrs);
      [rewrite upd_here put_here; cbn [fst snd]; lia..|].
    rewrite Hs. eapply knows_bind; [by apply part_reads|]. intros _ r ->.
    eapply knows_imp; [apply IH; [done|split; [by eauto|done]]|]. intros _ r ->. done.
  Qed.

  Lemma bdtor_knows P : books P (fun _ => 0%Z) (fun _ => 0%Z) -> full lo P -> forall j h E, (h + j <= k)%nat ->
    knows (bdtor_all pl EO b P h j E) (fun _ r => r = []).
  Proof.
    intros HPb HPf. induction j as [|j IH]; intros h E Hj; cbn [bdtor_all]; [by apply knows_ret|].
    eapply (knows_bind _ _ (fun _ r => r = [])); [|intros E1 r ->; apply IH; lia].
    destruct (HPf h) as [t Ht]; [lia|]. destruct (HPb h t Ht) as [H1 H2]. rewrite Ht load_eq.
    destruct (load_at h t E) as [Hn|(s&Hs&H3&H4)].
    { unfold te_dtor. rewrite Hn. by intros w. }
    unfold te_dtor. rewrite Hs. eapply (knows_bind _ _ (fun _ r => r = [])); [|intros _ r ->; by apply knows_ret].
    change (knows (ov_dtor (den pl e) (at_ (den pl EO) b h) s) (fun _ r => r = [])). unfold ov_dtor. rewrite H3 H4 H1 H2. change (s64 0 =? 0)%Z with true. cbv iota.
    do 2 (eapply (knows_bind _ _ (fun _ r => r = [])); [by apply knows_ret|intros _ r ->]).
    apply knows_still. apply (tree_discreet pl e Hun).
  Qed.

  Lemma init_knows j : forall h E, books E (fun _ => 0%Z) (fun _ => 0%Z) -> full (fun i => (i < h)%nat) E ->
    knows (init_all A b h j E) (fun P r => r = [] /\ books P (fun _ => 0%Z) (fun _ => 0%Z) /\ full (fun i => (i < h + j)%nat) P).
  Proof.
    induction j as [|j IH]; intros h E HB HF; cbn [init_all].
    - apply knows_ret. split; [done|]. split; [done|]. by rewrite Nat.add_0_r.
    - eapply knows_bind.
      + apply (knows_tame A (fun i => (i < S h)%nat)); [|by apply (init_books (den pl e) b h E _ _ HB)].
        unfold te_init. apply tame_skip; [apply (hs_init _ (overflow_hushed _ (tree_discreet pl e Hun)))|].
        intros s. apply tame_ret. intros E' [= <-] i Hi. rewrite lookup_insert_is_Some. destruct (decide (h = i)); [by left|right].
        split; [done|]. apply HF. lia.
      + intros E1 r (->&HB1&HK). eapply knows_imp; [apply IH; [done|by apply HK]|].
        intros P r (->&HP&HPf). split; [done|]. split; [done|]. intros i Hi. apply HPf. lia.
  Qed.

  Lemma bsession_tallies ops w : forallb (compiles EO rl) ops = true ->
    tallies (bsession pl EO b run legal al rl kill back gone k ops w) (lsession A b stp legal rl kill val num k ops w).
  Proof.
    intros HC.
    assert (H : track (fun os a ev => os = fst a /\ (existsb lost ev = true \/ leaks ev = snd a))
      (bsession pl EO b run legal al rl kill back gone k ops) (lsession A b stp legal rl kill val num k ops)).
    2: { specialize (H w). unfold tallies. destruct (bsession _ _ _ _ _ _ _ _ _ _ _ _ w), (lsession _ _ _ _ _ _ _ _ _ _ w) as [[] ? ?|]; try done.
      by destruct H as [[] _]. }
    unfold bsession, lsession.
    eapply track_bind.
    { eapply (track_near eq _ _ True); [apply near_same, same_refl|]. intros _.
      apply (init_knows k 0 ∅); [done|]. intros ? ?; lia. }
    intros P ? ev0 [<- HP]. specialize (HP I).
    eapply track_bind; [exact (brun_track P ops HC P P ∅ ∅ ∅ (all_refl (akin pl EO) P (akin_refl pl EO)))|].
    intros [os [E [K vs]]] [os' [rs [[E' vs'] D]]] ev1 (<-&HE&<-&H1).
    eapply track_bind.
    { eapply (track_near _ _ _ (inv E K vs D)); [exact (Nkill K (map_to_list vs) E E' HE)|].
      intros [Hi Hv]. apply (bkill_knows K D); [|done]. apply Forall_forall. intros [c x] Hx%elem_of_list_In%elem_of_map_to_list. exact (Hv c x Hx). }
    intros E2 E2' ev2 [HE2 H2].
    eapply track_bind.
    { eapply (track_near _ _ _ (ready P)); [exact (bdtor_near pl EO b P k 0 E2 E2' HE2)|]. intros [HPb HPf]. by apply bdtor_knows. }
    intros _ _ ev3 [_ H3]. apply track_ret. split; [done|]. cbn [fst snd]. rewrite !app_nil_r !leaks_app !existsb_app.
    destruct HP as [->|(HP0&HPb&HPf)]; [by left|]. assert (ready P) as HR by done.
    destruct H1 as [->|[HP1 Hi]]; [|rewrite orb_true_r; by left|].
    { split; [done|]. split; [|done]. split; [|done]. by eauto. }
    destruct (H2 Hi) as [->|HP2]; [rewrite !orb_true_r; by left|].
    destruct (H3 HR) as [->|HP3]; [rewrite !orb_true_r; by left|].
    right. by rewrite HP0 HP1 HP2 HP3 app_nil_r.
  Qed.
End owned.
