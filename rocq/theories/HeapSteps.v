(** How many comparisons binary_heap makes. *)
From Coq Require Import ssreflect.
From Verif Require Import Base Mem Allocators Env Vector HeapPure Heap.

Local Open Scope N_scope.

(** * Specification *)

Notation cmp := (nat -> value -> value -> bool) (only parsing).

(** Two comparators answer the questions [qs] alike. *)
Definition alike (qs : list (nat * value * value)) (c c' : cmp) : Prop :=
  Forall (fun '(q, x, y) => c' q x y = c q x y) qs.

(** What [F] does in [w] is determined by the answers to at most [n] comparisons. *)
Definition compares_in {X} (n : N) (F : cmp -> M X) (w : world) : Prop :=
  forall c, exists qs, N.of_nat (length qs) <= n /\ forall c', alike qs c c' -> F c' w = F c w.
Definition compares {X} (n : N) (F : cmp -> M X) : Prop := forall w, compares_in n F w.

(** The sum of floor(log2 j) for j = m + 1, ..., m + k: [k] insertions, the first one into a heap of
    [m] elements. *)
Fixpoint logs (m : N) (k : nat) : N :=
  match k with O => 0 | S k => N.log2 (m + 1) + logs (m + 1) k end.

(** [m]: the heaps have at most [m] elements. *)
Definition h_cost (o : hop) (m : N) : N :=
  match o with
  | HInsert _ _ => N.log2 (m + 1)
  | HPop _ => 2 * N.log2 (m - 1)
  | HNewList _ l _ _ => logs 0 (length l)
  | _ => 0
  end.
Definition h_most (o : hop) (m : N) : N :=
  match o with
  | HInsert _ _ => m + 1
  | HNewList _ l _ _ => N.max m (N.of_nat (length l))
  | _ => m
  end.
Fixpoint h_costs (ops : list hop) (m : N) : N :=
  match ops with [] => 0 | o :: ops => h_cost o m + h_costs ops (h_most o m) end.
Fixpoint h_mosts (ops : list hop) (m : N) : N :=
  match ops with [] => m | o :: ops => h_mosts ops (h_most o m) end.

(** * Composition *)

Lemma alike_app q1 q2 c c' : alike (q1 ++ q2) c c' <-> alike q1 c c' /\ alike q2 c c'.
Proof. apply Forall_app. Qed.

Lemma compares_const {X} n (m : M X) : compares n (fun _ => m).
Proof. intros w c. exists []. split; [cbn; lia|done]. Qed.
Lemma compares_le {X} n n' (F : cmp -> M X) : n <= n' -> compares n F -> compares n' F.
Proof. intros Hn H w c. destruct (H w c) as (qs & Hl & Hq). exists qs. split; [lia|done]. Qed.

(** [m] only returns values with [P]. *)
Definition gives {X} (m : M X) (P : X -> Prop) : Prop := forall w, match m w with Ok a _ _ => P a | Err _ _ => True end.

Lemma gives_ret {X} (a : X) (P : X -> Prop) : P a -> gives (ret a) P.
Proof. by intros H w. Qed.
Lemma gives_ub {X} u (P : X -> Prop) : gives (ubm u) P.
Proof. by intros w. Qed.
Lemma gives_any {X} (m : M X) : gives m (fun _ => True).
Proof. intros w. by destruct (m w). Qed.
Lemma gives_bind {X Y} (m : M X) (k : X -> M Y) P Q : gives m P -> (forall a, P a -> gives (k a) Q) -> gives (bind m k) Q.
Proof.
  intros Hm Hk w. unfold bind. specialize (Hm w). destruct (m w) as [a w1 e1|]; [|done].
  specialize (Hk a Hm w1). by destruct (k a w1).
Qed.
Lemma gives_bind' {X Y} (m : M X) (k : X -> M Y) Q : (forall a, gives (k a) Q) -> gives (bind m k) Q.
Proof. intros Hk. apply (gives_bind m k (fun _ => True)); [apply gives_any|auto]. Qed.
Lemma gives_imp {X} (m : M X) (P Q : X -> Prop) : gives m P -> (forall a, P a -> Q a) -> gives m Q.
Proof. intros H HQ w. specialize (H w). destruct (m w); auto. Qed.

Lemma compares_bind_gives {X Y} n1 n2 (F : cmp -> M X) (G : cmp -> X -> M Y) (P : X -> Prop) :
  compares n1 F -> (forall c, gives (F c) P) -> (forall a, P a -> compares n2 (fun c => G c a)) ->
  compares (n1 + n2) (fun c => bind (F c) (G c)).
Proof.
  intros HF HP HG w c. destruct (HF w c) as (q1 & Hl1 & H1). specialize (HP c w). unfold bind.
  destruct (F c w) as [a w1 e1|u e1] eqn:EF.
  - destruct (HG a HP w1 c) as (q2 & Hl2 & H2). exists (q1 ++ q2). split; [rewrite app_length; lia|].
    intros c' [Ha1 Ha2]%alike_app. by rewrite (H1 c' Ha1) (H2 c' Ha2).
  - exists q1. split; [lia|]. intros c' Ha. by rewrite (H1 c' Ha).
Qed.
Lemma compares_bind {X Y} n1 n2 (F : cmp -> M X) (G : cmp -> X -> M Y) :
  compares n1 F -> (forall a, compares n2 (fun c => G c a)) -> compares (n1 + n2) (fun c => bind (F c) (G c)).
Proof.
  intros HF HG. apply (compares_bind_gives n1 n2 F G (fun _ => True)); [done| |auto]. intros c. apply gives_any.
Qed.
(** The computation before, or the one after, makes no comparisons. *)
Lemma compares_seq {X Y} n (m : M X) (G : cmp -> X -> M Y) :
  (forall a, compares n (fun c => G c a)) -> compares n (fun c => bind m (G c)).
Proof. intros H. change n with (0 + n). apply (compares_bind 0 n (fun _ => m)); [apply compares_const|done]. Qed.
Lemma compares_then {X Y} n (F : cmp -> M X) (g : X -> M Y) :
  compares n F -> compares n (fun c => bind (F c) g).
Proof.
  intros H. apply (compares_le (n + 0)); [lia|]. apply (compares_bind n 0 F (fun _ => g)); [done|]. intros a. apply compares_const.
Qed.
(** One comparison. *)
Lemma compares_cmp {X} n q x y (F : bool -> cmp -> M X) :
  (forall r, compares n (F r)) -> compares (1 + n) (fun c => F (c q x y) c).
Proof.
  intros H w c. destruct (H (c q x y) w c) as (qs & Hl & Hq). exists ((q, x, y) :: qs). split; [cbn [length]; lia|].
  intros c' Ha. inversion Ha as [|? ? E Ha']; subst. cbn in E. rewrite E. by apply Hq.
Qed.

(** * percolateUp *)
Lemma log2_par i : 0 < i -> N.log2 (i + 1) = N.succ (N.log2 (par i + 1)).
Proof.
  intros Hi. unfold par. assert (i + 1 = 2 * ((i - 1) / 2 + 1) \/ i + 1 = 2 * ((i - 1) / 2 + 1) + 1) as [-> | ->] by lia.
  - rewrite N.log2_double; lia.
  - rewrite N.log2_succ_double; lia.
Qed.

Section loops.
  Context (sz : N) (T : elt).

  Lemma up_compares f q p i v : compares (N.log2 (i + 1)) (fun c => up_loop sz T c f q p i v).
  Proof.
    revert i. induction f as [|f IH]; intros i; cbn [up_loop]; [apply compares_const|].
    destruct (i =? 0) eqn:Ei; [apply compares_const|].
    apply compares_seq. intros y. rewrite (log2_par i ltac:(lia)) -N.add_1_l.
    apply (compares_cmp _ q v y (fun r c => if r then _ ;;; up_loop sz T c f q p (par i) v else ret i)).
    intros []; [|apply compares_const]. apply compares_seq. intros _. apply IH.
  Qed.

  (** Enough iterations. *)
  Lemma up_fuel c f1 f2 q p i v w : N.log2 (i + 1) < N.of_nat f1 -> N.log2 (i + 1) < N.of_nat f2 ->
    up_loop sz T c f1 q p i v w = up_loop sz T c f2 q p i v w.
  Proof.
    revert f2 i w. induction f1 as [|f1 IH]; intros [|f2] i w H1 H2; try lia.
    cbn [up_loop]. destruct (i =? 0) eqn:Ei; [done|].
    unfold bind at 1 3. destruct (e_get _ _ _ _) as [y w1 e1|]; [|done].
    destruct (c q v y); [|done]. unfold bind. destruct (e_mov _ _ _ _ _) as [[] w2 e2|]; [|done].
    rewrite (IH f2); [done| |]; rewrite (log2_par i ltac:(lia)) in H1 H2; lia.
  Qed.

  (** * percolateDown *)
  Lemma pick_compares q p n j c0 : compares (if j <? n then 1 else 0) (fun c => pick sz T c q p n j c0).
  Proof.
    unfold pick. destruct (j <? n); [|apply compares_const].
    apply compares_seq. intros x. apply compares_seq. intros y.
    apply (compares_cmp 0 q x y (fun r c => ret (if r then j else c0))). intros r. apply compares_const.
  Qed.
  Lemma pick_gives c q p n j c0 : gives (pick sz T c q p n j c0) (fun r => r = c0 \/ r = j /\ j < n).
  Proof.
    unfold pick. destruct (j <? n) eqn:E; [|apply gives_ret; by left].
    do 2 (apply gives_bind'; intros ?). apply gives_ret. case: (c q _ _); [right|left]; [split; [done|lia]|done].
  Qed.
  (** The next position. *)
  Definition child (n i r : N) : Prop := r = i \/ (r = 2 * i + 1 \/ r = 2 * i + 2) /\ r < n.
  Lemma picks_give c q p n i : n < 2 ^ 63 -> i < n ->
    gives (c1 <- pick sz T c q p n (lft i) i ;; pick sz T c q p n (rgt i) c1) (child n i).
  Proof.
    intros Hn Hi. assert (lft i = 2 * i + 1 /\ rgt i = 2 * i + 2) as [El Er].
    { unfold lft, rgt, w64, W. lia. }
    rewrite El Er. eapply gives_bind; [apply pick_gives|]. intros c1 Hc1. cbv beta in Hc1.
    eapply gives_imp; [apply pick_gives|]. intros r Hr. cbv beta in Hr. unfold child. lia.
  Qed.

  (** The loop as one step, and what follows. *)
  Definition down_step (c : cmp) (q : nat) (p n i : N) : M N :=
    c1 <- pick sz T c q p n (lft i) i ;; pick sz T c q p n (rgt i) c1.
  Definition down_rest (rest : N -> M N) (p i r : N) : M N :=
    if r =? i then ret i
    else
      t <- e_take sz T (elem_addr sz p r) ;;
      e_mov sz T (elem_addr sz p r) (elem_addr sz p i) ;;;
      e_set sz T (elem_addr sz p i) t ;;;
      rest r.
  Lemma bind_assoc {X Y Z} (m : M X) (f : X -> M Y) (g : Y -> M Z) w :
    bind (bind m f) g w = bind m (fun a => bind (f a) g) w.
  Proof.
    unfold bind. destruct (m w) as [a w1 e1|]; [|done]. destruct (f a w1) as [y w2 e2|]; [|done].
    destruct (g y w2); by rewrite app_assoc.
  Qed.
  Lemma down_unfold c f q p n i w :
    down_loop sz T c (S f) q p n i w =
    if i <? n then (r <- down_step c q p n i ;; down_rest (down_loop sz T c f q p n) p i r) w else ret i w.
  Proof. cbn [down_loop]. destruct (i <? n); [|done]. unfold down_step. by rewrite bind_assoc. Qed.

  Lemma compares_ext {X} n (F G : cmp -> M X) : (forall c w, F c w = G c w) -> compares n F -> compares n G.
  Proof.
    intros E H w c. destruct (H w c) as (qs & Hl & Hq). exists qs. split; [done|]. intros c' Ha. rewrite -!E. auto.
  Qed.

  Lemma down_compares f q p n i k : n < 2 ^ 63 -> n < (i + 1) * 2 ^ (N.of_nat k + 1) ->
    compares (2 * N.of_nat k) (fun c => down_loop sz T c f q p n i).
  Proof.
    intros Hn. revert i k. induction f as [|f IH]; intros i k Hk; [exact (compares_const _ (ubm UBLoop))|].
    eapply compares_ext; [intros c w; symmetry; apply down_unfold|].
    destruct (i <? n) eqn:Ei; [|apply compares_const].
    assert (lft i = 2 * i + 1 /\ rgt i = 2 * i + 2) as [El Er] by (unfold lft, rgt, w64, W; lia).
    destruct k as [|k].
    - (* no child *)
      assert (n < 2 * (i + 1)) as Hno by (cbn in Hk; lia).
      assert (forall c w, down_step c q p n i w = Ok i w []) as Hs.
      { intros c w. unfold down_step, pick. rewrite El Er.
        assert (2 * i + 1 <? n = false) as -> by lia. assert (2 * i + 2 <? n = false) as -> by lia. done. }
      eapply compares_ext; [|apply (compares_const _ (ret i))].
      intros c w. unfold bind. rewrite Hs. unfold down_rest. by rewrite N.eqb_refl.
    - rewrite Nat2N.inj_succ. replace (2 * N.succ (N.of_nat k)) with (2 + 2 * N.of_nat k) by lia.
      apply (compares_bind_gives 2 (2 * N.of_nat k) (fun c => down_step c q p n i)
              (fun c => down_rest (down_loop sz T c f q p n) p i) (child n i)).
      + apply (compares_bind 1 1); [|intros r]; eapply compares_le; [|apply pick_compares| |apply pick_compares]; by case_match.
      + intros c. apply picks_give; lia.
      + intros r Hr. unfold down_rest. destruct (r =? i) eqn:E; [apply compares_const|].
        do 3 (apply compares_seq; intros ?). apply IH.
        assert (2 * (i + 1) <= r + 1) by (unfold child in Hr; lia).
        rewrite Nat2N.inj_succ -N.add_1_r N.pow_add_r in Hk. change (2 ^ 1) with 2 in Hk.
        eapply N.lt_le_trans; [exact Hk|]. rewrite (N.mul_comm (2 ^ (N.of_nat k + 1)) 2) N.mul_assoc.
        apply N.mul_le_mono_r. lia.
  Qed.

  (** Enough iterations. *)
  Lemma down_fuel c f1 f2 q p n i w : n < 2 ^ 63 ->
    n < (i + 1) * 2 ^ N.of_nat f1 -> n < (i + 1) * 2 ^ N.of_nat f2 -> (0 < f1)%nat -> (0 < f2)%nat ->
    down_loop sz T c f1 q p n i w = down_loop sz T c f2 q p n i w.
  Proof.
    intros Hn. revert f2 i w. induction f1 as [|f1 IH]; intros [|f2] i w H1 H2 Hp1 Hp2; try lia.
    rewrite !down_unfold. destruct (i <? n) eqn:Ei; [|done].
    unfold bind at 1 2. pose proof (picks_give c q p n i Hn ltac:(lia) w) as Hr. fold (down_step c q p n i) in Hr.
    destruct (down_step c q p n i w) as [r w1 e1|]; [|done].
    unfold down_rest. destruct (r =? i) eqn:E; [done|]. unfold bind.
    destruct (e_take _ _ _ _) as [t w2 e2|]; [|done]. destruct (e_mov _ _ _ _ _) as [[] w3 e3|]; [|done].
    destruct (e_set _ _ _ _ _) as [[] w4 e4|]; [|done].
    assert (2 * (i + 1) <= r + 1 /\ r < n) as [Hr1 Hr2] by (unfold child in Hr; lia).
    assert (forall f, n < (i + 1) * 2 ^ N.of_nat (S f) -> n < (r + 1) * 2 ^ N.of_nat f) as Hstep.
    { intros f H. rewrite Nat2N.inj_succ N.pow_succ_r' in H. nia. }
    assert (forall f, n < (i + 1) * 2 ^ N.of_nat (S f) -> (0 < f)%nat) as Hpos.
    { intros [|f] H; [|lia]. apply Hstep in H. cbn in H. lia. }
    rewrite (IH f2); auto.
  Qed.

  Lemma logs_lt n : n < 1 * 2 ^ (N.of_nat (N.to_nat (N.log2 n)) + 1).
  Proof.
    rewrite N2Nat.id N.mul_1_l. destruct (decide (n = 0)) as [->|]; [done|].
    pose proof (N.log2_spec n ltac:(lia)) as [_ H]. by rewrite N.add_1_r.
  Qed.

  (** The bound of the model for the iterations is not reached. *)
  Lemma up_rounds c q p i v w : up_loop sz T c (S (N.to_nat i)) q p i v w = up_loop sz T c (S (N.to_nat (N.log2 (i + 1)))) q p i v w.
  Proof. apply up_fuel; [|lia]. pose proof (N.log2_lt_lin (i + 1)). lia. Qed.
  Lemma down_rounds c q p n w : n < 2 ^ 63 ->
    down_loop sz T c (S (N.to_nat n)) q p n 0 w = down_loop sz T c (S (N.to_nat (N.log2 n))) q p n 0 w.
  Proof.
    intros Hn. apply down_fuel; try lia.
    - rewrite Nat2N.inj_succ N2Nat.id. pose proof (N.pow_gt_lin_r 2 (N.succ n)). lia.
    - pose proof (logs_lt n). rewrite Nat2N.inj_succ -N.add_1_r. done.
  Qed.
End loops.

(** * insert, pop *)
Section heap.
  Context (A : alloc) (b sz : N) (T : elt) (eqv : value -> value -> bool).

  Lemma insert_compares x src E m : h_size x <= m -> compares (N.log2 (m + 1)) (fun c => hinsert A b sz T c x src E).
  Proof.
    intros Hm. change (N.log2 (m + 1)) with (0 + N.log2 (m + 1)). unfold hinsert.
    apply (compares_bind_gives 0 _ (fun _ => if h_size x =? h_cap x then hexpand A b sz T x 1 E else ret (x, E))
            _ (fun '(x', _) => h_size x' <= m)); [apply compares_const| |].
    - intros _. destruct (h_size x =? h_cap x); [|by apply gives_ret].
      unfold hexpand, hset_size. apply gives_bind'. intros _. apply gives_bind'. intros [p E1].
      apply gives_bind'. intros E2. apply gives_ret. cbn. lia.
    - intros [x' E'] Hx'. apply compares_seq. intros E2. apply compares_then. unfold percolate_up. apply compares_seq. intros v.
      apply compares_then. eapply compares_le; [|apply up_compares]. apply N.log2_le_mono. lia.
  Qed.
  Lemma insert_gives c x src E m : h_size x <= m -> gives (hinsert A b sz T c x src E) (fun '(_, x', _) => h_size x' <= m + 1).
  Proof.
    intros Hm. unfold hinsert. eapply (gives_bind _ _ (fun '(x', _) => h_size x' <= m)).
    - destruct (h_size x =? h_cap x); [|by apply gives_ret].
      unfold hexpand, hset_size. apply gives_bind'. intros _. apply gives_bind'. intros [p E1].
      apply gives_bind'. intros E2. apply gives_ret. cbn. lia.
    - intros [x' E'] Hx'. do 2 (apply gives_bind'; intros ?). apply gives_ret. cbn. lia.
  Qed.

  Lemma insert_list_compares l x E m : h_size x <= m -> compares (logs m (length l)) (fun c => insert_list A b sz T c x l E).
  Proof.
    revert x E m. induction l as [|v l IH]; intros x E m Hm; cbn [insert_list length logs]; [apply compares_const|].
    apply (compares_bind_gives (N.log2 (m + 1)) (logs (m + 1) (length l)) (fun c => hinsert A b sz T c x (PVal v) E)
            (fun c '(_, x, E) => insert_list A b sz T c x l E) (fun '(_, x', _) => h_size x' <= m + 1)).
    - by apply insert_compares.
    - intros c. by apply insert_gives.
    - intros [[i x'] E'] Hx'. by apply IH.
  Qed.
  Lemma insert_list_gives c l x E m : h_size x <= m ->
    gives (insert_list A b sz T c x l E) (fun '(x', _) => h_size x' <= m + N.of_nat (length l)).
  Proof.
    revert x E m. induction l as [|v l IH]; intros x E m Hm; cbn [insert_list length].
    { apply gives_ret. lia. }
    eapply gives_bind; [by apply (insert_gives c x (PVal v) E m)|]. intros [[i x'] E'] Hx'.
    eapply gives_imp; [by apply (IH x' E' (m + 1))|]. intros [x'' E'']. lia.
  Qed.

  Lemma pop_compares x E m : h_size x <= m -> m <= 2 ^ 63 -> compares (2 * N.log2 (m - 1)) (fun c => hpop A b sz T c x E).
  Proof.
    intros Hm Hb. unfold hpop. do 4 (apply compares_seq; intros ?). apply compares_then.
    unfold percolate_down. apply compares_seq. intros v. apply compares_then.
    apply (compares_le (2 * N.of_nat (N.to_nat (N.log2 (h_size x - 1))))).
    { rewrite N2Nat.id. apply N.mul_le_mono_l, N.log2_le_mono. lia. }
    apply down_compares; [lia|]. apply logs_lt.
  Qed.
  Lemma pop_gives c x E m : h_size x <= m -> gives (hpop A b sz T c x E) (fun '(_, x', _) => h_size x' <= m).
  Proof. intros Hm. unfold hpop. do 5 (apply gives_bind'; intros ?). apply gives_ret. cbn. lia. Qed.

  (** * Programs *)
  Definition small (m : N) (vs : gmap nat heap) : Prop := map_Forall (fun _ x => h_size x <= m) vs.
  Lemma small_get m vs c : small m vs -> h_size (hget c vs) <= m.
  Proof. intros H. unfold hget. destruct (vs !! c) as [x|] eqn:E; cbn; [by apply (H c)|lia]. Qed.
  Lemma small_ins m vs c x : small m vs -> h_size x <= m -> small m (<[c := x]> vs).
  Proof. intros H Hx. by apply map_Forall_insert_2. Qed.
  Lemma small_del m vs c : small m vs -> small m (delete c vs).
  Proof. intros H. by apply map_Forall_delete. Qed.
  Lemma small_le m m' vs : m <= m' -> small m vs -> small m' vs.
  Proof. intros Hm H i x Hi. specialize (H i x Hi). cbn in H. lia. Qed.

  Lemma hdo_compares o s m : small m (snd s) -> m <= 2 ^ 63 -> compares (h_cost o m) (fun c => hdo A b sz T c eqv o s).
  Proof.
    destruct s as [E vs]. cbn [snd]. intros Hs Hm. destruct o; cbn [hdo h_cost]; try apply compares_const.
    - apply compares_seq. intros [p E1]. apply compares_then. apply insert_list_compares. cbn. lia.
    - apply compares_then. by apply insert_compares, small_get.
    - apply compares_then. apply pop_compares; [by apply small_get|done].
  Qed.

  Lemma hcopy_gives h x E : gives (hcopy_of A b sz T h x E) (fun '(x', _) => h_size x' = h_size x).
  Proof. unfold hcopy_of. apply gives_bind'. intros [p E1]. apply gives_bind'. intros E2. by apply gives_ret. Qed.

  Lemma hdo_gives c o s m : small m (snd s) -> gives (hdo A b sz T c eqv o s) (fun '(_, s') => small (h_most o m) (snd s')).
  Proof.
    destruct s as [E vs]. cbn [snd]. intros Hs. assert (forall c, h_size (hget c vs) <= m) as Hg by (intros; by apply small_get).
    destruct o as [c0 q h|c0 n q h|c0 l q h|c0 src|c0 src|c0 src h|c0 src h|c0|c0 src|c0 src|c0|c0|c0|c0|c0 i|c0 n|c0 r|c0|c0|c0 r|c0];
      cbn [hdo h_most].
    - apply gives_ret. cbn [snd]. apply small_ins; [done|cbn; lia].
    - apply gives_bind'. intros [p E1]. apply gives_ret. cbn [snd]. apply small_ins; [done|cbn; lia].
    - apply gives_bind'. intros [p E1]. eapply gives_bind; [apply (insert_list_gives c l _ E1 0); cbn; lia|].
      intros [x E2] Hx. apply gives_ret. cbn [snd]. apply small_ins; [apply (small_le m); [lia|done]|lia].
    - eapply gives_bind; [apply hcopy_gives|]. intros [x E1] Hx. apply gives_ret. cbn [snd]. apply small_ins; [done|by rewrite Hx].
    - apply gives_ret. cbn [snd]. apply small_ins; [by apply small_ins|cbn; lia].
    - eapply gives_bind; [apply hcopy_gives|]. intros [x E1] Hx. apply gives_ret. cbn [snd]. apply small_ins; [done|by rewrite Hx].
    - eapply gives_bind; [apply hcopy_gives|]. intros [x E1] Hx. apply gives_bind'. intros E2. apply gives_ret. cbn [snd].
      apply small_ins; [apply small_ins; [done|by rewrite Hx]|cbn; lia].
    - apply gives_bind'. intros E1. apply gives_ret. by apply small_del.
    - apply gives_bind'. intros E1. unfold hassign. set (vs1 := <[c0 := _]> vs). assert (small m vs1) as Hs1 by (apply small_ins; [done|apply Hg]).
      apply gives_bind'. intros [p E2]. apply gives_bind'. intros E3. apply gives_ret. cbn [snd].
      apply small_ins; [done|]. cbn [h_size]. by apply small_get.
    - apply gives_bind'. intros E1. unfold hmove_assign. apply gives_ret. cbn [snd]. apply small_ins; [by apply small_ins|cbn; lia].
    - by apply gives_ret.
    - by apply gives_ret.
    - by apply gives_ret.
    - by apply gives_ret.
    - apply gives_bind'. intros v. by apply gives_ret.
    - eapply (gives_bind _ _ (fun '(x, _) => h_size x <= m)).
      + unfold hreserve. destruct (h_cap (hget c0 vs) <? n); [|apply gives_ret; apply Hg].
        unfold hset_size. apply gives_bind'. intros [p E1]. apply gives_bind'. intros E2. apply gives_ret. cbn.
        specialize (Hg c0). lia.
      + intros [x E1] Hx. apply gives_ret. by apply small_ins.
    - eapply gives_bind; [by apply (insert_gives c _ _ _ m)|]. intros [[i x] E1] Hx. apply gives_ret. cbn [snd].
      apply small_ins; [apply (small_le m); [lia|done]|done].
    - do 2 (apply gives_bind'; intros ?). by apply gives_ret.
    - eapply gives_bind; [by apply (pop_gives c _ _ m)|]. intros [[v x] E1] Hx. apply gives_ret. by apply small_ins.
    - apply gives_bind'. intros i. by apply gives_ret.
    - apply gives_bind'. intros E1. apply gives_ret. cbn [snd]. apply small_ins; [done|cbn; lia].
  Qed.

  Lemma h_most_le o m : m <= h_most o m.
  Proof. destruct o; cbn [h_most]; lia. Qed.
  Lemma h_mosts_le ops m : m <= h_mosts ops m.
  Proof.
    revert m. induction ops as [|o ops IH]; intros m; cbn [h_mosts]; [done|]. pose proof (h_most_le o m). specialize (IH (h_most o m)). lia.
  Qed.

  Lemma hstep_compares k o s m : small m (snd s) -> m <= 2 ^ 63 -> compares (h_cost o m) (fun c => hstep A b sz T c eqv k o s).
  Proof. intros Hs Hm. unfold hstep. destruct (hlegal _ _ _ _ _); [by apply hdo_compares|apply compares_const]. Qed.
  Lemma hstep_gives c k o s m : small m (snd s) -> gives (hstep A b sz T c eqv k o s) (fun '(_, s') => small (h_most o m) (snd s')).
  Proof.
    intros Hs. unfold hstep. destruct (hlegal _ _ _ _ _); [by apply hdo_gives|]. apply gives_ret.
    apply (small_le m); [apply h_most_le|done].
  Qed.

  Lemma crun_compares k ops s m : small m (snd s) -> h_mosts ops m <= 2 ^ 63 ->
    compares (h_costs ops m) (fun c => crun A (hstep A b sz T c eqv k) ops s).
  Proof.
    revert s m. induction ops as [|o ops IH]; intros s m Hs Hm; cbn [crun h_costs h_mosts] in *; [apply compares_const|].
    apply (compares_bind_gives (h_cost o m) (h_costs ops (h_most o m)) (fun c => hstep A b sz T c eqv k o s)
            (fun c '(ob, q') => ' (os, q'') <- crun A (hstep A b sz T c eqv k) ops q' ;; ret (ob :: os, q''))
            (fun '(_, s') => small (h_most o m) (snd s'))).
    - apply hstep_compares; [done|]. pose proof (h_most_le o m). pose proof (h_mosts_le ops (h_most o m)). lia.
    - intros c. by apply hstep_gives.
    - intros [ob s'] Hs'. apply compares_then. by apply IH.
  Qed.

  Lemma heap_compares k ops : h_mosts ops 0 <= 2 ^ 63 ->
    compares (h_costs ops 0) (fun c => csession A b (hstep A b sz T c eqv k) (hrelease A b sz T) k ops).
  Proof.
    intros Hm. unfold csession. apply compares_seq. intros E. apply compares_then. apply crun_compares; [|done].
    apply map_Forall_empty.
  Qed.
End heap.

(** In closed form. *)
Definition no_list (o : hop) : bool := match o with HNewList _ _ _ _ => false | _ => true end.
Lemma h_costs_le ops m : forallb no_list ops = true ->
  h_costs ops m <= 2 * N.of_nat (length ops) * N.log2 (m + N.of_nat (length ops)) /\ h_mosts ops m <= m + N.of_nat (length ops).
Proof.
  revert m. induction ops as [|o ops IH]; intros m; cbn [h_costs h_mosts length forallb].
  { intros _. cbn. lia. }
  intros [Ho Hops]%andb_prop. specialize (IH (h_most o m) Hops) as [IH1 IH2]. rewrite Nat2N.inj_succ.
  assert (m <= h_most o m <= m + 1) as [Hm1 Hm2] by (destruct o; cbn [h_most]; (discriminate Ho || lia)).
  split; [|lia].
  set (n := N.of_nat (length ops)) in *.
  assert (N.log2 (h_most o m + n) <= N.log2 (m + N.succ n)) as Hl1 by (apply N.log2_le_mono; lia).
  assert (N.log2 (m + 1) <= N.log2 (m + N.succ n)) as Hl2 by (apply N.log2_le_mono; lia).
  assert (N.log2 (m - 1) <= N.log2 (m + N.succ n)) as Hl3 by (apply N.log2_le_mono; lia).
  assert (h_cost o m <= 2 * N.log2 (m + N.succ n)) as Hc by (destruct o; cbn [h_cost]; (discriminate Ho || lia)).
  assert (2 * n * N.log2 (h_most o m + n) <= 2 * n * N.log2 (m + N.succ n)) by (by apply N.mul_le_mono_l).
  lia.
Qed.

Lemma heap_compares_n A b sz T eqv k ops : forallb no_list ops = true -> N.of_nat (length ops) <= 2 ^ 63 ->
  compares (2 * N.of_nat (length ops) * N.log2 (N.of_nat (length ops)))
    (fun c => csession A b (hstep A b sz T c eqv k) (hrelease A b sz T) k ops).
Proof.
  intros Hl Hn. destruct (h_costs_le ops 0 Hl) as [H1 H2]. rewrite !N.add_0_l in H1 H2.
  eapply compares_le; [exact H1|]. apply heap_compares. lia.
Qed.
