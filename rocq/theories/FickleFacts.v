(** Every comparator gives some answers, and few answers are read. *)
From Coq Require Import ssreflect.
From Verif Require Import Base Mem Allocators Env Vector HeapPure Heap HeapSpec HeapSteps Fickle.

Local Open Scope N_scope.

(** * Every comparator *)

(** [F] is [G] with some answers; [G] returns the others. *)
Definition covers {X} (F : M X) (G : list bool -> M (X * list bool)) : Prop :=
  forall w, exists l, forall a, G (l ++ a) w = bind F (fun x => ret (x, a)) w.
Definition covers0 {X} (F : M X) (G : list bool -> M X) : Prop :=
  forall w, exists l, forall a, G (l ++ a) w = F w.

Lemma bind_ok {X Y} (m : M X) (f : X -> M Y) w x w1 e : m w = Ok x w1 e -> bind m f w = match f x w1 with Ok y w2 e2 => Ok y w2 (e ++ e2) | Err u e2 => Err u (e ++ e2) end.
Proof. intros H. unfold bind. by rewrite H. Qed.
Lemma bind_err {X Y} (m : M X) (f : X -> M Y) w u e : m w = Err u e -> bind m f w = Err u e.
Proof. intros H. unfold bind. by rewrite H. Qed.

Lemma covers_ret {X} (x : X) : covers (ret x) (fun a => ret (x, a)).
Proof. intros w. by exists []. Qed.
Lemma covers_ub {X} u : covers (X := X) (ubm u) (fun _ => ubm u).
Proof. intros w. by exists []. Qed.
Lemma covers_bind {X Y} (F : M X) (F' : X -> M Y) G G' : covers F G -> (forall x, covers (F' x) (G' x)) ->
  covers (bind F F') (fun a => ' (x, a) <- G a ;; G' x a).
Proof.
  intros HF HF' w. destruct (HF w) as [l1 H1]. destruct (F w) as [x w1 e1|u e1] eqn:EF.
  - destruct (HF' x w1) as [l2 H2]. exists (l1 ++ l2). intros a. rewrite -app_assoc.
    assert (G (l1 ++ l2 ++ a) w = Ok (x, l2 ++ a) w1 e1) as HG.
    { rewrite H1. rewrite (bind_ok _ _ _ _ _ _ EF). cbn. by rewrite app_nil_r. }
    rewrite (bind_ok _ _ _ _ _ _ HG). rewrite H2. unfold bind at 2. rewrite (bind_ok _ _ _ _ _ _ EF).
    unfold bind. destruct (F' x w1) as [y w2 e2|]; [|done]. cbn. by rewrite !app_nil_r.
  - exists l1. intros a. assert (G (l1 ++ a) w = Err u e1) as HG.
    { rewrite H1. by rewrite (bind_err _ _ _ _ _ EF). }
    rewrite (bind_err _ _ _ _ _ HG). unfold bind at 1. by rewrite (bind_err _ _ _ _ _ EF).
Qed.
Lemma covers_seq {X Y} (m : M X) (F' : X -> M Y) G' : (forall x, covers (F' x) (G' x)) ->
  covers (bind m F') (fun a => x <- m ;; G' x a).
Proof.
  intros HF' w. destruct (m w) as [x w1 e1|u e1] eqn:EF.
  - destruct (HF' x w1) as [l2 H2]. exists l2. intros a. rewrite (bind_ok _ _ _ _ _ _ EF) H2.
    unfold bind at 2. rewrite (bind_ok _ _ _ _ _ _ EF). unfold bind. destruct (F' x w1) as [y w2 e2|]; [|done]. cbn. by rewrite !app_nil_r.
  - exists []. intros a. rewrite (bind_err _ _ _ _ _ EF). unfold bind at 1. by rewrite (bind_err _ _ _ _ _ EF).
Qed.
Lemma covers_ask {X} (r : bool) (F : M X) G : covers F (G r) -> covers F (fun a => let '(yes, a) := ask a in G yes a).
Proof. intros H w. destruct (H w) as [l Hl]. exists (r :: l). intros a. cbn. apply Hl. Qed.

Lemma covers0_const {X} (m : M X) : covers0 m (fun _ => m).
Proof. intros w. by exists []. Qed.
Lemma covers0_bind {X Y} (F : M X) (F' : X -> M Y) G G' : covers F G -> (forall x, covers0 (F' x) (G' x)) ->
  covers0 (bind F F') (fun a => ' (x, a) <- G a ;; G' x a).
Proof.
  intros HF HF' w. destruct (HF w) as [l1 H1]. destruct (F w) as [x w1 e1|u e1] eqn:EF.
  - destruct (HF' x w1) as [l2 H2]. exists (l1 ++ l2). intros a. rewrite -app_assoc.
    assert (G (l1 ++ l2 ++ a) w = Ok (x, l2 ++ a) w1 e1) as HG.
    { rewrite H1. rewrite (bind_ok _ _ _ _ _ _ EF). cbn. by rewrite app_nil_r. }
    rewrite (bind_ok _ _ _ _ _ _ HG). by rewrite H2 (bind_ok _ _ _ _ _ _ EF).
  - exists l1. intros a. assert (G (l1 ++ a) w = Err u e1) as HG.
    { rewrite H1. by rewrite (bind_err _ _ _ _ _ EF). }
    by rewrite (bind_err _ _ _ _ _ HG) (bind_err _ _ _ _ _ EF).
Qed.
Lemma covers0_seq {X Y} (m : M X) (F' : X -> M Y) G' : (forall x, covers0 (F' x) (G' x)) ->
  covers0 (bind m F') (fun a => x <- m ;; G' x a).
Proof.
  intros HF' w. destruct (m w) as [x w1 e1|u e1] eqn:EF.
  - destruct (HF' x w1) as [l2 H2]. exists l2. intros a. by rewrite !(bind_ok _ _ _ _ _ _ EF) H2.
  - exists []. intros a. by rewrite !(bind_err _ _ _ _ _ EF).
Qed.
Lemma covers0_then {X Y} (F : M X) (f : X -> M Y) G : covers0 F G -> covers0 (bind F f) (fun a => x <- G a ;; f x).
Proof. intros H w. destruct (H w) as [l Hl]. exists l. intros a. unfold bind. by rewrite Hl. Qed.
Lemma covers0_ask {X} (r : bool) (F : M X) G : covers0 F (G r) -> covers0 F (fun a => let '(yes, a) := ask a in G yes a).
Proof. intros H w. destruct (H w) as [l Hl]. exists (r :: l). intros a. cbn. apply Hl. Qed.

Section covers.
  Context (A : alloc) (b sz : N) (T : elt) (comp : nat -> value -> value -> bool) (eqv : value -> value -> bool).

  Lemma up_covers f q p i v : covers (up_loop sz T comp f q p i v) (up_ask sz T f p i v).
  Proof.
    revert i. induction f as [|f IH]; intros i; cbn [up_loop up_ask]; [exact (covers_ub UBLoop)|].
    destruct (i =? 0); [exact (covers_ret i)|].
    apply (covers_seq (e_get sz T (elem_addr sz p (par i))) _ (fun _ a => let '(yes, a) := ask a in if yes then _ else _)). intros y.
    apply (covers_ask (comp q v y) _ (fun yes a => if yes then _ else _)). destruct (comp q v y); [|exact (covers_ret i)].
    apply (covers_seq (e_mov sz T _ _) _ (fun _ => up_ask sz T f p (par i) v)). intros _. apply IH.
  Qed.
  Lemma percolate_up_covers q p i : covers (percolate_up sz T comp q p i) (percolate_up_ask sz T p i).
  Proof.
    apply (covers_seq (e_get sz T _) _ (fun v a => ' (i', a) <- _ a ;; _)). intros v.
    apply (covers_bind (up_loop sz T comp _ q p i v) _ (up_ask sz T _ p i v) (fun i' a => e_set sz T (elem_addr sz p i') v ;;; ret (i', a)));
      [apply up_covers|]. intros i'.
    apply (covers_seq (e_set sz T _ _) _ (fun _ a => ret (i', a))). intros _. apply covers_ret.
  Qed.
  Lemma pick_covers q p n j c : covers (pick sz T comp q p n j c) (pick_ask sz T p n j c).
  Proof.
    unfold pick, pick_ask. destruct (j <? n); [|exact (covers_ret c)].
    apply (covers_seq (e_get sz T _) _ (fun _ a => e_get sz T _ ;;; let '(yes, a) := ask a in ret (if yes then j else c, a))). intros x.
    apply (covers_seq (e_get sz T _) _ (fun _ a => let '(yes, a) := ask a in ret (if yes then j else c, a))). intros y.
    apply (covers_ask (comp q x y) _ (fun yes a => ret (if yes then j else c, a))). apply covers_ret.
  Qed.
  Lemma down_covers f q p n i : covers (down_loop sz T comp f q p n i) (down_ask sz T f p n i).
  Proof.
    revert i. induction f as [|f IH]; intros i; cbn [down_loop down_ask]; [exact (covers_ub UBLoop)|].
    destruct (i <? n); [|exact (covers_ret i)].
    eapply (covers_bind (pick sz T comp q p n (lft i) i) _ (pick_ask sz T p n (lft i) i) (fun c a => _)); [apply pick_covers|]. intros c1.
    eapply (covers_bind (pick sz T comp q p n (rgt i) c1) _ (pick_ask sz T p n (rgt i) c1) (fun c a => _)); [apply pick_covers|]. intros c.
    cbv beta. destruct (c =? i); [exact (covers_ret i)|].
    apply (covers_seq (e_take sz T _) _ (fun t a => _ ;;; _ ;;; down_ask sz T f p n c a)). intros t.
    apply (covers_seq (e_mov sz T _ _) _ (fun _ a => _ ;;; down_ask sz T f p n c a)). intros _.
    apply (covers_seq (e_set sz T _ _) _ (fun _ a => down_ask sz T f p n c a)). intros _. apply IH.
  Qed.
  Lemma percolate_down_covers q p n i : covers0 (percolate_down sz T comp q p n i) (percolate_down_ask sz T p n i).
  Proof.
    apply (covers0_seq (e_get sz T _) _ (fun v a => ' (i', _) <- _ a ;; _)). intros v.
    apply (covers0_bind (down_loop sz T comp _ q p n i) _ (down_ask sz T _ p n i) (fun i' a => e_set sz T (elem_addr sz p i') v)); [apply down_covers|].
    intros i'. apply covers0_const.
  Qed.

  (** With the answers that are left beside the index. *)
  Lemma insert_covers x src E : covers (hinsert A b sz T comp x src E)
    (fun a => ' (i, a, x, E) <- insert_ask A b sz T x src a E ;; ret ((i, x, E), a)).
  Proof.
    intros w. unfold hinsert, insert_ask.
    assert (covers (' (x, E) <- (if h_size x =? h_cap x then hexpand A b sz T x 1 E else ret (x, E)) ;;
      E <- construct A b sz T (h_al x) (elem_addr sz (h_beg x) (h_size x)) src E ;;
      i <- percolate_up sz T comp (h_cmp x) (h_beg x) (h_size x) ;;
      ret (i, Heap (h_al x) (h_cmp x) (h_size x + 1) (h_cap x) (h_beg x), E))
      (fun a => ' (x, E) <- (if h_size x =? h_cap x then hexpand A b sz T x 1 E else ret (x, E)) ;;
      E <- construct A b sz T (h_al x) (elem_addr sz (h_beg x) (h_size x)) src E ;;
      ' (i, a) <- percolate_up_ask sz T (h_beg x) (h_size x) a ;;
      ret ((i, Heap (h_al x) (h_cmp x) (h_size x + 1) (h_cap x) (h_beg x), E), a))) as H.
    { apply (covers_seq _ _ (fun r a => let '(x, E) := r in E <- construct A b sz T (h_al x) (elem_addr sz (h_beg x) (h_size x)) src E ;; _)). intros [x' E'].
      apply (covers_seq (construct A b sz T _ _ _ _) _ (fun E a => ' (i, a) <- percolate_up_ask sz T _ _ a ;; _)). intros E2.
      apply (covers_bind (percolate_up sz T comp _ _ _) _ (percolate_up_ask sz T _ _) (fun i a => ret ((i, Heap (h_al x') (h_cmp x') (h_size x' + 1) (h_cap x') (h_beg x'), E2), a)));
        [apply percolate_up_covers|]. intros i. apply covers_ret. }
    destruct (H w) as [l Hl]. exists l. intros a. rewrite -Hl. clear.
    generalize (if h_size x =? h_cap x then hexpand A b sz T x 1 E else ret (x, E)). intros m0.
    unfold bind. destruct (m0 w) as [[x' E'] w1 e1|]; [|done].
    destruct (construct _ _ _ _ _ _ _ _ w1) as [E2 w2 e2|]; [|done].
    destruct (percolate_up_ask _ _ _ _ _ w2) as [[i a'] w3 e3|]; [|done]. cbn. by rewrite !app_nil_r.
  Qed.

  Lemma insert_list_covers l x E : covers0 (insert_list A b sz T comp x l E) (fun a => insert_list_ask A b sz T x l a E).
  Proof.
    revert x E. induction l as [|v l IH]; intros x E; cbn [insert_list insert_list_ask]; [apply covers0_const|].
    intros w. destruct (covers0_bind _ (fun '(_, x, E) => insert_list A b sz T comp x l E) _ (fun '(_, x, E) a => insert_list_ask A b sz T x l a E)
      (insert_covers x (PVal v) E) ltac:(intros [[i x'] E']; apply IH) w) as [l' Hl'].
    exists l'. intros a. rewrite -(Hl' a). unfold bind. destruct (insert_ask _ _ _ _ _ _ _ _ w) as [[[[i a'] x'] E'] w1 e1|]; [|done].
    cbn. by rewrite app_nil_r.
  Qed.
  Lemma pop_covers x E : covers0 (hpop A b sz T comp x E) (fun a => pop_ask A b sz T x a E).
  Proof.
    unfold hpop, pop_ask.
    apply (covers0_seq (ktl_assert _) _ (fun _ a => _ <- _ ;; _)). intros _.
    apply (covers0_seq (e_get sz T _) _ (fun root a => e_mov sz T _ _ ;;; _)). intros root.
    apply (covers0_seq (e_mov sz T _ _) _ (fun _ a => E <- destroy A b sz T _ _ E ;; _)). intros _.
    apply (covers0_seq (destroy A b sz T _ _ _) _ (fun E a => percolate_down_ask sz T _ _ _ a ;;; ret (root, Heap _ _ _ _ _, E))). intros E'.
    apply (covers0_then (percolate_down sz T comp _ _ _ _) (fun _ => ret _) (percolate_down_ask sz T _ _ _)). apply percolate_down_covers.
  Qed.
  Lemma find_covers src p i n : covers0 (find_loop sz T eqv src p i n) (find_ask sz T src p i n).
  Proof.
    revert i. induction n as [|n IH]; intros i; cbn [find_loop find_ask]; [apply covers0_const|].
    apply (covers0_seq (e_get sz T _) _ (fun _ a => e_src sz T src ;;; let '(yes, a) := ask a in if yes then _ else _)). intros y.
    apply (covers0_seq (e_src sz T src) _ (fun _ a => let '(yes, a) := ask a in if yes then _ else _)). intros v.
    apply (covers0_ask (eqv y v) _ (fun yes a => if yes then _ else _)). destruct (eqv y v); [exact (covers0_const (ret i))|]. apply IH.
  Qed.

  Lemma step_covers k o s : covers0 (hstep A b sz T comp eqv k o s) (fun a => fstep A b sz T k (o, a) s).
  Proof.
    unfold hstep, fstep. cbn [fst snd]. destruct (hlegal _ _ _ _ _); [|apply covers0_const]. destruct s as [E vs].
    destruct o; try exact (covers0_const (hdo A b sz T comp eqv _ (E, vs))); cbn [hdo fdo].
    - apply (covers0_seq (te_alloc A b sz h _ E) _ (fun r a => let '(p, E) := r in ' (x, E) <- insert_list_ask A b sz T _ l a E ;; _)). intros [p E'].
      apply (covers0_then (insert_list A b sz T comp _ l E') (fun '(x, E) => ret (CUnit, (E, <[c := x]> vs))) (fun a => insert_list_ask A b sz T _ l a E')).
      apply insert_list_covers.
    - intros w. destruct (covers0_bind _ (fun '(i, x, E) => ret (CNum i, (E, <[c := x]> vs))) _ (fun '(i, x, E) a => ret (CNum i, (E, <[c := x]> vs)))
        (insert_covers (hget c vs) (hlocate sz r vs) E) ltac:(intros [[i x'] E']; apply covers0_const) w) as [l' Hl'].
      exists l'. intros a. rewrite -(Hl' a). unfold bind. destruct (insert_ask _ _ _ _ _ _ _ _ w) as [[[[i a'] x'] E'] w1 e1|]; [|done].
      cbn. by rewrite !app_nil_r.
    - apply (covers0_then (hpop A b sz T comp _ E) (fun '(v, x, E) => ret (CVal (Some v), (E, <[c := x]> vs))) (fun a => pop_ask A b sz T _ a E)).
      apply pop_covers.
    - apply (covers0_then (find_loop sz T eqv _ _ _ _) (fun i => ret (CNum i, (E, vs))) (find_ask sz T _ _ _ _)). apply find_covers.
  Qed.

  Lemma run_covers k ops s w : exists ass, length ass = length ops /\
    crun A (fstep A b sz T k) (zip ops ass) s w = crun A (hstep A b sz T comp eqv k) ops s w.
  Proof.
    revert s w. induction ops as [|o ops IH]; intros s w; [by exists []|]. cbn [crun].
    destruct (step_covers k o s w) as [l Hl]. specialize (Hl []). rewrite app_nil_r in Hl.
    destruct (hstep A b sz T comp eqv k o s w) as [[ob s'] w1 e1|u e1] eqn:E.
    - destruct (IH s' w1) as (ass & Hlen & Hrun). exists (l :: ass). split; [cbn; lia|]. cbn [zip zip_with crun].
      unfold bind. rewrite Hl E Hrun. done.
    - exists (l :: repeat [] (length ops)). split; [cbn; by rewrite repeat_length|]. cbn [zip zip_with crun]. unfold bind. by rewrite Hl E.
  Qed.

  Lemma session_covers k ops w : exists ass, length ass = length ops /\
    csession A b (fstep A b sz T k) (hrelease A b sz T) k (zip ops ass) w =
    csession A b (hstep A b sz T comp eqv k) (hrelease A b sz T) k ops w.
  Proof.
    unfold csession. destruct (init_all A b 0 k ∅ w) as [E w1 e1|u e1] eqn:HE.
    - destruct (run_covers k ops (E, ∅) w1) as (ass & Hlen & Hrun). exists ass. split; [done|].
      unfold bind. by rewrite HE Hrun.
    - exists (repeat [] (length ops)). split; [by rewrite repeat_length|]. unfold bind. by rewrite HE.
  Qed.
End covers.

(** * Few answers *)

Definition agree (n : N) (a a' : list bool) : Prop :=
  forall j, N.of_nat j < n -> default false (a !! j) = default false (a' !! j).

Lemma agree_le n n' a a' : n' <= n -> agree n a a' -> agree n' a a'.
Proof. intros Hn H j Hj. apply H. lia. Qed.
Lemma agree_ask n a a' : agree (1 + n) a a' -> fst (ask a) = fst (ask a') /\ agree n (snd (ask a)) (snd (ask a')).
Proof.
  intros H. split.
  - specialize (H 0%nat ltac:(lia)). by destruct a, a'.
  - intros j Hj. specialize (H (S j) ltac:(lia)). by destruct a, a'.
Qed.
Lemma agree_take n a : agree n a (take (N.to_nat n) a).
Proof. intros j Hj. rewrite lookup_take //. lia. Qed.

(** [G] reads at most [n] answers; its results have [P]. *)
Definition spends {X} (n : N) (P : X -> Prop) (G : list bool -> M (X * list bool)) : Prop :=
  forall m a a' w, agree (n + m) a a' ->
  match G a w, G a' w with
  | Ok (x, c) w1 e, Ok (x', c') w1' e' => P x /\ x' = x /\ w1' = w1 /\ e' = e /\ agree m c c'
  | Err u e, Err u' e' => u' = u /\ e' = e
  | _, _ => False
  end.
Definition spends0 {X} (n : N) (G : list bool -> M X) : Prop := forall a a' w, agree n a a' -> G a w = G a' w.

Lemma spends_ret {X} n (P : X -> Prop) x : P x -> spends n P (fun a => ret (x, a)).
Proof. intros HP m a a' w Ha. cbn. split_and!; try done. eapply agree_le; [|exact Ha]. lia. Qed.
Lemma spends_ub {X} n (P : X -> Prop) u : spends n P (fun _ => ubm u).
Proof. by intros m a a' w Ha. Qed.
Lemma spends_le {X} n n' (P : X -> Prop) G : n <= n' -> spends n P G -> spends n' P G.
Proof. intros Hn H m a a' w Ha. apply H. eapply agree_le; [|exact Ha]. lia. Qed.
Lemma spends_imp {X} n (P Q : X -> Prop) G : (forall x, P x -> Q x) -> spends n P G -> spends n Q G.
Proof. intros HP H m a a' w Ha. specialize (H m a a' w Ha). destruct (G a w) as [[x c] w1 e|], (G a' w) as [[x' c'] w1' e'|]; try done. naive_solver. Qed.
Lemma spends_bind {X Y} n1 n2 (P : X -> Prop) (Q : Y -> Prop) G G' : spends n1 P G -> (forall x, P x -> spends n2 Q (G' x)) ->
  spends (n1 + n2) Q (fun a => ' (x, a) <- G a ;; G' x a).
Proof.
  intros H1 H2 m a a' w Ha. unfold bind. rewrite -N.add_assoc in Ha. specialize (H1 _ a a' w Ha).
  destruct (G a w) as [[x c] w1 e|u e], (G a' w) as [[x' c'] w1' e'|u' e']; try done.
  - destruct H1 as (HP & -> & -> & -> & Hc). specialize (H2 x HP m c c' w1 Hc).
    destruct (G' x c w1) as [[y d] w2 e2|u e2], (G' x c' w1) as [[y' d'] w2' e2'|u' e2']; try done.
    + by destruct H2 as (HQ & -> & -> & -> & Hd).
    + by destruct H2 as [-> ->].
Qed.
Lemma spends_seq {X Y} n (m : M X) (P : X -> Prop) (Q : Y -> Prop) G : gives m P -> (forall x, P x -> spends n Q (G x)) -> spends n Q (fun a => x <- m ;; G x a).
Proof.
  intros Hm H k a a' w Ha. unfold bind. specialize (Hm w). destruct (m w) as [x w1 e|]; [|done]. specialize (H x Hm k a a' w1 Ha).
  destruct (G x a w1) as [[y d] w2 e2|u e2], (G x a' w1) as [[y' d'] w2' e2'|u' e2']; try done.
  - by destruct H as (HQ & -> & -> & -> & Hd).
  - by destruct H as [-> ->].
Qed.
Lemma spends_seq' {X Y} n (m : M X) (Q : Y -> Prop) G : (forall x, spends n Q (G x)) -> spends n Q (fun a => x <- m ;; G x a).
Proof. intros H. apply (spends_seq n m (fun _ => True)); [apply gives_any|auto]. Qed.
Lemma spends_ask {X} n (P : X -> Prop) G : (forall yes, spends n P (G yes)) -> spends (1 + n) P (fun a => let '(yes, a) := ask a in G yes a).
Proof.
  intros H m a a' w Ha. rewrite -N.add_assoc in Ha. apply agree_ask in Ha as [H1 H2].
  destruct (ask a) as [y c], (ask a') as [y' c']. cbn [fst snd] in *. subst y'. by apply H.
Qed.

Lemma spends0_const {X} n (m : M X) : spends0 n (fun _ => m).
Proof. by intros a a' w Ha. Qed.
Lemma spends0_le {X} n n' (G : list bool -> M X) : n <= n' -> spends0 n G -> spends0 n' G.
Proof. intros Hn H a a' w Ha. apply H. by eapply agree_le. Qed.
Lemma spends0_bind {X Y} n1 n2 (P : X -> Prop) G (G' : X -> list bool -> M Y) : spends n1 P G -> (forall x, P x -> spends0 n2 (G' x)) ->
  spends0 (n1 + n2) (fun a => ' (x, a) <- G a ;; G' x a).
Proof.
  intros H1 H2 a a' w Ha. unfold bind. specialize (H1 n2 a a' w Ha).
  destruct (G a w) as [[x c] w1 e|u e], (G a' w) as [[x' c'] w1' e'|u' e']; try done.
  - destruct H1 as (HP & -> & -> & -> & Hc). by rewrite (H2 x HP c c' w1 Hc).
  - by destruct H1 as [-> ->].
Qed.
Lemma spends0_seq {X Y} n (m : M X) (G : X -> list bool -> M Y) : (forall x, spends0 n (G x)) -> spends0 n (fun a => x <- m ;; G x a).
Proof. intros H a a' w Ha. unfold bind. destruct (m w) as [x w1 e|]; [|done]. by rewrite (H x a a' w1 Ha). Qed.
Lemma spends0_then {X Y} n (G : list bool -> M X) (f : X -> M Y) : spends0 n G -> spends0 n (fun a => x <- G a ;; f x).
Proof. intros H a a' w Ha. unfold bind. by rewrite (H a a' w Ha). Qed.
Lemma spends0_ask {X} n (G : bool -> list bool -> M X) : (forall yes, spends0 n (G yes)) -> spends0 (1 + n) (fun a => let '(yes, a) := ask a in G yes a).
Proof.
  intros H a a' w Ha. apply agree_ask in Ha as [H1 H2].
  destruct (ask a) as [y c], (ask a') as [y' c']. cbn [fst snd] in *. subst y'. by apply H.
Qed.

Section spends.
  Context (A : alloc) (b sz : N) (T : elt).
  Local Notation any := (fun _ => True).

  Lemma up_spends f p i v : spends (N.log2 (i + 1)) any (up_ask sz T f p i v).
  Proof.
    revert i. induction f as [|f IH]; intros i; cbn [up_ask]; [exact (spends_ub _ _ UBLoop)|].
    destruct (i =? 0) eqn:Ei; [by apply (spends_ret _ _ i)|]. rewrite (log2_par i ltac:(lia)) -N.add_1_l.
    apply (spends_seq' _ (e_get sz T (elem_addr sz p (par i))) _ (fun _ a => let '(yes, a) := ask a in if yes then _ else _)). intros y.
    apply (spends_ask _ _ (fun yes a => if yes then _ else _)). intros []; [|by apply (spends_ret _ _ i)].
    apply (spends_seq' _ (e_mov sz T _ _) _ (fun _ => up_ask sz T f p (par i) v)). intros _. apply IH.
  Qed.
  Lemma percolate_up_spends p i : spends (N.log2 (i + 1)) any (percolate_up_ask sz T p i).
  Proof.
    apply (spends_seq' _ (e_get sz T _) _ (fun v a => ' (i', a) <- _ a ;; _)). intros v. rewrite -(N.add_0_r (N.log2 _)).
    apply (spends_bind _ 0 any _ (up_ask sz T _ p i v) (fun i' a => e_set sz T (elem_addr sz p i') v ;;; ret (i', a))); [apply up_spends|].
    intros i' _. apply (spends_seq' _ (e_set sz T _ _) _ (fun _ a => ret (i', a))). intros _. by apply spends_ret.
  Qed.
  Lemma pick_spends p n j c : spends (if j <? n then 1 else 0) (fun r => r = c \/ r = j /\ j < n) (pick_ask sz T p n j c).
  Proof.
    unfold pick_ask. destruct (j <? n) eqn:E; [|by apply spends_ret; left].
    apply (spends_seq' _ (e_get sz T _) _ (fun _ a => e_get sz T _ ;;; let '(yes, a) := ask a in ret (if yes then j else c, a))). intros x.
    apply (spends_seq' _ (e_get sz T _) _ (fun _ a => let '(yes, a) := ask a in ret (if yes then j else c, a))). intros y.
    apply (spends_ask 0 _ (fun yes a => ret (if yes then j else c, a))). intros []; apply spends_ret; [right; split; [done|lia]|by left].
  Qed.
  Lemma down_spends f p n i k : n < 2 ^ 63 -> n < (i + 1) * 2 ^ (N.of_nat k + 1) ->
    spends (2 * N.of_nat k) any (down_ask sz T f p n i).
  Proof.
    intros Hn. revert i k. induction f as [|f IH]; intros i k Hk; cbn [down_ask]; [exact (spends_ub _ _ UBLoop)|].
    destruct (i <? n) eqn:Ei; [|by apply (spends_ret _ _ i)].
    assert (lft i = 2 * i + 1 /\ rgt i = 2 * i + 2) as [El Er] by (unfold lft, rgt, w64, W; lia). rewrite El Er.
    destruct k as [|k].
    - assert (n < 2 * (i + 1)) as Hno by (cbn in Hk; lia). unfold pick_ask.
      assert (2 * i + 1 <? n = false) as -> by lia. assert (2 * i + 2 <? n = false) as -> by lia.
      intros m a a' w Ha. cbn. rewrite N.eqb_refl. cbn. by split_and!.
    - rewrite Nat2N.inj_succ. replace (2 * N.succ (N.of_nat k)) with (1 + (1 + 2 * N.of_nat k)) by lia.
      eapply (spends_bind 1 _ _ _ (pick_ask sz T p n (2 * i + 1) i) (fun c a => _)).
      { eapply spends_le; [|apply pick_spends]. by case_match. }
      intros c1 Hc1. cbv beta in Hc1.
      eapply (spends_bind 1 _ _ _ (pick_ask sz T p n (2 * i + 2) c1) (fun c a => _)).
      { eapply spends_le; [|apply pick_spends]. by case_match. }
      intros c Hc. cbv beta in Hc |- *. destruct (c =? i) eqn:E; [by apply (spends_ret _ _ i)|].
      apply (spends_seq' _ (e_take sz T _) _ (fun t a => _ ;;; _ ;;; down_ask sz T f p n c a)). intros t.
      apply (spends_seq' _ (e_mov sz T _ _) _ (fun _ a => _ ;;; down_ask sz T f p n c a)). intros _.
      apply (spends_seq' _ (e_set sz T _ _) _ (fun _ a => down_ask sz T f p n c a)). intros _. apply IH.
      assert (2 * (i + 1) <= c + 1) by lia.
      rewrite Nat2N.inj_succ -N.add_1_r N.pow_add_r in Hk. change (2 ^ 1) with 2 in Hk.
      eapply N.lt_le_trans; [exact Hk|]. rewrite (N.mul_comm (2 ^ (N.of_nat k + 1)) 2) N.mul_assoc.
      apply N.mul_le_mono_r. lia.
  Qed.

  Lemma insert_spends x src E m : h_size x <= m ->
    spends (N.log2 (m + 1)) (fun '(_, x', _) => h_size x' <= m + 1)
      (fun a => ' (i, a, x, E) <- insert_ask A b sz T x src a E ;; ret ((i, x, E), a)).
  Proof.
    intros Hm.
    assert (spends (N.log2 (m + 1)) (fun '(_, x', _) => h_size x' <= m + 1)
      (fun a => ' (x, E) <- (if h_size x =? h_cap x then hexpand A b sz T x 1 E else ret (x, E)) ;;
      E <- construct A b sz T (h_al x) (elem_addr sz (h_beg x) (h_size x)) src E ;;
      ' (i, a) <- percolate_up_ask sz T (h_beg x) (h_size x) a ;;
      ret ((i, Heap (h_al x) (h_cmp x) (h_size x + 1) (h_cap x) (h_beg x), E), a))) as H.
    { eapply (spends_seq _ _ (fun '(x', _) => h_size x' <= m) _ (fun r a => let '(x, E) := r in E <- construct A b sz T (h_al x) (elem_addr sz (h_beg x) (h_size x)) src E ;; _)).
      - destruct (h_size x =? h_cap x); [|by apply gives_ret].
        unfold hexpand, hset_size. apply gives_bind'. intros _. apply gives_bind'. intros [p E1].
        apply gives_bind'. intros E2. apply gives_ret. cbn. lia.
      - intros [x' E'] Hx'.
        apply (spends_seq' _ (construct A b sz T _ _ _ _) _ (fun E a => ' (i, a) <- percolate_up_ask sz T _ _ a ;; _)). intros E2.
        rewrite -(N.add_0_r (N.log2 _)).
        eapply (spends_bind _ 0 any _ (percolate_up_ask sz T _ _) (fun i a => ret ((i, Heap (h_al x') (h_cmp x') (h_size x' + 1) (h_cap x') (h_beg x'), E2), a))).
        + eapply spends_le; [|apply percolate_up_spends]. apply N.log2_le_mono. lia.
        + intros i _. apply spends_ret. cbn. lia. }
    assert (forall a w, (' (i, a, x, E) <- insert_ask A b sz T x src a E ;; ret ((i, x, E), a)) w =
      (' (x, E) <- (if h_size x =? h_cap x then hexpand A b sz T x 1 E else ret (x, E)) ;;
      E <- construct A b sz T (h_al x) (elem_addr sz (h_beg x) (h_size x)) src E ;;
      ' (i, a) <- percolate_up_ask sz T (h_beg x) (h_size x) a ;;
      ret ((i, Heap (h_al x) (h_cmp x) (h_size x + 1) (h_cap x) (h_beg x), E), a)) w) as Heq.
    { clear. intros a w. unfold insert_ask. generalize (if h_size x =? h_cap x then hexpand A b sz T x 1 E else ret (x, E)). intros m0.
      unfold bind. destruct (m0 w) as [[x' E'] w1 e1|]; [|done].
      destruct (construct _ _ _ _ _ _ _ _ w1) as [E2 w2 e2|]; [|done].
      destruct (percolate_up_ask _ _ _ _ _ w2) as [[i a'] w3 e3|]; [|done]. cbn. by rewrite !app_nil_r. }
    intros k a a' w Ha. rewrite !Heq. by apply H.
  Qed.

  Lemma insert_list_spends l x E m : h_size x <= m -> spends0 (logs m (length l)) (fun a => insert_list_ask A b sz T x l a E).
  Proof.
    revert x E m. induction l as [|v l IH]; intros x E m Hm; cbn [insert_list_ask length logs]; [apply spends0_const|].
    intros a a' w Ha.
    pose proof (spends0_bind _ _ _ _ (fun '(_, x, E) a => insert_list_ask A b sz T x l a E)
      (insert_spends x (PVal v) E m Hm) ltac:(intros [[i x'] E'] Hx'; by apply IH) a a' w Ha) as H.
    revert H. unfold bind.
    destruct (insert_ask _ _ _ _ _ _ a _ w) as [[[[i c] x'] E'] w1 e1|], (insert_ask _ _ _ _ _ _ a' _ w) as [[[[i' c'] x''] E''] w1' e1'|];
      cbn; rewrite ?app_nil_r; done.
  Qed.
  Lemma pop_spends x E m : h_size x <= m -> m <= 2 ^ 63 -> spends0 (2 * N.log2 (m - 1)) (fun a => pop_ask A b sz T x a E).
  Proof.
    intros Hm Hb. unfold pop_ask.
    apply (spends0_seq _ (ktl_assert _) (fun _ a => _ <- _ ;; _)). intros _.
    apply (spends0_seq _ (e_get sz T _) (fun root a => e_mov sz T _ _ ;;; _)). intros root.
    apply (spends0_seq _ (e_mov sz T _ _) (fun _ a => E <- destroy A b sz T _ _ E ;; _)). intros _.
    apply (spends0_seq _ (destroy A b sz T _ _ _) (fun E a => percolate_down_ask sz T _ _ _ a ;;; ret (root, Heap _ _ _ _ _, E))). intros E'.
    apply (spends0_then _ (percolate_down_ask sz T _ _ _) (fun _ => ret _)).
    apply (spends0_seq _ (e_get sz T _) (fun v a => ' (i', _) <- _ a ;; _)). intros v. rewrite -(N.add_0_r (2 * _)).
    apply (spends0_bind _ 0 any (down_ask sz T _ _ _ _) (fun i' a => e_set sz T _ v)); [|intros; apply spends0_const].
    eapply (spends_le (2 * N.of_nat (N.to_nat (N.log2 (h_size x - 1))))).
    { rewrite N2Nat.id. apply N.mul_le_mono_l, N.log2_le_mono. lia. }
    apply down_spends; [lia|]. apply logs_lt.
  Qed.
  Lemma find_spends src p i n : spends0 (N.of_nat n) (find_ask sz T src p i n).
  Proof.
    revert i. induction n as [|n IH]; intros i; cbn [find_ask]; [apply spends0_const|].
    rewrite Nat2N.inj_succ -N.add_1_l.
    apply (spends0_seq _ (e_get sz T _) (fun _ a => e_src sz T src ;;; let '(yes, a) := ask a in if yes then _ else _)). intros y.
    apply (spends0_seq _ (e_src sz T src) (fun _ a => let '(yes, a) := ask a in if yes then _ else _)). intros v.
    apply (spends0_ask _ (fun yes a => if yes then _ else _)). intros []; [exact (spends0_const _ (ret i))|]. apply IH.
  Qed.

  Lemma step_spends k o s m : small m (snd s) -> m <= 2 ^ 63 -> spends0 (f_cost o m) (fun a => fstep A b sz T k (o, a) s).
  Proof.
    intros Hs Hm. unfold fstep. cbn [fst snd]. destruct (hlegal _ _ _ _ _); [|apply spends0_const]. destruct s as [E vs]. cbn [snd] in Hs.
    destruct o; try exact (spends0_const _ (hdo A b sz T unsure unequal _ (E, vs))); cbn [fdo f_cost h_cost].
    - apply (spends0_seq _ (te_alloc A b sz h _ E) (fun r a => let '(p, E) := r in ' (x, E) <- insert_list_ask A b sz T _ l a E ;; _)). intros [p E'].
      apply (spends0_then _ (fun a => insert_list_ask A b sz T _ l a E') (fun '(x, E) => ret (CUnit, (E, <[c := x]> vs)))).
      apply insert_list_spends. cbn. lia.
    - intros a a' w Ha. rewrite -(N.add_0_r (N.log2 _)) in Ha.
      pose proof (spends0_bind _ 0 _ _ (fun '(i, x, E) a => ret (CNum i, (E, <[c := x]> vs)))
        (insert_spends (hget c vs) (hlocate sz r vs) E m (small_get _ _ _ Hs)) ltac:(intros [[i x'] E'] Hx'; apply spends0_const) a a' w Ha) as H.
      revert H. unfold bind.
      destruct (insert_ask _ _ _ _ _ _ a _ w) as [[[[i ?] x'] E'] w1 e1|], (insert_ask _ _ _ _ _ _ a' _ w) as [[[[i' ?] x''] E''] w1' e1'|];
        cbn; rewrite ?app_nil_r; done.
    - apply (spends0_then _ (fun a => pop_ask A b sz T _ a E) (fun '(v, x, E) => ret (CVal (Some v), (E, <[c := x]> vs)))).
      apply pop_spends; [by apply small_get|done].
    - apply (spends0_then _ (find_ask sz T _ _ _ _) (fun i => ret (CNum i, (E, vs)))).
      eapply spends0_le; [|apply find_spends]. rewrite N2Nat.id. by apply small_get.
  Qed.

  Lemma step_reads k o a s m : small m (snd s) -> m <= 2 ^ 63 -> forall w,
    fstep A b sz T k (o, a) s w = fstep A b sz T k (o, take (N.to_nat (f_cost o m)) a) s w.
  Proof. intros Hs Hm w. apply (step_spends k o s m Hs Hm). apply agree_take. Qed.
End spends.
