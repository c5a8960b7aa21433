(** Programs that keep pointers to elements. *)
From iris.proofmode Require Import tactics.
From Verif Require Import Base Mem AlignedMalloc Allocators Checked CheckedProofs Tree Client Contract Service TreeProofs AllocSpec AllocProofs
  Env EnvProofs Vector TreeService RepProofs VectorProofs Array ArrayProofs ContFacts Ptr PtrProofs.

Local Open Scope N_scope.

Lemma vptr_tree pl e b sz k ops w :
  pl <> PPosix -> wf e = true -> 0 < sz -> place b (N.of_nat k * esize e) w ->
  csession_ok (den pl e) b (pstep (den pl e) sz (v_info sz) (vstep (den pl e) b sz k)) (release (den pl e) b sz) (pcheck sz (vcheck sz k))
    (unsupported (ereq pl e)) k ∅ ops w.
Proof.
  intros Hpl Hwf Hsz Hp. destruct (tree_service pl e (ereq pl e) Hpl Hwf) as [C]; [done|].
  apply (vptr_session C b sz k Hsz). by rewrite den_size.
Qed.

Lemma aptr_tree pl e b sz k ops w :
  pl <> PPosix -> wf e = true -> 0 < sz -> place b (N.of_nat k * esize e) w ->
  csession_ok (den pl e) b (pstep (den pl e) sz (a_info sz) (astep (den pl e) b sz k)) (arelease (den pl e) b sz) (pcheck sz (acheck sz k))
    (unsupported (ereq pl e)) k ∅ ops w.
Proof.
  intros Hpl Hwf Hsz Hp. destruct (tree_service pl e (ereq pl e) Hpl Hwf) as [C]; [done|].
  apply (aptr_session C b sz k Hsz). by rewrite den_size.
Qed.

(** * What pointers do to the lists *)

(** The calls of a program. *)
Definition calls {O} (ops : list (pop O)) : list O := flat_map (fun o => match o with PLib o => [o] | _ => [] end) ops.

(** The same containers at the same place. *)
Definition same_place (m m' : gmap nat svec) : Prop :=
  forall c, s_al (s_get c m') = s_al (s_get c m) /\ s_cap (s_get c m') = s_cap (s_get c m) /\ s_data (s_get c m') = s_data (s_get c m) /\
    s_len (s_get c m') = s_len (s_get c m) /\ (is_Some (m !! c) <-> is_Some (m' !! c)).

Lemma same_place_refl m : same_place m m.
Proof. intros c. by split_and!. Qed.

Lemma with_elem_place m c i v : is_Some (m !! c) -> same_place m (with_elem m c i v).
Proof.
  intros Hc d. unfold with_elem. rewrite s_get_insert. destruct (Nat.eqb_spec c d) as [->|Hne].
  - cbn [s_al s_cap s_data]. rewrite lookup_insert. split_and!; try done. unfold s_len. cbn [s_l]. by rewrite insert_length.
  - by rewrite lookup_insert_ne.
Qed.

Section facts.
  Context (sz : N) {O : Type} (chk : O -> cobs -> gmap nat svec -> gmap nat svec -> Prop).
  Notation pcheck := (pcheck sz chk).

  Lemma ptr_place o ob m m' : pcheck o ob m m' -> match o with PLib o => chk o ob m m' | _ => same_place m m' end.
  Proof.
    destruct o as [o|a|a src]; cbn [Ptr.pcheck]; [done|..].
    - intros [(c&i&r&_&->&_)|(_&_&->)]; apply same_place_refl.
    - intros [(c&i&v&[(x&Hx&_) _]&_&_&->)|(_&_&->)]; [|apply same_place_refl]. apply with_elem_place. by rewrite Hx.
  Qed.

  Lemma at_place m c i x : m !! c = Some x -> i < s_len x -> pointee sz m (s_data x + sz * i) c (N.to_nat i).
  Proof. intros Hx Hi. exists x. unfold s_len in Hi. split_and!; [done|lia|]. by rewrite N2Nat.id. Qed.

  Lemma only_pointee m a c i c' i' : only sz m a c i -> pointee sz m a c' i' -> c' = c /\ i' = i.
  Proof. intros [_ H]. apply H. Qed.

  (** Writing through a pointer writes the element. *)
  Lemma store_at m m' ob c i x v : m !! c = Some x -> i < s_len x -> pcheck (PStore (s_data x + sz * i) (PVal v)) ob m m' ->
    ob = CUnit /\ m' = <[c := SVec (s_al x) (<[N.to_nat i := Some v]> (s_l x)) (s_cap x) (s_data x)]> m.
  Proof.
    intros Hx Hi. pose proof (at_place _ _ _ _ Hx Hi) as Hp. cbn [Ptr.pcheck denotes].
    intros [(c'&i'&u&Ho&->&->&->)|([Hn|[]]&_)]; [|by destruct (Hn _ _ Hp)].
    destruct (only_pointee _ _ _ _ _ _ Ho Hp) as [-> ->]. split; [done|]. unfold with_elem, s_get. by rewrite Hx.
  Qed.
  (** Reading through a pointer reads the element. *)
  Lemma load_at m m' ob c i x v : m !! c = Some x -> i < s_len x -> s_l x !! N.to_nat i = Some (Some v) ->
    pcheck (PLoad (s_data x + sz * i)) ob m m' -> ob = CVal (Some v) /\ m' = m.
  Proof.
    intros Hx Hi Hv. pose proof (at_place _ _ _ _ Hx Hi) as Hp. cbn [Ptr.pcheck].
    intros [(c'&i'&r&Ho&->&->&Hr)|(Hn&_)]; [|by destruct (Hn _ _ Hp)].
    destruct (only_pointee _ _ _ _ _ _ Ho Hp) as [E1 E2]. subst c' i'. split; [|done]. rewrite (Hr v) //.
    unfold elem, s_get. by rewrite Hx /= Hv.
  Qed.
End facts.

Lemma has_lookup (m : gmap nat svec) c : has (s_info <$> m) c = true <-> is_Some (m !! c).
Proof. unfold has. rewrite bool_decide_eq_true lookup_fmap. by destruct (m !! c); cbn; split; intros [? ?]. Qed.
Lemma look_lookup (m : gmap nat svec) c x : m !! c = Some x -> i_size (look (s_info <$> m) c) = s_len x.
Proof. intros Hx. unfold look. by rewrite lookup_fmap Hx. Qed.
Lemma s_get_lookup (m : gmap nat svec) c x : m !! c = Some x -> s_get c m = x.
Proof. intros Hx. unfold s_get. by rewrite Hx. Qed.

Section vec.
  Context (sz : N) (k : nat).
  Notation check := (vcheck sz k).
  Notation pcheck := (pcheck sz check).
  Notation trace := (ctrace pcheck).

  Lemma p_all_ok o ob m m' : all_ok m -> pcheck o ob m m' -> all_ok m'.
  Proof.
    intros Hm Hc. apply ptr_place in Hc. destruct o as [o|a|a src]; [by eapply all_ok_step| |]; intros c;
      destruct (Hc c) as (H1&H2&H3&H4&_); unfold s_ok; destruct (Hm c) as (H5&H6&H7); rewrite H2 H3 H4; split_and!; try done.
  Qed.

  Lemma p_stable_steps c mid os m m' n : all_ok m -> trace mid os m m' ->
    s_len (s_get c m) <= n -> v_fits c (s_cap (s_get c m)) (calls mid) n = true ->
    s_cap (s_get c m') = s_cap (s_get c m) /\ s_data (s_get c m') = s_data (s_get c m).
  Proof.
    revert os m n. induction mid as [|o mid IH]; intros [|ob os] m n Hok; try done; cbn [ctrace]; [by intros ->|].
    intros (m1&H1&H2) Hn HF. pose proof (p_all_ok _ _ _ _ Hok H1) as Hok1. pose proof (ptr_place _ _ _ _ _ _ H1) as Hp.
    destruct o as [o|a|a src]; cbn [calls flat_map app v_fits] in HF.
    { apply andb_true_iff in HF as [HF HF3]. apply andb_true_iff in HF as [HF1 HF2]. apply N.leb_le in HF2.
      destruct (stable_step _ _ c o ob m m1 n Hok Hp HF1 Hn HF2) as (H3&H4&H5&_).
      destruct (IH os m1 _ Hok1 H2 H5) as [H6 H7]; [by rewrite H3|]. by rewrite H6 H7. }
    all: destruct (Hp c) as (_&H3&H4&H5&_); destruct (IH os m1 n Hok1 H2) as [H6 H7]; [by rewrite H5|by rewrite H3|]; by rewrite H6 H7.
  Qed.

  Lemma obs_has o c m m' ob : vlegal sz k (s_info <$> m) o = has (s_info <$> m) c -> check o ob m m' -> ob <> CUnit -> is_Some (m !! c).
  Proof. unfold vcheck. intros -> H Hob. apply has_lookup. destruct (has _ _); [done|]. by destruct H. Qed.

  Lemma get_obs m m' ob c i x v : m !! c = Some x -> s_l x !! N.to_nat i = Some (Some v) -> check (VGet c i) ob m m' -> ob = CVal (Some v).
  Proof.
    intros Hx Hv. unfold vcheck. cbn [vlegal]. rewrite (look_lookup _ _ _ Hx). assert (has (s_info <$> m) c = true) as -> by (apply has_lookup; by rewrite Hx).
    assert (i <? s_len x = true) as ->. { apply N.ltb_lt. apply lookup_lt_Some in Hv. unfold s_len. lia. }
    cbn [andb vcheck_do]. rewrite (s_get_lookup _ _ _ Hx) Hv. cbn. intros (_&r&->&Hr). by rewrite (Hr v).
  Qed.

  (** A pointer taken before stays good as long as the vector neither moves nor grows past its capacity. *)
  Lemma write_through pre c mid i v os K n p os2 n2 ob1 ob2 :
    ccheck pcheck (pre ++ [PLib (VCap c); PLib (VSize c); PLib (VData c)] ++ mid ++ [PLib (VSize c); PStore (p + sz * i) (PVal v); PLib (VGet c i)])
      (os ++ [CNum K; CNum n; CPtr p] ++ os2 ++ [CNum n2; ob1; ob2]) ∅ ->
    length os = length pre -> length os2 = length mid -> v_fits c K (calls mid) n = true -> i < n2 ->
    ob2 = CVal (Some v).
  Proof.
    intros H Hl Hl2 HF Hi. apply ccheck_trace in H as [m H]. apply ctrace_app in H as (os1&os3&m1&He&Hl1&H1&H2).
    apply app_inj_1 in He as [-> <-]; [|lia]. destruct H2 as (m2&H3&m3&H4&m4&H5&H6).
    apply (obs_cap _ _ _ _ _ _ K) in H3 as [-> ->]; [|done]. apply (obs_size _ _ _ _ _ _ n) in H4 as [-> ->]; [|done].
    apply (obs_data _ _ _ _ _ _ p) in H5 as [-> ->]; [|done].
    pose proof (ctrace_inv _ all_ok _ _ _ _ p_all_ok H1 all_ok_empty) as Hok.
    apply (ctrace_app _ mid) in H6 as (os4&os5&m5&He&Hl4&H6&H7). cbn [app] in He. apply app_inj_1 in He as [-> <-]; [|lia].
    destruct (p_stable_steps c mid os4 m1 m5 (s_len (s_get c m1)) Hok H6) as [H8 H9]; [done|done|].
    destruct H7 as (m6&H10&m7&H11&m8&H12&_). cbn [Ptr.pcheck] in H10, H12.
    destruct (obs_has (VSize c) c _ _ _ eq_refl H10) as [x Hx]; [done|].
    apply (obs_size _ _ _ _ _ _ n2) in H10 as [-> ->]; [|done]. rewrite -H9 in H11. rewrite (s_get_lookup _ _ _ Hx) in Hi, H11.
    destruct (store_at _ _ _ _ _ _ _ _ _ Hx Hi H11) as [_ ->].
    refine (get_obs _ _ _ _ _ _ _ (lookup_insert _ _ _) _ H12). cbn [s_l]. apply list_lookup_insert. unfold s_len in Hi. lia.
  Qed.

  Lemma read_through pre c mid i v os K n p os2 n2 ob1 ob2 :
    ccheck pcheck (pre ++ [PLib (VCap c); PLib (VSize c); PLib (VData c)] ++ mid ++ [PLib (VSize c); PLib (VSet c i (RVal v)); PLoad (p + sz * i)])
      (os ++ [CNum K; CNum n; CPtr p] ++ os2 ++ [CNum n2; ob1; ob2]) ∅ ->
    length os = length pre -> length os2 = length mid -> v_fits c K (calls mid) n = true -> i < n2 ->
    ob2 = CVal (Some v).
  Proof.
    intros H Hl Hl2 HF Hi. apply ccheck_trace in H as [m H]. apply ctrace_app in H as (os1&os3&m1&He&Hl1&H1&H2).
    apply app_inj_1 in He as [-> <-]; [|lia]. destruct H2 as (m2&H3&m3&H4&m4&H5&H6).
    apply (obs_cap _ _ _ _ _ _ K) in H3 as [-> ->]; [|done]. apply (obs_size _ _ _ _ _ _ n) in H4 as [-> ->]; [|done].
    apply (obs_data _ _ _ _ _ _ p) in H5 as [-> ->]; [|done].
    pose proof (ctrace_inv _ all_ok _ _ _ _ p_all_ok H1 all_ok_empty) as Hok.
    apply (ctrace_app _ mid) in H6 as (os4&os5&m5&He&Hl4&H6&H7). cbn [app] in He. apply app_inj_1 in He as [-> <-]; [|lia].
    destruct (p_stable_steps c mid os4 m1 m5 (s_len (s_get c m1)) Hok H6) as [H8 H9]; [done|done|].
    destruct H7 as (m6&H10&m7&H11&m8&H12&_). cbn [Ptr.pcheck] in H10, H11.
    destruct (obs_has (VSize c) c _ _ _ eq_refl H10) as [x Hx]; [done|].
    apply (obs_size _ _ _ _ _ _ n2) in H10 as [-> ->]; [|done]. rewrite -H9 in H12. rewrite (s_get_lookup _ _ _ Hx) in Hi, H12.
    unfold vcheck in H11. cbn [vlegal ok_ref] in H11. rewrite (look_lookup _ _ _ Hx) in H11.
    assert (has (s_info <$> m5) c = true) as Hh by (apply has_lookup; by rewrite Hx). rewrite Hh in H11.
    apply N.ltb_lt in Hi as Hi'. rewrite Hi' in H11. cbn [andb vcheck_do val_of] in H11. rewrite (s_get_lookup _ _ _ Hx) in H11. destruct H11 as [_ ->].
    set (y := SVec _ _ _ _) in H12. assert (Hy : <[c := y]> m5 !! c = Some y) by by rewrite lookup_insert.
    change (s_data x) with (s_data y) in H12.
    apply (load_at sz check _ _ _ c i y v Hy) in H12; [by destruct H12|..].
    - unfold s_len, y. cbn [s_l]. by rewrite insert_length.
    - unfold y. cbn [s_l]. apply list_lookup_insert. unfold s_len in Hi. lia.
  Qed.

  (** A pointer follows its element into the vector that it is moved to. *)
  Lemma follow_move pre c d i v os n p ob1 ob2 ob3 n2 : c <> d ->
    ccheck pcheck (pre ++ [PLib (VSize c); PLib (VData c); PLib (VSize d); PLib (VMoveAssign d c); PStore (p + sz * i) (PVal v); PLib (VGet d i)])
      (os ++ [CNum n; CPtr p; CNum n2; ob1; ob2; ob3]) ∅ ->
    length os = length pre -> i < n -> ob3 = CVal (Some v).
  Proof.
    intros Hcd H Hl Hi. apply ccheck_trace in H as [m H]. apply ctrace_app in H as (os1&os3&m1&He&Hl1&H1&H2).
    apply app_inj_1 in He as [-> <-]; [|lia]. destruct H2 as (m2&H3&m3&H4&m4&H5&m5&H6&m6&H7&m7&H8&_). cbn [Ptr.pcheck] in H3, H4, H5, H6, H8.
    destruct (obs_has (VSize c) c _ _ _ eq_refl H3) as [x Hx]; [done|].
    apply (obs_size _ _ _ _ _ _ n) in H3 as [-> ->]; [|done]. apply (obs_data _ _ _ _ _ _ p) in H4 as [-> ->]; [|done].
    destruct (obs_has (VSize d) d _ _ _ eq_refl H5) as [y Hy]; [done|]. apply (obs_size _ _ _ _ _ _ n2) in H5 as [-> ->]; [|done].
    rewrite (s_get_lookup _ _ _ Hx) in Hi, H7. unfold vcheck in H6. cbn [vlegal] in H6.
    assert (has (s_info <$> m1) c = true) as Hh by (apply has_lookup; by rewrite Hx). rewrite Hh in H6.
    assert (has (s_info <$> m1) d = true) as Hh' by (apply has_lookup; by rewrite Hy). rewrite Hh' in H6.
    assert (bool_decide (d = c) = false) as Hb by (by apply bool_decide_eq_false). rewrite ?Hb in H6.
    assert (negb (d =? c)%nat = true) as Hb' by (apply negb_true_iff; by apply Nat.eqb_neq). rewrite ?Hb' in H6.
    cbn [andb negb vcheck_do] in H6. rewrite (s_get_lookup _ _ _ Hx) in H6. destruct H6 as [_ ->].
    assert (Hz : (<[c := emptied x]> (<[d := x]> m1)) !! d = Some x) by (rewrite lookup_insert_ne // lookup_insert //).
    destruct (store_at _ _ _ _ _ _ _ _ _ Hz Hi H7) as [_ ->].
    refine (get_obs _ _ _ _ _ _ _ (lookup_insert _ _ _) _ H8). cbn [s_l]. apply list_lookup_insert. unfold s_len in Hi. lia.
  Qed.
End vec.

Section programs.
  Context (pl : platform) (e : aexp) (b sz : N) (k : nat).
  Notation program := (csession (den pl e) b (pstep (den pl e) sz (v_info sz) (vstep (den pl e) b sz k)) (release (den pl e) b sz) k).

  Lemma vector_write_through pre c mid i v w os K n p os2 n2 ob1 ob2 w' evs :
    pl <> PPosix -> wf e = true -> 0 < sz -> place b (N.of_nat k * esize e) w ->
    program (pre ++ [PLib (VCap c); PLib (VSize c); PLib (VData c)] ++ mid ++ [PLib (VSize c); PStore (p + sz * i) (PVal v); PLib (VGet c i)]) w =
      Ok (os ++ [CNum K; CNum n; CPtr p] ++ os2 ++ [CNum n2; ob1; ob2]) w' evs ->
    length os = length pre -> length os2 = length mid -> existsb (unsupported (ereq pl e)) evs = false ->
    v_fits c K (calls mid) n = true -> i < n2 -> ob2 = CVal (Some v).
  Proof.
    intros H1 H2 H3 H4 H5 H6 H7 H8 H9 H10. eapply (write_through sz k); [|exact H6|exact H7|exact H9|exact H10].
    exact (session_check (vptr_tree pl e b sz k _ w H1 H2 H3 H4) H5 H8).
  Qed.
  Lemma vector_read_through pre c mid i v w os K n p os2 n2 ob1 ob2 w' evs :
    pl <> PPosix -> wf e = true -> 0 < sz -> place b (N.of_nat k * esize e) w ->
    program (pre ++ [PLib (VCap c); PLib (VSize c); PLib (VData c)] ++ mid ++ [PLib (VSize c); PLib (VSet c i (RVal v)); PLoad (p + sz * i)]) w =
      Ok (os ++ [CNum K; CNum n; CPtr p] ++ os2 ++ [CNum n2; ob1; ob2]) w' evs ->
    length os = length pre -> length os2 = length mid -> existsb (unsupported (ereq pl e)) evs = false ->
    v_fits c K (calls mid) n = true -> i < n2 -> ob2 = CVal (Some v).
  Proof.
    intros H1 H2 H3 H4 H5 H6 H7 H8 H9 H10. eapply (read_through sz k); [|exact H6|exact H7|exact H9|exact H10].
    exact (session_check (vptr_tree pl e b sz k _ w H1 H2 H3 H4) H5 H8).
  Qed.
  Lemma vector_follow_move pre c d i v w os n p ob1 ob2 ob3 n2 w' evs :
    pl <> PPosix -> wf e = true -> 0 < sz -> place b (N.of_nat k * esize e) w -> c <> d ->
    program (pre ++ [PLib (VSize c); PLib (VData c); PLib (VSize d); PLib (VMoveAssign d c); PStore (p + sz * i) (PVal v); PLib (VGet d i)]) w =
      Ok (os ++ [CNum n; CPtr p; CNum n2; ob1; ob2; ob3]) w' evs ->
    length os = length pre -> existsb (unsupported (ereq pl e)) evs = false -> i < n -> ob3 = CVal (Some v).
  Proof.
    intros H1 H2 H3 H4 H5 H6 H7 H8 H9. eapply (follow_move sz k); [exact H5| |exact H7|exact H9].
    exact (session_check (vptr_tree pl e b sz k _ w H1 H2 H3 H4) H6 H8).
  Qed.
End programs.

(** * The same for trivial_array, whose elements stay as long as no call changes the size *)
Section arr.
  Context (sz : N) (k : nat).
  Notation check := (acheck sz k).
  Notation pcheck := (pcheck sz check).
  Notation trace := (ctrace pcheck).

  Lemma aobs_has o c m m' ob : alegal sz k (s_info <$> m) o = has (s_info <$> m) c -> check o ob m m' -> ob <> CUnit -> is_Some (m !! c).
  Proof. unfold acheck. intros -> H Hob. apply has_lookup. destruct (has _ _); [done|]. by destruct H. Qed.

  Lemma aget_obs m m' ob c i x v : m !! c = Some x -> s_l x !! N.to_nat i = Some (Some v) -> check (AGet c i) ob m m' -> ob = CVal (Some v).
  Proof.
    intros Hx Hv. unfold acheck. cbn [alegal]. rewrite (look_lookup _ _ _ Hx). assert (has (s_info <$> m) c = true) as -> by (apply has_lookup; by rewrite Hx).
    assert (i <? s_len x = true) as ->. { apply N.ltb_lt. apply lookup_lt_Some in Hv. unfold s_len. lia. }
    cbn [andb acheck_do]. rewrite (s_get_lookup _ _ _ Hx). intros (_&r&->&Hr). by rewrite (Hr v).
  Qed.

  (** Calls that leave [c] where it is. *)
  Definition a_keeps (c : nat) (o : aop) : bool :=
    match o with
    | ANew d _ | ANewN d _ _ | ANewFill d _ _ _ | ANewList d _ _ | ANewRange d _ _ | ACopy d _ | ACopyAl d _ _
    | ADestroy d | AAssign d _ | AResize d _ | AFrom d _ => negb (d =? c)%nat
    | AMove d s | AMoveAl d s _ | AMoveAssign d s => negb (d =? c)%nat && negb (s =? c)%nat
    | _ => true
    end.

  Lemma a_stable_step c o ob m m' : check o ob m m' -> a_keeps c o = true ->
    s_data (s_get c m') = s_data (s_get c m) /\ s_len (s_get c m') = s_len (s_get c m).
  Proof.
    unfold acheck. destruct (alegal _ _ _ o) eqn:HL; [|by intros [_ ->]].
    assert (Hborn : forall d h l m1, d <> c -> born d h l m m1 -> s_get c m1 = s_get c m).
    { intros d h l m1 Hd (x&->&_). rewrite s_get_insert. by destruct (Nat.eqb_spec d c). }
    destruct o; cbn [acheck_do a_keeps] in *; intros HH Hk;
      repeat match goal with
      | H : (_ && _)%bool = true |- _ => apply andb_true_iff in H as [? ?]
      | H : negb (_ =? _)%nat = true |- _ => apply negb_true_iff in H; pose proof H; apply Nat.eqb_neq in H
      end.
    all: try (destruct HH as [-> _]; done).
    all: try (destruct HH as [_ HH]; rewrite (Hborn _ _ _ _ ltac:(eassumption) HH); done).
    - destruct HH as [_ ->]. rewrite s_get_insert. by rewrite H.
    - destruct HH as [_ ->]. rewrite !s_get_insert. by rewrite H2 H1.
    - destruct HH as (_&m1&HH&->). rewrite s_get_insert H1. by rewrite (Hborn _ _ _ _ H HH).
    - destruct HH as [_ ->]. by rewrite s_get_delete.
    - destruct HH as [_ ->]. rewrite !s_get_insert. by rewrite H2 H1.
    - destruct HH as [_ ->]. rewrite s_get_insert. destruct (Nat.eqb_spec c0 c) as [->|]; [|done]. cbn [s_data]. unfold s_len. cbn [s_l].
      by rewrite insert_length.
    - destruct HH as [_ HH]. destruct (_ =? _) in HH; [by subst|]. by rewrite (Hborn _ _ _ _ ltac:(eassumption) HH).
    - destruct HH as (_&HH&_). by rewrite (Hborn _ _ _ _ ltac:(eassumption) HH).
  Qed.

  Lemma ap_stable_steps c mid os m m' : trace mid os m m' -> forallb (a_keeps c) (calls mid) = true ->
    s_data (s_get c m') = s_data (s_get c m) /\ s_len (s_get c m') = s_len (s_get c m).
  Proof.
    revert os m. induction mid as [|o mid IH]; intros [|ob os] m; try done; cbn [ctrace]; [by intros ->|].
    intros (m1&H1&H2) HF. pose proof (ptr_place _ _ _ _ _ _ H1) as Hp.
    destruct o as [o|a|a src]; cbn [calls flat_map app forallb] in HF.
    { apply andb_true_iff in HF as [HF1 HF]. destruct (a_stable_step c _ _ _ _ Hp HF1) as [H3 H4]. destruct (IH _ _ H2 HF) as [-> ->]. done. }
    all: destruct (Hp c) as (_&_&H4&H5&_); destruct (IH os m1 H2 HF) as [-> ->]; done.
  Qed.

  Lemma aobs_size c ob m m' n : check (ASize c) ob m m' -> ob = CNum n -> m' = m /\ n = s_len (s_get c m).
  Proof. unfold acheck. destruct (alegal _ _ _ _); cbn [acheck_do]; intros [H1 H2] ->; subst; [|done]. by injection H2. Qed.
  Lemma aobs_data c ob m m' p : check (AData c) ob m m' -> ob = CPtr p -> m' = m /\ p = s_data (s_get c m).
  Proof. unfold acheck. destruct (alegal _ _ _ _); cbn [acheck_do]; intros [H1 H2] ->; subst; [|done]. by injection H2. Qed.

  Lemma a_write_through pre c mid i v os n p os2 n2 ob1 ob2 :
    ccheck pcheck (pre ++ [PLib (ASize c); PLib (AData c)] ++ mid ++ [PLib (ASize c); PStore (p + sz * i) (PVal v); PLib (AGet c i)])
      (os ++ [CNum n; CPtr p] ++ os2 ++ [CNum n2; ob1; ob2]) ∅ ->
    length os = length pre -> length os2 = length mid -> forallb (a_keeps c) (calls mid) = true -> i < n ->
    n2 = n /\ ob2 = CVal (Some v).
  Proof.
    intros H Hl Hl2 HF Hi. apply ccheck_trace in H as [m H]. apply ctrace_app in H as (os1&os3&m1&He&Hl1&H1&H2).
    apply app_inj_1 in He as [-> <-]; [|lia]. destruct H2 as (m2&H4&m3&H5&H6).
    apply (aobs_size _ _ _ _ n) in H4 as [-> ->]; [|done]. apply (aobs_data _ _ _ _ p) in H5 as [-> ->]; [|done].
    apply (ctrace_app _ mid) in H6 as (os4&os5&m5&He&Hl4&H6&H7). cbn [app] in He. apply app_inj_1 in He as [-> <-]; [|lia].
    destruct (ap_stable_steps c mid os4 m1 m5 H6 HF) as [H8 H9].
    destruct H7 as (m6&H10&m7&H11&m8&H12&_). cbn [Ptr.pcheck] in H10, H12.
    destruct (aobs_has (ASize c) c _ _ _ eq_refl H10) as [x Hx]; [done|].
    apply (aobs_size _ _ _ _ n2) in H10 as [-> ->]; [|done]. split; [done|]. rewrite -H8 in H11. rewrite -H9 in Hi. rewrite (s_get_lookup _ _ _ Hx) in Hi, H11.
    destruct (store_at _ _ _ _ _ _ _ _ _ Hx Hi H11) as [_ ->].
    refine (aget_obs _ _ _ _ _ _ _ (lookup_insert _ _ _) _ H12). cbn [s_l]. apply list_lookup_insert. unfold s_len in Hi. lia.
  Qed.
End arr.

Lemma array_write_through pl e b sz k pre c mid i v w os n p os2 n2 ob1 ob2 w' evs :
  pl <> PPosix -> wf e = true -> 0 < sz -> place b (N.of_nat k * esize e) w ->
  csession (den pl e) b (pstep (den pl e) sz (a_info sz) (astep (den pl e) b sz k)) (arelease (den pl e) b sz) k
    (pre ++ [PLib (ASize c); PLib (AData c)] ++ mid ++ [PLib (ASize c); PStore (p + sz * i) (PVal v); PLib (AGet c i)]) w =
    Ok (os ++ [CNum n; CPtr p] ++ os2 ++ [CNum n2; ob1; ob2]) w' evs ->
  length os = length pre -> length os2 = length mid -> existsb (unsupported (ereq pl e)) evs = false ->
  forallb (a_keeps c) (calls mid) = true -> i < n -> n2 = n /\ ob2 = CVal (Some v).
Proof.
  intros H1 H2 H3 H4 H5 H6 H7 H8 H9 H10. eapply (a_write_through sz k); [|exact H6|exact H7|exact H9|exact H10].
  exact (session_check (aptr_tree pl e b sz k _ w H1 H2 H3 H4) H5 H8).
Qed.

(** Programs of the examples. *)
Definition pvprog (e : aexp) (sz : N) (k : nat) (ops : list (pop vop)) : M (list cobs) :=
  csession (den PMalloc e) 4096 (pstep (den PMalloc e) sz (v_info sz) (vstep (den PMalloc e) 4096 sz k)) (release (den PMalloc e) 4096 sz) k ops.
Definition paprog (e : aexp) (sz : N) (k : nat) (ops : list (pop aop)) : M (list cobs) :=
  csession (den PMalloc e) 4096 (pstep (den PMalloc e) sz (a_info sz) (astep (den PMalloc e) 4096 sz k)) (arelease (den PMalloc e) 4096 sz) k ops.
