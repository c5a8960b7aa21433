(** Programs that use pointers to elements of binary_heaps. *)
From Coq Require Import Sorting.Sorted.
From iris.proofmode Require Import tactics.
From Verif Require Import Base Mem AlignedMalloc Allocators Checked Tree Client Contract Service TreeProofs AllocSpec AllocProofs
  Env EnvProofs Vector RepProofs HeapPure Heap HeapSpec TreeService HeapProofs ContFacts HeapFacts HeapExamples ContExamples Ptr HeapPtr HeapPtrProofs.

Local Open Scope N_scope.

Lemma hptr_any bad A req (C : service bad A req) (Hm : modest bad (half req)) b sz T comp eqv k wild : 0 < sz -> forall ops w,
  place b (N.of_nat k * a_size A) w ->
  csession_ok A b (hpstep A b sz T comp eqv k wild) (hrelease A b sz T) (hpcheck sz T comp eqv k wild) bad k ∅ ops w.
Proof.
  intros Hsz ops w Hp.
  assert (H1 : forall n, half req n = true -> req n = true). { intros n H. by apply andb_true_iff in H as [? _]. }
  apply (hptr_session (service_less (half req) C H1 Hm) b sz T comp eqv k wild Hsz); [|done].
  intros n H. apply andb_true_iff in H as [_ H]. by apply N.ltb_lt.
Qed.

Lemma hptr_tree pl e b sz T comp eqv k wild ops w :
  pl <> PPosix -> wf e = true -> 0 < sz -> place b (N.of_nat k * esize e) w ->
  csession_ok (den pl e) b (hpstep (den pl e) b sz T comp eqv k wild) (hrelease (den pl e) b sz T) (hpcheck sz T comp eqv k wild)
    (unsupported (half (ereq pl e))) k ∅ ops w.
Proof.
  intros Hpl Hwf Hsz Hp. destruct (tree_service pl e (half (ereq pl e)) Hpl Hwf (half_le _)) as [C].
  apply (hptr_any _ _ _ C (modest_half _)); [done|]. by rewrite den_size.
Qed.

Section facts.
  Context (sz : N) (T : elt) (less : value -> value -> bool) (eqv : value -> value -> bool) (k : nat).
  Local Notation chk wild := (hpcheck sz T (fun _ => less) eqv k wild).

  Lemma has_get (m : gmap nat sheap) c : has (p_info <$> m) c = true -> m !! c = Some (p_get c m).
  Proof. unfold has, p_get. rewrite lookup_fmap. destruct (m !! c); [done|]. intros H. apply bool_decide_eq_true in H as [? [=]]. Qed.

  (** ** The first element is replaced by one that is not greater *)
  Lemma lower_first wild pre c v os r t r' :
    ccheck (chk wild) (pre ++ [HLib (HPeek c); HLower c v; HLib (HPeek c)]) (os ++ [CVal (Some r); CBool t; CVal (Some r')]) ∅ ->
    length os = length pre -> t = negb (less r v) /\ r' = if t then v else r.
  Proof.
    intros H Hl. apply ccheck_trace in H as [m H]. apply (ctrace_app _ pre) in H as (os1&os2&m1&He&Hl1&H1&H2).
    apply app_inj_1 in He as [-> <-]; [|lia]. destruct H2 as (m2&H3&m3&H4&m4&H5&_).
    cbn [hpcheck] in H3, H5. unfold hcheck in H3, H5. destruct (hlegal _ _ _ _ _); [|by destruct H3]. destruct (hlegal _ _ _ _ _); [|by destruct H5].
    cbn [hcheck_do] in H3, H5. destruct H3 as (->&r0&Hr&[= <-]). destruct H5 as (->&r1&Hr1&[= <-]). cbn [hpcheck] in H4.
    destruct (p_l (p_get c m1)) as [|r0 l0] eqn:Hp; [done|]. cbn in Hr. injection Hr as ->. destruct (less r v).
    - destruct H4 as [[= ->] ->]. rewrite Hp in Hr1. by injection Hr1 as ->.
    - destruct H4 as ([= ->]&->&_). unfold p_get in Hr1 at 1. rewrite lookup_insert in Hr1. cbn [default from_option id p_l] in Hr1. rewrite Hp in Hr1.
      by injection Hr1 as ->.
  Qed.

  (** ** Without other writes the elements leave in order *)
  Definition all_ok wild (m : gmap nat sheap) : Prop := map_Forall (fun _ x => p_ok (fun _ => less) (ord := tame wild _) x) m.

  Lemma all_ok_get wild m c : all_ok wild m -> p_ok (fun _ => less) (ord := tame wild _) (p_get c m).
  Proof. intros H. unfold p_get. destruct (m !! c) eqn:Hc; [by apply (H c)|]. split_and!; done. Qed.
  Lemma all_ok_step wild o ob m m' : chk wild o ob m m' -> all_ok wild m -> all_ok wild m'.
  Proof.
    intros H Hm. assert (He : forall c, p_ok (fun _ => less) (ord := tame wild _) (p_emptied (p_get c m))) by (intros c; split_and!; done).
    pose proof (fun c => all_ok_get wild m c Hm) as Hg.
    assert (Hrep : forall c i v, replaced (fun _ => less) wild m c i v m' -> all_ok wild m') by (intros c i v [-> ?]; by apply map_Forall_insert_2).
    destruct o as [o|a|a src|c v]; cbn [hpcheck] in H.
    2:{ by destruct H as [(?&?&?&_&_&->)|(_&_&->)]. }
    2:{ destruct H as [(?&?&?&?&_&_&_&_&H)|(_&_&->)]; [by eapply Hrep|done]. }
    2:{ destruct (p_l _); [by destruct H as [_ ->]|]. destruct (less _ _); destruct H as [_ H]; [by subst m'|by eapply Hrep]. }
    unfold hcheck in H. destruct (hlegal _ _ _ _ _); [|by destruct H as [_ ->]].
    destruct o; cbn [hcheck_do] in H; unfold p_born, p_become in H; repeat match goal with
      | H : _ /\ _ |- _ => destruct H
      | H : exists _, _ |- _ => destruct H
      end; subst; try done; repeat (apply map_Forall_insert_2; [first [done|apply He|apply Hg|by split_and!]|]); try done.
    by apply map_Forall_delete.
  Qed.
  Lemma all_ok_run wild ops os m m' : ctrace (chk wild) ops os m m' -> all_ok wild m -> all_ok wild m'.
  Proof.
    revert os m. induction ops as [|o ops IH]; intros [|ob os] m; try done; cbn [ctrace]; [by intros <-|].
    intros (m1&H1&H2) Hm. eapply IH; [done|]. by eapply all_ok_step.
  Qed.

  Lemma pops_in_order c n l m m' : strict_weak less -> all_ok (fun _ => false) m ->
    ctrace (chk (fun _ => false)) (map HLib (pops c n)) (vals l) m m' -> sorted less l /\ forall x, x ∈ l -> x ∈ p_l (p_get c m).
  Proof.
    intros Hsw. revert l m. induction n as [|n IH]; intros [|v l] m Hm; try done; cbn [pops repeat List.map ctrace].
    { split; [constructor|]. intros x Hx. by apply elem_of_nil in Hx. }
    intros (m1&H1&H2). pose proof (all_ok_step _ _ _ _ _ H1 Hm) as Hm1. destruct (IH l m1 Hm1 H2) as [Hs Hin].
    cbn [hpcheck] in H1. unfold hcheck in H1. destruct (hlegal _ _ _ _ _); [|by destruct H1]. cbn [hcheck_do] in H1.
    destruct H1 as (v0&Hv&[= <-]&x&->&_&_&_&Hp&_). destruct (all_ok_get _ _ c Hm) as (_&_&_&Hmin).
    unfold p_get in Hin at 1. rewrite lookup_insert in Hin. cbn [default from_option id] in Hin.
    assert (Hin' : forall y, y ∈ l -> y ∈ p_l (p_get c m)) by (intros y Hy; rewrite -Hp; right; by apply Hin).
    split.
    - constructor; [done|]. apply list.Forall_forall. intros y Hy. apply Hmin; [done|done|by apply Hin'].
    - intros y Hy. apply elem_of_cons in Hy as [->|Hy]; [by eapply elem_of_list_lookup_2|by apply Hin'].
  Qed.
  Lemma lower_pops pre c n os l : strict_weak less ->
    ccheck (chk (fun _ => false)) (pre ++ map HLib (pops c n)) (os ++ vals l) ∅ -> length os = length pre -> sorted less l.
  Proof.
    intros Hsw H Hl. apply ccheck_trace in H as [m H]. apply (ctrace_app _ pre) in H as (os1&os2&m1&He&Hl1&H1&H2).
    apply app_inj_1 in He as [-> <-]; [|lia]. eapply (pops_in_order c n l m1 m Hsw); [|done]. eapply all_ok_run; [done|]. apply map_Forall_empty.
  Qed.

  (** ** Pointers and positions *)
  Lemma write_position pre c i v os n p o1 o2 : 
    ccheck (chk (fun _ => true)) (pre ++ [HLib (HSize c); HLib (HData c); HStore (p + sz * i) (PVal v); HLib (HAt c i)]) (os ++ [CNum n; CPtr p; o1; o2]) ∅ ->
    length os = length pre -> i < n -> o2 = CVal (Some v).
  Proof.
    intros H Hl Hi. apply ccheck_trace in H as [m H]. apply (ctrace_app _ pre) in H as (os1&os2&m1&He&Hl1&H1&H2).
    apply app_inj_1 in He as [-> <-]; [|lia]. destruct H2 as (m2&H3&m3&H4&m4&H5&m5&H6&_).
    cbn [hpcheck] in H3, H4, H6. unfold hcheck in H3, H4, H6. cbn [hlegal hcheck_do] in H3, H4, H6.
    destruct (has _ c) eqn:Hh; [|by destruct H3]. destruct H3 as [-> [= ->]]. rewrite Hh in H4. destruct H4 as [-> [= ->]].
    apply has_get in Hh as Hc. unfold p_len in Hi. destruct (lookup_lt_is_Some_2 (p_l (p_get c m1)) (N.to_nat i) ltac:(lia)) as [u Hu].
    assert (Hp : points sz m1 (p_data (p_get c m1) + sz * i) c (N.to_nat i) u) by (exists (p_get c m1); by rewrite N2Nat.id).
    cbn [hpcheck holds] in H5. destruct H5 as [(c'&i'&u'&v'&[_ Hn]&_&->&->&->&_)|([H5|[]]&_)].
    2:{ by specialize (H5 _ _ _ Hp). }
    destruct (Hn _ _ _ Hp) as [<- <-]. set (y := SHeap _ _ _ _ _) in H6.
    assert (Hg : p_get c (<[c := y]> m1) = y) by (unfold p_get; by rewrite lookup_insert).
    rewrite hlook_spec Hg in H6. unfold has in H6. rewrite lookup_fmap lookup_insert in H6. cbn [fmap option_fmap option_map p_info i_size] in H6.
    rewrite bool_decide_true in H6; [|by eexists]. unfold y, p_len in H6. cbn [p_l] in H6. rewrite insert_length in H6.
    destruct (N.ltb_spec i (N.of_nat (length (p_l (p_get c m1))))) as [_|?]; [|lia].
    cbn [andb] in H6. destruct H6 as (_&v'&Hv'&->). rewrite list_lookup_insert in Hv'; [|lia]. by injection Hv' as ->.
  Qed.
  Lemma read_position wild pre c i os p x o :
    ccheck (chk wild) (pre ++ [HLib (HData c); HLib (HAt c i); HLoad (p + sz * i)]) (os ++ [CPtr p; CVal (Some x); o]) ∅ ->
    length os = length pre -> o = CVal (Some x).
  Proof.
    intros H Hl. apply ccheck_trace in H as [m H]. apply (ctrace_app _ pre) in H as (os1&os2&m1&He&Hl1&H1&H2).
    apply app_inj_1 in He as [-> <-]; [|lia]. destruct H2 as (m2&H3&m3&H4&m4&H5&_).
    cbn [hpcheck] in H3, H4, H5. unfold hcheck in H3, H4. destruct (hlegal _ _ _ _ _) eqn:Hh; [|by destruct H3]. cbn [hlegal hcheck_do] in *.
    destruct H3 as [-> [= ->]]. destruct (has (p_info <$> m1) c && _); [|by destruct H4]. destruct H4 as (->&v&Hv&[= <-]).
    apply has_get in Hh as Hc. assert (Hp : points sz m1 (p_data (p_get c m1) + sz * i) c (N.to_nat i) x) by (exists (p_get c m1); by rewrite N2Nat.id).
    destruct H5 as [(c'&i'&u&[(y&Hy&Hu&_) Hn]&->&_)|[H5 _]]; [|by destruct (H5 _ _ _ Hp)].
    destruct (Hn _ _ _ Hp) as [<- <-]. rewrite Hc in Hy. injection Hy as <-. congruence.
  Qed.
End facts.

(** * Programs as executions *)
Section programs.
  Context (pl : platform) (e : aexp) (b sz : N) (T : elt) (less : value -> value -> bool) (eqv : value -> value -> bool) (k : nat) (wild : nat -> bool).
  Notation program wild := (csession (den pl e) b (hpstep (den pl e) b sz T (fun _ => less) eqv k wild) (hrelease (den pl e) b sz T) k).

  Lemma heap_replace_first pre c v w os r t r' w' evs :
    pl <> PPosix -> wf e = true -> 0 < sz -> place b (N.of_nat k * esize e) w ->
    program wild (pre ++ [HLib (HPeek c); HLower c v; HLib (HPeek c)]) w = Ok (os ++ [CVal (Some r); CBool t; CVal (Some r')]) w' evs ->
    length os = length pre -> existsb (unsupported (half (ereq pl e))) evs = false ->
    t = negb (less r v) /\ r' = if t then v else r.
  Proof.
    intros H1 H2 H3 H4 H5 H6 H7. eapply (lower_first sz T less eqv k wild); [|done].
    exact (session_check (hptr_tree pl e b sz T (fun _ => less) eqv k wild _ w H1 H2 H3 H4) H5 H7).
  Qed.
  Lemma heap_lower_sorts pre c n w os l w' evs :
    pl <> PPosix -> wf e = true -> 0 < sz -> place b (N.of_nat k * esize e) w -> strict_weak less ->
    program (fun _ => false) (pre ++ map HLib (pops c n)) w = Ok (os ++ vals l) w' evs ->
    length os = length pre -> existsb (unsupported (half (ereq pl e))) evs = false -> sorted less l.
  Proof.
    intros H1 H2 H3 H4 Hsw H5 H6 H7. eapply (lower_pops sz T less eqv k pre c n os); [done| |done].
    exact (session_check (hptr_tree pl e b sz T (fun _ => less) eqv k _ _ w H1 H2 H3 H4) H5 H7).
  Qed.
  Lemma heap_write_through pre c i v w os n p o1 o2 w' evs :
    pl <> PPosix -> wf e = true -> 0 < sz -> place b (N.of_nat k * esize e) w ->
    program (fun _ => true) (pre ++ [HLib (HSize c); HLib (HData c); HStore (p + sz * i) (PVal v); HLib (HAt c i)]) w =
      Ok (os ++ [CNum n; CPtr p; o1; o2]) w' evs ->
    length os = length pre -> existsb (unsupported (half (ereq pl e))) evs = false -> i < n -> o2 = CVal (Some v).
  Proof.
    intros H1 H2 H3 H4 H5 H6 H7. eapply (write_position sz T less eqv k pre c i v os n p); [|done].
    exact (session_check (hptr_tree pl e b sz T (fun _ => less) eqv k _ _ w H1 H2 H3 H4) H5 H7).
  Qed.
  Lemma heap_read_through pre c i w os p x o w' evs :
    pl <> PPosix -> wf e = true -> 0 < sz -> place b (N.of_nat k * esize e) w ->
    program wild (pre ++ [HLib (HData c); HLib (HAt c i); HLoad (p + sz * i)]) w = Ok (os ++ [CPtr p; CVal (Some x); o]) w' evs ->
    length os = length pre -> existsb (unsupported (half (ereq pl e))) evs = false -> o = CVal (Some x).
  Proof.
    intros H1 H2 H3 H4 H5 H6 H7. eapply (read_position sz T less eqv k wild pre c i os p x); [|done].
    exact (session_check (hptr_tree pl e b sz T (fun _ => less) eqv k wild _ w H1 H2 H3 H4) H5 H7).
  Qed.
End programs.

(** * Concrete programs *)
Definition hpprog (e : aexp) (sz : N) (T : elt) (k : nat) (wild : nat -> bool) (ops : list hpop) : M (list cobs) :=
  csession (den PMalloc e) 4096 (hpstep (den PMalloc e) 4096 sz T (fun _ => cmps 0) equal k wild) (hrelease (den PMalloc e) 4096 sz T) k ops.

(** peek() = 9 in a heap of 1, 2 and 3: 9 leaves first. *)
Lemma write_breaks_order :
  exists w r, place 4096 0 w /\ strict_weak (cmps 0) /\
    seen (unsupported (half (ereq PMalloc EMalloc))) (hpprog EMalloc 4 int4 1 (fun _ => true)
      ([HLib (HNewList 0 [Val 1; Val 2; Val 3] 0 0); HLib (HData 0); HStore r (PVal (Val 9))] ++ map HLib (pops 0 3)) w) =
    Some ([CUnit; CPtr r; CUnit] ++ vals [Val 9; Val 2; Val 3], false).
Proof. exists (w_raw 0), 65536. split; [by apply (w_raw_place 0)|]. split; [exact less_strict_weak|]. by vm_compute. Qed.
