(** Witnesses and small lemmas for the property theorems about allocators. *)
From Coq Require Import ssreflect.
From Verif Require Import Base Mem Bits BitsProofs AlignedMalloc Allocators Checked Tree Client Moves
  Contract PairProofs FreelistProofs OverflowProofs CascadingProofs NodeProofs CheckedProofs
  AllocSpec AllocFacts LinearFacts MallocFacts OverflowFacts MiscFacts ClientProofs TreeProofs SessionProofs NoFail QuietProofs.

Lemma posix_too_small : exists n w p w', mem (st w) !! 0 = None /\ aligned_malloc PPosix n 16 w = Ok p w' [] /\ p <> 0 /\
    mem (st w') !! (p + n - 1) = None.
Proof.
  exists 64, (w_raw 0). eexists 65536, _. split_and!; [done|by vm_compute|done|by vm_compute].
Qed.

Lemma posix_refuses : exists n, forall w, match aligned_malloc PPosix n 16 w with Ok p _ e => Some (p, e) | Err _ _ => None end = Some (0, []).
Proof. by exists 24. Qed.

Lemma generic_wraps : exists n w, n < W /\ mem (st w) !! 0 = None /\
  match aligned_malloc PGeneric n 16 w with Ok _ _ _ => None | Err u _ => Some u end = Some UBAccess.
Proof. exists (W - 8), (w_raw 0). split_and!; [done|done|by vm_compute]. Qed.

(** * C08: layout and contents *)
Lemma lin_layout_reach Size b s bl :
  reachable (linear_allocator Size) (fun n => n + 15 + Size <? W) b s bl \/
  reachable (stack_allocator Size) (fun n => n + 15 + Size <? W) b s bl ->
  Forall (fun x => b <= fst x /\ fst x + snd x <= b + Size /\ fst x mod 16 = 0) bl /\ all_apart bl.
Proof.
  intros [H|H]; eapply lin_full_layout; [by eapply lin_reach|by eapply stack_reach].
Qed.

Lemma lin_sessions pl Size b ops w : pl <> PPosix -> Size < W ->
  place b (Size + align_to_architecture Size) w -> asks (fun n => n + 15 + Size <? W) ops ->
  session_ok nobad (linear_allocator Size) (fun _ _ => true) b ops w /\
  session_ok nobad (stack_allocator Size) (fun _ _ => true) b ops w.
Proof.
  intros Hpl HS Hp Ha. apply N.ltb_lt in HS. split.
  - apply (tree_session nobad pl (ELinear Size)); done.
  - apply (tree_session nobad pl (EStack Size)); done.
Qed.

(** * C09 *)
Lemma lin_capacity Size b s n pad w :
  reachable (linear_allocator Size) (fun n => n + 15 + Size <? W) b s [] \/
  reachable (stack_allocator Size) (fun n => n + 15 + Size <? W) b s [] ->
  n + 15 + Size < W -> least_padding 16 n pad ->
  exists s', lin_alloc Size b s n w = Ok (if n + pad <=? Size then b else 0, s') w [].
Proof.
  intros H Hn Hp. eexists. eapply lin_full_capacity; [|by apply N.ltb_lt|done].
  destruct H; [by eapply lin_reach|by eapply stack_reach].
Qed.

(** * C10 *)
Lemma linear_undo Size b s bl n w p s' w' e :
  reachable (linear_allocator Size) (fun n => n + 15 + Size <? W) b s bl -> n + 15 + Size < W ->
  a_alloc (linear_allocator Size) b s n w = Ok (p, s') w' e -> p <> 0 ->
  a_free (linear_allocator Size) b s' p n w' = Ok s w [].
Proof.
  intros H Hn Ha Hp. apply lin_reach in H. cbn [linear_allocator a_alloc a_free] in *.
  assert (lreq Size n = true) as Hn' by by apply N.ltb_lt.
  rewrite (proj2 (N.eqb_neq _ _) Hp). cbn [negb ktl_assert]. rewrite bind_ret.
  rewrite (lin_undo _ _ _ _ _ _ _ _ _ _ H Hn' Ha Hp). unfold lin_alloc in Ha.
  destruct (_ <? _); by apply ret_Ok in Ha as (_&->&_).
Qed.

Lemma stack_undo Size b s bl n w p s' w' e :
  reachable (stack_allocator Size) (fun n => n + 15 + Size <? W) b s bl -> n + 15 + Size < W ->
  a_alloc (stack_allocator Size) b s n w = Ok (p, s') w' e -> p <> 0 ->
  a_free (stack_allocator Size) b s' p n w' = Ok s w [].
Proof.
  intros H Hn Ha Hp. apply stack_reach in H. cbn [stack_allocator a_alloc a_free] in *.
  assert (lreq Size n = true) as Hn' by by apply N.ltb_lt.
  rewrite (lin_undo _ _ _ _ _ _ _ _ _ _ H Hn' Ha Hp). unfold lin_alloc in Ha.
  destruct (_ <? _); by apply ret_Ok in Ha as (_&->&_).
Qed.

(** * C11 *)
Lemma lin_oversized Size b s bl n w :
  reachable (linear_allocator Size) (fun n => n + 15 + Size <? W) b s bl \/
  reachable (stack_allocator Size) (fun n => n + 15 + Size <? W) b s bl ->
  n + 15 + Size < W -> Size < n -> lin_alloc Size b s n w = Ok (0, s) w [].
Proof.
  intros H Hn Hs. eapply lin_refuses; [|by apply N.ltb_lt|done].
  destruct H; [by eapply lin_reach|by eapply stack_reach].
Qed.

(** Storage for examples. *)
Lemma fill_raw b m i : b <= i < b + N.of_nat m -> fill b (repeat Undef m) !! i = Some Undef.
Proof.
  revert b. induction m as [|m IH]; intros b H; [lia|]. cbn [repeat fill].
  destruct (decide (b = i)) as [->|]; [by rewrite lookup_insert|].
  rewrite lookup_insert_ne; [|done]. apply IH. lia.
Qed.

Lemma w_raw_place n : n < 2 ^ 20 -> mem (st (w_raw (N.to_nat n))) !! 0 = None -> place 4096 n (w_raw (N.to_nat n)).
Proof.
  intros Hn H0. split_and!; [done|done|unfold W; lia| |done].
  intros i Hi. exists Undef. split; [|done]. apply fill_raw. lia.
Qed.

Lemma oversized_served : exists Size b n w ops, Size < n /\ n < W /\ place b (Size + align_to_architecture Size) w /\
  outcome (session (linear_allocator Size) b (fun _ _ => true) (ops ++ [OAlloc n]) w) = Some ([ObPtr b], []).
Proof.
  exists 64, 4096, (W - 8), (w_raw 64), []. split_and!; [done|done| |by vm_compute].
  by apply (w_raw_place 64).
Qed.

(** Two blocks that overlap. *)
Lemma oversized_overlap : exists Size b n w p q, Size < n /\ n < W /\ place b (Size + align_to_architecture Size) w /\
  outcome (session (linear_allocator Size) b (fun _ _ => true) [OAlloc 32; OAlloc n; OAlloc 32] w) =
    Some ([ObPtr p; ObPtr (p + 32); ObPtr q], []) /\ p <= q < p + 32.
Proof.
  exists 64, 4096, (W - 32), (w_raw 64), 4096, 4096. split_and!; [done|done| |by vm_compute|done|done].
  by apply (w_raw_place 64).
Qed.

(** * Composites over an arbitrary contract *)
Notation never := (fun _ _ => false).

Lemma freelist_sessions bad A req (CA : contract bad A req) Min Max b ops w :
  8 <= Max -> Max < W -> place b (a_size A) w ->
  asks (fun n => negb ((Min <? n) && (n <=? Max)) || req Max) ops ->
  session_ok bad (freelist Min Max (checked A)) never b ops w.
Proof.
  intros H1 H2 Hp Ha.
  by apply (client_safe bad _ _ (freelist_contract (checked_contract CA) Min Max H1 H2)).
Qed.

Lemma segragator_sessions bad P reqP (CP : contract bad P reqP) F reqF (CF : contract bad F reqF) T b ops w :
  place b (a_size P + a_size F) w -> asks (fun n => if n <=? T then reqP n else reqF n) ops ->
  session_ok bad (segragator (checked P) (checked F) T) never b ops w.
Proof.
  intros Hp Ha. by apply (client_safe bad _ _ (segragator_contract (checked_contract CP) (checked_contract CF) T)).
Qed.

Lemma fallback_sessions bad P reqP (CP : contract bad P reqP) F reqF (CF : contract bad F reqF) b ops w :
  a_owns P <> None -> place b (a_size P + a_size F) w -> asks (fun n => (0 <? n) && reqP n && reqF n) ops ->
  session_ok bad (fallback (checked P) (checked F)) never b ops w.
Proof.
  intros Ho Hp Ha. assert (a_owns (checked P) <> None) as Ho' by (cbn; by destruct (a_owns P)).
  by apply (client_safe bad _ _ (fallback_contract (checked_contract CP) (checked_contract CF) Ho')).
Qed.

Lemma overflow_sessions bad A req (CA : contract bad A req) b ops w :
  place b (a_size A) w -> asks (fun n => (n + 128 <? W) && req (n + 128)) ops ->
  session_ok bad (overflow (checked A)) never b ops w.
Proof.
  intros Hp Ha. by apply (client_safe bad _ _ (overflow_contract (checked_contract CA))).
Qed.

Lemma cascading_sessions bad A req (CA : contract bad A req) pl b ops w :
  pl <> PPosix -> bad EvFail || bad EvRefuse = true -> a_size A + 32 < W -> a_owns A <> None ->
  (a_max A <> None -> forall b s, rdy CA b s = true) ->
  place b 0 w -> asks (fun n => (0 <? n) && req n) ops ->
  session_ok bad (cascading pl (checked A)) never b ops w.
Proof.
  intros Hpl Hf Hs Ho Hr Hp Ha.
  assert (a_owns (checked A) = Some (owns_of (checked A))) as Ho'.
  { unfold owns_of. cbn. by destruct (a_owns A). }
  assert (a_max (checked A) <> None -> forall b s, rdy (checked_contract CA) b s = true) as Hr'.
  { intros Hm b' s'. cbn. apply Hr. cbn in Hm. by destruct (a_max A). }
  by apply (client_safe bad _ _ (cascading_contract (checked_contract CA) pl Hpl Hf Hs Ho' Hr')).
Qed.

(** * C18 *)
Lemma fallback_empty : exists b w, place b 16 w /\
  crash (session (fallback (linear_allocator 16) (mallocator PMalloc)) b never [OAlloc 16; OAlloc 0; OFree 0] w) = Some UBFree.
Proof. exists 4096, (w_raw 16). split; [|by vm_compute]. by apply (w_raw_place 16). Qed.

(** * C21: every refused request leaves one more instance behind *)
Lemma cascading_grows :
  let A := cascading PMalloc (freelist 0 8 (linear_allocator 64)) in
  exists b n w, n < W /\ place b (a_size A) w /\
  outcome ((s <- a_init A b ;; h <- heap_blocks ;; r <- ask A b n 4 s ;; ret (h, r)) w) =
    Some ((0%nat, [(0, 2%nat); (0, 3%nat); (0, 4%nat); (0, 5%nat)]), []).
Proof.
  exists 4096, 32, (w_raw 0). split_and!; [done|by apply (w_raw_place 0)|by vm_compute].
Qed.

(** Refusing because of max_size does not. *)
Lemma casc_max_refuses pl A b s mx nd rest n v w e : a_max A = Some mx -> s = nd :: rest ->
  mx (nd_addr nd) (nd_in nd) w = Ok v w e -> v < n -> a_alloc (cascading pl A) b s n w = Ok (0, s) w e.
Proof.
  intros Hm -> Hv Hn. cbn [cascading cascading_with a_alloc]. unfold casc_alloc. rewrite bind_ret Hm.
  unfold bind, ret. rewrite Hv. destruct (N.ltb_spec v n); [|lia]. cbn [app]. by rewrite !app_nil_r.
Qed.

(** * C22 *)
Lemma fresh_max_size :
  let A := cascading PMalloc (linear_allocator 64) in
  wf (ECascading (ELinear 64)) = true /\
  exists w, place 4096 (a_size A) w /\
  crash ((s <- a_init A 4096 ;; match a_max A with Some mx => mx 4096 s | None => ret 0 end) w) = Some UBNull.
Proof. split; [by vm_compute|]. exists (w_raw 0). split; [by apply (w_raw_place 0)|by vm_compute]. Qed.

Lemma nested_cascading :
  let A := cascading PMalloc (cascading PMalloc (linear_allocator 64)) in
  exists w, place 4096 (a_size A) w /\
  crash ((s <- a_init A 4096 ;; a_alloc A 4096 s 16) w) = Some UBNull.
Proof. exists (w_raw 0). split; [by apply (w_raw_place 0)|by vm_compute]. Qed.

(** * C25 *)
Lemma leak_of_failed :
  let A := overflow (linear_allocator 64) in
  exists w, place 4096 64 w /\
  outcome ((s <- a_init A 4096 ;; ' (p, s1) <- a_alloc A 4096 s 100 ;; a_dtor A 4096 s1 ;;; ret p) w) =
    Some (0, [EvLeak 100]).
Proof. exists (w_raw 64). split; [by apply (w_raw_place 64)|by vm_compute]. Qed.

(** * C28 and C29 *)
Lemma session_owns bad A ready b ops q w os w' evs :
  session_ok bad A ready b (ops ++ [OOwns q]) w -> a_owns A <> None ->
  session A b ready (ops ++ [OOwns q]) w = Ok os w' evs -> existsb bad evs = false ->
  exists mv os1 bl r, os = os1 ++ [ObBool r] /\
    checks (elsewhere b (a_size A) w) true mv ops os1 [] bl /\
    (Exists (in_block q) bl -> r = true) /\ (elsewhere b (a_size A) w q -> r = false).
Proof.
  unfold session_ok. intros H Ho Hs Hb. rewrite Hs in H. destruct H as [H|(_&(mv&_&H)&_)]; [by rewrite H in Hb|].
  destruct (a_owns A); [|done]. apply check_app in H as (os1&os2&bl&->&H1&H2).
  destruct os2 as [|ob [|]]; [done| |by destruct H2 as (?&_&?)]. destruct H2 as (bl'&H2&_). cbn [check_step] in H2.
  destruct H2 as (_&r&->&H3&H4). exists mv, os1, bl, r. done.
Qed.

Lemma check_maxes F ow mv ops os bl i j n p v : check F ow mv ops os bl ->
  ops !! i = Some OMax -> os !! i = Some (ObNum v) ->
  ops !! j = Some (OAlloc n) -> os !! j = Some (ObPtr p) -> p <> 0 -> n <= v.
Proof.
  intros H Hi Hv Hj Hp Hp0.
  assert (Hmv : mv = Some v).
  { clear Hj Hp. revert os bl i H Hi Hv. induction ops as [|o ops IH]; intros [|ob os] bl i H Hi Hv; try done.
    destruct H as (bl'&H1&H2). destruct i as [|i].
    - injection Hi as ->. injection Hv as ->. destruct H1 as [_ H1]. by apply H1.
    - by eapply (IH os bl' i). }
  clear Hi Hv. revert os bl j H Hj Hp. induction ops as [|o ops IH]; intros [|ob os] bl j H Hj Hp; try done.
  destruct H as (bl'&H1&H2). destruct j as [|j].
  - injection Hj as ->. injection Hp as ->. destruct H1 as (q&[= <-]&[[? _]|(_&_&_&H1&_)]); [done|]. by apply H1.
  - by eapply (IH os bl' j).
Qed.

Lemma tree_max pl e b ops w os w' evs i j n p v :
  pl <> PPosix -> wf e = true -> place b (esize e) w -> asks (ereq pl e) ops ->
  session (den pl e) b (eready_now pl e) ops w = Ok os w' evs ->
  ops !! i = Some OMax -> os !! i = Some (ObNum v) ->
  ops !! j = Some (OAlloc n) -> os !! j = Some (ObPtr p) -> v < n -> p = 0.
Proof.
  intros Hpl Hwf Hp Ha Hs Hi Hv Hj Hq Hn.
  pose proof (tree_strict pl e b ops w Hpl Hwf Hp Ha) as H.
  unfold session_strict in H. rewrite Hs in H. destruct H as (_&(mv&_&H)&_).
  destruct (decide (p = 0)); [done|]. pose proof (check_maxes _ _ _ _ _ _ _ _ _ _ _ H Hi Hv Hj Hq). lia.
Qed.

Lemma tree_owns pl e b ops q w os w' evs :
  pl <> PPosix -> wf e = true -> eowns e = true -> place b (esize e) w -> asks (ereq pl e) ops ->
  session (den pl e) b (eready_now pl e) (ops ++ [OOwns q]) w = Ok os w' evs ->
  exists mv os1 bl r, os = os1 ++ [ObBool r] /\
    checks (elsewhere b (esize e) w) true mv ops os1 [] bl /\
    (Exists (in_block q) bl -> r = true) /\ (elsewhere b (esize e) w q -> r = false).
Proof.
  intros Hpl Hwf Ho Hp Ha Hs.
  assert (He : existsb is_fail evs = false).
  { pose proof (session_firm _ (tree_firm pl e Hpl Hwf) b (eready_now pl e) (ops ++ [OOwns q]) w) as Hf. by rewrite Hs in Hf. }
  rewrite -(den_size pl e). eapply session_owns; [|by apply den_owns|exact Hs|exact He].
  apply tree_session; try done. unfold asks, requests in *. rewrite flat_map_app. cbn [flat_map app]. by rewrite app_nil_r.
Qed.

(** * C30 *)
Lemma linear_attains Size b s n w :
  reachable (linear_allocator Size) (fun n => n + 15 + Size <? W) b s [] \/
  reachable (stack_allocator Size) (fun n => n + 15 + Size <? W) b s [] ->
  Size + 15 + Size < W -> Size mod 16 = 0 -> n <= Size ->
  exists s', lin_alloc Size b s n w = Ok (b, s') w [].
Proof.
  intros H H1 H2 H3. pose proof (align_least n) as Hl. destruct (lin_capacity Size b s n _ w H ltac:(lia) Hl) as [s' Hs].
  exists s'. rewrite Hs. destruct (N.leb_spec (n + align_to_architecture n) Size) as [|Hbad]; [done|]. exfalso.
  destruct (align_least n) as [Ha1 Ha2]. specialize (Ha2 (Size - n)).
  assert (align_to_architecture n <= Size - n); [|lia]. apply Ha2. replace (n + (Size - n)) with Size by lia. by apply (N.mod_divide Size 16).
Qed.

Lemma max_unattained : exists w, place 4096 32 w /\ outcome (ask_max (linear_allocator 20) 4096 w) = Some ((20, 0), []).
Proof. exists (w_raw 32). split; [by apply (w_raw_place 32)|by vm_compute]. Qed.

Lemma max_unattained_seg : exists w, place 4096 80 w /\
  outcome (ask_max (segragator (linear_allocator 64) (linear_allocator 16) 16) 4096 w) = Some ((64, 0), []).
Proof. exists (w_raw 80). split; [by apply (w_raw_place 80)|by vm_compute]. Qed.

(** * C31 *)
Lemma ta_exact sz A b s n p : sz * n < W ->
  ta_alloc sz A b s n = a_alloc A b s (sz * n) /\ ta_free sz A b s p n = a_free A b s p (sz * n).
Proof. intros H. unfold ta_alloc, ta_free, mul64, w64. by rewrite N.mod_small. Qed.

Lemma ta_max_fits sz A b s mx w v w' e n : sz <> 0 -> a_max A = Some mx -> mx b s w = Ok v w' e ->
  exists tmx, ta_max sz A = Some tmx /\ exists k, tmx b s w = Ok k w' e /\ (n <= k <-> sz * n <= v).
Proof.
  intros Hs Hm Hv. unfold ta_max. rewrite Hm. eexists. split; [done|]. exists (v / sz). unfold bind, ret. rewrite Hv.
  rewrite app_nil_r. split; [done|]. split.
  - intros H. apply (N.mul_le_mono_l _ _ sz) in H. pose proof (N.mul_div_le v sz Hs). lia.
  - intros H. by apply N.div_le_lower_bound.
Qed.

Lemma ta_wraps : exists sz n w p w' s', n < W /\
  ta_alloc sz (mallocator PMalloc) 4096 tt n w = Ok (p, s') w' [] /\ p <> 0 /\
  mem (st w') !! (p + sz) = None /\ sz < sz * n.
Proof. exists 16, (2 ^ 60 + 1), (w_raw 0). do 3 eexists. split_and!; try (vm_compute; reflexivity). done. Qed.

(** * C54 *)
Lemma tree_asserts pl e b ops w :
  pl <> PPosix -> wf e = true -> no_cascading e = true -> place b (esize e) w -> asks (ereq pl e) ops ->
  match session (den pl e) b (eready_now pl e) ops w with
  | Ok _ _ evs => Forall (fun ev => forall t, ev <> EvAssert t) evs
  | Err _ evs => starved evs = true
  end.
Proof.
  intros Hpl Hwf Hc Hp Ha.
  pose proof (tree_strict pl e b ops w Hpl Hwf Hp Ha) as H.
  pose proof (session_quiet _ (eready_now pl e) b ops (tree_quiet pl e Hc) w) as Hq.
  unfold session_strict in H. destruct (session _ _ _ _ _) as [os w' evs|u evs]; [|apply H].
  destruct H as (H&_). cbn [evs_of] in Hq.
  clear -H Hq. induction evs as [|ev evs IH]; [constructor|]. cbn [forallb existsb] in *.
  apply andb_true_iff in H as [H1 H2]. apply orb_false_iff in Hq as [H3 H4]. constructor; [|by apply IH].
  intros t ->. by destruct t.
Qed.

Lemma release_asserts :
  let e := ECascading (ELinear 20) in
  exists ops w, asks (ereq PMalloc e) ops /\ wf e = true /\ place 4096 (esize e) w /\
  outcome (session (den PMalloc e) 4096 (eready_now PMalloc e) ops w) = Some ([ObPtr 0], [EvAssert ARelease]).
Proof.
  exists [OAlloc 20], (w_raw 0). split_and!.
  - repeat constructor.
  - by vm_compute.
  - by apply (w_raw_place 0).
  - by vm_compute.
Qed.

(** * C55 *)
Lemma move_assign_keeps_count : exists Size b s rhs ops os1 os2,
  (exists w0, place b Size w0 /\
    outcome ((s0 <- a_init (linear_allocator Size) b ;; a_alloc (linear_allocator Size) b s0 16) w0) = Some ((b, s), [])) /\
  l_cnt rhs = 0 /\
  (forall w, answers ((a <- lin_move_assign b s rhs ;; run (linear_allocator Size) b never ops a []) w) = Some os1) /\
  (forall w, answers (run (linear_allocator Size) b never ops (Lin b 0) [] w) = Some os2) /\
  os1 <> os2.
Proof.
  exists 32, 4096, (Lin 4112 16), (Lin 8192 0), [OAlloc 16; OAlloc 16; OFree 1; OFree 0; OAlloc 32],
    [ObPtr 4096; ObPtr 4112; ObUnit; ObUnit; ObPtr 0], [ObPtr 4096; ObPtr 4112; ObUnit; ObUnit; ObPtr 4096]. split_and!.
  - exists (w_raw 32). split; [by apply (w_raw_place 32)|by vm_compute].
  - done.
  - intros w. by vm_compute.
  - intros w. by vm_compute.
  - done.
Qed.

Lemma move_assign_empty b s rhs w : l_cnt s = 0 -> l_cnt rhs = 0 -> lin_move_assign b s rhs w = Ok (Lin b 0) w [].
Proof. intros H1 H2. unfold lin_move_assign. by rewrite H1 H2. Qed.

Lemma move_ctor_fresh Size b rhs w : l_cnt rhs = 0 -> lin_move_ctor Size b rhs w = lin_init Size b w.
Proof.
  intros H. unfold lin_move_ctor. rewrite H. cbn [N.eqb ktl_assert]. unfold bind, ret.
  destruct (lin_init Size b w); [|done]. cbn [app]. by rewrite app_nil_r.
Qed.

(** * C56 *)
Lemma copy_reports_twice : exists w, outcome (copied_overflow w) = Some (0%nat, [EvLeak 16]).
Proof. exists (w_raw 0). by vm_compute. Qed.

Lemma copy_balanced A mv (s : ov A) b w : o_allocs s = 0%Z -> o_cons s = 0%Z ->
  a_dtor (overflow A) b (fst (ov_copy mv s)) w = a_dtor A b (fst (mv (o_in s))) w /\
  a_dtor (overflow A) b (snd (ov_copy mv s)) w = a_dtor A b (snd (mv (o_in s))) w.
Proof.
  intros H1 H2. unfold ov_copy. cbn [overflow a_dtor fst snd]. unfold ov_dtor. cbn [o_allocs o_cons o_in].
  rewrite H1 H2. cbn [Z.eqb]. by rewrite !bind_ret.
Qed.

(** * Remaining statements, in the vocabulary of the properties *)
Lemma mallocator_sessions pl b ops w : pl <> PPosix -> place b 0 w ->
  asks (fun n => match pl with PGeneric => n + 16 <? W | _ => true end) ops ->
  session_ok nobad (mallocator pl) (fun _ _ => true) b ops w.
Proof. intros Hpl Hp Ha. by apply (tree_session nobad pl EMalloc). Qed.

Lemma range_false Min Max n : ~ (Min < n <= Max) -> fl_range Min Max n = false.
Proof. intros H. unfold fl_range. lia. Qed.
Lemma range_true Min Max n : Min < n <= Max -> fl_range Min Max n = true.
Proof. intros H. unfold fl_range. lia. Qed.

Lemma freelist_refuses Min Max A b s n w : ~ (Min < n <= Max) ->
  a_alloc (freelist Min Max A) b s n w = Ok (0, s) w [].
Proof. intros H. by apply fl_out_of_range, range_false. Qed.

Lemma freelist_reuses Min Max A b (s : fl A) p n m w : p <> 0 -> f_head s < W -> Min < n <= Max -> Min < m <= Max ->
  (forall i, p <= i < p + 8 -> is_Some (mem (st w) !! i)) ->
  exists s1 w1, a_free (freelist Min Max A) b s p n w = Ok s1 w1 [] /\
    a_alloc (freelist Min Max A) b s1 m w1 = Ok (p, s) w1 [].
Proof.
  intros Hp Hh Hn Hm Hi. apply range_true in Hn, Hm.
  destruct (fl_reuse Min Max A b s p n m w Hp Hh Hn Hm Hi) as (w1&H1&H2). by eexists _, w1.
Qed.

Lemma max_size_defined pl e b ops w : pl <> PPosix -> wf e = true -> eready e = true ->
  place b (esize e) w -> asks (ereq pl e) ops ->
  session_strict (eboxed e) (den pl e) (fun _ _ => true) b ops w.
Proof.
  intros Hpl Hwf Hr Hp Ha. apply strict; [by apply tree_firm|].
  destruct (tree_contract (fun ev => eboxed e && is_fail ev) pl e Hpl Hwf) as [C HC]; [by intros ->|].
  apply (client_safe _ (den pl e) (ereq pl e) C); [|by rewrite den_size|done].
  intros Hm b' s' _. apply HC; [done|]. by apply eready_always.
Qed.

Lemma every_composition pl e b ops w :
  pl <> PPosix -> wf e = true -> place b (esize e) w -> asks (ereq pl e) ops ->
  session_strict (eboxed e) (den pl e) (eready_now pl e) b ops w.
Proof. exact (tree_strict pl e b ops w). Qed.
