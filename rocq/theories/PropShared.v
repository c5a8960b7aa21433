(** Property theorems C32-C37: shared handles, threads, global. *)
From Verif Require Import Base Mem Bits AlignedMalloc Allocators Tree Client
  AllocSpec Shared SharedProofs SharedSafe Threads ThreadsProofs ThreadsSafe Global.

(** * C32 *)

(** Counting handles is the same as shared ownership: same results, same memory, same events, and
    a block exists exactly as long as a handle refers to it. *)
Theorem C32_shared_exact :
  forall pl A ready ops w, N.of_nat (length ops) < W ->
  same (fun x y => fst x = fst y /\ agree (snd x) (snd y)) (hrun pl A ready ops pool0 w) (srun pl A ready ops family0 w).
Proof. exact shared_exact. Qed.
Print Assumptions C32_shared_exact.

(** For every composition [e] of allocators: no undefined behaviour, no foreign memory touched,
    nothing left once the last handle is gone. *)
Theorem C32_shared_safe :
  forall pl e ops w,
  pl <> PPosix -> wf (EShared e) = true -> N.of_nat (length ops) < W ->
  Forall (fun n => ereq pl e n = true /\ n < W) (hrequests ops) ->
  match hrun pl (den pl e) (eready_now pl e) ops pool0 w with
  | Ok (_, q) w' evs =>
    forallb benign evs = true /\
    (forall i c, mem (st w) !! i = Some c -> mem (st w') !! i = Some c) /\
    (p_hs q = ∅ -> st w' = st w)
  | Err u evs => u = UBNull /\ starved evs = true
  end.
Proof. exact shared_tree_safe. Qed.
Print Assumptions C32_shared_safe.

(** Two groups, copies, moves, assignments; a block obtained through one handle is returned
    through another one. *)
Definition C32_program : list hop :=
  [HNew 0; HCopy 1 0; HUse 0 (OAlloc 8); HUse 1 (OAlloc 8); HNew 2; HUse 2 (OAlloc 8); HUse 2 (OFree 0);
   HAssign 2 1; HDestroy 0; HUse 2 (OFree 1); HMove 3 1; HMoveAssign 2 3; HUse 2 (OFree 0); HDestroy 2; HDestroy 1; HDestroy 3].

Example C32_example :
  outcome ((' (os, q) <- hrun PMalloc (den PMalloc (ELinear 64)) (fun _ _ => true) C32_program pool0 ;;
            h <- heap_blocks ;; ret (os, (map_to_list (p_hs q), h))) (w_raw 0)) =
  Some ([ObUnit; ObUnit; ObPtr 65536; ObPtr 65552; ObUnit; ObPtr 131072; ObUnit; ObUnit; ObUnit; ObUnit; ObUnit; ObUnit; ObUnit;
         ObUnit; ObUnit; ObUnit], ([], 0%nat), []) /\
  wf (EShared (ELinear 64)) = true /\
  forallb (fun n => ereq PMalloc (ELinear 64) n && (n <? W)) (hrequests C32_program) = true.
Proof. by vm_compute. Qed.

(** * C33 *)
Theorem C33_self_assign_refuted :
  exists w, crash ((' (_, q) <- hrun PMalloc (mallocator PMalloc) (fun _ _ => true) [HNew 0] pool0 ;;
                    hstep PMalloc (mallocator PMalloc) (fun _ _ => true) (HAssign 0 0) q) w) = Some UBLifetime /\
    crash ((' (_, q) <- hrun PMalloc (mallocator PMalloc) (fun _ _ => true) [HNew 0] pool0 ;;
            hstep PMalloc (mallocator PMalloc) (fun _ _ => true) (HUse 0 (OAlloc 8)) q) w) = None.
Proof. exact self_assign_crashes. Qed.
Print Assumptions C33_self_assign_refuted.

(** With a second handle to the same block self-assignment has no effect. *)
Theorem C33_self_assign_counted :
  forall pl A ready ops os q h h' g w w' e w1,
  N.of_nat (length ops) < W -> hrun pl A ready ops pool0 w = Ok (os, q) w' e ->
  p_hs q !! h = Some (Some g) -> h' <> h -> p_hs q !! h' = Some (Some g) ->
  hstep pl A ready (HAssign h h) q w1 = Ok (ObUnit, q) w1 [].
Proof. exact self_assign_shared. Qed.
Print Assumptions C33_self_assign_counted.

Example C33_example :
  outcome ((' (_, q) <- hrun PMalloc (mallocator PMalloc) (fun _ _ => true) [HNew 0; HCopy 1 0] pool0 ;;
            ' (ob, q') <- hstep PMalloc (mallocator PMalloc) (fun _ _ => true) (HAssign 0 0) q ;;
            ret (ob, (map_to_list (p_hs q), map (fun x => k_cnt (snd x)) (map_to_list (p_bk q))),
                 (map_to_list (p_hs q'), map (fun x => k_cnt (snd x)) (map_to_list (p_bk q'))))) (w_raw 0)) =
  Some (ObUnit, ([(0%nat, Some 0%nat); (1%nat, Some 0%nat)], [2]), ([(0%nat, Some 0%nat); (1%nat, Some 0%nat)], [2]), []).
Proof. by vm_compute. Qed.

(** * C34 *)

(** std::atomic with acquire and release (shared.h:196, 204): for every number of threads and every
    schedule no access to a dead block, at most one deletion, only after the last handle is gone
    and ordered after all uses of the allocator; and when all is quiet the block is gone. *)
Theorem C34_atomic_shared :
  forall n l, N.of_nat (length l) + 1 < W ->
  let c := csched true true true l (cstart n) in
  cc_bad c = false /\ cc_race c = false /\ (cc_deleted c <= 1)%nat /\
  (cc_deleted c = 1%nat -> handles c = 0%nat) /\
  (handles c = 0%nat -> settled c -> cc_deleted c = 1%nat).
Proof. exact counter_safe. Qed.
Print Assumptions C34_atomic_shared.

Example C34_example :
  let c := csched true true true
    [(0, ACopy 0); (0, AGive 1); (1, ACopy 0); (1, AUse); (0, ADrop); (1, AUse); (1, ADrop); (1, ADrop); (1, AGo)]%nat (cstart 2) in
  handles c = 0%nat /\ cc_deleted c = 1%nat /\ cc_uses c = 2%nat /\ cc_bad c = false /\ cc_race c = false.
Proof. by vm_compute. Qed.

(** The same with notomic: blocks are leaked ... *)
Theorem C34_notomic_leak_refuted :
  exists n l, let c := csched false true true l (cstart n) in
    handles c = 0%nat /\ settled c /\ cc_deleted c = 0%nat.
Proof. exact notomic_leaks. Qed.
Print Assumptions C34_notomic_leak_refuted.

(** ... or used after they were deleted. *)
Theorem C34_notomic_dangle_refuted :
  exists n l, let c := csched false true true l (cstart n) in
    (0 < handles c)%nat /\ cc_deleted c = 1%nat /\ cc_bad c = true.
Proof. exact notomic_dangles. Qed.
Print Assumptions C34_notomic_dangle_refuted.

(** Both halves of the memory order are needed. *)
Theorem C34_relaxed_refuted :
  exists n l, cc_race (csched true false true l (cstart n)) = true /\ cc_race (csched true true false l (cstart n)) = true.
Proof. exact relaxed_races. Qed.
Print Assumptions C34_relaxed_refuted.

(** * C35 *)

(** Calls that hold the lock (or that do not touch the state at all), executed in steps of any
    granularity under any schedule: results and state are those of the calls one after the other
    in the order in which they began. *)
Theorem C35_mutex_linear :
  forall St C R (body : C -> act St R) (locked : C -> bool) s0 progs l,
  Forall (Forall (fun k => locked k = true \/ exists r, body k = Done r)) progs ->
  let c := msched body locked l (mstart s0 progs) in
  let '(s, rs) := sequential (fun k => eval (body k)) (mc_hist c) s0 in
  (mc_lock c = None -> mc_st c = s) /\
  forall t p, progs !! t = Some p -> exists x, mc_ths c !! t = Some x /\
    p = of_thread t (mc_hist c) ++ mt_todo x /\
    mt_res x `prefix_of` of_thread t rs /\ (mt_cur x = None -> mt_res x = of_thread t rs).
Proof. exact @mutex_linear. Qed.
Print Assumptions C35_mutex_linear.

(** A thread that cannot move has finished or waits for one that can; every execution can be
    completed. *)
Theorem C35_no_deadlock :
  forall St C R (body : C -> act St R) (locked : C -> bool) s0 progs l,
  Forall (Forall (fun k => locked k = true \/ exists r, body k = Done r)) progs ->
  let c := msched body locked l (mstart s0 progs) in
  (forall t x, mc_ths c !! t = Some x -> mstep body locked t c = None ->
    (mt_todo x = [] /\ mt_cur x = None) \/ exists t', mc_lock c = Some t' /\ is_Some (mstep body locked t' c)) /\
  exists l', finished (msched body locked (l ++ l') (mstart s0 progs)).
Proof. exact @mutex_progress. Qed.
Print Assumptions C35_no_deadlock.

(** threaded<e> for every composition [e]: any number of threads allocate and return blocks. *)
Theorem C35_threaded :
  forall pl e b w s0 w0 e0 body progs l,
  let A := den pl (EThreaded e) in
  let ready := eready_now pl (EThreaded e) in
  pl <> PPosix -> wf e = true -> place b (esize e) w ->
  Forall (asks (ereq pl e)) progs ->
  Forall (Forall (fun o => (exists n, o = OAlloc n) \/ exists i, o = OFree i)) progs ->
  faithful A b ready body ->
  a_init A b w = Ok s0 w0 e0 ->
  let c := msched body tlocked l (mstart (TRun w0 s0 [] []) progs) in
  finished c ->
  interleaves progs (mc_hist c) /\
  session_strict (eboxed e) A ready b (map snd (mc_hist c)) w /\
  match mc_st c with
  | TRun w' s' bl' evs =>
    exists os, run A b ready (map snd (mc_hist c)) s0 [] w0 = Ok (os, (s', bl')) w' evs /\
      forall t x, mc_ths c !! t = Some x -> mt_res x = of_thread t (zip (map fst (mc_hist c)) os)
  | TStop u evs => eboxed e = true /\ u = UBNull /\ starved (e0 ++ evs) = true
  end.
Proof. exact threaded_tree. Qed.
Print Assumptions C35_threaded.

(** Two threads on threaded<overflow<mallocator>>, interleaved. *)
Example C35_example :
  let body := split_body 4096 (fun _ _ => true) in
  let c := msched body tlocked [0; 1; 0; 1; 1; 0; 1; 0; 1; 0; 0; 1; 1; 0; 0; 0; 0; 1; 1; 1; 1; 1; 0; 0; 0; 0]%nat
             (mstart (TRun (w_raw 0) (Ov (A := mallocator PMalloc) tt 0 0 : a_st ov_heap) [] []) [[OAlloc 8; OFree 0]; [OAlloc 16; OFree 0]]) in
  (forallb (fun x => match mt_todo x, mt_cur x with [], None => true | _, _ => false end) (mc_ths c), map mt_res (mc_ths c),
   mc_hist c, match mc_st c with TRun _ s bl evs => Some (o_allocs s, bl, evs) | _ => None end) =
  (true, [[ObPtr 65600; ObUnit]; [ObPtr 131136; ObUnit]],
   [(0%nat, OAlloc 8); (1%nat, OAlloc 16); (1%nat, OFree 0); (0%nat, OFree 0)], Some (0%Z, [], [])).
Proof. by vm_compute. Qed.

(** * C36 *)

(** construct on threaded<overflow<mallocator>> by two threads at once: m_Constructs is 1
    afterwards, whereas one after the other they leave 2. *)
Theorem C36_construct_refuted :
  exists body l, faithful ov_heap 4096 (fun _ _ => true) body /\
    let c := msched body tlocked l (mstart race_start race_progs) in
    finished c /\ constructs (mc_st c) = Some 1%Z /\
    forall h, interleaves race_progs h ->
      constructs (fst (sequential (tcall ov_heap 4096 (fun _ _ => true)) h race_start)) = Some 2%Z.
Proof. exact construct_races. Qed.
Print Assumptions C36_construct_refuted.

(** * C37 *)

(** Any number of instances behave like one allocator. *)
Theorem C37_global_one :
  forall A b ready ops s bl w,
  match grun A b ready ops s bl w, run A b ready (calls ops) s bl w with
  | Ok (os, fin) w' e, Ok (os', fin') w'' e' => seen ops os = os' /\ fin = fin' /\ w' = w'' /\ e = e'
  | Err u e, Err u' e' => u = u' /\ e = e'
  | _, _ => False
  end.
Proof. exact global_one. Qed.
Print Assumptions C37_global_one.

Example C37_example :
  outcome ((' (os, (s, bl)) <- grun (linear_allocator 64) 4096 (fun _ _ => true)
              [GNew 0; GUse 0 (OAlloc 8); GCopy 1 0; GUse 1 (OAlloc 8); GDestroy 0; GUse 1 (OFree 1); GUse 1 (OFree 0)] (Lin 4096 0) [] ;; ret (os, bl)) (w_raw 128)) =
  Some ([ObUnit; ObPtr 4096; ObUnit; ObPtr 4112; ObUnit; ObUnit; ObUnit], [], []).
Proof. by vm_compute. Qed.

(** a == b and a != b hold at the same time. *)
Theorem C37_compare_refuted :
  exists A b ready s w i j,
    outcome ((' (os, _) <- grun A b ready [GEqual i j; GUnequal i j] s [] ;; ret os) w) = Some ([ObBool true; ObBool true], []).
Proof. exact global_compare. Qed.
Print Assumptions C37_compare_refuted.
