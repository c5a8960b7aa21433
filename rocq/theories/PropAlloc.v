(** Property theorems C07-C31, C38, C54-C56: allocators. *)
From Verif Require Import Base Mem Bits BitsProofs AlignedMalloc Allocators Checked Tree Client Moves
  Contract PairProofs FreelistProofs OverflowProofs CascadingProofs NodeProofs CheckedProofs
  AllocSpec AllocFacts LinearFacts MallocFacts OverflowFacts MiscFacts ClientProofs SessionProofs QuietProofs AllocProofs.

(** * C07 *)
Theorem C07_aligned_malloc_block :
  forall pl n w, pl <> PPosix -> (pl = PGeneric -> n + 16 < W) -> mem (st w) !! 0 = None ->
  match aligned_malloc pl n 16 w with
  | Ok p w' evs =>
    forallb benign evs = true /\
    (forall i c, mem (st w) !! i = Some c -> mem (st w') !! i = Some c) /\
    (p <> 0 -> p mod 16 = 0 /\ p + n < W /\
      forall i, p <= i < p + n -> mem (st w) !! i = None /\ exists c, mem (st w') !! i = Some c /\ dead c)
  | Err _ _ => False
  end.
Proof. exact aligned_malloc_block. Qed.
Print Assumptions C07_aligned_malloc_block.

(** Allocate, write anything, free: exactly the previous heap and memory. *)
Theorem C07_aligned_free_exact :
  forall pl n cs w, pl <> PPosix -> (pl = PGeneric -> n + 16 < W) -> N.of_nat (length cs) = n ->
  match malloc_cycle pl n cs w with
  | Ok _ w' evs => forallb benign evs = true /\ st w' = st w
  | Err _ _ => False
  end.
Proof. exact malloc_cycle_exact. Qed.
Print Assumptions C07_aligned_free_exact.

Example C07_example :
  outcome (malloc_cycle PGeneric 24 (repeat (Byte 7) 24) (w_raw 0)) = Some (65552, []) /\
  outcome (malloc_cycle PMalloc 24 (repeat (Byte 7) 24) (w_raw 0)) = Some (65536, []).
Proof. by vm_compute. Qed.

(** The POSIX branch passes size and alignment in the wrong order: 64 bytes are requested,
    the block has 16. *)
Theorem C07_posix_refuted :
  exists n w p w', mem (st w) !! 0 = None /\ aligned_malloc PPosix n 16 w = Ok p w' [] /\ p <> 0 /\
    mem (st w') !! (p + n - 1) = None.
Proof. exact posix_too_small. Qed.
Print Assumptions C07_posix_refuted.

(** ... and most sizes are refused outright although malloc could serve them. *)
Theorem C07_posix_refuses_refuted :
  exists n, forall w, outcome (aligned_malloc PPosix n 16 w) = Some (0, []).
Proof. exact posix_refuses. Qed.
Print Assumptions C07_posix_refuses_refuted.

(** The generic branch wraps around for sizes close to 2^64 and then writes outside the block. *)
Theorem C07_generic_wrap_refuted :
  exists n w, n < W /\ mem (st w) !! 0 = None /\ crash (aligned_malloc PGeneric n 16 w) = Some UBAccess.
Proof. exact generic_wraps. Qed.
Print Assumptions C07_generic_wrap_refuted.

(** * C08 *)
Theorem C08_linear_layout :
  forall Size b s bl,
  reachable (linear_allocator Size) (fun n => n + 15 + Size <? W) b s bl \/
  reachable (stack_allocator Size) (fun n => n + 15 + Size <? W) b s bl ->
  Forall (fun x => b <= fst x /\ fst x + snd x <= b + Size /\ fst x mod 16 = 0) bl /\ all_apart bl.
Proof. exact lin_layout_reach. Qed.
Print Assumptions C08_linear_layout.

(** Contents of the blocks, and everything else a program can see. *)
Theorem C08_linear_sessions :
  forall pl Size b ops w, pl <> PPosix -> Size < W ->
  place b (Size + align_to_architecture Size) w -> asks (fun n => n + 15 + Size <? W) ops ->
  session_ok nobad (linear_allocator Size) (fun _ _ => true) b ops w /\
  session_ok nobad (stack_allocator Size) (fun _ _ => true) b ops w.
Proof. exact lin_sessions. Qed.
Print Assumptions C08_linear_sessions.

Example C08_example :
  let ops := [OAlloc 5; OAlloc 16; OWrite 0 15 7; OWrite 1 4 9; OFree 1; ORead 0 15; OAlloc 64; OAlloc 40] in
  asks (fun n => n + 15 + 96 <? W) ops /\
  outcome (session (linear_allocator 96) 4096 (fun _ _ => true) ops (w_raw 96)) =
    Some ([ObPtr 4096; ObPtr 4112; ObUnit; ObUnit; ObUnit; ObByte (Some 7); ObPtr 4128; ObPtr 0], []).
Proof. split; [repeat constructor|by vm_compute]. Qed.

(** * C09 *)
Theorem C09_full_capacity :
  forall Size b s n pad w,
  reachable (linear_allocator Size) (fun n => n + 15 + Size <? W) b s [] \/
  reachable (stack_allocator Size) (fun n => n + 15 + Size <? W) b s [] ->
  n + 15 + Size < W -> least_padding 16 n pad ->
  exists s', lin_alloc Size b s n w = Ok (if n + pad <=? Size then b else 0, s') w [].
Proof. exact lin_capacity. Qed.
Print Assumptions C09_full_capacity.

(** Three blocks given back in the order of allocation; then the whole buffer is free. *)
Example C09_example :
  outcome (session (linear_allocator 96) 4096 (fun _ _ => true)
    [OAlloc 16; OAlloc 16; OAlloc 16; OFree 2; OFree 1; OFree 0; OAlloc 90] (w_raw 96)) =
    Some ([ObPtr 4096; ObPtr 4112; ObPtr 4128; ObUnit; ObUnit; ObUnit; ObPtr 4096], []).
Proof. by vm_compute. Qed.

(** * C10 *)
Theorem C10_undo :
  forall Size b s bl n w p s' w' e,
  reachable (linear_allocator Size) (fun n => n + 15 + Size <? W) b s bl -> n + 15 + Size < W ->
  a_alloc (linear_allocator Size) b s n w = Ok (p, s') w' e -> p <> 0 ->
  a_free (linear_allocator Size) b s' p n w' = Ok s w [].
Proof. exact linear_undo. Qed.
Print Assumptions C10_undo.

Theorem C10_undo_stack :
  forall Size b s bl n w p s' w' e,
  reachable (stack_allocator Size) (fun n => n + 15 + Size <? W) b s bl -> n + 15 + Size < W ->
  a_alloc (stack_allocator Size) b s n w = Ok (p, s') w' e -> p <> 0 ->
  a_free (stack_allocator Size) b s' p n w' = Ok s w [].
Proof. exact stack_undo. Qed.
Print Assumptions C10_undo_stack.

Example C10_example :
  outcome (session (linear_allocator 96) 4096 (fun _ _ => true)
    [OAlloc 16; OAlloc 5; OFree 0; OAlloc 30] (w_raw 96)) =
    Some ([ObPtr 4096; ObPtr 4112; ObUnit; ObPtr 4112], []).
Proof. by vm_compute. Qed.

(** * C11 *)
Theorem C11_oversized :
  forall Size b s bl n w,
  reachable (linear_allocator Size) (fun n => n + 15 + Size <? W) b s bl \/
  reachable (stack_allocator Size) (fun n => n + 15 + Size <? W) b s bl ->
  n + 15 + Size < W -> Size < n -> lin_alloc Size b s n w = Ok (0, s) w [].
Proof. exact lin_oversized. Qed.
Print Assumptions C11_oversized.

Example C11_example :
  outcome (session (linear_allocator 96) 4096 (fun _ _ => true)
    [OAlloc 97; OAlloc (W - 112); OAlloc 16; OAlloc 97] (w_raw 96)) =
    Some ([ObPtr 0; ObPtr 0; ObPtr 4096; ObPtr 0], []).
Proof. by vm_compute. Qed.

(** A request close to 2^64 wraps around to a small one and is "served". *)
Theorem C11_oversized_refuted :
  exists Size b n w ops, Size < n /\ n < W /\ place b (Size + align_to_architecture Size) w /\
  outcome (session (linear_allocator Size) b (fun _ _ => true) (ops ++ [OAlloc n]) w) = Some ([ObPtr b], []).
Proof. exact oversized_served. Qed.
Print Assumptions C11_oversized_refuted.

(** ... after which two outstanding blocks overlap. *)
Theorem C11_overlap_refuted :
  exists Size b n w p q, Size < n /\ n < W /\ place b (Size + align_to_architecture Size) w /\
  outcome (session (linear_allocator Size) b (fun _ _ => true) [OAlloc 32; OAlloc n; OAlloc 32] w) =
    Some ([ObPtr p; ObPtr (p + 32); ObPtr q], []) /\ p <= q < p + 32.
Proof. exact oversized_overlap. Qed.
Print Assumptions C11_overlap_refuted.

(** * C12 *)
Theorem C12_mallocator :
  forall pl b ops w, pl <> PPosix -> place b 0 w ->
  asks (fun n => match pl with PGeneric => n + 16 <? W | _ => true end) ops ->
  session_ok nobad (mallocator pl) (fun _ _ => true) b ops w.
Proof. exact mallocator_sessions. Qed.
Print Assumptions C12_mallocator.

Example C12_example :
  outcome (session (mallocator PGeneric) 4096 (fun _ _ => true)
    [OAlloc 5; OAlloc 0; OAlloc 16; OWrite 2 4 9; OFree 0; ORead 1 4; OFree 1] (w_raw 0)) =
    Some ([ObPtr 65552; ObPtr 131088; ObPtr 196624; ObUnit; ObUnit; ObByte (Some 9); ObUnit], []).
Proof. by vm_compute. Qed.

(** * C13, C15

    The inner allocator is watched by [checked] (Checked.v): a block that is given back twice,
    with a different size, or not at all before the destructor of the inner allocator is an
    error, and sessions have none. *)
Theorem C13_C15_freelist :
  forall bad A req (CA : contract bad A req) Min Max b ops w,
  8 <= Max -> Max < W -> place b (a_size A) w ->
  asks (fun n => negb ((Min <? n) && (n <=? Max)) || req Max) ops ->
  session_ok bad (freelist Min Max (checked A)) (fun _ _ => false) b ops w.
Proof. exact freelist_sessions. Qed.
Print Assumptions C13_C15_freelist.

Theorem C13_freelist_refuses :
  forall Min Max A b s n w, ~ (Min < n <= Max) ->
  a_alloc (freelist Min Max A) b s n w = Ok (0, s) w [].
Proof. exact freelist_refuses. Qed.
Print Assumptions C13_freelist_refuses.

Example C13_example :
  outcome (session (freelist 8 32 (checked (linear_allocator 96))) 4096 (fun _ _ => false)
    [OAlloc 20; OAlloc 32; OAlloc 8; OWrite 0 0 7; OFree 1; ORead 0 0; OAlloc 9; OFree 0; OFree 0] (w_raw 96)) =
    Some ([ObPtr 4096; ObPtr 4128; ObPtr 0; ObUnit; ObUnit; ObByte (Some 7); ObPtr 4096; ObUnit; ObUnit], []).
Proof. by vm_compute. Qed.

(** * C14 *)
Theorem C14_freelist_reuses :
  forall Min Max A b (s : fl A) p n m w, p <> 0 -> f_head s < W -> Min < n <= Max -> Min < m <= Max ->
  (forall i, p <= i < p + 8 -> is_Some (mem (st w) !! i)) ->
  exists s1 w1, a_free (freelist Min Max A) b s p n w = Ok s1 w1 [] /\
    a_alloc (freelist Min Max A) b s1 m w1 = Ok (p, s) w1 [].
Proof. exact freelist_reuses. Qed.
Print Assumptions C14_freelist_reuses.

(** As long as a cached block exists the inner allocator is not called. *)
Theorem C14_inner_idle :
  forall Min Max A b (s : fl A) n w p s' w' e, f_head s <> 0 ->
  a_alloc (freelist Min Max A) b s n w = Ok (p, s') w' e ->
  f_in s' = f_in s /\ st w' = st w /\ (p = f_head s \/ p = 0).
Proof. exact fl_inner_idle. Qed.
Print Assumptions C14_inner_idle.

Example C14_example :
  outcome (session (freelist 8 32 (linear_allocator 96)) 4096 (fun _ _ => false)
    [OAlloc 20; OAlloc 32; OFree 1; OAlloc 9; OFree 1; OFree 0; OAlloc 32; OAlloc 32; OAlloc 30] (w_raw 96)) =
    Some ([ObPtr 4096; ObPtr 4128; ObUnit; ObPtr 4096; ObUnit; ObUnit; ObPtr 4096; ObPtr 4128; ObPtr 4160], []).
Proof. by vm_compute. Qed.

(** * C16 *)
Theorem C16_segragator :
  forall bad P reqP (CP : contract bad P reqP) F reqF (CF : contract bad F reqF) T b ops w,
  place b (a_size P + a_size F) w -> asks (fun n => if n <=? T then reqP n else reqF n) ops ->
  session_ok bad (segragator (checked P) (checked F) T) (fun _ _ => false) b ops w.
Proof. exact segragator_sessions. Qed.
Print Assumptions C16_segragator.

Theorem C16_routes_allocate :
  forall P F b T s n w p s' w' e, a_alloc (segragator P F T) b s n w = Ok (p, s') w' e ->
  (n <= T -> snd s' = snd s /\ exists e', a_alloc P b (fst s) n w = Ok (p, fst s') w' e') /\
  (T < n -> fst s' = fst s /\ exists e', a_alloc F (b + a_size P) (snd s) n w = Ok (p, snd s') w' e').
Proof. exact seg_alloc_routes. Qed.
Print Assumptions C16_routes_allocate.

Theorem C16_routes_deallocate :
  forall P F b T s p n w s' w' e, a_free (segragator P F T) b s p n w = Ok s' w' e ->
  (n <= T -> snd s' = snd s /\ exists e', a_free P b (fst s) p n w = Ok (fst s') w' e') /\
  (T < n -> fst s' = fst s /\ exists e', a_free F (b + a_size P) (snd s) p n w = Ok (snd s') w' e').
Proof. exact seg_free_routes. Qed.
Print Assumptions C16_routes_deallocate.

Example C16_example :
  outcome (session (segragator (checked (linear_allocator 64)) (checked (mallocator PMalloc)) 16) 4096 (fun _ _ => false)
    [OAlloc 16; OAlloc 17; OFree 1; OFree 0; OAlloc 16] (w_raw 64)) =
    Some ([ObPtr 4096; ObPtr 65536; ObUnit; ObUnit; ObPtr 4096], []).
Proof. by vm_compute. Qed.

(** * C17 *)
Theorem C17_fallback :
  forall bad P reqP (CP : contract bad P reqP) F reqF (CF : contract bad F reqF) b ops w,
  a_owns P <> None -> place b (a_size P + a_size F) w -> asks (fun n => (0 <? n) && reqP n && reqF n) ops ->
  session_ok bad (fallback (checked P) (checked F)) (fun _ _ => false) b ops w.
Proof. exact fallback_sessions. Qed.
Print Assumptions C17_fallback.

Theorem C17_order :
  forall P F b s n w p s' w' e, a_alloc (fallback P F) b s n w = Ok (p, s') w' e ->
  exists q w1 e1, a_alloc P b (fst s) n w = Ok (q, fst s') w1 e1 /\
    (q <> 0 -> p = q /\ snd s' = snd s /\ w' = w1) /\
    (q = 0 -> exists e2, a_alloc F (b + a_size P) (snd s) n w1 = Ok (p, snd s') w' e2).
Proof. exact fb_alloc_order. Qed.
Print Assumptions C17_order.

Example C17_example :
  outcome (session (fallback (checked (linear_allocator 32)) (checked (mallocator PMalloc))) 4096 (fun _ _ => false)
    [OAlloc 32; OAlloc 1; OFree 1; OAlloc 32; OFree 1] (w_raw 32)) =
    Some ([ObPtr 4096; ObPtr 65536; ObUnit; ObPtr 4096; ObUnit], []).
Proof. by vm_compute. Qed.

(** * C18: the empty block at the end of the first allocator is not recognised as its own *)
Theorem C18_empty_request_refuted :
  exists b w, place b 16 w /\
  crash (session (fallback (linear_allocator 16) (mallocator PMalloc)) b (fun _ _ => false) [OAlloc 16; OAlloc 0; OFree 0] w)
    = Some UBFree.
Proof. exact fallback_empty. Qed.
Print Assumptions C18_empty_request_refuted.

(** * C19, C20 *)
Theorem C19_C20_cascading :
  forall bad A req (CA : contract bad A req) pl b ops w,
  pl <> PPosix -> bad EvFail || bad EvRefuse = true -> a_size A + 32 < W -> a_owns A <> None ->
  (a_max A <> None -> forall b s, rdy CA b s = true) ->
  place b 0 w -> asks (fun n => (0 <? n) && req n) ops ->
  session_ok bad (cascading pl (checked A)) (fun _ _ => false) b ops w.
Proof. exact cascading_sessions. Qed.
Print Assumptions C19_C20_cascading.

Example C19_example :
  outcome (session (cascading PMalloc (checked (linear_allocator 32))) 4096 (fun _ _ => false)
    [OAlloc 20; OAlloc 1; OAlloc 32; OWrite 2 0 5; OFree 0; ORead 1 0; OFree 0; OAlloc 32; OAlloc 33] (w_raw 0)) =
    Some ([ObPtr 65536; ObPtr 131072; ObPtr 196608; ObUnit; ObUnit; ObByte (Some 5); ObUnit; ObPtr 196608; ObPtr 0], []).
Proof. by vm_compute. Qed.

(** An instance other than the newest dies with its last block ([nout]: its outstanding blocks). *)
Theorem C20_instance_deleted :
  forall pl A req b owns pre nd post bl p n w s' w' e,
  a_owns (checked A) = Some owns ->
  reachable (cascading pl (checked A)) req b (pre ++ nd :: post) bl ->
  nout A nd = [(p, n)] -> pre <> [] ->
  Forall (fun x => owns (nd_addr x) (nd_in x) p = false) pre -> owns (nd_addr nd) (nd_in nd) p = true ->
  a_free (cascading pl (checked A)) b (pre ++ nd :: post) p n w = Ok s' w' e -> s' = pre ++ post.
Proof. exact casc_deletes. Qed.
Print Assumptions C20_instance_deleted.

(** Heap blocks after each of four operations: two instances, then one. *)
Example C20_example :
  let A := cascading PMalloc (linear_allocator 32) in
  outcome ((s <- a_init A 4096 ;; ' (p, s) <- a_alloc A 4096 s 32 ;; ' (q, s) <- a_alloc A 4096 s 32 ;;
    h1 <- heap_blocks ;; s <- a_free A 4096 s p 32 ;; h2 <- heap_blocks ;; s <- a_free A 4096 s q 32 ;;
    h3 <- heap_blocks ;; a_dtor A 4096 s ;;; h4 <- heap_blocks ;; ret [h1; h2; h3; h4]) (w_raw 0)) =
  Some ([2; 1; 1; 0]%nat, []).
Proof. by vm_compute. Qed.

(** * C21: every refused request costs one more instance *)
Theorem C21_refused_request_refuted :
  let A := cascading PMalloc (freelist 0 8 (linear_allocator 64)) in
  exists b n w, n < W /\ place b (a_size A) w /\
  outcome ((s <- a_init A b ;; h <- heap_blocks ;; r <- ask A b n 4 s ;; ret (h, r)) w) =
    Some ((0%nat, [(0, 2%nat); (0, 3%nat); (0, 4%nat); (0, 5%nat)]), []).
Proof. exact cascading_grows. Qed.
Print Assumptions C21_refused_request_refuted.

(** True if the request exceeds max_size of the newest instance. *)
Theorem C21_too_large :
  forall pl A b s mx nd rest n v w e, a_max A = Some mx -> s = nd :: rest ->
  mx (nd_addr nd) (nd_in nd) w = Ok v w e -> v < n -> a_alloc (cascading pl A) b s n w = Ok (0, s) w e.
Proof. exact casc_max_refuses. Qed.
Print Assumptions C21_too_large.

(** * C22 *)
Theorem C22_fresh_max_size_refuted :
  let A := cascading PMalloc (linear_allocator 64) in
  wf (ECascading (ELinear 64)) = true /\
  exists w, place 4096 (a_size A) w /\
  crash ((s <- a_init A 4096 ;; match a_max A with Some mx => mx 4096 s | None => ret 0 end) w) = Some UBNull.
Proof. exact fresh_max_size. Qed.
Print Assumptions C22_fresh_max_size_refuted.

Theorem C22_nested_cascading_refuted :
  let A := cascading PMalloc (cascading PMalloc (linear_allocator 64)) in
  exists w, place 4096 (a_size A) w /\
  crash ((s <- a_init A 4096 ;; a_alloc A 4096 s 16) w) = Some UBNull.
Proof. exact nested_cascading. Qed.
Print Assumptions C22_nested_cascading_refuted.

(** Without cascading over a type that has max_size ([eready]) every call of max_size is
    defined, at every point of every program. *)
Theorem C22_max_size_defined :
  forall pl e b ops w, pl <> PPosix -> wf e = true -> eready e = true ->
  place b (esize e) w -> asks (ereq pl e) ops ->
  session_strict (eboxed e) (den pl e) (fun _ _ => true) b ops w.
Proof. exact max_size_defined. Qed.
Print Assumptions C22_max_size_defined.

Example C22_example :
  let e := EFallback (EFreelist 0 16 (ELinear 64)) (ESegragator 8 (ELinear 32) (EOverflow (EStack 256))) in
  wf e = true /\ eready e = true /\
  outcome (session (den PMalloc e) 4096 (fun _ _ => true) [OMax; OAlloc 16; OAlloc 100; OMax] (w_raw 352)) =
    Some ([ObNum 256; ObPtr 4096; ObPtr 4256; ObNum 256], []).
Proof. by vm_compute. Qed.

(** * C23 *)
Theorem C23_overflow :
  forall bad A req (CA : contract bad A req) b ops w,
  place b (a_size A) w -> asks (fun n => (n + 128 <? W) && req (n + 128)) ops ->
  session_ok bad (overflow (checked A)) (fun _ _ => false) b ops w.
Proof. exact overflow_sessions. Qed.
Print Assumptions C23_overflow.

Example C23_example :
  outcome (session (overflow (checked (linear_allocator 320))) 4096 (fun _ _ => false)
    [OAlloc 20; OWrite 0 0 1; OWrite 0 19 2; OAlloc 32; OWrite 0 0 3; ORead 1 19; OFree 1] (w_raw 320)) =
    Some ([ObPtr 4160; ObUnit; ObUnit; ObPtr 4320; ObUnit; ObByte (Some 2); ObUnit], []).
Proof. by vm_compute. Qed.

(** * C24 *)
Theorem C24_corruption_report :
  forall A b s p n w (before after : N -> N),
  64 < p -> p + n + 64 < W ->
  (forall k, 1 <= k <= 64 -> mem (st w) !! (p - k) = Some (Byte (before k))) ->
  (forall k, 1 <= k <= 64 -> mem (st w) !! (p + n + k - 1) = Some (Byte (after k))) ->
  exists x y, furthest before x /\ furthest after y /\
    a_free (overflow A) b s p n w =
    AllocSpec.after (if (x =? 0) && (y =? 0) then [] else [EvCorrupt p n x y])
      (bind (a_free A b (o_in s) (p - 64) (n + 128)) (fun s' =>
         ret (Ov s' (s64 (o_allocs s - Z.of_N n)) (o_cons s)))) w.
Proof. exact ov_free_report. Qed.
Print Assumptions C24_corruption_report.

(** Write 3 bytes before and 5 bytes behind the block. *)
Example C24_example :
  let A := overflow (mallocator PMalloc) in
  outcome ((s <- a_init A 4096 ;; ' (p, s) <- a_alloc A 4096 s 10 ;;
    wr (p - 3) (Byte 0) ;;; wr (p + 14) (Byte 1) ;;; s <- a_free A 4096 s p 10 ;; a_dtor A 4096 s) (w_raw 0)) =
  Some (tt, [EvCorrupt 65600 10 3 5]).
Proof. by vm_compute. Qed.

(** * C25, C26 *)
Theorem C25_C26_reports :
  forall A b ready ops w0 s0 w1 e1 os s bl w2 e2,
  a_init (overflow A) b w0 = Ok s0 w1 e1 ->
  run (overflow A) b ready ops s0 [] w1 = Ok (os, (s, bl)) w2 e2 ->
  let k := keep_book (Book [] 0 0) ops os in
  total (bk_blocks k) + bk_failed k < 2 ^ 63 -> (- 2 ^ 63 <= bk_balance k < 2 ^ 63)%Z ->
  bl = bk_blocks k /\
  forall w, a_dtor (overflow A) b s w =
    AllocSpec.after
      ((if (Z.of_N (total (bk_blocks k) + bk_failed k) =? 0)%Z then []
        else [EvLeak (Z.of_N (total (bk_blocks k) + bk_failed k))]) ++
       (if (bk_balance k =? 0)%Z then [] else [EvLogic (bk_balance k)]))
      (a_dtor A b (o_in s)) w.
Proof. exact dtor_reports. Qed.
Print Assumptions C25_C26_reports.

Example C25_C26_example :
  let A := overflow (mallocator PMalloc) in
  outcome ((s <- a_init A 4096 ;;
    ' (os, (s, bl)) <- run A 4096 (fun _ _ => false)
      [OAlloc 10; OAlloc 20; OAlloc 30; OConstruct 0 0 1; OConstruct 0 1 1; ODestroy 0 0; OFree 1] s [] ;;
    a_dtor A 4096 s ;;; ret (keep_book (Book [] 0 0)
      [OAlloc 10; OAlloc 20; OAlloc 30; OConstruct 0 0 1; OConstruct 0 1 1; ODestroy 0 0; OFree 1] os)) (w_raw 0)) =
  Some (Book [(196672, 30); (65600, 10)] 0 1, [EvLeak 40; EvLogic 1]).
Proof. by vm_compute. Qed.

(** Failed requests are counted as outstanding: nothing was ever handed out, 100 bytes leak. *)
Theorem C25_failed_request_refuted :
  let A := overflow (linear_allocator 64) in
  exists w, place 4096 64 w /\
  outcome ((s <- a_init A 4096 ;; ' (p, s1) <- a_alloc A 4096 s 100 ;; a_dtor A 4096 s1 ;;; ret p) w) =
    Some (0, [EvLeak 100]).
Proof. exact leak_of_failed. Qed.
Print Assumptions C25_failed_request_refuted.

(** * C27 *)
Theorem C27_every_composition :
  forall pl e b ops w,
  pl <> PPosix -> wf e = true -> place b (esize e) w -> asks (ereq pl e) ops ->
  session_strict (eboxed e) (den pl e) (eready_now pl e) b ops w.
Proof. exact every_composition. Qed.
Print Assumptions C27_every_composition.

Example C27_example :
  let e := EOverflow (EFallback (EFreelist 16 256 (ECascading (ELinear 512)))
             (ESegragator 300 (EShared (EStack 512)) (EThreaded EMalloc))) in
  let ops := [OAlloc 64; OAlloc 128; OAlloc 16; OWrite 2 63 1; OAlloc 300; OFree 1; OAlloc 100; ORead 3 63; OFree 0; OFree 2] in
  wf e = true /\ asks (ereq PGeneric e) ops /\
  outcome (session (den PGeneric e) 4096 (eready_now PGeneric e) ops (w_raw 0)) =
    Some ([ObPtr 131152; ObPtr 131408; ObPtr 196688; ObUnit; ObPtr 262224; ObUnit; ObPtr 196688;
           ObByte (Some 1); ObUnit; ObUnit], []).
Proof. split; [by vm_compute|]. split; [repeat (apply Forall_cons; [by vm_compute|]); constructor|by vm_compute]. Qed.

(** * C28 *)
Theorem C28_owns_exact :
  forall pl e b ops q w os w' evs,
  pl <> PPosix -> wf e = true -> eowns e = true -> place b (esize e) w -> asks (ereq pl e) ops ->
  session (den pl e) b (eready_now pl e) (ops ++ [OOwns q]) w = Ok os w' evs ->
  exists mv os1 bl r, os = os1 ++ [ObBool r] /\
    checks (elsewhere b (esize e) w) true mv ops os1 [] bl /\
    (Exists (in_block q) bl -> r = true) /\ (elsewhere b (esize e) w q -> r = false).
Proof. exact tree_owns. Qed.
Print Assumptions C28_owns_exact.

Example C28_example :
  let e := EFallback (ECascading (ELinear 32)) (EStack 64) in
  eowns e = true /\ wf e = true /\
  outcome (session (den PMalloc e) 4096 (eready_now PMalloc e) [OAlloc 16; OAlloc 32; OAlloc 40; OOwns 65551; OOwns 131103; OOwns 4135; OOwns 9000]
    (w_raw 64)) =
    Some ([ObPtr 65536; ObPtr 131072; ObPtr 4096; ObBool true; ObBool true; ObBool true; ObBool false], []).
Proof. by vm_compute. Qed.

(** * C29 *)
Theorem C29_max_size_bounds :
  forall pl e b ops w os w' evs i j n p v,
  pl <> PPosix -> wf e = true -> place b (esize e) w -> asks (ereq pl e) ops ->
  session (den pl e) b (eready_now pl e) ops w = Ok os w' evs ->
  ops !! i = Some OMax -> os !! i = Some (ObNum v) ->
  ops !! j = Some (OAlloc n) -> os !! j = Some (ObPtr p) -> v < n -> p = 0.
Proof. exact tree_max. Qed.
Print Assumptions C29_max_size_bounds.

Example C29_example :
  let e := ECascading (EFallback (ELinear 32) (ELinear 64)) in
  wf e = true /\
  outcome (session (den PMalloc e) 4096 (eready_now PMalloc e) [OAlloc 64; OMax; OAlloc 65] (w_raw 0)) =
    Some ([ObPtr 65568; ObNum 64; ObPtr 0], []).
Proof. by vm_compute. Qed.

(** * C30 *)
Theorem C30_attainable_linear :
  forall Size b s n w,
  reachable (linear_allocator Size) (fun n => n + 15 + Size <? W) b s [] \/
  reachable (stack_allocator Size) (fun n => n + 15 + Size <? W) b s [] ->
  Size + 15 + Size < W -> Size mod 16 = 0 -> n <= Size ->
  exists s', lin_alloc Size b s n w = Ok (b, s') w [].
Proof. exact linear_attains. Qed.
Print Assumptions C30_attainable_linear.

Example C30_example : outcome (ask_max (linear_allocator 64) 4096 (w_raw 64)) = Some ((64, 4096), []).
Proof. by vm_compute. Qed.

Theorem C30_linear_refuted :
  exists w, place 4096 32 w /\ outcome (ask_max (linear_allocator 20) 4096 w) = Some ((20, 0), []).
Proof. exact max_unattained. Qed.
Print Assumptions C30_linear_refuted.

Theorem C30_segragator_refuted :
  exists w, place 4096 80 w /\
  outcome (ask_max (segragator (linear_allocator 64) (linear_allocator 16) 16) 4096 w) = Some ((64, 0), []).
Proof. exact max_unattained_seg. Qed.
Print Assumptions C30_segragator_refuted.

(** * C31 *)
Theorem C31_byte_sizes :
  forall sz A b s n p, sz * n < W ->
  ta_alloc sz A b s n = a_alloc A b s (sz * n) /\ ta_free sz A b s p n = a_free A b s p (sz * n).
Proof. exact ta_exact. Qed.
Print Assumptions C31_byte_sizes.

Theorem C31_max_size :
  forall sz A b s mx w v w' e n, sz <> 0 -> a_max A = Some mx -> mx b s w = Ok v w' e ->
  exists tmx, ta_max sz A = Some tmx /\ exists k, tmx b s w = Ok k w' e /\ (n <= k <-> sz * n <= v).
Proof. exact ta_max_fits. Qed.
Print Assumptions C31_max_size.

Example C31_example :
  outcome ((s <- a_init (linear_allocator 96) 4096 ;; ' (p, s) <- ta_alloc 12 (linear_allocator 96) 4096 s 7 ;;
    s <- ta_free 12 (linear_allocator 96) 4096 s p 7 ;; ret (p, s)) (w_raw 96)) = Some ((4096, Lin 4096 0), []).
Proof. by vm_compute. Qed.

(** sizeof(T) * n wraps around: a block with room for one object of the 2^60 + 1. *)
Theorem C31_wrap_refuted :
  exists sz n w p w' s', n < W /\
  ta_alloc sz (mallocator PMalloc) 4096 tt n w = Ok (p, s') w' [] /\ p <> 0 /\
  mem (st w') !! (p + sz) = None /\ sz < sz * n.
Proof. exact ta_wraps. Qed.
Print Assumptions C31_wrap_refuted.

(** * C38: whatever the nesting, the element constructor or destructor runs once, and besides
    its effects only assertions may fire *)
Theorem C38_construct_once :
  forall pl e o c b s q act, a_cd (den pl e) = Some o ->
  exists evs s', Forall (fun e => exists t, e = EvAssert t) evs /\
    forall w, o c b s q act w =
      match act w with
      | Ok _ w' e => Ok s' w' (evs ++ e)
      | Err u e => Err u (evs ++ e)
      end.
Proof. exact tree_cd_once. Qed.
Print Assumptions C38_construct_once.

Example C38_example :
  let e := EOverflow (EFallback (EOverflow (ELinear 320)) (EOverflow EMalloc)) in
  outcome (session (den PMalloc e) 4096 (fun _ _ => false)
    [OAlloc 16; OConstruct 0 3 77; ORead 0 3; ODestroy 0 3; OFree 0] (w_raw 320)) =
  Some ([ObPtr 4224; ObUnit; ObByte (Some 77); ObUnit; ObUnit], []).
Proof. by vm_compute. Qed.

(** * C54 *)
Theorem C54_no_assertion_fires :
  forall pl e b ops w,
  pl <> PPosix -> wf e = true -> no_cascading e = true -> place b (esize e) w -> asks (ereq pl e) ops ->
  match session (den pl e) b (eready_now pl e) ops w with
  | Ok _ _ evs => Forall (fun ev => forall t, ev <> EvAssert t) evs
  | Err _ evs => starved evs = true
  end.
Proof. exact tree_asserts. Qed.
Print Assumptions C54_no_assertion_fires.

(** The assertion of cascading.h:273 fires if more than one instance is left. *)
Theorem C54_cascading_refuted :
  let e := ECascading (ELinear 20) in
  exists ops w, asks (ereq PMalloc e) ops /\ wf e = true /\ place 4096 (esize e) w /\
  outcome (session (den PMalloc e) 4096 (eready_now PMalloc e) ops w) = Some ([ObPtr 0], [EvAssert ARelease]).
Proof. exact release_asserts. Qed.
Print Assumptions C54_cascading_refuted.

(** * C55 *)
Theorem C55_move_assign_refuted :
  exists Size b s rhs ops os1 os2,
  (exists w0, place b Size w0 /\
    outcome ((s0 <- a_init (linear_allocator Size) b ;; a_alloc (linear_allocator Size) b s0 16) w0) = Some ((b, s), [])) /\
  l_cnt rhs = 0 /\
  (forall w, answers ((a <- lin_move_assign b s rhs ;; run (linear_allocator Size) b (fun _ _ => false) ops a []) w) = Some os1) /\
  (forall w, answers (run (linear_allocator Size) b (fun _ _ => false) ops (Lin b 0) [] w) = Some os2) /\
  os1 <> os2.
Proof. exact move_assign_keeps_count. Qed.
Print Assumptions C55_move_assign_refuted.

Theorem C55_move_assign_empty :
  forall b s rhs w, l_cnt s = 0 -> l_cnt rhs = 0 -> lin_move_assign b s rhs w = Ok (Lin b 0) w [].
Proof. exact move_assign_empty. Qed.
Print Assumptions C55_move_assign_empty.

Theorem C55_move_construct :
  forall Size b rhs w, l_cnt rhs = 0 -> lin_move_ctor Size b rhs w = lin_init Size b w.
Proof. exact move_ctor_fresh. Qed.
Print Assumptions C55_move_construct.

Example C55_example :
  outcome (lin_move_assign 4096 (Lin 4096 0) (Lin 8192 0) (w_raw 96)) = Some (Lin 4096 0, []) /\
  outcome (lin_move_ctor 96 4096 (Lin 8192 0) (w_raw 96)) = Some (Lin 4096 0, []).
Proof. by vm_compute. Qed.

(** * C56 *)
Theorem C56_copy_refuted :
  exists w, outcome (copied_overflow w) = Some (0%nat, [EvLeak 16]).
Proof. exact copy_reports_twice. Qed.
Print Assumptions C56_copy_refuted.

Theorem C56_balanced_copy :
  forall A mv (s : ov A) b w, o_allocs s = 0%Z -> o_cons s = 0%Z ->
  a_dtor (overflow A) b (fst (ov_copy mv s)) w = a_dtor A b (fst (mv (o_in s))) w /\
  a_dtor (overflow A) b (snd (ov_copy mv s)) w = a_dtor A b (snd (mv (o_in s))) w.
Proof. exact copy_balanced. Qed.
Print Assumptions C56_balanced_copy.

Example C56_example :
  let A := overflow (mallocator PMalloc) in
  outcome ((s <- a_init A 4096 ;; ' (p, s) <- a_alloc A 4096 s 16 ;; s <- a_free A 4096 s p 16 ;;
    a_dtor A 4096 (fst (ov_copy (fun x => (x, x)) s)) ;;; a_dtor A 4096 (snd (ov_copy (fun x => (x, x)) s))) (w_raw 0)) =
  Some (tt, []).
Proof. by vm_compute. Qed.
