(** Property theorems C93: what allocators do exactly where C07, C11, C18, C21, C22, C30, C31 and C54 fail. *)
From Verif Require Import Base Mem Bits AlignedMalloc Allocators Client AllocSpec AllocProofs Never ExactFacts.

Local Open Scope N_scope.

(** * C11 and C30: the request is rounded up to [R]; it is served if it fits behind the blocks handed
    out so far, and also if the sum wraps around, in which case the free pointer moves backwards. *)
Theorem C93_linear :
  forall Size b s bl n R w,
  reachable (linear_allocator Size) (fun n => n + 15 + Size <? W) b s bl \/
  reachable (stack_allocator Size) (fun n => n + 15 + Size <? W) b s bl ->
  n < W -> R mod 16 = 0 -> n <= R < n + 16 ->
  exists s', lin_alloc Size b s n w =
    Ok (if (l_free s - b + R <=? Size) || (W <=? l_free s - b + R) then l_free s else 0, s') w [] /\
    l_free s' = if l_free s - b + R <=? Size then l_free s + R
                else if W <=? l_free s - b + R then l_free s + R - W else l_free s.
Proof. exact lin_exact. Qed.
Print Assumptions C93_linear.

(** The smallest request that wraps around, after 32 bytes have been handed out, is served; one byte
    less is refused. *)
Example C93_linear_example :
  reachable (linear_allocator 96) (fun n => n + 15 + 96 <? W) 4096 (Lin 4128 32) [(4096, 32)] /\
  outcome (run (linear_allocator 96) 4096 (fun _ _ => false) [OAlloc (W - 48); OAlloc 64; OAlloc 0; OAlloc (W - 96)] (Lin 4096 0) [] (w_raw 96)) =
    Some ([ObPtr 0; ObPtr 4096; ObPtr 4160; ObPtr 0], (Lin 4160 64, [(4160, 0); (4096, 64)]), []) /\
  outcome (lin_alloc 96 4096 (Lin 4128 32) (W - 47) (w_raw 96)) = Some ((4128, Lin 4096 0), []) /\
  outcome (lin_alloc 96 4096 (Lin 4128 32) (W - 48) (w_raw 96)) = Some ((0, Lin 4128 32), []).
Proof.
  split_and!; [|by vm_compute..].
  apply (reach_run _ _ _ (w_raw 96) [OAlloc 32]); [change (a_size (linear_allocator 96)) with 96; by apply (w_raw_place 96)| |by vm_compute].
  repeat (apply Forall_cons; [by vm_compute|]); constructor.
Qed.

(** max_size() = Size is attainable exactly if it is a multiple of 16. *)
Theorem C93_attainable :
  forall Size b s w,
  reachable (linear_allocator Size) (fun n => n + 15 + Size <? W) b s [] \/
  reachable (stack_allocator Size) (fun n => n + 15 + Size <? W) b s [] ->
  exists s', lin_alloc Size b s Size w = Ok (if Size mod 16 =? 0 then b else 0, s') w [].
Proof. exact lin_attain. Qed.
Print Assumptions C93_attainable.

Example C93_attainable_example :
  outcome (ask_max (linear_allocator 96) 4096 (w_raw 96)) = Some ((96, 4096), []) /\
  outcome (ask_max (linear_allocator 100) 4096 (w_raw 112)) = Some ((100, 0), []).
Proof. split; by vm_compute. Qed.

(** * C07: the POSIX branch returns a block of 16 bytes, aligned to the size, and only if the size is a
    power of two that is at least 8. *)
Theorem C93_posix :
  forall n w,
  match aligned_malloc PPosix n 16 w with
  | Ok p w' e =>
    p = 0 /\ st w' = st w \/
    (exists k, 3 <= k /\ n = 2 ^ k) /\ p <> 0 /\ p mod n = 0 /\ mtab (st w') = <[p := 16]> (mtab (st w)) /\
    (forall i, is_Some (mem (st w') !! i) <-> is_Some (mem (st w) !! i) \/ p <= i < p + 16) /\
    (forall i, p <= i < p + 16 -> mem (st w) !! i = None)
  | Err _ _ => False
  end.
Proof. exact posix_exact. Qed.
Print Assumptions C93_posix.

(** It does not even call malloc for other sizes. *)
Theorem C93_posix_refuses :
  forall n w, (forall k, 3 <= k -> n <> 2 ^ k) -> aligned_malloc PPosix n 16 w = Ok 0 w [].
Proof. exact posix_only_pow2. Qed.
Print Assumptions C93_posix_refuses.

Example C93_posix_example :
  match aligned_malloc PPosix 4096 16 (w_raw 0) with
  | Ok p w e => (p, size (mem (st w)), mtab (st w) !! p, e) = (65536, 16%nat, Some 16, [])
  | Err _ _ => False
  end /\ outcome (aligned_malloc PPosix 48 16 (w_raw 0)) = Some (0, []).
Proof. split; by vm_compute. Qed.

(** * C18: an empty request to a fallback whose first allocator is full yields the end of its buffer; to give
    it back means to free whatever malloc block begins there. *)
Theorem C93_fallback_empty :
  forall pl Size b s bl w, direct pl = true ->
  reachable (linear_allocator Size) (fun n => n + 15 + Size <? W) b s bl -> l_free s = b + Size ->
  let F := fallback (linear_allocator Size) (mallocator pl) in
  a_alloc F b (s, tt) 0 w = Ok (b + Size, (s, tt)) w [] /\
  a_free F b (s, tt) (b + Size) 0 w =
    match mtab (st w) !! (b + Size) with
    | Some m => Ok (s, tt) (World (Store (clear (b + Size) (N.to_nat m) (mem (st w))) (delete (b + Size) (mtab (st w)))) (orc w) (tick w)) []
    | None => Err UBFree []
    end.
Proof. exact fallback_zero. Qed.
Print Assumptions C93_fallback_empty.

Example C93_fallback_example :
  reachable (linear_allocator 16) (fun n => n + 15 + 16 <? W) 4096 (Lin 4112 16) [(4096, 16)] /\
  let F := fallback (linear_allocator 16) (mallocator PMalloc) in
  outcome ((s <- a_init F 4096 ;; ' (p, s) <- a_alloc F 4096 s 16 ;; ' (q, s) <- a_alloc F 4096 s 24 ;; ' (r, s) <- a_alloc F 4096 s 0 ;;
     h1 <- heap_blocks ;; s <- a_free F 4096 s r 0 ;; h2 <- heap_blocks ;; ret (p, q, r, h1, h2))
     (World (st (w_raw 16)) (fun _ => 4112) 0)) = Some ((4096, 4112, 4112, 1%nat, 0%nat), []).
Proof.
  split; [|by vm_compute].
  apply (reach_run _ _ _ (w_raw 16) [OAlloc 16]); [change (a_size (linear_allocator 16)) with 16; by apply (w_raw_place 16)| |by vm_compute].
  repeat (apply Forall_cons; [by vm_compute|]); constructor.
Qed.

(** * C21: every one of [k] requests that no instance can serve although max_size() admits them is refused
    and adds one instance (the first one two), or malloc fails. *)
Theorem C93_refused :
  forall pl Size n R b k w, direct pl = true -> R mod 16 = 0 -> n <= R < n + 16 -> n <= Size -> Size < R -> R < W ->
  let C := cascading pl (linear_allocator Size) in
  match (s <- a_init C b ;; ask C b n k s) w with
  | Ok l _ e => e = [] /\ l = map (fun i => (0, (size (mtab (st w)) + 2 + i)%nat)) (seq 0 k)
  | Err u e => u = UBNull /\ e = [EvRefuse; EvFail]
  end.
Proof. exact ask_refused. Qed.
Print Assumptions C93_refused.

Example C93_refused_example :
  let C := cascading PMalloc (linear_allocator 40) in
  outcome ((s <- a_init C 4096 ;; ask C 4096 33 3 s) (w_raw 0)) = Some ([(0, 2%nat); (0, 3%nat); (0, 4%nat)], []).
Proof. by vm_compute. Qed.

(** * C22: at the end of every program max_size() is undefined if nothing was requested, and the
    max_size() of the newest instance otherwise. *)
Theorem C93_cascading_max :
  forall pl A b ready ops os s bl w w' e mx, a_max (cascading pl A) = Some mx ->
  run (cascading pl A) b ready ops [] [] w = Ok (os, (s, bl)) w' e ->
  ((forall n, ~ In (OAlloc n) ops) -> forall w, mx b s w = Err UBNull []) /\
  (forall n, In (OAlloc n) ops -> exists nd rest mx', s = nd :: rest /\ a_max A = Some mx' /\
    forall w, mx b s w = mx' (nd_addr nd) (nd_in nd) w).
Proof. exact casc_max_exact. Qed.
Print Assumptions C93_cascading_max.

(** An object of type cascading<cascading<A>> cannot serve its first request, whatever it is. *)
Theorem C93_nested_cascading :
  forall pl A pl' b n, a_max A <> None -> never (a_alloc (cascading pl' (cascading pl A)) b [] n).
Proof. exact nested_never. Qed.
Print Assumptions C93_nested_cascading.

Example C93_cascading_max_example :
  let C := cascading PMalloc (linear_allocator 32) in
  match run C 4096 (fun _ _ => false) [OAlloc 32; OAlloc 32; OFree 1; OFree 0] [] [] (w_raw 0) with
  | Ok (os, (s, bl)) w _ => (os, length s, bl) = ([ObPtr 65536; ObPtr 131072; ObUnit; ObUnit], 1%nat, []) /\
    match a_max C with Some mx => outcome (mx 4096 s w) = Some (32, []) | None => False end
  | Err _ _ => False
  end.
Proof. vm_compute. done. Qed.

(** * C54: the assertion of cascading.h:273 fires once for every instance but the first. *)
Theorem C93_release :
  forall pl A b s w w' e, (forall b s w w' u e, a_dtor A b s w = Ok u w' e -> e = []) ->
  a_dtor (cascading pl A) b s w = Ok tt w' e -> e = repeat (EvAssert ARelease) (length s - 1).
Proof. exact release_exact. Qed.
Print Assumptions C93_release.

Example C93_release_example :
  let C := cascading PMalloc (linear_allocator 32) in
  outcome ((s <- a_init C 4096 ;; ' (_, s) <- a_alloc C 4096 s 32 ;; ' (_, s) <- a_alloc C 4096 s 20 ;; ' (_, s) <- a_alloc C 4096 s 1 ;;
    a_dtor C 4096 s) (w_raw 0)) = Some (tt, [EvAssert ARelease; EvAssert ARelease]).
Proof. by vm_compute. Qed.

(** * C31: the block has the number of bytes that is left of sizeof(T)*n in 64 bits. *)
Theorem C93_type_allocator :
  forall pl sz n b w p s w' e, direct pl = true ->
  ta_alloc sz (mallocator pl) b tt n w = Ok (p, s) w' e -> p <> 0 ->
  mtab (st w') = <[p := (sz * n) mod W]> (mtab (st w)) /\
  (forall i, is_Some (mem (st w') !! i) <-> is_Some (mem (st w) !! i) \/ p <= i < p + (sz * n) mod W).
Proof. exact type_exact. Qed.
Print Assumptions C93_type_allocator.

Example C93_type_allocator_example :
  match ta_alloc 8 (mallocator PMalloc) 4096 tt (W / 8 + 3) (w_raw 0) with
  | Ok (p, _) w _ => (p, mtab (st w) !! p) = (65536, Some 24)
  | Err _ _ => False
  end.
Proof. by vm_compute. Qed.
