(** Comparing and moving allocator objects. *)
From Verif Require Import Base Mem Bits AlignedMalloc Allocators Checked Tree Moves Client.

(** * operator== and operator!=

    An object is identified by the address [b] of its inline bytes.  stack_allocator, reference
    and global are modelled together with the object they refer to (see Allocators.v), whose
    address takes the place of the pointer. *)

(** The pointer to the first node, null if there is none (cascading.h:284). *)
Definition first_node {A : alloc} (s : list (node A)) : N :=
  match s with [] => 0 | nd :: _ => nd_addr nd end.

Fixpoint same (pl : platform) (e : aexp) : N -> a_st (den pl e) -> N -> a_st (den pl e) -> bool :=
  match e with
  (* null_allocator.h:24-27, mallocator.h:28-31 *)
  | ENull | EMalloc => fun _ _ _ _ => true
  (* linear_allocator.h:59-62: m_Data; stack_allocator.h:52-55: m_Block *)
  | ELinear _ | EStack _ => fun b _ b' _ => b =? b'
  (* freelist.h:93-97 *)
  | EFreelist _ _ e => fun b s b' s' => same pl e b (f_in s) b' (f_in s') && (f_head s =? f_head s')
  (* cascading.h:76-79 *)
  | ECascading e => fun _ s _ s' => first_node s =? first_node s'
  (* fallback.h:87-91, segragator.h:84-88 *)
  | EFallback p f | ESegragator _ p f => fun b s b' s' =>
    same pl p b (fst s) b' (fst s') && same pl f (b + esize p) (snd s) (b' + esize p) (snd s')
  (* overflow.h:84-88 *)
  | EOverflow e => fun b s b' s' => same pl e b (o_in s) b' (o_in s')
  (* shared.h:119-123: m_Block, then the allocators inside *)
  | EShared e => fun _ s _ s' =>
    (sh_block s =? sh_block s') && same pl e (sh_block s) (sh_in s) (sh_block s') (sh_in s')
  (* threaded.h:48-52 *)
  | EThreaded e => fun b s b' s' => same pl e b s b' s'
  (* reference.h:49-53: m_Alloc, then the allocators behind it *)
  | EReference e => fun b s b' s' => (b =? b') && same pl e b s b' s'
  (* global.h:42-45 *)
  | EGlobal e => fun _ _ _ _ => true
  | EChecked e => fun b s b' s' => same pl e b (fst s) b' (fst s')
  end.

Fixpoint differ (pl : platform) (e : aexp) : N -> a_st (den pl e) -> N -> a_st (den pl e) -> bool :=
  match e with
  (* null_allocator.h:29-32, mallocator.h:33-36 *)
  | ENull | EMalloc => fun _ _ _ _ => false
  (* linear_allocator.h:64-67, stack_allocator.h:57-60 *)
  | ELinear _ | EStack _ => fun b _ b' _ => negb (b =? b')
  (* freelist.h:99-103 *)
  | EFreelist _ _ e => fun b s b' s' => differ pl e b (f_in s) b' (f_in s') || negb (f_head s =? f_head s')
  (* cascading.h:81-84 *)
  | ECascading e => fun _ s _ s' => negb (first_node s =? first_node s')
  (* fallback.h:93-97, segragator.h:90-94 *)
  | EFallback p f | ESegragator _ p f => fun b s b' s' =>
    differ pl p b (fst s) b' (fst s') || differ pl f (b + esize p) (snd s) (b' + esize p) (snd s')
  (* overflow.h:90-94 *)
  | EOverflow e => fun b s b' s' => differ pl e b (o_in s) b' (o_in s')
  (* shared.h:125-129 *)
  | EShared e => fun _ s _ s' =>
    negb (sh_block s =? sh_block s') || differ pl e (sh_block s) (sh_in s) (sh_block s') (sh_in s')
  (* threaded.h:54-58 *)
  | EThreaded e => fun b s b' s' => differ pl e b s b' s'
  (* reference.h:55-59 *)
  | EReference e => fun b s b' s' => negb (b =? b') || differ pl e b s b' s'
  (* global.h:47-50 *)
  | EGlobal e => fun _ _ _ _ => true
  | EChecked e => fun b s b' s' => differ pl e b (fst s) b' (fst s')
  end.

(** * Moves *)

(** The types whose moves are modelled here: those that own their state.  Moving a
    stack_allocator, reference or global copies the handle; shared handles are in Shared.v;
    threaded has no move operations (threaded.h:42-46). *)
Fixpoint movable (e : aexp) : bool :=
  match e with
  | ENull | EMalloc | ECascading _ => true
  (* an array of length 0 is not allowed *)
  | ELinear Size => 0 <? Size
  | EFreelist _ _ e | EOverflow e => movable e
  | EFallback p f | ESegragator _ p f => movable p && movable f
  | EStack _ | EShared _ | EThreaded _ | EReference _ | EGlobal _ | EChecked _ => false
  end.

(** Move assignment exists: overflow has a reference member (overflow.h:276), so that its
    defaulted assignment operators are deleted. *)
Fixpoint assignable (e : aexp) : bool :=
  match e with
  | ENull | EMalloc | ECascading _ | ELinear _ => true
  | EFreelist _ _ e => assignable e
  | EFallback p f | ESegragator _ p f => assignable p && assignable f
  | EOverflow _ | EStack _ | EShared _ | EThreaded _ | EReference _ | EGlobal _ | EChecked _ => false
  end.

(** Move construction of an object at [b] from the object at [b'] with fields [s]: the fields
    of the new object and those left in the source. *)
Fixpoint move_ctor (pl : platform) (e : aexp) : N -> N -> a_st (den pl e) -> M (a_st (den pl e) * a_st (den pl e)) :=
  match e with
  (* null_allocator.h:18, mallocator.h:22 *)
  | ENull | EMalloc => fun _ _ s => ret (s, s)
  (* linear_allocator.h:33-40 *)
  | ELinear Size => fun b _ s => s' <- lin_move_ctor Size b s ;; ret (s', s)
  (* freelist.h:59-68 *)
  | EFreelist _ _ e => fun b b' s =>
    ' (i, i') <- move_ctor pl e b b' (f_in s) ;;
    ktl_assert (same pl e b i b' i' || (f_head s =? 0)) ;;;
    ret (Fl i (f_head s), Fl i' 0)
  (* cascading.h:50-55 *)
  | ECascading e => fun _ _ s => ret (s, [])
  (* fallback.h:81, segragator.h:78: memberwise *)
  | EFallback p f | ESegragator _ p f => fun b b' s =>
    ' (x, x') <- move_ctor pl p b b' (fst s) ;;
    ' (y, y') <- move_ctor pl f (b + esize p) (b' + esize p) (snd s) ;;
    ret ((x, y), (x', y'))
  (* overflow.h:57: memberwise, the counters are copied *)
  | EOverflow e => fun b b' s =>
    ' (i, i') <- move_ctor pl e b b' (o_in s) ;;
    ret (Ov i (o_allocs s) (o_cons s), Ov i' (o_allocs s) (o_cons s))
  (* not modelled, see [movable] *)
  | EStack _ | EShared _ | EThreaded _ | EReference _ | EGlobal _ | EChecked _ => fun _ _ s => ret (s, s)
  end.

(** Move assignment to the object at [b] with fields [d] from the object at [b'] with fields
    [s]: the new fields of both. *)
Fixpoint move_assign (pl : platform) (e : aexp) : N -> a_st (den pl e) -> N -> a_st (den pl e) -> M (a_st (den pl e) * a_st (den pl e)) :=
  match e with
  | ENull | EMalloc => fun _ d _ s => ret (d, s)
  (* linear_allocator.h:49-57 *)
  | ELinear Size => fun b d _ s => d' <- lin_move_assign b d s ;; ret (d', s)
  (* freelist.h:77-91; [fuel] as in [fl_dtor] *)
  | EFreelist _ Max e => fun b d b' s => fun w =>
    (i0 <- fl_release Max (den pl e) (S (size (mem (st w)))) b (f_in d) (f_head d) ;;
     ' (i, i') <- move_assign pl e b i0 b' (f_in s) ;;
     ktl_assert (same pl e b i b' i' || (f_head s =? 0)) ;;;
     ret (Fl i (f_head s), Fl i' 0)) w
  (* cascading.h:64-74 *)
  | ECascading e => fun _ d _ s => casc_release pl (den pl e) true d ;;; ret (s, [])
  (* fallback.h:85, segragator.h:82: memberwise *)
  | EFallback p f | ESegragator _ p f => fun b d b' s =>
    ' (x, x') <- move_assign pl p b (fst d) b' (fst s) ;;
    ' (y, y') <- move_assign pl f (b + esize p) (snd d) (b' + esize p) (snd s) ;;
    ret ((x, y), (x', y'))
  (* does not exist, see [assignable], or not modelled, see [movable] *)
  | EOverflow _ | EStack _ | EShared _ | EThreaded _ | EReference _ | EGlobal _ | EChecked _ => fun _ d _ s => ret (d, s)
  end.

(** * When a move is allowed *)

(** After a move from [s], source and new object compare equal. *)
Fixpoint same_after (pl : platform) (e : aexp) : a_st (den pl e) -> bool :=
  match e with
  | ENull | EMalloc => fun _ => true
  | ECascading e => fun s => first_node s =? 0
  | EFreelist _ _ e => fun s => same_after pl e (f_in s) && (f_head s =? 0)
  | EFallback p f | ESegragator _ p f => fun s => same_after pl p (fst s) && same_after pl f (snd s)
  | EOverflow e => fun s => same_after pl e (o_in s)
  | _ => fun _ => false
  end.

(** The assertions in the move operations hold. *)
Fixpoint may_move (pl : platform) (e : aexp) : a_st (den pl e) -> bool :=
  match e with
  | ELinear _ => fun s => l_cnt s =? 0
  | EFreelist _ _ e => fun s => may_move pl e (f_in s) && (same_after pl e (f_in s) || (f_head s =? 0))
  | EFallback p f | ESegragator _ p f => fun s => may_move pl p (fst s) && may_move pl f (snd s)
  | EOverflow e => fun s => may_move pl e (o_in s)
  | _ => fun _ => true
  end.

(** All objects of the type compare equal. *)
Fixpoint stateless (e : aexp) : bool :=
  match e with
  | ENull | EMalloc => true
  | EFallback p f | ESegragator _ p f => stateless p && stateless f
  | EOverflow e => stateless e
  | _ => false
  end.

(** Types all of whose objects may be moved at any time, with blocks outstanding. *)
Fixpoint moves_always (e : aexp) : bool :=
  match e with
  | ENull | EMalloc | ECascading _ => true
  | EFreelist _ _ e => stateless e
  | EFallback p f | ESegragator _ p f => moves_always p && moves_always f
  | EOverflow e => moves_always e
  | _ => false
  end.

(** Types all of whose objects may be moved when no block is outstanding. *)
Fixpoint moves_empty (e : aexp) : bool :=
  match e with
  | ENull | EMalloc | ECascading _ | ELinear _ => true
  | EFreelist _ _ e => stateless e
  | EFallback p f | ESegragator _ p f => moves_empty p && moves_empty f
  | EOverflow e => moves_empty e
  | _ => false
  end.
