(** How much of the heap a composition may hold on to: specification, and a device of the proof. *)
From Verif Require Import Base Mem Bits AlignedMalloc Allocators Checked Tree Client AllocSpec.

(** * Specification *)
(** Bytes in the blocks of the heap. *)
Definition total (t : gmap N N) : N := map_fold (fun _ n acc => n + acc) 0 t.

(** Bytes that aligned_malloc adds to a request (utility/aligned_malloc.h:48-71). *)
Definition over (pl : platform) : N := match pl with PGeneric => 16 | _ => 0 end.

(** cascading only over a linear_allocator whose size is a multiple of 16: see C68 and
    C101_cascading_creeps for what it holds on to otherwise. *)
Fixpoint steady (e : aexp) : bool :=
  match e with
  | ECascading e => match e with ELinear Size => Size mod 16 =? 0 | _ => false end
  | EFallback p f | ESegragator _ p f => steady p && steady f
  | EFreelist _ _ e | EOverflow e | EShared e | EThreaded e | EReference e | EGlobal e | EChecked e => steady e
  | ENull | EMalloc | ELinear _ | EStack _ => true
  end.

(** Blocks of the heap that suffice for a client with at most [k] blocks at a time: read off
    the type alone. *)
Fixpoint eblocks (e : aexp) (k : nat) : nat :=
  match e with
  | ENull | ELinear _ | EStack _ => 0%nat
  | ECascading _ => k
  | EMalloc => k
  | EFallback p f | ESegragator _ p f => (eblocks p k + eblocks f k)%nat
  | EShared e => (1 + eblocks e k)%nat
  | EFreelist _ _ e | EOverflow e | EThreaded e | EReference e | EGlobal e | EChecked e => eblocks e k
  end.

(** Bytes that suffice if none of the requests exceeds [m]. *)
Fixpoint ebytes (pl : platform) (e : aexp) (k : nat) (m : N) : N :=
  match e with
  | ENull | ELinear _ | EStack _ => 0
  | ECascading e => N.of_nat k * (esize e + 16 + over pl)
  | EMalloc => N.of_nat k * (m + over pl)
  | EFreelist _ Max e => ebytes pl e k Max
  | EFallback p f => ebytes pl p k m + ebytes pl f k m
  | ESegragator T p f => ebytes pl p k (N.min m T) + ebytes pl f k m
  | EOverflow e => ebytes pl e k (m + 128)
  | EShared e => esize e + 16 + over pl + ebytes pl e k m
  | EThreaded e | EReference e | EGlobal e | EChecked e => ebytes pl e k m
  end.

(** The program asks only while it holds fewer than [k] blocks, and for at most [m] bytes. *)
Fixpoint modest (k : nat) (m : N) (bk : book) (ops : list op) (os : list obs) : bool :=
  match ops, os with
  | o :: ops, ob :: os =>
    match o with OAlloc n => Nat.ltb (length (bk_blocks bk)) k && (n <=? m) | _ => true end &&
    modest k m (book_step bk o ob) ops os
  | _, _ => true
  end.

(** Run a program: is it modest, and how many blocks and bytes of the heap are in use at its end? *)
Definition weigh (k : nat) (m : N) (A : alloc) (rdy : N -> a_st A -> bool) (b : N) (ops : list op) : M (bool * nat * N) :=
  s <- a_init A b ;;
  ' (os, _) <- run A b rdy ops s [] ;;
  h <- heap_blocks ;;
  t <- (fun w => Ok (total (mtab (st w))) w []) ;;
  ret (modest k m (Book [] 0 0) ops os, h, t).

(** * Device *)
(** Forwards to [A], counts the outstanding blocks, and refuses what exceeds [k] blocks or is not
    [ok].  Not part of the library; the theorems do not mention it. *)
Definition limited (k : nat) (ok : N -> bool) (A : alloc) : alloc := {|
  a_st := a_st A * nat;
  a_size := a_size A;
  a_init := fun b => s <- a_init A b ;; ret (s, 0%nat);
  a_dtor := fun b s => a_dtor A b (fst s);
  a_alloc := fun b s n =>
    if Nat.ltb (snd s) k && ok n then
      ' (p, s') <- a_alloc A b (fst s) n ;;
      ret (p, (s', if p =? 0 then snd s else S (snd s)))
    else ret (0, s);
  a_free := fun b s p n => s' <- a_free A b (fst s) p n ;; ret (s', Nat.pred (snd s));
  a_owns := option_map (fun o b s q => o b (fst s) q) (a_owns A);
  a_max := option_map (fun mx b s => mx b (fst s)) (a_max A);
  a_cd := option_map (fun o c b s q act => s' <- o c b (fst s) q act ;; ret (s', snd s)) (a_cd A) |}.

Definition upto (m n : N) : bool := n <=? m.

(** [den], with a limit below every freelist and above every cascading. *)
Fixpoint bden (k : nat) (pl : platform) (e : aexp) : alloc :=
  match e with
  | ENull => null_allocator
  | EMalloc => mallocator pl
  | ELinear Size => linear_allocator Size
  | EStack Size => stack_allocator Size
  | EFreelist Min Max e => freelist Min Max (limited k (upto Max) (bden k pl e))
  | ECascading e => limited k (fun _ => true) (cascading pl (bden k pl e))
  | EFallback p f => fallback (bden k pl p) (bden k pl f)
  | ESegragator T p f => segragator (bden k pl p) (bden k pl f) T
  | EOverflow e => overflow (bden k pl e)
  | EShared e => shared pl (bden k pl e)
  | EThreaded e => threaded (bden k pl e)
  | EReference e => reference (bden k pl e)
  | EGlobal e => global (bden k pl e)
  | EChecked e => checked (bden k pl e)
  end.

(** [eready_now] (Tree.v), for [bden]. *)
Fixpoint bready (k : nat) (pl : platform) (e : aexp) : N -> a_st (bden k pl e) -> bool :=
  match e with
  | ENull | EMalloc | ELinear _ | EStack _ => fun _ _ => true
  | EFreelist _ _ e => fun b s => bready k pl e b (fst (f_in s))
  | ECascading e => fun _ s => match fst s with [] => false | nd :: _ => bready k pl e (nd_addr nd) (nd_in nd) end
  | EFallback p f | ESegragator _ p f => fun b s =>
    bready k pl p b (fst s) && bready k pl f (b + esize p) (snd s)
  | EOverflow e => fun b s => bready k pl e b (o_in s)
  | EShared e => fun _ s => bready k pl e (sh_block s) (sh_in s)
  | EThreaded e | EReference e | EGlobal e => bready k pl e
  | EChecked e => fun b s => bready k pl e b (fst s)
  end.
