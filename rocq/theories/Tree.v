(** Every composition of the library's allocators. *)
From Verif Require Import Base Mem Bits AlignedMalloc Allocators Checked.

(** Type expressions built from the allocator templates of include/ktl/allocators. *)
Inductive aexp :=
| ENull                                      (** null_allocator *)
| EMalloc                                    (** mallocator *)
| ELinear (Size : N)                         (** linear_allocator<Size> *)
| EStack (Size : N)                          (** stack_allocator<Size> *)
| EFreelist (Min Max : N) (e : aexp)         (** freelist<Min, Max, e> *)
| ECascading (e : aexp)                      (** cascading<e> *)
| EFallback (p f : aexp)                     (** fallback<p, f> *)
| ESegragator (Threshold : N) (p f : aexp)   (** segragator<Threshold, p, f> *)
| EOverflow (e : aexp)                       (** overflow<e> *)
| EShared (e : aexp)                         (** shared<e> or atomic_shared<e> *)
| EThreaded (e : aexp)                       (** threaded<e> *)
| EReference (e : aexp)                      (** reference<e> *)
| EGlobal (e : aexp)                         (** global<e> *)
| EChecked (e : aexp).                       (** not in the library: see Checked.v *)

Fixpoint den (pl : platform) (e : aexp) : alloc :=
  match e with
  | ENull => null_allocator
  | EMalloc => mallocator pl
  | ELinear Size => linear_allocator Size
  | EStack Size => stack_allocator Size
  | EFreelist Min Max e => freelist Min Max (den pl e)
  | ECascading e => cascading pl (den pl e)
  | EFallback p f => fallback (den pl p) (den pl f)
  | ESegragator T p f => segragator (den pl p) (den pl f) T
  | EOverflow e => overflow (den pl e)
  | EShared e => shared pl (den pl e)
  | EThreaded e => threaded (den pl e)
  | EReference e => reference (den pl e)
  | EGlobal e => global (den pl e)
  | EChecked e => checked (den pl e)
  end.

(** The type has an owns member. *)
Fixpoint eowns (e : aexp) : bool :=
  match e with
  | ENull | ELinear _ | EStack _ | ECascading _ => true
  | EMalloc => false
  | EFallback p f | ESegragator _ p f => eowns p && eowns f
  | EFreelist _ _ e | EOverflow e | EShared e | EThreaded e | EReference e | EGlobal e | EChecked e => eowns e
  end.

(** The type has a max_size member. *)
Fixpoint emax (e : aexp) : bool :=
  match e with
  | ELinear _ | EStack _ => true
  | ENull | EMalloc => false
  | EFallback p f | ESegragator _ p f => emax p && emax f
  | EFreelist _ _ e | ECascading e | EOverflow e | EShared e | EThreaded e | EReference e | EGlobal e | EChecked e => emax e
  end.

(** max_size may be called in every state: no cascading whose inner type has max_size
    (cascading.h:239 dereferences the first node). *)
Fixpoint eready (e : aexp) : bool :=
  match e with
  | ENull | EMalloc | ELinear _ | EStack _ => true
  | ECascading e => negb (emax e)
  | EFallback p f | ESegragator _ p f => eready p && eready f
  | EFreelist _ _ e | EOverflow e | EShared e | EThreaded e | EReference e | EGlobal e | EChecked e => eready e
  end.

(** The type is default constructible: stack_allocator, reference and overflow are not. *)
Fixpoint edefault (e : aexp) : bool :=
  match e with
  | ENull | EMalloc | ELinear _ | ECascading _ => true
  | EStack _ | EReference _ | EOverflow _ => false
  | EFallback p f | ESegragator _ p f => edefault p && edefault f
  | EFreelist _ _ e | EShared e | EThreaded e | EGlobal e | EChecked e => edefault e
  end.

(** Number of inline bytes. *)
Fixpoint esize (e : aexp) : N :=
  match e with
  | ENull | EMalloc | ECascading _ | EShared _ => 0
  | ELinear Size | EStack Size => Size + align_to_architecture Size
  | EFallback p f | ESegragator _ p f => esize p + esize f
  | EFreelist _ _ e | EOverflow e | EThreaded e | EReference e | EGlobal e | EChecked e => esize e
  end.

(** The type is accepted by the compiler (static_assert of freelist.h:28, fallback.h:27,
    cascading.h:31, default construction of nodes) and, apart from cascading of something
    whose max_size needs a node (see C22), usable. *)
Fixpoint wf (e : aexp) : bool :=
  match e with
  | ENull | EMalloc => true
  | ELinear Size | EStack Size => Size <? W
  | EFreelist Min Max e => (8 <=? Max) && (Max <? W) && wf e
  | ECascading e => wf e && eowns e && edefault e && eready e && (esize e + 32 <? W)
  | EFallback p f => wf p && wf f && eowns p
  | ESegragator _ p f => wf p && wf f
  | EShared e => wf e && (esize e + 32 <? W)
  | EOverflow e | EThreaded e | EReference e | EGlobal e | EChecked e => wf e
  end.

(** The type obtains storage for an allocator object at run time; if the heap is exhausted,
    the result is not checked (aligned_malloc.h:89-96). *)
Fixpoint eboxed (e : aexp) : bool :=
  match e with
  | ENull | EMalloc | ELinear _ | EStack _ => false
  | ECascading _ | EShared _ => true
  | EFallback p f | ESegragator _ p f => eboxed p || eboxed f
  | EFreelist _ _ e | EOverflow e | EThreaded e | EReference e | EGlobal e | EChecked e => eboxed e
  end.

(** Requests that no layer maps to a wrapped-around size or (fallback, cascading) treats as
    empty. *)
Fixpoint ereq (pl : platform) (e : aexp) (n : N) : bool :=
  match e with
  | ENull => true
  | EMalloc => match pl with PGeneric => n + 16 <? W | _ => true end
  | ELinear Size | EStack Size => n + 15 + Size <? W
  | EFreelist Min Max e => negb ((Min <? n) && (n <=? Max)) || ereq pl e Max
  | ECascading e => (0 <? n) && ereq pl e n
  | EFallback p f => (0 <? n) && ereq pl p n && ereq pl f n
  | ESegragator T p f => if n <=? T then ereq pl p n else ereq pl f n
  | EOverflow e => (n + 128 <? W) && ereq pl e (n + 128)
  | EShared e | EThreaded e | EReference e | EGlobal e | EChecked e => ereq pl e n
  end.

(** max_size may be called in this state. *)
Fixpoint eready_now (pl : platform) (e : aexp) : N -> a_st (den pl e) -> bool :=
  match e with
  | ENull | EMalloc | ELinear _ | EStack _ => fun _ _ => true
  | EFreelist _ _ e => fun b s => eready_now pl e b (f_in s)
  | ECascading e => fun _ s => match s with [] => false | nd :: _ => eready_now pl e (nd_addr nd) (nd_in nd) end
  | EFallback p f | ESegragator _ p f => fun b s =>
    eready_now pl p b (fst s) && eready_now pl f (b + esize p) (snd s)
  | EOverflow e => fun b s => eready_now pl e b (o_in s)
  | EShared e => fun _ s => eready_now pl e (sh_block s) (sh_in s)
  | EThreaded e | EReference e | EGlobal e => eready_now pl e
  | EChecked e => fun b s => eready_now pl e b (fst s)
  end.
