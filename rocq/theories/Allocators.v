(** Models of the allocators in include/ktl/allocators.

    An allocator *type* is a record [alloc]; an allocator template is a function between
    such records.  An allocator *object* consists of inline bytes in memory ([a_size] bytes
    at some base address: the buffers of linear_allocator and stack) and of its remaining
    fields, kept in the Gallina value of type [a_st]. *)
From Verif Require Import Base Mem Bits AlignedMalloc.

(** construct or destroy *)
Inductive cd := Construct | Destroy.

Record alloc := Alloc {
  a_st : Type;
  (** size of the inline bytes, a multiple of 16 *)
  a_size : N;
  (** constructor and destructor of the allocator object at the given base address *)
  a_init : N -> M a_st;
  a_dtor : N -> a_st -> M unit;
  (** allocate(n), deallocate(p, n) *)
  a_alloc : N -> a_st -> N -> M (N * a_st);
  a_free : N -> a_st -> N -> N -> M a_st;
  (** owns(p), max_size(), construct(p, ...)/destroy(p): absent if the C++ class has no such
      member.  The last argument of [a_cd] is the constructor or destructor of the element. *)
  a_owns : option (N -> a_st -> N -> bool);
  a_max : option (N -> a_st -> M N);
  a_cd : option (cd -> N -> a_st -> N -> M unit -> M a_st)
}.

(** * null_allocator *)

(** null_allocator.h:35-50.  No max_size, no construct. *)
Definition null_allocator : alloc := {|
  a_st := unit;
  a_size := 0;
  a_init := fun _ => ret tt;
  a_dtor := fun _ _ => ret tt;
  (* 35-38 *)
  a_alloc := fun _ s _ => ret (0, s);
  (* 40-43 *)
  a_free := fun _ s p _ => ktl_assert (p =? 0) ;;; ret s;
  (* 47-50 *)
  a_owns := Some (fun _ _ p => p =? 0);
  a_max := None;
  a_cd := None |}.

(** * mallocator *)

(** mallocator.h:39-47.  No owns, no max_size, no construct. *)
Definition mallocator (pl : platform) : alloc := {|
  a_st := unit;
  a_size := 0;
  a_init := fun _ => ret tt;
  a_dtor := fun _ _ => ret tt;
  (* 39-42 *)
  a_alloc := fun _ s n => p <- aligned_malloc pl n ALIGNMENT ;; ret (p, s);
  (* 44-47 *)
  a_free := fun _ s p _ => aligned_free pl p ;;; ret s;
  a_owns := None;
  a_max := None;
  a_cd := None |}.

(** * linear_allocator and stack_allocator *)

(** m_Free and m_ObjectCount, linear_allocator.h:142-143 (stack: stack_allocator.h:19-20). *)
Record lin := Lin { l_free : N; l_cnt : N }.

(** linear_allocator.h:77: n plus padding. *)
Definition padded (n : N) : N := add64 n (align_to_architecture n).

(** linear_allocator.h:75-88; stack_allocator.h:63-76 is the same code. *)
Definition lin_alloc (Size base : N) (s : lin) (n : N) : M (N * lin) :=
  let total := padded n in
  if Size <? add64 (sub64 (l_free s) base) total then ret (0, s)
  else ret (l_free s, Lin (add64 (l_free s) total) (add64 (l_cnt s) total)).

(** linear_allocator.h:96-110 without the assertion; stack_allocator.h:78-90 is the same code. *)
Definition lin_free (base : N) (s : lin) (p n : N) : lin :=
  let total := padded n in
  let f := if sub64 (l_free s) total =? p then sub64 (l_free s) total else l_free s in
  let c := sub64 (l_cnt s) total in
  Lin (if c =? 0 then base else f) c.

(** linear_allocator.h:128-137, stack_allocator.h:99-108. *)
Definition lin_owns (Size base p : N) : bool := (base <=? p) && (p <? add64 base Size).

(** linear_allocator.h:21-24: zero-initialised buffer (stack: stack_allocator.h:22-25). *)
Definition lin_init (Size base : N) : M lin :=
  memset base 0 Size ;;; ret (Lin base 0).

Definition linear_allocator (Size : N) : alloc := {|
  a_st := lin;
  a_size := Size + align_to_architecture Size;
  a_init := lin_init Size;
  a_dtor := fun _ _ => ret tt;
  a_alloc := lin_alloc Size;
  (* 96-110, with the assertion of line 98 *)
  a_free := fun base s p n => ktl_assert (negb (p =? 0)) ;;; ret (lin_free base s p n);
  a_owns := Some (fun base _ p => lin_owns Size base p);
  (* 118-121 *)
  a_max := Some (fun _ _ => ret Size);
  a_cd := None |}.

(** A stack_allocator together with the stack<Size> object it points to (stack_allocator.h:15-26):
    the inline bytes are those of the stack object.  Copies of the handle refer to the same
    stack, hence to the same state. *)
Definition stack_allocator (Size : N) : alloc := {|
  a_st := lin;
  a_size := Size + align_to_architecture Size;
  a_init := lin_init Size;
  a_dtor := fun _ _ => ret tt;
  a_alloc := lin_alloc Size;
  (* 78-90, no assertion *)
  a_free := fun base s p n => ret (lin_free base s p n);
  a_owns := Some (fun base _ p => lin_owns Size base p);
  (* 94-97 *)
  a_max := Some (fun _ _ => ret Size);
  a_cd := None |}.

(** * Forwarding of optional members *)
Definition omap2 {A B C} (f : A -> B -> C) (x : option A) (y : option B) : option C :=
  match x, y with Some a, Some b => Some (f a b) | _, _ => None end.

(** * freelist *)
Section freelist.
  Context (Min Max : N) (A : alloc).

  (** m_Alloc and m_Free, freelist.h:241-242. *)
  Record fl := Fl { f_in : a_st A; f_head : N }.

  Definition fl_range (n : N) : bool := (Min <? n) && (n <=? Max).

  (** freelist.h:113-129.  [next->Next] is the word at offset 0 of the block. *)
  Definition fl_alloc (base : N) (s : fl) (n : N) : M (N * fl) :=
    if fl_range n then
      if f_head s =? 0 then
        ' (p, s') <- a_alloc A base (f_in s) Max ;;
        ret (p, Fl s' (f_head s))
      else
        nxt <- rd_ptr (f_head s) ;;
        ret (f_head s, Fl (f_in s) nxt)
    else ret (0, s).

  (** freelist.h:137-147. *)
  Definition fl_free (base : N) (s : fl) (p n : N) : M fl :=
    ktl_assert (negb (p =? 0)) ;;;
    if fl_range n && negb (p =? 0) then
      wr_ptr p (f_head s) ;;; ret (Fl (f_in s) p)
    else ret s.

  (** freelist.h:228-238.  The loop runs as long as the list; [fuel] is the number of live
      bytes, which bounds the length of every chain (proved: the fuel is never exhausted). *)
  Fixpoint fl_release (fuel : nat) (base : N) (s : a_st A) (nxt : N) : M (a_st A) :=
    match fuel with
    | O => ubm UBLoop
    | S fuel =>
      if nxt =? 0 then ret s
      else
        nxt' <- rd_ptr nxt ;;
        s' <- a_free A base s nxt Max ;;
        fl_release fuel base s' nxt'
    end.

  (** freelist.h:70-73, then the destructor of m_Alloc. *)
  Definition fl_dtor (base : N) (s : fl) : M unit :=
    (fun w => (s' <- fl_release (S (size (mem (st w)))) base (f_in s) (f_head s) ;;
               a_dtor A base s') w).

  Definition freelist : alloc := {|
    a_st := fl;
    a_size := a_size A;
    (* 40-55 *)
    a_init := fun base => s <- a_init A base ;; ret (Fl s 0);
    a_dtor := fl_dtor;
    a_alloc := fl_alloc;
    a_free := fl_free;
    (* 200-206 *)
    a_owns := option_map (fun o base s p => o base (f_in s) p) (a_owns A);
    (* 186-192 *)
    a_max := option_map (fun o base s => o base (f_in s)) (a_max A);
    (* 158-177 *)
    a_cd := option_map (fun o c base s p act =>
              s' <- o c base (f_in s) p act ;; ret (Fl s' (f_head s))) (a_cd A) |}.
End freelist.
Arguments Fl {A}.
Arguments f_in {A}.
Arguments f_head {A}.

(** * cascading *)
Section cascading.
  Context (pl : platform) (A : alloc).

  (** One node, cascading.h:37-42: its address, the fields of its allocator (whose inline bytes
      are at offset 0 of the node), Allocations.  m_Node and the Next pointers are represented
      by the list of nodes, first = m_Node; the storage of every node is a real malloc block. *)
  Record node := Node { nd_addr : N; nd_in : a_st A; nd_cnt : N }.

  (** sizeof(node): the allocator, Allocations and Next. *)
  Definition node_size : N := a_size A + 16.

  (** detail::aligned_new<node>(ALIGNMENT), utility/aligned_malloc.h:89-96: the result of
      aligned_malloc is not checked, so a failure is undefined behaviour. *)
  Definition new_node : M node :=
    p <- aligned_malloc pl node_size ALIGNMENT ;;
    if p =? 0 then emit EvFail ;;; ubm UBNull
    else s <- a_init A p ;; ret (Node p s 0).

  (** detail::aligned_delete(node), utility/aligned_malloc.h:98-104. *)
  Definition del_node (nd : node) : M unit :=
    a_dtor A (nd_addr nd) (nd_in nd) ;;; aligned_free pl (nd_addr nd).

  (** cascading.h:93-125. *)
  Definition casc_alloc (s : list node) (n : N) : M (N * list node) :=
    (* 99-100 *)
    ' (nd, rest) <- match s with
                    | [] => nd <- new_node ;; ret (nd, [])
                    | nd :: rest => ret (nd, rest)
                    end ;;
    (* 102-106 *)
    over <- match a_max A with
            | Some mx => m <- mx (nd_addr nd) (nd_in nd) ;; ret (m <? n)
            | None => ret false
            end ;;
    if over then ret (0, nd :: rest)
    else
      (* 108 *)
      ' (p, si) <- a_alloc A (nd_addr nd) (nd_in nd) n ;;
      let nd := Node (nd_addr nd) si (nd_cnt nd) in
      if p =? 0 then
        (* 111-119 *)
        nd2 <- new_node ;;
        ' (p2, si2) <- a_alloc A (nd_addr nd2) (nd_in nd2) n ;;
        let c2 := if p2 =? 0 then nd_cnt nd2 else add64 (nd_cnt nd2) 1 in
        ret (p2, Node (nd_addr nd2) si2 c2 :: nd :: rest)
      else
        (* 121-122 *)
        ret (p, Node (nd_addr nd) si (add64 (nd_cnt nd) 1) :: rest).

  Context (owns : N -> a_st A -> N -> bool).

  (** cascading.h:140-162; [prev] tells whether the loop has passed the first node. *)
  Fixpoint casc_free_loop (prev : bool) (s : list node) (p n : N) : M (list node) :=
    match s with
    | [] => ret []
    | nd :: rest =>
      if owns (nd_addr nd) (nd_in nd) p then
        si <- a_free A (nd_addr nd) (nd_in nd) p n ;;
        let nd := Node (nd_addr nd) si (sub64 (nd_cnt nd) 1) in
        if (nd_cnt nd =? 0) && prev then del_node nd ;;; ret rest
        else ret (nd :: rest)
      else
        rest' <- casc_free_loop true rest p n ;;
        ret (nd :: rest')
    end.

  (** cascading.h:133-163. *)
  Definition casc_free (s : list node) (p n : N) : M (list node) :=
    ktl_assert (negb (p =? 0)) ;;; casc_free_loop false s p n.

  (** cascading.h:247-260. *)
  Definition casc_owns (s : list node) (p : N) : bool :=
    existsb (fun nd => owns (nd_addr nd) (nd_in nd) p) s.

  (** cascading.h:174-196 and 203-225. *)
  Fixpoint casc_cd (o : cd -> N -> a_st A -> N -> M unit -> M (a_st A))
      (c : cd) (s : list node) (p : N) (act : M unit) : M (list node) :=
    match s with
    | [] => ktl_assert false ;;; act ;;; ret []
    | nd :: rest =>
      if owns (nd_addr nd) (nd_in nd) p then
        si <- o c (nd_addr nd) (nd_in nd) p act ;;
        ret (Node (nd_addr nd) si (nd_cnt nd) :: rest)
      else
        rest' <- casc_cd o c rest p act ;; ret (nd :: rest')
    end.

  (** cascading.h:234-240: m_Node is dereferenced unconditionally. *)
  Definition casc_max (mx : N -> a_st A -> M N) (s : list node) : M N :=
    match s with
    | [] => ubm UBNull
    | nd :: _ => mx (nd_addr nd) (nd_in nd)
    end.

  (** cascading.h:264-281; the assertion of line 273 holds for the first node only. *)
  Fixpoint casc_release (first : bool) (s : list node) : M unit :=
    match s with
    | [] => ret tt
    | nd :: rest =>
      (if first then ret tt else emit (EvAssert ARelease)) ;;;
      del_node nd ;;; casc_release false rest
    end.

  Definition cascading_with : alloc := {|
    a_st := list node;
    a_size := 0;
    (* 45-46 *)
    a_init := fun _ => ret [];
    (* 57-60 *)
    a_dtor := fun _ s => casc_release true s;
    a_alloc := fun _ s n => casc_alloc s n;
    a_free := fun _ s p n => casc_free s p n;
    a_owns := Some (fun _ s p => casc_owns s p);
    a_max := option_map (fun mx _ s => casc_max mx s) (a_max A);
    a_cd := option_map (fun o c _ s p act => casc_cd o c s p act) (a_cd A) |}.
End cascading.
Arguments Node {A}.
Arguments nd_addr {A}.
Arguments nd_in {A}.
Arguments nd_cnt {A}.

(** cascading.h:31: static_assert(has_owns).  Without owns the type does not exist; the model
    then uses a function that owns nothing. *)
Definition cascading (pl : platform) (A : alloc) : alloc :=
  cascading_with pl A (match a_owns A with Some o => o | None => fun _ _ _ => false end).

(** * fallback and segragator *)
Section pair.
  Context (P F : alloc).

  (** Construction in declaration order, destruction in reverse; m_Fallback is placed after
      m_Primary (fallback.h:206-207, segragator.h:200-201). *)
  Definition pair_init (base : N) : M (a_st P * a_st F) :=
    sp <- a_init P base ;; sf <- a_init F (base + a_size P) ;; ret (sp, sf).
  Definition pair_dtor (base : N) (s : a_st P * a_st F) : M unit :=
    a_dtor F (base + a_size P) (snd s) ;;; a_dtor P base (fst s).

  (** fallback.h:193-202, segragator.h:187-196. *)
  Definition pair_owns : option (N -> a_st P * a_st F -> N -> bool) :=
    omap2 (fun oP oF base s p => oP base (fst s) p || oF (base + a_size P) (snd s) p)
      (a_owns P) (a_owns F).

  (** fallback.h:185-191, segragator.h:179-185. *)
  Definition pair_max : option (N -> a_st P * a_st F -> M N) :=
    omap2 (fun mP mF base s =>
      x <- mP base (fst s) ;; y <- mF (base + a_size P) (snd s) ;; ret (N.max x y))
      (a_max P) (a_max F).

  (** fallback.h:123-181, segragator.h:117-175.  Exists if one of the two has it; uses
      m_Primary.owns, so without that member a call does not compile. *)
  Definition pair_cd : option (cd -> N -> a_st P * a_st F -> N -> M unit -> M (a_st P * a_st F)) :=
    match a_owns P with
    | None => None
    | Some oP =>
      let direct s (act : M unit) := act ;;; ret s in
      match a_cd P, a_cd F with
      | None, None => None
      | Some cP, None => Some (fun c base s p act =>
          if oP base (fst s) p
          then s' <- cP c base (fst s) p act ;; ret (s', snd s)
          else direct s act)
      | None, Some cF => Some (fun c base s p act =>
          if oP base (fst s) p then direct s act
          else s' <- cF c (base + a_size P) (snd s) p act ;; ret (fst s, s'))
      | Some cP, Some cF => Some (fun c base s p act =>
          if oP base (fst s) p
          then s' <- cP c base (fst s) p act ;; ret (s', snd s)
          else s' <- cF c (base + a_size P) (snd s) p act ;; ret (fst s, s'))
      end
    end.

  (** fallback.h:100-107. *)
  Definition fb_alloc (base : N) (s : a_st P * a_st F) (n : N) : M (N * (a_st P * a_st F)) :=
    ' (p, sp) <- a_alloc P base (fst s) n ;;
    if p =? 0 then
      ' (p, sf) <- a_alloc F (base + a_size P) (snd s) n ;;
      ret (p, (sp, sf))
    else ret (p, (sp, snd s)).

  (** fallback.h:109-119.  fallback.h:27 requires P::owns. *)
  Definition fb_free (base : N) (s : a_st P * a_st F) (p n : N) : M (a_st P * a_st F) :=
    if match a_owns P with Some o => o base (fst s) p | None => false end
    then sp <- a_free P base (fst s) p n ;; ret (sp, snd s)
    else sf <- a_free F (base + a_size P) (snd s) p n ;; ret (fst s, sf).

  Definition fallback : alloc := {|
    a_st := a_st P * a_st F;
    a_size := a_size P + a_size F;
    a_init := pair_init; a_dtor := pair_dtor;
    a_alloc := fb_alloc; a_free := fb_free;
    a_owns := pair_owns; a_max := pair_max; a_cd := pair_cd |}.

  Context (Threshold : N).

  (** segragator.h:97-104. *)
  Definition seg_alloc (base : N) (s : a_st P * a_st F) (n : N) : M (N * (a_st P * a_st F)) :=
    if n <=? Threshold
    then ' (p, sp) <- a_alloc P base (fst s) n ;; ret (p, (sp, snd s))
    else ' (p, sf) <- a_alloc F (base + a_size P) (snd s) n ;; ret (p, (fst s, sf)).

  (** segragator.h:106-113. *)
  Definition seg_free (base : N) (s : a_st P * a_st F) (p n : N) : M (a_st P * a_st F) :=
    if n <=? Threshold
    then sp <- a_free P base (fst s) p n ;; ret (sp, snd s)
    else sf <- a_free F (base + a_size P) (snd s) p n ;; ret (fst s, sf).

  Definition segragator : alloc := {|
    a_st := a_st P * a_st F;
    a_size := a_size P + a_size F;
    a_init := pair_init; a_dtor := pair_dtor;
    a_alloc := seg_alloc; a_free := seg_free;
    a_owns := pair_owns; a_max := pair_max; a_cd := pair_cd |}.
End pair.

(** * overflow *)

(** Conversion to int64_t (two's complement). *)
Definition s64 (z : Z) : Z := ((z + 2 ^ 63) mod 2 ^ 64 - 2 ^ 63)%Z.

(** overflow.h:27-28. *)
Definition OVERFLOW_TEST : N := 165.
Definition OVERFLOW_SIZE : N := 64.

(** Read one byte through unsigned char*. *)
Definition rd_byte (a : N) : M N :=
  c <- rd a ;; match c with Byte b => ret b | _ => ubm UBUninit end.

(** overflow.h:140-144: i = ptr-1 downto ptr-64, [k] bytes still to be visited. *)
Fixpoint scan_before (k : nat) (ptr i before : N) : M N :=
  match k with
  | O => ret before
  | S k =>
    b <- rd_byte i ;;
    scan_before k ptr (i - 1) (if b =? OVERFLOW_TEST then before else ptr - i)
  end.

(** overflow.h:146-150: i = ptr+n upto ptr+n+63. *)
Fixpoint scan_after (k : nat) (ptr n i after : N) : M N :=
  match k with
  | O => ret after
  | S k =>
    b <- rd_byte i ;;
    scan_after k ptr n (i + 1) (if b =? OVERFLOW_TEST then after else i - ptr - n + 1)
  end.

Section overflow.
  Context (A : alloc).

  (** m_Alloc, m_Allocs, m_Constructs, overflow.h:277-279.  The stream is the event trace. *)
  Record ov := Ov { o_in : a_st A; o_allocs : Z; o_cons : Z }.

  (** overflow.h:104-119.  memset converts the pattern to its low byte. *)
  Definition ov_alloc (base : N) (s : ov) (n : N) : M (N * ov) :=
    let allocs := s64 (o_allocs s + Z.of_N n) in
    ' (ptr, s') <- a_alloc A base (o_in s) (add64 n (OVERFLOW_SIZE * 2)) ;;
    let s'' := Ov s' allocs (o_cons s) in
    if ptr =? 0 then ret (0, s'')
    else
      memset ptr OVERFLOW_TEST OVERFLOW_SIZE ;;;
      memset (add64 (add64 ptr OVERFLOW_SIZE) n) OVERFLOW_TEST OVERFLOW_SIZE ;;;
      ret (add64 ptr OVERFLOW_SIZE, s'').

  (** overflow.h:126-167. *)
  Definition ov_free (base : N) (s : ov) (p n : N) : M ov :=
    ktl_assert (negb (p =? 0)) ;;;
    let allocs := s64 (o_allocs s - Z.of_N n) in
    if p =? 0 then ret (Ov (o_in s) allocs (o_cons s))
    else
      before <- scan_before (N.to_nat OVERFLOW_SIZE) p (sub64 p 1) 0 ;;
      after <- scan_after (N.to_nat OVERFLOW_SIZE) p n (add64 p n) 0 ;;
      (if (before =? 0) && (after =? 0) then ret tt
       else emit (EvCorrupt p n before after)) ;;;
      s' <- a_free A base (o_in s) (sub64 p OVERFLOW_SIZE) (add64 n (OVERFLOW_SIZE * 2)) ;;
      ret (Ov s' allocs (o_cons s)).

  (** overflow.h:59-78, then the destructor of m_Alloc. *)
  Definition ov_dtor (base : N) (s : ov) : M unit :=
    (if (o_allocs s =? 0)%Z then ret tt else emit (EvLeak (o_allocs s))) ;;;
    (if (o_cons s =? 0)%Z then ret tt else emit (EvLogic (o_cons s))) ;;;
    a_dtor A base (o_in s).

  (** overflow.h:178-207. *)
  Definition ov_cd (c : cd) (base : N) (s : ov) (p : N) (act : M unit) : M ov :=
    let cons := s64 (match c with Construct => o_cons s + 1 | Destroy => o_cons s - 1 end) in
    match a_cd A with
    | Some o => s' <- o c base (o_in s) p act ;; ret (Ov s' (o_allocs s) cons)
    | None => act ;;; ret (Ov (o_in s) (o_allocs s) cons)
    end.

  Definition overflow : alloc := {|
    a_st := ov;
    a_size := a_size A;
    (* 35-53 *)
    a_init := fun base => s <- a_init A base ;; ret (Ov s 0 0);
    a_dtor := ov_dtor;
    a_alloc := ov_alloc;
    a_free := ov_free;
    (* 230-236 *)
    a_owns := option_map (fun o base s p => o base (o_in s) p) (a_owns A);
    (* 216-222 *)
    a_max := option_map (fun o base s => o base (o_in s)) (a_max A);
    a_cd := Some ov_cd |}.
End overflow.
Arguments Ov {A}.
Arguments o_in {A}.
Arguments o_allocs {A}.
Arguments o_cons {A}.

(** * shared, reference, threaded, global *)

(** shared.h with a single handle: the block (allocator and UseCount) is obtained from
    aligned_new (shared.h:63-66) and given back when the handle dies (90-93, 199-206).
    Several handles are modelled in Shared.v.  The state is the block address and the fields
    of the wrapped allocator; every member forwards (132-183). *)
Section shared.
  Context (pl : platform) (A : alloc).
  Record sh := Sh { sh_block : N; sh_in : a_st A }.

  Definition shared : alloc := {|
    a_st := sh;
    a_size := 0;
    a_init := fun _ =>
      p <- aligned_malloc pl (a_size A + 16) ALIGNMENT ;;
      if p =? 0 then emit EvFail ;;; ubm UBNull
      else s <- a_init A p ;; ret (Sh p s);
    a_dtor := fun _ s => a_dtor A (sh_block s) (sh_in s) ;;; aligned_free pl (sh_block s);
    a_alloc := fun _ s n =>
      ' (p, s') <- a_alloc A (sh_block s) (sh_in s) n ;; ret (p, Sh (sh_block s) s');
    a_free := fun _ s p n =>
      s' <- a_free A (sh_block s) (sh_in s) p n ;; ret (Sh (sh_block s) s');
    a_owns := option_map (fun o _ s p => o (sh_block s) (sh_in s) p) (a_owns A);
    a_max := option_map (fun o _ s => o (sh_block s) (sh_in s)) (a_max A);
    a_cd := option_map (fun o c _ s p act =>
              s' <- o c (sh_block s) (sh_in s) p act ;; ret (Sh (sh_block s) s')) (a_cd A) |}.
End shared.
Arguments Sh {A}.
Arguments sh_block {A}.
Arguments sh_in {A}.

(** reference.h:14-123, threaded.h:17-129 (single thread; see Threads.v for several) and
    global.h:14-119 forward every member to one allocator object.  That object is a member
    (threaded), an external object (reference) or a static (global); in all cases it is
    constructed before and destroyed after the uses. *)
Definition forwarding (A : alloc) : alloc := {|
  a_st := a_st A;
  a_size := a_size A;
  a_init := a_init A;
  a_dtor := a_dtor A;
  a_alloc := a_alloc A;
  a_free := a_free A;
  a_owns := a_owns A;
  a_max := a_max A;
  a_cd := a_cd A |}.
Definition reference : alloc -> alloc := forwarding.
Definition threaded : alloc -> alloc := forwarding.
Definition global : alloc -> alloc := forwarding.

(** * type_allocator *)

(** type_allocator.h:98-102, 109-113, 152-158 for an element type of [sz] bytes. *)
Definition ta_alloc (sz : N) (A : alloc) (base : N) (s : a_st A) (n : N) : M (N * a_st A) :=
  a_alloc A base s (mul64 sz n).
Definition ta_free (sz : N) (A : alloc) (base : N) (s : a_st A) (p n : N) : M (a_st A) :=
  a_free A base s p (mul64 sz n).
Definition ta_max (sz : N) (A : alloc) : option (N -> a_st A -> M N) :=
  option_map (fun mx base s => m <- mx base s ;; ret (m / sz)) (a_max A).
