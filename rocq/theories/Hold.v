(** The heap that containers hold between two operations: specification. *)
From Verif Require Import Base Mem Bits AlignedMalloc Allocators Checked Tree Client AllocSpec Env Vector Array HeapPure Heap Mixed Budget.

Local Open Scope N_scope.

(** No freelist (it keeps what it got, C101), and cascading only over a linear_allocator whose
    size is a multiple of 16. *)
Fixpoint lean (e : aexp) : bool :=
  match e with
  | EFreelist _ _ _ => false
  | ECascading e => match e with ELinear Size => Size mod 16 =? 0 | _ => false end
  | EFallback p f | ESegragator _ p f => lean p && lean f
  | EOverflow e | EShared e | EThreaded e | EReference e | EGlobal e | EChecked e => lean e
  | ENull | EMalloc | ELinear _ | EStack _ => true
  end.

(** Blocks of the heap that an allocator of this type may hold although nobody holds a block of
    it: one for each shared, and one spare instance for each cascading. *)
Fixpoint spare (e : aexp) : nat :=
  match e with
  | ENull | EMalloc | ELinear _ | EStack _ => 0%nat
  | ECascading _ => 1%nat
  | EFallback p f | ESegragator _ p f => (spare p + spare f)%nat
  | EShared e => S (spare e)
  | EFreelist _ _ e | EOverflow e | EThreaded e | EReference e | EGlobal e | EChecked e => spare e
  end.

(** Containers that have storage. *)
Definition stored {X} (beg : X -> N) (vs : gmap nat X) : nat :=
  length (filter (fun p => beg (snd p) <> 0) (map_to_list vs)).

(** Blocks of the heap, containers with storage, unsupported events. *)
Definition held {X Y} (bad : event -> bool) (beg : X -> N) (r : res (list cobs * (Y * gmap nat X))) : option (nat * nat * bool) :=
  match r with Ok (_, (_, vs)) w e => Some (size (mtab (st w)), stored beg vs, existsb bad e) | Err _ _ => None end.

(** * Types whose storage is all from malloc: the heap that is held is determined. *)
Fixpoint solid (e : aexp) : bool :=
  match e with
  | EMalloc => true
  | ESegragator _ p f => solid p && solid f
  | EOverflow e | EShared e | EThreaded e | EReference e | EGlobal e | EChecked e => solid e
  | ENull | ELinear _ | EStack _ | EFreelist _ _ _ | ECascading _ | EFallback _ _ => false
  end.

(** Bytes of the heap behind a block of [n] bytes: overflow.h:108 adds 128. *)
Fixpoint cost (pl : platform) (e : aexp) (n : N) : N :=
  match e with
  | EMalloc => n + over pl
  | ESegragator T p f => if n <=? T then cost pl p n else cost pl f n
  | EOverflow e => cost pl e (n + 128)
  | EShared e | EThreaded e | EReference e | EGlobal e | EChecked e => cost pl e n
  | ENull | ELinear _ | EStack _ | EFreelist _ _ _ | ECascading _ | EFallback _ _ => 0
  end.

(** Bytes of the heap behind an allocator: the blocks of shared. *)
Fixpoint base (pl : platform) (e : aexp) : N :=
  match e with
  | ESegragator _ p f => base pl p + base pl f
  | EShared e => esize e + 16 + over pl + base pl e
  | EOverflow e | EThreaded e | EReference e | EGlobal e | EChecked e => base pl e
  | EMalloc | ENull | ELinear _ | EStack _ | EFreelist _ _ _ | ECascading _ | EFallback _ _ => 0
  end.

Definition sum (l : list N) : N := fold_right N.add 0 l.

(** Bytes of the heap behind the storage of containers; [len] is the size of a storage in bytes. *)
Definition charged {X} (pl : platform) (e : aexp) (beg len : X -> N) (vs : gmap nat X) : N :=
  sum (map (fun p => cost pl e (len (snd p))) (filter (fun p => beg (snd p) <> 0) (map_to_list vs))).

(** Blocks and bytes of the heap, and what [spare]/[base]/[stored]/[charged] say about them. *)
Definition owed {X Y} (pl : platform) (e : aexp) (bad : event -> bool) (k : nat) (beg len : X -> N)
    (r : res (list cobs * (Y * gmap nat X))) : option ((nat * N) * (nat * N) * bool) :=
  match r with
  | Ok (_, (_, vs)) w ev => Some ((size (mtab (st w)), total (mtab (st w))),
      ((k * spare e + stored beg vs)%nat, N.of_nat k * base pl e + charged pl e beg len vs), existsb bad ev)
  | Err _ _ => None
  end.

(** * Programs with containers of several types *)

(** Containers of one type that have storage, and the bytes of the heap behind it. *)
Definition type_stored (x : objs) : nat :=
  match x with XVec _ m => stored v_beg m | XArr _ m => stored r_beg m | XHeap _ _ m => stored h_beg m end.
Definition type_charged (pl : platform) (e : aexp) (x : objs) : N :=
  match x with
  | XVec _ m => charged pl e v_beg (fun v => v_max v - v_beg v) m
  | XArr _ m => charged pl e r_beg (fun v => r_end v - r_beg v) m
  | XHeap sz _ m => charged pl e h_beg (fun v => sz * h_cap v) m
  end.

Definition all_stored (xs : gmap nat objs) : nat := fold_right Nat.add 0%nat (map (fun p => type_stored (snd p)) (map_to_list xs)).
Definition all_charged (pl : platform) (e : aexp) (xs : gmap nat objs) : N :=
  sum (map (fun p => type_charged pl e (snd p)) (map_to_list xs)).

Definition all_owed {Y} (pl : platform) (e : aexp) (bad : event -> bool) (k : nat)
    (r : res (list cobs * (Y * gmap nat objs))) : option ((nat * N) * (nat * N) * bool) :=
  match r with
  | Ok (_, (_, xs)) w ev => Some ((size (mtab (st w)), total (mtab (st w))),
      ((k * spare e + all_stored xs)%nat, N.of_nat k * base pl e + all_charged pl e xs), existsb bad ev)
  | Err _ _ => None
  end.
