(** The noexcept clauses of the headers, and what becomes of exceptions.

    A function declared noexcept that an exception tries to leave calls std::terminate.  This
    file records, for every member function, its noexcept clause and the calls its body makes,
    and defines which members an exception can leave and which can terminate the program.  The
    order of the calls and the conditions under which they are made are abstracted: a call that
    occurs in a body may be made.  Exceptions come from locking a mutex (std::mutex::lock may
    throw, the comment of threaded.h:61), from writing to the stream of overflow, and from the
    constructors, assignments, destructors and comparators of elements. *)
From Verif Require Import Base Mem Bits AlignedMalloc Allocators Checked Tree Laws Client Env Vector Array Heap.

(** * Allocators *)

Inductive member :=
| MAllocate | MDeallocate | MOwns | MMaxSize | MConstruct | MDestroy
| MDefault     (** the default constructor *)
| MAssign      (** operator= from an rvalue *)
| MSet         (** global::set_allocator *)
| MDtor.       (** the destructor *)

(** Which operations of the user's types cannot throw. *)
Record user := User {
  u_new : bool;      (** constructors of T *)
  u_asg : bool;      (** assignments of T *)
  u_del : bool;      (** the destructor of T *)
  u_cmp : bool;      (** the comparator, and operator== of T *)
  u_out : bool       (** operator<< of the stream of overflow *)
}.

(** std::is_nothrow_constructible also requires that the destructor does not throw. *)
Definition nothrow_new (u : user) : bool := u_new u && u_del u.

(** The type has a usable operator=(T&&): threaded.h:46 deletes it; overflow has a member of
    reference type (overflow.h:276), so that the defaulted operator of line 82 is deleted. *)
Fixpoint assigns (e : aexp) : bool :=
  match e with
  | EThreaded _ | EOverflow _ => false
  | EFallback p f | ESegragator _ p f => assigns p && assigns f
  | EFreelist _ _ e | EChecked e => assigns e
  | ENull | EMalloc | ELinear _ | EStack _ | ECascading _ | EShared _ | EReference _ | EGlobal _ => true
  end.

(** The noexcept clauses.  Destructors have none and are therefore noexcept.  The value for
    members that do not exist is irrelevant (the traits of meta.h:92-133 are false for them,
    and used below only after the test whether the member exists). *)
Fixpoint nx (u : user) (e : aexp) (m : member) {struct e} : bool :=
  match e, m with
  | _, MDtor => true
  (* global.h:102 *)
  | _, MSet => true
  (* null_allocator.h:14-50, mallocator.h:18-46, linear_allocator.h:21-131, stack_allocator.h:38-102 *)
  | (ENull | EMalloc | ELinear _ | EStack _), _ => true
  (* reference.h:26-107, global.h:26-98: the object itself is elsewhere *)
  | (EReference _ | EGlobal _), (MDefault | MAssign) => true
  | (EReference e | EGlobal e), _ => nx u e m
  (* shared.h:107-108, 199-200: is_nothrow_destructible, true *)
  | EShared _, MAssign => true
  | EShared e, _ => nx u e m
  (* threaded.h:61, 68 *)
  | EThreaded _, (MAllocate | MDeallocate) => false
  | EThreaded e, _ => nx u e m
  (* freelist.h:137 *)
  | EFreelist _ _ _, MDeallocate => true
  (* freelist.h:77-78 *)
  | EFreelist _ _ e, MAssign => assigns e && nx u e MAssign
  | EFreelist _ _ e, _ => nx u e m
  (* cascading.h:45, 93-96, 133-136, 64-65, 176-178, 205-207, 237, 248 *)
  | ECascading _, MDefault => true
  | ECascading e, MAllocate => nx u e MDefault && nx u e MAllocate && (negb (emax e) || nx u e MMaxSize)
  | ECascading e, MDeallocate => nx u e MOwns && nx u e MDeallocate
  | ECascading e, MAssign => assigns e && nx u e MAssign
  | ECascading e, (MConstruct | MDestroy) => nx u e MOwns && nx u e m
  | ECascading e, _ => nx u e m
  (* fallback.h:125-128, 155-158, segragator.h:119-122, 149-152 *)
  | (EFallback p f | ESegragator _ p f), MConstruct =>
      (negb (ecd p) || nx u p MConstruct) && (negb (ecd f) || nx u f MConstruct) && nothrow_new u
  | (EFallback p f | ESegragator _ p f), MDestroy =>
      (negb (ecd p) || nx u p MDestroy) && (negb (ecd f) || nx u f MDestroy) && u_del u
  (* fallback.h:32, 101, 110, segragator.h:98, 107, 182, 190 *)
  | (EFallback p f | ESegragator _ p f), _ => nx u p m && nx u f m
  (* overflow.h:179-181, 197-199 *)
  | EOverflow e, MConstruct => (ecd e && nx u e MConstruct) || nothrow_new u
  | EOverflow e, MDestroy => (ecd e && nx u e MDestroy) || u_del u
  | EOverflow e, _ => nx u e m
  | EChecked e, _ => nx u e m
  end.

(** The member exists. *)
Definition has (e : aexp) (m : member) : bool :=
  match m with
  | MAllocate | MDeallocate | MDtor => true
  | MOwns => eowns e
  | MMaxSize => emax e
  | MConstruct | MDestroy => ecd e
  | MDefault => edefault e
  | MAssign => assigns e
  | MSet => match e with EGlobal e => assigns e | _ => false end
  end.

(** What a body does that may fail. *)
Inductive action :=
| Call (e : aexp) (m : member)
| Lock | Print | NewT | AsgT | DelT | CmpT.

(** The calls in the bodies (constructors and destructors include those of the members). *)
Definition calls (e : aexp) (m : member) : list action :=
  match e with
  | ENull | EMalloc | ELinear _ | EStack _ => []
  | EReference e =>                                    (* reference.h:62-107 *)
      match m with
      | MAllocate | MDeallocate | MOwns | MMaxSize | MConstruct | MDestroy => [Call e m]
      | MDefault | MAssign | MSet | MDtor => []
      end
  | EGlobal e =>                                       (* global.h:26-105 *)
      match m with
      | MAllocate | MDeallocate | MOwns | MMaxSize | MConstruct | MDestroy => [Call e m]
      | MSet => [Call e MAssign]
      | MDefault | MAssign | MDtor => []
      end
  | EShared e =>                                       (* shared.h:64-178, 199-210 *)
      match m with
      | MAssign | MDtor => [Call e MDtor]
      | MSet => []
      | _ => [Call e m]
      end
  | EThreaded e =>                                     (* threaded.h:26-113 *)
      match m with
      | MAllocate | MDeallocate => [Lock; Call e m]
      | MAssign | MSet => []
      | _ => [Call e m]
      end
  | EFreelist _ _ e =>                                 (* freelist.h:41-206, 228-238 *)
      match m with
      | MDeallocate | MSet => []
      | MAssign => [Call e MDeallocate; Call e MAssign]
      | MDtor => [Call e MDeallocate; Call e MDtor]
      | _ => [Call e m]
      end
  | ECascading e =>                                    (* cascading.h:45-281 *)
      match m with
      | MAllocate => [Call e MDefault; Call e MAllocate] ++ (if emax e then [Call e MMaxSize] else [])
      | MDeallocate => [Call e MOwns; Call e MDeallocate; Call e MDtor]
      | MConstruct => [Call e MOwns; Call e MConstruct; NewT]
      | MDestroy => [Call e MOwns; Call e MDestroy; DelT]
      | MOwns => [Call e MOwns]
      | MMaxSize => [Call e MMaxSize]
      | MDefault | MSet => []
      | MAssign | MDtor => [Call e MDtor]
      end
  | EFallback p f =>                                   (* fallback.h:32-195 *)
      match m with
      | MDeallocate => [Call p MOwns; Call p MDeallocate; Call f MDeallocate]
      | MConstruct => Call p MOwns :: (if ecd p then [Call p MConstruct] else []) ++
                      (if ecd f then [Call f MConstruct] else []) ++ [NewT]
      | MDestroy => Call p MOwns :: (if ecd p then [Call p MDestroy] else []) ++
                    (if ecd f then [Call f MDestroy] else []) ++ [DelT]
      | MSet => []
      | _ => [Call p m; Call f m]
      end
  | ESegragator _ p f =>                               (* segragator.h:30-195 *)
      match m with
      | MConstruct => Call p MOwns :: (if ecd p then [Call p MConstruct] else []) ++
                      (if ecd f then [Call f MConstruct] else []) ++ [NewT]
      | MDestroy => Call p MOwns :: (if ecd p then [Call p MDestroy] else []) ++
                    (if ecd f then [Call f MDestroy] else []) ++ [DelT]
      | MSet => []
      | _ => [Call p m; Call f m]
      end
  | EOverflow e =>                                     (* overflow.h:35-236 *)
      match m with
      | MDeallocate => [Print; Call e MDeallocate]
      | MConstruct => if ecd e then [Call e MConstruct] else [NewT]
      | MDestroy => if ecd e then [Call e MDestroy] else [DelT]
      | MDtor => [Print; Call e MDtor]
      | MAssign | MSet => []
      | _ => [Call e m]
      end
  | EChecked e => [Call e m]
  end.

Section throws.
  Context (u : user).

  (** An exception can leave the member, or the action. *)
  Inductive leaves : aexp -> member -> Prop :=
  | leaves_intro e m a : In a (calls e m) -> fails a -> nx u e m = false -> leaves e m
  with fails : action -> Prop :=
  | fails_lock : fails Lock
  | fails_print : u_out u = false -> fails Print
  | fails_new : u_new u = false -> fails NewT
  | fails_asg : u_asg u = false -> fails AsgT
  | fails_del : u_del u = false -> fails DelT
  | fails_cmp : u_cmp u = false -> fails CmpT
  | fails_call e m : leaves e m -> fails (Call e m).

  (** The member can reach std::terminate: an exception meets its own clause, or that of a
      member it calls. *)
  Inductive terminates : aexp -> member -> Prop :=
  | terminates_here e m a : In a (calls e m) -> fails a -> nx u e m = true -> terminates e m
  | terminates_call e m e' m' : In (Call e' m') (calls e m) -> terminates e' m' -> terminates e m.
End throws.

(** * Containers over an allocator type e *)

(** trivial_vector.h: only the four constructors of lines 60, 72, 86 and 106 are not noexcept. *)
Definition vnx (o : vop) : bool :=
  match o with VNewN _ _ _ | VNewFill _ _ _ _ | VNewList _ _ _ | VNewRange _ _ _ => false | _ => true end.

(** The calls of the allocator in the bodies.  The destructor of the container destroys its
    handle of the allocator, and the assignments assign it. *)
Definition vcalls (e : aexp) (o : vop) : list action :=
  match o with
  | VNewN _ _ _ | VNewFill _ _ _ _ | VNewList _ _ _ | VNewRange _ _ _     (* 60-114 *)
  | VCopy _ _ | VCopyAl _ _ _ => [Call e MAllocate]                       (* 116-124, 137-145 *)
  | VMoveAl _ _ _ => [Call e MAllocate; Call e MDeallocate]               (* 147-164 *)
  | VDestroy _ => [Call e MDeallocate; Call e MDtor]                      (* 166-170 *)
  | VAssign _ _ => [Call e MDeallocate; Call e MAssign; Call e MAllocate] (* 172-189 *)
  | VMoveAssign _ _ => [Call e MDeallocate; Call e MAssign]               (* 191-205 *)
  | VResize _ _ | VReserve _ _ | VPush _ _ | VPushRange _ _ =>            (* 285-369, 435-458 *)
      [Call e MAllocate; Call e MDeallocate]
  | VNew _ _ | VMove _ _ | VGet _ _ | VSet _ _ _ | VSize _ | VCap _ | VEmpty _ | VData _
  | VErase _ _ | VEraseRange _ _ _ | VClear _ => []
  end.

(** trivial_array.h: not noexcept are the constructors of lines 58, 69, 82, 101, and resize
    and assign (264, 287). *)
Definition anx (o : aop) : bool :=
  match o with
  | ANewN _ _ _ | ANewFill _ _ _ _ | ANewList _ _ _ | ANewRange _ _ _ | AResize _ _ | AFrom _ _ => false
  | _ => true
  end.

Definition acalls (e : aexp) (o : aop) : list action :=
  match o with
  | ANewN _ _ _ | ANewFill _ _ _ _ | ANewList _ _ _ | ANewRange _ _ _     (* 58-108 *)
  | ACopy _ _ | ACopyAl _ _ _ => [Call e MAllocate]                       (* 110-117, 128-135 *)
  | AMoveAl _ _ _ => [Call e MAllocate; Call e MDeallocate]               (* 137-152 *)
  | ADestroy _ => [Call e MDeallocate; Call e MDtor]                      (* 154-158 *)
  | AAssign _ _ => [Call e MDeallocate; Call e MAssign; Call e MAllocate] (* 160-176 *)
  | AMoveAssign _ _ => [Call e MDeallocate; Call e MAssign]               (* 178-190 *)
  | AResize _ _ | AFrom _ _ => [Call e MAllocate; Call e MDeallocate]     (* 264-303 *)
  | ANew _ _ | AMove _ _ | AGet _ _ | ASet _ _ _ | ASize _ | AEmpty _ | AData _ => []
  end.

(** binary_heap.h: the constructors from a list (92, 109) have no clause; copies and moves
    depend on T (120, 131, 143, 154, 185, 208); everything else is noexcept, the destructor
    implicitly. *)
Definition hnx (u : user) (o : hop) : bool :=
  match o with
  | HNewList _ _ _ _ => false
  | HCopy _ _ | HMove _ _ | HCopyAl _ _ _ | HMoveAl _ _ _ => nothrow_new u
  | HAssign _ _ | HMoveAssign _ _ => u_asg u
  | _ => true
  end.

(** Traits::construct and Traits::destroy (std::allocator_traits). *)
Definition tnew (e : aexp) : action := if ecd e then Call e MConstruct else NewT.
Definition tdel (e : aexp) : action := if ecd e then Call e MDestroy else DelT.

Definition hcalls (e : aexp) (o : hop) : list action :=
  let grow := [Call e MAllocate; tnew e; tdel e; Call e MDeallocate] in   (* 366-396 *)
  let sift := [NewT; AsgT; CmpT; DelT] in                                 (* 414-458 *)
  match o with
  | HNewCap _ _ _ _ => [Call e MAllocate]                                 (* 67-85 *)
  | HNewList _ _ _ _ => grow ++ sift                                      (* 92-118 *)
  | HCopy _ _ | HCopyAl _ _ _ => [Call e MAllocate; tnew e]               (* 120-129, 143-152 *)
  | HMoveAl _ _ _ => [Call e MAllocate; tnew e; Call e MDeallocate]       (* 154-171 *)
  | HDestroy _ => [tdel e; Call e MDeallocate; Call e MDtor]              (* 173-183 *)
  | HAssign _ _ => [tdel e; Call e MDeallocate; Call e MAssign; Call e MAllocate; tnew e] (* 185-206 *)
  | HMoveAssign _ _ => [tdel e; Call e MDeallocate; Call e MAssign]       (* 208-230 *)
  | HReserve _ _ => grow                                                  (* 285-289 *)
  | HInsert _ _ => grow ++ sift                                           (* 298-308 *)
  | HPop _ => NewT :: AsgT :: tdel e :: sift                              (* 325-336 *)
  | HFind _ _ => [CmpT]                                                   (* 343-352 *)
  | HClear _ => [tdel e]                                                  (* 357-363 *)
  | HNew _ _ _ | HMove _ _ | HSize _ | HCap _ | HEmpty _ | HData _ | HAt _ _ | HPeek _ => []
  end.

(** An operation with the given clause and calls can terminate the program. *)
Definition op_terminates (u : user) (clause : bool) (cs : list action) : Prop :=
  (clause = true /\ exists a, In a cs /\ fails u a) \/
  (exists e m, In (Call e m) cs /\ terminates u e m).
(** An exception can leave it. *)
Definition op_leaves (u : user) (clause : bool) (cs : list action) : Prop :=
  clause = false /\ exists a, In a cs /\ fails u a.

(** * Specification *)

(** Allocating, or deallocating, locks a mutex. *)
Fixpoint alloc_locks (e : aexp) : bool :=
  match e with
  | ENull | EMalloc | ELinear _ | EStack _ => false
  | EThreaded _ => true
  | EFallback p f | ESegragator _ p f => alloc_locks p || alloc_locks f
  | EFreelist _ _ e | ECascading e | EOverflow e | EShared e | EReference e | EGlobal e | EChecked e => alloc_locks e
  end.
Fixpoint free_locks (e : aexp) : bool :=
  match e with
  | ENull | EMalloc | ELinear _ | EStack _ => false
  | EThreaded _ => true
  | EFreelist _ _ _ => false      (* blocks are kept *)
  | EFallback p f | ESegragator _ p f => free_locks p || free_locks f
  | ECascading e | EOverflow e | EShared e | EReference e | EGlobal e | EChecked e => free_locks e
  end.

(** Destroying an object of the type (false), or deallocating a block through it (true), gives
    the blocks that a freelist kept back to an allocator that locks.  Deallocating does so where
    cascading drops an emptied node that contains the freelist. *)
Fixpoint stops (dealloc : bool) (e : aexp) : bool :=
  match e with
  | ENull | EMalloc | ELinear _ | EStack _ => false
  | EReference e | EGlobal e => dealloc && stops true e
  | EFreelist _ _ e => negb dealloc && (free_locks e || stops true e || stops false e)
  | ECascading e => stops false e || (dealloc && stops true e)
  | EFallback p f | ESegragator _ p f => stops dealloc p || stops dealloc f
  | EOverflow e | EShared e | EThreaded e | EChecked e => stops dealloc e
  end.

(** Assignment: all types below are assigned without throwing; an exception can leave it; it
    gives the blocks kept by a freelist to an allocator that locks, where no exception can pass. *)
Fixpoint asg_clause (e : aexp) : bool :=
  match e with
  | ECascading e => assigns e && asg_clause e
  | EFreelist _ _ e | EChecked e => asg_clause e
  | EFallback p f | ESegragator _ p f => asg_clause p && asg_clause f
  | _ => true
  end.
Fixpoint asg_leaves (e : aexp) : bool :=
  match e with
  | EFreelist _ _ e => negb (asg_clause e) && (free_locks e || asg_leaves e)
  | EFallback p f | ESegragator _ p f => negb (asg_clause p && asg_clause f) && (asg_leaves p || asg_leaves f)
  | EChecked e => asg_leaves e
  | _ => false
  end.
Fixpoint asg_stops (e : aexp) : bool :=
  match e with
  | EFreelist _ _ e => (asg_clause e && free_locks e) || stops true e || asg_stops e
  | EFallback p f | ESegragator _ p f => asg_stops p || asg_stops f
  | ECascading e | EShared e => stops false e
  | EChecked e => asg_stops e
  | _ => false
  end.

(** There is no freelist over an allocator that locks when it deallocates. *)
Fixpoint quiet_lists (e : aexp) : bool :=
  match e with
  | ENull | EMalloc | ELinear _ | EStack _ => true
  | EFreelist _ _ e => negb (free_locks e) && quiet_lists e
  | EFallback p f | ESegragator _ p f => quiet_lists p && quiet_lists f
  | ECascading e | EOverflow e | EShared e | EThreaded e | EReference e | EGlobal e | EChecked e => quiet_lists e
  end.

(** An allocator type without some of its members: calling allocate, deallocate, the
    constructor or the destructor if it is not kept is undefined behaviour. *)
Definition mute (keep : member -> bool) (A : alloc) : alloc := {|
  a_st := a_st A;
  a_size := a_size A;
  a_init := if keep MDefault then a_init A else fun _ => ubm UBLifetime;
  a_dtor := if keep MDtor then a_dtor A else fun _ _ => ubm UBLifetime;
  a_alloc := if keep MAllocate then a_alloc A else fun _ _ _ => ubm UBLifetime;
  a_free := if keep MDeallocate then a_free A else fun _ _ _ _ => ubm UBLifetime;
  a_owns := a_owns A;
  a_max := a_max A;
  a_cd := a_cd A |}.

(** The operations of one kind differ in their arguments only. *)
Definition vkind (o : vop) : nat :=
  match o with
  | VNew _ _ => 0 | VNewN _ _ _ => 1 | VNewFill _ _ _ _ => 2 | VNewList _ _ _ => 3
  | VNewRange _ _ _ => 4 | VCopy _ _ => 5 | VMove _ _ => 6 | VCopyAl _ _ _ => 7 | VMoveAl _ _ _ => 8
  | VDestroy _ => 9 | VAssign _ _ => 10 | VMoveAssign _ _ => 11 | VGet _ _ => 12 | VSet _ _ _ => 13
  | VSize _ => 14 | VCap _ => 15 | VEmpty _ => 16 | VData _ => 17 | VResize _ _ => 18
  | VReserve _ _ => 19 | VPush _ _ => 20 | VPushRange _ _ => 21 | VErase _ _ => 22
  | VEraseRange _ _ _ => 23 | VClear _ => 24
  end%nat.
Definition akind (o : aop) : nat :=
  match o with
  | ANew _ _ => 0 | ANewN _ _ _ => 1 | ANewFill _ _ _ _ => 2 | ANewList _ _ _ => 3
  | ANewRange _ _ _ => 4 | ACopy _ _ => 5 | AMove _ _ => 6 | ACopyAl _ _ _ => 7 | AMoveAl _ _ _ => 8
  | ADestroy _ => 9 | AAssign _ _ => 10 | AMoveAssign _ _ => 11 | AGet _ _ => 12 | ASet _ _ _ => 13
  | ASize _ => 14 | AEmpty _ => 15 | AData _ => 16 | AResize _ _ => 17 | AFrom _ _ => 18
  end%nat.
Definition hkind (o : hop) : nat :=
  match o with
  | HNew _ _ _ => 0 | HNewCap _ _ _ _ => 1 | HNewList _ _ _ _ => 2 | HCopy _ _ => 3 | HMove _ _ => 4
  | HCopyAl _ _ _ => 5 | HMoveAl _ _ _ => 6 | HDestroy _ => 7 | HAssign _ _ => 8 | HMoveAssign _ _ => 9
  | HSize _ => 10 | HCap _ => 11 | HEmpty _ => 12 | HData _ => 13 | HAt _ _ => 14 | HReserve _ _ => 15
  | HInsert _ _ => 16 | HPeek _ => 17 | HPop _ => 18 | HFind _ _ => 19 | HClear _ => 20
  end%nat.

(** Some operations, and then one more, in which the steps are others. *)
Definition attempt {A O X} (stp stp' : O -> env A * gmap nat X -> M (cobs * (env A * gmap nat X))) (ops : list O) (o : O) : M cobs :=
  E <- init_all A 4096 0 1 ∅ ;; ' (_, q) <- crun A stp ops (E, ∅) ;; ' (ob, _) <- stp' o q ;; ret ob.
Definition completes {B} (r : res B) : bool := match r with Ok _ _ _ => true | Err _ _ => false end.

Definition except (m m' : member) : bool :=
  match m, m' with MAllocate, MAllocate | MDeallocate, MDeallocate => false | _, _ => true end.

(** There is a program in which an operation of the kind of [o] calls the member [m]. *)
Definition vmakes (m : member) (o : vop) : Prop :=
  exists A sz ops o' w, vkind o' = vkind o /\
    let stp := vstep A 4096 sz 1 in let stp' := vstep (mute (except m) A) 4096 sz 1 in
    completes (attempt stp stp ops o' w) = true /\ completes (@attempt A _ _ stp stp' ops o' w) = false.
Definition amakes (m : member) (o : aop) : Prop :=
  exists A sz ops o' w, akind o' = akind o /\
    let stp := astep A 4096 sz 1 in let stp' := astep (mute (except m) A) 4096 sz 1 in
    completes (attempt stp stp ops o' w) = true /\ completes (@attempt A _ _ stp stp' ops o' w) = false.
Definition hmakes (m : member) (o : hop) : Prop :=
  exists A sz T comp eqv ops o' w, hkind o' = hkind o /\
    let stp := hstep A 4096 sz T comp eqv 1 in let stp' := hstep (mute (except m) A) 4096 sz T comp eqv 1 in
    completes (attempt stp stp ops o' w) = true /\ completes (@attempt A _ _ stp stp' ops o' w) = false.
