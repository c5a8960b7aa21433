(** How often malloc is called: vocabulary of C94. *)
From Verif Require Import Base Mem Allocators Tree Client Env Vector Array HeapPure Heap Mixed.

(** Calls of malloc while an allocator object of this type is constructed, and at most while it serves
    one request. *)
Fixpoint einit (e : aexp) : nat :=
  match e with
  | ENull | EMalloc | ELinear _ | EStack _ | ECascading _ => 0
  | EFallback p f | ESegragator _ p f => einit p + einit f
  | EShared e => 1 + einit e
  | EFreelist _ _ e | EOverflow e | EThreaded e | EReference e | EGlobal e | EChecked e => einit e
  end.
Fixpoint ecalls (e : aexp) : nat :=
  match e with
  | ENull | ELinear _ | EStack _ => 0
  | EMalloc => 1
  | ECascading e => 2 * (1 + einit e + ecalls e)
  | EFallback p f => ecalls p + ecalls f
  | ESegragator _ p f => Nat.max (ecalls p) (ecalls f)
  | EFreelist _ _ e | EOverflow e | EShared e | EThreaded e | EReference e | EGlobal e | EChecked e => ecalls e
  end.

(** Operations that may need storage. *)
Definition o_asks (o : op) : nat := match o with OAlloc _ => 1 | _ => 0 end.
Definition v_asks (o : vop) : nat :=
  match o with
  | VNewN _ _ _ | VNewFill _ _ _ _ | VNewList _ _ _ | VNewRange _ _ _ | VCopy _ _ | VCopyAl _ _ _ | VMoveAl _ _ _
  | VAssign _ _ | VResize _ _ | VReserve _ _ | VPush _ _ | VPushRange _ _ => 1
  | _ => 0
  end.
Definition a_asks (o : aop) : nat :=
  match o with
  | ANewN _ _ _ | ANewFill _ _ _ _ | ANewList _ _ _ | ANewRange _ _ _ | ACopy _ _ | ACopyAl _ _ _ | AMoveAl _ _ _
  | AAssign _ _ | AResize _ _ | AFrom _ _ => 1
  | _ => 0
  end.
Definition h_asks (o : hop) : nat :=
  match o with
  | HNewCap _ _ _ _ | HNewList _ _ _ _ | HCopy _ _ | HCopyAl _ _ _ | HMoveAl _ _ _ | HAssign _ _ | HReserve _ _ | HInsert _ _ => 1
  | _ => 0
  end.
Definition c_asks (o : cop) : nat := match o with OVec o => v_asks o | OArr o => a_asks o | OHeap o => h_asks o end.

Definition count {O} (f : O -> nat) (ops : list O) : nat := foldr (fun o n => f o + n)%nat 0%nat ops.

(** At most [k] calls of malloc: [tick] counts them. *)
Definition within {X} (k : nat) (m : M X) : Prop := forall w x w' e, m w = Ok x w' e -> (tick w' <= tick w + k)%nat.

(** An allocator that makes at most [i] calls while it is constructed, at most [c] to serve a request,
    and none otherwise. *)
Record frugal (A : alloc) (i c : nat) : Prop := {
  fr_init : forall b, within i (a_init A b);
  fr_dtor : forall b s, within 0 (a_dtor A b s);
  fr_alloc : forall b s n, within c (a_alloc A b s n);
  fr_free : forall b s p n, within 0 (a_free A b s p n);
  fr_max : forall mx b s, a_max A = Some mx -> within 0 (mx b s);
  fr_cd : forall o k b s q act, a_cd A = Some o -> within 0 act -> within 0 (o k b s q act) }.

(** The calls made by a program that ended. *)
Definition ticks {X} (r : res X) : option nat := match r with Ok _ w _ => Some (tick w) | Err _ _ => None end.
