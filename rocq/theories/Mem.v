(** The machine on which the models run: store, malloc, events, undefined behaviour. *)
From Verif Require Import Base.

(** * Store *)

(** The value of an element object.  [Moved] is the unspecified-but-valid state that a
    move constructor or move assignment leaves behind. *)
Inductive value := Val (n : N) | Moved.

(** One byte of memory: indeterminate, a concrete byte, byte number [i] of the object
    representation of a trivially copyable element, or byte number [i] of a live object of
    non-trivial element type.  Element types are abstract, therefore so are their
    representations. *)
Inductive cell := Undef | Byte (b : N) | Frag (v : value) (i : nat) | Obj (v : value) (i : nat).

(** The byte does not belong to a live object of non-trivial type. *)
Definition deadb (c : cell) : bool := match c with Obj _ _ => false | _ => true end.
Definition dead (c : cell) : Prop := deadb c = true.

Global Instance value_eq_dec : EqDecision value.
Proof. solve_decision. Defined.
Global Instance cell_eq_dec : EqDecision cell.
Proof. solve_decision. Defined.

(** [mem]: the accessible bytes.  [mtab]: live malloc blocks, base address to size.
    [orc]: the addresses malloc will propose (0 = refuse), [tick] the next one. *)
Record store := Store { mem : gmap N cell; mtab : gmap N N }.
Record world := World { st : store; orc : nat -> N; tick : nat }.

(** * Events: everything a program does besides returning a value *)

(** Which assertion failed: [ARelease] is cascading.h:273, [AAny] any other KTL_ASSERT
    (utility/assert.h:13-17). *)
Inductive assert_tag := ARelease | AAny.

Inductive event :=
| EvAssert (t : assert_tag)            (** a KTL_ASSERT would have fired *)
| EvFail                               (** a null result of an allocation was not checked *)
| EvReq (bytes : N)                    (** a container requested [bytes] bytes *)
| EvCorrupt (p n before after : N)     (** overflow.h:153-162, corruption report *)
| EvLeak (bytes : Z)                   (** overflow.h:61-68, leak report *)
| EvLogic (d : Z)                      (** overflow.h:70-77, construct/destroy report *)
| EvRefuse                             (** malloc returned null *)
| EvLock (i a : N)                     (** a thread has locked the mutex [i] of the object at [a]; Locks.v only *)
| EvUnlock (i a : N).                  (** it has unlocked it *)

(** Kinds of undefined behaviour. *)
Inductive ub :=
| UBNull          (** null pointer dereferenced *)
| UBAccess        (** access outside any accessible byte *)
| UBUninit        (** indeterminate or foreign bytes used as a value *)
| UBFree          (** free of something that is not a live malloc block *)
| UBOverlap       (** memcpy between overlapping ranges *)
| UBLifetime      (** use or destruction of an object that is not alive, construction on top of
                      a live one, release of storage that still holds one *)
| UBLoop.         (** a loop of the model ran out of fuel (never happens, see proofs) *)

(** * Computations *)
Inductive res (A : Type) :=
| Ok (a : A) (w : world) (evs : list event)
| Err (u : ub) (evs : list event).
Arguments Ok {A} a w evs.
Arguments Err {A} u evs.

Definition M (A : Type) : Type := world -> res A.

Definition ret {A} (a : A) : M A := fun w => Ok a w [].
Definition ubm {A} (u : ub) : M A := fun _ => Err u [].
Definition bind {A B} (m : M A) (k : A -> M B) : M B := fun w =>
  match m w with
  | Ok a w1 e1 =>
    match k a w1 with
    | Ok b w2 e2 => Ok b w2 (e1 ++ e2)
    | Err u e2 => Err u (e1 ++ e2)
    end
  | Err u e1 => Err u e1
  end.
Definition emit (e : event) : M unit := fun w => Ok tt w [e].

Notation "x <- m ;; k" := (bind m (fun x => k))
  (at level 100, m at next level, right associativity, only parsing).
Notation "' p <- m ;; k" := (bind m (fun x => let p := x in k))
  (at level 100, p pattern, m at next level, right associativity, only parsing).
Notation "m ;;; k" := (bind m (fun _ => k)) (at level 100, right associativity, only parsing).

(** utility/assert.h:13-17.  In a build without KTL_DEBUG_ASSERT this is a no-op, with it
    a breakpoint; the event records that the condition was false. *)
Definition ktl_assert (c : bool) : M unit := if c then ret tt else emit (EvAssert AAny).

(** * Memory access *)
Definition upd_mem (f : gmap N cell -> gmap N cell) (w : world) : world :=
  World (Store (f (mem (st w))) (mtab (st w))) (orc w) (tick w).

(** Read and write one byte. *)
Definition rd (a : N) : M cell := fun w =>
  match mem (st w) !! a with
  | Some c => Ok c w []
  | None => Err (if a =? 0 then UBNull else UBAccess) []
  end.

Definition wr (a : N) (c : cell) : M unit := fun w =>
  match mem (st w) !! a with
  | Some _ => Ok tt (upd_mem <[a := c]> w) []
  | None => Err (if a =? 0 then UBNull else UBAccess) []
  end.

(** Read and write a range. *)
Fixpoint rds (a : N) (n : nat) : M (list cell) :=
  match n with
  | O => ret []
  | S n => c <- rd a ;; cs <- rds (a + 1) n ;; ret (c :: cs)
  end.

Fixpoint wrs (a : N) (cs : list cell) : M unit :=
  match cs with
  | [] => ret tt
  | c :: cs => wr a c ;;; wrs (a + 1) cs
  end.

(** [memset]. *)
Definition memset (a : N) (b : N) (n : N) : M unit := wrs a (repeat (Byte b) (N.to_nat n)).

(** [memcpy].  The call with n = 0 is a no-op whatever the pointers (the C++17 wording
    forbids null pointers even then; every implementation accepts them). *)
Definition memcpy (dst src n : N) : M unit :=
  if n =? 0 then ret tt
  else if (dst <? src + n) && (src <? dst + n) then ubm UBOverlap
  else cs <- rds src (N.to_nat n) ;; wrs dst cs.

(** 64-bit words in memory, little endian. *)
Fixpoint enc (k : nat) (x : N) : list cell :=
  match k with O => [] | S k => Byte (x mod 256) :: enc k (x / 256) end.
Fixpoint dec (cs : list cell) : option N :=
  match cs with
  | [] => Some 0
  | Byte b :: cs => match dec cs with Some x => Some (b + 256 * x) | None => None end
  | _ => None
  end.

Definition rd_ptr (a : N) : M N :=
  cs <- rds a 8 ;; match dec cs with Some x => ret x | None => ubm UBUninit end.
Definition wr_ptr (a p : N) : M unit := wrs a (enc 8 p).

(** * malloc and free *)

(** The bytes [cs] placed at [a]. *)
Fixpoint fill (a : N) (cs : list cell) : gmap N cell :=
  match cs with [] => ∅ | c :: cs => <[a := c]> (fill (a + 1) cs) end.
(** Removal of [n] bytes at [a]. *)
Fixpoint clear (a : N) (n : nat) (m : gmap N cell) : gmap N cell :=
  match n with O => m | S n => delete a (clear (a + 1) n m) end.
(** No byte of [a, a+n) is accessible and no live block starts there. *)
Fixpoint vacant (a : N) (n : nat) (s : store) : bool :=
  match n with
  | O => true
  | S n => match mem s !! a, mtab s !! a with None, None => vacant (a + 1) n s | _, _ => false end
  end.

(** What a conforming malloc may return for [n] bytes with alignment [al]. *)
Definition malloc_valid (al a n : N) (s : store) : bool :=
  negb (a =? 0) && (a mod al =? 0) && (a + n <? W) && vacant a (N.to_nat (N.max n 1)) s.

Definition malloc (al n : N) : M N := fun w =>
  let a := orc w (tick w) in
  let s := st w in
  if malloc_valid al a n s
  then Ok a (World (Store (mem s ∪ fill a (repeat Undef (N.to_nat n))) (<[a := n]> (mtab s)))
                   (orc w) (S (tick w))) []
  else Ok 0 (World s (orc w) (S (tick w))) [EvRefuse].

(** [free].  [free(nullptr)] is a no-op. *)
Definition mfree (p : N) : M unit := fun w =>
  if p =? 0 then Ok tt w [] else
  let s := st w in
  match mtab s !! p with
  | Some n => Ok tt (World (Store (clear p (N.to_nat n) (mem s)) (delete p (mtab s))) (orc w) (tick w)) []
  | None => Err UBFree []
  end.

(** * Element objects *)

(** The object representation of a trivially copyable [v] in a type of [sz] bytes. *)
Definition chunk (sz : nat) (v : value) : list cell := map (Frag v) (seq 0 sz).
(** The bytes of a live object of non-trivial type. *)
Definition ochunk (sz : nat) (v : value) : list cell := map (Obj v) (seq 0 sz).

(** The value of a byte range, if it is a complete object representation. *)
Definition unchunk (sz : nat) (cs : list cell) : option value :=
  match cs with
  | Frag v _ :: _ => if decide (cs = chunk sz v) then Some v else None
  | _ => None
  end.
Definition unochunk (sz : nat) (cs : list cell) : option value :=
  match cs with
  | Obj v _ :: _ => if decide (cs = ochunk sz v) then Some v else None
  | _ => None
  end.

(** Lvalue-to-rvalue conversion and assignment for trivially copyable elements. *)
Definition load (sz : nat) (a : N) : M value :=
  cs <- rds a sz ;; match unchunk sz cs with Some v => ret v | None => ubm UBUninit end.
Definition stor (sz : nat) (a : N) (v : value) : M unit := wrs a (chunk sz v).

(** Non-trivial elements: read a live object, assign to a live object, placement new on raw
    bytes, destructor call. *)
Definition obj_get (sz : nat) (a : N) : M value :=
  cs <- rds a sz ;; match unochunk sz cs with Some v => ret v | None => ubm UBLifetime end.
Definition obj_set (sz : nat) (a : N) (v : value) : M unit :=
  _ <- obj_get sz a ;; wrs a (ochunk sz v).
Definition obj_new (sz : nat) (a : N) (v : value) : M unit :=
  cs <- rds a sz ;; if forallb deadb cs then wrs a (ochunk sz v) else ubm UBLifetime.
Definition obj_del (sz : nat) (a : N) : M unit :=
  _ <- obj_get sz a ;; wrs a (repeat Undef sz).
(** Storage that is about to be released must not hold a live object. *)
Definition obj_none (a n : N) : M unit :=
  cs <- rds a (N.to_nat n) ;; if forallb deadb cs then ret tt else ubm UBLifetime.

(** Events that a correct execution may emit: no failed KTL_ASSERT (except the one of
    cascading.h:273, see C54), no corruption report, no use of a null result of malloc. *)
Definition benign (e : event) : bool :=
  match e with
  | EvAssert AAny | EvCorrupt _ _ _ _ | EvFail => false
  | EvAssert ARelease | EvReq _ | EvLeak _ | EvLogic _ | EvRefuse | EvLock _ _ | EvUnlock _ _ => true
  end.
