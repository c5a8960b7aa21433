(** Concrete programs for the theorems about binary_heap, and counterexamples. *)
From Verif Require Import Base Mem AlignedMalloc Allocators Checked Tree Client AllocSpec AllocProofs Env Vector HeapPure Heap HeapSpec ContExamples.

Local Open Scope N_scope.

(** int, and a type with a destructor whose move leaves a different value. *)
Definition int4 : elt := Elt true (fun v => v).
Definition object : elt := Elt false (fun _ => Moved).

(** std::less, std::greater and a function that is not an order. *)
Definition less (x y : value) : bool := match x, y with Val a, Val b => a <? b | Val _, Moved => true | _, _ => false end.
Definition cmps (q : nat) (x y : value) : bool := match q with O => less x y | 1%nat => less y x | _ => true end.
Definition equal (x y : value) : bool := match x, y with Val a, Val b => a =? b | Moved, Moved => true | _, _ => false end.

Definition hprog (e : aexp) (sz : N) (T : elt) (k : nat) (ops : list hop) : M (list cobs) :=
  csession (den PMalloc e) 4096 (hstep (den PMalloc e) 4096 sz T cmps equal k) (hrelease (den PMalloc e) 4096 sz T) k ops.
(** The same without leaving anything out. *)
Definition hprog_any (e : aexp) (sz : N) (T : elt) (k : nat) (ops : list hop) : M (list cobs) :=
  csession (den PMalloc e) 4096 (hdo (den PMalloc e) 4096 sz T cmps equal) (hrelease (den PMalloc e) 4096 sz T) k ops.

Lemma less_strict_weak : strict_weak (cmps 0).
Proof.
  split_and!.
  - intros [a|]; cbn; [apply N.ltb_irrefl|done].
  - intros [a|] [b|] [c|]; cbn; try done. rewrite !N.ltb_lt. lia.
  - intros [a|] [b|] [c|]; cbn; try done; rewrite ?N.ltb_ge; lia.
Qed.

Lemma move_alloc_wrong_size_heap :
  exists w, place 4096 0 w /\ crash (hprog_any (EChecked EMalloc) 4 int4 2 [HNewList 0 [Val 1; Val 2] 0 0; HMoveAl 1 0 1] w) = Some UBFree.
Proof. exists (w_raw 0). split; [by apply (w_raw_place 0)|by vm_compute]. Qed.
(** The moved-from objects are never destroyed. *)
Lemma move_alloc_leaks_heap :
  exists w, place 4096 0 w /\ crash (hprog_any EMalloc 1 object 2 [HNewList 0 [Val 1; Val 2] 0 0; HMoveAl 1 0 1] w) = Some UBLifetime.
Proof. exists (w_raw 0). split; [by apply (w_raw_place 0)|by vm_compute]. Qed.
Lemma self_assign_heap :
  exists w, place 4096 0 w /\
    crash (hprog_any EMalloc 4 int4 1 [HNewList 0 [Val 1; Val 2] 0 0; HAssign 0 0] w) = Some UBUninit /\
    crash (hprog_any EMalloc 4 object 1 [HNewList 0 [Val 1; Val 2] 0 0; HAssign 0 0] w) = Some UBLifetime.
Proof. exists (w_raw 0). split; [by apply (w_raw_place 0)|by vm_compute]. Qed.
Lemma insert_own_heap :
  exists w, place 4096 0 w /\
    crash (hprog_any EMalloc 4 int4 1 [HNewList 0 [Val 1; Val 2] 0 0; HInsert 0 (RElem 0 0)] w) = Some UBAccess /\
    crash (hprog_any EMalloc 4 object 1 [HNewList 0 [Val 1; Val 2] 0 0; HInsert 0 (RElem 0 0)] w) = Some UBAccess.
Proof. exists (w_raw 0). split; [by apply (w_raw_place 0)|by vm_compute]. Qed.
Lemma pop_last_object :
  exists w, place 4096 0 w /\ crash (hprog_any EMalloc 4 object 1 [HNew 0 0 0; HInsert 0 (RVal (Val 1)); HPop 0] w) = Some UBLifetime.
Proof. exists (w_raw 0). split; [by apply (w_raw_place 0)|by vm_compute]. Qed.
Lemma null_unchecked_heap :
  exists w, place 4096 64 w /\ crash (hprog (EStack 64) 4 int4 1 [HNewCap 0 17 0 0; HInsert 0 (RVal (Val 1))] w) = Some UBNull.
Proof. exists (w_raw 64). split; [by apply (w_raw_place 64)|by vm_compute]. Qed.
