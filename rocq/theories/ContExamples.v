(** Concrete programs for the theorems about containers, and counterexamples. *)
From Verif Require Import Base Mem AlignedMalloc Allocators Checked Tree Client AllocSpec AllocProofs Env Vector Array.

Local Open Scope N_scope.

(** Small blocks from a free list, larger ones from malloc. *)
Definition mixed : aexp := ESegragator 16 (EFreelist 0 16 EMalloc) EMalloc.

(** Results of a program, and whether there was an event of class [bad]. *)
Definition seen {X} (bad : event -> bool) (r : res X) : option (X * bool) :=
  match r with Ok a _ e => Some (a, existsb bad e) | Err _ _ => None end.

Definition vprog (e : aexp) (sz : N) (k : nat) (ops : list vop) : M (list cobs) :=
  csession (den PMalloc e) 4096 (vstep (den PMalloc e) 4096 sz k) (release (den PMalloc e) 4096 sz) k ops.
Definition aprog (e : aexp) (sz : N) (k : nat) (ops : list aop) : M (list cobs) :=
  csession (den PMalloc e) 4096 (astep (den PMalloc e) 4096 sz k) (arelease (den PMalloc e) 4096 sz) k ops.

(** The same without leaving anything out. *)
Definition vprog_any (e : aexp) (sz : N) (k : nat) (ops : list vop) : M (list cobs) :=
  csession (den PMalloc e) 4096 (vdo (den PMalloc e) 4096 sz) (release (den PMalloc e) 4096 sz) k ops.
Definition aprog_any (e : aexp) (sz : N) (k : nat) (ops : list aop) : M (list cobs) :=
  csession (den PMalloc e) 4096 (ado (den PMalloc e) 4096 sz) (arelease (den PMalloc e) 4096 sz) k ops.

Lemma w0_place k : place 4096 (N.of_nat k * 0) (w_raw 0).
Proof. rewrite N.mul_0_r. by apply (w_raw_place 0). Qed.

Lemma move_alloc_wrong_size_vec :
  exists w, place 4096 0 w /\ crash (vprog_any (EChecked EMalloc) 4 2 [VNewN 0 3 0; VMoveAl 1 0 1] w) = Some UBFree.
Proof. exists (w_raw 0). split; [by apply (w_raw_place 0)|by vm_compute]. Qed.
Lemma move_alloc_wrong_size_arr :
  exists w, place 4096 0 w /\ crash (aprog_any (EChecked EMalloc) 4 2 [ANewN 0 3 0; AMoveAl 1 0 1] w) = Some UBFree.
Proof. exists (w_raw 0). split; [by apply (w_raw_place 0)|by vm_compute]. Qed.
(** Over segragator: the block comes from the free list and is given to malloc. *)
Lemma move_alloc_wrong_place_vec :
  exists w, place 4096 0 w /\
    crash (vprog_any (ESegragator 16 (EFreelist 0 16 (EChecked EMalloc)) (EChecked EMalloc)) 4 2 [VNewN 0 4 0; VMoveAl 1 0 1] w) = Some UBFree.
Proof. exists (w_raw 0). split; [by apply (w_raw_place 0)|by vm_compute]. Qed.

Lemma self_assign_vec :
  exists w, place 4096 0 w /\ crash (vprog_any EMalloc 4 1 [VNewList 0 [Val 1; Val 2; Val 3] 0; VAssign 0 0] w) = Some UBOverlap.
Proof. exists (w_raw 0). split; [by apply (w_raw_place 0)|by vm_compute]. Qed.
Lemma self_assign_arr :
  exists w, place 4096 0 w /\ crash (aprog_any EMalloc 4 1 [ANewList 0 [Val 1; Val 2; Val 3] 0; AAssign 0 0] w) = Some UBOverlap.
Proof. exists (w_raw 0). split; [by apply (w_raw_place 0)|by vm_compute]. Qed.

Lemma push_own_vec :
  exists w, place 4096 0 w /\ crash (vprog_any EMalloc 4 1 [VNewList 0 [Val 1; Val 2; Val 3] 0; VPush 0 (RElem 0 0)] w) = Some UBAccess.
Proof. exists (w_raw 0). split; [by apply (w_raw_place 0)|by vm_compute]. Qed.
Lemma push_own_range_vec :
  exists w, place 4096 0 w /\ crash (vprog_any EMalloc 4 1 [VNewList 0 [Val 1; Val 2; Val 3] 0; VPushRange 0 (GElems 0 0 2)] w) = Some UBAccess.
Proof. exists (w_raw 0). split; [by apply (w_raw_place 0)|by vm_compute]. Qed.
Lemma assign_own_arr :
  exists w, place 4096 0 w /\
    crash (aprog_any EMalloc 4 1 [ANewList 0 [Val 1; Val 2; Val 3] 0; AFrom 0 (GElems 0 0 2)] w) = Some UBAccess /\
    crash (aprog_any EMalloc 4 1 [ANewList 0 [Val 1; Val 2; Val 3] 0; AFrom 0 (GElems 0 0 3)] w) = Some UBOverlap.
Proof. exists (w_raw 0). split; [by apply (w_raw_place 0)|by vm_compute]. Qed.

Lemma null_unchecked_vec :
  exists w, place 4096 64 w /\ crash (vprog (EStack 64) 4 1 [VNewList 0 [Val 1] 0; VPushRange 0 (GVals (repeat (Val 2) 17))] w) = Some UBNull.
Proof. exists (w_raw 64). split; [by apply (w_raw_place 64)|by vm_compute]. Qed.
Lemma null_unchecked_arr :
  exists w, place 4096 64 w /\ crash (aprog (EStack 64) 4 1 [ANewFill 0 17 (RVal (Val 1)) 0] w) = Some UBNull.
Proof. exists (w_raw 64). split; [by apply (w_raw_place 64)|by vm_compute]. Qed.
