(** global<A> (global.h): any number of instances and one static allocator. *)
From Verif Require Import Base Mem Allocators Client AllocSpec.

(** What a program does; instances are named by numbers. *)
Inductive gop :=
| GNew (i : nat)            (** global i; *)
| GCopy (i j : nat)         (** global i(j); or with std::move(j) *)
| GAssign (i j : nat)       (** i = j; or std::move(j) *)
| GDestroy (i : nat)
| GEqual (i j : nat)        (** i == j *)
| GUnequal (i j : nat)      (** i != j *)
| GUse (i : nat) (o : op).  (** a call of Client.v through i *)

Section global.
  Context (A : alloc) (b : N) (ready : N -> a_st A -> bool).

  (** Instances have no data (global.h:26-40); [s] is s_Alloc (118), which every member uses
      (53-99).  set_allocator (102-105) is in GlobalSet.v. *)
  Definition gstep (o : gop) (s : a_st A) (bl : list (N * N)) : M (obs * (a_st A * list (N * N))) :=
    match o with
    | GNew _ | GCopy _ _ | GAssign _ _ | GDestroy _ => ret (ObUnit, (s, bl))
    | GEqual _ _ => ret (ObBool true, (s, bl))     (* 42-45 *)
    | GUnequal _ _ => ret (ObBool true, (s, bl))   (* 47-50 *)
    | GUse _ o => step A b ready o s bl
    end.

  Fixpoint grun (ops : list gop) (s : a_st A) (bl : list (N * N)) : M (list obs * (a_st A * list (N * N))) :=
    match ops with
    | [] => ret ([], (s, bl))
    | o :: ops =>
      ' (ob, (s', bl')) <- gstep o s bl ;;
      ' (obs, fin) <- grun ops s' bl' ;;
      ret (ob :: obs, fin)
    end.
End global.

(** * Specification: the same calls on one allocator of type [A] *)
Definition calls (ops : list gop) : list op :=
  flat_map (fun o => match o with GUse _ o => [o] | _ => [] end) ops.

(** The observations that belong to calls. *)
Fixpoint seen (ops : list gop) (os : list obs) : list obs :=
  match ops, os with
  | GUse _ _ :: ops, ob :: os => ob :: seen ops os
  | _ :: ops, _ :: os => seen ops os
  | _, _ => []
  end.

Lemma global_one A b ready ops s bl w :
  match grun A b ready ops s bl w, run A b ready (calls ops) s bl w with
  | Ok (os, fin) w' e, Ok (os', fin') w'' e' => seen ops os = os' /\ fin = fin' /\ w' = w'' /\ e = e'
  | Err u e, Err u' e' => u = u' /\ e = e'
  | _, _ => False
  end.
Proof.
  revert s bl w. induction ops as [|o ops IH]; intros s bl w; [done|].
  destruct o as [i|i j|i j|i|i j|i j|i o]; cbn [grun gstep calls flat_map app run];
    try (specialize (IH s bl w); unfold bind, ret; fold (calls ops);
         destruct (grun A b ready ops s bl w) as [[os fin] w' e|u e], (run A b ready (calls ops) s bl w) as [[os' fin'] w'' e'|u' e'];
         cbn [seen]; try done; by rewrite app_nil_r).
  unfold bind. destruct (step A b ready o s bl w) as [[ob [s' bl']] w1 e1|u e1]; [|done].
  specialize (IH s' bl' w1). fold (calls ops).
  destruct (grun A b ready ops s' bl' w1) as [[os fin] w' e|u e], (run A b ready (calls ops) s' bl' w1) as [[os' fin'] w'' e'|u' e'];
    try done; cbn [ret seen].
  - destruct IH as (->&->&->&->). done.
  - destruct IH as (->&->). done.
Qed.

Lemma global_compare :
  exists A b ready s w i j,
    outcome ((' (os, _) <- grun A b ready [GEqual i j; GUnequal i j] s [] ;; ret os) w) = Some ([ObBool true; ObBool true], []).
Proof. exists null_allocator, 4096, (fun _ _ => true), tt, (w_raw 0), 0%nat, 1%nat. by vm_compute. Qed.
