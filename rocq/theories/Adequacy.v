(** From weakest preconditions to executions. *)
From iris.proofmode Require Import tactics.
From Verif Require Import Base Mem Sep Wp.

Local Open Scope N_scope.

Lemma wp_adequate bad {A} (m : M A) (φ : A -> gmap N cell -> Prop) w :
  (own (mem (st w)) ⊢ wp bad m (fun a => ∃ m', ⌈φ a m'⌉ ∗ own m')) ->
  match m w with
  | Ok a w' evs =>
    existsb bad evs = true \/
    (forallb benign evs = true /\ φ a (mem (st w')) /\ mtab (st w') = mtab (st w))
  | Err _ evs => existsb bad evs = true
  end.
Proof.
  intros Hwp. rewrite hunfold_entails in Hwp.
  specialize (Hwp (Store (mem (st w)) ∅)). rewrite own_eq in Hwp. specialize (Hwp eq_refl).
  rewrite wp_unfold in Hwp. specialize (Hwp (Store ∅ (mtab (st w))) w).
  assert (Hd : Store (mem (st w)) ∅ ## Store ∅ (mtab (st w))).
  { split; cbn; [apply map_disjoint_empty_r|apply map_disjoint_empty_l]. }
  assert (Hu : st w = Store (mem (st w)) ∅ ∪ Store ∅ (mtab (st w))).
  { destruct (st w) as [m0 t]. apply (f_equal2 Store); cbn; [by rewrite right_id_L|by rewrite left_id_L]. }
  specialize (Hwp Hd Hu). destruct (m w) as [a w' evs|u evs]; [|done].
  destruct Hwp as [Hbad|(Hben&s'&Hst'&Hd'&HQ)]; [by left|right]. split; [done|].
  rewrite hunfold_exist in HQ. destruct HQ as [m' HQ]. rewrite hunfold_sep in HQ.
  destruct HQ as (s1&s2&->&_&HQ1&HQ2). rewrite hunfold_apure in HQ1. destruct HQ1 as [-> Hφ].
  cbn in HQ2. subst s2. rewrite Hst'. cbn. rewrite right_id_L !left_id_L. done.
Qed.
