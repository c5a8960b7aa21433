(** Statements of C67 and C68 for the property file; a program for their examples. *)
From Coq Require Import ssreflect.
From Verif Require Import Base Mem Bits AlignedMalloc Allocators Contract BasicProofs FreelistProofs Checked Tree TreeProofs
  LinearProofs Client ClientProofs AllocSpec NoFail Footprint.

(** Run a program: peak, outstanding blocks at the end, heap blocks at the end. *)
Definition watch (A : alloc) (b : N) (ops : list op) : M (nat * nat * nat) :=
  s <- a_init A b ;;
  ' (os, (_, bl)) <- run A b (fun _ _ => false) ops s [] ;;
  h <- heap_blocks ;;
  ret (peak (Book [] 0 0) ops os, length bl, h).

Lemma no_fail A b ready ops w s0 w0 e0 r w1 e1 : afirm A -> a_init A b w = Ok s0 w0 e0 ->
  run A b ready ops s0 [] w0 = Ok r w1 e1 -> existsb is_fail (e0 ++ e1) = false.
Proof.
  intros HA Hi Hr. pose proof (af_init A HA b w) as H1. pose proof (run_firm A HA b ready ops s0 [] w0) as H2.
  rewrite Hi in H1. rewrite Hr in H2. by rewrite existsb_app H1 H2.
Qed.

Lemma freelist_footprint pl Min Max e b ops w s0 w0 e0 os (s : fl (checked (den pl e))) bl w1 e1 :
  pl <> PPosix -> wf (EFreelist Min Max e) = true ->
  place b (esize e) w -> asks (ereq pl (EFreelist Min Max e)) ops ->
  a_init (freelist Min Max (checked (den pl e))) b w = Ok s0 w0 e0 ->
  run (freelist Min Max (checked (den pl e))) b (fun _ _ => false) ops s0 [] w0 = Ok (os, (s, bl)) w1 e1 ->
  Forall (fun x => snd x = Max) (snd (f_in s)) /\
  (length bl <= length (snd (f_in s)) <= peak (Book [] 0 0) ops os)%nat.
Proof.
  intros Hpl Hwf Hp Ha Hi Hr.
  cbn [wf] in Hwf. apply andb_true_iff in Hwf as [[H1 H2]%andb_true_iff Hwf].
  assert (Hb := no_fail _ _ _ _ _ _ _ _ _ _ _ (af_freelist Min Max _ (af_checked _ (tree_firm pl e Hpl Hwf))) Hi Hr).
  apply N.leb_le in H1. apply N.ltb_lt in H2.
  destruct (tree_contract is_fail pl e Hpl Hwf (fun _ => eq_refl)) as [C _].
  eapply (fl_footprint C Min Max H1 H2 b (fun _ _ => false)); try done. by rewrite den_size.
Qed.

Lemma freelist_heap pl Min Max b ops w s0 w0 e0 os s bl w1 e1 :
  pl <> PPosix -> 8 <= Max -> Max < W ->
  place b 0 w -> asks (ereq pl (EFreelist Min Max EMalloc)) ops ->
  a_init (freelist Min Max (mallocator pl)) b w = Ok s0 w0 e0 ->
  run (freelist Min Max (mallocator pl)) b (fun _ _ => false) ops s0 [] w0 = Ok (os, (s, bl)) w1 e1 ->
  (size (mtab (st w)) + length bl <= size (mtab (st w1)) <= size (mtab (st w)) + peak (Book [] 0 0) ops os)%nat.
Proof. intros. by eapply fl_heap_footprint. Qed.

Lemma cascading_footprint pl Size b ops w s0 w0 e0 os s bl w1 e1 :
  pl <> PPosix -> Size mod 16 = 0 -> Size + Size + 32 < W ->
  place b 0 w -> asks (fun n => (0 <? n) && (n <=? Size)) ops ->
  a_init (cascading pl (checked (linear_allocator Size))) b w = Ok s0 w0 e0 ->
  run (cascading pl (checked (linear_allocator Size))) b (fun _ _ => false) ops s0 [] w0 = Ok (os, (s, bl)) w1 e1 ->
  size (mtab (st w1)) = (size (mtab (st w)) + length s)%nat /\ (length s <= length bl + 1)%nat.
Proof.
  intros Hpl Hm Hs Hp Ha Hi Hr. apply (casc_footprint pl Hpl Size Hm Hs b ops w s0 w0 e0 os s bl w1 e1); try done.
  eapply no_fail; [|exact Hi|exact Hr]. apply af_cascading; [done| |].
  - cbn [checked linear_allocator a_size]. pose proof (padN_bounds Size). pose proof (padN_mod Size). unfold padN in *. lia.
  - apply af_checked, (tree_firm pl (ELinear Size)); [done|]. cbn [wf]. lia.
Qed.

Lemma odd_size_leaves : exists Size ops, asks (fun n => (0 <? n) && (n <=? Size)) ops /\
  outcome (watch (cascading PMalloc (checked (linear_allocator Size))) 4096 ops (w_raw 0)) = Some ((0%nat, 0%nat, 3%nat), []).
Proof. exists 24, [OAlloc 20; OAlloc 24]. split; [repeat constructor|by vm_compute]. Qed.
