(** The allocator contract: what a client may rely on, as a set of laws in separation logic. *)
From iris.proofmode Require Import tactics.
From Verif Require Import Base Mem Sep Wp Allocators.

Local Open Scope N_scope.

(** A block with its contents; its address and size. *)
Notation blk := (N * list cell)%type.
Definition bsize (x : blk) : N * N := (fst x, N.of_nat (length (snd x))).
Definition shape (L : list blk) : list (N * N) := map bsize L.
Definition blocks (L : list blk) : hpropI := [∗ list] x ∈ L, fst x ↦∗ snd x.

(** A pointer that may be handed to a client for [n] bytes. *)
Definition good (x : N * N) : Prop := fst x <> 0 /\ fst x mod 16 = 0 /\ fst x + snd x < W.

(** [contract bad A req]: for executions without [bad] events, allocator type [A] is correct
    for requests that satisfy [req].

    [J b s S]: an object of type [A] with inline bytes at [b] and fields [s] is in a state in
    which exactly the blocks in [S] (address and size) are outstanding.  The blocks themselves
    belong to the client. *)
Record contract (bad : event -> bool) (A : alloc) (req : N -> bool) := Contract {
  J : N -> a_st A -> list (N * N) -> hpropI;
  (** the value returned by max_size() and the states in which it may be called *)
  mv : N;
  rdy : N -> a_st A -> bool;

  c_size : a_size A mod 16 = 0;
  c_perm b s S S' : S ≡ₚ S' -> J b s S ⊢ J b s S';
  c_good b s S : J b s S ⊢ ⌜Forall good S⌝;

  (** Construction on raw storage; destruction gives the storage back, with no other
      resource left. *)
  c_init b : b <> 0 -> b mod 16 = 0 -> b + a_size A < W ->
    raw b (a_size A) ⊢ wp bad (a_init A b) (fun s => J b s []);
  c_dtor b s : J b s [] ⊢ wp bad (a_dtor A b s) (fun _ => raw b (a_size A));

  (** allocate(n): null, or a block of n bytes which is separate from all other memory. *)
  c_alloc b s S n : req n = true -> n < W ->
    J b s S ⊢ wp bad (a_alloc A b s n) (fun ps =>
      ⌈fst ps = 0⌉ ∗ J b (snd ps) S ∨
      ⌈fst ps <> 0⌉ ∗ raw (fst ps) n ∗ J b (snd ps) ((fst ps, n) :: S));

  (** deallocate(p, n) of an outstanding block consumes the block; all other blocks [L] keep
      their contents. *)
  c_free b s p cs L : Forall dead cs ->
    J b s (bsize (p, cs) :: shape L) ∗ p ↦∗ cs ∗ blocks L
    ⊢ wp bad (a_free A b s p (N.of_nat (length cs))) (fun s' => J b s' (shape L) ∗ blocks L);

  (** owns: true for every byte of an outstanding block, false for every other byte that
      exists. *)
  c_owns_in o b s S : a_owns A = Some o ->
    J b s S ⊢ ⌜forall p n q, (p, n) ∈ S -> p <= q < p + n -> o b s q = true⌝;
  c_owns_out o b s L q c : a_owns A = Some o -> q <> 0 ->
    J b s (shape L) ∗ blocks L ∗ q ↦ c ⊢ ⌜o b s q = false⌝;

  (** max_size *)
  c_max mx b s S : a_max A = Some mx -> rdy b s = true ->
    J b s S ⊢ wp bad (mx b s) (fun v => ⌈v = mv⌉ ∗ J b s S);
  c_bound b s S : a_max A <> None -> J b s S ⊢ ⌜Forall (fun x => snd x <= mv) S⌝;

  (** construct/destroy inside an outstanding block: performs [act] and nothing else that a
      client could observe. *)
  c_cd o c b s L q act (R : unit -> hpropI) : a_cd A = Some o ->
    (exists p n, (p, n) ∈ shape L /\ p <= q < p + n) ->
    J b s (shape L) ∗ blocks L ∗ (blocks L -∗ wp bad act R)
    ⊢ wp bad (o c b s q act) (fun s' => J b s' (shape L) ∗ R tt)
}.
Arguments J {bad A req}.
Arguments mv {bad A req}.
Arguments rdy {bad A req}.

(** * Facts about blocks *)
Lemma blocks_app L1 L2 : blocks (L1 ++ L2) ⊣⊢ blocks L1 ∗ blocks L2.
Proof. apply big_sepL_app. Qed.
Lemma blocks_cons p cs L : blocks ((p, cs) :: L) ⊣⊢ p ↦∗ cs ∗ blocks L.
Proof. done. Qed.
Lemma blocks_perm L1 L2 : L1 ≡ₚ L2 -> blocks L1 ⊣⊢ blocks L2.
Proof. intros H. unfold blocks. by rewrite H. Qed.

Lemma shape_app L1 L2 : shape (L1 ++ L2) = shape L1 ++ shape L2.
Proof. apply map_app. Qed.
Lemma shape_perm L1 L2 : L1 ≡ₚ L2 -> shape L1 ≡ₚ shape L2.
Proof. intros H. unfold shape. by rewrite H. Qed.

Lemma shape_split L S1 S2 : shape L ≡ₚ S1 ++ S2 ->
  exists L1 L2, L ≡ₚ L1 ++ L2 /\ shape L1 = S1 /\ shape L2 = S2.
Proof.
  intros H. symmetry in H. apply Permutation_map_inv in H as (L'&H1&H2).
  symmetry in H1. apply map_eq_app in H1 as (L1&L2&->&H3&H4).
  exists L1, L2. unfold shape. auto.
Qed.

Lemma perm_cons_app {A} (x : A) L L1 L2 : x :: L ≡ₚ L1 ++ L2 ->
  (exists L1', L1 ≡ₚ x :: L1' /\ L ≡ₚ L1' ++ L2) \/
  (exists L2', L2 ≡ₚ x :: L2' /\ L ≡ₚ L1 ++ L2').
Proof.
  intros H. assert (x ∈ L1 ++ L2) as Hin by (rewrite -H; left).
  apply elem_of_app in Hin as [Hin|Hin]; apply elem_of_Permutation in Hin as [k Hk].
  - left. exists k. split; [done|]. rewrite Hk in H. by apply Permutation_cons_inv in H.
  - right. exists k. split; [done|]. rewrite Hk in H. rewrite -Permutation_middle in H.
    by apply Permutation_cons_inv in H.
Qed.

Lemma elem_of_shape p n L : (p, n) ∈ shape L <-> exists cs, (p, cs) ∈ L /\ N.of_nat (length cs) = n.
Proof.
  unfold shape. rewrite elem_of_list_fmap. split.
  - intros ([p' cs]&Heq&Hin). injection Heq as -> ->. by exists cs.
  - intros (cs&Hin&<-). by exists (p, cs).
Qed.

Lemma shape_in_blocks p cs (L : list blk) : (p, cs) ∈ L -> exists L', L ≡ₚ (p, cs) :: L'.
Proof. intros H. apply elem_of_Permutation in H. done. Qed.

(** The first byte of a non-empty block that is held separately from [L]. *)
Lemma pts_head p cs : (0 < length cs)%nat ->
  exists c cs', cs = c :: cs' /\ (p ↦∗ cs ⊣⊢ p ↦ c ∗ (p + 1) ↦∗ cs').
Proof. destruct cs as [|c cs]; cbn [length]; [lia|]. intros _. by exists c, cs. Qed.

Lemma shape_cons x L : shape (x :: L) = bsize x :: shape L.
Proof. done. Qed.
