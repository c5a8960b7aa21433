(** Property theorems C01-C06: arithmetic helpers, packed_ptr, builders. *)
From Coq Require Import Sorting.Sorted.
From Verif Require Import Base Bits BitsProofs PackedPtr PackedPtrProofs Builder BuilderProofs.

(** C01 *)
Theorem C01_padding_is_least :
  forall n, align_to_architecture n < 16 /\ least_padding 16 n (align_to_architecture n).
Proof. exact (fun n => conj (align_lt n) (align_least n)). Qed.
Print Assumptions C01_padding_is_least.

Example C01_example : align_to_architecture 33 = 15 /\ align_to_architecture 48 = 0.
Proof. by vm_compute. Qed.

(** C02 *)
Theorem C02_log2_exact :
  forall n, 0 < n -> n < W -> floor_log2 n (ktl_log2 n).
Proof. exact ktl_log2_correct. Qed.
Print Assumptions C02_log2_exact.

Example C02_example : ktl_log2 (W - 1) = 63 /\ ktl_log2 4096 = 12 /\ ktl_log2 4095 = 11.
Proof. by vm_compute. Qed.

(** C03 *)
Theorem C03_pow2_least :
  forall n, 1 <= n -> n <= 2 ^ 63 -> least_pow2_ge n (ktl_pow2 n).
Proof. exact ktl_pow2_correct. Qed.
Print Assumptions C03_pow2_least.

Example C03_example : ktl_pow2 5 = 8 /\ ktl_pow2 8 = 8 /\ ktl_pow2 (2 ^ 62 + 1) = 2 ^ 63.
Proof. by vm_compute. Qed.

(** C04 — any sequence of calls on a default-constructed packed pointer, compared with two
    independent variables. *)
Theorem C04_packed_ptr_history :
  forall Bits k, k < 64 -> Bits <= k ->
  forall cs, Forall (pp_call_ok (2 ^ k)) cs ->
    let s := foldl (pp_spec_step Bits) (0, 0) cs in
    let m := pp_run Bits (2 ^ k) cs pp_null in
    pp_get_ptr (2 ^ k) m = s.1 /\ pp_get_int Bits m = s.2 /\
    (pp_bool m = false <-> s.1 = 0 /\ s.2 = 0).
Proof. exact pp_history. Qed.
Print Assumptions C04_packed_ptr_history.

(** A misaligned pointer is rounded down to its alignment (and the assertion of the debug
    build fires exactly in that case). *)
Theorem C04_packed_ptr_misaligned :
  forall Bits k m p, k < 64 -> Bits <= k -> p < W ->
    pp_get_ptr (2 ^ k) (pp_set_ptr Bits (2 ^ k) m p) = p - p mod 2 ^ k.
Proof. exact pp_set_ptr_rounds. Qed.
Print Assumptions C04_packed_ptr_misaligned.

Theorem C04_packed_ptr_assert :
  forall k, k < 64 -> forall p, pp_assert (2 ^ k) p = true <-> (2 ^ k | p).
Proof. exact (fun k Hk => pp_assert_iff k k Hk (N.le_refl k)). Qed.
Print Assumptions C04_packed_ptr_assert.

Example C04_example :
  Forall (pp_call_ok (2 ^ 4)) [PSetPtr 4096; PSetInt 7; PSetPtr 8192; PSetInt 9] /\
  pp_get_ptr 16 (pp_run 3 16 [PSetPtr 4096; PSetInt 7; PSetPtr 8192; PSetInt 9] pp_null) = 8192 /\
  pp_get_int 3 (pp_run 3 16 [PSetPtr 4096; PSetInt 7; PSetPtr 8192; PSetInt 9] pp_null) = 1.
Proof.
  split; [|by vm_compute].
  repeat constructor; cbn; try (by vm_compute); first [by exists 256 | by exists 512].
Qed.

(** C05 — for any number of allocators and thresholds in ascending order the type built by
    [segragator_builder_min] ([r = false]) and [segragator_builder_max] ([r = true]) exists,
    routes a request to the allocator whose index is the number of smaller thresholds, and
    does so with at most ceil(log2 #allocators) comparisons. *)
Theorem C05_segragator_builder_routing :
  forall (A : Type) (r : bool) (a0 : A) (l : list (N * A)),
    N.of_nat (length l) < 2 ^ 62 ->
    exists t, segragator_builder (S (length l)) r (seg_pack a0 l) = Some t /\
      (StronglySorted N.le (map fst l) -> forall n, seg_spec a0 l n = Some (seg_route t n)) /\
      (forall d n, N.of_nat (S (length l)) <= 2 ^ N.of_nat d -> (seg_comparisons t n <= d)%nat).
Proof. exact (fun A r a0 l => seg_builder_correct r (S (length l)) a0 l (Nat.lt_succ_diag_r _)). Qed.
Print Assumptions C05_segragator_builder_routing.

Example C05_example :
  exists t, segragator_builder 9 true (seg_pack 0%nat [(8,1%nat);(16,2%nat);(32,3%nat);(48,4%nat)]) = Some t /\
    map (seg_route t) [1; 8; 9; 17; 33; 48; 49] = [0; 0; 1; 2; 3; 3; 4]%nat.
Proof. eexists. by vm_compute. Qed.

(** The documentation of the builders (segragator_fwd.h:64 and 72) asks for the pack "in
    descending order".  With descending thresholds an allocator becomes unreachable. *)
Theorem C05_descending_order_refuted :
  exists (a0 : nat) l t, segragator_builder 9 false (seg_pack a0 l) = Some t /\
    StronglySorted N.ge (map fst l) /\ In 1%nat (map snd l) /\ forall n, seg_route t n <> 1%nat.
Proof.
  exists 0%nat, [(16, 1%nat); (8, 2%nat)]. eexists. split; [vm_compute; reflexivity|].
  split; [repeat constructor; discriminate|]. split; [by left|].
  intros n. cbn. destruct (N.leb_spec n 8), (N.leb_spec n 16); lia || done.
Qed.
Print Assumptions C05_descending_order_refuted.

(** C06 — the tree built for a non-empty pack contains the allocators in the given order,
    asks them in that order until one succeeds, gives a pointer back to the first owner, and
    has logarithmic depth. *)
Theorem C06_fallback_builder_order :
  forall (A R : Type) (r : bool) (l : list A),
    l <> [] -> N.of_nat (length l) <= 2 ^ 62 ->
    exists t, fallback_builder (length l) r l = Some t /\
      (forall succ : A -> option R, fb_alloc succ t = spec_alloc succ l) /\
      (forall own d, fb_dealloc own t = spec_dealloc own l d) /\
      (forall d, N.of_nat (length l) <= 2 ^ N.of_nat d -> (fdepth t <= d)%nat).
Proof.
  exact (fun A R r l Hne Hlen =>
    match fb_builder_correct r (length l) l Hne (le_n _) Hlen with
    | ex_intro _ t (conj H1 (conj H2 H3)) =>
      ex_intro _ t (conj H1 (conj (fun succ => eq_trans (fb_alloc_leaves succ t) (f_equal _ H2))
        (conj (fun own d => eq_trans (fb_dealloc_leaves own t d) (f_equal (fun x => spec_dealloc own x d) H2)) H3)))
    end).
Qed.
Print Assumptions C06_fallback_builder_order.

Example C06_example :
  exists t, fallback_builder 5 true [1;2;3;4;5]%nat = Some t /\
    fb_alloc (fun a => if (3 <=? a)%nat then Some (10 * a)%nat else None) t = (Some 30%nat, [1;2;3]%nat).
Proof. eexists. by vm_compute. Qed.
