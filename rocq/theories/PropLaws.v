(** Property theorems C85, C86: the nesting of fallback and of segragator. *)
From Coq Require Import Sorted.
From Verif Require Import Base Mem AlignedMalloc Allocators Tree Client Env Vector Array Heap Mixed Builder AllocSpec Laws LawsCont.

(** * C85 — types that differ only in the way in which their fallbacks are nested, at any depth and inside
    any other template *)
Theorem C85_brackets :
  forall pl e e', wf e = true -> wf e' = true -> unbracket e = unbracket e' -> indistinguishable pl e e'.
Proof. exact indist_brackets. Qed.
Print Assumptions C85_brackets.

Example C85_example :
  let e := EFallback (EFallback (ELinear 32) (EFreelist 0 16 (EFallback (EFallback (ELinear 16) (EStack 16)) (ELinear 64)))) EMalloc in
  let e' := EFallback (ELinear 32) (EFallback (EFreelist 0 16 (EFallback (ELinear 16) (EFallback (EStack 16) (ELinear 64)))) EMalloc) in
  wf e = true /\ wf e' = true /\ e <> e' /\ unbracket e = unbracket e' /\
  outcome (session (den PMalloc e) 4096 (eready_now PMalloc e) [OAlloc 32; OAlloc 8; OAlloc 9; OAlloc 40; OAlloc 10; OFree 2; OAlloc 5; OOwns 4130] (w_raw 128)) =
  Some ([ObPtr 4096; ObPtr 4128; ObPtr 4144; ObPtr 65536; ObPtr 4160; ObUnit; ObPtr 4144; ObUnit], []).
Proof. intros e e'. split; [done|]. split; [done|]. split; [done|]. split; [done|]. by vm_compute. Qed.

(** The tree that fallback_builder makes of a list of types works like the list. *)
Theorem C85_fallback_builder :
  forall pl r a l, N.of_nat (length (a :: l)) <= 2 ^ 62 -> forallb eowns (removelast (a :: l)) = true ->
  exists t, fallback_builder (length (a :: l)) r (a :: l) = Some t /\ indistinguishable pl (fb_type t) (fb_chain a l).
Proof. exact indist_fallback_builder. Qed.
Print Assumptions C85_fallback_builder.

Example C85_builder_example :
  let l := [EStack 16; EFreelist 0 16 (ELinear 64); ECascading (ELinear 32); EMalloc] in
  forallb eowns (removelast (ELinear 32 :: l)) = true /\
  exists t, fallback_builder 5 false (ELinear 32 :: l) = Some t /\ fb_type t <> fb_chain (ELinear 32) l /\ wf (fb_type t) = true.
Proof. split; [done|]. eexists. split; [by vm_compute|]. by vm_compute. Qed.

(** * C86 — segragators, nested in either way *)
Theorem C86_rotation :
  forall pl T T' a b c, T' <= T -> eowns b || negb (ecd a) = true ->
  indistinguishable pl (ESegragator T (ESegragator T' a b) c) (ESegragator T' a (ESegragator T b c)).
Proof. exact segragator_rotation. Qed.
Print Assumptions C86_rotation.

(** The tree that segragator_builder makes works like the list of types with increasing thresholds. *)
Theorem C86_segragator_builder :
  forall pl r a l, N.of_nat (length l) < 2 ^ 62 ->
  StronglySorted N.le (map fst l) -> uniform (removelast (a :: map snd l)) = true ->
  exists t, segragator_builder (S (length l)) r (seg_pack a l) = Some t /\ indistinguishable pl (seg_type t) (seg_chain a l).
Proof. exact indist_segragator_builder. Qed.
Print Assumptions C86_segragator_builder.

Example C86_example :
  let l := [(16, ELinear 128); (32, EOverflow (ELinear 1024)); (200, EMalloc)] in
  StronglySorted N.le (map fst l) /\ uniform (removelast (ELinear 64 :: map snd l)) = true /\
  exists t, segragator_builder 4 true (seg_pack (ELinear 64) l) = Some t /\ seg_type t <> seg_chain (ELinear 64) l /\ wf (seg_type t) = true /\
    outcome (session (den PMalloc (seg_type t)) 4096 (eready_now PMalloc (seg_type t)) [OAlloc 16; OAlloc 17; OAlloc 33; OAlloc 201; OFree 2] (w_raw 1216)) =
    Some ([ObPtr 4096; ObPtr 4160; ObPtr 4352; ObPtr 65536; ObUnit], []).
Proof.
  split; [repeat (constructor; try (cbn; lia))|]. split; [done|]. eexists. split; [by vm_compute|]. split; [done|]. split; [done|]. by vm_compute.
Qed.

(** If the thresholds are not in order, the nesting matters. *)
Theorem C86_order_refuted :
  exists T T' a b c w, T < T' /\ place 4096 0 w /\
  outcome (session (den PMalloc (ESegragator T (ESegragator T' a b) c)) 4096 (fun _ _ => true) [OAlloc 20] w) <>
  outcome (session (den PMalloc (ESegragator T' a (ESegragator T b c))) 4096 (fun _ _ => true) [OAlloc 20] w).
Proof. exact rotation_descending. Qed.
Print Assumptions C86_order_refuted.
