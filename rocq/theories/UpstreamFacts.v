(** Programs over compositions whose parts share an allocator. *)
From iris.proofmode Require Import tactics.
From Verif Require Import Base Mem Sep Wp Bits AlignedMalloc Allocators Contract LinearProofs BasicProofs
  PairProofs FreelistProofs OverflowProofs Tree TreeProofs Client ClientProofs AllocSpec NoFail SessionProofs
  Service TreeService Env EnvProofs Vector VectorProofs Array ArrayProofs Heap HeapSpec HeapFacts Mixed MixedProofs AllocProofs
  Upstream UpstreamProofs.

Local Open Scope N_scope.

(** * Members and sizes *)
Lemma pden_size pl U p : p_size U (pden pl U p) = psize p.
Proof. induction p; cbn [pden psize]; try done; cbn; rewrite ?den_size; congruence. Qed.

Lemma sden_size pl s : a_size (sden pl s) = ssize s.
Proof. induction s as [e|u IH p]; cbn [sden ssize]; [apply den_size|]. cbn. by rewrite IH pden_size. Qed.

Lemma pden_owns pl U p ow : (ow = true -> a_owns U <> None) -> powns ow p = true -> p_owns U (pden pl U p) <> None.
Proof.
  intros HU. induction p as [|e|Min Max p IH|p IHp f IHf|T p IHp f IHf|p IH|p IH]; cbn [powns pden]; intros H.
  - specialize (HU H). cbn. by destruct (a_owns U).
  - pose proof (den_owns pl e H) as H1. cbn. by destruct (a_owns (den pl e)).
  - specialize (IH H). cbn. by destruct (p_owns U (pden pl U p)).
  - apply andb_true_iff in H as [H1 H2]. specialize (IHp H1). specialize (IHf H2). cbn. unfold ppair_owns, omap2.
    by destruct (p_owns U (pden pl U p)), (p_owns U (pden pl U f)).
  - apply andb_true_iff in H as [H1 H2]. specialize (IHp H1). specialize (IHf H2). cbn. unfold ppair_owns, omap2.
    by destruct (p_owns U (pden pl U p)), (p_owns U (pden pl U f)).
  - specialize (IH H). cbn. by destruct (p_owns U (pden pl U p)).
  - exact (IH H).
Qed.

Lemma sden_owns pl s : sowns s = true -> a_owns (sden pl s) <> None.
Proof.
  induction s as [e|u IH p]; cbn [sowns sden]; intros H; [by apply den_owns|].
  pose proof (pden_owns pl (sden pl u) p _ IH H) as H1. cbn. by destruct (p_owns _ (pden pl (sden pl u) p)).
Qed.

(** * The contract *)
Record ptcontract {bad pl U ureq} (CU : contract bad U ureq) (urdy : N -> a_st U -> bool) (p : pexp) := PTC {
  ptc : pcontract CU (pden pl U p) (puses p) (preq pl ureq p);
  ptc_rdy : p_max U (pden pl U p) <> None -> forall ub b s,
    pready_now pl U urdy p ub b s = true -> prdy CU ptc ub b s = true
}.

Definition part_contract bad pl U ureq (CU : contract bad U ureq) urdy ow p : pl <> PPosix ->
  (ow = true -> a_owns U <> None) -> (a_max U <> None -> forall b s, urdy b s = true -> rdy CU b s = true) ->
  pwf ow p = true -> pclean p = true -> (pboxed p = true -> bad EvFail || bad EvRefuse = true) -> ptcontract (pl := pl) CU urdy p.
Proof.
  intros Hpl HU Hur. induction p as [|e|Min Max p IH|p IHp f IHf|T p IHp f IHf|p IH|p IH]; cbn [pwf pclean pboxed]; intros Hwf Hcl Hb.
  - refine (PTC _ pl _ _ CU urdy PHandle (handle_pcontract CU) _).
    intros Hm ub b s Hr. apply Hur; [|done]. intros E. apply Hm. cbn. by rewrite E.
  - destruct (tree_contract bad pl e Hpl Hwf Hb) as [C HC].
    refine (PTC _ pl _ _ CU urdy (POwn e) (own_pcontract CU C) _).
    intros Hm ub b s Hr. apply HC; [|done]. intros E. apply Hm. cbn. by rewrite E.
  - apply andb_true_iff in Hwf as [[H1 H2]%andb_true_iff Hwf]. destruct (IH Hwf Hcl Hb) as [C HC].
    refine (PTC _ pl _ _ CU urdy (PFreelist Min Max p)
      (pfreelist_pcontract CU C Min Max (proj1 (N.leb_le _ _) H1) (proj1 (N.ltb_lt _ _) H2)) _).
    intros Hm ub b s Hr. apply HC; [|done]. intros E. apply Hm. cbn. by rewrite E.
  - apply andb_true_iff in Hwf as [[H1 H2]%andb_true_iff Ho].
    apply andb_true_iff in Hcl as [[K1 K2]%andb_true_iff Hu]. apply negb_true_iff in Hu.
    destruct (IHp H1 K1) as [CP HCP]; [intros E; apply Hb; by rewrite E|].
    destruct (IHf H2 K2) as [CF HCF]; [intros E; apply Hb; rewrite E; apply orb_true_r|].
    refine (PTC _ pl _ _ CU urdy (PFallback p f) (pfallback_pcontract CU CP CF (pden_owns pl U p ow HU Ho) Hu) _).
    cbn [pready_now]. intros Hm ub b s [Hr1 Hr2]%andb_true_iff. cbn in Hm |- *. unfold ppair_max, omap2 in Hm.
    unfold pp_rdy. rewrite pden_size. rewrite HCP; [|by destruct (p_max U (pden pl U p))|done].
    rewrite HCF; [done| |done]. by destruct (p_max U (pden pl U p)), (p_max U (pden pl U f)).
  - apply andb_true_iff in Hwf as [H1 H2]. apply andb_true_iff in Hcl as [K1 K2].
    destruct (IHp H1 K1) as [CP HCP]; [intros E; apply Hb; by rewrite E|].
    destruct (IHf H2 K2) as [CF HCF]; [intros E; apply Hb; rewrite E; apply orb_true_r|].
    refine (PTC _ pl _ _ CU urdy (PSegragator T p f) (psegragator_pcontract CU CP CF T) _).
    cbn [pready_now]. intros Hm ub b s [Hr1 Hr2]%andb_true_iff. cbn in Hm |- *. unfold ppair_max, omap2 in Hm.
    unfold pp_rdy. rewrite pden_size. rewrite HCP; [|by destruct (p_max U (pden pl U p))|done].
    rewrite HCF; [done| |done]. by destruct (p_max U (pden pl U p)), (p_max U (pden pl U f)).
  - destruct (IH Hwf Hcl Hb) as [C HC].
    refine (PTC _ pl _ _ CU urdy (POverflow p) (poverflow_pcontract CU C) _).
    intros Hm ub b s Hr. apply HC; [|done]. intros E. apply Hm. cbn. by rewrite E.
  - destruct (IH Hwf Hcl Hb) as [C HC]. exact (PTC _ pl _ _ CU urdy (PThreaded p) C HC).
Defined.

Record scontract bad pl s := SC {
  sc : contract bad (sden pl s) (sreq pl s);
  sc_rdy : a_max (sden pl s) <> None -> forall b x, sready_now pl s b x = true -> rdy sc b x = true
}.

Definition shared_contract_of bad pl s : pl <> PPosix -> swf s = true -> sclean s = true ->
  (sboxed s = true -> bad EvFail || bad EvRefuse = true) -> scontract bad pl s.
Proof.
  intros Hpl. induction s as [e|u IH p]; cbn [swf sclean sboxed]; intros Hwf Hcl Hb.
  - destruct (tree_contract bad pl e Hpl Hwf Hb) as [C HC]. exact (SC bad pl (XExp e) C HC).
  - apply andb_true_iff in Hwf as [H1 H2]. apply andb_true_iff in Hcl as [K1 K2]. destruct (IH H1 K1) as [C HC]; [intros E; apply Hb; by rewrite E|].
    destruct (part_contract bad pl (sden pl u) (sreq pl u) C (sready_now pl u) (sowns u) p Hpl (sden_owns pl u) HC H2 K2)
      as [CP HCP]; [intros E; apply Hb; rewrite E; apply orb_true_r|].
    refine (SC bad pl (XLet u p) (upstream_contract C CP) _).
    intros Hm b x Hr. apply HCP; [|by rewrite sden_size]. intros E. apply Hm. cbn. by rewrite E.
Defined.

(** * Failing allocations *)
Record pfirm (U : alloc) (P : part U) : Prop := {
  pf_init b : firm (p_init U P b);
  pf_dtor ub b s : firm (p_dtor U P ub b s);
  pf_alloc ub b s n : firm (p_alloc U P ub b s n);
  pf_free ub b s p n : firm (p_free U P ub b s p n);
  pf_max mx ub b s : p_max U P = Some mx -> firm (mx ub b s);
  pf_cd o c ub b s q act : p_cd U P = Some o -> firm act -> firm (o c ub b s q act)
}.

Lemma inner_firm U P ub : pfirm U P -> afirm (inner U P ub).
Proof.
  intros [H1 H2 H3 H4 H5 H6]. split; cbn [inner a_init a_dtor a_alloc a_free a_max a_cd]; try solve [firm].
  - intros ? ? ? Ho. destruct (p_max U P) eqn:E; [|done]. injection Ho as <-. by apply H5.
  - intros ? ? ? ? ? ? Ho Ha. destruct (p_cd U P) eqn:E; [|done]. injection Ho as <-. by apply H6.
Qed.

Lemma pair_firm U (P F : part U) : pfirm U P -> pfirm U F -> pfirm U (pfallback U P F) /\ forall T, pfirm U (psegragator U P F T).
Proof.
  intros [H1 H2 H3 H4 H5 H6] [G1 G2 G3 G4 G5 G6].
  assert (Hmax : forall mx ub b s, ppair_max U P F = Some mx -> firm (mx ub b s)).
  { intros mx ub b s E. unfold ppair_max, omap2 in E. destruct (p_max U P) as [mP|] eqn:EP; [|done].
    destruct (p_max U F) as [mF|] eqn:EF; [|done]. injection E as <-.
    apply firm_bind; [by apply H5|]. intros. apply firm_bind; [by apply G5|]. firm. }
  assert (Hcd : forall o c ub b s q act, ppair_cd U P F = Some o -> firm act -> firm (o c ub b s q act)).
  { intros o c ub b s q act E Ha. unfold ppair_cd in E. destruct (p_owns U P) as [oP|]; [|done].
    destruct (p_cd U P) as [cP|] eqn:EP, (p_cd U F) as [cF|] eqn:EF; try done; injection E as <-;
      destruct (oP ub b (prim U P F s) q); apply firm_bind; try done; try (intros; apply firm_ret);
      (by apply H6) || by apply G6. }
  split; [|intros T]; split; cbn [pfallback psegragator p_init p_dtor p_alloc p_free p_max p_cd]; try done;
    unfold ppair_init, ppair_dtor, pfb_alloc, pfb_free, pseg_alloc, pseg_free; firm.
Qed.

Lemma part_firm pl U p ow : pl <> PPosix -> afirm U -> pwf ow p = true -> pfirm U (pden pl U p).
Proof.
  intros Hpl HU. induction p as [|e|Min Max p IH|p IHp f IHf|T p IHp f IHf|p IH|p IH]; cbn [pwf pden]; intros Hwf.
  - destruct HU as [H1 H2 H3 H4 H5 H6]. split; cbn [handle p_init p_dtor p_alloc p_free p_max p_cd]; try solve [firm].
    + intros ? ? ? ? Ho. destruct (a_max U) eqn:E; [|done]. injection Ho as <-. by apply H5.
    + intros ? ? ? ? ? ? ? Ho Ha. destruct (a_cd U) eqn:E; [|done]. injection Ho as <-. firm; by apply H6.
  - destruct (tree_firm pl e Hpl Hwf) as [H1 H2 H3 H4 H5 H6]. split; cbn [own p_init p_dtor p_alloc p_free p_max p_cd]; try solve [firm].
    + intros ? ? ? ? Ho. destruct (a_max (den pl e)) eqn:E; [|done]. injection Ho as <-. by apply H5.
    + intros ? ? ? ? ? ? ? Ho Ha. destruct (a_cd (den pl e)) eqn:E; [|done]. injection Ho as <-. firm; by apply H6.
  - apply andb_true_iff in Hwf as [_ Hwf]. specialize (IH Hwf).
    assert (HA : forall ub, afirm (freelist Min Max (inner U (pden pl U p) ub))) by (intros; apply af_freelist; by apply inner_firm).
    pose proof IH as [H1 H2 H3 H4 H5 H6]. split; cbn [pfreelist p_init p_dtor p_alloc p_free p_max p_cd].
    + firm.
    + intros ub b s w. unfold pfl_dtor. revert w. generalize (fst (fst s), snd s), (snd (fst s)).
      enough (forall k s h, firm (s' <- fl_release Max (inner U (pden pl U p) ub) k b s h ;; p_dtor U (pden pl U p) ub b s')) as H;
        [intros; apply H|].
      intros k s0 h. apply firm_bind; [|auto]. revert s0 h. induction k as [|k IHk]; intros s0 h; cbn [fl_release]; firm.
      apply H4.
    + intros ub b s n. pose proof (af_alloc _ (HA ub) b (fl_in U (pden pl U p) ub s) n) as H. apply firm_bind; [exact H|]. firm.
    + intros ub b s q n. pose proof (af_free _ (HA ub) b (fl_in U (pden pl U p) ub s) q n) as H. apply firm_bind; [exact H|]. firm.
    + intros mx ub b s E. destruct (p_max U (pden pl U p)) eqn:E'; [|done]. injection E as <-. by apply H5.
    + intros o c ub b s q act E Ha. destruct (p_cd U (pden pl U p)) eqn:E'; [|done]. injection E as <-. firm; by apply H6.
  - rewrite !andb_true_iff in Hwf. destruct Hwf as [[Hp Hf] _]. apply pair_firm; auto.
  - rewrite !andb_true_iff in Hwf. destruct Hwf as [Hp Hf]. apply pair_firm; auto.
  - specialize (IH Hwf).
    assert (HA : forall ub, afirm (overflow (inner U (pden pl U p) ub))) by (intros; apply af_overflow; by apply inner_firm).
    pose proof IH as [H1 H2 H3 H4 H5 H6]. split; cbn [poverflow p_init p_dtor p_alloc p_free p_max p_cd].
    + firm.
    + unfold pov_dtor. firm.
    + intros ub b s n. pose proof (af_alloc _ (HA ub) b (ov_into U (pden pl U p) ub s) n) as H. apply firm_bind; [exact H|]. firm.
    + intros ub b s q n. pose proof (af_free _ (HA ub) b (ov_into U (pden pl U p) ub s) q n) as H. apply firm_bind; [exact H|]. firm.
    + intros mx ub b s E. destruct (p_max U (pden pl U p)) eqn:E'; [|done]. injection E as <-. by apply H5.
    + intros o c ub b s q act E Ha. injection E as <-.
      pose proof (af_cd _ (HA ub) _ c b (ov_into U (pden pl U p) ub s) q act eq_refl Ha) as H. apply firm_bind; [exact H|]. firm.
  - exact (IH Hwf).
Qed.

Lemma shared_firm pl s : pl <> PPosix -> swf s = true -> afirm (sden pl s).
Proof.
  intros Hpl. induction s as [e|u IH p]; cbn [swf sden]; intros Hwf; [by apply tree_firm|].
  apply andb_true_iff in Hwf as [Hu Hp]. specialize (IH Hu).
  destruct (part_firm pl (sden pl u) p _ Hpl IH Hp) as [H1 H2 H3 H4 H5 H6]. destruct IH as [G1 G2 G3 G4 G5 G6].
  split; cbn [upstream a_init a_dtor a_alloc a_free a_max a_cd]; try solve [firm].
  - intros ? ? ? Ho. destruct (p_max _ (pden pl (sden pl u) p)) eqn:E; [|done]. injection Ho as <-. by apply H5.
  - intros ? ? ? ? ? ? Ho Ha. destruct (p_cd _ (pden pl (sden pl u) p)) eqn:E; [|done]. injection Ho as <-. by apply H6.
Qed.

(** * Programs *)
Lemma upstream_session bad pl s b ops w :
  pl <> PPosix -> swf s = true -> sclean s = true -> (sboxed s = true -> bad EvFail || bad EvRefuse = true) ->
  place b (ssize s) w -> asks (sreq pl s) ops ->
  session_ok bad (sden pl s) (sready_now pl s) b ops w.
Proof.
  intros Hpl Hwf Hcl Hb Hp Hreq. destruct (shared_contract_of bad pl s Hpl Hwf Hcl Hb) as [C HC].
  apply (client_safe bad (sden pl s) (sreq pl s) C); [exact HC| |done]. by rewrite sden_size.
Qed.

Lemma upstream_strict pl s b ops w :
  pl <> PPosix -> swf s = true -> sclean s = true -> place b (ssize s) w -> asks (sreq pl s) ops ->
  session_strict (sboxed s) (sden pl s) (sready_now pl s) b ops w.
Proof. intros. apply strict; [by apply shared_firm|]. apply upstream_session; try done. by intros ->. Qed.

(** * Containers *)
Lemma upstream_service pl s req' : pl <> PPosix -> swf s = true -> sclean s = true ->
  (forall n, req' n = true -> sreq pl s n = true) ->
  inhabited (service (unsupported req') (sden pl s) (sreq pl s)).
Proof.
  intros Hpl Hwf Hcl Hle. destruct (shared_contract_of (unsupported req') pl s Hpl Hwf Hcl) as [C _]; [done|].
  constructor. apply (service_of C); [done|]. by apply modest_un.
Qed.

Lemma vector_upstream pl s b sz k ops w :
  pl <> PPosix -> swf s = true -> sclean s = true -> 0 < sz -> place b (N.of_nat k * ssize s) w ->
  csession_ok (sden pl s) b (vstep (sden pl s) b sz k) (release (sden pl s) b sz) (vcheck sz k) (unsupported (sreq pl s)) k ∅ ops w.
Proof.
  intros Hpl Hwf Hcl Hsz Hp. destruct (upstream_service pl s (sreq pl s) Hpl Hwf Hcl) as [C]; [done|].
  apply (vector_session C b sz k Hsz). by rewrite sden_size.
Qed.

Lemma array_upstream pl s b sz k ops w :
  pl <> PPosix -> swf s = true -> sclean s = true -> 0 < sz -> place b (N.of_nat k * ssize s) w ->
  csession_ok (sden pl s) b (astep (sden pl s) b sz k) (arelease (sden pl s) b sz) (acheck sz k) (unsupported (sreq pl s)) k ∅ ops w.
Proof.
  intros Hpl Hwf Hcl Hsz Hp. destruct (upstream_service pl s (sreq pl s) Hpl Hwf Hcl) as [C]; [done|].
  apply (array_session C b sz k Hsz). by rewrite sden_size.
Qed.

Lemma heap_upstream pl s b sz T comp eqv k ops w :
  pl <> PPosix -> swf s = true -> sclean s = true -> 0 < sz -> place b (N.of_nat k * ssize s) w ->
  csession_ok (sden pl s) b (hstep (sden pl s) b sz T comp eqv k) (hrelease (sden pl s) b sz T) (hcheck sz T comp eqv k)
    (unsupported (half (sreq pl s))) k ∅ ops w.
Proof.
  intros Hpl Hwf Hcl Hsz Hp. destruct (upstream_service pl s (half (sreq pl s)) Hpl Hwf Hcl (half_le _)) as [C].
  apply (heap_any _ _ _ C (modest_half _)); [done|]. by rewrite sden_size.
Qed.

Lemma mixed_upstream pl s b ty k ops w :
  pl <> PPosix -> swf s = true -> sclean s = true -> (forall t, 0 < t_size (ty t)) -> place b (N.of_nat k * ssize s) w ->
  csession_ok (sden pl s) b (xstep (sden pl s) b ty k) (xkill (sden pl s) b) (xcheck ty k) (unsupported (half (sreq pl s))) k ∅ ops w.
Proof.
  intros Hpl Hwf Hcl Hty Hp. destruct (upstream_service pl s (half (sreq pl s)) Hpl Hwf Hcl (half_le _)) as [C].
  apply (mixed_any _ _ _ C (modest_half _)); [done|]. by rewrite sden_size.
Qed.

(** * A fallback whose first part uses the shared allocator *)
Definition bad_fallback (Size : N) : sexp := XLet (XExp (ELinear Size)) (PFallback (PFreelist 0 64 PHandle) PHandle).

Lemma fallback_shared : exists b w s ops,
  swf s = true /\ place b (ssize s) w /\ asks (sreq PMalloc s) ops /\
  crash (session (sden PMalloc s) b (sready_now PMalloc s) ops w) = Some UBAccess.
Proof.
  exists 4096, (w_raw 96), (bad_fallback 96), [OAlloc 64; OAlloc 32; OFree 0; OAlloc 64; OWrite 0 63 1].
  split_and!; [by vm_compute|by apply (w_raw_place 96)| |by vm_compute].
  repeat (apply Forall_cons; [by vm_compute|]); constructor.
Qed.

(** The block of 16 bytes is index 0 when 7 is written to its first byte, and index 1 when that byte is read. *)
Lemma fallback_aliased : exists b w s p q os,
  swf s = true /\ place b (ssize s) w /\ q <= p < q + 64 /\
  outcome (session (sden PMalloc s) b (sready_now PMalloc s)
    [OAlloc 64; OAlloc 32; OAlloc 16; OWrite 0 0 7; OFree 1; OAlloc 64; OWrite 0 (p - q) 9; ORead 1 0] w) = Some (os, []) /\
  os !! 2%nat = Some (ObPtr p) /\ os !! 5%nat = Some (ObPtr q) /\ os !! 7%nat = Some (ObByte (Some 9)).
Proof.
  exists 4096, (w_raw 112), (bad_fallback 112), 4192, 4160. eexists _.
  split; [by vm_compute|]. split; [by apply (w_raw_place 112)|]. split; [lia|].
  split; [vm_compute; reflexivity|]. done.
Qed.
