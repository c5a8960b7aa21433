(** The reference counts of shared implement shared ownership exactly. *)
From Coq Require Import ssreflect.
From Verif Require Import Base Mem Bits AlignedMalloc Allocators Client AllocSpec AllocFacts Shared.

(** * Counting handles *)
Definition refs (g : nat) (hs : gmap nat (option nat)) : nat := size (filter (fun kv => snd kv = Some g) hs).

Definition hit (x : option nat) (g : nat) : nat := match decide (x = Some g) with left _ => 1%nat | right _ => 0%nat end.

Lemma refs_new g hs h x : hs !! h = None -> refs g (<[h := x]> hs) = (hit x g + refs g hs)%nat.
Proof.
  intros Hh. unfold refs, hit. destruct (decide (x = Some g)) as [->|Hx].
  - rewrite map_filter_insert_True //. apply map_size_insert_None. apply map_filter_lookup_None. by left.
  - by rewrite map_filter_insert_not' // Hh.
Qed.

Lemma refs_del g hs h x : hs !! h = Some x -> refs g hs = (hit x g + refs g (delete h hs))%nat.
Proof.
  intros Hh. rewrite -{1}(insert_id hs h x Hh) -insert_delete_insert. apply refs_new. apply lookup_delete.
Qed.

Lemma refs_ins g hs h y : refs g (<[h := y]> hs) = (hit y g + refs g (delete h hs))%nat.
Proof. rewrite -insert_delete_insert. apply refs_new. apply lookup_delete. Qed.

Lemma refs_pos g hs : (0 < refs g hs)%nat <-> exists h, hs !! h = Some (Some g).
Proof.
  unfold refs. split.
  - intros H. destruct (map_choose (filter (fun kv : nat * option nat => snd kv = Some g) hs)) as (h&x&Hx).
    { intros E. rewrite E map_size_empty in H. lia. }
    apply map_filter_lookup_Some in Hx as [Hx Hg]. cbn in Hg. subst x. by exists h.
  - intros [h Hh]. apply Nat.neq_0_lt_0. intros E. apply map_size_empty_inv in E.
    assert (filter (fun kv : nat * option nat => snd kv = Some g) hs !! h = Some (Some g)) as H by by apply map_filter_lookup_Some.
    by rewrite E in H.
Qed.

Lemma refs_le g hs : (refs g hs <= size hs)%nat.
Proof.
  unfold refs. rewrite -!size_dom. apply subseteq_size, subseteq_dom, map_filter_subseteq.
Qed.

Lemma alone_refs h g hs : alone h g hs = true <-> refs g (delete h hs) = 0%nat.
Proof.
  unfold alone, refs. rewrite bool_decide_eq_true. by rewrite map_size_empty_iff.
Qed.

(** * Simulation *)
Section same.
  Context {X Y : Type} (R : X -> Y -> Prop).
  Lemma same_ret a b w : R a b -> same R (ret a w) (ret b w).
  Proof. done. Qed.
  Lemma same_bind {X' Y'} (S : X' -> Y' -> Prop) (m : M X') (n : M Y') (k : X' -> M X) (l : Y' -> M Y) w :
    same S (m w) (n w) -> (forall a b w, S a b -> same R (k a w) (l b w)) -> same R (bind m k w) (bind n l w).
  Proof.
    intros H Hk. unfold bind. destruct (m w) as [a w1 e1|u e1], (n w) as [b w1' e1'|u' e1']; try done.
    - destruct H as (<-&<-&H). specialize (Hk a b w1 H).
      destruct (k a w1), (l b w1); cbn [same] in *; try done.
      + by destruct Hk as (<-&<-&Hk).
      + by destruct Hk as (<-&<-).
  Qed.
End same.

Lemma same_eq {X} (m : M X) w : same eq (m w) (m w).
Proof. by destruct (m w). Qed.

Section shared.
  Context (pl : platform) (A : alloc) (ready : N -> a_st A -> bool).
  Notation bsh := (fun k : block A => Sh (k_addr k) (k_in k)).
  Notation readysh := (fun _ s => ready (sh_block s) (sh_in s)).

  (** [n] more handles may still be created. *)
  Record rel (n : nat) (q : pool A) (f : family A) : Prop := {
    r_hs : p_hs q = f_hs f;
    r_next : p_next q = f_next f;
    r_out : p_out q = f_out f;
    r_gr g : option_map bsh (p_bk q !! g) = f_gr f !! g;
    r_cnt g k : p_bk q !! g = Some k -> k_cnt k = N.of_nat (refs g (p_hs q)) /\ (0 < refs g (p_hs q))%nat;
    r_live h g : p_hs q !! h = Some (Some g) -> is_Some (p_bk q !! g);
    r_fresh g : (p_next q <= g)%nat -> p_bk q !! g = None;
    r_size : N.of_nat (size (p_hs q) + n) < W
  }.

  Lemma rel_agree n q f : rel n q f -> agree q f.
  Proof.
    intros H. split_and!; try apply H. intros g. split.
    - intros [k Hk]. by apply refs_pos, (r_cnt _ _ _ H g k).
    - intros [h Hh]. by eapply (r_live _ _ _ H).
  Qed.

  Definition rrel n (x : obs * pool A) (y : obs * family A) : Prop := fst x = fst y /\ rel n (snd x) (snd y).

  (** Steps of the single-handle type and of the wrapped allocator. *)
  Lemma step_shared o p s bl w :
    same (fun x y => fst x = fst y /\ Sh p (fst (snd x)) = fst (snd y) /\ snd (snd x) = snd (snd y))
      (step A p ready o s bl w) (step (shared pl A) 0 readysh o (Sh p s) bl w).
  Proof.
    assert (Hcd : forall c q act w, same (fun x y => Sh p x = y) (traits_cd A p c s q act w) (traits_cd (shared pl A) 0 c (Sh p s) q act w)).
    { intros c q act w'. unfold traits_cd. cbn [shared a_cd]. destruct (a_cd A) as [oc|]; cbn [option_map sh_block sh_in].
      - unfold bind. destruct (oc c p s q act w') as [a w1 e1|]; [|done]. cbn. by rewrite app_nil_r.
      - eapply same_bind; [apply same_eq|]. intros ? ? ? <-. by apply same_ret. }
    destruct o as [n|i|i off v|i off|q| |i off v|i off]; cbn [step].
    - cbn [shared a_alloc sh_block sh_in]. unfold bind.
      destruct (a_alloc A p s n w) as [[r s'] w1 e1|]; [|done]. cbn. by rewrite !app_nil_r.
    - destruct (bl !! i) as [[r n]|]; [|by apply same_ret]. cbn [shared a_free sh_block sh_in]. unfold bind.
      destruct (a_free A p s r n w) as [s' w1 e1|]; [|done]. cbn. by rewrite !app_nil_r.
    - destruct (bl !! i) as [[r n]|]; [|by apply same_ret]. destruct (off <? n); [|by apply same_ret].
      eapply same_bind; [apply same_eq|]. intros ? ? ? <-. by apply same_ret.
    - destruct (bl !! i) as [[r n]|]; [|by apply same_ret]. destruct (off <? n); [|by apply same_ret].
      eapply same_bind; [apply same_eq|]. intros ? ? ? <-. by apply same_ret.
    - cbn [shared a_owns]. destruct (a_owns A); by apply same_ret.
    - cbn [shared a_max]. destruct (a_max A) as [mx|]; cbn [option_map sh_block sh_in]; [|by apply same_ret].
      destruct (ready p s); [|by apply same_ret].
      eapply same_bind; [apply same_eq|]. intros ? ? ? <-. by apply same_ret.
    - destruct (bl !! i) as [[r n]|]; [|by apply same_ret]. destruct (off <? n); [|by apply same_ret].
      eapply same_bind; [apply Hcd|]. intros a b ? <-. by apply same_ret.
    - destruct (bl !! i) as [[r n]|]; [|by apply same_ret]. destruct (off <? n); [|by apply same_ret].
      eapply same_bind; [apply Hcd|]. intros a b ? <-. by apply same_ret.
  Qed.

  (** What remains of the relation after a handle has let go: counts disregard [h]. *)
  Record rel_but (h : nat) (q : pool A) (f : family A) (bk : gmap nat (block A)) (gr : gmap nat (sh A)) : Prop := {
    b_gr g : option_map bsh (bk !! g) = gr !! g;
    b_cnt g k : bk !! g = Some k -> k_cnt k = N.of_nat (refs g (delete h (p_hs q))) /\ (0 < refs g (delete h (p_hs q)))%nat;
    b_live h' g : h' <> h -> p_hs q !! h' = Some (Some g) -> is_Some (bk !! g);
    b_fresh g : (p_next q <= g)%nat -> bk !! g = None
  }.

  Lemma hit_self g : hit (Some g) g = 1%nat.
  Proof. unfold hit. by destruct (decide _). Qed.
  Lemma hit_other x g : x <> Some g -> hit x g = 0%nat.
  Proof. unfold hit. by destruct (decide _). Qed.

  Lemma dec_small k : 1 < N.of_nat k -> N.of_nat k < W -> sub64 (N.of_nat k) 1 = N.of_nat (k - 1).
  Proof.
    intros H1 H2. rewrite sub64_small; lia.
  Qed.

  Lemma drop_sim n h q f w : rel n q f -> is_Some (p_hs q !! h) ->
    same (fun bk gr => rel_but h q f bk gr) (decrement pl A (ptr A h q) (p_bk q) w) (drop pl A h f w).
  Proof.
    intros HR [x Hx]. unfold ptr, drop. rewrite -(r_hs _ _ _ HR) Hx. destruct x as [g|]; cbn [decrement].
    - destruct (r_live _ _ _ HR h g Hx) as [k Hk]. rewrite Hk.
      destruct (r_cnt _ _ _ HR g k Hk) as [Hc Hpos].
      pose proof (refs_del g (p_hs q) h (Some g) Hx) as Hd. rewrite hit_self in Hd.
      pose proof (refs_le g (p_hs q)) as Hle. pose proof (r_size _ _ _ HR) as Hsz.
      rewrite -(r_gr _ _ _ HR g) Hk. cbn [option_map].
      destruct (N.eqb_spec (k_cnt k) 1) as [E|E].
      + assert (alone h g (p_hs q) = true) as ->. { apply alone_refs. lia. }
        cbn [shared a_dtor sh_block sh_in]. unfold bind.
        destruct (a_dtor A (k_addr k) (k_in k) w) as [[] w1 e1|]; [|done].
        destruct (aligned_free pl (k_addr k) w1) as [[] w2 e2|]; [|done]. cbn. rewrite !app_nil_r. split_and!; [done..|].
        split.
        * intros g'. destruct (decide (g = g')) as [<-|Hne]; [by rewrite !lookup_delete|].
          rewrite !lookup_delete_ne //. apply HR.
        * intros g' k' Hk'. apply lookup_delete_Some in Hk' as [Hne Hk'].
          destruct (r_cnt _ _ _ HR g' k' Hk') as [H1 H2]. rewrite (refs_del g' _ h (Some g) Hx) in H1 H2.
          rewrite hit_other in H1 H2; [congruence|]. done.
        * intros h' g' Hne Hh'. destruct (decide (g = g')) as [<-|Hg].
          { exfalso. assert (0 < refs g (delete h (p_hs q)))%nat; [|lia]. apply refs_pos. exists h'.
            by rewrite lookup_delete_ne. }
          rewrite lookup_delete_ne //. by eapply (r_live _ _ _ HR).
        * intros g' Hg'. apply lookup_delete_None. right. by apply HR.
      + assert (alone h g (p_hs q) = false) as ->.
        { apply not_true_iff_false. rewrite alone_refs. lia. }
        cbn. split_and!; [done..|]. split.
        * intros g'. rewrite -(r_gr _ _ _ HR g'). destruct (decide (g = g')) as [<-|Hne].
          { by rewrite lookup_insert Hk. }
          rewrite lookup_insert_ne //.
        * intros g' k'. destruct (decide (g = g')) as [<-|Hne].
          { rewrite lookup_insert. intros [= <-]. cbn [k_cnt]. rewrite Hc. rewrite dec_small; [lia..|].
            rewrite Hd. lia. }
          rewrite lookup_insert_ne //. intros Hk'. destruct (r_cnt _ _ _ HR g' k' Hk') as [H1 H2].
          rewrite (refs_del g' _ h (Some g) Hx) in H1 H2. rewrite hit_other in H1 H2; [congruence|]. done.
        * intros h' g' Hne Hh'. apply lookup_insert_is_Some'. right. by eapply (r_live _ _ _ HR).
        * intros g' Hg'. rewrite lookup_insert_ne; [|by apply HR]. intros <-. rewrite (r_fresh _ _ _ HR g Hg') in Hk. done.
    - cbn. split_and!; [done..|]. split.
      + apply HR.
      + intros g k Hk. destruct (r_cnt _ _ _ HR g k Hk) as [H1 H2]. by rewrite (refs_del g _ h None Hx) in H1 H2.
      + intros h' g _. apply HR.
      + apply HR.
  Qed.

  (** Let [h] refer to what [x] refers to; [x] is null or live. *)
  Lemma attach_sim n h x q f bk gr w : rel_but h q f bk gr -> p_hs q = f_hs f -> p_next q = f_next f -> p_out q = f_out f ->
    (forall g, x = Some g -> is_Some (bk !! g)) -> N.of_nat (size (<[h:=x]> (p_hs q)) + n) < W ->
    exists bk', increment A x bk w = Ok bk' w [] /\
      rel n (Pool (<[h := x]> (p_hs q)) bk' (p_next q) (p_out q)) (Family (<[h := x]> (f_hs f)) gr (f_next f) (f_out f)).
  Proof.
    intros [Hg Hc Hl Hf] Hhs Hn Ho Hx Hsz.
    assert (forall g, refs g (<[h:=x]> (p_hs q)) <= size (<[h:=x]> (p_hs q)))%nat as Hle by (intros; apply refs_le).
    destruct x as [g|]; cbn [increment].
    - destruct (Hx g eq_refl) as [k Hk]. rewrite Hk. eexists. split; [done|].
      specialize (Hle g). rewrite refs_ins hit_self in Hle.
      split; cbn [p_hs p_bk p_next p_out f_hs f_gr f_next f_out]; try congruence.
      + intros g'. rewrite -Hg. destruct (decide (g = g')) as [<-|]; [by rewrite lookup_insert Hk|by rewrite lookup_insert_ne].
      + intros g' k'. rewrite refs_ins. destruct (decide (g = g')) as [<-|Hne].
        * rewrite lookup_insert hit_self. intros [= <-]. cbn [k_cnt]. destruct (Hc g k Hk) as [-> ?].
          rewrite add64_small; lia.
        * rewrite lookup_insert_ne //. intros Hk'. rewrite hit_other; [congruence|]. by apply Hc.
      + intros h' g' Hh'. apply lookup_insert_is_Some'. apply lookup_insert_Some in Hh' as [[<- [= <-]]|[Hne Hh']]; [by left|right].
        by eapply Hl.
      + intros g' Hg'. rewrite lookup_insert_ne; [|by apply Hf]. intros <-. rewrite Hf // in Hk.
    - eexists. split; [done|]. split; cbn [p_hs p_bk p_next p_out f_hs f_gr f_next f_out]; try congruence.
      + intros g k Hk. rewrite refs_ins. by apply Hc.
      + intros h' g Hh'. apply lookup_insert_Some in Hh' as [[<- ?]|[Hne Hh']]; [done|]. by eapply Hl.
      + done.
  Qed.

  (** A fresh name refers to nothing. *)
  Lemma but_fresh n h q f : rel n q f -> p_hs q !! h = None -> rel_but h q f (p_bk q) (f_gr f).
  Proof.
    intros HR Hh. split; try apply HR.
    - intros g k Hk. rewrite delete_notin //. by apply HR.
    - intros h' g _. apply HR.
  Qed.

  (** Exchange of two handles: the counts stay the same. *)
  Lemma move_refs g hs h src x : h <> src -> hs !! src = Some x ->
    refs g (<[src := None]> (<[h := x]> hs)) = refs g (delete h hs).
  Proof.
    intros Hne Hs. rewrite refs_ins delete_insert_ne // refs_ins. rewrite hit_other //.
    rewrite (refs_del g (delete h hs) src x); [by rewrite lookup_delete_ne|]. by rewrite delete_commute.
  Qed.

  Lemma move_sim n h src x q f bk gr : rel_but h q f bk gr -> p_hs q = f_hs f -> p_next q = f_next f -> p_out q = f_out f ->
    h <> src -> p_hs q !! src = Some x -> N.of_nat (size (<[h:=x]> (p_hs q)) + n) < W ->
    rel n (Pool (<[src := None]> (<[h := x]> (p_hs q))) bk (p_next q) (p_out q))
          (Family (<[src := None]> (<[h := x]> (f_hs f))) gr (f_next f) (f_out f)).
  Proof.
    intros [Hg Hc Hl Hf] Hhs Hn Ho Hne Hs Hsz. split; cbn [p_hs p_bk p_next p_out f_hs f_gr f_next f_out]; try congruence.
    - intros g k Hk. rewrite move_refs //. by apply Hc.
    - intros h' g Hh'. apply lookup_insert_Some in Hh' as [[_ ?]|[Hne1 Hh']]; [done|].
      apply lookup_insert_Some in Hh' as [[<- ->]|[Hne2 Hh']]; by eapply Hl.
    - done.
    - rewrite map_size_insert_Some; [|done]. exists x. by rewrite lookup_insert_ne.
  Qed.

  Lemma size_over (hs : gmap nat (option nat)) h x : is_Some (hs !! h) -> size (<[h := x]> hs) = size hs.
  Proof. intros [y Hy]. apply map_size_insert_Some. by exists y. Qed.

  Lemma may_drop_handle h hs out : may_drop h hs out = true -> is_Some (hs !! h).
  Proof. unfold may_drop. destruct (hs !! h); by intros. Qed.

  Lemma hstep_sim n o q f w : rel (S n) q f -> legal o (p_hs q) (p_out q) = true ->
    same (rrel n) (hstep pl A ready o q w) (sstep pl A ready o f w).
  Proof.
    intros HR HL. pose proof (r_hs _ _ _ HR) as Hhs. pose proof (r_size _ _ _ HR) as Hsz.
    destruct o as [h|h src|h src|h src|h src|h|h o]; cbn [legal] in HL; cbn [hstep sstep].
    - apply bool_decide_eq_true in HL. cbn [shared a_init]. unfold new_block, bind.
      destruct (aligned_malloc pl (a_size A + 16) ALIGNMENT w) as [p w1 e1|]; [|done].
      destruct (p =? 0); [done|]. destruct (a_init A p w1) as [s w2 e2|]; [|done]. cbn.
      rewrite !app_nil_r. split_and!; [done..|]. split; [done|]. cbn [snd].
      assert (Hnx : p_bk q !! p_next q = None) by by apply HR.
      assert (Hr0 : refs (p_next q) (p_hs q) = 0%nat).
      { destruct (refs (p_next q) (p_hs q)) eqn:E; [done|]. exfalso.
        assert (0 < refs (p_next q) (p_hs q))%nat as Hp by lia. apply refs_pos in Hp as [h' Hh'].
        apply (r_live _ _ _ HR) in Hh' as [k Hk]. by rewrite Hnx in Hk. }
      split; cbn [p_hs p_bk p_next p_out f_hs f_gr f_next f_out].
      + by rewrite Hhs (r_next _ _ _ HR).
      + by rewrite (r_next _ _ _ HR).
      + by rewrite (r_next _ _ _ HR) (r_out _ _ _ HR).
      + intros g. rewrite (r_next _ _ _ HR). destruct (decide (f_next f = g)) as [<-|]; [by rewrite !lookup_insert|].
        rewrite !lookup_insert_ne //. apply HR.
      + intros g k. rewrite refs_new //. destruct (decide (p_next q = g)) as [<-|Hne].
        * rewrite lookup_insert hit_self Hr0. intros [= <-]. cbn [k_cnt]. lia.
        * rewrite lookup_insert_ne // hit_other; [congruence|]. apply HR.
      + intros h' g Hh'. apply lookup_insert_is_Some'. apply lookup_insert_Some in Hh' as [[_ [= <-]]|[_ Hh']]; [by left|right].
        by eapply (r_live _ _ _ HR).
      + intros g Hg. rewrite lookup_insert_ne; [lia|]. apply HR. lia.
      + rewrite map_size_insert_None //. lia.
    - apply andb_true_iff in HL as [H1%bool_decide_eq_true H2%bool_decide_eq_true].
      cbn [set_hs p_hs p_bk]. destruct H2 as [x Hx].
      assert (ptr A src q = x) as Hp by by rewrite /ptr Hx.
      assert (target A src f = x) as Ht by by rewrite /target -Hhs Hx.
      rewrite Hp Ht. unfold ptr at 1. cbn [p_hs]. rewrite lookup_insert.
      destruct (attach_sim n h x q f (p_bk q) (f_gr f) w) as (bk'&H3&H4); try apply HR.
      + by eapply but_fresh.
      + intros g ->. by eapply (r_live _ _ _ HR).
      + rewrite map_size_insert_None //. lia.
      + unfold bind. rewrite H3. cbn. done.
    - apply andb_true_iff in HL as [H1%bool_decide_eq_true H2%bool_decide_eq_true].
      destruct H2 as [x Hx].
      assert (ptr A src q = x) as Hp by by rewrite /ptr Hx.
      assert (target A src f = x) as Ht by by rewrite /target -Hhs Hx.
      rewrite Hp Ht. cbn. split_and!; [done..|]. split; [done|]. cbn [snd set_hs p_hs p_bk p_next p_out].
      apply (move_sim n h src x q f (p_bk q) (f_gr f)); try apply HR; try done.
      + by eapply but_fresh.
      + congruence.
      + rewrite map_size_insert_None //. lia.
    - apply andb_true_iff in HL as [[H1 H2%bool_decide_eq_true]%andb_true_iff H3].
      assert (Hne : h <> src). { intros ->. by rewrite bool_decide_true in H1. }
      apply may_drop_handle in H3 as Hh. destruct H2 as [x Hx].
      assert (target A src f = x) as Ht by by rewrite /target -Hhs Hx. rewrite Ht.
      eapply same_bind; [by eapply drop_sim|]. intros bk gr w' HB. cbn [set_bk set_hs p_hs p_bk].
      assert (ptr A src (set_bk A bk q) = x) as -> by by rewrite /ptr /set_bk /= Hx.
      unfold ptr at 1. cbn [p_hs]. rewrite lookup_insert.
      destruct (attach_sim n h x q f bk gr w') as (bk'&H4&H5); try apply HR; try done.
      + intros g ->. by eapply (b_live _ _ _ _ _ HB src).
      + rewrite size_over //. lia.
      + unfold bind. rewrite H4. cbn. done.
    - apply andb_true_iff in HL as [[H1 H2%bool_decide_eq_true]%andb_true_iff H3].
      assert (Hne : h <> src). { intros ->. by rewrite bool_decide_true in H1. }
      apply may_drop_handle in H3 as Hh. destruct H2 as [x Hx].
      assert (target A src f = x) as Ht by by rewrite /target -Hhs Hx. rewrite Ht.
      eapply same_bind; [by eapply drop_sim|]. intros bk gr w' HB.
      assert (ptr A src (set_bk A bk q) = x) as -> by by rewrite /ptr /set_bk /= Hx.
      cbn. split_and!; [done..|]. split; [done|]. cbn [snd set_hs set_bk p_hs p_bk p_next p_out].
      apply (move_sim n h src x q f bk gr); try apply HR; try done. rewrite size_over //. lia.
    - apply may_drop_handle in HL as Hh.
      eapply same_bind; [by eapply drop_sim|]. intros bk gr w' [Hg Hc Hl Hf].
      cbn. split_and!; [done..|]. split; [done|]. cbn [snd]. split; cbn [set_hs set_bk p_hs p_bk p_next p_out f_hs f_gr f_next f_out];
        try apply HR; try done.
      + by rewrite Hhs.
      + intros h' g Hh'. apply lookup_delete_Some in Hh' as [Hne Hh']. by eapply Hl.
      + destruct Hh as [x Hx]. rewrite map_size_delete_Some; [by exists x|]. lia.
    - destruct (p_hs q !! h) as [[g|]|] eqn:Hh; try done.
      assert (ptr A h q = Some g) as -> by by rewrite /ptr Hh.
      assert (target A h f = Some g) as -> by by rewrite /target -Hhs Hh.
      destruct (r_live _ _ _ HR h g Hh) as [k Hk]. rewrite Hk -(r_gr _ _ _ HR g) Hk. cbn [option_map].
      rewrite -(r_out _ _ _ HR). eapply same_bind; [apply step_shared|].
      intros [ob [s' bl']] [ob' [s'' bl'']] w' (H1&H2&H3). cbn [fst snd] in *. subst. cbn.
      split_and!; [done..|]. split; [done|]. cbn [snd].
      split; cbn [p_hs p_bk p_next p_out f_hs f_gr f_next f_out]; try apply HR; try congruence.
      + intros g'. destruct (decide (g = g')) as [<-|]; [by rewrite !lookup_insert|]. rewrite !lookup_insert_ne //. apply HR.
      + intros g' k'. destruct (decide (g = g')) as [<-|]; [|by rewrite lookup_insert_ne //; apply HR].
        rewrite lookup_insert. intros [= <-]. cbn [k_cnt]. by apply HR.
      + intros h' g' Hh'. apply lookup_insert_is_Some'. right. by eapply (r_live _ _ _ HR).
      + intros g' Hg'. rewrite lookup_insert_ne; [|by apply HR]. intros <-. by rewrite (r_fresh _ _ _ HR g Hg') in Hk.
      + lia.
  Qed.

  Lemma rel_less n q f : rel (S n) q f -> rel n q f.
  Proof. intros HR. split; try apply HR. pose proof (r_size _ _ _ HR). lia. Qed.

  Lemma hrun_sim ops n q f w : rel (length ops + n) q f ->
    same (fun x y => fst x = fst y /\ rel n (snd x) (snd y)) (hrun pl A ready ops q w) (srun pl A ready ops f w).
  Proof.
    revert q f w. induction ops as [|o ops IH]; intros q f w HR; cbn [hrun srun length].
    - by apply same_ret.
    - cbn [length Nat.add] in HR. eapply same_bind with (S := rrel (length ops + n)).
      + rewrite -(r_hs _ _ _ HR) -(r_out _ _ _ HR). destruct (legal _ _ _) eqn:HL.
        * by apply hstep_sim.
        * apply same_ret. split; [done|]. by apply rel_less.
      + intros [ob q'] [ob' f'] w' [H1 H2]. cbn [fst snd] in H1, H2. subst ob'.
        eapply same_bind; [by apply IH|]. intros [os q''] [os' f''] w'' [H3 H4]. cbn [fst snd] in *. subst os'.
        by apply same_ret.
  Qed.

  Lemma shared_exact ops w : N.of_nat (length ops) < W ->
    same (fun x y => fst x = fst y /\ agree (snd x) (snd y)) (hrun pl A ready ops pool0 w) (srun pl A ready ops family0 w).
  Proof.
    intros Hl. assert (HR : rel (length ops + 0) pool0 family0).
    { split; cbn; try done. by rewrite map_size_empty; lia. }
    pose proof (hrun_sim ops 0 _ _ w HR) as H.
    destruct (hrun _ _ _ _ _ _) as [[os q] w1 e1|], (srun _ _ _ _ _ _) as [[os' f] w2 e2|]; try done.
    destruct H as (->&->&H1&H2). do 3 (split; [done|]). by eapply rel_agree.
  Qed.
End shared.
