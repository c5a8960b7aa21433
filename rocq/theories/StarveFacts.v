(** A container that does not get memory and goes on storing elements stores them at address zero. *)
From Coq Require Import ssreflect.
From Verif Require Import Base Mem Bits AlignedMalloc Allocators Checked Tree Client NoFail NullPage Env Vector Array HeapPure Heap
  Contract Service TreeProofs VectorProofs ArrayProofs ContFacts HeapSpec HeapProofs HeapFacts MiscFacts NeverFacts Never AllocSpec AllocProofs ContExamples.
Local Open Scope N_scope.

(** [m] leaves address zero inaccessible; if it ends normally, [Q] holds of the result and of
    whether an allocation failed. *)
Definition nf {X} (m : M X) (Q : X -> bool -> Prop) : Prop := forall w, mem (st w) !! 0 = None ->
  match m w with Ok x w' e => mem (st w') !! 0 = None /\ Q x (existsb is_fail e) | Err _ _ => True end.
Definition calm {X} (m : M X) : Prop := nf m (fun _ f => f = false).

Lemma nf_bind {X Y} (m : M X) (k : X -> M Y) R Q :
  nf m R -> (forall x f, R x f -> nf (k x) (fun y f' => Q y (f || f'))) -> nf (bind m k) Q.
Proof.
  intros Hm Hk w Hw. unfold bind. specialize (Hm w Hw). destruct (m w) as [x w1 e1|]; [|done]. destruct Hm as [H1 H2].
  specialize (Hk _ _ H2 w1 H1). destruct (k x w1) as [y w2 e2|]; [|done]. by rewrite existsb_app.
Qed.
Lemma nf_ret {X} (x : X) (Q : X -> bool -> Prop) : Q x false -> nf (ret x) Q.
Proof. by intros H w Hw. Qed.
Lemma nf_mono {X} (m : M X) (R Q : X -> bool -> Prop) : nf m R -> (forall x f, R x f -> Q x f) -> nf m Q.
Proof. intros Hm H w Hw. specialize (Hm w Hw). destruct (m w); [|done]. destruct Hm. auto. Qed.
Lemma nf_never {X} (m : M X) R Q : nf m R -> (forall x f, ~ R x f) -> nf m Q.
Proof. intros Hm H. eapply nf_mono; [done|]. intros x f Hr. by apply H in Hr. Qed.
(** What does not fail by itself. *)
Lemma calm_bind {X Y} (m : M X) (k : X -> M Y) Q : calm m -> (forall x, nf (k x) Q) -> nf (bind m k) Q.
Proof. intros Hm Hk. eapply nf_bind; [exact Hm|]. intros x f ->. apply Hk. Qed.
Lemma calm_of {X} (m : M X) : low m -> firm m -> calm m.
Proof. intros Hl Hf w Hw. specialize (Hl w Hw). specialize (Hf w). by destruct (m w). Qed.
Lemma calm_ret {X} (x : X) : calm (ret x).
Proof. by apply nf_ret. Qed.
Lemma calm_ubm {X} u Q : nf (ubm u : M X) Q.
Proof. done. Qed.

Lemma calm_rds a n : calm (rds a n).
Proof. apply calm_of; [apply low_rds|apply firm_rds]. Qed.
Lemma calm_wrs a cs : calm (wrs a cs).
Proof. apply calm_of; [apply low_wrs|apply firm_wrs]. Qed.
Lemma calm_assert c : calm (ktl_assert c).
Proof. apply calm_of; [apply low_assert|apply firm_assert]. Qed.
Lemma calm_emit e : is_fail e = false -> calm (emit e).
Proof. intros. apply calm_of; [apply low_emit|by apply firm_emit]. Qed.
Lemma calm_memcpy d s n : calm (memcpy d s n).
Proof.
  unfold memcpy. destruct (n =? 0); [apply calm_ret|]. destruct (_ && _); [done|].
  apply calm_bind; [apply calm_rds|]. intros. apply calm_wrs.
Qed.
Lemma calm_memmove d s n : calm (memmove d s n).
Proof.
  unfold memmove. destruct (n =? 0); [apply calm_ret|]. apply calm_bind; [apply calm_rds|]. intros. apply calm_wrs.
Qed.
Lemma calm_assign sz d s : calm (assign sz d s).
Proof. destruct s; cbn [assign]; [apply calm_wrs|]. apply calm_bind; [apply calm_rds|]. intros. apply calm_wrs. Qed.
Lemma calm_copy_in sz d s : calm (copy_in sz d s).
Proof. destruct s; cbn [copy_in]; [apply calm_wrs|apply calm_memcpy]. Qed.
Lemma calm_fill sz n p s : calm (fill_n sz p n s).
Proof. revert p. induction n as [|n IH]; intros p; cbn [fill_n]; [apply calm_ret|]. apply calm_bind; [apply calm_assign|intros _; apply IH]. Qed.
Lemma calm_store sz l p : calm (store_list sz p l).
Proof. revert p. induction l as [|n l IH]; intros p; cbn [store_list]; [apply calm_ret|]. apply calm_bind; [apply calm_assign|intros _; apply IH]. Qed.

(** Nothing can be stored at address zero. *)
Lemma rds_null n Q : (0 < n)%nat -> nf (rds 0 n) Q.
Proof. intros Hn w Hw. destruct n as [|n]; [lia|]. cbn [rds]. unfold bind, rd. by rewrite Hw. Qed.
Lemma wrs_null cs Q : (0 < length cs)%nat -> nf (wrs 0 cs) Q.
Proof. intros Hn w Hw. destruct cs as [|c cs]; [cbn in Hn; lia|]. cbn [wrs]. unfold bind, wr. by rewrite Hw. Qed.
Lemma copied_null s n Q : (0 < n)%nat -> nf (cs <- rds s n ;; wrs 0 cs) Q.
Proof.
  intros Hn. intros w Hw. destruct (bind _ _ w) as [x w' e|] eqn:E; [|done]. exfalso.
  apply bind_inv in E as (cs&w1&e1&e2&H1&H2&_). apply rds_inv in H1 as (->&Hl&_).
  pose proof (wrs_null cs (fun _ _ => False) ltac:(lia) w Hw) as H. rewrite H2 in H. by destruct H.
Qed.
Lemma memcpy_null s n Q : 0 < n -> nf (memcpy 0 s n) Q.
Proof.
  intros Hn. unfold memcpy. destruct (N.eqb_spec n 0); [lia|]. destruct (_ && _); [done|]. apply copied_null. lia.
Qed.
Lemma assign_null sz s Q : 0 < sz -> nf (assign sz 0 s) Q.
Proof.
  intros Hn. destruct s; cbn [assign]; [|apply copied_null; lia]. apply wrs_null. unfold chunk. rewrite map_length seq_length. lia.
Qed.
Lemma copy_in_null sz s Q : 0 < sz -> 0 < array_length s -> nf (copy_in sz 0 s) Q.
Proof.
  intros Hsz Hn. destruct s as [l|a n]; cbn [copy_in array_length] in *; [|apply memcpy_null; nia].
  apply wrs_null. destruct l as [|x l]; [cbn in Hn; lia|]. cbn. rewrite app_length. unfold chunk. rewrite map_length seq_length. lia.
Qed.
Lemma fill_null sz n s Q : 0 < sz -> (0 < n)%nat -> nf (fill_n sz 0 n s) Q.
Proof. intros Hsz Hn. destruct n as [|n]; [lia|]. cbn [fill_n]. eapply nf_bind; [by apply (assign_null _ _ (fun _ _ => False))|done]. Qed.
Lemma store_null sz l Q : 0 < sz -> (0 < length l)%nat -> nf (store_list sz 0 l) Q.
Proof. intros Hsz Hn. destruct l as [|n l]; [cbn in Hn; lia|]. cbn [store_list]. eapply nf_bind; [by apply (assign_null _ _ (fun _ _ => False))|done]. Qed.

Section env.
  Context (A : alloc) (b sz : N) (HL : alow A) (HF : afirm A).
  Local Notation env := (env A).

  (** Null with a failure, or without one if nothing was asked for. *)
  Definition got (n p : N) (f : bool) : Prop := if f then p = 0 /\ 0 < sz * n else p = 0 -> sz * n = 0.

  Lemma nf_alloc h n (E : env) : nf (te_alloc A b sz h n E) (fun x f => got n (fst x) f).
  Proof.
    unfold te_alloc. destruct (E !! h) as [s|]; [|done]. apply calm_bind; [by apply calm_emit|]. intros _.
    apply calm_bind; [apply calm_of; [apply (lo_alloc _ HL)|apply (af_alloc _ HF)]|]. intros [p s'].
    eapply (nf_bind _ _ (fun _ f => got n p f)).
    - destruct ((p =? 0) && negb (sz * n =? 0)) eqn:E1.
      + intros w Hw. cbn. split; [done|]. lia.
      + apply nf_ret. cbn. lia.
    - intros _ f Hf. apply nf_ret. by rewrite orb_false_r.
  Qed.
  Lemma calm_free h p n (E : env) : calm (te_free A b sz h p n E).
  Proof.
    unfold te_free. destruct (E !! h) as [s|]; [|done].
    apply calm_bind; [apply calm_of; [apply (lo_free _ HL)|apply (af_free _ HF)]|]. intros. apply calm_ret.
  Qed.
  Lemma calm_init k : forall h (E : env), calm (init_all A b h k E).
  Proof.
    induction k as [|k IH]; intros h E; cbn [init_all]; [apply calm_ret|]. apply calm_bind; [|intros; apply IH]. unfold te_init.
    apply calm_bind; [apply calm_of; [apply (lo_init _ HL)|apply (af_init _ HF)]|]. intros. apply calm_ret.
  Qed.
  Lemma calm_dtor k : forall h (E : env), calm (dtor_all A b h k E).
  Proof.
    induction k as [|k IH]; intros h E; cbn [dtor_all]; [apply calm_ret|]. apply calm_bind; [|intros; apply IH]. unfold te_dtor.
    destruct (E !! h) as [s|]; [|done].
    apply calm_bind; [apply calm_of; [apply (lo_dtor _ HL)|apply (af_dtor _ HF)]|]. intros. apply calm_ret.
  Qed.
  Lemma calm_cd c h q act (E : env) : low act -> firm act -> calm (te_cd A b c h q act E).
  Proof.
    intros Hl Hf. unfold te_cd. destruct (E !! h) as [s|]; [|done]. apply calm_bind; [|intros; apply calm_ret].
    unfold traits_cd. destruct (a_cd A) as [o|] eqn:Ho.
    - apply calm_of; [by apply (lo_cd _ HL)|by apply (af_cd _ HF)].
    - apply calm_bind; [by apply calm_of|]. intros. apply calm_ret.
  Qed.

  (** Whole programs. *)
  Section session.
    Context {X O : Type} (stp : O -> env * gmap nat X -> M (cobs * (env * gmap nat X))) (kill : X -> env -> M env).
    Context (P : X -> Prop) (ok : O -> bool).
    Context (Hstp : forall o E vs, ok o = true -> map_Forall (fun _ => P) vs ->
      nf (stp o (E, vs)) (fun x f => f = false /\ map_Forall (fun _ => P) (snd (snd x)))).
    Context (Hkill : forall x E, calm (kill x E)).

    Lemma nf_crun ops : forall E vs, forallb ok ops = true -> map_Forall (fun _ => P) vs ->
      nf (crun A stp ops (E, vs)) (fun x f => f = false).
    Proof.
      induction ops as [|o ops IH]; intros E vs Ho Hv; cbn [crun]; [by apply nf_ret|].
      cbn [forallb] in Ho. apply andb_true_iff in Ho as [Ho1 Ho2].
      eapply nf_bind; [by apply Hstp|]. intros [ob [E' vs']] f [-> Hv']. cbn [snd] in Hv'.
      eapply nf_bind; [by apply IH|]. intros [os q] f ->. by apply nf_ret.
    Qed.
    Lemma nf_kill xs : forall E, calm (kill_all A kill xs E).
    Proof.
      induction xs as [|[i x] xs IH]; intros E; cbn [kill_all]; [apply calm_ret|]. apply calm_bind; [apply Hkill|intros; apply IH].
    Qed.
    Lemma nf_session k ops : forallb ok ops = true -> calm (csession A b stp kill k ops).
    Proof.
      intros Ho. unfold csession. apply calm_bind; [apply calm_init|]. intros E.
      eapply nf_bind; [by apply nf_crun|]. intros [os [E' vs]] f ->. cbn.
      apply calm_bind; [apply nf_kill|]. intros E''. apply calm_bind; [apply calm_dtor|]. intros _. apply calm_ret.
    Qed.
  End session.
End env.

(** Two cases after an allocation. *)
Ltac got H := match type of H with got _ _ _ ?f => destruct f; [destruct H as [-> ?]|] end.

(** * trivial_vector *)
Section vector.
  Context (A : alloc) (b sz : N) (HL : alow A) (HF : afirm A) (Hsz : 0 < sz).
  Local Notation env := (env A).
  Local Notation nfa := (nf_alloc A b sz HL HF).

  Definition vnull (v : vec) : Prop := v_beg v = 0 -> v_end v = 0 /\ v_max v = 0.
  Definition vgood (v : vec) (f : bool) : Prop := f = false /\ vnull v.

  Lemma vnull_get c vs : map_Forall (fun _ => vnull) vs -> vnull (get_ c vs).
  Proof. intros H. unfold get_. destruct (vs !! c) as [v|] eqn:E; [by apply (H c)|done]. Qed.
  Lemma vnull_size v : vnull v -> 0 < v_size sz v -> v_beg v <> 0.
  Proof. intros H Hs E. destruct (H E) as [H1 _]. unfold v_size in Hs. rewrite H1 E N.div_0_l in Hs; lia. Qed.

  (** After set_size a failure shows in that the vector is empty. *)
  Lemma nf_set_size v n (E : env) : vnull v ->
    nf (set_size A b sz v n E) (fun x f => if f then v_end (fst x) = 0 else vnull (fst x)).
  Proof.
    intros Hv. unfold set_size. eapply nf_bind; [apply nfa|]. intros [p E'] f Hg. cbn [fst] in Hg. cbv beta iota.
    destruct (N.eqb_spec (v_beg v) 0) as [E0|E0].
    - cbn. apply calm_bind; [apply calm_ret|]. intros E1. apply nf_ret. rewrite orb_false_r. cbn [fst v_end].
      destruct (Hv E0) as [H1 _]. assert (v_size sz v = 0) as Hs by (unfold v_size; rewrite H1 E0; apply N.div_0_l; lia).
      rewrite Hs N.min_0_l. destruct f; [destruct Hg as [-> _]; lia|]. intros Hp. cbn in Hp. specialize (Hg Hp). cbn. nia.
    - got Hg.
      + destruct (N.eq_dec (N.min (v_size sz v) n) 0) as [Hc|Hc].
        * rewrite Hc. apply (nf_bind _ _ (fun _ _ => True)); [|intros E1 f1 _; apply nf_ret; cbn; lia].
          apply calm_bind; [apply calm_memcpy|]. intros _. apply (nf_mono _ _ _ (calm_free A b sz HL HF _ _ _ _)). done.
        * apply (nf_bind _ _ (fun _ _ => False)); [|by intros ?? []]. eapply nf_bind; [apply (memcpy_null _ _ (fun _ _ => False)); nia|by intros ?? []].
      + apply calm_bind; [apply calm_bind; [apply calm_memcpy|intros _; apply (calm_free A b sz HL HF)]|]. intros E1. apply nf_ret.
        cbn. intros Hp. cbn in Hp. specialize (Hg Hp). cbn. assert (n = 0) as -> by nia. rewrite N.min_0_r. lia.
  Qed.
  Lemma nf_expand v n (E : env) : vnull v ->
    nf (expand A b sz v n E) (fun x f => if f then v_end (fst x) = 0 else vnull (fst x)).
  Proof. intros Hv. unfold expand. apply calm_bind; [by apply calm_emit|]. intros _. by apply nf_set_size. Qed.

  Lemma nf_new_n h n (E : env) :
    nf (new_n A b sz h n E) (fun x f => if f then v_beg (fst x) = 0 /\ 0 < n else vnull (fst x)).
  Proof.
    unfold new_n. eapply nf_bind; [apply nfa|]. intros [p E'] f Hg. cbn [fst] in Hg. apply nf_ret. rewrite orb_false_r. cbn [fst v_beg].
    destruct f; cbn in Hg; [nia|]. intros Hp. cbn in *. specialize (Hg Hp). nia.
  Qed.

  Lemma nf_copy_of h v (E : env) : vnull v -> nf (copy_of A b sz h v E) (fun x f => vgood (fst x) f).
  Proof.
    intros Hv. unfold copy_of. eapply nf_bind; [apply nf_new_n|]. intros [x E'] [] Hg; cbn [fst] in Hg; cbv beta iota.
    - destruct Hg as [H0 Hn]. rewrite H0. destruct (N.eqb_spec (v_beg v) 0) as [E0|E0]; [by apply vnull_size in Hn|].
      eapply nf_bind; [apply (memcpy_null _ _ (fun _ _ => False)); nia|by intros ?? []].
    - destruct (v_beg v =? 0).
      + apply calm_bind; [apply calm_ret|]. intros _. by apply nf_ret.
      + apply calm_bind; [apply calm_memcpy|]. intros _. by apply nf_ret.
  Qed.
  Lemma calm_release v (E : env) : calm (release A b sz v E).
  Proof. unfold release. destruct (v_beg v =? 0); [apply calm_ret|apply (calm_free A b sz HL HF)]. Qed.

  Lemma nf_push v src (E : env) : vnull v -> nf (push_back A b sz v src E) (fun x f => vgood (snd (fst x)) f).
  Proof.
    intros Hv. unfold push_back.
    eapply (nf_bind _ _ (fun x f => if f then v_end (fst x) = 0 else vnull (fst x) /\ (v_beg (fst x) = 0 -> v_end (fst x) = 0))).
    { destruct (v_end v =? v_max v).
      - eapply nf_mono; [by apply nf_expand|]. intros [x E'] []; cbn; [done|]. intros Hx. split; [done|]. intros H. by apply Hx.
      - apply nf_ret. cbn. split; [done|]. intros H. by apply Hv. }
    intros [x E'] [] Hx; cbn [fst] in Hx; cbv beta iota.
    - rewrite Hx. eapply nf_bind; [by apply (assign_null _ _ (fun _ _ => False))|by intros ?? []].
    - destruct Hx as [Hx Hx']. destruct (N.eq_dec (v_beg x) 0) as [E0|E0].
      + rewrite (Hx' E0). eapply nf_bind; [by apply (assign_null _ _ (fun _ _ => False))|by intros ?? []].
      + apply calm_bind; [apply calm_assign|]. intros _. by apply nf_ret.
  Qed.

  Lemma nf_push_range v src (E : env) : vnull v -> nf (push_back_range A b sz v src E) (fun x f => vgood (snd (fst x)) f).
  Proof.
    intros Hv. unfold push_back_range.
    eapply (nf_bind _ _ (fun x f => if f then v_end (fst x) = 0 /\ 0 < array_length src else vnull (fst x))).
    { destruct (N.ltb_spec ((v_max v - v_end v) / sz) (array_length src)) as [Hl|Hl].
      - eapply nf_mono; [by apply nf_expand|]. intros [x E'] []; cbn [fst]; [|done]. intros Hx. split; [done|]. generalize ((v_max v - v_end v) / sz) Hl. lia.
      - by apply nf_ret. }
    intros [x E'] [] Hx; cbn [fst] in Hx; cbv beta iota.
    - destruct Hx as [-> Hx]. eapply nf_bind; [by apply (copy_in_null _ _ (fun _ _ => False))|by intros ?? []].
    - destruct (N.eq_dec (v_beg x) 0) as [E0|E0].
      + destruct (N.eq_dec (array_length src) 0) as [Hn|Hn].
        * rewrite Hn. apply calm_bind; [apply calm_copy_in|]. intros _. apply nf_ret. split; [done|]. cbn. intros _.
          rewrite N.add_0_r. by apply Hx.
        * destruct (Hx E0) as [-> _]. eapply nf_bind; [apply (copy_in_null _ _ (fun _ _ => False)); [done|lia]|by intros ?? []].
      + apply calm_bind; [apply calm_copy_in|]. intros _. by apply nf_ret.
  Qed.

  Lemma nf_vdo o (E : env) vs : vstores o = true -> map_Forall (fun _ => vnull) vs ->
    nf (vdo A b sz o (E, vs)) (fun x f => f = false /\ map_Forall (fun _ => vnull) (snd (snd x))).
  Proof.
    intros Ho Hv. pose proof (fun c => vnull_get c vs Hv) as Hg. destruct o; cbn [vdo]; try done.
    - apply nf_ret. split; [done|]. by apply map_Forall_insert_2.
    - eapply nf_bind; [apply nf_new_n|]. intros [x E'] [] Hx; cbn [fst] in Hx; cbv beta iota.
      + destruct Hx as [-> Hx]. eapply nf_bind; [apply (fill_null _ _ _ (fun _ _ => False)); [done|lia]|by intros ?? []].
      + apply calm_bind; [apply calm_fill|]. intros _. apply nf_ret. split; [done|]. by apply map_Forall_insert_2.
    - eapply nf_bind; [apply nf_new_n|]. intros [x E'] [] Hx; cbn [fst] in Hx; cbv beta iota.
      + destruct Hx as [-> Hx]. eapply nf_bind; [apply (store_null _ _ (fun _ _ => False)); [done|lia]|by intros ?? []].
      + apply calm_bind; [apply calm_store|]. intros _. apply nf_ret. split; [done|]. by apply map_Forall_insert_2.
    - eapply nf_bind; [apply nf_new_n|]. intros [x E'] [] Hx; cbn [fst] in Hx; cbv beta iota.
      + destruct Hx as [-> Hx]. eapply nf_bind; [by apply (copy_in_null _ _ (fun _ _ => False))|by intros ?? []].
      + apply calm_bind; [apply calm_copy_in|]. intros _. apply nf_ret. split; [done|]. by apply map_Forall_insert_2.
    - eapply nf_bind; [by apply nf_copy_of|]. intros [x E'] f [-> Hx]. apply nf_ret. split; [done|]. by apply map_Forall_insert_2.
    - apply nf_ret. split; [done|]. apply map_Forall_insert_2; [done|]. by apply map_Forall_insert_2.
    - eapply nf_bind; [by apply nf_copy_of|]. intros [x E'] f [-> Hx]. apply nf_ret. split; [done|]. by apply map_Forall_insert_2.
    - eapply nf_bind; [apply nf_new_n|]. intros [x E'] [] Hx; cbn [fst] in Hx; cbv beta iota.
      + destruct Hx as [-> Hx]. destruct (N.eqb_spec (v_beg (get_ src vs)) 0) as [E0|E0]; [by apply vnull_size in Hx|].
        apply (nf_bind _ _ (fun _ _ => False)); [|by intros ?? []]. eapply nf_bind; [apply (memcpy_null _ _ (fun _ _ => False)); nia|by intros ?? []].
      + apply calm_bind.
        { destruct (v_beg (get_ src vs) =? 0); [apply calm_ret|].
          apply calm_bind; [apply calm_memcpy|intros _; apply (calm_free A b sz HL HF)]. }
        intros E1. apply nf_ret. split; [done|]. apply map_Forall_insert_2; [done|]. by apply map_Forall_insert_2.
    - apply calm_bind; [apply calm_release|]. intros E1. apply nf_ret. split; [done|]. by apply map_Forall_delete.
    - apply calm_bind; [apply calm_release|]. intros E1. unfold vassign.
      set (vs1 := <[c:=_]> vs). generalize (v_size sz (get_ src vs1)). intros n.
      eapply nf_bind; [apply nfa|]. intros [p E'] f Hp. cbn [fst] in Hp. got Hp.
      + eapply nf_bind; [apply (memcpy_null _ _ (fun _ _ => False)); nia|by intros ?? []].
      + apply calm_bind; [apply calm_memcpy|]. intros _. apply nf_ret. split; [done|]. cbn [snd].
        unfold vs1. rewrite insert_insert. apply map_Forall_insert_2; [|done]. intros H0. cbn in *. specialize (Hp H0). nia.
    - apply calm_bind; [apply calm_release|]. intros E1. unfold vmove_assign. apply nf_ret. split; [done|].
      apply map_Forall_insert_2; [done|]. by apply map_Forall_insert_2.
    - apply calm_bind; [apply calm_assert|]. intros _. apply calm_bind; [apply calm_rds|]. intros. by apply nf_ret.
    - apply calm_bind; [apply calm_assert|]. intros _. apply calm_bind; [apply calm_assign|]. intros. by apply nf_ret.
    - eapply nf_bind; [by apply nf_push|]. intros [[it x] E'] f [-> Hx]. apply nf_ret. split; [done|]. by apply map_Forall_insert_2.
    - eapply nf_bind; [by apply nf_push_range|]. intros [[it x] E'] f [-> Hx]. apply nf_ret. split; [done|]. by apply map_Forall_insert_2.
    - eapply (nf_bind _ _ (fun x f => vgood (snd x) f)).
      { unfold erase. apply calm_bind; [apply calm_assert|]. intros _. apply calm_bind; [apply calm_memmove|]. intros _.
        apply nf_ret. split; [done|]. intros H0. cbn in *. destruct (Hg c H0). lia. }
      intros [it x] f [-> Hx]. apply nf_ret. split; [done|]. by apply map_Forall_insert_2.
    - eapply (nf_bind _ _ (fun x f => vgood (snd x) f)).
      { unfold erase_range. apply calm_bind; [apply calm_assert|]. intros _. apply calm_bind; [apply calm_assert|]. intros _.
        apply calm_bind; [apply calm_memmove|]. intros _.
        apply nf_ret. split; [done|]. intros H0. cbn in *. destruct (Hg c H0). lia. }
      intros [it x] f [-> Hx]. apply nf_ret. split; [done|]. by apply map_Forall_insert_2.
    - apply nf_ret. split; [done|]. apply map_Forall_insert_2; [|done]. intros H0. cbn in *. by destruct (Hg c H0).
  Qed.

  Lemma vectors_starve k ops : forallb vstores ops = true -> calm (csession A b (vstep A b sz k) (release A b sz) k ops).
  Proof.
    apply (nf_session A b HL HF _ _ vnull); [|apply calm_release]. intros o E vs Ho Hv. unfold vstep.
    destruct (vlegal _ _ _ _); [by apply nf_vdo|by apply nf_ret].
  Qed.
End vector.

(** * trivial_array *)
Section array.
  Context (A : alloc) (b sz : N) (HL : alow A) (HF : afirm A) (Hsz : 0 < sz).
  Local Notation env := (env A).
  Local Notation nfa := (nf_alloc A b sz HL HF).

  Definition anull (v : arr) : Prop := r_beg v = 0 -> r_end v = 0.
  Definition agood (v : arr) (f : bool) : Prop := f = false /\ anull v.

  Lemma anull_get c vs : map_Forall (fun _ => anull) vs -> anull (aget c vs).
  Proof. intros H. unfold aget. destruct (vs !! c) as [v|] eqn:E; [by apply (H c)|done]. Qed.
  Lemma anull_size v : anull v -> 0 < r_size sz v -> r_beg v <> 0.
  Proof. intros H Hs E. pose proof (H E) as H1. unfold r_size in Hs. rewrite H1 E N.div_0_l in Hs; lia. Qed.

  Lemma nf_anew_n h n (E : env) :
    nf (anew_n A b sz h n E) (fun x f => if f then r_beg (fst x) = 0 /\ 0 < n else anull (fst x)).
  Proof.
    unfold anew_n. eapply nf_bind; [apply nfa|]. intros [p E'] f Hg. cbn [fst] in Hg. apply nf_ret. rewrite orb_false_r. cbn [fst r_beg].
    destruct f; cbn in Hg; [nia|]. intros Hp. cbn in *. specialize (Hg Hp). nia.
  Qed.
  Lemma nf_acopy_of h v (E : env) : anull v -> nf (acopy_of A b sz h v E) (fun x f => agood (fst x) f).
  Proof.
    intros Hv. unfold acopy_of. eapply nf_bind; [apply nf_anew_n|]. intros [x E'] [] Hg; cbn [fst] in Hg; cbv beta iota.
    - destruct Hg as [H0 Hn]. rewrite H0. destruct (N.eqb_spec (r_beg v) 0) as [E0|E0]; [by apply anull_size in Hn|].
      eapply nf_bind; [apply (memcpy_null _ _ (fun _ _ => False)); nia|by intros ?? []].
    - destruct (r_beg v =? 0).
      + apply calm_bind; [apply calm_ret|]. intros _. by apply nf_ret.
      + apply calm_bind; [apply calm_memcpy|]. intros _. by apply nf_ret.
  Qed.
  Lemma calm_arelease v (E : env) : calm (arelease A b sz v E).
  Proof. unfold arelease. destruct (r_beg v =? 0); [apply calm_ret|apply (calm_free A b sz HL HF)]. Qed.

  Lemma nf_afrom v src (E : env) : anull v -> nf (afrom A b sz v src E) (fun x f => agood (fst x) f).
  Proof.
    intros Hv. unfold afrom.
    apply (nf_bind _ _ (fun x f => if f then r_beg (fst x) = 0 /\ 0 < array_length src else anull (fst x))).
    { destruct (array_length src =? r_size sz v); [by apply nf_ret|].
      eapply nf_bind; [apply nfa|]. intros [p E'] f Hg. cbn [fst] in Hg. cbv beta iota.
      apply calm_bind; [destruct (r_beg v =? 0); [apply calm_ret|apply (calm_free A b sz HL HF)]|].
      intros E1. apply nf_ret. rewrite orb_false_r. cbn [fst r_beg].
      destruct f; cbn in Hg; [nia|]. intros Hp. cbn in *. specialize (Hg Hp). nia. }
    intros [x E'] [] Hx; cbn [fst] in Hx; cbv beta iota.
    - destruct Hx as [-> Hx]. eapply nf_bind; [by apply (copy_in_null _ _ (fun _ _ => False))|by intros ?? []].
    - apply calm_bind; [apply calm_copy_in|]. intros _. by apply nf_ret.
  Qed.

  Lemma nf_ado o (E : env) vs : astores o = true -> map_Forall (fun _ => anull) vs ->
    nf (ado A b sz o (E, vs)) (fun x f => f = false /\ map_Forall (fun _ => anull) (snd (snd x))).
  Proof.
    intros Ho Hv. pose proof (fun c => anull_get c vs Hv) as Hg. destruct o; cbn [ado]; try done.
    - apply nf_ret. split; [done|]. by apply map_Forall_insert_2.
    - eapply nf_bind; [apply nf_anew_n|]. intros [x E'] [] Hx; cbn [fst] in Hx; cbv beta iota.
      + destruct Hx as [-> Hx]. eapply nf_bind; [apply (fill_null _ _ _ (fun _ _ => False)); [done|lia]|by intros ?? []].
      + apply calm_bind; [apply calm_fill|]. intros _. apply nf_ret. split; [done|]. by apply map_Forall_insert_2.
    - eapply nf_bind; [apply nf_anew_n|]. intros [x E'] [] Hx; cbn [fst] in Hx; cbv beta iota.
      + destruct Hx as [-> Hx]. eapply nf_bind; [apply (store_null _ _ (fun _ _ => False)); [done|lia]|by intros ?? []].
      + apply calm_bind; [apply calm_store|]. intros _. apply nf_ret. split; [done|]. by apply map_Forall_insert_2.
    - eapply nf_bind; [apply nf_anew_n|]. intros [x E'] [] Hx; cbn [fst] in Hx; cbv beta iota.
      + destruct Hx as [-> Hx]. eapply nf_bind; [by apply (copy_in_null _ _ (fun _ _ => False))|by intros ?? []].
      + apply calm_bind; [apply calm_copy_in|]. intros _. apply nf_ret. split; [done|]. by apply map_Forall_insert_2.
    - eapply nf_bind; [by apply nf_acopy_of|]. intros [x E'] f [-> Hx]. apply nf_ret. split; [done|]. by apply map_Forall_insert_2.
    - apply nf_ret. split; [done|]. apply map_Forall_insert_2; [done|]. by apply map_Forall_insert_2.
    - eapply nf_bind; [by apply nf_acopy_of|]. intros [x E'] f [-> Hx]. apply nf_ret. split; [done|]. by apply map_Forall_insert_2.
    - eapply nf_bind; [apply nf_anew_n|]. intros [x E'] [] Hx; cbn [fst] in Hx; cbv beta iota.
      + destruct Hx as [-> Hx]. destruct (N.eqb_spec (r_beg (aget src vs)) 0) as [E0|E0]; [by apply anull_size in Hx|].
        apply (nf_bind _ _ (fun _ _ => False)); [|by intros ?? []].
        eapply nf_bind; [apply (memcpy_null _ _ (fun _ _ => False)); nia|by intros ?? []].
      + apply calm_bind.
        { destruct (r_beg (aget src vs) =? 0); [apply calm_ret|].
          apply calm_bind; [apply calm_memcpy|intros _; apply (calm_free A b sz HL HF)]. }
        intros E1. apply nf_ret. split; [done|]. apply map_Forall_insert_2; [done|]. by apply map_Forall_insert_2.
    - apply calm_bind; [apply calm_arelease|]. intros E1. apply nf_ret. split; [done|]. by apply map_Forall_delete.
    - apply calm_bind; [apply calm_arelease|]. intros E1. unfold aassign.
      set (vs1 := <[c:=_]> vs). generalize (r_size sz (aget src vs1)). intros n.
      eapply nf_bind; [apply nfa|]. intros [p E'] f Hp. cbn [fst] in Hp. got Hp.
      + eapply nf_bind; [apply (memcpy_null _ _ (fun _ _ => False)); nia|by intros ?? []].
      + apply calm_bind; [apply calm_memcpy|]. intros _. apply nf_ret. split; [done|]. cbn [snd].
        unfold vs1. rewrite insert_insert. apply map_Forall_insert_2; [|done]. intros H0. cbn in *. specialize (Hp H0). nia.
    - apply calm_bind; [apply calm_arelease|]. intros E1. unfold amove_assign. apply nf_ret. split; [done|].
      apply map_Forall_insert_2; [done|]. by apply map_Forall_insert_2.
    - apply calm_bind; [apply calm_assert|]. intros _. apply calm_bind; [apply calm_rds|]. intros. by apply nf_ret.
    - apply calm_bind; [apply calm_assert|]. intros _. apply calm_bind; [apply calm_assign|]. intros. by apply nf_ret.
    - eapply nf_bind; [by apply nf_afrom|]. intros [x E'] f [-> Hx]. apply nf_ret. split; [done|]. by apply map_Forall_insert_2.
  Qed.

  Lemma arrays_starve k ops : forallb astores ops = true -> calm (csession A b (astep A b sz k) (arelease A b sz) k ops).
  Proof.
    apply (nf_session A b HL HF _ _ anull); [|apply calm_arelease]. intros o E vs Ho Hv. unfold astep.
    destruct (alegal _ _ _ _); [by apply nf_ado|by apply nf_ret].
  Qed.
End array.

(** * binary_heap *)
Section heap.
  Context (A : alloc) (b sz : N) (T : elt) (HL : alow A) (HF : afirm A) (Hsz : 0 < sz).
  Context (comp : nat -> value -> value -> bool) (eqv : value -> value -> bool).
  Context (Hcd : forall c h q act E w E' w' ev, te_cd A b c h q act E w = Ok E' w' ev -> exists u ev', act w = Ok u w' ev').
  Local Notation env := (env A).
  Local Notation nfa := (nf_alloc A b sz HL HF).

  Definition hnull (x : heap) : Prop := h_beg x = 0 -> h_size x = 0 /\ h_cap x = 0.
  Definition hgood (x : heap) (f : bool) : Prop := f = false /\ hnull x.

  Lemma hnull_get c vs : map_Forall (fun _ => hnull) vs -> hnull (hget c vs).
  Proof. intros H. unfold hget. destruct (vs !! c) as [v|] eqn:E; [by apply (H c)|done]. Qed.

  (** Elements. *)
  Lemma lf_get a : low (e_get sz T a) /\ firm (e_get sz T a).
  Proof. unfold e_get, load, obj_get. split; [low|firm]. Qed.
  Lemma lf_set a v : low (e_set sz T a v) /\ firm (e_set sz T a v).
  Proof. unfold e_set, stor, obj_set, obj_get. split; [low|firm]. Qed.
  Lemma lf_new a v : low (e_new sz T a v) /\ firm (e_new sz T a v).
  Proof. unfold e_new, stor, obj_new. split; [low|firm]. Qed.
  Lemma lf_del a : low (e_del sz T a) /\ firm (e_del sz T a).
  Proof. unfold e_del, obj_del, obj_get. split; [low|firm]. Qed.
  Lemma lf_src s : low (e_src sz T s) /\ firm (e_src sz T s).
  Proof. destruct s; [split; [apply low_ret|apply firm_ret]|apply lf_get]. Qed.
  Lemma lf_take a : low (e_take sz T a) /\ firm (e_take sz T a).
  Proof.
    destruct (lf_get a) as [H1 H2]. split; unfold e_take, e_leave, obj_set, obj_get.
    - apply low_bind; [done|]. low.
    - apply firm_bind; [done|]. firm.
  Qed.
  Lemma lf_mov a c : low (e_mov sz T a c) /\ firm (e_mov sz T a c).
  Proof.
    destruct (lf_get c) as [H1 H2]. split; unfold e_mov, e_leave, obj_set, obj_get.
    - apply low_bind; [done|]. intros v. apply low_bind; [apply lf_set|]. low.
    - apply firm_bind; [done|]. intros v. apply firm_bind; [apply lf_set|]. firm.
  Qed.
  Lemma calm_get a : calm (e_get sz T a).
  Proof. apply calm_of; apply lf_get. Qed.
  Lemma calm_set a v : calm (e_set sz T a v).
  Proof. apply calm_of; apply lf_set. Qed.
  Lemma calm_src s : calm (e_src sz T s).
  Proof. apply calm_of; apply lf_src. Qed.
  Lemma calm_take s : calm (e_take sz T s).
  Proof. apply calm_of; apply lf_take. Qed.
  Lemma calm_mov a c : calm (e_mov sz T a c).
  Proof. apply calm_of; apply lf_mov. Qed.
  Lemma new_null v Q : nf (e_new sz T 0 v) Q.
  Proof.
    unfold e_new. destruct (e_triv T).
    - apply wrs_null. unfold chunk. rewrite map_length seq_length. lia.
    - unfold obj_new. eapply nf_bind; [apply (rds_null _ (fun _ _ => False)); lia|by intros ?? []].
  Qed.

  Lemma cd_null c h act (E : env) Q : nf act (fun _ _ => False) -> nf (te_cd A b c h 0 act E) Q.
  Proof.
    intros Ha w Hw. destruct (te_cd _ _ _ _ _ _ _ _) as [E' w' ev|] eqn:Ec; [|done]. exfalso.
    apply Hcd in Ec as (u&ev'&Ec). specialize (Ha w Hw). rewrite Ec in Ha. by destruct Ha.
  Qed.
  Lemma construct_null h src (E : env) Q : nf (construct A b sz T h 0 src E) Q.
  Proof. apply cd_null. apply calm_bind; [apply calm_src|]. intros. apply new_null. Qed.
  Lemma construct_move_null h a (E : env) Q : nf (construct_move A b sz T h 0 a E) Q.
  Proof. apply cd_null. apply calm_bind; [apply calm_take|]. intros. apply new_null. Qed.
  Lemma calm_construct h q src (E : env) : calm (construct A b sz T h q src E).
  Proof.
    apply (calm_cd A b HL HF).
    - apply low_bind; [apply lf_src|]. intros. apply lf_new.
    - apply firm_bind; [apply lf_src|]. intros. apply lf_new.
  Qed.
  Lemma calm_construct_move h q a (E : env) : calm (construct_move A b sz T h q a E).
  Proof.
    apply (calm_cd A b HL HF).
    - apply low_bind; [apply lf_take|]. intros. apply lf_new.
    - apply firm_bind; [apply lf_take|]. intros. apply lf_new.
  Qed.
  Lemma calm_destroy h q (E : env) : calm (destroy A b sz T h q E).
  Proof. apply (calm_cd A b HL HF); apply lf_del. Qed.
  Lemma calm_give_back h p cap n (E : env) : calm (give_back A b sz h p cap n E).
  Proof.
    unfold give_back, obj_none. apply calm_bind; [|intros _; apply (calm_free A b sz HL HF)].
    apply calm_bind; [apply calm_rds|]. intros cs. destruct (forallb deadb cs); [apply calm_ret|done].
  Qed.
  Lemma calm_copy_n n : forall h d s (E : env), calm (copy_n A b sz T h d s n E).
  Proof.
    induction n as [|n IH]; intros h d s E; cbn [copy_n]; [apply calm_ret|]. apply calm_bind; [apply calm_construct|intros; apply IH].
  Qed.
  Lemma copy_n_null n h s (E : env) Q : (0 < n)%nat -> nf (copy_n A b sz T h 0 s n E) Q.
  Proof.
    intros Hn. destruct n as [|n]; [lia|]. cbn [copy_n]. eapply nf_bind; [apply (construct_null _ _ _ (fun _ _ => False))|by intros ?? []].
  Qed.
  Lemma calm_move_n n : forall h d s (E : env), calm (move_n A b sz T h d s n E).
  Proof.
    induction n as [|n IH]; intros h d s E; cbn [move_n]; [apply calm_ret|]. apply calm_bind; [apply calm_construct_move|intros; apply IH].
  Qed.
  Lemma move_n_null n h s (E : env) Q : (0 < n)%nat -> nf (move_n A b sz T h 0 s n E) Q.
  Proof.
    intros Hn. destruct n as [|n]; [lia|]. cbn [move_n].
    eapply nf_bind; [apply (construct_move_null _ _ _ (fun _ _ => False))|by intros ?? []].
  Qed.
  Lemma calm_destroy_n n : forall h p (E : env), calm (destroy_n A b sz T h p n E).
  Proof.
    induction n as [|n IH]; intros h p E; cbn [destroy_n]; [apply calm_ret|]. apply calm_bind; [apply calm_destroy|intros; apply IH].
  Qed.
  Lemma calm_hrelease x (E : env) : calm (hrelease A b sz T x E).
  Proof.
    unfold hrelease. destruct (h_beg x =? 0); [apply calm_ret|].
    apply calm_bind; [apply calm_destroy_n|]. intros. apply calm_give_back.
  Qed.

  Lemma nf_hset_size x n (E : env) : hnull x ->
    nf (hset_size A b sz T x n E) (fun y f => (if f then h_beg (fst y) = 0 else hnull (fst y)) /\ (h_beg (fst y) = 0 -> h_size (fst y) = 0)).
  Proof.
    intros Hv. unfold hset_size. eapply nf_bind; [apply nfa|]. intros [p E'] f Hg. cbn [fst] in Hg. cbv beta iota.
    destruct (N.eqb_spec (h_beg x) 0) as [E0|E0].
    - apply calm_bind; [apply calm_ret|]. intros E1. apply nf_ret. rewrite orb_false_r. cbn [fst h_beg h_size].
      destruct (Hv E0) as [-> _]. rewrite N.min_0_l. split; [|done].
      destruct f; [by destruct Hg|]. intros Hp. cbn in Hp. specialize (Hg Hp). cbn. split; [done|nia].
    - got Hg.
      + destruct (N.eq_dec (N.min (h_size x) n) 0) as [Hc|Hc].
        * rewrite Hc. apply (nf_bind _ _ (fun _ _ => True)); [|intros E1 f1 _; by apply nf_ret].
          apply calm_bind; [apply calm_move_n|]. intros E2. apply calm_bind; [apply calm_destroy_n|]. intros E3.
          by apply (nf_mono _ _ _ (calm_give_back _ _ _ _ _)).
        * apply (nf_bind _ _ (fun _ _ => False)); [|by intros ?? []].
          eapply nf_bind; [apply (move_n_null _ _ _ _ (fun _ _ => False)); lia|by intros ?? []].
      + apply calm_bind.
        { apply calm_bind; [apply calm_move_n|]. intros E2. apply calm_bind; [apply calm_destroy_n|]. intros. apply calm_give_back. }
        intros E1. apply nf_ret. cbn [fst h_beg h_size orb]. split.
        * intros Hp. cbn in Hp. specialize (Hg Hp). cbn. assert (n = 0) as -> by nia. by rewrite N.min_0_r.
        * intros Hp. cbn in Hp. specialize (Hg Hp). assert (n = 0) as -> by nia. by rewrite N.min_0_r.
  Qed.

  Lemma calm_up_loop n : forall q p i v, calm (up_loop sz T comp n q p i v).
  Proof.
    induction n as [|n IH]; intros q p i v; cbn [up_loop]; [done|]. destruct (i =? 0); [apply calm_ret|].
    apply calm_bind; [apply calm_get|]. intros y. destruct (comp q v y); [|apply calm_ret].
    apply calm_bind; [apply calm_mov|]. intros. apply IH.
  Qed.
  Lemma calm_up q p i : calm (percolate_up sz T comp q p i).
  Proof.
    unfold percolate_up. apply calm_bind; [apply calm_get|]. intros v. apply calm_bind; [apply calm_up_loop|]. intros i'.
    apply calm_bind; [apply calm_set|]. intros. apply calm_ret.
  Qed.
  Lemma calm_pick q p n j c : calm (pick sz T comp q p n j c).
  Proof.
    unfold pick. destruct (j <? n); [|apply calm_ret]. apply calm_bind; [apply calm_get|]. intros x.
    apply calm_bind; [apply calm_get|]. intros. apply calm_ret.
  Qed.
  Lemma calm_down_loop k : forall q p n i, calm (down_loop sz T comp k q p n i).
  Proof.
    induction k as [|k IH]; intros q p n i; cbn [down_loop]; [done|]. destruct (i <? n); [|apply calm_ret].
    apply calm_bind; [apply calm_pick|]. intros c. apply calm_bind; [apply calm_pick|]. intros c'.
    destruct (c' =? i); [apply calm_ret|]. apply calm_bind; [apply calm_take|]. intros t.
    apply calm_bind; [apply calm_mov|]. intros _. apply calm_bind; [apply calm_set|]. intros _. apply IH.
  Qed.
  Lemma calm_down q p n i : calm (percolate_down sz T comp q p n i).
  Proof.
    unfold percolate_down. apply calm_bind; [apply calm_get|]. intros v. apply calm_bind; [apply calm_down_loop|]. intros i'. apply calm_set.
  Qed.
  Lemma calm_find src p n : forall i, calm (find_loop sz T eqv src p i n).
  Proof.
    induction n as [|n IH]; intros i; cbn [find_loop]; [apply calm_ret|]. apply calm_bind; [apply calm_get|]. intros y.
    apply calm_bind; [apply calm_src|]. intros v. destruct (eqv y v); [apply calm_ret|apply IH].
  Qed.

  (** With storage at address zero nothing can be inserted. *)
  Lemma nf_hinsert x src (E : env) : (h_beg x = 0 -> h_size x = 0) ->
    nf (hinsert A b sz T comp x src E) (fun y f => f = false /\ h_beg (snd (fst y)) <> 0).
  Proof.
    intros Hx. unfold hinsert.
    apply (nf_bind _ _ (fun y f => (f = true -> h_beg (fst y) = 0) /\ (h_beg (fst y) = 0 -> h_size (fst y) = 0))).
    { destruct (N.eqb_spec (h_size x) (h_cap x)) as [E0|E0]; [|by apply nf_ret].
      unfold hexpand. apply calm_bind; [by apply calm_emit|]. intros _. eapply nf_mono; [apply nf_hset_size|].
      - intros Hb. specialize (Hx Hb). lia.
      - intros [y E'] [] [H1 H2]; done. }
    intros [y E'] f [H1 H2]. cbn [fst] in H1, H2. cbv beta iota. destruct (N.eq_dec (h_beg y) 0) as [Hb|Hb].
    - unfold elem_addr. rewrite (H2 Hb) Hb N.mul_0_r. eapply nf_bind; [apply (construct_null _ _ _ (fun _ _ => False))|by intros ?? []].
    - destruct f; [by specialize (H1 eq_refl)|]. apply calm_bind; [apply calm_construct|]. intros E1.
      apply calm_bind; [apply calm_up|]. intros i. by apply nf_ret.
  Qed.
  Lemma insert_null x src (E : env) Q : h_beg x = 0 -> h_size x = 0 -> 0 < h_cap x -> nf (hinsert A b sz T comp x src E) Q.
  Proof.
    intros H1 H2 H3. unfold hinsert. rewrite (proj2 (N.eqb_neq _ _)); [|lia].
    apply (nf_bind _ _ (fun y _ => fst y = x)); [by apply nf_ret|]. intros [y E'] f Hy. cbn [fst] in Hy. subst y. unfold elem_addr. rewrite H1 H2 N.mul_0_r.
    eapply nf_bind; [apply (construct_null _ _ _ (fun _ _ => False))|by intros ?? []].
  Qed.
  Lemma nf_insert_list l : forall x (E : env), h_beg x <> 0 ->
    nf (insert_list A b sz T comp x l E) (fun y f => f = false /\ h_beg (fst y) <> 0).
  Proof.
    induction l as [|v l IH]; intros x E Hx; cbn [insert_list]; [by apply nf_ret|].
    eapply nf_bind; [by apply nf_hinsert|]. intros [[i y] E'] f [-> Hy]. by apply IH.
  Qed.
  Lemma nf_hcopy_of h x (E : env) : nf (hcopy_of A b sz T h x E) (fun y f => hgood (fst y) f).
  Proof.
    unfold hcopy_of. eapply nf_bind; [apply nfa|]. intros [p E'] f Hg. cbn [fst] in Hg. cbv beta iota. got Hg.
    - eapply nf_bind; [apply (copy_n_null _ _ _ _ (fun _ _ => False)); nia|by intros ?? []].
    - apply calm_bind; [apply calm_copy_n|]. intros E1. apply nf_ret. split; [done|]. intros Hp. cbn in *. specialize (Hg Hp). nia.
  Qed.

  Lemma nf_hdo o (E : env) vs : hstores o = true -> map_Forall (fun _ => hnull) vs ->
    nf (hdo A b sz T comp eqv o (E, vs)) (fun x f => f = false /\ map_Forall (fun _ => hnull) (snd (snd x))).
  Proof.
    intros Ho Hv. pose proof (fun c => hnull_get c vs Hv) as Hg. destruct o; cbn [hdo]; try done.
    - apply nf_ret. split; [done|]. by apply map_Forall_insert_2.
    - eapply nf_bind; [apply nfa|]. intros [p E'] f Hp. cbn [fst] in Hp. cbv beta iota.
      destruct (N.eq_dec p 0) as [Hp0|Hp0].
      + subst p. destruct l as [|v l].
        * destruct f; [cbn in Hp; lia|]. intros w Hw. cbn. split; [done|]. split; [done|]. by apply map_Forall_insert_2.
        * cbn [insert_list]. apply (nf_bind _ _ (fun _ _ => False)); [|by intros ?? []].
          eapply nf_bind; [apply (insert_null _ _ _ (fun _ _ => False)); [done..|cbn; lia]|by intros ?? []].
      + got Hp; [done|]. eapply nf_bind; [by apply nf_insert_list|]. intros [x E1] f [-> Hx]. cbn [fst] in Hx. apply nf_ret.
        split; [done|]. apply map_Forall_insert_2; [|done]. by intros H0.
    - eapply nf_bind; [by apply nf_hcopy_of|]. intros [x E'] f [-> Hx]. apply nf_ret. split; [done|]. by apply map_Forall_insert_2.
    - apply nf_ret. split; [done|]. apply map_Forall_insert_2; [done|]. by apply map_Forall_insert_2.
    - eapply nf_bind; [by apply nf_hcopy_of|]. intros [x E'] f [-> Hx]. apply nf_ret. split; [done|]. by apply map_Forall_insert_2.
    - eapply nf_bind; [by apply nf_hcopy_of|]. intros [x E'] f [-> Hx]. cbv beta iota. apply calm_bind.
      { destruct (h_beg (hget src vs) =? 0); [apply calm_ret|apply calm_give_back]. }
      intros E1. apply nf_ret. split; [done|]. apply map_Forall_insert_2; [done|]. by apply map_Forall_insert_2.
    - apply calm_bind; [apply calm_hrelease|]. intros E1. apply nf_ret. split; [done|]. by apply map_Forall_delete.
    - apply calm_bind; [apply calm_hrelease|]. intros E1. unfold hassign.
      set (vs1 := <[c:=_]> vs). assert (h_cap (hget c vs1) = h_size (hget c vs1)) as Hcap by (unfold hget, vs1; by rewrite lookup_insert).
      rewrite Hcap. generalize (h_size (hget c vs1)). intros n.
      eapply nf_bind; [apply nfa|]. intros [p E'] f Hp. cbn [fst] in Hp. cbv beta iota zeta. got Hp.
      + eapply nf_bind; [apply (copy_n_null _ _ _ _ (fun _ _ => False)); nia|by intros ?? []].
      + apply calm_bind; [apply calm_copy_n|]. intros E2. apply nf_ret. split; [done|]. cbn [snd].
        unfold vs1. rewrite insert_insert. apply map_Forall_insert_2; [|done]. intros H0. cbn in *. specialize (Hp H0). nia.
    - apply calm_bind; [apply calm_hrelease|]. intros E1. unfold hmove_assign. apply nf_ret. split; [done|].
      apply map_Forall_insert_2; [done|]. by apply map_Forall_insert_2.
    - apply calm_bind; [apply calm_get|]. intros v. by apply nf_ret.
    - eapply nf_bind; [apply nf_hinsert; intros Hb; by apply (Hg c)|]. intros [[i x] E'] f [-> Hx]. cbn [fst snd] in Hx.
      apply nf_ret. split; [done|]. apply map_Forall_insert_2; [|done]. by intros H0.
    - apply calm_bind; [apply calm_assert|]. intros _. apply calm_bind; [apply calm_get|]. intros v. by apply nf_ret.
    - apply (nf_bind _ _ (fun y f => hgood (snd (fst y)) f)).
      { unfold hpop. apply calm_bind; [apply calm_assert|]. intros _. apply calm_bind; [apply calm_get|]. intros v.
        apply calm_bind; [apply calm_mov|]. intros _. apply calm_bind; [apply calm_destroy|]. intros E1.
        apply calm_bind; [apply calm_down|]. intros _. apply nf_ret. split; [done|]. intros Hb. cbn in *.
        destruct (Hg c Hb). lia. }
      intros [[v x] E'] f [-> Hx]. apply nf_ret. split; [done|]. by apply map_Forall_insert_2.
    - apply calm_bind; [apply calm_find|]. intros i. by apply nf_ret.
    - apply calm_bind; [apply calm_destroy_n|]. intros E1. apply nf_ret. split; [done|]. apply map_Forall_insert_2; [|done].
      intros Hb. cbn in *. by destruct (Hg c Hb).
  Qed.

  Lemma heaps_starve k ops : forallb hstores ops = true ->
    calm (csession A b (hstep A b sz T comp eqv k) (hrelease A b sz T) k ops).
  Proof.
    apply (nf_session A b HL HF _ _ hnull); [|apply calm_hrelease]. intros o E vs Ho Hv. unfold hstep.
    destruct (hlegal _ _ _ _); [by apply nf_hdo|by apply nf_ret].
  Qed.
End heap.

(** * Every composition *)
Lemma all_of {X O S} A b (stp : O -> env A * gmap nat X -> M (cobs * (env A * gmap nat X))) kill (chk : O -> cobs -> S -> S -> Prop)
  req k s0 ops w : mem (st w) !! 0 = None ->
  csession_ok A b stp kill chk (unsupported req) k s0 ops w -> calm (csession A b stp kill k ops) ->
  csession_all A b stp kill chk req k s0 ops w.
Proof.
  intros Hw H Hc. specialize (Hc w Hw). unfold csession_ok in H. unfold csession_all.
  assert (Hu : forall evs, existsb (unsupported req) evs = existsb is_fail evs || existsb (oversized req) evs).
  { induction evs as [|ev evs IH]; [done|]. cbn [existsb]. rewrite IH.
    assert (unsupported req ev = is_fail ev || oversized req ev) as -> by (by destruct ev).
    destruct (is_fail ev), (oversized req ev), (existsb is_fail evs); done. }
  destruct (csession A b stp kill k ops w) as [os w' evs|u evs]; rewrite Hu in H.
  - destruct Hc as [_ Hc]. rewrite Hc in H. done.
  - by apply orb_true_iff.
Qed.

Lemma vector_all pl e b sz k ops w :
  pl <> PPosix -> wf e = true -> 0 < sz -> place b (N.of_nat k * esize e) w -> forallb vstores ops = true ->
  csession_all (den pl e) b (vstep (den pl e) b sz k) (release (den pl e) b sz) (vcheck sz k) (ereq pl e) k ∅ ops w.
Proof.
  intros Hpl Hwf Hsz Hp Ho. apply all_of; [apply Hp|by apply vector_tree|].
  apply vectors_starve; [apply tree_low|by apply tree_firm|done..].
Qed.
Lemma array_all pl e b sz k ops w :
  pl <> PPosix -> wf e = true -> 0 < sz -> place b (N.of_nat k * esize e) w -> forallb astores ops = true ->
  csession_all (den pl e) b (astep (den pl e) b sz k) (arelease (den pl e) b sz) (acheck sz k) (ereq pl e) k ∅ ops w.
Proof.
  intros Hpl Hwf Hsz Hp Ho. apply all_of; [apply Hp|by apply array_tree|].
  apply arrays_starve; [apply tree_low|by apply tree_firm|done..].
Qed.
Lemma heap_all pl e b sz T comp eqv k ops w :
  pl <> PPosix -> wf e = true -> 0 < sz -> place b (N.of_nat k * esize e) w -> forallb hstores ops = true ->
  csession_all (den pl e) b (hstep (den pl e) b sz T comp eqv k) (hrelease (den pl e) b sz T) (hcheck sz T comp eqv k)
    (half (ereq pl e)) k ∅ ops w.
Proof.
  intros Hpl Hwf Hsz Hp Ho. apply all_of; [apply Hp|by apply heap_tree|].
  apply heaps_starve; [apply tree_low|by apply tree_firm|done|apply te_cd_inv|done].
Qed.

Lemma size_constructor : exists w, place 4096 64 w /\
  seen is_fail (vprog (EStack 64) 4 1 [VNewN 0 17 0; VSize 0; VData 0] w) = Some ([CUnit; CNum 17; CPtr 0], true) /\
  seen is_fail (vprog (EStack 64) 4 1 [VNew 0 0; VReserve 0 17; VCap 0; VData 0] w) = Some ([CUnit; CUnit; CNum 17; CPtr 0], true).
Proof. exists (w_raw 64). split; [by apply (w_raw_place 64)|by vm_compute]. Qed.
