(** A linear separation logic over [store], as an instance of Iris' [bi] interface, and
    weakest preconditions for the computations of [Mem].

    Linear means: [P ∗ Q ⊢ P] does not hold in general, so a specification whose
    postcondition does not mention a resource states that the resource is gone. *)
From iris.bi Require Import interface derived_laws.
From iris.proofmode Require Import tactics.
From Verif Require Import Base Mem.

Local Open Scope N_scope.

(** * Disjoint union of stores *)
Definition sempty : store := Store ∅ ∅.
Global Instance sunion : Union store := fun s1 s2 =>
  Store (mem s1 ∪ mem s2) (mtab s1 ∪ mtab s2).
Global Instance sdisj : Disjoint store := fun s1 s2 =>
  mem s1 ##ₘ mem s2 /\ mtab s1 ##ₘ mtab s2.

Implicit Types s : store.

Lemma store_eta s : Store (mem s) (mtab s) = s.
Proof. by destruct s. Qed.

Lemma sdisj_sym s1 s2 : s1 ## s2 -> s2 ## s1.
Proof. intros (?&?). split_and!; by symmetry. Qed.
Lemma sunion_comm s1 s2 : s1 ## s2 -> s1 ∪ s2 = s2 ∪ s1.
Proof. intros (?&?). unfold union, sunion. f_equal; by apply map_union_comm. Qed.
Lemma sunion_assoc s1 s2 s3 : s1 ∪ (s2 ∪ s3) = s1 ∪ s2 ∪ s3.
Proof. destruct s1, s2, s3. unfold union, sunion; cbn. f_equal; apply (assoc_L (∪)). Qed.
Lemma sunion_empty_l s : sempty ∪ s = s.
Proof. unfold union, sunion, sempty. cbn. rewrite !(left_id_L ∅ (∪)). apply store_eta. Qed.
Lemma sunion_empty_r s : s ∪ sempty = s.
Proof. unfold union, sunion, sempty. cbn. rewrite !(right_id_L ∅ (∪)). apply store_eta. Qed.
Lemma sdisj_empty_l s : sempty ## s.
Proof. split_and!; apply map_disjoint_empty_l. Qed.
Lemma sdisj_empty_r s : s ## sempty.
Proof. split_and!; apply map_disjoint_empty_r. Qed.
Lemma sdisj_union_l s1 s2 s3 : s1 ∪ s2 ## s3 <-> s1 ## s3 /\ s2 ## s3.
Proof. unfold disjoint, sdisj; cbn. rewrite !map_disjoint_union_l. naive_solver. Qed.
Lemma sdisj_union_r s1 s2 s3 : s1 ## s2 ∪ s3 <-> s1 ## s2 /\ s1 ## s3.
Proof. unfold disjoint, sdisj; cbn. rewrite !map_disjoint_union_r. naive_solver. Qed.

Ltac sdisj_solve :=
  repeat match goal with
  | H : _ ∪ _ ## _ |- _ => apply sdisj_union_l in H as [??]
  | H : _ ## _ ∪ _ |- _ => apply sdisj_union_r in H as [??]
  end;
  repeat first [apply sdisj_union_l; split | apply sdisj_union_r; split];
  try assumption; try (apply sdisj_sym; assumption);
  try apply sdisj_empty_l; try apply sdisj_empty_r.

(** * The logic *)
Record hprop := HProp { hholds :> store -> Prop }.
Add Printing Constructor hprop.

Section ofe.
  Local Instance hprop_equiv : Equiv hprop := λ P Q, ∀ s, P s ↔ Q s.
  Local Instance hprop_equivalence : Equivalence (≡@{hprop}).
  Proof.
    split.
    - by intros P s.
    - intros P Q H s. by rewrite (H s).
    - intros P Q R H1 H2 s. by rewrite (H1 s) (H2 s).
  Qed.
  Canonical Structure hpropO := discreteO hprop.
End ofe.

Record hentails (P Q : hprop) : Prop := { hentails_holds s : P s → Q s }.

Local Definition hemp_def : hprop := HProp (λ s, s = sempty).
Local Definition hpure_def (φ : Prop) : hprop := HProp (λ _, φ).
Local Definition hand_def (P Q : hprop) : hprop := HProp (λ s, P s ∧ Q s).
Local Definition hor_def (P Q : hprop) : hprop := HProp (λ s, P s ∨ Q s).
Local Definition himpl_def (P Q : hprop) : hprop := HProp (λ s, P s → Q s).
Local Definition hforall_def {A} (Ψ : A → hprop) : hprop := HProp (λ s, ∀ a, Ψ a s).
Local Definition hexist_def {A} (Ψ : A → hprop) : hprop := HProp (λ s, ∃ a, Ψ a s).
Local Definition hsep_def (P Q : hprop) : hprop :=
  HProp (λ s, ∃ s1 s2, s = s1 ∪ s2 ∧ s1 ## s2 ∧ P s1 ∧ Q s2).
Local Definition hwand_def (P Q : hprop) : hprop :=
  HProp (λ s, ∀ s', s ## s' → P s' → Q (s ∪ s')).
Local Definition hpers_def (P : hprop) : hprop := HProp (λ _, P sempty).

Local Definition hemp_aux : seal (@hemp_def). Proof. by eexists. Qed.
Definition hemp := hemp_aux.(unseal).
Local Definition hpure_aux : seal (@hpure_def). Proof. by eexists. Qed.
Definition hpure := hpure_aux.(unseal).
Local Definition hand_aux : seal (@hand_def). Proof. by eexists. Qed.
Definition hand := hand_aux.(unseal).
Local Definition hor_aux : seal (@hor_def). Proof. by eexists. Qed.
Definition hor := hor_aux.(unseal).
Local Definition himpl_aux : seal (@himpl_def). Proof. by eexists. Qed.
Definition himpl := himpl_aux.(unseal).
Local Definition hforall_aux : seal (@hforall_def). Proof. by eexists. Qed.
Definition hforall {A} := hforall_aux.(unseal) A.
Local Definition hexist_aux : seal (@hexist_def). Proof. by eexists. Qed.
Definition hexist {A} := hexist_aux.(unseal) A.
Local Definition hsep_aux : seal (@hsep_def). Proof. by eexists. Qed.
Definition hsep := hsep_aux.(unseal).
Local Definition hwand_aux : seal (@hwand_def). Proof. by eexists. Qed.
Definition hwand := hwand_aux.(unseal).
Local Definition hpers_aux : seal (@hpers_def). Proof. by eexists. Qed.
Definition hpers := hpers_aux.(unseal).

Local Definition hemp_eq : @hemp = @hemp_def := hemp_aux.(seal_eq).
Local Definition hpure_eq : @hpure = @hpure_def := hpure_aux.(seal_eq).
Local Definition hand_eq : @hand = @hand_def := hand_aux.(seal_eq).
Local Definition hor_eq : @hor = @hor_def := hor_aux.(seal_eq).
Local Definition himpl_eq : @himpl = @himpl_def := himpl_aux.(seal_eq).
Local Definition hforall_eq : @hforall = @hforall_def := hforall_aux.(seal_eq).
Local Definition hexist_eq : @hexist = @hexist_def := hexist_aux.(seal_eq).
Local Definition hsep_eq : @hsep = @hsep_def := hsep_aux.(seal_eq).
Local Definition hwand_eq : @hwand = @hwand_def := hwand_aux.(seal_eq).
Local Definition hpers_eq : @hpers = @hpers_def := hpers_aux.(seal_eq).

Ltac hunseal := rewrite ?hemp_eq ?hpure_eq ?hand_eq ?hor_eq ?himpl_eq ?hforall_eq
  ?hexist_eq ?hsep_eq ?hwand_eq ?hpers_eq; cbn [hholds];
  rewrite /hemp_def /hpure_def /hand_def /hor_def /himpl_def /hforall_def
    /hexist_def /hsep_def /hwand_def /hpers_def; cbn [hholds].

Lemma hprop_bi_mixin :
  BiMixin hentails hemp hpure hand hor himpl (@hforall) (@hexist) hsep hwand hpers.
Proof.
  split.
  - split.
    + intros P. by split.
    + intros P Q R [H1] [H2]. split; auto.
  - intros P Q. split.
    + intros H. split; split; intros s; by rewrite (H s).
    + intros [[H1] [H2]] s. split; auto.
  - (* pure_ne *) intros n φ ψ H s. hunseal. done.
  - intros n P P' HP Q Q' HQ s. hunseal. by rewrite (HP s) (HQ s).
  - intros n P P' HP Q Q' HQ s. hunseal. by rewrite (HP s) (HQ s).
  - intros n P P' HP Q Q' HQ s. hunseal. by rewrite (HP s) (HQ s).
  - intros A n Φ Ψ H s. hunseal. split; intros Hs a; apply (H a), Hs.
  - intros A n Φ Ψ H s. hunseal. split; intros [a Hs]; exists a; apply (H a), Hs.
  - intros n P P' HP Q Q' HQ s. hunseal.
    split; intros (s1&s2&?&?&?&?); exists s1, s2; (split; [done|]; split; [done|]; split);
      first [by apply (HP s1)|by apply (HQ s2)].
  - intros n P P' HP Q Q' HQ s. hunseal.
    split; intros H s' Hd Hp; apply (HQ (s ∪ s')); apply H; try done; by apply (HP s').
  - intros n P P' HP s. hunseal. apply HP.
  - intros φ P Hφ. hunseal. by split.
  - intros φ P HP. hunseal. split. intros s Hφ. destruct (HP Hφ) as [H]. apply H. by rewrite hpure_eq.
  - intros P Q. hunseal. split. by intros s [??].
  - intros P Q. hunseal. split. by intros s [??].
  - intros P Q R [H1] [H2]. hunseal. split. intros s ?. split; auto.
  - intros P Q. hunseal. split. by left.
  - intros P Q. hunseal. split. by right.
  - intros P Q R [H1] [H2]. hunseal. split. intros s [?|?]; auto.
  - intros P Q R. hunseal. intros [H]. split. intros s ??. apply H. by split.
  - intros P Q R. hunseal. intros [H]. split. intros s [??]. by apply H.
  - intros A P Ψ H. hunseal. split. intros s ? a. by apply (H a).
  - intros A Ψ a. hunseal. split. intros s Hs. apply Hs.
  - intros A Ψ a. hunseal. split. intros s Hs. by exists a.
  - intros A Φ Q H. hunseal. split. intros s [a Ha]. by apply (H a).
  - intros P P' Q Q' [H1] [H2]. hunseal. split. intros s (s1&s2&->&?&?&?).
    exists s1, s2. split_and!; auto.
  - intros P. hunseal. split. intros s ?. exists sempty, s.
    split_and!; [by rewrite sunion_empty_l|apply sdisj_empty_l|done|done].
  - intros P. hunseal. split. intros s (s1&s2&->&?&->&?). by rewrite sunion_empty_l.
  - intros P Q. hunseal. split. intros s (s1&s2&->&?&?&?). exists s2, s1.
    split_and!; [by apply sunion_comm|by apply sdisj_sym|done|done].
  - intros P Q R. hunseal. split. intros s (s12&s3&->&?&(s1&s2&->&?&?&?)&?).
    exists s1, (s2 ∪ s3). split_and!; [by rewrite sunion_assoc|sdisj_solve|done|].
    exists s2, s3. split_and!; try done. sdisj_solve.
  - intros P Q R. hunseal. intros [H]. split. intros s ? s' ??. apply H.
    exists s, s'. split_and!; auto.
  - intros P Q R. hunseal. intros [H]. split. intros s (s1&s2&->&?&?&?). by apply H.
  - intros P Q [H]. hunseal. split. intros s. apply H.
  - intros P. hunseal. by split.
  - hunseal. split. intros s _. done.
  - intros P Q. hunseal. split. by intros s [??].
  - intros A Ψ. hunseal. split. intros s [a ?]. by exists a.
  - intros P Q. hunseal. split. intros s (s1&s2&->&?&?&?). done.
  - intros P Q. hunseal. split. intros s [??]. exists sempty, s.
    split_and!; [by rewrite sunion_empty_l|apply sdisj_empty_l|done|done].
Qed.

Lemma hprop_bi_later_mixin :
  BiLaterMixin hentails hpure hor himpl (@hforall) (@hexist) hsep hpers id.
Proof. eapply bi_later_mixin_id; [done|apply hprop_bi_mixin]. Qed.

Canonical Structure hpropI : bi :=
  {| bi_ofe_mixin := ofe_mixin_of hprop;
     bi_bi_mixin := hprop_bi_mixin; bi_bi_later_mixin := hprop_bi_later_mixin |}.

Lemma hunfold_entails (P Q : hpropI) : (P ⊢ Q) <-> forall s, hholds P s -> hholds Q s.
Proof. split; [by intros []|]. intros H. split. exact H. Qed.
Lemma hunfold_emp s : hholds (emp%I : hpropI) s = (s = sempty).
Proof. match goal with |- _ = ?r => change (hholds (hemp) s = r) end. hunseal. reflexivity. Qed.
Lemma hunfold_pure φ s : hholds (⌜φ⌝%I : hpropI) s = φ.
Proof. match goal with |- _ = ?r => change (hholds (hpure φ) s = r) end. hunseal. reflexivity. Qed.
Lemma hunfold_and (P Q : hpropI) s : hholds (P ∧ Q)%I s = (hholds P s /\ hholds Q s).
Proof. match goal with |- _ = ?r => change (hholds (hand P Q) s = r) end. hunseal. reflexivity. Qed.
Lemma hunfold_or (P Q : hpropI) s : hholds (P ∨ Q)%I s = (hholds P s \/ hholds Q s).
Proof. match goal with |- _ = ?r => change (hholds (hor P Q) s = r) end. hunseal. reflexivity. Qed.
Lemma hunfold_impl (P Q : hpropI) s : hholds (P → Q)%I s = (hholds P s -> hholds Q s).
Proof. match goal with |- _ = ?r => change (hholds (himpl P Q) s = r) end. hunseal. reflexivity. Qed.
Lemma hunfold_forall {A} (Φ : A -> hpropI) s : hholds (∀ a, Φ a)%I s = (forall a, hholds (Φ a) s).
Proof. match goal with |- _ = ?r => change (hholds (hforall Φ) s = r) end. hunseal. reflexivity. Qed.
Lemma hunfold_exist {A} (Φ : A -> hpropI) s : hholds (∃ a, Φ a)%I s = (exists a, hholds (Φ a) s).
Proof. match goal with |- _ = ?r => change (hholds (hexist Φ) s = r) end. hunseal. reflexivity. Qed.
Lemma hunfold_sep (P Q : hpropI) s :
  hholds (P ∗ Q)%I s = (exists s1 s2, s = s1 ∪ s2 /\ s1 ## s2 /\ hholds P s1 /\ hholds Q s2).
Proof. match goal with |- _ = ?r => change (hholds (hsep P Q) s = r) end. hunseal. reflexivity. Qed.
Lemma hunfold_wand (P Q : hpropI) s :
  hholds (P -∗ Q)%I s = (forall s', s ## s' -> hholds P s' -> hholds Q (s ∪ s')).
Proof. match goal with |- _ = ?r => change (hholds (hwand P Q) s = r) end. hunseal. reflexivity. Qed.
Lemma hunfold_pers (P : hpropI) s : hholds (<pers> P)%I s = hholds P sempty.
Proof. match goal with |- _ = ?r => change (hholds (hpers P) s = r) end. hunseal. reflexivity. Qed.

Global Instance hprop_pure_forall : BiPureForall hpropI.
Proof.
  intros A φ. apply hunfold_entails. intros s. rewrite hunfold_pure hunfold_forall.
  intros H a. specialize (H a). by rewrite hunfold_pure in H.
Qed.
Global Instance hprop_persistently_forall : BiPersistentlyForall hpropI.
Proof.
  intros A Φ. apply hunfold_entails. intros s. rewrite hunfold_pers !hunfold_forall.
  intros H a. specialize (H a). by rewrite hunfold_pers in H.
Qed.
