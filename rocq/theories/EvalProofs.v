(** Evaluation agrees with the textbook semantics. *)
From Coq Require Import NArith ZArith List Bool Lia.
From Verif Require Import Base EncodingModel EncodingProofs Syntax FactoryModel FactoryInv FactoryBasics FactoryProofs FactorySpecs
  FactoryNary FactoryOps.
Import ListNotations.

Fixpoint depth (x : fml) : nat :=
  match x with
  | FTrue | FFalse | FLit _ | FCc _ | FPbc _ => 0
  | FNot a => S (depth a)
  | FAnd l | FOr l => S (fold_right (fun y n => Nat.max (depth y) n) 0 l)
  | FImpl a b | FEquiv a b => S (Nat.max (depth a) (depth b))
  end.

Lemma depth_in : forall x l, In x l -> (depth x <= fold_right (fun y n => Nat.max (depth y) n) 0 l)%nat.
Proof. intros x l. induction l as [| a l IH]; intros H; [destruct H |]. cbn. destruct H as [-> | H]; [lia |]. specialize (IH H). lia. Qed.

(** The valuation described by an assignment: exactly the positive variables are true. *)
Definition val_of (a : assignment) : valuation := fun x => memv x (a_pos a).
(** No variable is listed both positively and negatively. *)
Definition consistent (a : assignment) : Prop := forall x, In x (a_pos a) -> ~ In x (a_neg a).

Lemma memv_In : forall x l, memv x l = true <-> In x l.
Proof.
  intros x l. unfold memv. rewrite existsb_exists. split.
  - intros [y [Hy He]]. apply var_eqb_spec in He. subst. assumption.
  - intros H. exists x. split; [assumption | apply var_eqb_refl].
Qed.
Lemma memv_false : forall x l, memv x l = false <-> ~ In x l.
Proof. intros x l. rewrite <- memv_In. destruct (memv x l); split; congruence. Qed.

Lemma evaluate_lit_sem : forall a l, consistent a -> evaluate_lit a l = lit_sem (val_of a) l.
Proof.
  intros a [x p] Hc. unfold evaluate_lit, lit_sem, val_of. cbn [lit_var lit_phase]. destruct p; [reflexivity |].
  destruct (memv x (a_pos a)) eqn:E; cbn; [| apply orb_true_r].
  rewrite orb_false_r. apply memv_false. apply Hc. apply memv_In. assumption.
Qed.

(** All intermediate sums fit [i64]. *)
Definition sum_abs (cs : list Z) : Z := fold_right (fun c n => Z.abs c + n)%Z 0%Z cs.
Definition sum_fits (cs : list Z) : Prop := (sum_abs cs < 9223372036854775808)%Z.

Definition leaf_fits (lf : leaf) : Prop := match lf with LfPbc p => sum_fits (pb_coeffs p) | _ => True end.
(** No pseudo-Boolean sum of the formula leaves the [i64] range. *)
Definition fits (x : fml) : Prop := Forall leaf_fits (leaves x).

Lemma wrap64_id : forall z, (-9223372036854775808 <= z < 9223372036854775808)%Z -> wrap64 z = z.
Proof. intros z H. unfold wrap64. rewrite Z.mod_small by lia. lia. Qed.

Lemma sum_abs_nonneg : forall cs, (0 <= sum_abs cs)%Z.
Proof. induction cs as [| c cs IH]; cbn; [lia |]. unfold sum_abs in IH. lia. Qed.

Lemma pbc_lhs_sem : forall a ls cs acc, consistent a -> (Z.abs acc + sum_abs cs < 9223372036854775808)%Z ->
  pbc_lhs a ls cs acc = (acc + weight (val_of a) ls cs)%Z.
Proof.
  intros a. induction ls as [| l ls IH]; intros [| c cs] acc Hc Hb; cbn [pbc_lhs weight]; try lia.
  cbn [sum_abs fold_right] in Hb. fold (sum_abs cs) in Hb. pose proof (sum_abs_nonneg cs).
  rewrite evaluate_lit_sem by assumption. destruct (lit_sem (val_of a) l).
  - rewrite wrap64_id by lia. rewrite IH; [lia | assumption | lia].
  - rewrite IH; [lia | assumption | lia].
Qed.

Lemma evaluate_comparator_sem : forall l c r, evaluate_comparator l c r = cmp_sem c l r.
Proof.
  intros l [] r; cbn; try reflexivity.
  - rewrite Z.gtb_ltb. reflexivity.
  - rewrite Z.geb_leb. reflexivity.
Qed.

Lemma pbc_evaluate_sem : forall a p, consistent a -> sum_fits (pb_coeffs p) -> pbc_evaluate a p = pbc_sem (val_of a) p.
Proof.
  intros a p Hc Hf. unfold pbc_evaluate, pbc_sem. rewrite pbc_lhs_sem; [| assumption | exact Hf]. apply evaluate_comparator_sem.
Qed.
Lemma cc_evaluate_sem : forall a c, cc_evaluate a c = cc_sem (val_of a) c.
Proof.
  intros a c. unfold cc_evaluate, cc_sem. rewrite evaluate_comparator_sem. f_equal.
  induction (cc_vars c) as [| x vs IH]; [reflexivity |]. cbn [map filter count_true]. unfold evaluate_lit at 1. cbn [lit_phase lit_var].
  unfold val_of at 1. destruct (memv x (a_pos a)); cbn [length]; lia.
Qed.

Lemma fits_in : forall x l, Forall leaf_fits (flat_map leaves l) -> In x l -> fits x.
Proof.
  intros x l H Hin. unfold fits. rewrite Forall_forall in *. intros lf Hlf. apply H. apply in_flat_map. exists x. auto.
Qed.

Theorem evaluate_correct : forall s a, consistent a -> forall x h fuel, denotes s h x -> fits x -> (depth x < fuel)%nat ->
  evaluate fuel s h a = Ok (sem (val_of a) x).
Proof.
  intros s a Hc x. induction x using fml_ind2; intros h fuel Hd Hf Hfu; (destruct fuel as [| fuel]; [lia |]);
    apply denotes_inv in Hd; cbn [evaluate].
  - rewrite Hd. reflexivity.
  - rewrite Hd. reflexivity.
  - rewrite Hd. cbn [rbind sem]. rewrite evaluate_lit_sem by assumption. reflexivity.
  - destruct Hd as [k [-> Hk]]. cbn [rbind sem]. cbn [depth] in Hfu. rewrite (IHx k fuel Hk Hf) by lia. reflexivity.
  - destruct Hd as [ks [-> Hk]]. cbn [rbind sem]. cbn [depth] in Hfu.
    assert (forall x, In x l -> (depth x < fuel)%nat) as Hdep by (intros y Hy; pose proof (depth_in y l Hy); lia).
    assert (forall x, In x l -> fits x) as Hfit by (intros y Hy; eapply fits_in; eauto).
    clear Hf Hfu. revert H Hdep Hfit. induction Hk as [| k y ks l Hky Hk IH]; intros H Hdep Hfit; [reflexivity |].
    inversion H; subst. cbn [res_all forallb]. rewrite (H2 k fuel Hky (Hfit _ (or_introl eq_refl)) (Hdep _ (or_introl eq_refl))).
    cbn [rbind]. destruct (sem (val_of a) y); cbn [andb]; [| reflexivity].
    apply IH; auto; intros z Hz; [apply Hdep | apply Hfit]; right; assumption.
  - destruct Hd as [ks [-> Hk]]. cbn [rbind sem]. cbn [depth] in Hfu.
    assert (forall x, In x l -> (depth x < fuel)%nat) as Hdep by (intros y Hy; pose proof (depth_in y l Hy); lia).
    assert (forall x, In x l -> fits x) as Hfit by (intros y Hy; eapply fits_in; eauto).
    clear Hf Hfu. revert H Hdep Hfit. induction Hk as [| k y ks l Hky Hk IH]; intros H Hdep Hfit; [reflexivity |].
    inversion H; subst. cbn [res_any existsb]. rewrite (H2 k fuel Hky (Hfit _ (or_introl eq_refl)) (Hdep _ (or_introl eq_refl))).
    cbn [rbind]. destruct (sem (val_of a) y); cbn [orb]; [reflexivity |].
    apply IH; auto; intros z Hz; [apply Hdep | apply Hfit]; right; assumption.
  - destruct Hd as [k1 [k2 [-> [H1 H2]]]]. cbn [rbind sem]. cbn [depth] in Hfu. unfold fits in Hf. cbn [leaves] in Hf.
    apply Forall_app in Hf. destruct Hf as [F1 F2].
    rewrite (IHx1 k1 fuel H1 F1) by lia. cbn [rbind]. destruct (sem (val_of a) x1); cbn [negb implb]; [| reflexivity].
    rewrite (IHx2 k2 fuel H2 F2) by lia. reflexivity.
  - destruct Hd as [k1 [k2 [-> [H1 H2]]]]. cbn [rbind sem]. cbn [depth] in Hfu. unfold fits in Hf. cbn [leaves] in Hf.
    apply Forall_app in Hf. destruct Hf as [F1 F2].
    rewrite (IHx1 k1 fuel H1 F1), (IHx2 k2 fuel H2 F2) by lia. reflexivity.
  - rewrite Hd. cbn [rbind sem]. rewrite cc_evaluate_sem. reflexivity.
  - rewrite Hd. cbn [rbind sem]. unfold fits in Hf. cbn in Hf. inversion Hf; subst. rewrite pbc_evaluate_sem by assumption. reflexivity.
Qed.
