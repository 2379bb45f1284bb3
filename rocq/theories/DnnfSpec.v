(** Counting assignments; deterministic decomposable negation normal forms. *)
From Coq Require Import NArith List Bool Arith Lia Permutation.
From Verif Require Import Base Syntax FactoryBasics FactoryInv FactoryOps WorldProofs NnfProofs.
Import ListNotations.

(* ------------------------------------------------------------------------------------------------------------------ *)
(** * Counting *)

(** [v] with [x] set to [b]. *)
Definition upd (v : valuation) (x : var) (b : bool) : valuation := fun y => if var_eqb y x then b else v y.
(** [v] with the variables of [vs] set to the values of [bs]. *)
Fixpoint upds (v : valuation) (vs : list var) (bs : list bool) : valuation :=
  match vs, bs with x :: vs, b :: bs => upds (upd v x b) vs bs | _, _ => v end.
(** All sequences of [n] truth values. *)
Fixpoint vectors (n : nat) : list (list bool) :=
  match n with O => [[]] | S n => map (cons false) (vectors n) ++ map (cons true) (vectors n) end.
(** The number of assignments to [vs] (the others as in [v]) under which [P] holds. *)
Definition count_models (vs : list var) (P : valuation -> bool) (v : valuation) : N :=
  N.of_nat (length (filter (fun bs => P (upds v vs bs)) (vectors (length vs)))).

Fixpoint cnt (vs : list var) (P : valuation -> bool) (v : valuation) : N :=
  match vs with
  | [] => if P v then 1 else 0
  | x :: vs => cnt vs P (upd v x false) + cnt vs P (upd v x true)
  end.

Lemma filter_map_len : forall A B (f : A -> B) (P : B -> bool) l, length (filter P (map f l)) = length (filter (fun x => P (f x)) l).
Proof. intros A B f P l. induction l as [ | x l IH]; cbn [map filter]; auto. destruct (P (f x)); cbn [length]; auto. Qed.

Lemma count_models_cnt : forall vs P v, count_models vs P v = cnt vs P v.
Proof.
  intros vs P. induction vs as [ | x vs IH]; intros v; unfold count_models; cbn [length vectors cnt upds filter].
  - destruct (P v); reflexivity.
  - rewrite filter_app, app_length, !filter_map_len, Nat2N.inj_add, <- !IH. reflexivity.
Qed.

Definition resp (P : valuation -> bool) : Prop := forall v w, (forall x, v x = w x) -> P v = P w.
Definition indep (P : valuation -> bool) (x : var) : Prop := forall v b, P (upd v x b) = P v.

Lemma var_eqb_refl' : forall x, var_eqb x x = true.
Proof. intros x. apply var_eqb_spec. auto. Qed.

Lemma cnt_ext : forall vs P Q v, (forall v, P v = Q v) -> cnt vs P v = cnt vs Q v.
Proof. induction vs as [ | x vs IH]; intros P Q v H; cbn [cnt]; [rewrite H; auto | ]. rewrite !(IH P Q) by auto. auto. Qed.
Lemma upd_resp : forall v w x b, (forall y, v y = w y) -> forall y, upd v x b y = upd w x b y.
Proof. intros v w x b H y. unfold upd. destruct (var_eqb y x); auto. Qed.
Lemma cnt_resp : forall vs P v w, resp P -> (forall x, v x = w x) -> cnt vs P v = cnt vs P w.
Proof.
  induction vs as [ | x vs IH]; intros P v w R H; cbn [cnt]; [rewrite (R v w H); auto | ].
  rewrite (IH P (upd v x false) (upd w x false)), (IH P (upd v x true) (upd w x true)); auto; apply upd_resp; auto.
Qed.
Lemma upd_comm : forall v x y b c z, x <> y -> upd (upd v x b) y c z = upd (upd v y c) x b z.
Proof.
  intros v x y b c z H. unfold upd. destruct (var_eqb z y) eqn:Ey, (var_eqb z x) eqn:Ex; auto. apply var_eqb_spec in Ey. apply var_eqb_spec in Ex. congruence.
Qed.
Lemma upd_twice : forall v x b c z, upd (upd v x b) x c z = upd v x c z.
Proof. intros v x b c z. unfold upd. destruct (var_eqb z x); auto. Qed.
Lemma var_dec : forall x y : var, {x = y} + {x <> y}.
Proof. intros x y. destruct (var_eqb x y) eqn:E; [left; apply var_eqb_spec; auto | right; intros ->; rewrite var_eqb_refl' in E; discriminate]. Qed.

Lemma cnt_perm : forall vs ws, Permutation vs ws -> forall P v, resp P -> cnt vs P v = cnt ws P v.
Proof.
  intros vs ws H. induction H as [ | x vs ws H IH | x y vs | vs ws us H1 IH1 H2 IH2]; intros P v R; cbn [cnt]; auto.
  - rewrite !IH by auto. auto.
  - destruct (var_dec x y) as [-> | E]; [auto | ].
    rewrite (cnt_resp vs P (upd (upd v y true) x false) (upd (upd v x false) y true)) by (auto; intros z; apply upd_comm; auto).
    rewrite (cnt_resp vs P (upd (upd v y false) x true) (upd (upd v x true) y false)) by (auto; intros z; apply upd_comm; auto).
    rewrite (cnt_resp vs P (upd (upd v y false) x false) (upd (upd v x false) y false)) by (auto; intros z; apply upd_comm; auto).
    rewrite (cnt_resp vs P (upd (upd v y true) x true) (upd (upd v x true) y true)) by (auto; intros z; apply upd_comm; auto). lia.
  - rewrite IH1 by auto. auto.
Qed.

Lemma cnt_indep : forall vs P v x b, resp P -> indep P x -> cnt vs P (upd v x b) = cnt vs P v.
Proof.
  induction vs as [ | y vs IH]; intros P v x b R I; cbn [cnt]; [rewrite I; auto | ]. destruct (var_dec x y) as [-> | E].
  - rewrite (cnt_resp vs P (upd (upd v y b) y false) (upd v y false)), (cnt_resp vs P (upd (upd v y b) y true) (upd v y true)); auto; intros z; apply upd_twice.
  - rewrite (cnt_resp vs P (upd (upd v x b) y false) (upd (upd v y false) x b)) by (auto; intros z; apply upd_comm; auto).
    rewrite (cnt_resp vs P (upd (upd v x b) y true) (upd (upd v y true) x b)) by (auto; intros z; apply upd_comm; auto).
    rewrite (IH P (upd v y false) x b), (IH P (upd v y true) x b); auto.
Qed.

Lemma cnt_or : forall vs P Q v, (forall v, P v && Q v = false) -> cnt vs (fun v => P v || Q v) v = (cnt vs P v + cnt vs Q v)%N.
Proof.
  induction vs as [ | x vs IH]; intros P Q v H; cbn [cnt].
  - specialize (H v). destruct (P v), (Q v); try discriminate; reflexivity.
  - rewrite !IH by auto. lia.
Qed.
Lemma cnt_and_const : forall vs P Q v, (forall x, In x vs -> indep P x) -> cnt vs (fun v => P v && Q v) v = if P v then cnt vs Q v else 0%N.
Proof.
  induction vs as [ | x vs IH]; intros P Q v H; cbn [cnt].
  - destruct (P v); auto.
  - rewrite !IH by (intros y Hy; apply H; right; auto). rewrite !(H x (or_introl eq_refl)). destruct (P v); auto.
Qed.
Lemma cnt_prod : forall vs ws P Q v, resp P -> resp Q -> (forall x, In x ws -> indep P x) -> (forall x, In x vs -> indep Q x) ->
  cnt (vs ++ ws) (fun v => P v && Q v) v = (cnt vs P v * cnt ws Q v)%N.
Proof.
  induction vs as [ | x vs IH]; intros ws P Q v RP RQ H1 H2; cbn [app cnt].
  - rewrite cnt_and_const by auto. destruct (P v); lia.
  - rewrite !IH by (auto; intros y Hy; apply H2; right; auto). rewrite !(cnt_indep ws Q v x) by (auto; apply H2; left; auto). lia.
Qed.
Lemma cnt_true : forall vs v, cnt vs (fun _ => true) v = (2 ^ N.of_nat (length vs))%N.
Proof.
  induction vs as [ | x vs IH]; intros v; cbn [cnt length]; auto. rewrite !IH, Nat2N.inj_succ, N.pow_succ_r'. lia.
Qed.

Lemma nodup_app_disjoint : forall (l1 l2 : list var), NoDup l1 -> NoDup l2 -> (forall x, In x l1 -> ~ In x l2) -> NoDup (l1 ++ l2).
Proof.
  intros l1 l2 H1 H2 H. induction l1 as [ | x l1 IH]; cbn [app]; auto. inversion H1; subst. constructor.
  - rewrite in_app_iff. intros [Hx | Hx]; [auto | apply (H x (or_introl eq_refl) Hx)].
  - apply IH; auto. intros y Hy. apply H. right. auto.
Qed.

Lemma cnt_super : forall vs ws P v, NoDup vs -> NoDup ws -> incl vs ws -> resp P -> (forall x, ~ In x vs -> indep P x) ->
  cnt ws P v = (2 ^ N.of_nat (length ws - length vs) * cnt vs P v)%N.
Proof.
  intros vs ws P v N1 N2 I R H. set (rest := filter (fun x => if in_dec var_dec x vs then false else true) ws).
  assert (Hr : forall x, In x rest <-> In x ws /\ ~ In x vs).
  { intros x. unfold rest. rewrite filter_In. destruct (in_dec var_dec x vs); intuition discriminate. }
  assert (Pm : Permutation ws (vs ++ rest)).
  { apply NoDup_Permutation; auto.
    - apply nodup_app_disjoint; auto; [apply NoDup_filter; auto | ]. intros x Hx G. apply Hr in G. tauto.
    - intros x. rewrite in_app_iff, Hr. destruct (in_dec var_dec x vs); intuition auto. }
  rewrite (cnt_perm _ _ Pm) by auto. rewrite (cnt_ext _ P (fun v => P v && true)) by (intros w; rewrite andb_true_r; auto).
  rewrite cnt_prod; auto.
  - rewrite cnt_true. apply Permutation_length in Pm. rewrite app_length in Pm. replace (length ws - length vs) with (length rest) by lia. lia.
  - intros w w' _. auto.
  - intros x Hx. apply H. apply Hr in Hx. tauto.
  - intros x Hx w b. auto.
Qed.

(* ------------------------------------------------------------------------------------------------------------------ *)
(** * d-DNNF *)

(** Negation normal form without constraints, conjunctions over disjoint variables, disjunctions of pairwise inconsistent operands. *)
Definition disjoint_vars (a b : fml) : Prop := forall u, In u (fvars a) -> ~ In u (fvars b).
Definition exclusive (a b : fml) : Prop := forall v, sem v a && sem v b = false.
Fixpoint dnnf (x : fml) : Prop :=
  match x with
  | FTrue | FFalse | FLit _ => True
  | FAnd l => ForallOrdPairs disjoint_vars l /\ (fix all l := match l with [] => True | y :: r => dnnf y /\ all r end) l
  | FOr l => ForallOrdPairs exclusive l /\ (fix all l := match l with [] => True | y :: r => dnnf y /\ all r end) l
  | _ => False
  end.

(** What the counting computes. *)
Definition nvars (x : fml) : nat := length (nodup var_dec (fvars x)).
Fixpoint dcount (x : fml) : N :=
  match x with
  | FFalse => 0
  | FAnd l => fold_right (fun y n => dcount y * n)%N 1%N l
  | FOr l => fold_right (fun y n => 2 ^ N.of_nat (nvars (FOr l) - nvars y) * dcount y + n)%N 0%N l
  | _ => 1
  end.

Lemma sem_resp : forall x, resp (fun v => sem v x).
Proof. intros x v w H. symmetry. apply sem_fvars. intros u _. symmetry. auto. Qed.
Lemma sem_indep : forall x u, ~ In u (fvars x) -> indep (fun v => sem v x) u.
Proof. intros x u H v b. apply sem_fvars. intros z Hz. unfold upd. destruct (var_eqb z u) eqn:E; auto. apply var_eqb_spec in E. subst. contradiction. Qed.
Lemma all_in : forall (P : fml -> Prop) l, (fix all l := match l with [] => True | y :: r => P y /\ all r end) l -> forall y, In y l -> P y.
Proof. intros P l. induction l as [ | z l IH]; intros H y Hy; [destruct Hy | ]. destruct H as [H1 H2], Hy as [<- | Hy]; auto. Qed.

Lemma fvars_and : forall l, fvars (FAnd l) = flat_map fvars l.
Proof.
  intros l. unfold fvars. cbn [leaves]. induction l as [ | x l IH]; cbn [flat_map]; auto. rewrite flat_map_app, IH. auto.
Qed.
Lemma fvars_or : forall l, fvars (FOr l) = flat_map fvars l.
Proof.
  intros l. unfold fvars. cbn [leaves]. induction l as [ | x l IH]; cbn [flat_map]; auto. rewrite flat_map_app, IH. auto.
Qed.

Theorem dcount_correct : forall x, dnnf x -> forall v, cnt (nodup var_dec (fvars x)) (fun v => sem v x) v = dcount x.
Proof.
  induction x using fml_ind2; intros D v; try contradiction.
  - reflexivity.
  - reflexivity.
  - destruct l as [u p]. unfold fvars. cbn [leaves flat_map leaf_vars app nodup lit_var]. destruct (in_dec var_dec u []) as [[] | _].
    cbn [cnt sem lit_sem dcount]. unfold lit_sem, upd. rewrite var_eqb_refl'. destruct p; reflexivity.
  - cbn [dnnf] in D. destruct D as [D1 D2]. pose proof (all_in dnnf l D2) as D3. clear D2. rewrite fvars_and. cbn [dcount].
    revert H D1 D3 v. induction l as [ | y l IH]; intros H D1 D3 v; [reflexivity | ].
    inversion H; subst. inversion D1; subst. cbn [flat_map fold_right]. rewrite Forall_forall in H4.
    assert (Dj : forall u, In u (fvars y) -> ~ In u (flat_map fvars l)).
    { intros u Hu G. apply in_flat_map in G. destruct G as [z [Hz G]]. exact (H4 z Hz u Hu G). }
    rewrite (cnt_perm _ (nodup var_dec (fvars y) ++ nodup var_dec (flat_map fvars l))); [ | | apply sem_resp].
    + rewrite (cnt_ext _ _ (fun v => sem v y && sem v (FAnd l))) by reflexivity. rewrite cnt_prod.
      * rewrite H2 by (apply D3; left; auto). f_equal. apply IH; auto. intros z Hz. apply D3. right. auto.
      * apply sem_resp.
      * apply sem_resp.
      * intros u Hu. apply nodup_In in Hu. apply sem_indep. intros G. exact (Dj u G Hu).
      * intros u Hu. apply nodup_In in Hu. apply sem_indep. rewrite fvars_and. apply Dj. auto.
    + apply NoDup_Permutation; [apply NoDup_nodup | apply nodup_app_disjoint; try apply NoDup_nodup | ].
      * intros u Hu G. rewrite nodup_In in *. exact (Dj u Hu G).
      * intros u. rewrite in_app_iff, !nodup_In, in_app_iff. tauto.
  - cbn [dnnf] in D. destruct D as [D1 D2]. pose proof (all_in dnnf l D2) as D3. clear D2. cbn [dcount].
    unfold nvars at 1. set (V := nodup var_dec (fvars (FOr l))).
    assert (HV : forall y, In y l -> incl (nodup var_dec (fvars y)) V).
    { intros y Hy u Hu. unfold V. rewrite nodup_In in *. rewrite fvars_or. apply in_flat_map. exists y. auto. }
    assert (NV : NoDup V) by apply NoDup_nodup. clearbody V.
    revert H D1 D3 HV. induction l as [ | y l IH]; intros H D1 D3 HV.
    + cbn [fold_right]. rewrite (cnt_ext _ _ (fun v => false && sem v FTrue)) by reflexivity. rewrite cnt_and_const; auto. intros x _ w b. auto.
    + inversion H; subst. inversion D1; subst. cbn [fold_right]. rewrite Forall_forall in H4.
      rewrite (cnt_ext _ _ (fun v => sem v y || sem v (FOr l))) by reflexivity. rewrite cnt_or.
      * rewrite IH; auto; [ | intros z Hz; apply D3; right; auto | intros z Hz; apply HV; right; auto]. f_equal.
        rewrite (cnt_super (nodup var_dec (fvars y)) V); auto.
        -- rewrite H2 by (apply D3; left; auto). reflexivity.
        -- apply NoDup_nodup.
        -- apply HV. left. auto.
        -- apply sem_resp.
        -- intros u Hu. rewrite nodup_In in Hu. apply sem_indep. auto.
      * intros w. cbn [sem]. destruct (sem w y) eqn:Ey; auto. cbn [andb]. apply not_true_is_false. intros G. apply existsb_exists in G.
        destruct G as [z [Hz G]]. specialize (H4 z Hz w). rewrite Ey, G in H4. discriminate.
Qed.

Theorem dcount_over : forall x vs, dnnf x -> NoDup vs -> incl (fvars x) vs ->
  forall v, count_models vs (fun v => sem v x) v = (2 ^ N.of_nat (length vs - nvars x) * dcount x)%N.
Proof.
  intros x vs D ND I v. rewrite count_models_cnt, (cnt_super (nodup var_dec (fvars x)) vs), dcount_correct; auto.
  - apply NoDup_nodup.
  - intros u Hu. apply I. rewrite nodup_In in Hu. auto.
  - apply sem_resp.
  - intros u Hu. rewrite nodup_In in Hu. apply sem_indep. auto.
Qed.
