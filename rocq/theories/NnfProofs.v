(** Negation normal form. *)
From Coq Require Import NArith ZArith List Bool Arith Lia.
From Verif Require Import Base EncodingModel Syntax FactoryModel FactoryInv FactoryBasics FactoryProofs FactorySpecs FactoryNary FactoryOps
  EvalProofs HistoryModel HistoryProofs ConstraintModel ConstraintProofs OpsModel OpsProofs CcModel EncBasics AmoProofs SorterProofs CcFrontProofs PbModel PbProofs
  CacheModel TransModel TreeSpec WorldProofs EncodeProofs.
Import ListNotations.
Local Open Scope N_scope.

(* ------------------------------------------------------------------------------------------------------------------ *)
(** * The negation of a constraint *)

Lemma spec_and : forall A (I : factory -> Prop) (R : factory -> factory -> Prop) s (m : M A) (Q Q' : A -> factory -> Prop),
  spec I R s m Q -> spec I R s m Q' -> spec I R s m (fun a s' => Q a s' /\ Q' a s').
Proof.
  intros A I R s m Q Q' [H1 H2] [_ H3]. split; [assumption |]. intros Hc. destruct (H2 Hc) as [a [Ha [Hi [Hr Hq]]]].
  destruct (H3 Hc) as [a' [Ha' [_ [_ Hq']]]]. assert (a' = a) by congruence. subst. exists a. auto.
Qed.

Definition con_atom (y : fml) : Prop := match y with FTrue | FFalse | FCc _ | FPbc _ => True | _ => False end.
Definition neg_tree (cfg : cc_config) (y : fml) : Prop :=
  Forall (leaf_enc cfg) (leaves y) /\ (con_atom y \/ exists l, y = FOr l /\ Forall con_atom l).

Lemma sum_abs_ones : forall n, sum_abs (repeat 1%Z n) = Z.of_nat n.
Proof. induction n; [reflexivity |]. cbn [repeat]. unfold sum_abs in *. cbn [fold_right map] in *. lia. Qed.

Lemma f_pbc_tree : forall cfg s c rhs ls cs, wf s -> Forall (lit_ok s) ls -> length ls = length cs -> pb_fits c rhs ls cs -> con_enc cfg ls cs rhs ->
  spec wf core s (f_pbc c rhs ls cs) (tres (fun y => con_atom y /\ Forall (leaf_enc cfg) (leaves y))).
Proof.
  intros cfg s c rhs ls cs Hw Hls Hlen Hf He. eapply spec_conseq; [apply f_pbc_spec; eassumption |].
  intros r s' Hw' _ [Hv [[-> ->] | [[k [Hu [Hk [[Hp Ho] _]]]] | Hu]]]; (split; [assumption |]).
  - exists (if cmp_sem c 0 rhs then FTrue else FFalse). split; [destruct (cmp_sem c 0 rhs); constructor; reflexivity |].
    destruct (cmp_sem c 0 rhs); split; cbn; constructor.
  - exists (FCc k). split; [apply d_cc; assumption |]. split; [exact I |]. cbn [leaves]. constructor; [| constructor].
    cbn [leaf_enc]. destruct He as [H1 [H2 [H3 H4]]]. rewrite Hk. unfold con_enc, pos_lits.
    rewrite !map_length. split; [assumption |]. split; [assumption |].
    destruct (unpack_cc_vh s' r k Hw' Hv Hu) as [_ [_ [Hr _]]]. split.
    + rewrite sum_abs_ones. unfold B63 in *. lia.
    + intros _ _. rewrite map_map. cbn [lit_var]. rewrite map_id. auto.
  - eexists. split; [apply d_pbc; exact Hu |]. split; [exact I |]. cbn [leaves]. constructor; [exact He | constructor].
Qed.

Lemma nary_tree_neg : forall cfg y1 y2 y, con_atom y1 -> con_atom y2 -> Forall (leaf_enc cfg) (leaves y1) -> Forall (leaf_enc cfg) (leaves y2) ->
  nary_tree false [y1; y2] y -> neg_tree cfg y.
Proof.
  intros cfg y1 y2 y C1 C2 L1 L2 Ht.
  assert (Hfl : forall z, fflat false [y1; y2] z -> con_atom z).
  { intros z [[<- | [<- | []]] | [l [[E | [E | []]] _]]]; try assumption; rewrite E in *; cbn in *; contradiction. }
  split.
  - rewrite Forall_forall. intros lf Hlf. apply (nary_tree_leaves _ _ _ Ht) in Hlf. cbn [flat_map] in Hlf. rewrite app_nil_r in Hlf.
    rewrite Forall_forall in L1, L2. apply in_app_or in Hlf. destruct Hlf; auto.
  - destruct Ht as [-> | [-> | [Ht | [l [-> Ht]]]]]; [left; exact I | left; exact I | left; auto |].
    right. exists l. split; [reflexivity |]. eapply Forall_impl; [exact Hfl | exact Ht].
Qed.

Lemma eq_negate_tree : forall cfg s rhs ls cs, wf s -> Forall (lit_ok s) ls -> length ls = length cs ->
  pb_fits LT rhs ls cs -> pb_fits GT rhs ls cs -> con_enc cfg ls cs rhs ->
  spec wf core s (lt <-- f_pbc LT rhs ls cs ;; gt <-- f_pbc GT rhs ls cs ;; f_or [lt; gt]) (tres (neg_tree cfg)).
Proof.
  intros cfg s rhs ls cs Hw Hls Hlen H1 H2 He.
  eapply spec_bind; [exact core_trans | apply f_pbc_tree; eassumption | intros; mono_tac |].
  intros lt s1 Hw1 Hc1 Hr1. cbn beta in Hr1.
  assert (Hls1 : Forall (lit_ok s1) ls) by (eapply Forall_impl; [| exact Hls]; intros; eapply lit_ok_ext; eauto using core_ext).
  eapply spec_bind; [exact core_trans | apply f_pbc_tree; eassumption | intros; mono_tac |].
  intros gt s2 Hw2 Hc2 Hr2. cbn beta in Hr2.
  apply (tres_ext _ _ _ s2) in Hr1; [| apply core_ext; assumption].
  destruct Hr1 as [Hv1 [y1 [Hd1 [C1 L1]]]]. destruct Hr2 as [Hv2 [y2 [Hd2 [C2 L2]]]].
  eapply spec_conseq; [apply (f_nary_tree s2 false [lt; gt] [y1; y2]); auto |].
  intros r s' _ _ Hr. eapply tres_conseq; [exact Hr |]. intros y [_ Ht]. exact (nary_tree_neg cfg y1 y2 y C1 C2 L1 L2 Ht).
Qed.

Definition neg_result (cfg : cc_config) (x : fml) (y : fml) : Prop :=
  (forall v, sem v y = negb (sem v x)) /\ incl (fvars y) (fvars x) /\ neg_tree cfg y.

Lemma neg_combine : forall cfg x s m S vs, (forall v, S v = negb (sem v x)) -> vs = fvars x ->
  spec wf core s m (fun r s' => result_v s' r S vs) -> spec wf core s m (tres (neg_tree cfg)) -> spec wf core s m (tres (neg_result cfg x)).
Proof.
  intros cfg x s m S vs HS -> H1 H2. eapply spec_conseq; [apply (spec_and _ _ _ _ _ _ _ H1 H2) |]. cbn beta.
  intros r s' _ _ [[Hv [y [Hd [Hs Hi]]]] [_ [z [Hdz Hz]]]]. split; [assumption |]. exists y. split; [assumption |].
  rewrite (denotes_fun _ _ _ _ Hdz Hd) in Hz. split; [| split; assumption]. intros v. rewrite Hs. apply HS.
Qed.

Lemma tree_neg : forall cfg h s, tres (fun y => con_atom y /\ Forall (leaf_enc cfg) (leaves y)) h s -> tres (neg_tree cfg) h s.
Proof. intros cfg h s H. eapply tres_conseq; [exact H |]. intros y [H1 H2]. split; auto. Qed.

Lemma cc_negate_tree : forall cfg s h c, wf s -> vh s h -> unpack s h = Ok (NCc c) -> leaf_enc cfg (LfCc c) ->
  spec wf core s (cc_negate c) (tres (neg_result cfg (FCc c))).
Proof.
  intros cfg s h c Hw Hv Hu Hen. destruct (unpack_cc_vh s h c Hw Hv Hu) as [_ [Hvs [Hr _]]].
  eapply neg_combine; [| | apply cc_negate_spec; assumption |]; [reflexivity | symmetry; apply fvars_cc |].
  assert (Hls : Forall (lit_ok s) (pos_lits (cc_vars c))) by (apply Forall_map; exact Hvs).
  assert (Hlen : length (pos_lits (cc_vars c)) = length (repeat 1%Z (length (cc_vars c)))).
  { unfold pos_lits. rewrite map_length, repeat_length. reflexivity. }
  assert (Hfit : forall k, pb_fits k (Z.of_N (cc_rhs c)) (pos_lits (cc_vars c)) (repeat 1%Z (length (cc_vars c)))) by (intros k _; lia).
  cbn [leaf_enc] in Hen. unfold cc_negate.
  destruct (cc_cmp c); try (eapply spec_conseq; [apply f_pbc_tree; auto; exact Hen | intros r s' _ _; apply tree_neg]).
  apply eq_negate_tree; auto.
Qed.

Lemma pbc_negate_tree : forall cfg s h p, wf s -> vh s h -> unpack s h = Ok (NPbc p) -> leaf_enc cfg (LfPbc p) ->
  spec wf core s (pbc_negate p) (tres (neg_result cfg (FPbc p))).
Proof.
  intros cfg s h p Hw Hv Hu Hen. destruct (unpack_pbc_vh s h p Hw Hv Hu) as [_ [Hlen [Hls Hcc]]].
  eapply neg_combine; [| | apply pbc_negate_spec; assumption |]; [reflexivity | symmetry; apply fvars_pbc |].
  assert (Hfit : forall k, pb_fits k (pb_rhs p) (pb_lits p) (pb_coeffs p)) by (intros k; eapply fits_of_not_lit_cc; exact Hcc).
  cbn [leaf_enc] in Hen. unfold pbc_negate.
  destruct (pb_cmp p); try (eapply spec_conseq; [apply f_pbc_tree; auto; exact Hen | intros r s' _ _; apply tree_neg]).
  apply eq_negate_tree; auto.
Qed.

(* ------------------------------------------------------------------------------------------------------------------ *)
(** * Refinement and the operators *)

Definition pol (p : bool) (x : fml) : fml := if p then x else FNot x.

Lemma refines_refl : forall W x, refines W x x.
Proof. intros W x. repeat split; auto using incl_refl. Qed.
Lemma refines_sem : forall W x x' y, (forall v, sem v x' = sem v x) -> (con_free x' = true -> con_free x = true /\ incl (fvars x) (fvars x')) ->
  refines W x y -> refines W x' y.
Proof.
  intros W x x' y Hs Hc [H1 [H2 H3]]. split; [intros v Hv; rewrite Hs; auto |]. split; [intros v Hw Hv; apply H2; auto; now rewrite <- Hs |].
  intros H. destruct (Hc H) as [Hc1 Hc2]. destruct (H3 Hc1) as [H4 H5]. split; [intros v; rewrite Hs; auto | intros u Hu; auto].
Qed.
Lemma refines_trans : forall W x y z, con_free y = true -> refines W x y -> refines W y z -> refines W x z.
Proof.
  intros W x y z Hy [H1 [H2 H3]] [_ [_ K]]. destruct (K Hy) as [K1 K2]. split; [intros v; rewrite K1; auto |].
  split; [intros v Hv Hx; rewrite K1; auto |]. intros Hx. destruct (H3 Hx) as [H4 H5]. split; [intros v; rewrite K1; auto | intros u Hu; auto].
Qed.
Lemma nnf_con_free : forall y, nnf_shape y = true -> con_free y = true.
Proof.
  induction y using fml_ind2; cbn; auto; try discriminate; intros Hf; rewrite forallb_forall in *; intros y Hy;
    rewrite Forall_forall in H; auto.
Qed.
Lemma con_free_leaves : forall cfg y, con_free y = true -> Forall (leaf_enc cfg) (leaves y).
Proof.
  intros cfg y. induction y using fml_ind2; cbn [con_free leaves]; intros Hc; try discriminate; auto.
  - constructor; [exact I | constructor].
  - rewrite forallb_forall in Hc. rewrite Forall_forall in *. intros lf Hlf. apply in_flat_map in Hlf. destruct Hlf as [z [Hz Hlf]].
    specialize (H z Hz (Hc z Hz)). rewrite Forall_forall in H. auto.
  - rewrite forallb_forall in Hc. rewrite Forall_forall in *. intros lf Hlf. apply in_flat_map in Hlf. destruct Hlf as [z [Hz Hlf]].
    specialize (H z Hz (Hc z Hz)). rewrite Forall_forall in H. auto.
  - apply andb_true_iff in Hc. destruct Hc. apply Forall_app. auto.
  - apply andb_true_iff in Hc. destruct Hc. apply Forall_app. auto.
Qed.

Lemma con_free_fnary : forall conj l, con_free (fnary conj l) = forallb con_free l.
Proof. intros [] l; reflexivity. Qed.
Lemma fvars_fnary : forall conj l, fvars (fnary conj l) = flat_map fvars l.
Proof. intros conj l. unfold fvars at 1. rewrite fnary_leaves. symmetry. apply flat_map_fvars. Qed.

Lemma refines_nary : forall conj W xs ys y, Forall2 (refines W) xs ys -> (forall v, sem v y = nary_sem conj v ys) ->
  incl (fvars y) (flat_map fvars ys) -> refines W (fnary conj xs) y.
Proof.
  intros conj W xs ys y HF Hs Hi. unfold refines. rewrite con_free_fnary.
  assert (A : forall v, nary_sem conj v ys = true -> nary_sem conj v xs = true).
  { intros v. clear -HF. unfold nary_sem. induction HF as [| a b xs ys [H1 _] HF IH]; [auto |]. destruct conj; cbn [forallb existsb].
    - rewrite !andb_true_iff. intuition.
    - rewrite !orb_true_iff. intuition. }
  assert (B : forall v, W v -> nary_sem conj v xs = true -> nary_sem conj v ys = true).
  { intros v Hv. clear -HF Hv. unfold nary_sem. induction HF as [| a b xs ys [_ [H1 _]] HF IH]; [auto |]. destruct conj; cbn [forallb existsb].
    - rewrite !andb_true_iff. intuition.
    - rewrite !orb_true_iff. intuition. }
  split; [intros v; rewrite Hs, sem_fnary; apply A |]. split; [intros v Hv; rewrite Hs, sem_fnary; apply B; assumption |].
  intros Hc. rewrite fvars_fnary.
  assert (C : Forall2 (fun a b => (forall v, sem v b = sem v a) /\ incl (fvars b) (fvars a)) xs ys).
  { clear -HF Hc. induction HF as [| a b xs ys [_ [_ H1]] HF IH]; constructor; cbn [forallb] in Hc; apply andb_true_iff in Hc; destruct Hc; auto. }
  split.
  - intros v. rewrite Hs, sem_fnary. clear -C. unfold nary_sem. induction C as [| a b xs ys [H1 _] C IH]; [reflexivity |].
    destruct conj; cbn [forallb existsb]; rewrite H1, IH; reflexivity.
  - intros u Hu. apply Hi in Hu. clear -C Hu. induction C as [| a b xs ys [_ H1] C IH]; [assumption |]. cbn [flat_map] in *.
    apply in_or_app. apply in_app_or in Hu. destruct Hu; auto.
Qed.

(* ------------------------------------------------------------------------------------------------------------------ *)
(** * Lazy operands *)

Definition pres (P : world -> fml -> fml -> Prop) (x : fml) (r : N) (s : factory) (W : world) : Prop := exists y, hdl s r y /\ P W x y.
Definition fconst (b : bool) : fml := if b then FTrue else FFalse.
(** Either all operands were computed, or a prefix decided the result. *)
Definition lazyx (conj : bool) (P : world -> fml -> fml -> Prop) (W : world) (xs : list fml) (y : fml) : Prop :=
  (exists ys, Forall2 (P W) xs ys /\ (forall v, sem v y = nary_sem conj v ys) /\ nary_tree conj ys y)
  \/ (y = fconst (negb conj) /\ exists xs1 xs2 ys, xs = xs1 ++ xs2 /\ Forall2 (P W) xs1 ys /\ forall v, nary_sem conj v ys = negb conj).

Lemma denotes_const : forall s b, denotes s (constant b) (fconst b).
Proof. intros s []; constructor; reflexivity. Qed.
Lemma hdl_const : forall s b, hdl s (constant b) (fconst b).
Proof. intros s b. split; [apply vh_constant |]. split; [apply denotes_const |]. destruct b; intros u []. Qed.
Lemma hdls_vh : forall s l xs, Forall2 (hdl s) l xs -> Forall (vh s) l.
Proof. intros s l xs H. induction H as [| a b l xs [H1 _] H IH]; constructor; assumption. Qed.
Lemma hdls_denotes : forall s l xs, Forall2 (hdl s) l xs -> Forall2 (denotes s) l xs.
Proof. intros s l xs H. induction H as [| a b l xs [_ [H1 _]] H IH]; constructor; assumption. Qed.
Lemma hdls_kn : forall s l xs, Forall2 (hdl s) l xs -> forall u, In u (flat_map fvars xs) -> known s u.
Proof.
  intros s l xs H. induction H as [| a b l xs [_ [_ H1]] H IH]; intros u Hu; [destruct Hu |]. cbn [flat_map] in Hu.
  apply in_app_or in Hu. destruct Hu; auto.
Qed.

(** An n-ary constructor applied to handles. *)
Lemma x_nary : forall conj ops ys W s, inv W s -> Forall2 (hdl s) ops ys ->
  xspec W s (f_nary conj ops) (fun r s' W' => W' = W /\ core s s' /\ exists y, hdl s' r y /\ (forall v, sem v y = nary_sem conj v ys) /\ nary_tree conj ys y).
Proof.
  intros conj ops ys W s Hi Ho. eapply x_conseq.
  - apply x_core; [assumption |]. apply (f_nary_tree s conj ops ys); [apply Hi | eapply hdls_vh; eauto | apply hdls_denotes; assumption].
  - intros r s' W' _ He Hs [-> [Hc [Hv [y [Hd [H1 H2]]]]]]. split; [reflexivity |]. split; [assumption |]. exists y. split; [| auto].
    split; [assumption |]. split; [assumption |]. intros u Hu. apply (nary_tree_fvars _ _ _ H2) in Hu.
    eapply known_ext; [exact He |]. eapply hdls_kn; eauto.
Qed.

Lemma x_nary_lazy : forall conj (f : N -> M N) (P : world -> fml -> fml -> Prop),
  (forall W W' x y, sub W' W -> P W x y -> P W' x y) -> (forall a, mono (f a)) ->
  forall ops xs W s acc accx ys, inv W s -> Forall2 (hdl s) ops xs -> Forall2 (hdl s) acc ys -> Forall2 (P W) accx ys ->
  (forall o x t W', In x xs -> inv W' t -> ext s t -> sub W' W -> hdl t o x -> xspec W' t (f o) (pres P x)) ->
  xspec W s (nary_lazy conj acc (map f ops)) (fun r s' W' => exists y, hdl s' r y /\ lazyx conj P W' (accx ++ xs) y).
Proof.
  intros conj f P Hanti Hmono ops. induction ops as [| o ops IH]; intros xs W s acc accx ys Hi Ho Ha HP H;
    inversion Ho as [| ? x ? xs' Hx Ho']; subst; cbn [map nary_lazy].
  - eapply x_conseq; [apply x_nary; eassumption |]. intros r s' W' _ _ _ [-> [_ [y [Hy [H1 H2]]]]]. exists y. split; [assumption |].
    left. exists ys. rewrite app_nil_r. auto.
  - assert (Hm : Forall mono (map f ops)) by (apply Forall_map; rewrite Forall_forall; auto).
    eapply x_bind; [apply (H o x); auto using ext_refl, sub_refl; left; reflexivity | |].
    { intros h. apply mono_bind; [apply mono_lift |]. intros [r |]; [apply mono_nary_lazy; assumption | apply mono_ret]. }
    intros h s1 W1 Hi1 He Hs [z [Hz HPz]].
    assert (Ha1 : Forall2 (hdl s1) (acc ++ [h]) (ys ++ [z])).
    { apply Forall2_app; [eapply hdls_ext; eauto | constructor; auto]. }
    assert (HP1 : Forall2 (P W1) (accx ++ [x]) (ys ++ [z])).
    { apply Forall2_app; [| constructor; auto]. clear -HP Hanti Hs. induction HP; constructor; eauto. }
    pose proof (prepare_nary_spec s1 conj (acc ++ [h]) (i_wf _ _ Hi1) (hdls_vh _ _ _ Ha1)) as Hp.
    destruct (prepare_nary s1 conj (acc ++ [h])) as [[r |] | |] eqn:E; try contradiction.
    + eapply x_lift_bind; [exact E |]. cbn beta iota.
      replace (accx ++ x :: xs') with ((accx ++ [x]) ++ xs') by (rewrite <- app_assoc; reflexivity).
      apply (IH xs' W1 s1 (acc ++ [h]) (accx ++ [x]) (ys ++ [z])); auto; [eapply hdls_ext; eauto |].
      intros k w t W2 Hin Hi2 He2 Hs2 Hk. apply H; auto; [right; assumption | eapply ext_trans; eauto | eapply sub_trans; eauto].
    + eapply x_lift_bind; [exact E |]. cbn beta iota. apply x_ret; [assumption |]. exists (fconst (negb conj)). split; [apply hdl_const |].
      right. split; [reflexivity |]. exists (accx ++ [x]), xs', (ys ++ [z]). rewrite <- app_assoc. split; [reflexivity |]. split; [assumption |].
      intros v. eapply nary_sem_allv_not; [apply hdls_denotes; exact Ha1 | auto].
Qed.

(** A lazily computed operator refines the operator. *)
Lemma lazyx_refines : forall conj (P : world -> fml -> fml -> Prop) (g : fml -> fml) W xs y, (forall x z, In x xs -> P W x z -> refines W (g x) z) -> lazyx conj P W xs y ->
  refines W (fnary conj (map g xs)) y.
Proof.
  intros conj P g W xs y HP [[ys [HF [Hs Ht]]] | [-> [xs1 [xs2 [ys [-> [HF Hs]]]]]]].
  - eapply refines_nary; [| exact Hs | apply (nary_tree_fvars _ _ _ Ht)]. clear -HP HF.
    induction HF as [| a b xs ys Hab HF IH]; cbn [map]; constructor; [apply HP; [left; reflexivity | assumption] |].
    apply IH. intros x z Hx. apply HP. right. assumption.
  - apply refines_nary with (ys := ys ++ map g xs2).
    + rewrite map_app. apply Forall2_app.
      * clear -HP HF. induction HF as [| a b xs ys Hab HF IH]; cbn [map]; constructor; [apply HP; [left; reflexivity | assumption] |].
        apply IH. intros x z Hx. apply HP. right. assumption.
      * induction (map g xs2); constructor; auto using refines_refl.
    + intros v. specialize (Hs v). unfold nary_sem in *. destruct conj; cbn [fconst negb sem] in *.
      * rewrite forallb_app, Hs. reflexivity.
      * rewrite existsb_app, Hs. reflexivity.
    + destruct conj; intros u [].
Qed.

(** Shapes of n-ary results. *)
Lemma fflat_depth : forall conj ys z D, Forall (fun y => (depth y <= D)%nat) ys -> fflat conj ys z -> (depth z <= D)%nat.
Proof.
  intros conj ys z D H [Hz | [l [Hl Hz]]]; rewrite Forall_forall in H; [auto |]. apply H in Hl.
  apply depth_in in Hz. destruct conj; cbn [fnary depth] in Hl; lia.
Qed.
Lemma fold_max_le : forall (f : fml -> nat) l D, (forall y, In y l -> (f y <= D)%nat) -> (fold_right (fun y n => Nat.max (f y) n) 0 l <= D)%nat.
Proof.
  intros f l D. induction l as [| a l IH]; intros H; cbn [fold_right]; [lia |].
  pose proof (H a (or_introl eq_refl)). assert (forall y, In y l -> (f y <= D)%nat) as H' by (intros; apply H; right; assumption). specialize (IH H'). lia.
Qed.
Lemma fold_max_in : forall (f : fml -> nat) l y, In y l -> (f y <= fold_right (fun y n => Nat.max (f y) n) 0 l)%nat.
Proof. intros f l y. induction l as [| a l IH]; intros H; [destruct H |]. cbn [fold_right]. destruct H as [-> | H]; [lia |]. specialize (IH H). lia. Qed.
Lemma nary_tree_depth : forall conj ys y D, Forall (fun y => (depth y <= D)%nat) ys -> nary_tree conj ys y -> (depth y <= S D)%nat.
Proof.
  intros conj ys y D H [-> | [-> | [Hf | [l [-> Hl]]]]]; cbn [depth]; try lia.
  - pose proof (fflat_depth _ _ _ _ H Hf). lia.
  - assert (Hd : depth (fnary conj l) = S (fold_right (fun y n => Nat.max (depth y) n) 0 l)%nat) by (destruct conj; reflexivity). rewrite Hd.
    apply le_n_S. apply fold_max_le. intros z Hz. rewrite Forall_forall in Hl. eapply fflat_depth; eauto.
Qed.
Lemma fflat_nnf : forall conj ys z, Forall (fun y => nnf_shape y = true) ys -> fflat conj ys z -> nnf_shape z = true.
Proof.
  intros conj ys z H [Hz | [l [Hl Hz]]]; rewrite Forall_forall in H; [auto |]. apply H in Hl.
  destruct conj; cbn [fnary nnf_shape] in Hl; rewrite forallb_forall in Hl; auto.
Qed.
Lemma nary_tree_nnf : forall conj ys y, Forall (fun y => nnf_shape y = true) ys -> nary_tree conj ys y -> nnf_shape y = true.
Proof.
  intros conj ys y H [-> | [-> | [Hf | [l [-> Hl]]]]]; try reflexivity; [eapply fflat_nnf; eauto |].
  assert (forallb nnf_shape l = true) by (rewrite forallb_forall; rewrite Forall_forall in Hl; intros z Hz; eapply fflat_nnf; eauto).
  destruct conj; assumption.
Qed.

(* ------------------------------------------------------------------------------------------------------------------ *)
(** * nnf *)

(** How deep the recursion goes. *)
Fixpoint ncost (p : bool) (x : fml) : nat :=
  match x with
  | FTrue | FFalse | FLit _ => 1
  | FCc _ | FPbc _ => if p then 3 else 5
  | FNot a => S (ncost (negb p) a)
  | FAnd l | FOr l => S (fold_right (fun y n => Nat.max (ncost p y) n) 0 l)
  | FImpl a b => S (Nat.max (ncost (negb p) a) (ncost p b))
  | FEquiv a b => S (Nat.max (Nat.max (ncost true a) (ncost false a)) (Nat.max (ncost true b) (ncost false b)))
  end%nat.

Lemma ncost_depth : forall x b, (ncost b x <= depth x + 5)%nat.
Proof.
  induction x using fml_ind2; intros b; cbn [ncost depth]; try lia; try (destruct b; lia).
  - specialize (IHx (negb b)). lia.
  - enough (fold_right (fun y n => Nat.max (ncost b y) n) 0 l <= fold_right (fun y n => Nat.max (depth y) n) 0 l + 5)%nat by lia.
    apply fold_max_le. intros y Hy. rewrite Forall_forall in H. pose proof (H y Hy b). pose proof (depth_in y l Hy). lia.
  - enough (fold_right (fun y n => Nat.max (ncost b y) n) 0 l <= fold_right (fun y n => Nat.max (depth y) n) 0 l + 5)%nat by lia.
    apply fold_max_le. intros y Hy. rewrite Forall_forall in H. pose proof (H y Hy b). pose proof (depth_in y l Hy). lia.
  - pose proof (IHx1 (negb b)). pose proof (IHx2 b). lia.
  - pose proof (IHx1 true). pose proof (IHx2 true). pose proof (IHx1 false). pose proof (IHx2 false). lia.
Qed.
Lemma ndep_depth : forall x b, (ndep b x <= 2 * depth x + 3)%nat.
Proof.
  induction x using fml_ind2; intros b; cbn [ndep depth]; try lia; try (destruct b; lia).
  - specialize (IHx (negb b)). lia.
  - enough (fold_right (fun y n => Nat.max (ndep b y) n) 0 l <= 2 * fold_right (fun y n => Nat.max (depth y) n) 0 l + 3)%nat by lia.
    apply fold_max_le. intros y Hy. rewrite Forall_forall in H. pose proof (H y Hy b). pose proof (depth_in y l Hy). lia.
  - enough (fold_right (fun y n => Nat.max (ndep b y) n) 0 l <= 2 * fold_right (fun y n => Nat.max (depth y) n) 0 l + 3)%nat by lia.
    apply fold_max_le. intros y Hy. rewrite Forall_forall in H. pose proof (H y Hy b). pose proof (depth_in y l Hy). lia.
  - pose proof (IHx1 (negb b)). pose proof (IHx2 b). lia.
  - pose proof (IHx1 true). pose proof (IHx2 true). pose proof (IHx1 false). pose proof (IHx2 false). lia.
Qed.
Lemma ndep_nnf : forall x, nnf_shape x = true -> (depth x <= ndep true x)%nat.
Proof.
  induction x using fml_ind2; cbn [nnf_shape depth ndep]; intros Hn; try discriminate; try lia;
    apply le_n_S; apply fold_max_le; intros y Hy; rewrite Forall_forall in H; rewrite forallb_forall in Hn;
    (etransitivity; [apply H; auto | apply (fold_max_in (ndep true)); assumption]).
Qed.

Lemma is_fclause_nnf : forall x, is_fclause x = true -> nnf_shape x = true.
Proof.
  intros x H. destruct x; cbn in *; try discriminate; auto. rewrite forallb_forall in *. intros y Hy. apply H in Hy. destruct y; cbn in *; congruence.
Qed.
Lemma clausal_nnf : forall x, clausal x = true -> nnf_shape x = true.
Proof. intros x H. destruct x; cbn in H; try discriminate; try reflexivity. apply is_fclause_nnf; assumption. Qed.
Lemma cnf_nnf : forall x, cnf_shape x = true -> nnf_shape x = true.
Proof.
  intros x H. destruct x; cbn in H; try discriminate; try reflexivity.
  - cbn. rewrite forallb_forall in *. intros y Hy. apply is_fclause_nnf. auto.
  - apply is_fclause_nnf. assumption.
Qed.
Lemma dnf_nnf : forall x, dnf_shape x = true -> nnf_shape x = true.
Proof.
  assert (T : forall x, is_fterm x = true -> nnf_shape x = true).
  { intros x H. destruct x; cbn in *; try discriminate; auto. rewrite forallb_forall in *. intros y Hy. apply H in Hy. destruct y; cbn in *; congruence. }
  intros x H. destruct x; cbn in H; try discriminate; try reflexivity.
  - apply T. assumption.
  - cbn. rewrite forallb_forall in *. intros y Hy. apply T. auto.
Qed.

Definition nnf_ok (p : bool) (W : world) (x y : fml) : Prop := refines W (pol p x) y /\ nnf_shape y = true /\ (depth y <= ndep p x)%nat.

Lemma nnf_ok_sub : forall p W W' x y, sub W' W -> nnf_ok p W x y -> nnf_ok p W' x y.
Proof. intros p W W' x y Hs [H1 H2]. split; [eapply refines_sub; eauto | assumption]. Qed.

Lemma nnf_ok_lazy : forall conj p W xs y, lazyx conj (nnf_ok p) W xs y ->
  refines W (fnary conj (map (pol p) xs)) y /\ nnf_shape y = true /\ (depth y <= S (fold_right (fun y n => Nat.max (ndep p y) n) 0 xs))%nat.
Proof.
  intros conj p W xs y H. split; [eapply lazyx_refines; [| exact H]; intros x z _ Hx; apply Hx |].
  destruct H as [[ys [HF [_ Ht]]] | [-> _]]; [| destruct conj; cbn; split; [reflexivity | lia | reflexivity | lia]].
  split.
  - eapply nary_tree_nnf; [| exact Ht]. clear -HF. induction HF as [| a b xs ys [_ [H _]] HF IH]; constructor; assumption.
  - eapply nary_tree_depth; [| exact Ht]. clear -HF. induction HF as [| a b xs ys [_ [_ H]] HF IH]; constructor; cbn [fold_right]; [lia |].
    eapply Forall_impl; [| exact IH]. cbn beta. intros. lia.
Qed.

Lemma mono_nnf_known : forall h, mono (nnf_known h).
Proof.
  intros h. unfold nnf_known. apply mono_bind; [apply mono_get |]. intros i. apply mono_bind; [apply mono_get |]. intros c.
  apply mono_bind; [apply mono_get |]. intros d. destruct i as [[] |]; destruct c; destruct d as [[] |]; auto with mono; apply mono_ret.
Qed.
Lemma mono_nnf_rec : forall fuel h p, mono (nnf_rec fuel h p).
Proof.
  induction fuel as [| fuel IH]; intros h p; cbn [nnf_rec]; [apply mono_nofuel |].
  apply mono_bind; [destruct p; [apply mono_nnf_known | apply mono_ret] |]. intros [r |]; [apply mono_ret |].
  apply mono_bind; [apply mono_unpackM |]. intros n. apply mono_bind.
  - assert (HL : forall conj ops b, mono (nary_lazy conj [] (map (fun op => nnf_rec fuel op b) ops))).
    { intros. apply mono_nary_lazy. apply Forall_map. rewrite Forall_forall. auto. }
    destruct n; try apply IH; try apply HL; try (destruct p; mono_tac; fail).
    + destruct p; (apply mono_bind; [auto with mono |]); intros; auto.
  - intros r. apply mono_bind; [| intros; apply mono_ret]. destruct p; [| apply mono_ret]. apply mono_bind; [apply mono_lift |].
    intros []; [| apply mono_ret]. apply mono_bind; [apply mono_put | intros; apply mono_put].
Qed.
Global Hint Resolve mono_nnf_rec : mono.

Lemma hdls_children : forall s h x n, wf s -> hdl s h x -> unpack s h = Ok n -> Forall2 (hdl s) (node_operands n) (children x).
Proof.
  intros s h x n Hw [Hv [Hd Hk]] Hu. pose proof (denotes_children s h n x Hu Hd) as H1. pose proof (vh_node s h n Hw Hv Hu) as H2.
  assert (H3 : forall y, In y (children x) -> kn s y) by (intros y; apply children_kn; assumption). clear -H1 H2 H3.
  induction H1; constructor; inversion H2; subst.
  - split; [assumption |]. split; [assumption |]. apply H3. left. reflexivity.
  - apply IHForall2; [assumption |]. intros z Hz. apply H3. right. assumption.
Qed.
Lemma encodable_children : forall s x y, encodable s x -> In y (children x) -> encodable s y.
Proof.
  intros s x y H Hy. unfold encodable in *. rewrite Forall_forall in *. intros lf Hlf. apply H.
  destruct x; cbn [children] in Hy; try (destruct Hy; fail); cbn [leaves].
  - destruct Hy as [<- | []]. assumption.
  - apply in_flat_map. eauto.
  - apply in_flat_map. eauto.
  - apply in_or_app. destruct Hy as [<- | [<- | []]]; auto.
  - apply in_or_app. destruct Hy as [<- | [<- | []]]; auto.
Qed.

(** What the early returns know. *)
Lemma nnf_known_spec : forall W s h x, inv W s -> hdl s h x ->
  exists o, nnf_known h s = (Ok o, s) /\ match o with Some r => pres P_nnf x r s W | None => True end.
Proof.
  intros W s h x Hi Hx. pose proof (i_caches _ _ Hi) as Hc. unfold nnf_known, cache_get, bind, lift.
  assert (Hself : nnf_shape x = true -> pres P_nnf x h s W).
  { intros Hn. exists x. split; [assumption |]. split; [apply refines_refl |]. split; [assumption | now apply ndep_nnf]. }
  assert (Ht : forall V (P : fml -> V -> Prop) v, e_tree P s h v -> P x v).
  { intros V P v [y [_ [Hy HP]]]. destruct Hx as [_ [Hd _]]. now rewrite (denotes_fun _ _ _ _ Hd Hy). }
  assert (Hnone : pres P_nnf x h s W -> forall o, o = oc_get h (oc_nnf (f_caches s)) -> match o with Some r => pres P_nnf x r s W | None => True end).
  { intros _ [r |] Ho; [| exact I]. symmetry in Ho. apply (co_nnf _ _ _ Hc) in Ho. destruct Ho as [x' [y [[_ [Hx' _]] [Hy HP]]]].
    destruct Hx as [_ [Hd _]]. rewrite (denotes_fun _ _ _ _ Hx' Hd) in HP. exists y. auto. }
  assert (Hent : match oc_get h (oc_nnf (f_caches s)) with Some r => pres P_nnf x r s W | None => True end).
  { destruct (oc_get h (oc_nnf (f_caches s))) as [r |] eqn:Ho; [| exact I]. apply (co_nnf _ _ _ Hc) in Ho.
    destruct Ho as [x' [y [[_ [Hx' _]] [Hy HP]]]]. destruct Hx as [_ [Hd _]]. rewrite (denotes_fun _ _ _ _ Hx' Hd) in HP. exists y. auto. }
  clear Hnone.
  assert (Hcnf : oc_get h (oc_is_cnf (f_caches s)) <> None -> pres P_nnf x h s W).
  { intros Hk. apply Hself. apply cnf_nnf. destruct (wf_cnf_keys s (i_wf _ _ Hi) h Hk) as [Hv Hn].
    pose proof (wf_cnf_exact s (i_wf _ _ Hi) h x Hv (proj1 (proj2 Hx))) as He. unfold is_cnf, ftype, is_nary_operator in *.
    destruct (formula_type_of h) as [[] |]; try discriminate; cbn [of_opt rbind] in He;
      destruct (oc_get h (oc_is_cnf (f_caches s))); congruence. }
  assert (Hnnf : oc_get h (oc_is_nnf (f_caches s)) = Some true -> pres P_nnf x h s W).
  { intros E. apply Hself. apply (co_is_nnf _ _ _ Hc) in E. apply Ht in E. symmetry. exact E. }
  assert (Hdnf : oc_get h (oc_is_dnf (f_caches s)) = Some true -> pres P_nnf x h s W).
  { intros E. apply Hself. apply dnf_nnf. apply (co_is_dnf _ _ _ Hc) in E. apply Ht in E. symmetry. exact E. }
  destruct (oc_get h (oc_is_nnf (f_caches s))) as [[] |], (oc_get h (oc_is_cnf (f_caches s))) as [[] |], (oc_get h (oc_is_dnf (f_caches s))) as [[] |];
    eexists; (split; [reflexivity |]); cbn beta iota; auto; try (apply Hcnf; discriminate).
Qed.

Lemma x_det_bind : forall A B W s (m : M A) a (k : A -> M B) Q, m s = (Ok a, s) -> xspec W s (k a) Q -> xspec W s (bind m k) Q.
Proof. intros A B W s m a k Q Hm [H1 H2]. unfold xspec, bind. rewrite Hm. split; assumption. Qed.

Lemma f_or_nary : forall l, f_or l = f_nary false l.
Proof. reflexivity. Qed.
Lemma f_and_nary : forall l, f_and l = f_nary true l.
Proof. reflexivity. Qed.

(** Two operands of known refinement. *)
Lemma nary2_ok : forall conj W a b x1 x2 y x D, refines W x1 a -> refines W x2 b -> nnf_shape a = true -> nnf_shape b = true ->
  (depth a <= D)%nat -> (depth b <= D)%nat -> (forall v, sem v y = nary_sem conj v [a; b]) -> nary_tree conj [a; b] y ->
  (forall v, sem v x = nary_sem conj v [x1; x2]) ->
  (con_free x = true -> con_free x1 = true /\ con_free x2 = true /\ incl (fvars x1) (fvars x) /\ incl (fvars x2) (fvars x)) ->
  refines W x y /\ nnf_shape y = true /\ (depth y <= S D)%nat.
Proof.
  intros conj W a b x1 x2 y x D H1 H2 N1 N2 D1 D2 Hs Ht Hx Hc. split.
  - eapply refines_sem with (x := fnary conj [x1; x2]).
    + intros v. rewrite Hx, sem_fnary. reflexivity.
    + intros H. destruct (Hc H) as [C1 [C2 [I1 I2]]]. rewrite con_free_fnary, fvars_fnary. cbn [forallb flat_map]. rewrite C1, C2, app_nil_r.
      split; [reflexivity | apply incl_app; assumption].
    + eapply refines_nary; [| exact Hs | apply (nary_tree_fvars _ _ _ Ht)]. constructor; [assumption | constructor; [assumption | constructor]].
  - split; [eapply nary_tree_nnf; [| exact Ht] | eapply nary_tree_depth; [| exact Ht]]; repeat constructor; assumption.
Qed.

Definition nres (p : bool) (x : fml) : N -> factory -> world -> Prop := pres (nnf_ok p) x.

Lemma nres_ext : forall p x r s s' W W', ext s s' -> sub W' W -> nres p x r s W -> nres p x r s' W'.
Proof. intros p x r s s' W W' He Hs [y [H1 H2]]. exists y. split; [eapply hdl_ext; eauto | eapply nnf_ok_sub; eauto]. Qed.

Lemma refines_enc : forall W x ys y, con_free x = false -> enc_of W x ys -> refines W (FAnd ys) y -> refines W x y.
Proof.
  intros W x ys y Hc [_ [H1 H2]] [K1 [K2 _]]. split; [intros v Hv; apply H1; apply (K1 v Hv) |].
  split; [intros v Hv Hx; apply K2; auto; cbn [sem]; auto | congruence].
Qed.
Lemma map_pol_true : forall l, map (pol true) l = l.
Proof. intros l. unfold pol. apply map_id. Qed.
Lemma clausal_ncost : forall y, clausal y = true -> (ncost true y <= 2)%nat.
Proof.
  intros y H. destruct y; cbn in H |- *; try discriminate; try lia. apply le_n_S. apply fold_max_le. intros z Hz.
  rewrite forallb_forall in H. apply H in Hz. destruct z; cbn in *; try discriminate; lia.
Qed.
Lemma clausal_ndep : forall y, clausal y = true -> (ndep true y <= 1)%nat.
Proof.
  intros y H. destruct y; cbn in H |- *; try discriminate; try lia. apply le_n_S. apply fold_max_le. intros z Hz.
  rewrite forallb_forall in H. apply H in Hz. destruct z; cbn in *; try discriminate; lia.
Qed.
Lemma neg_tree_cost : forall cfg y, neg_tree cfg y -> (ncost true y <= 4 /\ ndep true y <= 3)%nat.
Proof.
  intros cfg y [_ [H | [l [-> H]]]]; [destruct y; cbn in *; try contradiction; lia |]. cbn [ncost ndep]. rewrite Forall_forall in H.
  split; apply le_n_S; apply fold_max_le; intros z Hz; apply H in Hz; destruct z; cbn in *; try contradiction; lia.
Qed.

Lemma sem_pol_nary : forall p conj v l, sem v (fnary conj (map (pol p) l)) = sem v (pol p (fnary (if p then conj else negb conj) l)).
Proof.
  intros p conj v l. rewrite sem_fnary. destruct p; cbn [pol].
  - rewrite map_pol_true, sem_fnary. reflexivity.
  - cbn [sem]. rewrite sem_fnary. destruct conj; cbn [nary_sem negb pol].
    + rewrite forallb_map. induction l as [| a l IH]; [reflexivity |]. cbn [forallb existsb]. rewrite IH. unfold pol. cbn [sem]. destruct (sem v a); reflexivity.
    + rewrite existsb_map. induction l as [| a l IH]; [reflexivity |]. cbn [forallb existsb]. rewrite IH. unfold pol. cbn [sem]. destruct (sem v a); reflexivity.
Qed.
Lemma con_free_pol : forall p x, con_free (pol p x) = con_free x.
Proof. intros [] x; reflexivity. Qed.
Lemma fvars_pol : forall p x, fvars (pol p x) = fvars x.
Proof. intros [] x; reflexivity. Qed.
Lemma flat_map_pol : forall p l, flat_map fvars (map (pol p) l) = flat_map fvars l.
Proof. intros p l. induction l as [| a l IH]; [reflexivity |]. cbn [map flat_map]. rewrite fvars_pol, IH. reflexivity. Qed.
Lemma forallb_pol : forall p l, forallb con_free (map (pol p) l) = forallb con_free l.
Proof. intros p l. induction l as [| a l IH]; [reflexivity |]. cbn [map forallb]. rewrite con_free_pol, IH. reflexivity. Qed.

Lemma nnf_body : forall fuel,
  (forall p x W s h, inv W s -> hdl s h x -> encodable s x -> (ncost p x <= fuel)%nat -> xspec W s (nnf_rec fuel h p) (nres p x)) ->
  forall p x W s h n, inv W s -> hdl s h x -> encodable s x -> (ncost p x <= S fuel)%nat -> unpack s h = Ok n ->
  xspec W s (match n with
                | NTrue | NFalse | NLit _ => if p then ret h else f_negate h
                | NNot op => nnf_rec fuel op (negb p)
                | NOr ops => nary_lazy (negb p) [] (map (fun op => nnf_rec fuel op p) ops)
                | NAnd ops => nary_lazy p [] (map (fun op => nnf_rec fuel op p) ops)
                | NEquiv a b =>
                    left_false <-- nnf_rec fuel a false ;;
                    right_true <-- nnf_rec fuel b true ;;
                    left_true <-- nnf_rec fuel a true ;;
                    right_false <-- nnf_rec fuel b false ;;
                    if p then
                      op1 <-- f_or [left_false; right_true] ;;
                      op2 <-- f_or [left_true; right_false] ;;
                      f_and [op1; op2]
                    else
                      op1 <-- f_or [left_false; right_false] ;;
                      op2 <-- f_or [left_true; right_true] ;;
                      f_and [op1; op2]
                | NImpl a b =>
                    if p then
                      left_false <-- nnf_rec fuel a false ;;
                      right_true <-- nnf_rec fuel b true ;;
                      f_or [left_false; right_true]
                    else
                      left_true <-- nnf_rec fuel a true ;;
                      right_false <-- nnf_rec fuel b false ;;
                      f_and [left_true; right_false]
                | NCc c =>
                    if p then
                      encoded <-- cc_encode c ;;
                      nary_lazy true [] (map (fun op => nnf_rec fuel op true) encoded)
                    else neg <-- cc_negate c ;; nnf_rec fuel neg true
                | NPbc q =>
                    if p then
                      encoded <-- pbc_encode q ;;
                      nary_lazy true [] (map (fun op => nnf_rec fuel op true) encoded)
                    else neg <-- pbc_negate q ;; nnf_rec fuel neg true
                end) (nres p x).
Proof.
  intros fuel IH p x W s h n Hi Hx Hen Hfu Hu.
  pose proof (denotes_by_node _ _ _ _ Hu (proj1 (proj2 Hx))) as Hn.
  pose proof (hdls_children s h x n (i_wf _ _ Hi) Hx Hu) as Hch.
  assert (Hnary : forall conj ops xs, x = fnary (if p then conj else negb conj) xs -> Forall2 (hdl s) ops xs ->
    xspec W s (nary_lazy conj [] (map (fun op => nnf_rec fuel op p) ops)) (nres p x)).
  { intros conj ops xs -> Ho. eapply x_conseq.
    - apply (x_nary_lazy conj (fun op => nnf_rec fuel op p) (nnf_ok p) (nnf_ok_sub p) (fun a => mono_nnf_rec fuel a p) ops xs W s [] [] []); auto.
      intros o z t W' Hz Hi' He Hs Hoz. apply IH; auto.
      + eapply encodable_ext; [exact He |]. eapply encodable_children; [exact Hen |]. destruct (if p then conj else negb conj); exact Hz.
      + pose proof (fold_max_in (ncost p) xs z Hz). destruct (if p then conj else negb conj); cbn [fnary ncost] in Hfu; lia.
    - intros r s' W' _ _ _ [y [Hy Hl]]. cbn [app] in Hl. exists y. split; [assumption |]. destruct (nnf_ok_lazy _ _ _ _ _ Hl) as [H1 [H2 H3]].
      split; [| split; [assumption |]].
      + eapply refines_sem; [| | exact H1].
        * intros v. symmetry. apply sem_pol_nary.
        * rewrite con_free_pol, !con_free_fnary, fvars_pol, !fvars_fnary, forallb_pol, flat_map_pol. auto using incl_refl.
      + assert (Hnd : forall b, ndep p (fnary b xs) = S (fold_right (fun y n => Nat.max (ndep p y) n) 0%nat xs)) by (intros []; reflexivity). rewrite Hnd. assumption. }
  assert (Hatom : forall l, x = FTrue \/ x = FFalse \/ x = FLit l -> xspec W s (if p then ret h else f_negate h) (nres p x)).
  { intros l Ha. destruct p.
    - apply x_ret; [assumption |]. exists x. split; [assumption |]. split; [apply refines_refl |].
      destruct Ha as [-> | [-> | ->]]; cbn; split; auto.
    - eapply x_conseq.
      + apply x_core; [assumption |]. apply (f_negate_simple s h x (i_wf _ _ Hi) (proj1 Hx) (proj1 (proj2 Hx))). destruct Ha as [-> | [-> | ->]]; reflexivity.
      + intros r s' W' _ He _ [-> [_ [Hv Hd]]]. exists (fnot x). split.
        * split; [assumption |]. split; [assumption |]. intros u Hu0. unfold fvars in Hu0. rewrite fnot_leaves in Hu0. eapply known_ext; [exact He |].
          apply (proj2 (proj2 Hx)). exact Hu0.
        * split; [| destruct Ha as [-> | [-> | ->]]; cbn; split; auto].
          split; [intros v Hv0; cbn [pol sem]; now rewrite <- fnot_sem |]. split; [intros v _ Hv0; rewrite fnot_sem; exact Hv0 |].
          intros _. split; [intros v; rewrite fnot_sem; reflexivity |]. unfold fvars. rewrite fnot_leaves. apply incl_refl. }
  assert (Henc : forall m, p = true -> mono m -> con_free x = false -> ncost true x = 3%nat -> ndep true x = 2%nat -> xspec W s m (encd x) ->
    xspec W s (encoded <-- m ;; nary_lazy true [] (map (fun op => nnf_rec fuel op true) encoded)) (nres p x)).
  { intros m -> Hm Hcf Hco Hnd He. eapply x_bind; [exact He | |].
    { intros l. apply mono_nary_lazy. apply Forall_map. rewrite Forall_forall. intros. apply mono_nnf_rec. }
    intros l s1 W1 Hi1 He1 Hs1 [ys [Hys Hen1]]. pose proof (proj1 Hen1) as Hcl. rewrite Forall_forall in Hcl.
    eapply x_conseq.
    - apply (x_nary_lazy true (fun op => nnf_rec fuel op true) (nnf_ok true) (nnf_ok_sub true) (fun a => mono_nnf_rec fuel a true) l ys W1 s1 [] [] []); auto.
      intros o z t W' Hz Hi' He' Hs' Hoz. apply IH; auto.
      + apply con_free_leaves. apply nnf_con_free. apply clausal_nnf. auto.
      + pose proof (clausal_ncost z (Hcl z Hz)). lia.
    - intros r s' W' _ _ Hs' [y [Hy Hl]]. cbn [app] in Hl. exists y. split; [assumption |]. destruct (nnf_ok_lazy _ _ _ _ _ Hl) as [H1 [H2 H3]].
      rewrite map_pol_true in H1. split; [| split; [assumption |]].
      + eapply refines_enc; [assumption | eapply enc_of_sub; [exact Hs' | exact Hen1] | exact H1].
      + rewrite Hnd. etransitivity; [exact H3 |]. apply le_n_S. apply fold_max_le. intros z Hz. apply clausal_ndep. auto. }
  assert (Hneg : forall m, p = false -> con_free x = false -> ncost false x = 5%nat -> ndep false x = 3%nat ->
    spec wf core s m (tres (neg_result (cfg_cc (f_config s)) x)) -> xspec W s (neg <-- m ;; nnf_rec fuel neg true) (nres p x)).
  { intros m -> Hcf Hco Hnd Hm. eapply x_bind; [apply x_core; [assumption | exact Hm] | intros; apply mono_nnf_rec |].
    intros g s1 W1 Hi1 He1 _ [-> [_ [Hv [y [Hd [Hs [Hinc Ht]]]]]]]. destruct (neg_tree_cost _ _ Ht) as [Hc1 Hc2].
    eapply x_conseq.
    - apply (IH true y); auto.
      + split; [assumption |]. split; [assumption |]. intros u Hu0. eapply known_ext; [exact He1 |]. apply (proj2 (proj2 Hx)). auto.
      + unfold encodable. rewrite (ext_config _ _ He1). apply Ht.
      + lia.
    - intros r s' W' _ _ _ [z [Hz [H1 [H2 H3]]]]. exists z. split; [assumption |]. split; [| split; [assumption | lia]].
      cbn [pol] in *. eapply refines_sem; [| | exact H1]; [intros v; symmetry; apply Hs | cbn [con_free]; congruence]. }
  destruct n; cbn beta iota in *.
  - apply (Hatom (Lit (VFF 0) true)). auto.
  - apply (Hatom (Lit (VFF 0) true)). auto.
  - apply (Hatom l). auto.
  - destruct Hn as [y [-> Hy]]. cbn [node_operands children] in Hch. inversion Hch as [| ? ? ? ? Ha _]; subst.
    eapply x_conseq; [apply (IH (negb p) y); [assumption | assumption | exact Hen | cbn [ncost] in Hfu; lia] |].
    + intros r s' W' _ _ _ [z [Hz [H1 H2]]]. exists z. split; [assumption |]. split; [| exact H2].
      eapply refines_sem; [| | exact H1].
      * intros v. destruct p; cbn [pol negb sem]; [reflexivity | apply negb_involutive].
      * rewrite !con_free_pol, !fvars_pol. cbn [con_free]. unfold fvars at 2. cbn [leaves]. auto using incl_refl.
  - destruct Hn as [ys [-> Hy]]. apply (Hnary p l ys); [destruct p; reflexivity | exact Hch].
  - destruct Hn as [ys [-> Hy]]. apply (Hnary (negb p) l ys); [destruct p; reflexivity | exact Hch].
  - destruct Hn as [ya [yb [-> [_ _]]]]. cbn [node_operands children] in Hch. inversion Hch as [| ? ? ? ? Ha Hch']; subst.
    inversion Hch' as [| ? ? ? ? Hb _]; subst. clear Hch Hch'. cbn [ncost] in Hfu.
    assert (Ea : encodable s ya) by (eapply encodable_children; [exact Hen | left; reflexivity]).
    assert (Eb : encodable s yb) by (eapply encodable_children; [exact Hen | right; left; reflexivity]).
    assert (Hgen : forall conj, (if p then conj = false else conj = true) ->
      xspec W s (l <-- nnf_rec fuel a (negb p) ;; r <-- nnf_rec fuel b p ;; f_nary conj [l; r]) (nres p (FImpl ya yb))).
    { intros conj Hconj. eapply x_bind; [apply (IH (negb p) ya); auto; lia | intros; mono_tac |].
      intros l s1 W1 Hi1 He1 Hs1 Hl. eapply x_bind; [apply (IH p yb); auto; [eapply hdl_ext; eauto | eapply encodable_ext; eauto | lia] | intros; mono_tac |].
      intros r s2 W2 Hi2 He2 Hs2 [zb [Hzb [Rb [Nb Db]]]]. apply (nres_ext _ _ _ _ s2 _ W2 He2 Hs2) in Hl. destruct Hl as [za [Hza [Ra [Na Da]]]].
      eapply x_conseq; [apply (x_nary conj [l; r] [za; zb]); auto |].
      intros g s' W' _ _ _ [-> [_ [y [Hy [Hsy Hty]]]]]. exists y. split; [assumption |]. unfold nnf_ok. cbn [ndep].
      eapply nary2_ok; [exact Ra | exact Rb | assumption | assumption | | | exact Hsy | exact Hty | |]; try lia.
      - intros v. destruct p; subst conj; cbn [pol negb sem nary_sem existsb forallb].
        + now destruct (sem v ya), (sem v yb).
        + now destruct (sem v ya), (sem v yb).
      - rewrite !con_free_pol, !fvars_pol. cbn [con_free]. rewrite andb_true_iff, fvars_impl. intros [? ?].
        split; [assumption |]. split; [assumption |]. split; [apply incl_appl | apply incl_appr]; apply incl_refl. }
    destruct p; [apply (Hgen false) | apply (Hgen true)]; reflexivity.
  - destruct Hn as [ya [yb [-> [_ _]]]]. cbn [node_operands children] in Hch. inversion Hch as [| ? ? ? ? Ha Hch']; subst.
    inversion Hch' as [| ? ? ? ? Hb _]; subst. clear Hch Hch'. cbn [ncost] in Hfu.
    assert (Ea : encodable s ya) by (eapply encodable_children; [exact Hen | left; reflexivity]).
    assert (Eb : encodable s yb) by (eapply encodable_children; [exact Hen | right; left; reflexivity]).
    eapply x_bind; [apply (IH false ya); auto; lia | intros; destruct p; mono_tac |].
    intros lf s1 W1 Hi1 He1 Hs1 Hlf.
    eapply x_bind; [apply (IH true yb); auto; [eapply hdl_ext; eauto | eapply encodable_ext; eauto | lia] | intros; destruct p; mono_tac |].
    intros rt s2 W2 Hi2 He2 Hs2 Hrt. apply (nres_ext _ _ _ _ s2 _ W2 He2 Hs2) in Hlf. assert (He2' : ext s s2) by (eapply ext_trans; eauto).
    eapply x_bind; [apply (IH true ya); auto; [eapply hdl_ext; eauto | eapply encodable_ext; eauto | lia] | intros; destruct p; mono_tac |].
    intros lt s3 W3 Hi3 He3 Hs3 Hlt. apply (nres_ext _ _ _ _ s3 _ W3 He3 Hs3) in Hlf, Hrt. assert (He3' : ext s s3) by (eapply ext_trans; eauto).
    eapply x_bind; [apply (IH false yb); auto; [eapply hdl_ext; eauto | eapply encodable_ext; eauto | lia] | intros; destruct p; mono_tac |].
    intros rf s4 W4 Hi4 He4 Hs4 Hrf. apply (nres_ext _ _ _ _ s4 _ W4 He4 Hs4) in Hlf, Hrt, Hlt.
    assert (Hgen : forall a1 b1 a2 b2 (pa1 pb1 pa2 pb2 : bool), nres pa1 ya a1 s4 W4 -> nres pb1 yb b1 s4 W4 -> nres pa2 ya a2 s4 W4 -> nres pb2 yb b2 s4 W4 ->
      (forall v, sem v (pol p (FEquiv ya yb)) = (sem v (pol pa1 ya) || sem v (pol pb1 yb)) && (sem v (pol pa2 ya) || sem v (pol pb2 yb))) ->
      xspec W4 s4 (op1 <-- f_or [a1; b1] ;; op2 <-- f_or [a2; b2] ;; f_and [op1; op2]) (nres p (FEquiv ya yb))).
    { intros a1 b1 a2 b2 pa1 pb1 pa2 pb2 [za1 [Ha1 [Ra1 [Na1 Da1]]]] [zb1 [Hb1 [Rb1 [Nb1 Db1]]]] [za2 [Ha2 [Ra2 [Na2 Da2]]]] [zb2 [Hb2 [Rb2 [Nb2 Db2]]]] Hsem.
      set (D := Nat.max (Nat.max (ndep true ya) (ndep false ya)) (Nat.max (ndep true yb) (ndep false yb))).
      assert (HD : forall q, (ndep q ya <= D)%nat /\ (ndep q yb <= D)%nat) by (intros []; unfold D; lia).
      assert (Hor : forall q1 q2 z1 z2 y, refines W4 (pol q1 ya) z1 -> refines W4 (pol q2 yb) z2 -> nnf_shape z1 = true -> nnf_shape z2 = true ->
        (depth z1 <= ndep q1 ya)%nat -> (depth z2 <= ndep q2 yb)%nat -> (forall v, sem v y = nary_sem false v [z1; z2]) -> nary_tree false [z1; z2] y ->
        refines W4 (FOr [pol q1 ya; pol q2 yb]) y /\ nnf_shape y = true /\ (depth y <= S D)%nat).
      { intros q1 q2 z1 z2 y R1 R2 N1 N2 D1 D2 Hs Ht. pose proof (HD q1) as [HD1 _]. pose proof (HD q2) as [_ HD2].
        eapply nary2_ok; [exact R1 | exact R2 | assumption | assumption | | | exact Hs | exact Ht | |]; try lia.
        - reflexivity.
        - cbn [con_free forallb]. rewrite !con_free_pol, andb_true_r, andb_true_iff. intros [C1 C2]. split; [assumption |]. split; [assumption |].
          change (FOr [pol q1 ya; pol q2 yb]) with (fnary false [pol q1 ya; pol q2 yb]). rewrite fvars_fnary. cbn [flat_map]. rewrite app_nil_r.
          split; [apply incl_appl | apply incl_appr]; apply incl_refl. }
      rewrite !f_or_nary.
      eapply x_bind; [apply (x_nary false [a1; b1] [za1; zb1]); auto | intros; mono_tac |].
      intros o1 s5 W5 Hi5 He5 _ [-> [_ [y1 [Hy1 [Hsy1 Hty1]]]]].
      eapply x_bind; [apply (x_nary false [a2; b2] [za2; zb2]); [assumption | constructor; [| constructor; [| constructor]]; eapply hdl_ext; eauto] | intros; mono_tac |].
      intros o2 s6 W6 Hi6 He6 _ [-> [_ [y2 [Hy2 [Hsy2 Hty2]]]]].
      eapply x_conseq; [apply (x_nary true [o1; o2] [y1; y2]); [assumption | constructor; [eapply hdl_ext; eauto | constructor; [assumption | constructor]]] |].
      intros g s' W' _ _ _ [-> [_ [y [Hy [Hsy Hty]]]]]. exists y. split; [assumption |].
      destruct (Hor _ _ _ _ _ Ra1 Rb1 Na1 Nb1 Da1 Db1 Hsy1 Hty1) as [R1 [N1 D1]].
      destruct (Hor _ _ _ _ _ Ra2 Rb2 Na2 Nb2 Da2 Db2 Hsy2 Hty2) as [R2 [N2 D2]].
      unfold nnf_ok. cbn [ndep]. fold D. eapply nary2_ok; [exact R1 | exact R2 | assumption | assumption | exact D1 | exact D2 | exact Hsy | exact Hty | |].
      - intros v. rewrite Hsem. cbn [nary_sem forallb sem existsb]. now rewrite !orb_false_r, andb_true_r.
      - rewrite con_free_pol, fvars_pol. cbn [con_free forallb]. rewrite !con_free_pol, !andb_true_r. intros C. split; [assumption |]. split; [assumption |].
        assert (forall q1 q2, incl (fvars (FOr [pol q1 ya; pol q2 yb])) (fvars (FEquiv ya yb))).
        { intros q1 q2. change (FOr [pol q1 ya; pol q2 yb]) with (fnary false [pol q1 ya; pol q2 yb]). rewrite fvars_fnary, fvars_equiv. cbn [flat_map].
          rewrite app_nil_r, !fvars_pol. apply incl_refl. }
        auto. }
    destruct p; eapply Hgen; eauto; intros v; cbn [pol sem]; destruct (sem v ya), (sem v yb); reflexivity.
  - subst x. destruct p.
    + apply Henc; auto with mono. eapply cc_encode_spec; [assumption | exact Hx |]. eapply cc_cfg_of_enc; [apply Hi | apply Hx | exact Hu |].
      unfold encodable in Hen. cbn [leaves] in Hen. now apply Forall_inv in Hen.
    + apply Hneg; auto. eapply cc_negate_tree; [apply Hi | apply Hx | exact Hu |]. unfold encodable in Hen. cbn [leaves] in Hen. now apply Forall_inv in Hen.
  - subst x. destruct p.
    + apply Henc; auto with mono. eapply pbc_encode_spec; [assumption | exact Hx |]. unfold encodable in Hen. cbn [leaves] in Hen. now apply Forall_inv in Hen.
    + apply Hneg; auto. eapply pbc_negate_tree; [apply Hi | apply Hx | exact Hu |]. unfold encodable in Hen. cbn [leaves] in Hen. now apply Forall_inv in Hen.
Qed.

Theorem nnf_rec_spec : forall fuel p x W s h, inv W s -> hdl s h x -> encodable s x -> (ncost p x <= fuel)%nat ->
  xspec W s (nnf_rec fuel h p) (nres p x).
Proof.
  induction fuel as [| fuel IH]; intros p x W s h Hi Hx Hen Hfu.
  { exfalso. destruct x; cbn in Hfu; try destruct p; lia. }
  cbn [nnf_rec].
  assert (Hk : exists o, (if p then nnf_known h else ret None) s = (Ok o, s) /\ match o with Some r => nres p x r s W | None => True end).
  { destruct p; [| exists None; split; [reflexivity | exact I]]. destruct (nnf_known_spec W s h x Hi Hx) as [o [Ho H]]. exists o. split; [assumption |].
    destruct o; [exact H | exact I]. }
  destruct Hk as [o [Ho Hko]]. eapply x_det_bind; [exact Ho |]. destruct o as [r |]; [apply x_ret; assumption |].
  destruct (vh_operands s h (i_wf _ _ Hi) (proj1 Hx)) as [n [Hu _]]. eapply x_unpack_bind; [exact Hu |].
  eapply x_bind; [apply (nnf_body fuel IH p x W s h n); assumption | |].
  { intros r. apply mono_bind; [| intros; apply mono_ret]. destruct p; [| apply mono_ret]. apply mono_bind; [apply mono_lift |].
    intros []; [| apply mono_ret]. apply mono_bind; [apply mono_put | intros; apply mono_put]. }
  intros r s1 W1 Hi1 He1 Hs1 Hr. destruct p.
  - eapply x_bind with (Q1 := fun _ s' W' => ext s1 s' /\ W' = W1); [| intros; apply mono_ret |].
    + eapply x_lift_bind; [reflexivity |]. destruct (on_nnf (cfg_caches (f_config s1))); [| apply x_ret; auto using ext_refl].
      destruct Hr as [y [Hy [R [Nn D]]]].
      eapply x_bind with (Q1 := fun _ s' W' => ext s1 s' /\ inv W1 s' /\ W' = W1); [| intros; apply mono_put |].
      * apply x_put; auto. put_caches. exists x, y. split; [eapply hdl_ext; eauto |]. split; [assumption |]. split; [exact R | split; assumption].
      * intros _ s2 W2 _ _ _ [He2 [Hi2 ->]]. apply x_put; auto.
        -- put_caches. exists y. apply (hdl_ext _ s2) in Hy; [| assumption]. destruct Hy as [H1 [H2 _]]. split; [assumption |]. split; [assumption |]. symmetry. assumption.
        -- intros s' He' _. split; [eapply ext_trans; eauto | reflexivity].
    + intros _ s2 W2 Hi2 _ _ [He2 ->]. apply x_ret; [assumption |]. eapply nres_ext; [exact He2 | apply sub_refl | exact Hr].
  - eapply x_bind with (Q1 := fun _ s' W' => s' = s1 /\ W' = W1); [apply x_ret; auto | intros; apply mono_ret |].
    intros _ s2 W2 Hi2 _ _ [-> ->]. apply x_ret; assumption.
Qed.

Theorem nnf_spec : forall fuel x W s h, inv W s -> hdl s h x -> encodable s x -> (depth x + 5 <= fuel)%nat ->
  xspec W s (nnf fuel h) (pres P_nnf x).
Proof.
  intros fuel x W s h Hi Hx Hen Hfu. unfold nnf. eapply x_conseq; [apply (nnf_rec_spec fuel true x); auto |].
  - pose proof (ncost_depth x true). lia.
  - intros r s' W' _ _ _ H. exact H.
Qed.
