(** Conjunctions and disjunctions built by the factory from parts without common variables, or from exclusive parts. *)
From Coq Require Import NArith List Bool Arith Lia Permutation.
From Verif Require Import Base EncodingModel EncodingProofs Syntax FactoryModel FactoryInv FactoryBasics FactoryProofs FactorySpecs FactoryNary
  FactoryOps InvariantSpec HashConsProofs OpsProofs CacheModel WorldProofs NnfProofs XHistoryProofs DnnfSpec.
Import ListNotations.
Local Open Scope N_scope.

Lemma feq_refl : forall x, feq x x.
Proof.
  induction x using fml_ind2; try (constructor; assumption).
  - apply fe_and with l; [| apply Permutation_refl]. induction H; constructor; auto.
  - apply fe_or with l; [| apply Permutation_refl]. induction H; constructor; auto.
Qed.
Definition is_nary (conj : bool) (z : fml) : Prop := exists l, z = fnary conj l.
(** An operand after flattening. *)
Definition pflat (conj : bool) (xs : list fml) (z : fml) : Prop :=
  (In z xs /\ ~ is_nary conj z) \/ exists l, In (fnary conj l) xs /\ In z l.

Lemma forall2_nodup : forall s l xs, wf s -> Forall (vh s) l -> Forall2 (denotes s) l xs -> NoDup l -> NoDup xs.
Proof.
  intros s l xs Hw Hv H. induction H as [| h x l xs Hx H IH]; intros N; [constructor |]. inversion Hv; subst. inversion N; subst. constructor; [| auto].
  intros K. destruct (Forall2_In_r _ _ _ _ _ _ H K) as (h' & Hh & Hd). rewrite Forall_forall in H3. assert (h = h') by (eapply handles_canonical; eauto; apply feq_refl). congruence.
Qed.
Lemma fnary_node : forall s h conj l, wf s -> vh s h -> denotes s h (fnary conj l) -> exists k, unpack s h = Ok (nnode conj k) /\ Forall2 (denotes s) k l /\ ops_ok s conj k /\ Forall (vh s) k /\ formula_type_of h = Some (if conj then TAnd else TOr).
Proof.
  intros s h conj l Hw Hv Hd. apply denotes_inv in Hd. destruct conj; cbn [fnary nnode] in *; destruct Hd as (k & Hu & Hk); exists k.
  - destruct (vh_and_inv s h k Hw Hv Hu) as (i & E & Hi). split; auto. split; auto. split; [apply (wf_and_ops s Hw i k Hi) |]. split; [exact (node_ops_vh s h _ Hw Hv Hu) |].
    clear E. vh_cases (vh_case s h (wf_cap s Hw) Hv); congruence.
  - destruct (vh_or_inv s h k Hw Hv Hu) as (i & E & Hi). split; auto. split; auto. split; [apply (wf_or_ops s Hw i k Hi) |]. split; [exact (node_ops_vh s h _ Hw Hv Hu) |].
    clear E. vh_cases (vh_case s h (wf_cap s Hw) Hv); congruence.
Qed.
Lemma ops_shape : forall s h conj l, wf s -> vh s h -> denotes s h (fnary conj l) -> NoDup l /\ forall z, In z l -> ~ is_nary conj z.
Proof.
  intros s h conj l Hw Hv Hd. destruct (fnary_node s h conj l Hw Hv Hd) as (k & Hu & Hk & Ho & Hvk & _). split.
  - eapply forall2_nodup; eauto. apply Ho.
  - intros z Hz (m & ->). destruct (Forall2_In_r _ _ _ _ _ _ Hk Hz) as (h' & Hh & Hd'). rewrite Forall_forall in Hvk.
    destruct (fnary_node s h' conj m Hw (Hvk _ Hh) Hd') as (_ & _ & _ & _ & _ & T). pose proof (oo_flat _ _ _ Ho) as K. rewrite Forall_forall in K. specialize (K _ Hh _ T). destruct conj; discriminate.
Qed.

(** The result of an n-ary constructor. *)
Definition nary_shape (conj : bool) (xs : list fml) (y : fml) : Prop :=
  y = FTrue \/ y = FFalse \/ (pflat conj xs y /\ ~ is_nary conj y) \/ exists l, y = fnary conj l /\ NoDup l /\ (forall z, In z l -> pflat conj xs z /\ ~ is_nary conj z).
Lemma is_nary_dec : forall conj z, is_nary conj z \/ ~ is_nary conj z.
Proof. intros [|] z; destruct z; try (right; intros (m & E); discriminate); left; eexists; reflexivity. Qed.
Lemma fflat_pflat : forall conj xs z, fflat conj xs z -> ~ is_nary conj z -> pflat conj xs z.
Proof. intros conj xs z [H | H] N; [left; auto | right; auto]. Qed.
Lemma shape_of_tree : forall s h conj xs y, wf s -> vh s h -> denotes s h y -> (forall z, In z xs -> exists k, vh s k /\ denotes s k z) -> nary_tree conj xs y -> nary_shape conj xs y.
Proof.
  intros s h conj xs y Hw Hv Hd Hx T. destruct (is_nary_dec conj y) as [(l & ->) | N].
  - right. right. right. exists l. split; auto. destruct (ops_shape s h conj l Hw Hv Hd) as [Nd Hn]. split; auto. intros z Hz. split; [| auto].
    destruct T as [E | [E | [[H | (m & H1 & H2)] | (m & E & H)]]]; try (destruct conj; discriminate).
    + right. exists l. auto.
    + exfalso. destruct (Hx _ H1) as (k & K1 & K2). destruct (ops_shape s k conj m Hw K1 K2) as [_ K]. apply (K _ H2). exists l. reflexivity.
    + assert (l = m) by (destruct conj; cbn [fnary] in E; congruence). subst m. rewrite Forall_forall in H. apply fflat_pflat; auto.
  - destruct T as [-> | [-> | [H | (m & E & _)]]]; [left; auto | right; left; auto | | exfalso; apply N; exists m; exact E]. right. right. left. split; [apply fflat_pflat; auto | exact N].
Qed.

Lemma run_nary : forall conj ops ys W s r s', inv W s -> Forall2 (hdl s) ops ys -> f_nary conj ops s = (Ok r, s') -> cap s' ->
  inv W s' /\ ext s s' /\ exists y, hdl s' r y /\ (forall v, sem v y = nary_sem conj v ys) /\ nary_shape conj ys y /\ incl (fvars y) (flat_map fvars ys).
Proof.
  intros conj ops ys W s r s' Hi Ho E Hc. destruct (x_run _ _ _ _ _ _ _ (x_nary conj ops ys W s Hi Ho) E Hc) as (a & W' & Ea & Hi' & _ & He & -> & _ & y & Hy & Sy & Ty).
  injection Ea as <-. split; auto. split; auto. exists y. split; auto. split; auto. split; [| eapply nary_tree_fvars; eauto].
  eapply shape_of_tree; [apply Hi' | apply Hy | apply Hy | | exact Ty]. intros z Hz. destruct (Forall2_In_r _ _ _ _ _ _ Ho Hz) as (k & _ & Hk). exists k. pose proof (hdl_ext _ _ _ _ He Hk) as Hk'. split; apply Hk'.
Qed.

(* ------------------------------------------------------------------------------------------------------------------ *)
Lemma dnnf_and_iff : forall l, dnnf (FAnd l) <-> ForallOrdPairs disjoint_vars l /\ Forall dnnf l.
Proof.
  intros l. cbn [dnnf]. split; intros [H K]; split; auto; clear H.
  - induction l as [| y l IH]; constructor; [apply K | apply IH, K].
  - induction K; split; auto.
Qed.
Lemma dnnf_or_iff : forall l, dnnf (FOr l) <-> ForallOrdPairs exclusive l /\ Forall dnnf l.
Proof.
  intros l. cbn [dnnf]. split; intros [H K]; split; auto; clear H.
  - induction l as [| y l IH]; constructor; [apply K | apply IH, K].
  - induction K; split; auto.
Qed.
Lemma fop_of : forall A (R : A -> A -> Prop) l, NoDup l -> (forall a b, In a l -> In b l -> a = b \/ R a b) -> ForallOrdPairs R l.
Proof.
  intros A R l. induction l as [| x l IH]; intros N H; constructor.
  - apply Forall_forall. intros y Hy. inversion N; subst. destruct (H x y) as [-> | K]; [left; auto | right; auto | contradiction | exact K].
  - inversion N; subst. apply IH; auto. intros a b Ha Hb. apply H; right; auto.
Qed.
Lemma fop_in : forall A (R : A -> A -> Prop) l a b, (forall x y, R x y -> R y x) -> ForallOrdPairs R l -> In a l -> In b l -> a = b \/ R a b.
Proof.
  intros A R l a b Sy H. induction H as [| x l Hx H IH]; [intros [] |]. rewrite Forall_forall in Hx. intros [-> | Ha] [-> | Hb]; auto.
Qed.
Lemma disjoint_sym : forall a b, disjoint_vars a b -> disjoint_vars b a.
Proof. intros a b H u Hu K. exact (H u K Hu). Qed.
Lemma exclusive_sym : forall a b, exclusive a b -> exclusive b a.
Proof. intros a b H v. rewrite andb_comm. apply H. Qed.

Lemma pflat_dnnf : forall conj xs z, (forall x, In x xs -> dnnf x) -> pflat conj xs z -> dnnf z.
Proof.
  intros conj xs z H [[K _] | (l & K1 & K2)]; [auto |]. specialize (H _ K1). destruct conj; cbn [fnary] in H; [apply dnnf_and_iff in H | apply dnnf_or_iff in H]; destruct H as [_ H]; rewrite Forall_forall in H; auto.
Qed.
Lemma pflat_one : forall conj xs z, pflat conj xs z -> exists x, In x xs /\ pflat conj [x] z.
Proof. intros conj xs z [[K N] | (l & K1 & K2)]; [exists z; split; auto; left; split; auto; left; auto | exists (fnary conj l); split; auto; right; exists l; split; [left; auto | auto]]. Qed.
Lemma pflat_in : forall conj xs x z, In x xs -> pflat conj [x] z -> pflat conj xs z.
Proof. intros conj xs x z Hx [[[<- | []] N] | (l & [-> | []] & K2)]; [left; auto | right; exists l; auto]. Qed.
Lemma fvars_nary : forall conj l, fvars (fnary conj l) = flat_map fvars l.
Proof. intros [|] l; [apply fvars_and | apply fvars_or]. Qed.
Lemma pflat_fvars : forall conj x z, pflat conj [x] z -> incl (fvars z) (fvars x).
Proof.
  intros conj x z [[[<- | []] N] | (l & [-> | []] & K2)]; [apply incl_refl |]. rewrite fvars_nary. intros u Hu. apply in_flat_map. exists z. auto.
Qed.
(** The parts of one operand. *)
Lemma pflat_same : forall x a b, dnnf x -> pflat true [x] a -> pflat true [x] b -> a = b \/ disjoint_vars a b.
Proof.
  intros x a b D [[[<- | []] Na] | (l & [-> | []] & Ka)] [[[<- | []] Nb] | (m & [E | []] & Kb)]; auto.
  - exfalso. apply Na. exists m. exact E.
  - exfalso. apply Nb. exists l. reflexivity.
  - cbn [fnary] in E. injection E as <-. apply dnnf_and_iff in D. eapply fop_in; [apply disjoint_sym | apply D | |]; auto.
Qed.
Lemma sem_pflat : forall v x z, sem v x = true -> pflat true [x] z -> sem v z = true.
Proof.
  intros v x z H [[[<- | []] Nz] | (l & [-> | []] & K)]; [exact H |]. cbn [fnary sem] in H. rewrite forallb_forall in H. auto.
Qed.
Lemma sem_pflat_or : forall v x z, sem v z = true -> pflat false [x] z -> sem v x = true.
Proof.
  intros v x z H [[[<- | []] Nz] | (l & [-> | []] & K)]; [exact H |]. cbn [fnary sem]. apply existsb_exists. exists z. auto.
Qed.
Lemma dnnf_conj : forall xs y, (forall x, In x xs -> dnnf x) -> nary_shape true xs y -> (forall a b, pflat true xs a -> pflat true xs b -> a = b \/ disjoint_vars a b) -> dnnf y.
Proof.
  intros xs y Hx [-> | [-> | [[K _] | (l & -> & N & K)]]] H; [exact I | exact I | eapply pflat_dnnf; eauto |]. cbn [fnary]. apply dnnf_and_iff. split.
  - apply fop_of; auto. intros a b Ha Hb. apply H; apply K; auto.
  - apply Forall_forall. intros z Hz. eapply pflat_dnnf; [exact Hx | apply K, Hz].
Qed.
(** A disjunction of exclusive formulas. *)
Lemma dnnf_disj : forall xs y, (forall x, In x xs -> dnnf x) -> nary_shape false xs y -> (forall a b, In a xs -> In b xs -> a = b \/ exclusive a b) -> dnnf y.
Proof.
  intros xs y Hx [-> | [-> | [[K _] | (l & -> & N & K)]]] H; [exact I | exact I | eapply pflat_dnnf; eauto |]. cbn [fnary]. apply dnnf_or_iff. split.
  - apply fop_of; auto. intros a b Ha Hb. destruct (pflat_one _ _ _ (proj1 (K _ Ha))) as (xa & I1 & P1). destruct (pflat_one _ _ _ (proj1 (K _ Hb))) as (xb & I2 & P2).
    destruct (H _ _ I1 I2) as [<- | E].
    + destruct P1 as [[[<- | []] Na] | (k & [-> | []] & Ka)]; destruct P2 as [[[<- | []] Nb] | (m & [E | []] & Kb)]; auto.
      * exfalso. apply Na. exists m. exact E.
      * exfalso. apply Nb. exists k. reflexivity.
      * cbn [fnary] in E. injection E as <-. specialize (Hx _ I1). apply dnnf_or_iff in Hx. eapply fop_in; [apply exclusive_sym | apply Hx | |]; auto.
    + right. intros v. destruct (sem v a) eqn:Sa; [| reflexivity]. destruct (sem v b) eqn:Sb; [| reflexivity]. rewrite <- (E v), (sem_pflat_or _ _ _ Sa P1), (sem_pflat_or _ _ _ Sb P2). reflexivity.
  - apply Forall_forall. intros z Hz. eapply pflat_dnnf; [exact Hx | apply K, Hz].
Qed.

Definition satisfiable (x : fml) : Prop := exists v, sem v x = true.
Lemma conj_sat : forall xs, ForallOrdPairs disjoint_vars xs -> (forall x, In x xs -> satisfiable x) -> exists v, forallb (sem v) xs = true.
Proof.
  intros xs H. induction H as [| x xs Hx H IH]; intros S; [exists (fun _ => false); reflexivity |]. rewrite Forall_forall in Hx.
  destruct (S x (or_introl eq_refl)) as (vx & Sx). destruct IH as (v & Sv); [intros y Hy; apply S; right; auto |].
  exists (fun u => if in_dec var_dec u (fvars x) then vx u else v u). cbn [forallb]. apply andb_true_iff. split.
  - rewrite <- Sx. apply sem_fvars. intros u Hu. destruct (in_dec var_dec u (fvars x)); [reflexivity | contradiction].
  - rewrite forallb_forall in *. intros y Hy. rewrite <- (Sv y Hy). apply sem_fvars. intros u Hu. destruct (in_dec var_dec u (fvars x)) as [K | K]; [| reflexivity]. exfalso. exact (Hx y Hy u K Hu).
Qed.
Lemma entails_lit_var : forall y l, satisfiable y -> (forall v, sem v y = true -> sem v (FLit l) = true) -> In (lit_var l) (fvars y).
Proof.
  intros y l (v & Sv) H. destruct (in_dec var_dec (lit_var l) (fvars y)) as [K | K]; [exact K |]. exfalso.
  assert (E : sem (upd v (lit_var l) (negb (v (lit_var l)))) y = true) by (rewrite <- Sv; apply sem_indep; exact K).
  apply H in E. apply H in Sv. destruct l as [u p]; cbn [sem lit_var lit_sem] in *. unfold upd in E. rewrite var_eqb_refl' in E. destruct p; cbn in *; destruct (v u); discriminate.
Qed.

(** A conjunction of formulas without common variables. *)
Record conjoined (xs : list fml) (y : fml) : Prop := {
  cj_sem : forall v, sem v y = forallb (sem v) xs;
  cj_vars : incl (fvars y) (flat_map fvars xs);
  cj_dnnf : dnnf y;
  cj_sat : satisfiable y;
  cj_lits : forall l, pflat true xs (FLit l) -> pflat true [y] (FLit l) }.
Lemma conjoined_intro : forall xs y, ForallOrdPairs disjoint_vars xs -> (forall x, In x xs -> dnnf x /\ satisfiable x) ->
  (forall v, sem v y = forallb (sem v) xs) -> incl (fvars y) (flat_map fvars xs) -> nary_shape true xs y -> conjoined xs y.
Proof.
  intros xs y Dj Hx Sy Vy Sh. assert (PD : forall a b, pflat true xs a -> pflat true xs b -> a = b \/ disjoint_vars a b).
  { intros a b Ha Hb. destruct (pflat_one _ _ _ Ha) as (xa & I1 & P1). destruct (pflat_one _ _ _ Hb) as (xb & I2 & P2).
    destruct (fop_in _ _ _ xa xb disjoint_sym Dj I1 I2) as [<- | D]; [eapply pflat_same; eauto; apply Hx; exact I1 |]. right. intros u Hu K. exact (D u (pflat_fvars _ _ _ P1 u Hu) (pflat_fvars _ _ _ P2 u K)). }
  assert (St : satisfiable y) by (destruct (conj_sat xs Dj) as (v & Hv); [intros x K; apply Hx; exact K | exists v; rewrite Sy; exact Hv]).
  constructor; auto.
  - eapply dnnf_conj; [intros x K; apply Hx; exact K | exact Sh | exact PD].
  - intros l Pl. assert (Ent : forall v, sem v y = true -> sem v (FLit l) = true).
    { intros v Hv. rewrite Sy, forallb_forall in Hv. destruct (pflat_one _ _ _ Pl) as (x & I1 & P1). exact (sem_pflat _ _ _ (Hv _ I1) P1). }
    pose proof (entails_lit_var y l St Ent) as Vl. assert (Lv : In (lit_var l) (fvars (FLit l))) by (destruct l; left; reflexivity).
    destruct Sh as [-> | [-> | [[K N] | (k & -> & N & K)]]]; [destruct Vl | destruct Vl | |].
    + destruct (PD _ _ Pl K) as [<- | D]; [left; split; [left |]; auto | exfalso; exact (D _ Lv Vl)].
    + cbn [fnary] in Vl. rewrite fvars_and in Vl. apply in_flat_map in Vl. destruct Vl as (z & Hz & Vz). destruct (PD _ _ Pl (proj1 (K z Hz))) as [-> | D]; [right; exists k; split; [left |]; auto | exfalso; exact (D _ Lv Vz)].
Qed.
Lemma run_conj : forall ops xs W s r s', inv W s -> Forall2 (hdl s) ops xs -> f_and ops s = (Ok r, s') -> cap s' -> ForallOrdPairs disjoint_vars xs -> (forall x, In x xs -> dnnf x /\ satisfiable x) ->
  inv W s' /\ ext s s' /\ exists y, hdl s' r y /\ conjoined xs y.
Proof.
  intros ops xs W s r s' Hi Ho E Hc Dj Hx. destruct (run_nary true ops xs W s r s' Hi Ho E Hc) as (Hi' & He & y & Hy & Sy & Sh & Vy). split; auto. split; auto. exists y. split; auto. apply conjoined_intro; auto.
Qed.
(** A literal and a formula of which it is a part. *)
Lemma run_absorb : forall h k l y W s r s', inv W s -> hdl s h (FLit l) -> hdl s k y -> f_and [h; k] s = (Ok r, s') -> cap s' -> dnnf y -> pflat true [y] (FLit l) ->
  inv W s' /\ ext s s' /\ exists z, hdl s' r z /\ dnnf z /\ (forall v, sem v z = sem v y) /\ incl (fvars z) (fvars y).
Proof.
  intros h k l y W s r s' Hi Hh Hk E Hc D P. assert (Ho : Forall2 (hdl s) [h; k] [FLit l; y]) by (constructor; [exact Hh | constructor; [exact Hk | constructor]]).
  destruct (run_nary true _ _ W s r s' Hi Ho E Hc) as (Hi' & He & z & Hz & Sz & Sh & Vz). split; auto. split; auto. exists z. split; auto.
  assert (PP : forall a, pflat true [FLit l; y] a -> pflat true [y] a).
  { intros a Ha. destruct (pflat_one _ _ _ Ha) as (x & [<- | [<- | []]] & K); [| exact K]. destruct K as [[[<- | []] _] | (m & [F | []] & _)]; [exact P | discriminate]. }
  split; [| split].
  - eapply dnnf_conj; [| exact Sh |]; [intros x [<- | [<- | []]]; [exact I | exact D] |]. intros a b Ha Hb. eapply pflat_same; eauto.
  - intros v. rewrite Sz. cbn [nary_sem forallb]. rewrite andb_true_r. destruct (sem v y) eqn:Sv; [| apply andb_false_r]. now rewrite (sem_pflat _ _ _ Sv P).
  - intros u Hu. apply Vz in Hu. apply in_flat_map in Hu. destruct Hu as (x & [<- | [<- | []]] & Hu); [| exact Hu]. exact (pflat_fvars _ _ _ P u Hu).
Qed.
Lemma run_disj : forall ops xs W s r s', inv W s -> Forall2 (hdl s) ops xs -> f_or ops s = (Ok r, s') -> cap s' -> (forall x, In x xs -> dnnf x) -> (forall a b, In a xs -> In b xs -> a = b \/ exclusive a b) ->
  inv W s' /\ ext s s' /\ exists y, hdl s' r y /\ dnnf y /\ (forall v, sem v y = existsb (sem v) xs) /\ incl (fvars y) (flat_map fvars xs).
Proof.
  intros ops xs W s r s' Hi Ho E Hc Hx Ex. destruct (run_nary false ops xs W s r s' Hi Ho E Hc) as (Hi' & He & y & Hy & Sy & Sh & Vy). split; auto. split; auto. exists y. split; auto. split; [eapply dnnf_disj; eauto | auto].
Qed.
