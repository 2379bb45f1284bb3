(** Restriction and substitution. *)
From Coq Require Import NArith ZArith List Bool Lia.
From Verif Require Import Base EncodingModel EncodingProofs Syntax FactoryModel FactoryInv FactoryBasics FactoryProofs FactorySpecs
  FactoryNary FactoryOps EvalProofs ConstraintModel ConstraintProofs OpsModel.
Import ListNotations.
Local Open Scope N_scope.

(* ------------------------------------------------------------------------------------------------------------------ *)
(** * Results as trees *)

(** [h] is a handle of a formula with property [P]. *)
Definition tres (P : fml -> Prop) (h : N) (s : factory) : Prop := vh s h /\ exists y, denotes s h y /\ P y.

Lemma tres_ext : forall P h s s', ext s s' -> tres P h s -> tres P h s'.
Proof. intros P h s s' He [Hv [y [Hd Hp]]]. split; [eapply vh_ext; eauto |]. exists y. split; [eapply denotes_ext; eauto | assumption]. Qed.
Lemma tres_conseq : forall (P Q : fml -> Prop) h s, tres P h s -> (forall y, P y -> Q y) -> tres Q h s.
Proof. intros P Q h s [Hv [y [Hd Hp]]] H. split; [assumption |]. exists y. auto. Qed.

Definition fnary (conj : bool) (l : list fml) : fml := if conj then FAnd l else FOr l.
(** An operand after flattening. *)
Definition fflat (conj : bool) (xs : list fml) (z : fml) : Prop := In z xs \/ exists l, In (fnary conj l) xs /\ In z l.
(** The shape of the result of an n-ary constructor. *)
Definition nary_tree (conj : bool) (xs : list fml) (y : fml) : Prop :=
  y = FTrue \/ y = FFalse \/ fflat conj xs y \/ exists l, y = fnary conj l /\ Forall (fflat conj xs) l.

Lemma denotes_nnode : forall s h conj l x, unpack s h = Ok (nnode conj l) -> denotes s h x -> exists ys, x = fnary conj ys /\ Forall2 (denotes s) l ys.
Proof.
  intros s h conj l x Hu Hd. pose proof (denotes_by_node _ _ _ _ Hu Hd) as H. destruct conj; cbn in H; destruct H as [ys [-> H]]; exists ys; auto.
Qed.

Lemma flat_in_tree : forall s conj ops xs h x, Forall2 (denotes s) ops xs -> flat_in s conj ops h -> denotes s h x -> fflat conj xs x.
Proof.
  intros s conj ops xs h x Hd Hf Hx. destruct Hf as [[Hin _] | [o [l [Ho [Hu Hin]]]]].
  - destruct (Forall2_In_l _ _ _ _ _ _ Hd Hin) as [y [Hy Hdy]]. rewrite (denotes_fun _ _ _ _ Hx Hdy). left. assumption.
  - destruct (Forall2_In_l _ _ _ _ _ _ Hd Ho) as [y [Hy Hdy]]. destruct (denotes_nnode _ _ _ _ _ Hu Hdy) as [ys [-> Hl]].
    destruct (Forall2_In_l _ _ _ _ _ _ Hl Hin) as [z [Hz Hdz]]. rewrite (denotes_fun _ _ _ _ Hx Hdz). right. exists ys. auto.
Qed.

Lemma flat_in_denotes : forall s conj ops xs h, Forall2 (denotes s) ops xs -> flat_in s conj ops h -> exists x, denotes s h x.
Proof.
  intros s conj ops xs h Hd Hf. destruct Hf as [[Hin _] | [o [l [Ho [Hu Hin]]]]].
  - destruct (Forall2_In_l _ _ _ _ _ _ Hd Hin) as [y [Hy Hdy]]. eauto.
  - destruct (Forall2_In_l _ _ _ _ _ _ Hd Ho) as [y [Hy Hdy]]. destruct (denotes_nnode _ _ _ _ _ Hu Hdy) as [ys [-> Hl]].
    destruct (Forall2_In_l _ _ _ _ _ _ Hl Hin) as [z [Hz Hdz]]. eauto.
Qed.

Lemma nary_tree_of : forall s s' conj ops xs r y, ext s s' -> Forall2 (denotes s) ops xs -> nary_shape s s' conj ops r -> denotes s' r y ->
  nary_tree conj xs y.
Proof.
  intros s s' conj ops xs r y He Hd Hsh Hy. destruct Hsh as [-> | [-> | [Hf | [L [Hu HL]]]]].
  - pose proof (denotes_by_node s' (constant true) NTrue _ eq_refl Hy) as Q. cbn in Q. subst y. left. reflexivity.
  - pose proof (denotes_by_node s' (constant false) NFalse _ eq_refl Hy) as Q. cbn in Q. subst y. right. left. reflexivity.
  - right. right. left. destruct (flat_in_denotes _ _ _ _ _ Hd Hf) as [z Hz].
    rewrite (denotes_fun _ _ _ _ Hy (denotes_ext _ _ _ _ He Hz)). eapply flat_in_tree; eauto.
  - right. right. right. destruct (denotes_nnode _ _ _ _ _ Hu Hy) as [ys [-> Hl]]. exists ys. split; [reflexivity |].
    apply Forall_forall. intros z Hz. destruct (Forall2_In_l _ _ (fun a b => denotes s' b a) ys L z) as [h [Hh Hdh]]; [| assumption |].
    { clear -Hl. induction Hl; constructor; auto. }
    destruct (flat_in_denotes _ _ _ _ _ Hd (HL h Hh)) as [w Hw].
    rewrite (denotes_fun _ _ _ _ Hdh (denotes_ext _ _ _ _ He Hw)). eapply flat_in_tree; [exact Hd | apply HL; exact Hh | exact Hw].
Qed.

Lemma fnary_leaves : forall conj l, leaves (fnary conj l) = flat_map leaves l.
Proof. intros [] l; reflexivity. Qed.
Lemma fflat_leaves : forall conj xs z, fflat conj xs z -> incl (leaves z) (flat_map leaves xs).
Proof.
  intros conj xs z [H | [l [H1 H2]]] lf Hl; apply in_flat_map.
  - exists z. auto.
  - exists (fnary conj l). split; [assumption |]. rewrite fnary_leaves. apply in_flat_map. exists z. auto.
Qed.
Lemma nary_tree_leaves : forall conj xs y, nary_tree conj xs y -> incl (leaves y) (flat_map leaves xs).
Proof.
  intros conj xs y [-> | [-> | [H | [l [-> H]]]]]; try (intros ? []).
  - eapply fflat_leaves; eauto.
  - rewrite fnary_leaves. intros lf Hlf. apply in_flat_map in Hlf. destruct Hlf as [z [Hz Hlf]]. rewrite Forall_forall in H.
    eapply fflat_leaves; eauto.
Qed.
Lemma flat_map_fvars : forall xs, flat_map fvars xs = flat_map leaf_vars (flat_map leaves xs).
Proof. induction xs as [| x xs IH]; [reflexivity |]. cbn [flat_map]. rewrite IH, flat_map_app. reflexivity. Qed.
Lemma incl_leaves_fvars : forall x lvs, incl (leaves x) lvs -> incl (fvars x) (flat_map leaf_vars lvs).
Proof. intros x lvs H z Hz. unfold fvars in Hz. apply in_flat_map in Hz. destruct Hz as [lf [Hlf Hz]]. apply in_flat_map. exists lf. auto. Qed.
Lemma nary_tree_fvars : forall conj xs y, nary_tree conj xs y -> incl (fvars y) (flat_map fvars xs).
Proof. intros conj xs y H. rewrite flat_map_fvars. apply incl_leaves_fvars. eapply nary_tree_leaves; eauto. Qed.

(** The n-ary constructors in terms of trees. *)
Lemma f_nary_tree : forall s conj ops xs, wf s -> Forall (vh s) ops -> Forall2 (denotes s) ops xs ->
  spec wf core s (f_nary conj ops) (tres (fun y => (forall v, sem v y = nary_sem conj v xs) /\ nary_tree conj xs y)).
Proof.
  intros s conj ops xs Hw Hv Hd. eapply spec_conseq; [apply nary_result; eassumption |].
  intros r s' _ Hc [[Hvr [y [Hy [Hs _]]]] Hsh]. split; [assumption |]. exists y. split; [assumption |]. split; [assumption |].
  eapply nary_tree_of; eauto. now apply core_ext.
Qed.

(* ------------------------------------------------------------------------------------------------------------------ *)
(** * Lazy operands *)

Lemma mono_nary_lazy : forall conj ms acc, Forall mono ms -> mono (nary_lazy conj acc ms).
Proof.
  intros conj ms. induction ms as [| m ms IH]; intros acc H; cbn [nary_lazy]; [auto with mono |].
  inversion H; subst. apply mono_bind; [assumption |]. intros h. apply mono_bind; [apply mono_lift |]. intros [r |]; [apply IH; assumption | apply mono_ret].
Qed.

(** What [nary_lazy] computes: [ys] are the operands it looked at; the others do not matter. *)
Definition lazy_post (conj : bool) (xs : list fml) (Ps : list (fml -> Prop)) (y : fml) : Prop :=
  exists ys k, Forall2 (fun (P : fml -> Prop) z => P z) (firstn k Ps) ys /\ (forall v, sem v y = nary_sem conj v (xs ++ ys))
    /\ nary_tree conj (xs ++ ys) y /\ (length ys = length Ps \/ forall v, nary_sem conj v (xs ++ ys) = negb conj).

Lemma nary_sem_allv_not : forall s v conj l xs, Forall2 (denotes s) l xs -> ~ allv s v conj l -> nary_sem conj v xs = negb conj.
Proof. intros s v conj l xs Hd H. rewrite (nary_sem_allv s v conj l xs Hd) in H. destruct (nary_sem conj v xs), conj; cbn; congruence. Qed.

Lemma nary_lazy_spec : forall conj ms Ps s acc xs, wf s -> Forall (vh s) acc -> Forall2 (denotes s) acc xs ->
  Forall2 (fun m P => mono m /\ forall t, wf t -> core s t -> spec wf core t m (tres P)) ms Ps ->
  spec wf core s (nary_lazy conj acc ms) (tres (lazy_post conj xs Ps)).
Proof.
  intros conj ms. induction ms as [| m ms IH]; intros Ps s acc xs Hw Hv Hd HF; inversion HF as [| ? P ? Ps' [Hm Hs] HF']; subst; cbn [nary_lazy].
  - eapply spec_conseq; [apply f_nary_tree; eassumption |]. intros r s' _ _ H. eapply tres_conseq; [exact H |].
    intros y [H1 H2]. exists [], 0%nat. rewrite app_nil_r. repeat split; auto. constructor.
  - assert (Hmono : Forall mono ms) by (clear -HF'; induction HF'; constructor; tauto).
    eapply spec_bind; [exact core_trans | apply Hs; [assumption | apply core_refl] | |].
    { intros h. apply mono_bind; [apply mono_lift |]. intros [r |]; [apply mono_nary_lazy; assumption | apply mono_ret]. }
    intros h s1 Hw1 Hc1 [Hvh [z [Hz HP]]]. pose proof (core_ext _ _ Hc1) as He.
    assert (Hv1 : Forall (vh s1) (acc ++ [h])).
    { apply Forall_app. split; [| constructor; auto]. eapply Forall_impl; [| exact Hv]. intros k Hk. eapply vh_ext; eauto. }
    assert (Hd1 : Forall2 (denotes s1) (acc ++ [h]) (xs ++ [z])).
    { apply Forall2_app; [| constructor; auto]. clear -Hd He. induction Hd; constructor; auto. eapply denotes_ext; eauto. }
    pose proof (prepare_nary_spec s1 conj (acc ++ [h]) Hw1 Hv1) as Hp.
    destruct (prepare_nary s1 conj (acc ++ [h])) as [[r |] | |] eqn:E; try contradiction.
    + eapply spec_bind; [exact core_trans | eapply (spec_lift _ wf core s1 _ (Some r) (fun p t => p = Some r /\ t = s1)); auto using core_refl | |].
      { intros [q |]; [apply mono_nary_lazy; assumption | apply mono_ret]. }
      intros p t _ _ [-> ->]. eapply spec_conseq; [apply (IH Ps' s1 (acc ++ [h]) (xs ++ [z])); auto |].
      { clear -HF' Hc1. induction HF' as [| m P ms Ps [H1 H2] HF IH]; constructor; auto. split; [assumption |]. intros t Ht Hct. apply H2; [assumption |].
        eapply core_trans; eauto. }
      intros q t _ _ H. eapply tres_conseq; [exact H |]. intros y [ys [k [H1 [H2 [H3 H4]]]]]. rewrite <- app_assoc in *. cbn [app] in *.
      exists (z :: ys), (S k). cbn [firstn length]. split; [constructor; assumption |]. split; [assumption |]. split; [assumption |].
      destruct H4; [left; lia | right; assumption].
    + eapply spec_bind; [exact core_trans | eapply (spec_lift _ wf core s1 _ None (fun p t => p = None /\ t = s1)); auto using core_refl | |].
      { intros [q |]; [apply mono_nary_lazy; assumption | apply mono_ret]. }
      intros p t _ _ [-> ->]. apply spec_ret; [assumption | apply core_refl |].
      assert (Hsem : forall v, nary_sem conj v (xs ++ [z]) = negb conj) by (intros v; eapply nary_sem_allv_not; eauto).
      split; [apply vh_constant |]. exists (if conj then FFalse else FTrue). split; [destruct conj; constructor; reflexivity |].
      exists [z], 1%nat. split; [cbn [firstn]; constructor; auto |]. split; [intros v; rewrite Hsem; destruct conj; reflexivity |].
      split; [destruct conj; [right; left | left]; reflexivity | right; assumption].
Qed.

(** The operands computed agree with [xs] on the valuations related by [D]; so does the result. *)
Lemma lazy_sem : forall conj (D : valuation -> valuation -> Prop) xs Ps y, lazy_post conj [] Ps y ->
  Forall2 (fun (P : fml -> Prop) x => forall z, P z -> forall v w, D v w -> sem v z = sem w x) Ps xs ->
  forall v w, D v w -> sem v y = nary_sem conj w xs.
Proof.
  intros conj D xs Ps y [ys [k [H1 [H2 [_ H4]]]]] HF v w Hv. cbn [app] in *. rewrite H2.
  assert (Hlen : length ys = length (firstn k Ps)) by (clear -H1; induction H1; cbn; congruence).
  destruct H4 as [H4 | H4].
  - rewrite firstn_length in Hlen. rewrite firstn_all2 in H1 by lia. clear -H1 HF Hv. revert ys H1.
    unfold nary_sem. induction HF as [| P x Ps xs Hx HF IH]; intros ys H1; inversion H1; subst; [reflexivity |].
    destruct conj; cbn [forallb existsb]; rewrite (Hx _ H2 v w Hv); f_equal; apply IH; assumption.
  - specialize (H4 v). rewrite H4. symmetry. clear -H1 HF Hv H4. revert k ys H1 H4.
    unfold nary_sem. induction HF as [| P x Ps xs Hx HF IH]; intros k ys H1 H4.
    + destruct k; cbn [firstn] in H1; inversion H1; subst; exact H4.
    + destruct k as [| k]; cbn [firstn] in H1; inversion H1 as [| ? z ? ys' Hz H1']; subst; [destruct conj; discriminate |].
      specialize (IH k ys' H1'). destruct conj; cbn [forallb existsb] in *; rewrite (Hx _ Hz v w Hv) in H4; destruct (sem w x); cbn in *; auto.
Qed.

Lemma lazy_fvars : forall conj Ps y (S : var -> Prop), lazy_post conj [] Ps y ->
  Forall (fun P : fml -> Prop => forall z, P z -> forall u, In u (fvars z) -> S u) Ps -> forall u, In u (fvars y) -> S u.
Proof.
  intros conj Ps y S [ys [k [H1 [_ [H3 _]]]]] HF u Hu. cbn [app] in *. apply (nary_tree_fvars _ _ _ H3) in Hu.
  apply in_flat_map in Hu. destruct Hu as [z [Hz Hu]].
  assert (HF' : Forall (fun P : fml -> Prop => forall z, P z -> forall u, In u (fvars z) -> S u) (firstn k Ps)).
  { clear -HF. revert k. induction HF; intros [| k]; cbn [firstn]; constructor; auto. }
  clear -H1 HF' Hz Hu. revert HF' Hz. induction H1 as [| P w Qs ws HP H1 IH]; intros HF' Hz; [destruct Hz |]. inversion HF'; subst. destruct Hz as [-> | Hz]; eauto.
Qed.

(* ------------------------------------------------------------------------------------------------------------------ *)
(** * Restriction *)

Lemma mono_restrict : forall fuel a h, mono (restrict fuel a h).
Proof.
  induction fuel as [| fuel IH]; intros a h; cbn [restrict]; [apply mono_nofuel |].
  apply mono_bind; [apply mono_lift |]. intros n. destruct n; auto with mono; try (apply mono_bind; [apply IH |]; intros; auto with mono).
  - apply mono_ret. - apply mono_ret. - apply mono_ret.
  - apply mono_nary_lazy. apply Forall_map. apply Forall_forall. intros; apply IH.
  - apply mono_nary_lazy. apply Forall_map. apply Forall_forall. intros; apply IH.
  - apply mono_bind; [apply IH |]; intros; auto with mono.
  - apply mono_bind; [apply IH |]; intros; auto with mono.
Qed.
Lemma mono_restrict_by : forall fuel a h, mono (restrict_by fuel a h).
Proof.
  induction fuel as [| fuel IH]; intros a h; cbn [restrict_by]; [apply mono_nofuel |].
  apply mono_bind; [apply mono_lift |]. intros n. destruct n; auto with mono; try (apply mono_bind; [apply IH |]; intros; auto with mono).
  - apply mono_ret. - apply mono_ret.
  - destruct (negb _); [apply mono_ret |]. destruct (Bool.eqb _ _); apply mono_ret.
  - apply mono_nary_lazy. apply Forall_map. apply Forall_forall. intros; apply IH.
  - apply mono_nary_lazy. apply Forall_map. apply Forall_forall. intros; apply IH.
  - apply mono_bind; [apply IH |]; intros; auto with mono.
  - apply mono_bind; [apply IH |]; intros; auto with mono.
Qed.
Global Hint Resolve mono_restrict mono_restrict_by : mono.

(** What a leaf must satisfy to be restricted without leaving the number ranges of the code. *)
Definition leaf_restrictable (a : assignment) (lf : leaf) : Prop :=
  match lf with
  | LfPbc p => (sum_abs (pb_coeffs p) + Z.abs (pb_rhs p) < B63)%Z /\ (Z.of_nat (length (pb_lits p)) < 4294967296)%Z
               /\ (pb_cmp p = EQ -> (pb_rhs p - fixed_weight a (pb_lits p) (pb_coeffs p) < 4294967296)%Z)
  | _ => True
  end.
Definition restrictable (a : assignment) (x : fml) : Prop := Forall (leaf_restrictable a) (leaves x).

(** Tree [y] is tree [x] restricted by [a]. *)
Definition rtree (a : assignment) (x y : fml) : Prop :=
  (forall v, extends a v -> sem v y = sem v x) /\ (forall u, In u (fvars y) -> In u (fvars x) /\ unassigned a u).

Lemma in_fvars_fnary : forall conj l x u, In x l -> In u (fvars x) -> In u (fvars (fnary conj l)).
Proof.
  intros conj l x u Hx Hu. unfold fvars in *. rewrite fnary_leaves. apply in_flat_map in Hu. destruct Hu as [lf [H1 H2]].
  apply in_flat_map. exists lf. split; [| assumption]. apply in_flat_map. exists x. auto.
Qed.
Lemma fvars_impl : forall a b, fvars (FImpl a b) = fvars a ++ fvars b.
Proof. intros. unfold fvars. cbn [leaves]. apply flat_map_app. Qed.
Lemma fvars_equiv : forall a b, fvars (FEquiv a b) = fvars a ++ fvars b.
Proof. intros. unfold fvars. cbn [leaves]. apply flat_map_app. Qed.
Lemma sem_fnary : forall conj v l, sem v (fnary conj l) = nary_sem conj v l.
Proof. intros [] v l; reflexivity. Qed.

(** A binary constructor. *)
Lemma result_tres : forall s h S lvs (P : fml -> Prop), result s h S lvs -> (forall y, (forall v, sem v y = S v) -> incl (leaves y) lvs -> P y) -> tres P h s.
Proof. intros s h S lvs P [Hv [y [Hd [Hs Hl]]]] H. split; [assumption |]. exists y. auto. Qed.
Lemma result_v_tres : forall s h S vs (P : fml -> Prop), result_v s h S vs -> (forall y, (forall v, sem v y = S v) -> incl (fvars y) vs -> P y) -> tres P h s.
Proof. intros s h S vs P [Hv [y [Hd [Hs Hl]]]] H. split; [assumption |]. exists y. auto. Qed.

Lemma spec_unpack : forall A s h n (k : node -> M A) Q, unpack s h = Ok n -> spec wf core s (k n) Q ->
  spec wf core s (bind (lift (fun s => unpack s h)) k) Q.
Proof. intros A s h n k Q Hu [H1 H2]. unfold spec, bind, lift in *. rewrite Hu. split; assumption. Qed.

(** Mapping a function over the operands of an n-ary node. *)
Lemma nary_map_spec : forall conj (f : N -> M N) (P : fml -> fml -> Prop) s ks xs, wf s -> Forall2 (denotes s) ks xs -> Forall (vh s) ks ->
  (forall k, mono (f k)) ->
  (forall x, In x xs -> forall t k, wf t -> core s t -> vh t k -> denotes t k x -> spec wf core t (f k) (tres (P x))) ->
  spec wf core s (nary_lazy conj [] (map f ks)) (tres (lazy_post conj [] (map P xs))).
Proof.
  intros conj f P s ks xs Hw Hd Hv Hm H. apply nary_lazy_spec; [assumption | constructor | constructor |].
  revert Hv H. induction Hd as [| k x ks xs Hk Hd IH]; intros Hv H; cbn [map]; constructor.
  - inversion Hv; subst. split; [apply Hm |]. intros t Ht Hct. apply H; auto; [left; reflexivity | eapply vh_ext; eauto | eapply denotes_ext; eauto]; now apply core_ext.
  - inversion Hv; subst. apply IH; [assumption |]. intros y Hy. apply H. right. assumption.
Qed.

(** The operands of a node. *)
Lemma good_vh : forall s h, good s h -> vh s h.
Proof. intros s h [H _]. exact H. Qed.
Lemma vh_node : forall s h n, wf s -> vh s h -> unpack s h = Ok n -> Forall (vh s) (node_operands n).
Proof.
  intros s h n Hw Hv Hu. destruct (vh_operands s h Hw Hv) as [m [Hm Hg]]. assert (m = n) by congruence. subst.
  eapply Forall_impl; [apply good_vh | exact Hg].
Qed.

Lemma restricted_tres : forall s a vs S h x, restricted s a vs S h -> (forall v, S v = sem v x) -> incl vs (fvars x) -> tres (rtree a x) h s.
Proof.
  intros s a vs S h x [Hv [y [Hd [Hs Hf]]]] HS Hi. split; [assumption |]. exists y. split; [assumption |]. split.
  - intros v He. rewrite Hs by assumption. apply HS.
  - intros u Hu. destruct (Hf u Hu). auto.
Qed.
Lemma rtree_lazy : forall conj a xs y, lazy_post conj [] (map (rtree a) xs) y -> rtree a (fnary conj xs) y.
Proof.
  intros conj a xs y H. split.
  - intros v He. rewrite sem_fnary. apply (lazy_sem conj (fun v w => v = w /\ extends a v) xs _ _ H); [| auto].
    clear. induction xs; cbn [map]; constructor; auto. intros z [Hz _] v w [-> He]. auto.
  - refine (lazy_fvars conj _ _ (fun u => In u (fvars (fnary conj xs)) /\ unassigned a u) H _). apply Forall_map. apply Forall_forall.
    intros x Hx z [_ Hz] u Hu. destruct (Hz u Hu). split; [eapply in_fvars_fnary; eauto | assumption].
Qed.
Lemma restrictable_in : forall conj a l x, restrictable a (fnary conj l) -> In x l -> restrictable a x.
Proof.
  intros conj a l x H Hx. unfold restrictable in *. rewrite fnary_leaves in H. apply Forall_forall. intros lf Hlf. rewrite Forall_forall in H.
  apply H. apply in_flat_map. exists x. auto.
Qed.

(** Everything but the literals. *)
Lemma restrict_body : forall a s x h, wf s -> vh s h -> denotes s h x -> restrictable a x ->
  forall (f : N -> M N) (Hm : forall k, mono (f k)) (m : M N)
    (Hf : forall y, (depth y < depth x)%nat -> restrictable a y -> forall t k, wf t -> core s t -> vh t k -> denotes t k y -> spec wf core t (f k) (tres (rtree a y)))
    (Hl : forall l, x = FLit l -> spec wf core s m (tres (rtree a x))),
  (forall n, unpack s h = Ok n -> match n with
     | NLit l => True
     | NEquiv l r => m = (l' <-- f l ;; r' <-- f r ;; f_equivalence l' r')
     | NImpl l r => m = (l' <-- f l ;; r' <-- f r ;; f_implication l' r')
     | NOr ops => m = nary_lazy false [] (map f ops)
     | NAnd ops => m = nary_lazy true [] (map f ops)
     | NNot o => m = (o' <-- f o ;; f_not o')
     | NTrue | NFalse => m = ret h
     | NPbc p => m = pbc_restrict p a
     | NCc c => m = cc_restrict c a
     end) ->
  spec wf core s m (tres (rtree a x)).
Proof.
  intros a s x h Hw Hv Hd Hr f Hmf m Hf Hl Hm.
  assert (Hself : tres (fun y => y = x) h s) by (split; eauto).
  destruct x as [| | l | x1 | l | l | x1 x2 | x1 x2 | c | p]; pose proof (denotes_inv _ _ _ Hd) as Hu; cbn in Hu.
  - rewrite (Hm _ Hu). apply spec_ret; auto using core_refl. eapply tres_conseq; [exact Hself |]. intros y ->. split; [reflexivity | intros ? []].
  - rewrite (Hm _ Hu). apply spec_ret; auto using core_refl. eapply tres_conseq; [exact Hself |]. intros y ->. split; [reflexivity | intros ? []].
  - apply (Hl l eq_refl).
  - destruct Hu as [k [Hu Hk]]. rewrite (Hm _ Hu). pose proof (vh_node s h _ Hw Hv Hu) as Hvo. inversion Hvo; subst.
    eapply spec_bind; [exact core_trans | apply (Hf x1); auto using core_refl; cbn [depth]; lia | intros; mono_tac |].
    intros k' s1 Hw1 Hc1 [Hvk [y [Hy [Hy1 Hy2]]]]. eapply spec_conseq; [apply f_not_result; eassumption |]. intros r s2 _ _ Hres.
    eapply result_tres; [exact Hres |]. intros z Hz1 Hz2. split; [intros v He; rewrite Hz1, Hy1 by assumption; reflexivity |].
    intros u Hin. apply Hy2, (incl_leaves_fvars _ _ Hz2), Hin.
  - destruct Hu as [ks [Hu Hk]]. rewrite (Hm _ Hu). pose proof (vh_node s h _ Hw Hv Hu) as Hvo.
    eapply spec_conseq; [apply (nary_map_spec true f (rtree a) s ks l); auto |].
    { intros x Hx t k Ht Hct Hvk Hdk. apply Hf; auto; [cbn [depth]; pose proof (depth_in x l Hx); lia | eapply (restrictable_in true); eauto]. }
    intros r t _ _ H. eapply tres_conseq; [exact H |]. apply (rtree_lazy true).
  - destruct Hu as [ks [Hu Hk]]. rewrite (Hm _ Hu). pose proof (vh_node s h _ Hw Hv Hu) as Hvo.
    eapply spec_conseq; [apply (nary_map_spec false f (rtree a) s ks l); auto |].
    { intros x Hx t k Ht Hct Hvk Hdk. apply Hf; auto; [cbn [depth]; pose proof (depth_in x l Hx); lia | eapply (restrictable_in false); eauto]. }
    intros r t _ _ H. eapply tres_conseq; [exact H |]. apply (rtree_lazy false).
  - destruct Hu as [k1 [k2 [Hu [Hk1 Hk2]]]]. rewrite (Hm _ Hu). pose proof (vh_node s h _ Hw Hv Hu) as Hvo. cbn [node_operands] in Hvo.
    inversion Hvo as [| ? ? Hv1 Hvo']; subst. inversion Hvo' as [| ? ? Hv2 _]; subst.
    unfold restrictable in Hr. cbn [leaves] in Hr. apply Forall_app in Hr. destruct Hr as [Hr1 Hr2].
    eapply spec_bind; [exact core_trans | apply (Hf x1); auto using core_refl; cbn [depth]; lia | intros; mono_tac |].
    intros k1' s1 Hw1 Hc1 [Hvk1 [y1 [Hy1 [Hs1 Hf1]]]]. pose proof (core_ext _ _ Hc1) as He1.
    eapply spec_bind; [exact core_trans | apply (Hf x2); auto; [cbn [depth]; lia | eapply vh_ext; eauto | eapply denotes_ext; eauto] | intros; mono_tac |].
    intros k2' s2 Hw2 Hc2 [Hvk2 [y2 [Hy2 [Hs2 Hf2]]]]. pose proof (core_ext _ _ Hc2) as He2.
    eapply spec_conseq; [apply (f_implication_result s2 k1' k2' y1 y2); auto; [eapply vh_ext; eauto | eapply denotes_ext; eauto] |].
    intros r s3 _ _ Hres. eapply result_tres; [exact Hres |]. intros z Hz1 Hz2.
    split; [intros v He; rewrite Hz1, Hs1, Hs2 by assumption; reflexivity |].
    intros u Hin. apply (incl_leaves_fvars _ _ Hz2) in Hin. rewrite flat_map_app in Hin. rewrite fvars_impl.
    apply in_app_or in Hin. destruct Hin as [Hin | Hin]; [destruct (Hf1 u Hin) | destruct (Hf2 u Hin)]; (split; [apply in_or_app |]); auto.
  - destruct Hu as [k1 [k2 [Hu [Hk1 Hk2]]]]. rewrite (Hm _ Hu). pose proof (vh_node s h _ Hw Hv Hu) as Hvo. cbn [node_operands] in Hvo.
    inversion Hvo as [| ? ? Hv1 Hvo']; subst. inversion Hvo' as [| ? ? Hv2 _]; subst.
    unfold restrictable in Hr. cbn [leaves] in Hr. apply Forall_app in Hr. destruct Hr as [Hr1 Hr2].
    eapply spec_bind; [exact core_trans | apply (Hf x1); auto using core_refl; cbn [depth]; lia | intros; mono_tac |].
    intros k1' s1 Hw1 Hc1 [Hvk1 [y1 [Hy1 [Hs1 Hf1]]]]. pose proof (core_ext _ _ Hc1) as He1.
    eapply spec_bind; [exact core_trans | apply (Hf x2); auto; [cbn [depth]; lia | eapply vh_ext; eauto | eapply denotes_ext; eauto] | intros; mono_tac |].
    intros k2' s2 Hw2 Hc2 [Hvk2 [y2 [Hy2 [Hs2 Hf2]]]]. pose proof (core_ext _ _ Hc2) as He2.
    eapply spec_conseq; [apply (f_equivalence_result s2 k1' k2' y1 y2); auto; [eapply vh_ext; eauto | eapply denotes_ext; eauto] |].
    intros r s3 _ _ Hres. eapply result_tres; [exact Hres |]. intros z Hz1 Hz2.
    split; [intros v He; rewrite Hz1, Hs1, Hs2 by assumption; reflexivity |].
    intros u Hin. apply (incl_leaves_fvars _ _ Hz2) in Hin. rewrite flat_map_app in Hin. rewrite fvars_equiv.
    apply in_app_or in Hin. destruct Hin as [Hin | Hin]; [destruct (Hf1 u Hin) | destruct (Hf2 u Hin)]; (split; [apply in_or_app |]); auto.
  - rewrite (Hm _ Hu). destruct (unpack_cc_vh s h c Hw Hv Hu) as [_ [H1 [H2 H3]]].
    eapply spec_conseq; [apply cc_restrict_spec; assumption |]. intros r t _ _ H. eapply restricted_tres; [exact H | reflexivity |].
    unfold fvars. cbn. rewrite app_nil_r. apply incl_refl.
  - rewrite (Hm _ Hu). destruct (unpack_pbc_vh s h p Hw Hv Hu) as [_ [H1 [H2 H3]]].
    pose proof (Forall_inv Hr) as [Hb1 [Hb2 Hb3]].
    eapply spec_conseq; [apply pbc_restrict_spec; assumption |]. intros r t _ _ H. eapply restricted_tres; [exact H | reflexivity |].
    unfold fvars. cbn. rewrite app_nil_r. apply incl_refl.
Qed.

Lemma fvars_lit : forall l, fvars (FLit l) = [lit_var l].
Proof. reflexivity. Qed.

Lemma restrict_lit_tree : forall s a l, cap s -> lit_ok s l -> tres (rtree a (FLit l)) (restrict_lit a l) s.
Proof.
  intros s a l Hc Hl. unfold restrict_lit. destruct (memv (lit_var l) (a_pos a)) eqn:E1; [| destruct (memv (lit_var l) (a_neg a)) eqn:E2].
  - apply memv_In in E1. split; [apply vh_constant |]. exists (if lit_phase l then FTrue else FFalse). split; [destruct (lit_phase l); constructor; reflexivity |].
    split; [| destruct (lit_phase l); intros ? []]. intros v He. destruct l as [x p]. cbn [lit_phase lit_var sem lit_sem] in *. rewrite (proj1 (He x) E1). destruct p; reflexivity.
  - apply memv_In in E2. split; [apply vh_constant |]. exists (if lit_phase l then FFalse else FTrue). split; [destruct (lit_phase l); constructor; reflexivity |].
    split; [| destruct (lit_phase l); intros ? []]. intros v He. destruct l as [x p]. cbn [lit_phase lit_var sem lit_sem] in *. rewrite (proj2 (He x) E2). destruct p; reflexivity.
  - apply memv_false in E1, E2. split; [apply vh_lit; assumption |]. exists (FLit l). split; [apply d_lit, unpack_lit; assumption |].
    split; [reflexivity |]. intros u [<- | []]. split; [left; reflexivity | split; assumption].
Qed.

Theorem restrict_spec : forall a fuel s x h, wf s -> vh s h -> denotes s h x -> restrictable a x -> (depth x < fuel)%nat ->
  spec wf core s (restrict fuel a h) (tres (rtree a x)).
Proof.
  intros a fuel. induction fuel as [| fuel IH]; intros s x h Hw Hv Hd Hr Hfu; [lia |]. cbn [restrict].
  destruct (vh_operands s h Hw Hv) as [n [Hu _]]. eapply spec_unpack; [exact Hu |]. cbn beta.
  eapply (restrict_body a s x h Hw Hv Hd Hr (restrict fuel a)); [auto with mono | | |].
  - intros y Hy Hry t k Ht _ Hvk Hk. apply IH; auto. lia.
  - intros l ->. pose proof (denotes_inv _ _ _ Hd) as Hl. cbn in Hl. rewrite Hl in Hu. injection Hu as <-.
    destruct (vcase_lit_ok s h l (wf_cap s Hw) Hv Hl) as [-> Hlo]. apply spec_ret; auto using core_refl. apply restrict_lit_tree; [apply wf_cap |]; assumption.
  - intros n' Hn'. assert (n' = n) by congruence. subst. destruct n; auto.
Qed.

Theorem restrict_by_spec : forall lit fuel s x h, wf s -> vh s h -> denotes s h x -> restrictable (asg_of_lit lit) x -> (depth x < fuel)%nat ->
  spec wf core s (restrict_by fuel lit h) (tres (rtree (asg_of_lit lit) x)).
Proof.
  intros lit fuel. induction fuel as [| fuel IH]; intros s x h Hw Hv Hd Hr Hfu; [lia |]. cbn [restrict_by].
  destruct (vh_operands s h Hw Hv) as [n [Hu _]]. eapply spec_unpack; [exact Hu |]. cbn beta.
  eapply (restrict_body (asg_of_lit lit) s x h Hw Hv Hd Hr (restrict_by fuel lit)); [auto with mono | | |].
  - intros y Hy Hry t k Ht _ Hvk Hk. apply IH; auto. lia.
  - intros l ->. pose proof (denotes_inv _ _ _ Hd) as Hl. cbn in Hl. rewrite Hl in Hu. injection Hu as <-.
    destruct (vcase_lit_ok s h l (wf_cap s Hw) Hv Hl) as [-> Hlo].
    pose proof (restrict_lit_tree s (asg_of_lit lit) l (wf_cap s Hw) Hlo) as H.
    assert (E : (if negb (var_eqb (lit_var l) (lit_var lit)) then ret (encode_lit l) else if Bool.eqb (lit_phase l) (lit_phase lit) then ret verum else ret falsum)
                = ret (restrict_lit (asg_of_lit lit) l)).
    { unfold restrict_lit, asg_of_lit, memv. destruct (var_eqb (lit_var l) (lit_var lit)) eqn:E, (lit_phase l), (lit_phase lit);
        cbn [a_pos a_neg existsb negb Bool.eqb]; rewrite ?E; reflexivity. }
    rewrite E. apply spec_ret; auto using core_refl.
  - intros n' Hn'. assert (n' = n) by congruence. subst. destruct n; auto.
Qed.

(* ------------------------------------------------------------------------------------------------------------------ *)
(** * Substitution *)

Lemma mono_subst_lit : forall sg l, mono (subst_lit sg l).
Proof. intros. unfold subst_lit. destruct (assoc _ _ _); [destruct (lit_phase l) |]; auto with mono; apply mono_ret. Qed.
Global Hint Resolve mono_subst_lit : mono.
Lemma mono_subst_vars : forall sg vs lits z, mono (subst_vars sg vs lits z).
Proof.
  intros sg vs. induction vs as [| u vs IH]; intros; cbn [subst_vars]; [apply mono_ret |]. apply mono_bind; [auto with mono |]. intros g.
  destruct (_ =? _); [apply IH |]. apply mono_bind; [apply mono_lift |]. intros n. destruct n; try apply IH; try apply mono_fail.
  destruct (lit_phase l); [apply IH | apply mono_fail].
Qed.
Lemma mono_subst_lits : forall sg ls cs lits zs z, mono (subst_lits sg ls cs lits zs z).
Proof.
  intros sg ls. induction ls as [| u ls IH]; intros; destruct cs; cbn [subst_lits]; try apply mono_ret. apply mono_bind; [auto with mono |]. intros g.
  destruct (_ =? _); [apply IH |]. apply mono_bind; [apply mono_lift |]. intros n. destruct n; try apply IH; apply mono_fail.
Qed.
Global Hint Resolve mono_subst_vars mono_subst_lits : mono.
Lemma mono_subst_cc : forall sg c, mono (subst_cc sg c).
Proof. intros. unfold subst_cc. apply mono_bind; [auto with mono |]. intros [[| ? ?] ?]; cbn [fst snd]; [apply mono_ret | auto with mono]. Qed.
Lemma mono_subst_pbc : forall sg c, mono (subst_pbc sg c).
Proof. intros. unfold subst_pbc. apply mono_bind; [auto with mono |]. intros [[[| ? ?] ?] ?]; [apply mono_ret | auto with mono]. Qed.
Global Hint Resolve mono_subst_cc mono_subst_pbc : mono.
Lemma mono_substitute : forall fuel sg h, mono (substitute fuel sg h).
Proof.
  induction fuel as [| fuel IH]; intros a h; cbn [substitute]; [apply mono_nofuel |].
  apply mono_bind; [apply mono_lift |]. intros n.
  destruct n; auto with mono; try apply mono_ret; try (apply mono_nary_lazy; apply Forall_map; apply Forall_forall; intros; apply IH);
    repeat (apply mono_bind; [apply IH |]; intros); auto with mono.
Qed.
Global Hint Resolve mono_substitute : mono.

(** [w] is the valuation [v] after replacing the variables by the formulas (of state [s0]). *)
Definition sub_val (s0 : factory) (sg : substitution) (v w : valuation) : Prop :=
  forall u, match assoc var_eqb u sg with Some g => forall y, denotes s0 g y -> w u = sem v y | None => w u = v u end.
(** The variables a substituted formula may have. *)
Definition sub_var (s0 : factory) (sg : substitution) (vs : list var) (u : var) : Prop :=
  (In u vs /\ assoc var_eqb u sg = None) \/ exists u' g y, In u' vs /\ assoc var_eqb u' sg = Some g /\ denotes s0 g y /\ In u (fvars y).
Definition stree (s0 : factory) (sg : substitution) (x y : fml) : Prop :=
  (forall v w, sub_val s0 sg v w -> sem v y = sem w x) /\ (forall u, In u (fvars y) -> sub_var s0 sg (fvars x) u).

Lemma sub_var_incl : forall s0 sg vs vs' u, incl vs vs' -> sub_var s0 sg vs u -> sub_var s0 sg vs' u.
Proof. intros s0 sg vs vs' u H [[H1 H2] | [u' [g [y [H1 H2]]]]]; [left | right; exists u', g, y]; auto. Qed.

Definition sg_ok (s0 : factory) (sg : substitution) : Prop := forall u g, assoc var_eqb u sg = Some g -> good s0 g.

(** The replacement of [u], if there is one, is a constant or a literal. *)
Definition simple_image (s0 : factory) (sg : substitution) (pos : bool) (u : var) : Prop :=
  forall g, assoc var_eqb u sg = Some g ->
    denotes s0 g FTrue \/ denotes s0 g FFalse \/ exists k, denotes s0 g (FLit k) /\ (pos = true -> lit_phase k = true).

Lemma subst_lit_spec : forall s0 sg s l, sg_ok s0 sg -> wf s -> ext s0 s -> lit_ok s l ->
  spec wf core s (subst_lit sg l) (tres (stree s0 sg (FLit l))).
Proof.
  intros s0 sg s [u p] Hsg Hw He Hl. unfold subst_lit. cbn [lit_var lit_phase]. destruct (assoc var_eqb u sg) as [g |] eqn:E.
  - destruct (Hsg u g E) as [Hv [y Hy]].
    assert (Hfv : forall z, incl (fvars z) (fvars y) -> forall k, In k (fvars z) -> sub_var s0 sg (fvars (FLit (Lit u p))) k).
    { intros z Hz k Hk. right. exists u, g, y. split; [left; reflexivity |]. auto. }
    destruct p.
    + apply spec_ret; auto using core_refl. split; [eapply vh_ext; eauto |]. exists y. split; [eapply denotes_ext; eauto |].
      split; [| apply Hfv, incl_refl]. intros v w Hvw. specialize (Hvw u). rewrite E in Hvw. symmetry. exact (Hvw y Hy).
    + eapply spec_conseq; [apply (f_negate_result s g y); [assumption | eapply vh_ext; eauto | eapply denotes_ext; eauto] |].
      intros r t _ _ H. eapply result_v_tres; [exact H |]. intros z Hz1 Hz2. split; [| apply Hfv; assumption].
      intros v w Hvw. specialize (Hvw u). rewrite E in Hvw. rewrite Hz1. cbn [sem lit_sem]. rewrite (Hvw y Hy). reflexivity.
  - apply spec_ret; auto using core_refl. split; [apply vh_lit; assumption |]. exists (FLit (Lit u p)).
    split; [apply d_lit, unpack_lit; [apply wf_cap |]; assumption |]. split.
    + intros v w Hvw. specialize (Hvw u). rewrite E in Hvw. cbn [sem lit_sem]. rewrite Hvw. reflexivity.
    + intros k [<- | []]. left. split; [left; reflexivity | assumption].
Qed.

(** With a simple replacement the result is a constant or a literal. *)
Definition simple_tree (pos : bool) (y : fml) : Prop := y = FTrue \/ y = FFalse \/ exists k, y = FLit k /\ (pos = true -> lit_phase k = true).

Lemma subst_lit_simple : forall s0 sg s l pos, sg_ok s0 sg -> wf s -> ext s0 s -> lit_ok s l -> simple_image s0 sg pos (lit_var l) ->
  (pos = true -> lit_phase l = true) ->
  spec wf core s (subst_lit sg l) (tres (fun y => stree s0 sg (FLit l) y /\ simple_tree pos y)).
Proof.
  intros s0 sg s [u p] pos Hsg Hw He Hl Hsi Hp. unfold subst_lit. cbn [lit_var lit_phase] in *. destruct (assoc var_eqb u sg) as [g |] eqn:E.
  - specialize (Hsi g E). destruct (Hsg u g E) as [Hv [y Hy]].
    assert (Hfv : forall z, incl (fvars z) (fvars y) -> forall k, In k (fvars z) -> sub_var s0 sg (fvars (FLit (Lit u p))) k).
    { intros z Hz k Hk. right. exists u, g, y. split; [left; reflexivity |]. auto. }
    assert (Hst : simple_tree pos y).
    { destruct Hsi as [H | [H | [k [H Hk]]]]; rewrite (denotes_fun _ _ _ _ Hy H); [left | right; left | right; right; exists k]; auto. }
    destruct p.
    + apply spec_ret; auto using core_refl. split; [eapply vh_ext; eauto |]. exists y. split; [eapply denotes_ext; eauto |]. split; [| assumption].
      split; [| apply Hfv, incl_refl]. intros v w Hvw. specialize (Hvw u). rewrite E in Hvw. symmetry. exact (Hvw y Hy).
    + assert (pos = false) as -> by (destruct pos; [discriminate (Hp eq_refl) | reflexivity]).
      eapply spec_conseq; [apply (f_negate_simple s g y); [assumption | eapply vh_ext; eauto | eapply denotes_ext; eauto |] |].
      { destruct Hst as [-> | [-> | [k [-> _]]]]; reflexivity. }
      intros r t _ _ [Hvr Hdr]. split; [assumption |]. exists (fnot y). split; [assumption |]. split; [split |].
      * intros v w Hvw. specialize (Hvw u). rewrite E in Hvw. cbn [sem lit_sem]. rewrite (Hvw y Hy).
        destruct Hst as [-> | [-> | [[x q] [-> _]]]]; try reflexivity. cbn. destruct (v x), q; reflexivity.
      * apply Hfv. destruct Hst as [-> | [-> | [[x q] [-> _]]]]; cbn; apply incl_refl.
      * destruct Hst as [-> | [-> | [k [-> _]]]]; [right; left | left | right; right]; try reflexivity. cbn. eexists; split; [reflexivity | discriminate].
  - apply spec_ret; auto using core_refl. split; [apply vh_lit; assumption |]. exists (FLit (Lit u p)).
    split; [apply d_lit, unpack_lit; [apply wf_cap |]; assumption |]. split; [split |].
    + intros v w Hvw. specialize (Hvw u). rewrite E in Hvw. cbn [sem lit_sem]. rewrite Hvw. reflexivity.
    + intros k [<- | []]. left. split; [left; reflexivity | assumption].
    + right. right. eexists. split; [reflexivity | exact Hp].
Qed.

(** The handle of a literal or constant, seen by the loops. *)
Lemma simple_unpack : forall s g y pos, denotes s g y -> simple_tree pos y ->
  (y = FTrue /\ unpack s g = Ok NTrue) \/ (y = FFalse /\ unpack s g = Ok NFalse)
  \/ exists k, y = FLit k /\ unpack s g = Ok (NLit k) /\ (pos = true -> lit_phase k = true).
Proof.
  intros s g y pos Hd [-> | [-> | [k [-> Hk]]]]; pose proof (denotes_inv _ _ _ Hd) as Hu; cbn in Hu; [left | right; left | right; right; exists k]; auto.
Qed.

Lemma encode_unpack : forall s l, cap s -> lit_ok s l -> denotes s (encode_lit l) (FLit l).
Proof. intros. apply d_lit, unpack_lit; assumption. Qed.

Definition vars_post (s0 : factory) (sg : substitution) (vs : list var) (lits : list lit) (fixed : Z) (p : list lit * Z) (t : factory) : Prop :=
  exists ls, fst p = lits ++ ls /\ Forall (lit_ok t) ls /\ (fixed <= snd p <= fixed + Z.of_nat (length vs))%Z
    /\ (forall v w, sub_val s0 sg v w -> weight v ls (repeat 1%Z (length ls)) + snd p = fixed + count_true w vs)%Z
    /\ (forall l, In l ls -> sub_var s0 sg vs (lit_var l)).

Lemma subst_vars_spec : forall s0 sg, sg_ok s0 sg -> forall vs s lits fixed, wf s -> ext s0 s -> Forall (var_ok s) vs ->
  Forall (simple_image s0 sg true) vs -> spec wf core s (subst_vars sg vs lits fixed) (vars_post s0 sg vs lits fixed).
Proof.
  intros s0 sg Hsg vs. induction vs as [| u vs IH]; intros s lits fixed Hw He Hv Hsi; cbn [subst_vars].
  { apply spec_ret; auto using core_refl. exists []. cbn [fst snd length app repeat weight count_true]. rewrite app_nil_r.
    repeat split; auto; try lia. intros l []. }
  inversion Hv as [| ? ? Hu Hvs]; subst. inversion Hsi as [| ? ? Hsu Hsis]; subst.
  eapply spec_bind; [exact core_trans | apply (subst_lit_simple s0 sg s (Lit u true) true); auto | intros; mono_tac |].
  intros g s1 Hw1 Hc1 [Hvg [y [Hy [[Hs1 Hs2] Hst]]]]. pose proof (core_ext _ _ Hc1) as He1.
  assert (He01 : ext s0 s1) by (eapply ext_trans; eauto).
  assert (Hvs1 : Forall (var_ok s1) vs) by (eapply Forall_impl; [| exact Hvs]; intros ? Hz; exact (var_ok_ext _ _ _ He1 Hz)).
  assert (Hone : forall k, y = FLit k -> lit_phase k = true ->
    spec wf core s1 (subst_vars sg vs (lits ++ [k]) fixed) (vars_post s0 sg (u :: vs) lits fixed)).
  { intros k -> Hk. destruct (vcase_lit_ok s1 g k (wf_cap s1 Hw1) Hvg (denotes_inv _ _ _ Hy)) as [_ Hok].
    eapply spec_conseq; [apply IH; assumption |]. intros p t _ Hct [ls [H1 [H2 [H3 [H4 H5]]]]]. exists (k :: ls).
    split; [rewrite H1, <- app_assoc; reflexivity |]. split; [constructor; [eapply lit_ok_ext; [apply core_ext; exact Hct | assumption] | assumption] |].
    split; [cbn [length]; lia |]. split.
    - intros v w Hvw. specialize (H4 v w Hvw). specialize (Hs1 v w Hvw). cbn [sem lit_sem] in Hs1. cbn [length repeat weight count_true].
      rewrite Hs1. lia.
    - intros l [<- | Hl].
      + specialize (Hs2 (lit_var k) (or_introl eq_refl)). rewrite fvars_lit in Hs2. eapply sub_var_incl; [| exact Hs2]. intros ? [<- | []]. left. reflexivity.
      + eapply sub_var_incl; [| exact (H5 l Hl)]. apply incl_tl, incl_refl. }
  assert (Hconst : forall (b : bool), y = (if b then FTrue else FFalse) ->
    spec wf core s1 (subst_vars sg vs lits (fixed + (if b then 1 else 0))) (vars_post s0 sg (u :: vs) lits fixed)).
  { intros b ->. eapply spec_conseq; [apply IH; assumption |]. intros p t _ Hct [ls [H1 [H2 [H3 [H4 H5]]]]]. exists ls.
    split; [assumption |]. split; [assumption |]. split; [cbn [length]; destruct b; lia |]. split.
    - intros v w Hvw. specialize (H4 v w Hvw). specialize (Hs1 v w Hvw). cbn [sem lit_sem] in Hs1. cbn [count_true]. rewrite <- Hs1. destruct b; cbn [sem]; lia.
    - intros l Hl. eapply sub_var_incl; [| exact (H5 l Hl)]. apply incl_tl, incl_refl. }
  destruct (N.eqb_spec g (encode_lit (Lit u true))) as [-> | Hne].
  { apply Hone; [| reflexivity]. eapply denotes_fun; [exact Hy |]. apply encode_unpack; [apply wf_cap; assumption |]. exact (var_ok_ext _ _ _ He1 Hu). }
  destruct (simple_unpack _ _ _ _ Hy Hst) as [[-> Hug] | [[-> Hug] | [k [-> [Hug Hk]]]]]; eapply spec_unpack; try exact Hug; cbn beta iota.
  - apply (Hconst true eq_refl).
  - pose proof (Hconst false eq_refl) as H. rewrite Z.add_0_r in H. exact H.
  - specialize (Hk eq_refl). rewrite Hk. apply Hone; auto.
Qed.

Lemma weight_app : forall v ls cs ls' cs', length ls = length cs -> weight v (ls ++ ls') (cs ++ cs') = (weight v ls cs + weight v ls' cs')%Z.
Proof.
  intros v ls. induction ls as [| l ls IH]; intros [| c cs] ls' cs' H; try discriminate; [reflexivity |]. cbn [app weight]. rewrite IH by (cbn in H; lia). lia.
Qed.

Definition lits_post (s0 : factory) (sg : substitution) (ls0 : list lit) (cs0 : list Z) (lits : list lit) (coeffs : list Z) (fixed : Z)
    (p : list lit * list Z * Z) (t : factory) : Prop :=
  exists ls cs, fst (fst p) = lits ++ ls /\ snd (fst p) = coeffs ++ cs /\ length ls = length cs /\ Forall (lit_ok t) ls
    /\ (Z.abs (snd p - fixed) <= sum_abs cs0)%Z /\ incl cs cs0
    /\ (forall v w, sub_val s0 sg v w -> weight v ls cs + snd p = fixed + weight w ls0 cs0)%Z
    /\ (forall l, In l ls -> sub_var s0 sg (map lit_var ls0) (lit_var l)).

Lemma subst_lits_spec : forall s0 sg, sg_ok s0 sg -> forall ls0 cs0 s lits coeffs fixed, wf s -> ext s0 s -> Forall (lit_ok s) ls0 ->
  length ls0 = length cs0 -> (Z.abs fixed + sum_abs cs0 < B63)%Z ->
  Forall (fun l => simple_image s0 sg false (lit_var l)) ls0 ->
  spec wf core s (subst_lits sg ls0 cs0 lits coeffs fixed) (lits_post s0 sg ls0 cs0 lits coeffs fixed).
Proof.
  intros s0 sg Hsg ls0. induction ls0 as [| l0 ls0 IH]; intros [| c0 cs0] s lits coeffs fixed Hw He Hv Hlen Hb Hsi; try discriminate; cbn [subst_lits].
  { apply spec_ret; auto using core_refl. exists [], []. cbn [fst snd length app repeat weight count_true sum_abs fold_right]. rewrite !app_nil_r.
    repeat split; auto; try lia. - intros ? []. - intros ? []. }
  inversion Hv as [| ? ? Hu Hvs]; subst. inversion Hsi as [| ? ? Hsu Hsis]; subst. injection Hlen as Hlen.
  change (sum_abs (c0 :: cs0)) with (Z.abs c0 + sum_abs cs0)%Z in Hb.
  pose proof (sum_abs_nonneg cs0) as Hnn.
  eapply spec_bind; [exact core_trans | apply (subst_lit_simple s0 sg s l0 false); auto; discriminate | intros; mono_tac |].
  intros g s1 Hw1 Hc1 [Hvg [y [Hy [[Hs1 Hs2] Hst]]]]. pose proof (core_ext _ _ Hc1) as He1.
  assert (He01 : ext s0 s1) by (eapply ext_trans; eauto).
  assert (Hvs1 : Forall (lit_ok s1) ls0) by (eapply Forall_impl; [| exact Hvs]; intros ? Hz; exact (lit_ok_ext _ _ _ He1 Hz)).
  assert (Hone : forall k, y = FLit k ->
    spec wf core s1 (subst_lits sg ls0 cs0 (lits ++ [k]) (coeffs ++ [c0]) fixed) (lits_post s0 sg (l0 :: ls0) (c0 :: cs0) lits coeffs fixed)).
  { intros k ->. destruct (vcase_lit_ok s1 g k (wf_cap s1 Hw1) Hvg (denotes_inv _ _ _ Hy)) as [_ Hok].
    eapply spec_conseq; [apply IH; auto; lia |]. intros p t _ Hct [ls [cs [H1 [H2 [H3 [H4 [H5 [H6 [H7 H8]]]]]]]]]. exists (k :: ls), (c0 :: cs).
    change (sum_abs (c0 :: cs0)) with (Z.abs c0 + sum_abs cs0)%Z.
    split; [rewrite H1, <- app_assoc; reflexivity |]. split; [rewrite H2, <- app_assoc; reflexivity |].
    split; [cbn [length]; lia |]. split; [constructor; [eapply lit_ok_ext; [apply core_ext; exact Hct | assumption] | assumption] |].
    split; [lia |]. split; [intros x [<- | Hx]; [left; reflexivity | right; auto] |]. split.
    - intros v w Hvw. specialize (H7 v w Hvw). specialize (Hs1 v w Hvw). cbn [sem] in Hs1. cbn [weight]. rewrite Hs1. lia.
    - intros l [<- | Hl].
      + specialize (Hs2 (lit_var k) (or_introl eq_refl)). rewrite fvars_lit in Hs2. eapply sub_var_incl; [| exact Hs2]. intros ? [<- | []]. left. reflexivity.
      + eapply sub_var_incl; [| exact (H8 l Hl)]. cbn [map]. apply incl_tl, incl_refl. }
  assert (Hconst : forall (b : bool) f', y = (if b then FTrue else FFalse) -> f' = (fixed + (if b then c0 else 0))%Z ->
    spec wf core s1 (subst_lits sg ls0 cs0 lits coeffs f') (lits_post s0 sg (l0 :: ls0) (c0 :: cs0) lits coeffs fixed)).
  { intros b f' -> ->. eapply spec_conseq; [apply IH; auto; destruct b; lia |]. intros p t _ Hct [ls [cs [H1 [H2 [H3 [H4 [H5 [H6 [H7 H8]]]]]]]]].
    exists ls, cs. change (sum_abs (c0 :: cs0)) with (Z.abs c0 + sum_abs cs0)%Z.
    split; [assumption |]. split; [assumption |]. split; [assumption |]. split; [assumption |]. split; [destruct b; lia |].
    split; [apply incl_tl; assumption |]. split.
    - intros v w Hvw. specialize (H7 v w Hvw). specialize (Hs1 v w Hvw). cbn [sem] in Hs1. cbn [weight]. rewrite <- Hs1. destruct b; cbn [sem]; lia.
    - intros l Hl. eapply sub_var_incl; [| exact (H8 l Hl)]. cbn [map]. apply incl_tl, incl_refl. }
  destruct (N.eqb_spec g (encode_lit l0)) as [-> | Hne].
  { apply Hone. eapply denotes_fun; [exact Hy |]. apply encode_unpack; [apply wf_cap; assumption |]. exact (lit_ok_ext _ _ _ He1 Hu). }
  destruct (simple_unpack _ _ _ _ Hy Hst) as [[-> Hug] | [[-> Hug] | [k [-> [Hug Hk]]]]]; eapply spec_unpack; try exact Hug; cbn beta iota.
  - apply (Hconst true _ eq_refl). apply wrap64_id. unfold B63 in *. lia.
  - apply (Hconst false _ eq_refl). lia.
  - apply Hone; auto.
Qed.

(** What a leaf must satisfy to be substituted: the code panics if a variable of a constraint is replaced by anything else. *)
Definition leaf_substitutable (s0 : factory) (sg : substitution) (lf : leaf) : Prop :=
  match lf with
  | LfVar _ => True
  | LfCc c => Forall (simple_image s0 sg true) (cc_vars c) /\ (Z.of_nat (length (cc_vars c)) < 4611686018427387904)%Z
  | LfPbc p => Forall (simple_image s0 sg false) (map lit_var (pb_lits p))
               /\ (sum_abs (pb_coeffs p) + Z.abs (pb_rhs p) < B63)%Z
               /\ ((pb_rhs p + sum_abs (pb_coeffs p) < 4294967296)%Z \/ ~ In 1%Z (pb_coeffs p))
  end.
Definition substitutable (s0 : factory) (sg : substitution) (x : fml) : Prop := Forall (leaf_substitutable s0 sg) (leaves x).

Lemma subst_cc_spec : forall s0 sg s c, sg_ok s0 sg -> wf s -> ext s0 s -> Forall (var_ok s) (cc_vars c) -> cc_rhs c < 4294967296 ->
  leaf_substitutable s0 sg (LfCc c) -> spec wf core s (subst_cc sg c) (tres (stree s0 sg (FCc c))).
Proof.
  intros s0 sg s c Hsg Hw He Hv Hr [Hsi Hn]. unfold subst_cc.
  eapply spec_bind; [exact core_trans | apply subst_vars_spec; eassumption | |].
  { intros [[| ? ?] ?]; cbn [fst snd]; [apply mono_ret | auto with mono]. }
  intros [lits fixed] s1 Hw1 Hc1 [ls [H1 [H2 [H3 [H4 H5]]]]]. cbn [fst snd app] in *. subst lits.
  destruct ls as [| l0 lr].
  - apply spec_ret; auto using core_refl. set (b := evaluate_comparator _ _ _). split; [apply vh_constant |].
    exists (if b then FTrue else FFalse). split; [destruct b; constructor; reflexivity |]. split; [| destruct b; intros ? []].
    intros v w Hvw. specialize (H4 v w Hvw). cbn [length repeat weight] in H4. cbn [sem]. unfold cc_sem. replace (count_true w (cc_vars c)) with fixed by lia.
    rewrite <- evaluate_comparator_sem. fold b. destruct b; reflexivity.
  - remember (l0 :: lr) as ls. rewrite wrap64_id by lia.
    eapply spec_conseq; [apply f_pbc_result; auto; [rewrite repeat_length; reflexivity | intros _; lia] |].
    intros r t _ _ H. eapply result_v_tres; [exact H |]. intros y Hy1 Hy2. split.
    + intros v w Hvw. specialize (H4 v w Hvw). rewrite Hy1. cbn [sem]. unfold cc_sem.
      replace (count_true w (cc_vars c)) with (fixed + weight v ls (repeat 1%Z (length ls)))%Z by lia. apply cmp_shift.
    + intros u Hu. apply Hy2 in Hu. apply in_map_iff in Hu. destruct Hu as [l [<- Hl]]. unfold fvars. cbn [leaves flat_map leaf_vars]. rewrite app_nil_r. auto.
Qed.

Lemma subst_pbc_spec : forall s0 sg s p, sg_ok s0 sg -> wf s -> ext s0 s -> Forall (lit_ok s) (pb_lits p) -> length (pb_lits p) = length (pb_coeffs p) ->
  leaf_substitutable s0 sg (LfPbc p) -> spec wf core s (subst_pbc sg p) (tres (stree s0 sg (FPbc p))).
Proof.
  intros s0 sg s p Hsg Hw He Hv Hlen [Hsi [Hb Hfit]]. unfold subst_pbc.
  eapply spec_bind; [exact core_trans | apply (subst_lits_spec s0 sg Hsg); auto; [cbn; lia | now apply Forall_map] | |].
  { intros [[[| ? ?] ?] ?]; [apply mono_ret | auto with mono]. }
  intros [[lits coeffs] fixed] s1 Hw1 Hc1 [ls [cs [H1 [H2 [H3 [H4 [H5 [H6 [H7 H8]]]]]]]]]. cbn [fst snd app] in *. subst lits coeffs.
  destruct ls as [| l0 lr].
  - apply spec_ret; auto using core_refl. set (b := evaluate_comparator _ _ _). split; [apply vh_constant |].
    exists (if b then FTrue else FFalse). split; [destruct b; constructor; reflexivity |]. split; [| destruct b; intros ? []].
    intros v w Hvw. specialize (H7 v w Hvw). cbn [weight] in H7. cbn [sem]. unfold pbc_sem. replace (weight w (pb_lits p) (pb_coeffs p)) with fixed by lia.
    rewrite <- evaluate_comparator_sem. fold b. destruct b; reflexivity.
  - unfold B63 in *. rewrite wrap64_id by lia.
    eapply spec_conseq; [apply f_pbc_result; auto |].
    { intros Hcc. destruct Hfit as [Hfit | Hfit]; [lia |]. exfalso. unfold is_lit_cc in Hcc. apply andb_true_iff in Hcc. destruct Hcc as [Hcc _].
      apply andb_true_iff in Hcc. destruct Hcc as [_ Hcc]. destruct cs as [| c1 cr]; [discriminate |]. cbn [forallb] in Hcc. apply andb_true_iff in Hcc.
      destruct Hcc as [Hcc _]. apply Z.eqb_eq in Hcc. subst c1. apply Hfit, H6. left. reflexivity. }
    intros r t _ _ H. eapply result_v_tres; [exact H |]. intros y Hy1 Hy2. split.
    + intros v w Hvw. specialize (H7 v w Hvw). rewrite Hy1. cbn [sem]. unfold pbc_sem.
      replace (weight w (pb_lits p) (pb_coeffs p)) with (fixed + weight v (l0 :: lr) cs)%Z by lia. apply cmp_shift.
    + intros u Hu. apply Hy2 in Hu. apply in_map_iff in Hu. destruct Hu as [l [<- Hl]]. unfold fvars. cbn [leaves flat_map leaf_vars]. rewrite app_nil_r. auto.
Qed.

Lemma stree_lazy : forall conj s0 sg xs y, lazy_post conj [] (map (stree s0 sg) xs) y -> stree s0 sg (fnary conj xs) y.
Proof.
  intros conj s0 sg xs y H. split.
  - intros v w Hvw. rewrite sem_fnary. apply (lazy_sem conj (sub_val s0 sg) xs _ _ H); [| auto].
    clear. induction xs; cbn [map]; constructor; auto. intros z [Hz _] v w Hvw. auto.
  - refine (lazy_fvars conj _ _ (fun u => sub_var s0 sg (fvars (fnary conj xs)) u) H _). apply Forall_map. apply Forall_forall.
    intros x Hx z [_ Hz] u Hu. eapply sub_var_incl; [| exact (Hz u Hu)]. intros k Hk. eapply in_fvars_fnary; eauto.
Qed.
Lemma substitutable_in : forall conj s0 sg l x, substitutable s0 sg (fnary conj l) -> In x l -> substitutable s0 sg x.
Proof.
  intros conj s0 sg l x H Hx. unfold substitutable in *. rewrite fnary_leaves in H. apply Forall_forall. intros lf Hlf. rewrite Forall_forall in H.
  apply H. apply in_flat_map. exists x. auto.
Qed.

Theorem substitute_spec : forall s0 sg fuel, sg_ok s0 sg -> forall s x h, wf s -> ext s0 s -> vh s h -> denotes s h x -> substitutable s0 sg x ->
  (depth x < fuel)%nat -> spec wf core s (substitute fuel sg h) (tres (stree s0 sg x)).
Proof.
  intros s0 sg fuel Hsg. induction fuel as [| fuel IH]; intros s x h Hw He Hv Hd Hr Hfu; [lia |]. cbn [substitute].
  assert (Hself : tres (fun y => y = x) h s) by (split; eauto).
  destruct x as [| | l | x1 | l | l | x1 x2 | x1 x2 | c | p]; pose proof (denotes_inv _ _ _ Hd) as Hu; cbn in Hu.
  - eapply spec_unpack; [exact Hu |]. cbn beta iota. apply spec_ret; auto using core_refl. eapply tres_conseq; [exact Hself |]. intros y ->. split; [reflexivity | intros ? []].
  - eapply spec_unpack; [exact Hu |]. cbn beta iota. apply spec_ret; auto using core_refl. eapply tres_conseq; [exact Hself |]. intros y ->. split; [reflexivity | intros ? []].
  - eapply spec_unpack; [exact Hu |]. cbn beta iota. apply subst_lit_spec; auto. destruct (vcase_lit_ok s h l (wf_cap s Hw) Hv Hu). assumption.
  - destruct Hu as [k [Hu Hk]]. eapply spec_unpack; [exact Hu |]. cbn beta iota. pose proof (vh_node s h _ Hw Hv Hu) as Hvo. inversion Hvo; subst.
    cbn [depth] in Hfu. eapply spec_bind; [exact core_trans | apply (IH s x1); auto; lia | intros; mono_tac |].
    intros k' s1 Hw1 Hc1 [Hvk [y [Hy [Hy1 Hy2]]]]. eapply spec_conseq; [apply f_negate_result; eassumption |]. intros r s2 _ _ Hres.
    eapply result_v_tres; [exact Hres |]. intros z Hz1 Hz2. split; [intros v w Hvw; rewrite Hz1, (Hy1 v w Hvw); reflexivity |].
    intros u Hin. apply Hy2, Hz2, Hin.
  - destruct Hu as [ks [Hu Hk]]. eapply spec_unpack; [exact Hu |]. cbn beta iota. pose proof (vh_node s h _ Hw Hv Hu) as Hvo. cbn [depth] in Hfu.
    eapply spec_conseq; [apply (nary_map_spec true _ (stree s0 sg) s ks l); auto with mono |].
    { intros x Hx t k Ht Hct Hvk Hdk. apply IH; auto; [eapply ext_trans; eauto; now apply core_ext | eapply (substitutable_in true); eauto |].
      pose proof (depth_in x l Hx); lia. }
    intros r t _ _ H. eapply tres_conseq; [exact H |]. apply (stree_lazy true).
  - destruct Hu as [ks [Hu Hk]]. eapply spec_unpack; [exact Hu |]. cbn beta iota. pose proof (vh_node s h _ Hw Hv Hu) as Hvo. cbn [depth] in Hfu.
    eapply spec_conseq; [apply (nary_map_spec false _ (stree s0 sg) s ks l); auto with mono |].
    { intros x Hx t k Ht Hct Hvk Hdk. apply IH; auto; [eapply ext_trans; eauto; now apply core_ext | eapply (substitutable_in false); eauto |].
      pose proof (depth_in x l Hx); lia. }
    intros r t _ _ H. eapply tres_conseq; [exact H |]. apply (stree_lazy false).
  - destruct Hu as [k1 [k2 [Hu [Hk1 Hk2]]]]. eapply spec_unpack; [exact Hu |]. cbn beta iota. pose proof (vh_node s h _ Hw Hv Hu) as Hvo. cbn [node_operands] in Hvo.
    inversion Hvo as [| ? ? Hv1 Hvo']; subst. inversion Hvo' as [| ? ? Hv2 _]; subst. cbn [depth] in Hfu.
    unfold substitutable in Hr. cbn [leaves] in Hr. apply Forall_app in Hr. destruct Hr as [Hr1 Hr2].
    eapply spec_bind; [exact core_trans | apply (IH s x1); auto; lia | intros; mono_tac |].
    intros k1' s1 Hw1 Hc1 [Hvk1 [y1 [Hy1 [Hs1 Hf1]]]]. pose proof (core_ext _ _ Hc1) as He1.
    eapply spec_bind; [exact core_trans | apply (IH s1 x2); auto; [eapply ext_trans; eauto | eapply vh_ext; eauto | eapply denotes_ext; eauto | lia] | intros; mono_tac |].
    intros k2' s2 Hw2 Hc2 [Hvk2 [y2 [Hy2 [Hs2 Hf2]]]]. pose proof (core_ext _ _ Hc2) as He2.
    eapply spec_conseq; [apply (f_implication_result s2 k1' k2' y1 y2); auto; [eapply vh_ext; eauto | eapply denotes_ext; eauto] |].
    intros r s3 _ _ Hres. eapply result_tres; [exact Hres |]. intros z Hz1 Hz2.
    split; [intros v w Hvw; rewrite Hz1, (Hs1 v w Hvw), (Hs2 v w Hvw); reflexivity |].
    intros u Hin. apply (incl_leaves_fvars _ _ Hz2) in Hin. rewrite flat_map_app in Hin. rewrite fvars_impl.
    apply in_app_or in Hin. destruct Hin as [Hin | Hin]; [eapply sub_var_incl; [| exact (Hf1 u Hin)] | eapply sub_var_incl; [| exact (Hf2 u Hin)]];
      [apply incl_appl | apply incl_appr]; apply incl_refl.
  - destruct Hu as [k1 [k2 [Hu [Hk1 Hk2]]]]. eapply spec_unpack; [exact Hu |]. cbn beta iota. pose proof (vh_node s h _ Hw Hv Hu) as Hvo. cbn [node_operands] in Hvo.
    inversion Hvo as [| ? ? Hv1 Hvo']; subst. inversion Hvo' as [| ? ? Hv2 _]; subst. cbn [depth] in Hfu.
    unfold substitutable in Hr. cbn [leaves] in Hr. apply Forall_app in Hr. destruct Hr as [Hr1 Hr2].
    eapply spec_bind; [exact core_trans | apply (IH s x1); auto; lia | intros; mono_tac |].
    intros k1' s1 Hw1 Hc1 [Hvk1 [y1 [Hy1 [Hs1 Hf1]]]]. pose proof (core_ext _ _ Hc1) as He1.
    eapply spec_bind; [exact core_trans | apply (IH s1 x2); auto; [eapply ext_trans; eauto | eapply vh_ext; eauto | eapply denotes_ext; eauto | lia] | intros; mono_tac |].
    intros k2' s2 Hw2 Hc2 [Hvk2 [y2 [Hy2 [Hs2 Hf2]]]]. pose proof (core_ext _ _ Hc2) as He2.
    eapply spec_conseq; [apply (f_equivalence_result s2 k1' k2' y1 y2); auto; [eapply vh_ext; eauto | eapply denotes_ext; eauto] |].
    intros r s3 _ _ Hres. eapply result_tres; [exact Hres |]. intros z Hz1 Hz2.
    split; [intros v w Hvw; rewrite Hz1, (Hs1 v w Hvw), (Hs2 v w Hvw); reflexivity |].
    intros u Hin. apply (incl_leaves_fvars _ _ Hz2) in Hin. rewrite flat_map_app in Hin. rewrite fvars_equiv.
    apply in_app_or in Hin. destruct Hin as [Hin | Hin]; [eapply sub_var_incl; [| exact (Hf1 u Hin)] | eapply sub_var_incl; [| exact (Hf2 u Hin)]];
      [apply incl_appl | apply incl_appr]; apply incl_refl.
  - eapply spec_unpack; [exact Hu |]. cbn beta iota. destruct (unpack_cc_vh s h c Hw Hv Hu) as [_ [H1 [H2 H3]]].
    apply subst_cc_spec; auto. exact (Forall_inv Hr).
  - eapply spec_unpack; [exact Hu |]. cbn beta iota. destruct (unpack_pbc_vh s h p Hw Hv Hu) as [_ [H1 [H2 H3]]].
    apply subst_pbc_spec; auto. exact (Forall_inv Hr).
Qed.
