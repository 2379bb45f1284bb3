(** Restriction and substitution keep stored implications and equivalences rebuildable; so do all histories of constructor calls, restrictions,
    substitutions, transformations, encodings, predicates and metrics. *)
From Coq Require Import NArith ZArith List Bool Lia Arith.
From Verif Require Import Base EncodingModel EncodingProofs Syntax FactoryModel FactoryInv FactoryBasics FactoryProofs FactorySpecs FactoryNary FactoryOps
  HashConsProofs EvalProofs HistoryModel HistoryProofs ConstraintModel ConstraintProofs OpsModel OpsProofs CcModel CcFrontProofs
  PbModel CacheModel TransModel TreeSpec WorldProofs MetricsProofs EncodeProofs NnfProofs CnfProofs DefBasics TseitinProofs PgProofs EncoderProofs PureProofs AnonProofs XHistory XHistoryProofs ParserRebuild XFrame.
Import ListNotations.
Local Open Scope N_scope.

Definition pp {A} (s : factory) (m : M A) : Prop := forall r s', m s = (Ok r, s') -> cap s' -> pinv s -> pinv s'.

Lemma pp_ret : forall A s (a : A), pp s (ret a).
Proof. intros A s a r s' E _ H. injection E as _ <-. exact H. Qed.
Lemma pp_fr : forall A s (m : M A) Q, fr m -> spec wf core s m Q -> pp s m.
Proof.
  intros A s m Q Hf Hs r s' E Hc Hp. destruct (spec_run _ _ _ _ _ _ _ _ Hs E Hc) as [a [_ [_ [Hcore _]]]].
  eapply pinv_frame_run; eauto. now apply core_ext.
Qed.
Lemma pp_bind : forall A B s (m : M A) (k : A -> M B) Q, spec wf core s m Q -> pp s m -> (forall a, mono (k a)) ->
  (forall a s1, wf s1 -> core s s1 -> Q a s1 -> pp s1 (k a)) -> pp s (bind m k).
Proof.
  intros A B s m k Q Hs Hp Hm Hk r s' E Hc Hi. unfold bind in E. destruct (m s) as [[a | |] s1] eqn:E1; try discriminate.
  assert (Hc1 : cap s1) by (eapply cap_le; [| exact Hc]; pose proof (Hm a s1) as M; rewrite E in M; exact M).
  destruct (spec_run _ _ _ _ _ _ _ _ Hs E1 Hc1) as [a' [Ea [Hw1 [Hcore HQ]]]]. injection Ea as <-.
  eapply (Hk a s1); eauto.
Qed.
Lemma pp_implication : forall s l r x y, wf s -> vh s l -> vh s r -> denotes s l x -> denotes s r y -> pp s (f_implication l r).
Proof.
  intros s l r x y Hw Vl Vr Dl Dr h s' E Hc Hp. destruct (spec_run _ _ _ _ _ _ _ _ (f_implication_result s l r x y Hw Vl Vr Dl Dr) E Hc) as [a [_ [_ [Hcore _]]]].
  exact (pinv_implication s l r h s' Hw Vl Vr E Hc (core_ext _ _ Hcore) Hp).
Qed.
Lemma pp_equivalence : forall s l r x y, wf s -> vh s l -> vh s r -> denotes s l x -> denotes s r y -> pp s (f_equivalence l r).
Proof.
  intros s l r x y Hw Vl Vr Dl Dr h s' E Hc Hp. destruct (spec_run _ _ _ _ _ _ _ _ (f_equivalence_result s l r x y Hw Vl Vr Dl Dr) E Hc) as [a [_ [_ [Hcore _]]]].
  exact (pinv_equivalence s l r h s' Hw Vl Vr E Hc (core_ext _ _ Hcore) Hp).
Qed.

Lemma pp_nary_lazy : forall conj (f : N -> M N) (P : fml -> fml -> Prop) ks zs s acc xs, wf s -> Forall (vh s) acc -> Forall2 (denotes s) acc xs ->
  Forall (vh s) ks -> Forall2 (denotes s) ks zs -> (forall k, mono (f k)) ->
  (forall z, In z zs -> forall t k, wf t -> core s t -> vh t k -> denotes t k z -> spec wf core t (f k) (tres (P z)) /\ pp t (f k)) ->
  pp s (nary_lazy conj acc (map f ks)).
Proof.
  intros conj f P ks. induction ks as [| k ks IH]; intros zs s acc xs Hw Hva Hda Hvk Hdk Hm Hf; cbn [map nary_lazy].
  - eapply pp_fr; [apply fr_nary |]. apply (f_nary_tree s conj acc xs Hw Hva Hda).
  - inversion Hdk as [| ? z ? zs' Hk Hks]; subst. inversion Hvk as [| ? ? Hv1 Hv2]; subst. destruct (Hf z (or_introl eq_refl) s k Hw (core_refl s) Hv1 Hk) as [Hs Hp].
    assert (HM : Forall mono (map f ks)) by (apply Forall_map, Forall_forall; intros; apply Hm).
    eapply pp_bind; [exact Hs | exact Hp | |].
    { intros h. apply mono_bind; [apply mono_lift |]. intros [r |]; [apply mono_nary_lazy; assumption | apply mono_ret]. }
    intros h s1 Hw1 Hc1 [Hvh [y [Hy _]]]. pose proof (core_ext _ _ Hc1) as He.
    intros r s' E Hc Hi. unfold bind, lift in E. destruct (prepare_nary s1 conj (acc ++ [h])) as [[q |] | |] eqn:Ep; try discriminate.
    + eapply (IH zs' s1 (acc ++ [h]) (xs ++ [y])); eauto.
      * apply Forall_app. split; [| constructor; auto]. eapply Forall_impl; [| exact Hva]. intros a Ha. eapply vh_ext; eauto.
      * apply Forall2_app; [| constructor; auto]. clear -Hda He. induction Hda; constructor; auto. eapply denotes_ext; eauto.
      * eapply Forall_impl; [| exact Hv2]. intros a Ha. eapply vh_ext; eauto.
      * clear -Hks He. induction Hks; constructor; auto. eapply denotes_ext; eauto.
      * intros z' Hz t k' Ht Hct. apply Hf; [right; assumption | assumption | eapply core_trans; eauto].
    + injection E as _ <-. exact Hi.
Qed.

(** The common part of restriction and substitution. *)
Lemma pp_body : forall (P : fml -> fml -> Prop) s x h (f g : N -> M N) (m : M N), wf s -> vh s h -> denotes s h x -> (forall k, mono (f k)) ->
  (forall k, mono (g k)) -> (forall t k y, wf t -> vh t k -> denotes t k y -> pp t (g k)) ->
  (forall y, (depth y < depth x)%nat -> incl (leaves y) (leaves x) -> forall t k, wf t -> core s t -> vh t k -> denotes t k y ->
     spec wf core t (f k) (tres (P y)) /\ pp t (f k)) ->
  (forall n, unpack s h = Ok n -> match n with
     | NEquiv l r => m = (l' <-- f l ;; r' <-- f r ;; f_equivalence l' r')
     | NImpl l r => m = (l' <-- f l ;; r' <-- f r ;; f_implication l' r')
     | NOr ops => m = nary_lazy false [] (map f ops)
     | NAnd ops => m = nary_lazy true [] (map f ops)
     | NNot o => m = (o' <-- f o ;; g o')
     | _ => pp s m
     end) -> pp s m.
Proof.
  intros P s x h f g m Hw Hv Hd Hmf Hmg Hg Hf Hm.
  destruct x as [| | l | x1 | l | l | x1 x2 | x1 x2 | c | p]; pose proof (denotes_inv _ _ _ Hd) as Hu; cbn in Hu.
  - exact (Hm _ Hu). - exact (Hm _ Hu). - exact (Hm _ Hu).
  - destruct Hu as [k [Hu Hk]]. rewrite (Hm _ Hu). pose proof (vh_node s h _ Hw Hv Hu) as Hvo. inversion Hvo; subst.
    destruct (Hf x1) with (t := s) (k := k) as [Hs Hp]; auto using core_refl; [apply incl_refl |].
    eapply pp_bind; [exact Hs | exact Hp | assumption |]. intros k' s1 Hw1 Hc1 [Hvk [y [Hy _]]]. eapply Hg; eauto.
  - destruct Hu as [ks [Hu Hk]]. rewrite (Hm _ Hu). pose proof (vh_node s h _ Hw Hv Hu) as Hvo.
    apply (pp_nary_lazy true f P ks l s [] []); auto. intros z Hz. apply Hf; [cbn [depth]; pose proof (depth_in z l Hz); lia |].
    cbn [leaves]. intros lf Hlf. apply in_flat_map. eauto.
  - destruct Hu as [ks [Hu Hk]]. rewrite (Hm _ Hu). pose proof (vh_node s h _ Hw Hv Hu) as Hvo.
    apply (pp_nary_lazy false f P ks l s [] []); auto. intros z Hz. apply Hf; [cbn [depth]; pose proof (depth_in z l Hz); lia |].
    cbn [leaves]. intros lf Hlf. apply in_flat_map. eauto.
  - destruct Hu as [k1 [k2 [Hu [Hk1 Hk2]]]]. rewrite (Hm _ Hu). pose proof (vh_node s h _ Hw Hv Hu) as Hvo. cbn [node_operands] in Hvo.
    inversion Hvo as [| ? ? Hv1 Hvo']; subst. inversion Hvo' as [| ? ? Hv2 _]; subst.
    destruct (Hf x1) with (t := s) (k := k1) as [Hs Hp]; auto using core_refl; [cbn [depth]; lia | apply incl_appl, incl_refl |].
    eapply pp_bind; [exact Hs | exact Hp | intros; mono_tac |]. intros k1' s1 Hw1 Hc1 [Hvk1 [y1 [Hy1 _]]]. pose proof (core_ext _ _ Hc1) as He1.
    destruct (Hf x2) with (t := s1) (k := k2) as [Hs2 Hp2]; auto; [cbn [depth]; lia | apply incl_appr, incl_refl | eapply vh_ext; eauto | eapply denotes_ext; eauto |].
    eapply pp_bind; [exact Hs2 | exact Hp2 | intros; mono_tac |]. intros k2' s2 Hw2 Hc2 [Hvk2 [y2 [Hy2 _]]]. pose proof (core_ext _ _ Hc2) as He2.
    eapply (pp_implication s2 k1' k2' y1 y2); auto; [eapply vh_ext; eauto | eapply denotes_ext; eauto].
  - destruct Hu as [k1 [k2 [Hu [Hk1 Hk2]]]]. rewrite (Hm _ Hu). pose proof (vh_node s h _ Hw Hv Hu) as Hvo. cbn [node_operands] in Hvo.
    inversion Hvo as [| ? ? Hv1 Hvo']; subst. inversion Hvo' as [| ? ? Hv2 _]; subst.
    destruct (Hf x1) with (t := s) (k := k1) as [Hs Hp]; auto using core_refl; [cbn [depth]; lia | apply incl_appl, incl_refl |].
    eapply pp_bind; [exact Hs | exact Hp | intros; mono_tac |]. intros k1' s1 Hw1 Hc1 [Hvk1 [y1 [Hy1 _]]]. pose proof (core_ext _ _ Hc1) as He1.
    destruct (Hf x2) with (t := s1) (k := k2) as [Hs2 Hp2]; auto; [cbn [depth]; lia | apply incl_appr, incl_refl | eapply vh_ext; eauto | eapply denotes_ext; eauto |].
    eapply pp_bind; [exact Hs2 | exact Hp2 | intros; mono_tac |]. intros k2' s2 Hw2 Hc2 [Hvk2 [y2 [Hy2 _]]]. pose proof (core_ext _ _ Hc2) as He2.
    eapply (pp_equivalence s2 k1' k2' y1 y2); auto; [eapply vh_ext; eauto | eapply denotes_ext; eauto].
  - exact (Hm _ Hu). - exact (Hm _ Hu).
Qed.

Lemma pp_unpack : forall A s h n (k : node -> M A), unpack s h = Ok n -> pp s (k n) -> pp s (bind (lift (fun s => unpack s h)) k).
Proof. intros A s h n k Hu H r s' E Hc Hp. unfold bind, lift in E. rewrite Hu in E. exact (H r s' E Hc Hp). Qed.
Lemma spec_of_unpack : forall A s h n (k : node -> M A) Q, unpack s h = Ok n -> spec wf core s (bind (lift (fun s => unpack s h)) k) Q -> spec wf core s (k n) Q.
Proof. intros A s h n k Q Hu H. unfold spec, bind, lift in *. rewrite Hu in H. exact H. Qed.
Lemma Forall_incl_leaves : forall (P : leaf -> Prop) l l', incl l l' -> Forall P l' -> Forall P l.
Proof. intros P l l' Hi H. rewrite Forall_forall in *. auto. Qed.

Theorem pp_restrict : forall a fuel s x h, wf s -> vh s h -> denotes s h x -> restrictable a x -> (depth x < fuel)%nat -> pp s (restrict fuel a h).
Proof.
  intros a fuel. induction fuel as [| fuel IH]; intros s x h Hw Hv Hd Hr Hfu; [lia |]. pose proof (restrict_spec a (S fuel) s x h Hw Hv Hd Hr Hfu) as Hsp.
  cbn [restrict] in *. destruct (vh_operands s h Hw Hv) as [n [Hu _]]. pose proof (spec_of_unpack _ _ _ _ _ _ Hu Hsp) as Hs. cbn beta in Hs.
  eapply pp_unpack; [exact Hu |]. cbn beta.
  eapply (pp_body (rtree a) s x h (restrict fuel a) f_not); auto with mono.
  - intros t k y Ht Hvk Hk. eapply pp_fr; [apply fr_not | apply (f_not_result t k y); auto].
  - intros y Hy Hin t k Ht _ Hvk Hk. assert (Hry : restrictable a y) by (eapply Forall_incl_leaves; eauto). split; [apply restrict_spec; auto; lia | apply (IH t y); auto; lia].
  - intros n' Hn'. assert (n' = n) by congruence. subst. destruct n; auto; try apply pp_ret; (eapply pp_fr; [| exact Hs]); auto with fr.
Qed.

Theorem pp_restrict_by : forall a fuel s x h, wf s -> vh s h -> denotes s h x -> restrictable (asg_of_lit a) x -> (depth x < fuel)%nat -> pp s (restrict_by fuel a h).
Proof.
  intros a fuel. induction fuel as [| fuel IH]; intros s x h Hw Hv Hd Hr Hfu; [lia |]. pose proof (restrict_by_spec a (S fuel) s x h Hw Hv Hd Hr Hfu) as Hsp.
  cbn [restrict_by] in *. destruct (vh_operands s h Hw Hv) as [n [Hu _]]. pose proof (spec_of_unpack _ _ _ _ _ _ Hu Hsp) as Hs. cbn beta in Hs.
  eapply pp_unpack; [exact Hu |]. cbn beta.
  eapply (pp_body (rtree (asg_of_lit a)) s x h (restrict_by fuel a) f_not); auto with mono.
  - intros t k y Ht Hvk Hk. eapply pp_fr; [apply fr_not | apply (f_not_result t k y); auto].
  - intros y Hy Hin t k Ht _ Hvk Hk. assert (Hry : restrictable (asg_of_lit a) y) by (eapply Forall_incl_leaves; eauto). split; [apply restrict_by_spec; auto; lia | apply (IH t y); auto; lia].
  - intros n' Hn'. assert (n' = n) by congruence. subst. destruct n; auto; try apply pp_ret; try (destruct (negb _); [| destruct (Bool.eqb _ _)]; apply pp_ret); (eapply pp_fr; [| exact Hs]); auto with fr.
Qed.

Theorem pp_substitute : forall s0 sg fuel, sg_ok s0 sg -> forall s x h, wf s -> ext s0 s -> vh s h -> denotes s h x -> substitutable s0 sg x ->
  (depth x < fuel)%nat -> pp s (substitute fuel sg h).
Proof.
  intros s0 sg fuel Hsg. induction fuel as [| fuel IH]; intros s x h Hw He Hv Hd Hr Hfu; [lia |].
  pose proof (substitute_spec s0 sg (S fuel) Hsg s x h Hw He Hv Hd Hr Hfu) as Hsp.
  cbn [substitute] in *. destruct (vh_operands s h Hw Hv) as [n [Hu _]]. pose proof (spec_of_unpack _ _ _ _ _ _ Hu Hsp) as Hs. cbn beta in Hs.
  eapply pp_unpack; [exact Hu |]. cbn beta.
  eapply (pp_body (stree s0 sg) s x h (substitute fuel sg) f_negate); auto with mono.
  - intros t k y Ht Hvk Hk. eapply (pp_fr _ t (f_negate k)); [apply fr_negate | apply (f_negate_result t k y); auto].
  - intros y Hy Hin t k Ht Hct Hvk Hk. assert (Hry : substitutable s0 sg y) by (eapply Forall_incl_leaves; eauto).
    assert (He' : ext s0 t) by (eapply ext_trans; eauto; now apply core_ext).
    split; [apply substitute_spec; auto; lia | apply (IH t y); auto; lia].
  - intros n' Hn'. assert (n' = n) by congruence. subst. destruct n; auto; try apply pp_ret; (eapply pp_fr; [| exact Hs]); auto with fr.
Qed.

(* ------------------------------------------------------------------------------------------------------------------ *)
(** * Histories *)

Lemma pp_xbind : forall A B W s (m : M A) (k : A -> M B) Q, xspec W s m Q -> pp s m -> (forall a, mono (k a)) ->
  (forall a s1 W1, inv W1 s1 -> ext s s1 -> sub W1 W -> Q a s1 W1 -> pp s1 (k a)) -> pp s (bind m k).
Proof.
  intros A B W s m k Q Hs Hp Hm Hk r s' E Hc Hi. unfold bind in E. destruct (m s) as [[a | |] s1] eqn:E1; try discriminate.
  assert (Hc1 : cap s1) by (eapply cap_le; [| exact Hc]; pose proof (Hm a s1) as M; rewrite E in M; exact M).
  destruct (x_run _ _ _ _ _ _ _ Hs E1 Hc1) as [a' [W1 [Ea [Hi1 [Hsb [He HQ]]]]]]. injection Ea as <-.
  eapply (Hk a s1 W1); eauto.
Qed.
Lemma pp_xfr : forall A W s (m : M A) Q, fr m -> xspec W s m Q -> pp s m.
Proof.
  intros A W s m Q Hf Hs r s' E Hc Hp. destruct (x_run _ _ _ _ _ _ _ Hs E Hc) as [a [W1 [_ [_ [_ [He _]]]]]]. eapply pinv_frame_run; eauto.
Qed.
Lemma pp_then_ret : forall A B s (m : M A) (f : A -> B), pp s m -> pp s (a <-- m ;; ret (f a)).
Proof.
  intros A B s m f H r s' E Hc Hp. unfold bind, ret in E. destruct (m s) as [[a | |] s1] eqn:E1; try discriminate. injection E as _ <-. exact (H a s1 E1 Hc Hp).
Qed.

Theorem pp_anonymize : forall fuel x a W s h, inv W s -> hdl s h x -> an_ok a s -> Forall anon_leaf (leaves x) -> (depth x < fuel)%nat -> pp s (anonymize fuel h a).
Proof.
  intros fuel x a W s h Hi Hx Ha Hlf Hf. unfold anonymize.
  pose proof (variables_spec fuel x W s h Hi (proj1 Hx) (proj1 (proj2 Hx)) Hf) as Hvs.
  eapply pp_xbind; [exact Hvs | eapply pp_xfr; [apply fr_variables | exact Hvs] | |].
  { intros vs. apply mono_bind; [apply mono_mfold; intros; apply mono_anon_var |]. intros a'. apply mono_bind; [auto with mono | intros; apply mono_ret]. }
  clear Hvs. intros vs s1 W1 Hi1 He1 _ _. assert (Ha1 : an_ok a s1) by (eapply an_ok_ext; eauto; apply wf_cap, Hi1).
  pose proof (anon_vars_spec vs a W1 s1 Hi1 Ha1) as Hav.
  eapply pp_xbind; [exact Hav | eapply pp_xfr; [apply fr_mfold; intros; apply fr_anon_var | exact Hav] | intros; apply mono_bind; [auto with mono | intros; apply mono_ret] |].
  clear Hav. intros a2 s2 W2 Hi2 He2 _ [_ [Ha2 _]]. apply pp_then_ret.
  assert (Hx2 : hdl s2 h x) by (eapply hdl_ext; [exact (ext_trans _ _ _ He1 He2) | assumption]).
  assert (Hden : forall u g, assoc var_eqb u (an_subst a2) = Some g -> exists i, g = encode_lit (Lit (VFF i) true) /\ known s2 (VFF i) /\ hdl s2 g (FLit (Lit (VFF i) true))).
  { intros u g Hg. destruct (an_entry _ _ Ha2 u g Hg) as [i [k [-> [Hk _]]]]. exists i. split; [reflexivity |]. split; [assumption |]. apply hdl_lit; [apply Hi2 | assumption]. }
  apply (pp_substitute s2 (an_subst a2) fuel) with (x := x); auto using ext_refl; [| apply (i_wf _ _ Hi2) | apply (proj1 Hx2) | apply (proj1 (proj2 Hx2)) |].
  - intros u g Hg. destruct (Hden u g Hg) as [i [_ [_ [H1 [H2 _]]]]]. split; eauto.
  - unfold substitutable. rewrite Forall_forall in *. intros lf Hin. specialize (Hlf lf Hin).
    assert (Hsi : forall b u, simple_image s2 (an_subst a2) b u).
    { intros b u g Hg. destruct (Hden u g Hg) as [i [_ [_ [_ [H2 _]]]]]. right. right. exists (Lit (VFF i) true). auto. }
    destruct lf as [u | c | p]; cbn [leaf_substitutable anon_leaf] in *; [exact I | |].
    + split; [apply Forall_forall; intros; apply Hsi | assumption].
    + split; [apply Forall_forall; intros; apply Hsi | assumption].
Qed.

(* ------------------------------------------------------------------------------------------------------------------ *)
(** * Pure expansion *)

Lemma pp_det_bind : forall A B s (m : M A) a (k : A -> M B), m s = (Ok a, s) -> pp s (k a) -> pp s (bind m k).
Proof. intros A B s m a k Hm H r s' E Hc Hp. unfold bind in E. rewrite Hm in E. exact (H r s' E Hc Hp). Qed.
Lemma pp_fr_bind : forall A B W s (m : M A) (k : A -> M B) Q, fr m -> xspec W s m Q -> (forall a, mono (k a)) ->
  (forall a s1 W1, inv W1 s1 -> ext s s1 -> sub W1 W -> Q a s1 W1 -> pp s1 (k a)) -> pp s (bind m k).
Proof. intros A B W s m k Q Hf Hs Hm Hk. eapply pp_xbind; [exact Hs | eapply pp_xfr; [exact Hf | exact Hs] | exact Hm | exact Hk]. Qed.

Lemma pp_xnary_lazy : forall conj (f : N -> M N) (P : world -> fml -> fml -> Prop), (forall a, mono (f a)) ->
  forall ops xs W s acc ys, inv W s -> Forall2 (hdl s) ops xs -> Forall2 (hdl s) acc ys ->
  (forall o x t W', In x xs -> inv W' t -> ext s t -> hdl t o x -> xspec W' t (f o) (pres P x) /\ pp t (f o)) ->
  pp s (nary_lazy conj acc (map f ops)).
Proof.
  intros conj f P Hm ops. induction ops as [| o ops IH]; intros xs W s acc ys Hi Ho Ha H; inversion Ho as [| ? x ? xs' Hx Ho']; subst; cbn [map nary_lazy].
  - eapply pp_xfr; [apply fr_nary | apply (x_nary conj acc ys W s Hi Ha)].
  - destruct (H o x s W (or_introl eq_refl) Hi (ext_refl s) Hx) as [Hs Hp].
    eapply pp_xbind; [exact Hs | exact Hp | |].
    { intros h. apply mono_bind; [apply mono_lift |]. intros [r |]; [apply mono_nary_lazy, Forall_map, Forall_forall; intros; apply Hm | apply mono_ret]. }
    intros h s1 W1 Hi1 He1 _ [y [Hy _]].
    intros r s' E Hc Hpi. unfold bind, lift in E. destruct (prepare_nary s1 conj (acc ++ [h])) as [[q |] | |] eqn:Ep; try discriminate.
    + refine (IH xs' W1 s1 (acc ++ [h]) (ys ++ [y]) Hi1 _ _ _ r s' E Hc Hpi).
      * eapply hdls_ext; eauto.
      * apply Forall2_app; [eapply hdls_ext; eauto | constructor; auto].
      * intros o' z t W' Hz Hi' He' Hoz. apply H; auto; [right; assumption | eapply ext_trans; eauto].
    + injection E as _ <-. exact Hpi.
Qed.

Theorem pp_pure : forall fuel x W s h, inv W s -> hdl s h x -> pureable x -> (depth x < fuel)%nat -> pp s (pure_expansion fuel h).
Proof.
  induction fuel as [| fuel IH]; intros x W s h Hi Hx Hp Hfu; [lia |]. cbn [pure_expansion].
  pose proof (vh_operands s h (i_wf _ _ Hi) (proj1 Hx)) as [n [Hu _]]. unfold unpackM. eapply pp_unpack; [exact Hu |].
  pose proof (denotes_by_node _ _ _ _ Hu (proj1 (proj2 Hx))) as Hn.
  pose proof (hdls_children s h x n (i_wf _ _ Hi) Hx Hu) as Hch.
  assert (Hnary : forall conj ops xs, x = fnary conj xs -> Forall2 (hdl s) ops xs -> pp s (nary_lazy conj [] (map (pure_expansion fuel) ops))).
  { intros conj ops xs -> Ho. eapply (pp_xnary_lazy conj (pure_expansion fuel) (fun _ => pure_res) (mono_pure_expansion fuel) ops xs W s [] []); auto.
    intros o z t W' Hz Hi' He Hoz.
    assert (Hzc : In z (children (fnary conj xs))) by (destruct conj; exact Hz). pose proof (children_depth _ _ Hzc) as Hdz.
    assert (Hpz : pureable z) by (eapply pureable_children; [exact Hp | exact Hzc]).
    split; [apply pure_expansion_spec; auto; lia | eapply (IH z); eauto; lia]. }
  destruct n as [| | l | op | ops | ops | l r | l r | c | p]; cbn beta iota in *; try apply pp_ret.
  - destruct Hn as [y [-> Hy]]. inversion Hch as [| ? ? ? ? Ha _]; subst. cbn [depth] in Hfu.
    eapply pp_xbind; [apply (pure_expansion_spec fuel y W s op); [assumption | assumption | exact Hp | lia] | eapply (IH y); eauto; lia | intros; auto with mono |].
    intros o s1 W1 Hi1 He1 _ [z [Hz _]]. eapply pp_fr; [apply fr_not | apply (f_not_result s1 o z); [apply Hi1 | apply Hz | apply Hz]].
  - destruct Hn as [ys [-> Hy]]. apply (Hnary true _ ys); [reflexivity | exact Hch].
  - destruct Hn as [ys [-> Hy]]. apply (Hnary false _ ys); [reflexivity | exact Hch].
  - destruct Hn as [ya [yb [-> _]]]. inversion Hch as [| ? ? ? ? Ha Hch']; subst. inversion Hch' as [| ? ? ? ? Hb _]; subst. cbn [depth] in Hfu.
    assert (Hpa : pureable ya) by (eapply pureable_children; [exact Hp | left; reflexivity]). assert (Hpb : pureable yb) by (eapply pureable_children; [exact Hp | right; left; reflexivity]).
    eapply pp_xbind; [apply (pure_expansion_spec fuel ya W s); [assumption | eassumption | assumption | lia] | eapply (IH ya); eauto; lia | |].
    { intros; apply mono_bind; [apply mono_pure_expansion | intros; auto with mono]. }
    intros l' s1 W1 Hi1 He1 _ [za [Hza _]]. pose proof (hdl_ext _ _ _ _ He1 Hb) as Hb1.
    eapply pp_xbind; [apply (pure_expansion_spec fuel yb W1 s1); [assumption | eassumption | assumption | lia] | eapply (IH yb); eauto; lia | intros; auto with mono |].
    intros r' s2 W2 Hi2 He2 _ [zb [Hzb _]]. pose proof (hdl_ext _ _ _ _ He2 Hza) as Hza2.
    first [eapply (pp_implication s2 l' r' za zb) | eapply (pp_equivalence s2 l' r' za zb)]; solve [apply Hi2 | apply Hza2 | apply Hzb].
  - destruct Hn as [ya [yb [-> _]]]. inversion Hch as [| ? ? ? ? Ha Hch']; subst. inversion Hch' as [| ? ? ? ? Hb _]; subst. cbn [depth] in Hfu.
    assert (Hpa : pureable ya) by (eapply pureable_children; [exact Hp | left; reflexivity]). assert (Hpb : pureable yb) by (eapply pureable_children; [exact Hp | right; left; reflexivity]).
    eapply pp_xbind; [apply (pure_expansion_spec fuel ya W s); [assumption | eassumption | assumption | lia] | eapply (IH ya); eauto; lia | |].
    { intros; apply mono_bind; [apply mono_pure_expansion | intros; auto with mono]. }
    intros l' s1 W1 Hi1 He1 _ [za [Hza _]]. pose proof (hdl_ext _ _ _ _ He1 Hb) as Hb1.
    eapply pp_xbind; [apply (pure_expansion_spec fuel yb W1 s1); [assumption | eassumption | assumption | lia] | eapply (IH yb); eauto; lia | intros; auto with mono |].
    intros r' s2 W2 Hi2 He2 _ [zb [Hzb _]]. pose proof (hdl_ext _ _ _ _ He2 Hza) as Hza2.
    first [eapply (pp_implication s2 l' r' za zb) | eapply (pp_equivalence s2 l' r' za zb)]; solve [apply Hi2 | apply Hza2 | apply Hzb].
  - subst x. pose proof (Forall_inv Hp) as Hpc. cbn in Hpc. rewrite Hpc. eapply pp_xfr; [| apply (pure_cc_spec c W s h); assumption].
    unfold cc_encoder_encode. fr_tac.
  - subst x. destruct (Forall_inv Hp).
Qed.

(* ------------------------------------------------------------------------------------------------------------------ *)
(** * CNF encoders *)

Lemma cnf_restrictable : forall a y, cnf_shape y = true -> restrictable a y.
Proof. intros a y H. apply con_free_restrictable, cnf_con_free. assumption. Qed.

Lemma pp_ts_last : forall fuel T W s m x subs st, inv W s -> closed T s -> ts_ok T st s -> hdl s m x -> nnf_shape x = true -> cnf_shape x = false ->
  sub_list s m subs -> (3 <= fuel)%nat -> pp s (ts_last fuel m subs st).
Proof.
  intros fuel T W s m x subs st Hi Hc Hok Hx Hn Hcf [Hnd [[r0 Er] [Hin Hord]]] Hf. unfold ts_last.
  assert (Hc1 : x <> FTrue) by (intros ->; discriminate). assert (Hc2 : x <> FFalse) by (intros ->; discriminate).
  eapply pp_fr_bind; [apply fr_mfold; intros; apply fr_compute_tseitin | apply (ts_all fuel subs [] T W s st); auto; [intros k [] | | lia] | |].
  - intros a k b E. cbn [app] in E. assert (Hk : below s m k) by (apply Hin; rewrite E; apply in_or_app; right; left; reflexivity).
    destruct (below_nnf s m x k (i_wf _ _ Hi) Hx Hn Hc1 Hc2 Hk) as [y [Hy [Hyn [Hyt Hyf]]]].
    destruct (vh_operands s k (i_wf _ _ Hi) (proj1 Hy)) as [n [Hu _]]. exists y, n. split; [assumption |]. split; [apply nnf_ts_shape; assumption |]. split; [assumption |].
    intros o Ho. eapply Hord; eauto.
  - intros st1. apply mono_bind; [apply mono_index |]. intros. apply mono_bind; [apply mono_index |]. intros. apply mono_bind; [auto with mono | intros; apply mono_ret].
  - intros st1 s1 W1 Hi1 He1 _ [-> [Hd1 [T1 [Hg1 [Hcl1 Hok1]]]]]. cbn [app] in Hd1.
    assert (Hm : in_dom st1 m) by (apply Hd1; rewrite Er; apply in_or_app; right; left; reflexivity).
    unfold in_dom in Hm. destruct (assoc N.eqb m (cs_formula st1)) as [r |] eqn:Ea; [| congruence].
    destruct (Hok1 m r Ea) as [l [Hl [x' [y0 [Hx' [Hy0 [Hk Hcase]]]]]]].
    assert (Ex : x' = x) by (eapply denotes_fun; [apply Hx' | eapply denotes_ext; [exact He1 | apply Hx]]). subst x'.
    destruct Hcase as [[-> _] | [_ Hdef]]; [discriminate |].
    eapply pp_det_bind; [apply index_ok; exact Ea |]. eapply pp_det_bind; [apply index_ok; exact Hl |].
    assert (Hcn : cnf_shape y0 = true) by apply Hdef. apply pp_then_ret.
    apply (pp_restrict_by l fuel s1 y0 r); [apply Hi1 | apply Hy0 | apply Hy0 | apply cnf_restrictable; assumption | pose proof (cnf_depth y0 Hcn); lia].
Qed.

Lemma pp_fact_nop : forall conj fuel x W s h, inv W s -> hdl s h x -> nnf_shape x = true -> (2 * depth x + 8 <= fuel)%nat -> pp s (fact_nop conj fuel h).
Proof. intros conj fuel x W s h Hi Hx Hn Hf. eapply pp_xfr; [apply fr_fact_nop | apply (fact_nop_spec conj fuel x W s h); auto; apply nnf_encodable; assumption]. Qed.

Theorem pp_tseitin : forall fuel x W s h b st, inv W s -> hdl s h x -> encodable s x -> ts_ok W st s -> (4 * depth x + 14 <= fuel)%nat -> pp s (tseitin_cnf fuel h b st).
Proof.
  intros fuel x W s h b st Hi Hx Hen Hok Hf. unfold tseitin_cnf.
  eapply pp_fr_bind; [apply fr_nnf_rec | apply (nnf_spec fuel x); [eassumption | assumption | assumption | lia] | |].
  { intros m. apply mono_bind; [apply mono_lift |]. intros []; [apply mono_ret |].
    apply mono_bind; [auto with mono |]. intros n. destruct (n <? b); [apply mono_bind; [apply mono_fact_nop | intros; apply mono_ret] |].
    apply mono_bind; [auto with mono |]. intros subs. exact (mono_ts_last fuel m subs st). }
  intros m s1 W1 Hi1 He1 Hs1 [x1 [Hx1 [Hr1 [Hn1 Hd1]]]]. assert (Hok1 : ts_ok W1 st s1) by (eapply ts_ok_ext; eauto).
  assert (Hdep : (depth x1 <= 2 * depth x + 3)%nat) by (pose proof (ndep_depth x true); lia).
  eapply (pp_det_bind _ _ s1 _ (cnf_shape x1)); [unfold lift; rewrite (cnf_lift W1 s1 m x1 Hi1 Hx1); reflexivity |]. destruct (cnf_shape x1) eqn:Ec; [apply pp_ret |].
  eapply pp_fr_bind; [apply fr_number_of_atoms | apply (number_of_atoms_spec fuel x1); [eassumption | apply Hx1 | apply Hx1 | lia] | |].
  { intros n. destruct (n <? b); [apply mono_bind; [apply mono_fact_nop | intros; apply mono_ret] |].
    apply mono_bind; [auto with mono |]. intros subs. exact (mono_ts_last fuel m subs st). }
  intros n s2 W2 Hi2 He2 Hs2 _. assert (Hok2 : ts_ok W2 st s2) by (eapply ts_ok_ext; eauto). assert (Hx2 : hdl s2 m x1) by (eapply hdl_ext; eauto).
  destruct (n <? b).
  - apply pp_then_ret. apply (pp_fact_nop true fuel x1 W2); auto. lia.
  - eapply pp_fr_bind; [apply fr_sub_nodes | apply (sub_nodes_spec fuel x1); [eassumption | apply Hx2 | apply Hx2 | lia] | intros; exact (mono_ts_last fuel m _ st) |].
    intros subs s3 W3 Hi3 He3 Hs3 Hsub. apply (pp_ts_last fuel W3 W3 s3 m x1 subs st); auto; [exact (proj2 (i_world _ _ Hi3)) | eapply ts_ok_ext; eauto | eapply hdl_ext; eauto | lia].
Qed.

Lemma pp_pg_last : forall fuel T W s m x st, inv W s -> closed T s -> pg_ok T st s -> hdl s m x -> nnf_shape x = true -> cnf_shape x = false ->
  (depth x < fuel)%nat -> (3 <= fuel)%nat -> pp s (pg_last fuel m st).
Proof.
  intros fuel T W s m x st Hi Hc Hok Hx Hn Hcf Hf Hf3. unfold pg_last.
  assert (Hc1 : x <> FTrue) by (intros ->; discriminate). assert (Hc2 : x <> FFalse) by (intros ->; discriminate).
  assert (Hfl : is_flit x = false) by (destruct x; try reflexivity; discriminate).
  eapply pp_fr_bind; [apply fr_compute_transformation | apply (compute_transformation_spec fuel x T W s m st); auto | |].
  { intros. apply mono_bind; [apply mono_index |]. intros. apply mono_bind; [auto with mono | intros; apply mono_ret]. }
  intros [r st1] s1 W1 Hi1 He1 _ [-> [_ [Hin [T1 [Hg1 [Hcl1 [Hok1 [y0 [Hy0 [Hcn [Htr Hso]]]]]]]]]]]. cbn [fst snd] in *.
  pose proof (Hin Hfl) as Hin'. cbn [fst] in Hin'. destruct (assoc N.eqb m (cs_variable st1)) as [l |] eqn:Ea; [| congruence].
  eapply pp_det_bind; [apply index_ok; exact Ea |]. apply pp_then_ret.
  apply (pp_restrict (asg_of_lit l) fuel s1 y0 r); [apply Hi1 | apply Hy0 | apply Hy0 | apply cnf_restrictable; assumption | pose proof (cnf_depth y0 Hcn); lia].
Qed.

Theorem pp_pg : forall fuel x W s h b st, inv W s -> hdl s h x -> encodable s x -> pg_ok W st s -> (4 * depth x + 14 <= fuel)%nat -> pp s (pg_on_formula fuel h b st).
Proof.
  intros fuel x W s h b st Hi Hx Hen Hok Hf. unfold pg_on_formula.
  eapply pp_fr_bind; [apply fr_nnf_rec | apply (nnf_spec fuel x); [eassumption | assumption | assumption | lia] | |].
  { intros m. apply mono_bind; [apply mono_lift |]. intros []; [apply mono_ret |].
    apply mono_bind; [auto with mono |]. intros n. destruct (n <? b); [apply mono_bind; [apply mono_fact_nop | intros; apply mono_ret] | exact (mono_pg_last fuel m st)]. }
  intros m s1 W1 Hi1 He1 Hs1 [x1 [Hx1 [Hr1 [Hn1 Hd1]]]]. assert (Hok1 : pg_ok W1 st s1) by (eapply pg_ok_ext; eauto).
  assert (Hdep : (depth x1 <= 2 * depth x + 3)%nat) by (pose proof (ndep_depth x true); lia).
  eapply (pp_det_bind _ _ s1 _ (cnf_shape x1)); [unfold lift; rewrite (cnf_lift W1 s1 m x1 Hi1 Hx1); reflexivity |]. destruct (cnf_shape x1) eqn:Ec; [apply pp_ret |].
  eapply pp_fr_bind; [apply fr_number_of_atoms | apply (atoms_keep fuel x1 W1 s1 m); [assumption | assumption | lia] | |].
  { intros n. destruct (n <? b); [apply mono_bind; [apply mono_fact_nop | intros; apply mono_ret] | exact (mono_pg_last fuel m st)]. }
  intros n s2 W2 Hi2 He2 _ [-> _]. assert (Hok2 : pg_ok W1 st s2) by (eapply pg_ok_ext; [exact He2 | apply sub_refl | assumption]). assert (Hx2 : hdl s2 m x1) by (eapply hdl_ext; eauto).
  destruct (n <? b).
  - apply pp_then_ret. apply (pp_fact_nop true fuel x1 W1); auto. lia.
  - apply (pp_pg_last fuel W1 W1 s2 m x1 st); auto; [exact (proj2 (i_world _ _ Hi2)) | lia | lia].
Qed.

Lemma pp_nary_st : forall (k : N -> cnf_encoder -> M (N * cnf_encoder)), (forall o e, mono (k o e)) ->
  forall ops xs W s acc ys e, inv W s -> enc_ok W e s -> Forall2 (hdl s) ops xs -> Forall2 (hdl s) acc ys ->
  (forall o x t W' e', In x xs -> inv W' t -> ext s t -> enc_ok W' e' t -> hdl t o x ->
     xspec W' t (k o e') (fun p s' W2 => enc_ok W2 (snd p) s' /\ exists y, hdl s' (fst p) y /\ equisat W2 x y) /\ pp t (k o e')) ->
  pp s (nary_lazy_st true k acc ops e).
Proof.
  intros k Hmono ops. induction ops as [| o ops IH]; intros xs W s acc ys e Hi Hen Ho Ha H; inversion Ho as [| ? x ? xs' Hx Ho']; subst; cbn [nary_lazy_st].
  - apply pp_then_ret. eapply pp_xfr; [apply fr_nary | apply (x_nary true acc ys W s Hi Ha)].
  - destruct (H o x s W e (or_introl eq_refl) Hi (ext_refl s) Hen Hx) as [Hs Hp].
    eapply pp_xbind; [exact Hs | exact Hp | |].
    { intros h. apply mono_bind; [apply mono_lift |]. intros [r |]; [apply mono_nary_lazy_st; assumption | apply mono_ret]. }
    intros [h e1] s1 W1 Hi1 He _ [Hen1 [z [Hz _]]]. cbn [fst snd] in *.
    intros r s' E Hc Hpi. unfold bind, lift in E. destruct (prepare_nary s1 true (acc ++ [h])) as [[q |] | |] eqn:Ep; try discriminate.
    + refine (IH xs' W1 s1 (acc ++ [h]) (ys ++ [z]) e1 Hi1 Hen1 _ _ _ r s' E Hc Hpi).
      * eapply hdls_ext; eauto.
      * apply Forall2_app; [eapply hdls_ext; eauto | constructor; auto].
      * intros j w t W2 e2 Hin Hi2 He2 Hen2 Hk. apply H; auto; [right; assumption | eapply ext_trans; eauto].
    + injection E as _ <-. exact Hpi.
Qed.

Theorem pp_cnf : forall alg fuel x W s h e, inv W s -> hdl s h x -> encodable s x -> enc_ok W e s -> (4 * depth x + 14 <= fuel)%nat -> pp s (cnf_transform alg fuel h e).
Proof.
  induction alg as [| b | b | d c alg IH]; intros fuel x W s h e Hi Hx Hen Hok Hf; pose proof (cnf_transform_spec) as Hspec; cbn [cnf_transform];
    (eapply (pp_det_bind _ _ s _ (cnf_shape x)); [unfold lift; rewrite (cnf_lift W s h x Hi Hx); reflexivity |]; destruct (cnf_shape x) eqn:Ec; [apply pp_ret |]).
  - apply pp_then_ret. eapply pp_xfr; [apply fr_fact_nop | apply (fact_nop_spec true fuel x W s h); auto; lia].
  - apply pp_then_ret. apply (pp_tseitin fuel x W); auto. apply ts_state; assumption.
  - apply pp_then_ret. apply (pp_pg fuel x W); auto. apply pg_state; assumption.
  - set (single := fun op enc => p <-- factorization limit_handler true fuel op (limit_new d c) ;;
       match fst p with FOk r => ret (r, enc) | FErr _ => cnf_transform alg fuel op enc end).
    assert (Hmono : forall o e', mono (single o e')).
    { intros o e'. apply mono_bind; [apply mono_factorization |]. intros [[r | ?] ?]; cbn [fst]; [apply mono_ret | apply mono_cnf_transform]. }
    assert (Hs : forall o z t W' e', inv W' t -> encodable t z -> (4 * depth z + 14 <= fuel)%nat -> enc_ok W' e' t -> hdl t o z ->
       xspec W' t (single o e') (fun p s' W2 => enc_ok W2 (snd p) s' /\ exists y, hdl s' (fst p) y /\ equisat W2 z y) /\ pp t (single o e')).
    { intros o z t W' e' Hi' Hez Hfz Hok' Hz. unfold single. split.
      - eapply x_bind; [apply (factorization_spec _ limit_handler true fuel z); auto; lia | |].
        { intros [[r | ?] ?]; cbn [fst]; [apply mono_ret | apply mono_cnf_transform]. }
        intros [[r | err] hs] s1 W1 Hi1 He1 Hs1 Hq; cbn [fst fpost] in *.
        + destruct Hq as [y [Hy [Hr Hn]]]. apply x_ret; [assumption |]. cbn [fst snd]. split; [eapply enc_ok_ext; eauto |]. exists y. split; [assumption | apply refines_equisat; assumption].
        + apply Hspec; [assumption | eapply hdl_ext; eauto | eapply encodable_ext; eauto | eapply enc_ok_ext; eauto | assumption].
      - eapply pp_fr_bind; [apply fr_factorization | apply (factorization_spec _ limit_handler true fuel z W' t o); auto; lia | |].
        { intros [[r | ?] ?]; cbn [fst]; [apply mono_ret | apply mono_cnf_transform]. }
        intros [[r | err] hs] s1 W1 Hi1 He1 Hs1 Hq; cbn [fst] in *; [apply pp_ret |].
        apply (IH fuel z W1); [assumption | eapply hdl_ext; eauto | eapply encodable_ext; eauto | eapply enc_ok_ext; eauto | assumption]. }
    destruct (vh_operands s h (i_wf _ _ Hi) (proj1 Hx)) as [n [Hu _]]. unfold unpackM. eapply pp_unpack; [exact Hu |].
    pose proof (denotes_by_node _ _ _ _ Hu (proj1 (proj2 Hx))) as Hn. pose proof (hdls_children s h x n (i_wf _ _ Hi) Hx Hu) as Hch.
    destruct n as [| | l | op | l | ops | l r | l r | cc | p]; try (eapply Hs; eassumption). destruct Hn as [xs [-> _]]. cbn [node_operands children] in Hch.
    apply (pp_nary_st single Hmono l xs W s [] [] e); auto.
    intros o z t W' e' Hz Hi' He' Hok' Hoz. apply Hs; auto.
    + eapply encodable_ext; [exact He' |]. apply (encodable_children s (FAnd xs) z Hen). exact Hz.
    + assert (Hzc : In z (children (FAnd xs))) by exact Hz. apply children_depth in Hzc. lia.
Qed.

(* ------------------------------------------------------------------------------------------------------------------ *)
(** * All histories *)

Lemma pp_xrun : forall W s kn c o, inv W s -> Forall (has s) kn -> obj_ok W s o -> xcall_ok s kn c -> xasserted s c o -> pp s (xrun c o).
Proof.
  intros W s kn c o Hi Hk Ho Hok Has. pose proof (i_wf _ _ Hi) as Hw. pose proof (xcall_spec W s kn c o Hi Hk Ho Hok Has) as Hsp.
  assert (Hden : forall h P, In h kn -> all_of s h P -> exists x, hdl s h x /\ P x).
  { intros h P Hh Ha. rewrite Forall_forall in Hk. destruct (Hk h Hh) as [x Hx]. exists x. split; [assumption |]. apply Ha, Hx. }
  destruct c as [c | fuel a h | fuel sg h | fuel h | cj fuel h | H hd st cj fuel h | fuel h | h | fuel h | h | fuel h | fuel h | fuel h | fuel h
    | fuel h | fuel h | fuel h | alg fuel h | b fuel h | b fuel h | fuel h]; cbn [xrun] in *;
    try (eapply pp_xfr; [| exact Hsp]; unfold nnf, encode_handle, unpackM; fr_tac; fail).
  - destruct c as [name | name p | b | cj ops | ls | h | h | l r' | l r' | c rhs vs | c rhs ls cs | a | a i]; cbn [run_call] in *;
      try (eapply pp_xfr; [| exact Hsp]; unfold f_literal, f_var; fr_tac; fail).
    + cbn [xcall_ok call_ok] in Hok. destruct Hok as [K1 K2]. rewrite Forall_forall in Hk. destruct (Hk l K1) as [x [Vx [Dx _]]]. destruct (Hk r' K2) as [y [Vy [Dy _]]].
      apply pp_then_ret. eapply pp_implication; eauto.
    + cbn [xcall_ok call_ok] in Hok. destruct Hok as [K1 K2]. rewrite Forall_forall in Hk. destruct (Hk l K1) as [x [Vx [Dx _]]]. destruct (Hk r' K2) as [y [Vy [Dy _]]].
      apply pp_then_ret. eapply pp_equivalence; eauto.
  - cbn [xcall_ok] in Hok. unfold enough in Hok. destruct Hok as [Hh Ha]. destruct (Hden h _ Hh Ha) as [x [[Hv [Hd Hkn]] [Hr Hf]]].
    apply pp_then_ret. apply (pp_restrict a fuel s x h); auto. lia.
  - cbn [xcall_ok] in Hok. unfold enough in Hok. destruct Hok as [Hh [Hsg Ha]]. destruct (Hden h _ Hh Ha) as [x [[Hv [Hd Hkn]] [Hr Hf]]].
    assert (Hgood : sg_ok s sg).
    { intros u g Hg. apply Hsg in Hg. rewrite Forall_forall in Hk. destruct (Hk g Hg) as [y [Hvy [Hdy _]]]. split; [assumption | exists y; assumption]. }
    apply pp_then_ret. apply (pp_substitute s sg fuel Hgood s x h); auto using ext_refl. lia.
  - cbn [xcall_ok] in Hok. unfold enough in Hok. destruct Hok as [Hh Ha]. destruct (Hden h _ Hh Ha) as [x [Hx [Hr Hf]]].
    apply pp_then_ret. apply (pp_pure fuel x W); auto. lia.
  - cbn [xcall_ok] in Hok. unfold enough in Hok. destruct Hok as [Hh Ha]. destruct (Hden h _ Hh Ha) as [x [Hx [He Hf]]]. destruct Has as [e ->].
    apply pp_then_ret. apply (pp_cnf alg fuel x W); auto; lia.
  - cbn [xcall_ok] in Hok. unfold enough in Hok. destruct Hok as [Hh Ha]. destruct (Hden h _ Hh Ha) as [x [Hx [He Hf]]]. destruct Has as [e ->].
    apply pp_then_ret. apply (pp_tseitin fuel x W); auto; first [lia | apply ts_state; exact Ho].
  - cbn [xcall_ok] in Hok. unfold enough in Hok. destruct Hok as [Hh Ha]. destruct (Hden h _ Hh Ha) as [x [Hx [He Hf]]]. destruct Has as [e ->].
    apply pp_then_ret. apply (pp_pg fuel x W); auto; first [lia | apply pg_state; exact Ho].
  - cbn [xcall_ok] in Hok. unfold enough in Hok. destruct Hok as [Hh Ha]. destruct (Hden h _ Hh Ha) as [x [Hx [He Hf]]]. destruct Has as [a ->].
    apply pp_then_ret. eapply (pp_anonymize fuel x); eauto. lia.
Qed.

Lemma xstep_pinv : forall W a b, xstep a b -> xinv W a -> pinv (x_fac a) -> pinv (x_fac b).
Proof.
  intros W a b H [Hi [Hk Hos]] Hp.
  destruct H as [s known os c l o s' Hok Hr Hc | s known os1 o os2 c l o' s' Hok Hr Hc | s known os o Hn | s known os h n Hh Hu]; cbn [x_fac x_known x_objs] in *; auto.
  - assert (Ho : obj_ok W s (OEnc enc_stateless)) by (split; intros st E; discriminate).
    exact (pp_xrun W s known c _ Hi Hk Ho Hok (xasserted_of_run _ _ _ _ _ Hr) _ _ Hr Hc Hp).
  - apply Forall_app in Hos. destruct Hos as [_ H2]. pose proof (Forall_inv H2) as Ho.
    exact (pp_xrun W s known c _ Hi Hk Ho Hok (xasserted_of_run _ _ _ _ _ Hr) _ _ Hr Hc Hp).
Qed.
Lemma xsteps_pinv : forall a b, xsteps a b -> forall W, xinv W a -> pinv (x_fac a) -> pinv (x_fac b).
Proof.
  intros a b H. induction H as [a | a b c H IH Hs]; intros W Hx Hp; [exact Hp |].
  destruct (xsteps_ok W a b H Hx) as [W' [Hb _]]. eapply xstep_pinv; eauto.
Qed.
Theorem xreachable_pinv : forall cfg s known os, xreachable cfg s known os -> pinv s.
Proof. intros cfg s known os H. apply (xsteps_pinv _ _ H (fun _ => True)); [apply xinv_new | split; constructor]. Qed.
