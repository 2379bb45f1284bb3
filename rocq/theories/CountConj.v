(** The count of the models of a conjunction: the steps. *)
From Coq Require Import NArith ZArith List Bool Arith Lia.
From Verif Require Import Base EncodingModel EncodingProofs Syntax FactoryModel FactoryInv FactoryBasics FactoryProofs FactorySpecs FactoryNary FactoryOps EvalProofs
  InvariantSpec InvariantProofs OpsModel OpsProofs ConstraintModel ConstraintProofs CacheModel TransModel TreeSpec WorldProofs MetricsProofs EncodeProofs NnfProofs CnfProofs HandlerProofs DefBasics
  TseitinProofs PgProofs EncoderProofs PureProofs BddModel OrderModel OrderProofs XReplay CountModel CountProofs CountMain CountNary CountConjModel.
Import ListNotations.
Local Open Scope nat_scope.

(* ------------------------------------------------------------------------------------------------------------------ *)
(** * The depth of a formula is bounded by the nodes of the factory *)

Definition tab_handles (n : nat) (ty : formula_type) : list N := map (fun i => encode (N.of_nat i) ty false) (seq 0 n).
Definition inner_handles (s : factory) : list N :=
  tab_handles (length (vt_vec (c_small (t_nots (f_tabs s))))) TNot ++ tab_handles (length (vt_vec (c_small (t_ands (f_tabs s))))) TAnd
  ++ tab_handles (length (vt_vec (c_small (t_ors (f_tabs s))))) TOr ++ tab_handles (length (vt_vec (c_small (t_impls (f_tabs s))))) TImpl
  ++ tab_handles (length (vt_vec (c_small (t_equivs (f_tabs s))))) TEquiv.
Lemma inner_handles_length : forall s, length (inner_handles s) = inner_nodes s.
Proof. intros s. unfold inner_handles, inner_nodes, tab_handles. rewrite !app_length, !map_length, !seq_length. lia. Qed.
Lemma tab_in : forall A (l : list A) i a ty, nthN l i = Some a -> In (encode i ty false) (tab_handles (length l) ty).
Proof.
  intros A l i a ty H. apply nthN_some_lt in H. unfold lenN in H. apply in_map_iff. exists (N.to_nat i). split; [now rewrite N2Nat.id |]. apply in_seq. lia.
Qed.
Lemma inner_in : forall s h x, wf s -> vh s h -> denotes s h x -> depth x <> 0 -> In h (inner_handles s).
Proof.
  intros s h x Hw Hv Hd Hz. unfold inner_handles. rewrite !in_app_iff.
  destruct (vh_case s h (wf_cap s Hw) Hv) as [-> _ Hu | -> _ Hu | l -> _ _ Hu | i a -> Hn _ Hu | i l -> Hn _ Hu | i l -> Hn _ Hu | i a b -> Hn _ Hu | i a b -> Hn _ Hu | i c -> Hn _ Hu | i p -> Hn _ Hu];
    try (pose proof (denotes_by_node _ _ _ _ Hu Hd) as Hb; cbn beta iota in Hb; subst x; exfalso; apply Hz; reflexivity).
  - left. eapply tab_in; eauto.
  - right; left. eapply tab_in; eauto.
  - right; right; left. eapply tab_in; eauto.
  - right; right; right; left. eapply tab_in; eauto.
  - right; right; right; right. eapply tab_in; eauto.
Qed.
Lemma deepest_child : forall x, depth x <= 1 \/ exists y, In y (children x) /\ depth x = S (depth y).
Proof.
  assert (Hl : forall l, fold_right (fun y n => Nat.max (depth y) n) 0 l = 0 \/ exists y, In y l /\ fold_right (fun y n => Nat.max (depth y) n) 0 l = depth y).
  { induction l as [| a l IH]; cbn [fold_right]; [now left |]. right. destruct (Nat.max_spec (depth a) (fold_right (fun y n => Nat.max (depth y) n) 0 l)) as [[_ E] | [_ E]]; rewrite E.
    - destruct IH as [Z | (y & Hy & ->)]; [| exists y; split; [now right | reflexivity]]. exists a. split; [now left | lia].
    - exists a. split; [now left | reflexivity]. }
  intros x. destruct x; cbn [depth children]; auto.
  - right. exists x. split; [now left | reflexivity].
  - destruct (Hl l) as [-> | (y & Hy & ->)]; [now left | right; exists y; auto].
  - destruct (Hl l) as [-> | (y & Hy & ->)]; [now left | right; exists y; auto].
  - right. destruct (Nat.max_spec (depth x1) (depth x2)) as [[_ ->] | [_ ->]]; eexists; (split; [| reflexivity]); [right; left | left]; reflexivity.
  - right. destruct (Nat.max_spec (depth x1) (depth x2)) as [[_ ->] | [_ ->]]; eexists; (split; [| reflexivity]); [right; left | left]; reflexivity.
Qed.
Lemma chain : forall s, wf s -> forall n x h, depth x = n -> vh s h -> denotes s h x ->
  exists L, NoDup L /\ incl L (inner_handles s) /\ n <= length L /\ forall k, In k L -> exists z, denotes s k z /\ depth z <= n.
Proof.
  intros s Hw. induction n as [| n IH]; intros x h Hn Hv Hd.
  - exists []. split; [constructor |]. split; [intros ? [] |]. split; [apply le_n | intros ? []].
  - assert (Hh : In h (inner_handles s)) by (eapply inner_in; eauto; lia).
    destruct (deepest_child x) as [H1 | (y & Hy & E)].
    + exists [h]. split; [constructor; [intros [] | constructor] |]. split; [intros k [<- | []]; assumption |]. split; [cbn [length]; lia |]. intros k [<- | []]. exists x. split; [assumption | lia].
    + destruct (vh_operands s h Hw Hv) as [nd [Hu Hg]]. pose proof (denotes_children s h nd x Hu Hd) as HF.
      assert (Hc : exists k, vh s k /\ denotes s k y).
      { unfold node_good in Hg. clear -HF Hg Hy. revert HF Hg Hy. generalize (node_operands nd) (children x). intros l0 xs0 HF. induction HF as [| a b l xs Hab HF IHF]; intros Hg Hy; [destruct Hy |]. inversion Hg as [| ? ? [Ha _] Hg']; subst. destruct Hy as [<- | Hy]; [exists a; split; assumption | apply IHF; assumption]. }
      destruct Hc as (k & Hk & Hdk). destruct (IH y k ltac:(lia) Hk Hdk) as (L & L1 & L2 & L3 & L4). exists (h :: L). split; [| split; [| split]].
      * constructor; [| assumption]. intros Hin. destruct (L4 h Hin) as (z & Hz & Hle). rewrite (denotes_fun _ _ _ _ Hz Hd) in Hle. lia.
      * intros a [<- | Ha]; [assumption | auto].
      * cbn [length]. lia.
      * intros a [<- | Ha]; [exists x; split; [assumption | lia] |]. destruct (L4 a Ha) as (z & Hz & Hle). exists z. split; [assumption | lia].
Qed.
Lemma depth_nodes : forall s h x, wf s -> vh s h -> denotes s h x -> depth x <= inner_nodes s.
Proof.
  intros s h x Hw Hv Hd. destruct (chain s Hw (depth x) x h eq_refl Hv Hd) as (L & L1 & L2 & L3 & _). rewrite <- inner_handles_length.
  pose proof (NoDup_incl_length L1 L2). lia.
Qed.

(* ------------------------------------------------------------------------------------------------------------------ *)
(** * A conjunction keeps the variables of its operands *)

Lemma fvars_and : forall l, fvars (FAnd l) = flat_map fvars l.
Proof. exact (fvars_fnary true). Qed.
Lemma and_vars : forall W s hs ys r s' y, inv W s -> Forall2 (hdl s) hs ys -> f_and hs s = (Ok r, s') -> wf s' -> ext s s' -> denotes s' r y ->
  y = FFalse \/ incl (flat_map fvars ys) (fvars y).
Proof.
  intros W s hs ys r s' y Hi Ho Hrun Hw' He Hd. rewrite f_and_nary in Hrun. pose proof (i_wf _ _ Hi) as Hw. pose proof (wf_cap s Hw) as Hc. pose proof (wf_cap s' Hw') as Hc'.
  assert (Hvs : Forall (vh s) hs) by (eapply hdls_vh; eauto).
  destruct (prepare_nary s true hs) as [[fr |] | |] eqn:Hp.
  2:{ left. unfold f_nary, bind, lift in Hrun. rewrite Hp in Hrun. unfold ret in Hrun. injection Hrun as <- <-. exact (denotes_fun _ _ _ _ Hd (denotes_const s false)). }
  2,3: exfalso; unfold f_nary, bind, lift in Hrun; rewrite Hp in Hrun; discriminate.
  right. destruct (prepare_keeps s true hs fr Hw Hvs Hp) as [K1 K2].
  assert (Hkeep : forall k t, In k (fr32 fr) -> denotes s k t -> incl (fvars t) (fvars y)).
  { intros k t Hk Ht. apply (denotes_ext _ _ _ _ He) in Ht.
    destruct (f_nary_ops s true hs fr r s' Hw Hvs Hp Hrun Hc') as [E | [E | (L & HL & HLi)]].
    - rewrite E in Hk. destruct Hk.
    - rewrite E in Hk. destruct Hk as [<- | []]. rewrite (denotes_fun _ _ _ _ Ht Hd). apply incl_refl.
    - apply HLi in Hk. destruct (denotes_nnode s' r true L y HL Hd) as (zs & -> & HF). intros u Hu. apply (in_fvars_fnary true zs t); [| assumption].
      clear -HF Hk Ht. induction HF as [| a b l xs Hab HF IH]; [destruct Hk |]. destruct Hk as [<- | Hk]; [left; eapply denotes_fun; eauto | right; auto]. }
  intros u Hu. apply in_flat_map in Hu. destruct Hu as (t & Ht & Hu).
  assert (Hh : exists h, In h hs /\ hdl s h t).
  { clear -Ho Ht. induction Ho as [| a b l xs Hab Ho IH]; [destruct Ht |]. destruct Ht as [<- | Ht]; [exists a; split; [now left | assumption] |]. destruct (IH Ht) as (h & Hh & Hd). exists h. split; [now right | assumption]. }
  destruct Hh as (h & Hh & Hv & Hdt & _).
  destruct (vh_operands s h Hw Hv) as [n [Hun Hg]].
  destruct (match n with NAnd _ => true | _ => false end) eqn:En.
  - destruct n as [| | | | l | | | | |]; try discriminate. specialize (K2 h l Hh Hun). destruct (denotes_nnode s h true l t Hun Hdt) as (zs & -> & HF).
    rewrite fvars_fnary in Hu. apply in_flat_map in Hu. destruct Hu as (z & Hz & Hu).
    assert (Hk : exists k, In k l /\ denotes s k z).
    { clear -HF Hz. induction HF as [| a b l xs Hab HF IH]; [destruct Hz |]. destruct Hz as [<- | Hz]; [exists a; split; [now left | assumption] |]. destruct (IH Hz) as (k & Hk & Hd). exists k. split; [now right | assumption]. }
    destruct Hk as (k & Hk & Hdk). apply (Hkeep k z); auto.
  - apply (Hkeep h t); [| assumption | assumption]. apply K1; [assumption | | intros l E; rewrite Hun in E; injection E as ->; discriminate].
    split; [rewrite (is_verum_denotes s h t Hc Hv Hdt) | rewrite (is_falsum_denotes s h t Hc Hv Hdt)]; destruct t; try reflexivity; destruct Hu.
Qed.

(* ------------------------------------------------------------------------------------------------------------------ *)
(** * The steps *)

Lemma mono_all_variables : forall fuel hs, mono (all_variables fuel hs).
Proof. intros. unfold all_variables. apply mono_mfold. intros. apply mono_bind; [apply mono_variables | intros; apply mono_ret]. Qed.
Lemma all_variables_acc : forall fuel hs xs W s acc ref, inv W s -> Forall2 (hdl s) hs xs -> Forall (fun x => depth x < fuel) xs -> set_list var_ltb acc ref ->
  xspec W s (mfold (fun h acc => bind (variables fuel h) (fun vs => ret (add_vars vs acc))) hs acc) (fun l _ _ => set_list var_ltb l (ref ++ flat_map fvars xs)).
Proof.
  intros fuel. induction hs as [| h hs IH]; intros xs W s acc ref Hi Ho Hf Ha; inversion Ho as [| ? x ? xs' Hx Ho']; subst; cbn [mfold flat_map].
  - apply x_ret; [assumption |]. now rewrite app_nil_r.
  - inversion Hf as [| ? ? Hfx Hf']; subst.
    eapply x_bind with (Q1 := fun l _ _ => set_list var_ltb l (ref ++ fvars x)).
    + eapply x_bind; [apply (variables_spec fuel x W s h); auto; apply Hx | intros; apply mono_ret |].
      intros vs s1 W1 Hi1 _ _ Hvs. apply x_ret; [assumption |]. eapply set_list_equiv; [apply vars_all_ok; exact Ha |]. intros u. rewrite !in_app_iff. destruct Hvs as [_ Hvs]. rewrite Hvs. reflexivity.
    + intros. apply mono_mfold. intros. apply mono_bind; [apply mono_variables | intros; apply mono_ret].
    + intros l s1 W1 Hi1 He1 _ Hl. rewrite app_assoc. apply IH; auto. eapply hdls_ext; eauto.
Qed.
Lemma all_variables_spec : forall fuel hs xs W s, inv W s -> Forall2 (hdl s) hs xs -> Forall (fun x => depth x < fuel) xs ->
  xspec W s (all_variables fuel hs) (fun l _ _ => set_list var_ltb l (flat_map fvars xs)).
Proof. intros. apply (all_variables_acc fuel hs xs W s [] []); auto. apply set_list_nil. Qed.

Lemma mono_transform : forall x e, mono (fun s => cnf_transform count_algorithm (transform_fuel s) x e s).
Proof. intros x e s. apply mono_cnf_transform. Qed.
Lemma mono_encode_as_cnf : forall fuelp hs e, mono (encode_as_cnf fuelp hs e).
Proof.
  intros fuelp. induction hs as [| h hs IH]; intros e; cbn [encode_as_cnf]; [apply mono_ret |]. apply mono_bind; [apply mono_pure_expansion | intros].
  apply mono_bind; [apply mono_transform | intros]. apply mono_bind; [apply IH | intros; apply mono_ret].
Qed.
Lemma ts_pure : forall T x y z, pure_res x y -> ts_res T y z -> ts_res T x z.
Proof.
  intros T x y z [Sy Ly] (R1 & R2 & R3 & R4). split; [assumption |]. split; [intros v H; rewrite <- Sy; auto |]. split; [intros v Tv H; apply R3; [assumption | now rewrite Sy] |].
  intros v w Hv Hw Hag. apply R4; auto. intros u Hu. apply Hag. eapply fvars_of_leaves; eauto.
Qed.
Lemma encode_as_cnf_spec : forall fuelp hs xs W s T e, inv W s -> closed T s -> enc_ok T e s -> Forall2 (hdl s) hs xs -> Forall pureable xs -> Forall (fun x => depth x < fuelp) xs ->
  xspec W s (encode_as_cnf fuelp hs e) (fun cs s' _ => exists T' ys, grows T T' s /\ Forall2 (hdl s') cs ys /\ Forall2 (ts_res T') xs ys).
Proof.
  intros fuelp. induction hs as [| h hs IH]; intros xs W s T e Hi Hcl Hen Ho Hp Hf; inversion Ho as [| ? x ? xs' Hx Ho']; subst; cbn [encode_as_cnf].
  - apply x_ret; [assumption |]. exists T, []. split; [apply grows_refl |]. split; constructor.
  - inversion Hp as [| ? ? Hpx Hp']; subst. inversion Hf as [| ? ? Hfx Hf']; subst.
    eapply x_bind; [apply (pure_expansion_spec fuelp x W s h); assumption | |].
    { intros. apply mono_bind; [apply mono_transform | intros]. apply mono_bind; [apply mono_encode_as_cnf | intros; apply mono_ret]. }
    intros p s1 W1 Hi1 He1 _ (y & Hy & Ry).
    eapply x_bind with (Q1 := fun c s' _ => exists T', grows T T' s1 /\ closed T' s' /\ enc_ok T' (snd c) s' /\ exists z, hdl s' (fst c) z /\ ts_res T' y z).
    + refine (cnf_transform_det count_algorithm (transform_fuel s1) y T W1 s1 p e eq_refl Hi1 Hy (con_free_of_vars _ _ (proj2 Ry)) _ _ _).
      * eapply closed_ext; eauto.
      * eapply enc_ok_ext; [exact He1 | apply sub_refl | assumption].
      * unfold transform_fuel. pose proof (depth_nodes s1 p y (i_wf _ _ Hi1) (proj1 Hy) (proj1 (proj2 Hy))). lia.
    + intros. apply mono_bind; [apply mono_encode_as_cnf | intros; apply mono_ret].
    + intros c s2 W2 Hi2 He2 _ (T1 & Hg & Hc1 & Hen1 & z & Hz & Rz).
      eapply x_bind; [apply (IH xs' W2 s2 T1 (snd c)); auto | intros; apply mono_ret |].
      { eapply hdls_ext; [| exact Ho']. eapply ext_trans; eauto. }
      intros cs s3 W3 Hi3 He3 _ (T2 & ys & Hg2 & Hys & HR). apply x_ret; [assumption |]. exists T2, (z :: ys). split; [| split].
      * eapply grows_trans; [exact He1 | | eapply grows_trans; [exact He2 | exact Hg | exact Hg2]]. apply grows_refl.
      * constructor; [eapply hdl_ext; eauto | assumption].
      * constructor; [| assumption]. eapply ts_pure; [exact Ry |]. eapply ts_res_sub; [apply Hg2 | assumption].
Qed.

Definition tree_lits (ys : list fml) : list lit := flat_map (fun y => match y with FLit l => [l] | _ => [] end) ys.
Lemma unit_literals_run : forall s hs ys, wf s -> Forall2 (hdl s) hs ys -> unit_literals hs s = (Ok (tree_lits ys), s).
Proof.
  intros s hs ys Hw HF. induction HF as [| h y hs ys (Hv & Hd & _) HF IH]; [reflexivity |]. cbn [unit_literals].
  destruct (vh_operands s h Hw Hv) as [n [Hu _]]. rewrite (bind_lift_ok _ _ _ _ _ _ Hu). unfold bind. rewrite IH. unfold ret. cbn [tree_lits flat_map].
  pose proof (denotes_by_node _ _ _ _ Hu Hd) as Hb. destruct n; cbn beta iota in Hb; repeat match goal with H : exists _, _ |- _ => destruct H | H : _ /\ _ |- _ => destruct H end; subst; reflexivity.
Qed.
Lemma mono_unit_literals : forall hs, mono (unit_literals hs).
Proof. induction hs as [| h hs IH]; cbn [unit_literals]; [apply mono_ret |]. apply mono_bind; [apply mono_lift | intros]. apply mono_bind; [apply IH | intros; apply mono_ret]. Qed.
Lemma tree_lits_in : forall ys l, In l (tree_lits ys) <-> In (FLit l) ys.
Proof.
  intros ys l. unfold tree_lits. rewrite in_flat_map. split.
  - intros (y & Hy & H). destruct y; try (destruct H; fail). destruct H as [-> | []]. assumption.
  - intros H. exists (FLit l). split; [assumption | now left].
Qed.
Lemma backbone_pos : forall ls u, In u (a_pos (backbone_of ls)) <-> In (Lit u true) ls.
Proof.
  intros ls u. cbn [backbone_of a_pos]. rewrite in_map_iff. split.
  - intros ([w p] & E & H). apply filter_In in H. cbn [lit_var lit_phase] in *. destruct H as [H ->]. now subst.
  - intros H. exists (Lit u true). split; [reflexivity |]. apply filter_In. auto.
Qed.
Lemma backbone_neg : forall ls u, In u (a_neg (backbone_of ls)) <-> In (Lit u false) ls.
Proof.
  intros ls u. cbn [backbone_of a_neg]. rewrite in_map_iff. split.
  - intros ([w p] & E & H). apply filter_In in H. cbn [lit_var lit_phase] in *. destruct H as [H Hp]. destruct p; [discriminate |]. now subst.
  - intros H. exists (Lit u false). split; [reflexivity |]. apply filter_In. auto.
Qed.
Lemma backbone_extends : forall ls v, forallb (lit_sem v) ls = true <-> extends (backbone_of ls) v.
Proof.
  intros ls v. rewrite forallb_forall. split.
  - intros H u. rewrite backbone_pos, backbone_neg. split; intros Hu; apply H in Hu; cbn [lit_sem] in Hu; [assumption | now apply negb_true_iff in Hu].
  - intros H [u p] Hl. destruct (H u) as [H1 H2]. destruct p; cbn [lit_sem].
    + apply H1. now apply backbone_pos.
    + apply negb_true_iff. apply H2. now apply backbone_neg.
Qed.

Definition clash (a : assignment) (y z : fml) : Prop := forall u, y = FLit (Lit u false) -> In u (a_pos a) -> z = FFalse.
Lemma restrict_head : forall a fuel s h y, wf s -> vh s h -> denotes s h y -> cnf_shape y = true -> (depth y < fuel)%nat ->
  spec wf core s (restrict fuel a h) (tres (fun z => cnf_shape z = true /\ rtree a y z /\ clash a y z)).
Proof.
  intros a fuel s h y Hw Hv Hd Hc Hf. destruct (restrict_cnf a fuel s h y Hw Hv Hd Hc Hf) as [A B]. split; [assumption |]. intros Hcap.
  destruct (B Hcap) as (r & Er & Hw' & Hco & Hvr & z & Hz & Cz & Rz). exists r. split; [assumption |]. split; [assumption |]. split; [assumption |]. split; [assumption |].
  exists z. split; [assumption |]. split; [assumption |]. split; [assumption |]. intros u -> Hu. destruct fuel as [| fuel]; [lia |].
  inversion Hd as [| | ? ? Hun | | | | | | |]; subst. cbn [restrict] in Er, Hz. rewrite (bind_lift_ok _ _ _ _ _ _ Hun) in Er, Hz. cbn beta iota in Er, Hz. unfold ret in Er, Hz. cbn [fst snd] in Er, Hz.
  injection Er as <-. unfold restrict_lit in Hz. cbn [lit_var lit_phase] in Hz. rewrite (proj2 (memv_In u (a_pos a)) Hu) in Hz. exact (denotes_fun _ _ _ _ Hz (denotes_const s false)).
Qed.
Lemma mono_restrict_all : forall fuel a hs, mono (restrict_all fuel a hs).
Proof. intros fuel a. induction hs as [| h hs IH]; cbn [restrict_all]; [apply mono_ret |]. apply mono_bind; [apply mono_restrict | intros]. apply mono_bind; [apply IH | intros; apply mono_ret]. Qed.

Definition restricted (a : assignment) (ys zs : list fml) : Prop :=
  Forall (fun z => cnf_shape z = true) zs /\ (forall v, extends a v -> forallb (sem v) zs = forallb (sem v) ys)
  /\ (forall u, In u (flat_map fvars zs) -> In u (flat_map fvars ys) /\ unassigned a u)
  /\ (forall u, In (FLit (Lit u false)) ys -> In u (a_pos a) -> In FFalse zs).
Lemma restrict_all_spec : forall fuel a hs ys W s, inv W s -> Forall2 (hdl s) hs ys -> Forall (fun y => cnf_shape y = true) ys -> (3 <= fuel)%nat ->
  xspec W s (restrict_all fuel a hs) (fun rs s' _ => exists zs, Forall2 (hdl s') rs zs /\ restricted a ys zs).
Proof.
  intros fuel a. induction hs as [| h hs IH]; intros ys W s Hi Ho Hc Hf; inversion Ho as [| ? y ? ys' Hy Ho']; subst; cbn [restrict_all].
  - apply x_ret; [assumption |]. exists []. split; [constructor |]. split; [constructor |]. split; [reflexivity |]. split; [intros ? [] | intros ? []].
  - inversion Hc as [| ? ? Cy Hc']; subst. pose proof (cnf_depth y Cy) as Dy.
    eapply x_bind; [apply x_core; [exact Hi | apply (restrict_head a fuel s h y (i_wf _ _ Hi) (proj1 Hy) (proj1 (proj2 Hy)) Cy ltac:(lia))] | |].
    { intros. apply mono_bind; [apply mono_restrict_all | intros; apply mono_ret]. }
    intros k s1 W1 Hi1 He1 _ (-> & _ & Hvk & z & Hdz & Cz & [Rz1 Rz2] & Kz).
    assert (Hz : hdl s1 k z).
    { split; [assumption |]. split; [assumption |]. intros u Hu. eapply known_ext; [exact He1 |]. apply (proj2 (proj2 Hy)). now apply Rz2. }
    eapply x_bind; [apply (IH ys' W s1); auto; eapply hdls_ext; eauto | intros; apply mono_ret |].
    intros ks s2 W2 Hi2 He2 _ (zs & Hzs & R1 & R2 & R3 & R4). apply x_ret; [assumption |].
    rewrite (is_verum_denotes s1 k z (wf_cap s1 (i_wf _ _ Hi1)) Hvk Hdz).
    assert (Htop : match z with FTrue => true | _ => false end = true -> z = FTrue) by (destruct z; intros; (reflexivity || discriminate)).
    destruct (match z with FTrue => true | _ => false end) eqn:Ez.
    + rewrite (Htop eq_refl) in *. exists zs. split; [assumption |]. split; [assumption |]. split; [| split].
      * intros v Hv. cbn [forallb]. rewrite <- (Rz1 v Hv), <- (R2 v Hv). reflexivity.
      * intros u Hu. destruct (R3 u Hu). split; [apply in_or_app; now right | assumption].
      * intros u [E | Hu] Hp; [specialize (Kz u E Hp); discriminate | eauto].
    + exists (z :: zs). split; [constructor; [eapply hdl_ext; eauto | assumption] |]. split; [constructor; assumption |]. split; [| split].
      * intros v Hv. cbn [forallb]. rewrite <- (Rz1 v Hv), <- (R2 v Hv). reflexivity.
      * intros u Hu. cbn [flat_map] in Hu |- *. apply in_app_or in Hu. destruct Hu as [Hu | Hu]; [destruct (Rz2 u Hu) | destruct (R3 u Hu)]; (split; [apply in_or_app; auto | assumption]).
      * intros u [E | Hu] Hp; [left; eauto | right; eauto].
Qed.
