(** Counting models: the clause form has as many models as the formula, the BDD counts them. *)
From Coq Require Import NArith ZArith List Bool Arith Lia Permutation.
From Verif Require Import Base EncodingModel EncodingProofs Syntax FactoryModel FactoryInv FactoryBasics FactoryProofs FactorySpecs FactoryNary FactoryOps EvalProofs
  InvariantSpec InvariantProofs OpsModel OpsProofs ConstraintProofs CacheModel TransModel TreeSpec WorldProofs MetricsProofs EncodeProofs NnfProofs CnfProofs HandlerProofs DefBasics
  TseitinProofs PgProofs EncoderProofs PureProofs BddModel BddCount OrderModel OrderProofs XReplay CountModel.
Import ListNotations.
Local Open Scope nat_scope.

(* ------------------------------------------------------------------------------------------------------------------ *)
(** * Sequences of truth values *)

Lemma bools_in : forall n bs, In bs (bools n) <-> length bs = n.
Proof.
  induction n as [| n IH]; intros bs; cbn [bools].
  - split; [intros [<- | []]; auto | destruct bs; [left; auto | discriminate]].
  - rewrite in_app_iff, !in_map_iff. split.
    + intros [(x & <- & H) | (x & <- & H)]; apply IH in H; cbn [length]; auto.
    + destruct bs as [| [|] bs]; intros H; [discriminate | right | left]; injection H as H; exists bs; split; auto; apply IH; auto.
Qed.
Lemma NoDup_map_in : forall A B (f : A -> B) l, NoDup l -> (forall a b, In a l -> In b l -> f a = f b -> a = b) -> NoDup (map f l).
Proof.
  intros A B f l H. induction H as [| a l Ha H IH]; intros Hf; cbn [map]; constructor.
  - rewrite in_map_iff. intros (b & E & Hb). apply Hf in E; [| now right | now left]. subst b. contradiction.
  - apply IH. intros b c Hb Hc. apply Hf; now right.
Qed.
Lemma bools_once : forall n, NoDup (bools n).
Proof.
  induction n as [| n IH]; cbn [bools]; [constructor; [intros [] | constructor] |]. apply NoDup_app_intro.
  - apply NoDup_map_in; [assumption |]. intros a b _ _ E. now injection E.
  - apply NoDup_map_in; [assumption |]. intros a b _ _ E. now injection E.
  - intros x Hx Hy. apply in_map_iff in Hx, Hy. destruct Hx as (a & <- & _), Hy as (b & E & _). discriminate.
Qed.
Lemma bools_length : forall n, length (bools n) = 2 ^ n.
Proof. induction n as [| n IH]; cbn [bools]; [reflexivity |]. rewrite app_length, !map_length, IH. cbn [Nat.pow]. lia. Qed.
Lemma list_prod_once : forall A B (l : list A) (m : list B), NoDup l -> NoDup m -> NoDup (list_prod l m).
Proof.
  intros A B l m Hl Hm. induction Hl as [| a l Ha Hl IH]; cbn [list_prod]; [constructor |]. apply NoDup_app_intro; [| assumption |].
  - apply NoDup_map_in; [assumption |]. intros b c _ _ E. now injection E.
  - intros [b c] Hx Hy. apply in_map_iff in Hx. destruct Hx as (d & E & _). injection E as <- <-. apply in_prod_iff in Hy. tauto.
Qed.

Lemma asg_map : forall V v u, In u V -> asg V (map v V) u = v u.
Proof.
  intros V v u H. unfold asg. induction V as [| a V IH]; [destruct H |]. cbn [index_of map]. destruct (var_eqb u a) eqn:E.
  - apply var_eqb_spec in E. subst a. reflexivity.
  - destruct H as [-> | H]; [rewrite (proj2 (var_eqb_spec u u) eq_refl) in E; discriminate |]. specialize (IH H). destruct (index_of u V); cbn [option_map nth] in *; exact IH.
Qed.
Lemma map_asg : forall V bs, NoDup V -> length bs = length V -> map (asg V bs) V = bs.
Proof.
  induction V as [| a V IH]; intros bs Hn Hl; destruct bs as [| b bs]; try discriminate; [reflexivity |]. inversion Hn as [| ? ? Ha Hn']; subst. injection Hl as Hl. cbn [map]. f_equal.
  - unfold asg. cbn [index_of]. rewrite (proj2 (var_eqb_spec a a) eq_refl). reflexivity.
  - rewrite <- (IH bs Hn' Hl) at 2. apply map_ext_in. intros u Hu. unfold asg. cbn [index_of]. destruct (var_eqb u a) eqn:E; [apply var_eqb_spec in E; subst; contradiction |].
    destruct (index_of u V); reflexivity.
Qed.

(** The models of [x] over the variables [V]. *)
Definition models (V : list var) (x : fml) : list (list bool) := filter (fun bs => sem (asg V bs) x) (bools (length V)).

Section Split.
Variables (V U : list var) (x y : fml).
Hypothesis HV : NoDup V.
Hypothesis HU : NoDup U.
Hypothesis Hx : incl (fvars x) V.
Hypothesis Hy : forall u, In u U <-> In u (fvars y).
Hypothesis H1 : forall v, sem v y = true -> sem v x = true.
Hypothesis H2 : forall v, sem v x = true -> exists w, sem w y = true /\ forall u, In u V -> w u = v u.
Hypothesis H3 : determined (fvars x) y (fvars y).
Let D := filter (fun u => negb (existsb (var_eqb u) U)) V.
Let val (p : list bool * list bool) : valuation := fun u => if existsb (var_eqb u) U then asg U (fst p) u else asg D (snd p) u.

Lemma val_u : forall p u, In u U -> val p u = asg U (fst p) u.
Proof. intros p u H. unfold val. apply existsb_var in H. now rewrite H. Qed.
Lemma val_d : forall p u, In u D -> val p u = asg D (snd p) u.
Proof. intros p u H. unfold val. apply filter_In in H. destruct H as [_ H]. apply negb_true_iff in H. now rewrite H. Qed.
Lemma val_sem : forall p, In (fst p) (models U y) -> sem (val p) y = true.
Proof.
  intros p H. apply filter_In in H. destruct H as [_ H]. rewrite <- H. apply sem_fvars. intros u Hu. apply val_u. now apply Hy.
Qed.
Lemma D_once : NoDup D.
Proof. apply NoDup_filter. assumption. Qed.
Theorem count_split : length (models V x) = length (models U y) * 2 ^ length D.
Proof.
  set (L := map (fun p => map (val p) V) (list_prod (models U y) (bools (length D)))).
  assert (EL : length L = length (models U y) * 2 ^ length D) by (unfold L; rewrite map_length, prod_length, bools_length; reflexivity).
  rewrite <- EL. apply Permutation_length. apply NoDup_Permutation.
  - apply NoDup_filter, bools_once.
  - unfold L. apply NoDup_map_in; [apply list_prod_once; [apply NoDup_filter |]; apply bools_once |].
    intros [bu bd] [bu' bd'] Hp Hp' E. apply in_prod_iff in Hp, Hp'. destruct Hp as [Hu Hd], Hp' as [Hu' Hd'].
    assert (Ag : forall u, In u V -> val (bu', bd') u = val (bu, bd) u).
    { intros u H. rewrite <- (asg_map V (val (bu, bd)) u H), <- (asg_map V (val (bu', bd')) u H). now rewrite E. }
    assert (AgU : forall u, In u U -> asg U bu' u = asg U bu u).
    { intros u H. change (asg U (fst (bu', bd')) u = asg U (fst (bu, bd)) u). rewrite <- (val_u (bu, bd) u H), <- (val_u (bu', bd') u H). apply H3; [now apply val_sem | now apply val_sem | | now apply Hy]. intros a Ha. apply Ag. now apply Hx. }
    assert (AgD : forall u, In u D -> asg D bd' u = asg D bd u).
    { intros u H. change (asg D (snd (bu', bd')) u = asg D (snd (bu, bd)) u). rewrite <- (val_d (bu, bd) u H), <- (val_d (bu', bd') u H). apply Ag. apply filter_In in H. apply H. }
    apply filter_In in Hu, Hu'. destruct Hu as [Hu _], Hu' as [Hu' _]. apply bools_in in Hu, Hu', Hd, Hd'.
    f_equal; [rewrite <- (map_asg U bu), <- (map_asg U bu') by assumption | rewrite <- (map_asg D bd), <- (map_asg D bd') by (assumption || apply D_once)]; apply map_ext_in; intros u H; symmetry; auto.
  - intros bs. unfold L. rewrite in_map_iff. split.
    + intros H. apply filter_In in H. destruct H as [Hb Hs]. apply bools_in in Hb. destruct (H2 _ Hs) as (w & Hw & Ag). exists (map w U, map (asg V bs) D). split.
      * rewrite <- (map_asg V bs) at 2 by assumption. apply map_ext_in. intros u H. unfold val. cbn [fst snd]. destruct (existsb (var_eqb u) U) eqn:E.
        -- apply existsb_var in E. rewrite asg_map by assumption. now apply Ag.
        -- apply asg_map. apply filter_In. split; [assumption | now rewrite E].
      * apply in_prod_iff. split; [| apply bools_in, map_length]. apply filter_In. split; [apply bools_in, map_length |]. rewrite <- Hw. apply sem_fvars. intros u H. apply asg_map. now apply Hy.
    + intros ([bu bd] & <- & H). apply in_prod_iff in H. destruct H as [Hu Hd]. apply filter_In. split; [apply bools_in, map_length |].
      rewrite <- (H1 (val (bu, bd))); [| now apply val_sem]. apply sem_fvars. intros u H. apply asg_map. now apply Hx.
Qed.
End Split.

(* ------------------------------------------------------------------------------------------------------------------ *)
(** * The clause form has one model for each model of the formula *)

Fixpoint no_pg (alg : cnf_algorithm) : bool := match alg with CnfPlaistedGreenbaum _ => false | CnfAdvanced _ _ a => no_pg a | _ => true end.
Lemma ts_self : forall T x y, cnf_shape y = true -> (forall v, sem v y = sem v x) -> incl (fvars y) (fvars x) -> ts_res T x y.
Proof.
  intros T x y Hc Hs Hi. split; [assumption |]. split; [intros v; now rewrite Hs |]. split; [intros v _; now rewrite Hs |]. intros v w _ _ Hag u Hu. auto.
Qed.
Lemma ts_res_sub : forall T T' x y, sub T' T -> ts_res T x y -> ts_res T' x y.
Proof. intros T T' x y Hs [R1 [R2 [R3 R4]]]. split; [assumption |]. split; [assumption |]. split; [| assumption]. intros v Hv. apply R3. auto. Qed.
Lemma ts_conj : forall T xs ys y, Forall2 (ts_res T) xs ys -> cnf_shape y = true -> (forall v, sem v y = forallb (sem v) ys) -> incl (fvars y) (flat_map fvars ys) -> ts_res T (FAnd xs) y.
Proof.
  intros T xs ys y HF Hc Hs Hi. destruct (equisat_conj T xs ys y) as (_ & E1 & E2); auto.
  { clear -HF. induction HF; constructor; [now apply ts_res_equisat | assumption]. }
  split; [assumption |]. split; [assumption |]. split; [assumption |]. intros v w Hv Hw Hag u Hu. rewrite Hs in Hv, Hw.
  assert (Hag' : forall a, In a (flat_map fvars xs) -> w a = v a) by (intros a Ha; apply Hag; exact (eq_ind_r (fun l => In a l) Ha (fvars_fnary true xs))). apply Hi in Hu. clear -HF Hv Hw Hag' Hu.
  induction HF as [| a b xs ys (_ & _ & _ & Hd) HF IH]; [destruct Hu |]. cbn [forallb flat_map] in *. apply andb_true_iff in Hv, Hw. destruct Hv, Hw. apply in_app_or in Hu. destruct Hu as [Hu | Hu].
  - apply Hd; auto. intros c Hc. apply Hag'. apply in_or_app. now left.
  - apply IH; auto. intros c Hc. apply Hag'. apply in_or_app. now right.
Qed.

Lemma nary_st_det : forall (k : N -> cnf_encoder -> M (N * cnf_encoder)), (forall o e, mono (k o e)) ->
  forall ops xs W s T acc accx ys e, inv W s -> closed T s -> enc_ok T e s -> Forall2 (hdl s) ops xs -> Forall2 (hdl s) acc ys -> Forall2 (ts_res T) accx ys ->
  (forall o x t T' W' e', In x xs -> inv W' t -> ext s t -> closed T' t -> enc_ok T' e' t -> hdl t o x ->
     xspec W' t (k o e') (fun p s' _ => exists T2, grows T' T2 t /\ closed T2 s' /\ enc_ok T2 (snd p) s' /\ exists y, hdl s' (fst p) y /\ ts_res T2 x y)) ->
  xspec W s (nary_lazy_st true k acc ops e) (fun p s' _ => exists T', grows T T' s /\ closed T' s' /\ enc_ok T' (snd p) s' /\ exists y, hdl s' (fst p) y /\ ts_res T' (FAnd (accx ++ xs)) y).
Proof.
  intros k Hmono ops. induction ops as [| o ops IH]; intros xs W s T acc accx ys e Hi Hcl Hen Ho Ha HP H; inversion Ho as [| ? x ? xs' Hx Ho']; subst; cbn [nary_lazy_st].
  - eapply x_bind; [apply (x_conj W s acc ys); auto | intros; apply mono_ret |].
    { clear -HP. induction HP as [| ? ? ? ? [Hc _]]; constructor; assumption. }
    intros r s1 W1 Hi1 He1 _ [-> [y [Hy [Hc [Hs Hin]]]]]. apply x_ret; [assumption |]. exists T. split; [apply grows_refl |]. split; [eapply closed_ext; eauto |].
    split; [eapply enc_ok_ext; [exact He1 | apply sub_refl | assumption] |].
    exists y. split; [assumption |]. rewrite app_nil_r. eapply ts_conj; eauto.
  - eapply x_bind; [apply (H o x s T W e); auto using ext_refl; left; reflexivity | |].
    { intros h. apply mono_bind; [apply mono_lift |]. intros [r |]; [apply mono_nary_lazy_st; assumption | apply mono_ret]. }
    intros [h e1] s1 W1 Hi1 He Hs [T1 [Hg1 [Hc1 [Hen1 [z [Hz HPz]]]]]]. cbn [fst snd] in *.
    assert (Ha1 : Forall2 (hdl s1) (acc ++ [h]) (ys ++ [z])) by (apply Forall2_app; [eapply hdls_ext; eauto | constructor; auto]).
    assert (HP1 : Forall2 (ts_res T1) (accx ++ [x]) (ys ++ [z])).
    { apply Forall2_app; [| constructor; auto]. destruct Hg1 as [Hg1 _]. clear -HP Hg1. induction HP; constructor; eauto using ts_res_sub. }
    pose proof (prepare_nary_spec s1 true (acc ++ [h]) (i_wf _ _ Hi1) (hdls_vh _ _ _ Ha1)) as Hp.
    destruct (prepare_nary s1 true (acc ++ [h])) as [[r |] | |] eqn:E; try contradiction.
    + eapply x_lift_bind; [exact E |]. cbn beta iota.
      replace (accx ++ x :: xs') with ((accx ++ [x]) ++ xs') by (rewrite <- app_assoc; reflexivity).
      eapply x_conseq; [apply (IH xs' W1 s1 T1 (acc ++ [h]) (accx ++ [x]) (ys ++ [z]) e1); auto; [eapply hdls_ext; eauto |] |].
      * intros j w t T2 W2 e2 Hin Hi2 He2 Hc2 Hen2 Hk. apply H; auto; [right; assumption | eapply ext_trans; eauto].
      * intros p s2 W2 _ _ _ [T2 [Hg2 Hrest]]. exists T2. split; [eapply grows_trans; eauto | exact Hrest].
    + eapply x_lift_bind; [exact E |]. cbn beta iota. apply x_ret; [assumption |]. cbn [fst snd]. exists T1. split; [assumption |]. split; [assumption |]. split; [assumption |].
      exists (fconst false). split; [apply hdl_const |].
      assert (Hn : forall v, forallb (sem v) (ys ++ [z]) = false).
      { intros v. exact (nary_sem_allv_not s1 v true (acc ++ [h]) (ys ++ [z]) (hdls_denotes _ _ _ Ha1) (Hp v)). }
      split; [reflexivity |]. split; [intros v E'; discriminate |]. split; [| intros v w E'; discriminate]. intros v Hv Hall. exfalso. cbn [sem] in Hall.
      replace (accx ++ x :: xs') with ((accx ++ [x]) ++ xs') in Hall by (rewrite <- app_assoc; reflexivity). rewrite forallb_app in Hall. apply andb_true_iff in Hall.
      destruct Hall as [Hall _]. assert (Hq : forallb (sem v) (ys ++ [z]) = true); [| rewrite Hn in Hq; discriminate].
      revert Hall HP1 Hv. clear. generalize (accx ++ [x]) (ys ++ [z]). intros l l' Hall HF Hv. induction HF as [| a b l l' (_ & _ & Hab & _) HF IH]; [reflexivity |].
      cbn [forallb] in *. apply andb_true_iff in Hall. destruct Hall. rewrite Hab, IH; auto.
Qed.

Theorem cnf_transform_det : forall alg fuel x T W s h e, no_pg alg = true -> inv W s -> hdl s h x -> con_free x = true -> closed T s -> enc_ok T e s -> (4 * depth x + 14 <= fuel)%nat ->
  xspec W s (cnf_transform alg fuel h e) (fun p s' _ => exists T', grows T T' s /\ closed T' s' /\ enc_ok T' (snd p) s' /\ exists y, hdl s' (fst p) y /\ ts_res T' x y).
Proof.
  induction alg as [| b | b | d c alg IH]; intros fuel x T W s h e Hpg Hi Hx Hcf Hcl Hok Hf; cbn [cnf_transform]; assert (Hen : encodable s x) by (apply con_free_leaves; assumption);
    (eapply x_lift_bind; [eapply cnf_lift; eauto |]; destruct (cnf_shape x) eqn:Ec;
     [apply x_ret; [assumption |]; exists T; split; [apply grows_refl |]; split; [assumption |]; split; [assumption |]; exists x; split; [assumption |]; apply ts_self; auto using incl_refl |]).
  - eapply x_bind; [apply (fact_nop_spec true fuel x); auto; lia | intros; apply mono_ret |].
    intros r s1 W1 Hi1 He1 Hs1 [y [Hy [[_ [_ Hr]] Hn]]]. destruct (Hr Hcf) as [Hse Hin]. apply x_ret; [assumption |]. exists T. split; [apply grows_refl |]. split; [eapply closed_ext; eauto |].
    split; [eapply enc_ok_ext; [exact He1 | apply sub_refl | assumption] |]. exists y. split; [assumption |]. apply ts_self; assumption.
  - eapply x_bind; [apply (tseitin_fresh fuel x T); auto; apply ts_state; assumption | intros; apply mono_ret |].
    intros [r st] s1 W1 Hi1 He1 Hs1 [T1 [Hg [Hc1 [Hst [y [Hy Hq]]]]]]. cbn [fst snd] in *. apply x_ret; [assumption |]. exists T1. cbn [fst snd]. split; [assumption |]. split; [assumption |].
    split; [| exists y; split; assumption]. apply enc_ts; [eapply enc_ok_ext; [exact He1 | apply Hg | assumption] | assumption].
  - discriminate.
  - set (single := fun op enc => p <-- factorization limit_handler true fuel op (limit_new d c) ;;
       match fst p with FOk r => ret (r, enc) | FErr _ => cnf_transform alg fuel op enc end).
    assert (Hmono : forall o e', mono (single o e')).
    { intros o e'. apply mono_bind; [apply mono_factorization |]. intros [[r | ?] ?]; cbn [fst]; [apply mono_ret | apply mono_cnf_transform]. }
    assert (Hs : forall o z t T' W' e', inv W' t -> con_free z = true -> (4 * depth z + 14 <= fuel)%nat -> closed T' t -> enc_ok T' e' t -> hdl t o z ->
       xspec W' t (single o e') (fun p s' _ => exists T2, grows T' T2 t /\ closed T2 s' /\ enc_ok T2 (snd p) s' /\ exists y, hdl s' (fst p) y /\ ts_res T2 z y)).
    { intros o z t T' W' e' Hi' Hez Hfz Hcl' Hok' Hz. unfold single. eapply x_bind; [apply (factorization_spec _ limit_handler true fuel z); auto; [apply con_free_leaves; assumption | lia] | |].
      { intros [[r | ?] ?]; cbn [fst]; [apply mono_ret | apply mono_cnf_transform]. }
      intros [[r | err] hs] s1 W1 Hi1 He1 Hs1 Hq; cbn [fst fpost] in *.
      - destruct Hq as [y [Hy [[_ [_ Hr]] Hn]]]. destruct (Hr Hez) as [Hse Hin]. apply x_ret; [assumption |]. cbn [fst snd]. exists T'. split; [apply grows_refl |]. split; [eapply closed_ext; eauto |].
        split; [eapply enc_ok_ext; [exact He1 | apply sub_refl | assumption] |]. exists y. split; [assumption |]. apply ts_self; assumption.
      - eapply x_conseq; [apply (IH fuel z T' W1 s1 o e'); [exact Hpg | assumption | eapply hdl_ext; eauto | assumption | eapply closed_ext; eauto | eapply enc_ok_ext; [exact He1 | apply sub_refl | assumption] | assumption] |].
        intros p s2 W2 _ _ _ [T2 [Hg2 Hrest]]. exists T2. split; [eapply grows_trans; [exact He1 | apply grows_refl | exact Hg2] | exact Hrest]. }
    destruct (vh_operands s h (i_wf _ _ Hi) (proj1 Hx)) as [n [Hu _]]. eapply x_unpack_bind; [exact Hu |].
    pose proof (denotes_by_node _ _ _ _ Hu (proj1 (proj2 Hx))) as Hn. pose proof (hdls_children s h x n (i_wf _ _ Hi) Hx Hu) as Hch.
    destruct n; try (apply Hs; assumption). destruct Hn as [xs [-> _]]. cbn [node_operands children] in Hch.
    apply (nary_st_det single Hmono l xs W s T [] [] [] e); auto.
    intros o z t T' W' e' Hz Hi' He' Hc' Hok' Hoz. apply Hs; auto.
    + cbn [con_free] in Hcf. rewrite forallb_forall in Hcf. auto.
    + assert (Hzc : In z (children (FAnd xs))) by exact Hz. apply children_depth in Hzc. lia.
Qed.

(* ------------------------------------------------------------------------------------------------------------------ *)
(** * The BDD *)

Lemma tree_of_complete : forall fuel s h x, denotes s h x -> (depth x < fuel)%nat -> tree_of fuel s h = Some x.
Proof.
  induction fuel as [| fuel IH]; intros s h x Hd Hf; [lia |].
  assert (Hl : forall l xs, Forall2 (denotes s) l xs -> (fold_right (fun y n => Nat.max (depth y) n) 0 xs < fuel)%nat -> opt_map (tree_of fuel s) l = Some xs).
  { intros l xs HF. induction HF as [| a b l xs Hab HF IHl]; intros Hm; [reflexivity |]. cbn [fold_right] in Hm. cbn [opt_map]. rewrite (IH s a b Hab) by lia. rewrite IHl by lia. reflexivity. }
  cbn [tree_of]. inversion Hd; subst; cbn [depth] in Hf;
    repeat match goal with H : unpack s _ = Ok _ |- _ => rewrite H; clear H | H : denotes s _ ?x |- _ => rewrite (IH s _ x H) by lia; clear H end; try reflexivity.
  - rewrite (Hl _ _ ltac:(eassumption)) by lia. reflexivity.
  - rewrite (Hl _ _ ltac:(eassumption)) by lia. reflexivity.
Qed.
