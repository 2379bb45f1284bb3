(** The CNF encoder. *)
From Coq Require Import NArith ZArith List Bool Arith Lia.
From Verif Require Import Base EncodingModel Syntax FactoryModel FactoryInv FactoryBasics FactoryProofs FactorySpecs FactoryNary FactoryOps
  EvalProofs InvariantSpec HashConsProofs InvariantProofs HistoryProofs ConstraintModel ConstraintProofs OpsModel OpsProofs CcModel EncBasics
  PbModel CacheModel TransModel TreeSpec WorldProofs MetricsProofs EncodeProofs NnfProofs CnfProofs DefBasics TseitinProofs PgProofs.
Import ListNotations.
Local Open Scope N_scope.

Definition enc_ok (T : world) (e : cnf_encoder) (s : factory) : Prop :=
  (forall st, ce_tseitin e = Some st -> ts_ok T st s) /\ (forall st, ce_pg e = Some st -> pg_ok T st s).
Lemma enc_ok_ext : forall T T' e s s', ext s s' -> sub T' T -> enc_ok T e s -> enc_ok T' e s'.
Proof. intros T T' e s s' He Hs [H1 H2]. split; intros st E; [eapply ts_ok_ext | eapply pg_ok_ext]; eauto. Qed.
Lemma ts_new : forall T s, ts_ok T cnf_state_new s.
Proof. intros T s h r H. discriminate. Qed.
Lemma pg_new : forall T s, pg_ok T cnf_state_new s.
Proof. intros T s. split; intros h r H; discriminate. Qed.
Lemma ts_state : forall T e s, enc_ok T e s -> ts_ok T (state_or_new (ce_tseitin e)) s.
Proof. intros T e s [H _]. destruct (ce_tseitin e) eqn:E; cbn [state_or_new]; [auto | apply ts_new]. Qed.
Lemma pg_state : forall T e s, enc_ok T e s -> pg_ok T (state_or_new (ce_pg e)) s.
Proof. intros T e s [_ H]. destruct (ce_pg e) eqn:E; cbn [state_or_new]; [auto | apply pg_new]. Qed.
Lemma enc_ts : forall T e s st, enc_ok T e s -> ts_ok T st s -> enc_ok T (mkCnfEncoder (keep_state (ce_tseitin e) st) (ce_pg e)) s.
Proof. intros T e s st [H1 H2] H. split; cbn [ce_tseitin ce_pg]; [| assumption]. intros st' E. destruct (ce_tseitin e); cbn in E; [injection E as <-; assumption | discriminate]. Qed.
Lemma enc_pg : forall T e s st, enc_ok T e s -> pg_ok T st s -> enc_ok T (mkCnfEncoder (ce_tseitin e) (keep_state (ce_pg e) st)) s.
Proof. intros T e s st [H1 H2] H. split; cbn [ce_tseitin ce_pg]; [assumption |]. intros st' E. destruct (ce_pg e); cbn in E; [injection E as <-; assumption | discriminate]. Qed.

Lemma mono_nary_lazy_st : forall S conj (k : N -> S -> M (N * S)), (forall o st, mono (k o st)) -> forall ops acc st, mono (nary_lazy_st conj k acc ops st).
Proof.
  intros S conj k Hk ops. induction ops as [| o ops IH]; intros acc st; cbn [nary_lazy_st].
  - apply mono_bind; [auto with mono | intros; apply mono_ret].
  - apply mono_bind; [apply Hk |]. intros q. apply mono_bind; [apply mono_lift |]. intros [r |]; [apply IH | apply mono_ret].
Qed.
Lemma mono_cnf_transform : forall alg fuel h e, mono (cnf_transform alg fuel h e).
Proof.
  induction alg as [| b | b | d c alg IH]; intros fuel h e; cbn [cnf_transform]; (apply mono_bind; [apply mono_lift |]; intros []; [apply mono_ret |]).
  - apply mono_bind; [apply mono_fact_nop | intros; apply mono_ret].
  - apply mono_bind; [auto with mono | intros; apply mono_ret].
  - apply mono_bind; [auto with mono | intros; apply mono_ret].
  - assert (Hs : forall o e', mono (p <-- factorization limit_handler true fuel o (limit_new d c) ;;
       match fst p with FOk r => ret (r, e') | FErr _ => cnf_transform alg fuel o e' end)).
    { intros o e'. apply mono_bind; [apply mono_factorization |]. intros [[r | ?] ?]; cbn [fst]; [apply mono_ret | apply IH]. }
    apply mono_bind; [apply mono_unpackM |]. intros []; try apply Hs. apply mono_nary_lazy_st. exact Hs.
Qed.
Global Hint Resolve mono_cnf_transform : mono.

(** Lazily transformed operands of a conjunction. *)
Lemma equisat_conj : forall T xs ys y, Forall2 (equisat T) xs ys -> cnf_shape y = true -> (forall v, sem v y = forallb (sem v) ys) -> equisat T (FAnd xs) y.
Proof.
  intros T xs ys y HF Hc Hs. split; [assumption |]. cbn [sem]. split; intros v.
  - rewrite Hs. clear -HF. induction HF as [| a b xs ys [_ [H1 _]] HF IH]; [auto |]. cbn [forallb]. rewrite !andb_true_iff. intuition.
  - rewrite Hs. intros Hv. clear -HF Hv. induction HF as [| a b xs ys [_ [_ H1]] HF IH]; [auto |]. cbn [forallb]. rewrite !andb_true_iff. intuition.
Qed.

Lemma nary_st_spec : forall (k : N -> cnf_encoder -> M (N * cnf_encoder)), (forall o e, mono (k o e)) ->
  forall ops xs W s acc accx ys e, inv W s -> enc_ok W e s -> Forall2 (hdl s) ops xs -> Forall2 (hdl s) acc ys -> Forall2 (equisat W) accx ys ->
  (forall o x t W' e', In x xs -> inv W' t -> ext s t -> sub W' W -> enc_ok W' e' t -> hdl t o x ->
     xspec W' t (k o e') (fun p s' W2 => enc_ok W2 (snd p) s' /\ exists y, hdl s' (fst p) y /\ equisat W2 x y)) ->
  xspec W s (nary_lazy_st true k acc ops e) (fun p s' W' => enc_ok W' (snd p) s' /\ exists y, hdl s' (fst p) y /\ equisat W' (FAnd (accx ++ xs)) y).
Proof.
  intros k Hmono ops. induction ops as [| o ops IH]; intros xs W s acc accx ys e Hi Hen Ho Ha HP H; inversion Ho as [| ? x ? xs' Hx Ho']; subst; cbn [nary_lazy_st].
  - eapply x_bind; [apply (x_conj W s acc ys); auto | intros; apply mono_ret |].
    { clear -HP. induction HP as [| ? ? ? ? [Hc _]]; constructor; assumption. }
    intros r s1 W1 Hi1 He1 _ [-> [y [Hy [Hc [Hs _]]]]]. apply x_ret; [assumption |]. split; [eapply enc_ok_ext; [exact He1 | apply sub_refl | assumption] |].
    exists y. split; [assumption |]. rewrite app_nil_r. eapply equisat_conj; eauto.
  - eapply x_bind; [apply (H o x); auto using ext_refl, sub_refl; left; reflexivity | |].
    { intros h. apply mono_bind; [apply mono_lift |]. intros [r |]; [apply mono_nary_lazy_st; assumption | apply mono_ret]. }
    intros [h e1] s1 W1 Hi1 He Hs [Hen1 [z [Hz HPz]]]. cbn [fst snd] in *.
    assert (Ha1 : Forall2 (hdl s1) (acc ++ [h]) (ys ++ [z])) by (apply Forall2_app; [eapply hdls_ext; eauto | constructor; auto]).
    assert (HP1 : Forall2 (equisat W1) (accx ++ [x]) (ys ++ [z])).
    { apply Forall2_app; [| constructor; auto]. clear -HP Hs. induction HP; constructor; eauto using equisat_sub. }
    pose proof (prepare_nary_spec s1 true (acc ++ [h]) (i_wf _ _ Hi1) (hdls_vh _ _ _ Ha1)) as Hp.
    destruct (prepare_nary s1 true (acc ++ [h])) as [[r |] | |] eqn:E; try contradiction.
    + eapply x_lift_bind; [exact E |]. cbn beta iota.
      replace (accx ++ x :: xs') with ((accx ++ [x]) ++ xs') by (rewrite <- app_assoc; reflexivity).
      apply (IH xs' W1 s1 (acc ++ [h]) (accx ++ [x]) (ys ++ [z]) e1); auto; [eapply hdls_ext; eauto |].
      intros j w t W2 e2 Hin Hi2 He2 Hs2 Hen2 Hk. apply H; auto; [right; assumption | eapply ext_trans; eauto | eapply sub_trans; eauto].
    + eapply x_lift_bind; [exact E |]. cbn beta iota. apply x_ret; [assumption |]. cbn [fst snd]. split; [assumption |]. exists (fconst false). split; [apply hdl_const |].
      assert (Hn : forall v, forallb (sem v) (ys ++ [z]) = false).
      { intros v. exact (nary_sem_allv_not s1 v true (acc ++ [h]) (ys ++ [z]) (hdls_denotes _ _ _ Ha1) (Hp v)). }
      split; [reflexivity |]. split; [intros v E'; discriminate |]. intros v Hv Hall. exfalso. cbn [sem] in Hall.
      replace (accx ++ x :: xs') with ((accx ++ [x]) ++ xs') in Hall by (rewrite <- app_assoc; reflexivity). rewrite forallb_app in Hall. apply andb_true_iff in Hall.
      destruct Hall as [Hall _]. assert (Hq : forallb (sem v) (ys ++ [z]) = true); [| rewrite Hn in Hq; discriminate].
      revert Hall HP1 Hv. clear. generalize (accx ++ [x]) (ys ++ [z]). intros l l' Hall HF Hv. induction HF as [| a b l l' [_ [_ Hab]] HF IH]; [reflexivity |].
      cbn [forallb] in *. apply andb_true_iff in Hall. destruct Hall. rewrite Hab, IH; auto.
Qed.

Theorem cnf_transform_spec : forall alg fuel x W s h e, inv W s -> hdl s h x -> encodable s x -> enc_ok W e s -> (4 * depth x + 14 <= fuel)%nat ->
  xspec W s (cnf_transform alg fuel h e) (fun p s' W' => enc_ok W' (snd p) s' /\ exists y, hdl s' (fst p) y /\ equisat W' x y).
Proof.
  induction alg as [| b | b | d c alg IH]; intros fuel x W s h e Hi Hx Hen Hok Hf; cbn [cnf_transform];
    (eapply x_lift_bind; [eapply cnf_lift; eauto |]; destruct (cnf_shape x) eqn:Ec;
     [apply x_ret; [assumption |]; split; [assumption |]; exists x; split; [assumption |]; apply refines_equisat; [apply refines_refl | assumption] |]).
  - eapply x_bind; [apply (fact_nop_spec true fuel x); auto; lia | intros; apply mono_ret |].
    intros r s1 W1 Hi1 He1 Hs1 [y [Hy [Hr Hn]]]. apply x_ret; [assumption |]. split; [eapply enc_ok_ext; eauto |]. exists y. split; [assumption | apply refines_equisat; assumption].
  - eapply x_bind; [apply (tseitin_spec fuel x); auto; apply ts_state; assumption | intros; apply mono_ret |].
    intros [r st] s1 W1 Hi1 He1 Hs1 [Hst [y [Hy Hq]]]. cbn [fst snd] in *. apply x_ret; [assumption |]. cbn [fst snd]. split; [| eauto]. apply enc_ts; [eapply enc_ok_ext; eauto | assumption].
  - eapply x_bind; [apply (pg_spec fuel x); auto; apply pg_state; assumption | intros; apply mono_ret |].
    intros [r st] s1 W1 Hi1 He1 Hs1 [Hst [y [Hy Hq]]]. cbn [fst snd] in *. apply x_ret; [assumption |]. cbn [fst snd]. split; [| eauto]. apply enc_pg; [eapply enc_ok_ext; eauto | assumption].
  - set (single := fun op enc => p <-- factorization limit_handler true fuel op (limit_new d c) ;;
       match fst p with FOk r => ret (r, enc) | FErr _ => cnf_transform alg fuel op enc end).
    assert (Hmono : forall o e', mono (single o e')).
    { intros o e'. apply mono_bind; [apply mono_factorization |]. intros [[r | ?] ?]; cbn [fst]; [apply mono_ret | apply mono_cnf_transform]. }
    assert (Hs : forall o z t W' e', inv W' t -> encodable t z -> (4 * depth z + 14 <= fuel)%nat -> enc_ok W' e' t -> hdl t o z ->
       xspec W' t (single o e') (fun p s' W2 => enc_ok W2 (snd p) s' /\ exists y, hdl s' (fst p) y /\ equisat W2 z y)).
    { intros o z t W' e' Hi' Hez Hfz Hok' Hz. unfold single. eapply x_bind; [apply (factorization_spec _ limit_handler true fuel z); auto; lia | |].
      { intros [[r | ?] ?]; cbn [fst]; [apply mono_ret | apply mono_cnf_transform]. }
      intros [[r | err] hs] s1 W1 Hi1 He1 Hs1 Hq; cbn [fst fpost] in *.
      - destruct Hq as [y [Hy [Hr Hn]]]. apply x_ret; [assumption |]. cbn [fst snd]. split; [eapply enc_ok_ext; eauto |]. exists y. split; [assumption | apply refines_equisat; assumption].
      - apply IH; [assumption | eapply hdl_ext; eauto | eapply encodable_ext; eauto | eapply enc_ok_ext; eauto | assumption]. }
    destruct (vh_operands s h (i_wf _ _ Hi) (proj1 Hx)) as [n [Hu _]]. eapply x_unpack_bind; [exact Hu |].
    pose proof (denotes_by_node _ _ _ _ Hu (proj1 (proj2 Hx))) as Hn. pose proof (hdls_children s h x n (i_wf _ _ Hi) Hx Hu) as Hch.
    destruct n; try (apply Hs; assumption). destruct Hn as [xs [-> _]]. cbn [node_operands children] in Hch.
    apply (nary_st_spec single Hmono l xs W s [] [] [] e); auto.
    intros o z t W' e' Hz Hi' He' Hs' Hok' Hoz. apply Hs; auto.
    + eapply encodable_ext; [exact He' |]. apply (encodable_children s (FAnd xs) z Hen). exact Hz.
    + assert (Hzc : In z (children (FAnd xs))) by exact Hz. apply children_depth in Hzc. lia.
Qed.

(* ------------------------------------------------------------------------------------------------------------------ *)
(** * Definitions apart from the world *)

Lemma nary_st_fresh : forall (k : N -> cnf_encoder -> M (N * cnf_encoder)), (forall o e, mono (k o e)) ->
  forall ops xs W s T acc accx ys e, inv W s -> closed T s -> enc_ok T e s -> Forall2 (hdl s) ops xs -> Forall2 (hdl s) acc ys -> Forall2 (equisat T) accx ys ->
  (forall o x t T' W' e', In x xs -> inv W' t -> ext s t -> closed T' t -> enc_ok T' e' t -> hdl t o x ->
     xspec W' t (k o e') (fun p s' _ => exists T2, grows T' T2 t /\ closed T2 s' /\ enc_ok T2 (snd p) s' /\ exists y, hdl s' (fst p) y /\ equisat T2 x y)) ->
  xspec W s (nary_lazy_st true k acc ops e) (fun p s' _ => exists T', grows T T' s /\ closed T' s' /\ enc_ok T' (snd p) s' /\ exists y, hdl s' (fst p) y /\ equisat T' (FAnd (accx ++ xs)) y).
Proof.
  intros k Hmono ops. induction ops as [| o ops IH]; intros xs W s T acc accx ys e Hi Hcl Hen Ho Ha HP H; inversion Ho as [| ? x ? xs' Hx Ho']; subst; cbn [nary_lazy_st].
  - eapply x_bind; [apply (x_conj W s acc ys); auto | intros; apply mono_ret |].
    { clear -HP. induction HP as [| ? ? ? ? [Hc _]]; constructor; assumption. }
    intros r s1 W1 Hi1 He1 _ [-> [y [Hy [Hc [Hs _]]]]]. apply x_ret; [assumption |]. exists T. split; [apply grows_refl |]. split; [eapply closed_ext; eauto |].
    split; [eapply enc_ok_ext; [exact He1 | apply sub_refl | assumption] |].
    exists y. split; [assumption |]. rewrite app_nil_r. eapply equisat_conj; eauto.
  - eapply x_bind; [apply (H o x s T W e); auto using ext_refl; left; reflexivity | |].
    { intros h. apply mono_bind; [apply mono_lift |]. intros [r |]; [apply mono_nary_lazy_st; assumption | apply mono_ret]. }
    intros [h e1] s1 W1 Hi1 He Hs [T1 [Hg1 [Hc1 [Hen1 [z [Hz HPz]]]]]]. cbn [fst snd] in *.
    assert (Ha1 : Forall2 (hdl s1) (acc ++ [h]) (ys ++ [z])) by (apply Forall2_app; [eapply hdls_ext; eauto | constructor; auto]).
    assert (HP1 : Forall2 (equisat T1) (accx ++ [x]) (ys ++ [z])).
    { apply Forall2_app; [| constructor; auto]. destruct Hg1 as [Hg1 _]. clear -HP Hg1. induction HP; constructor; eauto using equisat_sub. }
    pose proof (prepare_nary_spec s1 true (acc ++ [h]) (i_wf _ _ Hi1) (hdls_vh _ _ _ Ha1)) as Hp.
    destruct (prepare_nary s1 true (acc ++ [h])) as [[r |] | |] eqn:E; try contradiction.
    + eapply x_lift_bind; [exact E |]. cbn beta iota.
      replace (accx ++ x :: xs') with ((accx ++ [x]) ++ xs') by (rewrite <- app_assoc; reflexivity).
      eapply x_conseq; [apply (IH xs' W1 s1 T1 (acc ++ [h]) (accx ++ [x]) (ys ++ [z]) e1); auto; [eapply hdls_ext; eauto |] |].
      * intros j w t T2 W2 e2 Hin Hi2 He2 Hc2 Hen2 Hk. apply H; auto; [right; assumption | eapply ext_trans; eauto].
      * intros p s2 W2 _ _ _ [T2 [Hg2 Hrest]]. exists T2. split; [eapply grows_trans; eauto | exact Hrest].
    + eapply x_lift_bind; [exact E |]. cbn beta iota. apply x_ret; [assumption |]. cbn [fst snd]. exists T1. split; [assumption |]. split; [assumption |]. split; [assumption |].
      exists (fconst false). split; [apply hdl_const |].
      assert (Hn : forall v, forallb (sem v) (ys ++ [z]) = false).
      { intros v. exact (nary_sem_allv_not s1 v true (acc ++ [h]) (ys ++ [z]) (hdls_denotes _ _ _ Ha1) (Hp v)). }
      split; [reflexivity |]. split; [intros v E'; discriminate |]. intros v Hv Hall. exfalso. cbn [sem] in Hall.
      replace (accx ++ x :: xs') with ((accx ++ [x]) ++ xs') in Hall by (rewrite <- app_assoc; reflexivity). rewrite forallb_app in Hall. apply andb_true_iff in Hall.
      destruct Hall as [Hall _]. assert (Hq : forallb (sem v) (ys ++ [z]) = true); [| rewrite Hn in Hq; discriminate].
      revert Hall HP1 Hv. clear. generalize (accx ++ [x]) (ys ++ [z]). intros l l' Hall HF Hv. induction HF as [| a b l l' [_ [_ Hab]] HF IH]; [reflexivity |].
      cbn [forallb] in *. apply andb_true_iff in Hall. destruct Hall. rewrite Hab, IH; auto.
Qed.

Theorem cnf_transform_fresh : forall alg fuel x T W s h e, inv W s -> hdl s h x -> con_free x = true -> closed T s -> enc_ok T e s -> (4 * depth x + 14 <= fuel)%nat ->
  xspec W s (cnf_transform alg fuel h e) (fun p s' _ => exists T', grows T T' s /\ closed T' s' /\ enc_ok T' (snd p) s' /\ exists y, hdl s' (fst p) y /\ equisat T' x y).
Proof.
  induction alg as [| b | b | d c alg IH]; intros fuel x T W s h e Hi Hx Hcf Hcl Hok Hf; cbn [cnf_transform]; assert (Hen : encodable s x) by (apply con_free_leaves; assumption);
    (eapply x_lift_bind; [eapply cnf_lift; eauto |]; destruct (cnf_shape x) eqn:Ec;
     [apply x_ret; [assumption |]; exists T; split; [apply grows_refl |]; split; [assumption |]; split; [assumption |]; exists x; split; [assumption |]; apply refines_equisat; [apply refines_refl | assumption] |]).
  - eapply x_bind; [apply (fact_nop_spec true fuel x); auto; lia | intros; apply mono_ret |].
    intros r s1 W1 Hi1 He1 Hs1 [y [Hy [[_ [_ Hr]] Hn]]]. destruct (Hr Hcf) as [Hse _]. apply x_ret; [assumption |]. exists T. split; [apply grows_refl |]. split; [eapply closed_ext; eauto |].
    split; [eapply enc_ok_ext; [exact He1 | apply sub_refl | assumption] |]. exists y. split; [assumption |]. split; [exact Hn |]. split; [intros v; rewrite Hse; auto | intros v _; rewrite Hse; auto].
  - eapply x_bind; [apply (tseitin_fresh fuel x T); auto; apply ts_state; assumption | intros; apply mono_ret |].
    intros [r st] s1 W1 Hi1 He1 Hs1 [T1 [Hg [Hc1 [Hst [y [Hy Hq]]]]]]. cbn [fst snd] in *. apply x_ret; [assumption |]. exists T1. cbn [fst snd]. split; [assumption |]. split; [assumption |].
    split; [| exists y; split; [assumption | apply ts_res_equisat; assumption]]. apply enc_ts; [eapply enc_ok_ext; [exact He1 | apply Hg | assumption] | assumption].
  - eapply x_bind; [apply (pg_fresh fuel x T); auto; apply pg_state; assumption | intros; apply mono_ret |].
    intros [r st] s1 W1 Hi1 He1 Hs1 [T1 [Hg [Hc1 [Hst [y [Hy Hq]]]]]]. cbn [fst snd] in *. apply x_ret; [assumption |]. exists T1. cbn [fst snd]. split; [assumption |]. split; [assumption |].
    split; [| eauto]. apply enc_pg; [eapply enc_ok_ext; [exact He1 | apply Hg | assumption] | assumption].
  - set (single := fun op enc => p <-- factorization limit_handler true fuel op (limit_new d c) ;;
       match fst p with FOk r => ret (r, enc) | FErr _ => cnf_transform alg fuel op enc end).
    assert (Hmono : forall o e', mono (single o e')).
    { intros o e'. apply mono_bind; [apply mono_factorization |]. intros [[r | ?] ?]; cbn [fst]; [apply mono_ret | apply mono_cnf_transform]. }
    assert (Hs : forall o z t T' W' e', inv W' t -> con_free z = true -> (4 * depth z + 14 <= fuel)%nat -> closed T' t -> enc_ok T' e' t -> hdl t o z ->
       xspec W' t (single o e') (fun p s' _ => exists T2, grows T' T2 t /\ closed T2 s' /\ enc_ok T2 (snd p) s' /\ exists y, hdl s' (fst p) y /\ equisat T2 z y)).
    { intros o z t T' W' e' Hi' Hez Hfz Hcl' Hok' Hz. unfold single. eapply x_bind; [apply (factorization_spec _ limit_handler true fuel z); auto; [apply con_free_leaves; assumption | lia] | |].
      { intros [[r | ?] ?]; cbn [fst]; [apply mono_ret | apply mono_cnf_transform]. }
      intros [[r | err] hs] s1 W1 Hi1 He1 Hs1 Hq; cbn [fst fpost] in *.
      - destruct Hq as [y [Hy [[_ [_ Hr]] Hn]]]. destruct (Hr Hez) as [Hse _]. apply x_ret; [assumption |]. cbn [fst snd]. exists T'. split; [apply grows_refl |]. split; [eapply closed_ext; eauto |].
        split; [eapply enc_ok_ext; [exact He1 | apply sub_refl | assumption] |]. exists y. split; [assumption |]. split; [exact Hn |]. split; [intros v; rewrite Hse; auto | intros v _; rewrite Hse; auto].
      - eapply x_conseq; [apply (IH fuel z T' W1 s1 o e'); [assumption | eapply hdl_ext; eauto | assumption | eapply closed_ext; eauto | eapply enc_ok_ext; [exact He1 | apply sub_refl | assumption] | assumption] |].
        intros p s2 W2 _ _ _ [T2 [Hg2 Hrest]]. exists T2. split; [eapply grows_trans; [exact He1 | apply grows_refl | exact Hg2] | exact Hrest]. }
    destruct (vh_operands s h (i_wf _ _ Hi) (proj1 Hx)) as [n [Hu _]]. eapply x_unpack_bind; [exact Hu |].
    pose proof (denotes_by_node _ _ _ _ Hu (proj1 (proj2 Hx))) as Hn. pose proof (hdls_children s h x n (i_wf _ _ Hi) Hx Hu) as Hch.
    destruct n; try (apply Hs; assumption). destruct Hn as [xs [-> _]]. cbn [node_operands children] in Hch.
    apply (nary_st_fresh single Hmono l xs W s T [] [] [] e); auto.
    intros o z t T' W' e' Hz Hi' He' Hc' Hok' Hoz. apply Hs; auto.
    + cbn [con_free] in Hcf. rewrite forallb_forall in Hcf. auto.
    + assert (Hzc : In z (children (FAnd xs))) by exact Hz. apply children_depth in Hzc. lia.
Qed.
