(** Adding formulas to the solver: the clauses and variables of one call. *)
From Coq Require Import NArith ZArith List Bool Arith Lia.
From Verif Require Import Base EncodingModel Syntax FactoryModel FactoryInv FactoryBasics FactoryProofs FactorySpecs FactoryNary FactoryOps
  EvalProofs InvariantSpec HashConsProofs InvariantProofs HistoryProofs ConstraintModel ConstraintProofs OpsModel OpsProofs CcModel EncBasics AmoProofs CcFrontProofs
  PbModel CacheModel TransModel TreeSpec WorldProofs MetricsProofs EncodeProofs NnfProofs CnfProofs DefBasics TseitinProofs EncoderProofs
  SatModel MiniModel OptModel OptProofs PgSolverModel PgSolverProofs.
Import ListNotations.
Local Open Scope N_scope.

(** The clauses [cs], together with [B], are a correct result for [x]. *)
Definition gives (B : list (list lit)) (x : fml) (cs : list (list lit)) (s' : factory) (W' : world) : Prop :=
  cls_known s' cs /\ (forall V, sat V (B ++ cs) -> sem V x = true) /\ (forall v, W' v -> sem v x = true -> sat v cs).

(* ------------------------------------------------------------------------------------------------------------------ *)
(** * Conjunctive normal forms *)

Lemma csat_same : forall v a b, (forall l, In l a <-> In l b) -> csat v a <-> csat v b.
Proof. intros v a b H. split; intros (l & Hl & T); exists l; split; auto; now apply H. Qed.
Lemma clause_flits : forall v y, is_fclause y = true \/ y = FFalse -> csat v (flits y) <-> sem v y = true.
Proof.
  intros v y [H | ->]; [| split; [intros T; destruct (csat_nil _ T) | discriminate]]. destruct y; cbn [is_fclause] in H; try discriminate; cbn [flits sem].
  - rewrite csat_cons. split; [intros [T | T]; [assumption | destruct (csat_nil _ T)] | auto].
  - rewrite existsb_exists. rewrite forallb_forall in H. split.
    + intros (k & Hk & T). apply in_flat_map in Hk. destruct Hk as (z & Hz & Hk). exists z. split; [assumption |]. specialize (H z Hz). destruct z; try discriminate. destruct Hk as [<- | []]. assumption.
    + intros (z & Hz & T). pose proof (H z Hz) as K. destruct z as [| | k | | | | | | |]; try discriminate. exists k. split; [apply in_flat_map; exists (FLit k); split; [assumption | left; reflexivity] | assumption].
Qed.
Lemma flits_known : forall s x L, kn s x -> con_free x = true -> (forall l, In l L <-> In l (flits x)) -> lits_known s L.
Proof.
  intros s x L Hk Hc HL. apply Forall_forall. intros l Hl. apply HL in Hl. clear HL. revert Hk Hc Hl. induction x using fml_ind2; cbn [flits con_free]; intros Hk Hc Hl; try contradiction; try discriminate.
  - destruct Hl as [<- | []]. apply Hk. left. reflexivity.
  - apply IHx; auto.
  - apply in_flat_map in Hl. destruct Hl as (y & Hy & Hl). rewrite Forall_forall in H. rewrite forallb_forall in Hc. apply (H y); auto. eapply children_kn; [exact Hk | exact Hy].
  - apply in_flat_map in Hl. destruct Hl as (y & Hy & Hl). rewrite Forall_forall in H. rewrite forallb_forall in Hc. apply (H y); auto. eapply children_kn; [exact Hk | exact Hy].
  - apply andb_true_iff in Hc. destruct Hc. apply in_app_iff in Hl. destruct Hl; [apply IHx1 | apply IHx2]; auto; (eapply children_kn; [exact Hk | cbn; auto]).
  - apply andb_true_iff in Hc. destruct Hc. apply in_app_iff in Hl. destruct Hl; [apply IHx1 | apply IHx2]; auto; (eapply children_kn; [exact Hk | cbn; auto]).
Qed.
(** One list of literals per clause. *)
Definition lists_of (xs : list fml) (cs : list (list lit)) : Prop := Forall2 (fun y L => forall l, In l L <-> In l (flits y)) xs cs.
Lemma lists_sat : forall v xs cs, forallb is_fclause xs = true -> lists_of xs cs -> sat v cs <-> forallb (sem v) xs = true.
Proof.
  intros v xs cs Hx H. induction H as [| y L xs cs Hy H IH]; cbn [forallb] in *; [split; [reflexivity | intros _; apply sat_nil_t] |]. apply andb_true_iff in Hx. destruct Hx as [H1 H2].
  rewrite andb_true_iff, <- (IH H2), <- (clause_flits v y (or_introl H1)), <- (csat_same v L (flits y) Hy). change (L :: cs) with ([L] ++ cs). rewrite sat_app2. split; intros [A1 A2]; split; auto.
  - apply A1. left. reflexivity.
  - intros c [<- | []]. assumption.
Qed.
Lemma lists_known : forall s xs cs, Forall (fun y => kn s y /\ con_free y = true) xs -> lists_of xs cs -> cls_known s cs.
Proof. intros s xs cs Hk H. induction H as [| y L xs cs Hy H IH]; constructor; inversion Hk as [| ? ? [K1 K2]]; subst; [eapply flits_known; eauto | apply IH; assumption]. Qed.
Lemma one_gives : forall B x L s W, kn s x -> is_fclause x = true \/ x = FFalse -> (forall l, In l L <-> In l (flits x)) -> gives B x [L] s W.
Proof.
  intros B x L s W Hk Hx HL. assert (Hc : con_free x = true) by (destruct Hx as [Hx | ->]; [apply cnf_con_free; destruct x; cbn in *; try discriminate; auto | reflexivity]).
  assert (E : forall v, csat v L <-> sem v x = true) by (intros v; rewrite (csat_same v L (flits x) HL); apply clause_flits; assumption).
  split; [constructor; [eapply flits_known; eauto | constructor] |]. split.
  - intros V HV. apply E. apply sat_app2 in HV. apply HV. left. reflexivity.
  - intros v _ T c [<- | []]. now apply E.
Qed.
Lemma conj_gives : forall B xs cs s W, Forall (kn s) xs -> forallb is_fclause xs = true -> lists_of xs cs -> gives B (FAnd xs) cs s W.
Proof.
  intros B xs cs s W Hk Hx H. split.
  - eapply lists_known; [| exact H]. rewrite forallb_forall in Hx. rewrite Forall_forall in *. intros y Hy. split; [auto |]. specialize (Hx y Hy). apply cnf_con_free. destruct y; cbn in *; try discriminate; auto.
  - split; [intros V HV; cbn [sem]; apply (lists_sat V xs cs); auto; apply sat_app2 in HV; apply HV | intros v _ T; apply (lists_sat v xs cs); auto].
Qed.
Lemma true_gives : forall B s W, gives B FTrue [] s W.
Proof. intros B s W. split; [constructor |]. split; [reflexivity | intros; apply sat_nil_t]. Qed.

Lemma mono_clause_set : forall h, mono (clause_set h).
Proof.
  intros h. unfold clause_set. apply mono_bind; [auto with mono |]. intros []; try apply mono_fail; try apply mono_ret; try (apply mono_bind; [apply mono_lift | intros; apply mono_ret]).
  apply mono_mfold. intros. apply mono_bind; [apply mono_lift | intros; apply mono_ret].
Qed.
Lemma kn_children : forall s x, kn s x -> Forall (kn s) (children x).
Proof. intros s x Hk. apply Forall_forall. intros y Hy. eapply children_kn; eauto. Qed.
Lemma clause_set_spec : forall B x W s h, inv W s -> hdl s h x -> cnf_shape x = true -> xspec W s (clause_set h) (fun cs s' W' => W' = W /\ gives B x cs s' W').
Proof.
  intros B x W s h Hi Hh Hx. pose proof Hh as (Hv & Hd & Hk). destruct (open_node _ _ _ _ Hi Hv Hd) as (n & Hu & _). pose proof (hdls_children s h x n (i_wf _ _ Hi) Hh Hu) as Hch. pose proof (kn_children s x Hk) as Hkc.
  unfold clause_set. eapply x_unpack_bind; [exact Hu |].
  assert (One : is_fclause x = true \/ x = FFalse -> xspec W s (ls <-- lift (fun s => literals_for_clause_or_term s h) ;; ret [ls]) (fun cs s' W' => W' = W /\ gives B x cs s' W')).
  { intros H. eapply x_lift_bind; [eapply literals_for_clause_or_term_spec; eauto; left; destruct H as [H | ->]; [destruct x; cbn in *; try discriminate; auto | reflexivity] |]. apply x_ret; [assumption |]. split; [reflexivity |]. apply one_gives; [assumption | assumption | tauto]. }
  node_cases n Hu Hd; cbn [cnf_shape is_fclause children node_operands] in *; try discriminate; try (apply One; auto; fail).
  - apply x_ret; [assumption |]. split; [reflexivity | apply true_gives].
  - eapply x_conseq; [eapply (PgProofs.x_mfold_keep _ _ (fun d cs t => lists_of (map snd d) cs) _ _ [] W s []); auto |].
    + intros. apply mono_bind; [apply mono_lift | intros; apply mono_ret].
    + exact Hch.
    + constructor.
    + intros d o y cs t Hy Hit He Ho Hcs. rewrite forallb_forall in Hx. specialize (Hx y Hy). eapply x_lift_bind; [eapply literals_for_clause_or_term_spec; eauto; [apply Ho | apply Ho | left; destruct y; cbn in *; try discriminate; auto] |].
      apply x_ret; [assumption |]. split; [reflexivity |]. rewrite map_app. apply Forall2_app; [assumption |]. constructor; [tauto | constructor].
    + cbn [app]. intros cs s' W' Hi' He' Hs' [-> Hcs]. split; [reflexivity |].
      match goal with |- gives _ (FAnd ?ys) _ _ _ => replace (map snd (combine l ys)) with ys in Hcs by (clear -Hch; induction Hch; cbn [combine map snd]; [reflexivity | now f_equal]) end.
      apply conj_gives; auto. eapply Forall_impl; [| exact Hkc]. intros y. apply kn_ext; assumption.
Qed.

Lemma mono_pgs_add_cnf : forall fuel h st, mono (pgs_add_cnf fuel h st).
Proof.
  intros. unfold pgs_add_cnf. apply mono_bind; [auto with mono |]. intros []; try apply mono_fail; try apply mono_ret; try (apply mono_bind; [auto with mono | intros; apply mono_ret]).
  apply mono_mfold. intros. apply mono_bind; [auto with mono | intros; apply mono_ret].
Qed.
Lemma pgs_add_cnf_spec : forall fuel B x W s h st, inv W s -> hdl s h x -> cnf_shape x = true -> (depth x < fuel)%nat ->
  xspec W s (pgs_add_cnf fuel h st) (fun st' s' W' => exists new, ps_cache st' = ps_cache st /\ ps_out st' = ps_out st ++ new /\ gives (B ++ ps_out st) x new s' W').
Proof.
  intros fuel B x W s h st Hi Hh Hx Hf. pose proof Hh as (Hv & Hd & Hk). destruct (open_node _ _ _ _ Hi Hv Hd) as (n & Hu & _). pose proof (hdls_children s h x n (i_wf _ _ Hi) Hh Hu) as Hch. pose proof (kn_children s x Hk) as Hkc.
  assert (Hdc : forall y, In y (children x) -> (depth y < fuel)%nat) by (intros y Hy; apply children_depth in Hy; lia).
  unfold pgs_add_cnf. eapply x_unpack_bind; [exact Hu |].
  assert (One : is_fclause x = true \/ x = FFalse -> xspec W s (ls <-- literals fuel h ;; ret (pgs_emit ls st)) (fun st' s' W' => exists new, ps_cache st' = ps_cache st /\ ps_out st' = ps_out st ++ new /\ gives (B ++ ps_out st) x new s' W')).
  { intros H. eapply x_bind; [eapply literals_spec; eauto | intros; apply mono_ret |]. intros L s1 W1 Hi1 He1 Hs1 [_ HL]. apply x_ret; [assumption |]. exists [L]. split; [reflexivity |]. split; [reflexivity |].
    apply one_gives; auto. eapply kn_ext; eauto. }
  node_cases n Hu Hd; cbn [cnf_shape is_fclause children node_operands] in *; try discriminate; try (apply One; auto; fail).
  - apply x_ret; [assumption |]. exists []. split; [reflexivity |]. split; [now rewrite app_nil_r | apply true_gives].
  - assert (Loop : forall ops xs done cs0 st0 W s, inv W s -> Forall2 (hdl s) ops xs -> (forall y, In y xs -> (depth y < fuel)%nat) -> ps_cache st0 = ps_cache st -> ps_out st0 = ps_out st ++ cs0 -> lists_of done cs0 ->
      xspec W s (mfold (fun op st => ls <-- literals fuel op ;; ret (pgs_emit ls st)) ops st0)
        (fun st' s' W' => exists new, ps_cache st' = ps_cache st /\ ps_out st' = ps_out st ++ new /\ lists_of (done ++ xs) new)).
    { clear. induction ops as [| o ops IH]; intros xs done cs0 st0 W s Hi Hh Hd Hc Ho Hl; inversion Hh as [| ? y ? xs' Hy Hh']; subst; cbn [mfold].
      - apply x_ret; [assumption |]. exists cs0. rewrite app_nil_r. auto.
      - eapply x_bind with (Q1 := fun st1 _ _ => exists L, st1 = pgs_emit L st0 /\ forall l, In l L <-> In l (flits y)); [| intros; apply mono_mfold; intros; apply mono_bind; [auto with mono | intros; apply mono_ret] |].
        + eapply x_bind; [eapply literals_spec; [assumption | apply Hy | apply Hy | apply Hd; left; reflexivity] | intros; apply mono_ret |]. intros L s1 W1 Hi1 _ _ [_ HL]. apply x_ret; [assumption |]. exists L. auto.
        + intros st1 s1 W1 Hi1 He1 _ (L & -> & HL). replace (done ++ y :: xs') with ((done ++ [y]) ++ xs') by (rewrite <- app_assoc; reflexivity). apply (IH xs' (done ++ [y]) (cs0 ++ [L])); auto.
          * eapply hdls_ext; eauto.
          * intros z Hz. apply Hd. right. assumption.
          * cbn [pgs_emit ps_out]. now rewrite Ho, app_assoc.
          * apply Forall2_app; [assumption |]. constructor; [assumption | constructor]. }
    eapply x_conseq; [eapply (Loop l _ [] [] st W s); eauto; [now rewrite app_nil_r | constructor] |]. intros st' s' W' Hi' He' Hs' (new & E1 & E2 & Hl). exists new. split; [assumption |]. split; [assumption |]. cbn [app] in Hl.
    apply conj_gives; auto. eapply Forall_impl; [| exact Hkc]. intros y. apply kn_ext; assumption.
Qed.

(* ------------------------------------------------------------------------------------------------------------------ *)
(** * The transformation on the solver *)

Definition enough (fuel : nat) (x : fml) : Prop := (N.to_nat (nodes x) <= fuel)%nat /\ (4 * depth x + 14 <= fuel)%nat.
Lemma mono_nnf_fun : forall fuel h, mono (nnf fuel h).
Proof. intros. apply mono_nnf_rec. Qed.
Local Hint Resolve mono_nnf_fun : mono.
Lemma mono_add_cnf_to_solver : forall b fuel h st, mono (add_cnf_to_solver b fuel h st).
Proof.
  intros. unfold add_cnf_to_solver. apply mono_bind; [destruct b; [apply mono_ret | auto with mono] |]. intros c. apply mono_bind; [destruct c; [auto with mono | apply mono_ret] |]. intros m.
  apply mono_bind; [apply mono_lift |]. intros []; [apply mono_pgs_add_cnf |]. apply mono_bind; [apply mono_pgs | intros; apply mono_ret].
Qed.
Lemma above_none : forall s x, above none s x.
Proof. intros s x k u b []. Qed.

Theorem add_cnf_spec : forall B perform fuel x W s h c, inv W s -> hdl s h x -> encodable s x -> enough fuel x -> pgc_ok none W B s c ->
  xspec W s (add_cnf_to_solver perform fuel h (mkPgs c [])) (fun st s' W' => pgc_ok none W' (B ++ ps_out st) s' (ps_cache st) /\ gives B x (ps_out st) s' W').
Proof.
  intros B perform fuel x W s h c Hi Hh Hen [Hf1 Hf2] Hc. unfold add_cnf_to_solver.
  assert (M2 : forall m, mono (c0 <-- lift (fun s => is_cnf s m) ;; if c0 : bool then pgs_add_cnf fuel m (mkPgs c []) else q <-- pgs_transform fuel m true true (mkPgs c []) ;; ret (emit_opt (fst q) (snd q)))).
  { intros m. apply mono_bind; [apply mono_lift |]. intros []; [apply mono_pgs_add_cnf |]. apply mono_bind; [apply mono_pgs | intros; apply mono_ret]. }
  eapply x_bind with (Q1 := fun b s' W' => b = false -> con_free x = true).
  { destruct perform; [apply x_ret; [assumption | discriminate] |]. eapply x_conseq; [eapply contains_pbc_spec; eauto; [apply Hh | apply Hh] |]. intros b s' W' _ _ _ -> E. apply negb_false_iff in E. assumption. }
  { intros b. apply mono_bind; [destruct b; [auto with mono | apply mono_ret] | apply M2]. }
  intros b s1 W1 Hi1 He1 Hs1 Hb. pose proof (hdl_ext _ _ _ _ He1 Hh) as Hh1. pose proof (encodable_ext _ _ _ He1 Hen) as Hen1.
  assert (Hc1 : pgc_ok none W1 B s1 c) by (eapply pgc_ext; eauto).
  eapply x_bind with (Q1 := fun m s' W' => exists y, hdl s' m y /\ refines W' x y /\ con_free y = true /\ (depth y < fuel)%nat); [| apply M2 |].
  { destruct b.
    - eapply x_conseq; [eapply (nnf_spec fuel x); eauto; lia |]. intros m s' W' _ _ _ (y & Hy & Hr & Hn & Hd). exists y. split; [assumption |]. split; [assumption |]. split; [now apply nnf_con_free |]. pose proof (ndep_depth x true). lia.
    - apply x_ret; [assumption |]. exists x. split; [assumption |]. split; [apply refines_refl |]. split; [auto | lia]. }
  intros m s2 W2 Hi2 He2 Hs2 (y & Hy & (R1 & R2 & _) & Hcf & Hd). assert (Hc2 : pgc_ok none W2 B s2 c) by (eapply pgc_ext; eauto).
  assert (Use : forall cs s' W', sub W' W2 -> gives B y cs s' W' -> gives B x cs s' W').
  { intros cs s' W' Hs' (G1 & G2 & G3). split; [assumption |]. split; [intros V HV; apply R1; auto | intros v Hv T; apply G3; auto]. }
  eapply x_lift_bind; [eapply cnf_lift; eauto |]. destruct (cnf_shape y) eqn:Ey.
  - eapply x_conseq; [apply (pgs_add_cnf_spec fuel B y); auto |]. intros st s' W' Hi' He' Hs' (new & E1 & E2 & Hg). cbn [ps_out ps_cache app] in E1, E2, Hg. rewrite app_nil_r in Hg. rewrite E1, E2. split; [| eapply Use; eauto].
    eapply pgc_ext; [exact He' | exact Hs' | | exact Hc2]. intros V HV. apply sat_app2 in HV. apply HV.
  - eapply x_bind; [apply (pgs_spec fuel B none y m true true (mkPgs c [])); auto | intros; apply mono_ret |].
    + split; [assumption |]. intros [-> | ->]; discriminate.
    + apply above_none.
    + cbn [ps_out ps_cache]. now rewrite app_nil_r.
    + intros [r st] s' W' Hi' He' Hs' (new & [A1 A2 A3] & T & Hr). cbn [fst snd ps_out ps_cache app] in *. apply x_ret; [assumption |]. destruct r as [L |]; cbn [emit_opt].
      * destruct Hr as (L1 & L2 & L3). split.
        -- cbn [pgs_emit ps_out ps_cache]. eapply pgc_ext; [apply ext_refl | apply sub_refl | | exact A2]. intros V HV. rewrite app_assoc in HV. apply sat_app2 in HV. apply HV.
        -- eapply Use; [exact Hs' |]. split; [cbn [pgs_emit ps_out]; rewrite A1; apply Forall_app; split; [assumption | constructor; [assumption | constructor]] |]. split.
           ++ intros V HV. apply emit_sat in HV. destruct HV. apply (L3 V); auto.
           ++ intros v Hv Tv. cbn [pgs_emit ps_out]. rewrite A1. apply sat_snoc. split; [apply T; auto | apply L2; auto].
      * destruct Hr as (_ & L3). split; [assumption |]. eapply Use; [exact Hs' |]. split; [now rewrite A1 |]. split; [exact L3 |]. intros v Hv Tv. rewrite A1. apply T; auto.
Qed.

(* ------------------------------------------------------------------------------------------------------------------ *)
(** * One addition *)

Lemma mono_encode_on : forall g, mono (encode_on g).
Proof.
  intros g s. unfold encode_on. destruct (g (ctrs_of s)) as [[[a k] cls] | |]; cbn [snd]; try apply size_le_refl. destruct (ctrs_leb (ctrs_of s) k) eqn:E; cbn [snd]; [| apply size_le_refl].
  apply size_with. now apply known_leb.
Qed.
Definition new_vars (s s' : factory) (us : list var) : Prop := NoDup us /\ forall u, In u us -> ~ known s u /\ known s' u.
Lemma encode_on_spec : forall B (g : G unit) x W s, inv W s -> kn s x -> encodes (ctrs_of s) g (fun b => sem b x = true) ->
  xspec W s (encode_on g) (fun p s' W' => new_vars s s' (fst p) /\ gives B x (snd p) s' W').
Proof.
  intros B g x W s Hi Hk Henc. destruct Henc as [[] [k [cls [Hg [Hle [Hb [Hs Hc]]]]]]].
  split; [apply mono_encode_on |]. unfold encode_on. rewrite Hg, (proj2 (known_leb _ _) Hle). cbn [fst snd]. intros Hcap.
  pose proof (ext_with s k Hle) as He1. set (W1 := fun v => W v /\ (sem v x = true -> sat v cls)).
  assert (Hsx : forall v w, (forall u, known s u -> w u = v u) -> sem w x = sem v x).
  { intros v w H. apply sem_fvars. intros u Hu. apply H. apply Hk. assumption. }
  destruct (i_world _ _ Hi) as [Hw1 Hw2].
  assert (Hi1 : inv W1 (with_ctrs s k)).
  { constructor.
    - apply (wf_same s); auto; [apply (i_wf _ _ Hi)].
    - split.
      + intros v. destruct (Hw1 v) as [w [Ww Hag]]. destruct (sem w x) eqn:E.
        * destruct (Hc w E) as [b [Hb1 Hb2]].
          assert (Hold : forall u, known s u -> b u = w u).
          { intros u Hu. destruct (Hb1 u) as [Hf | Hf]; [| assumption]. exfalso. unfold fresh, known, old in *. destruct u; [assumption | lia]. }
          assert (Hffs : forall i, b (VFF i) = w (VFF i)) by (intros i; destruct (Hb1 (VFF i)) as [[] | Hf]; assumption).
          exists b. split; [split; [apply (Hw2 w); assumption | auto] |]. intros i. rewrite Hffs. apply Hag.
        * exists w. split; [split; [assumption | congruence] | assumption].
      + intros v w [Wv Hv] Hag. unfold known in Hag. rewrite ctrs_with in Hag by assumption.
        assert (Hold : forall u, known s u -> w u = v u) by (intros u Hu; apply Hag; eapply old_mono; eauto).
        split; [apply (Hw2 v); assumption |]. rewrite (Hsx v w Hold). intros E d Hd. destruct (Hv E d Hd) as [l [Hl1 Hl2]].
        exists l. split; [assumption |]. destruct l as [u p]. pose proof (Hag u (Hb d Hd _ Hl1)) as Eu. cbn [lit_sem] in *. now rewrite Eu.
    - apply (caches_ok_ext W W1 s); [apply (i_wf _ _ Hi) | intros v Hv; apply Hv | assumption | apply (i_caches _ _ Hi)]. }
  exists (aux_between (ctrs_of s) k, cls), W1. split; [reflexivity |]. split; [assumption |]. split; [intros v Hv; apply Hv |]. split; [assumption |]. cbn [fst snd]. split.
  - split; [apply aux_between_nd |]. intros u Hu. apply aux_between_in in Hu. split; [intros K; exact (fresh_old _ _ _ Hu K) |]. unfold known. rewrite ctrs_with by assumption.
    destruct u as [i | a i]; cbn in *; [contradiction | lia].
  - split; [apply Forall_forall; intros c Hcin; apply Forall_forall; intros l Hl; unfold known; rewrite ctrs_with by assumption; apply (Hb c Hcin _ Hl) |].
    split; [intros V HV; apply Hs; apply sat_app2 in HV; apply HV | intros v [_ Hv] T; auto].
Qed.

Definition pcs_ok (W : world) (G : list (list lit)) (s : factory) (pc : pg_caches) : Prop := pgc_ok none W G s (pc_pg pc) /\ pgc_ok none W G s (pc_full pc).
Lemma pcs_ext : forall W W' G G' s s' pc, ext s s' -> sub W' W -> (forall V, sat V G' -> sat V G) -> pcs_ok W G s pc -> pcs_ok W' G' s' pc.
Proof. intros W W' G G' s s' pc He Hs Hg [H1 H2]. split; eapply pgc_ext; eauto. Qed.
Lemma sat_fst : forall V A B, sat V (A ++ B) -> sat V A.
Proof. intros V A B H. apply sat_app2 in H. apply H. Qed.

Lemma mono_by_method : forall meth fuel h pc, mono (by_method meth fuel h pc).
Proof.
  intros [alg | |] fuel h pc; cbn [by_method].
  - apply mono_bind; [auto with mono |]. intros. apply mono_bind; [apply mono_clause_set | intros; apply mono_ret].
  - apply mono_bind; [apply mono_add_cnf_to_solver | intros; apply mono_ret].
  - apply mono_bind; [apply mono_add_cnf_to_solver | intros; apply mono_ret].
Qed.
Lemma gives_sem : forall B x y cs s W W', equisat W x y -> sub W' W -> gives B y cs s W' -> gives B x cs s W'.
Proof. intros B x y cs s W W' (_ & E1 & E2) Hs (G1 & G2 & G3). split; [assumption |]. split; auto. Qed.
Theorem by_method_spec : forall B meth fuel x W s h pc, inv W s -> hdl s h x -> encodable s x -> enough fuel x -> pcs_ok W B s pc ->
  xspec W s (by_method meth fuel h pc) (fun p s' W' => gives B x (fst p) s' W' /\ pcs_ok W' (B ++ fst p) s' (snd p)).
Proof.
  intros B [alg | |] fuel x W s h pc Hi Hh Hen Hf Hpc; cbn [by_method].
  - eapply x_bind; [apply (cnf_transform_spec alg fuel x); auto; [split; discriminate | apply Hf] | intros; apply mono_bind; [apply mono_clause_set | intros; apply mono_ret] |].
    intros [r e] s1 W1 Hi1 He1 Hs1 (_ & y & Hy & Eq). cbn [fst snd] in *. eapply x_bind; [apply (clause_set_spec B y); auto; apply Eq | intros; apply mono_ret |].
    intros cs s2 W2 Hi2 He2 Hs2 [-> Hg]. apply x_ret; [assumption |]. cbn [fst snd]. split; [eapply gives_sem; eauto using sub_refl |].
    eapply pcs_ext; [exact (ext_trans _ _ _ He1 He2) | exact Hs1 | intros V; apply sat_fst | exact Hpc].
  - destruct Hpc as [H1 H2]. eapply x_bind; [apply (add_cnf_spec B true fuel x); auto | intros; apply mono_ret |]. intros st s1 W1 Hi1 He1 Hs1 [P1 P2]. apply x_ret; [assumption |]. cbn [fst snd]. split; [assumption |].
    split; cbn [pc_pg pc_full]; [assumption |]. eapply pgc_ext; [exact He1 | exact Hs1 | intros V; apply sat_fst | exact H2].
  - destruct Hpc as [H1 H2]. eapply x_bind; [apply (add_cnf_spec B false fuel x); auto | intros; apply mono_ret |]. intros st s1 W1 Hi1 He1 Hs1 [P1 P2]. apply x_ret; [assumption |]. cbn [fst snd]. split; [assumption |].
    split; cbn [pc_pg pc_full]; [| assumption]. eapply pgc_ext; [exact He1 | exact Hs1 | intros V; apply sat_fst | exact H1].
Qed.

Record add_ok (B : list (list lit)) (x : fml) (s : factory) (r : addition * pg_caches) (s' : factory) (W' : world) : Prop := {
  ao_aux : new_vars s s' (ad_aux (fst r));
  ao_vars : forall u, In u (ad_vars (fst r)) -> known s' u;
  ao_gives : gives B x (ad_clauses (fst r)) s' W';
  ao_pcs : pcs_ok W' (B ++ ad_clauses (fst r)) s' (snd r) }.
Theorem add_formula_spec : forall B meth fuel x W s h pc, inv W s -> hdl s h x -> encodable s x -> enough fuel x -> pcs_ok W B s pc ->
  xspec W s (add_formula meth fuel h pc) (fun r s' W' => add_ok B x s r s' W' /\ forall u, In u (ad_vars (fst r)) <-> In u (fvars x)).
Proof.
  intros B meth fuel x W s h pc Hi Hh Hen Hf Hpc. pose proof Hh as (Hv & Hd & Hk). destruct (open_node _ _ _ _ Hi Hv Hd) as (n & Hu & _).
  unfold add_formula. eapply x_unpack_bind; [exact Hu |].
  eapply x_bind with (Q1 := fun p s' W' => new_vars s s' (fst (fst p)) /\ gives B x (snd (fst p)) s' W' /\ pcs_ok W' (B ++ snd (fst p)) s' (snd p)).
  - assert (Hm : xspec W s (q <-- by_method meth fuel h pc ;; ret ([], fst q, snd q)) (fun p s' W' => new_vars s s' (fst (fst p)) /\ gives B x (snd (fst p)) s' W' /\ pcs_ok W' (B ++ snd (fst p)) s' (snd p))).
    { eapply x_bind; [apply (by_method_spec B meth fuel x); auto | intros; apply mono_ret |]. intros [cs pc'] s1 W1 Hi1 He1 Hs1 [G1 G2]. apply x_ret; [assumption |]. cbn [fst snd]. split; [split; [constructor | intros u []] |]. auto. }
    destruct n; try exact Hm. pose proof (denotes_by_node _ _ _ _ Hu Hd) as Ex. cbn in Ex. subst x. eapply x_lift_bind; [reflexivity |].
    assert (Hcc : cc_cfg_ok (cfg_cc (f_config s)) c) by (apply (cc_cfg_of_enc s h c (i_wf _ _ Hi) Hv Hu); unfold encodable in Hen; cbn [leaves] in Hen; inversion Hen; assumption).
    eapply x_bind; [apply (encode_on_spec B _ (FCc c)); auto; apply encode_cc_ok; [| assumption] | intros; apply mono_ret |].
    + intros l Hl. apply in_map_iff in Hl. destruct Hl as (u & <- & Hu'). apply Hk. unfold fvars. cbn. rewrite app_nil_r. assumption.
    + intros [us cs] s1 W1 Hi1 He1 Hs1 [N1 G1]. cbn [fst snd] in *. apply x_ret; [assumption |]. cbn [fst snd]. split; [assumption |]. split; [assumption |].
      eapply pcs_ext; [exact He1 | exact Hs1 | intros V; apply sat_fst | exact Hpc].
  - intros. apply mono_bind; [auto with mono | intros; apply mono_ret].
  - intros [[us cs] pc'] s1 W1 Hi1 He1 Hs1 (N1 & G1 & P1). cbn [fst snd] in *. pose proof (hdl_ext _ _ _ _ He1 Hh) as Hh1.
    eapply x_bind; [apply (variables_spec fuel x W1 s1 h); [assumption | apply Hh1 | apply Hh1 | destruct Hf; lia] | intros; apply mono_ret |]. intros vs s2 W2 Hi2 He2 Hs2 [_ Hvs]. apply x_ret; [assumption |].
    split; [| cbn [fst ad_vars]; exact Hvs]. constructor; cbn [fst snd ad_aux ad_vars ad_clauses].
    + destruct N1 as [N1 N2]. split; [assumption |]. intros u Hu'. destruct (N2 u Hu') as [K1 K2]. split; [assumption | eapply known_ext; eauto].
    + intros u Hu'. eapply known_ext; [exact He2 |]. apply Hh1. now apply Hvs.
    + destruct G1 as (G1 & G2 & G3). split; [eapply cls_known_ext; eauto |]. split; auto.
    + eapply pcs_ext; [exact He2 | exact Hs2 | exact (fun V H => H) | exact P1].
Qed.
Theorem add_prop_spec : forall B meth fuel x W s h pc, inv W s -> hdl s h x -> encodable s x -> enough fuel x -> pcs_ok W B s pc ->
  xspec W s (add_prop meth fuel h pc) (fun r s' W' => add_ok B x s r s' W').
Proof.
  intros B meth fuel x W s h pc Hi Hh Hen Hf Hpc. unfold add_prop. eapply x_bind; [apply (by_method_spec B (proposition_method meth) fuel x); auto | intros; apply mono_ret |].
  intros [cs pc'] s1 W1 Hi1 He1 Hs1 [G1 G2]. apply x_ret; [assumption |]. constructor; cbn [fst snd ad_aux ad_vars ad_clauses] in *; auto; [split; [constructor | intros u []] | intros u []].
Qed.
