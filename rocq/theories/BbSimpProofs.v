(** The backbone simplification and the satisfiability predicates: functions of the factory that use a solver of their own. *)
From Coq Require Import NArith ZArith List Bool Arith Lia.
From Verif Require Import Base EncodingModel EncodingProofs Syntax FactoryModel FactoryInv FactoryBasics FactoryProofs FactorySpecs FactoryNary
  FactoryOps EvalProofs HistoryModel HistoryProofs ConstraintModel ConstraintProofs OpsModel OpsProofs CcModel EncBasics CcFrontProofs PbModel CacheModel TransModel
  TreeSpec WorldProofs MetricsProofs EncodeProofs NnfProofs CnfProofs DefBasics EncoderProofs XHistory XHistoryProofs
  Vec SatModel SatSpec SatBasics SatProp SatDb SatFront SatState MiniModel MiniProofs AssignmentModel Properties_Assignment EnumProofs BackboneProofs OptModel OptProofs MiniHistory PgSolverModel PgSolverProofs PgAddProofs
  BbSimpModel SatPredModel PgHistory PgTakeProofs.
Import ListNotations.
Local Open Scope N_scope.

(** * Specifications of functions that may run out of fuel *)
Definition pspec {A} (W : world) (s : factory) (m : M A) (Q : A -> factory -> world -> Prop) : Prop :=
  size_le s (snd (m s))
  /\ (cap (snd (m s)) -> rspec (fst (m s)) (fun a => exists W', inv W' (snd (m s)) /\ sub W' W /\ ext s (snd (m s)) /\ Q a (snd (m s)) W')).
Lemma p_of_x : forall A W s (m : M A) Q, xspec W s m Q -> pspec W s m Q.
Proof. intros A W s m Q [H1 H2]. split; [exact H1 |]. intros Hc. destruct (H2 Hc) as (a & W' & E & H). rewrite E. cbn [rspec]. exists W'. exact H. Qed.
Lemma p_bind : forall A B W s (m : M A) (k : A -> M B) Q1 Q, pspec W s m Q1 -> (forall a, mono (k a)) ->
  (forall a s1 W1, inv W1 s1 -> ext s s1 -> sub W1 W -> Q1 a s1 W1 -> pspec W1 s1 (k a) Q) -> pspec W s (bind m k) Q.
Proof.
  intros A B W s m k Q1 Q [H1 H2] Hm Hk. unfold pspec, bind. destruct (m s) as [[a | |] s1] eqn:E; cbn [fst snd] in *.
  - split; [eapply size_le_trans; [exact H1 | apply Hm] |]. intros Hc. assert (Hc1 : cap s1) by (eapply cap_le; [apply (Hm a) | exact Hc]).
    destruct (H2 Hc1) as (W1 & Hi & Hs & He & HQ). destruct (Hk a s1 W1 Hi He Hs HQ) as [_ K]. eapply rspec_weak; [exact (K Hc) |].
    intros b (W2 & K1 & K2 & K3 & K4). exists W2. split; [exact K1 |]. split; [eapply sub_trans; eauto |]. split; [eapply ext_trans; eauto | exact K4].
  - split; [exact H1 | exact H2].
  - split; [exact H1 | auto].
Qed.
Lemma p_lift_bind : forall A B W s (r : res A) (k : A -> M B) (Q1 : A -> Prop) Q, rspec r Q1 -> (forall a, Q1 a -> pspec W s (k a) Q) -> pspec W s (bind (lift (fun _ => r)) k) Q.
Proof.
  intros A B W s r k Q1 Q H K. unfold pspec, bind, lift. destruct r as [a | |]; cbn [fst snd rspec] in *; [apply K; exact H | contradiction |].
  split; [apply size_le_refl | auto].
Qed.
Lemma p_get_bind : forall V B W s (sel : op_caches -> list (N * V)) h (k : option V -> M B) Q,
  pspec W s (k (oc_get h (sel (f_caches s)))) Q -> pspec W s (bind (cache_get sel h) k) Q.
Proof. intros V B W s sel h k Q H. exact H. Qed.
Lemma p_run : forall A W s (m : M A) Q r s', pspec W s m Q -> m s = (r, s') -> cap s' ->
  rspec r (fun a => exists W', inv W' s' /\ sub W' W /\ ext s s' /\ Q a s' W').
Proof. intros A W s m Q r s' [_ H] E Hc. rewrite E in H. exact (H Hc). Qed.

(** * A formula on a new solver *)
Lemma mono_add_formula : forall meth fuel h pc, mono (add_formula meth fuel h pc).
Proof.
  intros meth fuel h pc. unfold add_formula. apply mono_bind; [apply mono_unpackM |]. intros n.
  assert (K : forall p : list var * list (list lit) * pg_caches, mono (vs <-- variables fuel h ;; ret (mkAddition (fst (fst p)) (snd (fst p)) vs, snd p))) by (intros p; apply mono_bind; [apply mono_variables | intros; apply mono_ret]).
  apply mono_bind; [| exact K]. destruct n; try (apply mono_bind; [apply mono_by_method | intros; apply mono_ret]).
  apply mono_bind; [apply mono_lift |]. intros cfg. apply mono_bind; [apply mono_encode_on | intros; apply mono_ret].
Qed.
Lemma mono_add_to_solver : forall mc meth fuel h fs, mono (add_to_solver mc meth fuel h fs).
Proof. intros mc meth fuel h fs s. apply mono_add_formula. Qed.

Section Own.
  Variables (orc : oracle).
  Hypothesis So : sorting orc.
  Variable mc : mconfig.
  Hypothesis Hm : g_min (mc_sat mc) <> MinNone.

  (** The clauses on the solver say what the formula says. *)
  Definition holds_formula (x : fml) (fs : fsolver) (W : world) : Prop :=
    exists G, mstate mc G (fs_mini fs) /\ (forall V, sat V G -> sem V x = true) /\ (forall v, W v -> sem v x = true -> sat v G).

  Lemma add_fresh : forall W s h x meth fuel, inv W s -> hdl s h x -> encodable s x -> room fuel x ->
    pspec W s (add_to_solver mc meth fuel h fs_new) (fun fs s' W' => holds_formula x fs W').
  Proof.
    intros W s h x meth fuel Hi Hx Hen Hr. split; [apply mono_add_formula |]. unfold add_to_solver. cbn [fst snd]. intros Hc.
    assert (Hl : Forall (has s) [h]) by (constructor; [exists x; exact Hx | constructor]).
    pose proof (fs_add_ok mc Hm W s [h] fs_new [] [] h x meth fuel Hi Hl (slv_new W s [h] mc [] Hm) (or_introl eq_refl) Hx Hen Hr Hc) as K.
    unfold fs_add, fs_take in *. destruct (add_formula meth fuel h (fs_pc fs_new) s) as [[[a pc] | |] s1]; cbn [fst snd rbind rspec] in *; auto.
    destruct (m_take mc fuel a (fs_mini fs_new)) as [m | |]; cbn [rbind rspec fst snd] in *; auto. destruct K as (W' & Hi' & Hs & He & Hv). exists W'.
    split; [exact Hi' |]. split; [exact Hs |]. split; [exact He |]. destruct (k_cls _ _ _ _ Hv) as (G & K1 & _ & K3 & K4). cbn [sv_mc sv_fs sv_added] in *. exists G.
    pose proof (hdl_ext _ _ _ _ He Hx) as Hx'. split; [exact K1 |]. split.
    - intros V HV. exact (K3 V HV h x (or_introl eq_refl) (proj1 (proj2 Hx'))).
    - intros v Hw Hv'. apply K4; [exact Hw |]. intros k y [<- | []] Hd. now rewrite (hdl_same _ _ _ _ Hx' Hd).
  Qed.
  Lemma own_backbone : forall x fs W rounds fuel vs t, holds_formula x fs W ->
    rspec (fs_backbone mc orc rounds fuel vs t fs) (fun r => exists G, (forall V, sat V G -> sem V x = true) /\ (forall v, W v -> sem v x = true -> sat v G) /\ backbone_spec t vs G (fst r)).
  Proof.
    intros x fs W rounds fuel vs t (G & [K1 KH] & K3 & K4). unfold fs_backbone.
    assert (P : rspec (compute_backbone mc orc rounds fuel vs t (fs_mini fs)) (fun r => backbone_spec t vs G (fst r))).
    { pose proof (compute_backbone_ok mc orc rounds fuel G (fs_mini fs) vs t Hm So K1) as K. destruct (g_incremental (mc_sat mc)) eqn:Inc.
      - pose proof (backbone_h mc orc Hm So Inc G rounds fuel vs t (fs_mini fs) K1 (KH eq_refl)) as B. unfold compute_backbone in *. rewrite Inc in *. unfold m_save in *.
        destruct (save_state (mc_sat mc) (mi_s (fs_mini fs))) as [sn | |]; cbn [rbind fst snd mi_s mi_names mi_res mi_states] in *; auto.
        destruct (s_compute_backbone mc orc rounds fuel (mi_names (fs_mini fs)) vs t (mi_s (fs_mini fs))) as [[b s'] | |]; cbn [rbind] in *; auto.
        destruct (m_load mc orc fuel _ _) as [m3 | |]; cbn [rbind rspec fst] in *; auto. apply K.
      - unfold compute_backbone. rewrite Inc. destruct (s_compute_backbone mc orc rounds fuel (mi_names (fs_mini fs)) vs t (mi_s (fs_mini fs))) as [[b s'] | |]; cbn [rbind rspec fst] in *; auto. apply K. }
    destruct (compute_backbone mc orc rounds fuel vs t (fs_mini fs)) as [[b m] | |]; cbn [rbind rspec fst] in *; auto. exists G. auto.
  Qed.
  Lemma own_sat : forall x fs W fuel, holds_formula x fs W -> rspec (fs_sat mc orc fuel None None fs) (fun r => P_sat W x (fst r)).
  Proof.
    intros x fs W fuel (G & [K1 KH] & K3 & K4). unfold fs_sat. pose proof (m_sat_with_ok mc orc Hm So G fuel None None (fs_mini fs) K1) as K.
    destruct (m_sat_with mc orc fuel None None (fs_mini fs)) as [[b m'] | |]; cbn [rbind rspec fst] in *; auto. destruct K as (_ & _ & K). destruct b; cbn [P_sat].
    - exists (mvals m'). apply K3. apply K.
    - intros v Hw. destruct (sem v x) eqn:E; [| reflexivity]. exfalso. apply (K v (K4 v Hw E)). intros a [].
  Qed.
End Own.

(** * The literals of the backbone *)
Lemma complete_in : forall pos neg opt l, In l (bb_complete (Some (pos, neg, opt))) <-> exists v, (l = Lit v true /\ In v (bb_vars pos)) \/ (l = Lit v false /\ In v (bb_vars neg)).
Proof.
  intros pos neg opt l. unfold bb_complete.
  assert (K : forall xs l0 ref, set_list lit_ltb l0 ref -> set_list lit_ltb (add_lits xs l0) (ref ++ xs)) by (intros xs l0 ref; apply lits_all_ok).
  assert (K0 : set_list lit_ltb [] []) by (split; [constructor | tauto]).
  pose proof (K (map (fun v => Lit v false) (bb_vars neg)) _ _ (K (map (fun v => Lit v true) (bb_vars pos)) [] [] K0)) as [_ H]. rewrite H. cbn [app]. rewrite in_app_iff, !in_map_iff. split.
  - intros [(v & <- & Hv) | (v & <- & Hv)]; exists v; auto.
  - intros (v & [[-> Hv] | [-> Hv]]); [left | right]; exists v; auto.
Qed.
Lemma from_lits_pos : forall ls u, (In u (a_pos (asg_from_literals ls)) <-> In (Lit u true) ls) /\ (In u (a_neg (asg_from_literals ls)) <-> In (Lit u false) ls).
Proof.
  intros ls u. destruct (C45_from_literals ls) as [_ H]. pose proof (H (Lit u true)) as A. pose proof (H (Lit u false)) as B. unfold asg_contains in A, B. cbn [lit_phase lit_var] in A, B.
  rewrite memv_In in A, B. auto.
Qed.
Lemma extends_lits : forall ls v, ConstraintProofs.extends (asg_from_literals ls) v <-> forall l, In l ls -> lit_sem v l = true.
Proof.
  intros ls v. split.
  - intros H [u b] Hl. destruct (from_lits_pos ls u) as [A B]. destruct (H u) as [C D]. destruct b; apply lit_sem_lit; [apply C, A, Hl | apply D, B, Hl].
  - intros H u. destruct (from_lits_pos ls u) as [A B]. split; intros K; [apply A in K | apply B in K]; apply H in K; now apply lit_sem_lit in K.
Qed.

(** * Trees *)
Definition flip (v : valuation) (u : var) : valuation := fun w => if var_eqb w u then negb (v u) else v w.
Lemma flip_other : forall v u x, ~ In u (fvars x) -> sem (flip v u) x = sem v x.
Proof. intros v u x H. apply sem_fvars. intros w Hw. unfold flip. destruct (var_eqb w u) eqn:E; [| reflexivity]. apply var_eqb_spec in E. subst. contradiction. Qed.
Lemma flip_same : forall v u, flip v u u = negb (v u).
Proof. intros v u. unfold flip. assert (E : var_eqb u u = true) by now apply var_eqb_spec. now rewrite E. Qed.
Lemma fvars_lit : forall u b w, In w (fvars (FLit (Lit u b))) <-> w = u.
Proof. intros u b w. unfold fvars. cbn. intuition. Qed.

Definition lit_like (L : list lit) (z : fml) : Prop := z = FTrue \/ z = FFalse \/ exists l, In l L /\ z = FLit l.
Lemma lits_tree : forall L y, nary_tree true (map FLit L) y -> lit_like L y \/ exists l, y = FAnd l /\ Forall (lit_like L) l.
Proof.
  intros L y H. assert (K : forall z, fflat true (map FLit L) z -> lit_like L z).
  { intros z [Hz | (l & Hl & _)]; [apply in_map_iff in Hz; destruct Hz as (k & <- & Hk); right; right; eauto | apply in_map_iff in Hl; destruct Hl as (k & E & _); discriminate]. }
  destruct H as [-> | [-> | [H | (l & -> & H)]]]; [left; now left | left; right; now left | left; auto |]. right. exists l. split; [reflexivity |]. eapply Forall_impl; [| exact H]. exact K.
Qed.
Lemma lit_like_single : forall L u b z, In (Lit u b) L -> ~ In (Lit u (negb b)) L -> lit_like L z -> z = FLit (Lit u b) \/ ~ In u (fvars z).
Proof.
  intros L u b z H1 H2 [-> | [-> | ([w c] & Hl & ->)]]; [right; intros [] | right; intros [] |]. destruct (var_eqb w u) eqn:E.
  - apply var_eqb_spec in E. subst w. left. destruct (Bool.bool_dec c b) as [-> | Hn]; [reflexivity |]. exfalso. apply H2. now replace (negb b) with c by (destruct b, c; cbn; congruence).
  - right. rewrite fvars_lit. intros ->. assert (T : var_eqb w w = true) by now apply var_eqb_spec. congruence.
Qed.
Lemma unit_of_all : forall u b l, In u (fvars (FAnd l)) -> Forall (fun z => z = FLit (Lit u b) \/ ~ In u (fvars z)) l -> unit_in u b (FAnd l).
Proof.
  intros u b l Hu H. right. exists l. split; [reflexivity |]. split; [| exact H]. pose proof (fvars_fnary true l) as E. cbn [fnary] in E. rewrite E in Hu. apply in_flat_map in Hu.
  destruct Hu as (z & Hz & Hu). rewrite Forall_forall in H. destruct (H z Hz) as [-> | N]; [exact Hz | contradiction].
Qed.
(** Literals [L] in conjunction with a formula without their variables. *)
Lemma unit_tree : forall L u b yb yr y, In (Lit u b) L -> ~ In (Lit u (negb b)) L -> nary_tree true (map FLit L) yb -> ~ In u (fvars yr) -> nary_tree true [yb; yr] y ->
  (forall l, y = FAnd l -> forall z, In z l -> is_fnary true z = false) -> In u (fvars y) -> unit_in u b y.
Proof.
  intros L u b yb yr y H1 H2 Hb Hr Ht Hn Hu. apply lits_tree in Hb.
  assert (Sr : forall l z, yr = FAnd l -> In z l -> ~ In u (fvars z)).
  { intros l z -> Hz K. apply Hr. pose proof (fvars_fnary true l) as E. cbn [fnary] in E. rewrite E. apply in_flat_map. eauto. }
  assert (K : forall z, fflat true [yb; yr] z -> (z = FLit (Lit u b) \/ ~ In u (fvars z)) \/ (z = yb /\ exists l, z = FAnd l /\ Forall (lit_like L) l)).
  { intros z [[<- | [<- | []]] | (l & [E | [E | []]] & Hz)].
    - destruct Hb as [Hb | Hb]; [left; eapply lit_like_single; eauto | right; auto].
    - left. right. exact Hr.
    - left. cbn [fnary] in E. subst yb. destruct Hb as [[E | [E | (k & _ & E)]] | (l' & E & Hb)]; try discriminate. injection E as ->. rewrite Forall_forall in Hb. eapply lit_like_single; eauto.
    - left. right. eapply Sr; eauto. }
  destruct Ht as [-> | [-> | [H | (l & -> & H)]]]; [destruct Hu | destruct Hu | |].
  - destruct (K y H) as [[-> | N] | (_ & l & -> & Hl)]; [now left | contradiction |]. apply unit_of_all; [exact Hu |]. eapply Forall_impl; [| exact Hl]. intros z. eapply lit_like_single; eauto.
  - cbn [fnary] in *. apply unit_of_all; [exact Hu |]. rewrite Forall_forall in *. intros z Hz. destruct (K z (H z Hz)) as [Q | (_ & l' & -> & _)]; [exact Q |]. specialize (Hn l eq_refl _ Hz). discriminate.
Qed.

(** * The backbone simplification *)
Lemma mono_bb_to_formula : forall b, mono (bb_to_formula b).
Proof. intros [p |]; [apply mono_f_and | apply mono_ret]. Qed.
Section Simplify.
  Variables (orc : oracle).
  Hypothesis So : sorting orc.

  Theorem backbone_simplification_spec : forall rounds fuel W s h x, inv W s -> hdl s h x -> encodable s x -> room fuel x -> (forall a, restrictable a x) ->
    pspec W s (backbone_simplification orc rounds fuel h) (fun r s' W' => exists y, hdl s' r y /\ P_bb W' x y).
  Proof.
    intros rounds fuel W s h x Hi Hx Hen Hr Hre. unfold backbone_simplification. apply p_get_bind. destruct (oc_get h (oc_bb (f_caches s))) as [r |] eqn:G.
    { apply p_of_x, x_ret; [exact Hi |]. destruct (co_bb _ _ _ (i_caches _ _ Hi) h r G) as (x' & y & Q1 & Q2 & Q3). exists y. split; [exact Q2 |].
      now rewrite (hdl_same _ _ _ _ Hx (proj1 (proj2 Q1))) in Q3. }
    eapply p_bind; [apply (add_fresh default_mc ltac:(discriminate) W s h x PgOnSolver fuel Hi Hx Hen Hr) | |].
    { intros fs. apply mono_bind; [apply mono_variables |]. intros vs. apply mono_bind; [apply mono_lift |]. intros [b fs']. cbn [fst]. apply mono_bind; [| intros r; apply mono_bind; [apply mono_put | intros; apply mono_ret]].
      destruct b as [p |]; [| apply mono_ret]. destruct (bb_is_empty (Some p)); [apply mono_ret |]. apply mono_bind; [apply mono_bb_to_formula |]. intros bf. apply mono_bind; [apply mono_restrict |]. intros rf. apply mono_f_and. }
    intros fs s1 W1 Hi1 He1 Hs1 Hf. pose proof (hdl_ext _ _ _ _ He1 Hx) as Hx1.
    eapply p_bind; [apply p_of_x, (variables_spec fuel x W1 s1 h Hi1 (proj1 Hx1) (proj1 (proj2 Hx1))); destruct Hr; lia | |].
    { intros vs. apply mono_bind; [apply mono_lift |]. intros [b fs']. cbn [fst]. apply mono_bind; [| intros r; apply mono_bind; [apply mono_put | intros; apply mono_ret]].
      destruct b as [p |]; [| apply mono_ret]. destruct (bb_is_empty (Some p)); [apply mono_ret |]. apply mono_bind; [apply mono_bb_to_formula |]. intros bf. apply mono_bind; [apply mono_restrict |]. intros rf. apply mono_f_and. }
    intros vs s2 W2 Hi2 He2 Hs2 [_ Hvs]. pose proof (hdl_ext _ _ _ _ He2 Hx1) as Hx2.
    eapply p_lift_bind; [apply (own_backbone orc So default_mc ltac:(discriminate) x fs W1 rounds fuel vs PositiveAndNegative Hf) |].
    intros [b fs'] (Gc & G1 & G2 & Hb). cbn [fst] in *.
    assert (G2' : forall v, W2 v -> sem v x = true -> sat v Gc) by (intros v Hv; apply G2; now apply Hs2).
    (* putting the result into the cache *)
    assert (Done : forall W3 s3 r y, inv W3 s3 -> hdl s3 h x -> hdl s3 r y -> P_bb W3 x y -> pspec W3 s3 (put_simp h r ;;; ret r) (fun r s' W' => exists y, hdl s' r y /\ P_bb W' x y)).
    { intros W3 s3 r y Hi3 Hx3 Hy Hp. apply p_of_x, x_put_end; auto.
      - put_caches. exists x, y. auto.
      - intros s' He Hi'. exists y. split; [eapply hdl_ext; eauto | exact Hp]. }
    eapply p_bind with (Q1 := fun r s' W' => exists y, hdl s' r y /\ P_bb W' x y); [| intros r; apply mono_bind; [apply mono_put | intros; apply mono_ret] |].
    2: { intros r s3 W3 Hi3 He3 _ (y & Hy & Hp). eapply Done; eauto. eapply hdl_ext; eauto. }
    apply p_of_x. destruct b as [[[pos neg] opt] |]; cbn [backbone_spec] in Hb.
    2: { apply x_ret; [exact Hi2 |]. exists FFalse. split; [split; [apply (vh_constant s2 false) | split; [apply (denotes_const s2 false) | intros u []]] |].
         split; [discriminate |]. split; [intros v Hw Hv; exfalso; exact (Hb v (G2' v Hw Hv)) |]. split; [intros u [] |]. split; [reflexivity |].
         intros u c _ (v & Hw & Hv) _. exfalso. exact (Hb v (G2' v Hw Hv)). }
    destruct Hb as ((V0 & HV0) & Hpos & Hneg & _). destruct pos as [pos |]; [| contradiction]. destruct neg as [neg |]; [| contradiction].
    assert (F : forall u b, In u (fvars x) -> (forall v, sem v x = true -> v u = b) -> forced Gc u b) by (intros u b _ H V HV; apply H, G1; exact HV).
    destruct (bb_is_empty (Some (Some pos, Some neg, opt))) eqn:Ee.
    { apply x_ret; [exact Hi2 |]. exists x. split; [exact Hx2 |]. split; [auto |]. split; [auto |]. split; [apply incl_refl |]. split; [intros H; pose proof (G1 V0 HV0) as K; rewrite H in K; discriminate |].
      intros u b Hu _ H. exfalso. pose proof (F u b Hu H) as K. cbn [bb_is_empty no_vars] in Ee. destruct pos; [| discriminate]. destruct neg; [| discriminate].
      destruct b; [apply (proj2 (Hpos u)) | apply (proj2 (Hneg u))]; (split; [now apply Hvs | exact K]). }
    set (L := bb_complete (Some (Some pos, Some neg, opt))).
    assert (HL : forall u b, In (Lit u b) L <-> In u vs /\ forced Gc u b).
    { intros u b. unfold L. rewrite complete_in. cbn [bb_vars]. split.
      - intros (v & [[E K] | [E K]]); injection E as -> ->; [apply Hpos | apply Hneg]; exact K.
      - intros K. exists u. destruct b; [left | right]; (split; [reflexivity |]); [apply Hpos | apply Hneg]; exact K. }
    assert (Hk : forall l, In l L -> In (lit_var l) (fvars x)) by (intros [u b] K; apply HL in K; now apply Hvs).
    assert (Hh : Forall2 (hdl s2) (map encode_lit L) (map FLit L)).
    { assert (Q : forall l, In l L -> known s2 (lit_var l)) by (intros l K; apply (proj2 (proj2 Hx2)), Hk, K). clear -Q Hi2. induction L as [| l r IH]; cbn [map]; constructor; [apply hdl_lit; [apply Hi2 | apply Q; now left] | apply IH; intros k Hk; apply Q; now right]. }
    cbn [bb_to_formula]. fold L.
    eapply x_bind; [apply (x_core _ W2 s2 _ _ Hi2 (f_nary_tree s2 true _ _ (i_wf _ _ Hi2) (hdls_vh _ _ _ Hh) (hdls_denotes _ _ _ Hh))) | |].
    { intros bf. apply mono_bind; [apply mono_restrict |]. intros rf. apply mono_f_and. }
    intros bf s3 W3 Hi3 He3 _ (-> & _ & Hvb & yb & Hdb & Sb & Tb). pose proof (hdl_ext _ _ _ _ He3 Hx2) as Hx3.
    eapply x_bind; [apply (x_core _ W2 s3 _ _ Hi3 (restrict_spec (asg_from_literals L) fuel s3 x h (i_wf _ _ Hi3) (proj1 Hx3) (proj1 (proj2 Hx3)) (Hre _) ltac:(destruct Hr; lia))) | |].
    { intros rf. apply mono_f_and. }
    intros rf s4 W4 Hi4 He4 _ (-> & _ & Hvr & yr & Hdr & Sr & Vr). pose proof (hdl_ext _ _ _ _ He4 Hx3) as Hx4.
    eapply x_conseq; [apply (x_core _ W2 s4 _ _ Hi4 (f_nary_tree s4 true [bf; rf] [yb; yr] (i_wf _ _ Hi4) ltac:(constructor; [eapply vh_ext; eauto | constructor; [exact Hvr | constructor]]) ltac:(constructor; [eapply denotes_ext; eauto | constructor; [exact Hdr | constructor]]))) |].
    intros r s5 W5 Hi5 He5 _ (-> & _ & Hv5 & y & Hd5 & Sy & Ty). exists y.
    assert (Vy : incl (fvars y) (fvars x)).
    { intros u Hu. apply (nary_tree_fvars _ _ _ Ty) in Hu. cbn [flat_map] in Hu. rewrite app_nil_r in Hu. apply in_app_iff in Hu. destruct Hu as [Hu | Hu]; [| now apply Vr].
      apply (nary_tree_fvars _ _ _ Tb) in Hu. apply in_flat_map in Hu. destruct Hu as (z & Hz & Hu). apply in_map_iff in Hz. destruct Hz as ([w c] & <- & Hl). apply fvars_lit in Hu. subst u. exact (Hk _ Hl). }
    assert (Sb' : forall v, sem v yb = true <-> ConstraintProofs.extends (asg_from_literals L) v).
    { intros v. rewrite Sb, extends_lits. cbn [nary_sem]. rewrite forallb_forall. split.
      - intros K l Hl. exact (K (FLit l) (in_map FLit _ _ Hl)).
      - intros K z Hz. apply in_map_iff in Hz. destruct Hz as (l & <- & Hl). exact (K l Hl). }
    assert (Sy' : forall v, sem v y = true <-> ConstraintProofs.extends (asg_from_literals L) v /\ sem v x = true).
    { intros v. rewrite Sy. cbn [nary_sem forallb]. rewrite andb_true_r, andb_true_iff, Sb'. split; intros [K1 K2]; (split; [exact K1 |]); rewrite (Sr v K1) in *; exact K2. }
    assert (Ex : forall V, sat V Gc -> ConstraintProofs.extends (asg_from_literals L) V).
    { intros V HV. apply extends_lits. intros [u b] Hl. apply HL in Hl. apply lit_sem_lit. apply (proj2 Hl). exact HV. }
    split; [split; [exact Hv5 |]; split; [exact Hd5 |]; intros u Hu; apply (known_ext s4); [exact He5 |]; apply (proj2 (proj2 Hx4)), Vy, Hu |].
    split; [intros v Hv; now apply Sy' |]. split; [intros v Hw Hv; apply Sy'; split; [apply Ex; auto | exact Hv] |]. split; [exact Vy |].
    split; [intros H; pose proof (G1 V0 HV0) as K; rewrite H in K; discriminate |]. intros u b Hu _ H.
    pose proof (F u b Hu H) as Fu. assert (Lu : In (Lit u b) L) by (apply HL; split; [now apply Hvs | exact Fu]).
    assert (Ln : ~ In (Lit u (negb b)) L).
    { intros K. apply HL in K. destruct K as [_ K]. pose proof (K V0 HV0) as A. rewrite (Fu V0 HV0) in A. destruct b; discriminate. }
    apply (unit_tree L u b yb yr y Lu Ln Tb); [| exact Ty | |].
    - intros K. apply Vr in K. destruct K as [_ [K1 K2]]. destruct (from_lits_pos L u) as [A B]. destruct b; [apply K1, A, Lu | apply K2, B, Lu].
    - intros l -> z Hz. apply (wf_fnary s5 r true l (i_wf _ _ Hi5) Hv5 Hd5). exact Hz.
    - destruct (in_dec var_eq_dec u (fvars y)) as [K | K]; [exact K |]. exfalso.
      assert (T : sem V0 y = true) by (apply Sy'; split; [now apply Ex | now apply G1]). rewrite <- (flip_other V0 u y K) in T. apply Sy' in T. destruct T as [_ T].
      pose proof (H _ T) as A. rewrite flip_same in A. rewrite (Fu V0 HV0) in A. destruct b; discriminate.
  Qed.
End Simplify.

(** * Satisfiability and tautologies *)
Lemma p_bind_eq : forall A B W s (m : M A) (k : A -> M B) Q1 Q, pspec W s m Q1 -> (forall a, mono (k a)) ->
  (forall a s1 W1, m s = (Ok a, s1) -> inv W1 s1 -> ext s s1 -> sub W1 W -> Q1 a s1 W1 -> pspec W1 s1 (k a) Q) -> pspec W s (bind m k) Q.
Proof.
  intros A B W s m k Q1 Q H Hm Hk. apply (p_bind A B W s m k (fun a s1 W1 => m s = (Ok a, s1) /\ Q1 a s1 W1)); [| exact Hm | intros a s1 W1 Hi He Hs [E HQ]; eapply Hk; eauto].
  destruct H as [H1 H2]. split; [exact H1 |]. intros Hc. specialize (H2 Hc). destruct (m s) as [[a | |] s1]; cbn [fst snd rspec] in *; auto.
  destruct H2 as (W' & K1 & K2 & K3 & K4). exists W'. auto.
Qed.
(** The negated formula can be encoded if the formula can. *)
Lemma f_negate_enc : forall W s h x, inv W s -> hdl s h x -> encodable s x ->
  xspec W s (f_negate h) (fun g s' W' => W' = W /\ exists y, hdl s' g y /\ (forall v, sem v y = negb (sem v x)) /\ incl (fvars y) (fvars x) /\ encodable s' y).
Proof.
  intros W s h x Hi Hx Hen. pose proof Hx as (Hv & Hd & Hk).
  assert (K : spec wf core s (f_negate h) (tres (fun y => (forall v, sem v y = negb (sem v x)) /\ incl (fvars y) (fvars x) /\ Forall (leaf_enc (cfg_cc (f_config s))) (leaves y)))).
  { destruct (is_con x) eqn:Ec.
    - assert (Hu : match x with FCc c => unpack s h = Ok (NCc c) | FPbc p => unpack s h = Ok (NPbc p) | _ => True end) by (destruct x; auto; exact (denotes_inv _ _ _ Hd)).
      unfold encodable in Hen. destruct x; try discriminate; cbn [leaves] in Hen; inversion Hen as [| ? ? Hl _]; subst; unfold f_negate; (eapply spec_unpack; [exact Hu |]); cbn beta iota.
      + eapply spec_conseq; [eapply cc_negate_tree; [apply Hi | exact Hv | exact Hu | exact Hl] |]. intros r s' _ _ T. eapply tres_conseq; [exact T |]. intros y (T1 & T2 & T3 & _). auto.
      + eapply spec_conseq; [eapply pbc_negate_tree; [apply Hi | exact Hv | exact Hu | exact Hl] |]. intros r s' _ _ T. eapply tres_conseq; [exact T |]. intros y (T1 & T2 & T3 & _). auto.
    - eapply spec_conseq; [apply (f_negate_simple s h x (i_wf _ _ Hi) Hv Hd Ec) |]. intros r s' _ _ [T1 T2]. split; [exact T1 |]. exists (fnot x). split; [exact T2 |]. split; [intros v; apply fnot_sem |].
      unfold fvars. rewrite fnot_leaves. split; [apply incl_refl | exact Hen]. }
  eapply x_conseq; [apply (x_core _ W s _ _ Hi K) |]. intros g s' W' Hi' He _ (-> & _ & Hvg & y & Hdy & S1 & S2 & S3). split; [reflexivity |]. exists y. split; [| split; [exact S1 | split; [exact S2 |]]].
  - split; [exact Hvg |]. split; [exact Hdy |]. intros u Hu. eapply known_ext; [exact He |]. apply Hk, S2, Hu.
  - unfold encodable. rewrite (ext_config _ _ He). exact S3.
Qed.

Section Predicates.
  Variables (orc : oracle).
  Hypothesis So : sorting orc.

  (** The common part of both predicates. *)
  Lemma decide_spec : forall (B : Type) (k : bool -> B) alg fuel W s h x, inv W s -> hdl s h x -> encodable s x -> room fuel x ->
    pspec W s (fs <-- add_to_solver default_mc (FactoryCnf alg) fuel h fs_new ;; p <-- lift (fun _ => fs_sat default_mc orc fuel None None fs) ;; put_sat h (fst p) ;;; ret (k (fst p)))
      (fun b s' W' => exists c, b = k c /\ P_sat W' x c).
  Proof.
    intros B k alg fuel W s h x Hi Hx Hen Hr. eapply p_bind; [apply (add_fresh default_mc ltac:(discriminate) W s h x (FactoryCnf alg) fuel Hi Hx Hen Hr) | |].
    { intros fs. apply mono_bind; [apply mono_lift |]. intros [b fs']. cbn [fst]. apply mono_bind; [apply mono_put | intros; apply mono_ret]. }
    intros fs s1 W1 Hi1 He1 Hs1 Hf. pose proof (hdl_ext _ _ _ _ He1 Hx) as Hx1. eapply p_lift_bind; [apply (own_sat orc So default_mc ltac:(discriminate) x fs W1 fuel Hf) |].
    intros [b fs'] Hb. cbn [fst] in *. apply p_of_x, x_put_end; auto.
    - put_caches. exists x. auto.
    - intros s' _ _. exists b. auto.
  Qed.
  Theorem is_sat_spec : forall alg fuel W s h x, inv W s -> hdl s h x -> encodable s x -> room fuel x ->
    pspec W s (is_sat orc alg fuel h) (fun b s' W' => P_sat W' x b).
  Proof.
    intros alg fuel W s h x Hi Hx Hen Hr. unfold is_sat. apply p_get_bind. destruct (oc_get h (oc_sat (f_caches s))) as [b |] eqn:G.
    { apply p_of_x, x_ret; [exact Hi |]. destruct (co_sat _ _ _ (i_caches _ _ Hi) h b G) as (x' & Q1 & Q3). now rewrite (hdl_same _ _ _ _ Hx (proj1 (proj2 Q1))) in Q3. }
    destruct (decide_spec bool (fun b => b) alg fuel W s h x Hi Hx Hen Hr) as [D1 D2]. split; [exact D1 |]. intros Hc. eapply rspec_weak; [exact (D2 Hc) |].
    intros b (W' & K1 & K2 & K3 & c & -> & K4). exists W'. auto.
  Qed.
  Theorem is_tautology_spec : forall alg fuel W s h x, inv W s -> hdl s h x -> encodable s x -> (forall g s1, f_negate h s = (Ok g, s1) -> all_of s1 g (room fuel)) ->
    pspec W s (is_tautology orc alg fuel h) (fun b s' W' => exists y, (forall v, sem v y = negb (sem v x)) /\ P_sat W' y (negb b)).
  Proof.
    intros alg fuel W s h x Hi Hx Hen Hr. unfold is_tautology. eapply p_bind_eq; [apply p_of_x, (f_negate_enc W s h x Hi Hx Hen) | |].
    { intros g. apply mono_bind; [apply mono_get |]. intros [b |]; [apply mono_ret |]. apply mono_bind; [apply mono_add_to_solver |]. intros fs. apply mono_bind; [apply mono_lift |]. intros [b fs']. cbn [fst].
      apply mono_bind; [apply mono_put | intros; apply mono_ret]. }
    intros g s1 W1 E Hi1 He1 Hs1 (-> & y & Hy & S1 & S2 & S3). apply p_get_bind. destruct (oc_get g (oc_sat (f_caches s1))) as [b |] eqn:G.
    { apply p_of_x, x_ret; [exact Hi1 |]. destruct (co_sat _ _ _ (i_caches _ _ Hi1) g b G) as (x' & Q1 & Q3). rewrite (hdl_same _ _ _ _ Hy (proj1 (proj2 Q1))) in Q3. exists y. rewrite negb_involutive. auto. }
    destruct (decide_spec bool negb alg fuel W s1 g y Hi1 Hy S3 (Hr g s1 E y (proj1 (proj2 Hy)))) as [D1 D2]. split; [exact D1 |]. intros Hc. eapply rspec_weak; [exact (D2 Hc) |].
    intros b (W' & K1 & K2 & K3 & c & -> & K4). exists W'. split; [exact K1 |]. split; [exact K2 |]. split; [exact K3 |]. exists y. rewrite negb_involutive. auto.
  Qed.
End Predicates.
