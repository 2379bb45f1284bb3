(** The invariant of one solver: it holds clauses that say, in the world of the factory, what the added formulas say. *)
From Coq Require Import NArith ZArith List Bool Arith Lia.
From Verif Require Import Base EncodingModel EncodingProofs Syntax FactoryModel FactoryInv FactoryBasics FactoryProofs FactorySpecs FactoryNary
  FactoryOps EvalProofs HistoryModel HistoryProofs ConstraintModel OpsModel OpsProofs CcModel EncBasics CcFrontProofs PbModel CacheModel TransModel
  TreeSpec WorldProofs MetricsProofs EncodeProofs NnfProofs DefBasics EncoderProofs XHistory XHistoryProofs
  Vec SatModel SatSpec SatBasics SatProp SatDb SatFront SatState MiniModel MiniProofs AssignmentModel EnumProofs BackboneProofs OptModel OptProofs MiniHistory PgSolverModel PgSolverProofs PgAddProofs PgHistory.
Import ListNotations.
Local Open Scope N_scope.

Definition names_known (s : factory) (m : mini) : Prop := forall v, In v (mi_names m) -> known s v.
Definition says (s : factory) (l : list N) (V : valuation) : Prop := forall h x, In h l -> denotes s h x -> sem V x = true.
Record slv_ok (W : world) (s : factory) (l : list N) (sv : slv) : Prop := {
  k_min : g_min (mc_sat (sv_mc sv)) <> MinNone;
  k_in : incl (sv_added sv) l;
  k_shown : incl (sv_shown sv) (sv_added sv);
  k_names : names_known s (fs_mini (sv_fs sv));
  k_vars : forall h x u, In h (sv_shown sv) -> denotes s h x -> In u (fvars x) -> In u (mi_names (fs_mini (sv_fs sv)));
  k_cls : exists G, mstate (sv_mc sv) G (fs_mini (sv_fs sv)) /\ pcs_ok W G s (fs_pc (sv_fs sv)) /\ (forall V, sat V G -> says s (sv_added sv) V) /\ (forall v, W v -> says s (sv_added sv) v -> sat v G) }.

Lemma denotes_back : forall s s' h x, has s h -> ext s s' -> denotes s' h x -> denotes s h x.
Proof. intros s s' h x [y Hy] He Hd. pose proof (hdl_same _ _ _ _ (hdl_ext _ _ _ _ He Hy) Hd) as ->. apply Hy. Qed.
Lemma denotes_on : forall s s' h x, has s h -> ext s s' -> denotes s h x -> denotes s' h x.
Proof. intros s s' h x [y Hy] He Hd. pose proof (hdl_same _ _ _ _ Hy Hd) as ->. apply (hdl_ext _ _ _ _ He Hy). Qed.
Lemma says_ext : forall s s' l k V, Forall (has s) k -> incl l k -> ext s s' -> (says s' l V <-> says s l V).
Proof.
  intros s s' l k V Hk Hl He. rewrite Forall_forall in Hk. split; intros H h x Hh Hd; apply (H h x Hh); [eapply denotes_on | eapply denotes_back]; eauto.
Qed.
Lemma slv_ext : forall W W' s s' l l' sv, Forall (has s) l -> ext s s' -> sub W' W -> incl l l' -> slv_ok W s l sv -> slv_ok W' s' l' sv.
Proof.
  intros W W' s s' l l' sv Hl He Hs Hi [H1 H2 H3 H4 H5 (G & K1 & K2 & K3 & K4)]. constructor; auto.
  - intros h Hh. apply Hi. now apply H2.
  - intros v Hv. eapply known_ext; [exact He | auto].
  - intros h x u Hh Hd Hu. apply (H5 h x u Hh); [| exact Hu]. eapply denotes_back; [| exact He | exact Hd]. rewrite Forall_forall in Hl. auto.
  - exists G. split; [exact K1 |]. split; [eapply pcs_ext; eauto |]. split.
    + intros V HV. apply (says_ext s s' _ l V Hl H2 He). auto.
    + intros v Hv Hy. apply K4; [auto |]. apply (says_ext s s' _ l v Hl H2 He). exact Hy.
Qed.

Section Take.
  Variables (mc : mconfig) (orc : oracle).
  Hypothesis Hm : g_min (mc_sat mc) <> MinNone.

  Lemma m_take_ok : forall G fuel a s s' m, mstate mc G m -> names_known s m -> ext s s' -> new_vars s s' (ad_aux a) -> (forall u, In u (ad_vars a) -> known s' u) -> cls_known s' (ad_clauses a) ->
    rspec (m_take mc fuel a m) (fun m' => mstate mc (rev (ad_clauses a) ++ G) m' /\ names_known s' m' /\ (forall v, In v (mi_names m) -> In v (mi_names m')) /\ forall v, In v (ad_vars a) -> In v (mi_names m')).
  Proof.
    intros G fuel a s s' m [I H] Hn He [Nd Na] Hv Hc. unfold m_take.
    destruct (m_registers_ok mc G (ad_aux a) _ (minv_other G m None (mi_states m) I) Nd) as (m1 & E1 & I1 & X1 & N1).
    { intros v Hv' K. cbn [mi_names] in K. apply (proj1 (Na v Hv')). now apply Hn. }
    rewrite E1. cbn [rbind]. pose proof (m_pushes_ok mc fuel (ad_clauses a) G m1 I1) as K0. destruct (m_pushes mc fuel (ad_clauses a) m1) as [m2 | |] eqn:E2; auto. cbn [rbind rspec] in *. destruct K0 as (I2 & X2 & N2).
    destruct (m_add_variables_ok mc _ (ad_vars a) m2 I2) as (m3 & E3 & I3 & X3 & V3). rewrite E3. cbn [rspec]. cbn [mi_names] in N1.
    split; [split; [exact I3 |]; intros Inc; pose proof (registers_h mc G (ad_aux a) (mkMini (mi_s m) (mi_names m) None (mi_states m)) m1 (n_in _ _ I) (H Inc) E1) as H1;
      exact (vars_h mc _ _ _ _ I2 (pushes_h mc Inc fuel (ad_clauses a) G m1 m2 I1 H1 E2) E3) |]. destruct X2 as ((e2 & X2) & _), X3 as ((e3 & X3) & _). split; [| split; [| exact V3]].
    - intros v Hv'. unfold m_add_variables in E3. destruct (generate_clause_vec mc (map (fun v => Lit v true) (ad_vars a)) m2) as [[ps m4] | |] eqn:Eg; cbn [rbind] in E3; try discriminate. inversion E3; subst m4.
      apply (gvec_names mc _ _ _ _ Eg v) in Hv'. destruct Hv' as [K | K].
      + destruct (N2 v K) as [K1 | (c & l & K1 & K2 & <-)]; [| unfold cls_known in Hc; rewrite Forall_forall in Hc; pose proof (Hc c K1) as Hl; unfold lits_known in Hl; rewrite Forall_forall in Hl; auto]. rewrite N1 in K1. apply in_app_iff in K1. destruct K1 as [K1 | K1]; [eapply known_ext; [exact He | now apply Hn] | now apply Na].
      + rewrite map_map in K. cbn [lit_var] in K. rewrite map_id in K. now apply Hv.
    - intros v K. rewrite X3, X2, N1. apply in_or_app. left. apply in_or_app. left. apply in_or_app. now left.
  Qed.

  Lemma take_ok : forall W s l fs ad sh h x fuel (full : bool) (p : M (addition * pg_caches)), inv W s -> Forall (has s) l -> slv_ok W s l (mkSlv mc fs ad sh) -> In h l -> hdl s h x ->
    (forall G, pcs_ok W G s (fs_pc fs) -> xspec W s p (fun r s' W' => add_ok G x s r s' W' /\ (full = true -> forall u, In u (fvars x) -> In u (ad_vars (fst r))))) ->
    cap (snd (p s)) ->
    rspec (fs_take mc fuel (p s) fs) (fun r => exists W', inv W' (fst r) /\ sub W' W /\ ext s (fst r) /\ slv_ok W' (fst r) l (mkSlv mc (snd r) (h :: ad) (if full then h :: sh else sh))).
  Proof.
    intros W s l fs ad sh h x fuel full p Hi Hl Hv Hh Hx Hp Hc. pose proof Hv as [_ H2 H3 H4 H5 (G & K1 & K2 & K3 & K4)]. cbn [sv_mc sv_fs sv_added sv_shown] in *.
    destruct (p s) as [r s'] eqn:Ep. cbn [snd] in Hc. destruct (x_run _ _ _ _ _ _ _ (Hp G K2) Ep Hc) as ([a pc] & W' & -> & Hi' & Hs & He & [A1 A2 A3 A4] & Hfull). cbn [fst snd] in *.
    unfold fs_take. cbn [fst snd rbind]. destruct A3 as (C1 & C2 & C3). eapply rspec_bind; [apply (m_take_ok G fuel a s s' (fs_mini fs) K1 H4 He A1 A2 C1) |].
    intros m (I & N1 & N2 & N3). cbn [rspec fst snd]. exists W'. split; [exact Hi' |]. split; [exact Hs |]. split; [exact He |].
    pose proof (hdl_ext _ _ _ _ He Hx) as Hx'. pose proof (slv_ext W W' s s' l l _ Hl He Hs (incl_refl l) Hv) as [_ _ _ _ H5' _]. cbn [sv_mc sv_fs sv_added sv_shown] in H5'.
    constructor; cbn [sv_mc sv_fs sv_added sv_shown fs_mini fs_pc].
    - exact Hm.
    - intros k [<- | Hk]; auto.
    - intros k Hk. destruct full; [destruct Hk as [<- | Hk]; [now left |] |]; right; auto.
    - exact N1.
    - intros k y u Hk Hd Hu. assert (K : In k sh -> In u (mi_names m)) by (intros Hk'; apply N2; eapply H5'; eauto).
      destruct full; [destruct Hk as [<- | Hk] |]; auto. apply N3. apply Hfull; [reflexivity |]. now rewrite <- (hdl_same _ _ _ _ Hx' Hd).
    - exists (rev (ad_clauses a) ++ G).
      assert (Sw : forall V, sat V (rev (ad_clauses a) ++ G) <-> sat V (G ++ ad_clauses a)).
      { intros V. rewrite !sat_app2. split; intros [S1 S2]; split; auto; intros c Hc'; [apply S1 | apply S2]; [now apply -> in_rev | now apply <- in_rev]. }
      split; [exact I |]. split; [eapply pcs_ext; [apply ext_refl | apply sub_refl | | exact A4]; intros V; apply Sw |]. split.
      + intros V HV k y [<- | Hk] Hd; [rewrite (hdl_same _ _ _ _ Hx' Hd); apply C2; now apply Sw |].
        apply (proj2 (says_ext s s' ad l V Hl H2 He) (K3 V (sat_fst _ _ _ (proj1 (Sw V) HV))) k y Hk Hd).
      + intros v Hw Hy. apply Sw. apply sat_app2. split.
        * apply K4; [auto |]. apply (says_ext s s' ad l v Hl H2 He). intros k y Hk. apply Hy. now right.
        * apply C3; [exact Hw |]. apply (Hy h x (or_introl eq_refl)). apply Hx'.
  Qed.
  Lemma fs_add_ok : forall W s l fs ad sh h x meth fuel, inv W s -> Forall (has s) l -> slv_ok W s l (mkSlv mc fs ad sh) -> In h l -> hdl s h x -> encodable s x -> room fuel x ->
    cap (snd (add_formula meth fuel h (fs_pc fs) s)) ->
    rspec (fs_add mc meth fuel h s fs) (fun r => exists W', inv W' (fst r) /\ sub W' W /\ ext s (fst r) /\ slv_ok W' (fst r) l (mkSlv mc (snd r) (h :: ad) (h :: sh))).
  Proof.
    intros W s l fs ad sh h x meth fuel Hi Hl Hv Hh Hx Hen Hr Hc. unfold fs_add. apply (take_ok W s l fs ad sh h x fuel true); auto.
    intros G HG. eapply x_conseq; [apply (add_formula_spec G meth fuel x); auto |]. intros r s' W' _ _ _ [A B]. split; [exact A |]. intros _ u. apply B.
  Qed.
  Lemma fs_add_prop_ok : forall W s l fs ad sh h x meth fuel, inv W s -> Forall (has s) l -> slv_ok W s l (mkSlv mc fs ad sh) -> In h l -> hdl s h x -> encodable s x -> room fuel x ->
    cap (snd (add_prop meth fuel h (fs_pc fs) s)) ->
    rspec (fs_add_prop mc meth fuel h s fs) (fun r => exists W', inv W' (fst r) /\ sub W' W /\ ext s (fst r) /\ slv_ok W' (fst r) l (mkSlv mc (snd r) (h :: ad) sh)).
  Proof.
    intros W s l fs ad sh h x meth fuel Hi Hl Hv Hh Hx Hen Hr Hc. unfold fs_add_prop. apply (take_ok W s l fs ad sh h x fuel false); auto.
    intros G HG. eapply x_conseq; [apply (add_prop_spec G meth fuel x); auto |]. intros r s' W' _ _ _ A. split; [exact A | discriminate].
  Qed.
End Take.

Lemma sat_with_names : forall mc orc fuel asm order m b m', m_sat_with mc orc fuel asm order m = Ok (b, m') ->
  forall v, In v (mi_names m') <-> In v (mi_names m) \/ exists ls l, asm = Some ls /\ In l ls /\ lit_var l = v.
Proof.
  intros mc orc fuel asm order m b m' E v. unfold m_sat_with in E. set (m0 := mkMini _ (mi_names m) None (mi_states m)) in E. destruct asm as [a |].
  - destruct (generate_clause_vec mc a m0) as [[ps m2] | |] eqn:Eg; cbn [rbind] in E; try discriminate. destruct (solve_with_assumptions (mc_sat mc) orc fuel ps (mi_s m2)) as [[q s] | |]; cbn [rbind] in E; try discriminate.
    pose proof (gvec_names _ _ _ _ _ Eg v) as X. cbn [mi_names m0] in X.
    assert (Y : In v (map lit_var a) <-> exists ls l, Some a = Some ls /\ In l ls /\ lit_var l = v).
    { rewrite in_map_iff. split; [intros (l & K1 & K2); exists a, l; auto | intros (ls & l & [= <-] & K1 & K2); exists l; auto]. }
    destruct order; inversion E; subst; cbn [mi_names]; rewrite X, Y; reflexivity.
  - assert (Y : (exists ls l, @None (list lit) = Some ls /\ In l ls /\ lit_var l = v) <-> False) by (split; [intros (ls & l & K & _); discriminate | tauto]).
    destruct (solve (mc_sat mc) orc fuel (mi_s m0)) as [[q s] | |]; cbn [rbind] in E; try discriminate. destruct order; inversion E; subst; cbn [mi_names m0]; rewrite Y; tauto.
Qed.
Lemma model_shows : forall mc G vs m', minv G m' -> mi_res m' = Some true -> length (s_model (mi_s m')) = length (mi_names m') ->
  exists md, m_model mc vs m' = Ok (Some md) /\ forall v, let shown := In v (mi_names m') /\ is_relevant mc v = true /\ (forall l, vs = Some l -> In v l) in
    (In v (m_pos md) <-> shown /\ mvals m' v = true) /\ (In v (m_neg md) <-> shown /\ mvals m' v = false).
Proof.
  intros mc G vs m' I Rs T3. pose proof (n_nd _ _ I) as Nd. set (names := mi_names m') in *. set (W := model_val (mi_s m')).
  unfold m_model. rewrite Rs. fold names.
  assert (Ix : forall i, In i (idxs (option_map (known_idx names) vs) (length (s_model (mi_s m')))) -> (i < length (s_model (mi_s m')))%nat).
  { intros i Hi. rewrite T3 in *. destruct vs as [l |]; cbn [option_map idxs] in Hi; [eapply known_idx_lt; eauto | apply in_seq in Hi; lia]. }
  rewrite create_assignment_ok by auto. cbn [rbind]. rewrite T3. change (fun i => nth i (s_model (mi_s m')) false) with W. rewrite T3 in Ix.
  set (idx := idxs (option_map (known_idx names) vs) (length names)) in *. exists (asgn mc names idx W). split; [reflexivity |].
  assert (Sp : forall v i, In i idx -> nth i names dv = v -> In v names /\ (forall l, vs = Some l -> In v l)).
  { intros v i Hi <-. split; [apply nth_In; auto |]. intros l ->. unfold idx in Hi. cbn [option_map idxs] in Hi. apply known_idx_in in Hi. destruct Hi as (w & Hw & Ew). apply idx_some in Ew. now rewrite (nth_of_some _ _ _ _ dv Ew). }
  assert (Cv : forall v, In v names -> (forall l, vs = Some l -> In v l) -> exists i, In i idx /\ nth i names dv = v).
  { intros v Hv Hl. destruct (idx_in names v Hv) as (i & Ei & Li & En). exists i. split; auto. unfold idx. destruct vs as [l |]; cbn [option_map idxs]; [apply known_idx_in; exists v; split; auto | apply in_seq; lia]. }
  assert (HV : forall i, (i < length names)%nat -> mvals m' (nth i names dv) = W i) by (intros i Hi; unfold mvals, nval; fold names; now rewrite idx_nth).
  intros v. cbv zeta. rewrite asgn_pos, asgn_neg by auto. split; split.
  - intros (i & H1 & H2 & H3 & H4). destruct (Sp v i H1 H2). subst v. rewrite HV by auto. tauto.
  - intros ((H1 & H2 & H3) & H4). destruct (Cv v H1 H3) as (i & Hi & <-). exists i. rewrite HV in H4 by auto. auto.
  - intros (i & H1 & H2 & H3 & H4). destruct (Sp v i H1 H2). subst v. rewrite HV by auto. tauto.
  - intros ((H1 & H2 & H3) & H4). destruct (Cv v H1 H3) as (i & Hi & <-). exists i. rewrite HV in H4 by auto. auto.
Qed.

Section History.
  Variable orc : oracle.
  Hypothesis So : sorting orc.

  Lemma slv_other : forall W s l mc fs fs' ad sh, slv_ok W s l (mkSlv mc fs ad sh) -> fs_pc fs' = fs_pc fs \/ fs_pc fs' = pg_caches_new ->
    (forall G, mstate mc G (fs_mini fs) -> mstate mc G (fs_mini fs')) -> (forall v, In v (mi_names (fs_mini fs)) -> In v (mi_names (fs_mini fs'))) -> names_known s (fs_mini fs') ->
    slv_ok W s l (mkSlv mc fs' ad sh).
  Proof.
    intros W s l mc fs fs' ad sh [H1 H2 H3 H4 H5 (G & K1 & K2 & K3 & K4)] Hp Hm Hi Hk. cbn [sv_mc sv_fs sv_added sv_shown] in *. constructor; cbn [sv_mc sv_fs sv_added sv_shown]; auto.
    - intros h x u Hh Hd Hu. apply Hi. eauto.
    - exists G. split; [auto |]. split; [| auto]. destruct Hp as [-> | ->]; [exact K2 | split; intros h e E; discriminate].
  Qed.
  Lemma slv_sat : forall W s l mc fs ad sh fuel asm order b fs', inv W s -> Forall (has s) l -> slv_ok W s l (mkSlv mc fs ad sh) -> asm_known s l asm ->
    fs_sat mc orc fuel asm order fs = Ok (b, fs') -> slv_ok W s l (mkSlv mc fs' ad sh).
  Proof.
    intros W s l mc fs ad sh fuel asm order b fs' Hi Hl Hv Ha E. unfold fs_sat in E. destruct (m_sat_with mc orc fuel asm order (fs_mini fs)) as [[c m] | |] eqn:Em; cbn [rbind] in E; try discriminate. inversion E; subst.
    pose proof (sat_with_names _ _ _ _ _ _ _ _ Em) as Nm. eapply slv_other; [exact Hv | left; reflexivity | | |]; cbn [fs_mini].
    - intros G I. exact (sat_with_st mc orc (k_min _ _ _ _ Hv) So G fuel asm order _ _ _ I Em).
    - intros v K. apply Nm. now left.
    - intros v K. apply Nm in K. destruct K as [K | (ls & a & K1 & K2 & <-)]; [now apply (k_names _ _ _ _ Hv) |]. eapply knows_var_known; [apply Hi | exact Hl | eauto].
  Qed.
  Lemma slv_new : forall W s l mc sts, g_min (mc_sat mc) <> MinNone -> slv_ok W s l (mkSlv mc (mkFs (mkMini solver_new [] None sts) pg_caches_new) [] []).
  Proof.
    intros W s l mc sts Hm. constructor; cbn [sv_mc sv_fs sv_added sv_shown fs_mini fs_pc mi_names]; auto; try (intros ? []); try (intros ? ? ? []).
    exists []. split; [apply mstate_new |]. split; [split; intros h e E; discriminate |]. split; [intros V _ h x [] | intros v _ _ c []].
  Qed.
End History.
