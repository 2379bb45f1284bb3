(** C52: formulas added to solvers. Answers, models, backbones and enumerated models are about the added formulas. *)
From Coq Require Import NArith ZArith List Bool Arith Lia Permutation.
From Coq Require String.
From Verif Require Import Base EncodingModel EncodingProofs Syntax FactoryModel FactoryInv FactoryBasics FactoryProofs FactoryOps EvalProofs HistoryModel CcModel EncBasics CcFrontProofs
  CacheModel TransModel TreeSpec WorldProofs MetricsProofs EncodeProofs NnfProofs DefBasics XHistory XHistoryProofs XReplay Properties_Trans
  Vec SatModel SatSpec SatBasics SatProp SatDb SatFront SatState MiniModel MiniProofs AssignmentModel EnumProofs BackboneProofs OptModel OptProofs MiniHistory Properties_Sat
  PgSolverModel PgSolverProofs PgAddProofs PgHistory PgTakeProofs PgHistoryProofs PgReplay.
Import ListNotations.
Local Open Scope N_scope.

(** [V] satisfies all formulas in the list. *)
Definition all_hold (s : factory) (hs : list N) (V : valuation) : Prop := forall h x, In h hs -> denotes s h x -> sem V x = true.
(** They are over variables that were created by name. *)
Definition all_named (s : factory) (hs : list N) : Prop := forall h x, In h hs -> denotes s h x -> over_named x.
Definition named (u : var) : Prop := exists i, u = VFF i.
(** [u] occurs in one of the formulas. *)
Definition occurs_in (s : factory) (hs : list N) (u : var) : Prop := exists h x, In h hs /\ denotes s h x /\ In u (fvars x).

Lemma reach_slv : forall orc cfg g sv, heuristics_ok orc -> greachable orc cfg g -> In sv (g_solvers g) ->
  exists W, inv W (x_fac (g_x g)) /\ Forall (has (x_fac (g_x g))) (x_known (g_x g)) /\ slv_ok W (x_fac (g_x g)) (x_known (g_x g)) sv.
Proof.
  intros orc cfg g sv So Hr Hin. destruct (greachable_ok orc So cfg g Hr) as (W & [Hi [Hk _]] & Hs). exists W. split; [exact Hi |]. split; [exact Hk |].
  rewrite Forall_forall in Hs. auto.
Qed.
(** A valuation that satisfies named formulas has a variant that satisfies the clauses. *)
Lemma to_clauses : forall W s l G hs V, inv W s -> slv_ok W s l hs -> all_named s (sv_added hs) -> (forall v, W v -> says s (sv_added hs) v -> sat v G) ->
  all_hold s (sv_added hs) V -> exists w, sat w G /\ forall i, w (VFF i) = V (VFF i).
Proof.
  intros W s l G hs V Hi Hv Hn HG H. destruct (proj1 (i_world _ _ Hi) V) as (w & Hw & Ha). exists w. split; [| exact Ha]. apply HG; [exact Hw |].
  intros h x Hh Hd. rewrite <- (H h x Hh Hd). apply sem_fvars. intros u Hu. destruct (Hn h x Hh Hd u Hu) as [i ->]. apply Ha.
Qed.

(** ** Satisfiability *)
(** After the answer True there is a valuation which satisfies all formulas added since the creation (or the last reset) of the
    solver and the assumptions, and [model] returns its values, for all requested variables of the formulas and the assumptions
    (formulas that were added as propositions need not have all their variables in the model). For every CNF method, also changing
    between calls, for other solvers on the same factory, and all heuristics. *)
Theorem C52_sat : forall orc cfg g mc fs ad sh fuel asm order vs fs', heuristics_ok orc -> greachable orc cfg g -> In (mkSlv mc fs ad sh) (g_solvers g) ->
  fs_sat mc orc fuel asm order fs = Ok (true, fs') ->
  exists md V, m_model mc vs (fs_mini fs') = Ok (Some md) /\ all_hold (x_fac (g_x g)) ad V /\ (forall a ls, asm = Some ls -> In a ls -> lit_sem V a = true) /\
    (forall v, (In v (m_pos md) -> V v = true) /\ (In v (m_neg md) -> V v = false)) /\
    (forall v, occurs_in (x_fac (g_x g)) sh v \/ (exists ls l, asm = Some ls /\ In l ls /\ lit_var l = v) -> is_relevant mc v = true -> (forall l, vs = Some l -> In v l) ->
      In v (m_pos md) \/ In v (m_neg md)).
Proof.
  intros orc cfg g mc fs ad sh fuel asm order vs fs' So Hr Hin E. destruct (reach_slv orc cfg g _ So Hr Hin) as (W & Hi & Hk & Hv).
  pose proof Hv as [Hm _ _ _ H5 (G & [K1 KH] & _ & K3 & _)]. cbn [sv_mc sv_fs sv_added sv_shown] in *.
  unfold fs_sat in E. destruct (m_sat_with mc orc fuel asm order (fs_mini fs)) as [[b m'] | |] eqn:Em; cbn [rbind] in E; try discriminate. inversion E; subst. cbn [fs_mini].
  pose proof (m_sat_with_ok mc orc Hm So G fuel asm order (fs_mini fs) K1) as K. rewrite Em in K. destruct K as (I' & Rs & T1 & T2 & T3). cbn [fst snd] in *.
  destruct (model_shows mc G vs m' I' Rs T3) as (md & Hmd & Hs). exists md, (mvals m'). split; [exact Hmd |]. split; [intros h x; apply K3; exact T1 |]. split; [intros a ls -> Ha; apply T2, Ha |]. split.
  - intros v. destruct (Hs v) as [A B]. split; intros H; [apply A in H | apply B in H]; apply H.
  - intros v Hv' Hrel Hreq. destruct (Hs v) as [A B].
    assert (Hn : In v (mi_names m')).
    { apply (sat_with_names _ _ _ _ _ _ _ _ Em). destruct Hv' as [(h & x & Q1 & Q2 & Q3) | Hv']; [left; eapply H5; eauto | now right]. }
    destruct (mvals m' v); [left; apply A | right; apply B]; auto.
Qed.
Print Assumptions C52_sat.
(** After the answer False no valuation satisfies the added formulas and the assumptions, if these are about variables created by name. *)
Theorem C52_unsat : forall orc cfg g mc fs ad sh fuel asm order fs', heuristics_ok orc -> greachable orc cfg g -> In (mkSlv mc fs ad sh) (g_solvers g) ->
  all_named (x_fac (g_x g)) ad -> (forall ls l, asm = Some ls -> In l ls -> named (lit_var l)) ->
  fs_sat mc orc fuel asm order fs = Ok (false, fs') ->
  ~ exists V, all_hold (x_fac (g_x g)) ad V /\ forall a ls, asm = Some ls -> In a ls -> lit_sem V a = true.
Proof.
  intros orc cfg g mc fs ad sh fuel asm order fs' So Hr Hin Hn Ha E (V & H1 & H2). destruct (reach_slv orc cfg g _ So Hr Hin) as (W & Hi & Hk & Hv).
  pose proof Hv as [Hm _ _ _ H5 (G & [K1 KH] & _ & _ & K4)]. cbn [sv_mc sv_fs sv_added sv_shown] in *.
  destruct (to_clauses W _ _ G _ V Hi Hv Hn K4 H1) as (w & Hw & Hag).
  unfold fs_sat in E. destruct (m_sat_with mc orc fuel asm order (fs_mini fs)) as [[b m'] | |] eqn:Em; cbn [rbind] in E; try discriminate. inversion E; subst.
  pose proof (m_sat_with_ok mc orc Hm So G fuel asm order (fs_mini fs) K1) as K. rewrite Em in K. destruct K as (_ & _ & K). cbn [fst snd] in *. apply (K w Hw).
  intros a Hin'. destruct asm as [ls |]; [| destruct Hin']. pose proof (H2 a ls eq_refl Hin') as T. destruct (Ha ls a eq_refl Hin') as [i Ei]. destruct a as [u p]. cbn in *. subst u. now rewrite Hag.
Qed.
Print Assumptions C52_unsat.
(** Adding a formula does not panic as long as the factory does not exceed its capacity, and solving never does. *)
Theorem C52_no_panic : forall orc cfg g mc fs ad sh meth fuel h, heuristics_ok orc -> greachable orc cfg g -> In (mkSlv mc fs ad sh) (g_solvers g) ->
  addable (x_fac (g_x g)) (x_known (g_x g)) fuel h ->
  (cap (snd (add_formula meth fuel h (fs_pc fs) (x_fac (g_x g)))) -> fs_add mc meth fuel h (x_fac (g_x g)) fs <> Panic) /\
  (cap (snd (add_prop meth fuel h (fs_pc fs) (x_fac (g_x g)))) -> fs_add_prop mc meth fuel h (x_fac (g_x g)) fs <> Panic).
Proof.
  intros orc cfg g mc fs ad sh meth fuel h So Hr Hin [Hh Ha]. destruct (reach_slv orc cfg g _ So Hr Hin) as (W & Hi & Hk & Hv). pose proof Hk as Hk'. rewrite Forall_forall in Hk'.
  destruct (Hk' h Hh) as [x Hx]. destruct (Ha x (proj1 (proj2 Hx))) as [Hen Hro]. pose proof (k_min _ _ _ _ Hv) as Hm. cbn [sv_mc] in Hm. split; intros Hc E.
  - pose proof (fs_add_ok mc Hm W _ _ fs ad sh h x meth fuel Hi Hk Hv Hh Hx Hen Hro Hc) as K. rewrite E in K. exact K.
  - pose proof (fs_add_prop_ok mc Hm W _ _ fs ad sh h x meth fuel Hi Hk Hv Hh Hx Hen Hro Hc) as K. rewrite E in K. exact K.
Qed.
Print Assumptions C52_no_panic.
Theorem C52_sat_no_panic : forall orc cfg g mc fs ad sh fuel asm order, heuristics_ok orc -> greachable orc cfg g -> In (mkSlv mc fs ad sh) (g_solvers g) ->
  fs_sat mc orc fuel asm order fs <> Panic.
Proof.
  intros orc cfg g mc fs ad sh fuel asm order So Hr Hin E. destruct (reach_slv orc cfg g _ So Hr Hin) as (W & Hi & Hk & Hv).
  pose proof Hv as [Hm _ _ _ H5 (G & [K1 KH] & _)]. cbn [sv_mc sv_fs sv_added sv_shown] in *. unfold fs_sat in E.
  pose proof (m_sat_with_ok mc orc Hm So G fuel asm order (fs_mini fs) K1) as K. destruct (m_sat_with mc orc fuel asm order (fs_mini fs)) as [[b m'] | |]; [discriminate | exact K | discriminate].
Qed.
Print Assumptions C52_sat_no_panic.

(** Backbones and enumerations (the latter in the incremental mode, see [C36_incremental_refuted]) do not panic. *)
Theorem C52_functions_no_panic : forall orc cfg g mc fs ad sh rounds fuel, heuristics_ok orc -> greachable orc cfg g -> In (mkSlv mc fs ad sh) (g_solvers g) ->
  (forall vs t, fs_backbone mc orc rounds fuel vs t fs <> Panic) /\ (g_incremental (mc_sat mc) = true -> forall ec, fs_enumerate mc orc rounds fuel ec fs <> Panic).
Proof.
  intros orc cfg g mc fs ad sh rounds fuel So Hr Hin. destruct (reach_slv orc cfg g _ So Hr Hin) as (W & Hi & Hk & Hv).
  pose proof Hv as [Hm _ _ _ H5 (G & [K1 KH] & _)]. cbn [sv_mc sv_fs sv_added sv_shown] in *. split.
  - intros vs t E. unfold fs_backbone in E. destruct (g_incremental (mc_sat mc)) eqn:Inc.
    + pose proof (backbone_h mc orc Hm So Inc G rounds fuel vs t (fs_mini fs) K1 (KH eq_refl)) as K. destruct (compute_backbone mc orc rounds fuel vs t (fs_mini fs)) as [[b m'] | |]; [discriminate | exact K | discriminate].
    + pose proof (compute_backbone_ok mc orc rounds fuel G (fs_mini fs) vs t Hm So K1) as K. unfold compute_backbone in E. rewrite Inc in E.
      destruct (s_compute_backbone mc orc rounds fuel (mi_names (fs_mini fs)) vs t (mi_s (fs_mini fs))) as [[b m'] | |]; [discriminate | exact K | discriminate].
  - intros Inc ec E. unfold fs_enumerate in E. pose proof (enumerate_h mc orc Hm So Inc G rounds fuel ec (fs_mini fs) K1 (KH Inc)) as K.
    destruct (enumerate_models mc orc rounds fuel ec (fs_mini fs)) as [[b m'] | |]; [discriminate | exact K | discriminate].
Qed.
Print Assumptions C52_functions_no_panic.

(** ** Backbones *)
Definition always_in (s : factory) (hs : list N) (v : var) (b : bool) : Prop := forall V, all_hold s hs V -> V v = b.
(** The result is "unsatisfiable" iff the added formulas are; otherwise the parts list exactly the requested variables which are
    true (false, neither) in all models of the added formulas. *)
Theorem C52_backbone : forall orc cfg g mc fs ad sh rounds fuel vs t b fs', heuristics_ok orc -> greachable orc cfg g -> In (mkSlv mc fs ad sh) (g_solvers g) ->
  all_named (x_fac (g_x g)) ad -> (forall v, In v vs -> named v) ->
  fs_backbone mc orc rounds fuel vs t fs = Ok (b, fs') ->
  let holds := all_hold (x_fac (g_x g)) ad in let always := always_in (x_fac (g_x g)) ad in
  match b with
  | None => ~ exists V, holds V
  | Some (pos, neg, opt) =>
    (exists V, holds V) /\
    (pos = None <-> t = OnlyNegative) /\ (neg = None <-> t = OnlyPositive) /\ (opt = None <-> t <> PositiveAndNegative) /\
    (forall p, pos = Some p -> forall v, In v p <-> In v vs /\ always v true) /\
    (forall p, neg = Some p -> forall v, In v p <-> In v vs /\ always v false) /\
    (forall p, opt = Some p -> forall v, In v p <-> In v vs /\ ~ always v true /\ ~ always v false)
  end.
Proof.
  intros orc cfg g mc fs ad sh rounds fuel vs t b fs' So Hr Hin Hn Hvs E holds always. destruct (reach_slv orc cfg g _ So Hr Hin) as (W & Hi & Hk & Hv).
  pose proof Hv as [Hm _ _ _ _ (G & [K1 KH] & _ & K3 & K4)]. cbn [sv_mc sv_fs sv_added sv_shown] in *.
  assert (To : forall V, holds V -> exists w, sat w G /\ forall i, w (VFF i) = V (VFF i)) by (intros V; apply (to_clauses W _ _ G _ V Hi Hv Hn K4)).
  assert (P : backbone_spec t vs G b).
  { unfold fs_backbone, compute_backbone in E. destruct (g_incremental (mc_sat mc)).
    - destruct (m_save mc (fs_mini fs)) as [[st m1] | |] eqn:Es; cbn [rbind] in E; try discriminate. unfold m_save in Es. destruct (save_state (mc_sat mc) (mi_s (fs_mini fs))) as [sn | |]; cbn [rbind] in Es; try discriminate. inversion Es; subst. cbn [mi_s mi_names mi_res mi_states] in E.
      pose proof (compute_backbone_ok mc orc rounds fuel G (fs_mini fs) vs t Hm So K1) as K. destruct (s_compute_backbone mc orc rounds fuel (mi_names (fs_mini fs)) vs t (mi_s (fs_mini fs))) as [[b' s'] | |]; cbn [rbind] in E; try discriminate.
      destruct (m_load mc orc fuel _ _) as [m3 | |]; cbn [rbind] in E; try discriminate. inversion E; subst. apply K.
    - pose proof (compute_backbone_ok mc orc rounds fuel G (fs_mini fs) vs t Hm So K1) as K. destruct (s_compute_backbone mc orc rounds fuel (mi_names (fs_mini fs)) vs t (mi_s (fs_mini fs))) as [[b' s'] | |]; cbn [rbind] in E; try discriminate.
      inversion E; subst. apply K. }
  assert (F : forall v p, In v vs -> (forced G v p <-> always v p)).
  { intros v p Hv'. split; intros H V HV.
    - destruct (To V HV) as (w & Hw & Ha). destruct (Hvs v Hv') as [i ->]. rewrite <- Ha. exact (H w Hw).
    - apply H. intros h x. apply K3. exact HV. }
  destruct b as [[[pos neg] opt] |]; cbn [backbone_spec] in P; [| intros (V & HV); destruct (To V HV) as (w & Hw & _); exact (P w Hw)].
  destruct P as (P1 & P2 & P3 & P4). split; [destruct P1 as (V & HV); exists V; intros h x; apply K3; exact HV |].
  destruct t, pos as [p1 |], neg as [p2 |], opt as [p3 |]; try contradiction; do 3 (split; [split; congruence |]); (split; [| split]); intros q Eq; inversion Eq; subst; intros v.
  all: first [rewrite P2 | rewrite P3 | rewrite P4]; split; intros H; (split; [apply H |]); destruct H as [Q1 Q2]; try (now apply (F v _ Q1)).
  all: rewrite (F v true Q1), (F v false Q1) in *; exact Q2.
Qed.
Print Assumptions C52_backbone.

(** ** Enumeration of models *)
(** The variables over which models are enumerated: the given list, or all variables created by name. *)
Definition over (ec : econfig) (v : var) : Prop := named v /\ forall vs, ec_vars ec = Some vs -> In v vs.
(** (1) Every returned model consists of values of a valuation which satisfies all added formulas, with a value for each
    enumerated variable of the formulas; (2) two models at different positions differ on an enumerated variable; (3) at most
    [max_models] models are returned, and if they are fewer (or there is no bound) then every valuation that satisfies the
    added formulas agrees with one of them on the enumerated variables. *)
Theorem C52_enumerate : forall orc cfg g mc fs ad sh rounds fuel ec ms fs', heuristics_ok orc -> greachable orc cfg g -> In (mkSlv mc fs ad sh) (g_solvers g) ->
  all_named (x_fac (g_x g)) ad -> match ec_vars ec with Some vs => forall v, In v vs -> named v | None => mc_aux mc = false end ->
  fs_enumerate mc orc rounds fuel ec fs = Ok (ms, fs') ->
  (forall md, In md ms -> exists V, all_hold (x_fac (g_x g)) ad V /\ (forall v, (In v (m_pos md) -> V v = true) /\ (In v (m_neg md) -> V v = false)) /\
    forall v, occurs_in (x_fac (g_x g)) sh v -> over ec v -> In v (m_pos md) \/ In v (m_neg md)) /\
  (forall i j a b, (i < j)%nat -> nth_error ms i = Some a -> nth_error ms j = Some b ->
    exists v, over ec v /\ ((In v (m_pos a) /\ In v (m_neg b)) \/ (In v (m_neg a) /\ In v (m_pos b)))) /\
  (forall k, ec_max ec = Some k -> (length ms <= k)%nat) /\
  ((forall k, ec_max ec = Some k -> (length ms < k)%nat) -> forall V, all_hold (x_fac (g_x g)) ad V ->
    exists md, In md ms /\ forall v, over ec v -> (In v (m_pos md) -> V v = true) /\ (In v (m_neg md) -> V v = false)).
Proof.
  intros orc cfg g mc fs ad sh rounds fuel ec ms fs' So Hr Hin Hn Hec E. destruct (reach_slv orc cfg g _ So Hr Hin) as (W & Hi & Hk & Hv).
  pose proof Hv as [Hm _ _ _ H5 (G & [K1 KH] & _ & K3 & K4)]. cbn [sv_mc sv_fs sv_added sv_shown] in *.
  unfold fs_enumerate, enumerate_models in E. destruct (m_save mc (fs_mini fs)) as [[st m1] | |] eqn:Es; cbn [rbind] in E; try discriminate.
  assert (I1 : minv G m1 /\ mi_names m1 = mi_names (fs_mini fs)).
  { unfold m_save in Es. destruct (save_state (mc_sat mc) (mi_s (fs_mini fs))) as [sn | |]; cbn [rbind] in Es; try discriminate. inversion Es; subst. split; [apply (minv_other _ (fs_mini fs) (mi_res (fs_mini fs)) (mi_states (fs_mini fs) ++ [sn])); exact K1 | reflexivity]. }
  destruct I1 as [I1 En].
  assert (Ov : forall v, enumerated mc ec (mi_names m1) v -> over ec v).
  { intros v [_ Hv']. unfold over. destruct (ec_vars ec) as [vs |]; [split; [now apply Hec | intros ws [= <-]; exact Hv'] |]. split; [| discriminate].
    destruct v as [i | a i]; [now exists i |]. cbn [is_relevant] in Hv'. congruence. }
  assert (Vo : forall v, In v (mi_names m1) -> over ec v -> enumerated mc ec (mi_names m1) v /\ shown mc ec (mi_names m1) v).
  { intros v Hin' [[i ->] Ho]. unfold enumerated, shown. cbn [is_relevant]. destruct (ec_vars ec) as [vs |]; repeat (split; auto). }
  assert (HR : forall v, enumerated mc ec (mi_names m1) v -> is_relevant mc v = true) by (intros v H; destruct (Ov v H) as [[i ->] _]; reflexivity).
  pose proof (enum_named mc orc rounds fuel ec G m1 Hm So I1 HR) as P.
  destruct (enum_loop mc orc rounds fuel _ _ (ec_max ec) [] m1) as [[ms' m2] | |] eqn:El in E, P; cbn [rbind] in E; try discriminate.
  destruct (m_load mc orc fuel st m2) as [m3 | |]; cbn [rbind] in E; try discriminate. inversion E; subst. cbn [rspec fst snd] in P. destruct P as (P1 & P2 & P3 & P4). split; [| split; [| split]].
  - intros md Hmd. destruct (P1 md Hmd) as (V & V1 & V2). exists V. split; [intros h x; apply K3; exact V1 |]. split.
    + intros v. destruct (V2 v) as [A B]. split; intros H; [apply A in H | apply B in H]; apply H.
    + intros v (h & x & Q1 & Q2 & Q3) Ho. destruct (V2 v) as [A B]. assert (Hs : shown mc ec (mi_names m1) v) by (apply Vo; [rewrite En; eapply H5; eauto | exact Ho]).
      destruct (V v); [left; apply A | right; apply B]; auto.
  - clear - P2 Ov. induction P2 as [| x l Hx _ IH]; intros i j a b Lt Ea Eb; [destruct i; discriminate |]. destruct j as [| j]; [lia |]. cbn [nth_error] in Eb. destruct i as [| i].
    + cbn in Ea. inversion Ea; subst. rewrite Forall_forall in Hx. destruct (Hx b (nth_error_In _ _ Eb)) as (v & V1 & V2). exists v. split; [now apply Ov | exact V2].
    + apply (IH i j a b); auto. lia.
  - intros k Ek. rewrite Ek in P3. exact P3.
  - intros Lk V HV. destruct P4 as [(k & P4 & P5) | P4]; [exfalso; specialize (Lk k P4); lia |].
    destruct (to_clauses W _ _ G _ V Hi Hv Hn K4 HV) as (w & Hw & Hag). destruct (P4 w Hw) as (md & M1 & M2). exists md. split; auto.
    intros v Ho. destruct (P1 md M1) as (V' & _ & V2). destruct (V2 v) as [A B]. pose proof Ho as [[i ->] _]. rewrite <- Hag. split; intros H.
    + pose proof H as H'. apply A in H. destruct H as [[Hs1 Hs2] Ht]. destruct (w (VFF i)) eqn:Ew; [reflexivity |]. destruct (M2 (VFF i) (proj1 (Vo _ Hs1 Ho))) as [_ N]. apply N in Ew. apply B in Ew. destruct Ew. congruence.
    + pose proof H as H'. apply B in H. destruct H as [[Hs1 Hs2] Ht]. destruct (w (VFF i)) eqn:Ew; [| reflexivity]. destruct (M2 (VFF i) (proj1 (Vo _ Hs1 Ho))) as [N _]. apply N in Ew. apply A in Ew. destruct Ew. congruence.
Qed.
Print Assumptions C52_enumerate.

(** ** Example: two solvers on one factory; formulas, a proposition, several methods, a solver call with an assumption *)
Definition ex_sr : list rstep := ex_base ++ [RCall (XCall (CCc LE 1 [VFF 0; VFF 1; VFF 2])); RCall (XCall (CNot 12)); RCall (XCall (CNary false [48; 35]))].
Definition ex_sx : xstate := ex_of ex_sr.
Definition ex_mci : mconfig := mkMc (mkCfg MinDeep true true false) false false true true true.
Definition ex_mcb : mconfig := mkMc (mkCfg MinBasic false true false) true false true true true.
Definition ex_gr : list gr :=
  [GNew ex_mci; GNew ex_mcb; GAdd 1 PgOnSolver 60 12; GAdd 0 FullPgOnSolver 60 15; GSat 1 200 (Some [Lit (VFF 2) false]) None; GAdd 1 PgOnSolver 60 48; GProp 1 PgOnSolver 60 14;
   GBackbone 0 50 200 [VFF 0; VFF 1] PositiveAndNegative; GBackbone 1 50 200 [VFF 0] OnlyPositive; GEnumerate 1 50 200 (mkEc (Some [VFF 0; VFF 1]) None None);
   GAdd 0 (FactoryCnf (CnfTseitin 0)) 60 76].
Definition ex_g : gstate := match greplay ex_orc ex_gr (mkG ex_sx []) with Some g => g | None => mkG ex_nil [] end.
Definition ex_sv (i : nat) : slv := nth i (g_solvers ex_g) (mkSlv ex_mci fs_new [] []).
Definition ex_ask (i : nat) (asm : option (list lit)) : res (bool * res (option smodel)) :=
  do ' (b, fs) <- fs_sat (sv_mc (ex_sv i)) ex_orc 200 asm None (sv_fs (ex_sv i)); Ok (b, m_model (sv_mc (ex_sv i)) None (fs_mini fs)).
Lemma ex_g_reach : greachable ex_orc default_config ex_g.
Proof.
  apply (greplay_reach ex_orc default_config (x_fac ex_sx) (x_known ex_sx) (x_objs ex_sx) ex_gr ex_g).
  - apply (replay_reach _ ex_sr). vm_compute. reflexivity.
  - vm_compute. reflexivity.
Qed.
(** The second solver holds [~((A & B) <=> (C => A)) | (A & B)], [A + B + C <= 1] and [C => A]; the first solver [(A & B) <=> (C => A)] and [(A + B + C <= 1) | A]. *)
Example C52_ex : greachable ex_orc default_config ex_g /\ length (g_solvers ex_g) = 2%nat
  /\ sv_added (ex_sv 1) = [14; 48; 12] /\ sv_shown (ex_sv 1) = [48; 12] /\ sv_added (ex_sv 0) = [76; 15]
  /\ ex_ask 1 None = Ok (true, Ok (Some (mkModel [VFF 0] [VFF 2; VFF 1])))
  /\ ex_ask 1 (Some [Lit (VFF 2) true]) = Ok (false, Ok None)
  /\ ex_ask 0 None = Ok (true, Ok (Some (mkModel [VFF 0; VFF 1] [VFF 2])))
  /\ match fs_backbone (sv_mc (ex_sv 1)) ex_orc 50 200 [VFF 0; VFF 1; VFF 2] PositiveAndNegative (sv_fs (ex_sv 1)) with
     | Ok (b, _) => b = Some (Some [], Some [VFF 2], Some [VFF 0; VFF 1]) | _ => False end
  /\ match fs_enumerate (sv_mc (ex_sv 1)) ex_orc 50 200 (mkEc None None None) (sv_fs (ex_sv 1)) with Ok (ms, _) => length ms = 3%nat | _ => False end.
Proof. split; [apply ex_g_reach |]. vm_compute. repeat split. Qed.
Lemma named_of_tree : forall d s h y, tree_of d s h = Some y -> forallb (fun u => match u with VFF _ => true | _ => false end) (fvars y) = true -> forall x, denotes s h x -> over_named x.
Proof.
  intros d s h y Ht Hf x Hx u Hu. apply tree_of_sound in Ht. rewrite (denotes_fun _ _ _ _ Hx Ht) in Hu. rewrite forallb_forall in Hf. specialize (Hf u Hu). destruct u as [i |]; [now exists i | discriminate].
Qed.
Example C52_ex_named : all_named (x_fac (g_x ex_g)) (sv_added (ex_sv 1)).
Proof.
  intros h x Hh Hd. vm_compute in Hh. destruct Hh as [<- | [<- | [<- | []]]]; revert x Hd.
  - eapply (named_of_tree 10); vm_compute; reflexivity.
  - eapply (named_of_tree 10); vm_compute; reflexivity.
  - eapply (named_of_tree 10); vm_compute; reflexivity.
Qed.

(** ** Finding: a state that was saved before [reset] *)
(** [reset] empties the solver, but keeps [valid_states]. A state that was saved before is accepted by [load_state] afterwards,
    although the formulas it stands for are gone: the formula of this solver excludes the assumption, the answer is True. *)
Theorem C52_reset_refuted : exists orc cfg g mc fs ad sh i fs1 fs2 fs3 fuel asm, heuristics_ok orc /\ greachable orc cfg g /\ In (mkSlv mc fs ad sh) (g_solvers g) /\
  fs_save mc fs = Ok (i, fs1) /\ fs_load mc orc fuel i (fs_reset fs1) = Ok fs2 /\ fs_sat mc orc fuel (Some asm) None fs2 = Ok (true, fs3) /\
  ~ exists V, all_hold (x_fac (g_x g)) ad V /\ forall a, In a asm -> lit_sem V a = true.
Proof.
  set (sv := ex_sv 1). pose (fs1 := match fs_save (sv_mc sv) (sv_fs sv) with Ok (_, f) => f | _ => fs_new end).
  pose (fs2 := match fs_load (sv_mc sv) ex_orc 200 2 (fs_reset fs1) with Ok f => f | _ => fs_new end).
  pose (fs3 := match fs_sat (sv_mc sv) ex_orc 200 (Some [Lit (VFF 2) true]) None fs2 with Ok (_, f) => f | _ => fs_new end).
  exists ex_orc, default_config, ex_g, (sv_mc sv), (sv_fs sv), (sv_added sv), (sv_shown sv), 2%nat, fs1, fs2, fs3, 200%nat, [Lit (VFF 2) true].
  assert (Hin : In (mkSlv (sv_mc sv) (sv_fs sv) (sv_added sv) (sv_shown sv)) (g_solvers ex_g)).
  { change (mkSlv (sv_mc sv) (sv_fs sv) (sv_added sv) (sv_shown sv)) with (mkSlv (sv_mc (ex_sv 1)) (sv_fs (ex_sv 1)) (sv_added (ex_sv 1)) (sv_shown (ex_sv 1))).
    replace (mkSlv (sv_mc (ex_sv 1)) (sv_fs (ex_sv 1)) (sv_added (ex_sv 1)) (sv_shown (ex_sv 1))) with (ex_sv 1) by (now destruct (ex_sv 1)). unfold ex_sv. apply nth_In. vm_compute. lia. }
  split; [exact ex_orc_ok |]. split; [exact ex_g_reach |]. split; [exact Hin |]. split; [vm_compute; reflexivity |]. split; [vm_compute; reflexivity |]. split; [vm_compute; reflexivity |].
  intros (V & H1 & H2).
  assert (E : exists f, fs_sat (sv_mc sv) ex_orc 200 (Some [Lit (VFF 2) true]) None (sv_fs sv) = Ok (false, f)).
  { exists (match fs_sat (sv_mc sv) ex_orc 200 (Some [Lit (VFF 2) true]) None (sv_fs sv) with Ok (_, f) => f | _ => fs_new end). vm_compute. reflexivity. }
  destruct E as [f E]. refine (C52_unsat ex_orc default_config ex_g _ _ _ _ 200 (Some [Lit (VFF 2) true]) None f ex_orc_ok ex_g_reach Hin C52_ex_named _ E _).
  - intros ls l [= <-] [<- | []]. exists 2. reflexivity.
  - exists V. split; [exact H1 |]. intros a ls [= <-] Ha. exact (H2 a Ha).
Qed.
Print Assumptions C52_reset_refuted.
