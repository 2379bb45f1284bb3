(** C33, C34 for the front end with names, assumptions and selection orders; C36: enumeration of models; C37: backbones. *)
From Coq Require Import List Arith ZArith NArith Bool Lia Permutation.
From Verif Require Import Base Vec HeapModel EncodingModel Syntax FactoryModel AssignmentModel SatSpec SatModel SatBasics SatProp SatDb SatFront SatState MiniModel MiniProofs EnumProofs BackboneProofs MiniHistory Properties_Sat.
Import ListNotations.
Local Open Scope nat_scope.

(** ** Histories of calls *)
Inductive mcall :=
| MAdd (c : list lit)
| MVars (vs : list var)
| MSat
| MSatWith (assumptions order : option (list lit))
| MBackbone (vs : list var) (t : btype)
| MEnumerate (ec : econfig).
(** The clauses that have been added. *)
Fixpoint clauses_of (cs : list mcall) : list (list lit) :=
  match cs with [] => [] | MAdd c :: r => c :: clauses_of r | _ :: r => clauses_of r end.
(** The variables that the solver has seen. *)
Definition call_vars (c : mcall) : list var :=
  match c with MAdd c => map lit_var c | MVars vs => vs | MSatWith (Some a) _ => map lit_var a | _ => [] end.
Definition seen_vars (cs : list mcall) : list var := flat_map call_vars cs.
Definition do_mcall (mc : mconfig) (orc : oracle) (rounds fuel : nat) (c : mcall) (m : mini) : res mini :=
  match c with
  | MAdd c => m_add_clause mc fuel c m
  | MVars vs => m_add_variables mc vs m
  | MSat => do ' (_, m1) <- m_sat mc orc fuel m; Ok m1
  | MSatWith a o => do ' (_, m1) <- m_sat_with mc orc fuel a o m; Ok m1
  | MBackbone vs t => do ' (_, m1) <- compute_backbone mc orc rounds fuel vs t m; Ok m1
  | MEnumerate ec => do ' (_, m1) <- enumerate_models mc orc rounds fuel ec m; Ok m1
  end.
(** All calls, the last call comes first. *)
Fixpoint mrun (mc : mconfig) (orc : oracle) (rounds fuel : nat) (cs : list mcall) : res mini :=
  match cs with [] => Ok mini_new | c :: r => do m <- mrun mc orc rounds fuel r; do_mcall mc orc rounds fuel c m end.
(** Models are only enumerated in the incremental mode (see [C36_incremental_refuted]). *)
Definition callable (mc : mconfig) (cs : list mcall) : Prop := g_incremental (mc_sat mc) = true \/ forall ec, ~ In (MEnumerate ec) cs.

Lemma vec_names : forall mc ls m ps m', generate_clause_vec mc ls m = Ok (ps, m') -> forall v, In v (mi_names m') <-> In v (map lit_var ls) \/ In v (mi_names m).
Proof. intros mc ls m ps m' E v. rewrite (gvec_names mc ls m ps m' E v). tauto. Qed.
Lemma rspec_eq : forall A (r : res A) (P : A -> Prop), rspec r P -> rspec r (fun x => P x /\ r = Ok x).
Proof. intros A [x | |] P H; cbn in *; auto. Qed.
Lemma mrun_ok : forall mc orc rounds fuel, minimizing (mc_sat mc) -> heuristics_ok orc -> forall cs, callable mc cs ->
  rspec (mrun mc orc rounds fuel cs) (fun m => mstate mc (clauses_of cs) m /\ forall v, In v (mi_names m) <-> In v (seen_vars cs)).
Proof.
  intros mc orc rounds fuel Hm So. assert (Hm' : g_min (mc_sat mc) <> MinNone) by (destruct Hm; congruence).
  induction cs as [| c r IH]; intros NR; cbn [mrun]; [split; [split; [apply minv_new | intros _; apply mh_new] | intros v; reflexivity] |].
  eapply rspec_bind; [apply IH; destruct NR as [NR | NR]; [now left | right; intros ec K; exact (NR ec (or_intror K))] |]. intros m [[I H] N].
  assert (Done : forall m', minv (clauses_of (c :: r)) m' -> (g_incremental (mc_sat mc) = true -> mh [] (clauses_of (c :: r)) m') -> (forall v, In v (mi_names m') <-> In v (call_vars c) \/ In v (mi_names m)) ->
    mstate mc (clauses_of (c :: r)) m' /\ forall v, In v (mi_names m') <-> In v (seen_vars (c :: r))).
  { intros m' I' H' N'. split; [split; auto |]. intros v. cbn [seen_vars flat_map]. rewrite in_app_iff, N', N. reflexivity. }
  destruct c as [c | vs | | a o | vs t | ec]; cbn [do_mcall] in *.
  - pose proof (rspec_eq _ _ _ (m_add_clause_ok mc _ fuel c m I)) as K. destruct (m_add_clause mc fuel c m) as [m1 | |] eqn:E; auto. cbn [rspec] in *. apply Done; [apply K | intros Inc; eapply add_h; eauto |].
    unfold m_add_clause in E. destruct (generate_clause_vec mc c _) as [[ps m2] | |] eqn:Eg in E; cbn [rbind] in E; try discriminate. destruct (add_clause (mc_sat mc) fuel ps (mi_s m2)) as [[b s] | |]; cbn [rbind] in E; try discriminate. inversion E; subst.
    cbn [mi_names call_vars]. intros v. rewrite (vec_names _ _ _ _ _ Eg v). reflexivity.
  - destruct (m_add_variables_ok mc _ vs m I) as (m1 & E & I1 & _). rewrite E. cbn [rspec]. apply Done; [exact I1 | intros Inc; exact (vars_h mc _ vs m m1 I (H Inc) E) |].
    unfold m_add_variables in E. destruct (generate_clause_vec mc _ m) as [[ps m2] | |] eqn:Eg in E; cbn [rbind] in E; try discriminate. inversion E; subst. intros v. rewrite (vec_names _ _ _ _ _ Eg v). rewrite map_map. cbn [lit_var call_vars]. now rewrite map_id.
  - pose proof (m_sat_ok mc orc Hm' So _ fuel m I) as K. destruct (m_sat mc orc fuel m) as [[b m1] | |] eqn:E; auto. destruct K as ((H1 & _) & H2 & _). cbn [rspec rbind fst snd] in *. apply Done; [exact H1 | intros Inc; eapply sat_h; eauto |]. intros v. rewrite H2. cbn. tauto.
  - pose proof (m_sat_with_ok mc orc Hm' So _ fuel a o m I) as K. destruct (m_sat_with mc orc fuel a o m) as [[b m1] | |] eqn:E; auto. cbn [rspec rbind fst snd] in *. apply Done; [apply K | intros Inc; eapply sat_with_h; eauto |].
    unfold m_sat_with in E. set (m0 := mkMini _ (mi_names m) None (mi_states m)) in E. intros v. destruct a as [a |].
    + destruct (generate_clause_vec mc a m0) as [[ps m2] | |] eqn:Eg; cbn [rbind] in E; try discriminate. destruct (solve_with_assumptions (mc_sat mc) orc fuel ps (mi_s m2)) as [[q s] | |]; cbn [rbind] in E; try discriminate.
      pose proof (vec_names _ _ _ _ _ Eg v) as X. cbn [mi_names m0] in X. destruct o; inversion E; subst; exact X.
    + destruct (solve (mc_sat mc) orc fuel (mi_s m0)) as [[q s] | |]; cbn [rbind] in E; try discriminate. destruct o; inversion E; subst; cbn; tauto.
  - destruct (g_incremental (mc_sat mc)) eqn:Inc.
    + eapply rspec_bind; [apply (backbone_h mc orc Hm' So Inc _ rounds fuel vs t m I (H eq_refl)) |]. intros [b m1] (K1 & K2 & K3). cbn [rspec snd] in *. apply Done; auto. intros v. rewrite K3. cbn. tauto.
    + unfold compute_backbone. rewrite Inc. pose proof (compute_backbone_ok mc orc rounds fuel _ m vs t Hm' So I) as K. destruct (s_compute_backbone mc orc rounds fuel (mi_names m) vs t (mi_s m)) as [[b s] | |]; auto. cbn [rspec rbind fst snd] in *. apply Done; [apply K | discriminate |]. intros v. cbn. tauto.
  - destruct NR as [Inc | NR]; [| exfalso; exact (NR ec (or_introl eq_refl))].
    eapply rspec_bind; [apply (enumerate_h mc orc Hm' So Inc _ rounds fuel ec m I (H Inc)) |]. intros [b m1] (K1 & K2 & K3). cbn [rspec snd] in *. apply Done; auto. intros v. rewrite K3. cbn. tauto.
Qed.

(** A query after a history. *)
Definition after {A} (mc : mconfig) (orc : oracle) (rounds fuel : nat) (cs : list mcall) (q : mini -> res A) : res A := rbind (mrun mc orc rounds fuel cs) q.

(** ** C33, C34: answers *)
(** After the answer True, [model] returns the values of a valuation which satisfies all clauses and assumptions, for exactly
    the requested variables which the solver knows (auxiliary variables only if configured); for every history, every
    selection order and all heuristics. *)
Theorem C33_front : forall mc orc rounds fuel cs asm order vs m b m', minimizing (mc_sat mc) -> heuristics_ok orc -> callable mc cs ->
  mrun mc orc rounds fuel cs = Ok m -> m_sat_with mc orc fuel asm order m = Ok (b, m') -> b = true ->
  exists md V, m_model mc vs m' = Ok (Some md) /\ satisfies V (clauses_of cs) /\ (forall a ls, asm = Some ls -> In a ls -> lit_sem V a = true) /\
    forall v, let shown := In v (seen_vars (MSatWith asm order :: cs)) /\ is_relevant mc v = true /\ (forall l, vs = Some l -> In v l) in
      (In v (m_pos md) <-> shown /\ V v = true) /\ (In v (m_neg md) <-> shown /\ V v = false).
Proof.
  intros mc orc rounds fuel cs asm order vs m b m' Hm So NR R E ->. assert (Hm' : g_min (mc_sat mc) <> MinNone) by (destruct Hm; congruence).
  pose proof (mrun_ok mc orc rounds fuel Hm So cs NR) as K. rewrite R in K. destruct K as [[I _] N].
  pose proof (m_sat_with_ok mc orc Hm' So _ fuel asm order m I) as K. rewrite E in K. destruct K as (I' & Rs & T1 & T2 & T3). cbn [fst snd] in *.
  assert (NR2 : callable mc (MSatWith asm order :: cs)) by (destruct NR as [NR | NR]; [now left | right; intros w [K | K]; [discriminate | exact (NR w K)]]).
  pose proof (mrun_ok mc orc rounds fuel Hm So (MSatWith asm order :: cs) NR2) as K. cbn [mrun] in K. rewrite R in K. cbn [rbind do_mcall] in K. rewrite E in K. cbn [rbind rspec] in K. destruct K as [_ N'].
  pose proof (n_nd _ _ I') as Nd. set (names := mi_names m') in *. set (W := model_val (mi_s m')).
  unfold m_model. rewrite Rs. fold names.
  assert (Ix : forall i, In i (idxs (option_map (known_idx names) vs) (length (s_model (mi_s m')))) -> i < length (s_model (mi_s m'))).
  { intros i Hi. rewrite T3 in *. destruct vs as [l |]; cbn [option_map idxs] in Hi; [eapply known_idx_lt; eauto | apply in_seq in Hi; lia]. }
  rewrite create_assignment_ok by auto. cbn [rbind]. rewrite T3. change (fun i => nth i (s_model (mi_s m')) false) with W. rewrite T3 in Ix.
  set (idx := idxs (option_map (known_idx names) vs) (length names)) in *. exists (asgn mc names idx W), (mvals m'). split; [reflexivity |]. split; [exact T1 |]. split; [intros a ls -> Ha; apply T2, Ha |].
  assert (Sp : forall v i, In i idx -> nth i names dv = v -> In v (seen_vars (MSatWith asm order :: cs)) /\ (forall l, vs = Some l -> In v l)).
  { intros v i Hi <-. split; [apply N', nth_In; auto |]. intros l ->. unfold idx in Hi. cbn [option_map idxs] in Hi. apply known_idx_in in Hi. destruct Hi as (w & Hw & Ew). apply idx_some in Ew. now rewrite (nth_of_some _ _ _ _ dv Ew). }
  assert (Cv : forall v, In v (seen_vars (MSatWith asm order :: cs)) -> (forall l, vs = Some l -> In v l) -> exists i, In i idx /\ nth i names dv = v).
  { intros v Hv Hl. apply N' in Hv. destruct (idx_in names v Hv) as (i & Ei & Li & En). exists i. split; auto. unfold idx. destruct vs as [l |]; cbn [option_map idxs]; [apply known_idx_in; exists v; split; auto | apply in_seq; lia]. }
  assert (HV : forall i, i < length names -> mvals m' (nth i names dv) = W i) by (intros i Hi; unfold mvals, nval; fold names; now rewrite idx_nth).
  intros v. cbv zeta. rewrite asgn_pos, asgn_neg by auto. split; split.
  - intros (i & H1 & H2 & H3 & H4). destruct (Sp v i H1 H2). subst v. rewrite HV by auto. tauto.
  - intros ((H1 & H2 & H3) & H4). destruct (Cv v H1 H3) as (i & Hi & <-). exists i. rewrite HV in H4 by auto. auto.
  - intros (i & H1 & H2 & H3 & H4). destruct (Sp v i H1 H2). subst v. rewrite HV by auto. tauto.
  - intros ((H1 & H2 & H3) & H4). destruct (Cv v H1 H3) as (i & Hi & <-). exists i. rewrite HV in H4 by auto. auto.
Qed.
Print Assumptions C33_front.
(** After the answer False there is no such valuation. *)
Theorem C34_front : forall mc orc rounds fuel cs asm order m b m', minimizing (mc_sat mc) -> heuristics_ok orc -> callable mc cs ->
  mrun mc orc rounds fuel cs = Ok m -> m_sat_with mc orc fuel asm order m = Ok (b, m') -> b = false ->
  ~ exists V, satisfies V (clauses_of cs) /\ forall a ls, asm = Some ls -> In a ls -> lit_sem V a = true.
Proof.
  intros mc orc rounds fuel cs asm order m b m' Hm So NR R E -> (V & H1 & H2). assert (Hm' : g_min (mc_sat mc) <> MinNone) by (destruct Hm; congruence).
  pose proof (mrun_ok mc orc rounds fuel Hm So cs NR) as K. rewrite R in K. destruct K as [[I _] N].
  pose proof (m_sat_with_ok mc orc Hm' So _ fuel asm order m I) as K. rewrite E in K. destruct K as (_ & _ & K). cbn [fst snd] in *. apply (K V H1). intros a Ha. destruct asm as [ls |]; [eapply H2; eauto | destruct Ha].
Qed.
Print Assumptions C34_front.
(** No call panics. *)
Theorem C33_front_no_panic : forall mc orc rounds fuel cs, minimizing (mc_sat mc) -> heuristics_ok orc -> callable mc cs -> mrun mc orc rounds fuel cs <> Panic.
Proof. intros mc orc rounds fuel cs Hm So NR E. pose proof (mrun_ok mc orc rounds fuel Hm So cs NR) as K. rewrite E in K. exact K. Qed.
Print Assumptions C33_front_no_panic.

(** ** C36 *)
(** The variables over which the models are enumerated: the known variables of the configured list, or all known variables
    (without auxiliary variables unless configured); and the variables that occur in the returned models. *)
Definition projected (mc : mconfig) (ec : econfig) (cs : list mcall) (v : var) : Prop :=
  In v (seen_vars cs) /\ match ec_vars ec with Some vs => In v vs | None => is_relevant mc v = true end.
Definition reported (mc : mconfig) (ec : econfig) (cs : list mcall) (v : var) : Prop :=
  In v (seen_vars cs) /\ is_relevant mc v = true /\
  ((forall vs, ec_vars ec = Some vs -> In v vs) \/ exists vs, ec_add ec = Some vs /\ In v vs).
(** The returned models [ms]:
    (1) every model consists of the values of a valuation satisfying all clauses, for exactly the reported variables;
    (2) two models at different positions differ on a projected variable;
    (3) at most [max_models] models are returned, and if they are fewer (or there is no bound) then every valuation which
        satisfies the clauses agrees with a returned model on all projected variables.
    [aux_ok]: no auxiliary variable is requested unless models contain auxiliary variables (see [C36_aux_refuted]). *)
Definition aux_ok (mc : mconfig) (ec : econfig) : Prop := forall vs v, ec_vars ec = Some vs -> In v vs -> is_relevant mc v = true.
Theorem C36_enumerate : forall mc orc rounds fuel cs ec m ms m', minimizing (mc_sat mc) -> heuristics_ok orc -> callable mc cs -> aux_ok mc ec ->
  mrun mc orc rounds fuel cs = Ok m -> enumerate_models mc orc rounds fuel ec m = Ok (ms, m') ->
  (forall md, In md ms -> exists V, satisfies V (clauses_of cs) /\
    forall v, (In v (m_pos md) <-> reported mc ec cs v /\ V v = true) /\ (In v (m_neg md) <-> reported mc ec cs v /\ V v = false)) /\
  (forall i j a b, i < j -> nth_error ms i = Some a -> nth_error ms j = Some b ->
    exists v, projected mc ec cs v /\ ((In v (m_pos a) /\ In v (m_neg b)) \/ (In v (m_neg a) /\ In v (m_pos b)))) /\
  (forall k, ec_max ec = Some k -> length ms <= k) /\
  ((forall k, ec_max ec = Some k -> length ms < k) -> forall V, satisfies V (clauses_of cs) ->
    exists md, In md ms /\ forall v, projected mc ec cs v -> (V v = true -> In v (m_pos md)) /\ (V v = false -> In v (m_neg md))).
Proof.
  intros mc orc rounds fuel cs ec m ms m' Hm So NR AO R E. assert (Hm' : g_min (mc_sat mc) <> MinNone) by (destruct Hm; congruence).
  pose proof (mrun_ok mc orc rounds fuel Hm So cs NR) as K. rewrite R in K. destruct K as [[I _] N].
  unfold enumerate_models in E. destruct (m_save mc m) as [[st m1] | |] eqn:Es; cbn [rbind] in E; try discriminate.
  assert (I1 : minv (clauses_of cs) m1 /\ mi_names m1 = mi_names m).
  { unfold m_save in Es. destruct (save_state (mc_sat mc) (mi_s m)); cbn [rbind] in Es; try discriminate. inversion Es; subst. split; [apply (minv_other _ m (mi_res m) (mi_states m ++ [a])); exact I | reflexivity]. }
  destruct I1 as [I1 En].
  assert (EP : forall v, enumerated mc ec (mi_names m1) v <-> projected mc ec cs v) by (intros v; unfold enumerated, projected; rewrite En, N; reflexivity).
  assert (SP : forall v, shown mc ec (mi_names m1) v <-> reported mc ec cs v).
  { intros v. unfold shown, reported. rewrite En, N. destruct (ec_vars ec) as [vs |], (ec_add ec) as [ws |]; split; intros (H1 & H2 & H3); (split; [exact H1 |]); (split; [exact H2 |]).
    all: try (destruct H3 as [H3 | H3]; [left; intros l El; inversion El; subst; exact H3 | right; eauto; destruct H3]).
    all: try (destruct H3 as [H3 | (l & El & H3)]; [left; auto | inversion El; subst; right; exact H3]).
    all: try (left; intros l El; discriminate). all: auto. }
  pose proof (enum_named mc orc rounds fuel ec _ m1 Hm' So I1) as P.
  assert (HR : forall v, enumerated mc ec (mi_names m1) v -> is_relevant mc v = true) by (intros v [_ Hv]; destruct (ec_vars ec) as [vs |] eqn:Ev; [eapply AO; eauto | exact Hv]). specialize (P HR).
  destruct (enum_loop mc orc rounds fuel _ _ (ec_max ec) [] m1) as [[ms' m2] | |] eqn:El in E, P; cbn [rbind] in E; try discriminate.
  destruct (m_load mc orc fuel st m2) as [m3 | |]; cbn [rbind] in E; try discriminate. inversion E; subst. cbn [rspec fst snd] in P. destruct P as (P1 & P2 & P3 & P4). split; [| split; [| split]].
  - intros md Hmd. destruct (P1 md Hmd) as (V & V1 & V2). exists V. split; auto. intros v. rewrite <- SP. apply V2.
  - clear - P2 EP. induction P2 as [| x l Hx _ IH]; intros i j a b Lt Ea Eb; [destruct i; discriminate |]. destruct j as [| j]; [lia |]. cbn [nth_error] in Eb. destruct i as [| i].
    + cbn in Ea. inversion Ea; subst. rewrite Forall_forall in Hx. destruct (Hx b (nth_error_In _ _ Eb)) as (v & V1 & V2). exists v. split; [now apply EP | exact V2].
    + apply (IH i j a b); auto. lia.
  - intros k Ek. rewrite Ek in P3. exact P3.
  - intros Lk V HV. destruct P4 as [(k & P4 & P5) | P4]; [exfalso; specialize (Lk k P4); lia |]. destruct (P4 V HV) as (md & M1 & M2). exists md. split; auto. intros v Hv. apply M2. now apply EP.
Qed.
Print Assumptions C36_enumerate.
(** [count_models] on the underlying solver: the result is the number of pairwise different satisfying assignments if it is at
    most [max_models]; the search stops after [max_models + 1] assignments. *)
Theorem C36_count : forall mc orc rounds fuel cs st max k st', minimizing (mc_sat mc) -> heuristics_ok orc -> wellformed cs ->
  run (mc_sat mc) orc fuel cs = Ok st -> count_models mc orc rounds fuel max st = Ok (k, st') ->
  exists L, length L = k /\ k <= S max /\ (forall V, In V L -> all_true V (added cs)) /\
    (forall i j V W, i < j -> nth_error L i = Some V -> nth_error L j = Some W -> exists v, v < vars_of cs /\ V v <> W v) /\
    (k <= max -> forall V, all_true V (added cs) -> exists W, In W L /\ forall v, v < vars_of cs -> V v = W v).
Proof.
  intros mc orc rounds fuel cs st max k st' Hm So Wf R E. assert (Hm' : g_min (mc_sat mc) <> MinNone) by (destruct Hm; congruence).
  pose proof (run_ok (mc_sat mc) orc fuel Hm So cs Wf) as K. rewrite R in K. destruct K as [G Ln].
  pose proof (count_loop_ok mc orc Hm' So (added cs) (vars_of cs) fuel rounds max 0 [] st G Ln) as P. unfold count_models in E. rewrite E in P.
  destruct P as (L & P1 & P2 & P3 & P4 & P5); [intros W [] | constructor | reflexivity | lia |]. cbn [fst] in P1. exists L. split; auto. split; [lia |]. split; auto. split.
  - clear - P3. induction P3 as [| x l Hx _ IH]; intros i j V W Lt Ea Eb; [destruct i; discriminate |]. destruct j as [| j]; [lia |]. cbn [nth_error] in Eb. destruct i as [| i].
    + cbn in Ea. inversion Ea; subst. rewrite Forall_forall in Hx. exact (Hx W (nth_error_In _ _ Eb)).
    + apply (IH i j V W); auto. lia.
  - intros Le. destruct P5 as [P5 | P5]; [lia | exact P5].
Qed.
Print Assumptions C36_count.

(** ** C37 *)
(** The variable has the value [b] in all models. *)
Definition always (cs : list mcall) (v : var) (b : bool) : Prop := forall V, satisfies V (clauses_of cs) -> V v = b.
(** The result is "unsatisfiable" iff the clauses are unsatisfiable; otherwise the positive (negative) part lists exactly the
    requested variables which are true (false) in all models, and the optional part the others; parts which do not belong to the
    backbone type are absent. For every history, all settings of the three checks and all heuristics. *)
Theorem C37_backbone : forall mc orc rounds fuel cs vs t m b m', minimizing (mc_sat mc) -> heuristics_ok orc -> callable mc cs ->
  mrun mc orc rounds fuel cs = Ok m -> compute_backbone mc orc rounds fuel vs t m = Ok (b, m') ->
  match b with
  | None => ~ exists V, satisfies V (clauses_of cs)
  | Some (pos, neg, opt) =>
    (exists V, satisfies V (clauses_of cs)) /\
    (pos = None <-> t = OnlyNegative) /\ (neg = None <-> t = OnlyPositive) /\ (opt = None <-> t <> PositiveAndNegative) /\
    (forall p, pos = Some p -> forall v, In v p <-> In v vs /\ always cs v true) /\
    (forall p, neg = Some p -> forall v, In v p <-> In v vs /\ always cs v false) /\
    (forall p, opt = Some p -> forall v, In v p <-> In v vs /\ ~ always cs v true /\ ~ always cs v false)
  end.
Proof.
  intros mc orc rounds fuel cs vs t m b m' Hm So NR R E. assert (Hm' : g_min (mc_sat mc) <> MinNone) by (destruct Hm; congruence).
  pose proof (mrun_ok mc orc rounds fuel Hm So cs NR) as K. rewrite R in K. destruct K as [[I _] N].
  assert (BS : backbone_spec t vs (clauses_of cs) b).
  { unfold compute_backbone in E. destruct (g_incremental (mc_sat mc)).
    - destruct (m_save mc m) as [[st m1] | |] eqn:Es; cbn [rbind] in E; try discriminate.
      assert (I1 : minv (clauses_of cs) m1). { unfold m_save in Es. destruct (save_state (mc_sat mc) (mi_s m)); cbn [rbind] in Es; try discriminate. inversion Es; subst. apply (minv_other _ m (mi_res m) (mi_states m ++ [a])); exact I. }
      pose proof (compute_backbone_ok mc orc rounds fuel _ m1 vs t Hm' So I1) as P. destruct (s_compute_backbone mc orc rounds fuel (mi_names m1) vs t (mi_s m1)) as [[b1 s] | |]; cbn [rbind] in E; try discriminate.
      destruct (m_load mc orc fuel st _) as [m3 | |] in E; cbn [rbind] in E; try discriminate. inversion E; subst. apply P.
    - pose proof (compute_backbone_ok mc orc rounds fuel _ m vs t Hm' So I) as P. destruct (s_compute_backbone mc orc rounds fuel (mi_names m) vs t (mi_s m)) as [[b1 s] | |]; cbn [rbind] in E; try discriminate. inversion E; subst. apply P. }
  destruct b as [[[pos neg] opt] |]; cbn [backbone_spec] in BS; [| intros (V & HV); exact (BS V HV)]. destruct BS as (B1 & B2 & B3 & B4). split; [exact B1 |].
  destruct t, pos, neg, opt; try contradiction; do 3 (split; [split; congruence |]); (split; [| split]); intros q Eq; inversion Eq; subst; assumption.
Qed.
Print Assumptions C37_backbone.

(** ** Examples and refutations *)
Definition ex_mc (inc : bool) : mconfig := mkMc (mkCfg MinDeep inc true false) false false true true true.
Definition xp (i : N) : lit := Lit (VFF i) true.
Definition xn (i : N) : lit := Lit (VFF i) false.
(** Clauses, a variable without clauses, and a call with assumptions and a selection order. *)
Definition ex_hist : list mcall := [MVars [VFF 9]; MAdd [xn 2; xn 3]; MSatWith (Some [xp 1; xn 2]) (Some [xp 3; xn 1]); MAdd [xn 1; xp 2; xp 3]; MAdd [xp 1; xp 2]].
Definition shows {A B} (r : res (A * B)) : option A := match r with Ok (x, _) => Some x | _ => None end.
Lemma shows_get : forall A B mc orc rounds fuel cs (q : mini -> res (A * B)) x, shows (after mc orc rounds fuel cs q) = Some x ->
  exists m m', mrun mc orc rounds fuel cs = Ok m /\ q m = Ok (x, m').
Proof.
  intros A B mc orc rounds fuel cs q x. unfold after. destruct (mrun mc orc rounds fuel cs) as [m | |]; cbn [rbind]; [| discriminate | discriminate].
  destruct (q m) as [[y m'] | |] eqn:E; cbn; intros H; inversion H; subst. exists m, m'. auto.
Qed.
Example ex_mini_hypotheses : minimizing (mc_sat (ex_mc true)) /\ minimizing (mc_sat (ex_mc false)) /\ heuristics_ok ex_orc /\ callable (ex_mc true) (MBackbone [VFF 1] OnlyPositive :: MEnumerate (mkEc None None None) :: ex_hist) /\
  callable (ex_mc false) (MBackbone [VFF 1] OnlyPositive :: ex_hist) /\ aux_ok (ex_mc true) (mkEc (Some [VFF 1; VFF 2; VFF 7]) (Some [VFF 9]) (Some 5)).
Proof.
  split; [right; reflexivity |]. split; [right; reflexivity |]. split; [apply ex_orc_ok |]. split; [left; reflexivity |]. split; [right; intros ec K; cbn in K; intuition discriminate |].
  intros vs v E Hv. inversion E; subst. cbn in Hv. intuition (subst; reflexivity).
Qed.
Example ex_C33_front : exists m m', mrun (ex_mc false) ex_orc 50 100 (MBackbone [VFF 1; VFF 9] PositiveAndNegative :: ex_hist) = Ok m /\ m_sat_with (ex_mc false) ex_orc 100 (Some [xp 2]) (Some [xn 1]) m = Ok (true, m').
Proof. apply shows_get with (q := m_sat_with (ex_mc false) ex_orc 100 (Some [xp 2]) (Some [xn 1])). vm_compute. reflexivity. Qed.
Example ex_C34_front : exists m m', mrun (ex_mc false) ex_orc 50 100 ex_hist = Ok m /\ m_sat_with (ex_mc false) ex_orc 100 (Some [xp 3; xn 1]) (Some [xn 1]) m = Ok (false, m').
Proof. apply shows_get with (q := m_sat_with (ex_mc false) ex_orc 100 (Some [xp 3; xn 1]) (Some [xn 1])). vm_compute. reflexivity. Qed.
(** All models, and projected models with an unknown variable and an additional variable. *)
Example ex_C36_all : exists m m', mrun (ex_mc true) ex_orc 50 100 ex_hist = Ok m /\
  enumerate_models (ex_mc true) ex_orc 50 100 (mkEc None None None) m = Ok
    ([mkModel [VFF 1; VFF 3] [VFF 2; VFF 9]; mkModel [VFF 1; VFF 2] [VFF 3; VFF 9]; mkModel [VFF 2] [VFF 1; VFF 3; VFF 9];
      mkModel [VFF 2; VFF 9] [VFF 1; VFF 3]; mkModel [VFF 1; VFF 2; VFF 9] [VFF 3]; mkModel [VFF 1; VFF 3; VFF 9] [VFF 2]], m').
Proof. apply shows_get with (q := enumerate_models (ex_mc true) ex_orc 50 100 (mkEc None None None)). vm_compute. reflexivity. Qed.
Example ex_C36_projected : exists m m', mrun (ex_mc true) ex_orc 50 100 ex_hist = Ok m /\
  enumerate_models (ex_mc true) ex_orc 50 100 (mkEc (Some [VFF 1; VFF 2; VFF 7]) (Some [VFF 9]) (Some 5)) m = Ok
    ([mkModel [VFF 1] [VFF 2; VFF 9]; mkModel [VFF 1; VFF 2] [VFF 9]; mkModel [VFF 2] [VFF 1; VFF 9]], m').
Proof. apply shows_get with (q := enumerate_models (ex_mc true) ex_orc 50 100 (mkEc (Some [VFF 1; VFF 2; VFF 7]) (Some [VFF 9]) (Some 5))). vm_compute. reflexivity. Qed.
Example ex_C37 : exists m m', mrun (ex_mc false) ex_orc 50 100 (MAdd [xp 2; xn 3] :: ex_hist) = Ok m /\
  compute_backbone (ex_mc false) ex_orc 50 100 [VFF 1; VFF 2; VFF 3; VFF 9; VFF 5] PositiveAndNegative m = Ok (Some (Some [VFF 2], Some [VFF 3], Some [VFF 1; VFF 5; VFF 9]), m').
Proof. apply shows_get with (q := compute_backbone (ex_mc false) ex_orc 50 100 [VFF 1; VFF 2; VFF 3; VFF 9; VFF 5] PositiveAndNegative). vm_compute. reflexivity. Qed.
Example ex_C37_incremental : exists m m', mrun (ex_mc true) ex_orc 50 100 (MAdd [xp 2; xn 3] :: ex_hist) = Ok m /\
  compute_backbone (ex_mc true) ex_orc 50 100 [VFF 1; VFF 2; VFF 3] OnlyNegative m = Ok (Some (None, Some [VFF 3], None), m').
Proof. apply shows_get with (q := compute_backbone (ex_mc true) ex_orc 50 100 [VFF 1; VFF 2; VFF 3] OnlyNegative). vm_compute. reflexivity. Qed.

(** Without [aux_ok]: an auxiliary variable is projected, but does not occur in the models; a model is returned twice. *)
Theorem C36_aux_refuted : exists mc orc rounds fuel cs ec m ms m', minimizing (mc_sat mc) /\ heuristics_ok orc /\ callable mc cs /\
  mrun mc orc rounds fuel cs = Ok m /\ enumerate_models mc orc rounds fuel ec m = Ok (ms, m') /\ exists a, nth_error ms 0 = Some a /\ nth_error ms 1 = Some a.
Proof.
  exists (ex_mc true), ex_orc, 50, 100, [MVars [VAux AuxCNF 0; VFF 1]], (mkEc (Some [VAux AuxCNF 0; VFF 1]) None None).
  destruct (shows_get _ _ (ex_mc true) ex_orc 50 100 [MVars [VAux AuxCNF 0; VFF 1]] (enumerate_models (ex_mc true) ex_orc 50 100 (mkEc (Some [VAux AuxCNF 0; VFF 1]) None None))
    [mkModel [] [VFF 1]; mkModel [] [VFF 1]; mkModel [VFF 1] []; mkModel [VFF 1] []]) as (m & m' & R & E); [vm_compute; reflexivity |].
  exists m. eexists. exists m'. split; [right; reflexivity |]. split; [apply ex_orc_ok |]. split; [left; reflexivity |]. split; [exact R |]. split; [exact E |]. eexists; split; reflexivity.
Qed.
Print Assumptions C36_aux_refuted.
(** Without a list of variables, an additional variable occurs twice in the models. *)
Theorem C36_twice_refuted : exists mc orc rounds fuel cs ec m ms m', minimizing (mc_sat mc) /\ heuristics_ok orc /\ callable mc cs /\ aux_ok mc ec /\
  mrun mc orc rounds fuel cs = Ok m /\ enumerate_models mc orc rounds fuel ec m = Ok (ms, m') /\ exists a, In a ms /\ ~ NoDup (m_neg a).
Proof.
  exists (ex_mc true), ex_orc, 50, 100, [MVars [VFF 1]], (mkEc None (Some [VFF 1]) None).
  destruct (shows_get _ _ (ex_mc true) ex_orc 50 100 [MVars [VFF 1]] (enumerate_models (ex_mc true) ex_orc 50 100 (mkEc None (Some [VFF 1]) None))
    [mkModel [] [VFF 1; VFF 1]; mkModel [VFF 1; VFF 1] []]) as (m & m' & R & E); [vm_compute; reflexivity |].
  exists m. eexists. exists m'. split; [right; reflexivity |]. split; [apply ex_orc_ok |]. split; [left; reflexivity |]. split; [intros vs v K; discriminate |]. split; [exact R |]. split; [exact E |].
  exists (mkModel [] [VFF 1; VFF 1]). split; [now left |]. cbn [m_neg]. intros Nd. inversion Nd; subst. apply H1. now left.
Qed.
Print Assumptions C36_twice_refuted.
(** Without the incremental mode [enumerate_models] panics, even on an empty solver. *)
Theorem C36_incremental_refuted : forall mc orc rounds fuel ec m, g_incremental (mc_sat mc) = false -> enumerate_models mc orc rounds fuel ec m = Panic.
Proof. intros mc orc rounds fuel ec m H. unfold enumerate_models, m_save, save_state. rewrite H. reflexivity. Qed.
Print Assumptions C36_incremental_refuted.
(** The documented upper bound of [count_models] is exceeded by one. *)
Theorem C36_count_refuted : exists mc orc rounds fuel cs st max k st', minimizing (mc_sat mc) /\ heuristics_ok orc /\ wellformed cs /\
  run (mc_sat mc) orc fuel cs = Ok st /\ count_models mc orc rounds fuel max st = Ok (k, st') /\ max < k.
Proof.
  assert (K : shows (rbind (run (mc_sat (ex_mc false)) ex_orc 100 ex_sat) (count_models (ex_mc false) ex_orc 50 100 1)) = Some 2) by (vm_compute; reflexivity).
  exists (ex_mc false), ex_orc, 50, 100, ex_sat. destruct (run (mc_sat (ex_mc false)) ex_orc 100 ex_sat) as [st | |]; cbn [rbind] in K; try discriminate K.
  exists st, 1, 2. destruct (count_models (ex_mc false) ex_orc 50 100 1 st) as [[k s] | |] eqn:E; cbn in K; try discriminate K. inversion K; subst. exists s.
  split; [right; reflexivity |]. split; [apply ex_orc_ok |]. split; [apply wfb_ok; reflexivity |]. split; [reflexivity |]. split; [reflexivity |]. lia.
Qed.
Print Assumptions C36_count_refuted.
(** A counting example with a large enough bound. *)
Example ex_C36_count : shows (rbind (run (mc_sat (ex_mc false)) ex_orc 100 ex_sat) (count_models (ex_mc false) ex_orc 50 100 7)) = Some 2.
Proof. vm_compute. reflexivity. Qed.
