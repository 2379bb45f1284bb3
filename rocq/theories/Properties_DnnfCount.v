(** C55, continued, and C60: the compilation to DNNF with everything that comes before it, and counting models with the result. *)
From Coq Require Import String.
From Coq Require Import NArith ZArith List Bool Arith Lia.
From Verif Require Import Base EncodingModel EncodingProofs Syntax FactoryModel FactoryInv FactoryBasics FactoryProofs FactoryOps EvalProofs HistoryModel OpsModel OpsProofs CcModel EncBasics CcFrontProofs
  CacheModel TransModel TreeSpec WorldProofs MetricsProofs EncodeProofs NnfProofs DefBasics EncoderProofs XHistory XHistoryProofs XReplay Properties_Trans
  SatModel SatSpec SatProp MiniModel OptModel Properties_Sat PgSolverModel BbSimpModel SatPredModel PgHistory PgTakeProofs BbSimpProofs PgHistoryProofs PgReplay Properties_PgSolver
  DnnfModel DnnfSpec DnnfProofs DnnfCompModel DnnfCompProofs DnnfCompMain Properties_BbSimp Properties_DnnfComp UbTreeModel DnnfPrep CountDnnfModel PureProofs CountModel CountProofs CountMain.
From Verif Require Properties_Dnnf Properties_Count ParserModel OrderProofs InvariantProofs.
From Verif Require Import ConstraintModel.
Import ListNotations.
Local Open Scope list_scope.
Local Open Scope N_scope.
Local Notation inv := WorldProofs.inv.
Local Notation model_number := Properties_Count.model_number.

(** The iteration order of a hash set lists the same elements. *)
Definition same_elements (ord : list lit -> nat -> list nat -> list nat) : Prop := forall q j l n, In n (ord q j l) <-> In n l.

Lemma mono_backbone_simplification : forall orc rounds fuel h, mono (backbone_simplification orc rounds fuel h).
Proof.
  intros. unfold backbone_simplification. apply mono_bind; [auto with mono |]. intros [r |]; [apply mono_ret |]. apply mono_bind; [apply mono_add_to_solver |]. intros fs. apply mono_bind; [apply mono_variables |]. intros vs.
  apply mono_bind; [apply mono_lift |]. intros [b fs']. cbn [fst]. apply mono_bind; [| intros r; apply mono_bind; [apply mono_put | intros; apply mono_ret]].
  destruct b as [p |]; [| apply mono_ret]. destruct (bb_is_empty (Some p)); [apply mono_ret |]. apply mono_bind; [apply mono_bb_to_formula |]. intros bf. apply mono_bind; [apply mono_restrict |]. intros rf. apply mono_f_and.
Qed.
Lemma mono_prepare : forall orc alg ord rounds fuel h, mono (prepare orc alg ord rounds fuel h).
Proof. intros. unfold prepare. apply mono_bind; [apply mono_cnf_transform |]. intros p. apply mono_bind; [apply mono_backbone_simplification |]. intros s. apply mono_subsumption. Qed.
Lemma mono_dnnf_compile : forall orc alg fid dd fuel h, mono (dnnf_compile orc alg fid dd fuel h).
Proof.
  intros. unfold dnnf_compile. apply mono_bind.
  { unfold initialize_clauses. apply mono_bind; [auto with mono |]. intros n. destruct n; try apply mono_ret. apply mono_bind; [apply mono_f_and |]. intros. apply mono_bind; [apply mono_f_and |]. intros. apply mono_ret. }
  intros cl. apply mono_bind; [apply mono_variables |]. intros vs. apply mono_bind; [apply mono_ds_add |]. intros d. apply mono_if; [apply mono_ret |]. apply mono_bind; [apply mono_is_sat |]. intros b.
  apply mono_if; [apply mono_ret |]. apply mono_bind; [apply mono_lift |]. intros q. apply mono_if; [apply mono_ret |]. apply mono_bind; [apply mono_tree |]. intros lt.
  apply mono_bind; [apply mono_lift |]. intros lits. apply mono_bind; [apply mono_cnf2ddnnf |]. intros p. apply mono_bind; [apply mono_f_nary | intros; apply mono_ret].
Qed.
Lemma cap_back : forall A (m : M A) s r s', mono m -> m s = (r, s') -> cap s' -> cap s.
Proof. intros A m s r s' Hm E Hc. pose proof (Hm s) as H. rewrite E in H. exact (cap_le _ _ H Hc). Qed.

Lemma pair_of : forall A B (p : res A * B) a, fst p = Ok a -> p = (Ok a, snd p).
Proof. intros A B [r s] a E. cbn in *. now subst. Qed.
(** [compile_dnnf] (clause form, backbone simplification, subsumption, compilation) of a formula in conjunctive normal form: in runs in which
    no decision of the compiler's solver leads to a conflict, the result is equivalent to the formula, deterministic and decomposable, and has no
    other variables.  Nothing is assumed of forced literals any more: the simplification makes them clauses.
    Missing to the full statement: runs with a conflict (see [C55_refuted]), formulas in other forms or with other variables. *)
Lemma compile_inv : forall orc alg fid ord rounds dd fuel W s h x vs s1 u s2 r s3, heuristics_ok orc -> same_elements ord -> inv W s -> hdl s h x -> cnf_shape x = true -> over_named x -> room fuel x ->
  variables fuel h s = (Ok vs, s1) -> prepare orc alg ord rounds fuel h s1 = (Ok u, s2) -> (forall z, denotes s2 u z -> room fuel z) ->
  dnnf_compile orc alg fid dd fuel u s2 = (Ok r, s3) -> cap s3 -> ds_confl (snd r) = 0%nat ->
  exists W y, inv W s3 /\ ext s s3 /\ hdl s3 (fst r) y /\ hdl s3 h x /\ set_list var_ltb vs (fvars x) /\ (forall v, sem v y = sem v x) /\ dnnf y /\ incl (fvars y) (fvars x).
Proof.
  intros orc alg fid ord rounds dd fuel W s h x vs s1 u s2 r s3 So Hord Hi Hhx Hx Hn Hro E1 E2 Hru E3 Hc3 Hz.
  pose proof (cap_back _ _ _ _ _ (mono_dnnf_compile orc alg fid dd fuel u) E3 Hc3) as Hc2. pose proof (cap_back _ _ _ _ _ (mono_prepare orc alg ord rounds fuel h) E2 Hc2) as Hc1.
  assert (Dx : (depth x < fuel)%nat) by (destruct Hro; lia).
  destruct (run_variables _ _ _ _ _ _ _ Hi Hhx Dx E1 Hc1) as (W1 & A1 & A2 & A3 & A4). pose proof (hdl_ext _ _ _ _ A3 Hhx) as H1.
  destruct (prepare_ok orc alg ord rounds fuel So Hord W1 s1 h x u s2 A1 H1 Hx Hn Hro E2 Hc2) as (W2 & z & B1 & B2 & B3 & B4 & B5 & B6 & B7 & B8 & B9).
  assert (Hnz : over_named z) by (intros w Hw; apply Hn; auto).
  destruct (dnnf_compile_ok orc alg fid dd fuel So W2 s2 u z r s3 B1 B4 B5 Hnz (Hru z (proj1 (proj2 B4))) B9 E3 Hc3 Hz) as (W3 & y & C1 & C2 & C3 & C4 & C5 & C6 & C7 & C8).
  exists W3, y. split; [exact C1 |]. split; [exact (ext_trans _ _ _ A3 (ext_trans _ _ _ B3 C3)) |]. split; [exact C4 |]. split; [exact (hdl_ext _ _ _ _ C3 (hdl_ext _ _ _ _ B3 H1)) |]. split; [exact A4 |]. split; [intros v; rewrite C5; apply B6 |]. split; [| eapply incl_tran; eauto].
  destruct (Properties_Count.models_number (nodup BddDen.var_dec (fvars x)) x) as (l & (_ & L2 & L3) & _); [apply NoDup_nodup | intros w Hw; now apply nodup_In |].
  destruct l as [| bs l].
  - rewrite C8; [exact I |]. apply B8. intros (v & Sv). exact (L2 v Sv).
  - apply C6. destruct (L3 bs (or_introl eq_refl)) as (v & _ & Sv). exists v. now rewrite B6.
Qed.
Lemma compile_all : forall orc cfg g alg fid ord rounds dd fuel h x vs s1 u s2 r s3, heuristics_ok orc -> same_elements ord -> greachable orc cfg g -> In h (x_known (g_x g)) ->
  denotes (x_fac (g_x g)) h x -> cnf_shape x = true -> over_named x -> room fuel x ->
  variables fuel h (x_fac (g_x g)) = (Ok vs, s1) -> prepare orc alg ord rounds fuel h s1 = (Ok u, s2) -> (forall z, denotes s2 u z -> room fuel z) ->
  dnnf_compile orc alg fid dd fuel u s2 = (Ok r, s3) -> cap s3 -> ds_confl (snd r) = 0%nat ->
  exists W y, inv W s3 /\ hdl s3 (fst r) y /\ hdl s3 h x /\ set_list var_ltb vs (fvars x) /\ (forall v, sem v y = sem v x) /\ dnnf y /\ incl (fvars y) (fvars x).
Proof.
  intros orc cfg g alg fid ord rounds dd fuel h x vs s1 u s2 r s3 So Hord Hr Hh Hd Hx Hn Hro E1 E2 Hru E3 Hc3 Hz. destruct (reach_handle orc cfg g h x So Hr Hh Hd) as (W & Hi & Hhx).
  destruct (compile_inv orc alg fid ord rounds dd fuel W (x_fac (g_x g)) h x vs s1 u s2 r s3) as (W' & y & A & _ & B); auto. exists W', y. auto.
Qed.
Theorem C55_compile_dnnf_partial : forall orc cfg g alg fid ord rounds dd fuel h x vs s1 u s2 r s3, heuristics_ok orc -> same_elements ord -> greachable orc cfg g -> In h (x_known (g_x g)) ->
  denotes (x_fac (g_x g)) h x -> cnf_shape x = true -> over_named x -> room fuel x ->
  variables fuel h (x_fac (g_x g)) = (Ok vs, s1) -> prepare orc alg ord rounds fuel h s1 = (Ok u, s2) -> (forall z, denotes s2 u z -> room fuel z) ->
  dnnf_compile orc alg fid dd fuel u s2 = (Ok r, s3) -> cap s3 -> ds_confl (snd r) = 0%nat ->
  compile_dnnf orc alg fid ord rounds dd fuel h (x_fac (g_x g)) = (Ok (mkDnnf (fst r) vs), s3) /\
  exists y, denotes s3 (fst r) y /\ denotes s3 h x /\ (forall v, sem v y = sem v x) /\ dnnf y /\ incl (fvars y) (fvars x) /\ forall w, In w vs <-> In w (fvars x).
Proof.
  intros orc cfg g alg fid ord rounds dd fuel h x vs s1 u s2 r s3 So Hord Hr Hh Hd Hx Hn Hro E1 E2 Hru E3 Hc3 Hz. split; [eapply compile_dnnf_steps; eauto |].
  destruct (compile_all orc cfg g alg fid ord rounds dd fuel h x vs s1 u s2 r s3) as (W & y & _ & A1 & A2 & A3 & A4 & A5 & A6); auto. exists y. split; [apply A1 |]. split; [apply A2 |]. split; [exact A4 |]. split; [exact A5 |]. split; [exact A6 |]. apply A3.
Qed.
Print Assumptions C55_compile_dnnf_partial.

(** What [DnnfSpec.count_models] counts is the number of models. *)
Lemma nth_error_eq : forall A (a b : list A), (forall i, nth_error a i = nth_error b i) -> a = b.
Proof.
  induction a as [| x a IH]; intros b H; [destruct b; [reflexivity | specialize (H O); discriminate] |]. destruct b as [| y b]; [specialize (H O); discriminate |].
  pose proof (H O) as H0. cbn in H0. injection H0 as ->. f_equal. apply IH. intros i. exact (H (S i)).
Qed.
Lemma count_models_number : forall V x v0, NoDup V -> incl (fvars x) V -> model_number V x (DnnfSpec.count_models V (fun w => sem w x) v0).
Proof.
  intros V x v0 N I. exists (filter (fun bs => sem (upds v0 V bs) x) (vectors (List.length V))). split; [| reflexivity]. destruct (Properties_Dnnf.C42_vectors (List.length V)) as [N1 N2]. split; [now apply NoDup_filter |]. split.
  - intros v Sv. apply filter_In. split; [apply N2; apply map_length |]. rewrite <- Sv. apply sem_fvars. intros w Hw. apply I in Hw. apply In_nth_error in Hw. destruct Hw as [i Hi].
    pose proof (Properties_Dnnf.C42_vectors_values V v0 (map v V) N (map_length v V) i w Hi) as K. rewrite (map_nth_error v i V Hi) in K. now injection K.
  - intros bs Hb. apply filter_In in Hb. destruct Hb as [Hb Sb]. apply N2 in Hb. exists (upds v0 V bs). split; [| exact Sb]. apply nth_error_eq. intros i. destruct (nth_error V i) as [w |] eqn:Hi.
    + rewrite (map_nth_error (upds v0 V bs) i V Hi). symmetry. exact (Properties_Dnnf.C42_vectors_values V v0 bs N Hb i w Hi).
    + apply nth_error_None in Hi. rewrite (proj2 (nth_error_None bs i)) by lia. symmetry. apply nth_error_None. rewrite map_length. exact Hi.
Qed.

(** Counting with a DNNF: in such runs the result is the number of models over the variables of the formula. *)
Theorem C60_count_partial : forall orc cfg g alg fid ord rounds dd fuel h x vs s1 u s2 r s3, heuristics_ok orc -> same_elements ord -> greachable orc cfg g -> In h (x_known (g_x g)) ->
  denotes (x_fac (g_x g)) h x -> cnf_shape x = true -> over_named x -> room fuel x ->
  variables fuel h (x_fac (g_x g)) = (Ok vs, s1) -> prepare orc alg ord rounds fuel h s1 = (Ok u, s2) -> (forall z, denotes s2 u z -> room fuel z) ->
  dnnf_compile orc alg fid dd fuel u s2 = (Ok r, s3) -> cap s3 -> ds_confl (snd r) = 0%nat -> (forall y, denotes s3 (fst r) y -> (depth y < fuel)%nat) -> N.of_nat (List.length vs) < 4294967296 ->
  let run := count_formula_dnnf orc alg fid ord rounds dd fuel h (x_fac (g_x g)) in
  cap (snd run) -> exists n, fst run = Ok n /\ NoDup vs /\ (forall w, In w vs <-> In w (fvars x)) /\ model_number vs x n.
Proof.
  intros orc cfg g alg fid ord rounds dd fuel h x vs s1 u s2 r s3 So Hord Hr Hh Hd Hx Hn Hro E1 E2 Hru E3 Hc3 Hz Hdy Hl. cbv zeta.
  destruct (compile_all orc cfg g alg fid ord rounds dd fuel h x vs s1 u s2 r s3) as (W & y & A0 & A1 & A2 & A3 & A4 & A5 & A6); auto.
  unfold count_formula_dnnf, bind. rewrite (compile_dnnf_steps orc alg fid ord rounds dd fuel h (x_fac (g_x g)) vs s1 u s2 r s3 E1 E2 E3). intros Hc.
  assert (Nv : NoDup vs) by (apply (CountMain.set_nodup _ _ A3)). assert (Iv : incl (fvars y) vs) by (intros w Hw; apply A3; auto).
  destruct (count_spec fuel y W s3 (fst r) vs A0 (proj1 A1) (proj1 (proj2 A1)) (Hdy y (proj1 (proj2 A1))) (dnnf_andor y A5) Nv Iv Hl) as [_ K]. destruct (K Hc) as (n & W' & En & _ & _ & _ & Hn').
  exists n. split; [exact En |]. split; [exact Nv |]. split; [apply A3 |]. subst n. rewrite <- (dcount_over y vs A5 Nv Iv (fun _ => false)).
  destruct (count_models_number vs y (fun _ => false) Nv Iv) as (l & (L1 & L2 & L3) & L4). exists l. split; [| exact L4]. split; [exact L1 |]. split; [intros v Sv; apply L2; now rewrite A4 |].
  intros bs Hb. destruct (L3 bs Hb) as (v & V1 & V2). exists v. split; [exact V1 |]. now rewrite <- A4.
Qed.
Print Assumptions C60_count_partial.


Lemma mono_count_formula_dnnf : forall orc alg fid ord rounds dd fuel h, mono (count_formula_dnnf orc alg fid ord rounds dd fuel h).
Proof.
  intros. unfold count_formula_dnnf. apply mono_bind; [| intros; apply DnnfProofs.mono_count]. unfold compile_dnnf. apply mono_bind; [apply mono_variables | intros]. apply mono_bind; [apply mono_cnf_transform | intros].
  apply mono_bind; [apply mono_backbone_simplification | intros]. apply mono_bind; [apply mono_subsumption | intros]. apply mono_bind; [apply mono_dnnf_compile | intros; apply mono_ret].
Qed.
(** A run of [compile_dnnf] in which no decision of the compiler's solver leads to a conflict, with enough fuel: [vs] and [r] are the variables and the result. *)
Definition calm (orc : oracle) (alg : cnf_algorithm) (fid : ParserModel.text) (ord : list lit -> nat -> list nat -> list nat) (rounds dd fuel : nat) (h : N) (s : factory) (vs : list var) (r : N * dsolver) (s3 : factory) : Prop :=
  exists s1 u s2, variables fuel h s = (Ok vs, s1) /\ prepare orc alg ord rounds fuel h s1 = (Ok u, s2) /\ (forall z, denotes s2 u z -> room fuel z) /\
    dnnf_compile orc alg fid dd fuel u s2 = (Ok r, s3) /\ ds_confl (snd r) = 0%nat /\ (forall y, denotes s3 (fst r) y -> (depth y < fuel)%nat).
Lemma count_inv : forall orc alg fid ord rounds dd fuel W s h x vs r s3, heuristics_ok orc -> same_elements ord -> inv W s -> hdl s h x -> cnf_shape x = true -> over_named x -> room fuel x ->
  calm orc alg fid ord rounds dd fuel h s vs r s3 -> N.of_nat (List.length vs) < 4294967296 -> let run := count_formula_dnnf orc alg fid ord rounds dd fuel h s in cap (snd run) ->
  cap s3 /\ exists n W', run = (Ok n, snd run) /\ inv W' (snd run) /\ ext s (snd run) /\ set_list var_ltb vs (fvars x) /\ model_number vs x n.
Proof.
  intros orc alg fid ord rounds dd fuel W s h x vs r s3 So Hord Hi Hhx Hx Hn Hro (s1 & u & s2 & E1 & E2 & Hru & E3 & Hz & Hdy) Hl. cbv zeta.
  unfold count_formula_dnnf, bind. rewrite (compile_dnnf_steps orc alg fid ord rounds dd fuel h s vs s1 u s2 r s3 E1 E2 E3). intros Hc. assert (Hc3 : cap s3) by (exact (cap_le _ _ (DnnfProofs.mono_count fuel (mkDnnf (fst r) vs) s3) Hc)).
  split; [exact Hc3 |]. destruct (compile_inv orc alg fid ord rounds dd fuel W s h x vs s1 u s2 r s3) as (W3 & y & A0 & Ae & A1 & A2 & A3 & A4 & A5 & A6); auto.
  assert (Nv : NoDup vs) by (apply (CountMain.set_nodup _ _ A3)). assert (Iv : incl (fvars y) vs) by (intros w Hw; apply A3; auto).
  destruct (count_spec fuel y W3 s3 (fst r) vs A0 (proj1 A1) (proj1 (proj2 A1)) (Hdy y (proj1 (proj2 A1))) (dnnf_andor y A5) Nv Iv Hl) as [_ K]. destruct (K Hc) as (n & W' & En & B1 & B2 & B3 & Hn').
  exists n, W'. split; [now apply pair_of |]. split; [exact B1 |]. split; [exact (ext_trans _ _ _ Ae B3) |]. split; [exact A3 |]. subst n. rewrite <- (dcount_over y vs A5 Nv Iv (fun _ => false)).
  destruct (count_models_number vs y (fun _ => false) Nv Iv) as (l & (L1 & L2 & L3) & L4). exists l. split; [| exact L4]. split; [exact L1 |]. split; [intros v Sv; apply L2; now rewrite A4 |].
  intros bs Hb. destruct (L3 bs Hb) as (v & V1 & V2). exists v. split; [exact V1 |]. now rewrite <- A4.
Qed.

Lemma mono_with_vars_rest : forall orc alg fid ord rounds dd fuelp fuel h relevant (vs : list var), mono (if negb (forallb (fun u => existsb (var_eqb u) relevant) vs) then fail else
  match vs with
  | [] => ret (if is_verum h then 1 else 0)
  | _ => e <-- pure_expansion fuelp h ;; c <-- cnf_transform count_algorithm fuel e count_encoder ;; n <-- count_formula_dnnf orc alg fid ord rounds dd fuel (fst c) ;;
         used <-- variables fuel (fst c) ;; k <-- care_factor relevant used ;; ret (n * k)
  end).
Proof.
  intros. apply mono_if; [apply mono_fail |]. destruct vs; [apply mono_ret |]. apply mono_bind; [apply mono_pure_expansion | intros]. apply mono_bind; [apply mono_cnf_transform | intros].
  apply mono_bind; [apply mono_count_formula_dnnf | intros]. apply mono_bind; [apply mono_variables | intros]. apply mono_bind; [apply mono_care | intros; apply mono_ret].
Qed.
Lemma mono_with_vars_dnnf : forall orc alg fid ord rounds dd fuelp fuel h relevant, mono (count_models_with_vars_dnnf orc alg fid ord rounds dd fuelp fuel h relevant).
Proof. intros. unfold count_models_with_vars_dnnf. apply mono_bind; [apply mono_variables | intros; apply mono_with_vars_rest]. Qed.
(** [count_models_with_vars] of any formula whose constraints the pure expansion can expand, if its clause form has no auxiliary variables: the number of models over the relevant variables. *)
Lemma with_vars_inv : forall orc W s alg fid ord rounds dd fuelp fuel h x relevant vs0 sa e sb c sc vs r sd, heuristics_ok orc -> same_elements ord -> inv W s -> hdl s h x -> pureable x -> (depth x < fuelp)%nat ->
  NoDup relevant -> incl (fvars x) relevant -> (forall u, In u relevant -> kept s u) -> fvars x <> [] -> N.of_nat (List.length relevant) < 4294967296 -> N.of_nat (List.length vs) < 4294967296 ->
  variables fuelp h s = (Ok vs0, sa) -> pure_expansion fuelp h sa = (Ok e, sb) -> (forall y, denotes sb e y -> (4 * depth y + 14 <= fuel)%nat) ->
  cnf_transform count_algorithm fuel e count_encoder sb = (Ok c, sc) -> (forall z, denotes sc (fst c) z -> over_named z /\ room fuel z) ->
  calm orc alg fid ord rounds dd fuel (fst c) sc vs r sd ->
  let run := count_models_with_vars_dnnf orc alg fid ord rounds dd fuelp fuel h relevant s in
  cap (snd run) -> exists n, fst run = Ok n /\ model_number relevant x n.
Proof.
  intros orc W s alg fid ord rounds dd fuelp fuel h x relevant vs0 sa e sb c sc vs r sd So Hord Hi Hx Hp Hfp Nr Ir Kr Hne Hlr Hlv Ea Eb Hfe Ec Hz Hcalm. cbv zeta.
  set (rest := fun n => used <-- variables fuel (fst c) ;; k <-- care_factor relevant used ;; ret (n * k)).
  assert (Mrest : forall n, mono (rest n)) by (intros n; apply mono_bind; [apply mono_variables | intros; apply mono_bind; [apply mono_care | intros; apply mono_ret]]).
  assert (Hsub : set_list var_ltb vs0 (fvars x) -> count_models_with_vars_dnnf orc alg fid ord rounds dd fuelp fuel h relevant s = bind (count_formula_dnnf orc alg fid ord rounds dd fuel (fst c)) rest sc).
  { intros Hv. unfold count_models_with_vars_dnnf. unfold bind at 1. rewrite Ea. rewrite all_in; [| intros w Hw; apply Ir; now apply Hv]. cbn [negb]. destruct vs0 as [| v0 vs0].
    - exfalso. apply Hne. destruct (fvars x) as [| a l]; [reflexivity |]. destruct (proj2 Hv a) as [_ H]. destruct H. now left.
    - unfold bind at 1. rewrite Eb. unfold bind at 1. rewrite Ec. reflexivity. }
  intros Hc. assert (Hca : cap sa).
  { revert Hc. apply cap_le. unfold count_models_with_vars_dnnf. unfold bind at 1. rewrite Ea. match goal with |- size_le _ (snd (?m sa)) => assert (Mm : mono m); [| apply Mm] end.
    apply mono_if; [apply mono_fail |]. destruct vs0; [apply mono_ret |]. apply mono_bind; [apply mono_pure_expansion | intros]. apply mono_bind; [apply mono_cnf_transform | intros].
    apply mono_bind; [apply mono_count_formula_dnnf | intros]. apply mono_bind; [apply mono_variables | intros]. apply mono_bind; [apply mono_care | intros; apply mono_ret]. }
  destruct (run_variables _ _ _ _ _ _ _ Hi Hx Hfp Ea Hca) as (Wa & A1 & A2 & A3 & A4). rewrite (Hsub A4) in Hc |- *. clear Hsub. pose proof (hdl_ext _ _ _ _ A3 Hx) as Hxa.
  assert (Hcf : cap (snd (count_formula_dnnf orc alg fid ord rounds dd fuel (fst c) sc))).
  { revert Hc. apply cap_le. unfold bind. destruct (count_formula_dnnf orc alg fid ord rounds dd fuel (fst c) sc) as [[n | |] t]; [apply Mrest | apply size_le_refl | apply size_le_refl]. }
  assert (Hcc : cap sc) by (exact (cap_le _ _ (mono_count_formula_dnnf orc alg fid ord rounds dd fuel (fst c) sc) Hcf)). pose proof (cap_back _ _ _ _ _ (mono_cnf_transform _ _ _ _) Ec Hcc) as Hcb.
  destruct (x_run _ _ _ _ _ _ _ (pure_expansion_spec fuelp x Wa sa h A1 Hxa Hp Hfp) Eb Hcb) as (e' & Wb & Ee & B1 & B2 & B3 & y & Hy & Sy & Ly). apply ok_inj in Ee. subst e'.
  set (T0 := (fun _ => True) : world).
  assert (Henc : enc_ok T0 count_encoder sb) by (split; intros st E; cbn [count_encoder ce_tseitin ce_pg] in E; injection E as <-; [apply ts_new | apply pg_new]).
  destruct (x_run _ _ _ _ _ _ _ (cnf_transform_det count_algorithm fuel y T0 Wb sb e count_encoder eq_refl B1 Hy (con_free_of_vars _ _ Ly) (fun _ _ _ _ => I) Henc (Hfe y (proj1 (proj2 Hy)))) Ec Hcc)
    as (c' & Wc & Ee & C1 & _ & C3 & (T & [_ Hg] & _ & _ & z & Hzd & Cz & Z1 & Z2 & Z3)). apply ok_inj in Ee. subst c'.
  destruct (Hz z (proj1 (proj2 Hzd))) as [Hnz Hrz].
  destruct (count_inv orc alg fid ord rounds dd fuel Wc sc (fst c) z vs r sd So Hord C1 Hzd Cz Hnz Hrz Hcalm Hlv Hcf) as (_ & n & Wd & En & D1 & D2 & D3 & D4).
  unfold bind in Hc |- *. rewrite En in Hc |- *. set (t := snd (count_formula_dnnf orc alg fid ord rounds dd fuel (fst c) sc)) in *.
  assert (Dz : (depth z < fuel)%nat) by (destruct Hrz; lia).
  destruct (x_then _ _ Wd t (variables fuel (fst c)) (fun used => k <-- care_factor relevant used ;; ret (n * k)) _ (variables_spec fuel z Wd t (fst c) D1 (proj1 (hdl_ext _ _ _ _ D2 Hzd)) (proj1 (proj2 (hdl_ext _ _ _ _ D2 Hzd))) Dz))
    as (used & t2 & W2 & _ & _ & _ & _ & Hused & E2); [intros; apply mono_bind; [apply mono_care | intros; apply mono_ret] | exact Hc |].
  unfold rest. rewrite E2. unfold bind, care_factor.
  assert (Ef : filter (fun u => negb (existsb (var_eqb u) used)) relevant = filter (fun u => negb (existsb (var_eqb u) vs)) relevant).
  { apply filter_ext. intros u. f_equal. apply eq_true_iff_eq. rewrite !OrderProofs.existsb_var. rewrite (proj2 D3 u). apply (proj2 Hused). }
  rewrite Ef. match goal with |- context [N.ltb ?a ?b] => assert (Hlt : N.ltb a b = true) end.
  { apply N.ltb_lt. pose proof (filter_short _ (fun u => negb (existsb (var_eqb u) vs)) relevant). lia. }
  rewrite Hlt. unfold ret. cbn [fst]. eexists. split; [reflexivity |]. pose proof (CountMain.set_nodup _ _ D3) as Nv. assert (Iv : incl (fvars z) vs) by (intros w Hw; now apply D3).
  rewrite (Properties_Count.C57_number_unique vs z n _ D4 (Properties_Count.models_number vs z Nv Iv)).
  assert (Es : List.length (models relevant x) = (List.length (models vs z) * 2 ^ List.length (filter (fun u => negb (existsb (var_eqb u) vs)) relevant))%nat).
  { apply count_split; auto.
    - apply D3.
    - intros v Hv. rewrite <- Sy. auto.
    - intros v Hv. destruct (Hg v I) as (w & Tw & Hag). exists w. assert (Hag' : forall u, In u relevant -> w u = v u) by (intros u Hu; apply Hag; eapply kept_ext; [exact (ext_trans _ _ _ A3 B3) | auto]).
      split; [| assumption]. apply Z2; [assumption |]. rewrite Sy. rewrite <- Hv. apply sem_fvars. intros u Hu. apply Hag'. auto.
    - intros v w Hv Hw Hag u Hu. apply Z3; auto. intros a Ha. apply Hag. eapply fvars_of_leaves; eauto. }
  replace (N.of_nat (List.length (models vs z)) * 2 ^ _) with (N.of_nat (List.length (models relevant x))); [now apply Properties_Count.models_number |]. rewrite Es, Nnat.Nat2N.inj_mul, Nnat.Nat2N.inj_pow. reflexivity.
Qed.
Theorem C60_with_vars_partial : forall orc cfg g alg fid ord rounds dd fuelp fuel h x relevant vs0 sa e sb c sc vs r sd, heuristics_ok orc -> same_elements ord -> greachable orc cfg g -> In h (x_known (g_x g)) ->
  denotes (x_fac (g_x g)) h x -> pureable x -> (depth x < fuelp)%nat ->
  NoDup relevant -> incl (fvars x) relevant -> (forall u, In u relevant -> kept (x_fac (g_x g)) u) -> fvars x <> [] -> N.of_nat (List.length relevant) < 4294967296 -> N.of_nat (List.length vs) < 4294967296 ->
  variables fuelp h (x_fac (g_x g)) = (Ok vs0, sa) -> pure_expansion fuelp h sa = (Ok e, sb) -> (forall y, denotes sb e y -> (4 * depth y + 14 <= fuel)%nat) ->
  cnf_transform count_algorithm fuel e count_encoder sb = (Ok c, sc) -> (forall z, denotes sc (fst c) z -> over_named z /\ room fuel z) ->
  calm orc alg fid ord rounds dd fuel (fst c) sc vs r sd ->
  let run := count_models_with_vars_dnnf orc alg fid ord rounds dd fuelp fuel h relevant (x_fac (g_x g)) in
  cap (snd run) -> exists n, fst run = Ok n /\ model_number relevant x n.
Proof.
  intros orc cfg g alg fid ord rounds dd fuelp fuel h x relevant vs0 sa e sb c sc vs r sd So Hord Hr Hh Hd. intros. destruct (reach_handle orc cfg g h x So Hr Hh Hd) as (W & Hi & Hx).
  eapply (with_vars_inv orc W (x_fac (g_x g)) alg fid ord rounds dd fuelp fuel h x relevant vs0 sa e sb c sc vs r sd); auto.
Qed.
Print Assumptions C60_with_vars_partial.
(** [count_models] of such a formula: the number of models over its variables. *)
Theorem C60_models_partial : forall orc cfg g alg fid ord rounds dd fuelp fuel h x V s0 vs0 sa e sb c sc vs r sd, heuristics_ok orc -> same_elements ord -> greachable orc cfg g -> In h (x_known (g_x g)) ->
  denotes (x_fac (g_x g)) h x -> pureable x -> (depth x < fuelp)%nat -> fvars x <> [] -> N.of_nat (List.length V) < 4294967296 -> N.of_nat (List.length vs) < 4294967296 ->
  variables fuelp h (x_fac (g_x g)) = (Ok V, s0) -> variables fuelp h s0 = (Ok vs0, sa) -> pure_expansion fuelp h sa = (Ok e, sb) -> (forall y, denotes sb e y -> (4 * depth y + 14 <= fuel)%nat) ->
  cnf_transform count_algorithm fuel e count_encoder sb = (Ok c, sc) -> (forall z, denotes sc (fst c) z -> over_named z /\ room fuel z) ->
  calm orc alg fid ord rounds dd fuel (fst c) sc vs r sd ->
  let run := count_models_dnnf orc alg fid ord rounds dd fuelp fuel h (x_fac (g_x g)) in
  cap (snd run) -> exists n, fst run = Ok n /\ NoDup V /\ (forall u, In u V <-> In u (fvars x)) /\ model_number V x n.
Proof.
  intros orc cfg g alg fid ord rounds dd fuelp fuel h x V s0 vs0 sa e sb c sc vs r sd So Hord Hr Hh Hd Hp Hfp Hne HlV Hlv E0 Ea Eb Hfe Ec Hz Hcalm. cbv zeta. destruct (reach_handle orc cfg g h x So Hr Hh Hd) as (W & Hi & Hx). set (s := x_fac (g_x g)) in *.
  unfold count_models_dnnf, bind. rewrite E0. intros Hc. assert (Hc0 : cap s0) by (exact (cap_le _ _ (mono_with_vars_dnnf orc alg fid ord rounds dd fuelp fuel h V s0) Hc)).
  destruct (run_variables _ _ _ _ _ _ _ Hi Hx Hfp E0 Hc0) as (W0 & A1 & A2 & A3 & A4). pose proof (hdl_ext _ _ _ _ A3 Hx) as Hx0. pose proof (CountMain.set_nodup _ _ A4) as NV.
  destruct (with_vars_inv orc W0 s0 alg fid ord rounds dd fuelp fuel h x V vs0 sa e sb c sc vs r sd) as (n & En & Hn); auto.
  - intros u Hu. now apply A4.
  - intros u Hu. left. apply (proj2 (proj2 Hx0)). now apply A4.
  - exists n. split; [exact En |]. split; [exact NV |]. split; [apply A4 | exact Hn].
Qed.
Print Assumptions C60_models_partial.
(** Formulas without variables: one model or none, in every run. *)
Theorem C60_constant : forall orc cfg g alg fid ord rounds dd fuelp fuel h x, heuristics_ok orc -> greachable orc cfg g -> In h (x_known (g_x g)) -> denotes (x_fac (g_x g)) h x -> (depth x < fuelp)%nat -> fvars x = [] -> con_free x = true ->
  let run := count_models_dnnf orc alg fid ord rounds dd fuelp fuel h (x_fac (g_x g)) in cap (snd run) -> exists n, fst run = Ok n /\ model_number [] x n.
Proof.
  intros orc cfg g alg fid ord rounds dd fuelp fuel h x So Hr Hh Hd Hfp Hv Hcf. cbv zeta. destruct (reach_handle orc cfg g h x So Hr Hh Hd) as (W & Hi & Hx). set (s := x_fac (g_x g)) in *.
  assert (He : forall l, set_list var_ltb l (fvars x) -> l = []). { intros [| a l] [_ H]; [reflexivity |]. rewrite Hv in H. destruct (proj1 (H a) (or_introl eq_refl)). }
  unfold count_models_dnnf. intros Hc.
  destruct (x_then _ _ W s (variables fuelp h) (fun vs => count_models_with_vars_dnnf orc alg fid ord rounds dd fuelp fuel h vs) _ (variables_spec fuelp x W s h Hi (proj1 Hx) (proj1 (proj2 Hx)) Hfp)) as (V & s1 & W1 & _ & Hi1 & _ & He1 & Hvs & E); [intros; apply mono_with_vars_dnnf | exact Hc |].
  rewrite E in Hc |- *. apply He in Hvs. subst V. pose proof (hdl_ext _ _ _ _ He1 Hx) as Hx1. unfold count_models_with_vars_dnnf in *.
  match type of Hc with cap (snd (bind _ ?k _)) => destruct (x_then _ _ W1 s1 (variables fuelp h) k _ (variables_spec fuelp x W1 s1 h Hi1 (proj1 Hx1) (proj1 (proj2 Hx1)) Hfp)) as (V & s2 & W2 & _ & Hi2 & _ & He2 & Hvs & E2) end; [intros; apply mono_with_vars_rest | exact Hc |].
  rewrite E2 in Hc |- *. apply He in Hvs. subst V. cbn [forallb negb] in *. unfold ret in *. cbn [fst snd] in *. eexists. split; [reflexivity |]. pose proof (hdl_ext _ _ _ _ He2 Hx1) as Hx2.
  rewrite (is_verum_denotes s2 h x Hc (proj1 Hx2) (proj1 (proj2 Hx2))).
  destruct (Properties_Count.no_vars 3 1 ltac:(lia) ltac:(lia) x Hcf (InvariantProofs.handle_doc_ok s2 h x (i_wf _ _ Hi2) (proj1 Hx2) (proj1 (proj2 Hx2))) Hv) as [-> | ->].
  - exists [[]]. split; [| reflexivity]. split; [constructor; [intros [] | constructor] |]. split; [intros v _; left; reflexivity |]. intros bs [<- | []]. exists (fun _ => false). split; reflexivity.
  - exists []. split; [| reflexivity]. split; [constructor |]. split; [intros v E'; discriminate | intros bs []].
Qed.
Print Assumptions C60_constant.

(** The relevant variables have to contain those of the formula: otherwise a panic, in every run. *)
Theorem C60_superset : forall orc cfg g alg fid ord rounds dd fuelp fuel h x relevant, heuristics_ok orc -> greachable orc cfg g -> In h (x_known (g_x g)) -> denotes (x_fac (g_x g)) h x -> (depth x < fuelp)%nat ->
  ~ incl (fvars x) relevant -> let run := count_models_with_vars_dnnf orc alg fid ord rounds dd fuelp fuel h relevant (x_fac (g_x g)) in cap (snd run) -> fst run = Panic.
Proof.
  intros orc cfg g alg fid ord rounds dd fuelp fuel h x relevant So Hr Hh Hd Hfp Hn. cbv zeta. destruct (reach_handle orc cfg g h x So Hr Hh Hd) as (W & Hi & Hx). set (s := x_fac (g_x g)) in *.
  unfold count_models_with_vars_dnnf. intros Hc.
  match type of Hc with cap (snd (bind _ ?k _)) => destruct (x_then _ _ W s (variables fuelp h) k _ (variables_spec fuelp x W s h Hi (proj1 Hx) (proj1 (proj2 Hx)) Hfp)) as (vs & s1 & W1 & _ & _ & _ & _ & Hvs & E) end; [| exact Hc |].
  { intros vs. apply mono_if; [apply mono_fail |]. destruct vs; [apply mono_ret |]. apply mono_bind; [apply mono_pure_expansion | intros]. apply mono_bind; [apply mono_cnf_transform | intros].
    apply mono_bind; [apply mono_count_formula_dnnf | intros]. apply mono_bind; [apply mono_variables | intros]. apply mono_bind; [apply mono_care | intros; apply mono_ret]. }
  rewrite E. destruct (forallb (fun u => existsb (var_eqb u) relevant) vs) eqn:Ea; [| reflexivity]. exfalso. apply Hn. intros u Hu. rewrite forallb_forall in Ea. apply OrderProofs.existsb_var. apply Ea. now apply Hvs.
Qed.
Print Assumptions C60_superset.
(** As with a BDD, a formula without variables counts 1 or 0 whatever the relevant variables are: verum has four models over two variables. *)
Theorem C60_with_vars_refuted : exists cfg s known os h x relevant, xreachable cfg s known os /\ In h known /\ denotes s h x /\ NoDup relevant /\ incl (fvars x) relevant /\ (forall u, In u relevant -> kept s u) /\
  (forall orc alg fid ord rounds dd fuelp fuel, fst (count_models_with_vars_dnnf orc alg fid ord rounds dd (S fuelp) fuel h relevant s) = Ok 1) /\ model_number relevant x 4.
Proof.
  exists default_config, (x_fac Properties_Count.ex_c), (x_known Properties_Count.ex_c), (x_objs Properties_Count.ex_c), (constant true), FTrue, [VFF 0; VFF 1].
  split; [apply (replay_reach _ Properties_Count.ex_ab); vm_compute; reflexivity |]. split; [apply mem_in; vm_compute; reflexivity |]. split; [apply (denotes_const _ true) |].
  assert (Hn : NoDup [VFF 0; VFF 1]) by (constructor; [intros [E | []]; discriminate | constructor; [intros [] | constructor]]).
  split; [assumption |]. split; [intros u [] |]. split; [intros u [<- | [<- | []]]; right; eexists; reflexivity |]. split; [reflexivity |].
  apply (Properties_Count.models_number [VFF 0; VFF 1] FTrue); [assumption | intros u []].
Qed.
Print Assumptions C60_with_vars_refuted.

(* ------------------------------------------------------------------------------------------------------------------ *)
(** * Examples: the formula of [C55_compile_ex], with six variables; and the formula of [C55_refuted] *)

Definition ex_n_vars : res (list var) * factory := variables 400 11 (x_fac ex_cx).
Definition ex_n_prep : res N * factory := prepare ex_orc CnfFactorization wit_ord 100 400 11 (snd ex_n_vars).
Definition ex_n_h : N := match fst ex_n_prep with Ok u => u | _ => 0 end.
Definition ex_n_run : res (N * dsolver) * factory := dnnf_compile ex_orc CnfFactorization [] 200 400 ex_n_h (snd ex_n_prep).
Definition ex_n_res : N * dsolver := match fst ex_n_run with Ok r => r | _ => (0, ds_new) end.
Definition ex_n_count : res N * factory := count_formula_dnnf ex_orc CnfFactorization [] wit_ord 100 200 400 11 (x_fac ex_cx).
Definition ex_n_names : list var := map (fun k => VFF (N.of_nat k)) (seq 0 5) ++ [VFF 5].
Lemma wit_ord_ok : same_elements wit_ord.
Proof. intros q j l n. reflexivity. Qed.
Lemma denotes_is : forall s h x y, denotes s h x -> denotes s h y -> x = y.
Proof. intros s h x y. apply denotes_fun. Qed.
Example C60_ex : heuristics_ok ex_orc /\ same_elements wit_ord /\ greachable ex_orc default_config (mkG (mkX (x_fac ex_cx) (x_known ex_cx) (x_objs ex_cx)) []) /\ In 11 (x_known ex_cx) /\
  denotes (x_fac ex_cx) 11 ex_c_tree /\ cnf_shape ex_c_tree = true /\ over_named ex_c_tree /\ room 400 ex_c_tree /\
  ex_n_vars = (Ok ex_n_names, snd ex_n_vars) /\ ex_n_prep = (Ok ex_n_h, snd ex_n_prep) /\ (forall z, denotes (snd ex_n_prep) ex_n_h z -> room 400 z) /\
  ex_n_run = (Ok ex_n_res, snd ex_n_run) /\ cap (snd ex_n_run) /\ ds_confl (snd ex_n_res) = 0%nat /\ (forall y, denotes (snd ex_n_run) (fst ex_n_res) y -> (depth y < 400)%nat) /\
  N.of_nat (List.length ex_n_names) < 4294967296 /\ cap (snd ex_n_count) /\ fst ex_n_count = Ok 10.
Proof.
  destruct C55_compile_ex as (A1 & A2 & A3 & A4 & A5 & _ & _ & A8 & _).
  split; [exact ex_orc_ok |]. split; [exact wit_ord_ok |]. split; [exact A1 |]. split; [exact A2 |]. split; [exact A3 |]. split; [exact A4 |]. split; [exact A5 |]. split; [exact A8 |].
  split; [apply pair_of; vm_compute; reflexivity |]. split; [apply pair_of; vm_compute; reflexivity |].
  split. { intros z Hz. rewrite (denotes_is _ _ _ (wit_tree (snd ex_n_prep) ex_n_h) Hz) by (apply wit_tree_ok; vm_compute; reflexivity). split; apply Nat.leb_le; vm_compute; reflexivity. }
  split; [apply pair_of; vm_compute; reflexivity |]. split; [apply cap_b_ok; vm_compute; reflexivity |]. split; [vm_compute; reflexivity |].
  split. { intros z Hz. rewrite (denotes_is _ _ _ (wit_tree (snd ex_n_run) (fst ex_n_res)) Hz) by (apply wit_tree_ok; vm_compute; reflexivity). apply Nat.leb_le; vm_compute; reflexivity. }
  split; [vm_compute; reflexivity |]. split; [apply cap_b_ok; vm_compute; reflexivity |]. vm_compute. reflexivity.
Qed.
(** On the formula of [C55_refuted] the compiled formula is not equivalent, but the number is the right one. *)
Example C60_wit_ex : fst (count_formula_dnnf ex_orc CnfFactorization [] wit_ord 100 200 400 11 (x_fac wit_x)) = Ok 2062.
Proof. vm_compute. reflexivity. Qed.

(** The formula of [C57_ex]: at most one of A, B, C; and A implies D; over five variables. *)
Local Notation ex_n := Properties_Count.ex_n.
Local Notation ex_ntree := Properties_Count.ex_ntree.
Local Notation ex_rel := Properties_Count.ex_rel.
Definition ex_m_vars : res (list var) * factory := variables 60 11 (x_fac ex_n).
Definition ex_m_pure : res N * factory := pure_expansion 60 11 (snd ex_m_vars).
Definition get (r : res N) : N := match r with Ok u => u | _ => 0 end.
Definition ex_m_cnf : res (N * cnf_encoder) * factory := cnf_transform count_algorithm 60 (get (fst ex_m_pure)) count_encoder (snd ex_m_pure).
Definition ex_m_c : N * cnf_encoder := match fst ex_m_cnf with Ok c => c | _ => (0, count_encoder) end.
Definition ex_m_used : res (list var) * factory := variables 60 (fst ex_m_c) (snd ex_m_cnf).
Definition ex_m_prep : res N * factory := prepare ex_orc CnfFactorization wit_ord 20 60 (fst ex_m_c) (snd ex_m_used).
Definition ex_m_run : res (N * dsolver) * factory := dnnf_compile ex_orc CnfFactorization [] 40 60 (get (fst ex_m_prep)) (snd ex_m_prep).
Definition ex_m_res : N * dsolver := match fst ex_m_run with Ok r => r | _ => (0, ds_new) end.
Definition ex_m_count : res N * factory := count_models_with_vars_dnnf ex_orc CnfFactorization [] wit_ord 20 40 60 60 11 ex_rel (x_fac ex_n).
Example C60_with_vars_ex : greachable ex_orc default_config (mkG (mkX (x_fac ex_n) (x_known ex_n) (x_objs ex_n)) []) /\ In 11 (x_known ex_n) /\ denotes (x_fac ex_n) 11 ex_ntree /\
  pureable ex_ntree /\ (depth ex_ntree < 60)%nat /\ NoDup ex_rel /\ incl (fvars ex_ntree) ex_rel /\ (forall u, In u ex_rel -> kept (x_fac ex_n) u) /\ fvars ex_ntree <> [] /\
  ex_m_vars = (Ok (map VFF [0; 1; 2; 3]), snd ex_m_vars) /\ ex_m_pure = (Ok (get (fst ex_m_pure)), snd ex_m_pure) /\ (forall y, denotes (snd ex_m_pure) (get (fst ex_m_pure)) y -> (4 * depth y + 14 <= 60)%nat) /\
  ex_m_cnf = (Ok ex_m_c, snd ex_m_cnf) /\ (forall z, denotes (snd ex_m_cnf) (fst ex_m_c) z -> over_named z /\ room 60 z) /\
  calm ex_orc CnfFactorization [] wit_ord 20 40 60 (fst ex_m_c) (snd ex_m_cnf) (map VFF [0; 1; 2; 3]) ex_m_res (snd ex_m_run) /\ cap (snd ex_m_count) /\ fst ex_m_count = Ok 14.
Proof.
  destruct Properties_Count.C57_ex as (_ & A2 & A3 & A4 & _ & A6 & A7 & A8 & _).
  split. { apply (greplay_reach ex_orc default_config (x_fac ex_n) (x_known ex_n) (x_objs ex_n) []); [| reflexivity]. apply (replay_reach _ Properties_Count.ex_count). vm_compute. reflexivity. }
  split; [exact A2 |]. split; [exact A3 |]. split; [exact A4 |]. split; [apply Nat.leb_le; vm_compute; reflexivity |]. split; [exact A6 |]. split; [exact A7 |]. split; [exact A8 |]. split; [discriminate |].
  split; [apply pair_of; vm_compute; reflexivity |]. split; [apply pair_of; vm_compute; reflexivity |].
  split. { intros z Hz. rewrite (denotes_is _ _ _ (wit_tree (snd ex_m_pure) (get (fst ex_m_pure))) Hz) by (apply wit_tree_ok; vm_compute; reflexivity). apply Nat.leb_le; vm_compute; reflexivity. }
  split; [apply pair_of; vm_compute; reflexivity |].
  split. { intros z Hz. rewrite (denotes_is _ _ _ (wit_tree (snd ex_m_cnf) (fst ex_m_c)) Hz) by (apply wit_tree_ok; vm_compute; reflexivity). split; [apply wit_named; vm_compute; reflexivity | split; apply Nat.leb_le; vm_compute; reflexivity]. }
  split.
  { exists (snd ex_m_used), (get (fst ex_m_prep)), (snd ex_m_prep). split; [assert (E : variables 60 (fst ex_m_c) (snd ex_m_cnf) = ex_m_used) by (unfold ex_m_used; reflexivity); rewrite E; clear E; apply pair_of; vm_compute; reflexivity |]. split; [assert (E : prepare ex_orc CnfFactorization wit_ord 20 60 (fst ex_m_c) (snd ex_m_used) = ex_m_prep) by (unfold ex_m_prep; reflexivity); rewrite E; clear E; apply pair_of; vm_compute; reflexivity |].
    split. { intros z Hz. rewrite (denotes_is _ _ _ (wit_tree (snd ex_m_prep) (get (fst ex_m_prep))) Hz) by (apply wit_tree_ok; vm_compute; reflexivity). split; apply Nat.leb_le; vm_compute; reflexivity. }
    split; [assert (E : dnnf_compile ex_orc CnfFactorization [] 40 60 (get (fst ex_m_prep)) (snd ex_m_prep) = ex_m_run) by (unfold ex_m_run; reflexivity); rewrite E; clear E; apply pair_of; vm_compute; reflexivity |]. split; [vm_compute; reflexivity |].
    intros z Hz. rewrite (denotes_is _ _ _ (wit_tree (snd ex_m_run) (fst ex_m_res)) Hz) by (apply wit_tree_ok; vm_compute; reflexivity). apply Nat.leb_le; vm_compute; reflexivity. }
  split; [apply cap_b_ok; vm_compute; reflexivity |]. vm_compute. reflexivity.
Qed.
(** Without relevant variables, and the constants. *)
Example C60_models_ex : fst (count_models_dnnf ex_orc CnfFactorization [] wit_ord 20 40 60 60 11 (x_fac ex_n)) = Ok 7 /\
  fst (count_models_dnnf ex_orc CnfFactorization [] wit_ord 20 40 60 60 (constant true) (x_fac ex_n)) = Ok 1 /\ fst (count_models_dnnf ex_orc CnfFactorization [] wit_ord 20 40 60 60 (constant false) (x_fac ex_n)) = Ok 0 /\
  fst (count_models_with_vars_dnnf ex_orc CnfFactorization [] wit_ord 20 40 60 60 11 (map VFF [0; 1; 2; 4]) (x_fac ex_n)) = Panic.
Proof. vm_compute. repeat split. Qed.
