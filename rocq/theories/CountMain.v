(** The count of the models, end to end. *)
From Coq Require Import NArith ZArith List Bool Arith Lia Permutation.
From Verif Require BddMake BddBuild.
Local Notation prime_ok := BddMake.prime_ok.
Local Notation pure := BddBuild.pure.
From Verif Require Import Base EncodingModel EncodingProofs Syntax FactoryModel FactoryInv FactoryBasics FactoryProofs FactorySpecs FactoryNary FactoryOps EvalProofs
  InvariantSpec InvariantProofs OpsModel OpsProofs ConstraintModel ConstraintProofs CacheModel TransModel TreeSpec WorldProofs MetricsProofs EncodeProofs NnfProofs CnfProofs HandlerProofs DefBasics
  TseitinProofs PgProofs EncoderProofs PureProofs BddModel BddCount OrderModel OrderProofs XReplay CountModel CountProofs CountBdd.
Import ListNotations.
Local Open Scope nat_scope.
Local Open Scope res_scope.

(* ------------------------------------------------------------------------------------------------------------------ *)
(** * The whole function *)

Lemma cap_dec : forall s, {cap s} + {~ cap s}.
Proof. intros s. apply Forall_dec. intros n. destruct (N.leb n cap26) eqn:E; [left; now apply N.leb_le | right; now apply N.leb_gt, N.lt_nge in E]. Qed.
Lemma x_then : forall A B W s (m : M A) (k : A -> M B) Q, xspec W s m Q -> (forall a, mono (k a)) -> cap (snd (bind m k s)) ->
  exists a s1 W1, m s = (Ok a, s1) /\ inv W1 s1 /\ sub W1 W /\ ext s s1 /\ Q a s1 W1 /\ bind m k s = k a s1.
Proof.
  intros A B W s m k Q [_ H] Hk. unfold bind. destruct (m s) as [r s1] eqn:E. cbn [fst snd] in H. intros Hc.
  assert (Hc1 : cap s1). { destruct r as [a | |]; [| exact Hc | exact Hc]. eapply cap_le; [| exact Hc]. apply Hk. }
  destruct (H Hc1) as (a & W1 & -> & H1 & H2 & H3 & H4). exists a, s1, W1. auto 10.
Qed.

Lemma mono_force_prep : forall alg fuel h, mono (force_prep alg fuel h).
Proof.
  intros. unfold force_prep, dfs_ordering. apply mono_bind; [apply mono_variables | intros]. apply mono_bind; [apply mono_nnf_rec | intros]. apply mono_bind; [apply mono_variables | intros].
  apply mono_bind; [apply mono_cnf_transform | intros]. apply mono_bind; [apply mono_hypergraph | intros]. apply mono_bind; [apply mono_dfs | intros]. apply mono_bind; [apply mono_lift | intros]. apply mono_ret.
Qed.
Lemma mono_force : forall alg rounds fuel h, mono (force_ordering alg rounds fuel h).
Proof. intros alg rounds fuel h s. rewrite force_split. revert s. change (mono (p <-- force_prep alg fuel h ;; lift (fun _ => do ord <- force_loop rounds (fst (fst p)) (snd (fst p)); Ok (force_result (fst (fst p)) ord (snd p))))). apply mono_bind; [apply mono_force_prep | intros; apply mono_lift]. Qed.
Lemma mono_care : forall a b, mono (care_factor a b).
Proof. intros a b. unfold care_factor. destruct (N.ltb _ _); [apply mono_ret | apply mono_fail]. Qed.
Lemma mono_count_formula : forall alg prime size csize rounds fuel h, mono (count_formula alg prime size csize rounds fuel h).
Proof. intros. unfold count_formula. apply mono_bind; [apply mono_force | intros; apply mono_lift]. Qed.

(** At most 2097151 variables have a name: the limit of a BDD kernel. *)
Definition few_vars (s : factory) : Prop := forall l, NoDup l -> (forall u, In u l -> known s u) -> (N.of_nat (length l) <= 2097151)%N.

Lemma set_nodup : forall l ref, set_list var_ltb l ref -> NoDup l.
Proof.
  intros l ref [Hl _]. unfold strict in Hl. induction Hl as [| u r Hl IH Hu]; constructor; [| assumption]. intros H. rewrite Forall_forall in Hu.
  specialize (Hu u H). rewrite var_ltb_irrefl in Hu. discriminate.
Qed.
Lemma all_in : forall vs relevant, (forall u, In u vs -> In u relevant) -> forallb (fun u => existsb (var_eqb u) relevant) vs = true.
Proof. intros vs relevant H. apply forallb_forall. intros u Hu. apply existsb_var. auto. Qed.
Lemma con_free_of_vars : forall y xs, incl (leaves y) (map LfVar xs) -> con_free y = true.
Proof.
  assert (Hl : forall xs l, Forall (fun y => incl (leaves y) (map LfVar xs) -> con_free y = true) l -> incl (flat_map leaves l) (map LfVar xs) -> forallb con_free l = true).
  { intros xs l IH H. apply forallb_forall. intros y Hy. rewrite Forall_forall in IH. apply IH; [exact Hy |]. intros lf Hlf. apply H. apply in_flat_map. exists y. auto. }
  intros y xs. induction y using fml_ind2; cbn [con_free leaves]; intros Hlf; auto.
  - eapply Hl; eauto.
  - eapply Hl; eauto.
  - rewrite IHy1, IHy2; auto; intros lf H; apply Hlf; apply in_or_app; auto.
  - rewrite IHy1, IHy2; auto; intros lf H; apply Hlf; apply in_or_app; auto.
  - specialize (Hlf (LfCc c) (or_introl eq_refl)). apply in_map_iff in Hlf. destruct Hlf as (? & E & _). discriminate.
  - specialize (Hlf (LfPbc p) (or_introl eq_refl)). apply in_map_iff in Hlf. destruct Hlf as (? & E & _). discriminate.
Qed.
Lemma fvars_of_leaves : forall y xs, incl (leaves y) (map LfVar xs) -> incl (fvars y) xs.
Proof.
  intros y xs H u Hu. unfold fvars in Hu. apply in_flat_map in Hu. destruct Hu as (lf & Hlf & Hu). apply H in Hlf. apply in_map_iff in Hlf. destruct Hlf as (w & <- & Hw). destruct Hu as [<- | []]. assumption.
Qed.

Lemma filter_short : forall A (f : A -> bool) l, (length (filter f l) <= length l)%nat.
Proof. intros A f l. induction l as [| a l IH]; cbn [filter length]; [lia |]. destruct (f a); cbn [length]; lia. Qed.
Lemma count_formula_run : forall B alg prime size csize rounds fuel h (rest : N -> M B) s,
  bind (count_formula alg prime size csize rounds fuel h) rest s =
  match force_ordering alg rounds fuel h s with
  | (Ok ord, s1) =>
      match (do k <- new_with_ordering prime ord size csize; do x <- of_opt (tree_of fuel s1 h); do ' (k1, n) <- from_formula k x; do ' (_, c) <- sat_count k1 n; Ok c) with
      | Ok c => rest c s1
      | Panic => (Panic, s1)
      | NoFuel => (NoFuel, s1)
      end
  | (Panic, s1) => (Panic, s1)
  | (NoFuel, s1) => (NoFuel, s1)
  end.
Proof. intros. unfold count_formula, bind, lift. destruct (force_ordering alg rounds fuel h s) as [[ord | |] s1]; reflexivity. Qed.

(** The two steps after the clause form. *)
Lemma count_clauses : forall alg prime size csize rounds fuel relevant y W s h, prime_ok prime -> (3 <= size)%nat -> (1 <= csize)%nat -> inv W s -> hdl s h y -> cnf_shape y = true -> (42 <= fuel)%nat ->
  (N.of_nat (length relevant) < 4294967296)%N ->
  let run := (n <-- count_formula alg prime size csize rounds fuel h ;; used <-- variables fuel h ;; k <-- care_factor relevant used ;; ret (n * k)%N) s in
  cap (snd run) -> few_vars (snd run) ->
  fst run = NoFuel \/ exists U, NoDup U /\ (forall u, In u U <-> In u (fvars y)) /\
    fst run = Ok (N.of_nat (length (models U y) * 2 ^ length (filter (fun u => negb (existsb (var_eqb u) U)) relevant))).
Proof.
  intros alg prime size csize rounds fuel relevant y W s h P Hs Hc Hi Hy Cy Hf Hrel run Hcap Hfew. subst run. pose proof (cnf_depth y Cy) as Dy. pose proof (cnf_con_free y Cy) as Fy.
  assert (Hen : encodable s y) by (apply con_free_leaves; assumption).
  set (rest := fun n => used <-- variables fuel h ;; k <-- care_factor relevant used ;; ret (n * k)%N) in *.
  assert (Mrest : forall n, mono (rest n)) by (intros n; apply mono_bind; [apply mono_variables | intros; apply mono_bind; [apply mono_care | intros; apply mono_ret]]).
  pose proof (force_ordering_spec alg rounds fuel y W s h Hi Hy Hen ltac:(lia)) as HF.
  destruct (force_prep_spec alg fuel y W s h Hi Hy Hen ltac:(lia)) as [_ HP].
  pose proof (force_split alg rounds fuel h s) as ES.
  rewrite count_formula_run in Hcap, Hfew |- *. destruct (force_ordering alg rounds fuel h s) as [r s1] eqn:E1. cbn [fst snd] in HF.
  assert (Hc1 : cap s1).
  { destruct r as [ord | |]; [| exact Hcap | exact Hcap]. revert Hcap. match goal with |- context [match ?e with Ok _ => _ | Panic => _ | NoFuel => _ end] => destruct e end; [| exact (fun H => H) | exact (fun H => H)]. intros Hcap. eapply cap_le; [apply Mrest | exact Hcap]. }
  destruct (HF Hc1) as [-> | (ord & y' & W' & -> & Ry & Nord & Hord)]; [left; reflexivity |]. clear HF.
  assert (Hst : exists W1, inv W1 s1 /\ ext s s1).
  { revert ES. unfold bind. destruct (force_prep alg fuel h s) as [rp sp] eqn:Ep. cbn [fst snd] in HP. destruct rp as [pp | |]; intros ES; unfold lift in ES; injection ES as _ ES'; subst sp; destruct (HP Hc1) as (a & W1 & _ & I1 & _ & X1 & _); exists W1; auto. }
  destruct Hst as (W1 & Hi1 & He1). apply (hdl_ext _ s1) in Hy; [| assumption].
  assert (Hord' : forall u, In u ord <-> In u (fvars y)).
  { intros u. rewrite Hord. destruct Ry as (_ & _ & Ry). destruct (Ry Fy) as [_ Hyy]. specialize (Hyy u). tauto. }
  rewrite (tree_of_complete fuel s1 h y (proj1 (proj2 Hy)) ltac:(lia)) in Hcap, Hfew |- *. cbn [of_opt rbind] in Hcap, Hfew |- *.
  assert (Hp : pure y) by (apply cnf_pure; [eapply handle_doc_ok; [apply (i_wf _ _ Hi1) | apply Hy | apply Hy] | assumption]).
  assert (Hlen : (N.of_nat (length ord) <= 2097151)%N).
  { apply Hfew; [assumption |]. intros u Hu. apply Hord' in Hu.
    match goal with |- known (snd ?m) u => assert (X : ext s1 (snd m)) end; [| eapply known_ext; [exact X | apply (proj2 (proj2 Hy)); assumption]].
    revert Hcap. match goal with |- context [match ?e with Ok _ => _ | Panic => _ | NoFuel => _ end] => destruct e end; intros Hcap; cbn [snd]; [| apply ext_refl | apply ext_refl].
    destruct (x_then _ _ W1 s1 (variables fuel h) (fun used => k <-- care_factor relevant used ;; ret (a * k)%N) _ (variables_spec fuel y W1 s1 h Hi1 (proj1 Hy) (proj1 (proj2 Hy)) ltac:(lia))) as (used & s2 & W2 & _ & _ & _ & He2 & _ & E2);
      [intros; apply mono_bind; [apply mono_care | intros; apply mono_ret] | exact Hcap |].
    unfold rest. rewrite E2. unfold bind, care_factor. destruct (N.ltb _ _); cbn; exact He2. }
  pose proof (bdd_counts prime size csize ord y P Hs Hc Hlen Nord Hord' Hp) as HB. rewrite HB in Hcap |- *. clear Hfew.
  destruct (x_then _ _ W1 s1 (variables fuel h) (fun used => k <-- care_factor relevant used ;; ret (N.of_nat (length (models ord y)) * k)%N) _ (variables_spec fuel y W1 s1 h Hi1 (proj1 Hy) (proj1 (proj2 Hy)) ltac:(lia))) as (used & s2 & W2 & _ & _ & _ & _ & Hused & E2);
    [intros; apply mono_bind; [apply mono_care | intros; apply mono_ret] | exact Hcap |].
  right. exists ord. split; [assumption |]. split; [assumption |]. unfold rest. rewrite E2. unfold bind, care_factor.
  assert (Ef : filter (fun u => negb (existsb (var_eqb u) used)) relevant = filter (fun u => negb (existsb (var_eqb u) ord)) relevant).
  { apply filter_ext. intros u. f_equal. apply eq_true_iff_eq. rewrite !existsb_var, Hord'. destruct Hused as [_ Hused]. apply Hused. }
  rewrite Ef. match goal with |- context [N.ltb ?a ?b] => assert (Hlt : N.ltb a b = true) end.
  { apply N.ltb_lt. pose proof (filter_short _ (fun u => negb (existsb (var_eqb u) ord)) relevant). lia. }
  rewrite Hlt. unfold ret. cbn [fst]. f_equal. rewrite Nnat.Nat2N.inj_mul, Nnat.Nat2N.inj_pow. reflexivity.
Qed.

Theorem count_main : forall alg prime size csize fuelp x W s h relevant, inv W s -> hdl s h x -> pureable x -> (depth x < fuelp)%nat -> prime_ok prime -> (3 <= size)%nat -> (1 <= csize)%nat ->
  NoDup relevant -> incl (fvars x) relevant -> (forall u, In u relevant -> kept s u) -> fvars x <> [] -> (N.of_nat (length relevant) < 4294967296)%N ->
  exists F, forall rounds fuel, (F <= fuel)%nat -> let run := count_models_with_vars alg prime size csize rounds fuelp fuel h relevant s in
    cap (snd run) -> few_vars (snd run) -> fst run = NoFuel \/ fst run = Ok (N.of_nat (length (models relevant x))).
Proof.
  intros alg prime size csize fuelp x W s h relevant Hi Hx Hp Hfp P Hs Hc Hr Hin Hk Hne Hrel.
  set (k2 := fun rounds fuel e => c <-- cnf_transform count_algorithm fuel e count_encoder ;; n <-- count_formula alg prime size csize rounds fuel (fst c) ;;
    used <-- variables fuel (fst c) ;; k <-- care_factor relevant used ;; ret (n * k)%N).
  assert (M3 : forall rounds fuel c, mono (n <-- count_formula alg prime size csize rounds fuel c ;; used <-- variables fuel c ;; k <-- care_factor relevant used ;; ret (n * k)%N)).
  { intros. apply mono_bind; [apply mono_count_formula | intros]. apply mono_bind; [apply mono_variables | intros]. apply mono_bind; [apply mono_care | intros; apply mono_ret]. }
  assert (M2 : forall rounds fuel e, mono (k2 rounds fuel e)) by (intros; apply mono_bind; [apply mono_cnf_transform | intros; apply M3]).
  assert (Hrun : cap (snd ((vs <-- variables fuelp h ;; pure_expansion fuelp h) s)) -> exists e y s2 W2, inv W2 s2 /\ ext s s2 /\ hdl s2 e y /\ pure_res x y /\
    forall rounds fuel, count_models_with_vars alg prime size csize rounds fuelp fuel h relevant s = k2 rounds fuel e s2).
  { intros Hcap. destruct (x_then _ _ W s _ _ _ (variables_spec fuelp x W s h Hi (proj1 Hx) (proj1 (proj2 Hx)) Hfp) (fun _ => mono_pure_expansion fuelp h) Hcap) as (vs & s1 & W1 & E1 & Hi1 & _ & He1 & Hvs & E1').
    rewrite E1' in Hcap. apply (hdl_ext _ s1) in Hx; [| assumption]. destruct (pure_expansion_spec fuelp x W1 s1 h Hi1 Hx Hp Hfp) as [_ H2].
    destruct (pure_expansion fuelp h s1) as [r2 s2] eqn:E2. cbn [fst snd] in H2, Hcap. destruct (H2 Hcap) as (e & W2 & -> & Hi2 & _ & He2 & y & Hy & Ry).
    exists e, y, s2, W2. split; [assumption |]. split; [eapply ext_trans; eauto |]. split; [assumption |]. split; [assumption |]. intros rounds fuel.
    unfold count_models_with_vars. unfold bind at 1. rewrite E1.
    rewrite all_in; [| intros u Hu; apply Hin; now apply Hvs]. cbn [negb]. destruct vs as [| u0 vs].
    - exfalso. apply Hne. destruct (fvars x) as [| a l]; [reflexivity |]. destruct (proj2 Hvs a) as [_ H]. destruct H. now left.
    - unfold bind at 1. rewrite E2. reflexivity. }
  assert (Hcapd : forall rounds fuel, cap (snd (count_models_with_vars alg prime size csize rounds fuelp fuel h relevant s)) -> cap (snd ((vs <-- variables fuelp h ;; pure_expansion fuelp h) s))).
  { intros rounds fuel. unfold count_models_with_vars. unfold bind at 1.
    assert (EQ : (vs <-- variables fuelp h ;; pure_expansion fuelp h) s = match variables fuelp h s with (Ok _, s1) => pure_expansion fuelp h s1 | (Panic, s1) => (Panic, s1) | (NoFuel, s1) => (NoFuel, s1) end) by reflexivity.
    rewrite EQ. clear EQ. destruct (variables_spec fuelp x W s h Hi (proj1 Hx) (proj1 (proj2 Hx)) Hfp) as [_ H1].
    destruct (variables fuelp h s) as [r1 s1] eqn:E1. cbn [fst snd] in H1. destruct r1 as [vs | |]; [| exact (fun H => H) | exact (fun H => H)].
    intros Hcap. assert (Hc1 : cap s1).
    { revert Hcap. apply cap_le. match goal with |- size_le _ (snd (?m s1)) => assert (Mm : mono m); [| apply Mm] end.
      destruct (negb _); [apply mono_fail |]. destruct vs; [apply mono_ret |]. apply mono_bind; [apply mono_pure_expansion | intros; apply M2]. }
    destruct (H1 Hc1) as (vs' & W1 & Ev & _ & _ & _ & Hvs). injection Ev as <-.
    rewrite all_in in Hcap; [| intros u Hu; apply Hin; now apply Hvs]. cbn [negb] in Hcap. destruct vs as [| u0 vs].
    { exfalso. apply Hne. destruct (fvars x) as [| a l]; [reflexivity |]. destruct (proj2 Hvs a) as [_ H]. destruct H. now left. }
    unfold bind at 1 in Hcap. destruct (pure_expansion fuelp h s1) as [[e | |] s2]; [| exact Hcap | exact Hcap]. revert Hcap. apply cap_le. apply (M2 rounds fuel e). }
  destruct (cap_dec (snd ((vs <-- variables fuelp h ;; pure_expansion fuelp h) s))) as [D | D];
    [| exists O; intros rounds fuel _ run Hcap; exfalso; apply D; apply (Hcapd rounds fuel); exact Hcap].
  destruct (Hrun D) as (e & y & s2 & W2 & Hi2 & He2 & Hy & (Sy & Ly) & Erun). clear Hrun Hcapd.
  exists (4 * depth y + 42)%nat. intros rounds fuel Hf. rewrite Erun. cbv zeta. intros Hcap Hfew.
  set (T0 := (fun _ => True) : world).
  assert (Henc : enc_ok T0 count_encoder s2) by (split; intros st E; cbn [count_encoder ce_tseitin ce_pg] in E; injection E as <-; [apply ts_new | apply pg_new]).
  destruct (x_then _ _ W2 s2 (cnf_transform count_algorithm fuel e count_encoder) (fun c => n <-- count_formula alg prime size csize rounds fuel (fst c) ;; used <-- variables fuel (fst c) ;; k <-- care_factor relevant used ;; ret (n * k)%N) _
    (cnf_transform_det count_algorithm fuel y T0 W2 s2 e count_encoder eq_refl Hi2 Hy (con_free_of_vars _ _ Ly) (fun _ _ _ _ => I) Henc ltac:(lia)))
    as (c & s3 & W3 & _ & Hi3 & _ & He3 & (T & [_ Hg] & _ & _ & z & Hz & Cz & Z1 & Z2 & Z3) & E3); [intros; apply M3 | exact Hcap |].
  unfold k2 in *. rewrite E3 in Hcap, Hfew |- *.
  destruct (count_clauses alg prime size csize rounds fuel relevant z W3 s3 (fst c) P Hs Hc Hi3 Hz Cz ltac:(lia) Hrel Hcap Hfew) as [E | (U & NU & HU & E)]; [left; exact E | right]. rewrite E. f_equal. f_equal. symmetry.
  apply count_split; auto.
  - intros v Hv. rewrite <- Sy. auto.
  - intros v Hv. destruct (Hg v I) as (w & Tw & Hag). exists w. assert (Hag' : forall u, In u relevant -> w u = v u) by (intros u Hu; apply Hag; eapply kept_ext; [exact He2 | auto]).
    split; [| assumption]. apply Z2; [assumption |]. rewrite Sy. rewrite <- Hv. apply sem_fvars. intros u Hu. apply Hag'. auto.
  - intros v w Hv Hw Hag u Hu. apply Z3; auto. intros a Ha. apply Hag. eapply fvars_of_leaves; eauto.
Qed.
