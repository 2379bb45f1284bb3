(** C57: the number of models of a formula, counted with a BDD, in every state a factory can get into. *)
From Coq Require Import String.
From Coq Require Import NArith ZArith List Bool Arith Lia.
From Verif Require BddMake BddDen.
Local Notation var_dec := BddDen.var_dec.
From Verif Require Import Base EncodingModel EncodingProofs Syntax FactoryModel FactoryInv FactoryBasics FactoryProofs FactoryOps EvalProofs HistoryModel InvariantSpec InvariantProofs OpsModel OpsProofs
  CcModel EncBasics CacheModel TransModel TreeSpec WorldProofs MetricsProofs EncodeProofs NnfProofs HandlerProofs DefBasics TseitinProofs PgProofs EncoderProofs PureProofs XHistory XHistoryProofs XReplay Properties_Factory Properties_Trans
  OrderModel OrderProofs Properties_Order BddModel BddCount CountModel CountProofs CountBdd CountMain.
Import ListNotations.
Local Open Scope list_scope.
Local Open Scope N_scope.

(** The specification: [l] lists, without repetitions, the values of the variables [V] under the valuations that satisfy [x]. *)
Definition lists_models (V : list var) (x : fml) (l : list (list bool)) : Prop :=
  NoDup l /\ (forall v : valuation, sem v x = true -> In (map v V) l) /\ (forall bs, In bs l -> exists v : valuation, bs = map v V /\ sem v x = true).
Definition model_number (V : list var) (x : fml) (n : N) : Prop := exists l, lists_models V x l /\ n = N.of_nat (List.length l).

(** The number is well-defined. *)
Theorem C57_number_unique : forall V x n m, model_number V x n -> model_number V x m -> n = m.
Proof.
  intros V x n m (l & (A1 & A2 & A3) & ->) (k & (B1 & B2 & B3) & ->). f_equal. apply Nat.le_antisymm.
  - apply NoDup_incl_length; [assumption |]. intros bs H. destruct (A3 bs H) as (v & -> & Hv). auto.
  - apply NoDup_incl_length; [assumption |]. intros bs H. destruct (B3 bs H) as (v & -> & Hv). auto.
Qed.
Print Assumptions C57_number_unique.
Lemma models_number : forall V x, NoDup V -> incl (fvars x) V -> model_number V x (N.of_nat (List.length (models V x))).
Proof.
  intros V x HV Hx. exists (models V x). split; [| reflexivity]. unfold models. split; [apply NoDup_filter, bools_once |]. split.
  - intros v Hv. apply filter_In. split; [apply bools_in; apply map_length |]. rewrite <- Hv. apply sem_fvars. intros u Hu. apply asg_map. auto.
  - intros bs H. apply filter_In in H. destruct H as [Hb Hs]. apply bools_in in Hb. exists (asg V bs). split; [symmetry; apply map_asg; assumption | assumption].
Qed.

Lemma bind_eq : forall A B (m : M A) (k : A -> M B) s, bind m k s = match m s with (Ok a, s1) => k a s1 | (Panic, s1) => (Panic, s1) | (NoFuel, s1) => (NoFuel, s1) end.
Proof. reflexivity. Qed.
Lemma mono_count_with_vars : forall alg prime size csize rounds fuelp fuel h relevant, mono (count_models_with_vars alg prime size csize rounds fuelp fuel h relevant).
Proof.
  intros. unfold count_models_with_vars. apply mono_bind; [apply mono_variables | intros vs]. destruct (negb _); [apply mono_fail |]. destruct vs; [apply mono_ret |].
  apply mono_bind; [apply mono_pure_expansion | intros]. apply mono_bind; [apply mono_cnf_transform | intros]. apply mono_bind; [apply mono_count_formula | intros].
  apply mono_bind; [apply mono_variables | intros]. apply mono_bind; [apply mono_care | intros; apply mono_ret].
Qed.

Section Counting.
Variables (alg : cnf_algorithm) (prime : nat -> N -> nat) (size csize : nat).
Hypothesis HP : BddMake.prime_ok prime.
Hypothesis Hsize : (3 <= size)%nat.
Hypothesis Hcsize : (1 <= csize)%nat.

(** Whenever FORCE ends, the result is the number of models over the relevant variables, whatever auxiliary variables the clause form has.  The relevant variables
    are named by the user or known to the factory; constraints are those the pure expansion can expand. *)
Theorem C57_with_vars : forall cfg s known os h x fuelp relevant, xreachable cfg s known os -> In h known -> denotes s h x -> pureable x -> (depth x < fuelp)%nat ->
  NoDup relevant -> incl (fvars x) relevant -> (forall u, In u relevant -> kept s u) -> fvars x <> [] -> N.of_nat (List.length relevant) < 4294967296 ->
  exists F, forall rounds fuel, (F <= fuel)%nat ->
    let run := count_models_with_vars alg prime size csize rounds fuelp fuel h relevant s in
    cap (snd run) -> few_vars (snd run) -> fst run = NoFuel \/ exists n, fst run = Ok n /\ model_number relevant x n.
Proof.
  intros cfg s known os h x fuelp relevant Hr Hin Hd Hp Hf Nr Ir Kr Hne Hl. destruct (known_hdl _ _ _ _ _ _ Hr Hin Hd) as [W [Hi [Hx _]]].
  destruct (count_main alg prime size csize fuelp x W s h relevant Hi Hx Hp Hf HP Hsize Hcsize Nr Ir Kr Hne Hl) as [F HF]. exists F. intros rounds fuel Hfu run Hc Hw.
  destruct (HF rounds fuel Hfu Hc Hw) as [E | E]; [now left | right]. exists (N.of_nat (List.length (models relevant x))). split; [exact E |]. now apply models_number.
Qed.

(** The relevant variables have to contain those of the formula: otherwise a panic. *)
Theorem C57_superset : forall cfg s known os h x fuelp relevant, xreachable cfg s known os -> In h known -> denotes s h x -> (depth x < fuelp)%nat ->
  ~ incl (fvars x) relevant -> forall rounds fuel, cap (snd (count_models_with_vars alg prime size csize rounds fuelp fuel h relevant s)) ->
  fst (count_models_with_vars alg prime size csize rounds fuelp fuel h relevant s) = Panic.
Proof.
  intros cfg s known os h x fuelp relevant Hr Hin Hd Hf Hn rounds fuel. destruct (known_hdl _ _ _ _ _ _ Hr Hin Hd) as [W [Hi [Hx _]]]. unfold count_models_with_vars. rewrite bind_eq.
  destruct (variables_spec fuelp x W s h Hi (proj1 Hx) (proj1 (proj2 Hx)) Hf) as [_ H1]. destruct (variables fuelp h s) as [r s1]. cbn [fst snd] in H1.
  destruct r as [vs | |]; [| intros _; reflexivity | intros Hc; destruct (H1 Hc) as (? & ? & E & _); discriminate].
  intros Hc. assert (Hc1 : cap s1).
  { revert Hc. apply cap_le. match goal with |- size_le _ (snd (?m s1)) => assert (Mm : mono m); [| apply Mm] end.
    destruct (negb _); [apply mono_fail |]. destruct vs; [apply mono_ret |]. apply mono_bind; [apply mono_pure_expansion | intros]. apply mono_bind; [apply mono_cnf_transform | intros].
    apply mono_bind; [apply mono_count_formula | intros]. apply mono_bind; [apply mono_variables | intros]. apply mono_bind; [apply mono_care | intros; apply mono_ret]. }
  destruct (H1 Hc1) as (vs' & W1 & E & _ & _ & _ & Hvs). injection E as <-.
  destruct (forallb (fun u => existsb (var_eqb u) relevant) vs) eqn:Ea; [| reflexivity]. exfalso. apply Hn. intros u Hu. rewrite forallb_forall in Ea. apply existsb_var. apply Ea. now apply Hvs.
Qed.

(** Formulas without variables. *)
Lemma no_vars : forall x, con_free x = true -> doc_ok x -> fvars x = [] -> is_const x.
Proof.
  assert (Hl : forall l, Forall (fun x => con_free x = true -> doc_ok x -> fvars x = [] -> is_const x) l -> forallb con_free l = true -> (forall y, In y l -> doc_ok y) -> flat_map fvars l = [] -> nary_ok l -> False).
  { intros [| a l] HF Hc Hd Hv [H2 [Hn _]]; [cbn [List.length] in H2; lia |]. inversion HF; subst. cbn [forallb] in Hc. apply andb_true_iff in Hc. cbn [flat_map] in Hv. apply app_eq_nil in Hv.
    apply (Hn a (or_introl eq_refl)). apply H1; [tauto | apply Hd; now left | tauto]. }
  induction x as [| | l | a IHa | l IHl | l IHl | a b IHa IHb | a b IHa IHb | c | p] using fml_ind2; cbn [con_free]; intros Hc Hd Hv; try discriminate.
  - now left.
  - now right.
  - exfalso. assert (Ha : is_const a) by (apply IHa; [assumption | intros y Hy; apply Hd; now constructor | exact Hv]). pose proof (Hd _ (su_refl _)) as H. cbn [local_ok] in H. destruct Ha as [-> | ->]; exact H.
  - exfalso. pose proof (Hd _ (su_refl _)) as H. cbn [local_ok] in H. apply (Hl l); auto; [| exact (eq_trans (eq_sym (fvars_fnary true l)) Hv) | apply H]. intros y Hy z Hz. apply Hd. eapply su_and; eauto.
  - exfalso. pose proof (Hd _ (su_refl _)) as H. cbn [local_ok] in H. apply (Hl l); auto; [| exact (eq_trans (eq_sym (fvars_fnary false l)) Hv) | apply H]. intros y Hy z Hz. apply Hd. eapply su_or; eauto.
  - exfalso. pose proof (Hd _ (su_refl _)) as H. cbn [local_ok] in H. rewrite fvars_impl in Hv. apply app_eq_nil in Hv. apply andb_true_iff in Hc. apply (proj1 H). apply IHa; [tauto | intros y Hy; apply Hd; now constructor | tauto].
  - exfalso. pose proof (Hd _ (su_refl _)) as H. cbn [local_ok] in H. rewrite fvars_equiv in Hv. apply app_eq_nil in Hv. apply andb_true_iff in Hc. apply (proj1 H). apply IHa; [tauto | intros y Hy; apply Hd; now constructor | tauto].
Qed.

(** Without relevant variables: the number of models over the variables of the formula; a constant has one model or none. *)
Theorem C57_count : forall cfg s known os h x fuelp, xreachable cfg s known os -> In h known -> denotes s h x -> pureable x -> (depth x < fuelp)%nat -> (fvars x = [] -> con_free x = true) -> few_vars s ->
  exists F V, NoDup V /\ (forall u, In u V <-> In u (fvars x)) /\ forall rounds fuel, (F <= fuel)%nat ->
    let run := count_models alg prime size csize rounds fuelp fuel h s in
    cap (snd run) -> few_vars (snd run) -> fst run = NoFuel \/ exists n, fst run = Ok n /\ model_number V x n.
Proof.
  intros cfg s known os h x fuelp Hr Hin Hd Hp Hf Hcf Hfew. destruct (known_hdl _ _ _ _ _ _ Hr Hin Hd) as [W [Hi [Hx _]]].
  destruct (variables_spec fuelp x W s h Hi (proj1 Hx) (proj1 (proj2 Hx)) Hf) as [_ H1]. destruct (variables fuelp h s) as [r s1] eqn:E1. cbn [fst snd] in H1.
  destruct (cap_dec s1) as [D | D].
  2:{ exists O, (nodup var_dec (fvars x)). split; [apply NoDup_nodup |]. split; [intros u; apply nodup_In |]. intros rounds fuel _ run Hc. exfalso. apply D. revert Hc. subst run.
      unfold count_models. rewrite bind_eq, E1. destruct r; [| exact (fun H => H) | exact (fun H => H)]. apply cap_le, mono_count_with_vars. }
  destruct (H1 D) as (vs & W1 & -> & Hi1 & _ & He1 & Hvs). pose proof (set_nodup _ _ Hvs) as Nvs. assert (Hin' : forall u, In u vs <-> In u (fvars x)) by (intros u; apply Hvs).
  apply (hdl_ext _ s1) in Hx as Hx1; [| assumption].
  destruct (list_eq_dec var_dec (fvars x) []) as [E0 | E0].
  - exists O, vs. split; [assumption |]. split; [assumption |]. intros rounds fuel _ run. subst run. unfold count_models. rewrite bind_eq, E1. intros Hc _. right.
    assert (vs = []) as ->. { destruct vs as [| u vs]; [reflexivity |]. exfalso. assert (H : In u (fvars x)) by (apply Hin'; now left). rewrite E0 in H. destruct H. }
    unfold count_models_with_vars in Hc |- *. rewrite bind_eq in Hc |- *.
    destruct (variables_spec fuelp x W1 s1 h Hi1 (proj1 Hx1) (proj1 (proj2 Hx1)) Hf) as [_ H2]. destruct (variables fuelp h s1) as [r2 s2]. cbn [fst snd] in H2.
    assert (Hc2 : cap s2).
    { destruct r2 as [vs2 | |]; [| exact Hc | exact Hc]. revert Hc. apply cap_le. match goal with |- size_le _ (snd (?m s2)) => assert (Mm : mono m); [| apply Mm] end.
      destruct (negb _); [apply mono_fail |]. destruct vs2; [apply mono_ret |]. apply mono_bind; [apply mono_pure_expansion | intros]. apply mono_bind; [apply mono_cnf_transform | intros].
      apply mono_bind; [apply mono_count_formula | intros]. apply mono_bind; [apply mono_variables | intros]. apply mono_bind; [apply mono_care | intros; apply mono_ret]. }
    destruct (H2 Hc2) as (vs2 & W2 & -> & Hi2 & _ & _ & Hvs2). assert (vs2 = []) as ->. { destruct vs2 as [| u vs2]; [reflexivity |]. exfalso. assert (H : In u (fvars x)) by (apply Hvs2; now left). rewrite E0 in H. destruct H. }
    cbn [forallb negb]. unfold ret. cbn [fst]. eexists. split; [reflexivity |].
    rewrite (is_verum_denotes s1 h x D (proj1 Hx1) (proj1 (proj2 Hx1))).
    destruct (no_vars x (Hcf E0) (handle_doc_ok s1 h x (i_wf _ _ Hi1) (proj1 Hx1) (proj1 (proj2 Hx1))) E0) as [-> | ->].
    + exists [[]]. split; [| reflexivity]. split; [constructor; [intros [] | constructor] |]. split; [intros v _; left; reflexivity |]. intros bs [<- | []]. exists (fun _ => false). split; reflexivity.
    + exists []. split; [| reflexivity]. split; [constructor |]. split; [intros v E; discriminate | intros bs []].
  - destruct (count_main alg prime size csize fuelp x W1 s1 h vs Hi1 Hx1 Hp Hf HP Hsize Hcsize Nvs) as [F HF]; auto.
    { intros u Hu. now apply Hin'. }
    { intros u Hu. left. apply (proj2 (proj2 Hx1)). now apply Hin'. }
    { assert (N.of_nat (List.length vs) <= 2097151); [| lia]. apply Hfew; [assumption |]. intros u Hu. apply (proj2 (proj2 Hx)). now apply Hin'. }
    exists F, vs. split; [assumption |]. split; [assumption |]. intros rounds fuel Hfu run. subst run. unfold count_models. rewrite bind_eq, E1. intros Hc Hw.
    destruct (HF rounds fuel Hfu Hc Hw) as [E | E]; [now left | right]. eexists. split; [exact E |]. apply models_number; [assumption |]. intros u Hu. now apply Hin'.
Qed.
End Counting.
Print Assumptions C57_with_vars.
Print Assumptions C57_superset.
Print Assumptions C57_count.

(* ------------------------------------------------------------------------------------------------------------------ *)
(** * What does not hold *)

(** A formula without variables: the relevant variables are ignored.  Verum has four models over two variables. *)
Definition ex_ab : list rstep := [RCall (XCall (CVariable "A")); RCall (XCall (CVariable "B")); RCall (XCall (CConstant true))]%string.
Definition ex_c : xstate := ex_of ex_ab.
Theorem C57_with_vars_refuted : exists cfg s known os h x relevant, xreachable cfg s known os /\ In h known /\ denotes s h x /\ NoDup relevant /\ incl (fvars x) relevant /\ (forall u, In u relevant -> kept s u)
  /\ (forall alg prime size csize rounds fuelp fuel, fst (count_models_with_vars alg prime size csize rounds (S fuelp) fuel h relevant s) = Ok 1)
  /\ model_number relevant x 4.
Proof.
  exists default_config, (x_fac ex_c), (x_known ex_c), (x_objs ex_c), (constant true), FTrue, [VFF 0; VFF 1].
  split; [apply (replay_reach _ ex_ab); vm_compute; reflexivity |]. split; [apply mem_in; vm_compute; reflexivity |]. split; [apply (denotes_const _ true) |].
  assert (Hn : NoDup [VFF 0; VFF 1]) by (constructor; [intros [E | []]; discriminate | constructor; [intros [] | constructor]]).
  split; [assumption |]. split; [intros u [] |]. split; [intros u [<- | [<- | []]]; right; eexists; reflexivity |]. split; [reflexivity |].
  apply (models_number [VFF 0; VFF 1] FTrue); [assumption | intros u []].
Qed.
Print Assumptions C57_with_vars_refuted.

(** The counter need not end, because FORCE need not. *)
Definition count_prep (alg : cnf_algorithm) (fuelp fuel : nat) (h : N) : M (list var * (hypergraph * list nat * list var)) :=
  vs <-- variables fuelp h ;; ws <-- variables fuelp h ;; e <-- pure_expansion fuelp h ;; c <-- cnf_transform count_algorithm fuel e count_encoder ;; p <-- force_prep alg fuel (fst c) ;;
  if forallb (fun u => existsb (var_eqb u) vs) ws then ret (ws, p) else fail.
Lemma count_loops : forall alg fuelp fuel h s u vs p, fst (count_prep alg fuelp fuel h s) = Ok (u :: vs, p) -> (forall rounds, force_loop rounds (fst (fst p)) (snd (fst p)) = NoFuel) ->
  forall prime size csize rounds, fst (count_models alg prime size csize rounds fuelp fuel h s) = NoFuel.
Proof.
  intros alg fuelp fuel h s u vs p E H prime size csize rounds. unfold count_prep in E. unfold count_models, count_models_with_vars. rewrite bind_eq in E |- *.
  destruct (variables fuelp h s) as [[ws | |] s1]; try discriminate. rewrite bind_eq in E |- *. destruct (variables fuelp h s1) as [[xs | |] s2]; try discriminate.
  rewrite bind_eq in E. destruct (pure_expansion fuelp h s2) as [[e | |] s3] eqn:E3; try discriminate.
  rewrite bind_eq in E. destruct (cnf_transform count_algorithm fuel e count_encoder s3) as [[c | |] s4] eqn:E4; try discriminate.
  rewrite bind_eq in E. destruct (force_prep alg fuel (fst c) s4) as [[q | |] s5] eqn:E5; try discriminate.
  destruct (forallb (fun u0 => existsb (var_eqb u0) ws) xs); [| discriminate]. unfold ret in E. cbn [fst] in E. assert (Ex : xs = u :: vs /\ q = p) by (split; congruence). destruct Ex as [-> ->].
  cbn [negb]. rewrite bind_eq, E3, bind_eq, E4, count_formula_run.
  assert (EF : fst (force_ordering alg rounds fuel (fst c) s4) = NoFuel) by (apply (force_loops alg fuel (fst c) s4 p); [rewrite E5; reflexivity | assumption]).
  destruct (force_ordering alg rounds fuel (fst c) s4) as [r s6]. cbn [fst] in EF. subst r. reflexivity.
Qed.
Definition ex_lvars : list var := Eval vm_compute in match fst (variables 60 11 (x_fac ex_l)) with Ok l => tl l | _ => [] end.
Theorem C57_ends_refuted : exists cfg s known os h x fuelp fuel, xreachable cfg s known os /\ In h known /\ denotes s h x /\ cnf_shape x = true /\ (depth x < fuelp)%nat /\ (8 * depth x + 26 <= fuel)%nat
  /\ forall prime size csize rounds, fst (count_models CnfFactorization prime size csize rounds fuelp fuel h s) = NoFuel.
Proof.
  exists default_config, (x_fac ex_l), (x_known ex_l), (x_objs ex_l), 11, ex_ltree, 60%nat, 60%nat.
  split; [apply (replay_reach _ ex_loop); vm_compute; reflexivity |]. split; [apply mem_in; vm_compute; reflexivity |].
  split; [apply (tree_of_sound 10); vm_compute; reflexivity |]. split; [vm_compute; reflexivity |]. split; [vm_compute; lia |]. split; [vm_compute; lia |].
  apply (count_loops _ _ _ _ _ (VFF 0) ex_lvars ex_lgraph); [vm_compute; reflexivity |]. intros rounds.
  assert (E0 : snd (fst ex_lgraph) = ex_l0) by (vm_compute; reflexivity). rewrite E0.
  assert (E1 : force_round (fst (fst ex_lgraph)) ex_l0 = Ok ex_l1) by (vm_compute; reflexivity).
  destruct rounds as [| n]; [reflexivity |]. cbn [force_loop]. rewrite E1. cbn [rbind]. assert (N0 : nats_eqb ex_l0 ex_l1 = false) by (vm_compute; reflexivity). rewrite N0.
  apply (force_loop_alternates (fst (fst ex_lgraph)) ex_l1 ex_l2); vm_compute; reflexivity.
Qed.
Print Assumptions C57_ends_refuted.

(* ------------------------------------------------------------------------------------------------------------------ *)
(** * Examples *)

Definition upto (mk : N -> var) (n : N) : list var := map (fun i => mk (N.of_nat i)) (seq 0 (N.to_nat n)).
Definition all_known (s : factory) : list var :=
  upto VFF (k_ff (ctrs_of s)) ++ upto (VAux AuxCNF) (k_cnf (ctrs_of s)) ++ upto (VAux AuxCC) (k_cc (ctrs_of s)) ++ upto (VAux AuxPB) (k_pb (ctrs_of s)).
Lemma upto_in : forall mk n i, i < n -> In (mk i) (upto mk n).
Proof. intros mk n i H. unfold upto. apply in_map_iff. exists (N.to_nat i). split; [now rewrite Nnat.N2Nat.id |]. apply in_seq. lia. Qed.
Lemma few_of_number : forall s, N.of_nat (List.length (all_known s)) <=? 2097151 = true -> few_vars s.
Proof.
  intros s H l Hn Hk. apply N.leb_le in H. assert (List.length l <= List.length (all_known s))%nat; [| lia]. apply NoDup_incl_length; [assumption |]. intros u Hu. specialize (Hk u Hu). unfold known, old in Hk. unfold all_known.
  destruct u as [i | [] i]; cbn [ctr] in Hk; rewrite !in_app_iff; auto using upto_in.
Qed.
Definition exprime (i : nat) (n : N) : nat := N.to_nat n.
Lemma exprime_ok : BddMake.prime_ok exprime.
Proof. intros i old H. unfold exprime. lia. Qed.

(** At most one of A, B, C; and A implies D.  There are 7 models, and 14 with a further variable E. *)
Definition ex_count : list rstep :=
  map (fun n => RCall (XCall (CVariable n))) ["A"; "B"; "C"; "D"; "E"]%string
  ++ [RCall (XCall (CCc LE 1 [VFF 0; VFF 1; VFF 2])); RCall (XCall (CImpl 35 227)); RCall (XCall (CNary true [48; 14]))].
Definition ex_n : xstate := ex_of ex_count.
Definition ex_ntree : fml := FAnd [FCc (mkCc [VFF 0; VFF 1; VFF 2] LE 1); FImpl (ex_pos 0) (ex_pos 3)].
Definition ex_rel : list var := map VFF [0; 1; 2; 3; 4].
Example C57_ex : xreachable default_config (x_fac ex_n) (x_known ex_n) (x_objs ex_n) /\ In 11 (x_known ex_n) /\ denotes (x_fac ex_n) 11 ex_ntree /\ pureable ex_ntree /\ few_vars (x_fac ex_n)
  /\ NoDup ex_rel /\ incl (fvars ex_ntree) ex_rel /\ (forall u, In u ex_rel -> kept (x_fac ex_n) u)
  /\ fst (count_models CnfFactorization exprime 30 20 10 60 60 11 (x_fac ex_n)) = Ok 7
  /\ fst (count_models_with_vars CnfFactorization exprime 30 20 10 60 60 11 ex_rel (x_fac ex_n)) = Ok 14
  /\ cap (snd (count_models_with_vars CnfFactorization exprime 30 20 10 60 60 11 ex_rel (x_fac ex_n)))
  /\ few_vars (snd (count_models_with_vars CnfFactorization exprime 30 20 10 60 60 11 ex_rel (x_fac ex_n)))
  /\ model_number ex_rel ex_ntree 14.
Proof.
  assert (Hn : NoDup ex_rel) by (repeat constructor; cbn; intuition discriminate). assert (Hi : incl (fvars ex_ntree) ex_rel) by (cbv; intuition).
  split; [apply (replay_reach _ ex_count); vm_compute; reflexivity |]. split; [apply mem_in; vm_compute; reflexivity |].
  split; [apply (tree_of_sound 10); vm_compute; reflexivity |]. split; [repeat constructor |]. split; [apply few_of_number; vm_compute; reflexivity |]. split; [assumption |]. split; [assumption |].
  split; [intros u Hu; right; apply in_map_iff in Hu; destruct Hu as (i & <- & _); exists i; reflexivity |].
  split; [vm_compute; reflexivity |]. split; [vm_compute; reflexivity |]. split; [apply cap_b_ok; vm_compute; reflexivity |]. split; [apply few_of_number; vm_compute; reflexivity |].
  apply (models_number ex_rel ex_ntree); assumption.
Qed.
(** A formula of ten clauses, and the constants. *)
Example C57_ex2 : fst (count_models CnfFactorization exprime 30 20 10 60 60 11 (x_fac ex_o)) = Ok 83
  /\ fst (count_models CnfFactorization exprime 30 20 10 60 60 (constant true) (x_fac ex_o)) = Ok 1 /\ fst (count_models CnfFactorization exprime 30 20 10 60 60 (constant false) (x_fac ex_o)) = Ok 0.
Proof. vm_compute. repeat split. Qed.
