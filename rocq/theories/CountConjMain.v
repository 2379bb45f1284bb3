(** The count of the models of a conjunction, end to end. *)
From Coq Require Import NArith ZArith List Bool Arith Lia.
From Verif Require BddMake BddBuild BddDen.
Local Notation prime_ok := BddMake.prime_ok.
Local Notation pure := BddBuild.pure.
Local Notation var_dec := BddDen.var_dec.
From Verif Require Import Base EncodingModel EncodingProofs Syntax FactoryModel FactoryInv FactoryBasics FactoryProofs FactorySpecs FactoryNary FactoryOps EvalProofs
  InvariantSpec InvariantProofs OpsModel OpsProofs ConstraintModel ConstraintProofs CacheModel TransModel TreeSpec WorldProofs MetricsProofs EncodeProofs NnfProofs CnfProofs HandlerProofs DefBasics
  TseitinProofs PgProofs EncoderProofs PureProofs BddModel BddCount OrderModel OrderProofs XReplay CountModel CountProofs CountBdd CountMain CountNary CountConjModel CountConj.
Import ListNotations.
Local Open Scope nat_scope.
Local Open Scope res_scope.

(* ------------------------------------------------------------------------------------------------------------------ *)
(** * Splitting off the literals *)

Lemma ts_all : forall T xs ys, Forall2 (ts_res T) xs ys ->
  (forall v, forallb (sem v) ys = true -> forallb (sem v) xs = true) /\ (forall v, T v -> forallb (sem v) xs = true -> forallb (sem v) ys = true)
  /\ (forall v w, forallb (sem v) ys = true -> forallb (sem w) ys = true -> (forall u, In u (flat_map fvars xs) -> w u = v u) -> forall u, In u (flat_map fvars ys) -> w u = v u).
Proof.
  intros T xs ys HF. induction HF as [| x y xs ys (_ & R2 & R3 & R4) HF (I1 & I2 & I3)]; [split; [reflexivity |]; split; [reflexivity | intros ? ? ? ? ? ? []] |].
  cbn [forallb flat_map]. split; [| split].
  - intros v H. apply andb_true_iff in H. rewrite R2, I1 by tauto. reflexivity.
  - intros v Tv H. apply andb_true_iff in H. rewrite R3, I2 by tauto. reflexivity.
  - intros v w Hv Hw Hag u Hu. apply andb_true_iff in Hv, Hw. destruct Hv, Hw. apply in_app_or in Hu. destruct Hu as [Hu | Hu].
    + apply R4; auto. intros a Ha. apply Hag. apply in_or_app. now left.
    + apply I3; auto. intros a Ha. apply Hag. apply in_or_app. now right.
Qed.

Section Units.
Variables (ys zs : list fml).
Let ls := tree_lits ys.
Let a := backbone_of ls.
Hypothesis HR : restricted a ys zs.
(** The conjunction after the simplification. *)
Definition simplified : fml := FAnd (map FLit ls ++ zs).

Lemma simplified_sem : forall v, sem v simplified = forallb (sem v) ys.
Proof.
  intros v. unfold simplified. cbn [sem]. rewrite forallb_app. destruct HR as (_ & R2 & _).
  assert (E : forallb (sem v) (map FLit ls) = forallb (lit_sem v) ls) by (clear; induction ls as [| l r IH]; cbn [map forallb sem]; [reflexivity | now rewrite IH]). rewrite E.
  destruct (forallb (lit_sem v) ls) eqn:El.
  - cbn [andb]. apply R2. now apply backbone_extends.
  - cbn [andb]. symmetry. apply not_true_is_false. intros H. rewrite forallb_forall in H. apply not_true_iff_false in El. apply El. apply forallb_forall. intros l Hl. apply tree_lits_in in Hl. exact (H _ Hl).
Qed.
Lemma simplified_vars : fvars simplified = map lit_var ls ++ flat_map fvars zs.
Proof.
  unfold simplified. rewrite fvars_and, flat_map_app. f_equal. clear. induction ls as [| l r IH]; cbn [map flat_map]; [reflexivity |]. rewrite IH. reflexivity.
Qed.
Lemma simplified_incl : incl (fvars simplified) (flat_map fvars ys).
Proof.
  rewrite simplified_vars. destruct HR as (_ & _ & R3 & _). apply incl_app; [| intros u Hu; now apply R3].
  intros u Hu. apply in_map_iff in Hu. destruct Hu as (l & <- & Hl). apply tree_lits_in in Hl. apply in_flat_map. exists (FLit l). split; [assumption | now left].
Qed.

(** Over its own variables, the conjunction [z] of what remains has as many models as the whole. *)
Lemma units_count : forall z V U, (forall v, sem v z = forallb (sem v) zs) -> incl (fvars z) (flat_map fvars zs) -> (z = FFalse \/ incl (flat_map fvars zs) (fvars z)) ->
  NoDup V -> (forall u, In u V <-> In u (fvars z)) -> NoDup U -> (forall u, In u U <-> In u (fvars simplified)) -> length (models V z) = length (models U simplified).
Proof.
  intros z V U Sz Iz Kz HV InV HU InU. pose proof HR as (_ & R2 & R3 & R4).
  rewrite (count_split V U z simplified); auto.
  - replace (filter (fun u => negb (existsb (var_eqb u) U)) V) with (@nil var); [cbn [length Nat.pow]; lia |]. symmetry.
    assert (Hall : forall u, In u V -> negb (existsb (var_eqb u) U) = false).
    { intros u Hu. apply negb_false_iff, existsb_var, InU. rewrite simplified_vars. apply in_or_app. right. apply Iz. now apply InV. }
    clear -Hall. induction V as [| b V IH]; [reflexivity |]. cbn [filter]. rewrite Hall by now left. apply IH. intros u Hu. apply Hall. now right.
  - intros u Hu. now apply InV.
  - intros v Hv. unfold simplified in Hv. cbn [sem] in Hv. rewrite forallb_app in Hv. apply andb_true_iff in Hv. rewrite Sz. tauto.
  - intros v Hv. rewrite Sz in Hv.
    assert (Hcons : forall u, In u (a_pos a) -> ~ In u (a_neg a)).
    { intros u Hp Hn. apply backbone_neg, tree_lits_in in Hn. specialize (R4 u Hn Hp). rewrite forallb_forall in Hv. specialize (Hv _ R4). discriminate. }
    set (w := fun u => if existsb (var_eqb u) (a_pos a) then true else if existsb (var_eqb u) (a_neg a) then false else v u).
    assert (Hw : extends a w).
    { intros u. unfold w. split; intros Hu.
      - rewrite (proj2 (existsb_var u (a_pos a)) Hu). reflexivity.
      - destruct (existsb (var_eqb u) (a_pos a)) eqn:E; [apply existsb_var in E; exfalso; eapply Hcons; eauto |]. rewrite (proj2 (existsb_var u (a_neg a)) Hu). reflexivity. }
    assert (Hu : forall u, In u (flat_map fvars zs) -> w u = v u).
    { intros u Hu. destruct (R3 u Hu) as [_ [N1 N2]]. unfold w. rewrite (proj2 (existsb_var_f u (a_pos a)) N1), (proj2 (existsb_var_f u (a_neg a)) N2). reflexivity. }
    exists w. split.
    + rewrite simplified_sem, <- (R2 w Hw). rewrite forallb_forall in Hv |- *. intros t Ht. rewrite <- (Hv t Ht). apply sem_fvars. intros u Hut. apply Hu. apply in_flat_map. exists t. auto.
    + intros u Hv'. apply Hu, Iz. now apply InV.
  - intros v w Hv Hw Hag u Hu. assert (Hz : sem v z = true).
    { rewrite Sz. unfold simplified in Hv. cbn [sem] in Hv. rewrite forallb_app in Hv. apply andb_true_iff in Hv. tauto. }
    destruct Kz as [-> | Kz]; [discriminate |].
    rewrite simplified_vars in Hu. apply in_app_or in Hu. destruct Hu as [Hu | Hu]; [| apply Hag, Kz, Hu].
    apply in_map_iff in Hu. destruct Hu as (l & <- & Hl).
    assert (Hlit : forall v', sem v' simplified = true -> lit_sem v' l = true).
    { intros v' H. unfold simplified in H. cbn [sem] in H. rewrite forallb_forall in H. apply (H (FLit l)). apply in_or_app. left. now apply in_map. }
    apply Hlit in Hv, Hw. destruct l as [b p]. cbn [lit_sem lit_var] in *. destruct p; [congruence |]. apply negb_true_iff in Hv, Hw. congruence.
Qed.
End Units.

(* ------------------------------------------------------------------------------------------------------------------ *)
(** * The runs *)

Lemma count_formula_then : forall B alg prime size csize rounds fuel y W s h (rest : N -> M B), prime_ok prime -> (3 <= size)%nat -> (1 <= csize)%nat -> inv W s -> hdl s h y -> cnf_shape y = true -> (42 <= fuel)%nat ->
  (forall n, mono (rest n)) -> (forall n s1 W1, inv W1 s1 -> ext s s1 -> cap (snd (rest n s1)) -> ext s1 (snd (rest n s1))) ->
  let run := bind (count_formula alg prime size csize rounds fuel h) rest s in
  cap (snd run) -> few_vars (snd run) ->
  fst run = NoFuel \/ exists V s1 W1, NoDup V /\ (forall u, In u V <-> In u (fvars y)) /\ inv W1 s1 /\ ext s s1 /\ run = rest (N.of_nat (length (models V y))) s1.
Proof.
  intros B alg prime size csize rounds fuel y W s h rest P Hs Hc Hi Hy Cy Hf Mrest Erest run Hcap Hfew. subst run. pose proof (cnf_depth y Cy) as Dy. pose proof (cnf_con_free y Cy) as Fy.
  assert (Hen : encodable s y) by (apply con_free_leaves; assumption).
  pose proof (force_ordering_spec alg rounds fuel y W s h Hi Hy Hen ltac:(lia)) as HF.
  destruct (force_prep_spec alg fuel y W s h Hi Hy Hen ltac:(lia)) as [_ HP].
  pose proof (force_split alg rounds fuel h s) as ES.
  rewrite count_formula_run in Hcap, Hfew |- *. destruct (force_ordering alg rounds fuel h s) as [r s1] eqn:E1. cbn [fst snd] in HF.
  assert (Hc1 : cap s1).
  { destruct r as [ord | |]; [| exact Hcap | exact Hcap]. revert Hcap. match goal with |- context [match ?e with Ok _ => _ | Panic => _ | NoFuel => _ end] => destruct e end; [| exact (fun H => H) | exact (fun H => H)]. intros Hcap. eapply cap_le; [apply Mrest | exact Hcap]. }
  destruct (HF Hc1) as [-> | (ord & y' & W' & -> & Ry & Nord & Hord)]; [left; reflexivity |]. clear HF.
  assert (Hst : exists W1, inv W1 s1 /\ ext s s1).
  { revert ES. unfold bind. destruct (force_prep alg fuel h s) as [rp sp] eqn:Ep. cbn [fst snd] in HP. destruct rp as [pp | |]; intros ES; unfold lift in ES; injection ES as _ ES'; subst sp; destruct (HP Hc1) as (a & W1 & _ & I1 & _ & X1 & _); exists W1; auto. }
  destruct Hst as (W1 & Hi1 & He1). apply (hdl_ext _ s1) in Hy; [| assumption].
  assert (Hord' : forall u, In u ord <-> In u (fvars y)).
  { intros u. rewrite Hord. destruct Ry as (_ & _ & Ry). destruct (Ry Fy) as [_ Hyy]. specialize (Hyy u). tauto. }
  rewrite (tree_of_complete fuel s1 h y (proj1 (proj2 Hy)) ltac:(lia)) in Hcap, Hfew |- *. cbn [of_opt rbind] in Hcap, Hfew |- *.
  assert (Hp : pure y) by (apply cnf_pure; [eapply handle_doc_ok; [apply (i_wf _ _ Hi1) | apply Hy | apply Hy] | assumption]).
  assert (Hlen : (N.of_nat (length ord) <= 2097151)%N).
  { apply Hfew; [assumption |]. intros u Hu. apply Hord' in Hu.
    match goal with |- known (snd ?m) u => assert (X : ext s1 (snd m)) end; [| eapply known_ext; [exact X | apply (proj2 (proj2 Hy)); assumption]].
    revert Hcap. match goal with |- context [match ?e with Ok _ => _ | Panic => _ | NoFuel => _ end] => destruct e end; intros Hcap; cbn [snd]; [| apply ext_refl | apply ext_refl]. eapply Erest; eauto. }
  pose proof (bdd_counts prime size csize ord y P Hs Hc Hlen Nord Hord' Hp) as HB. rewrite HB in Hcap |- *. right. exists ord, s1, W1. auto 10.
Qed.

Lemma care_run : forall relevant used s, (N.of_nat (length relevant) < 4294967296)%N ->
  care_factor relevant used s = (Ok (N.of_nat (2 ^ length (filter (fun u => negb (existsb (var_eqb u) used)) relevant))), s).
Proof.
  intros relevant used s H. unfold care_factor. match goal with |- context [N.ltb ?a ?b] => assert (Hlt : N.ltb a b = true) end.
  { apply N.ltb_lt. pose proof (filter_short _ (fun u => negb (existsb (var_eqb u) used)) relevant). lia. }
  rewrite Hlt. unfold ret. rewrite Nnat.Nat2N.inj_pow. reflexivity.
Qed.

Theorem count_conj_main : forall alg prime size csize rounds fuelp fuel hs xs W s relevant vs, inv W s -> Forall2 (hdl s) hs xs -> Forall pureable xs -> Forall (fun x => depth x < fuelp) xs ->
  prime_ok prime -> (3 <= size)%nat -> (1 <= csize)%nat -> (42 <= fuel)%nat ->
  NoDup relevant -> incl (flat_map fvars xs) relevant -> (forall u, In u relevant -> kept s u) -> flat_map fvars xs <> [] -> (N.of_nat (length relevant) < 4294967296)%N ->
  set_list var_ltb vs (flat_map fvars xs) ->
  let run := count_internal alg prime size csize rounds fuelp fuel hs relevant vs s in
  cap (snd run) -> few_vars (snd run) -> fst run = NoFuel \/ fst run = Ok (N.of_nat (length (models relevant (FAnd xs)))).
Proof.
  intros alg prime size csize rounds fuelp fuel hs xs W s relevant vs Hi Ho Hp Hfp P Hs Hc Hf Nr Ir Kr Hne Hrel Hvs.
  unfold count_internal. rewrite all_in by (intros u Hu; apply Ir; now apply Hvs). cbn [negb].
  destruct vs as [| u0 vs]; [exfalso; apply Hne; destruct (flat_map fvars xs) as [| b l]; [reflexivity | destruct (proj2 (proj2 Hvs b) (or_introl eq_refl))] |].
  set (k4 := fun ls rs n => used <-- all_variables fuel rs ;; k <-- care_factor relevant (map lit_var ls ++ used) ;; ret (n * k)%N).
  set (k3 := fun ls rs => bind (f_and rs) (fun z => bind (count_formula alg prime size csize rounds fuel z) (k4 ls rs))).
  set (k2 := fun cs ls => bind (restrict_all fuel (backbone_of ls) cs) (k3 ls)).
  set (k1 := fun cs => bind (unit_literals cs) (k2 cs)).
  assert (M4 : forall ls rs n, mono (k4 ls rs n)) by (intros; apply mono_bind; [apply mono_all_variables | intros; apply mono_bind; [apply mono_care | intros; apply mono_ret]]).
  assert (M3 : forall ls rs, mono (k3 ls rs)) by (intros; apply mono_bind; [apply mono_f_and | intros; apply mono_bind; [apply mono_count_formula | intros; apply M4]]).
  assert (M2 : forall cs ls, mono (k2 cs ls)) by (intros; apply mono_bind; [apply mono_restrict_all | intros; apply M3]).
  assert (M1 : forall cs, mono (k1 cs)) by (intros; apply mono_bind; [apply mono_unit_literals | intros; apply M2]).
  change (let run := bind (encode_as_cnf fuelp hs count_encoder) k1 s in cap (snd run) -> few_vars (snd run) -> fst run = NoFuel \/ fst run = Ok (N.of_nat (length (models relevant (FAnd xs))))).
  cbv zeta. intros Hcap Hfew. set (T0 := (fun _ => True) : world).
  assert (Henc : enc_ok T0 count_encoder s) by (split; intros st E; cbn [count_encoder ce_tseitin ce_pg] in E; injection E as <-; [apply ts_new | apply pg_new]).
  destruct (x_then _ _ W s _ k1 _ (encode_as_cnf_spec fuelp hs xs W s T0 count_encoder Hi (fun _ _ _ _ => I) Henc Ho Hp Hfp) M1 Hcap) as (cs & s1 & W1 & _ & Hi1 & _ & He1 & (T & ys & [_ Hg] & Hys & HT) & E1).
  rewrite E1 in Hcap, Hfew |- *. clear E1. unfold k1 in Hcap, Hfew |- *.
  assert (Eu : bind (unit_literals cs) (k2 cs) s1 = k2 cs (tree_lits ys) s1) by (unfold bind; rewrite (unit_literals_run s1 cs ys (i_wf _ _ Hi1) Hys); reflexivity).
  rewrite Eu in Hcap, Hfew |- *. clear Eu. set (ls := tree_lits ys) in *. unfold k2 in Hcap, Hfew |- *.
  assert (Cys : Forall (fun y => cnf_shape y = true) ys) by (clear -HT; induction HT as [| ? ? ? ? [Hc _]]; constructor; assumption).
  destruct (x_then _ _ W1 s1 _ (k3 ls) _ (restrict_all_spec fuel (backbone_of ls) cs ys W1 s1 Hi1 Hys Cys ltac:(lia)) (M3 ls) Hcap) as (rs & s2 & W2 & _ & Hi2 & _ & He2 & (zs & Hzs & HR) & E2).
  rewrite E2 in Hcap, Hfew |- *. clear E2. unfold k3 in Hcap, Hfew |- *.
  destruct (x_then _ _ W2 s2 (f_and rs) (fun z => bind (count_formula alg prime size csize rounds fuel z) (k4 ls rs)) _ (x_conj W2 s2 rs zs Hi2 Hzs (proj1 HR))) as (z & s3 & W3 & Ez & Hi3 & _ & He3 & (_ & zt & Hz & Cz & Sz & Iz) & E3);
    [intros; apply mono_bind; [apply mono_count_formula | intros; apply M4] | exact Hcap |].
  rewrite E3 in Hcap, Hfew |- *. clear E3.
  assert (Kz : zt = FFalse \/ incl (flat_map fvars zs) (fvars zt)) by exact (and_vars W2 s2 rs zs z s3 zt Hi2 Hzs Ez (i_wf _ _ Hi3) He3 (proj1 (proj2 Hz))).
  assert (Dzs : Forall (fun t => depth t < fuel) zs).
  { destruct HR as [HC _]. eapply Forall_impl; [| exact HC]. intros t Ht. cbn beta in Ht. apply cnf_depth in Ht. lia. }
  assert (Run4 : forall n t Wt, inv Wt t -> ext s3 t -> cap (snd (k4 ls rs n t)) -> ext t (snd (k4 ls rs n t)) /\ exists used, set_list var_ltb used (flat_map fvars zs) /\
    fst (k4 ls rs n t) = Ok (n * N.of_nat (2 ^ length (filter (fun u => negb (existsb (var_eqb u) (map lit_var ls ++ used))) relevant)))%N).
  { intros n t Wt Hit Het Hct. assert (Hzt : Forall2 (hdl t) rs zs) by (eapply hdls_ext; [| exact Hzs]; eapply ext_trans; eauto).
    destruct (x_then _ _ Wt t _ (fun used => k <-- care_factor relevant (map lit_var ls ++ used) ;; ret (n * k)%N) _ (all_variables_spec fuel rs zs Wt t Hit Hzt Dzs)) as (used & t1 & Wt1 & _ & _ & _ & Het1 & Hused & Et);
      [intros; apply mono_bind; [apply mono_care | intros; apply mono_ret] | exact Hct |].
    unfold k4. rewrite Et. unfold bind. rewrite care_run by assumption. unfold ret. cbn [fst snd]. split; [assumption |]. exists used. auto. }
  destruct (count_formula_then _ alg prime size csize rounds fuel zt W3 s3 z (k4 ls rs) P Hs Hc Hi3 Hz Cz Hf (M4 ls rs)) as [E | (V & s4 & W4 & NV & InV & Hi4 & He4 & E4)].
  { intros n t Wt Hit Het Hct. eapply Run4; eauto. }
  { exact Hcap. }
  { exact Hfew. }
  { left. exact E. }
  rewrite E4 in Hcap |- *. clear E4 Hfew. destruct (Run4 _ s4 W4 Hi4 He4 Hcap) as (_ & used & Hused & E). right. rewrite E. f_equal. rewrite <- Nnat.Nat2N.inj_mul. f_equal.
  set (U := nodup var_dec (fvars (simplified ys zs))). assert (InU : forall u, In u U <-> In u (fvars (simplified ys zs))) by (intros u; apply nodup_In).
  assert (NU : NoDup U) by apply NoDup_nodup.
  rewrite (units_count ys zs HR zt V U Sz Iz Kz NV InV NU InU). symmetry.
  replace (filter (fun u => negb (existsb (var_eqb u) (map lit_var ls ++ used))) relevant) with (filter (fun u => negb (existsb (var_eqb u) U)) relevant).
  2:{ apply filter_ext. intros u. f_equal. apply eq_true_iff_eq. rewrite !existsb_var, InU, simplified_vars, !in_app_iff. destruct Hused as [_ Hused]. rewrite Hused. reflexivity. }
  destruct (ts_all T xs ys HT) as (A1 & A2 & A3).
  apply count_split; auto.
  - rewrite fvars_and. assumption.
  - intros v Hv. rewrite (simplified_sem ys zs HR) in Hv. cbn [sem]. auto.
  - intros v Hv. destruct (Hg v I) as (w & Tw & Hag). exists w. assert (Hag' : forall u, In u relevant -> w u = v u) by (intros u Hu; apply Hag; auto).
    split; [| assumption]. rewrite (simplified_sem ys zs HR). apply A2; [assumption |].
    assert (Ew : sem w (FAnd xs) = sem v (FAnd xs)) by (apply sem_fvars; intros u Hu; rewrite fvars_and in Hu; apply Hag'; auto). rewrite Hv in Ew. exact Ew.
  - intros v w Hv Hw Hag u Hu. rewrite (simplified_sem ys zs HR) in Hv, Hw. rewrite fvars_and in Hag. apply A3; auto. apply (simplified_incl ys zs HR). assumption.
Qed.
