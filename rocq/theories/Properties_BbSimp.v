(** C53: the backbone simplification. C54: the predicates [is_sat] and [is_tautology]. Both use a solver of their own and a cache of
    the factory, in histories with any other calls. *)
From Coq Require Import String.
From Coq Require Import NArith ZArith List Bool Arith Lia.
From Verif Require Import Base EncodingModel EncodingProofs Syntax FactoryModel FactoryInv FactoryBasics FactoryProofs FactoryOps EvalProofs HistoryModel OpsProofs CcModel EncBasics CcFrontProofs
  CacheModel TransModel TreeSpec WorldProofs MetricsProofs EncodeProofs NnfProofs DefBasics XHistory XHistoryProofs XReplay Properties_Trans
  SatModel SatSpec SatProp MiniModel OptModel Properties_Sat PgSolverModel BbSimpModel SatPredModel PgHistory PgTakeProofs BbSimpProofs PgHistoryProofs PgReplay Properties_PgSolver.
Import ListNotations.
Local Open Scope N_scope.

Definition satisfiable (x : fml) : Prop := exists v, sem v x = true.
(** [u] has the value [b] in all models. *)
Definition fixed (x : fml) (u : var) (b : bool) : Prop := forall v, sem v x = true -> v u = b.
(** The formula is the literal, or a conjunction that has it as an operand and the variable in no other operand. *)
Definition as_literal (u : var) (b : bool) (y : fml) : Prop :=
  y = FLit (Lit u b) \/ exists l, y = FAnd l /\ In (FLit (Lit u b)) l /\ forall z, In z l -> z = FLit (Lit u b) \/ ~ In u (fvars z).

Lemma reach_handle : forall orc cfg g h x, heuristics_ok orc -> greachable orc cfg g -> In h (x_known (g_x g)) -> denotes (x_fac (g_x g)) h x ->
  exists W, inv W (x_fac (g_x g)) /\ hdl (x_fac (g_x g)) h x.
Proof.
  intros orc cfg g h x So Hr Hh Hd. destruct (greachable_ok orc So cfg g Hr) as (W & [Hi [Hk _]] & _). exists W. split; [exact Hi |]. rewrite Forall_forall in Hk. destruct (Hk h Hh) as [y Hy].
  now rewrite (hdl_same _ _ _ _ Hy Hd) in *.
Qed.
Lemma to_world : forall W s x v, inv W s -> over_named x -> sem v x = true -> exists w, W w /\ sem w x = true /\ forall i, w (VFF i) = v (VFF i).
Proof.
  intros W s x v Hi Hn H. destruct (proj1 (i_world _ _ Hi) v) as (w & Hw & Ha). exists w. split; [exact Hw |]. split; [| exact Ha]. rewrite <- H. apply sem_fvars. intros u Hu. destruct (Hn u Hu) as [i ->]. apply Ha.
Qed.

(** The simplification does not panic as long as the factory does not exceed its capacity. The result implies the formula and has
    no other variables. For formulas over variables created by name it is equivalent to the formula; it is the constant False if
    the formula is unsatisfiable; otherwise each variable with a fixed value is in the result as a literal and nowhere else. *)
Theorem C53_simplify : forall orc cfg g rounds fuel h x r s', heuristics_ok orc -> greachable orc cfg g -> simplifiable (x_fac (g_x g)) (x_known (g_x g)) fuel h ->
  denotes (x_fac (g_x g)) h x -> backbone_simplification orc rounds fuel h (x_fac (g_x g)) = (r, s') -> cap s' ->
  match r with
  | Ok r => denotes s' h x /\ exists y, denotes s' r y /\ (forall v, sem v y = true -> sem v x = true) /\ incl (fvars y) (fvars x) /\
      (over_named x -> (forall v, sem v y = sem v x) /\ (~ satisfiable x -> y = FFalse) /\ (satisfiable x -> forall u b, In u (fvars x) -> fixed x u b -> as_literal u b y))
  | Panic => False
  | NoFuel => True
  end.
Proof.
  intros orc cfg g rounds fuel h x r s' So Hr [[Hh Ha] Hre] Hd E Hc. destruct (reach_handle orc cfg g h x So Hr Hh Hd) as (W & Hi & Hx). destruct (Ha x Hd) as [Hen Hro].
  pose proof (p_run _ _ _ _ _ _ _ (backbone_simplification_spec orc So rounds fuel W _ h x Hi Hx Hen Hro (Hre x Hd)) E Hc) as K. destruct r as [r | |]; [| exact K | exact I].
  destruct K as (W' & Hi' & _ & He & y & Hy & P1 & P2 & P3 & P4 & P5). split; [exact (proj1 (proj2 (hdl_ext _ _ _ _ He Hx))) |]. exists y. split; [apply Hy |]. split; [exact P1 |]. split; [exact P3 |]. intros Hn. split; [| split].
  - intros v. apply eq_iff_eq_true. split; [apply P1 |]. intros H. destruct (to_world W' s' x v Hi' Hn H) as (w & Hw & Hs & Ag). rewrite <- (P2 w Hw Hs). apply sem_fvars. intros u Hu. destruct (Hn u (P3 u Hu)) as [i ->]. symmetry. apply Ag.
  - intros H. apply P4. intros v. destruct (sem v x) eqn:T; [| reflexivity]. exfalso. apply H. exists v. exact T.
  - intros (v & Hv) u b Hu Hf. destruct (to_world W' s' x v Hi' Hn Hv) as (w & Hw & Hs & _). destruct (P5 u b Hu (ex_intro _ w (conj Hw Hs)) Hf) as [-> | (l & -> & Q1 & Q2)]; [now left |].
    right. exists l. split; [reflexivity |]. split; [exact Q1 |]. rewrite Forall_forall in Q2. exact Q2.
Qed.
Print Assumptions C53_simplify.

(** [is_sat] does not panic; the answer True is correct for every formula, the answer False for formulas over variables created by
    name. For every CNF algorithm of the factory. *)
Theorem C54_sat : forall orc cfg g alg fuel h x r s', heuristics_ok orc -> greachable orc cfg g -> addable (x_fac (g_x g)) (x_known (g_x g)) fuel h ->
  denotes (x_fac (g_x g)) h x -> is_sat orc alg fuel h (x_fac (g_x g)) = (r, s') -> cap s' ->
  match r with Ok b => (b = true -> satisfiable x) /\ (over_named x -> satisfiable x -> b = true) | Panic => False | NoFuel => True end.
Proof.
  intros orc cfg g alg fuel h x r s' So Hr [Hh Ha] Hd E Hc. destruct (reach_handle orc cfg g h x So Hr Hh Hd) as (W & Hi & Hx). destruct (Ha x Hd) as [Hen Hro].
  pose proof (p_run _ _ _ _ _ _ _ (is_sat_spec orc So alg fuel W _ h x Hi Hx Hen Hro) E Hc) as K. destruct r as [b | |]; [| exact K | exact I].
  destruct K as (W' & Hi' & _ & He & P). destruct b; cbn [P_sat] in P; split; auto; [discriminate |]. intros Hn (v & Hv). destruct (to_world W' s' x v Hi' Hn Hv) as (w & Hw & Hs & _). rewrite (P w Hw) in Hs. discriminate.
Qed.
Print Assumptions C54_sat.
Definition tautology (x : fml) : Prop := forall v, sem v x = true.
Theorem C54_tautology : forall orc cfg g alg fuel h x r s', heuristics_ok orc -> greachable orc cfg g -> refutable (x_fac (g_x g)) (x_known (g_x g)) fuel h ->
  denotes (x_fac (g_x g)) h x -> is_tautology orc alg fuel h (x_fac (g_x g)) = (r, s') -> cap s' ->
  match r with Ok b => (tautology x -> b = true) /\ (over_named x -> b = true -> tautology x) | Panic => False | NoFuel => True end.
Proof.
  intros orc cfg g alg fuel h x r s' So Hr (Hh & Ha & Hre) Hd E Hc. destruct (reach_handle orc cfg g h x So Hr Hh Hd) as (W & Hi & Hx).
  pose proof (p_run _ _ _ _ _ _ _ (is_tautology_spec orc So alg fuel W _ h x Hi Hx (Ha x Hd) Hre) E Hc) as K. destruct r as [b | |]; [| exact K | exact I].
  destruct K as (W' & Hi' & _ & He & y & Sy & P). split.
  - intros Ht. destruct b; [reflexivity |]. cbn [negb P_sat] in P. destruct P as (v & Hv). rewrite Sy, (Ht v) in Hv. discriminate.
  - intros Hn ->. cbn [negb P_sat] in P. intros v. destruct (sem v x) eqn:T; [reflexivity |]. exfalso. destruct (proj1 (i_world _ _ Hi') v) as (w & Hw & Ag).
    assert (Tw : sem w x = false) by (rewrite <- T; apply sem_fvars; intros u Hu; destruct (Hn u Hu) as [i ->]; apply Ag). specialize (P w Hw). rewrite Sy, Tw in P. discriminate.
Qed.
Print Assumptions C54_tautology.

(** ** Example: [A & (A => B) & (C | D)], the same with [~B], and [(A => B) | A] *)
Open Scope string_scope.
Definition ex_br : list rstep :=
  [RCall (XCall (CVariable "A")); RCall (XCall (CVariable "B")); RCall (XCall (CVariable "C")); RCall (XCall (CVariable "D")); RCall (XCall (CImpl 35 99));
   RCall (XCall (CNary false [163; 227])); RCall (XCall (CNary true [35; 14; 12])); RCall (XCall (CNary false [14; 35])); RCall (XCall (CNot 99)); RCall (XCall (CNary true [11; 103]))].
Close Scope string_scope.
Definition ex_bx : xstate := ex_of ex_br.
Definition ex_bs : list gr := [GIsSat CnfFactorization 60 11; GIsTautology CnfFactorization 60 76; GSimplify 50 200 11; GNew ex_mci; GAdd 0 PgOnSolver 60 76].
Definition ex_bg : gstate := match greplay ex_orc ex_bs (mkG ex_bx []) with Some g => g | None => mkG ex_nil [] end.
Definition ex_simp (h : N) : option fml := match backbone_simplification ex_orc 50 200 h (x_fac (g_x ex_bg)) with (Ok r, s') => tree_of 10 s' r | _ => None end.
Definition ex_sat (h : N) : res bool := fst (is_sat ex_orc CnfFactorization 200 h (x_fac (g_x ex_bg))).
Definition ex_taut (h : N) : res bool := fst (is_tautology ex_orc CnfFactorization 200 h (x_fac (g_x ex_bg))).
Lemma ex_b_reach : greachable ex_orc default_config ex_bg.
Proof.
  apply (greplay_reach ex_orc default_config (x_fac ex_bx) (x_known ex_bx) (x_objs ex_bx) ex_bs ex_bg).
  - apply (replay_reach _ ex_br). vm_compute. reflexivity.
  - vm_compute. reflexivity.
Qed.
Example C53_ex : greachable ex_orc default_config ex_bg /\ simplifiable (x_fac (g_x ex_bg)) (x_known (g_x ex_bg)) 200 11 /\ simplifiable (x_fac (g_x ex_bg)) (x_known (g_x ex_bg)) 200 75
  /\ (forall x, denotes (x_fac (g_x ex_bg)) 11 x -> over_named x)
  /\ map ex_simp [11; 75; 14] =
     [Some (FAnd [FLit (Lit (VFF 0) true); FLit (Lit (VFF 1) true); FOr [FLit (Lit (VFF 2) true); FLit (Lit (VFF 3) true)]]); Some FFalse;
      Some (FImpl (FLit (Lit (VFF 0) true)) (FLit (Lit (VFF 1) true)))].
Proof.
  split; [apply ex_b_reach |]. split; [apply (simplifiable_d_ok 10); vm_compute; reflexivity |]. split; [apply (simplifiable_d_ok 10); vm_compute; reflexivity |].
  split; [eapply (named_of_tree 10); vm_compute; reflexivity |]. vm_compute. reflexivity.
Qed.
Example C54_ex : greachable ex_orc default_config ex_bg /\ addable (x_fac (g_x ex_bg)) (x_known (g_x ex_bg)) 200 75 /\ refutable (x_fac (g_x ex_bg)) (x_known (g_x ex_bg)) 200 76
  /\ (forall x, denotes (x_fac (g_x ex_bg)) 75 x -> over_named x) /\ (forall x, denotes (x_fac (g_x ex_bg)) 76 x -> over_named x)
  /\ map ex_sat [11; 75; 76; 14] = [Ok true; Ok false; Ok true; Ok true] /\ map ex_taut [11; 75; 76; 14] = [Ok false; Ok false; Ok true; Ok false].
Proof.
  split; [apply ex_b_reach |]. split; [apply (addable_d_ok 10); vm_compute; reflexivity |]. split; [apply (refutable_d_ok 10); vm_compute; reflexivity |].
  split; [eapply (named_of_tree 10); vm_compute; reflexivity |]. split; [eapply (named_of_tree 10); vm_compute; reflexivity |]. vm_compute. split; reflexivity.
Qed.

(** ** Finding: without the restriction to variables created by name the answer False is wrong *)
(** The formula is a conjunction of a cardinality constraint and two variables of the encoding of this constraint. The encoding
    constrains them, the formula does not. *)
Theorem C54_aux_refuted : exists orc cfg g alg fuel h x s', heuristics_ok orc /\ greachable orc cfg g /\ addable (x_fac (g_x g)) (x_known (g_x g)) fuel h /\
  denotes (x_fac (g_x g)) h x /\ satisfiable x /\ is_sat orc alg fuel h (x_fac (g_x g)) = (Ok false, s') /\ cap s'.
Proof.
  exists ex_orc, default_config, (mkG (mkX (x_fac ex_13) (x_known ex_13) (x_objs ex_13)) []), CnfFactorization, 200%nat, 75, (FAnd [ex_cc_tree; FLit (Lit (VAux AuxCC 0) true); FLit (Lit (VAux AuxCC 1) true)]),
    (snd (is_sat ex_orc CnfFactorization 200 75 (x_fac ex_13))).
  split; [exact ex_orc_ok |]. split.
  { apply (greplay_reach ex_orc default_config (x_fac ex_13) (x_known ex_13) (x_objs ex_13) []); [| reflexivity]. apply (replay_reach _ ex_r13). vm_compute. reflexivity. }
  split; [apply (addable_d_ok 10); vm_compute; reflexivity |]. split; [apply (tree_of_sound 10); vm_compute; reflexivity |].
  split; [exists (fun u => match u with VFF _ => false | _ => true end); reflexivity |]. split; [vm_compute; reflexivity | apply cap_b_ok; vm_compute; reflexivity].
Qed.
Print Assumptions C54_aux_refuted.
