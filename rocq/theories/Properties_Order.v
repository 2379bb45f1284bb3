(** C56: the variable orderings for BDDs, in every state a factory can get into. *)
From Coq Require Import String.
From Coq Require Import NArith ZArith List Bool Arith Lia Sorted.
From Verif Require Import Base EncodingModel EncodingProofs Syntax FactoryModel FactoryInv FactoryBasics FactoryProofs FactoryOps EvalProofs HistoryModel OpsModel OpsProofs CcModel EncBasics
  CacheModel TransModel TreeSpec WorldProofs MetricsProofs EncodeProofs NnfProofs XHistory XHistoryProofs XReplay Properties_Factory Properties_Trans MiniModel MiniProofs OrderModel OrderProofs.
Import ListNotations.
Local Open Scope list_scope.
Local Open Scope N_scope.

(** The specification: the elements of a list in the order of their first occurrences. *)
Fixpoint first_occ (l : list var) : list var :=
  match l with [] => [] | a :: r => a :: filter (fun b => negb (var_eqb b a)) (first_occ r) end.
(** [a] stands before [b] in [l]. *)
Definition precedes (l : list var) (a b : var) : Prop := exists l1 l2, l = l1 ++ a :: l2 /\ In b l2.

Lemma filter_filter : forall A (f g : A -> bool) l, filter f (filter g l) = filter (fun a => g a && f a) l.
Proof. intros A f g. induction l as [| a l IH]; [reflexivity |]. cbn [filter]. destruct (g a); cbn [filter andb]; [destruct (f a); now rewrite IH | exact IH]. Qed.
Lemma fold_first_occ : forall l acc, fold_left add_new_var l acc = acc ++ filter (fun b => negb (existsb (var_eqb b) acc)) (first_occ l).
Proof.
  induction l as [| a l IH]; intros acc; cbn [fold_left first_occ filter]; [now rewrite app_nil_r |]. rewrite IH. unfold add_new_var.
  destruct (existsb (var_eqb a) acc) eqn:E; cbn [negb].
  - f_equal. rewrite filter_filter. apply filter_ext_in. intros b _. destruct (var_eqb b a) eqn:Eb; cbn [negb andb]; [| reflexivity]. apply var_eqb_spec in Eb. subst b. now rewrite E.
  - rewrite <- app_assoc. cbn [app]. do 2 f_equal. rewrite filter_filter. apply filter_ext_in. intros b _. rewrite existsb_app. cbn [existsb]. rewrite orb_false_r.
    destruct (var_eqb b a), (existsb (var_eqb b) acc); reflexivity.
Qed.
Lemma firsts_first_occ : forall l, firsts l = first_occ l.
Proof.
  intros l. unfold firsts. rewrite fold_first_occ. cbn [app existsb negb]. induction (first_occ l) as [| a r IH]; [reflexivity |]. cbn [filter]. now rewrite IH.
Qed.
Lemma idx_from_precedes : forall l k a b i j, idx_from k l a = Some i -> idx_from k l b = Some j -> (i <= j)%nat -> a <> b -> precedes l a b.
Proof.
  induction l as [| c l IH]; intros k a b i j Ha Hb Hij Hn; cbn [idx_from] in *; [discriminate |].
  destruct (var_eqb c a) eqn:Ea.
  - apply var_eqb_spec in Ea. subst c. exists [], l. split; [reflexivity |]. destruct (var_eqb a b) eqn:Eb; [apply var_eqb_spec in Eb; contradiction |].
    clear Ha Hij IH. revert k Hb. induction l as [| c l IH]; intros k Hb; cbn [idx_from] in Hb; [discriminate |].
    destruct (var_eqb c b) eqn:Ec; [apply var_eqb_spec in Ec; now left | right; eapply IH; eauto].
  - destruct (var_eqb c b) eqn:Eb.
    + injection Hb as <-. exfalso. clear - Ha Hij. assert (S k <= i)%nat; [| lia]. revert k Ha Hij. induction l as [| c l IH]; intros k Ha Hij; cbn [idx_from] in Ha; [discriminate |].
      destruct (var_eqb c a); [injection Ha as <-; lia |]. specialize (IH _ Ha). lia.
    + destruct (IH _ _ _ _ _ Ha Hb Hij Hn) as (l1 & l2 & -> & H). exists (c :: l1), l2. split; [reflexivity | assumption].
Qed.
Lemma sorted_refine : forall A (R Q : A -> A -> Prop) l, NoDup l -> StronglySorted R l -> (forall a b, a <> b -> R a b -> Q a b) -> StronglySorted Q l.
Proof.
  intros A R Q l Hn Hs HR. induction Hs as [| a l Hs IH Ha]; constructor; inversion Hn; subst; [auto |]. rewrite Forall_forall in *. intros b Hb. apply HR; [congruence | auto].
Qed.

(* ------------------------------------------------------------------------------------------------------------------ *)
(** * Depth first, breadth first, by occurrences *)

(** Depth first: the variables in the order in which they are read from left to right. *)
Theorem C56_dfs : forall cfg s known os h x fuel, xreachable cfg s known os -> In h known -> denotes s h x -> (depth x < fuel)%nat ->
  returns (dfs_ordering fuel h) s (fun r _ => r = first_occ (fvars x)).
Proof.
  intros cfg s known os h x fuel Hr Hin Hd Hf. destruct (known_hdl _ _ _ _ _ _ Hr Hin Hd) as [W [Hi [Hx _]]].
  eapply x_returns; [apply (dfs_spec fuel x W s h [] []); auto; apply Hx |]. intros r s' W' _ _ ->. cbn [app]. apply firsts_first_occ.
Qed.
Print Assumptions C56_dfs.
(** Breadth first: the variables level by level; a negative literal counts as a negation of its variable. *)
Theorem C56_bfs : forall cfg s known os h x fuel, xreachable cfg s known os -> In h known -> denotes s h x -> (2 * N.to_nat (nodes x) < fuel)%nat ->
  bfs_ordering fuel h s = (Ok (first_occ (level_order x)), s).
Proof.
  intros cfg s known os h x fuel Hr Hin Hd Hf. destruct (known_hdl _ _ _ _ _ _ Hr Hin Hd) as [W [Hi [Hx _]]].
  rewrite <- firsts_first_occ. eapply bfs_ordering_spec; eauto. apply Hx.
Qed.
Print Assumptions C56_bfs.
(** Both list every variable of the formula exactly once. *)
Theorem C56_once : forall l, NoDup (first_occ l) /\ forall u, In u (first_occ l) <-> In u l.
Proof. intros l. rewrite <- firsts_first_occ. split; [apply firsts_nodup | apply firsts_in]. Qed.
Print Assumptions C56_once.
Theorem C56_levels : forall x u, In u (level_order x) <-> In u (fvars x).
Proof. exact level_order_in. Qed.
Print Assumptions C56_levels.

(** By the number of occurrences, and variables with the same number in the depth-first order. *)
Definition by_occurrence (x : fml) (lt : N -> N -> Prop) (a b : var) : Prop :=
  lt (count_occ_var a (fvars x)) (count_occ_var b (fvars x)) \/ count_occ_var a (fvars x) = count_occ_var b (fvars x) /\ precedes (first_occ (fvars x)) a b.
Lemma occ_any : forall rev cfg s known os h x fuel, xreachable cfg s known os -> In h known -> denotes s h x -> (depth x < fuel)%nat ->
  returns (sort_ordering rev fuel h) s (fun r _ => NoDup r /\ (forall u, In u r <-> In u (fvars x)) /\
    StronglySorted (by_occurrence x (fun n m => if rev then m < n else n < m)) r).
Proof.
  intros rev cfg s known os h x fuel Hr Hin Hd Hf. destruct (known_hdl _ _ _ _ _ _ Hr Hin Hd) as [W [Hi [Hx _]]].
  eapply x_returns; [apply (sort_ordering_spec rev fuel x W s h); auto; apply Hx |]. intros r s' W' _ _ (H1 & H2 & H3). split; [assumption |]. split; [assumption |].
  eapply sorted_refine; [eassumption | exact H3 |]. intros a b Hab [H | (E & i & j & Hi1 & Hj & Hij)]; [left; destruct rev; exact H | right]. split; [exact E |].
  rewrite <- firsts_first_occ. eapply idx_from_precedes; eauto.
Qed.
Theorem C56_min_to_max : forall cfg s known os h x fuel, xreachable cfg s known os -> In h known -> denotes s h x -> (depth x < fuel)%nat ->
  returns (min_to_max_ordering fuel h) s (fun r _ => NoDup r /\ (forall u, In u r <-> In u (fvars x)) /\ StronglySorted (by_occurrence x N.lt) r).
Proof. exact (occ_any false). Qed.
Print Assumptions C56_min_to_max.
Theorem C56_max_to_min : forall cfg s known os h x fuel, xreachable cfg s known os -> In h known -> denotes s h x -> (depth x < fuel)%nat ->
  returns (max_to_min_ordering fuel h) s (fun r _ => NoDup r /\ (forall u, In u r <-> In u (fvars x)) /\ StronglySorted (by_occurrence x (fun n m => m < n)) r).
Proof. exact (occ_any true). Qed.
Print Assumptions C56_max_to_min.

(* ------------------------------------------------------------------------------------------------------------------ *)
(** * FORCE *)

(** It never panics; whenever it ends, the result has every variable once. *)
Theorem C56_force : forall cfg s known os h x alg rounds fuel, xreachable cfg s known os -> In h known -> denotes s h x -> con_free x = true -> (8 * depth x + 26 <= fuel)%nat ->
  cap (snd (force_ordering alg rounds fuel h s)) ->
  fst (force_ordering alg rounds fuel h s) = NoFuel \/
  exists r, fst (force_ordering alg rounds fuel h s) = Ok r /\ NoDup r /\ forall u, In u r <-> In u (fvars x).
Proof.
  intros cfg s known os h x alg rounds fuel Hr Hin Hd Hcf Hf Hc. destruct (known_hdl _ _ _ _ _ _ Hr Hin Hd) as [W [Hi [Hx _]]].
  destruct (force_ordering_spec alg rounds fuel x W s h Hi Hx (con_free_leaves _ _ Hcf) Hf Hc) as [E | (r & y & W' & E & Ry & Hn & Hu)]; [now left | right].
  exists r. split; [exact E |]. split; [exact Hn |]. intros u. rewrite Hu. destruct Ry as (_ & _ & Ry). destruct (Ry Hcf) as [_ Hy]. specialize (Hy u). tauto.
Qed.
Print Assumptions C56_force.
(** With constraints the variables of their encodings come in addition. *)
Theorem C56_force_constraints : forall cfg s known os h x alg rounds fuel, xreachable cfg s known os -> In h known -> denotes s h x -> encodable s x -> (8 * depth x + 26 <= fuel)%nat ->
  cap (snd (force_ordering alg rounds fuel h s)) ->
  fst (force_ordering alg rounds fuel h s) = NoFuel \/
  exists r, fst (force_ordering alg rounds fuel h s) = Ok r /\ NoDup r /\ forall u, In u (fvars x) -> In u r.
Proof.
  intros cfg s known os h x alg rounds fuel Hr Hin Hd He Hf Hc. destruct (known_hdl _ _ _ _ _ _ Hr Hin Hd) as [W [Hi [Hx _]]].
  destruct (force_ordering_spec alg rounds fuel x W s h Hi Hx He Hf Hc) as [E | (r & y & W' & E & _ & Hn & Hu)]; [now left | right].
  exists r. split; [exact E |]. split; [exact Hn |]. intros u H. apply Hu. now left.
Qed.
Print Assumptions C56_force_constraints.

(** It need not end: the rounding of the centers of gravity makes two orderings alternate. *)
Lemma force_loop_alternates : forall g a b, force_round g a = Ok b -> force_round g b = Ok a -> nats_eqb a b = false -> nats_eqb b a = false ->
  forall rounds, force_loop rounds g a = NoFuel /\ force_loop rounds g b = NoFuel.
Proof.
  intros g a b Ha Hb E E'. induction rounds as [| n [IH IH']]; [split; reflexivity |]. cbn [force_loop]. rewrite Ha, Hb. cbn [rbind]. rewrite E, E'. split; assumption.
Qed.
Lemma force_loops : forall alg fuel h s p, fst (force_prep alg fuel h s) = Ok p -> (forall rounds, force_loop rounds (fst (fst p)) (snd (fst p)) = NoFuel) ->
  forall rounds, fst (force_ordering alg rounds fuel h s) = NoFuel.
Proof.
  intros alg fuel h s p E H rounds. rewrite force_split. unfold bind. destruct (force_prep alg fuel h s) as [r s1]. cbn [fst] in E. subst r. unfold lift. cbn [fst]. rewrite H. reflexivity.
Qed.
Definition ex_pos (i : N) : fml := FLit (Lit (VFF i) true).
Definition ex_loop : list rstep :=
  map (fun n => RCall (XCall (CVariable n))) ["x0"; "x1"; "x2"; "x3"; "x4"; "x5"; "x6"; "x7"]%string
  ++ map (fun c => RCall (XCall (CClause (map (fun i => Lit (VFF i) true) c)))) [[1; 2; 0; 4; 3]; [2; 0; 1; 5; 6]; [6; 7; 0; 4; 1]]
  ++ [RCall (XCall (CNary true [12; 76; 140; 35; 163]))].
Definition ex_l : xstate := ex_of ex_loop.
Definition ex_ltree : fml := FAnd [FOr (map ex_pos [1; 2; 0; 4; 3]); FOr (map ex_pos [2; 0; 1; 5; 6]); FOr (map ex_pos [6; 7; 0; 4; 1]); ex_pos 0; ex_pos 2].
Definition ex_lgraph : hypergraph * list nat * list var := Eval vm_compute in match fst (force_prep CnfFactorization 60 11 (x_fac ex_l)) with Ok p => p | _ => (mkHg [] [], [], []) end.
Definition ex_lround (o : list nat) : list nat := match force_round (fst (fst ex_lgraph)) o with Ok o' => o' | _ => [] end.
Definition ex_l0 : list nat := Eval vm_compute in snd (fst ex_lgraph).
Definition ex_l1 : list nat := Eval vm_compute in ex_lround ex_l0.
Definition ex_l2 : list nat := Eval vm_compute in ex_lround ex_l1.
Theorem C56_force_ends_refuted : exists cfg s known os h x fuel, xreachable cfg s known os /\ In h known /\ denotes s h x /\ cnf_shape x = true /\ (8 * depth x + 26 <= fuel)%nat
  /\ forall rounds, fst (force_ordering CnfFactorization rounds fuel h s) = NoFuel.
Proof.
  exists default_config, (x_fac ex_l), (x_known ex_l), (x_objs ex_l), 11, ex_ltree, 60%nat.
  split; [apply (replay_reach _ ex_loop); vm_compute; reflexivity |]. split; [apply mem_in; vm_compute; reflexivity |].
  split; [apply (tree_of_sound 10); vm_compute; reflexivity |]. split; [vm_compute; reflexivity |]. split; [vm_compute; lia |].
  apply (force_loops _ _ _ _ ex_lgraph); [vm_compute; reflexivity |]. intros rounds.
  assert (E0 : snd (fst ex_lgraph) = ex_l0) by (vm_compute; reflexivity). rewrite E0.
  assert (E1 : force_round (fst (fst ex_lgraph)) ex_l0 = Ok ex_l1) by (vm_compute; reflexivity).
  destruct rounds as [| n]; [reflexivity |]. cbn [force_loop]. rewrite E1. cbn [rbind]. assert (N0 : nats_eqb ex_l0 ex_l1 = false) by (vm_compute; reflexivity). rewrite N0.
  apply (force_loop_alternates (fst (fst ex_lgraph)) ex_l1 ex_l2); vm_compute; reflexivity.
Qed.
Print Assumptions C56_force_ends_refuted.

(* ------------------------------------------------------------------------------------------------------------------ *)
(** * Examples *)

(** The formula of the unit tests of the code, with a negative literal. *)
Definition ex_order : list rstep :=
  map (fun n => RCall (XCall (CVariable n))) ["A"; "B"; "D"; "C"; "Y"; "X"; "W"; "F"]%string
  ++ map (fun c => RCall (XCall (CClause (map (fun i => Lit (VFF i) true) c)))) [[0; 1]; [2; 0]; [3; 0]; [2; 3]; [0; 4; 5]; [6; 4; 5]]
  ++ map (fun c => RCall (XCall (CClause (map (fun i => Lit (VFF (fst i)) (snd i)) c))))
       [[(0, false); (4, true); (5, true)]; [(7, true); (4, true); (5, true)]; [(5, true); (4, true)]; [(6, true); (0, true); (7, true); (4, true)]]
  ++ [RCall (XCall (CNary true (map (fun k => 12 + 64 * N.of_nat k) (seq 0 10))))].
Definition ex_o : xstate := ex_of ex_order.
Example C56_ex_state : xreachable default_config (x_fac ex_o) (x_known ex_o) (x_objs ex_o) /\ In 11 (x_known ex_o).
Proof. split; [apply (replay_reach _ ex_order); vm_compute; reflexivity | apply mem_in; vm_compute; reflexivity]. Qed.
Definition ex_names (r : res (list var)) : list N := match r with Ok l => map (fun v => match v with VFF i => i | _ => 99 end) l | _ => [] end.
Example C56_ex : ex_names (fst (dfs_ordering 20 11 (x_fac ex_o))) = [0; 1; 2; 3; 4; 5; 6; 7]
  /\ ex_names (fst (force_ordering CnfFactorization 10 60 11 (x_fac ex_o))) = [1; 2; 3; 0; 5; 4; 6; 7]
  /\ ex_names (fst (dfs_ordering 20 11 (x_fac ex_l))) = [1; 2; 0; 4; 3; 5; 6; 7] /\ ex_names (fst (bfs_ordering 60 11 (x_fac ex_l))) = [0; 2; 1; 4; 3; 5; 6; 7]
  /\ ex_names (fst (min_to_max_ordering 60 11 (x_fac ex_l))) = [3; 5; 7; 4; 6; 1; 2; 0] /\ ex_names (fst (max_to_min_ordering 60 11 (x_fac ex_l))) = [0; 1; 2; 4; 6; 3; 5; 7].
Proof. vm_compute. repeat split. Qed.
