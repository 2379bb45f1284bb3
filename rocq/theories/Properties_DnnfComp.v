(** C55: the compilation of a formula to DNNF. *)
From Coq Require Import String.
From Coq Require Import NArith ZArith List Bool Arith Lia.
From Verif Require Import Base EncodingModel EncodingProofs Syntax FactoryModel FactoryInv FactoryBasics FactoryProofs FactoryOps EvalProofs HistoryModel OpsProofs CcModel EncBasics CcFrontProofs
  CacheModel TransModel TreeSpec WorldProofs MetricsProofs EncodeProofs NnfProofs DefBasics XHistory XHistoryProofs XReplay Properties_Trans
  SatModel SatSpec SatProp MiniModel OptModel Properties_Sat PgSolverModel BbSimpModel SatPredModel PgHistory PgTakeProofs BbSimpProofs PgHistoryProofs PgReplay Properties_PgSolver
  DnnfModel DnnfSpec DnnfCompModel DnnfCompMain Properties_BbSimp.
Import ListNotations.
Local Open Scope N_scope.

(** ** Finding: the result need not be equivalent to the formula *)
(** 20 variables, 26 clauses. *)
Open Scope string_scope.
Definition wit_names : list string :=
  ["v00"; "v01"; "v02"; "v03"; "v04"; "v05"; "v06"; "v07"; "v08"; "v09"; "v10"; "v11"; "v12"; "v13"; "v14"; "v15"; "v16"; "v17"; "v18"; "v19"].
Close Scope string_scope.
(** [2 * i] is the variable [i], [2 * i + 1] its negation. *)
Definition wit_lit (l : N) : lit := Lit (VFF (l / 2)) (N.even l).
Definition wit_cnf : list (list N) :=
  [[0; 2; 5]; [6; 1; 5; 9]; [10; 13]; [14; 11]; [1; 17]; [18; 21; 23]; [24; 27]; [28; 30; 33]; [22; 5]; [2; 16; 15]; [0; 10]; [30; 34]; [32; 36];
   [6; 15; 31]; [8; 12]; [0; 6; 39]; [34; 38]; [25; 39]; [20; 39]; [23; 27]; [34; 3; 7]; [24; 38]; [28; 19]; [36; 3; 11; 35]; [10; 24]; [36; 13]].
Definition wit_steps : list rstep :=
  map (fun n => RCall (XCall (CVariable n))) wit_names ++ map (fun c => RCall (XCall (CClause (map wit_lit c)))) wit_cnf
  ++ [RCall (XCall (CNary true (map (fun k => 12 + 64 * N.of_nat k) (seq 0 26))))].
Definition wit_x : xstate := ex_of wit_steps.
Definition wit_ord (a : list lit) (n : nat) (l : list nat) : list nat := l.
Definition wit_run : res dnnf_formula * factory := compile_dnnf ex_orc CnfFactorization [] wit_ord 100 200 400 11 (x_fac wit_x).
Definition wit_h : N := match fst wit_run with Ok d => dn_formula d | _ => 0 end.
Definition wit_d : dnnf_formula := mkDnnf wit_h (map (fun k => VFF (N.of_nat k)) (seq 0 20)).
Definition wit_tree (s : factory) (h : N) : fml := match tree_of 60 s h with Some y => y | None => FTrue end.
(** A model of the formula. *)
Definition wit_val (u : var) : bool := match u with VFF i => existsb (N.eqb i) [0; 1; 4; 7; 9; 10; 11; 12; 14; 16; 17] | VAux _ _ => false end.
Lemma wit_tree_ok : forall s h, match tree_of 60 s h with Some _ => true | None => false end = true -> denotes s h (wit_tree s h).
Proof. intros s h H. apply (tree_of_sound 60). unfold wit_tree. destruct (tree_of 60 s h); [reflexivity | discriminate]. Qed.
Lemma wit_named : forall x, forallb (fun u => match u with VFF _ => true | _ => false end) (fvars x) = true -> over_named x.
Proof. intros x H u Hu. rewrite forallb_forall in H. specialize (H u Hu). destruct u as [i | a i]; [now exists i | discriminate]. Qed.

(** There is a formula in conjunctive normal form over variables created by name whose compilation is false under one of its
    models. The compiler stores the result of [cnf2ddnnf] in its cache also if in the call a clause has been learnt and the call
    repeated; the literals of the current decision level that are added then need not hold at the next use of the cache. *)
Theorem C55_refuted : exists orc cfg g alg fid ord rounds depth fuel h x d s' y v, heuristics_ok orc /\ greachable orc cfg g /\ In h (x_known (g_x g)) /\
  denotes (x_fac (g_x g)) h x /\ over_named x /\ compile_dnnf orc alg fid ord rounds depth fuel h (x_fac (g_x g)) = (Ok d, s') /\ cap s' /\
  denotes s' (dn_formula d) y /\ sem v x = true /\ sem v y = false.
Proof.
  assert (G : forall s kn os (r : res dnnf_formula * factory) h y1 d y2,
    greachable ex_orc default_config (mkG (mkX s kn os) []) -> In h kn -> denotes s h y1 -> over_named y1 ->
    r = compile_dnnf ex_orc CnfFactorization [] wit_ord 100 200 400 h s -> fst r = Ok d -> cap (snd r) -> denotes (snd r) (dn_formula d) y2 ->
    sem wit_val y1 = true -> sem wit_val y2 = false -> 
    exists orc cfg g alg fid ord rounds depth fuel h x d s' y v, heuristics_ok orc /\ greachable orc cfg g /\ In h (x_known (g_x g)) /\
  denotes (x_fac (g_x g)) h x /\ over_named x /\ compile_dnnf orc alg fid ord rounds depth fuel h (x_fac (g_x g)) = (Ok d, s') /\ cap s' /\
  denotes s' (dn_formula d) y /\ sem v x = true /\ sem v y = false).
  { intros s kn os r h y1 d y2 H1 H2 H3 H4 H5 H6 H7 H8 H9 H10.
    exists ex_orc, default_config, (mkG (mkX s kn os) []), CnfFactorization, [], wit_ord, 100%nat, 200%nat, 400%nat, h, y1, d, (snd r), y2, wit_val.
    split; [exact ex_orc_ok |]. split; [exact H1 |]. split; [exact H2 |]. split; [exact H3 |]. split; [exact H4 |].
    split; [cbn [g_x x_fac]; rewrite <- H5, <- H6; destruct r; reflexivity |]. repeat (split; [assumption |]). assumption. }
  apply (G (x_fac wit_x) (x_known wit_x) (x_objs wit_x) wit_run 11 (wit_tree (x_fac wit_x) 11) wit_d (wit_tree (snd wit_run) wit_h)).
  - apply (greplay_reach ex_orc default_config (x_fac wit_x) (x_known wit_x) (x_objs wit_x) []); [| reflexivity]. apply (replay_reach _ wit_steps). vm_compute. reflexivity.
  - vm_compute. left. reflexivity.
  - apply wit_tree_ok. vm_compute. reflexivity.
  - apply wit_named. vm_compute. reflexivity.
  - reflexivity.
  - vm_compute. reflexivity.
  - apply cap_b_ok. vm_compute. reflexivity.
  - apply wit_tree_ok. vm_compute. reflexivity.
  - vm_compute. reflexivity.
  - vm_compute. reflexivity.
Qed.
Print Assumptions C55_refuted.

(** ** Runs without a conflict *)
(** What is missing to the full statement: runs in which the solver has a conflict (see [C55_refuted]), formulas that are not in
    conjunctive normal form or have a forced literal that is not a clause, and formulas with other variables. *)
Definition satisfiable (x : fml) : Prop := exists v, sem v x = true.
(** The clauses of a formula in conjunctive normal form. *)
Definition clauses (x : fml) : list fml := match x with FAnd l => l | _ => [x] end.
(** Every literal that is true in all models is a clause. *)
Definition backbone_explicit (x : fml) : Prop := forall l, (forall v, sem v x = true -> lit_sem v l = true) -> In (FLit l) (clauses x).

(** The result of [DnnfCompiler::new(cnf, f).compile()] is equivalent to the formula, and deterministic and decomposable, in all runs
    in which no decision of the solver leads to a conflict. *)
Theorem C55_compile_partial : forall orc cfg g alg fid depth fuel h x r s', heuristics_ok orc -> greachable orc cfg g -> In h (x_known (g_x g)) ->
  denotes (x_fac (g_x g)) h x -> cnf_shape x = true -> over_named x -> (satisfiable x -> backbone_explicit x) -> room fuel x ->
  dnnf_compile orc alg fid depth fuel h (x_fac (g_x g)) = (Ok r, s') -> cap s' -> ds_confl (snd r) = 0%nat ->
  exists y, denotes s' (fst r) y /\ denotes s' h x /\ (forall v, sem v y = sem v x) /\ (satisfiable x -> dnnf y) /\ incl (fvars y) (fvars x).
Proof.
  intros orc cfg g alg fid depth fuel h x r s' So Hr Hh Hd Hx Hn Hu Hro E Hc Hz. destruct (reach_handle orc cfg g h x So Hr Hh Hd) as (W & Hi & Hhx).
  destruct (dnnf_compile_ok orc alg fid depth fuel So W _ h x r s' Hi Hhx Hx Hn Hro Hu E Hc Hz) as (W' & y & Hi' & _ & He & Hy & Sy & Dy & Vy & _). exists y. split; [apply Hy |]. split; [apply (hdl_ext _ _ _ _ He Hhx) |]. auto.
Qed.
Print Assumptions C55_compile_partial.

(** Five clauses over [a .. f], one of them the literal [f]; the tree of the compiler has separators, decisions are taken. *)
Open Scope string_scope.
Definition ex_c_steps : list rstep :=
  map (fun n => RCall (XCall (CVariable n))) ["a"; "b"; "c"; "d"; "e"; "f"]
  ++ map (fun c => RCall (XCall (CClause (map wit_lit c)))) [[0; 3]; [2; 5; 8]; [4; 7]; [6; 1; 9]]
  ++ [RCall (XCall (CNary true (355 :: map (fun k => 12 + 64 * N.of_nat k) (seq 0 4))))].
Close Scope string_scope.
Definition ex_cx : xstate := ex_of ex_c_steps.
Definition ex_c_run : res (N * dsolver) * factory := dnnf_compile ex_orc CnfFactorization [] 200 400 11 (x_fac ex_cx).
Definition ex_c_res : N * dsolver := match fst ex_c_run with Ok r => r | _ => (0, ds_new) end.
Definition ex_c_tree : fml := wit_tree (x_fac ex_cx) 11.
Lemma ex_c_backbone : backbone_explicit ex_c_tree.
Proof.
  intros [u p] H. pose proof (H (fun _ => true) ltac:(vm_compute; reflexivity)) as H1.
  pose proof (H (fun u => match u with VFF i => i =? 5 | _ => false end) ltac:(vm_compute; reflexivity)) as H2.
  destruct p; [| discriminate H1]. destruct u as [i | a i]; [| discriminate H2]. cbn in H2. apply N.eqb_eq in H2. subst i. vm_compute. left. reflexivity.
Qed.
Example C55_compile_ex : greachable ex_orc default_config (mkG (mkX (x_fac ex_cx) (x_known ex_cx) (x_objs ex_cx)) []) /\ In 11 (x_known ex_cx) /\ denotes (x_fac ex_cx) 11 ex_c_tree /\
  cnf_shape ex_c_tree = true /\ over_named ex_c_tree /\ satisfiable ex_c_tree /\ backbone_explicit ex_c_tree /\ room 400 ex_c_tree /\
  ex_c_run = (Ok ex_c_res, snd ex_c_run) /\ cap (snd ex_c_run) /\ ds_confl (snd ex_c_res) = 0%nat /\
  wit_tree (snd ex_c_run) (fst ex_c_res) <> ex_c_tree.
Proof.
  split. { apply (greplay_reach ex_orc default_config (x_fac ex_cx) (x_known ex_cx) (x_objs ex_cx) []); [| reflexivity]. apply (replay_reach _ ex_c_steps). vm_compute. reflexivity. }
  split; [vm_compute; left; reflexivity |]. split; [apply wit_tree_ok; vm_compute; reflexivity |]. split; [vm_compute; reflexivity |].
  split; [apply wit_named; vm_compute; reflexivity |]. split; [exists (fun _ => true); vm_compute; reflexivity |]. split; [exact ex_c_backbone |].
  split; [split; apply Nat.leb_le; vm_compute; reflexivity |].
  split. { assert (E : fst ex_c_run = Ok ex_c_res) by (vm_compute; reflexivity). rewrite <- E. apply surjective_pairing. }
  split; [apply cap_b_ok; vm_compute; reflexivity |].
  split; [vm_compute; reflexivity |]. vm_compute. discriminate.
Qed.
