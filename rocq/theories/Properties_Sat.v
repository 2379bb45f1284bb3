(** C33, C34: the answers of the SAT solver. *)
From Coq Require Import List Arith ZArith NArith Bool Lia Permutation.
From Verif Require Import Base Vec HeapModel SatSpec SatModel SatBasics SatProp SatDb SatFront.
Import ListNotations.
Local Open Scope nat_scope.

(** ** Histories of calls *)
Inductive call :=
| NewVar (sign : bool)
| Add (c : list nat)
| Solve (assumptions : list nat).
(** The clauses that have been added. *)
Fixpoint added (cs : list call) : list (list nat) :=
  match cs with [] => [] | Add c :: r => c :: added r | _ :: r => added r end.
(** The number of variables. *)
Fixpoint vars_of (cs : list call) : nat := match cs with [] => 0 | NewVar _ :: r => S (vars_of r) | _ :: r => vars_of r end.
(** Every literal belongs to a variable which has been created before; the last call comes first. *)
Fixpoint wellformed (cs : list call) : Prop :=
  match cs with
  | [] => True
  | NewVar _ :: r => wellformed r
  | Add c :: r | Solve c :: r => (forall l, In l c -> Nat.div2 l < vars_of r) /\ wellformed r
  end.
(** One call. Answers are not used by the following calls. *)
Definition do_call (cfg : sconfig) (orc : oracle) (fuel : nat) (c : call) (st : solver) : res solver :=
  match c with
  | NewVar sign => do ' (_, s) <- new_var sign true st; Ok s
  | Add ps => do ' (_, s) <- add_clause cfg fuel ps st; Ok s
  | Solve a => do ' (_, s) <- solve_with_assumptions cfg orc fuel a st; Ok s
  end.
(** All calls, the last call comes first. *)
Fixpoint run (cfg : sconfig) (orc : oracle) (fuel : nat) (cs : list call) : res solver :=
  match cs with
  | [] => Ok solver_new
  | c :: r => do s <- run cfg orc fuel r; do_call cfg orc fuel c s
  end.

(** Heuristics are arbitrary, except that the sorting of the learnt clauses keeps the clauses. *)
Definition heuristics_ok (orc : oracle) : Prop := forall t l, Permutation (o_sort orc t l) l.
(** [ClauseMinimization::Basic] or [ClauseMinimization::Deep]. *)
Definition minimizing (cfg : sconfig) : Prop := g_min cfg = MinBasic \/ g_min cfg = MinDeep.

Lemma run_ok : forall cfg orc fuel, minimizing cfg -> heuristics_ok orc -> forall cs, wellformed cs ->
  rspec (run cfg orc fuel cs) (fun st => ginv (added cs) st /\ length (s_vars st) = vars_of cs).
Proof.
  intros cfg orc fuel Hm So. assert (Hm' : g_min cfg <> MinNone) by (destruct Hm; congruence).
  induction cs as [| c r IH]; intros W; cbn [run]; [split; [apply ginv_new | reflexivity] |]. destruct c as [sign | ps | a]; cbn [wellformed] in W.
  - eapply rspec_bind; [apply IH; exact W |]. intros s [G L]. destruct (new_var_ok _ sign s G) as (s2 & E & G2 & L2 & _). cbn [do_call]. rewrite E. cbn [rbind rspec]. split; [exact G2 | cbn; congruence].
  - destruct W as [W1 W]. eapply rspec_bind; [apply IH; exact W |]. intros s [G L]. cbn [do_call]. eapply rspec_bind.
    + apply (add_clause_ok cfg (added r)); [exact G |]. intros l Hl. apply lvar_lt. rewrite L. apply W1. exact Hl.
    + intros [b s2] (G2 & L2 & _). cbn. cbn in *. split; [exact G2 | congruence].
  - destruct W as [W1 W]. eapply rspec_bind; [apply IH; exact W |]. intros s [G L]. cbn [do_call]. eapply rspec_bind.
    + apply (solve_ok cfg orc (added r)); auto. intros l Hl. apply lvar_lt. rewrite L. apply W1. exact Hl.
    + intros [b s2] (G2 & L2 & _). cbn. cbn in *. split; [exact G2 | congruence].
Qed.
Lemma solve_spec : forall cfg orc fuel cs A st fuel2, minimizing cfg -> heuristics_ok orc -> wellformed (Solve A :: cs) -> run cfg orc fuel cs = Ok st ->
  rspec (solve_with_assumptions cfg orc fuel2 A st) (answered (added cs) A st).
Proof.
  intros cfg orc fuel cs A st fuel2 Hm So W R. cbn [wellformed] in W. destruct W as [W1 W2]. pose proof (run_ok cfg orc fuel Hm So cs W2) as H. rewrite R in H. destruct H as [G L].
  apply solve_ok; auto; [destruct Hm; congruence |]. intros a Ha. apply lvar_lt. rewrite L. apply W1. exact Ha.
Qed.

(** ** C33 *)
(** If the solver answers True then the stored model satisfies every clause that has been added and every assumption:
    for every sequence of calls, all heuristics and all settings. *)
Theorem C33_model : forall cfg orc fuel cs A st fuel2 st',
  minimizing cfg -> heuristics_ok orc -> wellformed (Solve A :: cs) -> run cfg orc fuel cs = Ok st ->
  solve_with_assumptions cfg orc fuel2 A st = Ok (true, st') ->
  all_true (fun v => nth v (s_model st') false) (added cs ++ unit_clauses A).
Proof.
  intros cfg orc fuel cs A st fuel2 st' Hm So W R E. pose proof (solve_spec cfg orc fuel cs A st fuel2 Hm So W R) as H. rewrite E in H. destruct H as (_ & _ & H1 & H2 & _). cbn [fst snd] in *.
  intros c Hc. apply in_app_or in Hc. destruct Hc as [Hc | Hc]; [apply H1; exact Hc |]. apply in_map_iff in Hc. destruct Hc as (a & <- & Ha). exists a. split; [left; auto | apply H2; exact Ha].
Qed.
Print Assumptions C33_model.
(** The model has a value for every variable. *)
Theorem C33_model_total : forall cfg orc fuel cs A st fuel2 st',
  minimizing cfg -> heuristics_ok orc -> wellformed (Solve A :: cs) -> run cfg orc fuel cs = Ok st ->
  solve_with_assumptions cfg orc fuel2 A st = Ok (true, st') -> length (s_model st') = vars_of cs.
Proof.
  intros cfg orc fuel cs A st fuel2 st' Hm So W R E. pose proof (solve_spec cfg orc fuel cs A st fuel2 Hm So W R) as H. rewrite E in H. destruct H as (_ & _ & _ & _ & H & _). cbn [fst snd] in *.
  rewrite H. cbn [wellformed] in W. pose proof (run_ok cfg orc fuel Hm So cs (proj2 W)) as K. rewrite R in K. apply K.
Qed.
Print Assumptions C33_model_total.
(** No call panics. *)
Theorem C33_no_panic : forall cfg orc fuel cs, minimizing cfg -> heuristics_ok orc -> wellformed cs -> run cfg orc fuel cs <> Panic.
Proof. intros cfg orc fuel cs Hm So W E. pose proof (run_ok cfg orc fuel Hm So cs W) as H. rewrite E in H. exact H. Qed.
Print Assumptions C33_no_panic.

(** ** C34 *)
(** If the solver answers False then no assignment satisfies the added clauses and the assumptions. *)
Theorem C34_unsat : forall cfg orc fuel cs A st fuel2 st',
  minimizing cfg -> heuristics_ok orc -> wellformed (Solve A :: cs) -> run cfg orc fuel cs = Ok st ->
  solve_with_assumptions cfg orc fuel2 A st = Ok (false, st') ->
  ~ exists V, all_true V (added cs ++ unit_clauses A).
Proof.
  intros cfg orc fuel cs A st fuel2 st' Hm So W R E (V & HV). pose proof (solve_spec cfg orc fuel cs A st fuel2 Hm So W R) as H. rewrite E in H. destruct H as (_ & _ & H1 & H2 & _). cbn [fst snd] in *.
  destruct (H1 V) as (l & Hl & Tl); [intros c Hc; apply HV, in_or_app; auto |]. specialize (H2 l Hl).
  destruct (HV [lneg l]) as (x & [<- | []] & Tx); [apply in_or_app; right; apply in_map_iff; eauto |]. now apply lit_true_neg in Tx.
Qed.
Print Assumptions C34_unsat.
(** The conflict clause follows from the added clauses and contains only negated assumptions. If it is empty then the
    added clauses alone are unsatisfiable. *)
Theorem C34_conflict : forall cfg orc fuel cs A st fuel2 st',
  minimizing cfg -> heuristics_ok orc -> wellformed (Solve A :: cs) -> run cfg orc fuel cs = Ok st ->
  solve_with_assumptions cfg orc fuel2 A st = Ok (false, st') ->
  entails (added cs) (s_conflict st') /\
  forall l, In l (s_conflict st') -> exists a, In a A /\ Nat.div2 a = Nat.div2 l /\ Nat.odd a = negb (Nat.odd l).
Proof.
  intros cfg orc fuel cs A st fuel2 st' Hm So W R E. pose proof (solve_spec cfg orc fuel cs A st fuel2 Hm So W R) as H. rewrite E in H. destruct H as (_ & _ & H1 & H2 & _). cbn [fst snd] in *.
  split; [exact H1 |]. intros l Hl. exists (lneg l). split; [apply H2; exact Hl |]. split; [apply lneg_var | apply lneg_sign].
Qed.
Print Assumptions C34_conflict.
(** If [add_clause] answers False then the added clauses are unsatisfiable. *)
Theorem C34_add : forall cfg orc fuel cs c st fuel2 st',
  minimizing cfg -> heuristics_ok orc -> wellformed (Add c :: cs) -> run cfg orc fuel cs = Ok st ->
  add_clause cfg fuel2 c st = Ok (false, st') -> ~ exists V, all_true V (c :: added cs).
Proof.
  intros cfg orc fuel cs c st fuel2 st' Hm So W R E (V & HV). cbn [wellformed] in W. destruct W as [W1 W2]. pose proof (run_ok cfg orc fuel Hm So cs W2) as H. rewrite R in H. destruct H as [G L].
  pose proof (add_clause_ok cfg (added cs) fuel2 c st G) as H. rewrite E in H. destruct H as (G2 & _ & O); [intros l Hl; apply lvar_lt; rewrite L; apply W1; exact Hl |]. cbn [fst snd] in *.
  pose proof (g_db _ _ G2) as D. rewrite <- O in D. destruct D as [En _]. destruct (En V HV) as (l & [] & _).
Qed.
Print Assumptions C34_add.

(** ** Examples *)
Definition ex_orc : oracle := mkO (fun _ v => Z.of_nat v) (fun _ => 2) (fun _ => false) (fun _ => true) (fun _ l => rev l) (fun _ _ => true) (fun _ c d => c =? d).
Definition ex_cfg : sconfig := mkCfg MinDeep false true false.
(** Three pigeons, two holes: variable [2 * p + h]; without the last clause it is satisfiable. *)
Definition ex_php : list (list nat) :=
  [[0; 2]; [4; 6]; [8; 10]; [1; 5]; [1; 9]; [5; 9]; [3; 7]; [3; 11]; [7; 11]].
Definition ex_vars (n : nat) : list call := repeat (NewVar true) n.
Definition ex_sat : list call := Solve [0] :: map Add (tl ex_php) ++ ex_vars 6.
Definition ex_unsat : list call := Solve [0] :: map Add ex_php ++ ex_vars 6.
Example ex_orc_ok : heuristics_ok ex_orc.
Proof. intros t l. apply Permutation_sym, Permutation_rev. Qed.
Definition answer_of (r : res (bool * solver)) := match r with Ok (b, s) => Some (b, s_model s, s_conflict s) | _ => None end.
Definition ask (cfg : sconfig) (orc : oracle) (fuel : nat) (cs : list call) (a : list nat) := rbind (run cfg orc fuel cs) (solve_with_assumptions cfg orc fuel a).
Lemma ask_split : forall cfg orc fuel cs a b s, ask cfg orc fuel cs a = Ok (b, s) -> exists st, run cfg orc fuel cs = Ok st /\ solve_with_assumptions cfg orc fuel a st = Ok (b, s).
Proof. unfold ask. intros cfg orc fuel cs a b s E. destruct (run cfg orc fuel cs) as [st | |]; try discriminate. eauto. Qed.
Lemma answer_get : forall cfg orc fuel cs a b m c, answer_of (ask cfg orc fuel cs a) = Some (b, m, c) ->
  exists st s, run cfg orc fuel cs = Ok st /\ solve_with_assumptions cfg orc fuel a st = Ok (b, s) /\ s_model s = m /\ s_conflict s = c.
Proof.
  intros cfg orc fuel cs a b m c H. destruct (ask cfg orc fuel cs a) as [[b' s] | |] eqn:E; cbn in H; try discriminate. inversion H; subst.
  destruct (ask_split _ _ _ _ _ _ _ E) as (st & R & So). exists st, s. auto.
Qed.
(** A decision procedure for [wellformed]. *)
Fixpoint wfb (cs : list call) : bool :=
  match cs with
  | [] => true
  | NewVar _ :: r => wfb r
  | Add c :: r | Solve c :: r => forallb (fun l => Nat.div2 l <? vars_of r) c && wfb r
  end.
Lemma wfb_ok : forall cs, wfb cs = true -> wellformed cs.
Proof.
  induction cs as [| [s | c | c] r IH]; cbn [wfb wellformed]; intros H; auto; apply andb_true_iff in H; destruct H as [H1 H2]; (split; [| auto]);
    intros l Hl; rewrite forallb_forall in H1; specialize (H1 l Hl); now apply Nat.ltb_lt.
Qed.
(** The hypotheses of the theorems hold: a history with an earlier call under assumptions, restarts after two conflicts,
    and a reduction of the learnt clauses whenever possible. *)
Example ex_hypotheses : minimizing ex_cfg /\ heuristics_ok ex_orc /\ wellformed (Solve [0; 4] :: ex_sat) /\ wellformed (Solve [2] :: ex_unsat).
Proof. split; [right; reflexivity |]. split; [apply ex_orc_ok |]. split; apply wfb_ok; reflexivity. Qed.
Example ex_C33 : exists st st', run ex_cfg ex_orc 200 ex_sat = Ok st /\ solve_with_assumptions ex_cfg ex_orc 200 [6] st = Ok (true, st') /\
  s_model st' = [false; false; false; true; true; false].
Proof.
  assert (K : answer_of (ask ex_cfg ex_orc 200 ex_sat [6]) = Some (true, [false; false; false; true; true; false], [])) by (vm_compute; reflexivity).
  destruct (answer_get _ _ _ _ _ _ _ _ K) as (st & s & H1 & H2 & H3 & _). exists st, s. auto.
Qed.
Example ex_C34 : exists st st', run ex_cfg ex_orc 200 ex_sat = Ok st /\ solve_with_assumptions ex_cfg ex_orc 200 [4; 0] st = Ok (false, st') /\ s_conflict st' = [1].
Proof.
  assert (K : answer_of (ask ex_cfg ex_orc 200 ex_sat [4; 0]) = Some (false, [], [1])) by (vm_compute; reflexivity).
  destruct (answer_get _ _ _ _ _ _ _ _ K) as (st & s & H1 & H2 & _ & H3). exists st, s. auto.
Qed.
Example ex_C34_empty : exists st st', run ex_cfg ex_orc 200 ex_unsat = Ok st /\ solve_with_assumptions ex_cfg ex_orc 200 [2] st = Ok (false, st') /\ s_conflict st' = [].
Proof.
  assert (K : answer_of (ask ex_cfg ex_orc 200 ex_unsat [2]) = Some (false, [], [])) by (vm_compute; reflexivity).
  destruct (answer_get _ _ _ _ _ _ _ _ K) as (st & s & H1 & H2 & _ & H3). exists st, s. auto.
Qed.

(** ** Finding: [ClauseMinimization::None] *)
(** With [ClauseMinimization::None] lines 750-754 of minisat2.rs truncate the learnt clause to one literal: the learnt clause
    of the first call, [~x \/ ~y], becomes the unit clause [~y], and later calls are answered False although the clauses and the
    assumptions are satisfiable. *)
Definition ex_none : list call := Add [1] :: Solve [0; 2] :: Add [1; 3; 5] :: Add [1; 3; 4] :: ex_vars 3.
Theorem C34_no_minimization_refuted : exists cfg orc fuel cs A st st',
  g_min cfg = MinNone /\ heuristics_ok orc /\ wellformed (Solve A :: cs) /\ run cfg orc fuel cs = Ok st /\
  solve_with_assumptions cfg orc fuel A st = Ok (false, st') /\ exists V, all_true V (added cs ++ unit_clauses A).
Proof.
  exists (mkCfg MinNone false true false), ex_orc, 200, ex_none, [2].
  assert (K : answer_of (ask (mkCfg MinNone false true false) ex_orc 200 ex_none [2]) = Some (false, [], [3])) by (vm_compute; reflexivity).
  destruct (answer_get _ _ _ _ _ _ _ _ K) as (st & s & R & So & _). exists st, s. split; [reflexivity |]. split; [apply ex_orc_ok |]. split; [apply wfb_ok; reflexivity |]. split; [exact R |]. split; [exact So |].
  exists (fun v => v =? 1). intros c Hc. cbn in Hc. destruct Hc as [<- | [<- | [<- | [<- | []]]]].
  - exists 1. split; [left; auto | reflexivity].
  - exists 1. split; [left; auto | reflexivity].
  - exists 1. split; [left; auto | reflexivity].
  - exists 2. split; [left; auto | reflexivity].
Qed.
Print Assumptions C34_no_minimization_refuted.
