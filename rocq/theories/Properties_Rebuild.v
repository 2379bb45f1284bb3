(** C65: stored formulas are found again, printed and read back, after any history that also restricts, substitutes, transforms, encodes and anonymizes. *)
From Coq Require Import Ascii String NArith ZArith Bool Arith Lia List.
From Verif Require Import Base EncodingModel Syntax FactoryModel FactoryInv FactoryBasics FactoryProofs FactorySpecs FactoryNary FactoryOps HashConsProofs EvalProofs HistoryModel HistoryProofs
  OpsModel WorldProofs XHistory XHistoryProofs XReplay Properties_Factory ParserModel ParserSpec ParserText ParserGrammar ParserRebuild ParserProofs IoModel IoSpec IoProofs
  Properties_Trans Properties_Parser XFrame XRebuild.
Import ListNotations.
Local Open Scope list_scope.
Local Open Scope N_scope.

Lemma xreach_facts : forall cfg s known os h, xreachable cfg s known os -> In h known -> wf s /\ vh s h /\ pinv s.
Proof.
  intros cfg s known os h Hr Hin. destruct (xreachable_ok cfg s known os Hr) as [W [Hi [Hk _]]]. pose proof (xreachable_pinv cfg s known os Hr) as Hp. cbn [x_fac x_known] in *. rewrite Forall_forall in Hk.
  destruct (Hk h Hin) as [x [Hv _]]. split; [apply Hi |]. auto.
Qed.

(** The call that builds a formula again from its operands. *)
Definition rebuild (n : node) : option (M N) :=
  match n with
  | NAnd ops => Some (f_and ops)
  | NOr ops => Some (f_or ops)
  | NImpl l r => Some (f_implication l r)
  | NEquiv l r => Some (f_equivalence l r)
  | _ => None
  end.

(** It returns the same handle and leaves the factory unchanged. *)
Theorem C65_rebuild : forall cfg s known os h n m, xreachable cfg s known os -> In h known -> unpack s h = Ok n -> rebuild n = Some m -> m s = (Ok h, s).
Proof.
  intros cfg s known os h n m Hr Hin Hu Hm. destruct (xreach_facts cfg s known os h Hr Hin) as [Hw [Hv Hp]].
  destruct n as [| | l | a | ops | ops | l r | l r | c | p]; cbn [rebuild] in Hm; try discriminate; injection Hm as <-.
  - exact (proj1 (nary_stored s true h ops Hw Hv Hu)).
  - exact (proj1 (nary_stored s false h ops Hw Hv Hu)).
  - apply (implication_stored s h l r Hw Hp Hv Hu).
  - apply (equivalence_stored s h l r Hw Hp Hv Hu).
Qed.
Print Assumptions C65_rebuild.

(** The printed text is parsed to the same handle. *)
Theorem C65_print_parse : forall cfg s known os h x fid fuel n, xreachable cfg s known os -> In h known -> denotes s h x ->
  right_nested x -> numbers_ok x -> names_ok fid (vt_vec (t_vars (f_tabs s))) x -> id_ok fid x -> (depth x < fuel)%nat -> (S (depth x) < n)%nat ->
  exists t, to_string fid fuel s h = Ok t /\ parse fid n t s = (Ok (Some h), s).
Proof.
  intros cfg s known os h x fid fuel n Hr Hin Hd H1 H2 H3 H4 H5 H6. destruct (xreach_facts cfg s known os h Hr Hin) as [Hw [Hv Hp]].
  apply (print_parse fid s Hw Hp x h fuel n); auto. apply (vars_read fid s h x); auto.
Qed.
Print Assumptions C65_print_parse.

(** The written file is read back to the same handle. *)
Theorem C65_write_read : forall cfg s known os h x fid fuel n, xreachable cfg s known os -> In h known -> denotes s h x ->
  right_nested x -> numbers_ok x -> names_ok fid (vt_vec (t_vars (f_tabs s))) x -> id_ok fid x -> (depth x < fuel)%nat -> (S (depth x) < n)%nat ->
  exists t, write_formula fid fuel s h = Ok t /\ read_formula fid n t s = (Ok h, s).
Proof.
  intros cfg s known os h x fid fuel n Hr Hin Hd H1 H2 H3 H4 H5 H6. destruct (xreach_facts cfg s known os h Hr Hin) as [Hw [Hv Hp]].
  apply (write_read fid s Hw Hp x h fuel n); auto. apply (vars_read fid s h x); auto.
Qed.
Print Assumptions C65_write_read.

(** After a normal form, both encoders with a kept state, an anonymizer and both factorizations: the formula is a disjunction with an equivalence and an implication below. *)
Example C65_ex : xreachable default_config (x_fac ex_u) (x_known ex_u) (x_objs ex_u) /\ In 12 (x_known ex_u) /\ In 14 (x_known ex_u) /\ In 15 (x_known ex_u)
  /\ denotes (x_fac ex_u) 12 ex_f /\ right_nested ex_f /\ numbers_ok ex_f /\ id_ok fid0 ex_f /\ depth ex_f = 4%nat
  /\ unpack (x_fac ex_u) 12 = Ok (NOr [77; 11]) /\ f_or [77; 11] (x_fac ex_u) = (Ok 12, x_fac ex_u)
  /\ unpack (x_fac ex_u) 14 = Ok (NImpl 163 35) /\ f_implication 163 35 (x_fac ex_u) = (Ok 14, x_fac ex_u)
  /\ unpack (x_fac ex_u) 15 = Ok (NEquiv 11 14) /\ f_equivalence 11 14 (x_fac ex_u) = (Ok 15, x_fac ex_u)
  /\ to_string fid0 5 (x_fac ex_u) 12 = Ok (tx "~(A & B <=> C => A) | A & B")
  /\ parse fid0 6 (tx "~(A & B <=> C => A) | A & B") (x_fac ex_u) = (Ok (Some 12), x_fac ex_u).
Proof.
  split; [apply ex_u_reach |]. split; [apply mem_in; vm_compute; reflexivity |]. split; [apply mem_in; vm_compute; reflexivity |]. split; [apply mem_in; vm_compute; reflexivity |].
  split; [apply ex_u_den |]. split; [vm_compute; tauto |]. split; [vm_compute; tauto |]. split.
  { intros a i _. constructor; [right; vm_compute; split; discriminate | ]. constructor; [left; vm_compute; split; discriminate | ]. constructor. }
  split; [vm_compute; reflexivity |]. do 7 (split; [vm_compute; reflexivity |]). vm_compute; reflexivity.
Qed.
