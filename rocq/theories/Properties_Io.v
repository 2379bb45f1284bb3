(** C50, C51: reading DIMACS files; writing and reading formulas. *)
From Coq Require Import Ascii String NArith ZArith List Bool Lia.
From Verif Require Import Base EncodingModel EncodingProofs Syntax FactoryModel FactoryInv FactoryBasics FactoryProofs FactorySpecs FactoryNary FactoryOps
  HistoryModel HistoryProofs EvalProofs OpsModel ParserModel ParserSpec ParserProofs ParserRebuild IoModel IoSpec IoProofs XReplay
  Properties_Factory Properties_Parser.
Import ListNotations.
Local Open Scope list_scope.
Local Open Scope N_scope.

(** [h] denotes a formula whose value is [S val] under every valuation that gives each named variable the value [val] of its name. *)
Definition means_by_name (s : factory) (h : N) (S : (string -> bool) -> bool) : Prop :=
  exists y, denotes s h y /\ forall (v : valuation) (val : string -> bool),
    (forall i n, nthN (vt_vec (t_vars (f_tabs s))) i = Some n -> v (VFF i) = val n) -> sem v y = S val.

(** Reading a well-formed file gives one handle per clause line, in order, and each means the disjunction of the literals of its line. *)
Theorem C50_read_cnf : forall cfg s known prefix ls final, reachable cfg s known ->
  Forall (fun p => dline_ok (fst p)) ls -> (forall l, final = Some l -> dline_ok l) ->
  returns (read_cnf_with_prefix prefix (dfile_text ls final)) s (fun hs s' =>
    Forall2 (fun c h => means_by_name s' h (fun val => clause_value val prefix c))
      (clauses (map fst ls ++ match final with Some l => [l] | None => [] end)) hs
    /\ (forall h x, In h known -> denotes s h x -> denotes s' h x)).
Proof.
  intros cfg s known prefix ls final Hr H1 H2. destruct (reachable_wf cfg s known Hr) as [Hw _].
  destruct (dfile_lines ls final H1 H2) as [ds [E HF]]. unfold read_cnf_with_prefix.
  pose proof (dimacs_lines_spec prefix ds _ HF s Hw) as [_ Hs]. intros Hc. destruct (Hs Hc) as [hs [R [_ [Hcore Q]]]]. exists hs. split; [exact R |].
  rewrite E in Q. split.
  - clear - Q. induction Q as [| c h cs hs [_ [y [Hy Hsem]]] _ IH]; constructor; [exists y; split; assumption | exact IH].
  - intros h x _ Hx. eapply denotes_ext; [apply core_ext; exact Hcore | exact Hx].
Qed.
Print Assumptions C50_read_cnf.

Local Open Scope string_scope.
Local Open Scope list_scope.
(** Deciding the conditions on clause lines, for the examples. *)
Definition clause_ok_b (lead : text) (ls : list (bool * text * text)) : bool :=
  forallb is_blank lead && forallb (fun p => negb (is_nil (snd (fst p))) && forallb is_digit (snd (fst p)) && negb (is_nil (snd p)) && forallb is_blank (snd p)) ls.
Lemma blanks_ok : forall t, forallb is_blank t = true -> Forall blank t.
Proof. intros t H. rewrite forallb_forall in H. apply Forall_forall. intros c Hc. apply blank_iff. auto. Qed.
Lemma clause_ok_b_ok : forall lead ls, clause_ok_b lead ls = true -> dline_ok (DClause lead ls).
Proof.
  intros lead ls H. apply andb_true_iff in H. destruct H as [H1 H2]. split; [apply blanks_ok; exact H1 |]. rewrite forallb_forall in H2. apply Forall_forall.
  intros [[neg d] sp] Hp. specialize (H2 _ Hp). cbn [fst snd] in *. rewrite !andb_true_iff in H2. destruct H2 as [[[H3 H4] H5] H6].
  split; [destruct d; [discriminate | discriminate] |]. split; [| split; [destruct sp; discriminate | apply blanks_ok; exact H6]].
  rewrite forallb_forall in H4. apply Forall_forall. intros c Hc. specialize (H4 c Hc). unfold is_digit, between in H4. rewrite andb_true_iff, !N.leb_le in H4. exact H4.
Qed.
(** Two comments, a problem line, clauses with leading blanks, tabs and a carriage return, a tautology, and a last line without end of line. *)
Definition ex_lines : list (dline * bool) :=
  [(DSkip (tx "c example"), false); (DSkip (tx "p cnf 3 4"), true); (DClause [] [(false, tx "1", tx " "); (true, tx "2", tx " ")], false); (DSkip (tx "  "), false);
   (DClause (tx "  ") [(true, tx "3", ["009"%char; " "%char])], true); (DClause [] [(false, tx "1", tx " "); (true, tx "1", tx " "); (false, tx "77", tx " ")], false)].
Definition ex_final : option dline := Some (DClause [] [(false, tx "2", tx "  "); (false, tx "3", tx " ")]).
Definition ex_file : text := dfile_text ex_lines ex_final.
Example C50_ex : reachable default_config (factory_new default_config) []
  /\ Forall (fun p => dline_ok (fst p)) ex_lines /\ (forall l, ex_final = Some l -> dline_ok l)
  /\ ex_file = tx "c example" ++ [LF] ++ tx "p cnf 3 4" ++ [CR; LF] ++ tx "1 -2 0" ++ [LF] ++ tx "  " ++ [LF] ++ tx "  -3" ++ ["009"%char] ++ tx " 0" ++ [CR; LF]
       ++ tx "1 -1 77 0" ++ [LF] ++ tx "2  3 0"
  /\ fst (read_cnf ex_file (factory_new default_config)) = Ok [12; 167; verum; 76]
  /\ vt_vec (t_vars (f_tabs (snd (read_cnf ex_file (factory_new default_config))))) = ["v1"; "v2"; "v3"].
Proof.
  split; [apply sts_refl |]. split; [| split; [| split; [reflexivity | split; vm_compute; reflexivity]]].
  - unfold ex_lines. repeat apply Forall_cons; try apply Forall_nil; cbn [fst dline_ok tx list_ascii_of_string].
    + split; [intros H; cbn [In] in H; decompose [or] H; try discriminate; assumption |]. left. eexists. reflexivity.
    + split; [intros H; cbn [In] in H; decompose [or] H; try discriminate; assumption |]. right. left. eexists. reflexivity.
    + apply clause_ok_b_ok. reflexivity.
    + split; [intros H; cbn [In] in H; decompose [or] H; try discriminate; assumption |]. right. right.
      apply Forall_cons; [right; reflexivity |]. apply Forall_cons; [right; reflexivity | apply Forall_nil].
    + apply clause_ok_b_ok. reflexivity.
    + apply clause_ok_b_ok. reflexivity.
  - intros l E. injection E as <-. apply clause_ok_b_ok. reflexivity.
Qed.

(** A blank after the final 0 makes the reader panic. *)
Theorem C50_trailing_refuted : exists s known line, reachable default_config s known
  /\ (exists l, dline_ok l /\ line = dline_text l ++ [" "%char])
  /\ fst (read_cnf line s) = Panic.
Proof.
  exists (factory_new default_config), [], (tx "1 -2 0 "). split; [apply sts_refl |]. split; [| vm_compute; reflexivity].
  exists (DClause [] [(false, tx "1", tx " "); (true, tx "2", tx " ")]). split; [| reflexivity]. apply clause_ok_b_ok. reflexivity.
Qed.
Print Assumptions C50_trailing_refuted.

(* ------------------------------------------------------------------------------------------------------------------ *)
(** * Formulas *)

(** A written formula is read back as the same handle, and nothing is added to the factory. *)
Theorem C51_write_read : forall cfg s known h x fid fuel n, reachable cfg s known -> In h known -> denotes s h x ->
  right_nested x -> numbers_ok x -> names_ok fid (vt_vec (t_vars (f_tabs s))) x -> id_ok fid x -> (depth x < fuel)%nat -> (S (depth x) < n)%nat ->
  exists t, write_formula fid fuel s h = Ok t /\ read_formula fid n t s = (Ok h, s).
Proof.
  intros cfg s known h x fid fuel n Hr Hin Hd H1 H2 H3 H4 H5 H6. destruct (known_vh cfg s known h Hr Hin) as [Hw Hv].
  apply (write_read fid s Hw (reachable_pinv cfg s known Hr) x h fuel n); auto. apply (vars_read fid s h x); auto.
Qed.
Print Assumptions C51_write_read.

(** The file of a conjunction has one line per operand, each the printed operand and a line feed. *)
Theorem C51_layout : forall cfg s known h ops fid fuel t, reachable cfg s known -> In h known -> unpack s h = Ok (NAnd ops) ->
  write_formula fid fuel s h = Ok t ->
  exists ts, Forall2 (fun op u => to_string fid fuel s op = Ok u) ops ts /\ t = concat (map (fun u => u ++ [newline]) ts).
Proof.
  intros cfg s known h ops fid fuel t _ _ Hu E. unfold write_formula in E. rewrite Hu in E. cbn [rbind] in E.
  destruct (rmap (to_string fid fuel s) ops) as [ts | |] eqn:E1; cbn [rbind] in E; try discriminate. injection E as <-. exists ts. split; [| reflexivity].
  clear Hu. revert ts E1. induction ops as [| op ops IH]; intros ts E1; cbn [rmap] in E1; [injection E1 as <-; constructor |].
  destruct (to_string fid fuel s op) as [u | |] eqn:Eu; cbn [rbind] in E1; try discriminate.
  destruct (rmap (to_string fid fuel s) ops) as [us | |]; cbn [rbind] in E1; try discriminate. injection E1 as <-. constructor; auto.
Qed.
Print Assumptions C51_layout.

Definition rich_and : fml :=
  FAnd [rich_or; FNot (FCc (mkCc [VFF 0; VFF 1; VFF 2] LE 1)); FImpl (FLit (Lit (VAux AuxCNF 0) true)) (FImpl (fv 0) (fv 2))].
Example C51_ex : reachable default_config (fst ps_rich) (snd ps_rich) /\ In 75 (snd ps_rich) /\ denotes (fst ps_rich) 75 rich_and
  /\ right_nested rich_and /\ depth rich_and = 3%nat
  /\ write_formula fid0 4 (fst ps_rich) 75
     = Ok (tx "A & B | C | (2*A + -3*~B >= -3)" ++ [LF] ++ tx "~(A + B + C <= 1)" ++ [LF] ++ tx "@RESERVED_F7_CNF_0 => A => C" ++ [LF])
  /\ read_formula fid0 5 (tx "A & B | C | (2*A + -3*~B >= -3)" ++ [LF] ++ tx "~(A + B + C <= 1)" ++ [LF] ++ tx "@RESERVED_F7_CNF_0 => A => C" ++ [LF]) (fst ps_rich)
     = (Ok 75, fst ps_rich).
Proof.
  split; [apply (ps_reach [CNary true [35; 99]; CCc LE 1 [VFF 0; VFF 1; VFF 2]; CPbc GE (-3)%Z [ex_lA; ex_lnB] [2%Z; (-3)%Z]; CNary false [11; 163; 49]; CNot 48; CImpl 35 163;
      CImpl 36 14; CNary true [12; 13; 78]; CEquiv 75 12]); vm_compute; reflexivity |].
  split; [vm_compute; auto 20 |]. split; [apply (tree_of_sound 10); vm_compute; reflexivity |]. split; [vm_compute; tauto |]. split; [reflexivity |].
  split; vm_compute; reflexivity.
Qed.
