(** C12-C19, C28, C29, C46, C47, C49: transformations, normal forms, metrics and the caches behind them, in every state a factory can
    get into, including states in which the caches already hold results of earlier operations. *)
From Coq Require Import NArith ZArith List Bool Arith Lia Sorted.
From Coq Require Import String.
From Verif Require Import Base EncodingModel EncodingProofs Syntax FactoryModel FactoryInv FactoryBasics FactoryProofs FactorySpecs FactoryNary FactoryOps
  EvalProofs InvariantSpec InvariantProofs HistoryModel HistoryProofs ConstraintModel OpsModel OpsProofs CcModel EncBasics CcFrontProofs PbModel
  CacheModel TransModel TreeSpec WorldProofs MetricsProofs EncodeProofs NnfProofs CnfProofs HandlerProofs DefBasics TseitinProofs PgProofs EncoderProofs
  PureProofs AnonProofs XHistory XHistoryProofs XReplay Properties_Factory.
Import ListNotations.
Local Open Scope list_scope.
Local Open Scope N_scope.

(* ------------------------------------------------------------------------------------------------------------------ *)
(** * Notions of the statements *)

(** Two valuations agree on the variables that were created by name. *)
Definition same_named (v w : valuation) : Prop := forall i, w (VFF i) = v (VFF i).
(** Two valuations agree on all variables that exist in [s], including the auxiliary ones. *)
Definition exists_in (s : factory) (u : var) : Prop :=
  match u with
  | VFF i => i < lenN (vt_vec (t_vars (f_tabs s)))
  | VAux AuxCNF i => i < f_cnf_ctr s | VAux AuxCC i => i < f_cc_ctr s | VAux AuxPB i => i < f_pb_ctr s
  end.
Definition same_in (s : factory) (v w : valuation) : Prop := forall u, exists_in s u -> w u = v u.
(** A formula over named variables. *)
Definition over_named (x : fml) : Prop := forall u, In u (fvars x) -> exists i, u = VFF i.

(** [y] says the same as [x] about the named variables. *)
Definition conservative (x y : fml) : Prop :=
  (forall v, sem v y = true -> sem v x = true)
  /\ (over_named x -> forall v, sem v x = true <-> exists w, same_named v w /\ sem w y = true).
(** [y] says the same as [x] about all variables that existed in [s]. *)
Definition conservative_over (s : factory) (x y : fml) : Prop :=
  (forall v, sem v y = true -> sem v x = true) /\ (forall v, sem v x = true <-> exists w, same_in s v w /\ sem w y = true).
Definition equivalent (x y : fml) : Prop := (forall v, sem v y = sem v x) /\ incl (fvars y) (fvars x).

(** Disjunctive normal form and negation normal form as syntax. *)
Inductive is_term_form : fml -> Prop :=
| tf_lit : forall l, is_term_form (FLit l)
| tf_and : forall ls, is_term_form (FAnd (map FLit ls)).
Inductive is_dnf_form : fml -> Prop :=
| dnf_true : is_dnf_form FTrue
| dnf_false : is_dnf_form FFalse
| dnf_term : forall x, is_term_form x -> is_dnf_form x
| dnf_or : forall xs, Forall is_term_form xs -> is_dnf_form (FOr xs).
Inductive is_nnf_form : fml -> Prop :=
| nf_true : is_nnf_form FTrue
| nf_false : is_nnf_form FFalse
| nf_lit : forall l, is_nnf_form (FLit l)
| nf_and : forall xs, (forall x, In x xs -> is_nnf_form x) -> is_nnf_form (FAnd xs)
| nf_or : forall xs, (forall x, In x xs -> is_nnf_form x) -> is_nnf_form (FOr xs).

Lemma fterm_form : forall x, is_fterm x = true <-> is_term_form x.
Proof.
  intros x. split.
  - destruct x; cbn; intros H; try discriminate; [constructor |]. destruct (all_lits_map l H) as [ls ->]. constructor.
  - intros [l | ls]; cbn; [reflexivity | apply map_all_lits].
Qed.
Lemma dnf_shape_form : forall x, dnf_shape x = true <-> is_dnf_form x.
Proof.
  intros x. split.
  - destruct x; cbn; intros H; try discriminate; try (constructor; fail).
    + apply dnf_term. constructor.
    + apply dnf_term. apply fterm_form. exact H.
    + apply dnf_or. rewrite Forall_forall. rewrite forallb_forall in H. intros y Hy. apply fterm_form. auto.
  - intros [ | | y Hy | xs Hx]; try reflexivity.
    + destruct Hy; cbn; [reflexivity | apply map_all_lits].
    + cbn. apply forallb_forall. rewrite Forall_forall in Hx. intros y Hy. apply fterm_form. auto.
Qed.
Lemma nnf_shape_form : forall x, nnf_shape x = true <-> is_nnf_form x.
Proof.
  intros x. split.
  - induction x using fml_ind2; cbn [nnf_shape]; intros E; try discriminate; try (constructor; fail).
    + apply nf_and. rewrite forallb_forall in E. rewrite Forall_forall in H. intros y Hy. auto.
    + apply nf_or. rewrite forallb_forall in E. rewrite Forall_forall in H. intros y Hy. auto.
  - induction 1; cbn [nnf_shape]; try reflexivity; apply forallb_forall; assumption.
Qed.

Lemma exists_known : forall s u, exists_in s u <-> WorldProofs.known s u.
Proof. intros s [i | [] i]; unfold exists_in, WorldProofs.known, old; cbn; split; auto. Qed.

Lemma conservative_of : forall W s x y, world_ok W s -> (forall v, sem v y = true -> sem v x = true) -> (forall v, W v -> sem v x = true -> sem v y = true) ->
  conservative x y.
Proof.
  intros W s x y [Hw _] H1 H2. split; [exact H1 |]. intros Hn v.
  assert (Hx : forall w, same_named v w -> sem w x = sem v x).
  { intros w Hag. apply sem_fvars. intros u Hu. destruct (Hn u Hu) as [i ->]. apply Hag. }
  split.
  - intros Hv. destruct (Hw v) as [w [Hww Hag]]. exists w. split; [exact Hag |]. apply H2; [assumption |]. rewrite (Hx w Hag). exact Hv.
  - intros [w [Hag Hy]]. rewrite <- (Hx w Hag). auto.
Qed.
Lemma conservative_over_of : forall T' s x y, grows (fun _ => True) T' s -> kn s x -> (forall v, sem v y = true -> sem v x = true) ->
  (forall v, T' v -> sem v x = true -> sem v y = true) -> conservative_over s x y.
Proof.
  intros T' s x y [_ Hg] Hk H1 H2. split; [exact H1 |]. intros v.
  assert (Hx : forall w, same_in s v w -> sem w x = sem v x).
  { intros w Hag. apply sem_fvars. intros u Hu. apply Hag, exists_known, Hk, Hu. }
  split.
  - intros Hv. destruct (Hg v I) as [w [Hw Hag]]. assert (Hs : same_in s v w) by (intros u Hu; apply Hag; left; apply exists_known; exact Hu).
    exists w. split; [exact Hs |]. apply H2; [assumption |]. rewrite (Hx w Hs). exact Hv.
  - intros [w [Hag Hy]]. rewrite <- (Hx w Hag). auto.
Qed.

Lemma x_returns : forall A W s (m : M A) Q (Q' : A -> factory -> Prop), xspec W s m Q ->
  (forall a s' W', inv W' s' -> ext s s' -> Q a s' W' -> Q' a s') -> returns m s Q'.
Proof. intros A W s m Q Q' [_ H] HQ Hc. destruct (H Hc) as [a [W' [E [HI [_ [He Ha]]]]]]. exists a. split; [exact E | eapply HQ; eassumption]. Qed.
Lemma known_hdl : forall cfg s known os h x, xreachable cfg s known os -> In h known -> denotes s h x -> exists W, inv W s /\ hdl s h x /\ Forall (obj_ok W s) os.
Proof.
  intros cfg s known os h x Hr Hin Hd. destruct (xreachable_ok _ _ _ _ Hr) as [W [Hi [Hk Ho]]]. exists W. split; [exact Hi |]. split; [| exact Ho].
  rewrite Forall_forall in Hk. destruct (Hk h Hin) as [y Hy]. rewrite (hdl_same _ _ _ _ Hy Hd). exact Hy.
Qed.

(** Every known handle still unfolds into one tree in these states, everything keeps its meaning, and the documented invariants hold. *)
Theorem C06_extended : forall cfg s known os s' known' os' h x, xreachable cfg s known os -> In h known -> xsteps (mkX s known os) (mkX s' known' os') ->
  denotes s h x -> In h known' /\ denotes s' h x /\ doc_ok x.
Proof.
  intros cfg s known os s' known' os' h x Hr Hin Hst Hd. destruct (known_hdl _ _ _ _ _ _ Hr Hin Hd) as [W [Hi [Hx Ho]]].
  destruct (xreachable_ok _ _ _ _ Hr) as [W0 H0]. destruct (xsteps_ok W0 _ _ Hst H0) as [W' [_ [_ He]]].
  split; [| split].
  - change known' with (x_known (mkX s' known' os')). revert Hin. change known with (x_known (mkX s known os)).
    clear -Hst. induction Hst as [| a b c H IH K]; [auto |]. intros Hin. apply IH in Hin.
    destruct K; cbn [x_known] in *; try (apply in_or_app; right); assumption.
  - exact (denotes_ext _ _ _ _ He Hd).
  - eapply handle_doc_ok; [apply (i_wf _ _ Hi) | apply Hx | exact Hd].
Qed.
Print Assumptions C06_extended.
Theorem handles_denote_extended : forall cfg s known os h, xreachable cfg s known os -> In h known ->
  exists x, denotes s h x /\ (forall y, denotes s h y -> y = x) /\ forall u, In u (fvars x) -> exists_in s u.
Proof.
  intros cfg s known os h Hr Hin. destruct (xreachable_ok _ _ _ _ Hr) as [W [Hi [Hk _]]]. rewrite Forall_forall in Hk. destruct (Hk h Hin) as [x Hx].
  exists x. split; [apply Hx |]. split; [intros y Hy; exact (hdl_same _ _ _ _ Hx Hy) |]. intros u Hu. apply exists_known. apply Hx. exact Hu.
Qed.
Print Assumptions handles_denote_extended.

(* ------------------------------------------------------------------------------------------------------------------ *)
(** * The example: three variables, [ex_f = ~((A & B) <=> (C => A)) | (A & B)], then a kept encoder and anonymizer, which have been used *)

Open Scope string_scope.
Definition ex_base : list rstep :=
  [RCall (XCall (CVariable "A")); RCall (XCall (CVariable "B")); RCall (XCall (CVariable "C")); RCall (XCall (CNary true [35; 99]));
   RCall (XCall (CImpl 163 35)); RCall (XCall (CEquiv 11 14)); RCall (XCall (CNot 15)); RCall (XCall (CNary false [77; 11]))].
Definition ex_used : list rstep :=
  (ex_base ++ [RStateful; RAnon "v"; RCall (XNnf 20 12); RUse 1 (XTseitin 0 40 12); RUse 1 (XPg 0 40 12); RUse 0 (XAnonymize 20 12);
               RCall (XFactorization true 40 12); RCall (XFactorization false 40 12); RCall (XVariables 20 12)])%list.
Close Scope string_scope.
Definition ex_nil : xstate := mkX (factory_new default_config) [] [].
Definition ex_of (rs : list rstep) : xstate := match replay rs ex_nil with Some a => a | None => ex_nil end.
Definition ex_b : xstate := ex_of ex_base.
Definition ex_u : xstate := ex_of ex_used.
Definition ex_A := FLit (Lit (VFF 0) true).
Definition ex_B := FLit (Lit (VFF 1) true).
Definition ex_C := FLit (Lit (VFF 2) true).
Definition ex_f : fml := FOr [FNot (FEquiv (FAnd [ex_A; ex_B]) (FImpl ex_C ex_A)); FAnd [ex_A; ex_B]].

Lemma ex_b_reach : xreachable default_config (x_fac ex_b) (x_known ex_b) (x_objs ex_b).
Proof. apply (replay_reach _ ex_base). vm_compute. reflexivity. Qed.
Lemma ex_u_reach : xreachable default_config (x_fac ex_u) (x_known ex_u) (x_objs ex_u).
Proof. apply (replay_reach _ ex_used). vm_compute. reflexivity. Qed.
Lemma ex_b_den : In 12 (x_known ex_b) /\ denotes (x_fac ex_b) 12 ex_f.
Proof. split; [vm_compute; auto | apply (tree_of_sound 10); vm_compute; reflexivity]. Qed.
Lemma ex_u_den : In 12 (x_known ex_u) /\ denotes (x_fac ex_u) 12 ex_f.
Proof. split; [vm_compute; tauto | apply (tree_of_sound 10); vm_compute; reflexivity]. Qed.

(** A cardinality constraint over A, B, C and its encoding, in the caches. *)
Open Scope string_scope.
Definition ex_cc : list rstep :=
  [RCall (XCall (CVariable "A")); RCall (XCall (CVariable "B")); RCall (XCall (CVariable "C")); RCall (XCall (CCc LE 2 [VFF 0; VFF 1; VFF 2]));
   RCall (XCall (CNary false [48; 35]))].
Close Scope string_scope.
Definition ex_c : xstate := ex_of ex_cc.
Definition ex_cc_tree : fml := FCc (mkCc [VFF 0; VFF 1; VFF 2] LE 2).
Lemma ex_c_reach : xreachable default_config (x_fac ex_c) (x_known ex_c) (x_objs ex_c).
Proof. apply (replay_reach _ ex_cc). vm_compute. reflexivity. Qed.
Lemma ex_c_den : In 12 (x_known ex_c) /\ denotes (x_fac ex_c) 12 (FOr [ex_cc_tree; ex_A]).
Proof. split; [vm_compute; auto | apply (tree_of_sound 10); vm_compute; reflexivity]. Qed.
Lemma ex_c_enc : encodable (x_fac ex_c) (FOr [ex_cc_tree; ex_A]).
Proof. unfold encodable. change (cfg_cc (f_config (x_fac ex_c))) with (mkCcConfig AmoBest AmkBest AlkBest ExkBest).
  apply Forall_forall. intros lf Hl. apply enc_leaf_b_ok. cbn in Hl. destruct Hl as [<- | [<- | []]]; reflexivity. Qed.

(* ------------------------------------------------------------------------------------------------------------------ *)
(** * C12, C13: negation normal form *)

(** The recursion needs as many levels as the formula is deep; the Rust stack is not modelled. *)
Theorem C12_nnf : forall cfg s known os h x fuel, xreachable cfg s known os -> In h known -> denotes s h x -> con_free x = true -> (depth x + 5 <= fuel)%nat ->
  returns (nnf fuel h) s (fun r s' => exists y, denotes s' r y /\ is_nnf_form y /\ equivalent x y).
Proof.
  intros cfg s known os h x fuel Hr Hin Hd Hc Hf. destruct (known_hdl _ _ _ _ _ _ Hr Hin Hd) as [W [Hi [Hx _]]].
  eapply x_returns; [apply (nnf_spec fuel x W); auto; apply con_free_leaves; exact Hc |].
  intros r s' W' _ _ [y [Hy [[_ [_ Hcf]] [Hs _]]]]. exists y. split; [apply Hy |]. split; [apply nnf_shape_form; exact Hs | exact (Hcf Hc)].
Qed.
Print Assumptions C12_nnf.
Example C12_ex : fst (nnf 20 12 (x_fac ex_b)) = Ok 332
  /\ tree_of 10 (snd (nnf 20 12 (x_fac ex_b))) 332 = Some (FOr [FAnd [FOr [FLit (Lit (VFF 0) false); FLit (Lit (VFF 1) false);
       FAnd [ex_C; FLit (Lit (VFF 0) false)]]; FOr [FAnd [ex_A; ex_B]; FLit (Lit (VFF 2) false); ex_A]]; FAnd [ex_A; ex_B]])
  /\ con_free ex_f = true /\ depth ex_f = 4%nat.
Proof. vm_compute. auto. Qed.

(** [encodable]: numbers in the constraints far from the machine bounds, and encoder options that do not diverge or panic (C23, C24). *)
Theorem C13_nnf_constraints : forall cfg s known os h x fuel, xreachable cfg s known os -> In h known -> denotes s h x -> encodable s x -> (depth x + 5 <= fuel)%nat ->
  returns (nnf fuel h) s (fun r s' => exists y, denotes s' r y /\ is_nnf_form y /\ conservative x y).
Proof.
  intros cfg s known os h x fuel Hr Hin Hd Hc Hf. destruct (known_hdl _ _ _ _ _ _ Hr Hin Hd) as [W [Hi [Hx _]]].
  eapply x_returns; [apply (nnf_spec fuel x W); auto |].
  intros r s' W' Hi' _ [y [Hy [[R1 [R2 _]] [Hs _]]]]. exists y. split; [apply Hy |]. split; [apply nnf_shape_form; exact Hs |].
  exact (conservative_of W' s' x y (i_world _ _ Hi') R1 R2).
Qed.
Print Assumptions C13_nnf_constraints.
Definition ex_tree (a : N) (s : factory) : fml := match tree_of 40 s a with Some x => x | None => FTrue end.
Example C13_ex : over_named (FOr [ex_cc_tree; ex_A]) /\ fst (nnf 20 12 (x_fac ex_c)) = Ok 780
  /\ In (VAux AuxCC 5) (fvars (ex_tree 780 (snd (nnf 20 12 (x_fac ex_c))))).
Proof. split; [| vm_compute; tauto]. intros u Hu. cbn in Hu. repeat (destruct Hu as [<- | Hu]; [eexists; reflexivity |]). destruct Hu. Qed.

(** For formulas that contain auxiliary variables of an earlier encoding the claim fails: the encoding is taken from the cache and clashes
    with the other occurrences of its auxiliary variables.  Here [x = (A + B + C <= 2) & aux0 & aux1] is satisfiable, its normal form is not. *)
Definition ex_r13 : list rstep :=
  ex_cc ++ [RCall (XNnf 20 48); RCall (XCall (CParsed AuxCC 0)); RCall (XCall (CParsed AuxCC 1)); RCall (XCall (CNary true [48; 37; 101]))].
Definition ex_13 : xstate := ex_of ex_r13.
Theorem C13_aux_refuted : exists cfg s known os h x fuel, xreachable cfg s known os /\ In h known /\ denotes s h x /\ encodable s x /\ (depth x + 5 <= fuel)%nat
  /\ (exists v, sem v x = true)
  /\ exists r s' y, nnf fuel h s = (Ok r, s') /\ cap s' /\ denotes s' r y /\ forall v, sem v y = false.
Proof.
  exists default_config, (x_fac ex_13), (x_known ex_13), (x_objs ex_13), 75.
  exists (FAnd [ex_cc_tree; FLit (Lit (VAux AuxCC 0) true); FLit (Lit (VAux AuxCC 1) true)]), 20%nat.
  split; [apply (replay_reach _ ex_r13); vm_compute; reflexivity |]. split; [vm_compute; auto |]. split; [apply (tree_of_sound 10); vm_compute; reflexivity |].
  split.
  { unfold encodable. change (cfg_cc (f_config (x_fac ex_13))) with (mkCcConfig AmoBest AmkBest AlkBest ExkBest).
    apply Forall_forall. intros lf Hl. apply enc_leaf_b_ok. cbn in Hl. destruct Hl as [<- | [<- | [<- | []]]]; reflexivity. }
  split; [cbn; lia |]. split; [exists (fun u => match u with VFF _ => false | _ => true end); reflexivity |].
  eexists _, (snd (nnf 20 75 (x_fac ex_13))), _. split; [vm_compute; reflexivity |]. split; [apply cap_b_ok; vm_compute; reflexivity |].
  split; [apply (tree_of_sound 10); vm_compute; reflexivity |].
  intros v. cbn. destruct (v (VAux AuxCC 0)), (v (VAux AuxCC 1)); cbn; rewrite ?andb_false_r; reflexivity.
Qed.
Print Assumptions C13_aux_refuted.

(* ------------------------------------------------------------------------------------------------------------------ *)
(** * C14, C15: CNF and DNF by factorization *)

Lemma nf_form : forall conj y, nf conj y = true -> if conj then is_cnf_form y else is_dnf_form y.
Proof. intros [] y H; [apply cnf_shape_form | apply dnf_shape_form]; exact H. Qed.

Lemma fact_free : forall conj cfg s known os h x fuel, xreachable cfg s known os -> In h known -> denotes s h x -> con_free x = true -> (2 * depth x + 8 <= fuel)%nat ->
  returns (fact_nop conj fuel h) s (fun r s' => exists y, denotes s' r y /\ (if conj then is_cnf_form y else is_dnf_form y) /\ equivalent x y).
Proof.
  intros conj cfg s known os h x fuel Hr Hin Hd Hc Hf. destruct (known_hdl _ _ _ _ _ _ Hr Hin Hd) as [W [Hi [Hx _]]].
  eapply x_returns; [apply (fact_nop_spec conj fuel x W); auto; apply con_free_leaves; exact Hc |].
  intros r s' W' _ _ [y [Hy [[_ [_ Hcf]] Hs]]]. exists y. split; [apply Hy |]. split; [apply nf_form; exact Hs | exact (Hcf Hc)].
Qed.
Lemma fact_any : forall conj cfg s known os h x fuel, xreachable cfg s known os -> In h known -> denotes s h x -> encodable s x -> (2 * depth x + 8 <= fuel)%nat ->
  returns (fact_nop conj fuel h) s (fun r s' => exists y, denotes s' r y /\ (if conj then is_cnf_form y else is_dnf_form y) /\ conservative x y).
Proof.
  intros conj cfg s known os h x fuel Hr Hin Hd Hc Hf. destruct (known_hdl _ _ _ _ _ _ Hr Hin Hd) as [W [Hi [Hx _]]].
  eapply x_returns; [apply (fact_nop_spec conj fuel x W); auto |].
  intros r s' W' Hi' _ [y [Hy [[R1 [R2 _]] Hs]]]. exists y. split; [apply Hy |]. split; [apply nf_form; exact Hs |].
  exact (conservative_of W' s' x y (i_world _ _ Hi') R1 R2).
Qed.

(** [fact_nop true] is [factorization_cnf], [fact_nop false] is [factorization_dnf]. *)
Theorem C14_cnf : forall cfg s known os h x fuel, xreachable cfg s known os -> In h known -> denotes s h x -> con_free x = true -> (2 * depth x + 8 <= fuel)%nat ->
  returns (fact_nop true fuel h) s (fun r s' => exists y, denotes s' r y /\ is_cnf_form y /\ equivalent x y).
Proof. exact (fact_free true). Qed.
Print Assumptions C14_cnf.
Theorem C14_cnf_constraints : forall cfg s known os h x fuel, xreachable cfg s known os -> In h known -> denotes s h x -> encodable s x -> (2 * depth x + 8 <= fuel)%nat ->
  returns (fact_nop true fuel h) s (fun r s' => exists y, denotes s' r y /\ is_cnf_form y /\ conservative x y).
Proof. exact (fact_any true). Qed.
Print Assumptions C14_cnf_constraints.
Example C14_ex : fst (fact_nop true 40 12 (x_fac ex_b)) = Ok 331
  /\ tree_of 10 (snd (fact_nop true 40 12 (x_fac ex_b))) 331
     = Some (FAnd [FOr [FLit (Lit (VFF 2) false); ex_A]; FOr [ex_B; FLit (Lit (VFF 2) false); ex_A]]).
Proof. vm_compute. auto. Qed.

Theorem C15_dnf : forall cfg s known os h x fuel, xreachable cfg s known os -> In h known -> denotes s h x -> con_free x = true -> (2 * depth x + 8 <= fuel)%nat ->
  returns (fact_nop false fuel h) s (fun r s' => exists y, denotes s' r y /\ is_dnf_form y /\ equivalent x y).
Proof. exact (fact_free false). Qed.
Print Assumptions C15_dnf.
Theorem C15_dnf_constraints : forall cfg s known os h x fuel, xreachable cfg s known os -> In h known -> denotes s h x -> encodable s x -> (2 * depth x + 8 <= fuel)%nat ->
  returns (fact_nop false fuel h) s (fun r s' => exists y, denotes s' r y /\ is_dnf_form y /\ conservative x y).
Proof. exact (fact_any false). Qed.
Print Assumptions C15_dnf_constraints.
Example C15_ex : fst (fact_nop false 40 12 (x_fac ex_b)) = Ok 460
  /\ tree_of 10 (snd (fact_nop false 40 12 (x_fac ex_b))) 460
     = Some (FOr [FAnd [FLit (Lit (VFF 2) false); FLit (Lit (VFF 0) false)]; FAnd [FLit (Lit (VFF 2) false); FLit (Lit (VFF 1) false)];
                  FAnd [ex_A; FLit (Lit (VFF 1) false)]; FAnd [ex_A; ex_B]]).
Proof. vm_compute. auto. Qed.

(* ------------------------------------------------------------------------------------------------------------------ *)
(** * C16: normal form predicates *)

Theorem C16_is_cnf_extended : forall cfg s known os h x, xreachable cfg s known os -> In h known -> denotes s h x ->
  exists b, is_cnf s h = Ok b /\ (b = true <-> is_cnf_form x).
Proof.
  intros cfg s known os h x Hr Hin Hd. destruct (known_hdl _ _ _ _ _ _ Hr Hin Hd) as [W [Hi [Hx _]]].
  exists (cnf_shape x). split; [exact (wf_cnf_exact s (i_wf _ _ Hi) h x (proj1 Hx) Hd) | apply cnf_shape_form].
Qed.
Print Assumptions C16_is_cnf_extended.
Theorem C16_is_nnf : forall cfg s known os h x fuel, xreachable cfg s known os -> In h known -> denotes s h x -> (depth x < fuel)%nat ->
  returns (is_nnf fuel h) s (fun b s' => (b = true <-> is_nnf_form x) /\ denotes s' h x).
Proof.
  intros cfg s known os h x fuel Hr Hin Hd Hf. destruct (known_hdl _ _ _ _ _ _ Hr Hin Hd) as [W [Hi [Hx _]]].
  eapply x_returns; [apply (is_nnf_spec fuel x W); auto; apply Hx |]. intros b s' W' _ He Hb. rewrite Hb. split; [apply nnf_shape_form | exact (denotes_ext _ _ _ _ He Hd)].
Qed.
Print Assumptions C16_is_nnf.
Theorem C16_is_dnf : forall cfg s known os h x, xreachable cfg s known os -> In h known -> denotes s h x ->
  returns (is_dnf h) s (fun b s' => (b = true <-> is_dnf_form x) /\ denotes s' h x).
Proof.
  intros cfg s known os h x Hr Hin Hd. destruct (known_hdl _ _ _ _ _ _ Hr Hin Hd) as [W [Hi [Hx _]]].
  eapply x_returns; [apply (is_dnf_spec x W); auto; apply Hx |]. intros b s' W' _ He Hb. rewrite Hb. split; [apply dnf_shape_form | exact (denotes_ext _ _ _ _ He Hd)].
Qed.
Print Assumptions C16_is_dnf.
Theorem C16_contains_pbc : forall cfg s known os h x fuel, xreachable cfg s known os -> In h known -> denotes s h x -> (N.to_nat (nodes x) <= fuel)%nat ->
  returns (contains_pbc fuel h) s (fun b s' => (b = false <-> con_free x = true) /\ denotes s' h x).
Proof.
  intros cfg s known os h x fuel Hr Hin Hd Hf. destruct (known_hdl _ _ _ _ _ _ Hr Hin Hd) as [W [Hi [Hx _]]].
  eapply x_returns; [apply (contains_pbc_spec fuel x W); auto; apply Hx |]. intros b s' W' _ He Hb. rewrite Hb.
  split; [destruct (con_free x); cbn; split; auto; discriminate | exact (denotes_ext _ _ _ _ He Hd)].
Qed.
Print Assumptions C16_contains_pbc.
Example C16_extended_ex : fst (is_nnf 20 12 (x_fac ex_b)) = Ok false /\ fst (is_nnf 20 332 (x_fac ex_u)) = Ok true
  /\ fst (is_dnf 332 (x_fac ex_u)) = Ok false /\ fst (is_dnf 2764 (x_fac ex_u)) = Ok true /\ is_cnf (x_fac ex_u) 1355 = Ok true
  /\ fst (contains_pbc 40 12 (x_fac ex_b)) = Ok false /\ fst (contains_pbc 40 12 (x_fac ex_c)) = Ok true.
Proof. vm_compute. auto 10. Qed.

(* ------------------------------------------------------------------------------------------------------------------ *)
(** * C17: Tseitin *)

(** Without kept state: all auxiliary variables are new, and they are determined by the variables of the formula. *)
Theorem C17_tseitin : forall cfg s known os h x fuel b, xreachable cfg s known os -> In h known -> denotes s h x -> con_free x = true ->
  (4 * depth x + 14 <= fuel)%nat ->
  returns (tseitin_cnf fuel h b cnf_state_new) s (fun p s' => exists y, denotes s' (fst p) y /\ is_cnf_form y /\ conservative_over s x y
    /\ forall v w, sem v y = true -> sem w y = true -> (forall u, In u (fvars x) -> w u = v u) -> forall u, In u (fvars y) -> w u = v u).
Proof.
  intros cfg s known os h x fuel b Hr Hin Hd Hc Hf. destruct (known_hdl _ _ _ _ _ _ Hr Hin Hd) as [W [Hi [Hx _]]].
  eapply x_returns; [apply (tseitin_fresh fuel x (fun _ => True) W); auto; [intros v w _ _; exact I | apply ts_new] |].
  intros p s' W' _ _ [T' [Hg [_ [_ [y [Hy [Hs [R1 [R2 Hdet]]]]]]]]]. exists y. split; [apply Hy |]. split; [apply cnf_shape_form; exact Hs |].
  split; [| exact Hdet]. exact (conservative_over_of T' s x y Hg (proj2 (proj2 Hx)) R1 R2).
Qed.
Print Assumptions C17_tseitin.
Example C17_ex : fst (tseitin_cnf 40 12 0 cnf_state_new (x_fac ex_b)) <> Panic
  /\ (exists p, fst (tseitin_cnf 40 12 0 cnf_state_new (x_fac ex_b)) = Ok p /\ List.length (cs_formula (snd p)) = 12%nat)
  /\ (4 * depth ex_f + 14 <= 40)%nat.
Proof. split; [vm_compute; discriminate |]. split; [eexists; split; vm_compute; reflexivity | vm_compute; lia]. Qed.

(** With a kept encoder that has been used before, and with constraints. *)
Theorem C17_tseitin_state : forall cfg s known os e h x fuel b, xreachable cfg s known os -> In h known -> In (OEnc e) os -> denotes s h x -> encodable s x ->
  (4 * depth x + 14 <= fuel)%nat ->
  returns (tseitin_cnf fuel h b (state_or_new (ce_tseitin e))) s (fun p s' => exists y, denotes s' (fst p) y /\ is_cnf_form y /\ conservative x y).
Proof.
  intros cfg s known os e h x fuel b Hr Hin Ho Hd Hc Hf. destruct (known_hdl _ _ _ _ _ _ Hr Hin Hd) as [W [Hi [Hx Hos]]].
  rewrite Forall_forall in Hos. specialize (Hos _ Ho). cbn in Hos.
  eapply x_returns; [apply (tseitin_spec fuel x W); auto; apply ts_state; exact Hos |].
  intros p s' W' Hi' _ [_ [y [Hy [Hs [R1 R2]]]]]. exists y. split; [apply Hy |]. split; [apply cnf_shape_form; exact Hs |].
  exact (conservative_of W' s' x y (i_world _ _ Hi') R1 R2).
Qed.
Print Assumptions C17_tseitin_state.

(** With a kept encoder, formulas that contain its auxiliary variables lose models: [~aux2 & A & B & ((A & B) | ~C)], where [aux2] was made for [A & B]. *)
Definition ex_r17 : list rstep :=
  ex_base ++ [RStateful; RUse 0 (XTseitin 0 40 12); RCall (XCall (CParsed AuxCNF 2)); RCall (XCall (CNot 164)); RCall (XCall (CNot 163));
              RCall (XCall (CNary false [11; 167])); RCall (XCall (CNary true [168; 35; 99; 1740]))].
Definition ex_17 : xstate := ex_of ex_r17.
Definition ex_17_enc : cnf_encoder := match x_objs ex_17 with OEnc e :: _ => e | _ => enc_stateful end.
Definition ex_17_f : fml := FAnd [FLit (Lit (VAux AuxCNF 2) false); ex_A; ex_B; FOr [FAnd [ex_A; ex_B]; FLit (Lit (VFF 2) false)]].
Theorem C17_state_aux_refuted : exists cfg s known os e h x fuel b, xreachable cfg s known os /\ In h known /\ In (OEnc e) os /\ denotes s h x
  /\ con_free x = true /\ (4 * depth x + 14 <= fuel)%nat /\ (exists v, sem v x = true)
  /\ exists p s' y, tseitin_cnf fuel h b (state_or_new (ce_tseitin e)) s = (Ok p, s') /\ cap s' /\ denotes s' (fst p) y /\ forall v, sem v y = false.
Proof.
  exists default_config, (x_fac ex_17), (x_known ex_17), (x_objs ex_17), ex_17_enc, 651, ex_17_f, 40%nat, 0.
  split; [apply (replay_reach _ ex_r17); vm_compute; reflexivity |]. split; [vm_compute; auto |]. split; [vm_compute; auto |].
  split; [apply (tree_of_sound 10); vm_compute; reflexivity |]. split; [reflexivity |]. split; [vm_compute; lia |].
  split; [exists (fun u => match u with VFF _ => true | _ => false end); reflexivity |].
  eexists _, (snd (tseitin_cnf 40 651 0 (state_or_new (ce_tseitin ex_17_enc)) (x_fac ex_17))), _. split; [vm_compute; reflexivity |].
  split; [apply cap_b_ok; vm_compute; reflexivity |]. split; [apply (tree_of_sound 10); vm_compute; reflexivity |].
  intros v. vm_compute. destruct (v (VAux AuxCNF 2)), (v (VFF 0)), (v (VFF 1)); cbn; rewrite ?andb_false_r; try reflexivity;
    destruct (v (VFF 2)); cbn; rewrite ?andb_false_r; try reflexivity;
    repeat match goal with |- context [v ?u] => destruct (v u); try reflexivity end.
Qed.
Print Assumptions C17_state_aux_refuted.

(* ------------------------------------------------------------------------------------------------------------------ *)
(** * C18: Plaisted-Greenbaum and the encoder front end *)

Theorem C18_plaisted_greenbaum : forall cfg s known os h x fuel b, xreachable cfg s known os -> In h known -> denotes s h x -> con_free x = true ->
  (4 * depth x + 14 <= fuel)%nat ->
  returns (pg_on_formula fuel h b cnf_state_new) s (fun p s' => exists y, denotes s' (fst p) y /\ is_cnf_form y /\ conservative_over s x y).
Proof.
  intros cfg s known os h x fuel b Hr Hin Hd Hc Hf. destruct (known_hdl _ _ _ _ _ _ Hr Hin Hd) as [W [Hi [Hx _]]].
  eapply x_returns; [apply (pg_fresh fuel x (fun _ => True) W); auto; [intros v w _ _; exact I | apply pg_new] |].
  intros p s' W' _ _ [T' [Hg [_ [_ [y [Hy [Hs [R1 R2]]]]]]]]. exists y. split; [apply Hy |]. split; [apply cnf_shape_form; exact Hs |].
  exact (conservative_over_of T' s x y Hg (proj2 (proj2 Hx)) R1 R2).
Qed.
Print Assumptions C18_plaisted_greenbaum.
Theorem C18_plaisted_greenbaum_state : forall cfg s known os e h x fuel b, xreachable cfg s known os -> In h known -> In (OEnc e) os -> denotes s h x -> encodable s x ->
  (4 * depth x + 14 <= fuel)%nat ->
  returns (pg_on_formula fuel h b (state_or_new (ce_pg e))) s (fun p s' => exists y, denotes s' (fst p) y /\ is_cnf_form y /\ conservative x y).
Proof.
  intros cfg s known os e h x fuel b Hr Hin Ho Hd Hc Hf. destruct (known_hdl _ _ _ _ _ _ Hr Hin Hd) as [W [Hi [Hx Hos]]].
  rewrite Forall_forall in Hos. specialize (Hos _ Ho). cbn in Hos.
  eapply x_returns; [apply (pg_spec fuel x W); auto; apply pg_state; exact Hos |].
  intros p s' W' Hi' _ [_ [y [Hy [Hs [R1 R2]]]]]. exists y. split; [apply Hy |]. split; [apply cnf_shape_form; exact Hs |].
  exact (conservative_of W' s' x y (i_world _ _ Hi') R1 R2).
Qed.
Print Assumptions C18_plaisted_greenbaum_state.
(** [cnf_transform alg]: the front end with its four algorithms, including the one that starts with factorization and falls back. *)
Theorem C18_encoder : forall cfg s known os alg h x fuel, xreachable cfg s known os -> In h known -> denotes s h x -> con_free x = true ->
  (4 * depth x + 14 <= fuel)%nat ->
  returns (cnf_transform alg fuel h enc_stateless) s (fun p s' => exists y, denotes s' (fst p) y /\ is_cnf_form y /\ conservative_over s x y).
Proof.
  intros cfg s known os alg h x fuel Hr Hin Hd Hc Hf. destruct (known_hdl _ _ _ _ _ _ Hr Hin Hd) as [W [Hi [Hx _]]].
  eapply x_returns; [apply (cnf_transform_fresh alg fuel x (fun _ => True) W); auto; [intros v w _ _; exact I | split; intros st E; discriminate] |].
  intros p s' W' _ _ [T' [Hg [_ [_ [y [Hy [Hs [R1 R2]]]]]]]]. exists y. split; [apply Hy |]. split; [apply cnf_shape_form; exact Hs |].
  exact (conservative_over_of T' s x y Hg (proj2 (proj2 Hx)) R1 R2).
Qed.
Print Assumptions C18_encoder.
Theorem C18_encoder_state : forall cfg s known os e alg h x fuel, xreachable cfg s known os -> In h known -> In (OEnc e) os -> denotes s h x -> encodable s x ->
  (4 * depth x + 14 <= fuel)%nat ->
  returns (cnf_transform alg fuel h e) s (fun p s' => exists y, denotes s' (fst p) y /\ is_cnf_form y /\ conservative x y).
Proof.
  intros cfg s known os e alg h x fuel Hr Hin Ho Hd Hc Hf. destruct (known_hdl _ _ _ _ _ _ Hr Hin Hd) as [W [Hi [Hx Hos]]].
  rewrite Forall_forall in Hos. specialize (Hos _ Ho). cbn in Hos.
  eapply x_returns; [apply (cnf_transform_spec alg fuel x W); auto |].
  intros p s' W' Hi' _ [_ [y [Hy [Hs [R1 R2]]]]]. exists y. split; [apply Hy |]. split; [apply cnf_shape_form; exact Hs |].
  exact (conservative_of W' s' x y (i_world _ _ Hi') R1 R2).
Qed.
Print Assumptions C18_encoder_state.
Definition ex_u_enc : cnf_encoder := match nth_error (x_objs ex_u) 1 with Some (OEnc e) => e | _ => enc_stateful end.
Example C18_ex : In (OEnc ex_u_enc) (x_objs ex_u) /\ ce_tseitin ex_u_enc <> None /\ ce_pg ex_u_enc <> None
  /\ fst (pg_on_formula 40 12 0 (state_or_new (ce_pg ex_u_enc)) (x_fac ex_u)) <> Panic
  /\ fst (cnf_transform (CnfAdvanced 0 0 (CnfTseitin 0)) 40 12 ex_u_enc (x_fac ex_u)) <> Panic.
Proof.
  split; [apply (nth_error_In _ 1); vm_compute; reflexivity |]. split; [vm_compute; discriminate |]. split; [vm_compute; discriminate |].
  split; vm_compute; discriminate.
Qed.

