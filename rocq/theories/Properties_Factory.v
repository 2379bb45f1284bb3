(** C02-C09, C16 (is_cnf), C20: the formula factory. *)
From Coq Require Import NArith ZArith List Bool Permutation Lia.
From Coq Require String.
From Verif Require Import Base EncodingModel Syntax FactoryModel FactoryInv FactoryBasics FactoryProofs FactorySpecs FactoryNary FactoryOps
  EvalProofs InvariantSpec HashConsProofs InvariantProofs HistoryModel HistoryProofs.
Import ListNotations.
Local Open Scope N_scope.

(** [m] run in state [s] returns a result satisfying [Q], unless it makes the factory outgrow 2^26 entries in a table. *)
Definition returns {A} (m : M A) (s : factory) (Q : A -> factory -> Prop) : Prop :=
  cap (snd (m s)) -> exists r, fst (m s) = Ok r /\ Q r (snd (m s)).

(** Handle [r] denotes a formula with truth function [S]. *)
Definition means (s : factory) (r : N) (S : valuation -> bool) : Prop := exists y, denotes s r y /\ forall v, sem v y = S v.

Lemma spec_returns : forall A I R s (m : M A) Q (Q' : A -> factory -> Prop), spec I R s m Q ->
  (forall a s', I s' -> Q a s' -> Q' a s') -> returns m s Q'.
Proof. intros A I R s m Q Q' [_ H] HQ Hc. destruct (H Hc) as [a [E [HI [_ Ha]]]]. exists a. auto. Qed.
Lemma result_means : forall s r S l, result s r S l -> means s r S.
Proof. intros s r S l [_ [y [H1 [H2 _]]]]. exists y. auto. Qed.
Lemma result_v_means : forall s r S l, result_v s r S l -> means s r S.
Proof. intros s r S l [_ [y [H1 [H2 _]]]]. exists y. auto. Qed.
Lemma known_vh : forall cfg s known h, reachable cfg s known -> In h known -> wf s /\ vh s h.
Proof. intros cfg s known h H Hin. destruct (reachable_wf cfg s known H) as [Hw Hk]. rewrite Forall_forall in Hk. auto. Qed.
Lemma known_vhs : forall cfg s known l, reachable cfg s known -> incl l known -> wf s /\ Forall (vh s) l.
Proof. intros cfg s known l H Hin. destruct (reachable_wf cfg s known H) as [Hw Hk]. rewrite Forall_forall in *. split; auto. Qed.

(** Every known handle unfolds into exactly one tree, so the hypotheses [denotes s h x] below are met by every known handle. *)
Theorem handles_denote : forall cfg s known h, reachable cfg s known -> In h known ->
  exists x, denotes s h x /\ forall y, denotes s h y -> y = x.
Proof.
  intros cfg s known h Hr Hin. destruct (known_vh _ _ _ _ Hr Hin) as [Hw Hv]. destruct (vh_denotes s h Hw Hv) as [x Hx].
  exists x. split; [assumption |]. intros y Hy. eapply denotes_fun; eauto.
Qed.
Print Assumptions handles_denote.

(* ------------------------------------------------------------------------------------------------------------------ *)
(** * C02 *)

Theorem C02_and : forall cfg s known ops xs, reachable cfg s known -> incl ops known -> Forall2 (denotes s) ops xs ->
  returns (f_and ops) s (fun r s' => means s' r (fun v => forallb (sem v) xs)).
Proof.
  intros cfg s known ops xs Hr Hin Hd. destruct (known_vhs _ _ _ _ Hr Hin) as [Hw Hv].
  eapply spec_returns; [exact (nary_result s true ops xs Hw Hv Hd) |]. intros a s' _ [H _]. eapply result_means; exact H.
Qed.
Print Assumptions C02_and.

Theorem C02_or : forall cfg s known ops xs, reachable cfg s known -> incl ops known -> Forall2 (denotes s) ops xs ->
  returns (f_or ops) s (fun r s' => means s' r (fun v => existsb (sem v) xs)).
Proof.
  intros cfg s known ops xs Hr Hin Hd. destruct (known_vhs _ _ _ _ Hr Hin) as [Hw Hv].
  eapply spec_returns; [exact (nary_result s false ops xs Hw Hv Hd) |]. intros a s' _ [H _]. eapply result_means; exact H.
Qed.
Print Assumptions C02_or.

Theorem C02_clause : forall cfg s known ls, reachable cfg s known -> Forall (knows_lit s known) ls ->
  returns (f_clause ls) s (fun r s' => means s' r (fun v => existsb (lit_sem v) ls)).
Proof.
  intros cfg s known ls Hr Hin. destruct (reachable_wf _ _ _ Hr) as [Hw Hk].
  eapply spec_returns; [exact (f_clause_result s ls Hw (knows_lits_ok s known ls Hw Hk Hin)) |].
  intros a s' _ [H _]. eapply result_means; exact H.
Qed.
Print Assumptions C02_clause.

Theorem C02_not : forall cfg s known h x, reachable cfg s known -> In h known -> denotes s h x ->
  returns (f_not h) s (fun r s' => means s' r (fun v => negb (sem v x))).
Proof.
  intros cfg s known h x Hr Hin Hd. destruct (known_vh _ _ _ _ Hr Hin) as [Hw Hv].
  eapply spec_returns; [exact (f_not_result s h x Hw Hv Hd) |]. intros a s' _ H. eapply result_means; exact H.
Qed.
Print Assumptions C02_not.

Theorem C02_negate : forall cfg s known h x, reachable cfg s known -> In h known -> denotes s h x ->
  returns (f_negate h) s (fun r s' => means s' r (fun v => negb (sem v x))).
Proof.
  intros cfg s known h x Hr Hin Hd. destruct (known_vh _ _ _ _ Hr Hin) as [Hw Hv].
  eapply spec_returns; [exact (f_negate_result s h x Hw Hv Hd) |]. intros a s' _ H. eapply result_v_means; exact H.
Qed.
Print Assumptions C02_negate.

Theorem C02_implication : forall cfg s known l r x y, reachable cfg s known -> In l known -> In r known ->
  denotes s l x -> denotes s r y ->
  returns (f_implication l r) s (fun h s' => means s' h (fun v => implb (sem v x) (sem v y))).
Proof.
  intros cfg s known l r x y Hr Hl Hrr Hx Hy. destruct (known_vh _ _ _ _ Hr Hl) as [Hw Vl], (known_vh _ _ _ _ Hr Hrr) as [_ Vr].
  eapply spec_returns; [exact (f_implication_result s l r x y Hw Vl Vr Hx Hy) |]. intros a s' _ H. eapply result_means; exact H.
Qed.
Print Assumptions C02_implication.

Theorem C02_equivalence : forall cfg s known l r x y, reachable cfg s known -> In l known -> In r known ->
  denotes s l x -> denotes s r y ->
  returns (f_equivalence l r) s (fun h s' => means s' h (fun v => Bool.eqb (sem v x) (sem v y))).
Proof.
  intros cfg s known l r x y Hr Hl Hrr Hx Hy. destruct (known_vh _ _ _ _ Hr Hl) as [Hw Vl], (known_vh _ _ _ _ Hr Hrr) as [_ Vr].
  eapply spec_returns; [exact (f_equivalence_result s l r x y Hw Vl Vr Hx Hy) |]. intros a s' _ H. eapply result_means; exact H.
Qed.
Print Assumptions C02_equivalence.

Theorem C02_constant : forall s b, means s (constant b) (fun _ => b).
Proof. intros s b. exists (if b then FTrue else FFalse). destruct b; (split; [constructor; reflexivity | reflexivity]). Qed.
Print Assumptions C02_constant.

Theorem C02_literal : forall cfg s known name p, reachable cfg s known ->
  returns (f_literal name p) s (fun r s' => exists i, means s' r (fun v => Bool.eqb (v (VFF i)) p)
    /\ var_name s' (encode_lit (Lit (VFF i) true)) = Ok name).
Proof.
  intros cfg s known name p Hr. destruct (reachable_wf _ _ _ Hr) as [Hw _].
  eapply spec_returns; [exact (f_literal_spec s name p Hw) |]. intros h s' Hw' [i [Hv [Hd Hn]]]. exists i. split.
  - exists (FLit (Lit (VFF i) p)). split; [assumption |]. intros v. cbn. destruct p, (v (VFF i)); reflexivity.
  - unfold var_name. rewrite unpack_lit; [cbn; rewrite Hn; reflexivity | exact (wf_cap s' Hw') |].
    unfold lit_ok, lit_var, var_ok. apply nthN_some_lt in Hn. exact Hn.
Qed.
Print Assumptions C02_literal.

(** A concrete history: variables x, y, then and([x, or([y, ~x]), x]) and implication(x, y). *)
Import String.StringSyntax.
Local Open Scope string_scope.
Definition ex_s : factory := snd (f_variable "y" (snd (f_variable "x" (factory_new default_config)))).
Definition hx : N := 35.
Definition hy : N := 99.
Lemma cap_dec : forall s, forallb (fun n => n <=? cap26) (sizes s) = true -> cap s.
Proof. intros s H. unfold cap. rewrite Forall_forall. rewrite forallb_forall in H. intros n Hn. apply N.leb_le. auto. Qed.
Lemma ex_reach : reachable default_config ex_s [hy; hx].
Proof.
  apply (sts_step _ (snd (f_variable "x" (factory_new default_config)), [hx])).
  - apply (sts_step _ (factory_new default_config, [])); [apply sts_refl |].
    apply (st_call _ _ (CVariable "x")); [exact I | vm_compute; reflexivity | apply cap_dec; vm_compute; reflexivity].
  - apply (st_call _ _ (CVariable "y")); [exact I | vm_compute; reflexivity | apply cap_dec; vm_compute; reflexivity].
Qed.
Definition ex_or := f_or [hy; encode_lit (Lit (VFF 0) false)] ex_s.
Definition ex_s2 : factory := snd (f_nary true [hx; 12; hx] (snd ex_or)).
(** A history that builds or([y, ~x]) and the conjunction of x with it: its states and handles are reachable and known. *)
Example C02_ex : exists known, reachable default_config ex_s2 known /\ In 11 known /\ In 12 known /\ In hx known
  /\ denotes ex_s2 11 (FAnd [FLit (Lit (VFF 0) true); FOr [FLit (Lit (VFF 1) true); FLit (Lit (VFF 0) false)]]).
Proof.
  exists [11; 12; hy; hx]. split.
  - apply (sts_step _ (snd ex_or, [12; hy; hx])).
    + apply (sts_step _ (ex_s, [hy; hx])); [exact ex_reach |].
      apply (st_call _ _ (CClause [Lit (VFF 1) true; Lit (VFF 0) false])).
      * constructor; [| constructor; [| constructor]].
        -- exists hy, (NLit (Lit (VFF 1) true)). vm_compute. auto.
        -- exists hx, (NLit (Lit (VFF 0) true)). vm_compute. auto.
      * vm_compute. reflexivity.
      * apply cap_dec; vm_compute; reflexivity.
    + apply (st_call _ _ (CNary true [hx; 12; hx])).
      * intros h H. cbn in *. intuition.
      * vm_compute. reflexivity.
      * apply cap_dec; vm_compute; reflexivity.
  - repeat split; try (cbn; auto; fail).
    apply (d_and _ 11 [hx; 12]); [vm_compute; reflexivity |]. repeat constructor; try (vm_compute; reflexivity).
    apply (d_or _ 12 [hy; 39]); [vm_compute; reflexivity |]. repeat constructor; vm_compute; reflexivity.
Qed.

(* ------------------------------------------------------------------------------------------------------------------ *)
(** * C03 *)

Theorem C03_pbc : forall cfg s known c rhs ls cs, reachable cfg s known -> Forall (knows_lit s known) ls -> length ls = length cs ->
  (forallb lit_phase ls = true -> forallb (Z.eqb 1) cs = true -> (rhs < 4294967296)%Z) ->
  returns (f_pbc c rhs ls cs) s (fun r s' => means s' r (fun v => cmp_sem c (weight v ls cs) rhs)).
Proof.
  intros cfg s known c rhs ls cs Hr Hk Hlen Hf. destruct (reachable_wf _ _ _ Hr) as [Hw Hv].
  assert (pb_fits c rhs ls cs).
  { intros H. unfold is_lit_cc in H. apply andb_true_iff in H. destruct H as [H _]. apply andb_true_iff in H. destruct H as [H1 H2].
    apply Hf; [assumption |]. rewrite forallb_forall in *. intros z Hz. rewrite Z.eqb_sym. auto. }
  eapply spec_returns; [exact (f_pbc_result s c rhs ls cs Hw (knows_lits_ok s known ls Hw Hv Hk) Hlen H) |].
  intros a s' _ H'. eapply result_v_means; exact H'.
Qed.
Print Assumptions C03_pbc.

(** [cc] asserts that the constraint is not `< 0`. *)
Theorem C03_cc : forall cfg s known c rhs vs, reachable cfg s known -> Forall (knows_var s known) vs -> rhs < 4294967296 ->
  (c = LT -> rhs <> 0) ->
  returns (f_cc c rhs vs) s (fun r s' => means s' r (fun v => cmp_sem c (count_true v vs) (Z.of_N rhs))).
Proof.
  intros cfg s known c rhs vs Hr Hk Hrhs Hlt. destruct (reachable_wf _ _ _ Hr) as [Hw Hv].
  eapply spec_returns; [exact (f_cc_result s c rhs vs Hw (knows_vars_ok s known vs Hw Hv Hk) Hrhs Hlt) |].
  intros a s' _ H'. eapply result_v_means; exact H'.
Qed.
Print Assumptions C03_cc.
Theorem C03_amo : forall cfg s known vs, reachable cfg s known -> Forall (knows_var s known) vs ->
  returns (f_amo vs) s (fun r s' => means s' r (fun v => (count_true v vs <=? 1)%Z)).
Proof.
  intros cfg s known vs Hr Hk. exact (C03_cc cfg s known LE 1 vs Hr Hk ltac:(reflexivity) ltac:(discriminate)).
Qed.
Print Assumptions C03_amo.
Theorem C03_exo : forall cfg s known vs, reachable cfg s known -> Forall (knows_var s known) vs ->
  returns (f_exo vs) s (fun r s' => means s' r (fun v => (count_true v vs =? 1)%Z)).
Proof.
  intros cfg s known vs Hr Hk. exact (C03_cc cfg s known EQ 1 vs Hr Hk ltac:(reflexivity) ltac:(discriminate)).
Qed.
Print Assumptions C03_exo.

Example C03_ex : fst (f_pbc GE 2 [Lit (VFF 0) true; Lit (VFF 1) false] [2; -3]%Z ex_s) = Ok 49
  /\ fst (f_pbc GT (-1) [Lit (VFF 0) true; Lit (VFF 1) true] [1; 1]%Z ex_s) = Ok 48
  /\ (forall v, cmp_sem GE (weight v [Lit (VFF 0) true; Lit (VFF 1) false] [2; -3]%Z) 2 = (v (VFF 0) && v (VFF 1))).
Proof. split; [vm_compute; reflexivity |]. split; [vm_compute; reflexivity |]. intros v. cbn. destruct (v (VFF 0)), (v (VFF 1)); reflexivity. Qed.

(** Without the bound on the right-hand side the claim is false: `x <= 2^32` becomes the cardinality constraint `x <= 0`. *)
Theorem C03_pbc_u32_refuted : exists cfg s known c rhs ls cs r s', reachable cfg s known /\ Forall (knows_lit s known) ls
  /\ length ls = length cs /\ f_pbc c rhs ls cs s = (Ok r, s') /\ cap s'
  /\ exists y v, denotes s' r y /\ sem v y = false /\ cmp_sem c (weight v ls cs) rhs = true.
Proof.
  exists default_config, ex_s, [hy; hx], LE, 4294967296%Z, [Lit (VFF 0) true], [1%Z], 48,
    (snd (f_pbc LE 4294967296%Z [Lit (VFF 0) true] [1%Z] ex_s)).
  split; [exact ex_reach |]. split.
  { constructor; [| constructor]. exists hx, (NLit (Lit (VFF 0) true)). vm_compute. auto. }
  split; [reflexivity |]. split; [vm_compute; reflexivity |]. split; [apply cap_dec; vm_compute; reflexivity |].
  exists (FCc (mkCc [VFF 0] LE 0)), (fun _ => true). split; [apply d_cc; vm_compute; reflexivity | split; reflexivity].
Qed.
Print Assumptions C03_pbc_u32_refuted.

(* ------------------------------------------------------------------------------------------------------------------ *)
(** * C04 *)

Theorem C04_invariants : forall cfg s known h x, reachable cfg s known -> In h known -> denotes s h x -> doc_ok x.
Proof.
  intros cfg s known h x Hr Hin Hd. destruct (known_vh _ _ _ _ Hr Hin) as [Hw Hv]. eapply handle_doc_ok; eauto.
Qed.
Print Assumptions C04_invariants.

Example C04_ex : exists known, reachable default_config ex_s2 known /\ In 11 known
  /\ denotes ex_s2 11 (FAnd [FLit (Lit (VFF 0) true); FOr [FLit (Lit (VFF 1) true); FLit (Lit (VFF 0) false)]]).
Proof. destruct C02_ex as [known [H1 [H2 [_ [_ H3]]]]]. exists known. auto. Qed.
(** The predicate is not trivial: trees the factory must never store. *)
Example C04_not_trivial : ~ doc_ok (FAnd [FLit (Lit (VFF 0) true); FAnd [FLit (Lit (VFF 1) true); FLit (Lit (VFF 2) true)]])
  /\ ~ doc_ok (FNot (FOr [FLit (Lit (VFF 0) true); FLit (Lit (VFF 0) false)]))
  /\ ~ doc_ok (FNot (FNot (FCc (mkCc [VFF 0] LE 1)))) /\ ~ doc_ok (FImpl FTrue (FLit (Lit (VFF 0) true))).
Proof.
  repeat split; intros H.
  - destruct (H _ (su_refl _)) as [_ Hf]. apply (Hf [FLit (Lit (VFF 1) true); FLit (Lit (VFF 2) true)]). cbn. auto.
  - destruct (H _ (su_not _ _ (su_refl _))) as [[_ [_ [_ Hc]]] _].
    apply (Hc (FLit (Lit (VFF 0) true)) (FLit (Lit (VFF 0) false))); cbn; auto. right. right. exists (Lit (VFF 0) true). auto.
  - exact (H _ (su_refl _)).
  - destruct (H _ (su_refl _)) as [Hc _]. apply Hc. left. reflexivity.
Qed.

(** The further documented simplification "A <=> ~A is $false" (lines 103-105) is not performed for every formula: with a
    cardinality constraint A, equivalence(~A, A) builds an equivalence while equivalence(A, ~A) is $false. *)
Theorem C04_equivalence_refuted : exists s c n, fst (f_amo [VFF 0; VFF 1] ex_s) = Ok c /\ fst (f_not c s) = Ok n
  /\ s = snd (f_amo [VFF 0; VFF 1] ex_s)
  /\ fst (f_equivalence c n (snd (f_not c s))) = Ok falsum
  /\ exists r, fst (f_equivalence n c (snd (f_not c s))) = Ok r /\ r <> falsum.
Proof.
  exists (snd (f_amo [VFF 0; VFF 1] ex_s)), 48, 13. vm_compute. repeat split; try reflexivity. exists 15. split; [reflexivity | discriminate].
Qed.
Print Assumptions C04_equivalence_refuted.

(* ------------------------------------------------------------------------------------------------------------------ *)
(** * C02, C04 beyond 2^26: parsed auxiliary variables *)

(** [parsed_variable] accepts any index, so a handle of a literal can exceed 32 bits without a large factory.  The 32 bit sets of
    [filter_flatten] and [contains_complement] then confuse it with another literal: and([a, b]) is a, and([a, ~b]) is $false. *)
Definition aux_a : N := encode_lit (Lit (VAux AuxCNF 0) true).
Definition aux_b : N := encode_lit (Lit (VAux AuxCNF 67108864) true).
Definition aux_nb : N := encode_lit (Lit (VAux AuxCNF 67108864) false).
Theorem C02_large_refuted : exists ops xs v r, Forall2 (denotes (factory_new default_config)) ops xs
  /\ fst (f_and ops (factory_new default_config)) = Ok r
  /\ exists y, denotes (snd (f_and ops (factory_new default_config))) r y /\ sem v y <> forallb (sem v) xs.
Proof.
  exists [aux_a; aux_nb], [FLit (Lit (VAux AuxCNF 0) true); FLit (Lit (VAux AuxCNF 67108864) false)],
    (fun x => var_eqb x (VAux AuxCNF 0)), falsum.
  split; [repeat constructor; vm_compute; reflexivity |]. split; [vm_compute; reflexivity |].
  exists FFalse. split; [constructor; vm_compute; reflexivity | vm_compute; discriminate].
Qed.
Print Assumptions C02_large_refuted.
Theorem C02_large_drop_refuted : fst (f_and [aux_a; aux_b] (factory_new default_config)) = Ok aux_a /\ aux_a <> aux_b.
Proof. vm_compute. split; [reflexivity | discriminate]. Qed.
Print Assumptions C02_large_drop_refuted.

(* ------------------------------------------------------------------------------------------------------------------ *)
(** * C05 *)

Theorem C05_canonical : forall cfg s known h h' x y, reachable cfg s known -> In h known -> In h' known ->
  denotes s h x -> denotes s h' y -> feq x y -> h = h'.
Proof.
  intros cfg s known h h' x y Hr H H' Hx Hy He. destruct (known_vh _ _ _ _ Hr H) as [Hw V], (known_vh _ _ _ _ Hr H') as [_ V'].
  eapply handles_canonical; eauto.
Qed.
Print Assumptions C05_canonical.

(** Running a call again, at any later point, returns the old handle and changes nothing at all. *)
Theorem C05_again : forall cfg s known c r s' s2 known2, reachable cfg s known -> call_ok s known c ->
  (forall a, c <> CAux a) ->
  run_call c s = (Ok r, s') -> cap s' -> steps (s', r :: known) (s2, known2) -> run_call c s2 = (Ok r, s2).
Proof.
  intros cfg s known c r s' s2 known2 Hr Hok Hna Hrun Hc Hst. destruct (reachable_wf _ _ _ Hr) as [Hw Hk].
  destruct (call_run s known c r s' Hw Hk Hok Hrun Hc) as [Hw' [He Hv']].
  assert (Hs' : state_ok (s', r :: known)).
  { split; [assumption |]. cbn. constructor; [assumption |]. eapply Forall_impl; [| exact Hk]. intros h Hh. eapply vh_ext; [exact He | exact Hh]. }
  destruct (steps_ok _ _ Hst Hs') as [[Hw2 _] He2]. cbn [fst] in *.
  pose proof (asserted_of_run _ _ _ _ Hrun) as Has.
  assert (Hden : forall h, In h known -> vh s h) by (rewrite Forall_forall in Hk; exact Hk).
  assert (Hag : again (run_call c) s).
  { destruct c as [name | name p | b | cj ops | ls | h | h | l r' | l r' | c rhs vs | c rhs ls cs | a | a i]; cbn [call_ok run_call asserted] in *.
    - apply f_variable_again; assumption.
    - apply f_literal_again; assumption.
    - apply again_ret.
    - apply again_nary; [assumption |]. rewrite Forall_forall. auto.
    - apply again_nary; [assumption |]. apply encode_lits_denote; [assumption |]. eapply knows_lits_ok; eassumption.
    - apply f_not_again; auto.
    - apply f_negate_again; auto.
    - destruct Hok. apply f_implication_again; auto.
    - destruct Hok. apply f_equivalence_again; auto.
    - destruct Hok. apply f_cc_again; auto. eapply knows_vars_ok; eassumption.
    - destruct Hok. apply f_pbc_again; auto. eapply knows_lits_ok; eassumption.
    - destruct (Hna a eq_refl).
    - apply again_ret. }
  exact (Hag r s' Hrun Hc s2 Hw2 He2).
Qed.
Print Assumptions C05_again.

Corollary C05_no_new_node : forall cfg s known c r s' s2 known2, reachable cfg s known -> call_ok s known c -> (forall a, c <> CAux a) ->
  run_call c s = (Ok r, s') -> cap s' -> steps (s', r :: known) (s2, known2) ->
  number_of_cached_nodes (snd (run_call c s2)) = number_of_cached_nodes s2.
Proof. intros. erewrite C05_again by eassumption. reflexivity. Qed.
Print Assumptions C05_no_new_node.

(** and([x, y]) and and([y, x, y]) are one formula. *)
Example C05_ex : fst (f_and [hx; hy] ex_s) = Ok 11 /\ fst (f_and [hy; hx; hy] (snd (f_and [hx; hy] ex_s))) = Ok 11
  /\ fst (f_equivalence hx hy ex_s) = Ok 15 /\ fst (f_equivalence hy hx (snd (f_equivalence hx hy ex_s))) = Ok 15.
Proof. vm_compute. repeat split; reflexivity. Qed.

(* ------------------------------------------------------------------------------------------------------------------ *)
(** * C06 *)

Theorem C06_immutable : forall cfg s known s' known' h n x, reachable cfg s known -> In h known -> steps (s, known) (s', known') ->
  unpack s h = Ok n -> denotes s h x ->
  In h known' /\ unpack s' h = Ok n /\ denotes s' h x /\ (forall y, denotes s' h y -> y = x) /\ (forall nm, var_name s h = Ok nm -> var_name s' h = Ok nm)
  /\ (forall fuel a, evaluate fuel s' h a = evaluate fuel s h a).
Proof.
  intros cfg s known s' known' h n x Hr Hin Hst Hu Hd. destruct (reachable_wf _ _ _ Hr) as [Hw Hk].
  assert (Hs : state_ok (s, known)) by (split; assumption).
  destruct (steps_ok _ _ Hst Hs) as [[Hw' _] He]. cbn [fst snd] in *.
  assert (Hu' : unpack s' h = Ok n) by (eapply unpack_ext; [apply He | exact Hu]).
  assert (Hd' : denotes s' h x) by (eapply denotes_ext; [apply He | exact Hd]).
  split; [apply (steps_known _ _ Hst); exact Hin |].
  split; [assumption |]. split; [assumption |]. split; [intros y Hy; eapply denotes_fun; eauto |]. split.
  - intros nm Hn. unfold var_name in *. rewrite Hu' , Hu in *. cbn [rbind] in *. destruct n as [ | | [[i | a i] [ | ]] | | | | | | | ]; try discriminate.
    destruct (nthN (vt_vec (t_vars (f_tabs s))) i) eqn:E; [| discriminate].
    rewrite (prefix_nthN _ _ _ _ _ (te_vars _ _ (proj1 He)) E). exact Hn.
  - intros fuel a. rewrite Forall_forall in Hk. apply evaluate_ext; auto.
Qed.
Print Assumptions C06_immutable.

Example C06_ex : exists known, steps (ex_s, [hy; hx]) (ex_s2, known) /\ unpack ex_s hx = Ok (NLit (Lit (VFF 0) true)) /\ In hx known.
Proof.
  exists [11; 12; hy; hx]. split; [| split; [vm_compute; reflexivity | cbn; auto]].
  apply (sts_step _ (snd ex_or, [12; hy; hx])).
  - apply (sts_step _ (ex_s, [hy; hx])); [apply sts_refl |].
      apply (st_call _ _ (CClause [Lit (VFF 1) true; Lit (VFF 0) false])).
      * constructor; [| constructor; [| constructor]].
        -- exists hy, (NLit (Lit (VFF 1) true)). vm_compute. auto.
        -- exists hx, (NLit (Lit (VFF 0) true)). vm_compute. auto.
      * vm_compute. reflexivity.
      * apply cap_dec; vm_compute; reflexivity.
  - apply (st_call _ _ (CNary true [hx; 12; hx])).
    + intros h H. cbn in *. intuition.
    + vm_compute. reflexivity.
    + apply cap_dec; vm_compute; reflexivity.
Qed.

(* ------------------------------------------------------------------------------------------------------------------ *)
(** * C07 *)

Theorem C07_names : forall cfg s known n1 n2 r1 s1 s2 known2 r2 s3,
  reachable cfg s known -> f_variable n1 s = (Ok r1, s1) -> cap s1 -> steps (s1, r1 :: known) (s2, known2) ->
  f_variable n2 s2 = (Ok r2, s3) -> cap s3 ->
  (r1 = r2 <-> n1 = n2) /\ var_name s3 r1 = Ok n1 /\ var_name s3 r2 = Ok n2.
Proof.
  intros cfg s known n1 n2 r1 s1 s2 known2 r2 s3 Hr H1 C1 Hst H2 C3.
  assert (R1 : reachable cfg s1 (r1 :: known)) by (eapply sts_step; [exact Hr |]; apply (st_call _ _ (CVariable n1)); [exact I | assumption | assumption]).
  assert (R2 : reachable cfg s2 known2) by (eapply steps_trans; eassumption).
  assert (R3 : reachable cfg s3 (r2 :: known2)) by (eapply sts_step; [exact R2 |]; apply (st_call _ _ (CVariable n2)); [exact I | assumption | assumption]).
  destruct (reachable_wf _ _ _ Hr) as [Hw _]. destruct (reachable_wf _ _ _ R2) as [Hw2 _].
  destruct (spec_run _ _ _ _ _ _ _ _ (f_variable_spec s n1 Hw) H1 C1) as [a1 [E1 [W1 [_ [i [Hi [_ [Oi Ni]]]]]]]]. injection E1 as <-.
  destruct (spec_run _ _ _ _ _ _ _ _ (f_variable_spec s2 n2 Hw2) H2 C3) as [a2 [E2 [W3 [K3 [j [Hj [_ [Oj Nj]]]]]]]]. injection E2 as <-.
  assert (He : ext s1 s3).
  { eapply ext_trans; [| apply core_ext; exact K3]. apply (steps_ok _ _ Hst). exact (reachable_wf _ _ _ R1). }
  assert (Ni3 : nthN (vt_vec (t_vars (f_tabs s3))) i = Some n1).
  { exact (prefix_nthN _ _ _ _ _ (te_vars _ _ (proj1 He)) Ni). }
  assert (Oi3 : lit_ok s3 (Lit (VFF i) true)) by (unfold lit_ok, lit_var; eapply var_ok_ext; eauto).
  assert (N1 : var_name s3 r1 = Ok n1) by (subst r1; unfold var_name; rewrite unpack_lit; [cbn; rewrite Ni3; reflexivity | exact C3 | exact Oi3]).
  assert (N2 : var_name s3 r2 = Ok n2) by (subst r2; unfold var_name; rewrite unpack_lit; [cbn; rewrite Nj; reflexivity | exact C3 | exact Oj]).
  split; [| auto]. split; [intros <-; congruence |]. intros <-.
  assert (Hs : f_variable n1 s2 = (Ok r1, s2)).
  { apply (C05_again cfg s known (CVariable n1) r1 s1 s2 known2 Hr I); auto. discriminate. }
  cbn [run_call] in Hs. rewrite Hs in H2. congruence.
Qed.
Print Assumptions C07_names.
Example C07_ex : fst (f_variable "x" ex_s) = Ok hx /\ fst (f_variable "z" ex_s) = Ok 163 /\ var_name ex_s hy = Ok "y".
Proof. vm_compute. repeat split; reflexivity. Qed.

(* ------------------------------------------------------------------------------------------------------------------ *)
(** * C08 *)

Theorem C08_fresh : forall cfg s known a b v s1 s2 known2 w s3, reachable cfg s known ->
  f_new_aux a s = (Ok v, s1) -> cap s1 -> steps (s1, encode_lit (Lit v true) :: known) (s2, known2) -> f_new_aux b s2 = (Ok w, s3) ->
  v <> w /\ (forall i, v <> VFF i).
Proof.
  intros cfg s known a b v s1 s2 known2 w s3 Hr H1 C1 Hst H2.
  destruct (reachable_wf _ _ _ Hr) as [Hw Hk].
  assert (R1 : reachable cfg s1 (encode_lit (Lit v true) :: known)).
  { eapply sts_step; [exact Hr |]. apply (st_call _ _ (CAux a)); [exact I | | exact C1]. cbn [run_call]. unfold bind. rewrite H1. reflexivity. }
  destruct (steps_ok _ _ Hst (reachable_wf _ _ _ R1)) as [_ [_ [_ [P1 [P2 P3]]]]]. cbn [fst] in *.
  destruct a, b; cbn in H1, H2; inversion H1; subst; inversion H2; subst; cbn in *; (split; [| discriminate]); intros Heq; inversion Heq; lia.
Qed.
Print Assumptions C08_fresh.

(** A variable created by name is never an auxiliary variable. *)
Theorem C08_user_variable : forall cfg s known name r s' n, reachable cfg s known -> f_variable name s = (Ok r, s') -> cap s' ->
  unpack s' r = Ok n -> exists i, n = NLit (Lit (VFF i) true).
Proof.
  intros cfg s known name r s' n Hr H C Hu. destruct (reachable_wf _ _ _ Hr) as [Hw _].
  destruct (spec_run _ _ _ _ _ _ _ _ (f_variable_spec s name Hw) H C) as [r' [E [W [_ [i [Hi [_ [Oi _]]]]]]]].
  assert (r = encode_lit (Lit (VFF i) true)) by congruence. subst r. exists i. rewrite unpack_lit in Hu; [congruence | exact C | exact Oi].
Qed.
Print Assumptions C08_user_variable.

Example C08_ex : fst ((a <-- f_new_aux AuxCC ;; b <-- f_new_aux AuxCC ;; c <-- f_new_aux AuxPB ;; ret [a; b; c]) ex_s)
  = Ok [VAux AuxCC 0; VAux AuxCC 1; VAux AuxPB 0].
Proof. vm_compute. reflexivity. Qed.

(** Parsing the name of an auxiliary variable before it is generated breaks freshness: the generated one is not new. *)
Theorem C08_parsed_refuted : exists cfg s known h s' v, reachable cfg s known
  /\ call_ok s known (CParsed AuxCC 0) /\ run_call (CParsed AuxCC 0) s = (Ok h, s')
  /\ fst (f_new_aux AuxCC s') = Ok v /\ h = encode_lit (Lit v true).
Proof.
  exists default_config, ex_s, [hy; hx], (encode_lit (Lit (VAux AuxCC 0) true)), ex_s, (VAux AuxCC 0).
  split; [exact ex_reach |]. split; [reflexivity |]. split; [reflexivity |]. split; vm_compute; reflexivity.
Qed.
Print Assumptions C08_parsed_refuted.

(* ------------------------------------------------------------------------------------------------------------------ *)
(** * C09 *)

Theorem C09_evaluate : forall cfg s known h x a, reachable cfg s known -> In h known -> denotes s h x -> consistent a -> fits x ->
  exists fuel, forall fuel', (fuel <= fuel')%nat -> evaluate fuel' s h a = Ok (sem (val_of a) x).
Proof.
  intros cfg s known h x a Hr Hin Hd Hc Hf. exists (S (depth x)). intros fuel' Hle. apply evaluate_correct; auto.
Qed.
Print Assumptions C09_evaluate.

Example C09_ex : evaluate 3 ex_s2 11 (mkAsg [VFF 0; VFF 1] []) = Ok true /\ evaluate 3 ex_s2 11 (mkAsg [VFF 0] [VFF 1]) = Ok false
  /\ consistent (mkAsg [VFF 0] [VFF 1]).
Proof. split; [vm_compute; reflexivity |]. split; [vm_compute; reflexivity |]. intros x [<- | []] [H | []]. discriminate. Qed.

(** An assignment may list a variable on both sides (nothing in assignment.rs prevents it); then x and ~x are both true. *)
Theorem C09_contradictory_refuted : exists a, evaluate 1 ex_s hx a = Ok true
  /\ evaluate 1 ex_s (encode_lit (Lit (VFF 0) false)) a = Ok true.
Proof. exists (mkAsg [VFF 0] [VFF 0]). vm_compute. split; reflexivity. Qed.
Print Assumptions C09_contradictory_refuted.
(** Sums beyond 64 bits wrap (release build): 2^62 x + 2^62 y >= 1 is false for x = y = true. *)
Theorem C09_overflow_refuted : exists p a, pbc_evaluate a p <> pbc_sem (val_of a) p /\ consistent a.
Proof.
  exists (mkPbc [Lit (VFF 0) true; Lit (VFF 1) true] [4611686018427387904; 4611686018427387904]%Z GE 1), (mkAsg [VFF 0; VFF 1] []).
  split; [vm_compute; discriminate |]. intros x _ [].
Qed.
Print Assumptions C09_overflow_refuted.

(* ------------------------------------------------------------------------------------------------------------------ *)
(** * C20 *)

Theorem C20_cc : forall cfg s known h c, reachable cfg s known -> In h known -> unpack s h = Ok (NCc c) ->
  returns (cc_negate c) s (fun r s' => means s' r (fun v => negb (cc_sem v c))).
Proof.
  intros cfg s known h c Hr Hin Hu. destruct (known_vh _ _ _ _ Hr Hin) as [Hw Hv].
  destruct (unpack_cc_vh s h c Hw Hv Hu) as [_ [H1 [H2 _]]].
  eapply spec_returns; [exact (cc_negate_spec s c Hw H1 H2) |]. intros a s' _ H. eapply result_v_means; exact H.
Qed.
Print Assumptions C20_cc.
Theorem C20_pbc : forall cfg s known h p, reachable cfg s known -> In h known -> unpack s h = Ok (NPbc p) ->
  returns (pbc_negate p) s (fun r s' => means s' r (fun v => negb (pbc_sem v p))).
Proof.
  intros cfg s known h p Hr Hin Hu. destruct (known_vh _ _ _ _ Hr Hin) as [Hw Hv].
  destruct (unpack_pbc_vh s h p Hw Hv Hu) as [_ [H1 [H2 H3]]].
  eapply spec_returns; [exact (pbc_negate_spec s p Hw H2 H1 H3) |]. intros a s' _ H. eapply result_v_means; exact H.
Qed.
Print Assumptions C20_pbc.
Example C20_ex : fst ((c <-- f_exo [VFF 0; VFF 1] ;; f_negate c) ex_s) = Ok 12
  /\ unpack (snd ((c <-- f_exo [VFF 0; VFF 1] ;; f_negate c) ex_s)) 12 = Ok (NOr [112; 176]).
Proof. vm_compute. split; reflexivity. Qed.

(* ------------------------------------------------------------------------------------------------------------------ *)
(** * C16 (is_cnf) *)

(** The syntactic form: a constant, a literal, a clause or a conjunction of literals and clauses. *)
Inductive is_clause_form : fml -> Prop :=
| cf_lit : forall l, is_clause_form (FLit l)
| cf_or : forall ls, is_clause_form (FOr (map FLit ls)).
Inductive is_cnf_form : fml -> Prop :=
| cnf_true : is_cnf_form FTrue
| cnf_false : is_cnf_form FFalse
| cnf_clause : forall x, is_clause_form x -> is_cnf_form x
| cnf_and : forall xs, Forall is_clause_form xs -> is_cnf_form (FAnd xs).

Lemma all_lits_map : forall xs, forallb is_flit xs = true -> exists ls, xs = map FLit ls.
Proof.
  induction xs as [| x xs IH]; intros H; [exists []; reflexivity |]. cbn in H. apply andb_true_iff in H. destruct H as [Hx H].
  destruct (IH H) as [ls ->]. destruct x; try discriminate. exists (l :: ls). reflexivity.
Qed.
Lemma map_all_lits : forall ls, forallb is_flit (map FLit ls) = true.
Proof. induction ls; [reflexivity | assumption]. Qed.
Lemma fclause_form : forall x, is_fclause x = true <-> is_clause_form x.
Proof.
  intros x. split.
  - destruct x; cbn; intros H; try discriminate; [constructor |]. destruct (all_lits_map l H) as [ls ->]. constructor.
  - intros [l | ls]; cbn; [reflexivity | apply map_all_lits].
Qed.
Lemma cnf_shape_form : forall x, cnf_shape x = true <-> is_cnf_form x.
Proof.
  intros x. split.
  - destruct x; cbn; intros H; try discriminate; try (constructor; fail).
    + apply cnf_clause. constructor.
    + apply cnf_and. rewrite Forall_forall. rewrite forallb_forall in H. intros y Hy. apply fclause_form. auto.
    + apply cnf_clause. apply fclause_form. exact H.
  - intros [ | | y Hy | xs Hx]; try reflexivity.
    + destruct Hy; cbn; [reflexivity | apply map_all_lits].
    + cbn. apply forallb_forall. rewrite Forall_forall in Hx. intros y Hy. apply fclause_form. auto.
Qed.

Theorem C16_is_cnf : forall cfg s known h x, reachable cfg s known -> In h known -> denotes s h x ->
  exists b, is_cnf s h = Ok b /\ (b = true <-> is_cnf_form x).
Proof.
  intros cfg s known h x Hr Hin Hd. destruct (known_vh _ _ _ _ Hr Hin) as [Hw Hv].
  exists (cnf_shape x). split; [exact (wf_cnf_exact s Hw h x Hv Hd) | apply cnf_shape_form].
Qed.
Print Assumptions C16_is_cnf.
Example C16_ex : is_cnf ex_s2 11 = Ok true /\ fst ((a <-- f_and [hx; hy] ;; b <-- f_or [a; hx] ;; lift (fun s => is_cnf s b)) ex_s) = Ok false.
Proof. vm_compute. split; reflexivity. Qed.
