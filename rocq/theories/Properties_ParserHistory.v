(** C63: a parsed formula is a formula that the caller could have built with the constructors of the factory. *)
From Coq Require Import String Ascii NArith ZArith List Bool Arith Lia.
From Verif Require Import Base EncodingModel Syntax FactoryModel FactoryInv FactoryBasics EvalProofs HistoryModel HistoryProofs TransModel XHistory XHistoryProofs XReplay ParserModel IoModel ParserHistory
  Properties_Factory.
Import ListNotations.
Local Open Scope N_scope.

(** [text_fits]: no name is the reserved name of an auxiliary variable of this factory (C08_parsed_refuted) and right-hand sides of
    comparisons are below 2^32 (C03_pbc_u32_refuted). Then the state after parsing is reachable by calls of the constructors, with
    all handles from before and the new one; all theorems about reachable factories hold for it. *)
Theorem C63_parse : forall cfg s known fid fuel t h s', reachable cfg s known -> text_fits fid fuel t ->
  parse fid fuel t s = (Ok (Some h), s') -> cap s' -> exists known', reachable cfg s' known' /\ incl known known' /\ In h known'.
Proof.
  intros cfg s known fid fuel t h s' Hr Hf E Hc. pose proof (reachable_wf _ _ _ Hr) as Ha.
  destruct (hist_parse fid fuel t (s, known) Ha Hf (Some h) s' E Hc) as (k & H & Hh). apply psteps_steps in H. exists k.
  split; [exact (steps_trans _ _ _ Hr H) |]. split; [exact (steps_known _ _ H) | exact (Hh h eq_refl)].
Qed.
Print Assumptions C63_parse.

(** The same in histories that also use the operations, caches, encoders and solvers. *)
Lemma xstate_ok : forall cfg s known os, xreachable cfg s known os -> state_ok (s, known).
Proof.
  intros cfg s known os Hr. destruct (xreachable_ok _ _ _ _ Hr) as [W [Hi [Hk _]]]. split; [apply Hi |]. eapply Forall_impl; [| exact Hk]. intros h [x Hx]. apply Hx.
Qed.
Lemma xsteps_app : forall a b c, xsteps a b -> xsteps b c -> xsteps a c.
Proof. intros a b c H K. induction K as [| b c d K IH Hs]; [assumption |]. exact (xss_step a c d (IH H) Hs). Qed.
Theorem C63_parse_any_state : forall cfg s known os fid fuel t h s', xreachable cfg s known os -> text_fits fid fuel t ->
  parse fid fuel t s = (Ok (Some h), s') -> cap s' -> exists known', xreachable cfg s' known' os /\ incl known known' /\ In h known'.
Proof.
  intros cfg s known os fid fuel t h s' Hr Hf E Hc. destruct (hist_parse fid fuel t (s, known) (xstate_ok _ _ _ _ Hr) Hf (Some h) s' E Hc) as (k & H & Hh). exists k.
  split; [exact (xsteps_app _ _ _ Hr (psteps_xsteps _ _ os H)) |]. split; [exact (steps_known _ _ (psteps_steps _ _ H)) | exact (Hh h eq_refl)].
Qed.
Print Assumptions C63_parse_any_state.

(** Reading a file. *)
Theorem C63_read_formula : forall cfg s known os fid fuel t h s', xreachable cfg s known os -> (forall l, In l (lines t) -> text_fits fid fuel l) ->
  read_formula fid fuel t s = (Ok h, s') -> cap s' -> exists known', xreachable cfg s' known' os /\ incl known known' /\ In h known'.
Proof.
  intros cfg s known os fid fuel t h s' Hr Hf E Hc. destruct (hist_read_formula fid fuel t (s, known) (xstate_ok _ _ _ _ Hr) Hf h s' E Hc) as (k & H & Hh). exists k.
  split; [exact (xsteps_app _ _ _ Hr (psteps_xsteps _ _ os H)) |]. split; [exact (steps_known _ _ (psteps_steps _ _ H)) | exact Hh].
Qed.
Print Assumptions C63_read_formula.

(** A text with a syntax error leaves the factory unchanged. *)
Theorem C63_error : forall s fid fuel t s', parse fid fuel t s = (Ok None, s') -> s' = s.
Proof.
  intros s fid fuel t s' E. unfold parse, bind, lift in E. destruct (p_formula fuel t) as [[[p |] |] | |]; try discriminate.
  - destruct (eval_pt fid p s) as [[h | |] s1]; discriminate.
  - injection E as <-. reflexivity.
Qed.
Print Assumptions C63_error.

(** A text with all kinds of operators; the two conditions of [text_fits] cannot be dropped (C08_parsed_refuted, C03_pbc_u32_refuted). *)
Definition ex_text : text := tx "~(A & B) | 2*C + -3*~D >= 2 => A <=> B & (C | $false)".
Example C63_ex : text_fits (tx "F") 20 ex_text /\ (exists h, fst (parse (tx "F") 20 ex_text (factory_new default_config)) = Ok (Some h))
  /\ fst (parse (tx "F") 20 (tx "A & & B") (factory_new default_config)) = Ok None.
Proof.
  split; [| split; [eexists; vm_compute; reflexivity | vm_compute; reflexivity]].
  intros t E. vm_compute in E. injection E as <-. split.
  - intros n Hn i a d Ed. cbn in Hn. repeat (destruct Hn as [<- | Hn]; [vm_compute in Ed; discriminate |]). destruct Hn.
  - intros d Hd s z Hz. cbn in Hd. repeat (destruct Hd as [<- | Hd]; [vm_compute in Hz; injection Hz as <-; lia |]). destruct Hd.
Qed.

(** A file is read only if each of its lines is a formula. *)
Theorem C63_read_lines : forall fid fuel t s h s', read_formula fid fuel t s = (Ok h, s') -> forall l, In l (lines t) -> exists p, p_formula fuel l = Ok (Some p).
Proof.
  intros fid fuel t s h s' E. unfold read_formula, bind in E. destruct (read_operands fid fuel (lines t) s) as [[hs | |] s1] eqn:E1; try discriminate. clear E h s'.
  revert s hs s1 E1. induction (lines t) as [| l r IH]; intros s hs s1 E l0 Hl; [destruct Hl |]. cbn [read_operands] in E. unfold bind in E.
  destruct (parse fid fuel l s) as [[[h |] | |] s2] eqn:Ep; try discriminate. destruct (read_operands fid fuel r s2) as [[hs' | |] s3] eqn:Er; try discriminate.
  destruct Hl as [<- | Hl]; [| eapply IH; eauto]. unfold parse, bind, lift in Ep. destruct (p_formula fuel l) as [[p |] | |]; try discriminate. eauto.
Qed.
Print Assumptions C63_read_lines.
Example C63_lines_ex : fst (read_formula (tx "F") 20 (tx "A | B" ++ [LF] ++ tx "A & & B") (factory_new default_config)) = Panic
  /\ exists h, fst (read_formula (tx "F") 20 (tx "A | B" ++ [LF] ++ tx "A & B") (factory_new default_config)) = Ok h.
Proof. split; [vm_compute; reflexivity | eexists; vm_compute; reflexivity]. Qed.
