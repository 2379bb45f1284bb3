(** Every reachable factory state is well formed, and states only grow. *)
From Coq Require Import NArith ZArith List Bool Lia.
From Coq Require String.
From Verif Require Import Base EncodingModel EncodingProofs Syntax FactoryModel FactoryInv FactoryBasics FactoryProofs FactorySpecs
  FactoryNary FactoryOps InvariantSpec HashConsProofs HistoryModel.
Import ListNotations.
Local Open Scope N_scope.

Lemma vtab_ok_empty : forall V (keq : V -> V -> bool) canon ty large, vtab_ok keq canon ty large vtab_empty.
Proof. intros. constructor; cbn; intros; try contradiction; discriminate. Qed.
Lemma c2_ok_empty : forall V (keq : V -> V -> bool) canon ty, c2_ok keq canon ty cache2_empty.
Proof. intros. split; [apply vtab_ok_empty | split; reflexivity]. Qed.

Lemma cap_new : forall cfg, cap (factory_new cfg).
Proof. intros cfg. unfold cap, sizes, c2_sizes, cap26. cbn. repeat constructor; vm_compute; congruence. Qed.

Lemma wf_new : forall cfg, wf (factory_new cfg).
Proof.
  intros cfg. constructor; try (cbn; solve [apply vtab_ok_empty | apply c2_ok_empty | intros; discriminate]).
  - apply cap_new.
  - cbn. intros h H. congruence.
  - intros h x Hv Hd. pose proof (cap_new cfg) as Hc. pose proof (type_denotes _ h x Hc Hv Hd) as Ht. unfold is_cnf, ftype. rewrite Ht.
    assert (Htab : forall ty i, i < tlen (factory_new cfg) ty -> False) by (intros ty i Hi; destruct ty; cbn in Hi; lia).
    destruct Hv as [ | | l Hl | ty i Hi]; [| | | exfalso; eauto].
    + assert (x = FTrue) as -> by (apply (denotes_by_node _ verum NTrue x eq_refl Hd)). reflexivity.
    + assert (x = FFalse) as -> by (apply (denotes_by_node _ falsum NFalse x eq_refl Hd)). reflexivity.
    + assert (x = FLit l) as ->; [| reflexivity].
      apply (denotes_by_node _ _ _ x (unpack_lit _ l Hc Hl) Hd).
Qed.


Lemma knows_var_ok : forall s known v, wf s -> Forall (vh s) known -> knows_var s known v -> var_ok s v.
Proof.
  intros s known v Hw Hk [h [n [Hh [Hu Hin]]]]. rewrite Forall_forall in Hk. specialize (Hk h Hh).
  destruct n; cbn in Hin; try contradiction.
  - destruct Hin as [<- | []]. apply (vcase_lit_ok s h l (wf_cap s Hw) Hk Hu).
  - destruct (unpack_cc_vh s h c Hw Hk Hu) as [_ [H _]]. rewrite Forall_forall in H. auto.
  - destruct (unpack_pbc_vh s h p Hw Hk Hu) as [_ [_ [H _]]]. rewrite Forall_forall in H. apply in_map_iff in Hin.
    destruct Hin as [l [<- Hl]]. apply (H l Hl).
Qed.
Lemma knows_lits_ok : forall s known ls, wf s -> Forall (vh s) known -> Forall (knows_lit s known) ls -> Forall (lit_ok s) ls.
Proof. intros s known ls Hw Hk H. eapply Forall_impl; [| exact H]. intros [v p] Hl. exact (knows_var_ok s known v Hw Hk Hl). Qed.
Lemma knows_vars_ok : forall s known vs, wf s -> Forall (vh s) known -> Forall (knows_var s known) vs -> Forall (var_ok s) vs.
Proof. intros s known ls Hw Hk H. eapply Forall_impl; [| exact H]. intros v Hl. exact (knows_var_ok s known v Hw Hk Hl). Qed.


(** Changing counters or caches other than the is-CNF cache keeps a factory well formed. *)
Lemma vh_same : forall s s' h, f_tabs s' = f_tabs s -> vh s' h -> vh s h.
Proof.
  intros s s' h Ht H. destruct H as [ | | [[i | a i] p] Hl | ty i Hi]; constructor.
  - unfold lit_ok, lit_var, var_ok in *. rewrite <- Ht. assumption.
  - exact Hl.
  - unfold tlen in *. rewrite <- Ht. assumption.
Qed.

Lemma wf_same : forall s s', wf s -> ext s s' -> cap s' -> f_tabs s' = f_tabs s -> oc_is_cnf (f_caches s') = oc_is_cnf (f_caches s) -> wf s'.
Proof.
  intros s s' Hw He Hc Ht Hk. apply (wf_extend s s' Hw He Hc); rewrite ?Ht; try (destruct Hw; assumption); auto.
  - intros h Hh. rewrite Hk in Hh. apply (wf_cnf_keys s Hw) in Hh. split; [eapply vh_ext; [exact He | apply Hh] | apply Hh].
  - intros h x Hv Hd. apply (cnf_exact_old s s' h x Hw He Hk); [| exact Hd]. exact (vh_same s s' h Ht Hv).
Qed.

Lemma new_aux_spec : forall s a, wf s -> spec wf ext s (f_new_aux a) (fun v s' => var_ok s' v).
Proof.
  intros s a Hw. split; [apply mono_f_new_aux |]. intros Hc.
  pose proof Hc as Hc'. unfold cap, sizes in Hc'. cbn [app] in Hc'.
  apply Forall_inv_tail, Forall_inv_tail, Forall_inv_tail in Hc'. pose proof (Forall_inv Hc') as C1. apply Forall_inv_tail in Hc'.
  pose proof (Forall_inv Hc') as C2. apply Forall_inv_tail in Hc'. pose proof (Forall_inv Hc') as C3. clear Hc'.
  assert (He : ext s (snd (f_new_aux a s))).
  { destruct a; cbn; (split; [apply tabs_ext_refl |]); split; cbn; repeat split; try reflexivity; lia. }
  assert (Hw' : wf (snd (f_new_aux a s))).
  { apply (wf_same s); auto; destruct a; reflexivity. }
  destruct a; cbn in *; eexists; (split; [reflexivity |]); (split; [exact Hw' |]); (split; [exact He |]); unfold var_ok; lia.
Qed.

Lemma spec_core_ext : forall A s (m : M A) Q, spec wf core s m Q -> spec wf ext s m Q.
Proof.
  intros A s m Q [H1 H2]. split; [assumption |]. intros Hc. destruct (H2 Hc) as [a [? [? [H3 ?]]]]. exists a. pose proof (core_ext s _ H3). auto.
Qed.

(** Every permitted call returns (if the factory does not outgrow its capacity and the arguments pass the assertions),
    keeps the factory well formed and returns a valid handle. *)
Definition asserted (c : call) : Prop :=
  match c with
  | CCc c rhs _ => c = LT -> rhs <> 0
  | CPbc _ _ ls cs => length ls = length cs
  | _ => True
  end.

Lemma call_spec : forall s known c, wf s -> Forall (vh s) known -> call_ok s known c -> asserted c ->
  spec wf ext s (run_call c) (fun r s' => vh s' r).
Proof.
  intros s known c Hw Hk Hok Has.
  assert (Hden : forall h, In h known -> exists x, vh s h /\ denotes s h x).
  { intros h Hh. rewrite Forall_forall in Hk. destruct (vh_denotes s h Hw (Hk h Hh)) as [x Hx]. exists x. auto. }
  destruct c as [name | name p | b | cj ops | ls | h | h | l r | l r | c rhs vs | c rhs ls cs | a | a i]; cbn [call_ok run_call asserted] in *.
  - apply spec_core_ext. eapply spec_conseq; [apply f_variable_spec; assumption |]. intros ? ? _ _ [i [_ [H _]]]. exact H.
  - apply spec_core_ext. eapply spec_conseq; [apply f_literal_spec; assumption |]. intros ? ? _ _ [i [H _]]. exact H.
  - apply spec_ret; [assumption | apply core_ext, core_refl | apply vh_constant].
  - assert (Hv : Forall (vh s) ops) by (rewrite Forall_forall in *; auto).
    assert (exists xs, Forall2 (denotes s) ops xs) as [xs Hxs].
    { clear Hok. induction Hv as [| h ops Hh Hv [xs IH]]; [exists []; constructor |].
      destruct (vh_denotes s h Hw Hh) as [x Hx]. exists (x :: xs). constructor; assumption. }
    apply spec_core_ext. eapply spec_conseq; [eapply nary_result; eassumption |]. intros ? ? _ _ [[H _] _]. exact H.
  - apply spec_core_ext. eapply spec_conseq; [eapply f_clause_result; [assumption | eapply knows_lits_ok; eassumption] |].
    intros ? ? _ _ [[H _] _]. exact H.
  - destruct (Hden h Hok) as [x [Hv Hx]]. apply spec_core_ext. eapply spec_conseq; [eapply f_not_spec; eassumption |]. intros ? ? _ _ [H _]. exact H.
  - destruct (Hden h Hok) as [x [Hv Hx]]. apply spec_core_ext. eapply spec_conseq; [eapply f_negate_result; eassumption |]. intros ? ? _ _ [H _]. exact H.
  - destruct Hok as [Hl Hr]. destruct (Hden l Hl) as [x [Hv Hx]], (Hden r Hr) as [y [Hv' Hy]].
    apply spec_core_ext. eapply spec_conseq; [eapply f_implication_result; eassumption |]. intros ? ? _ _ [H _]. exact H.
  - destruct Hok as [Hl Hr]. destruct (Hden l Hl) as [x [Hv Hx]], (Hden r Hr) as [y [Hv' Hy]].
    apply spec_core_ext. eapply spec_conseq; [eapply f_equivalence_result; eassumption |]. intros ? ? _ _ [H _]. exact H.
  - destruct Hok as [Hvs Hr]. apply spec_core_ext.
    eapply spec_conseq; [apply f_cc_result; [assumption | eapply knows_vars_ok; eassumption | exact Hr | exact Has] |]. intros ? ? _ _ [H _]. exact H.
  - destruct Hok as [Hls Hf]. apply spec_core_ext.
    eapply spec_conseq; [apply f_pbc_result; [assumption | eapply knows_lits_ok; eassumption | exact Has | exact Hf] |]. intros ? ? _ _ [H _]. exact H.
  - eapply spec_bind; [exact ext_trans | apply new_aux_spec; assumption | intros; mono_tac |].
    intros v s' Hw' He Hv. apply spec_ret; [assumption | apply core_ext, core_refl | constructor; exact Hv].
  - apply spec_ret; [assumption | apply core_ext, core_refl |]. constructor. exact Hok.
Qed.

Lemma asserted_of_run : forall c s r s', run_call c s = (Ok r, s') -> asserted c.
Proof.
  intros [name | name p | b | cj ops | ls | h | h | l r | l r | c rhs vs | c rhs ls cs | a | a i] s res s'; cbn [run_call asserted]; auto.
  - unfold f_cc. intros H -> ->. discriminate.
  - unfold f_pbc. destruct (Nat.eqb_spec (length ls) (length cs)); [auto | discriminate].
Qed.

Lemma call_run : forall s known c r s', wf s -> Forall (vh s) known -> call_ok s known c -> run_call c s = (Ok r, s') -> cap s' ->
  wf s' /\ ext s s' /\ vh s' r.
Proof.
  intros s known c r s' Hw Hk Hok Hr Hc. pose proof (asserted_of_run _ _ _ _ Hr) as Ha.
  destruct (spec_run _ _ _ _ _ _ _ _ (call_spec s known c Hw Hk Hok Ha) Hr Hc) as [r' [E [? [? ?]]]]. injection E as <-. auto.
Qed.

Definition state_ok (a : factory * list N) : Prop := wf (fst a) /\ Forall (vh (fst a)) (snd a).

Lemma step_ok : forall a b, step a b -> state_ok a -> state_ok b /\ ext (fst a) (fst b).
Proof.
  intros a b H [Hw Hk]. destruct H as [s known c r s' Hok Hr Hc | s known h n Hh Hu]; cbn [fst snd] in *.
  - destruct (call_run s known c r s' Hw Hk Hok Hr Hc) as [Hw' [He Hv]]. split; [| assumption]. split; [assumption |].
    constructor; [assumption |]. eapply Forall_impl; [| exact Hk]. intros h Hh. eapply vh_ext; [exact He | exact Hh].
  - split; [| apply core_ext, core_refl]. split; [assumption |]. cbn. apply Forall_app. split; [| assumption].
    rewrite Forall_forall in Hk. destruct (vh_operands s h Hw (Hk h Hh)) as [m [Hm Hg]].
    assert (m = n) as -> by congruence. eapply Forall_impl; [| exact Hg]. intros k Hgk. destruct Hgk. assumption.
Qed.

Lemma steps_ok : forall a b, steps a b -> state_ok a -> state_ok b /\ ext (fst a) (fst b).
Proof.
  intros a b H Ha. induction H as [| a b c H IH Hs].
  - split; [assumption | apply core_ext, core_refl].
  - destruct (IH Ha) as [Hb He]. destruct (step_ok b c Hs Hb) as [Hc He']. split; [assumption | eapply ext_trans; eauto].
Qed.

Lemma steps_trans : forall a b c, steps a b -> steps b c -> steps a c.
Proof. intros a b c H K. induction K as [| b c d K IH Hs]; [assumption |]. exact (sts_step a c d (IH H) Hs). Qed.

Lemma steps_known : forall a b, steps a b -> incl (snd a) (snd b).
Proof.
  intros a b H. induction H as [| a b c H IH Hs]; [apply incl_refl |]. intros h Hh. apply IH in Hh.
  destruct Hs; cbn in *; [right; assumption | apply in_or_app; right; assumption].
Qed.

Theorem reachable_wf : forall cfg s known, reachable cfg s known -> wf s /\ Forall (vh s) known.
Proof. intros cfg s known H. apply steps_ok in H; [apply H |]. split; [apply wf_new | constructor]. Qed.

Lemma res_all_eq : forall A (f g : A -> res bool) l, (forall x, In x l -> f x = g x) -> res_all f l = res_all g l.
Proof.
  intros A f g l H. induction l as [| x l IH]; [reflexivity |]. cbn. rewrite (H x) by (left; reflexivity).
  rewrite IH by (intros; apply H; right; assumption). reflexivity.
Qed.
Lemma res_any_eq : forall A (f g : A -> res bool) l, (forall x, In x l -> f x = g x) -> res_any f l = res_any g l.
Proof.
  intros A f g l H. induction l as [| x l IH]; [reflexivity |]. cbn. rewrite (H x) by (left; reflexivity).
  rewrite IH by (intros; apply H; right; assumption). reflexivity.
Qed.

Lemma evaluate_ext : forall fuel s s' h a, wf s -> ext s s' -> vh s h -> evaluate fuel s' h a = evaluate fuel s h a.
Proof.
  induction fuel as [| fuel IH]; intros s s' h a Hw He Hv; [reflexivity |]. cbn [evaluate].
  destruct (vh_operands s h Hw Hv) as [n [Hu Hg]]. rewrite Hu, (unpack_ext s s' h n (proj1 He) Hu). cbn [rbind].
  pose proof (node_ops_vh s h n Hw Hv Hu) as Hf. rewrite Forall_forall in Hf.
  destruct n as [ | | l | o | ops | ops | l r | l r | c | p]; cbn [node_operands] in Hf; auto.
  - rewrite (IH s s' o) by (auto; apply Hf; left; reflexivity). reflexivity.
  - apply res_all_eq. intros o Ho. apply IH; auto.
  - apply res_any_eq. intros o Ho. apply IH; auto.
  - rewrite (IH s s' l), (IH s s' r) by (auto; apply Hf; cbn; auto). reflexivity.
  - rewrite (IH s s' l), (IH s s' r) by (auto; apply Hf; cbn; auto). reflexivity.
Qed.

Lemma f_literal_again : forall s name p, wf s -> again (f_literal name p) s.
Proof.
  intros s name p Hw h s' Hrun Hc s2 Hw2 He2. unfold f_literal, f_var, bind in Hrun.
  destruct (f_variable name s) as [[r | | ] s1] eqn:E; try discriminate.
  assert (s1 = s') as ->.
  { unfold lift in Hrun. destruct (unpack s1 r) as [n | | ]; try discriminate. destruct n; try discriminate. inversion Hrun. reflexivity. }
  assert (Hs2 : f_variable name s2 = (Ok r, s2)) by (eapply (f_variable_again s name Hw); eassumption).
  unfold f_literal, f_var, bind. rewrite Hs2. unfold lift in *.
  destruct (unpack s' r) as [n | | ] eqn:En; try discriminate. rewrite (unpack_ext s' s2 r n (proj1 He2) En).
  destruct n; try discriminate. inversion Hrun. reflexivity.
Qed.
