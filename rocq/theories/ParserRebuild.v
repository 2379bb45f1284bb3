(** Building a stored formula again from its operands returns its handle and changes nothing. *)
From Coq Require Import NArith ZArith List Bool Lia.
From Verif Require Import Base EncodingModel EncodingProofs Syntax FactoryModel FactoryInv FactoryBasics FactoryProofs FactorySpecs FactoryNary FactoryOps
  HashConsProofs HistoryModel HistoryProofs.
Import ListNotations.
Local Open Scope N_scope.

(* ------------------------------------------------------------------------------------------------------------------ *)
(** * N-ary formulas *)

Lemma filter_loop_stored : forall s conj sub, wf s -> forall L2 L1 fl, ops_ok s conj (L1 ++ L2) ->
  filter_loop sub s conj L2 false (mkFR L1 L1 [] [] fl) = Ok (true, mkFR (L1 ++ L2) (L1 ++ L2) [] [] (fl && forallb (flag_of s conj) L2)).
Proof.
  intros s conj sub Hw. pose proof (wf_cap s Hw) as Hc. induction L2 as [ | h L2 IH]; intros L1 fl Ho.
  - cbn [filter_loop forallb]. rewrite app_nil_r, andb_true_r. auto.
  - destruct (Ho) as [Og On Oc Of Ok']. cbn [filter_loop].
    assert (Hin : In h (L1 ++ h :: L2)) by (apply in_or_app; right; left; auto).
    rewrite Forall_forall in Og, Oc, Of. pose proof (Og h Hin) as [Hv _]. pose proof (Oc h Hin) as [Hn1 Hn2].
    destruct (vh_type s h Hc Hv) as [ty Hty]. unfold ftype. rewrite Hty. cbn [of_opt rbind]. rewrite (Of h Hin ty Hty).
    rewrite (cnf_flag_spec s conj h _ Hc Hv). cbn [rbind fr_cnf frs32 frs64 fr32 fr64]. rewrite Hn1, Hn2.
    assert (Hvl : Forall (vh s) L1).
    { rewrite Forall_forall. intros x Hx. apply (Og x). apply in_or_app. auto. }
    destruct (contains_complement_spec s L1 h Hw Hvl Hv (Coq.Init.Logic.conj Hn1 Hn2)) as [b [-> Hb]]. cbn [rbind].
    assert (b = false) as ->.
    { destruct b; auto. destruct (proj1 Hb eq_refl) as [y [Hy1 Hy2]]. exfalso. apply (Ok' h y); auto. apply in_or_app. auto. }
    cbn [orb]. rewrite (vh_not_large s h Hc Hv). unfold filter_insert. rewrite (vh_as_32 s h Hc Hv). unfold set_insert. cbn [frs32 frs64 fr32 fr64].
    assert (memN h L1 = false) as ->.
    { apply memN_false. intros Hx. apply NoDup_remove_2 in On. apply On. apply in_or_app. auto. }
    replace (L1 ++ h :: L2) with ((L1 ++ [h]) ++ L2) in * by (rewrite <- app_assoc; auto).
    rewrite IH by auto. cbn [forallb]. rewrite andb_assoc. auto.
Qed.

Lemma nary_stored : forall s conj h L, wf s -> vh s h -> unpack s h = Ok (nnode conj L) -> f_nary conj L s = (Ok h, s) /\ ops_ok s conj L /\ (2 <= length L)%nat.
Proof.
  intros s conj h L Hw Hv Hu. pose proof (wf_cap s Hw) as Hc.
  assert (Hty : formula_type_of h = Some (nary_type conj)) by (rewrite (type_node s h _ Hc Hv Hu); destruct conj; auto).
  destruct (vh_nary s conj h _ Hw Hv Hty) as [L' [Hu' [Ho Hlen]]]; [destruct conj; reflexivity | ].
  assert (L' = L) as -> by (destruct conj; cbn in *; congruence). split; [ | split; auto].
  unfold f_nary, bind, lift, prepare_nary, flatten_fuel. cbn [filter_flatten].
  rewrite (filter_loop_stored s conj _ Hw L [] true Ho). cbn [app rbind fst snd fr32 fr64].
  assert (HI : exists i, h = encode i (nary_type conj) false /\ nthN (vt_vec (c_small (nary_cache_of conj (f_tabs s)))) i = Some L).
  { destruct conj; [apply vh_and_inv; auto | apply vh_or_inv; auto]. }
  destruct HI as [i [Eh Hi]].
  assert (Hok : vtab_ok set_eqb id (nary_type conj) false (c_small (nary_cache_of conj (f_tabs s)))).
  { destruct conj; [apply (wf_ands s Hw) | apply (wf_ors s Hw)]. }
  assert (Hins : forall fl, nary_insert conj (mkFR L L [] [] fl) s = (Ok h, s)).
  { intros fl. unfold nary_insert, updt, nary_goi. cbn [fr32 frs32 fr64 frs64].
    rewrite (goi_settled _ _ id _ _ _ L L i L keq_set Hok Hi (ke_refl _ keq_set L)). cbn [fst snd].
    rewrite eta_c2. destruct conj; cbn [set_nary nary_cache_of] in *; [rewrite eta_ands | rewrite eta_ors]; rewrite eta_tabs, <- Eh; reflexivity. }
  destruct (good_list_denotes _ _ (oo_good _ _ _ Ho)) as [xs Hxs].
  destruct L as [ | a [ | b L]]; [cbn in Hlen; lia | cbn in Hlen; lia | ].
  rewrite Hins. cbn [fr_cnf andb].
  destruct (forallb (flag_of s conj) (a :: b :: L) && is_nary_operator h) eqn:Ef; [ | reflexivity].
  apply andb_true_iff in Ef. destruct Ef as [Ef En]. rewrite (flags_shape s conj _ xs Hw Ho Hxs) in Ef. unfold modf. rewrite note_settled; auto.
  rewrite (wf_cnf_exact s Hw h (if conj then FAnd xs else FOr xs) Hv), Ef; auto. destruct conj; econstructor; eauto.
Qed.

(* ------------------------------------------------------------------------------------------------------------------ *)
(** * Implications and equivalences *)

(** The left operand is not the negation of the right one, and negating the right one changes nothing. *)
Definition pair_ok (s : factory) (p : N * N) : Prop := exists nr, settled (f_negate (snd p)) s nr /\ fst p <> nr.
Definition pinv (s : factory) : Prop :=
  Forall (pair_ok s) (vt_vec (c_small (t_impls (f_tabs s)))) /\ Forall (pair_ok s) (vt_vec (c_small (t_equivs (f_tabs s)))).

Lemma pair_ok_ext : forall s s' p, ext s s' -> pair_ok s p -> pair_ok s' p.
Proof. intros s s' p He [nr [H1 H2]]. exists nr. split; auto. eapply settled_ext; eauto. Qed.

(** Operations that leave the implications and equivalences alone. *)
Definition fr {A} (m : M A) : Prop :=
  forall s, t_impls (f_tabs (snd (m s))) = t_impls (f_tabs s) /\ t_equivs (f_tabs (snd (m s))) = t_equivs (f_tabs s).
Lemma fr_ret : forall A (a : A), fr (ret a).
Proof. intros A a s. auto. Qed.
Lemma fr_fail : forall A, fr (@fail A).
Proof. intros A s. auto. Qed.
Lemma fr_lift : forall A (r : factory -> res A), fr (lift r).
Proof. intros A r s. auto. Qed.
Lemma fr_bind : forall A B (m : M A) (k : A -> M B), fr m -> (forall a, fr (k a)) -> fr (bind m k).
Proof.
  intros A B m k H1 H2 s. unfold bind. specialize (H1 s). destruct (m s) as [[a | | ] s1]; cbn [snd] in *; auto.
  destruct (H2 a s1) as [E1 E2]. destruct H1. split; congruence.
Qed.
Lemma fr_note : forall h, fr (modf (note_is_cnf h)).
Proof. intros h s. auto. Qed.
Lemma fr_not_insert : forall h, fr (f_not_insert h).
Proof. intros h s. unfold f_not_insert, updt. cbn [snd with_tabs f_tabs]. destruct (not_goi h (t_nots (f_tabs s))). auto. Qed.
Lemma fr_nary_insert : forall conj r, fr (nary_insert conj r).
Proof.
  intros conj r s. unfold nary_insert, updt. cbn [snd with_tabs f_tabs].
  destruct (nary_goi (nary_type conj) (fr32 r) (frs32 r) (fr64 r) (frs64 r) (nary_cache_of conj (f_tabs s))). destruct conj; auto.
Qed.
Lemma fr_cc_insert : forall c, fr (cc_insert c).
Proof. intros c s. unfold cc_insert, updt. cbn [snd with_tabs f_tabs]. destruct (simple_goi cc_eqb TCc c (t_ccs (f_tabs s))). auto. Qed.
Lemma fr_pbc_insert : forall c, fr (pbc_insert c).
Proof. intros c s. unfold pbc_insert, updt. cbn [snd with_tabs f_tabs]. destruct (simple_goi pbc_eqb TPbc c (t_pbcs (f_tabs s))). auto. Qed.
Lemma fr_variable : forall n, fr (f_variable n).
Proof. intros n s. unfold f_variable, updt. cbn [snd with_tabs f_tabs]. destruct (simple_goi String.eqb (TLit (LTPos VTFF)) n (t_vars (f_tabs s))). auto. Qed.
Lemma fr_new_aux : forall a, fr (f_new_aux a).
Proof. intros [] s; auto. Qed.

Create HintDb fr.
Ltac fr_tac :=
  repeat first
    [ solve [eauto with fr]
    | apply fr_bind; [ | intros ? ]
    | apply fr_ret | apply fr_fail | apply fr_lift | apply fr_note | apply fr_not_insert | apply fr_nary_insert | apply fr_cc_insert
    | apply fr_pbc_insert | apply fr_variable | apply fr_new_aux
    | match goal with
      | |- fr (match ?x with _ => _ end) => destruct x
      | |- fr (if ?x then _ else _) => destruct x
      end ].
Lemma fr_nary : forall conj ops, fr (f_nary conj ops).
Proof. intros. unfold f_nary. fr_tac. Qed.
#[export] Hint Resolve fr_nary : fr.
Lemma fr_construct_cc : forall c r vs, fr (construct_cc_unsafe c r vs).
Proof. intros. unfold construct_cc_unsafe. fr_tac. Qed.
#[export] Hint Resolve fr_construct_cc : fr.
Lemma fr_pbc : forall c r ls cs, fr (f_pbc c r ls cs).
Proof. intros. unfold f_pbc. fr_tac. Qed.
#[export] Hint Resolve fr_pbc : fr.
Lemma fr_cc : forall c r vs, fr (f_cc c r vs).
Proof. intros. unfold f_cc. fr_tac. Qed.
#[export] Hint Resolve fr_cc : fr.
Lemma fr_negate : forall h, fr (f_negate h).
Proof. intros. unfold f_negate, cc_negate, pbc_negate, f_or. fr_tac. Qed.
#[export] Hint Resolve fr_negate : fr.
Lemma fr_not : forall h, fr (f_not h).
Proof. intros. unfold f_not. fr_tac. Qed.
#[export] Hint Resolve fr_not : fr.

Lemma pinv_frame : forall s s', ext s s' -> t_impls (f_tabs s') = t_impls (f_tabs s) -> t_equivs (f_tabs s') = t_equivs (f_tabs s) -> pinv s -> pinv s'.
Proof.
  intros s s' He E1 E2 [H1 H2]. unfold pinv. rewrite E1, E2. split; (eapply Forall_impl; [ | eassumption]); intros p Hp; eapply pair_ok_ext; eauto.
Qed.

(** The binary insertions append at most the new pair. *)
Lemma goi_vec : forall V (keq : V -> V -> bool) ty lg key val (t : vtab V) e t', vtab_goi keq ty lg key val t = (e, t') ->
  vt_vec t' = vt_vec t \/ vt_vec t' = vt_vec t ++ [val].
Proof. intros V keq ty lg key val t e t' H. unfold vtab_goi in H. destruct (assoc keq key (vt_rev t)); injection H as <- <-; auto. Qed.

Lemma pinv_binary : forall s l r m s', wf s -> vh s l -> vh s r -> is_verum l = false -> is_falsum l = false -> is_verum r = false -> is_falsum r = false -> l <> r ->
  (m = updt (fun t => let '(e, c) := impl_goi l r (t_impls t) in (e, set_impls t c)) \/
   m = updt (fun t => let '(e, c) := equiv_goi l r (t_equivs t) in (e, set_equivs t c))) ->
  forall h nr, settled (f_negate r) s nr -> l <> nr -> m s = (Ok h, s') -> cap s' -> pinv s -> pinv s'.
Proof.
  intros s l r m s' Hw Vl Vr Hl1 Hl2 Hr1 Hr2 Hne Hm h nr Hs Hn Hrun Hcap [P1 P2]. pose proof (wf_cap s Hw) as Hc.
  assert (He : ext s s').
  { destruct Hm as [-> | ->].
    - destruct (spec_run _ _ _ _ _ _ _ _ (impl_insert_spec s l r Hw Vl Vr (Coq.Init.Logic.conj Hl1 Hl2) (Coq.Init.Logic.conj Hr1 Hr2) Hne) Hrun Hcap) as [a [_ [_ [H _]]]].
      apply core_ext; auto.
    - destruct (spec_run _ _ _ _ _ _ _ _ (equiv_insert_spec s l r Hw Vl Vr (Coq.Init.Logic.conj Hl1 Hl2) (Coq.Init.Logic.conj Hr1 Hr2) Hne) Hrun Hcap) as [a [_ [_ [H _]]]].
      apply core_ext; auto. }
  assert (Pn : pair_ok s' (l, r)) by (exists nr; split; [eapply settled_ext; eauto | auto]).
  assert (Q : forall v, Forall (pair_ok s) v -> Forall (pair_ok s') v) by (intros v H; eapply Forall_impl; [ | exact H]; intros p Hp; eapply pair_ok_ext; eauto).
  assert (Q2 : forall v, Forall (pair_ok s) v -> Forall (pair_ok s') (v ++ [(l, r)])) by (intros v H; apply Forall_app; auto).
  destruct Hm as [-> | ->]; unfold updt, impl_goi, equiv_goi in Hrun;
    rewrite (vh_not_large s l Hc Vl), (vh_as_32 s l Hc Vl), (vh_not_large s r Hc Vr), (vh_as_32 s r Hc Vr) in Hrun; cbn [orb] in Hrun.
  - destruct (vtab_goi pair_eqb TImpl false (l, r) (l, r) (c_small (t_impls (f_tabs s)))) as [e t] eqn:E. cbn [fst snd] in Hrun.
    injection Hrun as <- <-. unfold pinv. cbn [f_tabs with_tabs set_impls t_impls t_equivs c_small]. split; [ | apply Q; auto].
    destruct (goi_vec _ _ _ _ _ _ _ _ _ E) as [-> | ->]; auto.
  - destruct (vtab_goi pair_eqb TEquiv false (sort_pair (l, r)) (l, r) (c_small (t_equivs (f_tabs s)))) as [e t] eqn:E. cbn [fst snd] in Hrun.
    injection Hrun as <- <-. unfold pinv. cbn [f_tabs with_tabs set_equivs t_impls t_equivs c_small]. split; [apply Q; auto | ].
    destruct (goi_vec _ _ _ _ _ _ _ _ _ E) as [-> | ->]; auto.
Qed.

Lemma pinv_frame_run : forall A (m : M A) s r s', fr m -> m s = (r, s') -> ext s s' -> pinv s -> pinv s'.
Proof. intros A m s r s' Hf Hrun He Hp. destruct (Hf s) as [E1 E2]. rewrite Hrun in E1, E2. eapply pinv_frame; eauto. Qed.

Lemma pinv_implication : forall s l r h s', wf s -> vh s l -> vh s r -> f_implication l r s = (Ok h, s') -> cap s' -> ext s s' -> pinv s -> pinv s'.
Proof.
  intros s l r h s' Hw Vl Vr Hrun Hcap He Hp. unfold f_implication in Hrun.
  destruct (is_verum l) eqn:E1; [eapply pinv_frame_run; eauto using fr_ret | ].
  destruct (is_falsum l || is_verum r) eqn:E2; [eapply pinv_frame_run; eauto using fr_ret | ]. apply orb_false_iff in E2. destruct E2 as [E2 E4].
  destruct (is_falsum r) eqn:E3; [eapply pinv_frame_run; eauto using fr_not | ].
  destruct (N.eqb_spec l r) as [-> | Hne]; [eapply pinv_frame_run; eauto using fr_ret | ].
  unfold bind in Hrun. destruct (f_negate r s) as [[nr | | ] s1] eqn:En; try discriminate.
  destruct (vh_denotes s r Hw Vr) as [y Hy].
  assert (Hc1 : cap s1).
  { eapply cap_le; [ | exact Hcap]. destruct (l =? nr); [injection Hrun as _ <-; apply size_le_refl | ]. pose proof (mono_impl_insert l r s1) as M. rewrite Hrun in M. exact M. }
  destruct (spec_run _ _ _ _ _ _ _ _ (f_negate_result s r y Hw Vr Hy) En Hc1) as [a [Ea [Hw1 [Hcore _]]]].
  pose proof (core_ext _ _ Hcore) as He1. assert (Hp1 : pinv s1) by (eapply pinv_frame_run; eauto using fr_negate).
  pose proof (f_negate_again s r Hw Vr nr s1 En Hc1) as Hset.
  destruct (N.eqb_spec l nr) as [-> | Hne2]; [injection Hrun as _ <-; auto | ].
  eapply (pinv_binary s1 l r _ s' Hw1); [eapply vh_ext; eauto | eapply vh_ext; eauto | auto | auto | auto | auto | auto | left; reflexivity | eauto | eauto | eauto | eauto | eauto].
Qed.
Lemma pinv_equivalence : forall s l r h s', wf s -> vh s l -> vh s r -> f_equivalence l r s = (Ok h, s') -> cap s' -> ext s s' -> pinv s -> pinv s'.
Proof.
  intros s l r h s' Hw Vl Vr Hrun Hcap He Hp. unfold f_equivalence in Hrun.
  destruct (is_verum l) eqn:E1; [eapply pinv_frame_run; eauto using fr_ret | ].
  destruct (is_falsum l) eqn:E2; [eapply pinv_frame_run; eauto using fr_not | ].
  destruct (is_verum r) eqn:E4; [eapply pinv_frame_run; eauto using fr_ret | ].
  destruct (is_falsum r) eqn:E3; [eapply pinv_frame_run; eauto using fr_not | ].
  destruct (N.eqb_spec l r) as [-> | Hne]; [eapply pinv_frame_run; eauto using fr_ret | ].
  unfold bind in Hrun. destruct (f_negate r s) as [[nr | | ] s1] eqn:En; try discriminate.
  destruct (vh_denotes s r Hw Vr) as [y Hy].
  assert (Hc1 : cap s1).
  { eapply cap_le; [ | exact Hcap]. destruct (l =? nr); [injection Hrun as _ <-; apply size_le_refl | ]. pose proof (mono_equiv_insert l r s1) as M. rewrite Hrun in M. exact M. }
  destruct (spec_run _ _ _ _ _ _ _ _ (f_negate_result s r y Hw Vr Hy) En Hc1) as [a [Ea [Hw1 [Hcore _]]]].
  pose proof (core_ext _ _ Hcore) as He1. assert (Hp1 : pinv s1) by (eapply pinv_frame_run; eauto using fr_negate).
  pose proof (f_negate_again s r Hw Vr nr s1 En Hc1) as Hset.
  destruct (N.eqb_spec l nr) as [-> | Hne2]; [injection Hrun as _ <-; auto | ].
  eapply (pinv_binary s1 l r _ s' Hw1); [eapply vh_ext; eauto | eapply vh_ext; eauto | auto | auto | auto | auto | auto | right; reflexivity | eauto | eauto | eauto | eauto | eauto].
Qed.

Lemma step_pinv : forall a b, step a b -> state_ok a -> pinv (fst a) -> pinv (fst b).
Proof.
  intros a b H Ha Hp. destruct (step_ok a b H Ha) as [_ He]. destruct Ha as [Hw Hk].
  destruct H as [s known c r s' Hok Hr Hc | s known h n Hh Hu]; cbn [fst snd] in *; auto. rewrite Forall_forall in Hk.
  destruct c as [name | name p | b | cj ops | ls | h | h | l r' | l r' | c rhs vs | c rhs ls cs | a | a i]; cbn [call_ok run_call] in *;
    try (eapply pinv_frame_run; [ | exact Hr | exact He | exact Hp]; unfold f_literal, f_var, f_clause, f_or; fr_tac; fail).
  - destruct Hok as [K1 K2]. exact (pinv_implication s l r' r s' Hw (Hk l K1) (Hk r' K2) Hr Hc He Hp).
  - destruct Hok as [K1 K2]. exact (pinv_equivalence s l r' r s' Hw (Hk l K1) (Hk r' K2) Hr Hc He Hp).
Qed.
Lemma reachable_pinv : forall cfg s known, reachable cfg s known -> pinv s.
Proof.
  intros cfg s known H. unfold reachable in H. remember (factory_new cfg, []) as a eqn:Ea. remember (s, known) as b eqn:Eb. change s with (fst (s, known)). rewrite <- Eb. clear Eb s known.
  induction H as [a | a b c H IH Hs].
  - subst a. split; constructor.
  - assert (state_ok a) by (subst a; split; [apply wf_new | constructor]).
    eapply step_pinv; [exact Hs | apply (steps_ok a b H); auto | auto].
Qed.

Lemma implication_stored : forall s h l r, wf s -> pinv s -> vh s h -> unpack s h = Ok (NImpl l r) -> f_implication l r s = (Ok h, s).
Proof.
  intros s h l r Hw [Hp _] Hv Hu. destruct (vh_impl_inv s h l r Hw Hv Hu) as [i [Eh Hi]].
  destruct (wf_impl_ops s Hw i _ Hi) as [[Vl _] [[Vr _] [[Hl1 Hl2] [[Hr1 Hr2] Hne]]]]. cbn [fst snd] in *.
  rewrite Forall_forall in Hp. destruct (Hp (l, r)) as [nr [Hs Hn]]; [eapply nthN_In; eauto | ]. cbn [fst snd] in *.
  unfold f_implication. rewrite Hl1, Hl2, Hr1, Hr2. cbn [orb]. destruct (N.eqb_spec l r); [congruence | ]. unfold bind.
  rewrite (Hs s Hw (ext_refl s)). destruct (N.eqb_spec l nr); [congruence | ]. apply impl_insert_settled; auto.
Qed.
Lemma equivalence_stored : forall s h l r, wf s -> pinv s -> vh s h -> unpack s h = Ok (NEquiv l r) -> f_equivalence l r s = (Ok h, s).
Proof.
  intros s h l r Hw [_ Hp] Hv Hu. destruct (vh_equiv_inv s h l r Hw Hv Hu) as [i [Eh Hi]].
  destruct (wf_equiv_ops s Hw i _ Hi) as [[Vl _] [[Vr _] [[Hl1 Hl2] [[Hr1 Hr2] Hne]]]]. cbn [fst snd] in *.
  rewrite Forall_forall in Hp. destruct (Hp (l, r)) as [nr [Hs Hn]]; [eapply nthN_In; eauto | ]. cbn [fst snd] in *.
  unfold f_equivalence. rewrite Hl1, Hl2, Hr1, Hr2. destruct (N.eqb_spec l r); [congruence | ]. unfold bind.
  rewrite (Hs s Hw (ext_refl s)). destruct (N.eqb_spec l nr); [congruence | ]. apply equiv_insert_settled; auto.
Qed.

(* ------------------------------------------------------------------------------------------------------------------ *)
(** * Negations, constraints and variables *)

Lemma not_stored : forall s h a, wf s -> vh s h -> unpack s h = Ok (NNot a) -> f_not a s = (Ok h, s).
Proof.
  intros s h a Hw Hv Hu. destruct (unpack_not_vh s h a Hw Hv Hu) as [i [-> [Hi [Hg Hn]]]]. unfold f_not, bind, lift, ftype. unfold negatable in Hn.
  destruct (formula_type_of a) as [[] | ]; try destruct Hn; cbn [of_opt]; apply not_insert_settled; auto.
Qed.

Lemma cc_stored : forall s h c, wf s -> vh s h -> unpack s h = Ok (NCc c) ->
  f_pbc (cc_cmp c) (Z.of_N (cc_rhs c)) (pos_lits (cc_vars c)) (repeat 1%Z (length (cc_vars c))) s = (Ok h, s).
Proof.
  intros s h c Hw Hv Hu. destruct (unpack_cc_vh s h c Hw Hv Hu) as [H1 [_ [H3 H4]]]. unfold f_pbc, pos_lits. rewrite map_length, repeat_length, Nat.eqb_refl.
  assert (HL : is_lit_cc (cc_cmp c) (Z.of_N (cc_rhs c)) (map (fun v => Lit v true) (cc_vars c)) (repeat 1%Z (length (cc_vars c))) = true).
  { unfold is_lit_cc. apply andb_true_iff. split; [apply andb_true_iff; split | ].
    - apply forallb_forall. intros l Hl. apply in_map_iff in Hl. destruct Hl as [v [<- _]]. auto.
    - apply forallb_forall. intros z Hz. apply repeat_spec in Hz. subst. auto.
    - unfold is_cc. destruct (cc_cmp c); apply Z.leb_le; try lia. specialize (H4 eq_refl). lia. }
  rewrite HL. change (map lit_var (map (fun v => Lit v true) (cc_vars c))) with (map lit_var (pos_lits (cc_vars c))). rewrite map_var_pos_lits.
  destruct c as [vs cm rhs]. cbn [cc_vars cc_cmp cc_rhs] in *. destruct vs as [ | v vs]; [congruence | ].
  cbn [map]. unfold construct_cc_unsafe. destruct (Z.leb_spec 0 (Z.of_N rhs)); [ | lia]. rewrite z_as_u32_small by lia. rewrite N2Z.id.
  apply cc_insert_settled; auto.
Qed.
Lemma pbc_stored : forall s h p, wf s -> vh s h -> unpack s h = Ok (NPbc p) -> f_pbc (pb_cmp p) (pb_rhs p) (pb_lits p) (pb_coeffs p) s = (Ok h, s).
Proof.
  intros s h p Hw Hv Hu. destruct (unpack_pbc_vh s h p Hw Hv Hu) as [H1 [H2 [H3 H4]]]. unfold f_pbc. rewrite H2, Nat.eqb_refl, H4.
  destruct p as [ls cs cm rhs]. cbn [pb_lits pb_coeffs pb_cmp pb_rhs] in *. destruct ls as [ | l ls]; [congruence | ]. apply pbc_insert_settled; auto.
Qed.
Lemma variable_stored : forall s i n, wf s -> nthN (vt_vec (t_vars (f_tabs s))) i = Some n -> f_variable n s = (Ok (encode_lit (Lit (VFF i) true)), s).
Proof.
  intros s i n Hw Hi. unfold f_variable, updt. rewrite simple_goi_vtab.
  rewrite (goi_settled _ _ id _ _ _ _ _ _ _ keq_str (wf_vars s Hw) Hi (String.eqb_refl n)). cbn [fst snd].
  rewrite eta_vars, eta_tabs. reflexivity.
Qed.
