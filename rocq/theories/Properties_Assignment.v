(** C45: assignments and models. *)
From Coq Require Import NArith List Bool Arith Lia.
From Coq Require Import String.
From Verif Require Import Base EncodingModel Syntax FactoryModel FactoryInv FactoryBasics FactoryProofs FactorySpecs FactoryNary FactoryOps EvalProofs WorldProofs SorterProofs TransModel TreeSpec EncodingProofs NnfProofs OpsProofs DefBasics AnonProofs
  XHistory XHistoryProofs XReplay AssignmentModel Properties_Factory Properties_Trans.
Import ListNotations.
Local Open Scope list_scope.
Local Open Scope N_scope.

(** A hash set: no element twice. *)
Definition is_set (l : list var) : Prop := NoDup l.
Definition is_asg (a : assignment) : Prop := is_set (a_pos a) /\ is_set (a_neg a).

Lemma insert_set : forall v l, is_set l -> is_set (fst (hs_insert v l)) /\ (forall u, In u (fst (hs_insert v l)) <-> u = v \/ In u l) /\ (snd (hs_insert v l) = true <-> ~ In v l).
Proof.
  intros v l H. unfold hs_insert. destruct (memv v l) eqn:E; cbn [fst snd].
  - apply memv_In in E. split; [exact H |]. split; [| split; [discriminate | contradiction]].
    intros u. split; [auto |]. intros [-> | Hu]; assumption.
  - apply memv_false in E. split; [| split; [| split; [intros _; exact E | reflexivity]]].
    + unfold is_set. apply NoDup_snoc; assumption.
    + intros u. rewrite in_app_iff. cbn [In]. intuition congruence.
Qed.
Lemma collect_acc : forall l s, is_set s -> is_set (fold_left (fun s v => fst (hs_insert v s)) l s)
  /\ forall u, In u (fold_left (fun s v => fst (hs_insert v s)) l s) <-> In u l \/ In u s.
Proof.
  induction l as [| v l IH]; intros s Hs; cbn [fold_left]; [split; [exact Hs | cbn; tauto] |].
  destruct (insert_set v s Hs) as [H1 [H2 _]]. destruct (IH _ H1) as [H3 H4]. split; [exact H3 |]. intros u. rewrite H4, H2. cbn [In]. intuition congruence.
Qed.
Lemma collect_set : forall l, is_set (hs_collect l) /\ forall u, In u (hs_collect l) <-> In u l.
Proof. intros l. destruct (collect_acc l [] (NoDup_nil _)) as [H1 H2]. split; [exact H1 |]. intros u. unfold hs_collect. rewrite H2. cbn. tauto. Qed.
Lemma set_eqb_iff : forall a b, is_set a -> is_set b -> (hs_eqb a b = true <-> forall u, In u a <-> In u b).
Proof.
  intros a b Ha Hb. unfold hs_eqb. rewrite andb_true_iff, N.eqb_eq, forallb_forall. unfold lenN. split.
  - intros [Hl Hi]. assert (Hincl : incl a b) by (intros u Hu; apply memv_In; auto). intros u. split; [apply Hincl |].
    apply (NoDup_length_incl Ha); [lia | exact Hincl].
  - intros H. split; [| intros u Hu; apply memv_In, H; exact Hu].
    assert (L1 : (List.length a <= List.length b)%nat) by (apply NoDup_incl_length; [exact Ha | intros u Hu; apply H; exact Hu]).
    assert (L2 : (List.length b <= List.length a)%nat) by (apply NoDup_incl_length; [exact Hb | intros u Hu; apply H; exact Hu]). lia.
Qed.

(* ------------------------------------------------------------------------------------------------------------------ *)
(** * Literals *)

Theorem C45_add_literal : forall a l, is_asg a -> let p := asg_add_literal l a in
  is_asg (fst p) /\ (forall k, asg_contains (fst p) k = true <-> k = l \/ asg_contains a k = true) /\ (snd p = true <-> asg_contains a l = false).
Proof.
  intros [pos neg] [v b] [Hp Hn] p. subst p. unfold asg_add_literal, asg_contains. cbn [lit_phase lit_var a_pos a_neg] in *.
  destruct b; rewrite (surjective_pairing (hs_insert v _)); cbn [fst snd a_pos a_neg].
  - destruct (insert_set v pos Hp) as [H1 [H2 H3]]. split; [split; assumption |]. split; [| rewrite H3, memv_false; tauto].
    intros [u c]. cbn [lit_phase lit_var]. destruct c; rewrite !memv_In; [rewrite H2; intuition congruence | intuition congruence].
  - destruct (insert_set v neg Hn) as [H1 [H2 H3]]. split; [split; assumption |]. split; [| rewrite H3, memv_false; tauto].
    intros [u c]. cbn [lit_phase lit_var]. destruct c; rewrite !memv_In; [intuition congruence | rewrite H2; intuition congruence].
Qed.
Print Assumptions C45_add_literal.
Lemma from_literals_acc : forall ls a, is_asg a -> let r := fold_left (fun a l => fst (asg_add_literal l a)) ls a in
  is_asg r /\ forall k, asg_contains r k = true <-> In k ls \/ asg_contains a k = true.
Proof.
  induction ls as [| l ls IH]; intros a Ha; cbn [fold_left]; [split; [exact Ha | cbn; tauto] |].
  destruct (C45_add_literal a l Ha) as [H1 [H2 _]]. destruct (IH _ H1) as [H3 H4]. split; [exact H3 |]. intros k. rewrite H4, H2. cbn [In]. intuition congruence.
Qed.
Theorem C45_from_literals : forall ls, is_asg (asg_from_literals ls) /\ forall k, asg_contains (asg_from_literals ls) k = true <-> In k ls.
Proof.
  intros ls. destruct (from_literals_acc ls (mkAsg [] [])) as [H1 H2]; [split; constructor |]. split; [exact H1 |]. intros k. unfold asg_from_literals. rewrite H2.
  unfold asg_contains. destruct (lit_phase k); cbn; intuition discriminate.
Qed.
Print Assumptions C45_from_literals.
Theorem C45_literals : forall a, is_asg a ->
  NoDup (asg_literals a) /\ lenN (asg_literals a) = asg_len a /\ (forall k, In k (asg_literals a) <-> asg_contains a k = true)
  /\ (asg_is_empty a = true <-> asg_literals a = []) /\ asg_eqb (asg_from_literals (asg_literals a)) a = true.
Proof.
  intros [pos neg] Ha. pose proof Ha as [Hp Hn]. cbn [a_pos a_neg] in *.
  assert (Hin : forall k, In k (asg_literals (mkAsg pos neg)) <-> asg_contains (mkAsg pos neg) k = true).
  { intros [u c]. unfold asg_literals, asg_contains. cbn [lit_phase lit_var a_pos a_neg]. rewrite in_app_iff, !in_map_iff. destruct c; rewrite memv_In; split.
    - intros [[w [E H]] | [w [E H]]]; [injection E as ->; exact H | discriminate].
    - intros H. left. exists u. auto.
    - intros [[w [E H]] | [w [E H]]]; [discriminate | injection E as ->; exact H].
    - intros H. right. exists u. auto. }
  split; [| split; [| split; [exact Hin | split]]].
  - unfold asg_literals. cbn [a_pos a_neg]. apply NoDup_app_intro.
    + apply FinFun.Injective_map_NoDup; [intros x y E; congruence | exact Hp].
    + apply FinFun.Injective_map_NoDup; [intros x y E; congruence | exact Hn].
    + intros k k' H1 H2. apply in_map_iff in H1. apply in_map_iff in H2. destruct H1 as [x [<- _]], H2 as [y [<- _]]. discriminate.
  - unfold asg_literals, asg_len. cbn [a_pos a_neg]. rewrite lenN_app. unfold lenN. now rewrite !map_length.
  - unfold asg_is_empty, asg_literals. cbn [a_pos a_neg]. destruct pos, neg; cbn; intuition discriminate.
  - destruct (C45_from_literals (asg_literals (mkAsg pos neg))) as [[H1 H2] H3]. unfold asg_eqb. apply andb_true_intro. split.
    + apply set_eqb_iff; auto. intros u. specialize (H3 (Lit u true)). rewrite Hin in H3. unfold asg_contains in H3. cbn [lit_phase lit_var a_pos] in H3.
      rewrite !memv_In in H3. exact H3.
    + apply set_eqb_iff; auto. intros u. specialize (H3 (Lit u false)). rewrite Hin in H3. unfold asg_contains in H3. cbn [lit_phase lit_var a_neg] in H3.
      rewrite !memv_In in H3. exact H3.
Qed.
Print Assumptions C45_literals.
Example C45_literals_ex : asg_literals (asg_from_literals [Lit (VFF 1) true; Lit (VFF 0) false; Lit (VFF 1) true; Lit (VAux AuxCC 3) false])
  = [Lit (VFF 1) true; Lit (VFF 0) false; Lit (VAux AuxCC 3) false].
Proof. reflexivity. Qed.

(* ------------------------------------------------------------------------------------------------------------------ *)
(** * Conversions *)

Theorem C45_model_conversion : forall m, is_asg (asg_of_model m) /\ (forall u, In u (a_pos (asg_of_model m)) <-> In u (m_pos m))
  /\ (forall u, In u (a_neg (asg_of_model m)) <-> In u (m_neg m))
  /\ (forall u, In u (m_pos (model_of_asg (asg_of_model m))) <-> In u (m_pos m)) /\ (forall u, In u (m_neg (model_of_asg (asg_of_model m))) <-> In u (m_neg m)).
Proof.
  intros [p n]. unfold asg_of_model, asg_from_variables. cbn. destruct (collect_set p) as [P1 P2], (collect_set n) as [N1 N2].
  repeat split; auto; try apply P2; try apply N2.
Qed.
Print Assumptions C45_model_conversion.
Theorem C45_assignment_conversion : forall a, is_asg a -> asg_eqb (asg_of_model (model_of_asg a)) a = true /\ model_len (model_of_asg a) = asg_len a
  /\ model_literals (model_of_asg a) = asg_literals a.
Proof.
  intros [p n] [Hp Hn]. cbn in Hp, Hn. split; [| split; reflexivity]. unfold asg_of_model, asg_from_variables, asg_eqb. cbn.
  destruct (collect_set p) as [P1 P2], (collect_set n) as [N1 N2]. apply andb_true_intro. split; apply set_eqb_iff; auto.
Qed.
Print Assumptions C45_assignment_conversion.
Theorem C45_compare : forall m m', model_compare m m' = true <-> (forall u, In u (m_pos m) <-> In u (m_pos m')) /\ forall u, In u (m_neg m) <-> In u (m_neg m').
Proof.
  intros [p n] [p' n']. unfold model_compare, asg_eqb, asg_of_model, asg_from_variables. cbn. rewrite andb_true_iff.
  destruct (collect_set p) as [P1 P2], (collect_set n) as [N1 N2], (collect_set p') as [P1' P2'], (collect_set n') as [N1' N2'].
  rewrite !set_eqb_iff by assumption. split; intros [H1 H2]; (split; intros u; [specialize (H1 u); rewrite P2, P2' in * | specialize (H2 u); rewrite N2, N2' in *]; assumption).
Qed.
Print Assumptions C45_compare.
Theorem C45_model_literals : forall ls k, In k (model_literals (model_from_literals ls)) <-> In k ls.
Proof.
  intros ls [u c]. unfold model_literals, model_from_literals. cbn. rewrite in_app_iff, !in_map_iff. split.
  - intros [[w [E H]] | [w [E H]]]; injection E as -> <-; apply in_map_iff in H; destruct H as [[z d] [<- H]]; apply filter_In in H; destruct H as [H F]; cbn in *;
      destruct d; try discriminate; exact H.
  - intros H. destruct c; [left | right]; exists u; (split; [reflexivity |]); apply in_map_iff; [exists (Lit u true) | exists (Lit u false)]; (split; [reflexivity |]);
      apply filter_In; auto.
Qed.
Print Assumptions C45_model_literals.

(* ------------------------------------------------------------------------------------------------------------------ *)
(** * Blocking clauses *)

(** A valuation agrees with an assignment on a variable. *)
Definition agrees (v : valuation) (a : assignment) (u : var) : Prop := (In u (a_pos a) -> v u = true) /\ (In u (a_neg a) -> v u = false).
Definition exists_all (s : factory) (l : list var) : Prop := forall u, In u l -> exists_in s u.

Lemma f_or_lits : forall W s ls, inv W s -> (forall l, In l ls -> known s (lit_var l)) ->
  xspec W s (f_or (map encode_lit ls)) (fun r s' _ => exists y, denotes s' r y /\ forall v, sem v y = existsb (lit_sem v) ls).
Proof.
  intros W s ls Hi Hk. eapply x_conseq; [apply (x_nary false (map encode_lit ls) (map FLit ls) W s Hi) |].
  - clear -Hi Hk. induction ls as [| l ls IH]; cbn [map]; constructor; [apply hdl_lit; [apply Hi | apply Hk; left; reflexivity] | apply IH; intros k H; apply Hk; right; exact H].
  - intros r s' W' _ _ _ [_ [_ [y [Hy [Hs _]]]]]. exists y. split; [apply Hy |]. intros v. rewrite Hs. cbn [nary_sem].
    clear. induction ls as [| l ls IH]; cbn; [reflexivity |]. f_equal. exact IH.
Qed.
Theorem C45_blocking_clause : forall cfg s known os a vs, xreachable cfg s known os -> (forall u, In u (a_pos a) -> ~ In u (a_neg a)) -> exists_all s vs ->
  returns (blocking_clause a (Some vs)) s (fun r s' => exists y, denotes s' r y /\ forall v, sem v y = false <-> forall u, In u vs -> agrees v a u).
Proof.
  intros cfg s known os a vs Hr Hc He. destruct (xreachable_ok _ _ _ _ Hr) as [W [Hi _]].
  eapply x_returns; [apply (f_or_lits W s); [exact Hi |] |].
  - intros l Hl. apply in_flat_map in Hl. destruct Hl as [u [Hu Hl]]. apply exists_known. apply He.
    destruct (memv u (a_pos a)); [| destruct (memv u (a_neg a))]; cbn in Hl; [destruct Hl as [<- | []]; exact Hu | destruct Hl as [<- | []]; exact Hu | destruct Hl].
  - intros r s' W' _ _ [y [Hy Hs]]. exists y. split; [exact Hy |]. intros v. rewrite Hs. clear -Hc. cbn [blocking_literals].
    induction vs as [| u vs IH]; [cbn; intuition |]. cbn [flat_map]. rewrite existsb_app, orb_false_iff, IH. clear IH.
    assert (Hu : existsb (lit_sem v) (if memv u (a_pos a) then [Lit u false] else if memv u (a_neg a) then [Lit u true] else []) = false <-> agrees v a u).
    { unfold agrees. destruct (memv u (a_pos a)) eqn:P; [| destruct (memv u (a_neg a)) eqn:Q].
      - apply memv_In in P. pose proof (Hc u P). cbn. destruct (v u); cbn; intuition congruence.
      - apply memv_In in Q. apply memv_false in P. cbn. destruct (v u); cbn; intuition congruence.
      - apply memv_false in P, Q. cbn. intuition. }
    rewrite Hu. cbn [In]. split; [intros [H1 H2] w [<- | Hw]; auto | intros H; split; [apply H; auto | intros w Hw; apply H; auto]].
Qed.
Print Assumptions C45_blocking_clause.
Theorem C45_blocking_clause_all : forall cfg s known os a, xreachable cfg s known os -> exists_all s (a_pos a) -> exists_all s (a_neg a) ->
  returns (blocking_clause a None) s (fun r s' => exists y, denotes s' r y /\ forall v, sem v y = false <-> forall u, agrees v a u).
Proof.
  intros cfg s known os a Hr He1 He2. destruct (xreachable_ok _ _ _ _ Hr) as [W [Hi _]].
  eapply x_returns; [apply (f_or_lits W s); [exact Hi |] |].
  - intros l Hl. apply exists_known. cbn [blocking_literals] in Hl. apply in_app_or in Hl.
    destruct Hl as [Hl | Hl]; apply in_map_iff in Hl; destruct Hl as [u [<- Hu]]; cbn; auto.
  - intros r s' W' _ _ [y [Hy Hs]]. exists y. split; [exact Hy |]. intros v. rewrite Hs. clear. cbn [blocking_literals]. rewrite existsb_app, orb_false_iff.
    assert (H : forall b l, existsb (lit_sem v) (map (fun u => Lit u b) l) = false <-> forall u, In u l -> v u = negb b).
    { intros b l. induction l as [| u l IH]; [cbn; intuition |]. cbn [map existsb]. rewrite orb_false_iff, IH. cbn [In]. unfold lit_sem. cbn [lit_phase lit_var]. split.
      - intros [H1 H2] w [<- | Hw]; [| auto]. destruct b, (v u); cbn in *; congruence.
      - intros H. split; [| intros w Hw; apply H; auto]. specialize (H u (or_introl eq_refl)). rewrite H. destruct b; reflexivity. }
    rewrite !H. cbn [negb]. unfold agrees. split; [intros [H1 H2] u; split; auto | intros K; split; intros u Hu; apply (K u); exact Hu].
Qed.
Print Assumptions C45_blocking_clause_all.
Example C45_blocking_ex : In (encode_lit (Lit (VFF 2) true)) (x_known ex_b)
  /\ let m := blocking_clause (mkAsg [VFF 0; VFF 3] [VFF 2]) (Some [VFF 0; VFF 1; VFF 2]) in
     match fst (m (x_fac ex_b)) with Ok r => tree_of 5 (snd (m (x_fac ex_b))) r | _ => None end = Some (FOr [FLit (Lit (VFF 0) false); FLit (Lit (VFF 2) true)]).
Proof. vm_compute. split; [auto 10 | reflexivity]. Qed.

(* ------------------------------------------------------------------------------------------------------------------ *)
(** * Names *)

Lemma lookup_name : forall s n, wf s -> match simple_lookup String.eqb n (t_vars (f_tabs s)) with
  | Some e => name_of s (enc_index e) = Some n | None => forall i, name_of s i <> Some n end.
Proof.
  intros s n Hw. destruct (wf_vars _ Hw) as [Hrev Hvec _]. unfold simple_lookup. destruct (assoc String.eqb n (vt_rev (t_vars (f_tabs s)))) as [e |] eqn:E.
  - apply assoc_some in E. destruct E as [k [Hin Hk]]. apply String.eqb_eq in Hk. subst k. destruct (Hrev n e Hin) as [i [v [Hi [Hv ->]]]].
    apply String.eqb_eq in Hv. unfold id in Hv. subst v. unfold name_of.
    assert (Hl : i <= cap26). { pose proof (nthN_some_lt _ _ _ _ Hi). pose proof (wf_cap _ Hw) as Hc. unfold cap in Hc. rewrite Forall_forall in Hc. specialize (Hc (lenN (vt_vec (t_vars (f_tabs s)))) ltac:(unfold sizes; cbn; auto)). lia. }
    rewrite enc_index_encode; [exact Hi | reflexivity |]. unfold cap26 in Hl. lia.
  - intros i Hi. destruct (Hvec i n Hi) as [k [Hin Hk]]. apply String.eqb_eq in Hk. unfold id in Hk. subst k.
    apply (assoc_none _ _ _ _ _ E) in Hin. rewrite String.eqb_refl in Hin. discriminate.
Qed.
Theorem C45_names : forall cfg s known os names, xreachable cfg s known os ->
  match names_to_indices s names with
  | Some l => Forall2 (fun n u => exists i, u = VFF i /\ name_of s i = Some n) names l
  | None => exists n, In n names /\ forall i, name_of s i <> Some n
  end.
Proof.
  intros cfg s known os names Hr. destruct (xreachable_ok _ _ _ _ Hr) as [W [Hi _]]. induction names as [| n names IH]; cbn [names_to_indices]; [constructor |].
  pose proof (lookup_name s n (i_wf _ _ Hi)) as Hl. destruct (simple_lookup String.eqb n (t_vars (f_tabs s))) as [e |].
  - destruct (names_to_indices s names) as [l |]; [constructor; [eauto | exact IH] |]. destruct IH as [m [Hm H]]. exists m. split; [right; exact Hm | exact H].
  - exists n. split; [left; reflexivity | exact Hl].
Qed.
Print Assumptions C45_names.
(** An assignment made of names assigns exactly the variables with these names. *)
Theorem C45_from_names : forall cfg s known os pos neg a, xreachable cfg s known os -> asg_from_names s pos neg = Some a ->
  is_asg a /\ (forall u, In u (a_pos a) <-> exists i n, u = VFF i /\ name_of s i = Some n /\ In n pos)
  /\ (forall u, In u (a_neg a) <-> exists i n, u = VFF i /\ name_of s i = Some n /\ In n neg).
Proof.
  intros cfg s known os pos neg a Hr E. destruct (xreachable_ok _ _ _ _ Hr) as [W [Hi _]].
  pose proof (C45_names cfg s known os pos Hr) as Hp. pose proof (C45_names cfg s known os neg Hr) as Hn. unfold asg_from_names in E.
  destruct (names_to_indices s pos) as [p |]; [| discriminate]. destruct (names_to_indices s neg) as [n |]; [| discriminate]. injection E as <-.
  unfold asg_from_variables. cbn [a_pos a_neg]. destruct (collect_set p) as [P1 P2], (collect_set n) as [N1 N2].
  assert (K : forall names l, Forall2 (fun n u => exists i, u = VFF i /\ name_of s i = Some n) names l ->
     forall u, In u l <-> exists i n, u = VFF i /\ name_of s i = Some n /\ In n names).
  { clear -Hi. intros names l H. induction H as [| m w names l [i [-> Hm]] H IH]; intros u; cbn [In].
    - split; [tauto | intros [i [n [_ [_ []]]]]].
    - rewrite IH. split.
      + intros [<- | [j [n [-> [Hn Hin]]]]]; eauto 7.
      + intros [j [n [-> [Hn [<- | Hin]]]]]; [left | right; eauto].
        f_equal. pose proof (wf_vars _ (i_wf _ _ Hi)) as [_ _ U]. apply (U i j m m Hm Hn). apply String.eqb_refl. }
  split; [split; assumption |]. split; intros u; [rewrite P2 | rewrite N2]; apply K; assumption.
Qed.
Print Assumptions C45_from_names.
