(** C42: model counting on deterministic decomposable negation normal forms, in every state a factory can get into. *)
From Coq Require Import NArith ZArith List Bool Arith Lia Sorted.
From Coq Require Import String.
From Verif Require Import Base Syntax FactoryModel FactoryInv FactoryBasics FactoryOps EvalProofs HistoryModel ConstraintModel OpsModel
  CacheModel TransModel TreeSpec WorldProofs XHistory XHistoryProofs XReplay Properties_Factory Properties_Trans DnnfSpec DnnfModel DnnfProofs.
Import ListNotations.
Local Open Scope list_scope.
Local Open Scope N_scope.

Theorem C42_count : forall cfg s known os h x vs fuel, xreachable cfg s known os -> In h known -> denotes s h x -> (depth x < fuel)%nat ->
  dnnf x -> StronglySorted (fun a b => var_ltb a b = true) vs -> incl (fvars x) vs -> lenN vs < 4294967296 ->
  returns (count fuel (mkDnnf h vs)) s (fun n s' => denotes s' h x /\ forall v, n = count_models vs (fun w => sem w x) v).
Proof.
  intros cfg s known os h x vs fuel Hr Hin Hd Hf D Hs I Hl. destruct (known_hdl _ _ _ _ _ _ Hr Hin Hd) as [W [Hi [Hx _]]].
  eapply x_returns; [apply (count_spec fuel x W); auto; [apply Hx | apply dnnf_andor; auto | apply ss_nodup; auto] |].
  intros n s' W' _ He ->. split; [exact (denotes_ext _ _ _ _ He Hd) | ]. intros v. symmetry. apply dcount_over; auto. apply ss_nodup. auto.
Qed.
Print Assumptions C42_count.

(** What [count_models] counts: the value vectors under which the predicate holds, each vector of the right length listed once. *)
Theorem C42_vectors : forall n, NoDup (vectors n) /\ forall bs, In bs (vectors n) <-> List.length bs = n.
Proof.
  induction n as [ | n [IH1 IH2]]; cbn [vectors].
  - split; [repeat constructor; intros [] | ]. intros bs. split; [intros [<- | []]; reflexivity | ]. destruct bs; [left; reflexivity | discriminate].
  - split.
    + assert (Hn : forall b, NoDup (map (cons b) (vectors n))).
      { intros b. apply FinFun.Injective_map_NoDup; auto. intros x y E. injection E. auto. }
      assert (Hd : forall bs, In bs (map (cons false) (vectors n)) -> ~ In bs (map (cons true) (vectors n))).
      { intros bs H G. apply in_map_iff in H. apply in_map_iff in G. destruct H as [a [<- _]], G as [c [E _]]. discriminate. }
      revert Hd. generalize (Hn false) (Hn true). generalize (map (cons false) (vectors n)) (map (cons true) (vectors n)). clear.
      intros l1 l2 H1 H2 H. induction l1 as [ | x l1 IH]; cbn [app]; auto. inversion H1; subst. constructor.
      * rewrite in_app_iff. intros [Hx | Hx]; [auto | apply (H x (or_introl eq_refl) Hx)].
      * apply IH; auto. intros y Hy. apply H. right. auto.
    + intros bs. rewrite in_app_iff, !in_map_iff. split.
      * intros [[a [<- Ha]] | [a [<- Ha]]]; apply IH2 in Ha; cbn [List.length]; auto.
      * intros L. destruct bs as [ | [ | ] bs]; [discriminate | right | left]; exists bs; (split; [reflexivity | ]); apply IH2; injection L; auto.
Qed.
Print Assumptions C42_vectors.
Theorem C42_vectors_values : forall vs v bs, NoDup vs -> List.length bs = List.length vs -> forall i x, nth_error vs i = Some x ->
  Some (upds v vs bs x) = nth_error bs i.
Proof.
  assert (Hout : forall vs v bs x, ~ In x vs -> upds v vs bs x = v x).
  { induction vs as [ | y vs IH]; intros v bs x H; cbn [upds]; auto. destruct bs as [ | b bs]; auto. rewrite IH by (intros G; apply H; right; auto).
    unfold upd. destruct (var_eqb x y) eqn:E; auto. apply var_eqb_spec in E. subst. exfalso. apply H. left. auto. }
  induction vs as [ | y vs IH]; intros v bs N L i x E; [destruct i; discriminate | ]. destruct bs as [ | b bs]; [discriminate | ].
  inversion N; subst. cbn [upds]. destruct i as [ | i]; cbn [nth_error] in *.
  - injection E as <-. rewrite Hout by auto. unfold upd. rewrite var_eqb_refl'. auto.
  - apply IH; auto.
Qed.
Print Assumptions C42_vectors_values.

(* ------------------------------------------------------------------------------------------------------------------ *)
(** * The example: [(A & (B | (~B & C))) | (~A & C)], counted over A, B, C, D *)

Open Scope string_scope.
Definition dn_hist : list rstep :=
  [RCall (XCall (CVariable "A")); RCall (XCall (CVariable "B")); RCall (XCall (CVariable "C")); RCall (XCall (CVariable "D"));
   RCall (XCall (CNot 35)); RCall (XCall (CNot 99)); RCall (XCall (CNary true [103; 163])); RCall (XCall (CNary true [39; 163]));
   RCall (XCall (CNary false [99; 11])); RCall (XCall (CNary true [35; 12]));
   RCall (XCall (CNary false [139; 75]))].
Close Scope string_scope.
Definition ex_d : xstate := ex_of dn_hist.
Definition nl (i : N) (p : bool) : fml := FLit (Lit (VFF i) p).
Definition ex_dnnf : fml := FOr [FAnd [nl 0 true; FOr [nl 1 true; FAnd [nl 1 false; nl 2 true]]]; FAnd [nl 0 false; nl 2 true]].
Lemma ex_d_reach : xreachable default_config (x_fac ex_d) (x_known ex_d) (x_objs ex_d).
Proof. apply (replay_reach _ dn_hist). vm_compute. reflexivity. Qed.
Lemma ex_d_den : In 76 (x_known ex_d) /\ denotes (x_fac ex_d) 76 ex_dnnf.
Proof. split; [vm_compute; auto | apply (tree_of_sound 10); vm_compute; reflexivity]. Qed.
Lemma ex_d_dnnf : dnnf ex_dnnf.
Proof.
  unfold ex_dnnf, nl. cbn [dnnf]. repeat split; try (repeat constructor; fail).
  - constructor; [ | repeat constructor]. constructor; [ | constructor]. intros v. cbn [sem forallb existsb lit_sem]. destruct (v (VFF 0)), (v (VFF 1)), (v (VFF 2)); reflexivity.
  - constructor; [ | repeat constructor]. constructor; [ | constructor]. intros u [<- | []] G. vm_compute in G. intuition discriminate.
  - constructor; [ | repeat constructor]. constructor; [ | constructor]. intros v. cbn [sem forallb existsb lit_sem]. destruct (v (VFF 0)), (v (VFF 1)), (v (VFF 2)); reflexivity.
  - constructor; [ | repeat constructor]. constructor; [ | constructor]. intros u [<- | []] G. vm_compute in G. intuition discriminate.
  - constructor; [ | repeat constructor]. constructor; [ | constructor]. intros u [<- | []] G. vm_compute in G. intuition discriminate.
Qed.
Definition ex_d_vars : list var := [VFF 0; VFF 1; VFF 2; VFF 3].
Example C42_ex : dnnf ex_dnnf /\ denotes (x_fac ex_d) 76 ex_dnnf /\ incl (fvars ex_dnnf) ex_d_vars
  /\ fst (count 20 (mkDnnf 76 ex_d_vars) (x_fac ex_d)) = Ok 10
  /\ count_models ex_d_vars (fun w => sem w ex_dnnf) (fun _ => false) = 10
  /\ fst (count 20 (mkDnnf 76 [VFF 0; VFF 1; VFF 2]) (x_fac ex_d)) = Ok 5.
Proof.
  split; [exact ex_d_dnnf | ]. split; [apply ex_d_den | ]. split; [intros u H; vm_compute in H; vm_compute; tauto | ].
  split; [vm_compute; reflexivity | ]. split; vm_compute; reflexivity.
Qed.
