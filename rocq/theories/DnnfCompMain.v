(** The DNNF compiler as a whole, in runs without a conflict. *)
From Coq Require Import NArith List Bool Arith Lia Permutation Sorted.
From Verif Require Import Base EncodingModel EncodingProofs Syntax FactoryModel FactoryInv FactoryBasics FactoryProofs FactorySpecs FactoryNary
  FactoryOps EvalProofs InvariantSpec HashConsProofs OpsModel OpsProofs CacheModel TransModel TreeSpec WorldProofs MetricsProofs EncodeProofs NnfProofs DefBasics XHistoryProofs DnnfSpec DnnfCompTree
  Vec SatSpec SatModel SatBasics SatInv SatProp SatExact MiniModel MiniProofs PgSolverModel PgHistory SatPredModel BbSimpProofs DnnfProofs SubsumptionProofs
  ConstraintModel DnnfCompModel DnnfCompVal DnnfCompSat DnnfCompProofs DnnfCompLoad DnnfCompNames.
From Verif Require ParserModel.
Import ListNotations.
Local Open Scope nat_scope.
Local Notation finv := WorldProofs.inv.

(* ------------------------------------------------------------------------------------------------------------------ *)
(** * The literals of clauses *)
Lemma lit_ltb_asym : forall a b, lit_ltb a b = true -> lit_ltb b a = true -> False.
Proof. intros a b H1 H2. pose proof (lit_ltb_trans _ _ _ H1 H2) as K. rewrite lit_ltb_irrefl in K. discriminate. Qed.
Lemma strict_unique : forall a b, strict lit_ltb a -> strict lit_ltb b -> (forall l, In l a <-> In l b) -> a = b.
Proof.
  induction a as [| x a IH]; intros b Ha Hb H; [destruct b as [| y b]; [reflexivity | destruct (proj2 (H y) (or_introl eq_refl))] |].
  destruct b as [| y b]; [destruct (proj1 (H x) (or_introl eq_refl)) |]. inversion Ha as [| ? ? Sa Fa]; inversion Hb as [| ? ? Sb Fb]; subst. rewrite Forall_forall in Fa, Fb.
  assert (E : x = y).
  { destruct (proj1 (H x) (or_introl eq_refl)) as [-> | Hx]; [reflexivity |]. destruct (proj2 (H y) (or_introl eq_refl)) as [-> | Hy]; [reflexivity |]. destruct (lit_ltb_asym x y); auto. }
  subst y. f_equal. apply IH; auto. intros l. split; intros Hl.
  - destruct (proj1 (H l) (or_intror Hl)) as [<- | K]; [| exact K]. specialize (Fa _ Hl). rewrite lit_ltb_irrefl in Fa. discriminate.
  - destruct (proj2 (H l) (or_intror Hl)) as [<- | K]; [| exact K]. specialize (Fb _ Hl). rewrite lit_ltb_irrefl in Fb. discriminate.
Qed.
Definition litsof (ls : list lit) (c : fml) : Prop := set_list lit_ltb ls (flits c).
Lemma litsof_fun : forall a b c, litsof a c -> litsof b c -> a = b.
Proof. intros a b c [H1 H2] [H3 H4]. apply strict_unique; auto. intros l. rewrite H2, H4. tauto. Qed.
Lemma litsof_fun2 : forall cs a b, Forall2 litsof a cs -> Forall2 litsof b cs -> a = b.
Proof. induction cs as [| c cs IH]; intros a b H1 H2; inversion H1; inversion H2; subst; [reflexivity |]. f_equal; [eapply litsof_fun; eauto | auto]. Qed.
Lemma sem_flits : forall c v, is_fclause c = true -> sem v c = existsb (lit_sem v) (flits c).
Proof.
  intros c v H. destruct c; try discriminate; [cbn; now rewrite orb_false_r |]. cbn [is_fclause] in H. cbn [sem flits]. induction l as [| z l IH]; [reflexivity |]. cbn [forallb existsb flat_map] in *. apply andb_true_iff in H. destruct H as [H1 H2].
  rewrite existsb_app, <- IH by auto. destruct z; try discriminate. cbn. now rewrite orb_false_r.
Qed.
Lemma existsb_same : forall A (p : A -> bool) a b, (forall x, In x a <-> In x b) -> existsb p a = existsb p b.
Proof. intros A p a b H. apply eq_iff_eq_true. rewrite !existsb_exists. split; intros (x & H1 & H2); exists x; split; auto; now apply H. Qed.
Lemma sem_litsof : forall c v ls, is_fclause c = true -> litsof ls c -> sem v c = existsb (lit_sem v) ls.
Proof. intros c v ls H [_ K]. rewrite sem_flits by auto. apply existsb_same. intros x. symmetry. apply K. Qed.
Lemma flits_in : forall c l, is_fclause c = true -> In l (flits c) -> c = FLit l \/ exists k, c = FOr k /\ In (FLit l) k.
Proof.
  intros c l H Hl. destruct c; try discriminate; cbn [flits] in Hl; [destruct Hl as [<- | []]; now left |]. right. eexists. split; [reflexivity |]. apply in_flat_map in Hl. destruct Hl as (z & Hz & Hl).
  cbn [is_fclause] in H. rewrite forallb_forall in H. specialize (H z Hz). destruct z; try discriminate. destruct Hl as [<- | []]. exact Hz.
Qed.
(** Operands of a node are not complementary literals. *)
Lemma ops_no_compl : forall s h conj k l, wf s -> vh s h -> denotes s h (fnary conj k) -> In (FLit l) k -> In (FLit (lit_negate l)) k -> False.
Proof.
  intros s h conj k l Hw Hv Hd H1 H2. destruct (fnary_node s h conj k Hw Hv Hd) as (hs & _ & Hk & Ho & _ & _).
  destruct (Forall2_In_r _ _ _ _ _ _ Hk H1) as (a & Ha & Da). destruct (Forall2_In_r _ _ _ _ _ _ Hk H2) as (b & Hb & Db). apply denotes_inv in Da, Db.
  apply (oo_compl _ _ _ Ho a b Ha Hb). right. right. exists l. auto.
Qed.
Lemma lit_var_cases : forall a b, lit_var a = lit_var b -> a = b \/ b = lit_negate a.
Proof. intros [x p] [y q]. cbn. intros ->. destruct p, q; auto. Qed.
Lemma nodup_vars : forall ls, NoDup ls -> (forall l, In l ls -> In (lit_negate l) ls -> False) -> NoDup (map lit_var ls).
Proof.
  induction ls as [| l ls IH]; intros N H; cbn [map]; [constructor |]. inversion N; subst. constructor.
  - intros K. apply in_map_iff in K. destruct K as (b & E & Hb). destruct (lit_var_cases l b (eq_sym E)) as [-> | ->]; [contradiction |]. apply (H l); [now left | now right].
  - apply IH; auto. intros k H1 H2'. apply (H k); now right.
Qed.
Lemma clause_vars : forall s h c ls, wf s -> vh s h -> denotes s h c -> is_fclause c = true -> litsof ls c -> NoDup (map lit_var ls).
Proof.
  intros s h c ls Hw Hv Hd Hc [S K]. apply nodup_vars; [now apply strict_NoDup |]. intros l H1 H2. apply K in H1, H2. destruct (flits_in _ _ Hc H1) as [-> | (k & -> & Q1)].
  - destruct H2 as [H2 | []]. destruct l as [u []]; discriminate.
  - destruct (flits_in _ _ Hc H2) as [E | (k' & E & Q2)]; [discriminate |]. injection E as <-. exact (ops_no_compl s h false k l Hw Hv Hd Q1 Q2).
Qed.

(* ------------------------------------------------------------------------------------------------------------------ *)
(** * Running the parts *)
Lemma mono_is_sat : forall orc alg fuel h, mono (is_sat orc alg fuel h).
Proof.
  intros. unfold is_sat. apply mono_bind; [auto with mono |]. intros [b |]; [apply mono_ret |]. apply mono_bind; [apply mono_add_to_solver |]. intros fs. apply mono_bind; [apply mono_lift |]. intros p. apply mono_bind; [apply mono_put | intros; apply mono_ret].
Qed.
Lemma run_literals : forall fuel W s h c ls s', finv W s -> hdl s h c -> depth c < fuel -> literals fuel h s = (Ok ls, s') -> cap s' -> exists W', finv W' s' /\ sub W' W /\ ext s s' /\ litsof ls c.
Proof.
  intros fuel W s h c ls s' Hi Hh Hd E Hc. destruct (x_run _ _ _ _ _ _ _ (literals_spec fuel c W s h Hi (proj1 Hh) (proj1 (proj2 Hh)) Hd) E Hc) as (a & W' & Ea & H1 & H2 & H3 & H4). apply ok_inj in Ea. subst a. exists W'. auto.
Qed.
Lemma run_variables : forall fuel W s h c ls s', finv W s -> hdl s h c -> depth c < fuel -> variables fuel h s = (Ok ls, s') -> cap s' -> exists W', finv W' s' /\ sub W' W /\ ext s s' /\ set_list var_ltb ls (fvars c).
Proof.
  intros fuel W s h c ls s' Hi Hh Hd E Hc. destruct (x_run _ _ _ _ _ _ _ (variables_spec fuel c W s h Hi (proj1 Hh) (proj1 (proj2 Hh)) Hd) E Hc) as (a & W' & Ea & H1 & H2 & H3 & H4). apply ok_inj in Ea. subst a. exists W'. auto.
Qed.
Lemma hdls_ext : forall s s' l xs, ext s s' -> Forall2 (hdl s) l xs -> Forall2 (hdl s') l xs.
Proof. intros s s' l xs E H. induction H; constructor; auto. eapply hdl_ext; eauto. Qed.
Lemma run_mlits : forall fuel ops cs W s lss s', finv W s -> Forall2 (hdl s) ops cs -> (forall c, In c cs -> depth c < fuel) -> mmap (literals fuel) ops s = (Ok lss, s') -> cap s' ->
  exists W', finv W' s' /\ sub W' W /\ ext s s' /\ Forall2 litsof lss cs.
Proof.
  intros fuel ops cs W s lss s' Hi H. revert W s lss s' Hi H. revert cs. induction ops as [| h ops IH]; intros cs W s lss s' Hi H Hd E Hc; inversion H; subst; cbn [mmap] in E.
  - apply okp_inj in E. destruct E as [-> ->]. exists W. split; auto. split; [intros v Hv; exact Hv |]. split; [apply ext_refl | constructor].
  - apply bind_cap in E; [| intros; apply mono_bind; [apply mono_mmap; intros; apply mono_literals | intros; apply mono_ret] | exact Hc]. destruct E as (ls & s1 & E1 & Hc1 & E).
    apply bind_cap in E; [| intros; apply mono_ret | exact Hc]. destruct E as (r & s2 & E2 & Hc2 & E). apply okp_inj in E. destruct E as [-> ->].
    destruct (run_literals _ _ _ _ _ _ _ Hi H2 (Hd _ (or_introl eq_refl)) E1 Hc1) as (W1 & A1 & A2 & A3 & A4).
    destruct (IH l' W1 s1 r s2 A1 (hdls_ext _ _ _ _ A3 H4) (fun c K => Hd c (or_intror K)) E2 Hc) as (W2 & B1 & B2 & B3 & B4).
    exists W2. split; auto. split; [eapply sub_trans; eauto |]. split; [eapply ext_trans; eauto | constructor; auto].
Qed.
Definition keeps {A} (m : M A) : Prop := forall s, snd (m s) = s.
Lemma keeps_mmap : forall A B (k : A -> M B) l, (forall a, keeps (k a)) -> keeps (mmap k l).
Proof.
  intros A B k l H. induction l as [| a l IH]; intros s; cbn [mmap]; [reflexivity |]. unfold bind. specialize (H a s). destruct (k a s) as [[b | |] s1]; cbn [snd] in *; auto. subst s1. specialize (IH s). destruct (mmap k l s) as [[r | |] s2]; cbn [snd] in *; auto.
Qed.
Lemma keeps_lift : forall A (f : factory -> res A), keeps (lift f).
Proof. intros A f s. reflexivity. Qed.
Lemma keeps_run : forall A (m : M A) s r s', keeps m -> m s = (r, s') -> s' = s.
Proof. intros A m s r s' H E. specialize (H s). rewrite E in H. exact H. Qed.
Lemma nary_ops : forall conj s h l, wf s -> hdl s h (fnary conj l) -> exists ops, unpack s h = Ok (nnode conj ops) /\ Forall2 (hdl s) ops l.
Proof.
  intros conj s h l Hw (Hv & Hd & Hk). destruct (fnary_node s h conj l Hw Hv Hd) as (ops & Hu & Ho & _ & Hvs & _). exists ops. split; auto.
  assert (Hkl : forall z, In z l -> kn s z). { intros z Hz u Hu'. apply Hk. rewrite DnnfCompTree.fvars_nary. apply in_flat_map. exists z. split; assumption. }
  clear Hu Hd Hk Hv. induction Ho; constructor; inversion Hvs; subst.
  - split; [assumption |]. split; [assumption | apply Hkl; now left].
  - apply IHHo; auto. intros z Hz. apply Hkl. now right.
Qed.
Lemma run_mvars : forall fuel (B : Type) (k : list var -> M B) ops cs W s r s', (forall w, keeps (k w)) -> finv W s -> Forall2 (hdl s) ops cs -> (forall c, In c cs -> depth c < fuel) ->
  mmap (fun c => ws <-- variables fuel c ;; k ws) ops s = (Ok r, s') -> cap s' -> exists W', finv W' s' /\ sub W' W /\ ext s s'.
Proof.
  intros fuel B k ops cs W s r s' Hk Hi H. revert W s r s' Hi H. revert cs. assert (Mk : forall w, mono (k w)). { intros w s. rewrite (Hk w s). apply size_le_refl. }
  induction ops as [| h ops IH]; intros cs W s r s' Hi H Hd E Hc; inversion H; subst; cbn [mmap] in E.
  - apply okp_inj in E. destruct E as [_ ->]. exists W. split; auto. split; [apply sub_refl | apply ext_refl].
  - apply bind_cap in E; [| intros; apply mono_bind; [apply mono_mmap; intros; apply mono_bind; [apply mono_variables | intros; apply Mk] | intros; apply mono_ret] | exact Hc]. destruct E as (ls & s1 & E1 & Hc1 & E).
    apply bind_cap in E; [| intros; apply mono_ret | exact Hc]. destruct E as (r' & s2 & E2 & Hc2 & E). apply okp_inj in E. destruct E as [_ ->].
    apply bind_cap in E1; [| intros; apply Mk | exact Hc1]. destruct E1 as (ws & s1' & E1 & Hc1' & E1'). apply keeps_run in E1'; [| apply Hk]. subst s1'.
    destruct (run_variables _ _ _ _ _ _ _ Hi H2 (Hd _ (or_introl eq_refl)) E1 Hc1) as (W1 & A1 & A2 & A3 & A4).
    destruct (IH l' W1 s1 r' s2 A1 (hdls_ext _ _ _ _ A3 H4) (fun c K => Hd c (or_intror K)) E2 Hc) as (W2 & B1 & B2 & B3).
    exists W2. split; auto. split; [eapply sub_trans; eauto | eapply ext_trans; eauto].
Qed.
Lemma depth_nary : forall conj l c, In c l -> depth c < depth (fnary conj l).
Proof. intros conj l c H. destruct conj; cbn [fnary]; apply children_depth; exact H. Qed.
Lemma run_ordering : forall fid fuel conj l W s h r s', finv W s -> hdl s h (fnary conj l) -> depth (fnary conj l) < fuel -> min_fill_ordering fid fuel h s = (Ok r, s') -> cap s' -> exists W', finv W' s' /\ sub W' W /\ ext s s'.
Proof.
  intros fid fuel conj l W s h r s' Hi Hh Hd E Hc. unfold min_fill_ordering in E.
  assert (Mv : forall vertices, mono (fun s0 => (ops <-- operandsM h ;; cvs <-- mmap (fun c => ws <-- variables fuel c ;; mmap (fun w => lift (fun _ => of_opt (idx_of vertices w))) ws) ops ;;
     is <-- lift (fun _ => min_fill (length vertices) (length vertices) (graph_of (length vertices) cvs) (repeat false (length vertices))) ;; mmap (fun i => lift (fun _ => of_opt (nth_error vertices i))) is) s0)).
  { intros vs. apply (mono_bind _ _ (operandsM h)); [apply mono_lift |]. intros. apply mono_bind; [apply mono_mmap; intros; apply mono_bind; [apply mono_variables | intros; apply mono_mmap; intros; apply mono_lift] |]. intros. apply mono_bind; [apply mono_lift |]. intros. apply mono_mmap. intros. apply mono_lift. }
  apply bind_cap in E; [| intros; apply mono_bind; [apply mono_mmap; intros; apply mono_bind; [apply mono_lift | intros; apply mono_ret] | intros; apply Mv] | exact Hc]. destruct E as (vs & s1 & E1 & Hc1 & E).
  destruct (run_variables _ _ _ _ _ _ _ Hi Hh Hd E1 Hc1) as (W1 & A1 & A2 & A3 & _).
  apply bind_cap in E; [| intros; apply Mv | exact Hc]. destruct E as (nm & s2 & E2 & Hc2 & E). apply keeps_run in E2; [| apply keeps_mmap; intros v s0; unfold bind, lift; destruct (ParserModel.name_of fid s0 v); reflexivity]. subst s2.
  cbn zeta in E. set (vertices := map snd (sort_key nm)) in *.
  pose proof (hdl_ext _ _ _ _ A3 Hh) as Hh1. destruct (nary_ops conj s1 h l (i_wf _ _ A1) Hh1) as (ops & Hu & Ho).
  assert (Eo : operandsM h s1 = (Ok ops, s1)). { unfold operandsM, lift, operands. rewrite Hu. cbn [rbind]. destruct conj; reflexivity. }
  unfold bind at 1 in E. rewrite Eo in E.
  apply bind_cap in E; [| intros; apply mono_bind; [apply mono_lift | intros; apply mono_mmap; intros; apply mono_lift] | exact Hc]. destruct E as (cvs & s3 & E3 & Hc3 & E).
  destruct (run_mvars fuel (list nat) (fun ws => mmap (fun w => lift (fun _ => of_opt (idx_of vertices w))) ws) ops l W1 s1 cvs s3) as (W3 & B1 & B2 & B3); auto.
  { intros ws. apply keeps_mmap. intros w. apply keeps_lift. }
  { intros c Hcl. pose proof (depth_nary conj l c Hcl). lia. }
  apply bind_cap in E; [| intros; apply mono_mmap; intros; apply mono_lift | exact Hc]. destruct E as (is & s4 & E4 & Hc4 & E). apply keeps_run in E4; [| apply keeps_lift]. subst s4.
  apply keeps_run in E; [| apply keeps_mmap; intros; apply keeps_lift]. subst s'. exists W3. split; auto. split; [eapply sub_trans; eauto | eapply ext_trans; eauto].
Qed.

(* ------------------------------------------------------------------------------------------------------------------ *)
(** * The clauses at the root *)
Lemma forall2_nth : forall A B (R : A -> B -> Prop) l m, Forall2 R l m -> forall i a, nth_error l i = Some a -> exists b, nth_error m i = Some b /\ R a b.
Proof. intros A B R l m H. induction H; intros [| i] a E; cbn [nth_error] in *; try discriminate; [injection E as <-; eauto | eauto]. Qed.
Lemma forall2_nth_r : forall A B (R : A -> B -> Prop) l m, Forall2 R l m -> forall i b, nth_error m i = Some b -> exists a, nth_error l i = Some a /\ R a b.
Proof. intros A B R l m H. induction H; intros [| i] b E; cbn [nth_error] in *; try discriminate; [injection E as <-; eauto | eauto]. Qed.

Section Core.
  Variables (names : list var) (lss : list (list lit)) (cs : list fml).
  Hypothesis Nn : NoDup names.
  Hypothesis Hf : Forall2 litsof lss cs.
  Hypothesis Hc : forall c, In c cs -> is_fclause c = true.
  Hypothesis Hin : forall ls, In ls lss -> incl (map lit_var ls) names.
  Hypothesis Nv : forall ls, In ls lss -> NoDup (map lit_var ls).
  Definition ilits : list (list nat) := map (map (toint names)) lss.
  Definition icl : list (list nat) := rev ilits.
  Definition V_of (v : valuation) (i : nat) : bool := v (nth i names (VFF 0)).

  Lemma V_of_true : forall v l, lit_true (V_of v) l <-> Vn names v l = true.
  Proof. intros v l. unfold lit_true, V_of, Vn, lit_of, lit_sem. change (Nat.div2 l) with (lvar l). change (Nat.odd l) with (lsign l). destruct (v (nth (lvar l) names (VFF 0))), (lsign l); cbn; split; congruence. Qed.
  Lemma lit_of_toint : forall l, In (lit_var l) names -> lit_of names (toint names l) = l.
  Proof.
    intros l H. destruct (toint_var names l H) as (i & E1 & E2 & E3 & _). unfold lit_of. rewrite E2, E3, negb_involutive. apply idx_some in E1. rewrite (nth_error_nth _ _ _ E1). destruct l; reflexivity.
  Qed.
  Lemma Vn_toint : forall v l, In (lit_var l) names -> Vn names v (toint names l) = lit_sem v l.
  Proof. intros v l H. unfold Vn. now rewrite lit_of_toint. Qed.
  Lemma leaf_at : forall i, i < length ilits -> exists ls c, In ls lss /\ leaf ilits i = map (toint names) ls /\ nth_error cs i = Some c /\ litsof ls c.
  Proof.
    intros i Hi. unfold ilits in Hi. rewrite map_length in Hi. destruct (nth_error lss i) as [ls |] eqn:E; [| apply nth_error_None in E; lia]. destruct (forall2_nth _ _ _ _ _ Hf _ _ E) as (c & E1 & E2).
    exists ls, c. split; [eapply nth_error_In; eauto |]. split; [| auto]. unfold leaf, ilits. apply nth_error_nth. now rewrite nth_error_map, E.
  Qed.
  Lemma leaf_out : forall i, length ilits <= i -> leaf ilits i = [].
  Proof. intros i H. unfold leaf. now apply nth_overflow. Qed.
  Lemma leaf_in : forall i l, In l (leaf ilits i) -> lvar l < length names /\ i < length ilits.
  Proof.
    intros i l H. destruct (Nat.lt_ge_cases i (length ilits)) as [Hi | Hi]; [| rewrite leaf_out in H by exact Hi; destruct H]. split; auto.
    destruct (leaf_at i Hi) as (ls & c & H1 & H2 & _). rewrite H2 in H. apply in_map_iff in H. destruct H as (k & <- & Hk). apply lvar_lt. apply toint_lt. apply (Hin ls H1). now apply in_map.
  Qed.
  Lemma leaf_nodup : forall i, NoDup (map lvar (leaf ilits i)).
  Proof.
    intros i. destruct (Nat.lt_ge_cases i (length ilits)) as [Hi | Hi]; [| rewrite leaf_out by exact Hi; constructor]. destruct (leaf_at i Hi) as (ls & c & H1 & H2 & _). rewrite H2. apply toint_nodup; auto.
  Qed.
  Lemma icl_leaf : forall C, In C icl -> exists j, j < length ilits /\ leaf ilits j = C.
  Proof. intros C H. apply in_rev in H. apply (In_nth _ _ []) in H. destruct H as (j & H1 & H2). exists j. auto. Qed.
  Lemma leaf_icl : forall j, j < length ilits -> In (leaf ilits j) icl.
  Proof. intros j H. unfold icl. apply -> in_rev. now apply nth_In. Qed.
  Lemma clause_sem : forall v ls c, In ls lss -> litsof ls c -> is_fclause c = true -> existsb (Vn names v) (map (toint names) ls) = sem v c.
  Proof.
    intros v ls c H1 H2 H3. rewrite (sem_litsof c v ls H3 H2). pose proof (Hin ls H1) as K. clear H1 H2 H3. induction ls as [| l ls IH]; [reflexivity |]. cbn [map existsb]. rewrite Vn_toint by (apply K; now left). rewrite IH; [reflexivity |]. intros u Hu. apply K. now right.
  Qed.
  Lemma cs_at : forall i c, nth_error cs i = Some c -> i < length ilits.
  Proof. intros i c H. destruct (forall2_nth_r _ _ _ _ _ Hf _ _ H) as (ls & E & _). unfold ilits. rewrite map_length. apply nth_error_Some. congruence. Qed.
  Lemma all_sem : forall v, forallb (sem v) cs = true -> all_true (V_of v) icl.
  Proof.
    intros v H C HC. destruct (icl_leaf C HC) as (j & Hj & <-). destruct (leaf_at j Hj) as (ls & c & H1 & H2 & H3 & H4). assert (Ic : In c cs) by (eapply nth_error_In; eauto).
    rewrite forallb_forall in H. specialize (H c Ic). rewrite <- (clause_sem v ls c H1 H4 (Hc c Ic)) in H. apply existsb_exists in H. destruct H as (l & Hl & T). exists l. rewrite H2. split; auto. now apply V_of_true.
  Qed.
  Lemma entailed_sem : forall l v, entails icl [l] -> forallb (sem v) cs = true -> Vn names v l = true.
  Proof. intros l v H K. destruct (H _ (all_sem v K)) as (k & [<- | []] & T). now apply V_of_true. Qed.
  Lemma entails_unsat : entails icl [] -> forall v, forallb (sem v) cs = false.
  Proof. intros H v. destruct (forallb (sem v) cs) eqn:E; [| reflexivity]. destruct (H _ (all_sem v E)) as (k & [] & _). Qed.

  Section Root.
    Variables (st : solver) (t : dtree).
    Hypothesis Hd : dst icl st.
    Hypothesis Hlim : s_lim st = [].
    Hypothesis Hlen : length (s_vars st) = length names.
    Hypothesis Ht : forall i, In i (leaf_indices t) <-> i < length ilits.
    Hypothesis Hu : forall l, (forall v, forallb (sem v) cs = true -> lit_sem v l = true) -> In (FLit l) cs.

    Lemma root_true : forall l, value st l = Some true -> lvar l < length names /\ entails icl [l] /\ In (FLit (lit_of names l)) cs.
    Proof.
      intros l H. assert (L : l < 2 * length (s_vars st)). { destruct (Nat.lt_ge_cases l (2 * length (s_vars st))) as [K | K]; [exact K |]. rewrite value_out in H by exact K. discriminate. }
      pose proof (d_inv _ _ Hd) as I0. assert (E : entails icl [l]). { apply (t_val _ _ _ _ _ _ _ _ (i_t _ _ _ I0)) in H; [| exact L]. apply In_nth_error in H. destruct H as (i & Ei). apply (t_ent0 _ _ _ _ _ _ _ _ (i_t _ _ _ I0) i l Ei). rewrite Hlim. reflexivity. }
      split; [rewrite <- Hlen; now apply lvar_lt |]. split; auto. apply Hu. intros v Hv. exact (entailed_sem l v E Hv).
    Qed.
    Lemma root_unit : forall l, In (FLit l) cs -> In (lit_var l) names /\ value st (toint names l) = Some true.
    Proof.
      intros l H. apply In_nth_error in H. destruct H as (i & Ei). pose proof (cs_at i _ Ei) as Hi. destruct (leaf_at i Hi) as (ls & c & H1 & H2 & H3 & H4). rewrite Ei in H3. injection H3 as <-.
      assert (El : ls = [l]). { eapply litsof_fun; [exact H4 |]. split; [repeat constructor | intros a; reflexivity]. } subst ls. assert (Hv : In (lit_var l) names) by (apply (Hin [l] H1); now left). split; auto.
      pose proof (leaf_icl i Hi) as HC. rewrite H2 in HC. cbn [map] in HC. pose proof (d_inv _ _ Hd) as I0.
      assert (L : toint names l < 2 * length (s_vars st)) by (rewrite Hlen; now apply toint_lt).
      apply (t_val _ _ _ _ _ _ _ _ (i_t _ _ _ I0)); [exact L |]. destruct (i_c _ _ _ I0 _ HC) as [(j & a & E1 & [<- | []] & _) | (ci & cl & P & E1 & _ & Inc)]; [eapply nth_error_In; eauto |].
      exfalso. destruct P as (x & y & r & b1 & b2 & Ed & W1 & _). assert (G : goodcl icl (length (s_vars st)) cl).
      { destruct (nth_error (s_watches st) (lneg x)) as [ws |] eqn:Ew; [| rewrite (nth_overflow _ _) in W1 by (now apply nth_error_None); destruct W1]. rewrite (nth_error_nth _ _ _ Ew) in W1. destruct (proj2 (i_w _ _ _ I0 _ _ Ew) _ _ W1) as (cl' & E' & G & _). congruence. }
      pose proof (gc_nodup _ _ _ G) as Nd. rewrite Ed in Nd, Inc. inversion Nd as [| ? ? Nx]; subst. apply Nx. left. destruct (Inc x) as [<- | []]; [now left |]. destruct (Inc y) as [<- | []]; [right; now left | reflexivity].
    Qed.
    Definition units : list fml := filter is_flit cs.
    Lemma root_sem : forall v, forallb (sem v) units && Res ilits (value st) t (Vn names v) = forallb (sem v) cs.
    Proof.
      intros v. pose proof (value_vok st) as [Vk _]. apply eq_iff_eq_true. rewrite andb_true_iff. unfold Res. split.
      - intros [HU HR]. rewrite forallb_forall in HU, HR |- *. intros c Hcc. apply In_nth_error in Hcc. destruct Hcc as (i & Ei). pose proof (cs_at i _ Ei) as Hi. destruct (leaf_at i Hi) as (ls & c' & H1 & H2 & H3 & H4). rewrite Ei in H3. injection H3 as <-.
        assert (Hcc : In c cs) by (eapply nth_error_In; eauto). rewrite <- (clause_sem v ls c H1 H4 (Hc c Hcc)), <- H2. specialize (HR i (proj2 (Ht i) Hi)). apply existsb_exists. apply orb_true_iff in HR. destruct HR as [HR | HR].
        + apply subsumed_iff in HR. destruct HR as (l & Hl & T). exists l. split; auto. destruct (root_true l T) as (R1 & R2 & R3). apply (HU (FLit (lit_of names l))). apply filter_In. auto.
        + apply existsb_exists in HR. destruct HR as (l & Hl & T). apply andb_true_iff in T. exists l. tauto.
      - intros H. split; [rewrite forallb_forall in H |- *; intros c Hcc; apply filter_In in Hcc; apply H; tauto |]. rewrite forallb_forall. intros i Hi. apply Ht in Hi. destruct (leaf_at i Hi) as (ls & c & H1 & H2 & H3 & H4).
        assert (Hcc : In c cs) by (eapply nth_error_In; eauto). pose proof H as H'. rewrite forallb_forall in H'. specialize (H' c Hcc). rewrite <- (clause_sem v ls c H1 H4 (Hc c Hcc)), <- H2 in H'. apply existsb_exists in H'. destruct H' as (l & Hl & T).
        apply orb_true_iff. destruct (value st l) as [[|] |] eqn:E.
        + left. apply subsumed_iff. eauto.
        + exfalso. assert (E' : value st (lneg l) = Some true) by (rewrite Vk, E; reflexivity). destruct (root_true _ E') as (_ & R & _). pose proof (entailed_sem _ v R H) as K. rewrite Vn_ok, T in K. discriminate.
        + right. apply existsb_exists. exists l. split; auto. rewrite E, T. reflexivity.
    Qed.
    Lemma root_disjoint : forall l, In (FLit l) cs -> forall k, nth_error names k = Some (lit_var l) -> var_set ilits (value st) t k = false.
    Proof.
      intros l H k Ek. destruct (root_unit l H) as [R1 R2]. destruct (var_set ilits (value st) t k) eqn:E; [| reflexivity]. exfalso. apply var_set_iff in E. destruct E as (i & m & _ & (_ & Hm & Um) & Ev).
      destruct (toint_var names l R1) as (j & E1 & E2 & _). apply idx_some in E1. assert (j = k). { apply (proj1 (NoDup_nth_error names) Nn); [apply nth_error_Some; congruence | congruence]. }
      destruct (value_vok st) as [_ K]. rewrite (K m (toint names l)) in R2; [discriminate | congruence | exact Um].
    Qed.
  End Root.
End Core.

(* ------------------------------------------------------------------------------------------------------------------ *)
(** * The parts of [dnnf_compile] *)
Definition conjuncts (x : fml) : list fml := match x with FAnd l => l | _ => [x] end.
Lemma fvars_conjuncts : forall x, fvars x = flat_map fvars (conjuncts x).
Proof. intros x. destruct x; cbn [conjuncts flat_map]; rewrite ?app_nil_r; try reflexivity. apply fvars_and. Qed.
Lemma conjuncts_sem : forall v x, sem v x = forallb (sem v) (conjuncts x).
Proof. intros v x. destruct x; cbn [conjuncts forallb]; try (now rewrite andb_true_r). reflexivity. Qed.
Lemma cnf_cases : forall x, cnf_shape x = true -> x = FTrue \/ x = FFalse \/ forall c, In c (conjuncts x) -> is_fclause c = true.
Proof.
  intros x H. destruct x; try discriminate; auto; right; right; intros c Hc; cbn [conjuncts] in Hc.
  - destruct Hc as [<- | []]. reflexivity.
  - cbn [cnf_shape] in H. rewrite forallb_forall in H. auto.
  - destruct Hc as [<- | []]. exact H.
Qed.
Lemma fclause_depth : forall c, is_fclause c = true -> depth c <= 1.
Proof.
  intros c H. destruct c; try discriminate; [cbn; lia |]. cbn [is_fclause] in H. assert (K : cnf_shape (FAnd [FOr l]) = true) by (cbn [cnf_shape forallb is_fclause]; now rewrite H).
  apply cnf_depth in K. pose proof (depth_nary true [FOr l] (FOr l) (or_introl eq_refl)) as Q. cbn [fnary] in Q. lia.
Qed.
Lemma fclause_fvars : forall c u, is_fclause c = true -> In u (map lit_var (flits c)) -> In u (fvars c).
Proof.
  intros c u H K. apply in_map_iff in K. destruct K as (l & <- & Hl). destruct (flits_in c l H Hl) as [-> | (k & -> & Hk)]; [rewrite fvars_flit; now left |].
  change (FOr k) with (fnary false k). rewrite DnnfCompTree.fvars_nary. apply in_flat_map. exists (FLit l). split; auto. rewrite fvars_flit. now left.
Qed.
Lemma conjuncts_fvars : forall x c u, In c (conjuncts x) -> In u (fvars c) -> In u (fvars x).
Proof. intros x c u H K. destruct x; cbn [conjuncts] in H; try (destruct H as [<- | []]; exact K). change (FAnd l) with (fnary true l). rewrite DnnfCompTree.fvars_nary. apply in_flat_map. eauto. Qed.

(** What is known of the solver after the clauses have been loaded. *)
Record loaded (x : fml) (d : dsolver) (lss : list (list lit)) : Prop := {
  lo_lits : Forall2 litsof lss (conjuncts x);
  lo_ld : ld (icl (ds_names d) lss) d;
  lo_in : forall ls, In ls lss -> incl (map lit_var ls) (ds_names d);
  lo_nd : forall ls, In ls lss -> NoDup (map lit_var ls);
  lo_vars : incl (ds_names d) (fvars x) }.

Lemma litsof_in : forall lss cs ls, Forall2 litsof lss cs -> In ls lss -> exists c, In c cs /\ litsof ls c.
Proof. intros lss cs ls H K. apply In_nth_error in K. destruct K as (i & E). destruct (forall2_nth _ _ _ _ _ H _ _ E) as (c & E1 & E2). exists c. split; [eapply nth_error_In; eauto | auto]. Qed.
Lemma litsof_vars : forall x ls c, In c (conjuncts x) -> is_fclause c = true -> litsof ls c -> incl (map lit_var ls) (fvars x).
Proof.
  intros x ls c H1 H2 [_ H3] u Hu. eapply conjuncts_fvars; [exact H1 |]. apply fclause_fvars; auto. apply in_map_iff in Hu. destruct Hu as (l & <- & Hl). apply in_map. now apply H3.
Qed.
Lemma mono_ds_add : forall fuel h d, mono (ds_add fuel h d).
Proof.
  intros. unfold ds_add. apply mono_bind; [apply mono_lift |]. intros [ | | | | | | | | | ]; try apply mono_ret; try apply mono_fail;
    (apply mono_bind; [try apply mono_literals; apply mono_mmap; intros; apply mono_literals | intros; apply mono_lift]).
Qed.
Lemma load_one : forall fuel W s h x d' s', finv W s -> hdl s h x -> is_fclause x = true -> conjuncts x = [x] -> 1 < fuel -> (ls <-- literals fuel h ;; lift (fun _ => ds_add_clause fuel ls ds_new)) s = (Ok d', s') -> cap s' ->
  exists W', finv W' s' /\ sub W' W /\ ext s s' /\ exists lss, loaded x d' lss.
Proof.
  intros fuel W s h x d' s' Hi Hh Hc Ex Hf E Hcap. apply bind_cap in E; [| intros; apply mono_lift | exact Hcap]. destruct E as (ls & s1 & E1 & Hc1 & E). unfold lift in E. injection E as E <-.
  pose proof (fclause_depth x Hc) as Dx. assert (Dl : depth x < fuel) by lia. destruct (run_literals _ _ _ _ _ _ _ Hi Hh Dl E1 Hc1) as (W1 & A1 & A2 & A3 & A4). exists W1. split; auto. split; auto. split; auto.
  pose proof (hdl_ext _ _ _ _ A3 Hh) as (V1 & V2 & V3). pose proof (clause_vars s1 h x ls (i_wf _ _ A1) V1 V2 Hc A4) as Nd.
  destruct (ld_add_clause _ _ _ _ _ ld_new Nd E) as (e & N1 & I1 & L1 & J1). exists [ls]. cbn [ds_new ds_names app] in N1. constructor.
  - rewrite Ex. constructor; [exact A4 | constructor].
  - exact L1.
  - intros z [<- | []]. exact I1.
  - intros z [<- | []]. exact Nd.
  - rewrite N1. intros u Hu. apply J1 in Hu. eapply litsof_vars; [| exact Hc | exact A4 | exact Hu]. rewrite Ex. now left.
Qed.
Lemma run_load : forall fuel W s h x d' s', finv W s -> hdl s h x -> cnf_shape x = true -> 2 < fuel -> ds_add fuel h ds_new s = (Ok d', s') -> cap s' ->
  exists W', finv W' s' /\ sub W' W /\ ext s s' /\ ((forall c, In c (conjuncts x) -> is_fclause c = true) -> exists lss, loaded x d' lss).
Proof.
  intros fuel W s h x d' s' Hi Hh Hx Hf E Hcap. unfold ds_add in E. apply bind_cap in E.
  2:{ intros [ | | | | | | | | | ]; try apply mono_ret; try apply mono_fail; (apply mono_bind; [try apply mono_literals; apply mono_mmap; intros; apply mono_literals | intros; apply mono_lift]). } 2: exact Hcap.
  destruct E as (n & s1 & E1 & Hc1 & E). unfold unpackM, lift in E1. destruct (unpack s h) as [n' | |] eqn:Hu; try discriminate. apply okp_inj in E1. destruct E1 as [-> ->].
  pose proof Hh as (Hv & Hd & Hk). pose proof (denotes_inv _ _ _ Hd) as Di. destruct x; try discriminate; cbn in Di.
  - rewrite Hu in Di. apply ok_inj in Di. subst n'. apply okp_inj in E. destruct E as [-> ->]. exists W. split; auto. split; [apply sub_refl |]. split; [apply ext_refl |]. intros K. specialize (K FTrue (or_introl eq_refl)). discriminate.
  - rewrite Hu in Di. apply ok_inj in Di. subst n'. apply bind_cap in E; [| intros; apply mono_lift | exact Hcap]. destruct E as (ls & s1 & E1 & Hc1' & E). unfold lift in E. injection E as E <-.
    assert (Dl : depth FFalse < fuel) by (cbn; lia). destruct (run_literals _ _ _ _ _ _ _ Hi Hh Dl E1 Hc1') as (W1 & A1 & A2 & A3 & A4). exists W1. split; auto. split; auto. split; auto. intros K. specialize (K FFalse (or_introl eq_refl)). discriminate.
  - rewrite Hu in Di. apply ok_inj in Di. subst n'. destruct (load_one fuel W s h (FLit l) d' s' Hi Hh eq_refl eq_refl ltac:(lia) E Hcap) as (W1 & A1 & A2 & A3 & A4). exists W1. auto.
  - destruct (nary_ops true s h l (i_wf _ _ Hi) Hh) as (ops & Hu' & Ho). rewrite Hu in Hu'. apply ok_inj in Hu'. subst n'. cbn [nnode] in E.
    apply bind_cap in E; [| intros; apply mono_lift | exact Hcap]. destruct E as (lss & s1 & E1 & Hc1' & E). unfold lift in E. injection E as E <-. cbn [cnf_shape] in Hx. rewrite forallb_forall in Hx.
    destruct (run_mlits fuel ops l W s lss s1 Hi Ho) as (W1 & A1 & A2 & A3 & A4); auto. { intros c Hc. pose proof (fclause_depth c (Hx c Hc)). lia. }
    exists W1. split; auto. split; auto. split; auto. intros _. exists lss.
    assert (Nd : forall ls, In ls lss -> NoDup (map lit_var ls)).
    { intros ls Hls. destruct (litsof_in _ _ _ A4 Hls) as (c & Hc & Lc). destruct (Forall2_In_r _ _ _ _ _ _ (hdls_ext _ _ _ _ A3 Ho) Hc) as (k & _ & (V1 & V2 & _)). exact (clause_vars s1 k c ls (i_wf _ _ A1) V1 V2 (Hx c Hc) Lc). }
    destruct (ld_add_clauses _ _ _ _ _ ld_new Nd E) as (e & N1 & I1 & L1 & J1). rewrite app_nil_r in L1. cbn [ds_new ds_names app] in N1. constructor; auto.
    rewrite N1. intros u Hu'. destruct (J1 u Hu') as (ls & Hls & K). destruct (litsof_in _ _ _ A4 Hls) as (c & Hc & Lc). exact (litsof_vars (FAnd l) ls c Hc (Hx c Hc) Lc u K).
  - destruct (nary_ops false s h l (i_wf _ _ Hi) Hh) as (ops & Hu' & Ho). rewrite Hu in Hu'. apply ok_inj in Hu'. subst n'. cbn [nnode] in E.
    destruct (load_one fuel W s h (FOr l) d' s' Hi Hh Hx eq_refl ltac:(lia) E Hcap) as (W1 & A1 & A2 & A3 & A4). exists W1. auto.
Qed.
Lemma conjuncts_nary : forall conj l, conjuncts (fnary conj l) = if conj then l else [FOr l].
Proof. intros [|] l; reflexivity. Qed.
Lemma mono_tree : forall fid fuel h, mono (min_fill_dtree fid fuel h).
Proof.
  intros fid fuel h. unfold min_fill_dtree. apply mono_bind.
  - unfold min_fill_ordering. apply mono_bind; [apply mono_variables |]. intros. apply mono_bind; [apply mono_mmap; intros; apply mono_bind; [apply mono_lift | intros; apply mono_ret] |]. intros. cbv zeta. apply mono_bind; [apply mono_lift |]. intros.
    apply mono_bind; [apply mono_mmap; intros; apply mono_bind; [apply mono_variables | intros; apply mono_mmap; intros; apply mono_lift] |]. intros. apply mono_bind; [apply mono_lift |]. intros. apply mono_mmap. intros. apply mono_lift.
  - intros order. apply mono_bind; [apply mono_lift |]. intros c. apply mono_if; [apply mono_fail |]. apply mono_bind; [apply mono_lift |].
    intros m. destruct m; (apply mono_bind; [try apply mono_literals; apply mono_mmap; intros; apply mono_literals | intros; first [apply mono_ret | apply mono_bind; [apply mono_lift | intros; apply mono_ret]]]).
Qed.
Lemma run_tree : forall fid fuel conj l W s h p s', finv W s -> hdl s h (fnary conj l) -> cnf_shape (fnary conj l) = true -> 2 < fuel -> min_fill_dtree fid fuel h s = (Ok p, s') -> cap s' ->
  exists W', finv W' s' /\ sub W' W /\ ext s s' /\ Forall2 litsof (fst p) (conjuncts (fnary conj l)) /\ forall i, In i (leaf_indices (snd p)) <-> i < length (fst p).
Proof.
  intros fid fuel conj l W s h p s' Hi Hh Hx Hf E Hcap. unfold min_fill_dtree in E. pose proof (cnf_depth _ Hx) as Dx.
  assert (M2 : forall order n, mono (match n with NAnd ops => leafs <-- mmap (literals fuel) ops ;; t <-- lift (fun _ => tree_of_leafs leafs order) ;; ret (leafs, t) | _ => ls <-- literals fuel h ;; ret ([ls], Leaf 0) end)).
  { intros order n. destruct n; (apply mono_bind; [try apply mono_literals; apply mono_mmap; intros; apply mono_literals | intros; first [apply mono_ret | apply mono_bind; [apply mono_lift | intros; apply mono_ret]]]). }
  assert (M1 : forall order (c : bool), mono (if c then fail else n <-- unpackM h ;; match n with NAnd ops => leafs <-- mmap (literals fuel) ops ;; t <-- lift (fun _ => tree_of_leafs leafs order) ;; ret (leafs, t) | _ => ls <-- literals fuel h ;; ret ([ls], Leaf 0) end)).
  { intros order c. apply mono_if; [apply mono_fail |]. apply mono_bind; [apply mono_lift | intros; apply M2]. }
  apply bind_cap in E; [| intros; apply mono_bind; [apply mono_lift | intros; apply M1] | exact Hcap]. destruct E as (order & s1 & E1 & Hc1 & E).
  destruct (run_ordering fid fuel conj l W s h order s1 Hi Hh ltac:(lia) E1 Hc1) as (W1 & A1 & A2 & A3). pose proof (hdl_ext _ _ _ _ A3 Hh) as Hh1.
  apply bind_cap in E; [| intros; apply M1 | exact Hcap]. destruct E as (b & s2 & E2 & Hc2 & E). apply keeps_run in E2; [| apply keeps_lift]. subst s2.
  destruct (negb b || is_atomic h); [discriminate |]. destruct (nary_ops conj s1 h l (i_wf _ _ A1) Hh1) as (ops & Hu & Ho).
  unfold bind at 1, unpackM, lift at 1 in E. rewrite Hu in E. rewrite conjuncts_nary in *. destruct conj; cbn [nnode fnary] in *.
  - apply bind_cap in E; [| intros; apply mono_bind; [apply mono_lift | intros; apply mono_ret] | exact Hcap]. destruct E as (lss & s3 & E3 & Hc3 & E). apply bind_lift in E. destruct E as (t & Et & E). apply okp_inj in E. destruct E as [-> ->]. cbn [fst snd].
    cbn [cnf_shape] in Hx. rewrite forallb_forall in Hx. destruct (run_mlits fuel ops l W1 s1 lss s3 A1 Ho) as (W2 & B1 & B2 & B3 & B4); auto. { intros c Hc. pose proof (fclause_depth c (Hx c Hc)). lia. }
    exists W2. split; auto. split; [eapply WorldProofs.sub_trans; eauto |]. split; [eapply FactoryInv.ext_trans; eauto |]. split; auto. intros i. eapply tree_leaves; eauto.
  - apply bind_cap in E; [| intros; apply mono_ret | exact Hcap]. destruct E as (ls & s3 & E3 & Hc3 & E). apply okp_inj in E. destruct E as [-> ->]. cbn [fst snd].
    assert (Dl : depth (FOr l) < fuel) by lia. destruct (run_literals _ _ _ _ _ _ _ A1 Hh1 Dl E3 Hc3) as (W2 & B1 & B2 & B3 & B4).
    exists W2. split; auto. split; [eapply WorldProofs.sub_trans; eauto |]. split; [eapply FactoryInv.ext_trans; eauto |]. split; [constructor; [exact B4 | constructor] |]. intros i. cbn. lia.
Qed.
Lemma rmap_ok : forall A B (f : A -> res B) (g : A -> B) l r, (forall a b, In a l -> f a = Ok b -> b = g a) -> ParserModel.rmap f l = Ok r -> r = map g l.
Proof.
  intros A B f g l. induction l as [| a l IH]; intros r H E; cbn [ParserModel.rmap] in E; [injection E as <-; reflexivity |]. destruct (f a) as [b | |] eqn:Ea; try discriminate. cbn [rbind] in E. destruct (ParserModel.rmap f l) as [rs | |]; try discriminate. cbn [rbind] in E. injection E as <-.
  cbn [map]. f_equal; [apply H; [now left | exact Ea] |]. apply IH; auto. intros. apply H; [now right | assumption].
Qed.
Lemma leaf_literals_ok : forall names leafs lits, leaf_literals names leafs = Ok lits -> lits = ilits names leafs.
Proof.
  intros names leafs lits E. unfold leaf_literals in E. unfold ilits. eapply rmap_ok; [| exact E]. cbn beta. intros ls r _ E1. eapply rmap_ok; [| exact E1]. cbn beta. intros l b _ E2. unfold toint. destruct (idx_of names (lit_var l)) as [i |]; cbn [of_opt rbind] in E2; [| discriminate]. injection E2 as <-. reflexivity.
Qed.
Lemma run_start : forall fuel F d p, dst F (ds_s d) -> ds_start fuel d = Ok p -> fst p = true /\ ds_s (snd p) = ds_s d /\ ds_names (snd p) = ds_names d /\ ds_confl (snd p) = ds_confl d.
Proof.
  intros fuel F d p H E. unfold ds_start, propagate in E. destruct fuel as [| fuel]; [discriminate |]. cbn [propagate_loop] in E. rewrite (d_q _ _ H) in E. replace (nth_error (s_trail (ds_s d)) (length (s_trail (ds_s d)))) with (@None nat) in E by (symmetry; now apply nth_error_None).
  cbn [rbind] in E. injection E as <-. cbn. auto.
Qed.

Lemma fop_units : forall m, NoDup m -> (forall z, In z m -> is_flit z = true) -> (forall l, In (FLit l) m -> In (FLit (lit_negate l)) m -> False) -> ForallOrdPairs disjoint_vars m.
Proof.
  induction m as [| z m IH]; intros N H K; [constructor |]. inversion N; subst. constructor.
  - apply Forall_forall. intros y Hy u Hu Hu'. pose proof (H z (or_introl eq_refl)) as Fz. pose proof (H y (or_intror Hy)) as Fy. destruct z; try discriminate. destruct y; try discriminate. rewrite fvars_flit in Hu, Hu'. destruct Hu as [<- | []], Hu' as [E | []].
    destruct (lit_var_cases l l0 (eq_sym E)) as [-> | ->]; [contradiction |]. apply (K l); [now left | now right].
  - apply IH; [assumption | intros z' Hz'; apply H; now right |]. intros l P1 P2. apply (K l); now right.
Qed.
Lemma units_disjoint : forall s h l, wf s -> hdl s h (FAnd l) -> ForallOrdPairs disjoint_vars (filter is_flit l).
Proof.
  intros s h l Hw (Hv & Hd & _). apply fop_units.
  - apply NoDup_filter. apply (ops_shape s h true l Hw Hv Hd).
  - intros z Hz. apply filter_In in Hz. apply Hz.
  - intros k H1 H2. apply filter_In in H1, H2. exact (ops_no_compl s h true l k Hw Hv Hd (proj1 H1) (proj1 H2)).
Qed.
Lemma is_atomic_clause : forall W s h c, finv W s -> hdl s h c -> is_fclause c = true -> is_atomic h = is_flit c.
Proof. intros W s h c Hi (Hv & Hd & _) H. rewrite (is_atomic_tree W s h c Hi Hv Hd). destruct c; try discriminate; reflexivity. Qed.
Lemma filter_hdls : forall W s ops l (p : bool -> bool), finv W s -> Forall2 (hdl s) ops l -> (forall c, In c l -> is_fclause c = true) -> Forall2 (hdl s) (filter (fun o => p (is_atomic o)) ops) (filter (fun c => p (is_flit c)) l).
Proof.
  intros W s ops l p Hi H Hc. induction H; cbn [filter]; [constructor |]. rewrite (is_atomic_clause W s x y Hi H (Hc y (or_introl eq_refl))). assert (IH := IHForall2 (fun c K => Hc c (or_intror K))). destruct (p (is_flit y)); [constructor; auto | auto].
Qed.
(** No clause is valid. *)
Lemma falsify : forall s h l, wf s -> hdl s h (FOr l) -> is_fclause (FOr l) = true -> exists v, sem v (FOr l) = false.
Proof.
  intros s h l Hw (Hv & Hd & _) Hc. exists (fun u => existsb (fun z => match z with FLit (Lit w false) => var_eqb w u | _ => false end) l).
  set (v := fun u => _). destruct (sem v (FOr l)) eqn:E; [| reflexivity]. exfalso. cbn [sem] in E. apply existsb_exists in E. destruct E as (z & Hz & T). cbn [is_fclause] in Hc. rewrite forallb_forall in Hc. specialize (Hc z Hz). destruct z as [ | | [u p] | | | | | | | ]; try discriminate.
  destruct p; cbn [sem lit_sem] in T.
  - unfold v in T. apply existsb_exists in T. destruct T as (y & Hy & T). destruct y as [ | | [w []] | | | | | | | ]; try discriminate. apply var_eqb_spec in T. subst w. exact (ops_no_compl s h false l (Lit u true) Hw Hv Hd Hz Hy).
  - apply negb_true_iff in T. assert (K : v u = true); [| congruence]. unfold v. apply existsb_exists. exists (FLit (Lit u false)). split; auto. apply var_eqb_refl.
Qed.
Lemma run_init : forall W s h l cl s', finv W s -> hdl s h (FAnd l) -> (forall c, In c l -> is_fclause c = true) -> initialize_clauses h s = (Ok cl, s') -> cap s' ->
  finv W s' /\ ext s s' /\ exists U, hdl s' (fst cl) U /\ conjoined (filter is_flit l) U /\ (satisfiable (FAnd l) -> is_atomic (snd cl) = true -> forall c, In c l -> is_flit c = true).
Proof.
  intros W s h l cl s' Hi Hh Hc E Hcap. unfold initialize_clauses in E. destruct (nary_ops true s h l (i_wf _ _ Hi) Hh) as (ops & Hu & Ho). unfold bind at 1, unpackM, lift at 1 in E. rewrite Hu in E. cbn [nnode] in E.
  apply bind_cap in E; [| intros; apply mono_bind; [apply mono_f_nary | intros; apply mono_ret] | exact Hcap]. destruct E as (hu & s1 & E1 & Hc1 & E).
  apply bind_cap in E; [| intros; apply mono_ret | exact Hcap]. destruct E as (hr & s2 & E2 & Hc2 & E). apply okp_inj in E. destruct E as [-> ->]. cbn [fst snd].
  assert (Hu1 : forall z, In z (filter is_flit l) -> dnnf z /\ satisfiable z). { intros z Hz. apply filter_In in Hz. destruct Hz as [_ Fz]. destruct z; try discriminate. split; [exact I | apply lit_sat]. }
  destruct (run_conj _ _ W s hu s1 Hi (filter_hdls W s ops l (fun b => b) Hi Ho Hc) E1 Hc1 (units_disjoint s h l (i_wf _ _ Hi) Hh) Hu1) as (A1 & A2 & U & A3 & A4).
  destruct (run_nary true _ _ W s1 hr s2 A1 (filter_hdls W s1 ops l negb A1 (hdls_ext _ _ _ _ A2 Ho) Hc) E2 Hcap) as (B1 & B2 & R & B3 & B4 & B5 & _).
  split; auto. split; [eapply FactoryInv.ext_trans; eauto |]. exists U. split; [eapply hdl_ext; eauto |]. split; auto. intros (v0 & Sx) At c Hcl. destruct (is_flit c) eqn:Fc; [reflexivity | exfalso].
  assert (Hn : In c (filter (fun z => negb (is_flit z)) l)) by (apply filter_In; rewrite Fc; auto). pose proof B3 as (V1 & V2 & _). rewrite (is_atomic_tree W s2 hr R B1 V1 V2) in At. cbn [nary_sem] in B4.
  destruct B5 as [-> | [-> | [[P _] | (m & -> & _)]]]; try discriminate.
  - destruct (Forall2_In_r _ _ _ _ _ _ Ho Hcl) as (k & _ & Hk). pose proof (Hc c Hcl) as Fcl. destruct c; try discriminate. destruct (falsify s k l0 (i_wf _ _ Hi) Hk Fcl) as (v & Sv). specialize (B4 v). cbn [sem] in B4. symmetry in B4. rewrite forallb_forall in B4. rewrite (B4 _ Hn) in Sv. discriminate.
  - specialize (B4 v0). cbn [sem] in B4, Sx. symmetry in B4. assert (forallb (sem v0) (filter (fun z => negb (is_flit z)) l) = true); [| congruence]. rewrite forallb_forall in Sx |- *. intros z Hz. apply filter_In in Hz. apply Sx. apply Hz.
  - destruct P as [[P _] | (m & P & _)].
    + apply filter_In in P. destruct P as [P1 P2]. specialize (Hc R P1). destruct R; discriminate.
    + apply filter_In in P. destruct P as [P1 P2]. specialize (Hc _ P1). discriminate.
Qed.

(* ------------------------------------------------------------------------------------------------------------------ *)
(** * [dnnf_compile] *)
Lemma dnnf_units : forall s h l, wf s -> hdl s h (FAnd l) -> (forall c, In c l -> is_flit c = true) -> dnnf (FAnd l).
Proof.
  intros s h l Hw Hh H. apply dnnf_and_iff. pose proof (units_disjoint s h l Hw Hh) as K. rewrite (filter_all _ is_flit l) in K by exact H. split; auto. apply Forall_forall. intros z Hz. specialize (H z Hz). destruct z; try discriminate. exact I.
Qed.
Definition named (x : fml) : Prop := forall u, In u (fvars x) -> exists i, u = VFF i.
Lemma run_init_all : forall W s h x cl s', finv W s -> hdl s h x -> cnf_shape x = true -> initialize_clauses h s = (Ok cl, s') -> cap s' ->
  finv W s' /\ ext s s' /\ (satisfiable x -> is_atomic (snd cl) = true -> dnnf x) /\
  (is_atomic (snd cl) = false -> exists conj l U, x = fnary conj l /\ hdl s' (fst cl) U /\ conjoined (filter is_flit (conjuncts x)) U).
Proof.
  intros W s h x cl s' Hi Hh Hx E Hcap. assert (At : atomic x = true -> exists n, unpack s h = Ok n /\ match n with NAnd _ | NOr _ => False | _ => True end).
  { intros A. destruct Hh as (_ & Hd & _). apply denotes_inv in Hd. destruct x; try discriminate; cbn in Hd; eexists; split; try exact Hd; exact I. }
  destruct (atomic x) eqn:A.
  - destruct (At eq_refl) as (n & Hu & Hn). unfold initialize_clauses, bind, unpackM, lift in E. rewrite Hu in E. assert (Ec : cl = (h, verum) /\ s' = s) by (destruct n; try contradiction; apply okp_inj in E; exact E). destruct Ec as [-> ->].
    split; auto. split; [apply FactoryInv.ext_refl |]. split; [intros _ _; destruct x; try discriminate; exact I | discriminate].
  - destruct x; try discriminate.
    + cbn [cnf_shape] in Hx. rewrite forallb_forall in Hx. destruct (run_init W s h l cl s' Hi Hh Hx E Hcap) as (A1 & A2 & U & A3 & A4 & A5). split; auto. split; auto. split.
      * intros S1 S2. apply (dnnf_units s h l (i_wf _ _ Hi) Hh). apply A5; auto.
      * intros _. exists true, l, U. auto.
    + destruct (nary_ops false s h l (i_wf _ _ Hi) Hh) as (ops & Hu & _). unfold initialize_clauses, bind, unpackM, lift in E. rewrite Hu in E. cbn [nnode] in E. apply okp_inj in E. destruct E as [-> ->]. cbn [fst snd].
      split; auto. split; [apply FactoryInv.ext_refl |]. pose proof (is_atomic_clause W s h (FOr l) Hi Hh Hx) as Q. split; [intros _ K; rewrite Q in K; discriminate |].
      intros _. exists false, l, FTrue. split; [reflexivity |]. split; [exact (hdl_const s true) |]. cbn [conjuncts filter is_flit]. constructor.
      * intros v. reflexivity.
      * intros u [].
      * exact I.
      * exists (fun _ => true). reflexivity.
      * intros k [[[] _] | (m & [] & _)].
Qed.
Lemma sat_world : forall W s x, finv W s -> named x -> (forall w, W w -> sem w x = false) -> forall v, sem v x = false.
Proof.
  intros W s x Hi Hn H v. destruct (proj1 (i_world _ _ Hi) v) as (w & Hw & Ha). rewrite <- (H w Hw). apply sem_fvars. intros u Hu. destruct (Hn u Hu) as [i ->]. symmetry. apply Ha.
Qed.
Lemma con_free_encodable : forall s x, con_free x = true -> encodable s x.
Proof.
  intros s x. unfold encodable. induction x using fml_ind2; cbn [con_free leaves]; intros Hc; try discriminate; auto; try (now constructor).
  - rewrite forallb_forall in Hc. rewrite Forall_forall in *. intros lf Hlf. apply in_flat_map in Hlf. destruct Hlf as (z & Hz & Hlf). specialize (H z Hz (Hc z Hz)). rewrite Forall_forall in H. auto.
  - rewrite forallb_forall in Hc. rewrite Forall_forall in *. intros lf Hlf. apply in_flat_map in Hlf. destruct Hlf as (z & Hz & Hlf). specialize (H z Hz (Hc z Hz)). rewrite Forall_forall in H. auto.
  - apply andb_true_iff in Hc. apply Forall_app. tauto.
  - apply andb_true_iff in Hc. apply Forall_app. tauto.
Qed.
Lemma names_le : forall names vs x, NoDup names -> incl names (fvars x) -> set_list var_ltb vs (fvars x) -> length names <= length vs.
Proof. intros names vs x N H [_ K]. apply NoDup_incl_length; auto. intros u Hu. apply K. auto. Qed.

Section Whole.
  Variables (orc : oracle) (alg : cnf_algorithm) (fid : ParserModel.text) (n fuel : nat).
  Hypothesis So : SatDb.sorting orc.

  Theorem dnnf_compile_ok : forall W s h x r s', finv W s -> hdl s h x -> cnf_shape x = true -> named x -> room fuel x ->
    (satisfiable x -> forall l, (forall v, sem v x = true -> lit_sem v l = true) -> In (FLit l) (conjuncts x)) ->
    dnnf_compile orc alg fid n fuel h s = (Ok r, s') -> cap s' -> ds_confl (snd r) = 0 ->
    exists W' y, finv W' s' /\ sub W' W /\ ext s s' /\ hdl s' (fst r) y /\ (forall v, sem v y = sem v x) /\ (satisfiable x -> dnnf y) /\ incl (fvars y) (fvars x) /\ (x = FFalse -> y = FFalse).
  Proof.
    intros W s h x r s' Hi Hh Hx Hn Hr Hu E Hcap Hz. unfold dnnf_compile in E. pose proof Hr as [Hr1 Hr2]. assert (Dx : depth x < fuel) by lia.
    assert (M3 : forall cl vs d b, mono (if negb b then ret (falsum, d) else
      q <-- lift (fun _ => ds_start fuel d) ;; if negb (fst q) then ret (falsum, snd q) else
        lt <-- min_fill_dtree fid fuel h ;; lits <-- lift (fun _ => leaf_literals (ds_names (snd q)) (fst lt)) ;;
        p <-- cnf2ddnnf orc fuel lits vs n (snd lt) (mkComp (snd q) []) ;; r <-- f_and [cl; fst p] ;; ret (r, cp_ds (snd p)))).
    { intros cl vs d b. apply mono_if; [apply mono_ret |]. apply mono_bind; [apply mono_lift |]. intros q. apply mono_if; [apply mono_ret |]. apply mono_bind; [apply mono_tree |]. intros lt.
      apply mono_bind; [apply mono_lift |]. intros lits. apply mono_bind; [apply mono_cnf2ddnnf |]. intros p. apply mono_bind; [apply mono_f_nary | intros; apply mono_ret]. }
    assert (M2 : forall (c : bool) cl vs d, mono (if c then ret (h, d) else b <-- is_sat orc alg fuel h ;; if negb b then ret (falsum, d) else
      q <-- lift (fun _ => ds_start fuel d) ;; if negb (fst q) then ret (falsum, snd q) else
        lt <-- min_fill_dtree fid fuel h ;; lits <-- lift (fun _ => leaf_literals (ds_names (snd q)) (fst lt)) ;;
        p <-- cnf2ddnnf orc fuel lits vs n (snd lt) (mkComp (snd q) []) ;; r <-- f_and [cl; fst p] ;; ret (r, cp_ds (snd p)))).
    { intros c cl vs d. apply mono_if; [apply mono_ret |]. apply mono_bind; [apply mono_is_sat | intros; apply M3]. }
    apply bind_cap in E; [| intros; apply mono_bind; [apply mono_variables | intros; apply mono_bind; [apply mono_ds_add | intros; apply M2]] | exact Hcap]. destruct E as (cl & s1 & E1 & Hc1 & E).
    destruct (run_init_all W s h x cl s1 Hi Hh Hx E1 Hc1) as (A1 & A2 & A3 & A4). pose proof (hdl_ext _ _ _ _ A2 Hh) as Hh1.
    apply bind_cap in E; [| intros; apply mono_bind; [apply mono_ds_add | intros; apply M2] | exact Hcap]. destruct E as (vs & s2 & E2 & Hc2 & E).
    destruct (run_variables _ _ _ _ _ _ _ A1 Hh1 Dx E2 Hc2) as (W2 & B1 & B2 & B3 & B4). pose proof (hdl_ext _ _ _ _ B3 Hh1) as Hh2.
    apply bind_cap in E; [| intros; apply M2 | exact Hcap]. destruct E as (d & s3 & E3 & Hc3 & E).
    destruct (run_load fuel W2 s2 h x d s3 B1 Hh2 Hx ltac:(lia) E3 Hc3) as (W3 & C1 & C2 & C3 & C4). pose proof (hdl_ext _ _ _ _ C3 Hh2) as Hh3.
    assert (S3 : sub W3 W) by (eapply WorldProofs.sub_trans; eauto). assert (X3 : ext s s3) by (eapply FactoryInv.ext_trans; [exact A2 |]; eapply FactoryInv.ext_trans; eauto).
    destruct (is_atomic (snd cl)) eqn:At.
    { apply okp_inj in E. destruct E as [-> ->]. exists W3, x. cbn [fst]. repeat (split; [assumption || reflexivity |]). split; [intros Sx; apply A3; auto | split; [apply incl_refl | auto]]. }
    destruct (A4 eq_refl) as (conj & l & U & Ex & HU & CU). assert (Fc : forall c, In c (conjuncts x) -> is_fclause c = true).
    { destruct (cnf_cases x Hx) as [K | [K | K]]; [rewrite Ex in K; destruct conj; discriminate | rewrite Ex in K; destruct conj; discriminate | exact K]. }
    destruct (C4 Fc) as (lss & [L1 L2 L3 L4 L5]).
    apply bind_cap in E; [| intros; apply M3 | exact Hcap]. destruct E as (b & s4 & E4 & Hc4 & E).
    destruct (is_sat_spec orc So alg fuel W3 s3 h x C1 Hh3 (con_free_encodable _ _ (cnf_con_free _ Hx)) Hr) as [_ Ps]. rewrite E4 in Ps. cbn [fst snd rspec] in Ps. destruct (Ps Hc4) as (W4 & D1 & D2 & D3 & D4).
    assert (S4 : sub W4 W) by (eapply WorldProofs.sub_trans; eauto). assert (X4 : ext s s4) by (eapply FactoryInv.ext_trans; eauto). pose proof (hdl_ext _ _ _ _ D3 Hh3) as Hh4.
    destruct b; cbn [P_sat negb] in D4, E.
    2:{ apply okp_inj in E. destruct E as [-> ->]. exists W4, FFalse. cbn [fst]. split; auto. split; auto. split; auto. split; [exact (hdl_const s4 false) |]. split; [intros v; cbn [sem]; symmetry; exact (sat_world W4 s4 x D1 Hn D4 v) |]. split; [intros _; exact I | split; [intros u [] | reflexivity]]. }
    specialize (Hu D4). destruct L2 as [Q1 Q2 Q3 Q4].
    assert (Dst : dst (icl (ds_names d) lss) (ds_s d)).
    { apply (l_dst _ _ Q1). destruct (s_ok (ds_s d)) eqn:Eo; [reflexivity |]. exfalso. destruct D4 as (v & Sv). rewrite conjuncts_sem in Sv.
      rewrite (entails_unsat (ds_names d) lss (conjuncts x) L1 Fc L3 (l_bad _ _ Q1 Eo) v) in Sv. discriminate. }
    apply bind_lift in E. destruct E as (q & Eq & E). destruct (run_start _ _ _ _ Dst Eq) as (R1 & R2 & R3 & R4). rewrite R1 in E. cbn [negb] in E.
    apply bind_cap in E; [| intros; apply mono_bind; [apply mono_lift | intros; apply mono_bind; [apply mono_cnf2ddnnf | intros; apply mono_bind; [apply mono_f_nary | intros; apply mono_ret]]] | exact Hcap]. destruct E as (lt & s5 & E5 & Hc5 & E).
    subst x. destruct (run_tree fid fuel conj l W4 s4 h lt s5 D1 Hh4 Hx ltac:(lia) E5 Hc5) as (W5 & F1 & F2 & F3 & F4 & F5). set (x := fnary conj l) in *. rewrite (litsof_fun2 _ _ _ F4 L1) in *. clear F4.
    apply bind_lift in E. destruct E as (lits & El & E). rewrite R3 in El. apply leaf_literals_ok in El. subst lits. set (names := ds_names d) in *. set (lits := ilits names lss) in *.
    apply bind_cap in E; [| intros; apply mono_bind; [apply mono_f_nary | intros; apply mono_ret] | exact Hcap]. destruct E as (p & s6 & E6 & Hc6 & E).
    apply bind_cap in E; [| intros; apply mono_ret | exact Hcap]. destruct E as (rr & s7 & E7 & Hc7 & E). apply okp_inj in E. destruct E as [-> ->]. cbn [fst snd] in *.
    pose proof (hdl_ext _ _ _ _ F3 Hh4) as Hh5. set (c0 := mkComp (snd q) []) in *.
    assert (Ci : cinv lits (length vs) names (icl names lss) s5 c0).
    { constructor; cbn [cp_ds cp_cache c0].
      - constructor; [rewrite R2; exact Dst | rewrite R2; exact Q2 | exact R3].
      - intros u Hu'. destruct Hh5 as (_ & _ & Hk). apply Hk. apply L5. exact Hu'.
      - intros k hh []. }
    assert (Ll : length lits = length lss) by (unfold lits, ilits; apply map_length).
    assert (Tk : tree_ok lits (snd lt)) by (intros i Hi'; rewrite Ll; now apply F5).
    assert (Is : Iso lits (vl c0) (snd lt)) by (intros i k Hi' Hn'; exfalso; apply Hn'; apply F5; rewrite <- Ll; exact Hi').
    destruct (cnf2ddnnf_ok orc fuel lits (length vs) names (icl names lss) Q3 (fun i k K => proj1 (leaf_in names lss (conjuncts x) L1 L3 i k K)) (names_le names vs x Q3 L5 B4) (leaf_nodup names lss (conjuncts x) L1 L3 L4)
      (icl_leaf names lss) (leaf_icl names lss) n (snd lt) c0 W5 s5 p s6 F1 Ci Tk Is E6 Hc6 Hz) as ([G1 G2 _ _ _ _] & y & G3 & G4).
    assert (Nw : news lits (snd lt) (cp_ds c0) = []). { unfold news, newly_implied_lits. cbn [c0 cp_ds]. rewrite R2, (l_lim _ _ Q1). destruct (ds_dirty (snd q)); reflexivity. }
    rewrite Nw in G4. apply gfull_nil in G4. destruct G4 as [K1 K2 K3 K4].
    assert (Ht : forall i, In i (leaf_indices (snd lt)) <-> i < length (ilits names lss)) by (intros i; fold lits; rewrite Ll; apply F5).
    assert (Hu' : forall k, (forall v, forallb (sem v) (conjuncts x) = true -> lit_sem v k = true) -> In (FLit k) (conjuncts x)) by (intros k K; apply Hu; intros v Sv; apply K; rewrite <- conjuncts_sem; exact Sv).
    assert (Ev : vl c0 = value (ds_s d)) by (unfold vl; cbn [c0 cp_ds]; now rewrite R2).
    assert (Dj : disjoint_vars U y).
    { intros u H1 H2. apply (cj_vars _ _ CU) in H1. apply in_flat_map in H1. destruct H1 as (z & Hz' & Hu1). apply filter_In in Hz'. destruct Hz' as [Hz1 Hz2]. destruct z as [ | | k | | | | | | | ]; try discriminate. rewrite fvars_flit in Hu1. destruct Hu1 as [<- | []].
      destruct (K3 _ H2) as (i & P1 & P2). rewrite Ev in P1. pose proof (root_disjoint names lss (conjuncts x) Q3 L1 L3 (ds_s d) (snd lt) Dst Q2 k Hz1 i P2) as P. fold lits in P. congruence. }
    assert (HU6 : hdl s6 (fst cl) U). { eapply hdl_ext; [| exact HU]. eapply FactoryInv.ext_trans; [exact B3 |]. eapply FactoryInv.ext_trans; [exact C3 |]. eapply FactoryInv.ext_trans; [exact D3 |]. eapply FactoryInv.ext_trans; eauto. }
    destruct (run_conj [fst cl; fst p] [U; y] W5 s6 rr s7 G1) as (T1 & T2 & z & T3 & T4); auto.
    { constructor; [constructor; [exact Dj | constructor] | constructor; [constructor | constructor]]. }
    { intros w [<- | [<- | []]]; [split; [apply (cj_dnnf _ _ CU) | apply (cj_sat _ _ CU)] | auto]. }
    exists W5, z. split; auto. split; [eapply WorldProofs.sub_trans; eauto |]. split; [eapply FactoryInv.ext_trans; [exact X4 |]; eapply FactoryInv.ext_trans; [exact F3 |]; eapply FactoryInv.ext_trans; eauto |].
    split; auto. split; [| split; [intros _; apply (cj_dnnf _ _ T4) | split; [| intros E0; destruct D4 as (v & Sv); rewrite E0 in Sv; discriminate Sv]]].
    2:{ intros u Hu1. apply (cj_vars _ _ T4) in Hu1. cbn [flat_map] in Hu1. rewrite app_nil_r in Hu1. apply in_app_or in Hu1. destruct Hu1 as [Hu1 | Hu1].
      - apply (cj_vars _ _ CU) in Hu1. apply in_flat_map in Hu1. destruct Hu1 as (w & Hw & Hu1). apply filter_In in Hw. rewrite fvars_conjuncts. apply in_flat_map. exists w. split; [apply Hw | exact Hu1].
      - destruct (K3 _ Hu1) as (i & _ & P2). apply L5. eapply nth_error_In. exact P2. }
    intros v. rewrite (cj_sem _ _ T4). cbn [forallb]. rewrite andb_true_r, (cj_sem _ _ CU), K2, Ev, (conjuncts_sem v x).
    apply (root_sem names lss (conjuncts x) L1 Fc L3 (ds_s d) (snd lt) Dst (l_lim _ _ Q1) Q2 Ht Hu' v).
  Qed.
End Whole.
