(** The counting of DnnfModel.v computes [dcount]. *)
From Coq Require Import NArith List Bool Arith Lia Sorted Permutation.
From Verif Require Import Base Syntax FactoryModel FactoryInv FactoryBasics FactoryNary FactoryOps ConstraintModel EvalProofs ConstraintProofs OpsModel OpsProofs CacheModel TransModel TreeSpec WorldProofs MetricsProofs
  DnnfSpec DnnfModel.
Import ListNotations.
Local Open Scope N_scope.

Lemma x_mfold_state : forall B (k : N -> B -> M B) (R : list fml -> B -> factory -> Prop) ops xs done W s b,
  inv W s -> (forall a b, mono (k a b)) -> Forall (vh s) ops -> Forall2 (denotes s) ops xs -> R done b s ->
  (forall d o x b t W', In x xs -> inv W' t -> ext s t -> vh t o -> denotes t o x -> R d b t ->
     xspec W' t (k o b) (fun b' t' _ => R (d ++ [x]) b' t')) ->
  xspec W s (mfold k ops b) (fun b' t' _ => R (done ++ xs) b' t').
Proof.
  intros B k R ops. induction ops as [| o ops IH]; intros xs done W s b Hi Hm Hv Hd HR H; cbn [mfold].
  - inversion Hd; subst. rewrite app_nil_r. apply x_ret; assumption.
  - inversion Hd as [| ? x ? xs' Hx Hd']; subst. inversion Hv; subst.
    eapply x_bind; [apply (H done o x); auto using ext_refl; left; reflexivity | intros; apply mono_mfold; assumption |].
    intros b' s1 W1 Hi1 He Hs HI1. replace (done ++ x :: xs') with ((done ++ [x]) ++ xs') by (rewrite <- app_assoc; reflexivity).
    cbn beta in HI1. apply IH; auto.
    + eapply Forall_vh_ext; eauto.
    + clear -Hd' He. induction Hd'; constructor; auto. eapply denotes_ext; eauto.
    + intros d c y b2 t W2 Hin Hi2 He2 Hv2 Hd2 HR2. apply H; auto; [right; assumption | eapply ext_trans; eauto].
Qed.

(** The local cache holds counts. *)
Definition P_count (x : fml) (n : N) : Prop := n = dcount x.
Definition counted (s : factory) (m : list (N * N)) : Prop := centry (e_tree P_count s) m.

Lemma counted_ext : forall s s' m, ext s s' -> counted s m -> counted s' m.
Proof.
  intros s s' m He H h v G. destruct (H h v G) as [x [Hv [Hd Hp]]]. exists x. split; [eapply vh_ext; eauto | ]. split; [eapply denotes_ext; eauto | auto].
Qed.
Lemma counted_insert : forall s m h x, vh s h -> denotes s h x -> counted s m -> counted s (oc_insert h (dcount x) m).
Proof.
  intros s m h x Hv Hd H k v G. rewrite oc_insert_get in G. destruct (oc_get k m) eqn:E.
  - injection G as <-. apply H. auto.
  - destruct (N.eqb_spec k h) as [-> | Ne]; [ | discriminate]. injection G as <-. exists x. split; auto. split; auto. reflexivity.
Qed.

(** Counting trees: conjunctions and disjunctions over literals and constants. *)
Fixpoint andor (x : fml) : Prop :=
  match x with
  | FTrue | FFalse | FLit _ => True
  | FAnd l | FOr l => (fix all l := match l with [] => True | y :: r => andor y /\ all r end) l
  | _ => False
  end.
Lemma dnnf_andor : forall x, dnnf x -> andor x.
Proof.
  induction x using fml_ind2; cbn [dnnf andor]; auto.
  - intros [_ D]. induction l as [ | y l IH]; auto. inversion H as [ | ? ? Hy Hl]; subst. destruct D as [D1 D2]. split; [exact (Hy D1) | exact (IH Hl D2)].
  - intros [_ D]. induction l as [ | y l IH]; auto. inversion H as [ | ? ? Hy Hl]; subst. destruct D as [D1 D2]. split; [exact (Hy D1) | exact (IH Hl D2)].
Qed.

Lemma ss_nodup : forall l, StronglySorted (fun a b => var_ltb a b = true) l -> NoDup l.
Proof.
  intros l H. induction H as [ | x l H IH Hx]; constructor; auto. intros G. rewrite Forall_forall in Hx. specialize (Hx x G). 
  rewrite var_ltb_irrefl in Hx. discriminate.
Qed.
Lemma set_list_nvars : forall l x, set_list var_ltb l (fvars x) -> length l = nvars x.
Proof.
  intros l x [H1 H2]. unfold nvars. apply Permutation_length. apply NoDup_Permutation; [apply ss_nodup; auto | apply NoDup_nodup | ].
  intros u. rewrite nodup_In. auto.
Qed.
Lemma nvars_le : forall x y, incl (fvars x) (fvars y) -> (nvars x <= nvars y)%nat.
Proof.
  intros x y H. unfold nvars. apply NoDup_incl_length; [apply NoDup_nodup | ]. intros u Hu. rewrite nodup_In in *. auto.
Qed.
Lemma fvars_operand : forall x y, andor x -> In y (children x) -> incl (fvars y) (fvars x) /\ andor y.
Proof.
  intros x y Ha Hy. destruct x; try contradiction; cbn [children] in Hy; try contradiction.
  - split; [ | exact (all_in andor l Ha y Hy)]. intros u Hu. rewrite fvars_and. apply in_flat_map. exists y. auto.
  - split; [ | exact (all_in andor l Ha y Hy)]. intros u Hu. rewrite fvars_or. apply in_flat_map. exists y. auto.
Qed.

Lemma mono_count_rec : forall fuel h c, mono (count_rec fuel h c).
Proof.
  induction fuel as [| fuel IH]; intros h c; cbn [count_rec]; [apply mono_nofuel |].
  destruct (is_falsum h); [apply mono_ret | ]. destruct (is_literal h || is_constant h); [apply mono_ret | ].
  destruct (oc_get h c); [apply mono_ret | ]. apply mono_bind; [auto with mono |]. intros n.
  apply mono_bind; [ | intros; apply mono_ret].
  destruct n; try apply mono_fail.
  - apply mono_mfold. intros a b. apply mono_bind; [apply IH | intros; apply mono_ret].
  - apply mono_bind; [apply mono_variables | ]. intros vs. apply mono_mfold. intros a b. apply mono_bind; [apply IH | ]. intros q.
    apply mono_bind; [apply mono_variables | intros; apply mono_ret].
Qed.

Definition prods (d : list fml) : N := fold_right (fun y n => dcount y * n) 1 d.
Definition sums (v : nat) (d : list fml) : N := fold_right (fun y n => 2 ^ N.of_nat (v - nvars y) * dcount y + n) 0 d.
Lemma prods_app : forall d x, prods (d ++ [x]) = prods d * dcount x.
Proof. intros d x. induction d as [ | y d IH]; unfold prods in *; cbn [app fold_right]; [lia | ]. rewrite IH. lia. Qed.
Lemma sums_app : forall v d x, sums v (d ++ [x]) = sums v d + 2 ^ N.of_nat (v - nvars x) * dcount x.
Proof. intros v d x. induction d as [ | y d IH]; unfold sums in *; cbn [app fold_right]; [lia | ]. rewrite IH. lia. Qed.

Lemma pow2_small : forall n, (N.of_nat n < 4294967296) -> pow2 (N.of_nat n) = 2 ^ N.of_nat n.
Proof. intros n H. unfold pow2. rewrite N.mod_small; auto. Qed.

Lemma count_rec_spec : forall fuel x W s h c, inv W s -> vh s h -> denotes s h x -> (depth x < fuel)%nat -> andor x -> N.of_nat (nvars x) < 4294967296 ->
  counted s c -> xspec W s (count_rec fuel h c) (fun p s' _ => fst p = dcount x /\ counted s' (snd p)).
Proof.
  induction fuel as [| fuel IH]; intros x W s h c Hi Hv Hd Hf Ha Hn Hc; [lia |]. cbn [count_rec].
  assert (Hty : is_falsum h = match x with FFalse => true | _ => false end
              /\ (is_literal h || is_constant h) = match x with FTrue | FFalse | FLit _ => true | _ => false end).
  { unfold is_literal, is_constant, is_falsum, is_verum. rewrite (type_tree _ _ _ _ Hi Hv Hd). destruct x; split; reflexivity. }
  destruct Hty as [-> ->].
  destruct (match x with FTrue | FFalse | FLit _ => true | _ => false end) eqn:Hat.
  { destruct x; try discriminate; (apply x_ret; [assumption | split; [reflexivity | assumption]]). }
  replace (match x with FFalse => true | _ => false end) with false by (destruct x; try reflexivity; discriminate).
  destruct (oc_get h c) as [n | ] eqn:G.
  { apply x_ret; [assumption | ]. split; [exact (hit_tree _ P_count _ _ _ _ _ Hc Hd G) | assumption]. }
  destruct (open_node _ _ _ _ Hi Hv Hd) as [n [Hu [Hvs Hds]]]. eapply x_unpack_bind; [exact Hu |].
  eapply x_bind with (Q1 := fun p s' _ => fst p = dcount x /\ counted s' (snd p)); [ | intros; apply mono_ret | ].
  2:{ intros p s' W' Hi' He _ [E Hp]. apply x_ret; [assumption | ]. cbn [fst snd]. split; auto. rewrite E.
      apply counted_insert; auto; [eapply vh_ext; eauto | eapply denotes_ext; eauto]. }
  assert (Hop : forall y, In y (children x) -> (depth y < fuel)%nat /\ andor y /\ (nvars y <= nvars x)%nat).
  { intros y Hy. destruct (fvars_operand x y Ha Hy) as [H1 H2]. split; [apply children_depth in Hy; lia | ]. split; auto. apply nvars_le. auto. }
  node_cases n Hu Hd; try contradiction; try discriminate Hat; cbn [node_operands children] in *.
  - eapply x_conseq.
    + apply (x_mfold_state _ _ (fun d p t => fst p = prods d /\ counted t (snd p)) l x0 [] W s); auto.
      * intros a b. apply mono_bind; [apply mono_count_rec | intros; apply mono_ret].
      * intros d o y b t W' Hy Hi' He Hvo Hdo [Hb1 Hb2]. destruct (Hop y Hy) as [O1 [O2 O3]].
        eapply x_bind; [apply (IH y); auto; lia | intros; apply mono_ret | ].
        intros q s1 W1 Hi1 He1 _ [Q1 Q2]. apply x_ret; [assumption | ]. cbn [fst snd]. split; auto. rewrite prods_app, Hb1, Q1. auto.
    + cbn beta. intros p s1 W1 _ _ _ Hp. exact Hp.
  - eapply x_bind; [apply (variables_spec (S fuel) _ W s h Hi Hv Hd Hf) | | ].
    { intros vs. apply mono_mfold. intros a b. apply mono_bind; [apply mono_count_rec | ]. intros q. apply mono_bind; [apply mono_variables | intros; apply mono_ret]. }
    intros vs s0 W0 Hi0 He0 _ Hvs0. pose proof (set_list_nvars _ _ Hvs0) as Lv. eapply x_conseq.
    + apply (x_mfold_state _ _ (fun d p t => fst p = sums (length vs) d /\ counted t (snd p)) l x0 [] W0 s0); auto.
      * intros a b. apply mono_bind; [apply mono_count_rec | ]. intros q. apply mono_bind; [apply mono_variables | intros; apply mono_ret].
      * eapply Forall_vh_ext; eauto.
      * clear -Hds He0. induction Hds; constructor; auto. eapply denotes_ext; eauto.
      * split; [reflexivity | eapply counted_ext; eauto].
      * intros d o y b t W' Hy Hi' He Hvo Hdo [Hb1 Hb2]. destruct (Hop y Hy) as [O1 [O2 O3]].
        eapply x_bind; [apply (IH y); auto; lia | intros; apply mono_bind; [apply mono_variables | intros; apply mono_ret] | ].
        intros q s1 W1 Hi1 He1 _ [Q1 Q2].
        eapply x_bind; [apply (variables_spec fuel y W1 s1 o Hi1); auto; [eapply vh_ext; eauto | eapply denotes_ext; eauto] | intros; apply mono_ret | ].
        intros ws s2 W2 Hi2 He2 _ Hws. apply x_ret; [assumption | ]. cbn [fst snd]. split; [ | eapply counted_ext; eauto].
        rewrite sums_app, Hb1, Q1. f_equal. f_equal. pose proof (set_list_nvars _ _ Hws) as Lw. unfold lenN.
        replace (N.of_nat (length vs) + 18446744073709551616 - N.of_nat (length ws)) with (N.of_nat (length vs - length ws) + 1 * 18446744073709551616) by lia.
        rewrite N.mod_add by lia. rewrite N.mod_small by lia. rewrite <- Lw. apply pow2_small. lia.
    + cbn beta. intros p s1 W1 _ _ _ [Hp1 Hp2]. split; auto. rewrite Hp1. unfold sums. cbn [app dcount]. rewrite Lv. reflexivity.
Qed.

Lemma mono_count : forall fuel d, mono (count fuel d).
Proof.
  intros fuel d. unfold count. apply mono_bind; [apply mono_count_rec | ]. intros p. apply mono_bind; [apply mono_variables | intros; apply mono_ret].
Qed.

Lemma count_spec : forall fuel x W s h vs, inv W s -> vh s h -> denotes s h x -> (depth x < fuel)%nat -> andor x -> NoDup vs -> incl (fvars x) vs ->
  lenN vs < 4294967296 ->
  xspec W s (count fuel (mkDnnf h vs)) (fun n _ _ => n = 2 ^ N.of_nat (length vs - nvars x) * dcount x).
Proof.
  intros fuel x W s h vs Hi Hv Hd Hf Ha Nd I Hl. unfold count. cbn [dn_formula dn_vars].
  assert (Hle : (nvars x <= length vs)%nat).
  { unfold nvars. apply NoDup_incl_length; [apply NoDup_nodup | ]. intros u Hu. rewrite nodup_In in Hu. auto. }
  unfold lenN in Hl.
  eapply x_bind; [apply (count_rec_spec fuel x W); auto; [lia | intros k v G; discriminate G] | intros; apply mono_bind; [apply mono_variables | intros; apply mono_ret] | ].
  intros p s1 W1 Hi1 He1 _ [Hp _].
  eapply x_bind; [apply (variables_spec fuel x W1 s1 h Hi1); auto; [eapply vh_ext; eauto | eapply denotes_ext; eauto] | intros; apply mono_ret | ].
  intros ws s2 W2 Hi2 He2 _ Hws. apply x_ret; [assumption | ]. rewrite Hp.
  assert (L : length (filter (fun y => negb (existsb (var_eqb y) ws)) vs) = (length vs - nvars x)%nat).
  { rewrite <- (set_list_nvars _ _ Hws). destruct Hws as [Hs Hin].
    assert (Pm : Permutation vs (ws ++ filter (fun y => negb (existsb (var_eqb y) ws)) vs)).
    { assert (Hx : forall u, existsb (var_eqb u) ws = true <-> In u ws).
      { intros u. rewrite existsb_exists. split; [intros [y [Hy E]]; apply var_eqb_spec in E; subst; auto | intros Hu; exists u; split; auto; apply var_eqb_spec; auto]. }
      apply NoDup_Permutation; auto.
      - apply nodup_app_disjoint; [apply ss_nodup; auto | apply NoDup_filter; auto | ]. intros u Hu G. apply filter_In in G. destruct G as [_ G].
        apply Hx in Hu. rewrite Hu in G. discriminate.
      - intros u. rewrite in_app_iff, filter_In. split.
        + intros Hu. destruct (existsb (var_eqb u) ws) eqn:E; [left; apply Hx; auto | right; auto].
        + intros [Hu | [Hu _]]; auto. apply I. apply Hin. auto. }
    apply Permutation_length in Pm. rewrite app_length in Pm. lia. }
  unfold lenN. rewrite L, pow2_small by lia. lia.
Qed.
