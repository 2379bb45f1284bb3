(** Proofs about the front end of the SAT solver (MiniModel.v). *)
From Coq Require Import List Arith ZArith NArith Bool Lia Permutation.
From Verif Require Import Base Vec HeapModel EncodingModel Syntax FactoryModel FactoryBasics AssignmentModel ConstraintModel EvalProofs CacheModel SatSpec SatModel SatBasics SatProp SatDb SatFront SatState MiniModel.
Import ListNotations.
Local Open Scope nat_scope.

(** ** Names *)
Definition dv : var := VFF 0.
Lemma var_eqb_refl : forall v, var_eqb v v = true.
Proof. intros v. now apply var_eqb_spec. Qed.
Lemma idx_from_some : forall names k v i, idx_from k names v = Some i -> k <= i /\ nth_error names (i - k) = Some v.
Proof.
  induction names as [| x r IH]; intros k v i; cbn [idx_from]; [discriminate |]. destruct (var_eqb x v) eqn:E.
  - intros H. inversion H; subst. rewrite Nat.sub_diag. apply var_eqb_spec in E. subst. auto.
  - intros H. apply IH in H. destruct H as [H1 H2]. split; [lia |]. replace (i - k) with (S (i - S k)) by lia. exact H2.
Qed.
Lemma idx_from_none : forall names k v, idx_from k names v = None <-> ~ In v names.
Proof.
  induction names as [| x r IH]; intros k v; cbn [idx_from]; [split; auto |]. destruct (var_eqb x v) eqn:E.
  - apply var_eqb_spec in E. subst. split; [discriminate |]. intros H. exfalso. apply H. now left.
  - rewrite IH. split; intros H; [intros [K | K]; [subst; rewrite var_eqb_refl in E; discriminate | auto] |]. intros K. apply H. now right.
Qed.
Lemma idx_from_app : forall a k v i b, idx_from k a v = Some i -> idx_from k (a ++ b) v = Some i.
Proof. induction a as [| x r IH]; intros k v i b; cbn [idx_from app]; [discriminate |]. destruct (var_eqb x v); auto. Qed.
Lemma idx_from_last : forall a k v, ~ In v a -> idx_from k (a ++ [v]) v = Some (k + length a).
Proof.
  induction a as [| x r IH]; intros k v H; cbn [idx_from app length]; [rewrite var_eqb_refl; f_equal; lia |].
  destruct (var_eqb x v) eqn:E; [apply var_eqb_spec in E; subst; exfalso; apply H; now left |]. rewrite IH; [f_equal; lia |]. intros K. apply H. now right.
Qed.
Lemma idx_some : forall names v i, idx_of names v = Some i -> nth_error names i = Some v.
Proof. intros names v i H. apply idx_from_some in H. rewrite Nat.sub_0_r in H. apply H. Qed.
Lemma idx_in : forall names v, In v names -> exists i, idx_of names v = Some i /\ i < length names /\ nth i names dv = v.
Proof.
  intros names v H. destruct (idx_of names v) as [i |] eqn:E; [| apply idx_from_none in E; contradiction]. exists i. split; auto. apply idx_some in E. split; [eapply nth_some_lt; eauto | now apply nth_of_some].
Qed.
Lemma idx_nth : forall names i, NoDup names -> i < length names -> idx_of names (nth i names dv) = Some i.
Proof.
  intros names i Nd Hi. destruct (idx_in names (nth i names dv)) as (j & E & Lj & Ej); [now apply nth_In |]. rewrite E. f_equal. now apply (proj1 (NoDup_nth names dv) Nd j i).
Qed.
Lemma idx_inj : forall names v w i, idx_of names v = Some i -> idx_of names w = Some i -> v = w.
Proof. intros names v w i H1 H2. apply idx_some in H1, H2. congruence. Qed.

Definition enc (names : list var) (l : lit) : nat := match idx_of names (lit_var l) with Some i => mk_lit i (negb (lit_phase l)) | None => 0 end.
Definition encs (names : list var) (G : list (list lit)) : list (list nat) := map (map (enc names)) G.
Lemma enc_app : forall names ext l, In (lit_var l) names -> enc (names ++ ext) l = enc names l.
Proof. intros names ext l H. unfold enc, idx_of. destruct (idx_in names (lit_var l) H) as (i & E & _). unfold idx_of in E. rewrite E. now rewrite (idx_from_app _ _ _ _ ext E). Qed.
Lemma encs_app : forall names ext G, (forall c l, In c G -> In l c -> In (lit_var l) names) -> encs (names ++ ext) G = encs names G.
Proof. intros names ext G H. unfold encs. apply map_ext_in. intros c Hc. apply map_ext_in. intros l Hl. apply enc_app. eauto. Qed.
Lemma enc_lt : forall names l, In (lit_var l) names -> enc names l < 2 * length names.
Proof. intros names l H. unfold enc. destruct (idx_in names (lit_var l) H) as (i & -> & L & _). apply lvar_lt. now rewrite mk_lit_var. Qed.

(** ** Valuations *)
(** A clause set over named variables. *)
Definition satisfies (V : valuation) (G : list (list lit)) : Prop := forall c, In c G -> exists l, In l c /\ lit_sem V l = true.
Definition vval (names : list var) (V : valuation) (i : nat) : bool := V (nth i names dv).
Definition nval (names : list var) (W : nat -> bool) : valuation := fun v => match idx_of names v with Some i => W i | None => false end.
Lemma enc_true : forall names V l, In (lit_var l) names -> (lit_true (vval names V) (enc names l) <-> lit_sem V l = true).
Proof.
  intros names V l H. unfold enc. destruct (idx_in names (lit_var l) H) as (i & -> & L & E). unfold lit_true. change (Nat.div2 (mk_lit i (negb (lit_phase l)))) with (lvar (mk_lit i (negb (lit_phase l)))).
  change (Nat.odd (mk_lit i (negb (lit_phase l)))) with (lsign (mk_lit i (negb (lit_phase l)))). rewrite mk_lit_var, mk_lit_sign. unfold vval. rewrite E. destruct l as [v [|]]; cbn; destruct (V v); cbn; split; congruence.
Qed.
Lemma nval_true : forall names W l, In (lit_var l) names -> (lit_true W (enc names l) <-> lit_sem (nval names W) l = true).
Proof.
  intros names W l H. unfold enc. destruct (idx_in names (lit_var l) H) as (i & E & L & _). rewrite E. unfold lit_true. change (Nat.div2 (mk_lit i (negb (lit_phase l)))) with (lvar (mk_lit i (negb (lit_phase l)))).
  change (Nat.odd (mk_lit i (negb (lit_phase l)))) with (lsign (mk_lit i (negb (lit_phase l)))). rewrite mk_lit_var, mk_lit_sign. assert (En : nval names W (lit_var l) = W i) by (unfold nval; now rewrite E). destruct l as [v [|]]; cbn in *; rewrite En; destruct (W i); cbn; split; congruence.
Qed.
Lemma all_vval : forall names V G, (forall c l, In c G -> In l c -> In (lit_var l) names) -> (all_true (vval names V) (encs names G) <-> satisfies V G).
Proof.
  intros names V G HG. split.
  - intros H c Hc. destruct (H (map (enc names) c)) as (x & Hx & Tx); [now apply in_map |]. apply in_map_iff in Hx. destruct Hx as (l & <- & Hl). exists l. split; auto. apply (enc_true names V l); eauto.
  - intros H c Hc. apply in_map_iff in Hc. destruct Hc as (c0 & <- & Hc). destruct (H c0 Hc) as (l & Hl & Tl). exists (enc names l). split; [now apply in_map |]. apply enc_true; eauto.
Qed.
Lemma all_nval : forall names W G, (forall c l, In c G -> In l c -> In (lit_var l) names) -> all_true W (encs names G) -> satisfies (nval names W) G.
Proof.
  intros names W G HG H c Hc. destruct (H (map (enc names) c)) as (x & Hx & Tx); [now apply in_map |]. apply in_map_iff in Hx. destruct Hx as (l & <- & Hl). exists l. split; auto. apply (nval_true names W l); eauto.
Qed.

(** ** The invariant of the front end *)
Record minv (G : list (list lit)) (m : mini) : Prop := {
  n_nd : NoDup (mi_names m);
  n_len : length (mi_names m) = length (s_vars (mi_s m));
  n_in : forall c l, In c G -> In l c -> In (lit_var l) (mi_names m);
  n_g : ginv (encs (mi_names m) G) (mi_s m) }.
Lemma minv_new : minv [] mini_new.
Proof. constructor; cbn; [constructor | reflexivity | intros c l [] | apply ginv_new]. Qed.

Section Front.
  Variables (mc : mconfig) (orc : oracle).
  Hypothesis Hm : g_min (mc_sat mc) <> MinNone.
  Hypothesis So : sorting orc.

  Definition extends (m m' : mini) : Prop := (exists ext, mi_names m' = mi_names m ++ ext) /\ mi_res m' = mi_res m /\ mi_states m' = mi_states m.
  Lemma extends_refl : forall m, extends m m.
  Proof. intros m. split; [exists []; symmetry; apply app_nil_r | auto]. Qed.
  Lemma extends_trans : forall a b c, extends a b -> extends b c -> extends a c.
  Proof. intros a b c ((e1 & E1) & A1 & A2) ((e2 & E2) & B1 & B2). split; [exists (e1 ++ e2); rewrite E2, E1; symmetry; apply app_assoc | split; congruence]. Qed.
  Lemma generate_literal_ok : forall G l m, minv G m -> exists m', generate_literal mc l m = Ok (enc (mi_names m') l, m') /\ minv G m' /\ In (lit_var l) (mi_names m') /\ extends m m'.
  Proof.
    intros G l m I. unfold generate_literal. destruct (idx_of (mi_names m) (lit_var l)) as [i |] eqn:E.
    - exists m. unfold enc. rewrite E. split; auto. split; auto. split; [apply idx_some in E; eapply nth_error_In; eauto | apply extends_refl].
    - pose proof E as N. apply idx_from_none in N. destruct (new_var_ok _ (negb (mc_phase mc)) (mi_s m) (n_g _ _ I)) as (s & Es & Gs & Ls & _). rewrite Es. cbn [rbind].
      set (m' := mkMini s (mi_names m ++ [lit_var l]) (mi_res m) (mi_states m)). exists m'. split; [| split; [| split]].
      + do 2 f_equal. unfold enc. change (mi_names m') with (mi_names m ++ [lit_var l]). unfold idx_of. rewrite idx_from_last by exact N. cbn [plus]. now rewrite (n_len _ _ I).
      + constructor; change (mi_names m') with (mi_names m ++ [lit_var l]); change (mi_s m') with s.
        * apply nodup_snoc; [exact (n_nd _ _ I) | exact N].
        * rewrite app_length, (n_len _ _ I), Ls. cbn. lia.
        * intros c x Hc Hx. apply in_or_app. left. eapply n_in; eauto.
        * rewrite encs_app by (exact (n_in _ _ I)). exact Gs.
      + change (mi_names m') with (mi_names m ++ [lit_var l]). apply in_or_app. right. now left.
      + split; [exists [lit_var l]; reflexivity | auto].
  Qed.
  Lemma generate_clause_vec_ok : forall G ls m, minv G m -> exists m', generate_clause_vec mc ls m = Ok (map (enc (mi_names m')) ls, m') /\ minv G m' /\ (forall l, In l ls -> In (lit_var l) (mi_names m')) /\ extends m m'.
  Proof.
    intros G. induction ls as [| l r IH]; intros m I; cbn [generate_clause_vec map]; [exists m; split; auto; split; auto; split; [intros l [] | apply extends_refl] |].
    destruct (generate_literal_ok G l m I) as (m1 & E1 & I1 & L1 & X1). rewrite E1. cbn [rbind]. destruct (IH m1 I1) as (m2 & E2 & I2 & L2 & X2). rewrite E2. cbn [rbind].
    destruct X2 as ((ext & En) & X2). exists m2. split; [rewrite En, (enc_app _ _ _ L1); reflexivity |]. split; auto. split.
    - intros x [<- | Hx]; auto. rewrite En. apply in_or_app. now left.
    - eapply extends_trans; [exact X1 |]. split; eauto.
  Qed.
  Lemma minv_other : forall G m r st, minv G m -> minv G (mkMini (mi_s m) (mi_names m) r st).
  Proof. intros G m r st [A B C D]. constructor; auto. Qed.
  Lemma m_add_clause_ok : forall G fuel c m, minv G m -> rspec (m_add_clause mc fuel c m) (minv (c :: G)).
  Proof.
    intros G fuel c m I. unfold m_add_clause. destruct (generate_clause_vec_ok G c _ (minv_other G m None (mi_states m) I)) as (m1 & E & I1 & L & _). rewrite E. cbn [rbind].
    eapply rspec_bind; [apply (add_clause_ok (mc_sat mc) (encs (mi_names m1) G)); [exact (n_g _ _ I1) |] |].
    - intros l Hl. apply in_map_iff in Hl. destruct Hl as (x & <- & Hx). rewrite <- (n_len _ _ I1). apply enc_lt. auto.
    - intros [b s] (G1 & L1 & _). cbn [fst snd rspec] in *. constructor; cbn [mi_s mi_names].
      + exact (n_nd _ _ I1).
      + rewrite L1. exact (n_len _ _ I1).
      + intros x l [<- | Hx] Hl; [auto | exact (n_in _ _ I1 x l Hx Hl)].
      + exact G1.
  Qed.
  Lemma m_add_variables_ok : forall G vs m, minv G m -> exists m', m_add_variables mc vs m = Ok m' /\ minv G m' /\ extends m m' /\ forall v, In v vs -> In v (mi_names m').
  Proof.
    intros G vs m I. unfold m_add_variables. destruct (generate_clause_vec_ok G (map (fun v => Lit v true) vs) m I) as (m1 & E & I1 & L & X). rewrite E. cbn [rbind]. exists m1. split; auto. split; auto. split; auto.
    intros v Hv. apply (L (Lit v true)). now apply (in_map (fun v => Lit v true)).
  Qed.

  Lemma gvec_names : forall ls m ps m', generate_clause_vec mc ls m = Ok (ps, m') -> forall v, In v (mi_names m') <-> In v (mi_names m) \/ In v (map lit_var ls).
  Proof.
    induction ls as [| l r IH]; intros m ps m' E v; cbn [generate_clause_vec map] in *; [inversion E; subst; cbn; tauto |].
    unfold generate_literal in E. destruct (idx_of (mi_names m) (lit_var l)) as [i |] eqn:Ei.
    - cbn [rbind] in E. destruct (generate_clause_vec mc r m) as [[xs m2] | |] eqn:E2; cbn [rbind] in E; try discriminate. inversion E; subst. rewrite (IH _ _ _ E2 v). cbn [In].
      split; [tauto |]. intros [H | [H | H]]; auto. left. subst v. apply idx_some in Ei. eapply nth_error_In; eauto.
    - destruct (new_var (negb (mc_phase mc)) true (mi_s m)) as [[i s] | |]; cbn [rbind] in E; try discriminate.
      destruct (generate_clause_vec mc r _) as [[xs m2] | |] eqn:E2 in E; cbn [rbind] in E; try discriminate. inversion E; subst. rewrite (IH _ _ _ E2 v). cbn [In mi_names]. rewrite in_app_iff. cbn [In]. tauto.
  Qed.

  (** Answers in terms of named variables. *)
  Definition mvals (m : mini) : valuation := nval (mi_names m) (model_val (mi_s m)).
  Definition manswer (G : list (list lit)) (A : list lit) (m' : mini) (r : bool) : Prop :=
    minv G m' /\ mi_res m' = Some r /\
    if r then satisfies (mvals m') G /\ (forall a, In a A -> lit_sem (mvals m') a = true) /\ length (s_model (mi_s m')) = length (mi_names m')
    else forall V, satisfies V G -> (forall a, In a A -> lit_sem V a = true) -> False.
  Lemma answered_named : forall G A m s r, minv G m -> (forall a, In a A -> In (lit_var a) (mi_names m)) ->
    answered (encs (mi_names m) G) (map (enc (mi_names m)) A) (mi_s m) (r, s) -> manswer G A (mkMini s (mi_names m) (Some r) (mi_states m)) r.
  Proof.
    intros G A m s r I HA (H1 & H2 & H3). cbn [fst snd] in *. split; [| split; [reflexivity |]].
    - destruct I as [A1 A2 A3 A4]. constructor; cbn [mi_s mi_names]; auto. congruence.
    - destruct r.
      + destruct H3 as (T1 & T2 & T3 & _). unfold mvals. cbn [mi_s mi_names]. split; [apply all_nval; [exact (n_in _ _ I) | exact T1] |]. split; [| rewrite T3; symmetry; exact (n_len _ _ I)].
        intros a Ha. apply (nval_true _ _ a (HA a Ha)). apply T2. now apply in_map.
      + destruct H3 as (T1 & T2 & _). intros V HV HVA. destruct (T1 (vval (mi_names m) V)) as (l & Hl & Tl); [apply all_vval; [exact (n_in _ _ I) | exact HV] |].
        specialize (T2 l Hl). apply in_map_iff in T2. destruct T2 as (a & Ea & Ha). pose proof (proj2 (enc_true (mi_names m) V a (HA a Ha)) (HVA a Ha)) as K. rewrite Ea in K. apply lit_true_neg in K. contradiction.
  Qed.
  Lemma m_sat_ok : forall G fuel m, minv G m -> rspec (m_sat mc orc fuel m) (fun r => manswer G [] (snd r) (fst r) /\ mi_names (snd r) = mi_names m /\ mi_states (snd r) = mi_states m).
  Proof.
    intros G fuel m I. unfold m_sat. eapply rspec_bind; [apply (solve_ok_nil _ _ (encs (mi_names m) G)); auto; exact (n_g _ _ I) |]. intros [r s] H. cbn [rspec fst snd mi_names mi_states]. split; auto.
    apply answered_named; auto. intros a [].
  Qed.
  Lemma order_lits_lt : forall names o l, In l (order_lits names o) -> l < 2 * length names.
  Proof.
    intros names o l H. apply in_flat_map in H. destruct H as (x & _ & H). destruct (idx_of names (lit_var x)) as [i |] eqn:E; [| destruct H]. destruct H as [<- | []]. apply lvar_lt. rewrite mk_lit_var. apply idx_some in E. eapply nth_some_lt; eauto.
  Qed.
  Lemma selo_any : forall G m o r st, minv G m -> (forall l, In l o -> l < 2 * length (s_vars (mi_s m))) -> minv G (mkMini (set_selo o (mi_s m)) (mi_names m) r st).
  Proof. intros G m o r st [A B C D] H. constructor; cbn [mi_s mi_names]; auto. now apply ginv_selo. Qed.
  Lemma manswer_selo : forall G A m r, manswer G A m r -> manswer G A (mkMini (set_selo [] (mi_s m)) (mi_names m) (mi_res m) (mi_states m)) r.
  Proof. intros G A m r (H1 & H2 & H3). split; [apply selo_any; [exact H1 | intros l []] |]. split; [exact H2 |]. destruct r; [exact H3 | exact H3]. Qed.
  Lemma m_sat_with_ok : forall G fuel asm order m, minv G m ->
    rspec (m_sat_with mc orc fuel asm order m) (fun r => manswer G (match asm with Some a => a | None => [] end) (snd r) (fst r)).
  Proof.
    intros G fuel asm order m I. unfold m_sat_with. set (m0 := mkMini _ (mi_names m) None (mi_states m)).
    assert (I0 : minv G m0). { unfold m0. destruct order as [o |]; [| now apply minv_other]. apply selo_any; auto. intros l Hl. rewrite <- (n_len _ _ I). eapply order_lits_lt; eauto. }
    apply (rspec_bind _ _ _ _ (fun r => manswer G (match asm with Some a => a | None => [] end) (snd r) (fst r))).
    - destruct asm as [a |].
      + destruct (generate_clause_vec_ok G a m0 I0) as (m1 & E & I1 & L & _). rewrite E. cbn [rbind]. eapply rspec_bind.
        * apply (solve_ok _ _ (encs (mi_names m1) G)); auto; [exact (n_g _ _ I1) |]. intros x Hx. apply in_map_iff in Hx. destruct Hx as (y & <- & Hy). rewrite <- (n_len _ _ I1). apply enc_lt. auto.
        * intros [r s] H. cbn [rspec fst snd]. apply answered_named; auto.
      + eapply rspec_bind; [apply (solve_ok_nil _ _ (encs (mi_names m0) G)); auto; exact (n_g _ _ I0) |]. intros [r s] H. cbn [rspec fst snd]. apply answered_named; auto. intros a [].
    - intros [r m1] H. cbn [fst snd rspec] in *. destruct order as [o |]; [apply manswer_selo; exact H | exact H].
  Qed.
End Front.
