(** Proofs about the enumeration of models (MiniModel.v). *)
From Coq Require Import List Arith ZArith NArith Bool Lia.
From Verif Require Import Base Vec HeapModel EncodingModel Syntax FactoryModel FactoryBasics AssignmentModel ConstraintModel EvalProofs CacheModel MetricsProofs
  SatSpec SatModel SatBasics SatProp SatDb SatFront SatState MiniModel MiniProofs.
Import ListNotations.
Local Open Scope nat_scope.

(** ** Models with names *)
Definition asgn (mc : mconfig) (names : list var) (idx : list nat) (W : nat -> bool) : smodel :=
  let nm i := nth i names dv in
  mkModel (map nm (filter (fun i => is_relevant mc (nm i) && W i) idx)) (map nm (filter (fun i => is_relevant mc (nm i) && negb (W i)) idx)).
Lemma values_at_ok : forall model idx, (forall i, In i idx -> i < length model) -> values_at model idx = Ok (map (fun i => (i, nth i model false)) idx).
Proof.
  intros model. induction idx as [| i r IH]; intros H; cbn [values_at map]; auto. rewrite (nth_error_nth' model false) by (apply H; now left). cbn [of_opt rbind]. rewrite IH by (intros j Hj; apply H; now right). reflexivity.
Qed.
Lemma assign_names_ok : forall mc names W idx md, (forall i, In i idx -> i < length names) ->
  assign_names mc names (map (fun i => (i, W i)) idx) md = Ok (mkModel (m_pos md ++ m_pos (asgn mc names idx W)) (m_neg md ++ m_neg (asgn mc names idx W))).
Proof.
  intros mc names W. induction idx as [| i r IH]; intros md H; cbn [assign_names map asgn filter m_pos m_neg]; [rewrite !app_nil_r; now destruct md |].
  unfold name_of. rewrite (nth_error_nth' names dv) by (apply H; now left). cbn [of_opt rbind]. rewrite IH by (intros j Hj; apply H; now right). clear IH. cbn [asgn m_pos m_neg].
  destruct (is_relevant mc (nth i names dv)), (W i); cbn [andb negb map m_pos m_neg]; rewrite <- ?app_assoc; reflexivity.
Qed.
Definition idxs (rel : option (list nat)) (n : nat) : list nat := match rel with None => seq 0 n | Some l => l end.
Lemma create_assignment_ok : forall mc names model rel, length model = length names -> (forall i, In i (idxs rel (length model)) -> i < length model) ->
  create_assignment mc names model rel = Ok (asgn mc names (idxs rel (length model)) (fun i => nth i model false)).
Proof.
  intros mc names model rel L H. unfold create_assignment. change (match rel with None => seq 0 (length model) | Some idx => idx end) with (idxs rel (length model)).
  rewrite (values_at_ok _ _ H). cbn [rbind]. rewrite (assign_names_ok mc names (fun i => nth i model false)) by (intros i Hi; rewrite <- L; auto). reflexivity.
Qed.
Definition blk (R : list nat) (W : nat -> bool) : list nat := map (fun i => mk_lit i (W i)) R.
Lemma blocking_ok : forall model rel, (forall i, In i (idxs rel (length model)) -> i < length model) ->
  generate_blocking_clause model rel = Ok (blk (idxs rel (length model)) (fun i => nth i model false)).
Proof.
  intros model rel H. unfold generate_blocking_clause. change (match rel with None => seq 0 (length model) | Some idx => idx end) with (idxs rel (length model)).
  rewrite (values_at_ok _ _ H). cbn [rbind]. rewrite map_map. reflexivity.
Qed.
Lemma blk_true : forall V R W, clause_true V (blk R W) <-> exists i, In i R /\ V i <> W i.
Proof.
  intros V R W. split.
  - intros (l & Hl & Tl). apply in_map_iff in Hl. destruct Hl as (i & <- & Hi). exists i. split; auto. unfold lit_true in Tl. change (Nat.div2 (mk_lit i (W i))) with (lvar (mk_lit i (W i))) in Tl.
    change (Nat.odd (mk_lit i (W i))) with (lsign (mk_lit i (W i))) in Tl. rewrite mk_lit_var, mk_lit_sign in Tl. rewrite Tl. now destruct (W i).
  - intros (i & Hi & N). exists (mk_lit i (W i)). split; [apply in_map_iff; eauto |]. unfold lit_true. change (Nat.div2 (mk_lit i (W i))) with (lvar (mk_lit i (W i))).
    change (Nat.odd (mk_lit i (W i))) with (lsign (mk_lit i (W i))). rewrite mk_lit_var, mk_lit_sign. destruct (V i), (W i); auto; contradiction.
Qed.

Lemma agree_dec : forall (V : nat -> bool) R L, (exists W, In W L /\ forall i, In i R -> V i = W i) \/ (forall W, In W L -> exists i, In i R /\ V i <> W i).
Proof.
  intros V R L.
  assert (Dec : forall W : nat -> bool, (forall i, In i R -> V i = W i) \/ (exists i, In i R /\ V i <> W i)).
  { intros W. induction R as [| i r IHr]; [left; intros i [] |]. destruct (Bool.bool_dec (V i) (W i)) as [E | N]; [| right; exists i; split; [now left | exact N]].
    destruct IHr as [H | (j & H1 & H2)]; [left; intros j [<- | Hj]; auto | right; exists j; split; [now right | exact H2]]. }
  induction L as [| W r IHr]; [right; intros W [] |]. destruct (Dec W) as [H | H]; [left; exists W; split; [now left | exact H] |]. destruct IHr as [(W' & H1 & H2) | H1]; [left; exists W'; split; [now right | exact H2] |].
  right. intros W' [<- | H']; auto.
Qed.

(** ** The loop *)
Section Enum.
  Variables (mc : mconfig) (orc : oracle).
  Hypothesis Hm : g_min (mc_sat mc) <> MinNone.
  Hypothesis So : sorting orc.
  Variables (names : list var) (F : list (list nat)) (rel all : option (list nat)).
  Let n := length names.
  Hypothesis Rlt : forall i, In i (idxs rel n) -> i < n.
  Hypothesis Alt : forall i, In i (idxs all n) -> i < n.
  (** All enumerated variables are part of the models. *)
  Hypothesis Rall : forall i, In i (idxs rel n) -> In i (idxs all n) /\ is_relevant mc (nth i names dv) = true.

  Definition differ (W W' : nat -> bool) : Prop := exists i, In i (idxs rel n) /\ W i <> W' i.
  (** [L]: the models found so far, the last one first. *)
  Definition found (models : list smodel) (L : list (nat -> bool)) : Prop :=
    models = map (asgn mc names (idxs all n)) (rev L) /\ (forall W, In W L -> all_true W F) /\ ForallOrdPairs differ L.
  Definition complete (L : list (nat -> bool)) : Prop := forall V, all_true V F -> exists W, In W L /\ forall i, In i (idxs rel n) -> V i = W i.
  Definition loopinv (L : list (nat -> bool)) (m : mini) : Prop :=
    ginv (map (blk (idxs rel n)) L ++ F) (mi_s m) /\ mi_names m = names /\ length (s_vars (mi_s m)) = n.
  Lemma enum_loop_ok : forall fuel rounds k models L m, loopinv L m -> found models L ->
    rspec (enum_loop mc orc rounds fuel rel all k models m) (fun r => exists L', found (fst r) (L' ++ L) /\ (match k with Some k => length L' <= k | None => True end) /\
      (complete (L' ++ L) \/ exists k0, k = Some k0 /\ length L' = k0) /\ mi_states (snd r) = mi_states m).
  Proof.
    intros fuel. induction rounds as [| rn IH]; intros k models L m (G & En & Ln) Fd; [exact Logic.I |]. cbn [enum_loop].
    assert (Body : forall k', k' = k -> k' <> Some 0 -> rspec (do ' (r, m1) <- m_sat mc orc fuel m;
      if r then
        let model := s_model (mi_s m1) in
        do md <- create_assignment mc (mi_names m1) model all;
        if md_empty md then Ok (models ++ [md], m1)
        else
          do bc <- generate_blocking_clause model rel;
          do ' (_, s) <- add_clause (mc_sat mc) fuel bc (mi_s m1);
          enum_loop mc orc rn fuel rel all (option_map pred k') (models ++ [md]) (mkMini s (mi_names m1) (mi_res m1) (mi_states m1))
      else Ok (models, m1)) (fun r => exists L', found (fst r) (L' ++ L) /\ (match k with Some k => length L' <= k | None => True end) /\
      (complete (L' ++ L) \/ exists k0, k = Some k0 /\ length L' = k0) /\ mi_states (snd r) = mi_states m)).
    { intros k' -> Nk. unfold m_sat. destruct (solve (mc_sat mc) orc fuel (mi_s m)) as [[r s] | |] eqn:Es; [| pose proof (solve_ok_nil _ _ _ fuel (mi_s m) Hm So G) as K; rewrite Es in K; exact K | exact Logic.I].
      pose proof (solve_ok_nil _ _ _ fuel (mi_s m) Hm So G) as K. rewrite Es in K. destruct K as (G1 & L1 & K). cbn [fst snd rbind mi_s mi_names mi_res mi_states] in *. rewrite Ln in L1. destruct r.
      - destruct K as (T1 & _ & T3 & _). rewrite Ln in T3. set (W := model_val s) in *. cbn zeta.
        assert (TF : all_true W F) by (intros c Hc; apply T1, in_or_app; auto).
        assert (TD : forall W', In W' L -> differ W W') by (intros W' H'; apply (blk_true W (idxs rel n) W'), T1, in_or_app; left; now apply in_map).
        destruct Fd as (Fd1 & Fd2 & Fd3).
        assert (Fd' : found (models ++ [asgn mc names (idxs all n) W]) (W :: L)).
        { split; [cbn [rev]; rewrite map_app, Fd1; reflexivity |]. split; [intros W' [<- | H']; auto |]. constructor; [apply Forall_forall; auto | exact Fd3]. }
        rewrite En. rewrite create_assignment_ok by (rewrite ?T3; auto). cbn [rbind]. rewrite T3. change (fun i => nth i (s_model s) false) with W.
        destruct (md_empty (asgn mc names (idxs all n) W)) eqn:Em.
        + cbn [rspec fst snd]. exists [W]. split; [exact Fd' |]. split; [destruct k as [[|k] |]; cbn; [congruence | lia | auto] |]. split; [| reflexivity]. left.
          intros V _. exists W. split; [left; auto |]. intros i Hi. exfalso. destruct (Rall i Hi) as [H1 H2]. unfold md_empty, asgn in Em. cbn [m_pos m_neg] in Em.
          destruct (W i) eqn:Ew.
          * assert (X : In (nth i names dv) (map (fun i => nth i names dv) (filter (fun i => is_relevant mc (nth i names dv) && W i) (idxs all n)))).
            { apply (in_map (fun i => nth i names dv)). apply filter_In. split; auto. now rewrite H2, Ew. }
            destruct (map (fun i => nth i names dv) (filter (fun i => is_relevant mc (nth i names dv) && W i) (idxs all n))); [destruct X | discriminate].
          * assert (X : In (nth i names dv) (map (fun i => nth i names dv) (filter (fun i => is_relevant mc (nth i names dv) && negb (W i)) (idxs all n)))).
            { apply (in_map (fun i => nth i names dv)). apply filter_In. split; auto. now rewrite H2, Ew. }
            destruct (map (fun i => nth i names dv) (filter (fun i => is_relevant mc (nth i names dv) && W i) (idxs all n)));
            destruct (map (fun i => nth i names dv) (filter (fun i => is_relevant mc (nth i names dv) && negb (W i)) (idxs all n))); try discriminate; destruct X.
        + rewrite blocking_ok by (rewrite T3; auto). cbn [rbind]. rewrite T3. change (fun i => nth i (s_model s) false) with W. eapply rspec_bind.
          * apply (add_clause_ok (mc_sat mc) (map (blk (idxs rel n)) L ++ F)); [exact G1 |]. intros l Hl. apply in_map_iff in Hl. destruct Hl as (i & <- & Hi). apply lvar_lt. rewrite mk_lit_var, L1. auto.
          * intros [b s2] (G2 & L2 & _). cbn [fst snd] in *.
            assert (LI : loopinv (W :: L) (mkMini s2 names (Some true) (mi_states m))) by (split; [exact G2 | split; [reflexivity | cbn [mi_s]; congruence]]).
            pose proof (IH (option_map pred k) _ (W :: L) _ LI Fd') as P.
            destruct (enum_loop mc orc rn fuel rel all (option_map pred k) (models ++ [asgn mc names (idxs all n) W]) (mkMini s2 names (Some true) (mi_states m))) as [[ms m2] | |]; auto.
            cbn [rspec fst snd mi_states] in *. destruct P as (L' & P1 & P2 & P3 & P4). exists (L' ++ [W]). rewrite <- app_assoc. cbn [app]. split; [exact P1 |]. split; [| split; [| exact P4]].
            -- rewrite app_length. cbn [length]. destruct k as [[| k] |]; cbn [option_map pred] in P2; [congruence | lia | auto].
            -- destruct P3 as [P3 | (k0 & P3 & P5)]; [left; exact P3 |]. right. destruct k as [k |]; cbn [option_map] in P3; [| discriminate]. exists k. split; auto. rewrite app_length. cbn [length]. inversion P3. destruct k; [congruence | cbn in *; lia].
      - cbn [rspec fst snd]. exists []. cbn [app length]. split; [exact Fd |]. split; [destruct k; auto; lia |]. split; [| reflexivity]. left. destruct K as (K1 & K2 & _). intros V HV.
        assert (E0 : s_conflict s = []) by (destruct (s_conflict s) as [| x r]; auto; destruct (K2 x (or_introl eq_refl))). rewrite E0 in K1.
        destruct (agree_dec V (idxs rel n) L) as [H | H]; [exact H |]. exfalso. destruct (K1 V) as (l & [] & _). intros c Hc. apply in_app_or in Hc. destruct Hc as [Hc | Hc]; [| apply HV, Hc]. apply in_map_iff in Hc. destruct Hc as (W & <- & HW). apply blk_true. auto. }
    destruct k as [[| k] |].
    - cbn [rspec fst snd]. exists []. cbn [app length]. split; [exact Fd |]. split; [lia |]. split; [right; exists 0; auto | reflexivity].
    - apply Body; [reflexivity | congruence].
    - apply Body; [reflexivity | congruence].
  Qed.
End Enum.

(** ** The result in terms of names *)
Lemma known_idx_in : forall names vs i, In i (known_idx names vs) <-> exists v, In v vs /\ idx_of names v = Some i.
Proof.
  intros names vs i. unfold known_idx. rewrite in_flat_map. split.
  - intros (v & Hv & H). destruct (idx_of names v) as [j |] eqn:E; [| destruct H]. destruct H as [<- | []]. eauto.
  - intros (v & Hv & E). exists v. split; auto. rewrite E. now left.
Qed.
Lemma known_idx_lt : forall names vs i, In i (known_idx names vs) -> i < length names.
Proof. intros names vs i H. apply known_idx_in in H. destruct H as (v & _ & E). apply idx_some in E. eapply nth_some_lt; eauto. Qed.
Lemma add_vars_in : forall vs v, In v (add_vars vs []) <-> In v vs.
Proof. intros vs v. destruct (vars_all_ok vs [] []) as [_ H]; [split; [constructor | intros x; reflexivity] |]. unfold add_vars. rewrite H. cbn. reflexivity. Qed.
(** The enumerated variables, and the variables of the returned models. *)
Definition enumerated (mc : mconfig) (ec : econfig) (names : list var) (v : var) : Prop :=
  In v names /\ match ec_vars ec with Some vs => In v vs | None => is_relevant mc v = true end.
Definition shown (mc : mconfig) (ec : econfig) (names : list var) (v : var) : Prop :=
  In v names /\ is_relevant mc v = true /\
  (match ec_vars ec with Some vs => In v vs | None => True end \/ match ec_add ec with Some vs => In v vs | None => False end).
Lemma rel_spec : forall mc ec names i, NoDup names -> (In i (idxs (relevant_indices mc ec names) (length names)) <-> i < length names /\ enumerated mc ec names (nth i names dv)).
Proof.
  intros mc ec names i Nd. unfold relevant_indices, enumerated.
  assert (K : forall vs, In i (known_idx names vs) <-> i < length names /\ In (nth i names dv) vs).
  { intros vs. rewrite known_idx_in. split.
    - intros (v & Hv & E). pose proof (idx_some _ _ _ E) as E'. split; [eapply nth_some_lt; eauto |]. now rewrite (nth_of_some _ _ _ _ dv E').
    - intros [L H]. exists (nth i names dv). split; auto. now apply idx_nth. }
  assert (KI : i < length names -> In (nth i names dv) names) by (apply nth_In).
  destruct (ec_vars ec) as [vs |]; cbn [idxs]; [rewrite K; tauto |]. destruct (mc_aux mc) eqn:Ea; cbn [idxs].
  - rewrite in_seq. assert (R : forall v, is_relevant mc v = true) by (intros [x | a x]; cbn; auto). split; [intros [_ H]; cbn in H; auto | intros [H _]; lia].
  - rewrite K, filter_In, add_vars_in. tauto.
Qed.
Lemma all_spec : forall mc ec names i, NoDup names -> In i (idxs (relevant_all mc ec names) (length names)) ->
  i < length names /\ (is_relevant mc (nth i names dv) = true -> shown mc ec names (nth i names dv)).
Proof.
  intros mc ec names i Nd H. assert (R : In i (idxs (relevant_indices mc ec names) (length names)) -> i < length names /\ (is_relevant mc (nth i names dv) = true -> shown mc ec names (nth i names dv))).
  { intros K. apply rel_spec in K; auto. destruct K as [K1 [K2 K3]]. split; auto. intros K4. split; auto. split; auto. left. destruct (ec_vars ec); auto. }
  unfold relevant_all in H. destruct (relevant_indices mc ec names) as [idx |] eqn:E; [| apply R; exact H].
  destruct (unique_additional ec) as [| x xs] eqn:U; [apply R; exact H |]. cbn [idxs] in *. apply in_app_or in H. destruct H as [H | H]; [apply R; exact H |].
  pose proof (known_idx_lt _ _ _ H) as L. split; auto. intros Rv. apply known_idx_in in H. destruct H as (v & Hv & Ev). pose proof (idx_some _ _ _ Ev) as En. rewrite (nth_of_some _ _ _ _ dv En) in *.
  split; [eapply nth_error_In; eauto |]. split; auto. right. rewrite <- U in Hv. unfold unique_additional in Hv.
  assert (Hv' : In v (match ec_add ec with None => [] | Some vs => add_vars vs [] end)) by (destruct (ec_vars ec); [apply filter_In in Hv; apply Hv | exact Hv]).
  destruct (ec_add ec) as [vs |]; [exact (proj1 (add_vars_in vs v) Hv') | exact Hv'].
Qed.
Lemma all_shown : forall mc ec names v, NoDup names -> shown mc ec names v -> exists i, In i (idxs (relevant_all mc ec names) (length names)) /\ nth i names dv = v.
Proof.
  intros mc ec names v Nd (Hn & Hr & Hs). destruct (idx_in names v Hn) as (i & Ei & Li & En). exists i. split; auto.
  assert (R : enumerated mc ec names v -> In i (idxs (relevant_all mc ec names) (length names))).
  { intros He. assert (K : In i (idxs (relevant_indices mc ec names) (length names))) by (apply rel_spec; auto; rewrite En; auto).
    unfold relevant_all. destruct (relevant_indices mc ec names) as [idx |]; [| exact K]. destruct (unique_additional ec); [exact K | cbn [idxs] in *; apply in_or_app; auto]. }
  destruct Hs as [Hs | Hs]; [apply R; split; auto; destruct (ec_vars ec); auto |].
  destruct (ec_vars ec) as [vs |] eqn:Ev; [| apply R; split; auto; now rewrite Ev].
  destruct (memv v vs) eqn:Em; [apply R; split; auto; rewrite Ev; now apply memv_In |].
  assert (Hu : In v (unique_additional ec)). { unfold unique_additional. rewrite Ev. apply filter_In. split; [| now rewrite Em]. destruct (ec_add ec) as [ws |]; [now apply add_vars_in | destruct Hs]. }
  unfold relevant_all, relevant_indices. rewrite Ev. destruct (unique_additional ec) as [| x xs] eqn:U; [destruct Hu |]. cbn [idxs]. apply in_or_app. right. apply known_idx_in. eauto.
Qed.
Definition agrees (md : smodel) (V : valuation) (v : var) : Prop := (V v = true -> In v (m_pos md)) /\ (V v = false -> In v (m_neg md)).
Lemma asgn_pos : forall mc names idx W v, NoDup names -> (forall i, In i idx -> i < length names) ->
  (In v (m_pos (asgn mc names idx W)) <-> exists i, In i idx /\ nth i names dv = v /\ is_relevant mc v = true /\ W i = true).
Proof.
  intros mc names idx W v Nd HI. cbn [asgn m_pos]. rewrite in_map_iff. split.
  - intros (i & <- & H). apply filter_In in H. destruct H as [H1 H2]. apply andb_true_iff in H2. exists i. tauto.
  - intros (i & H1 & <- & H2 & H3). exists i. split; auto. apply filter_In. rewrite H2, H3. auto.
Qed.
Lemma asgn_neg : forall mc names idx W v, NoDup names -> (forall i, In i idx -> i < length names) ->
  (In v (m_neg (asgn mc names idx W)) <-> exists i, In i idx /\ nth i names dv = v /\ is_relevant mc v = true /\ W i = false).
Proof.
  intros mc names idx W v Nd HI. cbn [asgn m_neg]. rewrite in_map_iff. split.
  - intros (i & <- & H). apply filter_In in H. destruct H as [H1 H2]. apply andb_true_iff in H2. rewrite negb_true_iff in H2. exists i. tauto.
  - intros (i & H1 & <- & H2 & H3). exists i. split; auto. apply filter_In. rewrite H2, H3. auto.
Qed.
Lemma fop_snoc : forall A (R : A -> A -> Prop) l x, ForallOrdPairs R l -> (forall y, In y l -> R y x) -> ForallOrdPairs R (l ++ [x]).
Proof.
  intros A R l x. induction l as [| y r IH]; intros H K; cbn [app]; [repeat constructor |]. inversion H; subst. constructor; [| apply IH; auto; intros z Hz; apply K; now right].
  apply Forall_app. split; auto. constructor; [apply K; now left | constructor].
Qed.
Lemma fop_rev_map : forall A B (R : A -> A -> Prop) (Q : B -> B -> Prop) (f : A -> B) l, (forall a b, R a b -> Q (f b) (f a)) -> ForallOrdPairs R l -> ForallOrdPairs Q (map f (rev l)).
Proof.
  intros A B R Q f l HRQ. induction l as [| x r IH]; intros H; cbn [rev map]; [constructor |]. inversion H as [| ? ? Hx Hr]; subst. rewrite map_app. cbn [map]. apply fop_snoc; auto.
  intros y Hy. apply in_map_iff in Hy. destruct Hy as (z & <- & Hz). apply HRQ. rewrite Forall_forall in Hx. apply Hx. now apply in_rev.
Qed.
Definition clash (a b : smodel) (v : var) : Prop := (In v (m_pos a) /\ In v (m_neg b)) \/ (In v (m_neg a) /\ In v (m_pos b)).
Lemma enum_named : forall mc orc rounds fuel ec G m, g_min (mc_sat mc) <> MinNone -> sorting orc -> minv G m ->
  (forall v, enumerated mc ec (mi_names m) v -> is_relevant mc v = true) ->
  rspec (enum_loop mc orc rounds fuel (relevant_indices mc ec (mi_names m)) (relevant_all mc ec (mi_names m)) (ec_max ec) [] m) (fun r =>
    let ms := fst r in
    (forall md, In md ms -> exists V, satisfies V G /\ forall v, (In v (m_pos md) <-> shown mc ec (mi_names m) v /\ V v = true) /\ (In v (m_neg md) <-> shown mc ec (mi_names m) v /\ V v = false)) /\
    ForallOrdPairs (fun a b => exists v, enumerated mc ec (mi_names m) v /\ clash a b v) ms /\
    (match ec_max ec with Some k => length ms <= k | None => True end) /\
    ((exists k, ec_max ec = Some k /\ length ms = k) \/ forall V, satisfies V G -> exists md, In md ms /\ forall v, enumerated mc ec (mi_names m) v -> agrees md V v)).
Proof.
  intros mc orc rounds fuel ec G m Hm So I HR. set (names := mi_names m) in *. pose proof (n_nd _ _ I) as Nd. fold names in Nd.
  set (rel := relevant_indices mc ec names). set (all := relevant_all mc ec names). set (F := encs names G).
  assert (Rlt : forall i, In i (idxs rel (length names)) -> i < length names) by (intros i Hi; apply rel_spec in Hi; tauto).
  assert (Alt : forall i, In i (idxs all (length names)) -> i < length names) by (intros i Hi; apply all_spec in Hi; tauto).
  assert (Rall : forall i, In i (idxs rel (length names)) -> In i (idxs all (length names)) /\ is_relevant mc (nth i names dv) = true).
  { intros i Hi. pose proof (Rlt i Hi) as Li. apply rel_spec in Hi; auto. destruct Hi as [_ He]. pose proof (HR _ He) as Hr. split; auto.
    destruct (all_shown mc ec names (nth i names dv) Nd) as (j & Hj & Ej); [split; [apply He | split; auto; left; destruct He as [_ He]; destruct (ec_vars ec); auto] |].
    assert (j = i) by (apply (proj1 (NoDup_nth names dv) Nd); auto). now subst j. }
  pose proof (enum_loop_ok mc orc Hm So names F rel all Rlt Alt Rall fuel rounds (ec_max ec) [] [] m) as P.
  assert (P1 : loopinv names F rel [] m). { split; [cbn [map app]; exact (n_g _ _ I) |]. split; [reflexivity | symmetry; exact (n_len _ _ I)]. }
  specialize (P P1). assert (P2 : found mc names F rel all [] []) by (split; [reflexivity | split; [intros W [] | constructor]]). specialize (P P2). clear P1 P2.
  destruct (enum_loop mc orc rounds fuel rel all (ec_max ec) [] m) as [[ms m2] | |]; auto. cbn [rspec fst snd] in *. destruct P as (L & (E1 & E2 & E3) & Q1 & Q2 & _). rewrite app_nil_r in *.
  assert (Len : length ms = length L) by (rewrite E1, map_length, rev_length; reflexivity).
  assert (HV : forall i W, i < length names -> nval names W (nth i names dv) = W i) by (intros i W Hi; unfold nval; now rewrite idx_nth).
  assert (Pos : forall W v, In v (m_pos (asgn mc names (idxs all (length names)) W)) <-> shown mc ec names v /\ nval names W v = true).
  { intros W v. rewrite asgn_pos by auto. split.
    - intros (i & Hi & <- & Hr & Hw). pose proof (all_spec mc ec names i Nd Hi) as [Li Hs]. split; auto. now rewrite HV.
    - intros [Hs Hw]. destruct (all_shown mc ec names v Nd Hs) as (i & Hi & <-). exists i. split; auto. split; auto. split; [apply Hs |]. rewrite HV in Hw by auto. exact Hw. }
  assert (Neg : forall W v, In v (m_neg (asgn mc names (idxs all (length names)) W)) <-> shown mc ec names v /\ nval names W v = false).
  { intros W v. rewrite asgn_neg by auto. split.
    - intros (i & Hi & <- & Hr & Hw). pose proof (all_spec mc ec names i Nd Hi) as [Li Hs]. split; auto. now rewrite HV.
    - intros [Hs Hw]. destruct (all_shown mc ec names v Nd Hs) as (i & Hi & <-). exists i. split; auto. split; auto. split; [apply Hs |]. rewrite HV in Hw by auto. exact Hw. }
  assert (ES : forall v, enumerated mc ec names v -> shown mc ec names v) by (intros v He; split; [apply He | split; [auto |]; left; destruct He as [_ He]; destruct (ec_vars ec); auto]).
  assert (EI : forall v, enumerated mc ec names v -> exists i, In i (idxs rel (length names)) /\ nth i names dv = v).
  { intros v He. destruct (idx_in names v (proj1 He)) as (i & _ & Li & En). exists i. split; auto. apply rel_spec; auto. now rewrite En. }
  split; [| split; [| split]].
  - intros md Hmd. rewrite E1 in Hmd. apply in_map_iff in Hmd. destruct Hmd as (W & <- & HW). apply in_rev in HW. exists (nval names W). split; [apply all_nval; [exact (n_in _ _ I) | apply E2, HW] |]. intros v. split; [apply Pos | apply Neg].
  - rewrite E1. apply (fop_rev_map _ _ (differ names rel)); [| exact E3]. intros W W' (i & Hi & Ne). pose proof (Rlt i Hi) as Li. exists (nth i names dv). split; [now apply (rel_spec mc ec names i Nd) |].
    pose proof (proj2 (proj1 (rel_spec mc ec names i Nd) Hi)) as He. unfold clash. rewrite !Pos, !Neg, !HV by auto. pose proof (ES _ He). destruct (W i), (W' i); try congruence; auto.
  - rewrite Len. exact Q1.
  - destruct Q2 as [Q2 | (k & Q2 & Q3)]; [right | left; exists k; split; congruence]. intros V HVG. destruct (Q2 (vval names V)) as (W & HW & Ag); [apply all_vval; [exact (n_in _ _ I) | exact HVG] |].
    exists (asgn mc names (idxs all (length names)) W). split; [rewrite E1; apply in_map; now apply -> in_rev |]. intros v He. destruct (EI v He) as (i & Hi & En). specialize (Ag i Hi). unfold vval in Ag. rewrite En in Ag.
    assert (Ew : nval names W v = V v) by (rewrite <- En, HV by auto; congruence). split; intros E; [apply Pos | apply Neg]; split; auto; congruence.
Qed.

(** ** [count_models] *)
Section Count.
  Variables (mc : mconfig) (orc : oracle).
  Hypothesis Hm : g_min (mc_sat mc) <> MinNone.
  Hypothesis So : sorting orc.
  Variables (F : list (list nat)) (n : nat).
  Definition differ_on (W W' : nat -> bool) : Prop := exists i, i < n /\ W i <> W' i.
  Lemma count_loop_ok : forall fuel rounds max result L s, ginv (map (blk (seq 0 n)) L ++ F) s -> length (s_vars s) = n -> (forall W, In W L -> all_true W F) -> ForallOrdPairs differ_on L -> length L = result -> result <= S max ->
    rspec (count_loop mc orc rounds fuel max result s) (fun r => exists L', fst r = length L' /\ (forall W, In W L' -> all_true W F) /\ ForallOrdPairs differ_on L' /\ length L' <= S max /\
      (length L' = S max \/ forall V, all_true V F -> exists W, In W L' /\ forall i, i < n -> V i = W i)).
  Proof.
    intros fuel. induction rounds as [| rn IH]; intros max result L s G Ln HL PL EL Le; [exact Logic.I |]. cbn [count_loop]. destruct (Nat.leb_spec result max) as [Lm | Lm].
    2: { cbn [rspec fst]. exists L. split; [auto |]. split; auto. split; auto. split; [lia |]. left. lia. }
    pose proof (solve_ok_nil _ _ _ fuel s Hm So G) as K. destruct (solve (mc_sat mc) orc fuel s) as [[r s1] | |]; auto. destruct K as (G1 & L1 & K). cbn [fst snd rbind] in *. rewrite Ln in *. destruct r.
    - destruct K as (T1 & _ & T3 & _). set (W := model_val s1) in *. rewrite T3. change (map (fun i => mk_lit i (nth i (s_model s1) false)) (seq 0 n)) with (blk (seq 0 n) W).
      assert (TF : all_true W F) by (intros c Hc; apply T1, in_or_app; auto).
      assert (TD : forall W', In W' L -> differ_on W W').
      { intros W' H'. assert (X : clause_true W (blk (seq 0 n) W')) by (apply T1, in_or_app; left; now apply in_map). apply blk_true in X. destruct X as (i & Hi & Ne). apply in_seq in Hi. exists i. split; [lia | exact Ne]. }
      eapply rspec_bind; [apply (add_clause_ok (mc_sat mc) (map (blk (seq 0 n)) L ++ F)); [exact G1 |] |].
      + intros l Hl. apply in_map_iff in Hl. destruct Hl as (i & <- & Hi). apply in_seq in Hi. apply lvar_lt. rewrite mk_lit_var, L1. lia.
      + intros [b s2] (G2 & L2 & _). cbn [fst snd] in *. apply (IH max (S result) (W :: L)); auto; [congruence | | | cbn; congruence | lia].
        * intros W' [<- | H']; auto.
        * constructor; [apply Forall_forall; auto | exact PL].
    - cbn [rspec fst]. exists L. split; [auto |]. split; auto. split; auto. split; [lia |]. right. destruct K as (K1 & K2 & _). intros V HV.
      assert (E0 : s_conflict s1 = []) by (destruct (s_conflict s1) as [| x r]; auto; destruct (K2 x (or_introl eq_refl))). rewrite E0 in K1.
      destruct (agree_dec V (seq 0 n) L) as [(W & H1 & H2) | H]; [exists W; split; auto; intros i Hi; apply H2, in_seq; lia |]. exfalso. destruct (K1 V) as (l & [] & _).
      intros c Hc. apply in_app_or in Hc. destruct Hc as [Hc | Hc]; [| apply HV, Hc]. apply in_map_iff in Hc. destruct Hc as (W & <- & HW). apply blk_true. auto.
  Qed.
End Count.
