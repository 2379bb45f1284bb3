(** The Plaisted-Greenbaum transformation. *)
From Coq Require Import NArith ZArith List Bool Arith Lia.
From Verif Require Import Base EncodingModel Syntax FactoryModel FactoryInv FactoryBasics FactoryProofs FactorySpecs FactoryNary FactoryOps
  EvalProofs InvariantSpec HashConsProofs InvariantProofs HistoryProofs ConstraintModel ConstraintProofs OpsModel OpsProofs CcModel EncBasics
  PbModel CacheModel TransModel TreeSpec WorldProofs MetricsProofs EncodeProofs NnfProofs CnfProofs DefBasics TseitinProofs.
Import ListNotations.
Local Open Scope N_scope.

(** A loop over operands that leaves the world as it is. *)
Lemma x_mfold_keep : forall B (k : N -> B -> M B) (I : list (N * fml) -> B -> factory -> Prop) ops xs done W s b,
  inv W s -> (forall a b, mono (k a b)) -> Forall2 (hdl s) ops xs -> I done b s ->
  (forall d o x b t, In x xs -> inv W t -> ext s t -> hdl t o x -> I d b t -> xspec W t (k o b) (fun b' t' W' => W' = W /\ I (d ++ [(o, x)]) b' t')) ->
  xspec W s (mfold k ops b) (fun b' s' W' => W' = W /\ I (done ++ combine ops xs) b' s').
Proof.
  intros B k I ops. induction ops as [| o ops IH]; intros xs done W s b Hi Hm Hh HI H; inversion Hh as [| ? x ? xs' Hx Hh']; subst; cbn [mfold combine].
  - apply x_ret; [assumption |]. rewrite app_nil_r. auto.
  - eapply x_bind; [apply (H done o x); auto using ext_refl; left; reflexivity | intros; apply mono_mfold; assumption |].
    intros b' s1 W1 Hi1 He _ [-> HI1]. replace (done ++ (o, x) :: combine ops xs') with ((done ++ [(o, x)]) ++ combine ops xs') by (rewrite <- app_assoc; reflexivity).
    apply IH; auto; [eapply hdls_ext; eauto |]. intros d c y b2 t Hin Hi2 He2 Hc HI2. apply H; auto; [right; assumption | eapply ext_trans; eauto].
Qed.

Lemma atoms_keep : forall fuel x W s h, inv W s -> hdl s h x -> (depth x < fuel)%nat ->
  xspec W s (number_of_atoms fuel h) (fun n _ W' => W' = W /\ n = atoms x mod m64).
Proof.
  induction fuel as [| fuel IH]; intros x W s h Hi [Hv [Hd Hk]] Hf; [lia |]. cbn [number_of_atoms].
  rewrite (is_atomic_tree _ _ _ _ Hi Hv Hd). destruct (atomic x) eqn:Ha; [apply x_ret; [assumption | split; [reflexivity |]; destruct x; try discriminate; reflexivity] |].
  apply x_get_bind. destruct (oc_get h (oc_atoms (f_caches s))) as [b |] eqn:G.
  { apply x_ret; [assumption |]. split; [reflexivity |]. exact (hit_tree _ P_atoms _ _ _ _ _ (co_atoms _ _ _ (i_caches _ _ Hi)) Hd G). }
  destruct (open_node _ _ _ _ Hi Hv Hd) as [n [Hu [Hvs Hds]]]. eapply operandsM_bind; [exact Hu |].
  eapply x_bind with (Q1 := fun n _ W' => W' = W /\ n = atoms x mod m64); [| intros; apply mono_bind; [apply mono_put | intros; apply mono_ret] |].
  2:{ intros r s' W' Hi' He Hs' [-> ->]. apply x_put_end; auto. put_caches. exists x. split; [eapply vh_ext; eauto |].
      split; [eapply denotes_ext; eauto | reflexivity]. }
  rewrite (atoms_children x Ha). pose proof (hdls_children s h x n (i_wf _ _ Hi) (conj Hv (conj Hd Hk)) Hu) as Hch.
  eapply x_conseq; [apply (x_mfold_keep _ _ (fun d m _ => m = total_atoms (map snd d) mod m64) _ (children x) [] W s 0); auto |].
  - intros. apply mono_bind; [auto with mono | intros; apply mono_ret].
  - intros d o y b t Hy Hi' He Ho Hb. eapply x_bind; [apply (IH y); auto; apply children_depth in Hy; lia | intros; apply mono_ret |].
    intros m s1 W1 Hi1 He1 _ [-> Hm]. apply x_ret; [assumption |]. split; [reflexivity |]. rewrite map_app. cbn [map]. rewrite total_atoms_snoc. now apply add64_mod.
  - intros m s1 W1 _ _ _ [-> ->]. split; [reflexivity |]. cbn [app]. do 2 f_equal. clear -Hch. induction Hch; cbn [combine map]; [reflexivity | now f_equal].
Qed.

(* ------------------------------------------------------------------------------------------------------------------ *)
(** * The state *)

Definition litof (st : cnf_state) (p : N * fml) : lit := match snd p with FLit l => l | _ => getv st (fst p) end.
Definition lit_in (st : cnf_state) (p : N * fml) : Prop := is_flit (snd p) = false -> assoc N.eqb (fst p) (cs_variable st) <> None.
Definition st_le (st st' : cnf_state) : Prop := forall k l, assoc N.eqb k (cs_variable st) = Some l -> assoc N.eqb k (cs_variable st') = Some l.
Definition nary_lits (conj : bool) (v : valuation) (ls : list lit) : bool := if conj then forallb (lit_sem v) ls else existsb (lit_sem v) ls.

Definition pg_var (T : world) (s : factory) (h : N) (l : lit) : Prop :=
  exists x, hdl s h x /\ is_flit x = false /\ (exists i, l = Lit (VAux AuxCNF i) true) /\ known s (lit_var l) /\ ~ In (lit_var l) (fvars x)
  /\ forall v, T v -> lit_sem v l = sem v x.
(** The implication from the variable of a formula to the formula over the variables of its operands. *)
Definition pg_sem (st : cnf_state) (conj : bool) (p : N * fml) (ps : list (N * fml)) (y : fml) : Prop :=
  cnf_shape y = true /\ lit_in st p /\ Forall (lit_in st) ps /\ forall v, sem v y = negb (lit_sem v (litof st p)) || nary_lits conj v (map (litof st) ps).
Definition pg_def (st : cnf_state) (s : factory) (h r : N) : Prop :=
  exists conj n xs y, unpack s h = Ok n /\ hdl s h (fnary conj xs) /\ hdl s r y /\ pg_sem st conj (h, fnary conj xs) (combine (node_operands n) xs) y.
Definition pg_ok (T : world) (st : cnf_state) (s : factory) : Prop :=
  (forall h l, assoc N.eqb h (cs_variable st) = Some l -> pg_var T s h l) /\ (forall h r, assoc N.eqb h (cs_formula st) = Some r -> pg_def st s h r).

Lemma st_le_refl : forall st, st_le st st.
Proof. intros st k l H. exact H. Qed.
Lemma st_le_trans : forall a b c, st_le a b -> st_le b c -> st_le a c.
Proof. intros a b c H1 H2 k l H. auto. Qed.
Lemma lit_in_le : forall st st' p, st_le st st' -> lit_in st p -> lit_in st' p.
Proof.
  intros st st' p Hle H Hl. specialize (H Hl). destruct (assoc N.eqb (fst p) (cs_variable st)) as [l |] eqn:E; [| congruence]. rewrite (Hle _ _ E). discriminate.
Qed.
Lemma litof_le : forall st st' p, st_le st st' -> lit_in st p -> litof st' p = litof st p.
Proof.
  intros st st' [h x] Hle H. unfold litof, lit_in, getv in *. cbn [fst snd] in *. destruct x; try reflexivity; specialize (H eq_refl);
    (destruct (assoc N.eqb h (cs_variable st)) as [l' |] eqn:E; [| congruence]); rewrite (Hle _ _ E); reflexivity.
Qed.
Lemma lits_le : forall st st' ps, st_le st st' -> Forall (lit_in st) ps -> map (litof st') ps = map (litof st) ps.
Proof. intros st st' ps Hle H. apply map_ext_in. intros p Hp. apply litof_le; [assumption |]. rewrite Forall_forall in H. auto. Qed.
Lemma lits_in_le : forall st st' ps, st_le st st' -> Forall (lit_in st) ps -> Forall (lit_in st') ps.
Proof. intros st st' ps Hle H. eapply Forall_impl; [| exact H]. intros p. apply lit_in_le. assumption. Qed.
Lemma pg_sem_le : forall st st' conj p ps y, st_le st st' -> pg_sem st conj p ps y -> pg_sem st' conj p ps y.
Proof.
  intros st st' conj p ps y Hle [H1 [H2 [H3 H4]]]. split; [assumption |]. split; [eapply lit_in_le; eauto |]. split; [eapply lits_in_le; eauto |].
  intros v. rewrite H4, (litof_le st st'), (lits_le st st') by assumption. reflexivity.
Qed.
Lemma pg_var_ext : forall T T' s s' h l, ext s s' -> sub T' T -> pg_var T s h l -> pg_var T' s' h l.
Proof.
  intros T T' s s' h l He Hs [x [H1 [H2 [H3 [H4 [H5 H6]]]]]]. exists x. split; [eapply hdl_ext; eauto |]. split; [assumption |]. split; [assumption |].
  split; [eapply known_ext; eauto |]. split; auto.
Qed.
Lemma pg_def_ext : forall st st' s s' h r, ext s s' -> st_le st st' -> pg_def st s h r -> pg_def st' s' h r.
Proof.
  intros st st' s s' h r He Hle [conj [n [xs [y [H1 [H2 [H3 H4]]]]]]]. exists conj, n, xs, y. split; [eapply unpack_ext; [apply He | assumption] |].
  split; [eapply hdl_ext; eauto |]. split; [eapply hdl_ext; eauto | eapply pg_sem_le; eauto].
Qed.
Lemma pg_ok_ext : forall T T' st s s', ext s s' -> sub T' T -> pg_ok T st s -> pg_ok T' st s'.
Proof.
  intros T T' st s s' He Hs [H1 H2]. split; [intros h l H; eapply pg_var_ext; eauto |]. intros h r H. eapply pg_def_ext; eauto using st_le_refl.
Qed.

(** In the world of definitions the literals stand for the operands. *)
Lemma lit_means : forall T st s h x v, pg_ok T st s -> hdl s h x -> lit_in st (h, x) -> T v -> lit_sem v (litof st (h, x)) = sem v x.
Proof.
  intros T st s h x v [Hv _] Hx Hin HT. unfold lit_in in Hin. cbn [fst snd] in Hin. destruct (is_flit x) eqn:E.
  - destruct x; try discriminate. reflexivity.
  - specialize (Hin eq_refl). destruct (assoc N.eqb h (cs_variable st)) as [l |] eqn:Ea; [| congruence].
    destruct (Hv h l Ea) as [x' [Hx' [_ [_ [_ [_ Hs]]]]]]. assert (x' = x) by (eapply denotes_fun; [apply Hx' | apply Hx]). subst x'.
    assert (El : litof st (h, x) = l) by (unfold litof, getv; cbn [fst snd]; rewrite Ea; destruct x; try discriminate; reflexivity).
    rewrite El. auto.
Qed.
Lemma lits_mean : forall T st s ops xs v, pg_ok T st s -> Forall2 (hdl s) ops xs -> Forall (lit_in st) (combine ops xs) -> T v ->
  map (lit_sem v) (map (litof st) (combine ops xs)) = map (sem v) xs.
Proof.
  intros T st s ops xs v Hok HF. induction HF as [| o x ops xs Hx HF IH]; intros Hin HT; cbn [combine map] in *; [reflexivity |].
  inversion Hin; subst. f_equal; [eapply lit_means; eauto | auto].
Qed.
Lemma nary_lits_map : forall conj v ls, nary_lits conj v ls = if conj then forallb (fun b => b) (map (lit_sem v) ls) else existsb (fun b => b) (map (lit_sem v) ls).
Proof. intros [] v ls; cbn [nary_lits]; [now rewrite forallb_map | now rewrite existsb_map]. Qed.
Lemma nary_sem_map : forall conj v xs, sem v (fnary conj xs) = if conj then forallb (fun b => b) (map (sem v) xs) else existsb (fun b => b) (map (sem v) xs).
Proof. intros conj v xs. rewrite sem_fnary. unfold nary_sem. destruct conj; [now rewrite forallb_map | now rewrite existsb_map]. Qed.

Lemma pg_sem_true : forall T st s conj h n xs y v, wf s -> pg_ok T st s -> hdl s h (fnary conj xs) -> unpack s h = Ok n ->
  pg_sem st conj (h, fnary conj xs) (combine (node_operands n) xs) y -> T v -> sem v y = true.
Proof.
  intros T st s conj h n xs y v Hw Hok Hx Hu [_ [Hin [Hins Hs]]] HT. rewrite Hs. rewrite (lit_means T st s h (fnary conj xs) v) by assumption.
  assert (Hch : Forall2 (hdl s) (node_operands n) xs) by (pose proof (hdls_children s h _ n Hw Hx Hu) as H; destruct conj; exact H).
  rewrite nary_lits_map, (lits_mean T st s _ xs v Hok Hch Hins HT), nary_sem_map. destruct conj; [destruct (forallb _ _) | destruct (existsb _ _)]; reflexivity.
Qed.

(* ------------------------------------------------------------------------------------------------------------------ *)
(** * The steps *)

Definition pg_step (T : world) (s : factory) (st st' : cnf_state) (s' : factory) : Prop :=
  st_le st st' /\ exists T', grows T T' s /\ closed T' s' /\ pg_ok T' st' s'.
Lemma pg_step_refl : forall T s st, closed T s -> pg_ok T st s -> pg_step T s st st s.
Proof. intros T s st Hc Hok. split; [apply st_le_refl |]. exists T. split; [apply grows_refl | auto]. Qed.

Lemma pg_variable_spec : forall T W s h x st, inv W s -> closed T s -> pg_ok T st s -> hdl s h x -> ts_shape x ->
  xspec W s (pg_variable h st) (fun p s' W' => W' = W /\ fst p = litof (snd p) (h, x) /\ lit_in (snd p) (h, x) /\ known s' (lit_var (fst p))
    /\ (forall k, assoc N.eqb k (cs_formula (snd p)) = assoc N.eqb k (cs_formula st)) /\ pg_step T s st (snd p) s').
Proof.
  intros T W s h x st Hi Hc Hok Hx Hsh. unfold pg_variable.
  assert (Elit : is_literal h = is_flit x) by (apply (literal_tree s); [apply Hi | apply Hx | apply Hx]). rewrite Elit.
  destruct (is_flit x) eqn:El.
  - destruct x; try discriminate. destruct (vh_operands s h (i_wf _ _ Hi) (proj1 Hx)) as [n [Hu _]]. eapply x_unpack_bind; [exact Hu |].
    pose proof (denotes_by_node _ _ _ _ Hu (proj1 (proj2 Hx))) as Hn.
    assert (En : n = NLit l). { destruct n; try discriminate; try (destruct Hn as [? [Hn _]]; discriminate); try (destruct Hn as [? [? [Hn _]]]; discriminate). injection Hn as <-. reflexivity. }
    subst n. apply x_ret; [assumption |]. split; [reflexivity |]. split; [reflexivity |]. split; [intros E; discriminate |].
    split; [apply (proj2 (proj2 Hx)); left; reflexivity |]. split; [reflexivity | apply pg_step_refl; assumption].
  - destruct (assoc N.eqb h (cs_variable st)) as [l |] eqn:Ea.
    + apply x_ret; [assumption |]. cbn [fst snd]. split; [reflexivity |]. split; [unfold litof, getv; cbn [fst snd]; rewrite Ea; destruct x; try discriminate; reflexivity |].
      split; [intros _; cbn [fst]; congruence |]. split; [destruct (proj1 Hok h l Ea) as [? [_ [_ [_ [Hk _]]]]]; exact Hk |]. split; [reflexivity | apply pg_step_refl; assumption].
    + eapply x_bind; [apply x_new_aux; assumption | intros; apply mono_ret |]. intros u s1 W1 Hi1 He1 _ [-> [i [Eu [Hnk Hk]]]].
      apply x_ret; [assumption |]. cbn [fst snd]. set (st' := cs_add_variable h (Lit u true) st).
      assert (Eas : assoc N.eqb h (cs_variable st') = Some (Lit u true)) by (unfold st'; cbn; rewrite N.eqb_refl; reflexivity).
      assert (Hle : st_le st st').
      { intros k l Hkl. unfold st'. cbn [cs_add_variable cs_variable assoc]. destruct (N.eqb_spec k h) as [-> | _]; [congruence | assumption]. }
      split; [reflexivity |]. split; [unfold litof, getv; cbn [fst snd]; rewrite Eas; destruct x; try discriminate; reflexivity |].
      split; [intros _; cbn [fst]; congruence |]. split; [exact Hk |]. split; [reflexivity |]. split; [assumption |].
      assert (Hnx : ~ In u (fvars x)) by (intros H; apply Hnk; apply (proj2 (proj2 Hx)); assumption).
      exists (define T u x). split; [eapply define_grows; eauto; apply Hx |].
      split; [apply define_closed; [eapply closed_ext; eauto | assumption | eapply kn_ext; [exact He1 | apply Hx]] |].
      destruct Hok as [Hv Hf]. split.
      * intros k l Hkl. unfold st' in Hkl. cbn [cs_add_variable cs_variable assoc] in Hkl. destruct (N.eqb_spec k h) as [-> | _].
        -- injection Hkl as <-. exists x. split; [eapply hdl_ext; eauto |]. split; [assumption |]. split; [exists i; subst u; reflexivity |].
           split; [exact Hk |]. split; [exact Hnx |]. intros v [_ Ev]. exact Ev.
        -- eapply pg_var_ext; [exact He1 | | apply Hv; exact Hkl]. intros v H. apply H.
      * intros k r Hkr. eapply pg_def_ext; [exact He1 | exact Hle |]. apply Hf. exact Hkr.
Qed.

Lemma mono_pg_variable : forall h st, mono (pg_variable h st).
Proof.
  intros. unfold pg_variable. destruct (is_literal h).
  - apply mono_bind; [apply mono_unpackM |]. intros []; try apply mono_fail. apply mono_ret.
  - destruct (assoc N.eqb h (cs_variable st)); [apply mono_ret |]. apply mono_bind; [apply mono_f_new_aux | intros; apply mono_ret].
Qed.
Lemma mono_compute_pos : forall h st, mono (compute_pos_polarity h st).
Proof.
  intros. unfold compute_pos_polarity. destruct (assoc N.eqb h (cs_formula st)); [apply mono_ret |]. apply mono_bind; [apply mono_pg_variable |]. intros [pg st1].
  apply mono_bind; [apply mono_unpackM |]. intros n. apply mono_bind; [| intros; apply mono_ret]. destruct n; try apply mono_fail.
  - apply mono_bind; [apply mono_mfold; intros | intros; apply mono_bind; [auto with mono | intros; apply mono_ret]].
    apply mono_bind; [apply mono_pg_variable |]. intros. apply mono_bind; [auto with mono | intros; apply mono_ret].
  - apply mono_bind; [apply mono_mfold; intros | intros; apply mono_bind; [auto with mono | intros; apply mono_ret]].
    apply mono_bind; [apply mono_pg_variable | intros; apply mono_ret].
Qed.
Lemma mono_compute_transformation : forall fuel h st, mono (compute_transformation fuel h st).
Proof.
  induction fuel as [| fuel IH]; intros h st; cbn [compute_transformation]; [apply mono_nofuel |]. apply mono_bind; [apply mono_unpackM |].
  assert (H : forall ops, mono (number_of_atoms (S fuel) h ;;; p <-- compute_pos_polarity h st ;;
          q <-- mfold (fun op (q : list N * cnf_state) => r <-- compute_transformation fuel op (snd q) ;; ret (fst q ++ [fst r], snd r)) ops ([fst p], snd p) ;;
          r <-- f_and (fst q) ;; ret (r, snd q))).
  { intros ops. apply mono_bind; [auto with mono |]. intros _. apply mono_bind; [apply mono_compute_pos |]. intros p.
    apply mono_bind; [apply mono_mfold; intros; apply mono_bind; [apply IH | intros; apply mono_ret] |]. intros q. apply mono_bind; [auto with mono | intros; apply mono_ret]. }
  intros []; try apply mono_fail; try apply mono_ret; apply H.
Qed.
Global Hint Resolve mono_pg_variable mono_compute_pos mono_compute_transformation : mono.

Lemma pg_step_trans : forall T s st st1 s1 st2 s2 T1, grows T T1 s -> ext s s1 -> st_le st st1 -> pg_step T1 s1 st1 st2 s2 -> pg_step T s st st2 s2.
Proof.
  intros T s st st1 s1 st2 s2 T1 Hg He Hle [Hle2 [T2 [Hg2 [Hc2 Hok2]]]]. split; [eapply st_le_trans; eauto |]. exists T2. split; [eapply grows_trans; eauto | auto].
Qed.

(** Loops that choose variables for the operands. *)
Definition pg_lits (T : world) (s0 : factory) (st0 : cnf_state) (d : list (N * fml)) (st : cnf_state) (s : factory) : Prop :=
  Forall (lit_in st) d /\ Forall (fun l => known s (lit_var l)) (map (litof st) d)
  /\ (forall k, assoc N.eqb k (cs_formula st) = assoc N.eqb k (cs_formula st0)) /\ pg_step T s0 st0 st s.

Lemma pg_lits_step : forall T W s0 st0 d st s o x, inv W s -> ext s0 s -> hdl s o x -> ts_shape x -> pg_lits T s0 st0 d st s ->
  xspec W s (pg_variable o st) (fun p s' W' => W' = W /\ fst p = litof (snd p) (o, x) /\ known s' (lit_var (fst p)) /\ st_le st (snd p) /\ pg_lits T s0 st0 (d ++ [(o, x)]) (snd p) s').
Proof.
  intros T W s0 st0 d st s o x Hi He Hx Hsh [H1 [H2 [H3 [H4 [T1 [Hg1 [Hc1 Hok1]]]]]]].
  eapply x_conseq; [apply (pg_variable_spec T1 W s o x st); assumption |]. intros [l st'] s' W' Hi' He' _ [-> [El [Hin [Hk [Hf Hst]]]]]. cbn [fst snd] in *.
  split; [reflexivity |]. split; [assumption |]. split; [assumption |]. split; [apply Hst |].
  split; [apply Forall_app; split; [eapply lits_in_le; [apply Hst | assumption] | constructor; [assumption | constructor]] |].
  split; [| split; [intros k; rewrite Hf; apply H3 | eapply pg_step_trans; eauto]].
  rewrite map_app. apply Forall_app. split.
  - rewrite (lits_le st st' d) by (try apply Hst; assumption). eapply Forall_impl; [| exact H2]. intros. eapply known_ext; eauto.
  - cbn [map]. rewrite <- El. constructor; [assumption | constructor].
Qed.

Definition pos_post (T : world) (s0 : factory) (st0 : cnf_state) (W : world) (conj : bool) (p : N * fml) (ps : list (N * fml)) (r : N * cnf_state) (s : factory) (W' : world) : Prop :=
  W' = W /\ pg_step T s0 st0 (snd r) s /\ exists y, hdl s (fst r) y /\ pg_sem (snd r) conj p ps y.

Lemma lits_or : forall v l ls, existsb (lit_sem v) (lit_negate l :: ls) = negb (lit_sem v l) || nary_lits false v ls.
Proof. intros v l ls. cbn [existsb nary_lits]. now rewrite lit_negate_sem. Qed.

Lemma compute_pos_spec : forall T W s h conj xs n st, inv W s -> closed T s -> pg_ok T st s -> hdl s h (fnary conj xs) -> unpack s h = Ok n ->
  Forall ts_shape xs ->
  xspec W s (compute_pos_polarity h st) (pos_post T s st W conj (h, fnary conj xs) (combine (node_operands n) xs)).
Proof.
  intros T W s h conj xs n st Hi Hc Hok Hx Hu Hsh. unfold compute_pos_polarity.
  destruct (assoc N.eqb h (cs_formula st)) as [r |] eqn:Ea.
  { apply x_ret; [assumption |]. split; [reflexivity |]. cbn [fst snd]. split; [apply pg_step_refl; assumption |].
    destruct (proj2 Hok h r Ea) as [conj' [n' [xs' [y [Hu' [Hx' [Hy Hs]]]]]]]. assert (n' = n) by congruence. subst n'.
    assert (E : fnary conj' xs' = fnary conj xs) by (eapply denotes_fun; [apply Hx' | apply Hx]). exists y. split; [assumption |].
    destruct conj', conj; try discriminate; injection E as ->; assumption. }
  assert (Hch : Forall2 (hdl s) (node_operands n) xs) by (pose proof (hdls_children s h _ n (i_wf _ _ Hi) Hx Hu) as H; destruct conj; exact H).
  eapply x_bind; [apply (pg_variable_spec T W s h (fnary conj xs) st); auto; right; eauto | |].
  { intros [pg st1]. apply mono_bind; [apply mono_unpackM |]. intros n0. apply mono_bind; [| intros; apply mono_ret]. destruct n0; try apply mono_fail.
    - apply mono_bind; [apply mono_mfold; intros | intros; apply mono_bind; [auto with mono | intros; apply mono_ret]].
      apply mono_bind; [apply mono_pg_variable |]. intros. apply mono_bind; [auto with mono | intros; apply mono_ret].
    - apply mono_bind; [apply mono_mfold; intros | intros; apply mono_bind; [auto with mono | intros; apply mono_ret]].
      apply mono_bind; [apply mono_pg_variable | intros; apply mono_ret]. }
  intros [pg st1] s1 W1 Hi1 He1 _ [-> [Epg [Hpin [Hpk [Hform Hst1]]]]]. cbn [fst snd] in *.
  eapply x_unpack_bind; [eapply unpack_ext; [apply He1 | exact Hu] |].
  assert (Hch1 : Forall2 (hdl s1) (node_operands n) xs) by (eapply hdls_ext; eauto).
  pose proof (denotes_by_node _ _ _ _ Hu (proj1 (proj2 Hx))) as Hn.
  assert (Hinit : pg_lits T s st [] st1 s1) by (split; [constructor |]; split; [constructor |]; split; assumption).
  (* the end *)
  assert (Hend : forall (m : M (N * cnf_state)), mono m -> xspec W s1 m (fun q s' W' => W' = W /\ pg_lits T s st (combine (node_operands n) xs) (snd q) s' /\ st_le st1 (snd q)
        /\ exists y, hdl s' (fst q) y /\ cnf_shape y = true /\ forall v, sem v y = negb (lit_sem v pg) || nary_lits conj v (map (litof (snd q)) (combine (node_operands n) xs))) ->
      xspec W s1 (q <-- m ;; ret (fst q, cs_add_formula h (fst q) (snd q))) (pos_post T s st W conj (h, fnary conj xs) (combine (node_operands n) xs))).
  { intros m _ Hm. eapply x_bind; [exact Hm | intros; apply mono_ret |]. intros [r st2] s2 W2 Hi2 He2 _ [-> [[L1 [L2 [L3 [L4 [T2 [Hg2 [Hc2 Hok2]]]]]]] [Hle [y [Hy [Hcn Hs]]]]]].
    cbn [fst snd] in *. apply x_ret; [assumption |]. split; [reflexivity |]. cbn [fst snd]. set (st3 := cs_add_formula h r st2).
    assert (Hle3 : st_le st2 st3) by (intros k l H; exact H).
    assert (Hsem : pg_sem st3 conj (h, fnary conj xs) (combine (node_operands n) xs) y).
    { apply (pg_sem_le st2 st3); [assumption |]. split; [assumption |]. split; [apply (lit_in_le st1 st2); assumption |]. split; [assumption |]. intros v. rewrite Hs.
      rewrite (litof_le st1 st2) by assumption. rewrite <- Epg. reflexivity. }
    split; [| exists y; auto]. split; [eapply st_le_trans; eauto |]. exists T2. split; [assumption |]. split; [assumption |]. destruct Hok2 as [Hv2 Hf2]. split; [exact Hv2 |].
    intros k q Hkq. unfold st3 in Hkq. cbn [cs_add_formula cs_formula assoc] in Hkq. destruct (N.eqb_spec k h) as [-> | _].
    - injection Hkq as <-. assert (He02 : ext s s2) by (eapply ext_trans; eauto). exists conj, n, xs, y. split; [eapply unpack_ext; [apply He02 | exact Hu] |].
      split; [eapply hdl_ext; eauto |]. split; assumption.
    - eapply pg_def_ext; [apply ext_refl | exact Hle3 | apply Hf2; exact Hkq]. }
  rewrite Forall_forall in Hsh. destruct conj.
  - assert (En : exists ops, n = NAnd ops) by (destruct n; try discriminate; try (destruct Hn as [? [Hn _]]; discriminate); try (destruct Hn as [? [? [Hn _]]]; discriminate); eauto).
    destruct En as [ops ->]. cbn [node_operands] in *. apply Hend.
    { apply mono_bind; [apply mono_mfold; intros | intros; apply mono_bind; [auto with mono | intros; apply mono_ret]].
      apply mono_bind; [apply mono_pg_variable |]. intros. apply mono_bind; [auto with mono | intros; apply mono_ret]. }
    eapply x_bind with (Q1 := fun q s' W' => W' = W /\ st_le st1 (snd q) /\ pg_lits T s st (combine ops xs) (snd q) s'
       /\ exists ys, Forall2 (hdl s') (fst q) ys /\ Forall2 (fun l y => is_clause_of [lit_negate pg; l] y) (map (litof (snd q)) (combine ops xs)) ys).
    + apply (x_mfold_keep _ _ (fun d (q : list N * cnf_state) s' => st_le st1 (snd q) /\ pg_lits T s st d (snd q) s'
       /\ exists ys, Forall2 (hdl s') (fst q) ys /\ Forall2 (fun l y => is_clause_of [lit_negate pg; l] y) (map (litof (snd q)) d) ys) ops xs [] W s1 ([], st1)); auto.
      * intros. apply mono_bind; [apply mono_pg_variable |]. intros. apply mono_bind; [auto with mono | intros; apply mono_ret].
      * split; [apply st_le_refl |]. split; [assumption |]. exists []. split; constructor.
      * intros d o x [cs st2] t Hxin Hit Het Ho [Hle2 [Hl [ys [Hys HF]]]]. cbn [fst snd] in *.
        eapply x_bind; [apply (pg_lits_step T W s st d st2 t o x); auto; eapply ext_trans; eauto | |].
        { intros. apply mono_bind; [auto with mono | intros; apply mono_ret]. }
        intros [l st3] t2 W2 Hi2 He2 _ [-> [El [Hlk [Hle3 Hl3]]]]. cbn [fst snd] in *.
        eapply x_bind; [apply (x_clause W t2 [lit_negate pg; l]); [assumption |] | intros; apply mono_ret |].
        { constructor; [rewrite lit_negate_var; eapply known_ext; [exact (ext_trans _ _ _ Het He2) | exact Hpk] |]. constructor; [assumption | constructor]. }
        intros c t3 W3 Hi3 He3 _ [-> [y [Hy Hcl]]]. apply x_ret; [assumption |]. cbn [fst snd]. split; [reflexivity |]. split; [eapply st_le_trans; eauto |].
        split.
        { destruct Hl3 as [A1 [A2 [A3 [A4 [T3 [A5 [A6 A7]]]]]]]. split; [assumption |]. split; [eapply Forall_impl; [| exact A2]; intros; eapply known_ext; eauto |].
          split; [assumption |]. split; [assumption |]. exists T3. split; [assumption |]. split; [eapply closed_ext; eauto | eapply pg_ok_ext; [exact He3 | apply sub_refl | assumption]]. }
        exists (ys ++ [y]). split; [apply Forall2_app; [eapply hdls_ext; [exact (ext_trans _ _ _ He2 He3) | exact Hys] | constructor; [assumption | constructor]] |].
        rewrite map_app. apply Forall2_app; [rewrite (lits_le st2 st3) by (try assumption; apply Hl); assumption |]. cbn [map]. rewrite <- El. constructor; [assumption | constructor].
    + intros. apply mono_bind; [auto with mono | intros; apply mono_ret].
    + intros [cs st2] s2 W2 Hi2 He2 _ [-> [Hle2 [Hl [ys [Hys HF]]]]]. cbn [fst snd] in *.
      eapply x_bind; [apply (x_conj W s2 cs ys); [assumption | assumption |] | intros; apply mono_ret |].
      { clear -HF. remember (map (litof st2) (combine ops xs)) as ls. clear Heqls. induction HF as [| ? ? ? ? Hh]; constructor; [apply Hh | assumption]. }
      intros r s3 W3 Hi3 He3 _ [-> [y [Hy [Hcn [Hs _]]]]]. apply x_ret; [assumption |]. cbn [fst snd]. split; [reflexivity |]. split.
      { destruct Hl as [A1 [A2 [A3 [A4 [T3 [A5 [A6 A7]]]]]]]. split; [assumption |]. split; [eapply Forall_impl; [| exact A2]; intros; eapply known_ext; eauto |].
        split; [assumption |]. split; [assumption |]. exists T3. split; [assumption |]. split; [eapply closed_ext; eauto | eapply pg_ok_ext; [exact He3 | apply sub_refl | assumption]]. }
      split; [assumption |]. exists y. split; [assumption |]. split; [assumption |]. intros v. rewrite Hs. clear -HF. cbn [nary_lits].
      induction HF as [| l z ls zs [_ [Hz _]] HF IH]; cbn [forallb]; [now rewrite orb_true_r |]. rewrite IH, Hz. cbn [existsb]. rewrite lit_negate_sem, orb_false_r.
      destruct (lit_sem v pg), (lit_sem v l); reflexivity.
  - assert (En : exists ops, n = NOr ops) by (destruct n; try discriminate; try (destruct Hn as [? [Hn _]]; discriminate); try (destruct Hn as [? [? [Hn _]]]; discriminate); eauto).
    destruct En as [ops ->]. cbn [node_operands] in *. apply Hend.
    { apply mono_bind; [apply mono_mfold; intros | intros; apply mono_bind; [auto with mono | intros; apply mono_ret]].
      apply mono_bind; [apply mono_pg_variable | intros; apply mono_ret]. }
    eapply x_bind with (Q1 := fun q s' W' => W' = W /\ st_le st1 (snd q) /\ pg_lits T s st (combine ops xs) (snd q) s'
       /\ fst q = lit_negate pg :: map (litof (snd q)) (combine ops xs)).
    + apply (x_mfold_keep _ _ (fun d (q : list lit * cnf_state) s' => st_le st1 (snd q) /\ pg_lits T s st d (snd q) s'
       /\ fst q = lit_negate pg :: map (litof (snd q)) d) ops xs [] W s1 ([lit_negate pg], st1)); auto.
      * intros. apply mono_bind; [apply mono_pg_variable | intros; apply mono_ret].
      * split; [apply st_le_refl |]. split; [assumption | reflexivity].
      * intros d o x [cs st2] t Hxin Hit Het Ho [Hle2 [Hl Hcs]]. cbn [fst snd] in *.
        eapply x_bind; [apply (pg_lits_step T W s st d st2 t o x); auto; eapply ext_trans; eauto | intros; apply mono_ret |].
        intros [l st3] t2 W2 Hi2 He2 _ [-> [El [Hlk [Hle3 Hl3]]]]. cbn [fst snd] in *. apply x_ret; [assumption |]. cbn [fst snd]. split; [reflexivity |].
        split; [eapply st_le_trans; eauto |]. split; [assumption |]. subst cs. rewrite map_app, (lits_le st2 st3) by (try assumption; apply Hl). cbn [map app]. rewrite <- El. reflexivity.
    + intros. apply mono_bind; [auto with mono | intros; apply mono_ret].
    + intros [cs st2] s2 W2 Hi2 He2 _ [-> [Hle2 [Hl Hcs]]]. cbn [fst snd] in *.
      eapply x_bind; [apply (x_clause W s2 cs); [assumption |] | intros; apply mono_ret |].
      { subst cs. constructor; [rewrite lit_negate_var; eapply known_ext; eauto | apply Hl]. }
      intros r s3 W3 Hi3 He3 _ [-> [y [Hy Hcl]]]. apply x_ret; [assumption |]. cbn [fst snd]. split; [reflexivity |]. split.
      { destruct Hl as [A1 [A2 [A3 [A4 [T3 [A5 [A6 A7]]]]]]]. split; [assumption |]. split; [eapply Forall_impl; [| exact A2]; intros; eapply known_ext; eauto |].
        split; [assumption |]. split; [assumption |]. exists T3. split; [assumption |]. split; [eapply closed_ext; eauto | eapply pg_ok_ext; [exact He3 | apply sub_refl | assumption]]. }
      split; [assumption |]. exists y. split; [assumption |]. split; [apply Hcl |]. intros v. rewrite (proj1 (proj2 Hcl)). subst cs. apply lits_or.
Qed.

(** The clauses of a formula: each variable implies its formula, and the definitions satisfy the clauses. *)
Definition tr_post (T : world) (s0 : factory) (st0 : cnf_state) (W : world) (p : N * fml) (r : N * cnf_state) (s : factory) (W' : world) : Prop :=
  W' = W /\ st_le st0 (snd r) /\ lit_in (snd r) p /\ exists T', grows T T' s0 /\ closed T' s /\ pg_ok T' (snd r) s
  /\ exists y, hdl s (fst r) y /\ cnf_shape y = true /\ (forall v, T' v -> sem v y = true)
  /\ (forall v, sem v y = true -> lit_sem v (litof (snd r) p) = true -> sem v (snd p) = true).

Definition tr_rest (fuel : nat) (ops : list N) (p : N * cnf_state) : M (N * cnf_state) :=
  q <-- mfold (fun op (q : list N * cnf_state) => r <-- compute_transformation fuel op (snd q) ;; ret (fst q ++ [fst r], snd r)) ops ([fst p], snd p) ;;
  r <-- f_and (fst q) ;; ret (r, snd q).
Lemma mono_tr_rest : forall fuel ops p, mono (tr_rest fuel ops p).
Proof.
  intros. apply mono_bind; [apply mono_mfold; intros; apply mono_bind; [auto with mono | intros; apply mono_ret] |]. intros q. apply mono_bind; [auto with mono | intros; apply mono_ret].
Qed.

(** What the loop over the operands has established. *)
Definition tr_inv (T : world) (s0 : factory) (st0 : cnf_state) (y0 : fml) (d : list (N * fml)) (q : list N * cnf_state) (s : factory) : Prop :=
  st_le st0 (snd q) /\ Forall (lit_in (snd q)) d /\ exists T', grows T T' s0 /\ closed T' s /\ pg_ok T' (snd q) s
  /\ exists ys, Forall2 (hdl s) (fst q) (y0 :: ys) /\ Forall (fun y => cnf_shape y = true) ys /\ (forall v, T' v -> forallb (sem v) ys = true)
  /\ (forall v, forallb (sem v) ys = true -> forall p, In p d -> lit_sem v (litof (snd q) p) = true -> sem v (snd p) = true).

Lemma compute_transformation_spec : forall fuel x T W s h st, inv W s -> closed T s -> pg_ok T st s -> hdl s h x -> nnf_shape x = true ->
  x <> FTrue -> x <> FFalse -> (depth x < fuel)%nat ->
  xspec W s (compute_transformation fuel h st) (tr_post T s st W (h, x)).
Proof.
  induction fuel as [| fuel IH]; intros x T W s h st Hi Hc Hok Hx Hn Ht Hff Hf; [lia |]. cbn [compute_transformation].
  destruct (vh_operands s h (i_wf _ _ Hi) (proj1 Hx)) as [n [Hu _]]. eapply x_unpack_bind; [exact Hu |].
  pose proof (denotes_by_node _ _ _ _ Hu (proj1 (proj2 Hx))) as Hnd.
  pose proof (hdls_children s h x n (i_wf _ _ Hi) Hx Hu) as Hch.
  assert (Hmain : forall conj xs, x = fnary conj xs -> xspec W s (number_of_atoms (S fuel) h ;;; p <-- compute_pos_polarity h st ;; tr_rest fuel (node_operands n) p) (tr_post T s st W (h, x))).
  { intros conj xs ->. assert (Ech : children (fnary conj xs) = xs) by (destruct conj; reflexivity). rewrite Ech in Hch.
    destruct (wf_fnary s h conj xs (i_wf _ _ Hi) (proj1 Hx) (proj1 (proj2 Hx))) as [Hne Hall].
    assert (Hxn : forall z, In z xs -> nnf_shape z = true) by (intros z Hz; destruct conj; cbn [fnary nnf_shape] in Hn; rewrite forallb_forall in Hn; auto).
    eapply x_bind; [apply (atoms_keep (S fuel) (fnary conj xs)); auto | |].
    { intros _. apply mono_bind; [apply mono_compute_pos | intros; apply mono_tr_rest]. }
    intros _ s1 W1 Hi1 He1 _ [-> _].
    eapply x_bind; [apply (compute_pos_spec T W s1 h conj xs n st) | intros; apply mono_tr_rest |].
    - assumption.
    - eapply closed_ext; eauto.
    - eapply pg_ok_ext; [exact He1 | apply sub_refl | assumption].
    - eapply hdl_ext; eauto.
    - eapply unpack_ext; [apply He1 | exact Hu].
    - apply Forall_forall. intros z Hz. destruct (Hall z Hz) as [Z1 [Z2 _]]. apply nnf_ts_shape; auto.
    - intros [r0 st1] s2 W2 Hi2 He2 _ [-> [[Hle1 [T1 [Hg1 [Hc1 Hok1]]]] [y0 [Hy0 Hs0]]]]. cbn [fst snd] in *.
      assert (He02 : ext s s2) by (eapply ext_trans; eauto).
      assert (Hch2 : Forall2 (hdl s2) (node_operands n) xs) by (eapply hdls_ext; eauto).
      assert (Hx2 : hdl s2 h (fnary conj xs)) by (eapply hdl_ext; eauto).
      unfold tr_rest. eapply x_bind.
      + apply (x_mfold_keep _ _ (tr_inv T1 s2 st1 y0) (node_operands n) xs [] W s2 ([r0], st1)); auto.
        * intros. apply mono_bind; [auto with mono | intros; apply mono_ret].
        * split; [apply st_le_refl |]. split; [constructor |]. exists T1. split; [apply grows_refl |]. split; [assumption |]. split; [assumption |].
          exists []. split; [constructor; [assumption | constructor] |]. split; [constructor |]. split; [reflexivity |]. intros v _ p [].
        * intros d o z [rs st2] t Hz Hit Het Ho [Hle2 [Hin2 [T2 [Hg2 [Hc2 [Hok2 [ys [Hys [Hcn [Htr Hso]]]]]]]]]]. cbn [fst snd] in *.
          destruct (Hall z Hz) as [Z1 [Z2 _]].
          eapply x_bind; [apply (IH z T2 W t o st2); auto | intros; apply mono_ret |].
          { assert (In z (children (fnary conj xs))) as Hzc by (rewrite Ech; assumption). apply children_depth in Hzc. lia. }
          intros [r st3] t2 W2 Hi3 He3 _ [-> [Hle3 [Hin3 [T3 [Hg3 [Hc3 [Hok3 [y [Hy [Hcy [Hty Hsy]]]]]]]]]]]. cbn [fst snd] in *.
          apply x_ret; [assumption |]. split; [reflexivity |]. cbn [fst snd]. split; [eapply st_le_trans; eauto |].
          split; [apply Forall_app; split; [eapply lits_in_le; eauto | constructor; [assumption | constructor]] |].
          exists T3. split; [eapply grows_trans; [exact Het | |]; eauto |]. split; [assumption |]. split; [assumption |].
          exists (ys ++ [y]). split; [change (y0 :: ys ++ [y]) with ((y0 :: ys) ++ [y]); apply Forall2_app; [eapply hdls_ext; eauto | constructor; [assumption | constructor]] |].
          split; [apply Forall_app; split; [assumption | constructor; [assumption | constructor]] |]. split.
          -- intros v Hv. rewrite forallb_app. cbn [forallb]. rewrite (Hty v Hv), Htr by (apply Hg3; assumption). reflexivity.
          -- intros v Hv p Hp. rewrite forallb_app in Hv. cbn [forallb] in Hv. rewrite andb_true_r in Hv. apply andb_true_iff in Hv. destruct Hv as [Hv1 Hv2].
             apply in_app_or in Hp. destruct Hp as [Hp | [<- | []]]; [| apply Hsy; assumption].
             rewrite (litof_le st2 st3) by (try assumption; rewrite Forall_forall in Hin2; auto). apply Hso; assumption.
      + intros. apply mono_bind; [auto with mono | intros; apply mono_ret].
      + intros [rs st2] s3 W3 Hi3 He3 _ [-> [Hle2 [Hin2 [T2 [Hg2 [Hc2 [Hok2 [ys [Hys [Hcn [Htr Hso]]]]]]]]]]]. cbn [fst snd app] in *.
        assert (Hs2 : pg_sem st2 conj (h, fnary conj xs) (combine (node_operands n) xs) y0) by (eapply pg_sem_le; eauto).
        eapply x_bind; [apply (x_conj W s3 rs (y0 :: ys)); [assumption | assumption | constructor; [apply Hs0 | assumption]] | intros; apply mono_ret |].
        intros r s4 W4 Hi4 He4 _ [-> [y [Hy [Hcy [Hsy _]]]]]. apply x_ret; [assumption |]. split; [reflexivity |]. cbn [fst snd].
        split; [eapply st_le_trans; eauto |]. split; [apply Hs2 |]. exists T2. split; [eapply grows_trans; [exact He02 | |]; [| exact Hg2] |].
        { eapply grows_trans; [exact He1 | apply grows_refl | exact Hg1]. }
        split; [eapply closed_ext; eauto |]. split; [eapply pg_ok_ext; [exact He4 | apply sub_refl | assumption] |]. exists y. split; [assumption |]. split; [assumption |].
        assert (Hx3 : hdl s3 h (fnary conj xs)) by (eapply hdl_ext; eauto).
        split.
        * intros v Hv. rewrite Hsy. cbn [forallb]. rewrite (Htr v Hv), andb_true_r.
          apply (pg_sem_true T2 st2 s3 conj h n xs y0 v); auto; [apply Hi3 |]. eapply unpack_ext; [exact (proj1 (ext_trans _ _ _ He02 He3)) | exact Hu].
        * intros v Hv Hl. rewrite Hsy in Hv. cbn [forallb] in Hv. apply andb_true_iff in Hv. destruct Hv as [Hv1 Hv2]. destruct Hs2 as [_ [_ [Hps Hs2]]]. rewrite Hs2, Hl in Hv1. cbn [negb orb] in Hv1.
          rewrite sem_fnary. specialize (Hso v Hv2). clear -Hv1 Hso Hch2.
          assert (Hlen : map snd (combine (node_operands n) xs) = xs) by (clear -Hch2; induction Hch2; cbn; [reflexivity | now f_equal]).
          set (ps := combine (node_operands n) xs) in *. rewrite <- Hlen. clearbody ps. clear Hlen Hch2. destruct conj; cbn [nary_lits nary_sem] in *.
          -- apply forallb_forall. intros z Hz. apply in_map_iff in Hz. destruct Hz as [p [<- Hp]]. apply Hso; [assumption |]. rewrite forallb_forall in Hv1. apply Hv1. apply in_map. assumption.
          -- apply existsb_exists in Hv1. destruct Hv1 as [l [Hl Hv]]. apply in_map_iff in Hl. destruct Hl as [p [<- Hp]]. apply existsb_exists. exists (snd p). split; [apply in_map; assumption | auto]. }
  destruct x; cbn [nnf_shape] in Hn; try discriminate; try contradiction.
  - assert (En : n = NLit l). { destruct n; try discriminate; try (destruct Hnd as [? [Hnd _]]; discriminate); try (destruct Hnd as [? [? [Hnd _]]]; discriminate). injection Hnd as <-. reflexivity. }
    subst n. apply x_ret; [assumption |]. split; [reflexivity |]. split; [apply st_le_refl |]. split; [intros E; discriminate |]. exists T. split; [apply grows_refl |].
    split; [assumption |]. split; [assumption |]. exists FTrue. split; [apply (hdl_const s true) |]. split; [reflexivity |]. split; [reflexivity |].
    intros v _ H. exact H.
  - assert (En : exists ops, n = NAnd ops) by (destruct n; try discriminate; try (destruct Hnd as [? [Hnd _]]; discriminate); try (destruct Hnd as [? [? [Hnd _]]]; discriminate); eauto).
    destruct En as [ops ->]. exact (Hmain true l eq_refl).
  - assert (En : exists ops, n = NOr ops) by (destruct n; try discriminate; try (destruct Hnd as [? [Hnd _]]; discriminate); try (destruct Hnd as [? [? [Hnd _]]]; discriminate); eauto).
    destruct En as [ops ->]. exact (Hmain false l eq_refl).
Qed.

Definition pg_last (fuel : nat) (m : N) (st : cnf_state) : M (N * cnf_state) :=
  p <-- compute_transformation fuel m st ;;
  top_level <-- index (cs_variable (snd p)) m ;;
  r <-- restrict fuel (asg_of_lit top_level) (fst p) ;;
  ret (r, snd p).
Lemma mono_pg_last : forall fuel m st, mono (pg_last fuel m st).
Proof. intros. apply mono_bind; [auto with mono |]. intros. apply mono_bind; [apply mono_index |]. intros. apply mono_bind; [auto with mono | intros; apply mono_ret]. Qed.

Lemma pg_last_spec : forall fuel T W s m x st, inv W s -> closed T s -> pg_ok T st s -> hdl s m x -> nnf_shape x = true -> cnf_shape x = false ->
  (depth x < fuel)%nat -> (3 <= fuel)%nat ->
  xspec W s (pg_last fuel m st) (fun p s' W' => W' = W /\ exists T', grows T T' s /\ closed T' s' /\ pg_ok T' (snd p) s'
    /\ exists y, hdl s' (fst p) y /\ equisat T' x y).
Proof.
  intros fuel T W s m x st Hi Hc Hok Hx Hn Hcf Hf Hf3. unfold pg_last.
  assert (Hc1 : x <> FTrue) by (intros ->; discriminate). assert (Hc2 : x <> FFalse) by (intros ->; discriminate).
  assert (Hfl : is_flit x = false) by (destruct x; try reflexivity; discriminate).
  eapply x_bind; [apply (compute_transformation_spec fuel x T W s m st); auto | |].
  { intros. apply mono_bind; [apply mono_index |]. intros. apply mono_bind; [auto with mono | intros; apply mono_ret]. }
  intros [r st1] s1 W1 Hi1 He1 _ [-> [_ [Hin [T1 [Hg1 [Hcl1 [Hok1 [y0 [Hy0 [Hcn [Htr Hso]]]]]]]]]]]. cbn [fst snd] in *.
  pose proof (Hin Hfl) as Hin'. cbn [fst] in Hin'. destruct (assoc N.eqb m (cs_variable st1)) as [l |] eqn:Ea; [| congruence].
  eapply x_det_bind; [apply index_ok; exact Ea |].
  assert (El : litof st1 (m, x) = l) by (unfold litof, getv; cbn [fst snd]; rewrite Ea; destruct x; try discriminate; reflexivity). rewrite El in Hso.
  destruct (proj1 Hok1 m l Ea) as [x' [Hx' [_ [[i ->] [Hk [Hnu Hmean]]]]]].
  assert (Ex : x' = x) by (eapply denotes_fun; [apply Hx' | eapply denotes_ext; [exact He1 | apply Hx]]). subst x'. cbn [lit_var] in *.
  set (u := VAux AuxCNF i) in *.
  eapply x_bind; [apply x_core; [assumption | apply (restrict_cnf (asg_of_lit (Lit u true)) fuel s1 r y0); [apply Hi1 | apply Hy0 | apply Hy0 | assumption | pose proof (cnf_depth y0 Hcn); lia]] | intros; apply mono_ret |].
  intros q s2 W2 Hi2 He2 _ [-> [Hco [Hv [y [Hd [Hy [Hr Hvars]]]]]]]. apply x_ret; [assumption |]. split; [reflexivity |]. exists T1. split; [assumption |].
  split; [eapply closed_ext; eauto |]. cbn [fst snd]. split; [eapply pg_ok_ext; [exact He2 | apply sub_refl | exact Hok1] |].
  exists y. split.
  - split; [assumption |]. split; [assumption |]. intros a Ha. eapply known_ext; [exact He2 |]. apply (proj2 (proj2 Hy0)). apply Hvars. assumption.
  - assert (Hu : ~ In u (fvars y)) by (intros H; apply Hvars in H; destruct H as [_ [H _]]; apply H; left; reflexivity).
    split; [assumption |]. split.
    + intros v H. assert (Hset : sem (setv v u true) y0 = true).
      { rewrite <- (Hr (setv v u true)); [rewrite sem_setv; auto |]. apply extends_lit. cbn [lit_sem]. apply setv_same. }
      pose proof (Hso _ Hset) as E. cbn [lit_sem snd] in E. rewrite setv_same, sem_setv in E by assumption. auto.
    + intros v HT Hxv. rewrite Hr; [apply Htr; assumption |]. apply extends_lit. rewrite (Hmean v HT). assumption.
Qed.

Lemma mono_pg_on_formula : forall fuel h b st, mono (pg_on_formula fuel h b st).
Proof.
  intros. unfold pg_on_formula. apply mono_bind; [apply mono_nnf_rec |]. intros m. apply mono_bind; [apply mono_lift |]. intros [].
  - apply mono_ret.
  - apply mono_bind; [auto with mono |]. intros n. destruct (n <? b); [apply mono_bind; [apply mono_fact_nop | intros; apply mono_ret] | exact (mono_pg_last fuel m st)].
Qed.
Global Hint Resolve mono_pg_on_formula : mono.

Theorem pg_spec : forall fuel x W s h b st, inv W s -> hdl s h x -> encodable s x -> pg_ok W st s -> (4 * depth x + 14 <= fuel)%nat ->
  xspec W s (pg_on_formula fuel h b st) (fun p s' W' => pg_ok W' (snd p) s' /\ exists y, hdl s' (fst p) y /\ equisat W' x y).
Proof.
  intros fuel x W s h b st Hi Hx Hen Hok Hf. unfold pg_on_formula.
  eapply x_bind; [apply (nnf_spec fuel x); auto; lia | |].
  { intros m. apply mono_bind; [apply mono_lift |]. intros []; [apply mono_ret |].
    apply mono_bind; [auto with mono |]. intros n. destruct (n <? b); [apply mono_bind; [apply mono_fact_nop | intros; apply mono_ret] | exact (mono_pg_last fuel m st)]. }
  intros m s1 W1 Hi1 He1 Hs1 [x1 [Hx1 [Hr1 [Hn1 Hd1]]]]. assert (Hok1 : pg_ok W1 st s1) by (eapply pg_ok_ext; eauto).
  assert (Hdep : (depth x1 <= 2 * depth x + 3)%nat) by (pose proof (ndep_depth x true); lia).
  eapply x_lift_bind; [eapply cnf_lift; eauto |]. destruct (cnf_shape x1) eqn:Ec.
  { apply x_ret; [assumption |]. split; [assumption |]. exists x1. split; [assumption | apply refines_equisat; assumption]. }
  eapply x_bind; [apply (atoms_keep fuel x1); auto; lia | |].
  { intros n. destruct (n <? b); [apply mono_bind; [apply mono_fact_nop | intros; apply mono_ret] | exact (mono_pg_last fuel m st)]. }
  intros n s2 W2 Hi2 He2 _ [-> _]. assert (Hok2 : pg_ok W1 st s2) by (eapply pg_ok_ext; [exact He2 | apply sub_refl | assumption]). assert (Hx2 : hdl s2 m x1) by (eapply hdl_ext; eauto).
  destruct (n <? b).
  - eapply x_bind; [apply (fact_nop_spec true fuel x1); auto; [apply nnf_encodable; assumption | lia] | intros; apply mono_ret |].
    intros r s3 W3 Hi3 He3 Hs3 [y [Hy [Hry Hny]]]. apply x_ret; [assumption |]. split; [eapply pg_ok_ext; eauto |]. exists y. split; [assumption |].
    eapply equisat_refines; [eapply refines_sub; eauto | apply refines_equisat; assumption].
  - apply (x_shrink _ W1 s2 (pg_last fuel m st) (fun p s' W' => W' = W1 /\ exists T', grows W1 T' s2 /\ closed T' s' /\ pg_ok T' (snd p) s'
       /\ exists y, hdl s' (fst p) y /\ equisat T' x1 y)).
    + apply pg_last_spec; auto; [exact (proj2 (i_world _ _ Hi2)) | lia | lia].
    + intros p s4 W4 Hi4 He4 _ [-> [T [Hg [Hc [Hok4 [y [Hy Hres]]]]]]]. exists T. split; [apply Hg |].
      split; [eapply grows_world; eauto; apply Hi2 |]. split; [assumption |]. exists y. split; [assumption |].
      eapply equisat_refines; [| exact Hres]. eapply refines_sub; [| exact Hr1]. apply Hg.
Qed.

Theorem pg_fresh : forall fuel x T W s h b st, inv W s -> hdl s h x -> con_free x = true -> closed T s -> pg_ok T st s -> (4 * depth x + 14 <= fuel)%nat ->
  xspec W s (pg_on_formula fuel h b st) (fun p s' _ => exists T', grows T T' s /\ closed T' s' /\ pg_ok T' (snd p) s'
    /\ exists y, hdl s' (fst p) y /\ equisat T' x y).
Proof.
  intros fuel x T W s h b st Hi Hx Hcf Hcl Hok Hf. assert (Hen : encodable s x) by (apply con_free_leaves; assumption). unfold pg_on_formula.
  assert (Hself : forall y T', cnf_shape y = true -> (forall v, sem v y = sem v x) -> equisat T' x y).
  { intros y T' Hcn Hse. split; [assumption |]. split; [intros v; rewrite Hse; auto |]. intros v _; rewrite Hse; auto. }
  eapply x_bind; [apply (nnf_spec fuel x); auto; lia | |].
  { intros m. apply mono_bind; [apply mono_lift |]. intros []; [apply mono_ret |].
    apply mono_bind; [auto with mono |]. intros n. destruct (n <? b); [apply mono_bind; [apply mono_fact_nop | intros; apply mono_ret] | exact (mono_pg_last fuel m st)]. }
  intros m s1 W1 Hi1 He1 Hs1 [x1 [Hx1 [[_ [_ Hr1]] [Hn1 Hd1]]]]. destruct (Hr1 Hcf) as [Hse1 Hin1]. assert (Hok1 : pg_ok T st s1) by (eapply pg_ok_ext; [exact He1 | apply sub_refl | assumption]).
  assert (Hdep : (depth x1 <= 2 * depth x + 3)%nat) by (pose proof (ndep_depth x true); lia).
  assert (Hcl1 : closed T s1) by (eapply closed_ext; eauto).
  eapply x_lift_bind; [eapply cnf_lift; eauto |]. destruct (cnf_shape x1) eqn:Ec.
  { apply x_ret; [assumption |]. exists T. split; [apply grows_refl |]. split; [assumption |]. split; [assumption |]. exists x1. split; [assumption | apply Hself; assumption]. }
  eapply x_bind; [apply (atoms_keep fuel x1); auto; lia | |].
  { intros n. destruct (n <? b); [apply mono_bind; [apply mono_fact_nop | intros; apply mono_ret] | exact (mono_pg_last fuel m st)]. }
  intros n s2 W2 Hi2 He2 _ [-> _]. assert (Hok2 : pg_ok T st s2) by (eapply pg_ok_ext; [exact He2 | apply sub_refl | assumption]). assert (Hx2 : hdl s2 m x1) by (eapply hdl_ext; eauto).
  assert (Hcl2 : closed T s2) by (eapply closed_ext; eauto). destruct (n <? b).
  - eapply x_bind; [apply (fact_nop_spec true fuel x1); auto; [apply nnf_encodable; assumption | lia] | intros; apply mono_ret |].
    intros r s3 W3 Hi3 He3 Hs3 [y [Hy [[_ [_ Hry]] Hny]]]. destruct (Hry (nnf_con_free x1 Hn1)) as [Hse2 Hin2]. apply x_ret; [assumption |]. exists T. split; [apply grows_refl |].
    split; [eapply closed_ext; eauto |]. split; [eapply pg_ok_ext; [exact He3 | apply sub_refl | assumption] |]. exists y. split; [assumption |].
    apply Hself; [exact Hny | intros v; rewrite Hse2; apply Hse1].
  - eapply x_conseq; [apply (pg_last_spec fuel T W1 s2 m x1 st); auto; lia |].
    intros p s4 W4 Hi4 He4 _ [-> [T' [Hg [Hc [Hok4 [y [Hy [R1 [R2 R3]]]]]]]]]. exists T'.
    split; [eapply grows_trans; [| apply grows_refl | exact Hg]; eapply ext_trans; eauto |].
    split; [assumption |]. split; [assumption |]. exists y. split; [assumption |]. split; [assumption |]. split; [intros v Hv; rewrite <- Hse1; auto |].
    intros v Hv Hxv. apply R3; [assumption | now rewrite Hse1].
Qed.
