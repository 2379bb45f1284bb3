(** Definitional variables: what the transformations of Tseitin and of Plaisted and Greenbaum have in common. *)
From Coq Require Import NArith ZArith List Bool Arith Lia.
From Verif Require Import Base EncodingModel Syntax FactoryModel FactoryInv FactoryBasics FactoryProofs FactorySpecs FactoryNary FactoryOps
  EvalProofs InvariantSpec HashConsProofs InvariantProofs HistoryProofs ConstraintModel ConstraintProofs OpsModel OpsProofs CcModel EncBasics
  PbModel CacheModel TransModel TreeSpec WorldProofs EncodeProofs NnfProofs CnfProofs.
Import ListNotations.
Local Open Scope N_scope.

(* ------------------------------------------------------------------------------------------------------------------ *)
(** * Literals *)

Lemma hdl_lit : forall s l, wf s -> known s (lit_var l) -> hdl s (encode_lit l) (FLit l).
Proof.
  intros s l Hw Hk. assert (Hl : lit_ok s l) by (apply known_var_ok; [apply wf_cap; assumption | assumption]).
  split; [apply vh_lit; assumption |]. split; [apply d_lit, unpack_lit; [apply wf_cap |]; assumption |]. intros u [<- | []]. assumption.
Qed.
Lemma lit_negate_var : forall l, lit_var (lit_negate l) = lit_var l.
Proof. intros [u p]. reflexivity. Qed.
Lemma lit_negate_sem : forall v l, lit_sem v (lit_negate l) = negb (lit_sem v l).
Proof. intros v [u []]; cbn; [reflexivity | now rewrite negb_involutive]. Qed.
Lemma literal_tree : forall s h x, wf s -> vh s h -> denotes s h x -> is_literal h = is_flit x.
Proof.
  intros s h x Hw Hv Hd.
  destruct (vh_case s h (wf_cap s Hw) Hv) as [-> Ht Hu | -> Ht Hu | k E Hlo Ht Hu | ? ? ? ? Ht Hu | ? ? ? ? Ht Hu
        | ? ? ? ? Ht Hu | ? ? ? ? ? Ht Hu | ? ? ? ? ? Ht Hu | ? ? ? ? Ht Hu | ? ? ? ? Ht Hu];
    pose proof (denotes_by_node _ _ _ _ Hu Hd) as Hn; unfold is_literal; rewrite Ht; cbn beta iota in Hn;
    try (subst x; reflexivity); try (destruct Hn as [? [-> _]]; reflexivity);
    destruct Hn as [? [? [-> _]]]; reflexivity.
Qed.

(* ------------------------------------------------------------------------------------------------------------------ *)
(** * Restriction keeps conjunctive normal forms *)

Lemma cnf_depth : forall y, cnf_shape y = true -> (depth y <= 2)%nat.
Proof.
  assert (Hl : forall z, is_flit z = true -> depth z = 0%nat) by (intros []; cbn; congruence).
  assert (Hls : forall l, forallb is_flit l = true -> (fold_right (fun y n => Nat.max (depth y) n) 0 l <= 0)%nat).
  { intros l H. rewrite forallb_forall in H. apply fold_max_le. intros z Hz. rewrite Hl; auto. }
  assert (Hc : forall z, is_fclause z = true -> (depth z <= 1)%nat).
  { intros [] H; cbn in *; try discriminate; try lia. specialize (Hls l H). lia. }
  intros y H. destruct y; cbn [cnf_shape] in H; try (cbn in *; discriminate); try (cbn; lia).
  - rewrite forallb_forall in H. cbn [depth]. assert (fold_right (fun y n => Nat.max (depth y) n) 0 l <= 1)%nat; [| lia].
    apply fold_max_le. auto.
  - specialize (Hc _ H). lia.
Qed.
Lemma cnf_con_free : forall y, cnf_shape y = true -> con_free y = true.
Proof. intros y H. apply nnf_con_free, cnf_nnf. assumption. Qed.
Lemma con_free_restrictable : forall a y, con_free y = true -> restrictable a y.
Proof.
  intros a y. unfold restrictable. induction y using fml_ind2; cbn [con_free leaves]; intros Hc; try discriminate; auto.
  - constructor; [exact I | constructor].
  - rewrite forallb_forall in Hc. rewrite Forall_forall in *. intros lf Hlf. apply in_flat_map in Hlf. destruct Hlf as [z [Hz Hlf]].
    specialize (H z Hz (Hc z Hz)). rewrite Forall_forall in H. auto.
  - rewrite forallb_forall in Hc. rewrite Forall_forall in *. intros lf Hlf. apply in_flat_map in Hlf. destruct Hlf as [z [Hz Hlf]].
    specialize (H z Hz (Hc z Hz)). rewrite Forall_forall in H. auto.
  - apply andb_true_iff in Hc. destruct Hc. apply Forall_app. auto.
  - apply andb_true_iff in Hc. destruct Hc. apply Forall_app. auto.
Qed.

Definition lit_or_const (y : fml) : Prop := y = FTrue \/ y = FFalse \/ is_flit y = true.
Definition clause_or_const (y : fml) : Prop := cnf_shape y = true /\ is_fnary true y = false.
Lemma lit_clause : forall y, lit_or_const y -> clause_or_const y.
Proof. intros y [-> | [-> | H]]; [split; reflexivity | split; reflexivity |]. destruct y; try discriminate. split; reflexivity. Qed.
Lemma clause_is : forall y, is_fclause y = true -> clause_or_const y.
Proof. intros y H. destruct y; try discriminate; split; auto. Qed.

Section RestrictShape.
  Context (rs : nat -> N -> M N) (Hmono : forall fuel h, mono (rs fuel h)).
  Hypothesis rs_lit : forall fuel s h l, wf s -> vh s h -> unpack s h = Ok (NLit l) -> spec wf core s (rs (S fuel) h) (tres lit_or_const).
  Hypothesis rs_const : forall fuel s h, unpack s h = Ok NTrue \/ unpack s h = Ok NFalse -> rs (S fuel) h s = ret h s.
  Hypothesis rs_nary : forall conj fuel s h ops, unpack s h = Ok (nnode conj ops) -> rs (S fuel) h s = nary_lazy conj [] (map (rs fuel) ops) s.

  Lemma spec_eq : forall A s (m m' : M A) Q, m s = m' s -> spec wf core s m' Q -> spec wf core s m Q.
  Proof. intros A s m m' Q E H. unfold spec in *. rewrite E. exact H. Qed.
  Lemma rs_clause : forall fuel s h x, wf s -> vh s h -> denotes s h x -> is_fclause x = true -> (depth x < fuel)%nat -> spec wf core s (rs fuel h) (tres clause_or_const).
  Proof.
    intros [| fuel] s h x Hw Hv Hd Hx Hf; [lia |]. pose proof (denotes_inv _ _ _ Hd) as Hi. destruct x; try discriminate; cbn in Hi.
    - eapply spec_conseq; [eapply rs_lit; eauto |]. intros r s' _ _ H. eapply tres_conseq; [exact H | apply lit_clause].
    - destruct Hi as [ops [Hu Hops]]. eapply spec_eq; [apply (rs_nary false); exact Hu |].
      cbn [is_fclause] in Hx. rewrite forallb_forall in Hx. pose proof (vh_node s h _ Hw Hv Hu) as Hvo. cbn [node_operands] in Hvo.
      eapply spec_conseq; [apply (nary_map_spec false (rs fuel) (fun _ => lit_or_const) s ops l); auto |].
      + intros x Hin t k Ht Hct Hvk Hk. specialize (Hx x Hin). destruct x; try discriminate. pose proof (denotes_inv _ _ _ Hk) as Hk'. cbn in Hk'.
        destruct fuel as [| fuel']; [cbn [depth] in Hf; lia |]. eapply rs_lit; eauto.
      + intros r s' Hw' Hc' [Hvr [y [Hy [ys [k [HF [_ [Ht _]]]]]]]]. split; [assumption |]. exists y. split; [assumption |]. cbn [app] in Ht.
        apply (nf_dual s' r true ys y); auto.
        assert (HF' : Forall lit_or_const ys).
        { clear -HF. revert k ys HF. induction l as [| a l IH]; intros k ys HF; destruct k; cbn [map firstn] in HF; inversion HF; subst; constructor; eauto. }
        eapply Forall_impl; [| exact HF']. intros z Hz. apply lit_clause in Hz. exact Hz.
  Qed.
  Lemma rs_cnf : forall fuel s h x, wf s -> vh s h -> denotes s h x -> cnf_shape x = true -> (depth x < fuel)%nat -> spec wf core s (rs fuel h) (tres (fun y => cnf_shape y = true)).
  Proof.
    intros fuel s h x Hw Hv Hd Hx Hf.
    assert (Hcl : is_fclause x = true -> spec wf core s (rs fuel h) (tres (fun y => cnf_shape y = true))).
    { intros Hc. eapply spec_conseq; [eapply rs_clause; eauto |]. intros r s' _ _ H. eapply tres_conseq; [exact H |]. intros y [H1 _]. exact H1. }
    pose proof (denotes_inv _ _ _ Hd) as Hi. destruct fuel as [| fuel]; [lia |]. destruct x; cbn [cnf_shape] in Hx; auto; try discriminate; cbn in Hi.
    - eapply spec_eq; [apply rs_const; auto |]. apply spec_ret; auto using core_refl. split; [assumption |]. exists FTrue. auto.
    - eapply spec_eq; [apply rs_const; auto |]. apply spec_ret; auto using core_refl. split; [assumption |]. exists FFalse. auto.
    - destruct Hi as [ops [Hu Hops]]. eapply spec_eq; [apply (rs_nary true); exact Hu |].
      rewrite forallb_forall in Hx. pose proof (vh_node s h _ Hw Hv Hu) as Hvo. cbn [node_operands] in Hvo.
      eapply spec_conseq; [apply (nary_map_spec true (rs fuel) (fun _ => clause_or_const) s ops l); auto |].
      + intros x Hin t k Ht Hct Hvk Hk. eapply rs_clause; eauto. cbn [depth] in Hf. apply depth_in in Hin. lia.
      + intros r s' Hw' Hc' [Hvr [y [Hy [ys [k [HF [_ [Ht _]]]]]]]]. split; [assumption |]. exists y. split; [assumption |]. cbn [app] in Ht.
        apply (nf_nary s' r true ys y); auto.
        assert (HF' : Forall clause_or_const ys).
        { clear -HF. revert k ys HF. induction l as [| a l IH]; intros k ys HF; destruct k; cbn [map firstn] in HF; inversion HF; subst; constructor; eauto. }
        eapply Forall_impl; [| exact HF']. intros z [Hz _]. exact Hz.
  Qed.
End RestrictShape.

Lemma bind_lift_ok : forall A B (r : factory -> res A) (k : A -> M B) s a, r s = Ok a -> bind (lift r) k s = k a s.
Proof. intros A B r k s a H. unfold bind, lift. rewrite H. reflexivity. Qed.

Lemma restrict_lit_or_const : forall s a l, cap s -> lit_ok s l -> tres lit_or_const (restrict_lit a l) s.
Proof.
  intros s a l Hc Hl.
  assert (Hb : forall b, tres lit_or_const (constant b) s).
  { intros b. split; [apply vh_constant |]. exists (fconst b). split; [apply denotes_const |]. destruct b; unfold lit_or_const; auto. }
  unfold restrict_lit. destruct (memv _ _); [apply Hb |]. destruct (memv _ _); [apply Hb |].
  split; [apply vh_lit; assumption |]. exists (FLit l). split; [apply d_lit, unpack_lit; assumption | right; right; reflexivity].
Qed.

Lemma restrict_cnf : forall a fuel s h x, wf s -> vh s h -> denotes s h x -> cnf_shape x = true -> (depth x < fuel)%nat ->
  spec wf core s (restrict fuel a h) (tres (fun y => cnf_shape y = true /\ rtree a x y)).
Proof.
  intros a fuel s h x Hw Hv Hd Hx Hf.
  assert (H1 : spec wf core s (restrict fuel a h) (tres (fun y => cnf_shape y = true))).
  { apply (rs_cnf (fun fuel => restrict fuel a)) with (x := x); auto.
    - intros. apply mono_restrict.
    - intros fuel0 s0 h0 l Hw0 Hv0 Hu. destruct (vcase_lit_ok s0 h0 l (wf_cap s0 Hw0) Hv0 Hu) as [-> Hl].
      cbn beta. cbn [restrict]. eapply spec_unpack; [exact Hu |]. cbn beta iota. apply spec_ret; auto using core_refl. apply restrict_lit_or_const; [apply wf_cap |]; assumption.
    - intros fuel0 s0 h0 [Hu | Hu]; cbn [restrict]; rewrite (bind_lift_ok _ _ _ _ _ _ Hu); reflexivity.
    - intros [] fuel0 s0 h0 ops Hu; cbn [restrict]; rewrite (bind_lift_ok _ _ _ _ _ _ Hu); reflexivity. }
  assert (H2 : spec wf core s (restrict fuel a h) (tres (rtree a x))).
  { apply restrict_spec; auto. apply con_free_restrictable, cnf_con_free. assumption. }
  eapply spec_conseq; [apply (spec_and _ _ _ _ _ _ _ H1 H2) |]. cbn beta. intros r s' _ _ [[Hv1 [y [Hy Hc]]] [_ [z [Hz Hr]]]].
  split; [assumption |]. exists y. split; [assumption |]. rewrite (denotes_fun _ _ _ _ Hz Hy) in Hr. auto.
Qed.
Lemma restrict_by_cnf : forall l fuel s h x, wf s -> vh s h -> denotes s h x -> cnf_shape x = true -> (depth x < fuel)%nat ->
  spec wf core s (restrict_by fuel l h) (tres (fun y => cnf_shape y = true /\ rtree (asg_of_lit l) x y)).
Proof.
  intros a fuel s h x Hw Hv Hd Hx Hf.
  assert (H1 : spec wf core s (restrict_by fuel a h) (tres (fun y => cnf_shape y = true))).
  { apply (rs_cnf (fun fuel => restrict_by fuel a)) with (x := x); auto.
    - intros. apply mono_restrict_by.
    - intros fuel0 s0 h0 l Hw0 Hv0 Hu. destruct (vcase_lit_ok s0 h0 l (wf_cap s0 Hw0) Hv0 Hu) as [-> Hl].
      cbn beta. cbn [restrict_by]. eapply spec_unpack; [exact Hu |]. cbn beta iota.
      destruct (negb _); [| destruct (Bool.eqb _ _)]; apply spec_ret; auto using core_refl.
      + split; [assumption |]. exists (FLit l). split; [apply d_lit; exact Hu | right; right; reflexivity].
      + split; [apply (vh_constant s0 true) |]. exists FTrue. split; [apply (denotes_const s0 true) | left; reflexivity].
      + split; [apply (vh_constant s0 false) |]. exists FFalse. split; [apply (denotes_const s0 false) | right; left; reflexivity].
    - intros fuel0 s0 h0 [Hu | Hu]; cbn [restrict_by]; rewrite (bind_lift_ok _ _ _ _ _ _ Hu); reflexivity.
    - intros [] fuel0 s0 h0 ops Hu; cbn [restrict_by]; rewrite (bind_lift_ok _ _ _ _ _ _ Hu); reflexivity. }
  assert (H2 : spec wf core s (restrict_by fuel a h) (tres (rtree (asg_of_lit a) x))).
  { apply restrict_by_spec; auto. apply con_free_restrictable, cnf_con_free. assumption. }
  eapply spec_conseq; [apply (spec_and _ _ _ _ _ _ _ H1 H2) |]. cbn beta. intros r s' _ _ [[Hv1 [y [Hy Hc]]] [_ [z [Hz Hr]]]].
  split; [assumption |]. exists y. split; [assumption |]. rewrite (denotes_fun _ _ _ _ Hz Hy) in Hr. auto.
Qed.

(* ------------------------------------------------------------------------------------------------------------------ *)
(** * Worlds of definitions *)

(** Membership depends on the variables that exist only. *)
Definition closed (T : world) (s : factory) : Prop := forall v w, T v -> (forall u, known s u -> w u = v u) -> T w.
Definition kept (s : factory) (u : var) : Prop := known s u \/ exists i, u = VFF i.
(** [T'] adds definitions for new variables to [T]. *)
Definition grows (T T' : world) (s : factory) : Prop := sub T' T /\ forall v, T v -> exists w, T' w /\ forall u, kept s u -> w u = v u.

Lemma closed_ext : forall T s s', ext s s' -> closed T s -> closed T s'.
Proof. intros T s s' He H v w Hv Hw. apply (H v w Hv). intros u Hu. apply Hw. eapply known_ext; eauto. Qed.
Lemma kept_ext : forall s s' u, ext s s' -> kept s u -> kept s' u.
Proof. intros s s' u He [H | H]; [left; eapply known_ext; eauto | right; assumption]. Qed.
Lemma grows_refl : forall T s, grows T T s.
Proof. intros T s. split; [apply sub_refl |]. intros v Hv. exists v. auto. Qed.
Lemma grows_trans : forall T T1 T2 s s1, ext s s1 -> grows T T1 s -> grows T1 T2 s1 -> grows T T2 s.
Proof.
  intros T T1 T2 s s1 He [A1 B1] [A2 B2]. split; [eapply sub_trans; eauto |]. intros v Hv. destruct (B1 v Hv) as [w [Hw1 Hw2]].
  destruct (B2 w Hw1) as [z [Hz1 Hz2]]. exists z. split; [assumption |]. intros u Hu. rewrite Hz2; [auto | eapply kept_ext; eauto].
Qed.
Lemma grows_world : forall W T s s', ext s s' -> world_ok W s -> grows W T s -> closed T s' -> world_ok T s'.
Proof.
  intros W T s s' He [H1 H2] [G1 G2] Hc. split; [| exact Hc]. intros v. destruct (H1 v) as [w [Hw Hag]]. destruct (G2 w Hw) as [z [Hz Hz2]].
  exists z. split; [assumption |]. intros i. rewrite Hz2; [auto | right; eauto].
Qed.
Lemma inv_shrink : forall W T s, inv W s -> sub T W -> world_ok T s -> inv T s.
Proof.
  intros W T s [Hw _ Hc] Hs Ho. constructor; [assumption | assumption |]. apply (caches_ok_ext W T s s); auto using ext_refl.
Qed.
Lemma x_shrink : forall A W s (m : M A) (Q Q' : A -> factory -> world -> Prop), xspec W s m Q ->
  (forall a s' W', inv W' s' -> ext s s' -> sub W' W -> Q a s' W' -> exists T, sub T W' /\ world_ok T s' /\ Q' a s' T) -> xspec W s m Q'.
Proof.
  intros A W s m Q Q' [H1 H2] H. split; [assumption |]. intros Hc. destruct (H2 Hc) as [a [W' [? [Hi [Hs [He HQ]]]]]].
  destruct (H a _ W' Hi He Hs HQ) as [T [Ht [Ho HQ']]]. exists a, T. split; [assumption |]. split; [eapply inv_shrink; eauto |].
  split; [eapply sub_trans; eauto | auto].
Qed.

Definition setv (v : valuation) (u : var) (b : bool) : valuation := fun w => if var_eqb w u then b else v w.
Lemma setv_same : forall v u b, setv v u b u = b.
Proof. intros. unfold setv. rewrite (proj2 (var_eqb_spec u u) eq_refl). reflexivity. Qed.
Lemma setv_other : forall v u b w, w <> u -> setv v u b w = v w.
Proof. intros v u b w H. unfold setv. destruct (var_eqb w u) eqn:E; [| reflexivity]. apply var_eqb_spec in E. contradiction. Qed.
Lemma sem_setv : forall x v u b, ~ In u (fvars x) -> sem (setv v u b) x = sem v x.
Proof. intros x v u b H. apply sem_fvars. intros w Hw. apply setv_other. intros ->. contradiction. Qed.

(** Adding a definition. *)
Definition define (T : world) (u : var) (x : fml) : world := fun v => T v /\ v u = sem v x.
Lemma define_grows : forall T s u x i, u = VAux AuxCNF i -> closed T s -> ~ known s u -> kn s x -> grows T (define T u x) s.
Proof.
  intros T s u x i Eu Hc Hu Hk. split; [intros v Hv; apply Hv |]. intros v Hv. exists (setv v u (sem v x)).
  assert (Hn : ~ In u (fvars x)) by (intros H; apply Hu; auto). split.
  - split; [| rewrite setv_same, sem_setv; auto]. apply (Hc v _ Hv). intros w Hw. apply setv_other. intros ->. contradiction.
  - intros w [Hw | [j ->]]; apply setv_other; [intros ->; contradiction | subst u; discriminate].
Qed.
Lemma define_closed : forall T s u x, closed T s -> known s u -> kn s x -> closed (define T u x) s.
Proof.
  intros T s u x Hc Hu Hk v w [Hv E] Hag. split; [apply (Hc v w Hv Hag) |]. rewrite (Hag u Hu), E. symmetry. apply sem_fvars. intros z Hz. apply Hag. auto.
Qed.

(** A new variable. *)
Lemma x_new_aux : forall W s, inv W s -> xspec W s (f_new_aux AuxCNF) (fun u s' W' => W' = W /\ exists i, u = VAux AuxCNF i /\ ~ known s u /\ known s' u).
Proof.
  intros W s Hi. destruct (new_aux_spec s AuxCNF (i_wf _ _ Hi)) as [H1 H2]. split; [assumption |]. intros Hc. destruct (H2 Hc) as [u [Hu [Hw [He _]]]].
  exists u, W. split; [assumption |]. split.
  - constructor; [assumption | eapply world_ok_ext; [exact He | apply Hi] |].
    assert (E : f_caches (snd (f_new_aux AuxCNF s)) = f_caches s) by reflexivity. rewrite E.
    apply (caches_ok_ext W W s); [apply Hi | apply sub_refl | exact He | apply Hi].
  - split; [apply sub_refl |]. split; [exact He |]. split; [reflexivity |].
    cbn in Hu. injection Hu as <-. eexists. split; [reflexivity |]. unfold known, old. cbn. lia.
Qed.

Lemma x_mmap : forall A (f : A -> M N) (P : A -> fml -> Prop) l W s, inv W s -> (forall a, mono (f a)) ->
  (forall a t, In a l -> inv W t -> ext s t -> xspec W t (f a) (fun r s' W' => W' = W /\ exists y, hdl s' r y /\ P a y)) ->
  xspec W s (mmap f l) (fun rs s' W' => W' = W /\ exists ys, Forall2 (hdl s') rs ys /\ Forall2 P l ys).
Proof.
  intros A f P l. induction l as [| a l IH]; intros W s Hi Hm H; cbn [mmap].
  - apply x_ret; [assumption |]. split; [reflexivity |]. exists []. split; constructor.
  - eapply x_bind; [apply H; auto using ext_refl; left; reflexivity | |].
    { intros. apply mono_bind; [apply mono_mmap; assumption | intros; apply mono_ret]. }
    intros r s1 W1 Hi1 He1 _ [-> [y [Hy HP]]]. eapply x_bind; [apply IH; auto | intros; apply mono_ret |].
    { intros b t Hb Ht Het. apply H; auto; [right; assumption | eapply ext_trans; eauto]. }
    intros rs s2 W2 Hi2 He2 _ [-> [ys [Hys HF]]]. apply x_ret; [assumption |]. split; [reflexivity |].
    exists (y :: ys). split; constructor; auto. eapply hdl_ext; eauto.
Qed.

(** A clause of literals. *)
Definition is_clause_of (ls : list lit) (y : fml) : Prop :=
  clause_or_const y /\ (forall v, sem v y = existsb (lit_sem v) ls) /\ incl (fvars y) (map lit_var ls).
Lemma existsb_map : forall A B (f : A -> B) (p : B -> bool) l, existsb p (map f l) = existsb (fun a => p (f a)) l.
Proof. intros A B f p l. induction l as [| a l IH]; cbn; [reflexivity | now rewrite IH]. Qed.
Lemma forallb_map : forall A B (f : A -> B) (p : B -> bool) l, forallb p (map f l) = forallb (fun a => p (f a)) l.
Proof. intros A B f p l. induction l as [| a l IH]; cbn; [reflexivity | now rewrite IH]. Qed.
Lemma x_clause : forall W s ls, inv W s -> Forall (fun l => known s (lit_var l)) ls ->
  xspec W s (f_or (map encode_lit ls)) (fun r s' W' => W' = W /\ exists y, hdl s' r y /\ is_clause_of ls y).
Proof.
  intros W s ls Hi Hl. rewrite f_or_nary.
  assert (Ho : Forall2 (hdl s) (map encode_lit ls) (map FLit ls)).
  { clear -Hi Hl. induction Hl; cbn [map]; constructor; auto. apply hdl_lit; [apply Hi | assumption]. }
  eapply x_conseq; [apply x_nary; eassumption |]. intros r s' W' Hi' He Hs [-> [Hc [y [Hy [Sy Ty]]]]]. split; [reflexivity |]. exists y. split; [assumption |].
  split; [| split].
  - destruct Hy as [Hv [Hd _]]. apply (nf_dual s' r true (map FLit ls) y); [apply Hi' | assumption | assumption | | assumption].
    clear. induction ls; cbn [map]; constructor; auto.
  - intros v. rewrite Sy. unfold nary_sem. rewrite existsb_map. reflexivity.
  - intros u Hu. apply (nary_tree_fvars _ _ _ Ty) in Hu. apply in_flat_map in Hu. destruct Hu as [z [Hz Hu]]. apply in_map_iff in Hz.
    destruct Hz as [l [<- Hl']]. destruct Hu as [<- | []]. apply in_map. assumption.
Qed.

(** A conjunction of conjunctive normal forms. *)
Lemma x_conj : forall W s hs ys, inv W s -> Forall2 (hdl s) hs ys -> Forall (fun y => cnf_shape y = true) ys ->
  xspec W s (f_and hs) (fun r s' W' => W' = W /\ exists y, hdl s' r y /\ cnf_shape y = true /\ (forall v, sem v y = forallb (sem v) ys) /\ incl (fvars y) (flat_map fvars ys)).
Proof.
  intros W s hs ys Hi Ho Hc. rewrite f_and_nary. eapply x_conseq; [apply x_nary; eassumption |].
  intros r s' W' Hi' He Hs [-> [Hco [y [Hy [Sy Ty]]]]]. split; [reflexivity |]. exists y. split; [assumption |].
  split; [| split; [exact Sy | apply (nary_tree_fvars _ _ _ Ty)]].
  destruct Hy as [Hv [Hd _]]. apply (nf_nary s' r true ys y); auto. apply Hi'.
Qed.
