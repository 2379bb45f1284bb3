(** The encodings of constraints as formulas: every model of the clauses is a model of the constraint, and every valuation of
    the remaining world that is a model of the constraint is a model of the clauses. *)
From Coq Require Import NArith ZArith List Bool Lia.
From Verif Require Import Base EncodingModel Syntax FactoryModel FactoryInv FactoryBasics FactoryProofs FactorySpecs FactoryNary FactoryOps
  EvalProofs HistoryModel HistoryProofs ConstraintModel ConstraintProofs OpsModel OpsProofs CcModel EncBasics AmoProofs SorterProofs CcFrontProofs PbModel PbProofs
  CacheModel TransModel TreeSpec WorldProofs.
Import ListNotations.
Local Open Scope N_scope.

(* ------------------------------------------------------------------------------------------------------------------ *)
(** * What a constraint asks of the configuration *)

Definition vars_enc (cfg : cc_config) (vs : list var) : Prop :=
  amk_cfg_ok (cfg_amk cfg) (map plit vs) /\ alk_cfg_ok (cfg_alk cfg) (map plit vs) /\ exk_cfg_ok (cfg_exk cfg) (map plit vs).
Definition con_enc (cfg : cc_config) (ls : list lit) (cs : list Z) (rhs : Z) : Prop :=
  amo_cfg_ok (cfg_amo cfg) /\ (Z.of_nat (length ls) < 1073741824)%Z /\ (2 * sum_abs cs + Z.abs rhs + 2 < B63)%Z
  /\ (forallb lit_phase ls = true -> forallb (fun c => Z.eqb c 1) cs = true -> vars_enc cfg (map lit_var ls)).
Definition leaf_enc (cfg : cc_config) (lf : leaf) : Prop :=
  match lf with
  | LfVar _ => True
  | LfCc c => con_enc cfg (pos_lits (cc_vars c)) (repeat 1%Z (length (cc_vars c))) (Z.of_N (cc_rhs c))
  | LfPbc p => con_enc cfg (pb_lits p) (pb_coeffs p) (pb_rhs p)
  end.
Definition encodable (s : factory) (x : fml) : Prop := Forall (leaf_enc (cfg_cc (f_config s))) (leaves x).

Lemma ext_config : forall s s', ext s s' -> f_config s' = f_config s.
Proof. intros s s' H. apply H. Qed.
Lemma encodable_ext : forall s s' x, ext s s' -> encodable s x -> encodable s' x.
Proof. intros s s' x He H. unfold encodable in *. rewrite (ext_config _ _ He). assumption. Qed.

(* ------------------------------------------------------------------------------------------------------------------ *)
(** * Running an encoder *)

Lemma known_leb : forall a b, ctrs_leb a b = true <-> cle a b.
Proof.
  intros a b. unfold ctrs_leb. rewrite !andb_true_iff, !N.leb_le, N.eqb_eq. split.
  - intros [[[H0 H1] H2] H3] [x |]; [destruct x; cbn; assumption | assumption].
  - intros H. pose proof (H None). pose proof (H (Some AuxCNF)). pose proof (H (Some AuxCC)). pose proof (H (Some AuxPB)). cbn in *. auto.
Qed.
Lemma ctrs_with : forall s k, cle (ctrs_of s) k -> ctrs_of (with_ctrs s k) = k.
Proof. intros s [f a b c] H. specialize (H None). cbn in H. unfold ctrs_of, with_ctrs. cbn. now rewrite H. Qed.
Lemma size_with : forall s k, cle (ctrs_of s) k -> size_le s (with_ctrs s k).
Proof.
  intros s k H. pose proof (H (Some AuxCNF)). pose proof (H (Some AuxCC)). pose proof (H (Some AuxPB)). cbn in *. unfold size_le, sizes. cbn.
  repeat (constructor; [first [assumption | lia] |]). constructor.
Qed.
Lemma ext_with : forall s k, cle (ctrs_of s) k -> ext s (with_ctrs s k).
Proof.
  intros s k H. pose proof (H (Some AuxCNF)). pose proof (H (Some AuxCC)). pose proof (H (Some AuxPB)). cbn in *. split; [apply tabs_ext_refl |]. cbn. auto.
Qed.
Lemma mono_emit : forall g, mono (emit g).
Proof.
  intros g s. unfold emit. destruct (g (ctrs_of s)) as [[[a k] cls] | |]; cbn [snd]; try apply size_le_refl.
  destruct (ctrs_leb (ctrs_of s) k) eqn:E; cbn [snd]; [| apply size_le_refl]. apply known_leb in E.
  eapply size_le_trans; [apply size_with; exact E |]. apply mono_mmap. intros c. apply mono_f_clause.
Qed.
Global Hint Resolve mono_emit mono_mmap : mono.

Definition encd (x : fml) (l : list N) (s : factory) (W : world) : Prop := exists ys, Forall2 (hdl s) l ys /\ enc_of W x ys.

Lemma clause_sem_csat : forall v c, clause_sem v c = true <-> csat v c.
Proof. intros v c. unfold clause_sem, csat. apply existsb_exists. Qed.

(** The clauses become formulas. *)
Lemma clauses_spec : forall cls W s, inv W s -> bounded (ctrs_of s) cls -> Forall (Forall (lit_ok s)) cls ->
  xspec W s (mmap f_clause cls) (fun l s' W' => W' = W /\ exists ys, Forall2 (hdl s') l ys /\ Forall (fun y => clausal y = true) ys
     /\ (forall v, forallb (sem v) ys = true <-> sat v cls) /\ incl (flat_map leaves ys) (map (fun l => LfVar (lit_var l)) (concat cls))).
Proof.
  induction cls as [| c cls IH]; intros W s Hi Hb Hl; cbn [mmap].
  - apply x_ret; [assumption |]. split; [reflexivity |]. exists []. split; [constructor |]. split; [constructor |].
    split; [intros v; split; [intros _; apply sat_nil | reflexivity] | intros ? []].
  - inversion Hl as [| ? ? Hc Hl']; subst.
    eapply x_bind; [apply x_core; [exact Hi | apply f_clause_result; [apply (i_wf _ _ Hi) | exact Hc]] | |].
    { intros h. apply mono_bind; [apply mono_mmap; intros; apply mono_f_clause | intros; apply mono_ret]. }
    intros h s1 W1 Hi1 He1 _ [-> [Hco1 [[Hv [y [Hd [Hs Hlv]]]] [y' [Hd' [Hcn Hna]]]]]].
    rewrite (denotes_fun _ _ _ _ Hd' Hd) in Hcn, Hna. clear y' Hd'.
    assert (Hh : hdl s1 h y).
    { split; [assumption |]. split; [assumption |]. intros u Hu. unfold fvars in Hu. apply in_flat_map in Hu. destruct Hu as [lf [Hlf Hu]].
      apply Hlv in Hlf. apply in_map_iff in Hlf. destruct Hlf as [l [<- Hin]]. cbn in Hu. destruct Hu as [<- | []].
      apply (known_ext s); [assumption |]. apply (Hb c); [left; reflexivity | assumption]. }
    assert (Hcy : clausal y = true).
    { unfold cnf_shape in Hcn. unfold clausal. destruct y; try exact Hcn; try reflexivity. now specialize (Hna l). }
    eapply x_bind; [apply IH; auto | intros; apply mono_ret |].
    { intros d Hin l Hl0. apply (known_ext s); [assumption |]. apply (Hb d); [right; assumption | assumption]. }
    { clear -Hl' He1. induction Hl'; constructor; auto. eapply Forall_impl; [| exact H]. intros l0 Hl0. eapply lit_ok_ext; eauto. }
    intros r s2 W2 Hi2 He2 _ [-> [ys [H1 [H2 [H3 H4]]]]]. apply x_ret; [assumption |]. split; [reflexivity |]. exists (y :: ys).
    split; [constructor; [eapply hdl_ext; eauto | assumption] |]. split; [constructor; assumption |].
    split; [| cbn [flat_map concat]; rewrite map_app; apply incl_app; [apply incl_appl; assumption | apply incl_appr; assumption]].
    intros v. cbn [forallb]. rewrite andb_true_iff, H3, Hs. rewrite clause_sem_csat. split.
    + intros [Ha Hb'] d [<- | Hd']; auto.
    + intros Ha. split; [apply Ha; left; reflexivity | intros d Hd'; apply Ha; right; assumption].
Qed.

Lemma known_var_ok : forall s u, cap s -> known s u -> var_ok s u.
Proof.
  intros s u Hc Hk. destruct u as [i | a i]; [exact Hk |]. cbn.
  unfold cap, sizes in Hc. cbn [app] in Hc. apply Forall_inv_tail, Forall_inv_tail, Forall_inv_tail in Hc.
  pose proof (Forall_inv Hc) as C1. apply Forall_inv_tail in Hc. pose proof (Forall_inv Hc) as C2. apply Forall_inv_tail in Hc.
  pose proof (Forall_inv Hc) as C3. unfold known, old in Hk. cbn beta in *. destruct a; cbn in Hk; lia.
Qed.

(** A run of an encoder. *)
Lemma x_emit : forall (g : G unit) x W s, inv W s -> kn s x ->
  encodes (ctrs_of s) g (fun b => sem b x = true) ->
  xspec W s (emit g) (encd x).
Proof.
  intros g x W s Hi Hk Henc. destruct Henc as [[] [k [cls [Hg [Hle [Hb [Hs Hc]]]]]]].
  split; [apply mono_emit |]. unfold emit. rewrite Hg, (proj2 (known_leb _ _) Hle). intros Hcap.
  assert (Hcap1 : cap (with_ctrs s k)) by (eapply cap_le; [apply (mono_mmap _ _ f_clause cls); intros; apply mono_f_clause | exact Hcap]).
  pose proof (ext_with s k Hle) as He1.
  set (W1 := fun v => W v /\ (sem v x = true -> sat v cls)).
  assert (Hsx : forall v w, (forall u, known s u -> w u = v u) -> sem w x = sem v x).
  { intros v w H. apply sem_fvars. intros u Hu. apply H. apply Hk. assumption. }
  destruct (i_world _ _ Hi) as [Hw1 Hw2].
  assert (Hi1 : inv W1 (with_ctrs s k)).
  { constructor.
    - apply (wf_same s); auto; [apply (i_wf _ _ Hi)].
    - split.
      + intros v. destruct (Hw1 v) as [w [Ww Hag]]. destruct (sem w x) eqn:E.
        * destruct (Hc w E) as [b [Hb1 Hb2]].
          assert (Hold : forall u, known s u -> b u = w u).
          { intros u Hu. destruct (Hb1 u) as [Hf | Hf]; [| assumption]. exfalso. unfold fresh, known, old in *. destruct u; [assumption | lia]. }
          assert (Hffs : forall i, b (VFF i) = w (VFF i)) by (intros i; destruct (Hb1 (VFF i)) as [[] | Hf]; assumption).
          exists b. split; [split; [apply (Hw2 w); assumption | auto] |]. intros i. rewrite Hffs. apply Hag.
        * exists w. split; [split; [assumption | congruence] | assumption].
      + intros v w [Wv Hv] Hag. unfold known in Hag. rewrite ctrs_with in Hag by assumption.
        assert (Hold : forall u, known s u -> w u = v u) by (intros u Hu; apply Hag; eapply old_mono; eauto).
        split; [apply (Hw2 v); assumption |]. rewrite (Hsx v w Hold). intros E d Hd. destruct (Hv E d Hd) as [l [Hl1 Hl2]].
        exists l. split; [assumption |]. destruct l as [u p]. pose proof (Hag u (Hb d Hd _ Hl1)) as Eu. cbn [lit_sem] in *. now rewrite Eu.
    - apply (caches_ok_ext W W1 s); [apply (i_wf _ _ Hi) | intros v Hv; apply Hv | assumption | apply (i_caches _ _ Hi)]. }
  assert (Hlits : Forall (Forall (lit_ok (with_ctrs s k))) cls).
  { apply Forall_forall. intros c Hcin. apply Forall_forall. intros l Hl. apply known_var_ok; [assumption |].
    unfold known. rewrite ctrs_with by assumption. apply (Hb c Hcin _ Hl). }
  destruct (clauses_spec cls W1 (with_ctrs s k) Hi1) as [_ H2]; [now rewrite ctrs_with by assumption | assumption |].
  destruct (H2 Hcap) as [l [W2 [Hl [Hi2 [_ [He2 [-> [ys [Hy1 [Hy2 [Hy3 _]]]]]]]]]]].
  exists l, W1. split; [assumption |]. split; [assumption |]. split; [intros v Hv; apply Hv |]. split; [eapply ext_trans; eauto |].
  exists ys. split; [assumption |]. split; [assumption |]. split.
  - intros v Hv. apply Hs. apply Hy3. assumption.
  - intros v [_ Hv] Hx. apply Hy3. auto.
Qed.

(* ------------------------------------------------------------------------------------------------------------------ *)
(** * Cardinality constraints *)

Lemma lookup_stored : forall V keq canon ty large (t : vtab V) i v, keq_ok keq -> vtab_ok keq canon ty large t ->
  nthN (vt_vec t) i = Some v -> simple_lookup keq (canon v) t = Some (encode i ty large).
Proof.
  intros V keq canon ty large t i v Hk Ht Hi. unfold simple_lookup. destruct (assoc keq (canon v) (vt_rev t)) as [e |] eqn:E.
  - destruct (assoc_some_ok _ _ _ _ _ _ _ _ Hk Ht E) as [j [w [Hj [Hw ->]]]].
    rewrite (vo_uniq _ _ _ _ _ Ht i j v w Hi Hj Hw). reflexivity.
  - pose proof (assoc_none_ok _ _ _ _ _ _ _ Hk Ht E i v Hi) as Hn. destruct (vo_vec _ _ _ _ _ Ht i v Hi) as [k [Hin Hkv]].
    rewrite (ke_refl _ Hk) in Hn. discriminate.
Qed.
Lemma cc_lookup : forall s h c, wf s -> vh s h -> unpack s h = Ok (NCc c) -> simple_lookup cc_eqb c (t_ccs (f_tabs s)) = Some h.
Proof.
  intros s h c Hw Hv Hu.
  destruct (vh_case s h (wf_cap s Hw) Hv) as [-> Ht H | -> Ht H | k E Hlo Ht H | ? ? ? ? Ht H | ? ? ? ? Ht H
        | ? ? ? ? Ht H | ? ? ? ? ? Ht H | ? ? ? ? ? Ht H | i k -> Hi Ht H | ? ? ? ? Ht H]; try congruence.
  assert (k = c) by congruence. subst. apply (lookup_stored _ _ id _ _ _ _ _ keq_cc (wf_ccs s Hw) Hi).
Qed.
Lemma pbc_lookup : forall s h p, wf s -> vh s h -> unpack s h = Ok (NPbc p) -> simple_lookup pbc_eqb p (t_pbcs (f_tabs s)) = Some h.
Proof.
  intros s h c Hw Hv Hu.
  destruct (vh_case s h (wf_cap s Hw) Hv) as [-> Ht H | -> Ht H | k E Hlo Ht H | ? ? ? ? Ht H | ? ? ? ? Ht H
        | ? ? ? ? Ht H | ? ? ? ? ? Ht H | ? ? ? ? ? Ht H | ? ? ? ? Ht H | i k -> Hi Ht H]; try congruence.
  assert (k = c) by congruence. subst. apply (lookup_stored _ _ id _ _ _ _ _ keq_pbc (wf_pbcs s Hw) Hi).
Qed.

Lemma fvars_cc : forall c, fvars (FCc c) = cc_vars c.
Proof. intros c. unfold fvars. cbn. apply app_nil_r. Qed.
Lemma fvars_pbc : forall p, fvars (FPbc p) = map lit_var (pb_lits p).
Proof. intros c. unfold fvars. cbn. apply app_nil_r. Qed.
Lemma denotes_cc_unpack : forall s h c, denotes s h (FCc c) -> unpack s h = Ok (NCc c).
Proof. intros s h c H. inversion H; subst. assumption. Qed.
Lemma denotes_pbc_unpack : forall s h c, denotes s h (FPbc c) -> unpack s h = Ok (NPbc c).
Proof. intros s h c H. inversion H; subst. assumption. Qed.

Lemma encd_ext : forall x l s s' W W', ext s s' -> sub W' W -> encd x l s W -> encd x l s' W'.
Proof. intros x l s s' W W' He Hs [ys [H1 H2]]. exists ys. split; [eapply hdls_ext; eauto | eapply enc_of_sub; eauto]. Qed.
Lemma encd_sem : forall x y l s W, (forall v, sem v y = sem v x) -> encd y l s W -> encd x l s W.
Proof.
  intros x y l s W E [ys [H1 [H2 [H3 H4]]]]. exists ys. split; [assumption |]. split; [assumption |]. split.
  - intros v Hv. rewrite <- E. auto.
  - intros v Wv Hx. apply H4; [assumption |]. now rewrite E.
Qed.

Lemma mono_cc_encode : forall c, mono (cc_encode c).
Proof.
  intros c. unfold cc_encode, cc_encoder_encode. apply mono_bind; [apply mono_lift |]. intros i. apply mono_bind; [apply mono_get |].
  intros [r |]; [apply mono_ret |]. apply mono_bind; [apply mono_lift |]. intros cfg. apply mono_bind; [apply mono_emit |].
  intros r. apply mono_bind; [apply mono_put | intros; apply mono_ret].
Qed.
Global Hint Resolve mono_cc_encode : mono.

Lemma cc_encode_spec : forall c W s h, inv W s -> hdl s h (FCc c) -> cc_cfg_ok (cfg_cc (f_config s)) c -> xspec W s (cc_encode c) (encd (FCc c)).
Proof.
  intros c W s h Hi [Hv [Hd Hk]] Hc. pose proof (denotes_cc_unpack _ _ _ Hd) as Hu. unfold cc_encode.
  eapply x_lift_bind; [cbn beta; rewrite (cc_lookup s h c (i_wf _ _ Hi) Hv Hu); reflexivity |].
  apply x_get_bind. destruct (oc_get h (oc_ccenc (f_caches s))) as [r |] eqn:G.
  - destruct (co_ccenc _ _ _ (i_caches _ _ Hi) h r G) as [x [ys [[_ [Hx _]] [Hys Hen]]]].
    rewrite (denotes_fun _ _ _ _ Hx Hd) in Hen. apply x_ret; [assumption |]. exists ys. auto.
  - eapply x_lift_bind; [reflexivity |]. unfold cc_encoder_encode.
    eapply x_bind with (Q1 := encd (FCc c)).
    + apply x_emit; [assumption | assumption |]. apply encode_cc_ok; [| assumption].
      intros l Hl. apply in_map_iff in Hl. destruct Hl as [u [<- Hu']]. apply Hk. rewrite fvars_cc. assumption.
    + intros r. apply mono_bind; [apply mono_put | intros; apply mono_ret].
    + intros r s1 W1 Hi1 He1 _ [ys [Hys Hen]]. apply x_put_end; [assumption | reflexivity | |].
      * put_caches. exists (FCc c), ys. split; [split; [eapply vh_ext; eauto |]; split; [eapply denotes_ext; eauto | eapply kn_ext; eauto] |]. auto.
      * intros s2 He2 _. exists ys. split; [eapply hdls_ext; eauto | assumption].
Qed.

Lemma cc_cfg_of_enc : forall s h c, wf s -> vh s h -> unpack s h = Ok (NCc c) -> leaf_enc (cfg_cc (f_config s)) (LfCc c) ->
  cc_cfg_ok (cfg_cc (f_config s)) c.
Proof.
  intros s h c Hw Hv Hu [H1 [H2 [H3 H4]]]. rewrite map_var_pos_lits in H4.
  destruct H4 as [H4 [H5 H6]].
  - apply forallb_forall. intros l Hl. apply in_map_iff in Hl. destruct Hl as [u [<- _]]. reflexivity.
  - apply forallb_forall. intros z Hz. apply repeat_spec in Hz. subst z. reflexivity.
  - split; [assumption |]. split; [assumption |]. split; [assumption |]. split; [assumption |].
    apply (unpack_cc_vh s h c Hw Hv Hu).
Qed.

(** Normalized cardinality constraints. *)
Lemma plit_nodup : forall vs, NoDup vs -> NoDup (map plit vs).
Proof. intros vs H. apply FinFun.Injective_map_NoDup; [| assumption]. intros x y E. now injection E. Qed.
Lemma cc_cfg_of_le : forall cfg c, amo_cfg_ok (cfg_amo cfg) -> le_form (FCc c) -> (Z.of_nat (length (cc_vars c)) < 1073741824)%Z -> cc_cfg_ok cfg c.
Proof.
  intros cfg c Ha [H1 [H2 H3]] Hl. apply plit_nodup in H2. split; [assumption |].
  assert (Hu : usize_ok (length (map plit (cc_vars c)))) by (unfold usize_ok; rewrite map_length; lia).
  split; [| split; [| split]].
  - unfold amk_cfg_ok. destruct (cfg_amk cfg); auto.
  - unfold alk_cfg_ok. destruct (cfg_alk cfg); auto.
  - unfold exk_cfg_ok. destruct (cfg_exk cfg); auto.
  - rewrite H1. discriminate.
Qed.

(* ------------------------------------------------------------------------------------------------------------------ *)
(** * Pseudo-Boolean constraints *)

Lemma mono_pb_encoder_encode : forall fuel cfg p, mono (pb_encoder_encode fuel cfg p).
Proof.
  induction fuel as [| fuel IH]; intros cfg p; cbn [pb_encoder_encode]; [apply mono_nofuel |].
  apply mono_bind; [apply mono_pbc_normalize |]. intros h. apply mono_bind; [apply mono_unpackM |]. intros n.
  destruct n; try apply mono_fail; try apply mono_ret; auto with mono.
  apply mono_mfold. intros o b. apply mono_bind; [apply mono_unpackM |]. intros m. apply mono_bind; [| intros; apply mono_ret].
  destruct m; try apply mono_fail; auto with mono.
Qed.
Lemma mono_pbc_encode : forall c, mono (pbc_encode c).
Proof.
  intros c. unfold pbc_encode. apply mono_bind; [apply mono_lift |]. intros i. apply mono_bind; [apply mono_get |].
  intros [r |]; [apply mono_ret |]. apply mono_bind; [apply mono_lift |]. intros cfg. apply mono_bind; [apply mono_pb_encoder_encode |].
  intros r. apply mono_bind; [apply mono_put | intros; apply mono_ret].
Qed.
Global Hint Resolve mono_pb_encoder_encode mono_pbc_encode : mono.

Lemma zsum_weight : forall b ls cs, zsum b ls cs = weight b ls cs.
Proof. intros b. induction ls as [| l ls IH]; intros [| c cs]; reflexivity || (cbn; now rewrite IH). Qed.

Lemma emit_pbc_spec : forall cfg q W s, inv W s -> kn s (FPbc q) -> le_form (FPbc q) -> (Z.of_nat (length (pb_lits q)) < 1073741824)%Z ->
  xspec W s (emit (encode_internal cfg (pb_lits q) (pb_coeffs q) (pb_rhs q))) (encd (FPbc q)).
Proof.
  intros cfg q W s Hi Hk [H1 [H2 [H3 [H4 [H5 _]]]]] Hl. apply x_emit; [assumption | assumption |].
  eapply encodes_iff; [apply encode_internal_ok |].
  - intros l Hin. apply Hk. rewrite fvars_pbc. apply in_map. assumption.
  - eapply NoDup_map_inv; exact H2.
  - assumption.
  - intros c Hc. rewrite Forall_forall in H4. specialize (H4 c Hc). lia.
  - intros _ _. unfold pb_sizes, usize_ok. lia.
  - intros b. cbn beta. cbn [sem]. unfold pbc_sem. rewrite H1. cbn [cmp_sem]. rewrite Z.leb_le, zsum_weight. reflexivity.
Qed.

(** One normalized inequation. *)
Lemma encode_atom : forall (rec : pbc -> M (list N)) cfg y W s h B n, inv W s -> hdl s h y -> le_ok B n y -> (Z.of_nat n < 1073741824)%Z ->
  amo_cfg_ok (cfg_amo (cfg_cc (f_config s))) ->
  forall nd, unpack s h = Ok nd ->
  xspec W s (match nd with
      | NPbc q => emit (encode_internal cfg (pb_lits q) (pb_coeffs q) (pb_rhs q))
      | NCc c => cc_encode c
      | NAnd ops =>
          mfold (fun op acc =>
            m <-- unpackM op ;;
            r <-- match m with NPbc q => rec q | NCc c => cc_encode c | _ => fail end ;;
            ret (acc ++ r)) ops []
      | NTrue => ret []
      | NFalse => ret [falsum]
      | _ => fail
      end) (encd y).
Proof.
  intros rec cfg y W s h B n Hi Hh [Hle Hb] Hn Ha nd Hu. pose proof Hh as [Hv [Hd Hk]].
  destruct y; cbn [le_form le_bound] in *; try contradiction; inversion Hd as [? H0 | ? H0 | | | | | | | ? ? H0 | ? ? H0]; subst; rewrite Hu in H0; injection H0 as ->.
  - apply x_ret; [assumption |]. exists []. split; [constructor |]. split; [constructor |]. split; [reflexivity | reflexivity].
  - apply x_ret; [assumption |]. exists [FFalse]. split.
    + constructor; [| constructor]. split; [apply vh_false |]. split; [apply d_false; reflexivity | intros u []].
    + split; [repeat constructor |]. split; intros v; cbn; auto.
  - eapply cc_encode_spec; [assumption | exact Hh |]. apply cc_cfg_of_le; [assumption | exact Hle | lia].
  - apply emit_pbc_spec; [assumption | assumption | exact Hle | lia].
Qed.

Lemma pb_encoder_one : forall fuel cfg p W s, inv W s -> Forall (lit_ok s) (pb_lits p) -> (forall u, In u (map lit_var (pb_lits p)) -> known s u) ->
  length (pb_lits p) = length (pb_coeffs p) -> (Z.of_nat (length (pb_lits p)) < 1073741824)%Z ->
  (sum_abs (pb_coeffs p) + Z.abs (pb_rhs p) + 1 < B63)%Z -> amo_cfg_ok (cfg_amo (cfg_cc (f_config s))) -> pb_cmp p <> EQ ->
  xspec W s (pb_encoder_encode (S fuel) cfg p) (encd (FPbc p)).
Proof.
  intros fuel cfg p W s Hi Hl Hkn Hlen Hn Hb Ha Hc. cbn [pb_encoder_encode].
  eapply x_bind; [apply x_core; [exact Hi | apply pbc_normalize_strong; auto; [apply (i_wf _ _ Hi) | lia]] | |].
  { intros h. apply mono_bind; [apply mono_unpackM |]. intros nd. destruct nd; try apply mono_fail; try apply mono_ret; auto with mono.
    apply mono_mfold. intros o b. apply mono_bind; [apply mono_unpackM |]. intros m. apply mono_bind; [| intros; apply mono_ret].
    destruct m; try apply mono_fail; auto with mono. }
  intros h s1 W1 Hi1 He1 _ [-> [_ [Hv [y [Hd [Hs [Hf [_ Hle]]]]]]]].
  destruct (vh_operands s1 h (i_wf _ _ Hi1) Hv) as [nd [Hu _]]. eapply x_unpack_bind; [exact Hu |].
  eapply x_conseq.
  - eapply (encode_atom (pb_encoder_encode fuel cfg) cfg y W s1 h); [assumption | | apply (Hle Hc) | lia | | exact Hu].
    + split; [assumption |]. split; [assumption |]. intros u Hu'. apply (known_ext s); [assumption |]. apply Hkn. apply Hf. assumption.
    + rewrite (ext_config _ _ He1). assumption.
  - intros l s2 W2 _ _ _ H. eapply encd_sem; [| exact H]. intros v. apply Hs.
Qed.

Lemma sum_abs_zsum : forall cs, Forall (fun c => (0 < c)%Z) cs -> sum_abs cs = ConstraintProofs.zsum cs.
Proof. intros cs H. induction H as [| c cs Hc H IH]; [reflexivity |]. cbn. unfold ConstraintProofs.zsum in IH. rewrite <- IH. unfold sum_abs. lia. Qed.

Definition and_inv (d : list N) (b : list N) (t : factory) (W : world) : Prop :=
  exists zs ys, Forall2 (hdl t) d zs /\ Forall2 (hdl t) b ys /\ enc_of W (FAnd zs) ys.

Lemma pb_encoder_spec : forall cfg p W s, inv W s -> Forall (lit_ok s) (pb_lits p) -> (forall u, In u (map lit_var (pb_lits p)) -> known s u) ->
  length (pb_lits p) = length (pb_coeffs p) -> (Z.of_nat (length (pb_lits p)) < 1073741824)%Z ->
  (2 * sum_abs (pb_coeffs p) + Z.abs (pb_rhs p) + 2 < B63)%Z -> amo_cfg_ok (cfg_amo (cfg_cc (f_config s))) ->
  xspec W s (pb_encoder_encode 2 cfg p) (encd (FPbc p)).
Proof.
  intros cfg p W s Hi Hl Hkn Hlen Hn Hb Ha. pose proof (sum_abs_nonneg (pb_coeffs p)) as Hnn. cbn [pb_encoder_encode].
  eapply x_bind; [apply x_core; [exact Hi | apply pbc_normalize_strong; auto; [apply (i_wf _ _ Hi) | lia | lia]] | |].
  { intros h. apply mono_bind; [apply mono_unpackM |]. intros nd. destruct nd; try apply mono_fail; try apply mono_ret; auto with mono.
    apply mono_mfold. intros o b. apply mono_bind; [apply mono_unpackM |]. intros m. apply mono_bind; [| intros; apply mono_ret].
    destruct m; try apply mono_fail; auto with mono. exact (mono_pb_encoder_encode 1 cfg p0). }
  intros h s1 W1 Hi1 He1 _ [-> [_ [Hv [y [Hd [Hs [Hf [Hno _]]]]]]]].
  assert (Hky : kn s1 y) by (intros u Hu'; apply (known_ext s); [assumption |]; apply Hkn; apply Hf; assumption).
  assert (Ha1 : amo_cfg_ok (cfg_amo (cfg_cc (f_config s1)))) by (rewrite (ext_config _ _ He1); assumption).
  destruct (vh_operands s1 h (i_wf _ _ Hi1) Hv) as [nd [Hu _]]. eapply x_unpack_bind; [exact Hu |].
  destruct Hno as [Hle | [xs [-> Hxs]]].
  { eapply x_conseq; [eapply (encode_atom (pb_encoder_encode 1 cfg) cfg y W s1 h); eauto; split; auto |].
    intros l s2 W2 _ _ _ H. eapply encd_sem; [| exact H]. intros v. apply Hs. }
  inversion Hd as [ | | | | ? ops ? H0 Hops | | | | | ]; subst. rewrite Hu in H0. injection H0 as ->.
  pose proof (vh_node s1 h _ (i_wf _ _ Hi1) Hv Hu) as Hvo. cbn [node_operands] in Hvo.
  assert (Hh : Forall2 (hdl s1) ops xs).
  { clear -Hops Hvo Hky. assert (Hk : forall x, In x xs -> kn s1 x) by (intros x Hx; eapply children_kn; [exact Hky | exact Hx]). clear Hky.
    induction Hops; constructor; auto.
    - inversion Hvo; subst. split; [assumption |]. split; [assumption |]. apply Hk. left. reflexivity.
    - inversion Hvo; subst. apply IHHops; [assumption |]. intros z Hz. apply Hk. right. assumption. }
  assert (Hnc : forall o, In o ops -> nonconst o).
  { destruct (vh_case s1 h (wf_cap s1 (i_wf _ _ Hi1)) Hv) as [-> Ht H | -> Ht H | k E Hlo Ht H | ? ? ? ? Ht H | i k E Hi' Ht H
        | ? ? ? ? Ht H | ? ? ? ? ? Ht H | ? ? ? ? ? Ht H | ? ? ? ? Ht H | ? ? ? ? Ht H]; try congruence.
    assert (k = ops) by congruence. subst k. destruct (wf_and_ops s1 (i_wf _ _ Hi1) _ _ Hi') as [Hok _]. pose proof (oo_nonconst _ _ _ Hok) as Hq.
    rewrite Forall_forall in Hq. exact Hq. }
  eapply x_conseq.
  - eapply (x_mfold _ _ _ and_inv ops []); [assumption | | |].
    + intros o b. apply mono_bind; [apply mono_unpackM |]. intros m. apply mono_bind; [| intros; apply mono_ret].
      destruct m; try apply mono_fail; auto with mono. exact (mono_pb_encoder_encode 1 cfg p0).
    + exists [], []. split; [constructor |]. split; [constructor |]. split; [constructor |]. split; reflexivity.
    + intros d o b t W2 Hin Hi2 He2 Hs2 [zs [ys [Hz [Hy [He [Hsd Hcm]]]]]].
      assert (exists x, In x xs /\ hdl t o x) as [x [Hx Hox]].
      { clear -Hh Hin He2. induction Hh; [destruct Hin |]. destruct Hin as [-> | Hin].
        - exists y. split; [left; reflexivity | eapply hdl_ext; eauto].
        - destruct (IHHh Hin) as [z [? ?]]. exists z. split; [right |]; assumption. }
      assert (Hxo : le_ok (sum_abs (pb_coeffs p)) (length (pb_lits p)) x) by (rewrite Forall_forall in Hxs; auto).
      pose proof Hox as [Hov [Hod Hok]]. destruct (vh_operands t o (i_wf _ _ Hi2) Hov) as [m [Hm _]]. eapply x_unpack_bind; [exact Hm |].
      eapply x_bind with (Q1 := encd x); [| intros; apply mono_ret |].
      * destruct Hxo as [Hle Hbd]. destruct (Hnc o Hin) as [Hn1 Hn2].
        assert (Ha2 : amo_cfg_ok (cfg_amo (cfg_cc (f_config t)))) by (rewrite (ext_config _ _ He2); assumption).
        destruct x as [ | | | | | | | | c | q]; cbn [le_form le_bound] in *; try contradiction;
          inversion Hod as [? H0 | ? H0 | | | | | | | ? ? H0 | ? ? H0]; subst; rewrite Hm in H0; injection H0 as ->.
        -- exfalso. destruct (vh_case t o (wf_cap t (i_wf _ _ Hi2)) Hov); subst; try congruence; discriminate.
        -- exfalso. destruct (vh_case t o (wf_cap t (i_wf _ _ Hi2)) Hov); subst; try congruence; discriminate.
        -- eapply cc_encode_spec; [assumption | exact Hox |]. apply cc_cfg_of_le; [assumption | exact Hle | lia].
        -- destruct (unpack_pbc_vh t o q (i_wf _ _ Hi2) Hov Hm) as [_ [Hq1 [Hq2 _]]].
           destruct Hle as [Hc1 [_ [_ [Hpos [Hr _]]]]].
           apply (pb_encoder_one 0); auto.
           ++ intros u Hu'. apply Hok. rewrite fvars_pbc. assumption.
           ++ lia.
           ++ rewrite (sum_abs_zsum _ Hpos). lia.
           ++ rewrite Hc1. discriminate.
      * intros r s3 W3 Hi3 He3 Hs3 [ys' [Hy' [He' [Hsd' Hcm']]]]. apply x_ret; [assumption |].
        exists (zs ++ [x]), (ys ++ ys'). split; [| split; [| split; [| split]]].
        -- apply Forall2_app; [eapply hdls_ext; eauto |]. constructor; [eapply hdl_ext; eauto | constructor].
        -- apply Forall2_app; [eapply hdls_ext; eauto | assumption].
        -- apply Forall_app. auto.
        -- intros v. rewrite forallb_app, andb_true_iff. cbn [sem]. rewrite forallb_app, andb_true_iff. intros [G1 G2]. split; [apply Hsd; assumption |].
           cbn [forallb]. rewrite andb_true_r. auto.
        -- intros v Wv. cbn [sem]. rewrite !forallb_app, !andb_true_iff. cbn [forallb]. rewrite andb_true_r. intros [G1 G2]. split; [| auto].
           apply Hcm; auto.
  - intros l s2 W2 _ He2 _ [zs [ys [Hz [Hy Hen]]]]. cbn [app] in Hz.
    assert (zs = xs).
    { apply (hdls_ext _ _ _ _ He2) in Hh. clear -Hz Hh. revert zs Hz. induction Hh as [| o x ops xs [_ [Hx _]] Hh IH]; intros zs Hz; inversion Hz as [| ? ? ? ? [_ [Hy _]]]; subst; [reflexivity |].
      f_equal; [eapply denotes_fun; eauto | apply IH; assumption]. }
    subst zs. eapply encd_sem; [intros v; apply Hs |]. exists ys. auto.
Qed.

Lemma pbc_encode_spec : forall p W s h, inv W s -> hdl s h (FPbc p) -> leaf_enc (cfg_cc (f_config s)) (LfPbc p) -> xspec W s (pbc_encode p) (encd (FPbc p)).
Proof.
  intros p W s h Hi [Hv [Hd Hk]] [Ha [Hn [Hb _]]]. pose proof (denotes_pbc_unpack _ _ _ Hd) as Hu. unfold pbc_encode.
  eapply x_lift_bind; [cbn beta; rewrite (pbc_lookup s h p (i_wf _ _ Hi) Hv Hu); reflexivity |].
  apply x_get_bind. destruct (oc_get h (oc_pbcenc (f_caches s))) as [r |] eqn:G.
  - destruct (co_pbcenc _ _ _ (i_caches _ _ Hi) h r G) as [x [ys [[_ [Hx _]] [Hys Hen]]]].
    rewrite (denotes_fun _ _ _ _ Hx Hd) in Hen. apply x_ret; [assumption |]. exists ys. auto.
  - eapply x_lift_bind; [reflexivity |].
    destruct (unpack_pbc_vh s h p (i_wf _ _ Hi) Hv Hu) as [_ [Hq1 [Hq2 _]]].
    eapply x_bind with (Q1 := encd (FPbc p)).
    + apply pb_encoder_spec; auto. intros u Hin. apply Hk. rewrite fvars_pbc. assumption.
    + intros r. apply mono_bind; [apply mono_put | intros; apply mono_ret].
    + intros r s1 W1 Hi1 He1 _ [ys [Hys Hen]]. apply x_put_end; [assumption | reflexivity | |].
      * put_caches. exists (FPbc p), ys. split; [split; [eapply vh_ext; eauto |]; split; [eapply denotes_ext; eauto | eapply kn_ext; eauto] |]. auto.
      * intros s2 He2 _. exists ys. split; [eapply hdls_ext; eauto | assumption].
Qed.
