(** Pure expansion: constraints that are AMO or EXO are replaced by their pairwise clauses, over the same variables and for every assignment. *)
From Coq Require Import List Bool Arith NArith ZArith Lia.
From Verif Require Import Base Syntax EncodingModel FactoryModel FactoryInv FactoryBasics FactoryProofs FactorySpecs FactoryNary FactoryOps EvalProofs
  HistoryProofs ConstraintModel ConstraintProofs OpsModel OpsProofs CcModel EncBasics AmoProofs CcFrontProofs CacheModel TransModel TreeSpec WorldProofs MetricsProofs
  EncodeProofs NnfProofs DefBasics.
Import ListNotations.
Local Open Scope N_scope.

(** The leaves of the result are variables of the argument, and the result has the same value everywhere. *)
Definition pure_res (x y : fml) : Prop := (forall v, sem v y = sem v x) /\ incl (leaves y) (map LfVar (fvars x)).
Definition pureable_leaf (lf : leaf) : Prop := match lf with LfVar _ => True | LfCc c => is_amo c || is_exo c = true | LfPbc _ => False end.
Definition pureable (x : fml) : Prop := Forall pureable_leaf (leaves x).

(** Literals of the clauses of an encoder run. *)
Definition litsin {A} (xs : list lit) (g : G A) : Prop :=
  forall st a st' cls, g st = Ok (a, st', cls) -> forall c l, In c cls -> In l c -> In (lit_var l) (map lit_var xs).
Lemma litsin_ret : forall A xs (a : A), litsin xs (gret a).
Proof. intros A xs a st a' st' cls H. injection H as <- <- <-. intros c l []. Qed.
Lemma litsin_add : forall xs c, incl (map lit_var c) (map lit_var xs) -> litsin xs (add c).
Proof. intros xs c Hc st a st' cls H. injection H as <- <- <-. intros d l [<- | []] Hl. apply Hc. now apply in_map. Qed.
Lemma litsin_bind : forall A B xs (g : G A) (k : A -> G B), litsin xs g -> (forall a, litsin xs (k a)) -> litsin xs (gbind g k).
Proof.
  intros A B xs g k Hg Hk st b st' cls H. unfold gbind in H. destruct (g st) as [[[a st1] c1] | |] eqn:E1; try discriminate.
  destruct (k a st1) as [[[b' st2] c2] | |] eqn:E2; try discriminate. injection H as <- <- <-.
  intros c l Hc Hl. apply in_app_or in Hc. destruct Hc; [eapply Hg | eapply Hk]; eauto.
Qed.
Lemma litsin_for : forall A xs (l : list A) body, (forall a, In a l -> litsin xs (body a)) -> litsin xs (gfor l body).
Proof.
  induction l as [| a l IH]; intros body H; cbn [gfor]; [apply litsin_ret |]. apply litsin_bind; [apply H; left; reflexivity |].
  intros _. apply IH. intros b Hb. apply H. right. assumption.
Qed.
Lemma litsin_naive : forall xs ls, incl ls xs -> litsin xs (naive ls).
Proof.
  intros xs ls. induction ls as [| x ls IH]; intros Hi; cbn [naive]; [apply litsin_ret |]. apply litsin_bind.
  - apply litsin_for. intros y Hy. apply litsin_add. cbn [map]. rewrite !lit_negate_var. intros u [<- | [<- | []]]; apply in_map, Hi; [left; reflexivity | right; assumption].
  - intros _. apply IH. intros y Hy. apply Hi. right. assumption.
Qed.

Lemma pure_amo : forall xs st, olds st xs -> emits st (enc_amo pure_config xs) (fun b => (cnt b xs <= 1)%nat).
Proof.
  intros xs st Ho. unfold enc_amo. destruct (Nat.leb_spec (length xs) 1) as [H1 | H1].
  - eapply emits_iff; [apply emits_ret |]. intros b. cbn beta. pose proof (cnt_le b xs). split; [lia | auto].
  - cbn [pure_config cfg_amo]. now apply emits_naive.
Qed.
Lemma pure_amo_lits : forall xs, litsin xs (enc_amo pure_config xs).
Proof. intros xs. unfold enc_amo. destruct (length xs <=? 1)%nat; [apply litsin_ret |]. apply litsin_naive, incl_refl. Qed.
Lemma pure_exo : forall xs st, olds st xs -> emits st (enc_exo pure_config xs) (fun b => cnt b xs = 1%nat).
Proof.
  intros xs st Ho. unfold enc_exo. destruct xs as [| x [| y xs]].
  - apply emits_empty. intros b. cbn. discriminate.
  - eapply emits_iff; [now apply emits_clause |]. intros b. cbn beta. pose proof (cnt_le b [x]). cbn [length] in *. lia.
  - eapply emits_iff; [apply emits_seq; [now apply pure_amo | now apply emits_clause] |]. intros b. cbn beta. lia.
Qed.
Lemma pure_exo_lits : forall xs, litsin xs (enc_exo pure_config xs).
Proof.
  intros xs. unfold enc_exo. destruct xs as [| x [| y xs]]; try (apply litsin_add, incl_refl).
  apply litsin_bind; [apply pure_amo_lits |]. intros _. apply litsin_add, incl_refl.
Qed.

Lemma pure_cc : forall c st, olds st (map plit (cc_vars c)) -> is_amo c || is_exo c = true ->
  emits st (encode_cc pure_config c) (fun b => cc_sem b c = true) /\ litsin (map plit (cc_vars c)) (encode_cc pure_config c).
Proof.
  intros c st Ho H. unfold encode_cc, cc_sem, cmp_sem, is_amo, is_exo in *. set (xs := map plit (cc_vars c)) in *.
  assert (E : forall b, count_true b (cc_vars c) = Z.of_nat (cnt b xs)) by (intros b; apply count_true_cnt).
  destruct (cc_cmp c); cbn [orb] in H; try discriminate; try rewrite orb_false_r in H; rewrite H; apply N.eqb_eq in H; rewrite H.
  - split; [| apply pure_exo_lits]. eapply emits_iff; [now apply pure_exo |]. intros b. cbn beta. rewrite E, Z.eqb_eq. lia.
  - split; [| apply pure_amo_lits]. eapply emits_iff; [now apply pure_amo |]. intros b. cbn beta. rewrite E, Z.ltb_lt. lia.
  - split; [| apply pure_amo_lits]. eapply emits_iff; [now apply pure_amo |]. intros b. cbn beta. rewrite E, Z.leb_le. lia.
Qed.

(** An encoder that makes no variables. *)
Lemma x_emit_exact : forall (g : G unit) P xs W s, inv W s -> emits (ctrs_of s) g P -> litsin xs g ->
  xspec W s (emit g) (fun l s' W' => W' = W /\ exists ys, Forall2 (hdl s') l ys /\ (forall v, forallb (sem v) ys = true <-> P v)
    /\ incl (flat_map leaves ys) (map (fun l => LfVar (lit_var l)) xs)).
Proof.
  intros g P xs W s Hi [[] [k [cls [Hg [Hle [Hb [-> HP]]]]]]] Hl.
  split; [apply mono_emit |]. unfold emit. rewrite Hg, (proj2 (known_leb _ _) Hle). intros Hcap.
  assert (Hcap1 : cap (with_ctrs s (ctrs_of s))) by (eapply cap_le; [apply (mono_mmap _ _ f_clause cls); intros; apply mono_f_clause | exact Hcap]).
  pose proof (ext_with s (ctrs_of s) Hle) as He1.
  assert (Hi1 : inv W (with_ctrs s (ctrs_of s))).
  { constructor.
    - apply (wf_same s); auto; [apply (i_wf _ _ Hi)].
    - apply (world_ok_ext W s); [assumption | apply Hi].
    - apply (caches_ok_ext W W s); [apply (i_wf _ _ Hi) | apply sub_refl | assumption | apply (i_caches _ _ Hi)]. }
  destruct (clauses_spec cls W (with_ctrs s (ctrs_of s)) Hi1) as [_ H2]; [now rewrite ctrs_with by assumption | |].
  { apply Forall_forall. intros c Hcin. apply Forall_forall. intros l Hll. apply known_var_ok; [assumption |].
    unfold known. rewrite ctrs_with by assumption. apply (Hb c Hcin _ Hll). }
  destruct (H2 Hcap) as [l [W2 [Hlr [Hi2 [_ [He2 [-> [ys [Hy1 [Hy2 [Hy3 Hy4]]]]]]]]]]].
  exists l, W. split; [exact Hlr |]. split; [exact Hi2 |]. split; [apply sub_refl |]. split; [exact (ext_trans _ _ _ He1 He2) |]. split; [reflexivity |].
  exists ys. split; [assumption |]. split; [intros v; rewrite Hy3; apply HP |].
  intros lf Hlf. apply Hy4 in Hlf. apply in_map_iff in Hlf. destruct Hlf as [l0 [<- Hl0]]. apply in_concat in Hl0. destruct Hl0 as [c [Hc Hc0]].
  pose proof (Hl _ _ _ _ Hg c l0 Hc Hc0) as Hin. apply in_map_iff in Hin. destruct Hin as [l1 [<- Hin]]. apply in_map_iff. eauto.
Qed.

Lemma pureable_children : forall x y, pureable x -> In y (children x) -> pureable y.
Proof.
  intros x y H Hy. unfold pureable in *. destruct x; cbn [children leaves] in *; try (destruct Hy; fail).
  - destruct Hy as [<- | []]. assumption.
  - rewrite Forall_forall in *. intros lf Hlf. apply H. apply in_flat_map. eauto.
  - rewrite Forall_forall in *. intros lf Hlf. apply H. apply in_flat_map. eauto.
  - apply Forall_app in H. destruct H. destruct Hy as [<- | [<- | []]]; assumption.
  - apply Forall_app in H. destruct H. destruct Hy as [<- | [<- | []]]; assumption.
Qed.

Lemma mono_pure_expansion : forall fuel h, mono (pure_expansion fuel h).
Proof.
  induction fuel as [| fuel IH]; intros h; cbn [pure_expansion]; [apply mono_nofuel |].
  apply mono_bind; [apply mono_unpackM |]. intros n.
  assert (Hm : forall l, Forall mono (map (pure_expansion fuel) l)) by (intros l; apply Forall_map; rewrite Forall_forall; auto).
  destruct n as [| | l | a | l | l | a b | a b | c | p]; try apply mono_ret; try apply mono_fail.
  - apply mono_bind; [apply IH | intros; auto with mono].
  - apply mono_nary_lazy, Hm.
  - apply mono_nary_lazy, Hm.
  - apply mono_bind; [apply IH | intros]. apply mono_bind; [apply IH | intros; auto with mono].
  - apply mono_bind; [apply IH | intros]. apply mono_bind; [apply IH | intros; auto with mono].
  - destruct (is_amo c || is_exo c); [| apply mono_fail]. apply mono_bind; [apply mono_emit |]. intros e. apply mono_bind.
    + destruct (is_exo c); [| apply mono_ret]. apply mono_bind; [auto with mono | intros; apply mono_ret].
    + intros; auto with mono.
Qed.

Definition pres_p (x : fml) : N -> factory -> world -> Prop := pres (fun _ => pure_res) x.
Lemma pres_p_ext : forall x r s s' W W', ext s s' -> pres_p x r s W -> pres_p x r s' W'.
Proof. intros x r s s' W W' He [y [Hy H]]. exists y. split; [eapply hdl_ext; eauto | assumption]. Qed.

(** The result of a constructor on handles. *)
Lemma result_pres : forall W s m S x ys, inv W s -> mono m -> (forall u, In u (fvars x) -> known s u) ->
  spec wf core s m (fun r s' => result s' r S (flat_map leaves ys)) -> (forall v, S v = sem v x) -> incl (flat_map leaves ys) (map LfVar (fvars x)) ->
  xspec W s m (pres_p x).
Proof.
  intros W s m S x ys Hi Hm Hk Hs HS Hl. eapply x_conseq; [apply x_core; [assumption | exact Hs] |].
  intros r s' W' _ He _ [-> [_ [Hv [y [Hd [H1 H2]]]]]]. exists y. assert (Hi1 : incl (leaves y) (map LfVar (fvars x))) by (eapply incl_tran; eauto). split.
  - split; [assumption |]. split; [assumption |]. intros u Hu. eapply known_ext; [exact He |]. apply Hk.
    unfold fvars in Hu. apply in_flat_map in Hu. destruct Hu as [lf [Hlf Hu]]. apply Hi1 in Hlf. apply in_map_iff in Hlf. destruct Hlf as [w [<- Hw]].
    destruct Hu as [<- | []]. assumption.
  - split; [intros v; rewrite H1; apply HS | assumption].
Qed.

Lemma pure_leaves_lazy : forall conj W xs y, lazyx conj (fun _ => pure_res) W xs y -> pure_res (fnary conj xs) y.
Proof.
  intros conj W xs y H.
  assert (HF : forall xs ys, Forall2 pure_res xs ys -> (forall v, nary_sem conj v ys = nary_sem conj v xs) /\ incl (flat_map leaves ys) (map LfVar (flat_map fvars xs))).
  { clear. intros xs ys HF. induction HF as [| a b xs ys [H1 H2] HF [IH1 IH2]]; [split; [reflexivity | intros ? []] |]. split.
    - intros v. specialize (IH1 v). unfold nary_sem in *. destruct conj; cbn [forallb existsb]; rewrite H1, IH1; reflexivity.
    - cbn [flat_map]. rewrite map_app. apply incl_app; [apply incl_appl | apply incl_appr]; assumption. }
  destruct H as [[ys [H1 [H2 H3]]] | [-> [xs1 [xs2 [ys [-> [H1 H2]]]]]]].
  - destruct (HF _ _ H1) as [F1 F2]. split.
    + intros v. rewrite H2, F1. destruct conj; reflexivity.
    + rewrite fvars_fnary. eapply incl_tran; [apply (nary_tree_leaves _ _ _ H3) | assumption].
  - destruct (HF _ _ H1) as [F1 F2]. split; [| destruct conj; intros ? []].
    intros v. specialize (F1 v). rewrite H2 in F1. unfold nary_sem in F1. destruct conj; cbn [fnary sem fconst negb] in *.
    + rewrite forallb_app, <- F1. reflexivity.
    + rewrite existsb_app, <- F1. reflexivity.
Qed.

Lemma pure_cc_spec : forall c W s h, inv W s -> hdl s h (FCc c) -> is_amo c || is_exo c = true ->
  xspec W s (enc <-- cc_encoder_encode pure_config c ;;
            enc' <-- (if is_exo c then o <-- f_or (map (fun v => encode_lit (Lit v true)) (cc_vars c)) ;; ret (enc ++ [o])
                      else ret enc) ;;
            f_and enc') (pres_p (FCc c)).
Proof.
  intros c W s h Hi [Hv [Hd Hk]] Hc. pose proof Hk as Hk'. unfold kn in Hk'. rewrite fvars_cc in Hk'.
  destruct (pure_cc c (ctrs_of s)) as [He Hl]; [| assumption |].
  { intros l Hl. apply in_map_iff in Hl. destruct Hl as [u [<- Hu']]. apply Hk'. assumption. }
  eapply x_bind; [apply (x_emit_exact _ _ _ W s Hi He Hl) | |].
  { intros l. apply mono_bind; [destruct (is_exo c); [apply mono_bind; [auto with mono | intros; apply mono_ret] | apply mono_ret] | intros; auto with mono]. }
  intros l s1 W1 Hi1 He1 _ [-> [ys [Hys [Hsem Hlv]]]].
  assert (Hfin : forall t l' zs, inv W t -> ext s1 t -> Forall2 (hdl t) l' zs -> (forall v, forallb (sem v) zs = sem v (FCc c)) ->
     incl (flat_map leaves zs) (map LfVar (cc_vars c)) -> xspec W t (f_and l') (pres_p (FCc c))).
  { intros t l' zs Hit Het Hz Hsz Hlz. rewrite f_and_nary. eapply x_conseq; [apply (x_nary true l' zs W t Hit Hz) |].
    intros r s' W' _ _ _ [-> [_ [y [Hy [H1 H2]]]]]. exists y. split; [assumption |]. split; [intros v; rewrite H1; apply Hsz |].
    rewrite fvars_cc. eapply incl_tran; [apply (nary_tree_leaves _ _ _ H2) | assumption]. }
  assert (Hlv1 : incl (flat_map leaves ys) (map LfVar (cc_vars c))).
  { intros lf Hlf. apply Hlv in Hlf. rewrite map_map in Hlf. exact Hlf. }
  destruct (is_exo c) eqn:Ex.
  - assert (Hvs : Forall2 (hdl s1) (map (fun v => encode_lit (Lit v true)) (cc_vars c)) (map (fun v => FLit (Lit v true)) (cc_vars c))).
    { assert (Hk1 : forall u, In u (cc_vars c) -> known s1 u) by (intros u Hu; eapply known_ext; eauto).
      clear -Hk1 Hi1. induction (cc_vars c) as [| u us IH]; cbn [map]; constructor.
      - apply hdl_lit; [apply Hi1 | apply Hk1; left; reflexivity].
      - apply IH. intros w Hw. apply Hk1. right. assumption. }
    eapply x_bind with (Q1 := fun l' t W' => W' = W /\ exists zs, Forall2 (hdl t) l' zs /\ (forall v, forallb (sem v) zs = sem v (FCc c)) /\ incl (flat_map leaves zs) (map LfVar (cc_vars c))).
    + rewrite f_or_nary. eapply x_bind; [apply (x_nary false _ _ W s1 Hi1 Hvs) | intros; apply mono_ret |].
      intros o s2 W2 Hi2 He2 _ [-> [_ [y [Hy [H1 H2]]]]]. apply x_ret; [assumption |]. split; [reflexivity |]. exists (ys ++ [y]). split.
      { apply Forall2_app; [eapply hdls_ext; eauto | constructor; [assumption | constructor]]. } split.
      * intros v. rewrite forallb_app. cbn [forallb]. rewrite andb_true_r, H1. cbn [sem].
        destruct (cc_sem v c) eqn:E.
        -- rewrite (proj2 (Hsem v) E). cbn [andb nary_sem]. unfold is_exo in Ex. unfold cc_sem, cmp_sem in E. destruct (cc_cmp c); try discriminate.
           apply N.eqb_eq in Ex. apply Z.eqb_eq in E. rewrite Ex in E. clear -E. induction (cc_vars c) as [| u us IH]; [discriminate |].
           cbn [map existsb sem lit_sem]. cbn [count_true] in E. destruct (v u); [reflexivity |]. apply IH. lia.
        -- destruct (forallb (sem v) ys) eqn:F; [| reflexivity]. apply Hsem in F. congruence.
      * rewrite flat_map_app. apply incl_app; [assumption |]. cbn [flat_map]. rewrite app_nil_r. eapply incl_tran; [apply (nary_tree_leaves _ _ _ H2) |].
        intros lf Hlf. apply in_flat_map in Hlf. destruct Hlf as [z [Hz Hlf]]. apply in_map_iff in Hz. destruct Hz as [u [<- Hu]]. destruct Hlf as [<- | []].
        apply in_map_iff. exists u. auto.
    + intros; auto with mono.
    + intros l' t W2 Hi2 He2 _ [-> [zs [Hz1 [Hz2 Hz3]]]]. apply (Hfin t l' zs); auto.
  - eapply x_bind with (Q1 := fun l' t W' => l' = l /\ t = s1 /\ W' = W); [apply x_ret; auto | intros; auto with mono |].
    intros l' t W2 Hi2 _ _ [-> [-> ->]]. apply (Hfin s1 l ys); auto using ext_refl.
    intros v. cbn [sem]. destruct (cc_sem v c) eqn:E; [apply Hsem; assumption |].
    destruct (forallb (sem v) ys) eqn:F; [| reflexivity]. apply Hsem in F. congruence.
Qed.

Theorem pure_expansion_spec : forall fuel x W s h, inv W s -> hdl s h x -> pureable x -> (depth x < fuel)%nat ->
  xspec W s (pure_expansion fuel h) (pres_p x).
Proof.
  induction fuel as [| fuel IH]; intros x W s h Hi Hx Hp Hfu; [lia |]. cbn [pure_expansion].
  pose proof (vh_operands s h (i_wf _ _ Hi) (proj1 Hx)) as [n [Hu _]]. eapply x_unpack_bind; [exact Hu |].
  pose proof (denotes_by_node _ _ _ _ Hu (proj1 (proj2 Hx))) as Hn.
  pose proof (hdls_children s h x n (i_wf _ _ Hi) Hx Hu) as Hch.
  assert (Hself : (forall lf, In lf (leaves x) -> exists u, lf = LfVar u) -> xspec W s (ret h) (pres_p x)).
  { intros Hlf. apply x_ret; [assumption |]. exists x. split; [assumption |]. split; [reflexivity |].
    intros lf Hin. destruct (Hlf lf Hin) as [u ->]. apply in_map. unfold fvars. apply in_flat_map. exists (LfVar u). split; [assumption | left; reflexivity]. }
  assert (Hnary : forall conj ops xs, x = fnary conj xs -> Forall2 (hdl s) ops xs ->
    xspec W s (nary_lazy conj [] (map (pure_expansion fuel) ops)) (pres_p x)).
  { intros conj ops xs -> Ho. eapply x_conseq.
    - apply (x_nary_lazy conj (pure_expansion fuel) (fun _ => pure_res) (fun _ _ _ _ _ H => H) (mono_pure_expansion fuel) ops xs W s [] [] []); auto.
      intros o z t W' Hz Hi' He Hs Hoz. apply IH; auto.
      + eapply pureable_children; [exact Hp |]. destruct conj; exact Hz.
      + assert (Hzc : In z (children (fnary conj xs))) by (destruct conj; exact Hz). pose proof (children_depth _ _ Hzc). lia.
    - intros r s' W' _ _ _ [y [Hy Hl]]. cbn [app] in Hl. exists y. split; [assumption |]. eapply pure_leaves_lazy; eauto. }
  assert (Hkn : forall t, ext s t -> forall u, In u (fvars x) -> known t u).
  { intros t He u Hu'. eapply known_ext; [exact He |]. apply (proj2 (proj2 Hx)). assumption. }
  destruct n; cbn beta iota in *.
  - apply Hself. subst x. intros lf [].
  - apply Hself. subst x. intros lf [].
  - apply Hself. subst x. intros lf [<- | []]. eauto.
  - destruct Hn as [y [-> Hy]]. inversion Hch as [| ? ? ? ? Ha _]; subst.
    eapply x_bind; [apply (IH y); [assumption | assumption | exact Hp | cbn [depth] in Hfu; lia] | intros; mono_tac |].
    intros o s1 W1 Hi1 He1 _ [z [Hz [H1 H2]]]. apply (result_pres W1 s1 _ (fun v => negb (sem v z)) (FNot y) [z]); auto with mono.
    + eapply spec_conseq; [apply f_not_result; [apply Hi1 | apply Hz | apply Hz] |]. cbn [flat_map]. rewrite app_nil_r. auto.
    + intros v. cbn [sem]. rewrite H1. reflexivity.
    + cbn [flat_map]. rewrite app_nil_r. exact H2.
  - destruct Hn as [ys [-> Hy]]. apply (Hnary true _ ys); [reflexivity | exact Hch].
  - destruct Hn as [ys [-> Hy]]. apply (Hnary false _ ys); [reflexivity | exact Hch].
  - destruct Hn as [ya [yb [-> _]]]. inversion Hch as [| ? ? ? ? Ha Hch']; subst. inversion Hch' as [| ? ? ? ? Hb _]; subst. cbn [depth] in Hfu.
    eapply x_bind; [apply (IH ya); [assumption | assumption | eapply pureable_children; [exact Hp | left; reflexivity] | lia] | |].
    { intros; apply mono_bind; [apply mono_pure_expansion | intros; auto with mono]. }
    intros l' s1 W1 Hi1 He1 Hs1 Hl.
    eapply x_bind; [apply (IH yb); [assumption | eapply hdl_ext; eauto | eapply pureable_children; [exact Hp | right; left; reflexivity] | lia] | intros; auto with mono |].
    intros r' s2 W2 Hi2 He2 Hs2 [zb [Hzb [Rb Lb]]]. apply (pres_p_ext _ _ _ s2 _ W2 He2) in Hl. destruct Hl as [za [Hza [Ra La]]].
    apply (result_pres W2 s2 _ (fun v => implb (sem v za) (sem v zb)) _ [za; zb]); auto with mono.
    + apply Hkn. exact (ext_trans _ _ _ He1 He2).
    + eapply spec_conseq; [apply f_implication_result; [apply Hi2 | apply Hza | apply Hzb | apply Hza | apply Hzb] |]. cbn [flat_map]. rewrite app_nil_r. auto.
    + intros v. cbn [sem]. rewrite Ra, Rb. reflexivity.
    + cbn [flat_map]. rewrite app_nil_r, fvars_impl, map_app. apply incl_app; [apply incl_appl | apply incl_appr]; assumption.
  - destruct Hn as [ya [yb [-> _]]]. inversion Hch as [| ? ? ? ? Ha Hch']; subst. inversion Hch' as [| ? ? ? ? Hb _]; subst. cbn [depth] in Hfu.
    eapply x_bind; [apply (IH ya); [assumption | assumption | eapply pureable_children; [exact Hp | left; reflexivity] | lia] | |].
    { intros; apply mono_bind; [apply mono_pure_expansion | intros; auto with mono]. }
    intros l' s1 W1 Hi1 He1 Hs1 Hl.
    eapply x_bind; [apply (IH yb); [assumption | eapply hdl_ext; eauto | eapply pureable_children; [exact Hp | right; left; reflexivity] | lia] | intros; auto with mono |].
    intros r' s2 W2 Hi2 He2 Hs2 [zb [Hzb [Rb Lb]]]. apply (pres_p_ext _ _ _ s2 _ W2 He2) in Hl. destruct Hl as [za [Hza [Ra La]]].
    apply (result_pres W2 s2 _ (fun v => Bool.eqb (sem v za) (sem v zb)) _ [za; zb]); auto with mono.
    + apply Hkn. exact (ext_trans _ _ _ He1 He2).
    + eapply spec_conseq; [apply f_equivalence_result; [apply Hi2 | apply Hza | apply Hzb | apply Hza | apply Hzb] |]. cbn [flat_map]. rewrite app_nil_r. auto.
    + intros v. cbn [sem]. rewrite Ra, Rb. reflexivity.
    + cbn [flat_map]. rewrite app_nil_r, fvars_equiv, map_app. apply incl_app; [apply incl_appl | apply incl_appr]; assumption.
  - subst x. pose proof (Forall_inv Hp) as Hpc. cbn in Hpc. rewrite Hpc. apply (pure_cc_spec c W s h); assumption.
  - subst x. destruct (Forall_inv Hp).
Qed.
