(** The anonymizer: an injective renaming of the variables, kept from call to call. *)
From Coq Require Import List Bool Arith NArith ZArith Lia.
From Coq Require String DecimalString DecimalN DecimalFacts.
From Verif Require Import Base Syntax EncodingModel FactoryModel FactoryInv FactoryBasics FactoryProofs FactorySpecs FactoryNary FactoryOps EvalProofs
  HistoryProofs ConstraintModel ConstraintProofs OpsModel OpsProofs CcModel EncBasics CacheModel TransModel TreeSpec WorldProofs MetricsProofs
  EncodeProofs NnfProofs DefBasics.
Import ListNotations.
Local Open Scope N_scope.

Lemma append_inj : forall p a b, String.append p a = String.append p b -> a = b.
Proof. induction p as [| c p IH]; intros a b H; [exact H |]. cbn in H. injection H as H. auto. Qed.
Lemma anon_name_inj : forall p a b, anon_name p a = anon_name p b -> a = b.
Proof.
  intros p a b H. unfold anon_name in H. apply append_inj in H.
  assert (Hu : N.to_uint a = N.to_uint b).
  { assert (Hn : forall n, N.to_uint n <> Decimal.Nil).
    { intros n. destruct n as [| q]; [discriminate |]. cbn. intros E. apply (DecimalPos.Unsigned.to_uint_nonnil q). exact E. }
    pose proof (DecimalString.NilZero.usu (N.to_uint a) (Hn a)) as Ha. pose proof (DecimalString.NilZero.usu (N.to_uint b) (Hn b)) as Hb.
    rewrite H in Ha. congruence. }
  now apply DecimalN.Unsigned.to_uint_inj.
Qed.

Definition name_of (s : factory) (i : N) : option String.string := nthN (vt_vec (t_vars (f_tabs s))) i.
(** [u] is renamed to the variable with index [i]. *)
Definition renames (a : anonymizer) (s : factory) (u : var) (i : N) : Prop :=
  assoc var_eqb u (an_subst a) = Some (encode_lit (Lit (VFF i) true)) /\ known s (VFF i).

(** The entries are numbered names, with different numbers for different variables. *)
Record an_ok (a : anonymizer) (s : factory) : Prop := {
  an_entry : forall u g, assoc var_eqb u (an_subst a) = Some g ->
    exists i k, g = encode_lit (Lit (VFF i) true) /\ known s (VFF i) /\ name_of s i = Some (anon_name (an_prefix a) k) /\ k < an_counter a;
  an_inj : forall u u' i, renames a s u i -> renames a s u' i -> u = u'
}.

Lemma encode_var_inj : forall s i j, cap s -> known s (VFF i) -> known s (VFF j) ->
  encode_lit (Lit (VFF i) true) = encode_lit (Lit (VFF j) true) -> i = j.
Proof.
  intros s i j Hc Hi Hj E. assert (H : Ok (NLit (Lit (VFF i) true)) = Ok (NLit (Lit (VFF j) true))).
  { rewrite <- (unpack_lit s (Lit (VFF i) true) Hc (known_var_ok s _ Hc Hi)), <- (unpack_lit s (Lit (VFF j) true) Hc (known_var_ok s _ Hc Hj)), E. reflexivity. }
  now injection H.
Qed.
Lemma name_ext : forall s s' i n, ext s s' -> name_of s i = Some n -> name_of s' i = Some n.
Proof. intros s s' i n He H. eapply prefix_nthN; [apply (te_vars _ _ (proj1 He)) | exact H]. Qed.
Lemma an_ok_ext : forall a s s', cap s' -> ext s s' -> an_ok a s -> an_ok a s'.
Proof.
  intros a s s' Hc He [H1 H2]. constructor.
  - intros u g Hg. destruct (H1 u g Hg) as [i [k [E1 [E2 [E3 E4]]]]].
    exists i, k. split; [assumption |]. split; [eapply known_ext; eauto |]. split; [eapply name_ext; eauto | assumption].
  - assert (Hb : forall u i, renames a s' u i -> renames a s u i).
    { intros u i [Hu Hk]. split; [assumption |]. destruct (H1 _ _ Hu) as [j [k [E1 [E2 _]]]].
      rewrite (encode_var_inj s' i j Hc Hk (known_ext _ _ _ He E2) E1). assumption. }
    intros u u' i Hu Hu'. apply (H2 u u' i); auto.
Qed.
Lemma an_ok_new : forall p s, an_ok (anonymizer_new p) s.
Proof. intros p s. constructor; [discriminate |]. intros u u' i [H _]. discriminate. Qed.

(** Later anonymizers keep the entries of earlier ones. *)
Definition an_le (a a' : anonymizer) : Prop :=
  an_prefix a' = an_prefix a /\ an_counter a <= an_counter a' /\ forall u g, assoc var_eqb u (an_subst a) = Some g -> assoc var_eqb u (an_subst a') = Some g.
Lemma an_le_refl : forall a, an_le a a.
Proof. intros a. split; [reflexivity |]. split; [lia | auto]. Qed.
Lemma an_le_trans : forall a b c, an_le a b -> an_le b c -> an_le a c.
Proof. intros a b c [H1 [H2 H3]] [H4 [H5 H6]]. split; [congruence |]. split; [lia | auto]. Qed.

Lemma mono_anon_var : forall v a, mono (anon_var v a).
Proof. intros v a. unfold anon_var. destruct (assoc var_eqb v (an_subst a)); [apply mono_ret |]. apply mono_bind; [auto with mono | intros; apply mono_ret]. Qed.

Lemma anon_var_spec : forall v a W s, inv W s -> an_ok a s ->
  xspec W s (anon_var v a) (fun a' s' W' => W' = W /\ an_ok a' s' /\ an_le a a' /\ exists g, assoc var_eqb v (an_subst a') = Some g).
Proof.
  intros v a W s Hi Ha. unfold anon_var. destruct (assoc var_eqb v (an_subst a)) as [g |] eqn:E.
  - apply x_ret; [assumption |]. split; [reflexivity |]. split; [assumption |]. split; [apply an_le_refl |]. eauto.
  - eapply x_bind; [apply x_core; [assumption | apply f_variable_spec; apply Hi] | intros; apply mono_ret |].
    intros h s1 W1 Hi1 He1 _ [-> [_ [i [-> [Hv [Hok Hn]]]]]].
    assert (Hki : known s1 (VFF i)) by exact Hok.
    assert (Hcp : cap s1) by (apply wf_cap; apply Hi1).
    pose proof (an_ok_ext _ _ _ Hcp He1 Ha) as [H1 H2].
    assert (Hnew : forall u, ~ renames a s1 u i).
    { intros u [Hu _]. destruct (H1 u _ Hu) as [j [k [Ej [Hkj [Nj Hk]]]]]. apply (encode_var_inj s1) in Ej; [| assumption | assumption | assumption]. subst j.
      unfold name_of in Nj. rewrite Hn in Nj. injection Nj as Nj. apply anon_name_inj in Nj. lia. }
    assert (Has : forall u g, assoc var_eqb u ((v, encode_lit (Lit (VFF i) true)) :: an_subst a) = Some g ->
       (u = v /\ g = encode_lit (Lit (VFF i) true)) \/ (u <> v /\ assoc var_eqb u (an_subst a) = Some g)).
    { intros u g. cbn [assoc]. destruct (var_eqb u v) eqn:Euv.
      - intros Hg. injection Hg as <-. left. split; [now apply var_eqb_spec | reflexivity].
      - intros Hg. right. split; [| assumption]. intros ->. rewrite (proj2 (var_eqb_spec v v) eq_refl) in Euv. discriminate. }
    apply x_ret; [assumption |]. split; [reflexivity |]. split; [constructor |].
    + intros u g Hg. cbn [an_subst an_prefix an_counter] in *. destruct (Has u g Hg) as [[-> ->] | [_ Hg']].
      * exists i, (an_counter a). split; [reflexivity |]. split; [assumption |]. split; [exact Hn | lia].
      * destruct (H1 u g Hg') as [j [k [Ej [Hkj [Nj Hk]]]]]. exists j, k. repeat (split; [assumption |]). lia.
    + intros u u' j [Hu Hkj] [Hu' _]. cbn [an_subst] in Hu, Hu'.
      destruct (Has _ _ Hu) as [[-> Ei] | [Hn1 Hu1]]; destruct (Has _ _ Hu') as [[-> Ei'] | [Hn2 Hu2]].
      * reflexivity.
      * exfalso. apply (encode_var_inj s1 j i Hcp Hkj Hki) in Ei. subst j. apply (Hnew u'). split; assumption.
      * exfalso. apply (encode_var_inj s1 j i Hcp Hkj Hki) in Ei'. subst j. apply (Hnew u). split; assumption.
      * apply (H2 u u' j); split; assumption.
    + split.
      * split; [reflexivity |]. cbn [an_counter an_subst]. split; [lia |]. intros u g Hg. cbn [assoc]. destruct (var_eqb u v) eqn:Euv; [| assumption].
        apply var_eqb_spec in Euv. subst u. congruence.
      * cbn [an_subst assoc]. rewrite (proj2 (var_eqb_spec v v) eq_refl). eauto.
Qed.

Lemma anon_vars_spec : forall vs a W s, inv W s -> an_ok a s ->
  xspec W s (mfold anon_var vs a) (fun a' s' W' => W' = W /\ an_ok a' s' /\ an_le a a' /\ forall v, In v vs -> exists g, assoc var_eqb v (an_subst a') = Some g).
Proof.
  induction vs as [| v vs IH]; intros a W s Hi Ha; cbn [mfold].
  - apply x_ret; [assumption |]. split; [reflexivity |]. split; [assumption |]. split; [apply an_le_refl |]. intros v [].
  - eapply x_bind; [apply anon_var_spec; eassumption | intros; apply mono_mfold; intros; apply mono_anon_var |].
    intros a1 s1 W1 Hi1 He1 _ [-> [Ha1 [Hl1 [g Hg]]]]. eapply x_conseq; [apply IH; eassumption |].
    intros a2 s2 W2 _ _ _ [-> [Ha2 [Hl2 H2]]]. split; [reflexivity |]. split; [assumption |]. split; [eapply an_le_trans; eauto |].
    intros u [<- | Hu]; [| auto]. exists g. apply Hl2. assumption.
Qed.

(** The numbers of constraints stay within the types of the code. *)
Definition anon_leaf (lf : leaf) : Prop :=
  match lf with
  | LfVar _ => True
  | LfCc c => (Z.of_nat (length (cc_vars c)) < 4611686018427387904)%Z
  | LfPbc p => (sum_abs (pb_coeffs p) + Z.abs (pb_rhs p) < B63)%Z /\ ((pb_rhs p + sum_abs (pb_coeffs p) < 4294967296)%Z \/ ~ In 1%Z (pb_coeffs p))
  end.

Definition anon_res (x : fml) (a : anonymizer) (p : N * anonymizer) (s' : factory) : Prop :=
  an_ok (snd p) s' /\ an_le a (snd p) /\ (forall u, In u (fvars x) -> exists i, renames (snd p) s' u i)
  /\ exists y, hdl s' (fst p) y
     /\ (forall v w, (forall u i, renames (snd p) s' u i -> w u = v (VFF i)) -> sem v y = sem w x)
     /\ (forall u, In u (fvars y) -> exists u' i, In u' (fvars x) /\ u = VFF i /\ renames (snd p) s' u' i).

Theorem anonymize_spec : forall fuel x a W s h, inv W s -> hdl s h x -> an_ok a s -> Forall anon_leaf (leaves x) -> (depth x < fuel)%nat ->
  xspec W s (anonymize fuel h a) (fun p s' W' => anon_res x a p s').
Proof.
  intros fuel x a W s h Hi Hx Ha Hlf Hf. unfold anonymize.
  eapply x_bind; [apply (variables_spec fuel x); [assumption | apply Hx | apply Hx | assumption] | |].
  { intros vs. apply mono_bind; [apply mono_mfold; intros; apply mono_anon_var |]. intros a'. apply mono_bind; [auto with mono | intros; apply mono_ret]. }
  intros vs s1 W1 Hi1 He1 _ [_ Hvs].
  assert (Hcp1 : cap s1) by (apply wf_cap; apply Hi1).
  eapply x_bind; [apply anon_vars_spec; [assumption | eapply an_ok_ext; eauto] | intros; apply mono_bind; [auto with mono | intros; apply mono_ret] |].
  intros a2 s2 W2 Hi2 He2 _ [-> [Ha2 [Hl2 Hdom]]]. pose proof (wf_cap _ (i_wf _ _ Hi2)) as Hcp2.
  assert (Hx2 : hdl s2 h x) by (eapply hdl_ext; [exact (ext_trans _ _ _ He1 He2) | assumption]).
  assert (Hden : forall u g, assoc var_eqb u (an_subst a2) = Some g -> exists i, g = encode_lit (Lit (VFF i) true) /\ known s2 (VFF i) /\ hdl s2 g (FLit (Lit (VFF i) true))).
  { intros u g Hg. destruct (an_entry _ _ Ha2 u g Hg) as [i [k [-> [Hk _]]]]. exists i. split; [reflexivity |]. split; [assumption |]. apply hdl_lit; [apply Hi2 | assumption]. }
  assert (Hsub : spec wf core s2 (substitute fuel (an_subst a2) h) (tres (stree s2 (an_subst a2) x))).
  { apply substitute_spec; auto using ext_refl; [| apply (i_wf _ _ Hi2) | apply (proj1 Hx2) | apply (proj1 (proj2 Hx2)) |].
    - intros u g Hg. destruct (Hden u g Hg) as [i [_ [_ [H1 [H2 _]]]]]. split; eauto.
    - unfold substitutable. rewrite Forall_forall in *. intros lf Hin. specialize (Hlf lf Hin).
      assert (Hsi : forall b u, simple_image s2 (an_subst a2) b u).
      { intros b u g Hg. destruct (Hden u g Hg) as [i [_ [_ [_ [H2 _]]]]]. right. right. exists (Lit (VFF i) true). auto. }
      destruct lf as [u | c | p]; cbn [leaf_substitutable anon_leaf] in *; [exact I | |].
      + split; [apply Forall_forall; intros; apply Hsi | assumption].
      + split; [apply Forall_forall; intros; apply Hsi | assumption]. }
  eapply x_bind; [apply x_core; [assumption | exact Hsub] | intros; apply mono_ret |].
  intros r s3 W3 Hi3 He3 _ [-> [_ [Hv [y [Hd [Hs Hfv]]]]]]. pose proof (wf_cap _ (i_wf _ _ Hi3)) as Hcp3.
  assert (Hren : forall u, In u (fvars x) -> exists i, renames a2 s3 u i).
  { intros u Hu. apply Hvs in Hu. destruct (Hdom u Hu) as [g Hg]. destruct (Hden u g Hg) as [i [-> [Hk _]]]. exists i. split; [assumption | eapply known_ext; eauto]. }
  assert (Hfy : forall u, In u (fvars y) -> exists u' i, In u' (fvars x) /\ u = VFF i /\ renames a2 s3 u' i).
  { intros u Hu. destruct (Hfv u Hu) as [[Hin Hno] | [u' [g [z [Hin [Hg [Hz Hu']]]]]]].
    - destruct (Hren u Hin) as [i [Hg _]]. congruence.
    - destruct (Hden u' g Hg) as [i [Eg [Hk [_ [Hz' _]]]]]. rewrite (denotes_fun _ _ _ _ Hz Hz') in Hu'. destruct Hu' as [<- | []].
      exists u', i. subst g. split; [assumption |]. split; [reflexivity |]. split; [assumption | eapply known_ext; eauto]. }
  apply x_ret; [assumption |]. split; [eapply an_ok_ext; [exact Hcp3 | exact He3 | assumption] |]. cbn [fst snd]. split; [assumption |]. split; [assumption |].
  exists y. split; [split; [assumption |]; split; [assumption |] | split; [| assumption]].
  - intros u Hu. destruct (Hfy u Hu) as [u' [i [_ [-> [_ Hk]]]]]. assumption.
  - intros v w Hvw. set (w' := fun u => match assoc var_eqb u (an_subst a2) with Some _ => w u | None => v u end).
    rewrite (Hs v w').
    + apply sem_fvars. intros u Hu. unfold w'. destruct (Hren u Hu) as [i [Hg _]]. rewrite Hg. reflexivity.
    + intros u. unfold w'. destruct (assoc var_eqb u (an_subst a2)) as [g |] eqn:E; [| reflexivity].
      intros z Hz. destruct (Hden u g E) as [i [Eg [Hk [_ [Hz' _]]]]]. rewrite (denotes_fun _ _ _ _ Hz Hz'). cbn [sem lit_sem].
      apply Hvw. split; [now subst g | eapply known_ext; eauto].
Qed.
