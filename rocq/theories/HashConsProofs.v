(** Hash consing: equal formulas have equal handles; building a formula again changes nothing. *)
From Coq Require Import NArith ZArith List Bool Lia Permutation.
From Coq Require String.
From Verif Require Import Base EncodingModel EncodingProofs Syntax FactoryModel FactoryInv FactoryBasics FactoryProofs FactorySpecs
  FactoryNary FactoryOps InvariantSpec.
Import ListNotations.
Local Open Scope N_scope.

Lemma Forall2_In_r : forall A B (R : A -> B -> Prop) l m b, Forall2 R l m -> In b m -> exists a, In a l /\ R a b.
Proof.
  intros A B R l m b H. induction H as [| x y l m Hxy H IH]; intros Hin; [destruct Hin |].
  destruct Hin as [-> | Hin]; [exists x; split; [left; reflexivity | assumption] |].
  destruct (IH Hin) as [a [Ha HR]]. exists a. split; [right |]; assumption.
Qed.

Lemma same_set : forall s l xs k ys m', Forall2 (denotes s) l xs -> Forall2 (denotes s) k ys ->
  Forall2 feq xs m' -> Permutation m' ys -> Forall (vh s) l -> Forall (vh s) k ->
  Forall (fun x => forall h h' y, denotes s h x -> denotes s h' y -> vh s h -> vh s h' -> feq x y -> h = h') xs ->
  forall h, In h l <-> In h k.
Proof.
  intros s l xs k ys m' Hl Hk Hf Hp Vl Vk IH h. rewrite Forall_forall in IH, Vl, Vk. split; intros Hin.
  - destruct (Forall2_In_l _ _ _ _ _ _ Hl Hin) as [x [Hx Hdx]].
    destruct (Forall2_In_l _ _ _ _ _ _ Hf Hx) as [y [Hy Hxy]].
    assert (Hy' : In y ys) by (eapply Permutation_in; eauto).
    destruct (Forall2_In_r _ _ _ _ _ _ Hk Hy') as [h' [Hh' Hdy]].
    rewrite (IH x Hx h h' y) by auto. assumption.
  - destruct (Forall2_In_l _ _ _ _ _ _ Hk Hin) as [y [Hy Hdy]].
    assert (Hy' : In y m') by (eapply Permutation_in; [apply Permutation_sym; exact Hp | assumption]).
    destruct (Forall2_In_r _ _ _ _ _ _ Hf Hy') as [x [Hx Hxy]].
    destruct (Forall2_In_r _ _ _ _ _ _ Hl Hx) as [h' [Hh' Hdx]].
    rewrite <- (IH x Hx h' h y) by auto. assumption.
Qed.

Tactic Notation "vh_cases" constr(H) :=
  destruct H as [-> ? ? | -> ? ? | ? ? ? ? ? | ? ? ? ? ? ? | ? ? ? ? ? ? | ? ? ? ? ? ? | ? ? ? ? ? ? ? | ? ? ? ? ? ? ? | ? ? ? ? ? ? | ? ? ? ? ? ?].

Lemma vh_and_inv : forall s h l, wf s -> vh s h -> unpack s h = Ok (NAnd l) ->
  exists i, h = encode i TAnd false /\ nthN (vt_vec (c_small (t_ands (f_tabs s)))) i = Some l.
Proof. intros s h l Hw Hv Hu. vh_cases (vh_case s h (wf_cap s Hw) Hv); try congruence. eexists; split; [eassumption | congruence]. Qed.
Lemma vh_or_inv : forall s h l, wf s -> vh s h -> unpack s h = Ok (NOr l) ->
  exists i, h = encode i TOr false /\ nthN (vt_vec (c_small (t_ors (f_tabs s)))) i = Some l.
Proof. intros s h l Hw Hv Hu. vh_cases (vh_case s h (wf_cap s Hw) Hv); try congruence. eexists; split; [eassumption | congruence]. Qed.
Lemma vh_not_inv : forall s h l, wf s -> vh s h -> unpack s h = Ok (NNot l) ->
  exists i, h = encode i TNot false /\ nthN (vt_vec (c_small (t_nots (f_tabs s)))) i = Some l.
Proof. intros s h l Hw Hv Hu. vh_cases (vh_case s h (wf_cap s Hw) Hv); try congruence. eexists; split; [eassumption | congruence]. Qed.
Lemma vh_impl_inv : forall s h a b, wf s -> vh s h -> unpack s h = Ok (NImpl a b) ->
  exists i, h = encode i TImpl false /\ nthN (vt_vec (c_small (t_impls (f_tabs s)))) i = Some (a, b).
Proof. intros s h a b Hw Hv Hu. vh_cases (vh_case s h (wf_cap s Hw) Hv); try congruence. eexists; split; [eassumption | congruence]. Qed.
Lemma vh_equiv_inv : forall s h a b, wf s -> vh s h -> unpack s h = Ok (NEquiv a b) ->
  exists i, h = encode i TEquiv false /\ nthN (vt_vec (c_small (t_equivs (f_tabs s)))) i = Some (a, b).
Proof. intros s h a b Hw Hv Hu. vh_cases (vh_case s h (wf_cap s Hw) Hv); try congruence. eexists; split; [eassumption | congruence]. Qed.
Lemma vh_cc_inv : forall s h c, wf s -> vh s h -> unpack s h = Ok (NCc c) ->
  exists i, h = encode i TCc true /\ nthN (vt_vec (t_ccs (f_tabs s))) i = Some c.
Proof. intros s h l Hw Hv Hu. vh_cases (vh_case s h (wf_cap s Hw) Hv); try congruence. eexists; split; [eassumption | congruence]. Qed.
Lemma vh_pbc_inv : forall s h c, wf s -> vh s h -> unpack s h = Ok (NPbc c) ->
  exists i, h = encode i TPbc true /\ nthN (vt_vec (t_pbcs (f_tabs s))) i = Some c.
Proof. intros s h l Hw Hv Hu. vh_cases (vh_case s h (wf_cap s Hw) Hv); try congruence. eexists; split; [eassumption | congruence]. Qed.
Lemma vh_const_inv : forall s h (b : bool), wf s -> vh s h -> unpack s h = Ok (if b then NTrue else NFalse) -> h = constant b.
Proof. intros s h b Hw Hv Hu. vh_cases (vh_case s h (wf_cap s Hw) Hv); destruct b; try congruence; reflexivity. Qed.

Lemma node_ops_vh : forall s h n, wf s -> vh s h -> unpack s h = Ok n -> Forall (vh s) (node_operands n).
Proof.
  intros s h n Hw Hv Hu. destruct (vh_operands s h Hw Hv) as [m [Hm Hg]]. assert (m = n) by congruence. subst.
  apply Forall_good_vh. exact Hg.
Qed.

Lemma sort_pair_swap : forall a b, sort_pair (a, b) = sort_pair (b, a).
Proof.
  intros a b. unfold sort_pair. cbn. destruct (N.ltb_spec a b), (N.ltb_spec b a); try reflexivity; try lia.
  assert (a = b) by lia. subst. reflexivity.
Qed.

Theorem handles_canonical : forall s x h h' y, wf s ->
  denotes s h x -> denotes s h' y -> vh s h -> vh s h' -> feq x y -> h = h'.
Proof.
  intros s x h h' y Hw. revert h h' y. induction x using fml_ind2; intros h h' y Hx Hy Vh Vh' He;
    inversion He; subst; apply denotes_inv in Hx; apply denotes_inv in Hy.
  - rewrite (vh_const_inv s h true), (vh_const_inv s h' true); auto.
  - rewrite (vh_const_inv s h false), (vh_const_inv s h' false); auto.
  - destruct (vcase_lit_ok s h l (wf_cap s Hw) Vh Hx) as [-> _]. destruct (vcase_lit_ok s h' l (wf_cap s Hw) Vh' Hy) as [-> _]. reflexivity.
  - destruct Hx as [k [Hu Hk]]. destruct Hy as [k' [Hu' Hk']].
    pose proof (node_ops_vh _ _ _ Hw Vh Hu) as V. inversion V; subst. pose proof (node_ops_vh _ _ _ Hw Vh' Hu') as V'. inversion V'; subst.
    assert (k = k') by eauto. subst k'.
    destruct (vh_not_inv s h k Hw Vh Hu) as [i [-> Hi]]. destruct (vh_not_inv s h' k Hw Vh' Hu') as [j [-> Hj]].
    f_equal. destruct (wf_nots s Hw) as [Ht _]. eapply (vo_uniq _ _ _ _ _ Ht); eauto. apply N.eqb_refl.
  - destruct Hx as [k [Hu Hk]]. destruct Hy as [k' [Hu' Hk']].
    pose proof (node_ops_vh _ _ _ Hw Vh Hu) as V. pose proof (node_ops_vh _ _ _ Hw Vh' Hu') as V'. cbn in V, V'.
    assert (Hs : forall h, In h k <-> In h k') by (eapply same_set; eauto).
    destruct (vh_and_inv s h k Hw Vh Hu) as [i [-> Hi]]. destruct (vh_and_inv s h' k' Hw Vh' Hu') as [j [-> Hj]].
    f_equal. destruct (wf_ands s Hw) as [Ht _]. eapply (vo_uniq _ _ _ _ _ Ht); eauto. apply set_eqb_spec. exact Hs.
  - destruct Hx as [k [Hu Hk]]. destruct Hy as [k' [Hu' Hk']].
    pose proof (node_ops_vh _ _ _ Hw Vh Hu) as V. pose proof (node_ops_vh _ _ _ Hw Vh' Hu') as V'. cbn in V, V'.
    assert (Hs : forall h, In h k <-> In h k') by (eapply same_set; eauto).
    destruct (vh_or_inv s h k Hw Vh Hu) as [i [-> Hi]]. destruct (vh_or_inv s h' k' Hw Vh' Hu') as [j [-> Hj]].
    f_equal. destruct (wf_ors s Hw) as [Ht _]. eapply (vo_uniq _ _ _ _ _ Ht); eauto. apply set_eqb_spec. exact Hs.
  - destruct Hx as [k1 [k2 [Hu [Hk1 Hk2]]]]. destruct Hy as [k1' [k2' [Hu' [Hk1' Hk2']]]].
    pose proof (node_ops_vh _ _ _ Hw Vh Hu) as V. pose proof (node_ops_vh _ _ _ Hw Vh' Hu') as V'. cbn in V, V'.
    inversion V as [| ? ? V1 V2]; subst. inversion V2; subst. inversion V' as [| ? ? V1' V2']; subst. inversion V2'; subst.
    assert (k1 = k1') by eauto. assert (k2 = k2') by eauto. subst k1' k2'.
    destruct (vh_impl_inv s h _ _ Hw Vh Hu) as [i [-> Hi]]. destruct (vh_impl_inv s h' _ _ Hw Vh' Hu') as [j [-> Hj]].
    f_equal. destruct (wf_impls s Hw) as [Ht _]. eapply (vo_uniq _ _ _ _ _ Ht); eauto. apply pair_eqb_spec. reflexivity.
  - destruct Hx as [k1 [k2 [Hu [Hk1 Hk2]]]]. destruct Hy as [k1' [k2' [Hu' [Hk1' Hk2']]]].
    pose proof (node_ops_vh _ _ _ Hw Vh Hu) as V. pose proof (node_ops_vh _ _ _ Hw Vh' Hu') as V'. cbn in V, V'.
    inversion V as [| ? ? V1 V2]; subst. inversion V2; subst. inversion V' as [| ? ? V1' V2']; subst. inversion V2'; subst.
    assert (k1 = k1') by eauto. assert (k2 = k2') by eauto. subst k1' k2'.
    destruct (vh_equiv_inv s h _ _ Hw Vh Hu) as [i [-> Hi]]. destruct (vh_equiv_inv s h' _ _ Hw Vh' Hu') as [j [-> Hj]].
    f_equal. destruct (wf_equivs s Hw) as [Ht _]. eapply (vo_uniq _ _ _ _ _ Ht); eauto. apply pair_eqb_spec. reflexivity.
  - destruct Hx as [k1 [k2 [Hu [Hk1 Hk2]]]]. destruct Hy as [k1' [k2' [Hu' [Hk1' Hk2']]]].
    pose proof (node_ops_vh _ _ _ Hw Vh Hu) as V. pose proof (node_ops_vh _ _ _ Hw Vh' Hu') as V'. cbn in V, V'.
    inversion V as [| ? ? V1 V2]; subst. inversion V2; subst. inversion V' as [| ? ? V1' V2']; subst. inversion V2'; subst.
    assert (k1 = k2') by eauto. assert (k2 = k1') by eauto. subst k1' k2'.
    destruct (vh_equiv_inv s h _ _ Hw Vh Hu) as [i [-> Hi]]. destruct (vh_equiv_inv s h' _ _ Hw Vh' Hu') as [j [-> Hj]].
    f_equal. destruct (wf_equivs s Hw) as [Ht _]. eapply (vo_uniq _ _ _ _ _ Ht); eauto. apply pair_eqb_spec. apply sort_pair_swap.
  - destruct (vh_cc_inv s h _ Hw Vh Hx) as [i [-> Hi]]. destruct (vh_cc_inv s h' _ Hw Vh' Hy) as [j [-> Hj]].
    f_equal. eapply (vo_uniq _ _ _ _ _ (wf_ccs s Hw)); eauto. apply cc_eqb_spec. reflexivity.
  - destruct (vh_pbc_inv s h _ Hw Vh Hx) as [i [-> Hi]]. destruct (vh_pbc_inv s h' _ Hw Vh' Hy) as [j [-> Hj]].
    f_equal. eapply (vo_uniq _ _ _ _ _ (wf_pbcs s Hw)); eauto. apply pbc_eqb_spec. reflexivity.
Qed.

(* ------------------------------------------------------------------------------------------------------------------ *)
(** * Building again *)

(** Running [m] in [s] or in any later state of the factory returns [r] and changes nothing. *)
Definition settled {A} (m : M A) (s : factory) (r : A) : Prop := forall s2, wf s2 -> ext s s2 -> m s2 = (Ok r, s2).

Lemma goi_settled : forall V keq canon ty large (t : vtab V) key val i v, keq_ok keq -> vtab_ok keq canon ty large t ->
  nthN (vt_vec t) i = Some v -> keq key (canon v) = true -> vtab_goi keq ty large key val t = (encode i ty large, t).
Proof.
  intros V keq canon ty large t key val i v Hk Ht Hi Hkey. unfold vtab_goi.
  destruct (assoc keq key (vt_rev t)) as [e |] eqn:E.
  - destruct (assoc_some_ok _ _ _ _ _ _ _ _ Hk Ht E) as [j [w [Hj [Hw ->]]]].
    assert (i = j) as ->; [| reflexivity]. eapply (vo_uniq _ _ _ _ _ Ht); eauto.
    eapply (ke_trans _ Hk); [apply (ke_sym _ Hk); exact Hkey | exact Hw].
  - pose proof (assoc_none_ok _ _ _ _ _ _ _ Hk Ht E i v Hi). congruence.
Qed.

Lemma not_insert_settled : forall s h r, wf s -> vh s h -> vh s r -> unpack s r = Ok (NNot h) -> f_not_insert h s = (Ok r, s).
Proof.
  intros s h r Hw Vh Vr Hu. destruct (vh_not_inv s r h Hw Vr Hu) as [i [-> Hi]].
  unfold f_not_insert, updt, not_goi. rewrite (vh_not_large s h (wf_cap s Hw) Vh), (vh_as_32 s h (wf_cap s Hw) Vh).
  destruct (wf_nots s Hw) as [Ht _]. rewrite (goi_settled _ _ _ _ _ _ _ _ _ _ keq_N Ht Hi (N.eqb_refl h)). cbn [fst snd].
  rewrite eta_c2, eta_nots, eta_tabs. reflexivity.
Qed.
Lemma impl_insert_settled : forall s a b r, wf s -> vh s a -> vh s b -> vh s r -> unpack s r = Ok (NImpl a b) ->
  updt (fun t => let '(e, c) := impl_goi a b (t_impls t) in (e, set_impls t c)) s = (Ok r, s).
Proof.
  intros s a b r Hw Va Vb Vr Hu. destruct (vh_impl_inv s r a b Hw Vr Hu) as [i [-> Hi]]. pose proof (wf_cap s Hw) as Hc.
  unfold updt, impl_goi. rewrite (vh_not_large s a Hc Va), (vh_as_32 s a Hc Va), (vh_not_large s b Hc Vb), (vh_as_32 s b Hc Vb). cbn [orb].
  destruct (wf_impls s Hw) as [Ht _]. rewrite (goi_settled _ _ _ _ _ _ _ _ _ _ keq_pair Ht Hi (proj2 (pair_eqb_spec (a, b) (a, b)) eq_refl)).
  cbn [fst snd]. rewrite eta_c2, eta_impls, eta_tabs. reflexivity.
Qed.
Lemma equiv_insert_settled : forall s a b r, wf s -> vh s a -> vh s b -> vh s r ->
  unpack s r = Ok (NEquiv a b) \/ unpack s r = Ok (NEquiv b a) ->
  updt (fun t => let '(e, c) := equiv_goi a b (t_equivs t) in (e, set_equivs t c)) s = (Ok r, s).
Proof.
  intros s a b r Hw Va Vb Vr Hu. pose proof (wf_cap s Hw) as Hc.
  assert (exists i p, r = encode i TEquiv false /\ nthN (vt_vec (c_small (t_equivs (f_tabs s)))) i = Some p /\ sort_pair p = sort_pair (a, b))
    as [i [p [-> [Hi Hp]]]].
  { destruct Hu as [Hu | Hu]; destruct (vh_equiv_inv s r _ _ Hw Vr Hu) as [i [-> Hi]]; exists i; eexists; split; [reflexivity | | reflexivity |];
      split; try exact Hi; [reflexivity | apply sort_pair_swap]. }
  unfold updt, equiv_goi. rewrite (vh_not_large s a Hc Va), (vh_as_32 s a Hc Va), (vh_not_large s b Hc Vb), (vh_as_32 s b Hc Vb). cbn [orb].
  destruct (wf_equivs s Hw) as [Ht _].
  rewrite (goi_settled _ _ sort_pair _ _ _ _ _ i p keq_pair Ht Hi); [| apply pair_eqb_spec; congruence].
  cbn [fst snd]. rewrite eta_c2, eta_equivs, eta_tabs. reflexivity.
Qed.
Lemma cc_insert_settled : forall s c r, wf s -> vh s r -> unpack s r = Ok (NCc c) -> cc_insert c s = (Ok r, s).
Proof.
  intros s c r Hw Vr Hu. destruct (vh_cc_inv s r c Hw Vr Hu) as [i [-> Hi]]. unfold cc_insert, updt. rewrite simple_goi_vtab.
  rewrite (goi_settled _ _ _ _ _ _ _ _ _ _ keq_cc (wf_ccs s Hw) Hi (proj2 (cc_eqb_spec c c) eq_refl)). cbn [fst snd].
  rewrite eta_ccs, eta_tabs. reflexivity.
Qed.
Lemma pbc_insert_settled : forall s c r, wf s -> vh s r -> unpack s r = Ok (NPbc c) -> pbc_insert c s = (Ok r, s).
Proof.
  intros s c r Hw Vr Hu. destruct (vh_pbc_inv s r c Hw Vr Hu) as [i [-> Hi]]. unfold pbc_insert, updt. rewrite simple_goi_vtab.
  rewrite (goi_settled _ _ _ _ _ _ _ _ _ _ keq_pbc (wf_pbcs s Hw) Hi (proj2 (pbc_eqb_spec c c) eq_refl)). cbn [fst snd].
  rewrite eta_pbcs, eta_tabs. reflexivity.
Qed.

(** The preparation of n-ary operands gives the same answer in every later state. *)
Lemma filter_loop_stable : forall s s2 conj sub sub2, wf s -> wf s2 -> ext s s2 ->
  forall ops large r, Forall (vh s) ops -> frs64 r = [] -> Forall (vh s) (frs32 r) ->
  (forall o l r0, In o ops -> unpack s o = Ok (nnode conj l) -> frs64 r0 = [] -> Forall (vh s) (frs32 r0) ->
     sub l r0 = sub2 l r0 /\ (forall b r1, sub l r0 = Ok (b, r1) -> frs64 r1 = [] /\ Forall (vh s) (frs32 r1))) ->
  large = false ->
  filter_loop sub s conj ops large r = filter_loop sub2 s2 conj ops large r
  /\ (forall b r1, filter_loop sub s conj ops large r = Ok (b, r1) -> frs64 r1 = [] /\ Forall (vh s) (frs32 r1)).
Proof.
  intros s s2 conj sub sub2 Hw Hw2 He. pose proof (wf_cap s Hw) as Hc.
  induction ops as [| h ops IH]; intros large r Hv H64 H32 Hsub ->; cbn [filter_loop].
  - split; [reflexivity |]. intros b r1 Hq. injection Hq as <- <-. auto.
  - inversion Hv as [| ? ? Vh Vops]; subst.
    destruct (vh_operands s h Hw Vh) as [n [Hn _]]. pose proof (unpack_ext s s2 h n (proj1 He) Hn) as Hn2.
    pose proof (type_node s h n Hc Vh Hn) as Hty. unfold ftype. rewrite Hty. cbn [of_opt rbind].
    assert (Hsub' : forall o l r0, In o ops -> unpack s o = Ok (nnode conj l) -> frs64 r0 = [] -> Forall (vh s) (frs32 r0) ->
     sub l r0 = sub2 l r0 /\ (forall b r1, sub l r0 = Ok (b, r1) -> frs64 r1 = [] /\ Forall (vh s) (frs32 r1))).
    { intros o l r0 Ho. apply Hsub. right. assumption. }
    destruct (is_nary_type conj _) eqn:Enary.
    + unfold operands. rewrite Hn, Hn2. cbn [rbind].
      assert (Hnn : n = nnode conj (node_operands n)) by (destruct n, conj; try discriminate; reflexivity).
      destruct (Hsub h (node_operands n) r (or_introl eq_refl)) as [S1 S2]; auto; [congruence |].
      rewrite <- S1. destruct (sub (node_operands n) r) as [[b r1] | | ] eqn:Es; cbn [rbind fst snd].
      * destruct (S2 b r1 eq_refl) as [Q1 Q2]. destruct b.
        -- apply IH; auto.
        -- split; [reflexivity |]. intros b r2 Hq. injection Hq as <- <-. auto.
      * split; [reflexivity | discriminate].
      * split; [reflexivity | discriminate].
    + assert (Hflag : cnf_flag s conj h (fr_cnf r) = cnf_flag s2 conj h (fr_cnf r)).
      { unfold cnf_flag. destruct (fr_cnf r); [| reflexivity]. destruct conj; [| reflexivity].
        destruct (vh_denotes s h Hw Vh) as [x Hx].
        rewrite (wf_cnf_exact s Hw h x Vh Hx), (wf_cnf_exact s2 Hw2 h x); auto; [eapply vh_ext; eauto | eapply denotes_ext; eauto]. }
      rewrite <- Hflag. rewrite (cnf_flag_spec s conj h _ Hc Vh). cbn [rbind].
      set (r1 := mkFR (fr32 r) (frs32 r) (fr64 r) (frs64 r) (fr_cnf r && flag_of s conj h)).
      assert (Hr1 : frs64 r1 = [] /\ Forall (vh s) (frs32 r1)) by (split; assumption).
      destruct (is_verum h) eqn:Ev; [destruct conj; [apply IH; tauto || auto |] |
        destruct (is_falsum h) eqn:Ef; [destruct conj; [| apply IH; tauto || auto] |]].
      * split; [reflexivity |]. intros b r2 Hq. injection Hq as <- <-. auto.
      * split; [reflexivity |]. intros b r2 Hq. injection Hq as <- <-. auto.
      * rewrite H64.
        destruct (contains_complement_spec s (frs32 r) h Hw H32 Vh (Coq.Init.Logic.conj Ev Ef)) as [b [Hb Hbs]].
        destruct (contains_complement_spec s2 (frs32 r) h Hw2) as [b2 [Hb2 Hbs2]]; auto.
        { eapply Forall_vh_ext; eauto. } { eapply vh_ext; eauto. } { split; assumption. }
        assert (b = b2) as <-.
        { apply eq_true_iff_eq. rewrite Hbs, Hbs2. rewrite Forall_forall in H32. split; intros [y [Hy Hcy]]; exists y; split; auto.
          - destruct Hcy as [Q | [Q | [l [Q1 Q2]]]]; [left | right; left | right; right; exists l; split];
              eapply unpack_ext; try apply He; eassumption.
          - eapply compl_back; eauto. }
        rewrite Hb, Hb2. cbn [rbind]. destruct b.
        -- split; [reflexivity |]. intros b r2 Hq. injection Hq as <- <-. auto.
        -- cbn [orb]. rewrite (vh_not_large s h Hc Vh). apply IH; auto.
           ++ unfold filter_insert. destruct (set_insert (as_32 h) (frs32 r)). exact H64.
           ++ unfold filter_insert, set_insert. rewrite (vh_as_32 s h Hc Vh).
              destruct (memN h (frs32 r)); cbn; [assumption |]. apply Forall_app. split; [assumption |]. constructor; [assumption | constructor].
Qed.

Lemma filter_flatten_stable : forall s s2 conj n n2 ops, wf s -> wf s2 -> ext s s2 -> Forall (vh s) ops ->
  filter_flatten (S (S n)) s conj ops (mkFR [] [] [] [] true) = filter_flatten (S (S n2)) s2 conj ops (mkFR [] [] [] [] true).
Proof.
  intros s s2 conj n n2 ops Hw Hw2 He Hv. cbn [filter_flatten].
  apply filter_loop_stable; auto; cbn [frs32]; [constructor |].
  intros o l r0 Ho Hu H64 H32. rewrite Forall_forall in Hv. pose proof (Hv o Ho) as Vo.
  assert (Vl : Forall (vh s) l) by (pose proof (node_ops_vh s o _ Hw Vo Hu); destruct conj; assumption).
  assert (Hflat : forall x, In x l -> forall k, unpack s x <> Ok (nnode conj k)).
  { pose proof (type_node s o _ (wf_cap s Hw) Vo Hu) as Hto.
    destruct (vh_nary s conj o _ Hw Vo Hto) as [l' [Hu' [Hok _]]]; [destruct conj; reflexivity |].
    assert (l' = l) by (destruct conj; cbn [nnode] in *; congruence). subst l'.
    intros x Hx. apply not_nnode; auto; [rewrite Forall_forall in Vl; auto |].
    pose proof (oo_flat _ _ _ Hok) as Hf. rewrite Forall_forall in Hf. apply Hf. assumption. }
  apply filter_loop_stable; auto. intros o' l' r1 Ho' Hu'. exfalso. eapply Hflat; eauto.
Qed.

Lemma prepare_stable : forall s s2 conj ops, wf s -> wf s2 -> ext s s2 -> Forall (vh s) ops ->
  prepare_nary s2 conj ops = prepare_nary s conj ops.
Proof.
  intros s s2 conj ops Hw Hw2 He Hv. unfold prepare_nary, flatten_fuel.
  erewrite (filter_flatten_stable s s2); eauto.
Qed.

Lemma note_settled : forall s h, is_cnf s h = Ok true -> is_nary_operator h = true -> note_is_cnf h s = s.
Proof.
  intros s h Hc Hn. unfold note_is_cnf, oc_insert. unfold is_cnf, ftype, is_nary_operator, oc_get in *.
  destruct (formula_type_of h) as [[] |]; try discriminate; cbn [of_opt rbind] in Hc;
    destruct (assoc N.eqb h (oc_is_cnf (f_caches s))); try discriminate; destruct s as [? ? ? ? ? []]; reflexivity.
Qed.

Lemma f_nary_settled : forall s conj ops r s', wf s -> Forall (vh s) ops -> f_nary conj ops s = (Ok r, s') -> cap s' ->
  settled (f_nary conj ops) s' r.
Proof.
  intros s conj ops r s' Hw Hv Hrun Hcap s2 Hw2 He2.
  pose proof (f_nary_spec s conj ops Hw Hv) as [_ Hsp]. rewrite Hrun in Hsp. cbn [fst snd] in Hsp.
  destruct (Hsp Hcap) as [a [Ha [Hw' [Hcore [Vr _]]]]]. injection Ha as <-. clear Hsp.
  pose proof (core_ext _ _ Hcore) as He. assert (He02 : ext s s2) by (eapply ext_trans; eauto).
  unfold f_nary, bind, lift in *. rewrite (prepare_stable s s2 conj ops Hw Hw2 He02 Hv).
  pose proof (prepare_nary_spec s conj ops Hw Hv) as Hp.
  destruct (prepare_nary s conj ops) as [[fr |] | | ]; try contradiction; cbn [fst snd] in *.
  2:{ unfold ret in *. congruence. }
  destruct Hp as [[F64 Fs64 Fset Fops Fcnf] _]. rewrite F64 in *.
  assert (Hnote : forall h, is_cnf s' h = Ok true -> vh s' h -> is_nary_operator h = true -> note_is_cnf h s2 = s2).
  { intros h Hc Vh Hn. apply note_settled; auto. destruct (vh_denotes s' h Hw' Vh) as [x Hx].
    rewrite (wf_cnf_exact s' Hw' h x Vh Hx) in Hc. rewrite (wf_cnf_exact s2 Hw2 h x); auto; eauto using vh_ext, denotes_ext. }
  assert (Hnoted : forall h s0, is_nary_operator h = true -> is_cnf (note_is_cnf h s0) h = Ok true).
  { intros h s0 Hn. unfold is_cnf, ftype, is_nary_operator in *. destruct (formula_type_of h) as [[] |]; try discriminate; cbn [of_opt rbind];
      unfold note_is_cnf; cbn [f_caches with_caches oc_is_cnf set_is_cnf]; rewrite oc_insert_get, N.eqb_refl;
      destruct (oc_get h (oc_is_cnf (f_caches s0))); reflexivity. }
  assert (Hend : forall h s0, (if fr_cnf fr && is_nary_operator h then modf (note_is_cnf h) else ret tt) s0
     = (Ok tt, if fr_cnf fr && is_nary_operator h then note_is_cnf h s0 else s0)).
  { intros. destruct (fr_cnf fr && is_nary_operator h); reflexivity. }
  assert (Hfin : forall h s0, r = h -> s' = (if fr_cnf fr && is_nary_operator h then note_is_cnf h s0 else s0) ->
     (match (if fr_cnf fr && is_nary_operator h then modf (note_is_cnf h) else ret tt) s2 with
        | (Ok _, s') => ret h s' | (Panic, s') => (Panic, s') | (NoFuel, s') => (NoFuel, s') end) = (Ok r, s2)).
  { intros h s0 -> Hs'. rewrite Hend. destruct (fr_cnf fr && is_nary_operator h) eqn:Ef; [| reflexivity].
    apply andb_true_iff in Ef. destruct Ef as [_ En]. rewrite Hnote; [reflexivity | | assumption | assumption].
    rewrite Hs'. apply Hnoted. assumption. }
  destruct (fr32 fr) as [| h0 [| h1 L0]] eqn:E32.
  - unfold ret at 1 in Hrun. unfold ret at 1. rewrite Hend in Hrun. unfold ret in Hrun. injection Hrun as Hr Hs.
    eapply Hfin; eauto.
  - unfold ret at 1 in Hrun. unfold ret at 1. rewrite Hend in Hrun. unfold ret in Hrun. injection Hrun as Hr Hs.
    eapply Hfin; eauto.
  - destruct (nary_insert conj fr s) as [o s1] eqn:Ei. unfold nary_insert, updt, nary_goi in *. rewrite F64, E32, Fset in *.
    set (L := h0 :: h1 :: L0) in *.
    destruct (vtab_goi set_eqb (nary_type conj) false L L (c_small (nary_cache_of conj (f_tabs s)))) as [e t] eqn:E.
    cbn [fst snd] in *. injection Ei as <- <-. rewrite Hend in Hrun. unfold ret at 1 in Hrun. injection Hrun as <- Hs'.
    assert (Hok : vtab_ok set_eqb id (nary_type conj) false (c_small (nary_cache_of conj (f_tabs s)))).
    { destruct conj; [apply (wf_ands s Hw) | apply (wf_ors s Hw)]. }
    assert (Hkk : set_eqb L (id L) = true) by (apply (ke_refl _ keq_set)).
    assert (exists i K, e = encode i (nary_type conj) false /\ nthN (vt_vec t) i = Some K /\ set_eqb L K = true) as [i [K [-> [Hi HK]]]].
    { destruct (vtab_goi_spec _ set_eqb id _ _ _ _ _ _ _ keq_set Hok Hkk E) as [Ht [[-> [i [K [Hi [Hk ->]]]]] | [Hvec [-> _]]]].
      - exists i, K. auto.
      - exists (lenN (vt_vec (c_small (nary_cache_of conj (f_tabs s))))), L. split; [reflexivity |]. split; [| assumption].
        rewrite Hvec. apply nthN_app_last. }
    assert (Htab : f_tabs s' = set_nary conj (f_tabs s) (mkCache2 t (c_large (nary_cache_of conj (f_tabs s))))).
    { rewrite <- Hs'. destruct (fr_cnf fr && _); reflexivity. }
    assert (Hi2 : nthN (vt_vec (c_small (nary_cache_of conj (f_tabs s2)))) i = Some K).
    { destruct He2 as [Hte _]. rewrite Htab in Hte. destruct conj; cbn [nary_cache_of set_nary] in *.
      - eapply prefix_nthN; [apply (te_ands _ _ Hte) | exact Hi].
      - eapply prefix_nthN; [apply (te_ors _ _ Hte) | exact Hi]. }
    assert (Hok2 : vtab_ok set_eqb id (nary_type conj) false (c_small (nary_cache_of conj (f_tabs s2)))).
    { destruct conj; [apply (wf_ands s2 Hw2) | apply (wf_ors s2 Hw2)]. }
    rewrite (goi_settled _ _ id _ _ _ L L i K keq_set Hok2 Hi2 HK). cbn [fst snd].
    assert (Hsame : with_tabs s2 (set_nary conj (f_tabs s2) (mkCache2 (c_small (nary_cache_of conj (f_tabs s2))) (c_large (nary_cache_of conj (f_tabs s2))))) = s2).
    { rewrite eta_c2. destruct conj; cbn [set_nary nary_cache_of]; [rewrite eta_ands | rewrite eta_ors]; rewrite eta_tabs; reflexivity. }
    rewrite Hsame. eapply Hfin; eauto.
Qed.

Lemma settled_ext : forall A (m : M A) s s' r, ext s s' -> settled m s r -> settled m s' r.
Proof. intros A m s s' r He H s2 Hw2 He2. apply H; auto. eapply ext_trans; eauto. Qed.
Lemma settled_ret : forall A (a : A) s, settled (ret a) s a.
Proof. intros A a s s2 _ _. reflexivity. Qed.
Lemma settled_bind : forall A B (m : M A) (k : A -> M B) s a b, settled m s a -> settled (k a) s b -> settled (bind m k) s b.
Proof. intros A B m k s a b H1 H2 s2 Hw He. unfold bind. rewrite (H1 s2 Hw He). apply H2; assumption. Qed.

(** [m] run from [s] leaves a state in which running it again changes nothing. *)
Definition again {A} (m : M A) (s : factory) : Prop := forall r s', m s = (Ok r, s') -> cap s' -> settled m s' r.

Lemma again_ret : forall A (a : A) s, again (ret a) s.
Proof. intros A a s r s' H _. injection H as -> <-. apply settled_ret. Qed.

Lemma again_bind : forall A B (m : M A) (k : A -> M B) s Q, spec wf core s m Q -> again m s -> (forall a, mono (k a)) ->
  (forall a s', wf s' -> core s s' -> Q a s' -> again (k a) s' /\ spec wf core s' (k a) (fun _ _ => True)) -> again (bind m k) s.
Proof.
  intros A B m k s Q Hm Ha Hmono Hk r s2 Hrun Hc. unfold bind in Hrun.
  destruct (m s) as [[a | | ] s1] eqn:E; try discriminate.
  assert (Hc1 : cap s1) by (eapply cap_le; [apply (Hmono a) |]; rewrite Hrun; exact Hc).
  destruct (spec_run _ _ _ _ _ _ _ _ Hm E Hc1) as [a' [Ea [Hw1 [Hcore HQ]]]]. injection Ea as <-.
  destruct (Hk a s1 Hw1 Hcore HQ) as [Hk1 Hk2].
  destruct (spec_run _ _ _ _ _ _ _ _ Hk2 Hrun Hc) as [b [Eb [Hw2 [Hcore2 _]]]].
  eapply settled_bind.
  - eapply settled_ext; [apply core_ext; exact Hcore2 |]. apply Ha; [exact E | exact Hc1].
  - apply Hk1; auto.
Qed.

Lemma again_cc_insert : forall s c, wf s ->
  cc_vars c <> [] -> Forall (var_ok s) (cc_vars c) -> cc_rhs c < 4294967296 -> (cc_cmp c = LT -> cc_rhs c <> 0) -> again (cc_insert c) s.
Proof.
  intros s c Hw C1 C2 C3 C4 r s' Hrun Hc s2 Hw2 He2.
  destruct (spec_run _ _ _ _ _ _ _ _ (cc_insert_spec s c Hw C1 C2 C3 C4) Hrun Hc) as [a [Ea [Hw' [Hcore [Hv Hu]]]]]. injection Ea as <-.
  apply cc_insert_settled; auto; [eapply vh_ext; eauto | eapply unpack_ext; [apply He2 | assumption]].
Qed.
Lemma again_pbc_insert : forall s p, wf s ->
  pb_lits p <> [] -> length (pb_lits p) = length (pb_coeffs p) -> Forall (lit_ok s) (pb_lits p) ->
  is_lit_cc (pb_cmp p) (pb_rhs p) (pb_lits p) (pb_coeffs p) = false -> again (pbc_insert p) s.
Proof.
  intros s c Hw C1 C2 C3 C4 r s' Hrun Hc s2 Hw2 He2.
  destruct (spec_run _ _ _ _ _ _ _ _ (pbc_insert_spec s c Hw C1 C2 C3 C4) Hrun Hc) as [a [Ea [Hw' [Hcore [Hv Hu]]]]]. injection Ea as <-.
  apply pbc_insert_settled; auto; [eapply vh_ext; eauto | eapply unpack_ext; [apply He2 | assumption]].
Qed.
Lemma again_not_insert : forall s h, wf s -> vh s h -> negatable h -> again (f_not_insert h) s.
Proof.
  intros s h Hw Vh Hn r s' Hrun Hc s2 Hw2 He2.
  destruct (spec_run _ _ _ _ _ _ _ _ (not_insert_spec s h Hw Vh Hn) Hrun Hc) as [a [Ea [Hw' [Hcore [Hv Hu]]]]]. injection Ea as <-.
  assert (ext s s2) by (eapply ext_trans; [apply core_ext; eassumption | assumption]).
  apply not_insert_settled; auto; [eapply vh_ext; [| exact Vh]; assumption | eapply vh_ext; [exact He2 | assumption] |
    eapply unpack_ext; [apply He2 | assumption]].
Qed.
Lemma again_nary : forall s conj ops, wf s -> Forall (vh s) ops -> again (f_nary conj ops) s.
Proof. intros s conj ops Hw Hv r s' Hrun Hc. eapply f_nary_settled; eauto. Qed.

Lemma construct_cc_again : forall s c rhs vs, wf s -> is_cc c rhs = true -> (rhs < 4294967296)%Z -> Forall (var_ok s) vs ->
  again (construct_cc_unsafe c rhs vs) s.
Proof.
  intros s c rhs vs Hw Hc Hr Hvs. unfold construct_cc_unsafe. destruct vs as [| x vs]; [apply again_ret |].
  destruct (Z.leb_spec 0 rhs) as [H0 | H0].
  - rewrite z_as_u32_small by lia. apply again_cc_insert; auto; cbn; try discriminate; try lia.
    intros ->. cbn in Hc. apply Z.leb_le in Hc. lia.
  - destruct c; cbn in Hc; apply Z.leb_le in Hc; try lia. apply again_cc_insert; auto; cbn; try discriminate; lia.
Qed.

Lemma f_pbc_again : forall s c rhs ls cs, wf s -> Forall (lit_ok s) ls -> length ls = length cs -> pb_fits c rhs ls cs ->
  again (f_pbc c rhs ls cs) s.
Proof.
  intros s c rhs ls cs Hw Hls Hlen Hfit. unfold f_pbc. rewrite (proj2 (Nat.eqb_eq _ _) Hlen). destruct ls as [| l ls]; [apply again_ret |].
  destruct (is_lit_cc c rhs (l :: ls) cs) eqn:E.
  - pose proof (Hfit E). unfold is_lit_cc in E. apply andb_true_iff in E. destruct E as [_ E].
    apply construct_cc_again; auto. apply Forall_map. exact Hls.
  - apply again_pbc_insert; auto. discriminate.
Qed.

Lemma f_cc_again : forall s c rhs vs, wf s -> Forall (var_ok s) vs -> rhs < 4294967296 -> (c = LT -> rhs <> 0) -> again (f_cc c rhs vs) s.
Proof.
  intros s c rhs vs Hw Hvs Hr Hlt. unfold f_cc.
  assert (Hc : is_cc c (Z.of_N rhs) = true).
  { destruct c; cbn; apply Z.leb_le; try lia. specialize (Hlt eq_refl). lia. }
  rewrite Hc. apply construct_cc_again; auto. lia.
Qed.

Lemma spec_true : forall A I R s (m : M A) Q, spec I R s m Q -> spec I R s m (fun _ _ => True).
Proof. intros. eapply spec_conseq; eauto. Qed.

Lemma eq_negate_again : forall s rhs ls cs, wf s -> Forall (lit_ok s) ls -> length ls = length cs ->
  pb_fits LT rhs ls cs -> pb_fits GT rhs ls cs ->
  again (lt <-- f_pbc LT rhs ls cs ;; gt <-- f_pbc GT rhs ls cs ;; f_or [lt; gt]) s.
Proof.
  intros s rhs ls cs Hw Hls Hlen H1 H2.
  eapply again_bind; [apply f_pbc_result; eassumption | apply f_pbc_again; assumption | intros; mono_tac |].
  intros lt s1 Hw1 Hc1 [Vlt _].
  assert (Hls1 : Forall (lit_ok s1) ls) by (eapply Forall_impl; [| exact Hls]; intros; eapply lit_ok_ext; eauto using core_ext).
  split.
  - eapply again_bind; [apply f_pbc_result; eassumption | apply f_pbc_again; assumption | intros; mono_tac |].
    intros gt s2 Hw2 Hc2 [Vgt _].
    assert (Forall (vh s2) [lt; gt]) by (constructor; [eapply vh_ext; [apply core_ext; exact Hc2 | assumption] | constructor; auto]).
    split; [apply again_nary; auto | eapply spec_true; apply f_nary_spec; auto].
  - eapply spec_bind; [exact core_trans | apply f_pbc_result; eassumption | intros; mono_tac |].
    intros gt s2 Hw2 Hc2 [Vgt _].
    assert (Forall (vh s2) [lt; gt]) by (constructor; [eapply vh_ext; [apply core_ext; exact Hc2 | assumption] | constructor; auto]).
    eapply spec_true; apply f_nary_spec; auto.
Qed.

Lemma again_lift_bind : forall A B (g : factory -> res A) (k : A -> M B) s a, g s = Ok a ->
  (forall s2, wf s2 -> ext s s2 -> g s2 = Ok a) -> ((forall r s', k a s = (Ok r, s') -> cap s' -> ext s s') ) -> again (k a) s -> again (bind (lift g) k) s.
Proof.
  intros A B g k s a Hg Hg2 Hext Ha r s' Hrun Hc. unfold bind, lift in Hrun. rewrite Hg in Hrun.
  eapply settled_bind; [| apply Ha; eassumption].
  intros s2 Hw2 He2. unfold lift. rewrite (Hg2 s2 Hw2); [reflexivity |]. eapply ext_trans; [| exact He2]. eapply Hext; eauto.
Qed.

Lemma spec_ext_run : forall A s (m : M A) Q, spec wf core s m Q -> forall r s', m s = (Ok r, s') -> cap s' -> ext s s'.
Proof.
  intros A s m Q H r s' Hrun Hc. destruct (spec_run _ _ _ _ _ _ _ _ H Hrun Hc) as [a [_ [_ [Hcore _]]]]. apply core_ext. assumption.
Qed.

Lemma cc_negate_again : forall s c, wf s -> Forall (var_ok s) (cc_vars c) -> cc_rhs c < 4294967296 -> again (cc_negate c) s.
Proof.
  intros s c Hw Hvs Hr.
  assert (Hls : Forall (lit_ok s) (pos_lits (cc_vars c))) by (apply Forall_map; exact Hvs).
  assert (Hlen : length (pos_lits (cc_vars c)) = length (repeat 1%Z (length (cc_vars c)))).
  { unfold pos_lits. rewrite map_length, repeat_length. reflexivity. }
  assert (Hfit : forall k, pb_fits k (Z.of_N (cc_rhs c)) (pos_lits (cc_vars c)) (repeat 1%Z (length (cc_vars c)))) by (intros k _; lia).
  unfold cc_negate. destruct (cc_cmp c); try (apply f_pbc_again; auto). apply eq_negate_again; auto.
Qed.
Lemma pbc_negate_again : forall s p, wf s -> Forall (lit_ok s) (pb_lits p) -> length (pb_lits p) = length (pb_coeffs p) ->
  is_lit_cc (pb_cmp p) (pb_rhs p) (pb_lits p) (pb_coeffs p) = false -> again (pbc_negate p) s.
Proof.
  intros s p Hw Hls Hlen Hn.
  assert (Hfit : forall k, pb_fits k (pb_rhs p) (pb_lits p) (pb_coeffs p)) by (intros k; eapply fits_of_not_lit_cc; eauto).
  unfold pbc_negate. destruct (pb_cmp p); try (apply f_pbc_again; auto). apply eq_negate_again; auto.
Qed.

Lemma f_negate_again : forall s h, wf s -> vh s h -> again (f_negate h) s.
Proof.
  intros s h Hw Hv. destruct (vh_operands s h Hw Hv) as [n [Hu _]]. destruct (vh_denotes s h Hw Hv) as [x Hx].
  unfold f_negate. eapply again_lift_bind; [exact Hu | intros s2 _ He; eapply unpack_ext; [apply He | exact Hu] | |].
  - intros r s' Hrun Hc. eapply (spec_ext_run _ s (f_negate h)); [eapply f_negate_result; eauto | | exact Hc].
    unfold f_negate, bind, lift. rewrite Hu. exact Hrun.
  - pose proof (type_node s h n (wf_cap s Hw) Hv Hu) as Ht.
    destruct n; try apply again_ret; try (apply again_not_insert; auto; unfold negatable; rewrite Ht; exact I).
    + destruct (unpack_cc_vh s h c Hw Hv Hu) as [_ [? [? _]]]. apply cc_negate_again; auto.
    + destruct (unpack_pbc_vh s h p Hw Hv Hu) as [_ [? [? ?]]]. apply pbc_negate_again; auto.
Qed.

Lemma f_not_again : forall s h, wf s -> vh s h -> again (f_not h) s.
Proof.
  intros s h Hw Hv. destruct (vh_type s h (wf_cap s Hw) Hv) as [ty Ht]. destruct (vh_denotes s h Hw Hv) as [x Hx].
  unfold f_not. assert (Hft : ftype h = Ok ty) by (unfold ftype; rewrite Ht; reflexivity).
  eapply again_lift_bind; [exact Hft | intros; exact Hft | |].
  - intros r s' Hrun Hc. eapply (spec_ext_run _ s (f_not h)); [eapply f_not_spec; eauto | | exact Hc].
    unfold f_not, bind, lift. rewrite Hft. exact Hrun.
  - destruct ty; try (apply f_negate_again; auto; fail); apply again_not_insert; auto; unfold negatable; rewrite Ht; exact I.
Qed.

Lemma f_implication_again : forall s l r, wf s -> vh s l -> vh s r -> again (f_implication l r) s.
Proof.
  intros s l r Hw Vl Vr. unfold f_implication.
  destruct (is_verum l) eqn:E1; [apply again_ret |]. destruct (is_falsum l || is_verum r) eqn:E2; [apply again_ret |].
  destruct (is_falsum r) eqn:E3; [apply f_not_again; auto |]. destruct (N.eqb_spec l r) as [-> | Hne]; [apply again_ret |].
  apply orb_false_iff in E2. destruct E2 as [E2 E4]. destruct (vh_denotes s r Hw Vr) as [y Hy].
  eapply again_bind; [eapply f_negate_result; eauto | apply f_negate_again; auto | intros; mono_tac |].
  intros nr s1 Hw1 Hc1 _. pose proof (core_ext _ _ Hc1) as He1.
  assert (Vl1 : vh s1 l) by (eapply vh_ext; [exact He1 | assumption]). assert (Vr1 : vh s1 r) by (eapply vh_ext; [exact He1 | assumption]).
  destruct (N.eqb_spec l nr) as [-> | Hne2].
  - split; [apply again_ret | apply spec_ret; auto using core_refl].
  - assert (Hsp := impl_insert_spec s1 l r Hw1 Vl1 Vr1 (Coq.Init.Logic.conj E1 E2) (Coq.Init.Logic.conj E4 E3) Hne). split; [| eapply spec_true; exact Hsp].
    intros h s' Hrun Hc s2 Hw2 He2.
    destruct (spec_run _ _ _ _ _ _ _ _ Hsp Hrun Hc) as [a [Ea [Hw' [Hcore [Hv Hu]]]]]. injection Ea as <-.
    assert (He12 : ext s1 s2) by (eapply ext_trans; [apply core_ext; eassumption | assumption]).
    apply impl_insert_settled; auto; first [eapply vh_ext; [exact He12 | assumption] | eapply vh_ext; [exact He2 | assumption] | idtac]. eapply unpack_ext; [apply He2 | assumption].
Qed.

Lemma f_equivalence_again : forall s l r, wf s -> vh s l -> vh s r -> again (f_equivalence l r) s.
Proof.
  intros s l r Hw Vl Vr. unfold f_equivalence.
  destruct (is_verum l) eqn:E1; [apply again_ret |]. destruct (is_falsum l) eqn:E2; [apply f_not_again; auto |].
  destruct (is_verum r) eqn:E4; [apply again_ret |].
  destruct (is_falsum r) eqn:E3; [apply f_not_again; auto |]. destruct (N.eqb_spec l r) as [-> | Hne]; [apply again_ret |].
  destruct (vh_denotes s r Hw Vr) as [y Hy].
  eapply again_bind; [eapply f_negate_result; eauto | apply f_negate_again; auto | intros; mono_tac |].
  intros nr s1 Hw1 Hc1 _. pose proof (core_ext _ _ Hc1) as He1.
  assert (Vl1 : vh s1 l) by (eapply vh_ext; [exact He1 | assumption]). assert (Vr1 : vh s1 r) by (eapply vh_ext; [exact He1 | assumption]).
  destruct (N.eqb_spec l nr) as [-> | Hne2].
  - split; [apply again_ret | apply spec_ret; auto using core_refl].
  - assert (Hsp := equiv_insert_spec s1 l r Hw1 Vl1 Vr1 (Coq.Init.Logic.conj E1 E2) (Coq.Init.Logic.conj E4 E3) Hne). split; [| eapply spec_true; exact Hsp].
    intros h s' Hrun Hc s2 Hw2 He2.
    destruct (spec_run _ _ _ _ _ _ _ _ Hsp Hrun Hc) as [a [Ea [Hw' [Hcore [Hv Hu]]]]]. injection Ea as <-.
    assert (He12 : ext s1 s2) by (eapply ext_trans; [apply core_ext; eassumption | assumption]).
    apply equiv_insert_settled; auto; first [eapply vh_ext; [exact He12 | assumption] | eapply vh_ext; [exact He2 | assumption] | idtac].
    destruct Hu; [left | right]; eapply unpack_ext; try apply He2; assumption.
Qed.

Lemma f_variable_again : forall s name, wf s -> again (f_variable name) s.
Proof.
  intros s name Hw h s' Hrun Hc s2 Hw2 He2.
  destruct (spec_run _ _ _ _ _ _ _ _ (f_variable_spec s name Hw) Hrun Hc) as [a [Ea [Hw' [Hcore [i [Hh [Hv [Hok Hn]]]]]]]]. injection Ea as <-.
  unfold f_variable, updt. rewrite simple_goi_vtab.
  assert (Hi : nthN (vt_vec (t_vars (f_tabs s2))) i = Some name) by (eapply prefix_nthN; [apply (te_vars _ _ (proj1 He2)) | exact Hn]).
  rewrite (goi_settled _ _ id _ _ _ _ _ _ _ keq_str (wf_vars s2 Hw2) Hi (String.eqb_refl name)). cbn [fst snd].
  rewrite eta_vars, eta_tabs. subst h. reflexivity.
Qed.
