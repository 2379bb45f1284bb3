(** Specifications of the factory constructors (triples of the program logic in FactoryInv.v). *)
From Coq Require Import NArith ZArith List Bool Lia.
From Coq Require String.
From Verif Require Import Base EncodingModel EncodingProofs Syntax FactoryModel FactoryInv FactoryBasics FactoryProofs.
Import ListNotations.
Local Open Scope N_scope.

(* ------------------------------------------------------------------------------------------------------------------ *)
(** * Insertions *)

Lemma eta_tabs : forall s, with_tabs s (f_tabs s) = s.
Proof. intros [? ? ? ? ? ?]. reflexivity. Qed.
Lemma eta_c2 : forall V (c : cache2 V), mkCache2 (c_small c) (c_large c) = c.
Proof. intros V [? ?]. reflexivity. Qed.
Lemma eta_nots : forall t, set_nots t (t_nots t) = t. Proof. intros []; reflexivity. Qed.
Lemma eta_ands : forall t, set_ands t (t_ands t) = t. Proof. intros []; reflexivity. Qed.
Lemma eta_ors : forall t, set_ors t (t_ors t) = t. Proof. intros []; reflexivity. Qed.
Lemma eta_impls : forall t, set_impls t (t_impls t) = t. Proof. intros []; reflexivity. Qed.
Lemma eta_equivs : forall t, set_equivs t (t_equivs t) = t. Proof. intros []; reflexivity. Qed.
Lemma eta_ccs : forall t, set_ccs t (t_ccs t) = t. Proof. intros []; reflexivity. Qed.
Lemma eta_pbcs : forall t, set_pbcs t (t_pbcs t) = t. Proof. intros []; reflexivity. Qed.
Lemma eta_vars : forall t, set_vars t (t_vars t) = t. Proof. intros []; reflexivity. Qed.

Ltac wf_fields Hw :=
  first [ exact (wf_vars _ Hw) | exact (wf_ands _ Hw) | exact (wf_ors _ Hw) | exact (wf_nots _ Hw) | exact (wf_impls _ Hw)
        | exact (wf_equivs _ Hw) | exact (wf_ccs _ Hw) | exact (wf_pbcs _ Hw) | (intros ? ? ?; left; assumption) ].

Ltac tabs_ext_tac H :=
  constructor; cbn; try apply prefix_refl; try apply c2_ext_refl;
  try (split; cbn; [rewrite H; apply prefix_app | apply prefix_refl]); try (rewrite H; apply prefix_app).

Lemma core_of_tabs : forall s t, tabs_ext (f_tabs s) t -> core s (with_tabs s t).
Proof. intros. unfold core. cbn. auto 7. Qed.

Lemma cap_tlen_new : forall s s' ty, cap s' -> tlen s' ty = tlen s ty + 1 -> tlen s ty < cap26.
Proof. intros s s' ty Hc H. destruct (cap_inv s' Hc) as [_ [Ht _]]. specialize (Ht ty). lia. Qed.

Lemma not_insert_spec : forall s h, wf s -> vh s h -> negatable h ->
  spec wf core s (f_not_insert h) (fun r s' => vh s' r /\ unpack s' r = Ok (NNot h)).
Proof.
  intros s h Hw Hv Hn. split; [apply mono_f_not_insert |]. intros Hc.
  unfold f_not_insert, updt, not_goi in *.
  rewrite (vh_not_large s h (wf_cap s Hw) Hv), (vh_as_32 s h (wf_cap s Hw) Hv) in *.
  destruct (vtab_goi N.eqb TNot false h h (c_small (t_nots (f_tabs s)))) as [e t] eqn:E. cbn [fst snd] in *.
  destruct (wf_nots s Hw) as [Hsm Hlg].
  destruct (vtab_goi_spec _ N.eqb id _ _ _ _ _ _ _ keq_N Hsm (N.eqb_refl h) E) as [Ht [[-> [i [v [Hi [Hk ->]]]]] | [Hvec [-> Hfresh]]]].
  - rewrite eta_c2, eta_nots, eta_tabs. exists (encode i TNot false).
    apply N.eqb_eq in Hk. unfold id in Hk. subst v.
    pose proof (nthN_some_lt _ _ _ _ Hi) as Hlt.
    assert (Hvi : vh s (encode i TNot false)) by (apply (vh_tab s TNot i Hlt)).
    split; [reflexivity |]. split; [assumption |]. split; [apply core_refl |]. split; [assumption |].
    rewrite unpack_enc; [rewrite Hi; reflexivity | reflexivity |].
    destruct (cap_inv s (wf_cap s Hw)) as [_ [Hcap _]]. specialize (Hcap TNot). cbn [tlen] in Hcap. unfold cap26 in *. lia.
  - set (s' := with_tabs s (set_nots (f_tabs s) (mkCache2 t (c_large (t_nots (f_tabs s)))))) in *.
    assert (Hcore : core s s') by (apply core_of_tabs; tabs_ext_tac Hvec).
    pose proof (core_ext _ _ Hcore) as He.
    assert (Hlen : tlen s' TNot = tlen s TNot + 1) by (cbn; rewrite Hvec, lenN_app; reflexivity).
    assert (Hsmall : tlen s TNot < cap26) by (eapply cap_tlen_new; eauto).
    assert (Hvi : vh s' (encode (tlen s TNot) TNot false)) by (apply (vh_tab s' TNot); lia).
    assert (Hw' : wf s').
    { destruct (cnf_fields_same s s' TNot) as [K1 K2]; auto; try lia.
      { intros ty' Hty'. destruct ty'; reflexivity || congruence. }
      eapply (wf_extend s s'); eauto; try solve [cbn; wf_fields Hw].
      - split; [exact Ht | exact Hlg].
      - intros i a Hi. cbn in Hi. rewrite Hvec in Hi. apply nthN_app_inv in Hi. destruct Hi as [Hi | [-> ->]]; [left; exact Hi |].
        right. split; [| assumption]. eapply good_ext; [exact He |]. apply vh_good; assumption. }
    exists (encode (tlen s TNot) TNot false). split; [reflexivity |]. split; [assumption |]. split; [assumption |]. split; [assumption |].
    rewrite unpack_enc; [| reflexivity | apply small58; assumption].
    cbn. rewrite Hvec. unfold tlen. rewrite nthN_app_last. reflexivity.
Qed.

Lemma impl_insert_spec : forall s l r, wf s -> vh s l -> vh s r -> nonconst l -> nonconst r -> l <> r ->
  spec wf core s (updt (fun t => let '(e, c) := impl_goi l r (t_impls t) in (e, set_impls t c)))
    (fun h s' => vh s' h /\ unpack s' h = Ok (NImpl l r)).
Proof.
  intros s l r Hw Hl Hr Hnl Hnr Hlr. split; [apply mono_impl_insert |]. intros Hc.
  unfold updt, impl_goi in *.
  rewrite (vh_not_large s l (wf_cap s Hw) Hl), (vh_as_32 s l (wf_cap s Hw) Hl) in *.
  rewrite (vh_not_large s r (wf_cap s Hw) Hr), (vh_as_32 s r (wf_cap s Hw) Hr) in *. cbn [orb] in *.
  destruct (vtab_goi pair_eqb TImpl false (l, r) (l, r) (c_small (t_impls (f_tabs s)))) as [e t] eqn:E. cbn [fst snd] in *.
  destruct (wf_impls s Hw) as [Hsm Hlg].
  assert (Hkk : pair_eqb (l, r) (id (l, r)) = true) by (apply pair_eqb_spec; reflexivity).
  destruct (vtab_goi_spec _ pair_eqb id _ _ _ _ _ _ _ keq_pair Hsm Hkk E) as [Ht [[-> [i [v [Hi [Hk ->]]]]] | [Hvec [-> Hfresh]]]].
  - rewrite eta_c2, eta_impls, eta_tabs. exists (encode i TImpl false).
    apply pair_eqb_spec in Hk. unfold id in Hk. subst v.
    pose proof (nthN_some_lt _ _ _ _ Hi) as Hlt.
    assert (Hvi : vh s (encode i TImpl false)) by (apply (vh_tab s TImpl i Hlt)).
    split; [reflexivity |]. split; [assumption |]. split; [apply core_refl |]. split; [assumption |].
    rewrite unpack_enc; [rewrite Hi; reflexivity | reflexivity |].
    destruct (cap_inv s (wf_cap s Hw)) as [_ [Hcap _]]. specialize (Hcap TImpl). cbn [tlen] in Hcap. unfold cap26 in *. lia.
  - set (s' := with_tabs s (set_impls (f_tabs s) (mkCache2 t (c_large (t_impls (f_tabs s)))))) in *.
    assert (Hcore : core s s') by (apply core_of_tabs; tabs_ext_tac Hvec).
    pose proof (core_ext _ _ Hcore) as He.
    assert (Hlen : tlen s' TImpl = tlen s TImpl + 1) by (cbn; rewrite Hvec, lenN_app; reflexivity).
    assert (Hsmall : tlen s TImpl < cap26) by (eapply cap_tlen_new; eauto).
    assert (Hvi : vh s' (encode (tlen s TImpl) TImpl false)) by (apply (vh_tab s' TImpl); lia).
    assert (Hw' : wf s').
    { destruct (cnf_fields_same s s' TImpl) as [K1 K2]; auto; try lia.
      { intros ty' Hty'. destruct ty'; reflexivity || congruence. }
      eapply (wf_extend s s'); eauto; try solve [cbn; wf_fields Hw].
      - split; [exact Ht | exact Hlg].
      - intros i a Hi. cbn in Hi. rewrite Hvec in Hi. apply nthN_app_inv in Hi. destruct Hi as [Hi | [-> ->]]; [left; exact Hi |].
        right. cbn [fst snd]. split; [| split]; auto; eapply good_ext; try exact He; apply vh_good; assumption. }
    exists (encode (tlen s TImpl) TImpl false). split; [reflexivity |]. split; [assumption |]. split; [assumption |]. split; [assumption |].
    rewrite unpack_enc; [| reflexivity | apply small58; assumption].
    cbn. rewrite Hvec. unfold tlen. rewrite nthN_app_last. reflexivity.
Qed.

Lemma sort_pair_inj : forall a b, sort_pair a = sort_pair b -> a = b \/ a = (snd b, fst b).
Proof.
  intros [a b] [c d]. unfold sort_pair. cbn [fst snd].
  destruct (N.ltb_spec a b), (N.ltb_spec c d); intros H1; injection H1 as -> ->; auto.
Qed.

Lemma equiv_insert_spec : forall s l r, wf s -> vh s l -> vh s r -> nonconst l -> nonconst r -> l <> r ->
  spec wf core s (updt (fun t => let '(e, c) := equiv_goi l r (t_equivs t) in (e, set_equivs t c)))
    (fun h s' => vh s' h /\ (unpack s' h = Ok (NEquiv l r) \/ unpack s' h = Ok (NEquiv r l))).
Proof.
  intros s l r Hw Hl Hr Hnl Hnr Hlr. split; [apply mono_equiv_insert |]. intros Hc.
  unfold updt, equiv_goi in *.
  rewrite (vh_not_large s l (wf_cap s Hw) Hl), (vh_as_32 s l (wf_cap s Hw) Hl) in *.
  rewrite (vh_not_large s r (wf_cap s Hw) Hr), (vh_as_32 s r (wf_cap s Hw) Hr) in *. cbn [orb] in *.
  destruct (vtab_goi pair_eqb TEquiv false (sort_pair (l, r)) (l, r) (c_small (t_equivs (f_tabs s)))) as [e t] eqn:E.
  cbn [fst snd] in *.
  destruct (wf_equivs s Hw) as [Hsm Hlg].
  assert (Hkk : pair_eqb (sort_pair (l, r)) (sort_pair (l, r)) = true) by (apply pair_eqb_spec; reflexivity).
  destruct (vtab_goi_spec _ pair_eqb sort_pair _ _ _ _ _ _ _ keq_pair Hsm Hkk E) as [Ht [[-> [i [v [Hi [Hk ->]]]]] | [Hvec [-> Hfresh]]]].
  - rewrite eta_c2, eta_equivs, eta_tabs. exists (encode i TEquiv false).
    apply pair_eqb_spec in Hk. apply sort_pair_inj in Hk.
    pose proof (nthN_some_lt _ _ _ _ Hi) as Hlt.
    assert (Hvi : vh s (encode i TEquiv false)) by (apply (vh_tab s TEquiv i Hlt)).
    split; [reflexivity |]. split; [assumption |]. split; [apply core_refl |]. split; [assumption |].
    rewrite unpack_enc; [| reflexivity |].
    + rewrite Hi. cbn. destruct v as [a b]. cbn. destruct Hk as [Hk | Hk]; injection Hk as -> ->; auto.
    + destruct (cap_inv s (wf_cap s Hw)) as [_ [Hcap _]]. specialize (Hcap TEquiv). cbn [tlen] in Hcap. unfold cap26 in *. lia.
  - set (s' := with_tabs s (set_equivs (f_tabs s) (mkCache2 t (c_large (t_equivs (f_tabs s)))))) in *.
    assert (Hcore : core s s') by (apply core_of_tabs; tabs_ext_tac Hvec).
    pose proof (core_ext _ _ Hcore) as He.
    assert (Hlen : tlen s' TEquiv = tlen s TEquiv + 1) by (cbn; rewrite Hvec, lenN_app; reflexivity).
    assert (Hsmall : tlen s TEquiv < cap26) by (eapply cap_tlen_new; eauto).
    assert (Hvi : vh s' (encode (tlen s TEquiv) TEquiv false)) by (apply (vh_tab s' TEquiv); lia).
    assert (Hw' : wf s').
    { destruct (cnf_fields_same s s' TEquiv) as [K1 K2]; auto; try lia.
      { intros ty' Hty'. destruct ty'; reflexivity || congruence. }
      eapply (wf_extend s s'); eauto; try solve [cbn; wf_fields Hw].
      - split; [exact Ht | exact Hlg].
      - intros i a Hi. cbn in Hi. rewrite Hvec in Hi. apply nthN_app_inv in Hi. destruct Hi as [Hi | [-> ->]]; [left; exact Hi |].
        right. cbn [fst snd]. split; [| split]; auto; eapply good_ext; try exact He; apply vh_good; assumption. }
    exists (encode (tlen s TEquiv) TEquiv false). split; [reflexivity |]. split; [assumption |]. split; [assumption |]. split; [assumption |]. left.
    rewrite unpack_enc; [| reflexivity | apply small58; assumption].
    cbn. rewrite Hvec. unfold tlen. rewrite nthN_app_last. reflexivity.
Qed.

Lemma cc_insert_spec : forall s c, wf s ->
  cc_vars c <> [] -> Forall (var_ok s) (cc_vars c) -> cc_rhs c < 4294967296 -> (cc_cmp c = LT -> cc_rhs c <> 0) ->
  spec wf core s (cc_insert c) (fun h s' => vh s' h /\ unpack s' h = Ok (NCc c)).
Proof.
  intros s c Hw C1 C2 C3 C4. split; [apply mono_cc_insert |]. intros Hc.
  unfold cc_insert, updt in *. rewrite simple_goi_vtab in *.
  destruct (vtab_goi cc_eqb TCc true c c (t_ccs (f_tabs s))) as [e t] eqn:E. cbn [fst snd] in *.
  assert (Hkk : cc_eqb c (id c) = true) by (apply cc_eqb_spec; reflexivity).
  destruct (vtab_goi_spec _ cc_eqb id _ _ _ _ _ _ _ keq_cc (wf_ccs s Hw) Hkk E) as [Ht [[-> [i [v [Hi [Hk ->]]]]] | [Hvec [-> Hfresh]]]].
  - rewrite eta_ccs, eta_tabs. exists (encode i TCc true).
    apply cc_eqb_spec in Hk. unfold id in Hk. subst v.
    pose proof (nthN_some_lt _ _ _ _ Hi) as Hlt.
    assert (Hvi : vh s (encode i TCc true)) by (apply (vh_tab s TCc i Hlt)).
    split; [reflexivity |]. split; [assumption |]. split; [apply core_refl |]. split; [assumption |].
    rewrite unpack_enc; [rewrite Hi; reflexivity | reflexivity |].
    destruct (cap_inv s (wf_cap s Hw)) as [_ [Hcap _]]. specialize (Hcap TCc). cbn [tlen] in Hcap. unfold cap26 in *. lia.
  - set (s' := with_tabs s (set_ccs (f_tabs s) t)) in *.
    assert (Hcore : core s s') by (apply core_of_tabs; tabs_ext_tac Hvec).
    pose proof (core_ext _ _ Hcore) as He.
    assert (Hlen : tlen s' TCc = tlen s TCc + 1) by (cbn; rewrite Hvec, lenN_app; reflexivity).
    assert (Hsmall : tlen s TCc < cap26) by (eapply cap_tlen_new; eauto).
    assert (Hvi : vh s' (encode (tlen s TCc) TCc true)) by (apply (vh_tab s' TCc); lia).
    assert (Hw' : wf s').
    { destruct (cnf_fields_same s s' TCc) as [K1 K2]; auto; try lia; try tauto.
      { intros ty' Hty'. destruct ty'; reflexivity || congruence. }
      eapply (wf_extend s s'); eauto; try solve [cbn; wf_fields Hw].
      - intros i a Hi. cbn in Hi. rewrite Hvec in Hi. apply nthN_app_inv in Hi. destruct Hi as [Hi | [-> ->]]; [left; exact Hi |].
        right. repeat split; auto. }
    exists (encode (tlen s TCc) TCc true). split; [reflexivity |]. split; [assumption |]. split; [assumption |]. split; [assumption |].
    rewrite unpack_enc; [| reflexivity | apply small58; assumption].
    cbn. rewrite Hvec. unfold tlen. rewrite nthN_app_last. reflexivity.
Qed.

Lemma pbc_insert_spec : forall s p, wf s ->
  pb_lits p <> [] -> length (pb_lits p) = length (pb_coeffs p) -> Forall (lit_ok s) (pb_lits p) ->
  is_lit_cc (pb_cmp p) (pb_rhs p) (pb_lits p) (pb_coeffs p) = false ->
  spec wf core s (pbc_insert p) (fun h s' => vh s' h /\ unpack s' h = Ok (NPbc p)).
Proof.
  intros s c Hw C1 C2 C3 C4. split; [apply mono_pbc_insert |]. intros Hc.
  unfold pbc_insert, updt in *. rewrite simple_goi_vtab in *.
  destruct (vtab_goi pbc_eqb TPbc true c c (t_pbcs (f_tabs s))) as [e t] eqn:E. cbn [fst snd] in *.
  assert (Hkk : pbc_eqb c (id c) = true) by (apply pbc_eqb_spec; reflexivity).
  destruct (vtab_goi_spec _ pbc_eqb id _ _ _ _ _ _ _ keq_pbc (wf_pbcs s Hw) Hkk E) as [Ht [[-> [i [v [Hi [Hk ->]]]]] | [Hvec [-> Hfresh]]]].
  - rewrite eta_pbcs, eta_tabs. exists (encode i TPbc true).
    apply pbc_eqb_spec in Hk. unfold id in Hk. subst v.
    pose proof (nthN_some_lt _ _ _ _ Hi) as Hlt.
    assert (Hvi : vh s (encode i TPbc true)) by (apply (vh_tab s TPbc i Hlt)).
    split; [reflexivity |]. split; [assumption |]. split; [apply core_refl |]. split; [assumption |].
    rewrite unpack_enc; [rewrite Hi; reflexivity | reflexivity |].
    destruct (cap_inv s (wf_cap s Hw)) as [_ [Hcap _]]. specialize (Hcap TPbc). cbn [tlen] in Hcap. unfold cap26 in *. lia.
  - set (s' := with_tabs s (set_pbcs (f_tabs s) t)) in *.
    assert (Hcore : core s s') by (apply core_of_tabs; tabs_ext_tac Hvec).
    pose proof (core_ext _ _ Hcore) as He.
    assert (Hlen : tlen s' TPbc = tlen s TPbc + 1) by (cbn; rewrite Hvec, lenN_app; reflexivity).
    assert (Hsmall : tlen s TPbc < cap26) by (eapply cap_tlen_new; eauto).
    assert (Hvi : vh s' (encode (tlen s TPbc) TPbc true)) by (apply (vh_tab s' TPbc); lia).
    assert (Hw' : wf s').
    { destruct (cnf_fields_same s s' TPbc) as [K1 K2]; auto; try lia; try tauto.
      { intros ty' Hty'. destruct ty'; reflexivity || congruence. }
      eapply (wf_extend s s'); eauto; try solve [cbn; wf_fields Hw].
      - intros i a Hi. cbn in Hi. rewrite Hvec in Hi. apply nthN_app_inv in Hi. destruct Hi as [Hi | [-> ->]]; [left; exact Hi |].
        right. repeat split; auto. }
    exists (encode (tlen s TPbc) TPbc true). split; [reflexivity |]. split; [assumption |]. split; [assumption |]. split; [assumption |].
    rewrite unpack_enc; [| reflexivity | apply small58; assumption].
    cbn. rewrite Hvec. unfold tlen. rewrite nthN_app_last. reflexivity.
Qed.

(** The name table: a hit returns the existing variable of that name, a miss registers it. *)
Lemma f_variable_spec : forall s name, wf s ->
  spec wf core s (f_variable name)
    (fun h s' => exists i, h = encode_lit (Lit (VFF i) true) /\ vh s' h /\ var_ok s' (VFF i)
                 /\ nthN (vt_vec (t_vars (f_tabs s'))) i = Some name).
Proof.
  intros s c Hw. split; [apply mono_f_variable |]. intros Hc.
  unfold f_variable, updt in *. rewrite simple_goi_vtab in *.
  destruct (vtab_goi String.eqb (TLit (LTPos VTFF)) true c c (t_vars (f_tabs s))) as [e t] eqn:E. cbn [fst snd] in *.
  assert (Hkk : String.eqb c (id c) = true) by (apply String.eqb_eq; reflexivity).
  destruct (vtab_goi_spec _ String.eqb id _ _ _ _ _ _ _ keq_str (wf_vars s Hw) Hkk E) as [Ht [[-> [i [v [Hi [Hk ->]]]]] | [Hvec [-> Hfresh]]]].
  - rewrite eta_vars, eta_tabs. exists (encode i (TLit (LTPos VTFF)) true).
    apply String.eqb_eq in Hk. unfold id in Hk. subst v.
    pose proof (nthN_some_lt _ _ _ _ Hi) as Hlt.
    split; [reflexivity |]. split; [assumption |]. split; [apply core_refl |].
    exists i. repeat split; auto. apply (vh_lit s (Lit (VFF i) true)). exact Hlt.
  - set (s' := with_tabs s (set_vars (f_tabs s) t)) in *.
    assert (Hcore : core s s') by (apply core_of_tabs; tabs_ext_tac Hvec).
    pose proof (core_ext _ _ Hcore) as He.
    assert (Hlen : lenN (vt_vec (t_vars (f_tabs s'))) = lenN (vt_vec (t_vars (f_tabs s))) + 1) by (cbn; rewrite Hvec, lenN_app; reflexivity).
    assert (Hok : var_ok s' (VFF (lenN (vt_vec (t_vars (f_tabs s)))))) by (unfold var_ok; lia).
    assert (Hvi : vh s' (encode_lit (Lit (VFF (lenN (vt_vec (t_vars (f_tabs s))))) true))) by (apply vh_lit; exact Hok).
    assert (Hw' : wf s').
    { eapply (wf_extend s s'); eauto; try solve [cbn; wf_fields Hw].
      - intros h H. apply (wf_cnf_keys s Hw) in H. split; [eapply vh_ext; [exact He | apply H] | apply H].
      - intros h x Hh Hd. pose proof (vh_case s' h Hc Hh) as Hcase.
        assert (Hor : vh s h \/ exists l, formula_type_of h = Some (TLit l) /\ exists k, unpack s' h = Ok (NLit k)).
        { destruct Hcase as [-> ? ? | -> ? ? | l ? ? ? ? | i a -> Hn ? ? | i l -> Hn ? ?
            | i l -> Hn ? ? | i a b -> Hn ? ? | i a b -> Hn ? ? | i k -> Hn ? ? | i p -> Hn ? ?];
            try (left; constructor; fail);
            try (right; eauto; fail); left; cbn in Hn; apply nthN_some_lt in Hn.
          + apply (vh_tab s TNot); exact Hn. + apply (vh_tab s TAnd); exact Hn. + apply (vh_tab s TOr); exact Hn.
          + apply (vh_tab s TImpl); exact Hn. + apply (vh_tab s TEquiv); exact Hn.
          + apply (vh_tab s TCc); exact Hn. + apply (vh_tab s TPbc); exact Hn. }
        destruct Hor as [Hold | [l [Hl [k Hk]]]].
        + eapply cnf_exact_old; eauto.
        + unfold is_cnf, ftype. rewrite Hl. cbn.
          pose proof (denotes_by_node _ _ _ _ Hk Hd) as Hx. cbn in Hx. subst x. reflexivity. }
    exists (encode (lenN (vt_vec (t_vars (f_tabs s)))) (TLit (LTPos VTFF)) true).
    split; [reflexivity |]. split; [assumption |]. split; [assumption |].
    exists (lenN (vt_vec (t_vars (f_tabs s)))). repeat split; auto. cbn. rewrite Hvec. apply nthN_app_last.
Qed.

(* ------------------------------------------------------------------------------------------------------------------ *)
(** * N-ary constructors *)

Lemma negatable_not_lit : forall s h l, cap s -> vh s h -> unpack s h = Ok (NLit l) -> ~ negatable h.
Proof.
  intros s h l Hc Hv Hu Hn. unfold negatable in Hn.
  destruct (vh_case s h Hc Hv) as [? Ht ? | ? Ht ? | ? ? ? Ht ? | ? ? ? ? Ht ? | ? ? ? ? Ht ?
        | ? ? ? ? Ht ? | ? ? ? ? ? Ht ? | ? ? ? ? ? Ht ? | ? ? ? ? Ht ? | ? ? ? ? Ht ?]; rewrite Ht in Hn; congruence || contradiction.
Qed.
Lemma negatable_not_not : forall s h a, cap s -> vh s h -> unpack s h = Ok (NNot a) -> ~ negatable h.
Proof.
  intros s h l Hc Hv Hu Hn. unfold negatable in Hn.
  destruct (vh_case s h Hc Hv) as [? Ht ? | ? Ht ? | ? ? ? Ht ? | ? ? ? ? Ht ? | ? ? ? ? Ht ?
        | ? ? ? ? Ht ? | ? ? ? ? ? Ht ? | ? ? ? ? ? Ht ? | ? ? ? ? Ht ? | ? ? ? ? Ht ?]; rewrite Ht in Hn; congruence || contradiction.
Qed.

Lemma unpack_not_vh : forall s y a, wf s -> vh s y -> unpack s y = Ok (NNot a) ->
  exists i, y = encode i TNot false /\ nthN (vt_vec (c_small (t_nots (f_tabs s)))) i = Some a /\ vh s a /\ negatable a.
Proof.
  intros s y a Hw Hv Hu.
  destruct (vh_case s y (wf_cap s Hw) Hv) as [? Ht H | ? Ht H | ? ? ? Ht H | i b E Hn Ht H | ? ? ? ? Ht H
        | ? ? ? ? Ht H | ? ? ? ? ? Ht H | ? ? ? ? ? Ht H | ? ? ? ? Ht H | ? ? ? ? Ht H]; try congruence.
  assert (a = b) by congruence. subst b. destruct (wf_not_ops s Hw _ _ Hn) as [[? _] ?]. exists i. auto.
Qed.

Lemma not_lookup_spec : forall s h, wf s -> vh s h ->
  match not_lookup h (t_nots (f_tabs s)) with
  | Some e => vh s e /\ unpack s e = Ok (NNot h)
  | None => forall y, vh s y -> unpack s y <> Ok (NNot h)
  end.
Proof.
  intros s h Hw Hv. unfold not_lookup.
  rewrite (vh_not_large s h (wf_cap s Hw) Hv), (vh_as_32 s h (wf_cap s Hw) Hv).
  destruct (wf_nots s Hw) as [Hsm Hlg].
  destruct (assoc N.eqb h (vt_rev (c_small (t_nots (f_tabs s))))) as [e |] eqn:E.
  - destruct (assoc_some_ok _ _ _ _ _ _ _ _ keq_N Hsm E) as [i [v [Hi [Hk ->]]]].
    apply N.eqb_eq in Hk. unfold id in Hk. subst v. pose proof (nthN_some_lt _ _ _ _ Hi) as Hlt. split.
    + apply (vh_tab s TNot). exact Hlt.
    + rewrite unpack_enc; [rewrite Hi; reflexivity | reflexivity |].
      destruct (cap_inv s (wf_cap s Hw)) as [_ [Hcap _]]. specialize (Hcap TNot). cbn [tlen] in Hcap. unfold cap26 in *. lia.
  - intros y Hy Hu. destruct (unpack_not_vh s y h Hw Hy Hu) as [i [-> [Hi _]]].
    pose proof (assoc_none_ok _ _ _ _ _ _ _ keq_N Hsm E _ _ Hi) as H. unfold id in H. rewrite N.eqb_refl in H. discriminate.
Qed.

Lemma contains_complement_spec : forall s L h, wf s -> Forall (vh s) L -> vh s h -> nonconst h ->
  exists b, contains_complement s L [] h = Ok b /\ (b = true <-> exists y, In y L /\ compl s h y).
Proof.
  intros s L h Hw HL Hv Hnc. pose proof (wf_cap s Hw) as Hc. rewrite Forall_forall in HL.
  assert (Hmem : forall e, vh s e -> (memN (as_32 e) L || memN e [] = true <-> In e L)).
  { intros e He. rewrite (vh_as_32 s e Hc He). cbn. rewrite orb_false_r. apply memN_In. }
  assert (Hother : (forall l, unpack s h <> Ok (NLit l)) -> (forall a, unpack s h <> Ok (NNot a)) ->
    ((match not_lookup h (t_nots (f_tabs s)) with Some e => memN (as_32 e) L || memN e [] | None => false end) = true
       <-> exists y, In y L /\ compl s h y)).
  { intros Hnl Hnn. pose proof (not_lookup_spec s h Hw Hv) as Hlk.
    destruct (not_lookup h (t_nots (f_tabs s))) as [e |].
    - destruct Hlk as [Hve Hue]. rewrite Hmem by assumption. split.
      + intros Hin. exists e. split; [assumption |]. right; left. assumption.
      + intros [y [Hy [H | [H | [l [H _]]]]]].
        * exfalso. eapply Hnn; eauto.
        * destruct (unpack_not_vh s y h Hw (HL y Hy) H) as [i [-> [Hi _]]].
          destruct (unpack_not_vh s e h Hw Hve Hue) as [j [-> [Hj _]]].
          assert (i = j) as -> by (eapply (vo_uniq _ _ _ _ _ (proj1 (wf_nots s Hw))); eauto; apply N.eqb_refl). assumption.
        * exfalso. eapply Hnl; eauto.
    - split; [discriminate |]. intros [y [Hy [H | [H | [l [H _]]]]]]; exfalso.
      + eapply Hnn; eauto.
      + eapply (Hlk y); eauto.
      + eapply Hnl; eauto. }
  unfold contains_complement.
  destruct (vh_case s h Hc Hv) as [-> Ht H | -> Ht H | l E Hlo Ht H | i b E Hn Ht H | ? ? ? ? Ht H
        | ? ? ? ? Ht H | ? ? ? ? ? Ht H | ? ? ? ? ? Ht H | ? ? ? ? Ht H | ? ? ? ? Ht H]; rewrite H; cbn [rbind].
  - destruct Hnc as [Hnc _]. discriminate.
  - destruct Hnc as [_ Hnc]. discriminate.
  - eexists; split; [reflexivity |].
    assert (Hvn : vh s (encode_lit (lit_negate l))).
    { apply vh_lit. destruct l as [v p]. exact Hlo. }
    rewrite Hmem by assumption. split.
    + intros Hin. exists (encode_lit (lit_negate l)). split; [assumption |]. right; right. exists l. split; [assumption |].
      apply unpack_lit; auto. destruct l as [v p]. exact Hlo.
    + intros [y [Hy [H1 | [H1 | [l' [H1 H2]]]]]].
      * congruence.
      * exfalso. destruct (unpack_not_vh s y h Hw (HL y Hy) H1) as [j [_ [_ [_ Hneg]]]].
        exact (negatable_not_lit s h l Hc Hv H Hneg).
      * assert (l' = l) by congruence. subst l'.
        destruct (vh_case s y Hc (HL y Hy)) as [-> Ht' H' | -> Ht' H' | l' E' Hlo' Ht' H' | ? ? ? Hn' Ht' H' | ? ? ? ? Ht' H'
          | ? ? ? ? Ht' H' | ? ? ? ? ? Ht' H' | ? ? ? ? ? Ht' H' | ? ? ? ? Ht' H' | ? ? ? ? Ht' H']; try congruence.
  - destruct (wf_not_ops s Hw _ _ Hn) as [[Hvb _] Hnb].
    eexists; split; [reflexivity |]. rewrite Hmem by assumption. split.
    + intros Hin. exists b. split; [assumption |]. left. assumption.
    + intros [y [Hy [H1 | [H1 | [l' [H1 H2]]]]]]; try congruence.
      exfalso. destruct (unpack_not_vh s y h Hw (HL y Hy) H1) as [j [_ [_ [_ Hneg]]]].
      exact (negatable_not_not s h b Hc Hv H Hneg).
  - eexists; split; [reflexivity |]. apply Hother; intros ? Q; congruence.
  - eexists; split; [reflexivity |]. apply Hother; intros ? Q; congruence.
  - eexists; split; [reflexivity |]. apply Hother; intros ? Q; congruence.
  - eexists; split; [reflexivity |]. apply Hother; intros ? Q; congruence.
  - eexists; split; [reflexivity |]. apply Hother; intros ? Q; congruence.
  - eexists; split; [reflexivity |]. apply Hother; intros ? Q; congruence.
Qed.
