(** Basic facts about handles and cache tables in well-formed factory states. *)
From Coq Require Import NArith ZArith List Bool Lia.
From Coq Require String.
From Verif Require Import Base EncodingModel EncodingProofs Syntax FactoryModel FactoryInv.
Import ListNotations.
Local Open Scope N_scope.

Lemma small58 : forall i, i < cap26 -> i < 288230376151711744.
Proof. unfold cap26. intros. lia. Qed.
Global Hint Resolve small58 : core.

Lemma cap_inv : forall s, cap s ->
  lenN (vt_vec (t_vars (f_tabs s))) <= cap26 /\ (forall ty, tlen s ty <= cap26)
  /\ f_cnf_ctr s <= cap26 /\ f_cc_ctr s <= cap26 /\ f_pb_ctr s <= cap26.
Proof.
  intros s H. unfold cap, sizes, c2_sizes in H. cbn [app] in H.
  repeat match goal with H : Forall _ (_ :: _) |- _ => inversion H; subst; clear H end.
  repeat split; try assumption. intros ty. destruct ty; cbn [tlen]; try assumption; unfold cap26; lia.
Qed.

(* ------------------------------------------------------------------------------------------------------------------ *)
(** * Equality tests *)

Lemma aux_eqb_spec : forall a b, aux_eqb a b = true <-> a = b.
Proof. intros [] []; cbn; split; intros; congruence. Qed.
Lemma var_eqb_spec : forall a b, var_eqb a b = true <-> a = b.
Proof.
  intros [i | a i] [j | b j]; cbn; split; intros H; try discriminate.
  - apply N.eqb_eq in H. congruence.
  - injection H as ->. apply N.eqb_refl.
  - apply andb_true_iff in H. destruct H as [H1 H2]. apply aux_eqb_spec in H1. apply N.eqb_eq in H2. congruence.
  - injection H as -> ->. rewrite N.eqb_refl, andb_true_r. apply aux_eqb_spec. reflexivity.
Qed.
Lemma var_eqb_refl : forall a, var_eqb a a = true.
Proof. intros. apply var_eqb_spec. reflexivity. Qed.
Lemma var_eq_dec : forall a b : var, {a = b} + {a <> b}.
Proof. intros a b. destruct (var_eqb a b) eqn:E; [left | right]; [| intros ->; rewrite var_eqb_refl in E; discriminate].
  apply var_eqb_spec. assumption. Qed.
Lemma lit_eqb_spec : forall a b, lit_eqb a b = true <-> a = b.
Proof.
  intros [v p] [w q]. unfold lit_eqb. cbn. rewrite andb_true_iff, var_eqb_spec, Bool.eqb_true_iff.
  split; [intros [-> ->]; reflexivity | intros H; injection H; auto].
Qed.
Lemma lit_eq_dec : forall a b : lit, {a = b} + {a <> b}.
Proof. intros a b. destruct (lit_eqb a b) eqn:E; [left | right].
  - apply lit_eqb_spec. assumption.
  - intros ->. assert (lit_eqb b b = true) by (apply lit_eqb_spec; reflexivity). congruence. Qed.
Lemma ctype_eqb_spec : forall a b, ctype_eqb a b = true <-> a = b.
Proof. intros [] []; cbn; split; intros; congruence. Qed.
Lemma list_eqb_spec : forall A (eqb : A -> A -> bool), (forall a b, eqb a b = true <-> a = b) ->
  forall l m, list_eqb eqb l m = true <-> l = m.
Proof.
  intros A eqb He. induction l as [| x l IH]; intros [| y m]; cbn; split; intros H; try discriminate; try reflexivity.
  - apply andb_true_iff in H. destruct H as [H1 H2]. f_equal; [apply He | apply IH]; assumption.
  - injection H as -> ->. apply andb_true_iff. split; [apply He | apply IH]; reflexivity.
Qed.
Lemma cc_eqb_spec : forall a b, cc_eqb a b = true <-> a = b.
Proof.
  intros [v c r] [v' c' r']. unfold cc_eqb. cbn.
  rewrite !andb_true_iff, ctype_eqb_spec, N.eqb_eq, (list_eqb_spec _ _ var_eqb_spec).
  split; [intros [[-> ->] ->]; reflexivity | intros H; injection H; auto].
Qed.
Lemma pbc_eqb_spec : forall a b, pbc_eqb a b = true <-> a = b.
Proof.
  intros [l c t r] [l' c' t' r']. unfold pbc_eqb. cbn.
  rewrite !andb_true_iff, ctype_eqb_spec, Z.eqb_eq, (list_eqb_spec _ _ lit_eqb_spec), (list_eqb_spec _ _ Z.eqb_eq).
  split; [intros [[[-> ->] ->] ->]; reflexivity | intros H; injection H; auto].
Qed.
Lemma pair_eqb_spec : forall a b, pair_eqb a b = true <-> a = b.
Proof.
  intros [a b] [c d]. unfold pair_eqb. cbn. rewrite andb_true_iff, !N.eqb_eq.
  split; [intros [-> ->]; reflexivity | intros H; injection H; auto].
Qed.

(** Key comparisons are equivalence relations. *)
Record keq_ok {V} (keq : V -> V -> bool) : Prop := mkKeqOk
  { ke_refl : forall a, keq a a = true;
    ke_sym : forall a b, keq a b = true -> keq b a = true;
    ke_trans : forall a b c, keq a b = true -> keq b c = true -> keq a c = true }.

Lemma keq_eq : forall V (keq : V -> V -> bool), (forall a b, keq a b = true <-> a = b) -> keq_ok keq.
Proof.
  intros V keq H. constructor.
  - intros. apply H. reflexivity.
  - intros a b E. apply H. symmetry. apply H. assumption.
  - intros a b c E F. apply H. apply H in E. apply H in F. congruence.
Qed.
Lemma keq_set : keq_ok set_eqb.
Proof.
  constructor.
  - intros a. apply set_eqb_spec. tauto.
  - intros a b. rewrite !set_eqb_spec. intros H x. rewrite H. tauto.
  - intros a b c. rewrite !set_eqb_spec. intros H K x. rewrite H. apply K.
Qed.
Lemma keq_N : keq_ok N.eqb. Proof. apply keq_eq. apply N.eqb_eq. Qed.
Lemma keq_str : keq_ok String.eqb. Proof. apply keq_eq. apply String.eqb_eq. Qed.
Lemma keq_pair : keq_ok pair_eqb. Proof. apply keq_eq. apply pair_eqb_spec. Qed.
Lemma keq_cc : keq_ok cc_eqb. Proof. apply keq_eq. apply cc_eqb_spec. Qed.
Lemma keq_pbc : keq_ok pbc_eqb. Proof. apply keq_eq. apply pbc_eqb_spec. Qed.

(* ------------------------------------------------------------------------------------------------------------------ *)
(** * get_or_insert *)

Definition goi_hit {V} (keq : V -> V -> bool) (canon : V -> V) ty large key (t : vtab V) (e : N) (t' : vtab V) : Prop :=
  t' = t /\ exists i v, nthN (vt_vec t) i = Some v /\ keq key (canon v) = true /\ e = encode i ty large.
Definition goi_miss {V} (keq : V -> V -> bool) (canon : V -> V) ty large key val (t : vtab V) (e : N) (t' : vtab V) : Prop :=
  vt_vec t' = vt_vec t ++ [val] /\ e = encode (lenN (vt_vec t)) ty large
  /\ (forall i v, nthN (vt_vec t) i = Some v -> keq key (canon v) = false).

Lemma assoc_some_ok : forall V keq canon ty large (t : vtab V) key e, keq_ok keq ->
  vtab_ok keq canon ty large t -> assoc keq key (vt_rev t) = Some e ->
  exists i v, nthN (vt_vec t) i = Some v /\ keq key (canon v) = true /\ e = encode i ty large.
Proof.
  intros V keq canon ty large t key e Hk Ht H.
  apply assoc_some in H. destruct H as [k' [Hin He]].
  destruct (vo_rev _ _ _ _ _ Ht _ _ Hin) as [i [v [Hi [Hkv ->]]]].
  exists i, v. repeat split; auto. eapply ke_trans; eauto.
Qed.

Lemma assoc_none_ok : forall V keq canon ty large (t : vtab V) key, keq_ok keq ->
  vtab_ok keq canon ty large t -> assoc keq key (vt_rev t) = None ->
  forall i v, nthN (vt_vec t) i = Some v -> keq key (canon v) = false.
Proof.
  intros V keq canon ty large t key Hk Ht H i v Hi.
  destruct (vo_vec _ _ _ _ _ Ht _ _ Hi) as [k' [Hin He]].
  destruct (keq key (canon v)) eqn:E; [| reflexivity].
  rewrite <- (assoc_none _ _ _ _ _ H _ _ Hin). symmetry.
  eapply ke_trans; [exact Hk | exact E |]. apply (ke_sym _ Hk). exact He.
Qed.

Lemma vtab_goi_spec : forall V keq canon ty large (t : vtab V) key val e t', keq_ok keq ->
  vtab_ok keq canon ty large t -> keq key (canon val) = true ->
  vtab_goi keq ty large key val t = (e, t') ->
  vtab_ok keq canon ty large t'
  /\ (goi_hit keq canon ty large key t e t' \/ goi_miss keq canon ty large key val t e t').
Proof.
  intros V keq canon ty large t key val e t' Hk Ht Hkv H. unfold vtab_goi in H.
  destruct (assoc keq key (vt_rev t)) as [e0 |] eqn:E.
  - injection H as <- <-. split; [assumption |]. left. split; [reflexivity |].
    eapply assoc_some_ok; eauto.
  - injection H as <- <-. pose proof (assoc_none_ok _ _ _ _ _ _ _ Hk Ht E) as Hn. split.
    + constructor; cbn [vt_vec vt_rev].
      * intros k e Hin. apply in_app_or in Hin. destruct Hin as [Hin | [Heq | []]].
        -- destruct (vo_rev _ _ _ _ _ Ht _ _ Hin) as [i [v [Hi [Hv ->]]]]. exists i, v. split; auto. apply nthN_app_l. assumption.
        -- injection Heq as <- <-. exists (lenN (vt_vec t)), val. repeat split; auto. apply nthN_app_last.
      * intros i v Hi. apply nthN_app_inv in Hi. destruct Hi as [Hi | [-> ->]].
        -- destruct (vo_vec _ _ _ _ _ Ht _ _ Hi) as [k [Hin He]]. exists k. split; auto. apply in_or_app. left. assumption.
        -- exists key. split; [| assumption]. apply in_or_app. right. left. reflexivity.
      * intros i j v w Hi Hj He. apply nthN_app_inv in Hi. apply nthN_app_inv in Hj.
        destruct Hi as [Hi | [-> ->]], Hj as [Hj | [-> ->]].
        -- eapply (vo_uniq _ _ _ _ _ Ht); eauto.
        -- exfalso. specialize (Hn _ _ Hi). assert (keq key (canon v) = true); [| congruence].
           eapply ke_trans; [exact Hk | exact Hkv |]. apply (ke_sym _ Hk). assumption.
        -- exfalso. specialize (Hn _ _ Hj). assert (keq key (canon w) = true); [| congruence].
           eapply ke_trans; [exact Hk | exact Hkv |]. assumption.
        -- reflexivity.
    + right. repeat split; auto.
Qed.

Lemma vtab_goi_len : forall V keq ty large key val (t : vtab V),
  lenN (vt_vec t) <= lenN (vt_vec (snd (vtab_goi keq ty large key val t))).
Proof.
  intros. unfold vtab_goi. destruct (assoc keq key (vt_rev t)); cbn [snd vt_vec]; [lia |]. rewrite lenN_app. lia.
Qed.

Lemma simple_goi_vtab : forall T (teq : T -> T -> bool) ty x t, simple_goi teq ty x t = vtab_goi teq ty true x x t.
Proof. intros. unfold simple_goi, vtab_goi. destruct (assoc teq x (vt_rev t)); reflexivity. Qed.

Lemma c2_ok_lookup_large : forall V keq canon ty (c : cache2 V), c2_ok keq canon ty c -> c_large c = vtab_empty.
Proof. intros V keq canon ty c [_ [H1 H2]]. destruct (c_large c); cbn in *. subst. reflexivity. Qed.

(* ------------------------------------------------------------------------------------------------------------------ *)
(** * Unpacking *)

Lemma unpack_enc : forall s i ty b, is_const_type ty = false -> i < 288230376151711744 ->
  unpack s (encode i ty b) =
    match ty with
    | TTrue => Ok NTrue
    | TFalse => Ok NFalse
    | TLit (LTPos vt) => Ok (NLit (Lit (var_of_type vt i) true))
    | TLit (LTNeg vt) => Ok (NLit (Lit (var_of_type vt i) false))
    | TNot => rbind (of_opt (nthN (vt_vec (if b then c_large (t_nots (f_tabs s)) else c_small (t_nots (f_tabs s)))) i))
                (fun a => Ok (NNot a))
    | TAnd => rbind (of_opt (nthN (vt_vec (if b then c_large (t_ands (f_tabs s)) else c_small (t_ands (f_tabs s)))) i))
                (fun a => Ok (NAnd a))
    | TOr => rbind (of_opt (nthN (vt_vec (if b then c_large (t_ors (f_tabs s)) else c_small (t_ors (f_tabs s)))) i))
                (fun a => Ok (NOr a))
    | TImpl => rbind (of_opt (nthN (vt_vec (if b then c_large (t_impls (f_tabs s)) else c_small (t_impls (f_tabs s)))) i))
                (fun p => Ok (NImpl (fst p) (snd p)))
    | TEquiv => rbind (of_opt (nthN (vt_vec (if b then c_large (t_equivs (f_tabs s)) else c_small (t_equivs (f_tabs s)))) i))
                (fun p => Ok (NEquiv (fst p) (snd p)))
    | TCc => if b then rbind (of_opt (nthN (vt_vec (t_ccs (f_tabs s))) i)) (fun c => Ok (NCc c)) else Panic
    | TPbc => if b then rbind (of_opt (nthN (vt_vec (t_pbcs (f_tabs s))) i)) (fun c => Ok (NPbc c)) else Panic
    end.
Proof.
  intros s i ty b Hc Hi. unfold unpack. rewrite formula_type_encode by (right; assumption). cbn [of_opt rbind].
  unfold cache2_get, simple_get.
  rewrite ?is_large_cache_encode by (right; assumption). rewrite ?enc_index_encode by assumption.
  destruct ty as [ | | [vt | vt] | | | | | | | ]; destruct b; reflexivity.
Qed.

Lemma unpack_verum : forall s, unpack s verum = Ok NTrue.
Proof. reflexivity. Qed.
Lemma unpack_falsum : forall s, unpack s falsum = Ok NFalse.
Proof. reflexivity. Qed.

Lemma var_type_index : forall v, var_of_type (var_type_of v) (var_index v) = v.
Proof. intros [i | a i]; reflexivity. Qed.

Lemma var_ok_small : forall s v, cap s -> var_ok s v -> var_index v < cap26.
Proof.
  intros s v Hc Hv. destruct (cap_inv s Hc) as [H _]. destruct v as [i | a i]; cbn in *; [| assumption].
  unfold cap26 in *. lia.
Qed.

Lemma unpack_lit : forall s l, cap s -> lit_ok s l -> unpack s (encode_lit l) = Ok (NLit l).
Proof.
  intros s [v []] Hc Hl; cbn [encode_lit]; rewrite unpack_enc; try reflexivity; try (rewrite var_type_index; reflexivity);
    apply small58; eapply var_ok_small; eauto.
Qed.

Definition lit_type_of (l : lit) : lit_type :=
  match l with Lit v true => LTPos (var_type_of v) | Lit v false => LTNeg (var_type_of v) end.

Lemma encode_lit_eq : forall l, encode_lit l = encode (var_index (lit_var l)) (TLit (lit_type_of l)) true.
Proof. intros [v []]; reflexivity. Qed.

Lemma type_lit : forall s l, cap s -> lit_ok s l -> formula_type_of (encode_lit l) = Some (TLit (lit_type_of l)).
Proof.
  intros s l Hc Hl. rewrite encode_lit_eq. apply formula_type_encode. right. apply small58. eapply var_ok_small; eauto.
Qed.

Lemma encode_lit_inj : forall s l k, cap s -> lit_ok s l -> lit_ok s k -> encode_lit l = encode_lit k -> l = k.
Proof.
  intros s l k Hc Hl Hk He. pose proof (unpack_lit s l Hc Hl) as H. rewrite He, unpack_lit in H by assumption. congruence.
Qed.

Lemma vh_small : forall s h, cap s -> vh s h -> h < 4294967296.
Proof.
  intros s h Hc H. destruct H.
  - reflexivity.
  - reflexivity.
  - rewrite encode_lit_eq. apply encode_small_bound. eapply var_ok_small; eauto.
  - apply encode_small_bound. destruct (cap_inv s Hc) as [_ [Ht _]]. specialize (Ht ty). unfold cap26 in *. lia.
Qed.

Lemma vh_not_large : forall s h, cap s -> vh s h -> is_large h = false.
Proof. intros. apply is_large_spec. eapply vh_small; eauto. Qed.
Lemma vh_as_32 : forall s h, cap s -> vh s h -> as_32 h = h.
Proof. intros. apply as_32_small. eapply vh_small; eauto. Qed.

(** All the cases of a valid handle. *)
Inductive vcase (s : factory) (h : N) : Prop :=
| vc_true : h = verum -> formula_type_of h = Some TTrue -> unpack s h = Ok NTrue -> vcase s h
| vc_false : h = falsum -> formula_type_of h = Some TFalse -> unpack s h = Ok NFalse -> vcase s h
| vc_lit : forall l, h = encode_lit l -> lit_ok s l -> formula_type_of h = Some (TLit (lit_type_of l)) ->
    unpack s h = Ok (NLit l) -> vcase s h
| vc_not : forall i a, h = encode i TNot false -> nthN (vt_vec (c_small (t_nots (f_tabs s)))) i = Some a ->
    formula_type_of h = Some TNot -> unpack s h = Ok (NNot a) -> vcase s h
| vc_and : forall i l, h = encode i TAnd false -> nthN (vt_vec (c_small (t_ands (f_tabs s)))) i = Some l ->
    formula_type_of h = Some TAnd -> unpack s h = Ok (NAnd l) -> vcase s h
| vc_or : forall i l, h = encode i TOr false -> nthN (vt_vec (c_small (t_ors (f_tabs s)))) i = Some l ->
    formula_type_of h = Some TOr -> unpack s h = Ok (NOr l) -> vcase s h
| vc_impl : forall i a b, h = encode i TImpl false -> nthN (vt_vec (c_small (t_impls (f_tabs s)))) i = Some (a, b) ->
    formula_type_of h = Some TImpl -> unpack s h = Ok (NImpl a b) -> vcase s h
| vc_equiv : forall i a b, h = encode i TEquiv false -> nthN (vt_vec (c_small (t_equivs (f_tabs s)))) i = Some (a, b) ->
    formula_type_of h = Some TEquiv -> unpack s h = Ok (NEquiv a b) -> vcase s h
| vc_cc : forall i c, h = encode i TCc true -> nthN (vt_vec (t_ccs (f_tabs s))) i = Some c ->
    formula_type_of h = Some TCc -> unpack s h = Ok (NCc c) -> vcase s h
| vc_pbc : forall i p, h = encode i TPbc true -> nthN (vt_vec (t_pbcs (f_tabs s))) i = Some p ->
    formula_type_of h = Some TPbc -> unpack s h = Ok (NPbc p) -> vcase s h.

Lemma vh_case : forall s h, cap s -> vh s h -> vcase s h.
Proof.
  intros s h Hc H. destruct H as [ | | l Hl | ty i Hi].
  - apply vc_true; reflexivity.
  - apply vc_false; reflexivity.
  - apply (vc_lit s _ l); auto. + eapply type_lit; eauto. + apply unpack_lit; assumption.
  - destruct (cap_inv s Hc) as [_ [Ht _]]. specialize (Ht ty).
    assert (Hs : i < cap26) by (unfold cap26 in *; lia). apply small58 in Hs.
    assert (Hty : formula_type_of (encode i ty (tflag ty)) = Some ty) by (apply formula_type_encode; right; assumption).
    destruct ty; cbn [tlen] in Hi; try lia; cbn [tflag] in *;
      destruct (nthN_lt_some _ _ _ Hi) as [x Hx].
    + eapply vc_not; eauto. rewrite unpack_enc by (auto; reflexivity). rewrite Hx. reflexivity.
    + eapply vc_and; eauto. rewrite unpack_enc by (auto; reflexivity). rewrite Hx. reflexivity.
    + eapply vc_or; eauto. rewrite unpack_enc by (auto; reflexivity). rewrite Hx. reflexivity.
    + destruct x as [a b]. eapply vc_impl; eauto. rewrite unpack_enc by (auto; reflexivity). rewrite Hx. reflexivity.
    + destruct x as [a b]. eapply vc_equiv; eauto. rewrite unpack_enc by (auto; reflexivity). rewrite Hx. reflexivity.
    + eapply vc_cc; eauto. rewrite unpack_enc by (auto; reflexivity). rewrite Hx. reflexivity.
    + eapply vc_pbc; eauto. rewrite unpack_enc by (auto; reflexivity). rewrite Hx. reflexivity.
Qed.

(** Operands of valid handles are valid and every valid handle denotes a tree. *)
Definition node_good (s : factory) (n : node) : Prop := Forall (good s) (node_operands n).

Lemma vh_operands : forall s h, wf s -> vh s h -> exists n, unpack s h = Ok n /\ node_good s n.
Proof.
  intros s h Hw Hv. destruct (vh_case s h (wf_cap s Hw) Hv) as [? ? Hu | ? ? Hu | l ? ? ? Hu | i a ? Hn ? Hu | i l ? Hn ? Hu
    | i l ? Hn ? Hu | i a b ? Hn ? Hu | i a b ? Hn ? Hu | i c ? Hn ? Hu | i p ? Hn ? Hu]; rewrite Hu; eexists; split; try reflexivity;
    unfold node_good; cbn [node_operands]; auto.
  - destruct (wf_not_ops s Hw _ _ Hn). auto.
  - destruct (wf_and_ops s Hw _ _ Hn) as [[] ?]. auto.
  - destruct (wf_or_ops s Hw _ _ Hn) as [[] ?]. auto.
  - destruct (wf_impl_ops s Hw _ _ Hn) as [? [? ?]]. auto.
  - destruct (wf_equiv_ops s Hw _ _ Hn) as [? [? ?]]. auto.
Qed.

Lemma good_list_denotes : forall s l, Forall (good s) l -> exists xs, Forall2 (denotes s) l xs.
Proof.
  intros s l H. induction H as [| h l [_ [x Hx]] _ [xs IH]]; [exists []; constructor |].
  exists (x :: xs). constructor; assumption.
Qed.

Lemma unpack_denotes : forall s h n, unpack s h = Ok n -> Forall (good s) (node_operands n) -> exists x, denotes s h x.
Proof.
  intros s h n Hu Hg. destruct n; cbn [node_operands] in Hg.
  - eexists; apply d_true; assumption.
  - eexists; apply d_false; assumption.
  - eexists; eapply d_lit; eassumption.
  - inversion Hg as [| ? ? [_ [x Hx]]]; subst. eexists; eapply d_not; eassumption.
  - destruct (good_list_denotes _ _ Hg) as [xs Hxs]. eexists; eapply d_and; eassumption.
  - destruct (good_list_denotes _ _ Hg) as [xs Hxs]. eexists; eapply d_or; eassumption.
  - inversion Hg as [| ? ? [_ [x Hx]] Hg']; subst. inversion Hg' as [| ? ? [_ [y Hy]]]; subst. eexists; eapply d_impl; eassumption.
  - inversion Hg as [| ? ? [_ [x Hx]] Hg']; subst. inversion Hg' as [| ? ? [_ [y Hy]]]; subst. eexists; eapply d_equiv; eassumption.
  - eexists; eapply d_cc; eassumption.
  - eexists; eapply d_pbc; eassumption.
Qed.

Lemma vh_denotes : forall s h, wf s -> vh s h -> exists x, denotes s h x.
Proof.
  intros s h Hw Hv. destruct (vh_operands s h Hw Hv) as [n [Hu Hg]]. eapply unpack_denotes; eauto.
Qed.

Lemma vh_good : forall s h, wf s -> vh s h -> good s h.
Proof. intros. split; [assumption | apply vh_denotes; assumption]. Qed.
Lemma Forall_vh_good : forall s l, wf s -> Forall (vh s) l -> Forall (good s) l.
Proof. intros s l Hw H. eapply Forall_impl; [| exact H]. intros. apply vh_good; assumption. Qed.
Lemma Forall_good_vh : forall s l, Forall (good s) l -> Forall (vh s) l.
Proof. intros s l H. eapply Forall_impl; [| exact H]. intros a [? _]. assumption. Qed.

Lemma good_ext : forall s s' h, ext s s' -> good s h -> good s' h.
Proof. intros s s' h He [Hv [x Hx]]. split; [eapply vh_ext; eauto |]. exists x. eapply denotes_ext; eauto. Qed.
Lemma Forall_vh_ext : forall s s' l, ext s s' -> Forall (vh s) l -> Forall (vh s') l.
Proof. intros s s' l He H. eapply Forall_impl; [| exact H]. intros. eapply vh_ext; eauto. Qed.
Lemma Forall_good_ext : forall s s' l, ext s s' -> Forall (good s) l -> Forall (good s') l.
Proof. intros s s' l He H. eapply Forall_impl; [| exact H]. intros. eapply good_ext; eauto. Qed.

Lemma hs_total : forall s v h, wf s -> vh s h -> exists b, hs s v h b.
Proof. intros s v h Hw Hv. destruct (vh_denotes s h Hw Hv) as [x Hx]. exists (sem v x), x. auto. Qed.

(** For valid handles, unpacking in an extension gives the same node. *)
Lemma unpack_back : forall s s' h n, wf s -> ext s s' -> vh s h -> unpack s' h = Ok n -> unpack s h = Ok n.
Proof.
  intros s s' h n Hw He Hv Hu. destruct (vh_operands s h Hw Hv) as [m [Hm _]].
  pose proof (unpack_ext s s' h m (proj1 He) Hm) as H. congruence.
Qed.

Lemma compl_back : forall s s' x y, wf s -> ext s s' -> vh s x -> vh s y -> compl s' x y -> compl s x y.
Proof.
  intros s s' x y Hw He Hx Hy [H | [H | [l [H1 H2]]]].
  - left. eapply unpack_back; eauto.
  - right; left. eapply unpack_back; eauto.
  - right; right. exists l. split; eapply unpack_back; eauto.
Qed.

Lemma lit_negate_inv : forall l, lit_negate (lit_negate l) = l.
Proof. intros [v p]. cbn. rewrite negb_involutive. reflexivity. Qed.

Lemma compl_sym : forall s x y, compl s x y -> compl s y x.
Proof.
  intros s x y [H | [H | [l [H1 H2]]]]; unfold compl; auto.
  right; right. exists (lit_negate l). rewrite lit_negate_inv. auto.
Qed.

Lemma ops_ok_ext : forall s s' conj l, wf s -> ext s s' -> ops_ok s conj l -> ops_ok s' conj l.
Proof.
  intros s s' conj l Hw He [Hg Hn Hc Hf Hk]. constructor; auto.
  - eapply Forall_good_ext; eauto.
  - intros x y Hx Hy Hco. apply (Hk x y Hx Hy). rewrite Forall_forall in Hg.
    eapply compl_back; eauto; apply Hg; assumption.
Qed.

(* ------------------------------------------------------------------------------------------------------------------ *)
(** * Inversion of [denotes] by unpacking *)

Lemma denotes_inv : forall s h x, denotes s h x ->
  match x with
  | FTrue => unpack s h = Ok NTrue
  | FFalse => unpack s h = Ok NFalse
  | FLit l => unpack s h = Ok (NLit l)
  | FNot a => exists k, unpack s h = Ok (NNot k) /\ denotes s k a
  | FAnd xs => exists l, unpack s h = Ok (NAnd l) /\ Forall2 (denotes s) l xs
  | FOr xs => exists l, unpack s h = Ok (NOr l) /\ Forall2 (denotes s) l xs
  | FImpl a b => exists k1 k2, unpack s h = Ok (NImpl k1 k2) /\ denotes s k1 a /\ denotes s k2 b
  | FEquiv a b => exists k1 k2, unpack s h = Ok (NEquiv k1 k2) /\ denotes s k1 a /\ denotes s k2 b
  | FCc c => unpack s h = Ok (NCc c)
  | FPbc p => unpack s h = Ok (NPbc p)
  end.
Proof. intros s h x H. destruct H; eauto 7. Qed.

Lemma denotes_by_node : forall s h n x, unpack s h = Ok n -> denotes s h x ->
  match n with
  | NTrue => x = FTrue
  | NFalse => x = FFalse
  | NLit l => x = FLit l
  | NNot a => exists y, x = FNot y /\ denotes s a y
  | NAnd l => exists ys, x = FAnd ys /\ Forall2 (denotes s) l ys
  | NOr l => exists ys, x = FOr ys /\ Forall2 (denotes s) l ys
  | NImpl a b => exists y z, x = FImpl y z /\ denotes s a y /\ denotes s b z
  | NEquiv a b => exists y z, x = FEquiv y z /\ denotes s a y /\ denotes s b z
  | NCc c => x = FCc c
  | NPbc p => x = FPbc p
  end.
Proof.
  intros s h n x Hu H.
  destruct H as [? H0 | ? H0 | ? ? H0 | ? ? ? H0 ? | ? ? ? H0 ? | ? ? ? H0 ? | ? ? ? ? ? H0 ? ? | ? ? ? ? ? H0 ? ? | ? ? H0 | ? ? H0];
    rewrite Hu in H0; injection H0 as ->; eauto 7.
Qed.
