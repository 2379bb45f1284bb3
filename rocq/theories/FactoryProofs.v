(** Specifications of the factory constructors. *)
From Coq Require Import NArith ZArith List Bool Lia.
From Coq Require String.
From Verif Require Import Base EncodingModel EncodingProofs Syntax FactoryModel FactoryInv FactoryBasics.
Import ListNotations.
Local Open Scope N_scope.

(* ------------------------------------------------------------------------------------------------------------------ *)
(** * Semantics of nodes *)

Definition nnode (conj : bool) (l : list N) : node := if conj then NAnd l else NOr l.
Definition allv (s : factory) (v : valuation) (b : bool) (l : list N) : Prop := Forall (fun h => hs s v h b) l.

Lemma allv_sem : forall s v b l xs, Forall2 (denotes s) l xs -> (allv s v b l <-> Forall (fun x => sem v x = b) xs).
Proof.
  intros s v b l xs H. induction H as [| h x l xs Hd H IH].
  - split; intros; constructor.
  - unfold allv in *. split; intros Hf; inversion Hf; subst; constructor; try (apply IH; assumption).
    + match goal with H : hs _ _ _ _ |- _ => destruct H as [y [Hy Hb]] end.
      rewrite (denotes_fun _ _ _ _ Hd Hy). assumption.
    + exists x. auto.
Qed.

Lemma forallb_Forall : forall A (f : A -> bool) l, forallb f l = true <-> Forall (fun x => f x = true) l.
Proof. intros. rewrite forallb_forall, Forall_forall. tauto. Qed.
Lemma existsb_Forall : forall A (f : A -> bool) l, existsb f l = false <-> Forall (fun x => f x = false) l.
Proof.
  intros A f l. induction l as [| a l IH]; cbn.
  - split; intros; constructor.
  - rewrite orb_false_iff, IH. split; [intros [? ?]; constructor; auto | intros H; inversion H; auto].
Qed.

Lemma hs_nnode : forall s v h conj l, unpack s h = Ok (nnode conj l) -> Forall (good s) l ->
  (hs s v h conj <-> allv s v conj l).
Proof.
  intros s v h conj l Hu Hg. destruct (good_list_denotes _ _ Hg) as [xs Hxs].
  rewrite (allv_sem _ _ _ _ _ Hxs). destruct conj; cbn [nnode] in Hu.
  - split.
    + intros [y [Hy Hb]]. assert (y = FAnd xs) as -> by (eapply denotes_fun; [exact Hy |]; eapply d_and; eauto).
      cbn in Hb. apply forallb_Forall. assumption.
    + intros Hf. exists (FAnd xs). split; [eapply d_and; eauto |]. cbn. apply forallb_Forall. assumption.
  - split.
    + intros [y [Hy Hb]]. assert (y = FOr xs) as -> by (eapply denotes_fun; [exact Hy |]; eapply d_or; eauto).
      cbn in Hb. apply existsb_Forall. assumption.
    + intros Hf. exists (FOr xs). split; [eapply d_or; eauto |]. cbn. apply existsb_Forall. assumption.
Qed.

Lemma hs_not : forall s v h a b, unpack s h = Ok (NNot a) -> hs s v a b -> hs s v h (negb b).
Proof. intros s v h a b Hu [x [Hx <-]]. exists (FNot x). split; [eapply d_not; eauto | reflexivity]. Qed.
Lemma hs_lit : forall s v h l, unpack s h = Ok (NLit l) -> hs s v h (lit_sem v l).
Proof. intros s v h l Hu. exists (FLit l). split; [apply d_lit; assumption | reflexivity]. Qed.
Lemma hs_verum : forall s v, hs s v verum true.
Proof. intros. exists FTrue. split; [apply d_true; reflexivity | reflexivity]. Qed.
Lemma hs_falsum : forall s v, hs s v falsum false.
Proof. intros. exists FFalse. split; [apply d_false; reflexivity | reflexivity]. Qed.
Lemma hs_constant : forall s v b, hs s v (constant b) b.
Proof. intros s v []; [apply hs_verum | apply hs_falsum]. Qed.
Lemma hs_impl : forall s v h a b x y, unpack s h = Ok (NImpl a b) -> hs s v a x -> hs s v b y -> hs s v h (implb x y).
Proof. intros s v h a b x y Hu [p [Hp <-]] [q [Hq <-]]. exists (FImpl p q). split; [eapply d_impl; eauto | reflexivity]. Qed.
Lemma hs_equiv : forall s v h a b x y, unpack s h = Ok (NEquiv a b) -> hs s v a x -> hs s v b y -> hs s v h (Bool.eqb x y).
Proof. intros s v h a b x y Hu [p [Hp <-]] [q [Hq <-]]. exists (FEquiv p q). split; [eapply d_equiv; eauto | reflexivity]. Qed.
Lemma hs_cc : forall s v h c, unpack s h = Ok (NCc c) -> hs s v h (cc_sem v c).
Proof. intros s v h l Hu. exists (FCc l). split; [apply d_cc; assumption | reflexivity]. Qed.
Lemma hs_pbc : forall s v h c, unpack s h = Ok (NPbc c) -> hs s v h (pbc_sem v c).
Proof. intros s v h l Hu. exists (FPbc l). split; [apply d_pbc; assumption | reflexivity]. Qed.

Lemma lit_sem_negate : forall v l, lit_sem v (lit_negate l) = negb (lit_sem v l).
Proof. intros v [x []]; cbn; [reflexivity | rewrite negb_involutive; reflexivity]. Qed.

Lemma compl_sem : forall s v x y b c, compl s x y -> hs s v x b -> hs s v y c -> b = negb c.
Proof.
  intros s v x y b c [H | [H | [l [H1 H2]]]] Hx Hy.
  - pose proof (hs_not s v x y c H Hy). eapply hs_fun; eauto.
  - pose proof (hs_not s v y x b H Hx). rewrite (hs_fun _ _ _ _ _ Hy H0). rewrite negb_involutive. reflexivity.
  - pose proof (hs_lit s v x l H1). pose proof (hs_lit s v y _ H2). rewrite lit_sem_negate in H0.
    rewrite (hs_fun _ _ _ _ _ Hx H), (hs_fun _ _ _ _ _ Hy H0). rewrite negb_involutive. reflexivity.
Qed.

Lemma vh_constant : forall s b, vh s (constant b).
Proof. intros s []; constructor. Qed.

(* ------------------------------------------------------------------------------------------------------------------ *)
(** * Preservation of well-formedness when tables grow *)

Lemma wf_extend : forall s s', wf s -> ext s s' -> cap s' ->
  vtab_ok String.eqb id (TLit (LTPos VTFF)) true (t_vars (f_tabs s')) ->
  c2_ok set_eqb id TAnd (t_ands (f_tabs s')) -> c2_ok set_eqb id TOr (t_ors (f_tabs s')) ->
  c2_ok N.eqb id TNot (t_nots (f_tabs s')) -> c2_ok pair_eqb id TImpl (t_impls (f_tabs s')) ->
  c2_ok pair_eqb sort_pair TEquiv (t_equivs (f_tabs s')) ->
  vtab_ok cc_eqb id TCc true (t_ccs (f_tabs s')) -> vtab_ok pbc_eqb id TPbc true (t_pbcs (f_tabs s')) ->
  (forall i l, nthN (vt_vec (c_small (t_ands (f_tabs s')))) i = Some l ->
     nthN (vt_vec (c_small (t_ands (f_tabs s)))) i = Some l \/ (ops_ok s' true l /\ (2 <= length l)%nat)) ->
  (forall i l, nthN (vt_vec (c_small (t_ors (f_tabs s')))) i = Some l ->
     nthN (vt_vec (c_small (t_ors (f_tabs s)))) i = Some l \/ (ops_ok s' false l /\ (2 <= length l)%nat)) ->
  (forall i a, nthN (vt_vec (c_small (t_nots (f_tabs s')))) i = Some a ->
     nthN (vt_vec (c_small (t_nots (f_tabs s)))) i = Some a \/ (good s' a /\ negatable a)) ->
  (forall i p, nthN (vt_vec (c_small (t_impls (f_tabs s')))) i = Some p ->
     nthN (vt_vec (c_small (t_impls (f_tabs s)))) i = Some p \/
     (good s' (fst p) /\ good s' (snd p) /\ nonconst (fst p) /\ nonconst (snd p) /\ fst p <> snd p)) ->
  (forall i p, nthN (vt_vec (c_small (t_equivs (f_tabs s')))) i = Some p ->
     nthN (vt_vec (c_small (t_equivs (f_tabs s)))) i = Some p \/
     (good s' (fst p) /\ good s' (snd p) /\ nonconst (fst p) /\ nonconst (snd p) /\ fst p <> snd p)) ->
  (forall i c, nthN (vt_vec (t_ccs (f_tabs s'))) i = Some c ->
     nthN (vt_vec (t_ccs (f_tabs s))) i = Some c \/
     (cc_vars c <> [] /\ Forall (var_ok s') (cc_vars c) /\ cc_rhs c < 4294967296 /\ (cc_cmp c = LT -> cc_rhs c <> 0))) ->
  (forall i p, nthN (vt_vec (t_pbcs (f_tabs s'))) i = Some p ->
     nthN (vt_vec (t_pbcs (f_tabs s))) i = Some p \/
     (pb_lits p <> [] /\ length (pb_lits p) = length (pb_coeffs p) /\ Forall (lit_ok s') (pb_lits p)
      /\ is_lit_cc (pb_cmp p) (pb_rhs p) (pb_lits p) (pb_coeffs p) = false)) ->
  (forall h, oc_get h (oc_is_cnf (f_caches s')) <> None -> vh s' h /\ is_nary_operator h = true) ->
  (forall h x, vh s' h -> denotes s' h x -> is_cnf s' h = Ok (cnf_shape x)) ->
  wf s'.
Proof.
  intros s s' Hw He Hc T1 T2 T3 T4 T5 T6 T7 T8 O1 O2 O3 O4 O5 O6 O7 K1 K2.
  constructor; auto.
  - intros i l Hi. destruct (O1 i l Hi) as [H | H]; [| exact H].
    destruct (wf_and_ops s Hw _ _ H). split; [eapply ops_ok_ext; eauto | assumption].
  - intros i l Hi. destruct (O2 i l Hi) as [H | H]; [| exact H].
    destruct (wf_or_ops s Hw _ _ H). split; [eapply ops_ok_ext; eauto | assumption].
  - intros i a Hi. destruct (O3 i a Hi) as [H | H]; [| exact H].
    destruct (wf_not_ops s Hw _ _ H). split; [eapply good_ext; eauto | assumption].
  - intros i p Hi. destruct (O4 i p Hi) as [H | H]; [| exact H].
    destruct (wf_impl_ops s Hw _ _ H) as [? [? ?]]. split; [eapply good_ext; eauto | split; [eapply good_ext; eauto | assumption]].
  - intros i p Hi. destruct (O5 i p Hi) as [H | H]; [| exact H].
    destruct (wf_equiv_ops s Hw _ _ H) as [? [? ?]]. split; [eapply good_ext; eauto | split; [eapply good_ext; eauto | assumption]].
  - intros i c Hi. destruct (O6 i c Hi) as [H | H]; [| exact H].
    destruct (wf_cc_ops s Hw _ _ H) as [? [? ?]]. split; [assumption |]. split; [| assumption].
    eapply Forall_impl; [| eassumption]. intros. eapply var_ok_ext; eauto.
  - intros i p Hi. destruct (O7 i p Hi) as [H | H]; [| exact H].
    destruct (wf_pbc_ops s Hw _ _ H) as [? [? [? ?]]]. split; [assumption |]. split; [assumption |]. split; [| assumption].
    eapply Forall_impl; [| eassumption]. intros. eapply lit_ok_ext; eauto.
Qed.

Lemma cnf_exact_old : forall s s' h x, wf s -> ext s s' -> oc_is_cnf (f_caches s') = oc_is_cnf (f_caches s) ->
  vh s h -> denotes s' h x -> is_cnf s' h = Ok (cnf_shape x).
Proof.
  intros s s' h x Hw He Hk Hv Hd. destruct (vh_denotes s h Hw Hv) as [y Hy].
  assert (x = y) as -> by (eapply denotes_fun; [exact Hd |]; eapply denotes_ext; eauto).
  rewrite <- (wf_cnf_exact s Hw h y Hv Hy). unfold is_cnf. rewrite Hk. reflexivity.
Qed.

(** A handle valid after one insertion is old or the new one. *)
Lemma vh_new : forall s s' ty, (forall ty', ty' <> ty -> tlen s' ty' = tlen s ty') -> tlen s' ty <= tlen s ty + 1 ->
  lenN (vt_vec (t_vars (f_tabs s'))) = lenN (vt_vec (t_vars (f_tabs s))) ->
  forall h, vh s' h -> vh s h \/ h = encode (tlen s ty) ty (tflag ty).
Proof.
  intros s s' ty Ho Hn Hv h H. destruct H as [ | | l Hl | ty' i Hi].
  - left; constructor.
  - left; constructor.
  - left; constructor. destruct l as [[i | a i] p]; unfold lit_ok, lit_var, var_ok in *; [| assumption]. rewrite Hv in Hl. assumption.
  - assert (Hd : {ty' = ty} + {ty' <> ty}) by (repeat decide equality).
    destruct Hd as [-> | Hd].
    + destruct (N.eq_dec i (tlen s ty)) as [-> | Hne]; [right; reflexivity |]. left. constructor. lia.
    + left. constructor. rewrite <- Ho by assumption. assumption.
Qed.

Lemma new_not_vh : forall s ty, cap s -> tlen s ty < cap26 -> (forall l, ty <> TLit l) -> ty <> TTrue -> ty <> TFalse ->
  ~ vh s (encode (tlen s ty) ty (tflag ty)).
Proof.
  intros s ty Hc Hl Ht1 Ht2 Ht3 Hv.
  assert (Hk : is_const_type ty = false) by (destruct ty; congruence || reflexivity).
  remember (encode (tlen s ty) ty (tflag ty)) as h eqn:Eh. destruct Hv as [ | | l Hlit | ty' i Hi].
  - assert (formula_type_of verum = Some ty) as H by (rewrite Eh; apply formula_type_encode; right; auto).
    cbn in H. congruence.
  - assert (formula_type_of falsum = Some ty) as H by (rewrite Eh; apply formula_type_encode; right; auto).
    cbn in H. congruence.
  - pose proof (type_lit s l Hc Hlit) as H. rewrite Eh, formula_type_encode in H by (right; auto). congruence.
  - destruct (cap_inv s Hc) as [_ [Hcap _]]. specialize (Hcap ty').
    assert (Hk' : is_const_type ty' = false) by (destruct ty'; cbn [tlen] in Hi; try lia; reflexivity).
    apply encode_inj in Eh; auto; [| apply small58; unfold cap26 in *; lia].
    destruct Eh as [-> [-> _]]. lia.
Qed.

(** Cache bookkeeping common to all insertions that do not touch the is-CNF cache. *)
Lemma cnf_fields_same : forall s s' ty, wf s -> ext s s' -> cap s' -> f_caches s' = f_caches s ->
  (forall ty', ty' <> ty -> tlen s' ty' = tlen s ty') -> tlen s' ty <= tlen s ty + 1 ->
  lenN (vt_vec (t_vars (f_tabs s'))) = lenN (vt_vec (t_vars (f_tabs s))) ->
  (ty = TNot \/ ty = TImpl \/ ty = TEquiv \/ ty = TCc \/ ty = TPbc) ->
  (forall h, oc_get h (oc_is_cnf (f_caches s')) <> None -> vh s' h /\ is_nary_operator h = true)
  /\ (forall h x, vh s' h -> denotes s' h x -> is_cnf s' h = Ok (cnf_shape x)).
Proof.
  intros s s' ty Hw He Hc Hk Ho Hn Hv Hty. split.
  - intros h H. rewrite Hk in H. apply (wf_cnf_keys s Hw) in H. split; [eapply vh_ext; [exact He | apply H] | apply H].
  - intros h x Hh Hd. destruct (vh_new s s' ty Ho Hn Hv h Hh) as [Hold | Hnew].
    + eapply cnf_exact_old; eauto. rewrite Hk. reflexivity.
    + pose proof (vh_case s' h Hc Hh) as Hcase.
      assert (Hlt : tlen s ty <= cap26) by (apply (cap_inv s (wf_cap s Hw))).
      assert (Hf : formula_type_of h = Some ty).
      { subst h. apply formula_type_encode. right. unfold cap26 in *. lia. }
      unfold is_cnf, ftype. rewrite Hf. cbn [of_opt rbind].
      destruct Hcase as [? Ht Hu | ? Ht Hu | l ? ? Ht Hu | i a ? Hnn Ht Hu | i l ? Hnn Ht Hu
        | i l ? Hnn Ht Hu | i a b ? Hnn Ht Hu | i a b ? Hnn Ht Hu | i c ? Hnn Ht Hu | i p ? Hnn Ht Hu];
        rewrite Hf in Ht; injection Ht as ->; try (exfalso; destruct Hty as [Q | [Q | [Q | [Q | Q]]]]; discriminate);
        pose proof (denotes_by_node _ _ _ _ Hu Hd) as Hx; cbn in Hx.
      * destruct Hx as [y [-> _]]. reflexivity.
      * destruct Hx as [y [z [-> _]]]. reflexivity.
      * destruct Hx as [y [z [-> _]]]. reflexivity.
      * subst x. reflexivity.
      * subst x. reflexivity.
Qed.

(* ------------------------------------------------------------------------------------------------------------------ *)
(** * Monotonicity of the updates *)

Lemma size_le_tabs : forall s t,
  lenN (vt_vec (t_vars (f_tabs s))) <= lenN (vt_vec (t_vars t)) ->
  lenN (vt_vec (t_ccs (f_tabs s))) <= lenN (vt_vec (t_ccs t)) ->
  lenN (vt_vec (t_pbcs (f_tabs s))) <= lenN (vt_vec (t_pbcs t)) ->
  Forall2 N.le (c2_sizes (t_ands (f_tabs s))) (c2_sizes (t_ands t)) ->
  Forall2 N.le (c2_sizes (t_ors (f_tabs s))) (c2_sizes (t_ors t)) ->
  Forall2 N.le (c2_sizes (t_nots (f_tabs s))) (c2_sizes (t_nots t)) ->
  Forall2 N.le (c2_sizes (t_impls (f_tabs s))) (c2_sizes (t_impls t)) ->
  Forall2 N.le (c2_sizes (t_equivs (f_tabs s))) (c2_sizes (t_equivs t)) ->
  size_le s (with_tabs s t).
Proof.
  intros. unfold size_le, sizes. cbn [f_tabs with_tabs f_cnf_ctr f_cc_ctr f_pb_ctr].
  repeat apply Forall2_app; auto. repeat constructor; try assumption; lia.
Qed.

Lemma c2_le_small : forall V (c : cache2 V) t, lenN (vt_vec (c_small c)) <= lenN (vt_vec t) ->
  Forall2 N.le (c2_sizes c) (c2_sizes (mkCache2 t (c_large c))).
Proof. intros. unfold c2_sizes. cbn. repeat constructor; try assumption; lia. Qed.
Lemma c2_le_large : forall V (c : cache2 V) t, lenN (vt_vec (c_large c)) <= lenN (vt_vec t) ->
  Forall2 N.le (c2_sizes c) (c2_sizes (mkCache2 (c_small c) t)).
Proof. intros. unfold c2_sizes. cbn. repeat constructor; try assumption; lia. Qed.

Ltac goi_cases :=
  repeat match goal with
  | |- context [vtab_goi ?a ?b ?c ?d ?e ?f] =>
      let H := fresh "Hlen" in pose proof (vtab_goi_len _ a b c d e f) as H;
      let E := fresh "E" in destruct (vtab_goi a b c d e f) eqn:E; cbn [fst snd] in *
  end.

Lemma mono_f_not_insert : forall h, mono (f_not_insert h).
Proof.
  intros h s. unfold f_not_insert, updt, not_goi. cbn [snd].
  destruct (is_large h); goi_cases; cbn [fst snd]; apply size_le_tabs; cbn; try lia; try apply Forall2_le_refl;
    solve [apply c2_le_small; assumption | apply c2_le_large; assumption].
Qed.
Lemma mono_impl_insert : forall l r, mono (updt (fun t => let '(e, c) := impl_goi l r (t_impls t) in (e, set_impls t c))).
Proof.
  intros l r s. unfold updt, impl_goi. cbn [snd].
  destruct (is_large l || is_large r); goi_cases; cbn [fst snd]; apply size_le_tabs; cbn; try lia; try apply Forall2_le_refl;
    solve [apply c2_le_small; assumption | apply c2_le_large; assumption].
Qed.
Lemma mono_equiv_insert : forall l r, mono (updt (fun t => let '(e, c) := equiv_goi l r (t_equivs t) in (e, set_equivs t c))).
Proof.
  intros l r s. unfold updt, equiv_goi. cbn [snd].
  destruct (is_large l || is_large r); goi_cases; cbn [fst snd]; apply size_le_tabs; cbn; try lia; try apply Forall2_le_refl;
    solve [apply c2_le_small; assumption | apply c2_le_large; assumption].
Qed.
Lemma mono_nary_insert : forall conj r, mono (nary_insert conj r).
Proof.
  intros conj r s. unfold nary_insert, updt, nary_goi. cbn [snd].
  destruct (fr64 r) eqn:E64; goi_cases; cbn [fst snd]; destruct conj; cbn [nary_cache_of set_nary] in *;
    apply size_le_tabs; cbn; try lia; try apply Forall2_le_refl;
    solve [apply c2_le_small; assumption | apply c2_le_large; assumption].
Qed.
Lemma mono_cc_insert : forall x, mono (cc_insert x).
Proof.
  intros x s. unfold cc_insert, updt. cbn [snd]. rewrite simple_goi_vtab. goi_cases.
  apply size_le_tabs; cbn; try lia; try apply Forall2_le_refl.
Qed.
Lemma mono_pbc_insert : forall x, mono (pbc_insert x).
Proof.
  intros x s. unfold pbc_insert, updt. cbn [snd]. rewrite simple_goi_vtab. goi_cases.
  apply size_le_tabs; cbn; try lia; try apply Forall2_le_refl.
Qed.
Lemma mono_f_variable : forall x, mono (f_variable x).
Proof.
  intros x s. unfold f_variable, updt. cbn [snd]. rewrite simple_goi_vtab. goi_cases.
  apply size_le_tabs; cbn; try lia; try apply Forall2_le_refl.
Qed.
Lemma mono_note : forall h, mono (modf (note_is_cnf h)).
Proof. intros h s. exact (size_le_refl s). Qed.
Lemma mono_f_new_aux : forall a, mono (f_new_aux a).
Proof.
  intros a s. unfold size_le, sizes. destruct a; cbn [f_new_aux snd f_tabs f_cnf_ctr f_cc_ctr f_pb_ctr];
    repeat apply Forall2_app; try apply Forall2_le_refl; repeat constructor; lia.
Qed.

Ltac mono_tac :=
  repeat first
    [ apply mono_bind; [| intros ? ]
    | apply mono_ret | apply mono_fail | apply mono_nofuel | apply mono_lift | apply mono_note
    | apply mono_f_not_insert | apply mono_impl_insert | apply mono_equiv_insert | apply mono_nary_insert
    | apply mono_cc_insert | apply mono_pbc_insert | apply mono_f_variable | apply mono_f_new_aux
    | solve [eauto with mono]
    | match goal with
      | |- mono (match ?x with _ => _ end) => destruct x
      | |- mono (if ?x then _ else _) => destruct x
      | |- mono (let '(_, _) := ?x in _) => destruct x
      end ].

Create HintDb mono.
Lemma mono_f_nary : forall conj ops, mono (f_nary conj ops).
Proof. intros. unfold f_nary. mono_tac. Qed.
Lemma mono_f_and : forall ops, mono (f_and ops).
Proof. intros. apply mono_f_nary. Qed.
Lemma mono_f_or : forall ops, mono (f_or ops).
Proof. intros. apply mono_f_nary. Qed.
Global Hint Resolve mono_f_nary mono_f_and mono_f_or : mono.
Lemma mono_f_clause : forall ls, mono (f_clause ls).
Proof. intros. apply mono_f_nary. Qed.
Lemma mono_construct_cc : forall c r vs, mono (construct_cc_unsafe c r vs).
Proof. intros. unfold construct_cc_unsafe. mono_tac. Qed.
Global Hint Resolve mono_f_clause mono_construct_cc : mono.
Lemma mono_f_cc : forall c r vs, mono (f_cc c r vs).
Proof. intros. unfold f_cc. mono_tac. Qed.
Lemma mono_f_pbc : forall c r ls cs, mono (f_pbc c r ls cs).
Proof. intros. unfold f_pbc. mono_tac. Qed.
Global Hint Resolve mono_f_cc mono_f_pbc : mono.
Lemma mono_cc_negate : forall c, mono (cc_negate c).
Proof. intros. unfold cc_negate. mono_tac. Qed.
Lemma mono_pbc_negate : forall c, mono (pbc_negate c).
Proof. intros. unfold pbc_negate. mono_tac. Qed.
Global Hint Resolve mono_cc_negate mono_pbc_negate : mono.
Lemma mono_f_negate : forall h, mono (f_negate h).
Proof. intros. unfold f_negate. mono_tac. Qed.
Global Hint Resolve mono_f_negate : mono.
Lemma mono_f_not : forall h, mono (f_not h).
Proof. intros. unfold f_not. mono_tac. Qed.
Global Hint Resolve mono_f_not : mono.
Lemma mono_f_implication : forall l r, mono (f_implication l r).
Proof. intros. unfold f_implication. mono_tac. Qed.
Lemma mono_f_equivalence : forall l r, mono (f_equivalence l r).
Proof. intros. unfold f_equivalence. mono_tac. Qed.
Global Hint Resolve mono_f_implication mono_f_equivalence : mono.
Lemma mono_f_var : forall n, mono (f_var n).
Proof. intros. unfold f_var. mono_tac. Qed.
Global Hint Resolve mono_f_var : mono.
Lemma mono_f_literal : forall n p, mono (f_literal n p).
Proof. intros. unfold f_literal. mono_tac. Qed.
Global Hint Resolve mono_f_literal mono_f_variable mono_f_new_aux : mono.
