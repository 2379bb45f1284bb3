(** Invariant of factory states, meaning of handles, and a small program logic for factory operations. *)
From Coq Require Import NArith ZArith List Bool Lia Permutation.
From Coq Require String.
From Verif Require Import Base EncodingModel EncodingProofs Syntax FactoryModel.
Import ListNotations.
Local Open Scope N_scope.

(* ------------------------------------------------------------------------------------------------------------------ *)
(** * Induction on formula trees *)

Section fml_ind.
  Variable P : fml -> Prop.
  Hypothesis HT : P FTrue.
  Hypothesis HF : P FFalse.
  Hypothesis HL : forall l, P (FLit l).
  Hypothesis HN : forall a, P a -> P (FNot a).
  Hypothesis HA : forall l, Forall P l -> P (FAnd l).
  Hypothesis HO : forall l, Forall P l -> P (FOr l).
  Hypothesis HI : forall a b, P a -> P b -> P (FImpl a b).
  Hypothesis HE : forall a b, P a -> P b -> P (FEquiv a b).
  Hypothesis HC : forall c, P (FCc c).
  Hypothesis HP : forall p, P (FPbc p).
  Fixpoint fml_ind2 (a : fml) : P a :=
    match a with
    | FTrue => HT
    | FFalse => HF
    | FLit l => HL l
    | FNot b => HN b (fml_ind2 b)
    | FAnd l => HA l ((fix go l : Forall P l := match l with [] => Forall_nil _ | x :: r => Forall_cons _ (fml_ind2 x) (go r) end) l)
    | FOr l => HO l ((fix go l : Forall P l := match l with [] => Forall_nil _ | x :: r => Forall_cons _ (fml_ind2 x) (go r) end) l)
    | FImpl b c => HI b c (fml_ind2 b) (fml_ind2 c)
    | FEquiv b c => HE b c (fml_ind2 b) (fml_ind2 c)
    | FCc c => HC c
    | FPbc p => HP p
    end.
End fml_ind.

(* ------------------------------------------------------------------------------------------------------------------ *)
(** * Meaning of a handle: the formula tree it unfolds to *)

Inductive denotes (s : factory) : N -> fml -> Prop :=
| d_true : forall h, unpack s h = Ok NTrue -> denotes s h FTrue
| d_false : forall h, unpack s h = Ok NFalse -> denotes s h FFalse
| d_lit : forall h l, unpack s h = Ok (NLit l) -> denotes s h (FLit l)
| d_not : forall h a x, unpack s h = Ok (NNot a) -> denotes s a x -> denotes s h (FNot x)
| d_and : forall h l xs, unpack s h = Ok (NAnd l) -> Forall2 (denotes s) l xs -> denotes s h (FAnd xs)
| d_or : forall h l xs, unpack s h = Ok (NOr l) -> Forall2 (denotes s) l xs -> denotes s h (FOr xs)
| d_impl : forall h a b x y, unpack s h = Ok (NImpl a b) -> denotes s a x -> denotes s b y -> denotes s h (FImpl x y)
| d_equiv : forall h a b x y, unpack s h = Ok (NEquiv a b) -> denotes s a x -> denotes s b y -> denotes s h (FEquiv x y)
| d_cc : forall h c, unpack s h = Ok (NCc c) -> denotes s h (FCc c)
| d_pbc : forall h p, unpack s h = Ok (NPbc p) -> denotes s h (FPbc p).

Lemma denotes_fun : forall s x h y, denotes s h x -> denotes s h y -> x = y.
Proof.
  intros s x. induction x using fml_ind2; intros h y Hx Hy;
    inversion Hx; subst; inversion Hy; subst; try congruence.
  - match goal with H : unpack s h = _, H' : unpack s h = _ |- _ => rewrite H in H'; injection H' as <- end.
    f_equal. eapply IHx; eauto.
  - match goal with H : unpack s h = _, H' : unpack s h = _ |- _ => rewrite H in H'; injection H' as <- end.
    f_equal.
    match goal with H : Forall2 _ _ l |- _ => rename H into F1 end.
    match goal with H : Forall2 _ _ xs |- _ => rename H into F2 end.
    clear -H F1 F2. revert xs F2. induction F1 as [| h a hs l Ha F1 IH]; intros xs F2; inversion F2; subst; [reflexivity |].
    inversion H; subst. f_equal; eauto.
  - match goal with H : unpack s h = _, H' : unpack s h = _ |- _ => rewrite H in H'; injection H' as <- end.
    f_equal.
    match goal with H : Forall2 _ _ l |- _ => rename H into F1 end.
    match goal with H : Forall2 _ _ xs |- _ => rename H into F2 end.
    clear -H F1 F2. revert xs F2. induction F1 as [| h a hs l Ha F1 IH]; intros xs F2; inversion F2; subst; [reflexivity |].
    inversion H; subst. f_equal; eauto.
  - match goal with H : unpack s h = _, H' : unpack s h = _ |- _ => rewrite H in H'; injection H' as <- <- end.
    f_equal; eauto.
  - match goal with H : unpack s h = _, H' : unpack s h = _ |- _ => rewrite H in H'; injection H' as <- <- end.
    f_equal; eauto.
Qed.

(** Truth value of a handle. *)
Definition hs (s : factory) (v : valuation) (h : N) (b : bool) : Prop := exists x, denotes s h x /\ sem v x = b.

Lemma hs_fun : forall s v h b c, hs s v h b -> hs s v h c -> b = c.
Proof. intros s v h b c [x [Hx <-]] [y [Hy <-]]. rewrite (denotes_fun _ _ _ _ Hx Hy). reflexivity. Qed.

(* ------------------------------------------------------------------------------------------------------------------ *)
(** * Extension of factory states *)

Definition prefix {A} (l l' : list A) : Prop := exists r, l' = l ++ r.

Lemma prefix_refl : forall A (l : list A), prefix l l.
Proof. intros. exists []. rewrite app_nil_r. reflexivity. Qed.
Lemma prefix_trans : forall A (a b c : list A), prefix a b -> prefix b c -> prefix a c.
Proof. intros A a b c [r ->] [r' ->]. exists (r ++ r'). rewrite app_assoc. reflexivity. Qed.
Lemma prefix_nthN : forall A (l l' : list A) i x, prefix l l' -> nthN l i = Some x -> nthN l' i = Some x.
Proof. intros A l l' i x [r ->] H. apply nthN_app_l. assumption. Qed.
Lemma prefix_len : forall A (l l' : list A), prefix l l' -> lenN l <= lenN l'.
Proof. intros A l l' [r ->]. rewrite lenN_app. lia. Qed.
Lemma prefix_app : forall A (l : list A) r, prefix l (l ++ r).
Proof. intros. exists r. reflexivity. Qed.

Definition c2_ext {V} (c c' : cache2 V) : Prop :=
  prefix (vt_vec (c_small c)) (vt_vec (c_small c')) /\ prefix (vt_vec (c_large c)) (vt_vec (c_large c')).

Record tabs_ext (t t' : tables) : Prop := mkTabsExt
  { te_vars : prefix (vt_vec (t_vars t)) (vt_vec (t_vars t'));
    te_ands : c2_ext (t_ands t) (t_ands t'); te_ors : c2_ext (t_ors t) (t_ors t');
    te_nots : c2_ext (t_nots t) (t_nots t'); te_impls : c2_ext (t_impls t) (t_impls t');
    te_equivs : c2_ext (t_equivs t) (t_equivs t');
    te_ccs : prefix (vt_vec (t_ccs t)) (vt_vec (t_ccs t')); te_pbcs : prefix (vt_vec (t_pbcs t)) (vt_vec (t_pbcs t')) }.

Definition ext (s s' : factory) : Prop :=
  tabs_ext (f_tabs s) (f_tabs s') /\ f_config s' = f_config s
  /\ f_cnf_ctr s <= f_cnf_ctr s' /\ f_cc_ctr s <= f_cc_ctr s' /\ f_pb_ctr s <= f_pb_ctr s'.

Lemma c2_ext_refl : forall V (c : cache2 V), c2_ext c c.
Proof. intros; split; apply prefix_refl. Qed.
Lemma c2_ext_trans : forall V (a b c : cache2 V), c2_ext a b -> c2_ext b c -> c2_ext a c.
Proof. intros V a b c [? ?] [? ?]; split; eapply prefix_trans; eauto. Qed.
Lemma tabs_ext_refl : forall t, tabs_ext t t.
Proof. intros; constructor; solve [apply prefix_refl | apply c2_ext_refl]. Qed.
Lemma tabs_ext_trans : forall a b c, tabs_ext a b -> tabs_ext b c -> tabs_ext a c.
Proof. intros a b c [] []; constructor; solve [eapply prefix_trans; eauto | eapply c2_ext_trans; eauto]. Qed.
Lemma ext_refl : forall s, ext s s.
Proof. intros. repeat split; try lia; apply prefix_refl. Qed.
Lemma ext_trans : forall a b c, ext a b -> ext b c -> ext a c.
Proof.
  intros a b c [H1 [H2 [H3 [H4 H5]]]] [K1 [K2 [K3 [K4 K5]]]].
  repeat split; try lia; try congruence; try (eapply tabs_ext_trans; eauto).
Qed.

Lemma cache2_get_ext : forall V (c c' : cache2 V) h x, c2_ext c c' -> cache2_get c h = Ok x -> cache2_get c' h = Ok x.
Proof.
  intros V c c' h x [He1 He2] H. unfold cache2_get, of_opt in *.
  destruct (is_large_cache h).
  - destruct (nthN (vt_vec (c_large c)) (enc_index h)) eqn:E; [| discriminate].
    rewrite (prefix_nthN _ _ _ _ _ He2 E). assumption.
  - destruct (nthN (vt_vec (c_small c)) (enc_index h)) eqn:E; [| discriminate].
    rewrite (prefix_nthN _ _ _ _ _ He1 E). assumption.
Qed.

Lemma simple_get_ext : forall V (c c' : vtab V) h x, prefix (vt_vec c) (vt_vec c') -> simple_get c h = Ok x -> simple_get c' h = Ok x.
Proof.
  intros V c c' h x He H. unfold simple_get, of_opt in *.
  destruct (is_large_cache h); [| discriminate].
  destruct (nthN (vt_vec c) (enc_index h)) eqn:E; [| discriminate].
  rewrite (prefix_nthN _ _ _ _ _ He E). assumption.
Qed.

Lemma unpack_ext : forall s s' h n, tabs_ext (f_tabs s) (f_tabs s') -> unpack s h = Ok n -> unpack s' h = Ok n.
Proof.
  intros s s' h n He H. unfold unpack in *.
  destruct (formula_type_of h) as [ty |]; cbn [of_opt rbind] in *; [| discriminate].
  destruct He.
  destruct ty; try assumption;
    inv_bind H;
    solve [ erewrite cache2_get_ext by eauto; exact H | erewrite simple_get_ext by eauto; exact H ].
Qed.

Lemma Forall2_impl_Forall : forall A B (P : B -> Prop) (Q R : A -> B -> Prop) l m,
  Forall P m -> Forall2 Q l m -> (forall a b, P b -> Q a b -> R a b) -> Forall2 R l m.
Proof.
  intros A B P Q R l m HP HQ H. induction HQ; constructor; inversion HP; subst; auto.
Qed.

Lemma denotes_ext_t : forall s s' x h, tabs_ext (f_tabs s) (f_tabs s') -> denotes s h x -> denotes s' h x.
Proof.
  intros s s' x h He. revert h. induction x using fml_ind2; intros h Hd; inversion Hd; subst;
    match goal with H : unpack s h = _ |- _ => apply (unpack_ext s s') in H; [| exact He] end;
    econstructor; eauto;
    eapply Forall2_impl_Forall; eauto.
Qed.

Lemma denotes_ext : forall s s' x h, ext s s' -> denotes s h x -> denotes s' h x.
Proof. intros s s' x h [He _]. apply denotes_ext_t. assumption. Qed.

Lemma hs_ext : forall s s' v h b, ext s s' -> hs s v h b -> hs s' v h b.
Proof. intros s s' v h b He [x [Hx Hb]]. exists x. split; [eapply denotes_ext; eauto | assumption]. Qed.

(* ------------------------------------------------------------------------------------------------------------------ *)
(** * Capacity: all tables and counters at most 2^26 *)

Definition cap26 : N := 67108864.

Definition c2_sizes {V} (c : cache2 V) : list N := [lenN (vt_vec (c_small c)); lenN (vt_vec (c_large c))].
Definition sizes (s : factory) : list N :=
  let t := f_tabs s in
  [lenN (vt_vec (t_vars t)); lenN (vt_vec (t_ccs t)); lenN (vt_vec (t_pbcs t)); f_cnf_ctr s; f_cc_ctr s; f_pb_ctr s]
  ++ c2_sizes (t_ands t) ++ c2_sizes (t_ors t) ++ c2_sizes (t_nots t) ++ c2_sizes (t_impls t) ++ c2_sizes (t_equivs t).

(** No table holds more than 2^26 entries, so that every handle fits 32 bits. *)
Definition cap (s : factory) : Prop := Forall (fun n => n <= cap26) (sizes s).
Definition size_le (s s' : factory) : Prop := Forall2 N.le (sizes s) (sizes s').

Lemma Forall2_le_refl : forall l, Forall2 N.le l l.
Proof. induction l; constructor; auto. lia. Qed.
Lemma size_le_refl : forall s, size_le s s.
Proof. intros. apply Forall2_le_refl. Qed.
Lemma Forall2_le_trans : forall a b, Forall2 N.le a b -> forall c, Forall2 N.le b c -> Forall2 N.le a c.
Proof. induction 1; intros c Hc; inversion Hc; subst; constructor; auto. lia. Qed.
Lemma size_le_trans : forall a b c, size_le a b -> size_le b c -> size_le a c.
Proof. intros a b c H K. eapply Forall2_le_trans; eauto. Qed.
Lemma cap_le : forall s s', size_le s s' -> cap s' -> cap s.
Proof.
  intros s s'. unfold size_le, cap. generalize (sizes s), (sizes s'). induction 1; intros Hc; constructor; inversion Hc; subst; auto.
  lia.
Qed.
Lemma ext_size_le : forall s s', ext s s' -> size_le s s'.
Proof.
  intros s s' [[] [_ [? [? ?]]]]. unfold size_le, sizes, c2_sizes. cbn [app].
  repeat match goal with H : c2_ext _ _ |- _ => destruct H end.
  repeat constructor; try assumption; apply prefix_len; assumption.
Qed.

(* ------------------------------------------------------------------------------------------------------------------ *)
(** * Valid handles *)

(** Length of the table a type lives in; the cache flag used for the type. *)
Definition tlen (s : factory) (ty : formula_type) : N :=
  match ty with
  | TNot => lenN (vt_vec (c_small (t_nots (f_tabs s))))
  | TAnd => lenN (vt_vec (c_small (t_ands (f_tabs s))))
  | TOr => lenN (vt_vec (c_small (t_ors (f_tabs s))))
  | TImpl => lenN (vt_vec (c_small (t_impls (f_tabs s))))
  | TEquiv => lenN (vt_vec (c_small (t_equivs (f_tabs s))))
  | TCc => lenN (vt_vec (t_ccs (f_tabs s)))
  | TPbc => lenN (vt_vec (t_pbcs (f_tabs s)))
  | TTrue | TFalse | TLit _ => 0
  end.
Definition tflag (ty : formula_type) : bool := match ty with TCc | TPbc => true | _ => false end.

Definition var_ok (s : factory) (v : var) : Prop :=
  match v with VFF i => i < lenN (vt_vec (t_vars (f_tabs s))) | VAux _ i => i < cap26 end.
Definition lit_ok (s : factory) (l : lit) : Prop := var_ok s (lit_var l).

(** A handle that belongs to the factory: a constant, a literal over a registered (or auxiliary) variable, or the handle of
    a stored formula. *)
Inductive vh (s : factory) : N -> Prop :=
| vh_true : vh s verum
| vh_false : vh s falsum
| vh_lit : forall l, lit_ok s l -> vh s (encode_lit l)
| vh_tab : forall ty i, i < tlen s ty -> vh s (encode i ty (tflag ty)).

Lemma tlen_ext : forall s s' ty, ext s s' -> tlen s ty <= tlen s' ty.
Proof.
  intros s s' ty [[] _]. repeat match goal with H : c2_ext _ _ |- _ => destruct H end.
  destruct ty; cbn [tlen]; try lia; apply prefix_len; assumption.
Qed.

Lemma var_ok_ext : forall s s' v, ext s s' -> var_ok s v -> var_ok s' v.
Proof.
  intros s s' [i | a i] He H; cbn [var_ok] in *; [| assumption].
  destruct He as [[] _]. pose proof (prefix_len _ _ _ te_vars0). lia.
Qed.
Lemma lit_ok_ext : forall s s' l, ext s s' -> lit_ok s l -> lit_ok s' l.
Proof. intros. eapply var_ok_ext; eauto. Qed.

Lemma vh_ext : forall s s' h, ext s s' -> vh s h -> vh s' h.
Proof.
  intros s s' h He H. destruct H.
  - constructor.
  - constructor.
  - constructor. eapply lit_ok_ext; eauto.
  - constructor. pose proof (tlen_ext s s' ty He). lia.
Qed.

(** Complementary handles: one is the stored negation of the other, or they are opposite literals. *)
Definition compl (s : factory) (x y : N) : Prop :=
  unpack s x = Ok (NNot y) \/ unpack s y = Ok (NNot x)
  \/ exists l, unpack s x = Ok (NLit l) /\ unpack s y = Ok (NLit (lit_negate l)).

Definition good (s : factory) (h : N) : Prop := vh s h /\ exists x, denotes s h x.

Definition nonconst (h : N) : Prop := is_verum h = false /\ is_falsum h = false.

(** What holds for a list of operands stored under a conjunction ([conj = true]) or disjunction. *)
Record ops_ok (s : factory) (conj : bool) (l : list N) : Prop := mkOpsOk
  { oo_good : Forall (good s) l;
    oo_nodup : NoDup l;
    oo_nonconst : Forall nonconst l;
    oo_flat : Forall (fun h => forall ty, formula_type_of h = Some ty -> is_nary_type conj ty = false) l;
    oo_compl : forall x y, In x l -> In y l -> ~ compl s x y }.

Definition negatable (h : N) : Prop :=
  match formula_type_of h with
  | Some (TAnd | TOr | TImpl | TEquiv | TCc | TPbc) => True
  | _ => False
  end.

(* ------------------------------------------------------------------------------------------------------------------ *)
(** * Well-formed tables *)

Record vtab_ok {V} (keq : V -> V -> bool) (canon : V -> V) (ty : formula_type) (large : bool) (t : vtab V) : Prop := mkVtabOk
  { vo_rev : forall k e, In (k, e) (vt_rev t) ->
      exists i v, nthN (vt_vec t) i = Some v /\ keq k (canon v) = true /\ e = encode i ty large;
    vo_vec : forall i v, nthN (vt_vec t) i = Some v ->
      exists k, In (k, encode i ty large) (vt_rev t) /\ keq k (canon v) = true;
    vo_uniq : forall i j v w, nthN (vt_vec t) i = Some v -> nthN (vt_vec t) j = Some w ->
      keq (canon v) (canon w) = true -> i = j }.

Definition c2_ok {V} (keq : V -> V -> bool) (canon : V -> V) (ty : formula_type) (c : cache2 V) : Prop :=
  vtab_ok keq canon ty false (c_small c) /\ vt_vec (c_large c) = [] /\ vt_rev (c_large c) = [].

(** Shape of a formula in conjunctive normal form, on trees. *)
Definition is_flit (x : fml) : bool := match x with FLit _ => true | _ => false end.
Definition is_fclause (x : fml) : bool := match x with FLit _ => true | FOr l => forallb is_flit l | _ => false end.
Definition cnf_shape (x : fml) : bool :=
  match x with
  | FTrue | FFalse => true
  | FAnd l => forallb is_fclause l
  | _ => is_fclause x
  end.

Record wf (s : factory) : Prop := mkWf
  { wf_cap : cap s;
    wf_vars : vtab_ok String.eqb id (TLit (LTPos VTFF)) true (t_vars (f_tabs s));
    wf_ands : c2_ok set_eqb id TAnd (t_ands (f_tabs s));
    wf_ors : c2_ok set_eqb id TOr (t_ors (f_tabs s));
    wf_nots : c2_ok N.eqb id TNot (t_nots (f_tabs s));
    wf_impls : c2_ok pair_eqb id TImpl (t_impls (f_tabs s));
    wf_equivs : c2_ok pair_eqb sort_pair TEquiv (t_equivs (f_tabs s));
    wf_ccs : vtab_ok cc_eqb id TCc true (t_ccs (f_tabs s));
    wf_pbcs : vtab_ok pbc_eqb id TPbc true (t_pbcs (f_tabs s));
    wf_and_ops : forall i l, nthN (vt_vec (c_small (t_ands (f_tabs s)))) i = Some l -> ops_ok s true l /\ (2 <= length l)%nat;
    wf_or_ops : forall i l, nthN (vt_vec (c_small (t_ors (f_tabs s)))) i = Some l -> ops_ok s false l /\ (2 <= length l)%nat;
    wf_not_ops : forall i a, nthN (vt_vec (c_small (t_nots (f_tabs s)))) i = Some a -> good s a /\ negatable a;
    wf_impl_ops : forall i p, nthN (vt_vec (c_small (t_impls (f_tabs s)))) i = Some p ->
      good s (fst p) /\ good s (snd p) /\ nonconst (fst p) /\ nonconst (snd p) /\ fst p <> snd p;
    wf_equiv_ops : forall i p, nthN (vt_vec (c_small (t_equivs (f_tabs s)))) i = Some p ->
      good s (fst p) /\ good s (snd p) /\ nonconst (fst p) /\ nonconst (snd p) /\ fst p <> snd p;
    wf_cc_ops : forall i c, nthN (vt_vec (t_ccs (f_tabs s))) i = Some c ->
      cc_vars c <> [] /\ Forall (var_ok s) (cc_vars c) /\ cc_rhs c < 4294967296 /\ (cc_cmp c = LT -> cc_rhs c <> 0);
    wf_pbc_ops : forall i p, nthN (vt_vec (t_pbcs (f_tabs s))) i = Some p ->
      pb_lits p <> [] /\ length (pb_lits p) = length (pb_coeffs p) /\ Forall (lit_ok s) (pb_lits p)
      /\ is_lit_cc (pb_cmp p) (pb_rhs p) (pb_lits p) (pb_coeffs p) = false;
    wf_cnf_keys : forall h, oc_get h (oc_is_cnf (f_caches s)) <> None -> vh s h /\ is_nary_operator h = true;
    wf_cnf_exact : forall h x, vh s h -> denotes s h x -> is_cnf s h = Ok (cnf_shape x) }.

(* ------------------------------------------------------------------------------------------------------------------ *)
(** * A program logic for factory operations *)

Definition mono {A} (m : M A) : Prop := forall s, size_le s (snd (m s)).

(** [m] run in [s]: unless the factory outgrows its capacity, it succeeds, establishes [I], and [R], [Q] hold. *)
Definition spec {A} (I : factory -> Prop) (R : factory -> factory -> Prop) (s : factory) (m : M A)
    (Q : A -> factory -> Prop) : Prop :=
  size_le s (snd (m s))
  /\ (cap (snd (m s)) -> exists a, fst (m s) = Ok a /\ I (snd (m s)) /\ R s (snd (m s)) /\ Q a (snd (m s))).

Lemma mono_ret : forall A (a : A), mono (ret a).
Proof. intros A a s. apply size_le_refl. Qed.
Lemma mono_fail : forall A, mono (@fail A).
Proof. intros A s. apply size_le_refl. Qed.
Lemma mono_nofuel : forall A, mono (@nofuel A).
Proof. intros A s. apply size_le_refl. Qed.
Lemma mono_lift : forall A (r : factory -> res A), mono (lift r).
Proof. intros A r s. apply size_le_refl. Qed.
Lemma mono_bind : forall A B (m : M A) (k : A -> M B), mono m -> (forall a, mono (k a)) -> mono (bind m k).
Proof.
  intros A B m k Hm Hk s. unfold bind. specialize (Hm s). destruct (m s) as [[a | | ] s1]; cbn [snd] in *; try assumption.
  eapply size_le_trans; [exact Hm | apply Hk].
Qed.

Lemma spec_ret : forall A (I : factory -> Prop) (R : factory -> factory -> Prop) s (a : A) (Q : A -> factory -> Prop), I s -> R s s -> Q a s -> spec I R s (ret a) Q.
Proof. intros. split; [apply size_le_refl |]. intros _. exists a. auto. Qed.

Lemma spec_bind : forall A B (I : factory -> Prop) (R : factory -> factory -> Prop) s (m : M A) (k : A -> M B) Q1 Q,
  (forall x y z, R x y -> R y z -> R x z) ->
  spec I R s m Q1 -> (forall a, mono (k a)) ->
  (forall a s', I s' -> R s s' -> Q1 a s' -> spec I R s' (k a) Q) -> spec I R s (bind m k) Q.
Proof.
  intros A B I R s m k Q1 Q Ht [Hm1 Hm2] Hmono Hk. unfold spec, bind.
  destruct (m s) as [o s1] eqn:E; cbn [fst snd] in *.
  destruct o as [a | | ]; cbn [fst snd].
  - split.
    + eapply size_le_trans; [exact Hm1 | apply Hmono].
    + intros Hc. assert (Hc1 : cap s1) by (eapply cap_le; [apply (Hmono a) | exact Hc]).
      destruct (Hm2 Hc1) as [a' [Ha [HI [HR HQ]]]]. injection Ha as <-.
      destruct (Hk a s1 HI HR HQ) as [_ Hk2]. destruct (Hk2 Hc) as [b [Hb [HIb [HRb HQb]]]].
      exists b. repeat split; auto. eapply Ht; eauto.
  - split; [exact Hm1 |]. intros Hc. destruct (Hm2 Hc) as [a' [Ha _]]. discriminate.
  - split; [exact Hm1 |]. intros Hc. destruct (Hm2 Hc) as [a' [Ha _]]. discriminate.
Qed.

Lemma spec_conseq : forall A (I : factory -> Prop) (R : factory -> factory -> Prop) s (m : M A) (Q Q' : A -> factory -> Prop),
  spec I R s m Q -> (forall a s', I s' -> R s s' -> Q a s' -> Q' a s') -> spec I R s m Q'.
Proof.
  intros A I R s m Q Q' [H1 H2] H. split; [assumption |]. intros Hc. destruct (H2 Hc) as [a [? [? [? ?]]]]. exists a. auto.
Qed.

Lemma spec_lift : forall A (I : factory -> Prop) (R : factory -> factory -> Prop) s (r : factory -> res A) a (Q : A -> factory -> Prop),
  r s = Ok a -> I s -> R s s -> Q a s -> spec I R s (lift r) Q.
Proof.
  intros A I R s r a Q Hr HI HR HQ. split; [apply size_le_refl |]. intros _. exists a. cbn. auto.
Qed.

(** What a successful run says. *)
Lemma spec_run : forall A (I : factory -> Prop) (R : factory -> factory -> Prop) s (m : M A) Q r s', spec I R s m Q -> m s = (r, s') -> cap s' ->
  exists a, r = Ok a /\ I s' /\ R s s' /\ Q a s'.
Proof. intros A I R s m Q r s' [_ H] Hm Hc. rewrite Hm in H. cbn in H. auto. Qed.

(** Steps of the constructors: tables grow, everything else (except the is-CNF cache) stays. *)
Definition core (s s' : factory) : Prop :=
  tabs_ext (f_tabs s) (f_tabs s') /\ f_config s' = f_config s /\ f_cnf_ctr s' = f_cnf_ctr s /\ f_cc_ctr s' = f_cc_ctr s
  /\ f_pb_ctr s' = f_pb_ctr s /\ set_is_cnf (f_caches s') [] = set_is_cnf (f_caches s) [].

Lemma core_refl : forall s, core s s.
Proof. intros. repeat split; try apply prefix_refl. Qed.
Lemma core_trans : forall a b c, core a b -> core b c -> core a c.
Proof.
  intros a b c [H1 [H2 [H3 [H4 [H5 H6]]]]] [K1 [K2 [K3 [K4 [K5 K6]]]]].
  split; [eapply tabs_ext_trans; eauto |]. repeat split; congruence.
Qed.
Lemma core_ext : forall s s', core s s' -> ext s s'.
Proof. intros s s' [H1 [H2 [H3 [H4 [H5 H6]]]]]. repeat split; try assumption; try apply H1; try lia. Qed.
