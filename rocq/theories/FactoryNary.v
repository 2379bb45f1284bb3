(** Specifications of the n-ary constructors [and] and [or]. *)
From Coq Require Import NArith ZArith List Bool Lia.
From Verif Require Import Base EncodingModel EncodingProofs Syntax FactoryModel FactoryInv FactoryBasics FactoryProofs FactorySpecs.
Import ListNotations.
Local Open Scope N_scope.

(** The CNF flag of one operand. *)
Definition flag_of (s : factory) (conj : bool) (h : N) : bool :=
  if conj then match is_cnf s h with Ok b => b | _ => false end else is_literal h || is_constant h.

Lemma vh_type : forall s h, cap s -> vh s h -> exists ty, formula_type_of h = Some ty.
Proof.
  intros s h Hc Hv.
  destruct (vh_case s h Hc Hv) as [? Ht H | ? Ht H | ? ? ? Ht H | ? ? ? ? Ht H | ? ? ? ? Ht H
        | ? ? ? ? Ht H | ? ? ? ? ? Ht H | ? ? ? ? ? Ht H | ? ? ? ? Ht H | ? ? ? ? Ht H]; eauto.
Qed.

Lemma cnf_flag_spec : forall s conj h flag, cap s -> vh s h -> cnf_flag s conj h flag = Ok (flag && flag_of s conj h).
Proof.
  intros s conj h flag Hc Hv. unfold cnf_flag, flag_of. destruct flag; [| reflexivity]. destruct conj; [| reflexivity].
  destruct (vh_type s h Hc Hv) as [ty Ht]. unfold is_cnf, ftype. rewrite Ht. reflexivity.
Qed.

(** Same-type operands are stored n-ary formulas. *)
Lemma vh_nary : forall s conj h ty, wf s -> vh s h -> formula_type_of h = Some ty -> is_nary_type conj ty = true ->
  exists l, unpack s h = Ok (nnode conj l) /\ ops_ok s conj l /\ (2 <= length l)%nat.
Proof.
  intros s conj h ty Hw Hv Hty Hn.
  destruct (vh_case s h (wf_cap s Hw) Hv) as [? Ht H | ? Ht H | ? ? ? Ht H | ? ? ? ? Ht H | i l ? Hi Ht H
        | i l ? Hi Ht H | ? ? ? ? ? Ht H | ? ? ? ? ? Ht H | ? ? ? ? Ht H | ? ? ? ? Ht H];
    rewrite Ht in Hty; injection Hty as <-; cbn in Hn; try discriminate; destruct conj; try discriminate.
  - exists l. split; [exact H |]. apply (wf_and_ops s Hw _ _ Hi).
  - exists l. split; [exact H |]. apply (wf_or_ops s Hw _ _ Hi).
Qed.

Record fr_ok (s : factory) (conj : bool) (r : filter_result) : Prop := mkFrOk
  { fo_64 : fr64 r = []; fo_s64 : frs64 r = []; fo_set : frs32 r = fr32 r;
    fo_ops : ops_ok s conj (fr32 r); fo_cnf : fr_cnf r = forallb (flag_of s conj) (fr32 r) }.

(** The operands after flattening same-type operands once. *)
Definition flat_in (s : factory) (conj : bool) (ops : list N) (h : N) : Prop :=
  (In h ops /\ forall l, unpack s h <> Ok (nnode conj l))
  \/ exists o l, In o ops /\ unpack s o = Ok (nnode conj l) /\ In h l.

Definition filter_post (s : factory) (conj : bool) (ops : list N) (r : filter_result) (b : bool) (r' : filter_result) : Prop :=
  if b then
    fr_ok s conj r'
    /\ (forall v, allv s v conj (fr32 r') <-> allv s v conj (fr32 r) /\ allv s v conj ops)
    /\ (forall h, In h (fr32 r') -> In h (fr32 r) \/ flat_in s conj ops h)
  else forall v, ~ (allv s v conj (fr32 r) /\ allv s v conj ops).

Lemma ops_ok_snoc : forall s conj L h, wf s -> ops_ok s conj L -> vh s h -> nonconst h ->
  (forall ty, formula_type_of h = Some ty -> is_nary_type conj ty = false) -> ~ In h L ->
  (forall y, In y L -> ~ compl s h y) -> ops_ok s conj (L ++ [h]).
Proof.
  intros s conj L h Hw [Hg Hn Hc Hf Hk] Hv Hnc Hty Hni Hcomp. constructor.
  - apply Forall_app. split; auto. constructor; [apply vh_good; assumption | constructor].
  - apply NoDup_rev in Hn. rewrite <- (rev_involutive (L ++ [h])). apply NoDup_rev. rewrite rev_app_distr. cbn.
    constructor; [| assumption]. rewrite <- in_rev. assumption.
  - apply Forall_app. split; auto.
  - apply Forall_app. split; auto.
  - assert (Hself : ~ compl s h h).
    { intros Hcc. destruct (hs_total s (fun _ => true) h Hw Hv) as [b Hb].
      pose proof (compl_sem _ _ _ _ _ _ Hcc Hb Hb). destruct b; discriminate. }
    intros x y Hx Hy. apply in_app_or in Hx. apply in_app_or in Hy.
    destruct Hx as [Hx | [<- | []]], Hy as [Hy | [<- | []]]; auto.
    intros Hcc. apply (Hcomp x Hx). apply compl_sym. assumption.
Qed.

Lemma not_nnode : forall s conj h, wf s -> vh s h -> (forall ty, formula_type_of h = Some ty -> is_nary_type conj ty = false) ->
  forall l, unpack s h <> Ok (nnode conj l).
Proof.
  intros s conj h Hw Hv Hty l Hu.
  destruct (vh_case s h (wf_cap s Hw) Hv) as [? Ht H | ? Ht H | ? ? ? Ht H | ? ? ? ? Ht H | i k ? Hi Ht H
        | i k ? Hi Ht H | ? ? ? ? ? Ht H | ? ? ? ? ? Ht H | ? ? ? ? Ht H | ? ? ? ? Ht H]; specialize (Hty _ Ht);
    destruct conj; cbn in *; congruence.
Qed.

Lemma allv_app : forall s v b l m, allv s v b (l ++ m) <-> allv s v b l /\ allv s v b m.
Proof. intros. apply Forall_app. Qed.
Lemma allv_cons : forall s v b h l, allv s v b (h :: l) <-> hs s v h b /\ allv s v b l.
Proof. intros. split; intros H; [inversion H; auto | constructor; tauto]. Qed.

Lemma filter_loop_spec : forall s conj sub, wf s ->
  forall ops r, Forall (vh s) ops -> fr_ok s conj r ->
  (forall o l r0, In o ops -> unpack s o = Ok (nnode conj l) -> fr_ok s conj r0 ->
     exists b r', sub l r0 = Ok (b, r') /\ filter_post s conj l r0 b r') ->
  exists b r', filter_loop sub s conj ops false r = Ok (b, r') /\ filter_post s conj ops r b r'.
Proof.
  intros s conj sub Hw. pose proof (wf_cap s Hw) as Hc.
  induction ops as [| h ops IH]; intros r Hvs Hr Hsub.
  - exists true, r. split; [reflexivity |]. cbn. split; [assumption |]. split; [| tauto].
    intros v. unfold allv at 3. split; [intros; split; [assumption | constructor] | tauto].
  - inversion Hvs as [| ? ? Hv Hvs']; subst. cbn [filter_loop].
    destruct (vh_type s h Hc Hv) as [ty Hty]. unfold ftype. rewrite Hty. cbn [of_opt rbind].
    assert (Hsub' : forall o l r0, In o ops -> unpack s o = Ok (nnode conj l) -> fr_ok s conj r0 ->
       exists b r', sub l r0 = Ok (b, r') /\ filter_post s conj l r0 b r') by (intros; eapply Hsub; eauto; right; assumption).
    destruct (is_nary_type conj ty) eqn:Hnary.
    + destruct (vh_nary s conj h ty Hw Hv Hty Hnary) as [l [Hu [Hops Hlen]]].
      unfold operands. rewrite Hu. cbn [rbind].
      replace (node_operands (nnode conj l)) with l by (destruct conj; reflexivity).
      destruct (Hsub h l r (or_introl eq_refl) Hu Hr) as [b [r1 [-> Hpost]]]. cbn [rbind fst snd].
      pose proof (hs_nnode s) as Hnn.
      destruct b; cbn in Hpost.
      * destruct Hpost as [Hr1 [Hsem1 Hin1]].
        destruct (IH r1 Hvs' Hr1 Hsub') as [b2 [r2 [-> Hpost2]]]. exists b2, r2. split; [reflexivity |].
        destruct b2; cbn in *.
        -- destruct Hpost2 as [Hr2 [Hsem2 Hin2]]. split; [assumption |]. split.
           ++ intros v. rewrite Hsem2, Hsem1, allv_cons, (Hnn v h conj l Hu (oo_good _ _ _ Hops)). tauto.
           ++ intros x Hx. apply Hin2 in Hx. destruct Hx as [Hx | Hx].
              ** apply Hin1 in Hx. destruct Hx as [Hx | Hx]; [left; assumption |]. right.
                 destruct Hx as [[Hx _] | [o [l' [Ho [Hu' Hx]]]]].
                 --- right. exists h, l. repeat split; auto. left. reflexivity.
                 --- exfalso. pose proof (oo_flat _ _ _ Hops) as Hfl. rewrite Forall_forall in Hfl.
                     pose proof (oo_good _ _ _ Hops) as Hgl. rewrite Forall_forall in Hgl.
                     eapply not_nnode; [exact Hw | apply (Hgl o Ho) | apply (Hfl o Ho) | exact Hu'].
              ** right. destruct Hx as [[Hx Hn] | [o [l' [Ho [Hu' Hx]]]]].
                 --- left. split; [right; assumption | assumption].
                 --- right. exists o, l'. repeat split; auto. right. assumption.
        -- intros v [H1 H2]. rewrite allv_cons, (Hnn v h conj l Hu (oo_good _ _ _ Hops)) in H2.
           apply (Hpost2 v). split; [| tauto]. apply Hsem1. tauto.
      * exists false, r1. split; [reflexivity |]. cbn. intros v [H1 H2].
        rewrite allv_cons, (Hnn v h conj l Hu (oo_good _ _ _ Hops)) in H2. apply (Hpost v). tauto.
    + assert (Hty' : forall ty0, formula_type_of h = Some ty0 -> is_nary_type conj ty0 = false) by (intros ty0 Q; congruence).
      pose proof (not_nnode s conj h Hw Hv Hty') as Hnn.
      rewrite cnf_flag_spec by assumption. cbn [rbind].
      destruct (is_verum h) eqn:Hver; [| destruct (is_falsum h) eqn:Hfal].
      * assert (h = verum) as ->.
        { destruct (vh_case s h Hc Hv) as [? Ht H | ? Ht H | ? ? ? Ht H | ? ? ? ? Ht H | ? ? ? ? Ht H
            | ? ? ? ? Ht H | ? ? ? ? ? Ht H | ? ? ? ? ? Ht H | ? ? ? ? Ht H | ? ? ? ? Ht H]; auto;
            unfold is_verum in Hver; rewrite Ht in Hver; discriminate. }
        destruct conj.
        -- assert (Hfl : fr_cnf r && flag_of s true verum = fr_cnf r) by (cbn; apply andb_true_r). rewrite Hfl.
           destruct (IH (mkFR (fr32 r) (frs32 r) (fr64 r) (frs64 r) (fr_cnf r)) Hvs') as [b [r1 [-> Hpost]]]; auto.
           { destruct Hr. constructor; assumption. }
           exists b, r1. split; [reflexivity |]. destruct b; cbn in *.
           ++ destruct Hpost as [? [Hs Hi]]. split; [assumption |]. split.
              ** intros v. rewrite Hs, allv_cons. pose proof (hs_verum s v). tauto.
              ** intros x Hx. apply Hi in Hx. destruct Hx as [Hx | Hx]; [tauto |]. right.
                 destruct Hx as [[Hx Hn] | [o [l' [Ho [Hu' Hx]]]]]; [left; split; [right|]; assumption | right; exists o, l'; repeat split; auto; right; assumption].
           ++ intros v. rewrite allv_cons. specialize (Hpost v). tauto.
        -- eexists; eexists; split; [reflexivity |]. cbn. intros v [_ H]. rewrite allv_cons in H. destruct H as [H _].
           pose proof (hs_fun _ _ _ _ _ H (hs_verum s v)). discriminate.
      * assert (h = falsum) as ->.
        { destruct (vh_case s h Hc Hv) as [? Ht H | ? Ht H | ? ? ? Ht H | ? ? ? ? Ht H | ? ? ? ? Ht H
            | ? ? ? ? Ht H | ? ? ? ? ? Ht H | ? ? ? ? ? Ht H | ? ? ? ? Ht H | ? ? ? ? Ht H]; auto;
            unfold is_falsum in Hfal; rewrite Ht in Hfal; discriminate. }
        destruct conj.
        -- eexists; eexists; split; [reflexivity |]. cbn. intros v [_ H]. rewrite allv_cons in H. destruct H as [H _].
           pose proof (hs_fun _ _ _ _ _ H (hs_falsum s v)). discriminate.
        -- assert (Hfl : fr_cnf r && flag_of s false falsum = fr_cnf r) by (cbn; apply andb_true_r). rewrite Hfl.
           destruct (IH (mkFR (fr32 r) (frs32 r) (fr64 r) (frs64 r) (fr_cnf r)) Hvs') as [b [r1 [-> Hpost]]]; auto.
           { destruct Hr. constructor; assumption. }
           exists b, r1. split; [reflexivity |]. destruct b; cbn in *.
           ++ destruct Hpost as [? [Hs Hi]]. split; [assumption |]. split.
              ** intros v. rewrite Hs, allv_cons. pose proof (hs_falsum s v). tauto.
              ** intros x Hx. apply Hi in Hx. destruct Hx as [Hx | Hx]; [tauto |]. right.
                 destruct Hx as [[Hx Hn] | [o [l' [Ho [Hu' Hx]]]]]; [left; split; [right|]; assumption | right; exists o, l'; repeat split; auto; right; assumption].
           ++ intros v. rewrite allv_cons. specialize (Hpost v). tauto.
      * assert (Hnc : nonconst h) by (split; assumption).
        destruct Hr as [F64 Fs64 Fset Fops Fcnf].
        rewrite Fs64, Fset.
        pose proof (Forall_good_vh _ _ (oo_good _ _ _ Fops)) as Hvl.
        destruct (contains_complement_spec s (fr32 r) h Hw Hvl Hv Hnc) as [b [-> Hb]]. cbn [rbind].
        destruct b.
        -- eexists; eexists; split; [reflexivity |]. cbn. intros v [H1 H2]. rewrite allv_cons in H2. destruct H2 as [H2 _].
           destruct (proj1 Hb eq_refl) as [y [Hy Hcy]]. unfold allv in H1. rewrite Forall_forall in H1. specialize (H1 y Hy).
           pose proof (compl_sem _ _ _ _ _ _ Hcy H2 H1). destruct conj; discriminate.
        -- cbn [orb]. rewrite (vh_not_large s h Hc Hv).
           unfold filter_insert. rewrite (vh_as_32 s h Hc Hv). unfold set_insert. rewrite Fset.
           destruct (memN h (fr32 r)) eqn:Hmem.
           ++ apply memN_In in Hmem.
              assert (Hfl : fr_cnf r && flag_of s conj h = fr_cnf r).
              { rewrite Fcnf. destruct (forallb (flag_of s conj) (fr32 r)) eqn:Q; [| reflexivity].
                rewrite forallb_forall in Q. rewrite Q by assumption. reflexivity. }
              rewrite Hfl.
              destruct (IH (mkFR (fr32 r) (fr32 r) (fr64 r) (frs64 r) (fr_cnf r)) Hvs') as [b [r1 [Hrun Hpost]]]; auto.
              { constructor; cbn; auto. }
              exists b, r1. split; [exact Hrun |]. destruct b; cbn in *.
              ** destruct Hpost as [? [Hs Hi]]. split; [assumption |]. split.
                 --- intros v. rewrite Hs, allv_cons. split; [intros [A B]; repeat split; auto | tauto].
                     unfold allv in A. rewrite Forall_forall in A. apply A. assumption.
                 --- intros x Hx. apply Hi in Hx. destruct Hx as [Hx | Hx]; [tauto |]. right.
                     destruct Hx as [[Hx Hn] | [o [l' [Ho [Hu' Hx]]]]]; [left; split; [right|]; assumption | right; exists o, l'; repeat split; auto; right; assumption].
              ** intros v. rewrite allv_cons. specialize (Hpost v). tauto.
           ++ apply memN_false in Hmem.
              destruct (IH (mkFR (fr32 r ++ [h]) (fr32 r ++ [h]) (fr64 r) (frs64 r) (fr_cnf r && flag_of s conj h)) Hvs')
                as [b [r1 [Hrun Hpost]]]; auto.
              { constructor; cbn; auto.
                - apply ops_ok_snoc; auto. intros y Hy Hcy. assert (false = true) by (apply Hb; eauto). discriminate.
                - rewrite Fcnf, forallb_app. cbn. rewrite andb_true_r. reflexivity. }
              exists b, r1. split; [exact Hrun |]. destruct b; cbn in *.
              ** destruct Hpost as [? [Hs Hi]]. split; [assumption |]. split.
                 --- intros v. rewrite Hs, allv_app, !allv_cons. assert (allv s v conj []) by constructor. tauto.
                 --- intros x Hx. apply Hi in Hx. destruct Hx as [Hx | Hx].
                     +++ apply in_app_or in Hx. destruct Hx as [Hx | [<- | []]]; [tauto |]. right. left. split; [left; reflexivity | assumption].
                     +++ right.
                         destruct Hx as [[Hx Hn] | [o [l' [Ho [Hu' Hx]]]]]; [left; split; [right|]; assumption | right; exists o, l'; repeat split; auto; right; assumption].
              ** intros v. rewrite allv_cons. specialize (Hpost v). rewrite allv_app, allv_cons in Hpost.
                 assert (allv s v conj []) by constructor. tauto.
Qed.

Lemma fr_ok_init : forall s conj, fr_ok s conj (mkFR [] [] [] [] true).
Proof.
  intros. constructor; try reflexivity. constructor; cbn; try constructor. tauto.
Qed.

Lemma filter_flatten_spec : forall s conj ops n, wf s -> Forall (vh s) ops ->
  exists b r', filter_flatten (S (S n)) s conj ops (mkFR [] [] [] [] true) = Ok (b, r')
    /\ filter_post s conj ops (mkFR [] [] [] [] true) b r'.
Proof.
  intros s conj ops n Hw Hvs. cbn [filter_flatten]. apply filter_loop_spec; auto; [apply fr_ok_init |].
  intros o l r0 Ho Hu Hr0.
  rewrite Forall_forall in Hvs. specialize (Hvs o Ho).
  assert (Hok : ops_ok s conj l).
  { destruct (vh_type s o (wf_cap s Hw) Hvs) as [ty Hty].
    destruct (is_nary_type conj ty) eqn:E.
    - destruct (vh_nary s conj o ty Hw Hvs Hty E) as [l' [Hu' [Hl' _]]].
      assert (l = l') as -> by (destruct conj; cbn in *; congruence). assumption.
    - exfalso. eapply not_nnode; eauto. intros ty0 Q. congruence. }
  change ((exists b r',
    filter_loop (fun inner r' => filter_flatten n s conj inner r') s conj l false r0 = Ok (b, r')
    /\ filter_post s conj l r0 b r')).
  apply filter_loop_spec; auto.
  - apply Forall_good_vh. apply (oo_good _ _ _ Hok).
  - intros o' l' r1 Ho' Hu' _. exfalso.
    pose proof (oo_flat _ _ _ Hok) as Hfl. rewrite Forall_forall in Hfl.
    pose proof (oo_good _ _ _ Hok) as Hgl. rewrite Forall_forall in Hgl.
    eapply not_nnode; [exact Hw | apply (Hgl o' Ho') | apply (Hfl o' Ho') | exact Hu'].
Qed.

Lemma prepare_nary_spec : forall s conj ops, wf s -> Forall (vh s) ops ->
  match prepare_nary s conj ops with
  | Ok None => forall v, ~ allv s v conj ops
  | Ok (Some r) => fr_ok s conj r /\ (forall v, allv s v conj (fr32 r) <-> allv s v conj ops)
                   /\ (forall h, In h (fr32 r) -> flat_in s conj ops h)
  | _ => False
  end.
Proof.
  intros s conj ops Hw Hvs. unfold prepare_nary, flatten_fuel.
  destruct (filter_flatten_spec s conj ops
    (length (vt_vec (c_small (nary_cache_of conj (f_tabs s)))) + length (vt_vec (c_large (nary_cache_of conj (f_tabs s))))) Hw Hvs)
    as [b [r' [-> Hpost]]].
  cbn [rbind fst snd]. destruct b; cbn in Hpost.
  - destruct Hpost as [H1 [H2 H3]]. split; [assumption |]. split.
    + intros v. rewrite H2. assert (allv s v conj []) by constructor. tauto.
    + intros h Hh. destruct (H3 h Hh) as [[] |]. assumption.
  - intros v Hall. apply (Hpost v). split; [constructor | assumption].
Qed.

(* ------------------------------------------------------------------------------------------------------------------ *)
(** * Shape of operands and the is-CNF cache *)

Lemma type_node : forall s h n, cap s -> vh s h -> unpack s h = Ok n ->
  formula_type_of h = Some match n with
    | NTrue => TTrue | NFalse => TFalse | NLit l => TLit (lit_type_of l) | NNot _ => TNot | NAnd _ => TAnd | NOr _ => TOr
    | NImpl _ _ => TImpl | NEquiv _ _ => TEquiv | NCc _ => TCc | NPbc _ => TPbc end.
Proof.
  intros s h n Hc Hv Hu.
  destruct (vh_case s h Hc Hv) as [? Ht H | ? Ht H | ? ? ? Ht H | ? ? ? ? Ht H | ? ? ? ? Ht H
        | ? ? ? ? Ht H | ? ? ? ? ? Ht H | ? ? ? ? ? Ht H | ? ? ? ? Ht H | ? ? ? ? Ht H];
    rewrite H in Hu; injection Hu as <-; assumption.
Qed.

Lemma type_denotes : forall s h x, cap s -> vh s h -> denotes s h x ->
  formula_type_of h = Some match x with
    | FTrue => TTrue | FFalse => TFalse | FLit l => TLit (lit_type_of l) | FNot _ => TNot | FAnd _ => TAnd | FOr _ => TOr
    | FImpl _ _ => TImpl | FEquiv _ _ => TEquiv | FCc _ => TCc | FPbc _ => TPbc end.
Proof.
  intros s h x Hc Hv Hd. destruct Hd; erewrite type_node; eauto; reflexivity.
Qed.

(** Flag of an operand in terms of its tree. *)
Lemma flag_of_shape : forall s conj h x, wf s -> vh s h -> denotes s h x -> nonconst h ->
  (forall ty, formula_type_of h = Some ty -> is_nary_type conj ty = false) ->
  flag_of s conj h = if conj then is_fclause x else is_flit x.
Proof.
  intros s conj h x Hw Hv Hd [Hn1 Hn2] Hty. pose proof (type_denotes s h x (wf_cap s Hw) Hv Hd) as Ht. specialize (Hty _ Ht).
  unfold flag_of. destruct conj.
  - rewrite (wf_cnf_exact s Hw h x Hv Hd). destruct x; cbn in *; try reflexivity; try discriminate;
      unfold is_verum, is_falsum in *; rewrite Ht in *; discriminate.
  - unfold is_literal, is_constant. rewrite Ht, Hn1, Hn2. destruct x; reflexivity.
Qed.

Lemma flags_shape : forall s conj L xs, wf s -> ops_ok s conj L -> Forall2 (denotes s) L xs ->
  forallb (flag_of s conj) L = cnf_shape (if conj then FAnd xs else FOr xs).
Proof.
  intros s conj L xs Hw [Hg Hn Hc Hf Hk] Hd.
  assert (forallb (flag_of s conj) L = forallb (fun x => if conj then is_fclause x else is_flit x) xs) as ->.
  { clear Hn Hk. induction Hd as [| h x L xs Hx Hd IH]; [reflexivity |]. cbn [forallb].
    inversion Hg as [| ? ? [Hv _] ?]; subst. inversion Hc; subst. inversion Hf; subst.
    rewrite (flag_of_shape s conj h x) by auto. rewrite IH by auto. reflexivity. }
  destruct conj; reflexivity.
Qed.

(** Recording a formula of CNF shape in the is-CNF cache keeps the state well-formed. *)
Lemma note_ext : forall s h, ext s (note_is_cnf h s) /\ ext (note_is_cnf h s) s.
Proof. intros s h. unfold ext, note_is_cnf. cbn. split; (split; [apply tabs_ext_refl |]); repeat split; lia. Qed.
Lemma note_core : forall s h, core s (note_is_cnf h s).
Proof. intros s h. unfold core, note_is_cnf. cbn. split; [apply tabs_ext_refl |]. repeat split. Qed.

Lemma oc_insert_get : forall V h (x : V) m k,
  oc_get k (oc_insert h x m) = match oc_get k m with Some y => Some y | None => if k =? h then Some x else None end.
Proof.
  intros V h x m k. unfold oc_get, oc_insert. destruct (assoc N.eqb h m) eqn:E.
  - destruct (assoc N.eqb k m) eqn:F; [reflexivity |]. destruct (N.eqb_spec k h); [subst; congruence | reflexivity].
  - cbn [assoc]. destruct (N.eqb_spec k h) as [-> | Hne]; [rewrite E; reflexivity |].
    destruct (assoc N.eqb k m); reflexivity.
Qed.

Lemma wf_eta_caches : forall s c, wf s ->
  (forall h, oc_get h (oc_is_cnf c) <> None -> vh (with_caches s c) h /\ is_nary_operator h = true) ->
  (forall h x, vh (with_caches s c) h -> denotes (with_caches s c) h x -> is_cnf (with_caches s c) h = Ok (cnf_shape x)) ->
  wf (with_caches s c).
Proof.
  intros s c Hw K1 K2.
  assert (He : ext s (with_caches s c)).
  { unfold ext. cbn. split; [apply tabs_ext_refl |]. repeat split; lia. }
  eapply (wf_extend s (with_caches s c)); eauto; try solve [cbn; wf_fields Hw].
  exact (wf_cap s Hw).
Qed.

(* ------------------------------------------------------------------------------------------------------------------ *)
(** * [and] and [or] *)

Definition nary_shape (s s' : factory) (conj : bool) (ops : list N) (r : N) : Prop :=
  r = constant true \/ r = constant false \/ flat_in s conj ops r
  \/ exists L, unpack s' r = Ok (nnode conj L) /\ (forall h, In h L -> flat_in s conj ops h).

Lemma f_nary_spec : forall s conj ops, wf s -> Forall (vh s) ops ->
  spec wf core s (f_nary conj ops)
    (fun r s' => vh s' r /\ (forall v, hs s' v r conj <-> allv s v conj ops) /\ nary_shape s s' conj ops r).
Proof.
  intros s conj ops Hw Hvs. split; [apply mono_f_nary |]. intros Hcap.
  pose proof (prepare_nary_spec s conj ops Hw Hvs) as Hp. unfold f_nary, bind, lift in *.
  destruct (prepare_nary s conj ops) as [[r |] | | ]; try contradiction; cbn [fst snd] in *.
  2:{ unfold ret in *. cbn [fst snd] in *. exists (constant (negb conj)). split; [reflexivity |]. split; [assumption |].
      split; [apply core_refl |]. split; [apply vh_constant |]. split.
      - intros v. split; [| intros H; exfalso; eapply Hp; eauto].
        intros H. pose proof (hs_fun _ _ _ _ _ H (hs_constant s v (negb conj))). destruct conj; discriminate.
      - destruct conj; [right; left; reflexivity | left; reflexivity]. }
  destruct Hp as [Hr [Hsem Hflat]]. pose proof (wf_cap s Hw) as Hc0.
  destruct Hr as [F64 Fs64 Fset Fops Fcnf]. rewrite F64 in *.
  destruct (fr32 r) as [| h0 [| h1 L0]] eqn:E32.
  - (* no operand left *)
    assert (Hni : is_nary_operator (constant conj) = false) by (destruct conj; reflexivity).
    unfold ret in *. cbn [fst snd] in *. rewrite Hni, andb_false_r in *. cbn [fst snd] in *.
    exists (constant conj). split; [reflexivity |]. split; [assumption |]. split; [apply core_refl |].
    split; [apply vh_constant |]. split.
    + intros v. rewrite <- Hsem. split; [intros; constructor | intros; apply hs_constant].
    + destruct conj; [left; reflexivity | right; left; reflexivity].
  - (* one operand left *)
    pose proof (oo_good _ _ _ Fops) as Hg. inversion Hg as [| ? ? [Hv0 [x0 Hx0]] _]; subst.
    pose proof (oo_nonconst _ _ _ Fops) as Hnc. inversion Hnc as [| ? ? Hnc0 _]; subst.
    pose proof (oo_flat _ _ _ Fops) as Hfl. inversion Hfl as [| ? ? Hfl0 _]; subst.
    unfold ret in *. cbn [fst snd] in *.
    assert (Hpost : forall s', ext s s' -> (forall v, hs s' v h0 conj <-> allv s v conj ops) /\ nary_shape s s' conj ops h0).
    { intros s' He. split.
      - intros v. rewrite <- Hsem, allv_cons. assert (allv s v conj []) by constructor. split.
        + intros H1. split; [| assumption]. exists x0. split; [assumption |].
          destruct H1 as [y [Hy <-]]. f_equal. eapply denotes_fun; [| exact Hy]. eapply denotes_ext; eauto.
        + intros [H1 _]. eapply hs_ext; eauto.
      - right; right; left. apply Hflat. left. reflexivity. }
    destruct (fr_cnf r && is_nary_operator h0) eqn:Eflag.
    + unfold modf in *. cbn [fst snd] in *. exists h0. split; [reflexivity |].
      destruct (note_ext s h0) as [He1 He2].
      assert (Hv1 : vh (note_is_cnf h0 s) h0) by (eapply vh_ext; [exact He1 | assumption]).
      split; [| split; [apply note_core | split; [assumption | apply Hpost; assumption]]].
      apply andb_true_iff in Eflag. destruct Eflag as [Ef En].
      rewrite Ef in Fcnf. cbn in Fcnf. rewrite andb_true_r in Fcnf. symmetry in Fcnf.
      assert (Hcnf : is_cnf s h0 = Ok true).
      { unfold flag_of in Fcnf. destruct conj.
        - destruct (is_cnf s h0) as [[] | | ]; congruence.
        - exfalso. unfold is_literal, is_constant, is_nary_operator in *.
          destruct Hnc0 as [Hn1 Hn2]. rewrite Hn1, Hn2, orb_false_r in Fcnf.
          destruct (formula_type_of h0) as [[] |]; discriminate. }
      apply wf_eta_caches; auto.
      * intros h H. cbn [oc_is_cnf set_is_cnf] in H. rewrite oc_insert_get in H.
        enough (Hk : vh s h /\ is_nary_operator h = true) by (split; [eapply vh_ext; [exact He1 | apply Hk] | apply Hk]).
        destruct (oc_get h (oc_is_cnf (f_caches s))) eqn:Eo.
        -- apply (wf_cnf_keys s Hw). congruence.
        -- destruct (N.eqb_spec h h0); [subst; split; assumption | congruence].
      * intros h x Hh Hx. assert (Hvs' : vh s h) by (eapply vh_ext; [exact He2 | exact Hh]).
        assert (Hxs : denotes s h x) by (eapply denotes_ext; [exact He2 | exact Hx]).
        pose proof (wf_cnf_exact s Hw h x Hvs' Hxs) as Hex. rewrite <- Hex.
        unfold is_cnf. cbn [oc_is_cnf set_is_cnf f_caches with_caches]. rewrite oc_insert_get.
        destruct (N.eqb_spec h h0) as [-> | Hne].
        -- rewrite Hcnf in Hex. assert (Hsh : cnf_shape x = true) by congruence. unfold is_cnf in Hcnf.
           destruct (ftype h0) as [ty | | ]; cbn in *; try discriminate.
           destruct ty; try reflexivity; destruct (oc_get h0 (oc_is_cnf (f_caches s))); congruence.
        -- destruct (oc_get h (oc_is_cnf (f_caches s))); reflexivity.
    + cbn [fst snd] in *. exists h0. split; [reflexivity |]. split; [assumption |]. split; [apply core_refl |].
      split; [assumption |]. apply Hpost. apply ext_refl.
  - (* at least two operands: insertion *)
    set (L := h0 :: h1 :: L0) in *.
    assert (Hlen2 : (2 <= length L)%nat) by (cbn; lia).
    unfold nary_insert, updt, nary_goi in *. rewrite F64, E32, Fset in *.
    fold L in Hcap. fold L.
    destruct (vtab_goi set_eqb (nary_type conj) false L L (c_small (nary_cache_of conj (f_tabs s)))) as [e t] eqn:E.
    cbn [fst snd] in *.
    assert (Hok : c2_ok set_eqb id (nary_type conj) (nary_cache_of conj (f_tabs s))).
    { destruct conj; [apply (wf_ands s Hw) | apply (wf_ors s Hw)]. }
    destruct Hok as [Hsm Hlg].
    assert (Hkk : set_eqb L (id L) = true) by (apply (ke_refl _ keq_set)).
    destruct (vtab_goi_spec _ set_eqb id _ _ _ _ _ _ _ keq_set Hsm Hkk E) as [Ht Hcase].
    set (s1 := with_tabs s (set_nary conj (f_tabs s) (mkCache2 t (c_large (nary_cache_of conj (f_tabs s)))))) in *.
    destruct (good_list_denotes _ _ (oo_good _ _ _ Fops)) as [xs Hxs].
    assert (Hflags : forallb (flag_of s conj) L = cnf_shape (if conj then FAnd xs else FOr xs)) by (apply flags_shape; auto).
    assert (Hnop : forall i, i < cap26 -> is_nary_operator (encode i (nary_type conj) false) = true).
    { intros i Hi. unfold is_nary_operator. rewrite formula_type_encode by (right; apply small58; assumption). destruct conj; reflexivity. }
    assert (Hidx : forall i, i < tlen s (nary_type conj) -> i < cap26).
    { intros i Hi. destruct (cap_inv s Hc0) as [_ [Q _]]. specialize (Q (nary_type conj)). lia. }
    destruct Hcase as [[-> [i [K [Hi [Hk ->]]]]] | [Hvec [-> Hfresh]]].
    + (* the formula exists already *)
      assert (Hs1 : s1 = s).
      { unfold s1. rewrite eta_c2. destruct conj; cbn [set_nary nary_cache_of].
        - rewrite eta_ands, eta_tabs. reflexivity.
        - rewrite eta_ors, eta_tabs. reflexivity. }
      pose proof (nthN_some_lt _ _ _ _ Hi) as Hlt.
      assert (Hlt' : i < tlen s (nary_type conj)) by (destruct conj; exact Hlt).
      assert (Hve : vh s (encode i (nary_type conj) false)).
      { replace false with (tflag (nary_type conj)) by (destruct conj; reflexivity). apply vh_tab. assumption. }
      set (e := encode i (nary_type conj) false) in *.
      assert (Hu : unpack s e = Ok (nnode conj K)).
      { unfold e. rewrite unpack_enc; [| destruct conj; reflexivity | apply small58; apply Hidx; assumption].
        destruct conj; cbn [nary_type nary_cache_of nnode] in *; rewrite Hi; reflexivity. }
      assert (HokK : ops_ok s conj K).
      { destruct conj; [apply (wf_and_ops s Hw _ _ Hi) | apply (wf_or_ops s Hw _ _ Hi)]. }
      unfold id in Hk. pose proof (proj1 (set_eqb_spec _ _) Hk) as HLK.
      assert (Hpost : forall s', ext s s' -> (forall v, hs s' v e conj <-> allv s v conj ops) /\ nary_shape s s' conj ops e).
      { intros s' He. split.
        - intros v. rewrite <- Hsem.
          assert (hs s' v e conj <-> hs s v e conj) as ->.
          { destruct (vh_denotes s e Hw Hve) as [y Hy]. split.
            - intros [z [Hz <-]]. exists y. split; [assumption |]. f_equal. eapply denotes_fun; [| exact Hz]. eapply denotes_ext; eauto.
            - intros Hz. eapply hs_ext; eauto. }
          rewrite (hs_nnode s v e conj K Hu (oo_good _ _ _ HokK)). unfold allv. rewrite !Forall_forall.
          split; intros HH x Hx; apply HH; apply HLK; assumption.
        - right; right; right. exists K. split; [eapply unpack_ext; [apply He | exact Hu] |].
          intros x Hx. apply Hflat. apply HLK. assumption. }
      assert (He0 : is_nary_operator e = true) by (apply Hnop; apply Hidx; assumption).
      rewrite Hs1, He0, andb_true_r in Hcap. rewrite Hs1, He0, andb_true_r.
      destruct (fr_cnf r) eqn:Ef.
      * unfold modf, ret in *. cbn [fst snd] in *. exists e. split; [reflexivity |].
        destruct (note_ext s e) as [He1 He2].
        split; [| split; [apply note_core | split; [eapply vh_ext; [exact He1 | assumption] | apply Hpost; assumption]]].
        assert (Hcnf : is_cnf s e = Ok true).
        { destruct (good_list_denotes _ _ (oo_good _ _ _ HokK)) as [ys Hys].
          assert (Hde : denotes s e (if conj then FAnd ys else FOr ys)).
          { destruct conj; [eapply d_and | eapply d_or]; eauto. }
          rewrite (wf_cnf_exact s Hw e _ Hve Hde). f_equal. rewrite <- (flags_shape s conj K ys Hw HokK Hys).
          apply forallb_forall. intros x Hx. symmetry in Fcnf. rewrite forallb_forall in Fcnf. apply Fcnf. apply HLK. assumption. }
        apply wf_eta_caches; auto.
        -- intros h H. cbn [oc_is_cnf set_is_cnf] in H. rewrite oc_insert_get in H.
           enough (Hk' : vh s h /\ is_nary_operator h = true) by (split; [eapply vh_ext; [exact He1 | apply Hk'] | apply Hk']).
           destruct (oc_get h (oc_is_cnf (f_caches s))) eqn:Eo.
           ++ apply (wf_cnf_keys s Hw). congruence.
           ++ destruct (N.eqb_spec h e); [subst h; split; assumption | congruence].
        -- intros h x Hh Hx. assert (Hvs' : vh s h) by (eapply vh_ext; [exact He2 | exact Hh]).
           assert (Hxs' : denotes s h x) by (eapply denotes_ext; [exact He2 | exact Hx]).
           pose proof (wf_cnf_exact s Hw h x Hvs' Hxs') as Hex. rewrite <- Hex.
           unfold is_cnf. cbn [oc_is_cnf set_is_cnf f_caches with_caches]. rewrite oc_insert_get.
           destruct (N.eqb_spec h e) as [-> | Hne].
           ++ rewrite Hcnf in Hex. assert (Hsh : cnf_shape x = true) by congruence. unfold is_cnf in Hcnf.
              destruct (ftype e) as [ty | | ]; cbn in *; try discriminate.
              destruct ty; try reflexivity; destruct (oc_get e (oc_is_cnf (f_caches s))); congruence.
           ++ destruct (oc_get h (oc_is_cnf (f_caches s))); reflexivity.
      * unfold ret in *. cbn [fst snd] in *. exists e. split; [reflexivity |]. split; [assumption |].
        split; [apply core_refl |]. split; [assumption |]. apply Hpost. apply ext_refl.
    + (* a new formula *)
      assert (Hcore1 : core s s1).
      { apply core_of_tabs. destruct conj; cbn [set_nary nary_cache_of] in *; tabs_ext_tac Hvec. }
      pose proof (core_ext _ _ Hcore1) as He1.
      assert (Htl : lenN (vt_vec (c_small (nary_cache_of conj (f_tabs s)))) = tlen s (nary_type conj)) by (destruct conj; reflexivity).
      rewrite Htl in *.
      set (e := encode (tlen s (nary_type conj)) (nary_type conj) false) in *.
      set (fl := fr_cnf r && is_nary_operator e) in *.
      set (s2 := if fl then note_is_cnf e s1 else s1).
      assert (Hrun : (let '(_, s') := (if fl then modf (note_is_cnf e) else ret tt) s1 in s') = s2).
      { unfold s2. destruct fl; reflexivity. }
      assert (Hfin : (match (if fl then modf (note_is_cnf e) else ret tt) s1 with
        | (Ok _, s') => ret e s' | (Panic, s') => (Panic, s') | (NoFuel, s') => (NoFuel, s') end) = (Ok e, s2)).
      { unfold s2. destruct fl; reflexivity. }
      rewrite Hfin in *. cbn [fst snd] in *.
      assert (Htab2 : f_tabs s2 = f_tabs s1) by (unfold s2; destruct fl; reflexivity).
      assert (Hcap1 : cap s1).
      { unfold s2 in Hcap. destruct fl; exact Hcap. }
      assert (Hlen : tlen s1 (nary_type conj) = tlen s (nary_type conj) + 1).
      { destruct conj; cbn; cbn in Hvec; rewrite Hvec, lenN_app; reflexivity. }
      assert (Hsmall : tlen s (nary_type conj) < cap26) by (eapply cap_tlen_new; eauto).
      assert (Hcore12 : core s1 s2) by (unfold s2; destruct fl; [apply note_core | apply core_refl]).
      assert (Hcore : core s s2) by (eapply core_trans; eauto).
      pose proof (core_ext _ _ Hcore) as He.
      assert (Hve : vh s2 e).
      { assert (vh s1 e).
        { unfold e. replace false with (tflag (nary_type conj)) at 1 by (destruct conj; reflexivity). apply vh_tab. lia. }
        eapply vh_ext; [apply core_ext; exact Hcore12 | assumption]. }
      assert (Hu : unpack s2 e = Ok (nnode conj L)).
      { unfold e. rewrite unpack_enc; [| destruct conj; reflexivity | apply small58; assumption].
        rewrite Htab2. unfold s1.
        destruct conj; cbn [nary_type nary_cache_of nnode set_nary f_tabs with_tabs set_ands set_ors t_ands t_ors c_small] in *;
          rewrite Hvec; rewrite <- Htl; rewrite nthN_app_last; reflexivity. }
      assert (Hxs2 : Forall2 (denotes s2) L xs).
      { clear -Hxs He. induction Hxs; constructor; auto. eapply denotes_ext; eauto. }
      assert (Hden : denotes s2 e (if conj then FAnd xs else FOr xs)).
      { destruct conj; [eapply d_and | eapply d_or]; eauto. }
      assert (Hnotold : ~ vh s e).
      { unfold e. replace false with (tflag (nary_type conj)) by (destruct conj; reflexivity).
        apply new_not_vh; auto; destruct conj; discriminate. }
      assert (Hew : fl = fr_cnf r).
      { unfold fl, e. rewrite (Hnop _ Hsmall). apply andb_true_r. }
      assert (Hw2 : wf s2).
      { assert (Hcap2 : cap s2) by exact Hcap.
        assert (Hold : forall h, vh s2 h -> vh s h \/ h = e).
        { intros h Hh. replace e with (encode (tlen s (nary_type conj)) (nary_type conj) (tflag (nary_type conj)))
            by (unfold e; destruct conj; reflexivity).
          apply (vh_new s s2); auto; unfold tlen; rewrite ?Htab2.
          - intros ty' Hty'. unfold s1. destruct conj, ty'; try reflexivity; cbn in Hty'; congruence.
          - fold (tlen s1 (nary_type conj)) (tlen s (nary_type conj)). rewrite Hlen. lia.
          - unfold s1. destruct conj; reflexivity. }
        assert (Hkeys : forall h, oc_get h (oc_is_cnf (f_caches s2)) =
           match oc_get h (oc_is_cnf (f_caches s)) with Some y => Some y | None => if fl && (h =? e) then Some tt else None end).
        { intros h. unfold s2. destruct fl; cbn [andb].
          - apply oc_insert_get.
          - change (f_caches s1) with (f_caches s). destruct (oc_get h (oc_is_cnf (f_caches s))); reflexivity. }
        eapply (wf_extend s s2); eauto; rewrite ?Htab2.
        all: try solve [unfold s1; destruct conj; cbn; wf_fields Hw].
        - unfold s1. destruct conj; cbn; [| wf_fields Hw]. split; [exact Ht | exact Hlg].
        - unfold s1. destruct conj; cbn; [wf_fields Hw |]. split; [exact Ht | exact Hlg].
        - intros i l Hi. unfold s1 in Hi. destruct conj; cbn in Hi; [| left; exact Hi].
          cbn in Hvec. rewrite Hvec in Hi. apply nthN_app_inv in Hi. destruct Hi as [Hi | [-> ->]]; [left; exact Hi |].
          right. split; [| assumption]. eapply ops_ok_ext; eauto.
        - intros i l Hi. unfold s1 in Hi. destruct conj; cbn in Hi; [left; exact Hi |].
          cbn in Hvec. rewrite Hvec in Hi. apply nthN_app_inv in Hi. destruct Hi as [Hi | [-> ->]]; [left; exact Hi |].
          right. split; [| assumption]. eapply ops_ok_ext; eauto.
        - intros h Hh. rewrite Hkeys in Hh.
          destruct (oc_get h (oc_is_cnf (f_caches s))) eqn:Eo.
          + assert (Hk' : oc_get h (oc_is_cnf (f_caches s)) <> None) by congruence. apply (wf_cnf_keys s Hw) in Hk'.
            split; [eapply vh_ext; [exact He | apply Hk'] | apply Hk'].
          + destruct fl eqn:Efl; cbn in Hh; [| congruence]. destruct (N.eqb_spec h e); [subst h; split; [assumption |] | congruence].
            unfold fl in Efl. apply andb_true_iff in Efl. apply Efl.
        - intros h x Hh Hx. destruct (Hold h Hh) as [Ho | ->].
          + destruct (vh_denotes s h Hw Ho) as [y Hy].
            assert (x = y) as -> by (eapply denotes_fun; [exact Hx |]; eapply denotes_ext; eauto).
            rewrite <- (wf_cnf_exact s Hw h y Ho Hy). unfold is_cnf. rewrite Hkeys.
            assert (h <> e) by (intros ->; contradiction).
            destruct (N.eqb_spec h e); [contradiction |]. rewrite andb_false_r.
            destruct (oc_get h (oc_is_cnf (f_caches s))); reflexivity.
          + rewrite (denotes_fun _ _ _ _ Hx Hden). rewrite <- Hflags, <- Fcnf, <- Hew.
            unfold is_cnf, ftype. unfold e at 1. rewrite formula_type_encode by (right; apply small58; assumption).
            cbn [of_opt rbind]. rewrite Hkeys, N.eqb_refl, andb_true_r.
            assert (oc_get e (oc_is_cnf (f_caches s)) = None) as ->.
            { destruct (oc_get e (oc_is_cnf (f_caches s))) eqn:Q; [| reflexivity].
              exfalso. apply Hnotold. apply (wf_cnf_keys s Hw e). congruence. }
            destruct conj; cbn [nary_type]; destruct fl; reflexivity. }
      exists e. split; [reflexivity |]. split; [assumption |]. split; [assumption |]. split; [assumption |]. split.
      * intros v. rewrite (hs_nnode s2 v e conj L Hu).
        2:{ eapply Forall_good_ext; [exact He |]. apply (oo_good _ _ _ Fops). }
        rewrite <- Hsem. rewrite (allv_sem _ _ _ _ _ Hxs2), (allv_sem _ _ _ _ _ Hxs). tauto.
      * right; right; right. exists L. split; [exact Hu | exact Hflat].
Qed.
