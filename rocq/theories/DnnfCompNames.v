(** The names of the variables of the DNNF solver and the clauses over them. *)
From Coq Require Import List Bool Arith ZArith NArith Lia Permutation.
From Verif Require Import Base Syntax EncodingModel FactoryModel OpsModel TransModel MiniModel MiniProofs SatSpec SatModel SatBasics SatInv SatDb SatSolve SatProp SatExact DnnfCompModel DnnfCompVal DnnfCompSat DnnfCompLoad.
Import ListNotations.
Local Open Scope nat_scope.

(* ------------------------------------------------------------------------------------------------------------------ *)
(** * The names of the solver's variables *)
Definition toint (names : list var) (l : lit) : nat := match idx_of names (lit_var l) with Some i => mk_lit i (negb (lit_phase l)) | None => 0 end.
Lemma toint_app : forall a b l, In (lit_var l) a -> toint (a ++ b) l = toint a l.
Proof. intros a b l H. unfold toint. destruct (idx_in a _ H) as (i & E & _). rewrite E. unfold idx_of in *. now rewrite (idx_from_app a 0 _ i b E). Qed.
Lemma toint_var : forall names l, In (lit_var l) names -> exists i, idx_of names (lit_var l) = Some i /\ lvar (toint names l) = i /\ lsign (toint names l) = negb (lit_phase l) /\ i < length names.
Proof. intros names l H. destruct (idx_in names _ H) as (i & E & L & _). exists i. split; auto. unfold toint. rewrite E. rewrite mk_lit_var, mk_lit_sign. auto. Qed.
Lemma toint_lt : forall names l, In (lit_var l) names -> toint names l < 2 * length names.
Proof. intros names l H. destruct (toint_var names l H) as (i & _ & E & _ & L). apply lvar_lt. lia. Qed.
Lemma toint_inj : forall names a b, In (lit_var a) names -> In (lit_var b) names -> lvar (toint names a) = lvar (toint names b) -> lit_var a = lit_var b.
Proof. intros names a b Ha Hb H. destruct (toint_var names a Ha) as (i & E1 & E2 & _). destruct (toint_var names b Hb) as (j & E3 & E4 & _). eapply idx_inj; [exact E1 |]. congruence. Qed.
Lemma toint_nodup : forall names ls, NoDup (map lit_var ls) -> incl (map lit_var ls) names -> NoDup (map lvar (map (toint names) ls)).
Proof.
  intros names ls. induction ls as [| a ls IH]; intros N H; cbn [map]; [constructor |]. cbn [map] in N, H. inversion N; subst. constructor.
  - intros K. rewrite map_map in K. apply in_map_iff in K. destruct K as (b & E & Hb). apply H2. assert (Ev : lit_var b = lit_var a); [| rewrite <- Ev; now apply in_map].
    apply (toint_inj names); auto; [apply H; right; now apply in_map | apply H; now left].
  - apply IH; auto. intros u Hu. apply H. now right.
Qed.

Record ld (F : list (list nat)) (d : dsolver) : Prop := {
  ld_s : lst F (ds_s d);
  ld_n : length (s_vars (ds_s d)) = length (ds_names d);
  ld_nd : NoDup (ds_names d);
  ld_c : ds_confl d = 0 }.

Lemma ld_new : ld [] ds_new.
Proof. constructor; [apply lst_new | reflexivity | constructor | reflexivity]. Qed.
Lemma ld_literal : forall F d l x d', ld F d -> ds_literal l d = Ok (x, d') -> ld F d' /\ exists e, ds_names d' = ds_names d ++ e /\ In (lit_var l) (ds_names d') /\ x = toint (ds_names d') l /\ incl e [lit_var l].
Proof.
  intros F d l x d' [A B C D] E. unfold ds_literal in E. destruct (idx_of (ds_names d) (lit_var l)) as [i |] eqn:G.
  - injection E as <- <-. split; [constructor; auto |]. exists []. rewrite app_nil_r. split; auto. pose proof (idx_some _ _ _ G) as K. split; [eapply nth_error_In; eauto |]. split; [unfold toint; now rewrite G | intros u []].
  - destruct (new_var false true (ds_s d)) as [[i s] | |] eqn:Ev; try discriminate. cbn [rbind] in E. injection E as <- <-. destruct (load_var _ _ _ _ _ A Ev) as (P1 & P2 & P3).
    apply idx_from_none in G. split.
    + constructor; cbn [ds_s ds_names ds_confl]; auto; [rewrite app_length; cbn [length]; lia |]. apply SatDb.nodup_snoc; auto.
    + exists [lit_var l]. cbn [ds_names]. split; auto. split; [apply in_or_app; right; now left |]. split; [| apply incl_refl]. unfold toint, idx_of. rewrite idx_from_last by auto. cbn [Nat.add]. congruence.
Qed.
Lemma ld_clause : forall ls F d xs d', ld F d -> ds_clause ls d = Ok (xs, d') -> ld F d' /\ exists e, ds_names d' = ds_names d ++ e /\ incl (map lit_var ls) (ds_names d') /\ xs = map (toint (ds_names d')) ls /\ incl e (map lit_var ls).
Proof.
  induction ls as [| l ls IH]; intros F d xs d' H E; cbn [ds_clause] in E.
  - injection E as <- <-. split; auto. exists []. rewrite app_nil_r. split; auto. split; [intros u [] |]. split; [reflexivity | intros u []].
  - destruct (ds_literal l d) as [[x d1] | |] eqn:E1; try discriminate. cbn [rbind] in E. destruct (ds_clause ls d1) as [[ys d2] | |] eqn:E2; try discriminate. cbn [rbind] in E. injection E as <- <-.
    destruct (ld_literal _ _ _ _ _ H E1) as (H1 & e1 & N1 & I1 & X1 & J1). destruct (IH _ _ _ _ H1 E2) as (H2 & e2 & N2 & I2 & X2 & J2). split; auto. exists (e1 ++ e2). split; [rewrite N2, N1, app_assoc; reflexivity |].
    assert (Il : In (lit_var l) (ds_names d2)) by (rewrite N2; apply in_or_app; now left). split; [intros u [<- | Hu]; auto |]. split.
    + cbn [map]. f_equal; [| exact X2]. rewrite N2, toint_app by exact I1. exact X1.
    + intros u Hu. apply in_app_or in Hu. destruct Hu as [Hu | Hu]; [left; destruct (J1 u Hu) as [<- | []]; reflexivity | right; now apply J2].
Qed.
Lemma ld_add_clause : forall fuel ls F d d', ld F d -> NoDup (map lit_var ls) -> ds_add_clause fuel ls d = Ok d' ->
  exists e, ds_names d' = ds_names d ++ e /\ incl (map lit_var ls) (ds_names d') /\ ld (map (toint (ds_names d')) ls :: F) d' /\ incl e (map lit_var ls).
Proof.
  intros fuel ls F d d' H N E. unfold ds_add_clause in E. destruct (ds_clause ls d) as [[ps d1] | |] eqn:E1; try discriminate. cbn [rbind] in E. destruct (add_clause dn_cfg fuel ps (ds_s d1)) as [[b s] | |] eqn:E2; try discriminate. cbn [rbind] in E. injection E as <-.
  destruct (ld_clause _ _ _ _ _ H E1) as ([A B C D] & e & N1 & I1 & X1 & J1). exists e. cbn [ds_set ds_names]. split; auto. split; auto.
  assert (Q1 : forall l, In l ps -> l < 2 * length (s_vars (ds_s d1))).
  { intros l Hl. rewrite X1 in Hl. apply in_map_iff in Hl. destruct Hl as (k & <- & Hk). rewrite B. apply toint_lt. apply I1. now apply in_map. }
  assert (Q2 : NoDup (map lvar ps)) by (rewrite X1; apply toint_nodup; auto).
  destruct (load_clause _ _ _ _ _ _ _ A Q1 Q2 E2) as (P1 & P2). split; [| exact J1]. constructor; cbn [ds_set ds_s ds_names ds_confl]; auto; [rewrite <- X1; exact P1 | congruence].
Qed.
Lemma ld_add_clauses : forall fuel cs F d d', ld F d -> (forall c, In c cs -> NoDup (map lit_var c)) -> ds_add_clauses fuel cs d = Ok d' ->
  exists e, ds_names d' = ds_names d ++ e /\ (forall c, In c cs -> incl (map lit_var c) (ds_names d')) /\ ld (rev (map (map (toint (ds_names d'))) cs) ++ F) d' /\ (forall u, In u e -> exists c, In c cs /\ In u (map lit_var c)).
Proof.
  intros fuel cs. induction cs as [| c cs IH]; intros F d d' H N E; cbn [ds_add_clauses] in E.
  - injection E as <-. exists []. rewrite app_nil_r. split; auto. split; [intros c [] |]. split; [exact H | intros u []].
  - destruct (ds_add_clause fuel c d) as [d1 | |] eqn:E1; try discriminate. cbn [rbind] in E. destruct (ld_add_clause _ _ _ _ _ H (N c (or_introl eq_refl)) E1) as (e1 & N1 & I1 & H1 & J1).
    destruct (IH _ _ _ H1 ltac:(intros; apply N; now right) E) as (e2 & N2 & I2 & H2 & J2). exists (e1 ++ e2). split; [rewrite N2, N1, app_assoc; reflexivity |].
    assert (Ic : incl (map lit_var c) (ds_names d')) by (intros u Hu; rewrite N2; apply in_or_app; left; auto). split; [intros z [<- | Hz]; auto |]. split.
    + cbn [map rev]. rewrite <- app_assoc. cbn [app]. replace (map (toint (ds_names d')) c) with (map (toint (ds_names d1)) c); [exact H2 |].
      apply map_ext_in. intros l Hl. rewrite N2. symmetry. apply toint_app. apply I1. now apply in_map.
    + intros u Hu. apply in_app_or in Hu. destruct Hu as [Hu | Hu]; [exists c; split; [now left | auto] |]. destruct (J2 u Hu) as (z & Hz & Hu'). exists z. split; [now right | exact Hu'].
Qed.
