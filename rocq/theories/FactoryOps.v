(** Specifications of the remaining constructors: constraints, negation, implication, equivalence, variables. *)
From Coq Require Import NArith ZArith List Bool Lia.
From Coq Require String.
From Verif Require Import Base EncodingModel EncodingProofs Syntax FactoryModel FactoryInv FactoryBasics FactoryProofs FactorySpecs
  FactoryNary.
Import ListNotations.
Local Open Scope N_scope.

(* ------------------------------------------------------------------------------------------------------------------ *)
(** * Leaves of a tree *)

Inductive leaf := LfVar (v : var) | LfCc (c : cc) | LfPbc (p : pbc).

Fixpoint leaves (x : fml) : list leaf :=
  match x with
  | FTrue | FFalse => []
  | FLit l => [LfVar (lit_var l)]
  | FNot a => leaves a
  | FAnd l | FOr l => flat_map leaves l
  | FImpl a b | FEquiv a b => leaves a ++ leaves b
  | FCc c => [LfCc c]
  | FPbc p => [LfPbc p]
  end.

Definition leaf_vars (lf : leaf) : list var :=
  match lf with LfVar v => [v] | LfCc c => cc_vars c | LfPbc p => map lit_var (pb_lits p) end.

(** Variables of a formula. *)
Definition fvars (x : fml) : list var := flat_map leaf_vars (leaves x).

Lemma leaves_fvars : forall x xs, incl (leaves x) (flat_map leaves xs) -> incl (fvars x) (flat_map fvars xs).
Proof.
  intros x xs H v Hv. unfold fvars in *. apply in_flat_map in Hv. destruct Hv as [lf [Hl Hv]].
  apply H in Hl. apply in_flat_map in Hl. destruct Hl as [y [Hy Hl]]. apply in_flat_map. exists y. split; [assumption |].
  apply in_flat_map. exists lf. auto.
Qed.

(** The result of a constructor on trees: truth value and leaves. *)
Definition result (s : factory) (h : N) (S : valuation -> bool) (lvs : list leaf) : Prop :=
  vh s h /\ exists y, denotes s h y /\ (forall v, sem v y = S v) /\ incl (leaves y) lvs.

Lemma result_ext : forall s s' h S lvs, ext s s' -> result s h S lvs -> result s' h S lvs.
Proof. intros s s' h S lvs He [Hv [y [Hd H]]]. split; [eapply vh_ext; eauto |]. exists y. split; [eapply denotes_ext; eauto | assumption]. Qed.

Lemma result_hs : forall s h S lvs v, result s h S lvs -> hs s v h (S v).
Proof. intros s h S lvs v [_ [y [Hd [Hs _]]]]. exists y. auto. Qed.

Lemma result_conseq : forall s h S S' lvs lvs', result s h S lvs -> (forall v, S v = S' v) -> incl lvs lvs' -> result s h S' lvs'.
Proof.
  intros s h S S' lvs lvs' [Hv [y [Hd [Hs Hl]]]] HS Hi. split; [assumption |]. exists y. split; [assumption |]. split.
  - intros v. rewrite Hs. apply HS.
  - intros x Hx. auto.
Qed.

Lemma result_constant : forall s b S lvs, (forall v, S v = b) -> result s (constant b) S lvs.
Proof.
  intros s b S lvs HS. split; [apply vh_constant |]. exists (if b then FTrue else FFalse). destruct b; (split; [constructor; reflexivity |]).
  - split; [intros v; rewrite HS; reflexivity | intros ? []].
  - split; [intros v; rewrite HS; reflexivity | intros ? []].
Qed.
Lemma result_self : forall s h x, vh s h -> denotes s h x -> result s h (fun v => sem v x) (leaves x).
Proof. intros s h x Hv Hd. split; [assumption |]. exists x. split; [assumption |]. split; [reflexivity | apply incl_refl]. Qed.

(* ------------------------------------------------------------------------------------------------------------------ *)
(** * and, or *)

Lemma Forall2_In_l : forall A B (R : A -> B -> Prop) l m a, Forall2 R l m -> In a l -> exists b, In b m /\ R a b.
Proof.
  intros A B R l m a H. induction H as [| x y l m Hxy H IH]; intros Hin; [destruct Hin |].
  destruct Hin as [-> | Hin]; [exists y; split; [left; reflexivity | assumption] |].
  destruct (IH Hin) as [b [Hb HR]]. exists b. split; [right |]; assumption.
Qed.

Definition nary_sem (conj : bool) (v : valuation) (xs : list fml) : bool :=
  if conj then forallb (sem v) xs else existsb (sem v) xs.

Lemma nary_sem_allv : forall s v conj l xs, Forall2 (denotes s) l xs -> (allv s v conj l <-> nary_sem conj v xs = conj).
Proof.
  intros s v conj l xs H. rewrite (allv_sem _ _ _ _ _ H). destruct conj; cbn [nary_sem].
  - symmetry. apply forallb_Forall.
  - symmetry. apply existsb_Forall.
Qed.

Lemma flat_in_leaves : forall s conj ops xs h x, Forall2 (denotes s) ops xs -> flat_in s conj ops h -> denotes s h x ->
  incl (leaves x) (flat_map leaves xs).
Proof.
  intros s conj ops xs h x Hd Hf Hx. destruct Hf as [[Hin _] | [o [l [Ho [Hu Hin]]]]].
  - destruct (Forall2_In_l _ _ _ _ _ _ Hd Hin) as [y [Hy Hdy]]. rewrite (denotes_fun _ _ _ _ Hx Hdy).
    intros lf Hl. apply in_flat_map. exists y. auto.
  - destruct (Forall2_In_l _ _ _ _ _ _ Hd Ho) as [y [Hy Hdy]].
    pose proof (denotes_by_node _ _ _ _ Hu Hdy) as Hn.
    assert (exists ys, leaves y = flat_map leaves ys /\ Forall2 (denotes s) l ys) as [ys [Hys Hl]].
    { destruct conj; cbn in Hn; destruct Hn as [ys [-> Hl]]; exists ys; auto. }
    destruct (Forall2_In_l _ _ _ _ _ _ Hl Hin) as [z [Hz Hdz]]. rewrite (denotes_fun _ _ _ _ Hx Hdz).
    intros lf Hlf. apply in_flat_map. exists y. split; [assumption |]. rewrite Hys. apply in_flat_map. exists z. auto.
Qed.

Lemma nary_result : forall s conj ops xs, wf s -> Forall (vh s) ops -> Forall2 (denotes s) ops xs ->
  spec wf core s (f_nary conj ops) (fun r s' => result s' r (fun v => nary_sem conj v xs) (flat_map leaves xs) /\ nary_shape s s' conj ops r).
Proof.
  intros s conj ops xs Hw Hvs Hd. eapply spec_conseq; [apply f_nary_spec; assumption |].
  intros r s' Hw' Hcore [Hv [Hs Hsh]]. split; [| assumption]. split; [assumption |].
  destruct (vh_denotes s' r Hw' Hv) as [y Hy]. exists y. split; [assumption |]. pose proof (core_ext _ _ Hcore) as He. split.
  - intros v. specialize (Hs v). rewrite (nary_sem_allv s v conj ops xs Hd) in Hs.
    assert (Hq : sem v y = conj <-> nary_sem conj v xs = conj).
    { rewrite <- Hs. split; [intros H; exists y; auto | intros [z [Hz <-]]; rewrite (denotes_fun _ _ _ _ Hy Hz); reflexivity]. }
    destruct (sem v y), (nary_sem conj v xs), conj; intuition congruence.
  - destruct Hsh as [-> | [-> | [Hf | [L [Hu HL]]]]].
    + pose proof (denotes_by_node s' (constant true) NTrue _ eq_refl Hy) as Q. cbn in Q. subst y. intros ? [].
    + pose proof (denotes_by_node s' (constant false) NFalse _ eq_refl Hy) as Q. cbn in Q. subst y. intros ? [].
    + assert (Hgr : exists z, denotes s r z).
      { destruct Hf as [[Hin _] | [o [l [Ho [Hu Hin]]]]].
        - destruct (Forall2_In_l _ _ _ _ _ _ Hd Hin) as [z [_ Hz]]. eauto.
        - destruct (Forall2_In_l _ _ _ _ _ _ Hd Ho) as [z [_ Hz]].
          pose proof (denotes_by_node _ _ _ _ Hu Hz) as Hn.
          assert (exists ys, Forall2 (denotes s) l ys) as [ys Hl] by (destruct conj; cbn in Hn; destruct Hn as [ys [_ Hl]]; eauto).
          destruct (Forall2_In_l _ _ _ _ _ _ Hl Hin) as [w [_ Hdw]]. eauto. }
      destruct Hgr as [z Hz]. assert (y = z) as -> by (eapply denotes_fun; [exact Hy |]; eapply denotes_ext; eauto).
      eapply flat_in_leaves; eauto.
    + pose proof (denotes_by_node _ _ _ _ Hu Hy) as Hn.
      assert (exists ys, leaves y = flat_map leaves ys /\ Forall2 (denotes s') L ys) as [ys [-> Hl]].
      { destruct conj; cbn in Hn; destruct Hn as [ys [-> Hl]]; exists ys; auto. }
      intros lf Hlf. apply in_flat_map in Hlf. destruct Hlf as [z [Hz Hlf]].
      assert (exists h, In h L /\ denotes s' h z) as [h [Hh Hdz]].
      { clear -Hl Hz. induction Hl as [| a b L ys Hab Hl IH]; [destruct Hz |]. destruct Hz as [-> | Hz].
        - exists a. split; [left; reflexivity | assumption].
        - destruct (IH Hz) as [h [? ?]]. exists h. split; [right |]; assumption. }
      specialize (HL h Hh).
      assert (Hgr : exists w, denotes s h w).
      { destruct HL as [[Hin _] | [o [l [Ho [Hu' Hin]]]]].
        - destruct (Forall2_In_l _ _ _ _ _ _ Hd Hin) as [w [_ Hw0]]. eauto.
        - destruct (Forall2_In_l _ _ _ _ _ _ Hd Ho) as [w [_ Hw0]].
          pose proof (denotes_by_node _ _ _ _ Hu' Hw0) as Hn'.
          assert (exists ys', Forall2 (denotes s) l ys') as [ys' Hl'] by (destruct conj; cbn in Hn'; destruct Hn' as [ys' [_ Hl']]; eauto).
          destruct (Forall2_In_l _ _ _ _ _ _ Hl' Hin) as [w' [_ Hdw]]. eauto. }
      destruct Hgr as [w Hdw]. assert (z = w) as -> by (eapply denotes_fun; [exact Hdz |]; eapply denotes_ext; eauto).
      eapply flat_in_leaves; eauto.
Qed.

(* ------------------------------------------------------------------------------------------------------------------ *)
(** * Constraints *)

Lemma z_as_u32_small : forall z, (0 <= z < 4294967296)%Z -> z_as_u32 z = Z.to_N z.
Proof. intros z H. unfold z_as_u32. rewrite Z.mod_small by assumption. reflexivity. Qed.

Lemma trivial_pb_sem : forall c rhs, trivial_pb c rhs = cmp_sem c 0 rhs.
Proof. intros [] rhs; cbn; reflexivity. Qed.

Lemma count_true_nonneg : forall v vs, (0 <= count_true v vs)%Z.
Proof. intros v vs. induction vs as [| x vs IH]; cbn; [lia |]. destruct (v x); lia. Qed.

Lemma construct_cc_spec : forall s c rhs vs, wf s -> is_cc c rhs = true -> (rhs < 4294967296)%Z -> Forall (var_ok s) vs ->
  spec wf core s (construct_cc_unsafe c rhs vs)
    (fun r s' => vh s' r /\ ((vs = [] /\ r = constant (cmp_sem c 0 rhs)) \/
       exists k, unpack s' r = Ok (NCc k) /\ cc_vars k = vs /\ (forall v, cc_sem v k = cmp_sem c (count_true v vs) rhs))).
Proof.
  intros s c rhs vs Hw Hc Hr Hvs. unfold construct_cc_unsafe. destruct vs as [| x vs].
  - apply spec_ret; auto; [apply core_refl |]. split; [apply vh_constant |]. left. rewrite trivial_pb_sem. auto.
  - destruct (Z.leb_spec 0 rhs) as [H0 | H0].
    + rewrite z_as_u32_small by lia.
      eapply spec_conseq; [apply cc_insert_spec; auto |].
      * discriminate.
      * cbn. lia.
      * cbn. intros ->. cbn in Hc. apply Z.leb_le in Hc. lia.
      * intros r s' _ _ [Hv Hu]. split; [assumption |]. right. eexists. split; [exact Hu |]. split; [reflexivity |].
        intros v. unfold cc_sem. cbn [cc_cmp cc_vars cc_rhs]. rewrite Z2N.id by lia. reflexivity.
    + assert (c = GT /\ rhs = (-1)%Z) as [-> ->].
      { destruct c; cbn in Hc; apply Z.leb_le in Hc; try lia. split; [reflexivity | lia]. }
      eapply spec_conseq; [apply cc_insert_spec; auto |].
      * discriminate.
      * discriminate.
      * intros r s' _ _ [Hv Hu]. split; [assumption |]. right. eexists. split; [exact Hu |]. split; [reflexivity |].
        intros v. unfold cc_sem. cbn [cc_cmp cc_vars cc_rhs cmp_sem].
        pose proof (count_true_nonneg v (x :: vs)). change (Z.of_N 0) with 0%Z.
        destruct (Z.leb_spec 0 (count_true v (x :: vs))), (Z.ltb_spec (-1) (count_true v (x :: vs))); try reflexivity; lia.
Qed.

Lemma weight_ones : forall v ls cs, length ls = length cs -> forallb lit_phase ls = true -> forallb (fun x => Z.eqb x 1) cs = true ->
  weight v ls cs = count_true v (map lit_var ls).
Proof.
  intros v. induction ls as [| [x p] ls IH]; intros [| c cs] Hl Hp Hc; cbn in *; try discriminate; [reflexivity |].
  apply andb_true_iff in Hp. destruct Hp as [-> Hp]. apply andb_true_iff in Hc. destruct Hc as [Hc1 Hc].
  apply Z.eqb_eq in Hc1. subst c. rewrite IH by (auto; lia). reflexivity.
Qed.

(** The case in which the right-hand side is converted to [u32]. *)
Definition pb_fits (c : ctype) (rhs : Z) (ls : list lit) (cs : list Z) : Prop :=
  is_lit_cc c rhs ls cs = true -> (rhs < 4294967296)%Z.

Lemma f_pbc_spec : forall s c rhs ls cs, wf s -> Forall (lit_ok s) ls -> length ls = length cs -> pb_fits c rhs ls cs ->
  spec wf core s (f_pbc c rhs ls cs)
    (fun r s' => vh s' r /\
      ((ls = [] /\ r = constant (cmp_sem c 0 rhs))
       \/ (exists k, unpack s' r = Ok (NCc k) /\ cc_vars k = map lit_var ls
                     /\ (forallb lit_phase ls = true /\ forallb (fun x => Z.eqb x 1) cs = true)
                     /\ (forall v, cc_sem v k = cmp_sem c (weight v ls cs) rhs))
       \/ unpack s' r = Ok (NPbc (mkPbc ls cs c rhs)))).
Proof.
  intros s c rhs ls cs Hw Hls Hlen Hfit. unfold f_pbc. rewrite (proj2 (Nat.eqb_eq _ _) Hlen).
  destruct ls as [| l ls].
  - apply spec_ret; auto; [apply core_refl |]. split; [apply vh_constant |]. left. rewrite trivial_pb_sem. auto.
  - destruct (is_lit_cc c rhs (l :: ls) cs) eqn:E.
    + pose proof (Hfit E) as Hr. unfold is_lit_cc in E. apply andb_true_iff in E. destruct E as [E E3]. apply andb_true_iff in E.
      destruct E as [E1 E2].
      eapply spec_conseq; [apply construct_cc_spec; auto |].
      * apply Forall_map. exact Hls.
      * intros r s' _ _ [Hv [[Hn _] | [k [Hu [Hk Hs]]]]]; [discriminate |]. split; [assumption |]. right; left.
        exists k. split; [exact Hu |]. split; [exact Hk |]. split; [split; assumption |].
        intros v. rewrite Hs, weight_ones by assumption. reflexivity.
    + eapply spec_conseq; [apply pbc_insert_spec; auto |].
      * discriminate.
      * intros r s' _ _ [Hv Hu]. split; [assumption |]. right; right. exact Hu.
Qed.

(** Leaves a pbc call can produce. *)
Definition con_vars (lvs : list leaf) (vs : list var) : Prop := forall lf, In lf lvs -> incl (leaf_vars lf) vs.

Definition result_v (s : factory) (h : N) (S : valuation -> bool) (vs : list var) : Prop :=
  vh s h /\ exists y, denotes s h y /\ (forall v, sem v y = S v) /\ incl (fvars y) vs.

Lemma result_v_ext : forall s s' h S lvs, ext s s' -> result_v s h S lvs -> result_v s' h S lvs.
Proof. intros s s' h S lvs He [Hv [y [Hd H]]]. split; [eapply vh_ext; eauto |]. exists y. split; [eapply denotes_ext; eauto | assumption]. Qed.
Lemma result_v_of : forall s h S lvs vs, result s h S lvs -> (forall lf, In lf lvs -> incl (leaf_vars lf) vs) -> result_v s h S vs.
Proof.
  intros s h S lvs vs [Hv [y [Hd [Hs Hl]]]] H. split; [assumption |]. exists y. split; [assumption |]. split; [assumption |].
  intros x Hx. unfold fvars in Hx. apply in_flat_map in Hx. destruct Hx as [lf [Hlf Hx]]. apply Hl in Hlf. eapply H; eauto.
Qed.
Lemma result_v_constant : forall s b S vs, (forall v, S v = b) -> result_v s (constant b) S vs.
Proof. intros. eapply result_v_of; [apply (result_constant s b S []); assumption |]. intros ? []. Qed.
Lemma result_v_conseq : forall s h S S' vs vs', result_v s h S vs -> (forall v, S v = S' v) -> incl vs vs' -> result_v s h S' vs'.
Proof.
  intros s h S S' vs vs' [Hv [y [Hd [Hs Hl]]]] HS Hi. split; [assumption |]. exists y. split; [assumption |]. split.
  - intros v. rewrite Hs. apply HS.
  - intros x Hx. auto.
Qed.

Lemma f_pbc_result : forall s c rhs ls cs, wf s -> Forall (lit_ok s) ls -> length ls = length cs -> pb_fits c rhs ls cs ->
  spec wf core s (f_pbc c rhs ls cs) (fun r s' => result_v s' r (fun v => cmp_sem c (weight v ls cs) rhs) (map lit_var ls)).
Proof.
  intros s c rhs ls cs Hw Hls Hlen Hfit. eapply spec_conseq; [apply f_pbc_spec; eassumption |].
  intros r s' _ _ [Hv [[-> ->] | [[k [Hu [Hk [_ Hs]]]] | Hu]]].
  - destruct cs; [| discriminate]. apply result_v_constant. reflexivity.
  - split; [assumption |]. exists (FCc k). split; [apply d_cc; assumption |]. split; [exact Hs |].
    unfold fvars. cbn. rewrite Hk, app_nil_r. apply incl_refl.
  - split; [assumption |]. eexists. split; [apply d_pbc; exact Hu |]. split; [reflexivity |].
    unfold fvars. cbn. rewrite app_nil_r. apply incl_refl.
Qed.

Lemma f_cc_result : forall s c rhs vs, wf s -> Forall (var_ok s) vs -> rhs < 4294967296 -> (c = LT -> rhs <> 0) ->
  spec wf core s (f_cc c rhs vs) (fun r s' => result_v s' r (fun v => cmp_sem c (count_true v vs) (Z.of_N rhs)) vs).
Proof.
  intros s c rhs vs Hw Hvs Hr Hlt. unfold f_cc.
  assert (Hc : is_cc c (Z.of_N rhs) = true).
  { destruct c; cbn; apply Z.leb_le; try lia. specialize (Hlt eq_refl). lia. }
  rewrite Hc. eapply spec_conseq; [apply construct_cc_spec; auto; lia |].
  intros r s' _ _ [Hv [[-> ->] | [k [Hu [Hk Hs]]]]].
  - apply result_v_constant. reflexivity.
  - split; [assumption |]. exists (FCc k). split; [apply d_cc; assumption |]. split; [exact Hs |].
    unfold fvars. cbn. rewrite Hk, app_nil_r. apply incl_refl.
Qed.

Lemma cmp_neg : forall c c' x y,
  match c, c' with GT, LE | GE, LT | LT, GE | LE, GT => True | _, _ => False end -> cmp_sem c' x y = negb (cmp_sem c x y).
Proof.
  intros c c' x y H. destruct c, c'; try contradiction; cbn.
  - destruct (Z.leb_spec x y), (Z.ltb_spec y x); try reflexivity; lia.
  - destruct (Z.ltb_spec x y), (Z.leb_spec y x); try reflexivity; lia.
  - destruct (Z.leb_spec y x), (Z.ltb_spec x y); try reflexivity; lia.
  - destruct (Z.ltb_spec y x), (Z.leb_spec x y); try reflexivity; lia.
Qed.

Lemma cmp_neq : forall x y, cmp_sem LT x y || cmp_sem GT x y = negb (cmp_sem EQ x y).
Proof. intros x y. cbn. destruct (Z.ltb_spec x y), (Z.ltb_spec y x), (Z.eqb_spec x y); try reflexivity; lia. Qed.

(** The pair [lt], [gt] followed by [or], used by both negations of an equation. *)
Lemma eq_negate_spec : forall s rhs ls cs, wf s -> Forall (lit_ok s) ls -> length ls = length cs ->
  pb_fits LT rhs ls cs -> pb_fits GT rhs ls cs ->
  spec wf core s (lt <-- f_pbc LT rhs ls cs ;; gt <-- f_pbc GT rhs ls cs ;; f_or [lt; gt])
    (fun r s' => result_v s' r (fun v => negb (cmp_sem EQ (weight v ls cs) rhs)) (map lit_var ls)).
Proof.
  intros s rhs ls cs Hw Hls Hlen H1 H2.
  eapply spec_bind; [exact core_trans | apply f_pbc_result; eassumption | intros; mono_tac |].
  intros lt s1 Hw1 Hc1 Hr1. cbn beta in Hr1.
  assert (Hls1 : Forall (lit_ok s1) ls) by (eapply Forall_impl; [| exact Hls]; intros; eapply lit_ok_ext; eauto using core_ext).
  eapply spec_bind; [exact core_trans | apply f_pbc_result; eassumption | intros; mono_tac |].
  intros gt s2 Hw2 Hc2 Hr2. cbn beta in Hr2.
  apply (result_v_ext _ s2) in Hr1; [| apply core_ext; assumption].
  destruct Hr1 as [Hv1 [y1 [Hd1 [Hs1 Hl1]]]]. destruct Hr2 as [Hv2 [y2 [Hd2 [Hs2 Hl2]]]].
  eapply spec_conseq; [apply (nary_result s2 false [lt; gt] [y1; y2]); auto |].
  intros r s' _ _ [Hr _]. destruct Hr as [Hv [y [Hd [Hs Hl]]]]. split; [assumption |]. exists y. split; [assumption |]. split.
  - intros v. rewrite Hs. cbn [nary_sem existsb]. rewrite orb_false_r, Hs1, Hs2. apply cmp_neq.
  - intros x Hx. apply (leaves_fvars _ _ Hl) in Hx. apply in_flat_map in Hx. destruct Hx as [z [[<- | [<- | []]] Hz]]; auto.
Qed.

Lemma weight_pos_ones : forall v vs, weight v (pos_lits vs) (repeat 1%Z (length vs)) = count_true v vs.
Proof.
  intros v vs. induction vs as [| x vs IH]; [reflexivity |]. cbn [pos_lits map length repeat weight count_true].
  fold (pos_lits vs). rewrite IH. reflexivity.
Qed.
Lemma map_var_pos_lits : forall vs, map lit_var (pos_lits vs) = vs.
Proof. intros vs. unfold pos_lits. rewrite map_map. apply map_id. Qed.

Lemma cc_negate_spec : forall s c, wf s -> Forall (var_ok s) (cc_vars c) -> cc_rhs c < 4294967296 ->
  spec wf core s (cc_negate c) (fun r s' => result_v s' r (fun v => negb (cc_sem v c)) (cc_vars c)).
Proof.
  intros s c Hw Hvs Hr.
  assert (Hls : Forall (lit_ok s) (pos_lits (cc_vars c))) by (apply Forall_map; exact Hvs).
  assert (Hlen : length (pos_lits (cc_vars c)) = length (repeat 1%Z (length (cc_vars c)))).
  { unfold pos_lits. rewrite map_length, repeat_length. reflexivity. }
  assert (Hfit : forall k, pb_fits k (Z.of_N (cc_rhs c)) (pos_lits (cc_vars c)) (repeat 1%Z (length (cc_vars c)))) by (intros k _; lia).
  assert (Hone : forall k k', match k, k' with GT, LE | GE, LT | LT, GE | LE, GT => True | _, _ => False end -> cc_cmp c = k ->
    spec wf core s (f_pbc k' (Z.of_N (cc_rhs c)) (pos_lits (cc_vars c)) (repeat 1%Z (length (cc_vars c))))
      (fun r s' => result_v s' r (fun v => negb (cc_sem v c)) (cc_vars c))).
  { intros k k' Hk Hc. eapply spec_conseq; [apply f_pbc_result; auto |]. intros r s' _ _ H.
    rewrite map_var_pos_lits in H. eapply result_v_conseq; [exact H | | apply incl_refl].
    intros v. cbn beta. rewrite weight_pos_ones. unfold cc_sem. rewrite Hc. apply cmp_neg. assumption. }
  unfold cc_negate. destruct (cc_cmp c) eqn:Ec; try solve [eapply Hone; [| reflexivity]; exact I].
  eapply spec_conseq; [apply eq_negate_spec; auto |]. intros r s' _ _ H.
  rewrite map_var_pos_lits in H. eapply result_v_conseq; [exact H | | apply incl_refl].
  intros v. cbn beta. rewrite weight_pos_ones. unfold cc_sem. rewrite Ec. reflexivity.
Qed.

Lemma fits_of_not_lit_cc : forall c c' rhs ls cs, is_lit_cc c rhs ls cs = false -> pb_fits c' rhs ls cs.
Proof.
  intros c c' rhs ls cs H H'. unfold is_lit_cc in *. apply andb_true_iff in H'. destruct H' as [H1 H2]. rewrite H1 in H. cbn in H.
  destruct c; cbn in H; apply Z.leb_gt in H; lia.
Qed.

Lemma pbc_negate_spec : forall s p, wf s -> Forall (lit_ok s) (pb_lits p) -> length (pb_lits p) = length (pb_coeffs p) ->
  is_lit_cc (pb_cmp p) (pb_rhs p) (pb_lits p) (pb_coeffs p) = false ->
  spec wf core s (pbc_negate p) (fun r s' => result_v s' r (fun v => negb (pbc_sem v p)) (map lit_var (pb_lits p))).
Proof.
  intros s p Hw Hls Hlen Hn.
  assert (Hfit : forall k, pb_fits k (pb_rhs p) (pb_lits p) (pb_coeffs p)) by (intros k; eapply fits_of_not_lit_cc; eauto).
  assert (Hone : forall k k', match k, k' with GT, LE | GE, LT | LT, GE | LE, GT => True | _, _ => False end -> pb_cmp p = k ->
    spec wf core s (f_pbc k' (pb_rhs p) (pb_lits p) (pb_coeffs p))
      (fun r s' => result_v s' r (fun v => negb (pbc_sem v p)) (map lit_var (pb_lits p)))).
  { intros k k' Hk Hc. eapply spec_conseq; [apply f_pbc_result; auto |]. intros r s' _ _ H.
    eapply result_v_conseq; [exact H | | apply incl_refl].
    intros v. cbn beta. unfold pbc_sem. rewrite Hc. apply cmp_neg. assumption. }
  unfold pbc_negate. destruct (pb_cmp p) eqn:Ec; try solve [eapply Hone; [| reflexivity]; exact I].
  eapply spec_conseq; [apply eq_negate_spec; auto |]. intros r s' _ _ H.
  eapply result_v_conseq; [exact H | | apply incl_refl].
  intros v. cbn beta. unfold pbc_sem. rewrite Ec. reflexivity.
Qed.

(* ------------------------------------------------------------------------------------------------------------------ *)
(** * Negation *)

(** [not] on trees. *)
Definition fnot (x : fml) : fml :=
  match x with
  | FTrue => FFalse
  | FFalse => FTrue
  | FLit l => FLit (lit_negate l)
  | FNot a => a
  | _ => FNot x
  end.

Lemma fnot_sem : forall v x, sem v (fnot x) = negb (sem v x).
Proof. intros v x. destruct x; cbn; try reflexivity. - apply lit_sem_negate. - rewrite negb_involutive. reflexivity. Qed.
Lemma fnot_leaves : forall x, leaves (fnot x) = leaves x.
Proof. intros x. destruct x as [ | | [v p] | | | | | | | ]; reflexivity. Qed.

Definition is_con (x : fml) : bool := match x with FCc _ | FPbc _ => true | _ => false end.

Lemma lit_ok_negate : forall s l, lit_ok s l -> lit_ok s (lit_negate l).
Proof. intros s [v p] H. exact H. Qed.

Lemma vcase_lit_ok : forall s h l, cap s -> vh s h -> unpack s h = Ok (NLit l) -> h = encode_lit l /\ lit_ok s l.
Proof.
  intros s h l Hc Hv Hu.
  destruct (vh_case s h Hc Hv) as [-> Ht H | -> Ht H | k E Hlo Ht H | ? ? ? ? Ht H | ? ? ? ? Ht H
        | ? ? ? ? Ht H | ? ? ? ? ? Ht H | ? ? ? ? ? Ht H | ? ? ? ? Ht H | ? ? ? ? Ht H]; try congruence.
  assert (k = l) by congruence. subst. auto.
Qed.

Lemma f_negate_simple : forall s h x, wf s -> vh s h -> denotes s h x -> is_con x = false ->
  spec wf core s (f_negate h) (fun r s' => vh s' r /\ denotes s' r (fnot x)).
Proof.
  intros s h x Hw Hv Hd Hnc. pose proof (wf_cap s Hw) as Hc.
  assert (Hins : negatable h -> (forall a, fnot x = FNot a -> a = x) -> (exists a, fnot x = FNot a) ->
     spec wf core s (f_not_insert h) (fun r s' => vh s' r /\ denotes s' r (fnot x))).
  { intros Hn Ha [a Hx]. eapply spec_conseq; [apply not_insert_spec; assumption |].
    intros r s' _ Hcore [Hvr Hu]. split; [assumption |]. rewrite Hx, (Ha a Hx). eapply d_not; [exact Hu |].
    eapply denotes_ext; [apply core_ext; exact Hcore | assumption]. }
  unfold f_negate. eapply spec_bind; [exact core_trans | | intros; mono_tac |].
  - destruct (vh_operands s h Hw Hv) as [n [Hu _]].
    eapply (spec_lift _ wf core s _ n (fun m s' => s' = s /\ unpack s h = Ok m)); auto using core_refl.
  - intros n s' _ _ [-> Hu]. pose proof (denotes_by_node _ _ _ _ Hu Hd) as Hx. pose proof (type_node _ _ _ Hc Hv Hu) as Ht.
    destruct n; cbn in Hx.
    + subst x. apply spec_ret; auto using core_refl. split; [constructor | apply d_false; reflexivity].
    + subst x. apply spec_ret; auto using core_refl. split; [constructor | apply d_true; reflexivity].
    + subst x. destruct (vcase_lit_ok s h l Hc Hv Hu) as [-> Hlo].
      apply spec_ret; auto using core_refl. split; [apply vh_lit; apply lit_ok_negate; assumption |].
      apply d_lit. apply unpack_lit; auto using lit_ok_negate.
    + destruct Hx as [y [-> Hy]]. destruct (unpack_not_vh s h a Hw Hv Hu) as [i [_ [_ [Hva _]]]].
      apply spec_ret; auto using core_refl.
    + destruct Hx as [ys [-> _]]. apply Hins; [unfold negatable; rewrite Ht; exact I | cbn; congruence | cbn; eauto].
    + destruct Hx as [ys [-> _]]. apply Hins; [unfold negatable; rewrite Ht; exact I | cbn; congruence | cbn; eauto].
    + destruct Hx as [y [z [-> _]]]. apply Hins; [unfold negatable; rewrite Ht; exact I | cbn; congruence | cbn; eauto].
    + destruct Hx as [y [z [-> _]]]. apply Hins; [unfold negatable; rewrite Ht; exact I | cbn; congruence | cbn; eauto].
    + subst x. discriminate.
    + subst x. discriminate.
Qed.

Lemma unpack_cc_vh : forall s h c, wf s -> vh s h -> unpack s h = Ok (NCc c) ->
  cc_vars c <> [] /\ Forall (var_ok s) (cc_vars c) /\ cc_rhs c < 4294967296 /\ (cc_cmp c = LT -> cc_rhs c <> 0).
Proof.
  intros s h c Hw Hv Hu.
  destruct (vh_case s h (wf_cap s Hw) Hv) as [-> Ht H | -> Ht H | k E Hlo Ht H | ? ? ? ? Ht H | ? ? ? ? Ht H
        | ? ? ? ? Ht H | ? ? ? ? ? Ht H | ? ? ? ? ? Ht H | i k ? Hi Ht H | ? ? ? ? Ht H]; try congruence.
  assert (k = c) by congruence. subst. apply (wf_cc_ops s Hw _ _ Hi).
Qed.
Lemma unpack_pbc_vh : forall s h p, wf s -> vh s h -> unpack s h = Ok (NPbc p) ->
  pb_lits p <> [] /\ length (pb_lits p) = length (pb_coeffs p) /\ Forall (lit_ok s) (pb_lits p)
      /\ is_lit_cc (pb_cmp p) (pb_rhs p) (pb_lits p) (pb_coeffs p) = false.
Proof.
  intros s h c Hw Hv Hu.
  destruct (vh_case s h (wf_cap s Hw) Hv) as [-> Ht H | -> Ht H | k E Hlo Ht H | ? ? ? ? Ht H | ? ? ? ? Ht H
        | ? ? ? ? Ht H | ? ? ? ? ? Ht H | ? ? ? ? ? Ht H | ? ? ? ? Ht H | i k ? Hi Ht H]; try congruence.
  assert (k = c) by congruence. subst. apply (wf_pbc_ops s Hw _ _ Hi).
Qed.

Lemma f_negate_result : forall s h x, wf s -> vh s h -> denotes s h x ->
  spec wf core s (f_negate h) (fun r s' => result_v s' r (fun v => negb (sem v x)) (fvars x)).
Proof.
  intros s h x Hw Hv Hd. destruct (is_con x) eqn:Hcon.
  - unfold f_negate. eapply spec_bind; [exact core_trans | | intros; mono_tac |].
    + destruct (vh_operands s h Hw Hv) as [n [Hu _]].
      eapply (spec_lift _ wf core s _ n (fun m s' => s' = s /\ unpack s h = Ok m)); auto using core_refl.
    + intros n s' _ _ [-> Hu]. pose proof (denotes_by_node _ _ _ _ Hu Hd) as Hx.
      destruct n; cbn in Hx; try (subst x; discriminate); try (destruct Hx as [? [-> _]]; discriminate);
        try (destruct Hx as [? [? [-> _]]]; discriminate); subst x.
      * destruct (unpack_cc_vh s h c Hw Hv Hu) as [_ [? [? _]]].
        eapply spec_conseq; [apply cc_negate_spec; assumption |]. intros r s' _ _ H1.
        eapply result_v_conseq; [exact H1 | reflexivity |]. unfold fvars. cbn. rewrite app_nil_r. apply incl_refl.
      * destruct (unpack_pbc_vh s h p Hw Hv Hu) as [_ [? [? ?]]].
        eapply spec_conseq; [apply pbc_negate_spec; assumption |]. intros r s' _ _ H2.
        eapply result_v_conseq; [exact H2 | reflexivity |]. unfold fvars. cbn. rewrite app_nil_r. apply incl_refl.
  - eapply spec_conseq; [apply f_negate_simple; eassumption |]. intros r s' _ _ [Hvr Hdr]. split; [assumption |].
    exists (fnot x). split; [assumption |]. split; [intros v; apply fnot_sem |]. unfold fvars. rewrite fnot_leaves. apply incl_refl.
Qed.

Lemma f_not_spec : forall s h x, wf s -> vh s h -> denotes s h x ->
  spec wf core s (f_not h) (fun r s' => vh s' r /\ denotes s' r (fnot x)).
Proof.
  intros s h x Hw Hv Hd. pose proof (type_denotes s h x (wf_cap s Hw) Hv Hd) as Ht.
  unfold f_not. eapply spec_bind; [exact core_trans | | intros; mono_tac |].
  - eapply (spec_lift _ wf core s _ _ (fun m s' => s' = s /\ formula_type_of h = Some m)).
    + unfold ftype. rewrite Ht. reflexivity. + assumption. + apply core_refl. + auto.
  - intros ty s' _ _ [-> Hty].
    assert (Hins : negatable h -> fnot x = FNot x ->
       spec wf core s (f_not_insert h) (fun r s' => vh s' r /\ denotes s' r (fnot x))).
    { intros Hn Hx. eapply spec_conseq; [apply not_insert_spec; assumption |].
      intros r s' _ Hcore [Hvr Hu]. split; [assumption |]. rewrite Hx. eapply d_not; [exact Hu |].
      eapply denotes_ext; [apply core_ext; exact Hcore | assumption]. }
    rewrite Ht in Hty. injection Hty as <-.
    destruct x; try (apply f_negate_simple; auto; fail); apply Hins; try reflexivity; unfold negatable; rewrite Ht; exact I.
Qed.

Lemma f_not_result : forall s h x, wf s -> vh s h -> denotes s h x ->
  spec wf core s (f_not h) (fun r s' => result s' r (fun v => negb (sem v x)) (leaves x)).
Proof.
  intros s h x Hw Hv Hd. eapply spec_conseq; [apply f_not_spec; eassumption |]. intros r s' _ _ [Hvr Hdr].
  split; [assumption |]. exists (fnot x). split; [assumption |]. split; [intros v; apply fnot_sem |]. rewrite fnot_leaves. apply incl_refl.
Qed.

(* ------------------------------------------------------------------------------------------------------------------ *)
(** * Implication and equivalence *)

Lemma is_verum_denotes : forall s h x, cap s -> vh s h -> denotes s h x -> is_verum h = match x with FTrue => true | _ => false end.
Proof. intros s h x Hc Hv Hd. unfold is_verum. rewrite (type_denotes s h x Hc Hv Hd). destruct x; reflexivity. Qed.
Lemma is_falsum_denotes : forall s h x, cap s -> vh s h -> denotes s h x -> is_falsum h = match x with FFalse => true | _ => false end.
Proof. intros s h x Hc Hv Hd. unfold is_falsum. rewrite (type_denotes s h x Hc Hv Hd). destruct x; reflexivity. Qed.

Lemma f_implication_result : forall s l r x y, wf s -> vh s l -> vh s r -> denotes s l x -> denotes s r y ->
  spec wf core s (f_implication l r) (fun h s' => result s' h (fun v => implb (sem v x) (sem v y)) (leaves x ++ leaves y)).
Proof.
  intros s l r x y Hw Hl Hr Hx Hy. pose proof (wf_cap s Hw) as Hc. unfold f_implication.
  destruct (is_verum l) eqn:E1.
  { rewrite (is_verum_denotes s l x Hc Hl Hx) in E1. destruct x; try discriminate.
    apply spec_ret; auto using core_refl. apply result_self; assumption. }
  destruct (is_falsum l || is_verum r) eqn:E2.
  { apply spec_ret; auto using core_refl. apply (result_constant s true). intros v.
    rewrite (is_falsum_denotes s l x Hc Hl Hx), (is_verum_denotes s r y Hc Hr Hy) in E2.
    destruct x; try reflexivity; destruct y; try discriminate; cbn [sem]; apply implb_true_r. }
  apply orb_false_iff in E2. destruct E2 as [E2 E3].
  destruct (is_falsum r) eqn:E4.
  { eapply spec_conseq; [apply f_not_result; eassumption |]. intros h s' _ _ H.
    eapply result_conseq; [exact H | | apply incl_appl; apply incl_refl].
    intros v. cbn beta. rewrite (is_falsum_denotes s r y Hc Hr Hy) in E4. destruct y; try discriminate. cbn [sem]. destruct (sem v x); reflexivity. }
  destruct (N.eqb_spec l r) as [-> | Hne].
  { apply spec_ret; auto using core_refl. apply (result_constant s true). intros v. rewrite (denotes_fun _ _ _ _ Hx Hy).
    destruct (sem v y); reflexivity. }
  eapply spec_bind; [exact core_trans | apply f_negate_result; eassumption | intros; mono_tac |].
  intros nr s1 Hw1 Hc1 Hnr. pose proof (core_ext _ _ Hc1) as He1.
  destruct (N.eqb_spec l nr) as [-> | Hne2].
  - apply spec_ret; auto using core_refl.
    eapply result_conseq; [apply result_self; [eapply vh_ext; eauto | eapply denotes_ext; eauto] | | apply incl_appr; apply incl_refl].
    intros v. cbn beta. destruct Hnr as [_ [z [Hz [Hs _]]]].
    assert (x = z) as -> by (eapply denotes_fun; [eapply denotes_ext; eauto | exact Hz]). rewrite Hs. destruct (sem v y); reflexivity.
  - eapply spec_conseq; [apply impl_insert_spec; auto; try (eapply vh_ext; eauto; fail); split; assumption |].
    intros h s2 _ Hc2 [Hv Hu]. split; [assumption |]. pose proof (core_ext _ _ Hc2) as He2.
    exists (FImpl x y). split; [eapply d_impl; [exact Hu | |]; eapply denotes_ext; try exact He2; eapply denotes_ext; eauto |].
    split; [reflexivity | apply incl_refl].
Qed.

Lemma f_equivalence_result : forall s l r x y, wf s -> vh s l -> vh s r -> denotes s l x -> denotes s r y ->
  spec wf core s (f_equivalence l r) (fun h s' => result s' h (fun v => Bool.eqb (sem v x) (sem v y)) (leaves x ++ leaves y)).
Proof.
  intros s l r x y Hw Hl Hr Hx Hy. pose proof (wf_cap s Hw) as Hc. unfold f_equivalence.
  destruct (is_verum l) eqn:E1.
  { rewrite (is_verum_denotes s l x Hc Hl Hx) in E1. destruct x; try discriminate.
    apply spec_ret; auto using core_refl. eapply result_conseq; [apply result_self; eassumption | | apply incl_refl].
    intros v. cbn. destruct (sem v y); reflexivity. }
  destruct (is_falsum l) eqn:E2.
  { rewrite (is_falsum_denotes s l x Hc Hl Hx) in E2. destruct x; try discriminate.
    eapply spec_conseq; [apply f_not_result; eassumption |]. intros h s' _ _ H.
    eapply result_conseq; [exact H | | apply incl_refl]. intros v. cbn. destruct (sem v y); reflexivity. }
  destruct (is_verum r) eqn:E3.
  { rewrite (is_verum_denotes s r y Hc Hr Hy) in E3. destruct y; try discriminate.
    apply spec_ret; auto using core_refl. eapply result_conseq; [apply result_self; eassumption | | apply incl_appl; apply incl_refl].
    intros v. cbn. destruct (sem v x); reflexivity. }
  destruct (is_falsum r) eqn:E4.
  { rewrite (is_falsum_denotes s r y Hc Hr Hy) in E4. destruct y; try discriminate.
    eapply spec_conseq; [apply f_not_result; eassumption |]. intros h s' _ _ H.
    eapply result_conseq; [exact H | | apply incl_appl; apply incl_refl]. intros v. cbn. destruct (sem v x); reflexivity. }
  destruct (N.eqb_spec l r) as [-> | Hne].
  { apply spec_ret; auto using core_refl. apply (result_constant s true). intros v. rewrite (denotes_fun _ _ _ _ Hx Hy).
    destruct (sem v y); reflexivity. }
  eapply spec_bind; [exact core_trans | apply f_negate_result; eassumption | intros; mono_tac |].
  intros nr s1 Hw1 Hc1 Hnr. pose proof (core_ext _ _ Hc1) as He1.
  destruct (N.eqb_spec l nr) as [-> | Hne2].
  - apply spec_ret; auto using core_refl. apply (result_constant s1 false). intros v.
    destruct Hnr as [_ [z [Hz [Hs _]]]].
    assert (x = z) as -> by (eapply denotes_fun; [eapply denotes_ext; eauto | exact Hz]). rewrite Hs. destruct (sem v y); reflexivity.
  - eapply spec_conseq; [apply equiv_insert_spec; auto; try (eapply vh_ext; eauto; fail); split; assumption |].
    intros h s2 _ Hc2 [Hv Hu]. split; [assumption |]. pose proof (core_ext _ _ Hc2) as He2.
    destruct Hu as [Hu | Hu].
    + exists (FEquiv x y). split; [eapply d_equiv; [exact Hu | |]; eapply denotes_ext; try exact He2; eapply denotes_ext; eauto |].
      split; [reflexivity | apply incl_refl].
    + exists (FEquiv y x). split; [eapply d_equiv; [exact Hu | |]; eapply denotes_ext; try exact He2; eapply denotes_ext; eauto |].
      split; [intros v; cbn; destruct (sem v x), (sem v y); reflexivity |].
      intros z Hz. cbn in Hz. apply in_app_or in Hz. apply in_or_app. tauto.
Qed.

(* ------------------------------------------------------------------------------------------------------------------ *)
(** * Literals, clauses, auxiliary variables *)

Lemma f_literal_spec : forall s name p, wf s ->
  spec wf core s (f_literal name p)
    (fun h s' => exists i, vh s' h /\ denotes s' h (FLit (Lit (VFF i) p)) /\ nthN (vt_vec (t_vars (f_tabs s'))) i = Some name).
Proof.
  intros s name p Hw. unfold f_literal, f_var.
  eapply spec_bind; [exact core_trans | | intros; mono_tac |].
  - eapply spec_bind; [exact core_trans | apply f_variable_spec; assumption | intros; mono_tac |].
    intros h s1 Hw1 Hc1 [i [-> [Hv [Hok Hn]]]]. pose proof (wf_cap s1 Hw1) as Hc.
    eapply spec_bind; [exact core_trans | | intros; mono_tac |].
    + eapply (spec_lift _ wf core s1 _ (NLit (Lit (VFF i) true)) (fun m s' => s' = s1 /\ m = NLit (Lit (VFF i) true))); auto using core_refl.
      apply unpack_lit; auto.
    + intros n s' _ _ [-> ->]. apply spec_ret; auto using core_refl.
      instantiate (1 := fun v s' => exists i, v = VFF i /\ var_ok s' (VFF i) /\ nthN (vt_vec (t_vars (f_tabs s'))) i = Some name).
      cbn. exists i. auto.
  - intros v s1 Hw1 Hc1 [i [-> [Hok Hn]]]. apply spec_ret; auto using core_refl.
    exists i. split; [apply vh_lit; exact Hok |]. split; [| assumption]. apply d_lit. apply unpack_lit; auto. apply (wf_cap s1 Hw1).
Qed.

Lemma encode_lits_denote : forall s ls, wf s -> Forall (lit_ok s) ls ->
  Forall (vh s) (map encode_lit ls) /\ Forall2 (denotes s) (map encode_lit ls) (map FLit ls).
Proof.
  intros s ls Hw H. induction H as [| l ls Hl H [IH1 IH2]]; cbn; [split; constructor |].
  split; constructor; auto.
  - apply vh_lit. assumption.
  - apply d_lit. apply unpack_lit; auto. apply (wf_cap s Hw).
Qed.

Lemma existsb_map : forall A B (f : B -> bool) (g : A -> B) l, existsb f (map g l) = existsb (fun x => f (g x)) l.
Proof. intros. induction l as [| a l IH]; cbn; [reflexivity |]. rewrite IH. reflexivity. Qed.
Lemma forallb_map : forall A B (f : B -> bool) (g : A -> B) l, forallb f (map g l) = forallb (fun x => f (g x)) l.
Proof. intros. induction l as [| a l IH]; cbn; [reflexivity |]. rewrite IH. reflexivity. Qed.

(** Truth value of a clause. *)
Definition clause_sem (v : valuation) (ls : list lit) : bool := existsb (lit_sem v) ls.

Lemma flat_map_leaf_lits : forall ls, flat_map leaves (map FLit ls) = map (fun l => LfVar (lit_var l)) ls.
Proof. induction ls as [| l ls IH]; cbn; [reflexivity |]. rewrite IH. reflexivity. Qed.

Lemma f_clause_result : forall s ls, wf s -> Forall (lit_ok s) ls ->
  spec wf core s (f_clause ls)
    (fun r s' => result s' r (fun v => clause_sem v ls) (map (fun l => LfVar (lit_var l)) ls)
                 /\ exists y, denotes s' r y /\ cnf_shape y = true /\ (forall l, y <> FAnd l)).
Proof.
  intros s ls Hw Hls. destruct (encode_lits_denote s ls Hw Hls) as [Hv Hd].
  eapply spec_conseq; [apply (nary_result s false (map encode_lit ls) (map FLit ls)); auto |].
  intros r s' Hw' Hcore [Hr Hsh]. split.
  - rewrite flat_map_leaf_lits in Hr. eapply result_conseq; [exact Hr | | apply incl_refl].
    intros v. cbn [nary_sem]. rewrite existsb_map. reflexivity.
  - destruct Hr as [Hvr [y [Hdy _]]]. exists y. split; [assumption |].
    assert (Hlit : forall h, flat_in s false (map encode_lit ls) h -> exists l, denotes s' h (FLit l)).
    { intros h [[Hin _] | [o [l [Ho [Hu _]]]]].
      - apply in_map_iff in Hin. destruct Hin as [l [<- Hl]]. exists l. apply d_lit.
        eapply unpack_ext; [apply Hcore |]. apply unpack_lit; [apply (wf_cap s Hw) |]. rewrite Forall_forall in Hls. auto.
      - apply in_map_iff in Ho. destruct Ho as [l' [<- Hl']]. rewrite unpack_lit in Hu; [discriminate | apply (wf_cap s Hw) |].
        rewrite Forall_forall in Hls. auto. }
    destruct Hsh as [-> | [-> | [Hf | [L [Hu HL]]]]].
    + pose proof (denotes_by_node s' (constant true) NTrue _ eq_refl Hdy) as Q. cbn in Q. subst y. split; [reflexivity | discriminate].
    + pose proof (denotes_by_node s' (constant false) NFalse _ eq_refl Hdy) as Q. cbn in Q. subst y. split; [reflexivity | discriminate].
    + destruct (Hlit r Hf) as [l Hl]. rewrite (denotes_fun _ _ _ _ Hdy Hl). split; [reflexivity | discriminate].
    + pose proof (denotes_by_node _ _ _ _ Hu Hdy) as Hn. cbn in Hn. destruct Hn as [ys [-> Hys]]. split; [| discriminate].
      cbn. apply forallb_forall. intros z Hz.
      assert (exists h, In h L /\ denotes s' h z) as [h [Hh Hdz]].
      { clear -Hys Hz. induction Hys as [| a b L ys Hab Hl IH]; [destruct Hz |]. destruct Hz as [-> | Hz].
        - exists a. split; [left; reflexivity | assumption].
        - destruct (IH Hz) as [h [? ?]]. exists h. split; [right |]; assumption. }
      destruct (Hlit h (HL h Hh)) as [l Hl]. rewrite (denotes_fun _ _ _ _ Hdz Hl). reflexivity.
Qed.
