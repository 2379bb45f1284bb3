(** Restriction and normalization of constraints. *)
From Coq Require Import NArith ZArith List Bool Lia Sorted.
From Verif Require Import Base EncodingModel EncodingProofs Syntax FactoryModel FactoryInv FactoryBasics FactoryProofs FactorySpecs
  FactoryNary FactoryOps EvalProofs ConstraintModel.
Import ListNotations.
Local Open Scope Z_scope.

Lemma mono_cc_restrict : forall c a, mono (cc_restrict c a).
Proof. intros. unfold cc_restrict. mono_tac. Qed.
Lemma mono_pbc_restrict : forall p a, mono (pbc_restrict p a).
Proof. intros. unfold pbc_restrict. mono_tac. Qed.
Lemma mono_reduce : forall fuel c sum cs ls, mono (reduce fuel c sum cs ls).
Proof. induction fuel as [| fuel IH]; intros; cbn [reduce]; mono_tac; apply IH. Qed.
Lemma mono_normalize_le : forall ls cs rhs, mono (normalize_le ls cs rhs).
Proof. intros. unfold normalize_le. destruct (collect _ _) as [[? ?] ?]. apply mono_reduce. Qed.
Global Hint Resolve mono_cc_restrict mono_pbc_restrict mono_reduce mono_normalize_le : mono.
Lemma mono_pbc_normalize : forall p, mono (pbc_normalize p).
Proof. intros. unfold pbc_normalize. mono_tac. Qed.
Global Hint Resolve mono_pbc_normalize : mono.

(** The valuations a partial assignment describes. *)
Definition extends (a : assignment) (v : valuation) : Prop :=
  forall x, (In x (a_pos a) -> v x = true) /\ (In x (a_neg a) -> v x = false).
(** The assignment says nothing about [x]. *)
Definition unassigned (a : assignment) (x : var) : Prop := ~ In x (a_pos a) /\ ~ In x (a_neg a).

Definition state_means (a : assignment) (l : lit) (t : lit_state) : Prop :=
  match t with
  | LsOpen => unassigned a (lit_var l)
  | LsTrue => (~ unassigned a (lit_var l)) /\ forall v, extends a v -> lit_sem v l = true
  | LsFalse => (~ unassigned a (lit_var l)) /\ forall v, extends a v -> lit_sem v l = false
  end.

Lemma lit_state_spec : forall s a l, cap s -> lit_ok s l -> exists t, lit_state_of a l = Ok t /\ state_means a l t.
Proof.
  intros s a [x p] Hc Hl. unfold lit_state_of, restrict_lit. cbn [lit_var lit_phase].
  destruct (memv x (a_pos a)) eqn:E1.
  - apply memv_In in E1. destruct p; cbn; eexists; (split; [reflexivity |]); cbn; (split; [intros [H _]; auto |]);
      intros v Hv; rewrite (proj1 (Hv x) E1); reflexivity.
  - destruct (memv x (a_neg a)) eqn:E2.
    + apply memv_In in E2. destruct p; cbn; eexists; (split; [reflexivity |]); cbn; (split; [intros [_ H]; auto |]);
        intros v Hv; rewrite (proj2 (Hv x) E2); reflexivity.
    + rewrite (type_lit s _ Hc Hl). exists LsOpen. split; [reflexivity |]. apply memv_false in E1, E2. split; assumption.
Qed.

Lemma cc_split_spec : forall s a, cap s -> forall vs, Forall (var_ok s) vs ->
  exists n r, cc_split a vs = Ok (n, r) /\ (forall v, extends a v -> count_true v vs = Z.of_N n + count_true v r)
              /\ incl r vs /\ Forall (unassigned a) r.
Proof.
  intros s a Hc vs. induction vs as [| x vs IH]; intros Hv.
  - exists 0%N, []. repeat split; auto using incl_refl.
  - inversion Hv as [| ? ? Hx Hr]; subst. destruct (IH Hr) as [n [r [E [Hs [Hi Hu]]]]].
    destruct (lit_state_spec s a (Lit x true) Hc Hx) as [t [Et Ht]]. cbn [cc_split]. rewrite Et. cbn [rbind]. rewrite E. cbn [rbind fst snd].
    destruct t; cbn [state_means lit_var] in Ht.
    + exists n, (x :: r). split; [reflexivity |]. split; [| split; [| constructor; assumption]].
      * intros v He. cbn [count_true]. rewrite (Hs v He). lia.
      * intros y [-> | Hy]; [left; reflexivity | right; auto].
    + exists (N.succ n), r. split; [reflexivity |]. split; [| split; [apply incl_tl; assumption | assumption]].
      intros v He. cbn [count_true]. rewrite (Hs v He). pose proof (proj2 Ht v He) as Hl. cbn in Hl. rewrite Hl. lia.
    + exists n, r. split; [reflexivity |]. split; [| split; [apply incl_tl; assumption | assumption]].
      intros v He. cbn [count_true]. rewrite (Hs v He). pose proof (proj2 Ht v He) as Hl. cbn in Hl. rewrite Hl. lia.
Qed.

(** The result of a restriction: same truth value below every extension; none of the assigned variables. *)
Definition restricted (s : factory) (a : assignment) (vs : list var) (S : valuation -> bool) (h : N) : Prop :=
  vh s h /\ exists y, denotes s h y /\ (forall v, extends a v -> sem v y = S v)
                      /\ (forall x, In x (fvars y) -> In x vs /\ unassigned a x).

Lemma restricted_constant : forall s a vs S b, (forall v, extends a v -> S v = b) -> restricted s a vs S (constant b).
Proof.
  intros s a vs S b H. destruct (result_v_constant s b (fun _ => b) [] (fun _ => eq_refl)) as [Hv [y [Hd [Hs Hl]]]].
  split; [assumption |]. exists y. split; [assumption |]. split; [intros v He; rewrite Hs; symmetry; auto |].
  intros x Hx. destruct (Hl x Hx).
Qed.

Lemma restricted_of : forall s a vs S S' vs' h, result_v s h S' vs' -> (forall v, extends a v -> S' v = S v) -> incl vs' vs ->
  Forall (unassigned a) vs' -> restricted s a vs S h.
Proof.
  intros s a vs S S' vs' h [Hv [y [Hd [Hs Hl]]]] HS Hi Hu. split; [assumption |]. exists y. split; [assumption |]. split.
  - intros v He. rewrite Hs. auto.
  - intros x Hx. rewrite Forall_forall in Hu. auto.
Qed.

Theorem cc_restrict_spec : forall s c a, wf s -> Forall (var_ok s) (cc_vars c) -> (cc_rhs c < 4294967296)%N ->
  (cc_cmp c = LT -> cc_rhs c <> 0%N) ->
  spec wf core s (cc_restrict c a) (fun r s' => restricted s' a (cc_vars c) (fun v => cc_sem v c) r).
Proof.
  intros s c a Hw Hv Hr Hlt. destruct (cc_split_spec s a (wf_cap s Hw) (cc_vars c) Hv) as [n [r [E [Hs [Hi Hu]]]]].
  unfold cc_restrict. eapply spec_bind; [exact core_trans | eapply spec_lift with (Q := fun nr s' => nr = (n, r) /\ s' = s) | intros; mono_tac |]; auto using core_refl.
  { exact E. }
  intros nr s' Hw' Hc' [-> ->]. cbn [fst snd].
  pose proof (fun v => count_true_nonneg v r) as Hnn.
  assert (Hsem : forall v, extends a v -> cc_sem v c = cmp_sem (cc_cmp c) (Z.of_N n + count_true v r) (Z.of_N (cc_rhs c))).
  { intros v He. unfold cc_sem. rewrite (Hs v He). reflexivity. }
  destruct (N.ltb_spec (cc_rhs c) n) as [H1 | H1].
  { destruct (cc_cmp c) eqn:Ec; (apply spec_ret; [assumption | apply core_refl |]);
      match goal with |- context[restricted _ _ _ _ verum] => apply (restricted_constant s a _ _ true)
                    | |- _ => apply (restricted_constant s a _ _ false) end;
      intros v He; rewrite (Hsem v He); cbn [cmp_sem]; specialize (Hnn v);
      rewrite ?Z.eqb_neq, ?Z.ltb_lt, ?Z.leb_le, ?Z.ltb_ge, ?Z.leb_gt; lia. }
  destruct (N.eqb_spec n (cc_rhs c)) as [H2 | H2]; destruct (ctype_eqb (cc_cmp c) LT) eqn:Ec; cbn [andb].
  { assert (cc_cmp c = LT) as El by (destruct (cc_cmp c); (reflexivity || discriminate)).
    apply spec_ret; [assumption | apply core_refl |]. apply (restricted_constant s a _ _ false).
    intros v He. rewrite (Hsem v He), El. cbn [cmp_sem]. specialize (Hnn v). rewrite Z.ltb_ge. lia. }
  all: (eapply spec_conseq;
    [apply f_cc_result; [assumption | rewrite Forall_forall in Hv |- *; auto | lia | intros El; rewrite El in Ec; try discriminate; lia] |]);
    intros h s' _ _ H; (eapply restricted_of; [exact H | | exact Hi | exact Hu]);
    intros v He; rewrite (Hsem v He); destruct (cc_cmp c); cbn [cmp_sem];
    match goal with
    | |- (?a =? ?b) = (?c =? ?d) => destruct (Z.eqb_spec a b), (Z.eqb_spec c d); try reflexivity; lia
    | |- (?a <? ?b) = (?c <? ?d) => destruct (Z.ltb_spec a b), (Z.ltb_spec c d); try reflexivity; lia
    | |- (?a <=? ?b) = (?c <=? ?d) => destruct (Z.leb_spec a b), (Z.leb_spec c d); try reflexivity; lia
    end.
Qed.

(* ------------------------------------------------------------------------------------------------------------------ *)
(** * Restricting a pseudo-Boolean constraint *)

(** The weight of the literals the assignment makes true. *)
Fixpoint fixed_weight (a : assignment) (ls : list lit) (cs : list Z) : Z :=
  match ls, cs with
  | l :: ls', c :: cs' =>
      (if memv (lit_var l) (a_pos a) then (if lit_phase l then c else 0)
       else if memv (lit_var l) (a_neg a) then (if lit_phase l then 0 else c) else 0) + fixed_weight a ls' cs'
  | _, _ => 0
  end.

Lemma lit_state_fixed : forall s a l t c, cap s -> lit_ok s l -> lit_state_of a l = Ok t ->
  (if memv (lit_var l) (a_pos a) then (if lit_phase l then c else 0)
   else if memv (lit_var l) (a_neg a) then (if lit_phase l then 0 else c) else 0) = match t with LsTrue => c | _ => 0 end.
Proof.
  intros s a [x p] t c Hc Hl. unfold lit_state_of, restrict_lit. cbn [lit_var lit_phase].
  destruct (memv x (a_pos a)); [destruct p; cbn; intros H; injection H as <-; reflexivity |].
  destruct (memv x (a_neg a)); [destruct p; cbn; intros H; injection H as <-; reflexivity |].
  rewrite (type_lit s _ Hc Hl). intros H; injection H as <-. reflexivity.
Qed.

Lemma fixed_weight_bound : forall a ls cs, Z.abs (fixed_weight a ls cs) <= sum_abs cs.
Proof.
  intros a ls. induction ls as [| l ls IH]; intros [| c cs]; cbn [fixed_weight]; try (cbn; lia).
  - pose proof (sum_abs_nonneg (c :: cs)). cbn in *. lia.
  - specialize (IH cs). cbn [sum_abs fold_right]. fold (sum_abs cs).
    destruct (memv _ _); [destruct (lit_phase l) | destruct (memv _ _); [destruct (lit_phase l) |]]; lia.
Qed.

Definition B63 : Z := 9223372036854775808.

Lemma pbc_split_spec : forall s a, cap s -> forall ls cs p, Forall (lit_ok s) ls -> length ls = length cs ->
  Z.abs (pp_fixed p) + Z.abs (pp_min p) + Z.abs (pp_max p) + sum_abs cs < B63 ->
  exists q ls' cs', pbc_split a ls cs p = Ok q
    /\ pp_lits q = pp_lits p ++ ls' /\ pp_coeffs q = pp_coeffs p ++ cs' /\ length ls' = length cs'
    /\ pp_fixed q = pp_fixed p + fixed_weight a ls cs
    /\ (forall v, extends a v -> weight v ls cs = fixed_weight a ls cs + weight v ls' cs')
    /\ (forall v, pp_min q - pp_min p <= weight v ls' cs' <= pp_max q - pp_max p)
    /\ (forallb (fun x => Z.eqb x 1) cs' = true -> pp_max q - pp_max p = Z.of_nat (length ls'))
    /\ Z.abs (fixed_weight a ls cs) + sum_abs cs' <= sum_abs cs
    /\ (length ls' <= length ls)%nat
    /\ incl ls' ls /\ Forall (unassigned a) (map lit_var ls').
Proof.
  intros s a Hcap ls. induction ls as [| l ls IH]; intros [| c cs] p Hl Hlen Hb; try discriminate.
  - exists p, [], []. cbn. rewrite !app_nil_r. repeat split; try lia; auto using incl_refl. 
  - inversion Hl as [| ? ? Hl1 Hl2]; subst. destruct (lit_state_spec s a l Hcap Hl1) as [t [Et Ht]].
    pose proof (lit_state_fixed s a l t c Hcap Hl1 Et) as Hfx. cbn [pbc_split fixed_weight]. rewrite Et, Hfx. cbn [rbind].
    cbn [sum_abs fold_right] in Hb. fold (sum_abs cs) in Hb. pose proof (sum_abs_nonneg cs) as Hnn. unfold B63 in *.
    cbn [length] in Hlen. assert (Hlen' : length ls = length cs) by lia.
    pose proof (fun v => weight v ls cs) as _.
    destruct t; cbn [state_means] in Ht.
    + destruct (0 <? c) eqn:Ec; [apply Z.ltb_lt in Ec | apply Z.ltb_ge in Ec].
      * rewrite wrap64_id by lia.
        destruct (IH cs (mkParts (pp_lits p ++ [l]) (pp_coeffs p ++ [c]) (pp_fixed p) (pp_min p) (pp_max p + c)) Hl2 Hlen')
          as [q [ls' [cs' [E [H1 [H2 [H3 [H4 [H5 [H6 [H7 [H8 [H9 [H10 H11]]]]]]]]]]]]]]; [cbn; lia |].
        cbn [pp_lits pp_coeffs pp_fixed pp_min pp_max] in *.
        exists q, (l :: ls'), (c :: cs'). rewrite E, H1, H2, <- !app_assoc. split; [reflexivity |]. split; [reflexivity |]. split; [reflexivity |].
        split; [cbn; lia |]. split; [lia |]. split; [intros v He; cbn [weight]; rewrite (H5 v He); lia |].
        split; [intros v; cbn [weight]; specialize (H6 v); destruct (lit_sem v l); lia |].
        split; [cbn [forallb length]; intros Hf; apply andb_true_iff in Hf; destruct Hf as [Hf1 Hf2]; apply Z.eqb_eq in Hf1; specialize (H7 Hf2); lia |].
        split; [cbn [sum_abs fold_right]; fold (sum_abs cs) (sum_abs cs'); lia |]. split; [cbn; lia |].
        split; [intros y [<- | Hy]; [left; reflexivity | right; auto] |]. cbn. constructor; assumption.
      * rewrite wrap64_id by lia.
        destruct (IH cs (mkParts (pp_lits p ++ [l]) (pp_coeffs p ++ [c]) (pp_fixed p) (pp_min p + c) (pp_max p)) Hl2 Hlen')
          as [q [ls' [cs' [E [H1 [H2 [H3 [H4 [H5 [H6 [H7 [H8 [H9 [H10 H11]]]]]]]]]]]]]]; [cbn; lia |].
        cbn [pp_lits pp_coeffs pp_fixed pp_min pp_max] in *.
        exists q, (l :: ls'), (c :: cs'). rewrite E, H1, H2, <- !app_assoc. split; [reflexivity |]. split; [reflexivity |]. split; [reflexivity |].
        split; [cbn; lia |]. split; [lia |]. split; [intros v He; cbn [weight]; rewrite (H5 v He); lia |].
        split; [intros v; cbn [weight]; specialize (H6 v); destruct (lit_sem v l); lia |].
        split; [cbn [forallb length]; intros Hf; apply andb_true_iff in Hf; destruct Hf as [Hf1 Hf2]; apply Z.eqb_eq in Hf1; lia |].
        split; [cbn [sum_abs fold_right]; fold (sum_abs cs) (sum_abs cs'); lia |]. split; [cbn; lia |].
        split; [intros y [<- | Hy]; [left; reflexivity | right; auto] |]. cbn. constructor; assumption.
    + rewrite wrap64_id by lia.
      destruct (IH cs (mkParts (pp_lits p) (pp_coeffs p) (pp_fixed p + c) (pp_min p) (pp_max p)) Hl2 Hlen')
        as [q [ls' [cs' [E [H1 [H2 [H3 [H4 [H5 [H6 [H7 [H8 [H9 [H10 H11]]]]]]]]]]]]]]; [cbn; lia |].
      cbn [pp_lits pp_coeffs pp_fixed pp_min pp_max] in *.
      exists q, ls', cs'. split; [assumption |]. split; [assumption |]. split; [assumption |]. split; [assumption |].
      split; [lia |]. split; [intros v He; cbn [weight]; rewrite (H5 v He), (proj2 Ht v He); lia |].
      split; [assumption |]. split; [assumption |]. split; [cbn [sum_abs fold_right]; fold (sum_abs cs) (sum_abs cs'); lia |].
      split; [cbn; lia |]. split; [apply incl_tl; assumption | assumption].
    + destruct (IH cs p Hl2 Hlen')
        as [q [ls' [cs' [E [H1 [H2 [H3 [H4 [H5 [H6 [H7 [H8 [H9 [H10 H11]]]]]]]]]]]]]]; [lia |].
      exists q, ls', cs'. split; [assumption |]. split; [assumption |]. split; [assumption |]. split; [assumption |].
      split; [lia |]. split; [intros v He; cbn [weight]; rewrite (H5 v He), (proj2 Ht v He); lia |].
      split; [assumption |]. split; [assumption |]. split; [cbn [sum_abs fold_right]; fold (sum_abs cs) (sum_abs cs'); lia |].
      split; [cbn; lia |]. split; [apply incl_tl; assumption | assumption].
Qed.

Lemma evaluate_comparator_sem : forall x c y, evaluate_comparator x c y = cmp_sem c x y.
Proof. intros x c y. destruct c; cbn; try reflexivity; [apply Z.gtb_ltb | apply Z.geb_leb]. Qed.

Lemma evaluate_coeffs_spec : forall mn mx rhs c, mn <= mx -> c <> EQ ->
  match evaluate_coeffs mn mx rhs c with
  | TsTrue => forall w, mn <= w <= mx -> cmp_sem c w rhs = true
  | TsFalse => forall w, mn <= w <= mx -> cmp_sem c w rhs = false
  | TsUndef => mn <= rhs <= mx
  end.
Proof.
  intros mn mx rhs c Hm Hc. unfold evaluate_coeffs.
  destruct (Z.leb_spec mn rhs), (Z.ltb_spec mn rhs), (Z.leb_spec mx rhs), (Z.ltb_spec mx rhs); try lia;
    destruct c; try congruence; cbn; try lia; intros w Hw; rewrite ?Z.eqb_neq, ?Z.ltb_lt, ?Z.leb_le, ?Z.ltb_ge, ?Z.leb_gt; lia.
Qed.

Lemma cmp_shift : forall c k w rhs, cmp_sem c w (rhs - k) = cmp_sem c (k + w) rhs.
Proof.
  intros c k w rhs. destruct c; cbn [cmp_sem];
    match goal with
    | |- (?a =? ?b) = (?c =? ?d) => destruct (Z.eqb_spec a b), (Z.eqb_spec c d); try reflexivity; lia
    | |- (?a <? ?b) = (?c <? ?d) => destruct (Z.ltb_spec a b), (Z.ltb_spec c d); try reflexivity; lia
    | |- (?a <=? ?b) = (?c <=? ?d) => destruct (Z.leb_spec a b), (Z.leb_spec c d); try reflexivity; lia
    end.
Qed.

Theorem pbc_restrict_spec : forall s p a, wf s -> Forall (lit_ok s) (pb_lits p) -> length (pb_lits p) = length (pb_coeffs p) ->
  sum_abs (pb_coeffs p) + Z.abs (pb_rhs p) < B63 -> Z.of_nat (length (pb_lits p)) < 4294967296 ->
  (pb_cmp p = EQ -> pb_rhs p - fixed_weight a (pb_lits p) (pb_coeffs p) < 4294967296) ->
  spec wf core s (pbc_restrict p a) (fun r s' => restricted s' a (map lit_var (pb_lits p)) (fun v => pbc_sem v p) r).
Proof.
  intros s p a Hw Hl Hlen Hb Hn Heq.
  destruct (pbc_split_spec s a (wf_cap s Hw) (pb_lits p) (pb_coeffs p) (mkParts [] [] 0 0 0) Hl Hlen)
    as [q [ls' [cs' [E [H1 [H2 [H3 [H4 [H5 [H6 [H7 [H8 [H9 [H10 H11]]]]]]]]]]]]]]; [cbn [pp_fixed pp_min pp_max]; lia |].
  cbn [pp_lits pp_coeffs pp_fixed pp_min pp_max] in *. rewrite app_nil_l in H1, H2.
  unfold pbc_restrict. eapply spec_bind; [exact core_trans | eapply spec_lift with (Q := fun x s' => x = q /\ s' = s) | intros; mono_tac |]; auto using core_refl.
  { exact E. }
  intros x s' Hw' Hc' [-> ->]. set (k := fixed_weight a (pb_lits p) (pb_coeffs p)) in *. rewrite Z.add_0_l in H4.
  assert (Hsem : forall v, extends a v -> pbc_sem v p = cmp_sem (pb_cmp p) (k + weight v ls' cs') (pb_rhs p)).
  { intros v He. unfold pbc_sem. rewrite (H5 v He). reflexivity. }
  destruct (pp_lits q) as [| l0 lr] eqn:Eq.
  { apply spec_ret; [assumption | apply core_refl |]. apply restricted_constant. intros v He. rewrite (Hsem v He), evaluate_comparator_sem, <- H1, H4.
    cbn [weight]. f_equal. lia. }
  pose proof (sum_abs_nonneg cs') as Hnn. unfold B63 in *. rewrite H4, wrap64_id by lia.
  set (m := if ctype_eqb (pb_cmp p) EQ then TsUndef else _).
  assert (Hm : match m with
    | TsTrue => forall v, extends a v -> pbc_sem v p = true
    | TsFalse => forall v, extends a v -> pbc_sem v p = false
    | TsUndef => pb_cmp p = EQ \/ pp_min q <= pb_rhs p - k <= pp_max q
    end).
  { unfold m. destruct (ctype_eqb (pb_cmp p) EQ) eqn:Ec; [left; destruct (pb_cmp p); (reflexivity || discriminate) |].
    assert (Hne : pb_cmp p <> EQ) by (intros X; rewrite X in Ec; discriminate).
    pose proof (H6 (fun _ => true)) as Hmm.
    pose proof (evaluate_coeffs_spec (pp_min q) (pp_max q) (pb_rhs p - k) (pb_cmp p) ltac:(lia) Hne) as He.
    destruct (evaluate_coeffs _ _ _ _); [| | right; assumption];
      intros v Hv; rewrite (Hsem v Hv), <- cmp_shift; apply He; specialize (H6 v); lia. }
  clearbody m. destruct m.
  - apply spec_ret; [assumption | apply core_refl |]. apply (restricted_constant s a _ _ true Hm).
  - apply spec_ret; [assumption | apply core_refl |]. apply (restricted_constant s a _ _ false Hm).
  - rewrite H1, H2. eapply spec_conseq; [apply f_pbc_result; [assumption | | assumption |] |].
    + rewrite Forall_forall in Hl |- *. auto.
    + intros Hcc. unfold is_lit_cc in Hcc. apply andb_true_iff in Hcc. destruct Hcc as [Hcc Hcc3].
      destruct Hm as [Hm | Hm]; [specialize (Heq Hm); lia |].
      apply andb_true_iff in Hcc. destruct Hcc as [Hcc1 Hcc2].
      assert (Hones : forallb (fun x => x =? 1) cs' = true) by (first [exact Hcc1 | exact Hcc2]).
      specialize (H7 Hones). lia.
    + intros h s' _ _ H. eapply restricted_of; [exact H | | | exact H11].
      * intros v He. rewrite (Hsem v He). apply cmp_shift.
      * intros y Hy. apply in_map_iff in Hy. destruct Hy as [z [<- Hz]]. apply in_map. auto.
Qed.

(* ------------------------------------------------------------------------------------------------------------------ *)
(** * Normalization *)

(** [Z.gcd] is what the recursion of [gcd] (pbc_cc.rs 703) computes. *)
Lemma gcd_step : forall small big, 0 <= small -> 0 <= big -> gcd small big = if small =? 0 then big else gcd (Z.rem big small) small.
Proof.
  intros a b Ha Hb. unfold gcd. destruct (Z.eqb_spec a 0) as [-> | Hn].
  - rewrite Z.gcd_0_l. lia.
  - rewrite Z.rem_mod_nonneg by lia. rewrite Z.gcd_mod by assumption. reflexivity.
Qed.

(** ** The order of the variables *)

Lemma var_ltb_irrefl : forall x, var_ltb x x = false.
Proof. intros [i | a i]; cbn; [apply N.ltb_irrefl |]. rewrite N.eqb_refl. rewrite !N.ltb_irrefl. reflexivity. Qed.

Lemma aux_rank_inj : forall a b, aux_rank a = aux_rank b -> a = b.
Proof. intros [] [] H; cbn in H; (reflexivity || discriminate). Qed.

Lemma var_ltb_trans : forall x y z, var_ltb x y = true -> var_ltb y z = true -> var_ltb x z = true.
Proof.
  intros [i | a i] [j | b j] [k | c k]; cbn; try reflexivity; try discriminate.
  - rewrite !N.ltb_lt. lia.
  - rewrite !orb_true_iff, !andb_true_iff, !N.ltb_lt, !N.eqb_eq. lia.
Qed.

Lemma var_ltb_total : forall x y, var_ltb x y = false -> var_eqb x y = false -> var_ltb y x = true.
Proof.
  intros x y H1 H2. assert (Hne : x <> y) by (intros X; apply var_eqb_spec in X; congruence). clear H2.
  destruct x as [i | a i], y as [j | b j]; cbn in *; try reflexivity; try discriminate.
  - apply N.ltb_ge in H1. apply N.ltb_lt. assert (i <> j) by congruence. lia.
  - apply orb_false_iff in H1. destruct H1 as [H1 H3]. apply N.ltb_ge in H1. apply orb_true_iff. rewrite andb_true_iff, !N.ltb_lt, N.eqb_eq.
    apply andb_false_iff in H3. rewrite N.eqb_neq, N.ltb_ge in H3.
    destruct (N.eq_dec (aux_rank a) (aux_rank b)) as [He | He]; [| lia]. apply aux_rank_inj in He. subst b.
    assert (i <> j) by congruence. right. split; [reflexivity |]. lia.
Qed.

Definition sortedm {A} (m : list (var * A)) : Prop := StronglySorted (fun x y => var_ltb x y = true) (map fst m).

Lemma vm_update_keys : forall A x d (g : A -> A) m y, In y (map fst (vm_update x d g m)) <-> y = x \/ In y (map fst m).
Proof.
  intros A x d g m y. induction m as [| [z e] m IH]; cbn; [intuition |].
  destruct (var_ltb x z); [cbn; intuition |]. destruct (var_eqb x z) eqn:E.
  - apply var_eqb_spec in E. subst z. cbn. intuition.
  - cbn. rewrite IH. intuition.
Qed.

Lemma vm_update_sorted : forall A x d (g : A -> A) m, sortedm m -> sortedm (vm_update x d g m).
Proof.
  unfold sortedm. intros A x d g m. induction m as [| [z e] m IH]; intros H; cbn.
  - constructor; constructor.
  - cbn in H. inversion H as [| ? ? H1 H2]; subst. destruct (var_ltb x z) eqn:E1.
    + cbn. constructor; [assumption |]. constructor; [assumption |]. rewrite Forall_forall in *. intros y Hy. eapply var_ltb_trans; eauto.
    + destruct (var_eqb x z) eqn:E2.
      * apply var_eqb_spec in E2. subst z. cbn. assumption.
      * cbn. constructor; [auto |]. rewrite Forall_forall in *. intros y Hy. apply vm_update_keys in Hy. destruct Hy as [-> | Hy]; auto.
        apply var_ltb_total; assumption.
Qed.

Lemma sorted_NoDup : forall l, StronglySorted (fun x y => var_ltb x y = true) l -> NoDup l.
Proof.
  induction 1 as [| x l H1 IH H2]; constructor; auto. intros Hx. rewrite Forall_forall in H2. specialize (H2 _ Hx).
  rewrite var_ltb_irrefl in H2. discriminate.
Qed.

(** ** The map *)

Fixpoint msum (v : valuation) (m : list (var * (Z * Z))) : Z :=
  match m with
  | [] => 0
  | (x, (first, second)) :: r => (if v x then second else first) + msum v r
  end.
Fixpoint mabs (m : list (var * (Z * Z))) : Z :=
  match m with
  | [] => 0
  | (x, (first, second)) :: r => Z.abs first + Z.abs second + mabs r
  end.
Lemma mabs_nonneg : forall m, 0 <= mabs m.
Proof. induction m as [| [x [f s]] m IH]; cbn [mabs]; lia. Qed.

Lemma vm_update_sum : forall l c m, mabs m + Z.abs c < B63 ->
  let m' := vm_update (lit_var l) (0, 0) (fun p => if lit_phase l then (fst p, wrap64 (snd p + c)) else (wrap64 (fst p + c), snd p)) m in
  (forall v, msum v m' = msum v m + (if lit_sem v l then c else 0)) /\ mabs m' <= mabs m + Z.abs c /\ (length m' <= S (length m))%nat.
Proof.
  intros [x p] c m. cbn [lit_var lit_phase]. unfold B63. induction m as [| [y [f s]] m IH]; intros Hb.
  - cbn [vm_update fst snd mabs] in *. destruct p; cbn [fst snd]; rewrite wrap64_id by lia; (split; [| split; cbn; lia]);
      intros v; cbn; destruct (v x); cbn; lia.
  - cbn [vm_update fst snd]. cbn [mabs] in Hb. pose proof (mabs_nonneg m). destruct (var_ltb x y).
    + destruct p; cbn [fst snd]; rewrite wrap64_id by lia; (split; [| split; cbn [mabs length]; lia]);
        intros v; cbn; destruct (v x); cbn; lia.
    + destruct (var_eqb x y) eqn:E.
      * apply var_eqb_spec in E. subst y. destruct p; cbn [fst snd]; rewrite wrap64_id by lia; (split; [| split; cbn [mabs length]; lia]);
          intros v; cbn; destruct (v x); cbn; lia.
      * cbn in IH. destruct IH as [I1 [I2 I3]]; [lia |]. split; [| split; cbn [mabs length]; lia].
        intros v. cbn [msum]. rewrite I1. cbn [lit_sem]. lia.
Qed.

Lemma var2consts_spec : forall ls cs m, length ls = length cs -> sortedm m -> mabs m + sum_abs cs < B63 ->
  let m' := var2consts ls cs m in
  sortedm m' /\ (forall v, msum v m' = msum v m + weight v ls cs) /\ mabs m' <= mabs m + sum_abs cs
  /\ (forall x, In x (map fst m') -> In x (map fst m) \/ In x (map lit_var ls)) /\ (length m' <= length m + length ls)%nat.
Proof.
  intros ls. induction ls as [| l ls IH]; intros [| c cs] m Hlen Hs Hb; try discriminate.
  - cbn. cbn in Hb. split; [assumption |]. split; [intros; lia |]. split; [lia |]. split; [auto | lia].
  - cbn [var2consts]. cbn [sum_abs fold_right] in *. fold (sum_abs cs) in *. cbn [length] in Hlen. pose proof (sum_abs_nonneg cs).
    destruct (Z.eqb_spec c 0) as [-> | Hc].
    + destruct (IH cs m ltac:(lia) Hs ltac:(lia)) as [H1 [H2 [H3 [H4 H5]]]]. split; [assumption |]. split.
      * intros v. rewrite H2. cbn [weight]. destruct (lit_sem v l); lia.
      * split; [lia |]. split; [| cbn [length]; lia]. intros x Hx. cbn [map]. destruct (H4 x Hx); [auto | right; right; assumption].
    + destruct (vm_update_sum l c m) as [V1 [V2 V3]]; [lia |].
      destruct (IH cs (vm_update (lit_var l) (0, 0) (fun p => if lit_phase l then (fst p, wrap64 (snd p + c)) else (wrap64 (fst p + c), snd p)) m)
        ltac:(lia) (vm_update_sorted _ _ _ _ _ Hs) ltac:(lia)) as [H1 [H2 [H3 [H4 H5]]]].
      split; [assumption |]. split.
      * intros v. rewrite H2, V1. cbn [weight]. lia.
      * split; [lia |]. split; [| cbn [length]; lia]. intros x Hx. cbn [map]. destruct (H4 x Hx) as [H' | H']; [| right; right; assumption].
        apply vm_update_keys in H'. destruct H' as [-> | H']; [right; left; reflexivity | left; assumption].
Qed.

Definition zsum (cs : list Z) : Z := fold_right Z.add 0 cs.

Lemma collect_spec : forall m c, Z.abs c + mabs m < B63 ->
  exists c' cs ls, collect m c = (c', cs, ls) /\ length ls = length cs /\ Forall (fun x => 0 < x) cs /\ incl (map lit_var ls) (map fst m)
    /\ (NoDup (map fst m) -> NoDup (map lit_var ls)) /\ (forall v, weight v ls cs - c' = msum v m - c)
    /\ zsum cs <= mabs m /\ (length ls <= length m)%nat.
Proof.
  intros m. unfold B63. induction m as [| [x [f s]] m IH]; intros c Hb.
  - exists c, [], []. cbn in *. split; [reflexivity |]. split; [reflexivity |]. split; [constructor |]. split; [apply incl_refl |].
    split; [auto |]. split; [intros; lia |]. split; lia.
  - cbn [mabs] in Hb. pose proof (mabs_nonneg m). cbn [collect]. destruct (Z.ltb_spec f s) as [Hfs | Hfs].
    + rewrite !wrap64_id by lia.
      destruct (IH (c - f) ltac:(lia)) as [c' [cs [ls [E [H1 [H2 [H3 [H4 [H5 [H6 H7]]]]]]]]]]. rewrite E.
      destruct (Z.eqb_spec (s - f) 0) as [H0 | H0]; [lia |].
      exists c', (s - f :: cs), (Lit x true :: ls). split; [reflexivity |]. cbn [length map lit_var fst].
      split; [lia |]. split; [constructor; [lia | assumption] |].
      split; [intros y [<- | Hy]; [left; reflexivity | right; auto] |].
      split; [intros Hn; inversion Hn; subst; constructor; auto |].
      split; [intros v; cbn [weight lit_sem msum]; specialize (H5 v); destruct (v x); cbn [Bool.eqb]; lia |].
      cbn [zsum fold_right mabs]. fold (zsum cs). split; lia.
    + rewrite !wrap64_id by lia.
      destruct (IH (c - s) ltac:(lia)) as [c' [cs [ls [E [H1 [H2 [H3 [H4 [H5 [H6 H7]]]]]]]]]]. rewrite E.
      destruct (Z.eqb_spec (f - s) 0) as [H0 | H0].
      * exists c', cs, ls. split; [reflexivity |]. cbn [map fst length mabs].
        split; [assumption |]. split; [assumption |]. split; [apply incl_tl; assumption |].
        split; [intros Hn; inversion Hn; subst; auto |].
        split; [intros v; cbn [msum]; specialize (H5 v); destruct (v x); lia |]. split; lia.
      * exists c', (f - s :: cs), (Lit x false :: ls). split; [reflexivity |]. cbn [length map lit_var fst].
        split; [lia |]. split; [constructor; [lia | assumption] |].
        split; [intros y [<- | Hy]; [left; reflexivity | right; auto] |].
        split; [intros Hn; inversion Hn; subst; constructor; auto |].
        split; [intros v; cbn [weight lit_sem msum]; specialize (H5 v); destruct (v x); cbn [Bool.eqb negb]; lia |].
        cbn [zsum fold_right mabs]. fold (zsum cs). split; lia.
Qed.

Lemma zsum_nonneg : forall cs, Forall (fun x => 0 < x) cs -> 0 <= zsum cs.
Proof. induction 1 as [| c cs H1 H2 IH]; cbn; [lia |]. unfold zsum in IH. lia. Qed.

Lemma wrap_sum_ok : forall cs, Forall (fun x => 0 < x) cs -> zsum cs < B63 -> wrap_sum cs = zsum cs.
Proof.
  unfold wrap_sum, B63. intros cs Hp Hb.
  enough (forall n, 0 <= n -> n + zsum cs < 9223372036854775808 -> fold_left (fun s c => wrap64 (s + c)) cs n = n + zsum cs) as E
    by (rewrite E; lia).
  clear Hb. induction Hp as [| c cs H1 H2 IH]; intros n Hn Hb; cbn; [lia |]. cbn [zsum fold_right] in Hb. fold (zsum cs) in *.
  pose proof (zsum_nonneg cs H2). rewrite wrap64_id by lia. rewrite IH by lia. lia.
Qed.

Lemma weight_bounds : forall v ls cs, length ls = length cs -> Forall (fun x => 0 < x) cs -> 0 <= weight v ls cs <= zsum cs.
Proof.
  intros v ls. induction ls as [| l ls IH]; intros [| c cs] Hl Hp; try discriminate; cbn [weight zsum fold_right]; [lia |].
  fold (zsum cs). inversion Hp; subst. cbn [length] in Hl. specialize (IH cs ltac:(lia) ltac:(assumption)). destruct (lit_sem v l); lia.
Qed.

(** ** The loop *)

Lemma gcd_fold_nonneg : forall cs c, 0 <= c -> 0 <= fold_left gcd cs c.
Proof. induction cs as [| e cs IH]; intros c H; cbn; [assumption |]. apply IH. apply Z.gcd_nonneg. Qed.
Lemma gcd_fold_divides : forall cs c, (fold_left gcd cs c | c) /\ Forall (fun e => (fold_left gcd cs c | e)) cs.
Proof.
  induction cs as [| e cs IH]; intros c; cbn [fold_left]; [split; [apply Z.divide_refl | constructor] |].
  destruct (IH (gcd c e)) as [H1 H2]. split; [eapply Z.divide_trans; [exact H1 | apply Z.gcd_divide_l] |].
  constructor; [eapply Z.divide_trans; [exact H1 | apply Z.gcd_divide_r] | assumption].
Qed.
Lemma gcd_fold_mul : forall d cs c, 0 <= d -> fold_left gcd (map (Z.mul d) cs) (d * c) = d * fold_left gcd cs c \/ (cs = [] ).
Proof.
  intros d cs. induction cs as [| e cs IH]; intros c Hd; cbn; [right; reflexivity |]. left.
  unfold gcd at 2. rewrite Z.gcd_mul_mono_l_nonneg by assumption.
  destruct (IH (Z.gcd c e) Hd) as [E | ->]; [exact E | reflexivity].
Qed.

Lemma weight_mul : forall d v ls cs, weight v ls (map (Z.mul d) cs) = d * weight v ls cs.
Proof.
  intros d v ls. induction ls as [| l ls IH]; intros [| c cs]; cbn [weight map]; try lia. rewrite IH. destruct (lit_sem v l); lia.
Qed.
Lemma zsum_mul : forall d cs, zsum (map (Z.mul d) cs) = d * zsum cs.
Proof. intros d cs. induction cs as [| c cs IH]; cbn; [lia |]. fold (zsum cs) (zsum (map (Z.mul d) cs)). rewrite IH. lia. Qed.

Lemma quot_mul_map : forall d cs, d <> 0 -> map (fun e => Z.quot e d) (map (Z.mul d) cs) = cs.
Proof. intros d cs Hd. rewrite map_map. rewrite <- (map_id cs) at 2. apply map_ext. intros e. rewrite Z.mul_comm. apply Z.quot_mul. assumption. Qed.

Lemma divisible_factor : forall d cs, Forall (fun e => (d | e)) cs -> exists es, cs = map (Z.mul d) es.
Proof.
  intros d cs H. induction H as [| c cs [q Hq] H2 [es ->]]; [exists []; reflexivity |]. exists (q :: es). cbn. f_equal. lia.
Qed.

(** The shape of a normalized formula. *)
Definition le_form (x : fml) : Prop :=
  match x with
  | FTrue | FFalse => True
  | FCc k => cc_cmp k = LE /\ NoDup (cc_vars k) /\ (cc_rhs k < N.of_nat (length (cc_vars k)))%N
  | FPbc p => pb_cmp p = LE /\ NoDup (map lit_var (pb_lits p)) /\ length (pb_lits p) = length (pb_coeffs p)
              /\ Forall (fun c => 0 < c) (pb_coeffs p) /\ 0 <= pb_rhs p < zsum (pb_coeffs p)
              /\ fold_left Z.gcd (pb_coeffs p) (pb_rhs p) = 1
  | _ => False
  end.

(** Its size. *)
Definition le_bound (B : Z) (n : nat) (x : fml) : Prop :=
  match x with
  | FCc k => (length (cc_vars k) <= n)%nat
  | FPbc p => zsum (pb_coeffs p) <= B /\ (length (pb_lits p) <= n)%nat
  | _ => True
  end.
Lemma le_bound_mono : forall B B' n n' x, B <= B' -> (n <= n')%nat -> le_bound B n x -> le_bound B' n' x.
Proof. intros B B' n n' x HB Hn. destruct x; cbn; lia. Qed.
Definition le_ok (B : Z) (n : nat) (x : fml) : Prop := le_form x /\ le_bound B n x.

Definition normal (s : factory) (S : valuation -> bool) (vs : list var) (B : Z) (n : nat) (h : N) : Prop :=
  vh s h /\ exists y, denotes s h y /\ (forall v, sem v y = S v) /\ incl (fvars y) vs /\ le_ok B n y.

Lemma normal_constant : forall s b S vs B n, (forall v, S v = b) -> normal s S vs B n (constant b).
Proof.
  intros s b S vs B n H. split; [apply vh_constant |]. exists (if b then FTrue else FFalse). destruct b; (split; [constructor; reflexivity |]);
    (split; [intros v; symmetry; apply H |]); (split; [intros x Hx; destruct Hx | split; exact I]).
Qed.

Lemma zsum_ones : forall cs, forallb (fun x => x =? 1) cs = true -> zsum cs = Z.of_nat (length cs).
Proof.
  induction cs as [| c cs IH]; intros H; [reflexivity |]. cbn [forallb] in H. apply andb_true_iff in H. destruct H as [H1 H2].
  apply Z.eqb_eq in H1. cbn [zsum fold_right length]. fold (zsum cs). rewrite (IH H2). lia.
Qed.

Lemma f_pbc_normal : forall s c ls cs, wf s -> Forall (lit_ok s) ls -> length ls = length cs -> Z.of_nat (length ls) < 4294967296 ->
  Forall (fun x => 0 < x) cs -> 0 <= c < zsum cs -> NoDup (map lit_var ls) -> fold_left gcd cs c = 1 ->
  spec wf core s (f_pbc LE c ls cs) (fun r s' => normal s' (fun v => weight v ls cs <=? c) (map lit_var ls) (zsum cs) (length ls) r).
Proof.
  intros s c ls cs Hw Hl Hlen Hn Hp Hc Hd Hg. unfold f_pbc. rewrite (proj2 (Nat.eqb_eq _ _) Hlen). destruct ls as [| l ls].
  - destruct cs; [cbn in Hc; lia | discriminate].
  - destruct (is_lit_cc LE c (l :: ls) cs) eqn:E.
    + assert (Hones : forallb (fun x => x =? 1) cs = true /\ forallb lit_phase (l :: ls) = true).
      { unfold is_lit_cc in E. apply andb_true_iff in E. destruct E as [E _]. apply andb_true_iff in E. tauto. }
      destruct Hones as [Ho Hph]. pose proof (zsum_ones cs Ho) as Hz. unfold construct_cc_unsafe. cbn [map].
      rewrite (proj2 (Z.leb_le 0 c)) by lia. rewrite z_as_u32_small by lia.
      eapply spec_conseq; [apply cc_insert_spec; auto |].
      * discriminate.
      * cbn [cc_vars]. change (lit_var l :: map lit_var ls) with (map lit_var (l :: ls)). apply Forall_map. exact Hl.
      * cbn [cc_rhs]. lia.
      * cbn [cc_cmp]. discriminate.
      * intros r s' _ _ [Hv Hu]. split; [assumption |]. eexists. split; [apply d_cc; exact Hu |]. split; [| split].
        -- intros v. cbn [sem]. unfold cc_sem. cbn [cc_cmp cc_vars cc_rhs cmp_sem]. rewrite Z2N.id by lia.
           rewrite (weight_ones v (l :: ls) cs Hlen Hph Ho). reflexivity.
        -- unfold fvars. cbn. rewrite app_nil_r. apply incl_refl.
        -- split; [| cbn [le_bound cc_vars length]; rewrite map_length; lia]. cbn [le_form cc_cmp cc_vars cc_rhs]. split; [reflexivity |].
           split; [exact Hd |]. cbn [length] in *. rewrite map_length. lia.
    + eapply spec_conseq; [apply pbc_insert_spec; auto |].
      * discriminate.
      * intros r s' _ _ [Hv Hu]. split; [assumption |]. eexists. split; [apply d_pbc; exact Hu |]. split; [reflexivity |]. split.
        -- unfold fvars. cbn. rewrite app_nil_r. apply incl_refl.
        -- split; [cbn [le_form pb_cmp pb_lits pb_coeffs pb_rhs]; auto 10 | cbn [le_bound pb_lits pb_coeffs]; lia].
Qed.

Lemma reduce_spec : forall s c ls cs, wf s -> Forall (lit_ok s) ls -> length ls = length cs -> Z.of_nat (length ls) < 4294967296 ->
  Forall (fun x => 0 < x) cs -> NoDup (map lit_var ls) ->
  spec wf core s (reduce 3 c (zsum cs) cs ls) (fun r s' => normal s' (fun v => weight v ls cs <=? c) (map lit_var ls) (zsum cs) (length ls) r).
Proof.
  intros s c ls cs Hw Hl Hlen Hn Hp Hd. cbn [reduce].
  pose proof (fun v => weight_bounds v ls cs Hlen Hp) as Hwb.
  destruct (Z.ltb_spec c 0) as [H1 | H1].
  { apply spec_ret; [assumption | apply core_refl |]. apply (normal_constant s false). intros v. apply Z.leb_gt. specialize (Hwb v). lia. }
  destruct (Z.leb_spec (zsum cs) c) as [H2 | H2].
  { apply spec_ret; [assumption | apply core_refl |]. apply (normal_constant s true). intros v. apply Z.leb_le. specialize (Hwb v). lia. }
  remember (fold_left gcd cs c) as d eqn:Ed. pose proof (gcd_fold_nonneg cs c H1) as Hd0. rewrite <- Ed in Hd0.
  destruct (gcd_fold_divides cs c) as [[q Hq] Hdiv]. rewrite <- Ed in Hq, Hdiv.
  assert (Hcs : cs <> []) by (intros ->; cbn in H2; lia).
  assert (Hdz : d <> 0).
  { intros E. clear Ed. rewrite E in Hdiv. destruct cs as [| e cs]; [congruence |]. apply Forall_inv in Hdiv, Hp.
    destruct Hdiv as [k Hk]. lia. }
  rewrite (proj2 (Z.eqb_neq d 0) Hdz). cbn [negb andb]. destruct (Z.eqb_spec d 1) as [E1 | E1]; cbn [negb].
  { apply f_pbc_normal; auto; congruence. }
  destruct (divisible_factor d cs Hdiv) as [es Hes].
  assert (Hc : c = d * q) by lia. assert (Hq0 : 0 <= q) by nia.
  assert (Hq1 : Z.quot c d = q) by (rewrite Hq; apply Z.quot_mul; assumption).
  rewrite Hq1. replace (map (fun e => Z.quot e d) cs) with es by (rewrite Hes; symmetry; apply quot_mul_map; assumption).
  assert (Hep : Forall (fun x => 0 < x) es).
  { rewrite Hes in Hp. rewrite Forall_map in Hp. eapply Forall_impl; [| exact Hp]. cbn beta. intros e He. nia. }
  assert (Hsum : zsum cs = d * zsum es) by (rewrite Hes at 1; apply zsum_mul).
  destruct (Z.ltb_spec q 0) as [H3 | H3]; [lia |].
  destruct (Z.leb_spec (zsum cs) q) as [H4 | H4]; [nia |].
  assert (Hg : fold_left gcd es q = 1).
  { destruct (gcd_fold_mul d es q Hd0) as [E | ->]; [| rewrite Hes in Hcs; cbn in Hcs; congruence].
    rewrite <- Hes, <- Hc in E. rewrite <- Ed in E. assert (0 <= fold_left gcd es q) by (apply gcd_fold_nonneg; assumption). nia. }
  rewrite Hg. cbn [Z.eqb negb andb].
  replace (negb (1 =? 0) && negb (1 =? 1)) with false by reflexivity.
  assert (Hle : length ls = length es) by (rewrite Hlen, Hes, map_length; reflexivity).
  eapply spec_conseq; [apply f_pbc_normal; auto; nia |].
  intros r s' _ _ [Hv [y [Hy1 [Hy2 [Hy3 [Hy4 Hy5]]]]]]. split; [assumption |]. exists y. split; [assumption |]. split.
  2:{ split; [assumption |]. split; [assumption |]. eapply le_bound_mono; [| | exact Hy5]; [nia | lia]. }
  intros v. rewrite Hy2. rewrite Hes at 1. rewrite weight_mul. rewrite Hc at 1.
  destruct (Z.leb_spec (weight v ls es) q), (Z.leb_spec (d * weight v ls es) (d * q)); try reflexivity; nia.
Qed.

Lemma normalize_le_spec : forall s ls cs rhs, wf s -> Forall (lit_ok s) ls -> length ls = length cs -> Z.of_nat (length ls) < 4294967296 ->
  Z.abs rhs + sum_abs cs < B63 ->
  spec wf core s (normalize_le ls cs rhs) (fun r s' => normal s' (fun v => weight v ls cs <=? rhs) (map lit_var ls) (sum_abs cs) (length ls) r).
Proof.
  intros s ls cs rhs Hw Hl Hlen Hn Hb.
  assert (Hs0 : sortedm (@nil (var * (Z * Z)))) by constructor.
  destruct (var2consts_spec ls cs [] Hlen Hs0) as [H1 [H2 [H3 [H4 H5]]]]; [cbn [mabs]; lia |]. cbn [mabs] in H3.
  destruct (collect_spec (var2consts ls cs []) rhs ltac:(lia)) as [c' [cs' [ls' [E [I1 [I2 [I3 [I4 [I5 [I6 I7]]]]]]]]]].
  unfold normalize_le. rewrite E. rewrite wrap_sum_ok by (auto; lia).
  assert (Hin : incl (map lit_var ls') (map lit_var ls)).
  { intros x Hx. apply I3 in Hx. apply H4 in Hx. destruct Hx as [[] | Hx]. assumption. }
  assert (Hl' : Forall (lit_ok s) ls').
  { rewrite Forall_forall in *. intros l Hx. unfold lit_ok. assert (Hv : In (lit_var l) (map lit_var ls)) by (apply Hin; apply in_map; assumption).
    apply in_map_iff in Hv. destruct Hv as [k [<- Hk]]. apply Hl. assumption. }
  eapply spec_conseq; [apply reduce_spec; auto |].
  - cbn [length] in H5. lia.
  - apply I4. apply sorted_NoDup. exact H1.
  - intros r s' _ _ [Hv [y [Hy1 [Hy2 [Hy3 [Hy4 Hy5]]]]]]. split; [assumption |]. exists y. split; [assumption |].
    split; [| split; [| split; [assumption | eapply le_bound_mono; [| | exact Hy5]; cbn [length] in H5; lia]]].
    + intros v. rewrite Hy2. specialize (I5 v). rewrite H2 in I5. cbn [msum] in I5.
      destruct (Z.leb_spec (weight v ls' cs') c'), (Z.leb_spec (weight v ls cs) rhs); try reflexivity; lia.
    + intros x Hx. auto.
Qed.

Lemma weight_neg : forall v ls cs, weight v ls (map Z.opp cs) = - weight v ls cs.
Proof. intros v ls. induction ls as [| l ls IH]; intros [| c cs]; cbn [weight map]; try lia. rewrite IH. destruct (lit_sem v l); lia. Qed.
Lemma sum_abs_neg : forall cs, sum_abs (map Z.opp cs) = sum_abs cs.
Proof. induction cs as [| c cs IH]; [reflexivity |]. cbn. unfold sum_abs in IH. rewrite IH. lia. Qed.
Lemma neg_wrap : forall cs, sum_abs cs < B63 -> map (fun c => wrap64 (- c)) cs = map Z.opp cs.
Proof.
  unfold B63. induction cs as [| c cs IH]; intros H; [reflexivity |]. cbn [sum_abs fold_right] in H. fold (sum_abs cs) in H.
  pose proof (sum_abs_nonneg cs). cbn [map]. rewrite IH by lia. rewrite wrap64_id by lia. reflexivity.
Qed.

(** The result of [normalize]: one or a conjunction of inequations in normal form. *)
Definition normal_form (x : fml) : Prop := le_form x \/ exists xs, x = FAnd xs /\ Forall le_form xs.

Definition normal_in (B : Z) (n : nat) (x : fml) : Prop := le_ok B n x \/ exists xs, x = FAnd xs /\ Forall (le_ok B n) xs.

Lemma pbc_normalize_strong : forall s p, wf s -> Forall (lit_ok s) (pb_lits p) -> length (pb_lits p) = length (pb_coeffs p) ->
  Z.of_nat (length (pb_lits p)) < 4294967296 -> sum_abs (pb_coeffs p) + Z.abs (pb_rhs p) + 1 < B63 ->
  spec wf core s (pbc_normalize p) (fun r s' => vh s' r /\ exists y, denotes s' r y /\ (forall v, sem v y = pbc_sem v p)
    /\ incl (fvars y) (map lit_var (pb_lits p)) /\ normal_in (sum_abs (pb_coeffs p)) (length (pb_lits p)) y /\ (pb_cmp p <> EQ -> le_ok (sum_abs (pb_coeffs p)) (length (pb_lits p)) y)).
Proof.
  intros s p Hw Hl Hlen Hn Hb. unfold B63 in Hb. pose proof (sum_abs_nonneg (pb_coeffs p)) as Hnn.
  unfold pbc_normalize. rewrite neg_wrap by (unfold B63; lia).
  assert (Hlen' : length (pb_lits p) = length (map Z.opp (pb_coeffs p))) by (rewrite map_length; assumption).
  assert (Hone : forall cs rhs, length (pb_lits p) = length cs -> sum_abs cs = sum_abs (pb_coeffs p) -> Z.abs rhs + sum_abs cs < B63 ->
    (forall v, (weight v (pb_lits p) cs <=? rhs) = pbc_sem v p) ->
    spec wf core s (normalize_le (pb_lits p) cs rhs) (fun r s' => vh s' r /\ exists y, denotes s' r y /\ (forall v, sem v y = pbc_sem v p)
    /\ incl (fvars y) (map lit_var (pb_lits p)) /\ normal_in (sum_abs (pb_coeffs p)) (length (pb_lits p)) y /\ (pb_cmp p <> EQ -> le_ok (sum_abs (pb_coeffs p)) (length (pb_lits p)) y))).
  { intros cs rhs Hc1 Hc0 Hc2 Hc3. eapply spec_conseq; [apply normalize_le_spec; auto |]. rewrite Hc0.
    intros r s' _ _ [Hv [y [Hy1 [Hy2 [Hy3 Hy4]]]]]. split; [assumption |]. exists y. split; [assumption |].
    split; [intros v; rewrite Hy2; apply Hc3 |]. split; [assumption |]. split; [left; assumption | auto]. }
  destruct (pb_cmp p) eqn:Ec.
  - assert (Hr2 : wrap64 (- pb_rhs p) = - pb_rhs p) by (apply wrap64_id; lia). rewrite Hr2.
    eapply spec_bind; [exact core_trans | apply (normalize_le_spec s (pb_lits p) (pb_coeffs p) (pb_rhs p)); auto; unfold B63; lia | intros; mono_tac |].
    intros f1 s1 Hw1 Hc1 Hf1. cbn beta in Hf1.
    assert (Hls1 : Forall (lit_ok s1) (pb_lits p)) by (eapply Forall_impl; [| exact Hl]; intros; eapply lit_ok_ext; eauto using core_ext).
    eapply spec_bind; [exact core_trans | apply (normalize_le_spec s1 (pb_lits p) (map Z.opp (pb_coeffs p)) (- pb_rhs p)); auto; rewrite sum_abs_neg; unfold B63; lia | intros; mono_tac |].
    intros f2 s2 Hw2 Hc2 Hf2. cbn beta in Hf2. rewrite sum_abs_neg in Hf2.
    destruct Hf1 as [Hv1 [y1 [Hd1 [Hs1 [Hl1 Hn1]]]]]. destruct Hf2 as [Hv2 [y2 [Hd2 [Hs2 [Hl2 Hn2]]]]].
    apply (vh_ext _ s2) in Hv1; [| apply core_ext; assumption]. apply (denotes_ext _ s2) in Hd1; [| apply core_ext; assumption].
    eapply spec_conseq; [apply (nary_result s2 true [f1; f2] [y1; y2]); auto |].
    intros r s' Hws' Hcs' [[Hv [y [Hd [Hs Hlv]]]] Hshape]. split; [assumption |]. exists y. split; [assumption |]. split; [| split; [| split; [| congruence]]].
    + intros v. rewrite Hs. cbn [nary_sem forallb]. rewrite Hs1, Hs2, weight_neg, andb_true_r. unfold pbc_sem. rewrite Ec. cbn [cmp_sem].
      set (w := weight v (pb_lits p) (pb_coeffs p)). destruct (Z.leb_spec w (pb_rhs p)), (Z.leb_spec (- w) (- pb_rhs p)), (Z.eqb_spec w (pb_rhs p)); try reflexivity; lia.
    + intros x Hx. apply (leaves_fvars _ _ Hlv) in Hx. apply in_flat_map in Hx. destruct Hx as [z [[<- | [<- | []]] Hz]]; auto.
    + assert (Hle : forall o z, In o [f1; f2] -> denotes s2 o z -> le_ok (sum_abs (pb_coeffs p)) (length (pb_lits p)) z).
      { intros o z [<- | [<- | []]] Hz; [rewrite <- (denotes_fun _ _ _ _ Hd1 Hz) | rewrite <- (denotes_fun _ _ _ _ Hd2 Hz)]; assumption. }
      assert (Hflat : forall h z, flat_in s2 true [f1; f2] h -> denotes s' h z -> le_ok (sum_abs (pb_coeffs p)) (length (pb_lits p)) z).
      { intros h z [[Hin Hnot] | [o [l [Hin [Hu Hinl]]]]] Hz.
        - assert (vh s2 h) as Hvh by (destruct Hin as [<- | [<- | []]]; assumption).
          destruct (vh_denotes s2 h Hw2 Hvh) as [z' Hz']. pose proof (Hle h z' Hin Hz') as Hf.
          apply (denotes_ext _ s') in Hz'; [| apply core_ext; assumption]. rewrite (denotes_fun _ _ _ _ Hz Hz'). assumption.
        - exfalso. assert (vh s2 o) as Hvh by (destruct Hin as [<- | [<- | []]]; assumption).
          destruct (vh_denotes s2 o Hw2 Hvh) as [z' Hz']. pose proof (Hle o z' Hin Hz') as Hf. cbn [nnode] in Hu.
          destruct Hf as [Hf _]. inversion Hz'; subst; cbn in Hf; try contradiction; congruence. }
      destruct Hshape as [-> | [-> | [Hf | [L [Hu HL]]]]].
      * left. inversion Hd; subst; try (split; exact I); discriminate.
      * left. inversion Hd; subst; try (split; exact I); discriminate.
      * left. eapply Hflat; eauto.
      * right. cbn [nnode] in Hu. inversion Hd; subst; try congruence. exists xs. split; [reflexivity |].
        assert (l = L) by congruence. subst l. 
        match goal with H : Forall2 (denotes s') L xs |- _ => rename H into HF end. clear - HL Hflat HF.
        induction HF as [| h x hs0 xs H1 H2 IH]; constructor.
        -- eapply Hflat; [| exact H1]. apply HL. left. reflexivity.
        -- apply IH. intros h' Hh'. apply HL. right. assumption.
  - assert (Hr2 : wrap64 (wrap64 (- pb_rhs p) - 1) = - pb_rhs p - 1) by (rewrite !wrap64_id; rewrite ?wrap64_id; lia). rewrite Hr2.
    apply Hone; auto; [apply sum_abs_neg | rewrite sum_abs_neg; unfold B63; lia |]. intros v. rewrite weight_neg. unfold pbc_sem. rewrite Ec. cbn [cmp_sem].
    match goal with |- (?a <=? ?b) = (?c <? ?d) => destruct (Z.leb_spec a b), (Z.ltb_spec c d); try reflexivity; lia end.
  - rewrite wrap64_id by lia. apply Hone; auto; [apply sum_abs_neg | rewrite sum_abs_neg; unfold B63; lia |]. intros v. rewrite weight_neg. unfold pbc_sem. rewrite Ec. cbn [cmp_sem].
    match goal with |- (?a <=? ?b) = (?c <=? ?d) => destruct (Z.leb_spec a b), (Z.leb_spec c d); try reflexivity; lia end.
  - rewrite wrap64_id by lia. apply Hone; auto; [unfold B63; lia |]. intros v. unfold pbc_sem. rewrite Ec. cbn [cmp_sem].
    match goal with |- (?a <=? ?b) = (?c <? ?d) => destruct (Z.leb_spec a b), (Z.ltb_spec c d); try reflexivity; lia end.
  - apply Hone; auto; [unfold B63; lia |]. intros v. unfold pbc_sem. rewrite Ec. reflexivity.
Qed.

Theorem pbc_normalize_spec : forall s p, wf s -> Forall (lit_ok s) (pb_lits p) -> length (pb_lits p) = length (pb_coeffs p) ->
  Z.of_nat (length (pb_lits p)) < 4294967296 -> sum_abs (pb_coeffs p) + Z.abs (pb_rhs p) + 1 < B63 ->
  spec wf core s (pbc_normalize p) (fun r s' => vh s' r /\ exists y, denotes s' r y /\ (forall v, sem v y = pbc_sem v p)
    /\ incl (fvars y) (map lit_var (pb_lits p)) /\ normal_form y /\ (pb_cmp p <> EQ -> le_form y)).
Proof.
  intros s p Hw Hl Hlen Hn Hb. eapply spec_conseq; [apply pbc_normalize_strong; assumption |].
  intros r s' _ _ [Hv [y [H1 [H2 [H3 [H4 H5]]]]]]. split; [assumption |]. exists y. split; [assumption |]. split; [assumption |]. split; [assumption |]. split.
  - destruct H4 as [[H4 _] | [xs [-> H4]]]; [left; assumption |]. right. exists xs. split; [reflexivity |]. eapply Forall_impl; [| exact H4]. intros z [Hz _]. exact Hz.
  - intros Hne. apply (H5 Hne).
Qed.
