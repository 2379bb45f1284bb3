(** C10, C11: restriction and substitution. *)
From Coq Require Import NArith ZArith List Bool Lia String.
From Verif Require Import Base EncodingModel Syntax FactoryModel FactoryInv FactoryBasics FactoryProofs FactorySpecs FactoryNary FactoryOps
  EvalProofs HistoryModel HistoryProofs ConstraintModel ConstraintProofs OpsModel OpsProofs Properties_Factory Properties_Constraint.
Import ListNotations.
Local Open Scope N_scope.

(* ------------------------------------------------------------------------------------------------------------------ *)
(** * C10 *)

(** The numbers of a pseudo-Boolean leaf stay within the types of the code when it is restricted. *)
Definition small_leaf (a : assignment) (lf : leaf) : Prop :=
  match lf with
  | LfPbc p => (sum_abs (pb_coeffs p) + Z.abs (pb_rhs p) < 2 ^ 63)%Z /\ (Z.of_nat (List.length (pb_lits p)) < 2 ^ 32)%Z
               /\ (pb_cmp p = EQ -> (pb_rhs p - fixed_weight a (pb_lits p) (pb_coeffs p) < 2 ^ 32)%Z)
  | _ => True
  end.

Theorem C10_restrict : forall cfg s known h x a fuel, reachable cfg s known -> In h known -> denotes s h x -> (depth x < fuel)%nat ->
  Forall (small_leaf a) (leaves x) ->
  returns (restrict fuel a h) s (fun r s' => restricts s' r a (fvars x) (fun v => sem v x)).
Proof.
  intros cfg s known h x a fuel Hr Hin Hd Hf Hl. destruct (known_vh _ _ _ _ Hr Hin) as [Hw Hv].
  eapply spec_returns; [exact (restrict_spec a fuel s x h Hw Hv Hd Hl Hf) |].
  intros r s' _ [_ [y [Hy [H1 H2]]]]. exists y. split; [assumption |]. split; [exact H1 | exact H2].
Qed.
Print Assumptions C10_restrict.

Theorem C10_restrict_lit : forall cfg s known h x l fuel, reachable cfg s known -> In h known -> denotes s h x -> (depth x < fuel)%nat ->
  Forall (small_leaf (asg_of_lit l)) (leaves x) ->
  returns (restrict_by fuel l h) s (fun r s' => exists y, denotes s' r y /\ (forall v, lit_sem v l = true -> sem v y = sem v x)
     /\ (forall u, In u (fvars y) -> In u (fvars x) /\ u <> lit_var l)).
Proof.
  intros cfg s known h x l fuel Hr Hin Hd Hf Hl. destruct (known_vh _ _ _ _ Hr Hin) as [Hw Hv].
  eapply spec_returns; [exact (restrict_by_spec l fuel s x h Hw Hv Hd Hl Hf) |].
  intros r s' _ [_ [y [Hy [H1 H2]]]]. exists y. split; [assumption |]. destruct l as [z p]. split.
  - intros v Hv'. apply H1. unfold asg_of_lit. cbn [lit_phase lit_var]. cbn [lit_sem] in Hv'.
    destruct p; intros u; split; intros Hi; cbn in Hi; try contradiction; destruct Hi as [<- | []]; destruct (v z); (reflexivity || discriminate).
  - intros u Hu. destruct (H2 u Hu) as [H3 [H4 H5]]. split; [assumption |]. intros ->. unfold asg_of_lit in *. cbn [lit_phase lit_var] in *.
    destruct p; cbn in *; auto.
Qed.
Print Assumptions C10_restrict_lit.

(** Example: ([y | ~x]) & (2x - 3y >= 1), restricted by x = true: y & (-3y >= -1). *)
Definition ex_s3 : factory := snd (f_nary true [12; 49] (snd (f_pbc GE 1 [Lit (VFF 0) true; Lit (VFF 1) true] [2; -3]%Z (snd ex_or)))).
Definition ex_x3 : fml :=
  FAnd [FOr [FLit (Lit (VFF 1) true); FLit (Lit (VFF 0) false)]; FPbc (mkPbc [Lit (VFF 0) true; Lit (VFF 1) true] [2; -3]%Z GE 1)].
Lemma ex_s3_reach : exists known, reachable default_config ex_s3 known /\ In 11 known /\ In hx known.
Proof.
  exists [11; 49; 12; hy; hx]. split; [| cbn; auto 7].
  apply (sts_step _ (snd (f_pbc GE 1 [Lit (VFF 0) true; Lit (VFF 1) true] [2; -3]%Z (snd ex_or)), [49; 12; hy; hx])).
  - apply (sts_step _ (snd ex_or, [12; hy; hx])).
    + apply (sts_step _ (ex_s, [hy; hx])); [exact ex_reach |].
      apply (st_call _ _ (CClause [Lit (VFF 1) true; Lit (VFF 0) false])).
      * constructor; [| constructor; [| constructor]].
        -- exists hy, (NLit (Lit (VFF 1) true)). vm_compute. auto.
        -- exists hx, (NLit (Lit (VFF 0) true)). vm_compute. auto.
      * vm_compute. reflexivity.
      * apply cap_dec; vm_compute; reflexivity.
    + apply (st_call _ _ (CPbc GE 1 [Lit (VFF 0) true; Lit (VFF 1) true] [2; -3]%Z)).
      * split; [constructor; [| constructor; [| constructor]] |].
        -- exists hx, (NLit (Lit (VFF 0) true)). vm_compute. auto.
        -- exists hy, (NLit (Lit (VFF 1) true)). vm_compute. auto.
        -- intros H. vm_compute in H. discriminate.
      * vm_compute. reflexivity.
      * apply cap_dec; vm_compute; reflexivity.
  - apply (st_call _ _ (CNary true [12; 49])).
    + intros h H. cbn in *. intuition.
    + vm_compute. reflexivity.
    + apply cap_dec; vm_compute; reflexivity.
Qed.
Example C10_ex : denotes ex_s3 11 ex_x3 /\ Forall (small_leaf (mkAsg [VFF 0] [])) (leaves ex_x3)
  /\ fst (restrict 5 (mkAsg [VFF 0] []) 11 ex_s3) = Ok 75
  /\ denotes (snd (restrict 5 (mkAsg [VFF 0] []) 11 ex_s3)) 75 (FAnd [FLit (Lit (VFF 1) true); FPbc (mkPbc [Lit (VFF 1) true] [-3]%Z GE (-1))]).
Proof.
  split; [| split; [| split]].
  - apply (d_and _ 11 [12; 49]); [vm_compute; reflexivity |]. repeat constructor; try (vm_compute; reflexivity).
    apply (d_or _ 12 [hy; 39]); [vm_compute; reflexivity |]. repeat constructor; vm_compute; reflexivity.
  - cbn [leaves flat_map app ex_x3]. repeat constructor; cbn; try lia; discriminate.
  - vm_compute. reflexivity.
  - apply (d_and _ 75 [99; 113]); [vm_compute; reflexivity |]. repeat constructor; vm_compute; reflexivity.
Qed.

(* ------------------------------------------------------------------------------------------------------------------ *)
(** * C11 *)

(** The replacement of [u], if there is one, is a constant or a (positive, if [pos]) literal.  The code panics when a variable of a
    constraint is replaced by anything else. *)
Definition constraint_image (s : factory) (sg : substitution) (pos : bool) (u : var) : Prop :=
  forall g, assoc var_eqb u sg = Some g ->
    denotes s g FTrue \/ denotes s g FFalse \/ exists k, denotes s g (FLit k) /\ (pos = true -> lit_phase k = true).
Definition substitutable_leaf (s : factory) (sg : substitution) (lf : leaf) : Prop :=
  match lf with
  | LfVar _ => True
  | LfCc c => Forall (constraint_image s sg true) (cc_vars c) /\ (Z.of_nat (List.length (cc_vars c)) < 2 ^ 62)%Z
  | LfPbc p => Forall (constraint_image s sg false) (map lit_var (pb_lits p))
               /\ (sum_abs (pb_coeffs p) + Z.abs (pb_rhs p) < 2 ^ 63)%Z
               /\ ((pb_rhs p + sum_abs (pb_coeffs p) < 2 ^ 32)%Z \/ ~ In 1%Z (pb_coeffs p))
  end.

(** [v] assigns the variables of the result, [w] those of the original formula. *)
Definition substituted (s : factory) (sg : substitution) (v w : valuation) : Prop :=
  forall u, match assoc var_eqb u sg with Some g => forall y, denotes s g y -> w u = sem v y | None => w u = v u end.

Theorem C11_substitute : forall cfg s known h x sg fuel, reachable cfg s known -> In h known -> denotes s h x -> (depth x < fuel)%nat ->
  (forall u g, assoc var_eqb u sg = Some g -> In g known) -> Forall (substitutable_leaf s sg) (leaves x) ->
  returns (substitute fuel sg h) s (fun r s' => exists y, denotes s' r y
    /\ (forall v w, substituted s sg v w -> sem v y = sem w x)
    /\ (forall u, In u (fvars y) -> (In u (fvars x) /\ assoc var_eqb u sg = None)
          \/ exists u' g z, In u' (fvars x) /\ assoc var_eqb u' sg = Some g /\ denotes s g z /\ In u (fvars z))).
Proof.
  intros cfg s known h x sg fuel Hr Hin Hd Hf Hsg Hl. destruct (known_vh _ _ _ _ Hr Hin) as [Hw Hv].
  assert (Hok : sg_ok s sg).
  { intros u g E. specialize (Hsg u g E). destruct (known_vh _ _ _ _ Hr Hsg) as [_ Hg]. destruct (handles_denote _ _ _ _ Hr Hsg) as [y [Hy _]].
    split; eauto. }
  eapply spec_returns; [exact (substitute_spec s sg fuel Hok s x h Hw (ext_refl s) Hv Hd Hl Hf) |].
  intros r s' _ [_ [y [Hy [H1 H2]]]]. exists y. split; [assumption |]. split; [exact H1 | exact H2].
Qed.
Print Assumptions C11_substitute.

(** Example: in ([y | ~x]) & (2x - 3y >= 1) replace x by ~y (and simultaneously nothing for y). *)
Example C11_ex : Forall (substitutable_leaf ex_s3 [(VFF 0, encode_lit (Lit (VFF 1) false))]) (leaves ex_x3)
  /\ fst (substitute 5 [(VFF 0, encode_lit (Lit (VFF 1) false))] 11 ex_s3) = Ok 75
  /\ denotes (snd (substitute 5 [(VFF 0, encode_lit (Lit (VFF 1) false))] 11 ex_s3)) 75
       (FAnd [FLit (Lit (VFF 1) true); FPbc (mkPbc [Lit (VFF 1) false; Lit (VFF 1) true] [2; -3]%Z GE 1)]).
Proof.
  split; [| split].
  - assert (H : forall u, constraint_image ex_s3 [(VFF 0, encode_lit (Lit (VFF 1) false))] false u).
    { intros u g E. cbn in E. destruct (var_eqb u (VFF 0)); [| discriminate]. injection E as <-. right. right. exists (Lit (VFF 1) false).
      split; [constructor; vm_compute; reflexivity | discriminate]. }
    cbn [leaves flat_map app ex_x3]. repeat (constructor; [exact I |]). constructor; [| constructor].
    split; [apply Forall_forall; intros u _; apply H |]. split; [reflexivity |]. left. reflexivity.
  - vm_compute. reflexivity.
  - apply (d_and _ 75 [99; 113]); [vm_compute; reflexivity |]. repeat constructor; vm_compute; reflexivity.
Qed.

(** Replacing a variable of a cardinality constraint by a negative literal panics (as documented for anything but variables and
    constants). *)
Theorem C11_cc_negative_refuted : exists s c sg, fst (f_amo [VFF 0; VFF 1] ex_s) = Ok c /\ s = snd (f_amo [VFF 0; VFF 1] ex_s)
  /\ (forall u g, assoc var_eqb u sg = Some g -> exists l, denotes s g (FLit l)) /\ forall fuel, fst (substitute (S fuel) sg c s) = Panic.
Proof.
  exists (snd (f_amo [VFF 0; VFF 1] ex_s)), 48, [(VFF 1, encode_lit (Lit (VFF 0) false))].
  split; [vm_compute; reflexivity |]. split; [reflexivity |]. split; [| intros fuel; vm_compute; reflexivity].
  intros u g E. cbn in E. destruct (var_eqb u (VFF 1)); [| discriminate]. injection E as <-. exists (Lit (VFF 0) false).
  constructor. vm_compute. reflexivity.
Qed.
Print Assumptions C11_cc_negative_refuted.

(** x - 2^32 y = 1 with y replaced by true is unsatisfiable; the code stores the rest x = 2^32 + 1 as the cardinality constraint x = 1. *)
Theorem C11_u32_refuted : exists p s h r y v w, fst (f_pbc (pb_cmp p) (pb_rhs p) (pb_lits p) (pb_coeffs p) ex_s) = Ok h
  /\ s = snd (f_pbc (pb_cmp p) (pb_rhs p) (pb_lits p) (pb_coeffs p) ex_s) /\ denotes s h (FPbc p)
  /\ fst (substitute 5 [(VFF 1, verum)] h s) = Ok r /\ denotes (snd (substitute 5 [(VFF 1, verum)] h s)) r y
  /\ substituted s [(VFF 1, verum)] v w /\ sem v y = true /\ sem w (FPbc p) = false.
Proof.
  exists (mkPbc [Lit (VFF 0) true; Lit (VFF 1) true] [1; -4294967296]%Z EQ 1). eexists. exists 49, 48, (FCc (mkCc [VFF 0] EQ 1)), (fun _ => true), (fun _ => true).
  split; [vm_compute; reflexivity |]. split; [reflexivity |]. split; [constructor; vm_compute; reflexivity |].
  split; [vm_compute; reflexivity |]. split; [constructor; vm_compute; reflexivity |]. split; [| split; vm_compute; reflexivity].
  intros u. cbn [assoc]. destruct (var_eqb u (VFF 1)); [| reflexivity]. intros y Hy.
  pose proof (denotes_by_node _ verum NTrue _ eq_refl Hy) as Q. cbn in Q. subst y. reflexivity.
Qed.
Print Assumptions C11_u32_refuted.
