(** C21, C22: normalization and restriction of constraints. *)
From Coq Require Import NArith ZArith List Bool Lia.
From Verif Require Import Base EncodingModel Syntax FactoryModel FactoryInv FactoryBasics FactoryProofs FactorySpecs FactoryNary FactoryOps
  EvalProofs HistoryModel HistoryProofs ConstraintModel ConstraintProofs Properties_Factory.
Import ListNotations.
Local Open Scope Z_scope.

(* ------------------------------------------------------------------------------------------------------------------ *)
(** * C22 *)

(** The formula behind [r] agrees with [S] below every extension of [a], and mentions only variables of [vs] that [a] leaves
    open. *)
Definition restricts (s : factory) (r : N) (a : assignment) (vs : list var) (S : valuation -> bool) : Prop :=
  exists y, denotes s r y /\ (forall v, extends a v -> sem v y = S v)
            /\ (forall x, In x (fvars y) -> In x vs /\ ~ In x (a_pos a) /\ ~ In x (a_neg a)).

Theorem C22_cc : forall cfg s known h c a, reachable cfg s known -> In h known -> unpack s h = Ok (NCc c) ->
  returns (cc_restrict c a) s (fun r s' => restricts s' r a (cc_vars c) (fun v => cc_sem v c)).
Proof.
  intros cfg s known h c a Hr Hin Hu. destruct (known_vh _ _ _ _ Hr Hin) as [Hw Hv].
  destruct (unpack_cc_vh s h c Hw Hv Hu) as [_ [H1 [H2 H3]]].
  eapply spec_returns; [exact (cc_restrict_spec s c a Hw H1 H2 H3) |]. intros r s' _ [_ H]. exact H.
Qed.
Print Assumptions C22_cc.

Theorem C22_pbc : forall cfg s known h p a, reachable cfg s known -> In h known -> unpack s h = Ok (NPbc p) ->
  sum_abs (pb_coeffs p) + Z.abs (pb_rhs p) < 2 ^ 63 -> Z.of_nat (length (pb_lits p)) < 2 ^ 32 ->
  (pb_cmp p = EQ -> pb_rhs p - fixed_weight a (pb_lits p) (pb_coeffs p) < 2 ^ 32) ->
  returns (pbc_restrict p a) s (fun r s' => restricts s' r a (map lit_var (pb_lits p)) (fun v => pbc_sem v p)).
Proof.
  intros cfg s known h p a Hr Hin Hu Hb Hn He. destruct (known_vh _ _ _ _ Hr Hin) as [Hw Hv].
  destruct (unpack_pbc_vh s h p Hw Hv Hu) as [_ [H1 [H2 H3]]].
  eapply spec_returns; [exact (pbc_restrict_spec s p a Hw H2 H1 Hb Hn He) |]. intros r s' _ [_ H]. exact H.
Qed.
Print Assumptions C22_pbc.

(** Examples: 2x - 3y + 4z >= 1 with y true leaves 2x + 4z >= 4; with z true it is true. *)
Definition ex_p : pbc := mkPbc [Lit (VFF 0) true; Lit (VFF 1) true; Lit (VAux AuxPB 0) true] [2; -3; 4] GE 1.
Example C22_ex : let r := pbc_restrict ex_p (mkAsg [VFF 1] []) ex_s in
  fst r = Ok 49%N /\ unpack (snd r) 49 = Ok (NPbc (mkPbc [Lit (VFF 0) true; Lit (VAux AuxPB 0) true] [2; 4] GE 4)).
Proof. vm_compute. split; reflexivity. Qed.
Example C22_ex_cc : let r := cc_restrict (mkCc [VFF 0; VFF 1] LE 1) (mkAsg [VFF 1] []) ex_s in
  fst r = Ok 48%N /\ unpack (snd r) 48 = Ok (NCc (mkCc [VFF 0] LE 0)).
Proof. vm_compute. split; reflexivity. Qed.
Example C22_ex_early : fst (pbc_restrict ex_p (mkAsg [] [VFF 1]) ex_s) = Ok 49%N
  /\ fst (pbc_restrict ex_p (mkAsg [VFF 1] [VFF 0; VAux AuxPB 0]) ex_s) = Ok falsum
  /\ fst (pbc_restrict ex_p (mkAsg [VAux AuxPB 0] []) ex_s) = Ok verum.
Proof. vm_compute. auto. Qed.

(** x + 2y = 2^32 with y false must be false; [pbc] stores the rest x = 2^32 as the cardinality constraint x = 0, since the
    right-hand side is truncated to [u32]. *)
Theorem C22_u32_refuted : exists p a r v, fst (pbc_restrict p a ex_s) = Ok r /\ extends a v
  /\ (exists y, denotes (snd (pbc_restrict p a ex_s)) r y /\ sem v y <> pbc_sem v p).
Proof.
  exists (mkPbc [Lit (VFF 0) true; Lit (VFF 1) true] [1; 2] EQ 4294967296), (mkAsg [] [VFF 1]), 48%N, (fun _ => false).
  split; [vm_compute; reflexivity |]. split; [intros x; split; [intros [] | reflexivity] |].
  exists (FCc (mkCc [VFF 0] EQ 0)). split; [apply d_cc; vm_compute; reflexivity |]. vm_compute. discriminate.
Qed.
Print Assumptions C22_u32_refuted.

(* ------------------------------------------------------------------------------------------------------------------ *)
(** * C21 *)

(** An inequation [sum <= rhs] over distinct variables with positive coefficients that is neither trivially true nor false,
    with coprime numbers (a sum of plain variables is stored as a cardinality constraint), or a constant. *)
Definition inequation (x : fml) : Prop :=
  match x with
  | FTrue | FFalse => True
  | FCc k => cc_cmp k = LE /\ NoDup (cc_vars k) /\ (cc_rhs k < N.of_nat (length (cc_vars k)))%N
  | FPbc p => pb_cmp p = LE /\ NoDup (map lit_var (pb_lits p)) /\ length (pb_lits p) = length (pb_coeffs p)
              /\ Forall (fun c => 0 < c) (pb_coeffs p) /\ 0 <= pb_rhs p < fold_right Z.add 0 (pb_coeffs p)
              /\ fold_left Z.gcd (pb_coeffs p) (pb_rhs p) = 1
  | _ => False
  end.

Theorem C21_normalize : forall cfg s known h p, reachable cfg s known -> In h known -> unpack s h = Ok (NPbc p) ->
  sum_abs (pb_coeffs p) + Z.abs (pb_rhs p) + 1 < 2 ^ 63 -> Z.of_nat (length (pb_lits p)) < 2 ^ 32 ->
  returns (pbc_normalize p) s (fun r s' =>
    exists y, denotes s' r y /\ (forall v, sem v y = pbc_sem v p) /\ incl (fvars y) (map lit_var (pb_lits p))
      /\ (inequation y \/ (pb_cmp p = EQ /\ exists ys, y = FAnd ys /\ Forall inequation ys))).
Proof.
  intros cfg s known h p Hr Hin Hu Hb Hn. destruct (known_vh _ _ _ _ Hr Hin) as [Hw Hv].
  destruct (unpack_pbc_vh s h p Hw Hv Hu) as [_ [H1 [H2 H3]]].
  eapply spec_returns; [exact (pbc_normalize_spec s p Hw H2 H1 Hn Hb) |].
  intros r s' _ [_ [y [Hy1 [Hy2 [Hy3 [Hy4 Hy5]]]]]]. exists y. split; [assumption |]. split; [assumption |]. split; [assumption |].
  destruct Hy4 as [Hy4 | [ys [-> Hys]]]; [left; exact Hy4 |]. right. split; [| exists ys; split; [reflexivity | exact Hys]].
  destruct (ctype_eqb (pb_cmp p) EQ) eqn:E; [destruct (pb_cmp p); (reflexivity || discriminate) |].
  assert (pb_cmp p <> EQ) as Hne by (intros X; rewrite X in E; discriminate). destruct (Hy5 Hne).
Qed.
Print Assumptions C21_normalize.

(** 2x - 4y - 4~x >= -2 is 6~x + 4y <= 4, hence 3~x + 2y <= 2. *)
Example C21_ex : let r := pbc_normalize (mkPbc [Lit (VFF 0) true; Lit (VFF 1) true; Lit (VFF 0) false] [2; -4; -4] GE (-2)) ex_s in
  fst r = Ok 49%N /\ unpack (snd r) 49 = Ok (NPbc (mkPbc [Lit (VFF 0) false; Lit (VFF 1) true] [3; 2] LE 2)).
Proof. vm_compute. split; reflexivity. Qed.
Example C21_ex_eq : let r := pbc_normalize (mkPbc [Lit (VFF 0) true; Lit (VFF 1) true] [2; 3] EQ 3) ex_s in
  fst r = Ok 11%N /\ unpack (snd r) 11 = Ok (NAnd [49; 113]%N) /\
  unpack (snd r) 49 = Ok (NPbc (mkPbc [Lit (VFF 0) true; Lit (VFF 1) true] [2; 3] LE 3)) /\
  unpack (snd r) 113 = Ok (NPbc (mkPbc [Lit (VFF 0) false; Lit (VFF 1) false] [2; 3] LE 2)).
Proof. vm_compute. auto. Qed.

(** Without the bound the sum of the coefficients wraps (release build): 2^62 x + 2^62 y <= 1 becomes true. *)
Theorem C21_overflow_refuted : exists p v, fst (pbc_normalize p ex_s) = Ok verum /\ pbc_sem v p = false.
Proof.
  exists (mkPbc [Lit (VFF 0) true; Lit (VFF 1) true] [4611686018427387904; 4611686018427387904] LE 1), (fun _ => true).
  vm_compute. split; reflexivity.
Qed.
Print Assumptions C21_overflow_refuted.
