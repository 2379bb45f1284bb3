(** Model of the formula transformations that need no operation cache: src/operations/transformations/restriction.rs and
    src/operations/transformations/substitution.rs. *)
From Coq Require Import NArith ZArith List Bool.
From Verif Require Import Base EncodingModel Syntax FactoryModel ConstraintModel.
Import ListNotations.
Local Open Scope N_scope.

(** [f.and(ops.map(g))] and [f.or(ops.map(g))]: the iterator is lazy, so [filter_flatten] (formula_factory.rs 1348-1395)
    computes an operand, inserts it, and returns as soon as a constant or a complement decides the result; the remaining
    operands are then never computed.  [acc] holds the operands computed so far.  The filter is run again from the start
    after each operand instead of being continued. *)
Fixpoint nary_lazy (conj : bool) (acc : list N) (ms : list (M N)) : M N :=
  match ms with
  | [] => f_nary conj acc
  | m :: ms' =>
      h <-- m ;;
      p <-- lift (fun s => prepare_nary s conj (acc ++ [h])) ;;
      match p with
      | None => ret (constant (negb conj))
      | Some _ => nary_lazy conj (acc ++ [h]) ms'
      end
  end.

(** restriction.rs 34-64, [restrict]; [fuel] bounds the recursion depth. *)
Fixpoint restrict (fuel : nat) (a : assignment) (h : N) : M N :=
  match fuel with
  | O => nofuel
  | S fuel' =>
      n <-- lift (fun s => unpack s h) ;;
      match n with
      | NLit l => ret (restrict_lit a l)
      | NEquiv l r => l' <-- restrict fuel' a l ;; r' <-- restrict fuel' a r ;; f_equivalence l' r'
      | NImpl l r => l' <-- restrict fuel' a l ;; r' <-- restrict fuel' a r ;; f_implication l' r'
      | NOr ops => nary_lazy false [] (map (restrict fuel' a) ops)
      | NAnd ops => nary_lazy true [] (map (restrict fuel' a) ops)
      | NNot o => o' <-- restrict fuel' a o ;; f_not o'
      | NTrue | NFalse => ret h
      | NPbc p => pbc_restrict p a
      | NCc c => cc_restrict c a
      end
  end.

(** assignment.rs, [Assignment::from_lit]. *)
Definition asg_of_lit (l : lit) : assignment := if lit_phase l then mkAsg [lit_var l] [] else mkAsg [] [lit_var l].

(** restriction.rs 66-104, [restrict_lit]. *)
Fixpoint restrict_by (fuel : nat) (lit : lit) (h : N) : M N :=
  match fuel with
  | O => nofuel
  | S fuel' =>
      n <-- lift (fun s => unpack s h) ;;
      match n with
      | NLit this =>
          if negb (var_eqb (lit_var this) (lit_var lit)) then ret h
          else if Bool.eqb (lit_phase this) (lit_phase lit) then ret verum
          else ret falsum
      | NEquiv l r => l' <-- restrict_by fuel' lit l ;; r' <-- restrict_by fuel' lit r ;; f_equivalence l' r'
      | NImpl l r => l' <-- restrict_by fuel' lit l ;; r' <-- restrict_by fuel' lit r ;; f_implication l' r'
      | NOr ops => nary_lazy false [] (map (restrict_by fuel' lit) ops)
      | NAnd ops => nary_lazy true [] (map (restrict_by fuel' lit) ops)
      | NNot o => o' <-- restrict_by fuel' lit o ;; f_not o'
      | NTrue | NFalse => ret h
      | NPbc p => pbc_restrict p (asg_of_lit lit)
      | NCc c => cc_restrict c (asg_of_lit lit)
      end
  end.

(** substitution.rs 8, [Substitution]. *)
Definition substitution := list (var * N).

(** substitution.rs 36-37: the literal cases of [substitute]. *)
Definition subst_lit (sg : substitution) (l : lit) : M N :=
  match assoc var_eqb (lit_var l) sg with
  | None => ret (encode_lit l)
  | Some g => if lit_phase l then ret g else f_negate g
  end.

(** substitution.rs 65-84: the loop of [handle_cc]. *)
Fixpoint subst_vars (sg : substitution) (vs : list var) (lits : list lit) (fixed : Z) : M (list lit * Z) :=
  match vs with
  | [] => ret (lits, fixed)
  | v :: vs' =>
      g <-- subst_lit sg (Lit v true) ;;
      if g =? encode_lit (Lit v true) then subst_vars sg vs' (lits ++ [Lit v true]) fixed
      else
        n <-- lift (fun s => unpack s g) ;;
        match n with
        | NTrue => subst_vars sg vs' lits (fixed + 1)
        | NFalse => subst_vars sg vs' lits fixed
        | NLit l => if lit_phase l then subst_vars sg vs' (lits ++ [l]) fixed else fail
        | _ => fail
        end
  end.

(** substitution.rs 65-92, [handle_cc]. *)
Definition subst_cc (sg : substitution) (c : cc) : M N :=
  p <-- subst_vars sg (cc_vars c) [] 0 ;;
  match fst p with
  | [] => ret (constant (evaluate_comparator (snd p) (cc_cmp c) (Z.of_N (cc_rhs c))))
  | _ => f_pbc (cc_cmp c) (wrap64 (Z.of_N (cc_rhs c) - snd p)) (fst p) (repeat 1%Z (length (fst p)))
  end.

(** substitution.rs 98-117: the loop of [handle_pbc]. *)
Fixpoint subst_lits (sg : substitution) (ls : list lit) (cs : list Z) (lits : list lit) (coeffs : list Z) (fixed : Z)
    : M (list lit * list Z * Z) :=
  match ls, cs with
  | l :: ls', c :: cs' =>
      g <-- subst_lit sg l ;;
      if g =? encode_lit l then subst_lits sg ls' cs' (lits ++ [l]) (coeffs ++ [c]) fixed
      else
        n <-- lift (fun s => unpack s g) ;;
        match n with
        | NTrue => subst_lits sg ls' cs' lits coeffs (wrap64 (fixed + c))
        | NFalse => subst_lits sg ls' cs' lits coeffs fixed
        | NLit k => subst_lits sg ls' cs' (lits ++ [k]) (coeffs ++ [c]) fixed
        | _ => fail
        end
  | _, _ => ret (lits, coeffs, fixed)
  end.

(** substitution.rs 94-123, [handle_pbc]. *)
Definition subst_pbc (sg : substitution) (p : pbc) : M N :=
  q <-- subst_lits sg (pb_lits p) (pb_coeffs p) [] [] 0 ;;
  let '(lits, coeffs, fixed) := q in
  match lits with
  | [] => ret (constant (evaluate_comparator fixed (pb_cmp p) (pb_rhs p)))
  | _ => f_pbc (pb_cmp p) (wrap64 (pb_rhs p - fixed)) lits coeffs
  end.

(** substitution.rs 32-63, [substitute]. *)
Fixpoint substitute (fuel : nat) (sg : substitution) (h : N) : M N :=
  match fuel with
  | O => nofuel
  | S fuel' =>
      n <-- lift (fun s => unpack s h) ;;
      match n with
      | NTrue | NFalse => ret h
      | NLit l => subst_lit sg l
      | NNot o => o' <-- substitute fuel' sg o ;; f_negate o'
      | NAnd ops => nary_lazy true [] (map (substitute fuel' sg) ops)
      | NOr ops => nary_lazy false [] (map (substitute fuel' sg) ops)
      | NImpl l r => l' <-- substitute fuel' sg l ;; r' <-- substitute fuel' sg r ;; f_implication l' r'
      | NEquiv l r => l' <-- substitute fuel' sg l ;; r' <-- substitute fuel' sg r ;; f_equivalence l' r'
      | NCc c => subst_cc sg c
      | NPbc p => subst_pbc sg p
      end
  end.
