(** The textbook notions about formula trees that the cached operations compute: normal forms, sizes, variables and literals,
    and sub-formulas.  Nothing here refers to the model of an operation. *)
From Coq Require Import NArith ZArith List Bool.
From Verif Require Import Base EncodingModel Syntax FactoryModel FactoryInv.
Import ListNotations.
Local Open Scope N_scope.

(** No cardinality or pseudo-Boolean constraint occurs. *)
Fixpoint con_free (x : fml) : bool :=
  match x with
  | FTrue | FFalse | FLit _ => true
  | FNot a => con_free a
  | FAnd l | FOr l => forallb con_free l
  | FImpl a b | FEquiv a b => con_free a && con_free b
  | FCc _ | FPbc _ => false
  end.

(** Negation normal form: conjunctions and disjunctions of literals and constants. *)
Fixpoint nnf_shape (x : fml) : bool :=
  match x with
  | FTrue | FFalse | FLit _ => true
  | FAnd l | FOr l => forallb nnf_shape l
  | _ => false
  end.

(** Disjunctive normal form ([cnf_shape] is its dual, in FactoryInv.v). *)
Definition is_fterm (x : fml) : bool := match x with FLit _ => true | FAnd l => forallb is_flit l | _ => false end.
Definition dnf_shape (x : fml) : bool :=
  match x with FTrue | FFalse => true | FOr l => forallb is_fterm l | _ => is_fterm x end.

(** Number of leaves, and of nodes, of the tree; a constraint is one leaf, and a node with its variables as children. *)
Fixpoint atoms (x : fml) : N :=
  match x with
  | FTrue | FFalse | FLit _ | FCc _ | FPbc _ => 1
  | FNot a => atoms a
  | FAnd l | FOr l => fold_right (fun y n => atoms y + n) 0 l
  | FImpl a b | FEquiv a b => atoms a + atoms b
  end.
Fixpoint nodes (x : fml) : N :=
  match x with
  | FTrue | FFalse | FLit _ => 1
  | FCc c => 1 + lenN (cc_vars c)
  | FPbc p => 1 + lenN (pb_lits p)
  | FNot a => 1 + nodes a
  | FAnd l | FOr l => 1 + fold_right (fun y n => nodes y + n) 0 l
  | FImpl a b | FEquiv a b => 1 + (nodes a + nodes b)
  end.

(** Literals occurring in the tree; a cardinality constraint contains its variables positively. *)
Fixpoint flits (x : fml) : list lit :=
  match x with
  | FTrue | FFalse => []
  | FLit l => [l]
  | FCc c => map (fun v => Lit v true) (cc_vars c)
  | FPbc p => pb_lits p
  | FNot a => flits a
  | FAnd l | FOr l => flat_map flits l
  | FImpl a b | FEquiv a b => flits a ++ flits b
  end.

(** [k] is [h] or occurs below [h]. *)
Inductive below (s : factory) (h : N) : N -> Prop :=
| below_refl : below s h h
| below_step : forall k n o, below s h k -> unpack s k = Ok n -> In o (node_operands n) -> below s h o.

(** The sub-formulas of [h], each once, operands before the formulas built from them. *)
Definition sub_list (s : factory) (h : N) (l : list N) : Prop :=
  NoDup l /\ (exists r, l = r ++ [h]) /\ (forall k, In k l <-> below s h k)
  /\ (forall a k b n o, l = a ++ k :: b -> unpack s k = Ok n -> In o (node_operands n) -> In o a).
