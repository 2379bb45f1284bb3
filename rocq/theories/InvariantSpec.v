(** The documented invariants of the factory (formula_factory.rs 83-110), stated on formula trees only. *)
From Coq Require Import NArith List Bool Permutation.
From Verif Require Import Base Syntax.
Import ListNotations.

(** Equality of trees up to the order of n-ary operands and of the two sides of equivalences, at every level. *)
Inductive feq : fml -> fml -> Prop :=
| fe_true : feq FTrue FTrue
| fe_false : feq FFalse FFalse
| fe_lit : forall l, feq (FLit l) (FLit l)
| fe_not : forall a b, feq a b -> feq (FNot a) (FNot b)
| fe_and : forall l m' m, Forall2 feq l m' -> Permutation m' m -> feq (FAnd l) (FAnd m)
| fe_or : forall l m' m, Forall2 feq l m' -> Permutation m' m -> feq (FOr l) (FOr m)
| fe_impl : forall a b a' b', feq a a' -> feq b b' -> feq (FImpl a b) (FImpl a' b')
| fe_equiv : forall a b a' b', feq a a' -> feq b b' -> feq (FEquiv a b) (FEquiv a' b')
| fe_equiv_swap : forall a b a' b', feq a b' -> feq b a' -> feq (FEquiv a b) (FEquiv a' b')
| fe_cc : forall c, feq (FCc c) (FCc c)
| fe_pbc : forall p, feq (FPbc p) (FPbc p).

Inductive subterm : fml -> fml -> Prop :=
| su_refl : forall x, subterm x x
| su_not : forall y a, subterm y a -> subterm y (FNot a)
| su_and : forall y a l, In a l -> subterm y a -> subterm y (FAnd l)
| su_or : forall y a l, In a l -> subterm y a -> subterm y (FOr l)
| su_impl_l : forall y a b, subterm y a -> subterm y (FImpl a b)
| su_impl_r : forall y a b, subterm y b -> subterm y (FImpl a b)
| su_equiv_l : forall y a b, subterm y a -> subterm y (FEquiv a b)
| su_equiv_r : forall y a b, subterm y b -> subterm y (FEquiv a b).

Definition is_const (x : fml) : Prop := x = FTrue \/ x = FFalse.
(** One formula is the negation of the other one. *)
Definition inverse (x y : fml) : Prop :=
  feq (FNot x) y \/ feq x (FNot y) \/ exists l, x = FLit l /\ y = FLit (lit_negate l).

(** Operand lists: at least two operands, no constants, pairwise different, no pair of inverse operands. *)
Definition nary_ok (l : list fml) : Prop :=
  2 <= length l
  /\ (forall x, In x l -> ~ is_const x)
  /\ ForallOrdPairs (fun x y => ~ feq x y) l
  /\ (forall x y, In x l -> In y l -> ~ inverse x y).

Definition local_ok (x : fml) : Prop :=
  match x with
  | FTrue | FFalse | FLit _ | FCc _ | FPbc _ => True
  | FNot a => match a with FTrue | FFalse | FLit _ | FNot _ => False | _ => True end
  | FAnd l => nary_ok l /\ (forall k, ~ In (FAnd k) l)
  | FOr l => nary_ok l /\ (forall k, ~ In (FOr k) l)
  | FImpl a b | FEquiv a b => ~ is_const a /\ ~ is_const b /\ ~ feq a b
  end.

Definition doc_ok (x : fml) : Prop := forall y, subterm y x -> local_ok y.
