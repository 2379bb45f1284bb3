(** Data types of formulas and their textbook semantics.

    The first part transcribes the Rust data types for variables, literals, comparators and constraints.  The second part is
    the independent specification used by the property theorems: formula trees [fml] and their truth value [sem]; nothing in
    it refers to the factory. *)
From Coq Require Import NArith ZArith List Bool.
From Verif Require Import Base EncodingModel.
Import ListNotations.

(** src/formulas/variable.rs 65-71, [Variable].  Simplification: the Rust variant [FF] stores the full encoding of the positive
    literal; the model stores the index inside it (the rest of the encoding is constant, variable.rs 95-98 and 268-270). *)
Inductive var := VFF (i : N) | VAux (a : aux_type) (i : N).

Definition aux_eqb (a b : aux_type) : bool :=
  match a, b with AuxCNF, AuxCNF | AuxCC, AuxCC | AuxPB, AuxPB => true | _, _ => false end.

Definition var_eqb (v w : var) : bool :=
  match v, w with
  | VFF i, VFF j => N.eqb i j
  | VAux a i, VAux b j => aux_eqb a b && N.eqb i j
  | _, _ => false
  end.

(** src/formulas/literal.rs, [Literal]: [Pos(v)] is [Lit v true], [Neg(v)] is [Lit v false]. *)
Inductive lit := Lit (v : var) (phase : bool).

Definition lit_var (l : lit) : var := match l with Lit v _ => v end.
Definition lit_phase (l : lit) : bool := match l with Lit _ p => p end.
(** literal.rs 198-200, [Literal::negate]. *)
Definition lit_negate (l : lit) : lit := match l with Lit v p => Lit v (negb p) end.
Definition lit_eqb (l k : lit) : bool := var_eqb (lit_var l) (lit_var k) && Bool.eqb (lit_phase l) (lit_phase k).

(** src/formulas/pbc_cc.rs 21-33, [CType]. *)
Inductive ctype := EQ | GT | GE | LT | LE.
Definition ctype_eqb (a b : ctype) : bool :=
  match a, b with EQ, EQ | GT, GT | GE, GE | LT, LT | LE, LE => true | _, _ => false end.

(** pbc_cc.rs 99-107, [CardinalityConstraint]; [cc_rhs] is a [u32]. *)
Record cc := mkCc { cc_vars : list var; cc_cmp : ctype; cc_rhs : N }.

(** pbc_cc.rs 155-165, [PbConstraint]; coefficients and right-hand side are [i64]. *)
Record pbc := mkPbc { pb_lits : list lit; pb_coeffs : list Z; pb_cmp : ctype; pb_rhs : Z }.

(* ------------------------------------------------------------------------------------------------------------------ *)
(** * Specification: formula trees and truth values *)

Inductive fml :=
| FTrue
| FFalse
| FLit (l : lit)
| FNot (a : fml)
| FAnd (l : list fml)
| FOr (l : list fml)
| FImpl (a b : fml)
| FEquiv (a b : fml)
| FCc (c : cc)
| FPbc (p : pbc).

Definition valuation := var -> bool.

Definition lit_sem (v : valuation) (l : lit) : bool :=
  match l with Lit x p => if p then v x else negb (v x) end.

(** Comparison of the left-hand side with the right-hand side in the integers. *)
Definition cmp_sem (c : ctype) (lhs rhs : Z) : bool :=
  match c with
  | EQ => Z.eqb lhs rhs
  | GT => Z.ltb rhs lhs
  | GE => Z.leb rhs lhs
  | LT => Z.ltb lhs rhs
  | LE => Z.leb lhs rhs
  end.

(** Number of true variables (with multiplicity). *)
Fixpoint count_true (v : valuation) (xs : list var) : Z :=
  match xs with
  | [] => 0
  | x :: r => (if v x then 1 else 0) + count_true v r
  end%Z.

Definition cc_sem (v : valuation) (c : cc) : bool := cmp_sem (cc_cmp c) (count_true v (cc_vars c)) (Z.of_N (cc_rhs c)).

(** Weighted sum of the true literals. *)
Fixpoint weight (v : valuation) (ls : list lit) (cs : list Z) : Z :=
  match ls, cs with
  | l :: ls', c :: cs' => (if lit_sem v l then c else 0) + weight v ls' cs'
  | _, _ => 0
  end%Z.

Definition pbc_sem (v : valuation) (p : pbc) : bool :=
  cmp_sem (pb_cmp p) (weight v (pb_lits p) (pb_coeffs p)) (pb_rhs p).

Fixpoint sem (v : valuation) (a : fml) : bool :=
  match a with
  | FTrue => true
  | FFalse => false
  | FLit l => lit_sem v l
  | FNot b => negb (sem v b)
  | FAnd l => forallb (sem v) l
  | FOr l => existsb (sem v) l
  | FImpl b c => implb (sem v b) (sem v c)
  | FEquiv b c => Bool.eqb (sem v b) (sem v c)
  | FCc c => cc_sem v c
  | FPbc p => pbc_sem v p
  end.
