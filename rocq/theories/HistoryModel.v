(** Histories of a factory: sequences of API calls on handles the caller got from earlier calls. *)
From Coq Require Import NArith ZArith List Bool.
From Coq Require String.
From Verif Require Import Base EncodingModel Syntax FactoryModel FactoryInv FactoryOps.
Import ListNotations.
Local Open Scope N_scope.
Local Open Scope res_scope.

(** The formula-building part of the API (formula_factory.rs 369-982); [CAux] is the internal generation of an auxiliary
    variable (1290-1312), [CParsed] the auxiliary-variable branch of [parsed_variable] (502-515), whose regular expression
    match on the name is not modelled: the caller chooses kind and index. *)
Inductive call :=
| CVariable (name : String.string)
| CLiteral (name : String.string) (phase : bool)
| CConstant (b : bool)
| CNary (cj : bool) (ops : list N)
| CClause (ls : list lit)
| CNot (h : N)
| CNegate (h : N)
| CImpl (l r : N)
| CEquiv (l r : N)
| CCc (c : ctype) (rhs : N) (vs : list var)
| CPbc (c : ctype) (rhs : Z) (ls : list lit) (cs : list Z)
| CAux (a : aux_type)
| CParsed (a : aux_type) (i : N).

Definition run_call (c : call) : M N :=
  match c with
  | CVariable n => f_variable n
  | CLiteral n p => f_literal n p
  | CConstant b => ret (constant b)
  | CNary cj ops => f_nary cj ops
  | CClause ls => f_clause ls
  | CNot h => f_not h
  | CNegate h => f_negate h
  | CImpl l r => f_implication l r
  | CEquiv l r => f_equivalence l r
  | CCc c rhs vs => f_cc c rhs vs
  | CPbc c rhs ls cs => f_pbc c rhs ls cs
  | CAux a => v <-- f_new_aux a ;; ret (encode_lit (Lit v true))
  | CParsed a i => ret (encode_lit (Lit (VAux a i) true))
  end.

(** The caller knows a variable if it has a formula whose leaves contain it: a literal or a constraint. *)
Definition node_vars (n : node) : list var :=
  match n with NLit l => [lit_var l] | NCc c => cc_vars c | NPbc p => map lit_var (pb_lits p) | _ => [] end.
Definition knows_var (s : factory) (known : list N) (v : var) : Prop :=
  exists h n, In h known /\ unpack s h = Ok n /\ In v (node_vars n).
Definition knows_lit (s : factory) (known : list N) (l : lit) : Prop := knows_var s known (lit_var l).

(** Arguments come from the caller's handles; numbers are in the range of their Rust types, except that the right-hand side
    of a constraint that becomes a cardinality constraint must fit [u32] (see C03_pbc_u32_refuted) and indices of parsed
    auxiliary variables must be below 2^26 (see C02_large_refuted). *)
Definition call_ok (s : factory) (known : list N) (c : call) : Prop :=
  match c with
  | CVariable _ | CLiteral _ _ | CConstant _ | CAux _ => True
  | CNary _ ops => incl ops known
  | CClause ls => Forall (knows_lit s known) ls
  | CNot h | CNegate h => In h known
  | CImpl l r | CEquiv l r => In l known /\ In r known
  | CCc _ rhs vs => Forall (knows_var s known) vs /\ rhs < 4294967296
  | CPbc c rhs ls cs => Forall (knows_lit s known) ls /\ pb_fits c rhs ls cs
  | CParsed _ i => i < cap26
  end.

(** One step: a call that returns (a panicking call ends the history), or inspecting the operands of a known formula.
    [cap]: the factory holds at most 2^26 formulas of each kind. *)
Inductive step : factory * list N -> factory * list N -> Prop :=
| st_call : forall s known c r s', call_ok s known c -> run_call c s = (Ok r, s') -> cap s' -> step (s, known) (s', r :: known)
| st_operands : forall s known h n, In h known -> unpack s h = Ok n -> step (s, known) (s, node_operands n ++ known).

Inductive steps : factory * list N -> factory * list N -> Prop :=
| sts_refl : forall a, steps a a
| sts_step : forall a b c, steps a b -> step b c -> steps a c.

(** States of a factory created with configuration [cfg]. *)
Definition reachable (cfg : ff_config) (s : factory) (known : list N) : Prop := steps (factory_new cfg, []) (s, known).

(** variable.rs 114-119 and formula_factory.rs 1314-1316, [Variable::name] for a variable created by name.  The decimal names of
    auxiliary variables are not modelled here. *)
Definition var_name (s : factory) (h : N) : res String.string :=
  do n <- unpack s h;
  match n with
  | NLit (Lit (VFF i) true) => of_opt (nthN (vt_vec (t_vars (f_tabs s))) i)
  | _ => Panic
  end.
