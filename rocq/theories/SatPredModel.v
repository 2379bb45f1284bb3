(** Model of the predicates src/operations/predicates/sat.rs. *)
From Coq Require Import NArith ZArith List Bool Arith.
From Verif Require Import Base EncodingModel Syntax FactoryModel CacheModel TransModel SatModel MiniModel PgSolverModel BbSimpModel.
Import ListNotations.
Local Open Scope N_scope.

(** [f.caches.sat.insert]. *)
Definition set_sat (c : op_caches) x : op_caches := mkOpCaches (oc_atoms c) (oc_nodes c) (oc_depth c) (oc_vars c) (oc_lits c)
  (oc_sub c) (oc_ccenc c) (oc_pbcenc c) (oc_nnf c) (oc_dnf c) (oc_cnf c) x (oc_is_nnf c) (oc_is_dnf c) (oc_is_cnf c)
  (oc_contains_pbc c) (oc_bb c).
Definition put_sat (h : N) (b : bool) : M unit := cache_put on_sat (fun c => set_sat c (oc_insert h b (oc_sat c))).

(** sat.rs 27-40, [is_sat]; [alg] is the algorithm in the configuration of the factory. Without a handler [sat] never is
    [Undef]. *)
Definition is_sat (orc : oracle) (alg : cnf_algorithm) (fuel : nat) (h : N) : M bool :=
  cached <-- cache_get oc_sat h ;;
  match cached with
  | Some b => ret b
  | None =>
      fs <-- add_to_solver default_mc (FactoryCnf alg) fuel h fs_new ;;
      p <-- lift (fun _ => fs_sat default_mc orc fuel None None fs) ;;
      put_sat h (fst p) ;;; ret (fst p)
  end.
(** sat.rs 78-98, [is_tautology]: the same for the negated formula, whose answer is negated. *)
Definition is_tautology (orc : oracle) (alg : cnf_algorithm) (fuel : nat) (h : N) : M bool :=
  g <-- f_negate h ;;
  cached <-- cache_get oc_sat g ;;
  match cached with
  | Some b => ret (negb b)
  | None =>
      fs <-- add_to_solver default_mc (FactoryCnf alg) fuel g fs_new ;;
      p <-- lift (fun _ => fs_sat default_mc orc fuel None None fs) ;;
      put_sat g (fst p) ;;; ret (negb (fst p))
  end.
