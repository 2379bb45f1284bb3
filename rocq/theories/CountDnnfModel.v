(** Model of src/operations/functions/model_count.rs 34-62 and 116-120: counting the models of a formula by compiling it to DNNF.

    Simplifications.  As in [CountModel] and [DnnfCompModel]; [rounds] bounds the loop of the backbone computation and [dd] the recursion of
    the compiler. *)
From Coq Require Import NArith ZArith List Bool Arith.
From Verif Require Import Base EncodingModel Syntax FactoryModel OpsModel CacheModel TransModel SatModel MiniModel PgSolverModel BbSimpModel SatPredModel DnnfModel DnnfCompModel CountModel.
From Verif Require ParserModel.
Import ListNotations.
Local Open Scope N_scope.

(** model_count.rs 116-120. *)
Definition count_formula_dnnf (orc : oracle) (alg : cnf_algorithm) (fid : ParserModel.text) (ord : list lit -> nat -> list nat -> list nat) (rounds dd fuel : nat) (h : N) : M N :=
  d <-- compile_dnnf orc alg fid ord rounds dd fuel h ;;
  DnnfModel.count fuel d.

(** model_count.rs 41-62. *)
Definition count_models_with_vars_dnnf (orc : oracle) (alg : cnf_algorithm) (fid : ParserModel.text) (ord : list lit -> nat -> list nat -> list nat) (rounds dd fuelp fuel : nat) (h : N) (relevant : list var) : M N :=
  vs <-- variables fuelp h ;;
  if negb (forallb (fun u => existsb (var_eqb u) relevant) vs) then fail
  else
    match vs with
    | [] => ret (if is_verum h then 1 else 0)
    | _ =>
        e <-- pure_expansion fuelp h ;;
        c <-- cnf_transform count_algorithm fuel e count_encoder ;;
        n <-- count_formula_dnnf orc alg fid ord rounds dd fuel (fst c) ;;
        used <-- variables fuel (fst c) ;;
        k <-- care_factor relevant used ;;
        ret (n * k)
    end.
(** model_count.rs 34-36. *)
Definition count_models_dnnf (orc : oracle) (alg : cnf_algorithm) (fid : ParserModel.text) (ord : list lit -> nat -> list nat -> list nat) (rounds dd fuelp fuel : nat) (h : N) : M N :=
  vs <-- variables fuelp h ;;
  count_models_with_vars_dnnf orc alg fid ord rounds dd fuelp fuel h vs.
