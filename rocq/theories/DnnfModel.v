(** Model counting on d-DNNF: src/knowledge_compilation/dnnf/dnnf_model_counting.rs. *)
From Coq Require Import NArith List Bool.
From Verif Require Import Base Syntax FactoryModel OpsModel CacheModel.
Import ListNotations.
Local Open Scope N_scope.

(** dnnf_compiler.rs 21-27, [DnnfFormula]; the set of variables as an increasing list. *)
Record dnnf_formula := mkDnnf { dn_formula : N; dn_vars : list var }.

(** [2.to_biguint().pow(n as u32)]: the exponent is truncated to 32 bits. *)
Definition pow2 (n : N) : N := 2 ^ (n mod 4294967296).

(** dnnf_model_counting.rs 20-46, [count_rec] and [handle_or_op] (inlined). The local cache is passed along. The subtraction of [usize] values in
    line 44 wraps; [precedence() >= LIT_PRECEDENCE] holds of literals and constants (formula.rs 1250-1264). *)
Fixpoint count_rec (fuel : nat) (h : N) (cache : list (N * N)) : M (N * list (N * N)) :=
  match fuel with
  | O => nofuel
  | S fuel' =>
      if is_falsum h then ret (0, cache)
      else if is_literal h || is_constant h then ret (1, cache)
      else
        match oc_get h cache with
        | Some n => ret (n, cache)
        | None =>
            n <-- unpackM h ;;
            p <-- match n with
                  | NAnd ops =>
                      mfold (fun op (p : N * list (N * N)) => q <-- count_rec fuel' op (snd p) ;; ret (fst p * fst q, snd q)) ops (1, cache)
                  | NOr ops =>
                      vs <-- variables fuel h ;;
                      mfold (fun op (p : N * list (N * N)) =>
                               q <-- count_rec fuel' op (snd p) ;;
                               ws <-- variables fuel' op ;;
                               ret (fst p + pow2 ((lenN vs + 18446744073709551616 - lenN ws) mod 18446744073709551616) * fst q, snd q)) ops (0, cache)
                  | _ => fail
                  end ;;
            ret (fst p, oc_insert h (fst p) (snd p))
        end
  end.

(** dnnf_model_counting.rs 12-18, [count]. *)
Definition count (fuel : nat) (d : dnnf_formula) : M N :=
  p <-- count_rec fuel (dn_formula d) [] ;;
  vs <-- variables fuel (dn_formula d) ;;
  ret (fst p * pow2 (lenN (filter (fun x => negb (existsb (var_eqb x) vs)) (dn_vars d)))).
