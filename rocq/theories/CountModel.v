(** Model of src/operations/functions/model_count.rs 34-62 and 110-129: counting the models of a formula with a BDD.

    Simplifications.  The set of relevant variables is a list without repetitions.  The kernel's sizes are those after the
    search for a prime number; [prime] answers the searches when the table grows.  [fuelp] bounds the recursion of the pure
    expansion, [fuel] the other recursions and [rounds] the rounds of FORCE.  The BDD is built from the tree of the formula, which
    the code reads node by node.  The other algorithms (DNNF, an external library) are not part of this model. *)
From Coq Require Import NArith ZArith List Bool Arith.
From Verif Require Import Base EncodingModel Syntax FactoryModel OpsModel CacheModel TransModel BddModel OrderModel XReplay.
Import ListNotations.
Local Open Scope N_scope.
Local Open Scope res_scope.

(** model_count.rs 53-54; advanced.rs 44-48; cnf/mod.rs 91-93: the algorithm and a new encoder. *)
Definition count_algorithm : cnf_algorithm := CnfAdvanced 18446744073709551615 1000 (CnfTseitin default_boundary).
Definition count_encoder : cnf_encoder := mkCnfEncoder (Some cnf_state_new) (Some cnf_state_new).

(** model_count.rs 121-124. *)
Definition count_formula (alg : cnf_algorithm) (prime : nat -> N -> nat) (size csize rounds fuel : nat) (h : N) : M N :=
  ord <-- force_ordering alg rounds fuel h ;;
  lift (fun s =>
    do k <- new_with_ordering prime ord size csize;
    do x <- of_opt (tree_of fuel s h);
    do ' (k1, n) <- from_formula k x;
    do ' (_, c) <- sat_count k1 n;
    Ok c).

(** model_count.rs 58-60 and 132-145: two to the number of the relevant variables that are not used. *)
Definition care_factor (relevant used : list var) : M N :=
  let n := N.of_nat (length (filter (fun u => negb (existsb (var_eqb u) used)) relevant)) in
  if n <? 4294967296 then ret (2 ^ n) else fail.

(** model_count.rs 41-62. *)
Definition count_models_with_vars (alg : cnf_algorithm) (prime : nat -> N -> nat) (size csize rounds fuelp fuel : nat) (h : N) (relevant : list var) : M N :=
  vs <-- variables fuelp h ;;
  if negb (forallb (fun u => existsb (var_eqb u) relevant) vs) then fail
  else
    match vs with
    | [] => ret (if is_verum h then 1 else 0)
    | _ =>
        e <-- pure_expansion fuelp h ;;
        c <-- cnf_transform count_algorithm fuel e count_encoder ;;
        n <-- count_formula alg prime size csize rounds fuel (fst c) ;;
        used <-- variables fuel (fst c) ;;
        k <-- care_factor relevant used ;;
        ret (n * k)
    end.
(** model_count.rs 34-36. *)
Definition count_models (alg : cnf_algorithm) (prime : nat -> N -> nat) (size csize rounds fuelp fuel : nat) (h : N) : M N :=
  vs <-- variables fuelp h ;;
  count_models_with_vars alg prime size csize rounds fuelp fuel h vs.
