(** The sizes of the tables of a BDD kernel, computed with the model of the prime search.

    Simplification: the caches of a kernel have one common size; in the code each cache searches with random numbers of its own. *)
From Coq Require Import NArith List Bool Arith.
From Verif Require Import Base FactoryModel PrimeModel CacheModel TransModel CountModel.
Local Open Scope N_scope.
Local Open Scope res_scope.

(** bdd_kernel.rs 113-114 and bdd_cache.rs 30: the size of a new table. *)
Definition table_size (fuel : nat) (ws : nat -> nat -> N) (n : N) : res nat := do r <- prime_gte fuel ws (N.max n 3); Ok (N.to_nat r).
(** bdd_kernel.rs 516-523: the new size of the node table for the request [b]; [ws i] are the random numbers drawn after [i] garbage
    collections.  Not in the code: requests for more than 2^24 + 50000 nodes, or without a result, are granted as they are. *)
Definition growth (ws : nat -> nat -> nat -> N) (i : nat) (b : N) : nat :=
  if b <=? 16827216 then match prime_lte (N.to_nat b) (ws i) b with Ok r => N.to_nat r | _ => N.to_nat b end else N.to_nat b.

(** model_count.rs 41-62 and 121-122, with the sizes of the configuration. *)
Definition count_with_sizes (alg : cnf_algorithm) (sfuel : nat) (w0 w1 : nat -> nat -> N) (ws : nat -> nat -> nat -> N) (node_size cache_size : N) (rounds fuelp fuel : nat) (h : N) (relevant : list Syntax.var) : M N :=
  size <-- lift (fun _ => table_size sfuel w0 node_size) ;;
  csize <-- lift (fun _ => table_size sfuel w1 cache_size) ;;
  count_models_with_vars alg (growth ws) size csize rounds fuelp fuel h relevant.
