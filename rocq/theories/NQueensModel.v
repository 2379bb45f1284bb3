(** The generator for the n-queens problem (src/util/n_queens_generator.rs).

    Simplification: the assignment of [f.config.cc_config] (line 8) is left out. The theorems are about factories that
    have this configuration already. *)
From Coq Require Import String NArith List Bool Arith.
From Verif Require Import Base Syntax FactoryModel TransModel.
Import ListNotations.
Local Open Scope nat_scope.

(** n_queens_generator.rs 59-71, [generate_vars]; [kk] is [i * n + j + 1] for the cell [j] of row [i]. *)
Definition generate_vars (n : nat) : M (list (list var)) :=
  mmap (fun i => mmap (fun j => f_var (anon_name "v" (N.of_nat (i * n + j + 1)))) (seq 0 n)) (seq 0 n).

(** [var_names[i][j]]; an index out of bounds panics. *)
Definition cell (vs : list (list var)) (p : nat * nat) : res var :=
  match nth_error vs (fst p) with
  | Some row => match nth_error row (snd p) with Some u => Ok u | None => Panic end
  | None => Panic
  end.
Fixpoint cells (vs : list (list var)) (ps : list (nat * nat)) : res (list var) :=
  match ps with
  | [] => Ok []
  | p :: r => match cell vs p with
              | Ok u => match cells vs r with Ok us => Ok (u :: us) | Panic => Panic | NoFuel => NoFuel end
              | Panic => Panic
              | NoFuel => NoFuel
              end
  end.

(** The positions of the variables of each constraint, in the order of the loops. *)
Definition rows_of (n : nat) : list (ctype * list (nat * nat)) := map (fun i => (EQ, map (fun j => (i, j)) (seq 0 n))) (seq 0 n).          (* 11-15 *)
Definition columns_of (n : nat) : list (ctype * list (nat * nat)) := map (fun i => (EQ, map (fun j => (j, i)) (seq 0 n))) (seq 0 n).       (* 16-23 *)
Definition diagonals_of (n : nat) : list (ctype * list (nat * nat)) :=
  map (fun i => (LE, map (fun j => (j, i + j)) (seq 0 (n - i)))) (seq 0 (n - 1))                                                            (* 24-31 *)
  ++ map (fun i => (LE, map (fun j => (j + i, j)) (seq 0 (n - i)))) (seq 1 (n - 1 - 1))                                                     (* 32-39 *)
  ++ map (fun i => (LE, map (fun j => (j, n - 1 - (i + j))) (seq 0 (n - i)))) (seq 0 (n - 1))                                               (* 40-47 *)
  ++ map (fun i => (LE, map (fun j => (j + i, n - 1 - j)) (seq 0 (n - i)))) (seq 1 (n - 1 - 1)).                                            (* 48-55 *)

(** One pass of a loop: the constraint and its negation normal form. *)
Definition queens_line (fuel : nat) (vs : list (list var)) (l : ctype * list (nat * nat)) : M N :=
  us <-- lift (fun _ => cells vs (snd l)) ;; h <-- f_cc (fst l) 1%N us ;; nnf fuel h.

(** n_queens_generator.rs 7-57, [generate_n_queens]; [0..n - 1] underflows for [n = 0] (24). *)
Definition generate_n_queens (fuel n : nat) : M N :=
  vs <-- generate_vars n ;;
  o1 <-- mmap (queens_line fuel vs) (rows_of n ++ columns_of n) ;;
  if n =? 0 then fail else
  o2 <-- mmap (queens_line fuel vs) (diagonals_of n) ;;
  f_nary true (o1 ++ o2).
