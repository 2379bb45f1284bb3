(** Model of src/knowledge_compilation/bdd/bdd_prime.rs: the sizes of the tables of a BDD kernel.

    Numbers are those of a 64-bit machine; an arithmetic overflow panics, as in a debug build.  The random numbers come from an arbitrary
    function: [ws c k] determines the number drawn in test [k] of candidate [c]. *)
From Coq Require Import NArith List Bool Arith.
From Verif Require Import Base FactoryModel.
Import ListNotations.
Local Open Scope N_scope.
Local Open Scope res_scope.

Definition usize_max : N := 18446744073709551616.

(** 85-87, [bit_is_set]. *)
Definition bit_is_set (src b : N) : bool := N.testbit src b.
(** 73-83, [number_of_bits]: only 31 bits are looked at. *)
Fixpoint high_bit (n : nat) (src : N) : N :=
  match n with
  | O => 1
  | S b => if bit_is_set src (N.of_nat b) then N.of_nat b + 1 else high_bit b src
  end.
Definition number_of_bits (src : N) : N := if src =? 0 then 0 else high_bit 31 src.
(** 89-91, [mulmod]. *)
Definition mulmod (a b c : N) : res N :=
  if usize_max <=? a * b then Panic else if c =? 0 then Panic else Ok ((a * b) mod c).

(** 59-70, the loop of [is_witness]; [n] bits are left. *)
Fixpoint witness_loop (n : nat) (witness src d : N) : res bool :=
  match n with
  | O => Ok (negb (d =? 1))
  | S i =>
      do d2 <- mulmod d d src;
      if (d2 =? 1) && negb (d =? 1) && negb (d =? src - 1) then Ok true
      else
        do d3 <- (if bit_is_set (src - 1) (N.of_nat i) then mulmod d2 witness src else Ok d2);
        witness_loop i witness src d3
  end.
(** 57-71, [is_witness]: 0 bits underflow. *)
Definition is_witness (witness src : N) : res bool :=
  let n := number_of_bits (src - 1) in
  if n =? 0 then Panic else witness_loop (N.to_nat n) witness src 1.

(** 53-55, [random]: a number from 1 to below [i]; an empty range panics. *)
Definition random (w i : N) : res N := if i <=? 1 then Panic else Ok (1 + w mod (i - 1)).

(** 43-51, [is_miller_rabin_prime]; [n] tests are left. *)
Fixpoint miller_rabin (n : nat) (w : nat -> N) (src : N) : res bool :=
  match n with
  | O => Ok true
  | S n =>
      if src =? 0 then Panic
      else
        do a <- random (w n) (src - 1);
        do b <- is_witness a src;
        if b then Ok false else miller_rabin n w src
  end.

(** 35-41, [has_easy_factors], [has_factor]. *)
Definition has_factor (src n : N) : bool := negb (src =? n) && (src mod n =? 0).
Definition has_easy_factors (src : N) : bool := has_factor src 3 || has_factor src 5 || has_factor src 7 || has_factor src 11 || has_factor src 13.
(** 31-33, [is_prime]. *)
Definition is_prime (w : nat -> N) (src : N) : res bool := if has_easy_factors src then Ok false else miller_rabin 20 w src.

(** 9-11: the loop of [prime_gte]; [fuel] bounds the candidates. *)
Fixpoint up (fuel : nat) (ws : nat -> nat -> N) (n : N) : res N :=
  match fuel with
  | O => NoFuel
  | S fuel =>
      do b <- is_prime (ws fuel) n;
      if b then Ok n else if usize_max <=? n + 2 then Panic else up fuel ws (n + 2)
  end.
(** 4-13, [prime_gte]. *)
Definition prime_gte (fuel : nat) (ws : nat -> nat -> N) (num : N) : res N := up fuel ws (if N.even num then num + 1 else num).
(** 21-23: the loop of [prime_lte]. *)
Fixpoint dn (fuel : nat) (ws : nat -> nat -> N) (n : N) : res N :=
  match fuel with
  | O => NoFuel
  | S fuel =>
      do b <- is_prime (ws fuel) n;
      if b then Ok n else if n <? 2 then Panic else dn fuel ws (n - 2)
  end.
(** 16-25, [prime_lte]. *)
Definition prime_lte (fuel : nat) (ws : nat -> nat -> N) (num : N) : res N :=
  if N.even num then (if num =? 0 then Panic else dn fuel ws (num - 1)) else dn fuel ws num.
