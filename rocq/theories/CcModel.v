(** Model of the cardinality constraint encodings: src/cardinality_constraints/*.rs and the trait [EncodingResult] of
    src/datastructures/encoding_result.rs.

    An encoder is a computation which creates auxiliary variables and emits clauses.  The two implementations of the trait
    ([EncodingResultFF], which turns each clause into a formula, and [EncodingResultSatSolver], which adds it to a solver)
    both consume the emitted clauses in order; emitting a clause does not touch the counters of the auxiliary variables
    and creating a variable does not touch the formula tables, so the model emits the list of clauses.

    Sizes are [nat]; the [f64] square roots, logarithms and quotients are replaced by the exact integer functions (they
    agree for lists of less than 2^52 elements). *)
From Coq Require Import NArith ZArith List Bool Arith.
From Verif Require Import Base EncodingModel Syntax FactoryModel.
Import ListNotations.
Local Open Scope nat_scope.

Definition clause := list lit.

(** The counters of the auxiliary variables (formula_factory.rs 134-138), and the number of registered variables, which no
    encoder changes. *)
Record ctrs := mkCtrs { k_ff : N; k_cnf : N; k_cc : N; k_pb : N }.

Definition ctr (st : ctrs) (a : aux_type) : N :=
  match a with AuxCNF => k_cnf st | AuxCC => k_cc st | AuxPB => k_pb st end.

Definition bump (st : ctrs) (a : aux_type) : ctrs :=
  match a with
  | AuxCNF => mkCtrs (k_ff st) (N.succ (k_cnf st)) (k_cc st) (k_pb st)
  | AuxCC => mkCtrs (k_ff st) (k_cnf st) (N.succ (k_cc st)) (k_pb st)
  | AuxPB => mkCtrs (k_ff st) (k_cnf st) (k_cc st) (N.succ (k_pb st))
  end.

(** Computations which create variables and emit clauses. *)
Definition G (A : Type) := ctrs -> res (A * ctrs * list clause).

Definition gret {A} (a : A) : G A := fun st => Ok (a, st, []).
Definition gbind {A B} (g : G A) (k : A -> G B) : G B := fun st =>
  match g st with
  | Ok (a, st1, c1) =>
      match k a st1 with
      | Ok (b, st2, c2) => Ok (b, st2, c1 ++ c2)
      | Panic => Panic
      | NoFuel => NoFuel
      end
  | Panic => Panic
  | NoFuel => NoFuel
  end.
Definition gpanic {A} : G A := fun _ => Panic.
Definition gnofuel {A} : G A := fun _ => NoFuel.

Declare Scope gen_scope.
Delimit Scope gen_scope with gen.
Notation "x <~ g ;; k" := (gbind g (fun x => k)) (at level 61, g at next level, right associativity) : gen_scope.
Notation "g ;; k" := (gbind g (fun _ => k)) (at level 61, right associativity) : gen_scope.
Local Open Scope gen_scope.

(** encoding_result.rs 98-100 and 164-170, [new_auxiliary_variable] (as a positive literal). *)
Definition new_aux (a : aux_type) : G lit := fun st => Ok (Lit (VAux a (ctr st a)) true, bump st a, []).

(** encoding_result.rs 102-104 and 173-179, [add_clause]. *)
Definition add (c : clause) : G unit := fun st => Ok (tt, st, [c]).

(** [vec[i]]. *)
Definition ix {A} (l : list A) (i : nat) : res A := of_opt (nth_error l i).

Definition rneg (r : res lit) : res lit := match r with Ok l => Ok (lit_negate l) | Panic => Panic | NoFuel => NoFuel end.

Fixpoint rall {A} (es : list (res A)) : res (list A) :=
  match es with
  | [] => Ok []
  | e :: r => rbind e (fun x => rbind (rall r) (fun xs => Ok (x :: xs)))
  end.

(** [add_clause] of literals read from vectors. *)
Definition add_r (es : list (res lit)) : G unit := fun st =>
  match rall es with Ok c => Ok (tt, st, [c]) | Panic => Panic | NoFuel => NoFuel end.

Definition glift {A} (r : res A) : G A := fun st =>
  match r with Ok a => Ok (a, st, []) | Panic => Panic | NoFuel => NoFuel end.

(** [assert!]. *)
Definition gassert (b : bool) : G unit := if b then gret tt else gpanic.

(** [for x in l { body }]. *)
Fixpoint gfor {A} (l : list A) (body : A -> G unit) : G unit :=
  match l with
  | [] => gret tt
  | x :: r => body x ;; gfor r body
  end.

Definition gwhen (b : bool) (g : G unit) : G unit := if b then g else gret tt.

(** [k] new variables in a vector. *)
Fixpoint allocs (a : aux_type) (k : nat) : G (list lit) :=
  match k with
  | O => gret []
  | S k' => x <~ new_aux a ;; xs <~ allocs a k' ;; gret (x :: xs)
  end.

Definition plit (v : var) : lit := Lit v true.
Definition nlit (v : var) : lit := Lit v false.

(** Rounded up division of [usize]; 0/0 is 0 as for the cast of a NaN. *)
Definition cdiv (a b : nat) : nat := (a + b - 1) / b.
Definition sqrt_up (n : nat) : nat := Nat.sqrt_up n.
Definition log2_up (n : nat) : nat := Nat.log2_up n.

(* ------------------------------------------------------------------------------------------------------------------ *)
(** * At most one *)

(** cc_amo_pure.rs 6-12, [build_amo_pure]; the same double loop is cc_amo_bimander.rs 71-77, cc_amo_commander.rs 50-56,
    cc_amo_nested.rs 12-16 and cc_amo_product.rs 42-48.  The loop over [j > i] is the loop over the rest of the list. *)
Fixpoint naive (ls : list lit) : G unit :=
  match ls with
  | [] => gret tt
  | x :: r => gfor r (fun y => add [lit_negate x; lit_negate y]) ;; naive r
  end.

(** cc_amo_ladder.rs 6-20, [build_amo_ladder]; [vars.len() - 1] underflows on the empty list. *)
Definition amo_ladder (xs : list lit) : G unit :=
  let n := length xs in
  gassert (1 <=? n) ;;
  ss <~ allocs AuxCC (n - 1) ;;
  gfor (seq 0 n) (fun i =>
    if i =? 0 then add_r [rneg (ix xs i); ix ss 0]
    else if i =? n - 1 then add_r [rneg (ix xs i); rneg (ix ss (i - 1))]
    else
      add_r [rneg (ix xs i); ix ss i] ;;
      add_r [rneg (ix ss (i - 1)); ix ss i] ;;
      add_r [rneg (ix xs i); rneg (ix ss (i - 1))]).

(** cc_amo_product.rs 13-40, [product_rec]. *)
Fixpoint amo_product (fuel : nat) (bound : nat) (xs : list lit) : G unit :=
  match fuel with
  | O => gnofuel
  | S fuel' =>
      let n := length xs in
      let p := sqrt_up n in
      let q := cdiv n p in
      us <~ allocs AuxCC p ;;
      vs <~ allocs AuxCC q ;;
      (if p <=? bound then naive us else amo_product fuel' bound us) ;;
      (if q <=? bound then naive vs else amo_product fuel' bound vs) ;;
      gfor (seq 0 p) (fun i =>
        gfor (seq 0 q) (fun j =>
          let k := i * q + j in
          gwhen (k <? n)
            (add_r [rneg (ix xs k); ix us i] ;;
             add_r [rneg (ix xs k); ix vs j])))
  end.

(** cc_amo_nested.rs 10-28, [encode_intern]. *)
Fixpoint amo_nested (fuel : nat) (group_size : nat) (xs : list lit) : G unit :=
  match fuel with
  | O => gnofuel
  | S fuel' =>
      if length xs <? group_size then naive xs
      else
        y <~ new_aux AuxCC ;;
        let split := length xs / 2 in
        let l2 := skipn split xs ++ [lit_negate y] in
        let l1 := firstn split xs ++ [y] in
        amo_nested fuel' group_size l1 ;;
        amo_nested fuel' group_size l2
  end.

(** cc_amo_commander.rs 24-39, the [for] loop: [i] is the index, [acc] the vector [literals], the result the vector
    [next_literals]. *)
Fixpoint commander_round (k : nat) (exactly_one : bool) (i : nat) (acc rest : list lit) : G (list lit) :=
  match rest with
  | [] => gret []
  | x :: rest' =>
      let acc' := acc ++ [x] in
      if (i mod k =? k - 1) || (match rest' with [] => true | _ => false end) then
        naive acc' ;;
        c <~ new_aux AuxCC ;;
        gwhen exactly_one (add (acc' ++ [c])) ;;
        gfor acc' (fun l => add [lit_negate c; lit_negate l]) ;;
        next <~ commander_round k exactly_one (S i) [] rest' ;;
        gret (lit_negate c :: next)
      else commander_round k exactly_one (S i) acc' rest'
  end.

(** cc_amo_commander.rs 13-48, [encode_recursive]; [i % 0] panics. *)
Fixpoint amo_commander (fuel : nat) (k : nat) (exactly_one : bool) (cur : list lit) : G unit :=
  match fuel with
  | O => gnofuel
  | S fuel' =>
      if k <? length cur then
        gassert (1 <=? k) ;;
        next <~ commander_round k exactly_one 0 [] cur ;;
        amo_commander fuel' k true next
      else
        naive cur ;;
        gwhen (exactly_one && negb (match cur with [] => true | _ => false end)) (add cur)
  end.

(** cc_amo_binary.rs 21 and cc_amo_bimander.rs 21. *)
Definition gray (i : N) : N := N.lxor i (N.shiftr i 1).

(** cc_amo_bimander.rs 79-84, [handle_gray_code]; cc_amo_binary.rs 26-30 is the case of one literal. *)
Definition handle_gray (group : list lit) (bit : lit) (code : N) (j : nat) : G unit :=
  let b := if N.testbit code (N.of_nat j) then bit else lit_negate bit in
  gfor group (fun p => add [lit_negate p; b]).

(** cc_amo_bimander.rs 15-38 and cc_amo_binary.rs 15-46 (there each group is one variable): the first loop takes the codes
    in pairs, [index] being half of [i]; the second takes single codes. *)
Definition gray_loops (groups : list (list lit)) (bits : list lit) (number_of_bits two_pow k : nat) : G unit :=
  gfor (seq 0 (k / 2)) (fun index =>
    let code := gray (N.of_nat (2 * index)) in
    let next := gray (N.of_nat (2 * index + 1)) in
    gfor (seq 0 number_of_bits) (fun j =>
      gwhen (Bool.eqb (N.testbit code (N.of_nat j)) (N.testbit next (N.of_nat j)))
        (b <~ glift (ix bits j) ;; g <~ glift (ix groups index) ;; handle_gray g b code j))) ;;
  gfor (seq k (two_pow - k)) (fun i =>
    let index := k / 2 + (i - k) in
    let code := gray (N.of_nat i) in
    gfor (seq 0 number_of_bits) (fun j =>
      b <~ glift (ix bits j) ;; g <~ glift (ix groups index) ;; handle_gray g b code j)).

(** cc_amo_binary.rs 8-47, [build_amo_binary]. *)
Definition amo_binary (xs : list lit) : G unit :=
  let n := length xs in
  let number_of_bits := log2_up n in
  let two_pow := 2 ^ number_of_bits in
  let k := (two_pow - n) * 2 in
  bits <~ allocs AuxCC number_of_bits ;;
  gray_loops (map (fun x => [x]) xs) bits number_of_bits two_pow k.

(** cc_amo_bimander.rs 41-61, [initialize_groups]: the loop which fills the groups.  [rest] is [vars[i..]], [left] is
    [group_size - ig]; indexing [groups] out of bounds panics. *)
Fixpoint split_groups (left : nat) (rest : list lit) : res (list (list lit)) :=
  match rest, left with
  | [], _ => Ok (repeat [] left)
  | _ :: _, O => Panic
  | _ :: _, S left' =>
      let g := cdiv (length rest) left in
      rbind (split_groups left' (skipn g rest)) (fun gs => Ok (firstn g rest :: gs))
  end.

(** cc_amo_bimander.rs 12-39, [encode_intern] with [initialize_groups] and [initialize_bits] (63-69). *)
Definition amo_bimander (m : nat) (xs : list lit) : G unit :=
  groups <~ glift (split_groups m xs) ;;
  gfor groups naive ;;
  let number_of_bits := log2_up m in
  let two_pow := 2 ^ number_of_bits in
  let k := (two_pow - m) * 2 in
  bits <~ allocs AuxCC number_of_bits ;;
  gray_loops groups bits number_of_bits two_pow k.

(* ------------------------------------------------------------------------------------------------------------------ *)
(** * Incremental data *)

(** cc_incremental_data.rs 11-19, [CcIncrementalData]. *)
Inductive inc_encoder := IncAmk (e : amk_encoder) | IncAlk (e : alk_encoder).
Record inc_data := mkInc
  { inc_enc : inc_encoder; inc_v1 : list lit; inc_v2 : option (list lit); inc_md : nat; inc_n : nat; inc_rhs : nat }.

(* ------------------------------------------------------------------------------------------------------------------ *)
(** * Totalizer *)

Inductive bound := BLower | BUpper | BBoth.
Definition has_upper (b : bound) : bool := match b with BLower => false | _ => true end.
Definition has_lower (b : bound) : bool := match b with BUpper => false | _ => true end.

(** cc_totalizer.rs 102-122, [adder_amk]. *)
Definition adder_amk (left right out : list lit) (rhs : nat) : G unit :=
  gfor (seq 0 (S (length left))) (fun i =>
    gfor (seq 0 (S (length right))) (fun j =>
      if ((i =? 0) && (j =? 0)) || (rhs + 1 <? i + j) then gret tt
      else if i =? 0 then add_r [rneg (ix right (j - 1)); ix out (j - 1)]
      else if j =? 0 then add_r [rneg (ix left (i - 1)); ix out (i - 1)]
      else add_r [rneg (ix left (i - 1)); rneg (ix right (j - 1)); ix out (i + j - 1)])).

(** cc_totalizer.rs 124-144, [adder_alk]. *)
Definition adder_alk (left right out : list lit) : G unit :=
  gfor (seq 0 (S (length left))) (fun i =>
    gfor (seq 0 (S (length right))) (fun j =>
      if (i =? 0) && (j =? 0) then gret tt
      else if i =? 0 then add_r [ix right (j - 1); rneg (ix out (length left + j - 1))]
      else if j =? 0 then add_r [ix left (i - 1); rneg (ix out (length right + i - 1))]
      else add_r [ix left (i - 1); ix right (j - 1); rneg (ix out (i + j - 2))])).

(** [invars.pop().unwrap()], the vector being kept reversed. *)
Definition pop (stack : list lit) : G (lit * list lit) :=
  match stack with [] => gpanic | x :: r => gret (x, r) end.

(** cc_totalizer.rs 73-87: one side of the children; [size] is 1 exactly if the side is a leaf. *)
Definition tot_child (size : nat) (stack : list lit) : G (list lit * list lit) :=
  if size =? 1 then p <~ pop stack ;; gret ([fst p], snd p)
  else xs <~ allocs AuxCC size ;; gret (xs, stack).

(** cc_totalizer.rs 68-100, [to_cnf]; the result is the rest of [cardinality_invars]. *)
Fixpoint tot_cnf (fuel : nat) (stack out : list lit) (rhs : nat) (b : bound) : G (list lit) :=
  match fuel with
  | O => gnofuel
  | S fuel' =>
      let split := length out / 2 in
      l <~ tot_child split stack ;;
      r <~ tot_child (length out - split) (snd l) ;;
      gwhen (has_upper b) (adder_amk (fst l) (fst r) out rhs) ;;
      gwhen (has_lower b) (adder_alk (fst l) (fst r) out) ;;
      s1 <~ (if 1 <? split then tot_cnf fuel' (snd r) (fst l) rhs b else gret (snd r)) ;;
      (if 1 <? length out - split then tot_cnf fuel' s1 (fst r) rhs b else gret s1)
  end.

(** cc_totalizer.rs 14-28, [build_amk]. *)
Definition tot_amk (xs : list lit) (rhs : nat) (with_inc : bool) : G (option inc_data) :=
  out <~ allocs AuxCC (length xs) ;;
  tot_cnf (S (length xs)) (rev xs) out rhs BUpper ;;
  gfor (skipn rhs out) (fun y => add [lit_negate y]) ;;
  gret (if with_inc then Some (mkInc (IncAmk AmkTotalizer) out None 0 0 rhs) else None).

(** cc_totalizer.rs 30-44, [build_alk]. *)
Definition tot_alk (xs : list lit) (rhs : nat) (with_inc : bool) : G (option inc_data) :=
  out <~ allocs AuxCC (length xs) ;;
  tot_cnf (S (length xs)) (rev xs) out rhs BLower ;;
  gfor (firstn rhs out) (fun y => add [y]) ;;
  gret (if with_inc then Some (mkInc (IncAlk AlkTotalizer) out None 0 (length xs) rhs) else None).

(** cc_totalizer.rs 46-56, [build_exk]. *)
Definition tot_exk (xs : list lit) (rhs : nat) : G unit :=
  out <~ allocs AuxCC (length xs) ;;
  tot_cnf (S (length xs)) (rev xs) out rhs BBoth ;;
  gfor (firstn rhs out) (fun y => add [y]) ;;
  gfor (skipn rhs out) (fun y => add [lit_negate y]).

(* ------------------------------------------------------------------------------------------------------------------ *)
(** * Modular totalizer

    The placeholder literal [h0] (an auxiliary variable of type TMP) is [None]. *)

Definition olit := option lit.

(** cc_modular_totalizer.rs 224-276, [final_adder]. *)
Definition final_adder (md : nat) (upper lupper rupper : list olit) (carry : lit) (ccr : nat) : G unit :=
  gfor (seq 0 (S (length lupper))) (fun i =>
    gfor (seq 0 (S (length rupper))) (fun j =>
      let close_mod := ccr / md + (if ccr mod md =? 0 then 0 else 1) in
      if close_mod * md <? md * (i + j) then gret tt
      else
        a <~ (if i =? 0 then gret None else glift (ix lupper (i - 1))) ;;
        b <~ (if j =? 0 then gret None else glift (ix rupper (j - 1))) ;;
        let c := if negb (i + j =? 0) && (i + j - 1 <? length upper) then
                   match nth_error upper (i + j - 1) with Some o => o | None => None end else None in
        let d := if i + j <? length upper then match nth_error upper (i + j) with Some o => o | None => None end else None in
        let na := match a with Some x => [lit_negate x] | None => [] end in
        let nb := match b with Some x => [lit_negate x] | None => [] end in
        match c, na ++ nb with
        | Some y, _ :: _ => add (na ++ nb ++ [y])
        | _, _ => gret tt
        end ;;
        match d with
        | Some y => add (lit_negate carry :: na ++ nb ++ [y])
        | None => match na ++ nb with [] => gret tt | _ :: _ => add (lit_negate carry :: na ++ nb) end
        end)).

(** cc_modular_totalizer.rs 165-222, [adder]. *)
Definition mod_adder (md : nat) (upper : list olit) (lower : list lit) (lupper : list olit) (llower : list lit)
  (rupper : list olit) (rlower : list lit) (ccr : nat) : G unit :=
  u0 <~ glift (ix upper 0) ;;
  gassert ((length llower <=? length lower) && (length rlower <=? length lower)) ;;
  carry <~ (match u0 with None => gret None | Some _ => c <~ new_aux AuxCC ;; gret (Some c) end) ;;
  let oc := match carry with Some c => [Ok c] | None => [] end in
  gfor (seq 0 (S (length llower))) (fun i =>
    gfor (seq 0 (S (length rlower))) (fun j =>
      if (ccr + 1 <? i + j) && (ccr + 1 <? md) then gret tt
      else if i + j <? md then
        (if (i =? 0) && negb (j =? 0) then add_r (rneg (ix rlower (j - 1)) :: ix lower (i + j - 1) :: oc)
         else if (j =? 0) && negb (i =? 0) then add_r (rneg (ix llower (i - 1)) :: ix lower (i + j - 1) :: oc)
         else if negb (i =? 0) then
           add_r (rneg (ix llower (i - 1)) :: rneg (ix rlower (j - 1)) :: ix lower (i + j - 1) :: oc)
         else gret tt)
      else if md <? i + j then
        add_r [rneg (ix llower (i - 1)); rneg (ix rlower (j - 1)); ix lower ((i + j) mod md - 1)]
      else
        add_r [rneg (ix llower (i - 1)); rneg (ix rlower (j - 1)); of_opt carry])) ;;
  match carry with Some c => final_adder md upper lupper rupper c ccr | None => gret tt end.

(** cc_modular_totalizer.rs 116-129 and 131-144: one child; a leaf pops an input literal. *)
Definition mod_child (md size : nat) (stack : list lit) : G (list olit * list lit * list lit) :=
  if size =? 1 then p <~ pop stack ;; gret ([None], [fst p], snd p)
  else
    let up := size / md in
    us <~ allocs AuxCC up ;;
    let limit := if (up mod md =? 0) && (size <? md - 1) then size else md - 1 in
    ls <~ allocs AuxCC limit ;;
    gret (match us with [] => [None] | _ => map Some us end, ls, stack).

(** cc_modular_totalizer.rs 97-162, [to_cnf]: [size] is the parameter [rhs] there. *)
Fixpoint mod_cnf (fuel : nat) (md : nat) (upper : list olit) (lower : list lit) (size : nat) (stack : list lit) (ccr : nat)
  : G (list lit) :=
  match fuel with
  | O => gnofuel
  | S fuel' =>
      gassert (1 <? size) ;;
      let split := size / 2 in
      l <~ mod_child md split stack ;;
      r <~ mod_child md (size - split) (snd l) ;;
      let '(lu, ll) := fst l in
      let '(ru, rl) := fst r in
      mod_adder md upper lower ru rl lu ll ccr ;;
      s1 <~ (if 1 <? split then mod_cnf fuel' md lu ll split (snd r) ccr else gret (snd r)) ;;
      (if 1 <? size - split then mod_cnf fuel' md ru rl (size - split) s1 ccr else gret s1)
  end.

(** cc_modular_totalizer.rs 278-305, [encode_output]; a placeholder literal in a clause cannot be encoded. *)
Definition mod_output (rhs md : nat) (up : list olit) (lw : list lit) : G unit :=
  let ulimit := (rhs + 1) / md in
  let llimit := (rhs + 1) - ulimit * md in
  gassert (ulimit <=? length up) ;;
  gassert (llimit <=? length lw) ;;
  let oneg (o : olit) := rneg (of_opt o) in
  gfor (skipn ulimit up) (fun o => add_r [oneg o]) ;;
  if negb (ulimit =? 0) && negb (llimit =? 0) then
    gfor (skipn (llimit - 1) lw) (fun y => o <~ glift (ix up (ulimit - 1)) ;; add_r [oneg o; Ok (lit_negate y)])
  else if ulimit =? 0 then
    gassert (negb (llimit =? 0)) ;;
    gfor (skipn (llimit - 1) lw) (fun y => add [lit_negate y])
  else
    o <~ glift (ix up (ulimit - 1)) ;; add_r [oneg o].

(** cc_modular_totalizer.rs 20-43 and 45-75 after the creation of the input literals; 77-94 is [initialize]. *)
Definition mod_build (inlits : list lit) (rhs : nat) : G (list olit * list lit * nat) :=
  let n := length inlits in
  let md := sqrt_up (rhs + 1) in
  us <~ allocs AuxCC (n / md) ;;
  ls <~ allocs AuxCC (md - 1) ;;
  let up := match us with [] => [None] | _ => map Some us end in
  rest <~ mod_cnf (S n) md up ls n (rev inlits) (rhs + 1) ;;
  gassert (match rest with [] => true | _ => false end) ;;
  mod_output rhs md up ls ;;
  gret (up, ls, md).

Fixpoint olits (l : list olit) : list lit :=
  match l with [] => [] | Some x :: r => x :: olits r | None :: r => olits r end.

(** cc_modular_totalizer.rs 20-43, [build_amk]. *)
Definition mod_amk (xs : list lit) (rhs : nat) (with_inc : bool) : G (option inc_data) :=
  r <~ mod_build xs rhs ;;
  let '(up, lw, md) := r in
  gret (if with_inc then Some (mkInc (IncAmk AmkModularTotalizer) (olits up) (Some lw) md 0 rhs) else None).

(** cc_modular_totalizer.rs 45-75, [build_alk]. *)
Definition mod_alk (xs : list lit) (rhs : nat) (with_inc : bool) : G (option inc_data) :=
  r <~ mod_build (map lit_negate xs) (length xs - rhs) ;;
  let '(up, lw, md) := r in
  gret (if with_inc then Some (mkInc (IncAlk AlkModularTotalizer) (olits up) (Some lw) md (length xs) rhs) else None).

(* ------------------------------------------------------------------------------------------------------------------ *)
(** * Sorting networks *)

(** cc_sorter.rs 8-12, [ImplicationDirection]. *)
Inductive direction := InToOut | OutToIn | DBoth.
Definition dir_up (d : direction) : bool := match d with OutToIn => false | _ => true end.
Definition dir_down (d : direction) : bool := match d with InToOut => false | _ => true end.

(** cc_sorter.rs 74-83, [comparator1]. *)
Definition comparator1 (x1 x2 y : lit) (d : direction) : G unit :=
  gassert (negb (lit_eqb x1 x2)) ;;
  gwhen (dir_up d) (add [lit_negate x1; y] ;; add [lit_negate x2; y]) ;;
  gwhen (dir_down d) (add [lit_negate y; x1; x2]).

(** cc_sorter.rs 85-98, [comparator2]. *)
Definition comparator2 (x1 x2 y1 y2 : lit) (d : direction) : G unit :=
  gassert (negb (lit_eqb x1 x2)) ;;
  gassert (negb (lit_eqb y1 y2)) ;;
  gwhen (dir_up d) (add [lit_negate x1; y1] ;; add [lit_negate x2; y1] ;; add [lit_negate x1; lit_negate x2; y2]) ;;
  gwhen (dir_down d) (add [lit_negate y1; x1; x2] ;; add [lit_negate y2; x1] ;; add [lit_negate y2; x2]).

(** cc_sorter.rs 66-68, [counter_sorter_value], in [N]; [m - 2] underflows for [m = 1] (a panic in a debug build). *)
Definition counter_sorter_value (m n : N) : res N :=
  if (m <? 2)%N then Panic
  else Ok (2 * n + (m - 1) * (2 * (n - 1) - 1) - (m - 2) - 2 * ((m - 1) * (m - 2) / 2))%N.

(** cc_sorter.rs 70-72, [direct_sorter_value]. *)
Definition direct_sorter_value (n : N) : N := if (30 <? n)%N then 18446744073709551615%N else (2 ^ n - 1)%N.

(** cc_sorter.rs 127-131: the triangular array of variables, column by column. *)
Fixpoint counter_columns (k n j : nat) : G (list (list lit)) :=
  match k with
  | O => gret []
  | S k' => c <~ allocs AuxCC (n - j) ;; cs <~ counter_columns k' n (S j) ;; gret (c :: cs)
  end.

(** [aux_vars[i][j]]: column [j] holds the rows from [j] on. *)
Definition cell (cols : list (list lit)) (i j : nat) : res lit :=
  if i <? j then Panic else rbind (ix cols j) (fun c => ix c (i - j)).

(** cc_sorter.rs 121-152, [counter_sorter]. *)
Definition counter_sorter (k : nat) (x : list lit) (d : direction) : G (list lit) :=
  let n := length x in
  cols <~ counter_columns k n 0 ;;
  gwhen (dir_up d)
    (gfor (seq 0 n) (fun i =>
       add_r [rneg (ix x i); cell cols i 0] ;;
       gwhen (0 <? i) (add_r [rneg (cell cols (i - 1) 0); cell cols i 0])) ;;
     gfor (seq 1 (k - 1)) (fun j =>
       gfor (seq j (n - j)) (fun i =>
         add_r [rneg (ix x i); rneg (cell cols (i - 1) (j - 1)); cell cols i j] ;;
         gwhen (j <? i) (add_r [rneg (cell cols (i - 1) j); cell cols i j])))) ;;
  glift (rall (map (fun j => cell cols (n - 1) j) (seq 0 k))).

(** cc_sorter.rs 165-183: the literals selected by a bit mask, and the masks in increasing order.  A mask is given by the
    list of its bits, lowest first; the [break] leaves the loop once more than [m] literals are selected. *)
Fixpoint masks (n : nat) : list (list bool) :=
  match n with
  | O => [[]]
  | S n' => map (fun b => b ++ [false]) (masks n') ++ map (fun b => b ++ [true]) (masks n')
  end.
Fixpoint select (mask : list bool) (ls : list lit) : list lit :=
  match mask, ls with
  | b :: bs, l :: r => if b then lit_negate l :: select bs r else select bs r
  | _, _ => []
  end.

(** cc_sorter.rs 154-184, [direct_sorter]; the mask 0 is left out. *)
Definition direct_sorter (m : nat) (input : list lit) : G (list lit) :=
  let n := length input in
  gassert (n <? 20) ;;
  out <~ allocs AuxCC m ;;
  gfor (tl (masks n)) (fun mask =>
    let sel := select mask input in
    let count := length sel in
    gwhen (count <=? m) (add_r (map Ok sel ++ [ix out (count - 1)]))) ;;
  gret out.

(** cc_sorter.rs 261-279, [direct_merger]. *)
Definition direct_merger (m : nat) (xa xb : list lit) : G (list lit) :=
  let a := length xa in
  let b := length xb in
  out <~ allocs AuxCC m ;;
  gfor (seq 0 (min m a)) (fun i => add_r [rneg (ix xa i); ix out i]) ;;
  gfor (seq 0 (min m b)) (fun i => add_r [rneg (ix xb i); ix out i]) ;;
  gfor (seq 0 a) (fun i =>
    gfor (seq 0 b) (fun j =>
      gwhen (i + j + 1 <? m) (add_r [rneg (ix xa i); rneg (ix xb j); ix out (i + j + 1)]))) ;;
  gret out.

(** [(0..n).step_by(2)] and [(1..n).step_by(2)] on the first [n] elements. *)
Fixpoint evens {A} (l : list A) : list A :=
  match l with
  | [] => []
  | x :: r => x :: match r with [] => [] | _ :: r' => evens r' end
  end.
Definition odds {A} (l : list A) : list A := match l with [] => [] | _ :: r => evens r end.

(** cc_sorter.rs 229-257, the loop which compares the two merged halves; [out] is the reversed output. *)
Fixpoint merge_loop (fuel : nat) (c : nat) (om em out : list lit) (i j : nat) (d : direction) : G (list lit) :=
  match fuel with
  | O => gnofuel
  | S fuel' =>
      if (i <? length om) && (j <? length em) then
        if length out + 2 <=? c then
          z0 <~ new_aux AuxCC ;;
          z1 <~ new_aux AuxCC ;;
          x <~ glift (ix om i) ;;
          y <~ glift (ix em j) ;;
          comparator2 x y z0 z1 d ;;
          if length out + 2 =? c then gret (out ++ [z0; z1])
          else merge_loop fuel' c om em (out ++ [z0; z1]) (S i) (S j) d
        else if length out + 1 =? c then
          z0 <~ new_aux AuxCC ;;
          x <~ glift (ix om i) ;;
          y <~ glift (ix em j) ;;
          comparator1 x y z0 d ;;
          gret (out ++ [z0])
        else merge_loop fuel' c om em out (S i) (S j) d
      else if (length om <=? i) && (length em <=? j) then gret out
      else if length om <=? i then
        y <~ glift (ix em (length em - 1)) ;; merge_loop fuel' c om em (out ++ [y]) (S i) (S j) d
      else
        x <~ glift (ix om (length om - 1)) ;; merge_loop fuel' c om em (out ++ [x]) (S i) (S j) d
  end.

(** cc_sorter.rs 40-64, [cc_merge], with [recursive_merger] (186-259) inlined. *)
Fixpoint cc_merge (fuel : nat) (m : nat) (xa xb : list lit) (d : direction) : G (list lit) :=
  match fuel with
  | O => gnofuel
  | S fuel' =>
      if m =? 0 then gret []
      else match xa, xb with
      | [], _ => gret xb
      | _, [] => gret xa
      | a0 :: _, b0 :: _ =>
          let n := length xa + length xb in
          let c := min m n in
          match d with
          | InToOut => direct_merger c xa xb
          | _ =>
              let a2 := min c (length xa) in
              let b2 := min c (length xb) in
              out <~ (if c =? 1 then
                        y <~ new_aux AuxCC ;; comparator1 a0 b0 y d ;; gret [y]
                      else if (a2 =? 1) && (b2 =? 1) then
                        gassert (c =? 2) ;;
                        y1 <~ new_aux AuxCC ;; y2 <~ new_aux AuxCC ;; comparator2 a0 b0 y1 y2 d ;; gret [y1; y2]
                      else
                        om <~ cc_merge fuel' (c / 2 + 1) (evens (firstn a2 xa)) (evens (firstn b2 xb)) d ;;
                        em <~ cc_merge fuel' (c / 2) (odds (firstn a2 xa)) (odds (firstn b2 xb)) d ;;
                        o0 <~ glift (ix om 0) ;;
                        merge_loop (S (length om + length em)) c om em [o0] 1 0 d) ;;
              gassert (length out =? c) ;;
              gret out
          end
      end
  end.

(** cc_sorter.rs 14-38, [cc_sort], with [recursive_sorter] (100-119) inlined. *)
Fixpoint cc_sort (fuel : nat) (m : nat) (input : list lit) (d : direction) : G (list lit) :=
  match fuel with
  | O => gnofuel
  | S fuel' =>
      let n := length input in
      let m2 := min m n in
      if (m =? 0) || (n =? 0) then gret []
      else if n =? 1 then gret input
      else if n =? 2 then
        x0 <~ glift (ix input 0) ;;
        x1 <~ glift (ix input 1) ;;
        o1 <~ new_aux AuxCC ;;
        if m2 =? 2 then
          o2 <~ new_aux AuxCC ;;
          comparator2 x0 x1 o1 o2 d ;; gret [o1; o2]
        else
          comparator1 x0 x1 o1 d ;; gret [o1]
      else match d with
      | InToOut =>
          v <~ glift (counter_sorter_value (N.of_nat m2) (N.of_nat n)) ;;
          if (v <? direct_sorter_value (N.of_nat n))%N then counter_sorter m2 input d else direct_sorter m2 input
      | _ =>
          let l := n / 2 in
          gassert (m2 <=? n) ;;
          o1 <~ cc_sort fuel' m2 (firstn l input) d ;;
          o2 <~ cc_sort fuel' m2 (skipn l input) d ;;
          gassert (length o1 =? min m2 l) ;;
          gassert (length o2 =? min m2 (n - l)) ;;
          cc_merge (S (length o1 + length o2)) m2 o1 o2 d
      end
  end.

(* ------------------------------------------------------------------------------------------------------------------ *)
(** * Cardinality networks *)

(** cc_cardinality_networks.rs 21-22 and 58-59. *)
Definition net_upper (input : list lit) (rhs : nat) : G (list lit) :=
  out <~ cc_sort (S (length input)) (rhs + 1) input InToOut ;;
  add_r [rneg (ix out rhs)] ;;
  gret out.

(** cc_cardinality_networks.rs 15-18. *)
Definition net_lower (input : list lit) (geq : nat) : G unit :=
  out <~ cc_sort (S (length input)) geq input OutToIn ;;
  gfor (firstn geq out) (fun y => add [y]).

(** cc_cardinality_networks.rs 8-26 and 56-61, [build_amk]. *)
Definition net_amk (xs : list lit) (rhs : nat) (with_inc : bool) : G (option inc_data) :=
  if with_inc then
    out <~ net_upper xs rhs ;;
    gret (Some (mkInc (IncAmk AmkCardinalityNetwork) out None 0 0 rhs))
  else if length xs / 2 <? rhs then net_lower (map lit_negate xs) (length xs - rhs) ;; gret None
  else net_upper xs rhs ;; gret None.

(** cc_cardinality_networks.rs 28-47 and 63-69, [build_alk]. *)
Definition net_alk (xs : list lit) (rhs : nat) (with_inc : bool) : G (option inc_data) :=
  let new_rhs := length xs - rhs in
  if with_inc then
    out <~ net_upper (map lit_negate xs) new_rhs ;;
    gret (Some (mkInc (IncAlk AlkCardinalityNetwork) out None 0 (length xs) rhs))
  else if length xs / 2 <? new_rhs then net_lower xs (length xs - new_rhs) ;; gret None
  else net_upper (map lit_negate xs) new_rhs ;; gret None.

(** cc_cardinality_networks.rs 49-54, [build_exk]. *)
Definition net_exk (xs : list lit) (rhs : nat) : G unit :=
  out <~ cc_sort (S (length xs)) (rhs + 1) xs DBoth ;;
  add_r [rneg (ix out rhs)] ;;
  add_r [ix out (rhs - 1)].

(* ------------------------------------------------------------------------------------------------------------------ *)
(** * The encoder *)

(** cc_encoder.rs 99-127, [amo].  The recursive encoders get fuel for their longest run. *)
Definition enc_amo (cfg : cc_config) (xs : list lit) : G unit :=
  let n := length xs in
  if n <=? 1 then gret tt
  else match cfg_amo cfg with
  | AmoPure => naive xs
  | AmoLadder => amo_ladder xs
  | AmoProduct b => amo_product (S n) (N.to_nat b) xs
  | AmoNested g => amo_nested (S n) (N.to_nat g) xs
  | AmoCommander g => amo_commander (S n) (N.to_nat g) false xs
  | AmoBinary => amo_binary xs
  | AmoBimander g =>
      let m := match g with BiFixed gs => N.to_nat gs | BiHalf => n / 2 | BiSqrt => Nat.sqrt n end in
      amo_bimander m xs
  | AmoBest => if n <=? 10 then naive xs else amo_product (S n) 20 xs
  end.

(** cc_encoder.rs 129-146, [amk]. *)
Definition enc_amk (cfg : cc_config) (xs : list lit) (rhs : N) (with_inc : bool) : G (option inc_data) :=
  if (N.of_nat (length xs) <=? rhs)%N then gret None
  else if (rhs =? 0)%N then gfor xs (fun x => add [lit_negate x]) ;; gret None
  else
    let r := N.to_nat rhs in
    match cfg_amk cfg with
    | AmkTotalizer => tot_amk xs r with_inc
    | AmkModularTotalizer | AmkBest => mod_amk xs r with_inc
    | AmkCardinalityNetwork => net_amk xs r with_inc
    end.

(** cc_encoder.rs 148-170, [alk]. *)
Definition enc_alk (cfg : cc_config) (xs : list lit) (rhs : N) (with_inc : bool) : G (option inc_data) :=
  if (N.of_nat (length xs) <? rhs)%N then add [] ;; gret None
  else if (rhs =? 0)%N then gret None
  else if (rhs =? 1)%N then add xs ;; gret None
  else if (rhs =? N.of_nat (length xs))%N then gfor xs (fun x => add [x]) ;; gret None
  else
    let r := N.to_nat rhs in
    match cfg_alk cfg with
    | AlkTotalizer => tot_alk xs r with_inc
    | AlkModularTotalizer | AlkBest => mod_alk xs r with_inc
    | AlkCardinalityNetwork => net_alk xs r with_inc
    end.

(** cc_encoder.rs 172-182, [exo]. *)
Definition enc_exo (cfg : cc_config) (xs : list lit) : G unit :=
  match xs with
  | [] => add []
  | [x] => add [x]
  | _ => enc_amo cfg xs ;; add xs
  end.

(** cc_encoder.rs 184-201, [exk]. *)
Definition enc_exk (cfg : cc_config) (xs : list lit) (rhs : N) : G unit :=
  if (N.of_nat (length xs) <? rhs)%N then add []
  else if (rhs =? 0)%N then gfor xs (fun x => add [lit_negate x])
  else if (rhs =? N.of_nat (length xs))%N then gfor xs (fun x => add [x])
  else
    let r := N.to_nat rhs in
    match cfg_exk cfg with
    | ExkTotalizer | ExkBest => tot_exk xs r
    | ExkCardinalityNetwork => net_exk xs r
    end.

(** cc_encoder.rs 49-83, [encode_constraint]; [rhs - 1] underflows for [< 0]. *)
Definition encode_cc (cfg : cc_config) (c : cc) : G unit :=
  let xs := map plit (cc_vars c) in
  let rhs := cc_rhs c in
  match cc_cmp c with
  | LE => if (rhs =? 1)%N then enc_amo cfg xs else enc_amk cfg xs rhs false ;; gret tt
  | LT =>
      if (rhs =? 2)%N then enc_amo cfg xs
      else if (rhs =? 0)%N then gpanic
      else enc_amk cfg xs (rhs - 1) false ;; gret tt
  | GE => enc_alk cfg xs rhs false ;; gret tt
  | GT => enc_alk cfg xs (rhs + 1) false ;; gret tt
  | EQ => if (rhs =? 1)%N then enc_exo cfg xs else enc_exk cfg xs rhs
  end.

(** cc_encoder.rs 85-97, [encode_incremental_constraint]. *)
Definition encode_cc_inc (cfg : cc_config) (c : cc) : G (option inc_data) :=
  let xs := map plit (cc_vars c) in
  let rhs := cc_rhs c in
  match cc_cmp c with
  | LE => enc_amk cfg xs rhs true
  | LT => if (rhs =? 0)%N then gpanic else enc_amk cfg xs (rhs - 1) true
  | GE => enc_alk cfg xs rhs true
  | GT => enc_alk cfg xs (rhs + 1) true
  | EQ => gpanic
  end.

(* ------------------------------------------------------------------------------------------------------------------ *)
(** * Incremental bounds *)

(** cc_incremental_data.rs 138-153, [add_modular_totalizer_constraints]. *)
Definition inc_mod (d : inc_data) (rhs : nat) : G unit :=
  match inc_v2 d with
  | None => gpanic
  | Some v2 =>
      let ul := (rhs + 1) / inc_md d in
      let ll := (rhs + 1) - ul * inc_md d in
      gassert (ul <=? length (inc_v1 d)) ;;
      gassert (ll <=? length v2) ;;
      gfor (skipn ul (inc_v1 d)) (fun l => add [lit_negate l]) ;;
      if negb (ul =? 0) && negb (ll =? 0) then
        l1 <~ glift (rneg (ix (inc_v1 d) (ul - 1))) ;;
        gfor (skipn (ll - 1) v2) (fun l2 => add [l1; lit_negate l2])
      else if ul =? 0 then gfor (skipn (ll - 1) v2) (fun l => add [lit_negate l])
      else add_r [rneg (ix (inc_v1 d) (ul - 1))]
  end.

Definition with_rhs (d : inc_data) (rhs : nat) : inc_data :=
  mkInc (inc_enc d) (inc_v1 d) (inc_v2 d) (inc_md d) (inc_n d) rhs.

(** cc_incremental_data.rs 72-94, [compute_ub_constraint]. *)
Definition new_upper_bound (d : inc_data) (rhs : nat) : G inc_data :=
  gassert (rhs <? inc_rhs d) ;;
  match inc_enc d with
  | IncAmk AmkTotalizer => gfor (skipn rhs (inc_v1 d)) (fun l => add [lit_negate l])
  | IncAmk AmkModularTotalizer => inc_mod d rhs
  | IncAmk AmkCardinalityNetwork => gwhen (rhs <? length (inc_v1 d)) (add_r [rneg (ix (inc_v1 d) rhs)])
  | IncAmk AmkBest => gpanic
  | IncAlk _ => gpanic
  end ;;
  gret (with_rhs d rhs).

(** cc_incremental_data.rs 113-136, [compute_lb_constraint]; [n_vars - rhs] underflows if the new bound is larger than the
    number of variables. *)
Definition new_lower_bound (d : inc_data) (rhs : nat) : G inc_data :=
  gassert (inc_rhs d <? rhs) ;;
  match inc_enc d with
  | IncAlk AlkTotalizer => gfor (firstn rhs (inc_v1 d)) (fun l => add [l])
  | IncAlk AlkModularTotalizer => gassert (rhs <=? inc_n d) ;; inc_mod d (inc_n d - rhs)
  | IncAlk AlkCardinalityNetwork =>
      gassert (rhs <=? inc_n d) ;;
      let new_rhs := inc_n d - rhs in
      gwhen (new_rhs <? length (inc_v1 d)) (add_r [rneg (ix (inc_v1 d) new_rhs)])
  | IncAlk AlkBest => gpanic
  | IncAmk _ => gpanic
  end ;;
  gret (with_rhs d rhs).
