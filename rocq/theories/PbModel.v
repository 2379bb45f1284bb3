(** Model of the pseudo-Boolean encodings: src/pseudo_booleans/*.rs, with the clause generator of [CcModel].

    The encoders are called by [encode_internal] with positive coefficients of normalized constraints; coefficients and
    right-hand sides are [nat] here, so the casts between [i64], [u64], [usize] and [isize] are the identity and the sums of
    the encoders do not overflow.  Unit formulas (a literal pushed to the result) are one-element clauses, [falsum] is the
    empty clause. *)
From Coq Require Import NArith ZArith List Bool Arith.
From Verif Require Import Base EncodingModel Syntax FactoryModel CcModel.
Import ListNotations.
Local Open Scope nat_scope.
Local Open Scope gen_scope.

(* ------------------------------------------------------------------------------------------------------------------ *)
(** * Sequential weight counter *)

(** pb_swc.rs 11: the matrix [seq_auxiliary]. *)
Fixpoint alloc_rows (n k : nat) : G (list (list lit)) :=
  match n with
  | O => gret []
  | S n' => row <~ allocs AuxPB k ;; rows <~ alloc_rows n' k ;; gret (row :: rows)
  end.

(** [seq_auxiliary[i][j]]. *)
Definition entry (rows : list (list lit)) (i j : nat) : res lit := rbind (ix rows i) (fun row => ix row j).

(** pb_swc.rs 6-36, [encode_swc]. *)
Definition encode_swc (ls : list lit) (cs : list nat) (rhs : nat) : G unit :=
  let n := length ls in
  aux <~ alloc_rows n rhs ;;
  gfor (seq 0 n) (fun i =>
    wi <~ glift (ix cs i) ;;
    gassert (wi <=? rhs) ;;
    gfor (seq 0 rhs) (fun j =>
      gwhen (1 <=? i) (add_r [rneg (entry aux (i - 1) j); entry aux i j]) ;;
      gwhen (j <? wi) (add_r [rneg (ix ls i); entry aux i j]) ;;
      gwhen ((1 <=? i) && (j <? rhs - wi))
        (add_r [rneg (entry aux (i - 1) j); rneg (ix ls i); entry aux i (j + wi)])) ;;
    gwhen (1 <=? i) (add_r [rneg (entry aux (i - 1) (rhs - wi)); rneg (ix ls i)])).

(* ------------------------------------------------------------------------------------------------------------------ *)
(** * Adder networks *)

(** The literals whose coefficient has bit [i]; pb_adder_networks.rs 14-19 builds it in reverse order ([push_front]). *)
Fixpoint bit_lits (ls : list lit) (cs : list nat) (i : nat) : list lit :=
  match ls, cs with
  | l :: ls', c :: cs' => if Nat.testbit c i then l :: bit_lits ls' cs' i else bit_lits ls' cs' i
  | _, _ => []
  end.

(** pb_adder_networks.rs 68-83, [fa_sum]. *)
Definition fa_sum (a b c : lit) : G lit :=
  x <~ new_aux AuxPB ;;
  let n := lit_negate in
  add [a; b; c; n x] ;; add [a; n b; n c; n x] ;; add [n a; b; n c; n x] ;; add [n a; n b; c; n x] ;;
  add [n a; n b; n c; x] ;; add [n a; b; c; x] ;; add [a; n b; c; x] ;; add [a; b; n c; x] ;;
  gret x.

(** pb_adder_networks.rs 86-99, [fa_carry]. *)
Definition fa_carry (a b c : lit) : G lit :=
  x <~ new_aux AuxPB ;;
  let n := lit_negate in
  add [b; c; n x] ;; add [a; c; n x] ;; add [a; b; n x] ;;
  add [n b; n c; x] ;; add [n a; n c; x] ;; add [n a; n b; x] ;;
  gret x.

(** pb_adder_networks.rs 101-110, [fa_extra]. *)
Definition fa_extra (xs xc a b c : lit) : G unit :=
  let n := lit_negate in
  add [n xc; n xs; a] ;; add [n xc; n xs; b] ;; add [n xc; n xs; c] ;;
  add [xc; xs; n a] ;; add [xc; xs; n b] ;; add [xc; xs; n c].

(** pb_adder_networks.rs 112-123, [ha_sum]. *)
Definition ha_sum (a b : lit) : G lit :=
  x <~ new_aux AuxPB ;;
  let n := lit_negate in
  add [n a; n b; n x] ;; add [a; b; n x] ;; add [n a; b; x] ;; add [a; n b; x] ;;
  gret x.

(** pb_adder_networks.rs 125-128, [ha_carry]. *)
Definition ha_carry (a b : lit) : G lit :=
  x <~ new_aux AuxPB ;;
  let n := lit_negate in
  add [a; n x] ;; add [b; n x] ;; add [n a; n b; x] ;;
  gret x.

(** pb_adder_networks.rs 37-60: one bucket and the following one; the result is the remaining bit and the following bucket.
    [fuel] bounds the number of full adders. *)
Fixpoint adder_bucket (fuel : nat) (bucket next : list lit) : G (option lit * list lit) :=
  match fuel with
  | O => gnofuel
  | S fuel' =>
      match bucket with
      | x :: y :: z :: rest =>
          xs <~ fa_sum x y z ;;
          xc <~ fa_carry x y z ;;
          fa_extra xs xc x y z ;;
          adder_bucket fuel' (rest ++ [xs]) (next ++ [xc])
      | [x; y] =>
          xs <~ ha_sum x y ;;
          xc <~ ha_carry x y ;;
          gret (Some xs, next ++ [xc])
      | [x] => gret (Some x, next)
      | [] => gret (None, next)
      end
  end.

(** pb_adder_networks.rs 28-65, [adder_tree]: the list of result bits.  A bucket is only written while it is the next one. *)
Fixpoint adder_tree (fuel : nat) (buckets : list (list lit)) : G (list olit) :=
  match fuel with
  | O => gnofuel
  | S fuel' =>
      match buckets with
      | [] => gret []
      | [] :: rest => r <~ adder_tree fuel' rest ;; gret (None :: r)
      | bucket :: rest =>
          let rest1 := match rest with [] => if 2 <=? length bucket then [[]] else [] | _ => rest end in
          match rest1 with
          | [] => (* a single literal in the last bucket *)
              match bucket with [x] => gret [Some x] | _ => gpanic end
          | next :: rest2 =>
              rn <~ adder_bucket (length bucket) bucket next ;;
              r <~ adder_tree fuel' (snd rn :: rest2) ;;
              gret (fst rn :: r)
          end
      end
  end.

(** pb_adder_networks.rs 135-149: the inner loop of [less_than_or_equal] from position [j]; [None] is [skip]. *)
Fixpoint le_tail (xs : list olit) (rhs j : nat) : option clause :=
  match xs with
  | [] => Some []
  | x :: rest =>
      if Nat.testbit rhs j then
        match x with
        | Some l => match le_tail rest rhs (S j) with Some c => Some (lit_negate l :: c) | None => None end
        | None => None
        end
      else
        match x with
        | Some l => match le_tail rest rhs (S j) with Some c => Some (l :: c) | None => None end
        | None => le_tail rest rhs (S j)
        end
  end.

(** pb_adder_networks.rs 130-157, [less_than_or_equal]; [1 << i] is taken without a width. *)
Fixpoint less_than_or_equal (xs : list olit) (rhs i : nat) : G unit :=
  match xs with
  | [] => gret tt
  | x :: rest =>
      (match x with
       | None => gret tt
       | Some l =>
           if Nat.testbit rhs i then gret tt
           else match le_tail rest rhs (S i) with Some c => add (c ++ [lit_negate l]) | None => gret tt end
       end) ;;
      less_than_or_equal rest rhs (S i)
  end.

(** pb_adder_networks.rs 159-161, [ld_int]: the number of binary digits. *)
Definition ld_int (x : nat) : nat := match x with O => O | _ => S (Nat.log2 x) end.

(** pb_adder_networks.rs 6-25, [encode_adder_networks]. *)
Definition encode_adder_networks (ls : list lit) (cs : list nat) (rhs : nat) : G unit :=
  let nb := ld_int rhs in
  let buckets := map (fun i => rev (bit_lits ls cs i)) (seq 0 nb) in
  result <~ adder_tree (S (length buckets + length (concat buckets))) buckets ;;
  less_than_or_equal result rhs 0.

(* ------------------------------------------------------------------------------------------------------------------ *)
(** * Binary merge *)

(** pb_binary_merge.rs 210-234, [unary_adder]. *)
Definition unary_adder (u v : list lit) : G (list lit) :=
  match u, v with
  | [], _ => gret v
  | _, [] => gret u
  | _, _ =>
      w <~ allocs AuxPB (length u + length v) ;;
      gfor (seq 0 (length u)) (fun a =>
        gfor (seq 0 (length v)) (fun b => add_r [rneg (ix u a); rneg (ix v b); ix w (a + b + 1)])) ;;
      gfor (seq 0 (length v)) (fun i => add_r [rneg (ix v i); ix w i]) ;;
      gfor (seq 0 (length u)) (fun i => add_r [rneg (ix u i); ix w i]) ;;
      gret w
  end.

(** pb_binary_merge.rs 196-208, [totalizer]. *)
Fixpoint pb_totalizer (fuel : nat) (x : list lit) : G (list lit) :=
  match fuel with
  | O => gnofuel
  | S fuel' =>
      if length x <=? 1 then gret x
      else
        u1 <~ pb_totalizer fuel' (firstn (length x / 2) x) ;;
        u2 <~ pb_totalizer fuel' (skipn (length x / 2) x) ;;
        unary_adder u1 u2
  end.

(** pb_binary_merge.rs 191-194, [div_ceil]. *)
Definition div_ceil (a b : nat) : nat := if a mod b =? 0 then a / b else S (a / b).

(** pb_binary_merge.rs 151-155 and 173-177: the bound at position [k - 1]. *)
Definition bm_bound (gac : olit) (out : list lit) (k : nat) : G unit :=
  match gac with
  | Some g => add_r [Ok g; rneg (ix out (k - 1))]
  | None => add_r [rneg (ix out (k - 1))]
  end.

(** pb_binary_merge.rs 136-187: the loop over the buckets from index [i]; [carries] is empty for [i = 0], so the test [i > 0]
    makes no difference. *)
Fixpoint bm_loop (watch : bool) (gac : olit) (new_less_then i : nat) (buckets : list (list lit)) (carries : list lit) : G unit :=
  match buckets with
  | [] => gret tt
  | bucket :: rest =>
      let k := div_ceil new_less_then (2 ^ i) in
      card <~ (if watch then pb_totalizer (S (length bucket)) bucket else cc_sort (S (length bucket)) k bucket InToOut) ;;
      gwhen (k <=? length bucket) (gassert ((k =? length card) || watch) ;; bm_bound gac card k) ;;
      merge <~ match carries, card with
               | [], _ => gret card
               | _, [] => gret carries
               | _, _ =>
                   out <~ (if watch then unary_adder card carries else cc_merge 1 k card carries InToOut) ;;
                   gwhen ((k =? length out) || (watch && (k <=? length out))) (bm_bound gac out k) ;;
                   gret out
               end ;;
      bm_loop watch gac new_less_then (S i) rest (odds merge)
  end.

(** pb_binary_merge.rs 122-132: the literals of bucket [i], and the clauses for the excluded ones. *)
Fixpoint bm_bucket (gac : olit) (less_then i : nat) (ls : list lit) (cs : list nat) : G (list lit) :=
  match ls, cs with
  | l :: ls', c :: cs' =>
      if Nat.testbit c i then
        match gac with
        | Some g =>
            if less_then <=? c then add [g; lit_negate l] ;; bm_bucket gac less_then i ls' cs'
            else r <~ bm_bucket gac less_then i ls' cs' ;; gret (l :: r)
        | None => r <~ bm_bucket gac less_then i ls' cs' ;; gret (l :: r)
        end
      else bm_bucket gac less_then i ls' cs'
  | _, _ => gret []
  end.

(** pb_binary_merge.rs 115-134. *)
Fixpoint bm_buckets (gac : olit) (less_then t : nat) (true_lit : lit) (is : list nat) (ls : list lit) (cs : list nat)
    : G (list (list lit)) :=
  match is with
  | [] => gret []
  | i :: is' =>
      b <~ bm_bucket gac less_then i ls cs ;;
      r <~ bm_buckets gac less_then t true_lit is' ls cs ;;
      gret ((if Nat.testbit t i then true_lit :: b else b) :: r)
  end.

(** pb_binary_merge.rs 96-189, [binary_merge]; [max_weight] is positive. *)
Definition binary_merge (watch : bool) (ls : list lit) (cs : list nat) (leq max_weight : nat) (gac : olit) : G unit :=
  let less_then := leq + 1 in
  let p := Nat.log2 max_weight in
  let m := div_ceil less_then (2 ^ p) in
  let new_less_then := m * 2 ^ p in
  let t := new_less_then - less_then in
  true_lit <~ new_aux AuxPB ;;
  add [true_lit] ;;
  buckets <~ bm_buckets gac less_then t true_lit (seq 0 (p + 1)) ls cs ;;
  bm_loop watch gac new_less_then 0 buckets [].

(** pb_binary_merge.rs 39-44: position [i] is overwritten with the last element, which is removed. *)
Definition swap_remove {A} (l : list A) (i : nat) : list A :=
  match rev l with
  | [] => []
  | last :: _ => firstn (length l - 1) (firstn i l ++ last :: skipn (S i) l)
  end.

(** [coeffs.iter().max().unwrap()]. *)
Definition max_coeff (cs : list nat) : res nat := match cs with [] => Panic | _ => Ok (list_max cs) end.

(** [count_ones() == 1]. *)
Definition single_bit (c : nat) : bool := (negb (c =? 0)) && (c =? 2 ^ Nat.log2 c).

(** pb_binary_merge.rs 45-79: the constraint for the case that literal [tmp] is true, over the other literals. *)
Definition bm_case (watch : bool) (tmp : lit) (c : nat) (ls : list lit) (cs : list nat) (rhs max_weight : nat) : G unit :=
  if max_weight =? c then
    mw <~ glift (max_coeff cs) ;;
    if rhs <=? c then gfor ls (fun l => add [lit_negate tmp; lit_negate l])
    else binary_merge watch ls cs (rhs - c) mw (Some (lit_negate tmp))
  else
    gwhen (rhs <=? c) (gfor ls (fun l => add [lit_negate tmp; lit_negate l])) ;;
    binary_merge watch ls cs (rhs - c) max_weight (Some (lit_negate tmp)).

(** pb_binary_merge.rs 33-87: the loop over the literals.  The lists are the vectors [lits] and [coeffs]: after the last index the
    removed literal is not restored (line 80). *)
Fixpoint bm_cases (cfg : pb_config) (is : list nat) (ls : list lit) (cs : list nat) (rhs max_weight : nat) (complete : bool)
    : G (list lit * list nat * bool) :=
  match is with
  | [] => gret (ls, cs, complete)
  | i :: is' =>
      c <~ glift (ix cs i) ;;
      if cfg_no_support_single cfg && single_bit c then bm_cases cfg is' ls cs rhs max_weight true
      else
        tmp <~ glift (ix ls i) ;;
        let ls1 := swap_remove ls i in
        let cs1 := swap_remove cs i in
        bm_case (cfg_watch_dog cfg) tmp c ls1 cs1 rhs max_weight ;;
        if i <? length ls1 then bm_cases cfg is' ls cs rhs max_weight complete
        else bm_cases cfg is' ls1 cs1 rhs max_weight complete
  end.

(** pb_binary_merge.rs 17-94, [encode_binary_merge]. *)
Definition encode_binary_merge (cfg : pb_config) (ls : list lit) (cs : list nat) (rhs : nat) : G unit :=
  max_weight <~ glift (max_coeff cs) ;;
  if negb (cfg_use_gac cfg) then binary_merge (cfg_watch_dog cfg) ls cs rhs max_weight None
  else
    r <~ bm_cases cfg (seq 0 (length ls)) ls cs rhs max_weight false ;;
    gwhen (cfg_no_support_single cfg && snd r)
      (binary_merge (cfg_watch_dog cfg) (fst (fst r)) (snd (fst r)) rhs max_weight None).

(* ------------------------------------------------------------------------------------------------------------------ *)
(** * The encoder *)

(** pb_encoder.rs 62-71: the literals kept, their coefficients, and the literals which cannot be true. *)
Fixpoint split_coeffs (ls : list lit) (cs : list Z) (rhs : Z) : list lit * list nat * list lit :=
  match ls, cs with
  | l :: ls', c :: cs' =>
      let '(k, kc, n) := split_coeffs ls' cs' rhs in
      if (c <=? rhs)%Z then (l :: k, Z.to_nat c :: kc, n) else (k, kc, l :: n)
  | _, _ => ([], [], [])
  end.

(** pb_encoder.rs 54-83, [encode_internal]. *)
Definition encode_internal (cfg : pb_config) (ls : list lit) (cs : list Z) (rhs : Z) : G unit :=
  match Z.compare rhs 0 with
  | Lt => add []
  | Eq => gfor ls (fun l => add [lit_negate l])
  | Gt =>
      let '(k, kc, n) := split_coeffs ls cs rhs in
      gfor n (fun l => add [lit_negate l]) ;;
      gwhen (2 <=? length k)
        (match cfg_pb_alg cfg with
         | PbBest | PbSwc => encode_swc k kc (Z.to_nat rhs)
         | PbBinaryMerge => encode_binary_merge cfg k kc (Z.to_nat rhs)
         | PbAdderNetworks => encode_adder_networks k kc (Z.to_nat rhs)
         end)
  end.
