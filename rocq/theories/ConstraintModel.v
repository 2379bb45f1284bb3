(** Model of the operations on constraints in src/formulas/pbc_cc.rs: restriction and normalization.

    [i64] arithmetic wraps (release build; a debug build panics instead), see [wrap64]. *)
From Coq Require Import NArith ZArith List Bool.
From Verif Require Import Base EncodingModel Syntax FactoryModel.
Import ListNotations.
Local Open Scope Z_scope.

(** The outcome of [restrict_lit], as its callers use it: pbc_cc.rs 298-303 and 448-462. *)
Inductive lit_state := LsOpen | LsTrue | LsFalse.
Definition lit_state_of (a : assignment) (l : lit) : res lit_state :=
  match formula_type_of (restrict_lit a l) with
  | Some (TLit _) => Ok LsOpen
  | Some TTrue => Ok LsTrue
  | Some TFalse => Ok LsFalse
  | _ => Panic
  end.

(** pbc_cc.rs 295-304: the loop; [satisfied] is a [u32] counter, taken without a bound (a constraint has fewer than 2^32
    variables). *)
Fixpoint cc_split (a : assignment) (vs : list var) : res (N * list var) :=
  match vs with
  | [] => Ok (0%N, [])
  | x :: r =>
      rbind (lit_state_of a (Lit x true)) (fun t =>
      rbind (cc_split a r) (fun nr =>
      Ok match t with
         | LsOpen => (fst nr, x :: snd nr)
         | LsTrue => (N.succ (fst nr), snd nr)
         | LsFalse => nr
         end))
  end.

(** pbc_cc.rs 294-315, [CardinalityConstraint::restrict]. *)
Definition cc_restrict (c : cc) (a : assignment) : M N :=
  nr <-- lift (fun _ => cc_split a (cc_vars c)) ;;
  let satisfied := fst nr in
  if N.ltb (cc_rhs c) satisfied then
    match cc_cmp c with EQ | LT | LE => ret falsum | GT | GE => ret verum end
  else if N.eqb satisfied (cc_rhs c) && ctype_eqb (cc_cmp c) LT then ret falsum
  else f_cc (cc_cmp c) (cc_rhs c - satisfied)%N (snd nr).

(** solver/minisat/sat.rs, [Tristate]. *)
Inductive tristate := TsTrue | TsFalse | TsUndef.

(** pbc_cc.rs 575-634, [evaluate_coeffs]. *)
Definition evaluate_coeffs (min_value max_value rhs : Z) (c : ctype) : tristate :=
  let one (b : bool) : Z := if b then 1 else 0 in
  let status := one (min_value <=? rhs) + one (min_value <? rhs) + one (max_value <=? rhs) + one (max_value <? rhs) in
  match c with
  | EQ => if (status =? 0) || (status =? 4) then TsFalse else TsUndef
  | LE => if 3 <=? status then TsTrue else if status <? 1 then TsFalse else TsUndef
  | LT => if 3 <? status then TsTrue else if status <=? 1 then TsFalse else TsUndef
  | GE => if status <=? 1 then TsTrue else if 3 <? status then TsFalse else TsUndef
  | GT => if status <? 1 then TsTrue else if 3 <=? status then TsFalse else TsUndef
  end.

(** The locals of [PbConstraint::restrict] (441-445). *)
Record pb_parts := mkParts { pp_lits : list lit; pp_coeffs : list Z; pp_fixed : Z; pp_min : Z; pp_max : Z }.

(** pbc_cc.rs 446-463. *)
Fixpoint pbc_split (a : assignment) (ls : list lit) (cs : list Z) (p : pb_parts) : res pb_parts :=
  match ls, cs with
  | l :: ls', c :: cs' =>
      rbind (lit_state_of a l) (fun t =>
      pbc_split a ls' cs'
        match t with
        | LsOpen => mkParts (pp_lits p ++ [l]) (pp_coeffs p ++ [c]) (pp_fixed p)
                      (if 0 <? c then pp_min p else wrap64 (pp_min p + c)) (if 0 <? c then wrap64 (pp_max p + c) else pp_max p)
        | LsTrue => mkParts (pp_lits p) (pp_coeffs p) (wrap64 (pp_fixed p + c)) (pp_min p) (pp_max p)
        | LsFalse => p
        end)
  | _, _ => Ok p
  end.

(** pbc_cc.rs 440-479, [PbConstraint::restrict]. *)
Definition pbc_restrict (p : pbc) (a : assignment) : M N :=
  q <-- lift (fun _ => pbc_split a (pb_lits p) (pb_coeffs p) (mkParts [] [] 0 0 0)) ;;
  match pp_lits q with
  | [] => ret (constant (evaluate_comparator (pp_fixed q) (pb_cmp p) (pb_rhs p)))
  | _ =>
      let new_rhs := wrap64 (pb_rhs p - pp_fixed q) in
      let fixed := if ctype_eqb (pb_cmp p) EQ then TsUndef else evaluate_coeffs (pp_min q) (pp_max q) new_rhs (pb_cmp p) in
      match fixed with
      | TsTrue => ret verum
      | TsFalse => ret falsum
      | TsUndef => f_pbc (pb_cmp p) new_rhs (pp_lits q) (pp_coeffs q)
      end
  end.

(* ------------------------------------------------------------------------------------------------------------------ *)
(** * Normalization *)

(** variable.rs 65, derived [Ord]: formula variables (by handle, hence by index) come before auxiliary ones (by kind, index);
    variable.rs 27-37: the order of the kinds. *)
Definition aux_rank (a : aux_type) : N := match a with AuxCNF => 0 | AuxCC => 1 | AuxPB => 2 end.
Definition var_ltb (v w : var) : bool :=
  match v, w with
  | VFF i, VFF j => N.ltb i j
  | VFF _, VAux _ _ => true
  | VAux _ _, VFF _ => false
  | VAux a i, VAux b j => N.ltb (aux_rank a) (aux_rank b) || (N.eqb (aux_rank a) (aux_rank b) && N.ltb i j)
  end.

(** A [BTreeMap] from variables, in increasing order: [insert] of the pair computed from the old entry. *)
Fixpoint vm_update {A} (x : var) (dflt : A) (g : A -> A) (m : list (var * A)) : list (var * A) :=
  match m with
  | [] => [(x, g dflt)]
  | (y, d) :: r => if var_ltb x y then (x, g dflt) :: m else if var_eqb x y then (x, g d) :: r else (y, d) :: vm_update x dflt g r
  end.

(** pbc_cc.rs 648-657: the map [var2consts]; the entries with coefficient 0 are dropped before (638-647). *)
Fixpoint var2consts (ls : list lit) (cs : list Z) (m : list (var * (Z * Z))) : list (var * (Z * Z)) :=
  match ls, cs with
  | l :: ls', c :: cs' =>
      var2consts ls' cs'
        (if c =? 0 then m
         else vm_update (lit_var l) (0, 0)
                (fun p => if lit_phase l then (fst p, wrap64 (snd p + c)) else (wrap64 (fst p + c), snd p)) m)
  | _, _ => m
  end.

(** pbc_cc.rs 658-677: the new right-hand side, coefficients and literals. *)
Fixpoint collect (m : list (var * (Z * Z))) (c : Z) : Z * list Z * list lit :=
  match m with
  | [] => (c, [], [])
  | (x, (first, second)) :: r =>
      let '(c1, coeff, l) :=
        if first <? second then (wrap64 (c - first), wrap64 (second - first), Lit x true)
        else (wrap64 (c - second), wrap64 (first - second), Lit x false) in
      let '(c', cs, ls) := collect r c1 in
      if coeff =? 0 then (c', cs, ls) else (c', coeff :: cs, l :: ls)
  end.

(** pbc_cc.rs 675: the sum of the coefficients. *)
Definition wrap_sum (cs : list Z) : Z := fold_left (fun s c => wrap64 (s + c)) cs 0.

(** pbc_cc.rs 702-704, [gcd]: Euclid's algorithm; on non-negative arguments it computes [Z.gcd] (see [gcd_step] in
    ConstraintProofs.v: [Z.gcd] satisfies its recursion equation). *)
Definition gcd (small big : Z) : Z := Z.gcd small big.

(** pbc_cc.rs 678-699: the loop.  [sum] is not updated.  [fuel] bounds the iterations; two are enough. *)
Fixpoint reduce (fuel : nat) (c sum : Z) (cs : list Z) (ls : list lit) : M N :=
  match fuel with
  | O => nofuel
  | S fuel' =>
      if c <? 0 then ret falsum
      else if sum <=? c then ret verum
      else
        let div := fold_left gcd cs c in
        if negb (div =? 0) && negb (div =? 1) then reduce fuel' (Z.quot c div) sum (map (fun e => Z.quot e div) cs) ls
        else f_pbc LE c ls cs
  end.

(** pbc_cc.rs 636-700, [normalize_le]. *)
Definition normalize_le (ls : list lit) (cs : list Z) (rhs : Z) : M N :=
  let '(c, cs', ls') := collect (var2consts ls cs []) rhs in
  reduce 3 c (wrap_sum cs') cs' ls'.

(** pbc_cc.rs 497-536, [PbConstraint::normalize]. *)
Definition pbc_normalize (p : pbc) : M N :=
  let neg := map (fun c => wrap64 (- c)) (pb_coeffs p) in
  match pb_cmp p with
  | EQ =>
      f1 <-- normalize_le (pb_lits p) (pb_coeffs p) (pb_rhs p) ;;
      f2 <-- normalize_le (pb_lits p) neg (wrap64 (- pb_rhs p)) ;;
      f_and [f1; f2]
  | LE => normalize_le (pb_lits p) (pb_coeffs p) (pb_rhs p)
  | LT => normalize_le (pb_lits p) (pb_coeffs p) (wrap64 (pb_rhs p - 1))
  | GE => normalize_le (pb_lits p) neg (wrap64 (- pb_rhs p))
  | GT => normalize_le (pb_lits p) neg (wrap64 (wrap64 (- pb_rhs p) - 1))
  end.
