(** Printing and parsing of formulas: src/formulas/formula.rs (to_string), src/formulas/pbc_cc.rs (to_string), src/formulas/literal.rs,
    src/formulas/variable.rs (names), src/parser/lng_pseudo_boolean_parser.pest, src/parser/pseudo_boolean_parser.rs, and
    src/formulas/formula_factory.rs 502-515 (parsed_variable).

    Texts are lists of bytes.  The grammar is interpreted with the semantics of pest: ordered choice, greedy repetition without backtracking
    into it, implicit white space between the parts of a sequence and of a repetition in rules that are not atomic.  The identifier of the
    factory is a parameter. *)
From Coq Require Import NArith ZArith List Bool Ascii String Decimal DecimalString.
From Verif Require Import Base EncodingModel Syntax FactoryModel.
Import ListNotations.
Local Open Scope list_scope.
Local Open Scope N_scope.
Local Open Scope res_scope.

Definition text := list ascii.
Definition tx (s : string) : text := list_ascii_of_string s.

(* ------------------------------------------------------------------------------------------------------------------ *)
(** * Printing *)

(** [Display] of [u64] / [u32] and of [i64]. *)
Definition show_N (n : N) : text := tx (NilZero.string_of_uint (N.to_uint n)).
Definition show_Z (z : Z) : text := match z with Zneg p => tx "-" ++ show_N (Npos p) | _ => show_N (Z.to_N z) end.

(** variable.rs 39-48, [AuxVarType::prefix]. *)
Definition aux_tag (a : aux_type) : text := match a with AuxCNF => tx "CNF" | AuxCC => tx "CC" | AuxPB => tx "PB" end.
Definition aux_prefix (fid : text) (a : aux_type) : text := tx "@RESERVED_" ++ fid ++ tx "_" ++ aux_tag a ++ tx "_".
(** variable.rs 114-119, [Variable::name]; formula_factory.rs 1314-1316. *)
Definition name_of (fid : text) (s : factory) (v : var) : res text :=
  match v with
  | VFF i => do n <- of_opt (nthN (vt_vec (t_vars (f_tabs s))) i); Ok (tx n)
  | VAux a i => Ok (aux_prefix fid a ++ show_N i)
  end.
(** literal.rs 243-246, [Literal::to_string]. *)
Definition lit_text (fid : text) (s : factory) (l : lit) : res text :=
  do n <- name_of fid s (lit_var l); Ok ((if lit_phase l then [] else tx "~") ++ n).

Fixpoint rmap {A B} (f : A -> res B) (l : list A) : res (list B) :=
  match l with [] => Ok [] | x :: r => do y <- f x; do ys <- rmap f r; Ok (y :: ys) end.
(** [join]. *)
Fixpoint join (sep : text) (l : list text) : text :=
  match l with [] => [] | [x] => x | x :: r => x ++ sep ++ join sep r end.

(** pbc_cc.rs 167-177, [Display for CType]. *)
Definition cmp_text (c : ctype) : text := match c with EQ => tx "=" | GT => tx ">" | GE => tx ">=" | LT => tx "<" | LE => tx "<=" end.
(** pbc_cc.rs 365-368, [CardinalityConstraint::to_string]. *)
Definition cc_text (fid : text) (s : factory) (c : cc) : res text :=
  do ts <- rmap (fun v => lit_text fid s (Lit v true)) (cc_vars c);
  Ok (join (tx " + ") ts ++ tx " " ++ cmp_text (cc_cmp c) ++ tx " " ++ show_N (cc_rhs c)).
(** pbc_cc.rs 541-550, [PbConstraint::to_string]. *)
Definition pbc_text (fid : text) (s : factory) (p : pbc) : res text :=
  do ts <- rmap (fun q : lit * Z => do t <- lit_text fid s (fst q); Ok (if Z.eqb (snd q) 1 then t else show_Z (snd q) ++ tx "*" ++ t))
             (combine (pb_lits p) (pb_coeffs p));
  Ok (join (tx " + ") ts ++ tx " " ++ cmp_text (pb_cmp p) ++ tx " " ++ show_Z (pb_rhs p)).

(** formula.rs 1250-1264, [precedence]. *)
Definition precedence (ty : formula_type) : N :=
  match ty with
  | TPbc => 0 | TCc => 1 | TEquiv => 2 | TImpl => 3 | TOr => 4 | TAnd => 5 | TNot => 6 | TLit _ => 7 | TTrue => 8 | TFalse => 9
  end.

(** formula.rs 1232-1248 and 1266-1281, [to_string] and [nary_to_string]. *)
Fixpoint to_string (fid : text) (fuel : nat) (s : factory) (h : N) : res text :=
  match fuel with
  | O => NoFuel
  | S fuel' =>
      let nary sep ops :=
        do ty <- ftype h;
        do ts <- rmap (fun op => do t <- to_string fid fuel' s op; do ty' <- ftype op;
                                 Ok (if precedence ty' <? precedence ty then tx "(" ++ t ++ tx ")" else t)) ops;
        Ok (join (tx sep) ts) in
      do n <- unpack s h;
      match n with
      | NTrue => Ok (tx "$true")
      | NFalse => Ok (tx "$false")
      | NLit l => lit_text fid s l
      | NAnd ops => nary " & "%string ops
      | NOr ops => nary " | "%string ops
      | NNot op => do t <- to_string fid fuel' s op; Ok (tx "~(" ++ t ++ tx ")")
      | NImpl l r => nary " => "%string [l; r]
      | NEquiv l r => nary " <=> "%string [l; r]
      | NCc c => cc_text fid s c
      | NPbc p => pbc_text fid s p
      end
  end.

(* ------------------------------------------------------------------------------------------------------------------ *)
(** * The grammar *)

(** A tree of matched rules: [Pair<Rule>].  [PParen] is the parenthesised [equivalence] inside [simp], [PSimp] has the number of [not]s. *)
Inductive pt :=
| PEquiv (l : list pt) | PImpl (l : list pt) | PDisj (l : list pt) | PConj (l : list pt)
| PCmp (first : pmul) (more : list (bool * pmul)) (c : ctype) (rhs : text)
| PSimp (nots : nat) (b : pt)
| PLit (neg : bool) (name : text)
| PConst (b : bool)
with pmul := PMul (coeff : option text) (neg : bool) (name : text).

(** A parser consumes a prefix of the text or fails ([None]). *)
Definition P (A : Type) := text -> res (option (A * text)).

Definition between (lo hi c : ascii) : bool := (N_of_ascii lo <=? N_of_ascii c) && (N_of_ascii c <=? N_of_ascii hi).
Definition is_digit (c : ascii) : bool := between "0" "9" c.
Definition is_upper (c : ascii) : bool := between "A" "Z" c.
Definition is_lower (c : ascii) : bool := between "a" "z" c.
Definition is_alnum (c : ascii) : bool := is_digit c || is_upper c || is_lower c.
(** Line 1, [WHITESPACE]. *)
Definition is_ws (c : ascii) : bool := (N_of_ascii c =? 32) || (N_of_ascii c =? 9) || (N_of_ascii c =? 13) || (N_of_ascii c =? 10).
Fixpoint skip (s : text) : text := match s with c :: r => if is_ws c then skip r else s | [] => [] end.
Fixpoint strip (p s : text) : option text :=
  match p, s with
  | [], _ => Some s
  | a :: p, b :: s => if Ascii.eqb a b then strip p s else None
  | _, [] => None
  end.
(** The longest prefix of characters satisfying [p]. *)
Fixpoint span (p : ascii -> bool) (s : text) : text * text :=
  match s with c :: r => if p c then (c :: fst (span p r), snd (span p r)) else ([], s) | [] => ([], []) end.

Definition is_us (c : ascii) : bool := Ascii.eqb c "_".
(** Line 14, [var_name]. *)
Definition p_name (s : text) : option (text * text) :=
  match s with
  | c :: r => if is_alnum c || is_us c || Ascii.eqb c "@" then let q := span (fun c => is_alnum c || is_us c) r in Some (c :: fst q, snd q) else None
  | [] => None
  end.
(** Line 15, [number]. *)
Definition p_number (s : text) : option (text * text) :=
  let '(sg, r) := match strip (tx "-") s with Some r => (tx "-", r) | None => ([], s) end in
  match span is_digit r with
  | ([], _) => None
  | (d, r') => Some (sg ++ d, r')
  end.
(** Line 13, [literal] (no white space inside). *)
Definition p_literal (s : text) : option (bool * text * text) :=
  match strip (tx "~") s with
  | Some r => match p_name r with Some (n, r') => Some (true, n, r') | None => None end
  | None => match p_name s with Some (n, r') => Some (false, n, r') | None => None end
  end.
(** Line 11, [mul]. *)
Definition p_mul (s : text) : option (pmul * text) :=
  let '(co, r) :=
    match p_number s with
    | Some (d, r) => match strip (tx "*") (skip r) with Some r' => (Some d, r') | None => (None, s) end
    | None => (None, s)
    end in
  match p_literal (skip r) with Some (ng, n, r') => Some (PMul co ng n, r') | None => None end.
(** Lines 24-29, [comp_type]. *)
Definition p_comp (s : text) : option (ctype * text) :=
  match strip (tx "=") s with
  | Some r => Some (EQ, r)
  | None => match strip (tx "<=") s with
            | Some r => Some (LE, r)
            | None => match strip (tx "<") s with
                      | Some r => Some (LT, r)
                      | None => match strip (tx ">=") s with
                                | Some r => Some (GE, r)
                                | None => match strip (tx ">") s with Some r => Some (GT, r) | None => None end
                                end
                      end
            end
  end.
(** One [(add | sub) ~ mul] of line 10. *)
Definition p_term (s : text) : option ((bool * pmul) * text) :=
  let go ng r := match p_mul (skip r) with Some (m, r') => Some ((ng, m), r') | None => None end in
  match strip (tx "+") s with
  | Some r => go false r
  | None => match strip (tx "-") s with Some r => go true r | None => None end
  end.
(** Repetition after the first white space has been skipped: what is left when the next part does not match is the text before its white
    space.  [fuel] bounds the number of parts; more than the length of the text is enough. *)
Fixpoint p_terms (fuel : nat) (s : text) : res (list (bool * pmul) * text) :=
  match fuel with
  | O => NoFuel
  | S fuel' =>
      match p_term (skip s) with
      | Some (t, r) => do q <- p_terms fuel' r; Ok (t :: fst q, snd q)
      | None => Ok ([], s)
      end
  end.
(** Line 10, [comparison]. *)
Definition p_comparison : P pt := fun s =>
  match p_mul s with
  | None => Ok None
  | Some (m, r) =>
      do q <- p_terms (S (List.length r)) (skip r);
      match p_comp (skip (snd q)) with
      | None => Ok None
      | Some (c, r2) =>
          match p_number (skip r2) with
          | None => Ok None
          | Some (d, r3) => Ok (Some (PCmp m (fst q) c d, r3))
          end
      end
  end.

(** [not*] of line 9. *)
Fixpoint p_nots (s : text) : nat * text :=
  match s with
  | c :: r => if Ascii.eqb c "~" then (S (fst (p_nots r)), snd (p_nots r))
              else if is_ws c then match p_nots r with (O, _) => (O, s) | q => q end else (O, s)
  | [] => (O, [])
  end.

(** [p ~ (sep ~ p)*], lines 4-7. *)
Fixpoint p_more (sep : text) (p : P pt) (fuel : nat) (s : text) : res (list pt * text) :=
  match fuel with
  | O => NoFuel
  | S fuel' =>
      match strip sep (skip s) with
      | None => Ok ([], s)
      | Some r =>
          do o <- p (skip r);
          match o with
          | None => Ok ([], s)
          | Some (t, r') => do q <- p_more sep p fuel' r'; Ok (t :: fst q, snd q)
          end
      end
  end.
Definition p_list (sep : string) (mk : list pt -> pt) (p : P pt) : P pt := fun s =>
  do o <- p s;
  match o with
  | None => Ok None
  | Some (t, r) => do q <- p_more (tx sep) p (S (List.length r)) (skip r); Ok (Some (mk (t :: fst q), snd q))
  end.

(** Lines 17-19, [constant]. *)
Definition p_constant (s : text) : option (bool * text) :=
  match strip (tx "$true") s with
  | Some r => Some (true, r)
  | None => match strip (tx "$false") s with Some r => Some (false, r) | None => None end
  end.
(** Line 9, [simp]; [eq] parses an [equivalence].  White space before the first [not] has been skipped by the caller or does not occur. *)
Definition p_simp (eq : P pt) : P pt := fun s =>
  let '(n, r) := match s with c :: _ => if is_ws c then (O, s) else p_nots s | [] => (O, s) end in
  let r := skip r in
  match p_literal r with
  | Some (ng, nm, r') => Ok (Some (PSimp n (PLit ng nm), r'))
  | None =>
      match p_constant r with
      | Some (b, r') => Ok (Some (PSimp n (PConst b), r'))
      | None =>
          match strip (tx "(") r with
          | None => Ok None
          | Some r1 =>
              do o <- eq (skip r1);
              match o with
              | None => Ok None
              | Some (t, r2) => match strip (tx ")") (skip r2) with Some r3 => Ok (Some (PSimp n t, r3)) | None => Ok None end
              end
          end
      end
  end.
(** Line 8, [lit]. *)
Definition p_lit (eq : P pt) : P pt := fun s =>
  do o <- p_comparison s;
  match o with Some x => Ok (Some x) | None => p_simp eq s end.

Definition p_conj (eq : P pt) : P pt := p_list "&" PConj (p_lit eq).
Definition p_disj (eq : P pt) : P pt := p_list "|" PDisj (p_conj eq).
Definition p_impl (eq : P pt) : P pt := p_list "=>" PImpl (p_disj eq).
(** Line 4, [equivalence]; [fuel] bounds the nesting of parentheses. *)
Fixpoint p_equiv (fuel : nat) : P pt :=
  match fuel with
  | O => fun _ => NoFuel
  | S fuel' => p_list "<=>" PEquiv (p_impl (p_equiv fuel'))
  end.
(** Line 3, [pseudo_boolean]: [Ok None] is a syntax error, [Ok (Some None)] the empty text. *)
Definition p_formula (fuel : nat) (s : text) : res (option (option pt)) :=
  let s := skip s in
  do o <- p_equiv fuel s;
  let '(t, r) := match o with Some (t, r) => (Some t, r) | None => (None, s) end in
  Ok (match skip r with [] => Some t | _ => None end).

(* ------------------------------------------------------------------------------------------------------------------ *)
(** * Building the formula *)

(** formula_factory.rs 39, [AUX_REGEX]: identifier, kind and index. *)
Definition aux_match (n : text) : option (text * aux_type * text) :=
  match strip (tx "@RESERVED_") n with
  | None => None
  | Some r =>
      let '(i, r1) := span (fun c => is_digit c || is_upper c) r in
      let tail a tag := match strip (tx "_" ++ tag ++ tx "_") r1 with
                        | Some r2 => match span is_digit r2 with (d, []) => match d with [] => None | _ => Some (i, a, d) end | _ => None end
                        | None => None
                        end in
      match tail AuxCNF (tx "CNF") with
      | Some x => Some x
      | None => match tail AuxCC (tx "CC") with Some x => Some x | None => tail AuxPB (tx "PB") end
      end
  end.
(** [str::parse] for digits. *)
Definition read_N (d : text) : option N :=
  match NilZero.uint_of_string (string_of_list_ascii d) with Some u => Some (N.of_uint u) | None => None end.
Definition text_eqb (a b : text) : bool := String.eqb (string_of_list_ascii a) (string_of_list_ascii b).
(** formula_factory.rs 502-515, [parsed_variable]; an index beyond 64 bits panics. *)
Definition parsed_variable (fid : text) (n : text) : M N :=
  match aux_match n with
  | Some (i, a, d) =>
      if text_eqb i fid then
        match read_N d with
        | Some k => if k <? 18446744073709551616 then ret (encode_lit (Lit (VAux a k) true)) else fail
        | None => fail
        end
      else f_variable (string_of_list_ascii n)
  | None => f_variable (string_of_list_ascii n)
  end.

(** pseudo_boolean_parser.rs 159-168, [parse_literal]. *)
Definition parse_literal (fid : text) (ng : bool) (n : text) : M N :=
  h <-- parsed_variable fid n ;;
  if ng then f_negate h else ret h.
(** [as_str().parse::<i64>().unwrap()]. *)
Definition read_i64 (d : text) : M Z :=
  match match strip (tx "-") d with
        | Some r => match read_N r with Some n => Some (- Z.of_N n)%Z | None => None end
        | None => match read_N d with Some n => Some (Z.of_N n) | None => None end
        end with
  | Some z => if (-9223372036854775808 <=? z)%Z && (z <=? 9223372036854775807)%Z then ret z else fail
  | None => fail
  end.
(** pseudo_boolean_parser.rs 143-157, [parse_mul]. *)
Definition parse_mul (fid : text) (m : pmul) : M (lit * Z) :=
  let '(PMul co ng n) := m in
  z <-- match co with Some d => read_i64 d | None => ret 1%Z end ;;
  h <-- parse_literal fid ng n ;;
  x <-- lift (fun s => unpack s h) ;;
  match x with NLit l => ret (l, z) | _ => fail end.
(** [-cn] on [i64] (release build). *)
Definition wrap64 (z : Z) : Z := ((z + 9223372036854775808) mod 18446744073709551616 - 9223372036854775808)%Z.
Fixpoint parse_terms (fid : text) (l : list (bool * pmul)) : M (list (lit * Z)) :=
  match l with
  | [] => ret []
  | (ng, m) :: r =>
      p <-- parse_mul fid m ;;
      ps <-- parse_terms fid r ;;
      ret ((fst p, if ng then wrap64 (- snd p) else snd p) :: ps)
  end.

(** pseudo_boolean_parser.rs 28-141, [parse_equivalence] ... [parse_comparison]: equivalences and implications are evaluated from the right. *)
Fixpoint eval_pt (fid : text) (t : pt) : M N :=
  match t with
  | PEquiv l =>
      (fix go l := match l with
                   | [] => fail
                   | [x] => eval_pt fid x
                   | x :: r => form <-- go r ;; left <-- eval_pt fid x ;; f_equivalence left form
                   end) l
  | PImpl l =>
      (fix go l := match l with
                   | [] => fail
                   | [x] => eval_pt fid x
                   | x :: r => form <-- go r ;; left <-- eval_pt fid x ;; f_implication left form
                   end) l
  | PDisj l =>
      hs <-- (fix go l := match l with [] => ret [] | x :: r => h <-- eval_pt fid x ;; hs <-- go r ;; ret (h :: hs) end) l ;;
      match hs with [] => fail | [h] => ret h | _ => f_or hs end
  | PConj l =>
      hs <-- (fix go l := match l with [] => ret [] | x :: r => h <-- eval_pt fid x ;; hs <-- go r ;; ret (h :: hs) end) l ;;
      match hs with [] => fail | [h] => ret h | _ => f_and hs end
  | PCmp m ms c d =>
      p <-- parse_mul fid m ;;
      ps <-- parse_terms fid ms ;;
      z <-- read_i64 d ;;
      f_pbc c z (map fst (p :: ps)) (map snd (p :: ps))
  | PSimp n b =>
      h <-- eval_pt fid b ;;
      if Nat.odd n then f_not h else ret h
  | PLit ng n => parse_literal fid ng n
  | PConst b => ret (constant b)
  end.

(** pseudo_boolean_parser.rs 10-26, [parse]: [None] is the error result. *)
Definition parse (fid : text) (fuel : nat) (s : text) : M (option N) :=
  o <-- lift (fun _ => p_formula fuel s) ;;
  match o with
  | None => ret None
  | Some None => ret (Some verum)
  | Some (Some t) => h <-- eval_pt fid t ;; ret (Some h)
  end.
