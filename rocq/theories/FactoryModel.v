(** Model of src/formulas/formula_factory.rs, src/formulas/formula_cache/*.rs, src/formulas/formula.rs (unpack and the type
    tests) and of the formula-building parts of src/formulas/pbc_cc.rs.

    The factory is an explicit state.  A call that mutates the factory returns the new state.  Atomics, locks and shared
    ownership are dropped here (the sequential meaning is modelled; the concurrent behaviour of the caches is modelled in the
    Concurrency files). *)
From Coq Require Import NArith ZArith List Bool.
From Coq Require String.
From Verif Require Import Base EncodingModel Syntax.
Import ListNotations.
Local Open Scope res_scope.
Local Open Scope N_scope.

(* ------------------------------------------------------------------------------------------------------------------ *)
(** * Caches *)

(** An append-only vector together with its reverse map (the pair of fields [vec]/[reverse_map] found in all caches, e.g.
    simple_cache.rs 13-16).  Simplification: [AppendOnlyVec] is a list, [DashMap] an association list. *)
Record vtab (V : Type) := mkVtab { vt_vec : list V; vt_rev : list (V * N) }.
Arguments mkVtab {V} _ _.
Arguments vt_vec {V} _.
Arguments vt_rev {V} _.

Definition vtab_empty {V} : vtab V := mkVtab [] [].

(** The pattern [*reverse_map.entry(key).or_insert_with(|| { let index = vec.push(val); encode(index, ty, large) })]
    (e.g. not_cache.rs 46-49, nary_formula_cache.rs 65-68, equivalence_cache.rs 48-51, simple_cache.rs 37-40). *)
Definition vtab_goi {V} (keq : V -> V -> bool) (ty : formula_type) (large : bool) (key val : V) (t : vtab V) : N * vtab V :=
  match assoc keq key (vt_rev t) with
  | Some e => (e, t)
  | None =>
      let e := encode (lenN (vt_vec t)) ty large in
      (e, mkVtab (vt_vec t ++ [val]) (vt_rev t ++ [(key, e)]))
  end.

(** Caches with separate tables for small (32 bit) and large (64 bit) operands: not_cache.rs 9-14, implication_cache.rs 9-14,
    equivalence_cache.rs 9-14, nary_formula_cache.rs 16-22. *)
Record cache2 (V : Type) := mkCache2 { c_small : vtab V; c_large : vtab V }.
Arguments mkCache2 {V} _ _.
Arguments c_small {V} _.
Arguments c_large {V} _.

Definition cache2_empty {V} : cache2 V := mkCache2 vtab_empty vtab_empty.

(** [get] of these caches (not_cache.rs 27-35, implication_cache.rs 27-35, equivalence_cache.rs 27-35,
    nary_formula_cache.rs 36-54): the cache bit selects the table. *)
Definition cache2_get {V} (c : cache2 V) (h : N) : res V :=
  of_opt (nthN (vt_vec (if is_large_cache h then c_large c else c_small c)) (enc_index h)).

Definition pair_eqb (a b : N * N) : bool := (fst a =? fst b) && (snd a =? snd b).

(** not_cache.rs 37-51, [NotCache::get_or_insert]. *)
Definition not_goi (op : N) (c : cache2 N) : N * cache2 N :=
  if is_large op then
    let '(e, t) := vtab_goi N.eqb TNot true op op (c_large c) in (e, mkCache2 (c_small c) t)
  else
    let '(e, t) := vtab_goi N.eqb TNot false (as_32 op) (as_32 op) (c_small c) in (e, mkCache2 t (c_large c)).

(** not_cache.rs 53-59, [NotCache::lookup]. *)
Definition not_lookup (op : N) (c : cache2 N) : option N :=
  if is_large op then assoc N.eqb op (vt_rev (c_large c)) else assoc N.eqb (as_32 op) (vt_rev (c_small c)).

(** implication_cache.rs 37-51, [ImplicationCache::get_or_insert]. *)
Definition impl_goi (l r : N) (c : cache2 (N * N)) : N * cache2 (N * N) :=
  if is_large l || is_large r then
    let '(e, t) := vtab_goi pair_eqb TImpl true (l, r) (l, r) (c_large c) in (e, mkCache2 (c_small c) t)
  else
    let p := (as_32 l, as_32 r) in
    let '(e, t) := vtab_goi pair_eqb TImpl false p p (c_small c) in (e, mkCache2 t (c_large c)).

(** equivalence_cache.rs 40, 47: the key is the ordered pair. *)
Definition sort_pair (p : N * N) : N * N := if fst p <? snd p then p else (snd p, fst p).

(** equivalence_cache.rs 37-53, [EquivalenceCache::get_or_insert]. *)
Definition equiv_goi (l r : N) (c : cache2 (N * N)) : N * cache2 (N * N) :=
  if is_large l || is_large r then
    let '(e, t) := vtab_goi pair_eqb TEquiv true (sort_pair (l, r)) (l, r) (c_large c) in (e, mkCache2 (c_small c) t)
  else
    let p := (as_32 l, as_32 r) in
    let '(e, t) := vtab_goi pair_eqb TEquiv false (sort_pair p) p (c_small c) in (e, mkCache2 t (c_large c)).

(** [HashSet::insert] on sets given as lists: the Boolean tells whether the element is new. *)
Definition set_insert (x : N) (s : list N) : bool * list N := if memN x s then (false, s) else (true, s ++ [x]).

(** [HashSet::extend]. *)
Definition set_extend (xs : list N) (s : list N) : list N := fold_left (fun s x => snd (set_insert x s)) xs s.

(** nary_formula_cache.rs 56-79, [NaryFormulaCache::get_or_insert]; [elements64.extend(elements32); rotate_right(len32)] puts the
    small elements in front. *)
Definition nary_goi (ty : formula_type) (e32 s32 e64 s64 : list N) (c : cache2 (list N)) : N * cache2 (list N) :=
  match e64 with
  | [] =>
      let '(e, t) := vtab_goi set_eqb ty false s32 e32 (c_small c) in (e, mkCache2 t (c_large c))
  | _ =>
      let ops := map as_64 e32 ++ e64 in
      let key := set_extend (map as_64 e32) s64 in
      let '(e, t) := vtab_goi set_eqb ty true key ops (c_large c) in (e, mkCache2 (c_small c) t)
  end.

(** simple_cache.rs 29-41 and var_cache.rs 27-40, [get_or_insert].  The preceding fast lookup has no effect sequentially. *)
Definition simple_goi {T} (teq : T -> T -> bool) (ty : formula_type) (x : T) (t : vtab T) : N * vtab T :=
  match assoc teq x (vt_rev t) with
  | Some e => (e, t)
  | None => vtab_goi teq ty true x x t
  end.

(** simple_cache.rs 24-27 and var_cache.rs 22-25, [get]: asserts the cache bit. *)
Definition simple_get {T} (t : vtab T) (h : N) : res T :=
  if is_large_cache h then of_opt (nthN (vt_vec t) (enc_index h)) else Panic.

(** simple_cache.rs 43-45, [lookup]. *)
Definition simple_lookup {T} (teq : T -> T -> bool) (x : T) (t : vtab T) : option N := assoc teq x (vt_rev t).

Fixpoint list_eqb {A} (eqb : A -> A -> bool) (a b : list A) : bool :=
  match a, b with
  | [], [] => true
  | x :: a', y :: b' => eqb x y && list_eqb eqb a' b'
  | _, _ => false
  end.

(** derived [PartialEq] of the two constraint structs. *)
Definition cc_eqb (a b : cc) : bool :=
  list_eqb var_eqb (cc_vars a) (cc_vars b) && ctype_eqb (cc_cmp a) (cc_cmp b) && N.eqb (cc_rhs a) (cc_rhs b).
Definition pbc_eqb (a b : pbc) : bool :=
  list_eqb lit_eqb (pb_lits a) (pb_lits b) && list_eqb Z.eqb (pb_coeffs a) (pb_coeffs b)
  && ctype_eqb (pb_cmp a) (pb_cmp b) && Z.eqb (pb_rhs a) (pb_rhs b).

(** src/formulas/operation_cache.rs 18-20, [OperationCache::insert]: the first value wins.  28-31, [get]. *)
Definition oc_insert {V} (h : N) (v : V) (m : list (N * V)) : list (N * V) :=
  match assoc N.eqb h m with Some _ => m | None => (h, v) :: m end.
Definition oc_get {V} (h : N) (m : list (N * V)) : option V := assoc N.eqb h m.

(* ------------------------------------------------------------------------------------------------------------------ *)
(** * Configuration *)

(** src/cardinality_constraints/cc_config.rs 3-93. *)
Inductive bimander_size := BiHalf | BiSqrt | BiFixed (n : N).
Inductive amo_encoder :=
| AmoPure | AmoLadder | AmoProduct (recursive_bound : N) | AmoNested (group_size : N) | AmoCommander (group_size : N)
| AmoBinary | AmoBimander (group_size : bimander_size) | AmoBest.
Inductive amk_encoder := AmkTotalizer | AmkModularTotalizer | AmkCardinalityNetwork | AmkBest.
Inductive alk_encoder := AlkTotalizer | AlkModularTotalizer | AlkCardinalityNetwork | AlkBest.
Inductive exk_encoder := ExkTotalizer | ExkCardinalityNetwork | ExkBest.
Record cc_config := mkCcConfig
  { cfg_amo : amo_encoder; cfg_amk : amk_encoder; cfg_alk : alk_encoder; cfg_exk : exk_encoder }.

(** src/pseudo_booleans/pb_config.rs 3-25. *)
Inductive pb_algorithm := PbSwc | PbBinaryMerge | PbAdderNetworks | PbBest.
Record pb_config := mkPbConfig
  { cfg_pb_alg : pb_algorithm; cfg_use_gac : bool; cfg_no_support_single : bool; cfg_watch_dog : bool }.

(** src/formulas/cache_config.rs 11-47 (the flag [sat] defaults to false). *)
Record cache_config := mkCacheConfig
  { on_atoms : bool; on_nodes : bool; on_depth : bool; on_vars : bool; on_lits : bool; on_sub : bool;
    on_ccenc : bool; on_pbcenc : bool; on_nnf : bool; on_dnf : bool; on_sat : bool; on_cnf : bool;
    on_is_nnf : bool; on_is_dnf : bool; on_contains_pbc : bool; on_bb : bool }.

(** src/formulas/formula_factory_config.rs 15-29; the CNF algorithm is a parameter of the CNF functions instead. *)
Record ff_config := mkFfConfig { cfg_cc : cc_config; cfg_pb : pb_config; cfg_caches : cache_config }.

Definition default_config : ff_config :=
  mkFfConfig (mkCcConfig AmoBest AmkBest AlkBest ExkBest) (mkPbConfig PbBest true false true)
    (mkCacheConfig true true true true true true true true true true false true true true true true).

(** src/formulas/formula_cache/formula_factory_caches.rs 6-24. *)
Record op_caches := mkOpCaches
  { oc_atoms : list (N * N); oc_nodes : list (N * N); oc_depth : list (N * N);
    oc_vars : list (N * list var); oc_lits : list (N * list lit); oc_sub : list (N * list N);
    oc_ccenc : list (N * list N); oc_pbcenc : list (N * list N);
    oc_nnf : list (N * N); oc_dnf : list (N * N); oc_cnf : list (N * N);
    oc_sat : list (N * bool); oc_is_nnf : list (N * bool); oc_is_dnf : list (N * bool);
    oc_is_cnf : list (N * unit); oc_contains_pbc : list (N * bool); oc_bb : list (N * N) }.

Definition op_caches_empty : op_caches := mkOpCaches [] [] [] [] [] [] [] [] [] [] [] [] [] [] [] [] [].

(* ------------------------------------------------------------------------------------------------------------------ *)
(** * The factory *)

(** The formula tables of formula_factory.rs 230-247. *)
Record tables := mkTables
  { t_vars : vtab String.string; t_ands : cache2 (list N); t_ors : cache2 (list N); t_nots : cache2 N;
    t_impls : cache2 (N * N); t_equivs : cache2 (N * N); t_ccs : vtab cc; t_pbcs : vtab pbc }.

(** formula_factory.rs 230-247, [FormulaFactory]. *)
Record factory := mkFactory
  { f_config : ff_config; f_tabs : tables; f_cnf_ctr : N; f_cc_ctr : N; f_pb_ctr : N; f_caches : op_caches }.

(** formula_factory.rs 294-311, [with_id]. *)
Definition factory_new (cfg : ff_config) : factory :=
  mkFactory cfg (mkTables vtab_empty cache2_empty cache2_empty cache2_empty cache2_empty cache2_empty vtab_empty vtab_empty)
    0 0 0 op_caches_empty.

Definition with_tabs (s : factory) (t : tables) : factory :=
  mkFactory (f_config s) t (f_cnf_ctr s) (f_cc_ctr s) (f_pb_ctr s) (f_caches s).
Definition with_caches (s : factory) (c : op_caches) : factory :=
  mkFactory (f_config s) (f_tabs s) (f_cnf_ctr s) (f_cc_ctr s) (f_pb_ctr s) c.

Definition set_vars (t : tables) x := mkTables x (t_ands t) (t_ors t) (t_nots t) (t_impls t) (t_equivs t) (t_ccs t) (t_pbcs t).
Definition set_ands (t : tables) x := mkTables (t_vars t) x (t_ors t) (t_nots t) (t_impls t) (t_equivs t) (t_ccs t) (t_pbcs t).
Definition set_ors (t : tables) x := mkTables (t_vars t) (t_ands t) x (t_nots t) (t_impls t) (t_equivs t) (t_ccs t) (t_pbcs t).
Definition set_nots (t : tables) x := mkTables (t_vars t) (t_ands t) (t_ors t) x (t_impls t) (t_equivs t) (t_ccs t) (t_pbcs t).
Definition set_impls (t : tables) x := mkTables (t_vars t) (t_ands t) (t_ors t) (t_nots t) x (t_equivs t) (t_ccs t) (t_pbcs t).
Definition set_equivs (t : tables) x := mkTables (t_vars t) (t_ands t) (t_ors t) (t_nots t) (t_impls t) x (t_ccs t) (t_pbcs t).
Definition set_ccs (t : tables) x := mkTables (t_vars t) (t_ands t) (t_ors t) (t_nots t) (t_impls t) (t_equivs t) x (t_pbcs t).
Definition set_pbcs (t : tables) x := mkTables (t_vars t) (t_ands t) (t_ors t) (t_nots t) (t_impls t) (t_equivs t) (t_ccs t) x.

Definition set_is_cnf (c : op_caches) x : op_caches :=
  mkOpCaches (oc_atoms c) (oc_nodes c) (oc_depth c) (oc_vars c) (oc_lits c) (oc_sub c) (oc_ccenc c) (oc_pbcenc c) (oc_nnf c)
    (oc_dnf c) (oc_cnf c) (oc_sat c) (oc_is_nnf c) (oc_is_dnf c) x (oc_contains_pbc c) (oc_bb c).

(** A factory operation: the outcome and the state of the factory afterwards (also after a panic). *)
Definition M (A : Type) := factory -> res A * factory.
Definition ret {A} (a : A) : M A := fun s => (Ok a, s).
Definition bind {A B} (m : M A) (k : A -> M B) : M B :=
  fun s => match m s with (Ok a, s') => k a s' | (Panic, s') => (Panic, s') | (NoFuel, s') => (NoFuel, s') end.
Definition lift {A} (r : factory -> res A) : M A := fun s => (r s, s).
Definition fail {A} : M A := fun s => (Panic, s).
Definition nofuel {A} : M A := fun s => (NoFuel, s).
Definition modf (g : factory -> factory) : M unit := fun s => (Ok tt, g s).
(** An update of the formula tables with a result. *)
Definition updt {A} (g : tables -> A * tables) : M A :=
  fun s => (Ok (fst (g (f_tabs s))), with_tabs s (snd (g (f_tabs s)))).

Notation "x <-- m ;; k" := (bind m (fun x => k)) (at level 61, m at next level, right associativity).
Notation "m ;;; k" := (bind m (fun _ => k)) (at level 61, right associativity).

(* ------------------------------------------------------------------------------------------------------------------ *)
(** * Unpacking handles (src/formulas/formula.rs) *)

(** formula.rs, [Formula]; n-ary operands are the list produced by [NaryIterator]. *)
Inductive node :=
| NTrue | NFalse | NLit (l : lit) | NNot (a : N) | NAnd (l : list N) | NOr (l : list N) | NImpl (a b : N) | NEquiv (a b : N)
| NCc (c : cc) | NPbc (p : pbc).

(** variable.rs 233-246, [var_type], [index]. *)
Definition var_type_of (v : var) : var_type := match v with VFF _ => VTFF | VAux a _ => VTAux a end.
Definition var_index (v : var) : N := match v with VFF i => i | VAux _ i => i end.

(** literal.rs 249-257, [From<Literal> for EncodedFormula]. *)
Definition encode_lit (l : lit) : N :=
  match l with
  | Lit v true => encode (var_index v) (TLit (LTPos (var_type_of v))) true
  | Lit v false => encode (var_index v) (TLit (LTNeg (var_type_of v))) true
  end.

(** variable.rs 263-273, [Variable::try_from]. *)
Definition var_of_type (vt : var_type) (i : N) : var := match vt with VTFF => VFF i | VTAux a => VAux a i end.

(** formula_factory.rs 369-417, [verum], [falsum], [constant]; formula.rs 101-104. *)
Definition verum : N := encode_type TTrue.
Definition falsum : N := encode_type TFalse.
Definition constant (b : bool) : N := if b then verum else falsum.

(** formula.rs 174-188, [EncodedFormula::unpack]. *)
Definition unpack (s : factory) (h : N) : res node :=
  do ty <- of_opt (formula_type_of h);
  match ty with
  | TPbc => do p <- simple_get (t_pbcs (f_tabs s)) h; Ok (NPbc p)
  | TCc => do c <- simple_get (t_ccs (f_tabs s)) h; Ok (NCc c)
  | TEquiv => do p <- cache2_get (t_equivs (f_tabs s)) h; Ok (NEquiv (fst p) (snd p))
  | TImpl => do p <- cache2_get (t_impls (f_tabs s)) h; Ok (NImpl (fst p) (snd p))
  | TOr => do l <- cache2_get (t_ors (f_tabs s)) h; Ok (NOr l)
  | TAnd => do l <- cache2_get (t_ands (f_tabs s)) h; Ok (NAnd l)
  | TNot => do a <- cache2_get (t_nots (f_tabs s)) h; Ok (NNot a)
  | TLit (LTPos vt) => Ok (NLit (Lit (var_of_type vt (enc_index h)) true))
  | TLit (LTNeg vt) => Ok (NLit (Lit (var_of_type vt (enc_index h)) false))
  | TTrue => Ok NTrue
  | TFalse => Ok NFalse
  end.

(** formula.rs 124-126, [formula_type]; the type tests 245-420. *)
Definition ftype (h : N) : res formula_type := of_opt (formula_type_of h).

Definition is_verum (h : N) : bool := match formula_type_of h with Some TTrue => true | _ => false end.
Definition is_falsum (h : N) : bool := match formula_type_of h with Some TFalse => true | _ => false end.
Definition is_constant (h : N) : bool := is_falsum h || is_verum h.
Definition is_literal (h : N) : bool := match formula_type_of h with Some (TLit _) => true | _ => false end.
Definition is_nary_operator (h : N) : bool := match formula_type_of h with Some TAnd | Some TOr => true | _ => false end.

(** operations/functions/operands.rs (called through [EncodedFormula::operands]): the direct operands. *)
Definition node_operands (n : node) : list N :=
  match n with
  | NNot a => [a]
  | NAnd l | NOr l => l
  | NImpl a b | NEquiv a b => [a; b]
  | NTrue | NFalse | NLit _ | NCc _ | NPbc _ => []
  end.
Definition operands (s : factory) (h : N) : res (list N) := do n <- unpack s h; Ok (node_operands n).

(** operations/predicates/cnf.rs 27-34, [is_cnf]. *)
Definition is_cnf (s : factory) (h : N) : res bool :=
  do ty <- ftype h;
  Ok match ty with
     | TLit _ | TTrue | TFalse => true
     | TPbc | TCc | TEquiv | TImpl | TNot => false
     | TAnd | TOr => match oc_get h (oc_is_cnf (f_caches s)) with Some _ => true | None => false end
     end.

(* ------------------------------------------------------------------------------------------------------------------ *)
(** * N-ary constructors *)

(** formula_factory.rs 42-48, [FilterResult]. *)
Record filter_result := mkFR { fr32 : list N; frs32 : list N; fr64 : list N; frs64 : list N; fr_cnf : bool }.

(** formula_factory.rs 1397-1421, [contains_complement]. *)
Definition contains_complement (s : factory) (s32 s64 : list N) (h : N) : res bool :=
  do n <- unpack s h;
  let has e := memN (as_32 e) s32 || memN e s64 in
  Ok match n with
     | NTrue => has (encode_type TFalse)
     | NFalse => has (encode_type TTrue)
     | NLit l => has (encode_lit (lit_negate l))
     | NNot op => has op
     | _ => match not_lookup h (t_nots (f_tabs s)) with Some e => has e | None => false end
     end.

(** The operator of an n-ary call: [true] = conjunction. *)
Definition nary_type (conj : bool) : formula_type := if conj then TAnd else TOr.
Definition is_nary_type (conj : bool) (ty : formula_type) : bool :=
  match ty with TAnd => conj | TOr => negb conj | _ => false end.

(** formula_factory.rs 1360-1368: update of the [is_cnf] flag for one operand. *)
Definition cnf_flag (s : factory) (conj : bool) (h : N) (flag : bool) : res bool :=
  if flag then
    if conj then is_cnf s h else Ok (is_literal h || is_constant h)
  else Ok false.

(** formula_factory.rs 1380-1390: insertion of one operand; [is_large] is the local flag after line 1383. *)
Definition filter_insert (is_large : bool) (h : N) (r : filter_result) (flag : bool) : filter_result :=
  if is_large then
    if memN (as_32 h) (frs32 r) then mkFR (fr32 r) (frs32 r) (fr64 r) (frs64 r) flag
    else let '(new, s64) := set_insert h (frs64 r) in
         mkFR (fr32 r) (frs32 r) (if new then fr64 r ++ [h] else fr64 r) s64 flag
  else let '(new, s32) := set_insert (as_32 h) (frs32 r) in
       mkFR (if new then fr32 r ++ [as_32 h] else fr32 r) s32 (fr64 r) (frs64 r) flag.

(** formula_factory.rs 1348-1395, [filter_flatten].  The Boolean result is the Rust result.  [fuel] bounds the nesting of
    same-type operands (the Rust recursion in line 1356); [sub] stands for that recursive call. *)
Fixpoint filter_loop (sub : list N -> filter_result -> res (bool * filter_result)) (s : factory) (conj : bool) (ops : list N)
    (large : bool) (r : filter_result) : res (bool * filter_result) :=
  match ops with
  | [] => Ok (true, r)
  | h :: rest =>
      do ty <- ftype h;
      if is_nary_type conj ty then
        do inner <- operands s h;
        do br <- sub inner r;
        if fst br then filter_loop sub s conj rest large (snd br) else Ok (false, snd br)
      else
        do flag <- cnf_flag s conj h (fr_cnf r);
        let r1 := mkFR (fr32 r) (frs32 r) (fr64 r) (frs64 r) flag in
        if is_verum h then
          if conj then filter_loop sub s conj rest large r1 else Ok (false, r1)
        else if is_falsum h then
          if conj then Ok (false, r1) else filter_loop sub s conj rest large r1
        else
          do comp <- contains_complement s (frs32 r) (frs64 r) h;
          if comp then Ok (false, r1)
          else
            let large' := large || is_large h in
            filter_loop sub s conj rest large' (filter_insert large' h r flag)
  end.

Fixpoint filter_flatten (fuel : nat) (s : factory) (conj : bool) (ops : list N) (r : filter_result)
    : res (bool * filter_result) :=
  match fuel with
  | O => NoFuel
  | S fuel' => filter_loop (fun inner r' => filter_flatten fuel' s conj inner r') s conj ops false r
  end.

(** Nesting bound for [filter_flatten]: more than the number of stored n-ary formulas. *)
Definition nary_cache_of (conj : bool) (t : tables) : cache2 (list N) := if conj then t_ands t else t_ors t.
Definition set_nary (conj : bool) (t : tables) c := if conj then set_ands t c else set_ors t c.
Definition flatten_fuel (s : factory) (conj : bool) : nat :=
  S (S (length (vt_vec (c_small (nary_cache_of conj (f_tabs s)))) + length (vt_vec (c_large (nary_cache_of conj (f_tabs s)))))).

(** formula_factory.rs 1334-1346, [prepare_nary]. *)
Definition prepare_nary (s : factory) (conj : bool) (ops : list N) : res (option filter_result) :=
  do br <- filter_flatten (flatten_fuel s conj) s conj ops (mkFR [] [] [] [] true);
  Ok (if fst br then Some (snd br) else None).

(** formula_factory.rs 631, 674: the insertion into the is_cnf cache. *)
Definition note_is_cnf (h : N) (s : factory) : factory :=
  with_caches s (set_is_cnf (f_caches s) (oc_insert h tt (oc_is_cnf (f_caches s)))).

(** formula_factory.rs 614-636, [and] ([conj = true]), and 657-679, [or] ([conj = false]); the Rust functions are dual line by
    line. *)
Definition nary_insert (conj : bool) (r : filter_result) : M N :=
  updt (fun t =>
    let '(e, c) := nary_goi (nary_type conj) (fr32 r) (frs32 r) (fr64 r) (frs64 r) (nary_cache_of conj t) in
    (e, set_nary conj t c)).

Definition f_nary (conj : bool) (ops : list N) : M N :=
  p <-- lift (fun s => prepare_nary s conj ops) ;;
  match p with
  | None => ret (constant (negb conj))
  | Some r =>
      h <-- match fr32 r, fr64 r with
            | [], [] => ret (constant conj)
            | [h], [] => ret h
            | [], [h] => ret h
            | _, _ => nary_insert conj r
            end ;;
      (if fr_cnf r && is_nary_operator h then modf (note_is_cnf h) else ret tt) ;;;
      ret h
  end.

Definition f_and (ops : list N) : M N := f_nary true ops.
Definition f_or (ops : list N) : M N := f_nary false ops.

(** formula_factory.rs 705-710, [clause]. *)
Definition f_clause (ls : list lit) : M N := f_or (map encode_lit ls).

(* ------------------------------------------------------------------------------------------------------------------ *)
(** * Constraints *)

(** formula_factory.rs 1424-1432, [evaluate_trivial_pb_constraint]. *)
Definition trivial_pb (c : ctype) (rhs : Z) : bool :=
  match c with
  | EQ => Z.eqb rhs 0
  | GT => Z.ltb rhs 0
  | GE => Z.leb rhs 0
  | LT => Z.ltb 0 rhs
  | LE => Z.leb 0 rhs
  end.

(** formula_factory.rs 1438-1444, [is_cc]. *)
Definition is_cc (c : ctype) (rhs : Z) : bool :=
  match c with
  | LE => Z.leb 0 rhs
  | LT => Z.leb 1 rhs
  | GE => Z.leb 0 rhs
  | GT => Z.leb (-1) rhs
  | EQ => Z.leb 0 rhs
  end.

(** formula_factory.rs 1434-1436, [is_lit_cc]. *)
Definition is_lit_cc (c : ctype) (rhs : Z) (ls : list lit) (cs : list Z) : bool :=
  forallb lit_phase ls && forallb (fun x => Z.eqb x 1) cs && is_cc c rhs.

(** [rhs as u32] for an [i64]. *)
Definition z_as_u32 (z : Z) : N := Z.to_N (z mod 4294967296).

(** formula_factory.rs 1318-1332, [construct_cc_unsafe]. *)
Definition cc_insert (x : cc) : M N :=
  updt (fun t => let '(e, c) := simple_goi cc_eqb TCc x (t_ccs t) in (e, set_ccs t c)).

Definition construct_cc_unsafe (c : ctype) (rhs : Z) (vs : list var) : M N :=
  match vs with
  | [] => ret (constant (trivial_pb c rhs))
  | _ =>
      if Z.leb 0 rhs then cc_insert (mkCc vs c (z_as_u32 rhs))
      else match c with GT => cc_insert (mkCc vs GE 0) | _ => fail end
  end.

(** formula_factory.rs 880-883, [cc]. *)
Definition f_cc (c : ctype) (rhs : N) (vs : list var) : M N :=
  if is_cc c (Z.of_N rhs) then construct_cc_unsafe c (Z.of_N rhs) vs else fail.
(** formula_factory.rs 912-945, [exo], [amo]. *)
Definition f_exo (vs : list var) : M N := f_cc EQ 1 vs.
Definition f_amo (vs : list var) : M N := f_cc LE 1 vs.

(** formula_factory.rs 968-982, [pbc]. *)
Definition pbc_insert (x : pbc) : M N :=
  updt (fun t => let '(e, c) := simple_goi pbc_eqb TPbc x (t_pbcs t) in (e, set_pbcs t c)).

Definition f_pbc (c : ctype) (rhs : Z) (ls : list lit) (cs : list Z) : M N :=
  if Nat.eqb (length ls) (length cs) then
    match ls with
    | [] => ret (constant (trivial_pb c rhs))
    | _ =>
        if is_lit_cc c rhs ls cs then construct_cc_unsafe c rhs (map lit_var ls)
        else pbc_insert (mkPbc ls cs c rhs)
    end
  else fail.

Definition pos_lits (vs : list var) : list lit := map (fun v => Lit v true) vs.

(** pbc_cc.rs 318-360, [CardinalityConstraint::negate]. *)
Definition cc_negate (c : cc) : M N :=
  let rhs := Z.of_N (cc_rhs c) in
  let ls := pos_lits (cc_vars c) in
  let ones := repeat 1%Z (length (cc_vars c)) in
  match cc_cmp c with
  | EQ => lt <-- f_pbc LT rhs ls ones ;; gt <-- f_pbc GT rhs ls ones ;; f_or [lt; gt]
  | GT => f_pbc LE rhs ls ones
  | GE => f_pbc LT rhs ls ones
  | LT => f_pbc GE rhs ls ones
  | LE => f_pbc GT rhs ls ones
  end.

(** pbc_cc.rs 482-494, [PbConstraint::negate]. *)
Definition pbc_negate (p : pbc) : M N :=
  match pb_cmp p with
  | EQ => lt <-- f_pbc LT (pb_rhs p) (pb_lits p) (pb_coeffs p) ;;
          gt <-- f_pbc GT (pb_rhs p) (pb_lits p) (pb_coeffs p) ;; f_or [lt; gt]
  | GT => f_pbc LE (pb_rhs p) (pb_lits p) (pb_coeffs p)
  | GE => f_pbc LT (pb_rhs p) (pb_lits p) (pb_coeffs p)
  | LT => f_pbc GE (pb_rhs p) (pb_lits p) (pb_coeffs p)
  | LE => f_pbc GT (pb_rhs p) (pb_lits p) (pb_coeffs p)
  end.

(* ------------------------------------------------------------------------------------------------------------------ *)
(** * Negation and binary operators *)

(** formula_factory.rs 816: the insertion branch of [not]. *)
Definition f_not_insert (h : N) : M N := updt (fun t => let '(e, c) := not_goi h (t_nots t) in (e, set_nots t c)).

(** formula_factory.rs 847-857, [negate].  Line 851 calls [not] on a formula of a type for which [not] takes its insertion
    branch (line 816), which is inlined here to avoid a mutual definition. *)
Definition f_negate (h : N) : M N :=
  n <-- lift (fun s => unpack s h) ;;
  match n with
  | NPbc p => pbc_negate p
  | NCc c => cc_negate c
  | NEquiv _ _ | NImpl _ _ | NOr _ | NAnd _ => f_not_insert h
  | NNot op => ret op
  | NLit l => ret (encode_lit (lit_negate l))
  | NTrue => ret falsum
  | NFalse => ret verum
  end.

(** formula_factory.rs 813-818, [not]. *)
Definition f_not (h : N) : M N :=
  ty <-- lift (fun _ => ftype h) ;;
  match ty with
  | TFalse | TTrue | TLit _ | TNot => f_negate h
  | _ => f_not_insert h
  end.

(** formula_factory.rs 730-744, [implication]. *)
Definition f_implication (l r : N) : M N :=
  if is_verum l then ret r
  else if is_falsum l || is_verum r then ret verum
  else if is_falsum r then f_not l
  else if l =? r then ret verum
  else
    nr <-- f_negate r ;;
    if l =? nr then ret r
    else updt (fun t => let '(e, c) := impl_goi l r (t_impls t) in (e, set_impls t c)).

(** formula_factory.rs 764-780, [equivalence]. *)
Definition f_equivalence (l r : N) : M N :=
  if is_verum l then ret r
  else if is_falsum l then f_not r
  else if is_verum r then ret l
  else if is_falsum r then f_not l
  else if l =? r then ret verum
  else
    nr <-- f_negate r ;;
    if l =? nr then ret falsum
    else updt (fun t => let '(e, c) := equiv_goi l r (t_equivs t) in (e, set_equivs t c)).

(* ------------------------------------------------------------------------------------------------------------------ *)
(** * Variables *)

(** formula_factory.rs 479-481, [variable]. *)
Definition f_variable (name : String.string) : M N :=
  updt (fun t => let '(e, c) := simple_goi String.eqb (TLit (LTPos VTFF)) name (t_vars t) in (e, set_vars t c)).

(** formula_factory.rs 448-450, [var]. *)
Definition f_var (name : String.string) : M var :=
  h <-- f_variable name ;;
  n <-- lift (fun s => unpack s h) ;;
  match n with NLit l => ret (lit_var l) | _ => fail end.

(** formula_factory.rs 552-593, [lit], [literal]. *)
Definition f_literal (name : String.string) (phase : bool) : M N := v <-- f_var name ;; ret (encode_lit (Lit v phase)).

(** formula_factory.rs 1290-1312, [new_auxiliary_variable] and the three counters ([fetch_add]). *)
Definition f_new_aux (a : aux_type) : M var := fun s =>
  match a with
  | AuxCNF => (Ok (VAux AuxCNF (f_cnf_ctr s)),
               mkFactory (f_config s) (f_tabs s) (f_cnf_ctr s + 1) (f_cc_ctr s) (f_pb_ctr s) (f_caches s))
  | AuxCC => (Ok (VAux AuxCC (f_cc_ctr s)),
              mkFactory (f_config s) (f_tabs s) (f_cnf_ctr s) (f_cc_ctr s + 1) (f_pb_ctr s) (f_caches s))
  | AuxPB => (Ok (VAux AuxPB (f_pb_ctr s)),
              mkFactory (f_config s) (f_tabs s) (f_cnf_ctr s) (f_cc_ctr s) (f_pb_ctr s + 1) (f_caches s))
  end.

(** formula_factory.rs 1223-1232, [number_of_cached_nodes]. *)
Definition c2_len {V} (c : cache2 V) : N := lenN (vt_vec (c_small c)) + lenN (vt_vec (c_large c)).
Definition number_of_cached_nodes (s : factory) : N :=
  let t := f_tabs s in
  lenN (vt_vec (t_vars t)) + c2_len (t_ands t) + c2_len (t_ors t) + c2_len (t_nots t) + c2_len (t_impls t)
  + c2_len (t_equivs t) + lenN (vt_vec (t_ccs t)) + lenN (vt_vec (t_pbcs t)).

(* ------------------------------------------------------------------------------------------------------------------ *)
(** * Assignments and evaluation *)

(** src/datastructures/assignment.rs 50-55, [Assignment]; the hash sets are lists. *)
Record assignment := mkAsg { a_pos : list var; a_neg : list var }.

Definition memv (v : var) (l : list var) : bool := existsb (var_eqb v) l.

(** assignment.rs 484-487, [evaluate_lit]. *)
Definition evaluate_lit (a : assignment) (l : lit) : bool :=
  if lit_phase l then memv (lit_var l) (a_pos a) else memv (lit_var l) (a_neg a) || negb (memv (lit_var l) (a_pos a)).

(** assignment.rs 518-528, [restrict_lit]. *)
Definition restrict_lit (a : assignment) (l : lit) : N :=
  if memv (lit_var l) (a_pos a) then constant (lit_phase l)
  else if memv (lit_var l) (a_neg a) then constant (negb (lit_phase l))
  else encode_lit l.

(** Two's complement wrap of an [i64] result (release build; a debug build panics instead). *)
Definition wrap64 (z : Z) : Z := ((z + 9223372036854775808) mod 18446744073709551616 - 9223372036854775808)%Z.

(** pbc_cc.rs 565-573, [evaluate_comparator]. *)
Definition evaluate_comparator (lhs : Z) (c : ctype) (rhs : Z) : bool :=
  match c with
  | EQ => Z.eqb lhs rhs
  | GT => Z.gtb lhs rhs
  | GE => Z.geb lhs rhs
  | LT => Z.ltb lhs rhs
  | LE => Z.leb lhs rhs
  end.

(** pbc_cc.rs 282-285, [CardinalityConstraint::evaluate]. *)
Definition cc_evaluate (a : assignment) (c : cc) : bool :=
  let lhs := length (filter (fun b : bool => b) (map (fun v => evaluate_lit a (Lit v true)) (cc_vars c))) in
  evaluate_comparator (Z.of_nat lhs) (cc_cmp c) (Z.of_N (cc_rhs c)).

(** pbc_cc.rs 552-561, [evaluate_lhs]: an [i64] accumulator. *)
Fixpoint pbc_lhs (a : assignment) (ls : list lit) (cs : list Z) (acc : Z) : Z :=
  match ls, cs with
  | l :: ls', c :: cs' => pbc_lhs a ls' cs' (if evaluate_lit a l then wrap64 (acc + c) else acc)
  | _, _ => acc
  end.

(** pbc_cc.rs 429-431, [PbConstraint::evaluate]. *)
Definition pbc_evaluate (a : assignment) (p : pbc) : bool :=
  evaluate_comparator (pbc_lhs a (pb_lits p) (pb_coeffs p) 0) (pb_cmp p) (pb_rhs p).

(** [Iterator::all] / [Iterator::any] with an effectful test, short-circuiting. *)
Fixpoint res_all {A} (f : A -> res bool) (l : list A) : res bool :=
  match l with
  | [] => Ok true
  | x :: r => do b <- f x; if b then res_all f r else Ok false
  end.
Fixpoint res_any {A} (f : A -> res bool) (l : list A) : res bool :=
  match l with
  | [] => Ok false
  | x :: r => do b <- f x; if b then Ok true else res_any f r
  end.

(** formula_factory.rs 1076-1089, [evaluate]; [fuel] bounds the recursion depth. *)
Fixpoint evaluate (fuel : nat) (s : factory) (h : N) (a : assignment) : res bool :=
  match fuel with
  | O => NoFuel
  | S fuel' =>
      do n <- unpack s h;
      match n with
      | NPbc p => Ok (pbc_evaluate a p)
      | NCc c => Ok (cc_evaluate a c)
      | NEquiv l r => do x <- evaluate fuel' s l a; do y <- evaluate fuel' s r a; Ok (Bool.eqb x y)
      | NImpl l r => do x <- evaluate fuel' s l a; if negb x then Ok true else evaluate fuel' s r a
      | NOr ops => res_any (fun o => evaluate fuel' s o a) ops
      | NAnd ops => res_all (fun o => evaluate fuel' s o a) ops
      | NNot o => do x <- evaluate fuel' s o a; Ok (negb x)
      | NLit l => Ok (evaluate_lit a l)
      | NTrue => Ok true
      | NFalse => Ok false
      end
  end.
