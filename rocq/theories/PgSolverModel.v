(** Model of the Plaisted-Greenbaum transformation on the solver, src/operations/transformations/cnf/plaisted_greenbaum_on_solver.rs,
    and of [MiniSat::add] and [add_proposition], src/solver/minisat_solver.rs 86-163 and 342-375.

    Simplifications.  The transformation never reads the solver, so that it is a function from the formula to the list of clauses,
    which are put on the solver in the same order afterwards; likewise for the encoders of cardinality constraints (see OptModel.v).
    Propositions are only stored with the clauses, for unsat cores, and are left out. *)
From Coq Require Import NArith ZArith List Bool Arith.
From Verif Require Import Base EncodingModel Syntax FactoryModel OpsModel CcModel PbModel CacheModel TransModel SatModel AssignmentModel MiniModel OptModel.
Import ListNotations.
Local Open Scope N_scope.

(** plaisted_greenbaum_on_solver.rs 304-308, [VarCacheEntry]; the cache is a [HashMap] by formula handle. *)
Record pg_entry := mkPgEntry { pe_var : var; pe_pos : bool; pe_neg : bool }.
Definition pg_cache := list (N * pg_entry).
(** The cache and the clauses added so far. *)
Record pgs := mkPgs { ps_cache : pg_cache; ps_out : list (list lit) }.
(** plaisted_greenbaum_on_solver.rs 263-278, [add_clause]. *)
Definition pgs_emit (c : list lit) (st : pgs) : pgs := mkPgs (ps_cache st) (ps_out st ++ [c]).

(** plaisted_greenbaum_on_solver.rs 315-325, [set_polarity_cached]: the old flag, and the entry with the flag set. *)
Definition set_polarity_cached (polarity : bool) (e : pg_entry) : bool * pg_entry :=
  if polarity then (pe_pos e, mkPgEntry (pe_var e) true (pe_neg e)) else (pe_neg e, mkPgEntry (pe_var e) (pe_pos e) true).
(** plaisted_greenbaum_on_solver.rs 280-295, [get_pg_var]. *)
Definition get_pg_var (h : N) (polarity : bool) (st : pgs) : M (bool * lit * pgs) :=
  match assoc N.eqb h (ps_cache st) with
  | Some e =>
      let '(was, e') := set_polarity_cached polarity e in
      ret (was, Lit (pe_var e) true, mkPgs ((h, e') :: ps_cache st) (ps_out st))
  | None =>
      u <-- f_new_aux AuxCNF ;;
      let '(_, e') := set_polarity_cached polarity (mkPgEntry u false false) in
      ret (false, Lit u true, mkPgs ((h, e') :: ps_cache st) (ps_out st))
  end.
(** [if skip_pg { (false, None) } else { get_pg_var(..) }]. *)
Definition maybe_pg_var (skip : bool) (h : N) (polarity : bool) (st : pgs) : M (bool * option lit * pgs) :=
  if skip then ret (false, None, st)
  else p <-- get_pg_var h polarity st ;; ret (fst (fst p), Some (snd (fst p)), snd p).
(** [unwrap]. *)
Definition unwrapM {A} (o : option A) : M A := match o with Some a => ret a | None => fail end.

Definition pgs_rec := N -> bool -> bool -> pgs -> M (option (list lit) * pgs).

(** plaisted_greenbaum_on_solver.rs 104-153, [handle_equiv]. *)
Definition handle_equiv (k : pgs_rec) (h l r : N) (polarity top : bool) (st : pgs) : M (option (list lit) * pgs) :=
  p <-- maybe_pg_var top h polarity st ;;
  let '(was, pg, st0) := p in
  if was then g <-- unwrapM pg ;; ret (Some [if polarity then g else lit_negate g], st0)
  else
    q1 <-- k l true false st0 ;; left_pos <-- unwrapM (fst q1) ;;
    q2 <-- k l false false (snd q1) ;; left_neg <-- unwrapM (fst q2) ;;
    q3 <-- k r true false (snd q2) ;; right_pos <-- unwrapM (fst q3) ;;
    q4 <-- k r false false (snd q3) ;; right_neg <-- unwrapM (fst q4) ;;
    let st4 := snd q4 in
    if polarity then
      if top then ret (None, pgs_emit (left_pos ++ right_neg) (pgs_emit (left_neg ++ right_pos) st4))
      else
        g <-- unwrapM pg ;;
        ret (Some [g], pgs_emit (lit_negate g :: left_pos ++ right_neg) (pgs_emit (lit_negate g :: left_neg ++ right_pos) st4))
    else
      if top then ret (None, pgs_emit (left_neg ++ right_neg) (pgs_emit (left_pos ++ right_pos) st4))
      else
        g <-- unwrapM pg ;;
        ret (Some [lit_negate g], pgs_emit (g :: left_neg ++ right_neg) (pgs_emit (g :: left_pos ++ right_pos) st4)).

(** plaisted_greenbaum_on_solver.rs 183-188 and 219-223: a clause at the top level. *)
Definition emit_opt (o : option (list lit)) (st : pgs) : pgs := match o with Some c => pgs_emit c st | None => st end.

(** plaisted_greenbaum_on_solver.rs 156-195, [handle_impl]. *)
Definition handle_impl (k : pgs_rec) (h l r : N) (polarity top : bool) (st : pgs) : M (option (list lit) * pgs) :=
  p <-- maybe_pg_var (polarity || top) h polarity st ;;
  let '(was, pg, st0) := p in
  if was then g <-- unwrapM pg ;; ret (Some [if polarity then g else lit_negate g], st0)
  else if polarity then
    q1 <-- k l false false st0 ;; left <-- unwrapM (fst q1) ;;
    q2 <-- k r true false (snd q1) ;; right <-- unwrapM (fst q2) ;;
    ret (Some (left ++ right), snd q2)
  else
    q1 <-- k l true top st0 ;;
    q2 <-- k r false top (snd q1) ;;
    if top then ret (None, emit_opt (fst q2) (emit_opt (fst q1) (snd q2)))
    else
      g <-- unwrapM pg ;; left <-- unwrapM (fst q1) ;; right <-- unwrapM (fst q2) ;;
      ret (Some [lit_negate g], pgs_emit (g :: right) (pgs_emit (g :: left) (snd q2))).

(** plaisted_greenbaum_on_solver.rs 215-227 ([and], positive) and 246-257 ([or], negative): one clause per operand. *)
Definition each_operand (k : pgs_rec) (conj top : bool) (pg : option lit) (ops : list N) (st : pgs) : M pgs :=
  mfold (fun op st =>
    q <-- k op conj top st ;;
    if top then ret (emit_opt (fst q) (snd q))
    else
      g <-- unwrapM pg ;; lits <-- unwrapM (fst q) ;;
      ret (pgs_emit ((if conj then lit_negate g else g) :: lits) (snd q))) ops st.
(** plaisted_greenbaum_on_solver.rs 229-235 ([and], negative) and 240-245 ([or], positive): one clause. *)
Definition single_clause (k : pgs_rec) (polarity : bool) (ops : list N) (st : pgs) : M (list lit * pgs) :=
  mfold (fun op (a : list lit * pgs) =>
    q <-- k op polarity false (snd a) ;; lits <-- unwrapM (fst q) ;; ret (fst a ++ lits, snd q)) ops ([], st).
(** plaisted_greenbaum_on_solver.rs 198-261, [handle_nary]; [conj]: [formula.is_and()]. *)
Definition handle_nary (k : pgs_rec) (h : N) (conj : bool) (ops : list N) (polarity top : bool) (st : pgs) : M (option (list lit) * pgs) :=
  p <-- maybe_pg_var (top || conj && negb polarity || negb conj && polarity) h polarity st ;;
  let '(was, pg, st0) := p in
  if was then g <-- unwrapM pg ;; ret (Some [if polarity then g else lit_negate g], st0)
  else if Bool.eqb conj polarity then
    st1 <-- each_operand k conj top pg ops st0 ;;
    if top then ret (None, st1)
    else g <-- unwrapM pg ;; ret (Some [if conj then g else lit_negate g], st1)
  else
    a <-- single_clause k polarity ops st0 ;; ret (Some (fst a), snd a).

(** plaisted_greenbaum_on_solver.rs 81-101, [compute_transformation]; [fuel] bounds the recursion depth. *)
Fixpoint pgs_transform (fuel : nat) (h : N) (polarity top : bool) (st : pgs) : M (option (list lit) * pgs) :=
  match fuel with
  | O => nofuel
  | S fuel' =>
      n <-- unpackM h ;;
      match n with
      | NLit l => ret (Some [Lit (lit_var l) (if lit_phase l then polarity else negb polarity)], st)
      | NNot op => pgs_transform fuel' op (negb polarity) top st
      | NOr ops => handle_nary (pgs_transform fuel') h false ops polarity top st
      | NAnd ops => handle_nary (pgs_transform fuel') h true ops polarity top st
      | NImpl l r => handle_impl (pgs_transform fuel') h l r polarity top st
      | NEquiv l r => handle_equiv (pgs_transform fuel') h l r polarity top st
      | _ => fail
      end
  end.

(** plaisted_greenbaum_on_solver.rs 58-78, [add_cnf]. *)
Definition pgs_add_cnf (fuel : nat) (h : N) (st : pgs) : M pgs :=
  n <-- unpackM h ;;
  match n with
  | NTrue => ret st
  | NFalse | NLit _ | NOr _ => ls <-- literals fuel h ;; ret (pgs_emit ls st)
  | NAnd ops => mfold (fun op st => ls <-- literals fuel op ;; ret (pgs_emit ls st)) ops st
  | _ => fail
  end.
(** plaisted_greenbaum_on_solver.rs 41-56, [add_cnf_to_solver]. *)
Definition add_cnf_to_solver (perform_nnf : bool) (fuel : nat) (h : N) (st : pgs) : M pgs :=
  b <-- (if perform_nnf then ret true else contains_pbc fuel h) ;;
  m <-- (if b : bool then nnf fuel h else ret h) ;;
  c <-- lift (fun s => is_cnf s m) ;;
  if c : bool then pgs_add_cnf fuel m st
  else q <-- pgs_transform fuel m true true st ;; ret (emit_opt (fst q) (snd q)).

(** minisat_solver.rs 348-355 and 357-361, [add_clause_set], [add_clause]. *)
Definition clause_set (h : N) : M (list (list lit)) :=
  n <-- unpackM h ;;
  match n with
  | NTrue => ret []
  | NFalse | NLit _ | NOr _ => ls <-- lift (fun s => literals_for_clause_or_term s h) ;; ret [ls]
  | NAnd ops => mfold (fun op cs => ls <-- lift (fun s => literals_for_clause_or_term s op) ;; ret (cs ++ [ls])) ops []
  | _ => fail
  end.

(** config.rs, [SolverCnfMethod]; the algorithm of [FactoryCnf] comes from the configuration of the factory. *)
Inductive cnf_method := FactoryCnf (alg : cnf_algorithm) | PgOnSolver | FullPgOnSolver.
(** minisat_solver.rs 31-33: the two caches. *)
Record pg_caches := mkPgCaches { pc_pg : pg_cache; pc_full : pg_cache }.
Definition pg_caches_new : pg_caches := mkPgCaches [] [].

(** An encoder on an [EncodingResultSatSolver] (encoding_result.rs 163-180): new variables and clauses. *)
Definition encode_on (g : G unit) : M (list var * list (list lit)) := fun s =>
  match g (ctrs_of s) with
  | Ok (_, k, cls) => if ctrs_leb (ctrs_of s) k then (Ok (aux_between (ctrs_of s) k, cls), with_ctrs s k) else (Panic, s)
  | Panic => (Panic, s)
  | NoFuel => (NoFuel, s)
  end.
(** minisat_solver.rs 108-124 (and 138-161 for [add_proposition], which has the algorithm [CnfFactorization] in the first case). *)
Definition by_method (meth : cnf_method) (fuel : nat) (h : N) (pc : pg_caches) : M (list (list lit) * pg_caches) :=
  match meth with
  | FactoryCnf alg => p <-- cnf_transform alg fuel h (mkCnfEncoder None None) ;; cs <-- clause_set (fst p) ;; ret (cs, pc)
  | PgOnSolver =>
      st <-- add_cnf_to_solver true fuel h (mkPgs (pc_pg pc) []) ;; ret (ps_out st, mkPgCaches (ps_cache st) (pc_full pc))
  | FullPgOnSolver =>
      st <-- add_cnf_to_solver false fuel h (mkPgs (pc_full pc) []) ;; ret (ps_out st, mkPgCaches (pc_pg pc) (ps_cache st))
  end.
(** What [add] puts on the solver: variables, then clauses, then variables (minisat_solver.rs 103-127). *)
Record addition := mkAddition { ad_aux : list var; ad_clauses : list (list lit); ad_vars : list var }.
Definition add_formula (meth : cnf_method) (fuel : nat) (h : N) (pc : pg_caches) : M (addition * pg_caches) :=
  n <-- unpackM h ;;
  p <-- match n with
        | NCc c =>
            cfg <-- lift (fun s => Ok (cfg_cc (f_config s))) ;;
            q <-- encode_on (encode_cc cfg c) ;; ret (fst q, snd q, pc)
        | _ => q <-- by_method meth fuel h pc ;; ret ([], fst q, snd q)
        end ;;
  vs <-- variables fuel h ;;
  ret (mkAddition (fst (fst p)) (snd (fst p)) vs, snd p).
(** minisat_solver.rs 134-163, [add_proposition]: constraints are not treated apart, and the variables are not added. *)
Definition proposition_method (meth : cnf_method) : cnf_method := match meth with FactoryCnf _ => FactoryCnf CnfFactorization | _ => meth end.
Definition add_prop (meth : cnf_method) (fuel : nat) (h : N) (pc : pg_caches) : M (addition * pg_caches) :=
  q <-- by_method (proposition_method meth) fuel h pc ;; ret (mkAddition [] (fst q) [], snd q).

Section Add.
  Variables (mc : mconfig) (orc : oracle).

  Definition m_take (fuel : nat) (a : addition) (m : mini) : res mini :=
    do m1 <- m_registers mc (ad_aux a) (mkMini (mi_s m) (mi_names m) None (mi_states m));
    do m2 <- m_pushes mc fuel (ad_clauses a) m1;
    m_add_variables mc (ad_vars a) m2.

  (** minisat_solver.rs 24-34: the solver with its caches. *)
  Record fsolver := mkFs { fs_mini : mini; fs_pc : pg_caches }.
  Definition fs_new : fsolver := mkFs mini_new pg_caches_new.
  (** A call that reads and extends the factory. *)
  Definition fs_take (fuel : nat) (p : res (addition * pg_caches) * factory) (fs : fsolver) : res (factory * fsolver) :=
    do ' (a, pc) <- fst p;
    do m <- m_take fuel a (fs_mini fs);
    Ok (snd p, mkFs m pc).
  (** minisat_solver.rs 101-128, [add]. *)
  Definition fs_add (meth : cnf_method) (fuel : nat) (h : N) (s : factory) (fs : fsolver) : res (factory * fsolver) :=
    fs_take fuel (add_formula meth fuel h (fs_pc fs) s) fs.
  (** minisat_solver.rs 136-163, [add_proposition]. *)
  Definition fs_add_prop (meth : cnf_method) (fuel : nat) (h : N) (s : factory) (fs : fsolver) : res (factory * fsolver) :=
    fs_take fuel (add_prop meth fuel h (fs_pc fs) s) fs.
  (** minisat_solver.rs 173-194, [sat_with] ([sat], 166-170, is the case without assumptions and order). *)
  Definition fs_sat (fuel : nat) (asm order : option (list lit)) (fs : fsolver) : res (bool * fsolver) :=
    do ' (b, m) <- m_sat_with mc orc fuel asm order (fs_mini fs); Ok (b, mkFs m (fs_pc fs)).
  (** backbone_function.rs 47-56: in the incremental mode [load_state] (minisat_solver.rs 244-258) also empties the caches. *)
  Definition fs_backbone (rounds fuel : nat) (vs : list var) (t : btype) (fs : fsolver) : res (backbone * fsolver) :=
    do ' (b, m) <- compute_backbone mc orc rounds fuel vs t (fs_mini fs);
    Ok (b, mkFs m (if g_incremental (mc_sat mc) then pg_caches_new else fs_pc fs)).
  (** model_enumeration.rs 209-262: between [save_state] and [load_state]. *)
  Definition fs_enumerate (rounds fuel : nat) (ec : econfig) (fs : fsolver) : res (list smodel * fsolver) :=
    do ' (ms, m) <- enumerate_models mc orc rounds fuel ec (fs_mini fs); Ok (ms, mkFs m pg_caches_new).
  (** minisat_solver.rs 236-258: [save_state], [load_state]. *)
  Definition fs_save (fs : fsolver) : res (nat * fsolver) := do ' (i, m) <- m_save mc (fs_mini fs); Ok (i, mkFs m (fs_pc fs)).
  Definition fs_load (fuel i : nat) (fs : fsolver) : res fsolver := do m <- m_load mc orc fuel i (fs_mini fs); Ok (mkFs m pg_caches_new).
  (** minisat_solver.rs 201-207 and minisat2.rs 1069-1101, [reset]; [valid_states] is not emptied. *)
  Definition fs_reset (fs : fsolver) : fsolver := mkFs (mkMini solver_new [] None (mi_states (fs_mini fs))) pg_caches_new.
End Add.
