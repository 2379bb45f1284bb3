(** Model of the optimization function and of the encoders that write to the SAT solver.
    Sources: src/solver/functions/optimization_function.rs, src/datastructures/encoding_result.rs 118-180,
    src/cardinality_constraints/cc_incremental_data.rs 95-111, src/solver/minisat_solver.rs 101-137 and 281-284. *)
From Coq Require Import List Arith NArith Bool.
From Verif Require Import Base EncodingModel Syntax FactoryModel AssignmentModel CacheModel CcModel SatModel MiniModel.
Import ListNotations.
Local Open Scope nat_scope.

Section Opt.
  Variables (mc : mconfig) (orc : oracle) (ccfg : cc_config).
  Let cfg := mc_sat mc.

  (** encoding_result.rs 172-178, [add_clause]: unlike [MiniSat::add_clause] it keeps [result]. *)
  Definition m_push (fuel : nat) (c : list lit) (m : mini) : res mini :=
    do ' (ps, m1) <- generate_clause_vec mc c m;
    do ' (_, s) <- add_clause cfg fuel ps (mi_s m1);
    Ok (mkMini s (mi_names m1) (mi_res m1) (mi_states m1)).
  Fixpoint m_pushes (fuel : nat) (cs : list (list lit)) (m : mini) : res mini :=
    match cs with [] => Ok m | c :: r => do m1 <- m_push fuel c m; m_pushes fuel r m1 end.
  (** encoding_result.rs 164-170, [new_auxiliary_variable]: the phase is not negated here. *)
  Definition m_register (v : var) (m : mini) : res mini :=
    do ' (_, s) <- new_var (mc_phase mc) true (mi_s m);
    Ok (mkMini s (mi_names m ++ [v]) (mi_res m) (mi_states m)).
  Fixpoint m_registers (vs : list var) (m : mini) : res mini :=
    match vs with [] => Ok m | v :: r => do m1 <- m_register v m; m_registers r m1 end.
  (** The auxiliary variables created between two states of the counters. *)
  Definition aux_of (st st' : ctrs) (a : aux_type) : list var :=
    map (fun i => VAux a (ctr st a + N.of_nat i)%N) (seq 0 (N.to_nat (ctr st' a - ctr st a))).
  Definition aux_between (st st' : ctrs) : list var := aux_of st st' AuxCNF ++ aux_of st st' AuxCC ++ aux_of st st' AuxPB.
  (** An encoder that runs on an [EncodingResultSatSolver].  Simplification: the created variables are put on the solver
      before the clauses instead of in between; adding a clause does not depend on the variables created after it. *)
  Definition m_encode {A} (fuel : nat) (g : G A) (st : ctrs) (m : mini) : res (A * ctrs * mini) :=
    do ' (r, st1, cls) <- g st;
    do m1 <- m_registers (aux_between st st1) m;
    do m2 <- m_pushes fuel cls m1;
    Ok (r, st1, m2).
  (** minisat_solver.rs 281-284, [add_incremental_cc]. *)
  Definition m_add_incremental_cc (fuel : nat) (c : cc) (st : ctrs) (m : mini) := m_encode fuel (encode_cc_inc ccfg c) st m.
  (** minisat_solver.rs 101-106, [add] of the constraint [f.cc(GE, rhs, vs)]; without variables it is the constant [false]
      or [true] (formula_factory.rs 1318-1320). *)
  Definition m_add_ge (fuel : nat) (rhs : N) (vs : list var) (st : ctrs) (m : mini) : res (ctrs * mini) :=
    match vs with
    | [] => if (rhs =? 0)%N then Ok (st, mkMini (mi_s m) (mi_names m) None (mi_states m)) else do m1 <- m_add_clause mc fuel [] m; Ok (st, m1)
    | _ =>
      do ' (_, st1, m1) <- m_encode fuel (encode_cc ccfg (mkCc vs GE rhs)) st (mkMini (mi_s m) (mi_names m) None (mi_states m));
      do m2 <- m_add_variables mc vs m1;
      Ok (st1, m2)
    end.

  (** optimization_function.rs 55-69: the definitions of the selectors; [sm] is the [BTreeMap].  The formulas [f.or(..)] of two
      literals of different variables are clauses, which [add] puts on the solver with every [SolverCnfMethod]. *)
  Definition opt_clauses (maximize : bool) (sm : list (var * lit)) : list (list lit) :=
    if maximize then map (fun p => [Lit (fst p) false; snd p]) sm ++ map (fun p => [lit_negate (snd p); Lit (fst p) true]) sm
    else map (fun p => [Lit (fst p) false; lit_negate (snd p)]) sm ++ map (fun p => [snd p; Lit (fst p) true]) sm.
  Fixpoint m_add_clauses (fuel : nat) (cs : list (list lit)) (m : mini) : res mini :=
    match cs with [] => Ok m | c :: r => do m1 <- m_add_clause mc fuel c m; m_add_clauses fuel r m1 end.
  (** [u32::try_from(current_bound).expect(..) + 1]. *)
  Definition next_rhs (bound : nat) : res nat := if (N.of_nat bound + 1 <? 2 ^ 32)%N then Ok (S bound) else Panic.
  (** optimization_function.rs 74-76 and 91-93: the internal model and the bound. *)
  Definition current (sels : list var) (m : mini) : res (list bool * nat) :=
    do r <- m_model mc (Some sels) m;
    do md <- of_opt r;
    Ok (s_model (mi_s m), length (m_pos md)).
  (** optimization_function.rs 90-103. *)
  Fixpoint opt_loop (rounds fuel : nat) (sels : list var) (d : option inc_data) (internal : list bool) (st : ctrs) (m : mini) : res (list bool * ctrs * mini) :=
    match rounds with
    | O => NoFuel
    | S rn =>
      do ' (r, m1) <- m_sat mc orc fuel m;
      if r then
        do ' (im, bound) <- current sels m1;
        if bound =? length sels then Ok (im, st, m1)
        else
          do d0 <- of_opt d;
          do k <- next_rhs bound;
          do ' (d1, st1, m2) <- m_encode fuel (new_lower_bound d0 k) st m1;
          opt_loop rn fuel sels (Some d1) im st1 m2
      else Ok (internal, st, m1)
    end.
  (** optimization_function.rs 70-104 without the construction of the result; [None]: unsatisfiable. *)
  Definition opt_search (rounds fuel : nat) (sels : list var) (st : ctrs) (m : mini) : res (option (list bool) * ctrs * mini) :=
    do ' (r, m1) <- m_sat mc orc fuel m;
    if r then
      do ' (im, bound) <- current sels m1;
      let go im bound st m :=
        do k <- next_rhs bound;
        do ' (d, st1, m1) <- m_add_incremental_cc fuel (mkCc sels GE (N.of_nat k)) st m;
        do ' (im1, st2, m2) <- opt_loop rounds fuel sels d im st1 m1;
        Ok (Some im1, st2, m2) in
      if bound =? 0 then
        do ' (st1, m2) <- m_add_ge fuel 1 sels st m1;
        do ' (r2, m3) <- m_sat mc orc fuel m2;
        if r2 then do ' (im1, bound1) <- current sels m3; go im1 bound1 st1 m3
        else Ok (Some im, st1, m3)
      else if bound =? length sels then Ok (Some im, st, m1)
      else go im bound st m1
    else Ok (None, st, m1).
  (** optimization_function.rs 52-111, [compute] and [mk_result_model]; [extra]: the additional variables. *)
  Definition opt_compute (rounds fuel : nat) (maximize : bool) (sm : list (var * lit)) (extra : list var) (st : ctrs) (m : mini) : res (option smodel * ctrs * mini) :=
    do m1 <- m_add_clauses fuel (opt_clauses maximize sm) m;
    do ' (im, st1, m2) <- opt_search rounds fuel (map fst sm) st m1;
    match im with
    | None => Ok (None, st1, m2)
    | Some im => do md <- create_assignment mc (mi_names m2) im (Some (known_idx (mi_names m2) (add_vars (map (fun p => lit_var (snd p)) sm ++ extra) []))); Ok (Some md, st1, m2)
    end.
  (** optimization_function.rs 43-50. *)
  Definition optimize (rounds fuel : nat) (maximize : bool) (sm : list (var * lit)) (extra : list var) (st : ctrs) (m : mini) : res (option smodel * ctrs * mini) :=
    if g_incremental cfg then
      do ' (i, m1) <- m_save mc m;
      do ' (md, st1, m2) <- opt_compute rounds fuel maximize sm extra st m1;
      do m3 <- m_load mc orc fuel i m2;
      Ok (md, st1, m3)
    else opt_compute rounds fuel maximize sm extra st m.
End Opt.
