(** Model of the front end of the SAT solver, src/solver/minisat_solver.rs, of the model enumeration
    (src/solver/functions/model_enumeration.rs) and of the backbone computation (src/solver/sat/minisat2.rs 1177-1328,
    src/solver/functions/backbone_function.rs).

    Names.  [idx2name] and [name2idx] (minisat2.rs 86-87) are one list: position [i] holds the name of variable [i]; every
    [new_var] of the front end is followed by [add_variable] (minisat_solver.rs 370-371 and 420-421, encoding_result.rs
    167-169), and [load_state] removes both entries (minisat2.rs 1118-1120).  [name2idx] is a [BTreeMap], so that it is iterated
    in the order of the variables.

    The caches of the Plaisted-Greenbaum transformation on the solver and [reset] are in PgSolverModel.v.
    Not modelled: propositions, the flag [last_computation_with_assumptions] (only read by the unsat core). *)
From Coq Require Import List Arith ZArith NArith Bool.
From Verif Require Import Base Vec HeapModel EncodingModel Syntax FactoryModel AssignmentModel ConstraintModel CacheModel SatModel SatState.
Import ListNotations.
Local Open Scope nat_scope.

(** config.rs: [incremental] etc. are in [mc_sat]; [initial_phase], [auxiliary_variables_in_models], and the three flags
    [bb_initial_ubcheck_for_rotatable_literals], [bb_check_for_complement_model_literals], [bb_check_for_rotatable_literals]. *)
Record mconfig : Type := mkMc { mc_sat : sconfig; mc_phase : bool; mc_aux : bool; mc_ub : bool; mc_cm : bool; mc_rot : bool }.
(** minisat_solver.rs 24-34: the solver, the names, [result] ([None] is [Undef]), [valid_states] with the saved data. *)
Record mini : Type := mkMini { mi_s : solver; mi_names : list var; mi_res : option bool; mi_states : list snapshot }.
(** minisat_solver.rs 58-69. *)
Definition mini_new : mini := mkMini solver_new [] None [].

(** minisat2.rs 204-206. *)
Fixpoint idx_from (k : nat) (names : list var) (v : var) : option nat :=
  match names with [] => None | x :: r => if var_eqb x v then Some k else idx_from (S k) r v end.
Definition idx_of (names : list var) (v : var) : option nat := idx_from 0 names v.
(** minisat2.rs 209-211, with the [unwrap] of the callers. *)
Definition name_of (names : list var) (i : nat) : res var := of_opt (nth_error names i).
(** [iter().filter_map(|v| self.name2idx.get(v))]. *)
Definition known_idx (names : list var) (vs : list var) : list nat :=
  flat_map (fun v => match idx_of names v with Some i => [i] | None => [] end) vs.

Section Mini.
  Variables (mc : mconfig) (orc : oracle).
  Let cfg := mc_sat mc.

  (** minisat_solver.rs 367-375; the same as [add_literal], 418-425. *)
  Definition generate_literal (l : lit) (m : mini) : res (nat * mini) :=
    match idx_of (mi_names m) (lit_var l) with
    | Some i => Ok (mk_lit i (negb (lit_phase l)), m)
    | None =>
      do ' (i, s) <- new_var (negb (mc_phase mc)) true (mi_s m);
      Ok (mk_lit i (negb (lit_phase l)), mkMini s (mi_names m ++ [lit_var l]) (mi_res m) (mi_states m))
    end.
  (** minisat_solver.rs 363-365. *)
  Fixpoint generate_clause_vec (ls : list lit) (m : mini) : res (list nat * mini) :=
    match ls with
    | [] => Ok ([], m)
    | l :: r => do ' (x, m1) <- generate_literal l m; do ' (xs, m2) <- generate_clause_vec r m1; Ok (x :: xs, m2)
    end.
  (** minisat_solver.rs 357-361. *)
  Definition m_add_clause (fuel : nat) (c : list lit) (m : mini) : res mini :=
    do ' (ps, m1) <- generate_clause_vec c (mkMini (mi_s m) (mi_names m) None (mi_states m));
    do ' (_, s) <- add_clause cfg fuel ps (mi_s m1);
    Ok (mkMini s (mi_names m1) (mi_res m1) (mi_states m1)).
  (** minisat_solver.rs 342-346, for the variables of the formula. *)
  Definition m_add_variables (vs : list var) (m : mini) : res mini :=
    do ' (_, m1) <- generate_clause_vec (map (fun v => Lit v true) vs) m; Ok m1.

  (** minisat_solver.rs 166-170. *)
  Definition m_sat (fuel : nat) (m : mini) : res (bool * mini) :=
    do ' (r, s) <- solve cfg orc fuel (mi_s m); Ok (r, mkMini s (mi_names m) (Some r) (mi_states m)).
  (** minisat2.rs 1285-1290. *)
  Definition order_lits (names : list var) (ls : list lit) : list nat :=
    flat_map (fun l => match idx_of names (lit_var l) with Some i => [mk_lit i (negb (lit_phase l))] | None => [] end) ls.
  (** minisat_solver.rs 173-194; [single_assumption] is a list with one element. *)
  Definition m_sat_with (fuel : nat) (asm : option (list lit)) (order : option (list lit)) (m : mini) : res (bool * mini) :=
    let m0 := mkMini (match order with Some o => set_selo (order_lits (mi_names m) o) (mi_s m) | None => mi_s m end) (mi_names m) None (mi_states m) in
    do ' (r, m1) <- (match asm with
      | Some a =>
        do ' (ps, m1) <- generate_clause_vec a m0;
        do ' (r, s) <- solve_with_assumptions cfg orc fuel ps (mi_s m1);
        Ok (r, mkMini s (mi_names m1) (Some r) (mi_states m1))
      | None => do ' (r, s) <- solve cfg orc fuel (mi_s m0); Ok (r, mkMini s (mi_names m0) (Some r) (mi_states m0))
      end);
    Ok (r, match order with Some _ => mkMini (set_selo [] (mi_s m1)) (mi_names m1) (mi_res m1) (mi_states m1) | None => m1 end).

  (** minisat_solver.rs 411-416. *)
  Definition is_relevant (v : var) : bool := match v with VFF _ => true | VAux _ _ => mc_aux mc end.
  (** minisat_solver.rs 383-406: the indices with their values. *)
  Fixpoint assign_names (names : list var) (ivs : list (nat * bool)) (md : smodel) : res smodel :=
    match ivs with
    | [] => Ok md
    | (i, b) :: r =>
      do v <- name_of names i;
      assign_names names r
        (if is_relevant v then (if b then mkModel (m_pos md ++ [v]) (m_neg md) else mkModel (m_pos md) (m_neg md ++ [v])) else md)
    end.
  Fixpoint values_at (model : list bool) (idx : list nat) : res (list (nat * bool)) :=
    match idx with
    | [] => Ok []
    | i :: r => do b <- of_opt (nth_error model i); do bs <- values_at model r; Ok ((i, b) :: bs)
    end.
  (** minisat_solver.rs 378-409. *)
  Definition create_assignment (names : list var) (model : list bool) (rel : option (list nat)) : res smodel :=
    do ivs <- values_at model (match rel with None => seq 0 (length model) | Some idx => idx end);
    assign_names names ivs (mkModel [] []).
  (** minisat_solver.rs 216-233. *)
  Definition m_model (vs : option (list var)) (m : mini) : res (option smodel) :=
    match mi_res m with
    | None => Panic
    | Some false => Ok None
    | Some true =>
      do md <- create_assignment (mi_names m) (s_model (mi_s m)) (option_map (known_idx (mi_names m)) vs);
      Ok (Some md)
    end.

  (** minisat_solver.rs 236-241. *)
  Definition m_save (m : mini) : res (nat * mini) :=
    do sn <- save_state cfg (mi_s m); Ok (length (mi_states m), mkMini (mi_s m) (mi_names m) (mi_res m) (mi_states m ++ [sn])).
  (** minisat_solver.rs 244-258. *)
  Definition m_load (fuel : nat) (i : nat) (m : mini) : res mini :=
    match nth_error (mi_states m) i with
    | None => Panic
    | Some sn =>
      do s <- load_state cfg orc fuel sn (mi_s m);
      Ok (mkMini s (firstn (length (s_vars s)) (mi_names m)) None (firstn (S i) (mi_states m)))
    end.

  (** ** Model enumeration *)
  (** model_enumeration.rs 30-39. *)
  Record econfig : Type := mkEc { ec_vars : option (list var); ec_add : option (list var); ec_max : option nat }.
  (** model_enumeration.rs 212-225. *)
  Definition relevant_indices (ec : econfig) (names : list var) : option (list nat) :=
    match ec_vars ec with
    | Some vs => Some (known_idx names vs)
    | None => if mc_aux mc then None else Some (known_idx names (filter is_relevant (add_vars names [])))
    end.
  (** model_enumeration.rs 227-233. *)
  Definition unique_additional (ec : econfig) : list var :=
    let a := match ec_add ec with None => [] | Some vs => add_vars vs [] end in
    match ec_vars ec with None => a | Some vs => filter (fun v => negb (memv v vs)) a end.
  (** model_enumeration.rs 226-248. *)
  Definition relevant_all (ec : econfig) (names : list var) : option (list nat) :=
    match relevant_indices ec names with
    | None => None
    | Some idx => match unique_additional ec with [] => Some idx | a => Some (idx ++ known_idx names a) end
    end.
  (** model_enumeration.rs 268-282; a range check fails like in line 272. *)
  Definition generate_blocking_clause (model : list bool) (rel : option (list nat)) : res (list nat) :=
    do ivs <- values_at model (match rel with None => seq 0 (length model) | Some idx => idx end);
    Ok (map (fun ib => mk_lit (fst ib) (snd ib)) ivs).
  (** model.rs, [is_empty]. *)
  Definition md_empty (md : smodel) : bool := match m_pos md, m_neg md with [], [] => true | _, _ => false end.
  (** model_enumeration.rs 250-262; [k]: the number of models that may still be pushed. *)
  Fixpoint enum_loop (rounds fuel : nat) (rel all : option (list nat)) (k : option nat) (models : list smodel) (m : mini) : res (list smodel * mini) :=
    match rounds with
    | O => NoFuel
    | S rn =>
      match k with
      | Some O => Ok (models, m)
      | _ =>
        do ' (r, m1) <- m_sat fuel m;
        if r then
          let model := s_model (mi_s m1) in
          do md <- create_assignment (mi_names m1) model all;
          if md_empty md then Ok (models ++ [md], m1)
          else
            do bc <- generate_blocking_clause model rel;
            do ' (_, s) <- add_clause cfg fuel bc (mi_s m1);
            enum_loop rn fuel rel all (option_map pred k) (models ++ [md]) (mkMini s (mi_names m1) (mi_res m1) (mi_states m1))
        else Ok (models, m1)
      end
    end.
  (** model_enumeration.rs 209-265. *)
  Definition enumerate_models (rounds fuel : nat) (ec : econfig) (m : mini) : res (list smodel * mini) :=
    do ' (st, m1) <- m_save m;
    do ' (models, m2) <- enum_loop rounds fuel (relevant_indices ec (mi_names m1)) (relevant_all ec (mi_names m1)) (ec_max ec) [] m1;
    do m3 <- m_load fuel st m2;
    Ok (models, m3).
  (** model_enumeration.rs 302-314. *)
  Fixpoint count_loop (rounds fuel : nat) (max result : nat) (s : solver) : res (nat * solver) :=
    match rounds with
    | O => NoFuel
    | S rn =>
      if result <=? max then
        do ' (r, s1) <- solve cfg orc fuel s;
        if r then
          do ' (_, s2) <- add_clause cfg fuel (map (fun i => mk_lit i (nth i (s_model s1) false)) (seq 0 (length (s_model s1)))) s1;
          count_loop rn fuel max (S result) s2
        else Ok (result, s1)
      else Ok (result, s)
    end.
  Definition count_models (rounds fuel : nat) (max : nat) (s : solver) : res (nat * solver) := count_loop rounds fuel max 0 s.

  (** ** Backbones *)
  (** backbone_function.rs 9-28. *)
  Inductive btype := OnlyPositive | OnlyNegative | PositiveAndNegative.
  Definition matches_phase (t : btype) (phase : bool) : bool :=
    match t with OnlyPositive => phase | OnlyNegative => negb phase | PositiveAndNegative => true end.
  (** minisat2.rs 1317-1328. *)
  Record bbs : Type := mkBb { bb_cand : list nat; bb_assum : list nat; bb_map : list (option bool) }.
  Definition add_backbone_literal (l : nat) (b : bbs) : bbs :=
    mkBb (bb_cand b) (bb_assum b ++ [l]) (upd (bb_map b) (lvar l) (Some (negb (lsign l)))).
  (** minisat2.rs 1281-1283. *)
  Definition is_unit (st : solver) (l c : nat) : bool :=
    negb (existsb (fun x => negb (l =? x) && negb (Bool.eqb (nth (lvar x) (s_model st) false) (lsign x))) (c_data (cl_at st c))).
  (** minisat2.rs 1272-1279. *)
  Definition is_rotatable (st : solver) (l : nat) : bool :=
    match nth (lvar l) (s_reasons st) None with
    | Some _ => false
    | None => negb (existsb (fun w => is_unit st l (fst w)) (wlist st (lneg l)))
    end.
  Definition lvl0 (st : solver) (v : nat) : bool := match v_lvl (var_at st v) with Some O => true | _ => false end.
  (** minisat2.rs 1209-1221. *)
  Fixpoint create_initial (st : solver) (t : btype) (vs : list nat) (b : bbs) : bbs :=
    match vs with
    | [] => b
    | v :: r =>
      let ph := nth v (s_model st) false in
      let l := mk_lit v (negb ph) in
      create_initial st t r
        (if lvl0 st v then add_backbone_literal l b
         else if matches_phase t ph && (negb (mc_ub mc) || negb (is_rotatable st l)) then mkBb (bb_cand b ++ [l]) (bb_assum b) (bb_map b)
         else b)
    end.
  (** minisat2.rs 1223-1240. *)
  Definition refine_upper_bound (st : solver) (b : bbs) : bbs :=
    let units := filter (fun l => lvl0 st (lvar l)) (bb_cand b) in
    let cands := filter (fun l => negb (lvl0 st (lvar l)) &&
      negb ((mc_cm mc && Bool.eqb (nth (lvar l) (s_model st) false) (lsign l)) || (mc_rot mc && is_rotatable st l))) (bb_cand b) in
    let b1 := fold_left (fun b l => add_backbone_literal l b) units b in
    mkBb cands (bb_assum b1) (bb_map b1).
  (** minisat2.rs 1197-1206: the stack of candidates. *)
  Fixpoint backbone_loop (rounds fuel : nat) (b : bbs) (st : solver) : res (bbs * solver) :=
    match rounds with
    | O => NoFuel
    | S rn =>
      match rev (bb_cand b) with
      | [] => Ok (b, st)
      | l :: rest =>
        let b1 := mkBb (rev rest) (bb_assum b) (bb_map b) in
        do ' (sat, st1) <- solve_with_assumptions cfg orc fuel (bb_assum b ++ [lneg l]) st;
        backbone_loop rn fuel (if sat then refine_upper_bound st1 b1 else add_backbone_literal l b1) st1
      end
    end.
  (** minisat2.rs 1242-1270; src/backbones/mod.rs 20-32: [None]: unsatisfiable; otherwise three optional sets. *)
  Definition backbone : Type := option (option (list var) * option (list var) * option (list var)).
  Definition bset (on : bool) (vs : list var) : option (list var) := if on then Some (add_vars vs []) else None.
  Definition map_value (names : list var) (mp : list (option bool)) (v : var) : option bool :=
    match idx_of names v with Some i => nth i mp None | None => None end.
  Definition build_backbone (names : list var) (mp : list (option bool)) (vs : list var) (t : btype) : backbone :=
    Some (bset (match t with OnlyNegative => false | _ => true end) (filter (fun v => is_true (map_value names mp v)) vs),
          bset (match t with OnlyPositive => false | _ => true end) (filter (fun v => is_false (map_value names mp v)) vs),
          bset (match t with PositiveAndNegative => true | _ => false end) (filter (fun v => is_undef (map_value names mp v)) vs)).
  (** minisat2.rs 1177-1189. *)
  Definition s_compute_backbone (rounds fuel : nat) (names vs : list var) (t : btype) (st : solver) : res (backbone * solver) :=
    do ' (r, st1) <- solve cfg orc fuel st;
    if r then
      let st2 := set_bb true st1 in
      let b := create_initial st2 t (known_idx names vs) (mkBb [] [] (repeat None (length (s_vars st2)))) in
      do ' (b1, st3) <- backbone_loop rounds fuel b st2;
      Ok (build_backbone names (bb_map b1) vs t, set_bb false st3)
    else Ok (None, st1).
  (** backbone_function.rs 51-58. *)
  Definition compute_backbone (rounds fuel : nat) (vs : list var) (t : btype) (m : mini) : res (backbone * mini) :=
    if g_incremental cfg then
      do ' (st, m1) <- m_save m;
      do ' (b, s) <- s_compute_backbone rounds fuel (mi_names m1) vs t (mi_s m1);
      do m3 <- m_load fuel st (mkMini s (mi_names m1) (mi_res m1) (mi_states m1));
      Ok (b, m3)
    else
      do ' (b, s) <- s_compute_backbone rounds fuel (mi_names m) vs t (mi_s m);
      Ok (b, mkMini s (mi_names m) (mi_res m) (mi_states m)).
End Mini.
