(** Model of the CDCL solver, src/solver/sat/minisat2.rs and minisat2_datastructures.rs.

    Representation.  A literal is the [usize] of [MsLit] (2 * variable + sign), a [Tristate] is an [option bool], an
    [Rc<RefCell<MsClause>>] is an index into the arena [s_arena] (cells are never freed), [trail] etc. are lists in the
    order of the Rust vectors.

    Heuristics.  Floating-point activities, clause activities, the restart sequence, the triggers of [simplify] and
    [reduce_db] and the sorting of the learnt clauses are answers of an [oracle] indexed by a counter; every theorem
    quantifies over all oracles, so it covers whatever the floating-point code computes.

    Not modelled: proof generation ([pg_proof], [pg_original_clauses]), [dnnf_assignment], the literal counters
    [clauses_literals] / [learnts_literals], the maps between names and indices.  Out-of-range accesses to [vars],
    [watches], [seen] and [var_reasons] use a default; SatProofs shows that all literals are in range. *)
From Coq Require Import List Arith ZArith NArith Bool.
From Verif Require Import Base Vec HeapModel.
Import ListNotations.
Open Scope res_scope.

(** minisat2.rs 1298-1315. *)
Definition mk_lit (v : nat) (s : bool) : nat := v + v + (if s then 1 else 0).
Definition lneg (l : nat) : nat := if Nat.even l then S l else pred l.
Definition lsign (l : nat) : bool := Nat.odd l.
Definition lvar (l : nat) : nat := Nat.div2 l.

(** collections/ms_variable.rs 5-10. *)
Record msvar : Type := mkVar { v_asg : option bool; v_lvl : option nat; v_pol : bool; v_dec : bool }.
Definition dvar : msvar := mkVar None None false false.
(** collections/ms_clause.rs 6-17; only [data] and [learnt] are used by this solver besides [activity]. *)
Record clause : Type := mkCl { c_data : list nat; c_learnt : bool }.
Definition dcl : clause := mkCl [] false.

(** minisat2.rs 51-108. [s_watches]: (clause, blocking literal). *)
Record solver : Type := mkS {
  s_ok : bool;
  s_qhead : nat;
  s_units : list nat;
  s_arena : list clause;
  s_clauses : list nat;
  s_learnts : list nat;
  s_watches : list (list (nat * nat));
  s_vars : list msvar;
  s_heap : lheap;
  s_acts : list Z;
  s_trail : list nat;
  s_lim : list nat;
  s_reasons : list (option nat);
  s_model : list bool;
  s_conflict : list nat;
  s_assum : list nat;
  s_seen : list bool;
  s_bt : nat;
  s_selo : list nat;
  s_seli : nat;
  s_bb : bool;
  s_tick : nat }.
Definition set_ok (x : bool) (st : solver) : solver :=
  mkS x (s_qhead st) (s_units st) (s_arena st) (s_clauses st) (s_learnts st) (s_watches st) (s_vars st) (s_heap st) (s_acts st) (s_trail st) (s_lim st) (s_reasons st) (s_model st) (s_conflict st) (s_assum st) (s_seen st) (s_bt st) (s_selo st) (s_seli st) (s_bb st) (s_tick st).
Definition set_qhead (x : nat) (st : solver) : solver :=
  mkS (s_ok st) x (s_units st) (s_arena st) (s_clauses st) (s_learnts st) (s_watches st) (s_vars st) (s_heap st) (s_acts st) (s_trail st) (s_lim st) (s_reasons st) (s_model st) (s_conflict st) (s_assum st) (s_seen st) (s_bt st) (s_selo st) (s_seli st) (s_bb st) (s_tick st).
Definition set_units (x : list nat) (st : solver) : solver :=
  mkS (s_ok st) (s_qhead st) x (s_arena st) (s_clauses st) (s_learnts st) (s_watches st) (s_vars st) (s_heap st) (s_acts st) (s_trail st) (s_lim st) (s_reasons st) (s_model st) (s_conflict st) (s_assum st) (s_seen st) (s_bt st) (s_selo st) (s_seli st) (s_bb st) (s_tick st).
Definition set_arena (x : list clause) (st : solver) : solver :=
  mkS (s_ok st) (s_qhead st) (s_units st) x (s_clauses st) (s_learnts st) (s_watches st) (s_vars st) (s_heap st) (s_acts st) (s_trail st) (s_lim st) (s_reasons st) (s_model st) (s_conflict st) (s_assum st) (s_seen st) (s_bt st) (s_selo st) (s_seli st) (s_bb st) (s_tick st).
Definition set_clauses (x : list nat) (st : solver) : solver :=
  mkS (s_ok st) (s_qhead st) (s_units st) (s_arena st) x (s_learnts st) (s_watches st) (s_vars st) (s_heap st) (s_acts st) (s_trail st) (s_lim st) (s_reasons st) (s_model st) (s_conflict st) (s_assum st) (s_seen st) (s_bt st) (s_selo st) (s_seli st) (s_bb st) (s_tick st).
Definition set_learnts (x : list nat) (st : solver) : solver :=
  mkS (s_ok st) (s_qhead st) (s_units st) (s_arena st) (s_clauses st) x (s_watches st) (s_vars st) (s_heap st) (s_acts st) (s_trail st) (s_lim st) (s_reasons st) (s_model st) (s_conflict st) (s_assum st) (s_seen st) (s_bt st) (s_selo st) (s_seli st) (s_bb st) (s_tick st).
Definition set_watches (x : list (list (nat * nat))) (st : solver) : solver :=
  mkS (s_ok st) (s_qhead st) (s_units st) (s_arena st) (s_clauses st) (s_learnts st) x (s_vars st) (s_heap st) (s_acts st) (s_trail st) (s_lim st) (s_reasons st) (s_model st) (s_conflict st) (s_assum st) (s_seen st) (s_bt st) (s_selo st) (s_seli st) (s_bb st) (s_tick st).
Definition set_vars (x : list msvar) (st : solver) : solver :=
  mkS (s_ok st) (s_qhead st) (s_units st) (s_arena st) (s_clauses st) (s_learnts st) (s_watches st) x (s_heap st) (s_acts st) (s_trail st) (s_lim st) (s_reasons st) (s_model st) (s_conflict st) (s_assum st) (s_seen st) (s_bt st) (s_selo st) (s_seli st) (s_bb st) (s_tick st).
Definition set_heap (x : lheap) (st : solver) : solver :=
  mkS (s_ok st) (s_qhead st) (s_units st) (s_arena st) (s_clauses st) (s_learnts st) (s_watches st) (s_vars st) x (s_acts st) (s_trail st) (s_lim st) (s_reasons st) (s_model st) (s_conflict st) (s_assum st) (s_seen st) (s_bt st) (s_selo st) (s_seli st) (s_bb st) (s_tick st).
Definition set_acts (x : list Z) (st : solver) : solver :=
  mkS (s_ok st) (s_qhead st) (s_units st) (s_arena st) (s_clauses st) (s_learnts st) (s_watches st) (s_vars st) (s_heap st) x (s_trail st) (s_lim st) (s_reasons st) (s_model st) (s_conflict st) (s_assum st) (s_seen st) (s_bt st) (s_selo st) (s_seli st) (s_bb st) (s_tick st).
Definition set_trail (x : list nat) (st : solver) : solver :=
  mkS (s_ok st) (s_qhead st) (s_units st) (s_arena st) (s_clauses st) (s_learnts st) (s_watches st) (s_vars st) (s_heap st) (s_acts st) x (s_lim st) (s_reasons st) (s_model st) (s_conflict st) (s_assum st) (s_seen st) (s_bt st) (s_selo st) (s_seli st) (s_bb st) (s_tick st).
Definition set_lim (x : list nat) (st : solver) : solver :=
  mkS (s_ok st) (s_qhead st) (s_units st) (s_arena st) (s_clauses st) (s_learnts st) (s_watches st) (s_vars st) (s_heap st) (s_acts st) (s_trail st) x (s_reasons st) (s_model st) (s_conflict st) (s_assum st) (s_seen st) (s_bt st) (s_selo st) (s_seli st) (s_bb st) (s_tick st).
Definition set_reasons (x : list (option nat)) (st : solver) : solver :=
  mkS (s_ok st) (s_qhead st) (s_units st) (s_arena st) (s_clauses st) (s_learnts st) (s_watches st) (s_vars st) (s_heap st) (s_acts st) (s_trail st) (s_lim st) x (s_model st) (s_conflict st) (s_assum st) (s_seen st) (s_bt st) (s_selo st) (s_seli st) (s_bb st) (s_tick st).
Definition set_model (x : list bool) (st : solver) : solver :=
  mkS (s_ok st) (s_qhead st) (s_units st) (s_arena st) (s_clauses st) (s_learnts st) (s_watches st) (s_vars st) (s_heap st) (s_acts st) (s_trail st) (s_lim st) (s_reasons st) x (s_conflict st) (s_assum st) (s_seen st) (s_bt st) (s_selo st) (s_seli st) (s_bb st) (s_tick st).
Definition set_conflict (x : list nat) (st : solver) : solver :=
  mkS (s_ok st) (s_qhead st) (s_units st) (s_arena st) (s_clauses st) (s_learnts st) (s_watches st) (s_vars st) (s_heap st) (s_acts st) (s_trail st) (s_lim st) (s_reasons st) (s_model st) x (s_assum st) (s_seen st) (s_bt st) (s_selo st) (s_seli st) (s_bb st) (s_tick st).
Definition set_assum (x : list nat) (st : solver) : solver :=
  mkS (s_ok st) (s_qhead st) (s_units st) (s_arena st) (s_clauses st) (s_learnts st) (s_watches st) (s_vars st) (s_heap st) (s_acts st) (s_trail st) (s_lim st) (s_reasons st) (s_model st) (s_conflict st) x (s_seen st) (s_bt st) (s_selo st) (s_seli st) (s_bb st) (s_tick st).
Definition set_seen (x : list bool) (st : solver) : solver :=
  mkS (s_ok st) (s_qhead st) (s_units st) (s_arena st) (s_clauses st) (s_learnts st) (s_watches st) (s_vars st) (s_heap st) (s_acts st) (s_trail st) (s_lim st) (s_reasons st) (s_model st) (s_conflict st) (s_assum st) x (s_bt st) (s_selo st) (s_seli st) (s_bb st) (s_tick st).
Definition set_bt (x : nat) (st : solver) : solver :=
  mkS (s_ok st) (s_qhead st) (s_units st) (s_arena st) (s_clauses st) (s_learnts st) (s_watches st) (s_vars st) (s_heap st) (s_acts st) (s_trail st) (s_lim st) (s_reasons st) (s_model st) (s_conflict st) (s_assum st) (s_seen st) x (s_selo st) (s_seli st) (s_bb st) (s_tick st).
Definition set_selo (x : list nat) (st : solver) : solver :=
  mkS (s_ok st) (s_qhead st) (s_units st) (s_arena st) (s_clauses st) (s_learnts st) (s_watches st) (s_vars st) (s_heap st) (s_acts st) (s_trail st) (s_lim st) (s_reasons st) (s_model st) (s_conflict st) (s_assum st) (s_seen st) (s_bt st) x (s_seli st) (s_bb st) (s_tick st).
Definition set_seli (x : nat) (st : solver) : solver :=
  mkS (s_ok st) (s_qhead st) (s_units st) (s_arena st) (s_clauses st) (s_learnts st) (s_watches st) (s_vars st) (s_heap st) (s_acts st) (s_trail st) (s_lim st) (s_reasons st) (s_model st) (s_conflict st) (s_assum st) (s_seen st) (s_bt st) (s_selo st) x (s_bb st) (s_tick st).
Definition set_bb (x : bool) (st : solver) : solver :=
  mkS (s_ok st) (s_qhead st) (s_units st) (s_arena st) (s_clauses st) (s_learnts st) (s_watches st) (s_vars st) (s_heap st) (s_acts st) (s_trail st) (s_lim st) (s_reasons st) (s_model st) (s_conflict st) (s_assum st) (s_seen st) (s_bt st) (s_selo st) (s_seli st) x (s_tick st).
Definition set_tick (x : nat) (st : solver) : solver :=
  mkS (s_ok st) (s_qhead st) (s_units st) (s_arena st) (s_clauses st) (s_learnts st) (s_watches st) (s_vars st) (s_heap st) (s_acts st) (s_trail st) (s_lim st) (s_reasons st) (s_model st) (s_conflict st) (s_assum st) (s_seen st) (s_bt st) (s_selo st) (s_seli st) (s_bb st) x.
Ltac ssimp := cbn [s_ok set_ok s_qhead set_qhead s_units set_units s_arena set_arena s_clauses set_clauses s_learnts set_learnts s_watches set_watches s_vars set_vars s_heap set_heap s_acts set_acts s_trail set_trail s_lim set_lim s_reasons set_reasons s_model set_model s_conflict set_conflict s_assum set_assum s_seen set_seen s_bt set_bt s_selo set_selo s_seli set_seli s_bb set_bb s_tick set_tick].
Tactic Notation "ssimp" "in" hyp(H) := cbn [s_ok set_ok s_qhead set_qhead s_units set_units s_arena set_arena s_clauses set_clauses s_learnts set_learnts s_watches set_watches s_vars set_vars s_heap set_heap s_acts set_acts s_trail set_trail s_lim set_lim s_reasons set_reasons s_model set_model s_conflict set_conflict s_assum set_assum s_seen set_seen s_bt set_bt s_selo set_selo s_seli set_seli s_bb set_bb s_tick set_tick] in H.
Tactic Notation "ssimp" "in" "*" := cbn [s_ok set_ok s_qhead set_qhead s_units set_units s_arena set_arena s_clauses set_clauses s_learnts set_learnts s_watches set_watches s_vars set_vars s_heap set_heap s_acts set_acts s_trail set_trail s_lim set_lim s_reasons set_reasons s_model set_model s_conflict set_conflict s_assum set_assum s_seen set_seen s_bt set_bt s_selo set_selo s_seli set_seli s_bb set_bb s_tick set_tick] in *.

(** minisat2_datastructures.rs 79-86. *)
Inductive cmin := MinNone | MinBasic | MinDeep.
(** minisat_config.rs: the fields that are read by the modelled functions. *)
Record sconfig : Type := mkCfg { g_min : cmin; g_incremental : bool; g_remove_satisfied : bool; g_proof : bool }.

(** The answers of the heuristics: [o_act t v] activity of [v] after the bump at time [t]; [o_restart t] number of conflicts
    until the next restart; [o_skip t] simplification is skipped; [o_reduce t] the learnt clauses are reduced; [o_sort t]
    the sorted learnt clauses; [o_drop t i] the clause at [i] is in the less active half or below the limit; [o_eq t c d]
    the learnt clauses [c] and [d] have the same activity. *)
Record oracle : Type := mkO {
  o_act : nat -> nat -> Z; o_restart : nat -> nat; o_skip : nat -> bool; o_reduce : nat -> bool;
  o_sort : nat -> list nat -> list nat; o_drop : nat -> nat -> bool; o_eq : nat -> nat -> nat -> bool }.

Definition tickup (st : solver) : solver := set_tick (S (s_tick st)) st.

(** minisat2.rs 124-164. *)
Definition solver_new : solver :=
  mkS true 0 [] [] [] [] [] [] heap_new [] [] [] [] [] [] [] [] 0 [] 0 false 0.

(** minisat2.rs 182-201. *)
Definition var_at (st : solver) (v : nat) : msvar := nth v (s_vars st) dvar.
Definition asg_of (vs : list msvar) (l : nat) : option bool :=
  let a := v_asg (nth (lvar l) vs dvar) in if lsign l then option_map negb a else a.
Definition value (st : solver) (l : nat) : option bool := asg_of (s_vars st) l.
Definition reason (st : solver) (l : nat) : option nat := nth (lvar l) (s_reasons st) None.
Definition set_reason (l : nat) (r : option nat) (st : solver) : solver := set_reasons (upd (s_reasons st) (lvar l) r) st.
Definition level_of (st : solver) (l : nat) : option nat := v_lvl (var_at st (lvar l)).
(** ms_variable.rs 17-19. *)
Definition lgz (st : solver) (l : nat) : bool := match level_of st l with Some (S _) => true | _ => false end.
Definition cl_at (st : solver) (c : nat) : clause := nth c (s_arena st) dcl.
Definition wlist (st : solver) (p : nat) : list (nat * nat) := nth p (s_watches st) [].
Definition set_wlist (p : nat) (ws : list (nat * nat)) (st : solver) : solver := set_watches (upd (s_watches st) p ws) st.
Definition set_data (c : nat) (d : list nat) (st : solver) : solver :=
  set_arena (upd (s_arena st) c (mkCl d (c_learnt (cl_at st c)))) st.
Definition is_true (o : option bool) : bool := match o with Some b => b | None => false end.
Definition is_false (o : option bool) : bool := match o with Some b => negb b | None => false end.
Definition is_undef (o : option bool) : bool := match o with Some _ => false | None => true end.
Definition is_none {A} (o : option A) : bool := match o with Some _ => false | None => true end.

(** minisat2.rs 219-223. *)
Definition insert_var_order (x : nat) (st : solver) : res solver :=
  if negb (in_heap (s_heap st) x) && v_dec (var_at st x)
  then do h <- heap_insert (s_acts st) (s_heap st) x; Ok (set_heap h st)
  else Ok st.

(** minisat2.rs 226-237. *)
Definition new_var (sign dv : bool) (st : solver) : res (nat * solver) :=
  let v := length (s_vars st) in
  do st' <- insert_var_order v
    (set_reasons (s_reasons st ++ [None]) (set_acts (s_acts st ++ [0%Z]) (set_seen (s_seen st ++ [false])
      (set_watches (s_watches st ++ [[]; []]) (set_vars (s_vars st ++ [mkVar None None sign dv]) st)))));
  Ok (v, st').

(** minisat2.rs 336-338. *)
Definition dlevel (st : solver) : nat := length (s_lim st).

(** minisat2.rs 309-321; the debug assertion is kept. *)
Definition unchecked_enqueue (l : nat) (r : option nat) (st : solver) : res solver :=
  if is_undef (value st l) then
    let x := var_at st (lvar l) in
    let st1 := set_vars (upd (s_vars st) (lvar l) (mkVar (Some (negb (lsign l))) (Some (dlevel st)) (v_pol x) (v_dec x))) st in
    let st2 := set_reason l r st1 in
    Ok (set_trail (s_trail st ++ [l]) st2)
  else Panic.

(** minisat2.rs 323-334. *)
Definition watch_push (p : nat) (w : nat * nat) (st : solver) : solver := set_wlist p (wlist st p ++ [w]) st.
Definition attach_clause (c : nat) (st : solver) : res solver :=
  match c_data (cl_at st c) with
  | l0 :: l1 :: _ => Ok (watch_push (lneg l1) (c, l0) (watch_push (lneg l0) (c, l1) st))
  | _ => Panic
  end.

(** minisat2.rs 384-394: position (from index 2) of the first literal which is not false. *)
Fixpoint find_watch (st : solver) (rest : list nat) : option nat :=
  match rest with
  | [] => None
  | q :: r => if is_false (value st q) then option_map S (find_watch st r) else Some 0
  end.

(** minisat2.rs 350-417: the watchers of [p] from index [i]. The Rust code compacts the vector in place with two indices;
    here a watcher that moves away is removed at once. *)
Fixpoint prop_watches (fuel : nat) (p i : nat) (st : solver) : res (option nat * solver) :=
  match fuel with
  | O => NoFuel
  | S fu =>
    match nth_error (wlist st p) i with
    | None => Ok (None, st)
    | Some (c, b) =>
      if is_true (value st b) then prop_watches fu p (S i) st
      else match c_data (cl_at st c) with
      | l0 :: l1 :: rest =>
        let false_lit := lneg p in
        let sw := l0 =? false_lit in
        let first := if sw then l1 else l0 in
        let second := if sw then false_lit else l1 in
        let st1 := set_data c (first :: second :: rest) st in
        if negb (second =? false_lit) then Panic
        else if negb (first =? b) && is_true (value st1 first)
        then prop_watches fu p (S i) (set_wlist p (upd (wlist st1 p) i (c, first)) st1)
        else match find_watch st1 rest with
        | Some k =>
          let lk := nth k rest 0 in
          let st2 := set_data c (first :: lk :: upd rest k false_lit) st1 in
          let st3 := set_wlist p (firstn i (wlist st2 p) ++ skipn (S i) (wlist st2 p)) st2 in
          prop_watches fu p i (watch_push (lneg lk) (c, first) st3)
        | None =>
          let st2 := set_wlist p (upd (wlist st1 p) i (c, first)) st1 in
          if is_false (value st2 first) then Ok (Some c, set_qhead (length (s_trail st2)) st2)
          else do st3 <- unchecked_enqueue first (Some c) st2; prop_watches fu p (S i) st3
        end
      | _ => Panic
      end
    end
  end.
(** minisat2.rs 340-422. *)
Fixpoint propagate_loop (fuel fw : nat) (st : solver) : res (option nat * solver) :=
  match fuel with
  | O => NoFuel
  | S fu =>
    match nth_error (s_trail st) (s_qhead st) with
    | None => Ok (None, st)
    | Some p =>
      do ' (confl, st1) <- prop_watches fw p 0 (set_qhead (S (s_qhead st)) st);
      match confl with Some c => Ok (Some c, st1) | None => propagate_loop fu fw st1 end
    end
  end.
Definition propagate (fuel : nat) (st : solver) : res (option nat * solver) := propagate_loop fuel fuel st.

(** minisat2.rs 549-567: the trail positions [pos .. pos + length ls) are undone from the back. *)
Fixpoint undo_lits (ls : list nat) (st : solver) : res solver :=
  match ls with
  | [] => Ok st
  | l :: r =>
    do st1 <- undo_lits r st;
    let x := var_at st1 (lvar l) in
    insert_var_order (lvar l)
      (set_vars (upd (s_vars st1) (lvar l) (mkVar None (v_lvl x) (negb (s_bb st1) && lsign l) (v_dec x))) st1)
  end.
Definition cancel_until (level : nat) (st : solver) : res solver :=
  match nth_error (s_lim st) level with
  | None => Ok st
  | Some t =>
    do st1 <- undo_lits (skipn t (s_trail st)) st;
    Ok (set_lim (firstn level (s_lim st1)) (set_trail (firstn t (s_trail st1)) (set_qhead t st1)))
  end.

Section Solver.
  Variables (cfg : sconfig) (orc : oracle).

  (** minisat2.rs 633-645: the new activities are arbitrary. *)
  Definition var_bump_activity (v : nat) (st : solver) : res solver :=
    let acts := map (o_act orc (s_tick st)) (seq 0 (length (s_acts st))) in
    let st1 := set_acts acts (tickup st) in
    if in_heap (s_heap st1) v
    then do h <- heap_decrease acts (s_heap st1) v; Ok (set_heap h st1)
    else Ok st1.

  (** minisat2.rs 596-609. *)
  Fixpoint analyze_lits (qs out : list nat) (path_c : nat) (st : solver) : res (list nat * nat * solver) :=
    match qs with
    | [] => Ok (out, path_c, st)
    | q :: r =>
      if negb (nth (lvar q) (s_seen st) false) && lgz st q then
        do st1 <- var_bump_activity (lvar q) st;
        let st2 := set_seen (upd (s_seen st1) (lvar q) true) st1 in
        match level_of st2 q with
        | Some n => if dlevel st2 <=? n then analyze_lits r out (S path_c) st2 else analyze_lits r (out ++ [q]) path_c st2
        | None => analyze_lits r (out ++ [q]) path_c st2
        end
      else analyze_lits r out path_c st
    end.
  (** minisat2.rs 611-613. *)
  Fixpoint find_seen (st : solver) (index : nat) : res nat :=
    if nth (lvar (nth index (s_trail st) 0)) (s_seen st) false then Ok index
    else match index with O => Panic | S i => find_seen st i end.
  (** minisat2.rs 579-620; returns [p] and the literals of [out_learnt] after the first. *)
  Fixpoint analyze_loop (fuel : nat) (c : option nat) (first_run : bool) (index path_c : nat) (out : list nat) (st : solver)
    : res (nat * list nat * solver) :=
    match fuel with
    | O => NoFuel
    | S fu =>
      match c with
      | None => Panic
      | Some c =>
        let d := c_data (cl_at st c) in
        do ' (out1, pc1, st1) <- analyze_lits (if first_run then d else tl d) out path_c st;
        do i <- find_seen st1 index;
        let p := nth i (s_trail st1) 0 in
        let cr := reason st1 p in
        match pc1 with
        | O => Panic
        | S pc2 =>
          if negb (pc1 =? 1) && is_none cr then Panic
          else
            let st2 := set_seen (upd (s_seen st1) (lvar p) false) st1 in
            match pc2 with
            | O => Ok (p, out1, st2)
            | S _ => analyze_loop fu cr false i pc2 out1 st2
            end
        end
      end
    end.

  (** minisat2.rs 1024-1026. *)
  Definition abstract_level (st : solver) (l : nat) : res N :=
    do n <- of_opt (level_of st l); Ok (N.shiftl 1 (N.of_nat (n mod 32))).

  Fixpoint clear_seen (ls : list nat) (seen : list bool) : list bool :=
    match ls with [] => seen | l :: r => clear_seen r (upd seen (lvar l) false) end.
  (** minisat2.rs 780-796: the literals of one reason; [clr] holds the literals pushed to [analyze_to_clear] by this call
      of [lit_redundant]; the flag tells that no literal stopped the search. *)
  Fixpoint red_lits (st : solver) (al : N) (qs stack clr : list nat) (seen : list bool)
    : res (bool * list nat * list nat * list bool) :=
    match qs with
    | [] => Ok (true, stack, clr, seen)
    | q :: r =>
      if negb (nth (lvar q) seen false) && lgz st q then
        if is_none (reason st q) then Ok (false, stack, clr, seen)
        else do a <- abstract_level st q;
          if (N.land a al =? 0)%N then Ok (false, stack, clr, seen)
          else red_lits st al r (q :: stack) (clr ++ [q]) (upd seen (lvar q) true)
      else red_lits st al r stack clr seen
    end.
  (** minisat2.rs 772-799: on failure [seen] is reset for the literals pushed by this call, which are dropped. *)
  Fixpoint red_loop (fuel : nat) (st : solver) (al : N) (stack clr : list nat) (seen : list bool)
    : res (bool * list nat * list bool) :=
    match fuel with
    | O => NoFuel
    | S fu =>
      match stack with
      | [] => Ok (true, clr, seen)
      | last :: stk =>
        match reason st last with
        | None => Panic
        | Some c =>
          do ' (good, stk1, clr1, seen1) <- red_lits st al (tl (c_data (cl_at st c))) stk clr seen;
          if good then red_loop fu st al stk1 clr1 seen1 else Ok (false, [], clear_seen clr1 seen1)
        end
      end
    end.
  Definition lit_redundant (fuel : nat) (st : solver) (p : nat) (al : N) (seen : list bool) : res (bool * list nat * list bool) :=
    red_loop fuel st al [p] [] seen.

  (** minisat2.rs 715-728. *)
  Fixpoint abstract_levels (st : solver) (out : list nat) : res N :=
    match out with
    | [] => Ok 0%N
    | l :: r => do a <- abstract_level st l; do b <- abstract_levels st r; Ok (N.lor a b)
    end.
  Fixpoint min_deep (fuel : nat) (st : solver) (al : N) (ls kept clr : list nat) (seen : list bool)
    : res (list nat * list nat * list bool) :=
    match ls with
    | [] => Ok (kept, clr, seen)
    | l :: r =>
      if is_none (reason st l) then min_deep fuel st al r (kept ++ [l]) clr seen
      else do ' (red, clr1, seen1) <- lit_redundant fuel st l al seen;
        min_deep fuel st al r (if red then kept else kept ++ [l]) (clr ++ clr1) seen1
    end.
  (** minisat2.rs 729-749. *)
  Definition basic_keep (st : solver) (l : nat) : bool :=
    match reason st l with
    | None => true
    | Some c => existsb (fun k => negb (nth (lvar k) (s_seen st) false) && lgz st k) (tl (c_data (cl_at st c)))
    end.
  (** minisat2.rs 757-762: position of the first literal of highest level; [Option] levels are compared, [None] first. *)
  Definition lvl_lt (a b : option nat) : bool :=
    match a, b with
    | None, Some _ => true
    | Some x, Some y => x <? y
    | _, None => false
    end.
  Fixpoint max_level (st : solver) (out : list nat) (k max : nat) (ls : list nat) : nat :=
    match ls with
    | [] => max
    | l :: r => max_level st out (S k) (if lvl_lt (level_of st (nth max out 0)) (level_of st l) then k else max) r
    end.
  Definition swap (ls : list nat) (i j : nat) : list nat := upd (upd ls i (nth j ls 0)) j (nth i ls 0).
  (** minisat2.rs 711-770; [out] are the literals after the first. With [ClauseMinimization::None] the vector is
      truncated to its first literal (line 751). *)
  Definition simplify_clause (fuel : nat) (p : nat) (out : list nat) (st : solver) : res (list nat * solver) :=
    do ' (kept, clr, seen) <-
      match g_min cfg with
      | MinDeep => do al <- abstract_levels st out; min_deep fuel st al out [] (p :: out) (s_seen st)
      | MinBasic => Ok (filter (basic_keep st) out, p :: out, s_seen st)
      | MinNone => Ok ([], p :: out, s_seen st)
      end;
    let st1 := set_seen (clear_seen clr seen) st in
    match kept with
    | [] => Ok ([p], set_bt 0 st1)
    | _ :: r =>
      let m := max_level st kept 1 0 r in
      do b <- of_opt (level_of st (nth m kept 0));
      Ok (p :: swap kept m 0, set_bt b st1)
    end.
  (** minisat2.rs 569-624. *)
  Definition analyze (fuel : nat) (c : nat) (st : solver) : res (list nat * solver) :=
    do ' (p, out, st1) <- analyze_loop fuel (Some c) true (length (s_trail st) - 1) 0 [] st;
    simplify_clause fuel (lneg p) out st1.

  (** minisat2.rs 678-682. *)
  Fixpoint mark_lits (st : solver) (js : list nat) (seen : list bool) : list bool :=
    match js with [] => seen | j :: r => mark_lits st r (if lgz st j then upd seen (lvar j) true else seen) end.
  (** minisat2.rs 668-686: the trail from the end. *)
  Fixpoint final_loop (st : solver) (xs : list nat) (conf : list nat) (seen : list bool) : res (list nat * list bool) :=
    match xs with
    | [] => Ok (conf, seen)
    | x :: r =>
      if nth (lvar x) seen false then
        match reason st x with
        | None => if lgz st x then final_loop st r (conf ++ [lneg x]) (upd seen (lvar x) false) else Panic
        | Some c => final_loop st r conf (upd (mark_lits st (tl (c_data (cl_at st c))) seen) (lvar x) false)
        end
      else final_loop st r conf seen
    end.
  (** minisat2.rs 660-688. *)
  Definition analyze_final (p : nat) (st : solver) : res solver :=
    match s_lim st with
    | [] => Ok (set_conflict [p] st)
    | t :: _ =>
      do ' (conf, seen) <- final_loop st (rev (skipn t (s_trail st))) [p] (upd (s_seen st) (lvar p) true);
      Ok (set_seen (upd seen (lvar p) false) (set_conflict conf st))
    end.

  (** minisat2.rs 692-698. *)
  Fixpoint pick_order (st : solver) (ls : list nat) (k : nat) : option nat * nat :=
    match ls with
    | [] => (None, k)
    | l :: r => if is_undef (v_asg (var_at st (lvar l))) then (Some l, S k) else pick_order st r (S k)
    end.
  (** minisat2.rs 700-708. *)
  Fixpoint pick_heap (fuel : nat) (st : solver) : res (option nat * solver) :=
    match fuel with
    | O => NoFuel
    | S fu =>
      if heap_empty (s_heap st) then Ok (None, st)
      else do ' (x, h) <- heap_remove_min (s_acts st) (s_heap st);
        let st1 := set_heap h st in
        if is_undef (v_asg (var_at st1 x)) && v_dec (var_at st1 x) then Ok (Some (mk_lit x (v_pol (var_at st1 x))), st1)
        else pick_heap fu st1
    end.
  Definition pick_branch_lit (fuel : nat) (st : solver) : res (option nat * solver) :=
    let '(o, k) := pick_order st (skipn (s_seli st) (s_selo st)) (s_seli st) in
    match o with
    | Some l => Ok (Some l, set_seli k st)
    | None => pick_heap fuel (if s_seli st <? length (s_selo st) then set_seli k st else st)
    end.

  (** [==] on [Rc<RefCell<MsClause>>]: structural equality of the cells, including the activity, which is only changed for
      learnt clauses in the non-incremental mode. *)
  Fixpoint nats_eqb (a b : list nat) : bool :=
    match a, b with [], [] => true | x :: r, y :: s => (x =? y) && nats_eqb r s | _, _ => false end.
  Definition clause_eq (st : solver) (c d : nat) : bool :=
    (c =? d) ||
    (nats_eqb (c_data (cl_at st c)) (c_data (cl_at st d)) && Bool.eqb (c_learnt (cl_at st c)) (c_learnt (cl_at st d)) &&
     (negb (c_learnt (cl_at st c)) || g_incremental cfg || o_eq orc (s_tick st) c d)).
  (** minisat2.rs 1019-1022. *)
  Definition locked (st : solver) (c : nat) : res bool :=
    match c_data (cl_at st c) with
    | [] => Panic
    | c0 :: _ => Ok (is_true (value st c0) && match reason st c0 with Some d => clause_eq st d c | None => false end)
    end.
  (** collections/vector_functions.rs 11-19 with [watch_equality]. *)
  Fixpoint remove_watch (st : solver) (c : nat) (ws : list (nat * nat)) : list (nat * nat) :=
    match ws with
    | [] => []
    | w :: r => if clause_eq st (fst w) c then r else w :: remove_watch st c r
    end.
  (** minisat2.rs 933-946. *)
  Definition detach_clause (c : nat) (st : solver) : res solver :=
    match c_data (cl_at st c) with
    | c0 :: c1 :: _ =>
      let st1 := set_wlist (lneg c0) (remove_watch st c (wlist st (lneg c0))) st in
      Ok (set_wlist (lneg c1) (remove_watch st1 c (wlist st1 (lneg c1))) st1)
    | _ => Panic
    end.
  (** minisat2.rs 914-931. *)
  Definition remove_clause (c : nat) (st : solver) : res solver :=
    do lk <- locked st c;
    match c_data (cl_at st c) with
    | [] => Panic
    | c0 :: _ => detach_clause c (if lk then set_reason c0 None st else st)
    end.
  (** minisat2.rs 905-912. *)
  Definition satisfied (st : solver) (d : list nat) : bool := existsb (fun l => is_true (value st l)) d.
  (** minisat2.rs 886-894. *)
  Fixpoint shrink (fuel : nat) (st : solver) (d : list nat) (k : nat) : list nat :=
    match fuel with
    | O => d
    | S fu =>
      match nth_error d k with
      | None => d
      | Some l => if is_false (value st l) then shrink fu st (vpop (upd d k (last d 0))) k else shrink fu st d (S k)
      end
    end.
  (** minisat2.rs 865-903 for the clauses [cs]; returns the kept ones. The debug assertion of line 883 is not modelled. *)
  Fixpoint remove_satisfied_gen (cs : list nat) (st : solver) : res (list nat * solver) :=
    match cs with
    | [] => Ok ([], st)
    | c :: r =>
      let d := c_data (cl_at st c) in
      if satisfied st d then
        do st1 <- remove_clause c st; remove_satisfied_gen r st1
      else
        do ' (k, st1) <- remove_satisfied_gen r (set_data c (if g_proof cfg then d else shrink (length d) st d 2) st);
        Ok (c :: k, st1)
    end.
  (** minisat2.rs 855-860. *)
  Definition remove_satisfied (st : solver) : res solver :=
    do ' (k, st1) <- remove_satisfied_gen (s_learnts st) st;
    let st2 := set_learnts k st1 in
    if g_remove_satisfied cfg then
      do ' (k2, st3) <- remove_satisfied_gen (s_clauses st2) st2; Ok (set_clauses k2 st3)
    else Ok st2.
  (** minisat2.rs 817-826. *)
  Definition rebuild_order_heap (st : solver) : res solver :=
    do h <- heap_build (s_acts st) (s_heap st)
      (filter (fun v => v_dec (var_at st v) && is_undef (v_asg (var_at st v))) (seq 0 (length (s_vars st))));
    Ok (set_heap h st).
  (** minisat2.rs 801-815; the test of line 807 is an oracle. *)
  Definition simplify (fuel : nat) (st : solver) : res (bool * solver) :=
    if negb (s_ok st) then Ok (false, set_ok false st)
    else do ' (confl, st1) <- propagate fuel st;
      match confl with
      | Some _ => Ok (false, set_ok false st1)
      | None =>
        if o_skip orc (s_tick st1) then Ok (true, tickup st1)
        else do st2 <- remove_satisfied (tickup st1); do st3 <- rebuild_order_heap st2; Ok (true, st3)
      end.

  (** minisat2.rs 1038-1047. *)
  Definition verify_watches (st : solver) : bool :=
    forallb (fun i => forallb (fun w => match c_data (cl_at st (fst w)) with
      | a :: b :: _ => (a =? lneg i) || (b =? lneg i)
      | _ => false end) (wlist st i)) (seq 0 (length (s_watches st))).
  (** minisat2.rs 835-847. *)
  Fixpoint reduce_loop (i : nat) (cs : list nat) (st : solver) : res (list nat * solver) :=
    match cs with
    | [] => Ok ([], st)
    | c :: r =>
      do lk <- locked st c;
      if (2 <? length (c_data (cl_at st c))) && negb lk && o_drop orc (s_tick st) i then
        do st1 <- remove_clause c st; reduce_loop (S i) r st1
      else do ' (k, st1) <- reduce_loop (S i) r st; Ok (c :: k, st1)
    end.
  (** minisat2.rs 828-849. *)
  Definition reduce_db (st : solver) : res solver :=
    if negb (verify_watches st) then Panic
    else
      let st1 := tickup (set_learnts (o_sort orc (s_tick st) (s_learnts st)) st) in
      if negb (verify_watches st1) then Panic
      else do ' (k, st2) <- reduce_loop 0 (s_learnts st1) st1; Ok (set_learnts k st2).

  (** minisat2.rs 523-536: [inl]: the assumption is false (and handed to [analyze_final]); [inr]: the next decision. *)
  Fixpoint decide_assumptions (fuel : nat) (st : solver) : res ((unit + option nat) * solver) :=
    match fuel with
    | O => NoFuel
    | S fu =>
      match nth_error (s_assum st) (dlevel st) with
      | None => Ok (inr None, st)
      | Some p =>
        match value st p with
        | Some true => decide_assumptions fu (set_lim (s_lim st ++ [length (s_trail st)]) st)
        | Some false => do st1 <- analyze_final (lneg p) st; Ok (inl tt, st1)
        | None => Ok (inr (Some p), st)
        end
      end
    end.

  (** minisat2.rs 480-508: after a conflict above level 0. *)
  Definition learn (fuel : nat) (c : nat) (st : solver) : res solver :=
    do ' (cl, st1) <- analyze fuel c st;
    do st2 <- cancel_until (s_bt st1) st1;
    let st3 := if s_bt st2 <? length (s_selo st2) then set_seli (s_bt st2) st2 else st2 in
    match cl with
    | [] => Panic
    | [l] => do st4 <- unchecked_enqueue l None st3; Ok (set_units (s_units st4 ++ [l]) st4)
    | l :: _ =>
      let c1 := length (s_arena st3) in
      do st4 <- attach_clause c1 (set_arena (s_arena st3 ++ [mkCl cl true]) st3);
      do st5 <- unchecked_enqueue l (Some c1) st4;
      Ok (set_learnts (s_learnts st5 ++ [c1]) st5)
    end.
  (** minisat2.rs 510-521: [None]: go on. *)
  Definition maintain (fuel : nat) (st : solver) : res (bool * solver) :=
    if g_incremental cfg then Ok (true, st)
    else
      do ' (good, st1) <- (if dlevel st =? 0 then simplify fuel st else Ok (true, st));
      if negb good then Ok (false, st1)
      else if o_reduce orc (s_tick st1) then do st2 <- reduce_db (tickup st1); Ok (true, st2) else Ok (true, tickup st1).
  (** minisat2.rs 474-546. *)
  Fixpoint search_loop (fuel : nat) (nof conflict_c : nat) (st : solver) : res (option bool * solver) :=
    match fuel with
    | O => NoFuel
    | S fu =>
      do ' (confl, st1) <- propagate fu st;
      match confl with
      | Some c =>
        if dlevel st1 =? 0 then Ok (Some false, st1)
        else do st2 <- learn fu c st1; search_loop fu nof (S conflict_c) st2
      | None =>
        if nof <=? conflict_c then do st2 <- cancel_until 0 st1; Ok (None, st2)
        else
          do ' (good, st2) <- maintain fu st1;
          if negb good then Ok (Some false, st2)
          else
            do ' (nx, st3) <- decide_assumptions fu st2;
            match nx with
            | inl _ => Ok (Some false, st3)
            | inr o =>
              do ' (o2, st4) <- match o with Some p => Ok (Some p, st3) | None => pick_branch_lit fu st3 end;
              match o2 with
              | None => Ok (Some true, st4)
              | Some p =>
                do st5 <- unchecked_enqueue p None (set_lim (s_lim st4 ++ [length (s_trail st4)]) st4);
                search_loop fu nof conflict_c st5
              end
            end
      end
    end.
  (** minisat2.rs 468-547. *)
  Definition search (fuel nof : nat) (st : solver) : res (option bool * solver) :=
    if negb (s_ok st) then Ok (Some false, st) else search_loop fuel nof 0 (set_seli 0 st).
  (** minisat2.rs 445-449: the restart loop. *)
  Fixpoint restarts (fuel : nat) (st : solver) : res (bool * solver) :=
    match fuel with
    | O => NoFuel
    | S fu =>
      do ' (r, st1) <- search fu (o_restart orc (s_tick st)) (tickup st);
      match r with Some b => Ok (b, st1) | None => restarts fu st1 end
    end.
  (** minisat2.rs 433-465. *)
  Definition solve (fuel : nat) (st : solver) : res (bool * solver) :=
    let st0 := set_conflict [] (set_model [] st) in
    if negb (s_ok st0) then Ok (false, st0)
    else
      do ' (r, st1) <- restarts fuel st0;
      let st2 := if r then set_model (map (fun v => is_true (v_asg v)) (s_vars st1)) st1
                 else match s_conflict st1 with [] => set_ok false st1 | _ => st1 end in
      do st3 <- cancel_until 0 st2;
      Ok (r, st3).
  (** minisat2.rs 425-430. *)
  Definition solve_with_assumptions (fuel : nat) (asm : list nat) (st : solver) : res (bool * solver) :=
    do ' (r, st1) <- solve fuel (set_assum asm st); Ok (r, set_assum [] st1).

  (** [sort_unstable] of literals. *)
  Fixpoint ins (x : nat) (l : list nat) : list nat :=
    match l with [] => [x] | y :: r => if x <=? y then x :: l else y :: ins x r end.
  Fixpoint isort (l : list nat) : list nat := match l with [] => [] | x :: r => ins x (isort r) end.
  (** minisat2.rs 253-266: [None]: the clause is satisfied; [prev] is the last kept literal ([MsLit::MAX] is [None]). *)
  Fixpoint norm_lits (st : solver) (prev : option nat) (ls : list nat) : option (list nat) :=
    match ls with
    | [] => Some []
    | l :: r =>
      if is_true (value st l) || (match prev with Some q => l =? lneg q | None => false end) then None
      else if negb (is_false (value st l)) && negb (match prev with Some q => l =? q | None => false end)
      then option_map (cons l) (norm_lits st (Some l) r)
      else norm_lits st prev r
    end.
  (** minisat2.rs 240-307. *)
  Definition add_clause (fuel : nat) (ps : list nat) (st : solver) : res (bool * solver) :=
    if negb (s_ok st) then Ok (false, st)
    else
      match norm_lits st None (isort ps) with
      | None => Ok (true, st)
      | Some [] => Ok (false, set_ok false st)
      | Some [l] =>
        do st1 <- unchecked_enqueue l None st;
        do ' (confl, st2) <- propagate fuel st1;
        let good := is_none confl in
        let st3 := set_ok good st2 in
        Ok (good, if g_incremental cfg then set_units (s_units st3 ++ [l]) st3 else st3)
      | Some qs =>
        let c := length (s_arena st) in
        do st1 <- attach_clause c (set_arena (s_arena st ++ [mkCl qs false]) st);
        Ok (true, set_clauses (s_clauses st1 ++ [c]) st1)
      end.
End Solver.
