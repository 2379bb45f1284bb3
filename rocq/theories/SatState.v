(** Model of the saving and loading of solver states: src/solver/sat/minisat2.rs 1107-1169 and src/solver/minisat_solver.rs
    236-258. The fields for proofs ([pg_original_clauses], [pg_proof]) are not modelled; every variable has a name, so that
    lines 1117-1119 remove the variables from the index tables and from the heap. *)
From Coq Require Import List Arith ZArith NArith Bool Lia.
From Verif Require Import Base Vec HeapModel SatModel.
Import ListNotations.
Local Open Scope nat_scope.

(** minisat2.rs 1107-1111: [ok], numbers of variables, clauses, learnt clauses, unit clauses. *)
Record snapshot : Type := mkSnap { n_ok : bool; n_vars : nat; n_clauses : nat; n_learnts : nat; n_units : nat }.
Definition save_state (cfg : sconfig) (st : solver) : res snapshot :=
  if g_incremental cfg then Ok (mkSnap (s_ok st) (length (s_vars st)) (length (s_clauses st)) (length (s_learnts st)) (length (s_units st))) else Panic.

(** minisat2.rs 1153-1161: the variables from index [v]. *)
Fixpoint backtrack_vars (n v : nat) (st : solver) : res solver :=
  match n with
  | O => Ok st
  | S k =>
    let x := var_at st v in
    let st1 := set_reasons (upd (s_reasons st) v None) (set_vars (upd (s_vars st) v (mkVar None (v_lvl x) (v_pol x) (v_dec x))) st) in
    do st2 <- insert_var_order v st1;
    backtrack_vars k (S v) st2
  end.
(** minisat2.rs 1153-1165. *)
Definition complete_backtrack (st : solver) : res solver :=
  do st1 <- backtrack_vars (length (s_vars st)) 0 st;
  Ok (set_qhead 0 (set_lim [] (set_trail [] st1))).
(** minisat2.rs 1118-1120: the variables [n + k - 1], ..., [n] leave the heap. *)
Fixpoint unheap (k n : nat) (st : solver) : res solver :=
  match k with
  | O => Ok st
  | S j => do h <- heap_remove (s_acts st) (s_heap st) (n + j); unheap j n (set_heap h st)
  end.
(** minisat2.rs 1126-1128, 1132-1134 and 1167-1169: from the last clause downwards. *)
Fixpoint detach_all (cfg : sconfig) (orc : oracle) (cs : list nat) (st : solver) : res solver :=
  match cs with
  | [] => Ok st
  | c :: r => do st1 <- detach_clause cfg orc c st; detach_all cfg orc r st1
  end.
(** minisat2.rs 1140-1145. *)
Fixpoint replay (fuel : nat) (us : list nat) (st : solver) : res solver :=
  match us with
  | [] => Ok st
  | u :: r =>
    if s_ok st then
      do st1 <- unchecked_enqueue u None st;
      do ' (confl, st2) <- propagate fuel st1;
      replay fuel r (set_ok (is_none confl) st2)
    else replay fuel r st
  end.
(** minisat2.rs 1113-1151. *)
Definition load_state (cfg : sconfig) (orc : oracle) (fuel : nat) (sn : snapshot) (st : solver) : res solver :=
  if negb (g_incremental cfg) then Panic
  else
    do st1 <- complete_backtrack st;
    let st2 := set_ok (n_ok sn) st1 in
    let n := Nat.min (n_vars sn) (length (s_vars st2)) in
    do st3 <- unheap (length (s_vars st2) - n) n st2;
    let st4 := set_reasons (firstn n (s_reasons st3)) (set_acts (firstn n (s_acts st3)) (set_vars (firstn n (s_vars st3)) st3)) in
    let nc := Nat.min (n_clauses sn) (length (s_clauses st4)) in
    do st5 <- detach_all cfg orc (rev (skipn nc (s_clauses st4))) st4;
    let st6 := set_clauses (firstn nc (s_clauses st5)) st5 in
    let nl := Nat.min (n_learnts sn) (length (s_learnts st6)) in
    do st7 <- detach_all cfg orc (rev (skipn nl (s_learnts st6))) st6;
    let st8 := set_learnts (firstn nl (s_learnts st7)) st7 in
    let st9 := set_watches (firstn (n * 2) (s_watches st8)) st8 in
    let st10 := set_units (firstn (n_units sn) (s_units st9)) st9 in
    replay fuel (s_units st10) st10.

(** The solver with its valid states, the oldest first (minisat_solver.rs 236-258). *)
Definition save (cfg : sconfig) (s : solver * list snapshot) : res (solver * list snapshot) :=
  do sn <- save_state cfg (fst s); Ok (fst s, snd s ++ [sn]).
Definition load (cfg : sconfig) (orc : oracle) (fuel : nat) (i : nat) (s : solver * list snapshot) : res (solver * list snapshot) :=
  match nth_error (snd s) i with
  | None => Panic
  | Some sn => do st <- load_state cfg orc fuel sn (fst s); Ok (st, firstn (S i) (snd s))
  end.
