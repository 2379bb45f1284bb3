(** Model of the DNNF compiler: src/knowledge_compilation/dnnf/dnnf_compiler.rs, dnnf_sat_solver.rs, and of the decomposition
    trees, dtree/dtree_factory.rs, dtree_generator.rs and dtree_datastructure.rs.

    Simplifications.  A [DTree] is an index into the vectors of the [DTreeFactory], here it is a tree with the numbers of the
    leaves; the vectors filled by [node] and [finish] (static variable sets, leaf indices, contents of the clauses) are
    functions of the tree.  A [BitVec] is a list of its positions or, in the cache key, a list of Booleans without the
    positions that are never set.  [dnnf_assignment] is written at the places where the assignment of a variable is written
    (minisat2.rs 315-318 and 556-559), so that [value_of] is [value].  The order of the neighbours of a vertex comes from a
    [HashSet]; it has no influence on the ordering, here it is the order of insertion. *)
From Coq Require Import String NArith ZArith List Bool Arith Ascii.
From Verif Require Import Base Vec EncodingModel Syntax FactoryModel OpsModel CacheModel TransModel SatModel AssignmentModel MiniModel PgSolverModel
  BbSimpModel SatPredModel UbTreeModel DnnfModel.
From Verif Require ParserModel.
Import ListNotations.
Local Open Scope nat_scope.

(* ------------------------------------------------------------------------------------------------------------------ *)
(** * Decomposition trees *)

(** dtree_datastructure.rs 9-13. *)
Inductive dtree := Leaf (n : nat) | Node (l r : dtree).
(** dtree_datastructure.rs 23-28 and dtree_factory.rs 74-76. *)
Fixpoint leaf_indices (t : dtree) : list nat :=
  match t with Leaf n => [n] | Node l r => leaf_indices l ++ leaf_indices r end.
(** dtree_datastructure.rs 16-21 and dtree_factory.rs 61 and 70-72; [leafs] are the literals of the leaves. *)
Definition tree_vars (leafs : list (list lit)) (t : dtree) : list var :=
  flat_map (fun i => map lit_var (nth i leafs [])) (leaf_indices t).

(** dtree_generator.rs 46-56. *)
Fixpoint compose (fuel : nat) (ts : list dtree) : res dtree :=
  match fuel with
  | O => NoFuel
  | S fu =>
    match ts with
    | [] => Panic
    | [t] => Ok t
    | _ =>
      let k := length ts / 2 in
      do l <- compose fu (firstn k ts);
      do r <- compose fu (skipn k ts);
      Ok (Node l r)
    end
  end.
(** dtree_generator.rs 27-41. *)
Fixpoint eliminate (leafs : list (list lit)) (order : list var) (sigma : list dtree) : res (list dtree) :=
  match order with
  | [] => Ok sigma
  | v :: vs =>
    let has t := existsb (var_eqb v) (tree_vars leafs t) in
    let gamma := filter has sigma in
    let sigma2 := filter (fun t => negb (has t)) sigma in
    match gamma with
    | [] => eliminate leafs vs sigma2
    | _ => do t <- compose (S (length gamma)) gamma; eliminate leafs vs (sigma2 ++ [t])
    end
  end.
Definition tree_of_leafs (leafs : list (list lit)) (order : list var) : res dtree :=
  do sigma <- eliminate leafs order (map Leaf (seq 0 (length leafs)));
  compose (S (length sigma)) sigma.

(** dtree_generator.rs 58-63, [Graph], without the vertices. *)
Record graph := mkGr { gr_adj : list (list bool); gr_edges : list (list nat) }.
Definition adj (g : graph) (i j : nat) : bool := nth j (nth i (gr_adj g) []) false.
(** dtree_generator.rs 86-89 and 149-154: an edge that is not there already. *)
Definition link (g : graph) (p : nat * nat) : graph :=
  let (i, j) := p in
  if adj g i j then g
  else
    let a1 := upd (gr_adj g) i (upd (nth i (gr_adj g) []) j true) in
    let a2 := upd a1 j (upd (nth j a1 []) i true) in
    let e1 := upd (gr_edges g) i (nth i (gr_edges g) [] ++ [j]) in
    let e2 := upd e1 j (nth j e1 [] ++ [i]) in
    mkGr a2 e2.
(** [for i in 0..n { for j in (i + 1)..n }]. *)
Fixpoint pairs {A} (l : list A) : list (A * A) :=
  match l with [] => [] | x :: r => map (pair x) r ++ pairs r end.
(** dtree_generator.rs 76-92; [cs] are the variables of the clauses as indices. *)
Definition graph_of (n : nat) (cs : list (list nat)) : graph :=
  fold_left (fun g c => fold_left link (pairs c) g) cs (mkGr (repeat (repeat false n) n) (repeat [] n)).

(** dtree_generator.rs 114-126: number of edges to be added for a vertex; 141-157: the edges. *)
Definition fill_edges (g : graph) (processed : list bool) (v : nat) : list (nat * nat) :=
  filter (fun p => negb (nth (fst p) processed false) && negb (nth (snd p) processed false)) (pairs (nth v (gr_edges g) [])).
Definition edges_added (g : graph) (processed : list bool) (v : nat) : nat :=
  length (filter (fun p => negb (adj g (fst p) (snd p))) (fill_edges g processed v)).
(** dtree_generator.rs 108-140: the first of the best vertices. *)
Fixpoint best_vertex (g : graph) (processed : list bool) (vs : list nat) (best : option (nat * nat)) : option (nat * nat) :=
  match vs with
  | [] => best
  | v :: r =>
    if nth v processed false then best_vertex g processed r best
    else
      let e := edges_added g processed v in
      best_vertex g processed r
        (match best with None => Some (v, e) | Some (_, m) => if e <? m then Some (v, e) else best end)
  end.
(** dtree_generator.rs 101-171, [get_min_fill_ordering], as indices; the tree width is not used. *)
Fixpoint min_fill (steps n : nat) (g : graph) (processed : list bool) : res (list nat) :=
  match steps with
  | O => Ok []
  | S st =>
    match best_vertex g processed (seq 0 n) None with
    | None => Panic
    | Some (v, _) =>
      do r <- min_fill st n (fold_left link (fill_edges g processed v) g) (upd processed v true);
      Ok (v :: r)
    end
  end.

(** The order of strings (UTF-8, ASCII only). *)
Fixpoint text_leb (a b : list ascii) : bool :=
  match a, b with
  | [], _ => true
  | _ :: _, [] => false
  | x :: a', y :: b' =>
    if (N_of_ascii x <? N_of_ascii y)%N then true
    else if (N_of_ascii y <? N_of_ascii x)%N then false else text_leb a' b'
  end.
(** [sorted_by_key] (stable). *)
Fixpoint ins_key {A} (x : list ascii * A) (l : list (list ascii * A)) : list (list ascii * A) :=
  match l with [] => [x] | y :: r => if text_leb (fst x) (fst y) then x :: l else y :: ins_key x r end.
Fixpoint sort_key {A} (l : list (list ascii * A)) : list (list ascii * A) :=
  match l with [] => [] | x :: r => ins_key x (sort_key r) end.

(** dtree_generator.rs 66-99 and 101-171. [fid] is the identifier of the factory, it is part of the names of auxiliary
    variables. *)
Definition min_fill_ordering (fid : ParserModel.text) (fuel : nat) (cnf : N) : M (list var) :=
  vs <-- variables fuel cnf ;;
  named <-- mmap (fun v => n <-- lift (fun s => ParserModel.name_of fid s v) ;; ret (n, v)) vs ;;
  let vertices := map snd (sort_key named) in
  ops <-- operandsM cnf ;;
  cvs <-- mmap (fun c => ws <-- variables fuel c ;; mmap (fun w => lift (fun _ => of_opt (idx_of vertices w))) ws) ops ;;
  let n := length vertices in
  is <-- lift (fun _ => min_fill n n (graph_of n cvs) (repeat false n)) ;;
  mmap (fun i => lift (fun _ => of_opt (nth_error vertices i))) is.

(** dtree_generator.rs 11-44; the leaves of the factory and the tree. *)
Definition min_fill_dtree (fid : ParserModel.text) (fuel : nat) (cnf : N) : M (list (list lit) * dtree) :=
  order <-- min_fill_ordering fid fuel cnf ;;
  c <-- lift (fun s => is_cnf s cnf) ;;
  if negb c || is_atomic cnf then fail
  else
    n <-- unpackM cnf ;;
    match n with
    | NAnd ops =>
      leafs <-- mmap (literals fuel) ops ;;
      t <-- lift (fun _ => tree_of_leafs leafs order) ;;
      ret (leafs, t)
    | _ => ls <-- literals fuel cnf ;; ret ([ls], Leaf 0)
    end.

(* ------------------------------------------------------------------------------------------------------------------ *)
(** * What is read off a tree and an assignment

    [lits] are the literals of the leaves (dtree_factory.rs 160-162), [val] the value of a literal. *)

Section TreeVal.
  Variables (lits : list (list nat)) (val : nat -> option bool).
  Definition leaf (i : nat) : list nat := nth i lits [].
  (** dtree_factory.rs 124-130, 147, 211-217. *)
  Definition subsumed (i : nat) : bool := existsb (fun l => is_true (val l)) (leaf i).
  Definition has_undef (i v : nat) : bool := existsb (fun l => (lvar l =? v) && is_undef (val l)) (leaf i).
  (** dtree_factory.rs 206-228. *)
  Definition var_set (t : dtree) (v : nat) : bool := existsb (fun i => negb (subsumed i) && has_undef i v) (leaf_indices t).
  (** dtree_factory.rs 100-113; [nv] is the number of variables, all bits of larger variables are 0. *)
  Definition separator (nv : nat) (t : dtree) : list nat :=
    match t with
    | Leaf _ => []
    | Node l r => filter (fun v => var_set l v && var_set r v) (seq 0 nv)
    end.
  (** dtree_factory.rs 187-204. *)
  Definition static_var_set (t : dtree) (v : nat) : bool :=
    existsb (fun i => existsb (fun l => lvar l =? v) (leaf i)) (leaf_indices t).
  (** dtree_factory.rs 119-142 and dnnf_compiler.rs 188-193. *)
  Definition cache_key (nv : nat) (t : dtree) : list bool :=
    map (var_set t) (seq 0 nv)
    ++ map (fun i => existsb (Nat.eqb i) (leaf_indices t) && negb (subsumed i)) (seq 0 (length lits)).
  (** dtree_factory.rs 144-158. *)
  Definition occurrences_of (t : dtree) (v : nat) : nat :=
    list_sum (map (fun i => if subsumed i then 0 else length (filter (fun l => lvar l =? v) (leaf i))) (leaf_indices t)).
  (** dnnf_compiler.rs 196-204; [position_max] returns the last of the maximal elements. *)
  Fixpoint position_max (l : list Z) (k best : nat) (m : Z) : nat :=
    match l with [] => best | x :: r => if (m <=? x)%Z then position_max r (S k) k x else position_max r (S k) best m end.
  Definition choose_shannon_variable (nv : nat) (t : dtree) (sep : list nat) : res nat :=
    let occ := map (fun v => if existsb (Nat.eqb v) sep then Z.of_nat (occurrences_of t v) else (-1)%Z) (seq 0 nv) in
    match occ with [] => Panic | x :: r => Ok (position_max r 1 0 x) end.
End TreeVal.

(* ------------------------------------------------------------------------------------------------------------------ *)
(** * The solver *)

(** dnnf_sat_solver.rs 16-21; [ds_asrt]: [None] is -1. [ds_confl] is not in the code and never read: the number of conflicts so
    far. *)
Record dsolver := mkDs { ds_s : solver; ds_names : list var; ds_dirty : bool; ds_asrt : option nat; ds_last : option (list nat); ds_confl : nat }.
(** dnnf_sat_solver.rs 24-27. *)
Definition ds_new : dsolver := mkDs solver_new [] false None None 0.
(** The configuration of [MiniSat2Solver::new()]. *)
Definition dn_cfg : sconfig := mkCfg MinDeep true true false.

Section Compiler.
  Variables (orc : oracle) (fuel : nat).

  (** dnnf_sat_solver.rs 144-152. *)
  Definition ds_literal (l : lit) (d : dsolver) : res (nat * dsolver) :=
    match idx_of (ds_names d) (lit_var l) with
    | Some i => Ok (mk_lit i (negb (lit_phase l)), d)
    | None =>
      do ' (i, s) <- new_var false true (ds_s d);
      Ok (mk_lit i (negb (lit_phase l)), mkDs s (ds_names d ++ [lit_var l]) (ds_dirty d) (ds_asrt d) (ds_last d) (ds_confl d))
    end.
  (** dnnf_sat_solver.rs 140-142. *)
  Fixpoint ds_clause (ls : list lit) (d : dsolver) : res (list nat * dsolver) :=
    match ls with
    | [] => Ok ([], d)
    | l :: r => do ' (x, d1) <- ds_literal l d; do ' (xs, d2) <- ds_clause r d1; Ok (x :: xs, d2)
    end.
  Definition ds_set (s : solver) (d : dsolver) : dsolver := mkDs s (ds_names d) (ds_dirty d) (ds_asrt d) (ds_last d) (ds_confl d).
  Definition ds_add_clause (ls : list lit) (d : dsolver) : res dsolver :=
    do ' (ps, d1) <- ds_clause ls d;
    do ' (_, s) <- add_clause dn_cfg fuel ps (ds_s d1);
    Ok (ds_set s d1).
  Fixpoint ds_add_clauses (cs : list (list lit)) (d : dsolver) : res dsolver :=
    match cs with [] => Ok d | c :: r => do d1 <- ds_add_clause c d; ds_add_clauses r d1 end.
  (** dnnf_sat_solver.rs 34-47. *)
  Definition ds_add (h : N) (d : dsolver) : M dsolver :=
    n <-- unpackM h ;;
    match n with
    | NTrue => ret d
    | NFalse | NOr _ | NLit _ => ls <-- literals fuel h ;; lift (fun _ => ds_add_clause ls d)
    | NAnd ops => cs <-- mmap (literals fuel) ops ;; lift (fun _ => ds_add_clauses cs d)
    | _ => fail
    end.

  (** dnnf_sat_solver.rs 29-32. *)
  Definition ds_start (d : dsolver) : res (bool * dsolver) :=
    do ' (c, s) <- propagate fuel (ds_s d);
    Ok (is_none c, mkDs s (ds_names d) true (ds_asrt d) (ds_last d) (ds_confl d)).
  (** dnnf_sat_solver.rs 129-138. *)
  Definition handle_conflict (c : nat) (d : dsolver) : res dsolver :=
    if 0 <? dlevel (ds_s d) then
      do ' (cl, s) <- analyze dn_cfg orc fuel c (ds_s d);
      Ok (mkDs s (ds_names d) (ds_dirty d) (Some (s_bt s)) (Some cl) (S (ds_confl d)))
    else
      do s <- cancel_until 0 (ds_s d);
      Ok (mkDs s (ds_names d) (ds_dirty d) None None (S (ds_confl d))).
  (** dnnf_sat_solver.rs 122-127. *)
  Definition propagate_after_decide (d : dsolver) : res (bool * dsolver) :=
    do ' (c, s) <- propagate fuel (ds_s d);
    match c with
    | None => Ok (true, ds_set s d)
    | Some c => do d1 <- handle_conflict c (ds_set s d); Ok (false, d1)
    end.
  (** dnnf_sat_solver.rs 49-55. *)
  Definition ds_decide (v : nat) (phase : bool) (d : dsolver) : res (bool * dsolver) :=
    let s := ds_s d in
    do s1 <- unchecked_enqueue (mk_lit v (negb phase)) None (set_lim (s_lim s ++ [length (s_trail s)]) s);
    propagate_after_decide (mkDs s1 (ds_names d) true (ds_asrt d) (ds_last d) (ds_confl d)).
  (** dnnf_sat_solver.rs 57-60. *)
  Definition ds_undo (v : nat) (d : dsolver) : res dsolver :=
    match v_lvl (var_at (ds_s d) v) with
    | Some (S k) =>
      do s <- cancel_until k (ds_s d);
      Ok (mkDs s (ds_names d) false (ds_asrt d) (ds_last d) (ds_confl d))
    | _ => Panic
    end.
  (** dnnf_sat_solver.rs 62-64. *)
  Definition at_assertion_level (d : dsolver) : bool :=
    match ds_asrt d with Some a => dlevel (ds_s d) =? a | None => false end.
  (** dnnf_sat_solver.rs 66-84; the activities are the oracle's. *)
  Definition assert_cd_literal (d : dsolver) : res (bool * dsolver) :=
    let s := ds_s d in
    if negb (at_assertion_level d) then Panic
    else
      do cl <- of_opt (ds_last d);
      do s3 <- (match cl with
        | [] => Panic
        | [l] => do s1 <- unchecked_enqueue l None s; Ok (set_units (s_units s1 ++ [l]) s1)
        | l :: _ =>
          let c := length (s_arena s) in
          do s1 <- attach_clause c (set_arena (s_arena s ++ [mkCl cl true]) s);
          do s2 <- unchecked_enqueue l (Some c) s1;
          Ok (set_learnts (s_learnts s2 ++ [c]) s2)
        end);
      propagate_after_decide (mkDs s3 (ds_names d) true (ds_asrt d) (ds_last d) (ds_confl d)).

  (** dnnf_sat_solver.rs 154-157, and the same in dnnf_compiler.rs 143; [phase], 118-120. *)
  Definition int_to_literal (names : list var) (l : nat) : res N :=
    do v <- MiniModel.name_of names (lvar l); Ok (encode_lit (Lit v (negb (lsign l)))).
  (** dnnf_sat_solver.rs 86-100: the literals; a position past the end of the set does not occur (the sets have a position for
      every variable). *)
  Definition newly_implied_lits (known : nat -> bool) (d : dsolver) : list nat :=
    let s := ds_s d in
    if ds_dirty d then
      match rev (s_lim s) with
      | [] => []
      | limit :: _ => filter (fun l => known (lvar l)) (rev (skipn limit (s_trail s)))
      end
    else [].
  Definition newly_implied (known : nat -> bool) (d : dsolver) : M (N * dsolver) :=
    ops <-- mmap (fun l => lift (fun _ => int_to_literal (ds_names d) l)) (newly_implied_lits known d) ;;
    r <-- f_and ops ;;
    ret (r, mkDs (ds_s d) (ds_names d) false (ds_asrt d) (ds_last d) (ds_confl d)).

  (* ---------------------------------------------------------------------------------------------------------------- *)
  (** * The compiler *)

  Variables (lits : list (list nat)) (nv : nat).

  (** dnnf_compiler.rs 135-153; [cur] are the current literals, [ops] the operands of the result. *)
  Fixpoint leaf_ops (names : list var) (val : nat -> option bool) (ls : list nat) (cur ops : list N) : M N :=
    match ls with
    | [] => f_or ops
    | l :: r =>
      match val l with
      | Some true => ret verum
      | Some false => leaf_ops names val r cur ops
      | None =>
        x <-- lift (fun _ => int_to_literal names l) ;;
        a <-- f_and (cur ++ [x]) ;;
        nx <-- f_negate x ;;
        leaf_ops names val r (cur ++ [nx]) (ops ++ [a])
      end
    end.
  Definition leaf2ddnnf (n : nat) (d : dsolver) : M N := leaf_ops (ds_names d) (value (ds_s d)) (leaf lits n) [] [].

  (** dnnf_compiler.rs 42-44: the mutable part of the compiler. *)
  Record comp := mkComp { cp_ds : dsolver; cp_cache : list (list bool * N) }.
  Fixpoint bits_eqb (a b : list bool) : bool :=
    match a, b with [], [] => true | x :: a', y :: b' => Bool.eqb x y && bits_eqb a' b' | _, _ => false end.
  Fixpoint cache_lookup (k : list bool) (c : list (list bool * N)) : option N :=
    match c with [] => None | (k', h) :: r => if bits_eqb k k' then Some h else cache_lookup k r end.
  Definition set_ds (d : dsolver) (c : comp) : comp := mkComp d (cp_cache c).

  (** dnnf_compiler.rs 170-186, [cnf_aux]; [rec] is [cnf2ddnnf]. *)
  Definition cnf_aux (rec : dtree -> comp -> M (N * comp)) (t : dtree) (c : comp) : M (N * comp) :=
    match t with
    | Leaf n => r <-- leaf2ddnnf n (cp_ds c) ;; ret (r, c)
    | Node _ _ =>
      let key := cache_key lits (value (ds_s (cp_ds c))) nv t in
      match cache_lookup key (cp_cache c) with
      | Some h => ret (h, c)
      | None =>
        p <-- rec t c ;;
        ret (fst p, if is_falsum (fst p) then snd p else mkComp (cp_ds (snd p)) ((key, fst p) :: cp_cache (snd p)))
      end
    end.
  (** dnnf_compiler.rs 155-168. *)
  Definition conjoin (rec : dtree -> comp -> M (N * comp)) (implied : N) (l r : dtree) (c : comp) : M (N * comp) :=
    if is_falsum implied then ret (implied, c)
    else
      p <-- cnf_aux rec l c ;;
      if is_falsum (fst p) then ret p
      else
        q <-- cnf_aux rec r (snd p) ;;
        if is_falsum (fst q) then ret q
        else h <-- f_and [implied; fst p; fst q] ;; ret (h, snd q).
  (** dnnf_compiler.rs 101-102 and 112-113. *)
  Definition branch (rec : dtree -> comp -> M (N * comp)) (t : dtree) (v : nat) (phase : bool) (c : comp) : M (N * comp) :=
    q <-- lift (fun _ => ds_decide v phase (cp_ds c)) ;;
    p <-- (if fst q then rec t (set_ds (snd q) c) else ret (falsum, set_ds (snd q) c)) ;;
    d <-- lift (fun _ => ds_undo v (cp_ds (snd p))) ;;
    ret (fst p, set_ds d (snd p)).
  (** dnnf_compiler.rs 104-108 and 115-119. *)
  Definition retry (rec : dtree -> comp -> M (N * comp)) (t : dtree) (c : comp) : M (N * comp) :=
    if at_assertion_level (cp_ds c) then
      q <-- lift (fun _ => assert_cd_literal (cp_ds c)) ;;
      if fst q then rec t (set_ds (snd q) c) else ret (falsum, set_ds (snd q) c)
    else ret (falsum, c).
  (** dnnf_compiler.rs 84-129. *)
  Fixpoint cnf2ddnnf (n : nat) (t : dtree) (c : comp) : M (N * comp) :=
    match n with
    | O => nofuel
    | S n' =>
      i <-- newly_implied (static_var_set lits t) (cp_ds c) ;;
      let implied := fst i in
      let c0 := set_ds (snd i) c in
      match separator lits (value (ds_s (cp_ds c0))) nv t with
      | [] =>
        match t with
        | Leaf k => lf <-- leaf2ddnnf k (cp_ds c0) ;; r <-- f_and [implied; lf] ;; ret (r, c0)
        | Node l r => conjoin (cnf2ddnnf n') implied l r c0
        end
      | sep =>
        v <-- lift (fun _ => choose_shannon_variable lits (value (ds_s (cp_ds c0))) nv t sep) ;;
        p <-- branch (cnf2ddnnf n') t v true c0 ;;
        if is_falsum (fst p) then retry (cnf2ddnnf n') t (snd p)
        else
          q <-- branch (cnf2ddnnf n') t v false (snd p) ;;
          if is_falsum (fst q) then retry (cnf2ddnnf n') t (snd q)
          else
            x <-- lift (fun _ => int_to_literal (ds_names (cp_ds (snd q))) (mk_lit v false)) ;;
            nx <-- f_negate x ;;
            pb <-- f_and [x; fst p] ;;
            nb <-- f_and [nx; fst q] ;;
            sh <-- f_or [pb; nb] ;;
            r <-- f_and [implied; sh] ;;
            ret (r, snd q)
      end
    end.
End Compiler.

(** dnnf_compiler.rs 207-216. *)
Definition initialize_clauses (cnf : N) : M (N * N) :=
  n <-- unpackM cnf ;;
  match n with
  | NAnd ops => l <-- f_and (filter is_atomic ops) ;; r <-- f_and (filter (fun o => negb (is_atomic o)) ops) ;; ret (l, r)
  | NOr _ => ret (verum, cnf)
  | _ => ret (cnf, verum)
  end.

(** dtree_factory.rs 160-162. *)
Definition leaf_literals (names : list var) (leafs : list (list lit)) : res (list (list nat)) :=
  ParserModel.rmap (ParserModel.rmap (fun l => do i <- of_opt (idx_of names (lit_var l)); Ok (mk_lit i (negb (lit_phase l))))) leafs.

(** dnnf_compiler.rs 50-82, [DnnfCompiler::new(cnf, f).compile()]; [depth] bounds the recursion of [cnf2ddnnf], [fuel] the
    other loops. The solver is returned as well. *)
Definition dnnf_compile (orc : oracle) (alg : cnf_algorithm) (fid : ParserModel.text) (depth fuel : nat) (cnf : N) : M (N * dsolver) :=
  cl <-- initialize_clauses cnf ;;
  vs <-- variables fuel cnf ;;
  d <-- ds_add fuel cnf ds_new ;;
  if is_atomic (snd cl) then ret (cnf, d)
  else
    b <-- is_sat orc alg fuel cnf ;;
    if negb b then ret (falsum, d)
    else
      q <-- lift (fun _ => ds_start fuel d) ;;
      if negb (fst q) then ret (falsum, snd q)
      else
        lt <-- min_fill_dtree fid fuel cnf ;;
        lits <-- lift (fun _ => leaf_literals (ds_names (snd q)) (fst lt)) ;;
        p <-- cnf2ddnnf orc fuel lits (length vs) depth (snd lt) (mkComp (snd q) []) ;;
        r <-- f_and [fst cl; fst p] ;;
        ret (r, cp_ds (snd p)).

(** dnnf_compiler.rs 30-36; [alg] is the algorithm of the configuration of the factory, [rounds] bounds the loop of the backbone
    computation, [ord] is the iteration order of a [HashSet]. *)
Definition compile_dnnf (orc : oracle) (alg : cnf_algorithm) (fid : ParserModel.text) (ord : list lit -> nat -> list nat -> list nat)
    (rounds depth fuel : nat) (h : N) : M dnnf_formula :=
  vs <-- variables fuel h ;;
  p <-- cnf_transform alg fuel h (mkCnfEncoder None None) ;;
  s <-- backbone_simplification orc rounds fuel (fst p) ;;
  sub <-- subsumption ord true fuel s ;;
  r <-- dnnf_compile orc alg fid depth fuel sub ;;
  ret (mkDnnf (fst r) vs).
