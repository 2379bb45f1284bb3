(** Model of the variable orderings for BDDs: src/knowledge_compilation/bdd/orderings/*.rs, and of src/graphs/*.rs.

    Simplifications.  The set [added] has the elements of the vector [variables].  A hypergraph's maps from the indices
    [0 .. n-1] are lists; the map [node_map] is looked up in the list of the contents.  An ordering, a map from all node
    indices to positions, is the list of the positions; a missing position is a panic when the map is made, in the code when it
    is read.  64 bit floating point numbers are those of [SpecFloat], the specification of IEEE 754 in Coq's library. *)
From Coq Require Import NArith ZArith List Bool Arith SpecFloat.
From Verif Require Import Base EncodingModel Syntax FactoryModel OpsModel CacheModel TransModel MiniModel.
Import ListNotations.
Local Open Scope nat_scope.
Local Open Scope res_scope.

(** dfs_ordering.rs 15-20 and bfs_ordering.rs 14-19, [add]. *)
Definition add_new_var (l : list var) (u : var) : list var := if existsb (var_eqb u) l then l else l ++ [u].

(** dfs_ordering.rs 14-40, [dfs_rec]; [fuel] bounds the recursion depth. *)
Fixpoint dfs_rec (fuel : nat) (h : N) (vars : list var) : M (list var) :=
  match fuel with
  | O => nofuel
  | S fuel' =>
    n <-- unpackM h ;;
    match n with
    | NLit l => ret (add_new_var vars (lit_var l))
    | NCc c => ret (fold_left add_new_var (cc_vars c) vars)
    | NPbc p => ret (fold_left add_new_var (map lit_var (pb_lits p)) vars)
    | _ => mfold (dfs_rec fuel') (node_operands n) vars
    end
  end.
(** dfs_ordering.rs 7-12. *)
Definition dfs_ordering (fuel : nat) (h : N) : M (list var) := dfs_rec fuel h [].

(** bfs_ordering.rs 7-48; [fuel] bounds the number of rounds of the loop. *)
Fixpoint bfs_loop (fuel : nat) (queue : list N) (vars : list var) : M (list var) :=
  match fuel with
  | O => nofuel
  | S fuel' =>
    match queue with
    | [] => ret vars
    | h :: q =>
      n <-- unpackM h ;;
      match n with
      | NLit l => if lit_phase l then bfs_loop fuel' q (add_new_var vars (lit_var l)) else bfs_loop fuel' (q ++ [encode_lit (Lit (lit_var l) true)]) vars
      | NCc c => bfs_loop fuel' q (fold_left add_new_var (cc_vars c) vars)
      | NPbc p => bfs_loop fuel' q (fold_left add_new_var (map lit_var (pb_lits p)) vars)
      | _ => bfs_loop fuel' (q ++ node_operands n) vars
      end
    end
  end.
Definition bfs_ordering (fuel : nat) (h : N) : M (list var) := bfs_loop fuel [h] [].

(** [sort_by] (stable). *)
Fixpoint ins_by {A} (leb : A -> A -> bool) (x : A) (l : list A) : list A :=
  match l with [] => [x] | y :: r => if leb x y then x :: l else y :: ins_by leb x r end.
Fixpoint sort_by {A} (leb : A -> A -> bool) (l : list A) : list A :=
  match l with [] => [] | x :: r => ins_by leb x (sort_by leb r) end.

(** occurrence_ordering.rs 26-34: variable, number of occurrences and position in the DFS ordering. *)
Definition occ_leb (rev : bool) (a b : var * (N * nat)) : bool :=
  let '(n, i) := snd a in let '(m, j) := snd b in
  if (n =? m)%N then i <=? j else if rev then (m <? n)%N else (n <? m)%N.
(** occurrence_ordering.rs 22-37. The position of a variable is determined before the comparison, in the code only if the
    numbers are equal. *)
Definition sort_ordering (rev : bool) (fuel : nat) (h : N) : M (list var) :=
  profile <-- variable_profile fuel h ;;
  dfs <-- dfs_ordering fuel h ;;
  l <-- mmap (fun p : var * N => i <-- lift (fun _ => of_opt (idx_of dfs (fst p))) ;; ret (fst p, (snd p, i))) profile ;;
  ret (map fst (sort_by (occ_leb rev) l)).
(** occurrence_ordering.rs 11-20. *)
Definition min_to_max_ordering : nat -> N -> M (list var) := sort_ordering false.
Definition max_to_min_ordering : nat -> N -> M (list var) := sort_ordering true.

(* ------------------------------------------------------------------------------------------------------------------ *)
(** * Hypergraphs *)

(** hypergraph.rs 10-34: the nodes with content and edges, the edges with their nodes. *)
Record hypergraph := mkHg { hg_nodes : list (var * list nat); hg_edges : list (list nat) }.
Definition hg_contents (g : hypergraph) : list var := map fst (hg_nodes g).
(** hypergraph.rs 43-48. *)
Definition add_node (v : var) (g : hypergraph) : nat * hypergraph := (length (hg_nodes g), mkHg (hg_nodes g ++ [(v, [])]) (hg_edges g)).
Fixpoint push_edge (e i : nat) (l : list (var * list nat)) : list (var * list nat) :=
  match l, i with
  | [], _ => []
  | (v, es) :: r, O => (v, es ++ [e]) :: r
  | p :: r, S i' => p :: push_edge e i' r
  end.
(** hypergraph.rs 51-61. *)
Definition add_edge (nodes : list nat) (g : hypergraph) : res hypergraph :=
  if forallb (fun i => i <? length (hg_nodes g)) nodes then
    Ok (mkHg (fold_left (fun l i => push_edge (length (hg_edges g)) i l) nodes (hg_nodes g)) (hg_edges g ++ [nodes]))
  else Panic.
(** hypergraph_generator.rs 23-36; [vs] are the variables of the clause. *)
Fixpoint clause_nodes (vs : list var) (g : hypergraph) : list nat * hypergraph :=
  match vs with
  | [] => ([], g)
  | v :: r =>
    let '(i, g1) := match idx_of (hg_contents g) v with Some i => (i, g) | None => add_node v g end in
    let '(is, g2) := clause_nodes r g1 in
    (i :: is, g2)
  end.
Definition hg_add_clause (fuel : nat) (h : N) (g : hypergraph) : M hypergraph :=
  vs <-- variables fuel h ;;
  lift (fun _ => let '(nodes, g1) := clause_nodes vs g in add_edge nodes g1).
(** hypergraph_generator.rs 9-21. *)
Definition hypergraph_from_cnf (fuel : nat) (cnf : N) : M hypergraph :=
  let empty := mkHg [] [] in
  n <-- unpackM cnf ;;
  match n with
  | NCc _ | NPbc _ | NImpl _ _ | NEquiv _ _ | NNot _ => fail
  | NLit _ | NOr _ => hg_add_clause fuel cnf empty
  | NAnd ops => mfold (hg_add_clause fuel) ops empty
  | NTrue | NFalse => ret empty
  end.

(* ------------------------------------------------------------------------------------------------------------------ *)
(** * FORCE *)

(** [as f64]. *)
Definition f64_of (n : nat) : spec_float := binary_normalize 53 1024 (Z.of_nat n) 0 false.
Definition f64_add : spec_float -> spec_float -> spec_float := SFadd 53 1024.
Definition f64_div : spec_float -> spec_float -> spec_float := SFdiv 53 1024.
(** [f64::total_cmp(a, b).is_le()]; a NaN is taken as positive. *)
Definition f64_leb (a b : spec_float) : bool :=
  match a, b with
  | _, S754_nan => true
  | S754_nan, _ => false
  | S754_zero s, S754_zero t => s || negb t
  | _, _ => match SFcompare a b with Some Gt => false | _ => true end
  end.

(** hypergraph.rs 104-112, [center_of_gravity]. *)
Definition center_of_gravity (ord : list nat) (e : list nat) : res spec_float :=
  do ls <- res_map (fun i => of_opt (nth_error ord i)) e;
  Ok (f64_div (f64_of (list_sum ls)) (f64_of (length e))).
(** hypergraph.rs 92-99, [compute_tentative_new_location]; [es] are the edges of the node. *)
Definition new_location (g : hypergraph) (ord : list nat) (es : list nat) : res spec_float :=
  do cs <- res_map (fun e => do ns <- of_opt (nth_error (hg_edges g) e); center_of_gravity ord ns) es;
  Ok (f64_div (fold_left f64_add cs (S754_zero false)) (f64_of (length es))).

(** The position of an index in a list. *)
Fixpoint pos_of (i : nat) (l : list nat) : nat := match l with [] => 0 | x :: r => if x =? i then 0 else S (pos_of i r) end.
(** force_ordering.rs 79-87, [ordering_from_tentative_new_locations]. *)
Definition order_of_locations (locs : list spec_float) : list nat :=
  let sorted := map fst (sort_by (fun a b => f64_leb (snd a) (snd b)) (combine (seq 0 (length locs)) locs)) in
  map (fun i => pos_of i sorted) (seq 0 (length locs)).
(** force_ordering.rs 38-44, one round. *)
Definition force_round (g : hypergraph) (last : list nat) : res (list nat) :=
  do locs <- res_map (fun p => new_location g last (snd p)) (hg_nodes g);
  Ok (order_of_locations locs).
Fixpoint nats_eqb (a b : list nat) : bool :=
  match a, b with [], [] => true | x :: a', y :: b' => (x =? y) && nats_eqb a' b' | _, _ => false end.
(** force_ordering.rs 36-48 and 89-91; [rounds] bounds the number of rounds, which the code does not. *)
Fixpoint force_loop (rounds : nat) (g : hypergraph) (last : list nat) : res (list nat) :=
  match rounds with
  | O => NoFuel
  | S n => do cur <- force_round g last; if nats_eqb last cur then Ok cur else force_loop n g cur
  end.
(** force_ordering.rs 66-76. *)
Definition initial_ordering (g : hypergraph) (dfs : list var) : res (list nat) :=
  if forallb (fun v => existsb (var_eqb v) (hg_contents g)) dfs then res_map (fun v => of_opt (idx_of dfs v)) (hg_contents g) else Panic.
(** force_ordering.rs 50-62. *)
Definition force_result (g : hypergraph) (ord : list nat) (original : list var) : list var :=
  let nodes := map fst (sort_by (fun a b => snd a <=? snd b) (combine (hg_contents g) ord)) in
  let vs := filter (fun v => existsb (var_eqb v) original) nodes in
  vs ++ filter (fun v => negb (existsb (var_eqb v) vs)) original.
(** force_ordering.rs 25-63, [force]. *)
Definition force (rounds fuel : nat) (cnf : N) (g : hypergraph) (original : list var) : M (list var) :=
  dfs <-- dfs_ordering fuel cnf ;;
  lift (fun _ =>
    do init <- initial_ordering g dfs;
    do ord <- force_loop rounds g init;
    Ok (force_result g ord original)).
(** force_ordering.rs 12-23; [alg] is the algorithm of the factory's CNF configuration. *)
Definition force_ordering (alg : cnf_algorithm) (rounds fuel : nat) (h : N) : M (list var) :=
  vs <-- variables fuel h ;;
  n <-- nnf fuel h ;;
  ws <-- variables fuel n ;;
  c <-- cnf_transform alg fuel n (mkCnfEncoder None None) ;;
  g <-- hypergraph_from_cnf fuel (fst c) ;;
  force rounds fuel (fst c) g (add_vars ws vs).
