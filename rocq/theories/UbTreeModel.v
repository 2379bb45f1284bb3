(** Model of datastructures/ubtree.rs and of operations/transformations/subsumption.rs.

    A [BTreeSet] is its increasing list of elements, a [BTreeMap] its list of entries with increasing keys; indices are
    [nat].  The iteration order of the [HashSet] in [first_subset_from_forest] is random in the code: it is a parameter [ord]
    (a reordering that may depend on the query and on the place in the tree). *)
From Coq Require Import NArith List Bool Arith.
From Verif Require Import Base Vec EncodingModel Syntax FactoryModel CacheModel HeapModel TransModel.
Import ListNotations.

Section UbTree.
  Context {T : Type} (ltb eqb : T -> T -> bool).

  (** ubtree.rs 7-10 *)
  Record ubnode := mkUbNode { un_children : nat; un_set : option (list T) }.
  (** ubtree.rs 33-37 *)
  Record ubtree := mkUb { ub_root : nat; ub_nodes : list ubnode; ub_maps : list (list (T * nat)) }.

  (** [BTreeMap::get] and [BTreeMap::insert] *)
  Fixpoint map_get (e : T) (m : list (T * nat)) : option nat :=
    match m with [] => None | (k, v) :: r => if eqb e k then Some v else map_get e r end.
  Fixpoint map_insert (e : T) (n : nat) (m : list (T * nat)) : list (T * nat) :=
    match m with
    | [] => [(e, n)]
    | (k, v) :: r => if ltb e k then (e, n) :: m else if eqb e k then (k, n) :: r else (k, v) :: map_insert e n r
    end.

  (** ubtree.rs 41-43 *)
  Definition ub_new : ubtree := mkUb 0 [] [[]].

  (** ubtree.rs 127-138, [new_node] and [new_children_map] *)
  Definition new_node (t : ubtree) : nat * ubtree :=
    (length (ub_nodes t), mkUb (ub_root t) (ub_nodes t ++ [mkUbNode (length (ub_maps t)) None]) (ub_maps t ++ [[]])).

  (** ubtree.rs 49-59, the loop of [add_set] *)
  Fixpoint add_walk (set : list T) (nodes : nat) (node : option nat) (t : ubtree) : res (option nat * ubtree) :=
    match set with
    | [] => Ok (node, t)
    | e :: r =>
        rbind (vget (ub_maps t) nodes) (fun m =>
        rbind (match map_get e m with
               | Some n => Ok (n, t)
               | None =>
                   let (n, t1) := new_node t in
                   rbind (vget (ub_maps t1) nodes) (fun m1 =>
                   rbind (vset (ub_maps t1) nodes (map_insert e n m1)) (fun ms =>
                   Ok (n, mkUb (ub_root t1) (ub_nodes t1) ms)))
               end) (fun p =>
        rbind (vget (ub_nodes (snd p)) (fst p)) (fun nd =>
        add_walk r (un_children nd) (Some (fst p)) (snd p))))
    end.

  (** ubtree.rs 46-63 *)
  Definition add_set (set : list T) (t : ubtree) : res ubtree :=
    rbind (add_walk set (ub_root t) None t) (fun p =>
    match fst p with
    | None => Ok (snd p)
    | Some n =>
        rbind (vget (ub_nodes (snd p)) n) (fun nd =>
        rbind (vset (ub_nodes (snd p)) n (mkUbNode (un_children nd) (Some set))) (fun ns =>
        Ok (mkUb (ub_root (snd p)) ns (ub_maps (snd p)))))
    end).

  Variable ord : list T -> nat -> list nat -> list nat.

  (** ubtree.rs 116-125, [get_all_nodes_containing_elements]; a [HashSet] contains an index once *)
  Definition matching (set : list T) (m : list (T * nat)) : list nat :=
    nodup Nat.eq_dec (flat_map (fun e => match map_get e m with Some n => [n] | None => [] end) set).

  (** ubtree.rs 97-114 *)
  Fixpoint subset_from_forest (t : ubtree) (fuel : nat) (set : list T) (forest : nat) : res (option (list T)) :=
    match fuel with
    | O => NoFuel
    | S fu =>
        rbind (vget (ub_maps t) forest) (fun m =>
        (fix go (ns : list nat) (found : option (list T)) : res (option (list T)) :=
           match ns with
           | [] => Ok found
           | n :: r =>
               match found with
               | Some _ => Ok found
               | None =>
                   rbind (vget (ub_nodes t) n) (fun nd =>
                   match un_set nd with
                   | Some s => Ok (Some s)
                   | None => rbind (subset_from_forest t fu (tl set) (un_children nd)) (fun f => go r f)
                   end)
               end
           end) (ord set forest (matching set m)) None)
    end.

  (** ubtree.rs 66-72 *)
  Definition first_subset (t : ubtree) (set : list T) : res (option (list T)) :=
    rbind (vget (ub_maps t) (ub_root t)) (fun m =>
    match m, set with
    | [], _ | _, [] => Ok None
    | _, _ => subset_from_forest t (S (length set)) set (ub_root t)
    end).

  (** Derived order of [BTreeSet]: lexicographic. *)
  Fixpoint lex_ltb (a b : list T) : bool :=
    match a, b with
    | _, [] => false
    | [], _ :: _ => true
    | x :: a', y :: b' => ltb x y || (eqb x y && lex_ltb a' b')
    end.
  Fixpoint lex_eqb (a b : list T) : bool :=
    match a, b with
    | [], [] => true
    | x :: a', y :: b' => eqb x y && lex_eqb a' b'
    | _, _ => false
    end.

  (** ubtree.rs 80-86, one popped map: the sets found and the stack (top first) *)
  Fixpoint visit (t : ubtree) (ns : list nat) (acc : list (list T)) (stack : list nat) : res (list (list T) * list nat) :=
    match ns with
    | [] => Ok (acc, stack)
    | n :: r =>
        rbind (vget (ub_nodes t) n) (fun nd =>
        visit t r (match un_set nd with Some s => ins lex_ltb lex_eqb s acc | None => acc end) (un_children nd :: stack))
    end.
  (** ubtree.rs 79-88 *)
  Fixpoint all_loop (t : ubtree) (fuel : nat) (acc : list (list T)) (stack : list nat) : res (list (list T)) :=
    match fuel with
    | O => NoFuel
    | S fu =>
        match stack with
        | [] => Ok acc
        | c :: rest =>
            rbind (vget (ub_maps t) c) (fun m =>
            rbind (visit t (map snd m) acc rest) (fun p => all_loop t fu (fst p) (snd p)))
        end
    end.
  (** ubtree.rs 75-89 *)
  Definition all_sets (t : ubtree) : res (list (list T)) := all_loop t (S (length (ub_maps t))) [] [ub_root t].
End UbTree.

(* ------------------------------------------------------------------------------------------------------------------ *)
(** * Subsumption *)

(** [mapping.entry(k).or_default().push(x)] on a [BTreeMap] *)
Fixpoint group_push {A} (k : nat) (x : A) (m : list (nat * list A)) : list (nat * list A) :=
  match m with
  | [] => [(k, [x])]
  | (j, l) :: r => if (k <? j)%nat then (k, [x]) :: m else if (k =? j)%nat then (j, l ++ [x]) :: r else (j, l) :: group_push k x r
  end.

Section Subsumption.
  Variable ord : list lit -> nat -> list nat -> list nat.

  (** subsumption.rs 57-63: the loops over the sizes and over the sets of a size *)
  Fixpoint subsume_loop (sets : list (list lit)) (t : ubtree) : res (@ubtree lit) :=
    match sets with
    | [] => Ok t
    | set :: r =>
        rbind (first_subset lit_eqb ord t set) (fun o =>
        match o with
        | Some _ => subsume_loop r t
        | None => rbind (add_set lit_ltb lit_eqb set t) (fun t1 => subsume_loop r t1)
        end)
    end.
  (** subsumption.rs 50-65, [generate_subsumed_ubtree] *)
  Definition subsumed_ubtree (fuel : nat) (ops : list N) : M (@ubtree lit) :=
    sets <-- mmap (literals fuel) ops ;;
    let mapping := fold_left (fun m set => group_push (length set) set m) sets [] in
    lift (fun _ => subsume_loop (flat_map snd mapping) ub_new).

  (** subsumption.rs 14-27 ([conj] = true), 35-48 ([conj] = false); [precedence() >= LIT_PRECEDENCE] holds of constants and
      literals, constraints and the other operators are not in normal form *)
  Definition subsumption (conj : bool) (fuel : nat) (h : N) : M N :=
    b <-- (if conj then lift (fun s => is_cnf s h) else is_dnf h) ;;
    if negb b then fail else
    n <-- unpackM h ;;
    let go (ops : list N) :=
      t <-- subsumed_ubtree fuel ops ;;
      sets <-- lift (fun _ => all_sets lit_ltb lit_eqb t) ;;
      clauses <-- mmap (fun ls => f_nary (negb conj) (map encode_lit ls)) sets ;;
      f_nary conj clauses in
    match n with
    | NTrue | NFalse | NLit _ => ret h
    | NOr ops => if conj then ret h else go ops
    | NAnd ops => if conj then go ops else ret h
    | _ => fail
    end.
End Subsumption.
