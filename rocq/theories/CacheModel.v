(** Model of the operations that read or fill the operation caches of the factory and do not build formulas: the predicates of
    src/operations/predicates and the functions of src/operations/functions.

    A lookup of a cache that is switched off finds nothing, because nothing was inserted; the code looks it up nevertheless,
    and so does the model. *)
From Coq Require Import NArith ZArith List Bool.
From Verif Require Import Base EncodingModel Syntax FactoryModel ConstraintModel.
Import ListNotations.
Local Open Scope N_scope.

(* ------------------------------------------------------------------------------------------------------------------ *)
(** * Access to the caches *)

Definition set_atoms (c : op_caches) x : op_caches := mkOpCaches x (oc_nodes c) (oc_depth c) (oc_vars c) (oc_lits c)
  (oc_sub c) (oc_ccenc c) (oc_pbcenc c) (oc_nnf c) (oc_dnf c) (oc_cnf c) (oc_sat c) (oc_is_nnf c) (oc_is_dnf c) (oc_is_cnf
  c) (oc_contains_pbc c) (oc_bb c).
Definition set_nodes (c : op_caches) x : op_caches := mkOpCaches (oc_atoms c) x (oc_depth c) (oc_vars c) (oc_lits c)
  (oc_sub c) (oc_ccenc c) (oc_pbcenc c) (oc_nnf c) (oc_dnf c) (oc_cnf c) (oc_sat c) (oc_is_nnf c) (oc_is_dnf c) (oc_is_cnf
  c) (oc_contains_pbc c) (oc_bb c).
Definition set_depth (c : op_caches) x : op_caches := mkOpCaches (oc_atoms c) (oc_nodes c) x (oc_vars c) (oc_lits c)
  (oc_sub c) (oc_ccenc c) (oc_pbcenc c) (oc_nnf c) (oc_dnf c) (oc_cnf c) (oc_sat c) (oc_is_nnf c) (oc_is_dnf c) (oc_is_cnf
  c) (oc_contains_pbc c) (oc_bb c).
Definition set_variables (c : op_caches) x : op_caches := mkOpCaches (oc_atoms c) (oc_nodes c) (oc_depth c) x (oc_lits c)
  (oc_sub c) (oc_ccenc c) (oc_pbcenc c) (oc_nnf c) (oc_dnf c) (oc_cnf c) (oc_sat c) (oc_is_nnf c) (oc_is_dnf c) (oc_is_cnf
  c) (oc_contains_pbc c) (oc_bb c).
Definition set_lits (c : op_caches) x : op_caches := mkOpCaches (oc_atoms c) (oc_nodes c) (oc_depth c) (oc_vars c) x
  (oc_sub c) (oc_ccenc c) (oc_pbcenc c) (oc_nnf c) (oc_dnf c) (oc_cnf c) (oc_sat c) (oc_is_nnf c) (oc_is_dnf c) (oc_is_cnf
  c) (oc_contains_pbc c) (oc_bb c).
Definition set_sub (c : op_caches) x : op_caches := mkOpCaches (oc_atoms c) (oc_nodes c) (oc_depth c) (oc_vars c) (oc_lits
  c) x (oc_ccenc c) (oc_pbcenc c) (oc_nnf c) (oc_dnf c) (oc_cnf c) (oc_sat c) (oc_is_nnf c) (oc_is_dnf c) (oc_is_cnf c)
  (oc_contains_pbc c) (oc_bb c).
Definition set_ccenc (c : op_caches) x : op_caches := mkOpCaches (oc_atoms c) (oc_nodes c) (oc_depth c) (oc_vars c)
  (oc_lits c) (oc_sub c) x (oc_pbcenc c) (oc_nnf c) (oc_dnf c) (oc_cnf c) (oc_sat c) (oc_is_nnf c) (oc_is_dnf c) (oc_is_cnf
  c) (oc_contains_pbc c) (oc_bb c).
Definition set_pbcenc (c : op_caches) x : op_caches := mkOpCaches (oc_atoms c) (oc_nodes c) (oc_depth c) (oc_vars c)
  (oc_lits c) (oc_sub c) (oc_ccenc c) x (oc_nnf c) (oc_dnf c) (oc_cnf c) (oc_sat c) (oc_is_nnf c) (oc_is_dnf c) (oc_is_cnf
  c) (oc_contains_pbc c) (oc_bb c).
Definition set_nnf (c : op_caches) x : op_caches := mkOpCaches (oc_atoms c) (oc_nodes c) (oc_depth c) (oc_vars c) (oc_lits
  c) (oc_sub c) (oc_ccenc c) (oc_pbcenc c) x (oc_dnf c) (oc_cnf c) (oc_sat c) (oc_is_nnf c) (oc_is_dnf c) (oc_is_cnf c)
  (oc_contains_pbc c) (oc_bb c).
Definition set_dnf (c : op_caches) x : op_caches := mkOpCaches (oc_atoms c) (oc_nodes c) (oc_depth c) (oc_vars c) (oc_lits
  c) (oc_sub c) (oc_ccenc c) (oc_pbcenc c) (oc_nnf c) x (oc_cnf c) (oc_sat c) (oc_is_nnf c) (oc_is_dnf c) (oc_is_cnf c)
  (oc_contains_pbc c) (oc_bb c).
Definition set_cnf (c : op_caches) x : op_caches := mkOpCaches (oc_atoms c) (oc_nodes c) (oc_depth c) (oc_vars c) (oc_lits
  c) (oc_sub c) (oc_ccenc c) (oc_pbcenc c) (oc_nnf c) (oc_dnf c) x (oc_sat c) (oc_is_nnf c) (oc_is_dnf c) (oc_is_cnf c)
  (oc_contains_pbc c) (oc_bb c).
Definition set_is_nnf (c : op_caches) x : op_caches := mkOpCaches (oc_atoms c) (oc_nodes c) (oc_depth c) (oc_vars c)
  (oc_lits c) (oc_sub c) (oc_ccenc c) (oc_pbcenc c) (oc_nnf c) (oc_dnf c) (oc_cnf c) (oc_sat c) x (oc_is_dnf c) (oc_is_cnf
  c) (oc_contains_pbc c) (oc_bb c).
Definition set_is_dnf (c : op_caches) x : op_caches := mkOpCaches (oc_atoms c) (oc_nodes c) (oc_depth c) (oc_vars c)
  (oc_lits c) (oc_sub c) (oc_ccenc c) (oc_pbcenc c) (oc_nnf c) (oc_dnf c) (oc_cnf c) (oc_sat c) (oc_is_nnf c) x (oc_is_cnf
  c) (oc_contains_pbc c) (oc_bb c).
Definition set_contains_pbc (c : op_caches) x : op_caches := mkOpCaches (oc_atoms c) (oc_nodes c) (oc_depth c) (oc_vars c)
  (oc_lits c) (oc_sub c) (oc_ccenc c) (oc_pbcenc c) (oc_nnf c) (oc_dnf c) (oc_cnf c) (oc_sat c) (oc_is_nnf c) (oc_is_dnf c)
  (oc_is_cnf c) x (oc_bb c).

(** [f.caches.X.get(formula)]. *)
Definition cache_get {V} (sel : op_caches -> list (N * V)) (h : N) : M (option V) :=
  lift (fun s => Ok (oc_get h (sel (f_caches s)))).
(** [if f.config.caches.X { f.caches.X.insert(formula, value) }]. *)
Definition cache_put (on : cache_config -> bool) (g : op_caches -> op_caches) : M unit :=
  modf (fun s => if on (cfg_caches (f_config s)) then with_caches s (g (f_caches s)) else s).

Definition put_atoms (h n : N) : M unit := cache_put on_atoms (fun c => set_atoms c (oc_insert h n (oc_atoms c))).
Definition put_nodes (h n : N) : M unit := cache_put on_nodes (fun c => set_nodes c (oc_insert h n (oc_nodes c))).
Definition put_depth (h n : N) : M unit := cache_put on_depth (fun c => set_depth c (oc_insert h n (oc_depth c))).
Definition put_vars (h : N) (l : list var) : M unit := cache_put on_vars (fun c => set_variables c (oc_insert h l (oc_vars c))).
Definition put_lits (h : N) (l : list lit) : M unit := cache_put on_lits (fun c => set_lits c (oc_insert h l (oc_lits c))).
Definition put_sub (h : N) (l : list N) : M unit := cache_put on_sub (fun c => set_sub c (oc_insert h l (oc_sub c))).
Definition put_ccenc (h : N) (l : list N) : M unit := cache_put on_ccenc (fun c => set_ccenc c (oc_insert h l (oc_ccenc c))).
Definition put_pbcenc (h : N) (l : list N) : M unit := cache_put on_pbcenc (fun c => set_pbcenc c (oc_insert h l (oc_pbcenc c))).
Definition put_nnf (h r : N) : M unit := cache_put on_nnf (fun c => set_nnf c (oc_insert h r (oc_nnf c))).
Definition put_dnf (h r : N) : M unit := cache_put on_dnf (fun c => set_dnf c (oc_insert h r (oc_dnf c))).
Definition put_cnf (h r : N) : M unit := cache_put on_cnf (fun c => set_cnf c (oc_insert h r (oc_cnf c))).
Definition put_is_nnf (h : N) (b : bool) : M unit := cache_put on_is_nnf (fun c => set_is_nnf c (oc_insert h b (oc_is_nnf c))).
Definition put_is_dnf (h : N) (b : bool) : M unit := cache_put on_is_dnf (fun c => set_is_dnf c (oc_insert h b (oc_is_dnf c))).
Definition put_contains_pbc (h : N) (b : bool) : M unit :=
  cache_put on_contains_pbc (fun c => set_contains_pbc c (oc_insert h b (oc_contains_pbc c))).

Definition unpackM (h : N) : M node := lift (fun s => unpack s h).
Definition operandsM (h : N) : M (list N) := lift (fun s => operands s h).

(** [for op in ops { result = k(op, result) }]. *)
Fixpoint mfold {A B} (k : A -> B -> M B) (l : list A) (b : B) : M B :=
  match l with
  | [] => ret b
  | x :: r => b' <-- k x b ;; mfold k r b'
  end.
(** [Iterator::all] with an effectful test, short-circuiting. *)
Fixpoint mall (k : N -> M bool) (l : list N) : M bool :=
  match l with
  | [] => ret true
  | x :: r => b <-- k x ;; if b then mall k r else ret false
  end.

(* ------------------------------------------------------------------------------------------------------------------ *)
(** * Predicates *)

(** predicates/nnf.rs 27-41, [is_nnf]; [fuel] bounds the recursion depth. *)
Fixpoint is_nnf (fuel : nat) (h : N) : M bool :=
  match fuel with
  | O => nofuel
  | S fuel' =>
      cached <-- cache_get oc_is_nnf h ;;
      match cached with
      | Some b => ret b
      | None =>
          n <-- unpackM h ;;
          r <-- match n with
                | NLit _ | NTrue | NFalse => ret true
                | NPbc _ | NCc _ | NEquiv _ _ | NImpl _ _ | NNot _ => ret false
                | NOr ops | NAnd ops => mall (is_nnf fuel') ops
                end ;;
          put_is_nnf h r ;;; ret r
      end
  end.

(** predicates/term.rs 49-55, [is_maxterm] (and 24-26, [is_clause]); 78-84, [is_minterm]. *)
Definition is_maxterm (s : factory) (h : N) : res bool :=
  rbind (unpack s h) (fun n => Ok match n with NFalse | NTrue | NLit _ => true | NOr ops => forallb is_literal ops | _ => false end).
Definition is_minterm (s : factory) (h : N) : res bool :=
  rbind (unpack s h) (fun n => Ok match n with NFalse | NTrue | NLit _ => true | NAnd ops => forallb is_literal ops | _ => false end).

(** predicates/dnf.rs 29-44, [is_dnf]. *)
Definition is_dnf (h : N) : M bool :=
  cached <-- cache_get oc_is_dnf h ;;
  match cached with
  | Some b => ret b
  | None =>
      n <-- unpackM h ;;
      r <-- match n with
            | NLit _ | NTrue | NFalse => ret true
            | NPbc _ | NCc _ | NEquiv _ _ | NImpl _ _ | NNot _ => ret false
            | NAnd ops => ret (forallb is_literal ops)
            | NOr ops => lift (fun s => res_all (is_minterm s) ops)
            end ;;
      put_is_dnf h r ;;; ret r
  end.

(** The operands pushed by [if seen.insert(op) { stack.push(op) }]; the head of [stack] is the top. *)
Fixpoint push_new (ops stack seen : list N) : list N * list N :=
  match ops with
  | [] => (stack, seen)
  | op :: r => if memN op seen then push_new r stack seen else push_new r (op :: stack) (seen ++ [op])
  end.

(** The search loops of contains_pbc.rs 33-61, contains.rs 31-51 and 83-105: [test] decides a node, [None] means that its
    operands are to be searched.  [fuel] bounds the number of iterations. *)
Fixpoint search (test : N -> M (option bool)) (fuel : nat) (stack seen : list N) : M bool :=
  match stack with
  | [] => ret false
  | current :: stack' =>
      match fuel with
      | O => nofuel
      | S fuel' =>
          t <-- test current ;;
          match t with
          | Some true => ret true
          | Some false => search test fuel' stack' seen
          | None =>
              ops <-- operandsM current ;;
              let '(stack2, seen2) := push_new ops stack' seen in search test fuel' stack2 seen2
          end
      end
  end.

(** contains_pbc.rs 34-51. *)
Definition test_pbc (h : N) : M (option bool) :=
  cached <-- cache_get oc_contains_pbc h ;;
  match cached with
  | Some b => ret (Some b)
  | None =>
      ty <-- lift (fun _ => ftype h) ;;
      ret match ty with
          | TPbc | TCc => Some true
          | TLit _ | TTrue | TFalse => Some false
          | TEquiv | TImpl | TNot | TOr | TAnd => None
          end
  end.
(** contains_pbc.rs 27-62, [contains_pbc]: only a positive answer is stored. *)
Definition contains_pbc (fuel : nat) (h : N) : M bool :=
  r <-- search test_pbc fuel [h] [h] ;;
  if r then put_contains_pbc h true ;;; ret true else ret false.

(** contains.rs 33-45; the comparison of names is a comparison of variables (names are unique, C07). *)
Definition test_var (v : var) (h : N) : M (option bool) :=
  n <-- unpackM h ;;
  ret match n with
      | NLit l => Some (var_eqb (lit_var l) v)
      | NCc c => Some (existsb (fun w => var_eqb w v) (cc_vars c))
      | NPbc p => Some (existsb (fun l => var_eqb (lit_var l) v) (pb_lits p))
      | _ => None
      end.
(** contains.rs 25-52, [contains_var_name]. *)
Definition contains_var (fuel : nat) (v : var) (h : N) : M bool := search (test_var v) fuel [h] [h].

(** contains.rs 84-99. *)
Definition test_node (node h : N) : M (option bool) :=
  if h =? node then ret (Some true)
  else
    n <-- unpackM h ;;
    ret match n with
        | NCc c => Some (existsb (fun v => encode_lit (Lit v true) =? node) (cc_vars c))
        | NPbc p => Some (existsb (fun l => (encode_lit l =? node) || (encode_lit (Lit (lit_var l) true) =? node)) (pb_lits p))
        | _ => None
        end.
(** contains.rs 75-106, [contains_node]. *)
Definition contains_node (fuel : nat) (node h : N) : M bool := search (test_node node) fuel [h] [h].

(* ------------------------------------------------------------------------------------------------------------------ *)
(** * Functions *)

(** formula.rs 444-446, [is_atomic]. *)
Definition is_atomic (h : N) : bool :=
  is_literal h || is_constant h || match formula_type_of h with Some TCc | Some TPbc => true | _ => false end.

(** formula_depth_function.rs 34-52, [formula_depth]. *)
Fixpoint formula_depth (fuel : nat) (h : N) : M N :=
  match fuel with
  | O => nofuel
  | S fuel' =>
      cached <-- cache_get oc_depth h ;;
      match cached with
      | Some d => ret d
      | None =>
          r <-- (if is_atomic h then ret 0
                 else
                   ops <-- operandsM h ;;
                   m <-- mfold (fun op (m : option N) =>
                           d <-- formula_depth fuel' op ;;
                           ret (Some match m with Some m => N.max m d | None => d end)) ops None ;;
                   match m with Some m => ret (1 + m) | None => fail end) ;;
          put_depth h r ;;; ret r
      end
  end.

(** A [u64] addition (release build). *)
Definition add64 (a b : N) : N := (a + b) mod 18446744073709551616.

(** sub_node_function.rs 110-122, [number_of_atoms]. *)
Fixpoint number_of_atoms (fuel : nat) (h : N) : M N :=
  match fuel with
  | O => nofuel
  | S fuel' =>
      if is_atomic h then ret 1
      else
        cached <-- cache_get oc_atoms h ;;
        match cached with
        | Some n => ret n
        | None =>
            ops <-- operandsM h ;;
            r <-- mfold (fun op acc => n <-- number_of_atoms fuel' op ;; ret (add64 acc n)) ops 0 ;;
            put_atoms h r ;;; ret r
        end
  end.

(** sub_node_function.rs 187-205, [number_of_nodes]; the cache stores the number without the node itself. *)
Fixpoint number_of_nodes (fuel : nat) (h : N) : M N :=
  match fuel with
  | O => nofuel
  | S fuel' =>
      if is_constant h || is_literal h then ret (add64 1 0)
      else
        cached <-- cache_get oc_nodes h ;;
        match cached with
        | Some n => ret (add64 1 n)
        | None =>
            n <-- unpackM h ;;
            r <-- match n with
                  | NCc c => ret (lenN (cc_vars c) mod 18446744073709551616)
                  | NPbc p => ret (lenN (pb_lits p) mod 18446744073709551616)
                  | _ => mfold (fun op acc => k <-- number_of_nodes fuel' op ;; ret (add64 acc k)) (node_operands n) 0
                  end ;;
            put_nodes h r ;;; ret (add64 1 r)
        end
  end.

(** sub_node_function.rs 237-245, [number_of_operands]. *)
Definition number_of_operands (h : N) : M N :=
  n <-- unpackM h ;;
  ret match n with
      | NEquiv _ _ | NImpl _ _ => 2
      | NNot _ => 1
      | NOr ops | NAnd ops => lenN ops
      | _ => 0
      end.

(** literal.rs 54-60, derived [Ord]: positive literals first. *)
Definition lit_ltb (a b : lit) : bool :=
  match lit_phase a, lit_phase b with
  | true, false => true
  | false, true => false
  | _, _ => var_ltb (lit_var a) (lit_var b)
  end.

(** [BTreeSet::insert] and [extend] on increasing lists. *)
Fixpoint ins {A} (ltb eqb : A -> A -> bool) (x : A) (l : list A) : list A :=
  match l with
  | [] => [x]
  | y :: r => if ltb x y then x :: l else if eqb x y then l else y :: ins ltb eqb x r
  end.
Definition ins_all {A} (ltb eqb : A -> A -> bool) (xs l : list A) : list A := fold_left (fun l x => ins ltb eqb x l) xs l.
Definition add_vars : list var -> list var -> list var := ins_all var_ltb var_eqb.
Definition add_lits : list lit -> list lit -> list lit := ins_all lit_ltb lit_eqb.

(** literals.rs 116-139, [variables]. *)
Fixpoint variables (fuel : nat) (h : N) : M (list var) :=
  match fuel with
  | O => nofuel
  | S fuel' =>
      cached <-- cache_get oc_vars h ;;
      match cached with
      | Some vs => ret vs
      | None =>
          n <-- unpackM h ;;
          r <-- match n with
                | NTrue | NFalse => ret []
                | NLit l => ret (add_vars [lit_var l] [])
                | NCc c => ret (add_vars (cc_vars c) [])
                | NPbc p => ret (add_vars (map lit_var (pb_lits p)) [])
                | _ => mfold (fun op acc => vs <-- variables fuel' op ;; ret (add_vars vs acc)) (node_operands n) []
                end ;;
          put_vars h r ;;; ret r
      end
  end.

(** literals.rs 188-213, [literals]. *)
Fixpoint literals (fuel : nat) (h : N) : M (list lit) :=
  match fuel with
  | O => nofuel
  | S fuel' =>
      cached <-- cache_get oc_lits h ;;
      match cached with
      | Some vs => ret vs
      | None =>
          n <-- unpackM h ;;
          r <-- match n with
                | NTrue | NFalse => ret []
                | NLit l => ret (add_lits [l] [])
                | NCc c => ret (add_lits (pos_lits (cc_vars c)) [])
                | NPbc p => ret (add_lits (pb_lits p) [])
                | _ => mfold (fun op acc => ls <-- literals fuel' op ;; ret (add_lits ls acc)) (node_operands n) []
                end ;;
          put_lits h r ;;; ret r
      end
  end.

(** literals.rs 84-94, [literals_for_clause_or_term]. *)
Definition literal_of (s : factory) (h : N) : res lit :=
  rbind (unpack s h) (fun n => match n with NLit l => Ok l | _ => Panic end).
Fixpoint res_map {A B} (f : A -> res B) (l : list A) : res (list B) :=
  match l with
  | [] => Ok []
  | x :: r => rbind (f x) (fun y => rbind (res_map f r) (fun ys => Ok (y :: ys)))
  end.
Definition literals_for_clause_or_term (s : factory) (h : N) : res (list lit) :=
  rbind (unpack s h) (fun n =>
  match n with
  | NOr ops | NAnd ops => res_map (literal_of s) ops
  | NLit l => Ok [l]
  | NTrue | NFalse => Ok []
  | _ => Panic
  end).

(** sub_node_function.rs 70-75: the new elements of [subs]; the set [result_set] has the elements of [result]. *)
Definition add_new (subs result : list N) : list N := fold_left (fun r s => if memN s r then r else r ++ [s]) subs result.

(** sub_node_function.rs 51-86, [sub_nodes_cached]; [lc] is the local cache, used if the global one is switched off. *)
Fixpoint sub_nodes_cached (fuel : nat) (h : N) (lc : option (list (N * list N))) : M (list N * option (list (N * list N))) :=
  match fuel with
  | O => nofuel
  | S fuel' =>
      match match lc with Some m => oc_get h m | None => None end with
      | Some v => ret (v, lc)
      | None =>
          cached <-- cache_get oc_sub h ;;
          match cached with
          | Some v => ret (v, lc)
          | None =>
              ops <-- operandsM h ;;
              p <-- mfold (fun op (p : list N * option (list (N * list N))) =>
                      if memN h (fst p) then ret p
                      else q <-- sub_nodes_cached fuel' op (snd p) ;; ret (add_new (fst q) (fst p), snd q)) ops ([], lc) ;;
              let r := fst p ++ [h] in
              on <-- lift (fun s => Ok (on_sub (cfg_caches (f_config s)))) ;;
              if on then put_sub h r ;;; ret (r, snd p)
              else match snd p with Some m => ret (r, Some (oc_insert h r m)) | None => fail end
          end
      end
  end.

(** sub_node_function.rs 43-49, [sub_nodes]. *)
Definition sub_nodes (fuel : nat) (h : N) : M (list N) :=
  on <-- lift (fun s => Ok (on_sub (cfg_caches (f_config s)))) ;;
  p <-- sub_nodes_cached fuel h (if on then None else Some []) ;;
  ret (fst p).

(** sub_node_function.rs 154-156, [number_of_internal_nodes]. *)
Definition number_of_internal_nodes (fuel : nat) (h : N) : M N := l <-- sub_nodes fuel h ;; ret (lenN l).

(** variable_profile_function.rs 26-45, [variable_profile]; the hash map is an ordered list of pairs. *)
Definition count_var (v : var) (m : list (var * N)) : list (var * N) := vm_update v 0 (fun n => n + 1) m.
Fixpoint variable_profile_rec (fuel : nat) (h : N) (m : list (var * N)) : M (list (var * N)) :=
  match fuel with
  | O => nofuel
  | S fuel' =>
      n <-- unpackM h ;;
      match n with
      | NLit l => ret (count_var (lit_var l) m)
      | NCc c => ret (fold_left (fun m v => count_var v m) (cc_vars c) m)
      | NPbc p => ret (fold_left (fun m l => count_var (lit_var l) m) (pb_lits p) m)
      | _ => mfold (variable_profile_rec fuel') (node_operands n) m
      end
  end.
Definition variable_profile (fuel : nat) (h : N) : M (list (var * N)) := variable_profile_rec fuel h [].
