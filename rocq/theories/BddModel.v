(** Model of the BDD package: src/knowledge_compilation/bdd/{bdd_kernel,bdd_cache,bdd_construction,bdd_operations,bdd_main,
    bdd_model_enumeration,bdd_normalform}.rs.

    Simplifications.
    - [usize] is [nat] (levels, node numbers) without overflow; reference counters, the quantification id and hashes are [N]
      with the fixed widths of the code where they matter.
    - The mark bit [MARKON] (bit 21 of [level]) is a separate Boolean field.  [new_with_num_vars] asserts that levels are at
      most [MAXVAR], i.e. that bit 21 is not used by a level.
    - [nodesize] is the length of the node vector (they are changed together, bdd_kernel.rs 118/144, 519-531).
    - [level2var] is the identity: the constructor fills it so (163, 169) and nothing else writes it.  [var2level] is never read.
    - [itecache], [appexcache] and [replacecache] are never used and left out.
    - The reference stack is the list of its live part, top first; [k_cap] is the length of the vector, pushing beyond it
      panics.
    - [prime_lte] uses a randomised primality test: its outcome is an arbitrary function [k_prime] of the number of
      collections done so far and the requested bound.  The sizes computed with [prime_gte] are parameters of the
      constructor. *)
From Coq Require Import NArith ZArith Arith List Bool Lia.
From Verif Require Import Base EncodingModel Syntax AssignmentModel.
Import ListNotations.
Local Open Scope res_scope.

(** bdd_kernel.rs 24-32, [Node]. *)
Record node := mkNode {
  n_ref : N; n_level : nat; n_mark : bool; n_low : option nat; n_high : nat; n_hash : nat; n_next : nat }.

(** bdd_cache.rs 5-12, [BddCacheEntry]. *)
Record centry := mkEntry { e_a : option nat; e_b : nat; e_c : nat; e_bdres : N; e_res : nat }.

(** bdd_kernel.rs 77-107, [BddKernel].  [k_names]: the variable of index [i] is the [i]-th element ([var2idx], [idx2var]). *)
Record kernel := mkKernel {
  k_names : list var; k_nodes : list node; k_vars : list nat; k_freepos : nat; k_freenum : nat; k_produced : nat;
  k_gbcnum : nat; k_varnum : nat; k_stack : list nat; k_cap : nat; k_qset : list Z; k_qid : N; k_qlast : nat;
  k_apply : list centry; k_quant : list centry; k_misc : list centry; k_prime : nat -> N -> nat }.

(** bdd_kernel.rs 14, [MAXREF]. *)
Definition MAXREF : N := 1023.

(* ------------------------------------------------------------------------------------------------------------------ *)
(** * Vectors *)

Fixpoint updn {A} (n : nat) (f : A -> A) (l : list A) : list A :=
  match l, n with
  | [], _ => []
  | x :: r, O => f x :: r
  | x :: r, S m => x :: updn m f r
  end.

(** Index access; out of bounds is a panic. *)
Definition getn {A} (l : list A) (n : nat) : res A := of_opt (nth_error l n).
Definition putn {A} (l : list A) (n : nat) (f : A -> A) : res (list A) :=
  if n <? length l then Ok (updn n f l) else Panic.

Fixpoint rfold {A B} (f : B -> A -> res B) (b : B) (l : list A) : res B :=
  match l with
  | [] => Ok b
  | x :: r => do b' <- f b x; rfold f b' r
  end.

(** bdd_kernel.rs 377-399, the setters of node fields. *)
Definition w_ref (x : N) (n : node) := mkNode x (n_level n) (n_mark n) (n_low n) (n_high n) (n_hash n) (n_next n).
Definition w_level (x : nat) (n : node) := mkNode (n_ref n) x (n_mark n) (n_low n) (n_high n) (n_hash n) (n_next n).
Definition w_mark (x : bool) (n : node) := mkNode (n_ref n) (n_level n) x (n_low n) (n_high n) (n_hash n) (n_next n).
Definition w_low (x : option nat) (n : node) := mkNode (n_ref n) (n_level n) (n_mark n) x (n_high n) (n_hash n) (n_next n).
Definition w_high (x : nat) (n : node) := mkNode (n_ref n) (n_level n) (n_mark n) (n_low n) x (n_hash n) (n_next n).
Definition w_hash (x : nat) (n : node) := mkNode (n_ref n) (n_level n) (n_mark n) (n_low n) (n_high n) x (n_next n).
Definition w_next (x : nat) (n : node) := mkNode (n_ref n) (n_level n) (n_mark n) (n_low n) (n_high n) (n_hash n) x.

Definition fresh_node (n : nat) : node := mkNode 0 0 false None 0 0 (S n).

(** Setters of kernel fields. *)
Definition s_nodes (ns : list node) (k : kernel) :=
  mkKernel (k_names k) ns (k_vars k) (k_freepos k) (k_freenum k) (k_produced k) (k_gbcnum k) (k_varnum k) (k_stack k) (k_cap k)
           (k_qset k) (k_qid k) (k_qlast k) (k_apply k) (k_quant k) (k_misc k) (k_prime k).
Definition s_table (ns : list node) (fp fn : nat) (k : kernel) :=
  mkKernel (k_names k) ns (k_vars k) fp fn (k_produced k) (k_gbcnum k) (k_varnum k) (k_stack k) (k_cap k)
           (k_qset k) (k_qid k) (k_qlast k) (k_apply k) (k_quant k) (k_misc k) (k_prime k).
Definition s_names (x : list var) (k : kernel) :=
  mkKernel x (k_nodes k) (k_vars k) (k_freepos k) (k_freenum k) (k_produced k) (k_gbcnum k) (k_varnum k) (k_stack k) (k_cap k)
           (k_qset k) (k_qid k) (k_qlast k) (k_apply k) (k_quant k) (k_misc k) (k_prime k).
Definition s_vars (x : list nat) (vn : nat) (k : kernel) :=
  mkKernel (k_names k) (k_nodes k) x (k_freepos k) (k_freenum k) (k_produced k) (k_gbcnum k) vn (k_stack k) (k_cap k)
           (k_qset k) (k_qid k) (k_qlast k) (k_apply k) (k_quant k) (k_misc k) (k_prime k).
Definition s_stack (x : list nat) (k : kernel) :=
  mkKernel (k_names k) (k_nodes k) (k_vars k) (k_freepos k) (k_freenum k) (k_produced k) (k_gbcnum k) (k_varnum k) x (k_cap k)
           (k_qset k) (k_qid k) (k_qlast k) (k_apply k) (k_quant k) (k_misc k) (k_prime k).
Definition s_qset (x : list Z) (i : N) (l : nat) (k : kernel) :=
  mkKernel (k_names k) (k_nodes k) (k_vars k) (k_freepos k) (k_freenum k) (k_produced k) (k_gbcnum k) (k_varnum k) (k_stack k)
           (k_cap k) x i l (k_apply k) (k_quant k) (k_misc k) (k_prime k).
Definition s_apply (x : list centry) (k : kernel) :=
  mkKernel (k_names k) (k_nodes k) (k_vars k) (k_freepos k) (k_freenum k) (k_produced k) (k_gbcnum k) (k_varnum k) (k_stack k)
           (k_cap k) (k_qset k) (k_qid k) (k_qlast k) x (k_quant k) (k_misc k) (k_prime k).
Definition s_quant (x : list centry) (k : kernel) :=
  mkKernel (k_names k) (k_nodes k) (k_vars k) (k_freepos k) (k_freenum k) (k_produced k) (k_gbcnum k) (k_varnum k) (k_stack k)
           (k_cap k) (k_qset k) (k_qid k) (k_qlast k) (k_apply k) x (k_misc k) (k_prime k).
Definition s_misc (x : list centry) (k : kernel) :=
  mkKernel (k_names k) (k_nodes k) (k_vars k) (k_freepos k) (k_freenum k) (k_produced k) (k_gbcnum k) (k_varnum k) (k_stack k)
           (k_cap k) (k_qset k) (k_qid k) (k_qlast k) (k_apply k) (k_quant k) x (k_prime k).
Definition s_counts (p g : nat) (k : kernel) :=
  mkKernel (k_names k) (k_nodes k) (k_vars k) (k_freepos k) (k_freenum k) p g (k_varnum k) (k_stack k)
           (k_cap k) (k_qset k) (k_qid k) (k_qlast k) (k_apply k) (k_quant k) (k_misc k) (k_prime k).

(* ------------------------------------------------------------------------------------------------------------------ *)
(** * Hashes *)

Definition wrap64 (n : N) : N := (n mod 18446744073709551616)%N.

(** bdd_kernel.rs 583-585. *)
Definition pair (a b : N) : N :=
  let s := wrap64 (a + b) in wrap64 (wrap64 (s * wrap64 (s + 1)) / 2 + a)%N.

(** 587-589. *)
Definition triple (a b c : N) : N := pair c (pair a b).

(** 462-464. *)
Definition nodehash (size : nat) (lvl l h : nat) : nat :=
  N.to_nat (triple (N.of_nat lvl) (N.of_nat l) (N.of_nat h) mod N.of_nat size)%N.

(* ------------------------------------------------------------------------------------------------------------------ *)
(** * Caches (bdd_cache.rs) *)

Definition empty_entry : centry := mkEntry None 0 0 0 0.

(** 42-53: the entry a hash refers to. *)
Definition cget (c : list centry) (h : N) : res centry := getn c (N.to_nat (h mod lenN c)%N).

(** 55-62. *)
Definition cset_res (c : list centry) (h : N) (a b x : nat) (r : nat) : res (list centry) :=
  putn c (N.to_nat (h mod lenN c)%N) (fun e => mkEntry (Some a) b x (e_bdres e) r).

(** 64-71. *)
Definition cset_bdres (c : list centry) (h : N) (a b x : nat) (r : N) : res (list centry) :=
  putn c (N.to_nat (h mod lenN c)%N) (fun e => mkEntry (Some a) b x r (e_res e)).

(** 14-21, 36-40. *)
Definition creset (c : list centry) : list centry := map (fun e => mkEntry None 0 0 (e_bdres e) 0) c.

Definition optnat_eqb (a : option nat) (b : nat) : bool := match a with Some x => x =? b | None => false end.

(* ------------------------------------------------------------------------------------------------------------------ *)
(** * The node table (bdd_kernel.rs) *)

(** 238-248, [mark]; the model works on the node vector.  The recursion is bounded by the number of unmarked nodes. *)
Fixpoint mark (fuel : nat) (ns : list node) (i : nat) : res (list node) :=
  match fuel with
  | O => NoFuel
  | S fuel =>
      if i <? 2 then Ok ns
      else
        do nd <- getn ns i;
        match n_low nd with
        | None => Ok ns
        | Some lo =>
            if n_mark nd then Ok ns
            else
              do ns1 <- putn ns i (w_mark true);
              do ns2 <- mark fuel ns1 lo;
              do nd2 <- getn ns2 i;
              mark fuel ns2 (n_high nd2)
        end
  end.

(** 226-236, [unmark]. *)
Fixpoint unmark (fuel : nat) (ns : list node) (i : nat) : res (list node) :=
  match fuel with
  | O => NoFuel
  | S fuel =>
      if i <? 2 then Ok ns
      else
        do nd <- getn ns i;
        match n_low nd with
        | None => Ok ns
        | Some lo =>
            if n_mark nd then
              do ns1 <- putn ns i (w_mark false);
              do ns2 <- unmark fuel ns1 lo;
              do nd2 <- getn ns2 i;
              unmark fuel ns2 (n_high nd2)
            else Ok ns
        end
  end.

(** 483-484 and 550-551: put node [n] in front of the chain of its hash value. *)
Definition link (ns : list node) (n h : nat) : res (list node) :=
  do hd <- getn ns h;
  do ns1 <- putn ns n (w_next (n_hash hd));
  putn ns1 h (w_hash n).

(** 470-475: the loop of [gbc] over all nodes; marks the referenced ones and clears the hash table. *)
Definition gbc_root (ns : list node) (n : nat) : res (list node) :=
  do nd <- getn ns n;
  do ns1 <- (if (0 <? n_ref nd)%N then mark (S (length ns)) ns n else Ok ns);
  putn ns1 n (w_hash 0).

(** 479-491: one step of the sweep; the state is the node vector, [freepos] and [freenum]. *)
Definition sweep (st : list node * nat * nat) (n : nat) : res (list node * nat * nat) :=
  let '(ns, fp, fn) := st in
  do nd <- getn ns n;
  match n_low nd with
  | Some lo =>
      if n_mark nd then
        do ns1 <- putn ns n (w_mark false);
        do ns2 <- link ns1 n (nodehash (length ns) (n_level nd) lo (n_high nd));
        Ok (ns2, fp, fn)
      else
        do ns1 <- putn ns n (fun x => w_next fp (w_low None x));
        Ok (ns1, n, S fn)
  | None =>
      do ns1 <- putn ns n (fun x => w_next fp (w_low None x));
      Ok (ns1, n, S fn)
  end.

(** The node numbers 2, ..., size - 1 in descending order: [(2..nodesize).rev()]. *)
Definition down (size : nat) : list nat := rev (seq 2 (size - 2)).

(** 466-503, [gbc] and [reset_caches]. *)
Definition gbc (k : kernel) : res kernel :=
  let ns := k_nodes k in
  do ns1 <- rfold (mark (S (length ns))) ns (rev (k_stack k));
  do ns2 <- rfold gbc_root ns1 (seq 0 (length ns));
  do ' (ns3, fp, fn) <- rfold sweep (ns2, 0, 0) (down (length ns));
  Ok (s_counts (k_produced k) (S (k_gbcnum k))
       (s_misc (creset (k_misc k)) (s_quant (creset (k_quant k)) (s_apply (creset (k_apply k)) (s_table ns3 fp fn k))))).

(** 543-553: one step of [gbc_rehash]. *)
Definition rehash (st : list node * nat * nat) (n : nat) : res (list node * nat * nat) :=
  let '(ns, fp, fn) := st in
  do nd <- getn ns n;
  match n_low nd with
  | None =>
      do ns1 <- putn ns n (w_next fp);
      Ok (ns1, n, S fn)
  | Some lo =>
      do ns1 <- link ns n (nodehash (length ns) (n_level nd) lo (n_high nd));
      Ok (ns1, fp, fn)
  end.

(** 517-554, [node_resize] (only ever called with [do_rehash = true]) and [gbc_rehash].  If [prime_lte] does not return more
    than the old size, [nodesize - oldsize] or the accesses beyond the vector panic. *)
Definition node_resize (k : kernel) : res kernel :=
  let ns := k_nodes k in
  let old := length ns in
  let new := k_prime k (k_gbcnum k) (N.min (2 * N.of_nat old) (N.of_nat old + 50000)) in
  if new <=? old then Panic
  else
    do ns1 <- putn (map (w_hash 0) ns ++ map fresh_node (seq old (new - old))) (new - 1) (w_next (k_freepos k));
    do ' (ns2, fp, fn) <- rfold rehash (ns1, 0, 0) (down new);
    Ok (s_table ns2 fp fn k).

(** 436-441: search of the chain starting at node [r]. *)
Fixpoint find_node (fuel : nat) (ns : list node) (lvl lo hi : nat) (r : nat) : res (option nat) :=
  match fuel with
  | O => NoFuel
  | S fuel =>
      if r =? 0 then Ok None
      else
        do nd <- getn ns r;
        if (n_level nd =? lvl) && optnat_eqb (n_low nd) lo && (n_high nd =? hi) then Ok (Some r)
        else find_node fuel ns lvl lo hi (n_next nd)
  end.

(** 450-459: take a node from the free list. *)
Definition alloc (k : kernel) (hash : nat) (lvl lo hi : nat) : res (kernel * nat) :=
  let r := k_freepos k in
  do nd <- getn (k_nodes k) r;
  match k_freenum k with
  | O => Panic
  | S fn =>
      do hd <- getn (k_nodes k) hash;
      do ns1 <- putn (k_nodes k) r (fun x => w_next (n_hash hd) (w_high hi (w_low (Some lo) (w_level lvl x))));
      do ns2 <- putn ns1 hash (w_hash r);
      Ok (s_counts (S (k_produced k)) (k_gbcnum k) (s_table ns2 (n_next nd) fn k), r)
  end.

(** 430-460, [make_node]. *)
Definition make_node (k : kernel) (lvl lo hi : nat) : res (kernel * nat) :=
  if lo =? hi then Ok (k, lo)
  else
    let hash := nodehash (length (k_nodes k)) lvl lo hi in
    do hd <- getn (k_nodes k) hash;
    do found <- find_node (S (length (k_nodes k))) (k_nodes k) lvl lo hi (n_hash hd);
    match found with
    | Some r => Ok (k, r)
    | None =>
        if k_freepos k =? 0 then
          do k1 <- gbc k;
          do ' (k2, hash2) <-
            (if k_freenum k1 * 100 / length (k_nodes k1) <=? 20 then
               do k2 <- node_resize k1;
               Ok (k2, nodehash (length (k_nodes k2)) lvl lo hi)
             else Ok (k1, hash));
          if k_freepos k2 =? 0 then Panic else alloc k2 hash2 lvl lo hi
        else alloc k hash lvl lo hi
    end.

(** 401-413, 556-558: the reference stack. *)
Definition push_ref (k : kernel) (n : nat) : res kernel :=
  if length (k_stack k) <? k_cap k then Ok (s_stack (n :: k_stack k) k) else Panic.
Definition pop_ref (k : kernel) (n : nat) : res kernel :=
  if n <=? length (k_stack k) then Ok (s_stack (skipn n (k_stack k)) k) else Panic.
(** [read_ref k n] is the [n]-th element from the top, counting from 1. *)
Definition read_ref (k : kernel) (n : nat) : res nat := getn (k_stack k) (n - 1).
Definition init_ref (k : kernel) : kernel := s_stack [] k.

(** 415-428. *)
Definition dec_ref (nd : node) : node :=
  if negb (n_ref nd =? MAXREF)%N && (0 <? n_ref nd)%N then w_ref (n_ref nd - 1) nd else nd.
Definition inc_ref (nd : node) : node := if (n_ref nd <? MAXREF)%N then w_ref (n_ref nd + 1) nd else nd.

(** 203-214, [add_ref] after the handler agreed. *)
Definition add_ref (k : kernel) (r : nat) : res kernel :=
  if r <? 2 then Ok k
  else
    do nd <- getn (k_nodes k) r;
    match n_low nd with
    | None => Panic
    | Some _ => do ns <- putn (k_nodes k) r inc_ref; Ok (s_nodes ns k)
    end.

(** 216-224, [del_ref]. *)
Definition del_ref (k : kernel) (r : nat) : res kernel :=
  if r <? 2 then Ok k
  else
    do nd <- getn (k_nodes k) r;
    match n_low nd with
    | None => Panic
    | Some _ =>
        if (0 <? n_ref nd)%N then do ns <- putn (k_nodes k) r dec_ref; Ok (s_nodes ns k) else Panic
    end.

(** 183-196. *)
Fixpoint index_of (v : var) (l : list var) : option nat :=
  match l with
  | [] => None
  | x :: r => if var_eqb v x then Some 0 else option_map S (index_of v r)
  end.
Definition get_or_add_var_index (k : kernel) (v : var) : res (kernel * nat) :=
  match index_of v (k_names k) with
  | Some i => Ok (k, i)
  | None =>
      if length (k_names k) <? k_varnum k then Ok (s_names (k_names k ++ [v]) k, length (k_names k)) else Panic
  end.
Definition var_of_index (k : kernel) (i : nat) : option var := nth_error (k_names k) i.

(** 156-166: one round of the loop of the constructor. *)
Definition add_var (k : kernel) : res kernel :=
  let v := k_varnum k in
  do ' (k1, p) <- make_node k v 0 1;
  do k2 <- push_ref k1 p;
  do vs1 <- putn (k_vars k2) (2 * v) (fun _ => p);
  do ' (k3, q) <- make_node (s_vars vs1 v k2) v 1 0;
  do vs2 <- putn (k_vars k3) (2 * v + 1) (fun _ => q);
  do k4 <- pop_ref (s_vars vs2 v k3) 1;
  do ns1 <- putn (k_nodes k4) p (w_ref MAXREF);
  do ns2 <- putn ns1 q (w_ref MAXREF);
  Ok (s_vars vs2 (S v) (s_nodes ns2 k4)).

(** 109-172, [new_with_num_vars]; [size] and [csize] are the computed sizes ([prime_gte] of at least 3). *)
Definition initial_nodes (size : nat) : res (list node) :=
  do ns1 <- putn (map fresh_node (seq 0 size)) (size - 1) (w_next 0);
  do ns2 <- putn ns1 0 (fun x => w_high 0 (w_low (Some 0) (w_ref MAXREF x)));
  putn ns2 1 (fun x => w_high 1 (w_low (Some 1) (w_ref MAXREF x))).

Definition new_kernel (prime : nat -> N -> nat) (nvars size csize : nat) : res kernel :=
  if (2097151 <? N.of_nat nvars)%N then Panic
  else
    do ns <- initial_nodes size;
    let c := repeat empty_entry csize in
    let k0 := mkKernel [] ns (repeat 0 (2 * nvars)) 2 (size - 2) 0 0 0 [] (2 * nvars + 4) (repeat 0%Z nvars) 0%N 0
                       c c c prime in
    do k1 <- rfold (fun k _ => add_var k) k0 (seq 0 nvars);
    do ns1 <- putn (k_nodes k1) 0 (w_level nvars);
    do ns2 <- putn ns1 1 (w_level nvars);
    Ok (s_nodes ns2 k1).

(** 175-181, [new_with_var_ordering]. *)
Definition new_with_ordering (prime : nat -> N -> nat) (ordering : list var) (size csize : nat) : res kernel :=
  do k <- new_kernel prime (length ordering) size csize;
  rfold (fun k v => do ' (k', _) <- get_or_add_var_index k v; Ok k') k ordering.

(* ------------------------------------------------------------------------------------------------------------------ *)
(** * Operations *)

(** bdd_kernel.rs 18-22, 58-74, [Operand]. *)
Inductive bop := OpAnd | OpOr | OpImp | OpEquiv.
Definition op_code (o : bop) : nat := match o with OpAnd => 0 | OpOr => 2 | OpImp => 5 | OpEquiv => 6 end.
Definition op_table (o : bop) : list nat :=
  match o with OpAnd => [0; 0; 0; 1] | OpOr => [0; 1; 1; 1] | OpImp => [1; 1; 0; 1] | OpEquiv => [1; 0; 0; 1] end.
Definition OPCODE_NOT : nat := 10.

(** 274-318: the cases decided without looking at the nodes. *)
Definition apply_const (o : bop) (l r : nat) : option nat :=
  match o with
  | OpAnd =>
      if l =? r then Some l else if (l =? 0) || (r =? 0) then Some 0 else if l =? 1 then Some r
      else if r =? 1 then Some l else None
  | OpOr =>
      if l =? r then Some l else if (l =? 1) || (r =? 1) then Some 1 else if l =? 0 then Some r
      else if r =? 0 then Some l else None
  | OpImp => if l =? 0 then Some 1 else if l =? 1 then Some r else if r =? 1 then Some 1 else None
  | OpEquiv => None
  end.

(** 325-347: the operands of the two recursive calls and the level of the new node, by the comparison of the levels. *)
Definition low_of (k : kernel) (n : nat) : res nat := do nd <- getn (k_nodes k) n; of_opt (n_low nd).
Definition high_of (k : kernel) (n : nat) : res nat := do nd <- getn (k_nodes k) n; Ok (n_high nd).
Definition level_of (k : kernel) (n : nat) : res nat := do nd <- getn (k_nodes k) n; Ok (n_level nd).

Definition low_args (k : kernel) (c : comparison) (l r : nat) : res (nat * nat) :=
  match c with
  | Eq => do a <- low_of k l; do b <- low_of k r; Ok (a, b)
  | Lt => do a <- low_of k l; Ok (a, r)
  | Gt => do b <- low_of k r; Ok (l, b)
  end.
Definition high_args (k : kernel) (c : comparison) (l r : nat) : res (nat * nat) :=
  match c with
  | Eq => do a <- high_of k l; do b <- high_of k r; Ok (a, b)
  | Lt => do a <- high_of k l; Ok (a, r)
  | Gt => do b <- high_of k r; Ok (l, b)
  end.
Definition split_level (k : kernel) (c : comparison) (l r : nat) : res nat :=
  match c with Gt => level_of k r | _ => level_of k l end.

(** 273-351, [apply_rec].  Every call increases the smaller of the two levels, which bounds the recursion. *)
Fixpoint apply_rec (fuel : nat) (o : bop) (k : kernel) (l r : nat) : res (kernel * nat) :=
  match fuel with
  | O => NoFuel
  | S fuel =>
      match apply_const o l r with
      | Some x => Ok (k, x)
      | None =>
          if (l <? 2) && (r <? 2) then do x <- getn (op_table o) (2 * l + r); Ok (k, x)
          else
            let h := triple (N.of_nat l) (N.of_nat r) (N.of_nat (op_code o)) in
            do e <- cget (k_apply k) h;
            if optnat_eqb (e_a e) l && (e_b e =? r) && (e_c e =? op_code o) then Ok (k, e_res e)
            else
              do ll <- level_of k l;
              do lr <- level_of k r;
              let c := (ll ?= lr) in
              do ' (l0, r0) <- low_args k c l r;
              do ' (k1, x1) <- apply_rec fuel o k l0 r0;
              do k2 <- push_ref k1 x1;
              do ' (l1, r1) <- high_args k2 c l r;
              do ' (k3, x2) <- apply_rec fuel o k2 l1 r1;
              do k4 <- push_ref k3 x2;
              do lvl <- split_level k4 c l r;
              do a <- read_ref k4 2;
              do b <- read_ref k4 1;
              do ' (k5, x) <- make_node k4 lvl a b;
              do k6 <- pop_ref k5 2;
              do c' <- cset_res (k_apply k6) h l r (op_code o) x;
              Ok (s_apply c' k6, x)
      end
  end.

(** 198-201, [apply]. *)
Definition apply (o : bop) (k : kernel) (l r : nat) : res (kernel * nat) :=
  apply_rec (S (k_varnum k)) o (init_ref k) l r.

(** bdd_construction.rs 91-110, [not_rec]. *)
Fixpoint not_rec (fuel : nat) (k : kernel) (r : nat) : res (kernel * nat) :=
  match fuel with
  | O => NoFuel
  | S fuel =>
      if r =? 0 then Ok (k, 1)
      else if r =? 1 then Ok (k, 0)
      else
        do e <- cget (k_apply k) (N.of_nat r);
        if optnat_eqb (e_a e) r && (e_c e =? OPCODE_NOT) then Ok (k, e_res e)
        else
          do lo <- low_of k r;
          do ' (k1, x1) <- not_rec fuel k lo;
          do k2 <- push_ref k1 x1;
          do hi <- high_of k2 r;
          do ' (k3, x2) <- not_rec fuel k2 hi;
          do k4 <- push_ref k3 x2;
          do lvl <- level_of k4 r;
          do a <- read_ref k4 2;
          do b <- read_ref k4 1;
          do ' (k5, x) <- make_node k4 lvl a b;
          do k6 <- pop_ref k5 2;
          do c' <- cset_res (k_apply k6) (N.of_nat r) r 0 OPCODE_NOT x;
          Ok (s_apply c' k6, x)
  end.
(** 60-62, [not]. *)
Definition bnot (k : kernel) (r : nat) : res (kernel * nat) := not_rec (S (k_varnum k)) k r.

(** [quantvarset_id as i32]. *)
Definition as_i32 (n : N) : Z := if (n <? 2147483648)%N then Z.of_N n else (Z.of_N n - 4294967296)%Z.

(** bdd_kernel.rs 561-568. *)
Definition insvarset (k : kernel) (a : nat) : res bool :=
  do q <- getn (k_qset k) a; Ok (N.eqb (Z.to_N (Z.abs q)) (k_qid k)).
Definition invarset (k : kernel) (a : nat) : res bool :=
  do q <- getn (k_qset k) a; Ok (Z.eqb q (as_i32 (k_qid k))).

(** bdd_construction.rs 166-170 and 189-193: the next id; both vectors are cleared when the id reaches the limit. *)
Definition next_qid (limit : N) (k : kernel) : res kernel :=
  let i := (k_qid k + 1)%N in
  if (4294967295 <? i)%N then Panic
  else if (i =? limit)%N then Ok (s_qset (repeat 0%Z (k_varnum k)) 1 (k_qlast k) k)
  else Ok (s_qset (k_qset k) i (k_qlast k) k).

(** 172-183: the loop of [varset2svartable]. *)
Fixpoint svartable_loop (fuel : nat) (k : kernel) (n : nat) : res kernel :=
  match fuel with
  | O => NoFuel
  | S fuel =>
      if n <? 2 then Ok k
      else
        do lvl <- level_of k n;
        do lo <- low_of k n;
        do hi <- high_of k n;
        let id := as_i32 (k_qid k) in
        do qs <- putn (k_qset k) lvl (fun _ => if lo =? 0 then id else (- id)%Z);
        let n' := if lo =? 0 then hi else lo in
        do last <- level_of k n';
        svartable_loop fuel (s_qset qs (k_qid k) last k) n'
  end.

(** 163-184, [varset2svartable]; the limit is [u32::MAX / 2]. *)
Definition varset2svartable (k : kernel) (r : nat) : res kernel :=
  if r <? 2 then Panic
  else do k1 <- next_qid 2147483647 k; svartable_loop (S (k_varnum k)) k1 r.

(** 195-200: the loop of [varset2vartable]. *)
Fixpoint vartable_loop (fuel : nat) (k : kernel) (n : nat) : res kernel :=
  match fuel with
  | O => NoFuel
  | S fuel =>
      if n <? 2 then Ok k
      else
        do lvl <- level_of k n;
        do qs <- putn (k_qset k) lvl (fun _ => as_i32 (k_qid k));
        do hi <- high_of k n;
        vartable_loop fuel (s_qset qs (k_qid k) lvl k) hi
  end.

(** 186-201, [varset2vartable]; the limit is [u32::MAX]. *)
Definition varset2vartable (k : kernel) (r : nat) : res kernel :=
  if r <? 2 then Panic
  else do k1 <- next_qid 4294967295 k; vartable_loop (S (k_varnum k)) k1 r.

(** 112-138, [restrict_rec]. *)
Fixpoint restrict_rec (fuel : nat) (id : nat) (k : kernel) (r : nat) : res (kernel * nat) :=
  match fuel with
  | O => NoFuel
  | S fuel =>
      if r <? 2 then Ok (k, r)
      else
        do lr <- level_of k r;
        if k_qlast k <? lr then Ok (k, r)
        else
          let h := pair (N.of_nat r) (N.of_nat id) in
          do e <- cget (k_misc k) h;
          if optnat_eqb (e_a e) r && (e_c e =? id) then Ok (k, e_res e)
          else
            do ins <- insvarset k lr;
            do ' (k6, x) <-
              (if ins then
                 do q <- getn (k_qset k) lr;
                 do child <- (if (0 <? q)%Z then high_of k r else low_of k r);
                 restrict_rec fuel id k child
               else
                 do lo <- low_of k r;
                 do ' (k1, x1) <- restrict_rec fuel id k lo;
                 do k2 <- push_ref k1 x1;
                 do hi <- high_of k2 r;
                 do ' (k3, x2) <- restrict_rec fuel id k2 hi;
                 do k4 <- push_ref k3 x2;
                 do lvl <- level_of k4 r;
                 do a <- read_ref k4 2;
                 do b <- read_ref k4 1;
                 do ' (k5, x) <- make_node k4 lvl a b;
                 do k6 <- pop_ref k5 2;
                 Ok (k6, x));
            do c' <- cset_res (k_misc k6) h r 0 id x;
            Ok (s_misc c' k6, x)
  end.

(** 140-161, [quant_rec]; [fuel] also bounds the nested [apply_rec]. *)
Fixpoint quant_rec (fuel : nat) (o : bop) (id : nat) (k : kernel) (r : nat) : res (kernel * nat) :=
  match fuel with
  | O => NoFuel
  | S fuel' =>
      if r <? 2 then Ok (k, r)
      else
        do lr <- level_of k r;
        if k_qlast k <? lr then Ok (k, r)
        else
          do e <- cget (k_quant k) (N.of_nat r);
          if optnat_eqb (e_a e) r && (e_c e =? id) then Ok (k, e_res e)
          else
            do lo <- low_of k r;
            do ' (k1, x1) <- quant_rec fuel' o id k lo;
            do k2 <- push_ref k1 x1;
            do hi <- high_of k2 r;
            do ' (k3, x2) <- quant_rec fuel' o id k2 hi;
            do k4 <- push_ref k3 x2;
            do lvl <- level_of k4 r;
            do inv <- invarset k4 lvl;
            do a <- read_ref k4 2;
            do b <- read_ref k4 1;
            do ' (k5, x) <- (if inv then apply_rec (S (k_varnum k4)) o k4 a b else make_node k4 lvl a b);
            do k6 <- pop_ref k5 2;
            do c' <- cset_res (k_quant k6) (N.of_nat r) r 0 id x;
            Ok (s_quant c' k6, x)
  end.

(** 65-71, [restrict]; 74-80, [exists]; 83-89, [for_all]. *)
Definition brestrict (k : kernel) (r var : nat) : res (kernel * nat) :=
  if var <? 2 then Ok (k, r)
  else do k1 <- varset2svartable k var; restrict_rec (S (k_varnum k)) (8 * var + 1) k1 r.
Definition bexists (k : kernel) (r var : nat) : res (kernel * nat) :=
  if var <? 2 then Ok (k, r)
  else do k1 <- varset2vartable k var; quant_rec (S (k_varnum k)) OpOr (8 * var) k1 r.
Definition bforall (k : kernel) (r var : nat) : res (kernel * nat) :=
  if var <? 2 then Ok (k, r)
  else do k1 <- varset2vartable k var; quant_rec (S (k_varnum k)) OpAnd (8 * var + 1) k1 r.

(** 9-19, [ith_var] and [nith_var]. *)
Definition ith_var (k : kernel) (i : nat) : res nat := if i <? k_varnum k then getn (k_vars k) (2 * i) else Panic.
Definition nith_var (k : kernel) (i : nat) : res nat := if i <? k_varnum k then getn (k_vars k) (2 * i + 1) else Panic.

(* ------------------------------------------------------------------------------------------------------------------ *)
(** * Building a BDD (bdd_main.rs) *)

(** bdd_handler.rs: [None] is [NopBddHandler], [Some (bound, count)] is [NumberOfNodesBddHandler]. *)
Definition handler := option (nat * nat).
(** 38-43, [new_ref_added]: the new handler and whether the computation goes on. *)
Definition new_ref_added (h : handler) : handler * bool :=
  match h with
  | None => (None, true)
  | Some (bound, count) => (Some (bound, S count), negb (bound <=? S count))
  end.

(** bdd_kernel.rs 203-214 with the handler: [None] as third component is [Err]. *)
Definition add_ref_h (k : kernel) (h : handler) (r : nat) : res (kernel * handler * option nat) :=
  let '(h', go) := new_ref_added h in
  if go then do k' <- add_ref k r; Ok (k', h', Some r) else Ok (k, h', None).

(** [?]: go on with the value, or return the error. *)
Definition onok {A B S} (x : S * option A) (f : S -> A -> res (S * option B)) : res (S * option B) :=
  match x with (s, Some a) => f s a | (s, None) => Ok (s, None) end.

Definition apply2 (o : bop) (st : kernel * handler) (l r : nat) : res (kernel * handler * option nat) :=
  let '(k, h) := st in
  do ' (k1, x) <- apply o k l r;
  do y <- add_ref_h k1 h x;
  onok y (fun st x => do k2 <- del_ref (fst st) l; do k3 <- del_ref k2 r; Ok ((k3, snd st), Some x)).

(** bdd_main.rs 170-211, [build_rec].  The formula is given as its tree; n-ary nodes without operands panic at [operands[0]].
    Constraints (209) are not modelled: the model stops there. *)
Fixpoint build_rec (st : kernel * handler) (a : fml) : res (kernel * handler * option nat) :=
  match a with
  | FFalse => Ok (st, Some 0)
  | FTrue => Ok (st, Some 1)
  | FLit l =>
      do ' (k1, i) <- get_or_add_var_index (fst st) (lit_var l);
      do n <- (if lit_phase l then ith_var k1 i else nith_var k1 i);
      Ok ((k1, snd st), Some n)
  | FNot b =>
      do x <- build_rec st b;
      onok x (fun st op =>
        do ' (k1, n) <- bnot (fst st) op;
        do y <- add_ref_h k1 (snd st) n;
        onok y (fun st n => do k2 <- del_ref (fst st) op; Ok ((k2, snd st), Some n)))
  | FImpl b c =>
      do x <- build_rec st b;
      onok x (fun st l => do y <- build_rec st c; onok y (fun st r => apply2 OpImp st l r))
  | FEquiv b c =>
      do x <- build_rec st b;
      onok x (fun st l => do y <- build_rec st c; onok y (fun st r => apply2 OpEquiv st l r))
  | FAnd [] => Panic
  | FAnd (b :: bs) =>
      do x <- build_rec st b;
      (fix go x bs := match bs with
         | [] => Ok x
         | c :: cs => do y <- onok x (fun st l => do y <- build_rec st c; onok y (fun st r => apply2 OpAnd st l r)); go y cs
         end) x bs
  | FOr [] => Panic
  | FOr (b :: bs) =>
      do x <- build_rec st b;
      (fix go x bs := match bs with
         | [] => Ok x
         | c :: cs => do y <- onok x (fun st l => do y <- build_rec st c; onok y (fun st r => apply2 OpOr st l r)); go y cs
         end) x bs
  | FCc _ | FPbc _ => Panic
  end.

(** 30-43, [from_formula_with_handler]. *)
Definition from_formula_h (k : kernel) (h : handler) (a : fml) : res (kernel * handler * option nat) := build_rec (k, h) a.

(** 30-32, [from_formula]. *)
Definition from_formula (k : kernel) (a : fml) : res (kernel * nat) :=
  do ' (st, x) <- build_rec (k, None) a; do n <- of_opt x; Ok (fst st, n).

(** 238-246.  [f.and] of literals is given by its operand list; the factory returns falsum for contradictory literals, verum for
    none, the literal itself for one, and drops duplicates. *)
Fixpoint dedup_lits (seen : list lit) (ls : list lit) : list lit :=
  match ls with
  | [] => []
  | l :: r => if existsb (lit_eqb l) seen then dedup_lits seen r else l :: dedup_lits (l :: seen) r
  end.
Definition lits_fml (ls : list lit) : fml :=
  if existsb (fun l => existsb (lit_eqb (lit_negate l)) ls) ls then FFalse
  else match dedup_lits [] ls with [] => FTrue | [l] => FLit l | ds => FAnd (map FLit ds) end.

(** 134-153: [restrict], [exists] and [for_all] of a BDD. *)
Definition bdd_restrict (k : kernel) (r : nat) (ls : list lit) : res (kernel * nat) :=
  do ' (k1, v) <- from_formula k (lits_fml ls); brestrict k1 r v.
Definition bdd_exists (k : kernel) (r : nat) (vs : list var) : res (kernel * nat) :=
  do ' (k1, v) <- from_formula k (lits_fml (map (fun x => Lit x true) vs)); bexists k1 r v.
Definition bdd_forall (k : kernel) (r : nat) (vs : list var) : res (kernel * nat) :=
  do ' (k1, v) <- from_formula k (lits_fml (map (fun x => Lit x true) vs)); bforall k1 r v.

(* ------------------------------------------------------------------------------------------------------------------ *)
(** * Queries (bdd_operations.rs) *)

(** 136-148, [sat_one_rec], and 12-18, [sat_one]. *)
Fixpoint sat_one_rec (fuel : nat) (k : kernel) (r : nat) : res (kernel * nat) :=
  match fuel with
  | O => NoFuel
  | S fuel =>
      if r <? 2 then Ok (k, r)
      else
        do lo <- low_of k r;
        do ' (k2, x) <-
          (if lo =? 0 then
             do hi <- high_of k r;
             do ' (k1, y) <- sat_one_rec fuel k hi;
             do lvl <- level_of k1 r;
             make_node k1 lvl 0 y
           else
             do ' (k1, y) <- sat_one_rec fuel k lo;
             do lvl <- level_of k1 r;
             make_node k1 lvl y 0);
        do k3 <- push_ref k2 x;
        Ok (k3, x)
  end.
Definition sat_one (k : kernel) (r : nat) : res (kernel * nat) :=
  if r <? 2 then Ok (k, r) else sat_one_rec (S (k_varnum k)) (init_ref k) r.

(** 150-184, [sat_one_set_rec], and 22-29, [sat_one_set]; [dflt] is the polarity of the variables the BDD does not decide. *)
Fixpoint sat_one_set_rec (fuel : nat) (dflt : bool) (k : kernel) (r v : nat) : res (kernel * nat) :=
  match fuel with
  | O => NoFuel
  | S fuel =>
      if (r <? 2) && (v <? 2) then Ok (k, r)
      else
        do lr <- level_of k r;
        do lv <- level_of k v;
        do ' (k2, x) <-
          (if lr <? lv then
             do lo <- low_of k r;
             if lo =? 0 then
               do hi <- high_of k r;
               do ' (k1, y) <- sat_one_set_rec fuel dflt k hi v;
               do lvl <- level_of k1 r;
               make_node k1 lvl 0 y
             else
               do ' (k1, y) <- sat_one_set_rec fuel dflt k lo v;
               do lvl <- level_of k1 r;
               make_node k1 lvl y 0
           else if lv <? lr then
             do hv <- high_of k v;
             do ' (k1, y) <- sat_one_set_rec fuel dflt k r hv;
             do lvl <- level_of k1 v;
             if dflt then make_node k1 lvl 0 y else make_node k1 lvl y 0
           else
             do hv <- high_of k v;
             do lo <- low_of k r;
             if lo =? 0 then
               do hi <- high_of k r;
               do ' (k1, y) <- sat_one_set_rec fuel dflt k hi hv;
               do lvl <- level_of k1 r;
               make_node k1 lvl 0 y
             else
               do ' (k1, y) <- sat_one_set_rec fuel dflt k lo hv;
               do lvl <- level_of k1 r;
               make_node k1 lvl y 0);
        do k3 <- push_ref k2 x;
        Ok (k3, x)
  end.
Definition sat_one_set (k : kernel) (r v : nat) (dflt : bool) : res (kernel * nat) :=
  if r =? 0 then Ok (k, r) else sat_one_set_rec (S (k_varnum k)) dflt (init_ref k) r v.

(** 192-197, 201-206 and 55-58: negative nodes for the skipped levels, given in the order of the loop. *)
Definition fill (st : kernel * nat) (v : nat) : res (kernel * nat) :=
  let '(k, x) := st in
  do ' (k1, y) <- make_node k v x 0;
  do k2 <- push_ref k1 y;
  Ok (k2, y).
(** The levels strictly between [a] and [b], descending. *)
Definition gap (a b : nat) : list nat := rev (seq (S a) (b - S a)).

(** 186-210, [full_sat_one_rec], and 49-60, [full_sat_one]. *)
Fixpoint full_sat_one_rec (fuel : nat) (k : kernel) (r : nat) : res (kernel * nat) :=
  match fuel with
  | O => NoFuel
  | S fuel =>
      if r <? 2 then Ok (k, r)
      else
        do lo <- low_of k r;
        do ' (k2, x) <-
          (if lo =? 0 then
             do hi <- high_of k r;
             do ' (k1, y) <- full_sat_one_rec fuel k hi;
             do lr <- level_of k1 r;
             do lh <- level_of k1 hi;
             do ' (k2, z) <- rfold fill (k1, y) (gap lr lh);
             make_node k2 lr 0 z
           else
             do ' (k1, y) <- full_sat_one_rec fuel k lo;
             do lr <- level_of k1 r;
             do ll <- level_of k1 lo;
             do ' (k2, z) <- rfold fill (k1, y) (gap lr ll);
             make_node k2 lr z 0);
        do k3 <- push_ref k2 x;
        Ok (k3, x)
  end.
Definition full_sat_one (k : kernel) (r : nat) : res (kernel * nat) :=
  if r =? 0 then Ok (k, 0)
  else
    do ' (k1, x) <- full_sat_one_rec (S (k_varnum k)) (init_ref k) r;
    do lr <- level_of k1 r;
    rfold fill (k1, x) (rev (seq 0 lr)).

(** 33-46, [all_nodes]: number, level, low and high of the marked nodes; the marks are cleared. *)
Definition collect (st : list node * list (nat * nat * nat * nat)) (n : nat) : res (list node * list (nat * nat * nat * nat)) :=
  let '(ns, acc) := st in
  do nd <- getn ns n;
  if n_mark nd then
    do ns1 <- putn ns n (w_mark false);
    do lo <- of_opt (n_low nd);
    Ok (ns1, acc ++ [(n, n_level nd, lo, n_high nd)])
  else Ok (ns, acc).
Definition all_nodes (k : kernel) (r : nat) : res (kernel * list (nat * nat * nat * nat)) :=
  if r <? 2 then Ok (k, [])
  else
    do ns <- mark (S (length (k_nodes k))) (k_nodes k) r;
    do ' (ns1, l) <- rfold collect (ns, []) (seq 0 (length ns));
    Ok (s_nodes ns1 k, l).

(** bdd_main.rs 213-236, [create_model]. *)
Definition model_step (k : kernel) (st : list var * list var) (n : nat * nat * nat * nat) : res (list var * list var) :=
  let '(pos, neg) := st in
  let '(_, lvl, lo, hi) := n in
  match var_of_index k lvl with
  | None => Ok (pos, neg)
  | Some v => if lo =? 0 then Ok (pos ++ [v], neg) else if hi =? 0 then Ok (pos, neg ++ [v]) else Panic
  end.
Definition create_model (k : kernel) (m : nat) : res (kernel * option smodel) :=
  if m =? 0 then Ok (k, None)
  else if m =? 1 then Ok (k, Some (mkModel [] []))
  else
    do ' (k1, ns) <- all_nodes k m;
    do ' (pos, neg) <- rfold (model_step k1) ([], []) ns;
    Ok (k1, Some (mkModel pos neg)).

(** 55-76: [model], [model_for_variables] and [full_model]. *)
Definition bdd_model (k : kernel) (r : nat) : res (kernel * option smodel) :=
  do ' (k1, m) <- sat_one k r; create_model k1 m.
Definition bdd_model_for (k : kernel) (r : nat) (dflt : bool) (vs : list var) : res (kernel * option smodel) :=
  do ' (k1, v) <- from_formula k (lits_fml (map (fun x => Lit x true) vs));
  do ' (k2, m) <- sat_one_set k1 r v dflt;
  create_model k2 m.
Definition bdd_full_model (k : kernel) (r : nat) : res (kernel * option smodel) :=
  do ' (k1, m) <- full_sat_one k r; create_model k1 m.

(** A path of a BDD: for every variable the value 0 ([Some false]), 1 ([Some true]) or -1 ([None]). *)
Definition profile := list (option bool).

(** bdd_operations.rs 222-226, 231-235: the levels strictly between two nodes become don't cares. *)
Definition dontcare (p : profile) (v : nat) : res profile := putn p v (fun _ => None).

(** 212-238, [all_sat_rec] for [goal = true], and 240-266, [all_unsat_rec] for [goal = false]; returns the paths found and the
    final profile. *)
Fixpoint paths_rec (fuel : nat) (goal : bool) (k : kernel) (r : nat) (p : profile) : res (list profile * profile) :=
  match fuel with
  | O => NoFuel
  | S fuel =>
      let leaf := if goal then 1 else 0 in
      let dead := if goal then 0 else 1 in
      if r =? leaf then Ok ([p], p)
      else if r =? dead then Ok ([], p)
      else
        do lr <- level_of k r;
        do lo <- low_of k r;
        do hi <- high_of k r;
        do ' (l1, p1) <-
          (if lo =? dead then Ok ([], p)
           else
             do p0 <- putn p lr (fun _ => Some false);
             do ll <- level_of k lo;
             do p1 <- rfold dontcare p0 (gap lr ll);
             paths_rec fuel goal k lo p1);
        do ' (l2, p2) <-
          (if hi =? dead then Ok ([], p1)
           else
             do p0 <- putn p1 lr (fun _ => Some true);
             do lh <- level_of k hi;
             do p2 <- rfold dontcare p0 (gap lr lh);
             paths_rec fuel goal k hi p2);
        Ok (l1 ++ l2, p2)
  end.
(** 63-72, [all_sat], and 98-107, [all_unsat]. *)
Definition paths (goal : bool) (k : kernel) (r : nat) : res (kernel * list profile) :=
  do lr <- level_of k r;
  do p <- rfold dontcare (repeat (Some false) (k_varnum k)) (rev (seq 0 lr));
  let k1 := init_ref k in
  do ' (l, _) <- paths_rec (S (k_varnum k)) goal k1 r p;
  Ok (k1, l).

(** bdd_model_enumeration.rs 29-50, [generate_all_models]; [rest] are the relevant indices from [position] on. *)
Definition model_lits (k : kernel) (rel : list nat) (p : profile) : res smodel :=
  rfold (fun m i =>
    do x <- getn p i;
    do v <- of_opt (var_of_index k i);
    match x with
    | Some false => Ok (mkModel (m_pos m) (m_neg m ++ [v]))
    | _ => Ok (mkModel (m_pos m ++ [v]) (m_neg m))
    end) (mkModel [] []) rel.
Fixpoint generate (k : kernel) (rel rest : list nat) (p : profile) : res (list smodel) :=
  match rest with
  | [] => do m <- model_lits k rel p; Ok [m]
  | i :: rest' =>
      do x <- getn p i;
      match x with
      | Some _ => generate k rel rest' p
      | None =>
          do p0 <- putn p i (fun _ => Some false);
          do l0 <- generate k rel rest' p0;
          do p1 <- putn p i (fun _ => Some true);
          do l1 <- generate k rel rest' p1;
          Ok (l0 ++ l1)
      end
  end.

(** 7-27, [enumerate_all_models]; indices of unknown variables panic. *)
Fixpoint insert_nat (x : nat) (l : list nat) : list nat :=
  match l with [] => [x] | y :: r => if x <=? y then x :: l else y :: insert_nat x r end.
Definition sort_nat (l : list nat) : list nat := fold_right insert_nat [] l.
Definition enumerate (k : kernel) (r : nat) (vs : option (list var)) : res (kernel * list smodel) :=
  do ' (k1, ps) <- paths true k r;
  do rel <- (match vs with
             | Some vs => rfold (fun acc v => do i <- of_opt (index_of v (k_names k)); Ok (acc ++ [i])) [] vs
             | None => Ok (seq 0 (length (k_names k)))
             end);
  let rel := sort_nat rel in
  do ms <- rfold (fun acc p => do l <- generate k1 rel rel p; Ok (acc ++ l)) [] ps;
  Ok (k1, ms).

(** bdd_operations.rs 268-283, [sat_count_rec], and 82-85, [sat_count]. *)
Definition CACHEID_SATCOU : nat := 2.
Definition CACHEID_PATHCOU_ONE : nat := 4.
Definition CACHEID_PATHCOU_ZERO : nat := 8.
Fixpoint sat_count_rec (fuel : nat) (k : kernel) (r : nat) : res (kernel * N) :=
  match fuel with
  | O => NoFuel
  | S fuel =>
      if r <? 2 then Ok (k, N.of_nat r)
      else
        do e <- cget (k_misc k) (N.of_nat r);
        if optnat_eqb (e_a e) r && (e_c e =? CACHEID_SATCOU) then Ok (k, e_bdres e)
        else
          do lo <- low_of k r;
          do hi <- high_of k r;
          do lr <- level_of k r;
          do ll <- level_of k lo;
          do lh <- level_of k hi;
          if (ll <=? lr) || (lh <=? lr) then Panic
          else
            do ' (k1, c1) <- sat_count_rec fuel k lo;
            do ' (k2, c2) <- sat_count_rec fuel k1 hi;
            let size := (2 ^ N.of_nat (ll - lr - 1) * c1 + 2 ^ N.of_nat (lh - lr - 1) * c2)%N in
            do c' <- cset_bdres (k_misc k2) (N.of_nat r) r 0 CACHEID_SATCOU size;
            Ok (s_misc c' k2, size)
  end.
Definition sat_count (k : kernel) (r : nat) : res (kernel * N) :=
  do lr <- level_of k r;
  do ' (k1, c) <- sat_count_rec (S (k_varnum k)) k r;
  Ok (k1, (c * 2 ^ N.of_nat lr)%N).

(** 285-300, [path_count_rec], and 88-95. *)
Fixpoint path_count_rec (fuel : nat) (id : nat) (ct cf : N) (k : kernel) (r : nat) : res (kernel * N) :=
  match fuel with
  | O => NoFuel
  | S fuel =>
      if r =? 0 then Ok (k, cf)
      else if r =? 1 then Ok (k, ct)
      else
        do e <- cget (k_misc k) (N.of_nat r);
        if optnat_eqb (e_a e) r && (e_c e =? id) then Ok (k, e_bdres e)
        else
          do lo <- low_of k r;
          do hi <- high_of k r;
          do ' (k1, c1) <- path_count_rec fuel id ct cf k lo;
          do ' (k2, c2) <- path_count_rec fuel id ct cf k1 hi;
          do c' <- cset_bdres (k_misc k2) (N.of_nat r) r 0 id (c1 + c2)%N;
          Ok (s_misc c' k2, (c1 + c2)%N)
  end.
Definition path_count_one (k : kernel) (r : nat) : res (kernel * N) :=
  path_count_rec (S (k_varnum k)) CACHEID_PATHCOU_ONE 1 0 k r.
Definition path_count_zero (k : kernel) (r : nat) : res (kernel * N) :=
  path_count_rec (S (k_varnum k)) CACHEID_PATHCOU_ZERO 0 1 k r.

(** bdd_kernel.rs 250-259, [mark_count], and bdd_operations.rs 75-79, [node_count]. *)
Fixpoint mark_count (fuel : nat) (ns : list node) (i : nat) : res (list node * nat) :=
  match fuel with
  | O => NoFuel
  | S fuel =>
      if i <? 2 then Ok (ns, 0)
      else
        do nd <- getn ns i;
        match n_low nd with
        | None => Ok (ns, 0)
        | Some lo =>
            if n_mark nd then Ok (ns, 0)
            else
              do ns1 <- putn ns i (w_mark true);
              do ' (ns2, a) <- mark_count fuel ns1 lo;
              do nd2 <- getn ns2 i;
              do ' (ns3, b) <- mark_count fuel ns2 (n_high nd2);
              Ok (ns3, 1 + a + b)
        end
  end.
Definition node_count (k : kernel) (r : nat) : res (kernel * nat) :=
  do ' (ns, c) <- mark_count (S (length (k_nodes k))) (k_nodes k) r;
  do ns1 <- unmark (S (length ns)) ns r;
  Ok (s_nodes ns1 k, c).

(** bdd_operations.rs 315-326, [support_rec], and 118-134, [support]. *)
Fixpoint support_rec (fuel : nat) (ns : list node) (i : nat) (acc : list nat) : res (list node * list nat) :=
  match fuel with
  | O => NoFuel
  | S fuel =>
      if i <? 2 then Ok (ns, acc)
      else
        do nd <- getn ns i;
        match n_low nd with
        | None => Ok (ns, acc)
        | Some lo =>
            if n_mark nd then Ok (ns, acc)
            else
              do ns1 <- putn ns i (w_mark true);
              do ' (ns2, acc2) <- support_rec fuel ns1 lo (acc ++ [n_level nd]);
              do nd2 <- getn ns2 i;
              support_rec fuel ns2 (n_high nd2) acc2
        end
  end.
Definition support_step (st : kernel * nat) (n : nat) : res (kernel * nat) :=
  let '(k, x) := st in
  do k1 <- add_ref k x;
  do ' (k2, y) <- make_node k1 n 0 x;
  do k3 <- del_ref k2 x;
  Ok (k3, y).
Definition support (k : kernel) (r : nat) : res (kernel * nat) :=
  if (r <? 2) || (k_varnum k =? 0) then Ok (k, 0)
  else
    do ' (ns, ls) <- support_rec (S (length (k_nodes k))) (k_nodes k) r [];
    do ns1 <- unmark (S (length ns)) ns r;
    rfold support_step (s_nodes ns1 k, 1) ls.
(** bdd_main.rs 156-167, [Bdd::support]; the set is returned as a list. *)
Definition bdd_support (k : kernel) (r : nat) : res (kernel * list var) :=
  do ' (k1, s) <- support k r;
  do ' (k2, m) <- create_model k1 s;
  match m with
  | None => Ok (k2, [])
  | Some m => match m_neg m with [] => Ok (k2, m_pos m) | _ => Panic end
  end.

(** bdd_operations.rs 302-313, [var_profile_rec], and 110-115, [var_profile]. *)
Fixpoint var_profile_rec (fuel : nat) (ns : list node) (i : nat) (acc : list nat) : res (list node * list nat) :=
  match fuel with
  | O => NoFuel
  | S fuel =>
      if i <? 2 then Ok (ns, acc)
      else
        do nd <- getn ns i;
        if n_mark nd then Ok (ns, acc)
        else
          do acc1 <- putn acc (n_level nd) S;
          do ns1 <- putn ns i (w_mark true);
          do lo <- of_opt (n_low nd);
          do ' (ns2, acc2) <- var_profile_rec fuel ns1 lo acc1;
          do nd2 <- getn ns2 i;
          var_profile_rec fuel ns2 (n_high nd2) acc2
  end.
Definition var_profile (k : kernel) (r : nat) : res (kernel * list nat) :=
  do ' (ns, p) <- var_profile_rec (S (length (k_nodes k))) (k_nodes k) r (repeat 0 (k_varnum k));
  do ns1 <- unmark (S (length ns)) ns r;
  Ok (s_nodes ns1 k, p).
(** bdd_main.rs 119-126. *)
Definition bdd_variable_profile (k : kernel) (r : nat) : res (kernel * list (var * nat)) :=
  do ' (k1, p) <- var_profile k r;
  do l <- rfold (fun acc ic => do v <- of_opt (var_of_index k1 (fst ic)); Ok (acc ++ [(v, snd ic)])) []
            (List.combine (seq 0 (length p)) p);
  Ok (k1, l).

(** bdd_normalform.rs 7-24, [normal_form]; the result is given as the list of clauses or terms. *)
Definition path_lits (k : kernel) (cnf : bool) (p : profile) : res (list lit) :=
  rfold (fun acc ix =>
    do v <- of_opt (var_of_index k (fst ix));
    match snd ix with
    | None => Ok acc
    | Some b => Ok (acc ++ [Lit v (if cnf then negb b else b)])
    end) [] (List.combine (seq 0 (length p)) p).
Definition normal_form (k : kernel) (r : nat) (cnf : bool) : res (kernel * list (list lit)) :=
  do ' (k1, ps) <- paths (negb cnf) k r;
  do ts <- rfold (fun acc p => do c <- path_lits k1 cnf p; Ok (acc ++ [c])) [] ps;
  Ok (k1, ts).

(** bdd_main.rs 248-261, [to_formula_rec]; the conjunctions and disjunctions are given by their operands (the factory's
    simplifications are those of C02). *)
Fixpoint to_formula_rec (fuel : nat) (k : kernel) (r : nat) : res fml :=
  match fuel with
  | O => NoFuel
  | S fuel =>
      if r =? 0 then Ok FFalse
      else if r =? 1 then Ok FTrue
      else
        do lvl <- level_of k r;
        do v <- of_opt (var_of_index k lvl);
        do hi <- high_of k r;
        do f1 <- to_formula_rec fuel k hi;
        do lo <- low_of k r;
        do f2 <- to_formula_rec fuel k lo;
        Ok (FOr [FAnd [FLit (Lit v true); f1]; FAnd [FLit (Lit v false); f2]])
  end.
Definition to_formula (k : kernel) (r : nat) : res fml := to_formula_rec (S (k_varnum k)) k r.
