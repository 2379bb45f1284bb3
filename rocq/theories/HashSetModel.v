(** Model of src/formulas/formula_cache/hashable_formula_set.rs: sets of operands as keys of the reverse maps of the n-ary caches.

    Simplifications.  A [HashSet] is the list of its elements in the order of its iterator; sets with the same elements can have different
    orders.  The hash of one operand by [DefaultHasher] is an arbitrary function [dh].  A [DashMap] is the list of its entries with the hash
    that each key had when it was inserted; a lookup only looks at the entries in the same slot as the hash of the argument (shard and place
    in the shard), where [slot] is an arbitrary function of the hash, another one after each resizing. *)
From Coq Require Import NArith List Bool Arith.
From Verif Require Import Base EncodingModel FactoryModel.
Import ListNotations.
Local Open Scope N_scope.

(** hashable_formula_set.rs 54-56, [SimpleHashAdder::write_u64]: addition of [u64] with wrap-around. *)
Definition write_u64 (result i : N) : N := (result + i) mod 18446744073709551616.
(** hashable_formula_set.rs 22-28, [HashableFormulaSet::hash], then [finish] (46-48), for a hasher with the given [write_u64]. *)
Definition hash_with (write : N -> N -> N) (dh : N -> N) (set : list N) : N := fold_left (fun r op => write r (dh op)) set 0.
Definition hash_set : (N -> N) -> list N -> N := hash_with write_u64.
(** hashable_formula_set.rs 34-36, [eq]: the equality of [HashSet], same number of elements and every element contained. *)
Definition hs_eq (a b : list N) : bool := (List.length a =? List.length b)%nat && forallb (fun x => memN x b) a.

(** A vector of operands and its reverse map; nary_formula_cache.rs 16-22. *)
Record htab := mkHtab { ht_vec : list (list N); ht_map : list (N * (list N * N)) }.
Definition htab_empty : htab := mkHtab [] [].
(** nary_formula_cache.rs 64-68 and 73-77: [entry(set).or_insert_with(..)]. *)
Definition htab_goi (dh : N -> N) (slot : N -> N) (ty : formula_type) (large : bool) (key val : list N) (t : htab) : N * htab :=
  let h := hash_set dh key in
  match find (fun e => (slot (fst e) =? slot h) && hs_eq key (fst (snd e))) (ht_map t) with
  | Some e => (snd (snd e), t)
  | None =>
      let e := encode (lenN (ht_vec t)) ty large in
      (e, mkHtab (ht_vec t ++ [val]) (ht_map t ++ [(h, (key, e))]))
  end.

(** A sequence of calls, each with the slots of the table at that time. *)
Definition call : Type := (N -> N) * (list N * list N).
Fixpoint htab_run (dh : N -> N) (ty : formula_type) (large : bool) (cs : list call) (t : htab) : list N * htab :=
  match cs with
  | [] => ([], t)
  | (slot, (key, val)) :: cs' =>
      let '(e, t1) := htab_goi dh slot ty large key val t in
      let '(es, t2) := htab_run dh ty large cs' t1 in (e :: es, t2)
  end.
(** The same calls on the table of [FactoryModel], which compares sets without hashes. *)
Fixpoint vtab_run (ty : formula_type) (large : bool) (cs : list call) (t : vtab (list N)) : list N * vtab (list N) :=
  match cs with
  | [] => ([], t)
  | (_, (key, val)) :: cs' =>
      let '(e, t1) := vtab_goi set_eqb ty large key val t in
      let '(es, t2) := vtab_run ty large cs' t1 in (e :: es, t2)
  end.
