(** Model of src/datastructures/assignment.rs and model.rs: the functions besides [evaluate_lit] and [restrict_lit], which are in
    FactoryModel.v.  A hash set is a list of its elements in the (unspecified) order of its iteration.  Not modelled: hashing and
    printing. *)
From Coq Require Import NArith List Bool.
From Coq Require String.
From Verif Require Import Base EncodingModel Syntax FactoryModel.
Import ListNotations.
Local Open Scope N_scope.

(** [HashSet::insert]: the new set, and whether the element was new. *)
Definition hs_insert (v : var) (l : list var) : list var * bool := if memv v l then (l, false) else (l ++ [v], true).
(** [iter().copied().collect::<HashSet<_>>()]. *)
Definition hs_collect (l : list var) : list var := fold_left (fun s v => fst (hs_insert v s)) l [].
(** [HashSet]'s equality: same length, and every element of the first is in the second. *)
Definition hs_eqb (a b : list var) : bool := (lenN a =? lenN b) && forallb (fun v => memv v b) a.

(** assignment.rs 98-100, [from_variables]. *)
Definition asg_from_variables (pos neg : list var) : assignment := mkAsg (hs_collect pos) (hs_collect neg).
(** assignment.rs 266-271, [add_literal]. *)
Definition asg_add_literal (l : lit) (a : assignment) : assignment * bool :=
  if lit_phase l then let '(p, b) := hs_insert (lit_var l) (a_pos a) in (mkAsg p (a_neg a), b)
  else let '(n, b) := hs_insert (lit_var l) (a_neg a) in (mkAsg (a_pos a) n, b).
(** assignment.rs 155-166, [from_literals], and 192-203, [from_set]. *)
Definition asg_from_literals (ls : list lit) : assignment := fold_left (fun a l => fst (asg_add_literal l a)) ls (mkAsg [] []).
(** assignment.rs 345-347 and 369-371, [len] and [is_empty]. *)
Definition asg_len (a : assignment) : N := lenN (a_pos a) + lenN (a_neg a).
Definition asg_is_empty (a : assignment) : bool := match a_pos a, a_neg a with [], [] => true | _, _ => false end.
(** assignment.rs 395-397, 421-423, 451-453, [contains_pos], [contains_neg], [contains]. *)
Definition asg_contains (a : assignment) (l : lit) : bool := if lit_phase l then memv (lit_var l) (a_pos a) else memv (lit_var l) (a_neg a).
(** assignment.rs 579-584, [literals]. *)
Definition asg_literals (a : assignment) : list lit := map (fun v => Lit v true) (a_pos a) ++ map (fun v => Lit v false) (a_neg a).
(** assignment.rs 650-654, [eq]. *)
Definition asg_eqb (a b : assignment) : bool := hs_eqb (a_pos a) (a_pos b) && hs_eqb (a_neg a) (a_neg b).

(** assignment.rs 533-550: the literals of the blocking clause. *)
Definition blocking_literals (a : assignment) (vs : option (list var)) : list lit :=
  match vs with
  | Some vs =>
      flat_map (fun v => if memv v (a_pos a) then [Lit v false] else if memv v (a_neg a) then [Lit v true] else []) vs
  | None => map (fun v => Lit v false) (a_pos a) ++ map (fun v => Lit v true) (a_neg a)
  end.
(** assignment.rs 532-552, [blocking_clause]. *)
Definition blocking_clause (a : assignment) (vs : option (list var)) : M N := f_or (map encode_lit (blocking_literals a vs)).

(** assignment.rs 676-688, [names_to_indices]; [None] is the error.  The model of a variable has the table index where the
    code has the handle of the positive literal. *)
Fixpoint names_to_indices (s : factory) (names : list String.string) : option (list var) :=
  match names with
  | [] => Some []
  | n :: r =>
      match simple_lookup String.eqb n (t_vars (f_tabs s)) with
      | None => None
      | Some e => match names_to_indices s r with Some l => Some (VFF (enc_index e) :: l) | None => None end
      end
  end.
(** assignment.rs 231-235, [from_names]. *)
Definition asg_from_names (s : factory) (pos neg : list String.string) : option assignment :=
  match names_to_indices s pos, names_to_indices s neg with
  | Some p, Some n => Some (asg_from_variables p n)
  | _, _ => None
  end.

(** model.rs 43-46, [Model]. *)
Record smodel := mkModel { m_pos : list var; m_neg : list var }.
(** model.rs 141-152, [from_literals]. *)
Definition model_from_literals (ls : list lit) : smodel :=
  mkModel (map lit_var (filter lit_phase ls)) (map lit_var (filter (fun l => negb (lit_phase l)) ls)).
(** model.rs 264-266, [len]; 314-319, [literals]. *)
Definition model_len (m : smodel) : N := lenN (m_pos m) + lenN (m_neg m).
Definition model_literals (m : smodel) : list lit := map (fun v => Lit v true) (m_pos m) ++ map (fun v => Lit v false) (m_neg m).
(** assignment.rs 658-668, [Model::from(Assignment)]; model.rs 412-417, [Assignment::from(Model)]. *)
Definition model_of_asg (a : assignment) : smodel := mkModel (a_pos a) (a_neg a).
Definition asg_of_model (m : smodel) : assignment := asg_from_variables (m_pos m) (m_neg m).
(** model.rs 375-377, [compare]. *)
Definition model_compare (m m' : smodel) : bool := asg_eqb (asg_of_model m) (asg_of_model m').
(** model.rs 193-197, [from_names]. *)
Definition model_from_names (s : factory) (pos neg : list String.string) : option smodel :=
  match names_to_indices s pos, names_to_indices s neg with
  | Some p, Some n => Some (mkModel p n)
  | _, _ => None
  end.
