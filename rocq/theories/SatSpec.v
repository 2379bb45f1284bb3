(** Specification of clause sets, independent of the solver: valuations, satisfaction, consequence. A literal is
    [2 * variable + sign]. *)
From Coq Require Import List Arith Bool.
Import ListNotations.

(** A literal is true if the sign and the value of the variable differ. *)
Definition lit_true (V : nat -> bool) (l : nat) : Prop := V (Nat.div2 l) = negb (Nat.odd l).
Definition clause_true (V : nat -> bool) (c : list nat) : Prop := exists l, In l c /\ lit_true V l.
Definition all_true (V : nat -> bool) (F : list (list nat)) : Prop := forall c, In c F -> clause_true V c.
(** Every model of [F] satisfies the clause [c]. *)
Definition entails (F : list (list nat)) (c : list nat) : Prop := forall V, all_true V F -> clause_true V c.
(** The unit clauses of a list of literals. *)
Definition unit_clauses (ls : list nat) : list (list nat) := map (fun l => [l]) ls.
