(** Well-formed DIMACS files and what they mean: specification for C50, independent of the reader. *)
From Coq Require Import Ascii String NArith Bool List.
Import ListNotations.
Local Open Scope list_scope.

(** A line is ignored or a clause: leading blanks, then literals (sign, digits, blanks), then 0. *)
Inductive dline := DSkip (t : list ascii) | DClause (lead : list ascii) (ls : list (bool * list ascii * list ascii)).
Definition newline : ascii := "010"%char.
Definition return_ : ascii := "013"%char.
Definition blank (c : ascii) : Prop := c = " "%char \/ c = "009"%char.
Definition digit (c : ascii) : Prop := (48 <= N_of_ascii c <= 57)%N.
Definition white (c : ascii) : Prop := (9 <= N_of_ascii c <= 13)%N \/ N_of_ascii c = 32%N.
Definition ignored (t : list ascii) : Prop :=
  ~ In newline t /\ ((exists r, t = "c"%char :: r) \/ (exists r, t = "p"%char :: r) \/ Forall white t).
Definition dline_ok (l : dline) : Prop :=
  match l with
  | DSkip t => ignored t
  | DClause lead ls => Forall blank lead
      /\ Forall (fun p : bool * list ascii * list ascii => snd (fst p) <> [] /\ Forall digit (snd (fst p)) /\ snd p <> [] /\ Forall blank (snd p)) ls
  end.
Definition lit_chars (p : bool * list ascii * list ascii) : list ascii := (if fst (fst p) then ["-"%char] else []) ++ snd (fst p) ++ snd p.
Definition dline_text (l : dline) : list ascii :=
  match l with DSkip t => t | DClause lead ls => lead ++ flat_map lit_chars ls ++ ["0"%char] end.
(** Every line has its end of line (with or without a carriage return), except possibly the last. *)
Definition dfile_text (ls : list (dline * bool)) (final : option dline) : list ascii :=
  flat_map (fun p : dline * bool => dline_text (fst p) ++ (if snd p then [return_; newline] else [newline])) ls
  ++ match final with Some l => dline_text l | None => [] end.

(** The clauses of a file; the value of a clause under values of the named variables. *)
Definition clauses (ls : list dline) : list (list (bool * list ascii * list ascii)) :=
  flat_map (fun l => match l with DSkip _ => [] | DClause _ c => [c] end) ls.
Definition clause_value (val : string -> bool) (prefix : list ascii) (c : list (bool * list ascii * list ascii)) : bool :=
  existsb (fun p : bool * list ascii * list ascii => xorb (fst (fst p)) (val (string_of_list_ascii (prefix ++ snd (fst p))))) c.
