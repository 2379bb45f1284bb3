(** Which formulas are expected to survive printing and parsing: specification for C32, independent of printer and parser. *)
From Coq Require Import Ascii String NArith ZArith Bool List.
From Verif Require Import Base EncodingModel Syntax FactoryModel FactoryOps.
Import ListNotations.
Local Open Scope list_scope.

Definition letter_or_digit (c : ascii) : Prop :=
  let n := N_of_ascii c in (48 <= n <= 57)%N \/ (65 <= n <= 90)%N \/ (97 <= n <= 122)%N.
Definition id_char (c : ascii) : Prop := let n := N_of_ascii c in (48 <= n <= 57)%N \/ (65 <= n <= 90)%N.
Definition identifier (n : list ascii) : Prop :=
  exists c r, n = c :: r /\ (letter_or_digit c \/ c = "_"%char \/ c = "@"%char) /\ Forall (fun c => letter_or_digit c \/ c = "_"%char) r.
(** Names of the form of auxiliary variables of the factory [fid]. *)
Definition reserved (fid : list ascii) (n : list ascii) : Prop :=
  exists tag d, In tag ["CNF"; "CC"; "PB"]%string /\ d <> [] /\ Forall (fun c => (48 <= N_of_ascii c <= 57)%N) d /\
    n = list_ascii_of_string "@RESERVED_" ++ fid ++ list_ascii_of_string "_" ++ list_ascii_of_string tag ++ list_ascii_of_string "_" ++ d.

(** Implications and equivalences are printed without parentheses around a left operand of the same kind. *)
Definition is_fimpl (x : fml) : bool := match x with FImpl _ _ => true | _ => false end.
Definition is_fequiv (x : fml) : bool := match x with FEquiv _ _ => true | _ => false end.
Fixpoint right_nested (x : fml) : Prop :=
  match x with
  | FNot a => right_nested a
  | FAnd l | FOr l => fold_right (fun y P => right_nested y /\ P) True l
  | FImpl a b => is_fimpl a = false /\ right_nested a /\ right_nested b
  | FEquiv a b => is_fequiv a = false /\ right_nested a /\ right_nested b
  | _ => True
  end.
(** The numbers of a pseudo-Boolean constraint are machine integers. *)
Definition i64 (z : Z) : Prop := (- 2 ^ 63 <= z < 2 ^ 63)%Z.
Fixpoint numbers_ok (x : fml) : Prop :=
  match x with
  | FNot a => numbers_ok a
  | FAnd l | FOr l => fold_right (fun y P => numbers_ok y /\ P) True l
  | FImpl a b | FEquiv a b => numbers_ok a /\ numbers_ok b
  | FPbc p => Forall i64 (pb_coeffs p) /\ i64 (pb_rhs p)
  | _ => True
  end.
(** The user variables of the formula have grammatical names that are not reserved; [names] are the names of the factory. *)
Definition names_ok (fid : list ascii) (names : list string) (x : fml) : Prop :=
  forall i n, In (VFF i) (fvars x) -> nthN names i = Some n -> identifier (list_ascii_of_string n) /\ ~ reserved fid (list_ascii_of_string n).
(** If the formula contains auxiliary variables, the identifier of the factory is one the parser recognises. *)
Definition id_ok (fid : list ascii) (x : fml) : Prop := forall a i, In (VAux a i) (fvars x) -> Forall id_char fid.
