(** Reading and writing files: src/io/readers/dimacs_reader.rs, src/io/readers/formula_reader.rs, src/io/writers/formula_writer.rs.

    A file is its contents, a list of bytes; errors of the operating system and invalid UTF-8 are not modelled.  Only ASCII white space is
    trimmed ([char::is_whitespace] also has characters beyond ASCII). *)
From Coq Require Import Ascii String NArith ZArith List Bool.
From Verif Require Import Base EncodingModel Syntax FactoryModel OpsModel ParserModel.
Import ListNotations.
Local Open Scope list_scope.
Local Open Scope N_scope.
Local Open Scope res_scope.

Definition LF : ascii := "010"%char.
Definition CR : ascii := "013"%char.

(** [BufRead::lines]: the end of line is removed, and a carriage return before it; [cur] is the current line, reversed. *)
Definition chomp (cur : text) : text := match cur with c :: r => if Ascii.eqb c CR then rev r else rev cur | [] => [] end.
Fixpoint split_lines (cur s : text) : list text :=
  match s with
  | [] => match cur with [] => [] | _ => [rev cur] end
  | c :: r => if Ascii.eqb c LF then chomp cur :: split_lines [] r else split_lines (c :: cur) r
  end.
Definition lines (s : text) : list text := split_lines [] s.

(** [str::trim]. *)
Definition is_white (c : ascii) : bool := let n := N_of_ascii c in ((9 <=? n) && (n <=? 13)) || (n =? 32).
Fixpoint drop_white (s : text) : text := match s with c :: r => if is_white c then drop_white r else s | [] => [] end.
Definition trim (s : text) : text := rev (drop_white (rev (drop_white s))).
Definition is_nil (s : text) : bool := match s with [] => true | _ => false end.
Definition starts (a : ascii) (s : text) : bool := match s with c :: _ => Ascii.eqb c a | [] => false end.

(** [Regex::split] for the expression [ \t]+: the parts between maximal sequences of blanks. *)
Definition is_blank (c : ascii) : bool := let n := N_of_ascii c in (n =? 32) || (n =? 9).
Fixpoint split_blanks (cur : text) (inside : bool) (s : text) : list text :=
  match s with
  | [] => [rev cur]
  | c :: r => if is_blank c then if inside then split_blanks [] true r else rev cur :: split_blanks [] true r
              else split_blanks (c :: cur) false r
  end.

(** dimacs_reader.rs 63-66. *)
Definition dimacs_lit (prefix t : text) : M N :=
  match strip (tx "-") t with
  | Some r => f_literal (string_of_list_ascii (prefix ++ r)) false
  | None => f_variable (string_of_list_ascii (prefix ++ t))
  end.
(** dimacs_reader.rs 60-68: one line; the operands are created while [or] looks at them. *)
Definition dimacs_line (prefix line : text) : M (option N) :=
  if starts "c"%char line || starts "p"%char line || is_nil (trim line) then ret None
  else
    let parts := split_blanks [] false line in
    if text_eqb (last parts []) (tx "0") then
      h <-- nary_lazy false [] (map (dimacs_lit prefix) (filter (fun t => negb (is_nil t)) (map trim (removelast parts)))) ;;
      ret (Some h)
    else fail.
Fixpoint dimacs_lines (prefix : text) (ls : list text) : M (list N) :=
  match ls with
  | [] => ret []
  | l :: r => o <-- dimacs_line prefix l ;; hs <-- dimacs_lines prefix r ;; ret (match o with Some h => h :: hs | None => hs end)
  end.
(** dimacs_reader.rs 52-71, [read_cnf_with_prefix]; 10-12, [read_cnf], with prefix "v". *)
Definition read_cnf_with_prefix (prefix contents : text) : M (list N) := dimacs_lines prefix (lines contents).
Definition read_cnf (contents : text) : M (list N) := read_cnf_with_prefix (tx "v") contents.

(** formula_reader.rs 30-38, [read_formula]: the [unwrap] panics on a syntax error. *)
Fixpoint read_operands (fid : text) (fuel : nat) (ls : list text) : M (list N) :=
  match ls with
  | [] => ret []
  | l :: r => o <-- parse fid fuel l ;; match o with None => fail | Some h => hs <-- read_operands fid fuel r ;; ret (h :: hs) end
  end.
Definition read_formula (fid : text) (fuel : nat) (contents : text) : M N := ops <-- read_operands fid fuel (lines contents) ;; f_and ops.

(** formula_writer.rs 32-44, [write_formula]: the contents of the written file. *)
Definition write_formula (fid : text) (fuel : nat) (s : factory) (h : N) : res text :=
  do n <- unpack s h;
  match n with
  | NAnd ops => do ts <- rmap (to_string fid fuel s) ops; Ok (concat (map (fun t => t ++ [LF]) ts))
  | _ => to_string fid fuel s h
  end.
