(** Anonymising files (src/util/file_anonymizer.rs). Simplification: the contents of the files are given; see IoModel. *)
From Coq Require Import String NArith List.
From Verif Require Import Base FactoryModel TransModel ParserModel IoModel.

(** file_anonymizer.rs 28-32, [anonymize_file_with_anonymizer]: the contents of the written file and the anonymizer. *)
Definition anonymize_file_with_anonymizer (fid : text) (fuel : nat) (contents : text) (a : anonymizer) : M (text * anonymizer) :=
  h <-- read_formula fid fuel contents ;;
  p <-- anonymize fuel h a ;;
  t <-- lift (fun s => write_formula fid fuel s (fst p)) ;;
  ret (t, snd p).

(** file_anonymizer.rs 13-19, [anonymize_file]; run in a new factory. *)
Definition anonymize_file (fid : text) (fuel : nat) (contents : text) (prefix : String.string) : M text :=
  h <-- read_formula fid fuel contents ;;
  p <-- anonymize fuel h (anonymizer_new prefix) ;;
  lift (fun s => write_formula fid fuel s (fst p)).
