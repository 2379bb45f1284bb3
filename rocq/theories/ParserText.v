(** Texts, numbers and the grammar of ParserModel.v, independent of the factory: the text of a parenthesised expression is parsed back. *)
From Coq Require Import Ascii String Decimal DecimalString DecimalFacts DecimalPos DecimalN NArith ZArith Bool Arith Lia List.
From Verif Require Import Base EncodingModel Syntax FactoryModel ParserModel.
Import ListNotations.
Local Open Scope list_scope.
Local Open Scope nat_scope.

Ltac ascii_cases c := destruct c as [[] [] [] [] [] [] [] []]; vm_compute.

Definition is_name_char (c : ascii) : bool := is_alnum c || is_us c.
Lemma name_char_ws : forall c, is_name_char c = true -> is_ws c = false.
Proof. intros c. ascii_cases c; congruence. Qed.
Lemma digit_name_char : forall c, is_digit c = true -> is_name_char c = true.
Proof. intros c. ascii_cases c; congruence. Qed.
Lemma upper_name_char : forall c, is_upper c = true -> is_name_char c = true.
Proof. intros c. ascii_cases c; congruence. Qed.

Lemma strip_app : forall p s, strip p (p ++ s) = Some s.
Proof. induction p as [ | a p IH]; intros s; [destruct s; auto | ]. simpl. rewrite Ascii.eqb_refl. auto. Qed.
Lemma skip_ws : forall s, match skip s with c :: _ => is_ws c = false | [] => True end.
Proof. induction s as [ | c s IH]; cbn [skip]; auto. destruct (is_ws c) eqn:E; auto. Qed.
Lemma skip_solid : forall s, match s with c :: _ => is_ws c = false | [] => True end -> skip s = s.
Proof. intros [ | c s] H; auto. cbn [skip]. rewrite H. auto. Qed.
Lemma skip_skip : forall s, skip (skip s) = skip s.
Proof. intros s. apply skip_solid. apply skip_ws. Qed.
Lemma skip_len : forall s, length (skip s) <= length s.
Proof. induction s as [ | c s IH]; cbn [skip]; auto. destruct (is_ws c); cbn [length]; lia. Qed.
Lemma skip_cons : forall c s, is_ws c = false -> skip (c :: s) = c :: s.
Proof. intros c s H. cbn [skip]. rewrite H. auto. Qed.

(** Nonempty and not starting with white space. *)
Definition solid (s : text) : Prop := match s with c :: _ => is_ws c = false | [] => False end.
Lemma solid_app : forall s r, solid s -> solid (s ++ r).
Proof. intros [ | c s] r H; [destruct H | exact H]. Qed.
Lemma skip_app : forall s r, solid s -> skip (s ++ r) = s ++ r.
Proof. intros s r H. apply skip_solid. destruct s; [destruct H | exact H]. Qed.
Lemma skip_space : forall s r, solid s -> skip (tx " " ++ s ++ r) = s ++ r.
Proof. intros s r H. cbn [tx list_ascii_of_string app skip]. rewrite skip_app by auto. reflexivity. Qed.

Definition head_not (p : ascii -> bool) (s : text) : Prop := match s with c :: _ => p c = false | [] => True end.
Lemma span_app : forall p n r, Forall (fun c => p c = true) n -> head_not p r -> span p (n ++ r) = (n, r).
Proof.
  intros p n r H Hr. induction H as [ | c n Hc H IH]; cbn [app span].
  - destruct r as [ | c r]; auto. cbn [head_not] in Hr. cbn [span]. rewrite Hr. auto.
  - rewrite Hc, IH. auto.
Qed.

(** Grammatical names. *)
Definition good_name (n : text) : Prop :=
  match n with c :: r => (is_name_char c = true \/ c = "@"%char) /\ Forall (fun c => is_name_char c = true) r | [] => False end.
Lemma good_name_solid : forall n, good_name n -> solid n.
Proof. intros [ | c n] H; [destruct H | ]. destruct H as [[H | ->] _]; [apply name_char_ws; auto | reflexivity]. Qed.
Lemma p_name_app : forall n r, good_name n -> head_not is_name_char r -> p_name (n ++ r) = Some (n, r).
Proof.
  intros [ | c n] r H Hr; [destruct H | ]. destruct H as [H1 H2]. cbn [app p_name].
  assert (E : is_alnum c || is_us c || Ascii.eqb c "@" = true).
  { destruct H1 as [H1 | ->]; [unfold is_name_char in H1; rewrite H1; auto | reflexivity]. }
  rewrite E. change (fun c => is_alnum c || is_us c) with is_name_char. rewrite span_app by auto. auto.
Qed.
Lemma good_name_tilde : forall n r, good_name n -> strip (tx "~") (n ++ r) = None.
Proof.
  intros [ | c n] r H; [destruct H | ]. destruct H as [H1 _]. cbn [tx list_ascii_of_string app strip].
  destruct (Ascii.eqb "~" c) eqn:E; auto. apply Ascii.eqb_eq in E. subst c. destruct H1 as [H1 | H1]; [vm_compute in H1; discriminate | discriminate].
Qed.

(* ------------------------------------------------------------------------------------------------------------------ *)
(** * Numbers *)

Lemma string_of_uint_digits : forall d, Forall (fun c => is_digit c = true) (tx (NilEmpty.string_of_uint d)).
Proof. induction d; cbn [NilEmpty.string_of_uint tx list_ascii_of_string]; constructor; auto. Qed.
Lemma show_N_digits : forall n, Forall (fun c => is_digit c = true) (show_N n) /\ show_N n <> [].
Proof.
  intros n. unfold show_N, NilZero.string_of_uint. destruct (N.to_uint n) eqn:E;
    (split; [ | discriminate]); try apply (string_of_uint_digits (_ _)); try exact (string_of_uint_digits (D0 Nil)).
Qed.
Lemma uint_of_to : forall n, NilZero.uint_of_string (NilZero.string_of_uint (N.to_uint n)) = Some (N.to_uint n).
Proof.
  intros n. apply NilZero.usu. destruct n as [ | p]; [discriminate | ]. apply DecimalPos.Unsigned.to_uint_nonnil.
Qed.
Lemma tx_inv : forall t, tx (string_of_list_ascii t) = t.
Proof. intros t. apply list_ascii_of_string_of_list_ascii. Qed.
Lemma tx_inv' : forall s, string_of_list_ascii (tx s) = s.
Proof. intros t. apply string_of_list_ascii_of_string. Qed.
Lemma read_show_N : forall n, read_N (show_N n) = Some n.
Proof. intros n. unfold read_N, show_N. rewrite tx_inv', uint_of_to, Unsigned.of_to. auto. Qed.

Lemma digits_minus : forall d r, Forall (fun c => is_digit c = true) d -> d <> [] -> strip (tx "-") (d ++ r) = None.
Proof.
  intros [ | c d] r H H'; [congruence | ]. inversion H; subst. cbn [tx list_ascii_of_string app strip]. destruct (Ascii.eqb "-" c) eqn:E; auto.
  apply Ascii.eqb_eq in E. subst c. discriminate.
Qed.
Lemma p_number_N : forall n r, head_not is_digit r -> p_number (show_N n ++ r) = Some (show_N n, r).
Proof.
  intros n r H. destruct (show_N_digits n) as [D1 D2]. unfold p_number. rewrite digits_minus by auto. rewrite span_app by auto.
  destruct (show_N n); [congruence | ]. auto.
Qed.
Lemma p_number_Z : forall z r, head_not is_digit r -> p_number (show_Z z ++ r) = Some (show_Z z, r).
Proof.
  intros z r H. destruct z as [ | p | p]; try (apply p_number_N; auto). unfold show_Z, p_number. rewrite <- app_assoc, strip_app.
  destruct (show_N_digits (Npos p)) as [D1 D2]. rewrite span_app by auto. destruct (show_N (N.pos p)); [congruence | ]. auto.
Qed.
Lemma show_N_solid : forall n, solid (show_N n).
Proof.
  intros n. destruct (show_N_digits n) as [D1 D2]. destruct (show_N n); [congruence | ]. inversion D1; subst. apply name_char_ws. apply digit_name_char. auto.
Qed.
Lemma show_Z_solid : forall z, solid (show_Z z).
Proof. intros [ | p | p]; try apply show_N_solid. reflexivity. Qed.

Definition in_i64 (z : Z) : Prop := (-9223372036854775808 <= z <= 9223372036854775807)%Z.
Lemma read_show_Z : forall z s, in_i64 z -> read_i64 (show_Z z) s = (Ok z, s).
Proof.
  intros z s H. unfold in_i64 in H. unfold read_i64.
  assert (E : match strip (tx "-") (show_Z z) with
        | Some r => match read_N r with Some n => Some (- Z.of_N n)%Z | None => None end
        | None => match read_N (show_Z z) with Some n => Some (Z.of_N n) | None => None end
        end = Some z).
  { destruct z as [ | p | p]; unfold show_Z.
    - destruct (show_N_digits (Z.to_N 0)) as [D1 D2]. rewrite <- (app_nil_r (show_N (Z.to_N 0))) at 1. rewrite digits_minus by auto. rewrite read_show_N. auto.
    - destruct (show_N_digits (Z.to_N (Zpos p))) as [D1 D2]. rewrite <- (app_nil_r (show_N (Z.to_N (Z.pos p)))) at 1. rewrite digits_minus by auto. rewrite read_show_N. auto.
    - rewrite strip_app, read_show_N. auto. }
  rewrite E. destruct (Z.leb_spec (-9223372036854775808) z); [ | lia]. destruct (Z.leb_spec z 9223372036854775807); [ | lia]. reflexivity.
Qed.
