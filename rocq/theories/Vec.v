(** Vectors with in-place updates: lists indexed by [nat]. *)
From Coq Require Import List Arith Lia Bool.
Import ListNotations.

(** [v[i] = x]; unchanged if [i] is out of bounds (the models check the bounds). *)
Fixpoint upd {A} (l : list A) (i : nat) (x : A) : list A :=
  match l, i with
  | [], _ => []
  | _ :: r, O => x :: r
  | y :: r, S k => y :: upd r k x
  end.

(** [v.pop()] on a non-empty vector. *)
Definition vpop {A} (l : list A) : list A := removelast l.

(** collections/vector_functions.rs 1-9, [grow_to]: extend with [x] up to length [n]. *)
Definition grow_to {A} (l : list A) (n : nat) (x : A) : list A := l ++ repeat x (n - length l).

Section Upd.
  Context {A : Type}.
  Implicit Types (l : list A) (x y : A) (i j : nat).
  Lemma upd_length : forall l i x, length (upd l i x) = length l.
  Proof. induction l as [| y l IH]; intros [| i] x; cbn; auto. Qed.
  Lemma upd_same : forall l i x, i < length l -> nth_error (upd l i x) i = Some x.
  Proof. induction l as [| y l IH]; intros [| i] x H; cbn in *; auto; try lia. apply IH. lia. Qed.
  Lemma upd_other : forall l i j x, i <> j -> nth_error (upd l i x) j = nth_error l j.
  Proof. induction l as [| y l IH]; intros [| i] [| j] x H; cbn; auto; try lia. Qed.
  Lemma upd_upd : forall l i x y, upd (upd l i x) i y = upd l i y.
  Proof. induction l as [| z l IH]; intros [| i] x y; cbn; auto. now rewrite IH. Qed.
  Lemma upd_swap : forall l i j x y, i <> j -> upd (upd l i x) j y = upd (upd l j y) i x.
  Proof. induction l as [| z l IH]; intros [| i] [| j] x y H; cbn; auto; try lia. rewrite IH; auto. Qed.
  Lemma upd_id : forall l i x, nth_error l i = Some x -> upd l i x = l.
  Proof. induction l as [| z l IH]; intros [| i] x H; cbn in *; auto; try congruence. now rewrite IH. Qed.
  Lemma nth_upd : forall l i j x, nth_error (upd l i x) j = if i =? j then (if j <? length l then Some x else None) else nth_error l j.
  Proof.
    intros l i j x. destruct (Nat.eqb_spec i j) as [-> | H]; [| now apply upd_other].
    destruct (Nat.ltb_spec j (length l)); [now apply upd_same |]. apply nth_error_None. rewrite upd_length. assumption.
  Qed.
  Lemma nth_some_lt : forall l i x, nth_error l i = Some x -> i < length l.
  Proof. intros l i x H. apply nth_error_Some. congruence. Qed.
  Lemma nth_lt_some : forall l i, i < length l -> exists x, nth_error l i = Some x.
  Proof. intros l i H. destruct (nth_error l i) eqn:E; [eauto |]. apply nth_error_None in E. lia. Qed.
  Lemma upd_in : forall l i x y, In y (upd l i x) -> y = x \/ In y l.
  Proof. induction l as [| z l IH]; intros [| i] x y H; cbn in *; auto; destruct H as [H | H]; auto. apply IH in H. tauto. Qed.

  Lemma pop_snoc : forall l x, vpop (l ++ [x]) = l.
  Proof. intros. unfold vpop. apply removelast_last. Qed.
  Lemma pop_length : forall l, length (vpop l) = length l - 1.
  Proof. intros l. destruct l as [| y l] using rev_ind; [reflexivity |]. rewrite pop_snoc, app_length. cbn. lia. Qed.
  Lemma nth_pop : forall l i, nth_error (vpop l) i = if i <? length l - 1 then nth_error l i else None.
  Proof.
    intros l i. destruct l as [| y l] using rev_ind; [destruct i; reflexivity |]. rewrite pop_snoc, app_length. cbn [length].
    destruct (Nat.ltb_spec i (length l + 1 - 1)); [rewrite nth_error_app1 by lia; reflexivity | apply nth_error_None; lia].
  Qed.
  Lemma nth_snoc : forall l x i, nth_error (l ++ [x]) i = if i =? length l then Some x else nth_error l i.
  Proof.
    intros l x i. destruct (Nat.eqb_spec i (length l)) as [-> | H]; [rewrite nth_error_app2, Nat.sub_diag by lia; reflexivity |].
    destruct (Nat.lt_ge_cases i (length l)); [now rewrite nth_error_app1 |]. transitivity (@None A); [| symmetry]; apply nth_error_None; rewrite ?app_length; cbn; lia.
  Qed.
  Lemma nth_grow : forall l n x i, nth_error (grow_to l n x) i = if i <? length l then nth_error l i else if i <? n then Some x else None.
  Proof.
    intros l n x i. unfold grow_to. destruct (Nat.ltb_spec i (length l)); [now rewrite nth_error_app1 |]. rewrite nth_error_app2 by lia.
    destruct (Nat.ltb_spec i n).
    - rewrite nth_error_repeat; [reflexivity | lia].
    - apply nth_error_None. rewrite repeat_length. lia.
  Qed.
  Lemma grow_length : forall l n x, length (grow_to l n x) = Nat.max (length l) n.
  Proof. intros. unfold grow_to. rewrite app_length, repeat_length. lia. Qed.
End Upd.
