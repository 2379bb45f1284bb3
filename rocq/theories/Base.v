(** Shared infrastructure: results with panics and fuel, vectors indexed by [N], association lists. *)
From Coq Require Import NArith ZArith List Bool Lia.
Import ListNotations.

(** Result of a modelled Rust call: a value, a Rust panic, or exhausted recursion fuel (a model artefact which no
    theorem treats as success). *)
Inductive res (A : Type) : Type :=
| Ok (a : A)
| Panic
| NoFuel.
Arguments Ok {A} a.
Arguments Panic {A}.
Arguments NoFuel {A}.

Definition rbind {A B} (r : res A) (k : A -> res B) : res B :=
  match r with Ok a => k a | Panic => Panic | NoFuel => NoFuel end.

Declare Scope res_scope.
Delimit Scope res_scope with res.
Notation "'do' x <- r ; k" := (rbind r (fun x => k)) (at level 60, x name, r at level 200, right associativity) : res_scope.
Notation "'do' ' p <- r ; k" := (rbind r (fun x => match x with p => k end))
  (at level 60, p pattern, r at level 200, right associativity) : res_scope.

(** Option to result: [None] is a panic (an [unwrap] or an index out of bounds). *)
Definition of_opt {A} (o : option A) : res A := match o with Some a => Ok a | None => Panic end.

Lemma rbind_ok : forall A B (r : res A) (k : A -> res B) b,
  rbind r k = Ok b -> exists a, r = Ok a /\ k a = Ok b.
Proof. intros A B [a | | ] k b H; cbn in H; try discriminate. exists a; auto. Qed.

Ltac inv_bind H :=
  let a := fresh "a" in let Ha := fresh "Ha" in
  apply rbind_ok in H; destruct H as [a [Ha H]].

(** [vec[i]] with an [N] index; [None] = out of bounds. *)
Fixpoint nthN {A} (l : list A) (i : N) : option A :=
  match l with
  | [] => None
  | x :: r => if (i =? 0)%N then Some x else nthN r (N.pred i)
  end.

Definition lenN {A} (l : list A) : N := N.of_nat (length l).

Lemma nthN_nth_error : forall A (l : list A) i, nthN l i = nth_error l (N.to_nat i).
Proof.
  induction l as [| x l IH]; intros i; cbn [nthN].
  - destruct (N.to_nat i); reflexivity.
  - destruct (N.eqb_spec i 0) as [-> | Hi]; [reflexivity |].
    rewrite IH. replace (N.to_nat i) with (S (N.to_nat (N.pred i))) by lia. reflexivity.
Qed.

Lemma nthN_some_lt : forall A (l : list A) i x, nthN l i = Some x -> (i < lenN l)%N.
Proof.
  intros A l i x H. rewrite nthN_nth_error in H.
  assert (N.to_nat i < length l)%nat by (apply nth_error_Some; congruence).
  unfold lenN. lia.
Qed.

Lemma nthN_lt_some : forall A (l : list A) i, (i < lenN l)%N -> exists x, nthN l i = Some x.
Proof.
  intros A l i H. rewrite nthN_nth_error.
  destruct (nth_error l (N.to_nat i)) eqn:E; [eauto |].
  apply nth_error_None in E. unfold lenN in H. lia.
Qed.

Lemma nthN_app_l : forall A (l l' : list A) i x, nthN l i = Some x -> nthN (l ++ l') i = Some x.
Proof.
  intros A l l' i x H. pose proof (nthN_some_lt _ _ _ _ H) as Hl.
  rewrite nthN_nth_error in *. rewrite nth_error_app1; auto. unfold lenN in Hl. lia.
Qed.

Lemma nthN_app_last : forall A (l : list A) x, nthN (l ++ [x]) (lenN l) = Some x.
Proof.
  intros A l x. rewrite nthN_nth_error. unfold lenN. rewrite Nnat.Nat2N.id.
  rewrite nth_error_app2 by lia. rewrite Nat.sub_diag. reflexivity.
Qed.

Lemma nthN_app_inv : forall A (l : list A) x i y,
  nthN (l ++ [x]) i = Some y -> nthN l i = Some y \/ (i = lenN l /\ y = x).
Proof.
  intros A l x i y H.
  pose proof (nthN_some_lt _ _ _ _ H) as Hi. unfold lenN in Hi. rewrite app_length in Hi. cbn in Hi.
  rewrite nthN_nth_error in H.
  destruct (lt_dec (N.to_nat i) (length l)) as [Hlt | Hge].
  - left. rewrite nthN_nth_error. rewrite nth_error_app1 in H by assumption. exact H.
  - right. assert (Hi' : i = lenN l) by (unfold lenN; lia). split; [exact Hi' |].
    subst i. unfold lenN in H. rewrite Nnat.Nat2N.id in H.
    rewrite nth_error_app2 in H by lia. rewrite Nat.sub_diag in H. cbn in H. congruence.
Qed.

Lemma nthN_In : forall A (l : list A) i x, nthN l i = Some x -> In x l.
Proof. intros A l i x H. rewrite nthN_nth_error in H. eapply nth_error_In; eauto. Qed.

Lemma In_nthN : forall A (l : list A) x, In x l -> exists i, nthN l i = Some x.
Proof.
  intros A l x H. apply In_nth_error in H. destruct H as [n Hn].
  exists (N.of_nat n). rewrite nthN_nth_error, Nnat.Nat2N.id. exact Hn.
Qed.

Lemma lenN_app : forall A (l l' : list A), lenN (l ++ l') = (lenN l + lenN l')%N.
Proof. intros. unfold lenN. rewrite app_length. lia. Qed.

Lemma lenN_cons : forall A (x : A) l, lenN (x :: l) = (1 + lenN l)%N.
Proof. intros. unfold lenN. cbn [length]. lia. Qed.

(** Association list lookup with a Boolean key comparison; models the lookups in [HashMap] and [DashMap]. *)
Fixpoint assoc {K V} (eqb : K -> K -> bool) (k : K) (m : list (K * V)) : option V :=
  match m with
  | [] => None
  | (k', v) :: r => if eqb k k' then Some v else assoc eqb k r
  end.

Lemma assoc_some : forall K V (eqb : K -> K -> bool) k (m : list (K * V)) v,
  assoc eqb k m = Some v -> exists k', In (k', v) m /\ eqb k k' = true.
Proof.
  induction m as [| [k' v'] m IH]; intros v H; cbn [assoc] in H; [discriminate |].
  destruct (eqb k k') eqn:E.
  - injection H as ->. exists k'; split; [left; reflexivity | assumption].
  - destruct (IH _ H) as [k'' [Hin He]]. exists k''; split; [right; assumption | assumption].
Qed.

Lemma assoc_none : forall K V (eqb : K -> K -> bool) k (m : list (K * V)),
  assoc eqb k m = None -> forall k' v, In (k', v) m -> eqb k k' = false.
Proof.
  induction m as [| [k0 v0] m IH]; intros H k' v Hin; cbn [assoc] in H; [destruct Hin |].
  destruct (eqb k k0) eqn:E; [discriminate |].
  destruct Hin as [Heq | Hin].
  - injection Heq as <- <-. assumption.
  - eapply IH; eauto.
Qed.

(** Membership in a list of [N]; models [HashSet::contains] and [BTreeSet::contains]. *)
Definition memN (x : N) (l : list N) : bool := existsb (N.eqb x) l.

Lemma memN_In : forall x l, memN x l = true <-> In x l.
Proof.
  intros x l. unfold memN. rewrite existsb_exists. split.
  - intros [y [Hy He]]. apply N.eqb_eq in He. subst. assumption.
  - intros H. exists x. split; [assumption | apply N.eqb_refl].
Qed.

Lemma memN_false : forall x l, memN x l = false <-> ~ In x l.
Proof.
  intros x l. rewrite <- memN_In. destruct (memN x l); split; intros; congruence.
Qed.

(** Equality of sets given as lists ([HashSet::eq]). *)
Definition set_eqb (a b : list N) : bool := forallb (fun x => memN x b) a && forallb (fun x => memN x a) b.

Lemma set_eqb_spec : forall a b, set_eqb a b = true <-> (forall x, In x a <-> In x b).
Proof.
  intros a b. unfold set_eqb. rewrite andb_true_iff, !forallb_forall. split.
  - intros [H1 H2] x. split; intros Hx.
    + apply memN_In. apply H1; assumption.
    + apply memN_In. apply H2; assumption.
  - intros H. split; intros x Hx; apply memN_In; apply H; assumption.
Qed.
