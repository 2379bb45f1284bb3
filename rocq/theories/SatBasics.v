(** Basic facts for the solver proofs: literals, levels, entailment. *)
From Coq Require Import List Arith ZArith NArith Bool Lia Permutation.
From Verif Require Import Base Vec HeapModel HeapProofs SatSpec SatModel.
Import ListNotations.

(** ** Literals *)
Lemma odd_dec : forall l, (exists v, l = 2 * v /\ Nat.even l = true /\ Nat.odd l = false /\ Nat.div2 l = v) \/
                          (exists v, l = S (2 * v) /\ Nat.even l = false /\ Nat.odd l = true /\ Nat.div2 l = v).
Proof.
  intros l. destruct (Nat.even l) eqn:E.
  - left. apply Nat.even_spec in E as E'. destruct E' as [v ->]. exists v. unfold Nat.odd. rewrite E. rewrite Nat.div2_double. auto.
  - right. assert (O : Nat.odd l = true) by (unfold Nat.odd; now rewrite E). apply Nat.odd_spec in O as O'. destruct O' as [v ->]. exists v.
    replace (2 * v + 1) with (S (2 * v)) in * by lia. rewrite Nat.div2_succ_double. auto.
Qed.
Lemma even_dbl : forall v, Nat.even (2 * v) = true.
Proof. intros. apply Nat.even_spec. now exists v. Qed.
Lemma even_dbl1 : forall v, Nat.even (S (2 * v)) = false.
Proof. intros. rewrite Nat.even_succ. unfold Nat.odd. now rewrite even_dbl. Qed.
Lemma lneg_even : forall v, lneg (2 * v) = S (2 * v).
Proof. intros. unfold lneg. now rewrite even_dbl. Qed.
Lemma lneg_odd : forall v, lneg (S (2 * v)) = 2 * v.
Proof. intros. unfold lneg. now rewrite even_dbl1. Qed.
Lemma lneg_inv : forall l, lneg (lneg l) = l.
Proof. intros l. destruct (odd_dec l) as [(v & -> & _) | (v & -> & _)]; [rewrite lneg_even, lneg_odd | rewrite lneg_odd, lneg_even]; reflexivity. Qed.
Lemma lneg_var : forall l, lvar (lneg l) = lvar l.
Proof. intros l. unfold lvar. destruct (odd_dec l) as [(v & -> & _) | (v & -> & _)]; [rewrite lneg_even | rewrite lneg_odd]; rewrite Nat.div2_double, Nat.div2_succ_double; reflexivity. Qed.
Lemma lneg_sign : forall l, lsign (lneg l) = negb (lsign l).
Proof.
  intros l. unfold lsign, Nat.odd. destruct (odd_dec l) as [(v & -> & _) | (v & -> & _)]; [rewrite lneg_even | rewrite lneg_odd];
  now rewrite ?even_dbl, ?even_dbl1.
Qed.
Lemma lneg_neq : forall l, lneg l <> l.
Proof. intros l. unfold lneg. destruct (odd_dec l) as [(v & -> & -> & _) | (v & -> & -> & _)]; lia. Qed.
Lemma lneg_inj : forall a b, lneg a = lneg b -> a = b.
Proof. intros a b H. rewrite <- (lneg_inv a), <- (lneg_inv b). now rewrite H. Qed.
Lemma lneg_swap : forall a b, lneg a = b -> a = lneg b.
Proof. intros a b <-. now rewrite lneg_inv. Qed.
Lemma same_var : forall a b, lvar a = lvar b -> a = b \/ a = lneg b.
Proof.
  intros a b. unfold lvar. destruct (odd_dec a) as [(v & -> & _ & _ & Ea) | (v & -> & _ & _ & Ea)]; destruct (odd_dec b) as [(w & -> & _ & _ & Eb) | (w & -> & _ & _ & Eb)];
  rewrite Ea, Eb; intros ->; rewrite ?lneg_even, ?lneg_odd; auto.
Qed.
Lemma lvar_lt : forall l n, l < 2 * n <-> lvar l < n.
Proof. intros l n. unfold lvar. destruct (odd_dec l) as [(v & -> & _ & _ & ->) | (v & -> & _ & _ & ->)]; lia. Qed.
Lemma lneg_lt : forall l n, lneg l < 2 * n <-> l < 2 * n.
Proof. intros. now rewrite !lvar_lt, lneg_var. Qed.
Lemma mk_lit_var : forall v s, lvar (mk_lit v s) = v.
Proof. intros v [|]; unfold lvar, mk_lit. - replace (v + v + 1) with (S (2 * v)) by lia. apply Nat.div2_succ_double. - replace (v + v + 0) with (2 * v) by lia. apply Nat.div2_double. Qed.
Lemma mk_lit_sign : forall v s, lsign (mk_lit v s) = s.
Proof. intros v [|]; unfold lsign, mk_lit, Nat.odd. - replace (v + v + 1) with (S (2 * v)) by lia. now rewrite even_dbl1. - replace (v + v + 0) with (2 * v) by lia. now rewrite even_dbl. Qed.

Lemma lit_true_neg : forall V l, lit_true V (lneg l) <-> ~ lit_true V l.
Proof.
  intros V l. unfold lit_true. change (Nat.div2 (lneg l)) with (lvar (lneg l)). change (Nat.odd (lneg l)) with (lsign (lneg l)). rewrite lneg_var, lneg_sign.
  unfold lvar, lsign. destruct (V (Nat.div2 l)), (Nat.odd l); cbn; split; congruence.
Qed.
Lemma lit_true_dec : forall V l, {lit_true V l} + {~ lit_true V l}.
Proof. intros. unfold lit_true. apply bool_dec. Qed.

(** ** Entailment by predicates *)
Definition entP (F : list (list nat)) (P : nat -> Prop) : Prop := forall V, all_true V F -> exists l, P l /\ lit_true V l.
Lemma entP_list : forall F c, entails F c <-> entP F (fun l => In l c).
Proof. intros. unfold entails, entP, clause_true. tauto. Qed.
Lemma entP_weak : forall F (P Q : nat -> Prop), entP F P -> (forall l, P l -> Q l) -> entP F Q.
Proof. intros F P Q H I V HV. destruct (H V HV) as (l & A & B). eauto. Qed.
Lemma ent_mono : forall F G c, (forall x, In x F -> In x G) -> entails F c -> entails G c.
Proof. intros F G c I H V HV. apply H. intros x Hx. apply HV. auto. Qed.
Lemma ent_in : forall F c, In c F -> entails F c.
Proof. intros F c H V HV. now apply HV. Qed.
Lemma ent_sub : forall F c d, entails F c -> (forall l, In l c -> In l d) -> entails F d.
Proof. intros F c d H I V HV. destruct (H V HV) as (l & A & B). exists l. auto. Qed.

(** ** Levels from the limits of the trail *)
Fixpoint lv (lim : list nat) (i : nat) : nat :=
  match lim with [] => 0 | x :: r => if x <=? i then S (lv r i) else 0 end.
Definition sorted_lim (lim : list nat) : Prop := forall a b x y, a <= b -> nth_error lim a = Some x -> nth_error lim b = Some y -> x <= y.
Lemma sorted_tail : forall x r, sorted_lim (x :: r) -> sorted_lim r.
Proof. intros x r H a b u v L A B. apply (H (S a) (S b)); auto. lia. Qed.
Lemma sorted_head : forall x r y, sorted_lim (x :: r) -> In y r -> x <= y.
Proof. intros x r y H I. apply In_nth_error in I. destruct I as [k E]. apply (H 0 (S k)); auto. lia. Qed.
Lemma lv_le_len : forall lim i, lv lim i <= length lim.
Proof. induction lim as [| x r IH]; intros i; cbn; [lia |]. destruct (x <=? i); [specialize (IH i) |]; lia. Qed.
Lemma lv_mono : forall lim i j, i <= j -> lv lim i <= lv lim j.
Proof.
  induction lim as [| x r IH]; intros i j H; cbn; [lia |]. destruct (Nat.leb_spec x i), (Nat.leb_spec x j); try lia. specialize (IH i j H). lia.
Qed.
Lemma lv_full : forall lim i, (forall x, In x lim -> x <= i) -> lv lim i = length lim.
Proof.
  induction lim as [| x r IH]; intros i H; cbn; auto. destruct (Nat.leb_spec x i) as [K | K]; [now rewrite IH by (intros; apply H; right; auto) |].
  specialize (H x (or_introl eq_refl)). lia.
Qed.
Lemma lv_gt : forall lim i k x, sorted_lim lim -> nth_error lim k = Some x -> (k < lv lim i <-> x <= i).
Proof.
  induction lim as [| y r IH]; intros i k x S E; [destruct k; discriminate |]. cbn [lv]. destruct k as [| k]; cbn in E.
  - inversion E; subst. destruct (Nat.leb_spec x i); lia.
  - specialize (IH i k x (sorted_tail _ _ S) E). assert (y <= x) by (eapply sorted_head; eauto; eapply nth_error_In; eauto).
    destruct (Nat.leb_spec y i); lia.
Qed.
Lemma lv_firstn : forall lim i k, lv lim i <= k -> lv (firstn k lim) i = lv lim i.
Proof.
  induction lim as [| x r IH]; intros i [| k] H; cbn in *; auto; destruct (x <=? i); try lia. rewrite IH by lia. reflexivity.
Qed.
Lemma lv_firstn_le : forall lim i k, lv (firstn k lim) i <= lv lim i.
Proof. induction lim as [| x r IH]; intros i [| k]; cbn; try lia. destruct (x <=? i); [| lia]. specialize (IH i k). lia. Qed.
Lemma lv_snoc : forall lim i n, i < n -> lv (lim ++ [n]) i = lv lim i.
Proof.
  induction lim as [| x r IH]; intros i n H; cbn.
  - destruct (Nat.leb_spec n i); [lia | reflexivity].
  - destruct (x <=? i); auto.
Qed.
Lemma sorted_firstn : forall lim k, sorted_lim lim -> sorted_lim (firstn k lim).
Proof.
  intros lim k S a b x y L A B.
  assert (G : forall i z, nth_error (firstn k lim) i = Some z -> nth_error lim i = Some z).
  { clear. revert k. induction lim as [| w r IH]; intros [| k] [| i] z H; cbn in *; try discriminate; eauto. }
  apply (S a b); auto.
Qed.
Lemma sorted_snoc : forall lim n, sorted_lim lim -> (forall x, In x lim -> x <= n) -> sorted_lim (lim ++ [n]).
Proof.
  intros lim n S H a b x y L A B. rewrite nth_snoc in A, B.
  destruct (Nat.eqb_spec b (length lim)); [| destruct (Nat.eqb_spec a (length lim))].
  - inversion B; subst. destruct (Nat.eqb_spec a (length lim)); [inversion A; lia |]. apply H. eapply nth_error_In; eauto.
  - apply nth_some_lt in B. lia.
  - eapply S; eauto.
Qed.

(** ** Lists *)
Lemma in_firstn : forall A (l : list A) k x, In x (firstn k l) -> In x l.
Proof. intros A l k x H. rewrite <- (firstn_skipn k l). apply in_or_app. auto. Qed.
Lemma nth_firstn : forall A (l : list A) k i, nth_error (firstn k l) i = if i <? k then nth_error l i else None.
Proof.
  induction l as [| y r IH]; intros [| k] [| i]; cbn [firstn nth_error]; auto.
  - destruct (S i <? S k); reflexivity.
  - rewrite IH. reflexivity.
Qed.
Lemma nth_skipn : forall A (l : list A) k i, nth_error (skipn k l) i = nth_error l (k + i).
Proof. induction l as [| y r IH]; intros [| k] i; cbn [skipn nth_error Nat.add]; auto. destruct i; reflexivity. Qed.
Lemma nth_of_some : forall A (l : list A) i x d, nth_error l i = Some x -> nth i l d = x.
Proof. intros. now apply nth_error_nth. Qed.
Lemma nth_upd_eq : forall A (l : list A) i x d, i < length l -> nth i (upd l i x) d = x.
Proof. intros. apply nth_of_some. now apply upd_same. Qed.
Lemma nth_upd_neq : forall A (l : list A) i j x d, i <> j -> nth j (upd l i x) d = nth j l d.
Proof. induction l as [| y l IH]; intros [| i] [| j] x d H; cbn; auto; try lia. Qed.
Lemma nth_err_def : forall A (l : list A) i d, i < length l -> nth_error l i = Some (nth i l d).
Proof. intros. now apply nth_error_nth'. Qed.

(** ** Values *)
Lemma asg_neg : forall vs l, asg_of vs (lneg l) = option_map negb (asg_of vs l).
Proof. intros. unfold asg_of. rewrite lneg_var, lneg_sign. destruct (lsign l), (v_asg _) as [[|]|]; reflexivity. Qed.
Lemma asg_undef : forall vs l, asg_of vs l = None <-> v_asg (nth (lvar l) vs dvar) = None.
Proof. intros. unfold asg_of. destruct (lsign l), (v_asg _) as [[|]|]; cbn; split; congruence. Qed.
