(** Fermat's little theorem for natural numbers: multiplication by [w] permutes the numbers from 1 to [p - 1] modulo [p]. *)
From Coq Require Import PeanoNat List Lia Permutation.
Import ListNotations.

Definition product (l : list nat) : nat := fold_right Nat.mul 1 l.
Lemma product_perm : forall a b, Permutation a b -> product a = product b.
Proof. intros a b H. unfold product. induction H; cbn [fold_right]; lia. Qed.

Section Fermat.
Variables p w : nat.
Hypothesis Hp : 2 <= p.
Hypothesis Hd : forall d, Nat.divide d p -> d = 1 \/ d = p.
Hypothesis Hw : 1 <= w < p.

Lemma cancel : forall m z, 1 <= m < p -> Nat.divide p (m * z) -> Nat.divide p z.
Proof.
  intros m z Hm H. apply (Nat.gauss p m z H). destruct (Hd (Nat.gcd p m) (Nat.gcd_divide_l p m)) as [E | E]; [exact E |]. exfalso.
  pose proof (Nat.gcd_divide_r p m) as G. rewrite E in G. apply Nat.divide_pos_le in G; lia.
Qed.
Lemma cancel_product : forall l z, (forall m, In m l -> 1 <= m < p) -> Nat.divide p (product l * z) -> Nat.divide p z.
Proof.
  unfold product. induction l as [| m l IH]; cbn [fold_right]; intros z Hl H; [now rewrite Nat.mul_1_l in H |]. apply IH; [intros; apply Hl; now right |]. apply (cancel m); [apply Hl; now left |]. now rewrite Nat.mul_assoc.
Qed.

Definition times (x : nat) : nat := (w * x) mod p.
Lemma times_eq : forall x, exists q, w * x = times x + q * p.
Proof. intros x. exists (w * x / p). unfold times. pose proof (Nat.div_mod (w * x) p ltac:(lia)). lia. Qed.
Lemma times_le : forall x y, x <= y -> y < p -> times x = times y -> x = y.
Proof.
  intros x y Hxy Hy E. destruct (times_eq x) as [a Ha]. destruct (times_eq y) as [b Hb]. rewrite <- E in Hb.
  assert (D : Nat.divide p (w * (y - x))). { exists (b - a). rewrite Nat.mul_sub_distr_l, Nat.mul_sub_distr_r. lia. }
  apply cancel in D; [| exact Hw]. destruct (Nat.eq_dec x y) as [| N]; [assumption |]. apply Nat.divide_pos_le in D; lia.
Qed.
Lemma times_range : forall x, 1 <= x < p -> 1 <= times x < p.
Proof.
  intros x Hx. split; [| apply Nat.mod_upper_bound; lia]. destruct (Nat.eq_dec (times x) 0) as [E |]; [| lia]. exfalso. destruct (times_eq x) as [q Hq]. rewrite E in Hq.
  assert (D : Nat.divide p (w * x)) by (exists q; lia). apply cancel in D; [| exact Hw]. apply Nat.divide_pos_le in D; lia.
Qed.
Lemma times_once : forall l, NoDup l -> (forall x, In x l -> 1 <= x < p) -> NoDup (map times l).
Proof.
  induction l as [| x l IH]; intros N H; cbn [map]; [constructor |]. inversion N; subst. constructor; [| apply IH; [assumption | intros; apply H; now right]].
  intros G. apply in_map_iff in G. destruct G as [y [E Hy]]. assert (x = y); [| now subst]. pose proof (H x (or_introl eq_refl)). pose proof (H y (or_intror Hy)).
  destruct (Nat.le_ge_cases x y); [apply times_le; auto; lia | symmetry; apply times_le; auto; lia].
Qed.
Lemma times_product : forall l, exists k, w ^ length l * product l = product (map times l) + k * p.
Proof.
  unfold product. induction l as [| x l [k IH]]; cbn [length map fold_right Nat.pow]; [exists 0; lia |]. destruct (times_eq x) as [q Hq].
  exists (times x * k + q * (fold_right Nat.mul 1 (map times l) + k * p)).
  replace (w * w ^ length l * (x * fold_right Nat.mul 1 l)) with ((w * x) * (w ^ length l * fold_right Nat.mul 1 l)) by lia. rewrite IH, Hq. lia.
Qed.
Lemma fermat_lt : exists k, Nat.pow w (Nat.sub p 1) = Nat.add 1 (Nat.mul k p).
Proof.
  set (l := seq 1 (p - 1)). assert (Hl : forall x, In x l <-> 1 <= x < p). { intros x. unfold l. rewrite in_seq. lia. }
  assert (P : Permutation (map times l) l).
  { apply NoDup_Permutation_bis; [apply times_once; [apply seq_NoDup | apply Hl] | rewrite map_length; lia |].
    intros y Hy. apply in_map_iff in Hy. destruct Hy as [x [<- Hx]]. apply Hl, times_range, Hl, Hx. }
  destruct (times_product l) as [k E]. rewrite (product_perm _ _ P) in E. unfold l in E at 1. rewrite seq_length in E.
  assert (1 <= w ^ (p - 1)). { pose proof (Nat.pow_nonzero w (p - 1)). lia. }
  assert (D : Nat.divide p (product l * (w ^ (p - 1) - 1))). { exists k. rewrite Nat.mul_sub_distr_l. lia. }
  apply cancel_product in D; [| apply Hl]. destruct D as [j D]. exists j. lia.
Qed.
End Fermat.
Lemma fermat : forall p w : nat, 2 <= p -> (forall d, Nat.divide d p -> d = 1 \/ d = p) -> 1 <= w -> w < p ->
  exists k, Nat.pow w (Nat.sub p 1) = Nat.add 1 (Nat.mul k p).
Proof. intros p w Hp Hd H1 H2. apply fermat_lt; auto. Qed.
