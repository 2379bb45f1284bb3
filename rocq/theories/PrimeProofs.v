(** The prime search: primes are never rejected, and the loops end. *)
From Coq Require Import NArith List Bool Arith Lia Nnat.
From Verif Require Import Base FactoryModel PrimeModel.
From Verif Require PrimeFermat.
Import ListNotations.
Local Open Scope N_scope.

(** The specification: a prime number has two divisors. *)
Definition prime_number (p : N) : Prop := 1 < p /\ forall d, (d | p) -> d = 1 \/ d = p.

(* ------------------------------------------------------------------------------------------------------------------ *)
(** * Number theory *)

Lemma fermat_N : forall p w, prime_number p -> 1 <= w -> w < p -> w ^ (p - 1) mod p = 1.
Proof.
  intros p w [Hp Hd] H1 H2. destruct (PrimeFermat.fermat (N.to_nat p) (N.to_nat w)) as [k Hk]; try lia.
  - intros d [q Hq]. destruct (Hd (N.of_nat d)) as [E | E]; [exists (N.of_nat q); lia | left; lia | right; lia].
  - apply (f_equal N.of_nat) in Hk. rewrite Nat2N.inj_pow, N2Nat.id, Nat2N.inj_sub, N2Nat.id, Nat2N.inj_add, Nat2N.inj_mul, N2Nat.id in Hk. change (N.of_nat 1) with 1 in Hk.
    rewrite Hk, N.mod_add by lia. apply N.mod_small. assumption.
Qed.
Lemma prime_euclid : forall p a b, prime_number p -> (p | a * b) -> (p | a) \/ (p | b).
Proof.
  intros p a b [Hp Hd] H. destruct (Hd (N.gcd p a) (N.gcd_divide_l p a)) as [E | E].
  - right. eapply N.gauss; eauto.
  - left. rewrite <- E. apply N.gcd_divide_r.
Qed.
Lemma divide_small : forall p a, (p | a) -> a < p -> a = 0.
Proof. intros p a [k ->] H. destruct k; [reflexivity | nia]. Qed.
Lemma square_one : forall p d, prime_number p -> d < p -> (d * d) mod p = 1 -> d = 1 \/ d = p - 1.
Proof.
  intros p d Hp Hd H. pose proof (proj1 Hp) as H1. destruct (N.eq_dec d 0) as [-> | Hz]; [rewrite N.mod_0_l in H by lia; discriminate |].
  pose proof (N.div_mod (d * d) p ltac:(lia)) as E. rewrite H in E.
  assert (Hdiv : (p | (d - 1) * (d + 1))). { exists (d * d / p). nia. }
  apply prime_euclid in Hdiv; [| assumption]. destruct Hdiv as [Hdiv | Hdiv].
  - left. apply divide_small in Hdiv; lia.
  - right. destruct (N.eq_dec (d + 1) p) as [E' | E']; [lia |]. apply divide_small in Hdiv; lia.
Qed.
Lemma prime_odd : forall p, prime_number p -> p <> 2 -> N.odd p = true.
Proof.
  intros p [Hp Hd] H. destruct (N.odd p) eqn:E; [reflexivity |]. rewrite <- N.negb_even in E. apply negb_false_iff, N.even_spec in E. destruct E as [k Hk].
  destruct (Hd 2) as [E | E]; [exists k; lia | discriminate | congruence].
Qed.

(* ------------------------------------------------------------------------------------------------------------------ *)
(** * The test *)

Lemma mulmod_ok : forall a b c, a < c -> b < c -> c <= 2147483648 -> mulmod a b c = Ok ((a * b) mod c).
Proof.
  intros a b c Ha Hb Hc. unfold mulmod. replace (usize_max <=? a * b) with false by (symmetry; apply N.leb_gt; unfold usize_max; nia).
  replace (c =? 0) with false by (symmetry; apply N.eqb_neq; lia). reflexivity.
Qed.
Lemma high_bit_spec : forall n src, 0 < src -> src < 2 ^ N.of_nat n -> 0 < high_bit n src /\ src < 2 ^ high_bit n src.
Proof.
  induction n as [| n IH]; intros src H0 H; [change (2 ^ N.of_nat 0) with 1 in H; lia |]. cbn [high_bit]. unfold bit_is_set. destruct (N.testbit src (N.of_nat n)) eqn:E.
  - rewrite Nat2N.inj_succ in H. split; [lia |]. now rewrite N.add_1_r.
  - apply IH; [assumption |]. rewrite Nat2N.inj_succ, N.pow_succ_r' in H. rewrite N.testbit_eqb in E. apply N.eqb_neq in E.
    assert (Hp : 2 ^ N.of_nat n <> 0) by (apply N.pow_nonzero; lia).
    assert (Hq : src / 2 ^ N.of_nat n < 2) by (apply N.div_lt_upper_bound; [assumption | lia]).
    assert (Hq0 : src / 2 ^ N.of_nat n = 0).
    { revert E Hq. generalize (src / 2 ^ N.of_nat n). intros q E Hq. destruct (N.eq_dec q 0) as [C | C]; [assumption |]. assert (q = 1) by lia. subst q. exfalso. apply E. reflexivity. }
    apply N.div_small_iff; assumption.
Qed.
Lemma bits_spec : forall src, 0 < src -> src < 2147483648 -> 0 < number_of_bits src /\ N.shiftr src (number_of_bits src) = 0.
Proof.
  intros src H0 H. unfold number_of_bits. replace (src =? 0) with false by (symmetry; apply N.eqb_neq; lia).
  destruct (high_bit_spec 31 src H0 H) as [A B]. split; [assumption |]. rewrite N.shiftr_div_pow2. now apply N.div_small.
Qed.
Lemma shiftr_step : forall a i, N.shiftr a i = 2 * N.shiftr a (N.succ i) + N.b2n (N.testbit a i).
Proof.
  intros a i. rewrite N.shiftr_succ_r. rewrite (N.div2_odd (N.shiftr a i)) at 1. f_equal. f_equal. rewrite <- N.bit0_odd, N.shiftr_spec by apply N.le_0_l. reflexivity.
Qed.

Lemma witness_loop_ends : forall n w src d, d < src -> w < src -> src <= 2147483648 -> exists b, witness_loop n w src d = Ok b.
Proof.
  induction n as [| n IH]; intros w src d Hd Hw Hs; cbn [witness_loop]; [eexists; reflexivity |]. rewrite mulmod_ok by assumption. cbn [rbind].
  destruct (_ && _ && _); [eexists; reflexivity |]. assert (Hm : (d * d) mod src < src) by (apply N.mod_lt; lia). destruct (bit_is_set _ _); cbn [rbind].
  - rewrite mulmod_ok by assumption. cbn [rbind]. apply IH; auto. apply N.mod_lt. lia.
  - apply IH; auto.
Qed.
Lemma witness_loop_prime : forall p w, prime_number p -> 1 <= w -> w < p -> p <= 2147483648 -> forall n d, d = w ^ N.shiftr (p - 1) (N.of_nat n) mod p -> witness_loop n w p d = Ok false.
Proof.
  intros p w Hp H1 H2 Hs. pose proof (proj1 Hp) as Hp1. induction n as [| n IH]; intros d Ed; cbn [witness_loop].
  - change (N.of_nat 0) with 0 in Ed. rewrite N.shiftr_0_r, fermat_N in Ed by assumption. subst d. reflexivity.
  - assert (Hd : d < p) by (subst d; apply N.mod_lt; lia). rewrite mulmod_ok by assumption. cbn [rbind].
    replace ((((d * d) mod p) =? 1) && negb (d =? 1) && negb (d =? p - 1)) with false.
    2:{ symmetry. destruct (((d * d) mod p) =? 1) eqn:E; [| reflexivity]. apply N.eqb_eq in E. destruct (square_one p d Hp Hd E) as [-> | ->]; [reflexivity |]. rewrite N.eqb_refl. now rewrite andb_false_r. }
    assert (Hm : (d * d) mod p < p) by (apply N.mod_lt; lia).
    assert (E2 : (d * d) mod p = w ^ (2 * N.shiftr (p - 1) (N.succ (N.of_nat n))) mod p).
    { subst d. rewrite Nat2N.inj_succ. rewrite <- N.mul_mod by lia. f_equal. replace (2 * N.shiftr (p - 1) (N.succ (N.of_nat n))) with (N.shiftr (p - 1) (N.succ (N.of_nat n)) + N.shiftr (p - 1) (N.succ (N.of_nat n))) by lia. now rewrite N.pow_add_r. }
    unfold bit_is_set. destruct (N.testbit (p - 1) (N.of_nat n)) eqn:Eb; cbn [rbind].
    + rewrite mulmod_ok by assumption. cbn [rbind]. apply IH. rewrite (shiftr_step (p - 1) (N.of_nat n)), Eb. cbn [N.b2n]. rewrite N.pow_add_r, N.pow_1_r, E2. rewrite N.mul_mod_idemp_l by lia. reflexivity.
    + apply IH. rewrite (shiftr_step (p - 1) (N.of_nat n)), Eb. cbn [N.b2n]. rewrite N.add_0_r. exact E2.
Qed.
Lemma is_witness_ends : forall w src, 3 <= src -> w < src -> src <= 2147483648 -> exists b, is_witness w src = Ok b.
Proof.
  intros w src H3 Hw Hs. unfold is_witness. destruct (bits_spec (src - 1)) as [Hb _]; [lia | lia |]. replace (number_of_bits (src - 1) =? 0) with false by (symmetry; apply N.eqb_neq; lia). apply witness_loop_ends; auto. lia.
Qed.
Lemma is_witness_prime : forall p w, prime_number p -> 1 <= w -> w < p -> p <= 2147483648 -> is_witness w p = Ok false.
Proof.
  intros p w Hp H1 H2 Hs. unfold is_witness. pose proof (proj1 Hp) as Hp1. destruct (bits_spec (p - 1)) as [Hb Hz]; [lia | lia |]. replace (number_of_bits (p - 1) =? 0) with false by (symmetry; apply N.eqb_neq; lia).
  apply witness_loop_prime; auto. rewrite N2Nat.id, Hz, N.pow_0_r. symmetry. apply N.mod_small. lia.
Qed.
Lemma random_ok : forall w i, 2 <= i -> exists a, random w i = Ok a /\ 1 <= a < i.
Proof.
  intros w i H. unfold random. replace (i <=? 1) with false by (symmetry; apply N.leb_gt; lia). eexists. split; [reflexivity |]. assert (Hm : w mod (i - 1) < i - 1) by (apply N.mod_lt; lia). revert Hm. generalize (w mod (i - 1)). intros m Hm. lia.
Qed.
Lemma miller_rabin_ends : forall n w src, 3 <= src -> src <= 2147483648 -> exists b, miller_rabin n w src = Ok b.
Proof.
  induction n as [| n IH]; intros w src H3 Hs; cbn [miller_rabin]; [eexists; reflexivity |]. replace (src =? 0) with false by (symmetry; apply N.eqb_neq; lia).
  destruct (random_ok (w n) (src - 1) ltac:(lia)) as (a & -> & Ha). cbn [rbind]. destruct (is_witness_ends a src H3 ltac:(lia) Hs) as [b ->]. cbn [rbind]. destruct b; [eexists; reflexivity | apply IH; assumption].
Qed.
Lemma miller_rabin_prime : forall n w p, prime_number p -> 3 <= p -> p <= 2147483648 -> miller_rabin n w p = Ok true.
Proof.
  induction n as [| n IH]; intros w p Hp H3 Hs; cbn [miller_rabin]; [reflexivity |]. replace (p =? 0) with false by (symmetry; apply N.eqb_neq; lia).
  destruct (random_ok (w n) (p - 1) ltac:(lia)) as (a & -> & Ha). cbn [rbind]. rewrite is_witness_prime by (auto; lia). cbn [rbind]. apply IH; assumption.
Qed.
Lemma has_factor_spec : forall src n, n <> 0 -> has_factor src n = true <-> (n | src) /\ src <> n.
Proof. intros src n Hn. unfold has_factor. rewrite andb_true_iff, negb_true_iff, N.eqb_neq, N.eqb_eq, N.mod_divide by assumption. tauto. Qed.
Lemma easy_prime : forall p, prime_number p -> has_easy_factors p = false.
Proof.
  intros p [_ Hd]. assert (H : forall n, n <> 0 -> n <> 1 -> has_factor p n = false).
  { intros n H0 H1. apply not_true_is_false. intros E. apply has_factor_spec in E; [| assumption]. destruct E as [E1 E2]. destruct (Hd n E1); congruence. }
  unfold has_easy_factors. rewrite !H by discriminate. reflexivity.
Qed.
Lemma is_prime_ends : forall w n, 3 <= n -> n <= 2147483648 -> exists b, is_prime w n = Ok b.
Proof. intros w n H3 Hs. unfold is_prime. destruct (has_easy_factors n); [eexists; reflexivity | apply miller_rabin_ends; assumption]. Qed.
Lemma is_prime_prime : forall w p, prime_number p -> 3 <= p -> p <= 2147483648 -> is_prime w p = Ok true.
Proof. intros w p Hp H3 Hs. unfold is_prime. rewrite easy_prime by assumption. apply miller_rabin_prime; assumption. Qed.

(* ------------------------------------------------------------------------------------------------------------------ *)
(** * The searches *)

Lemma odd_step : forall n p, N.odd n = true -> N.odd p = true -> n < p -> n + 2 <= p.
Proof. intros n p Hn Hp H. apply N.odd_spec in Hn, Hp. destruct Hn as [a ->], Hp as [b ->]. lia. Qed.
Lemma odd_add2 : forall n, N.odd (n + 2) = N.odd n.
Proof. intros n. rewrite N.odd_add. change (N.odd 2) with false. apply xorb_false_r. Qed.
Lemma up_spec : forall p, prime_number p -> p <= 2147483648 -> forall fuel ws n, N.odd n = true -> 3 <= n -> n <= p -> p < n + 2 * N.of_nat fuel ->
  exists r, up fuel ws n = Ok r /\ n <= r /\ r <= p /\ N.odd r = true /\ exists w, is_prime w r = Ok true.
Proof.
  intros p Hp Hs. induction fuel as [| fuel IH]; intros ws n Hodd H3 Hn Hf; [lia |]. cbn [up].
  destruct (is_prime_ends (ws fuel) n H3 ltac:(lia)) as [b Eb]. rewrite Eb. cbn [rbind]. destruct b.
  - exists n. split; [reflexivity |]. split; [lia |]. split; [assumption |]. split; [assumption |]. eauto.
  - assert (Hlt : n < p). { apply N.le_lteq in Hn. destruct Hn as [H | ->]; [assumption |]. rewrite is_prime_prime in Eb by assumption. discriminate. }
    pose proof (odd_step n p Hodd (prime_odd p Hp ltac:(lia)) Hlt) as H2. replace (usize_max <=? n + 2) with false by (symmetry; apply N.leb_gt; unfold usize_max; lia).
    destruct (IH ws (n + 2)) as (r & Er & R1 & R2 & R3); [now rewrite odd_add2 | lia | assumption | lia |]. exists r. split; [exact Er |]. split; [lia |]. auto.
Qed.
Lemma dn_spec : forall q, prime_number q -> 3 <= q -> forall fuel ws n, N.odd n = true -> q <= n -> n <= 2147483648 -> n < q + 2 * N.of_nat fuel ->
  exists r, dn fuel ws n = Ok r /\ q <= r /\ r <= n /\ N.odd r = true /\ exists w, is_prime w r = Ok true.
Proof.
  intros q Hq H3. induction fuel as [| fuel IH]; intros ws n Hodd Hn Hs Hf; [lia |]. cbn [dn].
  destruct (is_prime_ends (ws fuel) n ltac:(lia) Hs) as [b Eb]. rewrite Eb. cbn [rbind]. destruct b.
  - exists n. split; [reflexivity |]. split; [assumption |]. split; [lia |]. split; [assumption |]. eauto.
  - assert (Hlt : q < n). { apply N.le_lteq in Hn. destruct Hn as [H | <-]; [assumption |]. rewrite is_prime_prime in Eb by assumption. discriminate. }
    pose proof (odd_step q n (prime_odd q Hq ltac:(lia)) Hodd Hlt) as H2. replace (n <? 2) with false by (symmetry; apply N.ltb_ge; lia).
    destruct (IH ws (n - 2)) as (r & Er & R1 & R2 & R3); [| lia | lia | lia |].
    { rewrite <- (odd_add2 (n - 2)). replace (n - 2 + 2) with n by lia. assumption. }
    exists r. split; [exact Er |]. split; [assumption |]. split; [lia | assumption].
Qed.

(* ------------------------------------------------------------------------------------------------------------------ *)
(** * Trial division *)

Fixpoint trial (n : nat) (d p : N) : bool := match n with O => true | S n => if p mod d =? 0 then false else trial n (d + 2) p end.
Lemma trial_spec : forall n d p, d <> 0 -> trial n d p = true -> forall j, j < N.of_nat n -> ~ (d + 2 * j | p).
Proof.
  induction n as [| n IH]; intros d p Hd H j Hj; [lia |]. cbn [trial] in H. destruct (p mod d =? 0) eqn:E; [discriminate |]. apply N.eqb_neq in E.
  destruct (N.eq_dec j 0) as [-> | Hz].
  - rewrite N.mul_0_r, N.add_0_r. intros C. apply E. now apply N.mod_divide.
  - specialize (IH (d + 2) p ltac:(lia) H (j - 1) ltac:(lia)). replace (d + 2 * j) with (d + 2 + 2 * (j - 1)) by lia. assumption.
Qed.
Definition prime_by_trial (p : N) : bool := N.odd p && (3 <=? p) && trial (N.to_nat ((N.sqrt p - 1) / 2)) 3 p.
Lemma prime_by_trial_ok : forall p, prime_by_trial p = true -> prime_number p.
Proof.
  intros p H. unfold prime_by_trial in H. apply andb_true_iff in H. destruct H as [H Ht]. apply andb_true_iff in H. destruct H as [Ho H3]. apply N.leb_le in H3.
  assert (H30 : 3 <> 0) by discriminate. pose proof (trial_spec _ 3 p H30 Ht) as HT. rewrite N2Nat.id in HT.
  assert (Hodd : forall a b, p = a * b -> N.odd a = true).
  { intros a b E. rewrite E, N.odd_mul in Ho. apply andb_true_iff in Ho. tauto. }
  assert (Hsmall : forall a b, p = a * b -> a <> 1 -> a * a <= p -> False).
  { intros a b E H1 Ha. pose proof (Hodd a b E) as Hao. apply N.odd_spec in Hao. destruct Hao as [k Hk]. apply (HT (k - 1)).
    - assert (a <= N.sqrt p) by (apply N.sqrt_le_square; assumption). assert (Hk2 : k <= (N.sqrt p - 1) / 2) by (apply N.div_le_lower_bound; lia). assert (k <> 0) by lia. lia.
    - replace (3 + 2 * (k - 1)) with a by lia. exists b. lia. }
  split; [lia |]. intros d [k Hk]. destruct (N.eq_dec d 1) as [-> | D1]; [now left |]. right. destruct (N.eq_dec k 1) as [-> | K1]; [lia |]. exfalso.
  destruct (N.le_ge_cases d k) as [C | C].
  - apply (Hsmall d k); [lia | assumption | nia].
  - apply (Hsmall k d); [lia | assumption | nia].
Qed.
