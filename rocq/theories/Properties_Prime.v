(** C59: the sizes of the tables of a BDD kernel. *)
From Coq Require Import NArith List Bool Arith Lia.
From Verif Require Import Base FactoryModel PrimeModel PrimeProofs PrimeGrow.
Import ListNotations.
Local Open Scope N_scope.

(** Every odd prime below 2^31 passes the test, whatever random numbers are drawn. *)
Theorem C59_prime_accepted : forall w p, prime_number p -> p <> 2 -> p <= 2147483648 -> is_prime w p = Ok true.
Proof. intros w p Hp H2 Hs. apply is_prime_prime; auto. destruct Hp as [H1 _]. lia. Qed.
Print Assumptions C59_prime_accepted.

(** What passes the test has none of the factors 3, 5, 7, 11 and 13, unless it is that factor. *)
Theorem C59_no_easy_factor : forall w n d, is_prime w n = Ok true -> In d [3; 5; 7; 11; 13] -> (d | n) -> n = d.
Proof.
  intros w n d H Hd Hdiv. destruct (N.eq_dec n d) as [E | E]; [assumption |]. exfalso. unfold is_prime in H. destruct (has_easy_factors n) eqn:Ef; [discriminate |].
  unfold has_easy_factors in Ef. rewrite !orb_false_iff in Ef. cbn [In] in Hd.
  assert (Hf : has_factor n d = true) by (apply has_factor_spec; [intros ->; lia | auto]).
  destruct Ef as ((((F3 & F5) & F7) & F11) & F13). destruct Hd as [<- | [<- | [<- | [<- | [<- | []]]]]]; congruence.
Qed.
Print Assumptions C59_no_easy_factor.

(** [prime_gte] ends for every request from 2 to the prime 2^31 - 1, without a panic, whatever random numbers are drawn: the result is odd,
    at least the request, passed the test, and is not above any odd prime from the request on. *)
Theorem C59_gte : forall ws num fuel, 2 <= num -> num <= 2147483647 -> 2147483647 <= N.of_nat fuel ->
  exists r, prime_gte fuel ws num = Ok r /\ num <= r /\ r <= 2147483647 /\ N.odd r = true /\ (exists w, is_prime w r = Ok true)
  /\ (forall q, prime_number q -> q <> 2 -> num <= q -> r <= q).
Proof.
  intros ws num fuel H2 Hm Hf. unfold prime_gte. set (n := if N.even num then num + 1 else num).
  assert (Hn : num <= n /\ n <= 2147483647 /\ N.odd n = true /\ 3 <= n /\ forall q, prime_number q -> q <> 2 -> num <= q -> n <= q).
  { unfold n. destruct (N.even num) eqn:E.
    - assert (Ho : N.odd (num + 1) = true) by (rewrite N.add_1_r, N.odd_succ; assumption).
      assert (Hne : forall q, N.odd q = true -> num <= q -> num + 1 <= q).
      { intros q Hq Hle. destruct (N.eq_dec num q) as [<- | C]; [| lia]. rewrite <- N.negb_even, E in Hq. discriminate. }
      split; [lia |]. split; [apply Hne; [reflexivity | assumption] |]. split; [assumption |]. split; [lia |].
      intros q Hq Hq2 Hle. apply Hne; [apply prime_odd; assumption | assumption].
    - assert (Ho : N.odd num = true) by (rewrite <- N.negb_even, E; reflexivity).
      split; [lia |]. split; [assumption |]. split; [assumption |]. split; [| auto]. destruct (N.eq_dec num 2) as [-> | C]; [discriminate | lia]. }
  clearbody n. destruct Hn as (H1 & Hn & Ho & H3 & Hq).
  destruct (up_spec _ mersenne31 ltac:(lia) fuel ws n Ho H3 Hn ltac:(lia)) as (r & Er & R1 & R2 & R3 & R4).
  exists r. split; [exact Er |]. split; [lia |]. split; [assumption |]. split; [assumption |]. split; [assumption |].
  intros q Hpq Hq2 Hle. destruct (N.le_gt_cases q 2147483647) as [C | C]; [| lia].
  destruct (up_spec q Hpq ltac:(lia) fuel ws n Ho H3 (Hq q Hpq Hq2 Hle) ltac:(lia)) as (r' & Er' & _ & R2' & _). rewrite Er in Er'. injection Er' as <-. assumption.
Qed.
Print Assumptions C59_gte.

Lemma prime3 : prime_number 3.
Proof. apply prime_by_trial_ok. reflexivity. Qed.
(** [prime_lte] ends for every request from 3 to 2^31, without a panic: the result is odd, from 3 to the request, passed the test, and is
    not below any odd prime up to the request. *)
Theorem C59_lte : forall ws num fuel, 3 <= num -> num <= 2147483648 -> num <= N.of_nat fuel ->
  exists r, prime_lte fuel ws num = Ok r /\ 3 <= r /\ r <= num /\ N.odd r = true /\ (exists w, is_prime w r = Ok true)
  /\ (forall q, prime_number q -> q <> 2 -> q <= num -> q <= r).
Proof.
  intros ws num fuel H3 Hm Hf. assert (G : exists n, prime_lte fuel ws num = dn fuel ws n /\ n <= num /\ N.odd n = true /\ forall q, N.odd q = true -> q <= num -> q <= n).
  { unfold prime_lte. destruct (N.even num) eqn:E.
    - replace (num =? 0) with false by (symmetry; apply N.eqb_neq; lia). exists (num - 1). split; [reflexivity |]. split; [lia |]. split.
      + rewrite <- N.even_succ. replace (N.succ (num - 1)) with num by lia. assumption.
      + intros q Hq Hle. destruct (N.eq_dec q num) as [-> | C]; [| lia]. rewrite <- N.negb_even, E in Hq. discriminate.
    - exists num. split; [reflexivity |]. split; [lia |]. split; [rewrite <- N.negb_even, E; reflexivity | auto]. }
  destruct G as (n & En & Hn & Ho & Hq). rewrite En.
  assert (Hn3 : 3 <= n) by (apply Hq; [reflexivity | assumption]).
  destruct (dn_spec 3 prime3 ltac:(lia) fuel ws n Ho Hn3 ltac:(lia) ltac:(lia)) as (r & Er & R1 & R2 & R3 & R4).
  exists r. split; [exact Er |]. split; [assumption |]. split; [lia |]. split; [assumption |]. split; [assumption |].
  intros q Hpq Hq2 Hle. pose proof (proj1 Hpq) as Hq1. destruct (dn_spec q Hpq ltac:(lia) fuel ws n Ho (Hq q (prime_odd q Hpq Hq2) Hle) ltac:(lia) ltac:(lia)) as (r' & Er' & R1' & _).
  rewrite Er in Er'. injection Er' as <-. assumption.
Qed.
Print Assumptions C59_lte.

(** Growing the node table: for 3 to 2^24 nodes the new size, the result of [prime_lte] for twice the size and at most 50000 more, is above
    the old one. *)
Theorem C59_resize : forall ws old fuel, 3 <= old -> old <= 16777216 -> old + 50000 <= N.of_nat fuel ->
  exists r, prime_lte fuel ws (N.min (2 * old) (old + 50000)) = Ok r /\ old < r /\ r <= 2 * old /\ r <= old + 50000.
Proof.
  intros ws old fuel H3 Hm Hf. destruct (grow old H3 Hm) as (p & Hp & P1 & P2). unfold grow_bound in P2.
  destruct (C59_lte ws (N.min (2 * old) (old + 50000)) fuel) as (r & Er & R1 & R2 & _ & _ & R); [lia | lia | lia |].
  exists r. split; [exact Er |]. assert (p <= r) by (apply R; [assumption | lia | assumption]). lia.
Qed.
Print Assumptions C59_resize.

(** A composite number is accepted for some random numbers. *)
Theorem C59_composite_refuted : exists ws n, prime_gte 1 ws n = Ok n /\ ~ prime_number n.
Proof.
  exists (fun _ _ => 0), 289. split; [vm_compute; reflexivity |]. intros [_ H]. destruct (H 17) as [E | E]; [exists 17; reflexivity | discriminate | discriminate].
Qed.
Print Assumptions C59_composite_refuted.

(** Above 2^31 the test is wrong both ways: the composite number 2^32 + 1 is accepted whatever random numbers are drawn, and a prime is
    rejected for some. *)
Lemma fermat5_witness : forall a, is_witness a 4294967297 = Ok false.
Proof. intros a. reflexivity. Qed.
Lemma fermat5_accepted : forall n w, miller_rabin n w 4294967297 = Ok true.
Proof.
  induction n as [| n IH]; intros w; cbn [miller_rabin]; [reflexivity |]. replace (4294967297 =? 0) with false by reflexivity.
  destruct (random_ok (w n) (4294967297 - 1)) as (a & -> & _); [vm_compute; discriminate |]. cbn [rbind]. rewrite fermat5_witness. cbn [rbind]. apply IH.
Qed.
Theorem C59_large_composite_refuted : exists n, ~ prime_number n /\ forall ws fuel, prime_gte (S fuel) ws n = Ok n.
Proof.
  exists 4294967297. split.
  - intros [_ H]. destruct (H 641) as [E | E]; [exists 6700417; reflexivity | discriminate | discriminate].
  - intros ws fuel. unfold prime_gte. replace (N.even 4294967297) with false by reflexivity. cbn [up]. unfold is_prime. replace (has_easy_factors 4294967297) with false by reflexivity.
    rewrite fermat5_accepted. reflexivity.
Qed.
Print Assumptions C59_large_composite_refuted.
Theorem C59_large_prime_refuted : exists p w, prime_number p /\ p <> 2 /\ is_prime w p = Ok false.
Proof.
  exists 2147483659, (fun _ => 1). split; [apply prime_by_trial_ok; vm_compute; reflexivity |]. split; [discriminate | vm_compute; reflexivity].
Qed.
Print Assumptions C59_large_prime_refuted.
(** Requests below 2 panic; a kernel asks for at least 3. *)
Theorem C59_small_refuted : exists n, forall ws fuel, prime_gte (S fuel) ws n = Panic.
Proof. exists 1. intros ws fuel. reflexivity. Qed.
Print Assumptions C59_small_refuted.

(** Two sizes of a kernel, with other random numbers each time: 10000 and its first growth. *)
Definition ex_ws (c k : nat) : N := N.of_nat (c * 7 + k * 13 + 5).
Example C59_ex : prime_number 10007 /\ prime_gte 50 ex_ws 10000 = Ok 10007 /\ prime_lte 50 ex_ws 20014 = Ok 20011 /\ prime_gte 50 ex_ws 3 = Ok 3 /\ prime_lte 50 ex_ws 6 = Ok 5
  /\ is_prime (ex_ws 3) 289 = Ok false.
Proof. split; [apply prime_by_trial_ok; vm_compute; reflexivity | vm_compute; repeat split]. Qed.
