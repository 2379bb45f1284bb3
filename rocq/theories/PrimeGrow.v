(** A chain of primes, each at most twice and at most 50000 above the one before, up to 2^24; found and checked by trial division. *)
From Coq Require Import NArith List Bool Arith Lia.
From Verif Require Import PrimeProofs.
Import ListNotations.
Local Open Scope N_scope.

Definition grow_bound (old : N) : N := N.min (2 * old) (old + 50000).
Fixpoint search_down (n : nat) (q : N) : option N :=
  match n with O => None | S n => if prime_by_trial q then Some q else search_down n (q - 1) end.
Lemma search_down_ok : forall n b q, search_down n b = Some q -> prime_number q /\ q <= b.
Proof.
  induction n as [| n IH]; intros b q H; cbn [search_down] in H; [discriminate |]. destruct (prime_by_trial b) eqn:E.
  - injection H as ->. split; [now apply prime_by_trial_ok | lia].
  - apply IH in H. destruct H. split; [assumption | lia].
Qed.
Fixpoint climb (n : nat) (limit q : N) : bool :=
  if limit <? q then true
  else match n with
       | O => false
       | S n => match search_down 400 (grow_bound q) with Some q' => (q <? q') && climb n limit q' | None => false end
       end.
Lemma climb_ok : forall n limit q, climb n limit q = true -> forall old, q <= old -> old <= limit -> exists p, prime_number p /\ old < p /\ p <= grow_bound old.
Proof.
  induction n as [| n IH]; intros limit q H old H1 H2; cbn [climb] in H; destruct (limit <? q) eqn:E.
  - apply N.ltb_lt in E. lia.
  - discriminate.
  - apply N.ltb_lt in E. lia.
  - destruct (search_down 400 (grow_bound q)) as [q' |] eqn:Es; [| discriminate]. apply andb_true_iff in H. destruct H as [Hlt Hc]. apply N.ltb_lt in Hlt.
    apply search_down_ok in Es. destruct Es as [Hp Hb]. destruct (N.le_gt_cases q' old) as [C | C].
    + eapply IH; eauto.
    + exists q'. split; [assumption |]. split; [assumption |]. unfold grow_bound in *. lia.
Qed.
Lemma climb_run : climb 1500 16777216 3 = true.
Proof. vm_compute. reflexivity. Qed.
Lemma grow : forall old, 3 <= old -> old <= 16777216 -> exists p, prime_number p /\ old < p /\ p <= grow_bound old.
Proof. intros old H1 H2. eapply climb_ok; eauto using climb_run. Qed.
Lemma mersenne31 : prime_number 2147483647.
Proof. apply prime_by_trial_ok. vm_compute. reflexivity. Qed.
