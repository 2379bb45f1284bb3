(** C61: the hash of a set of operands. *)
From Coq Require Import NArith List Bool Arith Lia Permutation.
From Verif Require Import Base EncodingModel FactoryModel HashSetModel.
Import ListNotations.
Local Open Scope N_scope.

(** The hash is the sum of the hashes of the operands modulo 2^64 ... *)
Fixpoint total (dh : N -> N) (l : list N) : N := match l with [] => 0 | x :: r => dh x + total dh r end.
Theorem C61_sum : forall dh l, hash_set dh l = total dh l mod 2 ^ 64.
Proof.
  intros dh l. unfold hash_set, hash_with. change (2 ^ 64) with 18446744073709551616. set (m := 18446744073709551616). assert (Hm : m <> 0) by discriminate.
  assert (H : forall l r, r < m -> fold_left (fun r op => write_u64 r (dh op)) l r = (r + total dh l) mod m).
  { clear l. induction l as [| x l IH]; intros r Hr; cbn [fold_left total]; [rewrite N.add_0_r; symmetry; now apply N.mod_small |].
    rewrite IH; [| apply N.mod_upper_bound; exact Hm]. unfold write_u64. fold m. rewrite N.add_mod_idemp_l by exact Hm. f_equal. lia. }
  rewrite H by reflexivity. reflexivity.
Qed.
Print Assumptions C61_sum.
(** ... so it does not depend on the order of the iterator ... *)
Theorem C61_order : forall dh a b, Permutation a b -> hash_set dh a = hash_set dh b.
Proof. intros dh a b H. rewrite !C61_sum. f_equal. induction H; cbn [total]; lia. Qed.
Print Assumptions C61_order.
(** ... and sets that are equal have equal hashes, as hash maps require; equality is that of sets. *)
Lemma hs_eq_spec : forall a b, NoDup a -> NoDup b -> (hs_eq a b = true <-> forall x, In x a <-> In x b).
Proof.
  intros a b Na Nb. unfold hs_eq. rewrite andb_true_iff, Nat.eqb_eq, forallb_forall. split.
  - intros [E H] x. assert (I : incl a b) by (intros y Hy; apply memN_In; auto). split; [apply I |]. revert x. apply NoDup_length_incl; [exact Na | lia | exact I].
  - intros H. split; [| intros x Hx; apply memN_In; now apply H]. apply Permutation_length. apply NoDup_Permutation; auto.
Qed.
Theorem C61_equal : forall dh a b, NoDup a -> NoDup b -> (hs_eq a b = true <-> forall x, In x a <-> In x b) /\ (hs_eq a b = true -> hash_set dh a = hash_set dh b).
Proof.
  intros dh a b Na Nb. split; [now apply hs_eq_spec |]. intros H. apply C61_order. apply NoDup_Permutation; auto. now apply hs_eq_spec.
Qed.
Print Assumptions C61_equal.

(** For every hash function of operands, every orders of the iterators and every layout of the hash tables: the reverse map with hashes
    returns what a search by comparison of sets returns, and the same operands are stored.  This is the table that [FactoryModel] uses. *)
Definition same_tables (dh : N -> N) (t : htab) (u : vtab (list N)) : Prop :=
  ht_vec t = vt_vec u /\ map snd (ht_map t) = vt_rev u /\ Forall (fun e => fst e = hash_set dh (fst (snd e)) /\ NoDup (fst (snd e))) (ht_map t).
Lemma find_same : forall dh (slot : N -> N) key l, NoDup key -> Forall (fun e : N * (list N * N) => fst e = hash_set dh (fst (snd e)) /\ NoDup (fst (snd e))) l ->
  option_map (fun e => snd (snd e)) (find (fun e => (slot (fst e) =? slot (hash_set dh key)) && hs_eq key (fst (snd e))) l) = assoc set_eqb key (map snd l).
Proof.
  intros dh slot key l Nk H. induction H as [| [h [k e]] l [Hh Hk] _ IH]; cbn [find map assoc option_map fst snd] in *; [reflexivity |].
  assert (E : hs_eq key k = set_eqb key k) by (apply eq_true_iff_eq; rewrite set_eqb_spec; now apply hs_eq_spec).
  rewrite <- E. destruct (hs_eq key k) eqn:Ek; [| rewrite andb_false_r; exact IH].
  rewrite Hh, (proj2 (C61_equal dh key k Nk Hk) Ek), N.eqb_refl. reflexivity.
Qed.
Lemma goi_same : forall dh slot ty large key val t u, NoDup key -> same_tables dh t u ->
  fst (htab_goi dh slot ty large key val t) = fst (vtab_goi set_eqb ty large key val u) /\ same_tables dh (snd (htab_goi dh slot ty large key val t)) (snd (vtab_goi set_eqb ty large key val u)).
Proof.
  intros dh slot ty large key val t u Nk (H1 & H2 & H3). unfold htab_goi, vtab_goi. cbv zeta. rewrite <- H2, <- (find_same dh slot key _ Nk H3), <- H1.
  destruct (find _ (ht_map t)) as [e |]; cbn [option_map fst snd]; split; try reflexivity; [now split |].
  split; [reflexivity |]. split; [cbn [ht_map vt_rev]; now rewrite map_app |]. apply Forall_app. split; [exact H3 |]. constructor; [| constructor]. split; [reflexivity | exact Nk].
Qed.
Theorem C61_refines : forall dh ty large (cs : list call), Forall (fun c => NoDup (fst (snd c))) cs ->
  fst (htab_run dh ty large cs htab_empty) = fst (vtab_run ty large cs vtab_empty) /\ ht_vec (snd (htab_run dh ty large cs htab_empty)) = vt_vec (snd (vtab_run ty large cs vtab_empty)).
Proof.
  intros dh ty large cs H.
  assert (K : forall cs t u, Forall (fun c : call => NoDup (fst (snd c))) cs -> same_tables dh t u ->
    fst (htab_run dh ty large cs t) = fst (vtab_run ty large cs u) /\ same_tables dh (snd (htab_run dh ty large cs t)) (snd (vtab_run ty large cs u))).
  { clear. induction cs as [| [slot [key val]] cs IH]; intros t u Hk Ht; [now split |]. inversion Hk as [| ? ? Hk1 Hk2]; subst. cbn [htab_run vtab_run].
    destruct (goi_same dh slot ty large key val t u Hk1 Ht) as [E S]. destruct (htab_goi dh slot ty large key val t) as [e t1]. destruct (vtab_goi set_eqb ty large key val u) as [e' u1]. cbn [fst snd] in E, S. subst e'.
    destruct (IH t1 u1 Hk2 S) as [E2 S2]. destruct (htab_run dh ty large cs t1) as [es t2]. destruct (vtab_run ty large cs u1) as [es' u2]. cbn [fst snd] in *. subst es'. now split. }
  destruct (K cs htab_empty vtab_empty H) as [E S]; [repeat split; constructor |]. split; [exact E | apply S].
Qed.
Print Assumptions C61_refines.
(** In particular the same set in another order, in a table that has been resized, gets the same handle. *)
Theorem C61_found : forall dh slot1 slot2 ty large a b v w t, NoDup a -> NoDup b -> Permutation a b -> Forall (fun e => fst e = hash_set dh (fst (snd e)) /\ NoDup (fst (snd e))) (ht_map t) ->
  let r := htab_goi dh slot1 ty large a v t in htab_goi dh slot2 ty large b w (snd r) = r.
Proof.
  intros dh slot1 slot2 ty large a b v w t Na Nb P H r. set (u := mkVtab (ht_vec t) (map snd (ht_map t))). assert (S0 : same_tables dh t u) by (now repeat split).
  destruct (goi_same dh slot1 ty large a v t u Na S0) as [E1 S1]. fold r in E1, S1.
  assert (F : exists e, find (fun e => (slot2 (fst e) =? slot2 (hash_set dh b)) && hs_eq b (fst (snd e))) (ht_map (snd r)) = Some e /\ snd (snd e) = fst r).
  { destruct S1 as (_ & B2 & B3). pose proof (find_same dh slot2 b _ Nb B3) as F. rewrite B2 in F.
    assert (A : assoc set_eqb b (vt_rev (snd (vtab_goi set_eqb ty large a v u))) = Some (fst r)).
    { rewrite E1. assert (Eab : forall k, set_eqb b k = set_eqb a k).
      { intros k. apply eq_true_iff_eq. rewrite !set_eqb_spec. split; intros Hk x; rewrite <- Hk; split; intros Hx; eapply Permutation_in; try exact Hx; auto using Permutation_sym. }
      assert (Ea : forall m : list (list N * N), assoc set_eqb b m = assoc set_eqb a m) by (induction m as [| [k e] m IH]; cbn [assoc]; [reflexivity | now rewrite Eab, IH]).
      rewrite Ea. unfold vtab_goi. destruct (assoc set_eqb a (vt_rev u)) as [e |] eqn:Eu; [exact Eu |]. cbn [fst snd vt_rev]. clear -Eu.
      induction (vt_rev u) as [| [k e] m IH]; cbn [app assoc] in *; [| destruct (set_eqb a k); [discriminate | auto]].
      rewrite (proj2 (set_eqb_spec a a)); [reflexivity | intros x; reflexivity]. }
    rewrite A in F. destruct (find _ _) as [e |] eqn:Ef; [| discriminate]. cbn [option_map] in F. injection F as F. exists e. split; [reflexivity | exact F]. }
  destruct F as (e & F1 & F2). unfold htab_goi at 1. rewrite F1, F2. symmetry. apply surjective_pairing.
Qed.
Print Assumptions C61_found.

(** For other hashers the order matters: the one that multiplies by 31 before it adds. *)
Theorem C61_other_hasher_refuted : exists write dh a b, NoDup a /\ NoDup b /\ hs_eq a b = true /\ hash_with write dh a <> hash_with write dh b.
Proof.
  exists (fun r i => (31 * r + i) mod 18446744073709551616), (fun x => x), [1; 2], [2; 1].
  split; [repeat constructor; cbn; intuition discriminate |]. split; [repeat constructor; cbn; intuition discriminate |]. split; [reflexivity | vm_compute; discriminate].
Qed.
Print Assumptions C61_other_hasher_refuted.

(** Three sets in several orders, hashes that overflow and collide, a table with four slots and then with two. *)
Definition ex_dh (x : N) : N := (x * 11400714819323198485) mod 18446744073709551616.
Definition ex_calls : list call :=
  [(fun h => h mod 4, ([3; 5; 9], [3; 5; 9])); (fun h => h mod 4, ([5; 3], [5; 3])); (fun h => h mod 4, ([9; 3; 5], [9; 3; 5])); (fun h => h mod 2, ([3; 5], [3; 5])); (fun h => h mod 2, ([5; 9; 3], [5; 9; 3])); (fun h => h mod 2, ([17], [17]))].
Example C61_ex : Forall (fun c : call => NoDup (fst (snd c))) ex_calls /\ hash_set ex_dh [17] = hash_set ex_dh [3; 5; 9] /\ ex_dh 17 < total ex_dh [3; 5; 9] /\
  fst (htab_run ex_dh TAnd false ex_calls htab_empty) = map (fun i => encode i TAnd false) [0; 1; 0; 1; 0; 2].
Proof. split; [repeat constructor; cbn; intuition discriminate |]. vm_compute. repeat split. Qed.
