(** The heap operations without the order of the activities: contents and index table. The solver changes activities
    arbitrarily, so only these facts are used by its proofs. *)
From Coq Require Import List Arith ZArith Bool Lia Permutation.
From Verif Require Import Base Vec HeapModel HeapProofs Properties_Heap.
Import ListNotations.

Definition hok (n : nat) (h : lheap) : Prop := hcons (hp h) (hix h) /\ (forall x, In x (hp h) -> x < n).

Lemma hok_in : forall n h x, hok n h -> in_heap h x = true <-> In x (hp h).
Proof.
  intros n h x [C _]. unfold in_heap. split.
  - destruct (nth_error (hix h) x) as [[i |] |] eqn:E; try discriminate. intros _. apply C in E. eapply nth_error_In; eauto.
  - intros H. apply In_nth_error in H. destruct H as [i H]. apply C in H. rewrite H. reflexivity.
Qed.
Lemma hok_len : forall n m h, hok n h -> n <= m -> hok m h.
Proof. intros n m h [C B] L. split; auto. intros x Hx. specialize (B x Hx). lia. Qed.

Lemma hok_insert : forall acts h n, hok (length acts) h -> n < length acts -> in_heap h n = false ->
  exists h', heap_insert acts h n = Ok h' /\ hok (length acts) h' /\ (forall m, In m (hp h') <-> m = n \/ In m (hp h)) /\
    length (hix h) <= length (hix h') /\ n < length (hix h').
Proof.
  intros acts h n [C B] Hn F. unfold heap_insert. set (ix := grow_to (hix h) (n + 1) None).
  assert (L : n < length ix) by (unfold ix; rewrite grow_length; lia). rewrite vset_lt by exact L. cbn [rbind].
  set (h1 := mkHeap (hp h ++ [n]) (upd ix n (Some (length (hp h))))).
  destruct (percolate_up_ok acts h1 (length (hp h))) as (h' & E & (P1 & P2 & P3 & P4) & _).
  - intros i m. cbn [hp hix h1]. rewrite nth_snoc, nth_upd.
    destruct (Nat.eqb_spec i (length (hp h))) as [-> | Ni]; destruct (Nat.eqb_spec n m) as [<- | Nm].
    + apply Nat.ltb_lt in L. rewrite L. tauto.
    + split; [intros E; congruence |]. intros E. exfalso. unfold ix in E. rewrite nth_grow in E.
      destruct (m <? length (hix h)); [| destruct (m <? n + 1); congruence]. apply C in E. apply nth_some_lt in E. lia.
    + apply Nat.ltb_lt in L. rewrite L. split; [| congruence]. intros E. exfalso. apply C in E. unfold in_heap in F. rewrite E in F. discriminate.
    + pose proof (C i m) as Cim. rewrite Cim. unfold ix. rewrite nth_grow. destruct (Nat.ltb_spec m (length (hix h))) as [K | K]; [tauto |].
      split; intros E; [apply nth_some_lt in E; lia | destruct (m <? n + 1); congruence].
  - intros m Hm. cbn in Hm. apply in_app_or in Hm. destruct Hm as [Hm | [<- | []]]; auto.
  - cbn. rewrite app_length. cbn. lia.
  - exists h'. split; [exact E |]. cbn [hp hix h1] in P2, P4. rewrite upd_length in P4. unfold ix in P4. rewrite grow_length in P4.
    assert (G : forall m, In m (hp h') <-> m = n \/ In m (hp h)) by (intros m; rewrite P2, in_app_iff; cbn; intuition).
    split; [split; [exact P1 | intros x Hx; apply G in Hx; destruct Hx as [-> |]; auto] |]. split; [exact G | lia].
Qed.

Lemma hok_decrease : forall acts h n, hok (length acts) h -> in_heap h n = true ->
  exists h', heap_decrease acts h n = Ok h' /\ hok (length acts) h' /\ (forall m, In m (hp h') <-> In m (hp h)) /\ length (hix h') = length (hix h).
Proof.
  intros acts h n I H. apply (hok_in _ _ _ I) in H. destruct I as [C B]. apply In_nth_error in H. destruct H as [pos Ep].
  pose proof (proj1 (C _ _) Ep) as Ei. unfold heap_decrease. rewrite (vget_some _ _ _ _ Ei). cbn [rbind].
  destruct (percolate_up_ok acts h pos C B) as (h' & E & (P1 & P2 & P3 & P4) & _); [eapply nth_some_lt; eauto |].
  exists h'. repeat split; auto; try (apply P1); try (apply P2). intros x Hx. apply B, P2. assumption.
Qed.

Lemma hok_remove_min : forall acts h, hok (length acts) h -> hp h <> [] ->
  exists x h', heap_remove_min acts h = Ok (x, h') /\ hok (length acts) h' /\ (forall m, In m (hp h) <-> m = x \/ In m (hp h')) /\ ~ In x (hp h') /\
    length (hix h') = length (hix h).
Proof.
  intros acts h [C B] NE.
  assert (L0 : 0 < length (hp h)) by (destruct (hp h); [congruence | cbn; lia]).
  destruct (nth_lt_some (hp h) 0 L0) as [x Ex]. destruct (nth_lt_some (hp h) (length (hp h) - 1) ltac:(lia)) as [l El].
  pose proof (nth_some_lt _ _ _ (proj1 (C _ _) Ex)) as Lx. pose proof (nth_some_lt _ _ _ (proj1 (C _ _) El)) as Ll.
  unfold heap_remove_min. rewrite (vget_some _ _ _ _ Ex), (vget_some _ _ _ _ El). cbn [rbind]. rewrite place_ok by auto. cbn [rbind hp hix].
  rewrite vset_lt by (rewrite upd_length; exact Lx). cbn [rbind].
  destruct (Nat.eq_dec (length (hp h)) 1) as [L1 | L1].
  - rewrite pop_length, upd_length, L1. cbn [Nat.sub Nat.ltb Nat.leb].
    assert (l = x) by (rewrite L1 in El; change (1 - 1) with 0 in El; congruence). subst l. rewrite upd_upd.
    destruct (hp h) as [| a [| b r]] eqn:EH; cbn in L1; try lia. cbn in Ex. assert (a = x) by congruence. subst a.
    cbn [upd vpop removelast].
    eexists _, _. split; [reflexivity |]. cbn [hp hix]. split; [split | split; [| split]]; cbn; try tauto.
    + intros i n. split; [destruct i; discriminate |]. intros E. rewrite nth_upd in E. destruct (Nat.eqb_spec x n) as [e | Nn].
      * destruct (n <? length (hix h)); discriminate.
      * apply C in E. destruct i as [| i]; cbn in E; [congruence | destruct i; discriminate].
    + intros m. intuition.
    + now rewrite upd_length.
  - destruct (drop_parts (hp h) (hix h) 0 x l C Ex El ltac:(lia)) as (C1 & S1 & N1).
    assert (Nxl : x <> l) by (intros ->; assert (0 = length (hp h) - 1) by (exact (cons_inj _ _ _ _ _ C Ex El)); lia).
    rewrite (upd_swap _ l x) by auto.
    set (h1 := mkHeap (vpop (upd (hp h) 0 l)) (upd (upd (hix h) x None) l (Some 0))).
    assert (R : forall h2, hcons (hp h2) (hix h2) -> (forall n, In n (hp h2) <-> In n (hp h1)) -> length (hix h2) = length (hix h1) ->
      hok (length acts) h2 /\ (forall m, In m (hp h) <-> m = x \/ In m (hp h2)) /\ ~ In x (hp h2) /\ length (hix h2) = length (hix h)).
    { intros h2 C2 S2 L2. repeat split.
      - apply C2.
      - apply C2.
      - intros n Hn. apply S2 in Hn. apply B, S1. auto.
      - intros H. rewrite S2. now apply S1.
      - intros H. rewrite S2 in H. now apply S1.
      - rewrite S2. exact N1.
      - rewrite L2. cbn. now rewrite !upd_length. }
    change (length (vpop (upd (hp h) 0 l))) with (length (hp h1)). destruct (Nat.ltb_spec 1 (length (hp h1))) as [L2 | L2].
    + destruct (percolate_down_ok acts h1 0 0 C1) as (h2 & E & (P1 & P2 & P3 & P4) & Oh).
      * intros n Hn. apply B, S1. auto.
      * lia.
      * lia.
      * rewrite E. cbn [rbind]. exists x, h2. split; [reflexivity |]. apply R; auto.
    + exists x, h1. split; [reflexivity |]. apply R; auto; intros; tauto.
Qed.

Lemma hok_remove : forall acts h n, hok (length acts) h -> in_heap h n = true ->
  exists h', heap_remove acts h n = Ok h' /\ hok (length acts) h' /\ (forall m, In m (hp h) <-> m = n \/ In m (hp h')) /\ ~ In n (hp h') /\
    length (hix h') = length (hix h).
Proof.
  intros acts h n I H. apply (hok_in _ _ _ I) in H. destruct I as [C B]. unfold heap_remove.
  apply In_nth_error in H. destruct H as [k Ek]. pose proof (proj1 (C _ _) Ek) as Ei.
  pose proof (nth_some_lt _ _ _ Ek) as Lk. pose proof (nth_some_lt _ _ _ Ei) as Ln.
  rewrite (vget_some _ _ _ _ Ei), vset_lt by exact Ln. cbn [rbind]. destruct (Nat.eqb_spec (length (hp h)) 0) as [e | _]; [lia |].
  destruct (nth_lt_some (hp h) (length (hp h) - 1) ltac:(lia)) as [l El]. pose proof (nth_some_lt _ _ _ (proj1 (C _ _) El)) as Ll.
  destruct (Nat.ltb_spec k (length (hp h) - 1)) as [K | K].
  - rewrite (vget_some _ _ _ _ El). cbn [rbind]. rewrite place_ok by (cbn; rewrite ?upd_length; assumption). cbn [rbind hp hix].
    destruct (drop_parts (hp h) (hix h) k n l C Ek El K) as (C1 & S1 & N1).
    set (h1 := mkHeap (vpop (upd (hp h) k l)) (upd (upd (hix h) n None) l (Some k))).
    destruct (percolate_down_ok acts h1 k 0 C1) as (h2 & E & (P1 & P2 & P3 & P4) & Oh).
    + intros m Hm. apply B, S1. auto.
    + cbn. rewrite pop_length, upd_length. lia.
    + lia.
    + exists h2. split; [exact E |]. split; [split; [exact P1 | intros m Hm; apply P2 in Hm; apply B, S1; auto] |].
      split; [intros m; rewrite P2; apply S1 |]. split; [rewrite P2; exact N1 |]. rewrite P4. cbn. now rewrite !upd_length.
  - eexists. split; [reflexivity |]. cbn [hp hix]. assert (k = length (hp h) - 1) by lia. subst k. assert (l = n) by congruence. subst l.
    assert (S1 : forall m, In m (hp h) <-> m = n \/ In m (vpop (hp h))).
    { intros m. split.
      + intros Hm. apply In_nth_error in Hm. destruct Hm as [i E]. pose proof (nth_some_lt _ _ _ E).
        destruct (Nat.eq_dec i (length (hp h) - 1)) as [-> | N]; [left; congruence |]. right. apply nth_error_In with i. rewrite nth_pop.
        destruct (Nat.ltb_spec i (length (hp h) - 1)); [assumption | lia].
      + intros [-> | Hm]; [eapply nth_error_In; eauto |]. apply In_nth_error in Hm. destruct Hm as [i E]. rewrite nth_pop in E.
        destruct (i <? length (hp h) - 1); [| discriminate]. eapply nth_error_In; eauto. }
    split; [split |].
    + intros i m. cbn [hp hix]. rewrite nth_pop, nth_upd. destruct (Nat.eqb_spec n m) as [<- | Nm].
      * apply Nat.ltb_lt in Ln. rewrite Ln. destruct (Nat.ltb_spec i (length (hp h) - 1)) as [Q | Q]; [| split; discriminate].
        split; [| discriminate]. intros E. assert (i = length (hp h) - 1) by (eapply (cons_inj _ _ _ _ _ C); eauto). lia.
      * destruct (Nat.ltb_spec i (length (hp h) - 1)) as [Q | Q]; [apply C |]. split; [discriminate |]. intros E. exfalso.
        apply C in E. pose proof (nth_some_lt _ _ _ E). assert (i = length (hp h) - 1) by lia. subst i. congruence.
    + intros m Hm. apply B, S1. auto.
    + split; [exact S1 |]. split; [| cbn; now rewrite upd_length].
      intros Hm. apply In_nth_error in Hm. destruct Hm as [i E]. rewrite nth_pop in E.
      destruct (Nat.ltb_spec i (length (hp h) - 1)) as [Q | Q]; [| discriminate]. assert (i = length (hp h) - 1) by (eapply (cons_inj _ _ _ _ _ C); eauto). lia.
Qed.

Lemma heapify_any : forall acts k h, hok (length acts) h -> k <= length (hp h) ->
  exists h', heapify acts k h = Ok h' /\ hok (length acts) h' /\ (forall n, In n (hp h') <-> In n (hp h)) /\ length (hix h') = length (hix h).
Proof.
  intros acts. induction k as [| i IH]; intros h I L; cbn [heapify].
  - exists h. repeat split; auto; apply I.
  - destruct I as [C B]. destruct (percolate_down_ok acts h i i C B ltac:(lia) ltac:(lia)) as (h1 & E & (P1 & P2 & P3 & P4) & _). rewrite E. cbn [rbind].
    destruct (IH h1) as (h' & E' & C' & S' & O').
    + split; [exact P1 |]. intros n Hn. apply B, P2. assumption.
    + lia.
    + exists h'. split; [exact E' |]. split; [exact C' |]. split; [intros n; rewrite S'; apply P2 | lia].
Qed.
Lemma fill_len : forall l h h' i, fill l h i = Ok h' -> length (hix h') = length (hix h).
Proof.
  induction l as [| n l IH]; intros h h' i E; cbn [fill] in E; [congruence |]. unfold vset in E. destruct (n <? length (hix h)); [| discriminate].
  cbn [rbind] in E. apply IH in E. cbn in E. now rewrite upd_length in E.
Qed.
Lemma hok_build : forall acts h ns, hok (length acts) h -> NoDup ns -> (forall n, In n ns -> n < length acts /\ n < length (hix h)) ->
  exists h', heap_build acts h ns = Ok h' /\ hok (length acts) h' /\ (forall n, In n (hp h') <-> In n ns) /\ length (hix h') = length (hix h).
Proof.
  intros acts h ns [C B] N H. unfold heap_build.
  destruct (clear_ix_ok (hp h) (hix h)) as (ix & E & L & G).
  { intros n Hn. apply In_nth_error in Hn. destruct Hn as [i Hi]. apply C in Hi. eapply nth_some_lt; eauto. }
  rewrite E. cbn [rbind].
  destruct (fill_ok ns (mkHeap [] ix)) as (h1 & E1 & Eh & C1).
  - intros i n. cbn. rewrite G. split; [destruct i; discriminate |]. destruct (existsb (Nat.eqb n) (hp h)) eqn:Ex; [congruence |]. intros K.
    apply C in K. apply nth_error_In in K. assert (existsb (Nat.eqb n) (hp h) = true) by (apply existsb_exists; exists n; split; [assumption | apply Nat.eqb_refl]).
    congruence.
  - intros n Hn. cbn. rewrite L. apply H. assumption.
  - exact N.
  - cbn [hp length] in E1. rewrite E1. cbn [rbind]. cbn [hp app] in Eh. pose proof (fill_len _ _ _ _ E1) as L1. cbn in L1.
    destruct (heapify_any acts (Nat.div2 (length (hp h1))) h1) as (h2 & E2 & C2 & S2 & O2).
    + split; [exact C1 |]. intros n Hn. rewrite Eh in Hn. apply H. assumption.
    + rewrite Nat.div2_div. apply Nat.div_le_upper_bound; lia.
    + exists h2. split; [exact E2 |]. split; [exact C2 |]. split; [intros n; rewrite S2, Eh; tauto | lia].
Qed.
