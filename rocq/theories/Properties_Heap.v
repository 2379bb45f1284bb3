(** C48: the order heap of the SAT solver. *)
From Coq Require Import List Arith ZArith Bool Lia Permutation.
From Verif Require Import Base Vec HeapModel HeapProofs.
Import ListNotations.

(** The specification: the index table is the inverse of the heap, every element has an activity, and no element has
    a larger activity than its parent. *)
Record heap_inv (acts : list Z) (h : lheap) : Prop := {
  hi_index : forall i n, nth_error (hp h) i = Some n <-> nth_error (hix h) n = Some (Some i);
  hi_acts : forall n, In n (hp h) -> n < length acts;
  hi_order : forall i n m, 0 < i -> nth_error (hp h) i = Some n -> nth_error (hp h) ((i - 1) / 2) = Some m ->
    (nth n acts 0 <= nth m acts 0)%Z }.

Lemma inv_parts : forall acts h, heap_inv acts h <-> hcons (hp h) (hix h) /\ inb acts (hp h) /\ ord_from acts 0 (hp h).
Proof.
  intros acts h. split.
  - intros [A B C]. split; [exact A |]. split; [exact B |]. intros i n m Hi _ En Em. rewrite parent_div in Em. eapply C; eauto.
  - intros (A & B & C). constructor; auto. intros i n m Hi En Em. apply (C i n m); auto; [lia |]. rewrite parent_div. assumption.
Qed.
Lemma same_perm : forall H H' I I', hcons H I -> hcons H' I' -> (forall n : nat, In n H' <-> In n H) -> Permutation H' H.
Proof. intros H H' I I' C C' S. apply NoDup_Permutation; auto; eapply cons_NoDup; eauto. Qed.

(** Membership is read off the index table. *)
Theorem C48_in_heap : forall acts h n, heap_inv acts h -> in_heap h n = true <-> In n (hp h).
Proof.
  intros acts h n I. pose proof (hi_index _ _ I) as C. unfold in_heap. split.
  - destruct (nth_error (hix h) n) as [[i |] |] eqn:E; try discriminate. intros _. apply C in E. eapply nth_error_In; eauto.
  - intros H. apply In_nth_error in H. destruct H as [i H]. apply C in H. rewrite H. reflexivity.
Qed.

Lemma insert_parts : forall acts h n, heap_inv acts h -> n < length acts -> in_heap h n = false ->
  let ix := grow_to (hix h) (n + 1) None in
  n < length ix /\ hcons (hp h ++ [n]) (upd ix n (Some (length (hp h)))).
Proof.
  intros acts h n I Hn F ix. assert (L : n < length ix) by (unfold ix; rewrite grow_length; lia). split; [exact L |].
  pose proof (hi_index _ _ I) as C. intros i m. rewrite nth_snoc, nth_upd.
  destruct (Nat.eqb_spec i (length (hp h))) as [-> | Ni]; destruct (Nat.eqb_spec n m) as [<- | Nm].
  - apply Nat.ltb_lt in L. rewrite L. tauto.
  - split; [intros E; congruence |]. intros E. exfalso. unfold ix in E. rewrite nth_grow in E.
    destruct (m <? length (hix h)); [| destruct (m <? n + 1); congruence]. apply C in E. apply nth_some_lt in E. lia.
  - apply Nat.ltb_lt in L. rewrite L. split; [| congruence]. intros E. exfalso. apply C in E. unfold in_heap in F. rewrite E in F. discriminate.
  - rewrite C. unfold ix. rewrite nth_grow. destruct (Nat.ltb_spec m (length (hix h))) as [K | K]; [tauto |].
    split; intros E; [apply nth_some_lt in E; lia | destruct (m <? n + 1); congruence].
Qed.

(** Inserting a new variable. *)
Theorem C48_insert : forall acts h n, heap_inv acts h -> n < length acts -> in_heap h n = false ->
  exists h', heap_insert acts h n = Ok h' /\ heap_inv acts h' /\ Permutation (hp h') (n :: hp h).
Proof.
  intros acts h n I Hn F. destruct (insert_parts acts h n I Hn F) as [L C]. pose proof (proj1 (inv_parts _ _) I) as (C0 & B0 & O0).
  unfold heap_insert. rewrite vset_lt by exact L. cbn [rbind].
  set (h1 := mkHeap (hp h ++ [n]) (upd (grow_to (hix h) (n + 1) None) n (Some (length (hp h))))).
  destruct (percolate_up_ok acts h1 (length (hp h))) as (h' & E & (P1 & P2 & P3 & P4) & O).
  - exact C.
  - intros m Hm. cbn in Hm. apply in_app_or in Hm. destruct Hm as [Hm | [<- | []]]; auto.
  - cbn. rewrite app_length. cbn. lia.
  - exists h'. split; [exact E |]. split.
    + apply inv_parts. split; [exact P1 |]. split.
      * intros m Hm. apply P2 in Hm. cbn in Hm. apply in_app_or in Hm. destruct Hm as [Hm | [<- | []]]; auto.
      * apply O. cbn [hp h1]. split.
        -- intros i a b Hi Ni Ea Eb. pose proof (nth_some_lt _ _ _ Ea) as La. rewrite app_length in La. cbn in La. pose proof (parent_lt i Hi).
           rewrite nth_error_app1 in Ea, Eb by lia. apply (O0 i a b); auto. lia.
        -- intros i a b Hi Hj Pi Ea Eb. pose proof (nth_some_lt _ _ _ Ea) as La. rewrite app_length in La. cbn in La. pose proof (parent_lt i Hi). lia.
    + transitivity (hp h ++ [n]); [| symmetry; apply Permutation_cons_append]. eapply same_perm; eauto.
Qed.

Lemma root_max : forall acts H x, ord_from acts 0 H -> nth_error H 0 = Some x -> forall n, In n H -> (act acts n <= act acts x)%Z.
Proof.
  intros acts H x O Ex n Hn. apply In_nth_error in Hn. destruct Hn as [i E]. revert n E.
  induction i as [i IH] using lt_wf_ind. intros n E. destruct (Nat.eq_dec i 0) as [-> | Ni].
  - replace n with x by congruence. lia.
  - pose proof (parent_lt i ltac:(lia)) as P. pose proof (nth_some_lt _ _ _ E).
    destruct (nth_lt_some H (parent_ i) ltac:(lia)) as [m Em]. specialize (IH _ P m Em).
    specialize (O i n m ltac:(lia) ltac:(lia) E Em). lia.
Qed.

(** Replacing position [k] by the last element and dropping the last position. *)
Lemma drop_parts : forall H I k x l, hcons H I -> nth_error H k = Some x -> nth_error H (length H - 1) = Some l -> k < length H - 1 ->
  hcons (vpop (upd H k l)) (upd (upd I x None) l (Some k)) /\ (forall n, In n H <-> n = x \/ In n (vpop (upd H k l))) /\ ~ In x (vpop (upd H k l)).
Proof.
  intros H I k x l C Ex El Hk.
  assert (Nxl : x <> l) by (intros ->; assert (k = length H - 1) by (eapply cons_inj; eauto); lia).
  pose proof (nth_some_lt _ _ _ (proj1 (C _ _) Ex)) as Lx. pose proof (nth_some_lt _ _ _ (proj1 (C _ _) El)) as Ll.
  assert (G : forall i, nth_error (vpop (upd H k l)) i = if i <? length H - 1 then (if k =? i then Some l else nth_error H i) else None).
  { intros i. rewrite nth_pop, upd_length. destruct (Nat.ltb_spec i (length H - 1)); [| reflexivity]. rewrite nth_upd.
    destruct (Nat.eqb_spec k i); [| reflexivity]. destruct (Nat.ltb_spec i (length H)); [reflexivity | lia]. }
  split; [| split].
  - intros i n. rewrite G, !nth_upd, !upd_length. destruct (Nat.ltb_spec i (length H - 1)) as [Li | Li].
    + destruct (Nat.eqb_spec k i) as [<- | Ni]; destruct (Nat.eqb_spec l n) as [<- | Nl].
      * apply Nat.ltb_lt in Ll. rewrite Ll. tauto.
      * split; [congruence |]. intros E. destruct (Nat.eqb_spec x n); [destruct (n <? length I); congruence |]. apply C in E. congruence.
      * apply Nat.ltb_lt in Ll. rewrite Ll. split; [| congruence]. intros E. assert (i = length H - 1) by (eapply cons_inj; eauto). lia.
      * destruct (Nat.eqb_spec x n) as [<- | Nx]; [| apply C]. apply Nat.ltb_lt in Lx. rewrite Lx. split; [| congruence].
        intros E. exfalso. apply Ni. eapply cons_inj; eauto.
    + split; [discriminate |]. intros E. exfalso. destruct (Nat.eqb_spec l n) as [<- | Nl].
      * destruct (l <? length I); [| discriminate]. assert (k = i) by congruence. lia.
      * destruct (Nat.eqb_spec x n); [destruct (n <? length I); congruence |]. apply C in E. pose proof (nth_some_lt _ _ _ E).
        assert (i = length H - 1) by lia. subst i. congruence.
  - intros n. split.
    + intros Hn. apply In_nth_error in Hn. destruct Hn as [i E]. pose proof (nth_some_lt _ _ _ E).
      destruct (Nat.eq_dec i k) as [-> | Nk]; [left; congruence |]. right. destruct (Nat.eq_dec i (length H - 1)) as [-> | Ne].
      * apply nth_error_In with k. rewrite G. apply Nat.ltb_lt in Hk. rewrite Hk, Nat.eqb_refl. congruence.
      * apply nth_error_In with i. rewrite G. destruct (Nat.ltb_spec i (length H - 1)); [| lia]. destruct (Nat.eqb_spec k i); [lia |]. assumption.
    + intros [-> | Hn]; [eapply nth_error_In; eauto |]. apply In_nth_error in Hn. destruct Hn as [i E]. rewrite G in E.
      destruct (i <? length H - 1); [| discriminate]. destruct (k =? i); [replace n with l by congruence |]; eapply nth_error_In; eauto.
  - intros Hn. apply In_nth_error in Hn. destruct Hn as [i E]. rewrite G in E. destruct (i <? length H - 1); [| discriminate].
    destruct (Nat.eqb_spec k i); [congruence |]. apply n. eapply cons_inj; eauto.
Qed.

Lemma removed_perm : forall H I V I' x, hcons H I -> hcons V I' -> (forall n : nat, In n H <-> n = x \/ In n V) -> ~ In x V -> Permutation H (x :: V).
Proof.
  intros H I V I' x C C' S N. apply NoDup_Permutation.
  - eapply cons_NoDup; eauto.
  - constructor; [exact N |]. eapply cons_NoDup; eauto.
  - intros n. rewrite S. cbn. intuition.
Qed.

(** Removing the first element of a non-empty heap returns an element of maximal activity. *)
Theorem C48_remove_min : forall acts h, heap_inv acts h -> hp h <> [] ->
  exists x h', heap_remove_min acts h = Ok (x, h') /\ heap_inv acts h' /\ Permutation (hp h) (x :: hp h') /\
    forall n, In n (hp h) -> (nth n acts 0 <= nth x acts 0)%Z.
Proof.
  intros acts h I NE. pose proof (proj1 (inv_parts _ _) I) as (C & B & O).
  assert (L0 : 0 < length (hp h)) by (destruct (hp h); [congruence | cbn; lia]).
  destruct (nth_lt_some (hp h) 0 L0) as [x Ex]. destruct (nth_lt_some (hp h) (length (hp h) - 1) ltac:(lia)) as [l El].
  assert (M : forall n, In n (hp h) -> (nth n acts 0 <= nth x acts 0)%Z) by (exact (root_max acts (hp h) x O Ex)).
  pose proof (nth_some_lt _ _ _ (proj1 (C _ _) Ex)) as Lx. pose proof (nth_some_lt _ _ _ (proj1 (C _ _) El)) as Ll.
  unfold heap_remove_min. rewrite (vget_some _ _ _ _ Ex), (vget_some _ _ _ _ El). cbn [rbind]. rewrite place_ok by auto. cbn [rbind hp hix].
  rewrite vset_lt by (rewrite upd_length; exact Lx). cbn [rbind].
  destruct (Nat.eq_dec (length (hp h)) 1) as [L1 | L1].
  - rewrite pop_length, upd_length, L1. cbn [Nat.sub Nat.ltb Nat.leb].
    assert (l = x) by (rewrite L1 in El; change (1 - 1) with 0 in El; congruence). subst l. rewrite upd_upd.
    destruct (hp h) as [| a [| b r]] eqn:EH; cbn in L1; try lia. cbn in Ex. assert (a = x) by congruence. subst a.
    cbn [upd vpop removelast].
    eexists _, _. split; [reflexivity |]. split; [| split; [reflexivity | exact M]].
    constructor; cbn; try tauto.
    + intros i n. split; [destruct i; discriminate |]. intros E. rewrite nth_upd in E. destruct (Nat.eqb_spec x n) as [e | Nn].
      * destruct (n <? length (hix h)); discriminate.
      * apply C in E. destruct i as [| i]; cbn in E; [congruence | destruct i; discriminate].
    + intros i n m Hi E. destruct i; discriminate.
  - destruct (drop_parts (hp h) (hix h) 0 x l C Ex El ltac:(lia)) as (C1 & S1 & N1).
    assert (Nxl : x <> l) by (intros ->; assert (0 = length (hp h) - 1) by (exact (cons_inj _ _ _ _ _ C Ex El)); lia).
    rewrite (upd_swap _ l x) by auto.
    set (h1 := mkHeap (vpop (upd (hp h) 0 l)) (upd (upd (hix h) x None) l (Some 0))).
    assert (R : forall h2, hcons (hp h2) (hix h2) -> (forall n, In n (hp h2) <-> In n (hp h1)) -> ord_from acts 0 (hp h2) ->
      heap_inv acts h2 /\ Permutation (hp h) (x :: hp h2)).
    { intros h2 C2 S2 O2. split.
      - apply inv_parts. split; [exact C2 |]. split; [| exact O2]. intros n Hn. apply S2 in Hn. apply B, S1. auto.
      - eapply removed_perm; eauto; [intros n; rewrite S2; apply S1 | rewrite S2; exact N1]. }
    change (length (vpop (upd (hp h) 0 l))) with (length (hp h1)). destruct (Nat.ltb_spec 1 (length (hp h1))) as [L2 | L2].
    + destruct (percolate_down_ok acts h1 0 0 C1) as (h2 & E & (P1 & P2 & P3 & P4) & Oh).
      * intros n Hn. apply B, S1. auto.
      * lia.
      * lia.
      * rewrite E. cbn [rbind]. exists x, h2. split; [reflexivity |]. assert (O2 : ord_from acts 0 (hp h2)); [| destruct (R h2 P1 P2 O2); auto]. apply Oh.
        split; [| intros; lia]. intros i n m Hi _ Np En Em. cbn [hp h1] in En, Em. rewrite nth_pop, upd_length in En, Em.
        destruct (i <? length (hp h) - 1); [| discriminate]. destruct (parent_ i <? length (hp h) - 1); [| discriminate].
        rewrite upd_other in En by lia. rewrite upd_other in Em by auto. apply (O i n m); auto. lia.
    + exists x, h1. split; [reflexivity |]. assert (O2 : ord_from acts 0 (hp h1)); [| destruct (R h1 C1 (fun n => iff_refl _) O2); auto].
      intros i n m Hi _ En Em. pose proof (nth_some_lt _ _ _ En). lia.
Qed.

(** Raising the activity of a variable of the heap and percolating it up. *)
Theorem C48_decrease : forall acts h n v, heap_inv acts h -> in_heap h n = true -> (nth n acts 0 <= v)%Z ->
  exists h', heap_decrease (upd acts n v) h n = Ok h' /\ heap_inv (upd acts n v) h' /\ Permutation (hp h') (hp h).
Proof.
  intros acts h n v I H V. pose proof (proj1 (inv_parts _ _) I) as (C & B & O). unfold heap_decrease.
  apply (C48_in_heap acts h n I) in H. pose proof (B n H) as Ln. apply In_nth_error in H. destruct H as [pos Ep]. pose proof (proj1 (C _ _) Ep) as Ei.
  rewrite (vget_some _ _ _ _ Ei). cbn [rbind].
  assert (A : forall m, act (upd acts n v) m = if Nat.eqb n m then v else act acts m).
  { intros m. unfold act. destruct (Nat.eqb_spec n m) as [<- | N].
    - apply nth_error_nth. now apply upd_same.
    - destruct (nth_error acts m) as [a |] eqn:E.
      + rewrite (nth_error_nth acts m 0%Z E). apply nth_error_nth. rewrite upd_other; auto.
      + apply nth_error_None in E. rewrite !nth_overflow; auto. rewrite upd_length. assumption. }
  destruct (percolate_up_ok (upd acts n v) h pos C) as (h' & E & (P1 & P2 & P3 & P4) & Oh).
  - intros m Hm. rewrite upd_length. auto.
  - eapply nth_some_lt; eauto.
  - exists h'. split; [exact E |]. split; [| eapply same_perm; eauto]. apply inv_parts. split; [exact P1 |]. split.
    + intros m Hm. rewrite upd_length. apply B, P2. assumption.
    + apply Oh. split.
      * intros i a b Hi Ni Ea Eb. specialize (O i a b Hi ltac:(lia) Ea Eb). rewrite !A.
        destruct (Nat.eqb_spec n a) as [<- | Na]; [exfalso; apply Ni; eapply (cons_inj _ _ _ _ _ C); eauto |].
        destruct (Nat.eqb_spec n b) as [<- | Nb]; [unfold act in *; lia | exact O].
      * intros i a b Hi Hj Pi Ea Eb. rewrite !A. pose proof (parent_lt i Hi). pose proof (parent_lt pos Hj).
        destruct (Nat.eqb_spec n a) as [<- | Na]; [assert (i = pos) by (eapply (cons_inj _ _ _ _ _ C); eauto); lia |].
        destruct (Nat.eqb_spec n b) as [<- | Nb]; [assert (parent_ pos = pos) by (eapply (cons_inj _ _ _ _ _ C); eauto); lia |].
        rewrite <- Pi in Ep. pose proof (O i a n Hi ltac:(lia) Ea Ep). rewrite Pi in Ep. pose proof (O pos n b Hj ltac:(lia) Ep Eb). lia.
Qed.

(** Removing an arbitrary variable keeps the index table and the other elements (but not the order, see below). *)
Theorem C48_remove : forall acts h n, heap_inv acts h -> in_heap h n = true ->
  exists h', heap_remove acts h n = Ok h' /\ Permutation (hp h) (n :: hp h') /\
    (forall i m, nth_error (hp h') i = Some m <-> nth_error (hix h') m = Some (Some i)).
Proof.
  intros acts h n I H. pose proof (proj1 (inv_parts _ _) I) as (C & B & O). unfold heap_remove.
  apply (C48_in_heap acts h n I) in H. apply In_nth_error in H. destruct H as [k Ek]. pose proof (proj1 (C _ _) Ek) as Ei.
  pose proof (nth_some_lt _ _ _ Ek) as Lk. pose proof (nth_some_lt _ _ _ Ei) as Ln.
  rewrite (vget_some _ _ _ _ Ei), vset_lt by exact Ln. cbn [rbind]. destruct (Nat.eqb_spec (length (hp h)) 0) as [e | _]; [lia |].
  destruct (nth_lt_some (hp h) (length (hp h) - 1) ltac:(lia)) as [l El]. pose proof (nth_some_lt _ _ _ (proj1 (C _ _) El)) as Ll.
  destruct (Nat.ltb_spec k (length (hp h) - 1)) as [K | K].
  - rewrite (vget_some _ _ _ _ El). cbn [rbind]. rewrite place_ok by (cbn; rewrite ?upd_length; assumption). cbn [rbind hp hix].
    destruct (drop_parts (hp h) (hix h) k n l C Ek El K) as (C1 & S1 & N1).
    set (h1 := mkHeap (vpop (upd (hp h) k l)) (upd (upd (hix h) n None) l (Some k))).
    destruct (percolate_down_ok acts h1 k 0 C1) as (h2 & E & (P1 & P2 & P3 & P4) & Oh).
    + intros m Hm. apply B, S1. auto.
    + cbn. rewrite pop_length, upd_length. lia.
    + lia.
    + exists h2. split; [exact E |]. split; [| exact P1]. eapply removed_perm; eauto; [intros m; rewrite P2; apply S1 | rewrite P2; exact N1].
  - eexists. split; [reflexivity |]. cbn [hp hix]. assert (k = length (hp h) - 1) by lia. subst k. assert (l = n) by congruence. subst l.
    assert (C1 : hcons (vpop (hp h)) (upd (hix h) n None)).
    { intros i m. rewrite nth_pop, nth_upd. destruct (Nat.eqb_spec n m) as [<- | Nm].
      - apply Nat.ltb_lt in Ln. rewrite Ln. destruct (Nat.ltb_spec i (length (hp h) - 1)) as [Q | Q]; [| split; discriminate].
        split; [| discriminate]. intros E. assert (i = length (hp h) - 1) by (eapply (cons_inj _ _ _ _ _ C); eauto). lia.
      - destruct (Nat.ltb_spec i (length (hp h) - 1)) as [Q | Q]; [apply C |]. split; [discriminate |]. intros E. exfalso.
        apply C in E. pose proof (nth_some_lt _ _ _ E). assert (i = length (hp h) - 1) by lia. subst i. congruence. }
    split; [| exact C1]. eapply removed_perm; eauto.
    + intros m. split.
      * intros Hm. apply In_nth_error in Hm. destruct Hm as [i E]. pose proof (nth_some_lt _ _ _ E).
        destruct (Nat.eq_dec i (length (hp h) - 1)) as [-> | N]; [left; congruence |]. right. apply nth_error_In with i. rewrite nth_pop.
        destruct (Nat.ltb_spec i (length (hp h) - 1)); [assumption | lia].
      * intros [-> | Hm]; [eapply nth_error_In; eauto |]. apply In_nth_error in Hm. destruct Hm as [i E]. rewrite nth_pop in E.
        destruct (i <? length (hp h) - 1); [| discriminate]. eapply nth_error_In; eauto.
    + intros Hm. apply In_nth_error in Hm. destruct Hm as [i E]. rewrite nth_pop in E.
      destruct (Nat.ltb_spec i (length (hp h) - 1)) as [Q | Q]; [| discriminate]. assert (i = length (hp h) - 1) by (eapply (cons_inj _ _ _ _ _ C); eauto). lia.
Qed.

Lemma clear_ix_ok : forall l ix, (forall n, In n l -> n < length ix) ->
  exists ix', clear_ix l ix = Ok ix' /\ length ix' = length ix /\ forall m, nth_error ix' m = if existsb (Nat.eqb m) l then Some None else nth_error ix m.
Proof.
  induction l as [| n l IH]; intros ix H; cbn [clear_ix].
  - exists ix. cbn. auto.
  - rewrite vset_lt by (apply H; left; auto). cbn [rbind]. destruct (IH (upd ix n None)) as (ix' & E & L & G).
    + intros m Hm. rewrite upd_length. apply H. right. assumption.
    + exists ix'. rewrite upd_length in L. split; [exact E |]. split; [exact L |]. intros m. rewrite G. cbn [existsb].
      destruct (existsb (Nat.eqb m) l); [now rewrite orb_true_r |]. rewrite orb_false_r, nth_upd, Nat.eqb_sym. destruct (Nat.eqb_spec m n) as [-> | N]; auto.
      specialize (H n (or_introl eq_refl)). apply Nat.ltb_lt in H. now rewrite H.
Qed.
Lemma fill_ok : forall l h, hcons (hp h) (hix h) -> (forall n, In n l -> n < length (hix h)) -> NoDup (hp h ++ l) ->
  exists h', fill l h (length (hp h)) = Ok h' /\ hp h' = hp h ++ l /\ hcons (hp h') (hix h').
Proof.
  induction l as [| n l IH]; intros h C H N; cbn [fill].
  - exists h. rewrite app_nil_r. auto.
  - assert (Ln : n < length (hix h)) by (apply H; left; auto). rewrite vset_lt by exact Ln. cbn [rbind].
    set (h1 := mkHeap (hp h ++ [n]) (upd (hix h) n (Some (length (hp h))))).
    replace (S (length (hp h))) with (length (hp h1)) by (cbn; rewrite app_length; cbn; lia).
    assert (Nn : ~ In n (hp h)). { apply NoDup_remove_2 in N. intros K. apply N. apply in_or_app. auto. }
    destruct (IH h1) as (h' & E & Eh & C').
    + intros i m. cbn [hp hix h1]. rewrite nth_snoc, nth_upd. destruct (Nat.eqb_spec i (length (hp h))) as [-> | Ni]; destruct (Nat.eqb_spec n m) as [<- | Nm].
      * apply Nat.ltb_lt in Ln. rewrite Ln. tauto.
      * split; [congruence |]. intros E. apply C in E. apply nth_some_lt in E. lia.
      * apply Nat.ltb_lt in Ln. rewrite Ln. split; [| congruence]. intros E. exfalso. apply Nn. eapply nth_error_In; eauto.
      * apply C.
    + intros m Hm. cbn. rewrite upd_length. apply H. right. assumption.
    + cbn. rewrite <- app_assoc. exact N.
    + exists h'. split; [exact E |]. split; [| exact C']. rewrite Eh. cbn. rewrite <- app_assoc. reflexivity.
Qed.
Lemma heapify_ok : forall acts k h, hcons (hp h) (hix h) -> inb acts (hp h) -> ord_from acts k (hp h) -> k <= length (hp h) ->
  exists h', heapify acts k h = Ok h' /\ hcons (hp h') (hix h') /\ (forall n, In n (hp h') <-> In n (hp h)) /\ ord_from acts 0 (hp h').
Proof.
  intros acts. induction k as [| i IH]; intros h C B O L; cbn [heapify].
  - exists h. repeat split; auto; apply C.
  - destruct (percolate_down_ok acts h i i C B ltac:(lia) ltac:(lia)) as (h1 & E & (P1 & P2 & P3 & P4) & Oh). rewrite E. cbn [rbind].
    destruct (IH h1) as (h' & E' & C' & S' & O').
    + exact P1.
    + intros n Hn. apply B, P2. assumption.
    + apply Oh. split.
      * intros j n m Hj Hk Np En Em. apply (O j n m); auto. lia.
      * intros j n m Hj Hi Hk. pose proof (parent_lt i Hi). lia.
    + lia.
    + exists h'. split; [exact E' |]. split; [exact C' |]. split; [| exact O']. intros n. rewrite S'. apply P2.
Qed.

(** Rebuilding the heap from a list of distinct known variables. *)
Theorem C48_build : forall acts h ns, heap_inv acts h -> NoDup ns -> (forall n, In n ns -> n < length acts /\ n < length (hix h)) ->
  exists h', heap_build acts h ns = Ok h' /\ heap_inv acts h' /\ Permutation (hp h') ns.
Proof.
  intros acts h ns I N H. pose proof (proj1 (inv_parts _ _) I) as (C & B & O). unfold heap_build.
  destruct (clear_ix_ok (hp h) (hix h)) as (ix & E & L & G).
  { intros n Hn. apply In_nth_error in Hn. destruct Hn as [i Hi]. apply C in Hi. eapply nth_some_lt; eauto. }
  rewrite E. cbn [rbind].
  destruct (fill_ok ns (mkHeap [] ix)) as (h1 & E1 & Eh & C1).
  - intros i n. cbn. rewrite G. split; [destruct i; discriminate |]. destruct (existsb (Nat.eqb n) (hp h)) eqn:Ex; [congruence |]. intros K.
    apply C in K. apply nth_error_In in K. assert (existsb (Nat.eqb n) (hp h) = true) by (apply existsb_exists; exists n; split; [assumption | apply Nat.eqb_refl]).
    congruence.
  - intros n Hn. cbn. rewrite L. apply H. assumption.
  - exact N.
  - cbn [hp length] in E1. rewrite E1. cbn [rbind]. cbn [hp app] in Eh.
    destruct (heapify_ok acts (Nat.div2 (length (hp h1))) h1) as (h2 & E2 & C2 & S2 & O2).
    + exact C1.
    + intros n Hn. rewrite Eh in Hn. apply H. assumption.
    + intros i n m Hi Hk En Em. exfalso. pose proof (nth_some_lt _ _ _ En) as Li. rewrite Nat.div2_div, parent_div in Hk.
      pose proof (Nat.div_mod (length (hp h1)) 2 ltac:(lia)). pose proof (Nat.mod_upper_bound (length (hp h1)) 2 ltac:(lia)).
      assert ((i - 1) / 2 < length (hp h1) / 2); [| lia].
      apply Nat.div_lt_upper_bound; [lia |]. lia.
    + rewrite Nat.div2_div. apply Nat.div_le_upper_bound; lia.
    + exists h2. split; [exact E2 |]. split.
      * apply inv_parts. split; [exact C2 |]. split; [| exact O2]. intros n Hn. apply S2 in Hn. rewrite Eh in Hn. apply H. assumption.
      * rewrite <- Eh. eapply same_perm; eauto.
Qed.

(** The uses of the heap by the solver without [remove]: new variables, insertions, activity bumps (raise one
    activity, percolate up if present), order-preserving rescaling, [remove_min] and rebuilds. *)
Inductive hreach : list Z -> lheap -> Prop :=
| HR_new : hreach [] heap_new
| HR_var : forall acts h v, hreach acts h -> hreach (acts ++ [v]) h
| HR_insert : forall acts h n h', hreach acts h -> n < length acts -> in_heap h n = false -> heap_insert acts h n = Ok h' -> hreach acts h'
| HR_min : forall acts h x h', hreach acts h -> heap_remove_min acts h = Ok (x, h') -> hreach acts h'
| HR_bump : forall acts h n v h', hreach acts h -> (nth n acts 0 <= v)%Z ->
    (if in_heap h n then heap_decrease (upd acts n v) h n else Ok h) = Ok h' -> hreach (upd acts n v) h'
| HR_scale : forall acts h acts', hreach acts h -> length acts' = length acts ->
    (forall a b, a < length acts -> b < length acts -> (nth a acts 0 <= nth b acts 0)%Z -> (nth a acts' 0 <= nth b acts' 0)%Z) -> hreach acts' h
| HR_build : forall acts h ns h', hreach acts h -> NoDup ns -> (forall n, In n ns -> n < length acts /\ n < length (hix h)) ->
    heap_build acts h ns = Ok h' -> hreach acts h'.
Theorem C48_history : forall acts h, hreach acts h -> heap_inv acts h.
Proof.
  intros acts h R. induction R as [| acts h v R IH | acts h n h' R IH Hn F E | acts h x h' R IH E | acts h n v h' R IH V E | acts h acts' R IH L M | acts h ns h' R IH N H E].
  - constructor; cbn; try tauto.
    + intros i n. split; [destruct i; discriminate | destruct n; discriminate].
    + intros i n m _ E. destruct i; discriminate.
  - destruct IH as [A B O]. constructor; auto.
    + intros n Hn. rewrite app_length. specialize (B n Hn). lia.
    + intros i n m Hi En Em. pose proof (B n (nth_error_In _ _ En)). pose proof (B m (nth_error_In _ _ Em)). rewrite !app_nth1 by lia. eauto.
  - destruct (C48_insert acts h n IH Hn F) as (h2 & E2 & I2 & _). congruence.
  - destruct (hp h) as [| a r] eqn:EH.
    + unfold heap_remove_min in E. rewrite EH in E. discriminate.
    + destruct (C48_remove_min acts h IH ltac:(congruence)) as (y & h2 & E2 & I2 & _). congruence.
  - destruct (in_heap h n) eqn:Hn.
    + destruct (C48_decrease acts h n v IH Hn V) as (h2 & E2 & I2 & _). congruence.
    + assert (h' = h) by congruence. subst h'. pose proof (hi_index _ _ IH) as A. pose proof (hi_acts _ _ IH) as B. pose proof (hi_order _ _ IH) as O. constructor; auto.
      * intros m Hm. rewrite upd_length. auto.
      * intros i a b Hi Ea Eb.
        assert (Q : forall m, In m (hp h) -> nth m (upd acts n v) 0%Z = nth m acts 0%Z).
        { intros m Hm. assert (n <> m). { intros ->. apply (C48_in_heap acts h m IH) in Hm. congruence. }
          destruct (nth_error acts m) as [z |] eqn:Ez; [rewrite (nth_error_nth acts m 0%Z Ez); apply nth_error_nth; rewrite upd_other; auto |].
          apply nth_error_None in Ez. specialize (B m Hm). lia. }
        rewrite !Q by (eapply nth_error_In; eauto). eauto.
  - destruct IH as [A B O]. constructor; auto.
    + intros n Hn. rewrite L. auto.
    + intros i n m Hi En Em. apply M; eauto using nth_error_In.
  - destruct (C48_build acts h ns IH N H) as (h2 & E2 & I2 & _). congruence.
Qed.

(** The variables 0, ..., n-1 inserted in turn. *)
Definition insert_all (acts : list Z) : res lheap :=
  fold_left (fun r n => rbind r (fun h => heap_insert acts h n)) (seq 0 (length acts)) (Ok heap_new).
Definition ex_acts : list Z := [3; 5; 1; 3; 9; 6; 9]%Z.
Definition ex_heap : lheap := Eval vm_compute in match insert_all ex_acts with Ok h => h | _ => heap_new end.
Lemma ex_heap_eq : insert_all ex_acts = Ok ex_heap.
Proof. vm_compute. reflexivity. Qed.
(** [remove] only percolates down: afterwards [remove_min] may return an element which is not maximal. *)
Theorem C48_remove_refuted : exists acts h h1 x y z h2 h3 h4,
  heap_inv acts h /\ in_heap h 3 = true /\ heap_remove acts h 3 = Ok h1 /\
  heap_remove_min acts h1 = Ok (x, h2) /\ heap_remove_min acts h2 = Ok (y, h3) /\ heap_remove_min acts h3 = Ok (z, h4) /\
  exists n, In n (hp h4) /\ (nth z acts 0 < nth n acts 0)%Z.
Proof.
  assert (R : forall k acts h, heap_inv acts h -> (forall n, k <= n -> in_heap h n = false) -> k <= length acts ->
    forall h', fold_left (fun r n => rbind r (fun h => heap_insert acts h n)) (seq k (length acts - k)) (Ok h) = Ok h' -> heap_inv acts h').
  { intros k acts h I F L h' E. remember (length acts - k) as d eqn:Ed. revert k h I F L h' E Ed. induction d as [| d IH]; intros k h I F L h' E Ed.
    - cbn in E. congruence.
    - cbn [seq fold_left rbind] in E. destruct (C48_insert acts h k I ltac:(lia) (F k ltac:(lia))) as (h1 & E1 & I1 & P1). rewrite E1 in E.
      apply (IH (S k) h1 I1); auto; try lia. intros n Hn. destruct (in_heap h1 n) eqn:K; [| reflexivity]. apply (C48_in_heap acts h1 n I1) in K.
      apply (Permutation_in _ P1) in K. destruct K as [K | K]; [lia |]. apply (C48_in_heap acts h n I) in K. rewrite F in K by lia. discriminate. }
  assert (I0 : heap_inv ex_acts heap_new).
  { constructor; cbn; try tauto; [intros i n; split; [destruct i | destruct n]; discriminate | intros i n m _ E; destruct i; discriminate]. }
  assert (I : heap_inv ex_acts ex_heap).
  { apply (R 0 ex_acts heap_new); auto; try lia; try exact ex_heap_eq; intros n _; unfold in_heap; destruct n; reflexivity. }
  exists ex_acts, ex_heap. do 7 eexists. split; [exact I |]. repeat (split; [vm_compute; reflexivity |]).
  eexists. split; [left; reflexivity |]. vm_compute. reflexivity.
Qed.

Example C48_example : exists h x h', insert_all ex_acts = Ok h /\ hp h <> [] /\ heap_remove_min ex_acts h = Ok (x, h') /\ x = 4 /\
  in_heap h' 4 = false /\ exists h2, heap_insert ex_acts h' 4 = Ok h2 /\ hp h2 = [6; 1; 4; 3; 0; 2; 5].
Proof.
  exists ex_heap. do 2 eexists. split; [exact ex_heap_eq |]. split; [discriminate |]. split; [vm_compute; reflexivity |]. split; [reflexivity |]. split; [reflexivity |].
  eexists. split; [vm_compute; reflexivity |]. cbn. reflexivity.
Qed.
Example C48_example_build : exists h h', insert_all ex_acts = Ok h /\ heap_build ex_acts h [5; 2; 6; 0] = Ok h' /\ hp h' = [6; 0; 5; 2].
Proof.
  exists ex_heap. eexists. split; [exact ex_heap_eq |]. split; [vm_compute; reflexivity |]. cbn. reflexivity.
Qed.
Print Assumptions C48_in_heap. Print Assumptions C48_insert. Print Assumptions C48_remove_min. Print Assumptions C48_decrease.
Print Assumptions C48_remove. Print Assumptions C48_build. Print Assumptions C48_history. Print Assumptions C48_remove_refuted.
