(** Proofs about the order heap: index table, contents and heap order. *)
From Coq Require Import List Arith ZArith Bool Lia Permutation.
From Verif Require Import Base Vec HeapModel.
Import ListNotations.

(** Positions. *)
Lemma parent_div : forall i, parent_ i = (i - 1) / 2.
Proof. intros. unfold parent_. apply Nat.div2_div. Qed.
Lemma parent_lt : forall i, 0 < i -> parent_ i < i.
Proof. intros. rewrite parent_div. assert ((i - 1) / 2 <= i - 1) by (apply Nat.div_le_upper_bound; lia). lia. Qed.
Lemma parent_left : forall p, parent_ (left_ p) = p.
Proof. intros. rewrite parent_div. unfold left_. replace (p * 2 + 1 - 1) with (p * 2) by lia. apply Nat.div_mul. lia. Qed.
Lemma parent_right : forall p, parent_ (right_ p) = p.
Proof.
  intros. rewrite parent_div. unfold right_. replace ((p + 1) * 2 - 1) with (1 + p * 2) by lia.
  rewrite Nat.div_add by lia. reflexivity.
Qed.
Lemma parent_child : forall i p, 0 < i -> parent_ i = p -> i = left_ p \/ i = right_ p.
Proof.
  intros i p Hi H. rewrite parent_div in H. unfold left_, right_.
  pose proof (Nat.div_mod (i - 1) 2 ltac:(lia)) as K. pose proof (Nat.mod_upper_bound (i - 1) 2 ltac:(lia)). rewrite H in K. lia.
Qed.

Definition act (acts : list Z) (n : nat) : Z := nth n acts 0%Z.
(** The index table is the inverse of the heap. *)
Definition hcons (H : list nat) (I : list (option nat)) : Prop :=
  forall i n, nth_error H i = Some n <-> nth_error I n = Some (Some i).
Definition inb (acts : list Z) (H : list nat) : Prop := forall n, In n H -> n < length acts.
(** Heap order below position [k]. *)
Definition ord_from (acts : list Z) (k : nat) (H : list nat) : Prop :=
  forall i n m, 0 < i -> k <= parent_ i -> nth_error H i = Some n -> nth_error H (parent_ i) = Some m -> (act acts n <= act acts m)%Z.

Lemma cons_inj : forall H I i j n, hcons H I -> nth_error H i = Some n -> nth_error H j = Some n -> i = j.
Proof. intros H I i j n C A B. apply C in A. apply C in B. congruence. Qed.
Lemma cons_NoDup : forall H I, hcons H I -> NoDup H.
Proof.
  intros H I C. apply NoDup_nth_error. intros i j Hi E. destruct (nth_lt_some H i Hi) as [n En].
  eapply (cons_inj H I i j n); eauto. congruence.
Qed.
Lemma vget_some : forall A (l : list A) i x, nth_error l i = Some x -> vget l i = Ok x.
Proof. intros A l i x E. unfold vget. now rewrite E. Qed.
Lemma vset_lt : forall A (l : list A) i x, i < length l -> vset l i x = Ok (upd l i x).
Proof. intros A l i x E. unfold vset. apply Nat.ltb_lt in E. now rewrite E. Qed.
Lemma act_get : forall acts n, n < length acts -> vget acts n = Ok (act acts n).
Proof. intros acts n H. unfold vget, act. rewrite (nth_error_nth' acts 0%Z H). reflexivity. Qed.
Lemma place_ok : forall h j x, j < length (hp h) -> x < length (hix h) ->
  place h j x = Ok (mkHeap (upd (hp h) j x) (upd (hix h) x (Some j))).
Proof. intros h j x A B. unfold place. rewrite !vset_lt by assumption. reflexivity. Qed.

Lemma swap_cons : forall H I j p x y, hcons H I -> nth_error H j = Some x -> nth_error H p = Some y -> j <> p ->
  hcons (upd (upd H j y) p x) (upd (upd I y (Some j)) x (Some p)).
Proof.
  intros H I j p x y C Hj Hp N.
  assert (Nxy : x <> y) by (intros ->; apply N; eapply cons_inj; eauto).
  pose proof (nth_some_lt _ _ _ Hj). pose proof (nth_some_lt _ _ _ Hp).
  pose proof (nth_some_lt _ _ _ (proj1 (C _ _) Hj)). pose proof (nth_some_lt _ _ _ (proj1 (C _ _) Hp)).
  intros i n. rewrite !nth_upd, !upd_length.
  destruct (Nat.eqb_spec p i) as [<- | Np]; destruct (Nat.eqb_spec x n) as [<- | Nx].
  - destruct (Nat.ltb_spec p (length H)); [| lia]. destruct (Nat.ltb_spec x (length I)); [| lia]. tauto.
  - destruct (Nat.ltb_spec p (length H)); [| lia]. destruct (Nat.eqb_spec y n) as [<- | Ny].
    + destruct (Nat.ltb_spec y (length I)); [| lia]. split; congruence.
    + split; intros E; [congruence |]. apply C in E. congruence.
  - destruct (Nat.ltb_spec x (length I)); [| lia]. destruct (Nat.eqb_spec j i) as [<- | Nj].
    + destruct (Nat.ltb_spec j (length H)); [| lia]. split; congruence.
    + split; intros E; [| congruence]. exfalso. apply Nj. eapply cons_inj; eauto.
  - destruct (Nat.eqb_spec j i) as [<- | Nj]; destruct (Nat.eqb_spec y n) as [<- | Ny].
    + destruct (Nat.ltb_spec j (length H)); [| lia]. destruct (Nat.ltb_spec y (length I)); [| lia]. tauto.
    + destruct (Nat.ltb_spec j (length H)); [| lia]. split; intros E; [congruence |]. apply C in E. congruence.
    + destruct (Nat.ltb_spec y (length I)); [| lia]. split; intros E; [| congruence]. exfalso. apply Np. eapply cons_inj; eauto.
    + apply C.
Qed.
Lemma swap_in : forall (H : list nat) j p x y, nth_error H j = Some x -> nth_error H p = Some y -> j <> p ->
  forall n, In n (upd (upd H j y) p x) <-> In n H.
Proof.
  intros H j p x y Hj Hp N n. pose proof (nth_some_lt _ _ _ Hj). pose proof (nth_some_lt _ _ _ Hp). split; intros E.
  - apply upd_in in E. destruct E as [-> | E]; [eapply nth_error_In; eauto |].
    apply upd_in in E. destruct E as [-> | E]; [eapply nth_error_In; eauto | assumption].
  - apply In_nth_error in E. destruct E as [i E].
    destruct (Nat.eq_dec i j) as [-> | Nj].
    + apply nth_error_In with p. replace n with x by congruence. apply upd_same. rewrite upd_length. assumption.
    + destruct (Nat.eq_dec i p) as [-> | Np].
      * apply nth_error_In with j. rewrite upd_other by auto. replace n with y by congruence. apply upd_same. assumption.
      * apply nth_error_In with i. rewrite !upd_other by auto. assumption.
Qed.

(** Heap order everywhere except between [j] and its parent. *)
Definition up_cond (acts : list Z) (j : nat) (V : list nat) : Prop :=
  (forall i n m, 0 < i -> i <> j -> nth_error V i = Some n -> nth_error V (parent_ i) = Some m -> (act acts n <= act acts m)%Z) /\
  (forall i n m, 0 < i -> 0 < j -> parent_ i = j -> nth_error V i = Some n -> nth_error V (parent_ j) = Some m -> (act acts n <= act acts m)%Z).
(** Heap order below [k] except between [p] and its children. *)
Definition down_cond (acts : list Z) (k p : nat) (V : list nat) : Prop :=
  (forall i n m, 0 < i -> k <= parent_ i -> parent_ i <> p -> nth_error V i = Some n -> nth_error V (parent_ i) = Some m -> (act acts n <= act acts m)%Z) /\
  (forall i n m, 0 < i -> 0 < p -> k <= parent_ p -> parent_ i = p -> nth_error V i = Some n -> nth_error V (parent_ p) = Some m -> (act acts n <= act acts m)%Z).

Ltac upd_cases E :=
  rewrite !nth_upd, ?upd_length in E;
  repeat match type of E with
  | context [?a =? ?b] => destruct (Nat.eqb_spec a b); [try subst |]
  | context [?a <? ?b] => destruct (Nat.ltb_spec a b); [| discriminate E]
  end.

Lemma up_step : forall acts V j x y, up_cond acts j V -> 0 < j -> nth_error V j = Some x -> nth_error V (parent_ j) = Some y ->
  (act acts y <= act acts x)%Z -> up_cond acts (parent_ j) (upd (upd V j y) (parent_ j) x).
Proof.
  intros acts V j x y [C1 C2] Hj Vj Vp L. set (p := parent_ j) in *.
  assert (Pj : p < j) by (apply parent_lt; assumption). split.
  - intros i n m Hi Nip En Em. pose proof (parent_lt i Hi) as Pi.
    rewrite !nth_upd, !upd_length in En.
    destruct (Nat.eqb_spec p i) as [e | _]; [congruence |].
    destruct (Nat.eqb_spec j i) as [e | Nji].
    + subst i. fold p in Em. rewrite !nth_upd, !upd_length, Nat.eqb_refl in Em.
      destruct (j <? length V); [| discriminate]. destruct (p <? length V); [| discriminate]. congruence.
    + rewrite !nth_upd, !upd_length in Em. destruct (Nat.eqb_spec p (parent_ i)) as [e | N1].
      * destruct (parent_ i <? length V); [| discriminate]. assert (m = x) by congruence. subst m.
        assert (act acts n <= act acts y)%Z; [| lia]. apply (C1 i n y); auto. congruence.
      * destruct (Nat.eqb_spec j (parent_ i)) as [e | N2].
        -- destruct (parent_ i <? length V); [| discriminate]. assert (m = y) by congruence. subst m. apply (C2 i n y); auto.
        -- apply (C1 i n m); auto.
  - intros i n m Hi Hp Ei En Em. pose proof (parent_lt p Hp) as Pp.
    rewrite !upd_other in Em by lia.
    assert (YM : (act acts y <= act acts m)%Z) by (apply (C1 p y m); auto; lia).
    rewrite !nth_upd, !upd_length in En. pose proof (parent_lt i Hi).
    destruct (Nat.eqb_spec p i) as [e | _]; [lia |].
    destruct (Nat.eqb_spec j i) as [e | Nji].
    + destruct (i <? length V); [| discriminate]. assert (n = y) by congruence. subst n. assumption.
    + assert (act acts n <= act acts y)%Z; [| lia]. apply (C1 i n y); auto. rewrite Ei. assumption.
Qed.
Lemma up_done : forall acts V j, up_cond acts j V ->
  (j = 0 \/ forall x y, nth_error V j = Some x -> nth_error V (parent_ j) = Some y -> (act acts x <= act acts y)%Z) -> ord_from acts 0 V.
Proof.
  intros acts V j [C1 _] D i n m Hi _ En Em. destruct (Nat.eq_dec i j) as [-> | N]; [| eauto].
  destruct D as [-> | D]; [lia | eauto].
Qed.
Lemma down_step : forall acts V k p c y z, down_cond acts k p V -> k <= p -> 0 < c -> parent_ c = p ->
  nth_error V p = Some y -> nth_error V c = Some z -> (act acts y <= act acts z)%Z ->
  (forall i n, 0 < i -> parent_ i = p -> nth_error V i = Some n -> (act acts n <= act acts z)%Z) ->
  down_cond acts k c (upd (upd V p z) c y).
Proof.
  intros acts V k p c y z [C1 C2] Hk Hc Pc Vp Vc L M.
  assert (PC : p < c) by (rewrite <- Pc; apply parent_lt; assumption). split.
  - intros i n m Hi Hki Nic En Em. pose proof (parent_lt i Hi) as Pi.
    rewrite !nth_upd, !upd_length in Em, En.
    destruct (Nat.eqb_spec c (parent_ i)) as [e | _]; [congruence |].
    destruct (Nat.eqb_spec p (parent_ i)) as [e | Npi].
    + destruct (parent_ i <? length V); [| discriminate]. assert (m = z) by congruence. subst m.
      destruct (Nat.eqb_spec c i) as [e2 | Nci].
      * destruct (i <? length V); [| discriminate]. congruence.
      * destruct (Nat.eqb_spec p i); [lia |]. apply (M i n); auto.
    + destruct (Nat.eqb_spec c i) as [e2 | Nci]; [subst i; congruence |].
      destruct (Nat.eqb_spec p i) as [e3 | Np].
      * subst i. destruct (p <? length V); [| discriminate]. assert (n = z) by congruence. subst n. apply (C2 c z m); auto.
      * apply (C1 i n m); auto.
  - intros i n m Hi _ Hk2 Pi En Em. pose proof (parent_lt i Hi). rewrite Pc in *.
    rewrite !nth_upd, !upd_length in Em, En.
    destruct (Nat.eqb_spec c p); [lia |]. rewrite Nat.eqb_refl in Em. destruct (p <? length V); [| discriminate].
    assert (m = z) by congruence. subst m.
    destruct (Nat.eqb_spec c i); [lia |]. destruct (Nat.eqb_spec p i); [lia |].
    apply (C1 i n z); auto; try lia; rewrite Pi; auto; lia.
Qed.
Lemma down_done : forall acts V k p, down_cond acts k p V ->
  (forall i n m, 0 < i -> parent_ i = p -> nth_error V i = Some n -> nth_error V p = Some m -> (act acts n <= act acts m)%Z) ->
  ord_from acts k V.
Proof.
  intros acts V k p [C1 _] D i n m Hi Hk En Em. destruct (Nat.eq_dec (parent_ i) p) as [E | N]; [| eauto].
  rewrite E in Em. eauto.
Qed.

(** Result of a percolation: the same elements, a consistent index table. *)
Definition perc (acts : list Z) (V : list nat) (I : list (option nat)) (h' : lheap) : Prop :=
  hcons (hp h') (hix h') /\ (forall n, In n (hp h') <-> In n V) /\ length (hp h') = length V /\ length (hix h') = length I.

Lemma up_loop_ok : forall acts fuel h x j p V I,
  V = upd (hp h) j x -> I = upd (hix h) x (Some j) -> hcons V I -> inb acts V -> j < length (hp h) -> x < length (hix h) ->
  j < fuel -> p = (if j =? 0 then 0 else parent_ j) ->
  exists h', up_loop acts fuel h x j p = Ok h' /\ perc acts V I h' /\ (up_cond acts j V -> ord_from acts 0 (hp h')).
Proof.
  intros acts. induction fuel as [| fu IH]; intros h x j p V I EV EI C B Hj Hx Hf Ep; [lia |]. cbn [up_loop].
  assert (Stop : place h j x = Ok (mkHeap V I)) by (subst; apply place_ok; assumption).
  assert (PS : perc acts V I (mkHeap V I)) by (repeat split; auto; apply C).
  assert (Vj : nth_error V j = Some x) by (subst; apply upd_same; assumption).
  assert (LV : length V = length (hp h)) by (subst; apply upd_length).
  destruct (Nat.eqb_spec j 0) as [-> | Nj].
  - eexists. split; [exact Stop |]. split; [exact PS |]. intros U. apply (up_done acts V 0 U). auto.
  - subst p. pose proof (parent_lt j ltac:(lia)) as Pj. set (p := parent_ j) in *.
    destruct (nth_lt_some (hp h) p ltac:(lia)) as [y Ey].
    assert (Vp : nth_error V p = Some y) by (subst V; rewrite upd_other by lia; assumption).
    assert (Bx : x < length acts) by (apply B; eapply nth_error_In; eauto).
    assert (By : y < length acts) by (apply B; eapply nth_error_In; eauto).
    rewrite (act_get acts x Bx), (vget_some _ _ _ _ Ey). cbn [rbind]. rewrite (act_get acts y By). cbn [rbind].
    assert (Ly : y < length (hix h)). { apply C in Vp. apply nth_some_lt in Vp. subst I. rewrite upd_length in Vp. assumption. }
    assert (Nxy : x <> y) by (intros ->; assert (j = p) by (eapply cons_inj; eauto); lia).
    rewrite Z.gtb_ltb. destruct (Z.ltb_spec (act acts y) (act acts x)) as [L | L].
    + rewrite place_ok by assumption. cbn [rbind].
      pose proof (swap_cons V I j p x y C Vj Vp ltac:(lia)) as C'.
      pose proof (swap_in V j p x y Vj Vp ltac:(lia)) as S'.
      destruct (IH (mkHeap (upd (hp h) j y) (upd (hix h) y (Some j))) x p (if p =? 0 then 0 else parent_ p)
                   (upd (upd V j y) p x) (upd (upd I y (Some j)) x (Some p))) as [h' [E [P O]]].
      * cbn. subst V. now rewrite upd_upd.
      * cbn. subst I. rewrite (upd_swap _ x y) by auto. now rewrite upd_upd.
      * exact C'.
      * intros n Hn. apply S' in Hn. auto.
      * cbn. rewrite upd_length. lia.
      * cbn. rewrite upd_length. assumption.
      * lia.
      * reflexivity.
      * exists h'. split; [exact E |]. split.
        -- destruct P as (P1 & P2 & P3 & P4). split; [exact P1 |]. split; [| split].
           ++ intros n. rewrite P2. apply S'.
           ++ rewrite P3, !upd_length. reflexivity.
           ++ rewrite P4, !upd_length. reflexivity.
        -- intros U. apply O. apply up_step; auto; lia.
    + eexists. split; [exact Stop |]. split; [exact PS |]. intros U. apply (up_done acts V j U). right. intros a b Ea Eb. fold p in Eb. replace a with x by congruence. replace b with y by congruence. exact L.
Qed.
Lemma percolate_up_ok : forall acts h pos, hcons (hp h) (hix h) -> inb acts (hp h) -> pos < length (hp h) ->
  exists h', percolate_up acts h pos = Ok h' /\ perc acts (hp h) (hix h) h' /\ (up_cond acts pos (hp h) -> ord_from acts 0 (hp h')).
Proof.
  intros acts h pos C B Hp. unfold percolate_up. destruct (nth_lt_some (hp h) pos Hp) as [x Ex]. rewrite (vget_some _ _ _ _ Ex). cbn [rbind].
  apply (up_loop_ok acts (S pos) h x pos _ (hp h) (hix h)); auto; try lia.
  - now rewrite upd_id.
  - rewrite upd_id; auto. apply C. assumption.
  - apply C in Ex. eapply nth_some_lt; eauto.
Qed.

Lemma down_loop_ok : forall acts fuel h y p V I k,
  V = upd (hp h) p y -> I = upd (hix h) y (Some p) -> hcons V I -> inb acts V -> p < length (hp h) -> y < length (hix h) ->
  length (hp h) - p < fuel -> k <= p ->
  exists h', down_loop acts fuel h y p = Ok h' /\ perc acts V I h' /\ (down_cond acts k p V -> ord_from acts k (hp h')).
Proof.
  intros acts. induction fuel as [| fu IH]; intros h y p V I k EV EI C B Hp Hy Hf Hk; [lia |]. cbn [down_loop].
  assert (Stop : place h p y = Ok (mkHeap V I)) by (subst; apply place_ok; assumption).
  assert (PS : perc acts V I (mkHeap V I)) by (repeat split; auto; apply C).
  assert (Vp : nth_error V p = Some y) by (subst; apply upd_same; assumption).
  assert (LV : length V = length (hp h)) by (subst; apply upd_length).
  assert (Lp : left_ p = 2 * p + 1) by (unfold left_; lia). assert (Rp : right_ p = 2 * p + 2) by (unfold right_; lia).
  assert (VO : forall i, i <> p -> nth_error V i = nth_error (hp h) i) by (intros; subst V; rewrite upd_other by lia; reflexivity).
  assert (Bn : forall i n, nth_error V i = Some n -> vget acts n = Ok (act acts n)).
  { intros i n E. apply act_get, B. eapply nth_error_In; eauto. }
  destruct (Nat.ltb_spec (left_ p) (length (hp h))) as [L | L].
  - (* the child that is compared *)
    assert (exists c hc, (if right_ p <? length (hp h) then
             rbind (vget (hp h) (right_ p)) (fun hr => rbind (vget (hp h) (left_ p)) (fun hl =>
             rbind (vget acts hr) (fun ar => rbind (vget acts hl) (fun al =>
             Ok (if (ar >? al)%Z then right_ p else left_ p)))))
           else Ok (left_ p)) = Ok c /\ (c = left_ p \/ c = right_ p) /\ nth_error V c = Some hc /\
           (forall i n, 0 < i -> parent_ i = p -> nth_error V i = Some n -> (act acts n <= act acts hc)%Z)) as (c & hc & Ec & Wc & Vc & M).
    { destruct (nth_lt_some (hp h) (left_ p) L) as [hl El].
      assert (Vl : nth_error V (left_ p) = Some hl) by (rewrite VO by lia; assumption).
      destruct (Nat.ltb_spec (right_ p) (length (hp h))) as [R | R].
      - destruct (nth_lt_some (hp h) (right_ p) R) as [hr Er].
        assert (Vr : nth_error V (right_ p) = Some hr) by (rewrite VO by lia; assumption).
        rewrite (vget_some _ _ _ _ El), (vget_some _ _ _ _ Er). cbn [rbind]. rewrite (Bn _ _ Vl), (Bn _ _ Vr). cbn [rbind].
        rewrite Z.gtb_ltb. destruct (Z.ltb_spec (act acts hl) (act acts hr)) as [G | G].
        + exists (right_ p), hr. repeat split; auto. intros i n Hi Pi Ei. apply parent_child in Pi; auto. destruct Pi; subst i.
          * assert (n = hl) by congruence. subst. lia.
          * assert (n = hr) by congruence. subst. lia.
        + exists (left_ p), hl. repeat split; auto. intros i n Hi Pi Ei. apply parent_child in Pi; auto. destruct Pi; subst i.
          * assert (n = hl) by congruence. subst. lia.
          * assert (n = hr) by congruence. subst. lia.
      - exists (left_ p), hl. repeat split; auto. intros i n Hi Pi Ei. apply parent_child in Pi; auto. destruct Pi; subst i.
        + assert (n = hl) by congruence. subst. lia.
        + apply nth_some_lt in Ei. lia. }
    rewrite Ec. cbn [rbind].
    assert (Hc : p < c) by (destruct Wc; lia). assert (Pc : parent_ c = p) by (destruct Wc as [-> | ->]; [apply parent_left | apply parent_right]).
    assert (Eh : nth_error (hp h) c = Some hc) by (rewrite <- VO by lia; assumption).
    rewrite (vget_some _ _ _ _ Eh). cbn [rbind]. rewrite (Bn _ _ Vc), (Bn _ _ Vp). cbn [rbind].
    destruct (Z.leb_spec (act acts hc) (act acts y)) as [G | G].
    + eexists. split; [exact Stop |]. split; [exact PS |]. intros U. apply (down_done acts V k p U). intros i n m Hi Pi Ei Em.
      assert (m = y) by congruence. subst m. specialize (M i n Hi Pi Ei). lia.
    + assert (Nh : hc <> y) by (intros ->; lia).
      assert (Lc : hc < length (hix h)). { apply C in Vc. apply nth_some_lt in Vc. subst I. rewrite upd_length in Vc. assumption. }
      rewrite place_ok by assumption. cbn [rbind].
      pose proof (swap_cons V I p c y hc C Vp Vc ltac:(lia)) as C'.
      pose proof (swap_in V p c y hc Vp Vc ltac:(lia)) as S'.
      pose proof (nth_some_lt _ _ _ Eh).
      destruct (IH (mkHeap (upd (hp h) p hc) (upd (hix h) hc (Some p))) y c
                   (upd (upd V p hc) c y) (upd (upd I hc (Some p)) y (Some c)) k) as [h' [E [P O]]].
      * cbn. subst V. now rewrite upd_upd.
      * cbn. subst I. rewrite (upd_swap _ y hc) by auto. now rewrite upd_upd.
      * exact C'.
      * intros n Hn. apply S' in Hn. auto.
      * cbn. rewrite upd_length. lia.
      * cbn. rewrite upd_length. assumption.
      * cbn. rewrite upd_length. lia.
      * lia.
      * exists h'. split; [exact E |]. split.
        -- destruct P as (P1 & P2 & P3 & P4). split; [exact P1 |]. split; [| split].
           ++ intros n. rewrite P2. apply S'.
           ++ rewrite P3, !upd_length. reflexivity.
           ++ rewrite P4, !upd_length. reflexivity.
        -- intros U. apply O. apply down_step; auto; lia.
  - eexists. split; [exact Stop |]. split; [exact PS |]. intros U. apply (down_done acts V k p U). intros i n m Hi Pi Ei Em.
    apply nth_some_lt in Ei. apply parent_child in Pi; auto. lia.
Qed.
Lemma percolate_down_ok : forall acts h pos k, hcons (hp h) (hix h) -> inb acts (hp h) -> pos < length (hp h) -> k <= pos ->
  exists h', percolate_down acts h pos = Ok h' /\ perc acts (hp h) (hix h) h' /\ (down_cond acts k pos (hp h) -> ord_from acts k (hp h')).
Proof.
  intros acts h pos k C B Hp Hk. unfold percolate_down. destruct (nth_lt_some (hp h) pos Hp) as [x Ex]. rewrite (vget_some _ _ _ _ Ex). cbn [rbind].
  apply (down_loop_ok acts (S (length (hp h))) h x pos (hp h) (hix h) k); auto; try lia.
  - now rewrite upd_id.
  - rewrite upd_id; auto. apply C. assumption.
  - apply C in Ex. eapply nth_some_lt; eauto.
Qed.
