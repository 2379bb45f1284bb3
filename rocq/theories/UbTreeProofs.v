(** Proofs about the UB tree. *)
From Coq Require Import List Bool Arith Lia.
From Verif Require Import Base Vec CacheModel HeapModel HeapProofs WorldProofs MetricsProofs SorterProofs UbTreeModel.
Import ListNotations.

Lemma NoDup_app_remove_l : forall A (l r : list A), NoDup (l ++ r) -> NoDup r.
Proof. induction l as [| x l IH]; intros r H; [assumption |]. cbn in H. apply NoDup_cons_iff in H. apply IH, H. Qed.
Lemma NoDup_app_remove_r : forall A (l r : list A), NoDup (l ++ r) -> NoDup l.
Proof.
  induction l as [| x l IH]; intros r H; [constructor |]. cbn in H. apply NoDup_cons_iff in H. destruct H as [H1 H2]. constructor; [| eauto].
  intros K. apply H1. apply in_or_app. auto.
Qed.

Section UbTree.
  Context {T : Type} (ltb eqb : T -> T -> bool).
  Hypothesis ltb_trans : forall x y z, ltb x y = true -> ltb y z = true -> ltb x z = true.
  Hypothesis ltb_irrefl : forall x, ltb x x = false.
  Hypothesis ltb_total : forall x y, ltb x y = false -> eqb x y = false -> ltb y x = true.
  Hypothesis eqb_spec : forall x y, eqb x y = true <-> x = y.
  Notation ubtree := (@ubtree T).

  Lemma eqb_refl' : forall x, eqb x x = true.
  Proof. intros. now apply eqb_spec. Qed.
  Lemma T_dec : forall x y : T, {x = y} + {x <> y}.
  Proof. intros x y. destruct (eqb x y) eqn:E; [left; now apply eqb_spec | right; intros ->; rewrite eqb_refl' in E; discriminate]. Qed.

  (** Maps *)
  Definition keys (m : list (T * nat)) : list T := map fst m.
  Lemma map_get_in : forall m e n, strict ltb (keys m) -> map_get eqb e m = Some n <-> In (e, n) m.
  Proof.
    induction m as [| [k v] m IH]; intros e n S; cbn [map_get keys map fst] in *; [split; [discriminate | intros []] |].
    inversion S as [| ? ? S' F]; subst. destruct (eqb e k) eqn:E.
    - apply eqb_spec in E. subst k. split; [intros [= ->]; now left |]. intros [[= ->] | H]; [reflexivity |]. exfalso.
      rewrite Forall_forall in F. specialize (F e (in_map fst _ _ H)). cbn in F. rewrite ltb_irrefl in F. discriminate.
    - rewrite IH by assumption. split; [now right |]. intros [[= -> ->] | H]; [rewrite eqb_refl' in E; discriminate | assumption].
  Qed.
  Lemma map_get_none : forall m e, map_get eqb e m = None <-> ~ In e (keys m).
  Proof.
    induction m as [| [k v] m IH]; intros e; cbn [map_get keys map fst In]; [tauto |]. destruct (eqb e k) eqn:E.
    - apply eqb_spec in E. subst. split; [discriminate | tauto].
    - rewrite IH. unfold keys. split; intros H; [intros [-> | K]; [rewrite eqb_refl' in E; discriminate | tauto] | tauto].
  Qed.
  Lemma map_insert_keys : forall m e n, keys (map_insert ltb eqb e n m) = ins ltb eqb e (keys m).
  Proof.
    induction m as [| [k v] m IH]; intros e n; cbn [map_insert keys map fst ins]; [reflexivity |].
    destruct (ltb e k); [reflexivity |]. destruct (eqb e k); [reflexivity |]. cbn [map fst]. f_equal. apply IH.
  Qed.
  Lemma map_insert_strict : forall m e n, strict ltb (keys m) -> strict ltb (keys (map_insert ltb eqb e n m)).
  Proof. intros. rewrite map_insert_keys. apply ins_strict; auto. Qed.
  Lemma map_insert_in : forall m e n k v, ~ In e (keys m) -> In (k, v) (map_insert ltb eqb e n m) <-> (k, v) = (e, n) \/ In (k, v) m.
  Proof.
    induction m as [| [a b] m IH]; intros e n k v H; cbn [map_insert keys map fst] in *; [cbn; intuition |].
    destruct (ltb e a); [cbn; intuition |]. destruct (eqb e a) eqn:E; [apply eqb_spec in E; subst; exfalso; apply H; now left |].
    cbn [In]. rewrite IH by (intros K; apply H; now right). intuition.
  Qed.

  (** The word spelled by the path to a map: map 0 is the root, map [n + 1] belongs to node [n]. *)
  Definition wm (W : list (list T)) (j : nat) : list T := match j with O => [] | S n => nth n W [] end.
  Record ubinv (t : ubtree) (W : list (list T)) : Prop := {
    u_root : ub_root t = 0;
    u_maps : length (ub_maps t) = S (length (ub_nodes t));
    u_words : length W = length (ub_nodes t);
    u_child : forall n nd, nth_error (ub_nodes t) n = Some nd -> un_children nd = S n;
    u_keys : forall j m, nth_error (ub_maps t) j = Some m -> strict ltb (keys m);
    u_edges : forall j m e n, nth_error (ub_maps t) j = Some m -> (In (e, n) m <-> nth_error W n = Some (wm W j ++ [e]));
    u_parent : forall n w, nth_error W n = Some w -> exists j e, j <= n /\ w = wm W j ++ [e];
    u_sorted : forall n w, nth_error W n = Some w -> strict ltb w;
    u_sets : forall n nd s, nth_error (ub_nodes t) n = Some nd -> un_set nd = Some s -> nth_error W n = Some s }.
  (** A set is stored. *)
  Definition stored (t : ubtree) (s : list T) : Prop := exists nd, In nd (ub_nodes t) /\ un_set nd = Some s.

  Lemma snoc_inj : forall (a b : list T) x y, a ++ [x] = b ++ [y] -> a = b /\ x = y.
  Proof. intros a b x y H. apply app_inj_tail in H. assumption. Qed.
  Lemma wm_nth : forall W n w, nth_error W n = Some w -> wm W (S n) = w.
  Proof. intros W n w H. cbn. now apply nth_error_nth. Qed.

  (** Different nodes have different words, and so have different maps. *)
  Lemma words_inj : forall t W a b w, ubinv t W -> nth_error W a = Some w -> nth_error W b = Some w -> a = b.
  Proof.
    intros t W a b w I Ha Hb. destruct (u_parent _ _ I _ _ Ha) as (j & e & Hj & ->). pose proof (nth_some_lt _ _ _ Ha) as L.
    rewrite (u_words _ _ I) in L. destruct (nth_lt_some (ub_maps t) j) as [m Em]; [rewrite (u_maps _ _ I); lia |].
    apply (u_edges _ _ I _ _ _ _ Em) in Ha. apply (u_edges _ _ I _ _ _ _ Em) in Hb.
    apply (map_get_in m e _ (u_keys _ _ I _ _ Em)) in Ha. apply (map_get_in m e _ (u_keys _ _ I _ _ Em)) in Hb. congruence.
  Qed.
  Lemma word_nonempty : forall t W n w, ubinv t W -> nth_error W n = Some w -> w <> [].
  Proof. intros t W n w I H. destruct (u_parent _ _ I _ _ H) as (j & e & _ & ->). intros K. apply app_eq_nil in K. destruct K; discriminate. Qed.
  Lemma wm_inj : forall t W a b, ubinv t W -> a <= length W -> b <= length W -> wm W a = wm W b -> a = b.
  Proof.
    intros t W [| a] [| b] I Ha Hb E; auto.
    - exfalso. destruct (nth_lt_some W b ltac:(lia)) as [w Hw]. rewrite (wm_nth _ _ _ Hw) in E. cbn in E. symmetry in E. eapply word_nonempty; eauto.
    - exfalso. destruct (nth_lt_some W a ltac:(lia)) as [w Hw]. rewrite (wm_nth _ _ _ Hw) in E. cbn in E. eapply word_nonempty; eauto.
    - destruct (nth_lt_some W a ltac:(lia)) as [w Hw]. destruct (nth_lt_some W b ltac:(lia)) as [w' Hw'].
      rewrite (wm_nth _ _ _ Hw), (wm_nth _ _ _ Hw') in E. subst. f_equal. eapply words_inj; eauto.
  Qed.

  Lemma inv_new : ubinv ub_new [].
  Proof.
    constructor; cbn; auto; try (intros n ? H; destruct n; discriminate); try (intros n ? ? H; destruct n; discriminate).
    - intros [| j] m H; cbn in H; [injection H as <-; constructor | destruct j; discriminate].
    - intros [| j] m e n H; cbn in H; [injection H as <- | destruct j; discriminate]. destruct n; cbn; split; try tauto; discriminate.
  Qed.
  Lemma stored_word : forall t W s, ubinv t W -> stored t s -> exists n nd, nth_error (ub_nodes t) n = Some nd /\ un_set nd = Some s /\ nth_error W n = Some s.
  Proof.
    intros t W s I (nd & H & E). apply In_nth_error in H. destruct H as [n H]. exists n, nd. split; [assumption |]. split; [assumption |]. eapply u_sets; eauto.
  Qed.
  Lemma stored_sorted : forall t W s, ubinv t W -> stored t s -> strict ltb s /\ s <> [].
  Proof. intros t W s I H. destruct (stored_word _ _ _ I H) as (n & nd & _ & _ & E). split; [eapply u_sorted; eauto | eapply word_nonempty; eauto]. Qed.

  (** Adding the edge [e] to map [j]. *)
  Lemma add_edge : forall t W j m e, ubinv t W -> nth_error (ub_maps t) j = Some m -> ~ In e (keys m) -> strict ltb (wm W j ++ [e]) ->
    let t1 := snd (new_node t) in
    let t2 := mkUb (ub_root t1) (ub_nodes t1) (upd (ub_maps t1) j (map_insert ltb eqb e (length (ub_nodes t)) m)) in
    ubinv t2 (W ++ [wm W j ++ [e]]) /\ (forall s, stored t2 s <-> stored t s).
  Proof.
    intros t W j m e I Em Nk S t1 t2. cbn in t1. pose proof (nth_some_lt _ _ _ Em) as Lj. rewrite (u_maps _ _ I) in Lj.
    pose proof (u_words _ _ I) as LW. pose proof (u_maps _ _ I) as LM.
    assert (WO : forall i, i <= length W -> wm (W ++ [wm W j ++ [e]]) i = wm W i).
    { intros [| i] Hi; [reflexivity |]. cbn. apply app_nth1. lia. }
    assert (MO : forall i mi, nth_error (ub_maps t2) i = Some mi -> (i = j /\ mi = map_insert ltb eqb e (length (ub_nodes t)) m) \/
      (i <> j /\ i < length (ub_maps t) /\ nth_error (ub_maps t) i = Some mi) \/ (i = length (ub_maps t) /\ mi = [])).
    { intros i mi H. cbn [ub_maps t2 t1] in H. destruct (Nat.eq_dec j i) as [<- | N].
      - rewrite upd_same in H by (rewrite app_length; cbn; lia). left. split; congruence.
      - rewrite upd_other in H by assumption. rewrite nth_snoc in H. destruct (Nat.eqb_spec i (length (ub_maps t))) as [e2 | N2]; right; [right; split; congruence |].
        left. split; [congruence |]. split; [eapply nth_some_lt; eauto | assumption]. }
    assert (WN : forall n w, nth_error (W ++ [wm W j ++ [e]]) n = Some w -> (n < length W /\ nth_error W n = Some w) \/ (n = length W /\ w = wm W j ++ [e])).
    { intros n w H. rewrite nth_snoc in H. destruct (Nat.eqb_spec n (length W)); [right; split; congruence |]. left. split; [eapply nth_some_lt; eauto | assumption]. }
    split; [constructor |].
    - exact (u_root _ _ I).
    - cbn. rewrite upd_length, !app_length. cbn. lia.
    - cbn. rewrite !app_length. cbn. lia.
    - intros n nd H. cbn [ub_nodes t2 t1] in H. rewrite nth_snoc in H. destruct (Nat.eqb_spec n (length (ub_nodes t))) as [-> | N].
      + injection H as <-. cbn. exact LM.
      + eapply u_child; eauto.
    - intros i mi H. apply MO in H. destruct H as [[-> ->] | [[N [L H]] | [-> ->]]].
      + apply map_insert_strict. eapply u_keys; eauto.
      + eapply u_keys; eauto.
      + constructor.
    - intros i mi k n H. apply MO in H. destruct H as [[-> ->] | [[N [L H]] | [-> ->]]].
      + rewrite WO by lia. rewrite map_insert_in by assumption. rewrite (u_edges _ _ I _ _ k n Em). rewrite nth_snoc.
        destruct (Nat.eqb_spec n (length W)) as [-> | Nn].
        * split; [intros [[= -> _] | K]; [reflexivity | apply nth_some_lt in K; lia] |].
          intros [= K]. apply snoc_inj in K. destruct K as [_ ->]. left. congruence.
        * split; [intros [[= _ K] | K]; [lia | assumption] | intros K; now right].
      + rewrite WO by lia. rewrite (u_edges _ _ I _ _ k n H). rewrite nth_snoc. destruct (Nat.eqb_spec n (length W)) as [-> | Nn]; [| tauto].
        split; [intros K; apply nth_some_lt in K; lia |]. intros [= K]. apply snoc_inj in K. destruct K as [K _]. exfalso. apply N.
        eapply wm_inj; eauto; lia.
      + split; [intros [] |]. intros K. exfalso.
        assert (Ew : wm (W ++ [wm W j ++ [e]]) (length (ub_maps t)) = wm W j ++ [e]).
        { rewrite LM, <- LW. cbn. rewrite app_nth2, Nat.sub_diag by lia. reflexivity. }
        rewrite Ew in K. apply WN in K. destruct K as [[L K] | [-> K]].
        * destruct (u_parent _ _ I _ _ K) as (j' & e' & Hj' & E'). apply snoc_inj in E'. destruct E' as [E' _].
          (* the new word would be the parent of an old one *)
          destruct j' as [| n']; [cbn in E'; apply app_eq_nil in E'; destruct E'; discriminate |].
          destruct (nth_lt_some W n' ltac:(lia)) as [w' Hw']. rewrite (wm_nth _ _ _ Hw') in E'. subst w'.
          apply (u_edges _ _ I _ _ e n' Em) in Hw'. apply Nk. apply (in_map fst) in Hw'. exact Hw'.
        * apply (f_equal (@length T)) in K. rewrite !app_length in K. cbn in K. lia.
    - intros n w H. apply WN in H. destruct H as [[L H] | [-> ->]].
      + destruct (u_parent _ _ I _ _ H) as (j' & e' & Hj' & ->). exists j', e'. split; [assumption |]. rewrite WO by lia. reflexivity.
      + exists j, e. split; [lia |]. rewrite WO by lia. reflexivity.
    - intros n w H. apply WN in H. destruct H as [[L H] | [-> ->]]; [eapply u_sorted; eauto | exact S].
    - intros n nd s H E. cbn [ub_nodes t2 t1] in H. rewrite nth_snoc in H. destruct (Nat.eqb_spec n (length (ub_nodes t))) as [-> | N].
      + injection H as <-. discriminate.
      + rewrite nth_error_app1; [eapply u_sets; eauto |]. rewrite LW. eapply nth_some_lt; eauto.
    - intros s. unfold stored. cbn [ub_nodes t2 t1]. split; intros (nd & H & E).
      + apply in_app_or in H. destruct H as [H | [<- | []]]; [eauto | discriminate].
      + exists nd. split; [apply in_or_app; auto | assumption].
  Qed.

  Lemma strict_prefix : forall a b, strict ltb (a ++ b) -> strict ltb a.
  Proof.
    induction a as [| x a IH]; intros b H; [constructor |]. inversion H as [| ? ? H1 H2]; subst. constructor; [eapply IH; eauto |].
    rewrite Forall_forall in *. intros y Hy. apply H2. apply in_or_app. auto.
  Qed.

  Lemma add_walk_ok : forall set t W j node, ubinv t W -> j < length (ub_maps t) -> strict ltb (wm W j ++ set) ->
    exists n t' W', add_walk ltb eqb set j node t = Ok (n, t') /\ ubinv t' W' /\ (forall s, stored t' s <-> stored t s) /\
      match set with [] => n = node | _ => exists k, n = Some k /\ nth_error W' k = Some (wm W j ++ set) end.
  Proof.
    induction set as [| e r IH]; intros t W j node I Hj S; cbn [add_walk].
    - exists node, t, W. split; [reflexivity |]. split; [assumption |]. split; [tauto | reflexivity].
    - destruct (nth_lt_some (ub_maps t) j Hj) as [m Em]. rewrite (vget_some _ _ _ _ Em). cbn [rbind].
      replace (wm W j ++ e :: r) with ((wm W j ++ [e]) ++ r) in * by (rewrite <- app_assoc; reflexivity).
      pose proof (strict_prefix _ _ S) as S1.
      assert (Step : exists n t1 W1, (match map_get eqb e m with
               | Some n => Ok (n, t)
               | None =>
                   let (n, t1) := new_node t in
                   rbind (vget (ub_maps t1) j) (fun m1 =>
                   rbind (vset (ub_maps t1) j (map_insert ltb eqb e n m1)) (fun ms =>
                   Ok (n, mkUb (ub_root t1) (ub_nodes t1) ms)))
               end) = Ok (n, t1) /\ ubinv t1 W1 /\ (forall s, stored t1 s <-> stored t s) /\ nth_error W1 n = Some (wm W j ++ [e])).
      { destruct (map_get eqb e m) as [n |] eqn:G.
        - exists n, t, W. split; [reflexivity |]. split; [assumption |]. split; [tauto |].
          apply (map_get_in m e n (u_keys _ _ I _ _ Em)) in G. apply (u_edges _ _ I _ _ e n Em). assumption.
        - apply map_get_none in G. destruct (add_edge t W j m e I Em G S1) as [I2 St]. cbn [new_node].
          cbn [ub_maps]. rewrite (vget_some _ _ _ m) by (rewrite nth_error_app1; assumption). cbn [rbind].
          rewrite vset_lt by (rewrite app_length; lia). cbn [rbind]. eexists _, _, _. split; [reflexivity |].
          split; [exact I2 |]. split; [exact St |]. rewrite <- (u_words _ _ I), nth_error_app2, Nat.sub_diag by lia. reflexivity. }
      destruct Step as (n & t1 & W1 & E1 & I1 & St1 & Wn). rewrite E1. cbn [rbind fst snd].
      pose proof (nth_some_lt _ _ _ Wn) as Ln. rewrite (u_words _ _ I1) in Ln. destruct (nth_lt_some (ub_nodes t1) n Ln) as [nd End].
      rewrite (vget_some _ _ _ _ End). cbn [rbind]. rewrite (u_child _ _ I1 _ _ End).
      assert (EW : wm W1 (Datatypes.S n) = wm W j ++ [e]) by (apply wm_nth; assumption).
      destruct (IH t1 W1 (Datatypes.S n) (Some n) I1) as (n' & t' & W' & E' & I' & St' & R').
      + rewrite (u_maps _ _ I1). lia.
      + rewrite EW. exact S.
      + exists n', t', W'. split; [exact E' |]. split; [exact I' |]. split; [intros s; rewrite St'; apply St1 |].
        destruct r as [| e2 r2].
        * subst n'. cbn [add_walk] in E'. injection E' as E'. subst t'. exists n. split; [reflexivity |]. rewrite app_nil_r.
          pose proof (u_words _ _ I') as LW'. destruct (nth_lt_some W' n) as [w Hw]; [rewrite LW'; exact Ln |].
          (* both word lists describe the same tree *)
          assert (Q : forall a w1 w2, nth_error W1 a = Some w1 -> nth_error W' a = Some w2 -> w1 = w2).
          { intros a. induction a as [a IHa] using lt_wf_ind. intros w1 w2 H1 H2.
            destruct (u_parent _ _ I1 _ _ H1) as (j1 & e1 & Hj1 & ->).
            pose proof (nth_some_lt _ _ _ H1) as La. rewrite (u_words _ _ I1) in La.
            destruct (nth_lt_some (ub_maps t1) j1) as [m1 Em1]; [rewrite (u_maps _ _ I1); lia |].
            apply (u_edges _ _ I1 _ _ _ _ Em1) in H1. apply (u_edges _ _ I' _ _ _ _ Em1) in H1.
            assert (wm W1 j1 = wm W' j1).
            { destruct j1 as [| b]; [reflexivity |]. destruct (nth_lt_some W1 b) as [x Hx]; [rewrite (u_words _ _ I1); lia |].
              destruct (nth_lt_some W' b) as [y Hy]; [rewrite LW'; lia |]. rewrite (wm_nth _ _ _ Hx), (wm_nth _ _ _ Hy). apply (IHa b); auto. }
            congruence. }
          rewrite Hw. f_equal. symmetry. eapply Q; eauto.
        * rewrite EW in R'. exact R'.
  Qed.

  (** Adding a set: afterwards exactly the old sets and the new one (if it is not empty) are stored. *)
  Lemma add_set_ok : forall t W set, ubinv t W -> strict ltb set ->
    exists t' W', add_set ltb eqb set t = Ok t' /\ ubinv t' W' /\ forall s, stored t' s <-> stored t s \/ (s = set /\ set <> []).
  Proof.
    intros t W set I S. unfold add_set. rewrite (u_root _ _ I).
    destruct (add_walk_ok set t W 0 None I) as (n & t1 & W1 & E & I1 & St & R); [rewrite (u_maps _ _ I); lia | exact S |].
    rewrite E. cbn [rbind fst snd]. destruct set as [| e r].
    - subst n. exists t1, W1. split; [reflexivity |]. split; [assumption |]. intros s. rewrite St. intuition.
    - destruct R as (k & -> & Wk). cbn [wm app] in Wk. pose proof (nth_some_lt _ _ _ Wk) as Lk. rewrite (u_words _ _ I1) in Lk.
      destruct (nth_lt_some (ub_nodes t1) k Lk) as [nd End]. rewrite (vget_some _ _ _ _ End). cbn [rbind]. rewrite vset_lt by assumption. cbn [rbind].
      eexists _, W1. split; [reflexivity |].
      assert (NO : forall a x, nth_error (upd (ub_nodes t1) k (mkUbNode (un_children nd) (Some (e :: r)))) a = Some x ->
        (a = k /\ x = mkUbNode (un_children nd) (Some (e :: r))) \/ (a <> k /\ nth_error (ub_nodes t1) a = Some x)).
      { intros a x H. destruct (Nat.eq_dec k a) as [<- | N]; [rewrite upd_same in H by assumption; left; split; congruence |].
        rewrite upd_other in H by assumption. right. auto. }
      split.
      + destruct I1 as [A1 A2 A3 A4 A5 A6 A7 A8 A9]. constructor; cbn [ub_root ub_nodes ub_maps]; auto.
        * rewrite upd_length. assumption.
        * rewrite upd_length. assumption.
        * intros a x H. apply NO in H. destruct H as [[-> ->] | [N H]]; [cbn; eapply A4; eauto | eapply A4; eauto].
        * intros a x s H Es. apply NO in H. destruct H as [[-> ->] | [N H]]; [cbn in Es; congruence | eapply A9; eauto].
      + intros s. rewrite <- St. unfold stored. cbn [ub_nodes]. split.
        * intros (x & H & Es). apply In_nth_error in H. destruct H as [a H]. apply NO in H. destruct H as [[-> ->] | [N H]].
          -- right. cbn in Es. split; [congruence | discriminate].
          -- left. exists x. split; [eapply nth_error_In; eauto | assumption].
        * intros [(x & H & Es) | [-> _]].
          -- apply In_nth_error in H. destruct H as [a H]. destruct (Nat.eq_dec a k) as [-> | N].
             ++ assert (s = e :: r). { pose proof (u_sets _ _ I1 _ _ _ H Es). congruence. } subst s.
                eexists. split; [eapply nth_error_In; apply upd_same; assumption | reflexivity].
             ++ exists x. split; [| assumption]. apply (nth_error_In _ a). rewrite upd_other by auto. assumption.
          -- eexists. split; [eapply nth_error_In; apply upd_same; assumption | reflexivity].
  Qed.

  (** Queries *)
  Variable ord : list T -> nat -> list nat -> list nat.
  Hypothesis ord_same : forall q j l n, In n (ord q j l) <-> In n l.

  Lemma matching_in : forall q m n, strict ltb (keys m) -> In n (matching eqb q m) <-> exists e, In e q /\ In (e, n) m.
  Proof.
    intros q m n S. unfold matching. rewrite nodup_In, in_flat_map. split.
    - intros (e & He & H). destruct (map_get eqb e m) as [k |] eqn:G; [| destruct H]. destruct H as [<- | []]. exists e. split; [assumption |]. apply map_get_in in G; assumption.
    - intros (e & He & H). exists e. split; [assumption |]. apply map_get_in in H; [| assumption]. rewrite H. now left.
  Qed.

  Lemma strict_app_inv : forall a x b, strict ltb (a ++ x :: b) -> Forall (fun y => ltb x y = true) b.
  Proof.
    induction a as [| y a IH]; intros x b H; inversion H as [| ? ? H1 H2]; subst; [assumption |]. eapply IH; eauto.
  Qed.

  Lemma forest_ok : forall t W, ubinv t W -> forall fuel q j, strict ltb q -> j < length (ub_maps t) -> length q < fuel ->
    exists o, subset_from_forest eqb ord t fuel q j = Ok o /\
    match o with
    | Some s => stored t s /\ exists r, r <> [] /\ s = wm W j ++ r /\ incl r q
    | None => forall s r, stored t s -> s = wm W j ++ r -> r <> [] -> ~ incl r q
    end.
  Proof.
    intros t W I. induction fuel as [| fu IH]; intros q j S Hj Hf; [lia |]. cbn [subset_from_forest].
    destruct (nth_lt_some (ub_maps t) j Hj) as [m Em]. rewrite (vget_some _ _ _ _ Em). cbn [rbind].
    pose proof (u_keys _ _ I _ _ Em) as Sm.
    assert (Cand : forall s r, stored t s -> s = wm W j ++ r -> r <> [] -> incl r q -> exists e r' n, r = e :: r' /\ In e q /\ In (e, n) m /\ In n (matching eqb q m)).
    { intros s r Hs E Nr Hi. destruct r as [| e r']; [congruence |]. exists e, r'.
      destruct (stored_word _ _ _ I Hs) as (k & nd & Hk & _ & Wk). 
      (* the node of the prefix *)
      assert (P : forall p a, wm W j ++ [e] ++ p = a -> forall k, nth_error W k = Some a -> exists n, nth_error W n = Some (wm W j ++ [e])).
      { intros p. induction p as [| x p IHp] using rev_ind; intros a Ea k0 Hk0.
        - cbn in Ea. exists k0. congruence.
        - destruct (u_parent _ _ I _ _ Hk0) as (j' & e' & Hj' & E'). subst a. rewrite !app_assoc in E'. apply snoc_inj in E'. destruct E' as [E' ->].
          destruct j' as [| n']; [cbn in E'; apply app_eq_nil in E'; destruct E' as [E' _]; apply app_eq_nil in E'; destruct E'; discriminate |].
          pose proof (nth_some_lt _ _ _ Hk0). destruct (nth_lt_some W n' ltac:(lia)) as [w' Hw']. rewrite (wm_nth _ _ _ Hw') in E'.
          apply (IHp w') with (k := n'); [| assumption]. rewrite app_assoc. exact E'. }
      destruct (P r' s) with (k := k) as [n Hn]; [symmetry; exact E | exact Wk |].
      apply (u_edges _ _ I _ _ e n Em) in Hn. exists n. split; [reflexivity |]. assert (In e q) by (apply Hi; now left).
      split; [assumption |]. split; [assumption |]. apply matching_in; [assumption |]. eauto. }
    set (go := fix go (ns : list nat) (found : option (list T)) : res (option (list T)) :=
           match ns with
           | [] => Ok found
           | n :: r =>
               match found with
               | Some _ => Ok found
               | None =>
                   rbind (vget (ub_nodes t) n) (fun nd =>
                   match un_set nd with
                   | Some s => Ok (Some s)
                   | None => rbind (subset_from_forest eqb ord t fu (tl q) (un_children nd)) (fun f => go r f)
                   end)
               end
           end).
    assert (Go : forall ns found, (forall n, In n ns -> In n (matching eqb q m)) ->
      (match found with Some s => stored t s /\ exists r, r <> [] /\ s = wm W j ++ r /\ incl r q | None => True end) ->
      exists o, go ns found = Ok o /\
      match o with
      | Some s => stored t s /\ exists r, r <> [] /\ s = wm W j ++ r /\ incl r q
      | None => found = None /\ forall n e, In n ns -> In (e, n) m -> forall s r, stored t s -> s = wm W j ++ e :: r -> ~ incl (e :: r) q
      end).
    { induction ns as [| n ns IHn]; intros found Hn Hfo; cbn [go].
      - exists found. split; [reflexivity |]. destruct found as [s |]; [exact Hfo |]. split; [reflexivity | intros n e []].
      - destruct found as [s |].
        + exists (Some s). split; [destruct ns; reflexivity | exact Hfo].
        + pose proof (Hn n (or_introl eq_refl)) as Mn. apply matching_in in Mn; [| assumption]. destruct Mn as (e & Heq & Hem).
          pose proof (proj1 (u_edges _ _ I _ _ _ _ Em) Hem) as Wn. pose proof (nth_some_lt _ _ _ Wn) as Ln. rewrite (u_words _ _ I) in Ln.
          destruct (nth_lt_some (ub_nodes t) n Ln) as [nd End]. rewrite (vget_some _ _ _ _ End). cbn [rbind].
          assert (Uniq : forall e', In (e', n) m -> e' = e).
          { intros e' H'. apply (u_edges _ _ I _ _ _ _ Em) in H'. rewrite Wn in H'. injection H' as H'. apply snoc_inj in H'. symmetry. apply H'. }
          destruct (un_set nd) as [s |] eqn:Es.
          * exists (Some s). split; [reflexivity |]. split; [exists nd; split; [eapply nth_error_In; eauto | assumption] |].
            pose proof (u_sets _ _ I _ _ _ End Es) as Ws. exists [e]. split; [discriminate |]. split; [congruence |]. intros x [<- | []]. assumption.
          * rewrite (u_child _ _ I _ _ End).
            destruct (IH (tl q) (Datatypes.S n)) as (o & Eo & Ho).
            { destruct q; [constructor |]. inversion S; assumption. }
            { rewrite (u_maps _ _ I). lia. }
            { destruct q; [destruct Heq | cbn in *; lia]. }
            rewrite Eo. cbn [rbind]. rewrite (wm_nth _ _ _ Wn) in Ho.
            assert (Found : match o with Some s => stored t s /\ exists r, r <> [] /\ s = wm W j ++ r /\ incl r q | None => True end).
            { destruct o as [s |]; [| exact Logic.I]. destruct Ho as [Hs (r & Nr & Er & Ir)]. split; [assumption |]. exists (e :: r). split; [discriminate |].
              split; [rewrite Er, <- app_assoc; reflexivity |]. intros x [<- | Hx]; [assumption |]. apply Ir in Hx. destruct q; [destruct Hx | now right]. }
            destruct (IHn o) as (o' & Eo' & Ho'); [intros k Hk; apply Hn; now right | exact Found |].
            exists o'. split; [exact Eo' |]. destruct o' as [s |]; [exact Ho' |]. destruct Ho' as [-> Ho']. split; [reflexivity |].
            intros k e' [<- | Hk] He' s r Hs Er Hi; [| exact (Ho' k e' Hk He' s r Hs Er Hi)].
            apply Uniq in He'. subst e'. destruct r as [| x r].
            -- (* the node itself has no set *)
               destruct (stored_word _ _ _ I Hs) as (k & nd' & Hk & Hk2 & Wk). assert (k = n) by (eapply words_inj; eauto; congruence). subst k. congruence.
            -- apply (Ho s (x :: r) Hs); [rewrite Er, <- app_assoc; reflexivity | discriminate |].
               destruct (stored_sorted _ _ _ I Hs) as [Ss _]. rewrite Er in Ss. apply strict_app_inv in Ss. rewrite Forall_forall in Ss.
               intros y Hy. destruct q as [| f q']; [destruct Heq |]. cbn [tl].
               assert (Hyq : In y (f :: q')) by (apply Hi; now right). destruct Hyq as [<- | Hyq]; [| assumption].
               exfalso. specialize (Ss f Hy). destruct Heq as [-> | Heq]; [rewrite ltb_irrefl in Ss; discriminate |].
               inversion S as [| ? ? _ F]; subst. rewrite Forall_forall in F. specialize (F e Heq). cbn in F.
               pose proof (ltb_trans _ _ _ Ss F) as K. rewrite ltb_irrefl in K. discriminate. }
    destruct (Go (ord q j (matching eqb q m)) None) as (o & Eo & Ho); [intros n Hn; now apply ord_same in Hn | exact Logic.I |].
    exists o. split; [exact Eo |]. destruct o as [s |]; [exact Ho |]. destruct Ho as [_ Ho]. intros s r Hs Er Nr Hi.
    destruct (Cand s r Hs Er Nr Hi) as (e & r' & n & -> & Heq & Hem & Hn). apply (Ho n e) with (s := s) (r := r'); auto. now apply ord_same.
  Qed.

  Lemma first_subset_ok : forall t W q, ubinv t W -> strict ltb q ->
    exists o, first_subset eqb ord t q = Ok o /\
    match o with
    | Some s => stored t s /\ incl s q
    | None => forall s, stored t s -> ~ incl s q
    end.
  Proof.
    intros t W q I S. unfold first_subset. rewrite (u_root _ _ I). pose proof (u_maps _ _ I) as LM.
    destruct (nth_lt_some (ub_maps t) 0 ltac:(lia)) as [m Em]. rewrite (vget_some _ _ _ _ Em). cbn [rbind].
    destruct (forest_ok t W I (Datatypes.S (length q)) q 0 S ltac:(lia) ltac:(lia)) as (o & Eo & Ho).
    assert (G : match o with Some s => stored t s /\ incl s q | None => forall s, stored t s -> ~ incl s q end).
    { destruct o as [s |].
      - destruct Ho as [Hs (r & _ & -> & Hi)]. split; assumption.
      - intros s Hs. apply (Ho s s Hs); [reflexivity |]. apply (stored_sorted _ _ _ I Hs). }
    assert (No : m = [] -> forall s, ~ stored t s).
    { intros -> s Hs. destruct (stored_word _ _ _ I Hs) as (k & nd & _ & _ & Wk).
      assert (P : forall k w, nth_error W k = Some w -> False); [| eauto]. intros k0. induction k0 as [k0 IHk] using lt_wf_ind. intros w Hw.
      destruct (u_parent _ _ I _ _ Hw) as (j & e & Hj & ->). destruct j as [| n]; [apply (u_edges _ _ I _ _ _ _ Em) in Hw; destruct Hw |].
      pose proof (nth_some_lt _ _ _ Hw). destruct (nth_lt_some W n ltac:(lia)) as [w' Hw']. eapply (IHk n); eauto. }
    destruct m as [| p m].
    - exists None. split; [reflexivity |]. intros s Hs. exfalso. exact (No eq_refl s Hs).
    - destruct q as [| x q].
      + exists None. split; [reflexivity |]. intros s Hs Hi. destruct (stored_sorted _ _ _ I Hs) as [_ N]. apply N. now apply incl_l_nil.
      + exists o. split; [exact Eo | exact G].
  Qed.

  (** Lexicographic order *)
  Lemma lex_eqb_spec : forall a b, lex_eqb eqb a b = true <-> a = b.
  Proof.
    induction a as [| x a IH]; intros [| y b]; cbn [lex_eqb]; try (split; [discriminate | discriminate]); try tauto.
    rewrite andb_true_iff, IH, eqb_spec. split; [intros [-> ->]; reflexivity | intros [= -> ->]; auto].
  Qed.
  Lemma lex_trans : forall a b c, lex_ltb ltb eqb a b = true -> lex_ltb ltb eqb b c = true -> lex_ltb ltb eqb a c = true.
  Proof.
    induction a as [| x a IH]; intros [| y b] [| z c]; cbn [lex_ltb]; try congruence; auto.
    rewrite !orb_true_iff, !andb_true_iff, !eqb_spec. intros [H1 | [-> H1]] [H2 | [-> H2]]; eauto.
  Qed.
  Lemma lex_total : forall a b, lex_ltb ltb eqb a b = false -> lex_eqb eqb a b = false -> lex_ltb ltb eqb b a = true.
  Proof.
    induction a as [| x a IH]; intros [| y b]; cbn [lex_ltb lex_eqb]; try congruence; auto.
    rewrite orb_false_iff. intros [H1 H2] H3. destruct (eqb x y) eqn:E.
    - apply eqb_spec in E. subst y. cbn [andb] in *. rewrite eqb_refl'. cbn [andb]. apply orb_true_iff. right. now apply IH.
    - apply orb_true_iff. left. now apply ltb_total.
  Qed.
  Lemma lex_irrefl : forall a, lex_ltb ltb eqb a a = false.
  Proof. induction a as [| x a IH]; cbn [lex_ltb]; [reflexivity |]. rewrite ltb_irrefl, IH, andb_false_r. reflexivity. Qed.

  (** All sets *)
  Definition child_of (t : ubtree) (j n : nat) : Prop := exists m e, nth_error (ub_maps t) j = Some m /\ In (e, n) m.
  Lemma visit_ok : forall t W, ubinv t W -> forall ns acc stack, (forall n, In n ns -> n < length (ub_nodes t)) -> strict (lex_ltb ltb eqb) acc ->
    exists acc', visit ltb eqb t ns acc stack = Ok (acc', rev (map S ns) ++ stack) /\ strict (lex_ltb ltb eqb) acc' /\
      forall s, In s acc' <-> In s acc \/ exists n nd, In n ns /\ nth_error (ub_nodes t) n = Some nd /\ un_set nd = Some s.
  Proof.
    intros t W I. induction ns as [| n ns IH]; intros acc stack Hn Sa; cbn [visit].
    - exists acc. split; [reflexivity |]. split; [assumption |]. intros s. split; [auto |]. intros [H | (n & nd & [] & _)]. assumption.
    - destruct (nth_lt_some (ub_nodes t) n (Hn n (or_introl eq_refl))) as [nd End]. rewrite (vget_some _ _ _ _ End). cbn [rbind].
      rewrite (u_child _ _ I _ _ End).
      set (acc1 := match un_set nd with Some s => ins (lex_ltb ltb eqb) (lex_eqb eqb) s acc | None => acc end).
      assert (S1 : strict (lex_ltb ltb eqb) acc1).
      { unfold acc1. destruct (un_set nd); [| assumption]. apply ins_strict; eauto using lex_trans, lex_total, lex_eqb_spec. }
      assert (In1 : forall s, In s acc1 <-> In s acc \/ un_set nd = Some s).
      { intros s. unfold acc1. destruct (un_set nd) as [s0 |]; [| intuition discriminate]. rewrite (ins_in _ _ _ lex_eqb_spec).
        split; [intros [-> | H]; auto | intros [H | [= ->]]; auto]. }
      destruct (IH acc1 (Datatypes.S n :: stack)) as (acc' & E & S' & In'); [intros k Hk; apply Hn; now right | exact S1 |].
      exists acc'. split; [rewrite E; cbn [map rev]; rewrite <- app_assoc; reflexivity |]. split; [exact S' |]. intros s. rewrite In', In1. split.
      + intros [[H | H] | (k & ndk & Hk & H)]; [auto | right; exists n, nd; split; [now left | auto] | right; exists k, ndk; split; [now right | auto]].
      + intros [H | (k & ndk & [<- | Hk] & H1 & H2)]; [auto | left; right; congruence | right; eauto].
  Qed.

  Lemma all_loop_ok : forall t W, ubinv t W -> forall fuel acc stack done_,
    strict (lex_ltb ltb eqb) acc -> NoDup (stack ++ done_) -> (forall j, In j (stack ++ done_) -> j < length (ub_maps t)) ->
    In 0 (stack ++ done_) ->
    (forall j n, In j done_ -> child_of t j n -> In (S n) (stack ++ done_)) ->
    (forall n, In (S n) (stack ++ done_) -> exists j, In j done_ /\ child_of t j n) ->
    (forall s, In s acc <-> exists j n nd, In j done_ /\ child_of t j n /\ nth_error (ub_nodes t) n = Some nd /\ un_set nd = Some s) ->
    length (ub_maps t) < fuel + length done_ ->
    exists sets, all_loop ltb eqb t fuel acc stack = Ok sets /\ strict (lex_ltb ltb eqb) sets /\ forall s, In s sets <-> stored t s.
  Proof.
    intros t W I. induction fuel as [| fu IH]; intros acc stack dn Sa Nd Bd H0 Cl Pa Ac Hf.
    - exfalso. assert (length dn <= length (ub_maps t)); [| lia].
      rewrite <- (seq_length (length (ub_maps t)) 0). apply NoDup_incl_length; [apply NoDup_app_remove_l in Nd; assumption |].
      intros j Hj. apply in_seq. specialize (Bd j (in_or_app _ _ _ (or_intror Hj))). lia.
    - cbn [all_loop]. destruct stack as [| c rest].
      + exists acc. split; [reflexivity |]. split; [assumption |]. intros s. rewrite Ac. cbn [app] in *. split.
        * intros (j & n & nd & _ & _ & H & E). exists nd. split; [eapply nth_error_In; eauto | assumption].
        * intros Hs. destruct (stored_word _ _ _ I Hs) as (n & nd & Hn & En & Wn).
          assert (P : forall n w, nth_error W n = Some w -> exists j, In j dn /\ child_of t j n).
          { intros k. induction k as [k IHk] using lt_wf_ind. intros w Hw. destruct (u_parent _ _ I _ _ Hw) as (j & e & Hj & ->).
            pose proof (nth_some_lt _ _ _ Hw) as L. rewrite (u_words _ _ I) in L. destruct (nth_lt_some (ub_maps t) j) as [m Em]; [rewrite (u_maps _ _ I); lia |].
            assert (C : child_of t j k) by (exists m, e; split; [assumption |]; apply (u_edges _ _ I _ _ _ _ Em); assumption).
            exists j. split; [| assumption]. destruct j as [| b]; [assumption |].
            destruct (nth_lt_some W b) as [w' Hw']; [rewrite (u_words _ _ I); lia |]. destruct (IHk b ltac:(lia) w' Hw') as (jb & Hjb & Cb). eapply Cl; eauto. }
          destruct (P n s Wn) as (j & Hj & C). eauto 8.
      + assert (Hc : c < length (ub_maps t)) by (apply Bd; now left). destruct (nth_lt_some (ub_maps t) c Hc) as [m Em].
        rewrite (vget_some _ _ _ _ Em). cbn [rbind].
        assert (Ch : forall n, In n (map snd m) <-> child_of t c n).
        { intros n. rewrite in_map_iff. split.
          - intros ([e k] & <- & H). exists m, e. auto.
          - intros (m' & e & Em' & H). rewrite Em in Em'. injection Em' as <-. exists (e, n). auto. }
        assert (Lt : forall j n, child_of t j n -> n < length (ub_nodes t)).
        { intros j n (m' & e & Em' & H). apply (u_edges _ _ I _ _ _ _ Em') in H. rewrite <- (u_words _ _ I). eapply nth_some_lt; eauto. }
        assert (Par : forall j1 j2 n, child_of t j1 n -> child_of t j2 n -> j1 = j2).
        { intros j1 j2 n (m1 & e1 & E1 & H1) (m2 & e2 & E2 & H2). apply (u_edges _ _ I _ _ _ _ E1) in H1. apply (u_edges _ _ I _ _ _ _ E2) in H2.
          rewrite H1 in H2. injection H2 as H2. apply snoc_inj in H2. pose proof (nth_some_lt _ _ _ E1) as L1. pose proof (nth_some_lt _ _ _ E2) as L2.
          rewrite (u_maps _ _ I), <- (u_words _ _ I) in L1, L2. eapply wm_inj; eauto; [lia | lia | apply H2]. }
        destruct (visit_ok t W I (map snd m) acc rest) as (acc' & E & S' & In'); [intros n Hn; apply Ch in Hn; eauto | assumption |].
        rewrite E. cbn [rbind fst snd].
        assert (Nc : ~ In c (rest ++ dn)) by (cbn in Nd; now apply NoDup_cons_iff in Nd).
        assert (Ndn : NoDup (rest ++ dn)) by (cbn in Nd; now apply NoDup_cons_iff in Nd).
        assert (InS : forall j, In j ((rev (map S (map snd m)) ++ rest) ++ c :: dn) <-> (exists n, j = S n /\ child_of t c n) \/ In j (c :: rest ++ dn)).
        { intros j. rewrite !in_app_iff, <- in_rev, in_map_iff. cbn [In]. rewrite in_app_iff. split.
          - intros [[(n & <- & H) | H] | H]; [left; exists n; split; [reflexivity | now apply Ch] | tauto | tauto].
          - intros [(n & -> & H) | H]; [left; left; exists n; split; [reflexivity | now apply Ch] | tauto]. }
        apply (IH acc' _ (c :: dn)); auto.
        * (* no duplicates *)
          apply NoDup_app_intro.
          -- apply NoDup_app_intro.
             ++ apply NoDup_rev. apply FinFun.Injective_map_NoDup; [intros a b; congruence |].
                pose proof (u_edges _ _ I c m) as Ue. pose proof (u_keys _ _ I _ _ Em) as Uk. clear -Uk Ue Em ltb_irrefl.
                assert (Vinj : forall e1 e2 n, In (e1, n) m -> In (e2, n) m -> e1 = e2).
                { intros e1 e2 n A B. apply (Ue _ _ Em) in A. apply (Ue _ _ Em) in B. rewrite A in B. injection B as B. apply snoc_inj in B. apply B. }
                clear Ue Em. induction m as [| [k v] m IHm]; [constructor |]. cbn in *. inversion Uk as [| ? ? U1 U2]; subst. constructor.
                ** rewrite in_map_iff. intros ([k2 v2] & Ev & Hin). cbn in Ev. subst v2.
                   assert (k2 = k) by (eapply Vinj; [right; exact Hin | left; reflexivity]). subst k2.
                   rewrite Forall_forall in U2. specialize (U2 k (in_map fst _ _ Hin)). rewrite ltb_irrefl in U2. discriminate.
                ** apply IHm; auto. intros e1 e2 n A B. eapply Vinj; right; eauto.
             ++ apply NoDup_app_remove_r in Ndn. assumption.
             ++ intros a b Ha Hr <-. rewrite <- in_rev, in_map_iff in Ha. destruct Ha as (n & <- & Ha). apply Ch in Ha.
                destruct (Pa n) as (j & Hj & Cj); [cbn; right; apply in_or_app; auto |]. assert (j = c) by (eapply Par; eauto). subst j.
                apply Nc. apply in_or_app. auto.
          -- constructor; [intros K; apply Nc; apply in_or_app; auto | apply NoDup_app_remove_l in Ndn; assumption].
          -- intros a b Ha Hd <-. apply in_app_or in Ha. destruct Ha as [Ha | Ha].
             ++ rewrite <- in_rev, in_map_iff in Ha. destruct Ha as (n & <- & Ha). apply Ch in Ha. destruct Hd as [-> | Hd].
                ** destruct (Pa n) as (j & Hj & Cj); [now left |]. assert (j = S n) by (eapply Par; eauto). subst j. apply Nc. apply in_or_app. auto.
                ** destruct (Pa n) as (j & Hj & Cj); [right; apply in_or_app; auto |]. assert (j = c) by (eapply Par; eauto). subst j. apply Nc. apply in_or_app. auto.
             ++ destruct Hd as [<- | Hd]; [apply Nc; apply in_or_app; auto |].
                clear -Ndn Ha Hd. induction rest as [| x rest IHr]; [destruct Ha |]. cbn in Ndn. apply NoDup_cons_iff in Ndn. destruct Ndn as [N1 N2].
                destruct Ha as [-> | Ha]; [apply N1; apply in_or_app; auto | auto].
        * intros j Hj. apply InS in Hj. destruct Hj as [(n & -> & Hn) | Hj]; [rewrite (u_maps _ _ I); apply Lt in Hn; lia | apply Bd; exact Hj].
        * apply InS. right. exact H0.
        * intros j n [<- | Hj] Hn; apply InS; [left; eauto | right; eapply (Cl j n); auto].
        * intros n Hn. apply InS in Hn. destruct Hn as [(k & [= ->] & Hk) | Hn]; [exists c; split; [now left | assumption] |].
          destruct (Pa n Hn) as (j & Hj & Cj). exists j. split; [now right | assumption].
        * intros s. rewrite In', Ac. split.
          -- intros [(j & n & nd & Hj & H) | (n & nd & Hn & H)]; [exists j, n, nd; split; [now right | assumption] |].
             exists c, n, nd. split; [now left |]. split; [now apply Ch | assumption].
          -- intros (j & n & nd & [<- | Hj] & H & H'); [right; exists n, nd; split; [now apply Ch | assumption] | left; eauto 8].
        * cbn. lia.
  Qed.

  Lemma all_sets_ok : forall t W, ubinv t W ->
    exists sets, all_sets ltb eqb t = Ok sets /\ strict (lex_ltb ltb eqb) sets /\ forall s, In s sets <-> stored t s.
  Proof.
    intros t W I. unfold all_sets. rewrite (u_root _ _ I). pose proof (u_maps _ _ I).
    apply (all_loop_ok t W I _ [] [0] []).
    - constructor.
    - repeat constructor. intros [].
    - intros j [<- | []]. lia.
    - now left.
    - intros j n [].
    - intros n [K | []]. discriminate.
    - intros s. split; [intros [] | intros (j & n & nd & [] & _)].
    - cbn. lia.
  Qed.
End UbTree.
