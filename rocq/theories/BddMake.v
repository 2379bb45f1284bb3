(** [make_node]: what it returns and what it leaves unchanged. *)
From Coq Require Import NArith Arith List Bool Lia.
From Verif Require Import Base BddSpec BddModel BddLink BddTable.
Import ListNotations.
Local Open Scope res_scope.

Definition tk (k : kernel) : Prop := tinv (k_nodes k) (k_freepos k) (k_freenum k).

(** [prime_lte] finds a size above the old one (there is a prime between [n] and [2n], and in every range of 50000 numbers of
    the sizes that fit in memory). *)
Definition prime_ok (p : nat -> N -> nat) : Prop :=
  forall i old, 3 <= old -> old < p i (N.min (2 * N.of_nat old) (N.of_nat old + 50000)).

Lemma find_spec : forall ns lvl lo hi fuel L s, chain (nx ns) s L -> (forall x, In x L -> x < length ns) -> length L < fuel ->
  exists o, find_node fuel ns lvl lo hi s = Ok o /\
    match o with
    | Some r => In r L /\ core (nd ns r) = (lvl, Some lo, hi)
    | None => forall x, In x L -> core (nd ns x) <> (lvl, Some lo, hi)
    end.
Proof.
  intros ns lvl lo hi. induction fuel as [ | fuel IH]; intros L s C Lt F; [lia | ]. cbn [find_node].
  destruct L as [ | x L]; cbn [chain] in C.
  - subst s. rewrite Nat.eqb_refl. exists None. split; [auto | ]. intros x [].
  - destruct C as (-> & Hx & C). apply Nat.eqb_neq in Hx. rewrite Hx.
    rewrite (getn_ok _ ns x dead) by (apply Lt; left; auto). cbn [rbind]. fold (nd ns x).
    destruct ((n_level (nd ns x) =? lvl) && optnat_eqb (n_low (nd ns x)) lo && (n_high (nd ns x) =? hi)) eqn:E.
    + exists (Some x). split; [auto | ]. split; [left; auto | ]. apply andb_true_iff in E. destruct E as (E & E3).
      apply andb_true_iff in E. destruct E as (E1 & E2). apply Nat.eqb_eq in E1. apply Nat.eqb_eq in E3.
      unfold core. rewrite E1, E3. unfold optnat_eqb in E2. destruct (n_low (nd ns x)) as [y | ]; [ | discriminate].
      apply Nat.eqb_eq in E2. subst. auto.
    + destruct (IH L (n_next (nd ns x))) as (o & Eo & Ho); auto.
      * intros y Hy. apply Lt. right. auto.
      * cbn [length] in F. lia.
      * exists o. split; [auto | ]. destruct o as [r | ].
        -- destruct Ho. split; auto. right. auto.
        -- intros y [<- | Hy]; [ | auto]. intro G. unfold core in G. injection G as G1 G2 G3.
           rewrite G1, G2, G3, !Nat.eqb_refl in E. cbn [optnat_eqb] in E. rewrite Nat.eqb_refl in E. discriminate.
Qed.

Lemma nodup_range : forall (L : list nat) n, NoDup L -> (forall x, In x L -> x < n) -> length L <= n.
Proof.
  intros L n ND H. rewrite <- (seq_length n 0). apply NoDup_incl_length; auto. intros x Hx. apply in_seq. specialize (H x Hx). lia.
Qed.

Lemma find_table : forall ns fp fn lvl lo hi, tinv ns fp fn ->
  exists o, find_node (S (length ns)) ns lvl lo hi (hs ns (nodehash (length ns) lvl lo hi)) = Ok o /\
    match o with
    | Some r => live ns r /\ core (nd ns r) = (lvl, Some lo, hi)
    | None => forall x, live ns x -> core (nd ns x) <> (lvl, Some lo, hi)
    end.
Proof.
  intros ns fp fn lvl lo hi [T1 T2 [T3 _] T4 T5 T6 T7].
  destruct (T3 (nodehash (length ns) lvl lo hi)) as (L & C1 & C2 & C3); [apply nodehash_lt; lia | ].
  destruct (find_spec ns lvl lo hi (S (length ns)) L _ C1) as (o & E & H).
  - intros x Hx. apply C3 in Hx. lia.
  - assert (G : length L <= length ns) by (apply nodup_range; auto; intros x Hx; apply C3 in Hx; lia). lia.
  - exists o. split; [auto | ]. destruct o as [r | ].
    + destruct H as (H1 & H2). split; auto. apply C3 in H1. destruct H1 as (A1 & A2 & _). apply liveb_true in A2. split; auto. lia.
    + intros x Lx Ec. apply (H x); auto. apply C3. pose proof (live_lt _ _ Lx). destruct Lx as (A1 & A2).
      split; [lia | ]. split; [apply liveb_true; auto | ]. unfold hof. unfold core in Ec. injection Ec as -> -> ->. auto.
Qed.

Lemma alloc_spec : forall k lvl lo hi, tk k -> k_freepos k <> 0 -> valid (k_nodes k) lo -> valid (k_nodes k) hi ->
  (forall x, live (k_nodes k) x -> core (nd (k_nodes k) x) <> (lvl, Some lo, hi)) ->
  exists ns fp fn, alloc k (nodehash (length (k_nodes k)) lvl lo hi) lvl lo hi =
      Ok (s_counts (S (k_produced k)) (k_gbcnum k) (s_table ns fp fn k), k_freepos k) /\
    tinv ns fp fn /\ length ns = length (k_nodes k) /\ ~ live (k_nodes k) (k_freepos k) /\
    2 <= k_freepos k /\
    core (nd ns (k_freepos k)) = (lvl, Some lo, hi) /\
    (forall n, n <> k_freepos k -> body (nd ns n) = body (nd (k_nodes k) n)) /\
    (forall n, n_ref (nd ns n) = n_ref (nd (k_nodes k) n)).
Proof.
  intros k lvl lo hi T F0 Vl Vh Nl. unfold tk in T. unfold alloc.
  set (ns := k_nodes k) in *. set (r := k_freepos k) in *. set (h := nodehash (length ns) lvl lo hi).
  destruct T as [T1 T2 T3 T4 T5 T6 T7].
  assert (Hh : h < length ns) by (apply nodehash_lt; lia).
  destruct (lk_alloc _ _ _ _ _ _ _ _ h T3 F0 Hh) as (Dr & Kr & fn' & Efn & L3).
  fold r in Dr, Kr, L3.
  rewrite (getn_ok _ ns r dead) by lia. cbn [rbind]. fold (nd ns r). rewrite Efn.
  rewrite (getn_ok _ ns h dead) by lia. cbn [rbind]. fold (nd ns h).
  rewrite putn_ok by lia. cbn [rbind]. rewrite putn_ok by (rewrite updn_length; lia). cbn [rbind].
  set (f := fun x => w_next (n_hash (nd ns h)) (w_high hi (w_low (Some lo) (w_level lvl x)))).
  set (ns2 := updn h (w_hash r) (updn r f ns)).
  exists ns2, (n_next (nd ns r)), fn'. split; [reflexivity | ].
  assert (L2 : length ns2 = length ns) by (unfold ns2; rewrite !updn_length; auto).
  assert (E : forall m, nd ns2 m = (if m =? h then w_hash r else fun x => x) ((if m =? r then f else fun x => x) (nd ns m))).
  { intros m. unfold ns2. rewrite !nd_upd, updn_length.
    assert (G1 : r <? length ns = true) by (apply Nat.ltb_lt; lia). assert (G2 : h <? length ns = true) by (apply Nat.ltb_lt; lia).
    rewrite G1, G2, !andb_true_r. destruct (m =? h), (m =? r); reflexivity. }
  assert (Bn : forall n, n <> r -> body (nd ns2 n) = body (nd ns n)).
  { intros n Hn. rewrite E. apply Nat.eqb_neq in Hn. rewrite Hn. destruct (n =? h); reflexivity. }
  assert (Cr : core (nd ns2 r) = (lvl, Some lo, hi)).
  { rewrite E, Nat.eqb_refl. unfold f. destruct (r =? h); reflexivity. }
  assert (Rf : forall n, n_ref (nd ns2 n) = n_ref (nd ns n)).
  { intros n. rewrite E. unfold f. destruct (n =? h), (n =? r); reflexivity. }
  assert (Nr : ~ live ns r).
  { intros (A1 & A2). apply liveb_true in A2. congruence. }
  assert (Lv : forall n, live ns2 n <-> live ns n \/ n = r).
  { intros n. destruct (Nat.eq_dec n r) as [-> | Hne].
    - split; auto. intros _. unfold core in Cr. injection Cr as _ Cl _. split; [lia | congruence].
    - unfold live. pose proof (body_fields _ _ (Bn n Hne)) as (_ & _ & -> & _). split; [auto | intros [G | G]; [auto | congruence]]. }
  assert (Vd : forall n, valid ns n -> valid ns2 n) by (intros n [G | G]; [left; auto | right; apply Lv; auto]).
  assert (Tinv : tinv ns2 (n_next (nd ns r)) fn').
  { constructor.
    - lia.
    - intros n lo' Hn El. destruct (Nat.eq_dec n r) as [-> | Hne].
      + unfold core in Cr. injection Cr as _ Cl Ch. rewrite Ch. rewrite Cl in El. injection El as <-. auto.
      + pose proof (body_fields _ _ (Bn n Hne)) as (_ & _ & F3 & F4). rewrite F3 in El. rewrite F4. destruct (T2 n lo' Hn El). auto.
    - rewrite L2. eapply lk_ext; [exact L3 | | | | | ].
      + intros m Hm. unfold hs, setf. rewrite E. unfold f. destruct (m =? h), (m =? r); reflexivity.
      + intros m Hm. unfold nx, setf, hs. rewrite E. unfold f. destruct (m =? h), (m =? r); reflexivity.
      + intros m. tauto.
      + intros m Hm. unfold liveb. destruct (Nat.eqb_spec m r) as [-> | Hne].
        * unfold core in Cr. injection Cr as _ -> _. auto.
        * pose proof (body_fields _ _ (Bn m Hne)) as (_ & _ & -> & _). auto.
      + intros m Hm _. unfold hof. destruct (Nat.eq_dec m r) as [-> | Hne].
        * rewrite setf_eq. unfold core in Cr. injection Cr as -> -> ->. rewrite L2. auto.
        * rewrite setf_ne by auto. pose proof (body_fields _ _ (Bn m Hne)) as (_ & -> & -> & ->). rewrite L2. auto.
    - assert (G : forall n, live ns n -> core (nd ns2 n) = core (nd ns n)).
      { intros n Hn. apply body_core, Bn. intros ->. auto. }
      intros n m A1 A2 Ec. apply Lv in A1. apply Lv in A2.
      destruct A1 as [A1 | ->], A2 as [A2 | ->]; auto.
      + apply T4; auto. rewrite <- (G n A1), <- (G m A2). auto.
      + exfalso. apply (Nl n A1). rewrite <- (G n A1), Ec. auto.
      + exfalso. apply (Nl m A2). rewrite <- (G m A2), <- Ec. auto.
    - intros n. rewrite E. unfold f. destruct (n =? h), (n =? r); apply T5.
    - intros n Hn El. rewrite Rf. destruct (Nat.eq_dec n r) as [-> | Hne].
      + unfold core in Cr. injection Cr as _ Cl _. congruence.
      + pose proof (body_fields _ _ (Bn n Hne)) as (_ & _ & F3 & _). rewrite F3 in El. auto.
    - intros n Hn. assert (Hne : n <> r) by lia. pose proof (body_fields _ _ (Bn n Hne)) as (-> & _ & -> & ->). auto. }
  split; [auto | ]. split; [auto | ]. split; [auto | ]. split; [lia | ]. auto.
Qed.

(* ------------------------------------------------------------------------------------------------------------------ *)

(** What [make_node] and the operations built from it leave unchanged. *)
Record frame (k k' : kernel) : Prop := mkFrame {
  f_names : k_names k' = k_names k; f_vars : k_vars k' = k_vars k; f_varnum : k_varnum k' = k_varnum k;
  f_stack : k_stack k' = k_stack k; f_cap : k_cap k' = k_cap k; f_qset : k_qset k' = k_qset k; f_qid : k_qid k' = k_qid k;
  f_qlast : k_qlast k' = k_qlast k; f_prime : k_prime k' = k_prime k;
  f_len : length (k_nodes k) <= length (k_nodes k');
  f_ref : forall n, n_ref (nd (k_nodes k') n) = n_ref (nd (k_nodes k) n);
  f_const : forall n, n < 2 -> body (nd (k_nodes k') n) = body (nd (k_nodes k) n);
  f_prot : forall n, live (k_nodes k) n -> prot (k_nodes k) (k_stack k) n -> core (nd (k_nodes k') n) = core (nd (k_nodes k) n) }.

(** Either no node was freed and the caches are the old ones, or the caches were cleared. *)
Definition caching (k k' : kernel) : Prop :=
  (k_apply k' = k_apply k /\ k_quant k' = k_quant k /\ k_misc k' = k_misc k /\
   forall n, live (k_nodes k) n -> core (nd (k_nodes k') n) = core (nd (k_nodes k) n)) \/
  (k_apply k' = creset (k_apply k) /\ k_quant k' = creset (k_quant k) /\ k_misc k' = creset (k_misc k)).

Lemma freepos_pos : forall ns fp fn, tinv ns fp fn -> 0 < fn -> fp <> 0.
Proof.
  intros ns fp fn T H. destruct (t_lk _ _ _ T) as [_ (F & C1 & _ & C3 & _)]. destruct F as [ | x F]; cbn [length] in C3; [lia | ].
  cbn [chain] in C1. destruct C1 as (-> & G & _). auto.
Qed.

Lemma frame_alloc : forall k ns fp fn,
  length ns = length (k_nodes k) -> ~ live (k_nodes k) (k_freepos k) -> 2 <= k_freepos k ->
  (forall n, n <> k_freepos k -> body (nd ns n) = body (nd (k_nodes k) n)) ->
  (forall n, n_ref (nd ns n) = n_ref (nd (k_nodes k) n)) ->
  frame k (s_counts (S (k_produced k)) (k_gbcnum k) (s_table ns fp fn k)).
Proof.
  intros k ns fp fn L Nl H2 B R. constructor; cbn [s_counts s_table k_names k_vars k_varnum k_stack k_cap k_qset k_qid k_qlast k_prime k_nodes]; auto.
  - lia.
  - intros n Hn. apply B. lia.
  - intros n Hn _. apply body_core, B. intros ->. auto.
Qed.

Theorem make_node_spec : forall k lvl lo hi, tk k -> prime_ok (k_prime k) ->
  (forall x, In x (k_stack k) -> valid (k_nodes k) x) ->
  valid (k_nodes k) lo -> valid (k_nodes k) hi -> prot (k_nodes k) (k_stack k) lo -> prot (k_nodes k) (k_stack k) hi ->
  exists k' r, make_node k lvl lo hi = Ok (k', r) /\ tk k' /\ frame k k' /\ caching k k' /\ k_gbcnum k <= k_gbcnum k' /\
    (forall n, live (k_nodes k') n -> live (k_nodes k) n \/ core (nd (k_nodes k') n) = (lvl, Some lo, hi)) /\
    (lo = hi -> r = lo) /\
    (lo <> hi -> live (k_nodes k') r /\ core (nd (k_nodes k') r) = (lvl, Some lo, hi)).
Proof.
  intros k lvl lo hi T P V Vl Vh Pl Ph. unfold make_node.
  assert (Fr0 : frame k k) by (constructor; auto).
  assert (Ca0 : caching k k) by (left; auto).
  destruct (Nat.eqb_spec lo hi) as [E | Hne].
  { exists k, lo. do 5 (split; [auto | ]). split; [auto | ]. split; [auto | congruence]. }
  pose proof (t_len _ _ _ T) as L3.
  rewrite (getn_ok _ (k_nodes k) _ dead) by (apply nodehash_lt; lia). cbn [rbind].
  fold (nd (k_nodes k) (nodehash (length (k_nodes k)) lvl lo hi)).
  fold (hs (k_nodes k) (nodehash (length (k_nodes k)) lvl lo hi)).
  destruct (find_table _ _ _ lvl lo hi T) as (o & Eo & Ho). rewrite Eo. cbn [rbind].
  destruct o as [r | ].
  { exists k, r. do 5 (split; [auto | ]). split; [auto | ]. split; [congruence | auto]. }
  destruct (Nat.eqb_spec (k_freepos k) 0) as [Ef | Ef].
  2:{ (* a free node is available *)
      destruct (alloc_spec k lvl lo hi T Ef Vl Vh Ho) as (ns & fp & fn & E & A1 & A2 & A3 & A4 & A5 & A6 & A7).
      rewrite E. eexists _, _. split; [reflexivity | ]. split; [exact A1 | ].
      split; [apply frame_alloc; auto | ].
      cbn [s_counts s_table k_gbcnum k_nodes k_apply k_quant k_misc].
      split.
      { left. cbn [s_counts s_table k_gbcnum k_nodes k_apply k_quant k_misc]. do 3 (split; [auto | ]). intros n Hn. apply body_core, A6. intros ->. auto. }
      split; [auto | ]. split.
      { intros n (H1 & H2). destruct (Nat.eq_dec n (k_freepos k)) as [-> | Hn]; [right; auto | left]. split; auto.
        pose proof (body_fields _ _ (A6 n Hn)) as (_ & _ & <- & _). auto. }
      split; [congruence | ]. intros _. split; [ | auto]. split; [auto | ]. unfold core in A5. injection A5 as _ -> _. congruence. }
  (* collection *)
  unfold gbc.
  destruct (gbc_table _ _ _ (k_stack k) T V) as (ns1 & ns2 & ns3 & fp & fn & E1 & E2 & E3 & T3 & [C1 C2 C3 C4 C5]).
  rewrite E1. cbn [rbind]. rewrite E2. cbn [rbind]. rewrite E3. cbn [rbind].
  set (k1 := s_counts _ _ _).
  assert (N1 : k_nodes k1 = ns3) by reflexivity. assert (F1 : k_freepos k1 = fp) by reflexivity. assert (G1 : k_freenum k1 = fn) by reflexivity.
  assert (V1 : forall n, valid (k_nodes k) n -> prot (k_nodes k) (k_stack k) n -> valid ns3 n).
  { intros n [Hn | Hn] Hp; [left; auto | right]. split; [apply Hn | ]. pose proof (body_fields _ _ (C4 n Hn Hp)) as (_ & _ & -> & _). apply Hn. }
  assert (Nl1 : forall x, live ns3 x -> core (nd ns3 x) <> (lvl, Some lo, hi)).
  { intros x Hx. destruct (C5 x Hx) as (A1 & A2). rewrite (body_core _ _ (C4 x A1 A2)). auto. }
  assert (Gen : forall k2 ns0, k_nodes k2 = ns0 -> tk k2 -> k_freepos k2 <> 0 ->
     k_names k2 = k_names k -> k_vars k2 = k_vars k -> k_varnum k2 = k_varnum k -> k_stack k2 = k_stack k -> k_cap k2 = k_cap k ->
     k_qset k2 = k_qset k -> k_qid k2 = k_qid k -> k_qlast k2 = k_qlast k -> k_prime k2 = k_prime k ->
     k_apply k2 = creset (k_apply k) -> k_quant k2 = creset (k_quant k) -> k_misc k2 = creset (k_misc k) -> k_gbcnum k <= k_gbcnum k2 ->
     length ns3 <= length ns0 -> (forall n, body (nd ns0 n) = body (nd ns3 n)) ->
     exists k' r, (if k_freepos k2 =? 0 then Panic else alloc k2 (nodehash (length (k_nodes k2)) lvl lo hi) lvl lo hi) = Ok (k', r) /\
       tk k' /\ frame k k' /\ caching k k' /\ k_gbcnum k <= k_gbcnum k' /\
       (forall n, live (k_nodes k') n -> live (k_nodes k) n \/ core (nd (k_nodes k') n) = (lvl, Some lo, hi)) /\
       (lo = hi -> r = lo) /\ (lo <> hi -> live (k_nodes k') r /\ core (nd (k_nodes k') r) = (lvl, Some lo, hi))).
  { intros k2 ns0 N2 Tk2 Fp2 X1 X2 X3 X4 X5 X6 X7 X8 X9 Y1 Y2 Y3 Yg Ln Bd.
    assert (Lv : forall n, live ns0 n <-> live ns3 n).
    { intros n. unfold live. pose proof (body_fields _ _ (Bd n)) as (_ & _ & -> & _). tauto. }
    assert (Vv : forall n, valid ns3 n -> valid ns0 n) by (intros n [G | G]; [left; auto | right; apply Lv; auto]).
    destruct (alloc_spec k2 lvl lo hi Tk2 Fp2) as (ns & fp2 & fn2 & E & A1 & A2 & A3 & A4 & A5 & A6 & A7).
    - rewrite N2. auto.
    - rewrite N2. auto.
    - rewrite N2. intros x Hx. rewrite (body_core _ _ (Bd x)). apply Nl1. apply Lv. auto.
    - apply Nat.eqb_neq in Fp2. rewrite Fp2, E. rewrite N2 in *.
      assert (Old : forall n, live ns3 n -> core (nd ns n) = core (nd ns3 n)).
      { intros n Hn. rewrite <- (body_core _ _ (Bd n)). apply body_core, A6. intros ->. apply A3. apply Lv. auto. }
      eexists _, _. split; [reflexivity | ]. split; [exact A1 | ].
      split.
      { constructor; cbn [s_counts s_table k_names k_vars k_varnum k_stack k_cap k_qset k_qid k_qlast k_prime k_nodes]; auto.
        - lia.
        - intros n. rewrite A7. pose proof (body_fields _ _ (Bd n)) as (-> & _). auto.
        - intros n Hn. rewrite A6 by lia. rewrite Bd. auto.
        - intros n Hn Hp. rewrite <- (body_core _ _ (C4 n Hn Hp)). apply Old.
          destruct (V1 n (or_intror Hn) Hp) as [G | G]; auto. destruct Hn. lia. }
      cbn [s_counts s_table k_gbcnum k_nodes k_apply k_quant k_misc].
      split; [right; auto | ]. split; [auto | ]. split.
      { intros n (H1 & H2). destruct (Nat.eq_dec n (k_freepos k2)) as [-> | Hn]; [right; auto | left].
        assert (G : live ns3 n). { apply Lv. split; auto. pose proof (body_fields _ _ (A6 n Hn)) as (_ & _ & <- & _). auto. }
        apply C5. auto. }
      split; [congruence | ]. intros _. split; [ | auto]. split; [auto | ].
      unfold core in A5. injection A5 as _ -> _. congruence. }
  rewrite G1, N1. destruct (Nat.leb_spec (fn * 100 / length ns3) 20) as [Hr | Hr].
  - (* with resizing *)
    unfold node_resize. rewrite N1, F1.
    set (new := k_prime k1 (k_gbcnum k1) (N.min (2 * N.of_nat (length ns3)) (N.of_nat (length ns3) + 50000))).
    assert (Hnew : length ns3 < new) by (apply P; lia).
    apply Nat.leb_gt in Hnew. rewrite Hnew. apply Nat.leb_gt in Hnew.
    destruct (resize_table ns3 fp fn new T3 Hnew) as (ns4 & ns5 & fp5 & fn5 & E4 & E5 & T5 & L5 & B5 & F5).
    rewrite E4. cbn [rbind]. rewrite E5. cbn [rbind].
    apply (Gen (s_table ns5 fp5 fn5 k1) ns5); auto; cbn; auto. lia.
  - cbn [rbind].
    assert (Fn : 0 < fn). { destruct fn; [ | lia]. cbn [Nat.mul] in Hr. rewrite Nat.div_0_l in Hr by lia. lia. }
    rewrite <- C1. rewrite <- N1. apply (Gen k1 ns3); auto; try (rewrite F1; eapply freepos_pos; eauto); try (cbn; auto; lia).
Qed.
