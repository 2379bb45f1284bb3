(** Invariants of the concurrent append-only vector and caches. *)
From Coq Require Import List Arith Bool Lia.
From Verif Require Import ConcModel.
Import ListNotations.
Local Open Scope nat_scope.

(** * Index arithmetic *)
Definition bin (i : nat) : nat := fst (indices i).
Definition off (i : nat) : nat := snd (indices i).
Definition first (b : nat) : nat := bin_size b - 8.
Lemma pow_pos : forall b, 0 < 2 ^ b.
Proof. intros b. apply Nat.neq_0_lt_0, Nat.pow_nonzero. discriminate. Qed.
Lemma log_ge : forall i, 3 <= Nat.log2 (i + 8).
Proof. intros i. apply (Nat.log2_le_mono 8 (i + 8)). lia. Qed.
Lemma indices_eq : forall i, indices i = (bin i, off i).
Proof. intros i. unfold bin, off. now destruct (indices i). Qed.
Lemma bin_spec : forall i, i + 8 = bin_size (bin i) + off i /\ off i < bin_size (bin i).
Proof.
  intros i. unfold bin, off, indices. cbn [fst snd]. unfold bin_size. pose proof (log_ge i) as L. pose proof (Nat.log2_spec (i + 8)) as S. destruct S as [S1 S2]; [lia |].
  assert (E : 8 * 2 ^ (Nat.log2 (i + 8) - 3) = 2 ^ Nat.log2 (i + 8)). { change 8 with (2 ^ 3) at 1. rewrite <- Nat.pow_add_r. f_equal. lia. }
  rewrite E. cbn [Nat.pow] in S2. lia.
Qed.
Lemma bin_unique : forall i b o, i + 8 = bin_size b + o -> o < bin_size b -> bin i = b /\ off i = o.
Proof.
  intros i b o E H. unfold bin, off, indices. cbn [fst snd].
  assert (L : Nat.log2 (i + 8) = b + 3).
  { apply Nat.log2_unique; [lia |]. unfold bin_size in *. replace (2 ^ (b + 3)) with (8 * 2 ^ b) by (rewrite Nat.pow_add_r; cbn; lia). cbn [Nat.pow]. replace (2 ^ (b + 3)) with (8 * 2 ^ b) by (rewrite Nat.pow_add_r; cbn; lia). lia. }
  rewrite L. replace (b + 3 - 3) with b by lia. split; auto. lia.
Qed.
Lemma bin_off_inj : forall i j, bin i = bin j -> off i = off j -> i = j.
Proof. intros i j H1 H2. destruct (bin_spec i) as [A _]. destruct (bin_spec j) as [B _]. rewrite H1, H2 in A. lia. Qed.
Lemma bin_size_ge : forall b, 8 <= bin_size b.
Proof. intros b. unfold bin_size. pose proof (pow_pos b). lia. Qed.
Lemma first_spec : forall b, bin (first b) = b /\ off (first b) = 0.
Proof. intros b. pose proof (bin_size_ge b). apply bin_unique; unfold first; lia. Qed.
Lemma sub_off : forall i, i - off i = first (bin i) /\ off i <= i.
Proof. intros i. destruct (bin_spec i). pose proof (bin_size_ge (bin i)). unfold first. lia. Qed.

Lemma upd_same : forall A (f : nat -> A) x a, upd f x a x = a.
Proof. intros. unfold upd. now rewrite Nat.eqb_refl. Qed.
Lemma upd_other : forall A (f : nat -> A) x a y, y <> x -> upd f x a y = f y.
Proof. intros. unfold upd. destruct (Nat.eqb_spec y x); congruence. Qed.
Lemma upd_cases : forall A (f : nat -> A) x a y, (y = x /\ upd f x a y = a) \/ (y <> x /\ upd f x a y = f y).
Proof. intros. unfold upd. destruct (Nat.eqb_spec y x); auto. Qed.

Definition vle (a b : view) : Prop := vcount a <= vcount b /\ (forall x, vdata a x = true -> vdata b x = true) /\ (forall x y, vcell a x y = true -> vcell b x y = true).
Lemma vle_refl : forall a, vle a a.
Proof. intros a. repeat split; auto. Qed.
Lemma vle_trans : forall a b c, vle a b -> vle b c -> vle a c.
Proof. intros a b c (A1 & A2 & A3) (B1 & B2 & B3). split; [lia | split; auto]. Qed.
Lemma vle_join1 : forall a b, vle a (vjoin a b).
Proof. intros a b. split; [cbn; lia |]. split; cbn; intros; apply orb_true_iff; auto. Qed.
Lemma vle_join2 : forall a b, vle b (vjoin a b).
Proof. intros a b. split; [cbn; lia |]. split; cbn; intros; apply orb_true_iff; auto. Qed.
Lemma vle_count : forall n a, vle a (know_count n a).
Proof. intros n a. split; [cbn; lia | split; auto]. Qed.
Lemma vle_data : forall n a, vle a (know_data n a).
Proof. intros n a. split; [cbn; lia |]. split; auto. cbn. intros. apply orb_true_iff; auto. Qed.
Lemma vle_cell : forall n o a, vle a (know_cell n o a).
Proof. intros n o a. split; [cbn; lia |]. split; auto. cbn. intros. apply orb_true_iff; auto. Qed.

Section Proofs.
  Variables (T K : Type) (key : T -> K) (keyb : K -> K -> bool) (shard : K -> nat).
  Hypothesis keyb_ok : forall a b, keyb a b = true <-> a = b.
  Notation state := (state T K).
  Notation pc := (pc T).
  Notation event := (event T).

  Definition val_at (s : state) (i : nat) (v : T) : Prop := bin i < BINS /\ exists blk, data s (bin i) = Some blk /\ off i < sizes s blk /\ heap s blk (off i) = Some v.
  Definition knows (s : state) (w : view) (i : nat) : Prop := exists blk, data s (bin i) = Some blk /\ vdata w (bin i) = true /\ vcell w blk (off i) = true.
  Definition pidx (p : pc) : option nat :=
    match p with
    | Push _ _ (Loading i) | Push _ _ (Allocating i) | Push _ _ (Reading i) | Push _ _ (Writing i _) | Push _ _ (Publishing i) => Some i
    | Dead i => Some i
    | _ => None
    end.
  Definition alloced (p : pc) (b : nat) : Prop := match p with Push _ _ (Writing i _) | Push _ _ (Publishing i) => i = first b | _ => False end.
  Definition wrote (p : pc) (i : nat) : Prop := match p with Push _ _ (Publishing j) => j = i | _ => False end.
  Definition local (s : state) (p : pc) (w : view) : Prop :=
    match p with
    | Push _ _ (Allocating i) => off i = 0
    | Push _ _ (Reading i) => (exists blk, data s (bin i) = Some blk) /\ vdata w (bin i) = true
    | Push _ _ (Writing i blk) => bin i < BINS /\ data s (bin i) = Some blk /\ vdata w (bin i) = true
    | Push _ v (Publishing i) => val_at s i v /\ knows s w i
    | Idx2 i => i < latest s /\ knows s w i
    | Idx3 i blk => i < latest s /\ knows s w i /\ data s (bin i) = Some blk
    | Insert e i => i < latest s /\ val_at s i e /\ i < vcount w
    | _ => True
    end.
  Fixpoint pushed (tr : list event) : list nat := match tr with [] => [] | EPush _ _ i :: r => i :: pushed r | _ :: r => pushed r end.

  Record ginv (s : state) (tr : list event) : Prop := mkG {
    g_msgs : msgs s <> [];
    g_res : latest s <= reserved s;
    g_idx : forall t i, pidx (pcs s t) = Some i -> latest s <= i < reserved s;
    g_uniq : forall t t' i, pidx (pcs s t) = Some i -> pidx (pcs s t') = Some i -> t = t';
    g_own : forall i, latest s <= i < reserved s -> exists t, pidx (pcs s t) = Some i;
    g_data : forall b blk, data s b = Some blk -> blk < next s /\ sizes s blk = bin_size b /\ (first b < latest s \/ exists t, alloced (pcs s t) b);
    g_inj : forall b b' blk, data s b = Some blk -> data s b' = Some blk -> b = b';
    g_heap : forall blk o v, heap s blk o = Some v -> exists i, off i = o /\ data s (bin i) = Some blk /\ (i < latest s \/ exists t, wrote (pcs s t) i);
    g_val : forall i, i < latest s -> exists v t, val_at s i v /\ In (EPush t v i) tr;
    g_push : forall t v i, In (EPush t v i) tr -> i < latest s /\ val_at s i v;
    g_nodup : NoDup (pushed tr);
    g_msg : forall k, k <= latest s -> vcount (nth k (msgs s) vempty) = k /\ forall i, i < k -> knows s (nth k (msgs s) vempty) i;
    g_vc : forall t, vcount (views s t) <= latest s;
    g_box : forall m, vcount (boxes s m) <= latest s;
    g_lv : forall h, vcount (lviews s h) <= latest s;
    g_local : forall t, local s (pcs s t) (views s t) }.

  Definition ext (s s' : state) : Prop :=
    (forall b blk, data s b = Some blk -> data s' b = Some blk /\ sizes s' blk = sizes s blk) /\ (forall blk o v, heap s blk o = Some v -> heap s' blk o = Some v) /\ latest s <= latest s'.
  Lemma ext_refl : forall s, ext s s.
  Proof. intros s. repeat split; auto. Qed.
  Lemma val_at_ext : forall s s' i v, ext s s' -> val_at s i v -> val_at s' i v.
  Proof. intros s s' i v (E1 & E2 & E3) (B & blk & H1 & H2 & H3). split; auto. exists blk. destruct (E1 _ _ H1) as [A1 A2]. rewrite A2. auto. Qed.
  Lemma knows_ext : forall s s' w w' i, ext s s' -> vle w w' -> knows s w i -> knows s' w' i.
  Proof. intros s s' w w' i (E1 & E2 & E3) (V1 & V2 & V3) (blk & H1 & H2 & H3). exists blk. destruct (E1 _ _ H1). auto. Qed.
  Lemma local_ext : forall s s' p w w', ext s s' -> vle w w' -> local s p w -> local s' p w'.
  Proof.
    intros s s' p w w' E V H. pose proof E as (E1 & E2 & E3). pose proof V as (V1 & V2 & V3). destruct p as [| | c v [| | | i | i blk | i] | | i | i blk | | | | e i]; cbn [local] in *; auto.
    - destruct H as [[blk A] B]. split; auto. exists blk. now destruct (E1 _ _ A).
    - destruct H as (A & B & C). split; auto. split; auto. now destruct (E1 _ _ B).
    - destruct H. split; [eapply val_at_ext | eapply knows_ext]; eauto.
    - destruct H. split; [lia | eapply knows_ext; eauto].
    - destruct H as (A & B & C). split; [lia |]. split; [eapply knows_ext; eauto |]. now destruct (E1 _ _ C).
    - destruct H as (A & B & C). split; [lia |]. split; [eapply val_at_ext; eauto |]. lia.
  Qed.

  Definition same_mem (s s' : state) : Prop := reserved s' = reserved s /\ msgs s' = msgs s /\ data s' = data s /\ sizes s' = sizes s /\ heap s' = heap s /\ next s' = next s.
  Lemma same_ext : forall s s', same_mem s s' -> ext s s'.
  Proof. intros s s' (A & B & C & D & E & F). unfold ext, latest. rewrite C, D, E, B. auto. Qed.
  (** Steps which change neither the memory nor the ownership of an index. *)
  Lemma quiet : forall s s' tr ev t p w, ginv s tr -> same_mem s s' -> (forall u, u <> t -> pcs s' u = pcs s u /\ views s' u = views s u) ->
    pcs s' t = p -> views s' t = w -> pidx p = pidx (pcs s t) -> (forall b, alloced (pcs s t) b -> alloced p b) -> (forall i, wrote (pcs s t) i -> wrote p i) ->
    local s p w -> vcount w <= latest s -> (forall m, vcount (boxes s' m) <= latest s) -> (forall h, vcount (lviews s' h) <= latest s) ->
    (forall u v i, ~ In (EPush u v i) ev) -> pushed (ev ++ tr) = pushed tr -> ginv s' (ev ++ tr).
  Proof.
    intros s s' tr ev t p w G M O Ep Ew Pi Al Wr Lo Vc Bx Lv Ne Np. pose proof (same_ext _ _ M) as X. destruct M as (A & B & C & D & E & F). destruct G.
    assert (PI : forall u, pidx (pcs s' u) = pidx (pcs s u)). { intros u. destruct (Nat.eq_dec u t) as [-> | N]; [now rewrite Ep | now destruct (O u N) as [-> _]]. }
    assert (LT : latest s' = latest s) by (unfold latest; now rewrite B).
    constructor; rewrite ?LT, ?A, ?B, ?C, ?D, ?E, ?F; auto.
    - intros u i. rewrite PI. apply g_idx0.
    - intros u u' i. rewrite !PI. eauto.
    - intros i Hi. destruct (g_own0 i Hi) as [u Hu]. exists u. now rewrite PI.
    - intros b blk Hb. destruct (g_data0 b blk Hb) as (P1 & P2 & P3). split; auto. split; auto. destruct P3 as [P3 | [u P3]]; auto. right. exists u. destruct (Nat.eq_dec u t) as [-> | N]; [rewrite Ep; auto | destruct (O u N) as [-> _]; auto].
    - intros blk o v Hb. destruct (g_heap0 blk o v Hb) as (i & P1 & P2 & P3). exists i. split; auto. split; auto. destruct P3 as [P3 | [u P3]]; auto. right. exists u. destruct (Nat.eq_dec u t) as [-> | N]; [rewrite Ep; auto | destruct (O u N) as [-> _]; auto].
    - intros i Hi. destruct (g_val0 i Hi) as (v & u & P1 & P2). exists v, u. split; [eapply val_at_ext; eauto |]. apply in_or_app. auto.
    - intros u v i Hi. apply in_app_or in Hi. destruct Hi as [Hi | Hi]; [exfalso; eapply Ne; eauto |]. destruct (g_push0 u v i Hi) as [P1 P2]. split; auto. eapply val_at_ext; eauto.
    - now rewrite Np.
    - intros k Hk. destruct (g_msg0 k Hk) as [P1 P2]. split; auto. intros i Hi. eapply knows_ext; eauto using vle_refl.
    - intros u. destruct (Nat.eq_dec u t) as [-> | N]; [now rewrite Ew | destruct (O u N) as [_ ->]; auto].
    - intros u. destruct (Nat.eq_dec u t) as [-> | N]; [rewrite Ep, Ew; eapply local_ext; eauto using vle_refl | destruct (O u N) as [-> ->]; eapply local_ext; eauto using vle_refl].
  Qed.
  Lemma acquired_count : forall s tr t n, ginv s tr -> may_read s t n = true -> vcount (acquired s t n) <= latest s /\ n <= vcount (acquired s t n) /\ vcount (views s t) <= n <= latest s.
  Proof.
    intros s tr t n G H. unfold may_read in H. apply andb_true_iff in H. destruct H as [H1 H2]. apply Nat.leb_le in H1, H2. destruct (g_msg s tr G n H2) as [E _]. unfold acquired. cbn [vjoin vcount]. rewrite E. lia.
  Qed.
  Lemma acquired_knows : forall s tr t n i, ginv s tr -> may_read s t n = true -> i < n -> knows s (acquired s t n) i.
  Proof.
    intros s tr t n i G H Hi. unfold may_read in H. apply andb_true_iff in H. destruct H as [H1 H2]. apply Nat.leb_le in H1, H2. destruct (g_msg s tr G n H2) as [_ E].
    eapply knows_ext; [apply ext_refl | apply vle_join2 | exact (E i Hi)].
  Qed.
  Lemma goto_same : forall s t p w, same_mem s (goto s t p w).
  Proof. intros. repeat split. Qed.
  Lemma goto_other : forall (s : state) t p w u, u <> t -> pcs (goto s t p w) u = pcs s u /\ views (goto s t p w) u = views s u.
  Proof. intros. cbn [goto pcs views]. now rewrite !upd_other. Qed.
  Lemma quiet_goto : forall s tr ev t p w, ginv s tr -> pidx p = pidx (pcs s t) -> (forall b, alloced (pcs s t) b -> alloced p b) -> (forall i, wrote (pcs s t) i -> wrote p i) ->
    local s p w -> vcount w <= latest s -> (forall u v i, ~ In (EPush u v i) ev) -> pushed (ev ++ tr) = pushed tr -> ginv (goto s t p w) (ev ++ tr).
  Proof.
    intros s tr ev t p w G Pi Al Wr Lo Vc Ne Np. apply (quiet s (goto s t p w) tr ev t p w); auto using goto_same, goto_other.
    - apply upd_same.
    - apply upd_same.
    - apply (g_box _ _ G).
    - apply (g_lv _ _ G).
  Qed.

  (** * The steps of [push] *)
  Lemma step_reserving : forall s tr t c v, ginv s tr -> pcs s t = Push c v Reserving ->
    ginv (mkSt (reserved s + 1) (msgs s) (data s) (sizes s) (heap s) (next s) (locks s) (lviews s) (dmap s) (boxes s) (upd (pcs s) t (Push c v (Loading (reserved s)))) (views s)) tr.
  Proof.
    intros s tr t c v G P. set (s' := mkSt _ _ _ _ _ _ _ _ _ _ _ _). assert (X : ext s s') by (repeat split; auto). destruct G. assert (LT : latest s' = latest s) by reflexivity.
    assert (AL : forall u b, alloced (pcs s u) b -> alloced (pcs s' u) b). { intros u b. cbn. destruct (upd_cases _ (pcs s) t (Push c v (Loading (reserved s))) u) as [[-> ->] | [N ->]]; auto. rewrite P. auto. }
    assert (WR : forall u b, wrote (pcs s u) b -> wrote (pcs s' u) b). { intros u b. cbn. destruct (upd_cases _ (pcs s) t (Push c v (Loading (reserved s))) u) as [[-> ->] | [N ->]]; auto. rewrite P. auto. }
    constructor; rewrite ?LT; cbn [s' reserved msgs data sizes heap next boxes lviews views]; auto; try lia.
    - intros u i. cbn [s' pcs]. destruct (upd_cases _ (pcs s) t (Push c v (Loading (reserved s))) u) as [[-> ->] | [N ->]]; [cbn; intros H; inversion H; lia |]. intros H. apply g_idx0 in H. lia.
    - intros u u' i. cbn [s' pcs]. destruct (upd_cases _ (pcs s) t (Push c v (Loading (reserved s))) u) as [[-> ->] | [N ->]]; destruct (upd_cases _ (pcs s) t (Push c v (Loading (reserved s))) u') as [[-> ->] | [N' ->]]; auto; cbn [pidx].
      + intros H H'. inversion H; subst. apply g_idx0 in H'. lia.
      + intros H H'. inversion H'; subst. apply g_idx0 in H. lia.
      + eauto.
    - intros i Hi. destruct (Nat.eq_dec i (reserved s)) as [-> | N]; [exists t; cbn; now rewrite upd_same |]. destruct (g_own0 i) as [u Hu]; [lia |]. exists u. cbn. rewrite upd_other; auto. intros ->. rewrite P in Hu. discriminate.
    - intros b blk Hb. destruct (g_data0 b blk Hb) as (P1 & P2 & P3). split; auto. split; auto. destruct P3 as [P3 | [u P3]]; auto. right. exists u. apply AL. exact P3.
    - intros blk o v' Hb. destruct (g_heap0 blk o v' Hb) as (i & P1 & P2 & P3). exists i. split; auto. split; auto. destruct P3 as [P3 | [u P3]]; auto. right. exists u. apply WR. exact P3.
    - intros u. cbn. destruct (upd_cases _ (pcs s) t (Push c v (Loading (reserved s))) u) as [[-> ->] | [N ->]]; [cbn; auto |]. eapply local_ext; eauto using vle_refl.
  Qed.

  Lemma step_allocating : forall s tr t c v idx, ginv s tr -> pcs s t = Push c v (Allocating idx) -> bin idx < BINS ->
    data s (bin idx) = None /\
    ginv (mkSt (reserved s) (msgs s) (upd (data s) (bin idx) (Some (next s))) (upd (sizes s) (next s) (bin_size (bin idx))) (heap s) (S (next s)) (locks s) (lviews s) (dmap s) (boxes s)
      (upd (pcs s) t (Push c v (Writing idx (next s)))) (upd (views s) t (know_data (bin idx) (views s t)))) tr.
  Proof.
    intros s tr t c v idx G P B. pose proof (g_local _ _ G t) as L. rewrite P in L. cbn [local] in L.
    assert (F : idx = first (bin idx)). { destruct (sub_off idx). lia. }
    assert (D : data s (bin idx) = None).
    { destruct (data s (bin idx)) as [blk |] eqn:E; auto. exfalso. destruct (g_data _ _ G _ _ E) as (_ & _ & [H | [u H]]).
      - assert (H1 : pidx (pcs s t) = Some idx) by (rewrite P; reflexivity). apply (g_idx _ _ G) in H1. lia.
      - assert (u = t); [| subst u; rewrite P in H; exact H]. apply (g_uniq _ _ G u t idx); [| rewrite P; reflexivity].
        destruct (pcs s u) as [| | ? ? [| | | | j ? | j] | | | | | | |]; cbn [alloced] in H; try contradiction; cbn [pidx]; congruence. }
    split; auto. set (p := Push c v (Writing idx (next s))). set (s' := mkSt _ _ _ _ _ _ _ _ _ _ _ _).
    assert (X : ext s s').
    { split; [| split; auto]. intros b blk H. cbn [s' data sizes]. destruct (g_data _ _ G _ _ H) as [H1 _]. rewrite (upd_other _ (data s)) by congruence. rewrite (upd_other _ (sizes s)) by lia. auto. }
    assert (PI : forall u, pidx (pcs s' u) = pidx (pcs s u)). { intros u. cbn. destruct (upd_cases _ (pcs s) t p u) as [[-> ->] | [N ->]]; auto. now rewrite P. }
    assert (AL : forall u b, alloced (pcs s u) b -> alloced (pcs s' u) b). { intros u b. cbn. destruct (upd_cases _ (pcs s) t p u) as [[-> ->] | [N ->]]; auto. rewrite P. cbn. contradiction. }
    assert (WR : forall u b, wrote (pcs s u) b -> wrote (pcs s' u) b). { intros u b. cbn. destruct (upd_cases _ (pcs s) t p u) as [[-> ->] | [N ->]]; auto. rewrite P. cbn. contradiction. }
    destruct G. assert (LT : latest s' = latest s) by reflexivity.
    constructor; rewrite ?LT; try (cbn [s' reserved msgs boxes lviews]; auto; fail).
    - intros u i. rewrite PI. apply g_idx0.
    - intros u u' i. rewrite !PI. eauto.
    - intros i Hi. destruct (g_own0 i Hi) as [u Hu]. exists u. now rewrite PI.
    - intros b blk. cbn [s' data next sizes]. destruct (upd_cases _ (data s) (bin idx) (Some (next s)) b) as [[-> ->] | [N ->]].
      + intros H. inversion H; subst blk. rewrite upd_same. split; [lia |]. split; auto. right. exists t. cbn. rewrite upd_same. exact F.
      + intros H. destruct (g_data0 b blk H) as (P1 & P2 & P3). rewrite upd_other by lia. split; [lia |]. split; auto. destruct P3 as [P3 | [u P3]]; auto. right. exists u. apply AL. exact P3.
    - intros b b' blk. cbn [s' data]. destruct (upd_cases _ (data s) (bin idx) (Some (next s)) b) as [[-> ->] | [N ->]]; destruct (upd_cases _ (data s) (bin idx) (Some (next s)) b') as [[-> ->] | [N' ->]]; auto.
      + intros H H'. inversion H; subst. destruct (g_data0 _ _ H'). lia.
      + intros H H'. inversion H'; subst. destruct (g_data0 _ _ H). lia.
      + eauto.
    - intros blk o v' Hb. destruct (g_heap0 blk o v' Hb) as (i & P1 & P2 & P3). exists i. split; auto. split; [now apply X |]. destruct P3 as [P3 | [u P3]]; auto. right. exists u. apply WR. exact P3.
    - intros i Hi. destruct (g_val0 i Hi) as (v' & u & P1 & P2). exists v', u. split; auto. eapply val_at_ext; eauto.
    - intros u v' i Hi. destruct (g_push0 u v' i Hi). split; auto. eapply val_at_ext; eauto.
    - intros k Hk. destruct (g_msg0 k Hk) as [P1 P2]. split; auto. intros i Hi. eapply knows_ext; [exact X | apply vle_refl | apply (P2 i Hi)].
    - intros u. cbn [s' views]. destruct (upd_cases _ (views s) t (know_data (bin idx) (views s t)) u) as [[-> ->] | [N ->]]; cbn; auto.
    - intros u. cbn [s' pcs views]. destruct (Nat.eq_dec u t) as [-> | N].
      + rewrite !upd_same. cbn [p local]. split; auto. split; cbn; [apply upd_same | now rewrite Nat.eqb_refl].
      + rewrite !upd_other by auto. eapply local_ext; eauto using vle_refl.
  Qed.

  Lemma step_writing : forall s tr t c v idx blk, ginv s tr -> pcs s t = Push c v (Writing idx blk) ->
    off idx < sizes s blk /\ heap s blk (off idx) = None /\
    ginv (mkSt (reserved s) (msgs s) (data s) (sizes s) (upd (heap s) blk (upd (heap s blk) (off idx) (Some v))) (next s) (locks s) (lviews s) (dmap s) (boxes s)
      (upd (pcs s) t (Push c v (Publishing idx))) (upd (views s) t (know_cell blk (off idx) (views s t)))) tr.
  Proof.
    intros s tr t c v idx blk G P. pose proof (g_local _ _ G t) as L. rewrite P in L. cbn [local] in L. destruct L as (B & D & V).
    assert (I : latest s <= idx < reserved s) by (apply (g_idx _ _ G t); rewrite P; reflexivity).
    assert (Sz : off idx < sizes s blk). { destruct (g_data _ _ G _ _ D) as (_ & -> & _). apply bin_spec. }
    assert (H : heap s blk (off idx) = None).
    { destruct (heap s blk (off idx)) as [v' |] eqn:E; auto. exfalso. destruct (g_heap _ _ G _ _ _ E) as (j & E1 & E2 & E3). assert (j = idx) by (apply bin_off_inj; [eapply (g_inj _ _ G); eauto | auto]). subst j.
      destruct E3 as [E3 | [u E3]]; [lia |]. assert (u = t); [| subst u; rewrite P in E3; exact E3]. apply (g_uniq _ _ G u t idx); [| rewrite P; reflexivity].
      destruct (pcs s u) as [| | ? ? [| | | | j ? | j] | | | | | | |]; cbn [wrote] in E3; try contradiction; cbn [pidx]; congruence. }
    split; auto. split; auto. set (p := Push c v (Publishing idx)). set (s' := mkSt _ _ _ _ _ _ _ _ _ _ _ _).
    assert (HP : forall x y, heap s' x y = if (x =? blk) && (y =? off idx) then Some v else heap s x y).
    { intros x y. cbn [s' heap]. unfold upd. destruct (Nat.eqb_spec x blk); auto. subst x. destruct (Nat.eqb_spec y (off idx)); auto. }
    assert (X : ext s s').
    { split; [| split; auto]; auto. intros x y v' E. rewrite HP. destruct (Nat.eqb_spec x blk); auto. destruct (Nat.eqb_spec y (off idx)); auto. subst. congruence. }
    assert (PI : forall u, pidx (pcs s' u) = pidx (pcs s u)). { intros u. cbn. destruct (upd_cases _ (pcs s) t p u) as [[-> ->] | [N ->]]; auto. now rewrite P. }
    assert (AL : forall u b, alloced (pcs s u) b -> alloced (pcs s' u) b). { intros u b. cbn. destruct (upd_cases _ (pcs s) t p u) as [[-> ->] | [N ->]]; auto. rewrite P. cbn. auto. }
    assert (WR : forall u b, wrote (pcs s u) b -> wrote (pcs s' u) b). { intros u b. cbn. destruct (upd_cases _ (pcs s) t p u) as [[-> ->] | [N ->]]; auto. rewrite P. cbn. contradiction. }
    destruct G. assert (LT : latest s' = latest s) by reflexivity.
    constructor; rewrite ?LT; try (cbn [s' reserved msgs data boxes lviews]; auto; fail).
    - intros u i. rewrite PI. apply g_idx0.
    - intros u u' i. rewrite !PI. eauto.
    - intros i Hi. destruct (g_own0 i Hi) as [u Hu]. exists u. now rewrite PI.
    - intros b k Hb. destruct (g_data0 b k Hb) as (P1 & P2 & P3). split; auto. split; auto. destruct P3 as [P3 | [u P3]]; auto. right. exists u. apply AL. exact P3.
    - intros x y v'. rewrite HP. destruct (Nat.eqb_spec x blk) as [-> | N]; [destruct (Nat.eqb_spec y (off idx)) as [-> | N] |]; cbn [andb].
      + intros _. exists idx. split; auto. split; auto. right. exists t. cbn. now rewrite upd_same.
      + intros Hb. destruct (g_heap0 blk y v' Hb) as (i & P1 & P2 & P3). exists i. split; auto. split; auto. destruct P3 as [P3 | [u P3]]; auto. right. exists u. apply WR. exact P3.
      + intros Hb. destruct (g_heap0 x y v' Hb) as (i & P1 & P2 & P3). exists i. split; auto. split; auto. destruct P3 as [P3 | [u P3]]; auto. right. exists u. apply WR. exact P3.
    - intros i Hi. destruct (g_val0 i Hi) as (v' & u & P1 & P2). exists v', u. split; auto. eapply val_at_ext; eauto.
    - intros u v' i Hi. destruct (g_push0 u v' i Hi). split; auto. eapply val_at_ext; eauto.
    - intros u. cbn [s' views]. destruct (upd_cases _ (views s) t (know_cell blk (off idx) (views s t)) u) as [[-> ->] | [N ->]]; cbn; auto.
    - intros u. cbn [s' pcs views]. destruct (Nat.eq_dec u t) as [-> | N].
      + rewrite !upd_same. cbn [p local]. split.
        * split; auto. exists blk. split; auto. split; auto. rewrite HP. now rewrite !Nat.eqb_refl.
        * exists blk. split; auto. split; auto. cbn. now rewrite !Nat.eqb_refl.
      + rewrite !upd_other by auto. eapply local_ext; eauto using vle_refl.
  Qed.

  Lemma step_publishing : forall s tr t c v, ginv s tr -> pcs s t = Push c v (Publishing (latest s)) ->
    ginv (mkSt (reserved s) (msgs s ++ [know_count (S (latest s)) (vjoin (views s t) (nth (latest s) (msgs s) vempty))]) (data s) (sizes s) (heap s) (next s) (locks s) (lviews s) (dmap s) (boxes s)
      (upd (pcs s) t (if c then Insert v (latest s) else Idle)) (upd (views s) t (know_count (S (latest s)) (views s t)))) (EPush t v (latest s) :: tr).
  Proof.
    intros s tr t c v G P. pose proof (g_local _ _ G t) as L. rewrite P in L. cbn [local] in L. destruct L as (Va & Kn). remember (latest s) as n eqn:En.
    assert (I : n < reserved s) by (apply (g_idx _ _ G t); rewrite P; reflexivity).
    assert (Ml : length (msgs s) = S n). { pose proof (g_msgs _ _ G). unfold latest in En. destruct (msgs s); [congruence |]. cbn [length] in *. lia. }
    set (p := if c then Insert v n else Idle). set (m := know_count _ (vjoin _ _)). set (w := know_count _ (views s t)). set (s' := mkSt _ _ _ _ _ _ _ _ _ _ _ _).
    assert (LT : latest s' = S n). { unfold latest. cbn [s' msgs]. rewrite app_length, Ml. cbn. lia. }
    assert (X : ext s s') by (split; [auto | split; [auto | lia]]).
    assert (NP : pidx p = None) by (unfold p; now destruct c).
    assert (PI : forall u i, pidx (pcs s' u) = Some i -> pidx (pcs s u) = Some i /\ u <> t). { intros u i. cbn. destruct (upd_cases _ (pcs s) t p u) as [[-> ->] | [N ->]]; [rewrite NP; discriminate | auto]. }
    assert (VM : vcount m = S n). { cbn [m know_count vjoin vcount]. destruct (g_msg _ _ G n) as [E _]; [lia |]. rewrite E. pose proof (g_vc _ _ G t). lia. }
    destruct G. constructor; rewrite ?LT.
    - cbn. destruct (msgs s); discriminate.
    - cbn. lia.
    - intros u i H. destruct (PI u i H) as [H1 H2]. pose proof (g_idx0 _ _ H1). cbn. enough (i <> n) by lia. intros ->. apply H2. apply (g_uniq0 u t n); auto. rewrite P. reflexivity.
    - intros u u' i H H'. apply PI in H, H'. destruct H, H'. eauto.
    - intros i Hi. cbn [s' reserved] in Hi. destruct (g_own0 i) as [u Hu]; [lia |]. exists u. cbn. rewrite upd_other; auto. intros ->. rewrite P in Hu. cbn in Hu. inversion Hu. lia.
    - intros b k Hb. destruct (g_data0 b k Hb) as (P1 & P2 & P3). split; auto. split; auto. destruct P3 as [P3 | [u P3]]; [left; lia |].
      destruct (Nat.eq_dec u t) as [-> | N]; [rewrite P in P3; cbn [alloced] in P3; left; lia |]. right. exists u. cbn. now rewrite upd_other.
    - cbn. auto.
    - intros x y v' Hb. destruct (g_heap0 x y v' Hb) as (i & P1 & P2 & P3). exists i. split; auto. split; auto. destruct P3 as [P3 | [u P3]]; [left; lia |].
      destruct (Nat.eq_dec u t) as [-> | N]; [rewrite P in P3; cbn in P3; left; lia |]. right. exists u. cbn. now rewrite upd_other.
    - intros i Hi. destruct (Nat.eq_dec i n) as [-> | N]; [exists v, t; split; [eapply val_at_ext; eauto | now left] |]. destruct (g_val0 i) as (v' & u & P1 & P2); [lia |]. exists v', u. split; [eapply val_at_ext; eauto | now right].
    - intros u v' i [Hi | Hi]; [inversion Hi; subst; split; [lia | eapply val_at_ext; eauto] |]. destruct (g_push0 u v' i Hi). split; [lia |]. eapply val_at_ext; eauto.
    - cbn [pushed]. constructor; auto. intros Hi. assert (exists u v', In (EPush u v' n) tr) as (u & v' & H).
      { clear - Hi. induction tr as [| e r IH]; [easy |]. cbn [pushed] in Hi. destruct e; try (destruct (IH Hi) as (u & v' & H); exists u, v'; now right). destruct Hi as [-> | Hi]; [do 2 eexists; left; reflexivity | destruct (IH Hi) as (u & v' & H); exists u, v'; now right]. }
      destruct (g_push0 _ _ _ H). lia.
    - intros k Hk. cbn [s' msgs]. destruct (Nat.eq_dec k (S n)) as [-> | N].
      + rewrite app_nth2 by lia. rewrite Ml, Nat.sub_diag. cbn [nth]. split; auto. intros i Hi. destruct (Nat.eq_dec i n) as [-> | N].
        * eapply knows_ext; [exact X | | exact Kn]. eapply vle_trans; [apply vle_join1 | apply vle_count].
        * destruct (g_msg0 n) as [_ Q]; [lia |]. eapply knows_ext; [exact X | | apply (Q i); lia]. eapply vle_trans; [apply vle_join2 | apply vle_count].
      + rewrite app_nth1 by lia. destruct (g_msg0 k) as [P1 P2]; [lia |]. split; [exact P1 |]. intros i Hi. eapply knows_ext; [exact X | apply vle_refl | apply (P2 i Hi)].
    - intros u. cbn [s' views]. destruct (upd_cases _ (views s) t w u) as [[-> ->] | [N ->]]; [cbn [w know_count vcount]; specialize (g_vc0 t); lia | specialize (g_vc0 u); lia].
    - intros k. specialize (g_box0 k). cbn. lia.
    - intros k. specialize (g_lv0 k). cbn. lia.
    - intros u. cbn [s' pcs views]. destruct (Nat.eq_dec u t) as [-> | N].
      + rewrite !upd_same. unfold p. destruct c; cbn [local]; auto. split; [lia |]. split; [eapply val_at_ext; eauto |]. cbn [w know_count vcount]. lia.
      + rewrite !upd_other by auto. eapply local_ext; eauto using vle_refl.
  Qed.
End Proofs.
