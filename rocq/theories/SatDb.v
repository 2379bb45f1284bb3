(** Clause database: attaching, detaching, simplification at level 0 and reduction of the learnt clauses. *)
From Coq Require Import List Arith ZArith NArith Bool Lia Permutation.
From Verif Require Import Base Vec HeapModel HeapProofs SatSpec SatModel SatBasics SatHeap SatInv SatProp.
Import ListNotations.
Local Open Scope nat_scope.

Lemma heap_change : forall F q st h, inv F q st -> hinv (length (s_vars st)) (s_vars st) h -> inv F q (set_heap h st).
Proof. intros F q st h [Z I W C V H] H'. constructor; ssimp; auto. destruct Z. constructor; ssimp; auto. Qed.
Lemma inv_same : forall F q a b, inv F q a -> s_watches b = s_watches a -> s_vars b = s_vars a -> s_reasons b = s_reasons a -> s_acts b = s_acts a ->
  length (s_seen b) = length (s_seen a) -> s_trail b = s_trail a -> s_lim b = s_lim a -> s_arena b = s_arena a -> s_heap b = s_heap a ->
  (forall c, In c (s_clauses b) \/ In c (s_learnts b) -> In c (s_clauses a) \/ In c (s_learnts a)) -> inv F q b.
Proof.
  intros F q a b [Z I W C V H] E1 E2 E3 E4 E5 E6 E7 E8 E9 E10.
  destruct b; ssimp in *; subst; constructor; ssimp; auto. destruct Z; constructor; ssimp; auto. congruence.
Qed.

(** ** Attaching *)
Lemma arena_ext : forall F q st cl, inv F q st -> inv F q (set_arena (s_arena st ++ [cl]) st).
Proof.
  intros F q st cl [Z I W C V H]. constructor; ssimp; auto.
  - destruct Z; constructor; ssimp; auto.
  - constructor; try apply I. intros i l El Lv. pose proof (t_reason _ _ _ _ _ _ _ _ I i l El Lv) as TR. destruct (nth (lvar l) (s_reasons st) None) as [c |]; auto.
    destruct TR as (cl' & rest & A & B). exists cl', rest. split; auto. now apply nth_app_some.
  - intros p ws Ep. destruct (W p ws Ep) as [N K]. split; auto. intros c b Hb. destruct (K c b Hb) as (cl' & A & B). exists cl'. split; auto. now apply nth_app_some.
  - intros D HD. destruct (C D HD) as [L | (c & cl' & A & B & G)]; [left; exact L |]. right. exists c, cl'. split; auto. split; auto. now apply nth_app_some.
  - intros c Hc. destruct (V c Hc) as (cl' & A & B). exists cl'. split; auto. now apply nth_app_some.
Qed.
Lemma nodup_snoc : forall A (l : list A) x, NoDup l -> ~ In x l -> NoDup (l ++ [x]).
Proof. intros A l x N H. apply (Permutation_NoDup (l := x :: l)); [apply Permutation_cons_append | constructor; auto]. Qed.
Lemma watch_push_nth : forall st p w x ws, nth_error (s_watches (watch_push p w st)) x = Some ws ->
  (x = p /\ ws = wlist st p ++ [w]) \/ (x <> p /\ nth_error (s_watches st) x = Some ws).
Proof.
  intros st p w x ws E. unfold watch_push, set_wlist in E. ssimp in E. destruct (Nat.eq_dec x p) as [-> | N].
  - left. split; auto. pose proof (nth_some_lt _ _ _ E) as L. rewrite upd_length in L. rewrite upd_same in E by auto. congruence.
  - right. split; auto. now rewrite upd_other in E by auto.
Qed.
Lemma watch_push_inv : forall F q st p c b, inv F q st -> went F (length (s_vars st)) (s_arena st) (s_trail st) (s_lim st) q p c b ->
  ~ In c (map fst (wlist st p)) -> inv F q (watch_push p (c, b) st).
Proof.
  intros F q st p c b [Z I W C V H] Hw Hn. constructor; auto.
  - destruct Z; constructor; auto. unfold watch_push, set_wlist; ssimp. now rewrite upd_length.
  - intros x ws E. apply watch_push_nth in E. destruct E as [[-> ->] | [N E]]; [| exact (W x ws E)].
    change (s_arena (watch_push p (c, b) st)) with (s_arena st). change (s_trail (watch_push p (c, b) st)) with (s_trail st).
    change (s_lim (watch_push p (c, b) st)) with (s_lim st). change (s_vars (watch_push p (c, b) st)) with (s_vars st).
    destruct (nth_error (s_watches st) p) as [ws |] eqn:Ep.
    + destruct (W p ws Ep) as [N K]. unfold wlist in *. rewrite (nth_of_some _ _ _ _ [] Ep) in *. split.
      * rewrite map_app. cbn. now apply nodup_snoc.
      * intros c' b' Hb. apply in_app_or in Hb. destruct Hb as [Hb | [E | []]]; auto. now inversion E; subst.
    + unfold wlist in *. rewrite nth_overflow by (now apply nth_error_None). cbn. split; [constructor; [intros [] | constructor] |].
      intros c' b' [E | []]. now inversion E; subst.
  - intros D HD. destruct (C D HD) as [L | (c' & cl' & A1 & A)]; [left; exact L |]. right. exists c', cl'. split; auto.
    eapply paired_mono; [| exact A1]. intros z w Hx. unfold watch_push, set_wlist. ssimp. destruct (Nat.eq_dec p z) as [<- | N]; [| now rewrite nth_upd_neq by auto].
    destruct (Nat.lt_ge_cases p (length (s_watches st))) as [Lp | Lp]; [| rewrite nth_overflow in Hx by lia; destruct Hx].
    rewrite nth_upd_eq by exact Lp. apply in_or_app. left. exact Hx.
Qed.
Lemma ids_lt : forall F q st x ws c b, inv F q st -> nth_error (s_watches st) x = Some ws -> In (c, b) ws -> c < length (s_arena st).
Proof. intros F q st x ws c b I E Hb. destruct (i_w _ _ _ I x ws E) as [_ K]. destruct (K c b Hb) as (cl & A & _). eapply nth_some_lt; eauto. Qed.
Lemma fresh_id : forall F q st x c, inv F q st -> length (s_arena st) <= c -> ~ In c (map fst (wlist st x)).
Proof.
  intros F q st x c I L Hc. unfold wlist in Hc. destruct (nth_error (s_watches st) x) as [ws |] eqn:E.
  - rewrite (nth_of_some _ _ _ _ [] E) in Hc. apply in_map_iff in Hc. destruct Hc as ([c' b] & E1 & E2). cbn in E1. subst. pose proof (ids_lt _ _ _ _ _ _ _ I E E2). lia.
  - rewrite nth_overflow in Hc by (now apply nth_error_None). destruct Hc.
Qed.

(** ** Detaching *)
Lemma clause_eq_arena : forall cfg orc a b c d, s_arena a = s_arena b -> s_tick a = s_tick b -> clause_eq cfg orc a c d = clause_eq cfg orc b c d.
Proof. intros. unfold clause_eq, cl_at. now rewrite H, H0. Qed.
Lemma nats_eqb_eq : forall a b, nats_eqb a b = true -> a = b.
Proof. induction a as [| x r IH]; intros [| y s] H; cbn in H; try discriminate; auto. apply andb_true_iff in H. destruct H as [A B]. apply Nat.eqb_eq in A. f_equal; auto. Qed.
Lemma clause_eq_spec : forall cfg orc st c d, clause_eq cfg orc st c d = true -> c_data (cl_at st c) = c_data (cl_at st d) /\ c_learnt (cl_at st c) = c_learnt (cl_at st d).
Proof.
  intros cfg orc st c d H. unfold clause_eq in H. apply orb_true_iff in H. destruct H as [H | H]; [apply Nat.eqb_eq in H; now subst |].
  apply andb_true_iff in H. destruct H as [H _]. apply andb_true_iff in H. destruct H as [A B]. split; [now apply nats_eqb_eq | now apply eqb_prop].
Qed.
Lemma remove_watch_in : forall cfg orc st c ws w, In w (remove_watch cfg orc st c ws) -> In w ws.
Proof. induction ws as [| x r IH]; intros w H; cbn in H; auto. destruct (clause_eq cfg orc st (fst x) c); [right; auto |]. destruct H; [left; auto | right; auto]. Qed.
Lemma remove_watch_keep : forall cfg orc st c ws w, In w ws -> clause_eq cfg orc st (fst w) c = false -> In w (remove_watch cfg orc st c ws).
Proof.
  induction ws as [| x r IH]; intros w H E; cbn; [destruct H |]. destruct (clause_eq cfg orc st (fst x) c) eqn:Ex.
  - destruct H as [-> | H]; [congruence | auto].
  - destruct H as [-> | H]; [left; auto | right; auto].
Qed.
Lemma remove_watch_nodup : forall cfg orc st c ws, NoDup (map fst ws) -> NoDup (map fst (remove_watch cfg orc st c ws)).
Proof.
  induction ws as [| x r IH]; intros H; cbn; auto. cbn in H. apply NoDup_cons_iff in H. destruct H as [A B]. destruct (clause_eq cfg orc st (fst x) c); auto.
  cbn. constructor; auto. intros K. apply A. apply in_map_iff in K. destruct K as (w & E & K). rewrite <- E. apply in_map. eapply remove_watch_in; eauto.
Qed.
Definition removable (st : solver) (c : nat) : Prop :=
  c_learnt (cl_at st c) = true \/ exists j t, nth_error (s_trail st) j = Some t /\ In t (c_data (cl_at st c)) /\ lv (s_lim st) j = 0.
Lemma unwatch_inv : forall cfg orc F q st st' p c, inv F q st -> removable st c -> s_arena st' = s_arena st -> s_tick st' = s_tick st ->
  inv F q (set_wlist p (remove_watch cfg orc st' c (wlist st p)) st).
Proof.
  intros cfg orc F q st st' p c [Z I W C V H] R Ea Et. unfold set_wlist. constructor; ssimp; auto.
  - destruct Z; constructor; ssimp; auto. now rewrite upd_length.
  - intros x ws E. destruct (Nat.eq_dec x p) as [-> | N].
    + assert (L : p < length (s_watches st)) by (apply nth_some_lt in E; now rewrite upd_length in E). rewrite upd_same in E by auto. inversion E; subst ws.
      destruct (W p (wlist st p)) as [N K]; [unfold wlist; now apply nth_err_def |]. split; [now apply remove_watch_nodup |]. intros c' b Hb. apply K. eapply remove_watch_in; eauto.
    + rewrite upd_other in E by auto. auto.
  - intros D HD. destruct (C D HD) as [L | (c' & cl' & A1 & A3 & A4 & A5)]; [left; exact L |].
    destruct (clause_eq cfg orc st' c' c) eqn:Ec.
    + destruct (clause_eq_spec _ _ _ _ _ Ec) as [E1 E2]. unfold cl_at in E1, E2. rewrite Ea in E1, E2. rewrite (nth_of_some _ _ _ _ dcl A3) in E1, E2.
      destruct R as [R | (j & t & R1 & R2 & R3)]; [unfold cl_at in R; congruence |]. left. exists j, t. split; auto. split; auto. apply A5. rewrite E1. exact R2.
    + right. exists c', cl'. split; auto. eapply paired_mono; [| exact A1]. intros z w Hw. destruct (Nat.eq_dec p z) as [<- | N]; [| now rewrite nth_upd_neq by auto].
      destruct (Nat.lt_ge_cases p (length (s_watches st))) as [Lp | Lp]; [| rewrite nth_overflow in Hw by lia; destruct Hw].
      rewrite nth_upd_eq by exact Lp. apply remove_watch_keep; [exact Hw | exact Ec].
Qed.
Lemma detach_ok : forall cfg orc F q st c, inv F q st -> goodid F (length (s_vars st)) (s_arena st) c -> removable st c ->
  exists W, detach_clause cfg orc c st = Ok (set_watches W st) /\ inv F q (set_watches W st).
Proof.
  intros cfg orc F q st c I (cl & Ec & G) R. unfold detach_clause. assert (Ed : c_data (cl_at st c) = c_data cl) by (unfold cl_at; now rewrite (nth_of_some _ _ _ _ dcl Ec)).
  rewrite Ed. pose proof (gc_len _ _ _ G) as L. destruct (c_data cl) as [| c0 [| c1 rest]] eqn:Ecd; try (cbn in L; lia).
  eexists. split; [unfold set_wlist; ssimp; reflexivity |].
  pose proof (unwatch_inv cfg orc F q st st (lneg c0) c I R eq_refl eq_refl) as I1. set (st1 := set_wlist _ _ st) in *.
  exact (unwatch_inv cfg orc F q st1 st1 (lneg c1) c I1 R eq_refl eq_refl).
Qed.

(** What the removal of clauses changes. *)
Definition rframe (st s : solver) : Prop := exists W A R, s = set_watches W (set_arena A (set_reasons R st)) /\
  length A = length (s_arena st) /\ (forall c, c_learnt (nth c A dcl) = c_learnt (nth c (s_arena st) dcl)) /\ (s_lim st <> [] -> R = s_reasons st).
Lemma rframe_refl : forall st, rframe st st.
Proof. intros st. exists (s_watches st), (s_arena st), (s_reasons st). split; [destruct st; reflexivity | auto]. Qed.
Lemma rframe_trans : forall a b c, rframe a b -> rframe b c -> rframe a c.
Proof.
  intros a b c (W & A & R & -> & H1 & H2 & H3) (W' & A' & R' & -> & K1 & K2 & K3). exists W', A', R'. ssimp in *. split; [reflexivity |]. split; [congruence |].
  split; [intros x; now rewrite K2, H2 |]. intros N. rewrite K3, H3; auto.
Qed.
Lemma reason_clear : forall F q st R, inv F q st -> s_lim st = [] -> length R = length (s_reasons st) -> inv F q (set_reasons R st).
Proof.
  intros F q st R [Z I W C V H] E L. constructor; ssimp; auto.
  - destruct Z; constructor; ssimp; auto. congruence.
  - constructor; try apply I. intros i l El Lv. rewrite E in Lv. cbn in Lv. lia.
Qed.
Lemma remove_clause_ok : forall cfg orc F q st c, inv F q st -> goodid F (length (s_vars st)) (s_arena st) c -> removable st c ->
  (s_lim st = [] \/ locked cfg orc st c = Ok false) ->
  exists s, remove_clause cfg orc c st = Ok s /\ inv F q s /\ rframe st s /\ s_arena s = s_arena st.
Proof.
  intros cfg orc F q st c I G R HL. unfold remove_clause. destruct G as (cl & Ec & G). assert (Ed : c_data (cl_at st c) = c_data cl) by (unfold cl_at; now rewrite (nth_of_some _ _ _ _ dcl Ec)).
  assert (El : exists b, locked cfg orc st c = Ok b /\ (b = true -> s_lim st = [])).
  { destruct HL as [HL | HL]; [| exists false; split; auto; discriminate]. unfold locked. rewrite Ed. pose proof (gc_len _ _ _ G) as L.
    destruct (c_data cl); [cbn in L; lia |]. eexists. split; [reflexivity | auto]. }
  destruct El as (b & -> & Hb). cbn [rbind]. rewrite Ed. pose proof (gc_len _ _ _ G) as L. destruct (c_data cl) as [| c0 rest] eqn:Ecd; [cbn in L; lia |]. rewrite <- Ecd in Ed.
  destruct b.
  - set (R' := upd (s_reasons st) (lvar c0) None).
    assert (I' : inv F q (set_reasons R' st)) by (apply reason_clear; auto; apply upd_length).
    destruct (detach_ok cfg orc F q (set_reasons R' st) c I') as (W & E & I2); [exists cl; auto | exact R |]. exists (set_watches W (set_reasons R' st)). split; [exact E |].
    split; [exact I2 |]. split; [| reflexivity]. exists W, (s_arena st), R'. split; [reflexivity |]. split; auto. split; auto. rewrite (Hb eq_refl). congruence.
  - destruct (detach_ok cfg orc F q st c I) as (W & E & I2); [exists cl; auto | exact R |]. exists (set_watches W st). split; [exact E |]. split; [exact I2 |]. split; [| reflexivity].
    exists W, (s_arena st), (s_reasons st). split; [destruct st; reflexivity | auto].
Qed.

(** ** Simplification at level 0 *)
Lemma last_skip : forall (d : list nat) k x, nth_error d k = Some x -> exists r, Permutation d (x :: r) /\ Permutation (vpop (upd d k (last d 0))) r /\
  (forall i, i < k -> S i < length d -> nth_error (vpop (upd d k (last d 0))) i = nth_error d i).
Proof.
  intros d k x E. destruct (exists_last (l := d)) as (d0 & y & ->); [intros ->; destruct k; discriminate |]. rewrite last_last.
  pose proof (nth_some_lt _ _ _ E) as L. rewrite app_length in L. cbn in L.
  assert (Pop : forall (l : list nat) z, vpop (l ++ [z]) = l) by (intros; unfold vpop; rewrite removelast_last; reflexivity).
  destruct (Nat.eq_dec k (length d0)) as [-> | N].
  - rewrite nth_error_app2 in E by lia. rewrite Nat.sub_diag in E. cbn in E. inversion E; subst y. exists d0. split; [symmetry; apply Permutation_cons_append |].
    assert (Eu : upd (d0 ++ [x]) (length d0) x = d0 ++ [x]).
    { clear. induction d0 as [| a d0 IH]; cbn; [reflexivity | now rewrite IH]. }
    rewrite Eu, Pop. split; [reflexivity |]. intros i Hi _. now rewrite nth_error_app1.
  - assert (Lk : k < length d0) by lia. rewrite nth_error_app1 in E by auto.
    assert (Eu : upd (d0 ++ [y]) k y = upd d0 k y ++ [y]).
    { clear -Lk. revert k Lk. induction d0 as [| a d0 IH]; intros k Lk; [cbn in Lk; lia |]. destruct k; cbn in *; [reflexivity | rewrite IH by lia; reflexivity]. }
    rewrite Eu, Pop.
    assert (P : exists r0, Permutation d0 (x :: r0) /\ Permutation (upd d0 k y) (y :: r0)).
    { clear -Lk E. revert k Lk E. induction d0 as [| a d0 IH]; intros k Lk E; [cbn in Lk; lia |]. destruct k; cbn in *.
      - inversion E; subst. exists d0. auto.
      - destruct (IH k ltac:(lia) E) as (r0 & P1 & P2). exists (a :: r0). split; [rewrite P1 | rewrite P2]; constructor. }
    destruct P as (r0 & P1 & P2). exists (y :: r0). split; [rewrite P1; cbn; constructor; symmetry; apply Permutation_cons_append |]. split; [exact P2 |].
    intros i Hi _. rewrite upd_other by lia. now rewrite nth_error_app1 by lia.
Qed.
Lemma shrink_ok : forall st fuel d k, 2 <= k -> 2 <= length d -> NoDup d ->
  let d' := shrink fuel st d k in 2 <= length d' /\ NoDup d' /\ nth_error d' 0 = nth_error d 0 /\ nth_error d' 1 = nth_error d 1 /\
    (forall l, In l d' -> In l d) /\ (forall l, In l d -> In l d' \/ is_false (value st l) = true).
Proof.
  intros st. induction fuel as [| fu IH]; intros d k Lk Ld N; cbn [shrink]; [cbn; auto 8 |].
  destruct (nth_error d k) as [l |] eqn:E; [| cbn; auto 8]. destruct (is_false (value st l)) eqn:Ef; [| now apply IH; auto].
  destruct (last_skip d k l E) as (r & P1 & P2 & P3). pose proof (nth_some_lt _ _ _ E) as L. pose proof (Permutation_length P1) as Q1. pose proof (Permutation_length P2) as Q2. cbn in Q1.
  specialize (IH (vpop (upd d k (last d 0))) k Lk ltac:(lia)).
  assert (N1 : NoDup (vpop (upd d k (last d 0)))).
  { eapply Permutation_NoDup; [symmetry; exact P2 |]. eapply Permutation_NoDup in N; [| exact P1]. now apply NoDup_cons_iff in N. }
  specialize (IH N1). cbn zeta in *. destruct IH as (H1 & H2 & H3 & H4 & H5 & H6). repeat (split; [assumption |]).
  split; [rewrite H3; apply P3; lia |]. split; [rewrite H4; apply P3; lia |]. split.
  - intros x Hx. apply H5 in Hx. eapply Permutation_in; [symmetry; exact P1 |]. right. eapply Permutation_in; eauto.
  - intros x Hx. eapply Permutation_in in Hx; [| exact P1]. destruct Hx as [<- | Hx]; auto. apply H6. eapply Permutation_in; [symmetry |]; eauto.
Qed.
Lemma lim0_level : forall i, lv [] i = 0.
Proof. reflexivity. Qed.
Lemma true0 : forall F q st l, inv F q st -> l < 2 * length (s_vars st) -> is_true (value st l) = true -> exists j, nth_error (s_trail st) j = Some l.
Proof.
  intros F q st l I Hl H. apply In_nth_error. apply (val_true (i_t _ _ _ I)); auto. unfold value in H. destruct (asg_of (s_vars st) l) as [[|]|]; cbn in H; congruence.
Qed.
Lemma falseT : forall F q st l, inv F q st -> l < 2 * length (s_vars st) -> is_false (value st l) = true -> exists j, nth_error (s_trail st) j = Some (lneg l).
Proof.
  intros F q st l I Hl H. apply In_nth_error. apply (val_false (i_t _ _ _ I)); auto. unfold value in H. destruct (asg_of (s_vars st) l) as [[|]|]; cbn in H; congruence.
Qed.
Lemma set_data_shrink : forall F q st c cl d, inv F q st -> s_lim st = [] -> nth_error (s_arena st) c = Some cl -> goodcl F (length (s_vars st)) cl ->
  2 <= length d -> NoDup d -> nth_error d 0 = nth_error (c_data cl) 0 -> nth_error d 1 = nth_error (c_data cl) 1 -> (forall l, In l d -> In l (c_data cl)) ->
  (forall l, In l (c_data cl) -> In l d \/ is_false (value st l) = true) -> inv F q (set_data c d st).
Proof.
  intros F q st c cl d I0 El Ec G Ld Nd E0 E1 Sub Kp. pose proof I0 as [Z I W C V H]. unfold set_data.
  replace (cl_at st c) with cl by (unfold cl_at; now rewrite (nth_of_some _ _ _ _ dcl Ec)).
  assert (Fz : forall l, In l (c_data cl) -> is_false (value st l) = true -> exists j, nth_error (s_trail st) j = Some (lneg l)).
  { intros l Hl. apply (falseT F q); auto. now apply (gc_lits _ _ _ G). }
  assert (G' : goodcl F (length (s_vars st)) (mkCl d (c_learnt cl))).
  { constructor; cbn; auto.
    - intros l Hl. apply (gc_lits _ _ _ G). auto.
    - intros Vl HV. destruct (gc_ent _ _ _ G Vl HV) as (l & A & B). destruct (Kp l A) as [K | K]; [exists l; auto |]. exfalso. destruct (Fz l A K) as (j & Ej).
      destruct (t_ent0 _ _ _ _ _ _ _ _ I j _ Ej) with (V := Vl) as (y & [<- | []] & Hy); auto; [rewrite El; reflexivity |]. now apply lit_true_neg in Hy. }
  assert (GI : forall c' cl', nth_error (s_arena st) c' = Some cl' -> goodcl F (length (s_vars st)) cl' -> goodid F (length (s_vars st)) (upd (s_arena st) c (mkCl d (c_learnt cl))) c').
  { intros c' cl' E G2. destruct (Nat.eq_dec c' c) as [-> | N]; [exists (mkCl d (c_learnt cl)); split; auto; apply upd_same; eapply nth_some_lt; eauto |].
    exists cl'. split; auto. now rewrite upd_other by auto. }
  constructor; ssimp; auto.
  - destruct Z; constructor; ssimp; auto.
  - constructor; try apply I. intros i l Ei Lv. rewrite El in Lv. cbn in Lv. lia.
  - intros p ws Ep. destruct (W p ws Ep) as [N K]. split; auto. intros c' b Hb. pose proof (K c' b Hb) as K0. destruct (Nat.eq_dec c' c) as [-> | Nc]; [| apply went_other; auto].
    destruct K0 as (cl' & A1 & A2 & A3 & A4 & A5 & A6). assert (cl' = cl) by congruence. subst cl'. exists (mkCl d (c_learnt cl)).
    split; [apply upd_same; eapply nth_some_lt; eauto |]. split; [exact G' |]. cbn [c_data]. split; [unfold watched_by in *; now rewrite E0, E1 |]. split; [exact A4 |]. split.
    + destruct A5 as [A5 | A5]; [| auto]. destruct (Kp b A5) as [B | B]; [auto |]. right. destruct (Fz b A5 B) as (j & Ej). exists j. split; auto. rewrite El. reflexivity.
    + intros i Hi Ei. destruct (A6 i Hi Ei) as (j & t & B1 & B2 & B4 & B3). destruct (Kp t B2) as [B | B]; [exists j, t; split; auto; split; auto; split; auto; destruct B4 as [B4 | B4]; auto; right; unfold watched_by in *; now rewrite E0, E1 |]. exfalso. destruct (Fz t B2 B) as (j' & Ej').
      apply (not_both I t); eapply nth_error_In; eauto.
  - intros D HD. destruct (C D HD) as [L | (c' & cl' & A1 & A2 & A3 & A4)]; [left; exact L |]. right. destruct (Nat.eq_dec c' c) as [-> | N].
    + assert (cl' = cl) by congruence. subst cl'. exists c, (mkCl d (c_learnt cl)). split; [| split; [apply upd_same; eapply nth_some_lt; eauto |]; split; auto; cbn; intros l Hl; auto].
      destruct A1 as (x & y & r & b1 & b2 & H1 & H2 & H3 & H4). rewrite H1 in E0, E1. cbn [nth_error] in E0, E1. cbn [c_data].
      destruct d as [| x' [| y' r']]; try discriminate. cbn [nth_error] in E0, E1. exists x, y, r', b1, b2. split; [congruence | auto].
    + exists c', cl'. split; auto. split; auto. now rewrite upd_other by auto.
  - intros c' Hc. destruct (V c' Hc) as (cl' & A & B). eapply GI; eauto.
Qed.
Lemma satisfied_spec : forall F q st cl, inv F q st -> goodcl F (length (s_vars st)) cl -> satisfied st (c_data cl) = true -> exists j t, nth_error (s_trail st) j = Some t /\ In t (c_data cl).
Proof.
  intros F q st cl I G H. apply existsb_exists in H. destruct H as (l & A & B). destruct (true0 F q st l I (gc_lits _ _ _ G l A) B) as (j & Ej). eauto.
Qed.
Lemma remove_satisfied_gen_ok : forall cfg orc F q cs st, inv F q st -> s_lim st = [] -> (forall c, In c cs -> In c (s_clauses st) \/ In c (s_learnts st)) ->
  exists k s, remove_satisfied_gen cfg orc cs st = Ok (k, s) /\ inv F q s /\ rframe st s /\ (forall c, In c k -> In c cs).
Proof.
  intros cfg orc F q. induction cs as [| c r IH]; intros st I El Hc; cbn [remove_satisfied_gen].
  - exists [], st. split; auto. split; auto. split; [apply rframe_refl | auto].
  - destruct (i_v _ _ _ I c (Hc c (or_introl eq_refl))) as (cl & Ec & G). assert (Ed : c_data (cl_at st c) = c_data cl) by (unfold cl_at; now rewrite (nth_of_some _ _ _ _ dcl Ec)).
    rewrite Ed. cbn zeta. destruct (satisfied st (c_data cl)) eqn:Es.
    + destruct (satisfied_spec F q st cl I G Es) as (j & t & Ej & Ht).
      destruct (remove_clause_ok cfg orc F q st c I) as (s1 & E1 & I1 & F1 & _); [exists cl; auto | | auto |].
      { right. exists j, t. rewrite Ed, El. auto. }
      rewrite E1. cbn [rbind]. assert (Lists : s_lim s1 = [] /\ s_clauses s1 = s_clauses st /\ s_learnts s1 = s_learnts st) by (destruct F1 as (W & A & R & -> & _); ssimp; auto).
      destruct Lists as (L1 & L2 & L3). destruct (IH s1 I1 L1) as (k & s & E2 & I2 & F2 & K2). { intros c' Hc'. rewrite L2, L3. apply Hc. right. auto. }
      exists k, s. split; auto. split; auto. split; [eapply rframe_trans; eauto |]. intros c' Hc'. right. auto.
    + set (d := if g_proof cfg then c_data cl else shrink (length (c_data cl)) st (c_data cl) 2).
      assert (Hd : 2 <= length d /\ NoDup d /\ nth_error d 0 = nth_error (c_data cl) 0 /\ nth_error d 1 = nth_error (c_data cl) 1 /\ (forall l, In l d -> In l (c_data cl)) /\
        (forall l, In l (c_data cl) -> In l d \/ is_false (value st l) = true)).
      { unfold d. destruct (g_proof cfg); [repeat split; auto; apply G |]. apply shrink_ok; auto; apply G. }
      destruct Hd as (D1 & D2 & D3 & D4 & D5 & D6).
      pose proof (set_data_shrink F q st c cl d I El Ec G D1 D2 D3 D4 D5 D6) as I1.
      destruct (IH (set_data c d st) I1) as (k & s & E2 & I2 & F2 & K2); auto. { intros c' Hc'. apply Hc. right. auto. }
      rewrite E2. cbn [rbind]. exists (c :: k), s. split; auto. split; auto. split.
      * eapply rframe_trans; [| exact F2]. exists (s_watches st), (upd (s_arena st) c (mkCl d (c_learnt (cl_at st c)))), (s_reasons st). split; [destruct st; reflexivity |].
        split; [apply upd_length |]. split; auto. intros x. apply learnt_upd.
      * intros c' [<- | Hc']; [left; auto | right; auto].
Qed.
(** What simplification changes. *)
Definition dframe (st s : solver) : Prop := exists W A R L C h, s = set_heap h (set_clauses C (set_learnts L (set_watches W (set_arena A (set_reasons R st))))) /\
  (forall c, c_learnt (nth c A dcl) = c_learnt (nth c (s_arena st) dcl)) /\ (s_lim st <> [] -> R = s_reasons st) /\ (forall c, In c L -> In c (s_learnts st)).
Lemma remove_satisfied_ok : forall cfg orc F q st, inv F q st -> s_lim st = [] -> exists s, remove_satisfied cfg orc st = Ok s /\ inv F q s /\ dframe st s.
Proof.
  intros cfg orc F q st I El. unfold remove_satisfied.
  destruct (remove_satisfied_gen_ok cfg orc F q (s_learnts st) st I El) as (k & s & E & I1 & F1 & K1); [auto |]. rewrite E. cbn [rbind]. cbn zeta.
  assert (Ls : s_lim s = [] /\ s_clauses s = s_clauses st /\ s_learnts s = s_learnts st) by (destruct F1 as (W & A & R & -> & _); ssimp; auto).
  destruct Ls as (L1 & L2 & L3).
  assert (I2 : inv F q (set_learnts k s)).
  { eapply inv_same; eauto. intros c. ssimp. intros [H | H]; auto. rewrite L3. auto. }
  destruct (g_remove_satisfied cfg).
  - destruct (remove_satisfied_gen_ok cfg orc F q (s_clauses (set_learnts k s)) (set_learnts k s) I2 L1) as (k2 & s2 & E2 & I3 & F3 & K3); [auto |].
    rewrite E2. cbn [rbind]. eexists. split; [reflexivity |]. assert (C2 : s_clauses s2 = s_clauses st /\ s_learnts s2 = k) by (destruct F3 as (W & A & R & -> & _); ssimp; auto).
    destruct C2 as [C2 C3]. split.
    + eapply inv_same; eauto. intros c. ssimp. rewrite C2, C3. intros [H | H]; auto. left. apply K3 in H. ssimp in H. now rewrite L2 in H.
    + destruct F1 as (W & A & R & -> & H1 & H2 & H3), F3 as (W' & A' & R' & -> & H4 & H5 & H6). ssimp in *. exists W', A', R', k, k2, (s_heap st).
      split; [destruct st; reflexivity |]. split; [intros c; now rewrite H5, H2 |]. split; [intros N; rewrite H6, H3; auto | auto].
  - eexists. split; [reflexivity |]. split; auto. destruct F1 as (W & A & R & -> & H1 & H2 & H3). ssimp in *. exists W, A, R, k, (s_clauses st), (s_heap st).
    split; [destruct st; reflexivity | auto].
Qed.
Lemma rebuild_ok : forall F q st, inv F q st -> exists h, rebuild_order_heap st = Ok (set_heap h st) /\ inv F q (set_heap h st).
Proof.
  intros F q st I. unfold rebuild_order_heap. set (ns := filter _ _). destruct (i_h _ _ _ I) as (H1 & H2 & H3).
  assert (Hn : forall n, In n ns <-> n < length (s_vars st) /\ v_asg (var_at st n) = None).
  { intros n. unfold ns. rewrite filter_In, in_seq, andb_true_iff. split.
    - intros (A & B & C). split; [lia |]. destruct (v_asg (var_at st n)); [discriminate | auto].
    - intros (A & B). split; [lia |]. split; [apply (z_dec _ (i_sz _ _ _ I)); auto | now rewrite B]. }
  rewrite <- (z_a _ (i_sz _ _ _ I)) in H1. destruct (hok_build (s_acts st) (s_heap st) ns H1) as (h & E & A & B & C).
  - unfold ns. apply NoDup_filter, seq_NoDup.
  - intros n Hn'. apply Hn in Hn'. rewrite (z_a _ (i_sz _ _ _ I)). lia.
  - rewrite E. cbn [rbind]. exists h. split; auto. apply heap_change; auto. rewrite (z_a _ (i_sz _ _ _ I)) in A. split; auto. split; [lia |]. intros v Hv Na. apply B, Hn. auto.
Qed.

(** ** Reducing the learnt clauses *)
Lemma verify_ok : forall F q st, inv F q st -> verify_watches st = true.
Proof.
  intros F q st I. unfold verify_watches. apply forallb_forall. intros i Hi. apply in_seq in Hi. apply forallb_forall. intros [c b] Hw.
  destruct (i_w _ _ _ I i (wlist st i)) as [_ K]; [unfold wlist; apply nth_err_def; lia |]. destruct (K c b Hw) as (cl & A & G & Wb & _). cbn [fst].
  unfold cl_at. rewrite (nth_of_some _ _ _ _ dcl A). pose proof (gc_len _ _ _ G). destruct (c_data cl) as [| a [| a' r]]; try (cbn in H; lia).
  unfold watched_by in Wb. cbn in Wb. apply orb_true_iff. destruct Wb as [E | E]; inversion E; [left | right]; apply Nat.eqb_refl.
Qed.
Lemma reduce_loop_ok : forall cfg orc F q cs i st, inv F q st -> (forall c, In c cs -> In c (s_learnts st)) -> (forall c, In c (s_learnts st) -> c_learnt (nth c (s_arena st) dcl) = true) ->
  exists k s, reduce_loop cfg orc i cs st = Ok (k, s) /\ inv F q s /\ rframe st s /\ (forall c, In c k -> In c cs).
Proof.
  intros cfg orc F q. induction cs as [| c r IH]; intros i st I Hc HL; cbn [reduce_loop].
  - exists [], st. split; auto. split; auto. split; [apply rframe_refl | auto].
  - pose proof (Hc c (or_introl eq_refl)) as Hcl. destruct (i_v _ _ _ I c (or_intror Hcl)) as (cl & Ec & G). assert (Ed : c_data (cl_at st c) = c_data cl) by (unfold cl_at; now rewrite (nth_of_some _ _ _ _ dcl Ec)).
    assert (El : exists b, locked cfg orc st c = Ok b). { unfold locked. rewrite Ed. pose proof (gc_len _ _ _ G). destruct (c_data cl); [cbn in H; lia | eauto]. }
    destruct El as (b & El). rewrite El. cbn [rbind]. rewrite Ed.
    assert (Keep : exists k s, rbind (reduce_loop cfg orc (S i) r st) (fun pat => let '(k, st1) := pat in Ok (c :: k, st1)) = Ok (k, s) /\ inv F q s /\ rframe st s /\ (forall c', In c' k -> In c' (c :: r))).
    { destruct (IH (S i) st I) as (k & s & E & I2 & F2 & K2); auto. { intros; apply Hc; right; auto. }
      rewrite E. cbn [rbind]. exists (c :: k), s. repeat (split; [auto |]). intros c' [<- | H]; [left; auto | right; auto]. }
    destruct ((2 <? length (c_data cl)) && negb b && o_drop orc (s_tick st) i) eqn:Eb; [| exact Keep].
    apply andb_true_iff in Eb. destruct Eb as [Eb _]. apply andb_true_iff in Eb. destruct Eb as [_ Eb]. destruct b; [discriminate |].
    destruct (remove_clause_ok cfg orc F q st c I) as (s1 & E1 & I1 & F1 & A1); [exists cl; auto | left; unfold cl_at; auto | right; auto |].
    rewrite E1. cbn [rbind]. assert (L1 : s_learnts s1 = s_learnts st) by (destruct F1 as (W & A & R & -> & _); reflexivity).
    destruct (IH (S i) s1 I1) as (k & s & E & I2 & F2 & K2).
    { intros c' H. rewrite L1. apply Hc. right. auto. }
    { intros c' H. rewrite A1. apply HL. now rewrite <- L1. }
    exists k, s. split; auto. split; auto. split; [eapply rframe_trans; eauto |]. intros c' H. right. auto.
Qed.
Definition sorting (orc : oracle) : Prop := forall t l, Permutation (o_sort orc t l) l.
Lemma reduce_db_ok : forall cfg orc F q st, sorting orc -> inv F q st -> (forall c, In c (s_learnts st) -> c_learnt (nth c (s_arena st) dcl) = true) ->
  exists s, reduce_db cfg orc st = Ok s /\ inv F q s /\ dframe (tickup st) s.
Proof.
  intros cfg orc F q st So I HL. unfold reduce_db. rewrite (verify_ok F q st I). cbn [negb]. cbn zeta.
  set (st1 := tickup (set_learnts (o_sort orc (s_tick st) (s_learnts st)) st)).
  assert (I1 : inv F q st1).
  { unfold st1, tickup. eapply inv_same; eauto. intros c. ssimp. intros [H | H]; auto. right. eapply Permutation_in; [apply So | exact H]. }
  rewrite (verify_ok F q st1 I1). cbn [negb]. destruct (reduce_loop_ok cfg orc F q (s_learnts st1) 0 st1 I1) as (k & s & E & I2 & F2 & K2); auto.
  { intros c Hc. apply HL. eapply Permutation_in; [apply So | exact Hc]. }
  rewrite E. cbn [rbind]. eexists. split; [reflexivity |]. destruct F2 as (W & A & R & -> & H1 & H2 & H3). split.
  - eapply inv_same; eauto. intros c. ssimp. intros [H | H]; auto.
  - exists W, A, R, k, (s_clauses st), (s_heap st). split; [destruct st; reflexivity |]. split; [exact H2 |]. split; [exact H3 |].
    intros c Hc. apply K2 in Hc. eapply Permutation_in; [apply So | exact Hc].
Qed.
