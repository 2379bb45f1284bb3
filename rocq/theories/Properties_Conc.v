(** C43, C44: the append-only vector and the formula caches under concurrency.

    A schedule is an arbitrary list of actions of arbitrarily many threads; [run] executes it on the release/acquire memory of
    [ConcModel] and collects the events (newest first).  [Bad] stands for a data race, the use of a null pointer or uninitialised
    memory, an access outside of a block, or overwriting a slot. *)
From Coq Require Import List Arith NArith Bool Lia.
From Verif Require Import EncodingModel EncodingProofs Properties_Encoding ConcModel ConcProofs ConcCache.
Import ListNotations.
Local Open Scope nat_scope.

Section Main.
  Variables (T K : Type) (key : T -> K) (keyb : K -> K -> bool) (shard : K -> nat).
  Hypothesis keyb_ok : forall a b, keyb a b = true <-> a = b.
  Notation run := (run T K key keyb shard).
  Notation exec := (exec T K key keyb shard).
  Notation inv := (inv T K key keyb shard).

  Lemma run_inv : forall l, match run l with Disabled => True | Bad => False | Next s tr => inv s tr end.
  Proof.
    induction l as [| a r IH]; cbn [ConcModel.run]; [apply inv_init |]. destruct (run r) as [| | s tr]; auto. pose proof (exec_safe T K key keyb shard keyb_ok s tr a IH) as H. destruct (exec s a); auto.
  Qed.
  (** Dead threads stay dead, and panics need an index beyond the last bin. *)
  Definition pinv (s : state T K) (tr : list (event T)) : Prop :=
    (forall t, In (EPushPanic t) tr -> exists i, pcs s t = Dead i) /\ (forall t i, pcs s t = Dead i -> BINS <= bin i).
  Lemma dead_stays : forall s a s' ev, exec s a = Next s' ev ->
    (forall t i, pcs s t = Dead i -> pcs s' t = Dead i) /\ (forall t, In (EPushPanic t) ev -> exists i, pcs s' t = Dead i) /\ (forall t i, pcs s' t = Dead i -> pcs s t = Dead i \/ BINS <= bin i).
  Proof.
    assert (Q : forall (s s' : state T K) t p, pcs s' = upd (pcs s) t p -> (forall i, pcs s t <> Dead i) -> (forall i, p <> Dead i) ->
      (forall u i, pcs s u = Dead i -> pcs s' u = Dead i) /\ (forall u i, pcs s' u = Dead i -> pcs s u = Dead i \/ BINS <= bin i)).
    { intros s s' t p E N1 N2. split; intros u i; rewrite E; destruct (upd_cases _ (pcs s) t p u) as [[-> ->] | [N ->]]; auto; intros H; exfalso; [eapply N1 | eapply N2]; eauto. }
    assert (Dd : forall s t c v idx s' ev, die T K key shard s t c v idx = Next s' ev -> BINS <= bin idx -> (forall i, pcs s t <> Dead i) ->
      (forall u i, pcs s u = Dead i -> pcs s' u = Dead i) /\ (forall u, In (EPushPanic u) ev -> exists i, pcs s' u = Dead i) /\ (forall u i, pcs s' u = Dead i -> pcs s u = Dead i \/ BINS <= bin i)).
    { intros s t c v idx s' ev E B N. unfold die in E. inversion E; subst; clear E.
      assert (E : pcs (goto (if c then unlock T K key shard s t v else s) t (Dead idx) (views s t)) = upd (pcs s) t (Dead idx)) by (destruct c; reflexivity). rewrite E. split; [| split].
      - intros u i. destruct (upd_cases _ (pcs s) t (Dead idx) u) as [[-> ->] | [N' ->]]; auto. intros H. destruct (N i H).
      - intros u [H | []]. inversion H; subst. exists idx. apply upd_same.
      - intros u i. destruct (upd_cases _ (pcs s) t (Dead idx) u) as [[-> ->] | [N' ->]]; auto. intros H. inversion H; subst. auto. }
    assert (F : forall (s s' : state T K) t p (ev : list (event T)), (forall i, pcs s t <> Dead i) -> pcs s' = upd (pcs s) t p -> (forall i, p <> Dead i) -> (forall u, ~ In (EPushPanic u) ev) ->
      (forall u i, pcs s u = Dead i -> pcs s' u = Dead i) /\ (forall u, In (EPushPanic u) ev -> exists i, pcs s' u = Dead i) /\ (forall u i, pcs s' u = Dead i -> pcs s u = Dead i \/ BINS <= bin i)).
    { intros s s' t p ev N1 E N2 N3. destruct (Q s s' t p E N1 N2) as [A B]. split; auto. split; auto. intros u H. destruct (N3 u H). }
    intros s [t o | t n] s' ev; cbn [ConcModel.exec].
    - unfold begin. cbv zeta. destruct (pcs s t) eqn:P; try discriminate. assert (ND : forall i, pcs s t <> Dead i) by (intros i; rewrite P; discriminate).
      destruct o; [| | destruct (may_read s t n); [| discriminate] | | | |]; intros E; inversion E; subst; clear E;
        try (eapply (F s); [exact ND | reflexivity | discriminate | cbn; intuition discriminate]).
      cbn [pcs]. split; auto. split; auto. cbn. intuition discriminate.
    - unfold step. cbv zeta. destruct (pcs s t) as [| | c v p | i | i | i blk | e | e | e | e idx] eqn:P; try discriminate; assert (ND : forall i, pcs s t <> Dead i) by (intros; rewrite P; discriminate).
      + unfold push_step. cbv zeta. destruct p as [| idx | idx | idx | idx blk | idx]; rewrite ?(indices_eq idx).
        * intros E. inversion E; subst; clear E. eapply (F s); [exact ND | reflexivity | discriminate | easy].
        * destruct (may_read s t n); [| discriminate]. intros E. inversion E; subst; clear E. eapply (F s); [exact ND | reflexivity | discriminate | easy].
        * destruct (Nat.ltb_spec (bin idx) BINS) as [B | B]; [| intros E; eapply Dd; eauto]. destruct (data s (bin idx)); [discriminate |]. intros E. inversion E; subst; clear E. eapply (F s); [exact ND | reflexivity | discriminate | easy].
        * destruct (Nat.ltb_spec (bin idx) BINS) as [B | B]; [| intros E; eapply Dd; eauto]. destruct (data s (bin idx)); [| discriminate]. destruct (vdata (views s t) (bin idx)); [| discriminate]. intros E. inversion E; subst; clear E. eapply (F s); [exact ND | reflexivity | discriminate | easy].
        * destruct (off idx <? sizes s blk); [| discriminate]. destruct (heap s blk (off idx)); [discriminate |]. intros E. inversion E; subst; clear E. eapply (F s); [exact ND | reflexivity | discriminate | easy].
        * destruct (may_read s t n); [| discriminate]. destruct (n =? idx).
          -- destruct (n =? latest s); [| discriminate]. intros E. inversion E; subst; clear E. eapply (F s); [exact ND | reflexivity | destruct c; discriminate | cbn; intuition discriminate].
          -- intros E. inversion E; subst; clear E. eapply (F s); [exact ND | reflexivity | discriminate | easy].
      + destruct (may_read s t n); [| discriminate]. destruct (i <? n); intros E; inversion E; subst; clear E; (eapply (F s); [exact ND | reflexivity | discriminate | cbn; intuition discriminate]).
      + rewrite indices_eq. destruct (data s (bin i)); [| discriminate]. destruct (vdata (views s t) (bin i) && (bin i <? BINS)); [| discriminate]. intros E. inversion E; subst; clear E. eapply (F s); [exact ND | reflexivity | discriminate | easy].
      + rewrite indices_eq. destruct (off i <? sizes s blk); [| discriminate]. destruct (heap s blk (off i)); [| discriminate]. destruct (vcell (views s t) blk (off i)); [| discriminate]. intros E. inversion E; subst; clear E. eapply (F s); [exact ND | reflexivity | discriminate | cbn; intuition discriminate].
      + destruct (locks s (shard (key e))); [discriminate |]. destruct (assoc K keyb (key e) (dmap s)); intros E; inversion E; subst; clear E; (eapply (F s); [exact ND | reflexivity | discriminate | cbn; intuition discriminate]).
      + destruct (locks s (shard (key e))); [discriminate |]. intros E; inversion E; subst; clear E. eapply (F s); [exact ND | reflexivity | discriminate | easy].
      + destruct (assoc K keyb (key e) (dmap s)); intros E; inversion E; subst; clear E; (eapply (F s); [exact ND | reflexivity | discriminate | cbn; intuition discriminate]).
      + intros E; inversion E; subst; clear E. eapply (F s); [exact ND | reflexivity | discriminate | cbn; intuition discriminate].
  Qed.
  Lemma run_pinv : forall l s tr, run l = Next s tr -> pinv s tr.
  Proof.
    induction l as [| a r IH]; intros s tr; cbn [ConcModel.run]; [intros E; inversion E; subst; split; [easy | intros t i H; discriminate H] |]. destruct (run r) as [| | s0 tr0]; try discriminate. destruct (IH s0 tr0 eq_refl) as [P1 P2].
    destruct (exec s0 a) as [| | s1 ev] eqn:E; try discriminate. intros H. inversion H; subst; clear H. destruct (dead_stays s0 a s ev E) as (D1 & D2 & D3). split.
    - intros t H. apply in_app_or in H. destruct H as [H | H]; auto. destruct (P1 t H) as [i Hi]. eauto.
    - intros t i H. destruct (D3 t i H); eauto.
  Qed.

  (** A measure of the remaining steps of an operation. *)
  Definition rank (p : pc T) : nat :=
    match p with
    | Idle | Dead _ => 0
    | Insert _ _ => 1
    | Push _ _ (Publishing _) => 2 | Push _ _ (Writing _ _) => 3 | Push _ _ (Reading _) => 4 | Push _ _ (Allocating _) => 4 | Push _ _ (Loading _) => 5 | Push _ _ Reserving => 6
    | Lookup _ => 7 | Lock _ => 8 | Fast _ => 9
    | Idx3 _ _ => 1 | Idx2 _ => 2 | Idx1 _ => 3
    end.
  Definition advances (s : state T K) (t : nat) : Prop := exists n s' ev, exec s (Step t n) = Next s' ev /\ rank (pcs s' t) < rank (pcs s t) /\ forall u, u <> t -> pcs s' u = pcs s u.
  Lemma adv : forall s t n p s' ev, exec s (Step t n) = Next s' ev -> pcs s' = upd (pcs s) t p -> rank p < rank (pcs s t) -> advances s t.
  Proof. intros s t n p s' ev E P R. exists n, s', ev. split; auto. rewrite P. split; [now rewrite upd_same |]. intros u N. now rewrite upd_other. Qed.
  Lemma may_latest : forall s tr t, ginv T K s tr -> may_read s t (latest s) = true.
  Proof. intros s tr t G. unfold may_read. pose proof (g_vc _ _ _ _ G t). apply andb_true_iff. split; apply Nat.leb_le; lia. Qed.
  Lemma step_advances : forall s tr t, inv s tr -> pcs s t <> Idle -> (forall i, pcs s t <> Dead i) -> (forall i, pidx T (pcs s t) = Some i -> i = latest s) ->
    (forall e, pcs s t = Fast e \/ pcs s t = Lock e -> locks s (shard (key e)) = None) -> advances s t.
  Proof.
    intros s tr t I N1 N2 N3 N4. pose proof I as (G & C & A). pose proof (may_latest s tr t G) as M. pose proof (exec_safe T K key keyb shard keyb_ok s tr (Step t (latest s)) I) as Sf.
    destruct (exec s (Step t (latest s))) as [| | s' ev] eqn:E; cbn [safe] in Sf; [| contradiction |]; cbn [ConcModel.exec] in E; unfold step in E; cbv zeta in E.
    - exfalso. destruct (pcs s t) as [| | c v p | i | i | i blk | e | e | e | e idx] eqn:P; try congruence; try (eapply N2; reflexivity).
      + unfold push_step in E. cbv zeta in E. destruct p as [| idx | idx | idx | idx blk | idx]; rewrite ?(indices_eq idx), ?M in E; try discriminate.
        * destruct (bin idx <? BINS); [destruct (data s (bin idx)) |]; discriminate.
        * destruct (bin idx <? BINS); [destruct (data s (bin idx)); [destruct (vdata (views s t) (bin idx)) |] |]; discriminate.
        * destruct (off idx <? sizes s blk); [destruct (heap s blk (off idx)) |]; discriminate.
        * rewrite (N3 idx eq_refl), !Nat.eqb_refl in E. discriminate.
      + rewrite M in E. destruct (i <? latest s); discriminate.
      + rewrite indices_eq in E. destruct (data s (bin i)); [destruct (vdata (views s t) (bin i) && (bin i <? BINS)) |]; discriminate.
      + rewrite indices_eq in E. destruct (off i <? sizes s blk); [destruct (heap s blk (off i)); [destruct (vcell (views s t) blk (off i)) |] |]; discriminate.
      + rewrite (N4 e) in E by auto. destruct (assoc K keyb (key e) (dmap s)); discriminate.
      + rewrite (N4 e) in E by auto. discriminate.
      + destruct (assoc K keyb (key e) (dmap s)); discriminate.
    - pose proof E as E0. change (exec s (Step t (latest s)) = Next s' ev) in E0 || idtac.
      assert (E1 : exec s (Step t (latest s)) = Next s' ev) by (cbn [ConcModel.exec]; unfold step; cbv zeta; exact E).
      destruct (pcs s t) as [| | c v p | i | i | i blk | e | e | e | e idx] eqn:P; try discriminate.
      + unfold push_step in E. cbv zeta in E. destruct p as [| idx | idx | idx | idx blk | idx]; rewrite ?(indices_eq idx), ?M in E; try discriminate.
        * inversion E; subst. eapply adv; [exact E1 | reflexivity | rewrite P; cbn; lia].
        * assert (Q : advances s t); [| exact Q]. destruct (sub_off idx) as [S1 S2]. pose proof (N3 idx eq_refl) as Hi. destruct (Nat.ltb_spec (latest s) (1 + idx - off idx)) as [H | H].
          -- destruct (Nat.eqb_spec (off idx) 0) as [Z | Z]; [| lia]. inversion E; subst s' ev. eapply adv; [exact E1 | reflexivity | rewrite P; cbn; lia].
          -- inversion E; subst s' ev. eapply adv; [exact E1 | reflexivity | rewrite P; cbn; lia].
        * destruct (bin idx <? BINS); [destruct (data s (bin idx)); [discriminate |] |].
          -- inversion E; subst s' ev. eapply adv; [exact E1 | reflexivity | rewrite P; cbn; lia].
          -- unfold die in E. inversion E; subst s' ev. eapply (adv s t (latest s) (Dead idx)); [exact E1 | destruct c; reflexivity | rewrite P; cbn; lia].
        * destruct (bin idx <? BINS); [destruct (data s (bin idx)); [destruct (vdata (views s t) (bin idx)); [| discriminate] | discriminate] |].
          -- inversion E; subst s' ev. eapply adv; [exact E1 | reflexivity | rewrite P; cbn; lia].
          -- unfold die in E. inversion E; subst s' ev. eapply (adv s t (latest s) (Dead idx)); [exact E1 | destruct c; reflexivity | rewrite P; cbn; lia].
        * destruct (off idx <? sizes s blk); [destruct (heap s blk (off idx)) |]; try discriminate. inversion E; subst s' ev. eapply adv; [exact E1 | reflexivity | rewrite P; cbn; lia].
        * rewrite (N3 idx eq_refl), !Nat.eqb_refl in E. inversion E; subst s' ev. eapply adv; [exact E1 | reflexivity | rewrite P; destruct c; cbn; lia].
      + rewrite M in E. destruct (i <? latest s); inversion E; subst s' ev; (eapply adv; [exact E1 | reflexivity | rewrite P; cbn; lia]).
      + rewrite indices_eq in E. destruct (data s (bin i)); [destruct (vdata (views s t) (bin i) && (bin i <? BINS)) |]; try discriminate. inversion E; subst s' ev. eapply adv; [exact E1 | reflexivity | rewrite P; cbn; lia].
      + rewrite indices_eq in E. destruct (off i <? sizes s blk); [destruct (heap s blk (off i)); [destruct (vcell (views s t) blk (off i)) |] |]; try discriminate. inversion E; subst s' ev. eapply adv; [exact E1 | reflexivity | rewrite P; cbn; lia].
      + destruct (locks s (shard (key e))); [discriminate |]. destruct (assoc K keyb (key e) (dmap s)); inversion E; subst s' ev; (eapply adv; [exact E1 | reflexivity | rewrite P; cbn; lia]).
      + destruct (locks s (shard (key e))); [discriminate |]. inversion E; subst s' ev. eapply adv; [exact E1 | reflexivity | rewrite P; cbn; lia].
      + destruct (assoc K keyb (key e) (dmap s)); inversion E; subst s' ev; (eapply adv; [exact E1 | reflexivity | rewrite P; cbn; lia]).
      + inversion E; subst s' ev. eapply adv; [exact E1 | reflexivity | rewrite P; cbn; lia].
  Qed.
End Main.

(** * C43 *)
(** No schedule leads to a data race or another memory error. *)
Theorem C43_no_race : forall T K (key : T -> K) keyb shard, (forall a b, keyb a b = true <-> a = b) -> forall l, run T K key keyb shard l <> Bad.
Proof. intros T K key keyb shard H l E. pose proof (run_inv T K key keyb shard H l) as I. rewrite E in I. exact I. Qed.
Print Assumptions C43_no_race.
(** Two pushes never return the same index. *)
Theorem C43_distinct : forall T K (key : T -> K) keyb shard, (forall a b, keyb a b = true <-> a = b) -> forall l s tr, run T K key keyb shard l = Next s tr ->
  forall a b t v i, tr = a ++ EPush t v i :: b -> forall u v', ~ In (EPush u v' i) (a ++ b).
Proof.
  intros T K key keyb shard H l s tr E a b t v i Et u v' Hi. pose proof (run_inv T K key keyb shard H l) as I. rewrite E in I. destruct I as (G & _). pose proof (g_nodup _ _ _ _ G) as N. subst tr.
  assert (P : pushed T (a ++ EPush t v i :: b) = pushed T a ++ i :: pushed T b). { clear. induction a as [| e a IH]; [reflexivity |]. cbn [app pushed]. destruct e; cbn [app]; congruence. }
  rewrite P in N. apply NoDup_remove_2 in N. apply N. assert (Q : forall w, In (EPush u v' i) w -> In i (pushed T w)). { induction w as [| e w IH]; [easy |]. intros [-> | Hw]; [now left |]. cbn [pushed]. destruct e; auto. right. auto. }
  apply in_app_or in Hi. apply in_or_app. destruct Hi; auto.
Qed.
Print Assumptions C43_distinct.
(** Reading an index gives the value whose push returned the index, at any time. *)
Theorem C43_read : forall T K (key : T -> K) keyb shard, (forall a b, keyb a b = true <-> a = b) -> forall l s tr, run T K key keyb shard l = Next s tr ->
  (forall a b t i v, tr = a ++ EIndex t i v :: b -> exists u, In (EPush u v i) b) /\
  (forall t u i v v', In (EPush u v i) tr -> In (EIndex t i v') tr -> v' = v).
Proof.
  intros T K key keyb shard H l s tr E. pose proof (run_inv T K key keyb shard H l) as I. rewrite E in I. destruct I as (G & _ & A). split; [apply (t_index _ _ _ _ A) |].
  intros t u i v v' H1 H2. apply in_split in H2. destruct H2 as (a & b & E2). destruct (t_index _ _ _ _ A _ _ _ _ _ E2) as [u' H3]. assert (H4 : In (EPush u' v' i) tr) by (subst tr; apply in_or_app; right; now right).
  destruct (g_push _ _ _ _ G _ _ _ H1) as (_ & _ & blk & D1 & _ & V1). destruct (g_push _ _ _ _ G _ _ _ H4) as (_ & _ & blk' & D2 & _ & V2). congruence.
Qed.
Print Assumptions C43_read.
(** An index is readable for the thread whose push returned it, and for every thread that has synchronised with it since
    ([aware]); [len] covers all these indices, and only indices of finished pushes. *)
Theorem C43_available : forall T K (key : T -> K) keyb shard, (forall a b, keyb a b = true <-> a = b) -> forall l s tr, run T K key keyb shard l = Next s tr ->
  (forall a b t i, tr = a ++ EIndexPanic t i :: b -> ~ aware T b (Th t) i) /\
  (forall a b t n, tr = a ++ ELen t n :: b -> (forall i, aware T b (Th t) i -> i < n) /\ (forall i, i < n -> exists u v, In (EPush u v i) b)).
Proof. intros T K key keyb shard H l s tr E. pose proof (run_inv T K key keyb shard H l) as I. rewrite E in I. destruct I as (G & _ & A). split; [apply (t_panic _ _ _ _ A) | apply (t_len _ _ _ _ A)]. Qed.
Print Assumptions C43_available.
(** When no operation is running, the indices are exactly those below the number of pushes. *)
Theorem C43_quiescent : forall T K (key : T -> K) keyb shard, (forall a b, keyb a b = true <-> a = b) -> forall l s tr, run T K key keyb shard l = Next s tr ->
  (forall t, pcs s t = Idle) -> forall i, i < reserved s <-> exists t v, In (EPush t v i) tr.
Proof.
  intros T K key keyb shard H l s tr E Id i. pose proof (run_inv T K key keyb shard H l) as I. rewrite E in I. destruct I as (G & _ & A). pose proof (g_res _ _ _ _ G). split.
  - intros Hi. destruct (le_lt_dec (latest s) i) as [L | L]; [destruct (g_own _ _ _ _ G i (conj L Hi)) as [t Ht]; rewrite Id in Ht; discriminate |]. destruct (g_val _ _ _ _ G i L) as (v & t & _ & Hin). eauto.
  - intros (t & v & Hin). destruct (g_push _ _ _ _ G _ _ _ Hin). lia.
Qed.
Print Assumptions C43_quiescent.
(** The spin loops and locks never block all threads: as long as an operation is running (and no push has panicked) some thread
    can finish a step of its operation. *)
Theorem C43_progress : forall T K (key : T -> K) keyb shard, (forall a b, keyb a b = true <-> a = b) -> forall l s tr, run T K key keyb shard l = Next s tr ->
  (forall t i, pcs s t <> Dead i) -> (exists t, pcs s t <> Idle) ->
  exists t n s' ev, exec T K key keyb shard s (Step t n) = Next s' ev /\ rank T (pcs s' t) < rank T (pcs s t) /\ forall u, u <> t -> pcs s' u = pcs s u.
Proof.
  intros T K key keyb shard H l s tr E Nd [t Ht]. pose proof (run_inv T K key keyb shard H l) as I. rewrite E in I. pose proof I as (G & C & A). assert (Q : exists t, advances T K key keyb shard s t); [| destruct Q as (u & n & s' & ev & Q); exists u, n, s', ev; exact Q].
  destruct (Nat.eq_dec (latest s) (reserved s)) as [Eq | Ne].
  - assert (Np : forall u i, pidx T (pcs s u) <> Some i). { intros u i Hp. apply (g_idx _ _ _ _ G) in Hp. lia. }
    assert (L : (exists e, (pcs s t = Fast e \/ pcs s t = Lock e) /\ locks s (shard (key e)) <> None) \/ (forall e, pcs s t = Fast e \/ pcs s t = Lock e -> locks s (shard (key e)) = None)).
    { destruct (pcs s t) as [| | | | | | e | e | |]; try (right; intros e' [K' | K']; discriminate K'); (destruct (locks s (shard (key e))) eqn:Lk; [left; exists e; split; auto; congruence | right; intros e' [K' | K']; inversion K'; subst; exact Lk]). }
    destruct L as [(e & _ & Lk) | L].
    + destruct (locks s (shard (key e))) as [u |] eqn:Lu; [| congruence]. destruct (c_held _ _ _ _ _ _ _ C u _ Lu) as (e' & Hh & _). exists u. apply (step_advances T K key keyb shard H s tr u I); auto.
      * intros K'. rewrite K' in Hh. exact Hh.
      * intros i K'. destruct (Np _ _ K').
      * intros e2 [K' | K']; rewrite K' in Hh; destruct Hh.
    + exists t. apply (step_advances T K key keyb shard H s tr t I); auto. intros i K'. destruct (Np _ _ K').
  - pose proof (g_res _ _ _ _ G) as Rs. destruct (g_own _ _ _ _ G (latest s)) as [u Hu]; [lia |]. exists u. apply (step_advances T K key keyb shard H s tr u I); auto.
    + intros K'. rewrite K' in Hu. discriminate.
    + intros i K'. congruence.
    + intros e [K' | K']; rewrite K' in Hu; discriminate.
Qed.
Print Assumptions C43_progress.
Lemma bins_bound : forall i, BINS <= bin i <-> (2 ^ 47 <= N.of_nat i + 8)%N.
Proof.
  intros i. destruct (bin_spec i) as [A B]. unfold bin_size in *.
  assert (E : N.of_nat (2 ^ bin i) = (2 ^ N.of_nat (bin i))%N) by apply Nnat.Nat2N.inj_pow.
  assert (A' : (N.of_nat i + 8 = 8 * 2 ^ N.of_nat (bin i) + N.of_nat (off i))%N) by lia. assert (B' : (N.of_nat (off i) < 8 * 2 ^ N.of_nat (bin i))%N) by lia. split; intros H.
  - assert (Q : (2 ^ 44 <= 2 ^ N.of_nat (bin i))%N) by (apply N.pow_le_mono_r; unfold BINS in H; lia). change (2 ^ 47)%N with (8 * 2 ^ 44)%N. lia.
  - destruct (le_lt_dec BINS (bin i)); auto. exfalso. assert (Q : (2 ^ N.of_nat (bin i) <= 2 ^ 43)%N) by (apply N.pow_le_mono_r; unfold BINS in l; lia). change (2 ^ 47)%N with (16 * 2 ^ 43)%N in H. lia.
Qed.
(** A push panics only if the capacity of 2^47 - 8 elements is exhausted. *)
Theorem C43_capacity : forall T K (key : T -> K) keyb shard, (forall a b, keyb a b = true <-> a = b) -> forall l s tr, run T K key keyb shard l = Next s tr ->
  (N.of_nat (reserved s) + 8 <= 2 ^ 47)%N -> forall t, ~ In (EPushPanic t) tr.
Proof.
  intros T K key keyb shard H l s tr E Hr t Hi. pose proof (run_inv T K key keyb shard H l) as I. rewrite E in I. destruct I as (G & _). destruct (run_pinv T K key keyb shard l s tr E) as [P1 P2]. destruct (P1 t Hi) as [i Hd]. pose proof (P2 t i Hd) as B. apply bins_bound in B.
  destruct (g_idx _ _ _ _ G t i); [rewrite Hd; reflexivity |]. lia.
Qed.
Print Assumptions C43_capacity.

(** * C44 *)
(** [EGot t e i]: [get_or_insert e] of thread [t] returned the handle with index [i].  Equal keys get the same index, different
    keys different ones. *)
Theorem C44_handles : forall T K (key : T -> K) keyb shard, (forall a b, keyb a b = true <-> a = b) -> forall l s tr, run T K key keyb shard l = Next s tr ->
  forall t u e e' i j, In (EGot t e i) tr -> In (EGot u e' j) tr -> key e = key e' <-> i = j.
Proof.
  intros T K key keyb shard H l s tr E t u e e' i j H1 H2. pose proof (run_inv T K key keyb shard H l) as I. rewrite E in I. destruct I as (G & C & A).
  pose proof (c_got _ _ _ _ _ _ _ C _ _ _ H1) as A1. pose proof (c_got _ _ _ _ _ _ _ C _ _ _ H2) as A2. split; [intros K'; congruence |]. intros <-.
  pose proof (assoc_in K keyb H _ _ _ A1) as B1. pose proof (assoc_in K keyb H _ _ _ A2) as B2. destruct (c_map _ _ _ _ _ _ _ C _ _ B1) as (_ & (v & (_ & b1 & D1 & _ & V1) & K1) & _). destruct (c_map _ _ _ _ _ _ _ C _ _ B2) as (_ & (v' & (_ & b2 & D2 & _ & V2) & K2) & _). congruence.
Qed.
Print Assumptions C44_handles.
(** The same for the encoded handles, formula_encoding.rs 157-182; indices never exceed the capacity of the vector. *)
Theorem C44_encoded : forall T K (key : T -> K) keyb shard, (forall a b, keyb a b = true <-> a = b) -> forall l s tr, run T K key keyb shard l = Next s tr ->
  forall t u e e' i j ty large, is_const_type ty = false -> In (EGot t e i) tr -> In (EGot u e' j) tr -> key e = key e' <-> encode (N.of_nat i) ty large = encode (N.of_nat j) ty large.
Proof.
  intros T K key keyb shard H l s tr E t u e e' i j ty large Hc H1 H2. rewrite (C44_handles T K key keyb shard H l s tr E t u e e' i j H1 H2). split; [intros ->; reflexivity |]. intros En.
  pose proof (run_inv T K key keyb shard H l) as I. rewrite E in I. destruct I as (G & C & A).
  assert (Bd : forall t e i, In (EGot t e i) tr -> (N.of_nat i < max_index)%N).
  { intros t0 e0 i0 Hg. pose proof (c_got _ _ _ _ _ _ _ C _ _ _ Hg) as A1. pose proof (assoc_in K keyb H _ _ _ A1) as B1. destruct (c_map _ _ _ _ _ _ _ C _ _ B1) as (_ & (v & (Bn & _) & _) & _).
    destruct (N.lt_ge_cases (N.of_nat i0 + 8) (2 ^ 47)) as [Lt | Ge]; [| apply bins_bound in Ge; lia]. unfold max_index. change (2 ^ 47)%N with 140737488355328%N in Lt. lia. }
  apply Nnat.Nat2N.inj. apply (C01_injective _ _ ty ty large large); eauto.
Qed.
Print Assumptions C44_encoded.
(** Looking up a handle gives an element with the key, and it never fails for a thread that got the handle, or that has
    synchronised with such a thread. *)
Theorem C44_lookup : forall T K (key : T -> K) keyb shard, (forall a b, keyb a b = true <-> a = b) -> forall l s tr, run T K key keyb shard l = Next s tr ->
  (forall t u e i v, In (EGot t e i) tr -> In (EIndex u i v) tr -> key v = key e) /\
  (forall a b t i, tr = a ++ EIndexPanic t i :: b -> ~ aware T b (Th t) i).
Proof.
  intros T K key keyb shard H l s tr E. pose proof (run_inv T K key keyb shard H l) as I. rewrite E in I. destruct I as (G & C & A). split; [| apply (t_panic _ _ _ _ A)].
  intros t u e i v H1 H2. apply in_split in H2. destruct H2 as (a & b & E2). destruct (t_index _ _ _ _ A _ _ _ _ _ E2) as [u' H3]. assert (H4 : In (EPush u' v i) tr) by (subst tr; apply in_or_app; right; now right).
  destruct (g_push _ _ _ _ G _ _ _ H4) as (_ & _ & b2 & D2 & _ & V2). pose proof (c_got _ _ _ _ _ _ _ C _ _ _ H1) as A1. pose proof (assoc_in K keyb H _ _ _ A1) as B1. destruct (c_map _ _ _ _ _ _ _ C _ _ B1) as (_ & (v' & (_ & b1 & D1 & _ & V1) & K1) & _). congruence.
Qed.
Print Assumptions C44_lookup.

(** * Examples *)
(** Elements are numbers, the key is the last digit, two shards. *)
Definition ekey (x : nat) : nat := x mod 10.
Definition eshard (k : nat) : nat := k mod 2.
Definition erun := run nat nat ekey Nat.eqb eshard.
Definition etrace (o : outcome nat nat) : option (list (event nat)) := match o with Next _ tr => Some tr | _ => None end.
Example ex_keyb : forall a b, Nat.eqb a b = true <-> a = b.
Proof. intros a b. apply Nat.eqb_eq. Qed.
Definition steps (t : nat) (ns : list nat) : list (action nat) := map (Step t) ns.
(** Thread 1 reserves index 1 and waits until thread 0, which was interrupted, has allocated the first block and published
    index 0; thread 2 reads both; an index that is not yet published panics. *)
Definition sched : list (action nat) := rev (
  [Begin 0 (OpPush 70); Begin 1 (OpPush 71)] ++ steps 0 [0] ++ steps 1 [0] ++ steps 1 [0; 0; 0] ++ [Begin 2 (OpIndex 0)] ++ steps 2 [0] ++
  steps 0 [0; 0; 0] ++ steps 1 [0] ++ steps 0 [0] ++ steps 1 [0; 1; 1; 1; 1] ++ [Begin 2 (OpIndex 1)] ++ steps 2 [2; 0; 0] ++ [Begin 2 (OpIndex 0)] ++ steps 2 [2; 0; 0] ++ [Begin 0 (OpLen 1); Begin 0 (OpLen 2)]).
Example ex_C43 : etrace (erun sched) = Some [ELen 0 2; ELen 0 1; EIndex 2 0 70; EIndex 2 1 71; EPush 1 71 1; EPush 0 70 0; EIndexPanic 2 0].
Proof. vm_compute. reflexivity. Qed.
(** Three threads insert keys 3, 3 and 4; a fourth one gets the handle by synchronisation and looks it up. *)
Definition sched2 : list (action nat) := rev (
  [Begin 0 (OpGet 13); Begin 1 (OpGet 23); Begin 2 (OpEntry 14)] ++ steps 0 [0] ++ steps 1 [0] ++ steps 2 [0; 0] ++ steps 1 [0; 0; 0] ++ steps 2 [0; 0; 0] ++ steps 1 [0; 0; 0; 0; 0] ++
  steps 2 [1; 1; 1; 1; 1] ++ steps 0 [1; 1] ++ [Begin 0 (OpSend 5); Begin 3 (OpRecv 5); Begin 3 (OpIndex 0)] ++ steps 3 [1; 0; 0] ++ [Begin 3 (OpGet 24); Step 3 0; Begin 3 (OpIndex 1)] ++ steps 3 [2; 0; 0]).
Example ex_C44 : etrace (erun sched2) = Some [EIndex 3 1 14; EGot 3 24 1; EIndex 3 0 23; ERecv 3 5; ESend 0 5; EGot 0 13 0; EGot 2 14 1; EPush 2 14 1; EGot 1 23 0; EPush 1 23 0].
Proof. vm_compute. reflexivity. Qed.
(** The indices around the boundary of a block. *)
Example ex_indices : map indices [0; 7; 8; 23; 24; 55; 56] = [(0, 0); (0, 7); (1, 0); (1, 15); (2, 0); (2, 31); (3, 0)].
Proof. vm_compute. reflexivity. Qed.
