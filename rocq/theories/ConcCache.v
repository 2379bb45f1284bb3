(** The caches on top of the append-only vector: invariants of the lock, the reverse map and the trace; every step is safe. *)
From Coq Require Import List Arith Bool Lia.
From Verif Require Import ConcModel ConcProofs.
Import ListNotations.
Local Open Scope nat_scope.

Inductive place := Th (t : nat) | Mb (m : nat).

Section Proofs.
  Variables (T K : Type) (key : T -> K) (keyb : K -> K -> bool) (shard : K -> nat).
  Hypothesis keyb_ok : forall a b, keyb a b = true <-> a = b.
  Notation state := (state T K).
  Notation pc := (pc T).
  Notation event := (event T).
  Notation assoc := (assoc K keyb).
  Notation ginv := (ginv T K).

  Definition holds (p : pc) (e : T) : Prop := match p with Push true v _ => v = e | Lookup v => v = e | Insert v _ => v = e | _ => False end.
  Definition inserting (p : pc) (e : T) : Prop := match p with Push true v _ => v = e | Insert v _ => v = e | _ => False end.
  Record cinv (s : state) (tr : list event) : Prop := mkC {
    c_lock : forall t e, holds (pcs s t) e -> locks s (shard (key e)) = Some t;
    c_held : forall t h, locks s h = Some t -> exists e, holds (pcs s t) e /\ shard (key e) = h;
    c_map : forall k i, In (k, i) (dmap s) -> i < latest s /\ (exists v, val_at T K s i v /\ key v = k) /\ i < vcount (lviews s (shard k));
    c_nodup : NoDup (map fst (dmap s));
    c_abs : forall t e, inserting (pcs s t) e -> assoc (key e) (dmap s) = None;
    c_view : forall t e, holds (pcs s t) e -> vcount (lviews s (shard (key e))) <= vcount (views s t);
    c_got : forall t e i, In (EGot t e i) tr -> assoc (key e) (dmap s) = Some i }.

  Lemma assoc_in : forall k m i, assoc k m = Some i -> In (k, i) m.
  Proof. intros k. induction m as [| [k' j] r IH]; cbn [ConcModel.assoc]; [discriminate |]. intros i. destruct (keyb k k') eqn:E; [intros H; inversion H; subst; left; apply keyb_ok in E; congruence | intros H; right; auto]. Qed.
  Lemma assoc_none : forall k m, assoc k m = None -> ~ In k (map fst m).
  Proof.
    intros k. induction m as [| [k' j] r IH]; cbn [ConcModel.assoc map fst]; [easy |]. destruct (keyb k k') eqn:E; [discriminate |]. intros H [<- | H']; [| now apply IH]. assert (keyb k' k' = true) by now apply keyb_ok. congruence.
  Qed.
  Lemma assoc_cons_other : forall k k' i m j, assoc k' m = None -> assoc k m = Some j -> assoc k ((k', i) :: m) = Some j.
  Proof. intros k k' i m j N H. cbn [ConcModel.assoc]. destruct (keyb k k') eqn:E; auto. apply keyb_ok in E. subst. congruence. Qed.

  Lemma cquiet : forall s s' tr ev, cinv s tr -> ext T K s s' -> locks s' = locks s -> dmap s' = dmap s -> lviews s' = lviews s ->
    (forall u e, holds (pcs s' u) e <-> holds (pcs s u) e) -> (forall u e, inserting (pcs s' u) e -> inserting (pcs s u) e \/ assoc (key e) (dmap s) = None) -> (forall u, vcount (views s u) <= vcount (views s' u)) ->
    (forall t e i, In (EGot t e i) ev -> assoc (key e) (dmap s) = Some i) -> cinv s' (ev ++ tr).
  Proof.
    intros s s' tr ev [] X El Ed Ev Ho Is Vw Ge. pose proof X as (_ & _ & XL). constructor; rewrite ?El, ?Ed, ?Ev.
    - intros t e H. apply c_lock0. now apply Ho.
    - intros t h H. destruct (c_held0 t h H) as (e & H1 & H2). exists e. split; auto. now apply Ho.
    - intros k i H. destruct (c_map0 k i H) as (H1 & (v & H2 & H3) & H4). split; [lia |]. split; auto. exists v. split; auto. eapply val_at_ext; eauto.
    - auto.
    - intros t e H. destruct (Is t e H); eauto.
    - intros t e H. apply Ho in H. specialize (c_view0 t e H). specialize (Vw t). lia.
    - intros t e i H. apply in_app_or in H. destruct H; eauto.
  Qed.
  Lemma clock : forall s s' tr t e, cinv s tr -> ext T K s s' -> locks s (shard (key e)) = None -> locks s' = upd (locks s) (shard (key e)) (Some t) -> dmap s' = dmap s -> lviews s' = lviews s ->
    pcs s t = Lock e -> pcs s' = upd (pcs s) t (Lookup e) -> views s' = upd (views s) t (vjoin (views s t) (lviews s (shard (key e)))) -> cinv s' tr.
  Proof.
    intros s s' tr t e [] X Fr El Ed Ev P Ep Ew. pose proof X as (_ & _ & XL). constructor; rewrite ?El, ?Ed, ?Ev, ?Ep, ?Ew.
    - intros u e'. destruct (upd_cases _ (pcs s) t (Lookup e) u) as [[-> ->] | [N ->]]; cbn [holds]; [intros <-; apply upd_same |]. intros H. pose proof (c_lock0 _ _ H). rewrite upd_other; auto. congruence.
    - intros u h. destruct (upd_cases _ (locks s) (shard (key e)) (Some t) h) as [[-> ->] | [N ->]].
      + intros H. inversion H; subst u. exists e. rewrite upd_same. cbn. auto.
      + intros H. destruct (c_held0 u h H) as (e' & H1 & H2). exists e'. split; auto. rewrite upd_other; auto. intros ->. rewrite P in H1. exact H1.
    - intros k i H. destruct (c_map0 k i H) as (H1 & (v & H2 & H3) & H4). split; [lia |]. split; auto. exists v. split; auto. eapply val_at_ext; eauto.
    - auto.
    - intros u e'. destruct (upd_cases _ (pcs s) t (Lookup e) u) as [[-> ->] | [N ->]]; cbn [inserting]; [contradiction | apply c_abs0].
    - intros u e'. destruct (Nat.eq_dec u t) as [-> | N]; [rewrite !upd_same; cbn [holds]; intros <-; cbn [vjoin vcount]; lia | rewrite !upd_other by auto; apply c_view0].
    - auto.
  Qed.
  (** Leaving the critical section, with or without a new entry. *)
  Lemma cunlock : forall s s' tr ev t e p new, cinv s tr -> ext T K s s' -> holds (pcs s t) e -> locks s' = upd (locks s) (shard (key e)) None ->
    lviews s' = upd (lviews s) (shard (key e)) (vjoin (lviews s (shard (key e))) (views s t)) -> dmap s' = new ++ dmap s ->
    pcs s' = upd (pcs s) t p -> (forall u, vcount (views s u) <= vcount (views s' u)) -> (forall e', ~ holds p e') ->
    (new = [] \/ exists i, new = [(key e, i)] /\ inserting (pcs s t) e /\ i < latest s /\ val_at T K s i e /\ i < vcount (views s t)) ->
    (forall u e' i, In (EGot u e' i) ev -> assoc (key e') (dmap s') = Some i) -> cinv s' (ev ++ tr).
  Proof.
    intros s s' tr ev t e p new [] X Hh El Ev Ed Ep Vw Np Hn Ge. pose proof X as (_ & _ & XL).
    assert (OT : forall u e', u <> t -> holds (pcs s u) e' -> shard (key e') <> shard (key e)). { intros u e' N H E. pose proof (c_lock0 _ _ H) as A. pose proof (c_lock0 _ _ Hh) as B. congruence. }
    assert (NI : forall e', ~ inserting p e'). { intros e' H. apply (Np e'). destruct p as [| | [] ? ? | | | | | | |]; cbn [inserting holds] in H |- *; try contradiction; auto. }
    constructor; rewrite ?El, ?Ev, ?Ep.
    - intros u e'. destruct (upd_cases _ (pcs s) t p u) as [[-> ->] | [N ->]]; [intros H; destruct (Np _ H) |]. intros H. rewrite upd_other; [now apply c_lock0 | eapply OT; eauto].
    - intros u h. destruct (upd_cases _ (locks s) (shard (key e)) None h) as [[-> ->] | [N ->]]; [discriminate |]. intros H. destruct (c_held0 u h H) as (e' & H1 & H2). exists e'. split; auto. rewrite upd_other; auto.
      intros ->. rewrite (c_lock0 _ _ Hh) in * || idtac. assert (A : locks s (shard (key e')) = Some t) by now apply c_lock0. subst h. apply N.
      destruct (pcs s t) as [| | [] ? ? | | | | | | |]; cbn [holds] in *; try contradiction; congruence.
    - rewrite Ed. intros k i H. apply in_app_or in H. destruct H as [H | H].
      + destruct Hn as [-> | (j & -> & H1 & H2 & H3 & H4)]; [easy |]. destruct H as [H | []]. inversion H; subst. split; [lia |]. split; [exists e; split; auto; eapply val_at_ext; eauto |]. rewrite upd_same. cbn [vjoin vcount]. lia.
      + destruct (c_map0 k i H) as (H1 & (v & H2 & H3) & H4). split; [lia |]. split; [exists v; split; auto; eapply val_at_ext; eauto |]. destruct (Nat.eq_dec (shard k) (shard (key e))) as [E | N]; [rewrite E, upd_same; cbn [vjoin vcount]; rewrite E in H4; lia | now rewrite upd_other].
    - rewrite Ed. destruct Hn as [-> | (j & -> & H1 & H2)]; auto. cbn [map app fst]. constructor; auto. apply assoc_none. apply (c_abs0 t). exact H1.
    - intros u e'. destruct (upd_cases _ (pcs s) t p u) as [[-> ->] | [N ->]]; [intros H; destruct (NI _ H) |]. intros H. pose proof (c_abs0 _ _ H) as A. rewrite Ed. destruct Hn as [-> | (j & -> & H1 & H2)]; auto. cbn [app ConcModel.assoc]. destruct (keyb (key e') (key e)) eqn:E; auto.
      exfalso. apply keyb_ok in E. apply (OT u e' N); [| congruence]. destruct (pcs s u) as [| | [] ? ? | | | | | | |]; cbn [inserting holds] in *; try contradiction; auto.
    - intros u e'. destruct (upd_cases _ (pcs s) t p u) as [[-> ->] | [N ->]]; [intros H; destruct (Np _ H) |]. intros H. rewrite upd_other by (eapply OT; eauto). specialize (c_view0 _ _ H). specialize (Vw u). lia.
    - intros u e' i H. apply in_app_or in H. destruct H as [H | H]; [eauto |]. specialize (c_got0 _ _ _ H). rewrite Ed. destruct Hn as [-> | (j & -> & H1 & H2)]; auto. apply assoc_cons_other; auto. apply (c_abs0 t). exact H1.
  Qed.

  (** * Traces *)
  Fixpoint aware (tr : list event) (p : place) (i : nat) : Prop :=
    match tr with
    | [] => False
    | e :: r =>
        aware r p i \/
        match e, p with
        | EPush t _ j, Th u => t = u /\ j = i
        | EGot t _ j, Th u => t = u /\ j = i
        | ERecv t m, Th u => t = u /\ aware r (Mb m) i
        | ESend t m, Mb m' => m = m' /\ aware r (Th t) i
        | _, _ => False
        end
    end.
  Record tinv (s : state) (tr : list event) : Prop := mkT {
    t_index : forall a b t i v, tr = a ++ EIndex t i v :: b -> exists u, In (EPush u v i) b;
    t_panic : forall a b t i, tr = a ++ EIndexPanic t i :: b -> ~ aware b (Th t) i;
    t_len : forall a b t n, tr = a ++ ELen t n :: b -> (forall i, aware b (Th t) i -> i < n) /\ (forall i, i < n -> exists u v, In (EPush u v i) b);
    t_th : forall t i, aware tr (Th t) i -> i < vcount (views s t);
    t_mb : forall m i, aware tr (Mb m) i -> i < vcount (boxes s m) }.
  Definition ev_ok (s s' : state) (tr : list event) (e : event) : Prop :=
    match e with
    | EPush t _ i | EGot t _ i => i < vcount (views s' t)
    | ESend t m => vcount (views s t) <= vcount (boxes s' m)
    | ERecv t m => vcount (boxes s m) <= vcount (views s' t)
    | EIndex t i v => exists u, In (EPush u v i) tr
    | EIndexPanic t i => vcount (views s t) <= i
    | ELen t n => vcount (views s t) <= n <= latest s
    | EPushPanic _ => True
    end.
  Lemma split_cons : forall A (e x : A) tr a b, e :: tr = a ++ x :: b -> (e = x /\ tr = b) \/ exists a', tr = a' ++ x :: b.
  Proof. intros A e x tr a b H. destruct a as [| y a']; cbn [app] in H; inversion H; subst; eauto. Qed.
  Lemma tquiet : forall s s' tr, tinv s tr -> (forall t, vcount (views s t) <= vcount (views s' t)) -> (forall m, vcount (boxes s m) <= vcount (boxes s' m)) -> tinv s' tr.
  Proof. intros s s' tr [] V B. constructor; auto. - intros t i H. specialize (t_th0 t i H). specialize (V t). lia. - intros t i H. specialize (t_mb0 t i H). specialize (B t). lia. Qed.
  Lemma tstep : forall s s' tr e, ginv s tr -> tinv s tr -> (forall t, vcount (views s t) <= vcount (views s' t)) -> (forall m, vcount (boxes s m) <= vcount (boxes s' m)) -> ev_ok s s' tr e -> tinv s' (e :: tr).
  Proof.
    intros s s' tr e G [] V B O. constructor.
    - intros a b t i v H. apply split_cons in H. destruct H as [[-> <-] | [a' H]]; [exact O | eauto].
    - intros a b t i H. apply split_cons in H. destruct H as [[-> <-] | [a' H]]; [| eauto]. intros A. apply t_th0 in A. cbn [ev_ok] in O. lia.
    - intros a b t n H. apply split_cons in H. destruct H as [[-> <-] | [a' H]]; [| eauto]. cbn [ev_ok] in O. split.
      + intros i A. apply t_th0 in A. lia.
      + intros i Hi. destruct (g_val _ _ _ _ G i) as (v & u & _ & H); [lia | eauto].
    - intros t i. cbn [aware]. intros [H | H]; [specialize (t_th0 t i H); specialize (V t); lia |]. destruct e; cbn [ev_ok] in O; try contradiction; destruct H as [-> H]; try (subst; exact O). specialize (t_mb0 _ _ H). lia.
    - intros m i. cbn [aware]. intros [H | H]; [specialize (t_mb0 m i H); specialize (B m); lia |]. destruct e; cbn [ev_ok] in O; try contradiction; destruct H as [-> H]. specialize (t_th0 _ _ H). lia.
  Qed.

  Definition inv (s : state) (tr : list event) : Prop := ginv s tr /\ cinv s tr /\ tinv s tr.
  Lemma inv_init : inv (init T K) [].
  Proof.
    split; [| split].
    - constructor; cbn [init reserved msgs data sizes heap next boxes lviews views pcs pidx local]; unfold latest; cbn [init msgs length]; try discriminate; try easy; try lia.
      + constructor.
      + intros k Hk. assert (k = 0) by lia. subst. cbn. split; auto. lia.
    - constructor; cbn; try easy. constructor.
    - constructor; cbn; try easy; intros a b; intros; destruct a; discriminate.
  Qed.

  (** * Every step is safe *)
  Notation exec := (exec T K key keyb shard).
  Definition safe (s : state) (tr : list event) (o : outcome T K) : Prop := match o with Disabled => True | Bad => False | Next s' ev => inv s' (ev ++ tr) end.
  Ltac nopush := intros ? ? ?; cbn; intuition discriminate.

  (** A step that only moves thread [t] on; its place in the critical section does not change. *)
  Lemma inv_goto : forall s tr t p w ev, inv s tr -> pidx T p = pidx T (pcs s t) -> (forall b, alloced T (pcs s t) b -> alloced T p b) -> (forall i, wrote T (pcs s t) i -> wrote T p i) ->
    local T K s p w -> vcount (views s t) <= vcount w <= latest s -> (forall e, holds p e <-> holds (pcs s t) e) -> (forall e, inserting p e -> inserting (pcs s t) e \/ assoc (key e) (dmap s) = None) ->
    (ev = [] \/ exists e, ev = [e] /\ ev_ok s (goto s t p w) tr e /\ (forall u v i, e <> EPush u v i) /\ (forall u e' i, e = EGot u e' i -> assoc (key e') (dmap s) = Some i)) ->
    inv (goto s t p w) (ev ++ tr).
  Proof.
    intros s tr t p w ev (G & C & A) Pi Al Wr Lo Vc Ho In0 Ev.
    assert (V : forall u, vcount (views s u) <= vcount (views (goto s t p w) u)). { intros u. cbn [goto views]. destruct (upd_cases _ (views s) t w u) as [[-> ->] | [N ->]]; lia. }
    split; [| split].
    - apply quiet_goto; auto; try lia; destruct Ev as [-> | (e & -> & _ & N & _)]; try easy; [intros u v i [-> | []]; eapply N; reflexivity |]. cbn [app pushed]. destruct e; auto. exfalso. eapply N. reflexivity.
    - apply (cquiet s); auto.
      + apply same_ext, goto_same.
      + intros u e. cbn [goto pcs]. destruct (upd_cases _ (pcs s) t p u) as [[-> ->] | [N ->]]; [auto | reflexivity].
      + intros u e. cbn [goto pcs]. destruct (upd_cases _ (pcs s) t p u) as [[-> ->] | [N ->]]; auto.
      + intros u e i H. destruct Ev as [-> | (e0 & -> & _ & _ & N)]; [easy |]. destruct H as [H | []]. eauto.
    - destruct Ev as [-> | (e & -> & O & _)]; [apply (tquiet s); auto | apply (tstep s); auto].
  Qed.
  Lemma inv_die : forall s tr t c v idx p, inv s tr -> pcs s t = Push c v p -> pidx T (pcs s t) = Some idx -> (forall b, ~ alloced T (pcs s t) b) -> (forall i, ~ wrote T (pcs s t) i) ->
    safe s tr (die T K key shard s t c v idx).
  Proof.
    intros s tr t c v idx p I P Pi Al Wr. unfold die. cbn [safe]. destruct c.
    - destruct I as (G & C & A). set (s' := goto _ _ _ _). assert (M : same_mem T K s s') by (repeat split).
      assert (VW : forall u, vcount (views s u) <= vcount (views s' u)) by (intros u; cbn [s' goto views unlock]; destruct (upd_cases _ (views s) t (views s t) u) as [[-> ->] | [N ->]]; lia). split; [| split].
      + apply (quiet T K s s' tr [EPushPanic t] t (Dead idx) (views s t)); auto; try nopush.
        * intros u N. cbn. now rewrite !upd_other.
        * apply upd_same.
        * apply upd_same.
        * exact Logic.I.
        * apply (g_vc _ _ _ _ G).
        * apply (g_box _ _ _ _ G).
        * intros h. cbn [s' goto unlock lviews]. destruct (upd_cases _ (lviews s) (shard (key v)) (vjoin (lviews s (shard (key v))) (views s t)) h) as [[-> ->] | [N ->]]; [cbn [vjoin vcount]; pose proof (g_lv _ _ _ _ G (shard (key v))); pose proof (g_vc _ _ _ _ G t); lia | apply (g_lv _ _ _ _ G)].
      + apply (cunlock s s' tr [EPushPanic t] t v (Dead idx) []); auto; try reflexivity.
        * apply same_ext. exact M.
        * rewrite P. reflexivity.
        * intros u e' i [H | []]. discriminate.
      + apply (tstep s); auto; try reflexivity.
    - pose proof I as (G & C & A). apply (inv_goto s tr t (Dead idx) (views s t) [EPushPanic t]); auto.
      + exact Logic.I.
      + pose proof (g_vc _ _ _ _ G t). lia.
      + intros e. rewrite P. cbn. tauto.
      + intros e. rewrite P. cbn. tauto.
      + right. exists (EPushPanic t). split; auto. split; [exact Logic.I |]. split; intros; discriminate.
  Qed.

  Lemma push_safe : forall s tr t n c v p, inv s tr -> pcs s t = Push c v p -> safe s tr (push_step T K key shard s t n c v p).
  Proof.
    intros s tr t n c v p I P. pose proof I as (G & C & A). pose proof (g_local _ _ _ _ G t) as L. rewrite P in L. unfold push_step. cbv zeta. destruct p as [| idx | idx | idx | idx blk | idx]; cbn [local] in L; rewrite ?(indices_eq idx).
    - cbn [safe app]. set (s' := mkSt _ _ _ _ _ _ _ _ _ _ _ _). split; [apply (step_reserving T K s tr t c v); auto | split].
      + apply (cquiet s s' tr []); auto; try reflexivity; try easy.
        * intros u e. cbn [s' pcs]. destruct (upd_cases _ (pcs s) t (Push c v (Loading (reserved s))) u) as [[-> ->] | [N ->]]; [| reflexivity]. rewrite P. destruct c; cbn; tauto.
        * intros u e. cbn [s' pcs]. destruct (upd_cases _ (pcs s) t (Push c v (Loading (reserved s))) u) as [[-> ->] | [N ->]]; auto. rewrite P. destruct c; cbn; tauto.
      + apply (tquiet s); auto.
    - destruct (may_read s t n) eqn:M; cbn [safe]; auto. destruct (acquired_count T K s tr t n G M) as (A1 & A2 & A3). apply inv_goto; auto; try (rewrite P; destruct (n <? 1 + idx - off idx); [destruct (off idx =? 0) |]; cbn; tauto); try lia.
      destruct (Nat.ltb_spec n (1 + idx - off idx)) as [H | H]; [destruct (Nat.eqb_spec (off idx) 0) as [H' | H']; cbn [local]; auto |]. cbn [local].
      destruct (sub_off idx) as [E1 E2]. destruct (acquired_knows T K s tr t n (first (bin idx)) G M) as (blk & K1 & K2 & K3); [lia |]. destruct (first_spec (bin idx)) as [F1 F2]. rewrite F1 in *. eauto.
    - destruct (Nat.ltb_spec (bin idx) BINS) as [B | B]; [| eapply inv_die; eauto; rewrite P; auto].
      destruct (step_allocating T K s tr t c v idx G P B) as [D G']. rewrite D. cbn [safe app]. split; [exact G' | split].
      + apply (cquiet s _ tr []); auto; try easy.
        * split; [| split; auto]. intros b k H. cbn [data sizes]. destruct (g_data _ _ _ _ G _ _ H) as [H1 _]. rewrite (upd_other _ (data s)) by congruence. rewrite (upd_other _ (sizes s)) by lia. auto.
        * intros u e. cbn [pcs]. destruct (upd_cases _ (pcs s) t (Push c v (Writing idx (next s))) u) as [[-> ->] | [N ->]]; [| reflexivity]. rewrite P. destruct c; cbn; tauto.
        * intros u e. cbn [pcs]. destruct (upd_cases _ (pcs s) t (Push c v (Writing idx (next s))) u) as [[-> ->] | [N ->]]; auto. rewrite P. destruct c; cbn; tauto.
        * intros u. cbn [views]. destruct (upd_cases _ (views s) t (know_data (bin idx) (views s t)) u) as [[-> ->] | [N ->]]; auto.
      + apply (tquiet s); auto. intros u. cbn [views]. destruct (upd_cases _ (views s) t (know_data (bin idx) (views s t)) u) as [[-> ->] | [N ->]]; auto.
    - destruct L as [[blk D] V]. destruct (Nat.ltb_spec (bin idx) BINS) as [B | B]; [| eapply inv_die; eauto; rewrite P; auto]. rewrite D, V. cbn [safe]. apply inv_goto; auto; try (rewrite P; cbn; tauto).
      + cbn [local]. auto.
      + pose proof (g_vc _ _ _ _ G t). lia.
    - destruct (step_writing T K s tr t c v idx blk G P) as (Sz & H & G'). destruct (Nat.ltb_spec (off idx) (sizes s blk)); [| lia]. rewrite H. cbn [safe app]. split; [exact G' | split].
      + apply (cquiet s _ tr []); auto; try easy.
        * split; [| split]; auto. intros x y v' E. cbn [heap]. unfold upd. destruct (Nat.eqb_spec x blk); auto. subst x. destruct (Nat.eqb_spec y (off idx)); auto. subst. congruence.
        * intros u e. cbn [pcs]. destruct (upd_cases _ (pcs s) t (Push c v (Publishing idx)) u) as [[-> ->] | [N ->]]; [| reflexivity]. rewrite P. destruct c; cbn; tauto.
        * intros u e. cbn [pcs]. destruct (upd_cases _ (pcs s) t (Push c v (Publishing idx)) u) as [[-> ->] | [N ->]]; auto. rewrite P. destruct c; cbn; tauto.
        * intros u. cbn [views]. destruct (upd_cases _ (views s) t (know_cell blk (off idx) (views s t)) u) as [[-> ->] | [N ->]]; auto.
      + apply (tquiet s); auto. intros u. cbn [views]. destruct (upd_cases _ (views s) t (know_cell blk (off idx) (views s t)) u) as [[-> ->] | [N ->]]; auto.
    - destruct (may_read s t n) eqn:M; cbn [safe]; auto. destruct (acquired_count T K s tr t n G M) as (A1 & A2 & A3). destruct (Nat.eqb_spec n idx) as [-> | N].
      + destruct (Nat.eqb_spec idx (latest s)) as [-> | N]; cbn [safe]; auto. pose proof (step_publishing T K s tr t c v G P) as G'. cbn [app]. split; [exact G' | split].
        * apply (cquiet s _ tr [EPush t v (latest s)]); auto; try easy.
          -- split; [auto | split; [auto |]]. unfold latest. cbn [msgs]. rewrite app_length. cbn. lia.
          -- intros u e. cbn [pcs]. destruct (upd_cases _ (pcs s) t (if c then Insert v (latest s) else Idle) u) as [[-> ->] | [N ->]]; [| reflexivity]. rewrite P. destruct c; cbn; tauto.
          -- intros u e. cbn [pcs]. destruct (upd_cases _ (pcs s) t (if c then Insert v (latest s) else Idle) u) as [[-> ->] | [N ->]]; auto. rewrite P. destruct c; cbn; tauto.
          -- intros u. cbn [views]. destruct (upd_cases _ (views s) t (know_count (S (latest s)) (views s t)) u) as [[-> ->] | [N ->]]; auto. cbn [know_count vcount]. lia.
          -- intros u e i [H | []]. discriminate.
        * apply (tstep s); auto.
          -- intros u. cbn [views]. destruct (upd_cases _ (views s) t (know_count (S (latest s)) (views s t)) u) as [[-> ->] | [N ->]]; auto. cbn [know_count vcount]. lia.
          -- cbn [ev_ok views]. rewrite upd_same. cbn [know_count vcount]. lia.
      + apply inv_goto; auto; try (rewrite P; cbn; tauto).
        * cbn [know_count vcount]. lia.
  Qed.

  Lemma exec_safe : forall s tr a, inv s tr -> safe s tr (exec s a).
  Proof.
    intros s tr [t o | t n] I; pose proof I as (G & C & A); pose proof (g_local _ _ _ _ G t) as L; pose proof (g_vc _ _ _ _ G t) as Vt; cbn [ConcModel.exec].
    - unfold begin. cbv zeta. destruct (pcs s t) eqn:P; cbn [safe]; auto. destruct o as [v | i | n | e | e | m | m]; cbn [safe].
      + apply inv_goto; auto; try (rewrite P; cbn; tauto); try exact Logic.I.
      + apply inv_goto; auto; try (rewrite P; cbn; tauto); try exact Logic.I.
      + destruct (may_read s t n) eqn:M; cbn [safe]; auto. destruct (acquired_count T K s tr t n G M) as (A1 & A2 & A3). apply inv_goto; auto; try (rewrite P; cbn; tauto); try exact Logic.I; try lia.
        right. eexists. split; [reflexivity |]. split; [cbn [ev_ok]; lia |]. split; intros; discriminate.
      + apply inv_goto; auto; try (rewrite P; cbn; tauto); try exact Logic.I.
      + apply inv_goto; auto; try (rewrite P; cbn; tauto); try exact Logic.I.
      + set (s' := mkSt _ _ _ _ _ _ _ _ _ _ _ _). assert (M : same_mem T K s s') by (repeat split). split; [| split].
        * apply (quiet T K s s' tr [ESend t m] t (pcs s t) (views s t)); auto; try (cbn; rewrite ?P; reflexivity); try nopush.
          -- intros k. cbn [s' boxes]. destruct (upd_cases _ (boxes s) m (vjoin (boxes s m) (views s t)) k) as [[-> ->] | [N ->]]; [cbn [vjoin vcount]; pose proof (g_box _ _ _ _ G m); lia | apply (g_box _ _ _ _ G)].
          -- apply (g_lv _ _ _ _ G).
        * apply (cquiet s s' tr [ESend t m]); auto; try reflexivity; [apply same_ext; exact M |]. intros u e i [H | []]. discriminate.
        * apply (tstep s); auto.
          -- intros k. cbn [s' boxes]. destruct (upd_cases _ (boxes s) m (vjoin (boxes s m) (views s t)) k) as [[-> ->] | [N ->]]; auto. cbn [vjoin vcount]. lia.
          -- cbn [ev_ok s' boxes]. rewrite upd_same. cbn [vjoin vcount]. lia.
      + pose proof (g_box _ _ _ _ G m). apply inv_goto; auto; try (rewrite P; cbn; tauto); try exact Logic.I; try (cbn [vjoin vcount]; lia).
        right. eexists. split; [reflexivity |]. split; [cbn [ev_ok goto views]; rewrite upd_same; cbn [vjoin vcount]; lia |]. split; intros; discriminate.
    - unfold step. cbv zeta. destruct (pcs s t) as [| | c v p | i | i | i blk | e | e | e | e idx] eqn:P; cbn [safe]; auto; cbn [local] in L; rewrite ?(indices_eq i).
      + now apply push_safe.
      + destruct (may_read s t n) eqn:M; cbn [safe]; auto. destruct (acquired_count T K s tr t n G M) as (A1 & A2 & A3). destruct (Nat.ltb_spec i n); cbn [safe].
        * apply inv_goto; auto; try (rewrite P; cbn; tauto); try lia. cbn [local]. split; [lia |]. eapply acquired_knows; eauto.
        * apply inv_goto; auto; try (rewrite P; cbn; tauto); try exact Logic.I; try lia. right. eexists. split; [reflexivity |]. split; [cbn [ev_ok]; lia |]. split; intros; discriminate.
      + destruct L as [Li (blk & D & V & W)]. destruct (g_val _ _ _ _ G i Li) as (v & u & (B & _) & _). rewrite D, V. destruct (Nat.ltb_spec (bin i) BINS); [| lia]. cbn [andb safe]. apply inv_goto; auto; try (rewrite P; cbn; tauto).
        cbn [local]. split; auto. split; auto. exists blk. auto.
      + destruct L as (Li & (blk' & D & V & W) & D'). assert (blk' = blk) by congruence. subst blk'. destruct (g_val _ _ _ _ G i Li) as (v & u & (B & blk' & D2 & Z & H) & Hin). assert (blk' = blk) by congruence. subst blk'.
        destruct (Nat.ltb_spec (off i) (sizes s blk)); [| lia]. rewrite H, W. cbn [safe]. apply inv_goto; auto; try (rewrite P; cbn; tauto); try exact Logic.I.
        right. eexists. split; [reflexivity |]. split; [cbn [ev_ok]; eauto |]. split; intros; discriminate.
      + destruct (locks s (shard (key e))) eqn:Lk; cbn [safe]; auto. pose proof (g_lv _ _ _ _ G (shard (key e))). destruct (assoc (key e) (dmap s)) as [i |] eqn:E; cbn [safe].
        * apply inv_goto; auto; try (rewrite P; cbn; tauto); try exact Logic.I; try (cbn [vjoin vcount]; lia). right. eexists. split; [reflexivity |]. split; [| split; [intros; discriminate | intros u e' j H'; inversion H'; subst; exact E]].
          cbn [ev_ok goto views]. rewrite upd_same. cbn [vjoin vcount]. destruct (c_map _ _ C _ _ (assoc_in _ _ _ E)) as (_ & _ & Q). lia.
        * apply inv_goto; auto; try (rewrite P; cbn; tauto); try exact Logic.I; try (cbn [vjoin vcount]; lia).
      + destruct (locks s (shard (key e))) eqn:Lk; cbn [safe]; auto. pose proof (g_lv _ _ _ _ G (shard (key e))) as Lv. set (s' := mkSt _ _ _ _ _ _ _ _ _ _ _ _). assert (M : same_mem T K s s') by (repeat split). split; [| split].
        * apply (quiet T K s s' tr [] t (Lookup e) (vjoin (views s t) (lviews s (shard (key e))))); auto; try (rewrite P; cbn; tauto); try easy.
          -- intros u N. cbn. now rewrite !upd_other.
          -- apply upd_same.
          -- apply upd_same.
          -- cbn [vjoin vcount]. lia.
          -- apply (g_box _ _ _ _ G).
          -- apply (g_lv _ _ _ _ G).
        * apply (clock s s' tr t e); auto. apply same_ext. exact M.
        * apply (tquiet s); auto. intros u. cbn [s' views]. destruct (upd_cases _ (views s) t (vjoin (views s t) (lviews s (shard (key e)))) u) as [[-> ->] | [N ->]]; auto. cbn [vjoin vcount]. lia.
      + destruct (assoc (key e) (dmap s)) as [i |] eqn:E; cbn [safe].
        * set (s' := goto _ _ _ _). assert (M : same_mem T K s s') by (repeat split).
          assert (VW : forall u, vcount (views s u) <= vcount (views s' u)) by (intros u; cbn [s' goto views unlock]; destruct (upd_cases _ (views s) t (views s t) u) as [[-> ->] | [N ->]]; lia). split; [| split].
          -- apply (quiet T K s s' tr [EGot t e i] t Idle (views s t)); auto; try (rewrite P; cbn; tauto); try easy; try nopush.
             ++ intros u N. cbn. now rewrite !upd_other.
             ++ apply upd_same.
             ++ apply upd_same.
             ++ apply (g_box _ _ _ _ G).
             ++ intros h. cbn [s' goto unlock lviews]. destruct (upd_cases _ (lviews s) (shard (key e)) (vjoin (lviews s (shard (key e))) (views s t)) h) as [[-> ->] | [N ->]]; [cbn [vjoin vcount]; pose proof (g_lv _ _ _ _ G (shard (key e))); lia | apply (g_lv _ _ _ _ G)].
          -- apply (cunlock s s' tr [EGot t e i] t e Idle []); auto; try reflexivity.
             ++ apply same_ext. exact M.
             ++ rewrite P. reflexivity.
             ++ intros u e' j [H | []]. inversion H; subst. exact E.
          -- apply (tstep s); auto.
             cbn [ev_ok s' goto views unlock]. rewrite upd_same. destruct (c_map _ _ C _ _ (assoc_in _ _ _ E)) as (_ & _ & Q). assert (Q2 : vcount (lviews s (shard (key e))) <= vcount (views s t)) by (apply (c_view _ _ C); rewrite P; reflexivity). lia.
        * apply inv_goto; auto; try (rewrite P; cbn; tauto); try exact Logic.I. intros e'. cbn [inserting]. intros <-. auto.
      + destruct L as (L1 & L2 & L3). assert (Ab : assoc (key e) (dmap s) = None) by (apply (c_abs _ _ C t); rewrite P; reflexivity).
        set (s' := mkSt _ _ _ _ _ _ _ _ _ _ _ _). assert (M : same_mem T K s s') by (repeat split). split; [| split].
        * apply (quiet T K s s' tr [EGot t e idx] t Idle (views s t)); auto; try (rewrite P; cbn; tauto); try easy; try nopush.
          -- intros u N. cbn. now rewrite !upd_other.
          -- apply upd_same.
          -- apply (g_box _ _ _ _ G).
          -- intros h. cbn [s' unlock lviews]. destruct (upd_cases _ (lviews s) (shard (key e)) (vjoin (lviews s (shard (key e))) (views s t)) h) as [[-> ->] | [N ->]]; [cbn [vjoin vcount]; pose proof (g_lv _ _ _ _ G (shard (key e))); lia | apply (g_lv _ _ _ _ G)].
        * apply (cunlock s s' tr [EGot t e idx] t e Idle [(key e, idx)]); auto; try reflexivity.
          -- apply same_ext. exact M.
          -- rewrite P. reflexivity.
          -- right. exists idx. rewrite P. cbn. auto.
          -- intros u e' j [H | []]. inversion H; subst. cbn [s' dmap unlock ConcModel.assoc]. assert (Q : keyb (key e') (key e') = true) by now apply keyb_ok. now rewrite Q.
        * apply (tstep s); auto.
  Qed.
End Proofs.
