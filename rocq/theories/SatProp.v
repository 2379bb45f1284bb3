(** Unit propagation keeps the invariant. *)
From Coq Require Import List Arith ZArith NArith Bool Lia Permutation.
From Verif Require Import Base Vec HeapModel HeapProofs SatSpec SatModel SatBasics SatHeap SatInv.
Import ListNotations.
Local Open Scope nat_scope.

(** ** Hoare triples for results *)
Definition rspec {A} (r : res A) (Q : A -> Prop) : Prop := match r with Ok a => Q a | Panic => False | NoFuel => True end.
Lemma rspec_bind : forall A B (r : res A) (k : A -> res B) (Q : A -> Prop) (R : B -> Prop),
  rspec r Q -> (forall a, Q a -> rspec (k a) R) -> rspec (rbind r k) R.
Proof. intros A B [a | |] k Q R H K; cbn in *; auto. Qed.
Lemma rspec_weak : forall A (r : res A) (Q R : A -> Prop), rspec r Q -> (forall a, Q a -> R a) -> rspec r R.
Proof. intros A [a | |] Q R H K; cbn in *; auto. Qed.

(** ** What propagation does not touch *)
Record pframe (a b : solver) : Prop := {
  pf_ok : s_ok b = s_ok a; pf_units : s_units b = s_units a; pf_clauses : s_clauses b = s_clauses a; pf_learnts : s_learnts b = s_learnts a;
  pf_heap : s_heap b = s_heap a; pf_acts : s_acts b = s_acts a; pf_lim : s_lim b = s_lim a; pf_model : s_model b = s_model a;
  pf_conflict : s_conflict b = s_conflict a; pf_assum : s_assum b = s_assum a; pf_seen : s_seen b = s_seen a; pf_bt : s_bt b = s_bt a;
  pf_selo : s_selo b = s_selo a; pf_seli : s_seli b = s_seli a; pf_bb : s_bb b = s_bb a; pf_tick : s_tick b = s_tick a;
  pf_vars : length (s_vars b) = length (s_vars a);
  pf_arena : length (s_arena b) = length (s_arena a);
  pf_lrn : forall c, c_learnt (nth c (s_arena b) dcl) = c_learnt (nth c (s_arena a) dcl);
  pf_ext : exists ext, s_trail b = s_trail a ++ ext;
  pf_rs : forall i l, nth_error (s_trail b) i = Some l ->
    (i < length (s_trail a) /\ nth (lvar l) (s_reasons b) None = nth (lvar l) (s_reasons a) None) \/ nth (lvar l) (s_reasons b) None <> None }.
Lemma pframe_refl : forall a, pframe a a.
Proof.
  intros a. constructor; auto; [exists []; now rewrite app_nil_r |]. intros i l H. left. split; auto. eapply nth_some_lt; eauto.
Qed.
Lemma pframe_trans : forall a b c, pframe a b -> pframe b c -> pframe a c.
Proof.
  intros a b c H K. constructor; try (destruct H, K; congruence).
  - destruct (pf_ext _ _ H) as [e He], (pf_ext _ _ K) as [f Hf]. exists (e ++ f). now rewrite Hf, He, app_assoc.
  - intros i l E. destruct (pf_rs _ _ K i l E) as [[L E1] | N]; [| auto]. rewrite E1. apply (pf_rs _ _ H).
    destruct (pf_ext _ _ K) as [f Ef]. rewrite Ef in E. now rewrite nth_error_app1 in E.
Qed.
Lemma pframe_same : forall a b, s_ok b = s_ok a -> s_units b = s_units a -> s_clauses b = s_clauses a -> s_learnts b = s_learnts a ->
  s_heap b = s_heap a -> s_acts b = s_acts a -> s_lim b = s_lim a -> s_model b = s_model a -> s_conflict b = s_conflict a ->
  s_assum b = s_assum a -> s_seen b = s_seen a -> s_bt b = s_bt a -> s_selo b = s_selo a -> s_seli b = s_seli a -> s_bb b = s_bb a ->
  s_tick b = s_tick a -> s_vars b = s_vars a -> length (s_arena b) = length (s_arena a) ->
  (forall c, c_learnt (nth c (s_arena b) dcl) = c_learnt (nth c (s_arena a) dcl)) -> s_trail b = s_trail a -> s_reasons b = s_reasons a -> pframe a b.
Proof.
  intros. constructor; auto.
  - now f_equal.
  - exists []. now rewrite app_nil_r.
  - intros i l E. left. rewrite H19. split; auto. rewrite H18 in E. eapply nth_some_lt; eauto.
Qed.
Lemma learnt_upd : forall A c d k, c_learnt (nth k (upd A c (mkCl d (c_learnt (nth c A dcl)))) dcl) = c_learnt (nth k A dcl).
Proof.
  intros A c d k. destruct (Nat.eq_dec c k) as [<- | N]; [| now rewrite nth_upd_neq]. destruct (Nat.lt_ge_cases c (length A)) as [L | L]; [now rewrite nth_upd_eq |].
  rewrite !nth_overflow by (rewrite ?upd_length; lia). reflexivity.
Qed.

(** ** Watcher entries under changes of the arena *)
Lemma wtrue_sub : forall T lim i d d', wtrue T lim i d -> (forall t, In t d -> In t d') -> wtrue T lim i d'.
Proof. intros T lim i d d' (j & t & A & B & C) H. exists j, t. auto. Qed.
Lemma went_other : forall F nv A T lim q p c' b c x, c' <> c -> went F nv A T lim q p c' b -> went F nv (upd A c x) T lim q p c' b.
Proof. intros F nv A T lim q p c' b c x N (cl & E & K). exists cl. split; auto. now rewrite upd_other by auto. Qed.
Lemma went_same : forall F nv A T lim q p c b cl d lr, went F nv A T lim q p c b -> nth_error A c = Some cl -> Permutation (c_data cl) d ->
  watched_by (lneg p) d -> (forall t, In t T -> watched_by t (c_data cl) -> watched_by t d) -> went F nv (upd A c (mkCl d lr)) T lim q p c b.
Proof.
  intros F nv A T lim q p c b cl d lr (cl' & E & G & Wb & Vb & Hb & Ht) E' P Wd Wm. assert (cl' = cl) by congruence. subst cl'.
  exists (mkCl d lr). split; [apply upd_same; eapply nth_some_lt; eauto |]. split; [eapply goodcl_perm; eauto |]. cbn [c_data].
  split; [exact Wd |]. split; [exact Vb |]. split; [destruct Hb; [left; eapply Permutation_in; eauto | auto] |].
  intros i Hi Ei. destruct (Ht i Hi Ei) as (j & t & H1 & H2 & H3 & H4). exists j, t. split; auto. split; [eapply Permutation_in; eauto |]. split; auto.
  destruct H3 as [H3 | H3]; [auto |]. right. apply Wm; auto. eapply nth_error_In; eauto.
Qed.
Lemma went_blk : forall F nv A T lim q p c b b' cl, went F nv A T lim q p c b -> nth_error A c = Some cl -> In b' (c_data cl) ->
  (forall i, i < q -> nth_error T i <> Some p) -> went F nv A T lim q p c b'.
Proof.
  intros F nv A T lim q p c b b' cl (cl' & E & G & Wb & Vb & Hb & Ht) E' I Np. assert (cl' = cl) by congruence. subst cl'.
  exists cl. repeat (split; [assumption |]). split; [now apply (gc_lits _ _ _ G) |]. split; [auto |]. intros i Hi Ei. exfalso. exact (Np i Hi Ei).
Qed.

Lemma reshape_inv : forall F q st c cl d W, inv F q st -> nth_error (s_arena st) c = Some cl -> Permutation (c_data cl) d ->
  (d = c_data cl \/ forall l rest, c_data cl = l :: rest -> ~ In l (s_trail st)) -> length W = length (s_watches st) ->
  (forall p ws, nth_error W p = Some ws -> NoDup (map fst ws) /\ forall c' b, In (c', b) ws ->
    went F (length (s_vars st)) (upd (s_arena st) c (mkCl d (c_learnt cl))) (s_trail st) (s_lim st) q p c' b) ->
  (paired (s_watches st) c (c_data cl) -> paired W c d) -> (forall c' d', c' <> c -> paired (s_watches st) c' d' -> paired W c' d') ->
  inv F q (set_watches W (set_arena (upd (s_arena st) c (mkCl d (c_learnt cl))) st)).
Proof.
  intros F q st c cl d W [Z I Wi C V H] E P Hd LW HW Hc Ho. constructor; ssimp; auto.
  - destruct Z. constructor; ssimp; auto. congruence.
  - constructor; try apply I. intros i l El Lv. pose proof (t_reason _ _ _ _ _ _ _ _ I i l El Lv) as TR. destruct (nth (lvar l) (s_reasons st) None) as [c' |]; auto.
    destruct TR as (cl' & rest & E1 & G1 & D1 & R1). destruct (Nat.eq_dec c' c) as [-> | N].
    + assert (cl' = cl) by congruence. subst cl'. exists (mkCl d (c_learnt cl)), rest.
      split; [apply upd_same; eapply nth_some_lt; eauto |]. split; [eapply goodcl_perm; eauto |]. cbn [c_data]. split; [| exact R1].
      destruct Hd as [-> | Hd]; [exact D1 |]. exfalso. apply (Hd _ _ D1). eapply nth_error_In; eauto.
    + exists cl', rest. rewrite upd_other by auto. auto.
  - intros D HD. destruct (C D HD) as [K | (c' & cl' & K1 & K2 & K3 & K4)]; [left; exact K |]. right. destruct (Nat.eq_dec c' c) as [-> | N].
    + assert (cl' = cl) by congruence. subst cl'. exists c, (mkCl d (c_learnt cl)). split; [auto |]. split; [apply upd_same; eapply nth_some_lt; eauto |].
      cbn. split; auto. intros x Hx. apply K4. eapply Permutation_in; [symmetry |]; eauto.
    + exists c', cl'. rewrite upd_other by auto. auto.
  - intros c' Hc'. destruct (V c' Hc') as (cl' & K1 & K2). destruct (Nat.eq_dec c' c) as [-> | N].
    + exists (mkCl d (c_learnt cl)). split; [apply upd_same; eapply nth_some_lt; eauto |]. assert (cl' = cl) by congruence. subst cl'. eapply goodcl_perm; eauto.
    + exists cl'. rewrite upd_other by auto. auto.
Qed.

Lemma wlist_nth : forall st p, p < length (s_watches st) -> nth_error (s_watches st) p = Some (wlist st p).
Proof. intros. unfold wlist. now apply nth_err_def. Qed.
Lemma nth_upd_watch : forall A (W : list A) p x r y, nth_error (upd W p x) r = Some y -> (r = p /\ y = x) \/ (r <> p /\ nth_error W r = Some y).
Proof.
  intros A W p x r y E. rewrite nth_upd in E. destruct (Nat.eqb_spec p r) as [-> | N]; [| right; auto].
  left. destruct (r <? length W); inversion E; auto.
Qed.
Lemma fst_upd : forall (ws : list (nat * nat)) i c b b', nth_error ws i = Some (c, b) -> map fst (upd ws i (c, b')) = map fst ws.
Proof. induction ws as [| w ws IH]; intros [| i] c b b' E; cbn in *; try discriminate; [inversion E; subst; reflexivity | f_equal; eauto]. Qed.
Lemma remove_at_perm : forall A (l : list A) i x, nth_error l i = Some x -> Permutation l (x :: firstn i l ++ skipn (S i) l).
Proof.
  induction l as [| y l IH]; intros [| i] x E; cbn in E; try discriminate.
  - inversion E; subst. reflexivity.
  - cbn [firstn skipn app]. etransitivity; [| apply perm_swap]. constructor. now apply IH.
Qed.
Lemma in_upd_cases : forall A (l : list A) i x y, In y (upd l i x) -> y = x \/ In y l.
Proof. intros. eapply upd_in; eauto. Qed.
Lemma in_firstn_S : forall A (l : list A) i x y, nth_error l i = Some x -> In y (firstn (S i) l) -> y = x \/ In y (firstn i l).
Proof.
  induction l as [| z l IH]; intros [| i] x y E H; cbn in E; try discriminate.
  - inversion E; subst. cbn in H. destruct H as [-> | []]; auto.
  - change (firstn (S (S i)) (z :: l)) with (z :: firstn (S i) l) in H. cbn [firstn]. destruct H as [-> | H]; [right; left; auto |].
    destruct (IH i x y E H); [auto | right; right; auto].
Qed.
Lemma firstn_upd_out : forall A (l : list A) i x, firstn i (upd l i x) = firstn i l.
Proof. induction l as [| y l IH]; intros [| i] x; cbn; auto. now rewrite IH. Qed.

Lemma find_watch_none : forall st rest, find_watch st rest = None -> forall l, In l rest -> value st l = Some false.
Proof.
  induction rest as [| x r IH]; intros H l Hl; [destruct Hl |]. cbn in H. destruct (value st x) as [[|]|] eqn:E; cbn in H; try discriminate.
  destruct (find_watch st r) eqn:E2; [discriminate |]. destruct Hl as [<- | Hl]; auto.
Qed.
Lemma find_watch_some : forall st rest k, find_watch st rest = Some k -> nth_error rest k = Some (nth k rest 0) /\ value st (nth k rest 0) <> Some false.
Proof.
  induction rest as [| x r IH]; intros k H; cbn in H; [discriminate |]. destruct (value st x) as [[|]|] eqn:E; cbn in H.
  - inversion H; subst. cbn. split; congruence.
  - destruct (find_watch st r) eqn:E2; [| discriminate]. inversion H; subst. cbn. apply IH. reflexivity.
  - inversion H; subst. cbn. split; congruence.
Qed.
Lemma upd_perm : forall (l : list nat) k x y, nth_error l k = Some x -> Permutation (y :: l) (x :: upd l k y).
Proof.
  induction l as [| z l IH]; intros [| k] x y E; cbn in E; try discriminate; cbn [upd].
  - inversion E; subst. apply perm_swap.
  - etransitivity; [apply perm_swap |]. etransitivity; [| apply perm_swap]. constructor. now apply IH.
Qed.

(** A conflicting clause found while visiting the watchers of the literal at [q0]. *)
Definition conflicting (F : list (list nat)) (q0 : nat) (st : solver) (c : nat) : Prop :=
  inv F q0 st /\ s_qhead st = length (s_trail st) /\ q0 < length (s_trail st) /\
  exists cl x p, nth_error (s_arena st) c = Some cl /\ goodcl F (length (s_vars st)) cl /\ (forall l, In l (c_data cl) -> In (lneg l) (s_trail st)) /\
    q0 <= x /\ nth_error (s_trail st) x = Some p /\ In (lneg p) (c_data cl).

Record pwinv (F : list (list nat)) (q0 p i : nat) (st : solver) : Prop := {
  pw_inv : inv F q0 st;
  pw_p : nth_error (s_trail st) q0 = Some p;
  pw_q : s_qhead st = S q0;
  pw_done : forall c b, In (c, b) (firstn i (wlist st p)) -> exists cl, nth_error (s_arena st) c = Some cl /\ wtrue2 (s_trail st) (s_lim st) q0 b (c_data cl) }.

Section Step.
  Variables (F : list (list nat)) (q0 p i : nat) (st : solver).
  Hypothesis PW : pwinv F q0 p i st.
  Variables (c b : nat).
  Hypothesis Ei : nth_error (wlist st p) i = Some (c, b).

  Let nv := length (s_vars st).
  Lemma st_p : In p (s_trail st).
  Proof. eapply nth_error_In. apply (pw_p _ _ _ _ _ PW). Qed.
  Lemma st_pv : p < 2 * nv.
  Proof. apply (t_valid _ _ _ _ _ _ _ _ (i_t _ _ _ (pw_inv _ _ _ _ _ PW))). apply st_p. Qed.
  Lemma st_W : nth_error (s_watches st) p = Some (wlist st p).
  Proof. apply wlist_nth. rewrite (z_w _ (i_sz _ _ _ (pw_inv _ _ _ _ _ PW))). apply st_pv. Qed.
  Lemma st_nd : NoDup (map fst (wlist st p)).
  Proof. apply (i_w _ _ _ (pw_inv _ _ _ _ _ PW) p _ st_W). Qed.
  Lemma st_ent : went F nv (s_arena st) (s_trail st) (s_lim st) q0 p c b.
  Proof. apply (i_w _ _ _ (pw_inv _ _ _ _ _ PW) p _ st_W). eapply nth_error_In; eauto. Qed.
  Lemma st_true : forall t b0 d, In t (s_trail st) -> In t d -> t = b0 \/ watched_by t d -> wtrue2 (s_trail st) (s_lim st) q0 b0 d.
  Proof.
    intros t b0 d Ht Hd Hw. apply In_nth_error in Ht. destruct Ht as [j Ej]. exists j, t. repeat (split; [assumption |]).
    rewrite (cur_level (i_t _ _ _ (pw_inv _ _ _ _ _ PW)) q0) by lia. apply lv_le_len.
  Qed.
  Lemma st_notp : forall w, In (c, w) (firstn i (wlist st p) ++ skipn (S i) (wlist st p)) -> False.
  Proof.
    intros w Hw. pose proof st_nd as N. eapply Permutation_NoDup in N; [| apply Permutation_map, (remove_at_perm _ _ _ _ Ei)]. cbn in N.
    inversion N; subst. apply H1. apply in_map_iff. exists (c, w). auto.
  Qed.

  (** The blocker is true. *)
  Lemma step_blocked : value st b = Some true -> pwinv F q0 p (S i) st.
  Proof.
    intros Hb. destruct PW as [I P Q D]. constructor; auto. intros c' b' H. destruct (in_firstn_S _ _ _ _ _ Ei H) as [E | H']; [| eauto].
    inversion E; subst c' b'. destruct st_ent as (cl & E1 & G & _ & Vb & Hi & _). exists cl. split; auto.
    apply (val_true (i_t _ _ _ I) b Vb) in Hb. destruct Hi as [Hi | (j & Ej & _)]; [eapply st_true; eauto |].
    exfalso. apply (not_both (i_t _ _ _ I) b); auto. eapply nth_error_In; eauto.
  Qed.

  Variables (l0 l1 : nat) (rest : list nat).
  Hypothesis Ed : c_data (cl_at st c) = l0 :: l1 :: rest.
  Let cl := cl_at st c.
  Lemma st_cl : nth_error (s_arena st) c = Some cl /\ goodcl F nv cl.
  Proof. destruct st_ent as (cl' & E1 & G & _). unfold cl, cl_at. rewrite (nth_of_some _ _ _ _ dcl E1). auto. Qed.
  Let first := if l0 =? lneg p then l1 else l0.
  Let second := if l0 =? lneg p then lneg p else l1.
  Lemma st_second : second = lneg p.
  Proof.
    destruct st_ent as (cl' & E1 & G & Wb & _). destruct st_cl as [E2 _]. assert (cl' = cl) by congruence. subst cl'. unfold cl in Wb. rewrite Ed in Wb.
    unfold second. destruct (Nat.eqb_spec l0 (lneg p)) as [e | n]; auto. destruct Wb as [Wb | Wb]; cbn in Wb; congruence.
  Qed.
  Lemma st_first0 : ~ In first (s_trail st) -> ~ In l0 (s_trail st).
  Proof.
    unfold first. case_eq (l0 =? lneg p); intros E H K; [| contradiction].
    apply Nat.eqb_eq in E. rewrite E in K. apply (not_both (i_t _ _ _ (pw_inv _ _ _ _ _ PW)) p st_p K).
  Qed.
  Let d1 := first :: second :: rest.
  Lemma st_perm1 : Permutation (c_data cl) d1.
  Proof. unfold cl, d1, first, second. rewrite Ed. destruct (Nat.eqb_spec l0 (lneg p)) as [-> | n]; [apply perm_swap | reflexivity]. Qed.
  Lemma st_shape1 : d1 = c_data cl \/ forall l r, c_data cl = l :: r -> ~ In l (s_trail st).
  Proof.
    unfold cl, d1, first, second. rewrite Ed. destruct (Nat.eqb_spec l0 (lneg p)) as [-> | n]; [right | left; reflexivity].
    intros l r E K. inversion E; subst l. apply (not_both (i_t _ _ _ (pw_inv _ _ _ _ _ PW)) p st_p K).
  Qed.
  Lemma st_early : forall j, j < q0 -> nth_error (s_trail st) j <> Some p.
  Proof.
    intros j Lj Ej. pose proof (trail_pos_unique _ _ _ _ _ (t_nodup _ _ _ _ _ _ _ _ (i_t _ _ _ (pw_inv _ _ _ _ _ PW))) Ej (pw_p _ _ _ _ _ PW) eq_refl). lia.
  Qed.
  Lemma st_watched1 : forall x, watched_by x (c_data cl) -> watched_by x d1.
  Proof.
    intros x H. unfold cl, d1, first, second in *. rewrite Ed in H. destruct (Nat.eqb_spec l0 (lneg p)) as [e | n]; [| exact H].
    destruct H as [H | H]; cbn in H; [right | left]; cbn; congruence.
  Qed.
  Lemma st_nd1 : NoDup d1.
  Proof. eapply Permutation_NoDup; [apply st_perm1 |]. apply (gc_nodup _ _ _ (proj2 st_cl)). Qed.
  Lemma st_in1 : forall x, In x d1 -> x < 2 * nv.
  Proof. intros x H. apply (gc_lits _ _ _ (proj2 st_cl)). eapply Permutation_in; [symmetry; apply st_perm1 | assumption]. Qed.

  Definition keep_state : solver := set_wlist p (upd (wlist st p) i (c, first)) (set_data c d1 st).
  Lemma keep_inv : inv F q0 keep_state.
  Proof.
    unfold keep_state, set_wlist, set_data. change (wlist _ p) with (wlist st p). ssimp. fold cl.
    apply (reshape_inv F q0 st c cl d1); auto; try apply PW.
    - apply st_cl.
    - apply st_perm1.
    - apply st_shape1.
    - now rewrite upd_length.
    - intros r ws E. apply nth_upd_watch in E. destruct E as [[-> ->] | [N E]].
      + rewrite (fst_upd _ _ _ b) by exact Ei. split; [apply st_nd |]. intros c' b' Hin. destruct (Nat.eq_dec c' c) as [-> | Nc].
        * assert (Hs : went F (length (s_vars st)) (upd (s_arena st) c (mkCl d1 (c_learnt cl))) (s_trail st) (s_lim st) q0 p c b).
          { eapply went_same; [apply st_ent | apply st_cl | apply st_perm1 | | intros t _; apply st_watched1]. right. cbn. f_equal. apply st_second. }
          assert (b' = first).
          { apply In_nth_error in Hin. destruct Hin as [k Ek]. rewrite nth_upd in Ek. destruct (Nat.eqb_spec i k) as [e | Nk]; [subst k |].
            - destruct (i <? length (wlist st p)); congruence.
            - exfalso. apply Nk. apply (NoDup_nth_error (map fst (wlist st p))); [apply st_nd | rewrite map_length; eapply nth_some_lt; eauto |].
              rewrite (map_nth_error _ _ _ Ei), (map_nth_error _ _ _ Ek). reflexivity. }
          subst b'. eapply went_blk; [exact Hs | apply upd_same; eapply nth_some_lt; apply st_cl | left; reflexivity | apply st_early].
        * apply upd_in in Hin. destruct Hin as [K | Hin]; [congruence |]. apply went_other; auto. apply (i_w _ _ _ (pw_inv _ _ _ _ _ PW) p _ st_W). assumption.
      + destruct (i_w _ _ _ (pw_inv _ _ _ _ _ PW) r ws E) as [N1 K]. split; auto. intros c' b' Hin. destruct (Nat.eq_dec c' c) as [-> | Nc]; [| apply went_other; auto].
        eapply went_same; [apply K; assumption | apply st_cl | apply st_perm1 | | intros t _; apply st_watched1].
        destruct (K _ _ Hin) as (cl' & E1 & _ & Wb & _). apply st_watched1. assert (cl' = cl) by (pose proof (proj1 st_cl); congruence). subst cl'. exact Wb.
    - intros (x & y & r & b1 & b2 & H1 & H2 & H3 & H4). unfold cl in H1. rewrite Ed in H1. assert (x = l0) by congruence. assert (y = l1) by congruence. assert (r = rest) by congruence. subst x y r. clear H1. unfold d1.
      rewrite st_second. assert (Lp : p < length (s_watches st)) by (eapply nth_some_lt; apply st_W).
      assert (In_p : In (c, first) (nth p (upd (s_watches st) p (upd (wlist st p) i (c, first))) [])).
      { rewrite nth_upd_eq by exact Lp. apply nth_error_In with i. apply upd_same. eapply nth_some_lt; eauto. }
      assert (Nd := st_nd1). unfold d1 in Nd. rewrite st_second in Nd. apply NoDup_cons_iff in Nd. destruct Nd as [Nd1 Nd2].
      assert (Nfp : lneg first <> p). { intros K. apply Nd1. left. rewrite <- K. apply lneg_inv. }
      assert (In_f : exists b0, In (c, b0) (nth (lneg first) (upd (s_watches st) p (upd (wlist st p) i (c, first))) [])).
      { rewrite nth_upd_neq by auto. unfold first. case (l0 =? lneg p); eauto. }
      destruct In_f as [b0 In_f]. exists first, (lneg p), rest, b0, first. split; [reflexivity |]. split; [exact In_f |]. rewrite lneg_inv. auto.
    - intros c' d' Nc (x & y & r & b1 & b2 & H1 & H2 & H3 & H4). exists x, y, r, b1, b2. split; [exact H1 |].
      assert (K : forall z w, In (c', w) (nth z (s_watches st) []) -> In (c', w) (nth z (upd (s_watches st) p (upd (wlist st p) i (c, first))) [])).
      { intros z w Hw. destruct (Nat.eq_dec p z) as [<- | Nz]; [| now rewrite nth_upd_neq by auto]. rewrite nth_upd_eq by (eapply nth_some_lt; apply st_W).
        apply In_nth_error in Hw. destruct Hw as [k Ek]. apply nth_error_In with k. rewrite nth_upd. destruct (Nat.eqb_spec i k) as [e | Nk]; [subst k | exact Ek].
        exfalso. unfold wlist in Ei. rewrite Ei in Ek. congruence. }
      auto.
  Qed.
  Lemma keep_done : In first (s_trail st) -> pwinv F q0 p (S i) keep_state.
  Proof.
    intros Hf. destruct PW as [I P Q D]. constructor; auto using keep_inv.
    intros c' b' H. unfold keep_state, set_wlist, set_data in *. unfold wlist at 1 in H. ssimp in H. ssimp.
    rewrite nth_upd_eq in H by (eapply nth_some_lt; apply st_W). change (wlist _ p) with (wlist st p) in H.
    assert (Ei' : nth_error (upd (wlist st p) i (c, first)) i = Some (c, first)) by (apply upd_same; eapply nth_some_lt; eauto).
    destruct (in_firstn_S _ _ _ _ _ Ei' H) as [E | H'].
    - inversion E; subst c' b'. eexists. split; [apply upd_same; eapply nth_some_lt; apply st_cl |]. cbn [c_data]. eapply (st_true first); [exact Hf | left; reflexivity | right; left; reflexivity].
    - rewrite firstn_upd_out in H'. destruct (D c' b' H') as (cl' & E1 & Wt). destruct (Nat.eq_dec c' c) as [-> | N].
      + exfalso. apply (st_notp b'). apply in_or_app. left. exact H'.
      + exists cl'. rewrite upd_other by auto. auto.
  Qed.

  (** The watch moves to another literal. *)
  Variable k : nat.
  Definition move_state : solver :=
    watch_push (lneg (nth k rest 0)) (c, first)
      (set_wlist p (firstn i (wlist st p) ++ skipn (S i) (wlist st p)) (set_data c (first :: nth k rest 0 :: upd rest k (lneg p)) (set_data c d1 st))).
  Lemma move_inv : nth_error rest k = Some (nth k rest 0) -> ~ In (lneg (nth k rest 0)) (s_trail st) -> ~ In first (s_trail st) -> pwinv F q0 p i move_state.
  Proof.
    intros Ek Nf Nfi. set (lk := nth k rest 0) in *. set (d2 := first :: lk :: upd rest k (lneg p)).
    assert (P2 : Permutation (c_data cl) d2).
    { etransitivity; [apply st_perm1 |]. unfold d1, d2. constructor. rewrite st_second. now apply upd_perm. }
    assert (Vk : lk < 2 * nv) by (apply st_in1; unfold d1; right; right; eapply nth_error_In; eauto).
    assert (Nkp : lneg lk <> p).
    { intros E. apply Nf. rewrite E. apply st_p. }
    assert (Nold : forall w, ~ In (c, w) (wlist st (lneg lk))).
    { intros w Hw. assert (Lk : lneg lk < length (s_watches st)) by (rewrite (z_w _ (i_sz _ _ _ (pw_inv _ _ _ _ _ PW))); now apply lneg_lt).
      destruct (i_w _ _ _ (pw_inv _ _ _ _ _ PW) _ _ (wlist_nth _ _ Lk)) as [_ K]. destruct (K _ _ Hw) as (cl' & E1 & _ & Wb & _).
      assert (cl' = cl) by (pose proof (proj1 st_cl); congruence). subst cl'. apply st_watched1 in Wb. rewrite lneg_inv in Wb.
      pose proof st_nd1 as N. unfold d1 in N. apply NoDup_cons_iff in N. destruct N as [N1 N2]. apply NoDup_cons_iff in N2. destruct N2 as [N3 N4].
      apply nth_error_In in Ek. destruct Wb as [Wb | Wb]; cbn in Wb; inversion Wb as [E0].
      - apply N1. right. rewrite E0. exact Ek.
      - apply N3. rewrite E0. exact Ek. }
    assert (Lc : c < length (s_arena st)) by (eapply nth_some_lt; apply st_cl).
    set (ws := firstn i (wlist st p) ++ skipn (S i) (wlist st p)).
    assert (EqA : s_arena move_state = upd (s_arena st) c (mkCl d2 (c_learnt cl))).
    { unfold move_state, watch_push, set_wlist, set_data. ssimp. rewrite upd_upd. f_equal. f_equal. unfold cl_at. ssimp. rewrite nth_upd_eq by exact Lc. reflexivity. }
    assert (EqW : s_watches move_state = upd (upd (s_watches st) p ws) (lneg lk) (wlist st (lneg lk) ++ [(c, first)])).
    { unfold move_state, watch_push, set_wlist, set_data, wlist. ssimp. fold lk. rewrite nth_upd_neq by auto. reflexivity. }
    assert (Inv : inv F q0 (set_watches (s_watches move_state) (set_arena (s_arena move_state) st))).
    { rewrite EqA, EqW. apply (reshape_inv F q0 st c cl d2); auto; try apply PW.
      - apply st_cl.
      - right. intros l r E K. unfold cl in E. rewrite Ed in E. assert (E0 : l = l0) by congruence. rewrite E0 in K. exact (st_first0 Nfi K).
      - now rewrite !upd_length.
      - intros r ws' E. apply nth_upd_watch in E. destruct E as [[-> ->] | [N E]]; [| apply nth_upd_watch in E; destruct E as [[-> ->] | [N' E]]].
        + assert (Lk : lneg lk < length (s_watches st)) by (rewrite (z_w _ (i_sz _ _ _ (pw_inv _ _ _ _ _ PW))); now apply lneg_lt).
          destruct (i_w _ _ _ (pw_inv _ _ _ _ _ PW) _ _ (wlist_nth _ _ Lk)) as [N1 K]. split.
          * rewrite map_app. cbn. apply (Permutation_NoDup (l := c :: map fst (wlist st (lneg lk)))); [apply Permutation_cons_append |]. constructor; auto.
            intros H. apply in_map_iff in H. destruct H as ((c', w) & E & Hin). cbn in E. subst c'. now apply Nold in Hin.
          * intros c' b' Hin. apply in_app_or in Hin. destruct Hin as [Hin | [Hin | []]].
            -- apply went_other; [intros ->; now apply Nold in Hin | auto].
            -- inversion Hin; subst c' b'. exists (mkCl d2 (c_learnt cl)). split; [now apply upd_same |]. split; [eapply goodcl_perm; [apply st_cl | exact P2] |].
               cbn [c_data]. split; [right; cbn; now rewrite lneg_inv |]. split; [apply st_in1; left; reflexivity |]. split; [left; left; reflexivity |].
               intros j Lj Ej. exfalso. apply Nf. eapply nth_error_In; eauto.
        + split.
          * pose proof st_nd as N1. eapply Permutation_NoDup in N1; [| apply Permutation_map, (remove_at_perm _ _ _ _ Ei)]. cbn in N1. now inversion N1.
          * intros c' b' Hin. apply went_other; [intros ->; now apply st_notp in Hin |].
            apply (i_w _ _ _ (pw_inv _ _ _ _ _ PW) p _ st_W). eapply Permutation_in; [symmetry; apply (remove_at_perm _ _ _ _ Ei) |]. right. exact Hin.
        + destruct (i_w _ _ _ (pw_inv _ _ _ _ _ PW) r ws' E) as [N1 K]. split; auto. intros c' b' Hin. destruct (Nat.eq_dec c' c) as [-> | Nc]; [| apply went_other; auto].
          eapply went_same; [apply K; assumption | apply st_cl | exact P2 | | intros t Tt Wt; apply st_watched1 in Wt; destruct Wt as [Wt | Wt]; [left; exact Wt | exfalso; cbn in Wt; rewrite st_second in Wt; assert (t = lneg p) by congruence; subst t; exact (not_both (i_t _ _ _ (pw_inv _ _ _ _ _ PW)) p st_p Tt)]].
          destruct (K _ _ Hin) as (cl' & E1 & _ & Wb & _). assert (cl' = cl) by (pose proof (proj1 st_cl); congruence). subst cl'. apply st_watched1 in Wb.
          destruct Wb as [Wb | Wb]; [left; exact Wb |]. exfalso. cbn in Wb. rewrite st_second in Wb. inversion Wb as [E2]. apply lneg_inj in E2. congruence.
      - intros (x & y & r & b1 & b2 & H1 & H2 & H3 & H4). unfold cl in H1. rewrite Ed in H1. assert (x = l0) by congruence. assert (y = l1) by congruence. assert (r = rest) by congruence. subst x y r. clear H1. unfold d2.
        assert (Lk : lneg lk < length (upd (s_watches st) p ws)) by (rewrite upd_length, (z_w _ (i_sz _ _ _ (pw_inv _ _ _ _ _ PW))); now apply lneg_lt).
        assert (Nd := st_nd1). unfold d1 in Nd. rewrite st_second in Nd. apply NoDup_cons_iff in Nd. destruct Nd as [Nd1 Nd2].
        assert (Nfp : lneg first <> p). { intros K. apply Nd1. left. rewrite <- K. apply lneg_inv. }
        assert (Nfk : lneg lk <> lneg first). { intros K. apply lneg_inj in K. apply Nd1. right. rewrite <- K. eapply nth_error_In; eauto. }
        assert (In_f : exists b0, In (c, b0) (nth (lneg first) (upd (upd (s_watches st) p ws) (lneg lk) (wlist st (lneg lk) ++ [(c, first)])) [])).
        { rewrite nth_upd_neq by exact Nfk. rewrite nth_upd_neq by auto. unfold first. case (l0 =? lneg p); eauto. }
        destruct In_f as [b0 In_f]. exists first, lk, (upd rest k (lneg p)), b0, first. split; [reflexivity |]. split; [exact In_f |]. split; [| auto].
        rewrite nth_upd_eq by exact Lk. apply in_or_app. right. left. reflexivity.
      - intros c' d' Nc (x & y & r & b1 & b2 & H1 & H2 & H3 & H4). exists x, y, r, b1, b2. split; [exact H1 |].
        assert (K : forall z w, In (c', w) (nth z (s_watches st) []) -> In (c', w) (nth z (upd (upd (s_watches st) p ws) (lneg lk) (wlist st (lneg lk) ++ [(c, first)])) [])).
        { intros z w Hw. destruct (Nat.eq_dec (lneg lk) z) as [<- | Nz].
          - rewrite nth_upd_eq by (rewrite upd_length, (z_w _ (i_sz _ _ _ (pw_inv _ _ _ _ _ PW))); now apply lneg_lt). apply in_or_app. left. exact Hw.
          - rewrite nth_upd_neq by auto. destruct (Nat.eq_dec p z) as [<- | Nz2]; [| now rewrite nth_upd_neq by auto]. rewrite nth_upd_eq by (eapply nth_some_lt; apply st_W).
            unfold ws. eapply Permutation_in in Hw; [| apply (remove_at_perm _ _ _ _ Ei)]. destruct Hw as [Hw | Hw]; [congruence | exact Hw]. }
        auto. }
    assert (Eqst : move_state = set_watches (s_watches move_state) (set_arena (s_arena move_state) st)).
    { unfold move_state, watch_push, set_wlist, set_data. ssimp. reflexivity. }
    rewrite Eqst. destruct PW as [I P Q D]. constructor; ssimp; auto.
    intros c' b' H. assert (EW : wlist (set_watches (s_watches move_state) (set_arena (s_arena move_state) st)) p = ws).
    { unfold wlist at 1. ssimp. rewrite EqW, nth_upd_neq by auto. apply nth_upd_eq. eapply nth_some_lt; apply st_W. }
    rewrite EW in H. assert (L : i <= length (wlist st p)) by (apply nth_some_lt in Ei; lia).
    assert (EF : firstn i ws = firstn i (wlist st p)).
    { unfold ws. rewrite firstn_app, firstn_firstn, Nat.min_id, firstn_length_le by exact L. rewrite Nat.sub_diag. cbn. now rewrite app_nil_r. }
    rewrite EF in H. destruct (D c' b' H) as (cl' & E1 & Wt). rewrite EqA. exists cl'. split; [| exact Wt]. rewrite upd_other; auto.
    intros <-. apply (st_notp b'). apply in_or_app. left. exact H.
  Qed.
End Step.

Lemma inv_qhead : forall F q st x, inv F q st -> inv F q (set_qhead x st).
Proof. intros F q st x [Z I W C V H]. constructor; auto. destruct Z. constructor; auto. Qed.
Lemma unit_ent : forall F l rest, entails F (l :: rest) -> (forall r, In r rest -> entails F [lneg r]) -> entails F [l].
Proof.
  intros F l rest H K V HV. destruct (H V HV) as (x & [-> | Hx] & Tx); [exists x; split; [left |]; auto |].
  destruct (K x Hx V HV) as (y & [<- | []] & Ty). apply lit_true_neg in Ty. contradiction.
Qed.
Lemma inv_next : forall F q0 p st, inv F q0 st -> nth_error (s_trail st) q0 = Some p ->
  (forall c b, In (c, b) (wlist st p) -> exists cl, nth_error (s_arena st) c = Some cl /\ wtrue2 (s_trail st) (s_lim st) q0 b (c_data cl)) -> inv F (S q0) st.
Proof.
  intros F q0 p st [Z I W C V H] Ep D. constructor; auto.
  - destruct I. constructor; auto. eapply nth_some_lt; eauto.
  - intros r ws E. destruct (W r ws E) as [N K]. split; auto. intros c b Hin. destruct (K c b Hin) as (cl & E1 & G & Wb & Vb & Hb & Ht).
    exists cl. repeat (split; [assumption |]). intros i Li Ei. destruct (Nat.eq_dec i q0) as [-> | Ni]; [| apply Ht; auto; lia].
    assert (r = p) by congruence. subst r. assert (In (c, b) (wlist st p)) by (unfold wlist; now rewrite (nth_of_some _ _ _ _ [] E)).
    destruct (D c b H0) as (cl' & E2 & Wt). congruence.
Qed.

Lemma keep_frame : forall st p i c w d, pframe st (set_wlist p (upd (wlist st p) i (c, w)) (set_data c d st)).
Proof. intros. apply pframe_same; unfold set_wlist, set_data; ssimp; rewrite ?upd_length; try reflexivity. apply learnt_upd. Qed.
Lemma enq_frame : forall F q st l c, inv F q st -> l < 2 * length (s_vars st) -> value st l = None -> pframe st (enq l (Some c) st).
Proof.
  intros F q st l c I Hl U. unfold enq. pose proof (val_undef (i_t _ _ _ I) l Hl U) as [U1 U2]. constructor; ssimp; auto.
  - apply upd_length.
  - eauto.
  - intros i m E. rewrite nth_snoc in E. destruct (Nat.eqb_spec i (length (s_trail st))) as [-> | N].
    + inversion E; subst m. right. rewrite nth_upd_eq by (rewrite (z_r _ (i_sz _ _ _ I)); now apply lvar_lt). discriminate.
    + left. split; [eapply nth_some_lt; eauto |]. rewrite nth_upd_neq; auto. intros K. apply nth_error_In in E.
      apply same_var in K. destruct K as [K | K]; subst; [contradiction |]. rewrite lneg_inv in U2. contradiction.
Qed.

Definition prop_post (F : list (list nat)) (q0 : nat) (st : solver) (o : option nat * solver) : Prop :=
  pframe st (snd o) /\ match fst o with None => inv F (S q0) (snd o) /\ s_qhead (snd o) = S q0 | Some c => conflicting F q0 (snd o) c end.

Lemma prop_watches_ok : forall F q0 p fuel i st, pwinv F q0 p i st -> rspec (prop_watches fuel p i st) (prop_post F q0 st).
Proof.
  intros F q0 p. induction fuel as [| fu IH]; intros i st PW; [exact Logic.I |]. cbn [prop_watches].
  destruct (nth_error (wlist st p) i) as [[c b] |] eqn:Ei.
  2:{ cbn. split; cbn [fst snd]; [apply pframe_refl |]. destruct PW as [I P Q D]. split; auto. apply (inv_next F q0 p); auto.
      intros c b Hin. apply (D c b). rewrite firstn_all2; [exact Hin |]. now apply nth_error_None. }
  destruct (value st b) as [[|]|] eqn:Vb; cbn [is_true]; [apply IH; eapply step_blocked; eauto | |];
    pose proof (st_cl F q0 p i st PW c b Ei) as [Ec Gc]; pose proof (gc_len _ _ _ Gc) as Lc;
    destruct (c_data (cl_at st c)) as [| l0 [| l1 rest]] eqn:Ed; try (cbn in Lc; lia);
    pose proof (st_second F q0 p i st PW c b Ei l0 l1 rest Ed) as Es; cbn zeta;
    set (first := if l0 =? lneg p then l1 else l0); set (second := if l0 =? lneg p then lneg p else l1) in *;
    replace (second =? lneg p) with true by (symmetry; apply Nat.eqb_eq; exact Es); cbn [negb];
    set (st1 := set_data c (first :: second :: rest) st).
  all: assert (Ev : forall x, value st1 x = value st x) by reflexivity.
  all: assert (Ew : wlist st1 p = wlist st p) by reflexivity.
  all: pose proof (keep_inv F q0 p i st PW c b Ei l0 l1 rest Ed) as KI; pose proof (keep_done F q0 p i st PW c b Ei l0 l1 rest Ed) as KD.
  all: unfold keep_state in KI, KD; fold first second in KI, KD; fold st1 in KI, KD.
  all: assert (Vf : first < 2 * length (s_vars st)) by (apply (st_in1 F q0 p i st PW c b Ei l0 l1 rest Ed); left; reflexivity).
  all: pose proof (i_t _ _ _ (pw_inv _ _ _ _ _ PW)) as TI.
  all: assert (NB : is_true (value st1 first) = true -> negb (first =? b) = true) by
    (rewrite Ev; intros Ht; destruct (Nat.eqb_spec first b) as [e | n]; [rewrite e, Vb in Ht; discriminate | reflexivity]).
  all: destruct (negb (first =? b) && is_true (value st1 first)) eqn:Ef;
    [apply andb_true_iff in Ef; destruct Ef as [_ Ef]; rewrite Ev in Ef; destruct (value st first) as [[|]|] eqn:Ef'; try discriminate;
     eapply rspec_weak; [apply IH, KD, (val_true TI first Vf Ef') |]; intros [r st'] [H1 H2]; split; [eapply pframe_trans; [apply keep_frame | exact H1] | exact H2] |].
  all: assert (Nt : value st first <> Some true) by
    (intros Ht; rewrite Ev in *; rewrite Ht in Ef, NB; cbn [is_true] in Ef, NB; rewrite (NB eq_refl) in Ef; discriminate).
  all: assert (NfT : ~ In first (s_trail st)) by (intros K; apply (in_true TI) in K; unfold value in Nt; contradiction).
  all: destruct (find_watch st1 rest) as [k |] eqn:Efw.
  1,3: apply find_watch_some in Efw; destruct Efw as [Ek Nk]; rewrite Ev in Nk.
  1,2: assert (NkT : ~ In (lneg (nth k rest 0)) (s_trail st)) by (intros K; apply (in_false TI) in K; unfold value in Nk; contradiction).
  1,2: eapply rspec_weak; [apply IH; apply (move_inv F q0 p i st PW c b Ei l0 l1 rest Ed k Ek NkT NfT) |].
  1,2: intros [r st'] [H1 H2]; split; [eapply pframe_trans; [| exact H1] | exact H2]; apply pframe_same; unfold st1, watch_push, set_wlist, set_data, cl_at; ssimp; rewrite ?upd_length; try reflexivity; intros k0; rewrite !learnt_upd; reflexivity.
  all: pose proof (find_watch_none _ _ Efw) as Fr.
  all: assert (Fal : forall x, In x (second :: rest) -> In (lneg x) (s_trail st)) by
    (intros x [<- | Hx]; [rewrite Es, lneg_inv; apply (st_p F q0 p i st PW) |];
     apply (val_false TI x); [apply (st_in1 F q0 p i st PW c b Ei l0 l1 rest Ed); right; right; exact Hx | apply (Fr x Hx)]).
  all: set (st2 := set_wlist p (upd (wlist st1 p) i (c, first)) st1) in *; change (upd (wlist st p) i (c, first)) with (upd (wlist st1 p) i (c, first)) in *.
  all: assert (Ev2 : forall x, value st2 x = value st x) by reflexivity.
  all: rewrite Ev2; destruct (value st first) as [[|]|] eqn:Ef'; [congruence | |]; cbn [is_false negb].
  all: fold st2 in KI, KD.
  all: assert (Ec2 : nth_error (s_arena st2) c = Some (mkCl (first :: second :: rest) (c_learnt (cl_at st c)))) by
    (unfold st2, st1, set_wlist, set_data; ssimp; apply upd_same; eapply nth_some_lt; eauto).
  all: assert (Gc2 : goodcl F (length (s_vars st2)) (mkCl (first :: second :: rest) (c_learnt (cl_at st c)))) by
    (eapply goodcl_perm; [exact Gc |]; rewrite Ed; rewrite <- Ed; apply (st_perm1 p st c l0 l1 rest Ed)).
  1,3: cbn; split; cbn [fst snd];
    [eapply pframe_trans; [apply (keep_frame st p i c first (first :: second :: rest)) |]; apply pframe_same; reflexivity |];
    split; [apply inv_qhead; exact KI |]; split; [reflexivity |];
    split; [eapply nth_some_lt; apply (pw_p _ _ _ _ _ PW) |];
    eexists _, q0, p; split; [exact Ec2 |]; split; [exact Gc2 |]; split;
    [intros x [<- | Hx]; [apply (val_false TI first Vf Ef') | apply (Fal x Hx)] |];
    split; [lia |]; split; [apply (pw_p _ _ _ _ _ PW) |]; cbn [c_data]; right; left; exact Es.
  all: rewrite (enqueue_ok first (Some c) st2) by (rewrite Ev2; exact Ef'); cbn [rbind].
  all: assert (Rk : reason_ok F (length (s_vars st2)) (s_arena st2) (s_trail st2) (length (s_trail st2)) first c) by
    (eexists _, (second :: rest); split; [exact Ec2 |]; split; [exact Gc2 |]; split; [reflexivity |];
     intros r Hr; apply Fal in Hr; apply In_nth_error in Hr; destruct Hr as [j Ej]; exists j; split; [apply nth_some_lt in Ej; exact Ej | exact Ej]).
  all: assert (EI : inv F q0 (enq first (Some c) st2)) by
    (apply enq_inv; auto; intros D0; apply (unit_ent F first (second :: rest)); [apply (gc_ent _ _ _ Gc2) |];
     intros r Hr; apply Fal in Hr; apply In_nth_error in Hr; destruct Hr as [j Ej]; apply (t_ent0 _ _ _ _ _ _ _ _ TI j); auto;
     pose proof (lv_le_len (s_lim st) j); unfold dlevel in D0; change (s_lim st2) with (s_lim st) in D0; lia).
  all: assert (Lq : lv (s_lim st) q0 = length (s_lim st)) by (apply (cur_level TI); lia).
  all: assert (PW' : pwinv F q0 p (S i) (enq first (Some c) st2)) by
    (constructor; [exact EI | apply nth_app_some; apply (pw_p _ _ _ _ _ PW) | apply (pw_q _ _ _ _ _ PW) |];
     intros c' b' Hin; unfold enq; ssimp;
     assert (Hin' : In (c', b') (firstn (S i) (upd (wlist st p) i (c, first)))) by
       (unfold enq, wlist at 1 in Hin; ssimp in Hin; unfold st2, set_wlist in Hin; ssimp in Hin; rewrite nth_upd_eq in Hin by (eapply nth_some_lt; apply (st_W F q0 p i st PW)); exact Hin);
     destruct (in_firstn_S _ (upd (wlist st p) i (c, first)) i (c, first) (c', b') ltac:(apply upd_same; eapply nth_some_lt; eauto) Hin') as [E | H'];
     [inversion E; subst c' b'; eexists; split; [exact Ec2 |]; exists (length (s_trail st)), first;
      split; [rewrite nth_snoc, Nat.eqb_refl; reflexivity |]; split; [left; reflexivity |]; split; [right; left; reflexivity |]; change (s_lim st2) with (s_lim st); rewrite Lq; apply lv_le_len |];
     rewrite firstn_upd_out in H'; destruct (pw_done _ _ _ _ _ PW c' b' H') as (cl' & E1 & Wt);
     destruct (Nat.eq_dec c' c) as [-> | N];
     [exfalso; apply (st_notp F q0 p i st PW c b Ei b'); apply in_or_app; left; exact H' |
      exists cl'; split; [unfold st2, st1, set_wlist, set_data; ssimp; rewrite upd_other by auto; exact E1 | apply wtrue2_app; exact Wt]]).
  all: eapply rspec_weak; [apply IH, PW' |]; intros [r st'] [H1 H2]; split; [| exact H2];
    eapply pframe_trans; [apply (keep_frame st p i c first (first :: second :: rest)) |]; eapply pframe_trans; [| exact H1];
    eapply (enq_frame F q0); [exact KI | exact Vf | exact Ef'].
Qed.

(** ** Propagation *)
Definition sinv (F : list (list nat)) (st : solver) : Prop := inv F (s_qhead st) st.
Definition propagated (F : list (list nat)) (st : solver) (o : option nat * solver) : Prop :=
  pframe st (snd o) /\
  match fst o with
  | None => sinv F (snd o) /\ s_qhead (snd o) = length (s_trail (snd o))
  | Some c => exists q0, s_qhead st <= q0 /\ conflicting F q0 (snd o) c
  end.
Lemma propagate_loop_ok : forall F fw fuel st, sinv F st -> rspec (propagate_loop fuel fw st) (propagated F st).
Proof.
  intros F fw. induction fuel as [| fu IH]; intros st I; [exact Logic.I |]. cbn [propagate_loop].
  destruct (nth_error (s_trail st) (s_qhead st)) as [p |] eqn:Ep.
  - eapply rspec_bind.
    + apply (prop_watches_ok F (s_qhead st) p fw 0). constructor; auto.
      * apply inv_qhead. exact I.
      * intros c b [].
    + intros [o st1] [H1 H2]. cbn [fst snd] in H1, H2. assert (FR : pframe st st1).
      { eapply pframe_trans; [| exact H1]. apply pframe_same; reflexivity. }
      destruct o as [c |].
      * cbn. split; auto. exists (s_qhead st). auto.
      * destruct H2 as [H2 H3]. eapply rspec_weak; [apply IH; unfold sinv; now rewrite H3 |]. intros [o st2] [H4 H5]. cbn [fst snd] in *. split; cbn [fst snd]; [eapply pframe_trans; eauto |].
        destruct o as [c |]; auto. destruct H5 as (q0 & L & H5). exists q0. split; auto. lia.
  - cbn. split; cbn; [apply pframe_refl |]. split; auto. apply nth_error_None in Ep. pose proof (t_q _ _ _ _ _ _ _ _ (i_t _ _ _ I)). lia.
Qed.
Lemma propagate_ok : forall F fuel st, sinv F st -> rspec (propagate fuel st) (propagated F st).
Proof. intros. apply propagate_loop_ok. assumption. Qed.

(** ** Backtracking *)
Record undone (ls : list nat) (st st' : solver) : Prop := {
  u_eq : exists vs h, st' = set_heap h (set_vars vs st);
  u_len : length (s_vars st') = length (s_vars st);
  u_in : forall v, In v (map lvar ls) -> v < length (s_vars st) -> v_asg (nth v (s_vars st') dvar) = None;
  u_out : forall v, ~ In v (map lvar ls) -> nth v (s_vars st') dvar = nth v (s_vars st) dvar;
  u_lvl : forall v, v_lvl (nth v (s_vars st') dvar) = v_lvl (nth v (s_vars st) dvar) /\ v_dec (nth v (s_vars st') dvar) = v_dec (nth v (s_vars st) dvar);
  u_hok : hok (length (s_vars st)) (s_heap st') /\ length (hix (s_heap st)) <= length (hix (s_heap st'));
  u_heap : forall v, In v (hp (s_heap st')) <-> In v (hp (s_heap st)) \/ In v (map lvar ls) }.
Lemma undo_ok : forall ls st, (forall l, In l ls -> l < 2 * length (s_vars st)) -> length (s_acts st) = length (s_vars st) ->
  (forall v, v < length (s_vars st) -> v_dec (nth v (s_vars st) dvar) = true) -> hok (length (s_vars st)) (s_heap st) ->
  exists st', undo_lits ls st = Ok st' /\ undone ls st st'.
Proof.
  induction ls as [| l r IH]; intros st Hl Za Zd Hh; cbn [undo_lits].
  - exists st. split; auto. constructor; auto; try (intros; contradiction); try (split; auto; fail).
    + exists (s_vars st), (s_heap st). destruct st; reflexivity.
    + intros v. cbn. tauto.
  - destruct (IH st) as (st1 & E & U); auto. { intros x Hx. apply Hl. right. assumption. }
    rewrite E. cbn [rbind]. set (x := var_at st1 (lvar l)). set (st2 := set_vars _ st1).
    assert (Lv : lvar l < length (s_vars st)) by (apply lvar_lt, Hl; left; auto).
    assert (L1 : length (s_vars st1) = length (s_vars st)) by apply U.
    assert (A1 : s_acts st2 = s_acts st) by (destruct (u_eq _ _ _ U) as (vs & h & ->); reflexivity).
    assert (D2 : v_dec (var_at st2 (lvar l)) = true).
    { unfold st2, var_at. ssimp. rewrite nth_upd_eq by (rewrite L1; exact Lv). cbn. unfold x, var_at. rewrite (proj2 (u_lvl _ _ _ U _)). auto. }
    assert (V2 : s_vars st2 = upd (s_vars st1) (lvar l) (mkVar None (v_lvl x) (negb (s_bb st1) && lsign l) (v_dec x))) by reflexivity.
    assert (G : forall h, hok (length (s_vars st)) h -> length (hix (s_heap st)) <= length (hix h) -> (forall v, In v (hp h) <-> v = lvar l \/ In v (hp (s_heap st1))) ->
      undone (l :: r) st (set_heap h st2)).
    { intros h Hh1 Hh2 Hh3. constructor.
      - destruct (u_eq _ _ _ U) as (vs & h1 & Eq). exists (s_vars st2), h. unfold st2. rewrite Eq. reflexivity.
      - ssimp. rewrite V2, upd_length. exact L1.
      - intros v Hv Lv'. ssimp. rewrite V2. destruct (Nat.eq_dec (lvar l) v) as [<- | N]; [now rewrite nth_upd_eq by (rewrite L1; exact Lv) |].
        rewrite nth_upd_neq by auto. destruct Hv as [Hv | Hv]; [contradiction |]. now apply (u_in _ _ _ U).
      - intros v Hv. ssimp. rewrite V2, nth_upd_neq by (intros K; apply Hv; left; assumption). apply (u_out _ _ _ U). intros K. apply Hv. right. assumption.
      - intros v. ssimp. rewrite V2. destruct (Nat.eq_dec (lvar l) v) as [<- | N].
        + rewrite nth_upd_eq by (rewrite L1; exact Lv). cbn. unfold x, var_at. apply (u_lvl _ _ _ U).
        + rewrite nth_upd_neq by auto. apply (u_lvl _ _ _ U).
      - split; assumption.
      - intros v. ssimp. rewrite Hh3, (u_heap _ _ _ U). cbn [map In]. split; intros [K | K]; auto; destruct K; auto. }
    unfold insert_var_order. rewrite D2, andb_true_r. change (s_heap st2) with (s_heap st1). rewrite A1.
    pose proof (proj1 (u_hok _ _ _ U)) as Hh1. destruct (in_heap (s_heap st1) (lvar l)) eqn:Ein; cbn [negb].
    + exists st2. split; auto. replace st2 with (set_heap (s_heap st1) st2) by (unfold st2; destruct st1; reflexivity).
      apply G; [exact Hh1 | apply U |]. intros v. split; auto. intros [-> | K]; auto. now apply (hok_in _ _ _ Hh1).
    + rewrite <- Za in Hh1. destruct (hok_insert (s_acts st) (s_heap st1) (lvar l) Hh1) as (h' & E1 & H1 & H2 & H3 & H4); auto; [lia |].
      rewrite E1. cbn [rbind]. exists (set_heap h' st2). split; auto. apply G; [rewrite <- Za; exact H1 | | exact H2]. pose proof (proj2 (u_hok _ _ _ U)). lia.
Qed.

Lemma not_in_both : forall A (f : A -> nat) (a b : list A) x y, NoDup (map f (a ++ b)) -> In x a -> In y b -> f x <> f y.
Proof.
  intros A f a b x y N Hx Hy E. rewrite map_app in N. revert N. induction a as [| z a IH]; [destruct Hx |]. cbn. intros N. inversion N; subst.
  destruct Hx as [-> | Hx]; [| auto]. apply H1. apply in_or_app. right. rewrite E. apply in_map. assumption.
Qed.

(** Undoing the levels from [k] on. *)
Definition cancelled (F : list (list nat)) (k : nat) (st st' : solver) : Prop :=
  sinv F st' /\ s_qhead st' = length (s_trail st') /\
  exists t vs h, nth_error (s_lim st) k = Some t /\ t <= length (s_trail st) /\
    st' = set_lim (firstn k (s_lim st)) (set_trail (firstn t (s_trail st)) (set_qhead t (set_heap h (set_vars vs st)))) /\
    length vs = length (s_vars st) /\
    (forall l, In l (firstn t (s_trail st)) -> nth (lvar l) vs dvar = nth (lvar l) (s_vars st) dvar) /\
    (forall l, In l (skipn t (s_trail st)) -> v_asg (nth (lvar l) vs dvar) = None) /\
    (forall v, v_lvl (nth v vs dvar) = v_lvl (nth v (s_vars st) dvar)).
Lemma cancel_ok : forall F q st k t, inv F q st -> nth_error (s_lim st) k = Some t -> exists st', cancel_until k st = Ok st' /\ cancelled F k st st'.
Proof.
  intros F q st k t [Z I W C V H] Ek. unfold cancel_until. rewrite Ek.
  assert (Lt : t <= q) by (apply (t_lim _ _ _ _ _ _ _ _ I); eapply nth_error_In; eauto). pose proof (t_q _ _ _ _ _ _ _ _ I) as Tq.
  destruct (undo_ok (skipn t (s_trail st)) st) as (st1 & E & U).
  - intros l Hl. apply (t_valid _ _ _ _ _ _ _ _ I). rewrite <- (firstn_skipn t (s_trail st)). apply in_or_app. auto.
  - apply Z.
  - apply Z.
  - apply H.
  - rewrite E. cbn [rbind]. eexists. split; [reflexivity |]. destruct (u_eq _ _ _ U) as (vs & h & Eq).
    assert (Evs : s_vars st1 = vs) by (rewrite Eq; reflexivity). assert (Eh : s_heap st1 = h) by (rewrite Eq; reflexivity).
    assert (LV : length vs = length (s_vars st)) by (rewrite <- Evs; apply U).
    set (T := s_trail st) in *. set (lim := s_lim st) in *. set (nv := length (s_vars st)) in *.
    assert (LT : length (firstn t T) = t) by (apply firstn_length_le; lia).
    assert (Sp : T = firstn t T ++ skipn t T) by (symmetry; apply firstn_skipn).
    assert (NF : forall l, In l (firstn t T) -> ~ In (lvar l) (map lvar (skipn t T))).
    { intros l Hl K. apply in_map_iff in K. destruct K as (m & Em & Hm). pose proof (t_nodup _ _ _ _ _ _ _ _ I) as N. rewrite Sp in N.
      exact (not_in_both _ lvar _ _ l m N Hl Hm (eq_sym Em)). }
    assert (LK : forall i, i < t -> lv lim i <= k).
    { intros i Hi. pose proof (proj1 (lv_gt lim i k t (t_sorted _ _ _ _ _ _ _ _ I) Ek)). lia. }
    assert (KL : forall i, lv lim i <= k -> i < t).
    { intros i Hi. pose proof (proj2 (lv_gt lim i k t (t_sorted _ _ _ _ _ _ _ _ I) Ek)). lia. }
    assert (LF : forall i, i < t -> lv (firstn k lim) i = lv lim i) by (intros; apply lv_firstn; auto).
    assert (TF : forall i l, nth_error (firstn t T) i = Some l -> i < t /\ nth_error T i = Some l).
    { intros i l El. rewrite nth_firstn in El. destruct (Nat.ltb_spec i t); [auto | discriminate]. }
    assert (FT : forall i l, i < t -> nth_error T i = Some l -> nth_error (firstn t T) i = Some l).
    { intros i l Hi El. rewrite nth_firstn. destruct (Nat.ltb_spec i t); [auto | lia]. }
    rewrite Eq. ssimp. unfold cancelled, sinv. ssimp. split; [| split; [symmetry; exact LT |]].
    + assert (TI : tinv F nv vs (firstn t T) (firstn k lim) t (s_reasons st) (s_arena st)).
      { constructor.
        - intros l Hl. apply (t_valid _ _ _ _ _ _ _ _ I). eapply in_firstn; eauto.
        - pose proof (t_nodup _ _ _ _ _ _ _ _ I) as N. rewrite Sp, map_app in N. revert N. generalize (map lvar (skipn t T)), (map lvar (firstn t T)). intros b a N.
          induction a as [| z a IHa]; [constructor |]. cbn in N. inversion N; subst. constructor; auto. intros K. apply H2. apply in_or_app. auto.
        - intros l Hl. destruct (in_dec Nat.eq_dec (lvar l) (map lvar (skipn t T))) as [Hi | Hi].
          + split; [| intros K; exfalso; exact (NF l K Hi)]. unfold asg_of. rewrite <- Evs, (u_in _ _ _ U) by (auto; now apply lvar_lt). destruct (lsign l); discriminate.
          + unfold asg_of. rewrite <- Evs, (u_out _ _ _ U) by auto. change (asg_of (s_vars st) l = Some true <-> In l (firstn t T)). rewrite (t_val _ _ _ _ _ _ _ _ I l Hl).
            fold T. rewrite Sp at 1. rewrite in_app_iff. split; [intros [K | K]; auto; exfalso; apply Hi; now apply in_map | auto].
        - intros i l El. apply TF in El. destruct El as [Li El]. rewrite <- Evs, (proj1 (u_lvl _ _ _ U _)), LF by auto. now apply (t_lvl _ _ _ _ _ _ _ _ I).
        - apply sorted_firstn, I.
        - lia.
        - intros x Hx. apply In_nth_error in Hx. destruct Hx as [a Ea]. rewrite nth_firstn in Ea. destruct (Nat.ltb_spec a k); [| discriminate].
          apply (t_sorted _ _ _ _ _ _ _ _ I a k); auto. lia.
        - intros i l El. apply TF in El. destruct El as [Li El]. rewrite LF by auto. intros Lp. pose proof (t_reason _ _ _ _ _ _ _ _ I i l El Lp) as K.
          destruct (nth (lvar l) (s_reasons st) None) as [c |].
          + destruct K as (cl & rest & K1 & K2 & K3 & K4). exists cl, rest. repeat (split; [assumption |]). intros r Hr. destruct (K4 r Hr) as (j & Lj & Ej). exists j. split; auto. apply FT; auto. lia.
          + intros j Lj. rewrite LF by lia. auto.
        - intros i l El. apply TF in El. destruct El as [Li El]. rewrite LF by auto. now apply (t_ent0 _ _ _ _ _ _ _ _ I). }
      constructor; ssimp; rewrite ?LV; auto.
      * destruct Z. constructor; ssimp; rewrite ?LV; auto. intros v Hv. rewrite <- Evs, (proj2 (u_lvl _ _ _ U _)). auto.
      * intros p ws Ep. destruct (W p ws Ep) as [N K]. split; auto. intros c b Hin. destruct (K c b Hin) as (cl & K1 & K2 & K3 & K4 & K5 & K6).
        exists cl. repeat (split; [assumption |]). split.
        -- destruct K5 as [K5 | (j & Ej & Lj)]; [auto |]. right. assert (j < t) by (apply KL; fold lim in Lj; lia). exists j. rewrite LF by auto. auto.
        -- intros i Li Ei. apply TF in Ei. destruct Ei as [_ Ei]. destruct (K6 i ltac:(lia) Ei) as (j & u & Ej & Hu & Hw & Lj).
           assert (j < t) by (apply KL; specialize (LK i Li); fold lim in Lj; lia). exists j, u. rewrite !LF by auto. auto.
      * intros D HD. destruct (C D HD) as [(j & u & Ej & Hu & Lj) | K]; [left | right; exact K].
        assert (j < t) by (apply KL; fold lim in Lj; lia). exists j, u. rewrite LF by auto. auto.
      * destruct H as (H1 & H2 & H3). pose proof (u_hok _ _ _ U) as [U1 U2]. rewrite Eh in U1, U2. split; [exact U1 |]. split; [fold nv in H2; lia |].
        intros v Hv Na. rewrite <- Eh. apply (u_heap _ _ _ U). destruct (in_dec Nat.eq_dec v (map lvar (skipn t T))) as [Hi | Hi]; [auto |].
        left. apply H3; auto. rewrite <- Evs, (u_out _ _ _ U) in Na by auto. exact Na.
    + exists t, vs, h. split; [exact Ek |]. split; [fold T; lia |]. split; [reflexivity |]. split; [exact LV |]. split; [| split].
      * intros l Hl. rewrite <- Evs. apply (u_out _ _ _ U). auto.
      * intros l Hl. rewrite <- Evs. apply (u_in _ _ _ U); [now apply in_map |]. apply lvar_lt, (t_valid _ _ _ _ _ _ _ _ I). fold T. rewrite Sp. apply in_or_app. auto.
      * intros v. rewrite <- Evs. apply (u_lvl _ _ _ U).
Qed.
