(** The solver of the DNNF compiler as long as there is no conflict. *)
From Coq Require Import List Bool Arith ZArith NArith Lia Permutation.
From Verif Require Import Base Syntax Vec SatSpec SatModel SatBasics SatHeap SatInv SatProp SatDb SatSearch SatFront SatExact DnnfCompModel DnnfCompVal.
Import ListNotations.
Local Open Scope nat_scope.

Section Dst.
  Variable F : list (list nat).

  (** Every clause of the solver is a clause of [F] without literals that are false at level 0. *)
  Definition origin (st : solver) : Prop := forall c, c < length (s_arena st) -> exists C, In C F /\ incl (adata (s_arena st) c) C /\
    forall x, In x C -> In x (adata (s_arena st) c) \/ at0 st (lneg x).
  Record dst (st : solver) : Prop := {
    d_inv : inv F (length (s_trail st)) st;
    d_q : s_qhead st = length (s_trail st);
    d_x : xws st;
    d_org : origin st }.

  Lemma origin_quiet : forall a b, quiet a b -> length (s_arena b) = length (s_arena a) -> origin a -> origin b.
  Proof.
    intros a b Q L O c Hc. destruct (O c ltac:(lia)) as (C & H1 & H2 & H3). exists C. split; auto. destruct (proj2 (q_ar _ _ Q) c ltac:(lia)) as [P _]. split.
    - intros x Hx. apply H2. eapply Permutation_in; [symmetry; exact P | exact Hx].
    - intros x Hx. destruct (H3 x Hx) as [K | K]; [left; eapply Permutation_in; eauto | right; apply (q_at _ _ Q); exact K].
  Qed.
  Lemma value_vok : forall st, vok (value st).
  Proof. intros st. split; [intros l; apply asg_neg |]. intros l r E H. unfold value in *. apply asg_undef. apply asg_undef in H. now rewrite <- E. Qed.
  Lemma value_out : forall st l, 2 * length (s_vars st) <= l -> value st l = None.
  Proof.
    intros st l H. unfold value. apply asg_undef. rewrite nth_overflow; [reflexivity |]. destruct (le_lt_dec (length (s_vars st)) (lvar l)) as [K | K]; [exact K |]. apply lvar_lt in K. lia.
  Qed.
  Lemma value_true : forall st l, dst st -> (value st l = Some true <-> In l (s_trail st)).
  Proof.
    intros st l D. pose proof (i_t _ _ _ (d_inv st D)) as I. split; intros H.
    - destruct (le_lt_dec (2 * length (s_vars st)) l) as [K | K]; [rewrite value_out in H by exact K; discriminate | eapply val_true; eauto].
    - apply (in_true I). exact H.
  Qed.
  Lemma value_false : forall st l, dst st -> (value st l = Some false <-> In (lneg l) (s_trail st)).
  Proof. intros st l D. rewrite <- (value_true _ _ D). rewrite (proj1 (value_vok st)). destruct (value st l) as [[|] |]; cbn; split; congruence. Qed.
  Lemma value_none : forall st l, dst st -> (value st l = None <-> ~ In l (s_trail st) /\ ~ In (lneg l) (s_trail st)).
  Proof. intros st l D. rewrite <- (value_true _ _ D), <- (value_false _ _ D). destruct (value st l) as [[|] |]; split; try tauto; try congruence. intros _. split; congruence. Qed.
  Lemma value_same : forall a b l, dst a -> dst b -> s_trail a = s_trail b -> value a l = value b l.
  Proof.
    intros a b l Da Db E. destruct (value b l) as [[|] |] eqn:K.
    - apply (value_true _ _ Da). rewrite E. now apply (value_true _ _ Db).
    - apply (value_false _ _ Da). rewrite E. now apply (value_false _ _ Db).
    - apply (value_none _ _ Da). rewrite E. now apply (value_none _ _ Db).
  Qed.

  (** The propagation is complete: a clause is satisfied or has two undefined literals. *)
  Lemma two_undef : forall st C, dst st -> In C F -> (exists l, In l C /\ value st l = Some true) \/
    exists x y, x <> y /\ In x C /\ In y C /\ value st x = None /\ value st y = None.
  Proof.
    intros st C D HC. pose proof (d_inv st D) as I. destruct (i_c _ _ _ I C HC) as [(j & t & H1 & H2 & _) | (c & cl & (x & y & r & b1 & b2 & Ed & P1 & P2 & _) & Ec & _ & Sub)].
    - left. exists t. split; auto. apply (value_true _ _ D). eapply nth_error_In; eauto.
    - assert (W : forall z b, In (c, b) (nth (lneg z) (s_watches st) []) -> goodcl F (length (s_vars st)) cl /\ (In (lneg z) (s_trail st) -> exists t, In t (c_data cl) /\ In t (s_trail st))).
      { intros z b Hb. assert (Ew : nth_error (s_watches st) (lneg z) = Some (nth (lneg z) (s_watches st) [])).
        { apply nth_err_def. destruct (Nat.lt_ge_cases (lneg z) (length (s_watches st))); auto. rewrite nth_overflow in Hb by auto. destruct Hb. }
        destruct (i_w _ _ _ I _ _ Ew) as [_ Wi]. destruct (Wi c b Hb) as (cl' & E1 & Gc & _ & _ & _ & T). assert (cl' = cl) by congruence. subst cl'. split; auto. intros Hz. apply In_nth_error in Hz. destruct Hz as [j Ej].
        destruct (T j) as (j' & t & T1 & T2 & _); [apply nth_some_lt in Ej; lia | exact Ej |]. exists t. split; auto. eapply nth_error_In; eauto. }
      assert (Tr : (exists t, In t (c_data cl) /\ In t (s_trail st)) -> exists l, In l C /\ value st l = Some true) by (intros (t & T1 & T2); exists t; split; [apply Sub, T1 | now apply (value_true _ _ D)]).
      destruct (in_dec Nat.eq_dec (lneg x) (s_trail st)) as [Hx | Hx]; [left; apply Tr; exact (proj2 (W x b1 P1) Hx) |]. destruct (in_dec Nat.eq_dec (lneg y) (s_trail st)) as [Hy | Hy]; [left; apply Tr; exact (proj2 (W y b2 P2) Hy) |].
      destruct (in_dec Nat.eq_dec x (s_trail st)) as [Tx | Tx]; [left; apply Tr; exists x; rewrite Ed; split; [left |]; auto |]. destruct (in_dec Nat.eq_dec y (s_trail st)) as [Ty | Ty]; [left; apply Tr; exists y; rewrite Ed; split; [right; left |]; auto |].
      right. exists x, y. pose proof (gc_nodup _ _ _ (proj1 (W x b1 P1))) as Nd. rewrite Ed in Nd, Sub. inversion Nd as [| ? ? N1 N2]; subst. split; [intros ->; apply N1; left; auto |]. split; [apply Sub; left; auto |]. split; [apply Sub; right; left; auto |].
      split; apply (value_none _ _ D); auto.
  Qed.

  (** A decision without a conflict. *)
  Record decided_to (v : nat) (phase : bool) (d d1 : dsolver) : Prop := {
    dt_dst : dst (ds_s d1);
    dt_T : exists e, s_trail (ds_s d1) = s_trail (ds_s d) ++ mk_lit v (negb phase) :: e;
    dt_lim : s_lim (ds_s d1) = s_lim (ds_s d) ++ [length (s_trail (ds_s d))];
    dt_nv : length (s_vars (ds_s d1)) = length (s_vars (ds_s d));
    dt_names : ds_names d1 = ds_names d;
    dt_dirty : ds_dirty d1 = true;
    dt_asrt : ds_asrt d1 = ds_asrt d;
    dt_confl : ds_confl d1 = ds_confl d;
    dt_reason : forall i l, nth_error (skipn (length (s_trail (ds_s d))) (s_trail (ds_s d1))) i = Some l -> 0 < i ->
      exists C, In C F /\ In l C /\ forall r, In r C -> r = l \/ value (ds_s d) r = Some false \/
        exists k, k < i /\ nth_error (skipn (length (s_trail (ds_s d))) (s_trail (ds_s d1))) k = Some (lneg r) }.
  Lemma nth_skipn : forall A (l : list A) n i, nth_error (skipn n l) i = nth_error l (n + i).
  Proof. intros A l n. revert l. induction n as [| n IH]; intros [| x l] i; cbn; auto. destruct i; auto. Qed.
  Lemma decide_run : forall orc fuel v phase d d1, dst (ds_s d) -> v < length (s_vars (ds_s d)) -> value (ds_s d) (mk_lit v (negb phase)) = None ->
    ds_decide orc fuel v phase d = Ok (true, d1) -> decided_to v phase d d1.
  Proof.
    intros orc fuel v phase d d1 D Hv U E. set (st := ds_s d) in *. set (p := mk_lit v (negb phase)) in *. unfold ds_decide in E. fold st p in E. set (st1 := set_lim (s_lim st ++ [length (s_trail st)]) st) in *.
    pose proof (d_inv st D) as I. assert (I1 : inv F (length (s_trail st)) st1) by (apply newlevel_inv; auto).
    assert (Hp : p < 2 * length (s_vars st1)) by (change (s_vars st1) with (s_vars st); apply lvar_lt; unfold p; rewrite mk_lit_var; exact Hv).
    change (value st1 p = None) in U. rewrite enqueue_ok in E by exact U. cbn [rbind] in E. set (st2 := enq p None st1) in *.
    assert (LL : forall i, i < length (s_trail st) -> lv (s_lim st1) i = lv (s_lim st) i) by (intros i Hi; unfold st1; ssimp; apply lv_snoc; exact Hi).
    assert (LM : forall i, length (s_trail st) <= i -> lv (s_lim st1) i = S (length (s_lim st))).
    { intros i Hi. rewrite lv_full; [unfold st1; ssimp; rewrite app_length; cbn; lia |]. intros x Hx. unfold st1 in Hx. ssimp. apply in_app_or in Hx. destruct Hx as [Hx | [<- | []]]; [| exact Hi]. pose proof (t_lim _ _ _ _ _ _ _ _ (i_t _ _ _ I) x Hx). lia. }
    assert (I2 : sinv F st2).
    { unfold sinv, st2. change (s_qhead (enq p None st1)) with (s_qhead st). rewrite (d_q st D). apply enq_inv; auto.
      - intros _ j Hj. change (length (s_trail st1)) with (length (s_trail st)) in Hj. rewrite LL by exact Hj. pose proof (lv_le_len (s_lim st) j). unfold dlevel, st1. ssimp. rewrite app_length. cbn. lia.
      - unfold dlevel, st1. ssimp. rewrite app_length. cbn. lia. }
    unfold propagate_after_decide in E. cbn [ds_s] in E. destruct (propagate fuel st2) as [[c s3] | |] eqn:Ep; cbn [rbind] in E; try discriminate.
    destruct c as [c |]; [destruct (handle_conflict orc fuel c _); cbn [rbind] in E; discriminate |]. injection E as <-. unfold ds_set. cbn [ds_s ds_names ds_dirty ds_asrt ds_confl].
    pose proof (rspec_get _ _ _ _ (propagate_quiet F fuel st2 I2) Ep) as [[PF [P1 P2]] Qp]. cbn [fst snd] in *.
    assert (Q1 : quiet st st1) by apply level_quiet. assert (Q2 : quiet st1 st2) by (apply (enqueue_quiet p None); apply enqueue_ok; exact U).
    specialize (Qp (q_w _ _ Q2 (q_w _ _ Q1 (d_x st D)))). assert (Q3 : quiet st s3) by (eapply quiet_trans; [exact Q1 | eapply quiet_trans; eauto]).
    destruct (pf_ext _ _ PF) as [e Te]. assert (T3 : s_trail s3 = s_trail st ++ p :: e) by (rewrite Te; unfold st2, enq, st1; ssimp; now rewrite <- app_assoc).
    assert (L3 : s_lim s3 = s_lim st1) by (rewrite (pf_lim _ _ PF); reflexivity).
    assert (D3 : dst s3).
    { constructor; [unfold sinv in P1; rewrite P2 in P1; exact P1 | exact P2 | apply (q_w _ _ Q3), D | eapply origin_quiet; [exact Q3 | rewrite (pf_arena _ _ PF); reflexivity | apply D]]. }
    constructor; cbn [ds_s ds_names ds_dirty ds_asrt ds_confl]; auto.
    - exists e. exact T3.
    - rewrite (q_nv _ _ Q3). reflexivity.
    - fold st. set (n0 := length (s_trail st)) in *. intros i l Hi Pi. rewrite nth_skipn in Hi. pose proof (t_reason _ _ _ _ _ _ _ _ (i_t _ _ _ (d_inv s3 D3)) (n0 + i) l Hi) as R. rewrite L3, !LM in R by lia. specialize (R ltac:(lia)).
      destruct (nth (lvar l) (s_reasons s3) None) as [c |]; [| exfalso; specialize (R n0 ltac:(lia)); rewrite LM in R by lia; lia].
      destruct R as (cl & rest & Ec & _ & Ed & Hr). pose proof (nth_some_lt _ _ _ Ec) as Lc. destruct (d_org s3 D3 c Lc) as (C & C1 & C2 & C3). unfold adata in C2, C3. rewrite (nth_of_some _ _ _ _ dcl Ec), Ed in C2, C3.
      exists C. split; auto. split; [apply C2; left; auto |]. intros r HrC.
      assert (T0 : forall j, j < n0 -> nth_error (s_trail s3) j = Some (lneg r) -> value st r = Some false).
      { intros j Hj Ej. apply (value_false st r D). rewrite T3, nth_error_app1 in Ej by exact Hj. eapply nth_error_In; eauto. }
      destruct (C3 r HrC) as [[<- | K] | (j & J1 & J2)]; [left; auto | |].
      + destruct (Hr r K) as (j & J1 & J2). destruct (le_lt_dec n0 j) as [Kj | Kj]; [| right; left; eapply T0; eauto]. right. right. exists (j - n0). split; [lia |]. rewrite nth_skipn. replace (n0 + (j - n0)) with j by lia. exact J2.
      + destruct (le_lt_dec n0 j) as [Kj | Kj]; [exfalso; rewrite L3, LM in J2 by exact Kj; lia | right; left; eapply T0; eauto].
  Qed.

  (** Going back. *)
  Lemma undo_run : forall v phase d d1 d2 d3, dst (ds_s d) -> decided_to v phase d d1 -> dst (ds_s d2) -> s_trail (ds_s d2) = s_trail (ds_s d1) -> s_lim (ds_s d2) = s_lim (ds_s d1) ->
    ds_undo v d2 = Ok d3 -> dst (ds_s d3) /\ s_trail (ds_s d3) = s_trail (ds_s d) /\ s_lim (ds_s d3) = s_lim (ds_s d) /\ length (s_vars (ds_s d3)) = length (s_vars (ds_s d2)) /\
      ds_names d3 = ds_names d2 /\ ds_dirty d3 = false /\ ds_asrt d3 = ds_asrt d2 /\ ds_confl d3 = ds_confl d2.
  Proof.
    intros v phase d d1 d2 d3 D DT D2 ET EL E. set (n0 := length (s_trail (ds_s d))) in *. set (k := length (s_lim (ds_s d))). destruct (dt_T _ _ _ _ DT) as (e & T1). pose proof (dt_lim _ _ _ _ DT) as L1. fold n0 in L1.
    assert (Lk : nth_error (s_lim (ds_s d2)) k = Some n0) by (rewrite EL, L1; unfold k; rewrite nth_error_app2, Nat.sub_diag by lia; reflexivity).
    assert (Ep : nth_error (s_trail (ds_s d2)) n0 = Some (mk_lit v (negb phase))) by (rewrite ET, T1; unfold n0; rewrite nth_error_app2, Nat.sub_diag by lia; reflexivity).
    assert (Lv : v_lvl (var_at (ds_s d2) v) = Some (S k)).
    { pose proof (t_lvl _ _ _ _ _ _ _ _ (i_t _ _ _ (d_inv _ D2)) _ _ Ep) as H. rewrite mk_lit_var in H. unfold var_at. rewrite H. f_equal. rewrite lv_full; [rewrite EL, L1, app_length; cbn; unfold k; lia |].
      intros x Hx. rewrite EL, L1 in Hx. apply in_app_or in Hx. destruct Hx as [Hx | [<- | []]]; [| lia]. exact (t_lim _ _ _ _ _ _ _ _ (i_t _ _ _ (d_inv _ D)) x Hx). }
    unfold ds_undo in E. rewrite Lv in E. destruct (cancel_ok F _ _ k n0 (d_inv _ D2) Lk) as (s & Es & Hc). pose proof (cancel_quiet F _ _ _ _ (d_inv _ D2) Es) as Q. rewrite Es in E. cbn [rbind] in E. injection E as <-. cbn [ds_s ds_names ds_dirty ds_asrt ds_confl].
    destruct Hc as (C1 & C2 & t & vs & h & C3 & _ & C4 & C5 & _). assert (t = n0) by congruence. subst t.
    assert (Tr : s_trail s = s_trail (ds_s d)). { rewrite C4. ssimp. rewrite ET, T1. unfold n0. rewrite firstn_app, Nat.sub_diag, firstn_all. cbn [firstn]. apply app_nil_r. }
    split; [| split; [exact Tr | split; [| split; [| auto]]]].
    - constructor; [unfold sinv in C1; rewrite C2 in C1; exact C1 | exact C2 | apply (q_w _ _ Q), D2 | eapply origin_quiet; [exact Q | rewrite C4; reflexivity | apply D2]].
    - rewrite C4. ssimp. rewrite EL, L1. unfold k. rewrite firstn_app, Nat.sub_diag, firstn_all. cbn [firstn]. apply app_nil_r.
    - rewrite C4. ssimp. exact C5.
  Qed.
  Lemma decide_conflict : forall orc fuel v phase d b d1, ds_decide orc fuel v phase d = Ok (b, d1) -> if b then ds_confl d1 = ds_confl d else ds_confl d1 = S (ds_confl d).
  Proof.
    intros orc fuel v phase d b d1 E. unfold ds_decide in E. destruct (unchecked_enqueue _ _ _) as [s1 | |]; cbn [rbind] in E; try discriminate. unfold propagate_after_decide in E. cbn [ds_s] in E.
    destruct (propagate fuel s1) as [[[c |] s3] | |]; cbn [rbind] in E; try discriminate; [| injection E as <- <-; reflexivity].
    destruct (handle_conflict orc fuel c _) as [d2 | |] eqn:H; cbn [rbind] in E; try discriminate. injection E as <- <-. unfold handle_conflict in H. destruct (0 <? _).
    - destruct (analyze _ _ _ _ _) as [[cl s4] | |]; cbn [rbind] in H; try discriminate. injection H as <-. reflexivity.
    - destruct (cancel_until _ _) as [s4 | |]; cbn [rbind] in H; try discriminate. injection H as <-. reflexivity.
  Qed.
End Dst.
