(** Adding clauses and variables in the incremental mode; the parts of [load_state]. *)
From Coq Require Import List Arith ZArith NArith Bool Lia Permutation.
From Verif Require Import Base Vec HeapModel HeapProofs SatSpec SatModel SatBasics SatHeap SatInv SatProp SatAnalyze SatDb SatSearch SatSolve SatFront SatExact SatState.
Import ListNotations.
Local Open Scope nat_scope.

(** ** Growth of the clause lists *)
Record ext (a b : solver) : Prop := {
  e_nv : length (s_vars a) <= length (s_vars b);
  e_cl : exists cs, s_clauses b = s_clauses a ++ cs;
  e_ln : exists ls, s_learnts b = s_learnts a ++ ls;
  e_un : exists us, s_units b = s_units a ++ us;
  e_ar : permd (s_arena a) (s_arena b) }.
Lemma ext_refl : forall a, ext a a.
Proof. intros a. constructor; auto; [exists []; now rewrite app_nil_r | exists []; now rewrite app_nil_r | exists []; now rewrite app_nil_r | apply permd_refl]. Qed.
Lemma xfr_ext : forall a b, xfr a b -> ext a b.
Proof. intros a b [A1 A2 A3 A4 A5]. constructor; auto; [lia | exists []; now rewrite app_nil_r]. Qed.

(** ** Unit clauses *)
Lemma push_unit_x : forall st u st' good e, xst st -> s_ok st = true -> s_lim st = [] -> consistent (s_trail st) -> ~ In u (s_trail st) -> ~ In (lneg u) (s_trail st) ->
  u < 2 * length (s_vars st) -> (forall c, In c (s_clauses st ++ s_learnts st) -> closed (s_trail st) (adata (s_arena st) c)) ->
  quiet st st' -> s_lim st' = [] -> s_trail st' = s_trail st ++ u :: e -> xst (set_units (s_units st' ++ [u]) (set_ok good st')) /\ ext st (set_units (s_units st' ++ [u]) (set_ok good st')).
Proof.
  intros st u st' good e X O L Co N1 N2 Ru Cl Q L' T.
  assert (Q2 : quiet st (set_ok good st')).
  { destruct Q as [Q1 Q2 Q3 Q4 Q5 Q6 Q7 Q8 Q9]. constructor; auto. }
  destruct (quiet_x _ _ Q2 X) as [X2 F2]. pose proof (q_un _ _ Q) as Qu. pose proof (q_cl _ _ Q) as Qc. pose proof (q_ln _ _ Q) as Ql. pose proof (q_ar _ _ Q) as Qa. pose proof (q_nv _ _ Q) as Qv.
  assert (Lt : forall c, In c (s_clauses st ++ s_learnts st) -> c < length (s_arena st)) by (intros c Hc; apply (xw_in _ _ _ _ (x_w _ X)), Hc).
  split.
  - destruct X2 as [Y1 Y2 Y3 Y4 Y5 Y6 Y7]. constructor; ssimp; auto.
    + intros x Hx. apply in_app_or in Hx. destruct Hx as [Hx | [<- | []]]; [now apply Y4 |]. rewrite Qv. exact Ru.
    + intros G x Hx. apply in_app_or in Hx. destruct Hx as [Hx | [<- | []]]; [now apply (Y5 G) |]. exists (length (s_trail st)). ssimp. rewrite T, L'. split; [| reflexivity].
      rewrite nth_error_app2, Nat.sub_diag by auto. reflexivity.
    + intros k x Hx. apply snoc_nth in Hx. destruct Hx as [Hx | [-> ->]].
      * destruct (Y6 k x Hx) as (S & S1 & S2 & S3 & S4 & S5). exists S. split; auto. split; auto. split; auto. rewrite firstn_snoc by (apply nth_some_lt in Hx; lia). auto.
      * exists (s_trail st). split; auto. split; auto. split; auto. rewrite firstn_snoc, firstn_all by auto.
        split; [intros v Hv; rewrite Qu in Hv; destruct (x_u0 _ X O v Hv) as (j & K & _); eapply nth_error_In; eauto |]. split.
        -- intros c Hc. rewrite Qc, Ql in Hc. eapply closed_perm; [apply (proj2 Qa), Lt, Hc | auto].
        -- intros _ l Hl. apply In_nth_error in Hl. destruct Hl as [j Ej]. exists j. ssimp. rewrite T, L'. split; [now apply nth_app_some | reflexivity].
  - constructor; ssimp; [lia | exists []; now rewrite app_nil_r | exists []; now rewrite app_nil_r | exists [u]; congruence | exact Qa].
Qed.

(** ** Adding a clause *)
Definition db (st : solver) : list (list nat) := map (adata (s_arena st)) (s_clauses st) ++ map (fun u => [u]) (s_units st).
Definition added (ps : list nat) (st s : solver) : Prop := s_clauses s = s_clauses st \/
  exists c, s_clauses s = s_clauses st ++ [c] /\ incl (adata (s_arena s) c) ps.
Lemma add_clause_x : forall cfg F fuel ps st r st', g_incremental cfg = true -> ginv F st -> (forall l, In l ps -> l < 2 * length (s_vars st)) -> xst st -> (s_ok st = true -> qt st) ->
  (s_ok st = true -> forall V, all_true V (db st) -> all_true V F) ->
  add_clause cfg fuel ps st = Ok (r, st') -> xst st' /\ ext st st' /\ (s_ok st' = true -> qt st') /\ (s_ok st' = true -> forall V, all_true V (db st') -> all_true V (ps :: F)) /\ added ps st st'.
Proof.
  intros cfg F fuel ps st r st' Inc G HP X Qt Full H. unfold add_clause in H. pose proof (g_db _ _ G) as D. pose proof (g_lim _ _ G) as L0.
  destruct (s_ok st) eqn:O; cbn [negb] in H; [| inversion H; subst; split; auto; split; [apply ext_refl | split; [congruence | split; [congruence | left; reflexivity]]]].
  specialize (Full eq_refl). specialize (Qt eq_refl). destruct D as (F0 & D1 & D2 & I). unfold sinv in I.
  assert (M : forall V, all_true V (db st) -> all_true V F0) by (intros V HV; apply (D1 V); exact (Full V HV)).
  pose proof (norm_spec st (isort ps) None (isort_sorted ps) ltac:(discriminate)) as NS.
  destruct (norm_lits st None (isort ps)) as [qs |] eqn:En.
  2:{ inversion H; subst r st'. split; auto. split; [apply ext_refl |]. split; auto. split; [| left; reflexivity]. intros _ V HV C [<- | HC]; [| exact (Full V HV C HC)].
      destruct NS as [(l & N1 & N2) | (l & N1 & [N2 | N2])]; [| discriminate |].
      - apply (proj1 (isort_in ps l)) in N1. pose proof (val_true (i_t _ _ _ I) l (HP l N1) N2) as K. apply In_nth_error in K. destruct K as [j Ej].
        destruct (t_ent0 _ _ _ _ _ _ _ _ (i_t _ _ _ I) j _ Ej ltac:(rewrite L0; reflexivity) V (M V HV)) as (y & [<- | []] & Hy). exists l. auto.
      - apply taut_true. exists l. split; apply (proj1 (isort_in ps _)); auto. }
  destruct NS as (N1 & N2 & _ & N4).
  assert (Sub : incl qs ps) by (intros l Hl; apply (proj1 (isort_in ps l)); apply N1; exact Hl).
  assert (Und : forall l, In l qs -> value st l = None) by (intros l Hl; apply N1; exact Hl).
  assert (Lt : forall c, In c (s_clauses st ++ s_learnts st) -> c < length (s_arena st)) by (intros c Hc; apply (xw_in _ _ _ _ (x_w _ X)), Hc).
  destruct qs as [| l [| l2 qr]].
  - inversion H; subst r st'. assert (Q1 : quiet st (set_ok false st)) by (apply quiet_same; auto; discriminate). destruct (quiet_x _ _ Q1 X) as [X1 F1]. split; auto. split; [apply xfr_ext; exact F1 |]. split; [discriminate |]. split; [discriminate | left; reflexivity].
  - assert (Ul : value st l = None) by (apply Und; left; auto). destruct (unchecked_enqueue l None st) as [st1 | |] eqn:E1; cbn [rbind] in H; try discriminate.
    destruct (propagate fuel st1) as [[o st2] | |] eqn:E2; cbn [rbind] in H; try discriminate. cbn zeta in H. rewrite Inc in H. inversion H; subst r st'. clear H.
    assert (Rl : l < 2 * length (s_vars st)) by (apply HP, Sub; left; auto). pose proof (enqueue_quiet _ _ _ _ E1) as Q1. pose proof (enqueue_same _ _ _ _ E1) as (_ & _ & _ & _ & _ & T1 & _ & _ & L1 & _).
    assert (X0 := inv_invx F0 (ps :: F0) (s_qhead st) st I ltac:(intros x Hx; right; exact Hx)).
    assert (Eq : entails (ps :: F0) [l]).
    { intros V HV. destruct (HV ps (or_introl eq_refl)) as (x & H1 & H2). exists x. split; auto. destruct (N4 x (proj2 (isort_in ps x) H1)) as [K | [K | K]]; [exact K | | discriminate]. exfalso.
      pose proof (val_false (i_t _ _ _ I) x (HP x H1) K) as K2. apply In_nth_error in K2. destruct K2 as [j Ej].
      destruct (t_ent0 _ _ _ _ _ _ _ _ (i_t _ _ _ I) j _ Ej ltac:(rewrite L0; reflexivity) V) as (y & [<- | []] & Hy); [intros C HC; apply HV; right; exact HC |]. apply lit_true_neg in Hy. contradiction. }
    assert (I1 : sinv (ps :: F0) st1).
    { rewrite enqueue_ok in E1 by exact Ul. inversion E1. unfold sinv. change (s_qhead (enq l None st)) with (s_qhead st). apply (invx_inv _ F0); [apply x_enq_inv; auto; unfold dlevel; rewrite L0; cbn [length]; lia |].
      intros C [<- | HC]; [| left; exact HC]. right. left. exists (length (s_trail st)), l. unfold enq. ssimp. split; [rewrite nth_error_app2, Nat.sub_diag by auto; reflexivity |]. split; [apply Sub; left; auto | rewrite L0; reflexivity]. }
    pose proof (rspec_get _ _ _ _ (propagate_quiet (ps :: F0) fuel st1 I1) E2) as [[PF P] Qp]. cbn [fst snd] in *. specialize (Qp (q_w _ _ Q1 (x_w _ X))).
    destruct (pf_ext _ _ PF) as [e Te]. pose proof (val_undef (i_t _ _ _ I) _ Rl Ul) as [U1 U2].
    destruct (push_unit_x st l st2 (is_none o) e) as [X2 E3]; auto.
    + intros x H1 H2. exact (not_both (i_t _ _ _ I) x H1 H2).
    + intros c Hc. eapply closed_trail; [exact I | rewrite Qt; auto | apply X | exact Hc].
    + eapply quiet_trans; eauto.
    + rewrite (pf_lim _ _ PF). congruence.
    + rewrite Te, T1. now rewrite <- app_assoc.
    + split; [exact X2 |]. split; [exact E3 |]. change (s_ok (set_units (s_units (set_ok (is_none o) st2) ++ [l]) (set_ok (is_none o) st2))) with (is_none o). split.
      * intros K. destruct o; [discriminate |]. apply P.
      * split; [| left; exact (q_cl _ _ (quiet_trans _ _ _ Q1 Qp))]. intros K V HV. unfold db in HV. ssimp.
        assert (Db : all_true V (db st)).
        { intros C HC. apply in_app_or in HC. destruct HC as [HC | HC].
          - apply in_map_iff in HC. destruct HC as (c & <- & Hc). pose proof (q_ar _ _ (quiet_trans _ _ _ Q1 Qp)) as Pd. destruct (proj2 Pd c (Lt c ltac:(apply in_or_app; auto))) as [Pc _].
            destruct (HV (adata (s_arena st2) c)) as (y & Hy & Ty); [apply in_or_app; left; apply in_map_iff; exists c; split; auto; change (In c (s_clauses st2)); rewrite (q_cl _ _ (quiet_trans _ _ _ Q1 Qp)); exact Hc |].
            exists y. split; auto. eapply Permutation_in; [symmetry |]; eauto.
          - apply HV, in_or_app. right. change (In C (map (fun u => [u]) (s_units st2 ++ [l]))). rewrite map_app. apply in_or_app. left. rewrite (q_un _ _ (quiet_trans _ _ _ Q1 Qp)). exact HC. }
        intros C [<- | HC]; [| exact (Full V Db C HC)]. destruct (HV [l]) as (y & [<- | []] & Ty); [apply in_or_app; right; change (In [l] (map (fun u => [u]) (s_units st2 ++ [l]))); rewrite map_app; apply in_or_app; right; left; reflexivity |]. exists l. split; auto. apply Sub. left. auto.
  - set (qs := l :: l2 :: qr) in *. set (c := length (s_arena st)) in *. set (st1 := set_arena (s_arena st ++ [mkCl qs false]) st) in *.
    assert (Ec : cl_at st1 c = mkCl qs false) by (unfold cl_at, st1, c; ssimp; rewrite app_nth2, Nat.sub_diag by auto; reflexivity).
    unfold attach_clause in H. rewrite Ec in H. unfold qs in H at 1. cbn [c_data rbind] in H. inversion H; subst r st'. clear H. set (st2 := watch_push (lneg l2) _ _).
    assert (Wf : wfdata (length (s_vars st)) qs) by (split; [exact N2 |]; split; [cbn; lia | intros x Hx; apply HP, Sub, Hx]).
    pose proof (xw_attach _ _ _ _ l l2 qr false (x_w _ X) Wf) as XA. cbn zeta in XA. fold c in XA.
    assert (Xw : xws (set_clauses (s_clauses st2 ++ [c]) st2)).
    { unfold xws. ssimp. eapply xw_perm; [| exact XA]. change (s_clauses st2) with (s_clauses st). change (s_learnts st2) with (s_learnts st). rewrite <- !app_assoc. apply Permutation_app_head, Permutation_app_comm. }
    assert (Ac : forall x, x < length (s_arena st) -> adata (s_arena st2) x = adata (s_arena st) x) by (intros x Hx; apply adata_app; exact Hx).
    assert (Ax : adata (s_arena st2) c = qs). { change (c_data (cl_at st1 c) = qs). now rewrite Ec. }
    split; [| split; [| split; [exact (fun _ => Qt) |]]].
    + destruct X as [Y1 Y2 Y3 Y4 Y5 Y6 Y7]. constructor; auto.
      * ssimp. intros x Hx. change (s_clauses st2) with (s_clauses st) in Hx. change (s_arena st2) with (s_arena st ++ [mkCl qs false]). apply in_app_or in Hx. destruct Hx as [Hx | [<- | []]].
        -- rewrite app_nth1 by (apply Lt, in_or_app; auto). auto.
        -- unfold c. rewrite app_nth2, Nat.sub_diag by auto. reflexivity.
      * intros k u Hu. destruct (Y6 k u Hu) as (S & S1 & S2 & S3 & S4 & S5 & S6). exists S. split; auto. split; auto. split; auto. split; [exact S4 |]. split; [| exact S6].
        intros x Hx. ssimp. change (s_clauses st2) with (s_clauses st) in Hx. change (s_learnts st2) with (s_learnts st) in Hx.
        destruct (Nat.eq_dec x c) as [-> | Nx].
        -- rewrite Ax. right. exists l, l2. split; [left; auto |]. split; [right; left; auto |]. split; [intros E; apply NoDup_cons_iff in N2; apply (proj1 N2); left; auto |].
           assert (NT : forall y, In y qs -> ~ In (lneg y) S). { intros y Hy K. destruct (S6 O _ K) as (j & Ej & _). apply nth_error_In in Ej. destruct (val_undef (i_t _ _ _ I) y (HP _ (Sub _ Hy)) (Und _ Hy)) as [_ K2]. exact (K2 Ej). }
           split; apply NT; [left | right; left]; auto.
        -- rewrite Ac by (apply Lt; apply in_app_or in Hx; destruct Hx as [Hx | Hx]; [apply in_app_or in Hx; destruct Hx as [Hx | [K | []]]; [apply in_or_app; auto | congruence] | apply in_or_app; auto]).
           apply S5. apply in_app_or in Hx. destruct Hx as [Hx | Hx]; [apply in_app_or in Hx; destruct Hx as [Hx | [K | []]]; [apply in_or_app; auto | congruence] | apply in_or_app; auto].
      * apply (ldiff_mono st); auto. intros x Hx. change (Permutation (adata (s_arena st) x) (adata (s_arena st2) x)). rewrite Ac by (apply Lt, in_or_app; auto). reflexivity.
    + constructor; ssimp; auto; [exists [c]; reflexivity | exists []; now rewrite app_nil_r | exists []; now rewrite app_nil_r | apply permd_app].
    + split; [| right; exists c; split; [reflexivity | change (incl (adata (s_arena st2) c) ps); rewrite Ax; exact Sub]]. intros _ V HV. unfold db in HV. ssimp. change (s_clauses st2) with (s_clauses st) in HV. change (s_units st2) with (s_units st) in HV.
      assert (Db : all_true V (db st)).
      { intros C HC. apply in_app_or in HC. destruct HC as [HC | HC]; [| apply HV, in_or_app; right; exact HC]. apply in_map_iff in HC. destruct HC as (x & <- & Hx).
        apply HV, in_or_app. left. apply in_map_iff. exists x. split; [apply Ac, Lt, in_or_app; auto | apply in_or_app; auto]. }
      intros C [<- | HC]; [| exact (Full V Db C HC)]. destruct (HV qs) as (y & Hy & Ty); [apply in_or_app; left; apply in_map_iff; exists c; split; [exact Ax | apply in_or_app; right; left; auto] |].
      exists y. split; auto.
Qed.

(** ** New variables *)
Record stru (st : solver) : Prop := {
  u_lim : s_lim st = [];
  u_base : @base (length (s_vars st)) [] st;
  u_sz : sizes st;
  u_h : hinv (length (s_vars st)) (s_vars st) (s_heap st) }.
Lemma ginv_stru : forall F st, ginv F st -> stru st.
Proof. intros F st G. destruct (ginv_hollow _ _ G) as [Z H]. constructor; try apply G; auto. Qed.
Lemma new_var_x : forall {so} sign st, stru st -> xsto so st -> exists s, new_var sign true st = Ok (length (s_vars st), s) /\ stru s /\ xsto so s /\ ext st s /\ length (s_vars s) = S (length (s_vars st)) /\
  s_ok s = s_ok st /\ s_qhead s = s_qhead st /\ s_trail s = s_trail st /\ s_clauses s = s_clauses st /\ s_units s = s_units st /\ s_arena s = s_arena st.
Proof.
  intros so sign st [L B Z H] X. unfold new_var. set (n := length (s_vars st)). set (st1 := set_reasons _ _).
  assert (V1 : s_vars st1 = s_vars st ++ [mkVar None None sign true]) by reflexivity. pose proof (z_a _ Z) as Za.
  assert (La : length (s_acts st1) = S n) by (unfold st1; ssimp; rewrite app_length; cbn; unfold n; lia).
  assert (Lv : length (s_vars st1) = S n) by (rewrite V1, app_length; cbn; unfold n; lia).
  destruct H as (H1 & H2 & H3).
  assert (Hin : in_heap (s_heap st) n = false).
  { destruct (in_heap (s_heap st) n) eqn:E; auto. apply (hok_in _ _ _ H1) in E. apply H1 in E. unfold n in E. lia. }
  assert (Hok : hok (length (s_acts st1)) (s_heap st)). { destruct H1 as [K1 K2]. split; auto. intros x Hx. specialize (K2 x Hx). rewrite La. unfold n. lia. }
  destruct (hok_insert (s_acts st1) (s_heap st) n Hok) as (h & Eh & A1 & A2 & A3 & A4); [rewrite La; lia | exact Hin |].
  assert (E : insert_var_order n st1 = Ok (set_heap h st1)).
  { unfold insert_var_order. change (s_heap st1) with (s_heap st). rewrite Hin. assert (Ed : v_dec (var_at st1 n) = true) by (unfold var_at; rewrite V1, nth_snoc; unfold n; rewrite Nat.eqb_refl; reflexivity).
    rewrite Ed. cbn [negb andb]. rewrite Eh. reflexivity. }
  rewrite E. cbn [rbind]. exists (set_heap h st1). split; auto. split; [| split; [| split]].
  - constructor; [exact L | | |].
    + destruct B as [C1 C2 C3 C4 C5 C6]. constructor; change (s_vars (set_heap h st1)) with (s_vars st1); rewrite ?Lv; auto.
      * intros v. change (s_seen (set_heap h st1)) with (s_seen st ++ [false]). rewrite nth_snoc. destruct (v =? length (s_seen st)); auto.
      * intros a [].
      * intros l Hl. specialize (C5 l Hl). unfold n. lia.
    + destruct Z. constructor; change (s_vars (set_heap h st1)) with (s_vars st1); unfold st1; ssimp; rewrite ?app_length; cbn [length]; try lia.
      intros v Hv. rewrite nth_snoc. destruct (Nat.eqb_spec v (length (s_vars st))); [reflexivity |]. apply z_dec. lia.
    + change (s_vars (set_heap h st1)) with (s_vars st1). rewrite Lv. split; [rewrite La in A1; exact A1 |]. split; [unfold st1; ssimp; lia |]. intros v Hv Nv. apply A2. destruct (Nat.eq_dec v n) as [-> | Nn]; auto. right.
      rewrite V1, nth_snoc in Nv. destruct (Nat.eqb_spec v (length (s_vars st))); [contradiction |]. apply H3; auto. unfold n in *. lia.
  - destruct X as [Y1 Y2 Y3 Y4 Y5 Y6 Y7]. constructor; auto.
    + unfold xws. change (s_vars (set_heap h st1)) with (s_vars st1). rewrite Lv. change (s_watches (set_heap h st1)) with (s_watches st ++ [[]; []]). change (s_arena (set_heap h st1)) with (s_arena st).
      change (s_clauses (set_heap h st1)) with (s_clauses st). change (s_learnts (set_heap h st1)) with (s_learnts st). destruct Y1 as [W1 W2 W3 W4 W5].
      assert (Wn : forall z, nth z (s_watches st ++ [[]; []]) [] = nth z (s_watches st) []).
      { intros z. destruct (Nat.lt_ge_cases z (length (s_watches st))); [now rewrite app_nth1 |]. rewrite app_nth2 by auto. rewrite (nth_overflow (s_watches st)) by auto. destruct (z - length (s_watches st)) as [| [| [| k]]]; reflexivity. }
      constructor; auto.
      * rewrite app_length, W1. cbn [length]. unfold n. lia.
      * intros c Hc. destruct (W2 c Hc) as (K1 & (K2 & K3 & K4) & K5). split; auto. split; [split; auto; split; auto; intros l Hl; specialize (K4 l Hl); unfold n; lia |]. eapply paired_mono; [| exact K5]. intros z w. now rewrite Wn.
      * intros p c b. rewrite Wn. apply W3.
      * intros p. rewrite Wn. apply W4.
    + intros u Hu. change (s_vars (set_heap h st1)) with (s_vars st1). rewrite Lv. specialize (Y4 u Hu). unfold n. lia.
  - constructor; try (exists []; rewrite app_nil_r; reflexivity); [change (s_vars (set_heap h st1)) with (s_vars st1); rewrite Lv; unfold n; lia | apply permd_refl].
  - repeat (split; [first [exact Lv | reflexivity] |]). reflexivity.
Qed.

(** ** Detaching clauses *)
Definition alike (A : list clause) (c d : nat) : Prop := c_data (nth c A dcl) = c_data (nth d A dcl) /\ c_learnt (nth c A dcl) = c_learnt (nth d A dcl).
Lemma nats_eqb_refl : forall a, nats_eqb a a = true.
Proof. induction a; cbn; auto. now rewrite Nat.eqb_refl. Qed.
Lemma clause_eq_refl : forall cfg orc st c, clause_eq cfg orc st c c = true.
Proof. intros. unfold clause_eq. now rewrite Nat.eqb_refl. Qed.
Lemma remove_watch_exact : forall cfg orc st c ws, NoDup (map fst ws) -> (forall w, In w ws -> fst w <> c -> ~ alike (s_arena st) c (fst w)) ->
  forall w, In w (remove_watch cfg orc st c ws) <-> In w ws /\ fst w <> c.
Proof.
  intros cfg orc st c. induction ws as [| x r IH]; intros N H w; cbn; [tauto |]. apply NoDup_cons_iff in N. destruct N as [N1 N2].
  destruct (clause_eq cfg orc st (fst x) c) eqn:E.
  - assert (Ex : fst x = c). { destruct (Nat.eq_dec (fst x) c) as [K | K]; auto. exfalso. apply (H x (or_introl eq_refl) K). apply clause_eq_spec in E. destruct E. split; symmetry; auto. }
    split; [intros K; split; auto; intros E2; apply N1; rewrite Ex, <- E2; now apply in_map | intros [[-> | K] K2]; [contradiction | exact K]].
  - assert (Ex : fst x <> c) by (intros K; rewrite K, clause_eq_refl in E; discriminate). cbn. rewrite IH by (auto; intros y Hy; apply H; right; exact Hy). split; [intros [-> | [K1 K2]]; auto | intros [[-> | K1] K2]; auto].
Qed.
Lemma detach_x : forall cfg orc nv c L st, xw nv (s_arena st) (s_watches st) (c :: L) -> (forall d, In d L -> ~ alike (s_arena st) c d) ->
  exists W, detach_clause cfg orc c st = Ok (set_watches W st) /\ xw nv (s_arena st) W L.
Proof.
  intros cfg orc nv c L st X Al. destruct (xw_in _ _ _ _ X c (or_introl eq_refl)) as (Lc & (Nd & Ln & Rg) & (x & y & r & b1 & b2 & Dt & P1 & P2 & _)).
  unfold adata in Dt. fold (cl_at st c) in Dt. unfold detach_clause. rewrite Dt. set (W1 := upd (s_watches st) (lneg x) (remove_watch cfg orc st c (wlist st (lneg x)))).
  set (st1 := set_wlist (lneg x) _ st). assert (E1 : s_watches st1 = W1) by reflexivity.
  set (W := upd W1 (lneg y) (remove_watch cfg orc st1 c (wlist st1 (lneg y)))). exists W. split; [reflexivity |].
  assert (Dd : adata (s_arena st) c = x :: y :: r) by exact Dt. rewrite Dd in *.
  assert (Nxy : x <> y) by (intros ->; apply NoDup_cons_iff in Nd; apply (proj1 Nd); left; auto).
  assert (Nn : lneg x <> lneg y) by (intros K; apply Nxy, lneg_inj, K).
  assert (R1 : lneg x < length (s_watches st)) by (rewrite (xw_len _ _ _ _ X); apply lneg_lt, Rg; left; auto).
  assert (R2 : lneg y < length (s_watches st)) by (rewrite (xw_len _ _ _ _ X); apply lneg_lt, Rg; right; left; auto).
  assert (NL : ~ In c L) by (pose proof (xw_l _ _ _ _ X) as K; apply NoDup_cons_iff in K; apply K).
  assert (Al2 : forall z w, In w (nth z (s_watches st) []) -> fst w <> c -> ~ alike (s_arena st) c (fst w)).
  { intros z [d b] Hw Nw. cbn [fst] in *. apply Al. destruct (xw_ids _ _ _ _ X _ _ _ Hw) as ([K | K] & _); [congruence | exact K]. }
  assert (Ex : forall z w, In w (nth z W []) <-> In w (nth z (s_watches st) []) /\ fst w <> c).
  { intros z w. unfold W. destruct (Nat.eq_dec z (lneg y)) as [-> | Ny].
    - rewrite nth_upd_eq by (unfold W1; now rewrite upd_length). assert (Ew : wlist st1 (lneg y) = nth (lneg y) (s_watches st) []) by (unfold wlist; rewrite E1; unfold W1; now rewrite nth_upd_neq).
      rewrite Ew. apply remove_watch_exact; [apply (xw_nd _ _ _ _ X) | apply Al2].
    - rewrite nth_upd_neq by auto. unfold W1. destruct (Nat.eq_dec z (lneg x)) as [-> | Nx].
      + rewrite nth_upd_eq by exact R1. apply remove_watch_exact; [apply (xw_nd _ _ _ _ X) | apply Al2].
      + rewrite nth_upd_neq by auto. split; [| tauto]. intros Hw. split; auto. destruct w as [d b]. cbn. intros ->. destruct (xw_ids _ _ _ _ X _ _ _ Hw) as (_ & _ & Wb). rewrite Dd in Wb.
        destruct Wb as [Wb | Wb]; cbn in Wb; inversion Wb as [Wc]; [apply Nx | apply Ny]; rewrite Wc; symmetry; apply lneg_inv. }
  constructor.
  - unfold W, W1. rewrite !upd_length. apply X.
  - intros d Hd. destruct (xw_in _ _ _ _ X d (or_intror Hd)) as (K1 & K2 & K3). split; auto. split; auto. eapply paired_mono; [| exact K3]. intros z w Hz. apply Ex. split; auto. cbn. intros ->. contradiction.
  - intros p d b Hb. apply Ex in Hb. destruct Hb as [Hb Nb]. destruct (xw_ids _ _ _ _ X _ _ _ Hb) as ([K | K] & K2); [cbn in Nb; congruence | auto].
  - intros z. unfold W. destruct (Nat.eq_dec z (lneg y)) as [-> | Ny].
    + rewrite nth_upd_eq by (unfold W1; now rewrite upd_length). apply remove_watch_nodup. unfold wlist. rewrite E1. unfold W1. rewrite nth_upd_neq by auto. apply X.
    + rewrite nth_upd_neq by auto. unfold W1. destruct (Nat.eq_dec z (lneg x)) as [-> | Nx]; [rewrite nth_upd_eq by exact R1; apply remove_watch_nodup; apply X | rewrite nth_upd_neq by auto; apply X].
  - pose proof (xw_l _ _ _ _ X) as K. apply NoDup_cons_iff in K. apply K.
Qed.
Lemma detach_all_x : forall cfg orc nv cs L st, xw nv (s_arena st) (s_watches st) (cs ++ L) -> (forall c d, In c cs -> In d (cs ++ L) -> c <> d -> ~ alike (s_arena st) c d) ->
  exists W, detach_all cfg orc cs st = Ok (set_watches W st) /\ xw nv (s_arena st) W L.
Proof.
  intros cfg orc nv. induction cs as [| c r IH]; intros L st X Al; cbn [detach_all].
  - exists (s_watches st). split; [destruct st; reflexivity | exact X].
  - destruct (detach_x cfg orc nv c (r ++ L) st X) as (W & E & XW).
    { intros d Hd. apply Al; [left; auto | right; exact Hd |]. intros ->. pose proof (xw_l _ _ _ _ X) as K. apply NoDup_cons_iff in K. now apply (proj1 K). }
    rewrite E. cbn [rbind]. destruct (IH L (set_watches W st) XW) as (W2 & E2 & X2); [intros a d Ha Hd; apply Al; right; auto |]. exists W2. split; auto.
Qed.
Lemma in_nth_firstn : forall T (l : list (list T)) n p w, In w (nth p (firstn n l) []) -> p < n /\ In w (nth p l []).
Proof.
  intros T l n p w H. destruct (Nat.lt_ge_cases p n) as [K | K].
  - split; auto. revert n p K H. induction l as [| x r IH]; intros [| n] [| p] K H; cbn in *; auto; try lia. apply (IH n p); auto; lia.
  - rewrite nth_overflow in H by (pose proof (firstn_le_length n l); rewrite firstn_length; lia). destruct H.
Qed.
Lemma nth_firstn_lt : forall T (l : list T) n p d, p < n -> nth p (firstn n l) d = nth p l d.
Proof. intros T l. induction l as [| x r IH]; intros [| n] [| p] d H; cbn; auto; try lia. apply IH. lia. Qed.
Lemma xw_trunc : forall nv n A W L, xw nv A W L -> n <= nv -> (forall c, In c L -> wfdata n (adata A c)) -> xw n A (firstn (2 * n) W) L.
Proof.
  intros nv n A W L [X1 X2 X3 X4 X5] Hn Wf. constructor; auto.
  - rewrite firstn_length. lia.
  - intros c Hc. destruct (X2 c Hc) as (K1 & K2 & (x & y & r & b1 & b2 & D & P1 & P2 & P3)). split; auto. split; auto. exists x, y, r, b1, b2. split; auto.
    assert (Rg : forall l, In l (x :: y :: r) -> lneg l < 2 * n) by (intros l Hl; apply lneg_lt; apply (Wf c Hc); rewrite D; exact Hl).
    rewrite !nth_firstn_lt; auto; apply Rg; cbn; auto.
  - intros p c b Hb. apply in_nth_firstn in Hb. apply X3, Hb.
  - intros p. destruct (Nat.lt_ge_cases p (2 * n)); [rewrite nth_firstn_lt by auto; auto |]. rewrite nth_overflow by (rewrite firstn_length; lia). constructor.
Qed.

(** ** Undoing all assignments *)
Definition blank (vs : list msvar) : Prop := forall v, v < length vs -> v_asg (nth v vs dvar) = None.
Lemma backtrack_vars_ok : forall k v st, v + k = length (s_vars st) -> sizes st -> hok (length (s_vars st)) (s_heap st) -> v <= length (hix (s_heap st)) ->
  (forall x, x < v -> v_asg (nth x (s_vars st) dvar) = None /\ nth x (s_reasons st) None = None /\ In x (hp (s_heap st))) ->
  exists vs R h, backtrack_vars k v st = Ok (set_heap h (set_reasons R (set_vars vs st))) /\ length vs = length (s_vars st) /\ length R = length (s_vars st) /\ hok (length (s_vars st)) h /\ length (s_vars st) <= length (hix h) /\
    (forall x, x < length (s_vars st) -> v_asg (nth x vs dvar) = None /\ v_dec (nth x vs dvar) = true /\ nth x R None = None /\ In x (hp h)).
Proof.
  induction k as [| k IH]; intros v st E Z Ho Lx Old; cbn [backtrack_vars].
  - exists (s_vars st), (s_reasons st), (s_heap st). split; [destruct st; reflexivity |]. split; auto. split; [apply Z |]. split; auto. split; [lia |]. intros x Hx. destruct (Old x ltac:(lia)) as (K1 & K2 & K3). split; auto. split; auto. now apply (z_dec _ Z).
  - set (st1 := set_reasons _ _). assert (Lv : length (s_vars st1) = length (s_vars st)) by (unfold st1; ssimp; apply upd_length).
    assert (Dv : v_dec (var_at st1 v) = true) by (unfold var_at, st1; ssimp; rewrite nth_upd_eq by lia; cbn; apply (z_dec _ Z); lia).
    assert (Hi : exists h, insert_var_order v st1 = Ok (set_heap h st1) /\ hok (length (s_vars st)) h /\ S v <= length (hix h) /\ In v (hp h) /\ forall x, In x (hp (s_heap st)) -> In x (hp h)).
    { unfold insert_var_order. rewrite Dv. change (s_heap st1) with (s_heap st). change (s_acts st1) with (s_acts st). destruct (in_heap (s_heap st) v) eqn:Ein; cbn [negb andb].
      - exists (s_heap st). apply (hok_in _ _ _ Ho) in Ein. split; [unfold st1; destruct st; reflexivity |]. split; auto. split; auto. apply In_nth_error in Ein. destruct Ein as [i Ei]. destruct Ho as [Hc _]. apply Hc in Ei. eapply nth_some_lt; eauto.
      - rewrite <- (z_a _ Z) in Ho. destruct (hok_insert (s_acts st) (s_heap st) v Ho) as (h & Eh & A1 & A2 & A3 & A4); [rewrite (z_a _ Z); lia | exact Ein |]. rewrite Eh. cbn [rbind]. exists h. rewrite (z_a _ Z) in A1. split; auto. split; auto. split; [lia |].
        split; [apply A2; auto |]. intros x Hx. apply A2. auto. }
    destruct Hi as (h & Eh & H1 & H2 & H3 & H4). rewrite Eh. cbn [rbind]. destruct (IH (S v) (set_heap h st1)) as (vs & R & h' & E2 & K1 & K2 & K3 & K4 & K5).
    + ssimp. change (S v + k = length (s_vars st1)). lia.
    + destruct Z. constructor; change (s_vars (set_heap h st1)) with (s_vars st1); rewrite ?Lv; auto.
      * unfold st1. ssimp. now rewrite upd_length.
      * intros x Hx. unfold st1. ssimp. rewrite nth_upd_d. destruct (_ && _); [cbn; apply z_dec; lia | auto].
    + change (s_vars (set_heap h st1)) with (s_vars st1). rewrite Lv. exact H1.
    + exact H2.
    + intros x Hx. change (s_vars (set_heap h st1)) with (s_vars st1). change (s_reasons (set_heap h st1)) with (s_reasons st1). change (s_heap (set_heap h st1)) with h. unfold st1. ssimp. destruct (Nat.eq_dec x v) as [-> | N].
      * rewrite !nth_upd_eq; [auto | rewrite (z_r _ Z); lia | lia].
      * rewrite !nth_upd_neq by auto. destruct (Old x ltac:(lia)) as (J1 & J2 & J3). auto.
    + change (s_vars (set_heap h st1)) with (s_vars st1) in *. rewrite Lv in *. exists vs, R, h'. split; [rewrite E2; reflexivity |]. auto.
Qed.
Lemma unheap_ok : forall k n st, hok (length (s_acts st)) (s_heap st) -> (forall x, x < n + k -> In x (hp (s_heap st))) -> (forall x, In x (hp (s_heap st)) -> x < n + k) ->
  exists h, unheap k n st = Ok (set_heap h st) /\ hok n h /\ length (hix h) = length (hix (s_heap st)) /\ forall x, x < n -> In x (hp h).
Proof.
  induction k as [| k IH]; intros n st Ho Al Lt; cbn [unheap].
  - exists (s_heap st). split; [destruct st; reflexivity |]. split; [destruct Ho; split; auto; intros x Hx; specialize (Lt x Hx); lia |]. split; auto. intros x Hx. apply Al. lia.
  - destruct (hok_remove (s_acts st) (s_heap st) (n + k) Ho) as (h & E & H1 & H2 & H3 & H4); [apply (hok_in _ _ _ Ho), Al; lia |]. rewrite E. cbn [rbind].
    destruct (IH n (set_heap h st)) as (h' & E' & K1 & K2 & K3); [exact H1 | | |].
    + intros x Hx. change (s_heap (set_heap h st)) with h. destruct (proj1 (H2 x)) as [K | K]; [apply Al; lia | lia | exact K].
    + intros x Hx. change (s_heap (set_heap h st)) with h in Hx. assert (In x (hp (s_heap st))) by (apply H2; auto). specialize (Lt x H). assert (x <> n + k) by (intros ->; contradiction). lia.
    + exists h'. split; [rewrite E'; reflexivity |]. split; auto. split; [rewrite K2; exact H4 | exact K3].
Qed.
