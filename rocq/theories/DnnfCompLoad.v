(** Loading the clauses into the solver of the DNNF compiler. *)
From Coq Require Import List Bool Arith ZArith NArith Lia Permutation.
From Verif Require Import Base Syntax Vec HeapModel HeapProofs SatSpec SatModel SatBasics SatHeap SatInv SatProp SatDb SatSearch SatSolve SatFront SatExact DnnfCompModel DnnfCompVal DnnfCompSat.
Import ListNotations.
Local Open Scope nat_scope.

Record lst (F : list (list nat)) (st : solver) : Prop := {
  l_lim : s_lim st = [];
  l_bad : s_ok st = false -> entails F [];
  l_dst : s_ok st = true -> dst F st }.

Lemma load_var_inv : forall F q st s i sign, inv F q st -> new_var sign true st = Ok (i, s) -> inv F q s.
Proof.
  intros F q st s i sign I0 EE. unfold new_var in EE. set (n := length (s_vars st)) in *. set (st1 := set_reasons _ _) in *.
  assert (V1 : s_vars st1 = s_vars st ++ [mkVar None None sign true]) by reflexivity.
  assert (NT : forall v, v <> n -> nth v (s_vars st1) dvar = nth v (s_vars st) dvar) by (intros v Hv; rewrite V1, nth_snoc; destruct (Nat.eqb_spec v (length (s_vars st))); [contradiction | reflexivity]).
  pose proof (i_sz _ _ _ I0) as Z1. pose proof (i_h _ _ _ I0) as Hh1. pose proof (z_a _ Z1) as Za.
  assert (La : length (s_acts st1) = S n) by (unfold st1; ssimp; rewrite app_length; cbn; unfold n; lia).
  assert (Hin : in_heap (s_heap st) n = false).
  { destruct (in_heap (s_heap st) n) eqn:E; auto. destruct Hh1 as (H1 & _). apply (hok_in _ _ _ H1) in E. apply H1 in E. unfold n in E. lia. }
  assert (Hok : hok (length (s_acts st1)) (s_heap st)). { destruct Hh1 as ([H1 H2] & _). split; auto. intros x Hx. specialize (H2 x Hx). rewrite La. unfold n. lia. }
  destruct (hok_insert (s_acts st1) (s_heap st) n Hok) as (h & Eh & A1 & A2 & A3 & A4); [rewrite La; lia | exact Hin |].
  assert (E : insert_var_order n st1 = Ok (set_heap h st1)).
  { unfold insert_var_order. change (s_heap st1) with (s_heap st). rewrite Hin. assert (Ed : v_dec (var_at st1 n) = true) by (unfold var_at; rewrite V1, nth_snoc; unfold n; rewrite Nat.eqb_refl; reflexivity).
    rewrite Ed. cbn [negb andb]. rewrite Eh. reflexivity. }
  rewrite E in EE. cbn [rbind] in EE. assert (Es : s = set_heap h st1) by congruence. subst s. clear EE.
  destruct I0 as [Z I W C V H].
  assert (Rg : forall l, l < 2 * length (s_vars st) -> lvar l <> n) by (intros l Hl; apply lvar_lt in Hl; unfold n; lia).
  assert (Lv : length (s_vars st1) = S n) by (rewrite V1, app_length; cbn; unfold n; lia).
  assert (AS : forall l, lvar l <> n -> asg_of (s_vars st1) l = asg_of (s_vars st) l) by (intros l Hl; unfold asg_of; rewrite NT by auto; reflexivity).
  assert (GM : forall cl, goodcl F (length (s_vars st)) cl -> goodcl F (S n) cl) by (intros cl Hcl; eapply goodcl_mono; [| | exact Hcl]; unfold n; auto).
  constructor; change (s_vars (set_heap h st1)) with (s_vars st1); change (s_trail (set_heap h st1)) with (s_trail st); change (s_lim (set_heap h st1)) with (s_lim st);
    change (s_arena (set_heap h st1)) with (s_arena st); rewrite ?Lv.
  - destruct Z. constructor; change (s_vars (set_heap h st1)) with (s_vars st1); unfold st1; ssimp; rewrite ?app_length; cbn [length]; try lia.
    intros v Hv. rewrite nth_snoc. destruct (Nat.eqb_spec v (length (s_vars st))); [reflexivity |]. apply z_dec. lia.
  - destruct I. constructor; auto.
    + intros l Hl. specialize (t_valid l Hl). unfold n. lia.
    + intros l Hl. destruct (Nat.eq_dec (lvar l) n) as [En | Nn].
      * split; [unfold asg_of; rewrite V1, nth_snoc, En; unfold n; rewrite Nat.eqb_refl; cbn; destruct (lsign l); discriminate |].
        intros K. apply t_valid in K. apply Rg in K. contradiction.
      * rewrite AS by auto. apply t_val. apply lvar_lt. apply lvar_lt in Hl. unfold n in *. lia.
    + intros j l El. rewrite NT by (apply Rg, t_valid; eapply nth_error_In; eauto). eauto.
    + intros j l El Lvl. change (s_reasons (set_heap h st1)) with (s_reasons st ++ [None]). rewrite nth_snoc. specialize (t_reason j l El Lvl).
      destruct (Nat.eqb_spec (lvar l) (length (s_reasons st))) as [En | _].
      * exfalso. rewrite (z_r _ Z) in En. refine (Rg l _ En). apply t_valid. eapply nth_error_In; eauto.
      * destruct (nth (lvar l) (s_reasons st) None) as [c |]; auto. destruct t_reason as (cl & rest & K1 & K2 & K3). exists cl, rest. split; auto.
  - intros p ws Ep. change (s_watches (set_heap h st1)) with (s_watches st ++ [[]; []]) in Ep.
    destruct (Nat.lt_ge_cases p (length (s_watches st))) as [Lp | Lp].
    + rewrite nth_error_app1 in Ep by auto. destruct (W p ws Ep) as [N K]. split; auto. intros c b Hb. destruct (K c b Hb) as (cl & K1 & K2 & K3 & K4 & K5). exists cl. split; auto. split; auto. split; auto. split; [unfold n; lia |]. exact K5.
    + rewrite nth_error_app2 in Ep by auto. assert (ws = []). { destruct (p - length (s_watches st)) as [| [| k]]; cbn in Ep; try congruence. destruct k; discriminate. }
      subst ws. split; [constructor | intros c b []].
  - intros D HD. destruct (C D HD) as [K | (c & cl & K1 & K3)]; [left; exact K |]. right. exists c, cl. split; auto. eapply paired_mono; [| exact K1]. intros z w Hz.
    change (s_watches (set_heap h st1)) with (s_watches st ++ [[]; []]). destruct (Nat.lt_ge_cases z (length (s_watches st))) as [Lz | Lz]; [now rewrite app_nth1 | rewrite nth_overflow in Hz by exact Lz; destruct Hz].
  - intros c Hc. destruct (V c Hc) as (cl & K1 & K2). exists cl. split; auto.
  - split; [rewrite La in A1; exact A1 |]. destruct H as (H1 & H2 & H3). split; [unfold st1; ssimp; lia |]. intros v Hv Nv. apply A2. destruct (Nat.eq_dec v n) as [-> | Nn]; auto. right.
    rewrite NT in Nv by auto. apply H3; auto. unfold n in *. lia.
Qed.
Lemma load_var_frame : forall st s i sign, new_var sign true st = Ok (i, s) -> i = length (s_vars st) /\ length (s_vars s) = S (length (s_vars st)) /\ s_lim s = s_lim st /\ s_ok s = s_ok st /\ s_trail s = s_trail st /\ s_qhead s = s_qhead st /\
  s_arena s = s_arena st /\ s_watches s = s_watches st ++ [[]; []] /\ s_clauses s = s_clauses st /\ s_learnts s = s_learnts st.
Proof.
  intros st s i sign E. unfold new_var in E. set (st1 := set_reasons _ _) in *. unfold insert_var_order in E.
  assert (K : length (s_vars st1) = S (length (s_vars st))) by (unfold st1; ssimp; rewrite app_length; cbn; lia).
  destruct (negb (in_heap (s_heap st1) (length (s_vars st))) && v_dec (var_at st1 (length (s_vars st)))).
  - destruct (heap_insert _ _ _) as [h | |]; cbn [rbind] in E; try discriminate. injection E as <- <-. repeat (split; [first [reflexivity | exact K] |]). reflexivity.
  - cbn [rbind] in E. injection E as <- <-. repeat (split; [first [reflexivity | exact K] |]). reflexivity.
Qed.
Lemma load_var : forall F st s i sign, lst F st -> new_var sign true st = Ok (i, s) -> lst F s /\ i = length (s_vars st) /\ length (s_vars s) = S (length (s_vars st)).
Proof.
  intros F st s i sign [L1 L2 L3] E. destruct (load_var_frame _ _ _ _ E) as (K1 & K2 & K3 & K4 & K5 & K6 & K7 & K8 & K9 & K10). split; [| auto]. constructor.
  - congruence.
  - rewrite K4. exact L2.
  - rewrite K4. intros O. destruct (L3 O) as [D1 D2 D3 D4]. constructor.
    + rewrite K5. eapply load_var_inv; eauto.
    + congruence.
    + unfold xws in *. rewrite K2, K7, K8, K9, K10. destruct D3 as [W1 W2 W3 W4 W5].
      assert (Wn : forall z, nth z (s_watches st ++ [[]; []]) [] = nth z (s_watches st) []).
      { intros z. destruct (Nat.lt_ge_cases z (length (s_watches st))); [now rewrite app_nth1 |]. rewrite app_nth2 by auto. rewrite (nth_overflow (s_watches st)) by auto. destruct (z - length (s_watches st)) as [| [| [| k]]]; reflexivity. }
      constructor; auto.
      * rewrite app_length, W1. cbn [length]. lia.
      * intros c Hc. destruct (W2 c Hc) as (J1 & (J2 & J3 & J4) & J5). split; auto. split; [split; auto; split; auto; intros l Hl; specialize (J4 l Hl); lia |]. eapply paired_mono; [| exact J5]. intros z w. now rewrite Wn.
      * intros p c b. rewrite Wn. apply W3.
      * intros p. rewrite Wn. apply W4.
    + intros c Hc. unfold at0. rewrite K7 in *. rewrite K5, K3. exact (D4 c Hc).
Qed.

Lemma in_at0 : forall st l, s_lim st = [] -> In l (s_trail st) -> at0 st l.
Proof. intros st l L H. apply In_nth_error in H. destruct H as [j E]. exists j. split; auto. rewrite L. reflexivity. Qed.
Lemma nodup_lvar : forall (ps : list nat) a b, NoDup (map lvar ps) -> In a ps -> In b ps -> lvar a = lvar b -> a = b.
Proof.
  induction ps as [| x ps IH]; intros a b N Ha Hb E; [destruct Ha |]. cbn [map] in N. apply NoDup_cons_iff in N. destruct N as [N1 N2]. destruct Ha as [<- | Ha], Hb as [<- | Hb]; auto.
  - exfalso. apply N1. rewrite E. apply in_map. exact Hb.
  - exfalso. apply N1. rewrite <- E. apply in_map. exact Ha.
Qed.
Lemma origin_more : forall F ps st, origin F st -> origin (ps :: F) st.
Proof. intros F ps st O c Hc. destruct (O c Hc) as (C & C1 & C2). exists C. split; [right; exact C1 | exact C2]. Qed.

Lemma load_clause : forall cfg F fuel ps st b st', lst F st -> (forall l, In l ps -> l < 2 * length (s_vars st)) -> NoDup (map lvar ps) -> add_clause cfg fuel ps st = Ok (b, st') ->
  lst (ps :: F) st' /\ length (s_vars st') = length (s_vars st).
Proof.
  intros cfg F fuel ps st b st' [L0 Bad Dst] HP Nd E. unfold add_clause in E.
  assert (Mono : forall c, entails F c -> entails (ps :: F) c) by (intros c; apply ent_mono; intros x Hx; right; exact Hx).
  destruct (s_ok st) eqn:O; cbn [negb] in E. 2: { injection E as <- <-. split; [| reflexivity]. constructor; auto. rewrite O. discriminate. }
  specialize (Dst eq_refl). clear Bad. destruct Dst as [I D2 D3 D4]. rewrite <- D2 in I.
  assert (LZ : forall j, lv (s_lim st) j = 0) by (intros j; rewrite L0; reflexivity).
  assert (FL : forall l, In l ps -> value st l = Some false -> In (lneg l) (s_trail st) /\ forall V, all_true V (ps :: F) -> ~ lit_true V l).
  { intros l Hl Vl. pose proof (val_false (i_t _ _ _ I) l (HP l Hl) Vl) as K. split; [exact K |]. intros V HV. apply In_nth_error in K. destruct K as [j Ej].
    destruct (t_ent0 _ _ _ _ _ _ _ _ (i_t _ _ _ I) j _ Ej (LZ j) V) as (y & [<- | []] & Hy); [intros C HC; apply HV; right; exact HC |]. now apply lit_true_neg. }
  pose proof (norm_spec st (isort ps) None (isort_sorted ps) ltac:(discriminate)) as NS.
  destruct (norm_lits st None (isort ps)) as [qs |] eqn:En.
  2:{ injection E as <- <-. split; [| reflexivity]. destruct NS as [(l & N1 & N2) | (l & N1 & [N2 | N2])]; [| discriminate |].
      - apply (proj1 (isort_in ps l)) in N1. constructor; [exact L0 | rewrite O; discriminate |]. intros _. constructor; auto; [| apply origin_more; exact D4]. rewrite <- D2.
        apply (inv_more F); [exact I | intros x Hx; right; exact Hx |]. intros C [<- | HC]; [| apply (i_c _ _ _ I); exact HC]. left.
        pose proof (val_true (i_t _ _ _ I) l (HP l N1) N2) as K. apply In_nth_error in K. destruct K as [j Ej]. exists j, l. split; auto.
      - exfalso. apply (lneg_neq l). apply (nodup_lvar ps); auto; [apply (proj1 (isort_in ps _)); auto | apply (proj1 (isort_in ps _)); auto | apply lneg_var]. }
  destruct NS as (N1 & N2 & _ & N4).
  assert (Sub : incl qs ps) by (intros l Hl; apply (proj1 (isort_in ps l)); apply N1; exact Hl).
  assert (Und : forall l, In l qs -> value st l = None) by (intros l Hl; apply N1; exact Hl).
  assert (Rest : forall l, In l ps -> In l qs \/ value st l = Some false) by (intros l Hl; destruct (N4 l (proj2 (isort_in ps l) Hl)) as [K | [K | K]]; [auto | auto | discriminate]).
  assert (Eq : entails (ps :: F) qs).
  { intros V HV. destruct (HV ps (or_introl eq_refl)) as (l & H1 & H2). exists l. split; auto. destruct (Rest l H1) as [K | K]; [exact K |]. exfalso. exact (proj2 (FL l H1 K) V HV H2). }
  pose proof (inv_invx F (ps :: F) (s_qhead st) st I ltac:(intros x Hx; right; exact Hx)) as X.
  destruct qs as [| l [| l2 qr]].
  - injection E as <- <-. split; [| reflexivity]. constructor; [exact L0 | intros _; exact Eq | discriminate].
  - assert (Ul : value st l = None) by (apply Und; left; auto). assert (Rl : l < 2 * length (s_vars st)) by (apply HP, Sub; left; auto).
    destruct (unchecked_enqueue l None st) as [st1 | |] eqn:E1; cbn [rbind] in E; try discriminate. pose proof (enqueue_quiet _ _ _ _ E1) as Q1. pose proof (enqueue_same _ _ _ _ E1) as (_ & Ar1 & _ & _ & _ & T1 & _ & _ & L1 & _).
    rewrite enqueue_ok in E1 by exact Ul.
    assert (I1 : sinv (ps :: F) st1).
    { assert (Es : st1 = enq l None st) by congruence. rewrite Es. unfold sinv. change (s_qhead (enq l None st)) with (s_qhead st). apply (invx_inv _ F); [apply x_enq_inv; auto; unfold dlevel; rewrite L0; cbn [length]; lia |].
      intros C [<- | HC]; [| left; exact HC]. right. left. exists (length (s_trail st)), l. unfold enq. ssimp. split; [rewrite nth_error_app2, Nat.sub_diag by auto; reflexivity |]. split; [apply Sub; left; auto | apply LZ]. }
    destruct (propagate fuel st1) as [[o st2] | |] eqn:E2; cbn [rbind] in E; try discriminate. pose proof (rspec_get _ _ _ _ (propagate_quiet (ps :: F) fuel st1 I1) E2) as [[PF P] Qp]. cbn [fst snd] in *. specialize (Qp (q_w _ _ Q1 D3)).
    pose proof (quiet_trans _ _ _ Q1 Qp) as Q. assert (L2 : s_lim st2 = []) by (rewrite (pf_lim _ _ PF); congruence). cbv zeta in E.
    assert (G : lst (ps :: F) (set_ok (is_none o) st2)).
    { constructor; [exact L2 | |]; change (s_ok (set_ok (is_none o) st2)) with (is_none o); destruct o as [c |]; cbn [is_none]; try discriminate; intros _.
      - destruct P as (q0 & _ & Cf). eapply level0_conflict; [exact Cf |]. unfold dlevel. rewrite L2. reflexivity.
      - destruct P as [P1 P2]. constructor; auto.
        + change (s_trail (set_ok true st2)) with (s_trail st2). rewrite <- P2. eapply inv_same; [exact P1 | ..]; auto.
        + exact (q_w _ _ Q D3).
        + assert (O2 : origin (ps :: F) st2); [| exact O2]. eapply origin_quiet; [exact Q | rewrite (pf_arena _ _ PF); congruence | apply origin_more; exact D4]. }
    assert (Lv : length (s_vars st2) = length (s_vars st)) by exact (q_nv _ _ Q). injection E as <- <-. destruct (g_incremental cfg); [| split; [exact G | exact Lv]]. split; [| exact Lv].
    destruct G as [G1 G2 G3]. constructor; [exact G1 | exact G2 |]. intros K. destruct (G3 K) as [K1 K2 K3 K4]. constructor; auto. eapply inv_same; [exact K1 | ..]; auto.
  - set (qs := l :: l2 :: qr) in *. set (c := length (s_arena st)) in *. set (st1 := set_arena (s_arena st ++ [mkCl qs false]) st) in *.
    assert (Ec : nth_error (s_arena st1) c = Some (mkCl qs false)) by (unfold st1, c; ssimp; rewrite nth_error_app2, Nat.sub_diag by auto; reflexivity).
    assert (Ecl : cl_at st1 c = mkCl qs false) by (unfold cl_at; apply (nth_of_some _ _ _ _ dcl Ec)).
    unfold attach_clause in E. rewrite Ecl in E. unfold qs in E at 1. cbn [c_data rbind] in E. injection E as <- <-. 
    assert (X1 : invx (ps :: F) F (s_qhead st) st1) by (apply x_arena_ext; exact X).
    assert (Gc : goodcl (ps :: F) (length (s_vars st)) (mkCl qs false)).
    { constructor; cbn [c_data]; auto. unfold qs; cbn [length]; lia. }
    assert (We : forall p b, (p = lneg l /\ b = l2) \/ (p = lneg l2 /\ b = l) -> went (ps :: F) (length (s_vars st)) (s_arena st1) (s_trail st) (s_lim st) (s_qhead st) p c b).
    { intros p b Hpb. exists (mkCl qs false). cbn [c_data]. split; [exact Ec |]. split; [exact Gc |].
      assert (Pq : In (lneg p) qs /\ watched_by (lneg p) qs /\ In b qs) by (destruct Hpb as [[-> ->] | [-> ->]]; rewrite lneg_inv; unfold watched_by, qs; cbn; auto).
      destruct Pq as (P1 & P2 & P3). split; [exact P2 |]. split; [apply HP, Sub, P3 |]. split; [left; exact P3 |]. intros i _ Ei. exfalso. apply nth_error_In in Ei.
      destruct (val_undef (i_t _ _ _ I) (lneg p) (HP _ (Sub _ P1)) (Und _ P1)) as [_ K]. rewrite lneg_inv in K. exact (K Ei). }
    assert (NI : forall x, ~ In c (map fst (wlist st x))) by (intros x; eapply fresh_id; [exact I | unfold c; auto]).
    assert (Ln : lneg l2 <> lneg l) by (intros K; apply lneg_inj in K; subst l2; inversion N2 as [| ? ? K1 _]; apply K1; left; auto).
    assert (X2 : invx (ps :: F) F (s_qhead st) (watch_push (lneg l) (c, l2) st1)) by (apply x_watch_push_inv; [exact X1 | apply We; auto | apply NI]).
    assert (X3 : invx (ps :: F) F (s_qhead st) (watch_push (lneg l2) (c, l) (watch_push (lneg l) (c, l2) st1))).
    { apply x_watch_push_inv; [exact X2 | apply We; auto |]. unfold wlist, watch_push, set_wlist. ssimp. rewrite nth_upd_neq by congruence. apply (NI (lneg l2)). }
    set (st3 := watch_push (lneg l2) (c, l) (watch_push (lneg l) (c, l2) st1)) in *.
    assert (Cov : covered (s_arena st3) (s_trail st3) (s_lim st3) (s_watches st3) ps).
    { right. exists c, (mkCl qs false). split; [| split; [exact Ec | split; [reflexivity | exact Sub]]]. 
      assert (R1 : lneg l < length (s_watches st)) by (rewrite (z_w _ (i_sz _ _ _ I)); apply lneg_lt, HP, Sub; left; auto).
      assert (R2 : lneg l2 < length (s_watches st)) by (rewrite (z_w _ (i_sz _ _ _ I)); apply lneg_lt, HP, Sub; right; left; auto).
      exists l, l2, qr, l2, l. split; [reflexivity |]. unfold st3, watch_push, set_wlist. ssimp. change (s_watches st1) with (s_watches st). split; [| split; [| left; reflexivity]].
      - rewrite nth_upd_neq by exact Ln. rewrite nth_upd_eq by exact R1. apply in_or_app. right. left. reflexivity.
      - rewrite nth_upd_eq by (rewrite upd_length; exact R2). apply in_or_app. right. left. reflexivity. }
    assert (I3 : inv (ps :: F) (s_qhead st) st3) by (apply (invx_inv _ F); [exact X3 | intros C [<- | HC]; auto]).
    split; [| reflexivity]. constructor; [exact L0 | change (s_ok st = false -> entails (ps :: F) []); rewrite O; discriminate |]. intros _. constructor.
    + assert (J : inv (ps :: F) (s_qhead st) (set_clauses (s_clauses st3 ++ [c]) st3)); [| rewrite D2 in J; exact J]. destruct I3 as [Z3 T3 W3 C3 V3 H3]. constructor; ssimp; auto.
      * destruct Z3; constructor; ssimp; auto.
      * intros x [Hx | Hx]; auto. apply in_app_or in Hx. destruct Hx as [Hx | [<- | []]]; auto. exists (mkCl qs false). split; auto.
    + exact D2.
    + assert (Wf : wfdata (length (s_vars st)) qs) by (split; [exact N2 |]; split; [cbn; lia | intros x Hx; apply HP, Sub, Hx]).
      pose proof (xw_attach _ _ _ _ l l2 qr false D3 Wf) as XA. cbn zeta in XA. fold c in XA. unfold xws. ssimp. eapply xw_perm; [| exact XA]. change (s_clauses st3) with (s_clauses st). change (s_learnts st3) with (s_learnts st). rewrite <- !app_assoc. apply Permutation_app_head, Permutation_app_comm.
    + assert (O4 : forall st4, s_arena st4 = s_arena st ++ [mkCl qs false] -> s_trail st4 = s_trail st -> s_lim st4 = s_lim st -> origin (ps :: F) st4); [| apply O4; reflexivity].
      intros st4 A4 T4 L4 x Hx. unfold at0. rewrite T4, L4, A4 in *. rewrite app_length in Hx. cbn [length] in Hx. destruct (Nat.eq_dec x c) as [-> | Nx].
      * exists ps. split; [left; reflexivity |]. assert (Ax : adata (s_arena st ++ [mkCl qs false]) c = qs) by (unfold adata, c; rewrite app_nth2, Nat.sub_diag by auto; reflexivity). rewrite Ax. split; [exact Sub |].
        intros y Hy. destruct (Rest y Hy) as [K | K]; [left; exact K | right]. apply in_at0; [exact L0 |]. apply (FL y Hy K).
      * rewrite adata_app by (unfold c in *; lia). exact (origin_more F ps st D4 x ltac:(unfold c in *; lia)).
Qed.
Lemma lst_new : lst [] solver_new.
Proof.
  assert (NE : forall (l i : nat), nth_error (@nil nat) i = Some l -> False) by (intros l i E; destruct i; discriminate).
  constructor; [reflexivity | discriminate |]. intros _. constructor.
  - constructor; cbn [s_vars s_trail s_lim s_qhead s_reasons s_arena s_watches s_clauses s_learnts s_heap solver_new length].
    + constructor; cbn; auto. intros v Hv. lia.
    + constructor; auto.
      * intros l [].
      * constructor.
      * intros l Hl. lia.
      * intros i l E. destruct (NE _ _ E).
      * intros a b x y E. destruct a; discriminate.
      * intros x [].
      * intros i l E. destruct (NE _ _ E).
      * intros i l E. destruct (NE _ _ E).
    + intros p ws E. destruct p; discriminate.
    + intros C [].
    + intros c [[] | []].
    + split; [split; [| intros x []] |].
      * intros i n. split; intros E; [destruct (NE _ _ E) | destruct n; discriminate].
      * split; [auto |]. intros v Hv. lia.
  - reflexivity.
  - constructor; cbn.
    + reflexivity.
    + intros c [].
    + intros p c b H. destruct p; destruct H.
    + intros p. destruct p; constructor.
    + constructor.
  - intros c Hc. cbn in Hc. lia.
Qed.
