(** Proofs about the computation of backbones (MiniModel.v). *)
From Coq Require Import List Arith ZArith NArith Bool Lia.
From Verif Require Import Base Vec HeapModel EncodingModel Syntax FactoryModel FactoryBasics AssignmentModel ConstraintModel EvalProofs CacheModel MetricsProofs
  SatSpec SatModel SatBasics SatInv SatProp SatDb SatFront SatState MiniModel MiniProofs EnumProofs.
Import ListNotations.
Local Open Scope nat_scope.

Lemma mk_lit_true : forall V v, lit_true V (mk_lit v (negb (V v))).
Proof.
  intros V v. unfold lit_true. change (Nat.div2 (mk_lit v (negb (V v)))) with (lvar (mk_lit v (negb (V v)))). change (Nat.odd (mk_lit v (negb (V v)))) with (lsign (mk_lit v (negb (V v)))).
  rewrite mk_lit_var, mk_lit_sign. now rewrite negb_involutive.
Qed.
Lemma mk_lit_true_iff : forall V v b, lit_true V (mk_lit v (negb b)) <-> V v = b.
Proof.
  intros V v b. unfold lit_true. change (Nat.div2 (mk_lit v (negb b))) with (lvar (mk_lit v (negb b))). change (Nat.odd (mk_lit v (negb b))) with (lsign (mk_lit v (negb b))).
  rewrite mk_lit_var, mk_lit_sign, negb_involutive. reflexivity.
Qed.
Lemma lit_of_true : forall V l, lit_true V l -> l = mk_lit (lvar l) (negb (V (lvar l))).
Proof.
  intros V l H. destruct (same_var l (mk_lit (lvar l) (negb (V (lvar l))))) as [E | E]; [now rewrite mk_lit_var | exact E |]. exfalso. rewrite E in H. apply lit_true_neg in H. apply H.
  pose proof (mk_lit_true V (lvar l)) as K. rewrite E in K at 1. rewrite lneg_var, mk_lit_var in K. exact K.
Qed.

Section Backbone.
  Variables (mc : mconfig) (orc : oracle).
  Hypothesis Hm : g_min (mc_sat mc) <> MinNone.
  Hypothesis So : sorting orc.
  Variables (F : list (list nat)) (n : nat) (M0 : nat -> bool) (t : btype).
  Hypothesis M0ok : all_true M0 F.

  (** What is known about a state after the answer True. *)
  Definition satisfied (st : solver) : Prop :=
    length (s_vars st) = n /\ all_true (model_val st) F /\ rotinfo F (s_vars st) (s_arena st) (s_watches st) (model_val st).
  Lemma lvl0_spec : forall st v, lvl0 st v = true <-> v_lvl (nth v (s_vars st) dvar) = Some 0.
  Proof. intros st v. unfold lvl0, var_at. destruct (v_lvl (nth v (s_vars st) dvar)) as [[|] |]; split; congruence. Qed.
  Lemma rotatable_ok : forall st l, satisfied st -> l < 2 * n -> lvl0 st (lvar l) = false -> is_rotatable st l = true -> exists V, all_true V F /\ ~ lit_true V l.
  Proof.
    intros st l (Ln & HM & R1 & R2) Hl L0 HR. destruct (lit_true_dec (model_val st) l) as [T | T]; [| exists (model_val st); auto].
    exists (flip (model_val st) (lvar l)). split.
    - apply R2; [now rewrite Ln | exact T | intros K; apply lvl0_spec in K; congruence |]. intros c b Hb. unfold is_rotatable in HR. destruct (nth (lvar l) (s_reasons st) None); [discriminate |].
      apply negb_true_iff in HR. assert (U : is_unit st l c = false).
      { destruct (is_unit st l c) eqn:U; auto. exfalso. assert (K : existsb (fun w => is_unit st l (fst w)) (wlist st (lneg l)) = true) by (apply existsb_exists; exists (c, b); auto). congruence. }
      unfold is_unit in U. apply negb_false_iff in U. apply existsb_exists in U. destruct U as (x & Hx & U). apply andb_true_iff in U. destruct U as [U1 U2]. apply negb_true_iff in U1, U2. apply Nat.eqb_neq in U1.
      exists x. split; [exact Hx |]. split; [congruence |]. unfold lit_true. change (Nat.div2 x) with (lvar x). change (Nat.odd x) with (lsign x). unfold model_val. destruct (nth (lvar x) (s_model st) false), (lsign x); cbn in *; congruence.
    - unfold lit_true, flip in *. change (Nat.div2 l) with (lvar l) in *. rewrite Nat.eqb_refl. intros K. rewrite T in K. destruct (Nat.odd l); discriminate.
  Qed.
  Lemma lvl0_ok : forall st l, satisfied st -> l < 2 * n -> lit_true M0 l -> lvl0 st (lvar l) = true -> entails F [l].
  Proof.
    intros st l (Ln & HM & R1 & _) Hl T L0. assert (E : entails F [mk_lit (lvar l) (negb (model_val st (lvar l)))]) by (apply R1; [rewrite Ln; now apply lvar_lt | now apply lvl0_spec]).
    destruct (E M0 M0ok) as (x & [<- | []] & Tx). apply (proj1 (mk_lit_true_iff _ _ _)) in Tx. rewrite (lit_of_true M0 l T). rewrite Tx. exact E.
  Qed.

  Definition settled (b : bbs) (v : nat) : Prop :=
    matches_phase t (M0 v) = true -> nth v (bb_map b) None = Some (M0 v) \/ In (mk_lit v (negb (M0 v))) (bb_cand b) \/ exists V, all_true V F /\ V v <> M0 v.
  Record bbinv (b : bbs) : Prop := {
    bi_len : length (bb_map b) = n;
    bi_cand : forall l, In l (bb_cand b) -> l < 2 * n /\ lit_true M0 l;
    bi_as : forall l, In l (bb_assum b) -> l < 2 * n /\ entails F [l];
    bi_map : forall v x, nth v (bb_map b) None = Some x -> entails F [mk_lit v (negb x)] }.
  Lemma add_lit_inv : forall b l, bbinv b -> l < 2 * n -> entails F [l] -> bbinv (add_backbone_literal l b).
  Proof.
    intros b l [A1 A2 A3 A4] Hl E. constructor; cbn [bb_map bb_cand bb_assum add_backbone_literal]; auto.
    - now rewrite upd_length.
    - intros x Hx. apply in_app_or in Hx. destruct Hx as [Hx | [<- | []]]; auto.
    - intros v x. destruct (Nat.eq_dec (lvar l) v) as [<- | N]; [| rewrite nth_upd_neq by auto; apply A4]. apply lvar_lt in Hl. rewrite nth_upd_eq by (rewrite A1; exact Hl). intros K. inversion K; subst. rewrite negb_involutive.
      replace (mk_lit (lvar l) (lsign l)) with l; auto. destruct (same_var l (mk_lit (lvar l) (lsign l))) as [Q | Q]; [now rewrite mk_lit_var | exact Q |]. exfalso. assert (S : lsign l = negb (lsign l)) by (rewrite Q at 1; now rewrite lneg_sign, mk_lit_sign). destruct (lsign l); discriminate.
  Qed.
  Lemma add_lit_map : forall b l, length (bb_map b) = n -> l < 2 * n -> lit_true M0 l -> nth (lvar l) (bb_map (add_backbone_literal l b)) None = Some (M0 (lvar l)).
  Proof.
    intros b l L Hl T. cbn [bb_map add_backbone_literal]. rewrite nth_upd_eq by (rewrite L; now apply lvar_lt). f_equal. unfold lit_true in T. change (Nat.div2 l) with (lvar l) in T. symmetry. exact T.
  Qed.
  Lemma add_lit_settled : forall b l v, length (bb_map b) = n -> l < 2 * n -> lit_true M0 l -> settled b v -> settled (add_backbone_literal l b) v.
  Proof.
    intros b l v L Hl T H M. destruct (Nat.eq_dec (lvar l) v) as [<- | N]; [left; now apply add_lit_map |]. destruct (H M) as [K | [K | K]]; auto. left. cbn [bb_map add_backbone_literal]. now rewrite nth_upd_neq by auto.
  Qed.
  Lemma create_initial_ok : forall st vs b done, satisfied st -> model_val st = M0 -> (forall v, In v vs -> v < n) -> bbinv b -> (forall v, In v done -> settled b v) ->
    bbinv (create_initial mc st t vs b) /\ (forall v, In v done \/ In v vs -> settled (create_initial mc st t vs b) v).
  Proof.
    intros st vs. induction vs as [| v r IH]; intros b done S EM HV I D; cbn [create_initial].
    - split; auto. intros v [H | []]. auto.
    - change (nth v (s_model st) false) with (model_val st v). rewrite EM. set (l := mk_lit v (negb (M0 v))). assert (Ev : lvar l = v) by (unfold l; apply mk_lit_var). assert (Hl : l < 2 * n) by (apply lvar_lt; rewrite Ev; apply HV; now left).
      assert (Tl : lit_true M0 l) by (apply mk_lit_true).
      assert (G : forall b', bbinv b' -> (forall w, In w (v :: done) -> settled b' w) -> bbinv (create_initial mc st t r b') /\ (forall w, In w done \/ In w (v :: r) -> settled (create_initial mc st t r b') w)).
      { intros b' I' D'. destruct (IH b' (v :: done) S EM (fun w Hw => HV w (or_intror Hw)) I' D') as [K1 K2]. split; auto. intros w [H | [H | H]]; apply K2; auto; left; [now right | now left]. }
      destruct (lvl0 st v) eqn:L0.
      + apply G.
        * apply add_lit_inv; auto. apply (lvl0_ok st); auto; now rewrite ?Ev.
        * intros w [<- | Hw]; [intros _; left; rewrite <- Ev; apply add_lit_map; auto; apply I | apply add_lit_settled; auto; apply I].
      + destruct (matches_phase t (M0 v)) eqn:Mp; cbn [andb].
        * destruct (negb (mc_ub mc) || negb (is_rotatable st l)) eqn:Q.
          -- apply G.
             ++ destruct I as [A1 A2 A3 A4]. constructor; cbn [bb_map bb_cand bb_assum]; auto. intros x Hx. apply in_app_or in Hx. destruct Hx as [Hx | [<- | []]]; auto.
             ++ intros w [<- | Hw] Mw; cbn [bb_map bb_cand]; [right; left; apply in_or_app; right; now left |]. destruct (D w Hw Mw) as [K | [K | K]]; auto. right. left. apply in_or_app. now left.
          -- apply G; auto. intros w [<- | Hw]; auto. intros _. right. right. apply orb_false_iff in Q. destruct Q as [_ Q]. apply negb_false_iff in Q.
             destruct (rotatable_ok st l S Hl) as (V & V1 & V2); [now rewrite Ev | exact Q |]. exists V. split; auto. intros K. apply V2. now apply (proj2 (mk_lit_true_iff _ _ _)).
        * apply G; auto. intros w [<- | Hw]; auto. intros K. congruence.
  Qed.
  Lemma fold_add : forall us b, bbinv b -> (forall l, In l us -> l < 2 * n /\ lit_true M0 l /\ entails F [l]) ->
    let b' := fold_left (fun b l => add_backbone_literal l b) us b in bbinv b' /\ bb_cand b' = bb_cand b /\ (forall v, nth v (bb_map b) None = Some (M0 v) -> nth v (bb_map b') None = Some (M0 v)) /\
    (forall l, In l us -> nth (lvar l) (bb_map b') None = Some (M0 (lvar l))).
  Proof.
    induction us as [| u r IH]; intros b I H; cbn [fold_left]; [split; auto; split; auto; split; auto; intros l [] |]. destruct (H u (or_introl eq_refl)) as (H1 & H2 & H3).
    destruct (IH (add_backbone_literal u b)) as (K1 & K2 & K3 & K4); [now apply add_lit_inv | intros l Hl; apply H; now right |]. split; auto. split; [exact K2 |]. split.
    - intros v Hv. apply K3. destruct (Nat.eq_dec (lvar u) v) as [<- | N]; [apply add_lit_map; auto; apply I | cbn [bb_map add_backbone_literal]; now rewrite nth_upd_neq by auto].
    - intros l [<- | Hl]; [apply K3; apply add_lit_map; auto; apply I | auto].
  Qed.
  Lemma refine_ok : forall st b l0, satisfied st -> bbinv b -> model_val st (lvar l0) <> M0 (lvar l0) ->
    (forall v, settled (mkBb (bb_cand b ++ [l0]) (bb_assum b) (bb_map b)) v -> l0 < 2 * n -> lit_true M0 l0 -> settled (refine_upper_bound mc st b) v) /\ bbinv (refine_upper_bound mc st b).
  Proof.
    intros st b l0 S I Hd. unfold refine_upper_bound. set (us := filter (fun l => lvl0 st (lvar l)) (bb_cand b)). set (cs := filter _ (bb_cand b)).
    destruct (fold_add us b I) as (K1 & K2 & K3 & K4).
    { intros l Hl. apply filter_In in Hl. destruct Hl as [H1 H2]. destruct (bi_cand _ I l H1) as [H3 H4]. split; auto. split; auto. eapply lvl0_ok; eauto. }
    split.
    - intros v H Hl0 T0 M. cbn [bb_map bb_cand]. destruct (H M) as [K | [K | K]]; auto. cbn [bb_cand] in K. apply in_app_or in K. set (l := mk_lit v (negb (M0 v))) in *. assert (Ev : lvar l = v) by (unfold l; apply mk_lit_var).
      destruct K as [K | [K | []]].
      + destruct (lvl0 st v) eqn:L0; [left; rewrite <- Ev; apply K4; apply filter_In; rewrite Ev; auto |]. destruct (bi_cand _ I l K) as [Hl Tl].
        destruct ((mc_cm mc && Bool.eqb (nth (lvar l) (s_model st) false) (lsign l)) || (mc_rot mc && is_rotatable st l)) eqn:Q.
        * right. right. apply orb_true_iff in Q. destruct Q as [Q | Q]; apply andb_true_iff in Q; destruct Q as [_ Q].
          -- exists (model_val st). split; [apply S |]. apply eqb_prop in Q. rewrite Ev in Q. unfold l in Q. rewrite mk_lit_sign in Q. unfold model_val. rewrite Q. destruct (M0 v); discriminate.
          -- destruct (rotatable_ok st l S Hl) as (V & V1 & V2); [now rewrite Ev | exact Q |]. exists V. split; auto. intros K'. apply V2. now apply (proj2 (mk_lit_true_iff _ _ _)).
        * right. left. apply filter_In. split; auto. rewrite Q. rewrite Ev, L0. reflexivity.
      + right. right. exists (model_val st). split; [apply S |]. rewrite K, Ev in Hd. exact Hd.
    - destruct K1 as [A1 A2 A3 A4]. constructor; cbn [bb_map bb_cand bb_assum]; auto. intros l Hl. apply filter_In in Hl. destruct Hl as [Hl _]. now apply (bi_cand _ I).
  Qed.
  Lemma backbone_loop_ok : forall fuel rounds b st, ginv F st -> length (s_vars st) = n -> bbinv b ->
    rspec (backbone_loop mc orc rounds fuel b st) (fun r => bbinv (fst r) /\ bb_cand (fst r) = [] /\ (forall v, settled b v -> settled (fst r) v) /\ ginv F (snd r) /\ length (s_vars (snd r)) = n).
  Proof.
    intros fuel. induction rounds as [| rn IH]; intros b st G Ln I; [exact Logic.I |]. cbn [backbone_loop]. destruct (rev (bb_cand b)) as [| l rest] eqn:Er.
    - cbn [rspec fst snd]. split; auto. split; [| auto]. apply (f_equal (@rev nat)) in Er. rewrite rev_involutive in Er. exact Er.
    - assert (Ec : bb_cand b = rev rest ++ [l]) by (rewrite <- (rev_involutive (bb_cand b)), Er; reflexivity).
      destruct (bi_cand _ I l) as [Hl Tl]; [rewrite Ec; apply in_or_app; right; now left |]. set (b1 := mkBb (rev rest) (bb_assum b) (bb_map b)).
      assert (I1 : bbinv b1). { destruct I as [A1 A2 A3 A4]. constructor; cbn [bb_map bb_cand bb_assum b1]; auto. intros x Hx. apply A2. rewrite Ec. apply in_or_app. now left. }
      assert (HA : forall a, In a (bb_assum b ++ [lneg l]) -> a < 2 * length (s_vars st)).
      { intros a Ha. rewrite Ln. apply in_app_or in Ha. destruct Ha as [Ha | [<- | []]]; [apply (bi_as _ I a Ha) | now apply lneg_lt]. }
      eapply rspec_bind; [apply (solve_ok _ _ F); eauto |]. intros [sat st1] (G1 & L1 & K). cbn [fst snd] in *. rewrite Ln in L1.
      set (b2 := if sat then refine_upper_bound mc st1 b1 else add_backbone_literal l b1).
      assert (P : bbinv b2 /\ forall v, settled b v -> settled b2 v).
      { unfold b2. destruct sat.
        - destruct K as (T1 & T2 & _ & T4 & _).
          assert (Df : model_val st1 (lvar l) <> M0 (lvar l)).
          { intros E. assert (Tn : lit_true (model_val st1) (lneg l)) by (apply T2, in_or_app; right; now left). apply lit_true_neg in Tn. apply Tn. unfold lit_true in *. change (Nat.div2 l) with (lvar l) in *. congruence. }
          destruct (refine_ok st1 b1 l) as [R1 R2]; [split; auto | exact I1 | exact Df |]. split; auto. intros v Hv. apply R1; auto. cbn [b1 bb_cand bb_assum bb_map]. rewrite <- Ec. destruct b; exact Hv.
        - destruct K as (T1 & T2 & _).
          assert (E : entails F [l]).
          { intros V HV. destruct (T1 V HV) as (x & Hx & Tx). specialize (T2 x Hx). apply in_app_or in T2. destruct T2 as [T2 | [T2 | []]].
            - destruct (proj2 (bi_as _ I _ T2) V HV) as (y & [<- | []] & Ty). apply lit_true_neg in Ty. contradiction.
            - apply lneg_inj in T2. subst x. exists l. split; [now left | exact Tx]. }
          split; [now apply add_lit_inv |]. intros v Hv M. destruct (Nat.eq_dec (lvar l) v) as [<- | N]; [left; apply add_lit_map; auto; apply I1 |].
          destruct (Hv M) as [K | [K | K]]; auto; [left; cbn [bb_map add_backbone_literal]; rewrite nth_upd_neq by auto; exact K |]. right. left. cbn [bb_cand add_backbone_literal b1]. rewrite Ec in K. apply in_app_or in K. destruct K as [K | [K | []]]; auto.
          exfalso. apply N. rewrite K. apply mk_lit_var. }
      destruct P as [I2 St]. pose proof (IH b2 st1 G1 L1 I2) as Q. destruct (backbone_loop mc orc rn fuel b2 st1) as [[b3 st3] | |]; auto. cbn [rspec fst snd] in *. destruct Q as (Q1 & Q2 & Q3 & Q4). split; auto.
  Qed.
End Backbone.

(** ** The result in terms of names *)
Definition forced (G : list (list lit)) (v : var) (b : bool) : Prop := forall V, satisfies V G -> V v = b.
Lemma entails_forced : forall names G v i b, NoDup names -> (forall c l, In c G -> In l c -> In (lit_var l) names) -> idx_of names v = Some i ->
  entails (encs names G) [mk_lit i (negb b)] -> forced G v b.
Proof.
  intros names G v i b Nd HG Ei E V HV. destruct (E (vval names V)) as (x & [<- | []] & T); [now apply all_vval |]. apply (proj1 (mk_lit_true_iff _ _ _)) in T. unfold vval in T. apply idx_some in Ei. now rewrite (nth_of_some _ _ _ _ dv Ei) in T.
Qed.
(** What a backbone of type [t] for [vs] says about the clauses [G]. *)
Definition backbone_spec (t : btype) (vs : list var) (G : list (list lit)) (b : backbone) : Prop :=
  match b with
  | None => forall V, ~ satisfies V G
  | Some (pos, neg, opt) =>
    (exists V, satisfies V G) /\
    (match t, pos with OnlyNegative, None => True | OnlyNegative, Some _ => False | _, None => False | _, Some p => forall v, In v p <-> In v vs /\ forced G v true end) /\
    (match t, neg with OnlyPositive, None => True | OnlyPositive, Some _ => False | _, None => False | _, Some p => forall v, In v p <-> In v vs /\ forced G v false end) /\
    (match t, opt with PositiveAndNegative, Some p => forall v, In v p <-> In v vs /\ ~ forced G v true /\ ~ forced G v false | PositiveAndNegative, None => False | _, None => True | _, Some _ => False end)
  end.
Lemma compute_backbone_ok : forall mc orc rounds fuel G m vs t, g_min (mc_sat mc) <> MinNone -> sorting orc -> minv G m ->
  rspec (s_compute_backbone mc orc rounds fuel (mi_names m) vs t (mi_s m)) (fun r =>
    backbone_spec t vs G (fst r) /\ minv G (mkMini (snd r) (mi_names m) (mi_res m) (mi_states m))).
Proof.
  intros mc orc rounds fuel G m vs t Hm So I. set (names := mi_names m). set (F := encs names G). pose proof (n_nd _ _ I) as Nd. pose proof (n_in _ _ I) as HG. pose proof (n_len _ _ I) as Ln. fold names in Nd, HG, Ln.
  assert (MI : forall s, ginv F s -> length (s_vars s) = length names -> minv G (mkMini s names (mi_res m) (mi_states m))) by (intros s H1 H2; constructor; cbn [mi_s mi_names]; auto).
  unfold s_compute_backbone. eapply rspec_bind; [apply (solve_ok_nil _ _ F); auto; exact (n_g _ _ I) |]. intros [r st1] (G1 & L1 & K). cbn [fst snd] in *. rewrite <- Ln in L1. destruct r.
  - destruct K as (T1 & _ & _ & T4 & _). set (st2 := set_bb true st1). set (M0 := model_val st1) in *. cbn zeta.
    assert (S : satisfied F (length names) st2) by (split; [exact L1 | split; [exact T1 | exact T4]]).
    assert (I0 : bbinv F (length names) M0 (mkBb [] [] (repeat None (length (s_vars st2))))).
    { constructor; cbn [bb_map bb_cand bb_assum].
      - rewrite repeat_length. exact L1.
      - intros l [].
      - intros l [].
      - intros v x K. exfalso. revert K. generalize (length (s_vars st2)) as k. clear. intros k. revert v. induction k as [| k IHk]; intros [| v]; cbn [repeat nth]; try discriminate. apply IHk. }
    destruct (create_initial_ok mc F (length names) M0 t T1 st2 (known_idx names vs) _ [] S eq_refl (fun v => known_idx_lt names vs v) I0) as [C1 C2]; [intros v [] |].
    set (b := create_initial mc st2 t (known_idx names vs) _) in *.
    eapply rspec_bind; [apply (backbone_loop_ok mc orc Hm So F (length names) M0 t T1 fuel rounds b st2); [apply ginv_bb; exact G1 | exact L1 | exact C1] |].
    intros [b1 st3] (B1 & B2 & B3 & B4 & B5). cbn [rspec fst snd] in *. split; [| apply MI; [apply ginv_bb; exact B4 | exact B5]].
    assert (SatV : satisfies (nval names M0) G) by (apply all_nval; auto).
    (* values of the map *)
    assert (Val : forall v, map_value names (bb_map b1) v = Some true -> forced G v true).
    { intros v H. unfold map_value in H. destruct (idx_of names v) as [i |] eqn:Ei; [| discriminate]. apply (entails_forced names G v i true Nd HG Ei). apply (bi_map _ _ _ _ B1). exact H. }
    assert (Val2 : forall v, map_value names (bb_map b1) v = Some false -> forced G v false).
    { intros v H. unfold map_value in H. destruct (idx_of names v) as [i |] eqn:Ei; [| discriminate]. apply (entails_forced names G v i false Nd HG Ei). apply (bi_map _ _ _ _ B1). exact H. }
    assert (Unk : forall v x, ~ In v names -> ~ forced G v x).
    { intros v x Hv Hf. pose (V := fun w => if var_eqb w v then negb x else nval names M0 w).
      assert (HV : satisfies V G). { intros c Hc. destruct (SatV c Hc) as (l & H1 & H2). exists l. split; auto. assert (N : lit_var l <> v) by (intros <-; apply Hv; eapply HG; eauto).
        destruct l as [w p]. cbn [lit_var lit_sem] in *. unfold V. destruct (var_eqb w v) eqn:E; [apply var_eqb_spec in E; contradiction | exact H2]. }
      specialize (Hf V HV). unfold V in Hf. rewrite var_eqb_refl in Hf. destruct x; discriminate. }
    assert (Cmp : forall v x, In v vs -> forced G v x -> matches_phase t x = true -> map_value names (bb_map b1) v = Some x).
    { intros v x Hv Hf Mx. destruct (idx_of names v) as [i |] eqn:Ei; [| exfalso; apply idx_from_none in Ei; exact (Unk v x Ei Hf)].
      assert (EM : M0 i = x) by (specialize (Hf _ SatV); unfold nval in Hf; now rewrite Ei in Hf).
      assert (St : settled F M0 t b1 i) by (apply B3, C2; right; apply known_idx_in; eauto). unfold map_value. rewrite Ei. unfold settled in St. rewrite EM in St. destruct (St Mx) as [Q | [Q | (V & V1 & V2)]]; auto.
      - rewrite B2 in Q. destruct Q.
      - exfalso. apply V2. specialize (Hf (nval names V) (all_nval _ _ _ HG V1)). unfold nval in Hf. now rewrite Ei in Hf. }
    assert (Ex : forall v, ~ (forced G v true /\ forced G v false)) by (intros v [H1 H2]; specialize (H1 _ SatV); specialize (H2 _ SatV); congruence).
    unfold build_backbone, backbone_spec. split; [eauto |]. unfold bset.
    assert (Pos : matches_phase t true = true -> forall v, In v (add_vars (filter (fun v => is_true (map_value names (bb_map b1) v)) vs) []) <-> In v vs /\ forced G v true).
    { intros Mt v. rewrite add_vars_in, filter_In. split; intros [H1 H2]; split; auto; [| now rewrite (Cmp v true H1 H2 Mt)]. destruct (map_value names (bb_map b1) v) as [[|] |] eqn:Em; try discriminate. auto. }
    assert (Neg : matches_phase t false = true -> forall v, In v (add_vars (filter (fun v => is_false (map_value names (bb_map b1) v)) vs) []) <-> In v vs /\ forced G v false).
    { intros Mt v. rewrite add_vars_in, filter_In. split; intros [H1 H2]; split; auto; [| now rewrite (Cmp v false H1 H2 Mt)]. destruct (map_value names (bb_map b1) v) as [[|] |] eqn:Em; try discriminate. auto. }
    destruct t; cbn [matches_phase negb] in *; (split; [try exact Logic.I; apply Pos; reflexivity |]); (split; [try exact Logic.I; apply Neg; reflexivity |]); try exact Logic.I.
    intros v. rewrite add_vars_in, filter_In. split.
    + intros [H1 H2]. split; auto. destruct (map_value names (bb_map b1) v) as [x |] eqn:Em; [destruct x; discriminate |]. split; intros Hf; [rewrite (Cmp v true H1 Hf eq_refl) in Em | rewrite (Cmp v false H1 Hf eq_refl) in Em]; discriminate.
    + intros (H1 & H2 & H3). split; auto. destruct (map_value names (bb_map b1) v) as [[|] |] eqn:Em; auto; exfalso; auto.
  - cbn [rspec fst snd]. split; [| apply MI; auto]. intros V HV. destruct K as (K1 & K2 & _). destruct (K1 (vval names V)) as (x & Hx & _); [now apply all_vval | destruct (K2 x Hx)].
Qed.
