(** The calls of the solver: [solve], [add_clause], [new_var]. *)
From Coq Require Import List Arith ZArith NArith Bool Lia Permutation Sorting.Sorted.
From Verif Require Import Base Vec HeapModel HeapProofs SatSpec SatModel SatBasics SatHeap SatInv SatProp SatAnalyze SatDb SatSearch SatSolve.
Import ListNotations.
Local Open Scope nat_scope.

(** ** Solve *)
Definition tautology (c : list nat) : Prop := exists l, In l c /\ In (lneg l) c.
Lemma taut_true : forall V c, tautology c -> clause_true V c.
Proof. intros V c (l & H1 & H2). destruct (lit_true_dec V l); [exists l; auto |]. exists (lneg l). split; auto. now apply lit_true_neg. Qed.

Lemma ent_via : forall F G C, (forall V, all_true V F -> all_true V G) -> entails G C -> entails F C.
Proof. intros F G C H E V HV. apply E. auto. Qed.
(** What remains of the invariant after a contradiction. *)
Definition hollow (st : solver) : Prop := sizes st /\ hinv (length (s_vars st)) (s_vars st) (s_heap st).
Record ginv (F : list (list nat)) (st : solver) : Prop := {
  g_lim : s_lim st = [];
  g_base : @base (length (s_vars st)) [] st;
  g_db : if s_ok st then exists F0, (forall V, all_true V F -> all_true V F0) /\ (forall V, all_true V F0 -> all_true V F) /\ sinv F0 st
         else entails F [] /\ hollow st }.

Lemma base_swap : forall n A B st, @base n A st -> (forall b, In b B -> b < 2 * length (s_vars st)) -> @base n B (set_assum B st).
Proof. intros n A B st [C1 C2 C3 C4 C5 C6] H. constructor; ssimp; auto. Qed.
Lemma side_level0 : forall n A st, @base n A st -> s_lim st = [] -> s_ok st = true -> s_conflict st = [] -> @side n A st.
Proof.
  intros n A st B L O C. constructor; auto.
  - intros i l _ K. rewrite L in K. cbn in K. lia.
  - intros k a _ K. unfold dlevel in K. rewrite L in K. cbn in K. lia.
Qed.

Lemma restarts_ok : forall n cfg orc F A, g_min cfg <> MinNone -> sorting orc -> forall fuel st, @sst n F A st ->
  rspec (restarts cfg orc fuel st) (fun r => if fst r then @satd n F A (snd r) else @refuted n F A (snd r) \/ @absurdum n F A (snd r)).
Proof.
  intros n cfg orc F A Hm So. induction fuel as [| fu IH]; intros st [I Sd]; [exact Logic.I |]. cbn [restarts].
  unfold search at 1. change (s_ok (tickup st)) with (s_ok st). rewrite (d_ok _ _ Sd). cbn [negb]. eapply rspec_bind.
  - apply (@search_loop_ok n cfg orc F A Hm So). split; [eapply inv_same; [exact I | ..]; auto | eapply side_same; [exact Sd | ..]; auto].
  - intros [[[|] |] s] H; cbn [answer fst snd] in H; [exact H | exact H |]. apply IH. apply H.
Qed.

Definition model_val (st : solver) (v : nat) : bool := nth v (s_model st) false.
Lemma satd_model : forall n F A st, @satd n F A st -> let V := fun v => nth v (map (fun v => is_true (v_asg v)) (s_vars st)) false in all_true V F /\ (forall a, In a A -> lit_true V a).
Proof.
  intros n F A st (B & _ & _ & I & Q & HA & Full) V. unfold sinv in I.
  assert (HT : forall l, In l (s_trail st) -> lit_true V l).
  { intros l Hl. pose proof (t_valid _ _ _ _ _ _ _ _ (i_t _ _ _ I) l Hl) as R. pose proof (proj2 (t_val _ _ _ _ _ _ _ _ (i_t _ _ _ I) l R) Hl) as E.
    unfold lit_true, V. change (Nat.div2 l) with (lvar l). change (Nat.odd l) with (lsign l). rewrite lvar_lt in R. unfold asg_of in E.
    assert (Em : nth (lvar l) (map (fun v => is_true (v_asg v)) (s_vars st)) false = is_true (v_asg (nth (lvar l) (s_vars st) dvar))).
    { change false with ((fun v => is_true (v_asg v)) dvar) at 1. apply map_nth. }
    rewrite Em. destruct (lsign l), (v_asg (nth (lvar l) (s_vars st) dvar)) as [[|] |]; cbn in *; congruence. }
  split; [| intros a Ha; apply HT, HA, Ha].
  intros C HC. destruct (i_c _ _ _ I C HC) as [(j & t & E & Ht & _) | (c & cl & Hp & Ec & _ & Sub)].
  - exists t. split; auto. apply HT. eapply nth_error_In; eauto.
  - apply paired_watched in Hp. destruct Hp as (p & ws & b & Ew & Hb).
    destruct (i_w _ _ _ I p ws Ew) as [_ K]. destruct (K c b Hb) as (cl' & Ec' & G & Wb & _ & _ & Wt). assert (cl' = cl) by congruence. subst cl'.
    assert (Lp : In (lneg p) (c_data cl)) by (destruct Wb as [Wb | Wb]; eapply nth_error_In; eauto).
    assert (Rp : lneg p < 2 * length (s_vars st)) by (apply (gc_lits _ _ _ G); auto). pose proof (proj1 (lneg_lt _ _) Rp) as Rp'.
    destruct (asg_of (s_vars st) p) as [[|] |] eqn:Ep.
    + pose proof (val_true (i_t _ _ _ I) p Rp' Ep) as Tp. apply In_nth_error in Tp. destruct Tp as [i Ei].
      destruct (Wt i) as (j & t & Et & Ht & _); [rewrite Q; eapply nth_some_lt; eauto | exact Ei |]. exists t. split; [apply Sub; exact Ht |]. apply HT. eapply nth_error_In; eauto.
    + exists (lneg p). split; [apply Sub; exact Lp |]. apply HT. apply (val_false (i_t _ _ _ I)); auto.
    + exfalso. apply asg_undef in Ep. apply lvar_lt in Rp'. exact (Full _ Rp' Ep).
Qed.

(** Facts of a total, propagated assignment used by the backbone computation: literals of level 0 are consequences, and
    a true literal can be flipped if every clause watching it contains another true literal. *)
Definition flip (V : nat -> bool) (x v : nat) : bool := if v =? x then negb (V v) else V v.
Definition rotinfo (F : list (list nat)) (vs : list msvar) (A : list clause) (W : list (list (nat * nat))) (V : nat -> bool) : Prop :=
  (forall v, v < length vs -> v_lvl (nth v vs dvar) = Some 0 -> entails F [mk_lit v (negb (V v))]) /\
  (forall l, l < 2 * length vs -> lit_true V l -> v_lvl (nth (lvar l) vs dvar) <> Some 0 ->
    (forall c b, In (c, b) (nth (lneg l) W []) -> exists t, In t (c_data (nth c A dcl)) /\ t <> l /\ lit_true V t) -> all_true (flip V (lvar l)) F).
Lemma lit_true_both : forall V l, lit_true V l -> lit_true V (lneg l) -> False.
Proof. intros V l H1 H2. apply lit_true_neg in H2. contradiction. Qed.
Lemma satd_rot : forall n F A st, @satd n F A st -> rotinfo F (s_vars st) (s_arena st) (s_watches st) (fun v => nth v (map (fun v => is_true (v_asg v)) (s_vars st)) false).
Proof.
  intros n F A st (B & _ & _ & I & Q & HA & Full). set (V := fun v => nth v _ false). unfold sinv in I.
  assert (HT : forall l, In l (s_trail st) -> lit_true V l).
  { intros l Hl. pose proof (t_valid _ _ _ _ _ _ _ _ (i_t _ _ _ I) l Hl) as R. pose proof (proj2 (t_val _ _ _ _ _ _ _ _ (i_t _ _ _ I) l R) Hl) as E.
    unfold lit_true, V. change (Nat.div2 l) with (lvar l). change (Nat.odd l) with (lsign l). rewrite lvar_lt in R. unfold asg_of in E.
    assert (Em : nth (lvar l) (map (fun v => is_true (v_asg v)) (s_vars st)) false = is_true (v_asg (nth (lvar l) (s_vars st) dvar))).
    { change false with ((fun v => is_true (v_asg v)) dvar) at 1. apply map_nth. }
    rewrite Em. destruct (lsign l), (v_asg (nth (lvar l) (s_vars st) dvar)) as [[|] |]; cbn in *; congruence. }
  assert (TT : forall l, l < 2 * length (s_vars st) -> In l (s_trail st) \/ In (lneg l) (s_trail st)).
  { intros l Hl. destruct (asg_of (s_vars st) l) as [[|] |] eqn:E.
    - left. apply (val_true (i_t _ _ _ I)); auto.
    - right. apply (val_false (i_t _ _ _ I)); auto.
    - exfalso. apply asg_undef in E. apply lvar_lt in Hl. exact (Full _ Hl E). }
  assert (TR : forall l, l < 2 * length (s_vars st) -> lit_true V l -> In l (s_trail st)).
  { intros l Hl H. destruct (TT l Hl) as [K | K]; auto. exfalso. eapply lit_true_both; [exact H | apply HT, K]. }
  split.
  - intros v Hv Lv. set (l := mk_lit v (negb (V v))). assert (El : lvar l = v) by (unfold l; apply mk_lit_var).
    assert (Hl : l < 2 * length (s_vars st)) by (apply lvar_lt; rewrite El; exact Hv).
    assert (Tl : lit_true V l). { unfold lit_true. change (Nat.div2 l) with (lvar l). change (Nat.odd l) with (lsign l). rewrite El. unfold l. rewrite mk_lit_sign. now rewrite Bool.negb_involutive. }
    apply TR in Tl; auto. apply In_nth_error in Tl. destruct Tl as [i Ei]. apply (t_ent0 _ _ _ _ _ _ _ _ (i_t _ _ _ I) i l Ei). pose proof (t_lvl _ _ _ _ _ _ _ _ (i_t _ _ _ I) i l Ei) as K. rewrite El, Lv in K. congruence.
  - intros l Hl Tl Ll HW.
    assert (FL : forall t, t <> l -> lit_true V t -> lit_true (flip V (lvar l)) t).
    { intros t N Ht. unfold lit_true, flip. change (Nat.div2 t) with (lvar t). destruct (Nat.eqb_spec (lvar t) (lvar l)) as [E | E]; [| exact Ht]. exfalso.
      destruct (same_var t l E) as [K | K]; [contradiction |]. subst t. exact (lit_true_both V l Tl Ht). }
    intros C HC. destruct (i_c _ _ _ I C HC) as [(j & t & E & Ht & L0) | (c & cl & (x & y & r & b1 & b2 & D & W1 & W2 & Bl) & Ec & _ & Sub)].
    + exists t. split; auto. apply FL; [| apply HT; eapply nth_error_In; eauto]. intros ->. apply Ll. rewrite (t_lvl _ _ _ _ _ _ _ _ (i_t _ _ _ I) j l E). now rewrite L0.
    + assert (Ecl : nth c (s_arena st) dcl = cl) by (now apply nth_of_some).
      assert (Go : forall t, In t (c_data cl) -> t <> l -> lit_true V t -> clause_true (flip V (lvar l)) C) by (intros t H1 H2 H3; exists t; split; [apply Sub, H1 | apply FL; auto]).
      assert (Ix : In x (c_data cl)) by (rewrite D; left; auto). assert (Iy : In y (c_data cl)) by (rewrite D; right; left; auto).
      assert (On : (x = l \/ y = l) -> clause_true (flip V (lvar l)) C).
      { intros [-> | ->]; [destruct (HW c b1 W1) as (t & H1 & H2 & H3) | destruct (HW c b2 W2) as (t & H1 & H2 & H3)]; rewrite Ecl in H1; apply (Go t); auto. }
      assert (WW : forall p b, In (c, b) (nth p (s_watches st) []) -> In p (s_trail st) -> exists t, In t (s_trail st) /\ In t (c_data cl) /\ (t = b \/ t = x \/ t = y)).
      { intros p b Hb Hp. pose proof (i_w _ _ _ I p (nth p (s_watches st) [])) as K. destruct (nth_error (s_watches st) p) as [ws |] eqn:Ew; [| rewrite nth_overflow in Hb by (now apply nth_error_None); destruct Hb].
        rewrite (nth_of_some _ _ _ _ [] Ew) in *. destruct (K eq_refl) as [_ K']. destruct (K' c b Hb) as (cl' & Ec' & _ & _ & _ & _ & Wt). assert (cl' = cl) by congruence. subst cl'.
        apply In_nth_error in Hp. destruct Hp as [i Ei]. destruct (Wt i) as (j & t & Et & Ht & Hw & _); [rewrite Q; eapply nth_some_lt; eauto | exact Ei |].
        exists t. split; [eapply nth_error_In; eauto |]. split; auto. destruct Hw as [Hw | Hw]; auto. right. unfold watched_by in Hw. rewrite D in Hw. cbn in Hw. destruct Hw as [Hw | Hw]; inversion Hw; auto. }
      assert (Rg : forall t, In t (c_data cl) -> t < 2 * length (s_vars st)).
      { intros t Ht. pose proof (i_w _ _ _ I (lneg x) (nth (lneg x) (s_watches st) [])) as K. destruct (nth_error (s_watches st) (lneg x)) as [ws |] eqn:Ew; [| rewrite nth_overflow in W1 by (now apply nth_error_None); destruct W1].
        rewrite (nth_of_some _ _ _ _ [] Ew) in *. destruct (K eq_refl) as [_ K']. destruct (K' c b1 W1) as (cl' & Ec' & G & _). assert (cl' = cl) by congruence. subst cl'. apply (gc_lits _ _ _ G); auto. }
      destruct (Nat.eq_dec x l) as [Exl | Nx]; [apply On; auto |]. destruct (Nat.eq_dec y l) as [Eyl | Ny]; [apply On; auto |].
      destruct (TT x (Rg x Ix)) as [Tx | Fx]; [apply (Go x); auto |]. destruct (TT y (Rg y Iy)) as [Ty | Fy]; [apply (Go y); auto |]. exfalso.
      assert (NB : forall t, In t (s_trail st) -> In (lneg t) (s_trail st) -> False) by (intros t H1 H2; eapply lit_true_both; [apply HT, H1 | apply HT, H2]).
      destruct (WW _ _ W1 Fx) as (t & H1 & H2 & [-> | [-> | ->]]); [| exact (NB _ H1 Fx) | exact (NB _ H1 Fy)].
      destruct (WW _ _ W2 Fy) as (t & H3 & H4 & [-> | [-> | ->]]); [| exact (NB _ H3 Fx) | exact (NB _ H3 Fy)].
      destruct Bl as [-> | ->]; [exact (NB _ H1 Fy) | exact (NB _ H3 Fx)].
Qed.

(** The state after [cancel_until 0]. *)
Lemma cancel0 : forall n F q A st, inv F q st -> @base n A st -> exists s, cancel_until 0 st = Ok s /\ s_lim s = [] /\ @base n A s /\ (exists q, inv F q s) /\
  (sinv F st -> sinv F s) /\ s_ok s = s_ok st /\ s_conflict s = s_conflict st /\ s_model s = s_model st /\ s_assum s = s_assum st /\ length (s_vars s) = length (s_vars st) /\
  s_arena s = s_arena st /\ s_watches s = s_watches st /\ (forall v, v_lvl (nth v (s_vars s) dvar) = v_lvl (nth v (s_vars st) dvar)).
Proof.
  intros n F q A st I B. destruct (nth_error (s_lim st) 0) as [t |] eqn:E.
  - destruct (cancel_ok F q st 0 t I E) as (s & Es & Hc). exists s. split; auto. destruct Hc as (I2 & _ & t' & vs & h & _ & _ & -> & Lv & _ & _ & LL).
    split; [reflexivity |]. split; [eapply base_same; eauto |]. split; [eexists; exact I2 |]. repeat (split; [first [reflexivity | intros _; exact I2 | exact Lv] |]). exact LL.
  - exists st. unfold cancel_until. rewrite E. split; auto. split; [destruct (s_lim st); [reflexivity | discriminate] |]. split; auto. split; [eauto |].
    split; [auto |]. repeat (split; [reflexivity |]). intros v. reflexivity.
Qed.

(** What [solve_with_assumptions] answers. *)
Definition answered (F : list (list nat)) (A : list nat) (st : solver) (r : bool * solver) : Prop :=
  ginv F (snd r) /\ length (s_vars (snd r)) = length (s_vars st) /\
  if fst r then all_true (model_val (snd r)) F /\ (forall a, In a A -> lit_true (model_val (snd r)) a) /\ length (s_model (snd r)) = length (s_vars st) /\
    rotinfo F (s_vars (snd r)) (s_arena (snd r)) (s_watches (snd r)) (model_val (snd r)) /\ s_ok (snd r) = true
  else entails F (s_conflict (snd r)) /\ (forall l, In l (s_conflict (snd r)) -> In (lneg l) A) /\ (s_conflict (snd r) = [] -> s_ok (snd r) = false).

Lemma inv_hollow : forall F q st, inv F q st -> hollow st.
Proof. intros F q st I. split; apply I. Qed.
Lemma ginv_hollow : forall F st, ginv F st -> hollow st.
Proof. intros F st [L B D]. destruct (s_ok st); [destruct D as (F0 & H1 & _ & H2); eapply inv_hollow; exact H2 | apply D]. Qed.
Lemma ginv_intro0 : forall F st n, s_lim st = [] -> @base n [] st ->
  (if s_ok st then exists F0, (forall V, all_true V F -> all_true V F0) /\ (forall V, all_true V F0 -> all_true V F) /\ sinv F0 st else entails F [] /\ hollow st) -> ginv F st.
Proof. intros F st n L B D. constructor; auto. rewrite (b_nv _ _ B). exact B. Qed.
Lemma ginv_intro : forall F st n, s_lim st = [] -> @base n [] st ->
  (if s_ok st then exists F0, (forall V, all_true V F -> all_true V F0) /\ (forall V, all_true V F0 -> all_true V F) /\ sinv F0 st else entails F [] /\ exists F0 q, inv F0 q st) -> ginv F st.
Proof. intros F st n L B D. apply (ginv_intro0 F st n L B). destruct (s_ok st); auto. destruct D as (E & F0 & q & I). split; auto. eapply inv_hollow; eauto. Qed.
Lemma solve_ok0 : forall cfg orc F A fuel st, g_min cfg <> MinNone -> sorting orc -> ginv F st -> (forall a, In a A -> a < 2 * length (s_vars st)) ->
  rspec (solve cfg orc fuel (set_assum A st)) (fun r => answered F A st (fst r, set_assum [] (snd r)) /\ s_assum (snd r) = A).
Proof.
  intros cfg orc F A fuel st Hm So G HA. unfold solve. change (s_ok (set_conflict [] (set_model [] (set_assum A st)))) with (s_ok st).
  destruct (s_ok st) eqn:Ok1; cbn [negb].
  - pose proof (g_db _ _ G) as D. rewrite Ok1 in D. destruct D as (F0 & D1 & D2 & D3). set (st0 := set_conflict [] (set_model [] (set_assum A st))).
    pose proof D2 as M.
    assert (B0 : @base (length (s_vars st)) A st0). { eapply base_same; [apply (base_swap _ [] A st (g_base _ _ G) HA) | ..]; auto. }
    assert (S0 : @sst (length (s_vars st)) F0 A st0). { split; [eapply inv_same; [exact D3 | ..]; auto |]. apply side_level0; auto. apply G. }
    pose proof (restarts_ok _ cfg orc F0 A Hm So fuel st0 S0) as R.
    destruct (restarts cfg orc fuel st0) as [[r s1] | |] eqn:Er; [| exact R | exact Logic.I]. cbn [rspec fst snd] in R. cbn [rbind].
    destruct r.
    + destruct (satd_model _ _ _ _ R) as [M1 M2]. pose proof (satd_rot _ _ _ _ R) as [RI1 RI2]. destruct R as (B & Ok2 & Cf & I & Q & _). set (md := map (fun v => is_true (v_asg v)) (s_vars s1)) in *.
      destruct (cancel0 (length (s_vars st)) F0 (s_qhead s1) A (set_model md s1)) as (s & Es & Ls & Bs & _ & Is & E1 & E2 & E3 & E4 & E5 & E6 & E7 & E8); [eapply inv_same; [exact I | ..]; auto | eapply base_same; [exact B | ..]; auto |].
      rewrite Es. cbn [rbind rspec]. cbn [fst snd]. split; [| exact (b_as _ _ Bs)]. unfold answered. cbn [fst snd]. split; [| split].
      * apply (ginv_intro _ _ (length (s_vars st))); [exact Ls | apply (base_swap _ A []); [exact Bs | intros b []] |]. change (s_ok (set_assum [] s)) with (s_ok s). rewrite E1. change (s_ok (set_model md s1)) with (s_ok s1). rewrite Ok2.
        exists F0. split; auto. split; auto. eapply inv_same; [apply Is; eapply inv_same; [exact I | ..]; auto | ..]; auto.
      * exact (b_nv _ _ Bs).
      * assert (Em : forall v, model_val (set_assum [] s) v = nth v md false) by (intros v; unfold model_val; change (s_model (set_assum [] s)) with (s_model s); rewrite E3; reflexivity).
        split.
        -- intros C HC. destruct (M _ M1 C HC) as (l & K1 & K2). exists l. split; auto. unfold lit_true in *. rewrite Em. exact K2.
        -- split; [intros a Ha; unfold lit_true; rewrite Em; apply M2; exact Ha |]. change (s_model (set_assum [] s)) with (s_model s). rewrite E3. change (s_model (set_model md s1)) with md.
           split; [unfold md; rewrite map_length; exact (b_nv _ _ B) |].
           split; [| change (s_ok s = true); rewrite E1; exact Ok2]. change (s_vars (set_assum [] s)) with (s_vars s). change (s_arena (set_assum [] s)) with (s_arena s). change (s_watches (set_assum [] s)) with (s_watches s).
           rewrite E6, E7. change (s_arena (set_model md s1)) with (s_arena s1). change (s_watches (set_model md s1)) with (s_watches s1). change (s_vars (set_model md s1)) with (s_vars s1) in E5, E8.
           split.
           ++ intros v Hv Lv. rewrite Em. apply (ent_via _ _ _ D1). apply RI1; [rewrite <- E5; exact Hv | rewrite <- E8; exact Lv].
           ++ intros l Hl Tl Ll HW. unfold lit_true in Tl. rewrite Em in Tl.
              assert (K : all_true (flip (fun v => nth v md false) (lvar l)) F0).
              { apply RI2; [rewrite <- E5; exact Hl | exact Tl | rewrite <- E8; exact Ll |]. intros c b Hb. destruct (HW c b Hb) as (t & H1 & H2 & H3). exists t. split; auto. split; auto. unfold lit_true in *. rewrite Em in H3. exact H3. }
              intros C HC. destruct (M _ K C HC) as (t & K1 & K2). exists t. split; auto. unfold lit_true, flip in *. rewrite Em. exact K2.
    + assert (Gen : exists q, inv F0 q s1 /\ @base (length (s_vars st)) A s1). { destruct R as [(B & _ & _ & _ & _ & I) | (B & _ & _ & q & I)]; eauto. }
      destruct Gen as (q & I & B). set (s2 := match s_conflict s1 with [] => set_ok false s1 | _ :: _ => s1 end).
      assert (I2 : inv F0 q s2) by (unfold s2; destruct (s_conflict s1); [eapply inv_same; [exact I | ..]; auto | exact I]).
      assert (B2 : @base (length (s_vars st)) A s2) by (unfold s2; destruct (s_conflict s1); [eapply base_same; [exact B | ..]; auto | exact B]).
      destruct (cancel0 (length (s_vars st)) F0 q A s2 I2 B2) as (s & Es & Ls & Bs & (q' & Iq) & Is & E1 & E2 & E3 & E4 & E5 & E6 & E7 & E8). rewrite Es. cbn [rbind rspec]. cbn [fst snd]. split; [| exact (b_as _ _ Bs)]. unfold answered. cbn [fst snd].
      assert (Cs : s_conflict s2 = s_conflict s1) by (unfold s2; destruct (s_conflict s1) eqn:E; [exact E | exact E]).
      split; [| split; [exact (b_nv _ _ Bs) |]].
      * apply (ginv_intro _ _ (length (s_vars st))); [exact Ls | apply (base_swap _ A []); [exact Bs | intros b []] |]. change (s_ok (set_assum [] s)) with (s_ok s). rewrite E1.
        destruct R as [(_ & O1 & N1 & _ & _ & I1) | (_ & N1 & Em & _)].
        -- assert (s2 = s1) by (unfold s2; destruct (s_conflict s1); [contradiction | reflexivity]). rewrite H in *. rewrite O1. exists F0. split; auto. split; auto. eapply inv_same; [apply Is; exact I1 | ..]; auto.
        -- assert (s_ok s2 = false) by (unfold s2; rewrite N1; reflexivity). rewrite H. split; [exact (ent_via _ _ _ D1 Em) |]. exists F0, q'. eapply inv_same; [exact Iq | ..]; auto.
      * change (s_conflict (set_assum [] s)) with (s_conflict s). change (s_ok (set_assum [] s)) with (s_ok s). rewrite E1, E2, Cs. destruct R as [(_ & O1 & N1 & En & Sub & I1) | (_ & N1 & Em & _)].
        -- split; [exact (ent_via _ _ _ D1 En) |]. split; [exact Sub |]. intros K. contradiction.
        -- rewrite N1. split; [exact (ent_via _ _ _ D1 Em) |]. split; [intros l [] |]. intros _. unfold s2. rewrite N1. reflexivity.
  - cbn [rbind rspec]. cbn [fst snd]. split; [| reflexivity]. unfold answered. cbn [fst snd]. pose proof (g_db _ _ G) as D. rewrite Ok1 in D. destruct D as (En & D2). split; [| split; [reflexivity |]].
    + apply (ginv_intro0 _ _ (length (s_vars st))); [apply G | eapply base_same; [apply (g_base _ _ G) | ..]; auto |].
      * symmetry. apply (b_as _ _ (g_base _ _ G)).
      * change (s_ok (set_assum [] (set_conflict [] (set_model [] (set_assum A st))))) with (s_ok st). rewrite Ok1. split; auto. destruct D2 as [Z H]. split; [destruct Z; constructor; auto | exact H].
    + split; [exact En |]. split; [intros l [] |]. intros _. exact Ok1.
Qed.
Lemma solve_ok : forall cfg orc F A fuel st, g_min cfg <> MinNone -> sorting orc -> ginv F st -> (forall a, In a A -> a < 2 * length (s_vars st)) ->
  rspec (solve_with_assumptions cfg orc fuel A st) (answered F A st).
Proof.
  intros cfg orc F A fuel st Hm So G HA. unfold solve_with_assumptions. eapply rspec_bind; [apply solve_ok0; eauto |]. intros [r s] [H _]. exact H.
Qed.
Lemma set_assum_id : forall st, set_assum (s_assum st) st = st.
Proof. destruct st. reflexivity. Qed.
(** [solve] without assumptions. *)
Lemma solve_ok_nil : forall cfg orc F fuel st, g_min cfg <> MinNone -> sorting orc -> ginv F st -> rspec (solve cfg orc fuel st) (answered F [] st).
Proof.
  intros cfg orc F fuel st Hm So G. pose proof (b_as _ _ (g_base _ _ G)) as E. pose proof (solve_ok0 cfg orc F [] fuel st Hm So G (fun a (K : In a []) => match K with end)) as H.
  assert (E1 : set_assum [] st = st) by (rewrite <- E; apply set_assum_id). rewrite E1 in H.
  destruct (solve cfg orc fuel st) as [[r s] | |]; auto. cbn [rspec fst snd] in *. destruct H as [H H2].
  assert (E2 : set_assum [] s = s) by (rewrite <- H2; apply set_assum_id). rewrite E2 in H. exact H.
Qed.
Lemma ginv_selo : forall F st o, ginv F st -> (forall l, In l o -> l < 2 * length (s_vars st)) -> ginv F (set_selo o st).
Proof.
  intros F st o [L B D] H. constructor; [exact L | |].
  - destruct B as [B1 B2 B3 B4 B5 B6]. constructor; ssimp; auto.
  - change (s_ok (set_selo o st)) with (s_ok st). destruct (s_ok st).
    + destruct D as (F0 & D1 & D2 & D3). exists F0. split; auto. split; auto. eapply inv_same; [exact D3 | ..]; auto.
    + destruct D as (D1 & Z & H2). split; auto. split; [destruct Z; constructor; auto | exact H2].
Qed.
Lemma ginv_bb : forall F st b, ginv F st -> ginv F (set_bb b st).
Proof.
  intros F st b [L B D]. constructor; [exact L | |].
  - destruct B as [B1 B2 B3 B4 B5 B6]. constructor; ssimp; auto.
  - change (s_ok (set_bb b st)) with (s_ok st). destruct (s_ok st).
    + destruct D as (F0 & D1 & D2 & D3). exists F0. split; auto. split; auto. eapply inv_same; [exact D3 | ..]; auto.
    + destruct D as (D1 & Z & H2). split; auto. split; [destruct Z; constructor; auto | exact H2].
Qed.

(** ** New variables *)
Lemma inv_more : forall F G q st, inv F q st -> incl F G -> (forall C, In C G -> covered (s_arena st) (s_trail st) (s_lim st) (s_watches st) C) -> inv G q st.
Proof.
  intros F G q st [Z I W C V H] Sub Cov. constructor; auto.
  - destruct I. constructor; auto.
    + intros i l E L. specialize (t_reason i l E L). destruct (nth (lvar l) (s_reasons st) None) as [c |]; auto. destruct t_reason as (cl & rest & A1 & A2 & A3). exists cl, rest. split; auto. split; auto.
      eapply goodcl_mono; eauto.
    + intros i l E L. eapply ent_mono; eauto.
  - intros p ws E. destruct (W p ws E) as [N K]. split; auto. intros c b Hb. destruct (K c b Hb) as (cl & A1 & A2 & A3). exists cl. split; auto. split; auto. eapply goodcl_mono; eauto.
  - intros c Hc. destruct (V c Hc) as (cl & A1 & A2). exists cl. split; auto. eapply goodcl_mono; eauto.
Qed.
Lemma nth_snoc : forall T (l : list T) x i d, nth i (l ++ [x]) d = if i =? length l then x else nth i l d.
Proof.
  intros T l x i d. destruct (Nat.eqb_spec i (length l)) as [-> | N]; [rewrite app_nth2, Nat.sub_diag by auto; reflexivity |].
  destruct (Nat.lt_ge_cases i (length l)); [now rewrite app_nth1 |]. rewrite !nth_overflow; auto; rewrite ?app_length; cbn; lia.
Qed.
Lemma new_var_ok : forall F sign st, ginv F st -> exists s, new_var sign true st = Ok (length (s_vars st), s) /\ ginv F s /\ length (s_vars s) = S (length (s_vars st)) /\ s_ok s = s_ok st.
Proof.
  intros F sign st G. unfold new_var. set (n := length (s_vars st)). set (st1 := set_reasons _ _).
  assert (V1 : s_vars st1 = s_vars st ++ [mkVar None None sign true]) by reflexivity.
  assert (NT : forall v, v <> n -> nth v (s_vars st1) dvar = nth v (s_vars st) dvar) by (intros v Hv; rewrite V1, nth_snoc; destruct (Nat.eqb_spec v (length (s_vars st))); [contradiction | reflexivity]).
  destruct (ginv_hollow _ _ G) as (Z1 & Hh1). pose proof (z_a _ Z1) as Za.
  assert (La : length (s_acts st1) = S n) by (unfold st1; ssimp; rewrite app_length; cbn; unfold n; lia).
  assert (Hin : in_heap (s_heap st) n = false).
  { destruct (in_heap (s_heap st) n) eqn:E; auto. destruct Hh1 as (H1 & _). apply (hok_in _ _ _ H1) in E. apply H1 in E. unfold n in E. lia. }
  assert (Hok : hok (length (s_acts st1)) (s_heap st)). { destruct Hh1 as ([H1 H2] & _). split; auto. intros x Hx. specialize (H2 x Hx). rewrite La. unfold n. lia. }
  destruct (hok_insert (s_acts st1) (s_heap st) n Hok) as (h & Eh & A1 & A2 & A3 & A4); [rewrite La; lia | exact Hin |].
  assert (E : insert_var_order n st1 = Ok (set_heap h st1)).
  { unfold insert_var_order. change (s_heap st1) with (s_heap st). rewrite Hin. assert (Ed : v_dec (var_at st1 n) = true) by (unfold var_at; rewrite V1, nth_snoc; unfold n; rewrite Nat.eqb_refl; reflexivity).
    rewrite Ed. cbn [negb andb]. rewrite Eh. reflexivity. }
  rewrite E. cbn [rbind]. exists (set_heap h st1). split; auto.
  assert (Hol : hollow (set_heap h st1)).
  { assert (Lv : length (s_vars st1) = S n) by (rewrite V1, app_length; cbn; unfold n; lia). split.
    - destruct Z1. constructor; change (s_vars (set_heap h st1)) with (s_vars st1); rewrite ?Lv; unfold st1; ssimp; rewrite ?app_length; cbn [length]; try lia.
      intros v Hv. rewrite nth_snoc. destruct (Nat.eqb_spec v (length (s_vars st))); [reflexivity |]. apply z_dec. unfold n in *. lia.
    - change (s_vars (set_heap h st1)) with (s_vars st1). rewrite Lv. split; [rewrite La in A1; exact A1 |]. destruct Hh1 as (H1 & H2 & H3). split; [unfold st1; ssimp; lia |]. intros v Hv Nv. apply A2. destruct (Nat.eq_dec v n) as [-> | Nn]; auto. right.
      rewrite NT in Nv by auto. apply H3; auto. unfold n in *. lia. }
  assert (Inv : forall F0 q, inv F0 q st -> inv F0 q (set_heap h st1)).
  { intros F0 q [Z I W C V H].
    assert (Rg : forall l, l < 2 * length (s_vars st) -> lvar l <> n) by (intros l Hl; apply lvar_lt in Hl; unfold n; lia).
    assert (Lv : length (s_vars st1) = S n) by (rewrite V1, app_length; cbn; unfold n; lia).
    assert (AS : forall l, lvar l <> n -> asg_of (s_vars st1) l = asg_of (s_vars st) l) by (intros l Hl; unfold asg_of; rewrite NT by auto; reflexivity).
    assert (GM : forall cl, goodcl F0 (length (s_vars st)) cl -> goodcl F0 (S n) cl) by (intros cl Hcl; eapply goodcl_mono; [| | exact Hcl]; unfold n; auto).
    constructor; change (s_vars (set_heap h st1)) with (s_vars st1); change (s_trail (set_heap h st1)) with (s_trail st); change (s_lim (set_heap h st1)) with (s_lim st);
      change (s_arena (set_heap h st1)) with (s_arena st); rewrite ?Lv.
    - destruct Z. constructor; change (s_vars (set_heap h st1)) with (s_vars st1); unfold st1; ssimp; rewrite ?app_length; cbn [length]; try lia.
      intros v Hv. rewrite nth_snoc. destruct (Nat.eqb_spec v (length (s_vars st))); [reflexivity |]. apply z_dec. lia.
    - destruct I. constructor; auto.
      + intros l Hl. specialize (t_valid l Hl). unfold n. lia.
      + intros l Hl. destruct (Nat.eq_dec (lvar l) n) as [En | Nn].
        * split; [unfold asg_of; rewrite V1, nth_snoc, En; unfold n; rewrite Nat.eqb_refl; cbn; destruct (lsign l); discriminate |].
          intros K. apply t_valid in K. apply Rg in K. contradiction.
        * rewrite AS by auto. apply t_val. apply lvar_lt. apply lvar_lt in Hl. unfold n in *. lia.
      + intros i l El. rewrite NT by (apply Rg, t_valid; eapply nth_error_In; eauto). eauto.
      + intros i l El Lvl. change (s_reasons (set_heap h st1)) with (s_reasons st ++ [None]). rewrite nth_snoc. specialize (t_reason i l El Lvl).
        destruct (Nat.eqb_spec (lvar l) (length (s_reasons st))) as [En | _].
        * exfalso. rewrite (z_r _ Z) in En. refine (Rg l _ En). apply t_valid. eapply nth_error_In; eauto.
        * destruct (nth (lvar l) (s_reasons st) None) as [c |]; auto. destruct t_reason as (cl & rest & K1 & K2 & K3). exists cl, rest. split; auto.
    - intros p ws Ep. change (s_watches (set_heap h st1)) with (s_watches st ++ [[]; []]) in Ep.
      destruct (Nat.lt_ge_cases p (length (s_watches st))) as [Lp | Lp].
      + rewrite nth_error_app1 in Ep by auto. destruct (W p ws Ep) as [N K]. split; auto. intros c b Hb. destruct (K c b Hb) as (cl & K1 & K2 & K3 & K4 & K5). exists cl. split; auto. split; auto. split; auto. split; [unfold n; lia |]. exact K5.
      + rewrite nth_error_app2 in Ep by auto. assert (ws = []). { destruct (p - length (s_watches st)) as [| [| k]]; cbn in Ep; try congruence. destruct k; discriminate. }
        subst ws. split; [constructor | intros c b []].
    - intros D HD. destruct (C D HD) as [K | (c & cl & K1 & K3)]; [left; exact K |]. right. exists c, cl. split; auto. eapply paired_mono; [| exact K1]. intros z w Hz.
      change (s_watches (set_heap h st1)) with (s_watches st ++ [[]; []]). destruct (Nat.lt_ge_cases z (length (s_watches st))) as [Lz | Lz]; [now rewrite app_nth1 | rewrite nth_overflow in Hz by exact Lz; destruct Hz].
    - intros c Hc. destruct (V c Hc) as (cl & K1 & K2). exists cl. split; auto.
    - split; [rewrite La in A1; exact A1 |]. destruct H as (H1 & H2 & H3). split; [unfold st1; ssimp; lia |]. intros v Hv Nv. apply A2. destruct (Nat.eq_dec v n) as [-> | Nn]; auto. right.
      rewrite NT in Nv by auto. apply H3; auto. unfold n in *. lia. }
  assert (Lv : length (s_vars st1) = S n) by (rewrite V1, app_length; cbn; unfold n; lia).
  split; [| split; [exact Lv | reflexivity]]. apply (ginv_intro0 _ _ (S n)).
  - apply G.
  - destruct (g_base _ _ G) as [C1 C2 C3 C4 C5 C6]. constructor; change (s_vars (set_heap h st1)) with (s_vars st1); rewrite ?Lv; auto.
    + intros v. change (s_seen (set_heap h st1)) with (s_seen st ++ [false]). rewrite nth_snoc. destruct (v =? length (s_seen st)); auto.
    + intros a [].
    + intros l Hl. specialize (C5 l Hl). unfold n. lia.
  - change (s_ok (set_heap h st1)) with (s_ok st). pose proof (g_db _ _ G) as D. destruct (s_ok st).
    + destruct D as (F0 & D1 & D2 & D3). exists F0. split; auto. split; auto. apply Inv. exact D3.
    + destruct D as (En & D2). split; auto.
Qed.

(** ** Adding clauses: entailment by [F], cover of [G] *)
Record invx (F G : list (list nat)) (q : nat) (st : solver) : Prop := {
  x_sz : sizes st;
  x_t : tinv F (length (s_vars st)) (s_vars st) (s_trail st) (s_lim st) q (s_reasons st) (s_arena st);
  x_w : winv F (length (s_vars st)) (s_arena st) (s_trail st) (s_lim st) q (s_watches st);
  x_c : forall C, In C G -> covered (s_arena st) (s_trail st) (s_lim st) (s_watches st) C;
  x_v : forall c, In c (s_clauses st) \/ In c (s_learnts st) -> goodid F (length (s_vars st)) (s_arena st) c;
  x_h : hinv (length (s_vars st)) (s_vars st) (s_heap st) }.
Lemma invx_inv : forall F G q st, invx F G q st -> (forall C, In C F -> In C G \/ covered (s_arena st) (s_trail st) (s_lim st) (s_watches st) C) -> inv F q st.
Proof. intros F G q st [Z I W C V H] Cov. constructor; auto. intros D HD. destruct (Cov D HD); auto. Qed.
Lemma inv_invx : forall F E q st, inv F q st -> incl F E -> invx E F q st.
Proof.
  intros F G q st [Z I W C V H] Sub. constructor; auto.
  - destruct I. constructor; auto.
    + intros i l E L. specialize (t_reason i l E L). destruct (nth (lvar l) (s_reasons st) None) as [c |]; auto. destruct t_reason as (cl & rest & A1 & A2 & A3). exists cl, rest. split; auto. split; auto.
      eapply goodcl_mono; eauto.
    + intros i l E L. eapply ent_mono; eauto.
  - intros p ws E. destruct (W p ws E) as [N K]. split; auto. intros c b Hb. destruct (K c b Hb) as (cl & A1 & A2 & A3). exists cl. split; auto. split; auto. eapply goodcl_mono; eauto.
  - intros c Hc. destruct (V c Hc) as (cl & A1 & A2). exists cl. split; auto. eapply goodcl_mono; eauto.
Qed.
Lemma x_arena_ext : forall F G0 q st cl, invx F G0 q st -> invx F G0 q (set_arena (s_arena st ++ [cl]) st).
Proof.
  intros F G0 q st cl [Z I W C V H]. constructor; ssimp; auto.
  - destruct Z; constructor; ssimp; auto.
  - constructor; try apply I. intros i l El Lv. pose proof (t_reason _ _ _ _ _ _ _ _ I i l El Lv) as TR. destruct (nth (lvar l) (s_reasons st) None) as [c |]; auto.
    destruct TR as (cl' & rest & A & B). exists cl', rest. split; auto. now apply nth_app_some.
  - intros p ws Ep. destruct (W p ws Ep) as [N K]. split; auto. intros c b Hb. destruct (K c b Hb) as (cl' & A & B). exists cl'. split; auto. now apply nth_app_some.
  - intros D HD. destruct (C D HD) as [L | (c & cl' & A & B & G)]; [left; exact L |]. right. exists c, cl'. split; auto. split; auto. now apply nth_app_some.
  - intros c Hc. destruct (V c Hc) as (cl' & A & B). exists cl'. split; auto. now apply nth_app_some.
Qed.
Lemma x_watch_push_inv : forall F G0 q st p c b, invx F G0 q st -> went F (length (s_vars st)) (s_arena st) (s_trail st) (s_lim st) q p c b ->
  ~ In c (map fst (wlist st p)) -> invx F G0 q (watch_push p (c, b) st).
Proof.
  intros F G0 q st p c b [Z I W C V H] Hw Hn. constructor; auto.
  - destruct Z; constructor; auto. unfold watch_push, set_wlist; ssimp. now rewrite upd_length.
  - intros x ws E. apply watch_push_nth in E. destruct E as [[-> ->] | [N E]]; [| exact (W x ws E)].
    change (s_arena (watch_push p (c, b) st)) with (s_arena st). change (s_trail (watch_push p (c, b) st)) with (s_trail st).
    change (s_lim (watch_push p (c, b) st)) with (s_lim st). change (s_vars (watch_push p (c, b) st)) with (s_vars st).
    destruct (nth_error (s_watches st) p) as [ws |] eqn:Ep.
    + destruct (W p ws Ep) as [N K]. unfold wlist in *. rewrite (nth_of_some _ _ _ _ [] Ep) in *. split.
      * rewrite map_app. cbn. now apply nodup_snoc.
      * intros c' b' Hb. apply in_app_or in Hb. destruct Hb as [Hb | [E | []]]; auto. now inversion E; subst.
    + unfold wlist in *. rewrite nth_overflow by (now apply nth_error_None). cbn. split; [constructor; [intros [] | constructor] |].
      intros c' b' [E | []]. now inversion E; subst.
  - intros D HD. destruct (C D HD) as [L | (c' & cl' & A1 & A)]; [left; exact L |]. right. exists c', cl'. split; auto.
    eapply paired_mono; [| exact A1]. intros z w Hx. unfold watch_push, set_wlist. ssimp. destruct (Nat.eq_dec p z) as [<- | N]; [| now rewrite nth_upd_neq by auto].
    destruct (Nat.lt_ge_cases p (length (s_watches st))) as [Lp | Lp]; [| rewrite nth_overflow in Hx by lia; destruct Hx].
    rewrite nth_upd_eq by exact Lp. apply in_or_app. left. exact Hx.
Qed.
Lemma x_enq_inv : forall F G0 st q l r, invx F G0 q st -> l < 2 * length (s_vars st) -> value st l = None ->
  (0 < dlevel st -> match r with
    | Some c => reason_ok F (length (s_vars st)) (s_arena st) (s_trail st) (length (s_trail st)) l c
    | None => forall j, j < length (s_trail st) -> lv (s_lim st) j < dlevel st end) ->
  (dlevel st = 0 -> entails F [l]) ->
  invx F G0 q (enq l r st).
Proof.
  intros F G0 st q l r [Z I W C V H] Hl U HR HE. pose proof (enq_tinv F st q l r (z_r _ Z) I Hl U HR HE) as I'. 
  assert (EV : length (s_vars (enq l r st)) = length (s_vars st)) by (unfold enq; ssimp; apply upd_length).
  assert (Lv : lvar l < length (s_vars st)) by (now apply lvar_lt).
  pose proof (t_q _ _ _ _ _ _ _ _ I) as Tq. constructor; rewrite ?EV.
  - destruct Z. unfold enq. constructor; ssimp; try (rewrite ?upd_length; assumption). apply upd_dec; auto. cbn. unfold var_at. auto.
  - exact I'.
  - unfold enq. ssimp. intros p ws E. destruct (W p ws E) as [N K]. split; auto. intros c b Hb. apply went_app; auto.
  - unfold enq. ssimp. intros D HD. apply covered_app. auto.
  - exact V.
  - destruct H as (H1 & H2 & H3). unfold enq. ssimp. split; [exact H1 |]. split; [exact H2 |]. intros v Hv. destruct (Nat.eq_dec (lvar l) v) as [<- | N].
    + rewrite nth_upd_eq by exact Lv. discriminate.
    + rewrite nth_upd_neq by auto. auto.
Qed.

Lemma ins_in : forall x l y, In y (ins x l) <-> y = x \/ In y l.
Proof. intros x l y. induction l as [| z r IH]; cbn; [intuition auto |]. destruct (x <=? z); cbn; [intuition auto | rewrite IH; intuition auto]. Qed.
Lemma isort_in : forall l y, In y (isort l) <-> In y l.
Proof. induction l as [| x r IH]; intros y; cbn; [tauto |]. rewrite ins_in, IH. intuition auto. Qed.
Lemma ins_sorted : forall x l, StronglySorted le l -> StronglySorted le (ins x l).
Proof.
  intros x l. induction l as [| z r IH]; intros H; cbn; [constructor; constructor |]. inversion H as [| ? ? H1 H2]; subst. rewrite Forall_forall in H2. destruct (Nat.leb_spec x z).
  - constructor; auto. apply Forall_forall. intros y [<- | Hy]; auto. specialize (H2 y Hy). lia.
  - constructor; auto. apply Forall_forall. intros y Hy. apply ins_in in Hy. destruct Hy as [-> | Hy]; [lia | auto].
Qed.
Lemma isort_sorted : forall l, StronglySorted le (isort l).
Proof. induction l; cbn; [constructor | now apply ins_sorted]. Qed.

Lemma norm_spec : forall st ls prev, StronglySorted le ls -> (forall q, prev = Some q -> forall l, In l ls -> q <= l) ->
  match norm_lits st prev ls with
  | None => (exists l, In l ls /\ value st l = Some true) \/ (exists l, In l ls /\ (prev = Some (lneg l) \/ In (lneg l) ls))
  | Some qs => (forall l, In l qs -> In l ls /\ value st l = None) /\ NoDup qs /\ (forall q, prev = Some q -> ~ In q qs) /\
      (forall l, In l ls -> In l qs \/ value st l = Some false \/ prev = Some l)
  end.
Proof.
  intros st. induction ls as [| l r IH]; intros prev Hs Hp; cbn [norm_lits].
  - split; [intros l [] |]. split; [constructor |]. split; [intros q _ [] | intros l []].
  - inversion Hs as [| ? ? Hs1 Hs2]; subst. rewrite Forall_forall in Hs2.
    destruct (is_true (value st l) || (match prev with Some q => l =? lneg q | None => false end)) eqn:E1.
    { apply orb_true_iff in E1. destruct E1 as [E1 | E1].
      - left. exists l. split; [left; auto |]. destruct (value st l) as [[|] |]; cbn in E1; congruence.
      - right. exists l. split; [left; auto |]. left. destruct prev as [q |]; [| discriminate]. apply Nat.eqb_eq in E1. f_equal. rewrite E1. symmetry. apply lneg_inv. }
    apply orb_false_iff in E1. destruct E1 as [E1 E2].
    destruct (negb (is_false (value st l)) && negb (match prev with Some q => l =? q | None => false end)) eqn:E3.
    + apply andb_true_iff in E3. destruct E3 as [E3 E4]. assert (Vl : value st l = None) by (destruct (value st l) as [[|] |]; cbn in *; congruence).
      assert (Np : prev <> Some l) by (intros ->; rewrite Nat.eqb_refl in E4; discriminate).
      specialize (IH (Some l) Hs1). destruct (norm_lits st (Some l) r) as [qs |]; cbn [option_map].
      * destruct IH as (A1 & A2 & A3 & A4); [intros q [= <-]; exact Hs2 |]. split; [intros x [<- | Hx]; [split; [left |]; auto | destruct (A1 x Hx); split; [right |]; auto] |].
        split; [constructor; auto |]. split.
        -- intros q Hq [K | K]; [congruence |]. destruct (A1 q K) as [K1 _]. specialize (Hs2 q K1). specialize (Hp q Hq l (or_introl eq_refl)). assert (q = l) by lia. congruence.
        -- intros x [<- | Hx]; [left; left; auto |]. destruct (A4 x Hx) as [K | [K | K]]; [left; right; auto | auto | left; left; congruence].
      * destruct IH as [(x & A1 & A2) | (x & A1 & A2)]; [intros q [= <-]; exact Hs2 | left; exists x; split; [right |]; auto |]. right. exists x. split; [right; auto |]. right.
        destruct A2 as [A2 | A2]; [left; congruence | right; auto].
    + specialize (IH prev Hs1). assert (Hx : value st l = Some false \/ prev = Some l).
      { apply andb_false_iff in E3. destruct E3 as [E3 | E3]; apply negb_false_iff in E3; [left; destruct (value st l) as [[|] |]; cbn in *; congruence |].
        right. destruct prev as [q |]; [| discriminate]. apply Nat.eqb_eq in E3. congruence. }
      destruct (norm_lits st prev r) as [qs |].
      * destruct IH as (A1 & A2 & A3 & A4); [intros q Hq x Hx'; apply Hp; [auto | right; auto] |]. split; [intros x Hx'; destruct (A1 x Hx'); split; [right |]; auto |]. split; auto. split; auto.
        intros x [<- | Hx']; auto.
      * destruct IH as [(x & A1 & A2) | (x & A1 & A2)]; [intros q Hq x Hx'; apply Hp; [auto | right; auto] | left; exists x; split; [right |]; auto |]. right. exists x. split; [right; auto |].
        destruct A2 as [A2 | A2]; [left; auto | right; right; auto].
Qed.

Lemma add_clause_ok : forall cfg F fuel ps st, ginv F st -> (forall l, In l ps -> l < 2 * length (s_vars st)) ->
  rspec (add_clause cfg fuel ps st) (fun r => ginv (ps :: F) (snd r) /\ length (s_vars (snd r)) = length (s_vars st) /\ (fst r = s_ok (snd r))).
Proof.
  intros cfg F fuel ps st G HP. unfold add_clause. pose proof (g_db _ _ G) as D. pose proof (g_lim _ _ G) as L0. pose proof (g_base _ _ G) as B.
  assert (Mono : forall c, entails F c -> entails (ps :: F) c) by (intros c; apply ent_mono; intros x Hx; right; exact Hx).
  destruct (s_ok st) eqn:O; cbn [negb].
  2:{ cbn [rspec fst snd]. split; [| split; [reflexivity | auto]]. apply (ginv_intro0 _ _ _ L0 B). rewrite O. destruct D as (E & D2). split; auto. }
  destruct D as (F0 & D1 & D2 & I). unfold sinv in I.
  assert (Tl : forall V H, all_true V (ps :: H) -> all_true V H) by (intros V H K C HC; apply K; right; exact HC).
  assert (D1' : forall V, all_true V (ps :: F) -> all_true V (ps :: F0)) by (intros V H C [<- | HC]; [apply H; left; auto | apply (D1 V); eauto]).
  assert (D1w : forall V, all_true V (ps :: F) -> all_true V F0) by (intros V H; apply D1; eauto).
  assert (D2' : forall V, all_true V (ps :: F0) -> all_true V (ps :: F)) by (intros V H C [<- | HC]; [apply H; left; auto | apply (D2 V); eauto]).
  assert (LZ : forall j, lv (s_lim st) j = 0) by (intros j; rewrite L0; reflexivity).
  assert (FL : forall l, In l ps -> value st l = Some false -> forall V, all_true V (ps :: F0) -> ~ lit_true V l).
  { intros l Hl Vl V HV. pose proof (val_false (i_t _ _ _ I) l (HP l Hl) Vl) as K. apply In_nth_error in K. destruct K as [j Ej].
    destruct (t_ent0 _ _ _ _ _ _ _ _ (i_t _ _ _ I) j _ Ej (LZ j) V) as (y & [<- | []] & Hy); [intros C HC; apply HV; right; exact HC |]. now apply lit_true_neg. }
  pose proof (norm_spec st (isort ps) None (isort_sorted ps) ltac:(discriminate)) as NS.
  destruct (norm_lits st None (isort ps)) as [qs |] eqn:En.
  2:{ cbn [rspec fst snd]. split; [| split; [reflexivity | auto]]. apply (ginv_intro _ _ _ L0 B). rewrite O. destruct NS as [(l & N1 & N2) | (l & N1 & [N2 | N2])]; [| discriminate |].
      - exists (ps :: F0). split; auto. split; auto. apply (inv_more F0); [exact I | intros x Hx; right; exact Hx |]. intros C [<- | HC]; [| apply (i_c _ _ _ I); exact HC]. left.
        apply (proj1 (isort_in ps l)) in N1. pose proof (val_true (i_t _ _ _ I) l (HP l N1) N2) as K. apply In_nth_error in K. destruct K as [j Ej]. exists j, l. split; auto.
      - exists F0. split; auto. split; [| exact I]. intros V H C [<- | HC]; [| apply (D2 V H); exact HC]. apply taut_true. exists l. split; apply (proj1 (isort_in ps _)); auto. }
  destruct NS as (N1 & N2 & _ & N4).
  assert (Sub : incl qs ps) by (intros l Hl; apply (proj1 (isort_in ps l)); apply N1; exact Hl).
  assert (Und : forall l, In l qs -> value st l = None) by (intros l Hl; apply N1; exact Hl).
  assert (Eq : entails (ps :: F0) qs).
  { intros V HV. destruct (HV ps (or_introl eq_refl)) as (l & H1 & H2). exists l. split; auto. destruct (N4 l (proj2 (isort_in ps l) H1)) as [K | [K | K]]; [exact K | | discriminate]. exfalso. exact (FL l H1 K V HV H2). }
  pose proof (inv_invx F0 (ps :: F0) (s_qhead st) st I ltac:(intros x Hx; right; exact Hx)) as X.
  destruct qs as [| l [| l2 qr]].
  - cbn [rspec fst snd]. split; [| split; reflexivity]. apply (ginv_intro _ _ (length (s_vars st))); [exact L0 | eapply base_same; [exact B | ..]; auto |].
    change (s_ok (set_ok false st)) with false. cbn iota. split; [eapply ent_via; [exact D1' | exact Eq] |]. exists F0, (s_qhead st). eapply inv_same; [exact I | ..]; auto.
  - assert (Ul : value st l = None) by (apply Und; left; auto). rewrite enqueue_ok by exact Ul. cbn [rbind].
    assert (Rl : l < 2 * length (s_vars st)) by (apply HP, Sub; left; auto).
    assert (I1 : sinv (ps :: F0) (enq l None st)).
    { unfold sinv. change (s_qhead (enq l None st)) with (s_qhead st). apply (invx_inv _ F0); [apply x_enq_inv; auto; unfold dlevel; rewrite L0; cbn [length]; lia |].
      intros C [<- | HC]; [| left; exact HC]. right. left. exists (length (s_trail st)), l. unfold enq. ssimp. split; [rewrite nth_error_app2, Nat.sub_diag by auto; reflexivity |]. split; [apply Sub; left; auto | apply LZ]. }
    assert (B1 : @base (length (s_vars st)) [] (enq l None st)) by (eapply base_same; [exact B | ..]; auto; unfold enq; ssimp; apply upd_length).
    eapply rspec_bind; [apply (propagate_ok (ps :: F0)); exact I1 |]. intros [o s] [PF P]. cbn [fst snd] in *. pose proof (base_p _ _ _ B1 PF) as B2.
    assert (L2 : s_lim s = []) by (rewrite (pf_lim _ _ PF); exact L0). cbn zeta.
    assert (Gs : ginv (ps :: F) (set_ok (is_none o) s)).
    { apply (ginv_intro _ _ (length (s_vars st))); [exact L2 | eapply base_same; [exact B2 | ..]; auto |]. change (s_ok (set_ok (is_none o) s)) with (is_none o). destruct o as [c |]; cbn [is_none].
      - destruct P as (q0 & _ & Cf). split; [eapply ent_via; [exact D1' |]; eapply level0_conflict; [exact Cf |]; unfold dlevel; rewrite L2; reflexivity |]. exists (ps :: F0), q0. eapply inv_same; [apply Cf | ..]; auto.
      - exists (ps :: F0). split; auto. split; auto. eapply inv_same; [apply P | ..]; auto. }
    cbn [rspec fst snd]. destruct (g_incremental cfg).
    + split; [| split; [exact (b_nv _ _ B2) | reflexivity]]. destruct Gs as [K1 K2 K3]. constructor; [exact K1 | eapply base_same; [exact K2 | ..]; auto |].
      change (s_ok (set_units (s_units (set_ok (is_none o) s) ++ [l]) (set_ok (is_none o) s))) with (s_ok (set_ok (is_none o) s)). destruct (s_ok (set_ok (is_none o) s)).
      * destruct K3 as (F1 & J1 & J2 & J3). exists F1. split; auto. split; auto. eapply inv_same; [exact J3 | ..]; auto.
      * destruct K3 as (J1 & Z & H2). split; auto. split; [destruct Z; constructor; auto | exact H2].
    + split; [exact Gs | split; [exact (b_nv _ _ B2) | reflexivity]].
  - set (qs := l :: l2 :: qr) in *. set (c := length (s_arena st)). set (st1 := set_arena (s_arena st ++ [mkCl qs false]) st).
    assert (Ec : nth_error (s_arena st1) c = Some (mkCl qs false)) by (unfold st1, c; ssimp; rewrite nth_error_app2, Nat.sub_diag by auto; reflexivity).
    unfold attach_clause. replace (cl_at st1 c) with (mkCl qs false) by (unfold cl_at; symmetry; apply (nth_of_some _ _ _ _ dcl Ec)). cbn [c_data]. unfold qs at 1. cbn [rbind]. cbn iota.
    assert (X1 : invx (ps :: F0) F0 (s_qhead st) st1) by (apply x_arena_ext; exact X).
    assert (Gc : goodcl (ps :: F0) (length (s_vars st)) (mkCl qs false)).
    { constructor; cbn [c_data]; auto. unfold qs; cbn [length]; lia. }
    assert (We : forall p b, (p = lneg l /\ b = l2) \/ (p = lneg l2 /\ b = l) -> went (ps :: F0) (length (s_vars st)) (s_arena st1) (s_trail st) (s_lim st) (s_qhead st) p c b).
    { intros p b Hpb. exists (mkCl qs false). cbn [c_data]. split; [exact Ec |]. split; [exact Gc |].
      assert (Pq : In (lneg p) qs /\ watched_by (lneg p) qs /\ In b qs) by (destruct Hpb as [[-> ->] | [-> ->]]; rewrite lneg_inv; unfold watched_by, qs; cbn; auto).
      destruct Pq as (P1 & P2 & P3). split; [exact P2 |]. split; [apply HP, Sub, P3 |]. split; [left; exact P3 |]. intros i _ Ei. exfalso. apply nth_error_In in Ei.
      destruct (val_undef (i_t _ _ _ I) (lneg p) (HP _ (Sub _ P1)) (Und _ P1)) as [_ K]. rewrite lneg_inv in K. exact (K Ei). }
    assert (NI : forall x, ~ In c (map fst (wlist st x))) by (intros x; eapply fresh_id; [exact I | unfold c; auto]).
    assert (Ln : lneg l2 <> lneg l) by (intros K; apply lneg_inj in K; subst l2; inversion N2 as [| ? ? K1 _]; apply K1; left; auto).
    assert (X2 : invx (ps :: F0) F0 (s_qhead st) (watch_push (lneg l) (c, l2) st1)) by (apply x_watch_push_inv; [exact X1 | apply We; auto | apply NI]).
    assert (X3 : invx (ps :: F0) F0 (s_qhead st) (watch_push (lneg l2) (c, l) (watch_push (lneg l) (c, l2) st1))).
    { apply x_watch_push_inv; [exact X2 | apply We; auto |]. unfold wlist, watch_push, set_wlist. ssimp. rewrite nth_upd_neq by congruence. apply (NI (lneg l2)). }
    set (st3 := watch_push (lneg l2) (c, l) (watch_push (lneg l) (c, l2) st1)) in *. cbn [rspec fst snd].
    assert (Cov : covered (s_arena st3) (s_trail st3) (s_lim st3) (s_watches st3) ps).
    { right. exists c, (mkCl qs false). split; [| split; [exact Ec | split; [reflexivity | exact Sub]]]. 
      assert (R1 : lneg l < length (s_watches st)) by (rewrite (z_w _ (i_sz _ _ _ I)); apply lneg_lt, HP, Sub; left; auto).
      assert (R2 : lneg l2 < length (s_watches st)) by (rewrite (z_w _ (i_sz _ _ _ I)); apply lneg_lt, HP, Sub; right; left; auto).
      exists l, l2, qr, l2, l. split; [reflexivity |]. unfold st3, watch_push, set_wlist. ssimp. change (s_watches st1) with (s_watches st). split; [| split; [| left; reflexivity]].
      - rewrite nth_upd_neq by exact Ln. rewrite nth_upd_eq by exact R1. apply in_or_app. right. left. reflexivity.
      - rewrite nth_upd_eq by (rewrite upd_length; exact R2). apply in_or_app. right. left. reflexivity. }
    assert (I3 : inv (ps :: F0) (s_qhead st) st3) by (apply (invx_inv _ F0); [exact X3 | intros C [<- | HC]; auto]).
    assert (B3 : @base (length (s_vars st)) [] st1). { destruct B as [C1 C2 C3 C4 C5 C6]. constructor; auto. intros x Hx. apply (app_learnt _ _ (s_learnts st)); auto. }
    split; [| split; [reflexivity | symmetry; exact O]]. apply (ginv_intro _ _ (length (s_vars st))).
    + exact L0.
    + eapply base_same; [exact B3 | ..]; auto.
    + change (s_ok (set_clauses (s_clauses st3 ++ [c]) st3)) with (s_ok st). rewrite O. exists (ps :: F0). split; auto. split; auto. unfold sinv. change (s_qhead (set_clauses (s_clauses st3 ++ [c]) st3)) with (s_qhead st).
      destruct I3 as [Z3 T3 W3 C3 V3 H3]. constructor; ssimp; auto.
      * destruct Z3; constructor; ssimp; auto.
      * intros x [Hx | Hx]; auto. apply in_app_or in Hx. destruct Hx as [Hx | [<- | []]]; auto. exists (mkCl qs false). split; auto.
Qed.
Lemma ginv_new : ginv [] solver_new.
Proof.
  assert (NE : forall (l i : nat), nth_error (@nil nat) i = Some l -> False) by (intros l i E; destruct i; discriminate).
  constructor; [reflexivity | constructor; cbn; try (intros ? []); auto; intros v; destruct v; reflexivity |]. cbn [s_ok solver_new]. exists []. split; [auto |]. split; [auto |].
  constructor; cbn [s_vars s_trail s_lim s_qhead s_reasons s_arena s_watches s_clauses s_learnts s_heap solver_new length].
  - constructor; cbn; auto. intros v Hv. lia.
  - constructor; auto.
    + intros l [].
    + constructor.
    + intros l Hl. lia.
    + intros i l E. destruct (NE _ _ E).
    + intros a b x y E. destruct a; discriminate.
    + intros x [].
    + intros i l E. destruct (NE _ _ E).
    + intros i l E. destruct (NE _ _ E).
  - intros p ws E. destruct p; discriminate.
  - intros C [].
  - intros c [[] | []].
  - split; [split; [| intros x []] |].
    + intros i n. split; intros E; [destruct (NE _ _ E) | destruct n; discriminate].
    + split; [auto |]. intros v Hv. lia.
Qed.
