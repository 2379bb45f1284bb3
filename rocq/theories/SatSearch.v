(** Search: learning, decisions, restarts, and the answers of the solver. *)
From Coq Require Import List Arith ZArith NArith Bool Lia Permutation.
From Verif Require Import Base Vec HeapModel HeapProofs SatSpec SatModel SatBasics SatHeap SatInv SatProp SatAnalyze SatDb.
Import ListNotations.
Local Open Scope nat_scope.

(** ** The state during the search with assumptions [A] *)
Section Vars.
(** The number of variables. *)
Context {nvs : nat}.
Record base (A : list nat) (st : solver) : Prop := {
  b_un : unseen st;
  b_l : forall c, In c (s_learnts st) -> c_learnt (nth c (s_arena st) dcl) = true;
  b_as : s_assum st = A;
  b_av : forall a, In a A -> a < 2 * length (s_vars st);
  b_sel : forall l, In l (s_selo st) -> l < 2 * length (s_vars st);
  b_nv : length (s_vars st) = nvs }.
Definition ainv (A : list nat) (st : solver) : Prop := forall i l, nth_error (s_trail st) i = Some l -> 0 < lv (s_lim st) i ->
  nth (lvar l) (s_reasons st) None = None -> lv (s_lim st) i <= length A -> nth_error A (lv (s_lim st) i - 1) = Some l.
Definition binv (A : list nat) (st : solver) : Prop := forall k a, nth_error A k = Some a -> k < dlevel st ->
  exists i, nth_error (s_trail st) i = Some a /\ lv (s_lim st) i <= S k.
Record side (A : list nat) (st : solver) : Prop := {
  d_b : base A st; d_a : ainv A st; d_i : binv A st; d_ok : s_ok st = true; d_cf : s_conflict st = [] }.
Definition sst (F : list (list nat)) (A : list nat) (st : solver) : Prop := sinv F st /\ side A st.

Lemma base_same : forall A a b, base A a -> s_seen b = s_seen a -> s_learnts b = s_learnts a -> s_arena b = s_arena a -> s_assum b = s_assum a ->
  length (s_vars b) = length (s_vars a) -> s_selo b = s_selo a -> base A b.
Proof.
  intros A a b [B1 B2 B3 B4 B5 B6] E1 E2 E3 E4 E5 E6. constructor.
  - intros v. rewrite E1. apply B1.
  - rewrite E2, E3. exact B2.
  - congruence.
  - rewrite E5. exact B4.
  - rewrite E6, E5. exact B5.
  - congruence.
Qed.
Lemma side_same : forall A a b, side A a -> s_seen b = s_seen a -> s_learnts b = s_learnts a -> s_arena b = s_arena a -> s_assum b = s_assum a ->
  length (s_vars b) = length (s_vars a) -> s_selo b = s_selo a -> s_trail b = s_trail a -> s_lim b = s_lim a -> s_reasons b = s_reasons a ->
  s_ok b = s_ok a -> s_conflict b = s_conflict a -> side A b.
Proof.
  intros A a b [B1 B2 B3 B4 B5] E1 E2 E3 E4 E5 E6 E7 E8 E9 E10 E11. constructor; try congruence.
  - eapply base_same; eauto.
  - intros i l. rewrite E7, E8, E9. apply B2.
  - intros k x. unfold dlevel. rewrite E7, E8. apply B3.
Qed.
Lemma base_p : forall A st s, base A st -> pframe st s -> base A s.
Proof.
  intros A st s [C1 C2 C3 C4 C5 C6] P. constructor.
  - intros v. rewrite (pf_seen _ _ P). apply C1.
  - intros c. rewrite (pf_learnts _ _ P), (pf_lrn _ _ P). apply C2.
  - rewrite (pf_assum _ _ P). exact C3.
  - rewrite (pf_vars _ _ P). exact C4.
  - rewrite (pf_selo _ _ P), (pf_vars _ _ P). exact C5.
  - rewrite (pf_vars _ _ P). exact C6.
Qed.
Lemma side_p : forall A st s, side A st -> pframe st s -> side A s.
Proof.
  intros A st s [B1 B2 B3 B4 B5] P. destruct (pf_ext _ _ P) as [e Ee]. constructor; try (rewrite ?(pf_ok _ _ P), ?(pf_conflict _ _ P); assumption).
  - eapply base_p; eauto.
  - intros i l E L R. rewrite (pf_lim _ _ P) in *. destruct (pf_rs _ _ P i l E) as [[L1 E1] | N]; [| contradiction]. apply (B2 i l); auto; [| congruence].
    rewrite Ee in E. now rewrite nth_error_app1 in E.
  - intros k a E L. unfold dlevel in L. rewrite (pf_lim _ _ P) in *. destruct (B3 k a E L) as (i & H1 & H2). exists i. split; auto. rewrite Ee. now apply nth_app_some.
Qed.
Lemma side_a : forall A st s, side A st -> aframe st s -> unseen s -> side A s.
Proof.
  intros A st s [[C1 C2 C3 C4 C5 C6] B2 B3 B4 B5] (h & a & tk & sn & -> & _) U. constructor; unfold actx in *; ssimp; auto. constructor; ssimp; auto.
Qed.
Lemma side_d : forall A st s, side A st -> dframe st s -> side A s.
Proof.
  intros A st s [[C1 C2 C3 C4 C5 C6] B2 B3 B4 B5] (W & Ar & R & L & C & h & -> & H1 & H2 & H3). constructor; ssimp; auto.
  - constructor; ssimp; auto. intros c Hc. rewrite H1. auto.
  - intros i l. ssimp. intros E Lv. assert (N : s_lim st <> []) by (intros E0; rewrite E0 in Lv; cbn in Lv; lia). rewrite (H2 N). apply B2; auto.
Qed.

Lemma cancel_side : forall F q A st k t, inv F q st -> nth_error (s_lim st) k = Some t -> side A st -> exists s, cancel_until k st = Ok s /\ cancelled F k st s /\ side A s.
Proof.
  intros F q A st k t I Ek Sd. destruct (cancel_ok F q st k t I Ek) as (s & E & Hc). exists s. split; auto. split; auto.
  destruct Hc as (_ & _ & t' & vs & h & Ek' & Lt & -> & Lv & K1 & K2 & K3). assert (t' = t) by congruence. subst t'.
  destruct Sd as [B1 B2 B3 B4 B5]. pose proof (t_sorted _ _ _ _ _ _ _ _ (i_t _ _ _ I)) as So.
  assert (LK : forall i, i < t -> lv (firstn k (s_lim st)) i = lv (s_lim st) i).
  { intros i Hi. apply lv_firstn. pose proof (proj1 (lv_gt _ i k t So Ek)). lia. }
  constructor; ssimp; auto.
  - eapply base_same; eauto.
  - intros i l. ssimp. rewrite nth_firstn. destruct (Nat.ltb_spec i t) as [Li | Li]; [| discriminate]. rewrite LK by auto. apply B2.
  - intros j a Ej. unfold dlevel. ssimp. intros Lj. rewrite firstn_length in Lj. destruct (B3 j a Ej) as (i & H1 & H2); [unfold dlevel; lia |].
    assert (i < t). { pose proof (proj2 (lv_gt _ i k t So Ek)). lia. }
    exists i. rewrite LK by auto. split; auto. rewrite nth_firstn. destruct (Nat.ltb_spec i t); [auto | lia].
Qed.

(** Enqueueing *)
Lemma side_enq : forall F q A st l r, inv F q st -> l < 2 * length (s_vars st) -> value st l = None -> side A st ->
  (r <> None \/ dlevel st = 0) -> side A (enq l r st).
Proof.
  intros F q A st l r I Hl U [B1 B2 B3 B4 B5] Hr. pose proof (val_undef (i_t _ _ _ I) l Hl U) as [U1 U2]. unfold enq. constructor; ssimp; auto.
  - eapply base_same; eauto. ssimp. apply upd_length.
  - intros i m. ssimp. intros E L R La. rewrite nth_snoc in E. destruct (Nat.eqb_spec i (length (s_trail st))) as [-> | N].
    + inversion E; subst m. exfalso. rewrite nth_upd_eq in R by (rewrite (z_r _ (i_sz _ _ _ I)); now apply lvar_lt). destruct Hr as [Hr | Hr]; [contradiction |].
      rewrite (cur_level (i_t _ _ _ I)) in L by apply (i_t _ _ _ I). unfold dlevel in Hr. lia.
    + rewrite nth_upd_neq in R; [apply (B2 i m); auto |]. intros K. apply nth_error_In in E. apply same_var in K. destruct K as [K | K]; subst; [contradiction |].
      rewrite lneg_inv in U2. contradiction.
  - intros k a E L. ssimp. destruct (B3 k a E L) as (i & H1 & H2). exists i. split; auto. now apply nth_app_some.
Qed.

(** A new decision level. *)
Lemma newlevel_inv : forall F q st, inv F q st -> q = length (s_trail st) -> inv F q (set_lim (s_lim st ++ [length (s_trail st)]) st).
Proof.
  intros F q st [Z I W C V H] Eq. assert (LS : forall i x, nth_error (s_trail st) i = Some x -> lv (s_lim st ++ [length (s_trail st)]) i = lv (s_lim st) i).
  { intros i x E. apply lv_snoc. eapply nth_some_lt; eauto. }
  constructor; ssimp; auto.
  - destruct Z; constructor; ssimp; auto.
  - constructor; try apply I.
    + intros i l E. rewrite (LS _ _ E). now apply (t_lvl _ _ _ _ _ _ _ _ I).
    + apply sorted_snoc; [apply I |]. intros x Hx. pose proof (t_lim _ _ _ _ _ _ _ _ I x Hx). lia.
    + intros x Hx. apply in_app_or in Hx. destruct Hx as [Hx | [<- | []]]; [now apply (t_lim _ _ _ _ _ _ _ _ I) | lia].
    + intros i l E. rewrite (LS _ _ E). intros L. pose proof (t_reason _ _ _ _ _ _ _ _ I i l E L) as TR. destruct (nth (lvar l) (s_reasons st) None); auto.
      intros j Lj. destruct (nth_lt_some (s_trail st) j) as [y Ey]; [apply nth_some_lt in E; lia |]. rewrite (LS _ _ Ey). auto.
    + intros i l E. rewrite (LS _ _ E). now apply (t_ent0 _ _ _ _ _ _ _ _ I).
  - intros p ws Ep. destruct (W p ws Ep) as [N K]. split; auto. intros c b Hb. destruct (K c b Hb) as (cl & A1 & A2 & A3 & A4 & A5 & A6). exists cl.
    repeat (split; [assumption |]). split.
    + destruct A5 as [A5 | (j & E & L)]; [auto |]. right. exists j. split; auto. now rewrite (LS _ _ E).
    + intros i Hi Ei. destruct (A6 i Hi Ei) as (j & t & E & Ht & L). exists j, t. rewrite (LS _ _ E), (LS _ _ Ei). auto.
  - intros D HD. destruct (C D HD) as [(j & t & E & Ht & L) | K]; [left | right; exact K]. exists j, t. rewrite (LS _ _ E). auto.
Qed.
Lemma side_newlevel : forall A st, side A st -> (forall a, nth_error A (dlevel st) = Some a -> In a (s_trail st)) -> (forall i, lv (s_lim st) i <= dlevel st) ->
  side A (set_lim (s_lim st ++ [length (s_trail st)]) st).
Proof.
  intros A st [B1 B2 B3 B4 B5] Ha Hl. assert (LS : forall i x, nth_error (s_trail st) i = Some x -> lv (s_lim st ++ [length (s_trail st)]) i = lv (s_lim st) i).
  { intros i x E. apply lv_snoc. eapply nth_some_lt; eauto. }
  constructor; ssimp; auto.
  - eapply base_same; eauto.
  - intros i l. ssimp. intros E. rewrite (LS _ _ E). now apply B2.
  - intros k a E. unfold dlevel. ssimp. rewrite app_length. cbn. intros L. destruct (Nat.eq_dec k (length (s_lim st))) as [-> | N].
    + specialize (Ha a E). apply In_nth_error in Ha. destruct Ha as [i Ei]. exists i. split; auto. rewrite (LS _ _ Ei). specialize (Hl i). unfold dlevel in Hl. lia.
    + destruct (B3 k a E) as (i & H1 & H2); [unfold dlevel; lia |]. exists i. split; auto. now rewrite (LS _ _ H1).
Qed.
(** A decision. *)
Definition decided (p : nat) (st : solver) : solver := enq p None (set_lim (s_lim st ++ [length (s_trail st)]) st).
Lemma decide_ok : forall F A st p, sst F A st -> s_qhead st = length (s_trail st) -> p < 2 * length (s_vars st) -> value st p = None ->
  (nth_error A (dlevel st) = Some p \/ nth_error A (dlevel st) = None) -> sst F A (decided p st).
Proof.
  intros F A st p [I Sd] Eq Hp U Hn. pose proof (newlevel_inv F _ st I Eq) as I1. set (st1 := set_lim (s_lim st ++ [length (s_trail st)]) st) in *.
  assert (LS : forall i x, nth_error (s_trail st) i = Some x -> lv (s_lim st ++ [length (s_trail st)]) i = lv (s_lim st) i).
  { intros i x E. apply lv_snoc. eapply nth_some_lt; eauto. }
  assert (Lt : lv (s_lim st ++ [length (s_trail st)]) (length (s_trail st)) = S (dlevel st)).
  { change (lv (s_lim st1) (length (s_trail st)) = S (dlevel st)). rewrite (cur_level (i_t _ _ _ I1)) by lia. unfold st1, dlevel. ssimp. rewrite app_length. cbn. lia. }
  split.
  - unfold sinv, decided. fold st1. change (s_qhead (enq p None st1)) with (s_qhead st). apply enq_inv; auto.
    + intros _ j Lj. change (s_trail st1) with (s_trail st) in Lj. destruct (nth_lt_some (s_trail st) j Lj) as [y Ey]. unfold st1, dlevel. ssimp. rewrite (LS _ _ Ey), app_length. cbn.
      pose proof (lv_le_len (s_lim st) j). lia.
    + unfold st1, dlevel. ssimp. rewrite app_length. cbn. lia.
  - pose proof (val_undef (i_t _ _ _ I) p Hp U) as [U1 U2]. destruct Sd as [B1 B2 B3 B4 B5]. unfold decided, enq. constructor; ssimp; auto.
    + eapply base_same; eauto. ssimp. apply upd_length.
    + intros i m. ssimp. intros E L R La. rewrite nth_snoc in E. destruct (Nat.eqb_spec i (length (s_trail st))) as [-> | N].
      * inversion E; subst m. rewrite Lt in *. replace (S (dlevel st) - 1) with (dlevel st) by lia. destruct Hn as [Hn | Hn]; auto. apply nth_error_None in Hn. lia.
      * rewrite (LS _ _ E) in *. rewrite nth_upd_neq in R; [apply (B2 i m); auto |]. intros K. apply nth_error_In in E. apply same_var in K. destruct K as [K | K]; subst; [contradiction |].
        rewrite lneg_inv in U2. contradiction.
    + intros k a E. unfold dlevel. ssimp. rewrite app_length. cbn. intros L. destruct (Nat.eq_dec k (length (s_lim st))) as [-> | N].
      * exists (length (s_trail st)). rewrite Lt. split; [| unfold dlevel; lia]. rewrite nth_error_app2, Nat.sub_diag by lia. cbn. unfold dlevel in Hn. destruct Hn as [Hn | Hn]; congruence.
      * destruct (B3 k a E) as (i & H1 & H2); [unfold dlevel; lia |]. exists i. rewrite (LS _ _ H1). split; auto. now apply nth_app_some.
Qed.

(** ** Learning *)
Lemma app_learnt : forall A cl (L : list nat), (forall c, In c L -> c_learnt (nth c A dcl) = true) -> forall c, In c L -> c_learnt (nth c (A ++ [cl]) dcl) = true.
Proof.
  intros A cl L H c Hc. specialize (H c Hc). destruct (Nat.lt_ge_cases c (length A)) as [Lt | Ge]; [now rewrite app_nth1 | rewrite nth_overflow in H by auto; discriminate].
Qed.
Lemma add_learnt : forall F q st c, inv F q st -> goodid F (length (s_vars st)) (s_arena st) c -> inv F q (set_learnts (s_learnts st ++ [c]) st).
Proof.
  intros F q st c [Z I W C V H] G. constructor; ssimp; auto.
  - destruct Z; constructor; ssimp; auto.
  - intros x [Hx | Hx]; auto. apply in_app_or in Hx. destruct Hx as [Hx | [<- | []]]; auto.
Qed.
Lemma watch_push_fields : forall p w st, exists W, watch_push p w st = set_watches W st.
Proof. intros. unfold watch_push, set_wlist. eauto. Qed.
Lemma learn_ok : forall cfg orc F A q0 fuel st c, g_min cfg <> MinNone -> side A st -> conflicting F q0 st c -> 0 < dlevel st -> rspec (learn cfg orc fuel c st) (sst F A).
Proof.
  intros cfg orc F A q0 fuel st c Hm Sd Cf D. unfold learn. eapply rspec_bind; [eapply analyze_ok; eauto; apply Sd |].
  intros [ls st1] (p & rest & s0 & -> & FR & E1 & Un & Ent & Nd & (ip & Eip & Lip) & Lbt & Hr & Hb).
  set (bt := s_bt st1) in *. pose proof (aframe_inv _ _ _ _ (proj1 Cf) FR) as I0. destruct (aframe_fix _ _ FR) as (Ev & Et & El & Er & Ea).
  assert (I1 : inv F q0 st1) by (rewrite E1; eapply inv_same; eauto).
  assert (Sd0 : side A s0). { apply (side_a A st); auto. intros v. specialize (Un v). rewrite E1 in Un. exact Un. }
  assert (Sd1 : side A st1). { rewrite E1. eapply side_same; eauto. }
  assert (Fx : s_vars st1 = s_vars st /\ s_trail st1 = s_trail st /\ s_lim st1 = s_lim st /\ s_arena st1 = s_arena st) by (rewrite E1; ssimp; auto).
  destruct Fx as (Fv & Ft & Fl & Fa). clear E1 Ev Et El Er Ea FR Sd0 I0 s0.
  destruct (nth_error (s_lim st1) bt) as [t |] eqn:Ek; [| apply nth_error_None in Ek; rewrite Fl in Ek; lia].
  destruct (cancel_side F q0 A st1 bt t I1 Ek Sd1) as (st2 & E2 & Cc & Sd2). rewrite E2. cbn [rbind]. clear E2. cbn zeta.
  destruct Cc as (I2 & Q2 & t' & vs & h & Ek' & Lt & E2 & Lv & K1 & K2 & K3). assert (t' = t) by congruence. subst t'.
  assert (Bt2 : s_bt st2 = bt) by (rewrite E2; reflexivity). rewrite Bt2.
  assert (Ex : exists x, (if bt <? length (s_selo st2) then set_seli bt st2 else st2) = set_seli x st2).
  { destruct (bt <? length (s_selo st2)); [eauto |]. exists (s_seli st2). destruct st2; reflexivity. }
  destruct Ex as [x ->]. set (st3 := set_seli x st2).
  assert (I3 : sinv F st3) by (unfold sinv; eapply inv_same; eauto).
  assert (Sd3 : side A st3) by (eapply side_same; eauto).
  assert (T3 : s_trail st3 = firstn t (s_trail st)) by (unfold st3; rewrite E2; ssimp; now rewrite Ft).
  assert (L3 : s_lim st3 = firstn bt (s_lim st)) by (unfold st3; rewrite E2; ssimp; now rewrite Fl).
  assert (V3 : s_vars st3 = vs) by (unfold st3; rewrite E2; ssimp; reflexivity).
  assert (A3 : s_arena st3 = s_arena st) by (unfold st3; rewrite E2; ssimp; exact Fa).
  assert (Lt3 : length (s_trail st3) = t) by (rewrite T3; apply firstn_length_le; rewrite <- Ft; exact Lt).
  assert (D3 : dlevel st3 = bt) by (unfold dlevel; rewrite L3; apply firstn_length_le; lia).
  rewrite Fl in Ek. pose proof (t_sorted _ _ _ _ _ _ _ _ (i_t _ _ _ (proj1 Cf))) as So.
  assert (Pt : t <= ip) by (pose proof (proj1 (lv_gt _ ip bt t So Ek)); lia).
  assert (U3 : value st3 (lneg p) = None).
  { unfold value. rewrite V3. apply asg_undef. rewrite lneg_var. apply K2. rewrite Ft. apply (nth_error_In _ (ip - t)). rewrite nth_skipn. now replace (t + (ip - t)) with ip by lia. }
  assert (Nv3 : length (s_vars st3) = length (s_vars st)) by (rewrite V3, Lv; now rewrite Fv).
  assert (Hp3 : lneg p < 2 * length (s_vars st3)).
  { rewrite Nv3. apply lneg_lt, (t_valid _ _ _ _ _ _ _ _ (i_t _ _ _ (proj1 Cf))). eapply nth_error_In; eauto. }
  assert (Hr3 : forall y, In y rest -> exists j, j < t /\ nth_error (s_trail st3) j = Some (lneg y) /\ lv (s_lim st3) j <= bt).
  { intros y Hy. destruct (Hr y Hy) as (j & Ej & _ & Lj). assert (Hj : j < t) by (pose proof (proj2 (lv_gt _ j bt t So Ek)); lia). exists j. split; auto.
    rewrite T3, nth_firstn. destruct (Nat.ltb_spec j t); [| lia]. split; auto. rewrite L3, lv_firstn; auto. }
  destruct rest as [| y r].
  - rewrite (enqueue_ok _ _ _ U3). cbn [rbind rspec]. assert (D0 : dlevel st3 = 0) by congruence.
    pose proof (side_enq F _ A st3 (lneg p) None I3 Hp3 U3 Sd3 (or_intror D0)) as Sd4.
    assert (I4 : inv F (s_qhead st3) (enq (lneg p) None st3)) by (apply enq_inv; auto; intros; lia).
    split; [unfold sinv; eapply inv_same; [exact I4 | ..]; auto | eapply side_same; [exact Sd4 | ..]; auto].
  - set (cl := mkCl (lneg p :: y :: r) true). set (c1 := length (s_arena st3)).
    set (st3' := set_arena (s_arena st3 ++ [cl]) st3).
    assert (I3' : inv F (s_qhead st3) st3') by (apply arena_ext; exact I3).
    assert (Ec1 : nth_error (s_arena st3') c1 = Some cl) by (unfold st3', c1; ssimp; rewrite nth_error_app2, Nat.sub_diag by lia; reflexivity).
    assert (Gcl : goodcl F (length (s_vars st3)) cl).
    { constructor; cbn [c_data cl].
      - intros l [<- | Hl]; [exact Hp3 |]. destruct (Hr3 l Hl) as (j & _ & Ej & _). apply lneg_lt, (t_valid _ _ _ _ _ _ _ _ (i_t _ _ _ I3)). eapply nth_error_In; eauto.
      - exact Nd.
      - cbn. lia.
      - exact Ent. }
    assert (Sd3' : side A st3').
    { destruct Sd3 as [[C1 C2 C3 C4 C5 C6] B2 B3 B4 B5]. constructor; auto. constructor; auto. unfold st3'. ssimp. apply app_learnt. exact C2. }
    assert (U3' : value st3' (lneg p) = None) by exact U3.
    assert (I4 : inv F (s_qhead st3) (enq (lneg p) (Some c1) st3')).
    { apply enq_inv; auto.
      - intros _. exists cl, (y :: r). repeat (split; [assumption || reflexivity |]). intros z Hz. destruct (Hr3 z Hz) as (j & Lj & Ej & _). exists j. split; auto.
        change (s_trail st3') with (s_trail st3). lia.
      - change (dlevel st3') with (dlevel st3). rewrite D3. intros B0. exfalso. destruct (Hr y (or_introl eq_refl)) as (j & _ & P1 & P2). lia. }
    pose proof (side_enq F _ A st3' (lneg p) (Some c1) I3' Hp3 U3' Sd3') as Sd4. specialize (Sd4 ltac:(left; discriminate)).
    set (st4 := enq (lneg p) (Some c1) st3') in *.
    assert (W4 : s_watches st4 = s_watches st3) by reflexivity.
    assert (Fresh : forall x0, ~ In c1 (map fst (wlist st4 x0))).
    { intros x0. unfold wlist. rewrite W4. apply (fresh_id F (s_qhead st3) st3); auto. }
    assert (Nv4 : length (s_vars st4) = length (s_vars st3)) by (unfold st4, enq; ssimp; apply upd_length).
    assert (T4 : s_trail st4 = s_trail st3 ++ [lneg p]) by reflexivity. assert (Li4 : s_lim st4 = s_lim st3) by reflexivity.
    assert (A4 : s_arena st4 = s_arena st3') by reflexivity.
    assert (Lv4 : lv (s_lim st3) t = bt).
    { rewrite (cur_level (i_t _ _ _ I3)); [unfold dlevel in D3; exact D3 |]. pose proof (t_q _ _ _ _ _ _ _ _ (i_t _ _ _ I3)). lia. }
    (* the two watchers *)
    assert (I5 : inv F (s_qhead st3) (watch_push (lneg (lneg p)) (c1, y) st4)).
    { apply watch_push_inv; auto. rewrite A4, Nv4. exists cl. split; auto. split; auto. split; [left; cbn; now rewrite lneg_inv |]. split; [apply Gcl; cbn; auto |].
      split; [left; cbn; auto |]. intros i Hi Ei. exfalso. rewrite lneg_inv in Ei. apply nth_error_In in Ei. apply (not_both (i_t _ _ _ I4) p); auto. rewrite T4. apply in_or_app. cbn. auto. }
    set (st5 := watch_push (lneg (lneg p)) (c1, y) st4) in *.
    assert (I6 : inv F (s_qhead st3) (watch_push (lneg y) (c1, lneg p) st5)).
    { apply watch_push_inv; auto.
      - change (s_arena st5) with (s_arena st4). change (s_trail st5) with (s_trail st4). change (s_lim st5) with (s_lim st4). change (length (s_vars st5)) with (length (s_vars st4)).
        rewrite A4, Nv4. exists cl. split; auto. split; auto. split; [right; cbn; now rewrite lneg_inv |]. split; [apply Gcl; cbn; auto |].
        split; [left; cbn; auto |]. intros i Hi Ei. exists t, (lneg p). rewrite T4. split; [rewrite nth_error_app2 by lia; rewrite Lt3, Nat.sub_diag; reflexivity |]. split; [left; reflexivity |].
        rewrite Li4, Lv4. destruct Hb as (j & Ej & Lj). destruct (Hr3 y (or_introl eq_refl)) as (j' & Lj' & Ej' & _).
        assert (j' = j). { assert (nth_error (s_trail st) j' = Some (lneg y)) by (rewrite T3, nth_firstn in Ej'; destruct (j' <? t); [exact Ej' | discriminate]).
          eapply trail_pos_unique; eauto. apply (t_nodup _ _ _ _ _ _ _ _ (i_t _ _ _ (proj1 Cf))). } subst j'.
        assert (i = j). { rewrite T4 in Ei. pose proof (t_nodup _ _ _ _ _ _ _ _ (i_t _ _ _ I4)) as N4. eapply trail_pos_unique; [exact N4 | rewrite T4; exact Ei | rewrite T4; apply nth_app_some; exact Ej' | reflexivity]. }
        subst i. rewrite L3, lv_firstn by lia. lia.
      - intros Hin. unfold wlist, st5 in Hin. destruct (nth_error (s_watches (watch_push (lneg (lneg p)) (c1, y) st4)) (lneg y)) as [ws |] eqn:Ew.
        + rewrite (nth_of_some _ _ _ _ [] Ew) in Hin. apply watch_push_nth in Ew. destruct Ew as [[Eq _] | [_ Ew]].
          * exfalso. apply lneg_inj in Eq. subst y. apply NoDup_cons_iff in Nd. destruct Nd as [Nd _]. apply Nd. left. reflexivity.
          * apply (Fresh (lneg y)). unfold wlist. now rewrite (nth_of_some _ _ _ _ [] Ew).
        + rewrite nth_overflow in Hin by (now apply nth_error_None). destruct Hin. }
    unfold attach_clause, cl_at. rewrite (nth_of_some _ _ _ _ dcl Ec1). cbn [c_data cl rbind].
    assert (Eq : unchecked_enqueue (lneg p) (Some c1) (watch_push (lneg y) (c1, lneg p) (watch_push (lneg (lneg p)) (c1, y) st3')) = Ok (watch_push (lneg y) (c1, lneg p) st5)).
    { rewrite enqueue_ok; [| exact U3']. reflexivity. }
    rewrite Eq. cbn [rbind rspec].
    split.
    + unfold sinv. change (s_qhead (set_learnts (s_learnts (watch_push (lneg y) (c1, lneg p) st5) ++ [c1]) (watch_push (lneg y) (c1, lneg p) st5))) with (s_qhead st3).
      apply add_learnt; auto. exists cl. split; [exact Ec1 |]. change (length (s_vars (watch_push (lneg y) (c1, lneg p) st5))) with (length (s_vars st4)). now rewrite Nv4.
    + destruct Sd4 as [[C1 C2 C3 C4 C5 C6] B2 B3 B4 B5]. constructor; auto. constructor; auto. intros c' Hc'. ssimp in Hc'. apply in_app_or in Hc'. destruct Hc' as [Hc' | [<- | []]]; [now apply C2 |].
      change (c_learnt (nth c1 (s_arena st3') dcl) = true). now rewrite (nth_of_some _ _ _ _ dcl Ec1).
Qed.
End Vars.
