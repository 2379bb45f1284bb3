(** The answers of the solver. *)
From Coq Require Import List Arith ZArith NArith Bool Lia Permutation.
From Verif Require Import Base Vec HeapModel HeapProofs SatSpec SatModel SatBasics SatHeap SatInv SatProp SatAnalyze SatDb SatSearch.
Import ListNotations.
Local Open Scope nat_scope.

Section Vars.
Context {nvs : nat}.
Local Notation base := (@base nvs).
Local Notation side := (@side nvs).
Local Notation sst := (@sst nvs).
(** ** The final conflict clause *)
Section Final.
  Variables (F : list (list nat)) (q : nat) (st : solver).
  Hypothesis I : inv F q st.
  Local Notation T := (s_trail st).
  Local Notation lim := (s_lim st).

  Lemma mark_len : forall js sn, length (mark_lits st js sn) = length sn.
  Proof. induction js as [| j r IH]; intros sn; cbn [mark_lits]; auto. rewrite IH. destruct (lgz st j); auto. apply upd_length. Qed.
  Lemma mark_nth : forall js sn v, (forall j, In j js -> lvar j < length sn) ->
    (nth v (mark_lits st js sn) false = true <-> nth v sn false = true \/ exists j, In j js /\ lvar j = v /\ lgz st j = true).
  Proof.
    induction js as [| j r IH]; intros sn v H; cbn [mark_lits].
    - split; auto. intros [K | (j & [] & _)]. exact K.
    - rewrite IH by (intros x Hx; destruct (lgz st j); rewrite ?upd_length; apply H; right; auto).
      destruct (lgz st j) eqn:Ej.
      + destruct (Nat.eq_dec (lvar j) v) as [<- | N].
        * rewrite nth_upd_eq by (apply H; left; auto). split; [intros _; right; exists j; cbn; auto | auto].
        * rewrite nth_upd_neq by auto. split; [intros [K | (x & K1 & K2 & K3)]; auto; right; exists x; cbn; auto |].
          intros [K | (x & [K1 | K1] & K2 & K3)]; [left; exact K | exfalso; congruence | right; exists x; auto].
      + split; [intros [K | (x & K1 & K2 & K3)]; auto; right; exists x; cbn; auto |].
        intros [K | (x & [K1 | K1] & K2 & K3)]; [left; exact K | exfalso; congruence | right; exists x; auto].
  Qed.

  Variable A : list nat.
  Hypothesis HA : ainv A st.
  Hypothesis HL : dlevel st < length A.
  Variable p : nat.
  Hypothesis HP : In (lneg p) A.

  Lemma final_ok : forall t0 xs conf sn, nth_error lim 0 = Some t0 -> (exists b, xs = rev (firstn b (skipn t0 T))) ->
    length sn = length (s_seen st) -> (forall l, In l conf -> In (lneg l) A) ->
    entP F (fun l => In l conf \/ (In (lneg l) xs /\ nth (lvar l) sn false = true)) ->
    (forall v, nth v sn false = true -> v = lvar p \/ In v (map lvar xs)) ->
    exists conf' sn', final_loop st xs conf sn = Ok (conf', sn') /\ length sn' = length (s_seen st) /\ (forall l, In l conf' -> In (lneg l) A) /\ entails F conf' /\
      (forall v, nth v sn' false = true -> v = lvar p) /\ exists e, conf' = conf ++ e.
  Proof.
    intros t0 xs. induction xs as [| x r IH]; intros conf sn E0 (b & Eb) Ls Hc He Hs; cbn [final_loop].
    - exists conf, sn. split; auto. split; auto. split; auto. split; [intros V HV; destruct (He V HV) as (l & [K | [[] _]] & Tl); exists l; auto |].
      split; [| exists []; now rewrite app_nil_r]. intros v Hv. destruct (Hs v Hv) as [K | []]. exact K.
    - (* the element x is at position t0 + k *)
      assert (Pos : exists k, nth_error T (t0 + k) = Some x /\ r = rev (firstn k (skipn t0 T)) /\ k < length (skipn t0 T)).
      { set (Y := skipn t0 T) in *. assert (Ey : exists b', b' <= length Y /\ x :: r = rev (firstn b' Y)).
        { exists (Nat.min b (length Y)). split; [lia |]. rewrite Eb. f_equal. destruct (Nat.le_ge_cases b (length Y)); [now rewrite Nat.min_l by auto |].
          rewrite Nat.min_r by auto. rewrite !firstn_all2; auto. }
        destruct Ey as (b' & Lb & Ey). destruct b' as [| k]; [discriminate |]. exists k.
        assert (Ek : nth_error Y k = Some (nth k Y 0)) by (apply nth_err_def; lia).
        assert (Ef : firstn (S k) Y = firstn k Y ++ [nth k Y 0]).
        { clear -Lb. revert k Lb. induction Y as [| y Y IHY]; intros k Lb; [cbn in Lb; lia |]. destruct k; cbn [firstn nth app]; auto. f_equal. apply IHY. cbn in Lb. lia. }
        rewrite Ef, rev_app_distr in Ey. cbn in Ey. inversion Ey as [[E1 E2]]. split; [| split; [reflexivity | lia]]. rewrite <- nth_skipn. fold Y. exact Ek. }
      destruct Pos as (k & Ex & Er & Lk).
      assert (Hr : exists b', r = rev (firstn b' (skipn t0 T))) by eauto.
      assert (Lx : 0 < lv lim (t0 + k)) by (apply (lv_gt lim (t0 + k) 0 t0 (t_sorted _ _ _ _ _ _ _ _ (i_t _ _ _ I)) E0); lia).
      assert (InR : forall m y, nth_error T m = Some y -> t0 <= m -> m < t0 + k -> In y r).
      { intros m y Ey Lm1 Lm2. rewrite Er. apply in_rev. rewrite rev_involutive. apply (nth_error_In _ (m - t0)). rewrite nth_firstn. destruct (Nat.ltb_spec (m - t0) k); [| lia].
        rewrite nth_skipn. now replace (t0 + (m - t0)) with m by lia. }
      assert (RT : forall y, In y r -> exists m, nth_error T m = Some y /\ m < t0 + k).
      { intros y Hy. rewrite Er in Hy. apply in_rev in Hy. apply In_nth_error in Hy. destruct Hy as [m Em]. rewrite nth_firstn in Em. destruct (Nat.ltb_spec m k); [| discriminate].
        rewrite nth_skipn in Em. exists (t0 + m). split; [auto | lia]. }
      assert (Rx : lvar x < length sn).
      { rewrite Ls. eapply seen_range; eauto. apply lvar_lt, (t_valid _ _ _ _ _ _ _ _ (i_t _ _ _ I)). eapply nth_error_In; eauto. }
      assert (NR : ~ In (lvar x) (map lvar r)).
      { intros K. apply in_map_iff in K. destruct K as (y & K1 & K2). destruct (RT y K2) as (m & K3 & K4). destruct (same_pos _ _ _ I _ _ _ _ Ex K3 (eq_sym K1)). lia. }
      destruct (nth (lvar x) sn false) eqn:Sx.
      + unfold reason. destruct (nth (lvar x) (s_reasons st) None) as [c |] eqn:Ec.
        * (* resolve with the reason *)
          pose proof (t_reason _ _ _ _ _ _ _ _ (i_t _ _ _ I) _ _ Ex Lx) as TR. rewrite Ec in TR. destruct TR as (cl & rest & Ecl & G & Ed & Rr).
          replace (tl (c_data (cl_at st c))) with rest by (unfold cl_at; rewrite (nth_of_some _ _ _ _ dcl Ecl), Ed; reflexivity).
          assert (Rg : forall j, In j rest -> lvar j < length sn).
          { intros j Hj. destruct (Rr j Hj) as (m & _ & Em). rewrite Ls. eapply seen_range; eauto. eapply lit_range; eauto. }
          set (sn1 := upd (mark_lits st rest sn) (lvar x) false).
          assert (S1 : forall v, nth v sn1 false = true <-> v <> lvar x /\ (nth v sn false = true \/ exists j, In j rest /\ lvar j = v /\ lgz st j = true)).
          { intros v. unfold sn1. destruct (Nat.eq_dec (lvar x) v) as [<- | N].
            - rewrite nth_upd_eq by (rewrite mark_len; auto). split; [discriminate | intros [K _]; congruence].
            - rewrite nth_upd_neq, mark_nth by auto. split; [auto | intros [_ K]; exact K]. }
          assert (RR : forall j, In j rest -> lgz st j = true -> In (lneg j) r /\ lvar j <> lvar x).
          { intros j Hj Lj. destruct (Rr j Hj) as (m & Lm & Em). rewrite (lit_lgz _ _ _ I m j Em) in Lj. apply Nat.ltb_lt in Lj.
            apply (lv_gt lim m 0 t0 (t_sorted _ _ _ _ _ _ _ _ (i_t _ _ _ I)) E0) in Lj. split; [eapply InR; eauto |].
            intros K. destruct (same_pos _ _ _ I _ _ _ _ Em Ex) as [-> _]; [now rewrite lneg_var |]. lia. }
          apply IH; auto.
          -- unfold sn1. rewrite upd_length, mark_len. exact Ls.
          -- intros V HV. destruct (He V HV) as (l & [K | [K1 K2]] & Tl); [exists l; auto |]. destruct (Nat.eq_dec (lvar l) (lvar x)) as [El | Nl].
             ++ assert (lneg l = x).
                { destruct K1 as [K1 | K1]; auto. exfalso. apply NR. rewrite <- El, <- (lneg_var l). now apply in_map. }
                destruct (gc_ent _ _ _ G V HV) as (y & Hy & Ty). rewrite Ed in Hy. destruct Hy as [<- | Hy]; [exfalso; subst x; now apply lit_true_neg in Ty |].
                destruct (lgz st y) eqn:Ly.
                ** exists y. destruct (RR y Hy Ly) as [R1 R2]. split; auto. right. split; auto. apply S1. split; auto. right. exists y. auto.
                ** exfalso. destruct (Rr y Hy) as (m & Lm & Em). rewrite (lit_lgz _ _ _ I m y Em) in Ly. apply Nat.ltb_ge in Ly.
                   destruct (t_ent0 _ _ _ _ _ _ _ _ (i_t _ _ _ I) m _ Em ltac:(lia) V HV) as (z & [<- | []] & Hz). now apply lit_true_neg in Hz.
             ++ exists l. split; auto. right. destruct K1 as [K1 | K1]; [exfalso; apply Nl; rewrite K1; now rewrite lneg_var |]. split; auto. apply S1. auto.
          -- intros v Hv. apply S1 in Hv. destruct Hv as [N [K | (j & K1 & K2 & K3)]].
             ++ destruct (Hs v K) as [K' | [K' | K']]; auto. congruence.
             ++ right. rewrite <- K2, <- (lneg_var j). apply in_map. now apply RR.
        * assert (Lg : lgz st x = true). { rewrite <- (lneg_inv x) in Ex. unfold lgz, level_of, var_at. rewrite <- (lneg_inv x), lneg_var, <- (lneg_var (lneg x)).
            rewrite (t_lvl _ _ _ _ _ _ _ _ (i_t _ _ _ I) _ _ Ex). destruct (lv lim (t0 + k)); [lia | reflexivity]. }
          rewrite Lg. assert (Ax : In x A).
          { assert (K : nth_error A (lv lim (t0 + k) - 1) = Some x) by (apply HA; auto; pose proof (lv_le_len lim (t0 + k)); unfold dlevel in HL; lia). eapply nth_error_In; eauto. }
          destruct (IH (conf ++ [lneg x]) (upd sn (lvar x) false)) as (conf' & sn' & H1 & H2 & H3 & H4 & H5 & e & H6); auto.
          -- now rewrite upd_length.
          -- intros l Hl. apply in_app_or in Hl. destruct Hl as [Hl | [<- | []]]; auto. now rewrite lneg_inv.
          -- eapply entP_weak; [exact He |]. intros l [K | [[K1 | K1] K2]].
             ++ left. apply in_or_app. auto.
             ++ left. apply in_or_app. right. left. rewrite K1. apply lneg_inv.
             ++ right. split; auto. rewrite nth_upd_neq; auto. intros K. apply NR. rewrite K, <- (lneg_var l). now apply in_map.
          -- intros v Hv. destruct (Nat.eq_dec (lvar x) v) as [<- | N]; [rewrite nth_upd_eq in Hv by auto; discriminate |]. rewrite nth_upd_neq in Hv by auto.
             destruct (Hs v Hv) as [K' | [K' | K']]; auto. congruence.
          -- exists conf', sn'. repeat (split; [assumption |]). exists (lneg x :: e). now rewrite H6, <- app_assoc.
      + apply IH; auto.
        * eapply entP_weak; [exact He |]. intros l [K | [[K1 | K1] K2]]; auto. exfalso. subst x. rewrite lneg_var in Sx. congruence.
        * intros v Hv. destruct (Hs v Hv) as [K' | [K' | K']]; auto. subst v. congruence.
  Qed.

  Lemma analyze_final_ok : In p T -> unseen st -> exists conf sn, analyze_final p st = Ok (set_seen sn (set_conflict conf st)) /\ length sn = length (s_seen st) /\
    (forall v, nth v sn false = false) /\ (forall l, In l conf -> In (lneg l) A) /\ entails F conf /\ conf <> [].
  Proof.
    intros Hp Un. unfold analyze_final. apply In_nth_error in Hp. destruct Hp as [j Ej]. destruct (s_lim st) as [| t0 lr] eqn:El.
    - exists [p], (s_seen st). split; [destruct st; reflexivity |]. split; auto. split; auto. split; [intros l [<- | []]; auto |]. split; [| discriminate].
      apply (t_ent0 _ _ _ _ _ _ _ _ (i_t _ _ _ I) j); auto. rewrite El. reflexivity.
    - assert (E0 : nth_error lim 0 = Some t0) by (rewrite El; reflexivity).
      assert (Rp : lvar p < length (s_seen st)). { eapply seen_range; eauto. apply lvar_lt, (t_valid _ _ _ _ _ _ _ _ (i_t _ _ _ I)). eapply nth_error_In; eauto. }
      assert (Sp : forall v, nth v (upd (s_seen st) (lvar p) true) false = true <-> v = lvar p).
      { intros v. destruct (Nat.eq_dec (lvar p) v) as [<- | N]; [rewrite nth_upd_eq by auto; tauto | rewrite nth_upd_neq by auto; rewrite Un; split; congruence]. }
      destruct (final_ok t0 (rev (skipn t0 T)) [p] (upd (s_seen st) (lvar p) true) E0) as (conf & sn & H1 & H2 & H3 & H4 & H5 & e & H6).
      + exists (length (skipn t0 T)). now rewrite firstn_all.
      + apply upd_length.
      + intros l [<- | []]. exact HP.
      + intros V HV. destruct (Nat.lt_ge_cases j t0) as [Lj | Lj].
        * exists p. split; [left; left; auto |]. assert (Z : lv lim j = 0). { pose proof (proj1 (lv_gt lim j 0 t0 (t_sorted _ _ _ _ _ _ _ _ (i_t _ _ _ I)) E0)). lia. }
          destruct (t_ent0 _ _ _ _ _ _ _ _ (i_t _ _ _ I) j _ Ej Z V HV) as (y & [<- | []] & Hy). exact Hy.
        * destruct (lit_true_dec V p) as [K | K]; [exists p; split; [left; left |]; auto |]. exists (lneg p). split; [| now apply lit_true_neg]. right. rewrite lneg_inv, lneg_var. split.
          -- apply in_rev. rewrite rev_involutive. apply (nth_error_In _ (j - t0)). rewrite nth_skipn. now replace (t0 + (j - t0)) with j by lia.
          -- now apply Sp.
      + intros v Hv. left. now apply Sp.
      + rewrite H1. cbn [rbind]. exists conf, (upd sn (lvar p) false). split; auto. split; [now rewrite upd_length |]. split; [| split; [auto | split; [auto | rewrite H6; discriminate]]].
        intros v. destruct (Nat.eq_dec (lvar p) v) as [<- | N]; [rewrite nth_upd_eq by congruence; reflexivity |]. rewrite nth_upd_neq by auto. destruct (nth v sn false) eqn:Sv; auto. exfalso. apply N. symmetry. auto.
  Qed.
End Final.

(** ** Decisions *)
Definition refuted (F : list (list nat)) (A : list nat) (s : solver) : Prop :=
  base A s /\ s_ok s = true /\ s_conflict s <> [] /\ entails F (s_conflict s) /\ (forall l, In l (s_conflict s) -> In (lneg l) A) /\ sinv F s.
Lemma lv_dlevel : forall st i, lv (s_lim st) i <= dlevel st.
Proof. intros. apply lv_le_len. Qed.
Lemma decide_assumptions_ok : forall F A fuel st, sst F A st -> s_qhead st = length (s_trail st) ->
  rspec (decide_assumptions fuel st) (fun r => match fst r with
    | inl _ => refuted F A (snd r)
    | inr (Some p) => sst F A (snd r) /\ s_qhead (snd r) = length (s_trail (snd r)) /\ nth_error A (dlevel (snd r)) = Some p /\ value (snd r) p = None
    | inr None => sst F A (snd r) /\ s_qhead (snd r) = length (s_trail (snd r)) /\ nth_error A (dlevel (snd r)) = None
    end).
Proof.
  intros F A. induction fuel as [| fu IH]; intros st [I Sd] Q; [exact Logic.I |]. cbn [decide_assumptions]. rewrite (b_as _ _ (d_b _ _ Sd)).
  destruct (nth_error A (dlevel st)) as [p |] eqn:Ep; [| cbn [rspec fst snd]; split; [split; assumption | split; assumption]].
  assert (Hp : p < 2 * length (s_vars st)) by (apply (b_av _ _ (d_b _ _ Sd)); eapply nth_error_In; eauto).
  destruct (value st p) as [[|] |] eqn:Vp.
  - apply IH; [split |].
    + unfold sinv. ssimp. apply newlevel_inv; auto.
    + apply side_newlevel; auto; [| apply lv_dlevel]. intros a Ea. assert (a = p) by congruence. subst a. apply (val_true (i_t _ _ _ I)); auto.
    + exact Q.
  - destruct (analyze_final_ok F (s_qhead st) st I A (d_a _ _ Sd)) with (p := lneg p) as (conf & sn & E & L & Un & H1 & H2 & H3).
    + apply nth_some_lt in Ep. exact Ep.
    + rewrite lneg_inv. eapply nth_error_In; eauto.
    + apply (val_false (i_t _ _ _ I)); auto.
    + apply Sd.
    + rewrite E. cbn [rbind rspec fst snd]. destruct Sd as [[C1 C2 C3 C4 C5 C6] B2 B3 B4 B5]. split; [constructor; ssimp; auto |]. split; [exact B4 |]. split; [exact H3 |]. split; [exact H2 |]. split; [exact H1 |].
      unfold sinv. ssimp. eapply inv_same; eauto.
  - cbn [rspec fst snd]. split; [split; assumption |]. split; [assumption |]. split; assumption.
Qed.

Lemma pick_order_ok : forall st ls k, match fst (pick_order st ls k) with Some l => In l ls /\ v_asg (var_at st (lvar l)) = None | None => True end.
Proof.
  intros st. induction ls as [| l r IH]; intros k; cbn [pick_order fst]; auto. destruct (v_asg (var_at st (lvar l))) eqn:E; cbn [is_undef].
  - specialize (IH (S k)). destruct (fst (pick_order st r (S k))); auto. destruct IH. split; [right |]; auto.
  - cbn [fst]. split; [left |]; auto.
Qed.
Definition heap_but (st : solver) (h : lheap) (o : option nat) : Prop :=
  hok (length (s_vars st)) h /\ length (s_vars st) <= length (hix h) /\
  (forall v, v < length (s_vars st) -> v_asg (nth v (s_vars st) dvar) = None -> In v (hp h) \/ match o with Some l => lvar l = v | None => False end) /\
  match o with Some l => l < 2 * length (s_vars st) /\ value st l = None | None => True end.
Lemma pick_heap_ok : forall F q fuel st, inv F q st -> rspec (pick_heap fuel st) (fun r => exists h, snd r = set_heap h st /\ heap_but st h (fst r)  /\ (fst r = None -> hp h = [])).
Proof.
  intros F q. induction fuel as [| fu IH]; intros st I; [exact Logic.I |]. cbn [pick_heap]. destruct (i_h _ _ _ I) as (H1 & H2 & H3).
  unfold heap_empty. destruct (hp (s_heap st)) as [| y r] eqn:Eh.
  - cbn. exists (s_heap st). split; [destruct st; reflexivity |]. split; [| auto]. split; auto. split; auto. split; auto. intros v Hv Na. destruct (H3 v Hv Na).
  - rewrite <- Eh in H3. rewrite <- (z_a _ (i_sz _ _ _ I)) in H1. destruct (hok_remove_min (s_acts st) (s_heap st) H1) as (x & h & E & A1 & A2 & A3 & A4); [congruence |].
    rewrite E. cbn [rbind]. cbn zeta. rewrite (z_a _ (i_sz _ _ _ I)) in *.
    assert (Lx : x < length (s_vars st)) by (apply H1, A2; auto).
    change (var_at (set_heap h st) x) with (var_at st x).
    destruct (v_asg (var_at st x)) eqn:Ex; cbn [is_undef andb].
    + eapply rspec_weak; [apply IH |].
      * apply heap_change; auto. split; auto. split; [lia |]. intros v Hv Na. specialize (H3 v Hv Na). apply A2 in H3. destruct H3 as [-> | H3]; auto. unfold var_at in Ex. congruence.
      * intros [o s] (h' & E1 & E2 & E3). cbn [fst snd] in *. exists h'. split; [rewrite E1; reflexivity |]. split; [exact E2 | exact E3].
    + unfold var_at at 1. rewrite (z_dec _ (i_sz _ _ _ I) x Lx). cbn [andb rspec fst snd]. exists h. split; auto. split; [| discriminate]. split; auto. split; [lia |]. split.
      * intros v Hv Na. specialize (H3 v Hv Na). apply A2 in H3. rewrite mk_lit_var. destruct H3 as [-> | H3]; auto.
      * split; [apply lvar_lt; now rewrite mk_lit_var |]. unfold value. apply asg_undef. rewrite mk_lit_var. exact Ex.
Qed.
Lemma pick_branch_ok : forall F A fuel st, sst F A st -> rspec (pick_branch_lit fuel st) (fun r => exists x h, snd r = set_seli x (set_heap h st) /\ heap_but st h (fst r) /\ (fst r = None -> hp h = [])).
Proof.
  intros F A fuel st [I Sd]. unfold pick_branch_lit. pose proof (pick_order_ok st (skipn (s_seli st) (s_selo st)) (s_seli st)) as P.
  destruct (pick_order st (skipn (s_seli st) (s_selo st)) (s_seli st)) as [[l |] k]; cbn [fst] in P.
  - cbn. exists k, (s_heap st). split; [destruct st; reflexivity |]. split; [| discriminate]. destruct (i_h _ _ _ I) as (H1 & H2 & H3). split; auto. split; auto. split; auto. destruct P as [P1 P2]. split.
    + apply (b_sel _ _ (d_b _ _ Sd)). rewrite <- (firstn_skipn (s_seli st) (s_selo st)). apply in_or_app. auto.
    + unfold value. apply asg_undef. exact P2.
  - assert (Ex : exists x, (if s_seli st <? length (s_selo st) then set_seli k st else st) = set_seli x st).
    { destruct (s_seli st <? length (s_selo st)); [eauto |]. exists (s_seli st). destruct st; reflexivity. }
    destruct Ex as [x ->]. eapply rspec_weak; [eapply pick_heap_ok; eapply inv_same; eauto |]. intros [o s] (h & E1 & E2 & E3). cbn [fst snd] in *. exists x, h. split; [rewrite E1; destruct st; reflexivity |].
    split; [exact E2 | exact E3].
Qed.

(** ** Search *)
Lemma level0_conflict : forall F q st c, conflicting F q st c -> dlevel st = 0 -> entails F [].
Proof.
  intros F q st c (I & _ & _ & cl & x & p & Ec & G & Hl & _) D V HV. exfalso. destruct (gc_ent _ _ _ G V HV) as (l & H1 & H2). specialize (Hl l H1).
  apply In_nth_error in Hl. destruct Hl as [j Ej]. assert (Z : lv (s_lim st) j = 0) by (pose proof (lv_le_len (s_lim st) j); unfold dlevel in D; lia).
  destruct (t_ent0 _ _ _ _ _ _ _ _ (i_t _ _ _ I) j _ Ej Z V HV) as (y & [<- | []] & Hy). now apply lit_true_neg in Hy.
Qed.
Definition absurdum (F : list (list nat)) (A : list nat) (s : solver) : Prop :=
  base A s /\ s_conflict s = [] /\ entails F [] /\ exists q, inv F q s.
Definition satd (F : list (list nat)) (A : list nat) (s : solver) : Prop :=
  base A s /\ s_ok s = true /\ s_conflict s = [] /\ sinv F s /\ s_qhead s = length (s_trail s) /\ (forall a, In a A -> In a (s_trail s)) /\
  (forall v, v < length (s_vars s) -> v_asg (nth v (s_vars s) dvar) <> None).
Definition answer (F : list (list nat)) (A : list nat) (r : option bool * solver) : Prop :=
  match fst r with
  | None => sst F A (snd r) /\ s_lim (snd r) = []
  | Some true => satd F A (snd r)
  | Some false => refuted F A (snd r) \/ absurdum F A (snd r)
  end.

Lemma maintain_ok : forall cfg orc F A fuel st, sorting orc -> sst F A st -> s_qhead st = length (s_trail st) ->
  rspec (maintain cfg orc fuel st) (fun r => if fst r then sst F A (snd r) /\ s_qhead (snd r) = length (s_trail (snd r)) else absurdum F A (snd r)).
Proof.
  intros cfg orc F A fuel st So [I Sd] Q. unfold maintain. destruct (g_incremental cfg); [cbn [rspec fst snd]; split; [split; assumption | assumption] |].
  assert (Simp : rspec (if dlevel st =? 0 then simplify cfg orc fuel st else Ok (true, st))
    (fun r => if fst r then sst F A (snd r) /\ s_qhead (snd r) = length (s_trail (snd r)) else absurdum F A (snd r))).
  { destruct (Nat.eqb_spec (dlevel st) 0) as [D | D]; [| cbn [rspec fst snd]; split; [split; assumption | assumption]].
    unfold simplify. rewrite (d_ok _ _ Sd). cbn [negb]. eapply rspec_bind; [apply (propagate_ok F); exact I |]. intros [o s] [PF P]. cbn [fst snd] in *. pose proof (side_p _ _ _ Sd PF) as Sd1.
    destruct o as [c |].
    - destruct P as (q0 & _ & Cf). cbn [rspec fst snd]. destruct Sd1 as [B1 B2 B3 B4 B5]. split; [eapply base_same; eauto |]. split; [exact B5 |]. split.
      + eapply level0_conflict; eauto. unfold dlevel in *. now rewrite (pf_lim _ _ PF).
      + exists q0. eapply inv_same; [apply Cf | ..]; auto.
    - destruct P as [I1 Q1]. destruct (o_skip orc (s_tick s)).
      + cbn [rspec fst snd]. split; [| exact Q1]. split; [eapply inv_same; [exact I1 | ..]; auto | eapply side_same; [exact Sd1 | ..]; auto].
      + assert (I2 : inv F (s_qhead s) (tickup s)) by (eapply inv_same; [exact I1 | ..]; auto).
        assert (El : s_lim (tickup s) = []). { change (s_lim s = []). rewrite (pf_lim _ _ PF). destruct (s_lim st) eqn:E; auto. unfold dlevel in D. rewrite E in D. discriminate. }
        destruct (remove_satisfied_ok cfg orc F _ _ I2 El) as (s2 & E2 & I3 & D2). rewrite E2. cbn [rbind]. destruct (rebuild_ok F _ s2 I3) as (h & E3 & I4). rewrite E3. cbn [rbind rspec fst snd].
        assert (Sd2 : side A s2) by (eapply side_d; [| exact D2]; eapply side_same; [exact Sd1 | ..]; auto).
        destruct D2 as (W & A' & R & L & C & h' & -> & _). split; [split |].
        * exact I4.
        * eapply side_same; [exact Sd2 | ..]; auto.
        * exact Q1. }
  eapply rspec_bind; [exact Simp |]. intros [g s] H. cbn [fst snd] in H. destruct g; cbn [negb]; [| exact H]. destruct H as [[I1 Sd1] Q1].
  destruct (o_reduce orc (s_tick s)).
  - assert (I2 : inv F (s_qhead s) (tickup s)) by (eapply inv_same; [exact I1 | ..]; auto).
    destruct (reduce_db_ok cfg orc F _ _ So I2) as (s2 & E2 & I3 & D2); [apply (d_b _ _ Sd1) |]. rewrite E2. cbn [rbind rspec fst snd].
    assert (Sd2 : side A s2) by (eapply side_d; [| exact D2]; eapply side_same; [exact Sd1 | ..]; auto).
    destruct D2 as (W & A' & R & L & C & h' & -> & _). split; [split; [exact I3 | exact Sd2] | exact Q1].
  - cbn [rspec fst snd]. split; [| exact Q1]. split; [eapply inv_same; [exact I1 | ..]; auto | eapply side_same; [exact Sd1 | ..]; auto].
Qed.

Lemma search_loop_ok : forall cfg orc F A, g_min cfg <> MinNone -> sorting orc -> forall fuel nof k st, sst F A st ->
  rspec (search_loop cfg orc fuel nof k st) (answer F A).
Proof.
  intros cfg orc F A Hm So. induction fuel as [| fu IH]; intros nof k st [I Sd]; [exact Logic.I |]. cbn [search_loop].
  eapply rspec_bind; [apply (propagate_ok F); exact I |]. intros [o s] [PF P]. cbn [fst snd] in *. pose proof (side_p _ _ _ Sd PF) as Sd1. destruct o as [c |].
  - destruct P as (q0 & _ & Cf). destruct (Nat.eqb_spec (dlevel s) 0) as [D | D].
    + cbn. right. destruct Sd1 as [B1 B2 B3 B4 B5]. split; auto. split; auto. split; [eapply level0_conflict; eauto |]. exists q0. apply Cf.
    + eapply rspec_bind; [eapply (learn_ok cfg orc F A); eauto; lia |]. intros s2 H2. apply IH. exact H2.
  - destruct P as [I1 Q1]. destruct (nof <=? k).
    + destruct (nth_error (s_lim s) 0) as [t |] eqn:E0.
      * destruct (cancel_side F _ A s 0 t I1 E0 Sd1) as (s2 & E2 & Hc & Sd2). rewrite E2. cbn [rbind rspec fst snd answer]. split; [split; [apply Hc | exact Sd2] |].
        destruct Hc as (_ & _ & t' & vs & h & _ & _ & -> & _). reflexivity.
      * unfold cancel_until. rewrite E0. cbn. split; [split; assumption |]. destruct (s_lim s); [reflexivity | discriminate].
    + eapply rspec_bind; [apply (maintain_ok cfg orc F A); auto; split; assumption |]. intros [g s2] H2. cbn [fst snd] in H2. destruct g; cbn [negb]; [| cbn; right; exact H2].
      destruct H2 as [I2 Q2]. eapply rspec_bind; [apply (decide_assumptions_ok F A); auto |]. intros [[u | o] s3] H3; cbn [fst snd] in H3; [cbn; left; exact H3 |].
      destruct o as [p |].
      * destruct H3 as (I3 & Q3 & Ep & Vp). cbn [rbind]. rewrite enqueue_ok by exact Vp. cbn [rbind]. apply IH. apply decide_ok; auto.
        apply (b_av _ _ (d_b _ _ (proj2 I3))). eapply nth_error_In; eauto.
      * destruct H3 as (I3 & Q3 & Ep). eapply rspec_bind; [apply (pick_branch_ok F A); exact I3 |]. intros [[p |] s4] (x & h & E4 & (H1 & H2 & H3 & H4) & H5); cbn [fst snd] in *; subst s4.
        -- destruct H4 as [Rp Vp]. rewrite enqueue_ok by exact Vp. cbn [rbind]. apply IH.
           pose proof (decide_ok F A s3 p I3 Q3 Rp Vp (or_intror Ep)) as [Id Sdd].
           change (sst F A (set_seli x (set_heap h (decided p s3)))). split.
           ++ assert (Ih : inv F (s_qhead (decided p s3)) (set_heap h (decided p s3))).
              { apply heap_change; auto. change (s_vars (decided p s3)) with (upd (s_vars s3) (lvar p) (mkVar (Some (negb (lsign p))) (Some (dlevel (set_lim (s_lim s3 ++ [length (s_trail s3)]) s3))) (v_pol (var_at s3 (lvar p))) (v_dec (var_at s3 (lvar p))))).
                rewrite upd_length. split; auto. split; auto. intros v Hv Nv. destruct (Nat.eq_dec (lvar p) v) as [<- | N]; [rewrite nth_upd_eq in Nv by auto; discriminate |].
                rewrite nth_upd_neq in Nv by auto. destruct (H3 v Hv Nv) as [K | K]; [exact K | contradiction]. }
              eapply inv_same; [exact Ih | ..]; auto.
           ++ eapply side_same; [exact Sdd | ..]; auto.
        -- cbn [rspec fst snd answer]. destruct I3 as [I3 [B1 B2 B3 B4 B5]]. split; [eapply base_same; eauto |]. split; [exact B4 |]. split; [exact B5 |]. split.
           ++ assert (Ih : inv F (s_qhead s3) (set_heap h s3)).
              { apply heap_change; auto. split; auto. split; auto. intros v Hv Nv. destruct (H3 v Hv Nv) as [K | []]. exact K. }
              eapply inv_same; [exact Ih | ..]; auto.
           ++ split; [exact Q3 |]. split.
              ** intros a Ha. change (In a (s_trail s3)). apply In_nth_error in Ha. destruct Ha as [j Ej]. apply nth_error_None in Ep. pose proof (nth_some_lt _ _ _ Ej).
                 destruct (B3 j a Ej) as (i & Ei & _); [lia |]. eapply nth_error_In; eauto.
              ** intros v Hv Nv. destruct (H3 v Hv Nv) as [K | []]. rewrite (H5 eq_refl) in K. destruct K.
Qed.
End Vars.
