(** Conflict analysis: the learnt clause is a consequence of the clauses and asserts its first literal. *)
From Coq Require Import List Arith ZArith NArith Bool Lia Permutation.
From Verif Require Import Base Vec HeapModel HeapProofs SatSpec SatModel SatBasics SatHeap SatInv SatProp.
Import ListNotations.
Local Open Scope nat_scope.

(** ** Counting marked literals *)
Definition cnt (sn : list bool) (X : list nat) : nat := length (filter (fun l => nth (lvar l) sn false) X).
Lemma cnt_other : forall sn X v b, ~ In v (map lvar X) -> cnt (upd sn v b) X = cnt sn X.
Proof.
  intros sn X v b H. unfold cnt. f_equal. apply filter_ext_in. intros l Hl. apply nth_upd_neq. intros E. apply H. rewrite E. now apply in_map.
Qed.
Lemma cnt_set : forall sn X l, NoDup (map lvar X) -> In l X -> nth (lvar l) sn false = false -> lvar l < length sn -> cnt (upd sn (lvar l) true) X = S (cnt sn X).
Proof.
  intros sn X l N Hl Hs Ll. induction X as [| x r IH]; [destruct Hl |]. cbn [map] in N. apply NoDup_cons_iff in N. destruct N as [N1 N2].
  unfold cnt in *. cbn [filter]. destruct Hl as [-> | Hl].
  - rewrite Hs, nth_upd_eq by auto. cbn [length]. f_equal. apply (cnt_other sn r (lvar l) true). exact N1.
  - assert (lvar x <> lvar l) by (intros E; apply N1; rewrite E; now apply in_map). rewrite nth_upd_neq by auto.
    destruct (nth (lvar x) sn false); cbn [length]; rewrite IH; auto.
Qed.
Lemma cnt_clear : forall sn X l, NoDup (map lvar X) -> In l X -> nth (lvar l) sn false = true -> lvar l < length sn -> S (cnt (upd sn (lvar l) false) X) = cnt sn X.
Proof.
  intros sn X l N Hl Hs Ll. induction X as [| x r IH]; [destruct Hl |]. cbn [map] in N. apply NoDup_cons_iff in N. destruct N as [N1 N2].
  unfold cnt in *. cbn [filter]. destruct Hl as [-> | Hl].
  - rewrite Hs, nth_upd_eq by auto. cbn [length]. f_equal. apply (cnt_other sn r (lvar l) false). exact N1.
  - assert (lvar x <> lvar l) by (intros E; apply N1; rewrite E; now apply in_map). rewrite nth_upd_neq by auto.
    destruct (nth (lvar x) sn false); cbn [length]; rewrite IH; auto.
Qed.
Lemma cnt_pos : forall sn X, 0 < cnt sn X -> exists l, In l X /\ nth (lvar l) sn false = true.
Proof.
  intros sn X H. unfold cnt in H. destruct (filter (fun l => nth (lvar l) sn false) X) as [| l r] eqn:E; [cbn in H; lia |].
  exists l. apply (proj1 (filter_In (fun l => nth (lvar l) sn false) l X)). rewrite E. left. reflexivity.
Qed.
Lemma cnt_zero : forall sn X l, cnt sn X = 0 -> In l X -> nth (lvar l) sn false = false.
Proof.
  intros sn X l H Hl. destruct (nth (lvar l) sn false) eqn:E; auto. exfalso. unfold cnt in H.
  assert (K : In l (filter (fun l => nth (lvar l) sn false) X)) by (apply filter_In; auto). destruct (filter _ X); [destruct K | cbn in H; lia].
Qed.
Lemma nodup_skipn : forall A (f : A -> nat) k l, NoDup (map f l) -> NoDup (map f (skipn k l)).
Proof. induction k as [| k IH]; intros [| x r] N; cbn in *; auto. apply IH. now inversion N. Qed.

(** ** What the analysis changes *)
Definition actx (st : solver) (h : lheap) (a : list Z) (tk : nat) (sn : list bool) : solver := set_seen sn (set_tick tk (set_heap h (set_acts a st))).
Definition aframe (st s : solver) : Prop := exists h a tk sn, s = actx st h a tk sn /\ length a = length (s_acts st) /\ hok (length (s_vars st)) h /\
  length (hix (s_heap st)) <= length (hix h) /\ (forall v, In v (hp h) <-> In v (hp (s_heap st))) /\ length sn = length (s_seen st).
Lemma aframe_refl : forall st, hok (length (s_vars st)) (s_heap st) -> aframe st st.
Proof. intros st H. exists (s_heap st), (s_acts st), (s_tick st), (s_seen st). split; [destruct st; reflexivity |]. repeat split; auto; apply H. Qed.
Lemma aframe_inv : forall F q st s, inv F q st -> aframe st s -> inv F q s.
Proof.
  intros F q st s [Z I W C V H] (h & a & tk & sn & -> & La & Hh & Lh & Eh & Ls). unfold actx. constructor; ssimp; auto.
  - destruct Z. constructor; ssimp; auto; lia.
  - destruct H as (H1 & H2 & H3). split; auto. split; [lia |]. intros v Hv Na. apply Eh. auto.
Qed.
Lemma aframe_seen : forall st s sn, aframe st s -> length sn = length (s_seen st) -> aframe st (set_seen sn s).
Proof. intros st s sn (h & a & tk & sn0 & -> & K) L. exists h, a, tk, sn. split; auto. tauto. Qed.
Lemma bump_ok : forall orc st s v, length (s_acts st) = length (s_vars st) -> aframe st s ->
  exists s', var_bump_activity orc v s = Ok s' /\ aframe st s' /\ s_seen s' = s_seen s.
Proof.
  intros orc st s v Za (h & a & tk & sn & -> & La & Hh & Lh & Eh & Ls). unfold var_bump_activity, actx. ssimp.
  set (acts := map _ _). assert (L : length acts = length (s_acts st)) by (unfold acts; now rewrite map_length, seq_length).
  destruct (in_heap h v) eqn:Ei; unfold tickup; ssimp; rewrite Ei.
  - rewrite <- Za, <- L in Hh. destruct (hok_decrease acts h v Hh Ei) as (h' & E & H1 & H2 & H3). rewrite E. cbn [rbind].
    eexists. split; [reflexivity |]. split; [| reflexivity]. exists h', acts, (S tk), sn. split; [reflexivity |]. rewrite L, Za in H1.
    split; [exact L |]. split; [exact H1 |]. split; [lia |]. split; [| exact Ls]. intros x. rewrite H2. apply Eh.
  - eexists. split; [reflexivity |]. split; [| reflexivity]. exists h, acts, (S tk), sn. split; [reflexivity |]. auto 10.
Qed.

Section Analyze.
  Variables (orc : oracle) (F : list (list nat)) (q0 : nat) (st : solver).
  Hypothesis I : inv F q0 st.
  Hypothesis D : 0 < dlevel st.
  Variable t0 : nat.
  Hypothesis Et0 : nth_error (s_lim st) (dlevel st - 1) = Some t0.

  Local Notation T := (s_trail st).
  Local Notation lim := (s_lim st).
  Local Notation DL := (length (s_lim st)).
  Local Notation X := (skipn t0 (s_trail st)).
  Local Notation TI := (i_t _ _ _ I).

  Lemma top_level : forall i, lv lim i = DL <-> t0 <= i.
  Proof.
    intros i. pose proof (lv_gt lim i _ _ (t_sorted _ _ _ _ _ _ _ _ TI) Et0) as K. pose proof (lv_le_len lim i). unfold dlevel in *. lia.
  Qed.
  Lemma in_top : forall i l, nth_error T i = Some l -> lv lim i = DL -> In l X.
  Proof.
    intros i l E H. apply top_level in H. apply (nth_error_In _ (i - t0)). rewrite nth_skipn. now replace (t0 + (i - t0)) with i by lia.
  Qed.
  Lemma top_in : forall l, In l X -> exists i, nth_error T i = Some l /\ lv lim i = DL.
  Proof. intros l H. apply In_nth_error in H. destruct H as [i E]. rewrite nth_skipn in E. exists (t0 + i). split; auto. apply top_level. lia. Qed.
  Lemma same_pos : forall i j a b, nth_error T i = Some a -> nth_error T j = Some b -> lvar a = lvar b -> i = j /\ a = b.
  Proof. intros i j a b A B E. assert (i = j) by (eapply trail_pos_unique; eauto; apply TI). subst. split; congruence. Qed.
  Lemma lit_level : forall j q, nth_error T j = Some (lneg q) -> level_of st q = Some (lv lim j).
  Proof. intros j q E. unfold level_of, var_at. rewrite <- (lneg_var q). now apply (t_lvl _ _ _ _ _ _ _ _ TI). Qed.
  Lemma lit_lgz : forall j q, nth_error T j = Some (lneg q) -> lgz st q = (0 <? lv lim j).
  Proof. intros j q E. unfold lgz. rewrite (lit_level j q E). destruct (lv lim j); reflexivity. Qed.
  Lemma lit_range : forall j q, nth_error T j = Some (lneg q) -> lvar q < length (s_vars st).
  Proof. intros j q E. rewrite <- (lneg_var q). apply lvar_lt, (t_valid _ _ _ _ _ _ _ _ TI). eapply nth_error_In; eauto. Qed.
  Lemma nd_top : NoDup (map lvar X).
  Proof. apply nodup_skipn, TI. Qed.

  Record AI (sn : list bool) (O : list nat) (pc b : nat) (qs : list nat) : Prop := {
    a_len : length sn = length (s_seen st);
    a_O : forall q, In q O -> exists j, nth_error T j = Some (lneg q) /\ 0 < lv lim j /\ lv lim j < DL;
    a_nd : NoDup (map lvar O);
    a_seen : forall v, nth v sn false = true -> In v (map lvar O) \/ exists i l, nth_error T i = Some l /\ lvar l = v /\ lv lim i = DL /\ i < b;
    a_Os : forall q, In q O -> nth (lvar q) sn false = true;
    a_pc : pc = cnt sn X;
    a_ent : entP F (fun l => In l O \/ (In (lneg l) X /\ nth (lvar l) sn false = true) \/ In l qs) }.

  Lemma aframe_fix : forall s, aframe st s -> s_vars s = s_vars st /\ s_trail s = T /\ s_lim s = lim /\ s_reasons s = s_reasons st /\ s_arena s = s_arena st.
  Proof. intros s (h & a & tk & sn & -> & _). unfold actx. ssimp. auto. Qed.
  Lemma seen_range : forall v, v < length (s_vars st) -> v < length (s_seen st).
  Proof. intros v H. eapply Nat.lt_le_trans; [exact H |]. exact (z_s _ (i_sz _ _ _ I)). Qed.

  Lemma analyze_lits_ok : forall qs O pc s b, aframe st s -> AI (s_seen s) O pc b qs ->
    (forall q, In q qs -> exists j, j < b /\ nth_error T j = Some (lneg q)) ->
    exists O' pc' s', analyze_lits orc qs O pc s = Ok (O', pc', s') /\ aframe st s' /\ AI (s_seen s') O' pc' b [] /\ pc <= pc' /\
      (forall q j, In q qs -> nth_error T j = Some (lneg q) -> lv lim j = DL -> 1 <= pc').
  Proof.
    induction qs as [| q r IH]; intros O pc s b FR A Hq; cbn [analyze_lits].
    - exists O, pc, s. split; [reflexivity |]. repeat (split; [assumption |]). split; [lia |]. intros q j [].
    - destruct (Hq q (or_introl eq_refl)) as (j & Lj & Ej). destruct (aframe_fix s FR) as (Ev & Et & El & Er & Ea).
      assert (Elv : level_of s q = Some (lv lim j)) by (unfold level_of, var_at; rewrite Ev; now apply lit_level).
      assert (Elg : lgz s q = (0 <? lv lim j)) by (unfold lgz; rewrite Elv; destruct (lv lim j); reflexivity). rewrite Elg.
      assert (Hr : forall q', In q' r -> exists j, j < b /\ nth_error T j = Some (lneg q')) by (intros; apply Hq; right; auto).
      assert (Rq : lvar q < length (s_seen st)) by (apply seen_range; eapply lit_range; eauto).
      destruct (nth (lvar q) (s_seen s) false) eqn:Sq; cbn [negb andb].
      + assert (Cq : In q O \/ In (lneg q) X).
        { destruct (a_seen _ _ _ _ _ A _ Sq) as [K | (i & l & E1 & E2 & E3 & E4)].
          - apply in_map_iff in K. destruct K as (o & E1 & E2). destruct (a_O _ _ _ _ _ A o E2) as (k & E3 & _).
            destruct (same_pos _ _ _ _ Ej E3) as [_ E4]; [now rewrite !lneg_var |]. apply lneg_inj in E4. subst. auto.
          - destruct (same_pos _ _ _ _ Ej E1) as [-> E5]; [now rewrite lneg_var |]. right. eapply in_top; eauto. }
        destruct (IH O pc s b) as (O' & pc' & s' & E & F' & A' & L & G); auto.
        { destruct A as [A1 A2 A3 A4 A5 A6 A7]. constructor; auto. eapply entP_weak; [exact A7 |]. intros l [K | [K | [<- | K]]]; auto. destruct Cq; auto. }
        exists O', pc', s'. repeat (split; [assumption |]). intros q' j' [<- | Hi] E1 E2; [| eapply G; eauto].
        assert (1 <= pc); [| lia]. rewrite (a_pc _ _ _ _ _ A). destruct (cnt (s_seen s) X) eqn:Ec; [| lia]. exfalso.
        pose proof (cnt_zero _ _ _ Ec (in_top _ _ E1 E2)) as K. rewrite lneg_var in K. congruence.
      + destruct (Nat.ltb_spec 0 (lv lim j)) as [Lp | Lz].
        * destruct (bump_ok orc st s (lvar q) (z_a _ (i_sz _ _ _ I)) FR) as (s1 & E1 & F1 & S1). rewrite E1. cbn [rbind]. rewrite S1.
          set (s2 := set_seen (upd (s_seen s) (lvar q) true) s1).
          assert (F2 : aframe st s2) by (apply aframe_seen; auto; rewrite upd_length; apply A).
          destruct (aframe_fix s2 F2) as (Ev2 & _ & El2 & _). replace (level_of s2 q) with (Some (lv lim j)) by (symmetry; unfold level_of, var_at; rewrite Ev2; now apply lit_level).
          unfold dlevel at 1. rewrite El2. assert (Eq2 : s_seen s2 = upd (s_seen s) (lvar q) true) by reflexivity.
          assert (Lq : lvar q < length (s_seen s)) by (rewrite (a_len _ _ _ _ _ A); exact Rq).
          assert (Mono : forall v, nth v (s_seen s) false = true -> nth v (upd (s_seen s) (lvar q) true) false = true).
          { intros v Hv. destruct (Nat.eq_dec (lvar q) v) as [<- | N]; [now rewrite nth_upd_eq | now rewrite nth_upd_neq]. }
          destruct (Nat.leb_spec DL (lv lim j)) as [Ltop | Llow].
          -- assert (Ltop' : lv lim j = DL) by (pose proof (lv_le_len lim j); lia). assert (Iq : In (lneg q) X) by (eapply in_top; eauto).
             assert (Ec : cnt (upd (s_seen s) (lvar q) true) X = S (cnt (s_seen s) X)).
             { rewrite <- (lneg_var q). apply cnt_set; auto; [apply nd_top | |]; now rewrite lneg_var. }
             destruct (IH O (S pc) s2 b) as (O' & pc' & s' & E & F' & A' & L & G); auto.
             { rewrite Eq2. destruct A as [A1 A2 A3 A4 A5 A6 A7]. constructor; auto.
               - now rewrite upd_length.
               - intros v Hv. destruct (Nat.eq_dec (lvar q) v) as [<- | N]; [right; exists j, (lneg q); rewrite lneg_var; auto | rewrite nth_upd_neq in Hv by auto; auto].
               - rewrite Ec. now f_equal.
               - eapply entP_weak; [exact A7 |]. intros l [K | [[K1 K2] | [<- | K]]]; auto. right. left. split; auto. now rewrite nth_upd_eq. }
             exists O', pc', s'. repeat (split; [assumption |]). split; [lia |]. intros q' j' [<- | Hi] E2 E3; [lia | eapply G; eauto].
          -- assert (NX : ~ In (lvar q) (map lvar X)).
             { intros K. apply in_map_iff in K. destruct K as (x & K1 & K2). destruct (top_in x K2) as (i & K3 & K4).
               destruct (same_pos _ _ _ _ Ej K3) as [-> _]; [now rewrite lneg_var |]. lia. }
             destruct (IH (O ++ [q]) pc s2 b) as (O' & pc' & s' & E & F' & A' & L & G); auto.
             { rewrite Eq2. destruct A as [A1 A2 A3 A4 A5 A6 A7]. constructor; auto.
               - now rewrite upd_length.
               - intros q' Hq'. apply in_app_or in Hq'. destruct Hq' as [K | [<- | []]]; auto. exists j. auto.
               - rewrite map_app. cbn [map]. apply (Permutation_NoDup (l := lvar q :: map lvar O)); [apply Permutation_cons_append |]. constructor; auto.
                 intros K. apply in_map_iff in K. destruct K as (o & K1 & K2). rewrite <- K1 in Sq. rewrite (A5 o K2) in Sq. discriminate.
               - intros v Hv. rewrite map_app, in_app_iff. destruct (Nat.eq_dec (lvar q) v) as [<- | N]; [left; right; left; auto |]. rewrite nth_upd_neq in Hv by auto.
                 destruct (A4 v Hv); auto.
               - intros q' Hq'. apply in_app_or in Hq'. destruct Hq' as [K | [<- | []]]; auto. now rewrite nth_upd_eq.
               - rewrite cnt_other by auto. exact A6.
               - eapply entP_weak; [exact A7 |]. intros l [K | [[K1 K2] | [<- | K]]]; auto; left; apply in_or_app; cbn; auto. }
             exists O', pc', s'. repeat (split; [assumption |]). intros q' j' [<- | Hi] E2 E3; [| eapply G; eauto]. exfalso.
             destruct (same_pos _ _ _ _ Ej E2 eq_refl) as [-> _]. lia.
        * cbn [andb]. assert (Z : lv lim j = 0) by lia.
          destruct (IH O pc s b) as (O' & pc' & s' & E & F' & A' & L & G); auto.
          { destruct A as [A1 A2 A3 A4 A5 A6 A7]. constructor; auto. intros V HV. destruct (A7 V HV) as (l & [K | [K | [<- | K]]] & Tl); try (exists l; auto; fail).
            exfalso. destruct (t_ent0 _ _ _ _ _ _ _ _ TI j _ Ej Z V HV) as (x & [<- | []] & Hx). apply lit_true_neg in Hx. contradiction. }
          exists O', pc', s'. repeat (split; [assumption |]). intros q' j' [<- | Hi] E2 E3; [| eapply G; eauto]. exfalso.
          destruct (same_pos _ _ _ _ Ej E2 eq_refl) as [-> _]. unfold dlevel in D. lia.
  Qed.

  Lemma find_seen_ok : forall s idx i0 l0, s_trail s = T -> nth_error T i0 = Some l0 -> i0 <= idx -> nth (lvar l0) (s_seen s) false = true -> idx < length T ->
    exists i, find_seen s idx = Ok i /\ i0 <= i /\ i <= idx /\ nth (lvar (nth i T 0)) (s_seen s) false = true /\
      forall k l, i < k -> k <= idx -> nth_error T k = Some l -> nth (lvar l) (s_seen s) false = false.
  Proof.
    intros s idx i0 l0 Et E0 L H Li. induction idx as [| n IH].
    - assert (i0 = 0) by lia. subst i0. exists 0. cbn [find_seen]. rewrite Et, (nth_of_some _ _ _ _ 0 E0), H. repeat (split; [auto |]). intros; lia.
    - cbn [find_seen]. rewrite Et. destruct (nth (lvar (nth (S n) T 0)) (s_seen s) false) eqn:Es.
      + exists (S n). repeat (split; [auto |]). intros; lia.
      + assert (i0 <> S n) by (intros ->; rewrite (nth_of_some _ _ _ _ 0 E0) in Es; congruence).
        destruct IH as (i & K1 & K2 & K3 & K4 & K5); try lia. exists i. repeat (split; [auto |]). intros k l H1 H2 E.
        destruct (Nat.eq_dec k (S n)) as [-> | N]; [now rewrite (nth_of_some _ _ _ _ 0 E) in Es | apply (K5 k l); auto; lia].
  Qed.

  (** The result of the main loop. *)
  Definition resolved (r : nat * list nat * solver) : Prop :=
    let '(p, U, s) := r in aframe st s /\ (exists i, nth_error T i = Some p /\ lv lim i = DL) /\
      (forall q, In q U -> exists j, nth_error T j = Some (lneg q) /\ 0 < lv lim j /\ lv lim j < DL) /\ NoDup (map lvar U) /\
      (forall v, nth v (s_seen s) false = true <-> In v (map lvar U)) /\ entails F (lneg p :: U).

  Lemma analyze_loop_ok : forall fuel c (first : bool) idx pc O s b, aframe st s ->
    (exists cl, nth_error (s_arena st) c = Some cl /\ AI (s_seen s) O pc b (if first then c_data cl else tl (c_data cl)) /\
       (forall q, In q (if first then c_data cl else tl (c_data cl)) -> exists j, j < b /\ nth_error T j = Some (lneg q)) /\
       (1 <= pc \/ exists q j, In q (if first then c_data cl else tl (c_data cl)) /\ nth_error T j = Some (lneg q) /\ lv lim j = DL)) ->
    b <= S idx -> idx < length T ->
    rspec (analyze_loop orc fuel (Some c) first idx pc O s) resolved.
  Proof.
    induction fuel as [| fu IH]; intros c first idx pc O s b FR (cl & Ec & A & Hq & Hp) Lb Li; [exact Logic.I |]. cbn [analyze_loop].
    assert (Ed : c_data (cl_at s c) = c_data cl).
    { destruct (aframe_fix s FR) as (_ & _ & _ & _ & Ea). unfold cl_at. rewrite Ea, (nth_of_some _ _ _ _ dcl Ec). reflexivity. }
    rewrite Ed. cbn zeta.
    destruct (analyze_lits_ok (if first then c_data cl else tl (c_data cl)) O pc s b FR A Hq) as (O1 & pc1 & s1 & E & F1 & A1 & L1 & G1).
    rewrite E. cbn [rbind]. clear E. assert (P1 : 1 <= pc1) by (destruct Hp as [Hp | (q & j & H1 & H2 & H3)]; [lia | eapply G1; eauto]). clear Hq Hp G1.
    destruct (aframe_fix s1 F1) as (Ev & Et & El & Er & Ea).
    destruct (cnt_pos (s_seen s1) X) as (l0 & I0 & S0); [rewrite <- (a_pc _ _ _ _ _ A1); lia |].
    assert (TopPos : forall l, In l X -> nth (lvar l) (s_seen s1) false = true -> exists i, nth_error T i = Some l /\ lv lim i = DL /\ i < b).
    { intros l Hl Sl. destruct (top_in l Hl) as (i & Ei & Lvi). destruct (a_seen _ _ _ _ _ A1 _ Sl) as [K | (i' & l' & E1 & E2 & E3 & E4)].
      - exfalso. apply in_map_iff in K. destruct K as (o & K1 & K2). destruct (a_O _ _ _ _ _ A1 o K2) as (k & K3 & K4 & K5).
        destruct (same_pos _ _ _ _ Ei K3) as [-> _]; [now rewrite lneg_var |]. lia.
      - destruct (same_pos _ _ _ _ Ei E1) as [-> ->]; [now rewrite E2 |]. exists i'. auto. }
    destruct (TopPos l0 I0 S0) as (i0 & Ei0 & Lvi0 & Li0).
    destruct (find_seen_ok s1 idx i0 l0 Et Ei0 ltac:(lia) S0 Li) as (i & E & Li1 & Li2 & Sp & Above). rewrite E. cbn [rbind]. clear E. rewrite Et.
    set (p := nth i T 0) in *. assert (Ep : nth_error T i = Some p) by (apply nth_err_def; lia).
    assert (Lvp : lv lim i = DL). { pose proof (lv_mono lim i0 i Li1). pose proof (lv_le_len lim i). lia. }
    assert (Ip : In p X) by (eapply in_top; eauto).
    assert (Rp : lvar p < length (s_seen s1)).
    { rewrite (a_len _ _ _ _ _ A1). apply seen_range. apply lvar_lt, (t_valid _ _ _ _ _ _ _ _ TI). eapply nth_error_In; eauto. }
    pose proof (cnt_clear _ _ p nd_top Ip Sp Rp) as Cc. rewrite <- (a_pc _ _ _ _ _ A1) in Cc.
    destruct pc1 as [| pc2]; [lia |]. assert (Cp : pc2 = cnt (upd (s_seen s1) (lvar p) false) X) by lia.
    set (s2 := set_seen (upd (s_seen s1) (lvar p) false) s1). assert (F2 : aframe st s2) by (apply aframe_seen; auto; rewrite upd_length; apply A1).
    assert (Es2 : s_seen s2 = upd (s_seen s1) (lvar p) false) by reflexivity.
    assert (NpO : ~ In (lvar p) (map lvar O1)).
    { intros K. apply in_map_iff in K. destruct K as (o & K1 & K2). destruct (a_O _ _ _ _ _ A1 o K2) as (k & K3 & K4 & K5).
      destruct (same_pos _ _ _ _ Ep K3) as [-> _]; [now rewrite lneg_var |]. lia. }
    assert (Seen2 : forall v, nth v (s_seen s2) false = true -> In v (map lvar O1) \/ exists i' l, nth_error T i' = Some l /\ lvar l = v /\ lv lim i' = DL /\ i' < i).
    { intros v Hv. rewrite Es2 in Hv. destruct (Nat.eq_dec (lvar p) v) as [<- | N]; [rewrite nth_upd_eq in Hv by auto; discriminate |]. rewrite nth_upd_neq in Hv by auto.
      destruct (a_seen _ _ _ _ _ A1 v Hv) as [K | (i' & l & K1 & K2 & K3 & K4)]; [auto |]. right. exists i', l. repeat (split; [auto |]).
      destruct (Nat.lt_trichotomy i' i) as [| [-> | K]]; auto; [| exfalso].
      - exfalso. apply N. rewrite <- K2. assert (l = p) by congruence. now subst.
      - rewrite <- K2, (Above i' l) in Hv; auto; [discriminate | lia]. }
    assert (Os2 : forall q, In q O1 -> nth (lvar q) (s_seen s2) false = true).
    { intros q Hq. rewrite Es2, nth_upd_neq; [now apply (a_Os _ _ _ _ _ A1) |]. intros K. apply NpO. rewrite K. now apply in_map. }
    assert (Rs : pc2 <> 0 -> exists c', reason s1 p = Some c' /\ reason_ok F (length (s_vars st)) (s_arena st) T i p c').
    { intros N. destruct (cnt_pos (s_seen s2) X) as (l1 & H1 & H2); [rewrite Es2; lia |].
      assert (Hj : exists j, nth_error T j = Some l1 /\ lv lim j = DL /\ j < i).
      { destruct (top_in l1 H1) as (j & E1 & E2). exists j. repeat (split; [auto |]). destruct (Seen2 _ H2) as [K | (i' & l & K1 & K2 & K3 & K4)].
        - exfalso. apply in_map_iff in K. destruct K as (o & K1 & K2). destruct (a_O _ _ _ _ _ A1 o K2) as (k & K3 & K4 & K5).
          destruct (same_pos _ _ _ _ E1 K3) as [-> _]; [now rewrite lneg_var |]. lia.
        - destruct (same_pos _ _ _ _ E1 K1) as [-> _]; auto. }
      destruct Hj as (j & E1 & E2 & E3). assert (Pi : 0 < lv lim i) by (unfold dlevel in D; lia).
      pose proof (t_reason _ _ _ _ _ _ _ _ TI i p Ep Pi) as TR. unfold reason. rewrite Er. destruct (nth (lvar p) (s_reasons st) None) as [c' |] eqn:Ec'.
      - exists c'. auto.
      - exfalso. specialize (TR j E3). lia. }
    destruct pc2 as [| pc3].
    - cbn [Nat.eqb negb andb]. cbn [rspec resolved]. split; [exact F2 |]. split; [exists i; auto |]. split; [apply A1 |]. split; [apply A1 |]. split.
      + intros v. split; intros Hv.
        * destruct (Seen2 v Hv) as [K | (i' & l & K1 & K2 & K3 & K4)]; auto. exfalso.
          assert (K5 : nth (lvar l) (s_seen s2) false = false) by (apply (cnt_zero _ X); [rewrite Es2; auto | eapply in_top; eauto]). rewrite K2 in K5. congruence.
        * apply in_map_iff in Hv. destruct Hv as (o & <- & Ho). auto.
      + apply entP_list. eapply entP_weak; [exact (a_ent _ _ _ _ _ A1) |]. intros l [K | [[K1 K2] | []]]; [right; auto |]. left.
        destruct (Nat.eq_dec (lvar p) (lvar l)) as [E | N].
        * destruct (top_in _ K1) as (k & K3 & _). destruct (same_pos _ _ _ _ Ep K3) as [_ ->]; [rewrite lneg_var; auto |]. now rewrite lneg_inv.
        * exfalso. assert (K3 : nth (lvar (lneg l)) (upd (s_seen s1) (lvar p) false) false = false) by (apply (cnt_zero _ X); auto).
          rewrite lneg_var, nth_upd_neq in K3 by auto. congruence.
    - destruct (Rs ltac:(lia)) as (c' & Ec' & (cl' & rest & R1 & R2 & R3 & R4)). rewrite Ec'. cbn [Nat.eqb negb is_none andb].
      apply (IH c' false i (S pc3) O1 s2 i); auto; [| lia]. exists cl'. split; auto. rewrite R3. cbn [tl]. split; [| split].
      + destruct A1 as [B1 B2 B3 B4 B5 B6 B7]. constructor; auto.
        * rewrite Es2, upd_length. auto.
        * intros V HV. destruct (B7 V HV) as (l & [K | [[K1 K2] | []]] & Tl); [exists l; auto |].
          destruct (Nat.eq_dec (lvar p) (lvar l)) as [E | N].
          -- assert (El2 : l = lneg p). { destruct (top_in _ K1) as (k & K3 & _). destruct (same_pos _ _ _ _ Ep K3) as [_ ->]; [rewrite lneg_var; auto |]. now rewrite lneg_inv. }
             subst l. apply lit_true_neg in Tl. destruct (gc_ent _ _ _ R2 V HV) as (x & Hx & Tx). rewrite R3 in Hx. destruct Hx as [<- | Hx]; [contradiction |]. exists x. auto.
          -- exists l. split; auto. right. left. split; auto. rewrite Es2, nth_upd_neq; auto.
      + exact R4.
      + left. lia.
  Qed.
End Analyze.

(** ** Minimization *)
Lemma clear_length : forall ls sn, length (clear_seen ls sn) = length sn.
Proof. induction ls as [| l r IH]; intros sn; cbn; auto. now rewrite IH, upd_length. Qed.
Lemma clear_nth : forall ls sn v, nth v (clear_seen ls sn) false = true <-> nth v sn false = true /\ ~ In v (map lvar ls).
Proof.
  induction ls as [| l r IH]; intros sn v; cbn [clear_seen map In]; [tauto |]. rewrite IH. destruct (Nat.eq_dec (lvar l) v) as [E | N].
  - subst v. destruct (Nat.lt_ge_cases (lvar l) (length sn)) as [L | L].
    + rewrite nth_upd_eq by auto. split; [intros [K _]; discriminate | intros [_ K]; exfalso; auto].
    + rewrite nth_overflow by (rewrite upd_length; lia). split; [intros [K _]; discriminate | intros [_ K]; exfalso; auto].
  - rewrite nth_upd_neq by auto. tauto.
Qed.
Lemma bool_ext : forall a b : bool, (a = true <-> b = true) -> a = b.
Proof. intros [|] [|] H; auto; try (symmetry; now apply H); now apply H. Qed.

Section Minimize.
  Variables (F : list (list nat)) (q0 : nat) (st : solver).
  Hypothesis I : inv F q0 st.
  Local Notation T := (s_trail st).
  Local Notation lim := (s_lim st).
  Local Notation TI := (i_t _ _ _ I).

  Definition tlit (q : nat) : Prop := exists j, nth_error T j = Some (lneg q) /\ 0 < lv lim j.
  Definition just (sn : list bool) (v : nat) : Prop :=
    exists i l c cl rest, nth_error T i = Some l /\ lvar l = v /\ nth_error (s_arena st) c = Some cl /\ goodcl F (length (s_vars st)) cl /\ c_data cl = l :: rest /\
      forall r, In r rest -> exists j, j < i /\ nth_error T j = Some (lneg r) /\ (lv lim j = 0 \/ nth (lvar r) sn false = true).
  Definition well (sn : list bool) : Prop := forall v, nth v sn false = true -> exists q, tlit q /\ lvar q = v.
  Definition J (K : nat -> Prop) (sn : list bool) : Prop := forall v, nth v sn false = true -> K v \/ just sn v.
  Lemma just_mono : forall sn sn' v, (forall w, nth w sn false = true -> nth w sn' false = true) -> just sn v -> just sn' v.
  Proof.
    intros sn sn' v H (i & l & c & cl & rest & K1 & K2 & K3 & K4 & K5 & K6). exists i, l, c, cl, rest. repeat (split; [assumption |]).
    intros r Hr. destruct (K6 r Hr) as (j & A & B & [C | C]); exists j; auto.
  Qed.
  Lemma tlit_pos : forall q j, tlit q -> nth_error T j = Some (lneg q) -> 0 < lv lim j.
  Proof. intros q j (i & E & L) E'. destruct (same_pos _ _ _ I _ _ _ _ E E' eq_refl) as [-> _]. exact L. Qed.
  Lemma tlit_lt : forall q, tlit q -> lvar q < length (s_seen st).
  Proof. intros q (i & E & L). eapply seen_range; eauto. eapply lit_range; eauto. Qed.

  Lemma reason_rest : forall q c, tlit q -> reason st q = Some c -> exists i cl rest, nth_error T i = Some (lneg q) /\ nth_error (s_arena st) c = Some cl /\
    goodcl F (length (s_vars st)) cl /\ c_data cl = lneg q :: rest /\ forall r, In r rest -> exists j, j < i /\ nth_error T j = Some (lneg r).
  Proof.
    intros q c (i & E & L) R. pose proof (t_reason _ _ _ _ _ _ _ _ TI i _ E L) as TR. unfold reason in R. rewrite lneg_var, R in TR.
    destruct TR as (cl & rest & A & B & C & G). exists i, cl, rest. auto.
  Qed.

  Lemma red_lits_ok : forall al qs stack clr sn, length sn = length (s_seen st) -> (forall q, In q qs -> exists j, nth_error T j = Some (lneg q)) ->
    exists g add sn', red_lits st al qs stack clr sn = Ok (g, rev add ++ stack, clr ++ add, sn') /\ length sn' = length sn /\
      (forall a, In a add -> tlit a /\ reason st a <> None /\ nth (lvar a) sn false = false) /\
      (forall v, nth v sn' false = true <-> nth v sn false = true \/ In v (map lvar add)) /\
      (g = true -> forall q j, In q qs -> nth_error T j = Some (lneg q) -> lv lim j = 0 \/ nth (lvar q) sn' false = true).
  Proof.
    intros al. induction qs as [| q r IH]; intros stack clr sn Ls Hq; cbn [red_lits].
    - exists true, [], sn. rewrite app_nil_r. cbn. repeat split; auto; try contradiction; intros; try contradiction. destruct H; [auto | contradiction].
    - destruct (Hq q (or_introl eq_refl)) as (j & Ej). assert (Hr : forall q', In q' r -> exists j, nth_error T j = Some (lneg q')) by (intros; apply Hq; right; auto).
      rewrite (lit_lgz _ _ _ I j q Ej).
      assert (Skip : nth (lvar q) sn false = true \/ lv lim j = 0 ->
        exists g add sn', red_lits st al r stack clr sn = Ok (g, rev add ++ stack, clr ++ add, sn') /\ length sn' = length sn /\
        (forall a, In a add -> tlit a /\ reason st a <> None /\ nth (lvar a) sn false = false) /\
        (forall v, nth v sn' false = true <-> nth v sn false = true \/ In v (map lvar add)) /\
        (g = true -> forall q' j', In q' (q :: r) -> nth_error T j' = Some (lneg q') -> lv lim j' = 0 \/ nth (lvar q') sn' false = true)).
      { intros Hs. destruct (IH stack clr sn Ls Hr) as (g & add & sn' & H1 & H2 & H3 & H4 & H5). exists g, add, sn'. repeat (split; [assumption |]).
        intros Hg q' j' [<- | Hi] E'; [| now apply H5]. destruct (same_pos _ _ _ I _ _ _ _ Ej E' eq_refl) as [<- _]. destruct Hs; [right; apply H4; auto | auto]. }
      destruct (nth (lvar q) sn false) eqn:Sq; cbn [negb andb]; [apply Skip; auto |].
      destruct (Nat.ltb_spec 0 (lv lim j)) as [Lp | Lz]; [| apply Skip; right; lia].
      assert (Stop : exists g add sn', Ok (false, stack, clr, sn) = Ok (g, rev add ++ stack, clr ++ add, sn') /\ length sn' = length sn /\
        (forall a, In a add -> tlit a /\ reason st a <> None /\ nth (lvar a) sn false = false) /\
        (forall v, nth v sn' false = true <-> nth v sn false = true \/ In v (map lvar add)) /\
        (g = true -> forall q' j', In q' (q :: r) -> nth_error T j' = Some (lneg q') -> lv lim j' = 0 \/ nth (lvar q') sn' false = true)).
      { exists false, [], sn. rewrite app_nil_r. cbn. repeat split; auto; try contradiction; try discriminate. intros [K | []]; auto. }
      destruct (reason st q) as [c |] eqn:Rq; cbn [is_none]; [| exact Stop].
      unfold abstract_level. rewrite (lit_level _ _ _ I j q Ej). cbn [of_opt rbind].
      destruct (N.land _ al =? 0)%N; [exact Stop |].
      assert (Tq : tlit q) by (exists j; auto). assert (Lq : lvar q < length sn) by (rewrite Ls; now apply tlit_lt).
      assert (Su : forall v, nth v (upd sn (lvar q) true) false = true <-> nth v sn false = true \/ v = lvar q).
      { intros v. destruct (Nat.eq_dec (lvar q) v) as [<- | N]; [rewrite nth_upd_eq by auto; tauto | rewrite nth_upd_neq by auto; intuition congruence]. }
      destruct (IH (q :: stack) (clr ++ [q]) (upd sn (lvar q) true)) as (g & add & sn' & H1 & H2 & H3 & H4 & H5); [now rewrite upd_length | auto |].
      exists g, (q :: add), sn'. split; [rewrite H1; cbn [rev]; now rewrite <- !app_assoc |]. split; [now rewrite H2, upd_length |]. split; [| split].
      + intros a [<- | Ha]; [split; auto; split; [congruence | auto] |]. destruct (H3 a Ha) as (K1 & K2 & K3). split; auto. split; auto.
        destruct (nth (lvar a) sn false) eqn:Sa; auto. exfalso. rewrite (proj2 (Su (lvar a)) (or_introl Sa)) in K3. discriminate.
      + intros v. rewrite H4, Su. cbn [map In]. intuition auto.
      + intros Hg q' j' [<- | Hi] E'; [| now apply H5]. right. apply H4. left. apply Su. auto.
  Qed.

  Lemma red_loop_ok : forall al (K : nat -> Prop) sn0, (forall v, nth v sn0 false = true -> v < length sn0) -> forall fuel stack clr sn,
    length sn = length (s_seen st) -> (forall x, In x stack -> tlit x /\ reason st x <> None) ->
    (forall v, nth v sn false = true <-> nth v sn0 false = true \/ In v (map lvar clr)) -> (forall x, In x clr -> nth (lvar x) sn0 false = false) ->
    well sn -> J (fun v => K v \/ In v (map lvar stack)) sn ->
    rspec (red_loop fuel st al stack clr sn) (fun r => let '(g, clr', sn') := r in length sn' = length (s_seen st) /\
      if g then well sn' /\ J K sn' /\ (forall v, nth v sn' false = true <-> nth v sn0 false = true \/ In v (map lvar clr'))
      else clr' = [] /\ forall v, nth v sn' false = nth v sn0 false).
  Proof.
    intros al K sn0 _. induction fuel as [| fu IH]; intros stack clr sn Ls Hs Hn Hc Hw Hj; [exact Logic.I |]. cbn [red_loop].
    destruct stack as [| last stk].
    - cbn. split; auto. split; auto. split; auto. intros v Hv. destruct (Hj v Hv) as [[H | []] | H]; auto.
    - destruct (Hs last (or_introl eq_refl)) as [Tl Rl]. destruct (reason st last) as [c |] eqn:Ec; [| congruence]. clear Rl.
      destruct (reason_rest last c Tl Ec) as (i & cl & rest & Ei & Ecl & Gcl & Ed & Rr).
      replace (tl (c_data (cl_at st c))) with rest by (unfold cl_at; rewrite (nth_of_some _ _ _ _ dcl Ecl), Ed; reflexivity).
      destruct (red_lits_ok al rest stk clr sn Ls) as (g & add & sn1 & E & L1 & Ha & Hs1 & Hg).
      { intros q Hq. destruct (Rr q Hq) as (j & _ & Ej). eauto. }
      rewrite E. cbn [rbind]. clear E. assert (Mono : forall w, nth w sn false = true -> nth w sn1 false = true) by (intros; apply Hs1; auto).
      assert (Hn1 : forall v, nth v sn1 false = true <-> nth v sn0 false = true \/ In v (map lvar (clr ++ add))).
      { intros v. rewrite Hs1, Hn, map_app, in_app_iff. tauto. }
      assert (Hc1 : forall x, In x (clr ++ add) -> nth (lvar x) sn0 false = false).
      { intros x Hx. apply in_app_or in Hx. destruct Hx as [Hx | Hx]; auto. destruct (Ha x Hx) as (_ & _ & Sx).
        destruct (nth (lvar x) sn0 false) eqn:S0; auto. exfalso. rewrite (proj2 (Hn (lvar x)) (or_introl S0)) in Sx. discriminate. }
      destruct g.
      + apply IH; auto.
        * congruence.
        * intros x Hx. apply in_app_or in Hx. destruct Hx as [Hx | Hx]; [apply in_rev in Hx; split; apply Ha; auto | apply Hs; right; auto].
        * intros v Hv. apply Hs1 in Hv. destruct Hv as [Hv | Hv]; auto. apply in_map_iff in Hv. destruct Hv as (a & <- & Hv). exists a. split; auto. now apply Ha.
        * intros v Hv. apply Hs1 in Hv. destruct Hv as [Hv | Hv].
          -- destruct (Hj v Hv) as [[H | [<- | H]] | H].
             ++ auto.
             ++ right. exists i, (lneg last), c, cl, rest. rewrite lneg_var. repeat (split; [first [assumption | reflexivity] |]). intros r Hr. destruct (Rr r Hr) as (j & Lj & Ej).
                exists j. split; [exact Lj |]. split; [exact Ej |]. now apply Hg.
             ++ left. right. rewrite map_app, in_app_iff. auto.
             ++ right. eapply just_mono; eauto.
          -- left. right. rewrite map_app, in_app_iff, map_rev, <- in_rev. auto.
      + cbn. split; [rewrite clear_length; congruence |]. split; auto. intros v. apply bool_ext. rewrite clear_nth, Hn1. split; [tauto |].
        intros S0. split; auto. intros Hi. apply in_map_iff in Hi. destruct Hi as (x & <- & Hx). rewrite (Hc1 x Hx) in S0. discriminate.
  Qed.

  Lemma min_deep_ok : forall fuel al ls kept clr sn, length sn = length (s_seen st) -> (forall x, In x ls -> tlit x) -> NoDup (map lvar (kept ++ ls)) ->
    (forall v, nth v sn false = true -> In v (map lvar clr)) -> well sn -> J (fun v => In v (map lvar (kept ++ ls))) sn ->
    rspec (min_deep fuel st al ls kept clr sn) (fun r => let '(kept', clr', sn') := r in length sn' = length (s_seen st) /\ NoDup (map lvar kept') /\
      (forall x, In x kept' -> In x (kept ++ ls)) /\ (forall v, nth v sn' false = true -> In v (map lvar clr')) /\ well sn' /\ J (fun v => In v (map lvar kept')) sn' /\
      (forall v, nth v sn false = true -> nth v sn' false = true)).
  Proof.
    intros fuel al. induction ls as [| l r IH]; intros kept clr sn Ls Ht Nd Hc Hw Hj; cbn [min_deep].
    - rewrite app_nil_r in *. cbn. auto 10.
    - assert (Tl : tlit l) by (apply Ht; left; auto). assert (Hr : forall x, In x r -> tlit x) by (intros; apply Ht; right; auto).
      assert (Keep : forall clr1 sn1, length sn1 = length (s_seen st) -> (forall v, nth v sn1 false = nth v sn false) ->
        rspec (min_deep fuel st al r (kept ++ [l]) (clr ++ clr1) sn1) (fun r0 => let '(kept', clr', sn') := r0 in length sn' = length (s_seen st) /\ NoDup (map lvar kept') /\
          (forall x, In x kept' -> In x (kept ++ l :: r)) /\ (forall v, nth v sn' false = true -> In v (map lvar clr')) /\ well sn' /\ J (fun v => In v (map lvar kept')) sn' /\
          (forall v, nth v sn false = true -> nth v sn' false = true))).
      { intros clr1 sn1 L1 H1. eapply rspec_weak; [apply IH; auto |].
        - now rewrite <- app_assoc.
        - intros v Hv. rewrite H1 in Hv. rewrite map_app, in_app_iff. auto.
        - intros v Hv. rewrite H1 in Hv. auto.
        - intros v Hv. rewrite H1 in Hv. rewrite <- app_assoc. destruct (Hj v Hv) as [K | K]; auto. right. eapply just_mono; [| exact K]. intros w. now rewrite H1.
        - intros [[kept' clr'] sn'] (A1 & A2 & A3 & A4 & A5 & A6 & A7). repeat (split; [assumption |]). split; [| repeat (split; [assumption |])].
          + intros x Hx. apply A3 in Hx. now rewrite <- app_assoc in Hx.
          + intros v Hv. apply A7. now rewrite H1. }
      destruct (reason st l) as [c |] eqn:Ec; cbn [is_none].
      + unfold lit_redundant. eapply rspec_bind.
        * apply (red_loop_ok al (fun v => In v (map lvar (kept ++ r))) sn); auto.
          -- intros v Hv. destruct (Nat.lt_ge_cases v (length sn)); auto. rewrite nth_overflow in Hv by lia. discriminate.
          -- intros x [<- | []]. split; auto. congruence.
          -- intros v. cbn. tauto.
          -- intros x [].
          -- intros v Hv. destruct (Hj v Hv) as [K | K]; auto. left. rewrite map_app in *. cbn [map] in K. apply in_app_or in K.
             destruct K as [K | [<- | K]]; [left; apply in_or_app; auto | right; cbn; auto | left; apply in_or_app; auto].
        * intros [[g clr1] sn1] [L1 H]. destruct g.
          -- destruct H as (W1 & J1 & S1). eapply rspec_weak; [apply IH; auto |].
             ++ rewrite map_app in *. cbn [map] in Nd. now apply NoDup_remove_1 in Nd.
             ++ intros v Hv. apply S1 in Hv. rewrite map_app, in_app_iff. destruct Hv; auto.
             ++ intros [[kept' clr'] sn'] (A1 & A2 & A3 & A4 & A5 & A6 & A7). repeat (split; [assumption |]). split; [| repeat (split; [assumption |])].
                ** intros x Hx. apply A3 in Hx. apply in_app_or in Hx. apply in_or_app. cbn. destruct Hx; auto.
                ** intros v Hv. apply A7, S1. auto.
          -- destruct H as [-> H]. apply Keep; auto.
      + rewrite <- (app_nil_r clr). apply Keep; auto.
  Qed.

  (** Removed literals are implied by the kept ones. *)
  Lemma min_sound : forall sn kept V, well sn -> J (fun v => In v (map lvar kept)) sn -> (forall k, In k kept -> tlit k) -> all_true V F ->
    (forall k, In k kept -> ~ lit_true V k) -> forall i l, nth_error T i = Some l -> nth (lvar l) sn false = true -> lit_true V l.
  Proof.
    intros sn kept V Hw Hj Hk HV Hf. induction i as [i IH] using lt_wf_ind. intros l El Sl. destruct (Hj _ Sl) as [K | K].
    - apply in_map_iff in K. destruct K as (k & K1 & K2). destruct (Hk k K2) as (j & Ej & _).
      destruct (same_pos _ _ _ I _ _ _ _ El Ej) as [_ ->]; [now rewrite lneg_var |]. apply lit_true_neg. auto.
    - destruct K as (i' & l' & c & cl & rest & K1 & K2 & K3 & K4 & K5 & K6). destruct (same_pos _ _ _ I _ _ _ _ El K1 (eq_sym K2)) as [<- <-].
      destruct (gc_ent _ _ _ K4 V HV) as (x & Hx & Tx). rewrite K5 in Hx. destruct Hx as [<- | Hx]; auto. exfalso.
      destruct (K6 x Hx) as (j & Lj & Ej & [Z | Sx]).
      + destruct (t_ent0 _ _ _ _ _ _ _ _ TI j _ Ej Z V HV) as (y & [<- | []] & Hy). now apply lit_true_neg in Hy.
      + apply (lit_true_neg V x); auto. apply (IH j Lj); auto. now rewrite lneg_var.
  Qed.

  Lemma basic_ok : forall sn out, s_seen st = sn -> (forall x, In x out -> tlit x) -> (forall v, nth v sn false = true <-> In v (map lvar out)) ->
    J (fun v => In v (map lvar (filter (basic_keep st) out))) sn.
  Proof.
    intros sn out Es Ht Hs v Hv. apply Hs in Hv. apply in_map_iff in Hv. destruct Hv as (l & <- & Hl). destruct (basic_keep st l) eqn:B.
    - left. apply in_map. apply filter_In. auto.
    - right. unfold basic_keep in B. destruct (reason st l) as [c |] eqn:Ec; [| discriminate].
      destruct (reason_rest l c (Ht l Hl) Ec) as (i & cl & rest & Ei & Ecl & Gcl & Ed & Rr). exists i, (lneg l), c, cl, rest. rewrite lneg_var.
      repeat (split; [first [assumption | reflexivity] |]). intros r Hr. destruct (Rr r Hr) as (j & Lj & Ej). exists j. split; auto. split; auto.
      unfold cl_at in B. rewrite (nth_of_some _ _ _ _ dcl Ecl), Ed in B. cbn [tl] in B.
      destruct (negb (nth (lvar r) (s_seen st) false) && lgz st r) eqn:Br; [exfalso; rewrite <- not_true_iff_false in B; apply B; apply existsb_exists; eauto |].
      rewrite (lit_lgz _ _ _ I j r Ej), Es in Br. apply andb_false_iff in Br. destruct Br as [Br | Br]; [right; now apply negb_false_iff | left; apply Nat.ltb_ge in Br; lia].
  Qed.

  Lemma abstract_levels_ok : forall out, (forall x, In x out -> tlit x) -> exists al, abstract_levels st out = Ok al.
  Proof.
    induction out as [| l r IH]; intros H; cbn [abstract_levels]; [eauto |]. destruct (H l (or_introl eq_refl)) as (j & Ej & _).
    unfold abstract_level at 1. rewrite (lit_level _ _ _ I j l Ej). cbn [of_opt rbind]. destruct IH as (al & E); [intros; apply H; right; auto |]. rewrite E. cbn. eauto.
  Qed.

  (** The literal with the highest level. *)
  Lemma max_level_ok : forall out, (forall x, In x out -> tlit x) -> forall ls k m, skipn k out = ls -> m < k -> k <= length out ->
    (forall i x j, i < k -> nth_error out i = Some x -> nth_error T j = Some (lneg x) -> exists jm, nth_error T jm = Some (lneg (nth m out 0)) /\ lv lim j <= lv lim jm) ->
    exists m', max_level st out k m ls = m' /\ m' < length out /\
      forall i x j, nth_error out i = Some x -> nth_error T j = Some (lneg x) -> exists jm, nth_error T jm = Some (lneg (nth m' out 0)) /\ lv lim j <= lv lim jm.
  Proof.
    intros out Ho. induction ls as [| l r IH]; intros k m Es Lm Lk H; cbn [max_level].
    - exists m. split; auto. assert (length out <= k). { pose proof (f_equal (@length nat) Es) as K. rewrite skipn_length in K. cbn in K. lia. }
      split; [lia |]. intros i x j E. apply (H i x j); auto. apply nth_some_lt in E. lia.
    - assert (El : nth_error out k = Some l) by (rewrite <- (Nat.add_0_r k), <- nth_skipn, Es; reflexivity).
      assert (Lk' : k < length out) by (eapply nth_some_lt; eauto).
      assert (Es' : skipn (S k) out = r). { clear -Es. revert k Es. induction out as [| a out IHo]; intros [| k] Es; cbn in *; try discriminate; [congruence | auto]. }
      destruct (Ho l (nth_error_In _ _ El)) as (jl & Ejl & _). assert (Im : nth_error out m = Some (nth m out 0)) by (apply nth_err_def; lia).
      destruct (Ho _ (nth_error_In _ _ Im)) as (jm & Ejm & _).
      rewrite (lit_level _ _ _ I _ _ Ejl), (lit_level _ _ _ I _ _ Ejm). cbn [lvl_lt].
      destruct (Nat.ltb_spec (lv lim jm) (lv lim jl)) as [Lt | Ge]; apply IH; auto; try lia; intros i x j Li Ei Ex.
      + exists jl. rewrite (nth_of_some _ _ _ _ 0 El). split; auto. destruct (Nat.eq_dec i k) as [-> | N].
        * assert (x = l) by congruence. subst x. destruct (same_pos _ _ _ I _ _ _ _ Ex Ejl eq_refl) as [-> _]. lia.
        * destruct (H i x j ltac:(lia) Ei Ex) as (jm' & K1 & K2). destruct (same_pos _ _ _ I _ _ _ _ Ejm K1 eq_refl) as [-> _]. lia.
      + exists jm. split; auto. destruct (Nat.eq_dec i k) as [-> | N].
        * assert (x = l) by congruence. subst x. destruct (same_pos _ _ _ I _ _ _ _ Ex Ejl eq_refl) as [-> _]. lia.
        * destruct (H i x j ltac:(lia) Ei Ex) as (jm' & K1 & K2). destruct (same_pos _ _ _ I _ _ _ _ Ejm K1 eq_refl) as [-> _]. lia.
  Qed.
End Minimize.

Lemma swap0 : forall l m, m < length l -> exists rest, swap l m 0 = nth m l 0 :: rest /\ Permutation l (nth m l 0 :: rest).
Proof.
  intros [| x r] m H; [cbn in H; lia |]. unfold swap. cbn [nth]. destruct m as [| m]; cbn [upd].
  - exists r. split; auto.
  - exists (upd r m x). split; auto. cbn [length] in H. assert (Hm : m < length r) by lia. clear H. revert m Hm. induction r as [| y r IH]; intros m Hm; [cbn in Hm; lia |].
    destruct m as [| m]; cbn [nth upd]; [constructor |]. cbn [length] in Hm. specialize (IH m ltac:(lia)).
    transitivity (y :: x :: r); [constructor |]. transitivity (y :: nth m r 0 :: upd r m x); [now constructor | constructor].
Qed.

(** ** The learnt clause *)
Definition learnt_ok (F : list (list nat)) (st : solver) (r : list nat * solver) : Prop :=
  let '(ls, s) := r in exists p rest s0, ls = lneg p :: rest /\ aframe st s0 /\ s = set_bt (s_bt s) s0 /\ unseen s /\ entails F ls /\ NoDup ls /\
    (exists i, nth_error (s_trail st) i = Some p /\ lv (s_lim st) i = length (s_lim st)) /\ s_bt s < length (s_lim st) /\
    (forall x, In x rest -> exists j, nth_error (s_trail st) j = Some (lneg x) /\ 0 < lv (s_lim st) j /\ lv (s_lim st) j <= s_bt s) /\
    match rest with [] => s_bt s = 0 | x :: _ => exists j, nth_error (s_trail st) j = Some (lneg x) /\ lv (s_lim st) j = s_bt s end.

Lemma simplify_clause_ok : forall cfg F q0 fuel st p out s, g_min cfg <> MinNone -> inv F q0 st -> 0 < dlevel st -> resolved F st (p, out, s) ->
  rspec (simplify_clause cfg fuel (lneg p) out s) (learnt_ok F st).
Proof.
  intros cfg F q0 fuel st p out s Hm I0 D (FR & (ip & Eip & Lip) & HO & Nd & Hs & Ent).
  pose proof (aframe_inv _ _ _ _ I0 FR) as I. destruct (aframe_fix _ _ FR) as (Ev & Et & El & Er & Ea). unfold dlevel in D. rewrite <- El, <- Et in *.
  assert (HT : forall x, In x out -> tlit s x). { intros x Hx. destruct (HO x Hx) as (j & A & B & C). exists j. auto. }
  assert (Hw : well s (s_seen s)). { intros v Hv. apply Hs in Hv. apply in_map_iff in Hv. destruct Hv as (x & E & Hx). eauto. }
  assert (HJ : J F s (fun v => In v (map lvar out)) (s_seen s)) by (intros v Hv; left; now apply Hs).
  assert (Fin : forall kept clr sn, length sn = length (s_seen s) -> NoDup (map lvar kept) -> (forall x, In x kept -> In x out) ->
    (forall v, nth v sn false = true -> In v (map lvar clr)) -> well s sn -> J F s (fun v => In v (map lvar kept)) sn -> (forall v, nth v (s_seen s) false = true -> nth v sn false = true) ->
    rspec (match kept with
      | [] => Ok ([lneg p], set_bt 0 (set_seen (clear_seen clr sn) s))
      | _ :: r => let m := max_level s kept 1 0 r in
        rbind (of_opt (level_of s (nth m kept 0))) (fun b => Ok (lneg p :: swap kept m 0, set_bt b (set_seen (clear_seen clr sn) s)))
      end) (learnt_ok F st)).
  { intros kept clr sn L1 N1 Sub C1 W1 J1 M1.
    assert (Un : unseen (set_seen (clear_seen clr sn) s)).
    { intros v. unfold unseen. ssimp. apply bool_ext. rewrite clear_nth. split; [intros [A B]; exfalso; auto | discriminate]. }
    assert (FR' : aframe st (set_seen (clear_seen clr sn) s)).
    { apply aframe_seen; auto. rewrite clear_length, L1. destruct FR as (h & a & tk & sn0 & -> & K). unfold actx. ssimp. apply K. }
    assert (Ent' : entails F (lneg p :: kept)).
    { intros V HV. destruct (Ent V HV) as (x & [<- | Hx] & Tx); [exists (lneg p); cbn; auto |].
      destruct (existsb (fun k => if lit_true_dec V k then true else false) kept) eqn:Ex.
      - apply existsb_exists in Ex. destruct Ex as (k & Hk & E). destruct (lit_true_dec V k); [exists k; cbn; auto | discriminate].
      - exfalso. destruct (HT x Hx) as (j & Ej & _). apply (lit_true_neg V x); auto.
        apply (min_sound F q0 s I sn kept V) with (i := j); auto.
        + intros k Hk Tk. rewrite <- not_true_iff_false in Ex. apply Ex. apply existsb_exists. exists k. split; auto. destruct (lit_true_dec V k); auto.
        + rewrite lneg_var. apply M1, Hs. now apply in_map. }
    assert (NP : forall x, In x out -> x <> lneg p).
    { intros x Hx ->. destruct (HO _ Hx) as (j & A & B & C). rewrite lneg_inv in A. destruct (same_pos _ _ _ I _ _ _ _ A Eip eq_refl) as [-> _]. lia. }
    destruct kept as [| k0 kr] eqn:Ek.
    - cbn [rspec learnt_ok]. exists p, [], (set_seen (clear_seen clr sn) s). ssimp. repeat (split; [first [reflexivity | assumption] |]).
      split; [constructor; [intros [] | constructor] |]. split; [exists ip; rewrite <- Et, <- El; auto |]. split; [rewrite <- El; lia |]. split; [intros x [] | reflexivity].
    - rewrite <- Ek in *. assert (Lk : 0 < length kept) by (rewrite Ek; cbn; lia). cbn zeta.
      destruct (max_level_ok F q0 s I kept (fun x Hx => HT x (Sub x Hx)) kr 1 0) as (m & -> & Lm & Max); try lia; [now rewrite Ek | |].
      { intros i x j Li Ei Ej. assert (i = 0) by lia. subst i. exists j. rewrite (nth_of_some _ _ _ _ 0 Ei). auto. }
      set (xm := nth m kept 0) in *. assert (Im : nth_error kept m = Some xm) by (apply nth_err_def; lia).
      destruct (HO xm (Sub _ (nth_error_In _ _ Im))) as (jm & Ejm & Lp & Ld). rewrite (lit_level _ _ _ I _ _ Ejm). cbn [of_opt rbind].
      destruct (swap0 kept m Lm) as (rest & Esw & Perm). fold xm in Esw, Perm. rewrite Esw.
      assert (InK : forall x, In x (xm :: rest) -> In x kept) by (intros x Hx; eapply Permutation_in; [symmetry |]; eauto).
      cbn [rspec learnt_ok]. exists p, (xm :: rest), (set_seen (clear_seen clr sn) s). ssimp. repeat (split; [first [reflexivity | assumption] |]). split; [| split; [| split; [| split; [| split]]]].
      + eapply ent_sub; [exact Ent' |]. intros x [-> | Hx]; [left; auto | right]. eapply Permutation_in; eauto.
      + constructor; [intros K; apply (NP (lneg p)); auto |]. eapply Permutation_NoDup; [exact Perm |]. eapply NoDup_map_inv; eauto.
      + exists ip. rewrite <- Et, <- El; auto.
      + rewrite <- El; auto.
      + intros x Hx. apply InK in Hx. destruct (HO x (Sub x Hx)) as (j & A & B & C). rewrite <- Et, <- El. exists j. split; auto. split; auto.
        apply In_nth_error in Hx. destruct Hx as [i Ei]. destruct (Max i x j Ei A) as (jm' & K1 & K2). destruct (same_pos _ _ _ I _ _ _ _ Ejm K1 eq_refl) as [-> _]. exact K2.
      + exists jm. rewrite <- Et, <- El. auto. }
  unfold simplify_clause. destruct (g_min cfg) eqn:Eg; [congruence | |].
  - cbn [rbind]. apply Fin; auto.
    + assert (G : forall X, NoDup (map lvar X) -> NoDup (map lvar (filter (basic_keep s) X))).
      { induction X as [| x r IH]; intros N; cbn [filter map]; auto. cbn [map] in N. apply NoDup_cons_iff in N. destruct N as [N1 N2]. destruct (basic_keep s x); cbn [map]; auto.
        constructor; auto. intros K. apply N1. apply in_map_iff in K. destruct K as (y & K1 & K2). rewrite <- K1. apply in_map. apply filter_In in K2. tauto. }
      auto.
    + intros x Hx. apply filter_In in Hx. tauto.
    + intros v Hv. right. now apply Hs.
    + apply (basic_ok F q0 s I); auto.
  - destruct (abstract_levels_ok F q0 s I out HT) as (al & E). rewrite E. cbn [rbind]. eapply rspec_bind.
    + apply (min_deep_ok F q0 s I fuel al out [] (lneg p :: out) (s_seen s)); auto. intros v Hv. right. now apply Hs.
    + intros [[kept clr] sn] (A1 & A2 & A3 & A4 & A5 & A6 & A7). apply Fin; auto.
Qed.

Theorem analyze_ok : forall cfg orc F q0 fuel st c, g_min cfg <> MinNone -> conflicting F q0 st c -> 0 < dlevel st -> unseen st ->
  rspec (analyze cfg orc fuel c st) (learnt_ok F st).
Proof.
  intros cfg orc F q0 fuel st c Hm (I & Hq & Lq & cl & x & p & Ec & Gc & Hf & Lx & Ex & Hp) D Un. unfold analyze.
  destruct (nth_error (s_lim st) (dlevel st - 1)) as [t0 |] eqn:Et0; [| apply nth_error_None in Et0; unfold dlevel in *; lia].
  eapply rspec_bind.
  - apply (analyze_loop_ok orc F q0 st I D t0 Et0 fuel c true _ 0 [] st (length (s_trail st))); [| | lia | lia].
    + apply aframe_refl. apply (proj1 (i_h _ _ _ I)).
    + exists cl. split; auto. split; [| split].
      * constructor; auto; try (intros; contradiction).
        -- constructor.
        -- intros v Hv. rewrite Un in Hv. discriminate.
        -- unfold cnt. replace (filter _ _) with (@nil nat); auto. symmetry. generalize (skipn t0 (s_trail st)). induction l as [| y r IH]; cbn [filter]; auto. now rewrite Un.
        -- intros V HV. destruct (gc_ent _ _ _ Gc V HV) as (l & A & B). exists l. auto.
      * intros q Hq'. specialize (Hf q Hq'). apply In_nth_error in Hf. destruct Hf as [j Ej]. exists j. split; auto. eapply nth_some_lt; eauto.
      * right. exists (lneg p), x. rewrite lneg_inv. split; auto. split; auto. apply (cur_level (i_t _ _ _ I)). lia.
  - intros [[p' out] s] H. eapply simplify_clause_ok; eauto.
Qed.
