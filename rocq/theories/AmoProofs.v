(** The at-most-one encodings (cc_amo_*.rs) are correct: any valuation of the clauses makes at most one of the variables
    true, and any valuation with at most one true variable extends to the new variables. *)
From Coq Require Import NArith ZArith List Bool Arith Lia.
From Verif Require Import Base EncodingModel Syntax FactoryModel CcModel EncBasics.
Import ListNotations.
Local Open Scope nat_scope.
Local Open Scope gen_scope.

(** [g] started in [st] encodes the condition [P]: its clauses imply [P], and every valuation with [P] satisfies them after
    giving values to the variables created by [g]. *)
Definition encodes {A} (st : ctrs) (g : G A) (P : valuation -> Prop) : Prop :=
  runs st g (fun _ st' cls => (forall b, sat b cls -> P b) /\ (forall a, P a -> exists b, agree st st' a b /\ sat b cls)).

Lemma emits_encodes : forall st g P, emits st g P -> encodes st g P.
Proof.
  intros st g P H. eapply runs_conseq; [exact H |]. cbn. intros _ st' cls _ _ [-> Hs]. split; [intros b; apply Hs |].
  intros a Ha. exists a. split; [apply agree_refl | now apply Hs].
Qed.

Lemma encodes_iff : forall A st (g : G A) P Q, encodes st g P -> (forall b, P b <-> Q b) -> encodes st g Q.
Proof.
  intros A st g P Q H E. eapply runs_conseq; [exact H |]. cbn. intros _ st' cls _ _ [Hs Hc].
  split; [intros b Hb; apply E; auto |]. intros a Ha. apply Hc. now apply E.
Qed.

Lemma emits_naive : forall xs st, olds st xs -> emits st (naive xs) (fun b => cnt b xs <= 1).
Proof.
  induction xs as [| x xs IH]; intros st H; cbn [naive].
  - eapply emits_iff; [apply emits_ret |]. cbn. intros b. split; [lia | auto].
  - apply olds_cons in H. destruct H as [Hx Hxs]. eapply emits_iff.
    + apply emits_seq; [| apply IH; assumption].
      apply emits_for with (P := fun y b => csat b [lit_negate x; lit_negate y]).
      intros y Hy. apply emits_add. apply olds_cons. rewrite lit_negate_var. split; [assumption |].
      apply olds_cons. rewrite lit_negate_var. split; [auto | apply olds_nil].
    + cbn [cnt]. intros b. split.
      * intros [H1 H2]. destruct (lit_sem b x) eqn:Ex; [| lia].
        assert (cnt b xs = 0); [| lia]. apply cnt_zero. intros y Hy. specialize (H1 y Hy).
        rewrite !csat_cons, !sem_neg_true in H1. destruct H1 as [H1 | [H1 | H1]]; [congruence | assumption |].
        now apply csat_nil in H1.
      * intros H. split; [| destruct (lit_sem b x); lia]. intros y Hy. rewrite !csat_cons, !sem_neg_true.
        destruct (lit_sem b x) eqn:Ex; [| now left]. right. left.
        assert (E : cnt b xs = 0) by lia. rewrite cnt_zero in E. auto.
Qed.

(* ------------------------------------------------------------------------------------------------------------------ *)
(** * Ladder *)

Ltac elems :=
  repeat first [ apply Forall2_nil | apply Forall2_cons ];
  repeat first [ apply elem_neg | apply elem_ix | apply elem_ok ]; auto; try lia.

Lemma firstn_S_tr : forall b xs i, cnt b (firstn (S i) xs) = cnt b (firstn i xs) + (if tr b xs i then 1 else 0).
Proof.
  intros b. induction xs as [| x xs IH]; intros i.
  - destruct i; reflexivity.
  - destruct i as [| i].
    + cbn. unfold tr. cbn. lia.
    + rewrite tr_cons. cbn [firstn cnt]. cbn [firstn] in IH. rewrite IH. lia.
Qed.

Lemma amo_ladder_ok : forall st xs, olds st xs -> 2 <= length xs -> encodes st (amo_ladder xs) (fun b => cnt b xs <= 1).
Proof.
  intros st xs Ho Hn. unfold amo_ladder. set (n := length xs) in *.
  eapply runs_bind; [apply runs_assert with (post := fun _ st' cls => st' = st /\ cls = []); [apply Nat.leb_le; lia | auto] |].
  intros _ ? cls _ _ [-> ->]. cbn [app].
  eapply runs_bind.
  { apply runs_allocs with (post := fun ys st' cls => cls = [] /\ length ys = n - 1 /\ olds st' ys /\ free_choice st st' ys).
    intuition. }
  intros ss st1 cls L1 _ (-> & Hlen & Hss & Hfc). cbn [app].
  assert (Hxs : olds st1 xs) by solds.
  eapply runs_conseq.
  { apply emits_for with (P := fun i b =>
      if i =? 0 then anyb [fun b => negb (tr b xs i); fun b => tr b ss 0] b = true
      else if i =? n - 1 then anyb [fun b => negb (tr b xs i); fun b => negb (tr b ss (i - 1))] b = true
      else anyb [fun b => negb (tr b xs i); fun b => tr b ss i] b = true
        /\ anyb [fun b => negb (tr b ss (i - 1)); fun b => tr b ss i] b = true
        /\ anyb [fun b => negb (tr b xs i); fun b => negb (tr b ss (i - 1))] b = true).
    intros i Hi. apply in_seq in Hi. destruct (Nat.eqb_spec i 0) as [-> | H0].
    - apply emits_elems. elems.
    - destruct (Nat.eqb_spec i (n - 1)) as [-> | H1].
      + apply emits_elems. elems.
      + apply emits_seq; [| apply emits_seq]; apply emits_elems; elems. }
  cbn [anyb]. intros _ st' cls _ _ [-> Hs]. split.
  - intros b Hb0. pose proof (proj1 (Hs b) Hb0) as Hb. apply cnt_le_one.
    assert (Hmain : forall i j, i < j -> tr b xs i = true -> tr b xs j = true -> False).
    { intros i j Hij Hi Hj. pose proof (tr_lt _ _ _ Hi) as Hi'. pose proof (tr_lt _ _ _ Hj) as Hj'. fold n in Hi', Hj'.
      assert (Hx : forall k, i <= k -> k < j -> tr b ss k = true).
      { intros k Hk. induction Hk as [| k Hk IHk]; intros Hkj.
        - specialize (Hb i). rewrite in_seq in Hb. specialize (Hb ltac:(lia)).
          destruct (Nat.eqb_spec i 0) as [E0 | H0].
          + rewrite E0 in Hi, Hb |- *. rewrite Hi in Hb. cbn in Hb. rewrite orb_false_r in Hb. exact Hb.
          + destruct (Nat.eqb_spec i (n - 1)) as [E | H1]; [lia |]. destruct Hb as [Hb _].
            rewrite Hi in Hb. cbn in Hb. rewrite orb_false_r in Hb. exact Hb.
        - specialize (IHk ltac:(lia)). specialize (Hb (S k)). rewrite in_seq in Hb. specialize (Hb ltac:(lia)).
          destruct (Nat.eqb_spec (S k) 0) as [E | H0]; [lia |].
          destruct (Nat.eqb_spec (S k) (n - 1)) as [E | H1]; [lia |]. destruct Hb as [_ [Hb _]].
          replace (S k - 1) with k in Hb by lia. rewrite IHk in Hb. cbn in Hb. rewrite orb_false_r in Hb. exact Hb. }
      specialize (Hx (j - 1) ltac:(lia) ltac:(lia)).
      specialize (Hb j). rewrite in_seq in Hb. specialize (Hb ltac:(lia)).
      destruct (Nat.eqb_spec j 0) as [E | H0]; [lia |].
      destruct (Nat.eqb_spec j (n - 1)) as [E | H1]; [| destruct Hb as [_ [_ Hb]]]; rewrite Hj, Hx in Hb; discriminate. }
    intros i j Hi Hj. destruct (lt_eq_lt_dec i j) as [[H | H] | H]; [exfalso; eauto | assumption | exfalso; eauto].
  - intros a Ha. destruct (Hfc a (fun i => 1 <=? cnt a (firstn (S i) xs))) as [b [Hag Hv]].
    exists b. split; [assumption |]. apply Hs. intros i Hi. apply in_seq in Hi.
    assert (Hx : forall k, tr b xs k = tr a xs k) by (intros k; eapply agree_tr; eauto).
    assert (Hmono : forall k, cnt a (firstn (S k) xs) <= cnt a xs).
    { intros k. rewrite (cnt_split a (S k) xs). lia. }
    destruct (Nat.eqb_spec i 0) as [-> | H0].
    + rewrite Hx, Hv by lia. rewrite firstn_S_tr. destruct (tr a xs 0); cbn; reflexivity.
    + destruct (Nat.eqb_spec i (n - 1)) as [-> | H1].
      * rewrite Hx, Hv by lia. pose proof (firstn_S_tr a xs (n - 1)) as E. pose proof (Hmono (n - 1)).
        replace (S (n - 1 - 1)) with (n - 1) by lia.
        destruct (tr a xs (n - 1)); [| reflexivity]. cbn [negb orb].
        destruct (Nat.leb_spec 1 (cnt a (firstn (n - 1) xs))); [lia | reflexivity].
      * rewrite Hx, !Hv by lia. pose proof (firstn_S_tr a xs i) as E. pose proof (Hmono i).
        replace (S (i - 1)) with i by lia.
        destruct (tr a xs i); cbn [negb orb]; destruct (Nat.leb_spec 1 (cnt a (firstn i xs)));
          destruct (Nat.leb_spec 1 (cnt a (firstn (S i) xs))); cbn; repeat split; try reflexivity; lia.
Qed.

(* ------------------------------------------------------------------------------------------------------------------ *)
(** * Product *)

Lemma sqrt_up_pos : forall n, 1 <= n -> 1 <= sqrt_up n.
Proof. intros n H. unfold sqrt_up. pose proof (Nat.sqrt_up_pos n). lia. Qed.
Lemma sqrt_up_lt : forall n, 3 <= n -> sqrt_up n < n.
Proof.
  intros n H. unfold sqrt_up. pose proof (Nat.sqrt_up_spec n ltac:(lia)) as [H1 H2].
  destruct (le_lt_dec n (Nat.sqrt_up n)) as [Hle |]; [| assumption]. exfalso.
  assert (n - 1 <= Nat.pred (Nat.sqrt_up n)) by lia. nia.
Qed.
Lemma sqrt_up_sq : forall n, n <= sqrt_up n * sqrt_up n.
Proof. intros [| n]; [lia |]. unfold sqrt_up. apply Nat.sqrt_up_spec. lia. Qed.
Lemma cdiv_spec : forall a b, 1 <= b -> a <= cdiv a b * b /\ cdiv a b * b < a + b.
Proof.
  intros a b H. unfold cdiv. pose proof (Nat.div_mod_eq (a + b - 1) b). pose proof (Nat.mod_upper_bound (a + b - 1) b). nia.
Qed.
Lemma cdiv_le : forall n, 1 <= n -> cdiv n (sqrt_up n) <= sqrt_up n.
Proof.
  intros n H. pose proof (sqrt_up_pos n H). pose proof (sqrt_up_sq n).
  destruct (cdiv_spec n (sqrt_up n) ltac:(lia)) as [Ha Hb]. nia.
Qed.

Lemma pair_inj : forall q i j i' j', i * q + j = i' * q + j' -> j < q -> j' < q -> i = i' /\ j = j'.
Proof. intros q i j i' j' E H H'. apply (Nat.div_mod_unique q); lia. Qed.

Lemma amo_product_ok : forall fuel bound st xs,
  olds st xs -> 2 <= length xs -> length xs < fuel -> 2 <= bound ->
  encodes st (amo_product fuel bound xs) (fun b => cnt b xs <= 1).
Proof.
  induction fuel as [| fuel IH]; intros bound st xs Ho Hn Hf Hb; [lia |]. cbn [amo_product].
  set (n := length xs) in *. set (p := sqrt_up n). set (q := cdiv n p).
  pose proof (sqrt_up_pos n ltac:(lia)) as Hp1. fold p in Hp1.
  pose proof (cdiv_spec n p ltac:(lia)) as [Hq1 Hq2]. fold q in Hq1, Hq2.
  pose proof (cdiv_le n ltac:(lia)) as Hqp. fold p in Hqp. fold q in Hqp.
  eapply runs_bind.
  { apply runs_allocs with (post := fun ys st' cls => cls = [] /\ length ys = p /\ olds st' ys /\ free_choice st st' ys).
    intuition. }
  intros us st1 cls L1 _ (-> & Hlu & Hus & Hfu). cbn [app].
  eapply runs_bind.
  { apply runs_allocs with (post := fun ys st' cls => cls = [] /\ length ys = q /\ olds st' ys /\ free_choice st1 st' ys).
    intuition. }
  intros vs st2 cls L2 _ (-> & Hlv & Hvs & Hfv). cbn [app].
  assert (Hus2 : olds st2 us) by solds.
  eapply runs_bind.
  { assert (He : encodes st2 (if p <=? bound then naive us else amo_product fuel bound us) (fun b => cnt b us <= 1)).
    { destruct (Nat.leb_spec p bound); [apply emits_encodes, emits_naive; assumption |].
      assert (p < n). { apply sqrt_up_lt. destruct (le_lt_dec 3 n); [assumption |]. exfalso.
        assert (E : n = 2) by lia. unfold p in H. rewrite E in H. cbn in H. lia. }
      apply IH; auto; lia. }
    exact He. }
  cbn beta. intros _ st3 cu L3 Bu [Su Cu].
  assert (Hvs3 : olds st3 vs) by solds.
  eapply runs_bind.
  { assert (He : encodes st3 (if q <=? bound then naive vs else amo_product fuel bound vs) (fun b => cnt b vs <= 1)).
    { destruct (Nat.leb_spec q bound); [apply emits_encodes, emits_naive; assumption |].
      assert (p < n). { apply sqrt_up_lt. destruct (le_lt_dec 3 n); [assumption |]. exfalso.
        assert (E : n = 2) by lia. unfold q, p in H. rewrite E in H. cbn in H. lia. }
      apply IH; auto; lia. }
    exact He. }
  cbn beta. intros _ st4 cv L4 Bv [Sv Cv].
  assert (Hus4 : olds st4 us) by solds.
  assert (Hvs4 : olds st4 vs) by solds.
  assert (L14 : cle st st4) by scle.
  assert (Hxs4 : olds st4 xs) by solds.
  eapply runs_conseq.
  { apply emits_for with (P := fun i b => forall j, In j (seq 0 q) -> (i * q + j <? n) = true ->
      anyb [fun b => negb (tr b xs (i * q + j)); fun b => tr b us i] b = true
      /\ anyb [fun b => negb (tr b xs (i * q + j)); fun b => tr b vs j] b = true).
    intros i Hi. apply in_seq in Hi.
    apply emits_for with (P := fun j b => (i * q + j <? n) = true ->
      anyb [fun b => negb (tr b xs (i * q + j)); fun b => tr b us i] b = true
      /\ anyb [fun b => negb (tr b xs (i * q + j)); fun b => tr b vs j] b = true).
    intros j Hj. apply in_seq in Hj. apply emits_when. intros Hk. apply Nat.ltb_lt in Hk.
    apply emits_seq; apply emits_elems; elems. }
  cbn [anyb]. intros _ st' cls _ _ [-> Hs].
  assert (Hdecomp : forall k, k < n -> k = (k / q) * q + k mod q /\ k / q < p /\ k mod q < q).
  { intros k Hk. pose proof (Nat.div_mod_eq k q) as E. assert (1 <= q) by nia.
    pose proof (Nat.mod_upper_bound k q ltac:(lia)). split; [lia |]. split; [| lia].
    apply Nat.div_lt_upper_bound; lia. }
  split.
  - intros b Hsat. rewrite !sat_app in Hsat. destruct Hsat as (H1 & H2 & H3). apply Su in H1. apply Sv in H2.
    rewrite Hs in H3. rewrite <- cnt_le_one in H1, H2 |- *.
    assert (Hrc : forall k, tr b xs k = true -> tr b us (k / q) = true /\ tr b vs (k mod q) = true).
    { intros k Hk. pose proof (tr_lt _ _ _ Hk) as Hlt. fold n in Hlt. destruct (Hdecomp k Hlt) as (E & Ha & Hc).
      specialize (H3 (k / q)). rewrite in_seq in H3. specialize (H3 ltac:(lia) (k mod q)). rewrite in_seq in H3.
      specialize (H3 ltac:(lia)). rewrite <- E in H3. rewrite Hk in H3. cbn in H3. rewrite !orb_false_r in H3.
      apply H3. apply Nat.ltb_lt. lia. }
    intros k l Hk Hl. destruct (Hrc k Hk) as [Uk Vk]. destruct (Hrc l Hl) as [Ul Vl].
    pose proof (H1 _ _ Uk Ul) as E1. pose proof (H2 _ _ Vk Vl) as E2.
    pose proof (tr_lt _ _ _ Hk) as Hlk. pose proof (tr_lt _ _ _ Hl) as Hll.
    destruct (Hdecomp k Hlk) as (Ek & _). destruct (Hdecomp l Hll) as (El & _). congruence.
  - intros a Ha.
    (* row and column of the true variable, if any *)
    destruct (Hfu a (fun i => existsb (fun j => tr a xs (i * q + j)) (seq 0 q))) as [b1 [A1 V1]].
    destruct (Hfv b1 (fun j => existsb (fun i => tr a xs (i * q + j)) (seq 0 p))) as [b2 [A2 V2]].
    assert (V1' : forall i, i < p -> tr b2 us i = existsb (fun j => tr a xs (i * q + j)) (seq 0 q)).
    { intros i Hi. rewrite <- V1 by lia. eapply agree_tr; eauto. }
    rewrite <- cnt_le_one in Ha.
    assert (Cus : cnt b2 us <= 1).
    { apply cnt_le_one. intros i i' Hi Hi'. pose proof (tr_lt _ _ _ Hi). pose proof (tr_lt _ _ _ Hi').
      rewrite V1' in Hi, Hi' by lia. apply existsb_exists in Hi, Hi'.
      destruct Hi as [j [Hj Tj]]. destruct Hi' as [j' [Hj' Tj']]. apply in_seq in Hj, Hj'.
      pose proof (Ha _ _ Tj Tj') as E. apply pair_inj in E; lia. }
    assert (Cvs : cnt b2 vs <= 1).
    { apply cnt_le_one. intros i i' Hi Hi'. pose proof (tr_lt _ _ _ Hi). pose proof (tr_lt _ _ _ Hi').
      rewrite V2 in Hi, Hi' by lia. apply existsb_exists in Hi, Hi'.
      destruct Hi as [j [Hj Tj]]. destruct Hi' as [j' [Hj' Tj']]. apply in_seq in Hj, Hj'.
      pose proof (Ha _ _ Tj Tj') as E. apply pair_inj in E; lia. }
    destruct (Cu b2 Cus) as [b3 [A3 S3]].
    assert (Cvs3 : cnt b3 vs <= 1) by (erewrite agree_cnt; eauto).
    destruct (Cv b3 Cvs3) as [b4 [A4 S4]].
    assert (A24 : agree st2 st4 b2 b4) by (eapply agree_trans; eauto).
    assert (A04 : agree st st4 a b4).
    { eapply agree_trans; [| | exact A1 |]; [assumption | eapply cle_trans; [exact L2 | eapply cle_trans; eauto] |].
      eapply agree_trans; [| | exact A2 | exact A24]; [assumption | eapply cle_trans; eauto]. }
    exists b4. split; [assumption |]. rewrite !sat_app. split; [eapply agree_sat; [exact A4 | exact Bu | exact S3] |].
    split; [assumption |]. apply Hs. intros i Hi j Hj Hk. apply in_seq in Hi, Hj. apply Nat.ltb_lt in Hk.
    assert (Ex : tr b4 xs (i * q + j) = tr a xs (i * q + j)) by (eapply agree_tr; eauto).
    assert (Eu : tr b4 us i = tr b2 us i) by (eapply agree_tr; eauto).
    assert (Ev : tr b4 vs j = tr b2 vs j) by (eapply agree_tr; eauto).
    rewrite Ex, Eu, Ev, V1', V2 by lia. rewrite !orb_false_r.
    destruct (tr a xs (i * q + j)) eqn:T; [| split; reflexivity]. cbn [negb orb]. split.
    + apply existsb_exists. exists j. split; [apply in_seq; lia | assumption].
    + apply existsb_exists. exists i. split; [apply in_seq; lia | assumption].
Qed.

(* ------------------------------------------------------------------------------------------------------------------ *)
(** * Nested *)

Lemma amo_nested_ok : forall fuel g st xs,
  olds st xs -> length xs < fuel -> 4 <= g -> encodes st (amo_nested fuel g xs) (fun b => cnt b xs <= 1).
Proof.
  induction fuel as [| fuel IH]; intros g st xs Ho Hf Hg; [lia |]. cbn [amo_nested].
  destruct (Nat.ltb_spec (length xs) g) as [Hl | Hl]; [apply emits_encodes, emits_naive; assumption |].
  set (n := length xs) in *. set (sp := n / 2).
  assert (Hsp : 2 * sp <= n < 2 * sp + 2).
  { unfold sp. pose proof (Nat.div_mod_eq n 2). pose proof (Nat.mod_upper_bound n 2). lia. }
  eapply runs_bind.
  { apply runs_new with (post := fun y st' cls => cls = [] /\ ~ old st (lit_var y) /\ old st' (lit_var y) /\
      (forall al v, exists be, agree st st' al be /\ lit_sem be y = v)). intuition. }
  intros y st1 cls L1 _ (-> & _ & Hy & Hch). cbn [app].
  assert (Hxs1 : olds st1 xs) by solds.
  assert (Hl1 : olds st1 (firstn sp xs ++ [y])).
  { apply olds_app. split; [now apply olds_firstn |]. apply olds_cons. split; [assumption | apply olds_nil]. }
  assert (Hl2 : olds st1 (skipn sp xs ++ [lit_negate y])).
  { apply olds_app. split; [now apply olds_skipn |]. apply olds_cons. rewrite lit_negate_var. split; [assumption | apply olds_nil]. }
  eapply runs_bind.
  { apply IH; [exact Hl1 | rewrite app_length, firstn_length; fold n; cbn [length]; lia | assumption]. }
  cbn beta. intros _ st2 c1 L2 B1 [S1 C1].
  eapply runs_conseq.
  { apply IH; [eapply olds_mono; [exact L2 | exact Hl2] | rewrite app_length, skipn_length; fold n; cbn [length]; lia | assumption]. }
  cbn beta. intros _ st3 c2 L3 B2 [S2 C2].
  assert (Hc : forall b, cnt b (firstn sp xs ++ [y]) = cnt b (firstn sp xs) + (if lit_sem b y then 1 else 0)
               /\ cnt b (skipn sp xs ++ [lit_negate y]) = cnt b (skipn sp xs) + (if lit_sem b y then 0 else 1)).
  { intros b. rewrite !cnt_app. cbn [cnt]. rewrite lit_sem_negate. destruct (lit_sem b y); cbn; lia. }
  split.
  - intros b Hb. apply sat_app in Hb. destruct Hb as [H1 H2]. apply S1 in H1. apply S2 in H2.
    destruct (Hc b) as [E1 E2]. rewrite E1 in H1. rewrite E2 in H2. rewrite (cnt_split b sp xs). destruct (lit_sem b y); lia.
  - intros a Ha. rewrite (cnt_split a sp xs) in Ha.
    destruct (Hch a (cnt a (firstn sp xs) =? 0)) as [b1 [A1 V1]].
    assert (F1 : cnt b1 (firstn sp xs) = cnt a (firstn sp xs)) by (eapply agree_cnt; [exact A1 | now apply olds_firstn]).
    assert (F2 : cnt b1 (skipn sp xs) = cnt a (skipn sp xs)) by (eapply agree_cnt; [exact A1 | now apply olds_skipn]).
    destruct (Hc b1) as [E1 E2].
    destruct (C1 b1) as [b2 [A2 T2]].
    { rewrite E1, V1, F1. destruct (Nat.eqb_spec (cnt a (firstn sp xs)) 0); lia. }
    destruct (C2 b2) as [b3 [A3 T3]].
    { assert (cnt b2 (skipn sp xs ++ [lit_negate y]) = cnt b1 (skipn sp xs ++ [lit_negate y])) as -> by (eapply agree_cnt; eauto).
      rewrite E2, V1, F2. destruct (Nat.eqb_spec (cnt a (firstn sp xs)) 0); lia. }
    exists b3. split.
    + eapply agree_trans; [| | exact A1 |]; [assumption | eapply cle_trans; eauto |]. eapply agree_trans; eauto.
    + apply sat_app. split; [eapply agree_sat; eauto | assumption].
Qed.

(* ------------------------------------------------------------------------------------------------------------------ *)
(** * Commander *)

Lemma mod_S_small : forall i k, 1 <= k -> i mod k <> k - 1 -> S i mod k = S (i mod k).
Proof.
  intros i k Hk H. pose proof (Nat.mod_upper_bound i k ltac:(lia)). pose proof (Nat.div_mod_eq i k) as E.
  symmetry. apply (Nat.mod_unique _ _ (i / k)); lia.
Qed.
Lemma mod_S_wrap : forall i k, 1 <= k -> i mod k = k - 1 -> S i mod k = 0.
Proof.
  intros i k Hk H. pose proof (Nat.div_mod_eq i k) as E. symmetry. apply (Nat.mod_unique _ _ (S (i / k))); lia.
Qed.

Definition round_post (eo : bool) (lits : list lit) (st : ctrs) (next : list lit) (st' : ctrs) (cls : list clause) : Prop :=
  olds st' next
  /\ (forall b, sat b cls -> cnt b lits <= cnt b next)
  /\ (forall a, cnt a lits <= 1 -> exists b, agree st st' a b /\ sat b cls /\ cnt b next = cnt a lits)
  /\ (eo = false -> lits <> [] -> forall a, cnt a lits = 0 -> exists b, agree st st' a b /\ sat b cls /\ cnt b next = 1).

Lemma commander_round_ok : forall k eo rest i acc st,
  1 <= k -> olds st (acc ++ rest) -> i mod k = length acc -> (rest = [] -> acc = []) ->
  runs st (commander_round k eo i acc rest) (fun next st' cls =>
    length next * k <= length acc + length rest + (k - 1) /\ round_post eo (acc ++ rest) st next st' cls).
Proof.
  intros k eo. induction rest as [| x rest IH]; intros i acc st Hk Ho Hi Hne; cbn [commander_round].
  - rewrite (Hne eq_refl). apply runs_ret. split; [cbn; lia |]. split; [apply olds_nil |]. cbn [app cnt].
    split; [auto |]. split; [| congruence].
    intros a _. exists a. split; [apply agree_refl |]. split; [apply sat_nil | reflexivity].
  - assert (Hsplit : acc ++ x :: rest = (acc ++ [x]) ++ rest) by (rewrite <- app_assoc; reflexivity).
    rewrite Hsplit in Ho |- *. pose proof (Nat.mod_upper_bound i k ltac:(lia)) as Hub.
    destruct ((i mod k =? k - 1) || match rest with [] => true | _ => false end) eqn:Hclose.
    + apply olds_app in Ho. destruct Ho as [Ha Hr]. set (g := acc ++ [x]) in *.
      assert (Hglen : length g = S (length acc)) by (unfold g; rewrite app_length; cbn; lia).
      assert (Hnext : rest = [] \/ S i mod k = 0 /\ length g = k).
      { apply orb_prop in Hclose. destruct Hclose as [Hc | Hc].
        - right. apply Nat.eqb_eq in Hc. split; [apply mod_S_wrap; assumption | lia].
        - left. now destruct rest. }
      eapply runs_emits; [apply emits_naive; exact Ha |]. intros c1 B1 M1.
      eapply runs_bind.
      { apply runs_new with (post := fun y st' cls => cls = [] /\ old st' (lit_var y) /\
          (forall al v, exists be, agree st st' al be /\ lit_sem be y = v)). intuition. }
      intros c st1 cls L1 _ (-> & Hc & Hch). cbn [app].
      assert (Ha1 : olds st1 g) by solds. assert (Hr1 : olds st1 rest) by solds.
      eapply runs_emits.
      { apply emits_when with (P := fun b => csat b (g ++ [c])). intros _. apply emits_add.
        apply olds_app. split; [assumption |]. apply olds_cons. split; [assumption | apply olds_nil]. }
      intros c2 B2 M2.
      eapply runs_emits.
      { apply emits_for with (P := fun l b => csat b [lit_negate c; lit_negate l]). intros l Hl. apply emits_add.
        apply olds_cons. rewrite lit_negate_var. split; [assumption |]. apply olds_cons. rewrite lit_negate_var.
        split; [auto | apply olds_nil]. }
      intros c3 B3 M3.
      assert (M3' : forall b, sat b c3 <-> (lit_sem b c = true -> cnt b g = 0)).
      { intros b. rewrite M3, cnt_zero. split.
        - intros H Hcb l Hl. specialize (H l Hl). rewrite !csat_cons, !sem_neg_true in H.
          destruct H as [H | [H | H]]; [congruence | assumption | now apply csat_nil in H].
        - intros H l Hl. rewrite !csat_cons, !sem_neg_true. destruct (lit_sem b c); auto. }
      eapply runs_bind.
      { assert (HI : runs st1 (commander_round k eo (S i) [] rest) (fun next st' cls =>
           length next * k <= length rest + (k - 1) /\ round_post eo rest st1 next st' cls)).
        { destruct Hnext as [-> | [Hz _]].
          - cbn [commander_round]. apply runs_ret. split; [cbn; lia |]. split; [apply olds_nil |]. cbn [cnt].
            split; [auto |]. split; [| congruence].
            intros a _. exists a. split; [apply agree_refl |]. split; [apply sat_nil | reflexivity].
          - apply IH with (acc := []); [assumption | exact Hr1 | exact Hz | auto]. }
        exact HI. }
      intros next st2 c4 L2 B4 (Hlen & Hon & HS & HC1 & HC2). apply runs_ret. rewrite app_nil_r.
      split.
      { cbn [length]. destruct Hnext as [-> | [_ Hg]].
        - cbn [length] in *. assert (length next = 0); [| lia].
          destruct (length next) as [| m]; [reflexivity |]. cbn in Hlen. lia.
        - cbn [length] in Hglen. cbn. lia. }
      split.
      { apply olds_cons. rewrite lit_negate_var. split; [eapply old_mono; eauto | assumption]. }
      assert (Hcn : forall b, cnt b (lit_negate c :: next) = (if lit_sem b c then 0 else 1) + cnt b next).
      { intros b. cbn [cnt]. rewrite lit_sem_negate. now destruct (lit_sem b c). }
      split; [| split].
      * intros b Hb. rewrite !sat_app in Hb. destruct Hb as (H1 & H2 & H3 & H4).
        apply M1 in H1. pose proof (proj1 (M3' b) H3) as H3'. apply HS in H4. rewrite cnt_app, Hcn.
        destruct (lit_sem b c); [specialize (H3' eq_refl) |]; lia.
      * intros a Hcnt. rewrite cnt_app in Hcnt.
        destruct (Hch a (cnt a g =? 0)) as [b1 [A1 V1]].
        assert (Eg : cnt b1 g = cnt a g) by (eapply agree_cnt; eauto).
        assert (Er : cnt b1 rest = cnt a rest) by (eapply agree_cnt; eauto).
        destruct (HC1 b1) as [b2 [A2 [S2 E2]]]; [lia |].
        assert (Eg2 : cnt b2 g = cnt b1 g) by (eapply agree_cnt; eauto).
        assert (Ec2 : lit_sem b2 c = lit_sem b1 c) by (eapply agree_lit; eauto).
        exists b2. split; [eapply agree_trans; eauto |]. split.
        -- rewrite !sat_app. split; [| split; [| split]].
           ++ apply M1. lia.
           ++ apply M2. intros _. apply csat_app. rewrite csat_cons. rewrite Ec2, V1.
              destruct (Nat.eqb_spec (cnt a g) 0) as [E0 | E0]; [right; left; reflexivity |]. left. apply cnt_pos. lia.
           ++ apply M3'. intros Hcb. rewrite Ec2, V1 in Hcb. apply Nat.eqb_eq in Hcb. lia.
           ++ assumption.
        -- rewrite Hcn, Ec2, V1, E2, Er, cnt_app. destruct (Nat.eqb_spec (cnt a g) 0); lia.
      * intros -> _ a Hcnt. rewrite cnt_app in Hcnt.
        destruct (Hch a false) as [b1 [A1 V1]].
        assert (Eg : cnt b1 g = cnt a g) by (eapply agree_cnt; eauto).
        assert (Er : cnt b1 rest = cnt a rest) by (eapply agree_cnt; eauto).
        destruct (HC1 b1) as [b2 [A2 [S2 E2]]]; [lia |].
        assert (Eg2 : cnt b2 g = cnt b1 g) by (eapply agree_cnt; eauto).
        assert (Ec2 : lit_sem b2 c = lit_sem b1 c) by (eapply agree_lit; eauto).
        exists b2. split; [eapply agree_trans; eauto |]. split.
        -- rewrite !sat_app. split; [| split; [| split]].
           ++ apply M1. lia.
           ++ apply M2. discriminate.
           ++ apply M3'. congruence.
           ++ assumption.
        -- rewrite Hcn, Ec2, V1, E2, Er. lia.
    + apply orb_false_elim in Hclose. destruct Hclose as [H1 H2]. apply Nat.eqb_neq in H1.
      eapply runs_conseq.
      * apply IH; [assumption | assumption | rewrite app_length; cbn; rewrite mod_S_small by lia; lia |].
        intros ->. discriminate.
      * cbn beta. intros next st' cls _ _ [Hlen Hp]. split; [| exact Hp].
        rewrite app_length in Hlen. cbn [length] in *. lia.
Qed.

Lemma amo_commander_ok : forall fuel k eo st cur,
  olds st cur -> length cur < fuel -> 2 <= k ->
  runs st (amo_commander fuel k eo cur) (fun _ st' cls =>
    (forall b, sat b cls -> cnt b cur <= 1) /\
    (forall a, cnt a cur <= 1 -> (eo = true -> cnt a cur = 1) -> exists b, agree st st' a b /\ sat b cls)).
Proof.
  induction fuel as [| fuel IH]; intros k eo st cur Ho Hf Hk; [lia |]. cbn [amo_commander].
  destruct (Nat.ltb_spec k (length cur)) as [Hl | Hl].
  - eapply runs_bind; [apply runs_assert with (post := fun _ st' cls => st' = st /\ cls = []); [apply Nat.leb_le; lia | auto] |].
    intros _ ? cls _ _ [-> ->]. cbn [app].
    eapply runs_bind.
    { apply commander_round_ok; [lia | exact Ho | rewrite Nat.mod_0_l by lia; reflexivity | auto]. }
    intros next st1 c1 L1 B1 (Hlen & Hon & HS & HC1 & HC2). cbn [app] in *.
    eapply runs_conseq.
    { apply IH; [exact Hon | cbn [length] in Hlen; nia | assumption]. }
    cbn beta. intros _ st2 c2 L2 B2 [S2 C2]. split.
    + intros b Hb. apply sat_app in Hb. destruct Hb as [H1 H2]. apply HS in H1. apply S2 in H2. lia.
    + intros a Ha He.
      assert (Hex : exists b, agree st st1 a b /\ sat b c1 /\ cnt b next = 1).
      { destruct (Nat.eq_dec (cnt a cur) 1) as [E | E].
        - destruct (HC1 a Ha) as [b [A [S E']]]. exists b. split; [assumption |]. split; [assumption | lia].
        - apply HC2; [| intros ->; cbn in Hl; lia | lia]. destruct eo; [specialize (He eq_refl); lia | reflexivity]. }
      destruct Hex as [b1 [A1 [S1 E1]]]. destruct (C2 b1) as [b2 [A2 T2]]; [lia | auto |].
      exists b2. split; [eapply agree_trans; eauto |]. apply sat_app. split; [eapply agree_sat; eauto | assumption].
  - eapply runs_emits; [apply emits_naive; assumption |]. intros c1 B1 M1.
    eapply runs_conseq.
    { apply emits_when with (P := fun b => csat b cur). intros _. apply emits_add. assumption. }
    cbn beta. intros _ st' c2 _ _ [-> M2]. split.
    + intros b Hb. apply sat_app in Hb. now apply M1.
    + intros a Ha He. exists a. split; [apply agree_refl |]. apply sat_app. split; [now apply M1 |]. apply M2.
      intros Hc. apply andb_prop in Hc. apply cnt_pos. rewrite He; [lia | tauto].
Qed.

(* ------------------------------------------------------------------------------------------------------------------ *)
(** * Gray codes *)

Lemma gray_half : forall x, N.shiftr (gray x) 1 = gray (N.shiftr x 1).
Proof. intros x. unfold gray. rewrite N.shiftr_lxor. reflexivity. Qed.

Lemma gray_bit_S : forall x j, N.testbit (gray x) (N.succ j) = N.testbit (gray (N.shiftr x 1)) j.
Proof. intros x j. rewrite <- gray_half. rewrite N.shiftr_spec by lia. f_equal. lia. Qed.

Lemma gray_zero : forall x, gray x = 0%N -> x = 0%N.
Proof.
  intros x H. unfold gray in H. apply N.lxor_eq in H.
  destruct (N.eq_dec x 0) as [| Hx]; [assumption |]. exfalso.
  rewrite N.shiftr_div_pow2 in H. change (2 ^ 1)%N with 2%N in H.
  assert (x / 2 < x)%N by (apply N.div_lt; lia). lia.
Qed.

Lemma gray_inj : forall x y, gray x = gray y -> x = y.
Proof.
  intros x y H. apply N.lxor_eq. apply gray_zero.
  unfold gray in *. rewrite N.shiftr_lxor.
  assert (E : (N.lxor (N.lxor x y) (N.lxor (N.shiftr x 1) (N.shiftr y 1)) =
          N.lxor (N.lxor x (N.shiftr x 1)) (N.lxor y (N.shiftr y 1)))%N).
  { apply N.bits_inj. intros j. rewrite !N.lxor_spec. destruct (N.testbit x j), (N.testbit y j), (N.testbit (N.shiftr x 1) j), (N.testbit (N.shiftr y 1) j); reflexivity. }
  rewrite E, H, N.lxor_nilpotent. reflexivity.
Qed.

Lemma gray_high : forall x n j, (x < 2 ^ n)%N -> (n <= j)%N -> N.testbit (gray x) j = false.
Proof.
  assert (Hb : forall x n j, (x < 2 ^ n)%N -> (n <= j)%N -> N.testbit x j = false).
  { intros x n j Hx Hj. destruct (N.eq_dec x 0) as [-> | H0]; [apply N.bits_0 |]. apply N.bits_above_log2.
    assert (N.log2 x < n)%N by (apply N.log2_lt_pow2; lia). lia. }
  intros x n j Hx Hj. unfold gray. rewrite N.lxor_spec, N.shiftr_spec by lia.
  rewrite (Hb x n j), (Hb x n (j + 1)%N) by lia. reflexivity.
Qed.

(** Codes which agree below bit [n] belong to the same number; codes which agree on the bits 1 to [n - 1] to numbers with
    the same half. *)
Lemma gray_same : forall n x y, (x < 2 ^ n)%N -> (y < 2 ^ n)%N ->
  (forall j, (j < n)%N -> N.testbit (gray x) j = N.testbit (gray y) j) -> x = y.
Proof.
  intros n x y Hx Hy H. apply gray_inj. apply N.bits_inj. intros j.
  destruct (N.lt_ge_cases j n); [auto |]. rewrite !(gray_high _ n) by assumption. reflexivity.
Qed.
Lemma gray_same_half : forall n x y, (x < 2 ^ n)%N -> (y < 2 ^ n)%N ->
  (forall j, (1 <= j < n)%N -> N.testbit (gray x) j = N.testbit (gray y) j) -> N.shiftr x 1 = N.shiftr y 1.
Proof.
  intros n x y Hx Hy H. apply gray_inj. apply N.bits_inj. intros j. rewrite <- !gray_bit_S.
  destruct (N.lt_ge_cases (N.succ j) n); [apply H; lia |]. rewrite !(gray_high _ n) by assumption. reflexivity.
Qed.

(** The group with index [t] has a true literal. *)
Definition gtrue (b : valuation) (groups : list (list lit)) (t : nat) : Prop :=
  exists g p, nth_error groups t = Some g /\ In p g /\ lit_sem b p = true.
Definition one_group (b : valuation) (groups : list (list lit)) : Prop :=
  forall t t', gtrue b groups t -> gtrue b groups t' -> t = t'.

Lemma emits_handle : forall st g bit code j, olds st g -> old st (lit_var bit) ->
  emits st (handle_gray g bit code j)
    (fun b => forall p, In p g -> lit_sem b p = true -> lit_sem b bit = N.testbit code (N.of_nat j)).
Proof.
  intros st g bit code j Hg Hb. unfold handle_gray. eapply emits_iff.
  - apply emits_for with (P := fun p b => csat b [lit_negate p; if N.testbit code (N.of_nat j) then bit else lit_negate bit]).
    intros p Hp. apply emits_add. apply olds_cons. rewrite lit_negate_var. split; [auto |]. apply olds_cons.
    split; [| apply olds_nil]. destruct (N.testbit code (N.of_nat j)); [| rewrite lit_negate_var]; assumption.
  - intros b. split.
    + intros H p Hp Hs. specialize (H p Hp). rewrite !csat_cons, sem_neg_true in H.
      destruct H as [H | [H | H]]; [congruence | | now apply csat_nil in H].
      destruct (N.testbit code (N.of_nat j)); [assumption | now apply sem_neg_true].
    + intros H p Hp. specialize (H p Hp). rewrite !csat_cons, sem_neg_true.
      destruct (lit_sem b p); [right; left | now left]. specialize (H eq_refl).
      destruct (N.testbit code (N.of_nat j)); [assumption | now apply sem_neg_true].
Qed.

Lemma runs_glift_seq : forall A st (r : res A) (k : A -> G unit) x P, r = Ok x -> emits st (k x) P -> emits st (y <~ glift r ;; k y) P.
Proof.
  intros A st r k x P -> H. eapply runs_bind.
  - apply runs_lift with (a := x) (post := fun y st' cls => y = x /\ st' = st /\ cls = []); auto.
  - intros y st' cls _ _ (-> & -> & ->). exact H.
Qed.

(** The numbers whose codes are used for group [t]. *)
Definition number (d t : nat) : nat := if t <? d then 2 * t else t + d.

Lemma gray_loops_emits : forall st groups bits nb,
  (forall g, In g groups -> olds st g) -> olds st bits -> length bits = nb ->
  1 <= length groups <= 2 ^ nb -> 2 ^ nb < 2 * length groups ->
  emits st (gray_loops groups bits nb (2 ^ nb) ((2 ^ nb - length groups) * 2))
    (fun b => forall t j, t < length groups -> j < nb -> (2 ^ nb - length groups <= t \/ 1 <= j) -> gtrue b groups t ->
       tr b bits j = N.testbit (gray (N.of_nat (number (2 ^ nb - length groups) t))) (N.of_nat j)).
Proof.
  intros st groups bits nb Hg Hb Hlb Hm Hm2. unfold gray_loops. set (m := length groups) in *. set (d := 2 ^ nb - m).
  assert (Hk : d * 2 / 2 = d) by (apply Nat.div_mul; lia). rewrite Hk.
  assert (Hcell : forall t j, t < m -> j < nb -> exists bit g, ix bits j = Ok bit /\ ix groups t = Ok g /\
            nth_error groups t = Some g /\ old st (lit_var bit) /\ olds st g).
  { intros t j Ht Hj. destruct (ix_ok _ bits j ltac:(lia)) as [bit [E1 _]].
    destruct (ix_ok _ groups t ltac:(lia)) as [g [E2 E3]]. exists bit, g. repeat split; auto.
    - eapply ix_old; eauto.
    - apply Hg. eapply nth_error_In; eauto. }
  assert (Hbody : forall t j code, t < m -> j < nb ->
            emits st (b <~ glift (ix bits j) ;; g <~ glift (ix groups t) ;; handle_gray g b code j)
              (fun b => gtrue b groups t -> tr b bits j = N.testbit code (N.of_nat j))).
  { intros t j code Ht Hj. destruct (Hcell t j Ht Hj) as (bit & g & E1 & E2 & E3 & Hbit & Hgr).
    eapply runs_glift_seq; [exact E1 |]. eapply runs_glift_seq; [exact E2 |].
    eapply emits_iff; [apply emits_handle; assumption |]. intros b. rewrite <- (ix_tr b _ _ _ E1). split.
    - intros H (g' & p & Eg & Hp & Hs). rewrite E3 in Eg. injection Eg as <-. eauto.
    - intros H p Hp Hs. apply H. exists g, p. auto. }
  eapply emits_iff.
  - apply emits_seq.
    + apply emits_for with (P := fun t b => forall j, In j (seq 0 nb) ->
        Bool.eqb (N.testbit (gray (N.of_nat (2 * t))) (N.of_nat j)) (N.testbit (gray (N.of_nat (2 * t + 1))) (N.of_nat j)) = true ->
        gtrue b groups t -> tr b bits j = N.testbit (gray (N.of_nat (2 * t))) (N.of_nat j)).
      intros t Ht. apply in_seq in Ht. apply emits_for with (P := fun j b =>
        Bool.eqb (N.testbit (gray (N.of_nat (2 * t))) (N.of_nat j)) (N.testbit (gray (N.of_nat (2 * t + 1))) (N.of_nat j)) = true ->
        gtrue b groups t -> tr b bits j = N.testbit (gray (N.of_nat (2 * t))) (N.of_nat j)).
      intros j Hj. apply in_seq in Hj. apply emits_when. intros _. apply Hbody; [| lia].
      unfold d in Ht. lia.
    + apply emits_for with (P := fun i b => forall j, In j (seq 0 nb) ->
        gtrue b groups (d + (i - d * 2)) -> tr b bits j = N.testbit (gray (N.of_nat i)) (N.of_nat j)).
      intros i Hi. apply in_seq in Hi. apply emits_for with (P := fun j b =>
        gtrue b groups (d + (i - d * 2)) -> tr b bits j = N.testbit (gray (N.of_nat i)) (N.of_nat j)).
      intros j Hj. apply in_seq in Hj. apply Hbody; [| lia]. unfold d in *. lia.
  - intros b. unfold number. split.
    + intros [H1 H2] t j Ht Hj Hc Hgt. destruct (Nat.ltb_spec t d) as [Hd | Hd].
      * apply (H1 t); [apply in_seq; lia | apply in_seq; lia | | assumption]. apply eqb_true_iff.
        destruct Hc as [Hc | Hc]; [lia |].
        replace (N.of_nat j) with (N.succ (N.of_nat (j - 1))) by lia. rewrite !gray_bit_S.
        do 2 f_equal. rewrite !N.shiftr_div_pow2. change (2 ^ 1)%N with 2%N.
        replace (N.of_nat (2 * t)) with (N.of_nat t * 2)%N by lia.
        replace (N.of_nat (2 * t + 1)) with (1 + N.of_nat t * 2)%N by lia.
        rewrite N.div_mul, N.div_add by lia. reflexivity.
      * replace (t + d) with (d * 2 + (t - d)) by lia. apply H2; [apply in_seq; unfold d in *; lia | apply in_seq; lia |].
        replace (d + (d * 2 + (t - d) - d * 2)) with t by lia. assumption.
    + intros H. split.
      * intros t Ht j Hj He Hgt. apply in_seq in Ht, Hj.
        destruct (Nat.eq_dec j 0) as [-> | Hj0].
        -- exfalso. apply eqb_true_iff in He. revert He. unfold gray.
           rewrite !N.lxor_spec, !N.shiftr_spec by lia.
           replace (N.of_nat (2 * t)) with (2 * N.of_nat t)%N by lia.
           replace (N.of_nat (2 * t + 1)) with (2 * N.of_nat t + 1)%N by lia.
           change (N.of_nat 0) with 0%N. change (0 + 1)%N with (N.succ 0).
           rewrite N.testbit_even_0, N.testbit_odd_0, N.testbit_even_succ, N.testbit_odd_succ by lia.
           destruct (N.testbit (N.of_nat t) 0); discriminate.
        -- specialize (H t j). destruct (Nat.ltb_spec t d); [| lia]. apply H; auto; unfold d in *; lia.
      * intros i Hi j Hj Hgt. apply in_seq in Hi, Hj. specialize (H (d + (i - d * 2)) j).
        destruct (Nat.ltb_spec (d + (i - d * 2)) d); [lia |].
        replace (d + (i - d * 2) + d) with i in H by lia. apply H; auto; unfold d in *; lia.
Qed.

Lemma half_eq : forall x y, (x / 2 = y / 2)%N -> (x <= y + 1 /\ y <= x + 1)%N.
Proof.
  intros x y H. pose proof (N.div_mod x 2 ltac:(lia)) as D1. pose proof (N.mod_lt x 2 ltac:(lia)) as D2.
  pose proof (N.div_mod y 2 ltac:(lia)) as D3. pose proof (N.mod_lt y 2 ltac:(lia)) as D4. rewrite H in D1.
  clear H. revert D1 D2 D3 D4. generalize (y / 2)%N (x mod 2)%N (y mod 2)%N. intros. lia.
Qed.

Lemma number_lt : forall m d t, t < m -> d < m -> number d t < m + d.
Proof. intros m d t H H'. unfold number. destruct (Nat.ltb_spec t d); lia. Qed.

(** The bits followed by the loops encode that the true literals are in one group. *)
Lemma gray_ok : forall st groups nb,
  (forall g, In g groups -> olds st g) -> 1 <= length groups <= 2 ^ nb -> 2 ^ nb < 2 * length groups ->
  encodes st (bits <~ allocs AuxCC nb ;; gray_loops groups bits nb (2 ^ nb) ((2 ^ nb - length groups) * 2))
    (fun b => one_group b groups).
Proof.
  intros st groups nb Hg Hm Hm2. set (m := length groups) in *. set (d := 2 ^ nb - m) in *.
  eapply runs_bind.
  { apply runs_allocs with (post := fun ys st' cls => cls = [] /\ length ys = nb /\ olds st' ys /\ free_choice st st' ys).
    intuition. }
  intros bits st1 cls L1 _ (-> & Hlb & Hbs & Hfc). cbn [app].
  assert (Hg1 : forall g, In g groups -> olds st1 g) by (intros g Hin; eapply olds_mono; eauto).
  eapply runs_conseq; [apply gray_loops_emits; auto |]. fold m. fold d.
  cbn beta. intros _ st' cls _ _ [-> Hs].
  assert (Hpow : (2 ^ N.of_nat nb)%N = N.of_nat (2 ^ nb)) by (rewrite Nat2N.inj_pow; reflexivity).
  assert (Hnum : forall t, t < m -> (N.of_nat (number d t) < 2 ^ N.of_nat nb)%N).
  { intros t Ht. rewrite Hpow. pose proof (number_lt m d t Ht ltac:(unfold d; lia)). unfold d in *. lia. }
  assert (Hgt : forall b t, gtrue b groups t -> t < m).
  { intros b t (g & p & E & _). apply nth_error_Some. congruence. }
  split.
  - intros b Hb0. pose proof (proj1 (Hs b) Hb0) as Hb.
    assert (Hlt : forall t t', t < t' -> gtrue b groups t -> gtrue b groups t' -> False).
    { intros t t' Htt Ht Ht'. pose proof (Hgt _ _ Ht) as Hm1. pose proof (Hgt _ _ Ht') as Hm1'.
      assert (Hhalf : N.shiftr (N.of_nat (number d t)) 1 = N.shiftr (N.of_nat (number d t')) 1).
      { apply (gray_same_half (N.of_nat nb)); auto. intros j Hj.
        replace j with (N.of_nat (N.to_nat j)) by lia. rewrite <- !Hb; auto; lia. }
      rewrite !N.shiftr_div_pow2 in Hhalf. change (2 ^ 1)%N with 2%N in Hhalf. unfold number in Hhalf.
      apply half_eq in Hhalf.
      destruct (Nat.ltb_spec t d) as [Hd | Hd]; destruct (Nat.ltb_spec t' d) as [Hd' | Hd']; try lia.
      assert (E : N.of_nat (number d t) = N.of_nat (number d t')).
      { apply (gray_same (N.of_nat nb)); auto. intros j Hj.
        replace j with (N.of_nat (N.to_nat j)) by lia. rewrite <- !Hb; auto; lia. }
      unfold number in E. destruct (Nat.ltb_spec t d); [lia |]. destruct (Nat.ltb_spec t' d); lia. }
    intros t t' Ht Ht'. destruct (lt_eq_lt_dec t t') as [[H | H] | H]; [exfalso; eauto | assumption | exfalso; eauto].
  - intros a Ha.
    assert (Hcase : (exists t, gtrue a groups t) \/ (forall t, ~ gtrue a groups t)).
    { clear - groups. induction groups as [| g gs IH].
      - right. intros t (g & p & E & _). destruct t; discriminate.
      - destruct (existsb (lit_sem a) g) eqn:E.
        + left. exists 0. apply existsb_exists in E. destruct E as [p [Hp Es]]. exists g, p. auto.
        + destruct IH as [[t (g' & p & E' & H)] | H].
          * left. exists (S t), g', p. auto.
          * right. intros [| t] (g' & p & E' & Hp & Es).
            -- cbn in E'. injection E' as <-. assert (existsb (lit_sem a) g = true) by (apply existsb_exists; eauto). congruence.
            -- apply (H t). exists g', p. auto. }
    set (ok := fun t0 => forall t, gtrue a groups t -> t = t0).
    assert (Hok : exists t0, ok t0).
    { destruct Hcase as [[t Ht] | H]; [exists t; intros t' Ht'; auto | exists 0; intros t Ht; exfalso; eapply H; eauto]. }
    destruct Hok as [t0 Ht0].
    destruct (Hfc a (fun j => N.testbit (gray (N.of_nat (number d t0))) (N.of_nat j))) as [b [A V]].
    exists b. split; [assumption |]. apply Hs. intros t j Ht Hj _ Hgb. rewrite V by lia.
    assert (gtrue a groups t) as Hga.
    { destruct Hgb as (g & p & E & Hp & Es). exists g, p. split; [assumption |]. split; [assumption |]. rewrite <- Es. symmetry.
      eapply agree_lit; [exact A |]. apply (Hg g); [eapply nth_error_In; eauto | assumption]. }
    rewrite (Ht0 t Hga). reflexivity.
Qed.

Lemma log2_up_bounds : forall m, 1 <= m -> m <= 2 ^ log2_up m /\ 2 ^ log2_up m < 2 * m.
Proof.
  intros m H. unfold log2_up. destruct (Nat.eq_dec m 1) as [-> | H1]; [cbn; lia |].
  destruct (Nat.log2_up_spec m ltac:(lia)) as [Ha Hb]. split; [assumption |].
  assert (0 < Nat.log2_up m) by (apply Nat.log2_up_pos; lia).
  destruct (Nat.log2_up m) as [| k]; [lia |]. cbn [Nat.pred] in Ha. rewrite Nat.pow_succ_r'. lia.
Qed.

Lemma amo_binary_ok : forall st xs, olds st xs -> 1 <= length xs -> encodes st (amo_binary xs) (fun b => cnt b xs <= 1).
Proof.
  intros st xs Ho Hn. unfold amo_binary. destruct (log2_up_bounds (length xs) Hn) as [H1 H2].
  eapply encodes_iff.
  - rewrite <- (map_length (fun x => [x]) xs) in H1, H2 |- *.
    apply gray_ok; [| rewrite map_length in *; lia | rewrite map_length in *; lia].
    intros g Hg. apply in_map_iff in Hg. destruct Hg as [x [<- Hx]]. apply olds_cons. split; [auto | apply olds_nil].
  - intros b. rewrite <- cnt_le_one.
    assert (E : forall t, gtrue b (map (fun x => [x]) xs) t <-> tr b xs t = true).
    { intros t. unfold gtrue, tr. rewrite nth_error_map. destruct (nth_error xs t) as [x |]; cbn [option_map].
      - split.
        + intros (g & p & E & Hp & Es). injection E as <-. destruct Hp as [<- | []]. exact Es.
        + intros Es. exists [x], x. cbn. auto.
      - split; [intros (g & p & E & _); discriminate | discriminate]. }
    unfold one_group. split; intros H t t' Ht Ht'; apply H; apply E; assumption.
Qed.

(* ------------------------------------------------------------------------------------------------------------------ *)
(** * Bimander *)

Lemma split_groups_ok : forall m rest, (m = 0 -> rest = []) ->
  exists gs, split_groups m rest = Ok gs /\ concat gs = rest /\ length gs = m.
Proof.
  induction m as [| m IH]; intros rest H.
  - rewrite (H eq_refl). exists []. auto.
  - destruct rest as [| x rest].
    + exists (repeat [] (S m)). split; [reflexivity |]. split; [| apply repeat_length].
      clear. induction (S m) as [| k IHk]; cbn; auto.
    + cbn [split_groups]. set (r := x :: rest) in *. set (g := cdiv (length r) (S m)).
      destruct (IH (skipn g r)) as (gs & E & Ec & El).
      { intros ->. apply skipn_all2. unfold g. destruct (cdiv_spec (length r) 1 ltac:(lia)) as [Ha _]. lia. }
      rewrite E. cbn [rbind]. exists (firstn g r :: gs). split; [reflexivity |]. cbn [concat length].
      rewrite Ec, firstn_skipn. auto.
Qed.

Lemma groups_cnt : forall b groups,
  cnt b (concat groups) <= 1 <-> (forall g, In g groups -> cnt b g <= 1) /\ one_group b groups.
Proof.
  intros b. induction groups as [| g gs IH]; cbn [concat].
  - split; [intros _ | cbn; lia]. split; [intros g [] |]. intros t t' (g & p & E & _). destruct t; discriminate.
  - rewrite cnt_app.
    assert (Hany : 1 <= cnt b (concat gs) <-> exists t, gtrue b gs t).
    { rewrite cnt_pos. split.
      - intros [p [Hp Es]]. apply in_concat in Hp. destruct Hp as [g' [Hg' Hp]]. apply In_nth_error in Hg'.
        destruct Hg' as [t E]. exists t, g', p. auto.
      - intros (t & g' & p & E & Hp & Es). exists p. split; [| assumption]. apply in_concat. exists g'.
        split; [eapply nth_error_In; eauto | assumption]. }
    assert (H0 : gtrue b (g :: gs) 0 <-> 1 <= cnt b g).
    { rewrite cnt_pos. split; [intros (g' & p & E & Hp & Es); injection E as <-; eauto | intros [p [Hp Es]]; exists g, p; auto]. }
    assert (HS : forall t, gtrue b (g :: gs) (S t) <-> gtrue b gs t) by (intros t; reflexivity).
    split.
    + intros H. destruct (proj1 IH ltac:(lia)) as [I1 I2]. split.
      * intros g' [<- | Hg']; [lia | auto].
      * intros [| t] [| t'] Ht Ht'; [reflexivity | | |].
        -- apply H0 in Ht. apply HS in Ht'. assert (1 <= cnt b (concat gs)) by (apply Hany; eauto). lia.
        -- apply H0 in Ht'. apply HS in Ht. assert (1 <= cnt b (concat gs)) by (apply Hany; eauto). lia.
        -- f_equal. apply I2; now apply HS.
    + intros [H1 H2]. pose proof (H1 g (or_introl eq_refl)) as Hg.
      assert (I : cnt b (concat gs) <= 1).
      { apply IH. split; [intros g' Hg'; apply H1; now right |]. intros t t' Ht Ht'.
        apply HS in Ht, Ht'. specialize (H2 _ _ Ht Ht'). lia. }
      destruct (Nat.eq_dec (cnt b g) 0) as [| Hn]; [lia |]. destruct (Nat.eq_dec (cnt b (concat gs)) 0) as [| Hn']; [lia |].
      destruct (proj1 Hany ltac:(lia)) as [t Ht]. apply HS in Ht. assert (gtrue b (g :: gs) 0) as G0 by (apply H0; lia).
      specialize (H2 _ _ G0 Ht). lia.
Qed.

Lemma amo_bimander_ok : forall st m xs, olds st xs -> 1 <= m -> encodes st (amo_bimander m xs) (fun b => cnt b xs <= 1).
Proof.
  intros st m xs Ho Hm. unfold amo_bimander. destruct (log2_up_bounds m Hm) as [H1 H2].
  destruct (split_groups_ok m xs ltac:(lia)) as (gs & E & Ec & El).
  eapply runs_bind; [eapply runs_lift with (post := fun y st' cls => y = gs /\ st' = st /\ cls = []); eauto |].
  intros ? st' cls _ _ (-> & -> & ->). cbn [app].
  assert (Hg : forall g, In g gs -> olds st g).
  { intros g Hg x Hx. apply Ho. rewrite <- Ec. apply in_concat. eauto. }
  eapply runs_emits.
  { apply emits_for with (P := fun g b => cnt b g <= 1). intros g Hin. apply emits_naive. auto. }
  intros c1 B1 M1. rewrite <- El in H1, H2 |- *.
  eapply runs_conseq; [apply gray_ok; auto; lia |].
  cbn beta. intros _ st' c2 L2 B2 [S2 C2]. split.
  - intros b Hb. apply sat_app in Hb. destruct Hb as [Hb1 Hb2]. rewrite <- Ec. apply groups_cnt.
    split; [now apply M1 | now apply S2].
  - intros a Ha. rewrite <- Ec in Ha. apply groups_cnt in Ha. destruct Ha as [Ha1 Ha2].
    destruct (C2 a Ha2) as [b [A S]]. exists b. split; [assumption |]. apply sat_app. split; [| assumption].
    eapply agree_sat; [exact A | exact B1 |]. now apply M1.
Qed.
