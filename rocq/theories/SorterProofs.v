(** The sorting networks (cc_sorter.rs) and the cardinality networks (cc_cardinality_networks.rs) are correct. *)
From Coq Require Import NArith ZArith List Bool Arith Lia.
From Verif Require Import Base EncodingModel Syntax FactoryModel FactoryBasics CcModel EncBasics AmoProofs TotalizerProofs ModTotProofs.
Import ListNotations.
Local Open Scope nat_scope.
Local Open Scope gen_scope.

(* ------------------------------------------------------------------------------------------------------------------ *)
(** * Comparators *)

Ltac solds1 := match goal with H : old ?s ?v |- old ?s' ?v => apply (old_mono s s' v); [scle | exact H] end.

Lemma lit_eqb_neq : forall x y, x <> y -> lit_eqb x y = false.
Proof. intros x y H. destruct (lit_eqb x y) eqn:E; [| reflexivity]. apply lit_eqb_spec in E. contradiction. Qed.

(** [y] follows [x] in the directions of [d]. *)
Definition half (d : direction) (x y : bool) : Prop := (dir_up d = true -> x = true -> y = true) /\ (dir_down d = true -> y = true -> x = true).
Lemma half_eq : forall d x y, y = x -> half d x y.
Proof. intros d x y ->. split; auto. Qed.

Lemma csat_bool : forall b c, csat b c <-> existsb (lit_sem b) c = true.
Proof. intros b c. rewrite existsb_exists. reflexivity. Qed.
Lemma up_or : forall x1 x2 y : bool, (negb x1 || (y || false) = true /\ negb x2 || (y || false) = true) <-> (x1 || x2 = true -> y = true).
Proof. intros [] [] []; cbn; intuition discriminate. Qed.
Lemma down_or : forall x1 x2 y : bool, negb y || (x1 || (x2 || false)) = true <-> (y = true -> x1 || x2 = true).
Proof. intros [] [] []; cbn; intuition discriminate. Qed.
Lemma up_and : forall x1 x2 y : bool, negb x1 || (negb x2 || (y || false)) = true <-> (x1 && x2 = true -> y = true).
Proof. intros [] [] []; cbn; intuition discriminate. Qed.
Lemma down_and : forall x1 x2 y : bool, (negb y || (x1 || false) = true /\ negb y || (x2 || false) = true) <-> (y = true -> x1 && x2 = true).
Proof. intros [] [] []; cbn; intuition discriminate. Qed.

Lemma emits_comparator1 : forall st x1 x2 y d, old st (lit_var x1) -> old st (lit_var x2) -> old st (lit_var y) -> x1 <> x2 ->
  emits st (comparator1 x1 x2 y d) (fun b => half d (lit_sem b x1 || lit_sem b x2) (lit_sem b y)).
Proof.
  intros st x1 x2 y d H1 H2 Hy Hne. unfold comparator1. rewrite (lit_eqb_neq _ _ Hne). cbn [negb].
  apply (emits_bind_ret _ st _ tt); [reflexivity |]. unfold half. apply emits_seq; apply emits_when; intros _.
  - eapply emits_iff; [apply emits_seq; apply emits_add; rewrite !olds_cons, ?lit_negate_var; auto using olds_nil |].
    intros b. cbn beta. rewrite !csat_bool. cbn [existsb]. rewrite !lit_sem_negate. apply up_or.
  - eapply emits_iff; [apply emits_add; rewrite !olds_cons, ?lit_negate_var; auto using olds_nil |].
    intros b. cbn beta. rewrite !csat_bool. cbn [existsb]. rewrite !lit_sem_negate. apply down_or.
Qed.

Lemma emits_comparator2 : forall st x1 x2 y1 y2 d,
  old st (lit_var x1) -> old st (lit_var x2) -> old st (lit_var y1) -> old st (lit_var y2) -> x1 <> x2 -> y1 <> y2 ->
  emits st (comparator2 x1 x2 y1 y2 d) (fun b =>
    half d (lit_sem b x1 || lit_sem b x2) (lit_sem b y1) /\ half d (lit_sem b x1 && lit_sem b x2) (lit_sem b y2)).
Proof.
  intros st x1 x2 y1 y2 d H1 H2 Hy1 Hy2 Hne Hne'. unfold comparator2. rewrite (lit_eqb_neq _ _ Hne), (lit_eqb_neq _ _ Hne'). cbn [negb].
  apply (emits_bind_ret _ st _ tt); [reflexivity |]. apply (emits_bind_ret _ st _ tt); [reflexivity |]. unfold half.
  eapply emits_iff with (P := fun b =>
    (dir_up d = true -> (lit_sem b x1 || lit_sem b x2 = true -> lit_sem b y1 = true) /\ (lit_sem b x1 && lit_sem b x2 = true -> lit_sem b y2 = true))
    /\ (dir_down d = true -> (lit_sem b y1 = true -> lit_sem b x1 || lit_sem b x2 = true) /\ (lit_sem b y2 = true -> lit_sem b x1 && lit_sem b x2 = true))).
  - apply emits_seq; apply emits_when; intros _.
    + eapply emits_iff.
      { apply emits_seq; [| apply emits_seq]; apply emits_add; rewrite !olds_cons, ?lit_negate_var; auto using olds_nil. }
      intros b. cbn beta. rewrite !csat_bool. cbn [existsb]. rewrite !lit_sem_negate, <- up_or, <- up_and. tauto.
    + eapply emits_iff.
      { apply emits_seq; [| apply emits_seq]; apply emits_add; rewrite !olds_cons, ?lit_negate_var; auto using olds_nil. }
      intros b. cbn beta. rewrite !csat_bool. cbn [existsb]. rewrite !lit_sem_negate, <- down_or, <- down_and. tauto.
  - intros b. tauto.
Qed.

(* ------------------------------------------------------------------------------------------------------------------ *)
(** * The merger *)

Lemma pair_ind : forall A (P : list A -> Prop), P [] -> (forall x, P [x]) -> (forall x y l, P l -> P (x :: y :: l)) -> forall l, P l.
Proof.
  intros A P H0 H1 H2. assert (H : forall l, P l /\ forall x, P (x :: l)).
  { induction l as [| y l [IH1 IH2]]; split; auto. }
  intros l. apply H.
Qed.
Lemma evens_tr : forall b l i, tr b (evens l) i = tr b l (2 * i).
Proof.
  intros b l. induction l as [| x | x y l IH] using pair_ind; intros i.
  - unfold tr. destruct i; reflexivity.
  - destruct i as [| i]; [reflexivity |]. replace (2 * S i) with (S (S (2 * i))) by lia. unfold tr. cbn [nth_error evens]. destruct i; reflexivity.
  - destruct i as [| i]; [reflexivity |]. change (evens (x :: y :: l)) with (x :: evens l). rewrite tr_cons, IH.
    replace (2 * S i) with (S (S (2 * i))) by lia. now rewrite !tr_cons.
Qed.
Lemma odds_tr : forall b l i, tr b (odds l) i = tr b l (2 * i + 1).
Proof.
  intros b [| x l] i; cbn [odds].
  - unfold tr. destruct i; reflexivity.
  - rewrite evens_tr. replace (2 * i + 1) with (S (2 * i)) by lia. now rewrite tr_cons.
Qed.
Lemma evens_len : forall A (l : list A), 2 * length (evens l) = length l \/ 2 * length (evens l) = S (length l).
Proof.
  intros A l. induction l as [| x | x y l IH] using pair_ind; [left; reflexivity | right; reflexivity |].
  change (evens (x :: y :: l)) with (x :: evens l). cbn [length]. lia.
Qed.
Lemma odds_len : forall A (l : list A), length (evens l) + length (odds l) = length l /\ length (odds l) <= length (evens l) <= S (length (odds l)).
Proof.
  intros A l. induction l as [| x | x y l IH] using pair_ind; [cbn; lia | cbn; lia |].
  change (evens (x :: y :: l)) with (x :: evens l). change (odds (x :: y :: l)) with (evens (y :: l)).
  assert (E : evens (y :: l) = y :: odds l) by (destruct l; reflexivity). rewrite E. cbn [length]. lia.
Qed.
Lemma evens_in : forall A (l : list A) x, In x (evens l) -> In x l.
Proof.
  intros A l. induction l as [| x | x y l IH] using pair_ind; intros z Hz; [destruct Hz | exact Hz |].
  change (evens (x :: y :: l)) with (x :: evens l) in Hz. destruct Hz as [-> | Hz]; [now left |]. right. right. auto.
Qed.
Lemma odds_in : forall A (l : list A) x, In x (odds l) -> In x l.
Proof. intros A [| y l] x H; [destruct H |]. right. now apply evens_in. Qed.
Lemma evens_odds_perm : forall A (l : list A), NoDup l -> NoDup (evens l) /\ NoDup (odds l) /\ (forall x, In x (evens l) -> In x (odds l) -> False).
Proof.
  intros A l. induction l as [| x | x y l IH] using pair_ind; intros H.
  - cbn. repeat split; [constructor | constructor | tauto].
  - cbn. repeat split; [assumption | constructor | tauto].
  - change (evens (x :: y :: l)) with (x :: evens l). change (odds (x :: y :: l)) with (evens (y :: l)).
    assert (E : evens (y :: l) = y :: odds l) by (destruct l; reflexivity). rewrite E.
    apply NoDup_cons_iff in H. destruct H as [Hx H]. apply NoDup_cons_iff in H. destruct H as [Hy H].
    destruct (IH H) as (I1 & I2 & I3). repeat split.
    + constructor; [| assumption]. intros Hi. apply Hx. right. now apply evens_in.
    + constructor; [| assumption]. intros Hi. apply Hy. now apply odds_in.
    + intros z [-> | Hz] [-> | Hz'].
      * apply Hx. now left.
      * apply Hx. right. now apply odds_in.
      * apply Hy. now apply evens_in.
      * eauto.
Qed.

(** What the comparators after the two merges compute. *)
Definition comb (b : valuation) (om em : list lit) (k : nat) : bool :=
  if k =? 0 then tr b om 0
  else let p := (k + 1) / 2 in
       if Nat.even k then tr b om p && tr b em (p - 1) else tr b om p || tr b em (p - 1).
Lemma comb_odd : forall b om em p, 1 <= p -> comb b om em (2 * p - 1) = tr b om p || tr b em (p - 1).
Proof.
  intros b om em p Hp. unfold comb. destruct (Nat.eqb_spec (2 * p - 1) 0); [lia |]. replace (2 * p - 1 + 1) with (p * 2) by lia.
  rewrite Nat.div_mul by lia. replace (2 * p - 1) with (S (2 * (p - 1))) by lia. rewrite Nat.even_succ, Nat.odd_mul. reflexivity.
Qed.
Lemma comb_even : forall b om em p, 1 <= p -> comb b om em (2 * p) = tr b om p && tr b em (p - 1).
Proof.
  intros b om em p Hp. unfold comb. destruct (Nat.eqb_spec (2 * p) 0); [lia |].
  assert (E : (2 * p + 1) / 2 = p) by (symmetry; apply (Nat.div_unique _ _ _ 1); lia).
  rewrite E, Nat.even_mul. reflexivity.
Qed.
Lemma agree_comb : forall st st' a b om em k, agree st st' a b -> olds st om -> olds st em -> comb b om em k = comb a om em k.
Proof.
  intros st st' a b om em k A H1 H2. unfold comb. now rewrite !(agree_tr st st' a b om), !(agree_tr st st' a b em) by assumption.
Qed.

Definition new_or (st : ctrs) (ins : list lit) (out : list lit) : Prop := forall y, In y out -> In y ins \/ ~ old st (lit_var y).

Definition sizes (c no ne : nat) : Prop :=
  2 <= c /\ 1 <= no /\ ((no = ne /\ c <= 2 * ne) \/ (no = S ne /\ c <= 2 * ne + 1) \/ (no = S (S ne) /\ c = 2 * ne + 2)).

Lemma last_tr : forall b (l : list lit) x, nth_error l (length l - 1) = Some x -> tr b l (length l - 1) = lit_sem b x.
Proof. intros b l x H. unfold tr. now rewrite H. Qed.

Lemma tr_snoc : forall b l y, tr b (l ++ [y]) (length l) = lit_sem b y.
Proof. intros b l y. rewrite tr_app_r by lia. rewrite Nat.sub_diag. reflexivity. Qed.
Lemma tr_snoc2 : forall b l y z, tr b (l ++ [y; z]) (length l) = lit_sem b y /\ tr b (l ++ [y; z]) (S (length l)) = lit_sem b z.
Proof.
  intros b l y z. rewrite !tr_app_r by lia. rewrite Nat.sub_diag. replace (S (length l) - length l) with 1 by lia. split; reflexivity.
Qed.

Lemma NoDup_snoc : forall A (l : list A) x, NoDup l -> ~ In x l -> NoDup (l ++ [x]).
Proof.
  intros A l x H Hx. induction l as [| y l IH]; cbn; [constructor; [auto | constructor] |].
  apply NoDup_cons_iff in H. destruct H as [Hy H]. constructor.
  - rewrite in_app_iff. intros [Hi | [-> | []]]; [contradiction |]. apply Hx. now left.
  - apply IH; [assumption |]. intros Hi. apply Hx. now right.
Qed.

Lemma NoDup_app_inv : forall A (l1 l2 : list A), NoDup (l1 ++ l2) ->
  NoDup l1 /\ NoDup l2 /\ (forall x y, In x l1 -> In y l2 -> x <> y).
Proof.
  intros A l1 l2 H. induction l1 as [| z l1 IH]; cbn in *; [split; [constructor |]; split; [assumption | intros x y []] |].
  apply NoDup_cons_iff in H. destruct H as [Hz H]. destruct (IH H) as (I1 & I2 & I3). rewrite in_app_iff in Hz. split; [| split].
  - constructor; tauto.
  - assumption.
  - intros x y [-> | Hx] Hy; [| auto]. intros ->. tauto.
Qed.
Lemma NoDup_app_intro : forall A (l1 l2 : list A), NoDup l1 -> NoDup l2 -> (forall x y, In x l1 -> In y l2 -> x <> y) -> NoDup (l1 ++ l2).
Proof.
  intros A l1 l2 H1 H2 H. induction l1 as [| z l1 IH]; cbn; [assumption |].
  apply NoDup_cons_iff in H1. destruct H1 as [Hz H1]. constructor.
  - rewrite in_app_iff. intros [Hi | Hi]; [contradiction |]. apply (H z z); [now left | assumption | reflexivity].
  - apply IH; [assumption |]. intros x y Hx Hy. apply H; [now right | assumption].
Qed.

(** The state of the loop: [out] holds [2 * i - 1] outputs. *)
Definition loop_post (st0 st : ctrs) (d : direction) (c : nat) (om em out : list lit) (r : list lit) (st' : ctrs) (cls : list clause) : Prop :=
  length r = c /\ olds st' r /\ NoDup r /\ new_or st0 (om ++ em) r
  /\ (exists r', r = out ++ r')
  /\ (forall b, sat b cls -> forall k, length out <= k < c -> half d (comb b om em k) (tr b r k))
  /\ (forall a, exists b, agree st st' a b /\ sat b cls /\ forall k, length out <= k < c -> tr b r k = comb a om em k).

Lemma new_or_old : forall st ins out y, new_or st ins out -> old st (lit_var y) -> ~ In y ins -> ~ In y out.
Proof. intros st ins out y H Ho Hn Hi. destruct (H y Hi); contradiction. Qed.

Lemma merge_loop_ok : forall d c om em st0,
  NoDup (om ++ em) -> olds st0 (om ++ em) -> sizes c (length om) (length em) ->
  forall fuel i out st, cle st0 st -> olds st out -> NoDup out ->
    (forall y, In y out -> nth_error om 0 = Some y \/ ~ old st0 (lit_var y)) ->
    1 <= i -> length out = 2 * i - 1 -> length out < c -> i - 1 <= length em -> i <= length om -> length om + 2 <= fuel + i ->
    runs st (merge_loop fuel c om em out i (i - 1) d) (loop_post st0 st d c om em out).
Proof.
  intros d c om em st0 Hnd Hold Hsz. pose proof Hold as Hold'. apply olds_app in Hold'. destruct Hold' as [Oom Oem].
  destruct (NoDup_app_inv _ _ _ Hnd) as (Hnom & _ & Hne).
  induction fuel as [| fuel IH]; intros i out st L0 Oout Nout Iout Hi Hlen Hc Hj Hio Hf; [lia |].
  assert (Iout' : new_or st0 (om ++ em) out).
  { intros y Hy. destruct (Iout y Hy) as [H | H]; [| now right]. left. apply in_app_iff. left. eapply nth_error_In; eauto. }
  cbn [merge_loop].
  destruct (Nat.ltb_spec i (length om)) as [Hi1 | Hi1]; destruct (Nat.ltb_spec (i - 1) (length em)) as [Hj1 | Hj1]; cbn [andb].
  - (* two literals left to compare *)
    destruct (ix_ok _ om i Hi1) as (x & Ex & Nx). destruct (ix_ok _ em (i - 1) Hj1) as (y & Ey & Ny).
    assert (Inx : In x om) by (eapply nth_error_In; eauto). assert (Iny : In y em) by (eapply nth_error_In; eauto).
    assert (Tx : forall b, tr b om i = lit_sem b x) by (intros b; unfold tr; now rewrite Nx).
    assert (Ty : forall b, tr b em (i - 1) = lit_sem b y) by (intros b; unfold tr; now rewrite Ny).
    destruct (Nat.leb_spec (length out + 2) c) as [Hc2 | Hc2].
    + eapply runs_bind with (P := fun z st' cls => cls = [] /\ ~ old st (lit_var z) /\ old st' (lit_var z)
        /\ forall a v, exists b, agree st st' a b /\ lit_sem b z = v); [apply runs_new; intuition |].
      intros z0 st1 cls L1 _ (-> & Z1 & Z2 & Z3). cbn [app].
      eapply runs_bind with (P := fun z st' cls => cls = [] /\ ~ old st1 (lit_var z) /\ old st' (lit_var z)
        /\ forall a v, exists b, agree st1 st' a b /\ lit_sem b z = v); [apply runs_new; intuition |].
      intros z1 st2 cls L2 _ (-> & W1 & W2 & W3). cbn [app].
      eapply runs_bind with (P := fun v st' cls => v = x /\ st' = st2 /\ cls = []); [eapply runs_lift; [exact Ex | auto] |].
      intros v st' cls _ _ (-> & -> & ->). cbn [app].
      eapply runs_bind with (P := fun v st' cls => v = y /\ st' = st2 /\ cls = []); [eapply runs_lift; [exact Ey | auto] |].
      intros v st' cls _ _ (-> & -> & ->). cbn [app].
      assert (L02 : cle st st2) by scle.
      assert (Ox : old st (lit_var x)) by (eapply old_mono; [exact L0 | auto]).
      assert (Oy : old st (lit_var y)) by (eapply old_mono; [exact L0 | auto]).
      assert (Oz0 : old st2 (lit_var z0)) by (solds1).
      assert (Hzz : z0 <> z1) by (intros ->; contradiction).
      assert (Nz0 : ~ old st0 (lit_var z0)) by (intros H; apply Z1; solds1).
      assert (Nz1 : ~ old st0 (lit_var z1)) by (intros H; apply W1; eapply old_mono; [| exact H]; scle).
      assert (Oout2 : olds st2 (out ++ [z0; z1])).
      { rewrite olds_app, !olds_cons. split; [solds |]. split; [assumption |]. split; [assumption | apply olds_nil]. }
      assert (Nout2 : NoDup (out ++ [z0; z1])).
      { change [z0; z1] with ([z0] ++ [z1]). rewrite app_assoc. apply NoDup_snoc; [apply NoDup_snoc; [assumption |] |].
        - intros H. apply Z1. now apply Oout.
        - rewrite in_app_iff. intros [H | [H | []]]; [| contradiction]. apply W1. eapply old_mono; [exact L1 |]. now apply Oout. }
      assert (Iout2 : forall w, In w (out ++ [z0; z1]) -> nth_error om 0 = Some w \/ ~ old st0 (lit_var w)).
      { intros w Hw. apply in_app_iff in Hw. destruct Hw as [Hw | [<- | [<- | []]]]; auto. }
      assert (Lout2 : length (out ++ [z0; z1]) = 2 * S i - 1) by (rewrite app_length; cbn [length]; lia).
      eapply runs_emits.
      { apply (emits_comparator2 st2 x y z0 z1 d); auto; solds1. }
      intros c1 B1 M1.
      assert (Ek : length out = 2 * i - 1) by lia.
      (* the two new outputs *)
      assert (Hdown : forall b r', sat b c1 -> half d (comb b om em (length out)) (tr b ((out ++ [z0; z1]) ++ r') (length out))
                /\ half d (comb b om em (S (length out))) (tr b ((out ++ [z0; z1]) ++ r') (S (length out)))).
      { intros b r' Hb. apply M1 in Hb. rewrite !(tr_app_l b (out ++ [z0; z1]) r') by lia. destruct (tr_snoc2 b out z0 z1) as [E1 E2]. rewrite E1, E2.
        replace (S (length out)) with (2 * i) by lia. rewrite Ek, comb_odd, comb_even, Tx, Ty by lia. exact Hb. }
      assert (Hup : forall a, exists b, agree st st2 a b /\ sat b c1 /\ lit_sem b z0 = comb a om em (length out)
                     /\ lit_sem b z1 = comb a om em (S (length out))).
      { intros a. destruct (Z3 a (comb a om em (length out))) as [b1 [A1 V1]].
        destruct (W3 b1 (comb a om em (S (length out)))) as [b2 [A2 V2]].
        assert (A : agree st st2 a b2) by (eapply agree_trans; [exact L1 | exact L2 | exact A1 | exact A2]).
        assert (V1' : lit_sem b2 z0 = comb a om em (length out)) by (rewrite <- V1; eapply agree_lit; eauto).
        exists b2. split; [exact A |]. split; [| auto]. apply M1. rewrite V1', V2.
        replace (S (length out)) with (2 * i) by lia. rewrite Ek, comb_odd, comb_even, Tx, Ty by lia.
        rewrite (agree_lit st st2 a b2 x A Ox), (agree_lit st st2 a b2 y A Oy). split; apply half_eq; reflexivity. }
      destruct (Nat.eqb_spec (length out + 2) c) as [Ec | Ec].
      * apply runs_ret. rewrite app_nil_r. split; [rewrite Lout2; lia |]. split; [assumption |]. split; [assumption |]. split.
        { intros w Hw. destruct (Iout2 w Hw) as [H | H]; [| now right]. left. apply in_app_iff. left. eapply nth_error_In; eauto. }
        split; [exists [z0; z1]; reflexivity |]. split.
        -- intros b Hb k Hk. destruct (Hdown b [] Hb) as [H1 H2]. rewrite app_nil_r in H1, H2.
           assert (k = length out \/ k = S (length out)) as [-> | ->] by lia; assumption.
        -- intros a. destruct (Hup a) as (b & A & S & V1 & V2). exists b. split; [assumption |]. split; [assumption |].
           intros k Hk. destruct (tr_snoc2 b out z0 z1) as [E1 E2].
           assert (k = length out \/ k = Datatypes.S (length out)) as [-> | ->] by lia; congruence.
      * eapply runs_conseq.
        { replace (S (i - 1)) with (S i - 1) by lia. apply IH; auto; try lia. scle. }
        cbn beta. intros r st3 c2 L3 B2 (R1 & R2 & R3 & R4 & (r' & ->) & R6 & R7).
        split; [assumption |]. split; [assumption |]. split; [assumption |]. split; [assumption |].
        split; [exists ([z0; z1] ++ r'); now rewrite app_assoc |]. rewrite Lout2 in R6, R7. split.
        -- intros b Hb k Hk. apply sat_app in Hb. destruct Hb as [H1 H2]. destruct (Hdown b r' H1) as [D1 D2].
           assert (k = length out \/ k = S (length out) \/ 2 * S i - 1 <= k) as [-> | [-> | Hk']] by lia; [assumption | assumption |].
           apply R6; [assumption | lia].
        -- intros a. destruct (Hup a) as (b & A & S & V1 & V2). destruct (R7 b) as (b' & A' & S' & V').
           exists b'. split; [eapply agree_trans; [| exact L3 | exact A | exact A']; scle |].
           split; [apply sat_app; split; [eapply agree_sat; eauto | assumption] |].
           intros k Hk. assert (k = length out \/ k = Datatypes.S (length out) \/ 2 * Datatypes.S i - 1 <= k) as [-> | [-> | Hk']] by lia.
           ++ rewrite tr_app_l by lia. destruct (tr_snoc2 b' out z0 z1) as [-> _]. rewrite <- V1. eapply agree_lit; eauto.
           ++ rewrite tr_app_l by lia. destruct (tr_snoc2 b' out z0 z1) as [_ ->]. rewrite <- V2. eapply agree_lit; eauto.
           ++ rewrite V' by lia. eapply agree_comb; [exact A | solds | solds].
    + destruct (Nat.eqb_spec (length out + 1) c) as [Ec | Ec]; [| lia].
      eapply runs_bind with (P := fun z st' cls => cls = [] /\ ~ old st (lit_var z) /\ old st' (lit_var z)
        /\ forall a v, exists b, agree st st' a b /\ lit_sem b z = v); [apply runs_new; intuition |].
      intros z0 st1 cls L1 _ (-> & Z1 & Z2 & Z3). cbn [app].
      eapply runs_bind with (P := fun v st' cls => v = x /\ st' = st1 /\ cls = []); [eapply runs_lift; [exact Ex | auto] |].
      intros v st' cls _ _ (-> & -> & ->). cbn [app].
      eapply runs_bind with (P := fun v st' cls => v = y /\ st' = st1 /\ cls = []); [eapply runs_lift; [exact Ey | auto] |].
      intros v st' cls _ _ (-> & -> & ->). cbn [app].
      assert (Ox : old st (lit_var x)) by (eapply old_mono; [exact L0 | auto]).
      assert (Oy : old st (lit_var y)) by (eapply old_mono; [exact L0 | auto]).
      eapply runs_emits.
      { apply (emits_comparator1 st1 x y z0 d); auto; solds1. }
      intros c1 B1 M1. apply runs_ret. rewrite app_nil_r. split; [rewrite app_length; cbn; lia |]. split.
      { rewrite olds_app, olds_cons. split; [solds |]. split; [assumption | apply olds_nil]. }
      split; [apply NoDup_snoc; [assumption |]; intros H; apply Z1; now apply Oout |]. split.
      { intros w Hw. apply in_app_iff in Hw. destruct Hw as [Hw | [<- | []]]; [now apply Iout' |]. right.
        intros H. apply Z1. solds1. }
      split; [now exists [z0] |]. split.
      * intros b Hb k Hk. assert (k = length out) as -> by lia. rewrite tr_snoc, Hlen, comb_odd, Tx, Ty by lia. now apply M1.
      * intros a. destruct (Z3 a (comb a om em (length out))) as [b1 [A1 V1]]. exists b1. split; [assumption |]. split.
        -- apply M1. rewrite V1, Hlen, comb_odd, Tx, Ty by lia.
           rewrite (agree_lit st st1 a b1 x A1 Ox), (agree_lit st st1 a b1 y A1 Oy). apply half_eq. reflexivity.
        -- intros k Hk. assert (k = length out) as -> by lia. now rewrite tr_snoc.
  - (* the even literals are used up *)
    destruct (Nat.leb_spec (length om) i) as [H | _]; [lia |]. cbn [andb].
    destruct (ix_ok _ om (length om - 1) ltac:(lia)) as (x & Ex & Nx).
    unfold sizes in Hsz. assert (Ei : length om - 1 = i) by lia.
    eapply runs_bind with (P := fun v st' cls => v = x /\ st' = st /\ cls = []); [eapply runs_lift; [exact Ex | auto] |].
    intros v st' cls _ _ (-> & -> & ->). cbn [app].
    destruct fuel as [| fuel]; [lia |]. cbn [merge_loop].
    destruct (Nat.ltb_spec (S i) (length om)) as [H | _]; [lia |]. cbn [andb].
    destruct (Nat.leb_spec (length om) (S i)) as [_ | H]; [| lia].
    destruct (Nat.leb_spec (length em) (S (i - 1))) as [_ | H]; [| lia]. cbn [andb].
    assert (Inx : In x om) by (eapply nth_error_In; eauto).
    assert (Tx : forall b, tr b om i = lit_sem b x) by (intros b; unfold tr; rewrite <- Ei; now rewrite Nx).
    assert (Tem : forall b, tr b em (i - 1) = false).
    { intros b. destruct (tr b em (i - 1)) eqn:E; [| reflexivity]. apply tr_lt in E. lia. }
    assert (Ec : forall b, comb b om em (length out) = lit_sem b x).
    { intros b. rewrite Hlen, comb_odd, Tx, Tem by lia. apply orb_false_r. }
    apply runs_ret. split; [rewrite app_length; cbn; lia |]. split.
    { rewrite olds_app, olds_cons. split; [assumption |]. split; [eapply old_mono; [exact L0 | auto] | apply olds_nil]. }
    split.
    { apply NoDup_snoc; [assumption |]. intros H. destruct (Iout x H) as [H' | H']; [| apply H'; auto].
      assert (0 = length om - 1); [| lia]. eapply NoDup_nth_error; [exact Hnom | lia | congruence]. }
    split.
    { intros w Hw. apply in_app_iff in Hw. destruct Hw as [Hw | [<- | []]]; [now apply Iout' |]. left. apply in_app_iff. now left. }
    split; [now exists [x] |]. split.
    + intros b _ k Hk. assert (k = length out) as -> by lia. apply half_eq. now rewrite tr_snoc, Ec.
    + intros a. exists a. split; [apply agree_refl |]. split; [apply sat_nil |].
      intros k Hk. assert (k = length out) as -> by lia. now rewrite tr_snoc, Ec.
  - (* the odd literals are used up *)
    destruct (Nat.leb_spec (length om) i) as [_ | H]; [| lia].
    destruct (Nat.leb_spec (length em) (i - 1)) as [H | _]; [lia |]. cbn [andb].
    destruct (ix_ok _ em (length em - 1) ltac:(lia)) as (x & Ex & Nx).
    unfold sizes in Hsz. assert (Ei : length em - 1 = i - 1) by lia.
    eapply runs_bind with (P := fun v st' cls => v = x /\ st' = st /\ cls = []); [eapply runs_lift; [exact Ex | auto] |].
    intros v st' cls _ _ (-> & -> & ->). cbn [app].
    destruct fuel as [| fuel]; [lia |]. cbn [merge_loop].
    destruct (Nat.ltb_spec (S i) (length om)) as [H | _]; [lia |]. cbn [andb].
    destruct (Nat.leb_spec (length om) (S i)) as [_ | H]; [| lia].
    destruct (Nat.leb_spec (length em) (S (i - 1))) as [_ | H]; [| lia]. cbn [andb].
    assert (Inx : In x em) by (eapply nth_error_In; eauto).
    assert (Tx : forall b, tr b em (i - 1) = lit_sem b x) by (intros b; unfold tr; rewrite <- Ei; now rewrite Nx).
    assert (Tom : forall b, tr b om i = false).
    { intros b. destruct (tr b om i) eqn:E; [| reflexivity]. apply tr_lt in E. lia. }
    assert (Ec : forall b, comb b om em (length out) = lit_sem b x).
    { intros b. rewrite Hlen, comb_odd, Tx, Tom by lia. reflexivity. }
    apply runs_ret. split; [rewrite app_length; cbn; lia |]. split.
    { rewrite olds_app, olds_cons. split; [assumption |]. split; [eapply old_mono; [exact L0 | auto] | apply olds_nil]. }
    split.
    { apply NoDup_snoc; [assumption |]. intros H. destruct (Iout x H) as [H' | H']; [| apply H'; auto].
      apply (Hne x x); [eapply nth_error_In; eauto | assumption | reflexivity]. }
    split.
    { intros w Hw. apply in_app_iff in Hw. destruct Hw as [Hw | [<- | []]]; [now apply Iout' |]. left. apply in_app_iff. now right. }
    split; [now exists [x] |]. split.
    + intros b _ k Hk. assert (k = length out) as -> by lia. apply half_eq. now rewrite tr_snoc, Ec.
    + intros a. exists a. split; [apply agree_refl |]. split; [apply sat_nil |].
      intros k Hk. assert (k = length out) as -> by lia. now rewrite tr_snoc, Ec.
  - (* nothing left: the output is already complete *)
    exfalso. unfold sizes in Hsz. lia.
Qed.

(** What the output of a merger says about its inputs. *)
Definition merge_down (b : valuation) (xa xb out : list lit) : Prop :=
  forall k, tr b out k = true -> exists i j, thr b xa i /\ thr b xb j /\ k + 1 <= i + j.
Definition merge_up (b : valuation) (xa xb out : list lit) : Prop :=
  forall i j k, lead b xa i -> lead b xb j -> k < i + j -> k < length out -> tr b out k = true.

Lemma canon_lead : forall b l n, canon b l n -> lead b l (min n (length l)).
Proof. intros b l n H i Hi. rewrite H by lia. apply Nat.ltb_lt. lia. Qed.
Lemma lead_canon : forall b l n, (forall i, i < length l -> tr b l i = true -> i < n) -> lead b l (min n (length l)) -> canon b l n.
Proof.
  intros b l n H1 H2 i Hi. destruct (tr b l i) eqn:E; symmetry; [apply Nat.ltb_lt; auto | apply Nat.ltb_ge].
  destruct (le_lt_dec n i) as [| Hlt]; [assumption |]. rewrite (H2 i) in E by lia. discriminate.
Qed.

Lemma thr_evens : forall b l p, thr b (evens l) p -> p = 0 \/ thr b l (2 * p - 1).
Proof. intros b l p [-> | H]; [now left |]. destruct p as [| p]; [now left |]. right. right. rewrite evens_tr in H. rewrite <- H. f_equal. lia. Qed.
Lemma thr_odds : forall b l p, thr b (odds l) p -> thr b l (2 * p).
Proof. intros b l p [-> | H]; [now left |]. destruct p as [| p]; [now left |]. right. rewrite odds_tr in H. rewrite <- H. f_equal. lia. Qed.
Lemma lead_evens : forall b l i p, lead b l i -> 2 * p <= i + 1 -> lead b (evens l) p.
Proof. intros b l i p H Hp k Hk. rewrite evens_tr. apply H. lia. Qed.
Lemma lead_odds : forall b l i p, lead b l i -> 2 * p <= i -> lead b (odds l) p.
Proof. intros b l i p H Hp k Hk. rewrite odds_tr. apply H. lia. Qed.

Lemma parity : forall k, k = 0 \/ (exists p, 1 <= p /\ k = 2 * p - 1) \/ (exists p, 1 <= p /\ k = 2 * p).
Proof.
  intros k. destruct (Nat.Even_or_Odd k) as [[p ->] | [p ->]].
  - destruct p; [now left | right; right]. exists (S p). lia.
  - right. left. exists (S p). lia.
Qed.

(** The odd and even merges and the comparators together merge. *)
Lemma comb_down : forall b xa xb om em k,
  merge_down b (evens xa) (evens xb) om -> merge_down b (odds xa) (odds xb) em -> comb b om em k = true ->
  exists i j, thr b xa i /\ thr b xb j /\ k + 1 <= i + j.
Proof.
  intros b xa xb om em k HO HE Hk.
  assert (PO : forall p, tr b om p = true -> exists i j, thr b xa i /\ thr b xb j /\ 2 * p <= i + j /\
              (i + j = 2 * p -> Nat.Odd i /\ Nat.Odd j) /\ 1 <= i + j).
  { intros p Hp. destruct (HO p Hp) as (i & j & Hi & Hj & Hij). apply thr_evens in Hi, Hj.
    destruct Hi as [-> | Hi]; destruct Hj as [-> | Hj]; [lia | | |].
    - exists 0, (2 * j - 1). split; [now left |]. split; [assumption |]. split; [lia |]. split; lia.
    - exists (2 * i - 1), 0. split; [assumption |]. split; [now left |]. split; [lia |]. split; lia.
    - destruct (Nat.eq_dec i 0) as [-> | Hi0].
      { exists 0, (2 * j - 1). split; [now left |]. split; [assumption |]. split; [lia |]. split; lia. }
      destruct (Nat.eq_dec j 0) as [-> | Hj0].
      { exists (2 * i - 1), 0. split; [assumption |]. split; [now left |]. split; [lia |]. split; lia. }
      exists (2 * i - 1), (2 * j - 1). split; [assumption |]. split; [assumption |]. split; [lia |]. split; [| lia].
      intros _. split; [exists (i - 1) | exists (j - 1)]; lia. }
  assert (PE : forall p, tr b em p = true -> exists i j, thr b xa (2 * i) /\ thr b xb (2 * j) /\ p + 1 <= i + j).
  { intros p Hp. destruct (HE p Hp) as (i & j & Hi & Hj & Hij). apply thr_odds in Hi, Hj. exists i, j. auto. }
  destruct (parity k) as [-> | [[p [Hp ->]] | [p [Hp ->]]]].
  - destruct (PO 0 Hk) as (i & j & Hi & Hj & _ & _ & H). exists i, j. split; [assumption |]. split; [assumption | lia].
  - rewrite comb_odd in Hk by assumption. apply orb_prop in Hk. destruct Hk as [Hk | Hk].
    + destruct (PO p Hk) as (i & j & Hi & Hj & H & _). exists i, j. split; [assumption |]. split; [assumption | lia].
    + destruct (PE _ Hk) as (i & j & Hi & Hj & H). exists (2 * i), (2 * j). split; [assumption |]. split; [assumption | lia].
  - rewrite comb_even in Hk by assumption. apply andb_prop in Hk. destruct Hk as [Hk1 Hk2].
    destruct (PO p Hk1) as (i & j & Hi & Hj & H & Hodd & _). destruct (PE _ Hk2) as (i' & j' & Hi' & Hj' & H').
    destruct (Nat.eq_dec (i + j) (2 * p)) as [E | E].
    + destruct (Hodd E) as [[q ->] [r ->]]. assert (q < i' \/ r < j') as [Hlt | Hlt] by lia.
      * exists (2 * i'), (2 * r + 1). split; [assumption |]. split; [assumption | lia].
      * exists (2 * q + 1), (2 * j'). split; [assumption |]. split; [assumption | lia].
    + exists i, j. split; [assumption |]. split; [assumption | lia].
Qed.

Lemma halves : forall i, exists p q, p + q = i /\ q <= p <= q + 1.
Proof. intros i. destruct (Nat.Even_or_Odd i) as [[h ->] | [h ->]]; [exists h, h | exists (h + 1), h]; lia. Qed.

Lemma comb_up : forall b xa xb om em c k i j,
  merge_up b (evens xa) (evens xb) om -> merge_up b (odds xa) (odds xb) em ->
  length om = min (c / 2 + 1) (length (evens xa) + length (evens xb)) ->
  length em = min (c / 2) (length (odds xa) + length (odds xb)) -> k < c ->
  lead b xa i -> lead b xb j -> k < i + j -> comb b om em k = true.
Proof.
  intros b xa xb om em c k i j HO HE Lo Le Hk Hi Hj Hij.
  assert (Hc2 : c <= 2 * (c / 2) + 1).
  { pose proof (Nat.div_mod_eq c 2). pose proof (Nat.mod_upper_bound c 2). lia. }
  set (h := c / 2) in *. clearbody h.
  destruct (halves i) as (pi & qi & Ei & Hpi). destruct (halves j) as (pj & qj & Ej & Hpj).
  pose proof (lead_evens b xa i pi Hi ltac:(lia)) as LE1. pose proof (lead_evens b xb j pj Hj ltac:(lia)) as LE2.
  pose proof (lead_odds b xa i qi Hi ltac:(lia)) as LO1. pose proof (lead_odds b xb j qj Hj ltac:(lia)) as LO2.
  pose proof (lead_len _ _ _ LE1). pose proof (lead_len _ _ _ LE2). pose proof (lead_len _ _ _ LO1). pose proof (lead_len _ _ _ LO2).
  specialize (HO pi pj). specialize (HE qi qj).
  destruct (parity k) as [-> | [[p [Hp ->]] | [p [Hp ->]]]].
  - change (comb b om em 0) with (tr b om 0). apply HO; auto; lia.
  - rewrite comb_odd by assumption. apply orb_true_iff. assert (p + 1 <= pi + pj \/ p <= qi + qj) as [Hs | Hs] by lia.
    + left. apply HO; auto; lia.
    + right. apply HE; auto; lia.
  - rewrite comb_even by assumption. apply andb_true_iff. split; [apply HO | apply HE]; auto; lia.
Qed.

Lemma canon_evens : forall b l x p q, canon b l x -> p + q = x -> q <= p <= q + 1 -> canon b (evens l) p.
Proof.
  intros b l x p q H E Hp i Hi. rewrite evens_tr. rewrite H.
  - destruct (Nat.ltb_spec (2 * i) x), (Nat.ltb_spec i p); try reflexivity; lia.
  - destruct (evens_len _ l); lia.
Qed.
Lemma canon_odds : forall b l x p q, canon b l x -> p + q = x -> q <= p <= q + 1 -> canon b (odds l) q.
Proof.
  intros b l x p q H E Hp i Hi. rewrite odds_tr. rewrite H.
  - destruct (Nat.ltb_spec (2 * i + 1) x), (Nat.ltb_spec i q); try reflexivity; lia.
  - pose proof (odds_len _ l). lia.
Qed.
Lemma canon_merge : forall b xa xb out x y, canon b xa x -> canon b xb y -> canon b out (x + y) -> x <= length xa -> y <= length xb ->
  merge_down b xa xb out /\ merge_up b xa xb out.
Proof.
  intros b xa xb out x y Ca Cb Co Hx Hy. split.
  - intros k Hk. apply (canon_true _ _ _ _ Co) in Hk. exists x, y.
    pose proof (canon_lead _ _ _ Ca) as La. pose proof (canon_lead _ _ _ Cb) as Lb.
    split; [eapply lead_thr; [exact La | lia] |]. split; [eapply lead_thr; [exact Lb | lia] | lia].
  - intros i j k Hi Hj Hk Hl. rewrite Co by assumption. apply Nat.ltb_lt.
    pose proof (lead_len _ _ _ Hi). pose proof (lead_len _ _ _ Hj).
    apply (lead_thr _ _ _ i) in Hi; [| lia]. apply (lead_thr _ _ _ j) in Hj; [| lia].
    apply (canon_thr _ _ _ _ Ca) in Hi; [| assumption]. apply (canon_thr _ _ _ _ Cb) in Hj; [| assumption]. lia.
Qed.

Definition merge_post (d : direction) (m : nat) (xa xb : list lit) (st : ctrs) (out : list lit) (st' : ctrs) (cls : list clause) : Prop :=
  length out = min m (length xa + length xb) /\ olds st' out /\ NoDup out /\ new_or st (xa ++ xb) out
  /\ (dir_up d = true -> forall b, sat b cls -> merge_up b xa xb out)
  /\ (dir_down d = true -> forall b, sat b cls -> merge_down b xa xb out)
  /\ (forall a x y, canon a xa x -> canon a xb y -> x <= length xa -> y <= length xb ->
        exists b, agree st st' a b /\ sat b cls /\ canon b out (x + y)).

Lemma new_or_refl : forall st xs, new_or st xs xs.
Proof. intros st xs y Hy. now left. Qed.

Lemma merge_post_nil_l : forall d m xb st, length xb <= m -> olds st xb -> NoDup xb -> merge_post d m [] xb st xb st [].
Proof.
  intros d m xb st Hl Ho Hn. split; [cbn; lia |]. split; [assumption |]. split; [assumption |]. split; [apply new_or_refl |]. split; [| split].
  - intros _ b _ i j k Hi Hj Hk _. apply lead_len in Hi. cbn in Hi. apply Hj. lia.
  - intros _ b _ k Hk. exists 0, (k + 1). split; [now left |]. split; [| lia]. right. now replace (k + 1 - 1) with k by lia.
  - intros a x y _ Hy Hx _. cbn in Hx. exists a. split; [apply agree_refl |]. split; [apply sat_nil |]. now replace (x + y) with y by lia.
Qed.
Lemma merge_post_nil_r : forall d m xa st, length xa <= m -> olds st xa -> NoDup xa -> merge_post d m xa [] st xa st [].
Proof.
  intros d m xa st Hl Ho Hn. split; [cbn; lia |]. split; [assumption |]. split; [assumption |]. split; [rewrite app_nil_r; apply new_or_refl |].
  split; [| split].
  - intros _ b _ i j k Hi Hj Hk _. apply lead_len in Hj. cbn in Hj. apply Hi. lia.
  - intros _ b _ k Hk. exists (k + 1), 0. split; [| split; [now left | lia]]. right. now replace (k + 1 - 1) with k by lia.
  - intros a x y Hx _ _ Hy. cbn in Hy. exists a. split; [apply agree_refl |]. split; [apply sat_nil |]. now replace (x + y) with x by lia.
Qed.

Lemma tr_nil : forall b i, tr b [] i = false.
Proof. intros b [|]; reflexivity. Qed.

(** A merger of single literals, or with a single output. *)
Lemma merge_one : forall d st xa xb x0 x1 xa' xb', xa = x0 :: xa' -> xb = x1 :: xb' -> olds st (xa ++ xb) -> NoDup (xa ++ xb) ->
  runs st (y <~ new_aux AuxCC ;; comparator1 x0 x1 y d ;; gret [y]) (merge_post d 1 xa xb st).
Proof.
  intros d st xa xb x0 x1 xa' xb' -> -> Ho Hnd.
  assert (Hne : x0 <> x1) by (apply NoDup_app_inv in Hnd; apply Hnd; now left).
  assert (O0 : old st (lit_var x0)) by (apply Ho; now left).
  assert (O1 : old st (lit_var x1)) by (apply Ho; apply in_app_iff; right; now left).
  eapply runs_bind with (P := fun z st' cls => cls = [] /\ ~ old st (lit_var z) /\ old st' (lit_var z)
    /\ forall a v, exists b, agree st st' a b /\ lit_sem b z = v); [apply runs_new; intuition |].
  intros y st1 cls L1 _ (-> & Z1 & Z2 & Z3). cbn [app].
  eapply runs_emits; [apply (emits_comparator1 st1 x0 x1 y d); auto; solds1 |]. intros c1 B1 M1. apply runs_ret. rewrite app_nil_r.
  split; [cbn [length]; lia |]. split; [rewrite olds_cons; auto using olds_nil |].
  split; [constructor; [auto | constructor] |]. split; [intros w [<- | []]; now right |]. split; [| split].
  - intros Hd b Hb i j k Hi Hj Hk Hl. cbn in Hl. assert (k = 0) as -> by lia. unfold tr. cbn.
    apply M1 in Hb. apply Hb; [assumption |]. apply orb_true_iff. assert (0 < i \/ 0 < j) as [H | H] by lia; [left; now apply (Hi 0) | right; now apply (Hj 0)].
  - intros Hd b Hb k Hk. pose proof (tr_lt _ _ _ Hk) as Hl. cbn in Hl. assert (k = 0) as -> by lia. apply M1 in Hb.
    apply Hb in Hk; [| assumption]. apply orb_prop in Hk. destruct Hk as [H | H].
    + exists 1, 0. split; [right; exact H |]. split; [now left | lia].
    + exists 0, 1. split; [now left |]. split; [right; exact H | lia].
  - intros a x z Hx Hz _ _. destruct (Z3 a (0 <? x + z)) as [b [A V]]. exists b. split; [assumption |].
    assert (E0 : lit_sem a x0 = (0 <? x)) by (apply (Hx 0); cbn; lia). assert (E1 : lit_sem a x1 = (0 <? z)) by (apply (Hz 0); cbn; lia).
    split.
    + apply M1. apply half_eq. rewrite V, (agree_lit st st1 a b x0 A O0), (agree_lit st st1 a b x1 A O1), E0, E1.
      destruct x, z; reflexivity.
    + intros k Hk. cbn in Hk. assert (k = 0) as -> by lia. exact V.
Qed.

Lemma merge_two : forall d st x0 x1, olds st [x0; x1] -> x0 <> x1 ->
  runs st (y1 <~ new_aux AuxCC ;; y2 <~ new_aux AuxCC ;; comparator2 x0 x1 y1 y2 d ;; gret [y1; y2]) (merge_post d 2 [x0] [x1] st).
Proof.
  intros d st x0 x1 Ho Hne.
  assert (O0 : old st (lit_var x0)) by (apply Ho; now left). assert (O1 : old st (lit_var x1)) by (apply Ho; right; now left).
  eapply runs_bind with (P := fun z st' cls => cls = [] /\ ~ old st (lit_var z) /\ old st' (lit_var z)
    /\ forall a v, exists b, agree st st' a b /\ lit_sem b z = v); [apply runs_new; intuition |].
  intros y1 st1 cls L1 _ (-> & Z1 & Z2 & Z3). cbn [app].
  eapply runs_bind with (P := fun z st' cls => cls = [] /\ ~ old st1 (lit_var z) /\ old st' (lit_var z)
    /\ forall a v, exists b, agree st1 st' a b /\ lit_sem b z = v); [apply runs_new; intuition |].
  intros y2 st2 cls L2 _ (-> & W1 & W2 & W3). cbn [app].
  assert (Hyy : y1 <> y2) by (intros ->; contradiction).
  eapply runs_emits; [apply (emits_comparator2 st2 x0 x1 y1 y2 d); auto; solds1 |]. intros c1 B1 M1. apply runs_ret. rewrite app_nil_r.
  split; [reflexivity |]. split; [rewrite !olds_cons; split; [solds1 |]; auto using olds_nil |].
  split; [constructor; [intros [H | []]; congruence | constructor; [auto | constructor]] |].
  split; [intros w [<- | [<- | []]]; right; [assumption | intros H; apply W1; solds1] |]. split; [| split].
  - intros Hd b Hb i j k Hi Hj Hk Hl. apply M1 in Hb. destruct Hb as [[Hb1 _] [Hb2 _]]. specialize (Hb1 Hd). specialize (Hb2 Hd).
    pose proof (lead_len _ _ _ Hi). pose proof (lead_len _ _ _ Hj). cbn in H, H0, Hl.
    assert (k = 0 \/ k = 1) as [-> | ->] by lia; unfold tr; cbn.
    + apply Hb1. apply orb_true_iff. assert (0 < i \/ 0 < j) as [H1 | H1] by lia; [left; now apply (Hi 0) | right; now apply (Hj 0)].
    + apply Hb2. apply andb_true_iff. split; [apply (Hi 0); lia | apply (Hj 0); lia].
  - intros Hd b Hb k Hk. pose proof (tr_lt _ _ _ Hk) as Hl. cbn in Hl. apply M1 in Hb. destruct Hb as [[_ Hb1] [_ Hb2]].
    specialize (Hb1 Hd). specialize (Hb2 Hd). assert (k = 0 \/ k = 1) as [-> | ->] by lia; unfold tr in Hk; cbn in Hk.
    + apply Hb1 in Hk. apply orb_prop in Hk. destruct Hk as [H | H].
      * exists 1, 0. split; [right; exact H |]. split; [now left | lia].
      * exists 0, 1. split; [now left |]. split; [right; exact H | lia].
    + apply Hb2 in Hk. apply andb_prop in Hk. destruct Hk as [H H']. exists 1, 1. split; [right; exact H |]. split; [right; exact H' | lia].
  - intros a x z Hx Hz Lx Lz. cbn in Lx, Lz. destruct (Z3 a (0 <? x + z)) as [b1 [A1 V1]]. destruct (W3 b1 (1 <? x + z)) as [b2 [A2 V2]].
    assert (A : agree st st2 a b2) by (eapply agree_trans; [exact L1 | exact L2 | exact A1 | exact A2]).
    assert (E0 : lit_sem a x0 = (0 <? x)) by (apply (Hx 0); cbn; lia). assert (E1 : lit_sem a x1 = (0 <? z)) by (apply (Hz 0); cbn; lia).
    assert (V1' : lit_sem b2 y1 = (0 <? x + z)) by (rewrite <- V1; eapply agree_lit; eauto).
    exists b2. split; [assumption |]. split.
    + apply M1. rewrite V1', V2, (agree_lit st st2 a b2 x0 A O0), (agree_lit st st2 a b2 x1 A O1), E0, E1.
      assert (x = 0 \/ x = 1) as [-> | ->] by lia; assert (z = 0 \/ z = 1) as [-> | ->] by lia; split; apply half_eq; reflexivity.
    + intros k Hk. cbn in Hk. assert (k = 0 \/ k = 1) as [-> | ->] by lia; assumption.
Qed.

Lemma cc_merge_ok : forall d, d <> InToOut -> forall fuel m xa xb st,
  1 <= m -> length xa <= m -> length xb <= m -> length xa + length xb < fuel -> NoDup (xa ++ xb) -> olds st (xa ++ xb) ->
  runs st (cc_merge fuel m xa xb d) (merge_post d m xa xb st).
Proof.
  intros d Hd. induction fuel as [| fuel IH]; intros m xa xb st Hm Ha Hb Hf Hnd Ho; [lia |]. cbn [cc_merge].
  destruct (Nat.eqb_spec m 0) as [E | _]; [lia |].
  destruct xa as [| a0 xa']; [apply runs_ret; now apply merge_post_nil_l |].
  destruct xb as [| b0 xb']; [rewrite app_nil_r in *; apply runs_ret; now apply merge_post_nil_r |].
  set (xa := a0 :: xa') in *. set (xb := b0 :: xb') in *.
  assert (La : 1 <= length xa) by (cbn; lia). assert (Lb : 1 <= length xb) by (cbn; lia).
  set (c := min m (length xa + length xb)).
  assert (Hdir : forall g1 g2 : G (list lit), match d with InToOut => g1 | _ => g2 end = g2) by (intros; destruct d; congruence).
  rewrite Hdir. clear Hdir.
  replace (min c (length xa)) with (length xa) by lia. replace (min c (length xb)) with (length xb) by lia.
  assert (Hmc : forall out st' cls, merge_post d c xa xb st out st' cls -> merge_post d m xa xb st out st' cls).
  { intros out st' cls (H1 & H2). split; [lia | exact H2]. }
  eapply runs_bind with (P := merge_post d c xa xb st).
  2: { intros out st1 cls L B H. pose proof H as [Hl _].
       eapply runs_bind with (P := fun _ st' cls => st' = st1 /\ cls = []); [apply runs_assert; [apply Nat.eqb_eq; lia | auto] |].
       intros _ st2 cls2 _ _ [-> ->]. cbn [app]. apply runs_ret. rewrite app_nil_r. now apply Hmc. }
  destruct (Nat.eqb_spec c 1) as [Ec | Ec].
  { rewrite Ec. eapply merge_one; try reflexivity; assumption. }
  destruct ((length xa =? 1) && (length xb =? 1)) eqn:Eab.
  { apply andb_prop in Eab. destruct Eab as [Ea Eb]. apply Nat.eqb_eq in Ea, Eb.
    assert (xa' = []) as Ea' by (destruct xa'; [reflexivity | cbn in Ea; lia]). assert (xb' = []) as Eb' by (destruct xb'; [reflexivity | cbn in Eb; lia]).
    assert (Ec2 : c = 2) by lia. rewrite Ec2. eapply runs_bind with (P := fun _ st' cls => st' = st /\ cls = []); [apply runs_assert; auto |].
    intros _ st2 cls2 _ _ [-> ->]. cbn [app]. subst xa xb. rewrite Ea', Eb' in *. apply merge_two; [assumption |].
    apply NoDup_app_inv in Hnd. apply Hnd; now left. }
  rewrite !firstn_all.
  assert (Hbig : 3 <= length xa + length xb).
  { apply andb_false_iff in Eab. rewrite !Nat.eqb_neq in Eab. lia. }
  clear Eab. destruct (NoDup_app_inv _ _ _ Hnd) as (Na & Nb & Nab);
    destruct (evens_odds_perm _ _ Na) as (Nea & Noa & Neo); destruct (evens_odds_perm _ _ Nb) as (Neb & Nob & Neob);
    pose proof (odds_len _ xa) as Dla; pose proof (odds_len _ xb) as Dlb;
    pose proof (Nat.div_mod_eq c 2) as Dc; pose proof (Nat.mod_upper_bound c 2) as Mc;
    apply olds_app in Ho; destruct Ho as [Oa Ob].
  assert (Ox : forall x, In x xa \/ In x xb -> old st (lit_var x)) by (intros x [H | H]; [now apply Oa | now apply Ob]).
  assert (Hinc : (forall x, In x (evens xa ++ evens xb) -> In x xa \/ In x xb) /\ (forall x, In x (odds xa ++ odds xb) -> In x xa \/ In x xb))
    by (split; intros x Hx; apply in_app_iff in Hx; destruct Hx; auto using evens_in, odds_in).
  destruct Hinc as [IncE IncO].
  assert (NE : NoDup (evens xa ++ evens xb)) by (apply NoDup_app_intro; [assumption | assumption |]; intros x y Hx Hy; apply Nab; now apply evens_in).
  assert (NO : NoDup (odds xa ++ odds xb)) by (apply NoDup_app_intro; [assumption | assumption |]; intros x y Hx Hy; apply Nab; now apply odds_in).
  assert (Hdisj : forall x, In x (evens xa ++ evens xb) -> In x (odds xa ++ odds xb) -> False)
    by (intros x H1 H2; apply in_app_iff in H1, H2; destruct H1 as [H1 | H1]; destruct H2 as [H2 | H2];
        [eapply Neo; eauto | eapply Nab; [apply evens_in | apply odds_in | reflexivity]; eauto
        | eapply (Nab x x); [apply odds_in; assumption | apply evens_in; assumption | reflexivity] | eapply Neob; eauto]).
  eapply runs_bind;
    [ apply IH; [lia | lia | lia | lia | exact NE | intros x Hx; apply Ox; now apply IncE] |].
  intros om st1 c1 L1 B1 (Mo1 & Mo2 & Mo3 & Mo4 & Mo5 & Mo6 & Mo7).
  eapply runs_bind;
    [ apply IH; [lia | lia | lia | lia | exact NO | intros x Hx; eapply old_mono; [exact L1 |]; apply Ox; now apply IncO] |].
  intros em st2 c2 L2 B2 (Me1 & Me2 & Me3 & Me4 & Me5 & Me6 & Me7).
  destruct (ix_ok _ om 0 ltac:(lia)) as (o0 & Eo & No0).
  eapply runs_bind with (P := fun v st' cls => v = o0 /\ st' = st2 /\ cls = []); [eapply runs_lift; [exact Eo | auto] |].
  intros v st' cls _ _ (-> & -> & ->); cbn [app].
  assert (NOE : NoDup (om ++ em))
    by (apply NoDup_app_intro; [assumption | assumption |]; intros x y Hx Hy <-;
        destruct (Mo4 x Hx) as [H1 | H1]; destruct (Me4 x Hy) as [H2 | H2];
        [ eapply Hdisj; eauto | apply H2; eapply old_mono; [exact L1 |]; apply Ox; now apply IncE
        | apply H1; apply Ox; now apply IncO | apply H2; now apply Mo2]).
  assert (OOE : olds st2 (om ++ em)) by (apply olds_app; split; [solds | assumption]).
  assert (Ino : In o0 om) by (eapply nth_error_In; eauto).
  assert (Hsz : sizes c (length om) (length em)) by (unfold sizes; lia).
  eapply runs_conseq;
    [ apply (merge_loop_ok d c om em st2 NOE OOE Hsz (S (length om + length em)) 1 [o0] st2);
      [ apply cle_refl | rewrite olds_cons; split; [apply OOE; apply in_app_iff; now left | apply olds_nil]
      | constructor; [auto | constructor] | intros y [<- | []]; now left | lia | reflexivity | cbn; lia | lia | lia | lia ] |].
  cbn beta; intros r st3 c3 L3 B3 (R1 & R2 & R3 & R4 & (r' & Er) & R6 & R7).
  assert (T0 : forall b, tr b r 0 = comb b om em 0) by (intros b; rewrite Er; change (comb b om em 0) with (tr b om 0); unfold tr; rewrite No0; reflexivity).
  assert (Hall : forall b, sat b c3 -> forall k, k < c -> half d (comb b om em k) (tr b r k))
    by (intros b Hb' [| k] Hk; [apply half_eq, T0 | apply R6; [assumption | cbn; lia]]).
  split; [lia |]; split; [assumption |]; split; [assumption |]; split;
    [ intros w Hw; destruct (R4 w Hw) as [H | H];
      [ apply in_app_iff in H; rewrite in_app_iff; destruct H as [H | H];
        [ destruct (Mo4 w H); [left; now apply IncE | now right]
        | destruct (Me4 w H) as [H' | H']; [left; now apply IncO | right; intros H''; apply H'; solds1]]
      | right; intros H'; apply H; solds1 ] |].
  split; [| split].
  all: try (intros Hu b Hbs i j k Hi Hj Hk Hl; rewrite !sat_app in Hbs; destruct Hbs as (S1 & S2 & S3);
    apply (Hall b S3 k ltac:(lia)); [exact Hu |]; eapply (comb_up b xa xb om em c k i j); eauto; lia).
  all: try (intros Hu b Hbs k Hk; rewrite !sat_app in Hbs; destruct Hbs as (S1 & S2 & S3);
    pose proof (tr_lt _ _ _ Hk); eapply comb_down; [apply Mo6; eauto | apply Me6; eauto |]; apply (Hall b S3 k ltac:(lia)); assumption).
  all: intros a x y Cx Cy Lx Ly;
    destruct (halves x) as (px & qx & Ex & Hpx); destruct (halves y) as (py & qy & Ey & Hpy);
    destruct (Mo7 a px py) as (b1 & A1 & S1 & V1);
      [eapply canon_evens; eauto | eapply canon_evens; eauto | lia | lia |].
  all: assert (Oe : olds st (odds xa) /\ olds st (odds xb))
    by (split; intros z Hz; apply Ox; apply odds_in in Hz; auto).
  all: destruct Oe as [Ooa Oob].
  all: destruct (Me7 b1 qx qy) as (b2 & A2 & S2 & V2);
      [eapply agree_canon; [exact A1 | exact Ooa | eapply canon_odds; eauto] | eapply agree_canon; [exact A1 | exact Oob | eapply canon_odds; eauto] | lia | lia |].
  all: destruct (R7 b2) as (b3 & A3 & S3 & V3).
  all: assert (A02 : agree st st2 a b2) by (eapply agree_trans; [exact L1 | exact L2 | exact A1 | exact A2]).
  all: assert (A13 : agree st1 st3 b1 b3) by (eapply agree_trans; [exact L2 | exact L3 | exact A2 | exact A3]).
  all: exists b3; split; [eapply agree_trans; [| exact L3 | exact A02 | exact A3]; scle |].
  all: split; [rewrite !sat_app; split; [eapply agree_sat; [exact A13 | exact B1 | exact S1] | split; [eapply agree_sat; [exact A3 | exact B2 | exact S2] | assumption]] |].
  all: assert (V1' : canon b2 om (px + py)) by (eapply agree_canon; [exact A2 | exact Mo2 | exact V1]).
  all: assert (Cx' : canon b2 xa x) by (eapply agree_canon; [exact A02 | exact Oa | exact Cx]).
  all: assert (Cy' : canon b2 xb y) by (eapply agree_canon; [exact A02 | exact Ob | exact Cy]).
  all: destruct (canon_merge b2 (evens xa) (evens xb) om px py) as [Md1 Mu1];
    [eapply canon_evens; eauto | eapply canon_evens; eauto | assumption | lia | lia |].
  all: destruct (canon_merge b2 (odds xa) (odds xb) em qx qy) as [Md2 Mu2];
    [eapply canon_odds; eauto | eapply canon_odds; eauto | assumption | lia | lia |].
  all: intros k Hk; assert (E3 : tr b3 r k = comb b2 om em k)
    by (destruct k as [| k]; [rewrite T0; eapply agree_comb; [exact A3 | solds | exact Me2] | apply V3; cbn; lia]).
  all: rewrite E3; destruct (comb b2 om em k) eqn:Ek; symmetry.
  all: try (apply Nat.ltb_lt; destruct (comb_down b2 xa xb om em k Md1 Md2 Ek) as (i & j & Ti & Tj & Hij);
    assert (i <= length xa) by (destruct Ti as [-> | Ti]; [lia | apply tr_lt in Ti; lia]);
    assert (j <= length xb) by (destruct Tj as [-> | Tj]; [lia | apply tr_lt in Tj; lia]);
    apply (canon_thr _ _ _ _ Cx') in Ti; [| assumption]; apply (canon_thr _ _ _ _ Cy') in Tj; [| assumption]; lia).
  all: apply Nat.ltb_ge; destruct (le_lt_dec (x + y) k) as [| Hlt]; [assumption |]; exfalso;
    assert (comb b2 om em k = true); [| congruence];
    apply (comb_up b2 xa xb om em c k x y); auto; try lia;
    [ intros i Hi; rewrite Cx' by lia; apply Nat.ltb_lt; lia | intros i Hi; rewrite Cy' by lia; apply Nat.ltb_lt; lia ].
Qed.

(** The direct merger. *)
Lemma direct_merger_ok : forall m xa xb st, 1 <= m <= length xa + length xb -> olds st xa -> olds st xb ->
  runs st (direct_merger m xa xb) (fun out st' cls =>
    length out = m /\ olds st' out /\ (forall b, sat b cls -> merge_up b xa xb out)
    /\ (forall a x y, canon a xa x -> canon a xb y -> x <= length xa -> y <= length xb ->
          exists b, agree st st' a b /\ sat b cls /\ canon b out (x + y))).
Proof.
  intros m xa xb st Hm Oa Ob. unfold direct_merger.
  eapply runs_bind.
  { apply runs_allocs with (post := fun ys st' cls => cls = [] /\ length ys = m /\ olds st' ys /\ free_choice st st' ys). intuition. }
  intros out st1 cls L1 _ (-> & Hlen & Hout & Hfc). cbn [app].
  assert (Oa1 : olds st1 xa) by solds. assert (Ob1 : olds st1 xb) by solds.
  eapply runs_emits.
  { apply emits_for with (P := fun i b => tr b xa i = true -> tr b out i = true). intros i Hi. apply in_seq in Hi.
    eapply emits_iff; [apply emits_elems with (ps := [fun b => negb (tr b xa i); fun b => tr b out i]); elems |].
    intros b. cbn [anyb]. destruct (tr b xa i), (tr b out i); cbn; intuition discriminate. }
  intros c1 B1 M1.
  eapply runs_emits.
  { apply emits_for with (P := fun i b => tr b xb i = true -> tr b out i = true). intros i Hi. apply in_seq in Hi.
    eapply emits_iff; [apply emits_elems with (ps := [fun b => negb (tr b xb i); fun b => tr b out i]); elems |].
    intros b. cbn [anyb]. destruct (tr b xb i), (tr b out i); cbn; intuition discriminate. }
  intros c2 B2 M2.
  eapply runs_emits.
  { apply emits_for with (P := fun i b => forall j, In j (seq 0 (length xb)) -> (i + j + 1 <? m) = true ->
        tr b xa i = true -> tr b xb j = true -> tr b out (i + j + 1) = true). intros i Hi. apply in_seq in Hi.
    apply emits_for with (P := fun j b => (i + j + 1 <? m) = true -> tr b xa i = true -> tr b xb j = true -> tr b out (i + j + 1) = true).
    intros j Hj. apply in_seq in Hj. apply emits_when. intros Hlt. apply Nat.ltb_lt in Hlt.
    eapply emits_iff; [apply emits_elems with (ps := [fun b => negb (tr b xa i); fun b => negb (tr b xb j); fun b => tr b out (i + j + 1)]); elems |].
    intros b. cbn [anyb]. destruct (tr b xa i), (tr b xb j), (tr b out (i + j + 1)); cbn; intuition discriminate. }
  intros c3 B3 M3. apply runs_ret. rewrite app_nil_r. split; [assumption |]. split; [assumption |]. split.
  - intros b Hb i j k Hi Hj Hk Hl. rewrite !sat_app in Hb. destruct Hb as (S1 & S2 & S3).
    pose proof (proj1 (M1 b) S1) as P1. pose proof (proj1 (M2 b) S2) as P2. pose proof (proj1 (M3 b) S3) as P3. cbn beta in *.
    pose proof (lead_len _ _ _ Hi) as Li. pose proof (lead_len _ _ _ Hj) as Lj. rewrite Hlen in Hl.
    destruct (lt_dec k i) as [H | H]; [apply P1; [apply in_seq; lia | apply Hi; lia] |].
    destruct (lt_dec k j) as [H' | H']; [apply P2; [apply in_seq; lia | apply Hj; lia] |].
    destruct (Nat.eq_dec i 0) as [E | E]; [lia |].
    replace k with (i - 1 + (k - i) + 1) by lia. apply P3; try (apply in_seq; lia); [apply Nat.ltb_lt; lia | apply Hi; lia | apply Hj; lia].
  - intros a x y Cx Cy Lx Ly. destruct (Hfc a (fun i => i <? x + y)) as [b [A V]]. exists b. split; [assumption |].
    assert (C : canon b out (x + y)) by (intros i Hi; auto). split; [| assumption].
    assert (Tx : forall i, tr b xa i = true -> i < x) by (intros i Hi; rewrite (agree_tr st st1 a b xa i A Oa) in Hi; eapply canon_true; eauto).
    assert (Ty : forall i, tr b xb i = true -> i < y) by (intros i Hi; rewrite (agree_tr st st1 a b xb i A Ob) in Hi; eapply canon_true; eauto).
    rewrite !sat_app. split; [| split]; [apply M1 | apply M2 | apply M3]; cbn beta.
    + intros i Hi H. apply in_seq in Hi. apply Tx in H. rewrite C by lia. apply Nat.ltb_lt. lia.
    + intros i Hi H. apply in_seq in Hi. apply Ty in H. rewrite C by lia. apply Nat.ltb_lt. lia.
    + intros i Hi j Hj Hm' H1 H2. apply in_seq in Hi, Hj. apply Nat.ltb_lt in Hm'. apply Tx in H1. apply Ty in H2.
      rewrite C by lia. apply Nat.ltb_lt. lia.
Qed.

Lemma cc_merge_up_ok : forall fuel m xa xb st, 1 <= m -> length xa <= m -> length xb <= m -> 1 <= fuel -> olds st xa -> olds st xb ->
  runs st (cc_merge fuel m xa xb InToOut) (fun out st' cls =>
    length out = min m (length xa + length xb) /\ olds st' out /\ (forall b, sat b cls -> merge_up b xa xb out)
    /\ (forall a x y, canon a xa x -> canon a xb y -> x <= length xa -> y <= length xb ->
          exists b, agree st st' a b /\ sat b cls /\ canon b out (x + y))).
Proof.
  intros fuel m xa xb st Hm Ha Hb Hf Oa Ob. destruct fuel as [| fuel]; [lia |]. cbn [cc_merge].
  destruct (Nat.eqb_spec m 0) as [E | _]; [lia |].
  destruct xa as [| a0 xa'].
  { apply runs_ret. split; [cbn; lia |]. split; [assumption |]. split.
    - intros b _ i j k Hi Hj Hk _. apply lead_len in Hi. cbn in Hi. apply Hj. lia.
    - intros a x y _ Hy Hx _. cbn in Hx. exists a. split; [apply agree_refl |]. split; [apply sat_nil |]. now replace (x + y) with y by lia. }
  destruct xb as [| b0 xb'].
  { apply runs_ret. split; [cbn [length] in *; lia |]. split; [assumption |]. split.
    - intros b _ i j k Hi Hj Hk _. apply lead_len in Hj. cbn in Hj. apply Hi. lia.
    - intros a x y Hx _ _ Hy. cbn in Hy. exists a. split; [apply agree_refl |]. split; [apply sat_nil |]. now replace (x + y) with x by lia. }
  apply direct_merger_ok; [cbn [length]; lia | assumption | assumption].
Qed.

(* ------------------------------------------------------------------------------------------------------------------ *)
(** * Sorters *)

(** The counter. *)
Lemma counter_columns_ok : forall n k j st,
  runs st (counter_columns k n j) (fun cols st' cls => cls = [] /\ length cols = k
    /\ (forall q, q < k -> length (nth q cols []) = n - (j + q) /\ olds st' (nth q cols []))
    /\ (forall a (f : nat -> nat -> bool), exists b, agree st st' a b /\
          forall q, q < k -> forall i, i < n - (j + q) -> tr b (nth q cols []) i = f q i)).
Proof.
  intros n. induction k as [| k IH]; intros j st; cbn [counter_columns].
  - apply runs_ret. split; [reflexivity |]. split; [reflexivity |]. split; [intros q Hq; lia |].
    intros a f. exists a. split; [apply agree_refl |]. intros q Hq. lia.
  - eapply runs_bind.
    { apply runs_allocs with (post := fun ys st' cls => cls = [] /\ length ys = n - j /\ olds st' ys /\ free_choice st st' ys). intuition. }
    intros c st1 cls L1 _ (-> & Hlen & Hc & Hfc). cbn [app].
    eapply runs_bind; [apply IH |]. intros cs st2 cls L2 _ (-> & Hl & Hcols & Hfr). apply runs_ret. cbn [app].
    split; [reflexivity |]. split; [cbn; lia |]. split.
    + intros [| q] Hq; cbn [nth]; [split; [lia | solds] |]. destruct (Hcols q ltac:(lia)) as [H1 H2]. split; [lia | assumption].
    + intros a f. destruct (Hfc a (f 0)) as [b1 [A1 V1]]. destruct (Hfr b1 (fun q => f (S q))) as [b2 [A2 V2]].
      exists b2. split; [eapply agree_trans; [exact L1 | exact L2 | exact A1 | exact A2] |].
      intros [| q] Hq i Hi; cbn [nth].
      * rewrite (agree_tr st1 st2 b1 b2 c i A2 Hc). apply V1. lia.
      * apply V2; lia.
Qed.

Definition cv (b : valuation) (cols : list (list lit)) (i j : nat) : bool := tr b (nth j cols []) (i - j).

Lemma elem_cell : forall st cols n k i j,
  length cols = k -> (forall q, q < k -> length (nth q cols []) = n - q /\ olds st (nth q cols [])) -> j < k -> j <= i < n ->
  elem st (cell cols i j) (fun b => cv b cols i j).
Proof.
  intros st cols n k i j Hl Hc Hj Hi. unfold cell, cv. destruct (Nat.ltb_spec i j); [lia |].
  assert (E : ix cols j = Ok (nth j cols [])). { unfold ix. rewrite (nth_error_nth' cols []) by lia. reflexivity. }
  rewrite E. cbn [rbind]. destruct (Hc j Hj) as [H1 H2]. apply elem_ix; [assumption | lia].
Qed.

Lemma cnt_firstn_S : forall b l i, cnt b (firstn (S i) l) = cnt b (firstn i l) + (if tr b l i then 1 else 0).
Proof.
  intros b l. induction l as [| x l IH]; intros i; [rewrite !firstn_nil, tr_nil; reflexivity |].
  destruct i as [| i].
  - cbn [firstn cnt]. unfold tr. cbn [nth_error]. lia.
  - rewrite tr_cons. specialize (IH i). cbn [firstn cnt] in *. lia.
Qed.

Lemma rall_map_elems : forall st (A : Type) (f : A -> res lit) (p : A -> valuation -> bool) l,
  (forall x, In x l -> elem st (f x) (p x)) ->
  exists ys, rall (map f l) = Ok ys /\ length ys = length l /\ olds st ys
    /\ forall b i x, nth_error l i = Some x -> tr b ys i = p x b.
Proof.
  intros st A f p l H. induction l as [| x l IH]; cbn [map].
  - exists []. split; [reflexivity |]. split; [reflexivity |]. split; [apply olds_nil |]. intros b [|] x; discriminate.
  - destruct IH as (ys & E & Hl & Ho & Ht); [intros z Hz; apply H; now right |].
    destruct (H x (or_introl eq_refl)) as (y & Ey & Oy & Ty). exists (y :: ys).
    split; [cbn [rall]; rewrite Ey; cbn [rbind]; rewrite E; reflexivity |]. split; [cbn; lia |].
    split; [apply olds_cons; auto |]. intros b [| i] z Hz; cbn in Hz.
    + injection Hz as ->. unfold tr. cbn. apply Ty.
    + rewrite tr_cons. now apply Ht.
Qed.

Definition sort_up (b : valuation) (ins out : list lit) : Prop := forall k, k < length out -> k < cnt b ins -> tr b out k = true.
Definition usort_post (m : nat) (ins : list lit) (st : ctrs) (out : list lit) (st' : ctrs) (cls : list clause) : Prop :=
  length out = m /\ olds st' out /\ (forall b, sat b cls -> sort_up b ins out)
  /\ (forall a, exists b, agree st st' a b /\ sat b cls /\ canon b out (cnt a ins)).

Lemma counter_sorter_ok : forall k x st, 1 <= k <= length x -> olds st x ->
  runs st (counter_sorter k x InToOut) (usort_post k x st).
Proof.
  intros k x st Hk Ox. unfold counter_sorter. set (n := length x) in *.
  eapply runs_bind; [apply (counter_columns_ok n k 0) |]. intros cols st1 cls L1 _ (-> & Hl & Hcols & Hfree). cbn [app plus] in *.
  assert (Hcell : forall i j, j < k -> j <= i < n -> elem st1 (cell cols i j) (fun b => cv b cols i j)).
  { intros i j Hj Hi. eapply elem_cell; eauto. }
  assert (Ox1 : olds st1 x) by solds.
  eapply runs_emits.
  { apply emits_when. intros _. apply emits_seq.
    - apply emits_for with (P := fun i b => (tr b x i = true -> cv b cols i 0 = true) /\ ((0 <? i) = true -> cv b cols (i - 1) 0 = true -> cv b cols i 0 = true)).
      intros i Hi. apply in_seq in Hi. apply emits_seq.
      + eapply emits_iff.
        { apply emits_elems with (ps := [fun b => negb (tr b x i); fun b => cv b cols i 0]).
          constructor; [apply elem_neg, elem_ix; [assumption | lia] |]. constructor; [apply Hcell; lia | constructor]. }
        intros b. cbn [anyb]. destruct (tr b x i), (cv b cols i 0); cbn; intuition discriminate.
      + apply emits_when. intros H0. apply Nat.ltb_lt in H0. eapply emits_iff.
        { apply emits_elems with (ps := [fun b => negb (cv b cols (i - 1) 0); fun b => cv b cols i 0]).
          constructor; [apply elem_neg, Hcell; lia |]. constructor; [apply Hcell; lia | constructor]. }
        intros b. cbn [anyb]. destruct (cv b cols (i - 1) 0), (cv b cols i 0); cbn; intuition discriminate.
    - apply emits_for with (P := fun j b => forall i, In i (seq j (n - j)) ->
        (tr b x i = true -> cv b cols (i - 1) (j - 1) = true -> cv b cols i j = true)
        /\ ((j <? i) = true -> cv b cols (i - 1) j = true -> cv b cols i j = true)).
      intros j Hj. apply in_seq in Hj.
      apply emits_for with (P := fun i b => (tr b x i = true -> cv b cols (i - 1) (j - 1) = true -> cv b cols i j = true)
        /\ ((j <? i) = true -> cv b cols (i - 1) j = true -> cv b cols i j = true)).
      intros i Hi. apply in_seq in Hi. apply emits_seq.
      + eapply emits_iff.
        { apply emits_elems with (ps := [fun b => negb (tr b x i); fun b => negb (cv b cols (i - 1) (j - 1)); fun b => cv b cols i j]).
          constructor; [apply elem_neg, elem_ix; [assumption | lia] |]. constructor; [apply elem_neg, Hcell; lia |].
          constructor; [apply Hcell; lia | constructor]. }
        intros b. cbn [anyb]. destruct (tr b x i), (cv b cols (i - 1) (j - 1)), (cv b cols i j); cbn; intuition discriminate.
      + apply emits_when. intros H0. apply Nat.ltb_lt in H0. eapply emits_iff.
        { apply emits_elems with (ps := [fun b => negb (cv b cols (i - 1) j); fun b => cv b cols i j]).
          constructor; [apply elem_neg, Hcell; lia |]. constructor; [apply Hcell; lia | constructor]. }
        intros b. cbn [anyb]. destruct (cv b cols (i - 1) j), (cv b cols i j); cbn; intuition discriminate. }
  intros c1 B1 M1.
  destruct (rall_map_elems st1 nat (fun j => cell cols (n - 1) j) (fun j b => cv b cols (n - 1) j) (seq 0 k)) as (out & Eo & Lo & Oo & To).
  { intros j Hj. apply in_seq in Hj. apply Hcell; lia. }
  rewrite seq_length in Lo.
  assert (To' : forall b j, j < k -> tr b out j = cv b cols (n - 1) j).
  { intros b j Hj. apply To. rewrite (nth_error_nth' _ 0) by (rewrite seq_length; lia). f_equal. rewrite seq_nth by lia. reflexivity. }
  eapply runs_lift; [exact Eo |]. rewrite app_nil_r. split; [assumption |]. split; [assumption |]. split.
  - intros b Hb. pose proof (proj1 (M1 b) Hb eq_refl) as Hp. cbn beta in Hp. destruct Hp as [P0 P1].
    assert (HI : forall i j, i < n -> j < k -> j + 1 <= cnt b (firstn (S i) x) -> cv b cols i j = true).
    { induction i as [| i IH]; intros j Hi Hj Hc; rewrite cnt_firstn_S in Hc.
      - cbn [firstn cnt] in Hc. assert (j = 0) as -> by (destruct (tr b x 0); lia).
        apply (proj1 (P0 0 ltac:(apply in_seq; lia))). destruct (tr b x 0); [reflexivity | lia].
      - assert (Hb1 : cnt b (firstn (S i) x) <= S i) by (etransitivity; [apply cnt_le |]; rewrite firstn_length; lia).
        destruct (le_lt_dec (j + 1) (cnt b (firstn (S i) x))) as [Hle | Hlt].
        + pose proof (IH j ltac:(lia) Hj Hle) as Hprev. destruct j as [| j].
          * apply (proj2 (P0 (S i) ltac:(apply in_seq; lia))); [reflexivity |]. now replace (S i - 1) with i by lia.
          * apply (proj2 (P1 (S j) ltac:(apply in_seq; lia) (S i) ltac:(apply in_seq; lia))); [apply Nat.ltb_lt; lia |].
            now replace (S i - 1) with i by lia.
        + assert (Hx : tr b x (S i) = true) by (destruct (tr b x (S i)); [reflexivity | lia]).
          destruct j as [| j]; [apply (proj1 (P0 (S i) ltac:(apply in_seq; lia))); assumption |].
          rewrite Hx in Hc.
          apply (proj1 (P1 (S j) ltac:(apply in_seq; lia) (S i) ltac:(apply in_seq; lia))); [assumption |].
          replace (S i - 1) with i by lia. replace (S j - 1) with j by lia. apply IH; lia. }
    intros q Hq Hc. rewrite To' by lia. apply HI; [lia | lia |]. replace (S (n - 1)) with n by lia. unfold n. rewrite firstn_all. lia.
  - intros a. destruct (Hfree a (fun j i => j <? cnt a (firstn (S (i + j)) x))) as [b [A V]]. exists b. split; [assumption |].
    assert (V' : forall i j, j < k -> j <= i < n -> cv b cols i j = (j <? cnt a (firstn (S i) x))).
    { intros i j Hj Hi. unfold cv. rewrite V by lia. now replace (i - j + j) with i by lia. }
    assert (Tx : forall i, tr b x i = tr a x i) by (intros i; eapply agree_tr; eauto).
    split.
    + apply M1. intros _. cbn beta. split.
      * intros i Hi. apply in_seq in Hi. rewrite Tx, !V' by lia. pose proof (cnt_firstn_S a x i). split.
        -- intros H'. rewrite H' in H. apply Nat.ltb_lt. lia.
        -- intros H0 H'. apply Nat.ltb_lt in H0. apply Nat.ltb_lt in H'. replace (S (i - 1)) with i in H' by lia. apply Nat.ltb_lt. lia.
      * intros j Hj i Hi. apply in_seq in Hj, Hi. rewrite Tx. pose proof (cnt_firstn_S a x i). split.
        -- intros H' H''. rewrite H' in H. rewrite V' in H'' |- * by lia. apply Nat.ltb_lt in H''. replace (S (i - 1)) with i in H'' by lia.
           apply Nat.ltb_lt. lia.
        -- intros H0 H''. apply Nat.ltb_lt in H0. rewrite V' in H'' |- * by lia. apply Nat.ltb_lt in H''. replace (S (i - 1)) with i in H'' by lia.
           apply Nat.ltb_lt. lia.
    + intros j Hj. rewrite To' by lia. rewrite V' by lia. replace (S (n - 1)) with n by lia. unfold n. now rewrite firstn_all.
Qed.

(** The direct sorter. *)
Lemma masks_all : forall n mask, length mask = n -> In mask (masks n).
Proof.
  induction n as [| n IH]; intros mask H.
  - destruct mask; [now left | discriminate].
  - destruct (exists_last (l := mask)) as (m' & y & ->); [intros ->; discriminate |]. rewrite app_length in H. cbn in H.
    cbn [masks]. apply in_app_iff. destruct y; [right | left]; apply in_map_iff; exists m'; (split; [reflexivity | apply IH; lia]).
Qed.
Lemma masks_tl : forall n, exists l, masks n = repeat false n :: l /\ forall mask, In mask l -> In true mask.
Proof.
  induction n as [| n IH]; [exists []; split; [reflexivity | intros mask []] |].
  destruct IH as (l & E & H). cbn [masks]. rewrite E. cbn [map app].
  eexists. split.
  - f_equal. change (repeat false (S n)) with (false :: repeat false n). clear. induction n as [| n IH]; cbn in *; [reflexivity | now rewrite IH].
  - intros mask Hm. apply in_app_iff in Hm. destruct Hm as [Hm | [<- | Hm]].
    + apply in_map_iff in Hm. destruct Hm as (m' & <- & Hm). apply in_app_iff. left. auto.
    + apply in_app_iff. right. now left.
    + apply in_map_iff in Hm. destruct Hm as (m' & <- & Hm). apply in_app_iff. right. now left.
Qed.
Lemma masks_len : forall n mask, In mask (masks n) -> length mask = n.
Proof.
  induction n as [| n IH]; intros mask H; [destruct H as [<- | []]; reflexivity |].
  cbn [masks] in H. apply in_app_iff in H. destruct H as [H | H]; apply in_map_iff in H; destruct H as (m' & <- & H);
    rewrite app_length; cbn; rewrite (IH _ H); lia.
Qed.
Lemma select_in : forall mask ls l, In l (select mask ls) -> exists x, In x ls /\ l = lit_negate x.
Proof.
  induction mask as [| b mask IH]; intros [| x ls] l H; cbn in H; try contradiction.
  destruct b; [destruct H as [<- | H]; [exists x; split; [now left | reflexivity] |] |];
    destruct (IH _ _ H) as (y & Hy & ->); exists y; (split; [now right | reflexivity]).
Qed.
Lemma select_pos : forall mask ls, length mask = length ls -> In true mask -> 1 <= length (select mask ls).
Proof.
  induction mask as [| b mask IH]; intros [| x ls] Hl H; cbn in *; try contradiction; try discriminate.
  destruct b; [cbn; lia |]. destruct H as [H | H]; [discriminate |]. apply IH; [lia | assumption].
Qed.
Lemma select_cnt : forall b mask ls, (forall l, In l (select mask ls) -> lit_sem b l = false) -> length (select mask ls) <= cnt b ls.
Proof.
  intros b. induction mask as [| y mask IH]; intros [| x ls] H; cbn [select] in *; try (cbn; lia).
  destruct y; cbn [length cnt].
  - assert (E : lit_sem b x = true). { specialize (H (lit_negate x) (or_introl eq_refl)). rewrite lit_sem_negate in H. now destruct (lit_sem b x). }
    rewrite E. specialize (IH ls ltac:(intros l Hl; apply H; now right)). lia.
  - specialize (IH ls H). lia.
Qed.
Lemma select_ex : forall b ls c, c <= cnt b ls -> exists mask, length mask = length ls /\ length (select mask ls) = c
  /\ forall l, In l (select mask ls) -> lit_sem b l = false.
Proof.
  intros b. induction ls as [| x ls IH]; intros c Hc; cbn [cnt] in Hc.
  - exists []. cbn. split; [reflexivity |]. split; [lia | intros l []].
  - destruct (lit_sem b x) eqn:E.
    + destruct c as [| c].
      * destruct (IH 0 ltac:(lia)) as (m' & H1 & H2 & H3). exists (false :: m'). cbn. split; [lia |]. auto.
      * destruct (IH c ltac:(lia)) as (m' & H1 & H2 & H3). exists (true :: m'). cbn [select length]. split; [lia |]. split; [lia |].
        intros l [<- | Hl]; [rewrite lit_sem_negate, E; reflexivity | auto].
    + destruct (IH c ltac:(lia)) as (m' & H1 & H2 & H3). exists (false :: m'). cbn. split; [lia |]. auto.
Qed.
Lemma select_repeat : forall n ls, select (repeat false n) ls = [].
Proof. induction n as [| n IH]; intros [| x ls]; cbn; auto. Qed.

Lemma rall_snoc : forall (ls : list lit) y, rall (map Ok ls ++ [Ok y]) = Ok (ls ++ [y]).
Proof. induction ls as [| x ls IH]; intros y; cbn [map app rall rbind]; [reflexivity |]. now rewrite IH. Qed.

Lemma direct_sorter_ok : forall m x st, 1 <= m -> length x < 20 -> olds st x ->
  runs st (direct_sorter m x) (usort_post m x st).
Proof.
  intros m x st Hm Hn Ox. unfold direct_sorter. set (n := length x) in *.
  eapply runs_bind with (P := fun _ st' cls => st' = st /\ cls = []); [apply runs_assert; [apply Nat.ltb_lt; lia | auto] |].
  intros _ st0 c0 _ _ [-> ->]. cbn [app].
  eapply runs_bind.
  { apply runs_allocs with (post := fun ys st' cls => cls = [] /\ length ys = m /\ olds st' ys /\ free_choice st st' ys). intuition. }
  intros out st1 cls L1 _ (-> & Hlen & Hout & Hfc). cbn [app].
  destruct (masks_tl n) as (tlm & Em & Htl). rewrite Em. cbn [tl].
  assert (Hlm : forall mask, In mask tlm -> length mask = n) by (intros mask H; apply masks_len; rewrite Em; now right).
  eapply runs_emits.
  { apply emits_for with (P := fun mask b => (length (select mask x) <=? m) = true ->
      (forall l, In l (select mask x) -> lit_sem b l = false) -> tr b out (length (select mask x) - 1) = true).
    intros mask Hmask. apply emits_when. intros Hle. apply Nat.leb_le in Hle.
    assert (1 <= length (select mask x)) by (apply select_pos; [now apply Hlm | auto]).
    destruct (ix_ok _ out (length (select mask x) - 1) ltac:(lia)) as (y & Ey & Ny). rewrite Ey.
    eapply emits_iff; [eapply emits_add_r; [apply rall_snoc |] |].
    { rewrite olds_app, olds_cons. split; [| split; [apply Hout; eapply nth_error_In; eauto | apply olds_nil]].
      intros l Hl. apply select_in in Hl. destruct Hl as (z & Hz & ->). rewrite lit_negate_var. eapply old_mono; [exact L1 |]. now apply Ox. }
    intros b. rewrite csat_app, csat_cons. unfold tr. rewrite Ny. split.
    - intros [(l & Hl & Hs) | [H' | H']] Hf; [rewrite (Hf l Hl) in Hs; discriminate | assumption | now apply csat_nil in H'].
    - intros H'. destruct (existsb (lit_sem b) (select mask x)) eqn:Ee; [left; now apply csat_bool |]. right. left. apply H'.
      intros l Hl. destruct (lit_sem b l) eqn:El; [| reflexivity]. exfalso.
      assert (existsb (lit_sem b) (select mask x) = true); [| congruence]. apply existsb_exists. eauto. }
  intros c1 B1 M1. apply runs_ret. rewrite app_nil_r. split; [assumption |]. split; [assumption |]. split.
  - intros b Hb k Hk Hc. pose proof (proj1 (M1 b) Hb) as P. cbn beta in P.
    destruct (select_ex b x (k + 1) ltac:(lia)) as (mask & H1 & H2 & H3).
    replace k with (length (select mask x) - 1) by lia. apply P; [| apply Nat.leb_le; lia | assumption].
    pose proof (masks_all n mask H1) as Hin. rewrite Em in Hin. destruct Hin as [<- | Hin]; [| assumption].
    rewrite select_repeat in H2. cbn in H2. lia.
  - intros a. destruct (Hfc a (fun i => i <? cnt a x)) as [b [A V]]. exists b. split; [assumption |].
    assert (C : canon b out (cnt a x)) by (intros i Hi; auto). split; [| assumption].
    apply M1. cbn beta. intros mask Hmask Hle Hf. apply Nat.leb_le in Hle. apply select_cnt in Hf.
    rewrite (agree_cnt st st1 a b x A Ox) in Hf.
    assert (1 <= length (select mask x)) by (apply select_pos; [now apply Hlm | auto]).
    rewrite C by lia. apply Nat.ltb_lt. lia.
Qed.

(** The choice of the sorter. *)
Definition usize_ok (n : nat) : Prop := (N.of_nat n < 2147483648)%N.

Lemma sorter_choice : forall m n, 2 <= m -> m <= n -> usize_ok n ->
  exists v, counter_sorter_value (N.of_nat m) (N.of_nat n) = Ok v /\ ((v <? direct_sorter_value (N.of_nat n))%N = false -> n < 20).
Proof.
  intros m n Hm Hn Hu. unfold counter_sorter_value, usize_ok in *. destruct (N.ltb_spec (N.of_nat m) 2) as [H | H]; [lia |].
  eexists. split; [reflexivity |]. set (M := N.of_nat m) in *. set (K := N.of_nat n) in *.
  set (v := (_ - _ - _)%N). assert (Hv : (v <= 2 * K + K * (2 * K))%N).
  { unfold v. assert (((M - 1) * (2 * (K - 1) - 1) <= K * (2 * K))%N) by (apply N.mul_le_mono; lia).
    etransitivity; [apply N.le_sub_l |]. etransitivity; [apply N.le_sub_l |]. apply N.add_le_mono; [apply N.le_refl | assumption]. }
  clearbody v.
  intros Hlt. apply N.ltb_ge in Hlt. destruct (le_lt_dec 20 n) as [H20 |]; [exfalso | assumption].
  unfold direct_sorter_value in Hlt. destruct (N.ltb_spec 30 K) as [H30 | H30].
  - assert ((K * (2 * K) <= 2147483647 * (2 * 2147483647))%N) by (apply N.mul_le_mono; lia). lia.
  - assert ((K * (2 * K) <= 30 * 60)%N) by (apply N.mul_le_mono; lia).
    assert ((2 ^ 20 <= 2 ^ K)%N) by (apply N.pow_le_mono_r; lia). change (2 ^ 20)%N with 1048576%N in *. lia.
Qed.

Definition sort_post (d : direction) (m : nat) (ins : list lit) (st : ctrs) (out : list lit) (st' : ctrs) (cls : list clause) : Prop :=
  length out = min m (length ins) /\ olds st' out
  /\ (d <> InToOut -> NoDup out /\ new_or st ins out)
  /\ (dir_up d = true -> forall b, sat b cls -> sort_up b ins out)
  /\ (dir_down d = true -> forall b, sat b cls -> down_ok b ins out)
  /\ (forall a, exists b, agree st st' a b /\ sat b cls /\ canon b out (cnt a ins)).

Lemma sort_up_lead : forall b ins out, sort_up b ins out -> lead b out (min (cnt b ins) (length out)).
Proof. intros b ins out H i Hi. apply H; lia. Qed.
Lemma down_thr : forall b ins out i, down_ok b ins out -> thr b out i -> i <= cnt b ins.
Proof. intros b ins out i H [-> | Hi]; [lia |]. apply H in Hi. lia. Qed.
Lemma canon_min : forall b out n, canon b out n -> canon b out (min n (length out)).
Proof. intros b out n H i Hi. rewrite H by assumption. destruct (Nat.ltb_spec i n), (Nat.ltb_spec i (min n (length out))); auto; lia. Qed.

Lemma cc_sort_ok : forall d fuel m ins st,
  length ins < fuel -> olds st ins -> NoDup ins -> (d = InToOut -> 3 <= length ins -> 2 <= m /\ usize_ok (length ins)) ->
  runs st (cc_sort fuel m ins d) (sort_post d m ins st).
Proof.
  intros d. induction fuel as [| fuel IH]; intros m ins st Hf Ho Hnd Hup; [lia |]. cbn [cc_sort].
  destruct (Nat.eqb_spec m 0) as [Em | Em]; [| destruct (Nat.eqb_spec (length ins) 0) as [En | En]]; cbn [orb].
  1, 2: apply runs_ret; split; [cbn; lia |]; split; [apply olds_nil |]; split;
    [intros _; split; [constructor | intros y []] |]; split; [intros _ b _ k Hk; cbn in Hk; lia |]; split;
    [intros _ b _ k Hk; rewrite tr_nil in Hk; discriminate | intros a; exists a; split; [apply agree_refl |]; split; [apply sat_nil |]; intros i Hi; cbn in Hi; lia].
  destruct (Nat.eqb_spec (length ins) 1) as [E1 | E1].
  { destruct ins as [| x [| ? ?]]; cbn in E1; try discriminate. apply runs_ret.
    assert (T : forall b k, tr b [x] k = (k <? cnt b [x])).
    { intros b [| k]; unfold tr; cbn; destruct (lit_sem b x); cbn; try reflexivity; destruct k; reflexivity. }
    split; [cbn; lia |]. split; [assumption |]. split; [intros _; split; [assumption | apply new_or_refl] |].
    split; [intros _ b _ k _ Hk; rewrite T; now apply Nat.ltb_lt |]. split; [intros _ b _ k Hk; rewrite T in Hk; now apply Nat.ltb_lt |].
    intros a. exists a. split; [apply agree_refl |]. split; [apply sat_nil |]. intros i _. apply T. }
  destruct (Nat.eqb_spec (length ins) 2) as [E2 | E2].
  { destruct ins as [| x0 [| x1 [| ? ?]]]; cbn in E2; try discriminate.
    assert (Hne : x0 <> x1) by (inversion Hnd as [| ? ? Hn _]; intros ->; apply Hn; now left).
    eapply runs_conseq with (P := merge_post d m [x0] [x1] st).
    { eapply runs_bind with (P := fun y st' cls => y = x0 /\ st' = st /\ cls = []); [eapply runs_lift; [reflexivity | auto] |].
      intros ? ? ? _ _ (-> & -> & ->). cbn [app].
      eapply runs_bind with (P := fun y st' cls => y = x1 /\ st' = st /\ cls = []); [eapply runs_lift; [reflexivity | auto] |].
      intros ? ? ? _ _ (-> & -> & ->). cbn [app length].
      destruct (Nat.eqb_spec (min m 2) 2) as [Em2 | Em2].
      - eapply runs_conseq; [apply merge_two; [assumption | assumption] |].
        intros out st' cls _ _ (H1 & H). split; [cbn [length] in *; lia | exact H].
      - assert (m = 1) as -> by lia. eapply merge_one; [reflexivity | reflexivity | assumption | assumption]. }
    intros out st' cls _ _ (H1 & H2 & H3 & H4 & H5 & H6 & H7). cbn [length app] in *.
    assert (Hc : forall b, cnt b [x0; x1] = cnt b [x0] + cnt b [x1]) by (intros b; cbn; lia).
    assert (T : forall x b k, tr b [x] k = (k <? cnt b [x])).
    { intros x b [| k]; unfold tr; cbn; destruct (lit_sem b x); cbn; try reflexivity; destruct k; reflexivity. }
    assert (Ld : forall x b, lead b [x] (cnt b [x])) by (intros x b k Hk; rewrite T; now apply Nat.ltb_lt).
    assert (Th : forall x b i, thr b [x] i -> i <= cnt b [x]) by (intros x b i [-> | H]; [lia | rewrite T in H; apply Nat.ltb_lt in H; lia]).
    split; [cbn; lia |]. split; [assumption |]. split; [intros _; auto |]. split.
    { intros Hd b Hb k Hk Hk'. rewrite Hc in Hk'. exact (H5 Hd b Hb _ _ k (Ld x0 b) (Ld x1 b) Hk' Hk). }
    split.
    { intros Hd b Hb k Hk. destruct (H6 Hd b Hb k Hk) as (i & j & Hi & Hj & Hij). apply Th in Hi, Hj. rewrite Hc. lia. }
    intros a. rewrite Hc. apply H7; try (intros k _; apply T); cbn; destruct (lit_sem a _); lia. }
  destruct (dir_down d) eqn:Hdd.
  2: { (* input to output *)
    assert (d = InToOut) as -> by (destruct d; [reflexivity | discriminate | discriminate]).
    destruct (Hup eq_refl ltac:(lia)) as [Hm2 Hu].
    destruct (sorter_choice (min m (length ins)) (length ins) ltac:(lia) ltac:(lia) Hu) as (v & Ev & Hch).
    eapply runs_bind with (P := fun y st' cls => y = v /\ st' = st /\ cls = []); [eapply runs_lift; [exact Ev | auto] |].
    intros ? ? ? _ _ (-> & -> & ->). cbn [app].
    eapply runs_conseq with (P := usort_post (min m (length ins)) ins st).
    { destruct (v <? direct_sorter_value (N.of_nat (length ins)))%N eqn:Ec; [apply counter_sorter_ok; [lia | assumption] |].
      apply direct_sorter_ok; [lia | auto | assumption]. }
    intros out st' cls _ _ (H1 & H2 & H3 & H4). split; [lia |]. split; [assumption |]. split; [congruence |]. split; [auto |]. split; [discriminate | assumption]. }
  assert (Hd : d <> InToOut) by (intros ->; discriminate).
  set (n := length ins) in *. set (m2 := min m n). set (l := n / 2).
  assert (Hl : 1 <= l /\ l < n).
  { unfold l. split; [apply (Nat.div_le_mono 2 n 2); lia | apply Nat.div_lt; lia]. }
  set (il := firstn l ins). set (ir := skipn l ins).
  assert (Ll : length il = l) by (unfold il; rewrite firstn_length; fold n; lia).
  assert (Lr : length ir = n - l) by (unfold ir; now rewrite skipn_length).
  assert (Eins : ins = il ++ ir) by (symmetry; apply firstn_skipn).
  assert (Hnd' := Hnd). rewrite Eins in Hnd'. apply NoDup_app_inv in Hnd'. destruct Hnd' as (Ndl & Ndr & Ndx).
  assert (Ol : olds st il) by now apply olds_firstn. assert (Or : olds st ir) by now apply olds_skipn.
  cut (runs st (gassert (m2 <=? n) ;; o1 <~ cc_sort fuel m2 il d ;; o2 <~ cc_sort fuel m2 ir d ;;
        gassert (length o1 =? min m2 l) ;; gassert (length o2 =? min m2 (n - l)) ;; cc_merge (S (length o1 + length o2)) m2 o1 o2 d) (sort_post d m ins st)).
  { destruct d; [contradiction | exact (fun H => H) | exact (fun H => H)]. }
  eapply runs_bind with (P := fun _ st' cls => st' = st /\ cls = []); [apply runs_assert; [apply Nat.leb_le; lia | auto] |].
  intros _ ? ? _ _ (-> & ->). cbn [app].
  eapply runs_bind; [apply (IH m2 il st ltac:(lia) Ol Ndl); intros; contradiction |].
  intros o1 st1 cls1 L1 B1 (A1 & A2 & A3 & A4 & A5 & A6). destruct (A3 Hd) as [A3a A3b].
  eapply runs_bind; [apply (IH m2 ir st1 ltac:(lia)); [solds | assumption | intros; contradiction] |].
  intros o2 st2 cls2 L2 B2 (C1 & C2 & C3 & C4 & C5 & C6). destruct (C3 Hd) as [C3a C3b].
  rewrite Ll in A1. rewrite Lr in C1.
  eapply runs_bind with (P := fun _ st' cls => st' = st2 /\ cls = []); [apply runs_assert; [apply Nat.eqb_eq; lia | auto] |].
  intros _ ? ? _ _ (-> & ->). cbn [app].
  eapply runs_bind with (P := fun _ st' cls => st' = st2 /\ cls = []); [apply runs_assert; [apply Nat.eqb_eq; lia | auto] |].
  intros _ ? ? _ _ (-> & ->). cbn [app].
  assert (O1 : olds st2 o1) by solds.
  eapply runs_conseq.
  { apply (cc_merge_ok d Hd); [lia | lia | lia | lia | | apply olds_app; split; [exact O1 | exact C2]].
    apply NoDup_app_intro; [assumption | assumption |]. intros y y' Hy1 Hy2 <-.
    destruct (C3b y Hy2) as [Hi | Hi]; [| apply Hi; apply A2; assumption].
    destruct (A3b y Hy1) as [Hj | Hj]; [| apply Hj; apply Or; assumption].
    exact (Ndx y y Hj Hi eq_refl). }
  intros out st3 cls3 L3 B3 (H1 & H2 & H3 & H4 & H5 & H6 & H7). 
  assert (Lm : length out = min m n) by (rewrite H1, A1, C1; lia).
  split; [assumption |]. split; [assumption |]. split; [| split; [| split]].
  - intros _. split; [assumption |]. intros y Hy. destruct (H4 y Hy) as [Hi | Hi].
    + apply in_app_iff in Hi. destruct Hi as [Hi | Hi].
      * destruct (A3b y Hi) as [Hj | Hj]; [left; rewrite Eins; apply in_app_iff; now left | now right].
      * destruct (C3b y Hi) as [Hj | Hj]; [left; rewrite Eins; apply in_app_iff; now right |]. right. intros Hold. apply Hj. eapply old_mono; eauto.
    + right. intros Hold. apply Hi. eapply old_mono; [| exact Hold]. eapply cle_trans; eauto.
  - intros Hdu b Hb k Hk Hc. rewrite !sat_app in Hb. destruct Hb as (S1 & S2 & S3).
    rewrite Eins, cnt_app in Hc. pose proof (cnt_le b il). pose proof (cnt_le b ir).
    apply (H5 Hdu b S3 _ _ k (sort_up_lead _ _ _ (A4 Hdu b S1)) (sort_up_lead _ _ _ (C4 Hdu b S2))); [| assumption]. lia.
  - intros Hdu b Hb k Hk. rewrite !sat_app in Hb. destruct Hb as (S1 & S2 & S3).
    destruct (H6 Hdu b S3 k Hk) as (i & j & Hi & Hj & Hij).
    apply (down_thr _ _ _ _ (A5 Hdu b S1)) in Hi. apply (down_thr _ _ _ _ (C5 Hdu b S2)) in Hj. rewrite Eins, cnt_app. lia.
  - intros a. destruct (A6 a) as (b1 & G1 & S1 & K1). destruct (C6 b1) as (b2 & G2 & S2 & K2).
    pose proof (cnt_le a il). pose proof (cnt_le a ir). rewrite (agree_cnt st st1 a b1 ir G1 Or) in K2.
    assert (K1' : canon b2 o1 (min (cnt a il) (length o1))) by (apply canon_min; eapply agree_canon; eauto).
    assert (K2' : canon b2 o2 (min (cnt a ir) (length o2))) by now apply canon_min.
    destruct (H7 b2 _ _ K1' K2' ltac:(lia) ltac:(lia)) as (b3 & G3 & S3 & K3). exists b3.
    assert (G13 : agree st1 st3 b1 b3) by (eapply agree_trans; [exact L2 | exact L3 | exact G2 | exact G3]).
    split; [eapply agree_trans; [exact L1 | eapply cle_trans; [exact L2 | exact L3] | exact G1 | exact G13] |].
    split; [| rewrite Eins, cnt_app; intros i Hi; rewrite K3 by assumption;
      destruct (Nat.ltb_spec i (cnt a il + cnt a ir)), (Nat.ltb_spec i (min (cnt a il) (length o1) + min (cnt a ir) (length o2))); auto; lia].
    rewrite !sat_app. split; [eapply agree_sat; [exact G13 | exact B1 | exact S1] |].
    split; [eapply agree_sat; [exact G3 | exact B2 | exact S2] | exact S3].
Qed.

(* ------------------------------------------------------------------------------------------------------------------ *)
(** * Cardinality networks *)

Definition upper_post (xs : list lit) (rhs : nat) (st : ctrs) (out : list lit) (st' : ctrs) (cls : list clause) : Prop :=
  length out = rhs + 1 /\ olds st' out
  /\ (forall b, sat b cls -> sort_up b xs out /\ tr b out rhs = false)
  /\ (forall a, cnt a xs <= rhs -> exists b, agree st st' a b /\ sat b cls /\ canon b out (cnt a xs)).

Lemma net_upper_full : forall xs rhs st, 1 <= rhs < length xs -> olds st xs -> NoDup xs -> usize_ok (length xs) ->
  runs st (net_upper xs rhs) (upper_post xs rhs st).
Proof.
  intros xs rhs st Hr Ho Hnd Hu. unfold net_upper.
  eapply runs_bind; [apply (cc_sort_ok InToOut (S (length xs)) (rhs + 1) xs st); [lia | assumption | assumption | intros; split; [lia | assumption]] |].
  intros out st1 cls L1 B1 (H1 & H2 & _ & H4 & _ & H6).
  eapply runs_emits.
  { eapply emits_iff; [apply emits_elems with (ps := [fun b => negb (tr b out rhs)]); elems |].
    intros b. cbn [anyb]. rewrite orb_false_r, negb_true_iff. reflexivity. }
  intros c1 _ M1. apply runs_ret. rewrite app_nil_r. split; [lia |]. split; [assumption |]. split.
  - intros b Hb. rewrite sat_app in Hb. destruct Hb as [S1 S2]. pose proof (proj1 (M1 b) S2) as Q. cbn beta in Q. split; [apply H4; [reflexivity | assumption] | now apply negb_true_iff].
  - intros a Ha. destruct (H6 a) as (b & G & S & K). exists b. split; [assumption |]. split; [| assumption].
    apply sat_app. split; [assumption |]. apply M1. apply negb_true_iff. rewrite K by lia. apply Nat.ltb_ge. assumption.
Qed.

Lemma net_lower_ok : forall xs rhs st, 1 <= rhs <= length xs -> olds st xs -> NoDup xs ->
  encodes st (net_lower xs rhs) (fun b => rhs <= cnt b xs).
Proof.
  intros xs rhs st Hr Ho Hnd. unfold net_lower, encodes.
  eapply runs_bind; [apply (cc_sort_ok OutToIn (S (length xs)) rhs xs st); [lia | assumption | assumption | discriminate] |].
  intros out st1 cls L1 B1 (H1 & H2 & _ & _ & H5 & H6).
  eapply runs_conseq.
  { apply emits_for with (P := fun y b => csat b [y]). intros y Hy. apply emits_add.
    apply olds_cons. split; [| apply olds_nil]. apply H2. rewrite <- (firstn_skipn rhs out). apply in_app_iff. now left. }
  intros [] st2 c2 _ _ [-> M2]. rewrite firstn_all2 in M2 by lia. split.
  - intros b Hb. rewrite sat_app in Hb. destruct Hb as [S1 S2]. pose proof (proj1 (M2 b) S2) as Q. cbn beta in Q.
    destruct (nth_error out (rhs - 1)) as [y |] eqn:Ey; [| apply nth_error_None in Ey; lia].
    assert (T : tr b out (rhs - 1) = true).
    { unfold tr. rewrite Ey. apply nth_error_In in Ey. apply Q in Ey. apply csat_cons in Ey. destruct Ey as [Ey | Ey]; [assumption | now apply csat_nil in Ey]. }
    pose proof (H5 eq_refl b S1 _ T). lia.
  - intros a Ha. destruct (H6 a) as (b & G & S & K). exists b. split; [assumption |]. apply sat_app. split; [assumption |].
    apply M2. intros y Hy. apply csat_cons. left. apply In_nth_error in Hy. destruct Hy as [i Hi].
    assert (i < length out) by (apply nth_error_Some; congruence).
    specialize (K i ltac:(assumption)). unfold tr in K. rewrite Hi in K. rewrite K. apply Nat.ltb_lt. lia.
Qed.

Lemma upper_bound_sound : forall b xs out rhs, sort_up b xs out -> rhs < length out -> tr b out rhs = false -> cnt b xs <= rhs.
Proof.
  intros b xs out rhs H Hl Hf. destruct (le_lt_dec (cnt b xs) rhs) as [| Hlt]; [assumption |]. rewrite (H rhs Hl Hlt) in Hf. discriminate.
Qed.

Lemma net_upper_ok : forall xs rhs st, 1 <= rhs < length xs -> olds st xs -> NoDup xs -> usize_ok (length xs) ->
  encodes st (net_upper xs rhs) (fun b => cnt b xs <= rhs).
Proof.
  intros xs rhs st Hr Ho Hnd Hu. eapply runs_conseq; [now apply net_upper_full |].
  intros out st' cls _ _ (H1 & H2 & H3 & H4). split.
  - intros b Hb. destruct (H3 b Hb) as [Q1 Q2]. eapply upper_bound_sound; [exact Q1 | lia | exact Q2].
  - intros a Ha. destruct (H4 a Ha) as (b & G & S & _). eauto.
Qed.

Lemma encodes_then : forall A B st (g : G A) (c : B) P, encodes st g P -> encodes st (g ;; gret c) P.
Proof.
  intros A B st g c P H. unfold encodes in *. eapply runs_bind; [exact H |]. intros x st' cls _ _ [Hs Hc].
  apply runs_ret. rewrite app_nil_r. auto.
Qed.

Lemma NoDup_neg : forall xs, NoDup xs -> NoDup (map lit_negate xs).
Proof.
  intros xs H. apply FinFun.Injective_map_NoDup; [| assumption]. intros x y E.
  rewrite <- (lit_negate_invol x), <- (lit_negate_invol y). now f_equal.
Qed.

Lemma net_amk_ok : forall xs rhs inc st, 1 <= rhs < length xs -> olds st xs -> NoDup xs -> usize_ok (length xs) ->
  encodes st (net_amk xs rhs inc) (fun b => cnt b xs <= rhs).
Proof.
  intros xs rhs inc st Hr Ho Hnd Hu. unfold net_amk. destruct inc; [| destruct (Nat.ltb_spec (length xs / 2) rhs)].
  - eapply runs_bind; [now apply net_upper_ok |]. intros out st' cls _ _ [Hs Hc]. apply runs_ret. rewrite app_nil_r. auto.
  - apply encodes_then. eapply encodes_iff; [apply net_lower_ok; [rewrite map_length; lia | now apply olds_neg | now apply NoDup_neg] |].
    intros b. pose proof (cnt_neg b xs). cbn beta. lia.
  - apply encodes_then. now apply net_upper_ok.
Qed.

Lemma net_alk_ok : forall xs rhs inc st, 1 <= rhs < length xs -> olds st xs -> NoDup xs -> usize_ok (length xs) ->
  encodes st (net_alk xs rhs inc) (fun b => rhs <= cnt b xs).
Proof.
  intros xs rhs inc st Hr Ho Hnd Hu. unfold net_alk.
  assert (Hup : encodes st (net_upper (map lit_negate xs) (length xs - rhs)) (fun b => rhs <= cnt b xs)).
  { eapply encodes_iff; [apply net_upper_ok; [rewrite map_length; lia | now apply olds_neg | now apply NoDup_neg | now rewrite map_length] |].
    intros b. pose proof (cnt_neg b xs). cbn beta. lia. }
  destruct inc; [| destruct (Nat.ltb_spec (length xs / 2) (length xs - rhs))].
  - eapply runs_bind; [exact Hup |]. intros out st' cls _ _ [Hs Hc]. apply runs_ret. rewrite app_nil_r. auto.
  - apply encodes_then. replace (length xs - (length xs - rhs)) with rhs by lia. apply net_lower_ok; [lia | assumption | assumption].
  - apply encodes_then. exact Hup.
Qed.

Lemma net_exk_ok : forall xs rhs st, 1 <= rhs < length xs -> olds st xs -> NoDup xs ->
  encodes st (net_exk xs rhs) (fun b => cnt b xs = rhs).
Proof.
  intros xs rhs st Hr Ho Hnd. unfold net_exk, encodes.
  eapply runs_bind; [apply (cc_sort_ok DBoth (S (length xs)) (rhs + 1) xs st); [lia | assumption | assumption | discriminate] |].
  intros out st1 cls L1 B1 (H1 & H2 & _ & H4 & H5 & H6).
  eapply runs_conseq.
  { apply emits_seq; [apply emits_elems with (ps := [fun b => negb (tr b out rhs)]); elems |].
    apply emits_elems with (ps := [fun b => tr b out (rhs - 1)]); elems. }
  intros [] st2 c2 _ _ [-> M2]. cbn [anyb] in M2. split.
  - intros b Hb. rewrite sat_app in Hb. destruct Hb as [S1 S2]. apply M2 in S2. rewrite !orb_false_r, negb_true_iff in S2. destruct S2 as [Q1 Q2].
    pose proof (upper_bound_sound b xs out rhs (H4 eq_refl b S1) ltac:(lia) Q1). pose proof (H5 eq_refl b S1 _ Q2). lia.
  - intros a Ha. destruct (H6 a) as (b & G & S & K). exists b. split; [assumption |]. apply sat_app. split; [assumption |].
    apply M2. rewrite !orb_false_r, negb_true_iff, !K by lia. split; [apply Nat.ltb_ge | apply Nat.ltb_lt]; lia.
Qed.
