(** The front end of the cardinality encoder and the incremental bounds. *)
From Coq Require Import NArith ZArith List Bool Arith Lia.
From Verif Require Import Base EncodingModel Syntax FactoryModel CcModel EncBasics AmoProofs TotalizerProofs ModTotProofs SorterProofs.
Import ListNotations.
Local Open Scope nat_scope.
Local Open Scope gen_scope.

(** The configurations for which the at-most-one encoders terminate without a panic. *)
Definition amo_cfg_ok (e : amo_encoder) : Prop :=
  match e with
  | AmoProduct b => (2 <= b)%N
  | AmoNested g => (4 <= g)%N
  | AmoCommander g => (2 <= g)%N
  | AmoBimander (BiFixed g) => (1 <= g)%N
  | _ => True
  end.

Lemma enc_amo_ok : forall cfg xs st, amo_cfg_ok (cfg_amo cfg) -> olds st xs -> encodes st (enc_amo cfg xs) (fun b => cnt b xs <= 1).
Proof.
  intros cfg xs st Hc Ho. unfold enc_amo. destruct (Nat.leb_spec (length xs) 1) as [H1 | H1].
  { eapply encodes_iff; [apply emits_encodes, emits_ret |]. intros b. cbn beta. pose proof (cnt_le b xs). cbn beta. split; [lia | auto]. }
  destruct (cfg_amo cfg) as [| | bd | gs | gs | | g |]; cbn [amo_cfg_ok] in Hc.
  - apply emits_encodes. now apply emits_naive.
  - apply amo_ladder_ok; [assumption | lia].
  - apply amo_product_ok; [assumption | lia | lia | lia].
  - apply amo_nested_ok; [assumption | lia | lia].
  - eapply runs_conseq; [apply amo_commander_ok; [assumption | lia | lia] |].
    cbn beta. intros _ st' cls _ _ [HS HC]. split; [assumption |]. intros a Ha. apply HC; [assumption | discriminate].
  - apply amo_binary_ok; [assumption | lia].
  - apply amo_bimander_ok; [assumption |]. destruct g; cbn [amo_cfg_ok] in Hc.
    + apply (Nat.div_le_mono 2 (length xs) 2); lia.
    + apply (Nat.sqrt_le_mono 1 (length xs)). lia.
    + lia.
  - destruct (length xs <=? 10); [apply emits_encodes; now apply emits_naive |].
    apply amo_product_ok; [assumption | lia | lia | lia].
Qed.

(** The cardinality networks need distinct variables. *)
Definition amk_cfg_ok (e : amk_encoder) (xs : list lit) : Prop :=
  match e with AmkCardinalityNetwork => NoDup xs /\ usize_ok (length xs) | _ => True end.
Definition alk_cfg_ok (e : alk_encoder) (xs : list lit) : Prop :=
  match e with AlkCardinalityNetwork => NoDup xs /\ usize_ok (length xs) | _ => True end.
Definition exk_cfg_ok (e : exk_encoder) (xs : list lit) : Prop :=
  match e with ExkCardinalityNetwork => NoDup xs | _ => True end.

Lemma encodes_true : forall A st (x : A) (P : valuation -> Prop), (forall b, P b) -> encodes st (gret x) P.
Proof. intros A st x P H. apply runs_ret. split; [auto |]. intros a _. exists a. split; [apply agree_refl | apply sat_nil]. Qed.

Lemma emits_negs : forall st xs, olds st xs -> emits st (gfor xs (fun x => add [lit_negate x])) (fun b => cnt b xs = 0).
Proof.
  intros st xs Ho. eapply emits_iff.
  { apply emits_for with (P := fun x b => csat b [lit_negate x]). intros x Hx. apply emits_add.
    apply olds_cons. rewrite lit_negate_var. split; [auto | apply olds_nil]. }
  intros b. rewrite cnt_zero. split; intros H x Hx; specialize (H x Hx); cbn beta in *.
  - rewrite csat_cons, sem_neg_true in H. destruct H as [H | H]; [assumption | now apply csat_nil in H].
  - rewrite csat_cons, sem_neg_true. now left.
Qed.
Lemma emits_units : forall st xs, olds st xs -> emits st (gfor xs (fun x => add [x])) (fun b => cnt b xs = length xs).
Proof.
  intros st xs Ho. eapply emits_iff.
  { apply emits_for with (P := fun x b => csat b [x]). intros x Hx. apply emits_add.
    apply olds_cons. split; [auto | apply olds_nil]. }
  intros b. rewrite cnt_full. split; intros H x Hx; specialize (H x Hx); cbn beta in *.
  - rewrite csat_cons in H. destruct H as [H | H]; [assumption | now apply csat_nil in H].
  - rewrite csat_cons. now left.
Qed.
Lemma emits_clause : forall st xs, olds st xs -> emits st (add xs) (fun b => 1 <= cnt b xs).
Proof. intros st xs Ho. eapply emits_iff; [now apply emits_add |]. intros b. cbn beta. now rewrite cnt_pos. Qed.
Lemma emits_empty : forall st (P : valuation -> Prop), (forall b, ~ P b) -> emits st (add []) P.
Proof.
  intros st P H. eapply emits_iff; [apply emits_add, olds_nil |]. intros b. cbn beta. split; [intros Hc; now apply csat_nil in Hc | intros Hp; now apply H in Hp].
Qed.

Lemma enc_amk_ok : forall cfg xs rhs inc st, olds st xs -> amk_cfg_ok (cfg_amk cfg) xs ->
  encodes st (enc_amk cfg xs rhs inc) (fun b => (N.of_nat (cnt b xs) <= rhs)%N).
Proof.
  intros cfg xs rhs inc st Ho Hc. unfold enc_amk. destruct (N.leb_spec (N.of_nat (length xs)) rhs) as [H | H].
  { apply encodes_true. intros b. pose proof (cnt_le b xs). lia. }
  destruct (N.eqb_spec rhs 0) as [-> | Hr].
  { apply encodes_then, emits_encodes. eapply emits_iff; [now apply emits_negs |]. intros b. cbn beta. lia. }
  assert (E : forall b, cnt b xs <= N.to_nat rhs <-> (N.of_nat (cnt b xs) <= rhs)%N) by (intros b; lia).
  destruct (cfg_amk cfg); cbn [amk_cfg_ok] in Hc; (eapply encodes_iff; [| exact E]).
  - apply tot_amk_ok; [assumption | lia].
  - apply mod_amk_ok; [assumption | lia].
  - apply net_amk_ok; [lia | assumption | apply Hc | apply Hc].
  - apply mod_amk_ok; [assumption | lia].
Qed.

Lemma enc_alk_ok : forall cfg xs rhs inc st, olds st xs -> alk_cfg_ok (cfg_alk cfg) xs ->
  encodes st (enc_alk cfg xs rhs inc) (fun b => (rhs <= N.of_nat (cnt b xs))%N).
Proof.
  intros cfg xs rhs inc st Ho Hc. unfold enc_alk. destruct (N.ltb_spec (N.of_nat (length xs)) rhs) as [H | H].
  { apply encodes_then, emits_encodes, emits_empty. intros b Hb. pose proof (cnt_le b xs). lia. }
  destruct (N.eqb_spec rhs 0) as [-> | H0]; [apply encodes_true; intros b; lia |].
  destruct (N.eqb_spec rhs 1) as [-> | H1].
  { apply encodes_then, emits_encodes. eapply emits_iff; [now apply emits_clause |]. intros b. cbn beta. lia. }
  destruct (N.eqb_spec rhs (N.of_nat (length xs))) as [-> | H2].
  { apply encodes_then, emits_encodes. eapply emits_iff; [now apply emits_units |]. intros b. cbn beta. pose proof (cnt_le b xs). lia. }
  assert (E : forall b, N.to_nat rhs <= cnt b xs <-> (rhs <= N.of_nat (cnt b xs))%N) by (intros b; lia).
  destruct (cfg_alk cfg); cbn [alk_cfg_ok] in Hc; (eapply encodes_iff; [| exact E]).
  - apply tot_alk_ok; [assumption | lia | lia].
  - apply mod_alk_ok; [assumption | lia].
  - apply net_alk_ok; [lia | assumption | apply Hc | apply Hc].
  - apply mod_alk_ok; [assumption | lia].
Qed.

Lemma enc_exo_ok : forall cfg xs st, amo_cfg_ok (cfg_amo cfg) -> olds st xs -> encodes st (enc_exo cfg xs) (fun b => cnt b xs = 1).
Proof.
  intros cfg xs st Hc Ho. unfold enc_exo. destruct xs as [| x [| y xs]].
  - apply emits_encodes, emits_empty. intros b. cbn. discriminate.
  - apply emits_encodes. eapply emits_iff; [now apply emits_clause |]. intros b. cbn beta. pose proof (cnt_le b [x]). cbn [length] in *. lia.
  - unfold encodes. eapply runs_bind; [now apply enc_amo_ok |]. intros _ st1 c1 L1 B1 [HS HC].
    eapply runs_conseq; [apply emits_clause; solds |]. intros _ st2 c2 _ _ [-> M2]. split.
    + intros b Hb. apply sat_app in Hb. destruct Hb as [S1 S2]. apply M2 in S2. apply HS in S1. lia.
    + intros a Ha. destruct (HC a ltac:(lia)) as (b & A & S). exists b. split; [assumption |]. apply sat_app. split; [assumption |].
      apply M2. rewrite (agree_cnt st st1 a b _ A Ho). lia.
Qed.

Lemma enc_exk_ok : forall cfg xs rhs st, olds st xs -> exk_cfg_ok (cfg_exk cfg) xs ->
  encodes st (enc_exk cfg xs rhs) (fun b => N.of_nat (cnt b xs) = rhs).
Proof.
  intros cfg xs rhs st Ho Hc. unfold enc_exk. destruct (N.ltb_spec (N.of_nat (length xs)) rhs) as [H | H].
  { apply emits_encodes, emits_empty. intros b Hb. pose proof (cnt_le b xs). lia. }
  destruct (N.eqb_spec rhs 0) as [-> | H0].
  { apply emits_encodes. eapply emits_iff; [now apply emits_negs |]. intros b. cbn beta. lia. }
  destruct (N.eqb_spec rhs (N.of_nat (length xs))) as [-> | H2].
  { apply emits_encodes. eapply emits_iff; [now apply emits_units |]. intros b. cbn beta. lia. }
  assert (E : forall b, cnt b xs = N.to_nat rhs <-> N.of_nat (cnt b xs) = rhs) by (intros b; lia).
  destruct (cfg_exk cfg); cbn [exk_cfg_ok] in Hc; (eapply encodes_iff; [| exact E]).
  - apply tot_exk_ok; [assumption | lia | lia].
  - apply net_exk_ok; [lia | assumption | apply Hc].
  - apply tot_exk_ok; [assumption | lia | lia].
Qed.

(** What a constraint asks of the configuration. *)
Definition cc_cfg_ok (cfg : cc_config) (c : cc) : Prop :=
  let xs := map plit (cc_vars c) in
  amo_cfg_ok (cfg_amo cfg) /\ amk_cfg_ok (cfg_amk cfg) xs /\ alk_cfg_ok (cfg_alk cfg) xs /\ exk_cfg_ok (cfg_exk cfg) xs
  /\ (cc_cmp c = LT -> cc_rhs c <> 0%N).

Lemma encode_cc_ok : forall cfg c st, olds st (map plit (cc_vars c)) -> cc_cfg_ok cfg c ->
  encodes st (encode_cc cfg c) (fun b => cc_sem b c = true).
Proof.
  intros cfg c st Ho (H1 & H2 & H3 & H4 & H5). unfold encode_cc, cc_sem, cmp_sem.
  set (xs := map plit (cc_vars c)) in *.
  assert (E : forall b, count_true b (cc_vars c) = Z.of_nat (cnt b xs)) by (intros b; apply count_true_cnt).
  destruct (cc_cmp c).
  - destruct (N.eqb_spec (cc_rhs c) 1) as [Er | Er].
    + eapply encodes_iff; [now apply enc_exo_ok |]. intros b. cbn beta. rewrite E, Er, Z.eqb_eq. lia.
    + eapply encodes_iff; [now apply enc_exk_ok |]. intros b. cbn beta. rewrite E, Z.eqb_eq. lia.
  - apply encodes_then. eapply encodes_iff; [now apply enc_alk_ok |]. intros b. cbn beta. rewrite E, Z.ltb_lt. lia.
  - apply encodes_then. eapply encodes_iff; [now apply enc_alk_ok |]. intros b. cbn beta. rewrite E, Z.leb_le. lia.
  - destruct (N.eqb_spec (cc_rhs c) 2) as [Er | Er].
    + eapply encodes_iff; [now apply enc_amo_ok |]. intros b. cbn beta. rewrite E, Er, Z.ltb_lt. lia.
    + destruct (N.eqb_spec (cc_rhs c) 0) as [E0 | E0]; [now specialize (H5 eq_refl) |].
      apply encodes_then. eapply encodes_iff; [now apply enc_amk_ok |]. intros b. cbn beta. rewrite E, Z.ltb_lt. lia.
  - destruct (N.eqb_spec (cc_rhs c) 1) as [Er | Er].
    + eapply encodes_iff; [now apply enc_amo_ok |]. intros b. cbn beta. rewrite E, Er, Z.leb_le. lia.
    + apply encodes_then. eapply encodes_iff; [now apply enc_amk_ok |]. intros b. cbn beta. rewrite E, Z.leb_le. lia.
Qed.

(* ------------------------------------------------------------------------------------------------------------------ *)
(** * Incremental bounds *)

Definition inc_inv (T : nat -> nat -> Prop) (adm : nat -> Prop) (P : nat -> valuation -> Prop) (step : nat -> G unit)
    (st0 st : ctrs) (cls : list clause) (cur : nat) : Prop :=
  exists mean : nat -> valuation -> Prop,
    (forall r, T r cur -> adm r -> emits st (step r) (mean r))
    /\ (forall r b, T r cur -> adm r -> sat b cls -> mean r b -> P r b)
    /\ (forall b, sat b cls -> P cur b)
    /\ (forall a, P cur a -> exists b, agree st0 st a b /\ sat b cls /\ forall r, T r cur -> adm r -> P r a -> mean r b).

Lemma inc_step : forall (T : nat -> nat -> Prop) adm (P : nat -> valuation -> Prop) step st0 st cls cur r,
  (forall x y z, T x y -> T y z -> T x z) -> (forall x y b, T x y -> P x b -> P y b) ->
  inc_inv T adm P step st0 st cls cur -> T r cur -> adm r ->
  runs st (step r) (fun _ st' c => st' = st /\ inc_inv T adm P step st0 st (cls ++ c) r).
Proof.
  intros T adm P step st0 st cls cur r Ht Hmono (mean & H1 & H2 & H3 & H4) HT Ha.
  eapply runs_conseq; [apply (H1 r HT Ha) |]. intros _ st' c _ _ [-> M]. split; [reflexivity |].
  exists mean. split; [intros x Hx Hax; apply H1; [eapply Ht; eauto | assumption] |].
  split; [intros x b Hx Hax Hs Hm; apply sat_app in Hs; destruct Hs as [Hs _]; apply H2; [eapply Ht; eauto | assumption | assumption | assumption] |].
  split.
  - intros b Hs. apply sat_app in Hs. destruct Hs as [S1 S2]. apply H2; [assumption | assumption | assumption | now apply M].
  - intros a Hp. destruct (H4 a ltac:(eapply Hmono; eauto)) as (b & A & S & Q). exists b. split; [assumption |]. split.
    + apply sat_app. split; [assumption |]. apply M. now apply Q.
    + intros x Hx Hax Hpx. apply Q; [eapply Ht; eauto | assumption | assumption].
Qed.

Definition ub_body (d : inc_data) (rhs : nat) : G unit :=
  match inc_enc d with
  | IncAmk AmkTotalizer => gfor (skipn rhs (inc_v1 d)) (fun l => add [lit_negate l])
  | IncAmk AmkModularTotalizer => inc_mod d rhs
  | IncAmk AmkCardinalityNetwork => gwhen (rhs <? length (inc_v1 d)) (add_r [rneg (ix (inc_v1 d) rhs)])
  | IncAmk AmkBest => gpanic
  | IncAlk _ => gpanic
  end.
Definition lb_body (d : inc_data) (rhs : nat) : G unit :=
  match inc_enc d with
  | IncAlk AlkTotalizer => gfor (firstn rhs (inc_v1 d)) (fun l => add [l])
  | IncAlk AlkModularTotalizer => gassert (rhs <=? inc_n d) ;; inc_mod d (inc_n d - rhs)
  | IncAlk AlkCardinalityNetwork =>
      gassert (rhs <=? inc_n d) ;;
      let new_rhs := inc_n d - rhs in
      gwhen (new_rhs <? length (inc_v1 d)) (add_r [rneg (ix (inc_v1 d) new_rhs)])
  | IncAlk AlkBest => gpanic
  | IncAmk _ => gpanic
  end.

Definition ub_inv (xs : list lit) (st0 st : ctrs) (cls : list clause) (d : inc_data) : Prop :=
  inc_inv lt (fun _ => True) (fun r b => cnt b xs <= r) (ub_body d) st0 st cls (inc_rhs d).
Definition lb_inv (xs : list lit) (st0 st : ctrs) (cls : list clause) (d : inc_data) : Prop :=
  inc_inv (fun r cur => cur < r) (fun r => r <= length xs) (fun r b => r <= cnt b xs) (lb_body d) st0 st cls (inc_rhs d).

Lemma emits_not_at : forall st out r, olds st out -> r < length out ->
  emits st (gwhen (r <? length out) (add_r [rneg (ix out r)])) (fun b => tr b out r = false).
Proof.
  intros st out r Ho Hr. eapply emits_iff.
  { apply emits_when. intros _. apply emits_elems with (ps := [fun b => negb (tr b out r)]). elems. }
  intros b. cbn [anyb]. rewrite orb_false_r, negb_true_iff. split; [intros H; apply H; apply Nat.ltb_lt; lia | auto].
Qed.

Lemma enc_amk_inc : forall cfg xs rhs st, olds st xs -> amk_cfg_ok (cfg_amk cfg) xs ->
  runs st (enc_amk cfg xs rhs true) (fun od st' cls =>
    match od with
    | Some d => inc_rhs d = N.to_nat rhs /\ (1 <= rhs < N.of_nat (length xs))%N /\ ub_inv xs st st' cls d
    | None => (rhs = 0 \/ N.of_nat (length xs) <= rhs)%N
    end).
Proof.
  intros cfg xs rhs st Ho Hc. unfold enc_amk. destruct (N.leb_spec (N.of_nat (length xs)) rhs) as [H | H].
  { apply runs_ret. now right. }
  destruct (N.eqb_spec rhs 0) as [-> | Hr].
  { eapply runs_bind; [now apply emits_negs |]. intros _ st1 c1 _ _ _. apply runs_ret. now left. }
  set (r := N.to_nat rhs). assert (Hn : 1 <= r < length xs) by (unfold r; lia). assert (Hn' : (1 <= rhs < N.of_nat (length xs))%N) by lia.
  assert (HM : runs st (mod_amk xs r true) (fun od st' cls =>
    match od with
    | Some d => inc_rhs d = r /\ (1 <= rhs < N.of_nat (length xs))%N /\ ub_inv xs st st' cls d
    | None => (rhs = 0 \/ N.of_nat (length xs) <= rhs)%N
    end)).
  { eapply runs_conseq; [apply mod_amk_full; [assumption | lia] |].
    cbn beta. intros d st' cls _ _ (us & ls & md & cm & -> & Hmd & Hcm & Hus & Hls & Ous & Ols & HS & HC).
    split; [reflexivity |]. split; [assumption |]. cbn [inc_rhs].
    exists (fun x => out_cond x md us ls). cbn [inc_rhs]. split; [| split; [| split]].
    - intros x Hx _. cbn [ub_body inc_enc]. eapply emits_inc_mod; try reflexivity; try assumption. rewrite Hus. apply Nat.div_le_mono; lia.
    - intros x b Hx _ Hs Hm. destruct (HS b Hs) as [S1 _]. eapply out_sound; [exact Hmd | | | exact S1 | exact Hm]; lia.
    - intros b Hs. destruct (HS b Hs) as [S1 S2]. eapply out_sound; [exact Hmd | | | exact S1 | exact S2]; lia.
    - intros a Ha. destruct (HC a Ha) as (b & A & S & C1 & C2). exists b. split; [assumption |]. split; [assumption |].
      intros x Hx _ Hp. eapply out_complete; eauto. }
  destruct (cfg_amk cfg); cbn [amk_cfg_ok] in Hc; [| exact HM | | exact HM].
  - eapply runs_conseq; [apply tot_amk_full; [assumption | lia] |].
    cbn beta. intros d st' cls _ _ (out & -> & Hlen & Oo & HS & HC). split; [reflexivity |]. split; [assumption |].
    exists (fun x b => forall k, x <= k -> tr b out k = false). cbn [inc_rhs].
    assert (Hs' : forall x b, x <= r -> sat b cls -> (forall k, x <= k -> tr b out k = false) -> cnt b xs <= x).
    { intros x b Hx Hs Hm. destruct (HS b Hs) as [U _]. destruct (le_lt_dec (cnt b xs) x) as [| Hlt]; [assumption |].
      specialize (U (x + 1) ltac:(lia) ltac:(lia)). rewrite Hm in U by lia. discriminate. }
    split; [| split; [| split]].
    + intros x Hx _. cbn [ub_body inc_enc inc_v1]. eapply emits_iff; [apply emits_all_neg; now apply olds_skipn |]. intros b. cbn beta. apply skipn_false.
    + intros x b Hx _ Hs Hm. apply Hs'; [lia | assumption | assumption].
    + intros b Hs. apply Hs'; [lia | assumption | apply HS; assumption].
    + intros a Ha. destruct (HC a Ha) as (b & A & S & C). exists b. split; [assumption |]. split; [assumption |].
      intros x Hx _ Hp k Hk. eapply canon_beyond; [exact C | lia].
  - unfold net_amk. eapply runs_bind; [apply net_upper_full; [lia | assumption | apply Hc | apply Hc] |].
    intros out st' cls _ _ (Hlen & Oo & HS & HC). apply runs_ret. rewrite app_nil_r. split; [reflexivity |]. split; [assumption |].
    exists (fun x b => tr b out x = false). cbn [inc_rhs]. split; [| split; [| split]].
    + intros x Hx _. cbn [ub_body inc_enc inc_v1]. apply emits_not_at; [assumption | lia].
    + intros x b Hx _ Hs Hm. destruct (HS b Hs) as [S1 _]. eapply upper_bound_sound; [exact S1 | lia | exact Hm].
    + intros b Hs. destruct (HS b Hs) as [S1 S2]. eapply upper_bound_sound; [exact S1 | lia | exact S2].
    + intros a Ha. destruct (HC a Ha) as (b & A & S & C). exists b. split; [assumption |]. split; [assumption |].
      intros x Hx _ Hp. eapply canon_beyond; [exact C | lia].
Qed.

Lemma enc_alk_inc : forall cfg xs rhs st, olds st xs -> alk_cfg_ok (cfg_alk cfg) xs ->
  runs st (enc_alk cfg xs rhs true) (fun od st' cls =>
    match od with
    | Some d => inc_rhs d = N.to_nat rhs /\ (2 <= rhs < N.of_nat (length xs))%N /\ lb_inv xs st st' cls d
    | None => (rhs <= 1 \/ N.of_nat (length xs) <= rhs)%N
    end).
Proof.
  intros cfg xs rhs st Ho Hc. unfold enc_alk. destruct (N.ltb_spec (N.of_nat (length xs)) rhs) as [H | H].
  { eapply runs_bind; [apply (emits_add st []); apply olds_nil |]. intros _ st1 c1 _ _ _. apply runs_ret. right. lia. }
  destruct (N.eqb_spec rhs 0) as [-> | H0]; [apply runs_ret; left; lia |].
  destruct (N.eqb_spec rhs 1) as [-> | H1].
  { eapply runs_bind; [now apply emits_clause |]. intros _ st1 c1 _ _ _. apply runs_ret. left. lia. }
  destruct (N.eqb_spec rhs (N.of_nat (length xs))) as [-> | H2].
  { eapply runs_bind; [now apply emits_units |]. intros _ st1 c1 _ _ _. apply runs_ret. right. lia. }
  set (r := N.to_nat rhs). assert (Hn : 2 <= r < length xs) by (unfold r; lia). assert (Hn' : (2 <= rhs < N.of_nat (length xs))%N) by lia.
  set (n := length xs) in *.
  assert (Cn : forall b, cnt b (map lit_negate xs) + cnt b xs = n) by (intros b; apply cnt_neg).
  assert (HM : runs st (mod_alk xs r true) (fun od st' cls =>
    match od with
    | Some d => inc_rhs d = r /\ (2 <= rhs < N.of_nat n)%N /\ lb_inv xs st st' cls d
    | None => (rhs <= 1 \/ N.of_nat n <= rhs)%N
    end)).
  { eapply runs_conseq; [apply mod_alk_full; [assumption | lia] |].
    cbn beta. intros d st' cls _ _ (us & ls & md & cm & -> & Hmd & Hcm & Hus & Hls & Ous & Ols & HS & HC). fold n in Hcm, Hus, HS, HC.
    split; [reflexivity |]. split; [assumption |].
    exists (fun x => out_cond (n - x) md us ls). cbn [inc_rhs]. fold n. split; [| split; [| split]].
    - intros x Hx Hx'. cbn [lb_body inc_enc inc_n]. apply (emits_bind_ret _ st' _ tt).
      { rewrite (proj2 (Nat.leb_le x n)) by assumption. reflexivity. }
      eapply emits_inc_mod; try reflexivity; try assumption. rewrite Hus. apply Nat.div_le_mono; lia.
    - intros x b Hx Hx' Hs Hm. destruct (HS b Hs) as [S1 _]. specialize (Cn b).
      assert (cnt b (map lit_negate xs) <= n - x); [| lia]. eapply out_sound; [exact Hmd | | | exact S1 | exact Hm]; lia.
    - intros b Hs. destruct (HS b Hs) as [S1 S2]. specialize (Cn b).
      assert (cnt b (map lit_negate xs) <= n - r); [| lia]. eapply out_sound; [exact Hmd | | | exact S1 | exact S2]; lia.
    - intros a Ha. pose proof (Cn a). destruct (HC a ltac:(lia)) as (b & A & S & C1 & C2). exists b. split; [assumption |]. split; [assumption |].
      intros x Hx Hx' Hp. eapply out_complete; eauto. lia. }
  destruct (cfg_alk cfg); cbn [alk_cfg_ok] in Hc; [| exact HM | | exact HM].
  - eapply runs_conseq; [apply tot_alk_full; [assumption | lia | lia] |].
    cbn beta. intros d st' cls _ _ (out & -> & Hlen & Oo & HS & HC). split; [reflexivity |]. split; [assumption |].
    exists (fun x b => forall k, k < x -> tr b out k = true). cbn [inc_rhs].
    assert (Hs' : forall x b, r <= x -> sat b cls -> (forall k, k < x -> tr b out k = true) -> x <= cnt b xs).
    { intros x b Hx Hs Hm. destruct (HS b Hs) as [U _]. specialize (Hm (x - 1) ltac:(lia)). apply U in Hm. lia. }
    split; [| split; [| split]].
    + intros x Hx Hx'. cbn [lb_body inc_enc inc_v1]. eapply emits_iff; [apply emits_all_pos; now apply olds_firstn |].
      intros b. apply firstn_true. lia.
    + intros x b Hx _ Hs Hm. apply Hs'; [lia | assumption | assumption].
    + intros b Hs. apply Hs'; [lia | assumption | apply HS; assumption].
    + intros a Ha. destruct (HC a Ha) as (b & A & S & C). exists b. split; [assumption |]. split; [assumption |].
      intros x Hx Hx' Hp k Hk. rewrite C by lia. apply Nat.ltb_lt. lia.
  - unfold net_alk. fold n. eapply runs_bind.
    { apply net_upper_full; [rewrite map_length; fold n; lia | now apply olds_neg | apply NoDup_neg; apply Hc | rewrite map_length; apply Hc]. }
    intros out st' cls _ _ (Hlen & Oo & HS & HC). apply runs_ret. rewrite app_nil_r. split; [reflexivity |]. split; [assumption |].
    exists (fun x b => tr b out (n - x) = false). cbn [inc_rhs]. fold n. split; [| split; [| split]].
    + intros x Hx Hx'. cbn [lb_body inc_enc inc_v1 inc_n]. apply (emits_bind_ret _ st' _ tt).
      { fold n. rewrite (proj2 (Nat.leb_le x n)) by assumption. reflexivity. }
      apply emits_not_at; [assumption | lia].
    + intros x b Hx Hx' Hs Hm. destruct (HS b Hs) as [S1 _]. specialize (Cn b).
      assert (cnt b (map lit_negate xs) <= n - x); [| lia]. eapply upper_bound_sound; [exact S1 | lia | exact Hm].
    + intros b Hs. destruct (HS b Hs) as [S1 S2]. specialize (Cn b).
      assert (cnt b (map lit_negate xs) <= n - r); [| lia]. eapply upper_bound_sound; [exact S1 | lia | exact S2].
    + intros a Ha. pose proof (Cn a). destruct (HC a ltac:(lia)) as (b & A & S & C). exists b. split; [assumption |]. split; [assumption |].
      intros x Hx Hx' Hp. eapply canon_beyond; [exact C | lia].
Qed.

(** Histories of bounds. *)
Fixpoint upper_bounds (d : inc_data) (rs : list nat) : G inc_data :=
  match rs with [] => gret d | r :: rs' => d' <~ new_upper_bound d r ;; upper_bounds d' rs' end.
Fixpoint lower_bounds (d : inc_data) (rs : list nat) : G inc_data :=
  match rs with [] => gret d | r :: rs' => d' <~ new_lower_bound d r ;; lower_bounds d' rs' end.

Fixpoint chain (T : nat -> nat -> Prop) (cur : nat) (rs : list nat) : Prop :=
  match rs with [] => True | r :: rs' => T r cur /\ chain T r rs' end.

Lemma upper_bounds_ok : forall xs st0 st rs d cls,
  ub_inv xs st0 st cls d -> chain lt (inc_rhs d) rs ->
  runs st (upper_bounds d rs) (fun d' st' c => st' = st /\ inc_rhs d' = last rs (inc_rhs d) /\ ub_inv xs st0 st (cls ++ c) d').
Proof.
  intros xs st0 st. induction rs as [| r rs IH]; intros d cls Hi Hc; cbn [upper_bounds].
  - apply runs_ret. rewrite app_nil_r. cbn. auto.
  - cbn [chain] in Hc. destruct Hc as [Hr Hc].
    eapply runs_bind with (P := fun d' st' c => d' = with_rhs d r /\ st' = st /\ ub_inv xs st0 st (cls ++ c) d').
    { unfold new_upper_bound. eapply runs_bind with (P := fun _ st' c => st' = st /\ c = []); [apply runs_assert; [apply Nat.ltb_lt; lia | auto] |].
      intros _ ? ? _ _ [-> ->]. cbn [app]. eapply runs_bind.
      { apply (inc_step lt (fun _ => True) (fun r b => cnt b xs <= r) (ub_body d) st0 st cls (inc_rhs d) r); [lia | cbn; lia | exact Hi | exact Hr | exact I]. }
      intros _ st' c _ _ [-> H]. apply runs_ret. rewrite app_nil_r. auto. }
    intros d' st' c _ _ (-> & -> & H). eapply runs_conseq; [apply (IH _ _ H); exact Hc |].
    cbn beta. intros d' st' c' _ _ (-> & E & H'). split; [reflexivity |]. rewrite <- app_assoc in H'. split; [| assumption].
    rewrite E. cbn [inc_rhs with_rhs]. destruct rs as [| r' rs]; [reflexivity |]. clear. cbn [last]. revert r'. induction rs as [| x rs IH]; intros r'; [reflexivity | apply IH].
Qed.

Lemma lower_bounds_ok : forall xs st0 st rs d cls,
  lb_inv xs st0 st cls d -> chain (fun r cur => cur < r) (inc_rhs d) rs -> (forall r, In r rs -> r <= length xs) ->
  runs st (lower_bounds d rs) (fun d' st' c => st' = st /\ inc_rhs d' = last rs (inc_rhs d) /\ lb_inv xs st0 st (cls ++ c) d').
Proof.
  intros xs st0 st. induction rs as [| r rs IH]; intros d cls Hi Hc Hn; cbn [lower_bounds].
  - apply runs_ret. rewrite app_nil_r. cbn. auto.
  - cbn [chain] in Hc. destruct Hc as [Hr Hc].
    eapply runs_bind with (P := fun d' st' c => d' = with_rhs d r /\ st' = st /\ lb_inv xs st0 st (cls ++ c) d').
    { unfold new_lower_bound. eapply runs_bind with (P := fun _ st' c => st' = st /\ c = []); [apply runs_assert; [apply Nat.ltb_lt; lia | auto] |].
      intros _ ? ? _ _ [-> ->]. cbn [app]. eapply runs_bind.
      { apply (inc_step (fun r cur => cur < r) (fun r => r <= length xs) (fun r b => r <= cnt b xs) (lb_body d) st0 st cls (inc_rhs d) r);
          [cbn; lia | cbn; lia | exact Hi | exact Hr | apply Hn; now left]. }
      intros _ st' c _ _ [-> H]. apply runs_ret. rewrite app_nil_r. auto. }
    intros d' st' c _ _ (-> & -> & H). eapply runs_conseq; [apply (IH _ _ H); [exact Hc | intros x Hx; apply Hn; now right] |].
    cbn beta. intros d' st' c' _ _ (-> & E & H'). split; [reflexivity |]. rewrite <- app_assoc in H'. split; [| assumption].
    rewrite E. cbn [inc_rhs with_rhs]. destruct rs as [| r' rs]; [reflexivity |]. clear. cbn [last]. revert r'. induction rs as [| x rs IH]; intros r'; [reflexivity | apply IH].
Qed.

Lemma inc_inv_exact : forall T adm P step st0 st cls cur, inc_inv T adm P step st0 st cls cur ->
  (forall b, sat b cls -> P cur b) /\ (forall a, P cur a -> exists b, agree st0 st a b /\ sat b cls).
Proof. intros T adm P step st0 st cls cur (mean & _ & _ & H1 & H2). split; [assumption |]. intros a Ha. destruct (H2 a Ha) as (b & A & S & _). eauto. Qed.
