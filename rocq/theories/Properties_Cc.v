(** C23-C26: the cardinality encodings. *)
From Coq Require Import NArith ZArith List Bool Arith Lia.
From Verif Require Import Base EncodingModel Syntax FactoryModel CcModel EncBasics AmoProofs TotalizerProofs ModTotProofs SorterProofs
  CcFrontProofs.
Import ListNotations.
Local Open Scope nat_scope.

(* ------------------------------------------------------------------------------------------------------------------ *)
(** * The specification *)

(** Variables the factory knows, and variables created between two states of the counters. *)
Definition known_var (st : ctrs) (v : var) : Prop := match v with VFF i => (i < k_ff st)%N | VAux a i => (i < ctr st a)%N end.
Definition created (st st' : ctrs) (v : var) : Prop :=
  match v with VFF _ => False | VAux a i => (ctr st a <= i < ctr st' a)%N end.

(** A clause set is satisfied if each clause contains a true literal. *)
Definition satisfies (b : valuation) (cls : list (list lit)) : Prop :=
  forall c, In c cls -> exists l, In l c /\ lit_sem b l = true.

(** The clauses [cls], made between [st] and [st'], are exact for [P]: every valuation satisfying them satisfies [P], and
    every valuation satisfying [P] satisfies them after changing the values of the created variables; they mention no
    variable which is unknown afterwards. *)
Definition exact (st st' : ctrs) (cls : list (list lit)) (P : valuation -> Prop) : Prop :=
  (forall b, satisfies b cls -> P b)
  /\ (forall a, P a -> exists b, (forall v, ~ created st st' v -> b v = a v) /\ satisfies b cls)
  /\ (forall c l, In c cls -> In l c -> known_var st' (lit_var l))
  /\ k_ff st' = k_ff st /\ (forall a, (ctr st a <= ctr st' a)%N).

(** A computation from [st] delivers exact clauses: no panic, no endless run. *)
Definition delivers {A} (g : G A) (st : ctrs) (P : valuation -> Prop) : Prop :=
  exists r st' cls, g st = Ok (r, st', cls) /\ exact st st' cls P.

Lemma agree_created : forall st st' a b, agree st st' a b -> forall v, ~ created st st' v -> b v = a v.
Proof.
  intros st st' a b H v Hv. destruct (H v) as [F | E]; [| assumption]. exfalso. apply Hv. clear Hv.
  unfold fresh in F. unfold created. destruct v as [i | x i]; [now apply F |]. exact F.
Qed.
Lemma encodes_exact : forall A st (g : G A) P, encodes st g P -> delivers g st P.
Proof.
  intros A st g P (r & st' & cls & E & L & B & HS & HC). exists r, st', cls. split; [assumption |]. split; [exact HS |]. split; [| split].
  - intros a Ha. destruct (HC a Ha) as (b & G & S). exists b. split; [now apply agree_created | exact S].
  - intros c l Hc Hl. exact (B c Hc l Hl).
  - split; [symmetry; exact (L None) | intros a; exact (L (Some a))].
Qed.
Lemma delivers_iff : forall A st (g : G A) P Q, (forall b, P b <-> Q b) -> encodes st g P -> delivers g st Q.
Proof. intros A st g P Q H E. apply encodes_exact. eapply encodes_iff; eauto. Qed.
Lemma known_olds : forall st vs, (forall v, In v vs -> known_var st v) -> olds st (map plit vs).
Proof. intros st vs H l Hl. apply in_map_iff in Hl. destruct Hl as (v & <- & Hv). exact (H v Hv). Qed.
Lemma plit_inj : forall vs, NoDup vs -> NoDup (map plit vs).
Proof. intros vs H. apply FinFun.Injective_map_NoDup; [| assumption]. intros x y E. now injection E. Qed.

Definition st0 : ctrs := mkCtrs 100 0 0 0.
Definition xv (n : nat) : list var := map (fun i => VFF (N.of_nat i)) (seq 0 n).
Lemma xv_known : forall n v, (n <= 100)%nat -> In v (xv n) -> known_var st0 v.
Proof. intros n v Hn H. apply in_map_iff in H. destruct H as (i & <- & H). apply in_seq in H. cbn. lia. Qed.
Lemma xv_NoDup : forall n, NoDup (xv n).
Proof. intros n. apply FinFun.Injective_map_NoDup; [| apply seq_NoDup]. intros x y E. injection E. lia. Qed.
Definition cfg_with (amo : amo_encoder) (amk : amk_encoder) (alk : alk_encoder) (exk : exk_encoder) : cc_config := mkCcConfig amo amk alk exk.

(* ------------------------------------------------------------------------------------------------------------------ *)
(** * C23: at most one, exactly one *)

(** Parameters for which the encoders are defined; see the refutations below for the others. *)
Definition admissible (e : amo_encoder) : Prop :=
  match e with
  | AmoProduct bound => (2 <= bound)%N
  | AmoNested group => (4 <= group)%N
  | AmoCommander group => (2 <= group)%N
  | AmoBimander (BiFixed group) => (1 <= group)%N
  | _ => True
  end.

Theorem C23_amo : forall cfg vs st, admissible (cfg_amo cfg) -> (forall v, In v vs -> known_var st v) ->
  delivers (enc_amo cfg (map plit vs)) st (fun b => (count_true b vs <= 1)%Z).
Proof.
  intros cfg vs st Hc Hv. eapply delivers_iff; [| apply enc_amo_ok; [exact Hc | now apply known_olds]].
  intros b. cbn beta. rewrite count_true_cnt. lia.
Qed.
Print Assumptions C23_amo.

Theorem C23_exo : forall cfg vs st, admissible (cfg_amo cfg) -> (forall v, In v vs -> known_var st v) ->
  delivers (enc_exo cfg (map plit vs)) st (fun b => count_true b vs = 1%Z).
Proof.
  intros cfg vs st Hc Hv. eapply delivers_iff; [| apply enc_exo_ok; [exact Hc | now apply known_olds]].
  intros b. cbn beta. rewrite count_true_cnt. lia.
Qed.
Print Assumptions C23_exo.

Example C23_example : admissible (AmoProduct 20) /\ admissible (AmoBimander BiSqrt) /\ (forall v, In v (xv 5) -> known_var st0 v).
Proof. split; [cbn; lia |]. split; [exact I |]. intros v. apply xv_known. lia. Qed.

(** The unrestricted statement fails: with these parameters the encoders do not return. *)
Lemma naive_ok : forall xs st, exists cls, naive xs st = Ok (tt, st, cls).
Proof.
  assert (F : forall x r st, exists cls, gfor r (fun y => add [lit_negate x; lit_negate y]) st = Ok (tt, st, cls)).
  { intros x r st. induction r as [| y r [cls IH]]; cbn [gfor]; [eexists; reflexivity |]. unfold gbind. cbn. rewrite IH. eexists. reflexivity. }
  induction xs as [| x r IH]; intros st; cbn [naive]; [eexists; reflexivity |].
  unfold gbind. destruct (F x r st) as [c1 ->]. destruct (IH st) as [c2 ->]. eexists. reflexivity.
Qed.

(** cc_amo_nested.rs 21-27: with a group size of 3 the second half of three literals has three literals again. *)
Theorem C23_nested_diverges_refuted : forall fuel xs st, length xs = 3 -> amo_nested fuel 3 xs st = NoFuel.
Proof.
  induction fuel as [| fuel IH]; intros xs st H; [reflexivity |]. destruct xs as [| a [| b [| c [| ? ?]]]]; cbn in H; try discriminate.
  set (y := Lit (VAux AuxCC (ctr st AuxCC)) true). set (st1 := bump st AuxCC).
  assert (E : amo_nested (S fuel) 3 [a; b; c] st = match amo_nested fuel 3 [a; y] st1 with
    | Ok (_, st2, c1) => match amo_nested fuel 3 [b; c; lit_negate y] st2 with
        | Ok (r, st3, c2) => Ok (r, st3, [] ++ (c1 ++ c2)) | Panic => Panic | NoFuel => NoFuel end
    | Panic => Panic | NoFuel => NoFuel end).
  { cbn [amo_nested]. change (length [a; b; c] <? 3) with false. change (length [a; b; c] / 2) with 1.
    unfold gbind, new_aux. cbn [firstn skipn]. cbv beta iota zeta. fold y. fold st1. change ([a] ++ [y]) with [a; y].
    change ([b; c] ++ [lit_negate y]) with [b; c; lit_negate y].
    destruct (amo_nested fuel 3 [a; y] st1) as [[[? ?] ?] | |]; [| reflexivity | reflexivity].
    destruct (amo_nested fuel 3 [b; c; lit_negate y] _) as [[[? ?] ?] | |]; reflexivity. }
  rewrite E. destruct fuel as [| fuel]; [reflexivity |].
  change (amo_nested (S fuel) 3 [a; y] st1) with (naive [a; y] st1). destruct (naive_ok [a; y] st1) as [cls ->].
  rewrite IH by reflexivity. reflexivity.
Qed.
Print Assumptions C23_nested_diverges_refuted.

(** cc_amo_product.rs 19-29: with a bound below 2 two literals give two new literals again. *)
Theorem C23_product_diverges_refuted : forall fuel xs st, length xs = 2 -> amo_product fuel 1 xs st = NoFuel.
Proof.
  induction fuel as [| fuel IH]; intros xs st H; [reflexivity |]. destruct xs as [| a [| b [| ? ?]]]; cbn in H; try discriminate.
  cbn [amo_product]. change (sqrt_up (length [a; b])) with 2. change (cdiv (length [a; b]) 2) with 1.
  change (2 <=? 1) with false. change (1 <=? 1) with true.
  cbn [allocs]. unfold gbind, new_aux, gret. cbv beta iota. rewrite IH by reflexivity. reflexivity.
Qed.
Print Assumptions C23_product_diverges_refuted.

(** cc_amo_commander.rs 20-41: groups of one literal do not make the list of commanders shorter. *)
Lemma round_one : forall eo rest i st, exists next st' cls,
  commander_round 1 eo i [] rest st = Ok (next, st', cls) /\ length next = length rest.
Proof.
  intros eo. induction rest as [| x rest IH]; intros i st; cbn [commander_round]; [do 3 eexists; split; reflexivity |].
  rewrite Nat.mod_1_r. cbn [Nat.sub Nat.eqb orb app naive gfor].
  unfold gbind, gret, new_aux, add. destruct eo; cbn [gwhen]; unfold gbind, gret, add; cbv beta iota.
  all: destruct (IH (S i) (bump st AuxCC)) as (next & st' & cls & -> & E); do 3 eexists; (split; [reflexivity | cbn; lia]).
Qed.
Theorem C23_commander_diverges_refuted : forall fuel eo xs st, 2 <= length xs -> amo_commander fuel 1 eo xs st = NoFuel.
Proof.
  induction fuel as [| fuel IH]; intros eo xs st H; [reflexivity |]. cbn [amo_commander].
  rewrite (proj2 (Nat.ltb_lt 1 (length xs))) by lia. change (1 <=? 1) with true. unfold gassert, gbind, gret.
  destruct (round_one eo xs 0 st) as (next & st' & cls & -> & E). rewrite IH by lia. reflexivity.
Qed.
Print Assumptions C23_commander_diverges_refuted.

Theorem C23_commander_zero_refuted : exists vs st, amo_commander (S (length vs)) 0 false (map plit vs) st = Panic.
Proof. exists (xv 2), st0. reflexivity. Qed.
Theorem C23_bimander_zero_refuted : exists vs st, amo_bimander 0 (map plit vs) st = Panic.
Proof. exists (xv 2), st0. reflexivity. Qed.

(* ------------------------------------------------------------------------------------------------------------------ *)
(** * C24: at most, at least, exactly [k] *)

(** The cardinality networks need distinct variables, less than 2^31 of them. *)
Definition small (n : nat) : Prop := (N.of_nat n < 2 ^ 31)%N.
Definition amk_admissible (e : amk_encoder) (vs : list var) : Prop := e = AmkCardinalityNetwork -> NoDup vs /\ small (length vs).
Definition alk_admissible (e : alk_encoder) (vs : list var) : Prop := e = AlkCardinalityNetwork -> NoDup vs /\ small (length vs).
Definition exk_admissible (e : exk_encoder) (vs : list var) : Prop := e = ExkCardinalityNetwork -> NoDup vs.

Lemma amk_adm : forall e vs, amk_admissible e vs -> amk_cfg_ok e (map plit vs).
Proof. intros [] vs H; try exact I. destruct (H eq_refl). split; [now apply plit_inj | now rewrite map_length]. Qed.
Lemma alk_adm : forall e vs, alk_admissible e vs -> alk_cfg_ok e (map plit vs).
Proof. intros [] vs H; try exact I. destruct (H eq_refl). split; [now apply plit_inj | now rewrite map_length]. Qed.
Lemma exk_adm : forall e vs, exk_admissible e vs -> exk_cfg_ok e (map plit vs).
Proof. intros [] vs H; try exact I. apply plit_inj. now apply H. Qed.

Theorem C24_amk : forall cfg vs k inc st, amk_admissible (cfg_amk cfg) vs -> (forall v, In v vs -> known_var st v) ->
  delivers (enc_amk cfg (map plit vs) k inc) st (fun b => (count_true b vs <= Z.of_N k)%Z).
Proof.
  intros cfg vs k inc st Hc Hv. eapply delivers_iff; [| apply enc_amk_ok; [now apply known_olds | now apply amk_adm]].
  intros b. cbn beta. rewrite count_true_cnt. lia.
Qed.
Print Assumptions C24_amk.

Theorem C24_alk : forall cfg vs k inc st, alk_admissible (cfg_alk cfg) vs -> (forall v, In v vs -> known_var st v) ->
  delivers (enc_alk cfg (map plit vs) k inc) st (fun b => (Z.of_N k <= count_true b vs)%Z).
Proof.
  intros cfg vs k inc st Hc Hv. eapply delivers_iff; [| apply enc_alk_ok; [now apply known_olds | now apply alk_adm]].
  intros b. cbn beta. rewrite count_true_cnt. lia.
Qed.
Print Assumptions C24_alk.

Theorem C24_exk : forall cfg vs k st, exk_admissible (cfg_exk cfg) vs -> (forall v, In v vs -> known_var st v) ->
  delivers (enc_exk cfg (map plit vs) k) st (fun b => count_true b vs = Z.of_N k).
Proof.
  intros cfg vs k st Hc Hv. eapply delivers_iff; [| apply enc_exk_ok; [now apply known_olds | now apply exk_adm]].
  intros b. cbn beta. rewrite count_true_cnt. lia.
Qed.
Print Assumptions C24_exk.

Example C24_example : amk_admissible AmkCardinalityNetwork (xv 9) /\ alk_admissible AlkCardinalityNetwork (xv 9)
  /\ exk_admissible ExkCardinalityNetwork (xv 9) /\ amk_admissible AmkTotalizer (xv 2 ++ xv 2).
Proof.
  split; [intros _; split; [apply xv_NoDup | reflexivity] |]. split; [intros _; split; [apply xv_NoDup | reflexivity] |].
  split; [intros _; apply xv_NoDup | discriminate].
Qed.

(** Without distinct variables the comparators of the networks panic ([assert_ne!], cc_sorter.rs 76 and 88), e.g. for
    [x0 + x0 + x0 <= 1]: the totalizer encodes the same constraint. *)
Theorem C24_network_duplicates_refuted : exists vs k st, (forall v, In v vs -> known_var st v)
  /\ enc_amk (cfg_with AmoBest AmkCardinalityNetwork AlkBest ExkBest) (map plit vs) k false st = Panic
  /\ enc_exk (cfg_with AmoBest AmkBest AlkBest ExkCardinalityNetwork) (map plit vs) k st = Panic.
Proof.
  exists [VFF 0; VFF 0; VFF 0; VFF 0], 3%N, st0. split; [| split; vm_compute; reflexivity].
  intros v Hv. cbn in Hv. intuition (subst; cbn; lia).
Qed.
Print Assumptions C24_network_duplicates_refuted.

(** cc_sorter.rs 67: [m - 2] underflows when one output of an unsorted list of three or more is asked for; the encoder never
    does, see [C24_amk]. *)
Theorem C24_sort_one_refuted : exists vs st, NoDup vs /\ cc_sort (S (length vs)) 1 (map plit vs) InToOut st = Panic.
Proof. exists (xv 3), st0. split; [apply xv_NoDup | vm_compute; reflexivity]. Qed.

(* ------------------------------------------------------------------------------------------------------------------ *)
(** * C25: the encoder *)

Definition cfg_admissible (cfg : cc_config) (vs : list var) : Prop :=
  admissible (cfg_amo cfg) /\ amk_admissible (cfg_amk cfg) vs /\ alk_admissible (cfg_alk cfg) vs /\ exk_admissible (cfg_exk cfg) vs.

Lemma cfg_ok : forall cfg c, cfg_admissible cfg (cc_vars c) -> (cc_cmp c = LT -> cc_rhs c <> 0%N) -> cc_cfg_ok cfg c.
Proof.
  intros cfg c (H1 & H2 & H3 & H4) H5. split; [exact H1 |]. split; [now apply amk_adm |]. split; [now apply alk_adm |].
  split; [now apply exk_adm | assumption].
Qed.

Theorem C25_encode : forall cfg c st, cfg_admissible cfg (cc_vars c) -> (cc_cmp c = LT -> cc_rhs c <> 0%N) ->
  (forall v, In v (cc_vars c) -> known_var st v) -> delivers (encode_cc cfg c) st (fun b => cc_sem b c = true).
Proof. intros cfg c st H1 H2 H3. apply encodes_exact, encode_cc_ok; [now apply known_olds | now apply cfg_ok]. Qed.
Print Assumptions C25_encode.

Definition default_cc : cc_config := cfg_with AmoBest AmkBest AlkBest ExkBest.
Example C25_example : cfg_admissible default_cc (xv 7 ++ xv 3).
Proof. split; [exact I |]. split; [discriminate |]. split; [discriminate | discriminate]. Qed.

(** [x0 < 0] cannot be encoded: cc_encoder.rs 66 subtracts one from zero. *)
Theorem C25_lt_zero_refuted : forall cfg vs st, encode_cc cfg (mkCc vs LT 0) st = Panic.
Proof. reflexivity. Qed.
Print Assumptions C25_lt_zero_refuted.

(* ------------------------------------------------------------------------------------------------------------------ *)
(** * C26: incremental bounds *)

(** A list of bounds, each tighter than the one before. *)
Fixpoint decreasing (cur : nat) (rs : list nat) : Prop :=
  match rs with [] => True | r :: rs' => r < cur /\ decreasing r rs' end.
Fixpoint increasing (cur : nat) (rs : list nat) : Prop :=
  match rs with [] => True | r :: rs' => cur < r /\ increasing r rs' end.

Lemma decreasing_chain : forall rs cur, decreasing cur rs -> chain lt cur rs.
Proof. induction rs as [| r rs IH]; cbn; intros cur H; [exact I | split; [apply H | apply IH, H]]. Qed.
Lemma increasing_chain : forall rs cur, increasing cur rs -> chain (fun r c => c < r) cur rs.
Proof. induction rs as [| r rs IH]; cbn; intros cur H; [exact I | split; [apply H | apply IH, H]]. Qed.

Lemma inv_exact : forall st st' cls (P Q : valuation -> Prop), (forall b, P b <-> Q b) -> cle st st' -> bounded st' cls ->
  (forall b, sat b cls -> P b) /\ (forall a, P a -> exists b, agree st st' a b /\ sat b cls) -> exact st st' cls Q.
Proof.
  intros st st' cls P Q E L B [HS HC]. split; [intros b Hb; apply E; now apply HS |]. split; [| split].
  - intros a Ha. apply E in Ha. destruct (HC a Ha) as (b & G & S). exists b. split; [now apply agree_created | exact S].
  - intros c l Hc Hl. exact (B c Hc l Hl).
  - split; [symmetry; exact (L None) | intros a; exact (L (Some a))].
Qed.

(** After [<= k] with incremental data, any chain of tighter upper bounds is accepted, and all clauses together are exact for
    the last bound. *)
Theorem C26_upper : forall cfg vs k st, amk_admissible (cfg_amk cfg) vs -> (forall v, In v vs -> known_var st v) ->
  exists od st1 cls1, enc_amk cfg (map plit vs) k true st = Ok (od, st1, cls1)
    /\ exact st st1 cls1 (fun b => (count_true b vs <= Z.of_N k)%Z)
    /\ (od = None <-> (k = 0 \/ N.of_nat (length vs) <= k)%N)
    /\ forall d rs, od = Some d -> decreasing (N.to_nat k) rs ->
         exists d' cls2, upper_bounds d rs st1 = Ok (d', st1, cls2)
           /\ exact st st1 (cls1 ++ cls2) (fun b => (count_true b vs <= Z.of_nat (last rs (N.to_nat k)))%Z).
Proof.
  intros cfg vs k st Hc Hv. pose proof (known_olds st vs Hv) as Ho. pose proof (amk_adm _ _ Hc) as Hc'.
  destruct (enc_amk_ok cfg (map plit vs) k true st Ho Hc') as (od & st1 & cls1 & E & L & B & HX).
  destruct (enc_amk_inc cfg (map plit vs) k st Ho Hc') as (od' & st1' & cls1' & E' & _ & _ & HI).
  rewrite E in E'. injection E' as <- <- <-. exists od, st1, cls1. split; [assumption |]. split; [| split].
  - eapply inv_exact; [| exact L | exact B | exact HX]. intros b. cbn beta. rewrite count_true_cnt. lia.
  - rewrite map_length in HI. destruct od as [d |]; [| split; [intros _; exact HI | reflexivity]].
    destruct HI as (_ & H & _). split; [discriminate | lia].
  - intros d rs -> Hd. destruct HI as (Hr & Hk & HI). rewrite <- Hr in Hd.
    destruct (upper_bounds_ok _ _ _ rs d cls1 HI (decreasing_chain _ _ Hd)) as (d' & st2 & cls2 & E2 & _ & B2 & -> & Hl & HI2).
    exists d', cls2. split; [exact E2 |].
    eapply inv_exact; [| exact L | apply bounded_app; assumption | exact (inc_inv_exact _ _ _ _ _ _ _ _ HI2)].
    intros b. cbn beta. rewrite count_true_cnt, Hl, Hr. lia.
Qed.
Print Assumptions C26_upper.

(** After [>= k], any chain of tighter lower bounds up to the number of variables. *)
Theorem C26_lower : forall cfg vs k st, alk_admissible (cfg_alk cfg) vs -> (forall v, In v vs -> known_var st v) ->
  exists od st1 cls1, enc_alk cfg (map plit vs) k true st = Ok (od, st1, cls1)
    /\ exact st st1 cls1 (fun b => (Z.of_N k <= count_true b vs)%Z)
    /\ (od = None <-> (k <= 1 \/ N.of_nat (length vs) <= k)%N)
    /\ forall d rs, od = Some d -> increasing (N.to_nat k) rs -> (forall r, In r rs -> r <= length vs) ->
         exists d' cls2, lower_bounds d rs st1 = Ok (d', st1, cls2)
           /\ exact st st1 (cls1 ++ cls2) (fun b => (Z.of_nat (last rs (N.to_nat k)) <= count_true b vs)%Z).
Proof.
  intros cfg vs k st Hc Hv. pose proof (known_olds st vs Hv) as Ho. pose proof (alk_adm _ _ Hc) as Hc'.
  destruct (enc_alk_ok cfg (map plit vs) k true st Ho Hc') as (od & st1 & cls1 & E & L & B & HX).
  destruct (enc_alk_inc cfg (map plit vs) k st Ho Hc') as (od' & st1' & cls1' & E' & _ & _ & HI).
  rewrite E in E'. injection E' as <- <- <-. exists od, st1, cls1. split; [assumption |]. split; [| split].
  - eapply inv_exact; [| exact L | exact B | exact HX]. intros b. cbn beta. rewrite count_true_cnt. lia.
  - rewrite map_length in HI. destruct od as [d |]; [| split; [intros _; exact HI | reflexivity]].
    destruct HI as (_ & H & _). split; [discriminate | lia].
  - intros d rs -> Hd Hn. destruct HI as (Hr & Hk & HI). rewrite <- Hr in Hd.
    destruct (lower_bounds_ok _ _ _ rs d cls1 HI (increasing_chain _ _ Hd)) as (d' & st2 & cls2 & E2 & _ & B2 & -> & Hl & HI2).
    { intros r Hin. rewrite map_length. auto. }
    exists d', cls2. split; [exact E2 |].
    eapply inv_exact; [| exact L | apply bounded_app; assumption | exact (inc_inv_exact _ _ _ _ _ _ _ _ HI2)].
    intros b. cbn beta. rewrite count_true_cnt, Hl, Hr. lia.
Qed.
Print Assumptions C26_lower.

Example C26_example : exists d st1 cls1, enc_amk default_cc (map plit (xv 6)) 4 true st0 = Ok (Some d, st1, cls1) /\ decreasing (N.to_nat 4) [3; 1; 0].
Proof. do 3 eexists. split; [vm_compute; reflexivity | cbn; lia]. Qed.
Example C26_example_lower : exists d st1 cls1, enc_alk default_cc (map plit (xv 6)) 3 true st0 = Ok (Some d, st1, cls1)
  /\ increasing (N.to_nat 3) [4; 6] /\ (forall r, In r [4; 6] -> r <= length (xv 6)).
Proof. do 3 eexists. split; [vm_compute; reflexivity |]. split; [cbn; lia |]. intros r [<- | [<- | []]]; cbn; lia. Qed.

(** A lower bound above the number of variables is unsatisfiable, but with the totalizer it is accepted and the clauses stay
    satisfiable (cc_incremental_data.rs 119-121 takes only the existing outputs): [x0 + x1 + x2 >= 2], then [>= 4]. *)
Theorem C26_lower_overflow_refuted : exists vs k d st1 cls1 d' st2 cls2 b,
  enc_alk (cfg_with AmoBest AmkBest AlkTotalizer ExkBest) (map plit vs) k true st0 = Ok (Some d, st1, cls1)
  /\ new_lower_bound d (S (length vs)) st1 = Ok (d', st2, cls2)
  /\ satisfies b (cls1 ++ cls2) /\ ~ (Z.of_nat (S (length vs)) <= count_true b vs)%Z.
Proof.
  exists (xv 3), 2%N. do 6 eexists. exists (fun _ => true).
  split; [vm_compute; reflexivity |]. split; [vm_compute; reflexivity |]. split; [| vm_compute; intuition discriminate].
  assert (H : forall cls, forallb (existsb (lit_sem (fun _ => true))) cls = true -> satisfies (fun _ => true) cls).
  { intros cls H c Hc. rewrite forallb_forall in H. apply H in Hc. apply existsb_exists in Hc. exact Hc. }
  apply H. vm_compute. reflexivity.
Qed.
Print Assumptions C26_lower_overflow_refuted.
(** The other encoders underflow there ([n_vars - rhs], cc_incremental_data.rs 123 and 126). *)
Theorem C26_lower_underflow_refuted : exists vs k d st1 cls1,
  enc_alk default_cc (map plit vs) k true st0 = Ok (Some d, st1, cls1) /\ new_lower_bound d (S (length vs)) st1 = Panic.
Proof. exists (xv 3), 2%N. do 3 eexists. split; vm_compute; reflexivity. Qed.

(** The incremental front end (cc_encoder.rs 85-97) for the four inequalities. *)
Theorem C25_encode_incremental : forall cfg c st, cfg_admissible cfg (cc_vars c) -> (cc_cmp c = LT -> cc_rhs c <> 0%N) -> cc_cmp c <> EQ ->
  (forall v, In v (cc_vars c) -> known_var st v) -> delivers (encode_cc_inc cfg c) st (fun b => cc_sem b c = true).
Proof.
  intros cfg c st (_ & H2 & H3 & _) Hlt Hne Hv. unfold encode_cc_inc, cc_sem, cmp_sem. apply amk_adm in H2. apply alk_adm in H3.
  pose proof (known_olds st _ Hv) as Ho. destruct (cc_cmp c); [contradiction | | | |].
  - eapply delivers_iff; [| apply enc_alk_ok; assumption]. intros b. cbn beta. rewrite count_true_cnt, Z.ltb_lt. lia.
  - eapply delivers_iff; [| apply enc_alk_ok; assumption]. intros b. cbn beta. rewrite count_true_cnt, Z.leb_le. lia.
  - destruct (N.eqb_spec (cc_rhs c) 0) as [E | E]; [now specialize (Hlt eq_refl) |].
    eapply delivers_iff; [| apply enc_amk_ok; assumption]. intros b. cbn beta. rewrite count_true_cnt, Z.ltb_lt. lia.
  - eapply delivers_iff; [| apply enc_amk_ok; assumption]. intros b. cbn beta. rewrite count_true_cnt, Z.leb_le. lia.
Qed.
Print Assumptions C25_encode_incremental.
