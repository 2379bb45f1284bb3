(** The modular totalizer (cc_modular_totalizer.rs) is correct. *)
From Coq Require Import NArith ZArith List Bool Arith Lia.
From Verif Require Import Base EncodingModel Syntax FactoryModel CcModel EncBasics AmoProofs TotalizerProofs.
Import ListNotations.
Local Open Scope nat_scope.
Local Open Scope gen_scope.

(** The first [k] literals of [ys] are true. *)
Definition lead (b : valuation) (ys : list lit) (k : nat) : Prop := forall i, i < k -> tr b ys i = true.
Lemma lead_len : forall b ys k, lead b ys k -> k <= length ys.
Proof. intros b ys [| k] H; [lia |]. specialize (H k ltac:(lia)). apply tr_lt in H. lia. Qed.

(** The [i]-th threshold of a list: no condition for zero. *)
Definition thr (b : valuation) (ys : list lit) (i : nat) : Prop := i = 0 \/ tr b ys (i - 1) = true.
Lemma lead_thr : forall b ys k i, lead b ys k -> i <= k -> thr b ys i.
Proof. intros b ys k i H Hi. destruct i as [| i]; [now left | right]. apply H. lia. Qed.

Definition wrap (us : list lit) : list olit := match us with [] => [None] | _ => map Some us end.
Lemma wrap_some : forall us, us <> [] -> wrap us = map Some us.
Proof. intros [| u us] H; [contradiction | reflexivity]. Qed.
Lemma olits_map : forall us, olits (map Some us) = us.
Proof. induction us as [| u us IH]; cbn; [reflexivity | now rewrite IH]. Qed.

Definition cval (b : valuation) (carry : option lit) : bool := match carry with Some c => lit_sem b c | None => false end.

(** The meaning of the two parts of an adder. *)
Definition fin_cond (cm : nat) (us1 us2 us : list lit) (carry : option lit) (b : valuation) : Prop :=
  forall i j, i <= length us1 -> j <= length us2 -> i + j <= cm -> thr b us1 i -> thr b us2 j ->
    (1 <= i + j -> tr b us (i + j - 1) = true) /\ (cval b carry = true -> tr b us (i + j) = true).
Definition low_cond (md : nat) (l1 l2 ls : list lit) (carry : option lit) (b : valuation) : Prop :=
  forall i j, i <= length l1 -> j <= length l2 -> thr b l1 i -> thr b l2 j ->
    (1 <= i + j < md -> tr b ls (i + j - 1) = true \/ cval b carry = true)
    /\ (i + j = md -> cval b carry = true)
    /\ (md < i + j -> tr b ls (i + j - md - 1) = true).

Definition node_sound (md cm : nat) (ins us ls : list lit) (b : valuation) : Prop :=
  exists u l, lead b us u /\ lead b ls l /\ (cm <= u \/ cnt b ins <= md * u + l).

Lemma adder_sound : forall md cm i1 i2 us1 us2 us l1 l2 ls carry b,
  2 <= md -> node_sound md cm i1 us1 l1 b -> node_sound md cm i2 us2 l2 b ->
  fin_cond cm us1 us2 us carry b -> low_cond md l1 l2 ls carry b -> node_sound md cm (i1 ++ i2) us ls b.
Proof.
  intros md cm i1 i2 us1 us2 us l1 l2 ls carry b Hmd (u1 & a1 & HU1 & HL1 & HV1) (u2 & a2 & HU2 & HL2 & HV2) HF HL.
  pose proof (lead_len _ _ _ HU1) as BU1. pose proof (lead_len _ _ _ HU2) as BU2.
  pose proof (lead_len _ _ _ HL1) as BL1. pose proof (lead_len _ _ _ HL2) as BL2.
  assert (Hpre : forall k, k < u1 + u2 -> k < cm -> tr b us k = true).
  { intros k Hk Hk'. set (i := min (S k) u1). assert (E : k = i + (S k - i) - 1) by lia. rewrite E.
    apply (HF i (S k - i)); try lia; eapply lead_thr; eauto; lia. }
  destruct (le_lt_dec cm (u1 + u2)) as [Hge | Hlt].
  { exists cm, 0. split; [intros i Hi; apply Hpre; lia |]. split; [intros i Hi; lia | now left]. }
  destruct HV1 as [HV1 | HV1]; [lia |]. destruct HV2 as [HV2 | HV2]; [lia |].
  destruct (cval b carry) eqn:Ec.
  - exists (u1 + u2 + 1), (a1 + a2 - md). split; [| split].
    + intros i Hi. destruct (Nat.eq_dec i (u1 + u2)) as [-> | Hne]; [| apply Hpre; lia].
      apply (HF u1 u2); try lia; [eapply lead_thr; eauto | eapply lead_thr; eauto | assumption].
    + intros k Hk. set (i := min (md + S k) a1). replace k with (i + (md + S k - i) - md - 1) by lia.
      apply (HL i (md + S k - i)); try lia; eapply lead_thr; eauto; lia.
    + right. rewrite cnt_app. nia.
  - assert (Hs : a1 + a2 < md).
    { destruct (le_lt_dec md (a1 + a2)) as [Hge |]; [| assumption]. exfalso.
      set (i := min md a1).
      assert (cval b carry = true); [| congruence].
      apply (HL i (md - i)); try lia; eapply lead_thr; eauto; lia. }
    exists (u1 + u2), (a1 + a2). split; [| split].
    + intros i Hi. apply Hpre; lia.
    + intros k Hk. set (i := min (S k) a1). replace k with (i + (S k - i) - 1) by lia.
      destruct (HL i (S k - i)) as [H _]; try lia; [eapply lead_thr; eauto; lia | eapply lead_thr; eauto; lia |].
      destruct H as [H | H]; [lia | assumption | congruence].
    + right. rewrite cnt_app. nia.
Qed.

Lemma canon_thr : forall b ys n i, canon b ys n -> i <= length ys -> thr b ys i -> i <= n.
Proof.
  intros b ys n i Hc Hi [-> | H]; [lia |]. destruct i as [| i]; [lia |]. rewrite Hc in H by lia. apply Nat.ltb_lt in H. lia.
Qed.

Lemma div_add : forall md x y, 1 <= md ->
  (md <= x mod md + y mod md ->
     (x + y) / md = x / md + y / md + 1 /\ (x + y) mod md = x mod md + y mod md - md)
  /\ (x mod md + y mod md < md -> (x + y) / md = x / md + y / md /\ (x + y) mod md = x mod md + y mod md).
Proof.
  intros md x y Hmd. pose proof (Nat.mod_upper_bound x md ltac:(lia)) as Mx. pose proof (Nat.mod_upper_bound y md ltac:(lia)) as My.
  pose proof (Nat.div_mod_eq x md) as Dx. pose proof (Nat.div_mod_eq y md) as Dy.
  split; intros H.
  - split.
    + symmetry. apply (Nat.div_unique _ _ _ (x mod md + y mod md - md)); [lia |]. nia.
    + symmetry. apply (Nat.mod_unique _ _ (x / md + y / md + 1)); [lia |]. nia.
  - split.
    + symmetry. apply (Nat.div_unique _ _ _ (x mod md + y mod md)); [lia |]. nia.
    + symmetry. apply (Nat.mod_unique _ _ (x / md + y / md)); [lia |]. nia.
Qed.

Lemma adder_complete : forall md cm v1 v2 us1 us2 us l1 l2 ls carry b,
  2 <= md -> canon b us1 (v1 / md) -> canon b us2 (v2 / md) -> canon b us ((v1 + v2) / md) ->
  canon b l1 (v1 mod md) -> canon b l2 (v2 mod md) -> canon b ls ((v1 + v2) mod md) ->
  (v1 + v2) / md <= length us -> (v1 + v2) mod md <= length ls ->
  cval b carry = (md <=? v1 mod md + v2 mod md) ->
  fin_cond cm us1 us2 us carry b /\ low_cond md l1 l2 ls carry b.
Proof.
  intros md cm v1 v2 us1 us2 us l1 l2 ls carry b Hmd C1 C2 C D1 D2 D Hu Hl Hc.
  destruct (div_add md v1 v2 ltac:(lia)) as [E1 E2].
  pose proof (Nat.mod_upper_bound v1 md ltac:(lia)) as M1. pose proof (Nat.mod_upper_bound v2 md ltac:(lia)) as M2.
  assert (EE : (md <= v1 mod md + v2 mod md /\ cval b carry = true) \/ (v1 mod md + v2 mod md < md /\ cval b carry = false)).
  { rewrite Hc. destruct (Nat.leb_spec md (v1 mod md + v2 mod md)); [left | right]; auto. }
  clear Hc.
  split; intros i j Hi Hj.
  - intros _ T1 T2. apply (canon_thr _ _ _ _ C1) in T1; [| assumption]. apply (canon_thr _ _ _ _ C2) in T2; [| assumption].
    destruct EE as [[He ->] | [He ->]]; [apply E1 in He | apply E2 in He]; destruct He as [He1 He2]; rewrite He1 in *.
    + split; intros _; rewrite C by lia; apply Nat.ltb_lt; lia.
    + split; [| discriminate]. intros H1. rewrite C by lia. apply Nat.ltb_lt. lia.
  - intros T1 T2. apply (canon_thr _ _ _ _ D1) in T1; [| assumption]. apply (canon_thr _ _ _ _ D2) in T2; [| assumption].
    destruct EE as [[He ->] | [He ->]].
    + pose proof (E1 He) as [He1 He2]. rewrite He2 in *. split; [auto |]. split; [auto |]. intros Hm. rewrite D by lia.
      apply Nat.ltb_lt. lia.
    + pose proof (E2 He) as [He1 He2]. rewrite He2 in *. split; [| split].
      * intros H1. left. rewrite D by lia. apply Nat.ltb_lt. lia.
      * lia.
      * lia.
Qed.

(* ------------------------------------------------------------------------------------------------------------------ *)
(** * The clauses of an adder *)

Lemma emits_bind_ret : forall A st (g : G A) x (k : A -> G unit) P,
  g st = gret x st -> emits st (k x) P -> emits st (gbind g k) P.
Proof.
  intros A st g x k P E (y & st' & cls & H & R). exists y, st', cls. split; [| exact R].
  unfold gbind. rewrite E. unfold gret. rewrite H. reflexivity.
Qed.

Lemma pick_spec : forall st us i, i <= length (wrap us) ->
  exists o, (if i =? 0 then gret None else glift (ix (wrap us) (i - 1))) st = gret o st
    /\ ((o = None /\ (i = 0 \/ us = [])) \/ (exists x, o = Some x /\ nth_error us (i - 1) = Some x /\ 1 <= i <= length us /\ us <> [])).
Proof.
  intros st us i Hi. destruct (Nat.eqb_spec i 0) as [E0 | H0].
  - exists None. split; [reflexivity | left]. auto.
  - destruct us as [| u us].
    + cbn [wrap length] in Hi. assert (i = 1) as -> by lia. exists None. split; [reflexivity | left]. auto.
    + rewrite wrap_some in * by discriminate. rewrite map_length in Hi.
      destruct (nth_error (u :: us) (i - 1)) as [x |] eqn:E; [| apply nth_error_None in E; lia].
      exists (Some x). split.
      * unfold ix, olit. rewrite (map_nth_error Some _ _ E). reflexivity.
      * right. exists x. repeat split; auto; [lia | discriminate].
Qed.

Definition pres (us : list lit) (i : nat) : Prop := 1 <= i /\ us <> [].
Definition fin_one (md cm : nat) (us1 us2 us : list lit) (c : lit) (i j : nat) (b : valuation) : Prop :=
  i + j <= cm ->
  (pres us1 i -> tr b us1 (i - 1) = true) -> (pres us2 j -> tr b us2 (j - 1) = true) ->
  (pres us1 i \/ pres us2 j -> 1 <= i + j -> i + j - 1 < length us -> tr b us (i + j - 1) = true)
  /\ (pres us1 i \/ pres us2 j \/ i + j < length us -> lit_sem b c = true -> tr b us (i + j) = true).

Lemma pres_dec : forall b us i, (pres us i -> tr b us (i - 1) = true) \/ ~ (pres us i -> tr b us (i - 1) = true).
Proof.
  intros b us i. destruct (tr b us (i - 1)) eqn:E; [left; auto |].
  destruct i as [| i]; [left; intros [H _]; lia |]. destruct us as [| u us]; [left; intros [_ H]; now elim H |].
  right. intros H. assert (false = true); [| discriminate]. apply H. split; [lia | discriminate].
Qed.

Lemma pick_neg : forall us i o,
  (o = None /\ (i = 0 \/ us = [])) \/ (exists x, o = Some x /\ nth_error us (i - 1) = Some x /\ 1 <= i <= length us /\ us <> []) ->
  let na := match o with Some x => [lit_negate x] | None => [] end in
  (forall st, olds st us -> olds st na) /\ (na = [] -> ~ pres us i) /\ (na <> [] -> pres us i)
  /\ (forall b, csat b na <-> ~ (pres us i -> tr b us (i - 1) = true)).
Proof.
  intros us i o [[-> H] | (x & -> & Hx & Hi & Hne)]; cbn beta zeta iota.
  - assert (Hp : ~ pres us i) by (intros [H1 H2]; destruct H; [lia | contradiction]).
    split; [intros; apply olds_nil |]. split; [auto |]. split; [intros H'; now elim H' |].
    intros b. split; [intros Hc; now apply csat_nil in Hc |]. intros Hc. elim Hc. intros H'; contradiction.
  - assert (Hp : pres us i) by (split; [lia | assumption]).
    split; [intros st Ho y [<- | []]; rewrite lit_negate_var; apply Ho; eapply nth_error_In; eauto |].
    split; [discriminate |]. split; [auto |].
    intros b. rewrite csat_cons. unfold tr. rewrite Hx, sem_neg_true. split.
    + intros [H | H]; [intros Hc; rewrite (Hc Hp) in H; discriminate | now apply csat_nil in H].
    + intros H. left. destruct (lit_sem b x); [elim H; auto | reflexivity].
Qed.

Lemma emits_final_one : forall st md cm us1 us2 us c i j,
  olds st us1 -> olds st us2 -> olds st us -> old st (lit_var c) -> 1 <= md ->
  i <= length (wrap us1) -> j <= length (wrap us2) ->
  emits st (if cm * md <? md * (i + j) then gret tt
      else
        a <~ (if i =? 0 then gret None else glift (ix (wrap us1) (i - 1))) ;;
        b <~ (if j =? 0 then gret None else glift (ix (wrap us2) (j - 1))) ;;
        let c' := if negb (i + j =? 0) && (i + j - 1 <? length (map Some us)) then
                   match nth_error (map Some us) (i + j - 1) with Some o => o | None => None end else None in
        let d := if i + j <? length (map Some us) then
                   match nth_error (map Some us) (i + j) with Some o => o | None => None end else None in
        let na := match a with Some x => [lit_negate x] | None => [] end in
        let nb := match b with Some x => [lit_negate x] | None => [] end in
        match c', na ++ nb with
        | Some y, _ :: _ => add (na ++ nb ++ [y])
        | _, _ => gret tt
        end ;;
        match d with
        | Some y => add (lit_negate c :: na ++ nb ++ [y])
        | None => match na ++ nb with [] => gret tt | _ :: _ => add (lit_negate c :: na ++ nb) end
        end) (fin_one md cm us1 us2 us c i j).
Proof.
  intros st md cm us1 us2 us c i j O1 O2 O Oc Hmd Hi Hj.
  destruct (Nat.ltb_spec (cm * md) (md * (i + j))) as [Hcm | Hcm].
  { eapply emits_iff; [apply emits_ret |]. intros b. split; [| auto]. intros _ H. exfalso. nia. }
  assert (Hcm' : i + j <= cm) by nia.
  destruct (pick_spec st us1 i Hi) as (oa & Ea & Sa). destruct (pick_spec st us2 j Hj) as (ob & Eb & Sb).
  apply (emits_bind_ret _ st _ oa); [exact Ea |]. apply (emits_bind_ret _ st _ ob); [exact Eb |].
  destruct (pick_neg _ _ _ Sa) as (OA & NA & PA & CA). destruct (pick_neg _ _ _ Sb) as (OB & NB & PB & CB).
  clear Ea Eb Sa Sb. cbn zeta. set (na := match oa with Some x => [lit_negate x] | None => [] end) in *.
  set (nb := match ob with Some x => [lit_negate x] | None => [] end) in *. clearbody na nb.
  specialize (OA st O1). specialize (OB st O2).
  assert (Hpr : (na ++ nb = [] /\ ~ pres us1 i /\ ~ pres us2 j) \/ (na ++ nb <> [] /\ (pres us1 i \/ pres us2 j))).
  { destruct na as [| x na]; [destruct nb as [| y nb] |]; cbn [app].
    - left. auto.
    - right. split; [discriminate | right]. apply PB. discriminate.
    - right. split; [discriminate | left]. apply PA. discriminate. }
  eapply emits_iff.
  - apply emits_seq with
      (P := fun b => (pres us1 i -> tr b us1 (i - 1) = true) -> (pres us2 j -> tr b us2 (j - 1) = true) ->
              pres us1 i \/ pres us2 j -> 1 <= i + j -> i + j - 1 < length us -> tr b us (i + j - 1) = true)
      (Q := fun b => (pres us1 i -> tr b us1 (i - 1) = true) -> (pres us2 j -> tr b us2 (j - 1) = true) ->
              pres us1 i \/ pres us2 j \/ i + j < length us -> lit_sem b c = true -> tr b us (i + j) = true).
    + rewrite map_length. destruct (Nat.eqb_spec (i + j) 0) as [E0 | E0]; cbn [negb andb].
      { eapply emits_iff; [apply emits_ret |]. intros b. split; [intros; lia | auto]. }
      destruct (Nat.ltb_spec (i + j - 1) (length us)) as [Hl | Hl].
      2: { eapply emits_iff; [apply emits_ret |]. intros b. split; [intros; lia | auto]. }
      destruct (nth_error us (i + j - 1)) as [y |] eqn:Ey; [| apply nth_error_None in Ey; lia].
      rewrite (map_nth_error Some _ _ Ey).
      destruct Hpr as [(Hn & H1 & H2) | (Hn & Hp)].
      * rewrite Hn. eapply emits_iff; [apply emits_ret |]. intros b. split; [intros _ _ _ [H | H]; contradiction | auto].
      * destruct (na ++ nb) as [| z zs] eqn:Ez; [contradiction |]. rewrite app_assoc, Ez, <- Ez. eapply emits_iff.
        { apply emits_add. rewrite !olds_app. split; [split; assumption |]. apply olds_cons. split; [| apply olds_nil].
          apply O. eapply nth_error_In; eauto. }
        intros b. rewrite !csat_app, CA, CB, csat_cons. assert (Ety : tr b us (i + j - 1) = lit_sem b y) by (unfold tr; now rewrite Ey). rewrite Ety. clear Ety. split.
        -- intros [[H | H] | [H | H]] T1 T2 _ _ _; [now elim H | now elim H | assumption | now apply csat_nil in H].
        -- intros H. destruct (lit_sem b y) eqn:E; [tauto |].
           destruct (pres_dec b us1 i) as [D1 | D1]; [| tauto]. destruct (pres_dec b us2 j) as [D2 | D2]; [| tauto].
           exfalso. assert (false = true) by (apply H; first [assumption | lia | tauto]). discriminate.
    + rewrite map_length. destruct (Nat.ltb_spec (i + j) (length us)) as [Hl | Hl].
      * destruct (nth_error us (i + j)) as [y |] eqn:Ey; [| apply nth_error_None in Ey; lia].
        rewrite (map_nth_error Some _ _ Ey). eapply emits_iff.
        { apply emits_add. apply olds_cons. rewrite lit_negate_var. split; [assumption |]. rewrite !olds_app.
          split; [assumption |]. split; [assumption |]. apply olds_cons. split; [| apply olds_nil].
          apply O. eapply nth_error_In; eauto. }
        intros b. rewrite csat_cons, !csat_app, CA, CB, csat_cons, sem_neg_true. 
        assert (Ety : tr b us (i + j) = lit_sem b y) by (unfold tr; now rewrite Ey). rewrite Ety. clear Ety. split.
        -- intros [H | [H | [H | [H | H]]]] T1 T2 _ Hc; [congruence | now elim H | now elim H | assumption | now apply csat_nil in H].
        -- intros H. destruct (lit_sem b c) eqn:Ec; [| now left]. right.
           destruct (lit_sem b y) eqn:E; [tauto |].
           destruct (pres_dec b us1 i) as [D1 | D1]; [| tauto]. destruct (pres_dec b us2 j) as [D2 | D2]; [| tauto].
           exfalso. assert (false = true) by (apply H; first [assumption | lia | tauto]). discriminate.
      * assert (Ef : forall b, tr b us (i + j) = false).
        { intros b. destruct (tr b us (i + j)) eqn:E; [| reflexivity]. apply tr_lt in E. lia. }
        destruct Hpr as [(Hn & H1 & H2) | (Hn & Hp)].
        -- rewrite Hn. eapply emits_iff; [apply emits_ret |]. intros b. split; [intros _ _ _ [H | [H | H]]; [contradiction | contradiction | lia] | auto].
        -- destruct (na ++ nb) as [| z zs] eqn:Ez; [contradiction |]. rewrite <- Ez. eapply emits_iff.
           { apply emits_add. apply olds_cons. rewrite lit_negate_var. split; [assumption |]. rewrite olds_app. split; assumption. }
           intros b. rewrite csat_cons, csat_app, CA, CB, sem_neg_true, Ef. split.
           ++ intros [H | [H | H]] T1 T2 _ Hc; [congruence | now elim H | now elim H].
           ++ intros H. destruct (lit_sem b c) eqn:Ec; [| now left]. right.
           destruct (pres_dec b us1 i) as [D1 | D1]; [| tauto]. destruct (pres_dec b us2 j) as [D2 | D2]; [| tauto].
           exfalso. assert (false = true) by (apply H; first [assumption | lia | tauto]). discriminate.
  - intros b. unfold fin_one. split.
    + intros [H1 H2] _ T1 T2. split; [apply H1; assumption | apply H2; assumption].
    + intros H. split; intros T1 T2; apply H; auto.
Qed.

Lemma emits_final_adder : forall st md us1 us2 us c ccr,
  olds st us1 -> olds st us2 -> olds st us -> old st (lit_var c) -> 1 <= md ->
  length us1 + length us2 <= length us -> 1 <= length us -> (us1 = [] \/ us2 = [] -> length us = 1) ->
  emits st (final_adder md (map Some us) (wrap us1) (wrap us2) c ccr)
    (fin_cond (ccr / md + (if ccr mod md =? 0 then 0 else 1)) us1 us2 us (Some c)).
Proof.
  intros st md us1 us2 us c ccr O1 O2 O Oc Hmd Hle Hpos Hnil. unfold final_adder.
  set (cm := ccr / md + (if ccr mod md =? 0 then 0 else 1)). cbv zeta.
  eapply emits_iff.
  - apply emits_for with (P := fun i b => forall j, In j (seq 0 (S (length (wrap us2)))) -> fin_one md cm us1 us2 us c i j b).
    intros i Hi. apply in_seq in Hi. apply emits_for with (P := fun j b => fin_one md cm us1 us2 us c i j b).
    intros j Hj. apply in_seq in Hj. apply emits_final_one; auto; lia.
  - intros b.
    assert (L1 : length us1 <= length (wrap us1) /\ (us1 = [] -> length (wrap us1) = 1) /\ (us1 <> [] -> length (wrap us1) = length us1)).
    { destruct us1; cbn; [intuition (try lia; congruence) |]. rewrite map_length. intuition (try lia; congruence). }
    assert (L2 : length us2 <= length (wrap us2) /\ (us2 = [] -> length (wrap us2) = 1) /\ (us2 <> [] -> length (wrap us2) = length us2)).
    { destruct us2; cbn; [intuition (try lia; congruence) |]. rewrite map_length. intuition (try lia; congruence). }
    assert (Hth : forall ys i, thr b ys i -> pres ys i -> tr b ys (i - 1) = true).
    { intros ys i [H | H] [Hp _]; [lia | assumption]. }
    assert (Hpr : forall (ys : list lit) i, 1 <= i <= length ys -> pres ys i).
    { intros ys i H. split; [lia |]. intros ->. cbn in H. lia. }
    assert (Hnp : forall (ys : list lit) i, ys = [] -> ~ pres ys i) by (intros ys i E [_ H]; contradiction).
    split.
    + intros H i j Hi Hj Hij T1 T2.
      destruct (H i ltac:(apply in_seq; lia) j ltac:(apply in_seq; lia) Hij (Hth _ _ T1) (Hth _ _ T2)) as [HA HB]. split.
      * intros Hs. apply HA; [| lia | lia]. destruct (Nat.eq_dec i 0); [right | left]; apply Hpr; lia.
      * cbn [cval]. apply HB. destruct (Nat.eq_dec i 0); [| left; apply Hpr; lia]. right.
        destruct (Nat.eq_dec j 0); [| left; apply Hpr; lia]. right. lia.
    + intros H i Hi j Hj Hij T1 T2. apply in_seq in Hi, Hj.
      assert (Hmk : forall ys i, i <= length ys -> (pres ys i -> tr b ys (i - 1) = true) -> thr b ys i).
      { intros ys k Hk Ht. destruct (Nat.eq_dec k 0); [now left | right]. apply Ht. apply Hpr. lia. }
      destruct (le_lt_dec i (length us1)) as [H1 | H1]; destruct (le_lt_dec j (length us2)) as [H2 | H2].
      * destruct (H i j H1 H2 Hij (Hmk _ _ H1 T1) (Hmk _ _ H2 T2)) as [HA HB]. split; [intros _ Hs _; auto | intros _; exact HB].
      * assert (En : us2 = []). { destruct us2; [reflexivity |]. destruct L2 as (_ & _ & L2). rewrite L2 in Hj by discriminate. lia. }
        assert (j = 1). { destruct L2 as (_ & L2 & _). rewrite (L2 En) in Hj. rewrite En in H2. cbn in H2. lia. }
        pose proof (Hnil (or_intror En)) as E1. split.
        -- intros [Hp | Hp]; [| now apply Hnp in Hp]. destruct Hp. lia.
        -- intros Hp Hc. exfalso. destruct Hp as [Hp | [Hp | Hp]]; [| now apply (Hnp us2 j En) in Hp | lia].
           destruct (H i 0 H1 ltac:(lia) ltac:(lia) (Hmk _ _ H1 T1) (or_introl eq_refl)) as [_ HB].
           specialize (HB Hc). apply tr_lt in HB. destruct Hp. lia.
      * assert (En : us1 = []). { destruct us1; [reflexivity |]. destruct L1 as (_ & _ & L1). rewrite L1 in Hi by discriminate. lia. }
        assert (i = 1). { destruct L1 as (_ & L1 & _). rewrite (L1 En) in Hi. rewrite En in H1. cbn in H1. lia. }
        pose proof (Hnil (or_introl En)) as E1. split.
        -- intros [Hp | Hp]; [now apply Hnp in Hp |]. destruct Hp. lia.
        -- intros Hp Hc. exfalso. destruct Hp as [Hp | [Hp | Hp]]; [now apply (Hnp us1 i En) in Hp | | lia].
           destruct (H 0 j ltac:(lia) H2 ltac:(lia) (or_introl eq_refl) (Hmk _ _ H2 T2)) as [_ HB].
           specialize (HB Hc). apply tr_lt in HB. destruct Hp. lia.
      * assert (En1 : us1 = []). { destruct us1; [reflexivity |]. destruct L1 as (_ & _ & L1). rewrite L1 in Hi by discriminate. lia. }
        assert (En2 : us2 = []). { destruct us2; [reflexivity |]. destruct L2 as (_ & _ & L2). rewrite L2 in Hj by discriminate. lia. }
        pose proof (Hnil (or_introl En1)) as E1. split.
        -- intros [Hp | Hp]; [now apply (Hnp us1 i En1) in Hp | now apply (Hnp us2 j En2) in Hp].
        -- intros [Hp | [Hp | Hp]]; [now apply (Hnp us1 i En1) in Hp | now apply (Hnp us2 j En2) in Hp | lia].
Qed.

(** The lower part of an adder. *)
Definition low_part (md : nat) (lower llower rlower : list lit) (carry : option lit) (ccr : nat) : G unit :=
  let oc := match carry with Some c => [Ok c] | None => [] end in
  gfor (seq 0 (S (length llower))) (fun i =>
    gfor (seq 0 (S (length rlower))) (fun j =>
      if (ccr + 1 <? i + j) && (ccr + 1 <? md) then gret tt
      else if i + j <? md then
        (if (i =? 0) && negb (j =? 0) then add_r (rneg (ix rlower (j - 1)) :: ix lower (i + j - 1) :: oc)
         else if (j =? 0) && negb (i =? 0) then add_r (rneg (ix llower (i - 1)) :: ix lower (i + j - 1) :: oc)
         else if negb (i =? 0) then
           add_r (rneg (ix llower (i - 1)) :: rneg (ix rlower (j - 1)) :: ix lower (i + j - 1) :: oc)
         else gret tt)
      else if md <? i + j then
        add_r [rneg (ix llower (i - 1)); rneg (ix rlower (j - 1)); ix lower ((i + j) mod md - 1)]
      else
        add_r [rneg (ix llower (i - 1)); rneg (ix rlower (j - 1)); of_opt carry])).

Lemma thr_imp : forall b ys i (P : Prop), (thr b ys i -> P) <-> (i = 0 -> P) /\ (tr b ys (i - 1) = true -> P).
Proof. intros. unfold thr. tauto. Qed.

Lemma emits_low : forall st md ls l1 l2 carry ccr,
  olds st ls -> olds st l1 -> olds st l2 -> (forall c, carry = Some c -> old st (lit_var c)) -> 2 <= md -> md <= ccr + 1 ->
  length l1 <= md - 1 -> length l2 <= md - 1 -> min (length l1 + length l2) (md - 1) <= length ls ->
  (carry = None -> length l1 + length l2 < md) ->
  emits st (low_part md ls l1 l2 carry ccr) (low_cond md l1 l2 ls carry).
Proof.
  intros st md ls l1 l2 carry ccr Os O1 O2 Oc Hmd Hccr L1 L2 Ls Hcar. unfold low_part.
  set (P := fun i j (b : valuation) => thr b l1 i -> thr b l2 j ->
    (1 <= i + j < md -> tr b ls (i + j - 1) = true \/ cval b carry = true)
    /\ (i + j = md -> cval b carry = true) /\ (md < i + j -> tr b ls (i + j - md - 1) = true)).
  eapply emits_iff.
  - apply emits_for with (P := fun i b => forall j, In j (seq 0 (S (length l2))) -> P i j b). intros i Hi. apply in_seq in Hi.
    apply emits_for with (P := fun j b => P i j b). intros j Hj. apply in_seq in Hj.
    destruct (Nat.ltb_spec (ccr + 1) md) as [Hx | _]; [lia |]. rewrite andb_false_r.
    assert (Hpc : exists pc, Forall2 (elem st) (match carry with Some c => [Ok c] | None => [] end) pc
                             /\ forall b, anyb pc b = cval b carry).
    { destruct carry as [c |].
      - exists [fun b => lit_sem b c]. split; [constructor; [apply elem_ok; auto | constructor] |].
        intros b. cbn [anyb cval]. apply orb_false_r.
      - exists []. split; [constructor | reflexivity]. }
    destruct Hpc as (pc & Hoc & Hany).
    destruct (Nat.ltb_spec (i + j) md) as [Hlt | Hge].
    + destruct (Nat.eqb_spec i 0) as [E1 | E1]; destruct (Nat.eqb_spec j 0) as [E2 | E2]; cbn [andb negb].
      * eapply emits_iff; [apply emits_ret |]. intros b. unfold P. split; [| auto]. intros _ _ _. split; [lia |]. split; lia.
      * eapply emits_iff.
        { apply emits_elems with (ps := (fun b => negb (tr b l2 (j - 1))) :: (fun b => tr b ls (i + j - 1)) :: pc).
          constructor; [apply elem_neg, elem_ix; [assumption | lia] |].
          constructor; [apply elem_ix; [assumption | lia] | exact Hoc]. }
        intros b. cbn [anyb]. rewrite Hany. unfold P. split.
        -- intros H _ [T | T]; [lia |]. rewrite T in H. cbn in H. apply orb_prop in H. split; [auto |]. split; lia.
        -- intros H. destruct (tr b l2 (j - 1)) eqn:E; [| reflexivity]. cbn. apply orb_true_iff. apply H; [left; lia | now right | lia].
      * eapply emits_iff.
        { apply emits_elems with (ps := (fun b => negb (tr b l1 (i - 1))) :: (fun b => tr b ls (i + j - 1)) :: pc).
          constructor; [apply elem_neg, elem_ix; [assumption | lia] |].
          constructor; [apply elem_ix; [assumption | lia] | exact Hoc]. }
        intros b. cbn [anyb]. rewrite Hany. unfold P. split.
        -- intros H [T | T] _; [lia |]. rewrite T in H. cbn in H. apply orb_prop in H. split; [auto |]. split; lia.
        -- intros H. destruct (tr b l1 (i - 1)) eqn:E; [| reflexivity]. cbn. apply orb_true_iff. apply H; [now right | left; lia | lia].
      * eapply emits_iff.
        { apply emits_elems with (ps := (fun b => negb (tr b l1 (i - 1))) :: (fun b => negb (tr b l2 (j - 1)))
              :: (fun b => tr b ls (i + j - 1)) :: pc).
          constructor; [apply elem_neg, elem_ix; [assumption | lia] |].
          constructor; [apply elem_neg, elem_ix; [assumption | lia] |].
          constructor; [apply elem_ix; [assumption | lia] | exact Hoc]. }
        intros b. cbn [anyb]. rewrite Hany. unfold P. split.
        -- intros H [T | T] [T' | T']; try lia. rewrite T, T' in H. cbn in H. apply orb_prop in H. split; [auto |]. split; lia.
        -- intros H. destruct (tr b l1 (i - 1)) eqn:E; [| reflexivity]. destruct (tr b l2 (j - 1)) eqn:E'; [| reflexivity].
           cbn. apply orb_true_iff. apply H; [now right | now right | lia].
    + destruct (Nat.ltb_spec md (i + j)) as [Hgt | Heq].
      * assert (Em : (i + j) mod md = i + j - md).
        { symmetry. apply (Nat.mod_unique _ _ 1); lia. }
        rewrite Em. eapply emits_iff.
        { apply emits_elems with (ps := [fun b => negb (tr b l1 (i - 1)); fun b => negb (tr b l2 (j - 1)); fun b => tr b ls (i + j - md - 1)]).
          elems. }
        intros b. cbn [anyb]. rewrite orb_false_r. unfold P. split.
        -- intros H [T | T] [T' | T']; try lia. rewrite T, T' in H. cbn in H. split; [lia |]. split; [lia | auto].
        -- intros H. destruct (tr b l1 (i - 1)) eqn:E; [| reflexivity]. destruct (tr b l2 (j - 1)) eqn:E'; [| reflexivity].
           cbn. apply H; [now right | now right | lia].
      * destruct carry as [c |]; [| specialize (Hcar eq_refl); lia]. cbn [of_opt]. eapply emits_iff.
        { apply emits_elems with (ps := [fun b => negb (tr b l1 (i - 1)); fun b => negb (tr b l2 (j - 1)); fun b => lit_sem b c]).
          constructor; [apply elem_neg, elem_ix; [assumption | lia] |].
          constructor; [apply elem_neg, elem_ix; [assumption | lia] |].
          constructor; [apply elem_ok; auto | constructor]. }
        intros b. cbn [anyb]. rewrite orb_false_r. unfold P. cbn [cval]. split.
        -- intros H [T | T] [T' | T']; try lia. rewrite T, T' in H. cbn in H. split; [lia |]. split; [auto | lia].
        -- intros H. destruct (tr b l1 (i - 1)) eqn:E; [| reflexivity]. destruct (tr b l2 (j - 1)) eqn:E'; [| reflexivity].
           cbn. apply H; [now right | now right | lia].
  - intros b. unfold low_cond, P. split.
    + intros H i j Hi Hj. apply (H i); apply in_seq; lia.
    + intros H i Hi j Hj. apply in_seq in Hi, Hj. apply H; lia.
Qed.

(* ------------------------------------------------------------------------------------------------------------------ *)
(** * The tree *)

Definition shape (md s : nat) (us ls : list lit) : Prop := length us = s / md /\ length ls = min s (md - 1).
Definition close_mod (ccr md : nat) : nat := ccr / md + (if ccr mod md =? 0 then 0 else 1).

Lemma div_small_sum : forall md s1 s2, 2 <= md -> s1 <= s2 + 1 -> s2 <= s1 + 1 ->
  s1 / md + s2 / md <= (s1 + s2) / md
  /\ (s1 / md = 0 \/ s2 / md = 0 -> (s1 + s2) / md <= 1)
  /\ ((s1 + s2) / md = 0 <-> s1 + s2 < md).
Proof.
  intros md s1 s2 Hmd H1 H2. split; [| split].
  - destruct (div_add md s1 s2 ltac:(lia)) as [E1 E2].
    destruct (le_lt_dec md (s1 mod md + s2 mod md)) as [H | H]; [apply E1 in H | apply E2 in H]; lia.
  - intros H. assert (s1 + s2 < 2 * md).
    { destruct H as [H | H]; apply Nat.div_small_iff in H; lia. }
    assert ((s1 + s2) / md < 2); [| lia]. apply Nat.div_lt_upper_bound; lia.
  - apply Nat.div_small_iff. lia.
Qed.

Lemma canon_nil : forall b n, canon b [] n.
Proof. intros b n i Hi. cbn in Hi. lia. Qed.

Lemma mod_adder_ok : forall st md s1 s2 us1 us2 us l1 l2 ls ccr,
  olds st us1 -> olds st us2 -> olds st us -> olds st l1 -> olds st l2 -> olds st ls ->
  2 <= md -> md <= ccr + 1 -> s1 <= s2 + 1 -> s2 <= s1 + 1 ->
  shape md s1 us1 l1 -> shape md s2 us2 l2 -> shape md (s1 + s2) us ls ->
  runs st (mod_adder md (wrap us) ls (wrap us1) l1 (wrap us2) l2 ccr) (fun _ st' cls =>
    (forall b, sat b cls -> exists carry, fin_cond (close_mod ccr md) us1 us2 us carry b /\ low_cond md l1 l2 ls carry b)
    /\ (forall a v1 v2, v1 <= s1 -> v2 <= s2 ->
          canon a us1 (v1 / md) -> canon a us2 (v2 / md) -> canon a us ((v1 + v2) / md) ->
          canon a l1 (v1 mod md) -> canon a l2 (v2 mod md) -> canon a ls ((v1 + v2) mod md) ->
          exists b, agree st st' a b /\ sat b cls)).
Proof.
  intros st md s1 s2 us1 us2 us l1 l2 ls ccr Ou1 Ou2 Ou Ol1 Ol2 Ols Hmd Hccr Hb1 Hb2 [U1 L1] [U2 L2] [U L].
  destruct (div_small_sum md s1 s2 Hmd Hb1 Hb2) as (D1 & D2 & D3).
  assert (Hnil : us1 = [] \/ us2 = [] -> length us <= 1).
  { intros [-> | ->]; rewrite U; apply D2; rewrite <- ?U1, <- ?U2; auto. }
  assert (Hlen : forall v1 v2, v1 <= s1 -> v2 <= s2 -> (v1 + v2) / md <= length us /\ (v1 + v2) mod md <= length ls).
  { intros v1 v2 H1 H2. rewrite U, L. split; [apply Nat.div_le_mono; lia |].
    pose proof (Nat.mod_upper_bound (v1 + v2) md ltac:(lia)). pose proof (Nat.mod_le (v1 + v2) md ltac:(lia)). lia. }
  unfold mod_adder. fold (low_part md ls l1 l2).
  eapply runs_bind.
  { apply runs_lift with (a := match us with [] => None | u :: _ => Some u end)
      (post := fun o st' cls => o = match us with [] => None | u :: _ => Some u end /\ st' = st /\ cls = []); [| auto].
    destruct us; reflexivity. }
  intros u0 st0 c0 _ _ (-> & -> & ->). cbn [app].
  eapply runs_bind.
  { apply runs_assert with (post := fun _ st' cls => st' = st /\ cls = []); [| auto].
    apply andb_true_iff. split; apply Nat.leb_le; lia. }
  intros x st0 c0 _ _ (-> & ->). cbn [app].
  destruct us as [| u us].
  - (* no carry *)
    eapply runs_bind; [apply runs_ret with (post := fun o st' cls => o = None /\ st' = st /\ cls = []); auto |].
    intros o st0 c0 _ _ (-> & -> & ->). cbn [app].
    assert (Hs : s1 + s2 < md) by (apply D3; rewrite <- U; reflexivity).
    assert (us1 = [] /\ us2 = []) as [-> ->].
    { cbn in U. destruct us1; cbn in U1; [| lia]. destruct us2; cbn in U2; [auto | lia]. }
    eapply runs_emits.
    { apply (emits_low st md ls l1 l2 None ccr); auto; try lia. discriminate. }
    intros c1 B1 M1. apply runs_ret. rewrite app_nil_r. split.
    + intros b Hb. exists None. split; [| now apply M1].
      intros i j Hi Hj. cbn in Hi, Hj. intros _ _ _. split; [lia | discriminate].
    + intros a v1 v2 H1 H2 C1 C2 C K1 K2 K. exists a. split; [apply agree_refl |]. apply M1.
      destruct (Hlen v1 v2 H1 H2) as [X1 X2].
      apply (adder_complete md 0 v1 v2 [] [] [] l1 l2 ls None a); auto.
      cbn [cval]. symmetry. apply Nat.leb_gt. rewrite !Nat.mod_small by lia. lia.
  - assert (HN : runs st (c <~ new_aux AuxCC ;; gret (Some c)) (fun o st' cls => exists c, o = Some c /\ cls = [] /\ cle st st'
        /\ old st' (lit_var c) /\ forall a x, exists b, agree st st' a b /\ lit_sem b c = x)).
    { eapply runs_bind with (P := fun c st' cls => cls = [] /\ cle st st' /\ old st' (lit_var c)
          /\ forall a x, exists b, agree st st' a b /\ lit_sem b c = x).
      - apply runs_new. intros c st' H1 H2 H3 H4 H5. auto.
      - intros c st1 cls X1 X2 (-> & X3 & X4 & X5). apply runs_ret. exists c. auto. }
    eapply runs_bind; [exact HN |]. clear HN.
    intros o st1 c0 _ _ (c & -> & -> & Hle & Hc & Hfree). cbn [app].
    rewrite (wrap_some (u :: us)) by discriminate.
    eapply runs_emits.
    { apply (emits_low st1 md ls l1 l2 (Some c) ccr); try lia; try solds; try discriminate. congruence. }
    intros c1 B1 M1. eapply runs_conseq.
    { apply emits_final_adder; try solds; try assumption; try lia.
      - cbn [length]. lia.
      - intros H. apply Hnil in H. cbn [length] in *. lia. }
    cbn beta. intros _ st' c2 _ _ [-> M2]. fold (close_mod ccr md) in M2. split.
    + intros b Hb. apply sat_app in Hb. destruct Hb as [H1 H2]. exists (Some c). split; [now apply M2 | now apply M1].
    + intros a v1 v2 H1 H2 C1 C2 C K1 K2 K.
      destruct (Hfree a (md <=? v1 mod md + v2 mod md)) as [b [A V]]. exists b. split; [assumption |].
      destruct (Hlen v1 v2 H1 H2) as [X1 X2].
      destruct (adder_complete md (close_mod ccr md) v1 v2 us1 us2 (u :: us) l1 l2 ls (Some c) b) as [F1 F2];
        try assumption; try (eapply agree_canon; eassumption).
      apply sat_app. split; [now apply M1 | now apply M2].
Qed.

Definition mchild_post (md size : nat) (stack : list lit) (st : ctrs) (r : list olit * list lit * list lit) (st' : ctrs)
  (cls : list clause) : Prop :=
  exists us ls, r = (wrap us, ls, if size =? 1 then skipn 1 stack else stack) /\ cls = [] /\ shape md size us ls
  /\ olds st' us /\ olds st' ls
  /\ (size = 1 -> us = [] /\ ls = firstn 1 stack)
  /\ (forall a m, (size = 1 -> m = cnt a (firstn 1 stack)) -> exists b, agree st st' a b /\ canon b us (m / md) /\ canon b ls (m mod md)).

Lemma mod_child_ok : forall md size stack st, 2 <= md -> 1 <= size <= length stack -> olds st stack ->
  runs st (mod_child md size stack) (mchild_post md size stack st).
Proof.
  intros md size stack st Hmd Hs Ho. unfold mod_child. destruct (Nat.eqb_spec size 1) as [-> | H1].
  - destruct stack as [| x stack]; [cbn in Hs; lia |].
    eapply runs_bind; [apply runs_ret with (post := fun p st' cls => p = (x, stack) /\ st' = st /\ cls = []); auto |].
    intros p st' cls _ _ (-> & -> & ->). apply runs_ret. cbn [app fst snd]. exists [], [x].
    split; [reflexivity |]. split; [reflexivity |]. split; [split; cbn [length]; [symmetry; apply Nat.div_small; lia | lia] |].
    split; [apply olds_nil |]. split; [intros y [<- | []]; apply Ho; now left |]. split; [intros _; split; reflexivity |].
    intros a m Hm. rewrite (Hm eq_refl). exists a. split; [apply agree_refl |]. split; [apply canon_nil |].
    intros i Hi. cbn in Hi. assert (i = 0) as -> by lia. cbn [firstn cnt]. unfold tr. cbn [nth_error].
    destruct (lit_sem a x); rewrite Nat.mod_small by lia; reflexivity.
  - eapply runs_bind.
    { apply runs_allocs with (post := fun ys st' cls => cls = [] /\ length ys = size / md /\ olds st' ys /\ free_choice st st' ys).
      intuition. }
    intros us st1 cls L1 _ (-> & Hlen1 & Hus & Hf1). cbn [app].
    set (limit := if ((size / md) mod md =? 0) && (size <? md - 1) then size else md - 1).
    assert (El : limit = min size (md - 1)).
    { unfold limit. destruct (Nat.ltb_spec size (md - 1)) as [H | H]; [| rewrite andb_false_r; lia].
      rewrite (Nat.div_small size md) by lia. rewrite Nat.mod_0_l by lia. cbn. lia. }
    eapply runs_bind.
    { apply runs_allocs with (post := fun ys st' cls => cls = [] /\ length ys = limit /\ olds st' ys /\ free_choice st1 st' ys).
      intuition. }
    intros ls st2 cls L2 _ (-> & Hlen2 & Hls & Hf2). apply runs_ret. cbn [app]. exists us, ls.
    destruct (Nat.eqb_spec size 1) as [E | _]; [contradiction |].
    split; [reflexivity |]. split; [reflexivity |]. split; [split; lia |]. split; [solds |]. split; [assumption |].
    split; [intros; contradiction |].
    intros a m _. destruct (Hf1 a (fun i => i <? m / md)) as [b1 [A1 V1]]. destruct (Hf2 b1 (fun i => i <? m mod md)) as [b2 [A2 V2]].
    exists b2. split; [eapply agree_trans; eauto |]. split; [| intros i Hi; auto].
    eapply agree_canon; [exact A2 | exact Hus |]. intros i Hi. auto.
Qed.

Definition mnode_post (md cm : nat) (ins us ls : list lit) (st st' : ctrs) (cls : list clause) : Prop :=
  (forall b, sat b cls -> node_sound md cm ins us ls b)
  /\ (forall a, canon a us (cnt a ins / md) -> canon a ls (cnt a ins mod md) -> exists b, agree st st' a b /\ sat b cls).

Lemma mnode_leaf : forall md cm x st, mnode_post md cm [x] [] [x] st st [].
Proof.
  intros md cm x st. split.
  - intros b _. exists 0, (cnt b [x]). split; [intros i Hi; lia |]. split; [| right; lia].
    intros i Hi. cbn [cnt] in Hi. unfold tr. destruct (lit_sem b x) eqn:E; [| lia]. assert (i = 0) as -> by lia. exact E.
  - intros a _ _. exists a. split; [apply agree_refl | apply sat_nil].
Qed.

Lemma node_sound_cnt : forall md cm i1 i2 us ls b, cnt b i1 = cnt b i2 -> node_sound md cm i1 us ls b -> node_sound md cm i2 us ls b.
Proof. intros md cm i1 i2 us ls b E H. unfold node_sound in *. rewrite <- E. exact H. Qed.

Lemma mod_cnf_ok : forall md ccr, 2 <= md -> md <= ccr + 1 -> forall fuel stack us ls n st,
  olds st stack -> olds st us -> olds st ls -> 2 <= n <= length stack -> n < fuel -> shape md n us ls ->
  runs st (mod_cnf fuel md (wrap us) ls n stack ccr) (fun rest st' cls =>
    rest = skipn n stack /\ mnode_post md (close_mod ccr md) (firstn n stack) us ls st st' cls).
Proof.
  intros md ccr Hmd Hccr. induction fuel as [| fuel IH]; intros stack us ls n st Hs Hous Hols Hn Hf Hsh; [lia |]. cbn [mod_cnf].
  set (sp := n / 2).
  assert (Hsp : 2 * sp <= n < 2 * sp + 2).
  { unfold sp. pose proof (Nat.div_mod_eq n 2). pose proof (Nat.mod_upper_bound n 2). lia. }
  set (il := firstn sp stack). set (ir := firstn (n - sp) (skipn sp stack)).
  assert (Hins : firstn n stack = il ++ ir).
  { unfold il, ir. replace n with (sp + (n - sp)) at 1 by lia. apply firstn_two. }
  assert (Lil : length il = sp) by (unfold il; rewrite firstn_length; lia).
  assert (Lir : length ir = n - sp) by (unfold ir; rewrite firstn_length, skipn_length; lia).
  assert (Oil : olds st il) by (now apply olds_firstn). assert (Oir : olds st ir) by (now apply olds_firstn, olds_skipn).
  eapply runs_bind; [apply runs_assert with (post := fun _ st' cls => st' = st /\ cls = []); [apply Nat.ltb_lt; lia | auto] |].
  intros x st0 c0 _ _ (-> & ->). cbn [app].
  eapply runs_bind; [apply mod_child_ok; [exact Hmd | lia | exact Hs] |].
  intros l st1 cls L1 _ (lu & ll & -> & -> & Sl & Olu & Oll & Fl & Cl). cbn [app fst snd].
  assert (Os1 : olds st1 (if sp =? 1 then skipn 1 stack else stack)).
  { eapply olds_mono; [exact L1 |]. destruct (sp =? 1); [now apply olds_skipn | assumption]. }
  eapply runs_bind.
  { apply mod_child_ok; [exact Hmd | | exact Os1]. destruct (Nat.eqb_spec sp 1) as [E |]; [rewrite skipn_length |]; lia. }
  intros r st2 cls L2 _ (ru & rl & -> & -> & Sr & Oru & Orl & Fr & Cr). cbn [app fst snd].
  set (stk2 := if n - sp =? 1 then skipn 1 (if sp =? 1 then skipn 1 stack else stack) else (if sp =? 1 then skipn 1 stack else stack)).
  assert (Olu2 : olds st2 lu) by solds. assert (Oll2 : olds st2 ll) by solds.
  assert (Ous2 : olds st2 us) by solds. assert (Ols2 : olds st2 ls) by solds.
  eapply runs_bind.
  { apply (mod_adder_ok st2 md (n - sp) sp ru lu us rl ll ls ccr); auto; try lia.
    replace (n - sp + sp) with n by lia. exact Hsh. }
  intros y st3 c1 L3 B3 [MS MC].
  (* left subtree *)
  eapply runs_bind.
  { assert (HL : runs st3 (if 1 <? sp then mod_cnf fuel md (wrap lu) ll sp stk2 ccr else gret stk2) (fun rest st' cls =>
        rest = (if n - sp =? 1 then skipn n stack else skipn sp stack) /\ mnode_post md (close_mod ccr md) il lu ll st3 st' cls)).
    { destruct (Nat.ltb_spec 1 sp) as [H1 | H1].
      - assert (E : stk2 = stack).
        { unfold stk2. destruct (Nat.eqb_spec (n - sp) 1); [lia |]. destruct (Nat.eqb_spec sp 1); [lia | reflexivity]. }
        rewrite E. eapply runs_conseq; [apply IH; [solds | solds | solds | lia | lia | exact Sl] |].
        cbn beta. intros rest st' cls _ _ [-> Hp]. fold il in Hp.
        destruct (Nat.eqb_spec (n - sp) 1); [lia |]. split; [reflexivity | assumption].
      - assert (E : sp = 1) by lia. apply runs_ret. split.
        + unfold stk2. rewrite E. cbn [Nat.eqb].
          destruct (Nat.eqb_spec (n - 1) 1) as [E' |]; [| reflexivity].
          rewrite skipn_two. f_equal. lia.
        + destruct (Fl E) as [-> ->]. unfold il. rewrite E. destruct stack as [| z stack']; [cbn in Hn; lia |]. cbn [firstn].
          apply mnode_leaf. }
    exact HL. }
  intros s1 st4 c3 L4 B4 [-> Hleft].
  assert (Oru4 : olds st4 ru) by solds. assert (Orl4 : olds st4 rl) by solds.
  (* right subtree *)
  assert (HR : runs st4 (if 1 <? n - sp then mod_cnf fuel md (wrap ru) rl (n - sp) (if n - sp =? 1 then skipn n stack else skipn sp stack) ccr
                         else gret (if n - sp =? 1 then skipn n stack else skipn sp stack)) (fun rest st' cls =>
      rest = skipn n stack /\ mnode_post md (close_mod ccr md) ir ru rl st4 st' cls)).
  { destruct (Nat.ltb_spec 1 (n - sp)) as [H1 | H1].
    - destruct (Nat.eqb_spec (n - sp) 1); [lia |].
      assert (Osk : olds st4 (skipn sp stack)) by (apply olds_skipn; solds).
      eapply runs_conseq; [apply IH; [exact Osk | exact Oru4 | exact Orl4 | rewrite skipn_length; lia | lia | exact Sr] |].
      cbn beta. intros rest st' cls _ _ [-> Hp]. fold ir in Hp. split; [| assumption].
      rewrite skipn_two. f_equal. lia.
    - assert (E : n - sp = 1) by lia. rewrite E. cbn [Nat.eqb]. apply runs_ret. split; [reflexivity |].
      assert (E1 : sp = 1) by lia. destruct (Fr E) as [-> ->]. unfold ir. rewrite E, E1. cbn [Nat.eqb].
      assert (1 <= length (skipn 1 stack)) by (rewrite skipn_length; lia).
      destruct (skipn 1 stack) as [| z s']; [cbn in *; lia |]. cbn [firstn]. apply mnode_leaf. }
  eapply runs_conseq; [exact HR |].
  cbn beta. intros rest st5 c4 L5 B5 [-> Hright]. split; [reflexivity |].
  rewrite Hins. destruct Hleft as (SL & CL). destruct Hright as (SR & CR). split.
  - intros b Hb. rewrite !sat_app in Hb. destruct Hb as (H1 & H3 & H4).
    destruct (MS b H1) as (carry & F1 & F2).
    apply node_sound_cnt with (i1 := ir ++ il); [rewrite !cnt_app; lia |].
    eapply adder_sound; [exact Hmd | apply SR; exact H4 | apply SL; exact H3 | exact F1 | exact F2].
  - intros a Ha Hb. rewrite cnt_app in Ha, Hb.
    destruct (Cl a (cnt a il)) as [b1 [A1 [V1 W1]]]; [intros E; unfold il; rewrite E; reflexivity |].
    destruct (Cr b1 (cnt a ir)) as [b2 [A2 [V2 W2]]].
    { intros E. rewrite <- (agree_cnt st st1 a b1 ir A1 Oir). f_equal. assert (E1 : sp = 1) by lia.
      unfold ir. rewrite E, E1. reflexivity. }
    assert (A02 : agree st st2 a b2) by (eapply agree_trans; [exact L1 | exact L2 | exact A1 | exact A2]).
    assert (V1' : canon b2 lu (cnt a il / md)) by (eapply agree_canon; [exact A2 | exact Olu | exact V1]).
    assert (W1' : canon b2 ll (cnt a il mod md)) by (eapply agree_canon; [exact A2 | exact Oll | exact W1]).
    assert (Vo : canon b2 us ((cnt a ir + cnt a il) / md)).
    { rewrite (Nat.add_comm (cnt a ir)). eapply agree_canon; [exact A02 | exact Hous | exact Ha]. }
    assert (Wo : canon b2 ls ((cnt a ir + cnt a il) mod md)).
    { rewrite (Nat.add_comm (cnt a ir)). eapply agree_canon; [exact A02 | exact Hols | exact Hb]. }
    pose proof (cnt_le a il). pose proof (cnt_le a ir).
    destruct (MC b2 (cnt a ir) (cnt a il)) as [b3 [A3 S3]]; try assumption; try lia.
    assert (A03 : agree st st3 a b3) by (eapply agree_trans; [| exact L3 | exact A02 | exact A3]; scle).
    destruct (CL b3) as [b4 [A4 S4]].
    { rewrite (agree_cnt st st3 a b3 il A03 Oil). eapply agree_canon; [exact A3 | exact Olu2 | exact V1']. }
    { rewrite (agree_cnt st st3 a b3 il A03 Oil). eapply agree_canon; [exact A3 | exact Oll2 | exact W1']. }
    assert (A04 : agree st st4 a b4) by (eapply agree_trans; [| exact L4 | exact A03 | exact A4]; scle).
    assert (A24 : agree st2 st4 b2 b4) by (eapply agree_trans; [exact L3 | exact L4 | exact A3 | exact A4]).
    destruct (CR b4) as [b5 [A5 S5]].
    { rewrite (agree_cnt st st4 a b4 ir A04 Oir). eapply agree_canon; [exact A24 | exact Oru | exact V2]. }
    { rewrite (agree_cnt st st4 a b4 ir A04 Oir). eapply agree_canon; [exact A24 | exact Orl | exact W2]. }
    exists b5. split; [eapply agree_trans; [| exact L5 | exact A04 | exact A5]; scle |].
    rewrite !sat_app. split; [| split].
    + eapply agree_sat; [| exact B3 | exact S3]. eapply agree_trans; [exact L4 | exact L5 | exact A4 | exact A5].
    + eapply agree_sat; [exact A5 | exact B4 | exact S4].
    + exact S5.
Qed.

(* ------------------------------------------------------------------------------------------------------------------ *)
(** * The output *)

Definition out_cond (r md : nat) (us ls : list lit) (b : valuation) : Prop :=
  let ul := (r + 1) / md in
  let ll := (r + 1) - ul * md in
  (forall k, ul <= k -> tr b us k = false)
  /\ (if ul =? 0 then forall k, ll - 1 <= k -> tr b ls k = false
      else if ll =? 0 then tr b us (ul - 1) = false
      else tr b us (ul - 1) = true -> forall k, ll - 1 <= k -> tr b ls k = false).

Lemma limits : forall r md, 2 <= md ->
  let ul := (r + 1) / md in let ll := (r + 1) - ul * md in r + 1 = md * ul + ll /\ ll < md.
Proof.
  intros r md Hmd ul ll. unfold ll, ul. pose proof (Nat.div_mod_eq (r + 1) md). pose proof (Nat.mod_upper_bound (r + 1) md ltac:(lia)).
  rewrite (Nat.mul_comm _ md). split; lia.
Qed.

Lemma out_sound : forall md cm r xs us ls b, 2 <= md -> r + 1 <= cm * md -> length ls <= md - 1 ->
  node_sound md cm xs us ls b -> out_cond r md us ls b -> cnt b xs <= r.
Proof.
  intros md cm r xs us ls b Hmd Hcm Hls (u & l & HU & HL & HV) Hout.
  destruct (limits r md Hmd) as [E1 E2]. unfold out_cond in Hout. cbv zeta in *.
  set (ul := (r + 1) / md) in *. set (ll := r + 1 - ul * md) in *. clearbody ul ll.
  destruct Hout as [Ha Hb]. pose proof (lead_len _ _ _ HL) as HLl.
  assert (Hu : u <= ul).
  { destruct (le_lt_dec u ul) as [| Hlt]; [assumption |]. specialize (HU ul Hlt). rewrite Ha in HU by lia. discriminate. }
  assert (Hu' : ul <> 0 -> tr b us (ul - 1) = false -> u <= ul - 1).
  { intros H0 H. destruct (le_lt_dec u (ul - 1)) as [| Hlt]; [assumption |]. specialize (HU (ul - 1) Hlt). congruence. }
  assert (Hl' : ll <> 0 -> (forall k, ll - 1 <= k -> tr b ls k = false) -> l <= ll - 1).
  { intros H0 H. destruct (le_lt_dec l (ll - 1)) as [| Hlt]; [assumption |]. specialize (HL (ll - 1) Hlt). rewrite H in HL by lia. discriminate. }
  destruct (Nat.eqb_spec ul 0) as [E0 | E0].
  - assert (ll <> 0) by lia. specialize (Hl' H Hb). destruct HV as [HV | HV]; nia.
  - destruct (Nat.eqb_spec ll 0) as [E3 | E3].
    + specialize (Hu' E0 Hb). destruct HV as [HV | HV]; nia.
    + destruct (tr b us (ul - 1)) eqn:Et.
      * specialize (Hl' E3 (Hb eq_refl)). destruct HV as [HV | HV]; nia.
      * specialize (Hu' E0 eq_refl). destruct HV as [HV | HV]; nia.
Qed.

Lemma canon_beyond : forall b ys n k, canon b ys n -> n <= k -> tr b ys k = false.
Proof.
  intros b ys n k Hc Hk. destruct (lt_dec k (length ys)) as [Hl | Hl].
  - rewrite Hc by assumption. apply Nat.ltb_ge. lia.
  - destruct (tr b ys k) eqn:E; [| reflexivity]. apply tr_lt in E. contradiction.
Qed.
Lemma canon_true : forall b ys n k, canon b ys n -> tr b ys k = true -> k < n.
Proof. intros b ys n k Hc Hk. pose proof (tr_lt _ _ _ Hk) as H. rewrite Hc in Hk by assumption. now apply Nat.ltb_lt. Qed.

Lemma out_complete : forall md r v us ls b, 2 <= md -> canon b us (v / md) -> canon b ls (v mod md) -> v <= r -> out_cond r md us ls b.
Proof.
  intros md r v us ls b Hmd CU CL Hv. destruct (limits r md Hmd) as [E1 E2]. unfold out_cond. cbv zeta in *.
  set (ul := (r + 1) / md) in *. set (ll := r + 1 - ul * md) in *. clearbody ul ll.
  pose proof (Nat.div_mod_eq v md) as Dv. pose proof (Nat.mod_upper_bound v md ltac:(lia)) as Mv.
  generalize dependent (v / md). generalize dependent (v mod md). intros vr CL Mv vq CU Dv.
  split; [intros k Hk; eapply canon_beyond; [exact CU | nia] |].
  destruct (Nat.eqb_spec ul 0) as [E0 | E0].
  - intros k Hk. eapply canon_beyond; [exact CL | nia].
  - destruct (Nat.eqb_spec ll 0) as [E3 | E3].
    + eapply canon_beyond; [exact CU | nia].
    + intros Ht k Hk. apply (canon_true _ _ _ _ CU) in Ht. eapply canon_beyond; [exact CL | nia].
Qed.

Lemma skipn_map : forall A B (f : A -> B) n l, skipn n (map f l) = map f (skipn n l).
Proof. intros A B f. induction n as [| n IH]; intros [| x l]; cbn; auto. Qed.

Lemma gfor_map : forall A B (f : A -> B) (body : B -> G unit) l, gfor (map f l) body = gfor l (fun x => body (f x)).
Proof. intros A B f body. induction l as [| x l IH]; cbn [map gfor]; [reflexivity | now rewrite IH]. Qed.

Lemma emits_guard : forall st t ys, old st (lit_var t) -> olds st ys ->
  emits st (gfor ys (fun y => add [lit_negate t; lit_negate y])) (fun b => lit_sem b t = true -> forall y, In y ys -> lit_sem b y = false).
Proof.
  intros st t ys Ht Ho. eapply emits_iff.
  - apply emits_for with (P := fun y b => csat b [lit_negate t; lit_negate y]). intros y Hy. apply emits_add.
    rewrite !olds_cons, !lit_negate_var. split; [assumption |]. split; [auto | apply olds_nil].
  - intros b. split.
    + intros H Hb y Hy. specialize (H y Hy). rewrite !csat_cons, !sem_neg_true in H.
      destruct H as [H | [H | H]]; [congruence | assumption | now apply csat_nil in H].
    + intros H y Hy. rewrite !csat_cons, !sem_neg_true. destruct (lit_sem b t); [right; left; auto | now left].
Qed.

Lemma emits_out : forall st r md us ls, 2 <= md -> olds st us -> olds st ls -> us <> [] ->
  (r + 1) / md <= length us -> length ls = md - 1 ->
  emits st (mod_output r md (wrap us) ls) (out_cond r md us ls).
Proof.
  intros st r md us ls Hmd Ou Ol Hne Hul Hls. unfold mod_output, out_cond. cbv zeta.
  destruct (limits r md Hmd) as [E1 E2]. cbv zeta in *.
  set (ul := (r + 1) / md) in *. set (ll := r + 1 - ul * md) in *. clearbody ul ll.
  rewrite (wrap_some us Hne), map_length.
  apply (emits_bind_ret _ st _ tt); [rewrite (proj2 (Nat.leb_le ul (length us))) by lia; reflexivity |].
  apply (emits_bind_ret _ st _ tt); [rewrite (proj2 (Nat.leb_le ll (length ls))) by lia; reflexivity |].
  rewrite skipn_map, gfor_map. apply emits_seq.
  - eapply emits_iff; [| intros b; apply skipn_false].
    assert (Os : olds st (skipn ul us)) by now apply olds_skipn.
    eapply emits_iff.
    + apply emits_for with (P := fun y b => csat b [lit_negate y]). intros y Hy. cbn [of_opt rneg]. eapply emits_add_r; [reflexivity |].
      apply olds_cons. rewrite lit_negate_var. split; [auto | apply olds_nil].
    + intros b. split; intros H y Hy; specialize (H y Hy).
      * rewrite csat_cons, sem_neg_true in H. destruct H as [H | H]; [assumption | now apply csat_nil in H].
      * rewrite csat_cons, sem_neg_true. now left.
  - assert (Os : olds st (skipn (ll - 1) ls)) by now apply olds_skipn.
    destruct (Nat.eqb_spec ul 0) as [E0 | E0]; cbn [negb andb].
    + apply (emits_bind_ret _ st _ tt).
      { destruct (Nat.eqb_spec ll 0) as [E3 | E3]; [lia | reflexivity]. }
      eapply emits_iff; [now apply emits_all_neg | intros b; apply skipn_false].
    + destruct (nth_error us (ul - 1)) as [t |] eqn:Et; [| apply nth_error_None in Et; lia].
      assert (Eix : ix (map Some us) (ul - 1) = Ok (Some t)).
      { unfold ix. rewrite (map_nth_error Some _ _ Et). reflexivity. }
      assert (Ott : old st (lit_var t)) by (apply Ou; eapply nth_error_In; eauto).
      assert (Etr : forall b, tr b us (ul - 1) = lit_sem b t) by (intros b; unfold tr; now rewrite Et).
      destruct (Nat.eqb_spec ll 0) as [E3 | E3]; cbn [negb].
      * apply (emits_bind_ret _ st _ (Some t)); [unfold olit in *; rewrite Eix; reflexivity |].
        eapply emits_iff; [eapply emits_add_r; [reflexivity |] |].
        { apply olds_cons. rewrite lit_negate_var. split; [auto | apply olds_nil]. }
        intros b. rewrite Etr, csat_cons, sem_neg_true. split; [intros [H | H]; [assumption | now apply csat_nil in H] | auto].
      * eapply emits_iff.
        { eapply emits_iff; [apply emits_for with (P := fun y b => csat b [lit_negate t; lit_negate y]) |].
          - intros y Hy. apply (emits_bind_ret _ st _ (Some t)); [unfold olit in *; rewrite Eix; reflexivity |].
            eapply emits_add_r; [reflexivity |]. rewrite !olds_cons, !lit_negate_var.
            split; [assumption |]. split; [auto | apply olds_nil].
          - intros b. apply iff_refl. }
        intros b. rewrite Etr, <- skipn_false. split.
        -- intros H Hb y Hy. specialize (H y Hy). rewrite !csat_cons, !sem_neg_true in H.
           destruct H as [H | [H | H]]; [congruence | assumption | now apply csat_nil in H].
        -- intros H y Hy. rewrite !csat_cons, !sem_neg_true. destruct (lit_sem b t); [right; left; auto | now left].
Qed.

Lemma emits_inc_mod : forall st d r us ls md,
  inc_v1 d = us -> inc_v2 d = Some ls -> inc_md d = md -> 2 <= md -> olds st us -> olds st ls ->
  (r + 1) / md <= length us -> length ls = md - 1 -> emits st (inc_mod d r) (out_cond r md us ls).
Proof.
  intros st d r us ls md E1 E2 E3 Hmd Ou Ol Hul Hls. unfold inc_mod, out_cond. rewrite E1, E2, E3. clear E1 E2 E3. cbv zeta.
  destruct (limits r md Hmd) as [E1 E2]. cbv zeta in *.
  set (ul := (r + 1) / md) in *. set (ll := r + 1 - ul * md) in *. clearbody ul ll.
  apply (emits_bind_ret _ st _ tt); [rewrite (proj2 (Nat.leb_le ul (length us))) by lia; reflexivity |].
  apply (emits_bind_ret _ st _ tt); [rewrite (proj2 (Nat.leb_le ll (length ls))) by lia; reflexivity |].
  apply emits_seq.
  - eapply emits_iff; [| intros b; apply skipn_false]. apply emits_all_neg. now apply olds_skipn.
  - assert (Os : olds st (skipn (ll - 1) ls)) by now apply olds_skipn.
    destruct (Nat.eqb_spec ul 0) as [E0 | E0]; cbn [negb andb].
    + eapply emits_iff; [now apply emits_all_neg | intros b; apply skipn_false].
    + destruct (nth_error us (ul - 1)) as [t |] eqn:Et; [| apply nth_error_None in Et; lia].
      assert (Eix : ix us (ul - 1) = Ok t) by (unfold ix; now rewrite Et).
      assert (Ott : old st (lit_var t)) by (apply Ou; eapply nth_error_In; eauto).
      assert (Etr : forall b, tr b us (ul - 1) = lit_sem b t) by (intros b; unfold tr; now rewrite Et).
      rewrite Eix. cbn [rneg].
      destruct (Nat.eqb_spec ll 0) as [E3 | E3]; cbn [negb].
      * eapply emits_iff; [eapply emits_add_r; [reflexivity |] |].
        { apply olds_cons. rewrite lit_negate_var. split; [auto | apply olds_nil]. }
        intros b. rewrite Etr, csat_cons, sem_neg_true. split; [intros [H | H]; [assumption | now apply csat_nil in H] | auto].
      * apply (emits_bind_ret _ st _ (lit_negate t)); [reflexivity |].
        eapply emits_iff; [now apply emits_guard |].
        intros b. rewrite Etr, <- skipn_false. reflexivity.
Qed.

Lemma mod_build_full : forall st xs rhs, olds st xs -> 1 <= rhs < length xs ->
  runs st (mod_build xs rhs) (fun r st' cls => exists us ls md cm,
    r = (map Some us, ls, md) /\ 2 <= md /\ rhs + 1 <= cm * md /\ length us = length xs / md /\ length ls = md - 1
    /\ olds st' us /\ olds st' ls
    /\ (forall b, sat b cls -> node_sound md cm xs us ls b /\ out_cond rhs md us ls b)
    /\ (forall a, cnt a xs <= rhs -> exists b, agree st st' a b /\ sat b cls /\ canon b us (cnt a xs / md) /\ canon b ls (cnt a xs mod md))).
Proof.
  intros st xs rhs Ho Hn. unfold mod_build. set (n := length xs) in *. set (md := sqrt_up (rhs + 1)).
  assert (Hmd : 2 <= md).
  { unfold md. pose proof (sqrt_up_pos (rhs + 1) ltac:(lia)). pose proof (sqrt_up_sq (rhs + 1)). nia. }
  assert (Hmr : md <= rhs + 1).
  { unfold md. destruct (Nat.eq_dec rhs 1) as [-> |]; [reflexivity |]. pose proof (sqrt_up_lt (rhs + 1) ltac:(lia)). lia. }
  clearbody md.
  assert (Hdiv : 1 <= n / md) by (apply Nat.div_le_lower_bound; lia).
  eapply runs_bind.
  { apply runs_allocs with (post := fun ys st' cls => cls = [] /\ length ys = n / md /\ olds st' ys /\ free_choice st st' ys).
    intuition. }
  intros us st1 cls L1 _ (-> & Hlen1 & Hus & Hf1). cbn [app].
  eapply runs_bind.
  { apply runs_allocs with (post := fun ys st' cls => cls = [] /\ length ys = md - 1 /\ olds st' ys /\ free_choice st1 st' ys).
    intuition. }
  intros ls st2 cls L2 _ (-> & Hlen2 & Hls & Hf2). cbn [app]. fold (wrap us).
  assert (Hus2 : olds st2 us) by solds.
  assert (Hne : us <> []) by (intros ->; cbn in Hlen1; lia).
  eapply runs_bind.
  { apply (mod_cnf_ok md (rhs + 1) Hmd ltac:(lia) (S n) (rev xs) us ls n st2).
    - apply olds_rev; solds.
    - exact Hus2.
    - exact Hls.
    - rewrite rev_length. fold n. lia.
    - lia.
    - split; [exact Hlen1 | lia]. }
  intros rest st3 c1 L3 B3 [-> [HS HC]].
  eapply runs_bind.
  { apply runs_assert with (post := fun _ st' cls => st' = st3 /\ cls = []); [| auto].
    rewrite skipn_all2 by (rewrite rev_length; fold n; lia). reflexivity. }
  intros x st0 c0 _ _ (-> & ->). cbn [app].
  assert (Ef : firstn n (rev xs) = rev xs) by (unfold n; rewrite <- (rev_length xs); apply firstn_all).
  rewrite Ef in HS, HC.
  eapply runs_emits.
  { apply (emits_out st3 rhs md us ls); auto; try solds. rewrite Hlen1. apply Nat.div_le_mono; lia. }
  intros c2 B2 M2. apply runs_ret. rewrite app_nil_r.
  exists us, ls, md, (close_mod (rhs + 1) md).
  split; [destruct us; [contradiction | reflexivity] |]. split; [assumption |]. split.
  { unfold close_mod. pose proof (Nat.div_mod_eq (rhs + 1) md). pose proof (Nat.mod_upper_bound (rhs + 1) md ltac:(lia)).
    destruct (Nat.eqb_spec ((rhs + 1) mod md) 0); nia. }
  split; [assumption |]. split; [assumption |]. split; [solds |]. split; [solds |]. split.
  - intros b Hb. apply sat_app in Hb. destruct Hb as [H1 H2]. split; [| now apply M2].
    eapply node_sound_cnt; [apply cnt_rev |]. now apply HS.
  - intros a Ha. destruct (Hf1 a (fun i => i <? cnt a xs / md)) as [b1 [A1 V1]].
    destruct (Hf2 b1 (fun i => i <? cnt a xs mod md)) as [b2 [A2 V2]].
    assert (A02 : agree st st2 a b2) by (eapply agree_trans; [exact L1 | exact L2 | exact A1 | exact A2]).
    assert (C1 : canon b2 us (cnt a xs / md)).
    { eapply agree_canon; [exact A2 | exact Hus |]. intros i Hi. auto. }
    assert (C2 : canon b2 ls (cnt a xs mod md)) by (intros i Hi; auto).
    assert (E : cnt b2 (rev xs) = cnt a xs) by (rewrite cnt_rev; eapply agree_cnt; eauto).
    destruct (HC b2) as [b3 [A3 S3]]; [now rewrite E | now rewrite E |].
    assert (C1' : canon b3 us (cnt a xs / md)) by (eapply agree_canon; [exact A3 | exact Hus2 | exact C1]).
    assert (C2' : canon b3 ls (cnt a xs mod md)) by (eapply agree_canon; [exact A3 | exact Hls | exact C2]).
    exists b3. split; [eapply agree_trans; [| exact L3 | exact A02 | exact A3]; scle |]. split; [| split; assumption].
    apply sat_app. split; [assumption |]. apply M2. eapply out_complete; eauto.
Qed.

Lemma mod_amk_full : forall st xs rhs inc, olds st xs -> 1 <= rhs < length xs ->
  runs st (mod_amk xs rhs inc) (fun d st' cls => exists us ls md cm,
    d = (if inc then Some (mkInc (IncAmk AmkModularTotalizer) us (Some ls) md 0 rhs) else None)
    /\ 2 <= md /\ rhs + 1 <= cm * md /\ length us = length xs / md /\ length ls = md - 1 /\ olds st' us /\ olds st' ls
    /\ (forall b, sat b cls -> node_sound md cm xs us ls b /\ out_cond rhs md us ls b)
    /\ (forall a, cnt a xs <= rhs -> exists b, agree st st' a b /\ sat b cls /\ canon b us (cnt a xs / md) /\ canon b ls (cnt a xs mod md))).
Proof.
  intros st xs rhs inc Ho Hn. unfold mod_amk. eapply runs_bind; [now apply mod_build_full |].
  intros r st' cls L B (us & ls & md & cm & -> & R). apply runs_ret. rewrite app_nil_r, olits_map.
  exists us, ls, md, cm. split; [reflexivity | exact R].
Qed.

Lemma mod_alk_full : forall st xs rhs inc, olds st xs -> 1 <= rhs < length xs ->
  let ns := map lit_negate xs in
  runs st (mod_alk xs rhs inc) (fun d st' cls => exists us ls md cm,
    d = (if inc then Some (mkInc (IncAlk AlkModularTotalizer) us (Some ls) md (length xs) rhs) else None)
    /\ 2 <= md /\ length xs - rhs + 1 <= cm * md /\ length us = length xs / md /\ length ls = md - 1 /\ olds st' us /\ olds st' ls
    /\ (forall b, sat b cls -> node_sound md cm ns us ls b /\ out_cond (length xs - rhs) md us ls b)
    /\ (forall a, cnt a ns <= length xs - rhs ->
          exists b, agree st st' a b /\ sat b cls /\ canon b us (cnt a ns / md) /\ canon b ls (cnt a ns mod md))).
Proof.
  intros st xs rhs inc Ho Hn ns. unfold mod_alk. eapply runs_bind.
  { apply mod_build_full; [now apply olds_neg | rewrite map_length; lia]. }
  rewrite map_length.
  intros r st' cls L B (us & ls & md & cm & -> & R). apply runs_ret. rewrite app_nil_r, olits_map.
  exists us, ls, md, cm. split; [reflexivity | exact R].
Qed.

Lemma mod_amk_ok : forall st xs rhs inc, olds st xs -> 1 <= rhs < length xs ->
  encodes st (mod_amk xs rhs inc) (fun b => cnt b xs <= rhs).
Proof.
  intros st xs rhs inc Ho Hn. eapply runs_conseq; [apply mod_amk_full; assumption |].
  cbn beta. intros d st' cls _ _ (us & ls & md & cm & _ & Hmd & Hcm & _ & Hls & _ & _ & HS & HC). split.
  - intros b Hb. destruct (HS b Hb) as [H1 H2]. eapply out_sound; eauto. lia.
  - intros a Ha. destruct (HC a Ha) as [b [A [S _]]]. eauto.
Qed.
Lemma mod_alk_ok : forall st xs rhs inc, olds st xs -> 1 <= rhs < length xs ->
  encodes st (mod_alk xs rhs inc) (fun b => rhs <= cnt b xs).
Proof.
  intros st xs rhs inc Ho Hn. eapply runs_conseq; [apply mod_alk_full; assumption |].
  cbn beta. intros d st' cls _ _ (us & ls & md & cm & _ & Hmd & Hcm & _ & Hls & _ & _ & HS & HC). split.
  - intros b Hb. destruct (HS b Hb) as [H1 H2]. pose proof (cnt_neg b xs).
    assert (cnt b (map lit_negate xs) <= length xs - rhs); [| lia]. eapply out_sound; eauto. lia.
  - intros a Ha. pose proof (cnt_neg a xs). destruct (HC a ltac:(lia)) as [b [A [S _]]]. eauto.
Qed.
