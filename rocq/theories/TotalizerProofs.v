(** The totalizer (cc_totalizer.rs) is correct. *)
From Coq Require Import NArith ZArith List Bool Arith Lia.
From Verif Require Import Base EncodingModel Syntax FactoryModel CcModel EncBasics AmoProofs.
Import ListNotations.
Local Open Scope nat_scope.
Local Open Scope gen_scope.

(** [ys] is the unary number [n] (cut at the length of [ys]). *)
Definition canon (b : valuation) (ys : list lit) (n : nat) : Prop := forall i, i < length ys -> tr b ys i = (i <? n).

Lemma agree_canon : forall st st' a b ys n, agree st st' a b -> olds st ys -> canon a ys n -> canon b ys n.
Proof. intros st st' a b ys n H Ho Hc i Hi. rewrite (agree_tr st st' a b) by assumption. auto. Qed.

(** The conditions of the two adders. *)
Definition amk_cond (l r out : list lit) (rhs : nat) (b : valuation) : Prop :=
  forall i j, i <= length l -> j <= length r -> 1 <= i + j <= rhs + 1 ->
    (i = 0 \/ tr b l (i - 1) = true) -> (j = 0 \/ tr b r (j - 1) = true) -> tr b out (i + j - 1) = true.
Definition alk_cond (l r out : list lit) (b : valuation) : Prop :=
  forall i j, i <= length l -> j <= length r -> 1 <= i + j ->
    let k := if i =? 0 then length l + j - 1 else if j =? 0 then length r + i - 1 else i + j - 2 in
    tr b out k = true -> (1 <= i /\ tr b l (i - 1) = true) \/ (1 <= j /\ tr b r (j - 1) = true).

Lemma emits_adder_amk : forall st l r out rhs, olds st l -> olds st r -> olds st out -> length out = length l + length r ->
  emits st (adder_amk l r out rhs) (amk_cond l r out rhs).
Proof.
  intros st l r out rhs Hl Hr Ho Hlen. unfold adder_amk.
  set (P := fun i j (b : valuation) => 1 <= i + j <= rhs + 1 ->
    (i = 0 \/ tr b l (i - 1) = true) -> (j = 0 \/ tr b r (j - 1) = true) -> tr b out (i + j - 1) = true).
  eapply emits_iff.
  - apply emits_for with (P := fun i b => forall j, In j (seq 0 (S (length r))) -> P i j b). intros i Hi. apply in_seq in Hi.
    apply emits_for with (P := fun j b => P i j b). intros j Hj. apply in_seq in Hj.
    destruct (Nat.eqb_spec i 0) as [-> | Hi0]; destruct (Nat.eqb_spec j 0) as [-> | Hj0]; cbn [andb orb].
    + eapply emits_iff; [apply emits_ret |]. intros b. unfold P. split; [lia | auto].
    + destruct (Nat.ltb_spec (rhs + 1) (0 + j)) as [Hc | Hc].
      * eapply emits_iff; [apply emits_ret |]. intros b. unfold P. split; [lia | auto].
      * eapply emits_iff.
        { apply emits_elems with (ps := [fun b => negb (tr b r (j - 1)); fun b => tr b out (j - 1)]). elems. }
        intros b. cbn [anyb]. unfold P. rewrite orb_false_r. split.
        -- intros H _ _ [H' | H']; [lia |]. rewrite H' in H. exact H.
        -- intros H. destruct (tr b r (j - 1)); [| reflexivity]. apply H; auto; lia.
    + destruct (Nat.ltb_spec (rhs + 1) (i + 0)) as [Hc | Hc].
      * eapply emits_iff; [apply emits_ret |]. intros b. unfold P. split; [lia | auto].
      * eapply emits_iff.
        { apply emits_elems with (ps := [fun b => negb (tr b l (i - 1)); fun b => tr b out (i - 1)]). elems. }
        intros b. cbn [anyb]. unfold P. rewrite orb_false_r. replace (i + 0 - 1) with (i - 1) by lia. split.
        -- intros H _ [H' | H'] _; [lia |]. rewrite H' in H. exact H.
        -- intros H. destruct (tr b l (i - 1)); [| reflexivity]. apply H; auto; lia.
    + destruct (Nat.ltb_spec (rhs + 1) (i + j)) as [Hc | Hc].
      * eapply emits_iff; [apply emits_ret |]. intros b. unfold P. split; [lia | auto].
      * eapply emits_iff.
        { apply emits_elems with
            (ps := [fun b => negb (tr b l (i - 1)); fun b => negb (tr b r (j - 1)); fun b => tr b out (i + j - 1)]). elems. }
        intros b. cbn [anyb]. unfold P. rewrite orb_false_r. split.
        -- intros H _ [H' | H'] [H'' | H'']; try lia. rewrite H', H'' in H. exact H.
        -- intros H. destruct (tr b l (i - 1)); [| reflexivity]. destruct (tr b r (j - 1)); [| reflexivity]. apply H; auto; lia.
  - intros b. unfold amk_cond, P. split.
    + intros H i j Hi Hj. apply (H i); apply in_seq; lia.
    + intros H i Hi j Hj. apply in_seq in Hi, Hj. apply H; lia.
Qed.

Lemma emits_adder_alk : forall st l r out, olds st l -> olds st r -> olds st out -> length out = length l + length r ->
  emits st (adder_alk l r out) (alk_cond l r out).
Proof.
  intros st l r out Hl Hr Ho Hlen. unfold adder_alk.
  set (P := fun i j (b : valuation) => 1 <= i + j ->
    tr b out (if i =? 0 then length l + j - 1 else if j =? 0 then length r + i - 1 else i + j - 2) = true ->
    (1 <= i /\ tr b l (i - 1) = true) \/ (1 <= j /\ tr b r (j - 1) = true)).
  eapply emits_iff.
  - apply emits_for with (P := fun i b => forall j, In j (seq 0 (S (length r))) -> P i j b). intros i Hi. apply in_seq in Hi.
    apply emits_for with (P := fun j b => P i j b). intros j Hj. apply in_seq in Hj.
    unfold P. destruct (Nat.eqb_spec i 0) as [-> | Hi0]; destruct (Nat.eqb_spec j 0) as [-> | Hj0]; cbn [andb].
    + eapply emits_iff; [apply emits_ret |]. intros b. split; [lia | auto].
    + eapply emits_iff.
      { apply emits_elems with (ps := [fun b => tr b r (j - 1); fun b => negb (tr b out (length l + j - 1))]). elems. }
      intros b. cbn [anyb]. rewrite orb_false_r. split.
      * intros H _ H'. rewrite H' in H. cbn in H. rewrite orb_false_r in H. right. split; [lia | assumption].
      * intros H. destruct (tr b out (length l + j - 1)); [| apply orb_true_r].
        destruct H as [[H _] | [_ H]]; [lia | reflexivity | lia | rewrite H; reflexivity].
    + eapply emits_iff.
      { apply emits_elems with (ps := [fun b => tr b l (i - 1); fun b => negb (tr b out (length r + i - 1))]). elems. }
      intros b. cbn [anyb]. rewrite orb_false_r. split.
      * intros H _ H'. rewrite H' in H. cbn in H. rewrite orb_false_r in H. left. split; [lia | assumption].
      * intros H. destruct (tr b out (length r + i - 1)); [| apply orb_true_r].
        destruct H as [[_ H] | [H _]]; [lia | reflexivity | rewrite H; reflexivity | lia].
    + eapply emits_iff.
      { apply emits_elems with
          (ps := [fun b => tr b l (i - 1); fun b => tr b r (j - 1); fun b => negb (tr b out (i + j - 2))]). elems. }
      intros b. cbn [anyb]. rewrite orb_false_r. split.
      * intros H _ H'. rewrite H' in H. cbn in H. rewrite orb_false_r in H. apply orb_prop in H.
        destruct H; [left | right]; split; auto; lia.
      * intros H. destruct (tr b out (i + j - 2)); [| cbn; rewrite !orb_true_r; reflexivity].
        destruct H as [[_ H] | [_ H]]; [lia | reflexivity | rewrite H; reflexivity | rewrite H; apply orb_true_r].
  - intros b. unfold alk_cond, P. split.
    + intros H i j Hi Hj. apply (H i); apply in_seq; lia.
    + intros H i Hi j Hj. apply in_seq in Hi, Hj. apply H; lia.
Qed.

(** What the outputs of a node say about the number of true inputs. *)
Definition up_ok (b : valuation) (rhs : nat) (ins out : list lit) : Prop :=
  forall k, 1 <= k <= rhs + 1 -> k <= cnt b ins -> tr b out (k - 1) = true.
Definition down_ok (b : valuation) (ins out : list lit) : Prop := forall k, tr b out k = true -> k < cnt b ins.

Lemma up_combine : forall b rhs il ir l r out,
  up_ok b rhs il l -> up_ok b rhs ir r -> amk_cond l r out rhs b -> length il = length l -> length ir = length r ->
  up_ok b rhs (il ++ ir) out.
Proof.
  intros b rhs il ir l r out Hl Hr Hc El Er k Hk Hcnt. rewrite cnt_app in Hcnt.
  pose proof (cnt_le b il). pose proof (cnt_le b ir).
  set (i := min k (cnt b il)). replace k with (i + (k - i)) by lia. apply Hc; try lia.
  - destruct (Nat.eq_dec i 0); [now left | right]. apply Hl; lia.
  - destruct (Nat.eq_dec (k - i) 0); [now left | right]. apply Hr; lia.
Qed.

Lemma down_combine : forall b il ir l r out,
  down_ok b il l -> down_ok b ir r -> alk_cond l r out b -> length il = length l -> length ir = length r ->
  length out = length l + length r -> down_ok b (il ++ ir) out.
Proof.
  intros b il ir l r out Hl Hr Hc El Er Eo k Hk. rewrite cnt_app. pose proof (tr_lt _ _ _ Hk) as Hlt.
  pose proof (cnt_le b il) as Ha. pose proof (cnt_le b ir) as Hb.
  destruct (le_lt_dec (cnt b il + cnt b ir) k) as [Hge |]; [exfalso | assumption].
  assert (Hcases : cnt b il = length l \/ cnt b ir = length r \/ (cnt b il < length l /\ cnt b ir < length r)) by lia.
  destruct Hcases as [E | [E | [E1 E2]]].
  - specialize (Hc 0 (k - length l + 1) ltac:(lia) ltac:(lia) ltac:(lia)). cbn in Hc.
    replace (length l + (k - length l + 1) - 1) with k in Hc by lia.
    destruct (Hc Hk) as [[H _] | [_ H]]; [lia |]. apply Hr in H. lia.
  - specialize (Hc (k - length r + 1) 0 ltac:(lia) ltac:(lia) ltac:(lia)). cbn in Hc.
    destruct (Nat.eqb_spec (k - length r + 1) 0) as [E0 | E0]; [lia |].
    replace (length r + (k - length r + 1) - 1) with k in Hc by lia.
    destruct (Hc Hk) as [[_ H] | [H _]]; [| lia]. apply Hl in H. lia.
  - destruct (Nat.eq_dec k (length l + length r - 1)) as [Ek | Ek].
    { specialize (Hc 0 (length r) ltac:(lia) ltac:(lia) ltac:(lia)). cbn in Hc. rewrite <- Ek in Hc.
      destruct (Hc Hk) as [[H _] | [_ H]]; [lia |]. apply Hr in H. lia. }
    set (i := max (cnt b il) (k - (length r - 1))).
    assert (Hi : cnt b il <= i < length l) by (unfold i; lia).
    assert (Hj : cnt b ir <= k - i < length r) by (unfold i; lia).
    specialize (Hc (S i) (S (k - i)) ltac:(lia) ltac:(lia) ltac:(lia)). cbn [Nat.eqb] in Hc.
    replace (S i + S (k - i) - 2) with k in Hc by lia.
    destruct (Hc Hk) as [[_ H] | [_ H]]; [apply Hl in H | apply Hr in H]; lia.
Qed.

Lemma canon_adders : forall b x y l r out rhs,
  canon b l x -> canon b r y -> canon b out (x + y) -> x <= length l -> y <= length r -> length out = length l + length r ->
  amk_cond l r out rhs b /\ alk_cond l r out b.
Proof.
  intros b x y l r out rhs Hl Hr Ho Hx Hy Eo. split.
  - intros i j Hi Hj Hij Hti Htj. rewrite Ho by lia. apply Nat.ltb_lt.
    assert (i <= x). { destruct Hti as [-> | Ht]; [lia |]. destruct (Nat.eq_dec i 0); [lia |].
      rewrite Hl in Ht by lia. apply Nat.ltb_lt in Ht. lia. }
    assert (j <= y). { destruct Htj as [-> | Ht]; [lia |]. destruct (Nat.eq_dec j 0); [lia |].
      rewrite Hr in Ht by lia. apply Nat.ltb_lt in Ht. lia. }
    lia.
  - intros i j Hi Hj Hij k Hk. pose proof (tr_lt _ _ _ Hk) as Hlt. rewrite Ho in Hk by assumption. apply Nat.ltb_lt in Hk.
    unfold k in *. clear k.
    destruct (Nat.eqb_spec i 0) as [-> | Hi0].
    + right. split; [lia |]. rewrite Hr by lia. apply Nat.ltb_lt. lia.
    + destruct (Nat.eqb_spec j 0) as [-> | Hj0].
      * left. split; [lia |]. rewrite Hl by lia. apply Nat.ltb_lt. lia.
      * assert (i - 1 < x \/ j - 1 < y) as [H | H] by lia; [left | right]; (split; [lia |]).
        -- rewrite Hl by lia. now apply Nat.ltb_lt.
        -- rewrite Hr by lia. now apply Nat.ltb_lt.
Qed.

(** The specification of a node with inputs [ins] and outputs [out]. *)
Definition node_post (bd : bound) (rhs : nat) (ins out : list lit) (st st' : ctrs) (cls : list clause) : Prop :=
  (has_upper bd = true -> forall b, sat b cls -> up_ok b rhs ins out)
  /\ (has_lower bd = true -> forall b, sat b cls -> down_ok b ins out)
  /\ (forall a, canon a out (cnt a ins) -> exists b, agree st st' a b /\ sat b cls).

Lemma node_leaf : forall bd rhs x st, node_post bd rhs [x] [x] st st [].
Proof.
  intros bd rhs x st. split; [| split].
  - intros _ b _ k Hk Hc. cbn [cnt] in Hc. unfold tr. destruct (lit_sem b x) eqn:E; [| lia].
    replace (k - 1) with 0 by lia. exact E.
  - intros _ b _ k Hk. pose proof (tr_lt _ _ _ Hk) as Hl. cbn in Hl. assert (k = 0) as -> by lia.
    unfold tr in Hk. cbn in Hk. cbn [cnt]. rewrite Hk. lia.
  - intros a _. exists a. split; [apply agree_refl | apply sat_nil].
Qed.

(** One child: a popped leaf or new variables. *)
Definition child_post (size : nat) (stack : list lit) (st : ctrs) (r : list lit * list lit) (st' : ctrs) (cls : list clause) : Prop :=
  cls = [] /\ length (fst r) = size /\ olds st' (fst r)
  /\ snd r = (if size =? 1 then skipn 1 stack else stack)
  /\ (size = 1 -> fst r = firstn 1 stack)
  /\ (forall a m, (size = 1 -> m = cnt a (firstn 1 stack)) -> exists b, agree st st' a b /\ canon b (fst r) m).

Lemma tot_child_ok : forall size stack st, 1 <= size <= length stack -> olds st stack ->
  runs st (tot_child size stack) (child_post size stack st).
Proof.
  intros size stack st Hs Ho. unfold tot_child. destruct (Nat.eqb_spec size 1) as [-> | H1].
  - destruct stack as [| x stack]; [cbn in Hs; lia |].
    eapply runs_bind; [apply runs_ret with (post := fun p st' cls => p = (x, stack) /\ st' = st /\ cls = []); auto |].
    intros p st' cls _ _ (-> & -> & ->). apply runs_ret. cbn [app fst snd]. unfold child_post. cbn [fst snd length].
    split; [reflexivity |]. split; [reflexivity |]. split.
    { intros y [<- | []]. apply Ho. now left. }
    split; [reflexivity |]. split; [reflexivity |].
    intros a m Hm. rewrite (Hm eq_refl). exists a. split; [apply agree_refl |]. intros i Hi. cbn in Hi. assert (i = 0) as -> by lia.
    unfold tr. cbn. destruct (lit_sem a x); reflexivity.
  - eapply runs_bind.
    { apply runs_allocs with (post := fun ys st' cls => cls = [] /\ length ys = size /\ olds st' ys /\ free_choice st st' ys).
      intuition. }
    intros ys st' cls L _ (-> & Hlen & Hys & Hfc). apply runs_ret. cbn [app]. unfold child_post. cbn [fst snd].
    split; [reflexivity |]. split; [assumption |]. split; [assumption |].
    destruct (Nat.eqb_spec size 1) as [E | _]; [contradiction |]. split; [reflexivity |]. split; [intros; contradiction |].
    intros a m _. destruct (Hfc a (fun i => i <? m)) as [b [A V]]. exists b. split; [assumption |].
    intros i Hi. auto.
Qed.

Lemma firstn_two : forall A (l : list A) a b, firstn (a + b) l = firstn a l ++ firstn b (skipn a l).
Proof.
  intros A l a b. revert l. induction a as [| a IH]; intros l; cbn [plus firstn skipn app]; [reflexivity |].
  destruct l as [| x l]; cbn [app]; [rewrite firstn_nil; reflexivity |]. now rewrite IH.
Qed.
Lemma skipn_two : forall A (l : list A) a b, skipn b (skipn a l) = skipn (a + b) l.
Proof.
  intros A l a b. revert l. induction a as [| a IH]; intros l; cbn [plus skipn]; [reflexivity |].
  destruct l; [apply skipn_nil | apply IH].
Qed.

Lemma tot_cnf_ok : forall bd rhs fuel stack out st,
  olds st stack -> olds st out -> 2 <= length out <= length stack -> length out < fuel ->
  runs st (tot_cnf fuel stack out rhs bd) (fun rest st' cls =>
    rest = skipn (length out) stack /\ node_post bd rhs (firstn (length out) stack) out st st' cls).
Proof.
  intros bd rhs. induction fuel as [| fuel IH]; intros stack out st Hs Ho Hn Hf; [lia |]. cbn [tot_cnf].
  set (n := length out) in *. set (sp := n / 2).
  assert (Hsp : 2 * sp <= n < 2 * sp + 2).
  { unfold sp. pose proof (Nat.div_mod_eq n 2). pose proof (Nat.mod_upper_bound n 2). lia. }
  set (il := firstn sp stack). set (ir := firstn (n - sp) (skipn sp stack)).
  assert (Hins : firstn n stack = il ++ ir).
  { unfold il, ir. replace n with (sp + (n - sp)) at 1 by lia. apply firstn_two. }
  assert (Lil : length il = sp) by (unfold il; rewrite firstn_length; lia).
  assert (Lir : length ir = n - sp) by (unfold ir; rewrite firstn_length, skipn_length; lia).
  assert (Oil : olds st il) by (now apply olds_firstn). assert (Oir : olds st ir) by (now apply olds_firstn, olds_skipn).
  eapply runs_bind; [apply tot_child_ok; [lia | exact Hs] |].
  intros l st1 cls L1 _ (-> & Ll & Ol & El & Fl & Cl). cbn [app].
  assert (Os1 : olds st1 (snd l)).
  { rewrite El. eapply olds_mono; [exact L1 |]. destruct (sp =? 1); [now apply olds_skipn | assumption]. }
  eapply runs_bind.
  { apply tot_child_ok; [| exact Os1]. rewrite El. destruct (Nat.eqb_spec sp 1) as [E |]; [rewrite skipn_length |]; lia. }
  intros r st2 cls L2 _ (-> & Lr & Or & Er & Fr & Cr). cbn [app].
  assert (Ol2 : olds st2 (fst l)) by solds. assert (Oo2 : olds st2 out) by solds.
  eapply runs_emits.
  { apply emits_when. intros _. apply emits_adder_amk; [exact Ol2 | exact Or | exact Oo2 | lia]. }
  intros c1 B1 M1.
  eapply runs_emits.
  { apply emits_when. intros _. apply emits_adder_alk; [exact Ol2 | exact Or | exact Oo2 | lia]. }
  intros c2 B2 M2.
  (* left subtree *)
  eapply runs_bind.
  { assert (HL : runs st2 (if 1 <? sp then tot_cnf fuel (snd r) (fst l) rhs bd else gret (snd r)) (fun rest st' cls =>
        rest = (if n - sp =? 1 then skipn n stack else skipn sp stack) /\ node_post bd rhs il (fst l) st2 st' cls)).
    { destruct (Nat.ltb_spec 1 sp) as [H1 | H1].
      - assert (E : snd r = stack).
        { rewrite Er, El. destruct (Nat.eqb_spec (n - sp) 1); [lia |]. destruct (Nat.eqb_spec sp 1); [lia | reflexivity]. }
        rewrite E. eapply runs_conseq; [apply IH; [solds | exact Ol2 | lia | lia] |].
        cbn beta. intros rest st' cls _ _ [-> Hp]. rewrite Ll in *. fold il in Hp.
        destruct (Nat.eqb_spec (n - sp) 1); [lia |]. split; [reflexivity | assumption].
      - assert (E : sp = 1) by lia. apply runs_ret. split.
        + rewrite Er, El. rewrite E. cbn [Nat.eqb].
          destruct (Nat.eqb_spec (n - 1) 1) as [E' |]; [| reflexivity].
          rewrite skipn_two. f_equal. lia.
        + rewrite (Fl E). unfold il. rewrite E. destruct stack as [| x stack']; [cbn in Hn; lia |]. cbn [firstn].
          apply node_leaf. }
    exact HL. }
  intros s1 st3 c3 L3 B3 [-> Hleft].
  assert (Or3 : olds st3 (fst r)) by solds.
  (* right subtree *)
  assert (HR : runs st3 (if 1 <? n - sp then tot_cnf fuel (if n - sp =? 1 then skipn n stack else skipn sp stack) (fst r) rhs bd
                         else gret (if n - sp =? 1 then skipn n stack else skipn sp stack)) (fun rest st' cls =>
      rest = skipn n stack /\ node_post bd rhs ir (fst r) st3 st' cls)).
  { destruct (Nat.ltb_spec 1 (n - sp)) as [H1 | H1].
    - destruct (Nat.eqb_spec (n - sp) 1); [lia |].
      assert (Osk : olds st3 (skipn sp stack)) by (apply olds_skipn; solds).
      eapply runs_conseq; [apply IH; [exact Osk | exact Or3 | rewrite skipn_length; lia | lia] |].
      cbn beta. intros rest st' cls _ _ [-> Hp]. rewrite Lr in *. fold ir in Hp. split; [| assumption].
      rewrite skipn_two. f_equal. lia.
    - assert (E : n - sp = 1) by lia. rewrite E. cbn [Nat.eqb]. apply runs_ret. split; [reflexivity |].
      assert (sp = 1) by lia. rewrite (Fr E), El. unfold ir. rewrite E, H. cbn [Nat.eqb].
      assert (1 <= length (skipn 1 stack)) by (rewrite skipn_length; lia).
      destruct (skipn 1 stack) as [| x s']; [cbn in *; lia |]. cbn [firstn]. apply node_leaf. }
  eapply runs_conseq; [exact HR |].
  cbn beta. intros rest st4 c4 L4 B4 [-> Hright]. split; [reflexivity |].
  rewrite Hins. destruct Hleft as (UL & DL & CL). destruct Hright as (UR & DR & CR). split; [| split].
  - intros Hu b Hb. rewrite !sat_app in Hb. destruct Hb as (H1 & H2 & H3 & H4). rewrite M1 in H1.
    apply up_combine with (l := fst l) (r := fst r); auto; lia.
  - intros Hd b Hb. rewrite !sat_app in Hb. destruct Hb as (H1 & H2 & H3 & H4). rewrite M2 in H2.
    apply down_combine with (l := fst l) (r := fst r); auto; lia.
  - intros a Ha. rewrite cnt_app in Ha.
    destruct (Cl a (cnt a il)) as [b1 [A1 V1]]; [intros E; unfold il; rewrite E; reflexivity |].
    destruct (Cr b1 (cnt a ir)) as [b2 [A2 V2]].
    { intros E. rewrite <- (agree_cnt st st1 a b1 ir A1 Oir). f_equal. rewrite El. assert (E1 : sp = 1) by lia.
      unfold ir. rewrite E, E1. reflexivity. }
    assert (A02 : agree st st2 a b2) by (eapply agree_trans; [exact L1 | exact L2 | exact A1 | exact A2]).
    assert (V1' : canon b2 (fst l) (cnt a il)) by (eapply agree_canon; [exact A2 | exact Ol | exact V1]).
    assert (Vo : canon b2 out (cnt a il + cnt a ir)) by (eapply agree_canon; [exact A02 | exact Ho | exact Ha]).
    pose proof (cnt_le a il). pose proof (cnt_le a ir).
    destruct (canon_adders b2 _ _ (fst l) (fst r) out rhs V1' V2 Vo) as [Ka Kl]; [lia | lia | lia |].
    destruct (CL b2) as [b3 [A3 S3]].
    { rewrite (agree_cnt st st2 a b2 il A02 Oil). exact V1'. }
    assert (A03 : agree st st3 a b3) by (eapply agree_trans; [| exact L3 | exact A02 | exact A3]; scle).
    destruct (CR b3) as [b4 [A4 S4]].
    { rewrite (agree_cnt st st3 a b3 ir A03 Oir). eapply agree_canon; [exact A3 | exact Or | exact V2]. }
    assert (A24 : agree st2 st4 b2 b4) by (eapply agree_trans; [exact L3 | exact L4 | exact A3 | exact A4]).
    exists b4. split; [eapply agree_trans; [| exact L4 | exact A03 | exact A4]; scle |].
    rewrite !sat_app. split; [| split; [| split]].
    + eapply agree_sat; [exact A24 | exact B1 |]. apply M1. auto.
    + eapply agree_sat; [exact A24 | exact B2 |]. apply M2. auto.
    + eapply agree_sat; [exact A4 | exact B3 | exact S3].
    + exact S4.
Qed.

(* ------------------------------------------------------------------------------------------------------------------ *)
(** * The encoders *)

Lemma skipn_false : forall b ys r, (forall y, In y (skipn r ys) -> lit_sem b y = false) <-> (forall k, r <= k -> tr b ys k = false).
Proof.
  intros b ys. induction ys as [| y ys IH]; intros r.
  - rewrite skipn_nil. split; [intros _ k _; unfold tr; destruct k; reflexivity | intros _ y []].
  - destruct r as [| r]; cbn [skipn].
    + split.
      * intros H k _. unfold tr. destruct (nth_error (y :: ys) k) as [z |] eqn:E; [| reflexivity]. apply H. eapply nth_error_In; eauto.
      * intros H z Hz. apply In_nth_error in Hz. destruct Hz as [k E]. specialize (H k ltac:(lia)). unfold tr in H. rewrite E in H. exact H.
    + rewrite (IH r). split.
      * intros H [| k] Hk; [lia |]. rewrite tr_cons. apply H. lia.
      * intros H k Hk. specialize (H (S k) ltac:(lia)). now rewrite tr_cons in H.
Qed.
Lemma firstn_true : forall b ys r, r <= length ys ->
  (forall y, In y (firstn r ys) -> lit_sem b y = true) <-> (forall k, k < r -> tr b ys k = true).
Proof.
  intros b. induction ys as [| y ys IH]; intros r Hr.
  - cbn in Hr. assert (r = 0) as -> by lia. cbn. split; [intros _ k Hk; lia | intros _ y []].
  - destruct r as [| r]; cbn [firstn]; [split; [intros _ k Hk; lia | intros _ z []] |]. cbn in Hr.
    specialize (IH r ltac:(lia)). split.
    + intros H [| k] Hk; [apply (H y); now left |]. rewrite tr_cons. apply IH; [| lia]. intros z Hz. apply H. now right.
    + intros H z [<- | Hz]; [apply (H 0); lia |]. apply IH; [| assumption]. intros k Hk. apply (H (S k)). lia.
Qed.

Lemma emits_all_neg : forall st ys, olds st ys ->
  emits st (gfor ys (fun y => add [lit_negate y])) (fun b => forall y, In y ys -> lit_sem b y = false).
Proof.
  intros st ys Ho. eapply emits_iff.
  - apply emits_for with (P := fun y b => csat b [lit_negate y]). intros y Hy. apply emits_add. apply olds_cons.
    rewrite lit_negate_var. split; [auto | apply olds_nil].
  - intros b. split; intros H y Hy; specialize (H y Hy).
    + rewrite csat_cons, sem_neg_true in H. destruct H as [H | H]; [assumption | now apply csat_nil in H].
    + rewrite csat_cons, sem_neg_true. now left.
Qed.
Lemma emits_all_pos : forall st ys, olds st ys ->
  emits st (gfor ys (fun y => add [y])) (fun b => forall y, In y ys -> lit_sem b y = true).
Proof.
  intros st ys Ho. eapply emits_iff.
  - apply emits_for with (P := fun y b => csat b [y]). intros y Hy. apply emits_add. apply olds_cons.
    split; [auto | apply olds_nil].
  - intros b. split; intros H y Hy; specialize (H y Hy).
    + rewrite csat_cons in H. destruct H as [H | H]; [assumption | now apply csat_nil in H].
    + rewrite csat_cons. now left.
Qed.

(** The common part of the three encoders. *)
Lemma tot_core : forall bd rhs xs st, olds st xs -> 2 <= length xs ->
  runs st (out <~ allocs AuxCC (length xs) ;; tot_cnf (S (length xs)) (rev xs) out rhs bd ;; gret out) (fun out st' cls =>
    length out = length xs /\ olds st' out
    /\ (has_upper bd = true -> forall b, sat b cls -> up_ok b rhs xs out)
    /\ (has_lower bd = true -> forall b, sat b cls -> down_ok b xs out)
    /\ (forall a, exists b, agree st st' a b /\ sat b cls /\ canon b out (cnt a xs))).
Proof.
  intros bd rhs xs st Ho Hn. eapply runs_bind.
  { apply runs_allocs with (post := fun ys st' cls => cls = [] /\ length ys = length xs /\ olds st' ys /\ free_choice st st' ys).
    intuition. }
  intros out st1 cls L1 _ (-> & Hlen & Hout & Hfc). cbn [app].
  eapply runs_bind.
  { apply tot_cnf_ok; [apply olds_rev; solds | exact Hout | rewrite rev_length; lia | lia]. }
  intros rest st2 cls L2 B2 [-> (HU & HD & HC)]. apply runs_ret. rewrite app_nil_r.
  rewrite Hlen in HU, HD, HC. rewrite <- (rev_length xs) in HU, HD, HC. rewrite firstn_all in HU, HD, HC.
  split; [assumption |]. split; [solds |]. split; [| split].
  - intros Hu b Hb k Hk Hc. apply (HU Hu b Hb k Hk). now rewrite cnt_rev.
  - intros Hd b Hb k Hk. rewrite <- (cnt_rev b xs). now apply (HD Hd b Hb).
  - intros a. destruct (Hfc a (fun i => i <? cnt a xs)) as [b1 [A1 V1]].
    assert (E : cnt b1 xs = cnt a xs) by (eapply agree_cnt; eauto).
    destruct (HC b1) as [b2 [A2 S2]]; [intros i Hi; rewrite cnt_rev, E; auto |].
    exists b2. split; [eapply agree_trans; eauto |]. split; [assumption |].
    eapply agree_canon; [exact A2 | exact Hout |]. intros i Hi. auto.
Qed.

(** A run of the common part inside a longer one. *)
Lemma bind_assoc : forall A B C (g : G A) (f : A -> G B) (k : B -> G C) st,
  gbind (gbind g f) k st = gbind g (fun x => gbind (f x) k) st.
Proof.
  intros A B C g f k st. unfold gbind. destruct (g st) as [[[a st1] c1] | |]; [| reflexivity | reflexivity].
  destruct (f a st1) as [[[b st2] c2] | |]; [| reflexivity | reflexivity].
  destruct (k b st2) as [[[c st3] c3] | |]; [| reflexivity | reflexivity]. now rewrite app_assoc.
Qed.

Lemma runs_ext : forall A st (g h : G A) P, g st = h st -> runs st g P -> runs st h P.
Proof. intros A st g h P E (a & st' & cls & H & R). exists a, st', cls. rewrite <- E. auto. Qed.

Lemma tot_regroup : forall B bd rhs xs (k : list lit -> G B) st,
  (out <~ (out <~ allocs AuxCC (length xs) ;; tot_cnf (S (length xs)) (rev xs) out rhs bd ;; gret out) ;; k out) st =
  (out <~ allocs AuxCC (length xs) ;; tot_cnf (S (length xs)) (rev xs) out rhs bd ;; k out) st.
Proof.
  intros B bd rhs xs k st. unfold gbind, gret.
  destruct (allocs AuxCC (length xs) st) as [[[out st1] c1] | |]; [| reflexivity | reflexivity].
  destruct (tot_cnf (S (length xs)) (rev xs) out rhs bd st1) as [[[r st2] c2] | |]; [| reflexivity | reflexivity].
  destruct (k out st2) as [[[x st3] c3] | |]; [| reflexivity | reflexivity].
  rewrite app_nil_r, app_assoc. reflexivity.
Qed.

Lemma tot_amk_full : forall st xs rhs inc, olds st xs -> 2 <= length xs ->
  runs st (tot_amk xs rhs inc) (fun d st' cls => exists out,
    d = (if inc then Some (mkInc (IncAmk AmkTotalizer) out None 0 0 rhs) else None)
    /\ length out = length xs /\ olds st' out
    /\ (forall b, sat b cls -> up_ok b rhs xs out /\ forall k, rhs <= k -> tr b out k = false)
    /\ (forall a, cnt a xs <= rhs -> exists b, agree st st' a b /\ sat b cls /\ canon b out (cnt a xs))).
Proof.
  intros st xs rhs inc Ho Hn. unfold tot_amk. eapply runs_ext; [apply tot_regroup |].
  eapply runs_bind; [apply tot_core; assumption |]. intros out st1 c1 L1 B1 (Hlen & Hout & HU & _ & HC).
  eapply runs_emits; [apply emits_all_neg; now apply olds_skipn |]. intros c2 B2 M2. apply runs_ret. rewrite app_nil_r.
  exists out. split; [reflexivity |]. split; [assumption |]. split; [assumption |]. split.
  - intros b Hb. apply sat_app in Hb. destruct Hb as [H1 H2]. split; [now apply HU |].
    apply skipn_false. now apply M2.
  - intros a Ha. destruct (HC a) as [b [A [S C]]]. exists b. split; [assumption |]. split; [| assumption].
    apply sat_app. split; [assumption |]. apply M2. apply skipn_false. intros k Hk.
    destruct (lt_dec k (length out)) as [Hl | Hl].
    + rewrite C by assumption. apply Nat.ltb_ge. lia.
    + destruct (tr b out k) eqn:E; [| reflexivity]. apply tr_lt in E. contradiction.
Qed.

Lemma tot_alk_full : forall st xs rhs inc, olds st xs -> 2 <= length xs -> rhs <= length xs ->
  runs st (tot_alk xs rhs inc) (fun d st' cls => exists out,
    d = (if inc then Some (mkInc (IncAlk AlkTotalizer) out None 0 (length xs) rhs) else None)
    /\ length out = length xs /\ olds st' out
    /\ (forall b, sat b cls -> down_ok b xs out /\ forall k, k < rhs -> tr b out k = true)
    /\ (forall a, rhs <= cnt a xs -> exists b, agree st st' a b /\ sat b cls /\ canon b out (cnt a xs))).
Proof.
  intros st xs rhs inc Ho Hn Hr. unfold tot_alk. eapply runs_ext; [apply tot_regroup |].
  eapply runs_bind; [apply tot_core; assumption |]. intros out st1 c1 L1 B1 (Hlen & Hout & _ & HD & HC).
  eapply runs_emits; [apply emits_all_pos; now apply olds_firstn |]. intros c2 B2 M2. apply runs_ret. rewrite app_nil_r.
  exists out. split; [reflexivity |]. split; [assumption |]. split; [assumption |]. split.
  - intros b Hb. apply sat_app in Hb. destruct Hb as [H1 H2]. split; [now apply HD |].
    apply firstn_true; [lia |]. now apply M2.
  - intros a Ha. destruct (HC a) as [b [A [S C]]]. exists b. split; [assumption |]. split; [| assumption].
    apply sat_app. split; [assumption |]. apply M2. apply firstn_true; [lia |]. intros k Hk.
    rewrite C by lia. apply Nat.ltb_lt. lia.
Qed.

Lemma tot_amk_ok : forall st xs rhs inc, olds st xs -> 2 <= length xs ->
  encodes st (tot_amk xs rhs inc) (fun b => cnt b xs <= rhs).
Proof.
  intros st xs rhs inc Ho Hn. eapply runs_conseq; [apply tot_amk_full; assumption |].
  cbn beta. intros d st' cls _ _ (out & _ & Hlen & _ & HS & HC). split.
  - intros b Hb. destruct (HS b Hb) as [HU HF]. destruct (le_lt_dec (cnt b xs) rhs) as [| Hlt]; [assumption |].
    specialize (HU (rhs + 1) ltac:(lia) ltac:(lia)). rewrite HF in HU; [discriminate | lia].
  - intros a Ha. destruct (HC a Ha) as [b [A [S _]]]. eauto.
Qed.
Lemma tot_alk_ok : forall st xs rhs inc, olds st xs -> 2 <= length xs -> rhs <= length xs ->
  encodes st (tot_alk xs rhs inc) (fun b => rhs <= cnt b xs).
Proof.
  intros st xs rhs inc Ho Hn Hr. eapply runs_conseq; [apply tot_alk_full; assumption |].
  cbn beta. intros d st' cls _ _ (out & _ & Hlen & _ & HS & HC). split.
  - intros b Hb. destruct (HS b Hb) as [HD HT]. destruct rhs as [| r]; [lia |].
    specialize (HT r ltac:(lia)). apply HD in HT. lia.
  - intros a Ha. destruct (HC a Ha) as [b [A [S _]]]. eauto.
Qed.
Lemma tot_exk_ok : forall st xs rhs, olds st xs -> 2 <= length xs -> rhs <= length xs ->
  encodes st (tot_exk xs rhs) (fun b => cnt b xs = rhs).
Proof.
  intros st xs rhs Ho Hn Hr. unfold tot_exk. eapply runs_ext; [apply tot_regroup |].
  eapply runs_bind; [apply tot_core; assumption |]. intros out st1 c1 L1 B1 (Hlen & Hout & HU & HD & HC).
  eapply runs_emits; [apply emits_all_pos; now apply olds_firstn |]. intros c2 B2 M2.
  eapply runs_conseq; [apply emits_all_neg; now apply olds_skipn |].
  cbn beta. intros _ st' c3 _ _ [-> M3]. split.
  - intros b Hb. rewrite !sat_app in Hb. destruct Hb as (H1 & H2 & H3).
    pose proof (HU eq_refl b H1) as U. pose proof (HD eq_refl b H1) as D. rewrite M2 in H2. rewrite M3 in H3.
    rewrite firstn_true in H2 by lia. rewrite skipn_false in H3.
    assert (cnt b xs <= rhs).
    { destruct (le_lt_dec (cnt b xs) rhs) as [| Hlt]; [assumption |].
      specialize (U (rhs + 1) ltac:(lia) ltac:(lia)). rewrite H3 in U; [discriminate | lia]. }
    destruct rhs as [| r]; [lia |]. specialize (H2 r ltac:(lia)). apply D in H2. lia.
  - intros a Ha. destruct (HC a) as [b [A [S C]]]. exists b. split; [assumption |]. rewrite !sat_app.
    split; [assumption |]. split.
    + apply M2. apply firstn_true; [lia |]. intros k Hk. rewrite C by lia. apply Nat.ltb_lt. lia.
    + apply M3. apply skipn_false. intros k Hk. destruct (lt_dec k (length out)) as [Hl | Hl].
      * rewrite C by assumption. apply Nat.ltb_ge. lia.
      * destruct (tr b out k) eqn:E; [| reflexivity]. apply tr_lt in E. contradiction.
Qed.
