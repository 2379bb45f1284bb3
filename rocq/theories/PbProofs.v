(** Correctness of the pseudo-Boolean encodings of [PbModel]. *)
From Coq Require Import NArith ZArith List Bool Arith Lia.
From Verif Require Import Base EncodingModel Syntax FactoryModel CcModel EncBasics AmoProofs TotalizerProofs ModTotProofs SorterProofs CcFrontProofs PbModel.
Import ListNotations.
Local Open Scope nat_scope.
Local Open Scope gen_scope.

(** The weight of the true literals. *)
Fixpoint wsum (b : valuation) (ls : list lit) (cs : list nat) : nat :=
  match ls, cs with
  | l :: ls', c :: cs' => (if lit_sem b l then c else 0) + wsum b ls' cs'
  | _, _ => 0
  end.

Lemma agree_wsum : forall st st' a b ls cs, agree st st' a b -> olds st ls -> wsum b ls cs = wsum a ls cs.
Proof.
  intros st st' a b. induction ls as [| l ls IH]; intros [| c cs] H Ho; cbn; auto.
  apply olds_cons in Ho. destruct Ho as [H1 H2]. rewrite (agree_lit st st' a b), IH by assumption. reflexivity.
Qed.

(* ------------------------------------------------------------------------------------------------------------------ *)
(** * Sequential weight counter *)

Definition ev (b : valuation) (rows : list (list lit)) (i j : nat) : bool := tr b (nth i rows []) j.

Lemma elem_entry : forall st rows i j n k, length rows = n -> (forall row, In row rows -> length row = k /\ olds st row) ->
  i < n -> j < k -> elem st (entry rows i j) (fun b => ev b rows i j).
Proof.
  intros st rows i j n k Hn Hr Hi Hj. unfold entry. destruct (ix_ok _ rows i) as [row [E E2]]; [lia |].
  rewrite E. cbn [rbind]. apply nth_error_In in E2 as Hin. destruct (Hr row Hin) as [Hl Ho].
  unfold ev. rewrite (nth_error_nth rows i [] E2). apply elem_ix; [assumption | lia].
Qed.

Lemma alloc_rows_ok : forall n k st (post : list (list lit) -> ctrs -> list clause -> Prop),
  (forall rows st', cle st st' -> length rows = n -> (forall row, In row rows -> length row = k /\ olds st' row) ->
     (forall al f, exists be, agree st st' al be /\ forall i j, i < n -> j < k -> ev be rows i j = f i j) -> post rows st' []) ->
  runs st (alloc_rows n k) post.
Proof.
  induction n as [| n IH]; intros k st post H; cbn [alloc_rows].
  - apply runs_ret. apply H; auto using cle_refl.
    + intros row [].
    + intros al f. exists al. split; [apply agree_refl |]. intros i j Hi. lia.
  - eapply runs_bind.
    + apply runs_allocs with (post := fun ys st' cls => cls = [] /\ length ys = k /\ olds st' ys /\ free_choice st st' ys). intuition.
    + intros row st1 cls L1 _ (-> & Hl & Ho & Hfree). eapply runs_bind.
      * apply IH with (post := fun rows st' cls => cls = [] /\ length rows = n /\ (forall row, In row rows -> length row = k /\ olds st' row) /\
          (forall al f, exists be, agree st1 st' al be /\ forall i j, i < n -> j < k -> ev be rows i j = f i j)). intuition.
      * intros rows st2 cls L2 _ (-> & Hn & Hrows & Hf). apply runs_ret. cbn [app]. apply H.
        -- eapply cle_trans; eauto.
        -- cbn. congruence.
        -- intros r [<- | Hr]; [split; [assumption | eapply olds_mono; eauto] | auto].
        -- intros al f. destruct (Hfree al (f 0)) as [b1 [A1 V1]]. destruct (Hf b1 (fun i => f (S i))) as [b2 [A2 V2]].
           exists b2. split; [eapply agree_trans; eauto |]. intros [| i] j Hi Hj.
           ++ unfold ev. cbn [nth]. rewrite (agree_tr st1 st2 b1 b2) by assumption. apply V1. lia.
           ++ unfold ev. cbn [nth]. apply V2; lia.
Qed.

Lemma wsum_firstn_S : forall b ls cs i c, nth_error cs i = Some c -> length ls = length cs ->
  wsum b (firstn (S i) ls) (firstn (S i) cs) = wsum b (firstn i ls) (firstn i cs) + (if tr b ls i then c else 0).
Proof.
  intros b. induction ls as [| l ls IH]; intros [| c0 cs] i c Hc Hl; try discriminate; [destruct i; discriminate |].
  destruct i as [| i].
  - cbn in *. injection Hc as ->. unfold tr. cbn. lia.
  - rewrite tr_cons. cbn [firstn wsum]. cbn [firstn] in IH. cbn in Hc, Hl. rewrite (IH cs i c) by (assumption || lia). lia.
Qed.

Lemma elem_at : forall st (ls : list lit) i, olds st ls -> i < length ls -> elem st (ix ls i) (fun b => tr b ls i).
Proof. intros. now apply elem_ix. Qed.

Lemma encode_swc_ok : forall st ls cs rhs, olds st ls -> length ls = length cs -> (forall c, In c cs -> 1 <= c <= rhs) ->
  encodes st (encode_swc ls cs rhs) (fun b => wsum b ls cs <= rhs).
Proof.
  intros st ls cs rhs Ho Hlen Hc. unfold encodes, encode_swc. set (n := length ls) in *.
  eapply runs_bind.
  { apply alloc_rows_ok with (n := n) (k := rhs) (post := fun rows st' cls => cls = [] /\ length rows = n /\
      (forall row, In row rows -> length row = rhs /\ olds st' row) /\
      (forall al f, exists be, agree st st' al be /\ forall i j, i < n -> j < rhs -> ev be rows i j = f i j)). intuition. }
  intros rows st1 cls L1 _ (-> & Hn & Hrows & Hfree). cbn [app].
  assert (Ho1 : olds st1 ls) by solds.
  assert (He : forall i j, i < n -> j < rhs -> elem st1 (entry rows i j) (fun b => ev b rows i j)).
  { intros. eapply elem_entry; eauto. }
  set (w := fun i => nth i cs 0).
  assert (Hw : forall i, i < n -> nth_error cs i = Some (w i) /\ 1 <= w i <= rhs).
  { intros i Hi. destruct (ix_ok _ cs i) as [c [_ E]]; [lia |]. unfold w. rewrite (nth_error_nth cs i 0 E). split; [assumption |].
    apply Hc. eapply nth_error_In; eauto. }
  set (P := fun i (b : valuation) =>
    (forall j, j < rhs -> (1 <= i -> ev b rows (i - 1) j = true -> ev b rows i j = true)
      /\ (j < w i -> tr b ls i = true -> ev b rows i j = true)
      /\ (1 <= i -> j < rhs - w i -> ev b rows (i - 1) j = true -> tr b ls i = true -> ev b rows i (j + w i) = true))
    /\ (1 <= i -> ev b rows (i - 1) (rhs - w i) = true -> tr b ls i = false)).
  assert (HE : emits st1 (gfor (seq 0 n) (fun i =>
    wi <~ glift (ix cs i) ;;
    gassert (wi <=? rhs) ;;
    gfor (seq 0 rhs) (fun j =>
      gwhen (1 <=? i) (add_r [rneg (entry rows (i - 1) j); entry rows i j]) ;;
      gwhen (j <? wi) (add_r [rneg (ix ls i); entry rows i j]) ;;
      gwhen ((1 <=? i) && (j <? rhs - wi))
        (add_r [rneg (entry rows (i - 1) j); rneg (ix ls i); entry rows i (j + wi)])) ;;
    gwhen (1 <=? i) (add_r [rneg (entry rows (i - 1) (rhs - wi)); rneg (ix ls i)])))
    (fun b => forall i, In i (seq 0 n) -> P i b)).
  { apply emits_for. intros i Hi. apply in_seq in Hi. destruct (Hw i ltac:(lia)) as [Ew Bw].
    assert (Ex : ix cs i = Ok (w i)) by (unfold ix; now rewrite Ew). rewrite Ex.
    unfold gassert. cbn beta.
    assert (Hle : (w i <=? rhs) = true) by (apply Nat.leb_le; lia).
    eapply emits_iff with (P := fun b => P i b); [| tauto].
    match goal with |- emits _ (gbind (glift (Ok ?x)) ?k) _ => change (gbind (glift (Ok x)) k) with (gbind (gret x) k) end.
    assert (Hbind : forall (g : G unit) Q, emits st1 g Q -> emits st1 (gbind (gret (w i)) (fun _ => g)) Q).
    { intros g Q HQ. unfold emits, runs, gbind, gret in *. destruct HQ as (a & s' & c & E & R). rewrite E. exists a, s', c. cbn. auto. }
    apply (Hbind _ (P i)). rewrite Hle.
    eapply emits_iff.
    { apply emits_seq; [apply emits_ret |]. apply emits_seq.
      - apply emits_for with (P := fun j b => (1 <= i -> ev b rows (i - 1) j = true -> ev b rows i j = true)
          /\ (j < w i -> tr b ls i = true -> ev b rows i j = true)
          /\ (1 <= i -> j < rhs - w i -> ev b rows (i - 1) j = true -> tr b ls i = true -> ev b rows i (j + w i) = true)).
        intros j Hj. apply in_seq in Hj. eapply emits_iff.
        { apply emits_seq; [| apply emits_seq].
          - apply emits_when. intros H1. apply Nat.leb_le in H1.
            apply emits_elems with (ps := [fun b => negb (ev b rows (i - 1) j); fun b => ev b rows i j]).
            constructor; [apply elem_neg, He; lia | constructor; [apply He; lia | constructor]].
          - apply emits_when. intros H1. apply Nat.ltb_lt in H1.
            apply emits_elems with (ps := [fun b => negb (tr b ls i); fun b => ev b rows i j]).
            constructor; [apply elem_neg, elem_ix; [assumption | lia] | constructor; [apply He; lia | constructor]].
          - apply emits_when. intros H1. apply andb_prop in H1. destruct H1 as [H1 H2]. apply Nat.leb_le in H1. apply Nat.ltb_lt in H2.
            apply emits_elems with (ps := [fun b => negb (ev b rows (i - 1) j); fun b => negb (tr b ls i); fun b => ev b rows i (j + w i)]).
            constructor; [apply elem_neg, He; lia | constructor; [apply elem_neg, elem_ix; [assumption | lia] | constructor; [apply He; lia | constructor]]]. }
        intros b. cbn [anyb]. rewrite andb_true_iff, Nat.leb_le, !Nat.ltb_lt.
        generalize (ev b rows (i - 1) j) (ev b rows i j) (tr b ls i) (ev b rows i (j + w i)). intros x y z u.
        split; intros (X & Y & Z).
        + split; [intros H1; specialize (X H1) | split; [intros H1; specialize (Y H1) | intros H1 H2; specialize (Z (conj H1 H2))]];
            destruct x, y, z, u; cbn in *; congruence.
        + split; [intros H1; specialize (X H1) | split; [intros H1; specialize (Y H1) | intros [H1 H2]; specialize (Z H1 H2)]];
            destruct x, y, z, u; cbn in *; intuition congruence.
      - apply emits_when. intros H1. apply Nat.leb_le in H1.
        apply emits_elems with (ps := [fun b => negb (ev b rows (i - 1) (rhs - w i)); fun b => negb (tr b ls i)]).
        constructor; [apply elem_neg, He; lia | constructor; [apply elem_neg, elem_ix; [assumption | lia] | constructor]]. }
    intros b. unfold P. cbn [anyb]. rewrite Nat.leb_le.
    split.
    - intros (_ & H1 & H2). split; [intros j Hj; apply H1; apply in_seq; lia |]. intros H3 H4. specialize (H2 H3). rewrite H4 in H2.
      destruct (tr b ls i); cbn in H2; congruence.
    - intros (H1 & H2). split; [exact I |]. split; [intros j Hj; apply H1; apply in_seq in Hj; lia |]. intros H3. specialize (H2 H3).
      destruct (ev b rows (i - 1) (rhs - w i)), (tr b ls i); cbn; intuition. }
  eapply runs_conseq; [exact HE |]. cbn beta. intros _ st2 cls _ _ [-> Hs].
  set (W := fun b i => wsum b (firstn i ls) (firstn i cs)).
  assert (HW : forall b i, i < n -> W b (S i) = W b i + (if tr b ls i then w i else 0)).
  { intros b i Hi. apply wsum_firstn_S; [apply Hw; assumption | assumption]. }
  assert (Wn : forall b, wsum b ls cs = W b n).
  { intros b. unfold W. replace (firstn n ls) with ls by (symmetry; apply firstn_all). now rewrite Hlen, firstn_all. }
  split.
  - intros b Hb. pose proof (proj1 (Hs b) Hb) as Hb1. clear Hb. rename Hb1 into Hb.
    assert (Hind : forall i, i < n -> W b (S i) <= rhs /\ forall j, j < W b (S i) -> ev b rows i j = true).
    { induction i as [| i IH]; intros Hi.
      - rewrite HW by lia. replace (W b 0) with 0 by reflexivity. cbn [plus]. specialize (Hb 0). assert (H0 : In 0 (seq 0 n)) by (apply in_seq; lia).
        specialize (Hb H0). destruct Hb as [H1 _]. destruct (Hw 0 ltac:(lia)) as [_ Bw].
        destruct (tr b ls 0) eqn:E; split; try lia. intros j Hj. destruct (H1 j ltac:(lia)) as (_ & H2 & _). now apply H2.
      - destruct (IH ltac:(lia)) as [IH1 IH2]. rewrite HW by lia. specialize (Hb (S i)).
        assert (H0 : In (S i) (seq 0 n)) by (apply in_seq; lia). specialize (Hb H0). destruct Hb as [H1 H2].
        replace (S i - 1) with i in * by lia. destruct (Hw (S i) ltac:(lia)) as [_ Bw].
        destruct (tr b ls (S i)) eqn:E.
        + assert (W b (S i) <= rhs - w (S i)).
          { destruct (le_lt_dec (W b (S i)) (rhs - w (S i))) as [| Hgt]; [assumption |].
            specialize (H2 ltac:(lia) (IH2 _ Hgt)). congruence. }
          split; [lia |]. intros j Hj. destruct (le_lt_dec (w (S i)) j) as [Hj2 | Hj2].
          * replace j with (j - w (S i) + w (S i)) by lia. destruct (H1 (j - w (S i)) ltac:(lia)) as (_ & _ & H3).
            apply H3; [lia | lia | apply IH2; lia | reflexivity].
          * destruct (H1 j ltac:(lia)) as (_ & H3 & _). now apply H3.
        + split; [lia |]. intros j Hj. destruct (H1 j ltac:(lia)) as (H3 & _). apply H3; [lia | apply IH2; lia]. }
    rewrite Wn. destruct n as [| k] eqn:En; [unfold W; cbn; lia |]. apply Hind. lia.
  - intros a Ha. destruct (Hfree a (fun i j => j <? W a (S i))) as [b [A V]]. exists b. split; [assumption |]. apply Hs.
    rewrite Wn in Ha.
    assert (Hmono : forall i k, k <= n -> i <= k -> W a i <= W a k).
    { intros i k Hk Hik. induction Hik; [lia |]. rewrite HW by lia. specialize (IHHik ltac:(lia)). lia. }
    intros i Hi. apply in_seq in Hi. unfold P. rewrite (agree_tr st st1 a b) by assumption.
    destruct (Hw i ltac:(lia)) as [_ Bw]. pose proof (HW a i ltac:(lia)) as Hi1.
    assert (Hle : W a (S i) <= rhs) by (etransitivity; [apply (Hmono (S i) n); lia | assumption]).
    split.
    + intros j Hj. split; [| split].
      * intros H1. rewrite !V by lia. replace (S (i - 1)) with i by lia. rewrite !Nat.ltb_lt. lia.
      * intros H1 H2. rewrite H2 in Hi1. rewrite V by lia. apply Nat.ltb_lt. lia.
      * intros H1 H2 H3 H4. rewrite H4 in Hi1. rewrite V in H3 |- * by lia. replace (S (i - 1)) with i in H3 by lia. apply Nat.ltb_lt in H3. apply Nat.ltb_lt. lia.
    + intros H1 H2. rewrite V in H2 by lia. replace (S (i - 1)) with i in H2 by lia. apply Nat.ltb_lt in H2.
      destruct (tr a ls i); [lia | reflexivity].
Qed.

(* ------------------------------------------------------------------------------------------------------------------ *)
(** * Adder networks *)

Definition gate (st : ctrs) (g : G lit) (f : valuation -> bool) : Prop :=
  runs st g (fun x st' cls => old st' (lit_var x) /\ (forall b, sat b cls -> lit_sem b x = f b)
    /\ (forall a, exists b, agree st st' a b /\ sat b cls)).

Lemma gate_intro : forall st (body : lit -> G unit) (f : valuation -> bool),
  (forall st' x, cle st st' -> old st' (lit_var x) -> emits st' (body x) (fun b => lit_sem b x = f b)) ->
  (forall st' a b, agree st st' a b -> f b = f a) ->
  gate st (x <~ new_aux AuxPB ;; body x ;; gret x) f.
Proof.
  intros st body f He Hf. unfold gate. eapply runs_bind.
  { apply runs_new with (post := fun y st' cls => cls = [] /\ old st' (lit_var y) /\ (forall al v, exists be, agree st st' al be /\ lit_sem be y = v)). intuition. }
  intros x st1 cls L1 _ (-> & Ho & Hch). eapply runs_emits; [apply He; assumption |]. intros cls B Hs. cbn [app].
  apply runs_ret. rewrite app_nil_r. split; [assumption |]. split; [intros b Hb; now apply Hs |].
  intros a. destruct (Hch a (f a)) as [b [A V]]. exists b. split; [assumption |]. apply Hs. rewrite V. symmetry. now apply (Hf st1).
Qed.

Lemma emits_adds : forall st c, olds st c -> emits st (add c) (fun b => existsb (lit_sem b) c = true).
Proof.
  intros st c H. eapply emits_iff; [apply emits_add; assumption |]. intros b. rewrite existsb_exists. unfold csat. reflexivity.
Qed.

Ltac olds3 := repeat (apply olds_cons; split; [rewrite ?lit_negate_var; assumption |]); apply olds_nil.
Ltac gates :=
  eapply emits_iff;
  [ repeat match goal with |- emits _ (gbind _ _) _ => apply emits_seq end; apply emits_adds; olds3
  | let b := fresh "b" in intros b; cbn [existsb]; rewrite ?lit_sem_negate ].

Lemma gbind_assoc_ret : forall st A (g1 g2 : G A) P, (forall s, g1 s = g2 s) -> runs st g1 P -> runs st g2 P.
Proof. intros st A g1 g2 P E H. unfold runs in *. now rewrite <- E. Qed.

Lemma gbind_assoc : forall A (g1 g2 : G unit) (k : G A) s, (g1 ;; (g2 ;; k)) s = ((g1 ;; g2) ;; k) s.
Proof.
  intros A g1 g2 k s. unfold gbind. destruct (g1 s) as [[[a s1] c1] | |]; auto. destruct (g2 s1) as [[[b s2] c2] | |]; auto.
  destruct (k s2) as [[[c s3] c3] | |]; auto. now rewrite app_assoc.
Qed.

(** A body followed by the result, in the shape of [gate_intro]. *)
Lemma gate_ext : forall st (g1 g2 : G lit) f, (forall s, g1 s = g2 s) -> gate st g1 f -> gate st g2 f.
Proof. intros st g1 g2 f E H. unfold gate in *. eapply gbind_assoc_ret; eauto. Qed.

Lemma gbind_ext : forall A B (g : G A) (k1 k2 : A -> G B) s, (forall a s, k1 a s = k2 a s) -> gbind g k1 s = gbind g k2 s.
Proof. intros A B g k1 k2 s H. unfold gbind. destruct (g s) as [[[a s1] c1] | |]; auto. now rewrite H. Qed.

Definition xor3 (a b c : bool) : bool := xorb a (xorb b c).
Definition maj3 (a b c : bool) : bool := (a && b) || (a && c) || (b && c).

Ltac solve_gates :=
  match goal with |- context [lit_sem ?b ?x] => idtac | _ => idtac end;
  repeat match goal with |- context [lit_sem ?b ?x] => generalize (lit_sem b x); intro end;
  repeat match goal with y : bool |- _ => destruct y end; cbn; intuition congruence.

Lemma fa_sum_ok : forall st x y z, old st (lit_var x) -> old st (lit_var y) -> old st (lit_var z) ->
  gate st (fa_sum x y z) (fun b => xor3 (lit_sem b x) (lit_sem b y) (lit_sem b z)).
Proof.
  intros st x y z Hx Hy Hz.
  eapply gate_ext; [| apply gate_intro with (body := fun v => let n := lit_negate in
     add [x; y; z; n v] ;; add [x; n y; n z; n v] ;; add [n x; y; n z; n v] ;; add [n x; n y; z; n v] ;;
     add [n x; n y; n z; v] ;; add [n x; y; z; v] ;; add [x; n y; z; v] ;; add [x; y; n z; v])].
  - intros s. unfold fa_sum. apply gbind_ext. intros v s1. cbv zeta. symmetry. now rewrite <- !gbind_assoc.
  - intros st' v L Hv. cbv zeta. apply (old_mono _ _ _ L) in Hx. apply (old_mono _ _ _ L) in Hy. apply (old_mono _ _ _ L) in Hz. gates. unfold xor3. solve_gates.
  - intros st' a b A. now rewrite !(agree_lit st st' a b) by assumption.
Qed.

Lemma fa_carry_ok : forall st x y z, old st (lit_var x) -> old st (lit_var y) -> old st (lit_var z) ->
  gate st (fa_carry x y z) (fun b => maj3 (lit_sem b x) (lit_sem b y) (lit_sem b z)).
Proof.
  intros st x y z Hx Hy Hz.
  eapply gate_ext; [| apply gate_intro with (body := fun v => let n := lit_negate in
     add [y; z; n v] ;; add [x; z; n v] ;; add [x; y; n v] ;; add [n y; n z; v] ;; add [n x; n z; v] ;; add [n x; n y; v])].
  - intros s. unfold fa_carry. apply gbind_ext. intros v s1. cbv zeta. symmetry. now rewrite <- !gbind_assoc.
  - intros st' v L Hv. cbv zeta. apply (old_mono _ _ _ L) in Hx. apply (old_mono _ _ _ L) in Hy. apply (old_mono _ _ _ L) in Hz. gates. unfold maj3. solve_gates.
  - intros st' a b A. now rewrite !(agree_lit st st' a b) by assumption.
Qed.

Lemma ha_sum_ok : forall st x y, old st (lit_var x) -> old st (lit_var y) ->
  gate st (ha_sum x y) (fun b => xorb (lit_sem b x) (lit_sem b y)).
Proof.
  intros st x y Hx Hy.
  eapply gate_ext; [| apply gate_intro with (body := fun v => let n := lit_negate in
     add [n x; n y; n v] ;; add [x; y; n v] ;; add [n x; y; v] ;; add [x; n y; v])].
  - intros s. unfold ha_sum. apply gbind_ext. intros v s1. cbv zeta. symmetry. now rewrite <- !gbind_assoc.
  - intros st' v L Hv. cbv zeta. apply (old_mono _ _ _ L) in Hx. apply (old_mono _ _ _ L) in Hy. gates. solve_gates.
  - intros st' a b A. now rewrite !(agree_lit st st' a b) by assumption.
Qed.

Lemma ha_carry_ok : forall st x y, old st (lit_var x) -> old st (lit_var y) ->
  gate st (ha_carry x y) (fun b => lit_sem b x && lit_sem b y).
Proof.
  intros st x y Hx Hy.
  eapply gate_ext; [| apply gate_intro with (body := fun v => let n := lit_negate in
     add [x; n v] ;; add [y; n v] ;; add [n x; n y; v])].
  - intros s. unfold ha_carry. apply gbind_ext. intros v s1. cbv zeta. symmetry. now rewrite <- !gbind_assoc.
  - intros st' v L Hv. cbv zeta. apply (old_mono _ _ _ L) in Hx. apply (old_mono _ _ _ L) in Hy. gates. solve_gates.
  - intros st' a b A. now rewrite !(agree_lit st st' a b) by assumption.
Qed.

Lemma fa_extra_ok : forall st xs xc x y z, old st (lit_var xs) -> old st (lit_var xc) -> old st (lit_var x) -> old st (lit_var y) -> old st (lit_var z) ->
  exists P, emits st (fa_extra xs xc x y z) P
    /\ forall b, lit_sem b xs = xor3 (lit_sem b x) (lit_sem b y) (lit_sem b z) -> lit_sem b xc = maj3 (lit_sem b x) (lit_sem b y) (lit_sem b z) -> P b.
Proof.
  intros st xs xc x y z H1 H2 H3 H4 H5. eexists. split.
  - unfold fa_extra. cbv zeta. repeat match goal with |- emits _ (gbind _ _) _ => apply emits_seq end; apply emits_adds; olds3.
  - intros b E1 E2. cbn [existsb]. rewrite ?lit_sem_negate, E1, E2. unfold xor3, maj3. clear E1 E2. solve_gates.
Qed.

Definition oval (b : valuation) (o : option lit) : nat := match o with Some l => if lit_sem b l then 1 else 0 | None => 0 end.
Definition o_old (st : ctrs) (o : option lit) : Prop := match o with Some l => old st (lit_var l) | None => True end.

Lemma adder_bucket_ok : forall fuel bucket next st, length bucket <= fuel -> 1 <= fuel -> olds st bucket -> olds st next ->
  runs st (adder_bucket fuel bucket next) (fun r st' cls =>
    o_old st' (fst r) /\ olds st' (snd r) /\ length (snd r) = length next + length bucket / 2
    /\ (forall b, sat b cls -> oval b (fst r) + 2 * cnt b (snd r) = cnt b bucket + 2 * cnt b next)
    /\ (forall a, exists b, agree st st' a b /\ sat b cls)).
Proof.
  induction fuel as [| fuel IH]; intros bucket next st Hf H1 Hb Hn; [lia |]. cbn [adder_bucket].
  destruct bucket as [| x [| y [| z rest]]].
  - apply runs_ret. cbn. split; [exact I |]. split; [assumption |]. split; [lia |]. split; [lia |]. intros a. exists a. split; [apply agree_refl | apply sat_nil].
  - apply runs_ret. apply olds_cons in Hb. cbn [fst snd o_old oval cnt length]. split; [exact (proj1 Hb) |]. split; [assumption |]. split; [now rewrite Nat.add_0_r |]. split; [intros b _; lia |]. intros a. exists a. split; [apply agree_refl | apply sat_nil].
  - apply olds_cons in Hb. destruct Hb as [Hx Hb]. apply olds_cons in Hb. destruct Hb as [Hy _].
    eapply runs_bind; [apply ha_sum_ok; assumption |]. intros xs st1 c1 L1 B1 (O1 & S1 & C1).
    eapply runs_bind; [apply ha_carry_ok; eapply old_mono; eauto |]. intros xc st2 c2 L2 B2 (O2 & S2 & C2).
    apply runs_ret. cbn [fst snd o_old oval]. split; [eapply old_mono; eauto |]. split.
    { apply olds_app. split; [eapply olds_mono; [| exact Hn]; eapply cle_trans; eauto |]. apply olds_cons. split; [assumption | apply olds_nil]. }
    split; [rewrite app_length; reflexivity |]. split.
    + intros b Hb. apply sat_app in Hb. destruct Hb as [Hb1 Hb2]. apply sat_app in Hb2. destruct Hb2 as [Hb2 _].
      rewrite (S1 b Hb1), cnt_app. cbn [cnt]. rewrite (S2 b Hb2). destruct (lit_sem b x), (lit_sem b y); cbn; lia.
    + intros a. destruct (C1 a) as [b1 [A1 V1]]. destruct (C2 b1) as [b2 [A2 V2]]. exists b2. split; [eapply agree_trans; eauto |].
      apply sat_app. split; [eapply agree_sat; eauto |]. rewrite app_nil_r. assumption.
  - apply olds_cons in Hb. destruct Hb as [Hx Hb]. apply olds_cons in Hb. destruct Hb as [Hy Hb]. apply olds_cons in Hb. destruct Hb as [Hz Hr].
    eapply runs_bind; [apply fa_sum_ok; assumption |]. intros xs st1 c1 L1 B1 (O1 & S1 & C1).
    eapply runs_bind; [apply fa_carry_ok; eapply old_mono; eauto |]. intros xc st2 c2 L2 B2 (O2 & S2 & C2).
    assert (L02 : cle st st2) by (eapply cle_trans; eauto).
    destruct (fa_extra_ok st2 xs xc x y z) as [P [EP HP]];
      [exact (old_mono _ _ _ L2 O1) | exact O2 | exact (old_mono _ _ _ L02 Hx) | exact (old_mono _ _ _ L02 Hy) | exact (old_mono _ _ _ L02 Hz) |].
    eapply runs_emits; [exact EP |]. intros c3 B3 S3. cbn [length] in Hf.
    eapply runs_conseq.
    { apply IH; [rewrite app_length; cbn; lia | lia | |].
      - apply olds_app. split; [exact (olds_mono _ _ _ L02 Hr) |]. apply olds_cons. split; [exact (old_mono _ _ _ L2 O1) | apply olds_nil].
      - apply olds_app. split; [exact (olds_mono _ _ _ L02 Hn) |]. apply olds_cons. split; [assumption | apply olds_nil]. }
    intros r st3 c4 L3 B4 (O4 & O5 & HL & S4 & C4). split; [assumption |]. split; [assumption |]. split.
    { rewrite HL, !app_length. cbn [length]. replace (length rest + 1) with (S (length rest)) by lia.
      replace (S (S (S (length rest)))) with (S (length rest) + 1 * 2) by lia. rewrite Nat.div_add by lia. lia. }
    split.
    + intros b Hb. apply sat_app in Hb. destruct Hb as [Hb1 Hb]. apply sat_app in Hb. destruct Hb as [Hb2 Hb]. apply sat_app in Hb. destruct Hb as [_ Hb4].
      rewrite (S4 b Hb4), !cnt_app. cbn [cnt]. rewrite (S1 b Hb1), (S2 b Hb2). unfold xor3, maj3. destruct (lit_sem b x), (lit_sem b y), (lit_sem b z); cbn; lia.
    + intros a. destruct (C1 a) as [b1 [A1 V1]]. destruct (C2 b1) as [b2 [A2 V2]]. destruct (C4 b2) as [b3 [A3 V3]]. exists b3.
      assert (V12 : sat b2 c1) by exact (agree_sat _ _ _ _ _ A2 B1 V1).
      split; [exact (agree_trans _ _ _ _ _ _ L02 L3 (agree_trans _ _ _ _ _ _ L1 L2 A1 A2) A3) |].
      apply sat_app. split; [exact (agree_sat _ _ _ _ _ A3 (bounded_mono _ _ _ L2 B1) V12) |].
      apply sat_app. split; [exact (agree_sat _ _ _ _ _ A3 B2 V2) |]. apply sat_app. split; [| assumption].
      apply (agree_sat _ _ _ _ _ A3 B3). apply S3. apply HP; auto.
Qed.

(** The value of the buckets and of the result bits. *)
Fixpoint bval (b : valuation) (buckets : list (list lit)) : nat :=
  match buckets with [] => 0 | bk :: r => cnt b bk + 2 * bval b r end.
Fixpoint rval (b : valuation) (xs : list olit) : nat :=
  match xs with [] => 0 | x :: r => oval b x + 2 * rval b r end.

Lemma agree_bval : forall st st' a b bs, agree st st' a b -> (forall bk, In bk bs -> olds st bk) -> bval b bs = bval a bs.
Proof.
  intros st st' a b. induction bs as [| bk bs IH]; intros A H; cbn; [reflexivity |].
  rewrite (agree_cnt st st' a b) by (auto; apply H; now left). rewrite IH; auto. intros k Hk. apply H. now right.
Qed.

Lemma adder_tree_ok : forall fuel bs st, length bs + length (concat bs) < fuel -> (forall bk, In bk bs -> olds st bk) ->
  runs st (adder_tree fuel bs) (fun xs st' cls =>
    (forall x, In x xs -> o_old st' x) /\ length bs <= length xs
    /\ (forall b, sat b cls -> rval b xs = bval b bs)
    /\ (forall a, exists b, agree st st' a b /\ sat b cls)).
Proof.
  induction fuel as [| fuel IH]; intros bs st Hf Ho; [lia |]. cbn [adder_tree].
  destruct bs as [| bk rest].
  { apply runs_ret. split; [intros x [] |]. split; [cbn; lia |]. split; [reflexivity |]. intros a. exists a. split; [apply agree_refl | apply sat_nil]. }
  destruct bk as [| x0 bk0].
  { eapply runs_bind; [apply IH; [cbn in Hf; lia | intros k Hk; apply Ho; now right] |]. intros xs st1 cls L1 B1 (O1 & Hl & S1 & C1).
    apply runs_ret. rewrite app_nil_r. split; [intros x [<- | Hx]; [exact I | auto] |]. split; [cbn; lia |]. split; [| assumption].
    intros b Hb. cbn. rewrite (S1 b Hb). lia. }
  set (bk := x0 :: bk0) in *. set (rest1 := match rest with [] => if 2 <=? length bk then [[]] else [] | _ => rest end).
  assert (Hv : forall b, bval b rest1 = bval b rest).
  { intros b. unfold rest1. destruct rest; [destruct (2 <=? length bk) |]; reflexivity. }
  assert (Hin : forall k, In k rest1 -> olds st k).
  { intros k Hk. unfold rest1 in Hk. destruct rest as [| r0 rr]; [destruct (2 <=? length bk) |].
    - destruct Hk as [<- | []]. apply olds_nil.
    - destruct Hk.
    - apply Ho. right. assumption. }
  assert (Hbk : olds st bk) by (apply Ho; now left).
  destruct rest1 as [| next rest2] eqn:E1.
  - unfold rest1 in E1. destruct rest as [| r0 rr]; [| discriminate]. destruct (2 <=? length bk) eqn:E2; [discriminate |].
    apply Nat.leb_gt in E2. unfold bk in *. destruct bk0; [| cbn in E2; lia]. apply runs_ret.
    split; [intros x [<- | []]; apply Hbk; now left |]. split; [cbn; lia |]. split; [intros b _; cbn; lia |].
    intros a. exists a. split; [apply agree_refl | apply sat_nil].
  - eapply runs_bind.
    { apply adder_bucket_ok; [lia | cbn; lia | assumption | apply Hin; now left]. }
    intros [o nx] st1 c1 L1 B1 (O1 & O2 & HL & S1 & C1). cbn [fst snd] in *.
    assert (Hlen : length (next :: rest2) + length (concat (next :: rest2)) <= length rest + length (concat rest) + 1
                   /\ (length bk = 1 -> length (next :: rest2) + length (concat (next :: rest2)) <= length rest + length (concat rest))).
    { rewrite <- E1. unfold rest1. destruct rest as [| r0 rr]; [| lia]. destruct (2 <=? length bk) eqn:E2; cbn [length concat app]; [apply Nat.leb_le in E2; lia |]. split; intros; lia. }
    assert (Hdec : length bk / 2 + 1 <= length bk) by (unfold bk; cbn [length]; pose proof (Nat.div_lt (S (length bk0)) 2); lia).
    eapply runs_bind.
    { apply IH.
      - cbn [length concat] in Hf, Hlen |- *. rewrite app_length in Hf, Hlen |- *. rewrite HL. fold bk in Hf.
        destruct (Nat.eq_dec (length bk) 1) as [E | E]; [destruct Hlen as [_ Hlen]; specialize (Hlen E); lia |].
        assert (length bk / 2 + 1 + 1 <= length bk + 1) by lia. lia.
      - intros k [<- | Hk]; [assumption |]. eapply olds_mono; [exact L1 |]. apply Hin. now right. }
    intros xs st2 c2 L2 B2 (O3 & Hl & S2 & C2). apply runs_ret. rewrite app_nil_r.
    split; [intros x [<- | Hx]; [destruct o as [l |]; [cbn in *; eapply old_mono; eauto | exact I] | auto] |].
    split.
    { assert (length rest <= length (next :: rest2)).
      { rewrite <- E1. unfold rest1. destruct rest; [cbn; lia | lia]. }
      cbn [length] in *. lia. }
    split.
    + intros b Hb. apply sat_app in Hb. destruct Hb as [Hb1 Hb2]. cbn [rval bval]. rewrite (S2 b Hb2). cbn [bval].
      specialize (S1 b Hb1). specialize (Hv b). cbn [bval] in Hv. lia.
    + intros a. destruct (C1 a) as [b1 [A1 V1]]. destruct (C2 b1) as [b2 [A2 V2]]. exists b2. split; [eapply agree_trans; eauto |].
      apply sat_app. split; [eapply agree_sat; eauto | assumption].
Qed.

(** The comparison. *)
Lemma le_tail_ok : forall b xs rhs j,
  (match le_tail xs rhs j with Some c => csat b c | None => True end)
  <-> ~ (forall i, i < length xs -> oval b (nth i xs None) = if Nat.testbit rhs (j + i) then 1 else 0).
Proof.
  intros b. induction xs as [| x rest IH]; intros rhs j.
  - cbn. split; [intros H; now apply csat_nil in H | intros H; exfalso; apply H; intros i Hi; lia].
  - specialize (IH rhs (S j)).
    set (Q := forall i, i < length rest -> oval b (nth i rest None) = if Nat.testbit rhs (S j + i) then 1 else 0) in *.
    assert (HQ : (forall i, i < length (x :: rest) -> oval b (nth i (x :: rest) None) = if Nat.testbit rhs (j + i) then 1 else 0)
                 <-> oval b x = (if Nat.testbit rhs j then 1 else 0) /\ Q).
    { split.
      - intros H. split; [specialize (H 0 ltac:(cbn; lia)); now rewrite Nat.add_0_r in H |].
        intros i Hi. specialize (H (S i) ltac:(cbn; lia)). cbn [nth] in H. rewrite H. now replace (j + S i) with (S j + i) by lia.
      - intros [H1 H2] [| i] Hi; [now rewrite Nat.add_0_r |]. cbn [nth]. replace (j + S i) with (S j + i) by lia. apply H2. cbn in Hi. lia. }
    rewrite HQ. clear HQ. cbn [le_tail]. destruct (Nat.testbit rhs j), x as [l |]; cbn [oval].
    + destruct (le_tail rest rhs (S j)) as [c |].
      * rewrite csat_cons, IH, lit_sem_negate. destruct (lit_sem b l); cbn; intuition (try lia; try discriminate).
      * destruct (lit_sem b l); intuition (try lia; try discriminate).
    + split; [intros _ [H _]; discriminate | auto].
    + destruct (le_tail rest rhs (S j)) as [c |].
      * rewrite csat_cons, IH. destruct (lit_sem b l); cbn; intuition (try lia; try discriminate).
      * destruct (lit_sem b l); intuition (try lia; try discriminate).
    + rewrite IH. intuition.
Qed.

Lemma le_tail_olds : forall st xs rhs j c, (forall x, In x xs -> o_old st x) -> le_tail xs rhs j = Some c -> olds st c.
Proof.
  intros st. induction xs as [| x rest IH]; intros rhs j c Ho E; cbn [le_tail] in E.
  - injection E as <-. apply olds_nil.
  - assert (Hr : forall y, In y rest -> o_old st y) by (intros; apply Ho; now right).
    assert (Hx : o_old st x) by (apply Ho; now left).
    destruct (Nat.testbit rhs j), x as [l |]; try discriminate.
    + destruct (le_tail rest rhs (S j)) eqn:E2; [| discriminate]. injection E as <-. apply olds_cons. rewrite lit_negate_var. split; [exact Hx | eapply IH; eauto].
    + destruct (le_tail rest rhs (S j)) eqn:E2; [| discriminate]. injection E as <-. apply olds_cons. split; [exact Hx | eapply IH; eauto].
    + eapply IH; eauto.
Qed.

Lemma testbit_odd : forall r i, (if Nat.testbit r i then 1 else 0) = (r / 2 ^ i) mod 2.
Proof. intros r i. rewrite <- Nat.testbit_spec'. now destruct (Nat.testbit r i). Qed.

Lemma rval_bound : forall b xs, rval b xs < 2 ^ length xs.
Proof.
  intros b. induction xs as [| x xs IH]; cbn [rval length Nat.pow]; [lia |].
  assert (oval b x <= 1) by (destruct x as [l |]; cbn; [destruct (lit_sem b l) |]; lia). lia.
Qed.

Lemma rval_bits : forall b xs r, r < 2 ^ length xs ->
  ((forall i, i < length xs -> oval b (nth i xs None) = (r / 2 ^ i) mod 2) <-> rval b xs = r).
Proof.
  intros b. induction xs as [| x xs IH]; intros r Hr.
  - cbn in *. split; [lia | intros _ i Hi; lia].
  - cbn [length Nat.pow] in Hr. pose proof (Nat.div_mod r 2 ltac:(lia)) as Hdm.
    assert (Hr2 : r / 2 < 2 ^ length xs) by (apply Nat.div_lt_upper_bound; lia).
    specialize (IH (r / 2) Hr2). cbn [rval].
    assert (Hm : r mod 2 < 2) by (apply Nat.mod_upper_bound; lia).
    assert (Ho : oval b x <= 1) by (destruct x as [l |]; cbn; [destruct (lit_sem b l) |]; lia).
    split.
    + intros H. pose proof (H 0 ltac:(cbn; lia)) as H0. cbn [nth Nat.pow] in H0. rewrite Nat.div_1_r in H0.
      assert (rval b xs = r / 2).
      { apply IH. intros i Hi. specialize (H (S i) ltac:(cbn; lia)). cbn [nth Nat.pow] in H. rewrite Nat.div_div by (try lia; apply Nat.pow_nonzero; lia). assumption. }
      lia.
    + intros H. assert (E0 : oval b x = r mod 2) by lia. assert (E1 : rval b xs = r / 2) by lia.
      intros [| i] Hi; [cbn [nth Nat.pow]; now rewrite Nat.div_1_r |]. cbn [nth Nat.pow].
      rewrite <- Nat.div_div by (try lia; apply Nat.pow_nonzero; lia). apply IH; [assumption | cbn in Hi; lia].
Qed.

Lemma lte_ok : forall st xs rhs i, (forall x, In x xs -> o_old st x) -> rhs / 2 ^ i < 2 ^ length xs ->
  emits st (less_than_or_equal xs rhs i) (fun b => rval b xs <= rhs / 2 ^ i).
Proof.
  intros st. induction xs as [| x rest IH]; intros rhs i Ho Hr; cbn [less_than_or_equal].
  - eapply emits_iff; [apply emits_ret |]. intros b. cbn. split; [lia | auto].
  - assert (Hrest : forall y, In y rest -> o_old st y) by (intros; apply Ho; now right).
    assert (Hx : o_old st x) by (apply Ho; now left).
    assert (Hdd : rhs / 2 ^ S i = rhs / 2 ^ i / 2).
    { cbn [Nat.pow]. rewrite (Nat.mul_comm 2), Nat.div_div by (try lia; apply Nat.pow_nonzero; lia). reflexivity. }
    assert (Hr2 : rhs / 2 ^ S i < 2 ^ length rest).
    { rewrite Hdd. cbn [length Nat.pow] in Hr. apply Nat.div_lt_upper_bound; lia. }
    set (P := fun b => ~ (oval b x = 1 /\ Nat.testbit rhs i = false /\ rval b rest = rhs / 2 ^ S i)).
    eapply emits_iff with (P := fun b => P b /\ rval b rest <= rhs / 2 ^ S i).
    + apply emits_seq; [| apply IH; assumption].
      destruct x as [l |]; [| eapply emits_iff; [apply emits_ret |]; intros b; unfold P; cbn; intuition discriminate].
      destruct (Nat.testbit rhs i) eqn:Eb; [eapply emits_iff; [apply emits_ret |]; intros b; unfold P; intuition discriminate |].
      assert (Hbits : forall b, (match le_tail rest rhs (S i) with Some c => csat b c | None => True end) <-> rval b rest <> rhs / 2 ^ S i).
      { intros b. rewrite le_tail_ok, <- (rval_bits b rest _ Hr2). apply not_iff_compat.
        assert (E : forall k, (if Nat.testbit rhs (S i + k) then 1 else 0) = (rhs / 2 ^ S i / 2 ^ k) mod 2).
        { intros k. rewrite testbit_odd, Nat.pow_add_r, Nat.div_div by (apply Nat.pow_nonzero; lia). reflexivity. }
        split; intros H k Hk; specialize (H k Hk); [exact (eq_trans H (E k)) | exact (eq_trans H (eq_sym (E k)))]. }
      destruct (le_tail rest rhs (S i)) as [c |] eqn:Et.
      * eapply emits_iff.
        { apply emits_add. apply olds_app. split; [eapply le_tail_olds; eauto |]. apply olds_cons. rewrite lit_negate_var. split; [exact Hx | apply olds_nil]. }
        intros b. rewrite csat_app, Hbits, csat_cons, lit_sem_negate. unfold P. cbn [oval].
        pose proof (csat_nil b) as Hn. destruct (Nat.eq_dec (rval b rest) (rhs / 2 ^ S i)) as [E | E]; destruct (lit_sem b l); cbn;
          split; intros H; try (left; exact E); try tauto; try (intros (? & ? & ?); try discriminate; tauto); intuition discriminate.
      * eapply emits_iff; [apply emits_ret |]. intros b. unfold P. split; [| auto]. intros _ (_ & _ & H). now apply (proj1 (Hbits b) I).
    + intros b. unfold P. cbn [rval]. rewrite Hdd. pose proof (testbit_odd rhs i) as Hb.
      set (q := rhs / 2 ^ i) in *. pose proof (Nat.div_mod q 2 ltac:(lia)).
      assert (Hov : oval b x <= 1) by (destruct x as [l |]; cbn; [destruct (lit_sem b l) |]; lia).
      destruct (Nat.testbit rhs i); split; intros H0; try lia.
Qed.

(** Bits. *)
Fixpoint hsum (n k : nat) (f : nat -> nat) : nat := match n with O => 0 | S n' => f k + 2 * hsum n' (S k) f end.

Lemma hsum_ext : forall n k f g, (forall i, f i = g i) -> hsum n k f = hsum n k g.
Proof. induction n as [| n IH]; intros k f g H; cbn; [reflexivity |]. now rewrite H, (IH _ f g H). Qed.
Lemma hsum_add : forall n k f g, hsum n k (fun i => f i + g i) = hsum n k f + hsum n k g.
Proof. induction n as [| n IH]; intros k f g; cbn [hsum]; [reflexivity |]. rewrite IH. lia. Qed.
Lemma hsum_zero : forall n k, hsum n k (fun _ => 0) = 0.
Proof. induction n as [| n IH]; intros k; cbn [hsum]; [reflexivity |]. now rewrite IH. Qed.

Lemma hsum_bit : forall n k c, hsum n k (fun i => if Nat.testbit c i then 1 else 0) = (c / 2 ^ k) mod 2 ^ n.
Proof.
  induction n as [| n IH]; intros k c; cbn [hsum]; [rewrite Nat.mod_1_r; reflexivity |].
  rewrite IH, testbit_odd. cbn [Nat.pow]. set (q := c / 2 ^ k).
  replace (c / (2 * 2 ^ k)) with (q / 2) by (unfold q; rewrite Nat.div_div, (Nat.mul_comm 2) by (try lia; apply Nat.pow_nonzero; lia); reflexivity).
  rewrite Nat.mod_mul_r by (try lia; apply Nat.pow_nonzero; lia). lia.
Qed.

Lemma hsum_small : forall n c, c < 2 ^ n -> hsum n 0 (fun i => if Nat.testbit c i then 1 else 0) = c.
Proof. intros n c H. rewrite hsum_bit. cbn [Nat.pow]. now rewrite Nat.div_1_r, Nat.mod_small. Qed.

Lemma bval_map : forall b (F : nat -> list lit) n k, bval b (map F (seq k n)) = hsum n k (fun i => cnt b (F i)).
Proof. intros b F. induction n as [| n IH]; intros k; cbn [map seq bval hsum]; [reflexivity |]. now rewrite IH. Qed.

Lemma hsum_bit_lits : forall b n ls cs, (forall c, In c cs -> c < 2 ^ n) -> hsum n 0 (fun i => cnt b (bit_lits ls cs i)) = wsum b ls cs.
Proof.
  intros b n. induction ls as [| l ls IH]; intros [| c cs] H; cbn [bit_lits wsum cnt]; try apply hsum_zero.
  rewrite (hsum_ext _ _ _ (fun i => (if lit_sem b l then if Nat.testbit c i then 1 else 0 else 0) + cnt b (bit_lits ls cs i))).
  - rewrite hsum_add, IH by (intros d Hd; apply H; now right). f_equal.
    destruct (lit_sem b l); [apply hsum_small, H; now left | apply hsum_zero].
  - intros i. destruct (Nat.testbit c i); cbn [cnt]; destruct (lit_sem b l); reflexivity.
Qed.

Lemma bit_lits_in : forall ls cs i l, In l (bit_lits ls cs i) -> In l ls.
Proof.
  induction ls as [| x ls IH]; intros [| c cs] i l H; cbn in *; try contradiction.
  destruct (Nat.testbit c i); [destruct H as [<- | H] |]; eauto.
Qed.

Lemma ld_int_bound : forall r, r < 2 ^ ld_int r.
Proof. intros [| r]; cbn [ld_int]; [cbn; lia |]. apply Nat.log2_spec. lia. Qed.

Lemma encode_adder_networks_ok : forall st ls cs rhs, olds st ls -> (forall c, In c cs -> c <= rhs) ->
  encodes st (encode_adder_networks ls cs rhs) (fun b => wsum b ls cs <= rhs).
Proof.
  intros st ls cs rhs Ho Hc. unfold encodes, encode_adder_networks. set (nb := ld_int rhs).
  set (bs := map (fun i => rev (bit_lits ls cs i)) (seq 0 nb)).
  assert (Hb : forall bk, In bk bs -> olds st bk).
  { intros bk Hbk. unfold bs in Hbk. apply in_map_iff in Hbk. destruct Hbk as [i [<- _]]. apply olds_rev.
    intros l Hl. apply Ho. eapply bit_lits_in; eauto. }
  assert (Hv : forall b, bval b bs = wsum b ls cs).
  { intros b. unfold bs. rewrite bval_map. rewrite (hsum_ext _ _ _ (fun i => cnt b (bit_lits ls cs i))) by (intros; apply cnt_rev).
    apply hsum_bit_lits. intros c Hin. apply Hc in Hin. pose proof (ld_int_bound rhs). fold nb in H. lia. }
  eapply runs_bind; [apply adder_tree_ok; [lia | assumption] |]. intros xs st1 c1 L1 B1 (O1 & Hl & S1 & C1).
  assert (Hbd : rhs / 2 ^ 0 < 2 ^ length xs).
  { cbn [Nat.pow]. rewrite Nat.div_1_r. eapply Nat.lt_le_trans; [apply ld_int_bound |]. apply Nat.pow_le_mono_r; [lia |].
    unfold bs in Hl. rewrite map_length, seq_length in Hl. exact Hl. }
  eapply runs_conseq; [apply (lte_ok st1 xs rhs 0 O1 Hbd) |]. cbn beta. intros _ st2 c2 _ _ [-> S2]. cbn [Nat.pow] in S2. rewrite Nat.div_1_r in S2.
  split.
  - intros b Hsat. apply sat_app in Hsat. destruct Hsat as [H1 H2]. apply S2 in H2. now rewrite <- Hv, <- (S1 b H1).
  - intros a Ha. destruct (C1 a) as [b [A V]]. exists b. split; [assumption |]. apply sat_app. split; [assumption |]. apply S2.
    rewrite (S1 b V), Hv, (agree_wsum st st1 a b); assumption.
Qed.

(* ------------------------------------------------------------------------------------------------------------------ *)
(** * Binary merge *)

Definition full_merge (st : ctrs) (u v : list lit) (out : list lit) (st' : ctrs) (cls : list clause) : Prop :=
  length out = length u + length v /\ olds st' out /\ (forall b, sat b cls -> merge_up b u v out)
  /\ (forall a x y, canon a u x -> canon a v y -> x <= length u -> y <= length v ->
        exists b, agree st st' a b /\ sat b cls /\ canon b out (x + y)).

Lemma unary_adder_ok : forall st u v, olds st u -> olds st v -> runs st (unary_adder u v) (full_merge st u v).
Proof.
  intros st u v Ou Ov. unfold full_merge, unary_adder.
  destruct u as [| u0 u'].
  { apply runs_ret. split; [cbn; lia |]. split; [assumption |]. split.
    - intros b _ i j k Hi Hj Hk _. apply lead_len in Hi. cbn in Hi. apply Hj. lia.
    - intros a x y _ Hy Hx _. cbn in Hx. exists a. split; [apply agree_refl |]. split; [apply sat_nil |]. now replace (x + y) with y by lia. }
  destruct v as [| v0 v'].
  { apply runs_ret. split; [cbn [length]; lia |]. split; [assumption |]. split.
    - intros b _ i j k Hi Hj Hk _. apply lead_len in Hj. cbn in Hj. apply Hi. lia.
    - intros a x y Hx _ _ Hy. cbn in Hy. exists a. split; [apply agree_refl |]. split; [apply sat_nil |]. now replace (x + y) with x by lia. }
  set (u := u0 :: u') in *. set (v := v0 :: v') in *.
  eapply runs_bind.
  { apply runs_allocs with (post := fun ys st' cls => cls = [] /\ length ys = length u + length v /\ olds st' ys /\ free_choice st st' ys). intuition. }
  intros w st1 c1 L1 _ (-> & Hl & Ow & Hf). cbn [app].
  assert (Ou1 : olds st1 u) by solds. assert (Ov1 : olds st1 v) by solds.
  eapply runs_emits.
  { apply emits_for with (P := fun i b => forall j, In j (seq 0 (length v)) -> tr b u i = true -> tr b v j = true -> tr b w (i + j + 1) = true).
    intros i Hi. apply in_seq in Hi. apply emits_for with (P := fun j b => tr b u i = true -> tr b v j = true -> tr b w (i + j + 1) = true).
    intros j Hj. apply in_seq in Hj. eapply emits_iff.
    { apply emits_elems with (ps := [fun b => negb (tr b u i); fun b => negb (tr b v j); fun b => tr b w (i + j + 1)]). elems. }
    intros b. cbn [anyb]. destruct (tr b u i), (tr b v j), (tr b w (i + j + 1)); cbn; intuition congruence. }
  intros c2 B2 S2.
  eapply runs_emits.
  { apply emits_for with (P := fun i b => tr b v i = true -> tr b w i = true). intros i Hi. apply in_seq in Hi. eapply emits_iff.
    { apply emits_elems with (ps := [fun b => negb (tr b v i); fun b => tr b w i]). elems. }
    intros b. cbn [anyb]. destruct (tr b v i), (tr b w i); cbn; intuition congruence. }
  intros c3 B3 S3.
  eapply runs_emits.
  { apply emits_for with (P := fun i b => tr b u i = true -> tr b w i = true). intros i Hi. apply in_seq in Hi. eapply emits_iff.
    { apply emits_elems with (ps := [fun b => negb (tr b u i); fun b => tr b w i]). elems. }
    intros b. cbn [anyb]. destruct (tr b u i), (tr b w i); cbn; intuition congruence. }
  intros c4 B4 S4. apply runs_ret. rewrite app_nil_r. split; [assumption |]. split; [assumption |].
  assert (HS : forall b, sat b (c2 ++ c3 ++ c4) <->
     (forall i, In i (seq 0 (length u)) -> forall j, In j (seq 0 (length v)) -> tr b u i = true -> tr b v j = true -> tr b w (i + j + 1) = true)
     /\ (forall i, In i (seq 0 (length v)) -> tr b v i = true -> tr b w i = true)
     /\ (forall i, In i (seq 0 (length u)) -> tr b u i = true -> tr b w i = true)).
  { intros b. rewrite !sat_app, S2, S3, S4. reflexivity. }
  split.
  - intros b Hb. apply HS in Hb. destruct Hb as (H2 & H3 & H4). intros i j k Hi Hj Hk Hkl.
    pose proof (lead_len _ _ _ Hi). pose proof (lead_len _ _ _ Hj).
    destruct (le_lt_dec i k) as [Hik | Hik].
    + destruct i as [| i]; [apply H3; [apply in_seq; lia | apply Hj; lia] |].
      replace k with (i + (k - S i) + 1) by lia. apply H2; [apply in_seq; lia | apply in_seq; lia | apply Hi; lia | apply Hj; lia].
    + apply H4; [apply in_seq; lia | apply Hi; lia].
  - intros a x y Hx Hy Lx Ly. destruct (Hf a (fun i => i <? x + y)) as [b [A V]]. exists b. split; [assumption |].
    assert (Cw : canon b w (x + y)) by (intros i Hi; apply V; lia). split; [| assumption].
    apply HS. rewrite Hl in V. assert (Cu : canon b u x) by exact (agree_canon _ _ _ _ _ _ A Ou Hx). assert (Cv : canon b v y) by exact (agree_canon _ _ _ _ _ _ A Ov Hy).
    repeat split.
    + intros i Hi j Hj Ti Tj. apply in_seq in Hi. apply in_seq in Hj. rewrite Cu in Ti by lia. rewrite Cv in Tj by lia.
      apply Nat.ltb_lt in Ti. apply Nat.ltb_lt in Tj. rewrite V by lia. apply Nat.ltb_lt. lia.
    + intros j Hj Tj. apply in_seq in Hj. rewrite Cv in Tj by lia. apply Nat.ltb_lt in Tj. rewrite V by lia. apply Nat.ltb_lt. lia.
    + intros i Hi Ti. apply in_seq in Hi. rewrite Cu in Ti by lia. apply Nat.ltb_lt in Ti. rewrite V by lia. apply Nat.ltb_lt. lia.
Qed.

Lemma canon_one : forall b (x : lit) k, tr b [x] k = (k <? cnt b [x]).
Proof. intros b x [| k]; unfold tr; cbn; destruct (lit_sem b x); cbn; try reflexivity; destruct k; reflexivity. Qed.

Lemma pb_totalizer_ok : forall fuel x st, length x < fuel -> olds st x ->
  runs st (pb_totalizer fuel x) (usort_post (length x) x st).
Proof.
  induction fuel as [| fuel IH]; intros x st Hf Ho; [lia |]. cbn [pb_totalizer].
  destruct (Nat.leb_spec (length x) 1) as [H1 | H1].
  { apply runs_ret. split; [reflexivity |]. split; [assumption |].
    destruct x as [| y [| z x]]; [| | cbn in H1; lia].
    - split; [intros b _ k Hk; cbn in Hk; lia |]. intros a. exists a. split; [apply agree_refl |]. split; [apply sat_nil |]. intros i Hi. cbn in Hi. lia.
    - split; [intros b _ k _ Hk; rewrite canon_one; now apply Nat.ltb_lt |]. intros a. exists a. split; [apply agree_refl |]. split; [apply sat_nil |]. intros i _. apply canon_one. }
  set (h := length x / 2). assert (Hh : 1 <= h < length x).
  { unfold h. split; [apply Nat.div_le_lower_bound; lia | apply Nat.div_lt; lia]. }
  assert (Lf : length (firstn h x) = h) by (rewrite firstn_length; lia).
  assert (Ls : length (skipn h x) = length x - h) by apply skipn_length.
  eapply runs_bind; [apply IH; [lia | now apply olds_firstn] |]. intros u1 st1 c1 L1 B1 (E1 & O1 & S1 & C1). rewrite Lf in E1.
  eapply runs_bind; [apply IH; [lia | apply (olds_mono _ _ _ L1); now apply olds_skipn] |]. intros u2 st2 c2 L2 B2 (E2 & O2 & S2 & C2). rewrite Ls in E2.
  eapply runs_conseq; [apply unary_adder_ok; [exact (olds_mono _ _ _ L2 O1) | assumption] |].
  intros w st3 c3 L3 B3 (E3 & O3 & S3 & C3). split; [lia |]. split; [assumption |]. split.
  - intros b Hb. apply sat_app in Hb. destruct Hb as [Hb1 Hb]. apply sat_app in Hb. destruct Hb as [Hb2 Hb3].
    intros k Hk Hc. rewrite (cnt_split b h) in Hc. pose proof (cnt_le b (firstn h x)). pose proof (cnt_le b (skipn h x)).
    apply (S3 b Hb3 (cnt b (firstn h x)) (cnt b (skipn h x)) k); [| | assumption | assumption].
    + intros i Hi. apply (S1 b Hb1); lia.
    + intros i Hi. apply (S2 b Hb2); lia.
  - intros a. destruct (C1 a) as (b1 & A1 & V1 & K1). destruct (C2 b1) as (b2 & A2 & V2 & K2).
    destruct (C3 b2 (cnt a (firstn h x)) (cnt b1 (skipn h x))) as (b3 & A3 & V3 & K3).
    + exact (agree_canon _ _ _ _ _ _ A2 O1 K1).
    + exact K2.
    + pose proof (cnt_le a (firstn h x)). lia.
    + pose proof (cnt_le b1 (skipn h x)). lia.
    + exists b3. split; [exact (agree_trans _ _ _ _ _ _ L1 (cle_trans _ _ _ L2 L3) A1 (agree_trans _ _ _ _ _ _ L2 L3 A2 A3)) |].
      split.
      * apply sat_app. split; [exact (agree_sat _ _ _ _ _ A3 (bounded_mono _ _ _ L2 B1) (agree_sat _ _ _ _ _ A2 B1 V1)) |].
        apply sat_app. split; [exact (agree_sat _ _ _ _ _ A3 B2 V2) | assumption].
      * rewrite (cnt_split a h). rewrite (agree_cnt st st1 a b1) in K3 by (auto; now apply olds_skipn). assumption.
Qed.

Definition gval (b : valuation) (gac : olit) : bool := match gac with Some g => lit_sem b g | None => false end.

Lemma agree_gval : forall st st' a b gac, agree st st' a b -> o_old st gac -> gval b gac = gval a gac.
Proof. intros st st' a b [g |] A H; cbn in *; [eapply agree_lit; eauto | reflexivity]. Qed.

Lemma bm_bound_ok : forall st gac out k, o_old st gac -> olds st out -> 1 <= k <= length out ->
  emits st (bm_bound gac out k) (fun b => gval b gac = true \/ tr b out (k - 1) = false).
Proof.
  intros st gac out k Hg Ho Hk. unfold bm_bound. destruct gac as [g |]; cbn [gval o_old] in *.
  - eapply emits_iff; [apply emits_elems with (ps := [fun b => lit_sem b g; fun b => negb (tr b out (k - 1))]); elems |].
    intros b. cbn [anyb]. destruct (lit_sem b g), (tr b out (k - 1)); cbn; intuition congruence.
  - eapply emits_iff; [apply emits_elems with (ps := [fun b => negb (tr b out (k - 1))]); elems |].
    intros b. cbn [anyb]. destruct (tr b out (k - 1)); cbn; intuition congruence.
Qed.

(** The sorted bucket, in either mode. *)
Definition card_post (watch : bool) (k : nat) (ins : list lit) (st : ctrs) (out : list lit) (st' : ctrs) (cls : list clause) : Prop :=
  length out = (if watch then length ins else min k (length ins)) /\ olds st' out /\ (forall b, sat b cls -> sort_up b ins out)
  /\ (forall a, exists b, agree st st' a b /\ sat b cls /\ canon b out (cnt a ins)).

Lemma card_ok : forall watch k ins st, olds st ins -> NoDup ins ->
  (watch = false -> 3 <= length ins -> 2 <= k /\ usize_ok (length ins)) ->
  runs st (if watch then pb_totalizer (S (length ins)) ins else cc_sort (S (length ins)) k ins InToOut) (card_post watch k ins st).
Proof.
  intros watch k ins st Ho Hn Hk. destruct watch.
  - eapply runs_conseq; [apply pb_totalizer_ok; [lia | assumption] |]. intros out st' cls _ _ (H1 & H2 & H3 & H4). split; auto.
  - eapply runs_conseq; [apply cc_sort_ok; [lia | assumption | assumption | intros _; auto] |].
    intros out st' cls _ _ (H1 & H2 & _ & H3 & _ & H4). split; [assumption |]. split; [assumption |]. split; [now apply H3 | assumption].
Qed.

Definition mrg_post (watch : bool) (k : nat) (u v : list lit) (st : ctrs) (out : list lit) (st' : ctrs) (cls : list clause) : Prop :=
  length out = (if watch then length u + length v else min k (length u + length v)) /\ olds st' out /\ (forall b, sat b cls -> merge_up b u v out)
  /\ (forall a x y, canon a u x -> canon a v y -> x <= length u -> y <= length v ->
        exists b, agree st st' a b /\ sat b cls /\ canon b out (x + y)).

Lemma mrg_ok : forall watch k u v st, olds st u -> olds st v -> 1 <= k -> (watch = false -> length u <= k /\ length v <= k) ->
  runs st (if watch then unary_adder u v else cc_merge 1 k u v InToOut) (mrg_post watch k u v st).
Proof.
  intros watch k u v st Hu Hv Hk Hl. destruct watch.
  - apply unary_adder_ok; assumption.
  - apply cc_merge_up_ok; auto; apply Hl; reflexivity.
Qed.

Lemma canon_half : forall b l x, canon b l x -> canon b (odds l) (x / 2).
Proof.
  intros b l x H. pose proof (Nat.div_mod x 2 ltac:(lia)). pose proof (Nat.mod_upper_bound x 2 ltac:(lia)).
  apply (canon_odds b l x (x - x / 2) (x / 2) H); lia.
Qed.
Lemma odds_half : forall A (l : list A), length (odds l) = length l / 2.
Proof.
  intros A l. destruct (odds_len A l) as [H1 H2]. pose proof (Nat.div_mod (length l) 2 ltac:(lia)).
  pose proof (Nat.mod_upper_bound (length l) 2 ltac:(lia)). lia.
Qed.

(** One level: the merged output of a bucket and the carries. *)
Definition level_post (watch : bool) (gac : olit) (k : nat) (bucket carries : list lit) (st : ctrs) (out : list lit) (st' : ctrs) (cls : list clause) : Prop :=
  olds st' out /\ (watch = false -> length out <= k)
  /\ (forall b c, sat b cls -> gval b gac = false -> lead b carries c -> c < k -> c + cnt b bucket < k /\ lead b out (c + cnt b bucket))
  /\ (forall a c, canon a carries c -> c <= length carries -> (gval a gac = true \/ c + cnt a bucket < k) ->
        exists b s, agree st st' a b /\ sat b cls /\ canon b out s /\ s <= length out /\ (gval a gac = true \/ s = c + cnt a bucket)).

Lemma level_ok : forall watch gac k bucket carries st, o_old st gac -> olds st bucket -> olds st carries -> NoDup bucket -> 1 <= k ->
  (watch = false -> 3 <= length bucket -> 2 <= k /\ usize_ok (length bucket)) -> (watch = false -> length carries <= k) ->
  runs st (card <~ (if watch then pb_totalizer (S (length bucket)) bucket else cc_sort (S (length bucket)) k bucket InToOut) ;;
      gwhen (k <=? length bucket) (gassert ((k =? length card) || watch) ;; bm_bound gac card k) ;;
      match carries, card with
      | [], _ => gret card
      | _, [] => gret carries
      | _, _ =>
          out <~ (if watch then unary_adder card carries else cc_merge 1 k card carries InToOut) ;;
          gwhen ((k =? length out) || (watch && (k <=? length out))) (bm_bound gac out k) ;;
          gret out
      end) (level_post watch gac k bucket carries st).
Proof.
  intros watch gac k bucket carries st Hg Ob Oc Hnd Hk H3 Hlc.
  eapply runs_bind; [apply card_ok; eassumption |]. intros card st1 c1 L1 B1 (El & Ocd & S1 & C1).
  assert (Hg1 : o_old st1 gac) by (destruct gac; cbn in *; [eapply old_mono; eauto | exact I]).
  assert (Hlen : min k (length bucket) <= length card <= length bucket) by (destruct watch; lia).
  eapply runs_emits with (P := fun b => k <= length bucket -> gval b gac = true \/ tr b card (k - 1) = false).
  { eapply emits_iff.
    - apply emits_when. intros Hkl. apply Nat.leb_le in Hkl. apply emits_seq.
      + unfold gassert. replace ((k =? length card) || watch) with true; [apply emits_ret |].
        destruct watch; [now rewrite orb_true_r |]. rewrite El. rewrite Nat.min_l by lia. now rewrite Nat.eqb_refl.
      + apply bm_bound_ok; [assumption | assumption | lia].
    - intros b. cbn beta. destruct (Nat.leb_spec k (length bucket)); intuition (try discriminate; try lia). }
  intros c2 B2 S2.
  assert (Hcard : forall b, sat b c1 -> sat b c2 -> gval b gac = false -> cnt b bucket < k /\ lead b card (cnt b bucket)).
  { intros b V1 V2 Hgv. pose proof (cnt_le b bucket). specialize (S1 b V1).
    assert (cnt b bucket < k).
    { destruct (le_lt_dec k (length bucket)) as [Hkl | Hkl]; [| lia].
      destruct (proj1 (S2 b) V2 Hkl) as [H' | H']; [congruence |].
      destruct (le_lt_dec k (cnt b bucket)) as [Hc | Hc]; [| assumption]. rewrite S1 in H' by lia. discriminate. }
    split; [assumption |]. intros i Hi. apply S1; lia. }
  assert (Hcard2 : forall a b, agree st st1 a b -> canon b card (cnt a bucket) -> (gval a gac = true \/ cnt a bucket < k) -> sat b c2).
  { intros a b A K Hc. apply S2. intros Hkl. rewrite (agree_gval _ _ _ _ _ A Hg). destruct Hc as [Hc | Hc]; [now left | right].
    rewrite K by lia. apply Nat.ltb_ge. lia. }
  destruct carries as [| r0 carries'].
  { apply runs_ret. rewrite app_nil_r. split; [assumption |]. split; [intros ->; lia |]. split.
    - intros b c Hb Hgv Hle Hc. apply sat_app in Hb. destruct Hb as [V1 V2]. apply lead_len in Hle. cbn in Hle. replace c with 0 by lia. cbn [plus]. auto.
    - intros a c _ Hc Hor. cbn in Hc. replace c with 0 in * by lia. cbn [plus] in *. destruct (C1 a) as (b & A & V & K).
      exists b, (min (cnt a bucket) (length card)). split; [assumption |].
      split; [apply sat_app; split; [assumption | eapply Hcard2; eauto] |]. split; [now apply canon_min |]. split; [lia |].
      destruct Hor as [Hor | Hor]; [now left | right]. pose proof (cnt_le a bucket). lia. }
  set (carries := r0 :: carries') in *.
  destruct card as [| d0 card'] eqn:Ecard.
  { assert (Hb0 : bucket = []) by (destruct bucket; [reflexivity | cbn [length] in Hlen; lia]). rewrite Hb0 in *.
    apply runs_ret. rewrite app_nil_r. split; [exact (olds_mono _ _ _ L1 Oc) |]. split; [assumption |]. cbn [cnt]. split.
    - intros b c _ _ Hle Hc. replace (c + 0) with c by lia. auto.
    - intros a c Kc Hc Hor. destruct (C1 a) as (b & A & V & _). exists b, c. split; [assumption |]. split.
      + apply sat_app. split; [assumption |]. apply S2. cbn. lia.
      + split; [exact (agree_canon _ _ _ _ _ _ A Oc Kc) |]. split; [assumption | right; lia]. }
  rewrite <- Ecard in *. assert (Hne : 1 <= length card) by (rewrite Ecard; cbn; lia). clear Ecard.
  assert (Oc1 : olds st1 carries) by exact (olds_mono _ _ _ L1 Oc).
  eapply runs_bind; [apply mrg_ok; [assumption | assumption | assumption | intros ->; split; [lia | auto]] |].
  intros out st2 c3 L2 B3 (Elo & Oo & S3 & C3).
  assert (Hg2 : o_old st2 gac) by (destruct gac; cbn in *; [eapply old_mono; eauto | exact I]).
  eapply runs_emits with (P := fun b => k <= length out -> gval b gac = true \/ tr b out (k - 1) = false).
  { eapply emits_iff.
    - apply emits_when. intros Hkl. apply bm_bound_ok; [assumption | assumption |].
      apply orb_prop in Hkl. destruct Hkl as [Hkl | Hkl]; [apply Nat.eqb_eq in Hkl; lia |]. apply andb_prop in Hkl. destruct Hkl as [_ Hkl]. apply Nat.leb_le in Hkl. lia.
    - intros b. cbn beta. destruct (Nat.eqb_spec k (length out)), (Nat.leb_spec k (length out)); destruct watch; cbn [orb andb]; try lia;
        intuition (try discriminate; try lia). }
  intros c4 B4 S4. apply runs_ret. rewrite app_nil_r. split; [assumption |]. split; [intros ->; lia |]. split.
  - intros b c Hb Hgv Hle Hc. apply sat_app in Hb. destruct Hb as [V1 Hb]. apply sat_app in Hb. destruct Hb as [V2 Hb]. apply sat_app in Hb. destruct Hb as [V3 V4].
    destruct (Hcard b V1 V2 Hgv) as [Hcb Hlead]. pose proof (lead_len _ _ _ Hle). pose proof (lead_len _ _ _ Hlead).
    pose proof (S3 b V3) as Hm. unfold merge_up in Hm.
    assert (Hlo : min k (length card + length carries) <= length out) by (destruct watch; lia).
    assert (Hlt : c + cnt b bucket < k).
    { destruct (le_lt_dec k (length out)) as [Hko | Hko]; [| lia].
      destruct (proj1 (S4 b) V4 Hko) as [H' | H']; [congruence |].
      destruct (le_lt_dec k (c + cnt b bucket)) as [Hc2 | Hc2]; [| assumption].
      rewrite (Hm (cnt b bucket) c (k - 1) Hlead Hle) in H' by lia. discriminate. }
    split; [assumption |]. intros i Hi. apply (Hm (cnt b bucket) c i Hlead Hle); lia.
  - intros a c Kc Hc Hor. destruct (C1 a) as (b1 & A1 & V1 & K1).
    pose proof (cnt_le a bucket).
    destruct (C3 b1 (min (cnt a bucket) (length card)) c) as (b2 & A2 & V2 & K2);
      [now apply canon_min | exact (agree_canon _ _ _ _ _ _ A1 Oc Kc) | lia | assumption |].
    exists b2, (min (min (cnt a bucket) (length card) + c) (length out)).
    pose proof (agree_trans _ _ _ _ _ _ L1 L2 A1 A2) as A12.
    split; [assumption |]. split.
    + apply sat_app. split; [exact (agree_sat _ _ _ _ _ A2 B1 V1) |]. apply sat_app. split.
      * apply (agree_sat _ _ _ _ _ A2 B2). eapply Hcard2; eauto. destruct Hor as [Hor | Hor]; [now left | right; lia].
      * apply sat_app. split; [assumption |]. apply S4. intros Hko. rewrite (agree_gval _ _ _ _ _ A12 Hg).
        destruct Hor as [Hor | Hor]; [now left | right]. rewrite K2 by lia. apply Nat.ltb_ge. lia.
    + split; [now apply canon_min |]. split; [lia |]. destruct Hor as [Hor | Hor]; [now left | right].
      assert (Hlo : min k (length card + length carries) <= length out) by (destruct watch; lia). lia.
Qed.

Lemma gbind_assoc3 : forall A B C (g : G A) (k1 : A -> G B) (k2 : B -> G C) s, gbind (gbind g k1) k2 s = gbind g (fun a => gbind (k1 a) k2) s.
Proof.
  intros A B C g k1 k2 s. unfold gbind. destruct (g s) as [[[a s1] c1] | |]; auto. destruct (k1 a s1) as [[[b s2] c2] | |]; auto.
  destruct (k2 b s2) as [[[c s3] c3] | |]; auto. now rewrite app_assoc.
Qed.

Lemma bm_loop_ok : forall watch gac nlt m buckets i carries st, o_old st gac -> (forall bk, In bk buckets -> olds st bk /\ NoDup bk) -> olds st carries -> 1 <= m ->
  (forall j, j < length buckets -> div_ceil nlt (2 ^ (i + j)) = m * 2 ^ (length buckets - 1 - j)) ->
  (watch = false -> forall j bk, nth_error buckets j = Some bk -> 3 <= length bk -> 2 <= m * 2 ^ (length buckets - 1 - j) /\ usize_ok (length bk)) ->
  (watch = false -> length carries <= m * 2 ^ (length buckets - 1)) ->
  runs st (bm_loop watch gac nlt i buckets carries) (fun _ st' cls =>
    (forall b c, sat b cls -> gval b gac = false -> lead b carries c -> c < m * 2 ^ (length buckets - 1) -> c + bval b buckets < m * 2 ^ (length buckets - 1))
    /\ (forall a c, canon a carries c -> c <= length carries -> (gval a gac = true \/ c + bval a buckets < m * 2 ^ (length buckets - 1)) ->
          exists b, agree st st' a b /\ sat b cls)).
Proof.
  intros watch gac nlt m. induction buckets as [| bucket rest IH]; intros i carries st Hg Hb Oc Hm Hdiv H3 Hlc.
  { cbn [bm_loop]. apply runs_ret. split; [intros b c _ _ _ H; cbn [bval]; lia |]. intros a c _ _ _. exists a. split; [apply agree_refl | apply sat_nil]. }
  cbn [bm_loop]. cbv zeta.
  pose proof (Hdiv 0 ltac:(cbn; lia)) as Hk. rewrite Nat.add_0_r, Nat.sub_0_r in Hk. cbn [length] in *. replace (S (length rest) - 1) with (length rest) in * by lia.
  rewrite Hk. set (k := m * 2 ^ length rest) in *.
  assert (Hk1 : 1 <= k) by (unfold k; pose proof (Nat.pow_nonzero 2 (length rest) ltac:(lia)); nia).
  destruct (Hb bucket (or_introl eq_refl)) as [Ob Hnd].
  eapply gbind_assoc_ret with (g1 := gbind (card <~ (if watch then pb_totalizer (S (length bucket)) bucket else cc_sort (S (length bucket)) k bucket InToOut) ;;
      gwhen (k <=? length bucket) (gassert ((k =? length card) || watch) ;; bm_bound gac card k) ;;
      match carries, card with
      | [], _ => gret card
      | _, [] => gret carries
      | _, _ =>
          out <~ (if watch then unary_adder card carries else cc_merge 1 k card carries InToOut) ;;
          gwhen ((k =? length out) || (watch && (k <=? length out))) (bm_bound gac out k) ;;
          gret out
      end) (fun merge => bm_loop watch gac nlt (S i) rest (odds merge))).
  { intros s. rewrite gbind_assoc3. apply gbind_ext. intros card s1. apply gbind_assoc3. }
  eapply runs_bind.
  { apply level_ok; try assumption. intros Hw. specialize (H3 Hw 0 bucket eq_refl). rewrite Nat.sub_0_r in H3. fold k in H3. exact H3. }
  intros out st1 c1 L1 B1 (Oo & Hlo & S1 & C1).
  assert (Hk2 : rest <> [] -> k = 2 * (m * 2 ^ (length rest - 1))).
  { intros Hr. unfold k. destruct rest as [| r0 rr]; [contradiction |]. cbn [length]. replace (S (length rr) - 1) with (length rr) by lia. cbn [Nat.pow]. lia. }
  eapply runs_conseq.
  { apply IH.
    - destruct gac; cbn in *; [eapply old_mono; eauto | exact I].
    - intros bk Hbk. destruct (Hb bk (or_intror Hbk)) as [Ho Hn]. split; [exact (olds_mono _ _ _ L1 Ho) | assumption].
    - intros x Hx. apply Oo. now apply odds_in.
    - assumption.
    - intros j Hj. replace (S i + j) with (i + S j) by lia. rewrite Hdiv by lia. f_equal. f_equal. lia.
    - intros Hw j bk Hj H3'. specialize (H3 Hw (S j) bk Hj H3'). replace (length rest - S j) with (length rest - 1 - j) in H3 by lia. exact H3.
    - intros Hw. rewrite odds_half. specialize (Hlo Hw). destruct rest as [| r0 rr].
      + cbn [length] in *. unfold k in *. change (0 - 1) with 0. apply Nat.div_le_upper_bound; lia.
      + rewrite Hk2 in Hlo by discriminate. apply Nat.div_le_upper_bound; lia. }
  intros _ st2 c2 L2 B2 [S2 C2]. cbn [bval]. split.
  - intros b c Hsat Hgv Hle Hc. apply sat_app in Hsat. destruct Hsat as [V1 V2].
    destruct (S1 b c V1 Hgv Hle Hc) as [Hs Hlead]. set (s := c + cnt b bucket) in *.
    pose proof (Nat.div_mod s 2 ltac:(lia)). pose proof (Nat.mod_upper_bound s 2 ltac:(lia)).
    destruct rest as [| r0 rr]; [cbn [bval]; lia |].
    rewrite Hk2 in * by discriminate.
    assert (Hl2 : lead b (odds out) (s / 2)) by (eapply lead_odds; [exact Hlead | lia]).
    specialize (S2 b (s / 2) V2 Hgv Hl2 ltac:(lia)). lia.
  - intros a c Kc Hc Hor. destruct (C1 a c Kc Hc) as (b1 & s & A1 & V1 & K1 & Hs & Hor1); [destruct Hor as [Hor | Hor]; [now left | right; lia] |].
    destruct (C2 b1 (s / 2)) as (b2 & A2 & V2).
    + now apply canon_half.
    + rewrite odds_half. apply Nat.div_le_mono; lia.
    + rewrite (agree_gval _ _ _ _ _ A1 Hg).
      rewrite (agree_bval _ _ _ _ _ A1) by (intros bk Hbk; apply Hb; now right).
      destruct Hor1 as [Hor1 | Hor1]; [now left |]. destruct Hor as [Hor | Hor]; [now left | right].
      pose proof (Nat.div_mod s 2 ltac:(lia)).
      destruct rest as [| r0 rr]; [cbn [bval length] in *; unfold k in Hor; change (0 - 1) with 0; lia |].
      rewrite Hk2 in Hor by discriminate. lia.
    + exists b2. split; [exact (agree_trans _ _ _ _ _ _ L1 L2 A1 A2) |]. apply sat_app. split; [exact (agree_sat _ _ _ _ _ A2 B1 V1) | assumption].
Qed.

(** The literals put into the buckets. *)
Fixpoint kept (gac : olit) (lt : nat) (ls : list lit) (cs : list nat) : list lit * list nat :=
  match ls, cs with
  | l :: ls', c :: cs' =>
      let '(k, kc) := kept gac lt ls' cs' in
      match gac with Some _ => if lt <=? c then (k, kc) else (l :: k, c :: kc) | None => (l :: k, c :: kc) end
  | _, _ => ([], [])
  end.

Definition dropped (gac : olit) (lt c : nat) : bool := match gac with Some _ => lt <=? c | None => false end.

Lemma kept_spec : forall gac lt b ls cs, let '(k, kc) := kept gac lt ls cs in
  wsum b k kc <= wsum b ls cs
  /\ ((forall l c, In (l, c) (combine ls cs) -> dropped gac lt c = true -> lit_sem b l = false) -> wsum b k kc = wsum b ls cs)
  /\ (forall l c, In (l, c) (combine ls cs) -> dropped gac lt c = true -> lit_sem b l = true -> lt <= wsum b ls cs).
Proof.
  intros gac lt b. induction ls as [| l ls IH]; intros [| c cs]; cbn [kept wsum combine]; try (split; [lia | split; [intros; reflexivity | intros l' c' []]]).
  specialize (IH cs). destruct (kept gac lt ls cs) as [k kc]. destruct IH as (I1 & I2 & I3).
  assert (I4 : forall l' c', In (l', c') ((l, c) :: combine ls cs) -> dropped gac lt c' = true -> lit_sem b l' = true ->
     lt <= (if lit_sem b l then c else 0) + wsum b ls cs).
  { intros l' c' [E | Hin] Hd Hs.
    - injection E as -> ->. rewrite Hs. destruct gac; cbn in Hd; [apply Nat.leb_le in Hd; lia | discriminate].
    - specialize (I3 l' c' Hin Hd Hs). lia. }
  assert (I2' : (forall l' c', In (l', c') ((l, c) :: combine ls cs) -> dropped gac lt c' = true -> lit_sem b l' = false) -> wsum b k kc = wsum b ls cs).
  { intros H. apply I2. intros l' c' Hin. apply H. now right. }
  destruct gac as [g |]; [destruct (lt <=? c) eqn:E |]; cbn [wsum].
  - split; [lia |]. split; [| assumption]. intros H. rewrite (H l c) by (try (now left); assumption). cbn. auto.
  - split; [lia |]. split; [| assumption]. intros H. rewrite I2' by assumption. reflexivity.
  - split; [lia |]. split; [| assumption]. intros H. rewrite I2' by assumption. reflexivity.
Qed.

Lemma kept_in : forall gac lt ls cs l, In l (fst (kept gac lt ls cs)) -> In l ls.
Proof.
  intros gac lt. induction ls as [| x ls IH]; intros [| c cs] l H; cbn [kept] in H; try (destruct H; fail).
  specialize (IH cs l). destruct (kept gac lt ls cs) as [k kc]. cbn [fst] in *.
  destruct gac as [g |]; [destruct (lt <=? c) |]; cbn [fst] in H; [right; auto | |]; (destruct H as [<- | H]; [now left | right; auto]).
Qed.
Lemma kept_nodup : forall gac lt ls cs, NoDup ls -> NoDup (fst (kept gac lt ls cs)).
Proof.
  intros gac lt. induction ls as [| x ls IH]; intros [| c cs] H; cbn [kept]; try (constructor; fail).
  inversion H as [| ? ? Hx Hn]; subst. specialize (IH cs Hn). pose proof (kept_in gac lt ls cs x) as Hin. destruct (kept gac lt ls cs) as [k kc]. cbn [fst] in *.
  destruct gac as [g |]; [destruct (lt <=? c) |]; cbn [fst]; [assumption | |]; constructor; auto.
Qed.
Lemma kept_coeffs : forall gac lt ls cs c, In c (snd (kept gac lt ls cs)) -> In c cs /\ dropped gac lt c = false.
Proof.
  intros gac lt. induction ls as [| x ls IH]; intros [| c0 cs] c H; cbn [kept] in H; try (destruct H; fail).
  specialize (IH cs c). destruct (kept gac lt ls cs) as [k kc]. cbn [snd] in *.
  destruct gac as [g |]; [destruct (lt <=? c0) eqn:E |]; cbn [snd] in H.
  - destruct (IH H). split; [now right | assumption].
  - destruct H as [<- | H]; [split; [now left | exact E] | destruct (IH H); split; [now right | assumption]].
  - destruct H as [<- | H]; [split; [now left | reflexivity] | destruct (IH H); split; [now right | assumption]].
Qed.
Lemma kept_len : forall gac lt ls cs, length (fst (kept gac lt ls cs)) <= length ls.
Proof.
  intros gac lt. induction ls as [| x ls IH]; intros [| c cs]; cbn [kept]; try (cbn; lia).
  specialize (IH cs). destruct (kept gac lt ls cs) as [k kc]. cbn [fst length] in *.
  destruct gac as [g |]; [destruct (lt <=? c) |]; cbn [fst length]; lia.
Qed.

Definition drop_cond (gac : olit) (lt : nat) (ls : list lit) (cs : list nat) (i : nat) (b : valuation) : Prop :=
  forall l c, In (l, c) (combine ls cs) -> Nat.testbit c i = true -> dropped gac lt c = true -> gval b gac = true \/ lit_sem b l = false.

Lemma bm_bucket_ok : forall gac lt i ls cs st, o_old st gac -> olds st ls ->
  runs st (bm_bucket gac lt i ls cs) (fun r st' cls => r = bit_lits (fst (kept gac lt ls cs)) (snd (kept gac lt ls cs)) i /\ st' = st
    /\ forall b, sat b cls <-> drop_cond gac lt ls cs i b).
Proof.
  intros gac lt i. induction ls as [| l ls IH]; intros [| c cs] st Hg Ho; cbn [bm_bucket kept].
  1-3: apply runs_ret; split; [reflexivity |]; split; [reflexivity |]; intros b; split; [intros _ l' c' [] | intros _; apply sat_nil].
  apply olds_cons in Ho. destruct Ho as [Hl Ho]. specialize (IH cs st Hg Ho). destruct (kept gac lt ls cs) as [k kc]. cbn [fst snd] in IH.
  assert (Hskip : forall b, (Nat.testbit c i = true -> dropped gac lt c = true -> gval b gac = true \/ lit_sem b l = false) ->
     (drop_cond gac lt (l :: ls) (c :: cs) i b <-> drop_cond gac lt ls cs i b)).
  { intros b H. split; intros D l' c' Hin; [apply D; now right |]. destruct Hin as [E | Hin]; [injection E as <- <-; assumption | now apply D]. }
  destruct (Nat.testbit c i) eqn:Eb.
  - assert (Hkeep : dropped gac lt c = false -> runs st (r <~ bm_bucket gac lt i ls cs;; gret (l :: r)) (fun r st' cls =>
       r = bit_lits (l :: k) (c :: kc) i /\ st' = st /\ forall b, sat b cls <-> drop_cond gac lt (l :: ls) (c :: cs) i b)).
    { intros Hd. eapply runs_bind; [exact IH |]. intros r st1 c1 L1 B1 (-> & -> & S1). apply runs_ret. rewrite app_nil_r.
      split; [cbn [bit_lits]; now rewrite Eb |]. split; [reflexivity |]. intros b. rewrite S1. symmetry. apply Hskip. congruence. }
    destruct gac as [g |]; [| apply Hkeep; reflexivity]. destruct (lt <=? c) eqn:El; [| apply Hkeep; exact El].
    cbn [o_old fst snd] in *. eapply runs_emits.
    { apply emits_adds. apply olds_cons. split; [exact Hg |]. apply olds_cons. rewrite lit_negate_var. split; [exact Hl | apply olds_nil]. }
    intros c1 B1 S1. eapply runs_conseq; [exact IH |]. intros r st1 c2 L1 B2 (-> & -> & S2). split; [reflexivity |]. split; [reflexivity |].
    intros b. rewrite sat_app, S1, S2. cbn [existsb]. rewrite lit_sem_negate. split.
    + intros [H1 H2] l' c' [E | Hin]; [| now apply H2]. injection E as <- <-. intros _ _. cbn [gval]. destruct (lit_sem b g), (lit_sem b l); cbn in *; auto.
    + intros D. split; [| intros l' c' Hin; apply D; now right]. specialize (D l c (or_introl eq_refl) Eb El). cbn [gval] in D. destruct (lit_sem b g), (lit_sem b l); cbn in *; intuition.
  - eapply runs_conseq; [exact IH |]. intros r st1 c2 L1 B2 (-> & -> & S2).
    split; [destruct gac as [g |]; [destruct (lt <=? c) |]; cbn [fst snd bit_lits]; rewrite ?Eb; reflexivity |]. split; [reflexivity |].
    intros b. rewrite S2. symmetry. apply Hskip. congruence.
Qed.

Lemma bm_buckets_ok : forall gac lt t tl ls cs is st, o_old st gac -> olds st ls ->
  runs st (bm_buckets gac lt t tl is ls cs) (fun r st' cls =>
    r = map (fun i => let b := bit_lits (fst (kept gac lt ls cs)) (snd (kept gac lt ls cs)) i in if Nat.testbit t i then tl :: b else b) is
    /\ st' = st /\ forall b, sat b cls <-> (forall i, In i is -> drop_cond gac lt ls cs i b)).
Proof.
  intros gac lt t tl ls cs. induction is as [| i is IH]; intros st Hg Ho; cbn [bm_buckets map].
  - apply runs_ret. split; [reflexivity |]. split; [reflexivity |]. intros b. split; [intros _ i [] | intros _; apply sat_nil].
  - eapply runs_bind; [apply bm_bucket_ok; assumption |]. intros r st1 c1 _ _ (-> & -> & S1).
    eapply runs_bind; [apply IH; assumption |]. intros r st1 c2 _ _ (-> & -> & S2). apply runs_ret. rewrite app_nil_r.
    split; [reflexivity |]. split; [reflexivity |]. intros b. rewrite sat_app, S1, S2. split.
    + intros [H1 H2] j [<- | Hj]; auto.
    + intros H. split; [apply H; now left | intros j Hj; apply H; now right].
Qed.

Lemma div_ceil_spec : forall a b, 1 <= b -> a <= div_ceil a b * b < a + b.
Proof.
  intros a b Hb. unfold div_ceil. pose proof (Nat.div_mod a b ltac:(lia)). pose proof (Nat.mod_upper_bound a b ltac:(lia)).
  destruct (Nat.eqb_spec (a mod b) 0); nia.
Qed.
Lemma div_ceil_mul : forall a b, 1 <= b -> div_ceil (a * b) b = a.
Proof. intros a b Hb. unfold div_ceil. rewrite Nat.mod_mul, Nat.div_mul by lia. reflexivity. Qed.

Lemma bit_lits_nodup : forall ls cs i, NoDup ls -> NoDup (bit_lits ls cs i).
Proof.
  induction ls as [| l ls IH]; intros [| c cs] i H; cbn [bit_lits]; try constructor. inversion H as [| ? ? Hx Hn]; subst.
  destruct (Nat.testbit c i); auto. constructor; auto. intros Hin. apply Hx. eapply bit_lits_in; eauto.
Qed.
Lemma bit_lits_len : forall ls cs i, length (bit_lits ls cs i) <= length ls.
Proof. induction ls as [| l ls IH]; intros [| c cs] i; cbn [bit_lits length]; try lia. specialize (IH cs i). destruct (Nat.testbit c i); cbn [length]; lia. Qed.
Lemma bit_lits_empty : forall ls cs i, (forall c, In c cs -> Nat.testbit c i = false) -> bit_lits ls cs i = [].
Proof.
  induction ls as [| l ls IH]; intros [| c cs] i H; cbn [bit_lits]; try reflexivity. rewrite (H c) by now left. apply IH. intros d Hd. apply H. now right.
Qed.
Lemma testbit_high : forall c p, c < 2 ^ p -> Nat.testbit c p = false.
Proof. intros c p H. pose proof (testbit_odd c p) as E. rewrite Nat.div_small in E by assumption. cbn in E. destruct (Nat.testbit c p); [discriminate | reflexivity]. Qed.
Lemma testbit_log2 : forall c, 1 <= c -> Nat.testbit c (Nat.log2 c) = true.
Proof. intros c H. apply Nat.bit_log2. lia. Qed.

Lemma nth_error_map_seq : forall A (F : nat -> A) n j x, nth_error (map F (seq 0 n)) j = Some x -> j < n /\ x = F j.
Proof.
  intros A F n j x H. assert (Hj : j < n).
  { assert (Hl : j < length (map F (seq 0 n))) by (apply nth_error_Some; congruence). now rewrite map_length, seq_length in Hl. }
  split; [assumption |]. apply map_nth_error with (f := F) (n := j) (d := j) in Hj as Hj' || idtac.
  assert (E : nth_error (seq 0 n) j = Some j).
  { rewrite (nth_error_nth' _ 0) by (rewrite seq_length; lia). now rewrite seq_nth by lia. }
  rewrite (map_nth_error F j (seq 0 n) E) in H. congruence.
Qed.

Definition pb_sizes (n : nat) : Prop := usize_ok (S n).

Lemma usize_mono : forall n k, n <= k -> usize_ok k -> usize_ok n.
Proof. unfold usize_ok. intros. lia. Qed.

Lemma binary_merge_ok : forall watch ls cs leq mw gac st, o_old st gac -> olds st ls -> NoDup ls -> length ls = length cs ->
  (forall c, In c cs -> 1 <= c <= mw) -> 1 <= mw -> (gac = None -> forall c, In c cs -> c <= leq) -> (watch = false -> pb_sizes (length ls)) ->
  encodes st (binary_merge watch ls cs leq mw gac) (fun b => gval b gac = true \/ wsum b ls cs <= leq).
Proof.
  intros watch ls cs leq mw gac st Hg Ho Hnd Hlen Hc Hmw Hnone Hsz. unfold encodes, binary_merge. cbv zeta.
  set (lt := leq + 1). set (p := Nat.log2 mw). set (m := div_ceil lt (2 ^ p)). set (nlt := m * 2 ^ p). set (t := nlt - lt).
  assert (Hp : 1 <= 2 ^ p) by (pose proof (Nat.pow_nonzero 2 p ltac:(lia)); lia).
  pose proof (div_ceil_spec lt (2 ^ p) Hp) as Hm. fold m in Hm. fold nlt in Hm.
  assert (Hm1 : 1 <= m) by (destruct m; [unfold nlt, lt in Hm; cbn in Hm; lia | lia]).
  assert (Hmwp : mw < 2 ^ (p + 1)) by (rewrite Nat.add_1_r; apply Nat.log2_spec; lia).
  eapply runs_bind.
  { apply runs_new with (post := fun y st' cls => cls = [] /\ ~ old st (lit_var y) /\ old st' (lit_var y) /\ (forall al v, exists be, agree st st' al be /\ lit_sem be y = v)). intuition. }
  intros tl st1 c0 L1 _ (-> & Hno & Hot & Hch). cbn [app].
  assert (Hg1 : o_old st1 gac) by (destruct gac; cbn in *; [eapply old_mono; eauto | exact I]).
  assert (Ho1 : olds st1 ls) by exact (olds_mono _ _ _ L1 Ho).
  eapply runs_emits; [apply emits_adds; apply olds_cons; split; [exact Hot | apply olds_nil] |]. intros c1 B1 S1.
  eapply runs_bind; [apply bm_buckets_ok; assumption |]. intros bs st1' c2 _ B2 (Ebs & -> & S2).
  destruct (kept gac lt ls cs) as [kl kc] eqn:Ek. cbn [fst snd] in Ebs.
  pose proof (fun l => kept_in gac lt ls cs l) as Kin. pose proof (kept_nodup gac lt ls cs Hnd) as Knd. pose proof (fun c => kept_coeffs gac lt ls cs c) as Kco.
  pose proof (kept_len gac lt ls cs) as Klen. pose proof (fun b => kept_spec gac lt b ls cs) as Ksp. rewrite Ek in Kin, Knd, Kco, Klen, Ksp. cbn [fst snd] in Kin, Knd, Kco, Klen.
  set (F := fun i => let b := bit_lits kl kc i in if Nat.testbit t i then tl :: b else b) in *.
  assert (Lbs : length bs = p + 1) by (rewrite Ebs, map_length, seq_length; reflexivity).
  assert (Hval : forall b, lit_sem b tl = true -> bval b bs = t + wsum b kl kc).
  { intros b Ht. rewrite Ebs, bval_map. rewrite (hsum_ext _ _ _ (fun i => (if Nat.testbit t i then 1 else 0) + cnt b (bit_lits kl kc i))).
    - rewrite hsum_add, hsum_small, hsum_bit_lits; [reflexivity | |].
      + intros c Hin. destruct (Kco c Hin) as [Hin2 _]. specialize (Hc c Hin2). lia.
      + rewrite Nat.add_1_r. cbn [Nat.pow]. unfold t. lia.
    - intros i. unfold F. cbv zeta. destruct (Nat.testbit t i); cbn [cnt]; [rewrite Ht |]; reflexivity. }
  assert (Hin : forall bk, In bk bs -> olds st1 bk /\ NoDup bk).
  { intros bk Hbk. rewrite Ebs in Hbk. apply in_map_iff in Hbk. destruct Hbk as [i [<- _]]. unfold F. cbv zeta.
    assert (H1 : olds st1 (bit_lits kl kc i)) by (intros l Hl; apply Ho1, Kin; eapply bit_lits_in; eauto).
    assert (H2 : NoDup (bit_lits kl kc i)) by now apply bit_lits_nodup.
    destruct (Nat.testbit t i); [| split; assumption]. split; [apply olds_cons; split; assumption |]. constructor; [| assumption].
    intros Hl. apply Hno. apply Ho. apply Kin. eapply bit_lits_in; eauto. }
  assert (HK : m * 2 ^ (length bs - 1) = nlt) by (rewrite Lbs; unfold nlt; f_equal; f_equal; lia).
  eapply runs_conseq.
  { apply (bm_loop_ok watch gac nlt m bs 0 []); auto.
    - apply olds_nil.
    - intros j Hj. rewrite Lbs in *. cbn [plus]. unfold nlt. replace (2 ^ p) with (2 ^ (p + 1 - 1 - j) * 2 ^ j) by (rewrite <- Nat.pow_add_r; f_equal; lia).
      rewrite Nat.mul_assoc. apply div_ceil_mul. pose proof (Nat.pow_nonzero 2 j ltac:(lia)). lia.
    - intros Hw j bk Hj H3. rewrite Ebs in Hj. apply nth_error_map_seq in Hj. destruct Hj as [Hj ->]. rewrite Lbs. split.
      + destruct (Nat.eq_dec j p) as [-> | Hjp].
        * replace (p + 1 - 1 - p) with 0 by lia. cbn [Nat.pow]. rewrite Nat.mul_1_r.
          destruct (le_lt_dec 2 m) as [| Hm2]; [assumption |]. exfalso. assert (Em : m = 1) by lia. unfold nlt in Hm. rewrite Em in Hm.
          assert (Hnt : Nat.testbit t p = false) by (apply testbit_high; unfold t, nlt; rewrite Em; unfold lt; lia).
          assert (He : bit_lits kl kc p = []).
          { apply bit_lits_empty. intros c Hcin. destruct (Kco c Hcin) as [Hc1 Hc2]. apply testbit_high.
            destruct gac as [g |]; cbn in Hc2; [apply Nat.leb_gt in Hc2; lia |]. specialize (Hnone eq_refl c Hc1). unfold lt in *. lia. }
          unfold F in H3. cbv zeta in H3. rewrite Hnt, He in H3. cbn in H3. lia.
        * assert (E2 : 2 ^ (p + 1 - 1 - j) = 2 * 2 ^ (p - j - 1)) by (rewrite <- Nat.pow_succ_r'; f_equal; lia).
          pose proof (Nat.pow_nonzero 2 (p - j - 1) ltac:(lia)). rewrite E2. nia.
      + apply (usize_mono _ (S (length ls))); [| now apply Hsz]. unfold F. cbv zeta. pose proof (bit_lits_len kl kc j). destruct (Nat.testbit t j); cbn [length]; lia.
    - cbn. lia. }
  cbn beta. intros _ st2 c3 L2 B3 [S3 C3]. rewrite HK in S3, C3.
  assert (Hdrop : forall b, (forall i, In i (seq 0 (p + 1)) -> drop_cond gac lt ls cs i b) <->
     (gval b gac = true \/ forall l c, In (l, c) (combine ls cs) -> dropped gac lt c = true -> lit_sem b l = false)).
  { intros b. split.
    - intros H. destruct (gval b gac) eqn:Eg; [now left | right]. intros l c Hlc Hd. apply in_combine_r in Hlc as Hc'.
      specialize (Hc c Hc'). assert (Hlog : Nat.log2 c <= p) by (unfold p; apply Nat.log2_le_mono; lia).
      destruct (H (Nat.log2 c) ltac:(apply in_seq; lia) l c Hlc (testbit_log2 c ltac:(lia)) Hd) as [H' | H']; [congruence | assumption].
    - intros [H | H] i _ l c Hlc _ Hd; [now left | right; eauto]. }
  split.
  - intros b Hb. apply sat_app in Hb. destruct Hb as [V1 Hb]. apply sat_app in Hb. destruct Hb as [V2 V3].
    apply S1 in V1. cbn [existsb] in V1. rewrite orb_false_r in V1. pose proof (proj1 (Hdrop b) (proj1 (S2 b) V2)) as V2'. clear V2. rename V2' into V2.
    destruct (gval b gac) eqn:Eg; [now left | right]. destruct V2 as [V2 | V2]; [congruence |].
    assert (H0 : lead b [] 0) by (intros i Hi; lia). specialize (S3 b 0 V3 Eg H0 ltac:(lia)). rewrite Hval in S3 by assumption.
    destruct (Ksp b) as (_ & H2 & _). specialize (H2 V2). unfold t, lt in *. lia.
  - intros a Ha. destruct (Hch a true) as (b1 & A1 & V1). destruct (C3 b1 0) as (b2 & A2 & V2).
    + intros i Hi. cbn in Hi. lia.
    + cbn. lia.
    + rewrite (agree_gval _ _ _ _ _ A1 Hg). destruct Ha as [Ha | Ha]; [now left | right]. rewrite Hval by assumption.
      destruct (Ksp b1) as (H1 & _ & _). rewrite (agree_wsum st st1 a b1 ls cs) in H1 by assumption. unfold t, lt in *. lia.
    + exists b2. split; [exact (agree_trans _ _ _ _ _ _ L1 L2 A1 A2) |]. apply sat_app. split; [| apply sat_app; split; [| assumption]].
      * apply (agree_sat _ _ _ _ _ A2 B1). apply S1. cbn. now rewrite V1.
      * apply (agree_sat _ _ _ _ _ A2 B2). apply S2, Hdrop. rewrite (agree_gval _ _ _ _ _ A1 Hg). destruct Ha as [Ha | Ha]; [now left | right].
        intros l c Hlc Hd. destruct (lit_sem b1 l) eqn:El; [| reflexivity]. destruct (Ksp b1) as (_ & _ & H3). specialize (H3 l c Hlc Hd El).
        rewrite (agree_wsum st st1 a b1 ls cs) in H3 by assumption. unfold lt in H3. lia.
Qed.

Lemma wsum_app : forall b l1 c1 l2 c2, length l1 = length c1 -> wsum b (l1 ++ l2) (c1 ++ c2) = wsum b l1 c1 + wsum b l2 c2.
Proof. intros b. induction l1 as [| l l1 IH]; intros [| c c1] l2 c2 H; try discriminate; cbn; [reflexivity |]. rewrite IH by (cbn in H; lia). lia. Qed.

Lemma firstn_len : forall A (l1 l2 : list A), firstn (length l1) (l1 ++ l2) = l1.
Proof. intros A l1 l2. induction l1; cbn; [now destruct l2 | now f_equal]. Qed.
Lemma skipn_slen : forall A (l1 : list A) x l2, skipn (S (length l1)) (l1 ++ x :: l2) = l2.
Proof. intros A l1 x l2. induction l1; cbn; [reflexivity | assumption]. Qed.

Lemma swap_remove_mid : forall A (pre : list A) x mid y, swap_remove (pre ++ x :: mid ++ [y]) (length pre) = pre ++ y :: mid.
Proof.
  intros A pre x mid y. unfold swap_remove. rewrite !rev_app_distr. cbn [rev]. rewrite rev_app_distr. cbn [rev app].
  rewrite firstn_len, skipn_slen. rewrite app_length. cbn [length]. rewrite app_length. cbn [length].
  replace (length pre + S (length mid + 1) - 1) with (length (pre ++ y :: mid)) by (rewrite app_length; cbn [length]; lia).
  change (y :: mid ++ [y]) with ((y :: mid) ++ [y]). rewrite app_assoc. apply firstn_len.
Qed.
Lemma swap_remove_last : forall A (pre : list A) x, swap_remove (pre ++ [x]) (length pre) = pre.
Proof.
  intros A pre x. unfold swap_remove. rewrite rev_app_distr. cbn [rev app]. rewrite firstn_len.
  rewrite app_length. cbn [length]. replace (length pre + 1 - 1) with (length pre) by lia. apply firstn_len.
Qed.

Lemma list_at : forall A (l : list A) i, i < length l -> exists pre x post, l = pre ++ x :: post /\ length pre = i.
Proof.
  intros A l i H. destruct (nth_error l i) as [x |] eqn:E; [| apply nth_error_None in E; lia].
  apply nth_error_split in E. destruct E as (pre & post & -> & Hl). eauto.
Qed.
Lemma list_end : forall A (l : list A), l <> [] -> exists l' x, l = l' ++ [x].
Proof. intros A l H. destruct (exists_last H) as (l' & x & E). eauto. Qed.

(** What the removal of position [i] does to both vectors. *)
Lemma swap_remove_ok : forall (ls : list lit) (cs : list nat) i, length ls = length cs -> i < length ls ->
  exists l c, nth_error ls i = Some l /\ nth_error cs i = Some c
    /\ length (swap_remove ls i) = length ls - 1 /\ length (swap_remove cs i) = length cs - 1
    /\ (NoDup ls -> NoDup (swap_remove ls i)) /\ (forall x, In x (swap_remove ls i) -> In x ls) /\ (forall x, In x (swap_remove cs i) -> In x cs)
    /\ (forall b, wsum b ls cs = (if lit_sem b l then c else 0) + wsum b (swap_remove ls i) (swap_remove cs i)).
Proof.
  intros ls cs i Hlen Hi.
  destruct (list_at _ ls i Hi) as (p1 & l & q1 & -> & E1). destruct (list_at _ cs i ltac:(lia)) as (p2 & c & q2 & -> & E2).
  exists l, c. rewrite nth_error_app2 by lia. rewrite E1, Nat.sub_diag. rewrite nth_error_app2 by lia. rewrite E2, Nat.sub_diag.
  split; [reflexivity |]. split; [reflexivity |]. rewrite !app_length in *. cbn [length] in *.
  destruct q1 as [| x q1].
  - destruct q2; [| cbn in Hlen; lia]. pose proof (swap_remove_last _ p1 l) as R1. pose proof (swap_remove_last _ p2 c) as R2. rewrite E1 in R1. rewrite E2 in R2. rewrite R1, R2. cbn [length].
    split; [lia |]. split; [lia |]. split; [intros H; now apply NoDup_remove_1 in H; rewrite app_nil_r in H |].
    split; [intros y Hy; apply in_or_app; now left |]. split; [intros y Hy; apply in_or_app; now left |].
    intros b. rewrite wsum_app by lia. cbn. lia.
  - destruct q2 as [| d q2]; [cbn in Hlen; lia |].
    destruct (list_end _ (x :: q1) ltac:(discriminate)) as (m1 & y1 & Em1). destruct (list_end _ (d :: q2) ltac:(discriminate)) as (m2 & y2 & Em2).
    assert (Hml : length m1 = length m2).
    { assert (length (x :: q1) = length (d :: q2)) by (cbn [length] in Hlen |- *; lia). rewrite Em1, Em2, !app_length in H. cbn in H. lia. }
    assert (Hl1 : S (length q1) = length m1 + 1) by (change (S (length q1)) with (length (x :: q1)); rewrite Em1, app_length; reflexivity).
    assert (Hl2 : S (length q2) = length m2 + 1) by (change (S (length q2)) with (length (d :: q2)); rewrite Em2, app_length; reflexivity).
    rewrite Em1, Em2. pose proof (swap_remove_mid _ p1 l m1 y1) as R1. pose proof (swap_remove_mid _ p2 c m2 y2) as R2. rewrite E1 in R1. rewrite E2 in R2. rewrite R1, R2.
    rewrite !app_length. cbn [length]. split; [lia |]. split; [lia |]. split; [| split; [| split]].
    + intros H. apply NoDup_remove in H. destruct H as [H _]. rewrite app_assoc in H.
      apply (Permutation.Permutation_NoDup (l := (p1 ++ m1) ++ [y1])); [| assumption].
      rewrite <- app_assoc. apply Permutation.Permutation_app_head. apply Permutation.Permutation_sym, Permutation.Permutation_cons_append.
    + intros z Hz. apply in_app_or in Hz. apply in_or_app. destruct Hz as [Hz | [<- | Hz]]; [now left | |]; right; right; apply in_or_app; [right; now left | now left].
    + intros z Hz. apply in_app_or in Hz. apply in_or_app. destruct Hz as [Hz | [<- | Hz]]; [now left | |]; right; right; apply in_or_app; [right; now left | now left].
    + intros b. rewrite !wsum_app by lia. cbn [wsum]. rewrite wsum_app by lia. cbn [wsum]. lia.
Qed.

Lemma encodes_seq : forall A st (g : G unit) (k : G A) P Q, emits st g P -> encodes st k Q -> (forall st' a b, agree st st' a b -> P a -> P b) ->
  encodes st (g ;; k) (fun b => P b /\ Q b).
Proof.
  intros A st g k P Q Hg Hk Hp. unfold encodes in *. eapply runs_emits; [exact Hg |]. intros c1 B1 S1.
  eapply runs_conseq; [exact Hk |]. intros x st' c2 _ _ [S2 C2]. split.
  - intros b Hb. apply sat_app in Hb. destruct Hb as [V1 V2]. split; [now apply S1 | auto].
  - intros a [H1 H2]. destruct (C2 a H2) as (b & A1 & V). exists b. split; [assumption |]. apply sat_app. split; [| assumption]. apply S1. eapply Hp; eauto.
Qed.

Lemma wsum_zero : forall b ls cs, length ls = length cs -> (forall c, In c cs -> 1 <= c) -> (wsum b ls cs = 0 <-> forall l, In l ls -> lit_sem b l = false).
Proof.
  intros b. induction ls as [| l ls IH]; intros [| c cs] Hl Hc; try discriminate; cbn; [intuition |].
  specialize (IH cs ltac:(cbn in Hl; lia) ltac:(intros; apply Hc; now right)). specialize (Hc c (or_introl eq_refl)). split.
  - intros H y [<- | Hy]; [destruct (lit_sem b l); [lia | reflexivity] |]. apply IH; [destruct (lit_sem b l); lia | assumption].
  - intros H. rewrite (H l) by now left. apply IH. intros y Hy. apply H. now right.
Qed.

Lemma list_max_in : forall l, l <> [] -> In (list_max l) l.
Proof.
  induction l as [| x [| y l] IH]; intros H; [contradiction | cbn; left; lia |]. specialize (IH ltac:(discriminate)).
  change (list_max (x :: y :: l)) with (Nat.max x (list_max (y :: l))). destruct (Nat.max_dec x (list_max (y :: l))) as [E | E]; rewrite E; [now left | now right].
Qed.
Lemma list_max_ge : forall l x, In x l -> x <= list_max l.
Proof. intros l x H. pose proof (proj1 (list_max_le l (list_max l)) (le_n _)) as F. rewrite Forall_forall in F. auto. Qed.

Lemma bm_case_ok : forall watch tmp c ls cs rhs mw st, old st (lit_var tmp) -> olds st ls -> NoDup ls -> length ls = length cs -> cs <> [] ->
  1 <= c <= rhs -> c <= mw -> (forall d, In d cs -> 1 <= d <= mw) -> (watch = false -> pb_sizes (length ls)) ->
  encodes st (bm_case watch tmp c ls cs rhs mw) (fun b => lit_sem b tmp = false \/ c + wsum b ls cs <= rhs).
Proof.
  intros watch tmp c ls cs rhs mw st Ht Ho Hnd Hlen Hne Hc Hcm Hd Hsz. unfold bm_case.
  assert (Hfor : c = rhs -> emits st (gfor ls (fun l => add [lit_negate tmp; lit_negate l])) (fun b => lit_sem b tmp = false \/ c + wsum b ls cs <= rhs)).
  { intros Ec. eapply emits_iff.
    - apply emits_for with (P := fun l b => lit_sem b tmp = false \/ lit_sem b l = false). intros l Hl. eapply emits_iff.
      + apply emits_adds. apply olds_cons. rewrite lit_negate_var. split; [exact Ht |]. apply olds_cons. rewrite lit_negate_var. split; [now apply Ho | apply olds_nil].
      + intros b. cbn [existsb]. rewrite !lit_sem_negate. destruct (lit_sem b tmp), (lit_sem b l); cbn; intuition discriminate.
    - intros b. cbn beta. assert (Hz := wsum_zero b ls cs Hlen ltac:(intros d Hdd; specialize (Hd d Hdd); lia)).
      destruct (lit_sem b tmp); [| intuition]. split.
      + intros H. right. assert (wsum b ls cs = 0) by (apply Hz; intros l Hl; destruct (H l Hl); [discriminate | assumption]). lia.
      + intros [H | H] l Hl; [discriminate | right]. apply Hz; [lia | assumption]. }
  assert (Hbm : forall w, (forall d, In d cs -> 1 <= d <= w) -> 1 <= w ->
     encodes st (binary_merge watch ls cs (rhs - c) w (Some (lit_negate tmp))) (fun b => lit_sem b tmp = false \/ c + wsum b ls cs <= rhs)).
  { intros w Hw H1. eapply encodes_iff.
    - apply binary_merge_ok; try assumption; [cbn; now rewrite lit_negate_var | discriminate].
    - intros b. cbn [gval]. rewrite lit_sem_negate. destruct (lit_sem b tmp); cbn; intuition (try discriminate; lia). }
  destruct (Nat.eqb_spec mw c) as [Emw | Emw].
  - unfold max_coeff. destruct cs as [| c0 cs'] eqn:Ecs; [contradiction |]. rewrite <- Ecs in *. clear Ecs.
    assert (Hg : forall (k : nat -> G unit) Q, encodes st (k (list_max cs)) Q -> encodes st (mw0 <~ glift (Ok (list_max cs)) ;; k mw0) Q).
    { intros k Q H. unfold encodes in *. eapply runs_bind with (P := fun y st' cls => y = list_max cs /\ st' = st /\ cls = []); [eapply runs_lift; [reflexivity | auto] |].
      intros ? ? ? _ _ (-> & -> & ->). cbn [app]. exact H. }
    apply Hg. destruct (Nat.leb_spec rhs c); [apply emits_encodes, Hfor; lia |]. apply Hbm.
    + intros d Hdd. split; [apply Hd; assumption | now apply list_max_ge].
    + apply Hd. now apply list_max_in.
  - eapply encodes_iff.
    + apply encodes_seq with (P := fun b => rhs <= c -> lit_sem b tmp = false \/ c + wsum b ls cs <= rhs).
      * eapply emits_iff; [apply emits_when; intros H; apply Nat.leb_le in H; apply Hfor; lia |].
        intros b. cbn beta. destruct (Nat.leb_spec rhs c); intuition (try discriminate; lia).
      * apply Hbm; [assumption | lia].
      * intros st' a b A H Hr. specialize (H Hr). rewrite (agree_lit st st' a b) by assumption. now rewrite (agree_wsum st st' a b).
    + intros b. cbn beta. intuition.
Qed.

Lemma runs_glift : forall A B st (r : res A) a (k : A -> G B) Q, r = Ok a -> runs st (k a) Q -> runs st (x <~ glift r ;; k x) Q.
Proof.
  intros A B st r a k Q E H. eapply runs_bind with (P := fun y st' cls => y = a /\ st' = st /\ cls = []); [eapply runs_lift; [exact E | auto] |].
  intros ? ? ? _ _ (-> & -> & ->). cbn [app]. exact H.
Qed.

Definition skips (cfg : pb_config) (c : nat) : bool := cfg_no_support_single cfg && single_bit c.

Lemma bm_cases_ok : forall cfg ls cs rhs mw, NoDup ls -> length ls = length cs -> 2 <= length ls ->
  (forall c, In c cs -> 1 <= c <= rhs) -> (forall c, In c cs -> c <= mw) -> (cfg_watch_dog cfg = false -> pb_sizes (length ls)) ->
  forall m k complete st, olds st ls -> k + m = length ls ->
  runs st (bm_cases cfg (seq k m) ls cs rhs mw complete) (fun r st' cls =>
    (fst r = (ls, cs) \/ exists l c, ls = fst (fst r) ++ [l] /\ cs = snd (fst r) ++ [c] /\ skips cfg c = false)
    /\ snd r = complete || existsb (skips cfg) (skipn k cs)
    /\ (forall b, sat b cls -> forall i l c, k <= i -> nth_error ls i = Some l -> nth_error cs i = Some c -> skips cfg c = false ->
          lit_sem b l = true -> wsum b ls cs <= rhs)
    /\ (forall a, wsum a ls cs <= rhs -> exists b, agree st st' a b /\ sat b cls)).
Proof.
  intros cfg ls cs rhs mw Hnd Hlen Hn2 Hc Hmw Hsz. induction m as [| m IH]; intros k complete st Ho Hk; cbn [seq bm_cases].
  - apply runs_ret. split; [now left |]. rewrite skipn_all2 by lia. cbn [existsb]. rewrite orb_false_r. split; [reflexivity |]. split.
    + intros b _ i l c Hi E. apply nth_error_Some_lt in E || (assert (i < length ls) by (apply nth_error_Some; congruence)). lia.
    + intros a _. exists a. split; [apply agree_refl | apply sat_nil].
  - destruct (swap_remove_ok ls cs k Hlen ltac:(lia)) as (l & c & El & Ec & L1 & L2 & ND & In1 & In2 & W).
    assert (Hsk : skipn k cs = c :: skipn (S k) cs).
    { clear - Ec. revert k Ec. induction cs as [| x cs IH]; intros [| k] Ec; cbn in *; try discriminate; [now injection Ec as -> |]. now apply IH. }
    assert (Hcin : In c cs) by (eapply nth_error_In; eauto). assert (Hlin : In l ls) by (eapply nth_error_In; eauto).
    apply runs_glift with (a := c); [unfold ix; now rewrite Ec |]. fold (skips cfg c). destruct (skips cfg c) eqn:Es.
    + eapply runs_conseq; [apply IH; [assumption | lia] |]. intros r st' cls _ _ (R1 & R2 & R3 & R4). split; [assumption |].
      split; [rewrite R2, Hsk; cbn [existsb]; rewrite Es; destruct complete; reflexivity |]. split; [| assumption].
      intros b Hb i l' c' Hi El' Ec' Es' Ht. apply (R3 b Hb i l' c'); try assumption. destruct (Nat.eq_dec i k) as [-> |]; [congruence | lia].
    + apply runs_glift with (a := l); [unfold ix; now rewrite El |]. cbv zeta.
      eapply runs_bind.
      { apply (bm_case_ok (cfg_watch_dog cfg) l c (swap_remove ls k) (swap_remove cs k) rhs mw st).
        - now apply Ho. - intros x Hx. apply Ho. now apply In1. - now apply ND. - lia.
        - intros E. rewrite E in L2. cbn in L2. lia.
        - now apply Hc. - now apply Hmw. - intros d Hd. split; [apply Hc | apply Hmw]; now apply In2.
        - intros Hw. eapply usize_mono; [| apply Hsz; assumption]. lia. }
      intros [] st1 c1 L B1 [S1 C1].
      assert (Hs1 : forall b, sat b c1 -> lit_sem b l = true -> wsum b ls cs <= rhs).
      { intros b Hb Ht. destruct (S1 b Hb) as [F | F]; [congruence |]. rewrite W, Ht. exact F. }
      assert (Hc1 : forall a, wsum a ls cs <= rhs -> exists b, agree st st1 a b /\ sat b c1).
      { intros a Ha. apply C1. destruct (lit_sem a l) eqn:E; [right | now left]. rewrite W, E in Ha. exact Ha. }
      destruct (Nat.ltb_spec k (length (swap_remove ls k))) as [Hlt | Hge].
      * eapply runs_conseq; [apply IH; [exact (olds_mono _ _ _ L Ho) | lia] |]. intros r st2 c2 L' B2 (R1 & R2 & R3 & R4). split; [assumption |].
        split; [rewrite R2, Hsk; cbn [existsb]; now rewrite Es |]. split.
        -- intros b Hb i l' c' Hi El' Ec' Es' Ht. apply sat_app in Hb. destruct Hb as [V1 V2].
           destruct (Nat.eq_dec i k) as [-> |]; [rewrite El in El'; injection El' as <-; now apply Hs1 |]. apply (R3 b V2 i l' c'); try assumption. lia.
        -- intros a Ha. destruct (Hc1 a Ha) as (b1 & A1 & V1). destruct (R4 b1) as (b2 & A2 & V2).
           { now rewrite (agree_wsum st st1 a b1 ls cs A1 Ho). }
           exists b2. split; [exact (agree_trans _ _ _ _ _ _ L L' A1 A2) |]. apply sat_app. split; [| assumption]. exact (agree_sat _ _ _ _ _ A2 B1 V1).
      * assert (m = 0) by lia. subst m. cbn [seq bm_cases]. apply runs_ret. cbn [fst snd]. rewrite app_nil_r.
        destruct (list_end _ ls ltac:(intros E; rewrite E in Hn2; cbn in Hn2; lia)) as (ls' & l0 & E1).
        destruct (list_end _ cs ltac:(intros E; rewrite E in Hlen; cbn in Hlen; lia)) as (cs' & c0 & E2).
        assert (K1 : k = length ls') by (rewrite E1, app_length in Hk; cbn in Hk; lia).
        assert (K2 : k = length cs') by (rewrite Hlen, E2, app_length in Hk; cbn in Hk; lia).
        split; [right; exists l, c |].
        { assert (l = l0) as ->. { rewrite E1, nth_error_app2, K1, Nat.sub_diag in El by lia. now injection El. }
          assert (c = c0) as ->. { rewrite E2, nth_error_app2, K2, Nat.sub_diag in Ec by lia. now injection Ec. }
          rewrite E1 at 2. rewrite E2 at 2. rewrite K1 at 1. rewrite swap_remove_last. rewrite K2, swap_remove_last. auto. }
        split; [rewrite Hsk; cbn [existsb]; rewrite Es; rewrite skipn_all2 by lia; cbn; now rewrite orb_false_r |]. split.
        -- intros b Hb i l' c' Hi El' Ec' Es' Ht. assert (i < length ls) by (apply nth_error_Some; congruence).
           assert (i = k) as -> by lia. rewrite El in El'. injection El' as <-. now apply Hs1.
        -- exact Hc1.
Qed.

Lemma wsum_true : forall b ls cs, length ls = length cs -> 1 <= wsum b ls cs ->
  exists i l c, nth_error ls i = Some l /\ nth_error cs i = Some c /\ lit_sem b l = true.
Proof.
  intros b. induction ls as [| l ls IH]; intros [| c cs] Hl H; try discriminate; cbn in H; [lia |].
  destruct (lit_sem b l) eqn:E; [exists 0, l, c; auto |]. destruct (IH cs ltac:(cbn in Hl; lia) ltac:(lia)) as (i & l' & c' & ? & ? & ?). exists (S i), l', c'. auto.
Qed.

Lemma encode_binary_merge_ok : forall cfg ls cs rhs st, olds st ls -> NoDup ls -> length ls = length cs -> 2 <= length ls ->
  (forall c, In c cs -> 1 <= c <= rhs) -> (cfg_watch_dog cfg = false -> pb_sizes (length ls)) ->
  encodes st (encode_binary_merge cfg ls cs rhs) (fun b => wsum b ls cs <= rhs).
Proof.
  intros cfg ls cs rhs st Ho Hnd Hlen Hn2 Hc Hsz. unfold encode_binary_merge.
  assert (Hne : cs <> []) by (intros ->; cbn in Hlen; lia).
  assert (Hmax : forall c, In c cs -> 1 <= c <= list_max cs) by (intros c H; split; [now apply Hc | now apply list_max_ge]).
  assert (H1m : 1 <= list_max cs) by (apply Hc; now apply list_max_in).
  unfold encodes. apply runs_glift with (a := list_max cs); [unfold max_coeff; destruct cs; [contradiction | reflexivity] |].
  destruct (cfg_use_gac cfg); cbn [negb].
  2: { change (encodes st (binary_merge (cfg_watch_dog cfg) ls cs rhs (list_max cs) None) (fun b => wsum b ls cs <= rhs)).
       eapply encodes_iff; [apply binary_merge_ok; try assumption; [exact I | intros _ c H; now apply Hc] |].
       intros b. cbn. intuition discriminate. }
  eapply runs_bind.
  { apply (bm_cases_ok cfg ls cs rhs (list_max cs)) with (k := 0) (m := length ls); try assumption; [| reflexivity]. intros c H. now apply Hmax. }
  intros [[ls' cs'] compl] st1 c1 L B1 (R1 & R2 & R3 & R4). cbn [fst snd] in *. cbn [orb skipn] in R2.
  assert (Hsub : olds st ls' /\ NoDup ls' /\ length ls' = length cs' /\ (forall c, In c cs' -> In c cs) /\ length ls' <= length ls
     /\ (forall b, wsum b ls' cs' <= wsum b ls cs)
     /\ (forall b, (forall i l c, nth_error ls i = Some l -> nth_error cs i = Some c -> lit_sem b l = true -> skips cfg c = true) -> wsum b ls cs = wsum b ls' cs')).
  { destruct R1 as [E | (l & c & E1 & E2 & Es)].
    - injection E as -> ->. repeat split; auto.
    - assert (Hl' : length ls' = length cs') by (rewrite E1, E2, !app_length in Hlen; cbn in Hlen; lia).
      assert (Hw : forall b, wsum b ls cs = wsum b ls' cs' + (if lit_sem b l then c else 0)) by (intros b; rewrite E1, E2, wsum_app by assumption; cbn; lia).
      split; [intros x Hx; apply Ho; rewrite E1; apply in_or_app; now left |].
      split; [rewrite E1 in Hnd; apply NoDup_remove_1 in Hnd; now rewrite app_nil_r in Hnd |]. split; [assumption |].
      split; [intros x Hx; rewrite E2; apply in_or_app; now left |]. split; [rewrite E1, app_length; lia |]. split; [intros b; rewrite Hw; lia |].
      intros b Hb. rewrite Hw. destruct (lit_sem b l) eqn:El; [| lia]. exfalso.
      assert (skips cfg c = true); [| congruence]. apply (Hb (length ls') l c); [| | assumption].
      + rewrite E1, nth_error_app2, Nat.sub_diag by lia. reflexivity.
      + rewrite E2, Hl', nth_error_app2, Nat.sub_diag by lia. reflexivity. }
  destruct Hsub as (Ho' & Hnd' & Hlen' & Hin' & Hle' & Hw' & Heq').
  assert (HB : encodes st1 (gwhen (cfg_no_support_single cfg && compl) (binary_merge (cfg_watch_dog cfg) ls' cs' rhs (list_max cs) None))
     (fun b => cfg_no_support_single cfg && compl = true -> wsum b ls' cs' <= rhs)).
  { destruct (cfg_no_support_single cfg && compl); cbn [gwhen].
    - eapply encodes_iff.
      + apply binary_merge_ok; try assumption; [exact I | exact (olds_mono _ _ _ L Ho') | | |].
        * intros c H. apply Hmax, Hin', H. * intros _ c H. apply Hc, Hin', H. * intros E. eapply usize_mono; [| apply Hsz; assumption]. lia.
      + intros b. cbn. intuition discriminate.
    - apply emits_encodes. eapply emits_iff; [apply emits_ret |]. intros b. split; [discriminate | auto]. }
  eapply runs_conseq; [exact HB |]. cbv beta. intros [] st2 c2 L' B2 [S2 C2]. split.
  - intros b Hb. apply sat_app in Hb. destruct Hb as [V1 V2].
    destruct (le_gt_dec (wsum b ls cs) rhs) as [| Hgt]; [assumption | exfalso].
    assert (Hall : forall i l c, nth_error ls i = Some l -> nth_error cs i = Some c -> lit_sem b l = true -> skips cfg c = true).
    { intros i l c El Ec Ht. destruct (skips cfg c) eqn:Es; [reflexivity |]. specialize (R3 b V1 i l c ltac:(lia) El Ec Es Ht). lia. }
    destruct (wsum_true b ls cs Hlen ltac:(lia)) as (i & l & c & El & Ec & Ht). pose proof (Hall i l c El Ec Ht) as Es.
    assert (compl = true). { rewrite R2. apply existsb_exists. exists c. split; [eapply nth_error_In; eauto | assumption]. }
    assert (cfg_no_support_single cfg && compl = true). { unfold skips in Es. apply andb_true_iff in Es. rewrite H. now rewrite (proj1 Es). }
    specialize (S2 b V2 H0). rewrite (Heq' b Hall) in Hgt. lia.
  - intros a Ha. destruct (R4 a Ha) as (b1 & A1 & V1). destruct (C2 b1) as (b2 & A2 & V2).
    + intros _. specialize (Hw' b1). rewrite (agree_wsum st st1 a b1 ls cs A1 Ho) in Hw'. lia.
    + exists b2. split; [exact (agree_trans _ _ _ _ _ _ L L' A1 A2) |]. apply sat_app. split; [| assumption]. exact (agree_sat _ _ _ _ _ A2 B1 V1).
Qed.

(** Weights as in the constraint. *)
Fixpoint zsum (b : valuation) (ls : list lit) (cs : list Z) : Z :=
  match ls, cs with
  | l :: ls', c :: cs' => ((if lit_sem b l then c else 0) + zsum b ls' cs')%Z
  | _, _ => 0%Z
  end.
Lemma zsum_nonneg : forall b ls cs, (forall c, In c cs -> (1 <= c)%Z) -> (0 <= zsum b ls cs)%Z.
Proof.
  intros b. induction ls as [| l ls IH]; intros [| c cs] H; cbn; try lia. specialize (IH cs ltac:(intros; apply H; now right)).
  specialize (H c (or_introl eq_refl)). destruct (lit_sem b l); lia.
Qed.
Lemma zsum_zero : forall b ls cs, length ls = length cs -> (forall c, In c cs -> (1 <= c)%Z) ->
  ((zsum b ls cs <= 0)%Z <-> forall l, In l ls -> lit_sem b l = false).
Proof.
  intros b. induction ls as [| l ls IH]; intros [| c cs] Hl H; try discriminate; cbn; [split; [intros _ l [] | lia] |].
  specialize (IH cs ltac:(cbn in Hl; lia) ltac:(intros; apply H; now right)). pose proof (H c (or_introl eq_refl)).
  pose proof (zsum_nonneg b ls cs ltac:(intros; apply H; now right)). split.
  - intros Hz x [<- | Hx]; [destruct (lit_sem b l); [lia | reflexivity] |]. apply IH; [destruct (lit_sem b l); lia | assumption].
  - intros Hz. rewrite (Hz l) by now left. apply IH. intros x Hx. apply Hz. now right.
Qed.

Lemma split_coeffs_ok : forall rhs ls cs k kc n, (0 < rhs)%Z -> length ls = length cs -> (forall c, In c cs -> (1 <= c)%Z) ->
  split_coeffs ls cs rhs = (k, kc, n) ->
  length k = length kc /\ length k <= length ls /\ (forall l, In l k -> In l ls) /\ (forall l, In l n -> In l ls) /\ (NoDup ls -> NoDup k)
  /\ (forall c, In c kc -> 1 <= c <= Z.to_nat rhs)
  /\ (forall b, (zsum b ls cs <= rhs)%Z <-> (forall l, In l n -> lit_sem b l = false) /\ wsum b k kc <= Z.to_nat rhs)
  /\ (forall b, (forall l, In l n -> lit_sem b l = false) -> zsum b ls cs = Z.of_nat (wsum b k kc)).
Proof.
  intros rhs. induction ls as [| l ls IH]; intros [| c cs] k kc n Hr Hl Hc E; try discriminate; cbn [split_coeffs] in E.
  - injection E as <- <- <-. cbn. split; [reflexivity |]. split; [lia |]. split; [intros ? [] |]. split; [intros ? [] |]. split; [auto |].
    split; [intros ? [] |]. split; [| intros; reflexivity]. intros b. split; [intros _; split; [intros ? [] | lia] | lia].
  - destruct (split_coeffs ls cs rhs) as [[k' kc'] n'] eqn:E'.
    destruct (IH cs k' kc' n' Hr ltac:(cbn in Hl; lia) ltac:(intros; apply Hc; now right) E') as (H1 & H2 & H3 & H4 & H5 & H6 & H7 & H8).
    pose proof (Hc c (or_introl eq_refl)) as Hc1. assert (Hnn : forall b, (0 <= zsum b ls cs)%Z) by (intros b; apply zsum_nonneg; intros; apply Hc; now right).
    destruct (Z.leb_spec c rhs); injection E as <- <- <-; cbn [length].
    + split; [lia |]. split; [lia |]. split; [intros x [<- | Hx]; [now left | right; auto] |]. split; [intros x Hx; right; auto |].
      split. { intros Hd. inversion Hd; subst. constructor; [intros F; auto | auto]. }
      split. { intros d [<- | Hd]; [lia | auto]. }
      assert (H8' : forall b, (forall x, In x n' -> lit_sem b x = false) -> zsum b (l :: ls) (c :: cs) = Z.of_nat (wsum b (l :: k') (Z.to_nat c :: kc'))).
      { intros b Hb. cbn [zsum wsum]. rewrite (H8 b Hb). destruct (lit_sem b l); lia. }
      split; [| assumption]. intros b. split.
      * intros Hz. assert (Hn : forall x, In x n' -> lit_sem b x = false). { apply H7. cbn [zsum] in Hz. destruct (lit_sem b l); lia. }
        split; [assumption |]. rewrite (H8' b Hn) in Hz. lia.
      * intros [Hn Hw]. rewrite (H8' b Hn). lia.
    + split; [lia |]. split; [lia |]. split; [intros x Hx; right; auto |]. split; [intros x [<- | Hx]; [now left | right; auto] |].
      split. { intros Hd. inversion Hd; subst. auto. } split; [assumption |].
      assert (H8' : forall b, (forall x, In x (l :: n') -> lit_sem b x = false) -> zsum b (l :: ls) (c :: cs) = Z.of_nat (wsum b k' kc')).
      { intros b Hb. cbn [zsum]. rewrite (Hb l) by now left. rewrite (H8 b) by (intros x Hx; apply Hb; now right). lia. }
      split; [| assumption]. intros b. split.
      * intros Hz. cbn [zsum] in Hz. specialize (Hnn b). destruct (lit_sem b l) eqn:El; [lia |].
        assert (Hz' : (zsum b ls cs <= rhs)%Z) by lia. apply H7 in Hz'. destruct Hz' as [Hn Hw]. split; [| assumption]. intros x [<- | Hx]; auto.
      * intros [Hn Hw]. rewrite (H8' b Hn). lia.
Qed.

Lemma encode_internal_ok : forall cfg ls cs rhs st, olds st ls -> NoDup ls -> length ls = length cs -> (forall c, In c cs -> (1 <= c)%Z) ->
  (cfg_pb_alg cfg = PbBinaryMerge -> cfg_watch_dog cfg = false -> pb_sizes (length ls)) ->
  encodes st (encode_internal cfg ls cs rhs) (fun b => (zsum b ls cs <= rhs)%Z).
Proof.
  intros cfg ls cs rhs st Ho Hnd Hlen Hc Hsz. unfold encode_internal.
  destruct (Z.compare_spec rhs 0) as [-> | Hneg | Hpos].
  - apply emits_encodes. eapply emits_iff; [apply emits_negs; exact Ho |]. intros b. rewrite cnt_zero. symmetry. now apply zsum_zero.
  - apply emits_encodes. apply emits_empty. intros b. pose proof (zsum_nonneg b ls cs Hc). lia.
  - destruct (split_coeffs ls cs rhs) as [[k kc] n] eqn:E.
    destruct (split_coeffs_ok rhs ls cs k kc n Hpos Hlen Hc E) as (H1 & H2 & H3 & H4 & H5 & H6 & H7 & H8).
    assert (Hok : olds st k) by (intros x Hx; apply Ho; auto). assert (Hon : olds st n) by (intros x Hx; apply Ho; auto).
    eapply encodes_iff; [| intros b; symmetry; apply H7].
    apply encodes_seq with (P := fun b => forall l, In l n -> lit_sem b l = false).
    + eapply emits_iff; [apply emits_negs; exact Hon | intros b; apply cnt_zero].
    + destruct (Nat.leb_spec 2 (length k)) as [Hk | Hk]; cbn [gwhen].
      * destruct (cfg_pb_alg cfg) eqn:Ea.
        all: try (now apply encode_swc_ok).
        -- apply encode_binary_merge_ok; auto. intros Hw. eapply usize_mono; [| apply Hsz; auto]. lia.
        -- apply encode_adder_networks_ok; auto. intros c Hcc. now apply H6.
      * apply emits_encodes. eapply emits_iff; [apply emits_ret |]. intros b. split; [intros _ | auto].
        destruct k as [| l [| ? ?]], kc as [| c [| ? ?]]; cbn in H1, Hk; try lia; cbn; [lia |]. specialize (H6 c (or_introl eq_refl)). destruct (lit_sem b l); lia.
    + intros st' a b A H l Hl. rewrite (agree_lit st st' a b) by auto. auto.
Qed.
