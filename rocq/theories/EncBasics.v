(** Reasoning rules for the encoders of [CcModel]: the meaning of clause lists, fresh variables, and a rule for each
    construct of the clause generator. *)
From Coq Require Import NArith ZArith List Bool Arith Lia.
From Verif Require Import Base EncodingModel Syntax FactoryModel CcModel.
Import ListNotations.
Local Open Scope nat_scope.
Local Open Scope gen_scope.

(* ------------------------------------------------------------------------------------------------------------------ *)
(** * Clauses *)

Definition csat (b : valuation) (c : clause) : Prop := exists l, In l c /\ lit_sem b l = true.
Definition sat (b : valuation) (cls : list clause) : Prop := forall c, In c cls -> csat b c.

(** Number of true literals, counted by position. *)
Fixpoint cnt (b : valuation) (ls : list lit) : nat :=
  match ls with [] => 0 | l :: r => (if lit_sem b l then 1 else 0) + cnt b r end.

Lemma lit_negate_var : forall l, lit_var (lit_negate l) = lit_var l.
Proof. intros []; reflexivity. Qed.
Lemma lit_sem_negate : forall b l, lit_sem b (lit_negate l) = negb (lit_sem b l).
Proof. intros b [v []]; cbn; [reflexivity | now rewrite negb_involutive]. Qed.
Lemma lit_negate_invol : forall l, lit_negate (lit_negate l) = l.
Proof. intros [v []]; reflexivity. Qed.

Lemma sat_nil : forall b, sat b [].
Proof. intros b c []. Qed.
Lemma sat_app : forall b c1 c2, sat b (c1 ++ c2) <-> sat b c1 /\ sat b c2.
Proof.
  unfold sat. intros b c1 c2. split.
  - intros H. split; intros c Hc; apply H; apply in_or_app; auto.
  - intros [H1 H2] c Hc. apply in_app_or in Hc. destruct Hc; auto.
Qed.
Lemma sat_one : forall b c, sat b [c] <-> csat b c.
Proof. unfold sat. intros b c. split; [intros H; apply H; now left |]. intros H c' [<- | []]. exact H. Qed.
Lemma csat_nil : forall b, ~ csat b [].
Proof. intros b [l [[] _]]. Qed.
Lemma csat_cons : forall b l c, csat b (l :: c) <-> lit_sem b l = true \/ csat b c.
Proof.
  unfold csat. intros b l c. split.
  - intros [k [[<- | H] E]]; [now left | right; eauto].
  - intros [E | [k [H E]]]; [exists l; cbn; auto | exists k; cbn; auto].
Qed.
Lemma csat_app : forall b c1 c2, csat b (c1 ++ c2) <-> csat b c1 \/ csat b c2.
Proof.
  intros b c1 c2. induction c1 as [| l c1 IH]; cbn [app].
  - split; [auto |]. intros [H | H]; auto. now apply csat_nil in H.
  - rewrite !csat_cons, IH. tauto.
Qed.
Lemma sem_neg_true : forall b l, lit_sem b (lit_negate l) = true <-> lit_sem b l = false.
Proof. intros. rewrite lit_sem_negate. destruct (lit_sem b l); cbn; intuition congruence. Qed.

(** The truth value of position [i] of a list. *)
Definition tr (b : valuation) (l : list lit) (i : nat) : bool :=
  match nth_error l i with Some x => lit_sem b x | None => false end.

Lemma tr_lt : forall b l i, tr b l i = true -> i < length l.
Proof.
  unfold tr. intros b l i H. apply nth_error_Some. destruct (nth_error l i); congruence.
Qed.
Lemma tr_in : forall b l i, tr b l i = true -> exists x, In x l /\ nth_error l i = Some x /\ lit_sem b x = true.
Proof.
  unfold tr. intros b l i H. destruct (nth_error l i) as [x |] eqn:E; [| discriminate].
  exists x. split; [| auto]. eapply nth_error_In; eauto.
Qed.
Lemma tr_cons : forall b x l i, tr b (x :: l) (S i) = tr b l i.
Proof. reflexivity. Qed.
Lemma tr_app_l : forall b l1 l2 i, i < length l1 -> tr b (l1 ++ l2) i = tr b l1 i.
Proof. intros. unfold tr. rewrite nth_error_app1 by lia. reflexivity. Qed.
Lemma tr_app_r : forall b l1 l2 i, length l1 <= i -> tr b (l1 ++ l2) i = tr b l2 (i - length l1).
Proof. intros. unfold tr. rewrite nth_error_app2 by lia. reflexivity. Qed.

(* ------------------------------------------------------------------------------------------------------------------ *)
(** * Counting *)

Lemma cnt_app : forall b l1 l2, cnt b (l1 ++ l2) = cnt b l1 + cnt b l2.
Proof. induction l1 as [| x l1 IH]; intros; cbn; [reflexivity |]. rewrite IH. lia. Qed.
Lemma cnt_le : forall b l, cnt b l <= length l.
Proof. induction l as [| x l IH]; cbn; [lia |]. destruct (lit_sem b x); lia. Qed.
Lemma cnt_rev : forall b l, cnt b (rev l) = cnt b l.
Proof. induction l as [| x l IH]; cbn; [reflexivity |]. rewrite cnt_app, IH. cbn. lia. Qed.
Lemma cnt_neg : forall b l, cnt b (map lit_negate l) + cnt b l = length l.
Proof.
  induction l as [| x l IH]; cbn [map cnt length]; [reflexivity |].
  rewrite lit_sem_negate. destruct (lit_sem b x); cbn [negb]; lia.
Qed.
Lemma cnt_split : forall b k l, cnt b l = cnt b (firstn k l) + cnt b (skipn k l).
Proof. intros. rewrite <- cnt_app, firstn_skipn. reflexivity. Qed.
Lemma cnt_zero : forall b l, cnt b l = 0 <-> (forall x, In x l -> lit_sem b x = false).
Proof.
  intros b. induction l as [| x l IH]; cbn; [split; [intros _ x [] | auto] |].
  split.
  - intros H y [<- | Hy]; destruct (lit_sem b x) eqn:E; try lia; auto. apply IH; auto; lia.
  - intros H. rewrite (H x) by auto. apply IH. auto.
Qed.
Lemma cnt_pos : forall b l, 1 <= cnt b l <-> (exists x, In x l /\ lit_sem b x = true).
Proof.
  intros b l. split.
  - induction l as [| x l IH]; cbn; [lia |]. destruct (lit_sem b x) eqn:E.
    + intros _. exists x. auto.
    + intros H. destruct IH as [y [Hy Ey]]; [lia |]. exists y; auto.
  - intros [x [Hx Ex]]. destruct (cnt b l) eqn:E; [| lia].
    rewrite cnt_zero in E. rewrite (E x Hx) in Ex. discriminate.
Qed.
Lemma cnt_full : forall b l, cnt b l = length l <-> (forall x, In x l -> lit_sem b x = true).
Proof.
  intros b. induction l as [| x l IH]; cbn [cnt length]; [split; [intros _ x [] | auto] |].
  pose proof (cnt_le b l). split.
  - intros E y [<- | Hy]; destruct (lit_sem b x) eqn:Ex; try lia; auto. apply IH; auto; lia.
  - intros Hall. rewrite (Hall x) by (now left). cbn. f_equal. apply IH. intros y Hy. apply Hall. now right.
Qed.
Lemma cnt_ext : forall b1 b2 l, (forall x, In x l -> lit_sem b1 x = lit_sem b2 x) -> cnt b1 l = cnt b2 l.
Proof.
  intros b1 b2. induction l as [| x l IH]; intros H; cbn; [reflexivity |].
  rewrite (H x) by (now left). rewrite IH; auto. intros y Hy. apply H. now right.
Qed.

(** Two different true positions exist exactly if the count is at least two. *)
Lemma cnt_two : forall b l i j, i < j -> tr b l i = true -> tr b l j = true -> 2 <= cnt b l.
Proof.
  intros b. induction l as [| x l IH]; intros i j Hij Hi Hj.
  - unfold tr in Hi. destruct i; discriminate.
  - destruct j as [| j]; [lia |]. rewrite tr_cons in Hj. cbn [cnt].
    destruct i as [| i].
    + unfold tr in Hi. cbn in Hi. rewrite Hi.
      apply tr_in in Hj. destruct Hj as [y [Hy [_ Ey]]].
      assert (1 <= cnt b l) by (apply cnt_pos; eauto). lia.
    + rewrite tr_cons in Hi. specialize (IH i j). assert (i < j) by lia. specialize (IH H Hi Hj). lia.
Qed.
Lemma cnt_pos_tr : forall b l, 1 <= cnt b l -> exists i, tr b l i = true.
Proof.
  intros b l H. apply cnt_pos in H. destruct H as [x [Hx Ex]].
  apply In_nth_error in Hx. destruct Hx as [i Hi]. exists i. unfold tr. rewrite Hi. exact Ex.
Qed.
Lemma cnt_two_ex : forall b l, 2 <= cnt b l -> exists i j, i < j /\ tr b l i = true /\ tr b l j = true.
Proof.
  intros b. induction l as [| x l IH]; cbn [cnt]; intros H; [lia |].
  destruct (lit_sem b x) eqn:E.
  - destruct (cnt_pos_tr b l) as [j Hj]; [lia |]. exists 0, (S j). split; [lia |]. split; [exact E | exact Hj].
  - destruct IH as [i [j [Hij [Hi Hj]]]]; [lia |]. exists (S i), (S j). split; [lia |]. split; assumption.
Qed.
Lemma cnt_le_one : forall b l, (forall i j, tr b l i = true -> tr b l j = true -> i = j) <-> cnt b l <= 1.
Proof.
  intros b l. split.
  - intros H. destruct (le_lt_dec (cnt b l) 1) as [| Hc]; [assumption |].
    destruct (cnt_two_ex b l Hc) as [i [j [Hij [Hi Hj]]]]. specialize (H i j Hi Hj). lia.
  - intros H i j Hi Hj. destruct (lt_eq_lt_dec i j) as [[Hl | He] | Hg]; [| assumption |].
    + pose proof (cnt_two b l i j Hl Hi Hj). lia.
    + pose proof (cnt_two b l j i Hg Hj Hi). lia.
Qed.

Lemma count_true_cnt : forall b xs, count_true b xs = Z.of_nat (cnt b (map plit xs)).
Proof. induction xs as [| x xs IH]; cbn [count_true map cnt]; [reflexivity |]. rewrite IH. cbn. destruct (b x); lia. Qed.

(* ------------------------------------------------------------------------------------------------------------------ *)
(** * Fresh variables *)

Definition old (st : ctrs) (v : var) : Prop := match v with VFF i => (i < k_ff st)%N | VAux a i => (i < ctr st a)%N end.
Definition fresh (st st' : ctrs) (v : var) : Prop :=
  match v with VFF _ => False | VAux a i => (ctr st a <= i < ctr st' a)%N end.
Definition cle (st st' : ctrs) : Prop :=
  forall o, match o with Some a => (ctr st a <= ctr st' a)%N | None => k_ff st = k_ff st' end.
Definition olds (st : ctrs) (ls : list lit) : Prop := forall l, In l ls -> old st (lit_var l).
Definition bounded (st : ctrs) (cls : list clause) : Prop := forall c, In c cls -> olds st c.

(** [b] differs from [a] only on the variables created between [st] and [st']. *)
Definition agree (st st' : ctrs) (a b : valuation) : Prop := forall v, fresh st st' v \/ b v = a v.

Lemma cle_refl : forall st, cle st st.
Proof. intros st [a |]; lia. Qed.
Lemma cle_trans : forall s1 s2 s3, cle s1 s2 -> cle s2 s3 -> cle s1 s3.
Proof. intros s1 s2 s3 H1 H2 a. specialize (H1 a). specialize (H2 a). destruct a; [lia | congruence]. Qed.
Lemma cle_bump : forall st a, cle st (bump st a).
Proof. intros st a [x |]; [destruct a, x; cbn; lia | destruct a; reflexivity]. Qed.
Lemma old_mono : forall st st' v, cle st st' -> old st v -> old st' v.
Proof. intros st st' [i | a i] H; cbn; [pose proof (H None); cbn in *; lia |]. specialize (H (Some a)). cbn in H. lia. Qed.
Lemma olds_mono : forall st st' ls, cle st st' -> olds st ls -> olds st' ls.
Proof. intros st st' ls H Ho l Hl. eapply old_mono; eauto. Qed.
Lemma bounded_mono : forall st st' cls, cle st st' -> bounded st cls -> bounded st' cls.
Proof. intros st st' cls H Hb c Hc. eapply olds_mono; eauto. Qed.
Lemma bounded_app : forall st c1 c2, bounded st c1 -> bounded st c2 -> bounded st (c1 ++ c2).
Proof. intros st c1 c2 H1 H2 c Hc. apply in_app_or in Hc. destruct Hc; [apply H1 | apply H2]; assumption. Qed.
Lemma bounded_nil : forall st, bounded st [].
Proof. intros st c []. Qed.
Lemma olds_app : forall st l1 l2, olds st (l1 ++ l2) <-> olds st l1 /\ olds st l2.
Proof.
  unfold olds. intros. split.
  - intros H. split; intros l Hl; apply H; apply in_or_app; auto.
  - intros [H1 H2] l Hl. apply in_app_or in Hl. destruct Hl; auto.
Qed.
Lemma olds_cons : forall st x l, olds st (x :: l) <-> old st (lit_var x) /\ olds st l.
Proof.
  unfold olds. intros. split.
  - intros H. split; [apply H; now left | intros y Hy; apply H; now right].
  - intros [H1 H2] y [<- | Hy]; auto.
Qed.
Lemma olds_nil : forall st, olds st [].
Proof. intros st l []. Qed.
Lemma olds_incl : forall st l1 l2, incl l1 l2 -> olds st l2 -> olds st l1.
Proof. intros st l1 l2 H Ho l Hl. apply Ho, H, Hl. Qed.
Lemma olds_firstn : forall st k l, olds st l -> olds st (firstn k l).
Proof. intros st k l H x Hx. apply H. rewrite <- (firstn_skipn k l). apply in_or_app. now left. Qed.
Lemma olds_skipn : forall st k l, olds st l -> olds st (skipn k l).
Proof. intros st k l H x Hx. apply H. rewrite <- (firstn_skipn k l). apply in_or_app. now right. Qed.
Lemma olds_rev : forall st l, olds st l -> olds st (rev l).
Proof. intros st l H x Hx. apply H. now apply in_rev. Qed.
Lemma olds_neg : forall st l, olds st l -> olds st (map lit_negate l).
Proof. intros st l H x Hx. apply in_map_iff in Hx. destruct Hx as [y [<- Hy]]. rewrite lit_negate_var. auto. Qed.

Lemma agree_refl : forall st st' a, agree st st' a a.
Proof. intros st st' a v. now right. Qed.
Lemma agree_trans : forall s1 s2 s3 a b c, cle s1 s2 -> cle s2 s3 -> agree s1 s2 a b -> agree s2 s3 b c -> agree s1 s3 a c.
Proof.
  intros s1 s2 s3 a b c L1 L2 H1 H2 v. specialize (H1 v). specialize (H2 v).
  destruct v as [i | t i]; cbn in *.
  - destruct H1 as [[] | H1]. destruct H2 as [[] | H2]. right. congruence.
  - pose proof (L1 (Some t)). pose proof (L2 (Some t)). cbn in *. destruct H1 as [H1 | H1]; [left; lia |].
    destruct H2 as [H2 | H2]; [left; lia |]. right. congruence.
Qed.
Lemma agree_old : forall st st' a b v, agree st st' a b -> old st v -> b v = a v.
Proof. intros st st' a b v H Ho. destruct (H v) as [Hf |]; [| assumption]. destruct v; cbn in *; [contradiction | lia]. Qed.
Lemma agree_lit : forall st st' a b l, agree st st' a b -> old st (lit_var l) -> lit_sem b l = lit_sem a l.
Proof. intros st st' a b [v p] H Ho. cbn in *. erewrite agree_old by eauto. reflexivity. Qed.
Lemma agree_cnt : forall st st' a b ls, agree st st' a b -> olds st ls -> cnt b ls = cnt a ls.
Proof. intros. apply cnt_ext. intros x Hx. eapply agree_lit; eauto. Qed.
Lemma agree_tr : forall st st' a b ls i, agree st st' a b -> olds st ls -> tr b ls i = tr a ls i.
Proof.
  intros st st' a b ls i H Ho. unfold tr. destruct (nth_error ls i) as [x |] eqn:E; [| reflexivity].
  eapply agree_lit; eauto. apply Ho. eapply nth_error_In; eauto.
Qed.
Lemma agree_sat : forall st st' a b cls, agree st st' a b -> bounded st cls -> sat a cls -> sat b cls.
Proof.
  intros st st' a b cls H Hb Hs c Hc. destruct (Hs c Hc) as [l [Hl E]]. exists l. split; [assumption |].
  erewrite agree_lit; eauto. apply (Hb c Hc l Hl).
Qed.

(* ------------------------------------------------------------------------------------------------------------------ *)
(** * Running the generator *)

(** [g] started in [st] returns; the clauses only speak about variables known at the end; the result satisfies [post]. *)
Definition runs {A} (st : ctrs) (g : G A) (post : A -> ctrs -> list clause -> Prop) : Prop :=
  exists a st' cls, g st = Ok (a, st', cls) /\ cle st st' /\ bounded st' cls /\ post a st' cls.

Lemma runs_ret : forall A st (a : A) (post : A -> ctrs -> list clause -> Prop), post a st [] -> runs st (gret a) post.
Proof.
  intros A st a post H. exists a, st, []. split; [reflexivity |]. auto using cle_refl, bounded_nil.
Qed.
Lemma runs_bind : forall A B st (g : G A) (k : A -> G B) P Q,
  runs st g P ->
  (forall a st' cls, cle st st' -> bounded st' cls -> P a st' cls -> runs st' (k a) (fun b st'' cls' => Q b st'' (cls ++ cls'))) ->
  runs st (gbind g k) Q.
Proof.
  intros A B st g k P Q (a & st1 & c1 & E1 & L1 & B1 & P1) Hk.
  destruct (Hk a st1 c1 L1 B1 P1) as (b & st2 & c2 & E2 & L2 & B2 & P2).
  exists b, st2, (c1 ++ c2). unfold gbind. rewrite E1, E2. repeat split; auto.
  - eapply cle_trans; eauto.
  - apply bounded_app; [eapply bounded_mono; eauto | assumption].
Qed.
Lemma runs_conseq : forall A st (g : G A) (P Q : A -> ctrs -> list clause -> Prop),
  runs st g P ->
  (forall a st' cls, cle st st' -> bounded st' cls -> P a st' cls -> Q a st' cls) -> runs st g Q.
Proof. intros A st g P Q (a & st1 & c1 & E & L & B & H) Hi. exists a, st1, c1. repeat split; auto. Qed.
Lemma runs_lift : forall A st (r : res A) a (post : A -> ctrs -> list clause -> Prop), r = Ok a -> post a st [] -> runs st (glift r) post.
Proof. intros A st r a post -> H. exists a, st, []. repeat split; auto using cle_refl, bounded_nil. Qed.
Lemma runs_assert : forall st b (post : unit -> ctrs -> list clause -> Prop), b = true -> post tt st [] -> runs st (gassert b) post.
Proof. intros st b post -> H. apply runs_ret. exact H. Qed.

Lemma runs_ctr_new : forall st a, ctr (bump st a) a = N.succ (ctr st a).
Proof. intros st []; reflexivity. Qed.

Lemma runs_new : forall st a (post : lit -> ctrs -> list clause -> Prop),
  (forall y st', cle st st' -> y = plit (VAux a (ctr st a)) -> ~ old st (lit_var y) -> old st' (lit_var y) ->
     (forall al v, exists be, agree st st' al be /\ lit_sem be y = v) -> post y st' []) ->
  runs st (new_aux a) post.
Proof.
  intros st a post H. eexists _, _, _. split; [reflexivity |]. split; [apply cle_bump |].
  split; [apply bounded_nil |]. apply H.
  - apply cle_bump.
  - reflexivity.
  - cbn. lia.
  - cbn. rewrite runs_ctr_new. lia.
  - intros al v. exists (fun x => if var_eqb x (VAux a (ctr st a)) then v else al x). split.
    + intros x. destruct (var_eqb x (VAux a (ctr st a))) eqn:E; [left | now right].
      destruct x as [i | t i]; [discriminate |]. cbn in E. apply andb_prop in E. destruct E as [E1 E2].
      apply N.eqb_eq in E2. subst i. destruct t, a; try discriminate; cbn; lia.
    + cbn. rewrite N.eqb_refl. now destruct a.
Qed.

(** New variables in a vector: their values can be chosen freely. *)
Definition free_choice (st st' : ctrs) (ys : list lit) : Prop :=
  forall al (f : nat -> bool), exists be, agree st st' al be /\ (forall i, i < length ys -> tr be ys i = f i).

Definition not_old (st : ctrs) (ys : list lit) : Prop := forall y, In y ys -> ~ old st (lit_var y).
Definition all_pos (ys : list lit) : Prop := forall y, In y ys -> lit_phase y = true.

Lemma runs_allocs : forall a k st (post : list lit -> ctrs -> list clause -> Prop),
  (forall ys st', cle st st' -> length ys = k -> olds st' ys -> not_old st ys -> NoDup ys -> all_pos ys ->
     free_choice st st' ys -> post ys st' []) ->
  runs st (allocs a k) post.
Proof.
  intros a. induction k as [| k IH]; intros st post H; cbn [allocs].
  - apply runs_ret. apply H; auto using cle_refl, olds_nil.
    + intros y [].
    + constructor.
    + intros y [].
    + intros al f. exists al. split; [apply agree_refl |]. cbn. intros i Hi. lia.
  - eapply runs_bind.
    + apply runs_new with (post := fun y st' cls => cls = [] /\ y = plit (VAux a (ctr st a)) /\ ~ old st (lit_var y) /\
        old st' (lit_var y) /\ (forall al v, exists be, agree st st' al be /\ lit_sem be y = v)). intuition.
    + intros y st1 cls L1 _ (-> & Ey & Hno & Ho & Hch). eapply runs_bind.
      * apply IH with (post := fun ys st' cls => cls = [] /\ length ys = k /\ olds st' ys /\ not_old st1 ys /\ NoDup ys /\
          all_pos ys /\ free_choice st1 st' ys). intuition.
      * intros ys st2 cls L2 _ (-> & Hlen & Hos & Hnos & Hnd & Hpos & Hfc). apply runs_ret. cbn [app].
        apply H.
        -- eapply cle_trans; eauto.
        -- cbn. congruence.
        -- apply olds_cons. split; [eapply old_mono; eauto | assumption].
        -- intros z [<- | Hz]; [assumption |]. intros Hz'. apply (Hnos z Hz). eapply old_mono; eauto.
        -- constructor; [| assumption]. intros Hin. apply (Hnos y Hin). exact Ho.
        -- intros z [<- | Hz]; [rewrite Ey; reflexivity | auto].
        -- intros al f. destruct (Hch al (f 0)) as [b1 [A1 V1]].
           destruct (Hfc b1 (fun i => f (S i))) as [b2 [A2 V2]].
           exists b2. split; [eapply agree_trans; eauto |]. intros [| i] Hi.
           ++ unfold tr. cbn. rewrite <- V1. eapply agree_lit; eauto.
           ++ rewrite tr_cons. cbn in Hi. apply V2. lia.
Qed.

(* ------------------------------------------------------------------------------------------------------------------ *)
(** * Clauses without new variables *)

(** [g] creates no variable and its clauses mean [P]. *)
Definition emits (st : ctrs) (g : G unit) (P : valuation -> Prop) : Prop :=
  runs st g (fun _ st' cls => st' = st /\ forall b, sat b cls <-> P b).

Lemma emits_iff : forall st g (P Q : valuation -> Prop), emits st g P -> (forall b, P b <-> Q b) -> emits st g Q.
Proof.
  intros st g P Q H E. eapply runs_conseq; [exact H |]. cbn. intros _ st' cls _ _ [-> Hs]. split; [reflexivity |].
  intros b. rewrite Hs. apply E.
Qed.
Lemma emits_ret : forall st, emits st (gret tt) (fun _ => True).
Proof. intros st. apply runs_ret. split; [reflexivity |]. intros b. split; auto using sat_nil. Qed.
Lemma emits_add : forall st c, olds st c -> emits st (add c) (fun b => csat b c).
Proof.
  intros st c H. exists tt, st, [c]. split; [reflexivity |]. split; [apply cle_refl |].
  split; [intros c' [<- | []]; assumption |]. split; [reflexivity |]. intros b. apply sat_one.
Qed.
Lemma emits_add_r : forall st es c, rall es = Ok c -> olds st c -> emits st (add_r es) (fun b => csat b c).
Proof.
  intros st es c E H. exists tt, st, [c]. unfold add_r. rewrite E. split; [reflexivity |]. split; [apply cle_refl |].
  split; [intros c' [<- | []]; assumption |]. split; [reflexivity |]. intros b. apply sat_one.
Qed.
Lemma emits_seq : forall st g k P Q, emits st g P -> emits st k Q -> emits st (g ;; k) (fun b => P b /\ Q b).
Proof.
  intros st g k P Q H1 H2. eapply runs_bind; [exact H1 |]. cbn. intros _ st' cls _ _ [-> Hs].
  eapply runs_conseq; [exact H2 |]. cbn. intros _ st'' cls' _ _ [-> Hs']. split; [reflexivity |].
  intros b. rewrite sat_app, Hs, Hs'. reflexivity.
Qed.
Lemma emits_for : forall A st (l : list A) (body : A -> G unit) (P : A -> valuation -> Prop),
  (forall x, In x l -> emits st (body x) (P x)) -> emits st (gfor l body) (fun b => forall x, In x l -> P x b).
Proof.
  intros A st l body P. induction l as [| x l IH]; intros H; cbn [gfor].
  - eapply emits_iff; [apply emits_ret |]. intros b. split; [intros _ x [] | auto].
  - eapply emits_iff.
    + apply emits_seq; [apply H; now left | apply IH; intros y Hy; apply H; now right].
    + cbn. intros b. split.
      * intros [H1 H2] y [<- | Hy]; auto.
      * intros H'. split; [apply H'; now left | intros y Hy; apply H'; now right].
Qed.
Lemma emits_when : forall st (c : bool) g P, (c = true -> emits st g P) -> emits st (gwhen c g) (fun b => c = true -> P b).
Proof.
  intros st [] g P H; cbn.
  - eapply emits_iff; [apply H; reflexivity |]. cbn. intuition.
  - eapply emits_iff; [apply emits_ret |]. cbn. intros b. split; [discriminate | auto].
Qed.

(** [emits] as part of a longer run. *)
Lemma runs_emits : forall B st g P (k : G B) Q,
  emits st g P ->
  (forall cls, bounded st cls -> (forall b, sat b cls <-> P b) -> runs st k (fun b st'' cls' => Q b st'' (cls ++ cls'))) ->
  runs st (g ;; k) Q.
Proof.
  intros B st g P k Q H Hk. eapply runs_bind; [exact H |]. cbn. intros _ st' cls _ Hb [-> Hs]. apply Hk; assumption.
Qed.

(** Vector accesses. *)
Lemma ix_ok : forall A (l : list A) i, i < length l -> exists x, ix l i = Ok x /\ nth_error l i = Some x.
Proof.
  intros A l i H. unfold ix. destruct (nth_error l i) as [x |] eqn:E; [exists x; auto |].
  apply nth_error_None in E. lia.
Qed.
Lemma ix_old : forall st l i x, olds st l -> ix l i = Ok x -> old st (lit_var x).
Proof.
  intros st l i x Ho H. unfold ix in H. destruct (nth_error l i) eqn:E; [| discriminate].
  injection H as ->. apply Ho. eapply nth_error_In; eauto.
Qed.
Lemma ix_tr : forall b l i x, ix l i = Ok x -> lit_sem b x = tr b l i.
Proof. intros b l i x H. unfold ix in H. unfold tr. destruct (nth_error l i); [| discriminate]. now injection H as ->. Qed.

(** Elements of a clause read from vectors: the access is in bounds, the variable is old, the truth value is [p]. *)
Definition elem (st : ctrs) (e : res lit) (p : valuation -> bool) : Prop :=
  exists x, e = Ok x /\ old st (lit_var x) /\ forall b, lit_sem b x = p b.

Lemma elem_ix : forall st l i, olds st l -> i < length l -> elem st (ix l i) (fun b => tr b l i).
Proof.
  intros st l i Ho Hi. destruct (ix_ok _ l i Hi) as [x [E _]]. exists x. split; [assumption |].
  split; [eapply ix_old; eauto |]. intros b. eapply ix_tr; eauto.
Qed.
Lemma elem_neg : forall st e p, elem st e p -> elem st (rneg e) (fun b => negb (p b)).
Proof.
  intros st e p (x & -> & Ho & Hp). exists (lit_negate x). split; [reflexivity |].
  split; [now rewrite lit_negate_var |]. intros b. rewrite lit_sem_negate, Hp. reflexivity.
Qed.
Lemma elem_ok : forall st x, old st (lit_var x) -> elem st (Ok x) (fun b => lit_sem b x).
Proof. intros st x H. exists x. auto. Qed.

Fixpoint anyb (ps : list (valuation -> bool)) (b : valuation) : bool :=
  match ps with [] => false | p :: r => p b || anyb r b end.

Lemma emits_elems : forall st es ps, Forall2 (elem st) es ps -> emits st (add_r es) (fun b => anyb ps b = true).
Proof.
  intros st es ps H.
  assert (Hc : exists c, rall es = Ok c /\ olds st c /\ forall b, csat b c <-> anyb ps b = true).
  { induction H as [| e p es ps (x & -> & Ho & Hp) H2 (c & E & Hos & Hs)].
    - exists []. split; [reflexivity |]. split; [apply olds_nil |]. intros b. split; [| discriminate].
      intros Hn. now apply csat_nil in Hn.
    - exists (x :: c). cbn [rall rbind]. rewrite E. cbn. split; [reflexivity |].
      split; [apply olds_cons; auto |]. intros b. rewrite csat_cons, Hs, Hp, orb_true_iff. reflexivity. }
  destruct Hc as (c & E & Ho & Hs). eapply emits_iff; [eapply emits_add_r; eauto |]. intros b. apply Hs.
Qed.

(** Solve [cle] goals from the ones in the context, and [olds] goals by moving to a later state. *)
Ltac scle :=
  let t := fresh "t" in intro t; repeat match goal with H : cle _ _ |- _ => specialize (H t) end; destruct t; lia.
Ltac solds := (eapply olds_mono; [| eassumption]); scle.
