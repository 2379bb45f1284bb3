(** What is left of the clauses of a decomposition tree under an assignment. *)
From Coq Require Import List Bool Arith ZArith Lia Permutation.
From Verif Require Import Base Syntax SatModel SatBasics DnnfCompModel.
Import ListNotations.
Local Open Scope nat_scope.

Section Val.
  Variables (lits : list (list nat)) (nv : nat).
  Hypothesis Hnv : forall i l, In l (leaf lits i) -> lvar l < nv.
  Notation leaf := (leaf lits).

  (** Undefined literals are undefined variables. *)
  Definition vok (val : nat -> option bool) : Prop :=
    (forall l, val (lneg l) = option_map negb (val l)) /\ (forall l r, lvar l = lvar r -> val l = None -> val r = None).
  Definition Vok (V : nat -> bool) : Prop := forall l, V (lneg l) = negb (V l).

  (** The clauses that are not subsumed, without the false literals. *)
  Definition Res (val : nat -> option bool) (t : dtree) (V : nat -> bool) : bool :=
    forallb (fun i => subsumed lits val i || existsb (fun l => is_undef (val l) && V l) (leaf i)) (leaf_indices t).
  Definition tree_ok (t : dtree) : Prop := forall i, In i (leaf_indices t) -> i < length lits.
  Definition open (val : nat -> option bool) (i l : nat) : Prop := subsumed lits val i = false /\ In l (leaf i) /\ val l = None.

  Lemma is_undef_iff : forall o, is_undef o = true <-> o = None.
  Proof. intros [[|] |]; cbn; split; congruence. Qed.
  Lemma var_set_iff : forall val t k, var_set lits val t k = true <-> exists i l, In i (leaf_indices t) /\ open val i l /\ lvar l = k.
  Proof.
    intros val t k. unfold var_set, has_undef. rewrite existsb_exists. split.
    - intros (i & Hi & H). apply andb_true_iff in H. destruct H as [H1 H2]. apply existsb_exists in H2. destruct H2 as (l & Hl & H2). apply andb_true_iff in H2. destruct H2 as [H2 H3].
      exists i, l. split; auto. split; [split; [now apply negb_true_iff | split; [exact Hl | now apply is_undef_iff]] | now apply Nat.eqb_eq].
    - intros (i & l & Hi & (H1 & H2 & H3) & <-). exists i. split; auto. rewrite H1. cbn [negb andb]. apply existsb_exists. exists l. split; auto. rewrite Nat.eqb_refl, H3. reflexivity.
  Qed.
  Lemma Res_iff : forall val t V, Res val t V = true <-> forall i, In i (leaf_indices t) -> subsumed lits val i = false -> exists l, open val i l /\ V l = true.
  Proof.
    intros val t V. unfold Res. rewrite forallb_forall. split; intros H i Hi.
    - intros Hs. specialize (H i Hi). rewrite Hs in H. cbn [orb] in H. apply existsb_exists in H. destruct H as (l & Hl & H). apply andb_true_iff in H. destruct H as [H1 H2].
      exists l. split; auto. split; [exact Hs | split; [exact Hl | now apply is_undef_iff]].
    - destruct (subsumed lits val i) eqn:Hs; [reflexivity |]. cbn [orb]. destruct (H i Hi Hs) as (l & (_ & Hl & H1) & H2). apply existsb_exists. exists l. split; auto. now rewrite H1, H2.
  Qed.
  Lemma subsumed_iff : forall val i, subsumed lits val i = true <-> exists l, In l (leaf i) /\ val l = Some true.
  Proof.
    intros val i. unfold subsumed. rewrite existsb_exists. split; intros (l & H1 & H2); exists l; split; auto; [destruct (val l) as [[|] |]; try discriminate; reflexivity | now rewrite H2].
  Qed.
  Lemma var_set_lt : forall val t k, var_set lits val t k = true -> k < nv.
  Proof. intros val t k H. apply var_set_iff in H. destruct H as (i & l & _ & (_ & Hl & _) & <-). eapply Hnv; eauto. Qed.
  Lemma var_set_undef : forall val t l, vok val -> var_set lits val t (lvar l) = true -> val l = None.
  Proof. intros val t l [_ Hv] H. apply var_set_iff in H. destruct H as (i & r & _ & (_ & _ & Hr) & E). eapply Hv; eauto. Qed.
  Lemma var_set_static : forall val t k, var_set lits val t k = true -> static_var_set lits t k = true.
  Proof.
    intros val t k H. apply var_set_iff in H. destruct H as (i & l & Hi & (_ & Hl & _) & <-). unfold static_var_set. apply existsb_exists. exists i. split; auto. apply existsb_exists. exists l. split; auto. apply Nat.eqb_refl.
  Qed.
  Lemma bool_eq_iff : forall a b : bool, (a = true <-> b = true) -> a = b.
  Proof. intros [|] [|] [H K]; auto; try (symmetry; auto; fail); try (now rewrite H); now rewrite K. Qed.

  (** Equal values. *)
  Lemma subsumed_ext : forall val val' i, (forall l, In l (leaf i) -> val l = val' l) -> subsumed lits val i = subsumed lits val' i.
  Proof. intros val val' i H. unfold subsumed. induction (leaf i) as [| l r IH]; [reflexivity |]. cbn [existsb]. rewrite H by (left; auto). rewrite IH; [reflexivity |]. intros x Hx. apply H. right. auto. Qed.
  Lemma open_ext : forall val val' i l, (forall i l, In l (leaf i) -> val l = val' l) -> open val i l -> open val' i l.
  Proof. intros val val' i l H (A & B & C). split; [rewrite <- A; symmetry; apply subsumed_ext; apply H | split; [exact B | rewrite <- C; symmetry; eapply H; eauto]]. Qed.
  Lemma Res_ext : forall val val' t V, (forall i l, In l (leaf i) -> val l = val' l) -> Res val t V = Res val' t V.
  Proof.
    intros val val' t V H. assert (H' : forall i l, In l (leaf i) -> val' l = val l) by (intros; symmetry; eapply H; eauto). apply bool_eq_iff. rewrite !Res_iff. split; intros K i Hi Hs.
    - destruct (K i Hi) as (l & Ho & Hv); [rewrite <- Hs; apply subsumed_ext; apply H |]. exists l. split; auto. eapply open_ext; eauto.
    - destruct (K i Hi) as (l & Ho & Hv); [rewrite <- Hs; apply subsumed_ext; apply H' |]. exists l. split; auto. eapply open_ext; eauto.
  Qed.
  Lemma var_set_ext : forall val val' t k, (forall i l, In l (leaf i) -> val l = val' l) -> var_set lits val t k = var_set lits val' t k.
  Proof.
    intros val val' t k H. assert (H' : forall i l, In l (leaf i) -> val' l = val l) by (intros; symmetry; eapply H; eauto). apply bool_eq_iff. rewrite !var_set_iff.
    split; intros (i & l & K1 & K2 & K3); exists i, l; split; auto; split; auto; eapply open_ext; eauto.
  Qed.

  (** The cache key determines what is left. *)
  Lemma app_eq_len : forall A (a b c d : list A), length a = length c -> a ++ b = c ++ d -> a = c /\ b = d.
  Proof. intros A a. induction a as [| x a IH]; intros b [| y c] d L E; try discriminate; [auto |]. cbn in *. injection E as <- E. destruct (IH b c d) as [-> ->]; auto. Qed.
  Lemma map_seq_eq : forall (f g : nat -> bool) n, map f (seq 0 n) = map g (seq 0 n) -> forall i, i < n -> f i = g i.
  Proof.
    intros f g n E i Hi. assert (E' : nth i (map f (seq 0 n)) (f 0) = nth i (map g (seq 0 n)) (f 0)) by now rewrite E.
    rewrite (nth_indep (map g (seq 0 n)) (f 0) (g 0)) in E' by (rewrite map_length, seq_length; exact Hi). rewrite !map_nth, seq_nth in E' by auto. exact E'.
  Qed.
  Lemma key_determines : forall val val' t t', vok val -> vok val' -> tree_ok t -> tree_ok t' -> cache_key lits val nv t = cache_key lits val' nv t' ->
    (forall V, Res val t V = Res val' t' V) /\ forall k, var_set lits val t k = var_set lits val' t' k.
  Proof.
    assert (Half : forall val val' t t', vok val -> vok val' -> tree_ok t -> tree_ok t' -> cache_key lits val nv t = cache_key lits val' nv t' ->
      (forall V, Res val t V = true -> Res val' t' V = true) /\ forall k, var_set lits val t k = true -> var_set lits val' t' k = true).
    { intros val val' t t' Hv Hv' Ht Ht' E. unfold cache_key in E. apply app_eq_len in E; [| now rewrite !map_length]. destruct E as [E1 E2].
      assert (VS : forall k, var_set lits val t k = true -> var_set lits val' t' k = true) by (intros k Hk; rewrite <- Hk; symmetry; apply (map_seq_eq _ _ _ E1); eapply var_set_lt; eauto).
      split; auto. intros V HR. rewrite Res_iff in *. intros i Hi Hs. pose proof (map_seq_eq _ _ _ E2 i (Ht' i Hi)) as K. cbn beta in K. rewrite Hs in K. cbn [negb] in K. rewrite andb_true_r in K.
      assert (Ex : existsb (Nat.eqb i) (leaf_indices t') = true) by (apply existsb_exists; exists i; split; [exact Hi | apply Nat.eqb_refl]). rewrite Ex in K.
      apply andb_true_iff in K. destruct K as [K1 K2]. apply existsb_exists in K1. destruct K1 as (j & K1 & K3). apply Nat.eqb_eq in K3. subst j. apply negb_true_iff in K2.
      destruct (HR i K1 K2) as (l & Ho & HV). exists l. split; auto. split; [exact Hs |]. destruct Ho as (O1 & O2 & O3). split; [exact O2 |]. eapply (var_set_undef val' t'); [exact Hv' |]. apply VS.
      apply var_set_iff. exists i, l. split; auto. split; auto. split; auto. }
    intros val val' t t' Hv Hv' Ht Ht' E. split; [intros V | intros k]; apply bool_eq_iff; split; intros H.
    - apply (Half val val' t t'); auto.
    - apply (Half val' val t' t); auto.
    - apply (proj2 (Half val val' t t' Hv Hv' Ht Ht' E)); auto.
    - apply (proj2 (Half val' val t' t Hv' Hv Ht' Ht (eq_sym E))); auto.
  Qed.

  (** No clause outside the tree has an open variable of the tree. *)
  Definition Iso (val : nat -> option bool) (t : dtree) : Prop :=
    forall i l, i < length lits -> ~ In i (leaf_indices t) -> open val i l -> var_set lits val t (lvar l) = false.
  Definition grow (val val' : nat -> option bool) : Prop := forall l b, val l = Some b -> val' l = Some b.
  Lemma subsumed_grow : forall val val' i, grow val val' -> subsumed lits val' i = false -> subsumed lits val i = false.
  Proof.
    intros val val' i G H. destruct (subsumed lits val i) eqn:E; [| reflexivity]. apply subsumed_iff in E. destruct E as (l & H1 & H2). assert (subsumed lits val' i = true) by (apply subsumed_iff; exists l; split; auto). congruence.
  Qed.
  Lemma open_grow : forall val val' i l, grow val val' -> open val' i l -> open val i l.
  Proof. intros val val' i l G (A & B & C). split; [eapply subsumed_grow; eauto | split; [exact B |]]. destruct (val l) as [b |] eqn:E; [| reflexivity]. apply G in E. congruence. Qed.
  Lemma var_set_grow : forall val val' t k, grow val val' -> var_set lits val' t k = true -> var_set lits val t k = true.
  Proof. intros val val' t k G H. apply var_set_iff in H. apply var_set_iff. destruct H as (i & l & H1 & H2 & H3). exists i, l. split; auto. split; auto. eapply open_grow; eauto. Qed.
  Lemma Iso_grow : forall val val' t, grow val val' -> Iso val t -> Iso val' t.
  Proof.
    intros val val' t G H i l Hi Hn Ho. destruct (var_set lits val' t (lvar l)) eqn:E; [| reflexivity]. apply (var_set_grow val) in E; auto. rewrite (H i l Hi Hn) in E; [discriminate |]. eapply open_grow; eauto.
  Qed.
  Lemma var_set_node : forall val l r k, var_set lits val (Node l r) k = var_set lits val l k || var_set lits val r k.
  Proof. intros val l r k. unfold var_set. cbn [leaf_indices]. apply existsb_app. Qed.
  Lemma Res_node : forall val l r V, Res val (Node l r) V = Res val l V && Res val r V.
  Proof. intros val l r V. unfold Res. cbn [leaf_indices]. apply forallb_app. Qed.
  Lemma sep_nil : forall val l r, separator lits val nv (Node l r) = [] -> forall k, var_set lits val l k = true -> var_set lits val r k = true -> False.
  Proof.
    intros val l r E k H1 H2. cbn [separator] in E. assert (K : In k (filter (fun v => var_set lits val l v && var_set lits val r v) (seq 0 nv))).
    { apply filter_In. split; [apply in_seq; pose proof (var_set_lt _ _ _ H1); lia | now rewrite H1, H2]. }
    rewrite E in K. destruct K.
  Qed.
  Lemma Iso_l : forall val l r, separator lits val nv (Node l r) = [] -> Iso val (Node l r) -> Iso val l.
  Proof.
    intros val l r E H i x Hi Hn Ho. destruct (var_set lits val l (lvar x)) eqn:K; [| reflexivity]. exfalso. destruct (in_dec Nat.eq_dec i (leaf_indices r)) as [J | J].
    - eapply (sep_nil val l r E (lvar x) K). apply var_set_iff. exists i, x. auto.
    - specialize (H i x Hi). rewrite var_set_node, K in H. cbn in H. assert (true = false) by (apply H; auto; intros Q; apply in_app_or in Q; tauto). discriminate.
  Qed.
  Lemma Iso_r : forall val l r, separator lits val nv (Node l r) = [] -> Iso val (Node l r) -> Iso val r.
  Proof.
    intros val l r E H i x Hi Hn Ho. destruct (var_set lits val r (lvar x)) eqn:K; [| reflexivity]. exfalso. destruct (in_dec Nat.eq_dec i (leaf_indices l)) as [J | J].
    - eapply (sep_nil val l r E (lvar x)); [| exact K]. apply var_set_iff. exists i, x. auto.
    - specialize (H i x Hi). rewrite var_set_node, K, orb_true_r in H. assert (true = false) by (apply H; auto; intros Q; apply in_app_or in Q; tauto). discriminate.
  Qed.

  (** Unit propagation after a decision on an open variable of the tree stays within the tree. *)
  Section Unit.
    Variables (val0 val1 : nat -> option bool) (t : dtree) (d : nat) (T : list nat).
    Hypothesis V0 : vok val0.
    Hypothesis V1 : vok val1.
    Hypothesis G : grow val0 val1.
    Hypothesis HT : forall l, val1 l = Some true -> In l T \/ val0 l = Some true.
    Hypothesis HTt : forall l, In l T -> val1 l = Some true.
    Hypothesis HT0 : forall l, In l T -> val0 l = None.
    Hypothesis HT1 : nth_error T 0 = Some d.
    Hypothesis Hd : var_set lits val0 t (lvar d) = true.
    Hypothesis Hr : forall i l, nth_error T i = Some l -> 0 < i -> exists j, j < length lits /\ In l (leaf j) /\
      forall r, In r (leaf j) -> r = l \/ val0 r = Some false \/ exists k, k < i /\ nth_error T k = Some (lneg r).
    Hypothesis Hc : forall j l, j < length lits -> subsumed lits val0 j = false -> exists r, In r (leaf j) /\ r <> l /\ val0 r = None.
    Hypothesis HI : Iso val0 t.

    Lemma unit_step : forall i l, nth_error T i = Some l -> var_set lits val0 t (lvar l) = true /\ forall V, Vok V -> V d = true -> Res val0 t V = true -> V l = true.
    Proof.
      induction i as [i IH] using lt_wf_ind. intros l E. destruct (Nat.eq_dec i 0) as [-> | Ni]; [assert (l = d) by congruence; subst l; auto |].
      destruct (Hr i l E) as (j & Hj & Hl & Hrest); [lia |]. assert (Ul : val0 l = None) by (apply HT0; eapply nth_error_In; eauto).
      assert (Us : subsumed lits val0 j = false).
      { destruct (subsumed lits val0 j) eqn:K; [| reflexivity]. apply subsumed_iff in K. destruct K as (r & K1 & K2). destruct (Hrest r K1) as [-> | [K | (k & _ & K)]]; [congruence | congruence |].
        apply nth_error_In, HT0 in K. rewrite (proj1 V0), K2 in K. discriminate. }
      assert (Ij : In j (leaf_indices t)).
      { destruct (in_dec Nat.eq_dec j (leaf_indices t)) as [J | J]; [exact J |]. exfalso. destruct (Hc j l Hj Us) as (r & R1 & R2 & R3). destruct (Hrest r R1) as [-> | [K | (k & Hk & K)]]; [contradiction | congruence |].
        destruct (IH k Hk _ K) as [VS _]. replace (lvar (lneg r)) with (lvar r) in VS by (symmetry; apply lneg_var). rewrite (HI j r Hj J) in VS; [discriminate |]. split; auto. }
      split; [apply var_set_iff; exists j, l; split; auto; split; auto; split; auto |]. intros V HV Vd HR. rewrite Res_iff in HR. destruct (HR j Ij Us) as (r & (_ & R1 & R2) & R3).
      destruct (Hrest r R1) as [-> | [K | (k & Hk & K)]]; [exact R3 | congruence |]. destruct (IH k Hk _ K) as [_ Q]. specialize (Q V HV Vd). rewrite HV, R3 in Q. cbn in Q. rewrite Res_iff in Q. discriminate (Q HR).
    Qed.
    Lemma unit_vars : forall l, In l T -> var_set lits val0 t (lvar l) = true.
    Proof. intros l H. apply In_nth_error in H. destruct H as [i H]. apply (unit_step i l H). Qed.
    Lemma unit_res : forall V, Vok V -> (forallb V T && Res val1 t V) = (V d && Res val0 t V).
    Proof.
      intros V HV. apply bool_eq_iff. rewrite !andb_true_iff. split.
      - intros [A B]. rewrite forallb_forall in A. split; [apply A; eapply nth_error_In; eauto |]. rewrite Res_iff in *. intros i Hi Hs. destruct (subsumed lits val1 i) eqn:S1.
        + apply subsumed_iff in S1. destruct S1 as (l & L1 & L2). destruct (HT l L2) as [K | K].
          * exists l. split; [| auto]. split; [exact Hs | split; [exact L1 | auto]].
          * assert (subsumed lits val0 i = true) by (apply subsumed_iff; exists l; auto). congruence.
        + destruct (B i Hi S1) as (l & Ho & Hv). exists l. split; auto. eapply open_grow; eauto.
      - intros [A B]. assert (FT : forall l, In l T -> V l = true).
        { intros l Hl. apply In_nth_error in Hl. destruct Hl as [i Hi]. apply (unit_step i l Hi); auto. }
        split; [apply forallb_forall; exact FT |]. rewrite Res_iff in *. intros i Hi Hs. assert (S0 : subsumed lits val0 i = false) by (eapply subsumed_grow; eauto).
        destruct (B i Hi S0) as (l & (_ & L1 & L2) & L3). exists l. split; [| exact L3]. split; [exact Hs | split; [exact L1 |]].
        destruct (val1 l) as [[|] |] eqn:E; [| | reflexivity].
        + assert (subsumed lits val1 i = true) by (apply subsumed_iff; exists l; auto). congruence.
        + assert (E' : val1 (lneg l) = Some true) by (rewrite (proj1 V1), E; reflexivity). destruct (HT _ E') as [K | K].
          * apply FT in K. rewrite HV, L3 in K. discriminate.
          * rewrite (proj1 V0), L2 in K. discriminate.
    Qed.
  End Unit.

  (** The variable for the case distinction. *)
  Lemma position_max_spec : forall l k best m, let p := position_max l k best m in
    (p = best /\ (forall x, In x l -> (x < m)%Z)) \/ (k <= p /\ exists y, nth_error l (p - k) = Some y /\ (m <= y)%Z /\ forall x, In x l -> (x <= y)%Z).
  Proof.
    induction l as [| x l IH]; intros k best m; cbn [position_max]; [left; split; [reflexivity | intros x []] |].
    destruct (m <=? x)%Z eqn:E.
    - apply Z.leb_le in E. right. destruct (IH (S k) k x) as [[-> H] | (H1 & y & H2 & H3 & H4)].
      + split; [lia |]. exists x. rewrite Nat.sub_diag. split; [reflexivity |]. split; [exact E |]. intros z [<- | Hz]; [lia | specialize (H z Hz); lia].
      + split; [lia |]. exists y. replace (position_max l (S k) k x - k) with (S (position_max l (S k) k x - S k)) by lia. cbn [nth_error]. split; [exact H2 |]. split; [lia |]. intros z [<- | Hz]; [exact H3 | auto].
    - apply Z.leb_gt in E. destruct (IH (S k) best m) as [[-> H] | (H1 & y & H2 & H3 & H4)].
      + left. split; [reflexivity |]. intros z [<- | Hz]; [lia | auto].
      + right. split; [lia |]. exists y. replace (position_max l (S k) best m - k) with (S (position_max l (S k) best m - S k)) by lia. cbn [nth_error]. split; [exact H2 |]. split; [exact H3 |]. intros z [<- | Hz]; [lia | auto].
  Qed.
  Lemma shannon_in : forall val t sep v, sep <> [] -> (forall x, In x sep -> x < nv) -> choose_shannon_variable lits val nv t sep = Ok v -> In v sep.
  Proof.
    intros val t sep v Hs Hb E. unfold choose_shannon_variable in E. set (f := fun v => if existsb (Nat.eqb v) sep then Z.of_nat (occurrences_of lits val t v) else (-1)%Z) in *.
    destruct sep as [| w sep0]; [contradiction |]. clear Hs. set (sep := w :: sep0) in *. assert (Fw : (0 <= f w)%Z). { unfold f. assert (Ew : existsb (Nat.eqb w) sep = true) by (apply existsb_exists; exists w; split; [left; reflexivity | apply Nat.eqb_refl]). rewrite Ew. lia. }
    assert (Fv : forall k, (0 <= f k)%Z -> In k sep).
    { intros k Hk. unfold f in Hk. destruct (existsb (Nat.eqb k) sep) eqn:K; [| lia]. apply existsb_exists in K. destruct K as (z & K1 & K2). apply Nat.eqb_eq in K2. now subst z. }
    destruct nv as [| n] eqn:En; [exfalso; specialize (Hb w (or_introl eq_refl)); lia |]. cbn [seq map] in E. injection E as E.
    assert (Fs : forall i, nth_error (map f (seq 1 n)) i = if i <? n then Some (f (S i)) else None).
    { intros i. destruct (i <? n) eqn:K; [apply Nat.ltb_lt in K; rewrite (map_nth_error f i (seq 1 n) (d := S i)); [reflexivity |]; rewrite (nth_error_nth' _ 0) by (rewrite seq_length; exact K); now rewrite seq_nth |].
      apply Nat.ltb_ge in K. apply nth_error_None. rewrite map_length, seq_length. exact K. }
    assert (Mx : forall x, In (f x) (map f (seq 1 n)) \/ x = 0 \/ S n <= x).
    { intros x. destruct (Nat.eq_dec x 0) as [-> | Hx]; [auto |]. destruct (le_lt_dec (S n) x); [auto |]. left. apply in_map, in_seq. lia. }
    destruct (position_max_spec (map f (seq 1 n)) 1 0 (f 0)) as [[P1 P2] | (P1 & y & P2 & P3 & P4)]; rewrite E in *.
    - rewrite P1. clearbody f. apply Fv. destruct (Mx w) as [K | [-> | K]]; [specialize (P2 _ K); lia | exact Fw | specialize (Hb w (or_introl eq_refl)); lia].
    - clearbody f. apply Fv. rewrite Fs in P2. destruct (v - 1 <? n) eqn:K; [| discriminate]. injection P2 as <-. replace (S (v - 1)) with v in * by lia. destruct (Mx w) as [J | [J | J]]; [specialize (P4 _ J); lia | subst w; lia | specialize (Hb w (or_introl eq_refl)); lia].
  Qed.
End Val.

(** * The leaves of a decomposition tree *)
Lemma compose_leaves : forall fuel ts t, compose fuel ts = Ok t -> forall i, In i (leaf_indices t) <-> In i (flat_map leaf_indices ts).
Proof.
  induction fuel as [| fu IH]; intros ts t E i; [discriminate |]. cbn [compose] in E. destruct ts as [| a [| b ts]]; [discriminate | injection E as <-; cbn [flat_map]; rewrite app_nil_r; tauto |].
  set (l := a :: b :: ts) in *. set (k := length l / 2) in *. destruct (compose fu (firstn k l)) as [x | |] eqn:E1; try discriminate. cbn [rbind] in E. destruct (compose fu (skipn k l)) as [y | |] eqn:E2; try discriminate. cbn [rbind] in E. injection E as <-.
  cbn [leaf_indices]. rewrite in_app_iff, (IH _ _ E1), (IH _ _ E2), <- in_app_iff, <- flat_map_app, firstn_skipn. tauto.
Qed.
Lemma eliminate_leaves : forall leafs order sigma out, eliminate leafs order sigma = Ok out -> forall i, In i (flat_map leaf_indices out) <-> In i (flat_map leaf_indices sigma).
Proof.
  intros leafs. induction order as [| v order IH]; intros sigma out E i; cbn [eliminate] in E; [injection E as <-; tauto |].
  set (has := fun t => existsb (var_eqb v) (tree_vars leafs t)) in *. assert (Sp : In i (flat_map leaf_indices (filter has sigma)) \/ In i (flat_map leaf_indices (filter (fun t => negb (has t)) sigma)) <-> In i (flat_map leaf_indices sigma)).
  { rewrite !in_flat_map. split.
    - intros [(t & H1 & H2) | (t & H1 & H2)]; apply filter_In in H1; exists t; split; try apply H1; auto.
    - intros (t & H1 & H2). destruct (has t) eqn:K; [left | right]; exists t; split; auto; apply filter_In; split; auto; now rewrite K. }
  destruct (filter has sigma) as [| a g] eqn:Eg.
  - rewrite (IH _ _ E), <- Sp. cbn [flat_map In]. tauto.
  - destruct (compose (S (length (a :: g))) (a :: g)) as [t | |] eqn:Et; try discriminate. cbn [rbind] in E. rewrite (IH _ _ E), <- Sp, flat_map_app, in_app_iff. cbn [flat_map]. rewrite app_nil_r, (compose_leaves _ _ _ Et). cbn [flat_map]. tauto.
Qed.
Theorem tree_leaves : forall leafs order t, tree_of_leafs leafs order = Ok t -> forall i, In i (leaf_indices t) <-> i < length leafs.
Proof.
  intros leafs order t E i. unfold tree_of_leafs in E. destruct (eliminate leafs order (map Leaf (seq 0 (length leafs)))) as [sg | |] eqn:E1; try discriminate. cbn [rbind] in E.
  rewrite (compose_leaves _ _ _ E), (eliminate_leaves _ _ _ _ E1), in_flat_map. split.
  - intros (x & H1 & H2). apply in_map_iff in H1. destruct H1 as (k & <- & Hk). destruct H2 as [<- | []]. apply in_seq in Hk. lia.
  - intros H. exists (Leaf i). split; [apply in_map, in_seq; lia | left; reflexivity].
Qed.
