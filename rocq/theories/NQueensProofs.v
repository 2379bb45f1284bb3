(** Proofs about the generator for the n-queens problem. *)
From Coq Require Import String NArith ZArith List Bool Arith Lia.
From Verif Require Import Base EncodingModel EncodingProofs Syntax FactoryModel FactoryInv FactoryBasics FactoryProofs FactorySpecs FactoryNary FactoryOps EvalProofs
  OpsModel OpsProofs CacheModel TransModel TreeSpec WorldProofs EncodeProofs NnfProofs CcFrontProofs SubsumptionProofs AnonProofs PgAddProofs PureProofs ConstraintProofs XReplay NQueensModel.
Import ListNotations.
Local Open Scope nat_scope.

(* ------------------------------------------------------------------------------------------------------------------ *)
(** * Counting true variables of a line *)

Section Count.
Context {A : Type} (v : valuation) (f : A -> var).
Lemma count_nonneg : forall l, (0 <= count_true v (map f l))%Z.
Proof. induction l as [| a l IH]; cbn [map count_true]; [lia | destruct (v (f a)); lia]. Qed.
Lemma count_ge1 : forall l, (1 <= count_true v (map f l))%Z <-> exists a, In a l /\ v (f a) = true.
Proof.
  induction l as [| a l IH]; cbn [map count_true].
  - split; [lia | intros (a & [] & _)].
  - destruct (v (f a)) eqn:E.
    + split; [intros _; exists a; split; [left; reflexivity | exact E] | intros _; pose proof (count_nonneg l); lia].
    + split.
      * intros H. destruct (proj1 IH ltac:(lia)) as (b & Hb & Eb). exists b. split; [right; exact Hb | exact Eb].
      * intros (b & [<- | Hb] & Eb); [congruence |]. pose proof (proj2 IH (ex_intro _ b (conj Hb Eb))). lia.
Qed.
Lemma count_le1 : forall l, NoDup l -> (count_true v (map f l) <= 1)%Z <-> forall a b, In a l -> In b l -> v (f a) = true -> v (f b) = true -> a = b.
Proof.
  intros l Hn. induction Hn as [| a l Ha Hn IH]; cbn [map count_true].
  - split; [intros _ a b [] | lia].
  - split.
    + intros H x y [<- | Hx] [<- | Hy] Ex Ey; try reflexivity.
      * rewrite Ex in H. pose proof (proj2 (count_ge1 l) (ex_intro _ y (conj Hy Ey))). lia.
      * rewrite Ey in H. pose proof (proj2 (count_ge1 l) (ex_intro _ x (conj Hx Ex))). lia.
      * apply (proj1 IH); auto. destruct (v (f a)); lia.
    + intros H. assert (Hl : (count_true v (map f l) <= 1)%Z) by (apply IH; intros x y Hx Hy; apply H; right; assumption).
      destruct (v (f a)) eqn:E; [| lia]. destruct (Z.le_gt_cases 1 (count_true v (map f l))) as [K | K]; [| lia].
      destruct (proj1 (count_ge1 l) K) as (b & Hb & Eb). rewrite (H a b (or_introl eq_refl) (or_intror Hb) E Eb) in Ha. contradiction.
Qed.
End Count.

(* ------------------------------------------------------------------------------------------------------------------ *)
(** * The lines of the board *)

(** Exactly one queen in each row and in each column; two queens are on no common diagonal. *)
Definition queens (n : nat) (b : nat -> nat -> bool) : Prop :=
  (forall i, i < n -> exists j, j < n /\ b i j = true /\ forall j', j' < n -> b i j' = true -> j' = j)
  /\ (forall j, j < n -> exists i, i < n /\ b i j = true /\ forall i', i' < n -> b i' j = true -> i' = i)
  /\ (forall i j i' j', i < n -> j < n -> i' < n -> j' < n -> b i j = true -> b i' j' = true -> (i, j) <> (i', j') -> i + j' <> i' + j /\ i + j <> i' + j').

Definition line_ok (v : valuation) (q : nat * nat -> var) (l : ctype * list (nat * nat)) : bool := cmp_sem (fst l) (count_true v (map q (snd l))) 1%Z.

Lemma line_eq : forall v q (p : nat -> nat * nat) m, line_ok v q (EQ, map p (seq 0 m)) = true <->
  exists j, j < m /\ v (q (p j)) = true /\ forall j', j' < m -> v (q (p j')) = true -> j' = j.
Proof.
  intros v q p m. unfold line_ok. cbn [fst snd cmp_sem]. rewrite map_map. rewrite Z.eqb_eq.
  pose proof (count_ge1 v (fun x => q (p x)) (seq 0 m)) as H1. pose proof (count_le1 v (fun x => q (p x)) (seq 0 m) (seq_NoDup m 0)) as H2. split.
  - intros E. rewrite E in *. destruct (proj1 H1 ltac:(lia)) as (j & Hj & Ej). exists j. split; [apply in_seq in Hj; lia |]. split; [exact Ej |].
    intros j' Hj' Ej'. apply (proj1 H2); try assumption; [lia | apply in_seq; lia].
  - intros (j & Hj & Ej & Hu). apply Z.le_antisymm.
    + apply H2. intros a b Ha Hb Ea Eb. apply in_seq in Ha, Hb. rewrite (Hu a), (Hu b); auto; lia.
    + apply H1. exists j. split; [apply in_seq; lia | exact Ej].
Qed.
Lemma line_le : forall v q (p : nat -> nat * nat) m, line_ok v q (LE, map p (seq 0 m)) = true <->
  forall a b, a < m -> b < m -> v (q (p a)) = true -> v (q (p b)) = true -> a = b.
Proof.
  intros v q p m. unfold line_ok. cbn [fst snd cmp_sem]. rewrite map_map. rewrite Z.leb_le.
  rewrite (count_le1 v (fun x => q (p x)) (seq 0 m) (seq_NoDup m 0)). split; intros H a b Ha Hb; apply H; try (apply in_seq; lia); apply in_seq in Ha, Hb; lia.
Qed.

Lemma lines_queens : forall n v (q : nat * nat -> var), (forall l, In l (rows_of n ++ columns_of n) -> line_ok v q l = true) /\ (forall l, In l (diagonals_of n) -> line_ok v q l = true)
  <-> queens n (fun i j => v (q (i, j))).
Proof.
  intros n v q. split.
  - intros [Hrc Hd]. split; [| split].
    + intros i Hi. apply (line_eq v q (fun j => (i, j))). apply Hrc, in_or_app. left. apply in_map_iff. exists i. split; [reflexivity | apply in_seq; lia].
    + intros j Hj. apply (line_eq v q (fun i => (i, j))). apply Hrc, in_or_app. right. apply in_map_iff. exists j. split; [reflexivity | apply in_seq; lia].
    + intros i j i' j' Hi Hj Hi' Hj' E E' Hne. split; intros K; apply Hne.
      * destruct (Nat.le_gt_cases i j) as [C | C].
        { destruct (Nat.lt_ge_cases (j - i) (n - 1)) as [D | D]; [| f_equal; lia].
          assert (T : i = i'). { apply (proj1 (line_le v q (fun t => (t, (j - i) + t)) (n - (j - i)))); try lia.
            - apply Hd, in_or_app. left. apply in_map_iff. exists (j - i). split; [reflexivity | apply in_seq; lia].
            - replace (j - i + i) with j by lia. exact E.
            - replace (j - i + i') with j' by lia. exact E'. }
          f_equal; lia. }
        { destruct (Nat.lt_ge_cases (i - j) (n - 1)) as [D | D]; [| f_equal; lia].
          assert (T : j = j'). { apply (proj1 (line_le v q (fun t => (t + (i - j), t)) (n - (i - j)))); try lia.
            - apply Hd, in_or_app. right. apply in_or_app. left. apply in_map_iff. exists (i - j). split; [reflexivity | apply in_seq; lia].
            - replace (j + (i - j)) with i by lia. exact E.
            - replace (j' + (i - j)) with i' by lia. exact E'. }
          f_equal; lia. }
      * destruct (Nat.le_gt_cases (i + j) (n - 1)) as [C | C].
        { destruct (Nat.lt_ge_cases (n - 1 - (i + j)) (n - 1)) as [D | D]; [| f_equal; lia].
          assert (T : i = i'). { apply (proj1 (line_le v q (fun t => (t, n - 1 - ((n - 1 - (i + j)) + t))) (n - (n - 1 - (i + j))))); try lia.
            - apply Hd, in_or_app. right. apply in_or_app. right. apply in_or_app. left. apply in_map_iff. exists (n - 1 - (i + j)). split; [reflexivity | apply in_seq; lia].
            - replace (n - 1 - (n - 1 - (i + j) + i)) with j by lia. exact E.
            - replace (n - 1 - (n - 1 - (i + j) + i')) with j' by lia. exact E'. }
          f_equal; lia. }
        { destruct (Nat.lt_ge_cases (i + j - (n - 1)) (n - 1)) as [D | D]; [| f_equal; lia].
          assert (T : n - 1 - j = n - 1 - j'). { apply (proj1 (line_le v q (fun t => (t + (i + j - (n - 1)), n - 1 - t)) (n - (i + j - (n - 1))))); try lia.
            - apply Hd, in_or_app. right. apply in_or_app. right. apply in_or_app. right. apply in_map_iff. exists (i + j - (n - 1)). split; [reflexivity | apply in_seq; lia].
            - replace (n - 1 - j + (i + j - (n - 1))) with i by lia. replace (n - 1 - (n - 1 - j)) with j by lia. exact E.
            - replace (n - 1 - j' + (i + j - (n - 1))) with i' by lia. replace (n - 1 - (n - 1 - j')) with j' by lia. exact E'. }
          f_equal; lia. }
  - intros (H1 & H2 & H3). split.
    + intros l Hl. apply in_app_or in Hl. destruct Hl as [Hl | Hl]; apply in_map_iff in Hl; destruct Hl as (i & <- & Hi); apply in_seq in Hi.
      * apply (line_eq v q (fun j => (i, j))). apply H1. lia.
      * apply (line_eq v q (fun j => (j, i))). apply H2. lia.
    + assert (HD : forall (p : nat -> nat * nat) m,
        (forall t, t < m -> fst (p t) < n /\ snd (p t) < n) -> (forall a b, a < m -> b < m -> p a = p b -> a = b) ->
        (forall a b, a < m -> b < m -> fst (p a) + snd (p b) = fst (p b) + snd (p a) \/ fst (p a) + snd (p a) = fst (p b) + snd (p b)) ->
        line_ok v q (LE, map p (seq 0 m)) = true).
      { intros p m Hr Hinj Hdg. apply line_le. intros a b Ha Hb Ea Eb. destruct (Nat.eq_dec a b) as [| Hne]; [assumption | exfalso].
        destruct (Hr a Ha) as [R1 R2]. destruct (Hr b Hb) as [R3 R4]. pose proof (Hinj a b Ha Hb) as Hi. pose proof (Hdg a b Ha Hb) as Hg. destruct (p a) as [i j]. destruct (p b) as [i' j']. cbn [fst snd] in *.
        destruct (H3 i j i' j' R1 R2 R3 R4 Ea Eb) as [N1 N2]; [intros K; apply Hne, Hi, K |]. destruct Hg; contradiction. }
      intros l Hl. unfold diagonals_of in Hl. rewrite !in_app_iff in Hl.
      destruct Hl as [Hl | [Hl | [Hl | Hl]]]; apply in_map_iff in Hl; destruct Hl as (i & <- & Hi); apply in_seq in Hi; apply HD; cbn [fst snd]; intros; try (split; lia); try lia;
        match goal with K : (_, _) = (_, _) |- _ => injection K; intros; lia end.
Qed.

(* ------------------------------------------------------------------------------------------------------------------ *)
(** * The variables *)

Lemma x_mmap_ext : forall A B (f : A -> M B) (P : A -> B -> factory -> world -> Prop),
  (forall a b s s' W W', ext s s' -> sub W' W -> P a b s W -> P a b s' W') -> (forall a, mono (f a)) ->
  forall l W s, inv W s -> (forall a t W', In a l -> inv W' t -> ext s t -> sub W' W -> xspec W' t (f a) (P a)) ->
  xspec W s (mmap f l) (fun bs s' W' => Forall2 (fun a b => P a b s' W') l bs).
Proof.
  intros A B f P HP Hm. induction l as [| a l IH]; intros W s Hi H; cbn [mmap].
  - apply x_ret; [assumption | constructor].
  - eapply x_bind; [apply H; auto using ext_refl, sub_refl; left; reflexivity | |].
    { intros. apply mono_bind; [apply mono_mmap; assumption | intros; apply mono_ret]. }
    intros r s1 W1 Hi1 He1 Hs1 HP1. eapply x_bind; [apply IH; auto | intros; apply mono_ret |].
    { intros b t W' Hb Ht Het Hst. apply H; auto; [right; assumption | eapply ext_trans; eauto | intros u Hu; apply Hs1, Hst, Hu]. }
    intros rs s2 W2 Hi2 He2 Hs2 HF. apply x_ret; [assumption |]. constructor; [eapply HP; eassumption | assumption].
Qed.

Definition named (s : factory) (u : var) (c : nat) : Prop := exists k, u = VFF k /\ known s (VFF k) /\ name_of s k = Some (anon_name "v" (N.of_nat c)).
Lemma named_ext : forall s s' u c, ext s s' -> named s u c -> named s' u c.
Proof. intros s s' u c He (k & -> & H1 & H2). exists k. split; [reflexivity |]. split; [eapply known_ext; eauto | eapply name_ext; eauto]. Qed.
Lemma x_var : forall W s c, inv W s -> xspec W s (f_var (anon_name "v" (N.of_nat c))) (fun u s' _ => named s' u c).
Proof.
  intros W s c Hi. unfold f_var. eapply x_bind; [apply x_core; [assumption | apply f_variable_spec; apply Hi] | |].
  { intros a. mono_tac. }
  intros h s1 W1 Hi1 He1 Hs1 (_ & _ & i & -> & Hv & Hok & Hn). eapply x_lift_bind.
  - apply unpack_lit; [apply (wf_cap s1 (i_wf _ _ Hi1)) | exact Hok].
  - cbn beta iota. apply x_ret; [assumption |]. cbn [lit_var]. exists i. split; [reflexivity |]. split; [exact Hok | exact Hn].
Qed.

Definition row_ok (n : nat) (s : factory) (i : nat) (row : list var) : Prop := Forall2 (fun j u => named s u (i * n + j + 1)) (seq 0 n) row.
Definition board_ok (n : nat) (s : factory) (vs : list (list var)) : Prop := Forall2 (row_ok n s) (seq 0 n) vs.
Lemma row_ok_ext : forall n s s' i row, ext s s' -> row_ok n s i row -> row_ok n s' i row.
Proof. intros n s s' i row He H. unfold row_ok in *. induction H; constructor; [eapply named_ext; eauto | assumption]. Qed.
Lemma board_ok_ext : forall n s s' vs, ext s s' -> board_ok n s vs -> board_ok n s' vs.
Proof. intros n s s' vs He H. unfold board_ok in *. induction H; constructor; [eapply row_ok_ext; eauto | assumption]. Qed.
Lemma x_generate_vars : forall n W s, inv W s -> xspec W s (generate_vars n) (fun vs s' _ => board_ok n s' vs).
Proof.
  intros n W s Hi. unfold generate_vars, board_ok.
  apply (x_mmap_ext _ _ _ (fun i row s' _ => row_ok n s' i row)); [| | assumption |].
  - intros. eapply row_ok_ext; eauto.
  - intros. apply mono_mmap. intros. apply mono_f_var.
  - intros i t W' _ Ht _ _. unfold row_ok. apply (x_mmap_ext _ _ _ (fun j u s' _ => named s' u (i * n + j + 1))); [| | assumption |].
    + intros. eapply named_ext; eauto.
    + intros. apply mono_f_var.
    + intros j t' W'' _ Ht' _ _. apply x_var. assumption.
Qed.

Lemma Forall2_nth : forall A B (P : A -> B -> Prop) l l' i a, Forall2 P l l' -> nth_error l i = Some a -> exists b, nth_error l' i = Some b /\ P a b.
Proof.
  intros A B P l l' i a H. revert i. induction H as [| x y l l' Hxy H IH]; intros [| i] E; cbn [nth_error] in *; try discriminate.
  - injection E as <-. eauto.
  - auto.
Qed.
Lemma nth_error_seq : forall n a i, i < n -> nth_error (seq a n) i = Some (a + i).
Proof. induction n as [| n IH]; intros a [| i] H; cbn [seq nth_error]; try lia; [f_equal; lia | rewrite IH by lia; f_equal; lia]. Qed.

Definition the_cell (vs : list (list var)) (p : nat * nat) : var := match cell vs p with Ok u => u | _ => VFF 0 end.
Lemma cell_ok : forall n s vs i j, board_ok n s vs -> i < n -> j < n -> cell vs (i, j) = Ok (the_cell vs (i, j)) /\ named s (the_cell vs (i, j)) (i * n + j + 1).
Proof.
  intros n s vs i j H Hi Hj. destruct (Forall2_nth _ _ _ _ _ _ _ H (nth_error_seq n 0 i Hi)) as (row & E1 & Hr).
  destruct (Forall2_nth _ _ _ _ _ _ _ Hr (nth_error_seq n 0 j Hj)) as (u & E2 & Hu).
  unfold the_cell, cell. cbn [fst snd]. rewrite E1, E2. split; [reflexivity | exact Hu].
Qed.
Definition on_board (n : nat) (p : nat * nat) : Prop := fst p < n /\ snd p < n.
Lemma cells_ok : forall n s vs ps, board_ok n s vs -> Forall (on_board n) ps -> cells vs ps = Ok (map (the_cell vs) ps) /\ Forall (fun u => exists c, named s u c) (map (the_cell vs) ps).
Proof.
  intros n s vs ps H HF. induction HF as [| [i j] ps [Hi Hj] HF [IH1 IH2]]; [split; [reflexivity | constructor] |].
  destruct (cell_ok n s vs i j H Hi Hj) as [E Hn]. cbn [cells map]. rewrite E, IH1. split; [reflexivity |]. constructor; [eauto | exact IH2].
Qed.

(* ------------------------------------------------------------------------------------------------------------------ *)
(** * The constraints *)

Definition line_enc (q : nat * nat -> var) (l : ctype * list (nat * nat)) (h : N) (s : factory) (W : world) : Prop :=
  exists y, hdl s h y /\ (forall v, sem v y = true -> line_ok v q l = true) /\ (forall v, W v -> line_ok v q l = true -> sem v y = true).
Lemma line_enc_ext : forall q l h s s' W W', ext s s' -> sub W' W -> line_enc q l h s W -> line_enc q l h s' W'.
Proof.
  intros q l h s s' W W' He Hs (y & Hy & H1 & H2). exists y. split; [eapply hdl_ext; eauto |]. split; [exact H1 |]. intros v Hv. apply H2, Hs, Hv.
Qed.
Lemma mono_line : forall fuel vs l, mono (queens_line fuel vs l).
Proof. intros. unfold queens_line. apply mono_bind; [apply mono_lift | intros]. apply mono_bind; [apply mono_f_cc | intros; apply mono_nnf_fun]. Qed.

Lemma x_line : forall fuel n vs l W s, inv W s -> cfg_cc (f_config s) = pure_config -> board_ok n s vs -> (Z.of_nat n < 1073741824)%Z -> 6 <= fuel ->
  (fst l = EQ \/ fst l = LE) -> Forall (on_board n) (snd l) -> length (snd l) <= n -> xspec W s (queens_line fuel vs l) (line_enc (the_cell vs) l).
Proof.
  intros fuel n vs [c ps] W s Hi Hcfg Hb Hn Hfu Hc Hps Hlen. cbn [fst snd] in *. unfold queens_line. cbn [fst snd].
  destruct (cells_ok n s vs ps Hb Hps) as [Ecs Hnm]. eapply x_lift_bind; [exact Ecs |]. cbn beta.
  assert (Hkn : forall u, In u (map (the_cell vs) ps) -> known s u).
  { intros u Hu. rewrite Forall_forall in Hnm. destruct (Hnm u Hu) as (c0 & k & -> & K & _). exact K. }
  assert (Hvo : Forall (var_ok s) (map (the_cell vs) ps)).
  { apply Forall_forall. intros u Hu. apply known_var_ok; [apply (wf_cap s (i_wf _ _ Hi)) | auto]. }
  assert (Hcc : is_cc c 1 = true) by (destruct Hc as [-> | ->]; reflexivity).
  unfold f_cc. change (Z.of_N 1) with 1%Z. rewrite Hcc.
  eapply x_bind; [apply x_core; [assumption |]; apply (construct_cc_spec s c 1 (map (the_cell vs) ps)); [apply Hi | exact Hcc | lia | exact Hvo] | intros; apply mono_nnf_fun |].
  intros h s1 W1 Hi1 He1 Hs1 (_ & _ & Hv & Hres).
  assert (HX : exists x, hdl s1 h x /\ encodable s1 x /\ depth x + 5 <= fuel /\ forall v, sem v x = line_ok v (the_cell vs) (c, ps)).
  { destruct Hres as [[E ->] | (k & Hu & Ek & Hsem)].
    - exists (fconst (cmp_sem c 0 1)). split; [| split; [| split]].
      + destruct (cmp_sem c 0 1); (split; [exact Hv |]); (split; [constructor; reflexivity | intros u []]).
      + destruct (cmp_sem c 0 1); constructor.
      + destruct (cmp_sem c 0 1); cbn; lia.
      + intros v. unfold line_ok. cbn [fst snd]. rewrite E. cbn [count_true]. destruct (cmp_sem c 0 1); reflexivity.
    - exists (FCc k). split; [| split; [| split]].
      + split; [exact Hv |]. split; [constructor; exact Hu |]. intros u Hu'. rewrite fvars_cc, Ek in Hu'. apply (known_ext s); [exact He1 | auto].
      + destruct (unpack_cc_vh s1 h k (i_wf _ _ Hi1) Hv Hu) as [_ [_ [Hr _]]].
        constructor; [| constructor]. cbn [leaf_enc]. rewrite (ext_config _ _ He1), Hcfg, Ek, map_length. unfold con_enc. cbn [pure_config cfg_amo amo_cfg_ok]. split; [exact I |].
        unfold pos_lits. rewrite !map_length, sum_abs_ones. split; [lia |]. split; [unfold B63; lia |]. intros _ _. repeat split.
      + cbn. lia.
      + intros v. cbn [sem]. rewrite Hsem. reflexivity. }
  destruct HX as (x & Hx & Hen & Hd & Hsx).
  eapply x_conseq; [apply (nnf_spec fuel x W1); assumption |].
  intros r s2 W2 Hi2 _ _ (y & Hy & (R1 & R2 & _) & _). exists y. split; [exact Hy |].
  split; [intros v Ev; rewrite <- Hsx; auto | intros v HW Ev; rewrite <- Hsx in Ev; auto].
Qed.

Lemma lines_shape : forall n l, In l (rows_of n ++ columns_of n) \/ In l (diagonals_of n) -> (fst l = EQ \/ fst l = LE) /\ Forall (on_board n) (snd l) /\ length (snd l) <= n.
Proof.
  intros n l H. unfold diagonals_of in H. rewrite !in_app_iff in H.
  assert (HF : forall (p : nat -> nat * nat) m, m <= n -> (forall t, t < m -> on_board n (p t)) -> Forall (on_board n) (map p (seq 0 m)) /\ length (map p (seq 0 m)) <= n).
  { intros p m Hm Hp. split; [| rewrite map_length, seq_length; exact Hm]. apply Forall_forall. intros x Hx. apply in_map_iff in Hx. destruct Hx as (t & <- & Ht). apply in_seq in Ht. apply Hp. lia. }
  destruct H as [[H | H] | [H | [H | [H | H]]]]; apply in_map_iff in H; destruct H as (i & <- & Hi); apply in_seq in Hi; cbn [fst snd]; (split; [auto |]); apply HF; try lia; intros t Ht; split; cbn [fst snd]; lia.
Qed.

Definition queens_result (n : nat) (h : N) (s : factory) (W : world) : Prop :=
  exists y q, hdl s h y /\ (forall i j, i < n -> j < n -> named s (q i j) (i * n + j + 1))
    /\ (forall v, sem v y = true -> queens n (fun i j => v (q i j))) /\ (forall v, W v -> queens n (fun i j => v (q i j)) -> sem v y = true).
Lemma Forall2_line : forall q s W ls hs, Forall2 (fun l h => line_enc q l h s W) ls hs ->
  exists ys, Forall2 (hdl s) hs ys /\ (forall v, forallb (sem v) ys = true -> forall l, In l ls -> line_ok v q l = true)
    /\ (forall v, W v -> (forall l, In l ls -> line_ok v q l = true) -> forallb (sem v) ys = true).
Proof.
  intros q s W ls hs H. induction H as [| l h ls hs (y & Hy & H1 & H2) _ (ys & Hys & IH1 & IH2)].
  - exists []. split; [constructor |]. split; [intros v _ l [] | reflexivity].
  - exists (y :: ys). split; [constructor; assumption |]. cbn [forallb]. split.
    + intros v E l0 [<- | Hl]; apply andb_true_iff in E; destruct E as [E1 E2]; [auto | eapply IH1; eauto].
    + intros v HW E. rewrite H2, IH2; auto; [intros l0 Hl; apply E; right; exact Hl | apply E; left; reflexivity].
Qed.
Lemma x_queens : forall fuel n W s, inv W s -> cfg_cc (f_config s) = pure_config -> 1 <= n -> (Z.of_nat n < 1073741824)%Z -> 6 <= fuel ->
  xspec W s (generate_n_queens fuel n) (queens_result n).
Proof.
  intros fuel n W s Hi Hcfg Hn1 Hn Hfu. unfold generate_n_queens. destruct (Nat.eqb_spec n 0) as [E | _]; [lia |].
  eapply x_bind; [apply x_generate_vars; assumption | |].
  { intros. apply mono_bind; [apply mono_mmap; intros; apply mono_line | intros]. apply mono_bind; [apply mono_mmap; intros; apply mono_line | intros; apply mono_f_nary]. }
  intros vs s1 W1 Hi1 He1 Hs1 Hb.
  assert (HL : forall l t W', In l (rows_of n ++ columns_of n) \/ In l (diagonals_of n) -> inv W' t -> ext s1 t -> xspec W' t (queens_line fuel vs l) (line_enc (the_cell vs) l)).
  { intros l t W' Hl Ht Het. destruct (lines_shape n l Hl) as (L1 & L2 & L3). apply (x_line fuel n); auto.
    - rewrite (ext_config _ _ Het), (ext_config _ _ He1). exact Hcfg.
    - eapply board_ok_ext; eauto. }
  eapply x_bind; [apply (x_mmap_ext _ _ _ (line_enc (the_cell vs))); [intros; eapply line_enc_ext; eauto | intros; apply mono_line | assumption | intros l t W' Hl Ht Het _; apply HL; auto] | |].
  { intros. apply mono_bind; [apply mono_mmap; intros; apply mono_line | intros; apply mono_f_nary]. }
  intros o1 s2 W2 Hi2 He2 Hs2 HF1. cbn beta in HF1.
  eapply x_bind; [apply (x_mmap_ext _ _ _ (line_enc (the_cell vs))); [intros; eapply line_enc_ext; eauto | intros; apply mono_line | assumption |
    intros l t W' Hl Ht Het _; apply HL; auto; eapply ext_trans; eauto] | intros; apply mono_f_nary |].
  intros o2 s3 W3 Hi3 He3 Hs3 HF2. cbn beta in HF2.
  assert (HF1' : Forall2 (fun l h => line_enc (the_cell vs) l h s3 W3) (rows_of n ++ columns_of n) o1).
  { clear - HF1 He3 Hs3. induction HF1; constructor; [eapply line_enc_ext; eauto | assumption]. }
  destruct (Forall2_line _ _ _ _ _ HF1') as (y1 & Hy1 & A1 & B1). destruct (Forall2_line _ _ _ _ _ HF2) as (y2 & Hy2 & A2 & B2).
  eapply x_conseq; [apply (x_nary true (o1 ++ o2) (y1 ++ y2)); [assumption | apply Forall2_app; assumption] |].
  intros r s4 W4 Hi4 He4 Hs4 (-> & _ & y & Hy & Hsem & _). exists y, (fun i j => the_cell vs (i, j)). split; [exact Hy |]. split.
  - intros i j Hi' Hj'. assert (Hb4 : board_ok n s4 vs) by (eapply board_ok_ext; [| exact Hb]; eapply ext_trans; [exact He2 | eapply ext_trans; [exact He3 | exact He4]]).
    apply (cell_ok n s4 vs i j Hb4 Hi' Hj').
  - assert (HS : forall v, sem v y = forallb (sem v) y1 && forallb (sem v) y2) by (intros v; rewrite Hsem; unfold nary_sem; apply forallb_app).
    split.
    + intros v E. rewrite HS in E. apply andb_true_iff in E. destruct E as [E1 E2]. apply (lines_queens n v (the_cell vs)). split; eauto.
    + intros v HW Hq. apply (lines_queens n v (the_cell vs)) in Hq. destruct Hq as [Q1 Q2]. rewrite HS, B1, B2; auto.
Qed.
