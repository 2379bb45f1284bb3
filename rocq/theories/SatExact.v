(** In the incremental mode the watch lists hold exactly the clauses of the solver. *)
From Coq Require Import List Arith ZArith NArith Bool Lia Permutation.
From Verif Require Import Base Vec HeapModel HeapProofs SatSpec SatModel SatBasics SatHeap SatInv SatProp SatAnalyze SatDb SatSearch SatSolve SatFront.
Import ListNotations.
Local Open Scope nat_scope.

Definition adata (A : list clause) (c : nat) : list nat := c_data (nth c A dcl).
Definition wfdata (nv : nat) (d : list nat) : Prop := NoDup d /\ 2 <= length d /\ forall l, In l d -> l < 2 * nv.
Record xw (nv : nat) (A : list clause) (W : list (list (nat * nat))) (L : list nat) : Prop := {
  xw_len : length W = 2 * nv;
  xw_in : forall c, In c L -> c < length A /\ wfdata nv (adata A c) /\ paired W c (adata A c);
  xw_ids : forall p c b, In (c, b) (nth p W []) -> In c L /\ In b (adata A c) /\ watched_by (lneg p) (adata A c);
  xw_nd : forall p, NoDup (map fst (nth p W []));
  xw_l : NoDup L }.

Lemma wfdata_perm : forall nv d e, Permutation d e -> wfdata nv d -> wfdata nv e.
Proof.
  intros nv d e P (H1 & H2 & H3). split; [eapply Permutation_NoDup; eauto |]. split; [now rewrite <- (Permutation_length P) |]. intros l Hl. apply H3. eapply Permutation_in; [symmetry |]; eauto.
Qed.
Lemma adata_upd : forall A c d lr x, c < length A -> adata (upd A c (mkCl d lr)) x = if c =? x then d else adata A x.
Proof. intros A c d lr x H. unfold adata. destruct (Nat.eqb_spec c x) as [<- | N]; [now rewrite nth_upd_eq | now rewrite nth_upd_neq]. Qed.
Lemma nth_upd_d : forall T (l : list T) i x j d, nth j (upd l i x) d = if (i =? j) && (i <? length l) then x else nth j l d.
Proof.
  intros T l i x j d. destruct (Nat.eqb_spec i j) as [<- | N]; cbn [andb]; [| now rewrite nth_upd_neq].
  destruct (Nat.ltb_spec i (length l)); [now rewrite nth_upd_eq |]. rewrite !nth_overflow; auto. now rewrite upd_length.
Qed.
Lemma wl_some : forall (W : list (list (nat * nat))) p i w, nth_error (nth p W []) i = Some w -> p < length W.
Proof. intros W p i w H. destruct (Nat.lt_ge_cases p (length W)); auto. rewrite nth_overflow in H by auto. destruct i; discriminate. Qed.

Section Step.
  Variables (nv : nat) (A : list clause) (W : list (list (nat * nat))) (L : list nat).
  Hypothesis X : xw nv A W L.
  Variables (p i c b l0 l1 : nat) (rest : list nat).
  Hypothesis Ei : nth_error (nth p W []) i = Some (c, b).
  Hypothesis Ed : adata A c = l0 :: l1 :: rest.
  Let first := if l0 =? lneg p then l1 else l0.
  Lemma xs_c : In c L.
  Proof. apply (xw_ids _ _ _ _ X p c b). eapply nth_error_In; eauto. Qed.
  Lemma xs_len : c < length A.
  Proof. apply (xw_in _ _ _ _ X), xs_c. Qed.
  Lemma xs_p : p < length W.
  Proof. eapply wl_some; eauto. Qed.
  Lemma xs_cases : (l0 = lneg p /\ first = l1) \/ (l0 <> lneg p /\ l1 = lneg p /\ first = l0).
  Proof.
    destruct (xw_ids _ _ _ _ X p c b (nth_error_In _ _ Ei)) as (_ & _ & Wb). rewrite Ed in Wb. unfold first.
    destruct (Nat.eqb_spec l0 (lneg p)); [left; auto |]. right. split; auto. destruct Wb as [Wb | Wb]; cbn in Wb; [congruence |]. split; congruence.
  Qed.
  Lemma xs_perm : Permutation (l0 :: l1 :: rest) (first :: lneg p :: rest).
  Proof. destruct xs_cases as [[E1 E2] | (N & E1 & E2)]; rewrite E2; [rewrite E1; apply perm_swap | rewrite E1; apply Permutation_refl]. Qed.
  Lemma xs_nd : NoDup (first :: lneg p :: rest).
  Proof. destruct (xw_in _ _ _ _ X c xs_c) as (_ & (N & _) & _). rewrite Ed in N. eapply Permutation_NoDup; [apply xs_perm | exact N]. Qed.
  Lemma xs_rng : forall l, In l (first :: lneg p :: rest) -> l < 2 * nv.
  Proof.
    intros l Hl. destruct (xw_in _ _ _ _ X c xs_c) as (_ & (_ & _ & R) & _). apply R. rewrite Ed. eapply Permutation_in; [symmetry; apply xs_perm | exact Hl].
  Qed.
  (** The other watched literal has the clause in its list. *)
  Lemma xs_first : exists b0, In (c, b0) (nth (lneg first) W []).
  Proof.
    destruct (xw_in _ _ _ _ X c xs_c) as (_ & _ & (x & y & r & b1 & b2 & D & P1 & P2 & _)). rewrite Ed in D. inversion D; subst x y r.
    destruct xs_cases as [[E1 E2] | (N & E1 & E2)]; rewrite E2; eauto.
  Qed.
  Lemma xs_fp : lneg first <> p.
  Proof. intros K. pose proof xs_nd as N. apply NoDup_cons_iff in N. destruct N as [N _]. apply N. left. rewrite <- K. apply lneg_inv. Qed.
  Lemma xs_uniq : forall b', In (c, b') (nth p W []) -> forall j, nth_error (nth p W []) j = Some (c, b') -> j = i.
  Proof.
    intros b' _ j Ej. apply (NoDup_nth_error (map fst (nth p W []))); [apply (xw_nd _ _ _ _ X) | rewrite map_length; eapply nth_some_lt; eauto |].
    now rewrite (map_nth_error _ _ _ Ei), (map_nth_error _ _ _ Ej).
  Qed.
  Lemma xw_keep : forall lr, xw nv (upd A c (mkCl (first :: lneg p :: rest) lr)) (upd W p (upd (nth p W []) i (c, first))) L.
  Proof.
    intros lr. set (d1 := first :: lneg p :: rest). set (A' := upd A c (mkCl d1 lr)). set (W' := upd W p (upd (nth p W []) i (c, first))).
    assert (Ad : forall x, adata A' x = if c =? x then d1 else adata A x) by (intros x; apply adata_upd, xs_len).
    assert (Pd : forall x, Permutation (adata A x) (adata A' x)).
    { intros x. rewrite Ad. destruct (Nat.eqb_spec c x) as [<- | N]; [rewrite Ed; apply xs_perm | apply Permutation_refl]. }
    assert (Wp : nth p W' [] = upd (nth p W []) i (c, first)) by (apply nth_upd_eq, xs_p).
    assert (Wo : forall z, z <> p -> nth z W' [] = nth z W []) by (intros z N; apply nth_upd_neq; auto).
    assert (In_p : In (c, first) (nth p W' [])) by (rewrite Wp; apply nth_error_In with i, upd_same; eapply nth_some_lt; eauto).
    constructor.
    - unfold W'. rewrite upd_length. apply X.
    - intros c' Hc. destruct (xw_in _ _ _ _ X c' Hc) as (Lc & Wf & Pr). split; [unfold A'; now rewrite upd_length |]. split; [eapply wfdata_perm; eauto |].
      rewrite Ad. destruct (Nat.eqb_spec c c') as [<- | N].
      + destruct xs_first as [b0 Hb]. exists first, (lneg p), rest, b0, first. split; [reflexivity |]. rewrite Wo by apply xs_fp. rewrite lneg_inv. auto.
      + eapply paired_mono; [| exact Pr]. intros z w Hw. destruct (Nat.eq_dec z p) as [-> | Nz]; [| now rewrite Wo]. rewrite Wp. apply In_nth_error in Hw. destruct Hw as [k Ek]. apply nth_error_In with k.
        rewrite nth_upd. destruct (Nat.eqb_spec i k) as [<- | Nk]; [congruence | exact Ek].
    - intros z c' b' Hin. assert (K : In (c', b') (nth z W []) \/ (z = p /\ c' = c /\ b' = first)).
      { destruct (Nat.eq_dec z p) as [-> | Nz]; [| rewrite Wo in Hin by auto; auto]. rewrite Wp in Hin. apply in_upd_cases in Hin. destruct Hin as [E | Hin]; [inversion E; auto | auto]. }
      destruct K as [K | (-> & -> & ->)].
      + destruct (xw_ids _ _ _ _ X z c' b' K) as (K1 & K2 & K3). split; auto. split; [eapply Permutation_in; [apply Pd | exact K2] |]. rewrite Ad. destruct (Nat.eqb_spec c c') as [<- | N]; auto.
        rewrite Ed in K3. unfold d1. destruct xs_cases as [[E1 E2] | (N & E1 & E2)]; rewrite E2 in *; destruct K3 as [K3 | K3]; cbn in K3; unfold watched_by; cbn; first [left; congruence | right; congruence].
      + split; [apply xs_c |]. rewrite Ad, Nat.eqb_refl. split; [left; reflexivity | right; reflexivity].
    - intros z. destruct (Nat.eq_dec z p) as [-> | Nz]; [| rewrite Wo by auto; apply X]. rewrite Wp, (fst_upd _ _ _ b) by exact Ei. apply X.
    - apply X.
  Qed.

  Variable k : nat.
  Hypothesis Ek : nth_error rest k = Some (nth k rest 0).
  Let lk := nth k rest 0.
  Let W1 := upd W p (firstn i (nth p W []) ++ skipn (S i) (nth p W [])).
  Lemma xs_lk : lneg lk <> p.
  Proof. intros K. pose proof xs_nd as N. apply NoDup_cons_iff in N. destruct N as [_ N]. apply NoDup_cons_iff in N. destruct N as [N _]. apply N. rewrite <- K, lneg_inv. eapply nth_error_In; eauto. Qed.
  Lemma xs_lf : lk <> first.
  Proof. intros K. pose proof xs_nd as N. apply NoDup_cons_iff in N. destruct N as [N _]. apply N. right. rewrite <- K. eapply nth_error_In; eauto. Qed.
  Lemma xs_perm2 : Permutation (first :: lneg p :: rest) (first :: lk :: upd rest k (lneg p)).
  Proof. constructor. apply upd_perm. exact Ek. Qed.
  Lemma xw_move : forall lr, xw nv (upd A c (mkCl (first :: lk :: upd rest k (lneg p)) lr)) (upd W1 (lneg lk) (nth (lneg lk) W1 [] ++ [(c, first)])) L.
  Proof.
    intros lr. set (d2 := first :: lk :: upd rest k (lneg p)). set (A' := upd A c (mkCl d2 lr)). set (W' := upd W1 (lneg lk) (nth (lneg lk) W1 [] ++ [(c, first)])).
    assert (Ad : forall x, adata A' x = if c =? x then d2 else adata A x) by (intros x; apply adata_upd, xs_len).
    assert (Pd : forall x, Permutation (adata A x) (adata A' x)).
    { intros x. rewrite Ad. destruct (Nat.eqb_spec c x) as [<- | N]; [rewrite Ed; etransitivity; [apply xs_perm | apply xs_perm2] | apply Permutation_refl]. }
    assert (Lk : lneg lk < length W1).
    { unfold W1. rewrite upd_length, (xw_len _ _ _ _ X). apply lneg_lt, xs_rng. right. right. eapply nth_error_In; eauto. }
    assert (Wp : nth p W' [] = firstn i (nth p W []) ++ skipn (S i) (nth p W [])).
    { unfold W'. rewrite nth_upd_neq by apply xs_lk. apply nth_upd_eq, xs_p. }
    assert (Wk : nth (lneg lk) W' [] = nth (lneg lk) W [] ++ [(c, first)]).
    { unfold W'. rewrite nth_upd_eq by exact Lk. f_equal. apply nth_upd_neq, not_eq_sym, xs_lk. }
    assert (Wo : forall z, z <> p -> z <> lneg lk -> nth z W' [] = nth z W []).
    { intros z N1 N2. unfold W', W1. rewrite !nth_upd_neq by auto. reflexivity. }
    assert (Rm : Permutation (nth p W []) ((c, b) :: firstn i (nth p W []) ++ skipn (S i) (nth p W []))) by (apply remove_at_perm; exact Ei).
    assert (Nin : ~ In c (map fst (nth (lneg lk) W []))).
    { intros K. apply in_map_iff in K. destruct K as ((c' & b') & E & K). cbn in E. subst c'. destruct (xw_ids _ _ _ _ X _ _ _ K) as (_ & _ & Wb). rewrite lneg_inv, Ed in Wb.
      pose proof xs_nd as N. apply NoDup_cons_iff in N. destruct N as [N1 N2]. apply NoDup_cons_iff in N2. destruct N2 as [N2 _].
      assert (Hk : In lk rest) by (eapply nth_error_In; eauto).
      destruct xs_cases as [[E1 E2] | (N & E1 & E2)]; rewrite E2 in *; destruct Wb as [Wb | Wb]; cbn in Wb; first [assert (Q : lk = lneg p) by congruence; apply N2; rewrite <- Q; exact Hk | assert (Q : lk = l0) by congruence; apply N1; right; rewrite <- Q; exact Hk | assert (Q : lk = l1) by congruence; apply N1; right; rewrite <- Q; exact Hk]. }
    assert (Rm1 : NoDup (c :: map fst (firstn i (nth p W []) ++ skipn (S i) (nth p W [])))).
    { apply (Permutation_NoDup (Permutation_map fst Rm)). apply X. }
    constructor.
    - unfold W'. rewrite upd_length. unfold W1. rewrite upd_length. apply X.
    - intros c' Hc. destruct (xw_in _ _ _ _ X c' Hc) as (Lc & Wf & Pr). split; [unfold A'; now rewrite upd_length |]. split; [eapply wfdata_perm; eauto |].
      rewrite Ad. destruct (Nat.eqb_spec c c') as [<- | N].
      + destruct xs_first as [b0 Hb]. exists first, lk, (upd rest k (lneg p)), b0, first. split; [reflexivity |]. rewrite Wk. split; [| split; [apply in_or_app; right; left; reflexivity | right; reflexivity]].
        rewrite Wo; [exact Hb | apply xs_fp |]. intros K. apply lneg_inj in K. now apply xs_lf.
      + eapply paired_mono; [| exact Pr]. intros z w Hw. destruct (Nat.eq_dec z p) as [-> | Nz].
        * rewrite Wp. apply (Permutation_in _ Rm) in Hw. destruct Hw as [E | Hw]; [congruence | exact Hw].
        * destruct (Nat.eq_dec z (lneg lk)) as [-> | Nk]; [rewrite Wk; apply in_or_app; auto | rewrite Wo; auto].
    - intros z c' b' Hin. assert (K : (In (c', b') (nth z W []) /\ (z = p -> c' <> c)) \/ (z = lneg lk /\ c' = c /\ b' = first)).
      { destruct (Nat.eq_dec z p) as [-> | Nz].
        - left. rewrite Wp in Hin. split; [eapply Permutation_in; [symmetry; exact Rm | right; exact Hin] |]. intros _ ->. apply NoDup_cons_iff in Rm1. apply (proj1 Rm1). apply (in_map fst _ _ Hin).
        - destruct (Nat.eq_dec z (lneg lk)) as [-> | Nk].
          + rewrite Wk in Hin. apply in_app_or in Hin. destruct Hin as [Hin | [E | []]]; [left; split; [auto | contradiction] | inversion E; auto].
          + rewrite Wo in Hin by auto. left. split; [auto | contradiction]. }
      destruct K as [[K Kp] | (-> & -> & ->)].
      + destruct (xw_ids _ _ _ _ X z c' b' K) as (K1 & K2 & K3). split; auto. split; [eapply Permutation_in; [apply Pd | exact K2] |]. rewrite Ad. destruct (Nat.eqb_spec c c') as [<- | N]; auto.
        rewrite Ed in K3. assert (Kz : lneg z <> lneg p) by (intros E; apply lneg_inj in E; now apply (Kp E)). left. cbn. unfold d2.
        destruct xs_cases as [[E1 E2] | (N & E1 & E2)]; rewrite E2 in *; destruct K3 as [K3 | K3]; cbn in K3; congruence.
      + split; [apply xs_c |]. rewrite Ad, Nat.eqb_refl, lneg_inv. split; [left; reflexivity | right; reflexivity].
    - intros z. destruct (Nat.eq_dec z p) as [-> | Nz].
      + rewrite Wp. now apply NoDup_cons_iff in Rm1.
      + destruct (Nat.eq_dec z (lneg lk)) as [-> | Nk]; [| rewrite Wo by auto; apply X]. rewrite Wk, map_app. cbn. apply nodup_snoc; [apply X | exact Nin].
    - apply X.
  Qed.
End Step.

(** A clause with a fresh index. *)
Lemma adata_app : forall A cl c, c < length A -> adata (A ++ [cl]) c = adata A c.
Proof. intros A cl c H. unfold adata. now rewrite app_nth1. Qed.
Lemma xw_perm : forall nv A W L L', Permutation L L' -> xw nv A W L -> xw nv A W L'.
Proof.
  intros nv A W L L' P [X1 X2 X3 X4 X5]. constructor; auto.
  - intros c Hc. apply X2. eapply Permutation_in; [symmetry |]; eauto.
  - intros p c b H. destruct (X3 p c b H) as (K & K'). split; auto. eapply Permutation_in; eauto.
  - eapply Permutation_NoDup; eauto.
Qed.
Lemma xw_attach : forall nv A W L l0 l1 r lr, xw nv A W L -> wfdata nv (l0 :: l1 :: r) ->
  let c := length A in let W1 := upd W (lneg l0) (nth (lneg l0) W [] ++ [(c, l1)]) in
  xw nv (A ++ [mkCl (l0 :: l1 :: r) lr]) (upd W1 (lneg l1) (nth (lneg l1) W1 [] ++ [(c, l0)])) (L ++ [c]).
Proof.
  intros nv A W L l0 l1 r lr X Wf c W1. set (W2 := upd W1 (lneg l1) (nth (lneg l1) W1 [] ++ [(c, l0)])). set (A' := A ++ [mkCl (l0 :: l1 :: r) lr]).
  destruct Wf as (N & Ln & R). assert (Ne : lneg l0 <> lneg l1) by (intros K; apply lneg_inj in K; subst; apply NoDup_cons_iff in N; apply (proj1 N); left; auto).
  assert (R0 : lneg l0 < length W) by (rewrite (xw_len _ _ _ _ X); apply lneg_lt, R; left; auto).
  assert (R1 : lneg l1 < length W) by (rewrite (xw_len _ _ _ _ X); apply lneg_lt, R; right; left; auto).
  assert (E0 : nth (lneg l0) W2 [] = nth (lneg l0) W [] ++ [(c, l1)]) by (unfold W2; rewrite nth_upd_neq by auto; apply nth_upd_eq, R0).
  assert (E1 : nth (lneg l1) W2 [] = nth (lneg l1) W [] ++ [(c, l0)]).
  { unfold W2. rewrite nth_upd_eq by (unfold W1; now rewrite upd_length). f_equal. apply nth_upd_neq. auto. }
  assert (Eo : forall z, z <> lneg l0 -> z <> lneg l1 -> nth z W2 [] = nth z W []) by (intros z H0 H1; unfold W2, W1; rewrite !nth_upd_neq by auto; reflexivity).
  assert (Ac : adata A' c = l0 :: l1 :: r) by (unfold adata, A', c; rewrite app_nth2, Nat.sub_diag by auto; reflexivity).
  assert (Old : forall z c' b, In (c', b) (nth z W []) -> In c' L /\ c' < length A) by (intros z c' b H; destruct (xw_ids _ _ _ _ X _ _ _ H) as (K & _); split; auto; apply (xw_in _ _ _ _ X), K).
  assert (Fr : forall z, ~ In c (map fst (nth z W []))). { intros z K. apply in_map_iff in K. destruct K as ((c' & b) & E & K). cbn in E. subst c'. destruct (Old _ _ _ K). unfold c in *. lia. }
  assert (Cs : forall z c' b, In (c', b) (nth z W2 []) -> In (c', b) (nth z W []) \/ (c' = c /\ ((z = lneg l0 /\ b = l1) \/ (z = lneg l1 /\ b = l0)))).
  { intros z c' b H. destruct (Nat.eq_dec z (lneg l0)) as [-> | Z0]; [rewrite E0 in H; apply in_app_or in H; destruct H as [H | [H | []]]; [auto | inversion H; auto] |].
    destruct (Nat.eq_dec z (lneg l1)) as [-> | Z1]; [rewrite E1 in H; apply in_app_or in H; destruct H as [H | [H | []]]; [auto | inversion H; auto] |]. rewrite Eo in H by auto. auto. }
  assert (Mo : forall z w, In w (nth z W []) -> In w (nth z W2 [])).
  { intros z w H. destruct (Nat.eq_dec z (lneg l0)) as [-> | Z0]; [rewrite E0; apply in_or_app; auto |]. destruct (Nat.eq_dec z (lneg l1)) as [-> | Z1]; [rewrite E1; apply in_or_app; auto | rewrite Eo; auto]. }
  constructor.
  - unfold W2, W1. rewrite !upd_length. apply X.
  - intros c' H. apply in_app_or in H. destruct H as [H | [<- | []]].
    + destruct (xw_in _ _ _ _ X c' H) as (K1 & K2 & K3). split; [unfold A'; rewrite app_length; lia |]. unfold A'. rewrite adata_app by exact K1. split; auto. eapply paired_mono; [| exact K3]. intros. now apply Mo.
    + split; [unfold A', c; rewrite app_length; cbn; lia |]. rewrite Ac. split; [split; auto |]. exists l0, l1, r, l1, l0. split; auto. rewrite E0, E1. split; [apply in_or_app; right; left; auto |]. split; [apply in_or_app; right; left; auto | auto].
  - intros z c' b H. apply Cs in H. destruct H as [H | [-> H]].
    + destruct (Old _ _ _ H) as [K1 K2]. destruct (xw_ids _ _ _ _ X _ _ _ H) as (_ & K3 & K4). split; [apply in_or_app; auto |]. unfold A'. rewrite adata_app by exact K2. auto.
    + split; [apply in_or_app; right; left; auto |]. rewrite Ac. destruct H as [[-> ->] | [-> ->]]; rewrite lneg_inv; unfold watched_by; cbn; auto.
  - intros z. destruct (Nat.eq_dec z (lneg l0)) as [-> | Z0]; [rewrite E0, map_app; cbn; apply nodup_snoc; [apply X | apply Fr] |].
    destruct (Nat.eq_dec z (lneg l1)) as [-> | Z1]; [rewrite E1, map_app; cbn; apply nodup_snoc; [apply X | apply Fr] | rewrite Eo by auto; apply X].
  - apply nodup_snoc; [apply X |]. intros K. apply (xw_in _ _ _ _ X) in K. unfold c in K. lia.
Qed.

(** ** Propagation *)
Definition permd (A B : list clause) : Prop := length A <= length B /\ forall c, c < length A -> Permutation (adata A c) (adata B c) /\ c_learnt (nth c B dcl) = c_learnt (nth c A dcl).
Lemma permd_refl : forall A, permd A A.
Proof. intros A. split; auto. Qed.
Lemma permd_trans : forall A B C, permd A B -> permd B C -> permd A C.
Proof.
  intros A B C [H1 H2] [K1 K2]. split; [lia |]. intros c Hc. destruct (H2 c Hc) as [P E]. destruct (K2 c ltac:(lia)) as [P' E']. split; [etransitivity; eauto | congruence].
Qed.
Lemma permd_upd : forall A c d, c < length A -> Permutation (adata A c) d -> permd A (upd A c (mkCl d (c_learnt (nth c A dcl)))).
Proof.
  intros A c d H P. split; [now rewrite upd_length |]. intros x Hx. rewrite adata_upd by auto. rewrite learnt_upd. split; auto. destruct (Nat.eqb_spec c x) as [<- | N]; auto.
Qed.
Lemma permd_app : forall A cl, permd A (A ++ [cl]).
Proof. intros A cl. split; [rewrite app_length; lia |]. intros c Hc. rewrite adata_app by auto. rewrite app_nth1 by auto. auto. Qed.

Definition xws (st : solver) : Prop := xw (length (s_vars st)) (s_arena st) (s_watches st) (s_clauses st ++ s_learnts st).
Lemma enqueue_same : forall l r st st', unchecked_enqueue l r st = Ok st' -> length (s_vars st') = length (s_vars st) /\ s_arena st' = s_arena st /\ s_watches st' = s_watches st /\
  s_clauses st' = s_clauses st /\ s_learnts st' = s_learnts st /\ s_trail st' = s_trail st ++ [l] /\ s_units st' = s_units st /\ s_selo st' = s_selo st /\ s_lim st' = s_lim st /\ s_ok st' = s_ok st /\ s_qhead st' = s_qhead st.
Proof.
  intros l r st st' H. unfold unchecked_enqueue in H. destruct (is_undef (value st l)); [| discriminate]. inversion H. unfold set_reason. ssimp. rewrite upd_length. repeat split; reflexivity.
Qed.
Lemma prop_watches_x : forall fuel p i st o st', prop_watches fuel p i st = Ok (o, st') -> xws st -> xws st' /\ permd (s_arena st) (s_arena st').
Proof.
  induction fuel as [| fu IH]; intros p i st o st' H X; [discriminate |]. cbn [prop_watches] in H.
  destruct (nth_error (wlist st p) i) as [[c b] |] eqn:Ei; [| inversion H; subst; split; [exact X | apply permd_refl]].
  destruct (is_true (value st b)); [eapply IH; eauto |]. destruct (c_data (cl_at st c)) as [| l0 [| l1 rest]] eqn:Ed; try discriminate. cbn zeta in H.
  set (first := if l0 =? lneg p then l1 else l0) in *. set (second := if l0 =? lneg p then lneg p else l1) in *.
  assert (Es : second = lneg p).
  { destruct (xs_cases _ _ _ _ X p i c b l0 l1 rest Ei Ed) as [[E _] | (N & E & _)]; unfold second; [destruct (Nat.eqb_spec l0 (lneg p)); congruence | destruct (Nat.eqb_spec l0 (lneg p)); congruence]. }
  rewrite Es, Nat.eqb_refl in H. cbn [negb] in H. set (st1 := set_data c (first :: lneg p :: rest) st) in *.
  pose proof (xs_len _ _ _ _ X p i c b Ei) as Lc. pose proof (xs_perm _ _ _ _ X p i c b l0 l1 rest Ei Ed) as P1. fold first in P1.
  assert (X1 : xws (set_wlist p (upd (wlist st1 p) i (c, first)) st1)) by (exact (xw_keep _ _ _ _ X p i c b l0 l1 rest Ei Ed (c_learnt (cl_at st c)))).
  assert (D1 : permd (s_arena st) (s_arena (set_wlist p (upd (wlist st1 p) i (c, first)) st1))).
  { unfold st1, set_wlist, set_data. ssimp. apply permd_upd; auto. change (Permutation (c_data (cl_at st c)) (first :: lneg p :: rest)). rewrite Ed. exact P1. }
  destruct (negb (first =? b) && is_true (value st1 first)).
  { destruct (IH _ _ _ _ _ H X1) as [X2 D2]. split; auto. eapply permd_trans; eauto. }
  destruct (find_watch st1 rest) as [k |] eqn:Ef.
  - apply find_watch_some in Ef. destruct Ef as [Ek _]. apply IH in H; [destruct H as [X2 D2]; split; [exact X2 |]; eapply permd_trans; [| exact D2] |].
    + unfold st1, watch_push, set_wlist, set_data. ssimp. unfold cl_at. ssimp. rewrite upd_upd. rewrite learnt_upd. apply permd_upd; auto. change (Permutation (c_data (cl_at st c)) (first :: nth k rest 0 :: upd rest k (lneg p))). rewrite Ed.
      etransitivity; [exact P1 | apply xs_perm2; exact Ek].
    + pose proof (xw_move _ _ _ _ X p i c b l0 l1 rest Ei Ed k Ek (c_learnt (cl_at st c))) as M. fold first in M. unfold xws, st1, watch_push, set_wlist, set_data, cl_at. ssimp. rewrite upd_upd, learnt_upd. exact M.
  - cbn zeta in H. destruct (is_false _) eqn:Ff in H; [inversion H; subst; split; [exact X1 | exact D1] |].
    destruct (unchecked_enqueue _ _ _) as [st3 | |] eqn:Eq in H; try discriminate. cbn [rbind] in H. apply enqueue_same in Eq. destruct Eq as (V & Ar & Wt & Cl & Le & _).
    apply IH in H; [| unfold xws; rewrite V, Ar, Wt, Cl, Le; exact X1]. destruct H as [X2 D2]. split; auto. rewrite Ar in D2. eapply permd_trans; [exact D1 | exact D2].
Qed.
Lemma propagate_loop_x : forall fw fuel st o st', propagate_loop fuel fw st = Ok (o, st') -> xws st -> xws st' /\ permd (s_arena st) (s_arena st').
Proof.
  intros fw. induction fuel as [| fu IH]; intros st o st' H X; [discriminate |]. cbn [propagate_loop] in H.
  destruct (nth_error (s_trail st) (s_qhead st)) as [p |]; [| inversion H; subst; split; [exact X | apply permd_refl]].
  destruct (prop_watches fw p 0 (set_qhead (S (s_qhead st)) st)) as [[[c |] st1] | |] eqn:E; cbn [rbind] in H; try discriminate; (apply prop_watches_x in E; [| exact X]); destruct E as [X1 D1].
  - inversion H; subst. split; auto.
  - destruct (IH _ _ _ H X1) as [X2 D2]. split; auto. eapply permd_trans; eauto.
Qed.

(** ** The state: exact watch lists, unit clauses *)
Definition at0 (st : solver) (l : nat) : Prop := exists j, nth_error (s_trail st) j = Some l /\ lv (s_lim st) j = 0.
(** Under the literals [S] the clause is true or has two literals that are not false. *)
Definition closed (S d : list nat) : Prop :=
  (exists l, In l d /\ In l S) \/ exists a b, In a d /\ In b d /\ a <> b /\ ~ In (lneg a) S /\ ~ In (lneg b) S.
Definition consistent (S : list nat) : Prop := forall l, In l S -> ~ In (lneg l) S.
Lemma closed_perm : forall S d e, Permutation d e -> closed S d -> closed S e.
Proof.
  intros S d e P [(l & H1 & H2) | (a & b & H1 & H2 & H3)]; [left; exists l; split; auto; eapply Permutation_in; eauto |]. right. exists a, b. split; [eapply Permutation_in; eauto |]. split; [eapply Permutation_in; eauto | auto].
Qed.
(** Learnt clauses have pairwise different sets of literals. *)
Definition ldiff (st : solver) : Prop := forall a b, In a (s_learnts st) -> In b (s_learnts st) -> a <> b -> ~ Permutation (adata (s_arena st) a) (adata (s_arena st) b).
Lemma ldiff_mono : forall a b, ldiff a -> (forall c, In c (s_learnts b) -> In c (s_learnts a)) -> (forall c, In c (s_learnts a) -> Permutation (adata (s_arena a) c) (adata (s_arena b) c)) -> ldiff b.
Proof. intros a b H S P x y Hx Hy N Q. apply (H x y (S _ Hx) (S _ Hy) N). rewrite (P x), (P y) by auto. exact Q. Qed.
Lemma ldiff_same : forall a b, ldiff a -> s_learnts b = s_learnts a -> s_arena b = s_arena a -> ldiff b.
Proof. intros a b H E1 E2. apply (ldiff_mono a); auto; [now rewrite E1 | now rewrite E2]. Qed.
(** Replaying the unit clauses before the [k]-th one does not assign it: the set [S] is closed under propagation. *)
Record xsto (o : list nat) (st : solver) : Prop := {
  x_w : xws st;
  x_cf : forall c, In c (s_clauses st) -> c_learnt (nth c (s_arena st) dcl) = false;
  x_sel : s_selo st = o;
  x_ul : forall u, In u (s_units st) -> u < 2 * length (s_vars st);
  x_u0 : s_ok st = true -> forall u, In u (s_units st) -> at0 st u;
  x_S : forall k u, nth_error (s_units st) k = Some u -> exists S, consistent S /\ ~ In u S /\ ~ In (lneg u) S /\
    (forall v, In v (firstn k (s_units st)) -> In v S) /\ (forall c, In c (s_clauses st ++ s_learnts st) -> closed S (adata (s_arena st) c)) /\
    (s_ok st = true -> forall l, In l S -> at0 st l);
  x_d : ldiff st }.
Arguments x_w {o} st _.
Arguments x_cf {o} st _.
Arguments x_sel {o} st _.
Arguments x_ul {o} st _.
Arguments x_u0 {o} st _.
Arguments x_S {o} st _.
Arguments x_d {o} st _.
(** Without a selection order. *)
Notation xst := (xsto []).
Record xfr (a b : solver) : Prop := {
  fr_nv : length (s_vars b) = length (s_vars a);
  fr_cl : s_clauses b = s_clauses a;
  fr_ln : exists ls, s_learnts b = s_learnts a ++ ls;
  fr_un : exists us, s_units b = s_units a ++ us;
  fr_ar : permd (s_arena a) (s_arena b) }.
Lemma xfr_refl : forall a, xfr a a.
Proof. intros a. constructor; auto; [exists []; now rewrite app_nil_r | exists []; now rewrite app_nil_r | apply permd_refl]. Qed.
Lemma xfr_trans : forall a b c, xfr a b -> xfr b c -> xfr a c.
Proof.
  intros a b c [A1 A2 [l1 A3] [u1 A4] A5] [B1 B2 [l2 B3] [u2 B4] B5]. constructor; try congruence.
  - exists (l1 ++ l2). now rewrite B3, A3, app_assoc.
  - exists (u1 ++ u2). now rewrite B4, A4, app_assoc.
  - eapply permd_trans; eauto.
Qed.

(** Steps without new clauses. *)
Record quiet (a b : solver) : Prop := {
  q_nv : length (s_vars b) = length (s_vars a); q_cl : s_clauses b = s_clauses a; q_ln : s_learnts b = s_learnts a; q_un : s_units b = s_units a;
  q_sel : s_selo b = s_selo a; q_ok : s_ok b = true -> s_ok a = true; q_ar : permd (s_arena a) (s_arena b);
  q_w : xws a -> xws b; q_at : forall l, at0 a l -> at0 b l }.
Lemma quiet_refl : forall a, quiet a a.
Proof. intros a. constructor; auto. apply permd_refl. Qed.
Lemma quiet_trans : forall a b c, quiet a b -> quiet b c -> quiet a c.
Proof.
  intros a b c [A1 A2 A3 A4 A5 A6 A7 A8 A9] [B1 B2 B3 B4 B5 B6 B7 B8 B9]. constructor; try congruence; auto. eapply permd_trans; eauto.
Qed.
Lemma quiet_same : forall a b, length (s_vars b) = length (s_vars a) -> s_clauses b = s_clauses a -> s_learnts b = s_learnts a -> s_units b = s_units a ->
  s_selo b = s_selo a -> (s_ok b = true -> s_ok a = true) -> s_arena b = s_arena a -> s_watches b = s_watches a -> (forall l, at0 a l -> at0 b l) -> quiet a b.
Proof.
  intros a b E1 E2 E3 E4 E5 E6 E7 E8 E9. constructor; auto; [rewrite E7; apply permd_refl |]. unfold xws. now rewrite E1, E2, E3, E7, E8.
Qed.
Lemma quiet_x : forall {so} a b, quiet a b -> xsto so a -> xsto so b /\ xfr a b.
Proof.
  intros so a b Q [X1 X2 X3 X4 X5 X6 X7]. assert (Lt : forall c, In c (s_clauses a ++ s_learnts a) -> c < length (s_arena a)) by (intros c Hc; apply (xw_in _ _ _ _ X1), Hc).
  destruct Q as [Q1 Q2 Q3 Q4 Q5 Q6 Q7 Q8 Q9]. split.
  - constructor.
    + auto.
    + intros c Hc. rewrite Q2 in Hc. rewrite (proj2 (proj2 Q7 c (Lt c ltac:(apply in_or_app; auto)))). auto.
    + congruence.
    + intros u Hu. rewrite Q1. apply X4. congruence.
    + intros O u Hu. apply Q9, X5; [auto | congruence].
    + intros k u Hu. rewrite Q4 in Hu. destruct (X6 k u Hu) as (S & S1 & S2 & S3 & S4 & S5 & S6). exists S. split; auto. split; auto. split; auto. rewrite Q4, Q2, Q3. split; auto. split.
      * intros c Hc. eapply closed_perm; [apply (proj2 Q7), Lt, Hc | auto].
      * intros O l Hl. auto.
    + apply (ldiff_mono a); auto; [now rewrite Q3 |]. intros c Hc. apply (proj2 Q7), Lt, in_or_app. auto.
  - constructor; auto; [exists []; now rewrite app_nil_r | exists []; now rewrite app_nil_r].
Qed.

Lemma rspec_get : forall A (r : res A) (P : A -> Prop) a, rspec r P -> r = Ok a -> P a.
Proof. intros A r P a H E. rewrite E in H. exact H. Qed.
Lemma rspec_conj : forall A (r : res A) (P Q : A -> Prop), rspec r P -> (forall a, r = Ok a -> Q a) -> rspec r (fun a => P a /\ Q a).
Proof. intros A [a | |] P Q H K; cbn in *; auto. Qed.
Lemma propagate_quiet : forall F fuel st, sinv F st -> rspec (propagate fuel st) (fun r => propagated F st r /\ (xws st -> quiet st (snd r))).
Proof.
  intros F fuel st I. apply rspec_conj; [apply propagate_ok; exact I |]. intros [o s] E X. pose proof (rspec_get _ _ _ _ (propagate_ok F fuel st I) E) as [PF _]. cbn [fst snd] in *.
  pose proof (propagate_loop_x _ _ _ _ _ E X) as [X1 D1]. constructor; try apply PF; auto.
  - rewrite (pf_ok _ _ PF). auto.
  - intros l (j & H1 & H2). exists j. destruct (pf_ext _ _ PF) as [e ->]. rewrite (pf_lim _ _ PF). split; [now apply nth_app_some | exact H2].
Qed.
Lemma cancel_quiet : forall F q st k s, inv F q st -> cancel_until k st = Ok s -> quiet st s.
Proof.
  intros F q st k s I H. destruct (nth_error (s_lim st) k) as [t |] eqn:E.
  - destruct (cancel_ok F q st k t I E) as (s' & E' & Hc). rewrite H in E'. inversion E'; subst s'. destruct Hc as (_ & _ & t' & vs & h & E1 & Lt & -> & Lv & _). assert (t' = t) by congruence. subst t'.
    apply quiet_same; ssimp; auto. intros l (j & H1 & H2). unfold at0. ssimp. exists j. pose proof (lv_gt _ j k t (t_sorted _ _ _ _ _ _ _ _ (i_t _ _ _ I)) E) as G.
    assert (j < t) by lia. rewrite nth_firstn. destruct (Nat.ltb_spec j t); [| lia]. split; auto. rewrite lv_firstn; lia.
  - unfold cancel_until in H. rewrite E in H. inversion H. apply quiet_refl.
Qed.
Lemma enqueue_quiet : forall l r st st', unchecked_enqueue l r st = Ok st' -> quiet st st'.
Proof.
  intros l r st st' H. apply enqueue_same in H. destruct H as (H1 & H2 & H3 & H4 & H5 & H6 & H7 & H8 & H9 & H10 & _). apply quiet_same; auto; [congruence |].
  intros x (j & K1 & K2). exists j. rewrite H6, H9. split; auto. now apply nth_app_some.
Qed.
Lemma level_quiet : forall st, quiet st (set_lim (s_lim st ++ [length (s_trail st)]) st).
Proof.
  intros st. apply quiet_same; ssimp; auto. intros l (j & K1 & K2). exists j. ssimp. split; auto. rewrite lv_snoc; auto. eapply nth_some_lt; eauto.
Qed.
Lemma analyze_final_quiet : forall p st st', analyze_final p st = Ok st' -> quiet st st'.
Proof.
  intros p st st' H. unfold analyze_final in H. destruct (s_lim st); [inversion H; apply quiet_same; auto |]. destruct (final_loop _ _ _ _) as [[conf seen] | |]; cbn in H; inversion H. apply quiet_same; auto.
Qed.
Lemma decide_assumptions_quiet : forall fuel st r st', decide_assumptions fuel st = Ok (r, st') -> quiet st st'.
Proof.
  induction fuel as [| fu IH]; intros st r st' H; [discriminate |]. cbn [decide_assumptions] in H. destruct (nth_error (s_assum st) (dlevel st)) as [p |]; [| inversion H; apply quiet_refl].
  destruct (value st p) as [[|] |].
  - apply IH in H. eapply quiet_trans; [apply level_quiet | exact H].
  - destruct (analyze_final (lneg p) st) as [s | |] eqn:E; cbn in H; inversion H; subst. eapply analyze_final_quiet; eauto.
  - inversion H. apply quiet_refl.
Qed.
Lemma pick_heap_quiet : forall fuel st r st', pick_heap fuel st = Ok (r, st') -> quiet st st'.
Proof.
  induction fuel as [| fu IH]; intros st r st' H; [discriminate |]. cbn [pick_heap] in H. destruct (heap_empty (s_heap st)); [inversion H; apply quiet_refl |].
  destruct (heap_remove_min (s_acts st) (s_heap st)) as [[x h] | |]; cbn [rbind] in H; try discriminate. destruct (_ && _) in H; [inversion H; apply quiet_same; auto |].
  apply IH in H. eapply quiet_trans; [| exact H]. apply quiet_same; auto.
Qed.
Lemma pick_branch_quiet : forall fuel st r st', pick_branch_lit fuel st = Ok (r, st') -> quiet st st'.
Proof.
  intros fuel st r st' H. unfold pick_branch_lit in H. destruct (pick_order _ _ _) as [[l |] k]; [inversion H; apply quiet_same; auto |]. apply pick_heap_quiet in H. eapply quiet_trans; [| exact H].
  destruct (_ <? _); [apply quiet_same; auto | apply quiet_refl].
Qed.
(** After propagation the trail is closed. *)
Lemma closed_trail : forall F q st c, inv F q st -> length (s_trail st) <= q -> xws st -> In c (s_clauses st ++ s_learnts st) -> closed (s_trail st) (adata (s_arena st) c).
Proof.
  intros F q st c I Q X Hc. destruct (xw_in _ _ _ _ X c Hc) as (Lc & (Nd & _) & (x & y & r & b1 & b2 & D & P1 & P2 & _)).
  assert (K : forall z b0, In (c, b0) (nth (lneg z) (s_watches st) []) -> In (lneg z) (s_trail st) -> closed (s_trail st) (adata (s_arena st) c)).
  { intros z b0 Hb Hz. assert (Ew : nth_error (s_watches st) (lneg z) = Some (nth (lneg z) (s_watches st) [])).
    { apply nth_err_def. destruct (Nat.lt_ge_cases (lneg z) (length (s_watches st))); auto. rewrite nth_overflow in Hb by auto. destruct Hb. }
    destruct (i_w _ _ _ I _ _ Ew) as [_ W]. destruct (W c b0 Hb) as (cl & E1 & _ & _ & _ & _ & T). apply In_nth_error in Hz. destruct Hz as [j Ej].
    destruct (T j) as (j' & t & T1 & T2 & _); [apply nth_some_lt in Ej; lia | exact Ej |]. left. exists t. unfold adata. rewrite (nth_of_some _ _ _ _ dcl E1). split; auto. eapply nth_error_In; eauto. }
  destruct (in_dec Nat.eq_dec (lneg x) (s_trail st)) as [Hx | Hx]; [exact (K x b1 P1 Hx) |]. destruct (in_dec Nat.eq_dec (lneg y) (s_trail st)) as [Hy | Hy]; [exact (K y b2 P2 Hy) |].
  right. exists x, y. rewrite D in *. apply NoDup_cons_iff in Nd. destruct Nd as [Nd _]. repeat split; cbn; auto. intros ->. apply Nd. left. reflexivity.
Qed.
(** The literals above level 0 are not among the literals at level 0. *)
Lemma above0 : forall F q st i p, inv F q st -> nth_error (s_trail st) i = Some p -> 0 < lv (s_lim st) i -> at0 st p -> False.
Proof.
  intros F q st i p I E L (j & E' & L'). assert (i = j) by (eapply trail_pos_unique; [apply (t_nodup _ _ _ _ _ _ _ _ (i_t _ _ _ I)) | exact E | exact E' | reflexivity]). subst. lia.
Qed.

(** The trail up to a decision is closed, also after a conflict. *)
Lemma closed_prefix : forall F q st k t c, inv F q st -> nth_error (s_lim st) k = Some t -> xws st -> In c (s_clauses st ++ s_learnts st) -> closed (firstn t (s_trail st)) (adata (s_arena st) c).
Proof.
  intros F q st k t c I Et X Hc. destruct (xw_in _ _ _ _ X c Hc) as (Lc & (Nd & _) & (x & y & r & b1 & b2 & D & P1 & P2 & _)).
  pose proof (t_lim _ _ _ _ _ _ _ _ (i_t _ _ _ I) t (nth_error_In _ _ Et)) as Lq. pose proof (fun j => lv_gt _ j k t (t_sorted _ _ _ _ _ _ _ _ (i_t _ _ _ I)) Et) as G.
  assert (K : forall z b0, In (c, b0) (nth (lneg z) (s_watches st) []) -> In (lneg z) (firstn t (s_trail st)) -> closed (firstn t (s_trail st)) (adata (s_arena st) c)).
  { intros z b0 Hb Hz. assert (Ew : nth_error (s_watches st) (lneg z) = Some (nth (lneg z) (s_watches st) [])).
    { apply nth_err_def. destruct (Nat.lt_ge_cases (lneg z) (length (s_watches st))); auto. rewrite nth_overflow in Hb by auto. destruct Hb. }
    destruct (i_w _ _ _ I _ _ Ew) as [_ W]. destruct (W c b0 Hb) as (cl & E1 & _ & _ & _ & _ & T). apply In_nth_error in Hz. destruct Hz as [j Ej]. rewrite nth_firstn in Ej. destruct (Nat.ltb_spec j t) as [Lj | Lj]; [| discriminate].
    destruct (T j) as (j' & u & T1 & T2 & _ & T3); [lia | exact Ej |]. left. exists u. unfold adata. rewrite (nth_of_some _ _ _ _ dcl E1). split; auto. apply (nth_error_In _ j'). rewrite nth_firstn. destruct (Nat.ltb_spec j' t) as [L' | L']; [exact T1 |].
    apply G in L'. assert (t <= j) by (apply G; lia). lia. }
  destruct (in_dec Nat.eq_dec (lneg x) (firstn t (s_trail st))) as [Hx | Hx]; [exact (K x b1 P1 Hx) |]. destruct (in_dec Nat.eq_dec (lneg y) (firstn t (s_trail st))) as [Hy | Hy]; [exact (K y b2 P2 Hy) |].
  right. exists x, y. rewrite D in *. apply NoDup_cons_iff in Nd. destruct Nd as [Nd _]. repeat split; cbn; auto. intros ->. apply Nd. left. reflexivity.
Qed.
(** ** Learning *)
(** A clause with one literal at the last level and the others false before is not stored yet. *)
Lemma learnt_new : forall F q st p rest ip bt c, inv F q st -> xws st -> 0 < dlevel st -> nth_error (s_trail st) ip = Some p -> bt < length (s_lim st) ->
  (forall x, In x rest -> exists j, nth_error (s_trail st) j = Some (lneg x) /\ 0 < lv (s_lim st) j /\ lv (s_lim st) j <= bt) ->
  In c (s_clauses st ++ s_learnts st) -> ~ Permutation (adata (s_arena st) c) (lneg p :: rest).
Proof.
  intros F q st p rest ip bt c I X D Ep Lb Hr Hc P. unfold dlevel in D. destruct (nth_error (s_lim st) (length (s_lim st) - 1)) as [t |] eqn:Et; [| apply nth_error_None in Et; lia].
  pose proof (fun j => lv_gt _ j _ t (t_sorted _ _ _ _ _ _ _ _ (i_t _ _ _ I)) Et) as G.
  assert (In1 : forall l, In l (firstn t (s_trail st)) -> In l (s_trail st)) by (intros l Hl; rewrite <- (firstn_skipn t (s_trail st)); apply in_or_app; auto).
  assert (Pr : forall x, In x rest -> In (lneg x) (firstn t (s_trail st))).
  { intros x Hx. destruct (Hr x Hx) as (j & E & _ & L). apply (nth_error_In _ j). rewrite nth_firstn. destruct (Nat.ltb_spec j t) as [L' | L']; [exact E |]. apply G in L'. lia. }
  destruct (closed_prefix F q st _ t c I Et X Hc) as [(l & H1 & H2) | (a & b & Ha & Hb & N & Na & Nb)].
  - apply (Permutation_in _ P) in H1. destruct H1 as [<- | H1].
    + apply (not_both (i_t _ _ _ I) p); [eapply nth_error_In; eauto | auto].
    + apply (not_both (i_t _ _ _ I) l); [auto | auto].
  - apply (Permutation_in _ P) in Ha, Hb. destruct Ha as [<- | Ha]; [| apply Na; auto]. destruct Hb as [<- | Hb]; [contradiction | apply Nb; auto].
Qed.
Lemma snoc_nth : forall (us : list nat) x k u, nth_error (us ++ [x]) k = Some u -> nth_error us k = Some u \/ (k = length us /\ u = x).
Proof.
  intros us x k u H. destruct (Nat.lt_ge_cases k (length us)); [left; rewrite nth_error_app1 in H; auto |]. right. rewrite nth_error_app2 in H by auto.
  destruct (k - length us) as [| m] eqn:E; cbn in H; [split; [lia | congruence] | destruct m; discriminate].
Qed.
Lemma firstn_snoc : forall (us : list nat) x k, k <= length us -> firstn k (us ++ [x]) = firstn k us.
Proof. intros us x k H. rewrite firstn_app. replace (k - length us) with 0 by lia. now rewrite app_nil_r. Qed.
Lemma learn_x : forall {so} n cfg orc F A q0 fuel st c st', g_min cfg <> MinNone -> @side n A st -> conflicting F q0 st c -> 0 < dlevel st -> xsto so st ->
  learn cfg orc fuel c st = Ok st' -> xsto so st' /\ xfr st st'.
Proof.
  intros so n cfg orc F A q0 fuel st c st' Hm Sd Cf D X H.
  pose proof (rspec_get _ _ _ _ (@learn_ok n cfg orc F A q0 fuel st c Hm Sd Cf D) H) as [I' Sd'].
  unfold learn in H. destruct (analyze cfg orc fuel c st) as [[ls st1] | |] eqn:Ea; cbn [rbind] in H; try discriminate.
  pose proof (rspec_get _ _ _ _ (analyze_ok cfg orc F q0 fuel st c Hm Cf D (b_un _ _ (d_b _ _ Sd))) Ea) as (p & rest & s0 & -> & FR & E1 & Un & Ent & Nd & (ip & Eip & Lip) & Lbt & Hr & Hb).
  assert (Q1 : quiet st st1). { rewrite E1. destruct FR as (h & a & tk & sn & -> & _). unfold actx. apply quiet_same; auto. }
  assert (I1 : inv F q0 st1) by (rewrite E1; eapply inv_same; [apply (aframe_inv _ _ _ _ (proj1 Cf) FR) | ..]; auto).
  destruct (aframe_fix _ _ FR) as (_ & Et & El & _ & _).
  assert (Ft : s_trail st1 = s_trail st) by (rewrite E1; exact Et). assert (Fl : s_lim st1 = s_lim st) by (rewrite E1; exact El).
  destruct (nth_error (s_lim st1) (s_bt st1)) as [t |] eqn:Ek; [| apply nth_error_None in Ek; rewrite Fl in Ek; lia].
  destruct (cancel_ok F q0 st1 (s_bt st1) t I1 Ek) as (st2 & E2 & (I2 & Q2 & Cc)). rewrite E2 in H. cbn [rbind] in H.
  pose proof (cancel_quiet _ _ _ _ _ I1 E2) as Qc. cbn zeta in H.
  assert (Ex : exists x, (if s_bt st2 <? length (s_selo st2) then set_seli (s_bt st2) st2 else st2) = set_seli x st2).
  { destruct (s_bt st2 <? length (s_selo st2)); [eauto |]. exists (s_seli st2). destruct st2; reflexivity. }
  destruct Ex as [x Ex]. rewrite Ex in H. clear Ex. set (st3 := set_seli x st2) in *.
  assert (Q3 : quiet st st3). { eapply quiet_trans; [exact Q1 |]. eapply quiet_trans; [exact Qc |]. apply quiet_same; auto. }
  destruct (quiet_x _ _ Q3 X) as [X3 F3]. assert (I3 : sinv F st3) by (unfold sinv; eapply inv_same; [exact I2 | ..]; auto).
  destruct Cc as (t' & vs & h & Ek' & Lt & E3 & Lv & K1 & K2 & _). assert (t' = t) by congruence. subst t'.
  assert (T3 : s_trail st3 = firstn t (s_trail st)) by (unfold st3; rewrite E3; ssimp; now rewrite Ft).
  assert (L3 : s_lim st3 = firstn (s_bt st1) (s_lim st)) by (unfold st3; rewrite E3; ssimp; now rewrite Fl).
  assert (O3 : s_ok st3 = true) by (unfold st3; rewrite E3; ssimp; rewrite E1; destruct FR as (h' & a & tk & sn & -> & _); exact (d_ok _ _ Sd)).
  assert (A0 : forall l, at0 st3 l -> at0 st l).
  { intros l (j & H1 & H2). exists j. rewrite T3, nth_firstn in H1. destruct (Nat.ltb_spec j t); [| discriminate]. split; auto. rewrite L3 in H2.
    rewrite Fl in Ek. pose proof (lv_gt _ j (s_bt st1) t (t_sorted _ _ _ _ _ _ _ _ (i_t _ _ _ (proj1 Cf))) Ek) as G. rewrite lv_firstn in H2; lia. }
  destruct rest as [| y r].
  - destruct (unchecked_enqueue (lneg p) None st3) as [st4 | |] eqn:Eq; cbn [rbind] in H; try discriminate. inversion H; subst st'. clear H.
    assert (U : value st3 (lneg p) = None) by (unfold unchecked_enqueue in Eq; destruct (value st3 (lneg p)) as [v |]; [discriminate | reflexivity]).
    pose proof (enqueue_quiet _ _ _ _ Eq) as Q4. destruct (quiet_x _ _ Q4 X3) as [X4 F4]. pose proof (enqueue_same _ _ _ _ Eq) as (V4 & Ar4 & W4 & C4 & Le4 & T4 & Un4 & _ & L4 & O4 & _).
    assert (Rp : lneg p < 2 * length (s_vars st3)).
    { rewrite (q_nv _ _ Q3). apply lneg_lt, (t_valid _ _ _ _ _ _ _ _ (i_t _ _ _ (proj1 Cf))). eapply nth_error_In; eauto. }
    assert (L0 : s_lim st3 = []) by (rewrite L3, Hb; reflexivity).
    assert (N3 : length (s_trail st3) = s_qhead st3) by (unfold st3; change (length (s_trail st2) = s_qhead st2); lia).
    split; [| eapply xfr_trans; [exact F3 |]; destruct F4 as [G1 G2 G3 [us G4] G5]; constructor; auto; ssimp; exists (us ++ [lneg p]); rewrite app_assoc; now f_equal].
    destruct X4 as [Y1 Y2 Y3 Y4 Y5 Y6 Y7]. constructor; ssimp; auto.
    + intros u Hu. apply in_app_or in Hu. destruct Hu as [Hu | [<- | []]]; [now apply Y4 |]. rewrite V4. exact Rp.
    + intros O u Hu. apply in_app_or in Hu. destruct Hu as [Hu | [<- | []]]; [now apply (Y5 O) |]. exists (length (s_trail st3)). ssimp. rewrite T4, L4, L0. split; [| reflexivity].
      rewrite nth_error_app2, Nat.sub_diag by auto. reflexivity.
    + intros k u Hu. apply snoc_nth in Hu. destruct Hu as [Hu | [-> ->]].
      * destruct (Y6 k u Hu) as (S & S1 & S2 & S3 & S4 & S5). exists S. split; auto. split; auto. split; auto. rewrite firstn_snoc by (apply nth_some_lt in Hu; lia). auto.
      * exists (s_trail st3). pose proof (val_undef (i_t _ _ _ I3) _ Rp U) as [U1 U2]. split; [intros l H1 H2; exact (not_both (i_t _ _ _ I3) l H1 H2) |]. split; auto. split; auto. rewrite firstn_snoc, firstn_all by auto.
        split; [intros v Hv; rewrite Un4 in Hv; destruct (x_u0 _ X3 O3 v Hv) as (j & K & _); eapply nth_error_In; eauto |]. rewrite C4, Le4, Ar4. split.
        -- intros c' Hc'. eapply closed_trail; [exact I3 | lia | apply X3 | exact Hc'].
        -- intros _ l Hl. apply In_nth_error in Hl. destruct Hl as [j Ej]. exists j. ssimp. rewrite T4, L4, L0. split; [now apply nth_app_some | reflexivity].
  - set (c1 := length (s_arena st3)) in *. set (st3' := set_arena (s_arena st3 ++ [mkCl (lneg p :: y :: r) true]) st3) in *.
    assert (Ec : cl_at st3' c1 = mkCl (lneg p :: y :: r) true) by (unfold cl_at, st3', c1; ssimp; rewrite app_nth2, Nat.sub_diag by auto; reflexivity).
    unfold attach_clause in H. rewrite Ec in H. cbn [c_data rbind] in H. destruct (unchecked_enqueue _ _ _) as [st5 | |] eqn:Eq in H; cbn [rbind] in H; try discriminate. inversion H; subst st'. clear H.
    pose proof (enqueue_same _ _ _ _ Eq) as (V5 & Ar5 & W5 & C5 & Le5 & T5 & Un5 & Se5 & L5 & O5 & _). set (st4 := watch_push (lneg y) _ _) in *.
    assert (V4 : length (s_vars st4) = length (s_vars st3)) by reflexivity. assert (Ar4 : s_arena st4 = s_arena st3 ++ [mkCl (lneg p :: y :: r) true]) by reflexivity.
    assert (C4 : s_clauses st4 = s_clauses st3) by reflexivity. assert (Le4 : s_learnts st4 = s_learnts st3) by reflexivity. assert (Un4 : s_units st4 = s_units st3) by reflexivity.
    assert (Se4 : s_selo st4 = s_selo st3) by reflexivity. assert (T4 : s_trail st4 = s_trail st3) by reflexivity. assert (L4 : s_lim st4 = s_lim st3) by reflexivity.
    assert (Wf : wfdata (length (s_vars st3)) (lneg p :: y :: r)).
    { split; [exact Nd |]. split; [cbn; lia |]. intros l Hl. rewrite (q_nv _ _ Q3). destruct Hl as [<- | Hl].
      - apply lneg_lt, (t_valid _ _ _ _ _ _ _ _ (i_t _ _ _ (proj1 Cf))). eapply nth_error_In; eauto.
      - destruct (Hr l Hl) as (j & Ej & _). apply lneg_lt, (t_valid _ _ _ _ _ _ _ _ (i_t _ _ _ (proj1 Cf))). eapply nth_error_In; eauto. }
    pose proof (xw_attach _ _ _ _ (lneg p) y r true (x_w _ X3) Wf) as XA. cbn zeta in XA. fold c1 in XA.
    assert (Xw5 : xws (set_learnts (s_learnts st5 ++ [c1]) st5)).
    { unfold xws. ssimp. rewrite V5, Ar5, W5, C5, Le5, V4, Ar4, C4, Le4, app_assoc. exact XA. }
    assert (At5 : forall l, at0 st3 l -> at0 (set_learnts (s_learnts st5 ++ [c1]) st5) l).
    { intros l (j & H1 & H2). exists j. ssimp. rewrite T5, L5, T4, L4. split; [now apply nth_app_some | exact H2]. }
    assert (Lt3 : forall c', In c' (s_clauses st3 ++ s_learnts st3) -> c' < length (s_arena st3)) by (intros c' Hc'; apply (xw_in _ _ _ _ (x_w _ X3)), Hc').
    split.
    + destruct X3 as [Y1 Y2 Y3 Y4 Y5 Y6 Y7]. constructor; ssimp; auto.
      * intros c' Hc'. rewrite Ar5, Ar4. rewrite C5, C4 in Hc'. rewrite app_nth1 by (apply Lt3, in_or_app; auto). auto.
      * congruence.
      * intros u Hu. rewrite V5, V4. apply Y4. congruence.
      * intros O u Hu. apply At5, Y5; [exact O3 | congruence].
      * intros k u Hu. rewrite Un5, Un4 in Hu. destruct (Y6 k u Hu) as (S & S1 & S2 & S3 & S4 & S5 & S6). exists S. split; auto. split; auto. split; auto. rewrite Un5, Un4. split; auto. split.
        -- intros c' Hc'. rewrite C5, C4, Le5, Le4, app_assoc in Hc'. rewrite Ar5, Ar4. apply in_app_or in Hc'. destruct Hc' as [Hc' | [<- | []]]; [rewrite adata_app by (apply Lt3; exact Hc'); auto |].
           unfold adata. rewrite app_nth2, Nat.sub_diag by auto. cbn [nth c_data]. right. exists (lneg p), y. split; [left; auto |]. split; [right; left; auto |].
           split; [intros E; apply NoDup_cons_iff in Nd; apply (proj1 Nd); left; auto |]. rewrite lneg_inv. split.
           ++ intros K. apply (above0 _ _ _ _ _ (proj1 Cf) Eip); [rewrite Lip; exact D |]. apply A0. auto.
           ++ intros K. destruct (Hr y (or_introl eq_refl)) as (j & Ej & Lj & _). apply (above0 _ _ _ _ _ (proj1 Cf) Ej Lj). apply A0. auto.
        -- intros O l Hl. apply At5. auto.
      * assert (Ln : s_learnts st3 = s_learnts st) by apply Q3.
        assert (Nw : forall c', In c' (s_learnts st3) -> ~ Permutation (adata (s_arena st3 ++ [mkCl (lneg p :: y :: r) true]) c') (lneg p :: y :: r)).
        { intros c' Hc' Pm. rewrite adata_app in Pm by (apply Lt3, in_or_app; auto). rewrite Ln in Hc'.
          apply (learnt_new F q0 st p (y :: r) ip (s_bt st1) c' (proj1 Cf) (x_w _ X) D Eip Lbt Hr ltac:(apply in_or_app; auto)).
          assert (Pd : permd (s_arena st) (s_arena st3)) by apply Q3. rewrite (proj1 (proj2 Pd c' (proj1 (xw_in _ _ _ _ (x_w _ X) c' ltac:(apply in_or_app; auto))))). exact Pm. }
        assert (Ed : adata (s_arena st3 ++ [mkCl (lneg p :: y :: r) true]) c1 = lneg p :: y :: r) by (unfold adata; rewrite app_nth2, Nat.sub_diag by auto; reflexivity).
        intros a b Ha Hd N Pm. revert Ha Hd Pm. ssimp. rewrite Le5, Le4, Ar5, Ar4. intros Ha Hd Pm. apply in_app_or in Ha, Hd. destruct Ha as [Ha | [<- | []]]; destruct Hd as [Hd | [<- | []]].
        -- apply (Y7 a b Ha Hd N). rewrite !adata_app in Pm by (apply Lt3, in_or_app; auto). exact Pm.
        -- rewrite Ed in Pm. exact (Nw a Ha Pm).
        -- rewrite Ed in Pm. symmetry in Pm. exact (Nw b Hd Pm).
        -- contradiction.
    + eapply xfr_trans; [exact F3 |]. constructor; ssimp.
      * congruence.
      * congruence.
      * exists [c1]. now rewrite Le5, Le4.
      * exists []. now rewrite Un5, Un4, app_nil_r.
      * rewrite Ar5, Ar4. apply permd_app.
Qed.

(** ** Search *)
Definition qt (st : solver) : Prop := s_qhead st = length (s_trail st).
Lemma decide_assumptions_qt : forall fuel st r st', decide_assumptions fuel st = Ok (r, st') -> qt st -> qt st'.
Proof.
  unfold qt. induction fuel as [| fu IH]; intros st r st' H Q; [discriminate |]. cbn [decide_assumptions] in H. destruct (nth_error (s_assum st) (dlevel st)) as [p |]; [| inversion H; subst; exact Q].
  destruct (value st p) as [[|] |].
  - apply IH in H; auto.
  - destruct (analyze_final (lneg p) st) as [s | |] eqn:E; cbn in H; inversion H; subst. unfold analyze_final in E. destruct (s_lim st); [inversion E; exact Q |].
    destruct (final_loop _ _ _ _) as [[conf seen] | |]; cbn in E; inversion E. exact Q.
  - inversion H; subst. exact Q.
Qed.
Lemma cancel_qt : forall F q st s, inv F q st -> cancel_until 0 st = Ok s -> qt st -> qt s.
Proof.
  unfold qt. intros F q st s I H Q. destruct (nth_error (s_lim st) 0) as [t |] eqn:E.
  - destruct (cancel_ok F q st 0 t I E) as (s' & E' & (_ & Q2 & Cc)). rewrite H in E'. inversion E'; subst s'. destruct Cc as (t' & vs & h & E1 & Lt & -> & _). ssimp. rewrite firstn_length. assert (t' = t) by congruence. subst t'.
    pose proof (t_lim _ _ _ _ _ _ _ _ (i_t _ _ _ I) t (nth_error_In _ _ E)). pose proof (t_q _ _ _ _ _ _ _ _ (i_t _ _ _ I)). lia.
  - unfold cancel_until in H. rewrite E in H. inversion H; subst. exact Q.
Qed.
Lemma search_loop_x : forall {so} n cfg orc F A, g_incremental cfg = true -> g_min cfg <> MinNone -> sorting orc -> forall fuel nof k st, @sst n F A st -> xsto so st ->
  rspec (search_loop cfg orc fuel nof k st) (fun r => (xsto so (snd r) /\ xfr st (snd r)) /\ qt (snd r)).
Proof.
  intros so n cfg orc F A Inc Hm So. induction fuel as [| fu IH]; intros nof k st [I Sd] X; [exact Logic.I |]. cbn [search_loop].
  eapply rspec_bind; [apply (propagate_quiet F); exact I |]. intros [o s] [[PF P] Qp]. cbn [fst snd] in *. specialize (Qp (x_w _ X)). destruct (quiet_x _ _ Qp X) as [X1 F1].
  pose proof (side_p _ _ _ Sd PF) as Sd1. destruct o as [c |].
  - destruct P as (q0 & _ & Cf). destruct (Nat.eqb_spec (dlevel s) 0) as [D | D].
    + cbn [rspec snd]. split; auto. apply Cf.
    + pose proof (@learn_ok n cfg orc F A q0 fu s c Hm Sd1 Cf ltac:(lia)) as LO. eapply rspec_bind; [apply (rspec_conj _ _ _ (fun s2 => xsto so s2 /\ xfr s s2) LO) |].
      * intros s2 E2. eapply (learn_x n cfg orc F A q0 fu s c); eauto. lia.
      * intros s2 [H2 [X2 F2]]. eapply rspec_weak; [apply IH; [exact H2 | exact X2] |]. intros [r s3] [[X3 F3] T3]. split; auto. split; auto. eapply xfr_trans; [exact F1 |]. eapply xfr_trans; [exact F2 | exact F3].
  - destruct P as [I1 Q1]. destruct (nof <=? k).
    + destruct (nth_error (s_lim s) 0) as [t |] eqn:E0.
      * destruct (cancel_side F _ A s 0 t I1 E0 Sd1) as (s2 & E2 & _). pose proof (cancel_quiet _ _ _ _ _ I1 E2) as Q2. rewrite E2. cbn [rbind rspec snd]. destruct (quiet_x _ _ (quiet_trans _ _ _ Qp Q2) X). split; auto. eapply cancel_qt; [exact I1 | exact E2 | exact Q1].
      * unfold cancel_until. rewrite E0. cbn [rbind rspec snd]. split; auto.
    + unfold maintain. rewrite Inc. cbn [rbind negb]. 
      pose proof (decide_assumptions_ok F A fu s (conj I1 Sd1) Q1) as DO. eapply rspec_bind; [apply (rspec_conj _ _ _ (fun r => quiet s (snd r) /\ qt (snd r)) DO); intros [r s3] E3; split; [eapply decide_assumptions_quiet; eauto | eapply decide_assumptions_qt; eauto] |].
      intros [[u | o] s3] [H3 [Q3 T3]]; cbn [fst snd] in H3, Q3, T3; pose proof (quiet_trans _ _ _ Qp Q3) as Q3'; destruct (quiet_x _ _ Q3' X) as [X3 F3]; [cbn [rspec snd]; auto |].
      destruct o as [p |].
      * destruct H3 as (I3 & Qh3 & Ep & Vp). cbn [rbind]. destruct (unchecked_enqueue p None _) as [s5 | |] eqn:E5; [| rewrite enqueue_ok in E5 by exact Vp; discriminate | exact Logic.I]. cbn [rbind].
        assert (S5 : @sst n F A s5). { rewrite enqueue_ok in E5 by exact Vp. inversion E5. apply decide_ok; auto. apply (b_av _ _ (d_b _ _ (proj2 I3))). eapply nth_error_In; eauto. }
        pose proof (quiet_trans _ _ _ Q3' (quiet_trans _ _ _ (level_quiet s3) (enqueue_quiet _ _ _ _ E5))) as Q5. destruct (quiet_x _ _ Q5 X) as [X5 F5].
        eapply rspec_weak; [apply IH; [exact S5 | exact X5] |]. intros [r s6] [[X6 F6] T6]. split; auto. split; auto. eapply xfr_trans; [exact F5 | exact F6].
      * destruct H3 as (I3 & Qh3 & Ep). pose proof (pick_branch_ok F A fu s3 I3) as PO. eapply rspec_bind; [apply (rspec_conj _ _ _ (fun r => quiet s3 (snd r)) PO); intros [r s4] E4; eapply pick_branch_quiet; eauto |].
        intros [[p |] s4] [(x & h & E4 & (H1 & H2 & H3 & H4) & H5) Q4]; cbn [fst snd] in *; pose proof (quiet_trans _ _ _ Q3' Q4) as Q4'; [subst s4 | destruct (quiet_x _ _ Q4' X); cbn [rspec snd]; split; auto; subst s4; exact T3].
        destruct H4 as [Rp Vp]. destruct (unchecked_enqueue p None _) as [s5 | |] eqn:E5; [| rewrite enqueue_ok in E5 by exact Vp; discriminate | exact Logic.I]. cbn [rbind].
        pose proof (quiet_trans _ _ _ Q4' (quiet_trans _ _ _ (level_quiet _) (enqueue_quiet _ _ _ _ E5))) as Q5. destruct (quiet_x _ _ Q5 X) as [X5 F5].
        assert (S5 : @sst n F A s5).
        { rewrite enqueue_ok in E5 by exact Vp. inversion E5 as [E6]. clear E5 E6 Q5 X5 F5. pose proof (decide_ok F A s3 p I3 Qh3 Rp Vp (or_intror Ep)) as [Id Sdd].
          change (@sst n F A (set_seli x (set_heap h (decided p s3)))). split.
          - assert (Ih : inv F (s_qhead (decided p s3)) (set_heap h (decided p s3))).
            { apply heap_change; auto. change (s_vars (decided p s3)) with (upd (s_vars s3) (lvar p) (mkVar (Some (negb (lsign p))) (Some (dlevel (set_lim (s_lim s3 ++ [length (s_trail s3)]) s3))) (v_pol (var_at s3 (lvar p))) (v_dec (var_at s3 (lvar p))))).
              rewrite upd_length. split; auto. split; auto. intros v Hv Nv. destruct (Nat.eq_dec (lvar p) v) as [<- | N]; [rewrite nth_upd_eq in Nv by auto; discriminate |].
              rewrite nth_upd_neq in Nv by auto. destruct (H3 v Hv Nv) as [K | K]; [exact K | contradiction]. }
            eapply inv_same; [exact Ih | ..]; auto.
          - eapply side_same; [exact Sdd | ..]; auto. }
        eapply rspec_weak; [apply IH; [exact S5 | exact X5] |]. intros [r s6] [[X6 F6] T6]. split; auto. split; auto. eapply xfr_trans; [exact F5 | exact F6].
Qed.
Lemma restarts_x : forall {so} n cfg orc F A, g_incremental cfg = true -> g_min cfg <> MinNone -> sorting orc -> forall fuel st, @sst n F A st -> xsto so st ->
  rspec (restarts cfg orc fuel st) (fun r => (xsto so (snd r) /\ xfr st (snd r)) /\ qt (snd r)).
Proof.
  intros so n cfg orc F A Inc Hm So. induction fuel as [| fu IH]; intros st [I Sd] X; [exact Logic.I |]. cbn [restarts].
  unfold search at 1. change (s_ok (tickup st)) with (s_ok st). rewrite (d_ok _ _ Sd). cbn [negb].
  assert (S1 : @sst n F A (set_seli 0 (tickup st))) by (split; [eapply inv_same; [exact I | ..]; auto | eapply side_same; [exact Sd | ..]; auto]).
  assert (Q1 : quiet st (set_seli 0 (tickup st))) by (apply quiet_same; auto). destruct (quiet_x _ _ Q1 X) as [X1 F1].
  pose proof (@search_loop_ok n cfg orc F A Hm So fu (o_restart orc (s_tick st)) 0 _ S1) as SO. pose proof (search_loop_x n cfg orc F A Inc Hm So fu (o_restart orc (s_tick st)) 0 _ S1 X1) as SX.
  eapply rspec_bind; [apply (rspec_conj _ _ _ (fun r => (xsto so (snd r) /\ xfr (set_seli 0 (tickup st)) (snd r)) /\ qt (snd r)) SO); intros a Ea; rewrite Ea in SX; exact SX |].
  intros [[b |] s] [H [[X2 F2] T2]]; cbn [answer fst snd rspec] in *; [split; auto; split; auto; eapply xfr_trans; eauto |].
  eapply rspec_weak; [apply IH; [apply H | exact X2] |]. intros [r s2] [[X3 F3] T3]. split; auto. split; auto. eapply xfr_trans; [exact F1 |]. eapply xfr_trans; eauto.
Qed.
Lemma solve_x : forall {so} cfg orc F A fuel st r st', g_incremental cfg = true -> g_min cfg <> MinNone -> sorting orc -> ginv F st -> (forall a, In a A -> a < 2 * length (s_vars st)) ->
  xsto so st -> (s_ok st = true -> qt st) -> solve_with_assumptions cfg orc fuel A st = Ok (r, st') -> xsto so st' /\ xfr st st' /\ (s_ok st' = true -> qt st').
Proof.
  intros so cfg orc F A fuel st r st' Inc Hm So G HA X Qt H. unfold solve_with_assumptions in H. destruct (solve cfg orc fuel (set_assum A st)) as [[r1 s1] | |] eqn:E; cbn [rbind] in H; try discriminate.
  inversion H; subst r st'. clear H. unfold solve in E. change (s_ok (set_conflict [] (set_model [] (set_assum A st)))) with (s_ok st) in E.
  set (st0 := set_conflict [] (set_model [] (set_assum A st))) in *. assert (Q0 : quiet st st0) by (apply quiet_same; auto).
  destruct (s_ok st) eqn:Ok1; cbn [negb] in E.
  2:{ inversion E; subst. destruct (@quiet_x so st (set_assum [] st0)) as [Xa Fa]; auto. { eapply quiet_trans; [exact Q0 |]. apply quiet_same; auto. } split; auto. split; auto. change (s_ok st = true -> qt (set_assum [] st0)). congruence. }
  pose proof (g_db _ _ G) as D. rewrite Ok1 in D. destruct D as (F0 & D1 & D2 & D3). destruct (quiet_x _ _ Q0 X) as [X0 Fr0].
  assert (B0 : @base (length (s_vars st)) A st0). { eapply base_same; [apply (base_swap _ [] A st (g_base _ _ G) HA) | ..]; auto. }
  assert (S0 : @sst (length (s_vars st)) F0 A st0). { split; [eapply inv_same; [exact D3 | ..]; auto |]. apply side_level0; auto. apply G. }
  pose proof (restarts_ok _ cfg orc F0 A Hm So fuel st0 S0) as R. pose proof (restarts_x _ cfg orc F0 A Inc Hm So fuel st0 S0 X0) as RX.
  destruct (restarts cfg orc fuel st0) as [[r s] | |]; cbn [rbind rspec fst snd] in *; try discriminate. destruct RX as [[X1 F1] T1].
  assert (Iq : exists q, inv F0 q s). { destruct r; [destruct R as (_ & _ & _ & I & _); eexists; exact I |]. destruct R as [(_ & _ & _ & _ & _ & I) | (_ & _ & _ & I)]; [eexists; exact I | exact I]. }
  destruct Iq as [q Iq]. set (s2 := if r then _ else _) in E.
  assert (Q2 : quiet s s2) by (unfold s2; destruct r; [apply quiet_same; auto | destruct (s_conflict s); [apply quiet_same; auto; discriminate | apply quiet_refl]]).
  assert (I2 : inv F0 q s2) by (unfold s2; destruct r; [eapply inv_same; [exact Iq | ..]; auto | destruct (s_conflict s); [eapply inv_same; [exact Iq | ..]; auto | exact Iq]]).
  destruct (cancel_until 0 s2) as [s3 | |] eqn:E3; cbn [rbind] in E; try discriminate. inversion E; subst r1 s1.
  assert (Q4 : quiet s (set_assum [] s3)) by (eapply quiet_trans; [exact Q2 |]; eapply quiet_trans; [eapply cancel_quiet; eauto | apply quiet_same; auto]).
  destruct (quiet_x _ _ Q4 X1) as [X4 F4]. split; auto. split; [eapply xfr_trans; [exact Fr0 |]; eapply xfr_trans; eauto |]. intros _. change (qt s3). eapply cancel_qt; [exact I2 | exact E3 |]. unfold s2. destruct r; [exact T1 | destruct (s_conflict s); exact T1].
Qed.
