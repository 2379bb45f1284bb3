(** The invariant over histories with saved states. *)
From Coq Require Import List Arith ZArith NArith Bool Lia Permutation.
From Verif Require Import Base Vec HeapModel HeapProofs SatSpec SatModel SatBasics SatHeap SatInv SatProp SatAnalyze SatDb SatSearch SatSolve SatFront SatExact SatState SatLoad SatReplay.
Import ListNotations.
Local Open Scope nat_scope.

Definition cnf := list (list nat).
Record histo (so : list nat) (nv : nat) (F : cnf) (saved : list (nat * cnf)) (st : solver) (snaps : list snapshot) : Prop := {
  h_nv : length (s_vars st) = nv;
  h_g : if s_ok st then exists G, (forall V, all_true V G <-> all_true V F) /\ ginv G st else entails F [] /\ stru st;
  h_x : xsto so st;
  h_q : s_ok st = true -> qt st;
  h_f : s_ok st = true -> forall V, all_true V (db st) -> all_true V F;
  h_len : length snaps = length saved;
  h_s : forall i sn m Fs, nth_error snaps i = Some sn -> nth_error saved i = Some (m, Fs) -> n_vars sn = m /\ snapok st sn Fs;
  h_m : forall i j a b, i <= j -> nth_error snaps i = Some a -> nth_error snaps j = Some b ->
    n_vars a <= n_vars b /\ n_clauses a <= n_clauses b /\ n_learnts a <= n_learnts b /\ n_units a <= n_units b }.

Arguments h_nv {so} nv F saved st snaps _.
Arguments h_g {so} nv F saved st snaps _.
Arguments h_x {so} nv F saved st snaps _.
Arguments h_q {so} nv F saved st snaps _.
Arguments h_f {so} nv F saved st snaps _.
Arguments h_len {so} nv F saved st snaps _.
Arguments h_s {so} nv F saved st snaps _.
Arguments h_m {so} nv F saved st snaps _.
Notation hist := (histo []).
Lemma hist_stru : forall {so} nv F sv st sn, histo so nv F sv st sn -> stru st.
Proof. intros so nv F sv st sn H. pose proof (h_g _ _ _ _ _ H) as G. destruct (s_ok st); [destruct G as (G & _ & I); eapply ginv_stru; eauto | apply G]. Qed.
Lemma perm_true : forall V A B l R, (forall c, In c l -> Permutation (adata A c) (adata B c)) -> all_true V (map (adata A) l ++ R) -> all_true V (map (adata B) l ++ R).
Proof.
  intros V A B l R P H C HC. apply in_app_or in HC. destruct HC as [HC | HC]; [| apply H, in_or_app; auto]. apply in_map_iff in HC. destruct HC as (c & <- & Hc).
  destruct (H (adata A c)) as (x & H1 & H2); [apply in_or_app; left; now apply in_map |]. exists x. split; auto. eapply Permutation_in; [apply P, Hc | exact H1].
Qed.
Lemma snapok_move : forall {so} st s sn F, snapok st sn F -> xsto so st -> n_vars sn <= length (s_vars s) -> n_clauses sn <= length (s_clauses s) -> n_learnts sn <= length (s_learnts s) -> n_units sn <= length (s_units s) ->
  firstn (n_clauses sn) (s_clauses s) = firstn (n_clauses sn) (s_clauses st) -> firstn (n_learnts sn) (s_learnts s) = firstn (n_learnts sn) (s_learnts st) ->
  firstn (n_units sn) (s_units s) = firstn (n_units sn) (s_units st) -> permd (s_arena st) (s_arena s) -> snapok s sn F.
Proof.
  intros so st s sn F [S1 S2 S3 S4 S5 S6 S7 S8] X Lv Lc Ll Lu Ec El Eu Pd.
  assert (P : forall c, In c (firstn (n_clauses sn) (s_clauses st) ++ firstn (n_learnts sn) (s_learnts st)) -> Permutation (adata (s_arena st) c) (adata (s_arena s) c)).
  { intros c Hc. apply (proj2 Pd), (xw_in _ _ _ _ (x_w _ X)). apply in_app_or in Hc. apply in_or_app. destruct Hc as [Hc | Hc]; [left; rewrite <- (firstn_skipn (n_clauses sn) (s_clauses st)) | right; rewrite <- (firstn_skipn (n_learnts sn) (s_learnts st))]; apply in_or_app; auto. }
  constructor; auto; rewrite ?Ec, ?El, ?Eu; auto.
  - intros c Hc. eapply wfdata_perm; [apply P, Hc | auto].
  - intros O. destruct (S7 O) as [K1 K2]. split.
    + intros V. rewrite <- K1. split; apply perm_true; intros c Hc; [symmetry |]; apply P, in_or_app; auto.
    + intros c Hc V HV. destruct (K2 c Hc V HV) as (x & H1 & H2). exists x. split; auto. eapply Permutation_in; [apply P, in_or_app; right; exact Hc | exact H1].
Qed.
Lemma snapok_ext : forall {so} st s sn F, snapok st sn F -> xsto so st -> ext st s -> snapok s sn F.
Proof.
  intros so st s sn F S X [E1 [cs E2] [ls E3] [us E4] E5]. pose proof (sn_v _ _ _ S). pose proof (sn_c _ _ _ S). pose proof (sn_l _ _ _ S). pose proof (sn_u _ _ _ S).
  assert (Fa : forall (l e : list nat) n, n <= length l -> firstn n (l ++ e) = firstn n l) by (intros l e n Hn; rewrite firstn_app; replace (n - length l) with 0 by lia; now rewrite app_nil_r).
  eapply snapok_move; eauto; rewrite ?E2, ?E3, ?E4, ?app_length; try lia; apply Fa; auto.
Qed.
Lemma hist_ext : forall {so} nv F sv st sn nv' F' s, histo so nv F sv st sn -> ext st s -> length (s_vars s) = nv' ->
  (if s_ok s then exists G, (forall V, all_true V G <-> all_true V F') /\ ginv G s else entails F' [] /\ stru s) -> xsto so s -> (s_ok s = true -> qt s) ->
  (s_ok s = true -> forall V, all_true V (db s) -> all_true V F') -> histo so nv' F' sv s sn.
Proof.
  intros so nv F sv st sn nv' F' s H E L G X Q Fu. destruct H as [H1 H2 H3 H4 H5 H6 H7 H8]. constructor; auto. intros i x m Fs Ei Em. destruct (H7 i x m Fs Ei Em) as [K1 K2]. split; auto. eapply snapok_ext; eauto.
Qed.

Lemma equiv_ent : forall F G, (forall V, all_true V G <-> all_true V F) -> forall C, entails G C -> entails F C.
Proof. intros F G H C E V HV. apply E. now apply H. Qed.
Lemma hist_new : hist 0 [] [] solver_new [].
Proof.
  constructor; auto.
  - change (s_ok solver_new) with true. cbn iota. exists []. split; [tauto | apply ginv_new].
  - constructor; auto.
    + constructor; cbn; auto; [intros c [] | intros p c b; destruct p; intros [] | intros p; destruct p; constructor | constructor].
    + intros c [].
    + intros u [].
    + intros _ u [].
    + intros k u Hu. destruct k; discriminate.
    + intros a b [].
  - intros _. reflexivity.
  - intros i sn m Fs Ei. destruct i; discriminate.
  - intros i j a b _ Ei. destruct i; discriminate.
Qed.
Lemma hist_new_var : forall {so} nv F sv st sn sign, histo so nv F sv st sn -> exists s, new_var sign true st = Ok (nv, s) /\ histo so (S nv) F sv s sn.
Proof.
  intros so nv F sv st sn sign H. pose proof (h_nv _ _ _ _ _ H) as Lv. destruct (new_var_x sign st (hist_stru _ _ _ _ _ H) (h_x _ _ _ _ _ H)) as (s & E & U & X & Ex & L & O & Qh & Tr & Cl & Un & Ar). exists s. rewrite <- Lv. split; auto.
  eapply hist_ext; eauto.
  - pose proof (h_g _ _ _ _ _ H) as G. rewrite O. destruct (s_ok st) eqn:Ok1; [| split; [apply G | exact U]]. destruct G as (G & G1 & G2). exists G. split; auto. destruct (new_var_ok G sign st G2) as (s' & E' & G3 & _). congruence.
  - intros K. rewrite O in K. unfold qt. rewrite Qh, Tr. exact (h_q _ _ _ _ _ H K).
  - intros K V HV. rewrite O in K. apply (h_f _ _ _ _ _ H K). unfold db in *. rewrite Cl, Un, Ar in HV. exact HV.
Qed.
Lemma hist_add : forall cfg fuel nv F sv st sn ps, g_incremental cfg = true -> hist nv F sv st sn -> (forall l, In l ps -> l < 2 * nv) ->
  rspec (add_clause cfg fuel ps st) (fun r => hist nv (F ++ [ps]) sv (snd r) sn /\ added ps st (snd r) /\ ext st (snd r)).
Proof.
  intros cfg fuel nv F sv st sn ps Inc H Hp. pose proof (h_nv _ _ _ _ _ H) as Lv. pose proof (h_g _ _ _ _ _ H) as G.
  assert (Sub : incl F (F ++ [ps])) by (intros x Hx; apply in_or_app; auto).
  destruct (s_ok st) eqn:O.
  - destruct G as (G & G1 & G2). rewrite <- Lv in Hp.
    assert (Eq : forall V, all_true V (ps :: G) <-> all_true V (F ++ [ps])).
    { intros V. split; intros HV C HC.
      - apply in_app_or in HC. destruct HC as [HC | [<- | []]]; [| apply HV; left; auto]. apply (proj1 (G1 V)); auto. intros x Hx. apply HV. right. exact Hx.
      - destruct HC as [<- | HC]; [apply HV, in_or_app; right; left; auto |]. apply (proj2 (G1 V)); auto. intros x Hx. apply HV, Sub, Hx. }
    eapply rspec_weak; [apply (rspec_conj _ _ _ (fun r => xst (snd r) /\ ext st (snd r) /\ (s_ok (snd r) = true -> qt (snd r)) /\ (s_ok (snd r) = true -> forall V, all_true V (db (snd r)) -> all_true V (ps :: G)) /\ added ps st (snd r)) (add_clause_ok cfg G fuel ps st G2 Hp)) |].
    + intros [r s] E. cbn [snd]. eapply (add_clause_x cfg G fuel ps st r s); auto; [apply H | intros _; apply (h_q _ _ _ _ _ H O) |]. intros _ V HV. apply G1. apply (h_f _ _ _ _ _ H O V HV).
    + intros [r s] [(K1 & K2 & K3) (X & E & Q & Fu & Ad)]. cbn [fst snd] in *. split; [| split; [exact Ad | exact E]]. eapply hist_ext; eauto; [congruence | |].
      * pose proof (ginv_stru _ _ K1) as U. pose proof (g_db _ _ K1) as D. destruct (s_ok s); [exists (ps :: G); auto |]. split; auto. eapply equiv_ent; [exact Eq | apply D].
      * intros K V HV. apply Eq. apply (Fu K V HV).
  - unfold add_clause. rewrite O. cbn [negb rspec snd]. split; [| split; [left; reflexivity | apply ext_refl]]. eapply hist_ext; eauto; [apply ext_refl | rewrite O | apply H | congruence | congruence]. destruct G as [G1 G2]. split; auto. eapply ent_mono; eauto.
Qed.
(** The answers of the solver. *)
Definition answers (nv : nat) (F : cnf) (A : list nat) (r : bool * solver) : Prop :=
  if fst r then length (s_model (snd r)) = nv /\ all_true (model_val (snd r)) (F ++ unit_clauses A) else forall V, ~ all_true V (F ++ unit_clauses A).
Lemma hist_solve : forall {so} cfg orc fuel nv F sv st sn A, g_incremental cfg = true -> g_min cfg <> MinNone -> sorting orc -> histo so nv F sv st sn -> (forall a, In a A -> a < 2 * nv) ->
  rspec (solve_with_assumptions cfg orc fuel A st) (fun r => histo so nv F sv (snd r) sn /\ answers nv F A r).
Proof.
  intros so cfg orc fuel nv F sv st sn A Inc Hm So H HA. pose proof (h_nv _ _ _ _ _ H) as Lv. pose proof (h_g _ _ _ _ _ H) as G. destruct (s_ok st) eqn:O.
  - destruct G as (G & G1 & G2). rewrite <- Lv in HA.
    eapply rspec_weak; [apply (rspec_conj _ _ _ (fun r => xsto so (snd r) /\ xfr st (snd r) /\ (s_ok (snd r) = true -> qt (snd r))) (solve_ok cfg orc G A fuel st Hm So G2 HA)) |].
    + intros [r s] E. eapply (solve_x cfg orc G A fuel st r s); eauto; [apply H |]. intros _. exact (h_q _ _ _ _ _ H O).
    + intros [r s] [(K1 & K2 & K3) (X & Fr & Q)]. cbn [fst snd] in *. split.
      * eapply hist_ext; eauto; [apply xfr_ext; exact Fr | congruence | |].
        -- pose proof (ginv_stru _ _ K1) as U. pose proof (g_db _ _ K1) as D. destruct (s_ok s); [exists G; auto |]. split; auto. eapply equiv_ent; [exact G1 | apply D].
        -- intros _ V HV. apply (h_f _ _ _ _ _ H O). unfold db in *. destruct Fr as [_ F2 _ [us F4] F5]. rewrite F2, F4, map_app in HV.
           apply (perm_true V (s_arena s) (s_arena st)).
           ++ intros c Hc. symmetry. apply (proj2 F5), (xw_in _ _ _ _ (x_w _ (h_x _ _ _ _ _ H))), in_or_app. auto.
           ++ intros C HC. apply HV. apply in_app_or in HC. apply in_or_app. destruct HC as [HC | HC]; [auto | right; apply in_or_app; auto].
      * unfold answers. cbn [fst snd]. destruct r.
        -- destruct K3 as (M1 & M2 & M3 & _). split; [congruence |]. intros C HC. apply in_app_or in HC. destruct HC as [HC | HC]; [apply (proj1 (G1 _) M1 C HC) |].
           unfold unit_clauses in HC. apply in_map_iff in HC. destruct HC as (a & <- & Ha). exists a. split; [left; auto | auto].
        -- destruct K3 as (M1 & M2 & _). intros V HV. destruct (M1 V) as (l & H1 & H2); [apply G1; intros C HC; apply HV, in_or_app; auto |]. apply M2 in H1.
           destruct (HV [lneg l]) as (y & [<- | []] & Hy); [apply in_or_app; right; unfold unit_clauses; now apply (in_map (fun l => [l])) |]. apply lit_true_neg in Hy. contradiction.
  - unfold solve_with_assumptions, solve. change (s_ok (set_conflict [] (set_model [] (set_assum A st)))) with (s_ok st). rewrite O. cbn [negb rbind rspec fst snd]. destruct G as [G1 G2]. split.
    + set (s := set_assum [] _). assert (Q : quiet st s) by (apply quiet_same; auto). destruct (quiet_x _ _ Q (h_x _ _ _ _ _ H)) as [Xs Fs]. eapply hist_ext; eauto; [apply xfr_ext; exact Fs | | |].
      * change (s_ok s) with (s_ok st). rewrite O. split; auto. destruct G2 as [U1 U2 U3 U4]. constructor; auto; [eapply base_same; [exact U2 | ..]; auto; symmetry; apply U2 |]. destruct U3; constructor; auto.
      * change (s_ok s) with (s_ok st). congruence.
      * change (s_ok s) with (s_ok st). congruence.
    + unfold answers. cbn [fst]. intros V HV. destruct (G1 V) as (l & [] & _). intros C HC. apply HV, in_or_app. auto.
Qed.
Lemma hist_save : forall {so} cfg nv F sv st sn, g_incremental cfg = true -> histo so nv F sv st sn -> exists x, save_state cfg st = Ok x /\ histo so nv F (sv ++ [(nv, F)]) st (sn ++ [x]).
Proof.
  intros so cfg nv F sv st sn Inc H. unfold save_state. rewrite Inc. eexists. split; [reflexivity |]. set (x := mkSnap _ _ _ _ _). pose proof (h_x _ _ _ _ _ H) as X.
  assert (Sx : snapok st x F).
  { constructor; unfold x; cbn [n_ok n_vars n_clauses n_learnts n_units]; rewrite ?firstn_all; auto.
    - intros c Hc. apply (xw_in _ _ _ _ (x_w _ X)), Hc.
    - apply X.
    - intros O. pose proof (h_g _ _ _ _ _ H) as G. rewrite O in G. destruct G as (G & G1 & G2). pose proof (g_db _ _ G2) as Dg. rewrite O in Dg. destruct Dg as (F0 & D1 & D2 & I). unfold sinv in I.
      assert (EF : forall C, entails F0 C -> entails F C) by (intros C E; eapply equiv_ent; [exact G1 | eapply ent_via; eauto]).
      assert (Ec : forall c, In c (s_clauses st) \/ In c (s_learnts st) -> entails F (adata (s_arena st) c)).
      { intros c Hc. apply EF. destruct (i_v _ _ _ I c Hc) as (cl & E1 & E2). unfold adata. rewrite (nth_of_some _ _ _ _ dcl E1). apply E2. }
      split; [| intros c Hc; apply Ec; auto]. intros V. split; [apply (h_f _ _ _ _ _ H O) |]. intros HV C HC. apply in_app_or in HC. destruct HC as [HC | HC].
      + apply in_map_iff in HC. destruct HC as (c & <- & Hc). apply Ec; auto.
      + apply in_map_iff in HC. destruct HC as (u & <- & Hu). destruct (x_u0 _ X O u Hu) as (j & J1 & J2). apply (EF [u]); auto. exact (t_ent0 _ _ _ _ _ _ _ _ (i_t _ _ _ I) j u J1 J2).
    - intros O. pose proof (h_g _ _ _ _ _ H) as G. rewrite O in G. apply G. }
  destruct H as [H1 H2 H3 H4 H5 H6 H7 H8].
  assert (Sn : forall i y, nth_error (sn ++ [x]) i = Some y -> nth_error sn i = Some y \/ (i = length sn /\ y = x)).
  { intros i y E. destruct (Nat.lt_ge_cases i (length sn)); [left; rewrite nth_error_app1 in E; auto |]. right. rewrite nth_error_app2 in E by auto. destruct (i - length sn) as [| k] eqn:Ek; cbn in E; [split; [lia | congruence] | destruct k; discriminate]. }
  constructor; auto.
  - rewrite !app_length. cbn. lia.
  - intros i y m Fs Ei Em. destruct (Sn i y Ei) as [K | [-> ->]].
    + rewrite nth_error_app1 in Em by (apply nth_some_lt in K; lia). eauto.
    + rewrite H6, nth_error_app2, Nat.sub_diag in Em by auto. cbn in Em. inversion Em; subst m Fs. split; [unfold x; cbn; auto | exact Sx].
  - intros i j a b L Ei Ej. destruct (Sn j b Ej) as [Kj | [-> ->]]; [destruct (Sn i a Ei) as [Ki | [-> ->]]; [eauto | apply nth_some_lt in Kj; lia] |].
    destruct (Sn i a Ei) as [Ki | [-> ->]]; [| lia]. destruct (nth_error sv i) as [[m Fs] |] eqn:Es; [| apply nth_error_None in Es; apply nth_some_lt in Ki; lia]. destruct (H7 i a m Fs Ki Es) as [_ K].
    unfold x. cbn [n_vars n_clauses n_learnts n_units]. split; [apply K |]. split; [apply K |]. split; apply K.
Qed.
Lemma hist_load : forall cfg orc fuel nv F sv st sn i x m Fs, g_incremental cfg = true -> hist nv F sv st sn -> nth_error sn i = Some x -> nth_error sv i = Some (m, Fs) -> apart x st ->
  rspec (load_state cfg orc fuel x st) (fun s => hist m Fs (firstn (S i) sv) s (firstn (S i) sn)).
Proof.
  intros cfg orc fuel nv F sv st sn i x m Fs Inc H Ei Em Ap. pose proof (hist_stru _ _ _ _ _ H) as U. destruct H as [H1 H2 H3 H4 H5 H6 H7 H8]. destruct (H7 i x m Fs Ei Em) as [Ev Sx].
  eapply rspec_weak; [apply (load_ok cfg orc fuel x Fs st Inc U H3 Sx Ap) |]. intros s (X & Lv & Cl & Ln & Un & Pd & Q & G).
  assert (Fl : forall (l : list nat) a b, a <= b -> firstn a (firstn b l) = firstn a l) by (intros l a b L; rewrite firstn_firstn, Nat.min_l; auto).
  pose proof (sn_c _ _ _ Sx) as Sc. pose proof (sn_l _ _ _ Sx) as Sl. pose proof (sn_u _ _ _ Sx) as Su.
  constructor; auto.
  - congruence.
  - destruct (s_ok s); [apply G | exact G].
  - intros O V HV. rewrite O in G. destruct G as [On _]. destruct (sn_ok _ _ _ Sx On) as [K _]. apply K. unfold db in HV. rewrite Cl, Un in HV. fold (units_of (firstn (n_units x) (s_units st))) in HV. eapply perm_true; [| exact HV].
    intros c Hc. symmetry. apply (proj2 Pd), (xw_in _ _ _ _ (x_w _ H3)), in_or_app. left. rewrite <- (firstn_skipn (n_clauses x) (s_clauses st)). apply in_or_app. auto.
  - rewrite !firstn_length. lia.
  - intros j y m' F' Ej Em'. rewrite nth_firstn in Ej, Em'. destruct (Nat.ltb_spec j (S i)) as [Lj | Lj]; [| discriminate]. destruct (H7 j y m' F' Ej Em') as [K1 K2]. split; auto.
    destruct (H8 j i y x ltac:(lia) Ej Ei) as (L1 & L2 & L3 & L4). eapply snapok_move; eauto; rewrite ?Cl, ?Ln, ?Un, ?Lv, ?firstn_length; try lia; apply Fl; auto.
  - intros a b ya yb L Ea Eb. rewrite nth_firstn in Ea, Eb. destruct (a <? S i); [| discriminate]. destruct (b <? S i); [| discriminate]. eauto.
Qed.

(** The invariant of the solver depends on the meaning of the clauses only. *)
Lemma ginv_equiv : forall F G st, (forall V, all_true V F <-> all_true V G) -> ginv F st -> ginv G st.
Proof.
  intros F G st E [L B D]. constructor; auto. destruct (s_ok st).
  - destruct D as (F0 & D1 & D2 & I). exists F0. split; [intros V H; apply D1, E, H |]. split; [intros V H; apply E, D2, H | exact I].
  - destruct D as [D1 D2]. split; auto. intros V HV. apply D1. now apply E.
Qed.
Lemma hist_ginv : forall {so} nv F sv st sn, histo so nv F sv st sn -> ginv F st.
Proof.
  intros so nv F sv st sn H. pose proof (h_g _ _ _ _ _ H) as G. pose proof (hist_stru _ _ _ _ _ H) as U. destruct (s_ok st) eqn:O.
  - destruct G as (G & E & I). eapply ginv_equiv; [exact E | exact I].
  - constructor; [apply U | apply U |]. rewrite O. destruct G as [E _]. split; auto. split; apply U.
Qed.
Lemma hist_equiv : forall {so} nv F G sv st sn, (forall V, all_true V F <-> all_true V G) -> histo so nv F sv st sn -> histo so nv G sv st sn.
Proof.
  intros so nv F G sv st sn E H. eapply hist_ext; [exact H | apply ext_refl | apply H | | apply H | apply H |].
  - pose proof (h_g _ _ _ _ _ H) as D. destruct (s_ok st).
    + destruct D as (K & E1 & I). exists K. split; auto. intros V. rewrite E1. apply E.
    + destruct D as [D1 D2]. split; auto. intros V HV. apply D1. now apply E.
  - intros O V HV. apply E. apply (h_f _ _ _ _ _ H O V HV).
Qed.
Lemma hist_drop : forall {so} nv F sv st sn, histo so nv F sv st sn -> histo so nv F [] st [].
Proof. intros so nv F sv st sn [H1 H2 H3 H4 H5 H6 H7 H8]. constructor; auto; intros i; destruct i; discriminate. Qed.
