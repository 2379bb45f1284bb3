(** The front end of the solver in the incremental mode: saved states, backbones and enumerations leave a solver with the same clauses. *)
From Coq Require Import List Arith ZArith NArith Bool Lia Permutation.
From Verif Require Import Base Vec HeapModel EncodingModel Syntax FactoryModel AssignmentModel SatSpec SatModel SatBasics SatHeap SatInv SatProp SatAnalyze SatDb SatSearch SatSolve SatFront SatState SatExact SatLoad SatReplay SatHistory
  MiniModel MiniProofs EnumProofs BackboneProofs OptModel OptProofs.
Import ListNotations.
Local Open Scope nat_scope.

(** ** The solver *)
Lemma histo_selo : forall {so} nv F sv st sn o, histo so nv F sv st sn -> (forall l, In l o -> l < 2 * nv) -> histo o nv F sv (set_selo o st) sn.
Proof.
  intros so nv F sv st sn o H Ho. pose proof (hist_ginv _ _ _ _ _ H) as G. pose proof (h_nv _ _ _ _ _ H) as Lv. rewrite <- Lv in Ho. pose proof (ginv_selo F st o G Ho) as G1.
  assert (Ex : ext st (set_selo o st)) by (constructor; auto; [exists []; now rewrite app_nil_r | exists []; now rewrite app_nil_r | exists []; now rewrite app_nil_r | apply permd_refl]).
  pose proof H as [H1 H2 H3 H4 H5 H6 H7 H8]. constructor; auto.
  - change (s_ok (set_selo o st)) with (s_ok st). pose proof (g_db _ _ G1) as D. pose proof (ginv_stru _ _ G1) as U. change (s_ok (set_selo o st)) with (s_ok st) in D. destruct (s_ok st); [exists F; split; [tauto | exact G1] |]. split; [apply D | exact U].
  - destruct H3 as [X1 X2 X3 X4 X5 X6 X7]. constructor; auto.
  - intros i x m Fs Ei Em. destruct (H7 i x m Fs Ei Em) as [K1 K2]. split; auto. eapply snapok_ext; eauto.
Qed.
Lemma hist_bb : forall nv F sv st sn b, hist nv F sv st sn -> hist nv F sv (set_bb b st) sn.
Proof.
  intros nv F sv st sn b H. pose proof (hist_ginv _ _ _ _ _ H) as G. pose proof (ginv_bb F st b G) as G1.
  assert (Q : quiet st (set_bb b st)) by (apply quiet_same; auto). destruct (quiet_x _ _ Q (h_x _ _ _ _ _ H)) as [X Fr]. eapply hist_ext; eauto.
  - apply xfr_ext. exact Fr.
  - apply (h_nv _ _ _ _ _ H).
  - pose proof (g_db _ _ G1) as D. pose proof (ginv_stru _ _ G1) as U. destruct (s_ok (set_bb b st)); [exists F; split; [tauto | exact G1] |]. split; [apply D | exact U].
  - exact (h_q _ _ _ _ _ H).
  - exact (h_f _ _ _ _ _ H).
Qed.
Section Solver.
  Variables (cfg : sconfig) (orc : oracle).
  Hypothesis Inc : g_incremental cfg = true.
  Hypothesis Hm : g_min cfg <> MinNone.
  Hypothesis So : sorting orc.

  Lemma hist_solved : forall {so} fuel nv F sv st sn A r s, histo so nv F sv st sn -> (forall a, In a A -> a < 2 * nv) -> solve_with_assumptions cfg orc fuel A st = Ok (r, s) ->
    histo so nv F sv s sn /\ xfr st s.
  Proof.
    intros so fuel nv F sv st sn A r s H HA E. pose proof (hist_solve cfg orc fuel nv F sv st sn A Inc Hm So H HA) as K. rewrite E in K. cbn [rspec fst snd] in K. split; [apply K |].
    rewrite <- (h_nv _ _ _ _ _ H) in HA. eapply (solve_x cfg orc F A fuel st r s Inc Hm So (hist_ginv _ _ _ _ _ H) HA (h_x _ _ _ _ _ H) (h_q _ _ _ _ _ H) E).
  Qed.
  Lemma solve_as : forall {so} fuel nv F sv st sn r s, histo so nv F sv st sn -> solve cfg orc fuel st = Ok (r, s) -> solve_with_assumptions cfg orc fuel [] st = Ok (r, s).
  Proof.
    intros so fuel nv F sv st sn r s H E. pose proof (hist_ginv _ _ _ _ _ H) as G. pose proof (b_as _ _ (g_base _ _ G)) as E0. assert (E1 : set_assum [] st = st) by (rewrite <- E0; apply set_assum_id).
    pose proof (solve_ok0 cfg orc F [] fuel st Hm So G (fun a (K : In a []) => match K with end)) as K. unfold solve_with_assumptions. rewrite E1 in *. rewrite E in *. cbn [rspec rbind fst snd] in *. destruct K as [_ K].
    assert (E2 : set_assum [] s = s) by (rewrite <- K; apply set_assum_id). now rewrite E2.
  Qed.
  Lemma hist_solved0 : forall {so} fuel nv F sv st sn r s, histo so nv F sv st sn -> solve cfg orc fuel st = Ok (r, s) -> histo so nv F sv s sn /\ xfr st s.
  Proof. intros so fuel nv F sv st sn r s H E. eapply (hist_solved fuel nv F sv st sn [] r s H); [intros a [] | eapply solve_as; eauto]. Qed.

  (** ** Clauses that a valuation tells apart *)
  Definition sep (A : list clause) (c d : nat) : Prop :=
    exists V, (clause_true V (adata A c) /\ ~ clause_true V (adata A d)) \/ (clause_true V (adata A d) /\ ~ clause_true V (adata A c)).
  Definition sepd (sn : snapshot) (st : solver) : Prop := forall c d, In c (skipn (n_clauses sn) (s_clauses st)) -> In d (s_clauses st) -> c <> d -> sep (s_arena st) c d.
  Lemma perm_clause : forall V a b, Permutation a b -> clause_true V a -> clause_true V b.
  Proof. intros V a b P (l & H1 & H2). exists l. split; auto. eapply Permutation_in; eauto. Qed.
  Lemma sep_perm : forall A B c d, Permutation (adata A c) (adata B c) -> Permutation (adata A d) (adata B d) -> sep A c d -> sep B c d.
  Proof.
    intros A B c d P Q (V & [[H1 H2] | [H1 H2]]); exists V; [left | right]; split; try (eapply perm_clause; eassumption).
    - intros K. apply H2. eapply perm_clause; [symmetry; exact Q | exact K].
    - intros K. apply H2. eapply perm_clause; [symmetry; exact P | exact K].
  Qed.
  Lemma sep_apart : forall sn st, sepd sn st -> apart sn st.
  Proof. intros sn st H c d Hc Hd N [A1 _]. destruct (H c d Hc Hd N) as (V & [[H1 H2] | [H1 H2]]); unfold adata in *; rewrite A1 in *; contradiction. Qed.
  Lemma sepd_here : forall st x, n_clauses x = length (s_clauses st) -> sepd x st.
  Proof. intros st x E c d Hc. rewrite E, skipn_all in Hc. destruct Hc. Qed.
  Lemma in_skip : forall A n (l : list A) x, In x (skipn n l) -> In x l.
  Proof. intros A n l x H. rewrite <- (firstn_skipn n l). apply in_or_app. auto. Qed.
  Lemma sepd_move : forall so sn st s, xsto so st -> s_clauses s = s_clauses st -> permd (s_arena st) (s_arena s) -> sepd sn st -> sepd sn s.
  Proof.
    intros so sn st s X E P H c d Hc Hd N. rewrite E in *. assert (Lt : forall c, In c (s_clauses st) -> c < length (s_arena st)) by (intros z Hz; apply (xw_in _ _ _ _ (x_w _ X)), in_or_app; auto).
    eapply sep_perm; [apply (proj2 P), Lt; eapply in_skip; eauto | apply (proj2 P), Lt, Hd | apply H; auto].
  Qed.
  Lemma hist_true : forall so nv F sv st sn V c, histo so nv F sv st sn -> all_true V F -> In c (s_clauses st) -> clause_true V (adata (s_arena st) c).
  Proof.
    intros so nv F sv st sn V c H HV Hc. pose proof (hist_ginv _ _ _ _ _ H) as G. pose proof (g_db _ _ G) as D. destruct (s_ok st).
    - destruct D as (F0 & D1 & D2 & I). unfold sinv in I. destruct (i_v _ _ _ I c (or_introl Hc)) as (cl & E1 & E2). unfold adata. rewrite (nth_of_some _ _ _ _ dcl E1). apply E2. exact (D1 V HV).
    - destruct D as [D _]. destruct (D V HV) as (l & [] & _).
  Qed.
  Lemma sepd_add : forall nv F sv st sn x ps s V, hist nv F sv st sn -> all_true V F -> ~ clause_true V ps -> added ps st s -> ext st s -> sepd x st -> sepd x s.
  Proof.
    intros nv F sv st sn x ps s V H HV NV [E | (c & E & Ic)] X Sx; [eapply sepd_move; eauto; [apply (h_x _ _ _ _ _ H) | apply X] |].
    pose proof (h_x _ _ _ _ _ H) as Xs. assert (Pm : forall c, In c (s_clauses st) -> Permutation (adata (s_arena st) c) (adata (s_arena s) c)).
    { intros z Hz. apply (proj2 (e_ar _ _ X)), (xw_in _ _ _ _ (x_w _ Xs)), in_or_app. auto. }
    assert (Fc : ~ clause_true V (adata (s_arena s) c)) by (intros (l & H1 & H2); apply NV; exists l; split; auto).
    assert (Td : forall d, In d (s_clauses st) -> clause_true V (adata (s_arena s) d)) by (intros d Hd; eapply perm_clause; [apply Pm, Hd | eapply hist_true; eauto]).
    intros a d Ha Hd N. rewrite E in Ha, Hd. rewrite skipn_app in Ha. apply in_app_or in Ha, Hd.
    destruct Ha as [Ha | Ha]; [| apply in_skip in Ha; destruct Ha as [<- | []]]; (destruct Hd as [Hd | [<- | []]]).
    - eapply sep_perm; [apply Pm; eapply in_skip; eauto | apply Pm, Hd | apply Sx; auto].
    - exists V. left. split; [apply Td; eapply in_skip; eauto | exact Fc].
    - exists V. right. split; [apply Td, Hd | exact Fc].
    - contradiction.
  Qed.
End Solver.

(** ** The front end *)
(** Nothing is said about the saved states: the calls below load only what they have saved themselves. *)
Definition mh (o : list nat) (G : list (list lit)) (m : mini) : Prop := histo o (length (mi_names m)) (encs (mi_names m) G) [] (mi_s m) [].
Definition named_in (G : list (list lit)) (m : mini) : Prop := forall c l, In c G -> In l c -> In (lit_var l) (mi_names m).
Lemma mh_new : mh [] [] mini_new.
Proof. exact hist_new. Qed.
Lemma mh_res : forall o G m r, mh o G m -> mh o G (mkMini (mi_s m) (mi_names m) r (mi_states m)).
Proof. intros o G m r H. exact H. Qed.
Lemma mh_minv : forall o G m, mh o G m -> NoDup (mi_names m) -> named_in G m -> minv G m.
Proof. intros o G m H Nd K. constructor; auto; [symmetry; apply (h_nv _ _ _ _ _ H) | exact (hist_ginv _ _ _ _ _ H)]. Qed.
(** The invariant of the front end; in the incremental mode also for the saved states. *)
Definition mstate (mc : mconfig) (G : list (list lit)) (m : mini) : Prop := minv G m /\ (g_incremental (mc_sat mc) = true -> mh [] G m).
Lemma mstate_new : forall mc sts, mstate mc [] (mkMini solver_new [] None sts).
Proof. intros mc sts. split; [exact (minv_other [] mini_new None sts minv_new) | intros _; exact hist_new]. Qed.
Lemma mstate_res : forall mc G m r sts, mstate mc G m -> mstate mc G (mkMini (mi_s m) (mi_names m) r sts).
Proof. intros mc G m r sts [I H]. split; [now apply minv_other | exact H]. Qed.
Section Front.
  Variables (mc : mconfig) (orc : oracle).
  Hypothesis Hm : g_min (mc_sat mc) <> MinNone.
  Hypothesis So : sorting orc.
  Hypothesis Inc : g_incremental (mc_sat mc) = true.

  Lemma named_h : forall o G m sign v s i r, named_in G m -> mh o G m -> new_var sign true (mi_s m) = Ok (i, s) -> mh o G (mkMini s (mi_names m ++ [v]) r (mi_states m)).
  Proof.
    intros o G m sign v s i r K H E. destruct (hist_new_var _ _ _ _ _ sign H) as (s' & E' & H'). assert (s' = s) as -> by congruence. unfold mh. cbn [mi_s mi_names mi_states].
    rewrite app_length, encs_app by exact K. cbn [length]. rewrite Nat.add_1_r. exact H'.
  Qed.
  Lemma literal_h : forall o G l m x m', named_in G m -> mh o G m -> generate_literal mc l m = Ok (x, m') -> named_in G m' /\ mh o G m'.
  Proof.
    intros o G l m x m' K H E. unfold generate_literal in E. destruct (idx_of (mi_names m) (lit_var l)); [inversion E; subst; auto |].
    destruct (new_var (negb (mc_phase mc)) true (mi_s m)) as [[i s] | |] eqn:En; cbn [rbind] in E; try discriminate. inversion E; subst. split; [intros c y Hc Hy; cbn [mi_names]; apply in_or_app; left; eauto |]. eapply named_h; eauto.
  Qed.
  Lemma vec_h : forall o G ls m xs m', named_in G m -> mh o G m -> generate_clause_vec mc ls m = Ok (xs, m') -> named_in G m' /\ mh o G m'.
  Proof.
    intros o G. induction ls as [| l r IH]; intros m xs m' K H E; cbn [generate_clause_vec] in E; [inversion E; subst; auto |].
    destruct (generate_literal mc l m) as [[x m1] | |] eqn:E1; cbn [rbind] in E; try discriminate. destruct (generate_clause_vec mc r m1) as [[ys m2] | |] eqn:E2; cbn [rbind] in E; try discriminate. inversion E; subst.
    destruct (literal_h _ _ _ _ _ _ K H E1) as [K1 H1]. eapply IH; eauto.
  Qed.
  Lemma clause_h : forall G fuel c m b s, minv G m -> mh [] G m -> (forall l, In l c -> In (lit_var l) (mi_names m)) -> add_clause (mc_sat mc) fuel (map (enc (mi_names m)) c) (mi_s m) = Ok (b, s) ->
    forall r, mh [] (c :: G) (mkMini s (mi_names m) r (mi_states m)).
  Proof.
    intros G fuel c m b s I H L E r. cbn [mi_s mi_names mi_states]. assert (Hl : forall x, In x (map (enc (mi_names m)) c) -> x < 2 * length (mi_names m)) by (intros x Hx; apply in_map_iff in Hx; destruct Hx as (l & <- & Hl); apply enc_lt; auto).
    pose proof (hist_add (mc_sat mc) fuel _ _ _ _ _ _ Inc H Hl) as K. rewrite E in K. destruct K as [K _]. cbn [snd] in K. eapply hist_equiv; [| exact K].
    intros V. cbn [encs map]. split; intros HV C HC; apply HV; [destruct HC as [<- | HC]; apply in_or_app; [right; now left | now left] | apply in_app_or in HC; destruct HC as [HC | [<- | []]]; [now right | now left]].
  Qed.
  Lemma add_h : forall G fuel c m m', minv G m -> mh [] G m -> m_add_clause mc fuel c m = Ok m' -> mh [] (c :: G) m'.
  Proof.
    intros G fuel c m m' I H E. unfold m_add_clause in E. set (m0 := mkMini (mi_s m) (mi_names m) None (mi_states m)) in *. assert (I0 : minv G m0) by (apply minv_other; exact I).
    destruct (generate_clause_vec_ok mc G c m0 I0) as (m1 & E1 & I1 & L & X). rewrite E1 in E. cbn [rbind] in E. destruct (add_clause (mc_sat mc) fuel _ (mi_s m1)) as [[b s] | |] eqn:E2; cbn [rbind] in E; try discriminate. inversion E; subst.
    eapply clause_h; eauto. eapply vec_h; [exact (n_in _ _ I0) | exact (mh_res _ _ _ None H) | exact E1].
  Qed.
  Lemma vars_h : forall G vs m m', minv G m -> mh [] G m -> m_add_variables mc vs m = Ok m' -> mh [] G m'.
  Proof.
    intros G vs m m' I H E. unfold m_add_variables in E. destruct (generate_clause_vec mc _ m) as [[xs m1] | |] eqn:E1; cbn [rbind] in E; try discriminate. inversion E; subst. eapply vec_h; [exact (n_in _ _ I) | exact H | exact E1].
  Qed.
  Lemma push_h : forall G fuel c m m', minv G m -> mh [] G m -> m_push mc fuel c m = Ok m' -> mh [] (c :: G) m'.
  Proof.
    intros G fuel c m m' I H E. unfold m_push in E. destruct (generate_clause_vec_ok mc G c m I) as (m1 & E1 & I1 & L & X). rewrite E1 in E. cbn [rbind] in E.
    destruct (add_clause (mc_sat mc) fuel _ (mi_s m1)) as [[b s] | |] eqn:E2; cbn [rbind] in E; try discriminate. inversion E; subst. eapply clause_h; eauto. eapply vec_h; [exact (n_in _ _ I) | exact H | exact E1].
  Qed.
  Lemma register_h : forall G v m m', named_in G m -> mh [] G m -> m_register mc v m = Ok m' -> named_in G m' /\ mh [] G m'.
  Proof.
    intros G v m m' K H E. unfold m_register in E. destruct (new_var _ true (mi_s m)) as [[i s] | |] eqn:En in E; cbn [rbind] in E; try discriminate. inversion E; subst.
    split; [intros c y Hc Hy; cbn [mi_names]; apply in_or_app; left; eauto |]. eapply named_h; eauto.
  Qed.
  Lemma registers_h : forall G vs m m', named_in G m -> mh [] G m -> m_registers mc vs m = Ok m' -> mh [] G m'.
  Proof.
    intros G. induction vs as [| v r IH]; intros m m' K H E; cbn [m_registers] in E; [inversion E; subst; auto |]. destruct (m_register mc v m) as [m1 | |] eqn:E1; cbn [rbind] in E; try discriminate.
    destruct (register_h G v m m1 K H E1) as [K1 H1]. eapply IH; eauto.
  Qed.
  Lemma pushes_h : forall fuel cls G m m', minv G m -> mh [] G m -> m_pushes mc fuel cls m = Ok m' -> mh [] (rev cls ++ G) m'.
  Proof.
    intros fuel. induction cls as [| c r IH]; intros G m m' I H E; cbn [m_pushes] in E; [inversion E; subst; auto |]. pose proof (m_push_ok mc G fuel c m I) as K. destruct (m_push mc fuel c m) as [m1 | |] eqn:E1; cbn [rbind] in E; try discriminate.
    cbn [rev]. rewrite <- app_assoc. apply (IH (c :: G) m1 m'); auto; [apply K | eapply push_h; eauto].
  Qed.
  Lemma sat_h : forall G fuel m r m', mh [] G m -> m_sat mc orc fuel m = Ok (r, m') -> mh [] G m'.
  Proof.
    intros G fuel m r m' H E. unfold m_sat in E. destruct (solve (mc_sat mc) orc fuel (mi_s m)) as [[q s] | |] eqn:Es; cbn [rbind] in E; try discriminate. inversion E; subst.
    eapply (hist_solved0 (mc_sat mc) orc Inc Hm So); eauto.
  Qed.
  Lemma selo_h : forall o o' G m r, mh o G m -> (forall l, In l o' -> l < 2 * length (mi_names m)) -> mh o' G (mkMini (set_selo o' (mi_s m)) (mi_names m) r (mi_states m)).
  Proof. intros o o' G m r H Hl. eapply histo_selo; eauto. Qed.
  Lemma sat_with_h : forall G fuel asm order m r m', minv G m -> mh [] G m -> m_sat_with mc orc fuel asm order m = Ok (r, m') -> mh [] G m'.
  Proof.
    intros G fuel asm order m r m' I H E. unfold m_sat_with in E. set (m0 := mkMini _ (mi_names m) None (mi_states m)) in E.
    assert (P : exists o, mh o G m0 /\ (order = None -> o = [])).
    { destruct order as [o |]; [| exists []; split; auto]. exists (order_lits (mi_names m) o). split; [| discriminate]. apply (selo_h [] _ G m None H). intros l Hl. eapply order_lits_lt; eauto. }
    destruct P as (o & H0 & Ho). assert (I0 : minv G m0) by (constructor; [exact (n_nd _ _ I) | symmetry; apply (h_nv _ _ _ _ _ H0) | exact (n_in _ _ I) | exact (hist_ginv _ _ _ _ _ H0)]).
    assert (Fin : forall m1, mh o G m1 -> mh [] G (match order with Some _ => mkMini (set_selo [] (mi_s m1)) (mi_names m1) (mi_res m1) (mi_states m1) | None => m1 end)).
    { intros m1 H1. destruct order; [apply (selo_h o); auto; intros y [] | rewrite Ho in H1 by auto; exact H1]. }
    destruct asm as [a |].
    - destruct (generate_clause_vec_ok mc G a m0 I0) as (m1 & E1 & I1 & L & X). rewrite E1 in E. cbn [rbind] in E. destruct (vec_h o G a m0 _ m1 (n_in _ _ I0) H0 E1) as [_ H1].
      destruct (solve_with_assumptions (mc_sat mc) orc fuel _ (mi_s m1)) as [[q s] | |] eqn:Es; cbn [rbind] in E; try discriminate. injection E as <- <-. apply (Fin (mkMini s (mi_names m1) (Some q) (mi_states m1))). cbn [mi_s mi_names mi_states].
      eapply (hist_solved (mc_sat mc) orc Inc Hm So); [exact H1 | | exact Es]. intros x Hx. apply in_map_iff in Hx. destruct Hx as (l & <- & Hl). apply enc_lt. auto.
    - destruct (solve (mc_sat mc) orc fuel (mi_s m0)) as [[q s] | |] eqn:Es; cbn [rbind] in E; try discriminate. injection E as <- <-. apply (Fin (mkMini s (mi_names m0) (Some q) (mi_states m0))). eapply (hist_solved0 (mc_sat mc) orc Inc Hm So); eauto.
  Qed.

  (** Saving, and loading the last saved state when no similar clauses were added. *)
  Lemma save_h : forall G m, mh [] G m -> exists x, m_save mc m = Ok (length (mi_states m), mkMini (mi_s m) (mi_names m) (mi_res m) (mi_states m ++ [x])) /\
    hist (length (mi_names m)) (encs (mi_names m) G) [(length (mi_names m), encs (mi_names m) G)] (mi_s m) [x] /\ n_clauses x = length (s_clauses (mi_s m)).
  Proof.
    intros G m H. destruct (hist_save (mc_sat mc) _ _ _ _ _ Inc H) as (x & E & Hx). exists x. unfold m_save. rewrite E. cbn [rbind]. split; auto. split; auto. unfold save_state in E. rewrite Inc in E. now inversion E.
  Qed.
  Lemma load_h : forall G fuel names F' st0 x s res, hist (length names) F' [(length names, encs names G)] s [x] -> sepd x s ->
    rspec (m_load mc orc fuel (length st0) (mkMini s names res (st0 ++ [x]))) (fun m' => mh [] G m' /\ mi_names m' = names).
  Proof.
    intros G fuel names F' st0 x s res H Sx. unfold m_load. cbn [mi_states mi_s mi_names]. rewrite nth_error_app2, Nat.sub_diag by auto. cbn [nth_error].
    eapply rspec_bind; [apply (hist_load (mc_sat mc) orc fuel _ _ _ _ _ 0 x _ _ Inc H eq_refl eq_refl (sep_apart _ _ Sx)) |].
    intros s' H'. cbn [rspec]. assert (Ln : firstn (length (s_vars s')) names = names) by (rewrite (h_nv _ _ _ _ _ H'); apply firstn_all). split; [| exact Ln]. unfold mh. cbn [mi_s mi_names mi_states]. rewrite Ln. exact (hist_drop _ _ _ _ _ H').
  Qed.

  (** ** Backbones *)
  Definition inr (n : nat) (b : bbs) : Prop := (forall l, In l (bb_cand b) -> l < 2 * n) /\ forall l, In l (bb_assum b) -> l < 2 * n.
  Lemma inr_add : forall n l b, l < 2 * n -> inr n b -> inr n (add_backbone_literal l b).
  Proof. intros n l b Hl [H1 H2]. split; auto. cbn [bb_assum add_backbone_literal]. intros x Hx. apply in_app_or in Hx. destruct Hx as [Hx | [<- | []]]; auto. Qed.
  Lemma inr_adds : forall n us b, (forall l, In l us -> l < 2 * n) -> inr n b -> inr n (fold_left (fun b l => add_backbone_literal l b) us b).
  Proof. intros n. induction us as [| u us IH]; intros b Hl H; cbn [fold_left]; auto. apply IH; [intros l H'; apply Hl; now right | apply inr_add; auto; apply Hl; now left]. Qed.
  Lemma inr_init : forall n st t vs b, (forall v, In v vs -> v < n) -> inr n b -> inr n (create_initial mc st t vs b).
  Proof.
    intros n st t. induction vs as [| v r IH]; intros b Hv H; cbn [create_initial]; auto. apply IH; [intros w Hw; apply Hv; now right |].
    assert (Hl : forall ph, mk_lit v ph < 2 * n) by (intros ph; apply lvar_lt; rewrite mk_lit_var; apply Hv; now left).
    destruct (lvl0 st v); [apply inr_add; auto |]. destruct (_ && _); auto. destruct H as [H1 H2]. split; auto. cbn [bb_cand]. intros x Hx. apply in_app_or in Hx. destruct Hx as [Hx | [<- | []]]; auto.
  Qed.
  Lemma inr_refine : forall n st b, inr n b -> inr n (refine_upper_bound mc st b).
  Proof.
    intros n st b H. unfold refine_upper_bound. cbv zeta. split; cbn [bb_cand bb_assum]; [intros l Hl; apply filter_In in Hl; apply (proj1 H), Hl |].
    apply inr_adds; [intros l Hl; apply filter_In in Hl; apply (proj1 H), Hl | exact H].
  Qed.
  Lemma bloop_h : forall fuel rounds nv F sv sn b st b' s, hist nv F sv st sn -> inr nv b -> backbone_loop mc orc rounds fuel b st = Ok (b', s) -> hist nv F sv s sn /\ s_clauses s = s_clauses st.
  Proof.
    intros fuel. induction rounds as [| rn IH]; intros nv F sv sn b st b' s H I E; [discriminate |]. cbn [backbone_loop] in E. destruct (rev (bb_cand b)) as [| l rest] eqn:Er; [inversion E; subst; auto |].
    destruct (solve_with_assumptions (mc_sat mc) orc fuel (bb_assum b ++ [lneg l]) st) as [[q s1] | |] eqn:Es; cbn [rbind] in E; try discriminate.
    assert (Cd : forall x, In x (l :: rest) -> x < 2 * nv) by (intros x Hx; apply (proj1 I), in_rev; rewrite Er; exact Hx).
    assert (As : forall a, In a (bb_assum b ++ [lneg l]) -> a < 2 * nv) by (intros a Ha; apply in_app_or in Ha; destruct Ha as [Ha | [<- | []]]; [apply (proj2 I), Ha | apply lneg_lt, Cd; now left]).
    destruct (hist_solved (mc_sat mc) orc Inc Hm So fuel _ _ _ _ _ _ _ _ H As Es) as [H1 Fr].
    assert (I1 : inr nv (mkBb (rev rest) (bb_assum b) (bb_map b))) by (split; [cbn [bb_cand]; intros x Hx; apply in_rev in Hx; apply Cd; now right | apply I]).
    set (b2 := if q then _ else _) in E. assert (I2 : inr nv b2) by (unfold b2; destruct q; [apply inr_refine, I1 | apply inr_add; auto; apply Cd; now left]).
    destruct (IH nv F sv sn _ s1 b' s H1 I2 E) as [H2 E2]. split; auto. rewrite E2. apply Fr.
  Qed.
  Lemma s_backbone_h : forall rounds fuel names vs t nv F sv sn st b s, nv = length names -> hist nv F sv st sn -> s_compute_backbone mc orc rounds fuel names vs t st = Ok (b, s) -> hist nv F sv s sn /\ s_clauses s = s_clauses st.
  Proof.
    intros rounds fuel names vs t nv F sv sn st b s Ln H E. unfold s_compute_backbone in E. destruct (solve (mc_sat mc) orc fuel st) as [[q st1] | |] eqn:Es; cbn [rbind] in E; try discriminate.
    destruct (hist_solved0 (mc_sat mc) orc Inc Hm So fuel _ _ _ _ _ _ _ H Es) as [H1 Fr]. destruct q; [| inversion E; subst; split; [exact H1 | apply Fr]]. cbn zeta in E.
    destruct (backbone_loop mc orc rounds fuel _ (set_bb true st1)) as [[b1 st3] | |] eqn:El; cbn [rbind] in E; try discriminate. inversion E; subst s.
    set (b0 := create_initial _ _ _ _ _) in El. assert (I0 : inr nv b0) by (unfold b0; apply inr_init; [intros v Hv; rewrite Ln; eapply known_idx_lt; eauto | split; intros l []]).
    destruct (bloop_h _ _ nv F sv sn _ _ _ _ (hist_bb _ _ _ _ _ true H1) I0 El) as [H3 E3].
    split; [apply hist_bb; exact H3 |]. change (s_clauses st3 = s_clauses st). rewrite E3. change (s_clauses st1 = s_clauses st). apply Fr.
  Qed.
  Lemma backbone_h : forall G rounds fuel vs t m, minv G m -> mh [] G m ->
    rspec (compute_backbone mc orc rounds fuel vs t m) (fun r => minv G (snd r) /\ mh [] G (snd r) /\ mi_names (snd r) = mi_names m).
  Proof.
    intros G rounds fuel vs t m I H. unfold compute_backbone. rewrite Inc. destruct (save_h G m H) as (x & Ex & Hx & Cx). rewrite Ex. cbn [rbind mi_names mi_s mi_res mi_states].
    pose proof (compute_backbone_ok mc orc rounds fuel G m vs t Hm So I) as K. destruct (s_compute_backbone mc orc rounds fuel (mi_names m) vs t (mi_s m)) as [[b s] | |] eqn:E; auto. cbn [rbind].
    destruct (s_backbone_h rounds fuel (mi_names m) vs t _ _ _ _ _ _ _ eq_refl Hx E) as [Hs Cs].
    eapply rspec_bind; [apply (load_h G fuel (mi_names m) _ (mi_states m) x s (mi_res m) Hs); apply sepd_here; now rewrite Cs |].
    intros m3 [M1 M2]. cbn [rspec snd]. split; [| split; [exact M1 | exact M2]]. eapply mh_minv; [exact M1 | rewrite M2; apply I | intros c l Hc Hl; rewrite M2; eapply (n_in _ _ I); eauto].
  Qed.

  (** ** Enumerations *)
  Lemma enum_h : forall fuel names rel all sv sn x, (forall i, In i (idxs rel (length names)) -> i < length names) -> (forall i, In i (idxs all (length names)) -> i < length names) ->
    forall rounds F k models m, hist (length names) F sv (mi_s m) sn -> mi_names m = names -> sepd x (mi_s m) ->
    rspec (enum_loop mc orc rounds fuel rel all k models m) (fun r => (exists F', hist (length names) F' sv (mi_s (snd r)) sn) /\ mi_names (snd r) = names /\ sepd x (mi_s (snd r)) /\ mi_states (snd r) = mi_states m).
  Proof.
    intros fuel names rel all sv sn x Rlt Alt. induction rounds as [| rn IH]; intros F k models m H En Sx; [exact Logic.I |]. cbn [enum_loop].
    assert (Body : rspec (do ' (r, m1) <- m_sat mc orc fuel m;
      if r then
        let model := s_model (mi_s m1) in
        do md <- create_assignment mc (mi_names m1) model all;
        if md_empty md then Ok (models ++ [md], m1)
        else
          do bc <- generate_blocking_clause model rel;
          do ' (_, s) <- add_clause (mc_sat mc) fuel bc (mi_s m1);
          enum_loop mc orc rn fuel rel all (option_map pred k) (models ++ [md]) (mkMini s (mi_names m1) (mi_res m1) (mi_states m1))
      else Ok (models, m1)) (fun r => (exists F', hist (length names) F' sv (mi_s (snd r)) sn) /\ mi_names (snd r) = names /\ sepd x (mi_s (snd r)) /\ mi_states (snd r) = mi_states m)).
    { unfold m_sat. pose proof (solve_ok_nil _ _ _ fuel (mi_s m) Hm So (hist_ginv _ _ _ _ _ H)) as K0. destruct (solve (mc_sat mc) orc fuel (mi_s m)) as [[r s] | |] eqn:Es; [clear K0 | exact K0 | exact Logic.I]. cbn [rbind].
      pose proof (solve_as (mc_sat mc) orc Hm So fuel _ _ _ _ _ _ _ H Es) as Ea. pose proof (hist_solve (mc_sat mc) orc fuel _ _ _ _ _ [] Inc Hm So H ltac:(intros a [])) as K. rewrite Ea in K. cbn [rspec fst snd] in K. destruct K as [H1 An].
      destruct (hist_solved0 (mc_sat mc) orc Inc Hm So fuel _ _ _ _ _ _ _ H Es) as [_ Fr].
      assert (S1 : sepd x s) by (eapply sepd_move; [apply (h_x _ _ _ _ _ H) | apply Fr | apply Fr | exact Sx]).
      destruct r; cbn [mi_s mi_names mi_res mi_states]; [| cbn [rspec fst snd mi_s mi_names mi_states]; split; [exists F; exact H1 | auto]]. unfold answers in An. cbn [fst snd] in An. destruct An as [Lm Tm]. cbn zeta.
      rewrite En. rewrite create_assignment_ok by (rewrite ?Lm; auto). cbn [rbind].
      destruct (md_empty _); [cbn [rspec fst snd mi_s mi_names mi_states]; split; [exists F; exact H1 | auto] |].
      rewrite blocking_ok by (rewrite Lm; exact Rlt). cbn [rbind]. rewrite Lm. change (fun i => nth i (s_model s) false) with (model_val s). set (bc := blk (idxs rel (length names)) (model_val s)).
      assert (Hb : forall l, In l bc -> l < 2 * length names). { intros l Hl. unfold bc, blk in Hl. apply in_map_iff in Hl. destruct Hl as (i & <- & Hi). apply lvar_lt. rewrite mk_lit_var. auto. }
      eapply rspec_bind; [apply (hist_add (mc_sat mc) fuel _ _ _ _ _ bc Inc H1 Hb) |]. intros [b2 s2] (H2 & Ad & Ex). cbn [snd] in *.
      assert (S2 : sepd x s2).
      { eapply (sepd_add _ _ _ _ _ x bc s2 (model_val s) H1); auto.
        - intros C HC. apply Tm, in_or_app. auto.
        - intros K. apply (proj1 (blk_true _ _ _)) in K. destruct K as (i & _ & K). congruence. }
      apply (IH _ (option_map pred k) _ (mkMini s2 names (Some true) (mi_states m)) H2 eq_refl S2). }
    destruct k as [[| k] |]; [| exact Body | exact Body]. cbn [rspec fst snd]. split; [exists F; exact H | auto].
  Qed.
  Lemma enumerate_h : forall G rounds fuel ec m, minv G m -> mh [] G m ->
    rspec (enumerate_models mc orc rounds fuel ec m) (fun r => minv G (snd r) /\ mh [] G (snd r) /\ mi_names (snd r) = mi_names m).
  Proof.
    intros G rounds fuel ec m I H. unfold enumerate_models. destruct (save_h G m H) as (x & Ex & Hx & Cx). rewrite Ex. cbn [rbind mi_names]. set (m1 := mkMini _ _ _ _).
    assert (Rl : forall i, In i (idxs (relevant_indices mc ec (mi_names m)) (length (mi_names m))) -> i < length (mi_names m)) by (intros i Hi; apply (rel_spec mc ec (mi_names m) i (n_nd _ _ I)), Hi).
    assert (Al : forall i, In i (idxs (relevant_all mc ec (mi_names m)) (length (mi_names m))) -> i < length (mi_names m)) by (intros i Hi; apply (all_spec mc ec (mi_names m) i (n_nd _ _ I)), Hi).
    eapply rspec_bind; [apply (enum_h fuel (mi_names m) _ _ _ _ x Rl Al rounds _ (ec_max ec) [] m1 Hx eq_refl); apply sepd_here; exact Cx |]. intros [ms m2] ((F' & H2) & N2 & S2 & St2). cbn [fst snd] in *.
    destruct m2 as [s2 n2 r2 t2]. cbn [mi_s mi_names mi_states m1] in *. subst n2 t2.
    eapply rspec_bind; [apply (load_h G fuel (mi_names m) _ (mi_states m) x s2 r2 H2 S2) |].
    intros m3 [M1 M2]. cbn [rspec snd]. split; [| split; [exact M1 | exact M2]]. eapply mh_minv; [exact M1 | rewrite M2; apply I | intros c l Hc Hl; rewrite M2; eapply (n_in _ _ I); eauto].
  Qed.
End Front.

Section State.
  Variables (mc : mconfig) (orc : oracle).
  Hypothesis Hm : g_min (mc_sat mc) <> MinNone.
  Hypothesis So : sorting orc.
  Lemma sat_with_st : forall G fuel asm order m r m', mstate mc G m -> m_sat_with mc orc fuel asm order m = Ok (r, m') -> mstate mc G m'.
  Proof.
    intros G fuel asm order m r m' [I H] E. pose proof (m_sat_with_ok mc orc Hm So G fuel asm order m I) as K. rewrite E in K. split; [apply K |]. intros Inc. exact (sat_with_h mc orc Hm So Inc G fuel asm order m r m' I (H Inc) E).
  Qed.
  Lemma backbone_st : forall G rounds fuel vs t m b m', mstate mc G m -> compute_backbone mc orc rounds fuel vs t m = Ok (b, m') -> mstate mc G m' /\ mi_names m' = mi_names m.
  Proof.
    intros G rounds fuel vs t m b m' [I H] E. destruct (g_incremental (mc_sat mc)) eqn:Inc.
    - pose proof (backbone_h mc orc Hm So Inc G rounds fuel vs t m I (H eq_refl)) as K. rewrite E in K. destruct K as (K1 & K2 & K3). split; [split; auto | exact K3].
    - unfold compute_backbone in E. rewrite Inc in E. pose proof (compute_backbone_ok mc orc rounds fuel G m vs t Hm So I) as K. destruct (s_compute_backbone mc orc rounds fuel (mi_names m) vs t (mi_s m)) as [[c s] | |]; cbn [rbind] in E; try discriminate. inversion E; subst.
      split; [split; [apply K | congruence] | reflexivity].
  Qed.
  Lemma enumerate_st : forall G rounds fuel ec m b m', mstate mc G m -> enumerate_models mc orc rounds fuel ec m = Ok (b, m') -> mstate mc G m' /\ mi_names m' = mi_names m.
  Proof.
    intros G rounds fuel ec m b m' [I H] E. destruct (g_incremental (mc_sat mc)) eqn:Inc.
    - pose proof (enumerate_h mc orc Hm So Inc G rounds fuel ec m I (H eq_refl)) as K. rewrite E in K. destruct K as (K1 & K2 & K3). split; [split; auto | exact K3].
    - unfold enumerate_models, m_save, save_state in E. rewrite Inc in E. discriminate.
  Qed.
End State.
