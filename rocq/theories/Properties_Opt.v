(** C38: optimization on the solver. *)
From Coq Require Import List Arith ZArith NArith Bool Lia Permutation.
From Verif Require Import Base EncodingModel Syntax FactoryModel AssignmentModel CcModel EncBasics CcFrontProofs SatSpec SatModel SatProp SatFront SatState MiniModel MiniProofs EnumProofs OptModel OptProofs
  Properties_Cc Properties_Sat Properties_Mini.
Import ListNotations.
Local Open Scope nat_scope.

(** The number of true literals, by position. *)
Definition score (V : valuation) (lits : list lit) : nat := length (filter (lit_sem V) lits).
(** [sm] assigns a selector variable to each target literal, in any order: distinct ordinary variables which the factory
    knows, and which neither occur on the solver nor in the target literals (see [C38_twice_refuted]). *)
Definition selectors_ok (st : ctrs) (cs : list mcall) (lits : list lit) (sm : list (var * lit)) : Prop :=
  Permutation (map snd sm) lits /\ NoDup (map fst sm) /\
  forall s, In s (map fst sm) -> (exists i, s = VFF i) /\ known_var st s /\ ~ In s (seen_vars cs) /\ ~ In s (map lit_var lits).
(** The variables on the solver and in the literals are known to the factory, the additional variables to the solver. *)
Definition vars_ok (st : ctrs) (cs : list mcall) (lits : list lit) (extra : list var) : Prop :=
  (forall v, In v (seen_vars cs) \/ In v (map lit_var lits) -> known_var st v) /\
  forall v, In v extra -> In v (seen_vars cs) \/ In v (map lit_var lits).

Lemma score_cnt : forall V lits, score V lits = cnt V lits.
Proof. intros V. unfold score. induction lits as [| l r IH]; cbn [filter cnt]; auto. destruct (lit_sem V l); cbn [length]; rewrite IH; reflexivity. Qed.
Lemma cnt_perm : forall V a b, Permutation a b -> cnt V a = cnt V b.
Proof. intros V a b H. induction H; cbn [cnt]; lia. Qed.
Lemma cnt_targets_score : forall mx sm lits V, Permutation (map snd sm) lits -> cnt V (targets mx sm) = if mx then score V lits else length lits - score V lits.
Proof.
  intros mx sm lits V H. rewrite score_cnt, <- (cnt_perm V _ _ H). rewrite <- (Permutation_length H). unfold targets. destruct mx; auto. rewrite <- map_map with (f := snd) (g := lit_negate). pose proof (cnt_neg V (map snd sm)). lia.
Qed.
Lemma score_le : forall V lits, score V lits <= length lits.
Proof. intros V lits. rewrite score_cnt. apply cnt_le. Qed.

Section Main.
  Variables (mc : mconfig) (orc : oracle) (ccfg : cc_config) (rounds fuel : nat) (cs : list mcall) (mx : bool) (lits : list lit) (sm : list (var * lit)) (extra : list var) (st : ctrs).
  Hypothesis Hmin : minimizing (mc_sat mc).
  Hypothesis Heur : heuristics_ok orc.
  Hypothesis Hs : selectors_ok st cs lits sm.
  Hypothesis Hv : vars_ok st cs lits extra.
  Hypothesis Ha : alk_admissible (cfg_alk ccfg) (map fst sm).
  Hypothesis Hn : (N.of_nat (length lits) + 1 < 2 ^ 32)%N.
  Lemma lv_perm : forall v, In v (map (fun p => lit_var (snd p)) sm) <-> In v (map lit_var lits).
  Proof. intros v. destruct Hs as (P & _). rewrite <- map_map with (f := snd) (g := lit_var). split; apply Permutation_in; [| apply Permutation_sym]; apply Permutation_map; exact P. Qed.
  Lemma compute_spec : forall m, minv (clauses_of cs) m -> (forall v, In v (mi_names m) <-> In v (seen_vars cs)) ->
    rspec (opt_compute mc orc ccfg rounds fuel mx sm extra st m) (fun x => let '(r, st', m') := x in
      match r with
      | None => ~ exists V, satisfies V (clauses_of cs)
      | Some md => exists V, satisfies V (clauses_of cs) /\
          (forall V', satisfies V' (clauses_of cs) -> if mx then score V' lits <= score V lits else score V lits <= score V' lits) /\
          forall v, let shown := (In v (map lit_var lits) \/ In v extra) /\ is_relevant mc v = true in
            (In v (m_pos md) <-> shown /\ V v = true) /\ (In v (m_neg md) <-> shown /\ V v = false)
      end).
  Proof.
    intros m I N. assert (Hm' : g_min (mc_sat mc) <> MinNone) by (destruct Hmin; congruence). destruct Hs as (P & Nd & Hf). destruct Hv as (V1 & V2). pose proof (Permutation_length P) as Lp. rewrite map_length in Lp.
    eapply rspec_weak; [apply (opt_compute_ok mc orc ccfg Hm' Heur rounds fuel mx sm extra st m (clauses_of cs) I) |].
    - intros v K. apply V1. left. now apply N.
    - exact Nd.
    - intros s K. destruct (Hf s K) as ((i & ->) & K1 & K2 & K3). split; [now rewrite N |]. split; [now rewrite lv_perm |]. split; [exact K1 | reflexivity].
    - intros v K. apply V1. right. now apply lv_perm.
    - intros v K. destruct (V2 v K) as [K1 | K1]; [left; now apply N | right; now apply lv_perm].
    - now apply alk_adm.
    - rewrite Lp. exact Hn.
    - intros [[[md |] st'] m'].
      + intros (V & S1 & S2 & S3). exists V. split; [exact S1 |]. split.
        * intros V' HV'. specialize (S2 V' HV'). rewrite !(cnt_targets_score mx sm lits) in S2 by exact P. destruct mx; auto. pose proof (score_le V lits). pose proof (score_le V' lits). lia.
        * intros v. cbv zeta. specialize (S3 v). rewrite in_app_iff, lv_perm in S3. exact S3.
      + intros K (V & HV). exact (K V HV).
  Qed.
End Main.

(** For every history, all target literals, all configurations and heuristics: the result is [None] iff the clauses are
    unsatisfiable; otherwise it is the restriction of a model of the clauses, to the variables of the literals and the additional
    variables, in which the number of true literals is maximal (minimal) among all models. *)
Theorem C38_optimize : forall mc orc ccfg rounds fuel cs mx lits sm extra st m r st' m', minimizing (mc_sat mc) -> heuristics_ok orc -> callable mc cs ->
  selectors_ok st cs lits sm -> vars_ok st cs lits extra -> alk_admissible (cfg_alk ccfg) (map fst sm) -> (N.of_nat (length lits) + 1 < 2 ^ 32)%N ->
  mrun mc orc rounds fuel cs = Ok m -> optimize mc orc ccfg rounds fuel mx sm extra st m = Ok (r, st', m') ->
  match r with
  | None => ~ exists V, satisfies V (clauses_of cs)
  | Some md => exists V, satisfies V (clauses_of cs) /\
      (forall V', satisfies V' (clauses_of cs) -> if mx then score V' lits <= score V lits else score V lits <= score V' lits) /\
      forall v, let shown := (In v (map lit_var lits) \/ In v extra) /\ is_relevant mc v = true in
        (In v (m_pos md) <-> shown /\ V v = true) /\ (In v (m_neg md) <-> shown /\ V v = false)
  end.
Proof.
  intros mc orc ccfg rounds fuel cs mx lits sm extra st m r st' m' Hm So NR Hs Hv Ha Hn R E.
  pose proof (mrun_ok mc orc rounds fuel Hm So cs NR) as K. rewrite R in K. destruct K as [[I _] N]. unfold optimize in E. destruct (g_incremental (mc_sat mc)).
  - destruct (m_save mc m) as [[i m1] | |] eqn:Es; cbn [rbind] in E; try discriminate.
    assert (I1 : minv (clauses_of cs) m1 /\ mi_names m1 = mi_names m).
    { unfold m_save in Es. destruct (save_state (mc_sat mc) (mi_s m)); cbn [rbind] in Es; try discriminate. inversion Es; subst. split; [apply (minv_other _ m (mi_res m) (mi_states m ++ [a])); exact I | reflexivity]. }
    destruct I1 as [I1 N1]. pose proof (compute_spec mc orc ccfg rounds fuel cs mx lits sm extra st Hm So Hs Hv Ha Hn m1 I1) as P. rewrite N1 in P. specialize (P N).
    destruct (opt_compute mc orc ccfg rounds fuel mx sm extra st m1) as [[[r1 s1] m2] | |]; cbn [rbind] in E; try discriminate. destruct (m_load mc orc fuel i m2) as [m3 | |]; cbn [rbind] in E; try discriminate. inversion E; subst. exact P.
  - pose proof (compute_spec mc orc ccfg rounds fuel cs mx lits sm extra st Hm So Hs Hv Ha Hn m I N) as P. rewrite E in P. exact P.
Qed.
Print Assumptions C38_optimize.
Theorem C38_no_panic : forall mc orc ccfg rounds fuel cs mx lits sm extra st m, minimizing (mc_sat mc) -> heuristics_ok orc -> callable mc cs ->
  selectors_ok st cs lits sm -> vars_ok st cs lits extra -> alk_admissible (cfg_alk ccfg) (map fst sm) -> (N.of_nat (length lits) + 1 < 2 ^ 32)%N ->
  mrun mc orc rounds fuel cs = Ok m -> g_incremental (mc_sat mc) = false -> optimize mc orc ccfg rounds fuel mx sm extra st m <> Panic.
Proof.
  intros mc orc ccfg rounds fuel cs mx lits sm extra st m Hm So NR Hs Hv Ha Hn R Hi E. pose proof (mrun_ok mc orc rounds fuel Hm So cs NR) as K. rewrite R in K. destruct K as [[I _] N].
  unfold optimize in E. rewrite Hi in E. pose proof (compute_spec mc orc ccfg rounds fuel cs mx lits sm extra st Hm So Hs Hv Ha Hn m I N) as P. rewrite E in P. exact P.
Qed.
Print Assumptions C38_no_panic.

(** Four variables, at most two of them true; [x4] unconstrained. *)
Definition ex_ohist : list mcall := [MVars [VFF 4]; MAdd [xn 2; xn 3]; MAdd [xn 0; xn 1; xn 2]; MAdd [xn 1; xn 3]; MAdd [xp 0; xp 1]; MAdd [xn 0; xn 3]].
Definition ex_lits : list lit := [xp 0; xp 1; xp 2; xp 3; xn 4].
Definition ex_sm : list (var * lit) := combine [VFF 50; VFF 51; VFF 52; VFF 53; VFF 54] ex_lits.
Definition ores (r : res (option smodel * ctrs * mini)) : option (option smodel) := match r with Ok (x, _, _) => Some x | _ => None end.
Example ex_C38_hypotheses : selectors_ok st0 ex_ohist ex_lits ex_sm /\ vars_ok st0 ex_ohist ex_lits [VFF 3] /\ alk_admissible (cfg_alk default_cc) (map fst ex_sm).
Proof.
  split; [| split].
  - split; [apply Permutation_refl |]. split; [cbn; repeat constructor; cbn; intuition discriminate |]. intros s Hs. cbn in Hs. intuition (subst; try (eexists; reflexivity); try (cbn; lia); cbn in *; intuition discriminate).
  - split; [intros v Hv; cbn in Hv; intuition (subst; cbn; lia) | intros v Hv; cbn in *; intuition (subst; auto)].
  - intros K. discriminate K.
Qed.
Example ex_C38_max : ores (after (ex_mc false) ex_orc 50 200 ex_ohist (optimize (ex_mc false) ex_orc default_cc 50 200 true ex_sm [] st0)) = Some (Some (mkModel [VFF 1; VFF 2] [VFF 0; VFF 3; VFF 4])).
Proof. vm_compute. reflexivity. Qed.
Example ex_C38_min : ores (after (ex_mc true) ex_orc 50 200 ex_ohist (optimize (ex_mc true) ex_orc default_cc 50 200 false ex_sm [VFF 3] st0)) = Some (Some (mkModel [VFF 0; VFF 4] [VFF 1; VFF 2; VFF 3])).
Proof. vm_compute. reflexivity. Qed.
Definition second (o : ctrs -> mini -> res (option smodel * ctrs * mini)) (st : ctrs) (m : mini) : res (option smodel * ctrs * mini) :=
  rbind (o st m) (fun x => match x with (Some _, st1, m1) => o st1 m1 | _ => Panic end).
Lemma second_get : forall mc orc rounds fuel cs o st, ores (after mc orc rounds fuel cs (second o st)) = Some None ->
  exists m r1 st1 m1 st2 m2, mrun mc orc rounds fuel cs = Ok m /\ o st m = Ok (Some r1, st1, m1) /\ o st1 m1 = Ok (None, st2, m2).
Proof.
  intros mc orc rounds fuel cs o st. unfold after, second. destruct (mrun mc orc rounds fuel cs) as [m | |]; cbn [rbind]; try discriminate.
  destruct (o st m) as [[[[r1 |] st1] m1] | |] eqn:E1; cbn [rbind]; try discriminate. destruct (o st1 m1) as [[[[r2 |] st2] m2] | |] eqn:E2; cbn [ores]; try discriminate. intros _. exists m, r1, st1, m1, st2, m2. auto.
Qed.
(** Without the incremental mode, the clauses of a first call stay on the solver: a second call fails although the clauses are
    satisfiable. *)
Theorem C38_twice_refuted : exists mc orc ccfg rounds fuel cs mx sm st m r1 st1 m1 st2 m2, minimizing (mc_sat mc) /\ heuristics_ok orc /\ callable mc cs /\ mrun mc orc rounds fuel cs = Ok m /\
  (exists V, satisfies V (clauses_of cs)) /\ optimize mc orc ccfg rounds fuel mx sm [] st m = Ok (Some r1, st1, m1) /\ optimize mc orc ccfg rounds fuel mx sm [] st1 m1 = Ok (None, st2, m2).
Proof.
  assert (K : ores (after (ex_mc false) ex_orc 50 200 ex_ohist (second (optimize (ex_mc false) ex_orc default_cc 50 200 true ex_sm []) st0)) = Some None) by (vm_compute; reflexivity).
  destruct (second_get _ _ _ _ _ _ _ K) as (m & r1 & st1 & m1 & st2 & m2 & K1 & K2 & K3).
  exists (ex_mc false), ex_orc, default_cc, 50, 200, ex_ohist, true, ex_sm, st0, m, r1, st1, m1, st2, m2.
  split; [right; reflexivity |]. split; [apply ex_orc_ok |]. split; [right; intros ec Q; cbn in Q; intuition discriminate |]. split; [exact K1 |]. split; [| split; [exact K2 | exact K3]].
  exists (fun v => var_eqb v (VFF 0)). intros c Hc. cbn in Hc. destruct Hc as [<- | [<- | [<- | [<- | [<- | []]]]]]; [exists (xn 2) | exists (xn 1) | exists (xn 1) | exists (xp 0) | exists (xn 3)]; cbn; auto.
Qed.
Print Assumptions C38_twice_refuted.
