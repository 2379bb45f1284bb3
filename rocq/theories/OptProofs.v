(** Proofs about the optimization function (OptModel.v). *)
From Coq Require Import List Arith ZArith NArith Bool Lia.
From Verif Require Import Base Vec EncodingModel Syntax FactoryModel FactoryBasics AssignmentModel CacheModel CcModel EncBasics AmoProofs CcFrontProofs
  SatSpec SatModel SatProp SatDb SatFront SatState MiniModel MiniProofs EnumProofs OptModel.
Import ListNotations.
Local Open Scope nat_scope.

(** ** Encoders on the solver *)
Lemma fresh_old : forall st st' v, fresh st st' v -> ~ old st v.
Proof. intros st st' [i | a i]; cbn; [tauto | lia]. Qed.
Lemma aux_of_in : forall st st' a v, In v (aux_of st st' a) -> fresh st st' v /\ exists i, v = VAux a i.
Proof. intros st st' a v H. apply in_map_iff in H. destruct H as (i & <- & H). apply in_seq in H. split; [cbn; lia | eauto]. Qed.
Lemma aux_between_in : forall st st' v, In v (aux_between st st') -> fresh st st' v.
Proof. intros st st' v H. unfold aux_between in H. apply in_app_iff in H. destruct H as [H | H]; [eapply aux_of_in; eauto |]. apply in_app_iff in H. destruct H; eapply aux_of_in; eauto. Qed.
Lemma aux_of_nd : forall st st' a, NoDup (aux_of st st' a).
Proof. intros st st' a. unfold aux_of. apply FinFun.Injective_map_NoDup; [intros i j E; inversion E; lia | apply seq_NoDup]. Qed.
Lemma nodup_app2 : forall A (l r : list A), NoDup l -> NoDup r -> (forall x, In x l -> ~ In x r) -> NoDup (l ++ r).
Proof.
  induction l as [| x l IH]; intros r Hl Hr H; cbn [app]; auto. apply NoDup_cons_iff in Hl. destruct Hl as [H1 H2]. constructor.
  - intros K. apply in_app_iff in K. destruct K as [K | K]; [contradiction | exact (H x (or_introl eq_refl) K)].
  - apply IH; auto. intros y Hy. apply H. now right.
Qed.
Lemma aux_between_nd : forall st st', NoDup (aux_between st st').
Proof.
  intros st st'. unfold aux_between. apply nodup_app2; [apply aux_of_nd | apply nodup_app2; [apply aux_of_nd | apply aux_of_nd |] |].
  - intros x H1 H2. apply aux_of_in in H1, H2. destruct H1 as (_ & i & ->), H2 as (_ & j & E). discriminate.
  - intros x H1 H2. apply aux_of_in in H1. destruct H1 as (_ & i & ->). apply in_app_iff in H2. destruct H2 as [H2 | H2]; apply aux_of_in in H2; destruct H2 as (_ & j & E); discriminate.
Qed.

Section Opt.
  Variables (mc : mconfig) (orc : oracle) (ccfg : cc_config).
  Hypothesis Hm : g_min (mc_sat mc) <> MinNone.
  Hypothesis So : sorting orc.

  Lemma m_push_ok : forall G fuel c m, minv G m -> rspec (m_push mc fuel c m) (fun m' => minv (c :: G) m' /\ extends m m' /\ forall v, In v (mi_names m') -> In v (mi_names m) \/ In v (map lit_var c)).
  Proof.
    intros G fuel c m I. unfold m_push. destruct (generate_clause_vec_ok mc G c m I) as (m1 & E & I1 & L & X). rewrite E. cbn [rbind].
    eapply rspec_bind; [apply (add_clause_ok (mc_sat mc) (encs (mi_names m1) G)); [exact (n_g _ _ I1) |] |].
    - intros l Hl. apply in_map_iff in Hl. destruct Hl as (x & <- & Hx). rewrite <- (n_len _ _ I1). apply enc_lt. auto.
    - intros [b s] (G1 & L1 & _). cbn [fst snd rspec] in *. split; [| split; [exact X |]].
      + constructor; cbn [mi_s mi_names].
        * exact (n_nd _ _ I1).
        * rewrite L1. exact (n_len _ _ I1).
        * intros x l [<- | Hx] Hl; [auto | exact (n_in _ _ I1 x l Hx Hl)].
        * exact G1.
      + intros v Hv. cbn [mi_names] in Hv. now apply (gvec_names mc c m _ _ E v).
  Qed.
  Lemma m_pushes_ok : forall fuel cls G m, minv G m -> rspec (m_pushes mc fuel cls m) (fun m' => minv (rev cls ++ G) m' /\ extends m m' /\ forall v, In v (mi_names m') -> In v (mi_names m) \/ exists c l, In c cls /\ In l c /\ lit_var l = v).
  Proof.
    intros fuel. induction cls as [| c r IH]; intros G m I; cbn [m_pushes rev]; [split; [exact I |]; split; [apply extends_refl | tauto] |].
    eapply rspec_bind; [apply (m_push_ok G fuel c m I) |]. intros m1 (I1 & X1 & N1). pose proof (IH (c :: G) m1 I1) as K. destruct (m_pushes mc fuel r m1) as [m2 | |]; auto. destruct K as (I2 & X2 & N2). split; [now rewrite <- app_assoc |].
    split; [eapply extends_trans; eauto |]. intros v Hv. destruct (N2 v Hv) as [K | (c' & l & H1 & H2 & H3)]; [| right; exists c', l; cbn; auto].
    destruct (N1 v K) as [K1 | K1]; auto. right. apply in_map_iff in K1. destruct K1 as (l & E & Hl). exists c, l. cbn. auto.
  Qed.
  Lemma m_register_ok : forall G v m, minv G m -> ~ In v (mi_names m) -> exists m', m_register mc v m = Ok m' /\ minv G m' /\ extends m m' /\ mi_names m' = mi_names m ++ [v].
  Proof.
    intros G v m I N. unfold m_register. destruct (new_var_ok _ (mc_phase mc) (mi_s m) (n_g _ _ I)) as (s & Es & Gs & Ls & _). rewrite Es. cbn [rbind]. eexists. split; [reflexivity |]. split; [| split; [| reflexivity]].
    - constructor; cbn [mi_names mi_s].
      + apply nodup_snoc; [exact (n_nd _ _ I) | exact N].
      + rewrite app_length, (n_len _ _ I), Ls. cbn. lia.
      + intros c x Hc Hx. apply in_or_app. left. eapply n_in; eauto.
      + rewrite encs_app by (exact (n_in _ _ I)). exact Gs.
    - split; [exists [v]; reflexivity | auto].
  Qed.
  Lemma m_registers_ok : forall G vs m, minv G m -> NoDup vs -> (forall v, In v vs -> ~ In v (mi_names m)) -> exists m', m_registers mc vs m = Ok m' /\ minv G m' /\ extends m m' /\ mi_names m' = mi_names m ++ vs.
  Proof.
    intros G. induction vs as [| v r IH]; intros m I Nd Nn; cbn [m_registers]; [exists m; rewrite app_nil_r; split; auto; split; auto; split; [apply extends_refl | reflexivity] |].
    apply NoDup_cons_iff in Nd. destruct Nd as [Nd1 Nd2]. destruct (m_register_ok G v m I (Nn v (or_introl eq_refl))) as (m1 & E1 & I1 & X1 & N1). rewrite E1. cbn [rbind].
    destruct (IH m1 I1 Nd2) as (m2 & E2 & I2 & X2 & N2).
    - intros w Hw K. rewrite N1 in K. apply in_app_iff in K. destruct K as [K | [<- | []]]; [exact (Nn w (or_intror Hw) K) | contradiction].
    - exists m2. split; auto. split; auto. split; [eapply extends_trans; eauto |]. rewrite N2, N1, <- app_assoc. reflexivity.
  Qed.
  Definition owned (st : ctrs) (m : mini) : Prop := forall v, In v (mi_names m) -> old st v.
  Lemma m_encode_ok : forall A (g : G A) post F fuel st m, minv F m -> owned st m -> runs st g post ->
    rspec (m_encode mc fuel g st m) (fun x => let '(r, st', m') := x in exists cls, post r st' cls /\ cle st st' /\ bounded st' cls /\ minv (rev cls ++ F) m' /\ extends m m' /\ owned st' m').
  Proof.
    intros A g post F fuel st m I Ow (r & st' & cls & E & L & B & P). unfold m_encode. rewrite E. cbn [rbind].
    destruct (m_registers_ok F (aux_between st st') m I (aux_between_nd st st')) as (m1 & E1 & I1 & X1 & N1).
    { intros v Hv K. apply aux_between_in in Hv. apply (fresh_old _ _ _ Hv). now apply Ow. }
    rewrite E1. cbn [rbind]. eapply rspec_bind; [apply (m_pushes_ok fuel cls F m1 I1) |]. intros m2 (I2 & X2 & N2). cbn [rspec]. exists cls. split; [exact P |]. split; [exact L |]. split; [exact B |]. split; [exact I2 |].
    split; [eapply extends_trans; eauto |].
    intros v Hv. destruct (N2 v Hv) as [K | (c & l & Hc & Hl & <-)]; [| exact (B c Hc l Hl)]. rewrite N1 in K. apply in_app_iff in K. destruct K as [K | K]; [eapply old_mono; [exact L | now apply Ow] |].
      apply aux_between_in in K. destruct v as [i | a i]; cbn in *; [contradiction | lia].
  Qed.
  Lemma lower_step : forall xs st0 st d cls r, lb_inv xs st0 st cls d -> inc_rhs d < r -> r <= length xs ->
    runs st (new_lower_bound d r) (fun d' st' c => st' = st /\ inc_rhs d' = r /\ lb_inv xs st0 st (cls ++ c) d').
  Proof.
    intros xs st0 st d cls r Hi H1 H2. destruct (lower_bounds_ok xs st0 st [r] d cls Hi) as (d' & st' & c & E & L & B & -> & R & K); [cbn; auto | intros x [<- | []]; exact H2 |].
    cbn [lower_bounds] in E. unfold gbind in E. destruct (new_lower_bound d r st) as [[[d1 s1] c1] | |] eqn:En; try discriminate. unfold gret in E. inversion E; subst. rewrite app_nil_r in *.
    exists d', st, c1. cbn [last] in R. auto 10.
  Qed.

  Lemma m_add_clause_names : forall G fuel c m, minv G m -> rspec (m_add_clause mc fuel c m) (fun m' => minv (c :: G) m' /\ (exists ext, mi_names m' = mi_names m ++ ext) /\ forall v, In v (mi_names m') <-> In v (mi_names m) \/ In v (map lit_var c)).
  Proof.
    intros G fuel c m I. pose proof (m_add_clause_ok mc G fuel c m I) as K. unfold m_add_clause in *.
    destruct (generate_clause_vec_ok mc G c _ (minv_other G m None (mi_states m) I)) as (m1 & E & _ & _ & X & _). rewrite E in *. cbn [rbind] in *.
    destruct (add_clause (mc_sat mc) fuel _ (mi_s m1)) as [[b s] | |]; auto. cbn [rbind rspec] in *. split; [exact K |]. split; [exact X |]. intros v. exact (gvec_names mc c _ _ _ E v).
  Qed.
  Lemma m_add_ge_ok : forall F fuel vs st m, minv F m -> owned st m -> olds st (map plit vs) -> alk_cfg_ok (cfg_alk ccfg) (map plit vs) ->
    rspec (m_add_ge mc ccfg fuel 1 vs st m) (fun x => let '(st1, m2) := x in exists cls, cle st st1 /\ bounded st1 cls /\ minv (rev cls ++ F) m2 /\ owned st1 m2 /\ (exists ext, mi_names m2 = mi_names m ++ ext) /\
      (forall V, sat V cls -> 1 <= cnt V (map plit vs)) /\ (forall V, 1 <= cnt V (map plit vs) -> exists V', agree st st1 V V' /\ sat V' cls)).
  Proof.
    intros F fuel vs st m I Ow Ox Hc. unfold m_add_ge. destruct vs as [| v0 vr].
    - cbn [N.eqb]. eapply rspec_bind; [apply (m_add_clause_names F fuel [] m I) |]. intros m2 (I2 & X2 & N2). cbn [rspec]. exists [[]]. split; [apply cle_refl |]. split; [intros c [<- | []]; apply olds_nil |]. split; [exact I2 |].
      split; [intros v Hv; apply N2 in Hv; destruct Hv as [Hv | []]; auto |]. split; [exact X2 |]. split; [intros V HV; destruct (HV [] (or_introl eq_refl)) as (l & [] & _) | cbn; intros V HV; lia].
    - set (vs := v0 :: vr) in *. set (m0 := mkMini (mi_s m) (mi_names m) None (mi_states m)). assert (I0 : minv F m0) by now apply minv_other.
      assert (Rn : runs st (encode_cc ccfg (mkCc vs GE 1)) (fun _ st' cls => (forall V, sat V cls -> 1 <= cnt V (map plit vs)) /\ (forall V, 1 <= cnt V (map plit vs) -> exists V', agree st st' V V' /\ sat V' cls))).
      { cbn [encode_cc cc_cmp cc_vars cc_rhs]. eapply runs_bind; [apply (enc_alk_ok ccfg (map plit vs) 1 false st Ox Hc) |]. intros od st' cls L Bd [H1 H2]. apply runs_ret. rewrite app_nil_r. split; [intros V HV; specialize (H1 V HV); lia |]. intros V HV. apply H2. lia. }
      eapply rspec_bind; [exact (m_encode_ok _ _ _ _ fuel st m0 I0 Ow Rn) |]. intros [[r st1] m1] (cls & (Q1 & Q2) & L & Bc & I1 & (X1 & _) & Ow1).
      destruct (m_add_variables_ok mc _ vs m1 I1) as (m2 & E2 & I2 & (X2 & _) & _). pose proof E2 as E3. unfold m_add_variables in E3. destruct (generate_clause_vec mc _ m1) as [[ps m3] | |] eqn:Eg in E3; cbn [rbind] in E3; try discriminate. inversion E3; subst m3.
      rewrite E2. cbn [rbind rspec]. exists cls. split; [exact L |]. split; [exact Bc |]. split; [exact I2 |]. split; [| split; [| auto]].
      + intros v Hv. apply (gvec_names mc _ _ _ _ Eg) in Hv. destruct Hv as [Hv | Hv]; [now apply Ow1 |]. rewrite map_map in Hv. cbn [lit_var] in Hv. rewrite map_id in Hv. eapply old_mono; [exact L |]. apply (Ox (plit v)). now apply in_map.
      + destruct X1 as (e1 & X1), X2 as (e2 & X2). exists (e1 ++ e2). rewrite X2, X1, <- app_assoc. reflexivity.
  Qed.

  (** ** The search *)
  Variables (sels : list var) (st0 : ctrs) (B : list (list lit)) (N0 : list var).
  Let xs := map plit sels.
  Hypothesis Hsel : forall v, In v sels -> In v N0 /\ is_relevant mc v = true.
  Hypothesis HB : forall c l, In c B -> In l c -> In (lit_var l) N0.
  Hypothesis HN0 : forall v, In v N0 -> old st0 v.
  Hypothesis Hcfg : alk_cfg_ok (cfg_alk ccfg) xs.
  Hypothesis Hlen : (N.of_nat (length sels) + 1 < 2 ^ 32)%N.

  Lemma xs_old : olds st0 xs.
  Proof. intros l Hl. unfold xs in Hl. apply in_map_iff in Hl. destruct Hl as (v & <- & Hv). apply HN0. now apply Hsel. Qed.
  Lemma B_bounded : bounded st0 B.
  Proof. intros c Hc l Hl. apply HN0. eauto. Qed.

  Lemma incl_names : forall m m', (exists ext, mi_names m' = mi_names m ++ ext) -> incl N0 (mi_names m) -> incl N0 (mi_names m').
  Proof. intros m m' (ext & E) H v Hv. rewrite E. apply in_or_app. left. auto. Qed.
  Definition imok (nm : list var) (im : list bool) (bound : nat) : Prop :=
    exists nm0 ext, nm = nm0 ++ ext /\ length im = length nm0 /\ incl N0 nm0 /\ NoDup nm0 /\ sat (nval nm0 (fun i => nth i im false)) B /\ cnt (nval nm0 (fun i => nth i im false)) xs = bound.
  Lemma imok_ext : forall nm ext im bound, imok nm im bound -> imok (nm ++ ext) im bound.
  Proof. intros nm ext im bound (nm0 & e & -> & H). exists nm0, (e ++ ext). split; [symmetry; apply app_assoc | exact H]. Qed.
  Lemma imok_names : forall m m' im bound, (exists ext, mi_names m' = mi_names m ++ ext) -> imok (mi_names m) im bound -> imok (mi_names m') im bound.
  Proof. intros m m' im bound (ext & E) H. rewrite E. now apply imok_ext. Qed.
  Lemma count_idx : forall names W vs, NoDup names -> (forall v, In v vs -> In v names /\ is_relevant mc v = true) ->
    length (filter (fun i => is_relevant mc (nth i names dv) && W i) (known_idx names vs)) = cnt (nval names W) (map plit vs).
  Proof.
    intros names W vs Nd. induction vs as [| v r IH]; intros H; cbn [known_idx flat_map map cnt]; auto. destruct (H v (or_introl eq_refl)) as [H1 H2]. destruct (idx_in names v H1) as (i & Ei & Li & En). rewrite Ei. cbn [app filter].
    rewrite En, H2. cbn [andb]. assert (Es : lit_sem (nval names W) (plit v) = W i) by (cbn; unfold nval; now rewrite Ei). rewrite Es. change (flat_map _ r) with (known_idx names r). destruct (W i); cbn [length]; rewrite IH by (intros w Hw; apply H; now right); reflexivity.
  Qed.
  Lemma current_ok : forall m, NoDup (mi_names m) -> incl N0 (mi_names m) -> mi_res m = Some true -> length (s_model (mi_s m)) = length (mi_names m) ->
    current mc sels m = Ok (s_model (mi_s m), cnt (mvals m) xs).
  Proof.
    intros m Nd Inc Rs Ln. unfold current, m_model. rewrite Rs. cbn [option_map]. rewrite create_assignment_ok; auto.
    - cbn [rbind of_opt asgn m_pos]. rewrite map_length. cbn [idxs]. change (fun i => nth i (s_model (mi_s m)) false) with (model_val (mi_s m)). rewrite count_idx; auto. intros v Hv. destruct (Hsel v Hv). split; auto.
    - intros i Hi. cbn [idxs] in Hi. rewrite Ln. eapply known_idx_lt; eauto.
  Qed.
  Lemma current_im : forall m, NoDup (mi_names m) -> incl N0 (mi_names m) -> length (s_model (mi_s m)) = length (mi_names m) -> sat (mvals m) B -> imok (mi_names m) (s_model (mi_s m)) (cnt (mvals m) xs).
  Proof. intros m Nd Inc Ln S1. exists (mi_names m), []. split; [symmetry; apply app_nil_r |]. split; [exact Ln |]. split; [exact Inc |]. split; [exact Nd |]. split; [exact S1 | reflexivity]. Qed.

  Definition best (bound : nat) : Prop := forall V, sat V B -> cnt V xs <= bound.
  Definition optimal (m : mini) (im : list bool) : Prop := incl N0 (mi_names m) /\ exists bound, imok (mi_names m) im bound /\ best bound.
  (** [cls] is exact for at least [k] true selectors. *)
  Definition geq (st st' : ctrs) (cls : list (list lit)) (k : nat) : Prop :=
    (forall V, sat V cls -> k <= cnt V xs) /\ (forall V, k <= cnt V xs -> exists V', agree st st' V V' /\ sat V' cls).
  (** The clauses before the incremental constraint: complete for valuations with at least [k] true selectors. *)
  Definition pre (st1 : ctrs) (G1 : list (list lit)) (k : nat) : Prop :=
    cle st0 st1 /\ bounded st1 G1 /\ (forall V, sat V G1 -> sat V B) /\ forall V, sat V B -> k <= cnt V xs -> exists V', agree st0 st1 V V' /\ sat V' G1.
  Lemma sat_rev : forall V cls G1, sat V (rev cls ++ G1) <-> sat V cls /\ sat V G1.
  Proof.
    intros V cls G1. rewrite sat_app. split; intros [H1 H2]; (split; [| exact H2]); intros c Hc; apply H1; [now apply in_rev in Hc | now apply in_rev].
  Qed.
  Lemma pre_geq : forall st1 st2 G1 cls k k', pre st1 G1 k -> cle st1 st2 -> geq st1 st2 cls k' -> k <= k' ->
    forall V, sat V B -> k' <= cnt V xs -> exists V', agree st0 st2 V V' /\ sat V' (rev cls ++ G1).
  Proof.
    intros st1 st2 G1 cls k k' (L1 & B1 & P1 & P2) L2 (Q1 & Q2) Lk V HV Hc. destruct (P2 V HV) as (V1 & A1 & S1); [lia |].
    destruct (Q2 V1) as (V2 & A2 & S2); [rewrite (agree_cnt _ _ _ _ xs A1 xs_old); lia |]. exists V2. split; [eapply agree_trans; eauto |]. apply sat_rev. split; auto. eapply agree_sat; eauto.
  Qed.
  Lemma best_full : best (length sels).
  Proof. intros V _. pose proof (cnt_le V xs) as K. unfold xs in *. now rewrite map_length in K. Qed.
  Lemma opt_loop_ok : forall fuel rounds d im bound st1 G1 st cls m k0, pre st1 G1 k0 -> k0 <= S bound -> cle st1 st -> bounded st cls -> geq st1 st cls (S bound) ->
    (match d with None => length sels <= S bound | Some d => inc_rhs d = S bound /\ lb_inv xs st1 st cls d end) ->
    minv (rev cls ++ G1) m -> owned st m -> incl N0 (mi_names m) -> imok (mi_names m) im bound ->
    rspec (opt_loop mc orc rounds fuel sels d im st m) (fun x => let '(im', st', m') := x in optimal m' im' /\ exists G', minv G' m').
  Proof.
    intros fuel. induction rounds as [| rn IH]; intros d im bound st1 G1 st cls m k0 Pr Lk L Bd Ge Hd I Ow Inc Im; cbn [opt_loop]; [exact Logic.I |].
    eapply rspec_bind; [apply (m_sat_ok mc orc Hm So _ fuel m I) |]. intros [r m1] ((I1 & Rs & An) & N1 & _). cbn [fst snd] in *.
    assert (Inc1 : incl N0 (mi_names m1)) by now rewrite N1. assert (Im1 : imok (mi_names m1) im bound) by now rewrite N1.
    destruct r.
    - destruct An as (S1 & _ & Ln). change (satisfies (mvals m1) (rev cls ++ G1)) with (sat (mvals m1) (rev cls ++ G1)) in S1. apply sat_rev in S1. destruct S1 as [S1 S2]. pose proof (proj1 Ge _ S1) as Gb.
      assert (SB : sat (mvals m1) B) by (apply Pr; exact S2). pose proof (n_nd _ _ I1) as Nd. rewrite current_ok by auto. cbn [rbind]. set (b1 := cnt (mvals m1) xs) in *.
      assert (Im2 : imok (mi_names m1) (s_model (mi_s m1)) b1) by (apply current_im; auto). assert (Lb : b1 <= length sels) by (apply best_full; exact SB).
      destruct (Nat.eqb_spec b1 (length sels)) as [E | E].
      + cbn [rspec]. split; [| eauto]. split; [exact Inc1 |]. exists b1. split; [exact Im2 |]. rewrite E. apply best_full.
      + destruct d as [d |]; [| lia]. destruct Hd as [Hr Hi]. cbn [of_opt rbind]. unfold next_rhs. assert (X : (N.of_nat b1 + 1 <? 2 ^ 32)%N = true) by (apply N.ltb_lt; lia). rewrite X. cbn [rbind].
        assert (Ow1 : owned st m1) by (intros v Hv; apply Ow; now rewrite <- N1).
        assert (Rn : runs st (new_lower_bound d (S b1)) (fun d' st' c => st' = st /\ inc_rhs d' = S b1 /\ lb_inv xs st1 st (cls ++ c) d')) by (apply lower_step; [exact Hi | lia | unfold xs; rewrite map_length; lia]).
        eapply rspec_bind; [exact (m_encode_ok _ _ _ _ fuel st m1 I1 Ow1 Rn) |]. intros [[d' st'] m2] (c & (-> & Hr' & Hi') & _ & Bc & I2 & X2 & Ow2).
        apply (IH (Some d') (s_model (mi_s m1)) b1 st1 G1 st (cls ++ c) m2 k0); auto; [lia | now apply bounded_app | | | | ].
        * destruct (inc_inv_exact _ _ _ _ _ _ _ _ Hi') as [Q1 Q2]. rewrite Hr' in Q1, Q2. split; [exact Q1 | exact Q2].
        * rewrite rev_app_distr, <- app_assoc. exact I2.
        * eapply incl_names; [apply X2 | auto].
        * eapply imok_names; [apply X2 | auto].
    - cbn [rspec]. split; [| eauto]. split; [exact Inc1 |]. exists bound. split; [exact Im1 |]. intros V HV. destruct (le_lt_dec (cnt V xs) bound) as [Le | Gt]; auto. exfalso.
      destruct (pre_geq st1 st G1 cls k0 (S bound) Pr L Ge Lk V HV Gt) as (V' & _ & S'). exact (An V' S' (fun a (K : In a []) => match K with end)).
  Qed.
  Lemma runs_and : forall A st (g : G A) P Q, runs st g P -> runs st g Q -> runs st g (fun a s c => P a s c /\ Q a s c).
  Proof. intros A st g P Q (a & s & c & E & L & Bd & H) (a' & s' & c' & E' & _ & _ & H'). rewrite E in E'. inversion E'; subst. exists a', s', c'. auto. Qed.
  Lemma opt_go_ok : forall fuel rounds im bound st1 G1 m k0, pre st1 G1 k0 -> k0 <= S bound -> 1 <= bound -> bound <= length sels -> minv G1 m -> owned st1 m -> incl N0 (mi_names m) -> imok (mi_names m) im bound ->
    rspec (do k <- next_rhs bound; do ' (d, st2, m1) <- m_add_incremental_cc mc ccfg fuel (mkCc sels GE (N.of_nat k)) st1 m; do ' (im1, st3, m2) <- opt_loop mc orc rounds fuel sels d im st2 m1; Ok (Some im1, st3, m2))
      (fun x => let '(im', st', m') := x in match im' with Some im' => optimal m' im' | None => False end /\ exists G', minv G' m').
  Proof.
    intros fuel rounds im bound st1 G1 m k0 Pr Lk Lb1 Lb I Ow Inc Im. unfold next_rhs. assert (X : (N.of_nat bound + 1 <? 2 ^ 32)%N = true) by (apply N.ltb_lt; lia). rewrite X. cbn [rbind].
    assert (Ox : olds st1 xs) by (eapply olds_mono; [apply Pr | apply xs_old]).
    unfold m_add_incremental_cc. cbn [encode_cc_inc cc_cmp cc_vars cc_rhs].
    pose proof (runs_and _ _ _ _ _ (enc_alk_ok ccfg xs (N.of_nat (S bound)) true st1 Ox Hcfg) (enc_alk_inc ccfg xs (N.of_nat (S bound)) st1 Ox Hcfg)) as Rn.
    eapply rspec_bind; [exact (m_encode_ok _ _ _ _ fuel st1 m I Ow Rn) |]. intros [[d st2] m1] (cls & ((Q1 & Q2) & Q3) & L & Bc & I1 & X1 & Ow1).
    eapply rspec_bind; [apply (opt_loop_ok fuel rounds d im bound st1 G1 st2 cls m1 k0); auto |].
    - split; [intros V HV; specialize (Q1 V HV); lia |]. intros V HV. apply Q2. lia.
    - destruct d as [d |]; [destruct Q3 as (E & _ & H); rewrite Nat2N.id in E; auto |]. unfold xs in Q3. rewrite map_length in Q3. lia.
    - eapply incl_names; [apply X1 | auto].
    - eapply imok_names; [apply X1 | auto].
    - intros [[im1 st3] m2] [H1 H2]. cbn [rspec]. auto.
  Qed.
  Lemma opt_search_ok : forall fuel rounds m, minv B m -> owned st0 m -> incl N0 (mi_names m) ->
    rspec (opt_search mc orc ccfg rounds fuel sels st0 m) (fun x => let '(im, st', m') := x in
      match im with Some im => optimal m' im | None => forall V, ~ sat V B end /\ exists G', minv G' m').
  Proof.
    intros fuel rounds m I Ow Inc. unfold opt_search. eapply rspec_bind; [apply (m_sat_ok mc orc Hm So _ fuel m I) |]. intros [r m1] ((I1 & Rs & An) & N1 & _). cbn [fst snd] in *.
    assert (Inc1 : incl N0 (mi_names m1)) by now rewrite N1. assert (Ow1 : owned st0 m1) by (intros v Hv; apply Ow; now rewrite <- N1).
    destruct r; [| cbn [rspec]; split; [intros V HV; exact (An V HV (fun a (K : In a []) => match K with end)) | eauto]].
    destruct An as (S1 & _ & Ln). change (satisfies (mvals m1) B) with (sat (mvals m1) B) in S1. pose proof (n_nd _ _ I1) as Nd. rewrite current_ok by auto. cbn [rbind]. set (b1 := cnt (mvals m1) xs) in *.
    assert (Im1 : imok (mi_names m1) (s_model (mi_s m1)) b1) by (apply current_im; auto). assert (Lb : b1 <= length sels) by (apply best_full; exact S1). set (im := s_model (mi_s m1)) in *.
    assert (Pr0 : pre st0 B 0).
    { split; [apply cle_refl |]. split; [apply B_bounded |]. split; [auto |]. intros V HV _. exists V. split; [apply agree_refl | exact HV]. }
    destruct (Nat.eqb_spec b1 0) as [E0 | E0].
    - eapply rspec_bind; [apply (m_add_ge_ok B fuel sels st0 m1 I1 Ow1 xs_old Hcfg) |]. intros [st1 m2] (cls & L & Bc & I2 & Ow2 & X2 & Q1 & Q2).
      assert (Pr1 : pre st1 (rev cls ++ B) 1).
      { split; [exact L |]. split; [apply bounded_app; [intros c Hc; apply Bc; now apply in_rev | eapply bounded_mono; [exact L | apply B_bounded]] |]. split; [intros V HV; now apply sat_rev in HV |].
        intros V HV Hc. apply (pre_geq st0 st1 B cls 0 1 Pr0); auto. split; assumption. }
      assert (Inc2 : incl N0 (mi_names m2)) by (eapply incl_names; eauto). assert (Im2 : imok (mi_names m2) im b1) by (eapply imok_names; eauto).
      eapply rspec_bind; [apply (m_sat_ok mc orc Hm So _ fuel m2 I2) |]. intros [r m3] ((I3 & Rs3 & An) & N3 & _). cbn [fst snd] in *.
      assert (Inc3 : incl N0 (mi_names m3)) by now rewrite N3. assert (Ow3 : owned st1 m3) by (intros v Hv; apply Ow2; now rewrite <- N3). destruct r.
      + destruct An as (S3 & _ & Ln3). change (satisfies (mvals m3) (rev cls ++ B)) with (sat (mvals m3) (rev cls ++ B)) in S3. apply sat_rev in S3. destruct S3 as [S3 S4]. pose proof (n_nd _ _ I3) as Nd3. rewrite current_ok by auto. cbn [rbind]. set (b2 := cnt (mvals m3) xs) in *.
        assert (Im3 : imok (mi_names m3) (s_model (mi_s m3)) b2) by (apply current_im; auto). assert (Lb2 : b2 <= length sels) by (apply best_full; exact S4). pose proof (Q1 _ S3 : 1 <= b2) as L1.
        eapply rspec_weak; [apply (opt_go_ok fuel rounds (s_model (mi_s m3)) b2 st1 (rev cls ++ B) m3 1 Pr1); auto; lia |]. intros [[[im' |] st'] m'] [H1 H2]; [auto | contradiction].
      + cbn [rspec]. split; [| eauto]. split; [exact Inc3 |]. exists b1. split; [now rewrite N3 |]. intros V HV. rewrite E0. destruct (le_lt_dec (cnt V xs) 0) as [Le | Gt]; auto. exfalso.
        destruct (proj2 (proj2 (proj2 Pr1)) V HV Gt) as (V' & _ & S'). exact (An V' S' (fun a (K : In a []) => match K with end)).
    - destruct (Nat.eqb_spec b1 (length sels)) as [E | E].
      + cbn [rspec]. split; [| eauto]. split; [exact Inc1 |]. exists b1. split; [exact Im1 |]. rewrite E. apply best_full.
      + eapply rspec_weak; [apply (opt_go_ok fuel rounds im b1 st0 B m1 0 Pr0); auto; lia |]. intros [[[im' |] st'] m'] [H1 H2]; [auto | contradiction].
  Qed.
End Opt.

(** ** The selectors *)
Definition targets (mx : bool) (sm : list (var * lit)) : list lit := map (fun p => if mx then snd p else lit_negate (snd p)) sm.
Lemma opt_clauses_sat : forall (mx : bool) sm V, sat V (opt_clauses mx sm) <-> forall s l, In (s, l) sm -> V s = lit_sem V (if mx then l else lit_negate l).
Proof.
  intros mx sm V. unfold opt_clauses. destruct mx; rewrite sat_app; unfold sat; setoid_rewrite in_map_iff; split.
  - intros [H1 H2] s l H. destruct (H1 [Lit s false; l]) as (x & Hx & Ex); [exists (s, l); auto |]. destruct (H2 [lit_negate l; Lit s true]) as (y & Hy & Ey); [exists (s, l); auto |].
    cbn [In] in Hx, Hy. destruct Hx as [<- | [<- | []]], Hy as [<- | [<- | []]]; rewrite ?lit_sem_negate in *; cbn [lit_sem] in *; destruct (V s), (lit_sem V l); cbn in *; congruence.
  - intros H. split; intros c ((s, l) & <- & Hp); specialize (H s l Hp); cbn [fst snd]; rewrite !csat_cons, ?lit_sem_negate; cbn [lit_sem]; rewrite H; destruct (lit_sem V l); cbn; auto.
  - intros [H1 H2] s l H. destruct (H1 [Lit s false; lit_negate l]) as (x & Hx & Ex); [exists (s, l); auto |]. destruct (H2 [l; Lit s true]) as (y & Hy & Ey); [exists (s, l); auto |].
    cbn [In] in Hx, Hy. destruct Hx as [<- | [<- | []]], Hy as [<- | [<- | []]]; rewrite ?lit_sem_negate in *; cbn [lit_sem] in *; destruct (V s), (lit_sem V l); cbn in *; congruence.
  - intros H. split; intros c ((s, l) & <- & Hp); specialize (H s l Hp); cbn [fst snd]; rewrite !csat_cons, ?lit_sem_negate; cbn [lit_sem]; rewrite H, ?lit_sem_negate; destruct (lit_sem V l); cbn; auto.
Qed.
Lemma opt_clauses_vars : forall mx sm c l, In c (opt_clauses mx sm) -> In l c -> In (lit_var l) (map fst sm) \/ In (lit_var l) (map (fun p => lit_var (snd p)) sm).
Proof.
  intros mx sm c l Hc Hl. unfold opt_clauses in Hc. destruct mx; apply in_app_iff in Hc; destruct Hc as [Hc | Hc]; apply in_map_iff in Hc; destruct Hc as ((s, x) & <- & Hp); cbn [fst snd In] in Hl;
    destruct Hl as [<- | [<- | []]]; rewrite ?lit_negate_var; cbn [lit_var]; (left; apply (in_map fst sm (s, x) Hp)) || (right; apply (in_map (fun p => lit_var (snd p)) sm (s, x) Hp)).
Qed.
Lemma opt_clauses_all : forall mx sm v, In v (map fst sm) \/ In v (map (fun p => lit_var (snd p)) sm) -> exists c l, In c (opt_clauses mx sm) /\ In l c /\ lit_var l = v.
Proof.
  intros mx sm v H. assert (K : exists s l, In (s, l) sm /\ (v = s \/ v = lit_var l)). { destruct H as [H | H]; apply in_map_iff in H; destruct H as ((s, l) & <- & Hp); exists s, l; auto. }
  destruct K as (s & l & Hp & Hv). destruct mx.
  - exists [Lit s false; l]. destruct Hv as [-> | ->]; [exists (Lit s false) | exists l]; (split; [unfold opt_clauses; apply in_or_app; left; apply (in_map (fun p => [Lit (fst p) false; snd p]) sm (s, l) Hp) |]); cbn; auto.
  - exists [Lit s false; lit_negate l]. destruct Hv as [-> | ->]; [exists (Lit s false) | exists (lit_negate l)]; (split; [unfold opt_clauses; apply in_or_app; left; apply (in_map (fun p => [Lit (fst p) false; lit_negate (snd p)]) sm (s, l) Hp) |]); cbn; rewrite ?lit_negate_var; auto.
Qed.
Lemma cnt_targets : forall (mx : bool) sm V, (forall s l, In (s, l) sm -> V s = lit_sem V (if mx then l else lit_negate l)) -> cnt V (map plit (map fst sm)) = cnt V (targets mx sm).
Proof.
  intros mx. induction sm as [| [s l] r IH]; intros V H; cbn [map cnt targets fst snd]; auto. change (map (fun p => if mx then snd p else lit_negate (snd p)) r) with (targets mx r). rewrite IH by (intros; apply H; now right).
  change (lit_sem V (plit s)) with (V s). rewrite (H s l) by now left. reflexivity.
Qed.
(** Extending a valuation to the selectors. *)
Definition with_sels (mx : bool) (sm : list (var * lit)) (V : valuation) : valuation := fun v =>
  match find (fun p => var_eqb (fst p) v) sm with Some p => lit_sem V (if mx then snd p else lit_negate (snd p)) | None => V v end.
Lemma with_sels_other : forall mx sm V v, ~ In v (map fst sm) -> with_sels mx sm V v = V v.
Proof.
  intros mx sm V v H. unfold with_sels. destruct (find _ sm) as [[s l] |] eqn:E; auto. apply find_some in E. destruct E as [E1 E2]. cbn [fst] in E2. apply var_eqb_spec in E2. subst. exfalso. apply H. apply (in_map fst sm (v, l) E1).
Qed.
Lemma with_sels_lit : forall mx sm V l, ~ In (lit_var l) (map fst sm) -> lit_sem (with_sels mx sm V) l = lit_sem V l.
Proof. intros mx sm V [v p] H. cbn in *. now rewrite with_sels_other. Qed.
Lemma with_sels_sel : forall (mx : bool) sm V s l, NoDup (map fst sm) -> In (s, l) sm -> with_sels mx sm V s = lit_sem V (if mx then l else lit_negate l).
Proof.
  intros mx sm V s l Nd H. unfold with_sels. induction sm as [| [s0 l0] r IH]; [destruct H |]. cbn [find fst]. cbn [map fst] in Nd. apply NoDup_cons_iff in Nd. destruct Nd as [N1 N2]. destruct (var_eqb s0 s) eqn:E.
  - apply var_eqb_spec in E. subst. destruct H as [H | H]; [inversion H; subst; reflexivity | exfalso; apply N1; apply (in_map fst r (s, l) H)].
  - destruct H as [H | H]; [inversion H; subst; rewrite var_eqb_refl in E; discriminate | now apply IH].
Qed.

Section Compute.
  Variables (mc : mconfig) (orc : oracle) (ccfg : cc_config).
  Hypothesis Hm : g_min (mc_sat mc) <> MinNone.
  Hypothesis So : sorting orc.
  Lemma m_add_clauses_ok : forall fuel cs G m, minv G m -> rspec (m_add_clauses mc fuel cs m) (fun m' => minv (rev cs ++ G) m' /\ forall v, In v (mi_names m') <-> In v (mi_names m) \/ exists c l, In c cs /\ In l c /\ lit_var l = v).
  Proof.
    intros fuel. induction cs as [| c r IH]; intros G m I; cbn [m_add_clauses rev].
    - split; [exact I |]. intros v. split; [auto |]. intros [H | (c & l & [] & _)]; exact H.
    - eapply rspec_bind; [apply (m_add_clause_names mc G fuel c m I) |]. intros m1 (I1 & _ & N1). eapply rspec_weak; [apply (IH (c :: G) m1 I1) |]. intros m2 (I2 & N2). split; [now rewrite <- app_assoc |].
      intros v. rewrite N2, N1, in_map_iff. split.
      + intros [[H | (l & <- & Hl)] | (c' & l & H1 & H2 & H3)]; [now left | right; exists c, l; cbn; auto | right; exists c', l; cbn; auto].
      + intros [H | (c' & l & [<- | H1] & H2 & H3)]; [auto | left; right; exists l; auto | right; exists c', l; auto].
  Qed.
  Lemma opt_compute_ok : forall rounds fuel mx sm extra st m G, minv G m -> owned st m -> NoDup (map fst sm) ->
    (forall s, In s (map fst sm) -> ~ In s (mi_names m) /\ ~ In s (map (fun p => lit_var (snd p)) sm) /\ old st s /\ is_relevant mc s = true) ->
    (forall v, In v (map (fun p => lit_var (snd p)) sm) -> old st v) -> (forall v, In v extra -> In v (mi_names m) \/ In v (map (fun p => lit_var (snd p)) sm)) ->
    alk_cfg_ok (cfg_alk ccfg) (map plit (map fst sm)) -> (N.of_nat (length sm) + 1 < 2 ^ 32)%N ->
    rspec (opt_compute mc orc ccfg rounds fuel mx sm extra st m) (fun x => let '(r, st', m') := x in
      match r with
      | None => forall V, ~ sat V G
      | Some md => exists V, sat V G /\ (forall V', sat V' G -> cnt V' (targets mx sm) <= cnt V (targets mx sm)) /\
          forall v, (In v (m_pos md) <-> (In v (map (fun p => lit_var (snd p)) sm ++ extra) /\ is_relevant mc v = true) /\ V v = true) /\
                    (In v (m_neg md) <-> (In v (map (fun p => lit_var (snd p)) sm ++ extra) /\ is_relevant mc v = true) /\ V v = false)
      end).
  Proof.
    intros rounds fuel mx sm extra st m G I Ow Nd Hs Hl Hx Hc Hn. unfold opt_compute. eapply rspec_bind; [apply (m_add_clauses_ok fuel (opt_clauses mx sm) G m I) |]. intros m1 (I1 & N1).
    set (lv := map (fun p => lit_var (snd p)) sm) in *. set (sels := map fst sm) in *. set (B := rev (opt_clauses mx sm) ++ G) in *.
    assert (N1' : forall v, In v (mi_names m1) <-> In v (mi_names m) \/ In v sels \/ In v lv).
    { intros v. rewrite N1. split; (intros [H | H]; [now left | right]).
      - destruct H as (c & l & H1 & H2 & <-). eapply opt_clauses_vars; eauto.
      - apply (opt_clauses_all mx). exact H. }
    assert (SB : forall V, sat V B <-> sat V (opt_clauses mx sm) /\ sat V G) by (intros V; apply sat_rev).
    assert (VG : forall V, sat V G -> sat (with_sels mx sm V) B /\ cnt (with_sels mx sm V) (map plit sels) = cnt V (targets mx sm)).
    { intros V HV. assert (Q : forall s l, In (s, l) sm -> with_sels mx sm V s = lit_sem (with_sels mx sm V) (if mx then l else lit_negate l)).
      { intros s l Hp. rewrite (with_sels_sel mx sm V s l Nd Hp). assert (Nv : ~ In (lit_var l) sels). { intros K. destruct (Hs _ K) as (_ & K2 & _). apply K2. apply (in_map (fun p => lit_var (snd p)) sm (s, l) Hp). }
        destruct mx; symmetry; apply with_sels_lit; rewrite ?lit_negate_var; exact Nv. }
      split.
      - apply SB. split; [now apply opt_clauses_sat |]. intros c Hcl. destruct (HV c Hcl) as (l & H1 & H2). exists l. split; auto. rewrite with_sels_lit; auto. intros K. destruct (Hs _ K) as (K2 & _). apply K2. exact (n_in _ _ I c l Hcl H1).
      - unfold sels. rewrite (cnt_targets mx sm _ Q). apply cnt_ext. intros x Hx'. apply with_sels_lit. unfold targets in Hx'. apply in_map_iff in Hx'. destruct Hx' as ((s, l) & <- & Hp). intros K. cbn [snd] in K.
        assert (K' : In (lit_var l) sels) by (destruct mx; rewrite ?lit_negate_var in K; exact K). destruct (Hs _ K') as (_ & K2 & _). apply K2. apply (in_map (fun p => lit_var (snd p)) sm (s, l) Hp). }
    assert (BT : forall V, sat V B -> cnt V (map plit sels) = cnt V (targets mx sm)) by (intros V HV; apply SB in HV; apply cnt_targets; now apply opt_clauses_sat).
    eapply rspec_bind.
    - apply (opt_search_ok mc orc ccfg Hm So sels st B (mi_names m1)) with (m := m1); auto.
      + intros v Hv. split; [apply N1'; auto | now apply Hs].
      + intros c l H1 H2. exact (n_in _ _ I1 c l H1 H2).
      + intros v Hv. apply N1' in Hv. destruct Hv as [Hv | [Hv | Hv]]; auto. now apply Hs.
      + unfold sels. now rewrite map_length.
      + intros v Hv. apply N1' in Hv. destruct Hv as [Hv | [Hv | Hv]]; auto. now apply Hs.
      + apply incl_refl.
    - intros [[[im |] st2] m2] [Op (G2 & I2)]; cbn [rspec].
      + destruct Op as (Inc & bound & (nm0 & ext & En & Lim & Inc0 & Nd0 & Sb & Cb) & Bst). set (W := fun i => nth i im false) in *. set (V := nval nm0 W) in *. set (rv := add_vars (lv ++ extra) []).
        assert (Hrv : forall v, In v rv -> In v nm0). { intros v Hv. apply (proj1 (add_vars_in _ _)) in Hv. apply Inc0, N1'. apply in_app_iff in Hv. destruct Hv as [Hv | Hv]; auto. destruct (Hx v Hv); auto. }
        assert (Nd2 : NoDup (mi_names m2)) by exact (n_nd _ _ I2).
        assert (Ix : forall v, In v nm0 -> exists i, idx_of (mi_names m2) v = Some i /\ i < length nm0 /\ nth i (mi_names m2) dv = v /\ V v = W i).
        { intros v Hv. destruct (idx_in nm0 v Hv) as (i & Ei & Li & Ev). exists i. rewrite En. unfold idx_of in *. rewrite (idx_from_app nm0 0 v i ext Ei). split; auto. split; auto. split; [rewrite app_nth1 by auto; exact Ev |]. unfold V, nval, idx_of. now rewrite Ei. }
        assert (Ki : forall i, In i (known_idx (mi_names m2) rv) -> i < length nm0). { intros i Hi. apply known_idx_in in Hi. destruct Hi as (v & Hv & Ei). destruct (Ix v (Hrv v Hv)) as (j & Ej & Lj & _). congruence. }
        assert (Li2 : forall i, In i (known_idx (mi_names m2) rv) -> i < length (mi_names m2)) by (intros i Hi; eapply known_idx_lt; eauto).
        unfold create_assignment. rewrite values_at_ok by (intros i Hi; rewrite Lim; auto). cbn [rbind]. rewrite (assign_names_ok mc (mi_names m2) W) by exact Li2. cbn [rbind rspec m_pos m_neg app]. exists V.
        split; [now apply SB |]. split.
        * intros V' HV'. destruct (VG V' HV') as [K1 K2]. rewrite <- K2, <- (BT V Sb), Cb. now apply Bst.
        * intros v. pose proof (asgn_pos mc (mi_names m2) (known_idx (mi_names m2) rv) W v Nd2 Li2) as AP. pose proof (asgn_neg mc (mi_names m2) (known_idx (mi_names m2) rv) W v Nd2 Li2) as AN. cbn [asgn m_pos m_neg] in AP, AN. rewrite AP, AN.
          assert (Q : forall b, (exists i, In i (known_idx (mi_names m2) rv) /\ nth i (mi_names m2) dv = v /\ is_relevant mc v = true /\ W i = b) <-> (In v (lv ++ extra) /\ is_relevant mc v = true) /\ V v = b).
          { intros b. rewrite <- (add_vars_in (lv ++ extra) v). fold rv. split.
            - intros (i & H1 & H2 & H3 & H4). apply known_idx_in in H1. destruct H1 as (w & Hw & Ew). destruct (Ix w (Hrv w Hw)) as (j & Ej & Lj & Nj & Vj). assert (j = i) by congruence. subst j. assert (v = w) by congruence. split; [split; congruence | congruence].
            - intros ((H1 & H2) & H3). destruct (Ix v (Hrv v H1)) as (j & Ej & Lj & Nj & Vj). exists j. split; [apply known_idx_in; eauto |]. split; auto. split; auto. congruence. }
          split; apply Q.
      + intros V HV. exact (Op _ (proj1 (VG V HV))).
  Qed.
End Compute.
