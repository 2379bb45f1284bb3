(** Replaying the unit clauses. *)
From Coq Require Import List Arith ZArith NArith Bool Lia Permutation.
From Verif Require Import Base Vec HeapModel HeapProofs SatSpec SatModel SatBasics SatHeap SatInv SatProp SatAnalyze SatDb SatSearch SatSolve SatFront SatExact SatState SatLoad.
Import ListNotations.
Local Open Scope nat_scope.

(** ** Propagation does not look at the kind of a clause *)
Definition plain (cl : clause) : clause := mkCl (c_data cl) false.
Definition er (st : solver) : solver := set_arena (map plain (s_arena st)) st.
Definition erp (r : res (option nat * solver)) : res (option nat * solver) := match r with Ok (o, s) => Ok (o, er s) | Panic => Panic | NoFuel => NoFuel end.
Lemma map_upd : forall A B (f : A -> B) l i x, map f (upd l i x) = upd (map f l) i (f x).
Proof. intros A B f l. induction l as [| y r IH]; intros [| i] x; cbn; auto. now rewrite IH. Qed.
Lemma er_cl : forall st c, cl_at (er st) c = plain (cl_at st c).
Proof. intros st c. unfold cl_at, er. ssimp. change dcl with (plain dcl) at 1. apply map_nth. Qed.
Lemma er_set_data : forall c d st, er (set_data c d st) = set_data c d (er st).
Proof. intros c d st. unfold set_data. rewrite er_cl. unfold er. ssimp. rewrite map_upd. reflexivity. Qed.
Lemma er_adata : forall st c, adata (s_arena (er st)) c = adata (s_arena st) c.
Proof. intros st c. unfold adata. fold (cl_at (er st) c). rewrite er_cl. reflexivity. Qed.
Lemma er_find : forall st ls, find_watch (er st) ls = find_watch st ls.
Proof. intros st. induction ls as [| l r IH]; cbn; auto. rewrite IH. reflexivity. Qed.
Lemma er_prop_watches : forall fuel p i st, prop_watches fuel p i (er st) = erp (prop_watches fuel p i st).
Proof.
  induction fuel as [| fu IH]; intros p i st; [reflexivity |]. cbn [prop_watches]. change (wlist (er st) p) with (wlist st p). destruct (nth_error (wlist st p) i) as [[c b] |]; [| reflexivity].
  change (value (er st) b) with (value st b). destruct (is_true (value st b)); [apply IH |]. rewrite er_cl. cbn [plain c_data]. destruct (c_data (cl_at st c)) as [| l0 [| l1 rest]]; try reflexivity. cbn zeta.
  set (first := if l0 =? lneg p then l1 else l0). set (second := if l0 =? lneg p then lneg p else l1). destruct (negb (second =? lneg p)); [reflexivity |].
  rewrite <- er_set_data. set (st1 := set_data c (first :: second :: rest) st). change (value (er st1) first) with (value st1 first). destruct (negb (first =? b) && is_true (value st1 first)).
  - change (set_wlist p (upd (wlist (er st1) p) i (c, first)) (er st1)) with (er (set_wlist p (upd (wlist st1 p) i (c, first)) st1)). apply IH.
  - rewrite er_find. destruct (find_watch st1 rest) as [k |].
    + rewrite <- er_set_data. set (st2 := set_data c (first :: nth k rest 0 :: upd rest k (lneg p)) st1).
      change (watch_push (lneg (nth k rest 0)) (c, first) (set_wlist p (firstn i (wlist (er st2) p) ++ skipn (S i) (wlist (er st2) p)) (er st2)))
        with (er (watch_push (lneg (nth k rest 0)) (c, first) (set_wlist p (firstn i (wlist st2 p) ++ skipn (S i) (wlist st2 p)) st2))). apply IH.
    + set (st2 := set_wlist p (upd (wlist st1 p) i (c, first)) st1). change (set_wlist p (upd (wlist (er st1) p) i (c, first)) (er st1)) with (er st2).
      change (value (er st2) first) with (value st2 first). destruct (is_false (value st2 first)); [reflexivity |]. unfold unchecked_enqueue. change (value (er st2) first) with (value st2 first).
      destruct (is_undef (value st2 first)); [| reflexivity]. cbn [rbind]. rewrite <- IH. reflexivity.
Qed.
Lemma er_propagate : forall fw fuel st, propagate_loop fuel fw (er st) = erp (propagate_loop fuel fw st).
Proof.
  intros fw. induction fuel as [| fu IH]; intros st; [reflexivity |]. cbn [propagate_loop]. change (s_trail (er st)) with (s_trail st). change (s_qhead (er st)) with (s_qhead st).
  destruct (nth_error (s_trail st) (s_qhead st)) as [p |]; [| reflexivity]. change (set_qhead (S (s_qhead st)) (er st)) with (er (set_qhead (S (s_qhead st)) st)). rewrite er_prop_watches.
  destruct (prop_watches fw p 0 (set_qhead (S (s_qhead st)) st)) as [[[c |] s] | |]; cbn [erp rbind]; try reflexivity. apply IH.
Qed.

(** ** Propagation stays within closed sets *)
Definition vals (st : solver) : Prop := forall l, l < 2 * length (s_vars st) -> value st l = Some false -> In (lneg l) (s_trail st).
Lemma closed_first : forall T d x r, consistent T -> closed T d -> Permutation d (x :: r) -> (forall y, In y r -> In (lneg y) T) -> In x T.
Proof.
  intros T d x r Co Cl P H. destruct Cl as [(l & H1 & H2) | (a & b & H1 & H2 & H3 & H4 & H5)].
  - apply (Permutation_in _ P) in H1. destruct H1 as [<- | H1]; auto. exfalso. exact (Co l H2 (H l H1)).
  - apply (Permutation_in _ P) in H1. apply (Permutation_in _ P) in H2. exfalso. destruct H1 as [<- | H1]; [destruct H2 as [<- | H2]; [congruence | exact (H5 (H b H2))] | exact (H4 (H a H1))].
Qed.
Lemma enqueue_vals : forall l r st st', unchecked_enqueue l r st = Ok st' -> l < 2 * length (s_vars st) -> vals st -> vals st'.
Proof.
  intros l r st st' H Hl V. pose proof (enqueue_same _ _ _ _ H) as (Lv & _ & _ & _ & _ & T & _). assert (U : value st l = None) by (unfold unchecked_enqueue in H; destruct (value st l); [discriminate | reflexivity]).
  rewrite enqueue_ok in H by exact U. inversion H; subst st'. clear H. intros x Hx Vx. rewrite T. apply in_or_app. rewrite Lv in Hx. unfold value, enq in Vx. ssimp.
  destruct (Nat.eq_dec (lvar x) (lvar l)) as [E | N].
  - right. left. destruct (same_var x l E) as [-> | ->]; [| symmetry; apply lneg_inv]. exfalso. revert Vx. change (asg_of (upd (s_vars st) (lvar l) (mkVar (Some (negb (lsign l))) (Some (dlevel st)) (v_pol (var_at st (lvar l))) (v_dec (var_at st (lvar l))))) l = Some false -> False).
    rewrite asg_upd_same by (apply lvar_lt; exact Hl). cbn [v_asg]. destruct (lsign l); cbn; discriminate.
  - left. apply V; auto. unfold value. rewrite <- Vx. symmetry. apply asg_upd_other. auto.
Qed.
Lemma prop_watches_S : forall T, consistent T -> forall fuel p i st o st', prop_watches fuel p i st = Ok (o, st') -> xws st -> vals st -> In p T ->
  (forall c, In c (s_clauses st ++ s_learnts st) -> closed T (adata (s_arena st) c)) -> incl (s_trail st) T ->
  incl (s_trail st') T /\ vals st' /\ s_clauses st' = s_clauses st /\ s_learnts st' = s_learnts st.
Proof.
  intros T Co. induction fuel as [| fu IH]; intros p i st o st' H X V Hp Cl Tr; [discriminate |]. cbn [prop_watches] in H.
  destruct (nth_error (wlist st p) i) as [[c b] |] eqn:Ei; [| inversion H; subst; auto].
  destruct (is_true (value st b)); [eapply IH; eauto |]. destruct (c_data (cl_at st c)) as [| l0 [| l1 rest]] eqn:Ed; try discriminate. cbn zeta in H.
  set (first := if l0 =? lneg p then l1 else l0) in *. set (second := if l0 =? lneg p then lneg p else l1) in *.
  assert (Es : second = lneg p).
  { destruct (xs_cases _ _ _ _ X p i c b l0 l1 rest Ei Ed) as [[E _] | (N & E & _)]; unfold second; [destruct (Nat.eqb_spec l0 (lneg p)); congruence | destruct (Nat.eqb_spec l0 (lneg p)); congruence]. }
  rewrite Es, Nat.eqb_refl in H. cbn [negb] in H. set (st1 := set_data c (first :: lneg p :: rest) st) in *.
  pose proof (xs_len _ _ _ _ X p i c b Ei) as Lc. pose proof (xs_perm _ _ _ _ X p i c b l0 l1 rest Ei Ed) as P1. fold first in P1.
  assert (Wf : wfdata (length (s_vars st)) (first :: lneg p :: rest)).
  { eapply wfdata_perm; [exact P1 |]. assert (Wi : In (c, b) (nth p (s_watches st) [])) by (eapply nth_error_In; exact Ei). destruct (xw_ids _ _ _ _ X _ _ _ Wi) as (K & _). destruct (xw_in _ _ _ _ X c K) as (_ & K2 & _).
    unfold adata in K2. fold (cl_at st c) in K2. rewrite Ed in K2. exact K2. }
  assert (Lin : In c (s_clauses st ++ s_learnts st)) by (assert (Wi : In (c, b) (nth p (s_watches st) [])) by (eapply nth_error_In; exact Ei); apply (xw_ids _ _ _ _ X _ _ _ Wi)).
  assert (X1 : xws (set_wlist p (upd (wlist st1 p) i (c, first)) st1)) by (exact (xw_keep _ _ _ _ X p i c b l0 l1 rest Ei Ed (c_learnt (cl_at st c)))).
  assert (Cl1 : forall x, In x (s_clauses st ++ s_learnts st) -> closed T (adata (s_arena st1) x)).
  { intros x Hx. unfold st1, set_data. ssimp. rewrite adata_upd by exact Lc. destruct (Nat.eqb_spec c x) as [<- | N]; [| auto]. eapply closed_perm; [exact P1 |]. specialize (Cl c Hx). unfold adata in Cl. fold (cl_at st c) in Cl. rewrite Ed in Cl. exact Cl. }
  destruct (negb (first =? b) && is_true (value st1 first)); [apply (IH _ _ _ _ _ H X1); auto |].
  destruct (find_watch st1 rest) as [k |] eqn:Ef.
  - apply find_watch_some in Ef. destruct Ef as [Ek _]. apply (IH _ _ _ _ _ H); auto.
    + pose proof (xw_move _ _ _ _ X p i c b l0 l1 rest Ei Ed k Ek (c_learnt (cl_at st c))) as M. fold first in M. unfold xws, st1, watch_push, set_wlist, set_data, cl_at. ssimp. rewrite upd_upd, learnt_upd. exact M.
    + intros x Hx. unfold st1, watch_push, set_wlist, set_data. ssimp. rewrite upd_upd, adata_upd by exact Lc. destruct (Nat.eqb_spec c x) as [<- | N]; [| auto].
      eapply closed_perm; [| exact (Cl c Hx)]. unfold adata. fold (cl_at st c). rewrite Ed. etransitivity; [exact P1 | apply xs_perm2; exact Ek].
  - cbn zeta in H. destruct (is_false _) eqn:Ff in H; [inversion H; subst; auto |].
    destruct (unchecked_enqueue _ _ _) as [st3 | |] eqn:Eq in H; try discriminate. cbn [rbind] in H. pose proof (enqueue_same _ _ _ _ Eq) as (V3 & Ar & Wt & Cls & Le & Tr3 & _).
    assert (Hf : In first T).
    { eapply closed_first; [exact Co | exact (Cl1 c Lin) | |].
      - unfold st1, set_data. ssimp. rewrite adata_upd, Nat.eqb_refl by exact Lc. apply Permutation_refl.
      - intros y [<- | Hy]; [rewrite lneg_inv; exact Hp |]. apply Tr, V; [apply Wf; right; right; exact Hy | exact (find_watch_none _ _ Ef y Hy)]. }
    assert (Hv : vals st3) by (eapply enqueue_vals; [exact Eq | apply Wf; left; reflexivity | exact V]).
    destruct (IH _ _ _ _ _ H) as (K1 & K2 & K3 & K4); auto.
    + unfold xws. rewrite V3, Ar, Wt, Cls, Le. exact X1.
    + intros x Hx. rewrite Ar. rewrite Cls, Le in Hx. apply Cl1. exact Hx.
    + rewrite Tr3. intros x Hx. apply in_app_or in Hx. destruct Hx as [Hx | [<- | []]]; [apply Tr, Hx | exact Hf].
    + split; auto. split; auto. split; [rewrite K3; exact Cls | rewrite K4; exact Le].
Qed.
Lemma propagate_S : forall T, consistent T -> forall fw fuel st o st', propagate_loop fuel fw st = Ok (o, st') -> xws st -> vals st ->
  (forall c, In c (s_clauses st ++ s_learnts st) -> closed T (adata (s_arena st) c)) -> incl (s_trail st) T -> incl (s_trail st') T.
Proof.
  intros T Co fw. induction fuel as [| fu IH]; intros st o st' H X V Cl Tr; [discriminate |]. cbn [propagate_loop] in H.
  destruct (nth_error (s_trail st) (s_qhead st)) as [p |] eqn:Ep; [| inversion H; subst; auto].
  destruct (prop_watches fw p 0 (set_qhead (S (s_qhead st)) st)) as [[o1 st1] | |] eqn:E; cbn [rbind] in H; try discriminate.
  pose proof (prop_watches_x _ _ _ _ _ _ E X) as [X1 D1]. destruct (prop_watches_S T Co _ _ _ _ _ _ E X V) as (K1 & K2 & K3 & K4); auto; [apply Tr; eapply nth_error_In; eauto |].
  destruct o1 as [c |]; [inversion H; subst; auto |]. apply (IH _ _ _ H X1 K2); auto. rewrite K3, K4. intros c Hc. eapply closed_perm; [apply (proj2 D1); apply (xw_in _ _ _ _ X); exact Hc | apply Cl; exact Hc].
Qed.

(** ** Replay *)
Definition units_of (us : list nat) : list (list nat) := map (fun u => [u]) us.
(** For each unit clause a closed set with the earlier unit clauses that leaves it open. *)
Definition usets (st : solver) (us : list nat) : Prop := forall k u, nth_error us k = Some u -> exists T, consistent T /\ ~ In u T /\ ~ In (lneg u) T /\
  (forall v, In v (firstn k us) -> In v T) /\ (forall c, In c (s_clauses st ++ s_learnts st) -> closed T (adata (s_arena st) c)).
Lemma xst_usets : forall st, xst st -> usets st (s_units st).
Proof. intros st X k u Hu. destruct (x_S _ X k u Hu) as (T & H1 & H2 & H3 & H4 & H5 & _). exists T. auto. Qed.
Lemma usets_quiet : forall a b us, quiet a b -> xws a -> usets a us -> usets b us.
Proof.
  intros a b us Q X H k u Hu. destruct (H k u Hu) as (T & H1 & H2 & H3 & H4 & H5). exists T. split; auto. split; auto. split; auto. split; auto. rewrite (q_cl _ _ Q), (q_ln _ _ Q). intros c Hc.
  eapply closed_perm; [apply (proj2 (q_ar _ _ Q)), (xw_in _ _ _ _ X), Hc | auto].
Qed.
Lemma xst_false : forall st, s_ok st = false -> xws st -> (forall c, In c (s_clauses st) -> c_learnt (nth c (s_arena st) dcl) = false) -> s_selo st = [] ->
  (forall u, In u (s_units st) -> u < 2 * length (s_vars st)) -> usets st (s_units st) -> ldiff st -> xst st.
Proof.
  intros st O X Cf Se Ul Us Ld. constructor; auto; [congruence |]. intros k u Hu. destruct (Us k u Hu) as (T & H1 & H2 & H3 & H4 & H5). exists T. split; auto. split; auto. split; auto. split; auto. split; auto. congruence.
Qed.
Lemma quiet_units : forall a b us, quiet a b -> quiet (set_units us a) (set_units us b).
Proof. intros a b us [Q1 Q2 Q3 Q4 Q5 Q6 Q7 Q8 Q9]. constructor; auto. Qed.
Lemma er_xws : forall st, xws st -> xws (er st).
Proof.
  intros st [X1 X2 X3 X4 X5]. constructor; auto.
  - intros c Hc. change (s_watches (er st)) with (s_watches st). rewrite er_adata. unfold er at 1. ssimp. rewrite map_length. exact (X2 c Hc).
  - intros p c b Hb. rewrite er_adata. exact (X3 p c b Hb).
Qed.
Lemma replay_false : forall fuel us st, s_ok st = false -> replay fuel us st = Ok st.
Proof. intros fuel. induction us as [| u r IH]; intros st H; cbn [replay]; auto. rewrite H. auto. Qed.

Record rst (D : list (list nat)) (done : list nat) (st : solver) : Prop := {
  r_inv : sinv (D ++ units_of done) (er st);
  r_qt : qt st;
  r_lim : s_lim st = [];
  r_ok : s_ok st = true;
  r_x : xst (set_units done st);
  r_base : @base (length (s_vars st)) [] st;
  r_S : forall T, consistent T -> (forall c, In c (s_clauses st ++ s_learnts st) -> closed T (adata (s_arena st) c)) -> incl done T -> incl (s_trail st) T }.
Record rfr (a b : solver) : Prop := {
  rf_nv : length (s_vars b) = length (s_vars a); rf_cl : s_clauses b = s_clauses a; rf_ln : s_learnts b = s_learnts a; rf_un : s_units b = s_units a;
  rf_ar : permd (s_arena a) (s_arena b) }.
Lemma quiet_rfr : forall a b, quiet a b -> rfr a b.
Proof. intros a b [Q1 Q2 Q3 Q4 Q5 Q6 Q7 Q8 Q9]. constructor; auto. Qed.
Lemma rfr_trans : forall a b c, rfr a b -> rfr b c -> rfr a c.
Proof. intros a b c [A1 A2 A3 A4 A5] [B1 B2 B3 B4 B5]. constructor; try congruence. eapply permd_trans; eauto. Qed.
Lemma er_quiet : forall F st fuel o s, xws st -> propagate fuel st = Ok (o, s) -> propagated F (er st) (o, er s) -> quiet st s.
Proof.
  intros F st fuel o s X E [PF _]. cbn [fst snd] in PF. pose proof (propagate_loop_x _ _ _ _ _ E X) as [X1 D1]. destruct PF as [P1 P2 P3 P4 P5 P6 P7 P8 P9 P10 P11 P12 P13 P14 P15 P16 P17 P18 P19 [e P20] P21].
  constructor; auto.
  - intros K. rewrite <- K. symmetry. exact P1.
  - intros l (j & H1 & H2). exists j. change (s_trail (er s)) with (s_trail s) in P20. change (s_lim (er s)) with (s_lim s) in P7. rewrite P20, P7. split; [now apply nth_app_some | exact H2].
Qed.
Lemma base_quiet : forall st s n, @base n [] st -> quiet st s -> xws st -> s_seen s = s_seen st -> s_assum s = s_assum st -> @base n [] s.
Proof.
  intros st s n [B1 B2 B3 B4 B5 B6] Q X Es Ea. constructor.
  - intros v. rewrite Es. apply B1.
  - intros c Hc. rewrite (q_ln _ _ Q) in Hc. rewrite (proj2 (proj2 (q_ar _ _ Q) c ltac:(apply (xw_in _ _ _ _ X), in_or_app; auto))). auto.
  - congruence.
  - intros a [].
  - intros l Hl. rewrite (q_sel _ _ Q) in Hl. rewrite (q_nv _ _ Q). auto.
  - rewrite (q_nv _ _ Q). exact B6.
Qed.
Lemma replay_ok : forall D fuel us done st, rst D done st -> s_units st = done ++ us -> usets st (done ++ us) -> (forall u, In u (done ++ us) -> u < 2 * length (s_vars st)) ->
  rspec (replay fuel us st) (fun s => rfr st s /\
    if s_ok s then rst D (done ++ us) s else entails (D ++ units_of (done ++ us)) [] /\ stru s /\ xst s).
Proof.
  intros D fuel. induction us as [| u r IH]; intros done st R Eu Us Ul; cbn [replay].
  - cbn [rspec]. rewrite app_nil_r. split; [apply quiet_rfr, quiet_refl |]. rewrite (r_ok _ _ _ R). exact R.
  - rewrite (r_ok _ _ _ R). pose proof (r_inv _ _ _ R) as I. unfold sinv in I. change (s_qhead (er st)) with (s_qhead st) in I. pose proof (r_lim _ _ _ R) as L0. pose proof (x_w _ (r_x _ _ _ R)) as Xw. change (xws st) in Xw.
    assert (Ru : u < 2 * length (s_vars st)) by (apply Ul, in_or_app; right; left; auto).
    destruct (Us (length done) u) as (T & T1 & T2 & T3 & T4 & T5); [rewrite nth_error_app2, Nat.sub_diag by auto; reflexivity |].
    rewrite firstn_app, firstn_all, Nat.sub_diag in T4. cbn [firstn] in T4. rewrite app_nil_r in T4.
    assert (Tr : incl (s_trail st) T) by (apply (r_S _ _ _ R T T1 T5); exact T4).
    assert (N1 : ~ In u (s_trail st)) by (intros K; apply T2, Tr, K). assert (N2 : ~ In (lneg u) (s_trail st)) by (intros K; apply T3, Tr, K).
    assert (Uu : value st u = None).
    { destruct (value st u) as [[|] |] eqn:E; auto; exfalso; [apply N1; exact (val_true (i_t _ _ _ I) u Ru E) | apply N2; exact (val_false (i_t _ _ _ I) u Ru E)]. }
    rewrite enqueue_ok by exact Uu. cbn [rbind]. set (st1 := enq u None st) in *.
    assert (Q1 : quiet st st1) by (eapply enqueue_quiet; apply enqueue_ok; exact Uu).
    set (F1 := D ++ units_of (done ++ [u])).
    assert (Sub : incl (D ++ units_of done) F1) by (unfold F1, units_of; rewrite map_app; intros x Hx; apply in_app_or in Hx; destruct Hx as [Hx | Hx]; apply in_or_app; [auto | right; apply in_or_app; auto]).
    assert (Inu : In [u] F1) by (unfold F1, units_of; rewrite map_app; apply in_or_app; right; apply in_or_app; right; left; reflexivity).
    assert (I1 : sinv F1 (er st1)).
    { unfold sinv. change (er st1) with (enq u None (er st)). change (s_qhead (enq u None (er st))) with (s_qhead st). apply (invx_inv _ (D ++ units_of done)).
      - apply x_enq_inv; [apply inv_invx; auto | exact Ru | exact Uu | |].
        + unfold dlevel. change (s_lim (er st)) with (s_lim st). rewrite L0. cbn [length]. lia.
        + intros _ V HV. apply HV, Inu.
      - intros C HC. unfold F1, units_of in HC. rewrite map_app, app_assoc in HC. apply in_app_or in HC. destruct HC as [HC | [<- | []]]; [left; exact HC |]. right. left. exists (length (s_trail st)), u. unfold enq. ssimp.
        split; [rewrite nth_error_app2, Nat.sub_diag by auto; reflexivity |]. split; [left; auto |]. change (lv (s_lim st) (length (s_trail st)) = 0). rewrite L0. reflexivity. }
    pose proof (propagate_ok F1 fuel (er st1) I1) as P. unfold propagate in P. rewrite er_propagate in P. fold (propagate fuel st1) in P. destruct (propagate fuel st1) as [[o s2] | |] eqn:E2; cbn [erp rspec] in P; [| destruct P | exact Logic.I]. cbn [rbind].
    assert (Q2 : quiet st1 s2) by (eapply er_quiet; [apply (q_w _ _ Q1), Xw | exact E2 | exact P]). pose proof (quiet_trans _ _ _ Q1 Q2) as Q.
    destruct P as [PF P]. cbn [fst snd] in PF, P. destruct (pf_ext _ _ PF) as [e Te]. change (s_trail (er s2)) with (s_trail s2) in Te. change (s_trail (er st1)) with (s_trail st ++ [u]) in Te.
    assert (L2 : s_lim s2 = []) by (pose proof (pf_lim _ _ PF) as K; change (s_lim s2 = s_lim st) in K; congruence).
    assert (B2 : @base (length (s_vars s2)) [] s2).
    { rewrite (q_nv _ _ Q). eapply base_quiet; [apply R | exact Q | exact Xw | exact (pf_seen _ _ PF) | exact (pf_assum _ _ PF)]. }
    assert (Cl : forall c, In c (s_clauses st ++ s_learnts st) -> closed (s_trail st) (adata (s_arena st) c)).
    { intros c Hc. rewrite <- er_adata. apply (closed_trail _ _ (er st) c I); [change (s_trail (er st)) with (s_trail st); rewrite (r_qt _ _ _ R); auto | apply er_xws, Xw | exact Hc]. }
    assert (Go : rfr st (set_ok (is_none o) s2)).
    { destruct (quiet_rfr _ _ Q) as [A1 A2 A3 A4 A5]. constructor; auto. }
    destruct o as [c |].
    + cbn [is_none] in *. rewrite replay_false by reflexivity. cbn [rspec]. split; [exact Go |]. change (s_ok (set_ok false s2)) with false. cbn iota. destruct P as (q0 & _ & Cf). split; [| split].
      * eapply ent_mono; [| eapply level0_conflict; [exact Cf |]].
        -- unfold F1, units_of. rewrite !map_app. intros x Hx. apply in_app_or in Hx. destruct Hx as [Hx | Hx]; apply in_or_app; [auto | right]. apply in_app_or in Hx. apply in_or_app. destruct Hx as [Hx | [<- | []]]; [auto | right; left; reflexivity].
        -- unfold dlevel. change (s_lim (er s2)) with (s_lim s2). now rewrite L2.
      * destruct Cf as ([Z _ _ _ _ Hh] & _). constructor; [exact L2 | eapply base_same; [exact B2 | ..]; auto | | exact Hh]. destruct Z as [Z1 Z2 Z3 Z4 Z5]. constructor; auto.
      * apply xst_false; auto.
        -- exact (q_w _ _ Q Xw).
        -- intros c' Hc'. change (In c' (s_clauses s2)) in Hc'. rewrite (q_cl _ _ Q) in Hc'. change (c_learnt (nth c' (s_arena s2) dcl) = false). rewrite (proj2 (proj2 (q_ar _ _ Q) c' ltac:(apply (xw_in _ _ _ _ Xw), in_or_app; auto))). exact (x_cf _ (r_x _ _ _ R) c' Hc').
        -- change (s_selo s2 = []). rewrite (q_sel _ _ Q). exact (x_sel _ (r_x _ _ _ R)).
        -- intros x Hx. change (In x (s_units s2)) in Hx. rewrite (q_un _ _ Q), Eu in Hx. change (x < 2 * length (s_vars s2)). rewrite (q_nv _ _ Q). auto.
        -- change (usets s2 (s_units s2)). rewrite (q_un _ _ Q), Eu. eapply usets_quiet; eauto.
        -- apply (ldiff_mono (set_units done st)); [apply R | change (forall c, In c (s_learnts s2) -> In c (s_learnts st)); now rewrite (q_ln _ _ Q) |]. intros c' Hc'. apply (proj2 (q_ar _ _ Q)), (xw_in _ _ _ _ Xw), in_or_app. right. exact Hc'.
    + cbn [is_none] in *. destruct P as [I2 Qt2].
      assert (R2 : rst D (done ++ [u]) (set_ok true s2)).
      { constructor; auto.
        - eapply inv_same; [exact I2 | ..]; auto.
        - destruct (push_unit_x (set_units done st) u (set_units done s2) true e) as [X2 _]; auto.
          + exact (r_x _ _ _ R).
          + exact (r_ok _ _ _ R).
          + intros x H1 H2. exact (not_both (i_t _ _ _ I) x H1 H2).
          + apply quiet_units. exact Q.
          + change (s_trail s2 = s_trail st ++ u :: e). rewrite Te, <- app_assoc. reflexivity.
        - eapply base_same; [exact B2 | ..]; auto.
        - intros T' C1 C2 C3. change (incl (s_trail s2) T'). assert (Ht : incl (s_trail st) T').
          { apply (r_S _ _ _ R T' C1).
            - intros x Hx. eapply closed_perm; [symmetry; apply (proj2 (q_ar _ _ Q)), (xw_in _ _ _ _ Xw), Hx |]. apply C2. change (In x (s_clauses s2 ++ s_learnts s2)). rewrite (q_cl _ _ Q), (q_ln _ _ Q). exact Hx.
            - intros x Hx. apply C3, in_or_app. auto. }
          eapply (propagate_S T' C1 _ _ _ _ _ E2).
          + exact (q_w _ _ Q1 Xw).
          + intros x Hx Vx. exact (val_false (i_t _ _ _ I1) x Hx Vx).
          + intros x Hx. rewrite (q_cl _ _ Q1), (q_ln _ _ Q1) in Hx. eapply closed_perm; [symmetry; apply (proj2 (q_ar _ _ Q)), (xw_in _ _ _ _ Xw), Hx |]. apply C2. change (In x (s_clauses s2 ++ s_learnts s2)). rewrite (q_cl _ _ Q), (q_ln _ _ Q). exact Hx.
          + change (s_trail st1) with (s_trail st ++ [u]). intros x Hx. apply in_app_or in Hx. destruct Hx as [Hx | [<- | []]]; [auto | apply C3, in_or_app; right; left; auto]. }
      eapply rspec_weak; [apply (IH (done ++ [u]) _ R2) |].
      * change (s_units s2 = (done ++ [u]) ++ r). rewrite (q_un _ _ Q), Eu, <- app_assoc. reflexivity.
      * rewrite <- app_assoc. change (usets s2 (done ++ u :: r)). eapply usets_quiet; eauto.
      * rewrite <- app_assoc. intros x Hx. change (x < 2 * length (s_vars s2)). rewrite (q_nv _ _ Q). apply Ul. exact Hx.
      * intros s [H1 H2]. split; [eapply rfr_trans; eauto |]. rewrite <- app_assoc in H2. exact H2.
Qed.

(** ** Before and after the replay *)
Lemma inv_start : forall st, sizes st -> s_trail st = [] -> s_lim st = [] -> blank (s_vars st) -> hinv (length (s_vars st)) (s_vars st) (s_heap st) -> xws st ->
  inv (map (adata (s_arena st)) (s_clauses st ++ s_learnts st)) 0 (er st).
Proof.
  intros st Z T L B H X. set (D := map _ _).
  assert (NE : forall (l i : nat), nth_error (@nil nat) i = Some l -> False) by (intros l i E; destruct i; discriminate).
  assert (Gd : forall c, In c (s_clauses st ++ s_learnts st) -> goodid D (length (s_vars st)) (s_arena (er st)) c).
  { intros c Hc. destruct (xw_in _ _ _ _ X c Hc) as (K1 & (K2 & K3 & K4) & _). exists (plain (nth c (s_arena st) dcl)). split; [unfold er; ssimp; apply map_nth_error, nth_err_def, K1 |].
    constructor; cbn [plain c_data]; auto. intros V HV. apply HV. unfold D. apply in_map_iff. exists c. auto. }
  constructor; change (s_vars (er st)) with (s_vars st); change (s_trail (er st)) with (s_trail st); change (s_lim (er st)) with (s_lim st); change (s_reasons (er st)) with (s_reasons st);
    change (s_watches (er st)) with (s_watches st); change (s_clauses (er st)) with (s_clauses st); change (s_learnts (er st)) with (s_learnts st); change (s_heap (er st)) with (s_heap st); rewrite ?T, ?L.
  - destruct Z; constructor; auto.
  - constructor.
    + intros l [].
    + constructor.
    + intros l Hl. split; [| intros []]. unfold asg_of. rewrite B by (now apply lvar_lt). cbn. destruct (lsign l); discriminate.
    + intros i l E. destruct (NE _ _ E).
    + intros a b x y E. destruct a; discriminate.
    + auto.
    + intros x [].
    + intros i l E. destruct (NE _ _ E).
    + intros i l E. destruct (NE _ _ E).
  - intros p ws E. assert (Ew : nth p (s_watches st) [] = ws) by (now apply nth_of_some). subst ws. split; [apply X |]. intros c b Hb. destruct (xw_ids _ _ _ _ X _ _ _ Hb) as (K1 & K2 & K3). destruct (Gd c K1) as (cl & E1 & G1).
    assert (Ed : c_data cl = adata (s_arena st) c). { rewrite <- er_adata. unfold adata. now rewrite (nth_of_some _ _ _ _ dcl E1). }
    exists cl. rewrite Ed. split; auto. split; auto. split; auto. split; [apply (gc_lits _ _ _ G1); rewrite Ed; exact K2 |]. split; [auto |]. intros i Hi. lia.
  - intros C HC. unfold D in HC. apply in_map_iff in HC. destruct HC as (c & <- & Hc). destruct (xw_in _ _ _ _ X c Hc) as (K1 & _ & K2). right. exists c, (plain (nth c (s_arena st) dcl)). cbn [plain c_data c_learnt]. split; [exact K2 |].
    split; [unfold er; ssimp; apply map_nth_error, nth_err_def, K1 |]. split; auto. apply incl_refl.
  - intros c Hc. apply Gd, in_or_app. exact Hc.
  - exact H.
Qed.
Lemma ent_trans : forall F G, (forall C, In C F -> entails G C) -> forall C, entails F C -> entails G C.
Proof. intros F G H C E V HV. apply E. intros C' HC. exact (H C' HC V HV). Qed.
Lemma inv_finish : forall A0 st, rst (map (adata A0) (s_clauses st ++ s_learnts st)) (s_units st) st -> permd A0 (s_arena st) ->
  (forall c, In c (s_clauses st ++ s_learnts st) -> c < length A0) ->
  let G := map (adata A0) (s_clauses st) ++ units_of (s_units st) in
  (forall c, In c (s_learnts st) -> entails G (adata A0 c)) -> ginv G st.
Proof.
  intros A0 st R Pd Lt G En. set (D := map (adata A0) (s_clauses st ++ s_learnts st)) in *. pose proof (r_inv _ _ _ R) as I. unfold sinv in I. change (s_qhead (er st)) with (s_qhead st) in I.
  assert (Eq : forall C, entails (D ++ units_of (s_units st)) C -> entails G C).
  { apply ent_trans. intros C HC. apply in_app_or in HC. destruct HC as [HC | HC]; [| intros V HV; apply HV, in_or_app; auto]. unfold D in HC. apply in_map_iff in HC. destruct HC as (c & <- & Hc). apply in_app_or in Hc.
    destruct Hc as [Hc | Hc]; [| auto]. intros V HV. apply HV, in_or_app. left. apply in_map_iff. exists c. auto. }
  assert (Pl : forall c cl, nth_error (s_arena (er st)) c = Some cl -> exists cl', nth_error (s_arena st) c = Some cl' /\ c_data cl' = c_data cl).
  { intros c cl E. unfold er in E. ssimp. change (nth_error (map plain (s_arena st)) c = Some cl) in E. rewrite nth_error_map in E. destruct (nth_error (s_arena st) c) as [cl' |]; [| discriminate]. inversion E. exists cl'. auto. }
  assert (Gc : forall cl cl', goodcl (D ++ units_of (s_units st)) (length (s_vars st)) cl -> c_data cl' = c_data cl -> goodcl G (length (s_vars st)) cl').
  { intros cl cl' [G1 G2 G3 G4] E. constructor; rewrite E; auto. }
  pose proof (r_lim _ _ _ R) as L0. pose proof (r_x _ _ _ R) as X. assert (Es : set_units (s_units st) st = st) by (destruct st; reflexivity). rewrite Es in X.
  constructor; [exact L0 | apply R |]. rewrite (r_ok _ _ _ R). exists G. split; [auto |]. split; [auto |]. destruct I as [Z T W C V H]. constructor; auto.
  - destruct Z; constructor; auto.
  - destruct T as [T1 T2 T3 T4 T5 T6 T7 T8 T9]. constructor; auto.
    + intros i l _ K. rewrite L0 in K. cbn in K. lia.
    + intros i l E1 E2. apply Eq. exact (T9 i l E1 E2).
  - intros p ws Ep. destruct (W p ws Ep) as [N K]. split; auto. intros c b Hb. destruct (K c b Hb) as (cl & K1 & K2 & K3 & K4 & K5 & K6). destruct (Pl c cl K1) as (cl' & E1 & E2). exists cl'. rewrite E2. split; auto. split; [eapply Gc; eauto |]. split; [exact K3 |]. split; [exact K4 |].
    split; [exact K5 | exact K6].
  - intros c Hc. unfold G in Hc. apply in_app_or in Hc. destruct Hc as [Hc | Hc].
    + apply in_map_iff in Hc. destruct Hc as (x & <- & Hx). assert (Hx2 : In x (s_clauses st ++ s_learnts st)) by (apply in_or_app; auto). destruct (xw_in _ _ _ _ (x_w _ X) x Hx2) as (K1 & _ & K2). right. exists x, (nth x (s_arena st) dcl).
      split; [exact K2 |]. split; [apply nth_err_def, K1 |]. split; [apply X, Hx |]. intros l Hl. eapply Permutation_in; [symmetry; apply (proj2 Pd x (Lt x Hx2)) | exact Hl].
    + unfold units_of in Hc. apply in_map_iff in Hc. destruct Hc as (u & <- & Hu). destruct (x_u0 _ X (r_ok _ _ _ R) u Hu) as (j & J1 & J2). left. exists j, u. split; auto. split; [left; auto | auto].
  - intros c Hc. destruct (V c Hc) as (cl & K1 & K2). destruct (Pl c cl K1) as (cl' & E1 & E2). exists cl'. split; auto. eapply Gc; eauto.
Qed.

(** ** Loading a state *)
Record snapok (st : solver) (sn : snapshot) (Fs : list (list nat)) : Prop := {
  sn_v : n_vars sn <= length (s_vars st);
  sn_c : n_clauses sn <= length (s_clauses st);
  sn_l : n_learnts sn <= length (s_learnts st);
  sn_u : n_units sn <= length (s_units st);
  sn_wf : forall c, In c (firstn (n_clauses sn) (s_clauses st) ++ firstn (n_learnts sn) (s_learnts st)) -> wfdata (n_vars sn) (adata (s_arena st) c);
  sn_ul : forall u, In u (firstn (n_units sn) (s_units st)) -> u < 2 * n_vars sn;
  sn_ok : n_ok sn = true ->
    (forall V, all_true V (map (adata (s_arena st)) (firstn (n_clauses sn) (s_clauses st)) ++ units_of (firstn (n_units sn) (s_units st))) <-> all_true V Fs) /\
    (forall c, In c (firstn (n_learnts sn) (s_learnts st)) -> entails Fs (adata (s_arena st) c));
  sn_no : n_ok sn = false -> entails Fs [] }.
(** No clause stored after the saved state has the literals of another stored clause of the same kind. *)
Definition apart (sn : snapshot) (st : solver) : Prop := forall c d, In c (skipn (n_clauses sn) (s_clauses st)) -> In d (s_clauses st) -> c <> d -> ~ alike (s_arena st) c d.
(** The learnt clauses differ from each other and from the other clauses. *)
Lemma apart_all : forall sn st, stru st -> xst st -> apart sn st -> forall c d, In c (skipn (n_clauses sn) (s_clauses st) ++ skipn (n_learnts sn) (s_learnts st)) ->
  In d (s_clauses st ++ s_learnts st) -> c <> d -> ~ alike (s_arena st) c d.
Proof.
  intros sn st U X Ap c d Hc Hd N [A1 A2]. assert (Sk : forall n (l : list nat) x, In x (skipn n l) -> In x l) by (intros n l x Hx; rewrite <- (firstn_skipn n l); apply in_or_app; auto).
  pose proof (b_l _ _ (u_base _ U)) as Bl. apply in_app_or in Hc, Hd. destruct Hc as [Hc | Hc]; destruct Hd as [Hd | Hd].
  - exact (Ap c d Hc Hd N (conj A1 A2)).
  - rewrite (Bl d Hd), (x_cf _ X c (Sk _ _ _ Hc)) in A2. discriminate.
  - rewrite (Bl c (Sk _ _ _ Hc)), (x_cf _ X d Hd) in A2. discriminate.
  - apply (x_d _ X c d (Sk _ _ _ Hc) Hd N). unfold adata. now rewrite A1.
Qed.
Definition loaded (Fs : list (list nat)) (sn : snapshot) (st s : solver) : Prop :=
  xst s /\ length (s_vars s) = n_vars sn /\ s_clauses s = firstn (n_clauses sn) (s_clauses st) /\ s_learnts s = firstn (n_learnts sn) (s_learnts st) /\
  s_units s = firstn (n_units sn) (s_units st) /\ permd (s_arena st) (s_arena s) /\ (s_ok s = true -> qt s) /\
  if s_ok s then n_ok sn = true /\ exists G, (forall V, all_true V G <-> all_true V Fs) /\ ginv G s else entails Fs [] /\ stru s.
Lemma load_ok : forall cfg orc fuel sn Fs st, g_incremental cfg = true -> stru st -> xst st -> snapok st sn Fs -> apart sn st ->
  rspec (load_state cfg orc fuel sn st) (loaded Fs sn st).
Proof.
  intros cfg orc fuel sn Fs st Inc U X S0 Ap0. pose proof (apart_all sn st U X Ap0) as Ap. unfold load_state. rewrite Inc. cbn [negb]. destruct U as [L0 B Z Hh]. destruct Hh as (Ho & Hl & Ha).
  destruct (backtrack_vars_ok (length (s_vars st)) 0 st) as (vs & R & h & E1 & Lvs & LR & Hh1 & Hh2 & Hx); auto; [lia | intros x Hx; lia |].
  unfold complete_backtrack. rewrite E1. cbn [rbind]. set (st1 := set_qhead 0 _). set (st2 := set_ok (n_ok sn) st1). change (s_vars st2) with vs. rewrite Lvs.
  pose proof (sn_v _ _ _ S0) as Hn. set (n := n_vars sn) in *. rewrite (Nat.min_l n) by exact Hn.
  destruct (unheap_ok (length (s_vars st) - n) n st2) as (h' & E2 & Hh3 & Hh4 & Hh5).
  { change (hok (length (s_acts st)) h). rewrite (z_a _ Z). exact Hh1. }
  { intros x Hx'. change (In x (hp h)). apply Hx. lia. }
  { intros x Hx'. change (In x (hp h)) in Hx'. destruct Hh1 as [_ K]. specialize (K x Hx'). lia. }
  rewrite E2. cbn [rbind]. set (st3 := set_heap h' st2). set (st4 := set_reasons (firstn n (s_reasons st3)) _).
  change (s_clauses st4) with (s_clauses st). rewrite (Nat.min_l (n_clauses sn)) by (apply S0).
  set (nc := n_clauses sn) in *. set (nl := n_learnts sn) in *.
  destruct (detach_all_x cfg orc (length (s_vars st)) (rev (skipn nc (s_clauses st))) (firstn nc (s_clauses st) ++ s_learnts st) st4) as (W1 & E3 & X3).
  { change (s_arena st4) with (s_arena st). change (s_watches st4) with (s_watches st). eapply xw_perm; [| apply (x_w _ X)]. rewrite app_assoc. apply Permutation_app_tail. rewrite <- (firstn_skipn nc (s_clauses st)) at 1.
    etransitivity; [apply Permutation_app_comm |]. apply Permutation_app_tail, Permutation_rev. }
  { intros c d Hc Hd. change (s_arena st4) with (s_arena st). apply Ap; [apply in_or_app; left; apply in_rev; exact Hc |]. apply in_app_or in Hd. apply in_or_app. destruct Hd as [Hd | Hd]; [left; rewrite <- (firstn_skipn nc (s_clauses st)); apply in_or_app; right; apply in_rev; exact Hd |].
    apply in_app_or in Hd. destruct Hd as [Hd | Hd]; [left; rewrite <- (firstn_skipn nc (s_clauses st)); apply in_or_app; auto | auto]. }
  rewrite E3. cbn [rbind]. set (st6 := set_clauses _ _). change (s_learnts st6) with (s_learnts st). rewrite (Nat.min_l nl) by (apply S0).
  destruct (detach_all_x cfg orc (length (s_vars st)) (rev (skipn nl (s_learnts st))) (firstn nc (s_clauses st) ++ firstn nl (s_learnts st)) st6) as (W2 & E4 & X4).
  { change (s_arena st6) with (s_arena st). change (s_watches st6) with W1. change (s_arena st4) with (s_arena st) in X3. eapply xw_perm; [| exact X3]. rewrite <- (firstn_skipn nl (s_learnts st)) at 1. rewrite app_assoc.
    etransitivity; [apply Permutation_app_comm |]. apply Permutation_app_tail, Permutation_rev. }
  { intros c d Hc Hd. change (s_arena st6) with (s_arena st). apply Ap; [apply in_or_app; right; apply in_rev; exact Hc |]. apply in_app_or in Hd. apply in_or_app. destruct Hd as [Hd | Hd]; [right; rewrite <- (firstn_skipn nl (s_learnts st)); apply in_or_app; right; apply in_rev; exact Hd |].
    apply in_app_or in Hd. destruct Hd as [Hd | Hd]; [left; rewrite <- (firstn_skipn nc (s_clauses st)); apply in_or_app; auto | right; rewrite <- (firstn_skipn nl (s_learnts st)); apply in_or_app; auto]. }
  rewrite E4. cbn [rbind]. set (st8 := set_learnts _ _). set (st10 := set_units _ _). change (s_units st10) with (firstn (n_units sn) (s_units st)).
  change (s_arena st6) with (s_arena st) in X4. set (us := firstn (n_units sn) (s_units st)) in *.
  assert (F1 : s_vars st10 = firstn n vs) by reflexivity. assert (F2 : s_arena st10 = s_arena st) by reflexivity. assert (F3 : s_clauses st10 = firstn nc (s_clauses st)) by reflexivity.
  assert (F4 : s_learnts st10 = firstn nl (s_learnts st)) by reflexivity. assert (F5 : s_watches st10 = firstn (n * 2) W2) by reflexivity. assert (F6 : s_reasons st10 = firstn n R) by reflexivity.
  assert (F7 : s_acts st10 = firstn n (s_acts st)) by reflexivity. assert (F8 : s_heap st10 = h') by reflexivity. assert (F9 : s_trail st10 = []) by reflexivity. assert (F10 : s_lim st10 = []) by reflexivity.
  assert (F11 : s_ok st10 = n_ok sn) by reflexivity. assert (F12 : s_selo st10 = []) by (change (s_selo st = []); apply X). assert (F13 : s_units st10 = us) by reflexivity. assert (F14 : s_seen st10 = s_seen st) by reflexivity.
  assert (F15 : s_assum st10 = s_assum st) by reflexivity. assert (F16 : s_qhead st10 = 0) by reflexivity. clearbody st10.
  assert (Lv : length (s_vars st10) = n) by (rewrite F1, firstn_length; lia).
  assert (Lin : forall c, In c (firstn nc (s_clauses st) ++ firstn nl (s_learnts st)) -> In c (s_clauses st ++ s_learnts st)).
  { intros c Hc. apply in_app_or in Hc. apply in_or_app. destruct Hc as [Hc | Hc]; [left; rewrite <- (firstn_skipn nc (s_clauses st)) | right; rewrite <- (firstn_skipn nl (s_learnts st))]; apply in_or_app; auto. }
  assert (Xw : xws st10). { unfold xws. rewrite Lv, F2, F3, F4, F5, (Nat.mul_comm n 2). eapply xw_trunc; [exact X4 | exact Hn | apply S0]. }
  assert (Zs : sizes st10).
  { destruct Z as [Z1 Z2 Z3 Z4 Z5]. constructor; rewrite ?Lv.
    - rewrite (xw_len _ _ _ _ Xw). now rewrite Lv.
    - rewrite F6, firstn_length. lia.
    - rewrite F7, firstn_length. lia.
    - rewrite F14. lia.
    - intros v Hv. rewrite F1, nth_firstn_lt by exact Hv. apply Hx. lia. }
  assert (Bl : blank (s_vars st10)) by (intros v Hv; rewrite Lv in Hv; rewrite F1, nth_firstn_lt by exact Hv; apply Hx; lia).
  assert (Hi : hinv (length (s_vars st10)) (s_vars st10) (s_heap st10)).
  { rewrite Lv, F8. split; [exact Hh3 |]. split; [change (s_heap st2) with h in Hh4; lia |]. intros v Hv _. apply Hh5. exact Hv. }
  assert (B10 : @base (length (s_vars st10)) [] st10).
  { destruct B as [B1 B2 B3 B4 B5 B6]. constructor; auto.
    - intros v. rewrite F14. apply B1.
    - intros c Hc. rewrite F2. apply B2. rewrite F4 in Hc. rewrite <- (firstn_skipn nl (s_learnts st)). apply in_or_app. auto.
    - congruence.
    - intros a [].
    - rewrite F12. intros l []. }
  assert (Cf : forall c, In c (s_clauses st10) -> c_learnt (nth c (s_arena st10) dcl) = false).
  { intros c Hc. rewrite F2. apply (x_cf _ X). rewrite F3 in Hc. rewrite <- (firstn_skipn nc (s_clauses st)). apply in_or_app. auto. }
  assert (Us : usets st10 us).
  { intros k u Hu. assert (Hu2 : nth_error (s_units st) k = Some u /\ k < n_units sn) by (unfold us in Hu; rewrite nth_firstn in Hu; destruct (Nat.ltb_spec k (n_units sn)); [auto | discriminate]). destruct Hu2 as [Hu2 Hk].
    destruct (xst_usets _ X k u Hu2) as (T & T1 & T2 & T3 & T4 & T5). exists T. split; auto. split; auto. split; auto. split.
    - unfold us. rewrite firstn_firstn, Nat.min_l by lia. exact T4.
    - rewrite F2, F3, F4. intros c Hc. apply T5, Lin, Hc. }
  assert (Ul : forall u, In u us -> u < 2 * length (s_vars st10)) by (rewrite Lv; apply S0).
  assert (Ld : ldiff st10) by (apply (ldiff_mono st); [apply X | rewrite F4; intros c Hc; rewrite <- (firstn_skipn nl (s_learnts st)); apply in_or_app; auto | now rewrite F2]).
  destruct (n_ok sn) eqn:On.
  - set (D := map (adata (s_arena st10)) (s_clauses st10 ++ s_learnts st10)).
    assert (R0 : rst D [] st10).
    { constructor; auto.
      - unfold sinv. change (s_qhead (er st10)) with (s_qhead st10). rewrite F16. cbn [units_of map]. rewrite app_nil_r. apply inv_start; auto.
      - unfold qt. now rewrite F9, F16.
      - constructor; auto.
        + intros u [].
        + intros _ u [].
        + intros k u Hu. change (nth_error (@nil nat) k = Some u) in Hu. destruct k; discriminate.
      - intros T _ _ _. rewrite F9. intros x []. }
    pose proof (replay_ok D fuel us [] st10 R0 F13 Us Ul) as RO. eapply rspec_weak; [exact RO |]. intros s [[K1 K2 K3 K4 K5] Hs]. cbn [app] in Hs. destruct (sn_ok _ _ _ S0 On) as [Eq1 Eq2].
    assert (EL : forall c, In c (firstn nl (s_learnts st)) -> entails (map (adata (s_arena st)) (firstn nc (s_clauses st)) ++ units_of us) (adata (s_arena st) c)).
    { intros c Hc V HV. apply (Eq2 c Hc V). now apply Eq1. }
    assert (Xs : xst s).
    { destruct (s_ok s); [| apply Hs]. pose proof (r_x _ _ _ Hs) as Y. rewrite <- F13, <- K4 in Y. replace (set_units (s_units s) s) with s in Y by (destruct s; reflexivity). exact Y. }
    split; [exact Xs |]. split; [lia |]. split; [rewrite K2; exact F3 |]. split; [rewrite K3; exact F4 |]. split; [rewrite K4; exact F13 |]. split; [rewrite <- F2; exact K5 |].
    destruct (s_ok s) eqn:Os.
    + split; [intros _; apply Hs |]. split; auto. exists (map (adata (s_arena st10)) (s_clauses s) ++ units_of (s_units s)). split.
      * intros V. rewrite K2, F3, K4, F13, F2. apply Eq1.
      * apply inv_finish; auto.
        -- rewrite K2, K3, K4, F13. exact Hs.
        -- rewrite K2, K3. intros c Hc. apply (xw_in _ _ _ _ Xw), Hc.
        -- rewrite K2, K3, K4, F2, F3, F4, F13. exact EL.
    + split; [discriminate |]. split; [| apply Hs]. intros V HV. destruct Hs as (He & _). apply He. intros C HC. unfold D in HC. rewrite F2, F3, F4 in HC. pose proof (proj2 (Eq1 V) HV) as HV2. apply in_app_or in HC. destruct HC as [HC | HC]; [| apply HV2, in_or_app; auto].
      apply in_map_iff in HC. destruct HC as (c & <- & Hc). apply in_app_or in Hc. destruct Hc as [Hc | Hc]; [apply HV2, in_or_app; left; apply in_map_iff; exists c; auto | exact (Eq2 c Hc V HV)].
  - rewrite replay_false by exact F11. cbn [rspec]. unfold loaded. rewrite F2, F3, F4, F13, F11, Lv.
    split; [apply xst_false; auto; rewrite F13; auto |]. repeat (split; [reflexivity |]). split; [apply permd_refl |]. split; [discriminate |]. split; [apply S0; exact On |]. constructor; auto.
Qed.
