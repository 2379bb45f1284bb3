(** The Plaisted-Greenbaum transformation on the solver. *)
From Coq Require Import NArith ZArith List Bool Arith Lia.
From Verif Require Import Base EncodingModel Syntax FactoryModel FactoryInv FactoryBasics FactoryProofs FactorySpecs FactoryNary FactoryOps
  EvalProofs InvariantSpec HashConsProofs InvariantProofs HistoryProofs ConstraintModel ConstraintProofs OpsModel OpsProofs CcModel EncBasics
  PbModel CacheModel TransModel TreeSpec WorldProofs MetricsProofs EncodeProofs NnfProofs CnfProofs DefBasics TseitinProofs EncoderProofs
  SatModel MiniModel OptModel PgSolverModel.
Import ListNotations.
Local Open Scope N_scope.

Lemma csat_app : forall v a b, csat v (a ++ b) <-> csat v a \/ csat v b.
Proof.
  intros v a b. split.
  - intros (l & Hl & T). apply in_app_iff in Hl. destruct Hl; [left | right]; exists l; auto.
  - intros [(l & Hl & T) | (l & Hl & T)]; exists l; split; auto using in_or_app.
Qed.
Lemma csat_cons : forall v l c, csat v (l :: c) <-> lit_sem v l = true \/ csat v c.
Proof.
  intros v l c. split.
  - intros (k & [<- | Hk] & T); [left; assumption | right; exists k; auto].
  - intros [H | (k & Hk & T)]; [exists l; split; [left; reflexivity | assumption] | exists k; split; [right; assumption | assumption]].
Qed.
Lemma csat_nil : forall v, ~ csat v [].
Proof. intros v (l & [] & _). Qed.
Lemma sat_snoc : forall v a c, sat v (a ++ [c]) <-> sat v a /\ csat v c.
Proof.
  intros v a c. split.
  - intros H. split; [intros d Hd; apply H; apply in_or_app; auto | apply H; apply in_or_app; right; left; reflexivity].
  - intros [H1 H2] d Hd. apply in_app_iff in Hd. destruct Hd as [Hd | [<- | []]]; auto.
Qed.
Lemma sat_app2 : forall v a b, sat v (a ++ b) <-> sat v a /\ sat v b.
Proof.
  intros v a b. split.
  - intros H. split; intros c Hc; apply H; apply in_or_app; auto.
  - intros [H1 H2] c Hc. apply in_app_iff in Hc. destruct Hc; auto.
Qed.
Lemma sat_nil_t : forall v, sat v [].
Proof. intros v c []. Qed.

Lemma lit_sem_lit : forall v u p, lit_sem v (Lit u p) = true <-> v u = p.
Proof. intros v u []; cbn [lit_sem]; [reflexivity |]. destruct (v u); cbn; intuition congruence. Qed.
Lemma neq_negb : forall a b : bool, a = negb b <-> a <> b.
Proof. intros [] []; cbn; intuition congruence. Qed.
Lemma sem_pol_eq : forall p v x, sem v (pol p x) = true <-> sem v x = p.
Proof. intros [] v x; cbn [pol sem]; [reflexivity |]. destruct (sem v x); cbn; intuition congruence. Qed.
Lemma pol_not : forall p v x, sem v (pol p (FNot x)) = sem v (pol (negb p) x).
Proof. intros [] v x; cbn; [reflexivity | apply negb_involutive]. Qed.
Lemma sem_all : forall p v xs, sem v (pol p (fnary p xs)) = true <-> Forall (fun y => sem v (pol p y) = true) xs.
Proof.
  intros p v xs. rewrite sem_pol_eq, sem_fnary. unfold nary_sem. destruct p; cbn [pol].
  - rewrite forallb_forall, Forall_forall. reflexivity.
  - cbn [sem]. rewrite Forall_forall. split.
    + intros H y Hy. destruct (sem v y) eqn:E; [| reflexivity]. assert (existsb (sem v) xs = true) by (apply existsb_exists; eauto). congruence.
    + intros H. destruct (existsb (sem v) xs) eqn:E; [| reflexivity]. apply existsb_exists in E. destruct E as (y & Hy & Ty). specialize (H y Hy). rewrite Ty in H. discriminate.
Qed.
Lemma sem_some : forall p v xs, sem v (pol p (fnary (negb p) xs)) = true <-> Exists (fun y => sem v (pol p y) = true) xs.
Proof.
  intros p v xs. rewrite sem_pol_eq, sem_fnary. unfold nary_sem. rewrite Exists_exists. destruct p; cbn [pol negb].
  - rewrite existsb_exists. reflexivity.
  - cbn [sem]. split.
    + intros H. induction xs as [| a r IH]; [discriminate |]. cbn [forallb] in H. apply andb_false_iff in H. destruct H as [H | H]; [exists a; rewrite H; cbn; auto |].
      destruct (IH H) as (y & Hy & T). exists y. cbn. auto.
    + intros (y & Hy & T). destruct (forallb (sem v) xs) eqn:E; [| reflexivity]. rewrite forallb_forall in E. rewrite (E y Hy) in T. discriminate.
Qed.

(* ------------------------------------------------------------------------------------------------------------------ *)
(** * The cache *)

Definition flag (p : bool) (e : pg_entry) : bool := if p then pe_pos e else pe_neg e.
Definition opens := N -> var -> bool -> Prop.
(** The variable stands for the formula in the world of definitions; a set flag means that the clauses give the implication,
    or that the formula is in progress. *)
Definition pge_ok (O : opens) (W : world) (G : list (list lit)) (s : factory) (h : N) (e : pg_entry) : Prop :=
  exists x, hdl s h x /\ known s (pe_var e) /\ (forall v, W v -> v (pe_var e) = sem v x)
  /\ forall p, flag p e = true -> O h (pe_var e) p \/ forall V, sat V G -> V (pe_var e) = p -> sem V (pol p x) = true.
Definition pgc_ok (O : opens) (W : world) (G : list (list lit)) (s : factory) (c : pg_cache) : Prop :=
  forall h e, assoc N.eqb h c = Some e -> pge_ok O W G s h e.
Definition none : opens := fun _ _ _ => False.
Definition with_open (O : opens) (h : N) (ou : option var) (p : bool) : opens := fun k w b => O k w b \/ (k = h /\ Some w = ou /\ b = p).

Lemma pgc_ext : forall O W W' G G' s s' c, ext s s' -> sub W' W -> (forall V, sat V G' -> sat V G) -> pgc_ok O W G s c -> pgc_ok O W' G' s' c.
Proof.
  intros O W W' G G' s s' c He Hs Hg H h e E. destruct (H h e E) as (x & H1 & H2 & H3 & H4). exists x. split; [eapply hdl_ext; eauto |]. split; [eapply known_ext; eauto |].
  split; [auto |]. intros p Hp. destruct (H4 p Hp) as [K | K]; auto.
Qed.
Lemma pgc_weaken : forall (O O' : opens) W G s c, (forall h u p, O h u p -> O' h u p) -> pgc_ok O W G s c -> pgc_ok O' W G s c.
Proof. intros O O' W G s c Ho H h e E. destruct (H h e E) as (x & H1 & H2 & H3 & H4). exists x. split; auto. split; auto. split; auto. intros p Hp. destruct (H4 p Hp); auto. Qed.
(** Closing a formula in progress. *)
Lemma pgc_close : forall O W G s c h x ou p, hdl s h x -> (forall u, ou = Some u -> forall V, sat V G -> V u = p -> sem V (pol p x) = true) ->
  pgc_ok (with_open O h ou p) W G s c -> pgc_ok O W G s c.
Proof.
  intros O W G s c h x ou p Hx Hu H k e E. destruct (H k e E) as (y & H1 & H2 & H3 & H4). exists y. split; auto. split; auto. split; auto. intros q Hq.
  destruct (H4 q Hq) as [[K | (-> & K2 & ->)] | K]; auto. right. assert (y = x) as -> by (eapply denotes_fun; [apply H1 | apply Hx]). apply Hu. congruence.
Qed.

Lemma assoc_cons_same : forall A h (e : A) c, assoc N.eqb h ((h, e) :: c) = Some e.
Proof. intros. cbn [assoc]. now rewrite N.eqb_refl. Qed.
Lemma assoc_cons_other : forall A h k (e : A) c, k <> h -> assoc N.eqb k ((h, e) :: c) = assoc N.eqb k c.
Proof. intros A h k e c H. cbn [assoc]. destruct (N.eqb_spec k h); [contradiction | reflexivity]. Qed.
Lemma pgc_cons : forall O W G s c h e, pge_ok O W G s h e -> pgc_ok O W G s c -> pgc_ok O W G s ((h, e) :: c).
Proof.
  intros O W G s c h e He Hc k e' E. destruct (N.eq_dec k h) as [-> | Hn]; [rewrite assoc_cons_same in E; injection E as <-; assumption |].
  rewrite assoc_cons_other in E by assumption. auto.
Qed.

Lemma mono_unwrapM : forall A (o : option A), mono (unwrapM o).
Proof. intros A [a |]; [apply mono_ret | apply mono_fail]. Qed.
Lemma mono_get_pg_var : forall h p st, mono (get_pg_var h p st).
Proof.
  intros h p st. unfold get_pg_var. destruct (assoc N.eqb h (ps_cache st)); [destruct (set_polarity_cached p p0); apply mono_ret |].
  apply mono_bind; [auto with mono |]. intros u. destruct (set_polarity_cached p _). apply mono_ret.
Qed.
Lemma mono_maybe_pg_var : forall k h p st, mono (maybe_pg_var k h p st).
Proof. intros [] h p st; [apply mono_ret |]. apply mono_bind; [apply mono_get_pg_var | intros; apply mono_ret]. Qed.
Global Hint Resolve mono_unwrapM mono_maybe_pg_var : mono.

Lemma polarity_flag : forall p e was e', set_polarity_cached p e = (was, e') -> was = flag p e /\ pe_var e' = pe_var e /\ forall q, flag q e' = true -> flag q e = true \/ q = p.
Proof.
  intros p e was e' H. unfold set_polarity_cached in H. destruct p; injection H as <- <-; cbn; (split; [reflexivity |]; split; [reflexivity |]); intros []; cbn; auto.
Qed.

Definition skips (ou : option var) : bool := match ou with None => true | Some _ => false end.
Definition pg_of (ou : option var) : option lit := option_map (fun u => Lit u true) ou.
Lemma maybe_spec : forall skip h p st O W G s x, inv W s -> hdl s h x -> pgc_ok O W G s (ps_cache st) ->
  xspec W s (maybe_pg_var skip h p st) (fun r s' W' => ps_out (snd r) = ps_out st /\ exists ou, snd (fst r) = pg_of ou /\ skip = skips ou
    /\ (forall u, ou = Some u -> known s' u /\ forall v, W' v -> v u = sem v x)
    /\ if fst (fst r) then skip = false /\ pgc_ok O W' G s' (ps_cache (snd r)) /\ forall u, ou = Some u -> O h u p \/ forall V, sat V G -> V u = p -> sem V (pol p x) = true
       else pgc_ok (with_open O h ou p) W' G s' (ps_cache (snd r))).
Proof.
  intros skip h p st O W G s x Hi Hx Hc. unfold maybe_pg_var. destruct skip.
  { apply x_ret; [assumption |]. cbn [fst snd]. split; [reflexivity |]. exists None. split; [reflexivity |]. split; [reflexivity |]. split; [discriminate |].
    eapply pgc_weaken; [| exact Hc]. intros. left. assumption. }
  unfold get_pg_var. destruct (assoc N.eqb h (ps_cache st)) as [e |] eqn:Ea.
  - destruct (set_polarity_cached p e) as [was e'] eqn:Ep. destruct (polarity_flag _ _ _ _ Ep) as (-> & Ev & Ef). destruct (Hc h e Ea) as (y & H1 & H2 & H3 & H4).
    assert (y = x) as -> by (eapply denotes_fun; [apply H1 | apply Hx]). 
    eapply x_bind with (Q1 := fun r s' W' => r = (flag p e, Lit (pe_var e) true, mkPgs ((h, e') :: ps_cache st) (ps_out st)) /\ s' = s /\ W' = W); [apply x_ret; auto | intros; apply mono_ret |].
    intros r s1 W1 Hi1 _ _ (-> & -> & ->). apply x_ret; [assumption |]. cbn [fst snd ps_out ps_cache]. split; [reflexivity |]. exists (Some (pe_var e)). split; [reflexivity |]. split; [reflexivity |].
    split; [intros u [= <-]; auto |]. destruct (flag p e) eqn:Fp.
    + split; [reflexivity |]. split; [| intros u [= <-]; auto]. apply pgc_cons; [| assumption]. exists x. rewrite Ev. split; auto. split; auto. split; auto. intros q Hq. destruct (Ef q Hq) as [K | ->]; auto.
    + apply pgc_cons; [| eapply pgc_weaken; [| exact Hc]; intros; left; assumption]. exists x. rewrite Ev. split; auto. split; auto. split; auto.
      intros q Hq. destruct (Ef q Hq) as [K | ->]; [destruct (H4 q K) as [K' | K']; [left; left; assumption | right; assumption] |]. left. right. auto.
  - eapply x_bind with (Q1 := fun r s' W' => exists u e', r = (false, Lit u true, mkPgs ((h, e') :: ps_cache st) (ps_out st)) /\ pe_var e' = u /\ (forall q, flag q e' = true -> q = p) /\ known s' u /\ forall v, W' v -> v u = sem v x);
      [| intros; apply mono_ret |].
    + eapply x_bind with (Q1 := fun u s' W' => known s' u /\ forall v, W' v -> v u = sem v x); [| intros; destruct (set_polarity_cached p _); apply mono_ret |].
      * eapply x_shrink; [apply x_new_aux; assumption |]. intros u s' W' Hi' He Hs' (-> & i & Eu & Hnk & Hk). exists (define W u x). split; [intros v Hv; apply Hv |].
        split; [| split; [assumption | intros v Hv; apply Hv]]. eapply (grows_world W _ s s'); eauto; [apply Hi | |].
        -- eapply define_grows; eauto; [exact (proj2 (i_world _ _ Hi)) | apply Hx].
        -- apply define_closed; [exact (proj2 (i_world _ _ Hi')) | assumption |]. eapply kn_ext; [exact He | apply Hx].
      * intros u s' W' Hi' He Hs' (Hk & Hd). destruct (set_polarity_cached p (mkPgEntry u false false)) as [was e'] eqn:Ep. destruct (polarity_flag _ _ _ _ Ep) as (_ & Ev & Ef).
        apply x_ret; [assumption |]. exists u, e'. split; [reflexivity |]. split; [exact Ev |]. split; auto. intros q Hq. destruct (Ef q Hq) as [K | K]; [destruct q; discriminate | assumption].
    + intros r s' W' Hi' He Hs' (u & e' & -> & Ev & Ef & Hk & Hd). apply x_ret; [assumption |]. cbn [fst snd ps_out ps_cache]. split; [reflexivity |]. exists (Some u). split; [reflexivity |]. split; [reflexivity |].
      split; [intros w [= <-]; auto |]. apply pgc_cons; [| eapply pgc_weaken; [| eapply pgc_ext; [exact He | exact Hs' | | exact Hc]; auto]; intros; left; assumption].
      exists x. rewrite Ev. split; [eapply hdl_ext; eauto |]. split; auto. split; auto. intros q Hq. apply Ef in Hq. subst q. left. right. auto.
Qed.

(* ------------------------------------------------------------------------------------------------------------------ *)
(** * The recursion *)

Definition lits_known (s : factory) (c : list lit) : Prop := Forall (fun l => known s (lit_var l)) c.
Definition cls_known (s : factory) (cs : list (list lit)) : Prop := Forall (lits_known s) cs.
Lemma lits_known_ext : forall s s' c, ext s s' -> lits_known s c -> lits_known s' c.
Proof. intros s s' c He H. eapply Forall_impl; [| exact H]. intros l. apply known_ext; assumption. Qed.
Lemma cls_known_ext : forall s s' cs, ext s s' -> cls_known s cs -> cls_known s' cs.
Proof. intros s s' cs He H. eapply Forall_impl; [| exact H]. intros l. apply lits_known_ext; assumption. Qed.

(** What a call adds: [new] with its side conditions. *)
Record adds (B : list (list lit)) (O : opens) (st st' : pgs) (s' : factory) (W' : world) (new : list (list lit)) : Prop := {
  a_out : ps_out st' = ps_out st ++ new;
  a_cache : pgc_ok O W' (B ++ ps_out st') s' (ps_cache st');
  a_known : cls_known s' new }.
Definition pgs_post (B : list (list lit)) (O : opens) (top p : bool) (x : fml) (st : pgs) (q : option (list lit) * pgs) (s' : factory) (W' : world) : Prop :=
  exists new, adds B O st (snd q) s' W' new
  /\ (forall v, W' v -> (top = true -> sem v (pol p x) = true) -> sat v new)
  /\ match fst q with
     | Some L => lits_known s' L /\ (forall v, W' v -> sem v (pol p x) = true -> csat v L)
                 /\ (forall V, sat V (B ++ ps_out (snd q)) -> csat V L -> sem V (pol p x) = true)
     | None => top = true /\ (forall V, sat V (B ++ ps_out (snd q)) -> sem V (pol p x) = true)
     end.

(** Formulas in progress are larger. *)
Definition above (O : opens) (s : factory) (x : fml) : Prop := forall k u b, O k u b -> exists y, hdl s k y /\ (depth x < depth y)%nat.
Lemma above_ext : forall O s s' x, ext s s' -> above O s x -> above O s' x.
Proof. intros O s s' x He H k u b K. destruct (H k u b K) as (y & H1 & H2). exists y. split; [eapply hdl_ext; eauto | assumption]. Qed.
Lemma above_open : forall O s h x y ou p, hdl s h x -> (depth y < depth x)%nat -> above O s x -> above (with_open O h ou p) s y.
Proof.
  intros O s h x y ou p Hx Hd H k u b [K | (-> & _)]; [| exists x; auto]. destruct (H k u b K) as (z & H1 & H2). exists z. split; [assumption | lia].
Qed.
Lemma above_self : forall O s h x u b, hdl s h x -> above O s x -> ~ O h u b.
Proof. intros O s h x u b Hx H K. destruct (H h u b K) as (y & Hy & Hd). assert (y = x) as -> by (eapply denotes_fun; [apply Hy | apply Hx]). lia. Qed.

Definition shape_ok (x : fml) : Prop := con_free x = true /\ ~ is_const x.

Lemma x_ret_bind : forall A B W s (a : A) (k : A -> M B) Q, xspec W s (k a) Q -> xspec W s (bind (ret a) k) Q.
Proof. intros A B W s a k Q H. exact H. Qed.
Lemma adds_refl : forall B O st s W, pgc_ok O W (B ++ ps_out st) s (ps_cache st) -> adds B O st st s W [].
Proof. intros B O st s W H. constructor; [now rewrite app_nil_r | assumption | constructor]. Qed.
Lemma adds_trans : forall B O st st1 st2 s1 s2 W1 W2 n1 n2, ext s1 s2 -> adds B O st st1 s1 W1 n1 -> adds B O st1 st2 s2 W2 n2 -> adds B O st st2 s2 W2 (n1 ++ n2).
Proof.
  intros B O st st1 st2 s1 s2 W1 W2 n1 n2 He [A1 A2 A3] [B1 B2 B3]. constructor; [now rewrite B1, A1, app_assoc | assumption |]. apply Forall_app. split; [eapply cls_known_ext; eauto | assumption].
Qed.
Lemma adds_emit : forall B O st st' s W new c, lits_known s c -> adds B O st st' s W new -> adds B O st (pgs_emit c st') s W (new ++ [c]).
Proof.
  intros B O st st' s W new c Hc [A1 A2 A3]. constructor; cbn [pgs_emit ps_out ps_cache].
  - now rewrite A1, app_assoc.
  - eapply pgc_ext; [apply ext_refl | apply sub_refl | | exact A2]. intros V HV. rewrite app_assoc in HV. apply sat_app2 in HV. apply HV.
  - apply Forall_app. split; [assumption |]. constructor; [assumption | constructor].
Qed.
Lemma adds_close : forall B O st st' s W new h x ou p, hdl s h x -> (forall u, ou = Some u -> forall V, sat V (B ++ ps_out st') -> V u = p -> sem V (pol p x) = true) ->
  adds B (with_open O h ou p) st st' s W new -> adds B O st st' s W new.
Proof. intros B O st st' s W new h x ou p Hx Hu [A1 A2 A3]. constructor; [assumption | eapply pgc_close; eauto | assumption]. Qed.
Lemma adds_sat : forall B O st st' s W new V, adds B O st st' s W new -> sat V (B ++ ps_out st') -> sat V (B ++ ps_out st).
Proof. intros B O st st' s W new V [A1 _ _] H. rewrite A1, app_assoc in H. apply sat_app2 in H. apply H. Qed.
Lemma emit_sat : forall B st c V, sat V (B ++ ps_out (pgs_emit c st)) <-> sat V (B ++ ps_out st) /\ csat V c.
Proof. intros B st c V. cbn [pgs_emit ps_out]. rewrite app_assoc. apply sat_snoc. Qed.

Definition under (ou : option var) (p : bool) (V : valuation) : Prop := match ou with None => True | Some u => V u = p end.
Definition ou_known (ou : option var) (s : factory) : Prop := forall u, ou = Some u -> known s u.

Section Step.
  Variable k : pgs_rec.
  Variable D : nat.
  Hypothesis Hmono : forall h p top st, mono (k h p top st).
  Hypothesis Hk : forall B O y h p top st W s, inv W s -> hdl s h y -> shape_ok y -> (depth y < D)%nat -> above O s y ->
    pgc_ok O W (B ++ ps_out st) s (ps_cache st) -> xspec W s (k h p top st) (pgs_post B O top p y st).

  (** A non-top call gives a clause. *)
  Lemma k_clause : forall B O y h p st W s C (kk : list lit -> pgs -> M C) Q, inv W s -> hdl s h y -> shape_ok y -> (depth y < D)%nat -> above O s y ->
    pgc_ok O W (B ++ ps_out st) s (ps_cache st) -> (forall a b, mono (kk a b)) ->
    (forall L st' new s' W', inv W' s' -> ext s s' -> sub W' W -> adds B O st st' s' W' new -> (forall v, W' v -> sat v new) -> lits_known s' L ->
      (forall v, W' v -> sem v (pol p y) = true -> csat v L) -> (forall V, sat V (B ++ ps_out st') -> csat V L -> sem V (pol p y) = true) -> xspec W' s' (kk L st') Q) ->
    xspec W s (q <-- k h p false st ;; L <-- unwrapM (fst q) ;; kk L (snd q)) Q.
  Proof.
    intros B O y h p st W s C kk Q Hi Hh Hs Hd Ho Hc Mk H. eapply x_bind; [apply (Hk B O y); assumption | intros; apply mono_bind; auto with mono |].
    intros [r st'] s' W' Hi' He' Hs' (new & Ha & Hn & Hr). cbn [fst snd] in *. destruct r as [L |]; [| destruct Hr as [Hr _]; discriminate]. destruct Hr as (H1 & H2 & H3).
    unfold unwrapM. apply x_ret_bind. eapply H; eauto. intros v Hv. apply Hn; [assumption | discriminate].
  Qed.

  Lemma mono_each : forall conj top pg ops st, mono (each_operand k conj top pg ops st).
  Proof.
    intros. unfold each_operand. apply mono_mfold. intros. apply mono_bind; [apply Hmono |]. intros q. destruct top; [apply mono_ret |]. apply mono_bind; [auto with mono |]. intros.
    apply mono_bind; [auto with mono | intros; apply mono_ret].
  Qed.
  Lemma mono_single : forall p ops st, mono (single_clause k p ops st).
  Proof. intros. unfold single_clause. apply mono_mfold. intros. apply mono_bind; [apply Hmono |]. intros q. apply mono_bind; [auto with mono | intros; apply mono_ret]. Qed.

  Lemma each_spec : forall p ou B O ops xs st W s, inv W s -> Forall2 (hdl s) ops xs -> Forall (fun y => shape_ok y /\ (depth y < D)%nat /\ above O s y) xs -> ou_known ou s ->
    pgc_ok O W (B ++ ps_out st) s (ps_cache st) ->
    xspec W s (each_operand k p (skips ou) (pg_of ou) ops st) (fun st' s' W' => exists new, adds B O st st' s' W' new
      /\ (forall v, W' v -> (under ou p v -> Forall (fun y => sem v (pol p y) = true) xs) -> sat v new)
      /\ (forall V, sat V (B ++ ps_out st') -> under ou p V -> Forall (fun y => sem V (pol p y) = true) xs)).
  Proof.
    intros p ou B O. induction ops as [| o ops IH]; intros xs st W s Hi Hh Hx Hu Hc; inversion Hh as [| ? x ? xs' Ho Hh']; subst; unfold each_operand; cbn [mfold].
    - apply x_ret; [assumption |]. exists []. split; [now apply adds_refl |]. split; [intros; apply sat_nil_t | intros; constructor].
    - inversion Hx as [| ? ? (X1 & X2 & X3) Hx']; subst.
      eapply x_bind with (Q1 := fun st1 s1 W1 => exists n1, adds B O st st1 s1 W1 n1 /\ (forall v, W1 v -> (under ou p v -> sem v (pol p x) = true) -> sat v n1)
        /\ (forall V, sat V (B ++ ps_out st1) -> under ou p V -> sem V (pol p x) = true)); [| intros; apply mono_each |].
      + destruct ou as [u |]; cbn [skips pg_of option_map].
        * unfold unwrapM at 1. apply (k_clause B O x o p st W s _ (fun lits st2 => ret (pgs_emit ((if p then lit_negate (Lit u true) else Lit u true) :: lits) st2))); auto; [intros; apply mono_ret |].
          intros L st1 n1 s1 W1 Hi1 He1 Hs1 Ha Hn Hl C1 C2. apply x_ret; [assumption |]. set (gl := if p then lit_negate (Lit u true) else Lit u true).
          assert (Eg : forall V, lit_sem V gl = true <-> V u <> p) by (intros V; unfold gl; destruct p; cbn; destruct (V u); cbn; intuition congruence).
          exists (n1 ++ [gl :: L]). split.
          -- apply adds_emit; [| assumption]. constructor; [| assumption]. replace (lit_var gl) with u by (unfold gl; destruct p; reflexivity). eapply known_ext; [exact He1 | now apply Hu].
          -- split.
             ++ intros v Hv Hund. apply sat_snoc. split; [auto |]. apply csat_cons. rewrite Eg. destruct (bool_dec (v u) p) as [E | E]; [right; auto | left; assumption].
             ++ intros V HV Hund. cbn [under] in Hund. apply emit_sat in HV. destruct HV as [HV HC]. apply csat_cons in HC. rewrite Eg in HC. destruct HC as [HC | HC]; [contradiction | auto].
        * eapply x_bind; [apply (Hk B O x o p true st); assumption | intros; apply mono_ret |]. intros [r st1] s1 W1 Hi1 He1 Hs1 (n1 & Ha & Hn & Hr). cbn [fst snd] in *. apply x_ret; [assumption |].
          destruct r as [L |]; cbn [emit_opt].
          -- destruct Hr as (L1 & L2 & L3). exists (n1 ++ [L]). split; [now apply adds_emit |]. split.
             ++ intros v Hv Hund. apply sat_snoc. split; [apply Hn; auto; intros _; apply Hund; exact I | apply L2; auto; apply Hund; exact I].
             ++ intros V HV _. apply emit_sat in HV. destruct HV. auto.
          -- destruct Hr as (_ & L3). exists n1. split; [assumption |]. split; [| auto]. intros v Hv Hund. apply Hn; auto. intros _. apply Hund. exact I.
      + intros st1 s1 W1 Hi1 He1 Hs1 (n1 & A1 & C1 & S1).
        eapply x_conseq; [apply (IH xs' st1 W1 s1); auto |].
        * eapply hdls_ext; eauto.
        * eapply Forall_impl; [| exact Hx']. intros y (Y1 & Y2 & Y3). split; [assumption |]. split; [assumption | eapply above_ext; eauto].
        * intros u E. eapply known_ext; [exact He1 | auto].
        * apply A1.
        * intros st2 s2 W2 Hi2 He2 Hs2 (n2 & A2 & C2 & S2). exists (n1 ++ n2). split; [eapply adds_trans; eauto |]. split.
          -- intros v Hv Hund. apply sat_app2. split; [apply C1; auto; intros H; apply Hund in H; inversion H; assumption | apply C2; auto; intros H; apply Hund in H; inversion H; assumption].
          -- intros V HV Hund. constructor; [apply S1; auto; eapply adds_sat; eauto | auto].
  Qed.

  Lemma single_spec : forall p B O ops xs acc st W s, inv W s -> Forall2 (hdl s) ops xs -> Forall (fun y => shape_ok y /\ (depth y < D)%nat /\ above O s y) xs ->
    lits_known s acc -> pgc_ok O W (B ++ ps_out st) s (ps_cache st) ->
    xspec W s (mfold (fun op (a : list lit * pgs) => q <-- k op p false (snd a) ;; lits <-- unwrapM (fst q) ;; ret (fst a ++ lits, snd q)) ops (acc, st))
      (fun a s' W' => exists new, adds B O st (snd a) s' W' new /\ lits_known s' (fst a) /\ (forall v, W' v -> sat v new)
      /\ (forall v, W' v -> csat v acc \/ Exists (fun y => sem v (pol p y) = true) xs -> csat v (fst a))
      /\ (forall V, sat V (B ++ ps_out (snd a)) -> csat V (fst a) -> csat V acc \/ Exists (fun y => sem V (pol p y) = true) xs)).
  Proof.
    intros p B O. induction ops as [| o ops IH]; intros xs acc st W s Hi Hh Hx Hl Hc; inversion Hh as [| ? x ? xs' Ho Hh']; subst; cbn [mfold].
    - apply x_ret; [assumption |]. exists []. cbn [fst snd]. split; [now apply adds_refl |]. split; [assumption |]. split; [intros; apply sat_nil_t |].
      split; [intros v Hv [H | H]; [assumption | inversion H] | auto].
    - inversion Hx as [| ? ? (X1 & X2 & X3) Hx']; subst.
      eapply x_bind with (Q1 := fun a s1 W1 => exists L n1, fst a = acc ++ L /\ adds B O st (snd a) s1 W1 n1 /\ lits_known s1 L /\ (forall v, W1 v -> sat v n1) /\ (forall v, W1 v -> sem v (pol p x) = true -> csat v L)
        /\ (forall V, sat V (B ++ ps_out (snd a)) -> csat V L -> sem V (pol p x) = true)); [| intros; apply mono_mfold; intros; apply mono_bind; [apply Hmono | intros; apply mono_bind; [auto with mono | intros; apply mono_ret]] |].
      + cbn [fst snd]. apply (k_clause B O x o p st W s _ (fun lits st2 => ret (acc ++ lits, st2))); auto; [intros; apply mono_ret |].
        intros L st1 n1 s1 W1 Hi1 He1 Hs1 Ha Hn HL C1 C2. apply x_ret; [assumption |]. exists L, n1. cbn [fst snd]. auto 10.
      + intros [acc1 st1] s1 W1 Hi1 He1 Hs1 (L & n1 & E1 & A1 & K1 & T1 & C1 & S1). cbn [fst snd] in *. subst acc1.
        eapply x_conseq; [apply (IH xs' (acc ++ L) st1 W1 s1); auto |].
        * eapply hdls_ext; eauto.
        * eapply Forall_impl; [| exact Hx']. intros y (Y1 & Y2 & Y3). split; [assumption |]. split; [assumption | eapply above_ext; eauto].
        * apply Forall_app. split; [eapply lits_known_ext; eauto | assumption].
        * apply A1.
        * intros [acc2 st2] s2 W2 Hi2 He2 Hs2 (n2 & A2 & K2 & T2 & C2 & S2). cbn [fst snd] in *. exists (n1 ++ n2). split; [eapply adds_trans; eauto |]. split; [assumption |]. split; [intros v Hv; apply sat_app2; auto |]. split.
          -- intros v Hv H. apply C2; auto. rewrite csat_app. destruct H as [H | H]; [auto |]. inversion H; subst; [left; right; auto | auto].
          -- intros V HV H. destruct (S2 V HV H) as [H1 | H1]; [| right; now constructor]. apply csat_app in H1. destruct H1 as [H1 | H1]; [auto |]. right. constructor. apply S1; auto. eapply adds_sat; eauto.
  Qed.

  Lemma was_post : forall B O top p x h u st st0 s (W : world), hdl s h x -> above O s x -> ps_out st0 = ps_out st -> known s u -> (forall v, W v -> v u = sem v x) ->
    pgc_ok O W (B ++ ps_out st) s (ps_cache st0) -> (O h u p \/ forall V, sat V (B ++ ps_out st) -> V u = p -> sem V (pol p x) = true) ->
    pgs_post B O top p x st (Some [if p then Lit u true else lit_negate (Lit u true)], st0) s W.
  Proof.
    intros B O top p x h u st st0 s W Hx Ho Eo Ku Hu Hc [K | K]; [exfalso; eapply above_self; eauto |]. replace (if p then Lit u true else lit_negate (Lit u true)) with (Lit u p) by (destruct p; reflexivity).
    exists []. cbn [fst snd]. rewrite Eo. split; [constructor; [now rewrite app_nil_r | now rewrite Eo | constructor] |]. split; [intros; apply sat_nil_t |]. split; [constructor; [assumption | constructor] |]. split.
    - intros v Hv T. apply csat_cons. left. apply lit_sem_lit. rewrite (Hu v Hv). now apply sem_pol_eq.
    - intros V HV T. apply csat_cons in T. destruct T as [T | T]; [| destruct (csat_nil _ T)]. apply lit_sem_lit in T. auto.
  Qed.
  (** The clauses under a guard are complete; the answer is the guard or nothing. *)
  Lemma guard_post : forall B O p x h ou st st' s (W : world) new, hdl s h x -> ou_known ou s -> (forall u v, ou = Some u -> W v -> v u = sem v x) ->
    adds B (with_open O h ou p) st st' s W new -> (forall v, W v -> (under ou p v -> sem v (pol p x) = true) -> sat v new) ->
    (forall V, sat V (B ++ ps_out st') -> under ou p V -> sem V (pol p x) = true) ->
    pgs_post B O (skips ou) p x st (match ou with None => None | Some u => Some [Lit u p] end, st') s W.
  Proof.
    intros B O p x h ou st st' s W new Hx Ku Hu Ha Hn Hs. exists new. cbn [fst snd]. split.
    - eapply adds_close; [exact Hx | | exact Ha]. intros u -> V HV E. apply Hs; assumption.
    - split.
      + intros v Hv T. apply Hn; [assumption |]. destruct ou as [u |]; cbn [under skips] in *; [| auto]. intros E. apply sem_pol_eq. rewrite <- E. symmetry. auto.
      + destruct ou as [u |]; cbn [under skips] in *; [| auto]. split; [constructor; [auto | constructor] |]. split.
        * intros v Hv T. apply csat_cons. left. apply lit_sem_lit. rewrite (Hu u v eq_refl Hv). now apply sem_pol_eq.
        * intros V HV T. apply csat_cons in T. destruct T as [T | T]; [| destruct (csat_nil _ T)]. apply lit_sem_lit in T. auto.
  Qed.
  Lemma open_none : forall B O st st' s W new h p, adds B (with_open O h None p) st st' s W new -> adds B O st st' s W new.
  Proof. intros B O st st' s W new h p [A1 A2 A3]. constructor; auto. eapply pgc_weaken; [| exact A2]. intros q u b [H | (_ & H & _)]; [assumption | discriminate]. Qed.

  Lemma mono_nary : forall h conj ops p top st, mono (handle_nary k h conj ops p top st).
  Proof.
    intros. unfold handle_nary. apply mono_bind; [auto with mono |]. intros [[was pg] st0]. destruct was; [apply mono_bind; [auto with mono | intros; apply mono_ret] |].
    destruct (Bool.eqb conj p).
    - apply mono_bind; [apply mono_each |]. intros. destruct top; [apply mono_ret |]. apply mono_bind; [auto with mono | intros; apply mono_ret].
    - apply mono_bind; [apply mono_single | intros; apply mono_ret].
  Qed.
  Lemma mono_impl : forall h l r p top st, mono (handle_impl k h l r p top st).
  Proof.
    intros. unfold handle_impl. apply mono_bind; [auto with mono |]. intros [[was pg] st0]. destruct was; [apply mono_bind; [auto with mono | intros; apply mono_ret] |].
    destruct p; repeat (first [apply mono_ret | destruct top | apply mono_bind; [solve [auto with mono] | intros]]).
  Qed.
  Lemma mono_equiv : forall h l r p top st, mono (handle_equiv k h l r p top st).
  Proof.
    intros. unfold handle_equiv. apply mono_bind; [auto with mono |]. intros [[was pg] st0]. destruct was; [apply mono_bind; [auto with mono | intros; apply mono_ret] |].
    repeat (first [apply mono_ret | destruct p | destruct top | apply mono_bind; [solve [auto with mono] | intros]]).
  Qed.

  Lemma nary_spec : forall B O conj ops xs p top st h W s, inv W s -> hdl s h (fnary conj xs) -> Forall2 (hdl s) ops xs -> Forall (fun y => shape_ok y /\ (depth y < D)%nat /\ (depth y < depth (fnary conj xs))%nat) xs ->
    above O s (fnary conj xs) -> pgc_ok O W (B ++ ps_out st) s (ps_cache st) -> xspec W s (handle_nary k h conj ops p top st) (pgs_post B O top p (fnary conj xs) st).
  Proof.
    intros B O conj ops xs p top st h W s Hi Hh Hops Hxs Ho Hc. set (x := fnary conj xs) in *. unfold handle_nary.
    eapply x_bind; [apply (maybe_spec _ h p st O W (B ++ ps_out st) s x); assumption | |].
    { intros [[was pg] st0]. destruct was; [apply mono_bind; [auto with mono | intros; apply mono_ret] |].
      destruct (Bool.eqb conj p).
      - apply mono_bind; [apply mono_each |]. intros. destruct top; [apply mono_ret |]. apply mono_bind; [auto with mono | intros; apply mono_ret].
      - apply mono_bind; [apply mono_single | intros; apply mono_ret]. }
    intros [[was pg] st0] s0 W0 Hi0 He0 Hs0 (Eo & ou & Epg & Esk & Hu & Hr). cbn [fst snd] in *. subst pg. pose proof (hdl_ext _ _ _ _ He0 Hh) as Hh0. pose proof (above_ext _ _ _ _ He0 Ho) as Ho0.
    destruct was.
    - destruct Hr as (Es & Hc0 & Hr). rewrite Esk in Es. destruct ou as [u |]; [| discriminate]. cbn [pg_of option_map unwrapM]. apply x_ret_bind. apply x_ret; [assumption |]. destruct (Hu u eq_refl) as [K1 K2]. apply (was_post B O top p x h); auto.
    - assert (Hxs0 : Forall (fun y => shape_ok y /\ (depth y < D)%nat /\ above (with_open O h ou p) s0 y) xs).
      { eapply Forall_impl; [| exact Hxs]. intros y (Y1 & Y2 & Y3). split; [assumption |]. split; [assumption |]. eapply above_open; eauto. }
      rewrite <- Eo in Hr. pose proof (hdls_ext _ _ _ _ He0 Hops) as Hops0.
      destruct (Bool.eqb conj p) eqn:Ecp.
      + apply eqb_prop in Ecp. subst conj. assert (Et : top = skips ou) by (rewrite <- Esk; destruct top, p; reflexivity). rewrite Et. clear Esk.
        eapply x_bind; [apply (each_spec p ou B (with_open O h ou p) ops xs st0 W0 s0); auto; intros u E; apply Hu; assumption | |].
        { intros. destruct (skips ou); [apply mono_ret |]. apply mono_bind; [auto with mono | intros; apply mono_ret]. }
        intros st1 s1 W1 Hi1 He1 Hs1 (new & A & C & S').
        assert (P : pgs_post B O (skips ou) p x st0 (match ou with None => None | Some u => Some [Lit u p] end, st1) s1 W1).
        { apply (guard_post B O p x h ou st0 st1 s1 W1 new); auto.
          - eapply hdl_ext; eauto.
          - intros u E. eapply known_ext; [exact He1 | now apply Hu].
          - intros u v E Hv. apply (proj2 (Hu u E)). auto.
          - intros v Hv H. apply C; [assumption |]. intros H1. apply sem_all. auto.
          - intros V HV H. apply sem_all. auto. }
        assert (P' : forall q, pgs_post B O (skips ou) p x st0 q s1 W1 -> pgs_post B O (skips ou) p x st q s1 W1).
        { intros q (n & [Q1 Q2 Q3] & Q). exists n. split; [constructor; auto; now rewrite Q1, Eo | assumption]. }
        apply P' in P. destruct ou as [u |]; cbn [skips pg_of option_map unwrapM] in *; [apply x_ret_bind |]; apply x_ret; auto.
        replace (if p then Lit u true else lit_negate (Lit u true)) with (Lit u p) by (destruct p; reflexivity). assumption.
      + assert (conj = negb p) as -> by (destruct conj, p; try discriminate; reflexivity). assert (skips ou = true) as Et by (rewrite <- Esk; destruct top, p; reflexivity). destruct ou as [u |]; [discriminate |].
        eapply x_bind; [apply (single_spec p B (with_open O h None p) ops xs [] st0 W0 s0); auto; constructor | intros; apply mono_ret |].
        intros [L st1] s1 W1 Hi1 He1 Hs1 (new & A & KL & T & C & S'). cbn [fst snd] in *. apply x_ret; [assumption |]. exists new. cbn [fst snd]. apply open_none in A. split.
        * destruct A as [Q1 Q2 Q3]. constructor; auto. now rewrite Q1, Eo.
        * split; [auto |]. split; [assumption |]. split.
          -- intros v Hv H. apply C; [assumption |]. right. apply sem_some. assumption.
          -- intros V HV H. destruct (S' V HV H) as [K | K]; [destruct (csat_nil _ K) |]. apply sem_some. assumption.
  Qed.

  Lemma post_out : forall B O top p x st st0 q s W, ps_out st0 = ps_out st -> pgs_post B O top p x st0 q s W -> pgs_post B O top p x st q s W.
  Proof. intros B O top p x st st0 q s W Eo (n & [Q1 Q2 Q3] & Q). exists n. split; [constructor; auto; now rewrite Q1, Eo | assumption]. Qed.
  Lemma start_spec : forall B O skip top p x h st W s (kk : option lit -> pgs -> M (option (list lit) * pgs)), inv W s -> hdl s h x -> above O s x -> pgc_ok O W (B ++ ps_out st) s (ps_cache st) ->
    (forall pg st0, mono (kk pg st0)) ->
    (forall ou st0 s0 W0, inv W0 s0 -> ext s s0 -> sub W0 W -> skip = skips ou -> ou_known ou s0 -> (forall u v, ou = Some u -> W0 v -> v u = sem v x) ->
      pgc_ok (with_open O h ou p) W0 (B ++ ps_out st0) s0 (ps_cache st0) -> xspec W0 s0 (kk (pg_of ou) st0) (pgs_post B O top p x st0)) ->
    xspec W s (q <-- maybe_pg_var skip h p st ;; let '(was, pg, st0) := q in
      if was : bool then g <-- unwrapM pg ;; ret (Some [if p then g else lit_negate g], st0) else kk pg st0) (pgs_post B O top p x st).
  Proof.
    intros B O skip top p x h st W s kk Hi Hh Ho Hc Mk H. eapply x_bind; [apply (maybe_spec _ h p st O W (B ++ ps_out st) s x); assumption | |].
    { intros [[was pg] st0]. destruct was; [apply mono_bind; [auto with mono | intros; apply mono_ret] | apply Mk]. }
    intros [[was pg] st0] s0 W0 Hi0 He0 Hs0 (Eo & ou & Epg & Esk & Hu & Hr). cbn [fst snd] in *. subst pg. destruct was.
    - destruct Hr as (Es & Hc0 & Hr). rewrite Esk in Es. destruct ou as [u |]; [| discriminate]. cbn [pg_of option_map unwrapM]. apply x_ret_bind. apply x_ret; [assumption |]. destruct (Hu u eq_refl) as [K1 K2].
      apply (was_post B O top p x h); auto; [eapply hdl_ext; eauto | eapply above_ext; eauto].
    - rewrite <- Eo in Hr. eapply x_conseq; [apply (H ou st0 s0 W0); auto |].
      + intros u E. apply Hu. assumption.
      + intros u v E Hv. apply (proj2 (Hu u E)). assumption.
      + intros q s1 W1 _ _ _ Hq. eapply post_out; eauto.
  Qed.

  Definition olist (o : option (list lit)) : list (list lit) := match o with Some c => [c] | None => [] end.
  Lemma emit_opt_adds : forall B O st st' s W new o, (forall L, o = Some L -> lits_known s L) -> adds B O st st' s W new -> adds B O st (emit_opt o st') s W (new ++ olist o).
  Proof. intros B O st st' s W new [L |] H Ha; cbn [emit_opt olist]; [apply adds_emit; auto | now rewrite app_nil_r]. Qed.
  Lemma emit_opt_sat : forall B st o V, sat V (B ++ ps_out (emit_opt o st)) <-> sat V (B ++ ps_out st) /\ forall L, o = Some L -> csat V L.
  Proof.
    intros B st [L |] V; cbn [emit_opt]; [rewrite emit_sat |]; (split; [intros H; split; try apply H |]).
    - intros K [= <-]. apply H.
    - intros [H1 H2]. auto.
    - discriminate.
    - intros H. apply H.
  Qed.
  Lemma olist_sat : forall v o, sat v (olist o) <-> forall L, o = Some L -> csat v L.
  Proof. intros v [L |]; cbn [olist]; split; [intros H K [= <-]; apply H; left; reflexivity | intros H c [<- | []]; auto | discriminate | intros _ c []]. Qed.
  Lemma post_parts : forall B O top p y st q s W, pgs_post B O top p y st q s W -> exists new, adds B O st (snd q) s W new /\ (forall L, fst q = Some L -> lits_known s L)
    /\ (forall v, W v -> (top = true -> sem v (pol p y) = true) -> sat v new) /\ (forall v L, W v -> sem v (pol p y) = true -> fst q = Some L -> csat v L)
    /\ (forall V, sat V (B ++ ps_out (snd q)) -> (forall L, fst q = Some L -> csat V L) -> sem V (pol p y) = true) /\ (top = false -> fst q <> None).
  Proof.
    intros B O top p y st [r st'] s W (new & Ha & Hn & Hr). cbn [fst snd] in *. exists new. destruct r as [L |].
    - destruct Hr as (R1 & R2 & R3). split; [assumption |]. split; [intros K [= <-]; assumption |]. split; [assumption |]. split; [intros v K Hv T [= <-]; auto |]. split; [auto | discriminate].
    - destruct Hr as (R1 & R2). split; [assumption |]. split; [discriminate |]. split; [assumption |]. split; [discriminate |]. split; [auto | congruence].
  Qed.

  Lemma impl_spec : forall B O l r a b p top st h W s, inv W s -> hdl s h (FImpl a b) -> hdl s l a -> hdl s r b -> shape_ok a -> shape_ok b -> (depth (FImpl a b) <= D)%nat ->
    above O s (FImpl a b) -> pgc_ok O W (B ++ ps_out st) s (ps_cache st) -> xspec W s (handle_impl k h l r p top st) (pgs_post B O top p (FImpl a b) st).
  Proof.
    intros B O l r a b p top st h W s Hi Hh Hl Hr Sa Sb Hd Ho Hc. set (x := FImpl a b) in *. assert (Da : (depth a < depth x)%nat) by (unfold x; cbn; lia). assert (Db : (depth b < depth x)%nat) by (unfold x; cbn; lia).
    unfold handle_impl.
    apply (start_spec B O (p || top) top p x h st W s (fun pg st0 => if p then
        q1 <-- k l false false st0 ;; left <-- unwrapM (fst q1) ;; q2 <-- k r true false (snd q1) ;; right <-- unwrapM (fst q2) ;; ret (Some (left ++ right), snd q2)
      else q1 <-- k l true top st0 ;; q2 <-- k r false top (snd q1) ;;
        if top then ret (None, emit_opt (fst q2) (emit_opt (fst q1) (snd q2)))
        else g <-- unwrapM pg ;; left <-- unwrapM (fst q1) ;; right <-- unwrapM (fst q2) ;; ret (Some [lit_negate g], pgs_emit (g :: right) (pgs_emit (g :: left) (snd q2))))); auto.
    { intros. destruct p; repeat (first [apply mono_ret | destruct top | apply mono_bind; [solve [auto with mono] | intros]]). }
    intros ou st0 s0 W0 Hi0 He0 Hs0 Esk Ku Hu Hc0. pose proof (hdl_ext _ _ _ _ He0 Hh) as Hh0. pose proof (above_ext _ _ _ _ He0 Ho) as Ho0. destruct p.
    - destruct ou as [u |]; [discriminate |].
      apply (k_clause B (with_open O h None true) a l false st0 W0 s0 _ (fun left st1 => q2 <-- k r true false st1 ;; right <-- unwrapM (fst q2) ;; ret (Some (left ++ right), snd q2))); auto.
      { eapply hdl_ext; eauto. } { lia. } { eapply above_open; eauto. } { intros. apply mono_bind; [auto |]. intros. apply mono_bind; [auto with mono | intros; apply mono_ret]. }
      intros L1 st1 n1 s1 W1 Hi1 He1 Hs1 A1 T1 K1 C1 S1.
      apply (k_clause B (with_open O h None true) b r true st1 W1 s1 _ (fun right st2 => ret (Some (L1 ++ right), st2))); auto.
      { eapply hdl_ext; [exact He1 |]. eapply hdl_ext; eauto. } { lia. } { eapply above_open; [eapply hdl_ext; eauto | lia |]. eapply above_ext; eauto. } { apply A1. } { intros; apply mono_ret. }
      intros L2 st2 n2 s2 W2 Hi2 He2 Hs2 A2 T2 K2 C2 S2. apply x_ret; [assumption |]. exists (n1 ++ n2). cbn [fst snd]. split; [apply (open_none _ _ _ _ _ _ _ h true); eapply adds_trans; eauto |].
      split; [intros v Hv _; apply sat_app2; auto |]. split; [apply Forall_app; split; [eapply lits_known_ext; eauto | assumption] |]. split.
      + intros v Hv T. apply csat_app. assert (Tx : sem v (pol false a) = true \/ sem v (pol true b) = true) by (unfold x in T; cbn [pol sem] in *; destruct (sem v a), (sem v b); cbn in *; auto). destruct Tx as [Tx | Tx]; [left; apply C1; auto | right; apply C2; auto].
      + intros V HV T. assert (Tx : sem V (pol false a) = true \/ sem V (pol true b) = true) by (apply csat_app in T; destruct T as [T | T]; [left; apply S1; auto; eapply adds_sat; eauto | right; apply S2; auto]).
        unfold x. cbn [pol sem] in *. destruct (sem V a), (sem V b); cbn in *; intuition congruence.
    - cbn [orb] in Esk. subst top. set (O1 := with_open O h ou false) in *.
      eapply x_bind; [apply (Hk B O1 a l true (skips ou) st0); auto; [eapply hdl_ext; eauto | lia | eapply above_open; eauto] | |].
      { intros. repeat (first [apply mono_ret | match goal with |- context [if skips ou then _ else _] => destruct (skips ou) end | apply mono_bind; [solve [auto with mono] | intros]]). }
      intros q1 s1 W1 Hi1 He1 Hs1 P1. apply post_parts in P1. destruct P1 as (n1 & A1 & K1 & T1 & C1 & S1 & N1).
      eapply x_bind; [apply (Hk B O1 b r false (skips ou) (snd q1)); auto; [eapply hdl_ext; [exact He1 |]; eapply hdl_ext; eauto | lia | eapply above_open; [eapply hdl_ext; eauto | lia | eapply above_ext; eauto] | apply A1] | |].
      { intros. repeat (first [apply mono_ret | match goal with |- context [if skips ou then _ else _] => destruct (skips ou) end | apply mono_bind; [solve [auto with mono] | intros]]). }
      intros q2 s2 W2 Hi2 He2 Hs2 P2. apply post_parts in P2. destruct P2 as (n2 & A2 & K2 & T2 & C2 & S2 & N2).
      pose proof (adds_trans _ _ _ _ _ _ _ _ _ _ _ He2 A1 A2) as A3.
      assert (Hx2 : hdl s2 h x) by (eapply hdl_ext; [exact He2 |]; eapply hdl_ext; eauto).
      assert (Ku2 : ou_known ou s2) by (intros u E; eapply known_ext; [exact He2 |]; eapply known_ext; [exact He1 | auto]).
      assert (Sx : forall v, sem v (pol false x) = true <-> sem v (pol true a) = true /\ sem v (pol false b) = true) by (intros v; unfold x; cbn [pol sem]; destruct (sem v a), (sem v b); cbn; intuition congruence).
      destruct ou as [u |]; cbn [skips pg_of option_map unwrapM] in *.
      + apply x_ret_bind. destruct q1 as [[L1 |] st1]; cbn [fst snd] in *; [| destruct (N1 eq_refl eq_refl)]. destruct q2 as [[L2 |] st2]; cbn [fst snd unwrapM] in *; [| destruct (N2 eq_refl eq_refl)].
        apply x_ret_bind. apply x_ret_bind. apply x_ret; [assumption |].
        apply (guard_post B O false x h (Some u) st0 _ s2 W2 (((n1 ++ n2) ++ [Lit u true :: L1]) ++ [Lit u true :: L2])); auto.
        * apply adds_emit; [constructor; [apply Ku2; reflexivity | apply K2; reflexivity] |]. apply adds_emit; [constructor; [apply Ku2; reflexivity | eapply lits_known_ext; [exact He2 | apply K1; reflexivity]] | exact A3].
        * intros v Hv Hund. cbn [under] in Hund. 
          assert (E : forall L, (v u = false -> csat v L) -> sat v [Lit u true :: L]).
          { intros L HL c [<- | []]. apply csat_cons. destruct (v u) eqn:Eu; [left; cbn; assumption | right; auto]. }
          rewrite !sat_app2. split; [split; [split; [apply T1; auto; discriminate | apply T2; auto; discriminate] |] |]; apply E; intros Eu; apply Hund in Eu; apply Sx in Eu; destruct Eu; eauto.
        * intros V HV Hund. cbn [under] in Hund. apply emit_sat in HV. destruct HV as [HV HL2]. apply emit_sat in HV. destruct HV as [HV HL1].
          apply csat_cons in HL1, HL2. cbn [lit_sem] in HL1, HL2. rewrite Hund in HL1, HL2. destruct HL1 as [HL1 | HL1]; [discriminate |]. destruct HL2 as [HL2 | HL2]; [discriminate |].
          apply Sx. split; [apply S1; [eapply adds_sat; eauto | intros L [= <-]; assumption] | apply S2; [assumption | intros L [= <-]; assumption]].
      + apply x_ret; [assumption |]. apply (guard_post B O false x h None st0 _ s2 W2 (((n1 ++ n2) ++ olist (fst q1)) ++ olist (fst q2))); auto.
        * apply emit_opt_adds; [auto |]. apply emit_opt_adds; [intros L E; eapply lits_known_ext; [exact He2 | auto] | exact A3].
        * intros v Hv Hund. specialize (Hund I). apply Sx in Hund. destruct Hund as [Ha' Hb']. rewrite !sat_app2, !olist_sat. repeat split; [apply T1; auto | apply T2; auto | intros L E; eapply C1; eauto | intros L E; eapply C2; eauto].
        * intros V HV _. apply emit_opt_sat in HV. destruct HV as [HV HL2]. apply emit_opt_sat in HV. destruct HV as [HV HL1]. apply Sx. split; [apply S1; [eapply adds_sat; eauto | assumption] | auto].
  Qed.

  Lemma equiv_spec : forall B O l r a b p top st h W s, inv W s -> hdl s h (FEquiv a b) -> hdl s l a -> hdl s r b -> shape_ok a -> shape_ok b -> (depth (FEquiv a b) <= D)%nat ->
    above O s (FEquiv a b) -> pgc_ok O W (B ++ ps_out st) s (ps_cache st) -> xspec W s (handle_equiv k h l r p top st) (pgs_post B O top p (FEquiv a b) st).
  Proof.
    intros B O l r a b p top st h W s Hi Hh Hl Hr Sa Sb Hd Ho Hc. set (x := FEquiv a b) in *. assert (Da : (depth a < depth x)%nat) by (unfold x; cbn; lia). assert (Db : (depth b < depth x)%nat) by (unfold x; cbn; lia).
    unfold handle_equiv.
    set (fin := fun (pg : option lit) (left_pos left_neg right_pos right_neg : list lit) (st4 : pgs) =>
      if p then if top then ret (None, pgs_emit (left_pos ++ right_neg) (pgs_emit (left_neg ++ right_pos) st4))
        else g <-- unwrapM pg ;; ret (Some [g], pgs_emit (lit_negate g :: left_pos ++ right_neg) (pgs_emit (lit_negate g :: left_neg ++ right_pos) st4))
      else if top then ret (None, pgs_emit (left_neg ++ right_neg) (pgs_emit (left_pos ++ right_pos) st4))
        else g <-- unwrapM pg ;; ret (Some [lit_negate g], pgs_emit (g :: left_neg ++ right_neg) (pgs_emit (g :: left_pos ++ right_pos) st4))).
    assert (Mf : forall pg a b c d e, mono (fin pg a b c d e)).
    { intros. unfold fin. destruct p, top; try apply mono_ret; (apply mono_bind; [auto with mono | intros; apply mono_ret]). }
    apply (start_spec B O top top p x h st W s (fun pg st0 =>
      q1 <-- k l true false st0 ;; left_pos <-- unwrapM (fst q1) ;; q2 <-- k l false false (snd q1) ;; left_neg <-- unwrapM (fst q2) ;;
      q3 <-- k r true false (snd q2) ;; right_pos <-- unwrapM (fst q3) ;; q4 <-- k r false false (snd q3) ;; right_neg <-- unwrapM (fst q4) ;; fin pg left_pos left_neg right_pos right_neg (snd q4))); auto.
    { intros. repeat (apply mono_bind; [solve [auto with mono] | intros]). auto. }
    intros ou st0 s0 W0 Hi0 He0 Hs0 Esk Ku Hu Hc0. pose proof (hdl_ext _ _ _ _ He0 Hh) as Hh0. pose proof (above_ext _ _ _ _ He0 Ho) as Ho0. subst top. set (O1 := with_open O h ou p) in *.
    apply (k_clause B O1 a l true st0 W0 s0 _ (fun left_pos st1 => q2 <-- k l false false st1 ;; left_neg <-- unwrapM (fst q2) ;;
      q3 <-- k r true false (snd q2) ;; right_pos <-- unwrapM (fst q3) ;; q4 <-- k r false false (snd q3) ;; right_neg <-- unwrapM (fst q4) ;; fin (pg_of ou) left_pos left_neg right_pos right_neg (snd q4))); auto.
    { eapply hdl_ext; eauto. } { lia. } { eapply above_open; eauto. } { intros. repeat (apply mono_bind; [solve [auto with mono] | intros]). auto. }
    intros LP st1 n1 s1 W1 Hi1 He1 Hs1 A1 T1 K1 C1 S1. pose proof (ext_trans _ _ _ He0 He1) as E01.
    apply (k_clause B O1 a l false st1 W1 s1 _ (fun left_neg st2 =>
      q3 <-- k r true false st2 ;; right_pos <-- unwrapM (fst q3) ;; q4 <-- k r false false (snd q3) ;; right_neg <-- unwrapM (fst q4) ;; fin (pg_of ou) LP left_neg right_pos right_neg (snd q4))); auto.
    { eapply hdl_ext; eauto. } { lia. } { eapply above_open; [eapply hdl_ext; [exact E01 | exact Hh] | lia | eapply above_ext; [exact E01 | exact Ho]]. } { apply A1. } { intros. repeat (apply mono_bind; [solve [auto with mono] | intros]). auto. }
    intros LN st2 n2 s2 W2 Hi2 He2 Hs2 A2 T2 K2 C2 S2. pose proof (ext_trans _ _ _ E01 He2) as E02.
    apply (k_clause B O1 b r true st2 W2 s2 _ (fun right_pos st3 => q4 <-- k r false false st3 ;; right_neg <-- unwrapM (fst q4) ;; fin (pg_of ou) LP LN right_pos right_neg (snd q4))); auto.
    { eapply hdl_ext; eauto. } { lia. } { eapply above_open; [eapply hdl_ext; [exact E02 | exact Hh] | lia | eapply above_ext; [exact E02 | exact Ho]]. } { apply A2. } { intros. repeat (apply mono_bind; [solve [auto with mono] | intros]). auto. }
    intros RP st3 n3 s3 W3 Hi3 He3 Hs3 A3 T3 K3 C3 S3. pose proof (ext_trans _ _ _ E02 He3) as E03.
    apply (k_clause B O1 b r false st3 W3 s3 _ (fun right_neg st4 => fin (pg_of ou) LP LN RP right_neg st4)); auto.
    { eapply hdl_ext; eauto. } { lia. } { eapply above_open; [eapply hdl_ext; [exact E03 | exact Hh] | lia | eapply above_ext; [exact E03 | exact Ho]]. } { apply A3. }
    intros RN st4 n4 s4 W4 Hi4 He4 Hs4 A4 T4 K4 C4 S4. pose proof (ext_trans _ _ _ E03 He4) as E04.
    pose proof (adds_trans _ _ _ _ _ _ _ _ _ _ _ He2 A1 A2) as AA. pose proof (adds_trans _ _ _ _ _ _ _ _ _ _ _ He3 AA A3) as AB. pose proof (adds_trans _ _ _ _ _ _ _ _ _ _ _ He4 AB A4) as AC.
    pose proof (ext_trans _ _ _ He2 (ext_trans _ _ _ He3 He4)) as X1. pose proof (ext_trans _ _ _ He3 He4) as X2.
    apply (lits_known_ext _ _ _ X1) in K1. apply (lits_known_ext _ _ _ X2) in K2. apply (lits_known_ext _ _ _ He4) in K3.
    assert (Hx4 : hdl s4 h x) by (eapply hdl_ext; [exact E04 | exact Hh]).
    assert (Ku4 : ou_known ou s4) by (intros u E; eapply known_ext; [exact (ext_trans _ _ _ He1 X1) | auto]).
    assert (Hu4 : forall u v, ou = Some u -> W4 v -> v u = sem v x) by (intros u v E Hv; apply Hu; auto).
    assert (Tn : forall v, W4 v -> sat v (((n1 ++ n2) ++ n3) ++ n4)) by (intros v Hv; rewrite !sat_app2; repeat split; auto).
    assert (Sn : forall V, sat V (B ++ ps_out st4) -> (csat V LP -> sem V a = true) /\ (csat V LN -> sem V a = false) /\ (csat V RP -> sem V b = true) /\ (csat V RN -> sem V b = false)).
    { intros V HV. pose proof (adds_sat _ _ _ _ _ _ _ _ A4 HV) as H3. pose proof (adds_sat _ _ _ _ _ _ _ _ A3 H3) as H2. pose proof (adds_sat _ _ _ _ _ _ _ _ A2 H2) as H1.
      split; [intros H; exact (S1 V H1 H) |]. split; [intros H; apply (sem_pol_eq false); exact (S2 V H2 H) |]. split; [intros H; exact (S3 V H3 H) |]. intros H; apply (sem_pol_eq false); exact (S4 V HV H). }
    assert (Cn : forall v, W4 v -> (sem v a = true -> csat v LP) /\ (sem v a = false -> csat v LN) /\ (sem v b = true -> csat v RP) /\ (sem v b = false -> csat v RN)).
    { intros v Hv. split; [intros H; apply C1; auto |]. split; [intros H; apply C2; auto; now apply sem_pol_eq |]. split; [intros H; apply C3; auto |]. intros H; apply C4; auto; now apply sem_pol_eq. }
    (* the two clauses *)
    set (c1 := if p then LN ++ RP else LP ++ RP). set (c2 := if p then LP ++ RN else LN ++ RN).
    assert (Kc : lits_known s4 c1 /\ lits_known s4 c2) by (unfold c1, c2; destruct p; split; apply Forall_app; auto).
    assert (Cc : forall v, W4 v -> sem v (pol p x) = true -> csat v c1 /\ csat v c2).
    { intros v Hv T. destruct (Cn v Hv) as (Q1 & Q2 & Q3 & Q4). unfold c1, c2, x in *. destruct p; cbn [pol sem] in T; rewrite !csat_app; destruct (sem v a), (sem v b); try discriminate; auto. }
    assert (Sc : forall V, sat V (B ++ ps_out st4) -> csat V c1 -> csat V c2 -> sem V (pol p x) = true).
    { intros V HV H1 H2. destruct (Sn V HV) as (Q1 & Q2 & Q3 & Q4). unfold c1, c2, x in *. destruct p; rewrite csat_app in H1, H2; cbn [pol sem]; destruct (sem V a), (sem V b); try reflexivity; exfalso; intuition congruence. }
    assert (Fin : fin (pg_of ou) LP LN RP RN st4 = match ou with None => ret (None, pgs_emit c2 (pgs_emit c1 st4)) | Some u => ret (Some [Lit u p], pgs_emit (Lit u (negb p) :: c2) (pgs_emit (Lit u (negb p) :: c1) st4)) end)
      by (unfold fin, c1, c2; destruct p, ou; reflexivity).
    rewrite Fin. clear Fin. destruct ou as [u |]; cbn [skips] in *.
    - apply x_ret; [assumption |]. apply (guard_post B O p x h (Some u) st0 _ s4 W4 (((((n1 ++ n2) ++ n3) ++ n4) ++ [Lit u (negb p) :: c1]) ++ [Lit u (negb p) :: c2])); auto.
      + apply adds_emit; [constructor; [apply Ku4; reflexivity | apply Kc] |]. apply adds_emit; [constructor; [apply Ku4; reflexivity | apply Kc] | exact AC].
      + intros v Hv Hund. cbn [under] in Hund. rewrite !sat_snoc, !csat_cons, !lit_sem_lit, !neq_negb. destruct (bool_dec (v u) p) as [E | E]; [| auto]. destruct (Cc v Hv (Hund E)). auto.
      + intros V HV Hund. cbn [under] in Hund. apply emit_sat in HV. destruct HV as [HV H2]. apply emit_sat in HV. destruct HV as [HV H1]. rewrite csat_cons, lit_sem_lit, neq_negb in H1, H2. destruct H1 as [H1 | H1]; [contradiction |]. destruct H2 as [H2 | H2]; [contradiction |]. auto.
    - apply x_ret; [assumption |]. apply (guard_post B O p x h None st0 _ s4 W4 (((((n1 ++ n2) ++ n3) ++ n4) ++ [c1]) ++ [c2])); auto.
      + apply adds_emit; [apply Kc |]. apply adds_emit; [apply Kc | exact AC].
      + intros v Hv Hund. rewrite !sat_snoc. destruct (Cc v Hv (Hund I)). auto.
      + intros V HV _. apply emit_sat in HV. destruct HV as [HV H2]. apply emit_sat in HV. destruct HV as [HV H1]. auto.
  Qed.
End Step.

Lemma mono_pgs : forall fuel h p top st, mono (pgs_transform fuel h p top st).
Proof.
  induction fuel as [| fuel IH]; intros; cbn [pgs_transform]; [apply mono_nofuel |]. apply mono_bind; [auto with mono |].
  intros []; try apply mono_fail; try apply mono_ret; auto using mono_nary, mono_impl, mono_equiv.
Qed.

Theorem pgs_spec : forall fuel B O x h p top st W s, inv W s -> hdl s h x -> shape_ok x -> (depth x < fuel)%nat -> above O s x ->
  pgc_ok O W (B ++ ps_out st) s (ps_cache st) -> xspec W s (pgs_transform fuel h p top st) (pgs_post B O top p x st).
Proof.
  induction fuel as [| fuel IH]; intros B O x h p top st W s Hi Hh [Hcf Hnc] Hd Ho Hc; [lia |]. cbn [pgs_transform]. pose proof Hh as (Hv & Hden & Hkn).
  pose proof (handle_local_ok _ _ _ (i_wf _ _ Hi) Hv Hden) as Hlo. destruct (open_node _ _ _ _ Hi Hv Hden) as (n & Hu & _). pose proof (hdls_children s h x n (i_wf _ _ Hi) Hh Hu) as Hch.
  eapply x_unpack_bind; [exact Hu |].
  assert (Hk : forall B O y h p top st W s, inv W s -> hdl s h y -> shape_ok y -> (depth y < fuel)%nat -> above O s y ->
    pgc_ok O W (B ++ ps_out st) s (ps_cache st) -> xspec W s (pgs_transform fuel h p top st) (pgs_post B O top p y st)) by (intros; apply IH; assumption).
  assert (Hnary : forall conj l ys, x = fnary conj ys -> Forall2 (hdl s) l ys -> nary_ok ys -> xspec W s (handle_nary (pgs_transform fuel) h conj l p top st) (pgs_post B O top p x st)).
  { intros conj l ys -> Hl (_ & Hnk & _). rewrite con_free_fnary, forallb_forall in Hcf. apply (nary_spec (pgs_transform fuel) fuel (mono_pgs fuel) Hk); auto. apply Forall_forall. intros y Hy. split; [split; auto |].
    assert (depth y < depth (fnary conj ys))%nat by (apply children_depth; destruct conj; exact Hy). split; [lia | assumption]. }
  node_cases n Hu Hden; cbn [con_free children node_operands local_ok] in *; try discriminate.
  - exfalso. apply Hnc. left. reflexivity.
  - exfalso. apply Hnc. right. reflexivity.
  - apply x_ret; [assumption |]. exists []. cbn [fst snd]. split; [now apply adds_refl |]. split; [intros; apply sat_nil_t |].
    assert (E : forall v, lit_sem v (Lit (lit_var l) (if lit_phase l then p else negb p)) = sem v (pol p (FLit l))) by (intros v; destruct l as [w []], p; cbn; rewrite ?negb_involutive; reflexivity).
    split; [constructor; [| constructor]; apply Hkn; left; destruct l; reflexivity |]. split.
    + intros v Hv' T. apply csat_cons. left. now rewrite E.
    + intros V HV T. apply csat_cons in T. destruct T as [T | T]; [now rewrite <- E | destruct (csat_nil _ T)].
  - inversion Hch as [| ? y ? ? Hy _]; subst. cbn [depth] in Hd.
    eapply x_conseq; [eapply (IH B O _ _ (negb p) top st); eauto |].
    + split; [assumption |]. intros [-> | ->]; contradiction.
    + lia.
    + intros j u b K. destruct (Ho j u b K) as (z & Z1 & Z2). exists z. split; [assumption |]. cbn [depth] in Z2. lia.
    + intros q s' W' _ _ _ (new & Ha & Hn' & Hr). exists new. split; [assumption |]. split; [intros v Hv' T; apply Hn'; [assumption |]; intros Et; rewrite <- pol_not; auto |].
      destruct (fst q) as [L |]; [destruct Hr as (R1 & R2 & R3); split; [assumption |]; split; [intros v Hv'; rewrite pol_not; auto | intros V HV T; rewrite pol_not; auto] | destruct Hr as (R1 & R2); split; [assumption |]; intros V HV; rewrite pol_not; auto].
  - apply (Hnary true _ _ eq_refl Hch). apply Hlo.
  - apply (Hnary false _ _ eq_refl Hch). apply Hlo.
  - inversion Hch as [| ? y1 ? ? Hy1 Hch2]; subst. inversion Hch2 as [| ? y2 ? ? Hy2 _]; subst. apply andb_true_iff in Hcf. destruct Hcf, Hlo as (L1 & L2 & _).
    apply (impl_spec (pgs_transform fuel) fuel (mono_pgs fuel) Hk); auto; [split; assumption | split; assumption | lia].
  - inversion Hch as [| ? y1 ? ? Hy1 Hch2]; subst. inversion Hch2 as [| ? y2 ? ? Hy2 _]; subst. apply andb_true_iff in Hcf. destruct Hcf, Hlo as (L1 & L2 & _).
    apply (equiv_spec (pgs_transform fuel) fuel (mono_pgs fuel) Hk); auto; [split; assumption | split; assumption | lia].
Qed.
