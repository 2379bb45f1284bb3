(** The Tseitin transformation. *)
From Coq Require Import NArith ZArith List Bool Arith Lia.
From Verif Require Import Base EncodingModel Syntax FactoryModel FactoryInv FactoryBasics FactoryProofs FactorySpecs FactoryNary FactoryOps
  EvalProofs InvariantSpec HashConsProofs InvariantProofs HistoryProofs ConstraintModel ConstraintProofs OpsModel OpsProofs CcModel EncBasics
  PbModel CacheModel TransModel TreeSpec WorldProofs MetricsProofs EncodeProofs NnfProofs CnfProofs DefBasics.
Import ListNotations.
Local Open Scope N_scope.

(** Valuations that satisfy [y] and agree on the variables of [x] agree on all variables of [y]. *)
Definition determined (x : list var) (y : fml) (us : list var) : Prop :=
  forall v w, sem v y = true -> sem w y = true -> (forall u, In u x -> w u = v u) -> forall u, In u us -> w u = v u.

(** [l] stands for [x], and [y] is its definition. *)
Definition ts_def (T : world) (x : fml) (l : lit) (y : fml) : Prop :=
  (exists i, l = Lit (VAux AuxCNF i) true) /\ ~ In (lit_var l) (fvars x) /\ cnf_shape y = true
  /\ (forall v, T v -> sem v y = true /\ lit_sem v l = sem v x)
  /\ (forall v, sem v y = true -> lit_sem v l = sem v x)
  /\ determined (fvars x) y (fvars y).
Definition ts_entry (T : world) (s : factory) (h r : N) (l : lit) : Prop :=
  exists x y, hdl s h x /\ hdl s r y /\ known s (lit_var l)
  /\ ((x = FLit l /\ y = x) \/ (is_flit x = false /\ ts_def T x l y)).
Definition in_dom (st : cnf_state) (h : N) : Prop := assoc N.eqb h (cs_formula st) <> None.
Definition ts_ok (T : world) (st : cnf_state) (s : factory) : Prop :=
  forall h r, assoc N.eqb h (cs_formula st) = Some r -> exists l, assoc N.eqb h (cs_variable st) = Some l /\ ts_entry T s h r l.

Lemma ts_def_sub : forall T T' x l y, sub T' T -> ts_def T x l y -> ts_def T' x l y.
Proof. intros T T' x l y Hs [H1 [H2 [H3 [H4 H5]]]]. split; [assumption |]. split; [assumption |]. split; [assumption |]. split; [| assumption]. intros v Hv. apply H4. auto. Qed.
Lemma ts_entry_ext : forall T T' s s' h r l, ext s s' -> sub T' T -> ts_entry T s h r l -> ts_entry T' s' h r l.
Proof.
  intros T T' s s' h r l He Hs [x [y [H1 [H2 [H3 H4]]]]]. exists x, y. split; [eapply hdl_ext; eauto |]. split; [eapply hdl_ext; eauto |].
  split; [eapply known_ext; eauto |]. destruct H4 as [H4 | [H4 H5]]; [left; assumption | right]. split; [assumption | eapply ts_def_sub; eauto].
Qed.
Lemma ts_ok_ext : forall T T' st s s', ext s s' -> sub T' T -> ts_ok T st s -> ts_ok T' st s'.
Proof. intros T T' st s s' He Hs H h r Hg. destruct (H h r Hg) as [l [H1 H2]]. exists l. split; [assumption | eapply ts_entry_ext; eauto]. Qed.

Definition getf (st : cnf_state) (h : N) : N := match assoc N.eqb h (cs_formula st) with Some r => r | None => 0 end.
Definition getv (st : cnf_state) (h : N) : lit := match assoc N.eqb h (cs_variable st) with Some l => l | None => Lit (VFF 0) true end.

Lemma index_ok : forall V (m : list (N * V)) h v s, assoc N.eqb h m = Some v -> index m h s = (Ok v, s).
Proof. intros V m h v s H. unfold index, lift. rewrite H. reflexivity. Qed.
Lemma dom_run : forall fuel st h s, in_dom st h -> compute_tseitin (S fuel) h st s = (Ok st, s).
Proof. intros fuel st h s H. cbn [compute_tseitin]. unfold in_dom in H. destruct (assoc N.eqb h (cs_formula st)); [reflexivity | congruence]. Qed.

(** The loop over operands that have been treated before. *)
Definition ts_loop (fuel : nat) : N -> list N * list N * list N * cnf_state -> M (list N * list N * list N * cnf_state) :=
  fun op p =>
    let '(nops, operands, neg_operands, st) := p in
    q <-- (if is_literal op then ret (nops, st)
           else
             st1 <-- compute_tseitin fuel op st ;;
             g <-- index (cs_formula st1) op ;;
             ret (nops ++ [g], st1)) ;;
    let '(nops1, st1) := q in
    v <-- index (cs_variable st1) op ;;
    ret (nops1, operands ++ [encode_lit v], neg_operands ++ [encode_lit (lit_negate v)], st1).

Lemma ts_loop_run : forall T fuel st s ops, ts_ok T st s -> (forall o, In o ops -> in_dom st o) -> forall ns os negs,
  mfold (ts_loop (S fuel)) ops (ns, os, negs, st) s
  = (Ok (ns ++ map (getf st) (filter (fun o => negb (is_literal o)) ops), os ++ map (fun o => encode_lit (getv st o)) ops,
         negs ++ map (fun o => encode_lit (lit_negate (getv st o))) ops, st), s).
Proof.
  intros T fuel st s ops Hok. induction ops as [| o ops IH]; intros Hd ns os negs; cbn [mfold map filter].
  - rewrite !app_nil_r. reflexivity.
  - assert (Ho : in_dom st o) by (apply Hd; left; reflexivity).
    assert (Hf : exists r l, assoc N.eqb o (cs_formula st) = Some r /\ assoc N.eqb o (cs_variable st) = Some l).
    { unfold in_dom in Ho. destruct (assoc N.eqb o (cs_formula st)) as [r |] eqn:E; [| congruence]. destruct (Hok o r E) as [l [Hl _]]. eauto. }
    destruct Hf as [r [l [Hr Hl]]].
    assert (Hstep : ts_loop (S fuel) o (ns, os, negs, st) s
      = (Ok (ns ++ (if is_literal o then [] else [getf st o]), os ++ [encode_lit (getv st o)], negs ++ [encode_lit (lit_negate (getv st o))], st), s)).
    { unfold ts_loop. unfold getf, getv. rewrite Hr, Hl. destruct (is_literal o).
      - unfold bind at 1. cbn [ret]. unfold bind. unfold ret at 1. cbn beta iota. rewrite (index_ok _ _ _ _ s Hl). rewrite app_nil_r. reflexivity.
      - unfold bind at 1. unfold bind at 1. rewrite (dom_run fuel st o s Ho). unfold bind at 1. rewrite (index_ok _ _ _ _ s Hr). unfold ret at 1. cbn beta iota.
        unfold bind. rewrite (index_ok _ _ _ _ s Hl). reflexivity. }
    unfold bind. rewrite Hstep. rewrite IH by (intros x Hx; apply Hd; right; assumption).
    destruct (is_literal o); cbn [negb map]; rewrite <- !app_assoc; reflexivity.
Qed.

(** What is known about the operands. *)
Definition ts_ops (T : world) (s : factory) (st : cnf_state) (ops : list N) (xs : list fml) (ls : list lit) (zs : list fml) : Prop :=
  map (getv st) ops = ls
  /\ Forall2 (hdl s) (map (getf st) (filter (fun o => negb (is_literal o)) ops)) zs
  /\ Forall (fun l => known s (lit_var l)) ls
  /\ Forall (fun z => cnf_shape z = true) zs
  /\ (forall v, T v -> forallb (sem v) zs = true)
  /\ (forall v, forallb (sem v) zs = true -> map (lit_sem v) ls = map (sem v) xs)
  /\ (forall v w, forallb (sem v) zs = true -> forallb (sem w) zs = true -> (forall u, In u (flat_map fvars xs) -> w u = v u) ->
      forall u, In u (flat_map fvars zs ++ map lit_var ls) -> w u = v u).

Lemma ts_ops_ok : forall T s st ops xs, wf s -> ts_ok T st s -> Forall2 (hdl s) ops xs -> (forall o, In o ops -> in_dom st o) ->
  exists ls zs, ts_ops T s st ops xs ls zs.
Proof.
  intros T s st ops xs Hw Hok HF. induction HF as [| o x ops xs Hx HF IH]; intros Hd.
  - exists [], []. repeat split; try constructor. intros v w _ _ _ u [].
  - destruct IH as [ls [zs [A [B [C [D [F [G I]]]]]]]]; [intros; apply Hd; right; assumption |].
    assert (Ho : in_dom st o) by (apply Hd; left; reflexivity). unfold in_dom in Ho.
    destruct (assoc N.eqb o (cs_formula st)) as [r |] eqn:Er; [| congruence]. destruct (Hok o r Er) as [l [Hl [x' [y [Hx' [Hy [Hk Hcase]]]]]]].
    assert (Ex : x' = x) by (eapply denotes_fun; [apply Hx' | apply Hx]). subst x'.
    assert (Egl : getv st o = l) by (unfold getv; rewrite Hl; reflexivity). assert (Egf : getf st o = r) by (unfold getf; rewrite Er; reflexivity).
    assert (Elit : is_literal o = is_flit x) by (apply (literal_tree s); [assumption | apply Hx | apply Hx]).
    destruct Hcase as [[-> ->] | [Hnl [[i ->] [Hn [Hc [Hall [Hsem Hdet]]]]]]].
    + exists (l :: ls), zs. unfold ts_ops. cbn [map filter flat_map forallb]. rewrite Elit. cbn [is_flit negb]. rewrite Egl, A.
      split; [reflexivity |]. split; [assumption |]. split; [constructor; assumption |]. split; [assumption |]. split; [assumption |]. split.
      * intros v Hv. cbn [sem]. rewrite (G v Hv). reflexivity.
      * intros v w Hv Hw' Hag u Hu. apply in_app_or in Hu.
        assert (Hag' : forall u, In u (flat_map fvars xs) -> w u = v u) by (intros z Hz; apply Hag; apply in_or_app; right; assumption).
        destruct Hu as [Hu | [<- | Hu]].
        -- apply (I v w Hv Hw' Hag'). apply in_or_app. left. assumption.
        -- apply Hag. apply in_or_app. left. left. reflexivity.
        -- apply (I v w Hv Hw' Hag'). apply in_or_app. right. assumption.
    + exists (Lit (VAux AuxCNF i) true :: ls), (y :: zs). unfold ts_ops. cbn [map filter flat_map forallb]. rewrite Elit, Hnl. cbn [negb map]. rewrite Egl, Egf, A.
      split; [reflexivity |]. split; [constructor; assumption |]. split; [constructor; assumption |]. split; [constructor; assumption |]. split; [| split].
      * intros v Hv. rewrite (proj1 (Hall v Hv)). cbn [andb]. auto.
      * intros v Hv. apply andb_true_iff in Hv. destruct Hv as [Hv1 Hv2]. rewrite (Hsem v Hv1), (G v Hv2). reflexivity.
      * intros v w Hv Hw' Hag u Hu. apply andb_true_iff in Hv, Hw'. destruct Hv as [Hv1 Hv2], Hw' as [Hw1 Hw2].
        assert (Hag1 : forall u, In u (fvars x) -> w u = v u) by (intros z Hz; apply Hag; apply in_or_app; left; assumption).
        assert (Hag' : forall u, In u (flat_map fvars xs) -> w u = v u) by (intros z Hz; apply Hag; apply in_or_app; right; assumption).
        rewrite <- app_assoc in Hu. apply in_app_or in Hu. destruct Hu as [Hu | Hu]; [apply (Hdet v w Hv1 Hw1 Hag1 u Hu) |].
        apply in_app_or in Hu. destruct Hu as [Hu | [<- | Hu]].
        -- apply (I v w Hv2 Hw2 Hag'). apply in_or_app. left. assumption.
        -- pose proof (Hsem v Hv1) as E1. pose proof (Hsem w Hw1) as E2. cbn [lit_sem lit_var] in *. rewrite E1, E2. apply sem_fvars. assumption.
        -- apply (I v w Hv2 Hw2 Hag'). apply in_or_app. right. assumption.
Qed.

Lemma mono_index : forall V (m : list (N * V)) h, mono (index m h).
Proof. intros. apply mono_lift. Qed.
Global Hint Resolve mono_index : mono.

Lemma mono_compute_tseitin : forall fuel h st, mono (compute_tseitin fuel h st).
Proof.
  induction fuel as [| fuel IH]; intros h st; cbn [compute_tseitin]; [apply mono_nofuel |].
  destruct (assoc N.eqb h (cs_formula st)); [apply mono_ret |]. apply mono_bind; [apply mono_unpackM |]. intros n.
  assert (HL : forall ops p, mono (mfold (ts_loop fuel) ops p)).
  { intros ops p. apply mono_mfold. intros a [[[ns os] negs] st']. unfold ts_loop. apply mono_bind.
    - destruct (is_literal a); [apply mono_ret |]. apply mono_bind; [apply IH |]. intros. apply mono_bind; [apply mono_index | intros; apply mono_ret].
    - intros [n1 st1]. apply mono_bind; [apply mono_index | intros; apply mono_ret]. }
  destruct n; try apply mono_fail; try apply mono_ret.
  - apply mono_bind; [apply mono_f_new_aux |]. intros v. apply mono_bind; [apply HL |]. intros [[[ns os] negs] st'].
    apply mono_bind; [apply mono_mmap; intros; auto with mono |]. intros cs. apply mono_bind; [auto with mono |]. intros c. apply mono_bind; [auto with mono | intros; apply mono_ret].
  - apply mono_bind; [apply mono_f_new_aux |]. intros v. apply mono_bind; [apply HL |]. intros [[[ns os] negs] st'].
    apply mono_bind; [apply mono_mmap; intros; auto with mono |]. intros cs. apply mono_bind; [auto with mono |]. intros c. apply mono_bind; [auto with mono | intros; apply mono_ret].
Qed.
Global Hint Resolve mono_compute_tseitin : mono.

Definition ts_post (T : world) (s : factory) (W : world) (st : cnf_state) (h : N) (st' : cnf_state) (s' : factory) (W' : world) : Prop :=
  W' = W /\ (forall k, in_dom st k -> in_dom st' k) /\ in_dom st' h /\ exists T', grows T T' s /\ closed T' s' /\ ts_ok T' st' s'.

(** Adding an entry. *)
Lemma ts_ok_add : forall T st s h r l, ts_ok T st s -> ts_entry T s h r l -> ts_ok T (cs_add_formula h r (cs_add_variable h l st)) s.
Proof.
  intros T st s h r l Hok He k q Hg. cbn [cs_add_formula cs_add_variable cs_formula cs_variable assoc] in *. destruct (N.eqb_spec k h) as [-> | Hne].
  - injection Hg as <-. exists l. auto.
  - apply Hok. assumption.
Qed.
Lemma dom_add : forall st h r l k, in_dom (cs_add_formula h r (cs_add_variable h l st)) k <-> k = h \/ in_dom st k.
Proof.
  intros st h r l k. unfold in_dom. cbn [cs_add_formula cs_add_variable cs_formula assoc]. destruct (N.eqb_spec k h); split; auto; try congruence.
  intros [E | E]; [contradiction | assumption].
Qed.

(** The definition of a conjunction or disjunction. *)
Lemma ts_nary : forall conj T s st x xs ops u i ls zs cy cys,
  x = fnary conj xs -> u = VAux AuxCNF i -> ts_ops T s st ops xs ls zs -> ~ In u (fvars x) ->
  (* one clause for each operand *)
  Forall2 (fun l y => is_clause_of [Lit u (negb conj); (if conj then l else lit_negate l)] y) ls cys ->
  is_clause_of (Lit u conj :: map (fun l => if conj then lit_negate l else l) ls) cy ->
  forall y, cnf_shape y = true -> (forall v, sem v y = forallb (sem v) (zs ++ cys ++ [cy])) -> incl (fvars y) (flat_map fvars (zs ++ cys ++ [cy])) ->
  ts_def (define T u x) x (Lit u true) y.
Proof.
  intros conj T s st x xs ops u i ls zs cy cys -> -> [A [B [C [D [F [G I]]]]]] Hn Hcys [_ [Scy Icy]] y Hcn Sy Iy.
  set (u := VAux AuxCNF i) in *.
  assert (Hsc : forall v, forallb (sem v) cys = forallb (fun l => Bool.eqb (v u) (negb conj) || Bool.eqb (lit_sem v l) conj) ls).
  { intros v. clear -Hcys. induction Hcys as [| l c ls cys [_ [Hc _]] HF IH]; [reflexivity |]. cbn [forallb]. rewrite IH, Hc. f_equal. cbn [existsb].
    destruct conj; cbn [negb lit_sem]; rewrite ?lit_negate_sem, orb_false_r; destruct (v u), (lit_sem v l); reflexivity. }
  assert (Hsl : forall v, sem v cy = Bool.eqb (v u) conj || existsb (fun l => Bool.eqb (lit_sem v l) (negb conj)) ls).
  { intros v. rewrite Scy. cbn [existsb]. f_equal; [destruct conj; cbn; destruct (v u); reflexivity |]. rewrite existsb_map.
    clear. induction ls as [| l ls IH]; cbn [existsb]; [reflexivity |]. rewrite IH. f_equal. destruct conj; rewrite ?lit_negate_sem; destruct (lit_sem v l); reflexivity. }
  assert (Hxs : forall v, map (lit_sem v) ls = map (sem v) xs -> sem v (fnary conj xs) = if conj then forallb (lit_sem v) ls else existsb (lit_sem v) ls).
  { intros v E. rewrite sem_fnary. unfold nary_sem. destruct conj.
    - rewrite <- (map_id xs), <- (map_id ls). clear -E. revert ls E. induction xs as [| a xs IH]; intros [| b ls] E; cbn in *; try discriminate; [reflexivity |].
      injection E as -> E. f_equal. apply IH. assumption.
    - clear -E. revert ls E. induction xs as [| a xs IH]; intros [| b ls] E; cbn in *; try discriminate; [reflexivity |].
      injection E as -> E. f_equal. apply IH. assumption. }
  assert (Hdef : forall v, map (lit_sem v) ls = map (sem v) xs -> (forallb (sem v) cys && sem v cy = true <-> v u = sem v (fnary conj xs))).
  { intros v E. rewrite (Hxs v E), Hsc, Hsl. clear. destruct conj; cbn [negb].
    - destruct (v u); cbn [Bool.eqb orb].
      + rewrite andb_true_r. split; intros H.
        * symmetry. rewrite forallb_forall in *. intros l Hl. specialize (H l Hl). now destruct (lit_sem v l).
        * symmetry in H. rewrite forallb_forall in *. intros l Hl. specialize (H l Hl). now rewrite H.
      + rewrite (proj2 (forallb_forall _ ls)) by reflexivity. cbn [andb].
        induction ls as [| l ls IH]; cbn [existsb forallb]; [split; discriminate |]. destruct (lit_sem v l); cbn; [apply IH | split; reflexivity].
    - destruct (v u); cbn [Bool.eqb orb].
      + rewrite (proj2 (forallb_forall _ ls)) by reflexivity. cbn [andb].
        induction ls as [| l ls IH]; cbn [existsb]; [split; discriminate |]. destruct (lit_sem v l); cbn; [split; reflexivity | apply IH].
      + rewrite andb_true_r. split; intros H.
        * symmetry. induction ls as [| l ls IH]; cbn [existsb forallb] in *; [reflexivity |]. destruct (lit_sem v l); cbn in *; [discriminate | auto].
        * symmetry in H. induction ls as [| l ls IH]; cbn [existsb forallb] in *; [reflexivity |]. destruct (lit_sem v l); cbn in *; [discriminate | auto]. }
  assert (Hy : forall v, sem v y = true <-> forallb (sem v) zs = true /\ forallb (sem v) cys && sem v cy = true).
  { intros v. rewrite Sy, !forallb_app. cbn [forallb]. rewrite andb_true_r, andb_true_iff. tauto. }
  split; [exists i; reflexivity |]. split; [exact Hn |]. split; [assumption |]. split; [| split].
  - intros v [Hv Eu]. cbn [lit_sem]. split; [| exact Eu]. apply Hy. split; [auto |]. apply Hdef; auto.
  - intros v Hv. apply Hy in Hv. destruct Hv as [Hz Hc]. cbn [lit_sem]. apply Hdef; auto.
  - intros v w Hv Hw Hag. apply Hy in Hv, Hw. destruct Hv as [Hz Hc], Hw as [Hz' Hc']. rewrite fvars_fnary in Hag.
    pose proof (I v w Hz Hz' Hag) as HI.
    assert (Hu : w u = v u).
    { apply Hdef in Hc; [| auto]. apply Hdef in Hc'; [| auto]. rewrite Hc, Hc'. apply sem_fvars. rewrite fvars_fnary. assumption. }
    assert (Hls : forall l, In l ls -> w (lit_var l) = v (lit_var l)) by (intros l Hl; apply HI; apply in_or_app; right; apply in_map; assumption).
    intros a Ha. apply Iy in Ha. rewrite !flat_map_app in Ha. apply in_app_or in Ha. destruct Ha as [Ha | Ha]; [apply HI; apply in_or_app; left; assumption |].
    apply in_app_or in Ha. destruct Ha as [Ha | Ha].
    + clear -Hcys Ha Hu Hls. induction Hcys as [| l c ls cys [_ [_ Hi]] HF IH]; [destruct Ha |]. cbn [flat_map] in Ha. apply in_app_or in Ha. destruct Ha as [Ha | Ha].
      * apply Hi in Ha. cbn [map] in Ha. destruct Ha as [<- | [<- | []]]; [exact Hu |]. destruct conj; rewrite ?lit_negate_var; apply Hls; left; reflexivity.
      * apply IH; [| assumption]. intros k Hk. apply Hls. right. assumption.
    + cbn [flat_map] in Ha. rewrite app_nil_r in Ha. apply Icy in Ha. cbn [map] in Ha. destruct Ha as [<- | Ha]; [exact Hu |].
      rewrite map_map in Ha. apply in_map_iff in Ha. destruct Ha as [l [<- Hl]]. destruct conj; rewrite ?lit_negate_var; apply Hls; assumption.
Qed.

Lemma mmap_map : forall A B C (f : B -> M C) (g : A -> B) l, mmap f (map g l) = mmap (fun a => f (g a)) l.
Proof. intros A B C f g l. induction l as [| a l IH]; cbn [map mmap]; [reflexivity | rewrite IH; reflexivity]. Qed.

Definition sg (conj : bool) (l : lit) : lit := if conj then l else lit_negate l.
Lemma sg_var : forall conj l, lit_var (sg conj l) = lit_var l.
Proof. intros [] l; [reflexivity | apply lit_negate_var]. Qed.

Lemma ts_tail : forall conj T W s1 s st h x xs ops u i ls zs,
  inv W s1 -> ext s s1 -> hdl s h x -> x = fnary conj xs -> u = VAux AuxCNF i -> ~ known s u -> known s1 u -> closed T s ->
  ts_ok T st s -> ts_ops T s st ops xs ls zs ->
  xspec W s1
    (cs <-- mmap (fun o => f_or [encode_lit (Lit u (negb conj)); o]) (map (fun l => encode_lit (sg conj l)) ls) ;;
     c <-- f_or (encode_lit (Lit u conj) :: map (fun l => encode_lit (sg (negb conj) l)) ls) ;;
     r <-- f_and (map (getf st) (filter (fun o => negb (is_literal o)) ops) ++ cs ++ [c]) ;;
     ret (cs_add_formula h r (cs_add_variable h (Lit u true) st)))
    (ts_post T s W st h).
Proof.
  intros conj T W s1 s st h x xs ops u i ls zs Hi He Hx Ex Eu Hnk Hk Hc Hok Hops.
  pose proof Hops as [A [B [C [D [F [G I]]]]]].
  assert (C1 : Forall (fun l => known s1 (lit_var l)) ls) by (eapply Forall_impl; [| exact C]; intros; eapply known_ext; eauto).
  rewrite mmap_map. eapply x_bind with (Q1 := fun cs s' W' => W' = W /\ exists cys, Forall2 (hdl s') cs cys
      /\ Forall2 (fun l y => is_clause_of [Lit u (negb conj); sg conj l] y) ls cys).
  - apply x_mmap; [assumption | intros; auto with mono |]. intros l t Hl Ht Het.
    apply (x_clause W t [Lit u (negb conj); sg conj l]); [assumption |]. rewrite Forall_forall in C1.
    constructor; [eapply known_ext; eauto |]. constructor; [| constructor]. rewrite sg_var. eapply known_ext; eauto.
  - intros cs. apply mono_bind; [auto with mono |]. intros. apply mono_bind; [auto with mono | intros; apply mono_ret].
  - intros cs s2 W2 Hi2 He2 _ [-> [cys [Hcs Hcys]]].
    eapply x_bind with (Q1 := fun c s' W' => W' = W /\ exists cy, hdl s' c cy /\ is_clause_of (Lit u conj :: map (sg (negb conj)) ls) cy).
    + assert (E : encode_lit (Lit u conj) :: map (fun l => encode_lit (sg (negb conj) l)) ls = map encode_lit (Lit u conj :: map (sg (negb conj)) ls))
        by (cbn [map]; rewrite map_map; reflexivity).
      rewrite E. apply x_clause; [assumption |]. constructor; [eapply known_ext; eauto |]. apply Forall_forall. intros l Hl. apply in_map_iff in Hl.
      destruct Hl as [k [<- Hl]]. rewrite sg_var. rewrite Forall_forall in C1. eapply known_ext; eauto.
    + intros c. apply mono_bind; [auto with mono | intros; apply mono_ret].
    + intros c s3 W3 Hi3 He3 _ [-> [cy [Hcy Hcc]]].
      assert (He03 : ext s s3) by (eapply ext_trans; [exact He | eapply ext_trans; eauto]).
      eapply x_bind; [apply (x_conj W s3 _ (zs ++ cys ++ [cy])); [assumption | |] | intros; apply mono_ret |].
      * apply Forall2_app; [| apply Forall2_app; [| constructor; [assumption | constructor]]].
        -- eapply hdls_ext; [exact He03 | exact B].
        -- eapply hdls_ext; [exact He3 | exact Hcs].
      * apply Forall_app. split; [assumption |]. apply Forall_app. split; [| constructor; [apply Hcc | constructor]].
        clear -Hcys. induction Hcys as [| ? ? ? ? Hh]; constructor; [apply Hh | assumption].
      * intros r s4 W4 Hi4 He4 _ [-> [y [Hy [Hcn [Sy Iy]]]]]. apply x_ret; [assumption |]. split; [reflexivity |].
        assert (He04 : ext s s4) by (eapply ext_trans; eauto).
        split; [intros k Hk'; apply dom_add; right; assumption |]. split; [apply dom_add; left; reflexivity |].
        assert (Hnx : ~ In u (fvars x)) by (intros H; apply Hnk; apply (proj2 (proj2 Hx)); assumption).
        exists (define T u x). split; [eapply define_grows; eauto; apply Hx |].
        assert (Hk4 : known s4 u) by (eapply known_ext; [eapply ext_trans; [exact He2 | eapply ext_trans; eauto] | assumption]).
        split; [apply define_closed; [eapply closed_ext; eauto | assumption | eapply kn_ext; [exact He04 | apply Hx]] |].
        apply ts_ok_add; [eapply ts_ok_ext; [exact He04 | | exact Hok]; intros v Hv; apply Hv |].
        exists x, y. split; [eapply hdl_ext; eauto |]. split; [assumption |]. split; [assumption |]. right.
        split; [subst x; destruct conj; reflexivity |].
        apply (ts_nary conj T s st x xs ops u i ls zs cy cys Ex Eu Hops Hnx); auto.
        replace (map (fun l => if conj then lit_negate l else l) ls) with (map (sg (negb conj)) ls); [assumption |]. apply map_ext. intros l. destruct conj; reflexivity.
Qed.

(** A formula whose operands have been treated. *)
Definition ts_shape (x : fml) : Prop := is_flit x = true \/ exists conj xs, x = fnary conj xs.

Lemma compute_tseitin_spec : forall fuel T W s st h x n, inv W s -> closed T s -> ts_ok T st s -> hdl s h x -> ts_shape x ->
  unpack s h = Ok n -> (forall o, In o (node_operands n) -> in_dom st o) -> (2 <= fuel)%nat ->
  xspec W s (compute_tseitin fuel h st) (ts_post T s W st h).
Proof.
  intros fuel T W s st h x n Hi Hc Hok Hx Hsh Hu Hd Hf. destruct fuel as [| [| fuel]]; try lia. cbn [compute_tseitin].
  destruct (assoc N.eqb h (cs_formula st)) as [r0 |] eqn:Ea.
  { apply x_ret; [assumption |]. split; [reflexivity |]. split; [auto |]. split; [unfold in_dom; congruence |]. exists T. split; [apply grows_refl | auto]. }
  eapply x_unpack_bind; [exact Hu |]. pose proof (denotes_by_node _ _ _ _ Hu (proj1 (proj2 Hx))) as Hn.
  pose proof (hdls_children s h x n (i_wf _ _ Hi) Hx Hu) as Hch.
  assert (Hloop : forall (conj : bool) ops xs, n = (if conj then NAnd ops else NOr ops) -> x = fnary conj xs -> Forall2 (hdl s) ops xs ->
     forall v s1, inv W s1 -> ext s s1 -> (exists i, v = VAux AuxCNF i /\ ~ known s v /\ known s1 v) ->
     forall k : list N * list N * list N * cnf_state -> M cnf_state, (forall p, mono (k p)) ->
     (forall ls zs, ts_ops T s st ops xs ls zs ->
       xspec W s1 (k (map (getf st) (filter (fun o => negb (is_literal o)) ops),
                    (if conj then [] else [encode_lit (Lit v false)]) ++ map encode_lit ls,
                    (if conj then [encode_lit (Lit v true)] else []) ++ map (fun l => encode_lit (lit_negate l)) ls, st)) (ts_post T s W st h)) ->
     xspec W s1 (bind (mfold (ts_loop (S fuel)) ops ([], (if conj then [] else [encode_lit (Lit v false)]), (if conj then [encode_lit (Lit v true)] else []), st)) k)
       (ts_post T s W st h)).
  { intros conj ops xs -> -> HF v s1 Hi1 He1 [i [Ev [Hnk Hk]]] k Hm H.
    assert (Hd' : forall o, In o ops -> in_dom st o) by (intros o Ho; apply Hd; destruct conj; assumption).
    destruct (ts_ops_ok T s st ops xs (i_wf _ _ Hi) Hok HF Hd') as [ls [zs Hops]].
    eapply x_det_bind; [apply (ts_loop_run T fuel st s1 ops); [eapply ts_ok_ext; [exact He1 | apply sub_refl | exact Hok] | assumption] |].
    specialize (H ls zs Hops). pose proof Hops as [A _]. rewrite <- A in H. rewrite !map_map in H. exact H. }
  destruct Hsh as [Hl | [conj [xs Ex]]].
  - destruct x; try discriminate. destruct n; cbn in Hn; try discriminate; try (destruct Hn as [? [Hn _]]; discriminate); try (destruct Hn as [? [? [Hn _]]]; discriminate).
    injection Hn as <-. apply x_ret; [assumption |]. split; [reflexivity |].
    change (cs_add_variable h l (cs_add_formula h h st)) with (cs_add_formula h h (cs_add_variable h l st)).
    split; [intros k Hk; apply dom_add; right; assumption |]. split; [apply dom_add; left; reflexivity |].
    exists T. split; [apply grows_refl |]. split; [assumption |]. apply ts_ok_add; [assumption |]. exists (FLit l), (FLit l). split; [assumption |]. split; [assumption |].
    split; [apply (proj2 (proj2 Hx)); left; reflexivity |]. left. auto.
  - subst x. destruct conj.
    + destruct n; cbn in Hn; try discriminate; try (destruct Hn as [? [Hn _]]; discriminate); try (destruct Hn as [? [? [Hn _]]]; discriminate).
      destruct Hn as [ys [E _]]. injection E as <-. cbn [fnary children node_operands] in Hch.
      eapply x_bind; [apply x_new_aux; assumption | |].
      { intros a. apply (mono_bind _ _ (mfold (ts_loop (S fuel)) _ _)); [| intros [[[? ?] ?] ?]; mono_tac].
        apply mono_mfold. intros b [[[ns os] negs] st']. unfold ts_loop. apply mono_bind.
        - destruct (is_literal b); [apply mono_ret |]. apply mono_bind; [apply mono_compute_tseitin |]. intros. apply mono_bind; [apply mono_index | intros; apply mono_ret].
        - intros [n1 st1]. apply mono_bind; [apply mono_index | intros; apply mono_ret]. }
      intros v s1 W1 Hi1 He1 _ [-> Hv].
      apply (Hloop true l xs eq_refl eq_refl Hch v s1 Hi1 He1 Hv); [intros [[[? ?] ?] ?]; mono_tac |].
      intros ls zs Hops. destruct Hv as [i [Ev [Hnk Hk]]]. cbn [app].
      apply (ts_tail true T W s1 s st h (FAnd xs) xs l v i ls zs); auto.
    + destruct n; cbn in Hn; try discriminate; try (destruct Hn as [? [Hn _]]; discriminate); try (destruct Hn as [? [? [Hn _]]]; discriminate).
      destruct Hn as [ys [E _]]. injection E as <-. cbn [fnary children node_operands] in Hch.
      eapply x_bind; [apply x_new_aux; assumption | |].
      { intros a. apply (mono_bind _ _ (mfold (ts_loop (S fuel)) _ _)); [| intros [[[? ?] ?] ?]; mono_tac].
        apply mono_mfold. intros b [[[ns os] negs] st']. unfold ts_loop. apply mono_bind.
        - destruct (is_literal b); [apply mono_ret |]. apply mono_bind; [apply mono_compute_tseitin |]. intros. apply mono_bind; [apply mono_index | intros; apply mono_ret].
        - intros [n1 st1]. apply mono_bind; [apply mono_index | intros; apply mono_ret]. }
      intros v s1 W1 Hi1 He1 _ [-> Hv].
      apply (Hloop false l xs eq_refl eq_refl Hch v s1 Hi1 He1 Hv); [intros [[[? ?] ?] ?]; mono_tac |].
      intros ls zs Hops. destruct Hv as [i [Ev [Hnk Hk]]]. cbn [app].
      apply (ts_tail false T W s1 s st h (FOr xs) xs l v i ls zs); auto.
Qed.

Lemma ts_all : forall fuel l2 l1 T W s st, inv W s -> closed T s -> ts_ok T st s -> (forall k, In k l1 -> in_dom st k) ->
  (forall a k b, l1 ++ l2 = a ++ k :: b -> exists x n, hdl s k x /\ ts_shape x /\ unpack s k = Ok n /\ forall o, In o (node_operands n) -> In o a) -> (2 <= fuel)%nat ->
  xspec W s (mfold (compute_tseitin fuel) l2 st) (fun st' s' W' => W' = W /\ (forall k, In k (l1 ++ l2) -> in_dom st' k)
    /\ exists T', grows T T' s /\ closed T' s' /\ ts_ok T' st' s').
Proof.
  intros fuel l2. induction l2 as [| k l2 IH]; intros l1 T W s st Hi Hc Hok Hd Hl Hf; cbn [mfold].
  - apply x_ret; [assumption |]. split; [reflexivity |]. rewrite app_nil_r. split; [assumption |]. exists T. split; [apply grows_refl | auto].
  - destruct (Hl l1 k l2 eq_refl) as [x [n [Hx [Hsh [Hu Hops]]]]].
    eapply x_bind; [apply (compute_tseitin_spec fuel T W s st k x n); auto | intros; apply mono_mfold; intros; apply mono_compute_tseitin |].
    intros st1 s1 W1 Hi1 He1 _ [-> [Hdm [Hk [T1 [Hg1 [Hc1 Hok1]]]]]].
    eapply x_conseq; [apply (IH (l1 ++ [k]) T1 W s1 st1); auto |].
    + intros j Hj. apply in_app_or in Hj. destruct Hj as [Hj | [<- | []]]; auto.
    + intros a j b E. rewrite <- app_assoc in E. destruct (Hl a j b E) as [x' [n' [Hx' [Hsh' [Hu' Hops']]]]]. exists x', n'.
      split; [eapply hdl_ext; eauto |]. split; [assumption |]. split; [eapply unpack_ext; [apply He1 | assumption] | assumption].
    + intros st2 s2 W2 Hi2 He2 _ [-> [Hd2 [T2 [Hg2 [Hc2 Hok2]]]]]. split; [reflexivity |]. rewrite <- app_assoc in Hd2. split; [exact Hd2 |].
      exists T2. split; [eapply grows_trans; eauto | auto].
Qed.

(** Sub-formulas of a negation normal form. *)
Lemma below_nnf : forall s h x k, wf s -> hdl s h x -> nnf_shape x = true -> x <> FTrue -> x <> FFalse -> below s h k ->
  exists y, hdl s k y /\ nnf_shape y = true /\ y <> FTrue /\ y <> FFalse.
Proof.
  intros s h x k Hw Hx Hn Ht Hf Hb. induction Hb as [| k n o Hb IH Hu Ho]; [eauto |].
  destruct IH as [y [Hy [Hyn [Hyt Hyf]]]]. pose proof (hdls_children s k y n Hw Hy Hu) as Hch.
  assert (Hz : exists z, In z (children y) /\ hdl s o z).
  { clear -Hch Ho. induction Hch; [destruct Ho |]. destruct Ho as [<- | Ho]; [eexists; split; [left; reflexivity | assumption] |].
    destruct (IHHch Ho) as [z [Hz1 Hz2]]. exists z. split; [right |]; assumption. }
  destruct Hz as [z [Hz Hoz]]. exists z. split; [assumption |].
  assert (Hnary : exists conj l, y = fnary conj l /\ In z l).
  { destruct y; cbn in Hyn, Hz; try discriminate; try contradiction; [exists true, l | exists false, l]; auto. }
  destruct Hnary as [conj [l [-> Hzl]]]. destruct Hy as [Hv [Hd _]]. destruct (wf_fnary s k conj l Hw Hv Hd) as [_ Hall].
  destruct (Hall z Hzl) as [Z1 [Z2 _]]. split; [| auto]. destruct conj; cbn [fnary nnf_shape] in Hyn; rewrite forallb_forall in Hyn; auto.
Qed.
Lemma nnf_ts_shape : forall y, nnf_shape y = true -> y <> FTrue -> y <> FFalse -> ts_shape y.
Proof. intros y H Ht Hf. destruct y; cbn in H; try discriminate; try contradiction; [left; reflexivity | right; exists true, l; reflexivity | right; exists false, l; reflexivity]. Qed.

(** [y] is a conjunctive normal form of [x] with definitions in [T]. *)
Definition ts_res (T : world) (x y : fml) : Prop :=
  cnf_shape y = true /\ (forall v, sem v y = true -> sem v x = true) /\ (forall v, T v -> sem v x = true -> sem v y = true)
  /\ determined (fvars x) y (fvars y).

Lemma extends_lit : forall l v, extends (asg_of_lit l) v <-> lit_sem v l = true.
Proof.
  intros [u []] v; unfold extends, asg_of_lit; cbn; split; intros H.
  - apply (H u). left. reflexivity.
  - intros x. split; [intros [<- | []]; assumption | intros []].
  - rewrite (proj2 (H u)); [reflexivity | left; reflexivity].
  - intros x. split; [intros [] | intros [<- | []]]. now destruct (v u).
Qed.

(** Restricting a definition by its variable. *)
Lemma ts_top : forall T x l y0 y, ts_def T x l y0 -> cnf_shape y = true -> rtree (asg_of_lit l) y0 y -> ts_res T x y.
Proof.
  intros T x l y0 y [[i ->] [Hn [Hc [Hall [Hsem Hdet]]]]] Hy [Hr Hv]. set (u := VAux AuxCNF i) in *.
  assert (Hu : ~ In u (fvars y)) by (intros H; apply Hv in H; destruct H as [_ [H _]]; apply H; left; reflexivity).
  assert (Hset : forall v, sem v y = true -> sem (setv v u true) y0 = true).
  { intros v H. rewrite <- (Hr (setv v u true)); [rewrite sem_setv; auto |]. apply extends_lit. cbn [lit_sem]. apply setv_same. }
  split; [assumption |]. split; [| split].
  - intros v H. pose proof (Hsem _ (Hset v H)) as E. cbn [lit_sem] in E. rewrite setv_same, sem_setv in E by assumption. auto.
  - intros v HT Hx. destruct (Hall v HT) as [H1 H2]. rewrite Hr; [assumption |]. apply extends_lit. rewrite H2. assumption.
  - intros v w Hv1 Hw1 Hag a Ha. assert (Hau : a <> u) by (intros ->; contradiction).
    specialize (Hdet _ _ (Hset v Hv1) (Hset w Hw1)). rewrite <- (setv_other w u true a Hau), <- (setv_other v u true a Hau). apply Hdet; [| apply Hv; assumption].
    intros b Hb. assert (Hbu : b <> u) by (intros ->; contradiction). rewrite !setv_other by assumption. auto.
Qed.

Definition ts_last (fuel : nat) (m : N) (subs : list N) (st : cnf_state) : M (N * cnf_state) :=
  st1 <-- mfold (compute_tseitin fuel) subs st ;;
  tseitin <-- index (cs_formula st1) m ;;
  top_level <-- index (cs_variable st1) m ;;
  r <-- restrict_by fuel top_level tseitin ;;
  ret (r, st1).

Lemma ts_last_spec : forall fuel T W s m x subs st, inv W s -> closed T s -> ts_ok T st s -> hdl s m x -> nnf_shape x = true -> cnf_shape x = false ->
  sub_list s m subs -> (3 <= fuel)%nat ->
  xspec W s (ts_last fuel m subs st) (fun p s' W' => W' = W /\ exists T', grows T T' s /\ closed T' s' /\ ts_ok T' (snd p) s'
    /\ exists y, hdl s' (fst p) y /\ ts_res T' x y).
Proof.
  intros fuel T W s m x subs st Hi Hc Hok Hx Hn Hcf [Hnd [[r0 Er] [Hin Hord]]] Hf. unfold ts_last.
  assert (Hc1 : x <> FTrue) by (intros ->; discriminate). assert (Hc2 : x <> FFalse) by (intros ->; discriminate).
  eapply x_bind; [apply (ts_all fuel subs [] T W s st); auto; [intros k [] | | lia] | |].
  - intros a k b E. cbn [app] in E. assert (Hk : below s m k) by (apply Hin; rewrite E; apply in_or_app; right; left; reflexivity).
    destruct (below_nnf s m x k (i_wf _ _ Hi) Hx Hn Hc1 Hc2 Hk) as [y [Hy [Hyn [Hyt Hyf]]]].
    destruct (vh_operands s k (i_wf _ _ Hi) (proj1 Hy)) as [n [Hu _]]. exists y, n. split; [assumption |]. split; [apply nnf_ts_shape; assumption |]. split; [assumption |].
    intros o Ho. eapply Hord; eauto.
  - intros st1. apply mono_bind; [apply mono_index |]. intros. apply mono_bind; [apply mono_index |]. intros. apply mono_bind; [auto with mono | intros; apply mono_ret].
  - intros st1 s1 W1 Hi1 He1 _ [-> [Hd1 [T1 [Hg1 [Hcl1 Hok1]]]]]. cbn [app] in Hd1.
    assert (Hm : in_dom st1 m) by (apply Hd1; rewrite Er; apply in_or_app; right; left; reflexivity).
    unfold in_dom in Hm. destruct (assoc N.eqb m (cs_formula st1)) as [r |] eqn:Ea; [| congruence].
    destruct (Hok1 m r Ea) as [l [Hl [x' [y0 [Hx' [Hy0 [Hk Hcase]]]]]]].
    assert (Ex : x' = x) by (eapply denotes_fun; [apply Hx' | eapply denotes_ext; [exact He1 | apply Hx]]). subst x'.
    destruct Hcase as [[-> _] | [_ Hdef]]; [discriminate |].
    eapply x_det_bind; [apply index_ok; exact Ea |]. eapply x_det_bind; [apply index_ok; exact Hl |].
    assert (Hcn : cnf_shape y0 = true) by apply Hdef.
    eapply x_bind; [apply x_core; [assumption | apply (restrict_by_cnf l fuel s1 r y0); [apply Hi1 | apply Hy0 | apply Hy0 | assumption | pose proof (cnf_depth y0 Hcn); lia]] | intros; apply mono_ret |].
    intros q s2 W2 Hi2 He2 _ [-> [Hco [Hv [y [Hd [Hy Hr]]]]]]. apply x_ret; [assumption |]. split; [reflexivity |]. exists T1. split; [assumption |].
    split; [eapply closed_ext; eauto |]. cbn [fst snd]. split; [eapply ts_ok_ext; [exact He2 | apply sub_refl | exact Hok1] |].
    exists y. split; [| eapply ts_top; eauto]. split; [assumption |]. split; [assumption |].
    intros u Hu. eapply known_ext; [exact He2 |]. apply (proj2 (proj2 Hy0)). apply Hr. assumption.
Qed.

(** A correct clause form: each model is a model of [x], each model of [x] in the world is one. *)
Definition equisat (W : world) (x y : fml) : Prop :=
  cnf_shape y = true /\ (forall v, sem v y = true -> sem v x = true) /\ (forall v, W v -> sem v x = true -> sem v y = true).
Lemma equisat_sub : forall W W' x y, sub W' W -> equisat W x y -> equisat W' x y.
Proof. intros W W' x y Hs [H1 [H2 H3]]. split; [assumption |]. split; auto. Qed.
Lemma equisat_refines : forall W x m y, refines W x m -> equisat W m y -> equisat W x y.
Proof. intros W x m y [R1 [R2 _]] [H1 [H2 H3]]. split; [assumption |]. split; auto. Qed.
Lemma refines_equisat : forall W x y, refines W x y -> cnf_shape y = true -> equisat W x y.
Proof. intros W x y [R1 [R2 _]] H. split; [assumption |]. split; auto. Qed.
Lemma ts_res_equisat : forall T x y, ts_res T x y -> equisat T x y.
Proof. intros T x y [H1 [H2 [H3 _]]]. split; auto. Qed.
Lemma cnf_lift : forall W s m x, inv W s -> hdl s m x -> is_cnf s m = Ok (cnf_shape x).
Proof. intros W s m x Hi Hx. apply (wf_cnf_exact s (i_wf _ _ Hi)); apply Hx. Qed.
Lemma nnf_encodable : forall s y, nnf_shape y = true -> encodable s y.
Proof. intros s y H. apply con_free_leaves, nnf_con_free. assumption. Qed.
Lemma mono_tseitin_cnf : forall fuel h b st, mono (tseitin_cnf fuel h b st).
Proof.
  intros. unfold tseitin_cnf. apply mono_bind; [apply mono_nnf_rec |]. intros m. apply mono_bind; [apply mono_lift |]. intros [].
  - apply mono_ret.
  - apply mono_bind; [auto with mono |]. intros n. destruct (n <? b).
    + apply mono_bind; [apply mono_fact_nop | intros; apply mono_ret].
    + apply mono_bind; [auto with mono |]. intros subs. apply mono_bind; [apply mono_mfold; intros; apply mono_compute_tseitin |].
      intros. apply mono_bind; [apply mono_index |]. intros. apply mono_bind; [apply mono_index |]. intros. apply mono_bind; [auto with mono | intros; apply mono_ret].
Qed.
Global Hint Resolve mono_tseitin_cnf : mono.
Lemma mono_ts_last : forall fuel m subs st, mono (ts_last fuel m subs st).
Proof.
  intros. unfold ts_last. apply mono_bind; [apply mono_mfold; intros; apply mono_compute_tseitin |].
  intros. apply mono_bind; [apply mono_index |]. intros. apply mono_bind; [apply mono_index |]. intros. apply mono_bind; [auto with mono | intros; apply mono_ret].
Qed.

(** Everything in one world. *)
Theorem tseitin_spec : forall fuel x W s h b st, inv W s -> hdl s h x -> encodable s x -> ts_ok W st s -> (4 * depth x + 14 <= fuel)%nat ->
  xspec W s (tseitin_cnf fuel h b st) (fun p s' W' => ts_ok W' (snd p) s' /\ exists y, hdl s' (fst p) y /\ equisat W' x y).
Proof.
  intros fuel x W s h b st Hi Hx Hen Hok Hf. unfold tseitin_cnf.
  eapply x_bind; [apply (nnf_spec fuel x); auto; lia | |].
  { intros m. apply mono_bind; [apply mono_lift |]. intros []; [apply mono_ret |].
    apply mono_bind; [auto with mono |]. intros n. destruct (n <? b); [apply mono_bind; [apply mono_fact_nop | intros; apply mono_ret] |].
    apply mono_bind; [auto with mono |]. intros subs. exact (mono_ts_last fuel m subs st). }
  intros m s1 W1 Hi1 He1 Hs1 [x1 [Hx1 [Hr1 [Hn1 Hd1]]]]. assert (Hok1 : ts_ok W1 st s1) by (eapply ts_ok_ext; eauto).
  assert (Hdep : (depth x1 <= 2 * depth x + 3)%nat) by (pose proof (ndep_depth x true); lia).
  eapply x_lift_bind; [eapply cnf_lift; eauto |]. destruct (cnf_shape x1) eqn:Ec.
  { apply x_ret; [assumption |]. split; [assumption |]. exists x1. split; [assumption | apply refines_equisat; assumption]. }
  eapply x_bind; [apply (number_of_atoms_spec fuel x1); auto; [apply Hx1 | apply Hx1 | lia] | |].
  { intros n. destruct (n <? b); [apply mono_bind; [apply mono_fact_nop | intros; apply mono_ret] |].
    apply mono_bind; [auto with mono |]. intros subs. exact (mono_ts_last fuel m subs st). }
  intros n s2 W2 Hi2 He2 Hs2 _. assert (Hok2 : ts_ok W2 st s2) by (eapply ts_ok_ext; eauto). assert (Hx2 : hdl s2 m x1) by (eapply hdl_ext; eauto).
  apply (refines_sub _ W2 _ _ Hs2) in Hr1. destruct (n <? b).
  - eapply x_bind; [apply (fact_nop_spec true fuel x1); auto; [apply nnf_encodable; assumption | lia] | intros; apply mono_ret |].
    intros r s3 W3 Hi3 He3 Hs3 [y [Hy [Hry Hny]]]. apply x_ret; [assumption |]. split; [eapply ts_ok_ext; eauto |]. exists y. split; [assumption |].
    eapply equisat_refines; [eapply refines_sub; eauto | apply refines_equisat; assumption].
  - eapply x_bind; [apply (sub_nodes_spec fuel x1); auto; [apply Hx2 | apply Hx2 | lia] | intros; exact (mono_ts_last fuel m _ st) |].
    intros subs s3 W3 Hi3 He3 Hs3 Hsub. apply (x_shrink _ W3 s3 (ts_last fuel m subs st) (fun p s' W' => W' = W3 /\ exists T', grows W3 T' s3 /\ closed T' s' /\ ts_ok T' (snd p) s'
       /\ exists y, hdl s' (fst p) y /\ ts_res T' x1 y)).
    + apply ts_last_spec; auto; [exact (proj2 (i_world _ _ Hi3)) | eapply ts_ok_ext; eauto | eapply hdl_ext; eauto | lia].
    + intros p s4 W4 Hi4 He4 _ [-> [T [Hg [Hc [Hok4 [y [Hy Hres]]]]]]]. exists T. split; [apply Hg |].
      split; [eapply grows_world; eauto; apply Hi3 |]. split; [assumption |]. exists y. split; [assumption |].
      eapply equisat_refines; [| apply ts_res_equisat; exact Hres]. eapply refines_sub; [| exact Hr1]. eapply sub_trans; [apply Hg | exact Hs3].
Qed.

(** For a formula without constraints the new definitions are the only change, whatever holds of other variables. *)
Theorem tseitin_fresh : forall fuel x T W s h b st, inv W s -> hdl s h x -> con_free x = true -> closed T s -> ts_ok T st s -> (4 * depth x + 14 <= fuel)%nat ->
  xspec W s (tseitin_cnf fuel h b st) (fun p s' _ => exists T', grows T T' s /\ closed T' s' /\ ts_ok T' (snd p) s'
    /\ exists y, hdl s' (fst p) y /\ ts_res T' x y).
Proof.
  intros fuel x T W s h b st Hi Hx Hcf Hcl Hok Hf. assert (Hen : encodable s x) by (apply con_free_leaves; assumption). unfold tseitin_cnf.
  assert (Hres : forall x1 y T', (forall v, sem v x1 = sem v x) -> incl (fvars x1) (fvars x) -> ts_res T' x1 y -> ts_res T' x y).
  { intros x1 y T' Hse Hin [R1 [R2 [R3 R4]]]. split; [assumption |]. split; [intros v Hv; rewrite <- Hse; auto |]. split; [intros v Hv Hv2; apply R3; [assumption | now rewrite Hse] |].
    intros v w Hv Hw Hag. apply R4; auto. }
  assert (Hself : forall y T', cnf_shape y = true -> (forall v, sem v y = sem v x) -> incl (fvars y) (fvars x) -> ts_res T' x y).
  { intros y T' Hcn Hse Hin. split; [assumption |]. split; [intros v; rewrite Hse; auto |]. split; [intros v _; rewrite Hse; auto |]. intros v w _ _ Hag u Hu. auto. }
  eapply x_bind; [apply (nnf_spec fuel x); auto; lia | |].
  { intros m. apply mono_bind; [apply mono_lift |]. intros []; [apply mono_ret |].
    apply mono_bind; [auto with mono |]. intros n. destruct (n <? b); [apply mono_bind; [apply mono_fact_nop | intros; apply mono_ret] |].
    apply mono_bind; [auto with mono |]. intros subs. exact (mono_ts_last fuel m subs st). }
  intros m s1 W1 Hi1 He1 Hs1 [x1 [Hx1 [[_ [_ Hr1]] [Hn1 Hd1]]]]. destruct (Hr1 Hcf) as [Hse1 Hin1]. assert (Hok1 : ts_ok T st s1) by (eapply ts_ok_ext; [exact He1 | apply sub_refl | assumption]).
  assert (Hdep : (depth x1 <= 2 * depth x + 3)%nat) by (pose proof (ndep_depth x true); lia).
  assert (Hcl1 : closed T s1) by (eapply closed_ext; eauto).
  eapply x_lift_bind; [eapply cnf_lift; eauto |]. destruct (cnf_shape x1) eqn:Ec.
  { apply x_ret; [assumption |]. exists T. split; [apply grows_refl |]. split; [assumption |]. split; [assumption |]. exists x1. split; [assumption | apply Hself; assumption]. }
  eapply x_bind; [apply (number_of_atoms_spec fuel x1); auto; [apply Hx1 | apply Hx1 | lia] | |].
  { intros n. destruct (n <? b); [apply mono_bind; [apply mono_fact_nop | intros; apply mono_ret] |].
    apply mono_bind; [auto with mono |]. intros subs. exact (mono_ts_last fuel m subs st). }
  intros n s2 W2 Hi2 He2 Hs2 _. assert (Hok2 : ts_ok T st s2) by (eapply ts_ok_ext; [exact He2 | apply sub_refl | assumption]). assert (Hx2 : hdl s2 m x1) by (eapply hdl_ext; eauto).
  assert (Hcl2 : closed T s2) by (eapply closed_ext; eauto). destruct (n <? b).
  - eapply x_bind; [apply (fact_nop_spec true fuel x1); auto; [apply nnf_encodable; assumption | lia] | intros; apply mono_ret |].
    intros r s3 W3 Hi3 He3 Hs3 [y [Hy [[_ [_ Hry]] Hny]]]. destruct (Hry (nnf_con_free x1 Hn1)) as [Hse2 Hin2]. apply x_ret; [assumption |]. exists T. split; [apply grows_refl |].
    split; [eapply closed_ext; eauto |]. split; [eapply ts_ok_ext; [exact He3 | apply sub_refl | assumption] |]. exists y. split; [assumption |].
    apply Hself; [exact Hny | intros v; rewrite Hse2; apply Hse1 | intros u Hu; auto].
  - eapply x_bind; [apply (sub_nodes_spec fuel x1); auto; [apply Hx2 | apply Hx2 | lia] | intros; exact (mono_ts_last fuel m _ st) |].
    intros subs s3 W3 Hi3 He3 Hs3 Hsub. eapply x_conseq; [apply (ts_last_spec fuel T W3 s3 m x1 subs st); auto;
      [eapply closed_ext; eauto | eapply ts_ok_ext; [exact He3 | apply sub_refl | assumption] | eapply hdl_ext; eauto | lia] |].
    intros p s4 W4 Hi4 He4 _ [-> [T' [Hg [Hc [Hok4 [y [Hy Hr]]]]]]]. exists T'.
    split; [eapply grows_trans; [| apply grows_refl | exact Hg]; eapply ext_trans; [exact He1 | eapply ext_trans; eauto] |].
    split; [assumption |]. split; [assumption |]. exists y. split; [assumption |]. eapply Hres; eauto.
Qed.
