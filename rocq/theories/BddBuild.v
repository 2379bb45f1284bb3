(** BDDs held by the user: reference counts, [apply], [not], and building the BDD of a formula. *)
From Coq Require Import NArith ZArith Arith List Bool Lia.
From Verif Require Import Base Syntax FactoryBasics BddSpec BddModel BddLink BddTable BddMake BddRep BddOps.
Import ListNotations.
Local Open Scope res_scope.

(* ------------------------------------------------------------------------------------------------------------------ *)
(** * Specification *)

(** Formulas without cardinality and pseudo-Boolean constraints, with non-empty conjunctions and disjunctions. *)
Fixpoint pure (a : fml) : Prop :=
  match a with
  | FTrue | FFalse | FLit _ => True
  | FNot b => pure b
  | FAnd l | FOr l => l <> [] /\ (fix all l := match l with [] => True | b :: r => pure b /\ all r end) l
  | FImpl b c | FEquiv b c => pure b /\ pure c
  | FCc _ | FPbc _ => False
  end.
Fixpoint bvars (a : fml) : list var :=
  match a with
  | FLit l => [lit_var l]
  | FNot b => bvars b
  | FAnd l | FOr l => (fix all l := match l with [] => [] | b :: r => bvars b ++ all r end) l
  | FImpl b c | FEquiv b c => bvars b ++ bvars c
  | _ => []
  end.

(** The assignment [w] of variable numbers gives every named variable its value under [v]. *)
Definition vw (names : list var) (v : valuation) (w : nat -> bool) : Prop :=
  forall i x, nth_error names i = Some x -> w i = v x.

Lemma fml_ind2 : forall P : fml -> Prop, P FTrue -> P FFalse -> (forall l, P (FLit l)) -> (forall b, P b -> P (FNot b)) ->
  (forall l, Forall P l -> P (FAnd l)) -> (forall l, Forall P l -> P (FOr l)) ->
  (forall b c, P b -> P c -> P (FImpl b c)) -> (forall b c, P b -> P c -> P (FEquiv b c)) ->
  (forall c, P (FCc c)) -> (forall p, P (FPbc p)) -> forall a, P a.
Proof.
  intros P H1 H2 H3 H4 H5 H6 H7 H8 H9 H10. fix IH 1. intros [ | | l | b | l | l | b c | b c | c | p].
  - exact H1.
  - exact H2.
  - apply H3.
  - apply H4. apply IH.
  - apply H5. induction l as [ | x l J]; constructor; [apply IH | exact J].
  - apply H6. induction l as [ | x l J]; constructor; [apply IH | exact J].
  - apply H7; apply IH.
  - apply H8; apply IH.
  - apply H9.
  - apply H10.
Qed.

Lemma vw_app : forall l l' v w, vw (l ++ l') v w -> vw l v w.
Proof.
  intros l l' v w H i x E. apply H. rewrite nth_error_app1; auto. apply nth_error_Some. congruence.
Qed.

(* ------------------------------------------------------------------------------------------------------------------ *)
(** * Reference counts *)

(** [own] lists the nodes the user holds, with multiplicity: they have at least that many references, or the maximum. *)
Definition owned (k : kernel) (own : list nat) : Prop := forall n, 2 <= n ->
  n_ref (nd (k_nodes k) n) = MAXREF \/
  (N.of_nat (count_occ Nat.eq_dec own n) <= n_ref (nd (k_nodes k) n) < MAXREF)%N.

Record api (k : kernel) (own : list nat) : Prop := mkApi {
  a_inv : kinv k; a_stv : stv k; a_len : length (k_stack k) <= k_varnum k; a_own : owned k own;
  a_q : Forall (fun q => Z.to_N (Z.abs q) <= k_qid k)%N (k_qset k) /\ (k_qid k <= 2147483647)%N }.

(** What an operation does to the nodes in [own]. *)
Record ext (own : list nat) (k k' : kernel) : Prop := mkExt {
  e_names : exists l, k_names k' = k_names k ++ l;
  e_varnum : k_varnum k' = k_varnum k;
  e_qid : k_qid k' = k_qid k;
  e_wr : forall n t, In n own -> wr k n t -> wr k' n t }.

Lemma ext_refl : forall own k, ext own k k.
Proof. intros. constructor; auto. exists []. rewrite app_nil_r. auto. Qed.
Lemma ext_trans : forall own own1 k k1 k2, ext own k k1 -> (forall n, In n own -> In n own1) -> ext own1 k1 k2 -> ext own k k2.
Proof.
  intros own own1 k k1 k2 [(l1 & N1) A2 A3 A4] I [(l2 & N2) B2 B3 B4]. constructor; try congruence.
  - exists (l1 ++ l2). rewrite N2, N1, app_assoc. auto.
  - intros n t Hn W. apply B4; auto.
Qed.

Lemma own_prot : forall k own n, api k own -> In n own -> forall st, prot (k_nodes k) st n.
Proof.
  intros k own n A Hn st. destruct (le_lt_dec 2 n) as [H2 | H2]; [ | apply prot_const; auto; apply A].
  apply prot_root. right. destruct (a_own _ _ A n H2) as [-> | (G & _)]; [reflexivity | ].
  apply (count_occ_In Nat.eq_dec) in Hn. lia.
Qed.

Lemma owned_incl : forall k own own', (forall n, count_occ Nat.eq_dec own' n <= count_occ Nat.eq_dec own n) -> owned k own -> owned k own'.
Proof. intros k own own' H O n Hn. destruct (O n Hn) as [G | G]; [left; auto | right]. specialize (H n). lia. Qed.
Lemma api_incl : forall k own own', (forall n, count_occ Nat.eq_dec own' n <= count_occ Nat.eq_dec own n) -> api k own -> api k own'.
Proof. intros k own own' H [ ]. constructor; auto. eapply owned_incl; eauto. Qed.
Lemma api_tl : forall k x own, api k (x :: own) -> api k own.
Proof. intros k x own. apply api_incl. intros n. cbn [count_occ]. destruct (Nat.eq_dec x n); lia. Qed.
Lemma api_mid : forall k x y own, api k (x :: y :: own) -> api k (y :: x :: own).
Proof. intros k x y own. apply api_incl. intros n. cbn [count_occ]. destruct (Nat.eq_dec x n), (Nat.eq_dec y n); lia. Qed.

(** Changing reference counts. *)
Section Refs.
  Variables (k : kernel) (r : nat) (f : node -> node).
  Hypothesis K : kinv k.
  Hypothesis Lr : live (k_nodes k) r.
  Hypothesis Fc : forall x, core (f x) = core x /\ n_mark (f x) = n_mark x /\ n_hash (f x) = n_hash x /\ n_next (f x) = n_next x.
  Hypothesis Fm : n_ref (nd (k_nodes k) r) = MAXREF -> n_ref (f (nd (k_nodes k) r)) = MAXREF.

  Let ns' := updn r f (k_nodes k).
  Let k' := s_nodes ns' k.

  Lemma ref_nd : forall n, core (nd ns' n) = core (nd (k_nodes k) n) /\ n_mark (nd ns' n) = n_mark (nd (k_nodes k) n) /\
    n_hash (nd ns' n) = n_hash (nd (k_nodes k) n) /\ n_next (nd ns' n) = n_next (nd (k_nodes k) n) /\
    (n <> r -> n_ref (nd ns' n) = n_ref (nd (k_nodes k) n)).
  Proof.
    intros n. unfold ns'. rewrite nd_upd. destruct ((n =? r) && (r <? length (k_nodes k))) eqn:E.
    - destruct (Fc (nd (k_nodes k) n)) as (F1 & F2 & F3 & F4). do 4 (split; [auto | ]). intro H.
      apply andb_true_iff in E. destruct E as (E & _). apply Nat.eqb_eq in E. congruence.
    - auto 10.
  Qed.

  Lemma ref_live : forall n, live ns' n <-> live (k_nodes k) n.
  Proof. intros n. unfold live. destruct (ref_nd n) as (C & _). apply core_fields in C. destruct C as (_ & -> & _). tauto. Qed.

  Lemma ref_rep : forall n t, rep ns' n t <-> rep (k_nodes k) n t.
  Proof.
    intros n t. split; intros R.
    - eapply rep_all; eauto. intros m _. symmetry. apply ref_nd.
    - eapply rep_all; eauto. intros m _. apply ref_nd.
  Qed.
  Lemma ref_wr : forall n t, wr k' n t <-> wr k n t.
  Proof. intros n t. unfold wr. cbn [k' s_nodes k_nodes k_varnum]. rewrite ref_rep. tauto. Qed.

  Lemma ref_kinv : kinv k'.
  Proof.
    pose proof K as [T P C V N Cp Q Cl Ca]. destruct T as [T1 T2 T3 T4 T5 T6 T7].
    assert (Len : length ns' = length (k_nodes k)) by apply updn_length.
    constructor; cbn [k' s_nodes k_nodes k_varnum k_vars k_names k_cap k_qset k_prime k_apply k_quant k_misc]; auto.
    - unfold tk. cbn [k' s_nodes k_nodes k_freepos k_freenum]. constructor.
      + lia.
      + intros n lo Hn El. destruct (ref_nd n) as (E & _). apply core_fields in E. destruct E as (_ & E2 & E3).
        rewrite E2 in El. rewrite E3. destruct (T2 n lo Hn El) as (A & B).
        split; [destruct A as [A | A] | destruct B as [B | B]]; try (left; auto; fail); right; apply ref_live; auto.
      + rewrite Len. eapply lk_ext; [exact T3 | | | | | ].
        * intros m Hm. unfold hs. apply ref_nd.
        * intros m Hm. unfold nx. apply ref_nd.
        * intros m. tauto.
        * intros m Hm. unfold liveb. destruct (ref_nd m) as (E & _). apply core_fields in E. destruct E as (_ & -> & _). auto.
        * intros m Hm _. unfold hof. destruct (ref_nd m) as (E & _). apply core_fields in E. destruct E as (-> & -> & ->). rewrite Len. auto.
      + intros n m A B E. apply T4; try (apply ref_live; auto). destruct (ref_nd n) as (E1 & _). destruct (ref_nd m) as (E2 & _). congruence.
      + intros n. destruct (ref_nd n) as (_ & -> & _). auto.
      + intros n Hn El. destruct (ref_nd n) as (E & _ & _ & _ & Er). apply core_fields in E. destruct E as (_ & E & _). rewrite E in El.
        rewrite Er; auto. intros ->. destruct Lr. congruence.
      + intros n Hn. destruct (ref_nd n) as (E & _ & _ & _ & Er). apply core_fields in E. destruct E as (_ & -> & ->).
        rewrite Er; auto. destruct Lr. lia.
    - destruct C as (C1 & C2). destruct (ref_nd 0) as (E0 & _). destruct (ref_nd 1) as (E1 & _).
      apply core_fields in E0. apply core_fields in E1. destruct E0 as (-> & _). destruct E1 as (-> & _). auto.
    - destruct V as (V1 & V2). split; auto.
      assert (G : forall i ph n, litnode k i ph n -> litnode k' i ph n).
      { intros i ph n (L1 & L2 & L3). split; [auto | ]. cbn [k' s_nodes k_nodes]. destruct (ref_nd n) as (E & _ & _ & _ & Er).
        split; [congruence | ]. destruct (Nat.eq_dec n r) as [-> | Hne]; [ | rewrite Er; auto].
        unfold ns'. rewrite nd_upd_eq by (apply live_lt; auto). auto. }
      intros i Hi. destruct (V2 i Hi) as (V3 & V4). split; apply G; auto.
    - apply (caches_mono k); auto. intros n t W. apply ref_wr. auto.
  Qed.
End Refs.

Lemma inc_fields : forall x, core (inc_ref x) = core x /\ n_mark (inc_ref x) = n_mark x /\ n_hash (inc_ref x) = n_hash x /\ n_next (inc_ref x) = n_next x.
Proof. intros x. unfold inc_ref. destruct (_ <? _)%N; auto. Qed.
Lemma inc_max : forall x, n_ref x = MAXREF -> n_ref (inc_ref x) = MAXREF.
Proof. intros x E. unfold inc_ref. assert (G : (n_ref x <? MAXREF)%N = false) by (rewrite E; reflexivity). rewrite G. auto. Qed.
Lemma dec_max : forall x, n_ref x = MAXREF -> n_ref (dec_ref x) = MAXREF.
Proof. intros x E. unfold dec_ref. assert (G : (n_ref x =? MAXREF)%N = true) by (rewrite E; reflexivity). rewrite G. auto. Qed.
Lemma dec_fields : forall x, core (dec_ref x) = core x /\ n_mark (dec_ref x) = n_mark x /\ n_hash (dec_ref x) = n_hash x /\ n_next (dec_ref x) = n_next x.
Proof. intros x. unfold dec_ref. destruct (_ && _); auto. Qed.

(** Same kernel up to reference counts. *)
Record refs (k k' : kernel) : Prop := mkRefs {
  x_names : k_names k' = k_names k; x_varnum : k_varnum k' = k_varnum k; x_stack : k_stack k' = k_stack k;
  x_qset : k_qset k' = k_qset k; x_qid : k_qid k' = k_qid k; x_qlast : k_qlast k' = k_qlast k;
  x_wr : forall n t, wr k' n t <-> wr k n t }.

Lemma refs_refl : forall k, refs k k.
Proof. intros. constructor; auto. tauto. Qed.
Lemma refs_trans : forall k k1 k2, refs k k1 -> refs k1 k2 -> refs k k2.
Proof.
  intros k k1 k2 [ ] [ ]. constructor; [congruence | congruence | congruence | congruence | congruence | congruence | ].
  intros n t. rewrite x_wr1. auto.
Qed.
Lemma refs_ext : forall own k k', refs k k' -> ext own k k'.
Proof.
  intros own k k' [ ]. constructor; auto.
  - exists []. rewrite app_nil_r. auto.
  - intros n t _ W. apply x_wr0. auto.
Qed.

Lemma ext_trans1 : forall own k k1 k2, ext own k k1 -> ext own k1 k2 -> ext own k k2.
Proof. intros own k k1 k2 H1 H2. apply (ext_trans own own k k1 k2); auto. Qed.
Lemma ext_refs : forall own k k1 k2, ext own k k1 -> refs k1 k2 -> ext own k k2.
Proof. intros own k k1 k2 H1 H2. eapply ext_trans1; eauto. apply refs_ext. auto. Qed.

Lemma add_ref_api : forall k own x t, api k own -> wr k x t ->
  exists k', add_ref k x = Ok k' /\ api k' (x :: own) /\ refs k k'.
Proof.
  intros k own x t A W. unfold add_ref. destruct (Nat.ltb_spec x 2) as [H2 | H2].
  { exists k. split; [auto | ]. split; [ | apply refs_refl]. pose proof A as [ ]. constructor; auto.
    intros n Hn. cbn [count_occ]. destruct (Nat.eq_dec x n); [lia | ]. apply a_own0. auto. }
  destruct (wr_valid _ _ _ W) as [G | L]; [lia | ].
  rewrite (getn_ok _ _ x dead) by (apply live_lt; auto). cbn [rbind]. fold (nd (k_nodes k) x).
  destruct (n_low (nd (k_nodes k) x)) as [lo | ] eqn:El; [ | destruct L; congruence].
  rewrite putn_ok by (apply live_lt; auto). cbn [rbind].
  eexists. split; [reflexivity | ]. pose proof A as [K V Ln O Q].
  assert (Fm : n_ref (nd (k_nodes k) x) = MAXREF -> n_ref (inc_ref (nd (k_nodes k) x)) = MAXREF).
  { apply inc_max. }
  split.
  - constructor; auto.
    + apply ref_kinv; auto. apply inc_fields.
    + intros y Hy. destruct (V y Hy) as [G | G]; [left; auto | right]. apply ref_live; auto. apply inc_fields.
    + intros n Hn. cbn [s_nodes k_nodes count_occ]. rewrite nd_upd. pose proof (live_lt _ _ L) as Lt. apply Nat.ltb_lt in Lt. rewrite Lt, andb_true_r.
      destruct (Nat.eqb_spec n x) as [-> | Hne].
      * destruct (Nat.eq_dec x x); [ | congruence]. destruct (O x Hn) as [G | G].
        -- left. apply inc_max. auto.
        -- unfold inc_ref. destruct G as (G1 & G2). apply N.ltb_lt in G2. rewrite G2. apply N.ltb_lt in G2. cbn [w_ref n_ref]. unfold MAXREF in *. lia.
      * destruct (Nat.eq_dec x n); [congruence | ]. apply O. auto.
  - constructor; auto. intros n u. apply ref_wr; auto. apply inc_fields.
Qed.

Lemma del_ref_api : forall k own x, api k (x :: own) -> exists k', del_ref k x = Ok k' /\ api k' own /\ refs k k'.
Proof.
  intros k own x A. unfold del_ref. destruct (Nat.ltb_spec x 2) as [H2 | H2].
  { exists k. split; [auto | ]. split; [eapply api_tl; eauto | apply refs_refl]. }
  pose proof A as [K V Ln O Q].
  assert (Rp : (0 < n_ref (nd (k_nodes k) x))%N).
  { destruct (O x H2) as [-> | (G & _)]; [reflexivity | ]. cbn [count_occ] in G. destruct (Nat.eq_dec x x); [lia | congruence]. }
  assert (L : live (k_nodes k) x).
  { split; auto. intro El. pose proof (t_ref _ _ _ (i_tk _ K) x H2 El). lia. }
  rewrite (getn_ok _ _ x dead) by (apply live_lt; auto). cbn [rbind]. fold (nd (k_nodes k) x).
  destruct (n_low (nd (k_nodes k) x)) as [lo | ] eqn:El; [ | destruct L; congruence].
  apply N.ltb_lt in Rp. rewrite Rp. rewrite putn_ok by (apply live_lt; auto). cbn [rbind].
  eexists. split; [reflexivity | ].
  assert (Fm : n_ref (nd (k_nodes k) x) = MAXREF -> n_ref (dec_ref (nd (k_nodes k) x)) = MAXREF).
  { apply dec_max. }
  split.
  - constructor; auto.
    + apply ref_kinv; auto. apply dec_fields.
    + intros y Hy. destruct (V y Hy) as [G | G]; [left; auto | right]. apply ref_live; auto. apply dec_fields.
    + intros n Hn. cbn [s_nodes k_nodes]. rewrite nd_upd. pose proof (live_lt _ _ L) as Lt. apply Nat.ltb_lt in Lt. rewrite Lt, andb_true_r.
      specialize (O n Hn). cbn [count_occ] in O.
      destruct (Nat.eqb_spec n x) as [-> | Hne].
      * destruct (Nat.eq_dec x x); [ | congruence]. destruct O as [G | G].
        -- left. apply dec_max. auto.
        -- unfold dec_ref. assert (Ne : (n_ref (nd (k_nodes k) x) =? MAXREF)%N = false) by (apply N.eqb_neq; lia).
           rewrite Ne, Rp. cbn [negb andb w_ref n_ref]. unfold MAXREF in *. lia.
      * destruct (Nat.eq_dec x n); [congruence | ]. auto.
  - constructor; auto. intros n u. apply ref_wr; auto. apply dec_fields.
Qed.

(* ------------------------------------------------------------------------------------------------------------------ *)
(** * [apply] and [not] *)

Lemma good_api : forall k k' own, api k own -> good k k' -> api k' own.
Proof.
  intros k k' own [K V L O Q] [G1 G2 G3 G4]. constructor; auto.
  - rewrite G2, (r_varnum _ _ _ G3). auto.
  - intros n Hn. rewrite (r_ref _ _ _ G3). auto.
  - rewrite (r_qset _ _ _ G3), (r_qid _ _ _ G3). auto.
Qed.
Lemma good_ext : forall k k' own, api k own -> good k k' -> ext own k k'.
Proof.
  intros k k' own A [G1 G2 G3 G4]. constructor.
  - exists []. rewrite app_nil_r. apply G3.
  - apply G3.
  - apply G3.
  - intros n t Hn W. eapply wr_fr; eauto. eapply own_prot; eauto.
Qed.
Lemma api_init : forall k own, api k own -> api (init_ref k) own.
Proof.
  intros k own [K V L O Q]. constructor; auto.
  - apply kinv_stack. auto.
  - intros x [].
  - cbn. lia.
Qed.
Lemma init_ext : forall own k, ext own k (init_ref k).
Proof. intros. constructor; auto. exists []. rewrite app_nil_r. auto. Qed.

Theorem apply_api : forall o k own l r tl tr, api k own -> In l own -> In r own -> wr k l tl -> wr k r tr ->
  exists k' x t, apply o k l r = Ok (k', x) /\ api k' own /\ ext own k k' /\ k_names k' = k_names k /\ wr k' x t /\
    forall w, teval t w = bsem o (teval tl w) (teval tr w).
Proof.
  intros o k own l r tl tr A Il Ir Wl Wr. unfold apply. pose proof (api_init _ _ A) as A0.
  destruct (apply_rec_spec o (S (k_varnum k)) (init_ref k) l r tl tr) as (k' & x & t & E & G & W & H); auto.
  - apply A0.
  - apply A0.
  - eapply own_prot; eauto.
  - eapply own_prot; eauto.
  - cbn [init_ref s_stack k_varnum]. lia.
  - rewrite (i_cap _ (a_inv _ _ A0)). cbn [init_ref s_stack k_varnum k_stack length]. lia.
  - exists k', x, t. split; [auto | ]. split; [eapply good_api; eauto | ]. split.
    + exact (ext_trans1 _ _ _ _ (init_ext own k) (good_ext _ _ _ A0 G)).
    + split; [ | auto]. apply (g_fr _ _ G).
Qed.

Theorem not_api : forall k own r tr, api k own -> In r own -> wr k r tr ->
  exists k' x t, bnot k r = Ok (k', x) /\ api k' own /\ ext own k k' /\ k_names k' = k_names k /\ wr k' x t /\
    forall w, teval t w = negb (teval tr w).
Proof.
  intros k own r tr A Ir W. unfold bnot.
  destruct (not_rec_spec (S (k_varnum k)) k r tr) as (k' & x & t & E & G & W' & H); auto; try apply A.
  - eapply own_prot; eauto.
  - lia.
  - rewrite (i_cap _ (a_inv _ _ A)). pose proof (a_len _ _ A). lia.
  - exists k', x, t. split; [auto | ]. split; [eapply good_api; eauto | ]. split; [eapply good_ext; eauto | ].
    split; [apply (g_fr _ _ G) | auto].
Qed.

(* ------------------------------------------------------------------------------------------------------------------ *)
(** * Variables *)

Lemma index_of_some : forall v l i, index_of v l = Some i -> nth_error l i = Some v.
Proof.
  intros v l. induction l as [ | x l IH]; intros i E; cbn [index_of] in E; [discriminate | ].
  destruct (var_eqb v x) eqn:Ex.
  - injection E as <-. apply var_eqb_spec in Ex. subst. auto.
  - destruct (index_of v l) as [j | ]; [ | discriminate]. injection E as <-. cbn [nth_error]. auto.
Qed.
Lemma index_of_none : forall v l, index_of v l = None -> ~ In v l.
Proof.
  intros v l. induction l as [ | x l IH]; intros E H; [destruct H | ]. cbn [index_of] in E.
  destruct (var_eqb v x) eqn:Ex; [discriminate | ].
  destruct (index_of v l) eqn:Ei; [discriminate | ]. destruct H as [-> | H]; [ | apply IH; auto].
  assert (G : var_eqb v v = true) by (apply var_eqb_spec; auto). congruence.
Qed.

(** The variables the user may use: at most as many as the kernel has. *)
Definition room (vs : list var) (k : kernel) : Prop := NoDup vs /\ length vs <= k_varnum k /\ incl (k_names k) vs.

Lemma nodup_app_snoc : forall (l : list var) v, NoDup l -> ~ In v l -> NoDup (l ++ [v]).
Proof.
  intros l v H Hv. induction H as [ | x l Hx H IH]; cbn [app]; [constructor; [auto | constructor] | ].
  constructor.
  - intro G. apply in_app_or in G. destruct G as [G | [-> | []]]; auto. apply Hv. left. auto.
  - apply IH. intro G. apply Hv. right. auto.
Qed.

Lemma add_index_api : forall k own vs v, api k own -> room vs k -> In v vs ->
  exists k' i, get_or_add_var_index k v = Ok (k', i) /\ api k' own /\ ext own k k' /\ room vs k' /\
    nth_error (k_names k') i = Some v /\ i < k_varnum k' /\ k_vars k' = k_vars k /\ k_nodes k' = k_nodes k.
Proof.
  intros k own vs v A (R1 & R2 & R3) Hv. unfold get_or_add_var_index. pose proof A as [K V L O Q].
  destruct (i_names _ K) as (N1 & N2).
  destruct (index_of v (k_names k)) as [i | ] eqn:E.
  - pose proof (index_of_some _ _ _ E) as En. exists k, i. split; [auto | ]. split; [auto | ]. split; [apply ext_refl | ].
    split; [split; auto | ]. split; [auto | ]. split; [ | auto].
    assert (i < length (k_names k)) by (apply nth_error_Some; congruence). lia.
  - apply index_of_none in E. pose proof (nodup_app_snoc _ _ N1 E) as ND.
    assert (In1 : incl (k_names k ++ [v]) vs).
    { intros y Hy. apply in_app_or in Hy. destruct Hy as [Hy | [<- | []]]; auto. }
    pose proof (NoDup_incl_length ND In1) as Le. rewrite app_length in Le. cbn [length] in Le.
    assert (G : length (k_names k) <? k_varnum k = true) by (apply Nat.ltb_lt; lia). rewrite G.
    eexists _, _. split; [reflexivity | ]. split.
    { constructor; auto. destruct K. constructor; auto. cbn [s_names k_names k_varnum]. split; auto. rewrite app_length. cbn [length]. lia. }
    split.
    { constructor; auto. exists [v]. auto. }
    split; [split; auto | ]. cbn [s_names k_names k_varnum k_vars k_nodes]. split; [ | split; [lia | auto]].
    rewrite nth_error_app2 by lia. rewrite Nat.sub_diag. auto.
Qed.

Lemma lit_api : forall k own i v (ph : bool), api k own -> nth_error (k_names k) i = Some v -> i < k_varnum k ->
  exists n t, (if ph then ith_var k i else nith_var k i) = Ok n /\ api k (n :: own) /\ wr k n t /\
    forall u w, vw (k_names k) u w -> teval t w = lit_sem u (Lit v ph).
Proof.
  intros k own i v ph A En Hi. pose proof A as [K V L O Q]. destruct (i_vars _ K) as (V1 & V2). destruct (V2 i Hi) as (Lp & Ln).
  unfold ith_var, nith_var. apply Nat.ltb_lt in Hi. rewrite Hi. apply Nat.ltb_lt in Hi.
  rewrite !(getn_ok _ (k_vars k) _ 0) by lia.
  exists (nth (if ph then 2 * i else 2 * i + 1) (k_vars k) 0), (BN i (if ph then BF else BT) (if ph then BT else BF)).
  assert (Lit : litnode k i ph (nth (if ph then 2 * i else 2 * i + 1) (k_vars k) 0)) by (destruct ph; auto).
  split; [destruct ph; auto | ]. split.
  - constructor; auto. intros n Hn. cbn [count_occ]. destruct (Nat.eq_dec _ n) as [En' | ]; [ | auto].
    left. destruct Lit as (_ & _ & E). rewrite <- En'. auto.
  - split; [apply litnode_wr; auto | ]. intros u w Hw. cbn [lit_sem]. cbn [teval]. rewrite (Hw i v En). destruct ph; cbn [teval]; destruct (u v); auto.
Qed.

(* ------------------------------------------------------------------------------------------------------------------ *)
(** * Building *)

(** The outcome of building: a held node with the right function, or an abort of the handler. *)
Definition built (vs : list var) (own : list nat) (k : kernel) (h : handler) (s : valuation -> bool)
  (r : kernel * handler * option nat) : Prop :=
  let '(k', h', x) := r in
  ext own k k' /\ room vs k' /\ (h = None -> h' = None /\ x <> None) /\
  match x with
  | None => api k' own
  | Some x => api k' (x :: own) /\ exists t, wr k' x t /\ forall v w, vw (k_names k') v w -> teval t w = s v
  end.

Lemma room_names : forall vs k k', room vs k -> k_names k' = k_names k -> k_varnum k' = k_varnum k -> room vs k'.
Proof. intros vs k k' (R1 & R2 & R3) E1 E2. unfold room. rewrite E1, E2. auto. Qed.

Lemma add_ref_h_api : forall k own h x t, api k own -> wr k x t ->
  exists k' h' y, add_ref_h k h x = Ok (k', h', y) /\ refs k k' /\ (h = None -> h' = None /\ y <> None) /\
    match y with None => api k' own | Some y => y = x /\ api k' (x :: own) end.
Proof.
  intros k own h x t A W. unfold add_ref_h. destruct (new_ref_added h) as (h', go) eqn:Eh.
  assert (Hn : h = None -> h' = None /\ go = true) by (intros ->; cbn in Eh; injection Eh as <- <-; auto).
  destruct go.
  - destruct (add_ref_api k own x t A W) as (k' & E & A' & R). rewrite E. cbn [rbind]. exists k', h', (Some x).
    split; [auto | ]. split; [auto | ]. split; [ | auto]. intros H. destruct (Hn H). split; [auto | congruence].
  - exists k, h', None. split; [auto | ]. split; [apply refs_refl | ]. split; [ | auto]. intros H. destruct (Hn H). congruence.
Qed.

Lemma apply2_api : forall o vs k h own l r tl tr (s : valuation -> bool), api k (r :: l :: own) -> room vs k -> wr k l tl -> wr k r tr ->
  (forall v w, vw (k_names k) v w -> bsem o (teval tl w) (teval tr w) = s v) ->
  exists res, apply2 o (k, h) l r = Ok res /\ built vs own k h s res.
Proof.
  intros o vs k h own l r tl tr s A R Wl Wr Hs. unfold apply2.
  destruct (apply_api o k (r :: l :: own) l r tl tr A) as (k1 & x & t & E1 & A1 & X1 & N1 & W1 & S1); auto; [right; left; auto | left; auto | ].
  rewrite E1. cbn [rbind].
  destruct (add_ref_h_api k1 _ h x t A1 W1) as (k2 & h2 & y & E2 & R2 & H2 & Y2). rewrite E2. cbn [rbind].
  assert (X2 : ext (r :: l :: own) k k2) by exact (ext_refs _ _ _ _ X1 R2).
  assert (N2 : k_names k2 = k_names k) by (rewrite (x_names _ _ R2); auto).
  destruct y as [y | ]; cbn [onok].
  - destruct Y2 as (-> & A2). cbn [fst snd].
    assert (A2' : api k2 (l :: r :: x :: own)).
    { revert A2. apply api_incl. intros n. cbn [count_occ]. destruct (Nat.eq_dec x n), (Nat.eq_dec r n), (Nat.eq_dec l n); lia. }
    destruct (del_ref_api k2 _ l A2') as (k3 & E3 & A3 & R3). rewrite E3. cbn [rbind].
    destruct (del_ref_api k3 _ r A3) as (k4 & E4 & A4 & R4). rewrite E4. cbn [rbind].
    pose proof (refs_trans _ _ _ R3 R4) as R34. pose proof (refs_trans _ _ _ R2 R34) as R24.
    eexists. split; [reflexivity | ]. cbn [built].
    assert (X4 : ext (r :: l :: own) k k4) by exact (ext_refs _ _ _ _ X2 R34).
    assert (N4 : k_names k4 = k_names k) by (rewrite (x_names _ _ R34); auto).
    split. { destruct X4 as [ ]. constructor; auto. intros n u Hn. apply e_wr0. right. right. auto. }
    split. { eapply room_names; eauto. apply (e_varnum _ _ _ X4). }
    split. { intros H. split; [apply H2; auto | congruence]. }
    split; [auto | ]. exists t. split; [apply R24; auto | ]. intros v w Hw. rewrite S1. apply Hs. rewrite <- N4. auto.
  - eexists. split; [reflexivity | ]. cbn [built].
    split. { destruct X2 as [ ]. constructor; auto. intros n u Hn. apply e_wr0. right. right. auto. }
    split. { eapply room_names; eauto. apply (e_varnum _ _ _ X2). }
    split; [auto | ]. apply api_tl with l. apply api_tl with r. auto.
Qed.

(** Sequencing: continue with the value, or stop at an abort. *)
Lemma built_bind : forall vs own k h s s' r (f : kernel * handler -> nat -> res (kernel * handler * option nat)),
  built vs own k h s r ->
  (forall k1 (h1 : handler) x t, ext own k k1 -> room vs k1 -> (h = None -> h1 = None) -> api k1 (x :: own) -> wr k1 x t ->
     (forall v w, vw (k_names k1) v w -> teval t w = s v) -> exists r2, f (k1, h1) x = Ok r2 /\ built vs own k1 h1 s' r2) ->
  exists r2, onok r f = Ok r2 /\ built vs own k h s' r2.
Proof.
  intros vs own k h s s' ((k1, h1), x) f (X1 & R1 & H1 & M) F. cbn [onok]. destruct x as [x | ].
  - destruct M as (A1 & t & W1 & S1). destruct (F k1 h1 x t X1 R1) as (r2 & E2 & B2); auto; [intros H; apply H1; auto | ].
    exists r2. split; [auto | ]. destruct r2 as ((k2, h2), y). destruct B2 as (X2 & R2 & H2 & M2).
    cbn [built]. split; [exact (ext_trans1 _ _ _ _ X1 X2) | ]. split; [auto | ]. split; [ | auto].
    intros H. apply H2. apply H1. auto.
  - eexists. split; [reflexivity | ]. cbn [built]. split; [auto | ]. split; [auto | ]. split; [ | auto].
    intros H. destruct (H1 H) as (_ & G). congruence.
Qed.

(** Binary nodes: build the second operand and combine. *)
Lemma built_bin : forall o vs own k h s1 s2 s c r,
  (forall k h own, api k own -> room vs k -> exists r, build_rec (k, h) c = Ok r /\ built vs own k h s2 r) ->
  (forall v, bsem o (s1 v) (s2 v) = s v) -> built vs own k h s1 r ->
  exists r2, onok r (fun st l => do y <- build_rec st c; onok y (fun st r => apply2 o st l r)) = Ok r2 /\ built vs own k h s r2.
Proof.
  intros o vs own k h s1 s2 s c r Hc Hs B. eapply built_bind; eauto.
  intros k1 h1 l tl X1 R1 H1 A1 W1 S1. cbn beta.
  destruct (Hc k1 h1 (l :: own) A1 R1) as (r2 & E2 & B2). rewrite E2. cbn [rbind].
  destruct r2 as ((k2, h2), x2). destruct B2 as (X2 & R2 & H2 & M2). cbn [onok].
  pose proof (e_wr _ _ _ X2 l tl (or_introl eq_refl) W1) as Wl2.
  assert (X2' : ext own k1 k2) by (destruct X2 as [ ]; constructor; auto; intros n u Hn; apply e_wr0; right; auto).
  destruct x2 as [x2 | ].
  - destruct M2 as (A2 & tr & Wr2 & S2).
    destruct (apply2_api o vs k2 h2 own l x2 tl tr s A2 R2 Wl2 Wr2) as (r3 & E3 & B3).
    { intros v w Hw. rewrite (S2 v w Hw). rewrite (S1 v w); auto. destruct (e_names _ _ _ X2) as (l' & El). rewrite El in Hw.
      eapply vw_app; eauto. }
    exists r3. split; [auto | ]. destruct r3 as ((k3, h3), x3). destruct B3 as (X3 & R3 & H3 & M3). cbn [built].
    split; [exact (ext_trans1 _ _ _ _ X2' X3) | ]. split; [auto | ]. split; [ | auto].
    intros H. apply H3. apply H2. auto.
  - eexists. split; [reflexivity | ]. cbn [built]. split; [auto | ]. split; [auto | ]. split; [ | eapply api_tl; eauto].
    intros H. destruct (H2 H) as (_ & G). congruence.
Qed.

Lemma built_weak : forall vs own k h s s' r, (forall v, s v = s' v) -> built vs own k h s r -> built vs own k h s' r.
Proof.
  intros vs own k h s s' ((k1, h1), x) H B. cbn [built] in *. destruct B as (B1 & B2 & B3 & B4). do 3 (split; [auto | ]).
  destruct x; auto. destruct B4 as (B4 & t & B5 & B6). split; auto. exists t. split; auto. intros v w Hw. rewrite <- H. auto.
Qed.

(** The loop over the further operands of a conjunction or disjunction. *)
Definition go_ops (o : bop) :=
  fix go (x : kernel * handler * option nat) (bs : list fml) : res (kernel * handler * option nat) :=
    match bs with
    | [] => Ok x
    | c :: cs => do y <- onok x (fun st l => do y <- build_rec st c; onok y (fun st r => apply2 o st l r)); go y cs
    end.

Definition builds (vs : list var) (c : fml) : Prop :=
  forall k h own, api k own -> room vs k -> exists r, build_rec (k, h) c = Ok r /\ built vs own k h (fun v => sem v c) r.

Lemma built_go : forall o vs own k h cs s r, Forall (builds vs) cs -> built vs own k h s r ->
  exists r2, go_ops o r cs = Ok r2 /\ built vs own k h (fun v => fold_left (fun acc c => bsem o acc (sem v c)) cs (s v)) r2.
Proof.
  intros o vs own k h cs. induction cs as [ | c cs IH]; intros s r F B; unfold go_ops; fold (go_ops o); cbn [fold_left].
  - exists r. split; auto.
  - inversion F; subst.
    destruct (built_bin o vs own k h s (fun v => sem v c) (fun v => bsem o (s v) (sem v c)) c r) as (r2 & E2 & B2); auto.
    rewrite E2. cbn [rbind]. apply (IH (fun v => bsem o (s v) (sem v c))); auto.
Qed.

Lemma fold_and : forall v cs x, fold_left (fun acc c => bsem OpAnd acc (sem v c)) cs x = x && forallb (sem v) cs.
Proof.
  intros v cs. induction cs as [ | c cs IH]; intros x; cbn [fold_left forallb]; [rewrite andb_true_r; auto | ].
  rewrite IH. cbn [bsem]. rewrite andb_assoc. auto.
Qed.
Lemma fold_or : forall v cs x, fold_left (fun acc c => bsem OpOr acc (sem v c)) cs x = x || existsb (sem v) cs.
Proof.
  intros v cs. induction cs as [ | c cs IH]; intros x; cbn [fold_left existsb]; [rewrite orb_false_r; auto | ].
  rewrite IH. cbn [bsem]. rewrite orb_assoc. auto.
Qed.

Lemma builds_all : forall vs bs,
  Forall (fun a => pure a -> incl (bvars a) vs -> builds vs a) bs ->
  (fix all l := match l with [] => True | b :: r => pure b /\ all r end) bs ->
  incl ((fix all l := match l with [] => [] | b :: r => bvars b ++ all r end) bs) vs -> Forall (builds vs) bs.
Proof.
  intros vs bs F. induction F as [ | b bs Hb F IH]; intros P I; constructor.
  - apply Hb; [apply P | ]. intros x Hx. apply I. apply in_or_app. auto.
  - apply IH; [apply P | ]. intros x Hx. apply I. apply in_or_app. auto.
Qed.

Theorem build_spec : forall vs a, pure a -> incl (bvars a) vs -> builds vs a.
Proof.
  intros vs a. induction a as [ | | l | b IHb | l IHl | l IHl | b c IHb IHc | b c IHb IHc | c | p] using fml_ind2;
    intros P I k h own A R; cbn [pure] in P; try contradiction.
  - eexists. split; [reflexivity | ]. cbn [built]. split; [apply ext_refl | ]. split; [auto | ]. split; [intros ->; split; [auto | congruence] | ].
    split.
    + destruct A as [K V L O Q]. constructor; auto. intros n Hn. cbn [count_occ]. destruct (Nat.eq_dec 1 n); [lia | auto].
    + exists BT. split; [apply wr_1 | auto].
  - eexists. split; [reflexivity | ]. cbn [built]. split; [apply ext_refl | ]. split; [auto | ]. split; [intros ->; split; [auto | congruence] | ].
    split.
    + destruct A as [K V L O Q]. constructor; auto. intros n Hn. cbn [count_occ]. destruct (Nat.eq_dec 0 n); [lia | auto].
    + exists BF. split; [apply wr_0 | auto].
  - cbn [build_rec fst snd]. cbn [bvars] in I.
    destruct (add_index_api k own vs (lit_var l) A R) as (k1 & i & E1 & A1 & X1 & R1 & N1 & H1 & _); [apply I; left; auto | ].
    rewrite E1. cbn [rbind].
    destruct (lit_api k1 own i (lit_var l) (lit_phase l) A1 N1 H1) as (n & t & E2 & A2 & W2 & S2). rewrite E2. cbn [rbind].
    eexists. split; [reflexivity | ]. cbn [built]. split; [auto | ]. split; [auto | ]. split; [intros ->; split; [auto | congruence] | ].
    split; [auto | ]. exists t. split; [auto | ]. intros v w Hw. rewrite (S2 v w Hw). destruct l. auto.
  - cbn [build_rec]. cbn [bvars] in I. destruct (IHb P I k h own A R) as (r & E & B). rewrite E. cbn [rbind].
    eapply built_bind; [exact B | ]. intros k1 h1 x t X1 R1 H1 A1 W1 S1. cbn beta. cbn [fst snd].
    destruct (not_api k1 (x :: own) x t A1 (or_introl eq_refl) W1) as (k2 & y & u & E2 & A2 & X2 & N2 & W2 & S2). rewrite E2. cbn [rbind].
    destruct (add_ref_h_api k2 _ h1 y u A2 W2) as (k3 & h3 & z & E3 & R3 & H3 & Y3). rewrite E3. cbn [rbind].
    assert (X3 : ext own k1 k3).
    { eapply ext_refs; [ | exact R3].
      destruct X2 as [ ]. constructor; auto. intros n s Hn. apply e_wr0. right. auto. }
    destruct z as [z | ]; cbn [onok].
    + destruct Y3 as (-> & A3). cbn [fst snd]. destruct (del_ref_api k3 (y :: own) x (api_mid _ _ _ _ A3)) as (k4 & E4 & A4 & R4).
      rewrite E4. cbn [rbind]. eexists. split; [reflexivity | ]. cbn [built].
      assert (X4 : ext own k1 k4) by exact (ext_refs _ _ _ _ X3 R4).
      assert (N4 : k_names k4 = k_names k1) by (rewrite (x_names _ _ R4), (x_names _ _ R3); auto).
      split; [auto | ]. split; [eapply room_names; eauto; apply (e_varnum _ _ _ X4) | ].
      split; [intros H; split; [apply H3; auto | congruence] | ]. split; [auto | ].
      exists u. split; [apply R4, R3; auto | ]. intros v w Hw. rewrite S2. cbn [sem]. rewrite (S1 v w); auto. rewrite <- N4. auto.
    + eexists. split; [reflexivity | ]. cbn [built]. split; [auto | ].
      split; [eapply room_names; eauto; [ | apply (e_varnum _ _ _ X3)]; rewrite (x_names _ _ R3); auto | ].
      split; [auto | eapply api_tl; eauto].
  - (* conjunctions *)
    destruct P as (Pn & Pa). destruct l as [ | b bs]; [congruence | ]. pose proof (builds_all vs _ IHl Pa I) as F.
    inversion F as [ | ? ? Fb Fbs]; subst. destruct (Fb k h own A R) as (r & E & B).
    destruct (built_go OpAnd vs own k h bs _ r Fbs B) as (r2 & E2 & B2). cbn [build_rec]. rewrite E. cbn [rbind].
    exists r2. split; [exact E2 | ]. eapply built_weak; [ | exact B2]. intros v. cbn beta. rewrite fold_and. auto.
  - destruct P as (Pn & Pa). destruct l as [ | b bs]; [congruence | ]. pose proof (builds_all vs _ IHl Pa I) as F.
    inversion F as [ | ? ? Fb Fbs]; subst. destruct (Fb k h own A R) as (r & E & B).
    destruct (built_go OpOr vs own k h bs _ r Fbs B) as (r2 & E2 & B2). cbn [build_rec]. rewrite E. cbn [rbind].
    exists r2. split; [exact E2 | ]. eapply built_weak; [ | exact B2]. intros v. cbn beta. rewrite fold_or. auto.
  - cbn [build_rec]. cbn [bvars] in I. destruct P as (Pb & Pc).
    destruct (IHb Pb (fun x Hx => I x (in_or_app _ _ _ (or_introl Hx))) k h own A R) as (r & E & B). rewrite E. cbn [rbind].
    eapply (built_bin OpImp); [ | | exact B].
    + apply IHc; auto. intros x Hx. apply I. apply in_or_app. auto.
    + intros v. reflexivity.
  - cbn [build_rec]. cbn [bvars] in I. destruct P as (Pb & Pc).
    destruct (IHb Pb (fun x Hx => I x (in_or_app _ _ _ (or_introl Hx))) k h own A R) as (r & E & B). rewrite E. cbn [rbind].
    eapply (built_bin OpEquiv); [ | | exact B].
    + apply IHc; auto. intros x Hx. apply I. apply in_or_app. auto.
    + intros v. reflexivity.
Qed.
