(** Model enumeration, normal forms and formulas read off a BDD. *)
From Coq Require Import NArith ZArith Arith List Bool Lia.
From Verif Require Import Base Syntax FactoryBasics AssignmentModel BddSpec BddModel BddLink BddTable BddMake BddRep BddOps BddBuild BddQuant BddDen BddCount.
Import ListNotations.
Local Open Scope res_scope.

(* ------------------------------------------------------------------------------------------------------------------ *)
(** * A BDD has no nodes for variables its function does not depend on *)

Lemma tbelow_sem : forall n m t, wft n t -> (forall w w', (forall i, i < m -> w i = w' i) -> teval t w = teval t w') -> tbelow m t.
Proof.
  intros n m t. induction t as [ | | l a IHa b IHb]; intros W H; cbn [tbelow]; auto.
  cbn [wft] in W. destruct W as (Hl & Ta & Tb & Hne & Wa & Wb).
  assert (Ha : forall w, teval a w = teval (BN l a b) (upw w l false)).
  { intros w. cbn [teval]. rewrite upw_same. symmetry. apply (teval_upw_below n); auto. }
  assert (Hb : forall w, teval b w = teval (BN l a b) (upw w l true)).
  { intros w. cbn [teval]. rewrite upw_same. symmetry. apply (teval_upw_below n); auto. }
  assert (Lm : l < m).
  { destruct (le_lt_dec m l) as [G | G]; auto. exfalso. apply Hne. apply (canon n); auto. intros w. rewrite Ha, Hb. apply H.
    intros i Hi. unfold upw. destruct (Nat.eqb_spec i l); [lia | auto]. }
  split; [auto | ]. split.
  - apply IHa; auto. intros w w' E. rewrite !Ha. apply H. intros i Hi. unfold upw. destruct (i =? l); auto.
  - apply IHb; auto. intros w w' E. rewrite !Hb. apply H. intros i Hi. unfold upw. destruct (i =? l); auto.
Qed.

Lemma den_tbelow : forall k t (f : valuation -> bool), kinv k -> wft (k_varnum k) t ->
  (forall v w, vw (k_names k) v w -> teval t w = f v) -> tbelow (length (k_names k)) t.
Proof.
  intros k t f K W H. apply (tbelow_sem (k_varnum k)); auto. intros w w' E. set (v := vof (k_names k) (fun _ => false) w).
  assert (V : vw (k_names k) v w) by (apply vw_vof; apply (i_names _ K)). rewrite (H v w V). symmetry. apply H.
  intros i x Ex. rewrite <- E; [apply V; auto | ]. apply nth_error_Some. congruence.
Qed.

Lemma profs_none : forall n m goal t q j, wft n t -> tbelow m t -> In q (profs n goal t) -> m <= top n t + j -> nth j q None = None.
Proof.
  intros n m goal t. induction t as [ | | l a IHa b IHb]; intros q j W T H Hj.
  - destruct goal; [destruct H | ]. destruct H as [<- | []]. destruct j; auto.
  - destruct goal; [ | destruct H]. destruct H as [<- | []]. destruct j; auto.
  - cbn [wft] in W. destruct W as (Hl & Ta & Tb & _ & Wa & Wb). cbn [tbelow] in T. destruct T as (Lm & T1 & T2). cbn [top] in Hj.
    assert (G : forall (x : bool) c (q' : profile), l < c -> (forall j, m <= c + j -> nth j q' None = None) -> nth j (Some x :: repeat None (c - l - 1) ++ q') None = None).
    { intros x c q' Hc Hq. destruct j as [ | j]; [lia | ]. cbn [nth]. destruct (le_lt_dec (c - l - 1) j) as [C | C].
      - rewrite app_nth2 by (rewrite repeat_length; auto). rewrite repeat_length. apply Hq. lia.
      - rewrite app_nth1 by (rewrite repeat_length; auto). apply nth_repeat. }
    cbn [profs] in H. apply in_app_or in H. destruct H as [H | H]; apply in_map_iff in H; destruct H as (q' & <- & H); apply G; auto.
Qed.

Lemma follows_true : forall p m w, follows m p w = true <-> forall j b, nth j p None = Some b -> w (m + j) = b.
Proof.
  induction p as [ | x p IH]; intros m w; cbn [follows].
  - split; auto. intros _ j b E. destruct j; discriminate.
  - rewrite andb_true_iff, IH. split.
    + intros (A & B) [ | j] b E; cbn [nth] in E.
      * subst x. apply eqb_prop in A. rewrite Nat.add_0_r. auto.
      * rewrite <- (B j b E). f_equal. lia.
    + intros H. split.
      * destruct x as [b | ]; auto. rewrite <- (H 0 b eq_refl), Nat.add_0_r. apply eqb_reflx.
      * intros j b E. rewrite <- (H (S j) b E). f_equal. lia.
Qed.

(** All about the paths of a BDD in terms of its function. *)
Lemma paths_fun : forall goal k own r f, api k own -> den k r f ->
  exists ps, paths goal k r = Ok (init_ref k, ps) /\ (forall p, In p ps -> length p = k_varnum k) /\
    (forall v w, vw (k_names k) v w -> length (filter (fun p => follows 0 p w) ps) = if Bool.eqb (f v) goal then 1 else 0) /\
    (forall p i, In p ps -> length (k_names k) <= i -> nth i p None = None) /\
    exists t, wr k r t /\ length ps = N.to_nat (if goal then tpaths 1 0 t else tpaths 0 1 t).
Proof.
  intros goal k own r f A (t & W & H). destruct (paths_den goal k own r t A W) as (ps & E & L & F & C). exists ps. split; [auto | ]. split; [auto | ]. split; [ | split].
  - intros v w V. rewrite F, (H v w V). auto.
  - intros p i Hp Hi. rewrite (paths_spec goal k own r t A W) in E. injection E as <-. apply in_map_iff in Hp. destruct Hp as (q & <- & Hq).
    destruct (le_lt_dec (top (k_varnum k) t) i) as [G | G].
    + rewrite app_nth2 by (rewrite repeat_length; auto). rewrite repeat_length.
      apply (profs_none (k_varnum k) (length (k_names k)) goal t); auto; [apply W | | lia].
      eapply den_tbelow; eauto; [apply A | apply W].
    + rewrite app_nth1 by (rewrite repeat_length; auto). apply nth_repeat.
  - exists t. auto.
Qed.

(* ------------------------------------------------------------------------------------------------------------------ *)
(** * Enumeration *)

Definition val (p : profile) (i : nat) : bool := match nth i p (Some false) with Some false => false | _ => true end.
Definition pick (names : list var) (b : bool) (p : profile) (rel : list nat) : list var :=
  flat_map (fun i => match nth_error names i with Some x => if Bool.eqb (val p i) b then [x] else [] | None => [] end) rel.
Definition mdl (names : list var) (rel : list nat) (p : profile) : smodel := mkModel (pick names true p rel) (pick names false p rel).

Lemma model_lits_fold : forall k (p : profile) rel pos neg, (forall i, In i rel -> i < length p /\ i < length (k_names k)) ->
  rfold (fun m i => do x <- getn p i; do v <- of_opt (var_of_index k i);
    match x with Some false => Ok (mkModel (m_pos m) (m_neg m ++ [v])) | _ => Ok (mkModel (m_pos m ++ [v]) (m_neg m)) end) (mkModel pos neg) rel =
  Ok (mkModel (pos ++ pick (k_names k) true p rel) (neg ++ pick (k_names k) false p rel)).
Proof.
  intros k p rel. induction rel as [ | i rel IH]; intros pos neg H; cbn [rfold pick flat_map].
  - rewrite !app_nil_r. auto.
  - destruct (H i (or_introl eq_refl)) as (H1 & H2). rewrite (getn_ok _ p i (Some false) H1). cbn [rbind]. unfold var_of_index.
    destruct (nth_error (k_names k) i) as [x | ] eqn:E; [ | apply nth_error_None in E; lia]. cbn [of_opt rbind].
    assert (H' : forall j, In j rel -> j < length p /\ j < length (k_names k)) by (intros j Hj; apply H; right; auto).
    fold (pick (k_names k) true p rel). fold (pick (k_names k) false p rel). unfold val.
    destruct (nth i p (Some false)) as [[ | ] | ]; cbn [Bool.eqb rbind m_pos m_neg]; rewrite IH by auto; rewrite <- ?app_assoc; reflexivity.
Qed.

Fixpoint expand (rest : list nat) (p : profile) : list profile :=
  match rest with
  | [] => [p]
  | i :: rest => match nth i p (Some false) with
                 | Some _ => expand rest p
                 | None => expand rest (updn i (fun _ => Some false) p) ++ expand rest (updn i (fun _ => Some true) p)
                 end
  end.

Lemma generate_expand : forall k rel rest p, (forall i, In i rel -> i < length p /\ i < length (k_names k)) -> incl rest rel ->
  generate k rel rest p = Ok (map (mdl (k_names k) rel) (expand rest p)).
Proof.
  intros k rel rest. induction rest as [ | i rest IH]; intros p H I; cbn [generate expand map].
  - unfold model_lits. rewrite model_lits_fold by auto. reflexivity.
  - assert (Hi : i < length p) by (apply H; apply I; left; auto). rewrite (getn_ok _ p i (Some false) Hi). cbn [rbind].
    assert (I' : incl rest rel) by (intros x Hx; apply I; right; auto).
    destruct (nth i p (Some false)) as [b | ]; [apply IH; auto | ]. rewrite !putn_ok by auto. cbn [rbind].
    rewrite !IH by (auto; rewrite updn_length; auto). cbn [rbind]. rewrite map_app. auto.
Qed.

Definition okp (rel : list nat) (q : profile) (w : nat -> bool) : bool := forallb (fun i => Bool.eqb (w i) (val q i)) rel.
Definition compat (rel : list nat) (p : profile) (w : nat -> bool) : bool :=
  forallb (fun i => match nth i p (Some false) with Some b => Bool.eqb (w i) b | None => true end) rel.

Lemma compat_upd : forall rel (p : profile) w i b, In i rel -> i < length p -> nth i p (Some false) = None ->
  compat rel (updn i (fun _ => Some b) p) w = compat rel p w && Bool.eqb (w i) b.
Proof.
  intros rel p w i b I L N. apply eq_true_iff_eq. unfold compat. rewrite andb_true_iff, !forallb_forall. apply Nat.ltb_lt in L. split.
  - intros H. split.
    + intros j Hj. specialize (H j Hj). rewrite nth_updn, L, andb_true_r in H. destruct (j =? i) eqn:E; [ | exact H]. apply Nat.eqb_eq in E. subst j. rewrite N. auto.
    + specialize (H i I). rewrite nth_updn, L, andb_true_r, Nat.eqb_refl in H. auto.
  - intros (H & E) j Hj. rewrite nth_updn, L, andb_true_r. destruct (Nat.eqb_spec j i) as [-> | Hne]; auto.
Qed.

Lemma expand_count : forall rel w rest p, incl rest rel -> (forall i, In i rel -> i < length p) ->
  (forall i, In i rel -> ~ In i rest -> nth i p (Some false) <> None) ->
  length (filter (fun q => okp rel q w) (expand rest p)) = if compat rel p w then 1 else 0.
Proof.
  intros rel w rest. induction rest as [ | i rest IH]; intros p I L S; cbn [expand].
  - cbn [filter]. assert (E : okp rel p w = compat rel p w).
    { unfold okp, compat. apply eq_true_iff_eq. rewrite !forallb_forall. split; intros H j Hj; specialize (H j Hj); specialize (S j Hj (fun x => x)); unfold val in *;
        destruct (nth j p (Some false)) as [[ | ] | ]; auto; congruence. }
    rewrite E. destruct (compat rel p w); auto.
  - assert (Ii : In i rel) by (apply I; left; auto). assert (I' : incl rest rel) by (intros x Hx; apply I; right; auto).
    destruct (nth i p (Some false)) as [b | ] eqn:N.
    + apply IH; auto. intros j Hj Hn. destruct (Nat.eq_dec j i) as [-> | E]; [congruence | ]. apply S; auto. intros [G | G]; [congruence | auto].
    + assert (Li := L i Ii).
      assert (G : forall b, length (filter (fun q => okp rel q w) (expand rest (updn i (fun _ => Some b) p))) = if compat rel p w && Bool.eqb (w i) b then 1 else 0).
      { intros b. rewrite IH; auto.
        - rewrite compat_upd by auto. auto.
        - intros j Hj. rewrite updn_length. auto.
        - intros j Hj Hn. rewrite nth_updn. apply Nat.ltb_lt in Li. rewrite Li, andb_true_r. destruct (Nat.eqb_spec j i) as [-> | E]; [discriminate | ].
          apply S; auto. intros [Q | Q]; [congruence | auto]. }
      rewrite filter_app_len, !G. destruct (compat rel p w), (w i); reflexivity.
Qed.

Definition agrees (v : valuation) (m : smodel) : bool := forallb v (m_pos m) && forallb (fun x => negb (v x)) (m_neg m).

Lemma agrees_okp : forall names rel q v w, vw names v w -> (forall i, In i rel -> i < length names) -> agrees v (mdl names rel q) = okp rel q w.
Proof.
  intros names rel q v w V L. unfold agrees, mdl. cbn [m_pos m_neg]. apply eq_true_iff_eq. rewrite andb_true_iff. unfold okp. rewrite !forallb_forall. split.
  - intros (P & N) i Hi. destruct (nth_error names i) as [x | ] eqn:E; [ | apply nth_error_None in E; specialize (L i Hi); lia].
    rewrite (V i x E). destruct (val q i) eqn:Eq.
    + assert (G : v x = true); [apply P | rewrite G; auto]. unfold pick. apply in_flat_map. exists i. split; auto. rewrite E, Eq. left. auto.
    + assert (G : negb (v x) = true); [apply N | destruct (v x); [discriminate | auto]]. unfold pick. apply in_flat_map. exists i. split; auto. rewrite E, Eq. left. auto.
  - intros H. split; intros x Hx; unfold pick in Hx; apply in_flat_map in Hx; destruct Hx as (i & Hi & Hx); specialize (H i Hi);
      destruct (nth_error names i) as [y | ] eqn:E; [ | destruct Hx | | destruct Hx]; rewrite (V i y E) in H;
      destruct (val q i); cbn [Bool.eqb] in Hx; destruct Hx as [<- | []] || destruct Hx; apply eqb_prop in H; rewrite H; auto.
Qed.

Lemma mdl_vars : forall names rel q x, In x (m_pos (mdl names rel q)) \/ In x (m_neg (mdl names rel q)) <-> exists i, In i rel /\ nth_error names i = Some x.
Proof.
  intros names rel q x. unfold mdl, pick. cbn [m_pos m_neg]. rewrite !in_flat_map. split.
  - intros [(i & Hi & Hx) | (i & Hi & Hx)]; exists i; split; auto; destruct (nth_error names i) as [y | ]; try destruct Hx;
      destruct (val q i); cbn [Bool.eqb] in Hx; destruct Hx as [<- | []] || destruct Hx; auto.
  - intros (i & Hi & E). destruct (val q i) eqn:Eq; [left | right]; exists i; split; auto; rewrite E, Eq; left; auto.
Qed.

Lemma insert_in : forall x l i, In i (insert_nat x l) <-> i = x \/ In i l.
Proof.
  intros x l i. induction l as [ | y l IH]; cbn [insert_nat In]; [intuition auto | ]. destruct (x <=? y); cbn [In]; [intuition auto | ]. rewrite IH. intuition auto.
Qed.
Lemma sort_in : forall l i, In i (sort_nat l) <-> In i l.
Proof. induction l as [ | x l IH]; intros i; cbn [sort_nat fold_right In]; [tauto | ]. fold (sort_nat l). rewrite insert_in, IH. intuition auto. Qed.

Lemma gen_fold : forall k rel ps acc, (forall p, In p ps -> forall i, In i rel -> i < length p /\ i < length (k_names k)) ->
  rfold (fun acc p => do l <- generate k rel rel p; Ok (acc ++ l)) acc ps = Ok (acc ++ flat_map (fun p => map (mdl (k_names k) rel) (expand rel p)) ps).
Proof.
  intros k rel ps. induction ps as [ | p ps IH]; intros acc H; cbn [rfold flat_map]; [rewrite app_nil_r; auto | ].
  rewrite generate_expand; [ | intros i Hi; apply (H p (or_introl eq_refl) i Hi) | apply incl_refl]. cbn [rbind].
  rewrite IH by (intros q Hq; apply H; right; auto). rewrite app_assoc. auto.
Qed.

Lemma flat_count : forall k rel v w ps, vw (k_names k) v w -> (forall i, In i rel -> i < length (k_names k)) ->
  (forall p, In p ps -> forall i, In i rel -> i < length p) ->
  length (filter (agrees v) (flat_map (fun p => map (mdl (k_names k) rel) (expand rel p)) ps)) = length (filter (fun p => compat rel p w) ps).
Proof.
  intros k rel v w ps V L. induction ps as [ | p ps IH]; intros H; cbn [flat_map filter]; auto.
  rewrite filter_app_len, IH by (intros q Hq; apply H; right; auto). rewrite filter_map.
  rewrite (filter_len_ext _ _ (fun q => okp rel q w)) by (intros q; apply agrees_okp; auto).
  rewrite expand_count; [ | apply incl_refl | apply (H p (or_introl eq_refl)) | tauto]. destruct (compat rel p w); auto.
Qed.

Lemma index_fold : forall names vs acc, incl vs names -> exists l,
  rfold (fun acc v => do i <- of_opt (index_of v names); Ok (acc ++ [i])) acc vs = Ok (acc ++ l) /\
  (forall i, In i l -> exists x, In x vs /\ nth_error names i = Some x) /\ (forall x, In x vs -> exists i, In i l /\ nth_error names i = Some x).
Proof.
  intros names vs. induction vs as [ | v vs IH]; intros acc I; cbn [rfold].
  - exists []. rewrite app_nil_r. split; [auto | ]. split; [intros i [] | intros x []].
  - destruct (index_of v names) as [i | ] eqn:E; [ | apply index_of_none in E; exfalso; apply E; apply I; left; auto]. cbn [of_opt rbind].
    apply index_of_some in E. destruct (IH (acc ++ [i])) as (l & El & L1 & L2); [intros x Hx; apply I; right; auto | ].
    exists (i :: l). split; [rewrite El, <- app_assoc; auto | ]. split.
    + intros j [<- | Hj]; [exists v; split; [left; auto | auto] | ]. destruct (L1 j Hj) as (x & Hx & Ex). exists x. split; [right; auto | auto].
    + intros x [<- | Hx]; [exists i; split; [left; auto | auto] | ]. destruct (L2 x Hx) as (j & Hj & Ej). exists j. split; [right; auto | auto].
Qed.

Lemma expand_ext : forall rest p q, In q (expand rest p) -> (forall i, In i rest -> i < length p) ->
  length q = length p /\ (forall i b, nth i p (Some false) = Some b -> nth i q (Some false) = Some b) /\ (forall i, ~ In i rest -> nth i q (Some false) = nth i p (Some false)) /\
  (forall i, In i rest -> nth i q (Some false) <> None).
Proof.
  induction rest as [ | i rest IH]; intros p q H L; cbn [expand] in H.
  - destruct H as [<- | []]. split; [auto | ]. split; [auto | ]. split; [auto | intros i []].
  - assert (L' : forall j, In j rest -> j < length p) by (intros j Hj; apply L; right; auto).
    destruct (nth i p (Some false)) as [b | ] eqn:N.
    + destruct (IH p q H L') as (A & B & C & D). split; [auto | ]. split; [auto | ]. split.
      * intros j Hj. apply C. intros G. apply Hj. right. auto.
      * intros j [<- | Hj]; auto. rewrite (B i b N). discriminate.
    + assert (G : forall b, In q (expand rest (updn i (fun _ => Some b) p)) -> length q = length p /\ (forall j c, nth j p (Some false) = Some c -> nth j q (Some false) = Some c) /\
        (forall j, ~ In j (i :: rest) -> nth j q (Some false) = nth j p (Some false)) /\ (forall j, In j (i :: rest) -> nth j q (Some false) <> None)).
      { intros b Hb. assert (Li : i < length p) by (apply L; left; auto). apply Nat.ltb_lt in Li.
        destruct (IH _ q Hb) as (A & B & C & D); [intros j Hj; rewrite updn_length; auto | ].
        assert (U : forall j, nth j (updn i (fun _ => Some b) p) (Some false) = if j =? i then Some b else nth j p (Some false)) by (intros j; rewrite nth_updn, Li, andb_true_r; auto).
        split; [rewrite A; apply updn_length | ]. split; [ | split].
        - intros j c Hc. apply B. rewrite U. destruct (Nat.eqb_spec j i) as [-> | E]; [congruence | auto].
        - intros j Hj. rewrite C by (intros Q; apply Hj; right; auto). rewrite U. destruct (Nat.eqb_spec j i) as [-> | E]; auto. exfalso. apply Hj. left. auto.
        - intros j [<- | Hj]; auto. rewrite (B i b); [discriminate | ]. rewrite U, Nat.eqb_refl. auto. }
      apply in_app_or in H. destruct H as [H | H]; eapply G; eauto.
Qed.

Lemma filter_pos : forall A (P : A -> bool) l, 0 < length (filter P l) <-> exists x, In x l /\ P x = true.
Proof.
  intros A P l. split.
  - intros H. destruct (filter P l) as [ | x r] eqn:E; [cbn in H; lia | ]. exists x. apply filter_In. rewrite E. left. auto.
  - intros (x & Hx). apply filter_In in Hx. destruct (filter P l); [destruct Hx | cbn; lia].
Qed.

Definition nthd (p : profile) (i : nat) : option bool := nth i p None.

(** All variables: every model exactly once. *)
Theorem enumerate_all_den : forall k own r f, api k own -> den k r f ->
  exists ms, enumerate k r None = Ok (init_ref k, ms) /\
    (forall v, length (filter (agrees v) ms) = if f v then 1 else 0) /\
    (forall m, In m ms -> forall x, In x (k_names k) <-> In x (m_pos m) \/ In x (m_neg m)).
Proof.
  intros k own r f A D. unfold enumerate. destruct (paths_fun true k own r f A D) as (ps & E & L & F & N & _). rewrite E. cbn [rbind].
  set (names := k_names k) in *. set (rel := sort_nat (seq 0 (length names))).
  assert (Hrel : forall i, In i rel <-> i < length names) by (intros i; unfold rel; rewrite sort_in, in_seq; lia).
  assert (Ln : length names <= k_varnum k) by apply (i_names _ (a_inv _ _ A)).
  rewrite gen_fold; [ | intros p Hp i Hi; apply Hrel in Hi; rewrite (L p Hp); cbn [init_ref s_stack k_names]; fold names; lia]. cbn [rbind app].
  change (k_names (init_ref k)) with names. eexists. split; [reflexivity | ]. split.
  - intros v. rewrite (flat_count k rel v (wof names v)); [ | apply vw_wof | apply Hrel | intros p Hp i Hi; apply Hrel in Hi; rewrite (L p Hp); lia].
    specialize (F v (wof names v) (vw_wof names v)). transitivity (length (filter (fun p => follows 0 p (wof names v)) ps)).
    + f_equal. apply filter_ext_in. intros p Hp. apply eq_true_iff_eq. unfold compat. rewrite follows_true, forallb_forall. split.
      * intros H j b Ej. destruct (le_lt_dec (length names) j) as [G | G]; [rewrite (N p j Hp G) in Ej; discriminate | ].
        specialize (H j (proj2 (Hrel j) G)). rewrite (nth_indep p _ None) in H by (rewrite (L p Hp); lia). rewrite Ej in H. apply eqb_prop in H. auto.
      * intros H i Hi. apply Hrel in Hi. rewrite (nth_indep p _ None) by (rewrite (L p Hp); lia). destruct (nth i p None) as [b | ] eqn:Eb; auto.
        rewrite <- (H i b Eb). apply eqb_reflx.
    + rewrite F. destruct (f v); auto.
  - intros m Hm x. apply in_flat_map in Hm. destruct Hm as (p & Hp & Hm). apply in_map_iff in Hm. destruct Hm as (q & <- & Hq). rewrite mdl_vars. split.
    + intros Hx. destruct (In_nth_error _ _ Hx) as (i & Ei). exists i. split; auto. apply Hrel. apply nth_error_Some. congruence.
    + intros (i & _ & Ei). eapply nth_error_In; eauto.
Qed.

(** Projected to some variables: exactly the projections of the models (possibly repeatedly). *)
Theorem enumerate_proj_den : forall k own r f us, api k own -> den k r f -> incl us (k_names k) ->
  exists ms, enumerate k r (Some us) = Ok (init_ref k, ms) /\
    (forall v, f v = true -> exists m, In m ms /\ agrees v m = true) /\
    (forall m, In m ms -> exists v, f v = true /\ agrees v m = true) /\
    (forall m, In m ms -> forall x, In x us <-> In x (m_pos m) \/ In x (m_neg m)).
Proof.
  intros k own r f us A D I. unfold enumerate. destruct (paths_fun true k own r f A D) as (ps & E & L & F & N & _). rewrite E. cbn [rbind].
  set (names := k_names k) in *. destruct (index_fold names us [] I) as (l & El & L1 & L2). rewrite El. cbn [rbind app].
  set (rel := sort_nat l). assert (Hrel : forall i, In i rel <-> In i l) by apply sort_in.
  assert (Ln : length names <= k_varnum k) by apply (i_names _ (a_inv _ _ A)).
  assert (Lr : forall i, In i rel -> i < length names).
  { intros i Hi. apply Hrel in Hi. destruct (L1 i Hi) as (x & _ & Ex). apply nth_error_Some. congruence. }
  rewrite gen_fold; [ | intros p Hp i Hi; apply Lr in Hi; rewrite (L p Hp); cbn [init_ref s_stack k_names]; fold names; lia]. cbn [rbind app].
  change (k_names (init_ref k)) with names. eexists. split; [reflexivity | ]. split; [ | split].
  - intros v Hv. set (w := wof names v). assert (V : vw names v w) by apply vw_wof.
    specialize (F v w V). rewrite Hv in F. cbn [Bool.eqb] in F. assert (Fp : 0 < length (filter (fun p => follows 0 p w) ps)) by lia.
    apply filter_pos in Fp. destruct Fp as (p & Hp & Fp). apply filter_pos.
    rewrite (flat_count k rel v w); [ | auto | auto | intros q Hq i Hi; apply Lr in Hi; rewrite (L q Hq); lia].
    apply filter_pos. exists p. split; auto. unfold compat. apply forallb_forall. intros i Hi. apply Lr in Hi.
    rewrite (nth_indep p _ None) by (rewrite (L p Hp); lia). destruct (nth i p None) as [b | ] eqn:Eb; auto.
    apply (proj1 (follows_true p 0 w)) with (j := i) in Eb; auto. cbn [Nat.add] in Eb. rewrite Eb. apply eqb_reflx.
  - intros m Hm. apply in_flat_map in Hm. destruct Hm as (p & Hp & Hm). apply in_map_iff in Hm. destruct Hm as (q & <- & Hq).
    destruct (expand_ext rel p q Hq) as (X1 & X2 & X3 & X4); [intros i Hi; apply Lr in Hi; rewrite (L p Hp); lia | ].
    set (w := fun i => val q i). set (v := vof names (fun _ => false) w). assert (V : vw names v w) by (apply vw_vof; apply (i_names _ (a_inv _ _ A))).
    exists v. split.
    + specialize (F v w V). assert (Fp : 0 < length (filter (fun p => follows 0 p w) ps)).
      { apply filter_pos. exists p. split; auto. apply follows_true. intros j b Ej. cbn [Nat.add]. unfold w, val.
        assert (Lj : j < length p). { destruct (le_lt_dec (length p) j) as [G | G]; auto. rewrite nth_overflow in Ej by auto. discriminate. }
        rewrite (X2 j b) by (rewrite (nth_indep p _ None); auto). destruct b; auto. }
      destruct (f v); auto. cbn [Bool.eqb] in F. lia.
    + rewrite (agrees_okp names rel q v w); auto. unfold okp. apply forallb_forall. intros i _. apply eqb_reflx.
  - intros m Hm x. apply in_flat_map in Hm. destruct Hm as (p & Hp & Hm). apply in_map_iff in Hm. destruct Hm as (q & <- & Hq). rewrite mdl_vars. split.
    + intros Hx. destruct (L2 x Hx) as (i & Hi & Ei). exists i. split; auto. apply Hrel. auto.
    + intros (i & Hi & Ei). apply Hrel in Hi. destruct (L1 i Hi) as (y & Hy & Ey). congruence.
Qed.

(* ------------------------------------------------------------------------------------------------------------------ *)
(** * Normal forms *)

Lemma combine_seq_nth : forall A (l : list A) a i x, In (i, x) (List.combine (seq a (length l)) l) -> a <= i /\ nth_error l (i - a) = Some x.
Proof.
  intros A l. induction l as [ | y l IH]; intros a i x H; cbn [length seq List.combine] in H; [destruct H | ]. destruct H as [E | H].
  - injection E as <- <-. rewrite Nat.sub_diag. auto.
  - destruct (IH (S a) i x H) as (H1 & H2). split; [lia | ]. replace (i - a) with (S (i - S a)) by lia. auto.
Qed.

Lemma path_lits_fold : forall k (cnf : bool) v w (p : profile) a (acc : list lit), vw (k_names k) v w -> a + length p <= length (k_names k) ->
  exists ls, rfold (fun acc ix => do v <- of_opt (var_of_index k (fst ix));
      match snd ix with None => Ok acc | Some b => Ok (acc ++ [Lit v (if cnf then negb b else b)]) end) acc (List.combine (seq a (length p)) p) = Ok (acc ++ ls) /\
    (cnf = false -> forallb (lit_sem v) ls = follows a p w) /\ (cnf = true -> existsb (lit_sem v) ls = negb (follows a p w)).
Proof.
  intros k cnf v w p. induction p as [ | x p IH]; intros a acc V H; cbn [length seq List.combine rfold].
  - exists []. rewrite app_nil_r. auto.
  - cbn [fst snd]. unfold var_of_index at 1. cbn [length] in H.
    destruct (nth_error (k_names k) a) as [y | ] eqn:E; [ | apply nth_error_None in E; lia]. cbn [of_opt rbind]. cbn [follows].
    destruct x as [b | ]; cbn [rbind].
    + destruct (IH (S a) (acc ++ [Lit y (if cnf then negb b else b)]) V ltac:(lia)) as (ls & El & L1 & L2). exists (Lit y (if cnf then negb b else b) :: ls).
      split; [rewrite El, <- app_assoc; reflexivity | ]. split; intros Hc; cbn [forallb existsb]; rewrite lit_sem_phase; cbn [lit_var lit_phase]; rewrite <- (V a y E); subst cnf.
      * rewrite (L1 eq_refl). auto.
      * rewrite (L2 eq_refl). rewrite negb_andb. f_equal. destruct b, (w a); reflexivity.
    + destruct (IH (S a) acc V ltac:(lia)) as (ls & El & L1 & L2). exists ls. split; [exact El | ]. cbn [andb]. auto.
Qed.

Lemma path_lits_ok : forall k (cnf : bool) (p : profile), length p <= length (k_names k) -> exists ls, path_lits k cnf p = Ok ls /\
  forall v w, vw (k_names k) v w -> (cnf = false -> forallb (lit_sem v) ls = follows 0 p w) /\ (cnf = true -> existsb (lit_sem v) ls = negb (follows 0 p w)).
Proof.
  intros k cnf p H. destruct (path_lits_fold k cnf (fun _ => false) (wof (k_names k) (fun _ => false)) p 0 []) as (ls & E & _); [apply vw_wof | auto | ].
  exists ls. split; [exact E | ]. intros v w V. destruct (path_lits_fold k cnf v w p 0 [] V H) as (ls' & E' & G). cbn [app] in E, E'. rewrite E in E'. injection E' as <-. exact G.
Qed.

Lemma nf_fold : forall k (cnf : bool) (ps : list profile) (acc : list (list lit)), (forall p, In p ps -> length p <= length (k_names k)) -> exists ts,
  rfold (fun acc p => do c <- path_lits k cnf p; Ok (acc ++ [c])) acc ps = Ok (acc ++ ts) /\ length ts = length ps /\
  forall v w, vw (k_names k) v w ->
    (cnf = false -> existsb (forallb (lit_sem v)) ts = existsb (fun p => follows 0 p w) ps) /\
    (cnf = true -> forallb (existsb (lit_sem v)) ts = negb (existsb (fun p => follows 0 p w) ps)).
Proof.
  intros k cnf ps. induction ps as [ | p ps IH]; intros acc H; cbn [rfold].
  - exists []. rewrite app_nil_r. auto.
  - destruct (path_lits_ok k cnf p) as (ls & El & Sl); [apply H; left; auto | ]. rewrite El. cbn [rbind].
    destruct (IH (acc ++ [ls])) as (ts & Et & Lt & St); [intros q Hq; apply H; right; auto | ].
    exists (ls :: ts). split; [rewrite Et, <- app_assoc; reflexivity | ]. split; [cbn [length]; auto | ]. intros v w V. destruct (Sl v w V) as (S1 & S2). destruct (St v w V) as (T1 & T2).
    split; intros Hc; cbn [existsb forallb].
    + rewrite S1, T1 by auto. auto.
    + rewrite S2, T2 by auto. rewrite negb_orb. auto.
Qed.

Lemma filter_existsb : forall A (P : A -> bool) l, existsb P l = (0 <? length (filter P l)).
Proof.
  intros A P l. apply eq_true_iff_eq. rewrite existsb_exists, Nat.ltb_lt, filter_pos. tauto.
Qed.

(** A kernel all of whose variable slots are named: the normal forms are equivalent to the function, and have as many terms or clauses as counted. *)
Theorem normal_form_den : forall (cnf : bool) k own r f, api k own -> den k r f -> length (k_names k) = k_varnum k ->
  exists ts, normal_form k r cnf = Ok (init_ref k, ts) /\
    (forall v, (if cnf then forallb (existsb (lit_sem v)) ts else existsb (forallb (lit_sem v)) ts) = f v) /\
    exists k', (if cnf then path_count_zero k r else path_count_one k r) = Ok (k', N.of_nat (length ts)).
Proof.
  intros cnf k own r f A D Ln. unfold normal_form. destruct (paths_fun (negb cnf) k own r f A D) as (ps & E & L & F & _ & t & W & C). rewrite E. cbn [rbind].
  destruct (nf_fold (init_ref k) cnf ps []) as (ts & Et & Lt & S); [intros p Hp; rewrite (L p Hp); cbn [init_ref s_stack k_names]; lia | ].
  rewrite Et. cbn [rbind app]. exists ts. split; [auto | ]. split.
  - intros v. destruct (S v (wof (k_names k) v) (vw_wof _ _)) as (S1 & S2). specialize (F v _ (vw_wof (k_names k) v)).
    destruct cnf; cbn [negb] in *; [rewrite S2 by auto | rewrite S1 by auto]; rewrite filter_existsb, F; destruct (f v); reflexivity.
  - destruct (path_count_api (negb cnf) k own r t A W) as (k' & E' & _). exists k'. destruct cnf; cbn [negb] in *; rewrite E', Lt, C; f_equal; f_equal; lia.
Qed.

(* ------------------------------------------------------------------------------------------------------------------ *)
(** * The formula of a BDD *)

Lemma to_formula_rec_ok : forall fuel k r t, kinv k -> wr k r t -> tbelow (length (k_names k)) t -> k_varnum k - top (k_varnum k) t < fuel ->
  exists a, to_formula_rec fuel k r = Ok a /\ forall v w, vw (k_names k) v w -> sem v a = teval t w.
Proof.
  induction fuel as [ | fuel IH]; intros k r t K W T Hf; [lia | ]. cbn [to_formula_rec].
  destruct (le_lt_dec 2 r) as [H2 | H2].
  2: { rewrite (wr_lt2 _ _ _ W H2). destruct r as [ | [ | r]]; [ | | lia]; cbn [Nat.eqb]; eexists; split; reflexivity. }
  destruct (Nat.eqb_spec r 0); [lia | ]. destruct (Nat.eqb_spec r 1); [lia | ].
  destruct (wr_ge2 _ _ _ W H2) as (l & a & b & ->). cbn [top tbelow] in *. destruct T as (Tl & T1 & T2).
  destruct (node_wr _ _ _ _ _ W) as (_ & Hl & Ta & Tb & Hne & lo & hi & El & Eh & Wa & Wb & _).
  rewrite (level_wr _ _ _ K W). cbn [rbind top]. unfold var_of_index.
  destruct (nth_error (k_names k) l) as [x | ] eqn:Ex; [ | apply nth_error_None in Ex; lia]. cbn [of_opt rbind]. rewrite Eh, El. cbn [rbind].
  destruct (IH k hi b K Wb T2 ltac:(lia)) as (f1 & E1 & S1). destruct (IH k lo a K Wa T1 ltac:(lia)) as (f2 & E2 & S2). rewrite E1, E2. cbn [rbind].
  eexists. split; [reflexivity | ]. intros v w V. cbn [sem existsb forallb teval]. rewrite (S1 v w V), (S2 v w V), !lit_sem_phase. cbn [lit_var lit_phase].
  rewrite <- (V l x Ex). destruct (w l); cbn [Bool.eqb andb orb]; rewrite ?andb_true_r, ?orb_false_r; auto.
Qed.

Theorem to_formula_den : forall k own r f, api k own -> den k r f -> exists a, to_formula k r = Ok a /\ forall v, sem v a = f v.
Proof.
  intros k own r f A (t & W & H). destruct (to_formula_rec_ok (S (k_varnum k)) k r t (a_inv _ _ A) W) as (a & E & S).
  - eapply den_tbelow; eauto; [apply A | apply W].
  - lia.
  - exists a. split; [exact E | ]. intros v. rewrite (S v _ (vw_wof (k_names k) v)). apply H. apply vw_wof.
Qed.
