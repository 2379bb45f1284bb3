(** The operations in terms of the functions of the BDDs over the variables of the user. *)
From Coq Require Import NArith ZArith Arith List Bool Lia.
From Verif Require Import Base Syntax FactoryBasics BddSpec BddModel BddLink BddTable BddMake BddRep BddOps BddBuild BddQuant.
Import ListNotations.
Local Open Scope res_scope.

(** Node [n] of the kernel stands for the Boolean function [f]. *)
Definition den (k : kernel) (n : nat) (f : valuation -> bool) : Prop :=
  exists t, wr k n t /\ forall v w, vw (k_names k) v w -> teval t w = f v.

Definition wof (names : list var) (v : valuation) (i : nat) : bool := match nth_error names i with Some x => v x | None => false end.
Definition vof (names : list var) (v : valuation) (w : nat -> bool) (x : var) : bool := match index_of x names with Some i => w i | None => v x end.

Lemma vw_wof : forall names v, vw names v (wof names v).
Proof. intros names v i x E. unfold wof. rewrite E. auto. Qed.
Lemma index_of_nth : forall l i x, NoDup l -> nth_error l i = Some x -> index_of x l = Some i.
Proof.
  intros l i x ND E. destruct (index_of x l) as [j | ] eqn:Ej.
  - apply index_of_some in Ej. f_equal. rewrite NoDup_nth_error in ND. apply ND; [apply nth_error_Some; congruence | congruence].
  - apply index_of_none in Ej. exfalso. apply Ej. eapply nth_error_In; eauto.
Qed.
Lemma vw_vof : forall names v w, NoDup names -> vw names (vof names v w) w.
Proof. intros names v w ND i x E. unfold vof. rewrite (index_of_nth _ _ _ ND E). auto. Qed.
Lemma vw_ext : forall names v v' w, (forall x, v x = v' x) -> vw names v w -> vw names v' w.
Proof. intros names v v' w H V i x E. rewrite <- H. auto. Qed.

Lemma den_ext : forall k n f v v', den k n f -> (forall x, v x = v' x) -> f v = f v'.
Proof.
  intros k n f v v' (t & _ & H) E. rewrite <- (H v (wof (k_names k) v)) by apply vw_wof.
  apply H. eapply vw_ext; [exact E | apply vw_wof].
Qed.
Lemma den_names : forall k k' n t f l, wr k' n t -> k_names k' = k_names k ++ l ->
  (forall v w, vw (k_names k) v w -> teval t w = f v) -> den k' n f.
Proof. intros k k' n t f l W N H. exists t. split; [auto | ]. intros v w V. apply H. rewrite N in V. eapply vw_app; eauto. Qed.

Lemma den_ext_own : forall own k k' n f, ext own k k' -> In n own -> den k n f -> den k' n f.
Proof. intros own k k' n f X I (t & W & H). destruct (e_names _ _ _ X) as (l & N). eapply den_names; eauto. apply X; auto. Qed.
Lemma den_extq_own : forall own k k' n f, extq own k k' -> In n own -> den k n f -> den k' n f.
Proof. intros own k k' n f X I (t & W & H). destruct (q_names _ _ _ X) as (l & N). eapply den_names; eauto. apply X; auto. Qed.

(** Canonicity: equal functions are the same node, and conversely. *)
Theorem den_canon : forall k n m f g, kinv k -> den k n f -> den k m g -> ((forall v, f v = g v) <-> n = m).
Proof.
  intros k n m f g K (t & W & H) (u & U & G). split.
  - intros E. assert (Et : t = u).
    { apply (canon (k_varnum k)); [apply W | apply U | ]. intros w. set (v := vof (k_names k) (fun _ => false) w).
      assert (V : vw (k_names k) v w) by (apply vw_vof; apply (i_names _ K)). rewrite (H v w V), (G v w V). auto. }
    subst u. eapply rep_inj; [apply (i_tk _ K) | apply W | apply U].
  - intros ->. rewrite (wr_det _ _ _ _ W U) in H. intros v. rewrite <- (H v (wof (k_names k) v)) by apply vw_wof. apply G. apply vw_wof.
Qed.
Lemma den_fun : forall k n f g, kinv k -> den k n f -> den k n g -> forall v, f v = g v.
Proof. intros k n f g K A B. apply (den_canon k n n f g K A B). auto. Qed.

(* ------------------------------------------------------------------------------------------------------------------ *)
(** * Building *)

Theorem from_formula_den : forall vs a k own, pure a -> incl (bvars a) vs -> api k own -> room vs k ->
  exists k' x, from_formula k a = Ok (k', x) /\ api k' (x :: own) /\ ext own k k' /\ room vs k' /\ den k' x (fun v => sem v a).
Proof.
  intros vs a k own P I A R. unfold from_formula. destruct (build_spec vs a P I k None own A R) as ([[k' h'] x] & E & B). unfold handler in *. rewrite E. cbn [rbind].
  destruct B as (X & R' & N & B). destruct (N eq_refl) as (-> & N'). destruct x as [x | ]; [ | congruence]. cbn [of_opt rbind fst].
  destruct B as (A' & t & W & H). exists k', x. split; [auto | ]. split; [auto | ]. split; [auto | ]. split; [auto | ]. exists t. auto.
Qed.

(** With a handler: the same BDD, or nothing; the BDDs held before are not affected. *)
Theorem from_formula_h_den : forall vs a k h own, pure a -> incl (bvars a) vs -> api k own -> room vs k ->
  exists k' h' x, from_formula_h k h a = Ok (k', h', x) /\ ext own k k' /\ room vs k' /\
    match x with
    | Some x => api k' (x :: own) /\ den k' x (fun v => sem v a)
    | None => h <> None /\ api k' own
    end.
Proof.
  intros vs a k h own P I A R. unfold from_formula_h. destruct (build_spec vs a P I k h own A R) as ([[k' h'] x] & E & B).
  exists k', h', x. split; [auto | ]. destruct B as (X & R' & N & B). split; [auto | ]. split; [auto | ].
  destruct x as [x | ].
  - destruct B as (A' & t & W & H). split; [auto | ]. exists t. auto.
  - split; [ | auto]. intros ->. destruct (N eq_refl). congruence.
Qed.

(* ------------------------------------------------------------------------------------------------------------------ *)
(** * Conjunctions of literals *)

Definition noncontra (ls : list lit) : Prop := forall l l', In l ls -> In l' ls -> lit_var l = lit_var l' -> lit_phase l = lit_phase l'.

Lemma lit_eta : forall l, l = Lit (lit_var l) (lit_phase l).
Proof. intros [v p]. auto. Qed.

Lemma dedup_in : forall ls seen l, In l ls -> ~ In l seen -> In l (dedup_lits seen ls).
Proof.
  induction ls as [ | x ls IH]; intros seen l H N; [destruct H | ]. cbn [dedup_lits].
  destruct (existsb (lit_eqb x) seen) eqn:E.
  - destruct H as [-> | H]; [ | auto]. apply existsb_exists in E. destruct E as (y & Hy & E). apply lit_eqb_spec in E. subst. contradiction.
  - destruct H as [-> | H]; [left; auto | ]. destruct (lit_eqb x l) eqn:El.
    + apply lit_eqb_spec in El. subst. left. auto.
    + right. apply IH; auto. intros [-> | G]; [ | auto]. assert (Q : lit_eqb l l = true) by (apply lit_eqb_spec; auto). congruence.
Qed.
Lemma dedup_incl : forall ls seen l, In l (dedup_lits seen ls) -> In l ls.
Proof.
  induction ls as [ | x ls IH]; intros seen l H; [destruct H | ]. cbn [dedup_lits] in H.
  destruct (existsb (lit_eqb x) seen); [right; eauto | ]. destruct H as [-> | H]; [left; auto | right; eauto].
Qed.
Lemma dedup_same : forall ls l, In l (dedup_lits [] ls) <-> In l ls.
Proof. intros ls l. split; [apply dedup_incl | intros H; apply dedup_in; auto]. Qed.

Lemma forallb_same : forall A (f : A -> bool) l l', (forall x, In x l <-> In x l') -> forallb f l = forallb f l'.
Proof. intros A f l l' H. apply eq_true_iff_eq. rewrite !forallb_forall. split; intros G x Hx; apply G, H, Hx. Qed.
Lemma forallb_map_lit : forall v ls, forallb (sem v) (map FLit ls) = forallb (lit_sem v) ls.
Proof. intros v ls. induction ls as [ | l ls IH]; cbn [map forallb]; auto. rewrite IH. auto. Qed.

Lemma bvars_and : forall ls, bvars (FAnd (map FLit ls)) = map lit_var ls.
Proof. induction ls as [ | l ls IH]; auto. cbn [bvars map app] in *. rewrite IH. auto. Qed.
Lemma pure_and : forall ls, ls <> [] -> pure (FAnd (map FLit ls)).
Proof.
  intros ls H. cbn [pure]. split; [destruct ls; [congruence | discriminate] | ]. clear H. induction ls as [ | l ls IH]; cbn [map]; auto.
  split; auto. exact Logic.I.
Qed.

Lemma lits_fml_spec : forall ls, noncontra ls ->
  pure (lits_fml ls) /\ incl (bvars (lits_fml ls)) (map lit_var ls) /\ forall v, sem v (lits_fml ls) = forallb (lit_sem v) ls.
Proof.
  intros ls C. unfold lits_fml. destruct (existsb _ ls) eqn:E.
  { apply existsb_exists in E. destruct E as (l & Hl & E). apply existsb_exists in E. destruct E as (l' & Hl' & E). apply lit_eqb_spec in E. subst l'.
    specialize (C l (lit_negate l) Hl Hl'). destruct l as [x p]. cbn [lit_negate lit_var lit_phase] in C. destruct p; discriminate (C eq_refl). }
  pose proof (dedup_same ls) as D. destruct (dedup_lits [] ls) as [ | l [ | l' ds]] eqn:Ed.
  - split; [exact Logic.I | ]. split; [intros x [] | ]. intros v. cbn [sem]. destruct ls as [ | l ls]; auto. destruct (proj2 (D l) (or_introl eq_refl)).
  - split; [exact Logic.I | ]. split.
    + intros x [<- | []]. apply in_map. apply D. left. auto.
    + intros v. cbn [sem]. rewrite <- (forallb_same _ (lit_sem v) _ _ D). cbn [forallb]. rewrite andb_true_r. auto.
  - set (ms := l :: l' :: ds) in *. split; [apply pure_and; discriminate | ]. split.
    + rewrite bvars_and. intros x Hx. apply in_map_iff in Hx. destruct Hx as (y & <- & Hy). apply in_map. apply D. auto.
    + intros v. transitivity (forallb (sem v) (map FLit ms)); [reflexivity | ]. rewrite forallb_map_lit. apply forallb_same. exact D.
Qed.

Lemma lit_sem_phase : forall v l, lit_sem v l = Bool.eqb (v (lit_var l)) (lit_phase l).
Proof. intros v [x p]. unfold lit_sem. cbn [lit_var lit_phase]. destruct p, (v x); auto. Qed.

(** The valuation changed so that the literals hold. *)
Definition vovr (v : valuation) (ls : list lit) : valuation :=
  fun x => match find (fun l => var_eqb (lit_var l) x) ls with Some l => lit_phase l | None => v x end.
Lemma vovr_in : forall v ls l, noncontra ls -> In l ls -> vovr v ls (lit_var l) = lit_phase l.
Proof.
  intros v ls l C Hl. unfold vovr. destruct (find _ ls) as [l' | ] eqn:E.
  - apply find_some in E. destruct E as (H' & E). apply var_eqb_spec in E. apply C; auto.
  - eapply find_none in E; eauto. assert (G : var_eqb (lit_var l) (lit_var l) = true) by (apply var_eqb_spec; auto). congruence.
Qed.
Lemma vovr_out : forall v ls x, ~ In x (map lit_var ls) -> vovr v ls x = v x.
Proof.
  intros v ls x H. unfold vovr. destruct (find _ ls) as [l' | ] eqn:E; auto.
  apply find_some in E. destruct E as (H' & E). apply var_eqb_spec in E. exfalso. apply H. subst x. apply in_map. auto.
Qed.
Lemma vovr_sat : forall v ls, noncontra ls -> forallb (lit_sem v) ls = true \/ True -> forallb (lit_sem (vovr v ls)) ls = true.
Proof. intros v ls C _. apply forallb_forall. intros l Hl. rewrite lit_sem_phase, vovr_in by auto. apply eqb_reflx. Qed.

Definition idx (names : list var) (x : var) : nat := match index_of x names with Some i => i | None => 0 end.
Lemma idx_ok : forall names x, In x names -> nth_error names (idx names x) = Some x.
Proof.
  intros names x H. unfold idx. destruct (index_of x names) as [i | ] eqn:E; [apply index_of_some; auto | ]. apply index_of_none in E. contradiction.
Qed.
Definition ilit (names : list var) (l : lit) : nat * bool := (idx names (lit_var l), lit_phase l).

(** The BDD of a conjunction of literals. *)
Lemma cube_den : forall k n ls t, kinv k -> noncontra ls -> wr k n t ->
  (forall v w, vw (k_names k) v w -> teval t w = forallb (lit_sem v) ls) ->
  incl (map lit_var ls) (k_names k) /\ forall p, In p (cpath t) <-> In p (map (ilit (k_names k)) ls).
Proof.
  intros k n ls t K C W H.
  assert (I : incl (map lit_var ls) (k_names k)).
  { intros x Hx. destruct (index_of x (k_names k)) as [i | ] eqn:E; [apply index_of_some in E; eapply nth_error_In; eauto | ].
    apply index_of_none in E. exfalso. apply in_map_iff in Hx. destruct Hx as (l & <- & Hl).
    set (v := vovr (fun _ => false) ls). set (v' := fun y => if var_eqb y (lit_var l) then negb (v y) else v y).
    assert (V : vw (k_names k) v' (wof (k_names k) v)).
    { intros i x Ex. unfold wof. rewrite Ex. unfold v'. destruct (var_eqb x (lit_var l)) eqn:Ev; auto.
      apply var_eqb_spec in Ev. subst x. exfalso. apply E. eapply nth_error_In; eauto. }
    assert (G1 := H v _ (vw_wof (k_names k) v)). assert (G2 := H v' _ V). unfold v in G1 at 2. rewrite vovr_sat in G1 by auto.
    rewrite G1 in G2. symmetry in G2. rewrite forallb_forall in G2. specialize (G2 l Hl). rewrite lit_sem_phase in G2. unfold v' in G2.
    assert (Ev : var_eqb (lit_var l) (lit_var l) = true) by (apply var_eqb_spec; auto). rewrite Ev in G2. unfold v in G2. rewrite vovr_in in G2 by auto.
    destruct (lit_phase l); discriminate. }
  split; [auto | ]. apply (cube_cpath (k_varnum k)); [apply W | | ].
  - intros p q Hp Hq E. apply in_map_iff in Hp. apply in_map_iff in Hq. destruct Hp as (l & <- & Hl). destruct Hq as (l' & <- & Hl').
    unfold ilit in *. cbn [fst snd] in *. apply C; auto.
    pose proof (idx_ok _ _ (I _ (in_map lit_var _ _ Hl))) as E1. pose proof (idx_ok _ _ (I _ (in_map lit_var _ _ Hl'))) as E2. congruence.
  - intros w. set (v := vof (k_names k) (fun _ => false) w).
    assert (V : vw (k_names k) v w) by (apply vw_vof; apply (i_names _ K)). rewrite (H v w V). unfold cube.
    clear H. induction ls as [ | l ls IH]; cbn [map forallb]; auto. rewrite IH.
    + f_equal. rewrite lit_sem_phase. unfold ilit. cbn [fst snd]. rewrite <- (V _ _ (idx_ok _ _ (I _ (or_introl eq_refl)))). auto.
    + intros a b Ha Hb. apply C; right; auto.
    + intros x Hx. apply I. right. auto.
Qed.

(* ------------------------------------------------------------------------------------------------------------------ *)
(** * Restriction *)

(** [v'] is [v] changed so that the literals hold. *)
Definition restricts (v v' : valuation) (ls : list lit) : Prop :=
  (forall l, In l ls -> lit_sem v' l = true) /\ (forall x, ~ In x (map lit_var ls) -> v' x = v x).

Lemma var_dec : forall x y : var, {x = y} + {x <> y}.
Proof.
  intros x y. destruct (var_eqb x y) eqn:E; [left; apply var_eqb_spec; auto | right; intros ->].
  assert (G : var_eqb y y = true) by (apply var_eqb_spec; auto). congruence.
Qed.

Theorem restrict_den : forall vs k own r f ls, api k own -> room vs k -> In r own -> den k r f -> noncontra ls ->
  incl (map lit_var ls) vs -> (k_qid k < 2147483647)%N ->
  exists k' x g, bdd_restrict k r ls = Ok (k', x) /\ api k' own /\ extq own k k' /\ room vs k' /\ den k' x g /\
    forall v v', restricts v v' ls -> g v = f v'.
Proof.
  intros vs k own r f ls A R I D C J Hq. unfold bdd_restrict.
  destruct (lits_fml_spec ls C) as (P & B & S).
  destruct (from_formula_den vs (lits_fml ls) k own P) as (k1 & c & E1 & A1 & X1 & R1 & tc & Wc & Hc); auto.
  { intros x Hx. apply J. apply B. auto. }
  rewrite E1. cbn [rbind]. pose proof (den_ext_own _ _ _ _ _ X1 I D) as (tr & Wr & Hr).
  destruct (restrict_api k1 (c :: own) r c tr tc A1) as (k2 & x & t & E2 & A2 & X2 & N2 & W2 & H2); auto; [right; auto | left; auto | rewrite (e_qid _ _ _ X1); auto | ].
  assert (Hc' : forall v w, vw (k_names k1) v w -> teval tc w = forallb (lit_sem v) ls) by (intros v w V; rewrite (Hc v w V); auto).
  destruct (cube_den k1 c ls tc (a_inv _ _ A1) C Wc Hc') as (In1 & Cp).
  assert (X2' : extq own k1 k2).
  { destruct X2 as [Y1 Y2 Y3 Y4]. constructor; auto. intros n u Hn. apply Y4. right. auto. }
  assert (Dx : forall v w, vw (k_names k2) v w -> teval t w = f (vovr v ls)).
  { intros v w V. rewrite H2. apply Hr. intros i y Ey. unfold ovr. rewrite N2 in V.
    destruct (in_dec var_dec y (map lit_var ls)) as [G | G].
    - apply in_map_iff in G. destruct G as (l & <- & Hl). rewrite vovr_in by auto.
      assert (Ei : idx (k_names k1) (lit_var l) = i).
      { unfold idx. rewrite (index_of_nth _ _ _ (proj1 (i_names _ (a_inv _ _ A1))) Ey). auto. }
      destruct (find_consistent (cpath tc) i (i, lit_phase l)) as (q & -> & Eq & _); auto.
      + eapply cpath_consistent. apply Wc.
      + apply Cp. apply in_map_iff. exists l. split; [unfold ilit; congruence | auto].
    - rewrite vovr_out by auto. rewrite find_fst_none; [apply V; auto | ].
      intros p Hp Ep. apply Cp in Hp. apply in_map_iff in Hp. destruct Hp as (l & <- & Hl). apply G. unfold ilit in Ep. cbn [fst] in Ep.
      pose proof (idx_ok _ _ (In1 _ (in_map lit_var _ _ Hl))) as Q. rewrite Ep, Ey in Q. injection Q as ->. apply in_map. auto. }
  exists k2, x, (fun v => f (vovr v ls)). split; [exact E2 | ]. split; [exact (api_tl _ _ _ A2) | ]. split; [exact (extq_trans _ _ _ _ X1 X2') | ].
  split; [eapply room_names; [exact R1 | auto | apply X2] | ]. split; [exists t; auto | ].
  intros v v' (V1 & V2). apply (den_ext k r f); auto. intros y. destruct (in_dec var_dec y (map lit_var ls)) as [G | G].
  - apply in_map_iff in G. destruct G as (l & <- & Hl). rewrite vovr_in by auto. specialize (V1 l Hl). rewrite lit_sem_phase in V1. apply eqb_prop in V1. auto.
  - rewrite vovr_out, V2; auto.
Qed.

(* ------------------------------------------------------------------------------------------------------------------ *)
(** * Quantification *)

Definition same_outside (vs : list var) (v v' : valuation) : Prop := forall x, ~ In x vs -> v' x = v x.
Definition pos (x : var) : lit := Lit x true.

Lemma pos_noncontra : forall us, noncontra (map pos us).
Proof. intros us l l' Hl Hl' _. apply in_map_iff in Hl. apply in_map_iff in Hl'. destruct Hl as (x & <- & _). destruct Hl' as (y & <- & _). auto. Qed.
Lemma pos_vars : forall us, map lit_var (map pos us) = us.
Proof. intros us. rewrite map_map. cbn. apply map_id. Qed.

Section Agree.
  Variables (names : list var) (S : list nat) (us : list var).
  Hypothesis ND : NoDup names.
  Hypothesis HS : forall i, In i S <-> exists x, In x us /\ nth_error names i = Some x.

  (** Assignments that agree outside [S] are valuations that agree outside [us]. *)
  Lemma agree_down : forall v w w', vw names v w -> agree S w w' -> exists v', same_outside us v v' /\ vw names v' w'.
  Proof.
    intros v w w' V G. exists (vof names v w'). split; [ | apply vw_vof; auto].
    intros x Hx. unfold vof. destruct (index_of x names) as [i | ] eqn:E; auto. apply index_of_some in E.
    rewrite G; [apply V; auto | ]. intros Hi. apply HS in Hi. destruct Hi as (y & Hy & Ey). rewrite E in Ey. injection Ey as ->. auto.
  Qed.
  Lemma agree_up : forall v v' w, vw names v w -> same_outside us v v' -> exists w', agree S w w' /\ vw names v' w'.
  Proof.
    intros v v' w V G. exists (fun i => match nth_error names i with Some x => v' x | None => w i end). split.
    - intros i Hi. destruct (nth_error names i) as [x | ] eqn:E; auto. rewrite (V i x E). apply G. intros Hx. apply Hi. apply HS. exists x. auto.
    - intros i x E. rewrite E. auto.
  Qed.
End Agree.

Lemma bool_iff : forall a b : bool, (a = true <-> b = true) -> a = b.
Proof. intros a b H. apply eq_true_iff_eq. exact H. Qed.

Theorem quant_den : forall o vs k own r f us, (o = OpOr \/ o = OpAnd) -> api k own -> room vs k -> In r own -> den k r f ->
  incl us vs -> (k_qid k < 2147483647)%N ->
  exists k' x g, (do ' (k1, v) <- from_formula k (lits_fml (map pos us)); bquant o k1 r v) = Ok (k', x) /\
    api k' own /\ extq own k k' /\ room vs k' /\ den k' x g /\
    forall v, g v = true <-> match o with OpOr => exists v', same_outside us v v' /\ f v' = true | _ => forall v', same_outside us v v' -> f v' = true end.
Proof.
  intros o vs k own r f us Ho A R I D J Hq. pose proof (pos_noncontra us) as C.
  destruct (lits_fml_spec _ C) as (P & B & S). rewrite pos_vars in B.
  destruct (from_formula_den vs (lits_fml (map pos us)) k own P) as (k1 & c & E1 & A1 & X1 & R1 & tc & Wc & Hc); auto.
  { intros x Hx. apply J. apply B. auto. }
  rewrite E1. cbn [rbind]. pose proof (den_ext_own _ _ _ _ _ X1 I D) as (tr & Wr & Hr).
  destruct (quant_api o k1 (c :: own) r c tr tc Ho A1) as (k2 & x & t & E2 & A2 & X2 & N2 & W2 & H2); auto; [right; auto | left; auto | rewrite (e_qid _ _ _ X1); auto | ].
  assert (Hc' : forall v w, vw (k_names k1) v w -> teval tc w = forallb (lit_sem v) (map pos us)) by (intros v w V; rewrite (Hc v w V); auto).
  destruct (cube_den k1 c _ tc (a_inv _ _ A1) C Wc Hc') as (In1 & Cp). rewrite pos_vars in In1.
  assert (X2' : extq own k1 k2).
  { destruct X2 as [Y1 Y2 Y3 Y4]. constructor; auto. intros n u Hn. apply Y4. right. auto. }
  set (names := k_names k1) in *. assert (ND : NoDup names) by apply (i_names _ (a_inv _ _ A1)).
  assert (HS : forall i, In i (hpath tc) <-> exists y, In y us /\ nth_error names i = Some y).
  { intros i. rewrite cube_hpath.
    - rewrite in_map_iff. split.
      + intros (p & <- & Hp). apply Cp in Hp. apply in_map_iff in Hp. destruct Hp as (l & <- & Hl). apply in_map_iff in Hl. destruct Hl as (y & <- & Hy).
        exists y. split; auto. unfold ilit. cbn [fst pos lit_var]. apply idx_ok. apply In1. auto.
      + intros (y & Hy & Ey). exists (i, true). split; auto. apply Cp. apply in_map_iff. exists (pos y). split; [ | apply in_map; auto].
        unfold ilit, pos, idx. cbn [lit_var lit_phase]. rewrite (index_of_nth _ _ _ ND Ey). auto.
    - intros p Hp. apply Cp in Hp. apply in_map_iff in Hp. destruct Hp as (l & <- & Hl). apply in_map_iff in Hl. destruct Hl as (y & <- & Hy). auto. }
  assert (Dx : forall v w, vw names v w -> teval t w = true <->
     match o with OpOr => exists v', same_outside us v v' /\ f v' = true | _ => forall v', same_outside us v v' -> f v' = true end).
  { intros v w V. destruct Ho as [-> | ->]; cbn [is_quant] in H2; rewrite (H2 w); split.
    - intros (w' & G & T). destruct (agree_down names _ us ND HS v w w' V G) as (v' & G' & V'). exists v'. split; auto. rewrite <- (Hr v' w' V'). auto.
    - intros (v' & G & T). destruct (agree_up names _ us HS v v' w V G) as (w' & G' & V'). exists w'. split; auto. rewrite (Hr v' w' V'). auto.
    - intros G v' T. destruct (agree_up names _ us HS v v' w V T) as (w' & G' & V'). rewrite <- (Hr v' w' V'). auto.
    - intros G w' T. destruct (agree_down names _ us ND HS v w w' V T) as (v' & G' & V'). rewrite (Hr v' w' V'). auto. }
  exists k2, x, (fun v => teval t (wof names v)). split; [exact E2 | ]. split; [exact (api_tl _ _ _ A2) | ]. split; [exact (extq_trans _ _ _ _ X1 X2') | ].
  split; [eapply room_names; [exact R1 | auto | apply X2] | ]. split.
  - exists t. split; [auto | ]. intros v w V. rewrite N2 in V. apply bool_iff. rewrite (Dx v w V), (Dx v _ (vw_wof names v)). tauto.
  - intros v. apply (Dx v). apply vw_wof.
Qed.

Theorem exists_den : forall vs k own r f us, api k own -> room vs k -> In r own -> den k r f -> incl us vs -> (k_qid k < 2147483647)%N ->
  exists k' x g, bdd_exists k r us = Ok (k', x) /\ api k' own /\ extq own k k' /\ room vs k' /\ den k' x g /\
    forall v, g v = true <-> exists v', same_outside us v v' /\ f v' = true.
Proof. intros vs k own r f us A R I D J Hq. exact (quant_den OpOr vs k own r f us (or_introl eq_refl) A R I D J Hq). Qed.
Theorem forall_den : forall vs k own r f us, api k own -> room vs k -> In r own -> den k r f -> incl us vs -> (k_qid k < 2147483647)%N ->
  exists k' x g, bdd_forall k r us = Ok (k', x) /\ api k' own /\ extq own k k' /\ room vs k' /\ den k' x g /\
    forall v, g v = true <-> forall v', same_outside us v v' -> f v' = true.
Proof. intros vs k own r f us A R I D J Hq. exact (quant_den OpAnd vs k own r f us (or_intror eq_refl) A R I D J Hq). Qed.
