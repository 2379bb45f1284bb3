(** The invariant of the operation caches, and a program logic for the operations that use them.

    Some cached results introduce auxiliary variables, so that a result is equivalent to its argument only after the auxiliary
    variables have been given the values their definitions ask for.  A [world] is the set of valuations that do so. *)
From Coq Require Import NArith ZArith List Bool Arith Lia.
From Verif Require Import Base EncodingModel EncodingProofs Syntax FactoryModel FactoryInv FactoryBasics FactoryProofs FactorySpecs
  FactoryNary FactoryOps EvalProofs ConstraintModel OpsModel OpsProofs CcModel EncBasics PbModel CacheModel TransModel TreeSpec.
Import ListNotations.
Local Open Scope N_scope.

Definition world := valuation -> Prop.
Definition known (s : factory) (v : var) : Prop := old (ctrs_of s) v.
Definition kn (s : factory) (x : fml) : Prop := forall u, In u (fvars x) -> known s u.

(** [h] is a valid handle that denotes [x], over variables that exist. *)
Definition hdl (s : factory) (h : N) (x : fml) : Prop := vh s h /\ denotes s h x /\ kn s x.

Definition sub (W' W : world) : Prop := forall v, W' v -> W v.

(** Every valuation can be adapted by changing auxiliary variables, and only variables that exist matter. *)
Definition world_ok (W : world) (s : factory) : Prop :=
  (forall v, exists w, W w /\ forall i, w (VFF i) = v (VFF i))
  /\ (forall v w, W v -> (forall u, known s u -> w u = v u) -> W w).

(** [y] is a correct result for [x]: each model of [y] is one of [x], and each model of [x] in the world is one of [y];
    without constraints no auxiliary variable is involved. *)
Definition refines (W : world) (x y : fml) : Prop :=
  (forall v, sem v y = true -> sem v x = true) /\ (forall v, W v -> sem v x = true -> sem v y = true)
  /\ (con_free x = true -> (forall v, sem v y = sem v x) /\ incl (fvars y) (fvars x)).

(* ------------------------------------------------------------------------------------------------------------------ *)
(** * Cache entries *)

Definition e_tree {V} (P : fml -> V -> Prop) (s : factory) (h : N) (v : V) : Prop := exists x, vh s h /\ denotes s h x /\ P x v.
Definition e_form (P : world -> fml -> fml -> Prop) (W : world) (s : factory) (h r : N) : Prop :=
  exists x y, hdl s h x /\ hdl s r y /\ P W x y.
(** Entries of the cache of satisfiability. *)
Definition P_sat (W : world) (x : fml) (b : bool) : Prop := if b then exists v, sem v x = true else forall v, W v -> sem v x = false.
Definition e_sat (W : world) (s : factory) (h : N) (b : bool) : Prop := exists x, hdl s h x /\ P_sat W x b.
Definition clausal (x : fml) : bool := match x with FTrue | FFalse => true | _ => is_fclause x end.
(** [ys] are clauses that together are a correct result for [x]. *)
Definition enc_of (W : world) (x : fml) (ys : list fml) : Prop :=
  Forall (fun y => clausal y = true) ys
  /\ (forall v, forallb (sem v) ys = true -> sem v x = true) /\ (forall v, W v -> sem v x = true -> forallb (sem v) ys = true).
Definition e_enc (W : world) (s : factory) (h : N) (l : list N) : Prop :=
  exists x ys, hdl s h x /\ Forall2 (hdl s) l ys /\ enc_of W x ys.

Definition strict {A} (ltb : A -> A -> bool) : list A -> Prop := Sorted.StronglySorted (fun a b => ltb a b = true).
Definition set_list {A} (ltb : A -> A -> bool) (l ref : list A) : Prop := strict ltb l /\ forall a, In a l <-> In a ref.

Definition m64 : N := 18446744073709551616.
Definition P_atoms (x : fml) (n : N) : Prop := n = atoms x mod m64.
Definition P_nodes (x : fml) (n : N) : Prop := n = (nodes x - 1) mod m64.
Definition P_depth (x : fml) (n : N) : Prop := n = N.of_nat (depth x).
Definition P_vars (x : fml) (l : list var) : Prop := set_list var_ltb l (fvars x).
Definition P_lits (x : fml) (l : list lit) : Prop := set_list lit_ltb l (flits x).
Definition P_is_nnf (x : fml) (b : bool) : Prop := b = nnf_shape x.
Definition P_is_dnf (x : fml) (b : bool) : Prop := b = dnf_shape x.
Definition P_contains (x : fml) (b : bool) : Prop := b = negb (con_free x).
(** A bound for the depth of the negation normal form of [x] (or of its negation). *)
Fixpoint ndep (p : bool) (x : fml) : nat :=
  match x with
  | FTrue | FFalse | FLit _ => 0
  | FCc _ | FPbc _ => if p then 2 else 3
  | FNot a => ndep (negb p) a
  | FAnd l | FOr l => S (fold_right (fun y n => Nat.max (ndep p y) n) 0 l)
  | FImpl a b => S (Nat.max (ndep (negb p) a) (ndep p b))
  | FEquiv a b => S (S (Nat.max (Nat.max (ndep true a) (ndep false a)) (Nat.max (ndep true b) (ndep false b))))
  end%nat.
Definition P_nnf (W : world) (x y : fml) : Prop := refines W x y /\ nnf_shape y = true /\ (depth y <= ndep true x)%nat.
Definition P_cnf (W : world) (x y : fml) : Prop := refines W x y /\ cnf_shape y = true.
Definition P_dnf (W : world) (x y : fml) : Prop := refines W x y /\ dnf_shape y = true.
(** Results of the backbone simplification: a variable with the same value in all models is in the result as a literal only. *)
Definition unit_in (u : var) (b : bool) (y : fml) : Prop :=
  y = FLit (Lit u b) \/ exists l, y = FAnd l /\ In (FLit (Lit u b)) l /\ Forall (fun z => z = FLit (Lit u b) \/ ~ In u (fvars z)) l.
Definition P_bb (W : world) (x y : fml) : Prop :=
  (forall v, sem v y = true -> sem v x = true) /\ (forall v, W v -> sem v x = true -> sem v y = true) /\ incl (fvars y) (fvars x)
  /\ ((forall v, sem v x = false) -> y = FFalse)
  /\ (forall u b, In u (fvars x) -> (exists v, W v /\ sem v x = true) -> (forall v, sem v x = true -> v u = b) -> unit_in u b y).

Definition centry {V} (E : N -> V -> Prop) (m : list (N * V)) : Prop := forall h v, oc_get h m = Some v -> E h v.

Record caches_ok (W : world) (s : factory) (c : op_caches) : Prop := mkCachesOk
  { co_atoms : centry (e_tree P_atoms s) (oc_atoms c);
    co_nodes : centry (e_tree P_nodes s) (oc_nodes c);
    co_depth : centry (e_tree P_depth s) (oc_depth c);
    co_vars : centry (e_tree P_vars s) (oc_vars c);
    co_lits : centry (e_tree P_lits s) (oc_lits c);
    co_sub : centry (fun h l => vh s h /\ sub_list s h l) (oc_sub c);
    co_ccenc : centry (e_enc W s) (oc_ccenc c);
    co_pbcenc : centry (e_enc W s) (oc_pbcenc c);
    co_nnf : centry (e_form P_nnf W s) (oc_nnf c);
    co_dnf : centry (e_form P_dnf W s) (oc_dnf c);
    co_cnf : centry (e_form P_cnf W s) (oc_cnf c);
    co_is_nnf : centry (e_tree P_is_nnf s) (oc_is_nnf c);
    co_is_dnf : centry (e_tree P_is_dnf s) (oc_is_dnf c);
    co_contains : centry (e_tree P_contains s) (oc_contains_pbc c);
    co_bb : centry (e_form P_bb W s) (oc_bb c);
    co_sat : centry (e_sat W s) (oc_sat c) }.

Record inv (W : world) (s : factory) : Prop := mkInv
  { i_wf : wf s; i_world : world_ok W s; i_caches : caches_ok W s (f_caches s) }.

(* ------------------------------------------------------------------------------------------------------------------ *)
(** * Stability *)

Lemma sub_refl : forall W, sub W W.
Proof. intros W v H. exact H. Qed.
Lemma sub_trans : forall A B C, sub A B -> sub B C -> sub A C.
Proof. intros A B C H K v Hv. auto. Qed.
Lemma known_ext : forall s s' v, ext s s' -> known s v -> known s' v.
Proof.
  intros s s' v [Ht [_ [H1 [H2 H3]]]]. unfold known, old. destruct v as [i | a i]; cbn; [| destruct a; cbn; lia].
  destruct Ht as [[r E] _]. rewrite E, lenN_app. lia.
Qed.
Lemma kn_ext : forall s s' x, ext s s' -> kn s x -> kn s' x.
Proof. intros s s' x He H u Hu. eapply known_ext; eauto. Qed.
Lemma hdl_ext : forall s s' h x, ext s s' -> hdl s h x -> hdl s' h x.
Proof. intros s s' h x He [Hv [Hd Hk]]. split; [eapply vh_ext; eauto |]. split; [eapply denotes_ext; eauto | eapply kn_ext; eauto]. Qed.
Lemma hdls_ext : forall s s' l xs, ext s s' -> Forall2 (hdl s) l xs -> Forall2 (hdl s') l xs.
Proof. intros s s' l xs He H. induction H; constructor; auto. eapply hdl_ext; eauto. Qed.
Lemma kn_incl : forall s x y, kn s x -> incl (fvars y) (fvars x) -> kn s y.
Proof. intros s x y H Hi u Hu. auto. Qed.

(** A formula only depends on the variables that occur in it. *)
Lemma count_true_fvars : forall v w vs, (forall u, In u vs -> w u = v u) -> count_true w vs = count_true v vs.
Proof.
  intros v w vs. induction vs as [| a vs IH]; intros H; cbn [count_true]; [reflexivity |]. rewrite (H a) by (left; reflexivity).
  rewrite IH; [reflexivity |]. intros u Hu. apply H. right. assumption.
Qed.
Lemma lit_sem_var : forall v w l, w (lit_var l) = v (lit_var l) -> lit_sem w l = lit_sem v l.
Proof. intros v w [u p] H. cbn in *. now rewrite H. Qed.
Lemma weight_fvars : forall v w ls cs, (forall l, In l ls -> w (lit_var l) = v (lit_var l)) -> weight w ls cs = weight v ls cs.
Proof.
  intros v w ls. induction ls as [| a ls IH]; intros [| c cs] H; cbn [weight]; try reflexivity.
  rewrite (lit_sem_var v w a) by (apply H; left; reflexivity). rewrite IH; [reflexivity |]. intros l Hl. apply H. right. assumption.
Qed.
Lemma sem_fvars : forall x v w, (forall u, In u (fvars x) -> w u = v u) -> sem w x = sem v x.
Proof.
  induction x using fml_ind2; intros v w Hag; cbn [sem]; try reflexivity.
  - apply lit_sem_var. apply Hag. unfold fvars. cbn. left. reflexivity.
  - rewrite (IHx v w); [reflexivity | assumption].
  - unfold fvars in Hag. cbn [leaves] in Hag.
    induction H as [| y l Hy Hl IH]; cbn [forallb]; [reflexivity |]. cbn [flat_map] in Hag. rewrite flat_map_app in Hag. rewrite (Hy v w).
    + f_equal. apply IH. intros u Hu. apply Hag. apply in_or_app. right. assumption.
    + intros u Hu. apply Hag. apply in_or_app. left. assumption.
  - unfold fvars in Hag. cbn [leaves] in Hag.
    induction H as [| y l Hy Hl IH]; cbn [existsb]; [reflexivity |]. cbn [flat_map] in Hag. rewrite flat_map_app in Hag. rewrite (Hy v w).
    + f_equal. apply IH. intros u Hu. apply Hag. apply in_or_app. right. assumption.
    + intros u Hu. apply Hag. apply in_or_app. left. assumption.
  - unfold fvars in Hag. cbn [leaves] in Hag. rewrite flat_map_app in Hag. rewrite (IHx1 v w), (IHx2 v w); [reflexivity | |];
      intros u Hu; apply Hag; apply in_or_app; auto.
  - unfold fvars in Hag. cbn [leaves] in Hag. rewrite flat_map_app in Hag. rewrite (IHx1 v w), (IHx2 v w); [reflexivity | |];
      intros u Hu; apply Hag; apply in_or_app; auto.
  - unfold cc_sem. rewrite (count_true_fvars v w); [reflexivity |]. intros u Hu. apply Hag. unfold fvars. cbn. now rewrite app_nil_r.
  - unfold pbc_sem. rewrite (weight_fvars v w); [reflexivity |]. intros l Hl. apply Hag. unfold fvars. cbn. rewrite app_nil_r. apply in_map. assumption.
Qed.

Lemma refines_sub : forall W W' x y, sub W' W -> refines W x y -> refines W' x y.
Proof. intros W W' x y Hs [H1 [H2 H3]]. split; [assumption |]. split; [| assumption]. intros v Hv. apply H2. auto. Qed.
Lemma P_nnf_sub : forall W W' x y, sub W' W -> P_nnf W x y -> P_nnf W' x y.
Proof. intros W W' x y Hs [H1 H2]. split; [eapply refines_sub; eauto | assumption]. Qed.
Lemma P_cnf_sub : forall W W' x y, sub W' W -> P_cnf W x y -> P_cnf W' x y.
Proof. intros W W' x y Hs [H1 H2]. split; [eapply refines_sub; eauto | assumption]. Qed.
Lemma P_dnf_sub : forall W W' x y, sub W' W -> P_dnf W x y -> P_dnf W' x y.
Proof. intros W W' x y Hs [H1 H2]. split; [eapply refines_sub; eauto | assumption]. Qed.
Lemma P_bb_sub : forall W W' x y, sub W' W -> P_bb W x y -> P_bb W' x y.
Proof.
  intros W W' x y Hs (H1 & H2 & H3 & H4 & H5). split; [exact H1 |]. split; [auto |]. split; [exact H3 |]. split; [exact H4 |].
  intros u b Hu (v & Hw & Hv). apply H5; [exact Hu |]. exists v. auto.
Qed.
Lemma enc_of_sub : forall W W' x ys, sub W' W -> enc_of W x ys -> enc_of W' x ys.
Proof. intros W W' x ys Hs [H1 [H2 H3]]. split; [assumption |]. split; [assumption |]. intros v Hv. apply H3. auto. Qed.

Lemma e_tree_ext : forall V (P : fml -> V -> Prop) s s' h v, ext s s' -> e_tree P s h v -> e_tree P s' h v.
Proof. intros V P s s' h v He [x [Hv [Hd Hp]]]. exists x. split; [eapply vh_ext; eauto |]. split; [eapply denotes_ext; eauto | assumption]. Qed.
Lemma e_form_ext : forall (P : world -> fml -> fml -> Prop) W W' s s' h r, (forall x y, P W x y -> P W' x y) -> ext s s' -> e_form P W s h r -> e_form P W' s' h r.
Proof. intros P W W' s s' h r Hp He [x [y [H1 [H2 H3]]]]. exists x, y. split; [eapply hdl_ext; eauto |]. split; [eapply hdl_ext; eauto | auto]. Qed.
Lemma e_sat_ext : forall W W' s s' h b, sub W' W -> ext s s' -> e_sat W s h b -> e_sat W' s' h b.
Proof. intros W W' s s' h b Hs He [x [H1 H2]]. exists x. split; [eapply hdl_ext; eauto |]. destruct b; cbn in *; auto. Qed.
Lemma e_enc_ext : forall W W' s s' h l, sub W' W -> ext s s' -> e_enc W s h l -> e_enc W' s' h l.
Proof.
  intros W W' s s' h l Hs He [x [ys [H1 [H2 H3]]]]. exists x, ys. split; [eapply hdl_ext; eauto |]. split; [eapply hdls_ext; eauto |].
  eapply enc_of_sub; eauto.
Qed.

Lemma below_vh : forall s h k, wf s -> vh s h -> below s h k -> vh s k.
Proof.
  intros s h k Hw Hv H. induction H as [| k n o H IH Hu Ho]; [assumption |].
  pose proof (vh_node s k n Hw IH Hu) as Hf. rewrite Forall_forall in Hf. auto.
Qed.
Lemma below_ext : forall s s' h k, wf s -> ext s s' -> vh s h -> (below s' h k <-> below s h k).
Proof.
  intros s s' h k Hw He Hv. split; intros H.
  - induction H as [| k n o H IH Hu Ho]; [constructor |]. eapply below_step; [exact IH | | exact Ho].
    eapply unpack_back; eauto. eapply below_vh; eauto.
  - induction H as [| k n o H IH Hu Ho]; [constructor |]. eapply below_step; [exact IH | | exact Ho]. eapply unpack_ext; [apply He | exact Hu].
Qed.
Lemma sub_list_ext : forall s s' h l, wf s -> ext s s' -> vh s h -> sub_list s h l -> sub_list s' h l.
Proof.
  intros s s' h l Hw He Hv [H1 [H2 [H3 H4]]]. split; [assumption |]. split; [assumption |]. split.
  - intros k. rewrite H3. symmetry. apply below_ext; assumption.
  - intros a k b n o E Hu Ho. eapply H4; eauto. eapply unpack_back; eauto. eapply below_vh; eauto. apply H3. rewrite E.
    apply in_or_app. right. left. reflexivity.
Qed.

Lemma caches_ok_ext : forall W W' s s' c, wf s -> sub W' W -> ext s s' -> caches_ok W s c -> caches_ok W' s' c.
Proof.
  intros W W' s s' c Hw Hs He [].
  constructor; intros h v Hg;
    repeat match goal with H : centry _ _ |- _ => first [specialize (H h v Hg) | clear H] end;
    first [ eapply e_tree_ext; eassumption
          | eapply e_enc_ext; eassumption
          | eapply e_sat_ext; eassumption
          | eapply e_form_ext; [| eassumption | eassumption]; intros; eauto using P_nnf_sub, P_cnf_sub, P_dnf_sub, P_bb_sub
          | idtac ].
  destruct co_sub0 as [H1 H2]. split; [eapply vh_ext; eauto | eapply sub_list_ext; eauto].
Qed.

Lemma world_ok_ext : forall W s s', ext s s' -> world_ok W s -> world_ok W s'.
Proof.
  intros W s s' He [H1 H2]. split; [assumption |]. intros v w Hv Hag. apply (H2 v w Hv). intros u Hu. apply Hag. eapply known_ext; eauto.
Qed.

Lemma core_caches : forall s s', core s s' -> set_is_cnf (f_caches s') [] = set_is_cnf (f_caches s) [].
Proof. intros s s' H. apply H. Qed.

(** The cache of [is_cnf] is covered by [wf]. *)
Lemma caches_ok_cnf : forall W s c c', set_is_cnf c' [] = set_is_cnf c [] -> caches_ok W s c -> caches_ok W s c'.
Proof. intros W s [] [] E []. unfold set_is_cnf in E. cbn in E. injection E as -> -> -> -> -> -> -> -> -> -> -> -> -> -> -> ->. constructor; assumption. Qed.

Lemma inv_core : forall W s s', inv W s -> wf s' -> core s s' -> inv W s'.
Proof.
  intros W s s' [Hw Ho Hc] Hw' Hcore. constructor; [assumption | |].
  - eapply world_ok_ext; [apply core_ext; eassumption | assumption].
  - apply (caches_ok_cnf _ _ (f_caches s)); [now apply core_caches |].
    apply (caches_ok_ext W W s s'); [assumption | apply sub_refl | now apply core_ext | assumption].
Qed.

(* ------------------------------------------------------------------------------------------------------------------ *)
(** * The logic *)

Definition xspec {A} (W : world) (s : factory) (m : M A) (Q : A -> factory -> world -> Prop) : Prop :=
  size_le s (snd (m s))
  /\ (cap (snd (m s)) -> exists a W', fst (m s) = Ok a /\ inv W' (snd (m s)) /\ sub W' W /\ ext s (snd (m s)) /\ Q a (snd (m s)) W').

Lemma x_ret : forall A W s (a : A) (Q : A -> factory -> world -> Prop), inv W s -> Q a s W -> xspec W s (ret a) Q.
Proof. intros. split; [apply size_le_refl |]. intros _. exists a, W. cbn. auto using sub_refl, ext_refl. Qed.

Lemma x_lift : forall A W s (r : factory -> res A) a (Q : A -> factory -> world -> Prop), r s = Ok a -> inv W s -> Q a s W -> xspec W s (lift r) Q.
Proof. intros A W s r a Q Hr Hi HQ. split; [apply size_le_refl |]. intros _. exists a, W. cbn. rewrite Hr. auto using sub_refl, ext_refl. Qed.

Lemma x_bind : forall A B W s (m : M A) (k : A -> M B) Q1 Q, xspec W s m Q1 -> (forall a, mono (k a)) ->
  (forall a s1 W1, inv W1 s1 -> ext s s1 -> sub W1 W -> Q1 a s1 W1 -> xspec W1 s1 (k a) Q) -> xspec W s (bind m k) Q.
Proof.
  intros A B W s m k Q1 Q [Hm1 Hm2] Hmono Hk. unfold xspec, bind.
  destruct (m s) as [o s1] eqn:E; cbn [fst snd] in *.
  destruct o as [a | | ]; cbn [fst snd].
  - split.
    + eapply size_le_trans; [exact Hm1 | apply Hmono].
    + intros Hc. assert (Hc1 : cap s1) by (eapply cap_le; [apply (Hmono a) | exact Hc]).
      destruct (Hm2 Hc1) as [a' [W1 [Ha [HI [HR [He HQ]]]]]]. injection Ha as <-.
      destruct (Hk a s1 W1 HI He HR HQ) as [_ Hk2]. destruct (Hk2 Hc) as [b [W2 [Hb [HIb [HRb [Heb HQb]]]]]].
      exists b, W2. split; [assumption |]. split; [assumption |]. split; [eapply sub_trans; eauto |]. split; [eapply ext_trans; eauto | assumption].
  - split; [exact Hm1 |]. intros Hc. destruct (Hm2 Hc) as [a' [? [Ha _]]]. discriminate.
  - split; [exact Hm1 |]. intros Hc. destruct (Hm2 Hc) as [a' [? [Ha _]]]. discriminate.
Qed.

Lemma x_conseq : forall A W s (m : M A) (Q Q' : A -> factory -> world -> Prop), xspec W s m Q ->
  (forall a s' W', inv W' s' -> ext s s' -> sub W' W -> Q a s' W' -> Q' a s' W') -> xspec W s m Q'.
Proof.
  intros A W s m Q Q' [H1 H2] H. split; [assumption |]. intros Hc. destruct (H2 Hc) as [a [W' [? [? [? [? ?]]]]]]. exists a, W'.
  repeat (split; [assumption |]). apply H; auto.
Qed.

Lemma x_core : forall A W s (m : M A) Q, inv W s -> spec wf core s m Q ->
  xspec W s m (fun a s' W' => W' = W /\ core s s' /\ Q a s').
Proof.
  intros A W s m Q Hi [H1 H2]. split; [assumption |]. intros Hc. destruct (H2 Hc) as [a [Ha [Hw [Hco HQ]]]]. exists a, W.
  split; [assumption |]. split; [eapply inv_core; eauto |]. split; [apply sub_refl |]. split; [now apply core_ext | auto].
Qed.

(** A lookup followed by anything. *)
Lemma x_lift_bind : forall A B W s (r : factory -> res A) a (k : A -> M B) Q, r s = Ok a -> xspec W s (k a) Q -> xspec W s (bind (lift r) k) Q.
Proof. intros A B W s r a k Q Hr [H1 H2]. unfold xspec, bind, lift. rewrite Hr. split; assumption. Qed.
Lemma x_get_bind : forall V B W s (sel : op_caches -> list (N * V)) h (k : option V -> M B) Q,
  xspec W s (k (oc_get h (sel (f_caches s)))) Q -> xspec W s (bind (cache_get sel h) k) Q.
Proof. intros. unfold cache_get. eapply x_lift_bind; [reflexivity | assumption]. Qed.
Lemma x_unpack_bind : forall B W s h n (k : node -> M B) Q, unpack s h = Ok n -> xspec W s (k n) Q -> xspec W s (bind (unpackM h) k) Q.
Proof. intros. unfold unpackM. eapply x_lift_bind; eauto. Qed.

Lemma mono_put : forall on g, mono (cache_put on g).
Proof. intros on g s. unfold cache_put, modf. cbn [snd]. destruct (on _); [exact (size_le_refl s) | apply size_le_refl]. Qed.
Lemma mono_get : forall V (sel : op_caches -> list (N * V)) h, mono (cache_get sel h).
Proof. intros. apply mono_lift. Qed.
Lemma mono_unpackM : forall h, mono (unpackM h).
Proof. intros. apply mono_lift. Qed.
Lemma mono_operandsM : forall h, mono (operandsM h).
Proof. intros. apply mono_lift. Qed.
Global Hint Resolve mono_put mono_get mono_unpackM mono_operandsM : mono.

Lemma wf_caches : forall s c, wf s -> oc_is_cnf c = oc_is_cnf (f_caches s) -> wf (with_caches s c).
Proof.
  intros s c Hw E.
  assert (He : ext s (with_caches s c)).
  { unfold ext. cbn. split; [apply tabs_ext_refl |]. repeat split; lia. }
  apply wf_eta_caches; [assumption | |].
  - intros h Hh. rewrite E in Hh. apply (wf_cnf_keys s Hw) in Hh. split; [eapply vh_ext; [exact He | apply Hh] | apply Hh].
  - intros h x Hv Hd.
    assert (Hv0 : vh s h) by (destruct Hv; constructor; assumption).
    destruct (vh_denotes s h Hw Hv0) as [y Hy]. assert (Hy' : denotes (with_caches s c) h y) by (eapply denotes_ext; eauto).
    rewrite (denotes_fun _ _ _ _ Hd Hy'). rewrite <- (wf_cnf_exact s Hw h y Hv0 Hy). unfold is_cnf. cbn [with_caches f_caches f_config].
    rewrite E. reflexivity.
Qed.

Lemma x_put : forall W s on g (Q : unit -> factory -> world -> Prop), inv W s ->
  (forall c, oc_is_cnf (g c) = oc_is_cnf c) -> (caches_ok W s (f_caches s) -> caches_ok W s (g (f_caches s))) ->
  (forall s', ext s s' -> inv W s' -> Q tt s' W) -> xspec W s (cache_put on g) Q.
Proof.
  intros W s on g Q Hi Hcnf Hc HQ. split; [apply mono_put |]. intros Hcap. exists tt, W. split; [reflexivity |].
  assert (He : ext s (snd (cache_put on g s)) /\ inv W (snd (cache_put on g s))).
  { unfold cache_put, modf. cbn [snd]. destruct (on _); [| split; [apply ext_refl | assumption]].
    assert (He : ext s (with_caches s (g (f_caches s)))).
    { unfold ext. cbn. split; [apply tabs_ext_refl |]. repeat split; lia. }
    split; [exact He |]. destruct Hi as [Hw Ho Hco]. constructor.
    - apply wf_caches; auto.
    - eapply world_ok_ext; [exact He | exact Ho].
    - cbn [f_caches with_caches]. eapply caches_ok_ext; [exact Hw | apply sub_refl | exact He | auto]. }
  destruct He as [He Hi']. split; [assumption |]. split; [apply sub_refl |]. split; [assumption |]. apply HQ; auto.
Qed.

Lemma centry_insert : forall V (E : N -> V -> Prop) m h v, centry E m -> E h v -> centry E (oc_insert h v m).
Proof.
  intros V E m h v Hm He k w Hg. rewrite oc_insert_get in Hg. destruct (oc_get k m) eqn:G; [injection Hg as <-; now apply Hm |].
  destruct (N.eqb_spec k h); [| discriminate]. injection Hg as <-. now subst k.
Qed.

Ltac put_caches := intros []; constructor; cbn; try assumption; apply centry_insert; [assumption |].

Lemma x_put_end : forall A W s on g (r : A) (Q : A -> factory -> world -> Prop), inv W s ->
  (forall c, oc_is_cnf (g c) = oc_is_cnf c) -> (caches_ok W s (f_caches s) -> caches_ok W s (g (f_caches s))) ->
  (forall s', ext s s' -> inv W s' -> Q r s' W) -> xspec W s (bind (cache_put on g) (fun _ => ret r)) Q.
Proof.
  intros A W s on g r Q Hi Hcnf Hc HQ. eapply x_bind with (Q1 := fun _ s' W' => ext s s' /\ inv W s' /\ W' = W).
  - apply x_put; auto.
  - intros _. apply mono_ret.
  - intros _ s1 W1 Hi1 He Hs [_ [Hi' ->]]. apply x_ret; auto.
Qed.

(* ------------------------------------------------------------------------------------------------------------------ *)
(** * Loops over operands *)

(** The immediate sub-trees. *)
Definition children (x : fml) : list fml :=
  match x with FNot a => [a] | FAnd l | FOr l => l | FImpl a b | FEquiv a b => [a; b] | _ => [] end.

Lemma denotes_children : forall s h n x, unpack s h = Ok n -> denotes s h x -> Forall2 (denotes s) (node_operands n) (children x).
Proof.
  intros s h n x Hu Hd. pose proof (denotes_by_node _ _ _ _ Hu Hd) as H.
  destruct n; cbn [node_operands]; try (subst x; constructor).
  - destruct H as [y [-> H]]. repeat constructor; assumption.
  - destruct H as [ys [-> H]]. exact H.
  - destruct H as [ys [-> H]]. exact H.
  - destruct H as [y [z [-> [H1 H2]]]]. repeat constructor; assumption.
  - destruct H as [y [z [-> [H1 H2]]]]. repeat constructor; assumption.
Qed.
Lemma children_depth : forall x y, In y (children x) -> (depth y < depth x)%nat.
Proof.
  intros x y H. destruct x; cbn [children] in H; try (destruct H; fail); cbn [depth].
  - destruct H as [<- | []]. lia.
  - apply depth_in in H. lia.
  - apply depth_in in H. lia.
  - destruct H as [<- | [<- | []]]; lia.
  - destruct H as [<- | [<- | []]]; lia.
Qed.
Lemma children_kn : forall s x y, kn s x -> In y (children x) -> kn s y.
Proof.
  intros s x y H Hy u Hu. apply H. unfold fvars in *. apply in_flat_map in Hu. destruct Hu as [lf [Hlf Hu]]. apply in_flat_map.
  exists lf. split; [| assumption]. destruct x; cbn [children] in Hy; try (destruct Hy; fail); cbn [leaves].
  - destruct Hy as [<- | []]. assumption.
  - apply in_flat_map. eauto.
  - apply in_flat_map. eauto.
  - apply in_or_app. destruct Hy as [<- | [<- | []]]; auto.
  - apply in_or_app. destruct Hy as [<- | [<- | []]]; auto.
Qed.

Lemma mono_mfold : forall A B (k : A -> B -> M B) l b, (forall a b, mono (k a b)) -> mono (mfold k l b).
Proof. intros A B k l. induction l as [| a l IH]; intros b H; cbn [mfold]; [apply mono_ret |]. apply mono_bind; [apply H |]. intros b'. apply IH. assumption. Qed.
Lemma mono_mall : forall k l, (forall a, mono (k a)) -> mono (mall k l).
Proof. intros k l H. induction l as [| a l IH]; cbn [mall]; [apply mono_ret |]. apply mono_bind; [apply H |]. intros []; [assumption | apply mono_ret]. Qed.
Lemma mono_mmap : forall A B (k : A -> M B) l, (forall a, mono (k a)) -> mono (mmap k l).
Proof. intros A B k l H. induction l as [| a l IH]; cbn [mmap]; [apply mono_ret |]. apply mono_bind; [apply H |]. intros b. apply mono_bind; [assumption |]. intros. apply mono_ret. Qed.

Lemma x_mfold : forall A B (k : A -> B -> M B) (I : list A -> B -> factory -> world -> Prop) l done W s b,
  inv W s -> (forall a b, mono (k a b)) -> I done b s W ->
  (forall d a b t W', In a l -> inv W' t -> ext s t -> sub W' W -> I d b t W' -> xspec W' t (k a b) (I (d ++ [a]))) ->
  xspec W s (mfold k l b) (I (done ++ l)).
Proof.
  intros A B k I l. induction l as [| a l IH]; intros done W s b Hi Hm HI H; cbn [mfold].
  - rewrite app_nil_r. apply x_ret; assumption.
  - eapply x_bind; [apply H; eauto using ext_refl, sub_refl; left; reflexivity | intros; apply mono_mfold; assumption |].
    intros b' s1 W1 Hi1 He Hs HI1. replace (done ++ a :: l) with ((done ++ [a]) ++ l) by (rewrite <- app_assoc; reflexivity).
    apply IH; auto. intros d c b2 t W2 Hin Hi2 He2 Hs2 HI2. apply H; auto; [right; assumption | eapply ext_trans; eauto | eapply sub_trans; eauto].
Qed.

(** A loop whose result depends on the trees of the operands only. *)
Lemma x_mfold_trees : forall B (k : N -> B -> M B) (R : list fml -> B -> Prop) ops xs done W s b,
  inv W s -> (forall a b, mono (k a b)) -> Forall (vh s) ops -> Forall2 (denotes s) ops xs -> R done b ->
  (forall d o x b t W', In x xs -> inv W' t -> ext s t -> vh t o -> denotes t o x -> R d b ->
     xspec W' t (k o b) (fun b' _ _ => R (d ++ [x]) b')) ->
  xspec W s (mfold k ops b) (fun b' _ _ => R (done ++ xs) b').
Proof.
  intros B k R ops. induction ops as [| o ops IH]; intros xs done W s b Hi Hm Hv Hd HR H; cbn [mfold].
  - inversion Hd; subst. rewrite app_nil_r. apply x_ret; assumption.
  - inversion Hd as [| ? x ? xs' Hx Hd']; subst. inversion Hv; subst.
    eapply x_bind; [apply (H done o x); auto using ext_refl; left; reflexivity | intros; apply mono_mfold; assumption |].
    intros b' s1 W1 Hi1 He Hs HI1. replace (done ++ x :: xs') with ((done ++ [x]) ++ xs') by (rewrite <- app_assoc; reflexivity).
    cbn beta in HI1. apply IH; auto.
    + eapply Forall_vh_ext; eauto.
    + clear -Hd' He. induction Hd'; constructor; auto. eapply denotes_ext; eauto.
    + intros d c y b2 t W2 Hin Hi2 He2 Hv2 Hd2 HR2. apply H; auto; [right; assumption | eapply ext_trans; eauto].
Qed.

Lemma x_mall : forall (k : N -> M bool) (f : fml -> bool) ops xs W s, inv W s -> (forall a, mono (k a)) ->
  Forall (vh s) ops -> Forall2 (denotes s) ops xs ->
  (forall o x t W', In x xs -> inv W' t -> ext s t -> vh t o -> denotes t o x -> xspec W' t (k o) (fun b _ _ => b = f x)) ->
  xspec W s (mall k ops) (fun b _ _ => b = forallb f xs).
Proof.
  intros k f ops. induction ops as [| o ops IH]; intros xs W s Hi Hm Hv Hd H; inversion Hd as [| ? x ? xs' Hx Hd']; subst; cbn [mall].
  - apply x_ret; [assumption | reflexivity].
  - inversion Hv; subst.
    eapply x_bind; [apply (H o x); auto using ext_refl; left; reflexivity | intros []; [apply mono_mall; assumption | apply mono_ret] |].
    intros b s1 W1 Hi1 He Hs ->. cbn [forallb]. destruct (f x); cbn [andb]; [| apply x_ret; auto].
    apply IH; auto.
    + eapply Forall_vh_ext; eauto.
    + clear -Hd' He. induction Hd'; constructor; auto. eapply denotes_ext; eauto.
    + intros c y t W2 Hin Hi2 He2 Hv2 Hd2. apply H; auto; [right; assumption | eapply ext_trans; eauto].
Qed.
