(** The DNNF compiler in runs without a conflict: the result is a deterministic decomposable form equivalent to the clauses. *)
From Coq Require Import NArith List Bool Arith Lia Permutation.
From Verif Require Import Base EncodingModel Syntax FactoryModel FactoryInv FactoryBasics FactoryProofs FactorySpecs FactoryNary
  FactoryOps OpsModel OpsProofs CacheModel TransModel WorldProofs MetricsProofs NnfProofs DefBasics XHistoryProofs DnnfSpec DnnfCompTree
  Vec SatSpec SatModel SatBasics SatInv SatProp SatExact MiniModel DnnfCompModel DnnfCompVal DnnfCompSat.
From Verif Require SorterProofs.
Import ListNotations.
Local Open Scope nat_scope.

Lemma bind_cap : forall A B (m : M A) (k : A -> M B) s r s', bind m k s = (Ok r, s') -> (forall a, mono (k a)) -> cap s' ->
  exists a s1, m s = (Ok a, s1) /\ cap s1 /\ k a s1 = (Ok r, s').
Proof.
  intros A B m k s r s' E Hm Hc. unfold bind in E. destruct (m s) as [[a | |] s1]; try discriminate. exists a, s1. split; [reflexivity |]. split; [| exact E].
  eapply cap_le; [| exact Hc]. pose proof (Hm a s1) as K. rewrite E in K. exact K.
Qed.
Lemma bind_lift : forall A B (x : res A) (k : A -> M B) s r s', bind (lift (fun _ => x)) k s = (Ok r, s') -> exists a, x = Ok a /\ k a s = (Ok r, s').
Proof. intros A B x k s r s' E. unfold bind, lift in E. destruct x as [a | |]; try discriminate. exists a. auto. Qed.
Lemma mmap_lift : forall A B (g : A -> res B) (f : A -> B) l s r s', (forall x, In x l -> g x = Ok (f x)) -> mmap (fun x => lift (fun _ => g x)) l s = (Ok r, s') -> r = map f l /\ s' = s.
Proof.
  intros A B g f l. induction l as [| x l IH]; intros s r s' H E; cbn [mmap] in E; [injection E as <- <-; auto |].
  apply bind_lift in E. destruct E as (y & E1 & E). rewrite H in E1 by (left; auto). injection E1 as <-. unfold bind in E. destruct (mmap _ l s) as [[ys | |] s1] eqn:E2; try discriminate. injection E as <- <-.
  destruct (IH s ys s1) as [-> ->]; auto. intros z Hz. apply H. right. auto.
Qed.
Lemma mono_newly_implied : forall known d, mono (newly_implied known d).
Proof. intros. unfold newly_implied. apply mono_bind; [apply mono_mmap; intros; apply mono_lift |]. intros. apply mono_bind; [apply mono_f_nary | intros; apply mono_ret]. Qed.
Lemma mono_leaf_ops : forall names val ls cur ops, mono (leaf_ops names val ls cur ops).
Proof.
  intros names val. induction ls as [| l ls IH]; intros cur ops; cbn [leaf_ops]; [apply mono_f_nary |]. destruct (val l) as [[|] |]; [apply mono_ret | apply IH |].
  apply mono_bind; [apply mono_lift |]. intros x. apply mono_bind; [apply mono_f_nary |]. intros a. apply mono_bind; [apply mono_f_negate |]. intros nx. apply IH.
Qed.
Section Mono.
  Variables (orc : oracle) (fuel : nat) (lits : list (list nat)) (nv : nat) (rec : dtree -> comp -> M (N * comp)).
  Hypothesis Hr : forall t c, mono (rec t c).
  Lemma mono_cnf_aux : forall t c, mono (cnf_aux lits nv rec t c).
  Proof.
    intros [n | l r] c; cbn [cnf_aux]; [apply mono_bind; [apply mono_leaf_ops | intros; apply mono_ret] |]. destruct (cache_lookup _ _); [apply mono_ret |]. apply mono_bind; [apply Hr | intros; apply mono_ret].
  Qed.
  Lemma mono_conjoin : forall i l r c, mono (conjoin lits nv rec i l r c).
  Proof.
    intros i l r c. unfold conjoin. destruct (is_falsum i); [apply mono_ret |]. apply mono_bind; [apply mono_cnf_aux |]. intros p. destruct (is_falsum (fst p)); [apply mono_ret |]. apply mono_bind; [apply mono_cnf_aux |]. intros q.
    destruct (is_falsum (fst q)); [apply mono_ret |]. apply mono_bind; [apply mono_f_nary | intros; apply mono_ret].
  Qed.
  Lemma mono_branch : forall t v ph c, mono (branch orc fuel rec t v ph c).
  Proof.
    intros t v ph c. unfold branch. apply mono_bind; [apply mono_lift |]. intros q. apply mono_bind; [destruct (fst q); [apply Hr | apply mono_ret] |]. intros p. apply mono_bind; [apply mono_lift | intros; apply mono_ret].
  Qed.
  Lemma mono_retry : forall t c, mono (retry orc fuel rec t c).
  Proof. intros t c. unfold retry. destruct (at_assertion_level _); [| apply mono_ret]. apply mono_bind; [apply mono_lift |]. intros q. destruct (fst q); [apply Hr | apply mono_ret]. Qed.
End Mono.
Lemma mono_cnf2ddnnf : forall orc fuel lits nv n t c, mono (cnf2ddnnf orc fuel lits nv n t c).
Proof.
  intros orc fuel lits nv. induction n as [| n IH]; intros t c; cbn [cnf2ddnnf]; [intros s; apply size_le_refl |]. apply mono_bind; [apply mono_newly_implied |]. intros i. cbv zeta. destruct (separator _ _ _ _) as [| w sep].
  - destruct t as [k | l r]; [| apply mono_conjoin; exact IH]. apply mono_bind; [apply mono_leaf_ops |]. intros lf. apply mono_bind; [apply mono_f_nary | intros; apply mono_ret].
  - apply mono_bind; [apply mono_lift |]. intros v. apply mono_bind; [apply mono_branch; exact IH |]. intros p. destruct (is_falsum (fst p)); [apply mono_retry; exact IH |].
    apply mono_bind; [apply mono_branch; exact IH |]. intros q. destruct (is_falsum (fst q)); [apply mono_retry; exact IH |]. apply mono_bind; [apply mono_lift |]. intros x. apply mono_bind; [apply mono_f_negate |]. intros nx.
    apply mono_bind; [apply mono_f_nary |]. intros pb. apply mono_bind; [apply mono_f_nary |]. intros nb. apply mono_bind; [apply mono_f_nary |]. intros sh. apply mono_bind; [apply mono_f_nary | intros; apply mono_ret].
Qed.

(** * The number of conflicts does not decrease *)
Definition confl (c : comp) : nat := ds_confl (cp_ds c).
Lemma bind_run : forall A B (m : M A) (k : A -> M B) s r s', bind m k s = (Ok r, s') -> exists a s1, m s = (Ok a, s1) /\ k a s1 = (Ok r, s').
Proof. intros A B m k s r s' E. unfold bind in E. destruct (m s) as [[a | |] s1]; try discriminate. exists a, s1. auto. Qed.
Ltac brun E a s1 E1 := apply bind_run in E; destruct E as (a & s1 & E1 & E).
Lemma newly_implied_confl : forall known d s r s', newly_implied known d s = (Ok r, s') -> snd r = mkDs (ds_s d) (ds_names d) false (ds_asrt d) (ds_last d) (ds_confl d).
Proof. intros known d s r s' E. unfold newly_implied in E. brun E ops s1 E1. brun E x s2 E2. injection E as <- <-. reflexivity. Qed.
Lemma assert_confl : forall orc fuel d b d1, assert_cd_literal orc fuel d = Ok (b, d1) -> ds_confl d <= ds_confl d1.
Proof.
  intros orc fuel d b d1 E. unfold assert_cd_literal in E. destruct (negb (at_assertion_level d)); [discriminate |]. destruct (ds_last d) as [cl |]; cbn [of_opt rbind] in E; [| discriminate].
  match goal with H : rbind ?X _ = Ok _ |- _ => destruct X as [s3 | |]; cbn [rbind] in H; try discriminate end.
  unfold propagate_after_decide in E. cbn [ds_s] in E. destruct (propagate fuel s3) as [[[c |] s4] | |]; cbn [rbind] in E; try discriminate; [| injection E as <- <-; cbn; lia].
  destruct (handle_conflict orc fuel c _) as [d2 | |] eqn:H; cbn [rbind] in E; try discriminate. injection E as <- <-. unfold handle_conflict in H. destruct (0 <? _).
  - destruct (analyze _ _ _ _ _) as [[cl' s5] | |]; cbn [rbind] in H; try discriminate. injection H as <-. cbn. lia.
  - destruct (cancel_until _ _) as [s5 | |]; cbn [rbind] in H; try discriminate. injection H as <-. cbn. lia.
Qed.
Lemma undo_confl : forall v d d1, ds_undo v d = Ok d1 -> ds_confl d1 = ds_confl d.
Proof. intros v d d1 E. unfold ds_undo in E. destruct (v_lvl _) as [[| k] |]; try discriminate. destruct (cancel_until _ _); cbn [rbind] in E; try discriminate. injection E as <-. reflexivity. Qed.
Section Confl.
  Variables (orc : oracle) (fuel : nat) (lits : list (list nat)) (nv : nat) (rec : dtree -> comp -> M (N * comp)).
  Hypothesis Hr : forall t c s r s', rec t c s = (Ok r, s') -> confl c <= confl (snd r).
  Lemma confl_aux : forall t c s r s', cnf_aux lits nv rec t c s = (Ok r, s') -> confl c <= confl (snd r).
  Proof.
    intros [n | x y] c s r s' E; cbn [cnf_aux] in E; [brun E a s1 E1; injection E as <- <-; reflexivity |]. cbv zeta in E. destruct (cache_lookup _ _); [injection E as <- <-; reflexivity |].
    brun E a s1 E1. injection E as <- <-. apply Hr in E1. cbn [snd]. destruct (is_falsum (fst a)); exact E1.
  Qed.
  Lemma confl_conjoin : forall i x y c s r s', conjoin lits nv rec i x y c s = (Ok r, s') -> confl c <= confl (snd r).
  Proof.
    intros i x y c s r s' E. unfold conjoin in E. destruct (is_falsum i); [injection E as <- <-; reflexivity |]. brun E p s1 E1. apply confl_aux in E1. destruct (is_falsum (fst p)); [injection E as <- <-; exact E1 |].
    brun E q s2 E2. apply confl_aux in E2. destruct (is_falsum (fst q)); [injection E as <- <-; lia |]. brun E h s3 E3. injection E as <- <-. cbn [snd]. lia.
  Qed.
  Lemma confl_branch : forall t v ph c s r s', branch orc fuel rec t v ph c s = (Ok r, s') -> exists b d1, ds_decide orc fuel v ph (cp_ds c) = Ok (b, d1) /\ ds_confl d1 <= confl (snd r) /\ confl c <= confl (snd r).
  Proof.
    intros t v ph c s r s' E. unfold branch in E. apply bind_lift in E. destruct E as ([b d1] & E1 & E). exists b, d1. split; auto. cbn [fst snd] in E. pose proof (decide_conflict orc fuel v ph (cp_ds c) b d1 E1) as K.
    brun E p s2 E2. apply bind_lift in E. destruct E as (d & E3 & E). injection E as <- <-. apply undo_confl in E3. unfold confl in *. unfold set_ds. cbn [snd cp_ds]. rewrite E3.
    assert (L : ds_confl d1 <= ds_confl (cp_ds (snd p))). { destruct b; [apply Hr in E2; unfold confl in E2; cbn [set_ds cp_ds] in E2; exact E2 | injection E2 as <- <-; reflexivity]. }
    split; [exact L | destruct b; lia].
  Qed.
  Lemma confl_retry : forall t c s r s', retry orc fuel rec t c s = (Ok r, s') -> confl c <= confl (snd r).
  Proof.
    intros t c s r s' E. unfold retry in E. destruct (at_assertion_level _); [| injection E as <- <-; reflexivity]. apply bind_lift in E. destruct E as ([b d] & E1 & E). apply assert_confl in E1. cbn [fst snd] in E. destruct b.
    - apply Hr in E. unfold confl in *. cbn [set_ds cp_ds] in E. lia.
    - injection E as <- <-. exact E1.
  Qed.
End Confl.
Lemma confl_mono : forall orc fuel lits nv n t c s r s', cnf2ddnnf orc fuel lits nv n t c s = (Ok r, s') -> confl c <= confl (snd r).
Proof.
  intros orc fuel lits nv. induction n as [| n IH]; intros t c s r s' E; [discriminate |]. cbn [cnf2ddnnf] in E. brun E i s1 E1. cbv zeta in E. apply newly_implied_confl in E1.
  set (c0 := set_ds (snd i) c) in *. assert (K : confl c0 = confl c) by (unfold c0, confl; cbn [set_ds cp_ds]; rewrite E1; reflexivity). destruct (separator _ _ _ _) as [| w sep].
  - destruct t as [k | x y]; [| apply confl_conjoin in E; [lia | exact IH]]. brun E lf s2 E2. brun E h s3 E3. injection E as <- <-. cbn [snd]. lia.
  - apply bind_lift in E. destruct E as (v & _ & E). brun E p s2 E2. apply confl_branch in E2; [| exact IH]. destruct E2 as (_ & _ & _ & _ & K2). destruct (is_falsum (fst p)); [apply confl_retry in E; [lia | exact IH] |].
    brun E q s3 E3. apply confl_branch in E3; [| exact IH]. destruct E3 as (_ & _ & _ & _ & K3). destruct (is_falsum (fst q)); [apply confl_retry in E; [lia | exact IH] |].
    apply bind_lift in E. destruct E as (x & _ & E). brun E nx s4 E4. brun E pb s5 E5. brun E nb s6 E6. brun E sh s7 E7. brun E h s8 E8. injection E as <- <-. cbn [snd]. lia.
Qed.

(* ------------------------------------------------------------------------------------------------------------------ *)
Lemma NoDup_app_remove_l : forall A (l r : list A), NoDup (l ++ r) -> NoDup r.
Proof. intros A l r. induction l as [| a l IH]; [auto |]. cbn [app]. intros H. inversion H. auto. Qed.
Lemma ok_inj : forall A (a b : A), Ok a = Ok b -> b = a.
Proof. congruence. Qed.
Lemma okp_inj : forall A B (a b : A) (s t : B), (Ok a, s) = (Ok b, t) -> b = a /\ t = s.
Proof. intros. split; congruence. Qed.
Local Notation finv := WorldProofs.inv.
Section Main.
  Variables (orc : oracle) (fuel : nat) (lits : list (list nat)) (nv : nat) (names : list var) (F : list (list nat)).
  Hypothesis Nn : NoDup names.
  Hypothesis Hl : forall i l, In l (leaf lits i) -> lvar l < length names.
  Hypothesis Hnv : length names <= nv.
  Hypothesis Nl : forall i, NoDup (map lvar (leaf lits i)).
  Hypothesis F1 : forall C, In C F -> exists j, j < length lits /\ leaf lits j = C.
  Hypothesis F2 : forall j, j < length lits -> In (leaf lits j) F.

  Definition lit_of (l : nat) : lit := Lit (nth (lvar l) names (VFF 0)) (negb (lsign l)).
  Definition Vn (v : valuation) (l : nat) : bool := lit_sem v (lit_of l).
  Lemma lit_of_neg : forall l, lit_of (lneg l) = lit_negate (lit_of l).
  Proof. intros l. unfold lit_of. rewrite lneg_var, lneg_sign. reflexivity. Qed.
  Lemma Vn_ok : forall v, Vok (Vn v).
  Proof. intros v l. unfold Vn. rewrite lit_of_neg. unfold lit_of. cbn. destruct (lsign l); cbn; destruct (v _); reflexivity. Qed.
  Lemma itl : forall l, lvar l < length names -> int_to_literal names l = Ok (encode_lit (lit_of l)).
  Proof. intros l H. unfold int_to_literal, name_of. rewrite (nth_error_nth' _ (VFF 0) H). reflexivity. Qed.
  Lemma lit_of_nth : forall l, lvar l < length names -> nth_error names (lvar l) = Some (lit_var (lit_of l)).
  Proof. intros l H. apply nth_error_nth'. exact H. Qed.
  Definition kn_names (s : factory) : Prop := forall u, In u names -> known s u.
  Lemma kn_names_ext : forall s s', ext s s' -> kn_names s -> kn_names s'.
  Proof. intros s s' E H u Hu. eapply known_ext; eauto. Qed.
  Lemma hdl_of : forall s l, wf s -> kn_names s -> lvar l < length names -> hdl s (encode_lit (lit_of l)) (FLit (lit_of l)).
  Proof. intros s l Hw Hk H. apply hdl_lit; [exact Hw |]. apply Hk. eapply nth_error_In. apply lit_of_nth. exact H. Qed.
  Lemma negate_of : forall s l, wf s -> kn_names s -> lvar l < length names -> f_negate (encode_lit (lit_of l)) s = (Ok (encode_lit (lit_of (lneg l))), s).
  Proof.
    intros s l Hw Hk H. pose proof (hdl_of s l Hw Hk H) as (_ & Hd & _). apply denotes_inv in Hd. unfold f_negate, bind, lift. rewrite Hd, lit_of_neg. reflexivity.
  Qed.

  Definition invars (P : nat -> Prop) (y : fml) : Prop := forall u, In u (fvars y) -> exists k, P k /\ nth_error names k = Some u.
  Lemma invars_disjoint : forall P Q a b, invars P a -> invars Q b -> (forall k, P k -> Q k -> False) -> disjoint_vars a b.
  Proof.
    intros P Q a b Ha Hb H u Hu Ku. destruct (Ha u Hu) as (i & Pi & Ei). destruct (Hb u Ku) as (j & Qj & Ej). assert (i = j); [| subst j; eauto].
    apply (proj1 (NoDup_nth_error names) Nn); [apply nth_error_Some; congruence | congruence].
  Qed.
  Lemma fvars_flit : forall l, fvars (FLit l) = [lit_var l].
  Proof. intros [v p]. reflexivity. Qed.
  Lemma invars_lit : forall l, lvar l < length names -> invars (fun k => k = lvar l) (FLit (lit_of l)).
  Proof. intros l H u Hu. rewrite fvars_flit in Hu. destruct Hu as [<- | []]. exists (lvar l). split; [reflexivity | apply lit_of_nth; exact H]. Qed.
  Lemma invars_weak : forall (P Q : nat -> Prop) y, (forall k, P k -> Q k) -> invars P y -> invars Q y.
  Proof. intros P Q y H K u Hu. destruct (K u Hu) as (k & Pk & E). exists k. auto. Qed.
  Lemma invars_incl : forall P y z, incl (fvars z) (fvars y) -> invars P y -> invars P z.
  Proof. intros P y z H K u Hu. apply K, H, Hu. Qed.
  Lemma lit_sat : forall l, satisfiable (FLit l).
  Proof. intros [v p]. exists (fun _ => p). cbn. destruct p; reflexivity. Qed.
  Definition flit (l : nat) : fml := FLit (lit_of l).
  Lemma lits_disjoint : forall ls, NoDup (map lvar ls) -> (forall l, In l ls -> lvar l < length names) -> ForallOrdPairs disjoint_vars (map flit ls).
  Proof.
    induction ls as [| l ls IH]; intros N H; cbn [map]; constructor.
    - apply Forall_forall. intros y Hy. apply in_map_iff in Hy. destruct Hy as (r & <- & Hr). eapply invars_disjoint; [apply invars_lit; apply H; left; auto | apply invars_lit; apply H; right; auto |].
      intros k -> E. inversion N as [| ? ? N1 N2]; subst. apply N1. rewrite E. apply in_map. exact Hr.
    - inversion N; subst. apply IH; auto. intros r Hr. apply H. right. auto.
  Qed.
  Lemma forallb_flit : forall v ls, forallb (sem v) (map flit ls) = forallb (Vn v) ls.
  Proof. intros v ls. induction ls as [| l ls IH]; [reflexivity |]. cbn [map forallb]. rewrite IH. reflexivity. Qed.
  Lemma existsb_flit : forall v ls, existsb (sem v) (map flit ls) = existsb (Vn v) ls.
  Proof. intros v ls. induction ls as [| l ls IH]; [reflexivity |]. cbn [map existsb]. rewrite IH. reflexivity. Qed.
  Lemma hdls_of : forall s ls, wf s -> kn_names s -> (forall l, In l ls -> lvar l < length names) -> Forall2 (hdl s) (map (fun l => encode_lit (lit_of l)) ls) (map flit ls).
  Proof. intros s ls Hw Hk. induction ls as [| l ls IH]; intros H; cbn [map]; constructor; [apply hdl_of; auto; apply H; left; auto | apply IH; intros r Hr; apply H; right; auto]. Qed.
  Lemma run_lits : forall ls W s r s', finv W s -> kn_names s -> NoDup (map lvar ls) -> (forall l, In l ls -> lvar l < length names) -> f_and (map (fun l => encode_lit (lit_of l)) ls) s = (Ok r, s') -> cap s' ->
    finv W s' /\ ext s s' /\ exists y, hdl s' r y /\ conjoined (map flit ls) y.
  Proof.
    intros ls W s r s' Hi Hk N H E Hc. eapply run_conj; [exact Hi | apply hdls_of; [apply Hi | exact Hk | exact H] | exact E | exact Hc | apply lits_disjoint; auto |].
    intros x Hx. apply in_map_iff in Hx. destruct Hx as (l & <- & _). split; [exact I | apply lit_sat].
  Qed.

  (** ** The solver of the compiler *)
  Record dinv (d : dsolver) : Prop := {
    di_dst : dst F (ds_s d);
    di_nv : length (s_vars (ds_s d)) = length names;
    di_names : ds_names d = names }.
  Definition news (t : dtree) (d : dsolver) : list nat := newly_implied_lits (static_var_set lits t) d.
  Lemma nodup_filter_map : forall (p : nat -> bool) (l : list nat), NoDup (map lvar l) -> NoDup (map lvar (filter p l)).
  Proof.
    intros p l. induction l as [| x l IH]; intros N; cbn [filter map]; [constructor |]. inversion N; subst. destruct (p x); [| auto]. cbn [map]. constructor; [| auto].
    intros K. apply H1. apply in_map_iff in K. destruct K as (y & E & Hy). apply filter_In in Hy. rewrite <- E. apply in_map. apply Hy.
  Qed.
  Lemma nodup_skipn_rev : forall n (l : list nat), NoDup (map lvar l) -> NoDup (map lvar (rev (skipn n l))).
  Proof.
    intros n l N. rewrite map_rev. eapply Permutation_NoDup; [apply Permutation_rev |]. rewrite <- (firstn_skipn n l), map_app in N. apply NoDup_app_remove_l in N. exact N.
  Qed.
  Lemma news_facts : forall t d, dinv d -> NoDup (map lvar (news t d)) /\ forall l, In l (news t d) -> value (ds_s d) l = Some true /\ lvar l < length names.
  Proof.
    intros t d [D1 D2 D3]. pose proof (i_t _ _ _ (d_inv _ _ D1)) as I. unfold news, newly_implied_lits. destruct (ds_dirty d); [| split; [constructor | intros l []]]. destruct (rev (s_lim (ds_s d))) as [| lim rest]; [split; [constructor | intros l []] |]. split.
    - apply nodup_filter_map, nodup_skipn_rev. apply (t_nodup _ _ _ _ _ _ _ _ I).
    - intros l Hl'. apply filter_In in Hl'. destruct Hl' as [H _]. apply in_rev in H. assert (K : In l (s_trail (ds_s d))) by (rewrite <- (firstn_skipn lim (s_trail (ds_s d))); apply in_or_app; right; exact H).
      split; [apply (value_true F); auto |]. rewrite <- D2. apply lvar_lt. apply (t_valid _ _ _ _ _ _ _ _ I). exact K.
  Qed.
  Lemma run_implied : forall t d W s r s', finv W s -> kn_names s -> dinv d -> newly_implied (static_var_set lits t) d s = (Ok r, s') -> cap s' ->
    finv W s' /\ ext s s' /\ exists y, hdl s' (fst r) y /\ conjoined (map flit (news t d)) y.
  Proof.
    intros t d W s r s' Hi Hk D E Hc. destruct (news_facts t d D) as [N1 N2]. unfold newly_implied in E. rewrite (di_names d D) in E. apply bind_cap in E; [| intros; apply mono_bind; [apply mono_f_nary | intros; apply mono_ret] | exact Hc].
    destruct E as (ops & s1 & E1 & Hc1 & E). fold (news t d) in E1. apply (mmap_lift _ _ _ (fun l => encode_lit (lit_of l))) in E1; [| intros l Hl'; apply itl, N2, Hl']. destruct E1 as [-> ->].
    apply bind_cap in E; [| intros; apply mono_ret | exact Hc]. destruct E as (x & s2 & E2 & Hc2 & E). injection E as <- <-. cbn [fst]. eapply run_lits; eauto. intros l Hl'. apply N2, Hl'.
  Qed.

  (** ** What is built for a tree *)
  Record gres (val : nat -> option bool) (t : dtree) (y : fml) : Prop := {
    g_dnnf : dnnf y;
    g_sem : forall v, sem v y = Res lits val t (Vn v);
    g_vars : invars (fun k => var_set lits val t k = true) y;
    g_sat : satisfiable y }.
  Record gfull (val : nat -> option bool) (t : dtree) (ns : list nat) (y : fml) : Prop := {
    gf_dnnf : dnnf y;
    gf_sem : forall v, sem v y = forallb (Vn v) ns && Res lits val t (Vn v);
    gf_vars : invars (fun k => var_set lits val t k = true \/ In k (map lvar ns)) y;
    gf_sat : satisfiable y;
    gf_lits : forall l, In l ns -> pflat true [y] (flit l) }.
  Lemma gfull_nil : forall val t y, gfull val t [] y -> gres val t y.
  Proof. intros val t y [A B C D E]. constructor; auto. eapply invars_weak; [| exact C]. intros k [K | []]. exact K. Qed.

  (** The implied literals and the formulas of the components. *)
  Lemma assemble : forall val t ns yi ys hi hs W s r s', vok val -> finv W s -> (forall l, In l ns -> val l = Some true) -> conjoined (map flit ns) yi -> (forall l, In l ns -> lvar l < length names) ->
    hdl s hi yi -> Forall2 (hdl s) hs ys -> ForallOrdPairs disjoint_vars ys -> (forall y, In y ys -> dnnf y /\ satisfiable y /\ invars (fun k => var_set lits val t k = true) y) ->
    (forall v, forallb (sem v) ys = Res lits val t (Vn v)) -> f_and (hi :: hs) s = (Ok r, s') -> cap s' ->
    finv W s' /\ ext s s' /\ exists y, hdl s' r y /\ gfull val t ns y.
  Proof.
    intros val t ns yi ys hi hs W s r s' Vk Hi Hn Cj Hb Hh Hhs Dj Hy Hsem E Hc.
    assert (Vi : invars (fun k => In k (map lvar ns)) yi).
    { intros u Hu. apply (cj_vars _ _ Cj) in Hu. apply in_flat_map in Hu. destruct Hu as (x & Hx & Hu). apply in_map_iff in Hx. destruct Hx as (l & <- & Hl'). unfold flit in Hu. rewrite fvars_flit in Hu. destruct Hu as [<- | []].
      exists (lvar l). split; [apply in_map; exact Hl' | apply lit_of_nth, Hb, Hl']. }
    assert (Dj2 : ForallOrdPairs disjoint_vars (yi :: ys)).
    { constructor; [| exact Dj]. apply Forall_forall. intros y Hy'. eapply invars_disjoint; [exact Vi | apply (Hy y Hy') |]. intros k K1 K2. apply in_map_iff in K1. destruct K1 as (l & <- & K1).
      pose proof (var_set_undef lits val t l Vk K2) as K3. rewrite (Hn l K1) in K3. discriminate. }
    destruct (run_conj (hi :: hs) (yi :: ys) W s r s' Hi ltac:(constructor; auto) E Hc Dj2) as (Hi' & He & y & Hy2 & Cy).
    { intros x [<- | Hx]; [split; [apply Cj | apply Cj] |]. destruct (Hy x Hx) as (A & B & _). auto. }
    split; auto. split; auto. exists y. split; auto. constructor.
    - apply Cy.
    - intros v. rewrite (cj_sem _ _ Cy). cbn [forallb]. rewrite (cj_sem _ _ Cj), forallb_flit, Hsem. reflexivity.
    - intros u Hu. apply (cj_vars _ _ Cy) in Hu. cbn [flat_map] in Hu. apply in_app_or in Hu. destruct Hu as [Hu | Hu].
      + destruct (Vi u Hu) as (k & K1 & K2). exists k. auto.
      + apply in_flat_map in Hu. destruct Hu as (x & Hx & Hu). destruct (proj2 (proj2 (Hy x Hx)) u Hu) as (k & K1 & K2). exists k. auto.
    - apply Cy.
    - intros l Hl'. apply (cj_lits _ _ Cy). apply (pflat_in true (yi :: ys) yi); [left; reflexivity |]. apply (cj_lits _ _ Cj). left. split; [apply (in_map flit); exact Hl' |]. intros (m & Em). discriminate.
  Qed.

  (** ** Leaves: [Dnnf::leaf2ddnnf] *)
  Definition undef (val : nat -> option bool) (ls : list nat) : list nat := filter (fun l => is_undef (val l)) ls.
  Definition sat_lit (val : nat -> option bool) (l : nat) : bool := match val l with Some true => true | _ => false end.
  Lemma mono_leaf : forall val ls cur ops, mono (leaf_ops names val ls cur ops).
  Proof. intros. apply mono_leaf_ops. Qed.
  Record alts (P : list nat) (ys : list fml) : Prop := {
    al_dnnf : forall y, In y ys -> dnnf y;
    al_ent : forall y, In y ys -> exists p, In p P /\ forall v, sem v y = true -> Vn v p = true;
    al_exc : forall a b, In a ys -> In b ys -> a = b \/ exclusive a b;
    al_sem : forall v, existsb (sem v) ys = existsb (Vn v) P;
    al_vars : forall y, In y ys -> invars (fun k => In k (map lvar P)) y }.
  Lemma forallb_neg : forall v P, forallb (Vn v) (map lneg P) = negb (existsb (Vn v) P).
  Proof. intros v P. induction P as [| p P IH]; [reflexivity |]. cbn [map forallb existsb]. rewrite IH, (Vn_ok v p), negb_orb. reflexivity. Qed.
  Lemma map_lneg_var : forall P, map lvar (map lneg P) = map lvar P.
  Proof. intros P. rewrite map_map. apply map_ext. intros l. apply lneg_var. Qed.
  Lemma alts_step : forall P ys l z, alts P ys -> lvar l < length names -> (forall p, In p P -> lvar p < length names) -> conjoined (map flit (map lneg P ++ [l])) z -> alts (P ++ [l]) (ys ++ [z]).
  Proof.
    intros P ys l z [A1 A2 A3 A4 A5] Hb Hb2 Cz.
    assert (Sz : forall v, sem v z = negb (existsb (Vn v) P) && Vn v l) by (intros v; rewrite (cj_sem _ _ Cz), forallb_flit, forallb_app, forallb_neg; cbn [forallb]; rewrite andb_true_r; reflexivity).
    assert (Ez : forall a, In a ys -> exclusive a z).
    { intros a Ha v. apply not_true_is_false. intros K0. apply andb_prop in K0. destruct K0 as [K1 K2]. destruct (A2 a Ha) as (p & Hp & Kp). specialize (Kp v K1). rewrite Sz in K2. apply andb_prop in K2. destruct K2 as [K2 _]. apply negb_true_iff in K2. assert (existsb (Vn v) P = true) by (apply existsb_exists; exists p; auto). congruence. }
    constructor.
    - intros y Hy. apply in_app_or in Hy. destruct Hy as [Hy | [<- | []]]; [auto | apply Cz].
    - intros y Hy. apply in_app_or in Hy. destruct Hy as [Hy | [<- | []]].
      + destruct (A2 y Hy) as (p & Hp & K). exists p. split; [apply in_or_app; auto | exact K].
      + exists l. split; [apply in_or_app; right; left; auto |]. intros v K. rewrite Sz in K. apply andb_prop in K. apply K.
    - intros a b Ha Hb'. apply in_app_or in Ha. apply in_app_or in Hb'. destruct Ha as [Ha | [<- | []]], Hb' as [Hb' | [<- | []]]; auto.
      right. apply exclusive_sym. auto.
    - intros v. rewrite !existsb_app, A4. cbn [existsb]. rewrite Sz. destruct (existsb (Vn v) P), (Vn v l); reflexivity.
    - intros y Hy. apply in_app_or in Hy. destruct Hy as [Hy | [<- | []]].
      + eapply invars_weak; [| apply A5; exact Hy]. intros k K. rewrite map_app. apply in_or_app. auto.
      + intros u Hu. apply (cj_vars _ _ Cz) in Hu. apply in_flat_map in Hu. destruct Hu as (x & Hx & Hu). apply in_map_iff in Hx. destruct Hx as (r & <- & Hr). unfold flit in Hu. rewrite fvars_flit in Hu. destruct Hu as [<- | []].
        exists (lvar r). apply in_app_or in Hr. rewrite map_app, in_app_iff. destruct Hr as [Hr | [<- | []]].
        * apply in_map_iff in Hr. destruct Hr as (p & <- & Hp). rewrite lneg_var. split; [left; apply in_map; exact Hp |]. rewrite <- lneg_var. apply lit_of_nth. rewrite lneg_var. auto.
        * split; [right; left; reflexivity | apply lit_of_nth; exact Hb].
  Qed.
  Lemma run_leaf_ops : forall val ls P ops ys W s r s', vok val -> finv W s -> kn_names s -> NoDup (map lvar (P ++ ls)) -> (forall l, In l (P ++ ls) -> lvar l < length names) ->
    Forall2 (hdl s) ops ys -> alts P ys -> leaf_ops names val ls (map (fun l => encode_lit (lit_of l)) (map lneg P)) ops s = (Ok r, s') -> cap s' ->
    finv W s' /\ ext s s' /\ exists y, hdl s' r y /\ dnnf y /\ (forall v, sem v y = existsb (sat_lit val) ls || existsb (Vn v) (P ++ undef val ls)) /\
      (if existsb (sat_lit val) ls then fvars y = [] else invars (fun k => In k (map lvar (P ++ undef val ls))) y).
  Proof.
    intros val ls. induction ls as [| l ls IH]; intros P ops ys W s r s' Vk Hi Hk N Hb Ho A E Hc; cbn [leaf_ops] in E.
    - destruct (run_disj ops ys W s r s' Hi Ho E Hc (al_dnnf _ _ A) (al_exc _ _ A)) as (Hi' & He & y & Hy & Dy & Sy & Vy). split; auto. split; auto. exists y. split; auto. split; auto. cbn [existsb undef filter orb]. rewrite app_nil_r. split.
      + intros v. rewrite Sy. apply (al_sem _ _ A).
      + intros u Hu. apply Vy in Hu. apply in_flat_map in Hu. destruct Hu as (z & Hz & Hu). eapply (al_vars _ _ A); eauto.
    - cbn [existsb undef filter]. unfold sat_lit at 1 3. destruct (val l) as [[|] |] eqn:El; cbn [is_undef orb].
      + injection E as <- <-. split; auto. split; [apply ext_refl |]. exists FTrue. split; [exact (hdl_const s true) |]. split; [exact I |]. split; [intros v; reflexivity | reflexivity].
      + assert (N2 : NoDup (map lvar (P ++ ls))) by (rewrite map_app in N |- *; cbn [map] in N; apply NoDup_remove_1 in N; exact N).
        apply (IH P ops ys W s r s' Vk Hi Hk N2); auto. intros x Hx. apply Hb. apply in_app_or in Hx. apply in_or_app. destruct Hx; [auto | right; right; auto].
      + assert (Hbl : lvar l < length names) by (apply Hb; apply in_or_app; right; left; auto). assert (HbP : forall p, In p P -> lvar p < length names) by (intros p Hp; apply Hb; apply in_or_app; auto).
        rewrite (itl l Hbl) in E. apply bind_lift in E. destruct E as (x & Ex & E). apply ok_inj in Ex. subst x.
        apply bind_cap in E; [| intros; apply mono_bind; [apply mono_f_negate | intros; apply mono_leaf] | exact Hc]. destruct E as (a & s1 & E1 & Hc1 & E).
        replace (map (fun l => encode_lit (lit_of l)) (map lneg P) ++ [encode_lit (lit_of l)]) with (map (fun l => encode_lit (lit_of l)) (map lneg P ++ [l])) in E1 by (rewrite map_app; reflexivity).
        assert (Np : NoDup (map lvar (P ++ [l]))) by (change (l :: ls) with ([l] ++ ls) in N; rewrite app_assoc, map_app in N; apply SorterProofs.NoDup_app_inv in N; apply N).
        assert (Np2 : NoDup (map lvar (map lneg P ++ [l]))) by (rewrite map_app, map_lneg_var, <- map_app; exact Np).
        assert (Bp : forall q, In q (map lneg P ++ [l]) -> lvar q < length names).
        { intros q Hq. apply in_app_or in Hq. destruct Hq as [Hq | [<- | []]]; [| exact Hbl]. apply in_map_iff in Hq. destruct Hq as (p & <- & Hp). rewrite lneg_var. auto. }
        destruct (run_lits (map lneg P ++ [l]) W s a s1 Hi Hk Np2 Bp E1 Hc1) as (Hi1 & He1 & z & Hz & Cz).
        pose proof (kn_names_ext _ _ He1 Hk) as Hk1. apply bind_cap in E; [| intros; apply mono_leaf | exact Hc]. destruct E as (nx & s2 & E2 & Hc2 & E). rewrite (negate_of s1 l) in E2; [| apply Hi1 | exact Hk1 | exact Hbl]. apply okp_inj in E2. destruct E2; subst nx s2.
        replace (map (fun l => encode_lit (lit_of l)) (map lneg P) ++ [encode_lit (lit_of (lneg l))]) with (map (fun l => encode_lit (lit_of l)) (map lneg (P ++ [l]))) in E by (rewrite !map_app; reflexivity).
        destruct (IH (P ++ [l]) (ops ++ [a]) (ys ++ [z]) W s1 r s' Vk Hi1 Hk1 ltac:(rewrite <- app_assoc; exact N) ltac:(intros q Hq; apply Hb; rewrite <- app_assoc in Hq; exact Hq)
          ltac:(apply Forall2_app; [eapply hdls_ext; eauto | constructor; [exact Hz | constructor]]) ltac:(apply alts_step; auto) E Hc) as (Hi' & He' & y & Hy & Dy & Sy & Vy).
        split; auto. split; [eapply ext_trans; eauto |]. exists y. rewrite <- app_assoc in Sy. rewrite <- app_assoc in Vy. auto.
  Qed.
  Lemma alts_nil : alts [] [].
  Proof. constructor; [intros y H | intros y H | intros a b H | reflexivity | intros y H]; destruct H. Qed.
  Lemma run_leaf : forall n d W s r s', finv W s -> kn_names s -> dinv d -> n < length lits -> leaf2ddnnf lits n d s = (Ok r, s') -> cap s' ->
    finv W s' /\ ext s s' /\ exists y, hdl s' r y /\ gres (value (ds_s d)) (Leaf n) y.
  Proof.
    intros n d W s r s' Hi Hk D Hn E Hc. unfold leaf2ddnnf in E. rewrite (di_names d D) in E. pose proof (value_vok (ds_s d)) as Vk. set (val := value (ds_s d)) in *.
    destruct (run_leaf_ops val (leaf lits n) [] [] [] W s r s' Vk Hi Hk (Nl n) (Hl n) (Forall2_nil _) alts_nil E Hc) as (Hi' & He & y & Hy & Dy & Sy & Vy). cbn [app] in *. split; auto. split; auto. exists y. split; auto.
    assert (Sb : subsumed lits val n = existsb (sat_lit val) (leaf lits n)).
    { apply bool_eq_iff. rewrite subsumed_iff, existsb_exists. split; intros (l & H1 & H2); exists l; split; auto; unfold sat_lit in *; [rewrite H2; reflexivity | destruct (val l) as [[|] |]; congruence]. }
    assert (Rs : forall v, Res lits val (Leaf n) (Vn v) = existsb (sat_lit val) (leaf lits n) || existsb (Vn v) (undef val (leaf lits n))).
    { intros v. apply bool_eq_iff. rewrite Res_iff, orb_true_iff, <- Sb. split.
      - intros H. destruct (subsumed lits val n) eqn:En; [auto | right]. destruct (H n) as (l & (_ & O2 & O3) & K); [left; auto | exact En |]. apply existsb_exists. exists l. split; auto. apply filter_In. split; auto. rewrite O3. reflexivity.
      - intros H i [<- | []] En. destruct H as [H | H]; [congruence |]. apply existsb_exists in H. destruct H as (l & H & K). apply filter_In in H. destruct H as [H1 H2]. apply is_undef_iff in H2. exists l. split; [| exact K]. split; auto. }
    constructor.
    - exact Dy.
    - intros v. rewrite Sy, Rs. reflexivity.
    - destruct (existsb (sat_lit val) (leaf lits n)) eqn:En; [intros u Hu; rewrite Vy in Hu; destruct Hu |]. eapply invars_weak; [| exact Vy]. intros k K. cbn beta. apply in_map_iff in K. destruct K as (l & <- & K). apply filter_In in K. destruct K as [K1 K2]. apply is_undef_iff in K2.
      apply var_set_iff. exists n, l. split; [left; auto |]. split; [| reflexivity]. split; auto.
    - destruct (existsb (sat_lit val) (leaf lits n)) eqn:En; [exists (fun _ => true); rewrite Sy; reflexivity |].
      destruct (two_undef F (ds_s d) (leaf lits n) (di_dst d D) (F2 n Hn)) as [(l & K1 & K2) | (l & m & K1 & K2 & K3 & K4 & K5)].
      + exfalso. assert (existsb (sat_lit val) (leaf lits n) = true); [| congruence]. apply existsb_exists. exists l. split; auto. unfold sat_lit, val. rewrite K2. reflexivity.
      + destruct (lit_sat (lit_of l)) as (v & Kv). exists v. rewrite Sy. apply existsb_exists. exists l. split; [apply filter_In; split; auto; apply is_undef_iff; auto | exact Kv].
  Qed.

  (** ** The invariant of the compiler *)
  Lemma Hnv' : forall i l, In l (leaf lits i) -> lvar l < nv.
  Proof. intros i l H. specialize (Hl i l H). lia. Qed.
  Definition vl (c : comp) : nat -> option bool := value (ds_s (cp_ds c)).
  Record cinv (s : factory) (c : comp) : Prop := {
    ci_d : dinv (cp_ds c);
    ci_kn : kn_names s;
    ci_cache : forall k h, In (k, h) (cp_cache c) -> exists t0 val0 y, k = cache_key lits val0 nv t0 /\ vok val0 /\ tree_ok lits t0 /\ hdl s h y /\ gres val0 t0 y }.
  Lemma cinv_ext : forall s s' c, ext s s' -> cinv s c -> cinv s' c.
  Proof.
    intros s s' c E [A B C]. constructor; [exact A | eapply kn_names_ext; eauto |]. intros k h H. destruct (C k h H) as (t0 & val0 & y & K1 & K2 & K3 & K4 & K5). exists t0, val0, y. split; auto. split; auto. split; auto. split; [eapply hdl_ext; eauto | auto].
  Qed.
  Lemma cinv_ds : forall s c d, cinv s c -> dinv d -> cinv s (set_ds d c).
  Proof. intros s c d [A B C] D. constructor; auto. Qed.
  Lemma gres_ext : forall val val' t y, (forall l, val l = val' l) -> gres val t y -> gres val' t y.
  Proof.
    intros val val' t y E [A B C D]. constructor; auto.
    - intros v. rewrite B. apply Res_ext. auto.
    - eapply invars_weak; [| exact C]. intros k K. cbn beta in K. rewrite <- K. symmetry. apply var_set_ext. auto.
  Qed.
  Lemma not_falsum : forall W s h y, finv W s -> hdl s h y -> satisfiable y -> is_falsum h = false.
  Proof.
    intros W s h y Hi (H1 & H2 & _) [v K]. rewrite (is_falsum_denotes s h y (wf_cap s (i_wf _ _ Hi)) H1 H2). destruct y; try reflexivity. discriminate.
  Qed.
  Lemma mono_if : forall A (b : bool) (x y : M A), mono x -> mono y -> mono (if b then x else y).
  Proof. intros A [|] x y Hx Hy; assumption. Qed.
  Lemma bits_eq : forall a b, bits_eqb a b = true -> a = b.
  Proof. induction a as [| x a IH]; intros [| y b] H; try discriminate; [reflexivity |]. cbn [bits_eqb] in H. apply andb_prop in H. destruct H as [H1 H2]. apply eqb_prop in H1. subst y. f_equal. auto. Qed.
  Lemma cache_in : forall k c h, cache_lookup k c = Some h -> In (k, h) c.
  Proof. intros k c. induction c as [| [k' h'] c IH]; intros h H; [discriminate |]. cbn [cache_lookup] in H. destruct (bits_eqb k k') eqn:E; [| right; auto]. apply bits_eq in E. injection H as ->. left. congruence. Qed.

  Record after (W : world) (s : factory) (c : comp) (s' : factory) (c' : comp) : Prop := {
    af_inv : finv W s';
    af_ext : ext s s';
    af_c : cinv s' c';
    af_trail : s_trail (ds_s (cp_ds c')) = s_trail (ds_s (cp_ds c));
    af_lim : s_lim (ds_s (cp_ds c')) = s_lim (ds_s (cp_ds c));
    af_dirty : ds_dirty (cp_ds c') = false }.
  Lemma after_trans : forall W s c s1 c1 s2 c2, after W s c s1 c1 -> after W s1 c1 s2 c2 -> after W s c s2 c2.
  Proof. intros W s c s1 c1 s2 c2 [A1 A2 A3 A4 A5 A6] [B1 B2 B3 B4 B5 B6]. constructor; auto; [eapply ext_trans; eauto | congruence | congruence]. Qed.
  Lemma after_ext : forall W s c s1 c1 s2, after W s c s1 c1 -> finv W s2 -> ext s1 s2 -> after W s c s2 c1.
  Proof. intros W s c s1 c1 s2 [A1 A2 A3 A4 A5 A6] H1 H2. constructor; auto; [eapply ext_trans; eauto | eapply cinv_ext; eauto]. Qed.
  Lemma after_vl : forall W s c s1 c1, cinv s c -> after W s c s1 c1 -> forall l, vl c1 l = vl c l.
  Proof. intros W s c s1 c1 H A l. unfold vl. eapply value_same; [apply (di_dst _ (ci_d _ _ (af_c _ _ _ _ _ A))) | apply (di_dst _ (ci_d _ _ H)) | apply A]. Qed.
  Lemma vl_ok : forall c, vok (vl c).
  Proof. intros c. apply value_vok. Qed.
  Lemma Iso_ext : forall val val' t, (forall l, val l = val' l) -> Iso lits val t -> Iso lits val' t.
  Proof. intros val val' t E H. eapply Iso_grow; [| exact H]. intros l b K. rewrite <- E. exact K. Qed.
  Lemma news_clean : forall t d, ds_dirty d = false -> news t d = [].
  Proof. intros t d H. unfold news, newly_implied_lits. rewrite H. reflexivity. Qed.

  Definition rec_ok (rec : dtree -> comp -> M (N * comp)) : Prop := forall t c W s p s', finv W s -> cinv s c -> tree_ok lits t -> Iso lits (vl c) t -> rec t c s = (Ok p, s') -> cap s' -> confl (snd p) = 0 ->
    after W s c s' (snd p) /\ exists y, hdl s' (fst p) y /\ gfull (vl c) t (news t (cp_ds c)) y.

  Section Step.
    Variable rec : dtree -> comp -> M (N * comp).
    Hypothesis Hrec : rec_ok rec.
    Hypothesis Hmono : forall t c, mono (rec t c).
    Hypothesis Hconfl : forall t c s r s', rec t c s = (Ok r, s') -> confl c <= confl (snd r).

    Lemma aux_ok : forall t c W s p s', finv W s -> cinv s c -> tree_ok lits t -> Iso lits (vl c) t -> ds_dirty (cp_ds c) = false -> cnf_aux lits nv rec t c s = (Ok p, s') -> cap s' -> confl (snd p) = 0 ->
      after W s c s' (snd p) /\ exists y, hdl s' (fst p) y /\ gres (vl c) t y.
    Proof.
      intros t c W s p s' Hi Hc Ht HI Hd E Hcap Hz. assert (Rf : forall s1, finv W s1 -> ext s s1 -> after W s c s1 c) by (intros s1 H1 H2; constructor; auto; eapply cinv_ext; eauto). destruct t as [n | x y]; cbn [cnf_aux] in E.
      - apply bind_cap in E; [| intros; apply mono_ret | exact Hcap]. destruct E as (r & s1 & E1 & Hc1 & E). apply okp_inj in E. destruct E; subst p s'. cbn [fst snd].
        destruct (run_leaf n (cp_ds c) W s r s1 Hi (ci_kn _ _ Hc) (ci_d _ _ Hc) (Ht n (or_introl eq_refl)) E1 Hc1) as (Hi1 & He1 & y & Hy & G). split; [auto |]. exists y. auto.
      - cbv zeta in E. fold (vl c) in E. destruct (cache_lookup _ _) as [h |] eqn:El.
        + apply okp_inj in E. destruct E; subst p s'. cbn [fst snd]. split; [apply Rf; auto; apply ext_refl |]. apply cache_in in El. destruct (ci_cache _ _ Hc _ _ El) as (t0 & val0 & z & K1 & K2 & K3 & K4 & K5). exists z. split; auto.
          destruct (key_determines lits nv Hnv' (vl c) val0 _ t0 (vl_ok c) K2 Ht K3 K1) as [Q1 Q2]. destruct K5 as [G1 G2 G3 G4]. constructor; auto.
          * intros v. rewrite G2, Q1. reflexivity.
          * eapply invars_weak; [| exact G3]. intros k K. cbn beta in K. rewrite Q2. exact K.
        + apply bind_cap in E; [| intros; apply mono_ret | exact Hcap]. destruct E as (q & s1 & E1 & Hc1 & E). apply okp_inj in E. destruct E; subst p s'. cbn [fst snd] in *.
          destruct (Hrec _ c W s q s1 Hi Hc Ht HI E1 Hc1) as (A & z & Hz2 & G); [destruct (is_falsum (fst q)); exact Hz |]. rewrite (news_clean _ _ Hd) in G. apply gfull_nil in G. split; [| exists z; auto].
          destruct (is_falsum (fst q)); [exact A |]. destruct A as [A1 A2 A3 A4 A5 A6]. constructor; auto. destruct A3 as [B1 B2 B3]. constructor; auto. cbn [cp_cache]. intros k h [K | K]; [| auto]. injection K as <- <-.
          exists (Node x y), (vl c), z. split; [reflexivity |]. split; [apply vl_ok |]. split; auto.
    Qed.

    Lemma conjoin_ok : forall implied yi l r ns c W s p s', finv W s -> cinv s c -> tree_ok lits (Node l r) -> Iso lits (vl c) (Node l r) -> ds_dirty (cp_ds c) = false -> separator lits (vl c) nv (Node l r) = [] ->
      hdl s implied yi -> conjoined (map flit ns) yi -> (forall x, In x ns -> vl c x = Some true /\ lvar x < length names) ->
      conjoin lits nv rec implied l r c s = (Ok p, s') -> cap s' -> confl (snd p) = 0 ->
      after W s c s' (snd p) /\ exists y, hdl s' (fst p) y /\ gfull (vl c) (Node l r) ns y.
    Proof.
      intros implied yi l r ns c W s p s' Hi Hc Ht HI Hd Sp Hh Cj Hns E Hcap Hz. unfold conjoin in E. rewrite (not_falsum _ _ _ _ Hi Hh (cj_sat _ _ Cj)) in E.
      assert (Tl : tree_ok lits l) by (intros i K; apply Ht; apply in_or_app; auto). assert (Tr : tree_ok lits r) by (intros i K; apply Ht; apply in_or_app; auto).
      apply bind_cap in E; [| intros; apply mono_if; [apply mono_ret | apply mono_bind; [apply mono_cnf_aux; exact Hmono | intros; apply mono_if; [apply mono_ret | apply mono_bind; [apply mono_f_nary | intros; apply mono_ret]]]] | exact Hcap].
      destruct E as (p1 & s1 & E1 & Hc1 & E).
      assert (Z1 : confl (snd p1) = 0).
      { destruct (is_falsum (fst p1)); [injection E as <- <-; exact Hz |]. brun E q s2 E2. apply confl_aux in E2; [| exact Hconfl]. destruct (is_falsum (fst q)); [injection E as <- <-; lia |]. brun E h s3 E3. injection E as <- <-. cbn [snd] in Hz. lia. }
      destruct (aux_ok l c W s p1 s1 Hi Hc Tl (Iso_l lits nv Hnv' _ _ _ Sp HI) Hd E1 Hc1 Z1) as (A1 & y1 & Hy1 & G1). rewrite (not_falsum _ _ _ _ (af_inv _ _ _ _ _ A1) Hy1 (g_sat _ _ _ G1)) in E.
      pose proof (after_vl _ _ _ _ _ Hc A1) as V1. apply bind_cap in E; [| intros; apply mono_if; [apply mono_ret | apply mono_bind; [apply mono_f_nary | intros; apply mono_ret]] | exact Hcap]. destruct E as (p2 & s2 & E2 & Hc2 & E).
      assert (Z2 : confl (snd p2) = 0). { destruct (is_falsum (fst p2)); [injection E as <- <-; exact Hz |]. brun E h s3 E3. injection E as <- <-. exact Hz. }
      destruct (aux_ok r (snd p1) W s1 p2 s2 (af_inv _ _ _ _ _ A1) (af_c _ _ _ _ _ A1) Tr) as (A2 & y2 & Hy2 & G2); auto.
      { eapply Iso_ext; [| eapply (Iso_r lits nv Hnv'); eauto]. intros x. symmetry. apply V1. }
      { apply A1. }
      apply (gres_ext _ (vl c)) in G2; [| exact V1]. rewrite (not_falsum _ _ _ _ (af_inv _ _ _ _ _ A2) Hy2 (g_sat _ _ _ G2)) in E. apply bind_cap in E; [| intros; apply mono_ret | exact Hcap]. destruct E as (h & s3 & E3 & Hc3 & E). apply okp_inj in E. destruct E; subst p s'. cbn [fst snd] in *.
      pose proof (af_ext _ _ _ _ _ A1) as X1. pose proof (af_ext _ _ _ _ _ A2) as X2.
      destruct (assemble (vl c) (Node l r) ns yi [y1; y2] implied [fst p1; fst p2] W s2 h s3) as (Hi3 & He3 & y & Hy & G); auto.
      - apply vl_ok.
      - apply A2.
      - intros x Hx. apply Hns, Hx.
      - intros x Hx. apply Hns, Hx.
      - exact (hdl_ext _ _ _ _ (ext_trans _ _ _ X1 X2) Hh).
      - constructor; [eapply hdl_ext; eauto | constructor; [exact Hy2 | constructor]].
      - constructor; [constructor; [| constructor] | constructor; [constructor | constructor]]. eapply invars_disjoint; [apply G1 | apply G2 |]. intros k. eapply (sep_nil lits nv Hnv'); eauto.
      - intros z [<- | [<- | []]].
        + split; [apply G1 |]. split; [apply G1 |]. eapply invars_weak; [| apply G1]. intros k K. cbn beta in *. rewrite var_set_node, K. reflexivity.
        + split; [apply G2 |]. split; [apply G2 |]. eapply invars_weak; [| apply G2]. intros k K. cbn beta in *. rewrite var_set_node, K. apply orb_true_r.
      - intros v. cbn [forallb]. rewrite (g_sem _ _ _ G1), (g_sem _ _ _ G2), Res_node, andb_true_r. reflexivity.
      - split; [| exists y; auto]. eapply after_ext; [eapply after_trans; eauto | exact Hi3 | exact He3].
    Qed.

    Lemma filter_all : forall A (p : A -> bool) l, (forall x, In x l -> p x = true) -> filter p l = l.
    Proof. intros A p l. induction l as [| x l IH]; intros H; [reflexivity |]. cbn [filter]. rewrite (H x (or_introl eq_refl)), IH; [reflexivity |]. intros y Hy. apply H. right. exact Hy. Qed.
    Lemma var_set_names : forall val t k, var_set lits val t k = true -> k < length names.
    Proof. intros val t k H. apply var_set_iff in H. destruct H as (i & l & _ & (_ & H & _) & <-). eauto. Qed.

    (** A decision with the propagation, seen from the tree. *)
    Lemma decided_unit : forall t v ph d d1, dinv d -> decided_to F v ph d d1 -> Iso lits (value (ds_s d)) t -> var_set lits (value (ds_s d)) t v = true ->
      dinv d1 /\ grow (value (ds_s d)) (value (ds_s d1)) /\ exists T, news t d1 = rev T /\ nth_error T 0 = Some (mk_lit v (negb ph)) /\ (forall l, In l T -> var_set lits (value (ds_s d)) t (lvar l) = true) /\
        forall V, Vok V -> (forallb V T && Res lits (value (ds_s d1)) t V) = (V (mk_lit v (negb ph)) && Res lits (value (ds_s d)) t V).
    Proof.
      intros t v ph d d1 D DT HI Hv. pose proof (di_dst d D) as D0. pose proof (dt_dst _ _ _ _ _ DT) as D1. set (n0 := length (s_trail (ds_s d))) in *. set (T := skipn n0 (s_trail (ds_s d1))).
      destruct (dt_T _ _ _ _ _ DT) as (e & Te). assert (ET : T = mk_lit v (negb ph) :: e) by (unfold T, n0; rewrite Te, skipn_app, skipn_all, Nat.sub_diag; reflexivity).
      assert (Tr : s_trail (ds_s d1) = s_trail (ds_s d) ++ T) by (rewrite ET; exact Te).
      assert (Di1 : dinv d1) by (constructor; [exact D1 | rewrite (dt_nv _ _ _ _ _ DT); apply D | rewrite (dt_names _ _ _ _ _ DT); apply D]).
      pose proof (t_nodup _ _ _ _ _ _ _ _ (i_t _ _ _ (d_inv _ _ D1))) as ND. rewrite Tr, map_app in ND.
      assert (Gr : grow (value (ds_s d)) (value (ds_s d1))).
      { intros l b H. destruct b; [apply (value_true F) in H | apply (value_false F) in H]; auto; [apply (value_true F) | apply (value_false F)]; auto; rewrite Tr; apply in_or_app; auto. }
      assert (HT : forall l, value (ds_s d1) l = Some true -> In l T \/ value (ds_s d) l = Some true).
      { intros l H. apply (value_true F) in H; auto. rewrite Tr in H. apply in_app_or in H. destruct H as [H | H]; [right; apply (value_true F); auto | auto]. }
      assert (HTt : forall l, In l T -> value (ds_s d1) l = Some true) by (intros l H; apply (value_true F); auto; rewrite Tr; apply in_or_app; auto).
      assert (HT0 : forall l, In l T -> value (ds_s d) l = None).
      { intros l H. apply (value_none F); auto. assert (Q : ~ In (lvar l) (map lvar (s_trail (ds_s d)))) by (intros Q; apply (proj2 (proj2 (SorterProofs.NoDup_app_inv _ _ _ ND)) _ _ Q (in_map lvar _ _ H)); reflexivity).
        split; intros K; apply Q; [apply in_map; exact K | rewrite <- (lneg_var l); apply in_map; exact K]. }
      assert (HT1 : nth_error T 0 = Some (mk_lit v (negb ph))) by (rewrite ET; reflexivity).
      assert (Hd : var_set lits (value (ds_s d)) t (lvar (mk_lit v (negb ph))) = true) by (rewrite mk_lit_var; exact Hv).
      assert (Hr : forall i l, nth_error T i = Some l -> 0 < i -> exists j, j < length lits /\ In l (leaf lits j) /\
        forall r, In r (leaf lits j) -> r = l \/ value (ds_s d) r = Some false \/ exists k, k < i /\ nth_error T k = Some (lneg r)).
      { intros i l Ei Hp. destruct (dt_reason _ _ _ _ _ DT i l Ei Hp) as (C & C1 & C2 & C3). destruct (F1 C C1) as (j & Hj & <-). exists j. auto. }
      assert (Hc : forall j l, j < length lits -> subsumed lits (value (ds_s d)) j = false -> exists r, In r (leaf lits j) /\ r <> l /\ value (ds_s d) r = None).
      { intros j l Hj Hs. destruct (two_undef F (ds_s d) (leaf lits j) D0 (F2 j Hj)) as [H | (x & y & K1 & K2 & K3 & K4 & K5)]; [apply subsumed_iff in H; congruence |].
        destruct (Nat.eq_dec x l) as [-> | Nx]; [exists y | exists x]; auto. }
      pose proof (unit_vars lits (value (ds_s d)) t _ T (value_vok _) HT0 HT1 Hd Hr Hc HI) as UV.
      pose proof (unit_res lits (value (ds_s d)) (value (ds_s d1)) t _ T (value_vok _) (value_vok _) Gr HT HT0 HT1 Hd Hr Hc HI) as UR.
      split; auto. split; auto. exists T. split; [| split; [exact HT1 | split; [exact UV | exact UR]]].
      unfold news, newly_implied_lits. rewrite (dt_dirty _ _ _ _ _ DT), (dt_lim _ _ _ _ _ DT), rev_app_distr. cbn [rev app]. fold n0 T. apply filter_all. intros l H. apply in_rev in H. eapply var_set_static. apply UV. exact H.
    Qed.
    Lemma forallb_rev : forall A (p : A -> bool) l, forallb p (rev l) = forallb p l.
    Proof. intros A p l. induction l as [| x l IH]; [reflexivity |]. cbn [rev]. rewrite forallb_app, IH. cbn [forallb]. rewrite andb_true_r. apply andb_comm. Qed.

    Lemma branch_ok : forall t v ph c W s p s', finv W s -> cinv s c -> tree_ok lits t -> Iso lits (vl c) t -> var_set lits (vl c) t v = true -> branch orc fuel rec t v ph c s = (Ok p, s') -> cap s' -> confl (snd p) = 0 ->
      after W s c s' (snd p) /\ exists y, hdl s' (fst p) y /\ dnnf y /\ (forall w, sem w y = Vn w (mk_lit v (negb ph)) && Res lits (vl c) t (Vn w)) /\ invars (fun k => var_set lits (vl c) t k = true) y /\ satisfiable y /\
        pflat true [y] (flit (mk_lit v (negb ph))).
    Proof.
      intros t v ph c W s p s' Hi Hc Ht HI Hv E Hcap Hz. pose proof E as E0. apply confl_branch in E0; [| exact Hconfl]. destruct E0 as (b & d1 & Ed & K1 & _). pose proof (decide_conflict _ _ _ _ _ _ _ Ed) as K2. destruct b; [| exfalso; lia].
      unfold branch in E. rewrite Ed in E. apply bind_lift in E. destruct E as (q & Eq & E). apply ok_inj in Eq. subst q. cbn [fst snd] in E.
      apply bind_cap in E; [| intros; apply mono_bind; [apply mono_lift | intros; apply mono_ret] | exact Hcap]. destruct E as (p1 & s1 & E1 & Hc1 & E). apply bind_lift in E. destruct E as (d3 & E3 & E). apply okp_inj in E. destruct E; subst p s'. cbn [fst snd] in *.
      pose proof (ci_d _ _ Hc) as D. pose proof (undo_confl _ _ _ E3) as Z3. unfold confl in Hz. cbn [set_ds cp_ds] in Hz.
      assert (DT : decided_to F v ph (cp_ds c) d1).
      { eapply decide_run; [apply D | rewrite (di_nv _ D); eapply var_set_names; eauto | | exact Ed]. eapply (var_set_undef lits _ t); [apply value_vok |]. rewrite mk_lit_var. exact Hv. }
      destruct (decided_unit t v ph (cp_ds c) d1 D DT HI Hv) as (Di1 & Gr & T & Nw & T0 & TV & TR).
      assert (I1 : Iso lits (vl (set_ds d1 c)) t) by (eapply Iso_grow; eauto).
      destruct (Hrec t (set_ds d1 c) W s p1 s1 Hi (cinv_ds _ _ _ Hc Di1) Ht I1 E1 Hc1) as (A & y & Hy & G); [unfold confl; lia |]. cbn [set_ds cp_ds] in G. rewrite Nw in G.
      destruct A as [A1 A2 A3 A4 A5 A6]. cbn [set_ds cp_ds] in A4, A5. pose proof (ci_d _ _ A3) as D2.
      destruct (undo_run F v ph (cp_ds c) d1 (cp_ds (snd p1)) d3 (di_dst _ D) DT (di_dst _ D2) A4 A5 E3) as (U1 & U2 & U3 & U4 & U5 & U6 & _).
      assert (Di3 : dinv d3) by (constructor; [exact U1 | rewrite U4; apply D2 | rewrite U5; apply D2]). split.
      - constructor; auto. apply cinv_ds; auto.
      - exists y. split; [exact Hy |]. split; [apply G |]. split; [| split; [| split; [apply G |]]].
        + intros w. rewrite (gf_sem _ _ _ _ G), forallb_rev. apply TR. apply Vn_ok.
        + eapply invars_weak; [| apply G]. intros k [K | K]; [eapply var_set_grow; eauto |]. apply in_map_iff in K. destruct K as (l & <- & K). apply in_rev in K. apply TV. exact K.
        + apply (gf_lits _ _ _ _ G). apply in_rev. rewrite rev_involutive. eapply nth_error_In. exact T0.
    Qed.

    Lemma step_mono : forall t v ph c, mono (branch orc fuel rec t v ph c).
    Proof. intros. apply mono_branch. exact Hmono. Qed.
  End Step.

  Lemma mk_neg : forall v, lneg (mk_lit v false) = mk_lit v true.
  Proof. intros v. unfold mk_lit. replace (v + v + 0) with (2 * v) by lia. rewrite lneg_even. lia. Qed.
  Lemma Vn_pos_neg : forall w v, Vn w (mk_lit v true) = negb (Vn w (mk_lit v false)).
  Proof. intros w v. rewrite <- (Vn_ok w (mk_lit v false)), mk_neg. reflexivity. Qed.

  Theorem cnf2ddnnf_ok : forall n, rec_ok (cnf2ddnnf orc fuel lits nv n).
  Proof.
    induction n as [| n IH]; intros t c W s p s' Hi Hc Ht HI E Hcap Hz; [discriminate |]. cbn [cnf2ddnnf] in E.
    assert (Mo : forall t c, mono (cnf2ddnnf orc fuel lits nv n t c)) by (intros; apply mono_cnf2ddnnf). pose proof (confl_mono orc fuel lits nv n) as Cm.
    apply bind_cap in E; [| | exact Hcap].
    2: { intros a. pose proof (mono_cnf2ddnnf orc fuel lits nv (S n)) as K. clear -Mo. cbv zeta. destruct (separator _ _ _ _) as [| w sep].
         - destruct t as [k | x y]; [| apply mono_conjoin; exact Mo]. apply mono_bind; [apply mono_leaf_ops | intros]. apply mono_bind; [apply mono_f_nary | intros; apply mono_ret].
         - apply mono_bind; [apply mono_lift | intros]. apply mono_bind; [apply mono_branch; exact Mo | intros]. apply mono_if; [apply mono_retry; exact Mo |]. apply mono_bind; [apply mono_branch; exact Mo | intros]. apply mono_if; [apply mono_retry; exact Mo |].
           repeat (apply mono_bind; [first [apply mono_lift | apply mono_f_negate | apply mono_f_nary] | intros]). apply mono_ret. }
    destruct E as (i & s1 & E1 & Hc1 & E). cbv zeta in E. pose proof (newly_implied_confl _ _ _ _ _ E1) as Ei. pose proof (ci_d _ _ Hc) as D. destruct (news_facts t (cp_ds c) D) as [N1 N2].
    destruct (run_implied t (cp_ds c) W s i s1 Hi (ci_kn _ _ Hc) D E1 Hc1) as (Hi1 & He1 & yi & Hyi & Cj). set (ns := news t (cp_ds c)) in *. set (c0 := set_ds (snd i) c) in *.
    assert (V0 : vl c0 = vl c) by (unfold vl, c0; cbn [set_ds cp_ds]; rewrite Ei; reflexivity).
    assert (Hc0 : cinv s1 c0). { unfold c0. apply cinv_ds; [eapply cinv_ext; eauto |]. rewrite Ei. destruct D as [D1 D2 D3]. constructor; auto. }
    assert (A0 : after W s c s1 c0). { constructor; auto; unfold c0; cbn [set_ds cp_ds]; rewrite Ei; reflexivity. }
    fold (vl c0) in E. rewrite V0 in E. destruct (separator lits (vl c) nv t) as [| w sep] eqn:Sp.
    - destruct t as [k | x y].
      + apply bind_cap in E; [| intros; apply mono_bind; [apply mono_f_nary | intros; apply mono_ret] | exact Hcap]. destruct E as (lf & s2 & E2 & Hc2 & E). apply bind_cap in E; [| intros; apply mono_ret | exact Hcap]. destruct E as (r & s3 & E3 & Hc3 & E). apply okp_inj in E. destruct E; subst p s'. cbn [fst snd] in *.
        destruct (run_leaf k (cp_ds c0) W s1 lf s2 Hi1 (ci_kn _ _ Hc0) (ci_d _ _ Hc0) (Ht k (or_introl eq_refl)) E2 Hc2) as (Hi2 & He2 & y & Hy & G). fold (vl c0) in G. rewrite V0 in G.
        destruct (assemble (vl c) (Leaf k) ns yi [y] (fst i) [lf] W s2 r s3) as (Hi3 & He3 & z & Hz2 & G2); auto.
        * apply vl_ok.
        * intros l Hl'. apply N2, Hl'.
        * intros l Hl'. apply N2, Hl'.
        * exact (hdl_ext _ _ _ _ He2 Hyi).
        * constructor; [constructor | constructor].
        * intros z [<- | []]. split; [apply G |]. split; [apply G | apply G].
        * intros v. cbn [forallb]. rewrite (g_sem _ _ _ G), andb_true_r. reflexivity.
        * split; [| exists z; auto]. eapply after_ext; [exact A0 | exact Hi3 | eapply ext_trans; eauto].
      + destruct (conjoin_ok (cnf2ddnnf orc fuel lits nv n) IH Mo Cm (fst i) yi x y ns c0 W s1 p s') as (A & z & Hz2 & G); auto; try (rewrite V0; auto).
        * apply A0.
        * split; [eapply after_trans; eauto |]. exists z. rewrite V0 in G. auto.
    - destruct t as [k | x y]; [discriminate |]. set (t := Node x y) in *.
      apply bind_lift in E. destruct E as (v & Ev & E).
      assert (Is : In v (w :: sep)). { eapply (shannon_in lits nv Hnv'); [| | exact Ev]; [discriminate |]. intros u Hu. rewrite <- Sp in Hu. cbn [separator] in Hu. apply filter_In in Hu. destruct Hu as [Hu _]. apply in_seq in Hu. lia. }
      assert (Hv : var_set lits (vl c) t v = true). { rewrite <- Sp in Is. cbn [t separator] in Is. apply filter_In in Is. destruct Is as [_ Is]. apply andb_prop in Is. destruct Is as [Is _]. unfold t. rewrite var_set_node, Is. reflexivity. }
      assert (Hvn : v < length names) by (eapply var_set_names; eauto).
      assert (K0 : forall b, lvar (mk_lit v b) = v) by (intros; apply mk_lit_var).
      apply bind_cap in E; [| | exact Hcap].
      2: { intros q. apply mono_if; [apply mono_retry; exact Mo |]. apply mono_bind; [apply mono_branch; exact Mo | intros]. apply mono_if; [apply mono_retry; exact Mo |].
           repeat (apply mono_bind; [first [apply mono_lift | apply mono_f_negate | apply mono_f_nary] | intros]). apply mono_ret. }
      destruct E as (p1 & s2 & E2 & Hc2 & E).
      assert (Z1 : confl (snd p1) = 0).
      { destruct (is_falsum (fst p1)); [apply confl_retry in E; [lia | exact Cm] |]. brun E q s3 E3. apply confl_branch in E3; [| exact Cm]. destruct E3 as (_ & _ & _ & _ & K3). destruct (is_falsum (fst q)); [apply confl_retry in E; [lia | exact Cm] |].
        apply bind_lift in E. destruct E as (a & _ & E). brun E nx s4 E4. brun E pb s5 E5. brun E nb s6 E6. brun E sh s7 E7. brun E h s8 E8. injection E as <- <-. cbn [snd] in *. lia. }
      assert (HI0 : Iso lits (vl c0) t) by (rewrite V0; exact HI). assert (Hv0 : var_set lits (vl c0) t v = true) by (rewrite V0; exact Hv).
      destruct (branch_ok (cnf2ddnnf orc fuel lits nv n) IH Cm t v true c0 W s1 p1 s2 Hi1 Hc0 Ht HI0 Hv0 E2 Hc2 Z1) as (A1 & y1 & Hy1 & Dy1 & Sy1 & Vy1 & Sat1 & Pf1).
      pose proof (after_vl _ _ _ _ _ Hc0 A1) as VA. rewrite V0 in VA.
      rewrite (not_falsum _ _ _ _ (af_inv _ _ _ _ _ A1) Hy1 Sat1) in E. apply bind_cap in E; [| | exact Hcap].
      2: { intros q. apply mono_if; [apply mono_retry; exact Mo |]. repeat (apply mono_bind; [first [apply mono_lift | apply mono_f_negate | apply mono_f_nary] | intros]). apply mono_ret. }
      destruct E as (p2 & s3 & E3 & Hc3 & E).
      assert (Z2 : confl (snd p2) = 0).
      { destruct (is_falsum (fst p2)); [apply confl_retry in E; [lia | exact Cm] |]. apply bind_lift in E. destruct E as (a & _ & E). brun E nx s4 E4. brun E pb s5 E5. brun E nb s6 E6. brun E sh s7 E7. brun E h s8 E8. injection E as <- <-. cbn [snd] in *. lia. }
      assert (HI1 : Iso lits (vl (snd p1)) t) by (eapply Iso_ext; [| exact HI]; intros l; symmetry; apply VA). assert (Hv1 : var_set lits (vl (snd p1)) t v = true) by (rewrite <- Hv; apply var_set_ext; intros; apply VA).
      destruct (branch_ok (cnf2ddnnf orc fuel lits nv n) IH Cm t v false (snd p1) W s2 p2 s3 (af_inv _ _ _ _ _ A1) (af_c _ _ _ _ _ A1) Ht HI1 Hv1 E3 Hc3 Z2) as (A2 & y2 & Hy2 & Dy2 & Sy2 & Vy2 & Sat2 & Pf2).
      rewrite (not_falsum _ _ _ _ (af_inv _ _ _ _ _ A2) Hy2 Sat2) in E. cbn [negb] in *.
      assert (Sy2' : forall w, sem w y2 = Vn w (mk_lit v true) && Res lits (vl c) t (Vn w)) by (intros u; rewrite Sy2; f_equal; apply Res_ext; intros; apply VA).
      assert (Vy2' : invars (fun k => var_set lits (vl c) t k = true) y2) by (eapply invars_weak; [| exact Vy2]; intros k K; cbn beta in *; rewrite <- K; symmetry; apply var_set_ext; intros; apply VA).
      rewrite V0 in Sy1, Vy1. clear Sy2 Vy2. pose proof (af_ext _ _ _ _ _ A2) as X2. pose proof (af_ext _ _ _ _ _ A1) as X1.
      rewrite (di_names _ (ci_d _ _ (af_c _ _ _ _ _ A2))), itl in E; [| rewrite K0; exact Hvn]. apply bind_lift in E. destruct E as (a & Ea & E). apply ok_inj in Ea. subst a.
      pose proof (af_inv _ _ _ _ _ A2) as Hi3. pose proof (ci_kn _ _ (af_c _ _ _ _ _ A2)) as Kn3.
      apply bind_cap in E; [| intros; repeat (apply mono_bind; [apply mono_f_nary | intros]); apply mono_ret | exact Hcap]. destruct E as (nx & s4 & E4 & Hc4 & E). rewrite (negate_of s3) in E4; [| apply Hi3 | exact Kn3 | rewrite K0; exact Hvn]. apply okp_inj in E4. destruct E4; subst nx s4.
      rewrite mk_neg in E.
      apply bind_cap in E; [| intros; repeat (apply mono_bind; [apply mono_f_nary | intros]); apply mono_ret | exact Hcap]. destruct E as (pb & s5 & E5 & Hc5 & E).
      destruct (run_absorb _ _ _ y1 W s3 pb s5 Hi3 (hdl_of s3 (mk_lit v false) (i_wf _ _ Hi3) Kn3 ltac:(rewrite K0; exact Hvn)) (hdl_ext _ _ _ _ X2 Hy1) E5 Hc5 Dy1 Pf1) as (Hi5 & He5 & z1 & Hz1 & Dz1 & Sz1 & Vz1).
      apply bind_cap in E; [| intros; repeat (apply mono_bind; [apply mono_f_nary | intros]); apply mono_ret | exact Hcap]. destruct E as (nb & s6 & E6 & Hc6 & E).
      destruct (run_absorb _ _ _ y2 W s5 nb s6 Hi5 (hdl_of s5 (mk_lit v true) (i_wf _ _ Hi5) (kn_names_ext _ _ He5 Kn3) ltac:(rewrite K0; exact Hvn)) (hdl_ext _ _ _ _ He5 Hy2) E6 Hc6 Dy2 Pf2) as (Hi6 & He6 & z2 & Hz2 & Dz2 & Sz2 & Vz2).
      apply bind_cap in E; [| intros; repeat (apply mono_bind; [apply mono_f_nary | intros]); apply mono_ret | exact Hcap]. destruct E as (sh & s7 & E7 & Hc7 & E).
      assert (Ex12 : exclusive z1 z2) by (intros u; rewrite Sz1, Sz2, Sy1, Sy2', (Vn_pos_neg u v); destruct (Vn u (mk_lit v false)), (Res lits (vl c) t (Vn u)); reflexivity).
      destruct (run_disj [pb; nb] [z1; z2] W s6 sh s7 Hi6) as (Hi7 & He7 & z & Hzz & Dz & Sz & Vz); auto.
      { constructor; [exact (hdl_ext _ _ _ _ He6 Hz1) | constructor; [exact Hz2 | constructor]]. }
      { intros u [<- | [<- | []]]; auto. }
      { intros a b [<- | [<- | []]] [<- | [<- | []]]; auto. right. apply exclusive_sym. exact Ex12. }
      apply bind_cap in E; [| intros; apply mono_ret | exact Hcap]. destruct E as (r & s8 & E8 & Hc8 & E). apply okp_inj in E. destruct E; subst p s'. cbn [fst snd] in *.
      assert (Sz' : forall u, sem u z = Res lits (vl c) t (Vn u)).
      { intros u. rewrite Sz. cbn [existsb]. rewrite Sz1, Sz2, Sy1, Sy2', (Vn_pos_neg u v). destruct (Vn u (mk_lit v false)), (Res lits (vl c) t (Vn u)); reflexivity. }
      destruct (assemble (vl c) t ns yi [z] (fst i) [sh] W s7 r s8) as (Hi8 & He8 & y3 & Hy3 & G3); auto.
      + apply vl_ok.
      + intros l Hl'. apply N2, Hl'.
      + intros l Hl'. apply N2, Hl'.
      + exact (hdl_ext _ _ _ _ (ext_trans _ _ _ X1 (ext_trans _ _ _ X2 (ext_trans _ _ _ He5 (ext_trans _ _ _ He6 He7)))) Hyi).
      + constructor; [constructor | constructor].
      + intros u [<- | []]. split; [exact Dz |]. split.
        * destruct Sat1 as (u & Ku). exists u. rewrite Sz'. rewrite Sy1 in Ku. apply andb_prop in Ku. apply Ku.
        * intros u Hu. apply Vz in Hu. cbn [flat_map] in Hu. rewrite app_nil_r in Hu. apply in_app_or in Hu. destruct Hu as [Hu | Hu]; [apply Vy1, Vz1, Hu | apply Vy2', Vz2, Hu].
      + intros u. cbn [forallb]. rewrite Sz', andb_true_r. reflexivity.
      + split; [| exists y3; auto]. eapply after_ext; [eapply after_trans; [exact A0 | eapply after_trans; eauto] | exact Hi8 |].
        exact (ext_trans _ _ _ He5 (ext_trans _ _ _ He6 (ext_trans _ _ _ He7 He8))).
  Qed.
End Main.
