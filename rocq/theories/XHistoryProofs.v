(** The invariant of extended histories: some world explains all caches, all handles of the caller and all its objects. *)
From Coq Require Import NArith ZArith List Bool Arith Lia.
From Verif Require Import Base EncodingModel EncodingProofs Syntax FactoryModel FactoryInv FactoryBasics FactoryProofs FactorySpecs FactoryNary
  FactoryOps EvalProofs HistoryModel HistoryProofs ConstraintModel OpsModel OpsProofs CcModel EncBasics CcFrontProofs PbModel CacheModel TransModel
  TreeSpec WorldProofs MetricsProofs EncodeProofs NnfProofs CnfProofs DefBasics TseitinProofs PgProofs EncoderProofs PureProofs AnonProofs XHistory.
Import ListNotations.
Local Open Scope N_scope.

Definition has (s : factory) (h : N) : Prop := exists x, hdl s h x.
Definition obj_ok (W : world) (s : factory) (o : obj) : Prop := match o with OEnc e => enc_ok W e s | OAnon a => an_ok a s end.
Definition xinv (W : world) (a : xstate) : Prop :=
  inv W (x_fac a) /\ Forall (has (x_fac a)) (x_known a) /\ Forall (obj_ok W (x_fac a)) (x_objs a).

Lemma has_ext : forall s s' h, ext s s' -> has s h -> has s' h.
Proof. intros s s' h He [x Hx]. exists x. eapply hdl_ext; eauto. Qed.
Lemma has_vh : forall s l, Forall (has s) l -> Forall (vh s) l.
Proof. intros s l H. eapply Forall_impl; [| exact H]. intros h [x [Hx _]]. exact Hx. Qed.
Lemma obj_ok_ext : forall W W' s s' o, cap s' -> ext s s' -> sub W' W -> obj_ok W s o -> obj_ok W' s' o.
Proof. intros W W' s s' [e | a] Hc He Hs H; cbn in *; [eapply enc_ok_ext; eauto | eapply an_ok_ext; eauto]. Qed.

Lemma hdl_const : forall s b, hdl s (constant b) (fconst b).
Proof. intros s b. split; [apply vh_constant |]. split; [apply denotes_const |]. intros u Hu. destruct b; destruct Hu. Qed.
Lemma hdl_same : forall s h x y, hdl s h x -> denotes s h y -> y = x.
Proof. intros s h x y [_ [Hd _]] Hy. exact (denotes_fun _ _ _ _ Hy Hd). Qed.

Lemma x_new_aux_any : forall W s a, inv W s -> xspec W s (f_new_aux a) (fun u s' W' => W' = W /\ known s' u).
Proof.
  intros W s a Hi. destruct (new_aux_spec s a (i_wf _ _ Hi)) as [H1 H2]. split; [assumption |]. intros Hc. destruct (H2 Hc) as [u [Hu [Hw [He _]]]].
  exists u, W. split; [assumption |]. split.
  - constructor; [assumption | eapply world_ok_ext; [exact He | apply Hi] |].
    assert (E : f_caches (snd (f_new_aux a s)) = f_caches s) by (destruct a; reflexivity). rewrite E.
    apply (caches_ok_ext W W s); [apply Hi | apply sub_refl | exact He | apply Hi].
  - split; [apply sub_refl |]. split; [exact He |]. split; [reflexivity |].
    destruct a; cbn in Hu; injection Hu as <-; unfold known, old; cbn; lia.
Qed.

(** Results of constructors. *)
Lemma x_result_v : forall W s m S vs, inv W s -> (forall u, In u vs -> known s u) ->
  spec wf core s m (fun r s' => result_v s' r S vs) -> xspec W s m (fun r s' _ => has s' r).
Proof.
  intros W s m S vs Hi Hk Hs. eapply x_conseq; [apply x_core; [assumption | exact Hs] |].
  intros r s' W' _ He _ [-> [_ [Hv [y [Hd [_ Hl]]]]]]. exists y. split; [assumption |]. split; [assumption |].
  intros u Hu. eapply known_ext; [exact He | auto].
Qed.
Lemma x_result : forall W s m S lvs, inv W s -> (forall u, In u (flat_map leaf_vars lvs) -> known s u) ->
  spec wf core s m (fun r s' => result s' r S lvs) -> xspec W s m (fun r s' _ => has s' r).
Proof.
  intros W s m S lvs Hi Hk Hs. eapply x_result_v; [assumption | exact Hk |].
  eapply spec_conseq; [exact Hs |]. intros r s' _ _ H. eapply result_v_of; [exact H |].
  intros lf Hlf u Hu. apply in_flat_map. eauto.
Qed.

Lemma knows_var_known : forall s l v, wf s -> Forall (has s) l -> knows_var s l v -> known s v.
Proof.
  intros s l v Hw Hk [h [n [Hh [Hu Hin]]]]. rewrite Forall_forall in Hk. destruct (Hk h Hh) as [x [Hv [Hd Hkn]]]. apply Hkn.
  pose proof (denotes_by_node _ _ _ _ Hu Hd) as E. destruct n; cbn in Hin; try contradiction; subst x; unfold fvars; cbn; rewrite ?app_nil_r; try assumption.
Qed.

Lemma has_list : forall s known l, Forall (has s) known -> incl l known -> exists xs, Forall2 (hdl s) l xs.
Proof.
  intros s known l Hk Hl. assert (H : Forall (has s) l) by (rewrite Forall_forall in *; auto). clear Hl.
  induction H as [| h l [x Hx] H [xs IH]]; [exists []; constructor |]. exists (x :: xs). constructor; assumption.
Qed.
Lemma hdls_split : forall s l xs, Forall2 (hdl s) l xs -> Forall (vh s) l /\ Forall2 (denotes s) l xs /\ (forall x, In x xs -> kn s x).
Proof.
  intros s l xs H. induction H as [| h x l xs [H1 [H2 H3]] H [I1 [I2 I3]]]; [split; [constructor |]; split; [constructor | intros ? []] |].
  split; [constructor; assumption |]. split; [constructor; assumption |]. intros y [<- | Hy]; auto.
Qed.
Lemma leaf_vars_trees : forall s xs u, (forall x, In x xs -> kn s x) -> In u (flat_map leaf_vars (flat_map leaves xs)) -> known s u.
Proof.
  intros s xs u H Hu. apply in_flat_map in Hu. destruct Hu as [lf [Hlf Hu]]. apply in_flat_map in Hlf. destruct Hlf as [x [Hx Hlf]].
  apply (H x Hx). unfold fvars. apply in_flat_map. eauto.
Qed.

Lemma xcall_c_spec : forall W s known c, inv W s -> Forall (has s) known -> xcall_ok s known (XCall c) -> asserted c ->
  xspec W s (run_call c) (fun r s' _ => has s' r).
Proof.
  intros W s known c Hi Hk Hok Has. pose proof (i_wf _ _ Hi) as Hw.
  assert (Hden : forall h, In h known -> has s h) by (rewrite Forall_forall in Hk; exact Hk).
  destruct c as [name | name p | b | cj ops | ls | h | h | l r | l r | c rhs vs | c rhs ls cs | a | a i]; cbn [xcall_ok call_ok run_call asserted] in *.
  - eapply x_conseq; [apply x_core; [assumption | apply f_variable_spec; assumption] |].
    intros r s' W' Hi' _ _ [-> [_ [i [-> [_ [Ho _]]]]]]. exists (FLit (Lit (VFF i) true)). apply hdl_lit; [apply (i_wf _ _ Hi') | exact Ho].
  - eapply x_conseq; [apply x_core; [assumption | apply f_literal_spec; assumption] |].
    intros r s' W' Hi' _ _ [-> [_ [i [Hv [Hd Hn]]]]]. exists (FLit (Lit (VFF i) p)). split; [assumption |]. split; [assumption |].
    intros u [<- | []]. unfold WorldProofs.known, old. cbn. eapply nthN_some_lt. exact Hn.
  - apply x_ret; [assumption |]. eexists. apply hdl_const.
  - destruct (has_list _ _ _ Hk Hok) as [xs Hxs]. destruct (hdls_split _ _ _ Hxs) as [H1 [H2 H3]].
    eapply x_result; [assumption | intros u; apply (leaf_vars_trees s xs u H3) |].
    eapply spec_conseq; [eapply nary_result; eassumption |]. intros ? ? _ _ [H _]. exact H.
  - eapply x_result with (lvs := map (fun l => LfVar (lit_var l)) ls); [assumption | |].
    + intros u Hu. rewrite flat_map_concat_map, map_map in Hu. cbn in Hu. apply in_concat in Hu. destruct Hu as [l [Hl Hu]]. apply in_map_iff in Hl.
      destruct Hl as [lt [<- Hlt]]. destruct Hu as [<- | []]. rewrite Forall_forall in Hok. exact (knows_var_known s known _ Hw Hk (Hok lt Hlt)).
    + eapply spec_conseq; [eapply f_clause_result; [assumption | eapply knows_lits_ok; [assumption | apply has_vh; exact Hk | exact Hok]] |].
      intros ? ? _ _ [H _]. exact H.
  - destruct (Hden h Hok) as [x [Hv [Hd Hkn]]]. eapply x_result; [assumption | exact Hkn | apply f_not_result; assumption].
  - destruct (Hden h Hok) as [x [Hv [Hd Hkn]]]. eapply x_result_v; [assumption | exact Hkn | apply f_negate_result; assumption].
  - destruct Hok as [Hl Hr]. destruct (Hden l Hl) as [x [Hv [Hx Hkx]]], (Hden r Hr) as [y [Hv' [Hy Hky]]].
    eapply x_result; [assumption | | apply f_implication_result; eassumption].
    intros u Hu. rewrite flat_map_app in Hu. apply in_app_or in Hu. destruct Hu; [apply Hkx | apply Hky]; assumption.
  - destruct Hok as [Hl Hr]. destruct (Hden l Hl) as [x [Hv [Hx Hkx]]], (Hden r Hr) as [y [Hv' [Hy Hky]]].
    eapply x_result; [assumption | | apply f_equivalence_result; eassumption].
    intros u Hu. rewrite flat_map_app in Hu. apply in_app_or in Hu. destruct Hu; [apply Hkx | apply Hky]; assumption.
  - destruct Hok as [Hvs Hr]. eapply x_result_v; [assumption | |
      apply f_cc_result; [assumption | eapply knows_vars_ok; [assumption | apply has_vh; exact Hk | exact Hvs] | exact Hr | exact Has]].
    intros u Hu. rewrite Forall_forall in Hvs. exact (knows_var_known s known _ Hw Hk (Hvs u Hu)).
  - destruct Hok as [Hls Hf]. eapply x_result_v; [assumption | |
      apply f_pbc_result; [assumption | eapply knows_lits_ok; [assumption | apply has_vh; exact Hk | exact Hls] | exact Has | exact Hf]].
    intros u Hu. apply in_map_iff in Hu. destruct Hu as [l [<- Hl]]. rewrite Forall_forall in Hls. exact (knows_var_known s known _ Hw Hk (Hls l Hl)).
  - eapply x_bind; [apply x_new_aux_any; assumption | intros; apply mono_ret |].
    intros v s' W' Hi' He _ [-> Hv]. apply x_ret; [assumption |]. exists (FLit (Lit v true)). apply hdl_lit; [apply (i_wf _ _ Hi') | exact Hv].
  - apply x_ret; [assumption |]. exists (FLit (Lit (VAux a i) true)). apply hdl_lit; [assumption | exact Hok].
Qed.

Lemma below_has : forall s h k, wf s -> has s h -> below s h k -> has s k.
Proof.
  intros s h k Hw Hh H. induction H as [| k n o H [x Hx] Hu Ho]; [assumption |].
  pose proof (hdls_children s k x n Hw Hx Hu) as Hc. clear -Hc Ho.
  induction Hc as [| a b l m Hab Hc IH]; [destruct Ho |]. destruct Ho as [<- | Ho]; [exists b; exact Hab | auto].
Qed.

(** What makes a call panic by itself. *)
Definition xasserted (s : factory) (c : xcall) (o : obj) : Prop :=
  match c with
  | XCall c => asserted c
  | XEncode h => exists n, unpack s h = Ok n /\ match n with NCc _ | NPbc _ => True | _ => False end
  | XCnf _ _ _ | XTseitin _ _ _ | XPg _ _ _ => exists e, o = OEnc e
  | XAnonymize _ _ => exists a, o = OAnon a
  | _ => True
  end.

Lemma has_pres : forall (P : world -> fml -> fml -> Prop) x r s W, pres P x r s W -> has s r.
Proof. intros P x r s W [y [Hy _]]. exists y. exact Hy. Qed.

Section Spec.
  Variables (W : world) (s : factory) (o : obj).
  Hypothesis Hi : inv W s.
  Hypothesis Ho : obj_ok W s o.
  Definition xpost (p : list N * obj) (s' : factory) (W' : world) : Prop := Forall (has s') (fst p) /\ obj_ok W' s' (snd p).

  Lemma x_handle : forall (m : M N) Q, xspec W s m Q -> (forall r s' W', Q r s' W' -> has s' r) -> xspec W s (r <-- m ;; ret ([r], o)) xpost.
  Proof.
    intros m Q Hm HQ. eapply x_bind; [exact Hm | intros; apply mono_ret |]. intros r s1 W1 Hi1 He1 Hs1 H. apply x_ret; [assumption |]. split; cbn [fst snd].
    - repeat constructor. eapply HQ. exact H.
    - eapply obj_ok_ext; [apply (wf_cap _ (i_wf _ _ Hi1)) | exact He1 | exact Hs1 | exact Ho].
  Qed.
  Lemma x_value : forall A (m : M A) Q, xspec W s m Q -> xspec W s (_ <-- m ;; ret ([], o)) xpost.
  Proof.
    intros A m Q Hm. eapply x_bind; [exact Hm | intros; apply mono_ret |]. intros r s1 W1 Hi1 He1 Hs1 H. apply x_ret; [assumption |]. split; cbn [fst snd]; [constructor |].
    eapply obj_ok_ext; [apply (wf_cap _ (i_wf _ _ Hi1)) | exact He1 | exact Hs1 | exact Ho].
  Qed.
  Lemma x_handles : forall (m : M (list N)) Q, xspec W s m Q -> (forall r s' W', inv W' s' -> ext s s' -> Q r s' W' -> Forall (has s') r) -> xspec W s (r <-- m ;; ret (r, o)) xpost.
  Proof.
    intros m Q Hm HQ. eapply x_bind; [exact Hm | intros; apply mono_ret |]. intros r s1 W1 Hi1 He1 Hs1 H. apply x_ret; [assumption |]. split; cbn [fst snd].
    - eapply HQ; eassumption.
    - eapply obj_ok_ext; [apply (wf_cap _ (i_wf _ _ Hi1)) | exact He1 | exact Hs1 | exact Ho].
  Qed.
End Spec.

Lemma encd_has : forall x l s W, encd x l s W -> Forall (has s) l.
Proof. intros x l s W [ys [H _]]. induction H; constructor; auto. eexists. eassumption. Qed.

Lemma xcall_spec : forall W s known c o, inv W s -> Forall (has s) known -> obj_ok W s o -> xcall_ok s known c -> xasserted s c o ->
  xspec W s (xrun c o) xpost.
Proof.
  intros W s known c o Hi Hk Ho Hok Has. pose proof (i_wf _ _ Hi) as Hw.
  assert (Hden : forall h P, In h known -> all_of s h P -> exists x, hdl s h x /\ P x).
  { intros h P Hh Ha. rewrite Forall_forall in Hk. destruct (Hk h Hh) as [x Hx]. exists x. split; [assumption |]. apply Ha, Hx. }
  destruct c as [c | fuel a h | fuel sg h | fuel h | cj fuel h | H hd st cj fuel h | fuel h | h | fuel h | h | fuel h | fuel h | fuel h | fuel h
    | fuel h | fuel h | fuel h | alg fuel h | b fuel h | b fuel h | fuel h]; cbn [xrun]; [| cbn [xcall_ok] in Hok; unfold enough in Hok ..].
  - eapply x_handle; [exact Ho | eapply xcall_c_spec; eassumption | auto].
  - destruct Hok as [Hh Ha]. destruct (Hden h _ Hh Ha) as [x [[Hv [Hd Hkn]] [Hr Hf]]].
    eapply x_handle; [exact Ho | eapply x_conseq; [apply x_core; [assumption | apply (restrict_spec a fuel s x h); auto; lia] |] |].
    + intros r s' W' _ He _ [-> [_ [Hvr [y [Hdy [_ Hy]]]]]]. instantiate (1 := fun r s' _ => has s' r). exists y. split; [assumption |]. split; [assumption |].
      intros u Hu. eapply known_ext; [exact He |]. apply Hkn, Hy, Hu.
    + auto.
  - destruct Hok as [Hh [Hsg Ha]]. destruct (Hden h _ Hh Ha) as [x [[Hv [Hd Hkn]] [Hr Hf]]].
    assert (Hgood : sg_ok s sg).
    { intros u g Hg. apply Hsg in Hg. rewrite Forall_forall in Hk. destruct (Hk g Hg) as [y [Hvy [Hdy _]]]. split; [assumption | exists y; assumption]. }
    eapply x_handle; [exact Ho | eapply x_conseq; [apply x_core; [assumption | apply (substitute_spec s sg fuel Hgood s x h); auto using ext_refl; lia] |] |].
    + intros r s' W' _ He _ [-> [_ [Hvr [y [Hdy [_ Hy]]]]]]. instantiate (1 := fun r s' _ => has s' r). exists y. split; [assumption |]. split; [assumption |].
      intros u Hu. eapply known_ext; [exact He |]. destruct (Hy u Hu) as [[Hin _] | [u' [g [z [_ [Hg [Hz Hin]]]]]]]; [apply Hkn; assumption |].
      apply Hsg in Hg. rewrite Forall_forall in Hk. destruct (Hk g Hg) as [z' Hz']. rewrite (hdl_same _ _ _ _ Hz' Hz) in Hin. apply Hz'. assumption.
    + auto.
  - destruct Hok as [Hh Ha]. destruct (Hden h _ Hh Ha) as [x [Hx [He Hf]]].
    eapply x_handle; [exact Ho | apply (nnf_spec fuel x); auto; lia | intros; eapply has_pres; eassumption].
  - destruct Hok as [Hh Ha]. destruct (Hden h _ Hh Ha) as [x [Hx [He Hf]]].
    eapply x_handle; [exact Ho | apply (fact_nop_spec cj fuel x); auto; lia | intros; eapply has_pres; eassumption].
  - destruct Hok as [Hh Ha]. destruct (Hden h _ Hh Ha) as [x [Hx [He Hf]]].
    eapply x_bind; [apply (factorization_spec H hd cj fuel x); auto; lia | intros; apply mono_ret |].
    intros p s1 W1 Hi1 He1 Hs1 Hp. apply x_ret; [assumption |]. split; cbn [fst snd].
    + cbn beta in Hp. destruct (fst p) as [r | e]; [| constructor]. repeat constructor. eapply has_pres. exact Hp.
    + eapply obj_ok_ext; [apply (wf_cap _ (i_wf _ _ Hi1)) | exact He1 | exact Hs1 | exact Ho].
  - destruct Hok as [Hh Ha]. destruct (Hden h _ Hh Ha) as [x [Hx [He Hf]]].
    eapply x_handle; [exact Ho | apply (pure_expansion_spec fuel x); auto; lia | intros; eapply has_pres; eassumption].
  - destruct Hok as [Hh Ha]. destruct (Hden h _ Hh Ha) as [x [Hx He]]. destruct Has as [n [Hu Hn]].
    eapply x_handles with (Q := encd x); [exact Ho | | intros r s' W' _ _ HQ; eapply encd_has; exact HQ].
    unfold encode_handle. eapply x_unpack_bind; [exact Hu |].
    pose proof (denotes_by_node _ _ _ _ Hu (proj1 (proj2 Hx))) as E. destruct n; try contradiction; subst x.
    + apply (cc_encode_spec c W s h); [assumption | assumption |]. apply (cc_cfg_of_enc s h); [assumption | apply Hx | assumption |].
      unfold encodable in He. cbn [leaves] in He. now inversion He.
    + apply (pbc_encode_spec p W s h); [assumption | assumption |]. unfold encodable in He. cbn [leaves] in He. now inversion He.
  - destruct Hok as [Hh Ha]. destruct (Hden h _ Hh Ha) as [x [[Hv [Hd _]] Hf]]. eapply x_value; [exact Ho | apply (is_nnf_spec fuel x); auto; lia].
  - assert (Hn : all_of s h (fun _ => True)) by (intros x Hx; exact I). destruct (Hden h _ Hok Hn) as [x [[Hv [Hd _]] _]].
    eapply x_value; [exact Ho | apply (is_dnf_spec x); auto].
  - destruct Hok as [Hh Ha]. destruct (Hden h _ Hh Ha) as [x [[Hv [Hd _]] Hf]]. eapply x_value; [exact Ho | apply (contains_pbc_spec fuel x); auto; lia].
  - destruct Hok as [Hh Ha]. destruct (Hden h _ Hh Ha) as [x [[Hv [Hd _]] Hf]]. eapply x_value; [exact Ho | apply (formula_depth_spec fuel x); auto; lia].
  - destruct Hok as [Hh Ha]. destruct (Hden h _ Hh Ha) as [x [[Hv [Hd _]] Hf]]. eapply x_value; [exact Ho | apply (number_of_atoms_spec fuel x); auto; lia].
  - destruct Hok as [Hh Ha]. destruct (Hden h _ Hh Ha) as [x [[Hv [Hd _]] Hf]]. eapply x_value; [exact Ho | apply (number_of_nodes_spec fuel x); auto; lia].
  - destruct Hok as [Hh Ha]. destruct (Hden h _ Hh Ha) as [x [[Hv [Hd _]] Hf]]. eapply x_value; [exact Ho | apply (variables_spec fuel x); auto; lia].
  - destruct Hok as [Hh Ha]. destruct (Hden h _ Hh Ha) as [x [[Hv [Hd _]] Hf]]. eapply x_value; [exact Ho | apply (literals_spec fuel x); auto; lia].
  - destruct Hok as [Hh Ha]. destruct (Hden h _ Hh Ha) as [x [Hx Hf]]. pose proof Hx as [Hv [Hd _]].
    eapply x_handles; [exact Ho | apply (sub_nodes_spec fuel x); auto; lia |].
    intros l s' W' Hi' He [_ [_ [Hb _]]]. apply Forall_forall. intros k Hin. apply Hb in Hin. eapply below_has; [apply (i_wf _ _ Hi') | | exact Hin].
    exists x. eapply hdl_ext; eauto.
  - destruct Hok as [Hh Ha]. destruct (Hden h _ Hh Ha) as [x [Hx [He Hf]]]. destruct Has as [e ->].
    eapply x_bind; [apply (cnf_transform_spec alg fuel x); auto; lia | intros; apply mono_ret |].
    intros p s1 W1 Hi1 _ _ [He1 [y [Hy _]]]. apply x_ret; [assumption |]. split; cbn [fst snd]; [repeat constructor; exists y; exact Hy | exact He1].
  - destruct Hok as [Hh Ha]. destruct (Hden h _ Hh Ha) as [x [Hx [He Hf]]]. destruct Has as [e ->].
    eapply x_bind; [apply (tseitin_spec fuel x); [assumption | assumption | assumption | apply ts_state; exact Ho | lia] | intros; apply mono_ret |].
    intros p s1 W1 Hi1 He1 Hs1 [Hp [y [Hy _]]]. apply x_ret; [assumption |]. split; cbn [fst snd]; [repeat constructor; exists y; exact Hy |].
    cbn [obj_ok] in *. apply enc_ts; [| exact Hp]. eapply enc_ok_ext; eauto.
  - destruct Hok as [Hh Ha]. destruct (Hden h _ Hh Ha) as [x [Hx [He Hf]]]. destruct Has as [e ->].
    eapply x_bind; [apply (pg_spec fuel x); [assumption | assumption | assumption | apply pg_state; exact Ho | lia] | intros; apply mono_ret |].
    intros p s1 W1 Hi1 He1 Hs1 [Hp [y [Hy _]]]. apply x_ret; [assumption |]. split; cbn [fst snd]; [repeat constructor; exists y; exact Hy |].
    cbn [obj_ok] in *. apply enc_pg; [| exact Hp]. eapply enc_ok_ext; eauto.
  - destruct Hok as [Hh Ha]. destruct (Hden h _ Hh Ha) as [x [Hx [He Hf]]]. destruct Has as [a ->].
    eapply x_bind; [apply (anonymize_spec fuel x); [assumption | assumption | exact Ho | assumption | lia] | intros; apply mono_ret |].
    intros p s1 W1 Hi1 _ _ [Hp [_ [_ [y [Hy _]]]]]. apply x_ret; [assumption |]. split; cbn [fst snd]; [repeat constructor; exists y; exact Hy | exact Hp].
Qed.

Lemma xasserted_of_run : forall s c o p s', xrun c o s = (Ok p, s') -> xasserted s c o.
Proof.
  intros s c o p s' H. destruct c; cbn [xrun xasserted] in *; auto.
  - unfold bind in H. destruct (run_call c s) as [[r | |] s1] eqn:E; try discriminate. eapply asserted_of_run. exact E.
  - unfold encode_handle, unpackM, bind, lift in H. destruct (unpack s h) as [n | |]; [| discriminate | discriminate]. exists n. split; [reflexivity |].
    destruct n; try discriminate; exact I.
  - destruct o; [eauto | discriminate].
  - destruct o; [eauto | discriminate].
  - destruct o; [eauto | discriminate].
  - destruct o; [discriminate | eauto].
Qed.

Lemma x_run : forall A W s (m : M A) Q r s', xspec W s m Q -> m s = (r, s') -> cap s' ->
  exists a W', r = Ok a /\ inv W' s' /\ sub W' W /\ ext s s' /\ Q a s' W'.
Proof. intros A W s m Q r s' [_ H] Hm Hc. rewrite Hm in H. cbn in H. auto. Qed.

Lemma xstep_ok : forall W a b, xstep a b -> xinv W a -> exists W', xinv W' b /\ sub W' W /\ ext (x_fac a) (x_fac b).
Proof.
  intros W a b H [Hi [Hk Hos]].
  destruct H as [s known os c l o s' Hok Hr Hc | s known os1 o os2 c l o' s' Hok Hr Hc | s known os o Hn | s known os h n Hh Hu]; cbn [x_fac x_known x_objs] in *.
  - assert (Ho : obj_ok W s (OEnc enc_stateless)) by (split; intros st E; discriminate).
    destruct (x_run _ _ _ _ _ _ _ (xcall_spec W s known c _ Hi Hk Ho Hok (xasserted_of_run _ _ _ _ _ Hr)) Hr Hc) as [p [W' [E [Hi' [Hs [He [Hl _]]]]]]].
    injection E as <-. exists W'. split; [| split; [exact Hs | exact He]]. split; [exact Hi' |]. cbn [x_fac x_known x_objs]. cbn [fst snd] in *. split.
    + apply Forall_app. split; [exact Hl |]. eapply Forall_impl; [| exact Hk]. intros h. apply has_ext. exact He.
    + eapply Forall_impl; [| exact Hos]. intros q. apply obj_ok_ext; assumption.
  - apply Forall_app in Hos. destruct Hos as [H1 H2]. pose proof (Forall_inv H2) as Ho. apply Forall_inv_tail in H2.
    destruct (x_run _ _ _ _ _ _ _ (xcall_spec W s known c o Hi Hk Ho Hok (xasserted_of_run _ _ _ _ _ Hr)) Hr Hc) as [p [W' [E [Hi' [Hs [He [Hl Ho']]]]]]].
    injection E as <-. exists W'. split; [| split; [exact Hs | exact He]]. split; [exact Hi' |]. cbn [x_fac x_known x_objs]. cbn [fst snd] in *. split.
    + apply Forall_app. split; [exact Hl |]. eapply Forall_impl; [| exact Hk]. intros h. apply has_ext. exact He.
    + assert (Hx : forall q, obj_ok W s q -> obj_ok W' s' q) by (intros q; apply obj_ok_ext; assumption).
      apply Forall_app. split; [eapply Forall_impl; [exact Hx | exact H1] |]. constructor; [exact Ho' |]. eapply Forall_impl; [exact Hx | exact H2].
  - exists W. split; [| split; [apply sub_refl | apply ext_refl]]. split; [exact Hi |]. split; [exact Hk |]. constructor; [| exact Hos].
    destruct Hn as [-> | [-> | [p ->]]]; cbn [x_fac obj_ok].
    + split; intros st E; discriminate.
    + split; intros st E; injection E as <-; [apply ts_new | apply pg_new].
    + apply an_ok_new.
  - exists W. split; [| split; [apply sub_refl | apply ext_refl]]. split; [exact Hi |]. split; [| exact Hos]. cbn [x_fac x_known]. apply Forall_app. split; [| exact Hk].
    rewrite Forall_forall in Hk |- *. intros k Hin. eapply below_has; [apply (i_wf _ _ Hi) | apply (Hk h Hh) |]. eapply below_step; [apply below_refl | exact Hu | exact Hin].
Qed.

Lemma xsteps_ok : forall W a b, xsteps a b -> xinv W a -> exists W', xinv W' b /\ sub W' W /\ ext (x_fac a) (x_fac b).
Proof.
  intros W a b H Ha. induction H as [| a b c H IH Hs].
  - exists W. split; [assumption |]. split; [apply sub_refl | apply ext_refl].
  - destruct (IH Ha) as [W1 [Hb [Hs1 He1]]]. destruct (xstep_ok W1 b c Hs Hb) as [W2 [Hc [Hs2 He2]]]. exists W2. split; [assumption |].
    split; [exact (sub_trans _ _ _ Hs2 Hs1) | exact (ext_trans _ _ _ He1 He2)].
Qed.

Lemma xinv_new : forall cfg, xinv (fun _ => True) (mkX (factory_new cfg) [] []).
Proof.
  intros cfg. split; [| split; constructor]. constructor; cbn [x_fac].
  - apply wf_new.
  - split; [intros v; exists v; auto | auto].
  - constructor; intros h v E; discriminate.
Qed.

Theorem xreachable_ok : forall cfg s known os, xreachable cfg s known os -> exists W, inv W s /\ Forall (has s) known /\ Forall (obj_ok W s) os.
Proof. intros cfg s known os H. destruct (xsteps_ok _ _ _ H (xinv_new cfg)) as [W [H1 _]]. exists W. exact H1. Qed.
