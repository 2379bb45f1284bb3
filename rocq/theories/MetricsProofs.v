(** The cached predicates and functions compute the notions of TreeSpec.v, whatever the caches contain (C16, C28, C29). *)
From Coq Require Import NArith ZArith List Bool Arith Lia Sorted.
From Verif Require Import Base EncodingModel EncodingProofs Syntax FactoryModel FactoryInv FactoryBasics FactoryProofs FactorySpecs
  FactoryNary FactoryOps EvalProofs ConstraintModel ConstraintProofs OpsModel OpsProofs CcModel EncBasics PbModel CacheModel TransModel
  TreeSpec WorldProofs.
Import ListNotations.
Local Open Scope N_scope.

(** A valid handle can be unpacked, and its operands denote the children of its tree. *)
Lemma open_node : forall W s h x, inv W s -> vh s h -> denotes s h x ->
  exists n, unpack s h = Ok n /\ Forall (vh s) (node_operands n) /\ Forall2 (denotes s) (node_operands n) (children x).
Proof.
  intros W s h x Hi Hv Hd. destruct (vh_operands s h (i_wf _ _ Hi) Hv) as [n [Hu _]]. exists n. split; [assumption |].
  split; [eapply vh_node; eauto using i_wf | eapply denotes_children; eauto].
Qed.

(** A hit in a cache of facts about trees. *)
Lemma hit_tree : forall V (P : fml -> V -> Prop) s h x m v, centry (e_tree P s) m -> denotes s h x -> oc_get h m = Some v -> P x v.
Proof. intros V P s h x m v Hm Hd Hg. destruct (Hm h v Hg) as [y [_ [Hy Hp]]]. now rewrite (denotes_fun _ _ _ _ Hd Hy). Qed.

Definition ftype_of (x : fml) : formula_type :=
  match x with
  | FTrue => TTrue | FFalse => TFalse | FLit l => TLit (lit_type_of l) | FNot _ => TNot | FAnd _ => TAnd | FOr _ => TOr
  | FImpl _ _ => TImpl | FEquiv _ _ => TEquiv | FCc _ => TCc | FPbc _ => TPbc
  end.
Lemma type_tree : forall W s h x, inv W s -> vh s h -> denotes s h x -> formula_type_of h = Some (ftype_of x).
Proof. intros W s h x Hi Hv Hd. apply (type_denotes s); auto. apply (wf_cap s (i_wf _ _ Hi)). Qed.

Definition atomic (x : fml) : bool := match x with FTrue | FFalse | FLit _ | FCc _ | FPbc _ => true | _ => false end.
Lemma is_atomic_tree : forall W s h x, inv W s -> vh s h -> denotes s h x -> is_atomic h = atomic x.
Proof.
  intros W s h x Hi Hv Hd. unfold is_atomic, is_literal, is_constant, is_falsum, is_verum. rewrite (type_tree _ _ _ _ Hi Hv Hd).
  destruct x; reflexivity.
Qed.
Lemma is_literal_tree : forall W s h x, inv W s -> vh s h -> denotes s h x -> is_literal h = is_flit x.
Proof. intros W s h x Hi Hv Hd. unfold is_literal. rewrite (type_tree _ _ _ _ Hi Hv Hd). destruct x; reflexivity. Qed.
Lemma is_literals_tree : forall W s l xs, inv W s -> Forall (vh s) l -> Forall2 (denotes s) l xs -> forallb is_literal l = forallb is_flit xs.
Proof.
  intros W s l xs Hi Hv Hd. induction Hd as [| h x l xs Hx Hd IH]; [reflexivity |]. inversion Hv; subst. cbn [forallb].
  rewrite (is_literal_tree W s h x), IH; auto.
Qed.

(** Cases of a node together with its tree. *)
Ltac node_cases n Hu Hd :=
  let H := fresh "Hn" in
  pose proof (denotes_by_node _ _ _ _ Hu Hd) as H; destruct n;
  [ subst | subst | subst | destruct H as [? [-> H]] | destruct H as [? [-> H]] | destruct H as [? [-> H]]
  | destruct H as [? [? [-> [H ?]]]] | destruct H as [? [? [-> [H ?]]]] | subst | subst ].

(* ------------------------------------------------------------------------------------------------------------------ *)
(** * Predicates *)

Lemma mono_is_nnf : forall fuel h, mono (is_nnf fuel h).
Proof.
  induction fuel as [| fuel IH]; intros h; cbn [is_nnf]; [apply mono_nofuel |].
  apply mono_bind; [auto with mono |]. intros [b |]; [apply mono_ret |]. apply mono_bind; [auto with mono |]. intros n.
  apply mono_bind; [destruct n; try apply mono_ret; apply mono_mall; exact IH |]. intros r. apply mono_bind; [apply mono_put | intros; apply mono_ret].
Qed.
Global Hint Resolve mono_is_nnf : mono.

Lemma is_nnf_spec : forall fuel x W s h, inv W s -> vh s h -> denotes s h x -> (depth x < fuel)%nat ->
  xspec W s (is_nnf fuel h) (fun b _ _ => b = nnf_shape x).
Proof.
  induction fuel as [| fuel IH]; intros x W s h Hi Hv Hd Hf; [lia |]. cbn [is_nnf].
  apply x_get_bind. destruct (oc_get h (oc_is_nnf (f_caches s))) as [b |] eqn:G.
  { apply x_ret; [assumption |]. exact (hit_tree _ P_is_nnf _ _ _ _ _ (co_is_nnf _ _ _ (i_caches _ _ Hi)) Hd G). }
  destruct (open_node _ _ _ _ Hi Hv Hd) as [n [Hu [Hvs Hds]]]. eapply x_unpack_bind; [exact Hu |].
  assert (Hfin : forall s' W', inv W' s' -> ext s s' -> forall r, r = nnf_shape x ->
            xspec W' s' (put_is_nnf h r ;;; ret r) (fun b _ _ => b = nnf_shape x)).
  { intros s' W' Hi' He r ->. apply x_put_end; auto. put_caches. exists x. split; [eapply vh_ext; eauto |].
    split; [eapply denotes_ext; eauto | reflexivity]. }
  assert (Hall : forall t W', inv W' t -> ext s t -> forall o y, In y (children x) -> vh t o -> denotes t o y ->
            xspec W' t (is_nnf fuel o) (fun b _ _ => b = nnf_shape y)).
  { intros t W' Hi' He o y Hy Hvo Hdo. apply IH; auto. apply children_depth in Hy. lia. }
  eapply x_bind with (Q1 := fun b _ _ => b = nnf_shape x);
    [| intros; apply mono_bind; [apply mono_put | intros; apply mono_ret] | intros r s1 W1 Hi1 He1 Hs1 Hr; apply Hfin; assumption].
  clear Hfin. node_cases n Hu Hd; cbn [node_operands children] in *;
    try (apply x_ret; [assumption | reflexivity]).
  - apply (x_mall _ nnf_shape); auto with mono.
  - apply (x_mall _ nnf_shape); auto with mono.
Qed.

Lemma mono_is_dnf : forall h, mono (is_dnf h).
Proof. intros h. unfold is_dnf, put_is_dnf. mono_tac. Qed.
Global Hint Resolve mono_is_dnf : mono.

Lemma is_minterm_spec : forall W s h x, inv W s -> vh s h -> denotes s h x ->
  is_minterm s h = Ok match x with FTrue | FFalse => true | _ => is_fterm x end.
Proof.
  intros W s h x Hi Hv Hd. destruct (open_node _ _ _ _ Hi Hv Hd) as [n [Hu [Hvs Hds]]]. unfold is_minterm. rewrite Hu. cbn [rbind].
  node_cases n Hu Hd; cbn [node_operands children is_fterm] in *; try reflexivity.
  now rewrite (is_literals_tree _ _ _ _ Hi Hvs Hds).
Qed.

Lemma res_all_spec : forall A (f : A -> res bool) l bs, Forall2 (fun a b => f a = Ok b) l bs -> res_all f l = Ok (forallb (fun b => b) bs).
Proof.
  intros A f l bs H. induction H as [| a b l bs Ha H IH]; [reflexivity |]. cbn [res_all forallb]. rewrite Ha. destruct b; cbn; [exact IH | reflexivity].
Qed.


Lemma nary_ops : forall s h conj l, wf s -> vh s h -> unpack s h = Ok (nnode conj l) -> ops_ok s conj l /\ (2 <= length l)%nat.
Proof.
  intros s h conj l Hw Hv Hu. pose proof (type_node s h _ (wf_cap s Hw) Hv Hu) as Ht.
  destruct (vh_nary s conj h _ Hw Hv Ht) as [k [Hk H]]; [destruct conj; reflexivity |]. assert (k = l) by (destruct conj; cbn in *; congruence). now subst.
Qed.
(** The operands of a stored conjunction or disjunction are neither constants nor of the same kind. *)
Lemma nary_kids : forall W s h conj l xs, inv W s -> vh s h -> unpack s h = Ok (nnode conj l) -> Forall2 (denotes s) l xs ->
  Forall (fun x => x <> FTrue /\ x <> FFalse /\ forall ys, x <> fnary conj ys) xs.
Proof.
  intros W s h conj l xs Hi Hv Hu Hd. destruct (nary_ops s h conj l (i_wf _ _ Hi) Hv Hu) as [[Hg Hn Hc Hf Hk] _].
  apply Forall_good_vh in Hg. clear Hn Hk Hu Hv h. induction Hd as [| h x l xs Hx Hd IH]; [constructor |].
  inversion Hg as [| ? ? Hv Hg']; subst. inversion Hc as [| ? ? Hc1 Hc2]; subst. inversion Hf as [| ? ? Hf1 Hf2]; subst.
  constructor; [| apply IH; auto]. pose proof (type_tree _ _ _ _ Hi Hv Hx) as Ht.
  destruct Hc1 as [N1 N2]. unfold is_verum, is_falsum in *. rewrite Ht in *. split; [| split].
  - intros ->. discriminate.
  - intros ->. discriminate.
  - intros ys ->. specialize (Hf1 _ eq_refl). destruct conj; discriminate.
Qed.

Lemma is_dnf_spec : forall x W s h, inv W s -> vh s h -> denotes s h x -> xspec W s (is_dnf h) (fun b _ _ => b = dnf_shape x).
Proof.
  intros x W s h Hi Hv Hd. unfold is_dnf.
  apply x_get_bind. destruct (oc_get h (oc_is_dnf (f_caches s))) as [b |] eqn:G.
  { apply x_ret; [assumption |]. exact (hit_tree _ P_is_dnf _ _ _ _ _ (co_is_dnf _ _ _ (i_caches _ _ Hi)) Hd G). }
  destruct (open_node _ _ _ _ Hi Hv Hd) as [n [Hu [Hvs Hds]]]. eapply x_unpack_bind; [exact Hu |].
  eapply x_bind with (Q1 := fun b _ _ => b = dnf_shape x); [| intros; apply mono_bind; [apply mono_put | intros; apply mono_ret] |].
  2:{ intros r s' W' Hi' He Hs' ->. apply x_put_end; auto. put_caches. exists x. split; [eapply vh_ext; eauto |].
      split; [eapply denotes_ext; eauto | reflexivity]. }
  node_cases n Hu Hd; cbn [node_operands children] in *; try (apply x_ret; [assumption | reflexivity]).
  - apply x_ret; [assumption |]. apply (is_literals_tree _ _ _ _ Hi Hvs Hds).
  - pose proof (nary_kids W s h false l x0 Hi Hv Hu Hds) as Hk.
    eapply x_lift; [apply (res_all_spec _ _ _ (map is_fterm x0)) | assumption |].
    + clear Hu Hd Hn G. induction Hds as [| k y l xs Hy Hds IH]; cbn [map]; constructor.
      * inversion Hvs; subst. inversion Hk as [| ? ? [K1 [K2 _]] ?]; subst. rewrite (is_minterm_spec W s k y) by auto. destruct y; congruence || reflexivity.
      * inversion Hvs; subst. inversion Hk; subst. auto.
    + cbn [dnf_shape]. clear. induction x0 as [| y xs IH]; [reflexivity |]. cbn [map forallb]. now rewrite IH.
Qed.

(* ------------------------------------------------------------------------------------------------------------------ *)
(** * Searching *)

Definition total_nodes (xs : list fml) : N := fold_right (fun x n => nodes x + n) 0 xs.

Lemma nodes_pos : forall x, 1 <= nodes x.
Proof. destruct x; cbn [nodes]; lia. Qed.
Lemma nodes_children : forall x, total_nodes (children x) < nodes x.
Proof. destruct x; cbn [nodes children total_nodes fold_right]; unfold total_nodes; lia. Qed.

Lemma push_new_spec : forall s ops xs stack zs seen, Forall2 (denotes s) ops xs -> Forall2 (denotes s) stack zs ->
  exists added ys, push_new ops stack seen = (rev added ++ stack, seen ++ added) /\ incl added ops /\ incl ops (seen ++ added)
    /\ Forall2 (denotes s) (rev added ++ stack) ys /\ total_nodes ys <= total_nodes xs + total_nodes zs.
Proof.
  intros s ops xs stack zs seen Hd. revert stack zs seen. induction Hd as [| o x ops xs Hx Hd IH]; intros stack zs seen Hz; cbn [push_new].
  - exists [], zs. rewrite app_nil_r. split; [reflexivity |]. split; [apply incl_refl |]. split; [intros ? [] |].
    split; [assumption |]. cbn [total_nodes fold_right]. lia.
  - destruct (memN o seen) eqn:E.
    + destruct (IH stack zs seen Hz) as [added [ys [H1 [H2 [H3 [H4 H5]]]]]]. exists added, ys. split; [assumption |].
      split; [intros k Hk; right; auto |]. split; [| split; [assumption |]].
      * intros k [<- | Hk]; [| auto]. apply in_or_app. left. apply existsb_exists in E. destruct E as [w [Hw E]]. apply N.eqb_eq in E. now subst.
      * cbn [total_nodes fold_right]. fold (total_nodes xs). lia.
    + destruct (IH (o :: stack) (x :: zs) (seen ++ [o])) as [added [ys [H1 [H2 [H3 [H4 H5]]]]]]; [constructor; assumption |].
      exists (o :: added), ys. rewrite <- app_assoc in H1, H3. cbn [app] in H1, H3. cbn [rev]. rewrite <- app_assoc. cbn [app].
      split; [exact H1 |]. split; [intros k [<- | Hk]; [left; reflexivity | right; auto] |].
      split; [| split; [exact H4 |]].
      * intros k [<- | Hk]; [apply in_or_app; right; left; reflexivity | auto].
      * cbn [total_nodes fold_right] in H5 |- *. fold (total_nodes xs) (total_nodes zs) in *. lia.
Qed.

(** [test] decides [D], or reduces it to the operands. *)
Definition tests (s : factory) (test : N -> M (option bool)) (D : N -> Prop) : Prop :=
  forall h, vh s h -> exists t, test h s = (Ok t, s)
    /\ match t with
       | Some true => D h
       | Some false => ~ D h
       | None => forall n, unpack s h = Ok n -> (D h <-> exists o, In o (node_operands n) /\ D o)
       end.

Lemma search_spec : forall s test (D : N -> Prop) root fuel stack zs seen, wf s -> tests s test D ->
  Forall (vh s) seen -> incl stack seen -> Forall2 (denotes s) stack zs -> (N.to_nat (total_nodes zs) <= fuel)%nat ->
  In root seen -> (forall k, In k seen -> D k -> D root) ->
  (forall k, In k seen -> In k stack \/ ~ D k
     \/ exists n, unpack s k = Ok n /\ (D k -> exists o, In o (node_operands n) /\ D o) /\ incl (node_operands n) seen) ->
  exists b, search test fuel stack seen s = (Ok b, s) /\ (b = true <-> D root).
Proof.
  intros s test D root fuel. induction fuel as [| fuel IH]; intros stack zs seen Hw Ht Hv Hss Hd Hf Hroot Hback Hinv.
  - inversion Hd as [| h x st xs Hx Hd']; subst; [cbn [search] |].
    2:{ cbn [total_nodes fold_right] in Hf. pose proof (nodes_pos x). lia. }
    exists false. split; [reflexivity |]. split; [discriminate |]. intros HD. exfalso.
    enough (Hno : forall x k, In k seen -> denotes s k x -> ~ D k).
    { pose proof Hroot as Hr. rewrite Forall_forall in Hv. destruct (vh_denotes s root Hw (Hv _ Hr)) as [x Hx]. exact (Hno x root Hr Hx HD). }
    intros x. induction x as [x IHx] using (well_founded_induction (Wf_nat.well_founded_ltof _ depth)). unfold Wf_nat.ltof in IHx.
    intros k Hk Hdk HDk. destruct (Hinv k Hk) as [[] | [Hn | [n [Hu [Ho Hi]]]]]; [auto |]. destruct (Ho HDk) as [o [Hoin HDo]].
    pose proof (denotes_children _ _ _ _ Hu Hdk) as Hch. destruct (Forall2_In_l _ _ _ _ _ _ Hch Hoin) as [y [Hy Hdy]].
    exact (IHx y (children_depth _ _ Hy) o (Hi _ Hoin) Hdy HDo).
  - inversion Hd as [| h x st xs Hx Hd']; subst; cbn [search].
    { exists false. split; [reflexivity |]. split; [discriminate |]. intros HD. exfalso.
      enough (Hno : forall x k, In k seen -> denotes s k x -> ~ D k).
      { pose proof Hroot as Hr. rewrite Forall_forall in Hv. destruct (vh_denotes s root Hw (Hv _ Hr)) as [x Hx]. exact (Hno x root Hr Hx HD). }
      intros x. induction x as [x IHx] using (well_founded_induction (Wf_nat.well_founded_ltof _ depth)). unfold Wf_nat.ltof in IHx.
      intros k Hk Hdk HDk. destruct (Hinv k Hk) as [[] | [Hn | [n [Hu [Ho Hi]]]]]; [auto |]. destruct (Ho HDk) as [o [Hoin HDo]].
      pose proof (denotes_children _ _ _ _ Hu Hdk) as Hch. destruct (Forall2_In_l _ _ _ _ _ _ Hch Hoin) as [y [Hy Hdy]].
      exact (IHx y (children_depth _ _ Hy) o (Hi _ Hoin) Hdy HDo). }
    assert (Hvh : vh s h) by (rewrite Forall_forall in Hv; apply Hv; apply Hss; left; reflexivity).
    assert (Hh : In h seen) by (apply Hss; left; reflexivity).
    destruct (Ht h Hvh) as [t [Htest Hcase]]. unfold bind at 1. rewrite Htest.
    cbn [total_nodes fold_right] in Hf. fold (total_nodes xs) in Hf. pose proof (nodes_pos x) as Hpos.
    destruct t as [[] |].
    + exists true. split; [reflexivity |]. split; [intros _; exact (Hback h Hh Hcase) | reflexivity].
    + apply (IH st xs seen); auto; [intros k Hk; apply Hss; right; assumption | lia |].
      intros k Hk. destruct (Hinv k Hk) as [[<- | Hin] | H]; auto.
    + destruct (vh_operands s h Hw Hvh) as [n [Hu Hg]]. unfold bind, operandsM, lift, operands. rewrite Hu. cbn [rbind].
      pose proof (denotes_children _ _ _ _ Hu Hx) as Hch.
      destruct (push_new_spec s _ _ st xs seen Hch Hd') as [added [ys [Hp [Ha1 [Ha2 [Hd2 Hsz]]]]]]. rewrite Hp.
      specialize (Hcase n Hu). pose proof (nodes_children x) as Hlt.
      apply (IH _ ys); auto.
      * apply Forall_app. split; [assumption |]. apply Forall_forall. intros k Hk. pose proof (vh_node s h n Hw Hvh Hu) as Hvo.
        rewrite Forall_forall in Hvo. auto.
      * intros k Hk. apply in_or_app. apply in_app_or in Hk. destruct Hk as [Hk | Hk]; [right; now apply in_rev | left; apply Hss; right; assumption].
      * lia.
      * apply in_or_app. left. assumption.
      * intros k Hk HDk. apply in_app_or in Hk. destruct Hk as [Hk | Hk]; [exact (Hback k Hk HDk) |].
        apply (Hback h Hh). apply Hcase. exists k. split; [apply Ha1; assumption | assumption].
      * intros k Hk. destruct (N.eq_dec k h) as [-> | Hne].
        { right. right. exists n. split; [assumption |]. split; [apply Hcase |]. assumption. }
        apply in_app_or in Hk. destruct Hk as [Hk | Hk].
        { destruct (Hinv k Hk) as [[-> | Hin] | [Hn | [m [Hm1 [Hm2 Hm3]]]]]; [congruence | | auto |].
          - left. apply in_or_app. right. assumption.
          - right. right. exists m. split; [assumption |]. split; [assumption |]. intros o Ho. apply in_or_app. left. auto. }
        { left. apply in_or_app. left. apply -> in_rev. assumption. }
Qed.

Lemma search_start : forall s test (D : N -> Prop) h x fuel, wf s -> tests s test D -> vh s h -> denotes s h x -> (N.to_nat (nodes x) <= fuel)%nat ->
  exists b, search test fuel [h] [h] s = (Ok b, s) /\ (b = true <-> D h).
Proof.
  intros s test D h x fuel Hw Ht Hv Hd Hf. apply (search_spec s test D h fuel [h] [x] [h]); auto.
  - intros k Hk. exact Hk.
  - cbn [total_nodes fold_right]. lia.
  - left. reflexivity.
  - intros k [<- | []]. auto.
Qed.

(** A formula contains a constraint iff it is one or one of its operands contains one. *)
Lemma con_free_children : forall x, atomic x = false -> (con_free x = false <-> exists y, In y (children x) /\ con_free y = false).
Proof.
  assert (Hl : forall l, forallb con_free l = false <-> exists y, In y l /\ con_free y = false).
  { induction l as [| a l IH]; cbn [forallb]; [split; [discriminate | intros [y [[] _]]] |]. rewrite andb_false_iff, IH. split.
    - intros [H | [y [Hy H]]]; [exists a; split; [left; reflexivity | assumption] | exists y; split; [right; assumption | assumption]].
    - intros [y [[<- | Hy] H]]; [left; assumption | right; exists y; auto]. }
  intros x Ha. destruct x; try discriminate Ha; cbn [con_free children]; try apply Hl.
  - split; [intros H; exists x; split; [left; reflexivity | assumption] | intros [y [[<- | []] H]]; assumption].
  - rewrite <- (Hl [x1; x2]). cbn [forallb]. now rewrite andb_true_r.
  - rewrite <- (Hl [x1; x2]). cbn [forallb]. now rewrite andb_true_r.
Qed.

Lemma D_children : forall s h n x (P : fml -> Prop), unpack s h = Ok n -> denotes s h x ->
  (P x <-> exists y, In y (children x) /\ P y) ->
  ((exists x, denotes s h x /\ P x) <-> exists o, In o (node_operands n) /\ exists y, denotes s o y /\ P y).
Proof.
  intros s h n x P Hu Hd H. pose proof (denotes_children _ _ _ _ Hu Hd) as Hch. split.
  - intros [x' [Hd' HP]]. rewrite (denotes_fun _ _ _ _ Hd' Hd) in HP. apply H in HP. destruct HP as [y [Hy HP]].
    destruct (Forall2_In_l _ _ (fun a b => denotes s b a) (children x) (node_operands n) y) as [o [Ho Hdo]]; [| assumption |].
    { clear -Hch. induction Hch; constructor; auto. }
    exists o. split; [assumption |]. exists y. auto.
  - intros [o [Ho [y [Hy HP]]]]. exists x. split; [assumption |]. apply H. destruct (Forall2_In_l _ _ _ _ _ _ Hch Ho) as [z [Hz Hdz]].
    rewrite (denotes_fun _ _ _ _ Hy Hdz) in HP. exists z. auto.
Qed.

Lemma mono_search : forall test fuel stack seen, (forall h, mono (test h)) -> mono (search test fuel stack seen).
Proof.
  intros test fuel. induction fuel as [| fuel IH]; intros [| h st] seen Ht; cbn [search]; try apply mono_ret; [apply mono_nofuel |].
  apply mono_bind; [apply Ht |]. intros [[] |]; [apply mono_ret | apply IH; assumption |]. apply mono_bind; [auto with mono |]. intros ops.
  destruct (push_new ops st seen). apply IH. assumption.
Qed.
Lemma mono_contains_pbc : forall fuel h, mono (contains_pbc fuel h).
Proof.
  intros fuel h. unfold contains_pbc. apply mono_bind; [apply mono_search; intros k; unfold test_pbc; mono_tac |].
  intros []; [| apply mono_ret]. apply mono_bind; [apply mono_put | intros; apply mono_ret].
Qed.
Global Hint Resolve mono_contains_pbc : mono.

Lemma test_pbc_ok : forall W s, inv W s -> tests s test_pbc (fun h => exists x, denotes s h x /\ con_free x = false).
Proof.
  intros W s Hi h Hv. destruct (vh_denotes s h (i_wf _ _ Hi) Hv) as [x Hd]. unfold test_pbc, bind, cache_get, lift, ret. cbn [fst snd].
  destruct (oc_get h (oc_contains_pbc (f_caches s))) as [b |] eqn:G.
  - exists (Some b). split; [reflexivity |].
    pose proof (hit_tree _ P_contains _ _ _ _ _ (co_contains _ _ _ (i_caches _ _ Hi)) Hd G) as ->. unfold P_contains.
    destruct (con_free x) eqn:E; cbn [negb]; [| exists x; auto]. intros [y [Hy E']]. rewrite (denotes_fun _ _ _ _ Hd Hy) in E. congruence.
  - unfold ftype. rewrite (type_tree _ _ _ _ Hi Hv Hd). cbn [of_opt]. eexists. split; [reflexivity |].
    destruct x; cbn [ftype_of]; try (exists (FCc c); split; [exact Hd | reflexivity]); try (exists (FPbc p); split; [exact Hd | reflexivity]);
      try (intros [y [Hy E']]; rewrite <- (denotes_fun _ _ _ _ Hd Hy) in E'; discriminate);
      (intros n Hu; eapply (D_children s h n _ (fun y => con_free y = false)); [exact Hu | exact Hd | apply con_free_children; reflexivity]).
Qed.

Lemma contains_pbc_spec : forall fuel x W s h, inv W s -> vh s h -> denotes s h x -> (N.to_nat (nodes x) <= fuel)%nat ->
  xspec W s (contains_pbc fuel h) (fun b _ _ => b = negb (con_free x)).
Proof.
  intros fuel x W s h Hi Hv Hd Hf. unfold contains_pbc.
  destruct (search_start s test_pbc _ h x fuel (i_wf _ _ Hi) (test_pbc_ok W s Hi) Hv Hd Hf) as [b [Hb HD]].
  assert (Hbx : b = negb (con_free x)).
  { destruct b.
    - destruct HD as [HD _]. destruct (HD eq_refl) as [y [Hy E]]. rewrite (denotes_fun _ _ _ _ Hd Hy), E. reflexivity.
    - destruct (con_free x) eqn:E; [reflexivity |]. destruct HD as [_ HD]. discriminate HD. exists x. auto. }
  eapply x_bind with (Q1 := fun b' s' _ => b' = b).
  - split; [rewrite Hb; apply size_le_refl |]. intros _. rewrite Hb. exists b, W. cbn [fst snd]. auto using sub_refl, ext_refl.
  - intros []; [| apply mono_ret]. apply mono_bind; [apply mono_put | intros; apply mono_ret].
  - intros b' s1 W1 Hi1 He Hs ->. rewrite <- Hbx. destruct b; [| apply x_ret; auto]. apply x_put_end; auto. put_caches.
    exists x. split; [eapply vh_ext; eauto |]. split; [eapply denotes_ext; eauto |]. exact Hbx.
Qed.

Lemma fvars_nary : forall l, flat_map leaf_vars (flat_map leaves l) = flat_map fvars l.
Proof. intros. symmetry. apply flat_map_fvars. Qed.
Lemma fvars_children : forall x v, atomic x = false -> (In v (fvars x) <-> exists y, In y (children x) /\ In v (fvars y)).
Proof.
  intros x v Ha. destruct x; try discriminate Ha; unfold fvars at 1; cbn [leaves children]; rewrite ?fvars_nary; try apply in_flat_map.
  - split; [intros H; exists x; split; [left; reflexivity | exact H] | intros [y [[<- | []] H]]; exact H].
  - rewrite flat_map_app, in_app_iff. split.
    + intros [H | H]; [exists x1 | exists x2]; cbn; auto.
    + intros [y [[<- | [<- | []]] H]]; auto.
  - rewrite flat_map_app, in_app_iff. split.
    + intros [H | H]; [exists x1 | exists x2]; cbn; auto.
    + intros [y [[<- | [<- | []]] H]]; auto.
Qed.

Lemma test_var_ok : forall W s v, inv W s -> tests s (test_var v) (fun h => exists x, denotes s h x /\ In v (fvars x)).
Proof.
  intros W s v Hi h Hv. destruct (vh_denotes s h (i_wf _ _ Hi) Hv) as [x Hd]. destruct (open_node _ _ _ _ Hi Hv Hd) as [n [Hu _]].
  unfold test_var, bind, unpackM, lift, ret. rewrite Hu. eexists. split; [reflexivity |].
  assert (Hlf : forall b, (b = true <-> In v (fvars x)) -> if b then exists y, denotes s h y /\ In v (fvars y) else ~ exists y, denotes s h y /\ In v (fvars y)).
  { intros [] H; [exists x; split; [assumption | now apply H] |]. intros [y [Hy Hin]]. rewrite <- (denotes_fun _ _ _ _ Hd Hy) in Hin. apply H in Hin. discriminate. }
  assert (Hex : forall A (f : A -> var) l, existsb (fun w => var_eqb (f w) v) l = true <-> In v (map f l)).
  { intros A f l. rewrite existsb_exists, in_map_iff. split; intros [w H]; exists w; [rewrite var_eqb_spec in H | rewrite var_eqb_spec]; tauto. }
  node_cases n Hu Hd; cbn [node_operands children] in *;
    try (intros n Hu'; injection Hu' as <-; eapply (D_children s h _ _ (fun y => In v (fvars y))); [exact Hu | exact Hd | apply fvars_children; reflexivity]);
    try (intros n Hu'; injection Hu' as <-; cbn [node_operands]; split; [| intros [o [[] _]]];
         intros [y [Hy Hin]]; rewrite <- (denotes_fun _ _ _ _ Hd Hy) in Hin; destruct Hin).
  - specialize (Hlf (var_eqb (lit_var l) v)). assert (E : var_eqb (lit_var l) v = true <-> In v (fvars (FLit l))) by (rewrite var_eqb_spec; cbn; tauto).
    specialize (Hlf E). destruct (var_eqb _ _); exact Hlf.
  - specialize (Hlf (existsb (fun w => var_eqb w v) (cc_vars c))).
    assert (E : existsb (fun w => var_eqb w v) (cc_vars c) = true <-> In v (fvars (FCc c))).
    { rewrite (Hex _ (fun w => w)), map_id. unfold fvars. cbn. rewrite app_nil_r. tauto. }
    specialize (Hlf E). destruct (existsb _ _); exact Hlf.
  - specialize (Hlf (existsb (fun w => var_eqb (lit_var w) v) (pb_lits p))).
    assert (E : existsb (fun w => var_eqb (lit_var w) v) (pb_lits p) = true <-> In v (fvars (FPbc p))).
    { rewrite Hex. unfold fvars. cbn. rewrite app_nil_r. tauto. }
    specialize (Hlf E). destruct (existsb _ _); exact Hlf.
Qed.

Lemma contains_var_spec : forall fuel v x W s h, inv W s -> vh s h -> denotes s h x -> (N.to_nat (nodes x) <= fuel)%nat ->
  exists b, contains_var fuel v h s = (Ok b, s) /\ (b = true <-> In v (fvars x)).
Proof.
  intros fuel v x W s h Hi Hv Hd Hf.
  destruct (search_start s (test_var v) _ h x fuel (i_wf _ _ Hi) (test_var_ok W s v Hi) Hv Hd Hf) as [b [Hb HD]].
  exists b. split; [exact Hb |]. rewrite HD. split; [intros [y [Hy H]]; now rewrite (denotes_fun _ _ _ _ Hd Hy) | intros H; exists x; auto].
Qed.

(** [node] is a node below [h], or a variable or literal of a constraint there. *)
Definition occurs (s : factory) (node h : N) : Prop :=
  exists k, below s h k /\
    (k = node
     \/ (exists c v, unpack s k = Ok (NCc c) /\ In v (cc_vars c) /\ node = encode_lit (Lit v true))
     \/ (exists p l, unpack s k = Ok (NPbc p) /\ In l (pb_lits p) /\ (node = encode_lit l \/ node = encode_lit (Lit (lit_var l) true)))).

Lemma below_trans : forall s a b c, below s a b -> below s b c -> below s a c.
Proof. intros s a b c H K. induction K as [| k n o K IH Hu Ho]; [assumption |]. eapply below_step; eauto. Qed.
Lemma below_front : forall s h k n, unpack s h = Ok n -> below s h k -> k = h \/ exists o, In o (node_operands n) /\ below s o k.
Proof.
  intros s h k n Hu H. induction H as [| k m o H IH Hm Ho]; [left; reflexivity |]. right. destruct IH as [-> | [o' [Ho' Hb]]].
  - assert (m = n) by congruence. subst. exists o. split; [assumption | constructor].
  - exists o'. split; [assumption |]. eapply below_step; eauto.
Qed.

Lemma test_node_ok : forall W s node, inv W s -> tests s (test_node node) (occurs s node).
Proof.
  intros W s node Hi h Hv. destruct (vh_denotes s h (i_wf _ _ Hi) Hv) as [x Hd]. destruct (open_node _ _ _ _ Hi Hv Hd) as [n [Hu _]].
  unfold test_node. destruct (N.eqb_spec h node) as [-> | Hne].
  { exists (Some true). split; [reflexivity |]. exists node. split; [constructor | auto]. }
  unfold bind, unpackM, lift, ret. rewrite Hu. eexists. split; [reflexivity |].
  assert (Hstep : (forall c, n <> NCc c) -> (forall p, n <> NPbc p) -> occurs s node h <-> exists o, In o (node_operands n) /\ occurs s node o).
  { intros N1 N2. split.
    - intros [k [Hk H]]. destruct (below_front _ _ _ _ Hu Hk) as [-> | [o [Ho Hb]]].
      + destruct H as [-> | [[c [v [H _]]] | [p [l [H _]]]]]; [congruence | exfalso; apply (N1 c); congruence | exfalso; apply (N2 p); congruence].
      + exists o. split; [assumption |]. exists k. auto.
    - intros [o [Ho [k [Hk H]]]]. exists k. split; [| assumption]. eapply below_trans; [| exact Hk]. eapply below_step; [constructor | exact Hu | exact Ho]. }
  node_cases n Hu Hd; try (intros n' Hn'; injection Hn' as <-; apply Hstep; discriminate).
  - destruct (existsb (fun v => encode_lit (Lit v true) =? node) (cc_vars c)) eqn:E.
    + apply existsb_exists in E. destruct E as [v [Hin E]]. apply N.eqb_eq in E. exists h. split; [constructor |]. right. left. exists c, v. auto.
    + intros [k [Hk H]]. destruct (below_front _ _ _ _ Hu Hk) as [-> | [o [[] _]]].
      destruct H as [-> | [[c' [v [H [Hin Hv']]]] | [p [l [H _]]]]]; [congruence | | congruence]. assert (c' = c) by congruence. subst c'.
      assert (existsb (fun v => encode_lit (Lit v true) =? node) (cc_vars c) = true); [| congruence].
      apply existsb_exists. exists v. split; [assumption | now apply N.eqb_eq].
  - destruct (existsb (fun l => (encode_lit l =? node) || (encode_lit (Lit (lit_var l) true) =? node)) (pb_lits p)) eqn:E.
    + apply existsb_exists in E. destruct E as [l [Hin E]]. exists h. split; [constructor |]. right. right. exists p, l. split; [assumption |]. split; [assumption |].
      apply orb_true_iff in E. rewrite !N.eqb_eq in E. destruct E; auto.
    + intros [k [Hk H]]. destruct (below_front _ _ _ _ Hu Hk) as [-> | [o [[] _]]].
      destruct H as [-> | [[c' [v [H _]]] | [p' [l [H [Hin Hv']]]]]]; [congruence | congruence |]. assert (p' = p) by congruence. subst p'.
      assert (existsb (fun l => (encode_lit l =? node) || (encode_lit (Lit (lit_var l) true) =? node)) (pb_lits p) = true); [| congruence].
      apply existsb_exists. exists l. split; [assumption |]. apply orb_true_iff. rewrite !N.eqb_eq. destruct Hv'; auto.
Qed.

Lemma contains_node_spec : forall fuel node x W s h, inv W s -> vh s h -> denotes s h x -> (N.to_nat (nodes x) <= fuel)%nat ->
  exists b, contains_node fuel node h s = (Ok b, s) /\ (b = true <-> occurs s node h).
Proof.
  intros fuel node x W s h Hi Hv Hd Hf. apply (search_start s (test_node node) _ h x fuel (i_wf _ _ Hi) (test_node_ok W s node Hi) Hv Hd Hf).
Qed.

(* ------------------------------------------------------------------------------------------------------------------ *)
(** * Depth and sizes *)

Lemma operandsM_bind : forall B W s h n (k : list N -> M B) Q, unpack s h = Ok n -> xspec W s (k (node_operands n)) Q -> xspec W s (bind (operandsM h) k) Q.
Proof. intros B W s h n k Q Hu H. unfold operandsM. eapply x_lift_bind; [| exact H]. unfold operands. now rewrite Hu. Qed.

Lemma mono_formula_depth : forall fuel h, mono (formula_depth fuel h).
Proof.
  induction fuel as [| fuel IH]; intros h; cbn [formula_depth]; [apply mono_nofuel |].
  apply mono_bind; [auto with mono |]. intros [b |]; [apply mono_ret |].
  apply mono_bind; [| intros; apply mono_bind; [apply mono_put | intros; apply mono_ret]].
  destruct (is_atomic h); [apply mono_ret |]. apply mono_bind; [auto with mono |]. intros ops. apply mono_bind.
  - apply mono_mfold. intros a b. apply mono_bind; [apply IH | intros; apply mono_ret].
  - intros [m |]; [apply mono_ret | apply mono_fail].
Qed.
Global Hint Resolve mono_formula_depth : mono.

Definition max_depth (l : list fml) : nat := fold_right (fun y n => Nat.max (depth y) n) 0%nat l.
Lemma max_depth_snoc : forall l x, max_depth (l ++ [x]) = Nat.max (max_depth l) (depth x).
Proof. induction l as [| y l IH]; intros x; cbn [app max_depth fold_right]; [lia |]. fold (max_depth (l ++ [x])) (max_depth l). rewrite IH. lia. Qed.
Lemma depth_children : forall x, atomic x = false -> depth x = S (max_depth (children x)).
Proof. intros x H. destruct x; try discriminate H; cbn [depth children max_depth fold_right]; rewrite ?Nat.max_0_r; reflexivity. Qed.

Lemma children_nonempty : forall W s h x, inv W s -> vh s h -> denotes s h x -> atomic x = false -> children x <> [].
Proof.
  intros W s h x Hi Hv Hd Ha. destruct (open_node _ _ _ _ Hi Hv Hd) as [n [Hu [_ Hds]]]. destruct x; try discriminate Ha; try discriminate; cbn [children] in *.
  - intros ->. inversion Hds as [E |]; subst. pose proof (denotes_by_node _ _ _ _ Hu Hd) as Hn. destruct n; try discriminate; try (destruct Hn as [? [? [? _]]]; discriminate); try (destruct Hn as [? [? _]]; discriminate).
    destruct (nary_ops s h true l (i_wf _ _ Hi) Hv Hu) as [_ H]. cbn in E. subst l. cbn in H. lia.
  - intros ->. inversion Hds as [E |]; subst. pose proof (denotes_by_node _ _ _ _ Hu Hd) as Hn. destruct n; try discriminate; try (destruct Hn as [? [? [? _]]]; discriminate); try (destruct Hn as [? [? _]]; discriminate).
    destruct (nary_ops s h false l (i_wf _ _ Hi) Hv Hu) as [_ H]. cbn in E. subst l. cbn in H. lia.
Qed.

Lemma formula_depth_spec : forall fuel x W s h, inv W s -> vh s h -> denotes s h x -> (depth x < fuel)%nat ->
  xspec W s (formula_depth fuel h) (fun n _ _ => n = N.of_nat (depth x)).
Proof.
  induction fuel as [| fuel IH]; intros x W s h Hi Hv Hd Hf; [lia |]. cbn [formula_depth].
  apply x_get_bind. destruct (oc_get h (oc_depth (f_caches s))) as [b |] eqn:G.
  { apply x_ret; [assumption |]. exact (hit_tree _ P_depth _ _ _ _ _ (co_depth _ _ _ (i_caches _ _ Hi)) Hd G). }
  eapply x_bind with (Q1 := fun n _ _ => n = N.of_nat (depth x)); [| intros; apply mono_bind; [apply mono_put | intros; apply mono_ret] |].
  2:{ intros r s' W' Hi' He Hs' ->. apply x_put_end; auto. put_caches. exists x. split; [eapply vh_ext; eauto |].
      split; [eapply denotes_ext; eauto | reflexivity]. }
  rewrite (is_atomic_tree _ _ _ _ Hi Hv Hd). destruct (atomic x) eqn:Ha; [apply x_ret; [assumption | destruct x; try discriminate; reflexivity] |].
  destruct (open_node _ _ _ _ Hi Hv Hd) as [n [Hu [Hvs Hds]]]. eapply operandsM_bind; [exact Hu |].
  eapply x_bind.
  - apply (x_mfold_trees _ _ (fun d m => m = match d with [] => None | _ => Some (N.of_nat (max_depth d)) end) _ (children x) [] W s None); auto.
    + intros. apply mono_bind; [auto with mono | intros; apply mono_ret].
    + intros d o y b t W' Hy Hi' He Hvo Hdo ->. eapply x_bind; [apply (IH y); auto; apply children_depth in Hy; lia | intros; apply mono_ret |].
      intros m s1 W1 Hi1 He1 _ ->. apply x_ret; [assumption |]. destruct d as [| z d]; cbn [app].
      * cbn [max_depth fold_right]. now rewrite Nat.max_0_r.
      * change (z :: d ++ [y]) with ((z :: d) ++ [y]). rewrite max_depth_snoc. now rewrite Nat2N.inj_max.
  - intros [m |]; [apply mono_ret | apply mono_fail].
  - intros m s1 W1 Hi1 He1 _ ->. cbn [app]. rewrite (depth_children x Ha). pose proof (children_nonempty _ _ _ _ Hi Hv Hd Ha) as Hne.
    destruct (children x) as [| y l]; [congruence |]. apply x_ret; [assumption |]. lia.
Qed.

Lemma add64_mod : forall a b x y, a = x mod m64 -> b = y mod m64 -> add64 a b = (x + y) mod m64.
Proof. intros a b x y -> ->. unfold add64. fold m64. rewrite N.add_mod_idemp_l, N.add_mod_idemp_r by (unfold m64; lia). reflexivity. Qed.

Definition total_atoms (l : list fml) : N := fold_right (fun y n => atoms y + n) 0 l.
Lemma total_atoms_snoc : forall l x, total_atoms (l ++ [x]) = total_atoms l + atoms x.
Proof. induction l as [| y l IH]; intros x; cbn [app total_atoms fold_right]; [lia |]. fold (total_atoms (l ++ [x])) (total_atoms l). rewrite IH. lia. Qed.
Lemma total_nodes_snoc : forall l x, total_nodes (l ++ [x]) = total_nodes l + nodes x.
Proof. induction l as [| y l IH]; intros x; cbn [app total_nodes fold_right]; [lia |]. fold (total_nodes (l ++ [x])) (total_nodes l). rewrite IH. lia. Qed.
Lemma atoms_children : forall x, atomic x = false -> atoms x = total_atoms (children x).
Proof. intros x H. destruct x; try discriminate H; cbn [atoms children total_atoms fold_right]; rewrite ?N.add_0_r; reflexivity. Qed.
Lemma nodes_children_eq : forall x, atomic x = false -> nodes x = 1 + total_nodes (children x).
Proof. intros x H. destruct x; try discriminate H; cbn [nodes children total_nodes fold_right]; rewrite ?N.add_0_r; reflexivity. Qed.

Lemma mono_number_of_atoms : forall fuel h, mono (number_of_atoms fuel h).
Proof.
  induction fuel as [| fuel IH]; intros h; cbn [number_of_atoms]; [apply mono_nofuel |]. destruct (is_atomic h); [apply mono_ret |].
  apply mono_bind; [auto with mono |]. intros [b |]; [apply mono_ret |].
  apply mono_bind; [auto with mono |]. intros ops. apply mono_bind; [| intros; apply mono_bind; [apply mono_put | intros; apply mono_ret]].
  apply mono_mfold. intros a b. apply mono_bind; [apply IH | intros; apply mono_ret].
Qed.
Lemma mono_number_of_nodes : forall fuel h, mono (number_of_nodes fuel h).
Proof.
  induction fuel as [| fuel IH]; intros h; cbn [number_of_nodes]; [apply mono_nofuel |]. destruct (is_constant h || is_literal h); [apply mono_ret |].
  apply mono_bind; [auto with mono |]. intros [b |]; [apply mono_ret |].
  apply mono_bind; [auto with mono |]. intros n. apply mono_bind; [| intros; apply mono_bind; [apply mono_put | intros; apply mono_ret]].
  destruct n; try apply mono_ret; apply mono_mfold; intros; (apply mono_bind; [apply IH | intros; apply mono_ret]).
Qed.
Global Hint Resolve mono_number_of_atoms mono_number_of_nodes : mono.

Lemma number_of_atoms_spec : forall fuel x W s h, inv W s -> vh s h -> denotes s h x -> (depth x < fuel)%nat ->
  xspec W s (number_of_atoms fuel h) (fun n _ _ => n = atoms x mod m64).
Proof.
  induction fuel as [| fuel IH]; intros x W s h Hi Hv Hd Hf; [lia |]. cbn [number_of_atoms].
  rewrite (is_atomic_tree _ _ _ _ Hi Hv Hd). destruct (atomic x) eqn:Ha; [apply x_ret; [assumption | destruct x; try discriminate; reflexivity] |].
  apply x_get_bind. destruct (oc_get h (oc_atoms (f_caches s))) as [b |] eqn:G.
  { apply x_ret; [assumption |]. exact (hit_tree _ P_atoms _ _ _ _ _ (co_atoms _ _ _ (i_caches _ _ Hi)) Hd G). }
  destruct (open_node _ _ _ _ Hi Hv Hd) as [n [Hu [Hvs Hds]]]. eapply operandsM_bind; [exact Hu |].
  eapply x_bind with (Q1 := fun n _ _ => n = atoms x mod m64); [| intros; apply mono_bind; [apply mono_put | intros; apply mono_ret] |].
  2:{ intros r s' W' Hi' He Hs' ->. apply x_put_end; auto. put_caches. exists x. split; [eapply vh_ext; eauto |].
      split; [eapply denotes_ext; eauto | reflexivity]. }
  rewrite (atoms_children x Ha).
  apply (x_mfold_trees _ _ (fun d m => m = total_atoms d mod m64) _ (children x) [] W s 0); auto.
  - intros. apply mono_bind; [auto with mono | intros; apply mono_ret].
  - intros d o y b t W' Hy Hi' He Hvo Hdo Hb. eapply x_bind; [apply (IH y); auto; apply children_depth in Hy; lia | intros; apply mono_ret |].
    intros m s1 W1 Hi1 He1 _ Hm. apply x_ret; [assumption |]. rewrite total_atoms_snoc. now apply add64_mod.
Qed.

Lemma number_of_nodes_spec : forall fuel x W s h, inv W s -> vh s h -> denotes s h x -> (depth x < fuel)%nat ->
  xspec W s (number_of_nodes fuel h) (fun n _ _ => n = nodes x mod m64).
Proof.
  induction fuel as [| fuel IH]; intros x W s h Hi Hv Hd Hf; [lia |]. cbn [number_of_nodes].
  assert (E : is_constant h || is_literal h = match x with FTrue | FFalse | FLit _ => true | _ => false end).
  { unfold is_constant, is_literal, is_verum, is_falsum. rewrite (type_tree _ _ _ _ Hi Hv Hd). destruct x; reflexivity. }
  rewrite E. clear E. destruct (match x with FTrue | FFalse | FLit _ => true | _ => false end) eqn:Ha.
  { apply x_ret; [assumption |]. destruct x; try discriminate; reflexivity. }
  assert (Hplus : forall n, n = (nodes x - 1) mod m64 -> add64 1 n = nodes x mod m64).
  { intros n Hn. rewrite (add64_mod 1 n 1 (nodes x - 1)); [| reflexivity | assumption]. f_equal. pose proof (nodes_pos x). lia. }
  apply x_get_bind. destruct (oc_get h (oc_nodes (f_caches s))) as [b |] eqn:G.
  { apply x_ret; [assumption |]. apply Hplus. exact (hit_tree _ P_nodes _ _ _ _ _ (co_nodes _ _ _ (i_caches _ _ Hi)) Hd G). }
  destruct (open_node _ _ _ _ Hi Hv Hd) as [n [Hu [Hvs Hds]]]. eapply x_unpack_bind; [exact Hu |].
  eapply x_bind with (Q1 := fun n _ _ => n = (nodes x - 1) mod m64); [| intros; apply mono_bind; [apply mono_put | intros; apply mono_ret] |].
  2:{ intros r s' W' Hi' He Hs' Hr. apply x_put_end; auto. put_caches. exists x. split; [eapply vh_ext; eauto |].
      split; [eapply denotes_ext; eauto | exact Hr]. }
  assert (Hfold : atomic x = false -> xspec W s (mfold (fun op acc => k <-- number_of_nodes fuel op ;; ret (add64 acc k)) (node_operands n) 0)
            (fun n _ _ => n = (nodes x - 1) mod m64)).
  { intros Hat. rewrite (nodes_children_eq x Hat). replace (1 + total_nodes (children x) - 1) with (total_nodes (children x)) by lia.
    apply (x_mfold_trees _ _ (fun d m => m = total_nodes d mod m64) _ (children x) [] W s 0); auto.
    - intros. apply mono_bind; [auto with mono | intros; apply mono_ret].
    - intros d o y b t W' Hy Hi' He Hvo Hdo Hb. eapply x_bind; [apply (IH y); auto; apply children_depth in Hy; lia | intros; apply mono_ret |].
      intros m s1 W1 Hi1 He1 _ Hm. apply x_ret; [assumption |]. rewrite total_nodes_snoc. now apply add64_mod. }
  node_cases n Hu Hd; try discriminate Ha; try (apply Hfold; reflexivity).
  - apply x_ret; [assumption |]. cbn [nodes]. f_equal. lia.
  - apply x_ret; [assumption |]. cbn [nodes]. f_equal. lia.
Qed.

(* ------------------------------------------------------------------------------------------------------------------ *)
(** * Variables and literals *)

Section Sets.
  Variable A : Type.
  Variables ltb eqb : A -> A -> bool.
  Hypothesis ltb_trans : forall x y z, ltb x y = true -> ltb y z = true -> ltb x z = true.
  Hypothesis ltb_total : forall x y, ltb x y = false -> eqb x y = false -> ltb y x = true.
  Hypothesis eqb_ok : forall x y, eqb x y = true <-> x = y.

  Lemma ins_in : forall x l a, In a (ins ltb eqb x l) <-> a = x \/ In a l.
  Proof.
    intros x l a. induction l as [| y l IH]; cbn [ins].
    - cbn. intuition.
    - destruct (ltb x y); [cbn; intuition |]. destruct (eqb x y) eqn:E.
      + apply eqb_ok in E. subst y. cbn. intuition.
      + cbn [In]. rewrite IH. intuition.
  Qed.
  Lemma ins_strict : forall x l, strict ltb l -> strict ltb (ins ltb eqb x l).
  Proof.
    intros x l H. induction H as [| y l Hl IH Hy]; cbn [ins]; [repeat constructor |].
    destruct (ltb x y) eqn:E1.
    - constructor; [constructor; assumption |]. constructor; [assumption |]. eapply Forall_impl; [| exact Hy]. intros z Hz. cbn in Hz. eapply ltb_trans; eauto.
    - destruct (eqb x y) eqn:E2; [constructor; assumption |]. constructor; [exact IH |]. apply Forall_forall. intros z Hz. apply ins_in in Hz.
      destruct Hz as [-> | Hz]; [now apply ltb_total |]. rewrite Forall_forall in Hy. auto.
  Qed.
  Lemma ins_all_ok : forall xs l ref, set_list ltb l ref -> set_list ltb (ins_all ltb eqb xs l) (ref ++ xs).
  Proof.
    intros xs. induction xs as [| x xs IH]; intros l ref [H1 H2]; cbn [ins_all fold_left]; [rewrite app_nil_r; split; assumption |].
    replace (ref ++ x :: xs) with ((ref ++ [x]) ++ xs) by (rewrite <- app_assoc; reflexivity). apply IH. split; [now apply ins_strict |].
    intros a. rewrite ins_in, in_app_iff, H2. cbn. intuition.
  Qed.
  Lemma set_list_equiv : forall l r r', set_list ltb l r -> (forall a, In a r <-> In a r') -> set_list ltb l r'.
  Proof. intros l r r' [H1 H2] H. split; [assumption |]. intros a. rewrite H2. apply H. Qed.
  Lemma set_list_nil : set_list ltb [] [].
  Proof. split; [constructor | tauto]. Qed.
End Sets.

Definition vars_all_ok := ins_all_ok var var_ltb var_eqb var_ltb_trans var_ltb_total var_eqb_spec.

Lemma lit_ltb_trans : forall x y z, lit_ltb x y = true -> lit_ltb y z = true -> lit_ltb x z = true.
Proof. intros [x []] [y []] [z []]; unfold lit_ltb; cbn [lit_phase lit_var]; try congruence; apply var_ltb_trans. Qed.
Lemma lit_ltb_total : forall x y, lit_ltb x y = false -> lit_eqb x y = false -> lit_ltb y x = true.
Proof.
  intros [x p] [y q] H1 H2. unfold lit_ltb, lit_eqb in *. cbn [lit_phase lit_var] in *. destruct p, q; try congruence; cbn in H2;
    rewrite andb_true_r in H2; now apply var_ltb_total.
Qed.
Definition lits_all_ok := ins_all_ok lit lit_ltb lit_eqb lit_ltb_trans lit_ltb_total lit_eqb_spec.

Lemma mono_variables : forall fuel h, mono (variables fuel h).
Proof.
  induction fuel as [| fuel IH]; intros h; cbn [variables]; [apply mono_nofuel |].
  apply mono_bind; [auto with mono |]. intros [b |]; [apply mono_ret |].
  apply mono_bind; [auto with mono |]. intros n. apply mono_bind; [| intros; apply mono_bind; [apply mono_put | intros; apply mono_ret]].
  destruct n; try apply mono_ret; apply mono_mfold; intros; (apply mono_bind; [apply IH | intros; apply mono_ret]).
Qed.
Lemma mono_literals : forall fuel h, mono (literals fuel h).
Proof.
  induction fuel as [| fuel IH]; intros h; cbn [literals]; [apply mono_nofuel |].
  apply mono_bind; [auto with mono |]. intros [b |]; [apply mono_ret |].
  apply mono_bind; [auto with mono |]. intros n. apply mono_bind; [| intros; apply mono_bind; [apply mono_put | intros; apply mono_ret]].
  destruct n; try apply mono_ret; apply mono_mfold; intros; (apply mono_bind; [apply IH | intros; apply mono_ret]).
Qed.
Global Hint Resolve mono_variables mono_literals : mono.

Lemma variables_spec : forall fuel x W s h, inv W s -> vh s h -> denotes s h x -> (depth x < fuel)%nat ->
  xspec W s (variables fuel h) (fun l _ _ => set_list var_ltb l (fvars x)).
Proof.
  induction fuel as [| fuel IH]; intros x W s h Hi Hv Hd Hf; [lia |]. cbn [variables].
  apply x_get_bind. destruct (oc_get h (oc_vars (f_caches s))) as [b |] eqn:G.
  { apply x_ret; [assumption |]. exact (hit_tree _ P_vars _ _ _ _ _ (co_vars _ _ _ (i_caches _ _ Hi)) Hd G). }
  destruct (open_node _ _ _ _ Hi Hv Hd) as [n [Hu [Hvs Hds]]]. eapply x_unpack_bind; [exact Hu |].
  eapply x_bind with (Q1 := fun l _ _ => set_list var_ltb l (fvars x)); [| intros; apply mono_bind; [apply mono_put | intros; apply mono_ret] |].
  2:{ intros r s' W' Hi' He Hs' Hr. apply x_put_end; auto. put_caches. exists x. split; [eapply vh_ext; eauto |].
      split; [eapply denotes_ext; eauto | exact Hr]. }
  assert (Hfold : atomic x = false -> xspec W s (mfold (fun op acc => vs <-- variables fuel op ;; ret (add_vars vs acc)) (node_operands n) [])
            (fun l _ _ => set_list var_ltb l (fvars x))).
  { intros Hat. eapply x_conseq.
    - apply (x_mfold_trees _ _ (fun d l => set_list var_ltb l (flat_map fvars d)) _ (children x) [] W s []); auto.
      + intros. apply mono_bind; [auto with mono | intros; apply mono_ret].
      + apply set_list_nil.
      + intros d o y b t W' Hy Hi' He Hvo Hdo Hb. eapply x_bind; [apply (IH y); auto; apply children_depth in Hy; lia | intros; apply mono_ret |].
        intros m s1 W1 Hi1 He1 _ Hm. apply x_ret; [assumption |]. rewrite flat_map_app. cbn [flat_map]. rewrite app_nil_r.
        eapply set_list_equiv; [apply vars_all_ok; exact Hb |]. intros a. rewrite !in_app_iff. destruct Hm as [_ Hm]. rewrite Hm. tauto.
    - cbn beta. intros l s1 W1 _ _ _ Hl. cbn [app] in Hl. eapply set_list_equiv; [exact Hl |]. intros a. rewrite (fvars_children x a Hat). apply in_flat_map. }
  node_cases n Hu Hd; try (apply Hfold; reflexivity); (apply x_ret; [assumption |]).
  - apply set_list_nil.
  - apply set_list_nil.
  - apply (vars_all_ok [lit_var l] [] []). apply set_list_nil.
  - unfold fvars. cbn [leaves flat_map leaf_vars]. rewrite app_nil_r. apply (vars_all_ok (cc_vars c) [] []). apply set_list_nil.
  - unfold fvars. cbn [leaves flat_map leaf_vars]. rewrite app_nil_r. apply (vars_all_ok (map lit_var (pb_lits p)) [] []). apply set_list_nil.
Qed.

Lemma flits_children : forall x v, atomic x = false -> (In v (flits x) <-> exists y, In y (children x) /\ In v (flits y)).
Proof.
  intros x v Ha. destruct x; try discriminate Ha; cbn [flits children]; try apply in_flat_map.
  - split; [intros H; exists x; split; [left; reflexivity | exact H] | intros [y [[<- | []] H]]; exact H].
  - rewrite in_app_iff. split; [intros [H | H]; [exists x1 | exists x2]; cbn; auto | intros [y [[<- | [<- | []]] H]]; auto].
  - rewrite in_app_iff. split; [intros [H | H]; [exists x1 | exists x2]; cbn; auto | intros [y [[<- | [<- | []]] H]]; auto].
Qed.

Lemma literals_spec : forall fuel x W s h, inv W s -> vh s h -> denotes s h x -> (depth x < fuel)%nat ->
  xspec W s (literals fuel h) (fun l _ _ => set_list lit_ltb l (flits x)).
Proof.
  induction fuel as [| fuel IH]; intros x W s h Hi Hv Hd Hf; [lia |]. cbn [literals].
  apply x_get_bind. destruct (oc_get h (oc_lits (f_caches s))) as [b |] eqn:G.
  { apply x_ret; [assumption |]. exact (hit_tree _ P_lits _ _ _ _ _ (co_lits _ _ _ (i_caches _ _ Hi)) Hd G). }
  destruct (open_node _ _ _ _ Hi Hv Hd) as [n [Hu [Hvs Hds]]]. eapply x_unpack_bind; [exact Hu |].
  eapply x_bind with (Q1 := fun l _ _ => set_list lit_ltb l (flits x)); [| intros; apply mono_bind; [apply mono_put | intros; apply mono_ret] |].
  2:{ intros r s' W' Hi' He Hs' Hr. apply x_put_end; auto. put_caches. exists x. split; [eapply vh_ext; eauto |].
      split; [eapply denotes_ext; eauto | exact Hr]. }
  assert (Hfold : atomic x = false -> xspec W s (mfold (fun op acc => ls <-- literals fuel op ;; ret (add_lits ls acc)) (node_operands n) [])
            (fun l _ _ => set_list lit_ltb l (flits x))).
  { intros Hat. eapply x_conseq.
    - apply (x_mfold_trees _ _ (fun d l => set_list lit_ltb l (flat_map flits d)) _ (children x) [] W s []); auto.
      + intros. apply mono_bind; [auto with mono | intros; apply mono_ret].
      + apply set_list_nil.
      + intros d o y b t W' Hy Hi' He Hvo Hdo Hb. eapply x_bind; [apply (IH y); auto; apply children_depth in Hy; lia | intros; apply mono_ret |].
        intros m s1 W1 Hi1 He1 _ Hm. apply x_ret; [assumption |]. rewrite flat_map_app. cbn [flat_map]. rewrite app_nil_r.
        eapply set_list_equiv; [apply lits_all_ok; exact Hb |]. intros a. rewrite !in_app_iff. destruct Hm as [_ Hm]. rewrite Hm. tauto.
    - cbn beta. intros l s1 W1 _ _ _ Hl. cbn [app] in Hl. eapply set_list_equiv; [exact Hl |]. intros a. rewrite (flits_children x a Hat). apply in_flat_map. }
  node_cases n Hu Hd; try (apply Hfold; reflexivity); (apply x_ret; [assumption |]).
  - apply set_list_nil.
  - apply set_list_nil.
  - apply (lits_all_ok [l] [] []). apply set_list_nil.
  - apply (lits_all_ok (pos_lits (cc_vars c)) [] []). apply set_list_nil.
  - apply (lits_all_ok (pb_lits p) [] []). apply set_list_nil.
Qed.

Lemma literal_of_spec : forall W s h l, inv W s -> denotes s h (FLit l) -> literal_of s h = Ok l.
Proof. intros W s h l Hi Hd. inversion Hd as [| | ? ? Hu | | | | | | |]; subst. unfold literal_of. rewrite Hu. reflexivity. Qed.
Lemma literals_for_clause_or_term_spec : forall W s h x, inv W s -> vh s h -> denotes s h x -> clausal x = true \/ is_fterm x = true ->
  literals_for_clause_or_term s h = Ok (flits x).
Proof.
  intros W s h x Hi Hv Hd Hs. destruct (open_node _ _ _ _ Hi Hv Hd) as [n [Hu [Hvs Hds]]]. unfold literals_for_clause_or_term. rewrite Hu. cbn [rbind].
  assert (Hmap : forall l xs, Forall2 (denotes s) l xs -> forallb is_flit xs = true -> res_map (literal_of s) l = Ok (flat_map flits xs)).
  { intros l xs H. induction H as [| k y l xs Hy H IH]; [reflexivity |]. cbn [forallb]. rewrite andb_true_iff. intros [E1 E2].
    destruct y; try discriminate. cbn [res_map]. rewrite (literal_of_spec W s k l0 Hi Hy). cbn [rbind]. rewrite (IH E2). reflexivity. }
  node_cases n Hu Hd; cbn in Hs; try (destruct Hs; discriminate); try reflexivity; cbn [flits]; cbn [node_operands children] in Hds.
  - apply Hmap; [assumption |]. destruct Hs; [discriminate | assumption].
  - apply Hmap; [assumption |]. destruct Hs; [assumption | discriminate].
Qed.

(** Occurrences of a variable. *)
Fixpoint count_occ_var (v : var) (l : list var) : N := match l with [] => 0 | w :: r => (if var_eqb w v then 1 else 0) + count_occ_var v r end.

Lemma count_occ_var_app : forall v a b, count_occ_var v (a ++ b) = count_occ_var v a + count_occ_var v b.
Proof. intros v a b. induction a as [| w a IH]; cbn [app count_occ_var]; [lia |]. rewrite IH. lia. Qed.

Lemma assoc_not_key : forall A v (m : list (var * A)), ~ In v (map fst m) -> assoc var_eqb v m = None.
Proof.
  intros A v m. induction m as [| [w a] m IH]; intros H; [reflexivity |]. cbn [assoc]. destruct (var_eqb v w) eqn:E.
  - apply var_eqb_spec in E. subst. exfalso. apply H. left. reflexivity.
  - apply IH. intros K. apply H. right. exact K.
Qed.
Lemma count_var_get : forall v w m, sortedm m ->
  assoc var_eqb v (count_var w m) = if var_eqb v w then Some (match assoc var_eqb w m with Some n => n + 1 | None => 1 end) else assoc var_eqb v m.
Proof.
  intros v w m. unfold count_var. induction m as [| [y n] m IH]; intros Hs; cbn [vm_update].
  - cbn [assoc]. destruct (var_eqb v w); reflexivity.
  - inversion Hs as [| ? ? Hs' Hall]; subst. destruct (var_ltb w y) eqn:E1.
    + cbn [assoc]. destruct (var_eqb v w) eqn:E2; [| reflexivity]. destruct (var_eqb w y) eqn:E3.
      { apply var_eqb_spec in E3. subst. rewrite var_ltb_irrefl in E1. discriminate. }
      rewrite assoc_not_key; [reflexivity |]. intros Hin. rewrite Forall_forall in Hall. specialize (Hall w Hin).
      pose proof (var_ltb_trans _ _ _ E1 Hall) as K. rewrite var_ltb_irrefl in K. discriminate.
    + destruct (var_eqb w y) eqn:E2.
      * apply var_eqb_spec in E2. subst y. cbn [assoc]. rewrite var_eqb_refl. destruct (var_eqb v w); reflexivity.
      * cbn [assoc]. rewrite E2. rewrite IH by exact Hs'. destruct (var_eqb v y) eqn:E3; [| reflexivity].
        destruct (var_eqb v w) eqn:E4; [| reflexivity]. apply var_eqb_spec in E3, E4. subst. rewrite var_eqb_refl in E2. discriminate.
Qed.

(** [m] maps the variables of [l] to their number of occurrences, and has no other keys. *)
Definition profile (m : list (var * N)) (l : list var) : Prop :=
  sortedm m /\ forall v, assoc var_eqb v m = if count_occ_var v l =? 0 then None else Some (count_occ_var v l).

Lemma count_var_profile : forall w m l, profile m l -> profile (count_var w m) (l ++ [w]).
Proof.
  intros w m l [Hs Hp]. split; [now apply vm_update_sorted |]. intros v. rewrite count_var_get by assumption. rewrite count_occ_var_app. cbn [count_occ_var].
  destruct (var_eqb v w) eqn:E.
  - apply var_eqb_spec in E. subst v. rewrite Hp, var_eqb_refl. destruct (N.eqb_spec (count_occ_var w l) 0) as [-> | Hne]; [reflexivity |].
    destruct (N.eqb_spec (count_occ_var w l + (1 + 0)) 0); [lia |]. reflexivity.
  - assert (var_eqb w v = false) as ->. { destruct (var_eqb w v) eqn:E2; [| reflexivity]. apply var_eqb_spec in E2. subst. rewrite var_eqb_refl in E. discriminate. }
    rewrite Hp, !N.add_0_r. reflexivity.
Qed.
Lemma count_vars_profile : forall ws m l, profile m l -> profile (fold_left (fun m v => count_var v m) ws m) (l ++ ws).
Proof.
  induction ws as [| w ws IH]; intros m l H; cbn [fold_left]; [now rewrite app_nil_r |].
  replace (l ++ w :: ws) with ((l ++ [w]) ++ ws) by (rewrite <- app_assoc; reflexivity). apply IH. now apply count_var_profile.
Qed.

Lemma mono_variable_profile : forall fuel h m, mono (variable_profile_rec fuel h m).
Proof.
  induction fuel as [| fuel IH]; intros h m; cbn [variable_profile_rec]; [apply mono_nofuel |].
  apply mono_bind; [auto with mono |]. intros n. destruct n; try apply mono_ret; apply mono_mfold; exact IH.
Qed.
Lemma variable_profile_spec : forall fuel x W s h m l, inv W s -> vh s h -> denotes s h x -> (depth x < fuel)%nat -> profile m l ->
  xspec W s (variable_profile_rec fuel h m) (fun m' _ _ => profile m' (l ++ fvars x)).
Proof.
  induction fuel as [| fuel IH]; intros x W s h m l Hi Hv Hd Hf Hp; [lia |]. cbn [variable_profile_rec].
  destruct (open_node _ _ _ _ Hi Hv Hd) as [n [Hu [Hvs Hds]]]. eapply x_unpack_bind; [exact Hu |].
  assert (Hfold : flat_map fvars (children x) = fvars x -> xspec W s (mfold (variable_profile_rec fuel) (node_operands n) m)
            (fun m' _ _ => profile m' (l ++ fvars x))).
  { intros E. rewrite <- E. apply (x_mfold_trees _ _ (fun d m => profile m (l ++ flat_map fvars d)) _ (children x) [] W s m); auto.
    - intros. apply mono_variable_profile.
    - cbn [flat_map]. rewrite app_nil_r. assumption.
    - intros d o y b t W' Hy Hi' He Hvo Hdo Hb. eapply x_conseq; [apply (IH y); eauto; apply children_depth in Hy; lia |].
      cbn beta. intros m' s1 W1 _ _ _ H. rewrite flat_map_app. cbn [flat_map]. rewrite app_nil_r, app_assoc. exact H. }
  node_cases n Hu Hd.
  - apply Hfold; reflexivity.
  - apply Hfold; reflexivity.
  - apply x_ret; [assumption |]. apply (count_var_profile (lit_var l0) m l Hp).
  - apply Hfold. cbn [children flat_map]. apply app_nil_r.
  - apply Hfold. cbn [children]. apply flat_map_fvars.
  - apply Hfold. cbn [children]. apply flat_map_fvars.
  - apply Hfold. cbn [children flat_map]. unfold fvars. cbn [leaves]. rewrite flat_map_app, app_nil_r. reflexivity.
  - apply Hfold. cbn [children flat_map]. unfold fvars. cbn [leaves]. rewrite flat_map_app, app_nil_r. reflexivity.
  - apply x_ret; [assumption |]. unfold fvars. cbn [leaves flat_map leaf_vars]. rewrite app_nil_r. now apply count_vars_profile.
  - apply x_ret; [assumption |]. unfold fvars. cbn [leaves flat_map leaf_vars]. rewrite app_nil_r.
    replace (fold_left (fun m l => count_var (lit_var l) m) (pb_lits p) m) with (fold_left (fun m v => count_var v m) (map lit_var (pb_lits p)) m).
    + now apply count_vars_profile.
    + generalize (pb_lits p), m. induction l0 as [| k ks IHk]; intros m0; [reflexivity |]. cbn [map fold_left]. apply IHk.
Qed.

(* ------------------------------------------------------------------------------------------------------------------ *)
(** * Sub-formulas *)

Definition ordered (s : factory) (l : list N) : Prop :=
  forall a k b n o, l = a ++ k :: b -> unpack s k = Ok n -> In o (node_operands n) -> In o a.

Lemma ordered_snoc : forall s l h, ordered s l -> (forall n o, unpack s h = Ok n -> In o (node_operands n) -> In o l) -> ordered s (l ++ [h]).
Proof.
  intros s l h Hl Hh a k b n o E Hu Ho. destruct b as [| c b _] using rev_ind.
  - apply app_inj_tail in E. destruct E as [<- <-]. eapply Hh; eauto.
  - change (k :: b ++ [c]) with ((k :: b) ++ [c]) in E. rewrite app_assoc in E. apply app_inj_tail in E. destruct E as [-> _]. eapply Hl; eauto.
Qed.

Lemma memN_In : forall x l, memN x l = true <-> In x l.
Proof. intros x l. unfold memN. rewrite existsb_exists. split; [intros [y [Hy E]]; apply N.eqb_eq in E; now subst | intros H; exists x; split; [assumption | apply N.eqb_refl]]. Qed.

Lemma NoDup_snoc : forall A (l : list A) x, NoDup l -> ~ In x l -> NoDup (l ++ [x]).
Proof.
  intros A l x Hl Hx. induction Hl as [| y l Hy Hl IH]; cbn [app]; [repeat constructor; intros [] |]. constructor.
  - rewrite in_app_iff. intros [H | [<- | []]]; [auto |]. apply Hx. left. reflexivity.
  - apply IH. intros H. apply Hx. right. exact H.
Qed.

Lemma add_new_spec : forall s rest pre r, ordered s (pre ++ rest) -> incl pre r -> ordered s r -> NoDup r ->
  ordered s (add_new rest r) /\ NoDup (add_new rest r) /\ forall k, In k (add_new rest r) <-> In k r \/ In k rest.
Proof.
  intros s rest. induction rest as [| h rest IH]; intros pre r Ho Hp Hr Hn; cbn [add_new fold_left].
  - split; [assumption |]. split; [assumption |]. intros k. cbn. tauto.
  - replace (pre ++ h :: rest) with ((pre ++ [h]) ++ rest) in Ho by (rewrite <- app_assoc; reflexivity).
    destruct (memN h r) eqn:E.
    + apply memN_In in E. assert (Hinc : incl (pre ++ [h]) r).
      { intros k Hk. apply in_app_or in Hk. destruct Hk as [Hk | [<- | []]]; auto. }
      destruct (IH (pre ++ [h]) r Ho Hinc Hr Hn) as [H1 [H2 H3]].
      split; [exact H1 |]. split; [exact H2 |]. intros k. fold (add_new rest r). rewrite H3. cbn. split; [tauto |]. intros [H | [<- | H]]; auto.
    + assert (Hnot : ~ In h r) by (rewrite <- memN_In; congruence).
      assert (Hinc : incl (pre ++ [h]) (r ++ [h])).
      { intros k Hk. apply in_app_or in Hk. apply in_or_app. destruct Hk as [Hk | [<- | []]]; [left; auto | right; left; reflexivity]. }
      assert (Hor : ordered s (r ++ [h])).
      { apply ordered_snoc; [assumption |]. intros n o Hu Hin. apply Hp. rewrite <- app_assoc in Ho. cbn [app] in Ho. exact (Ho pre h rest n o eq_refl Hu Hin). }
      destruct (IH (pre ++ [h]) (r ++ [h]) Ho Hinc Hor (NoDup_snoc _ _ _ Hn Hnot)) as [H1 [H2 H3]].
      split; [exact H1 |]. split; [exact H2 |]. intros k. fold (add_new rest (r ++ [h])). rewrite H3, in_app_iff. cbn. intuition.
Qed.

Lemma ordered_ext : forall s s' l, wf s -> ext s s' -> Forall (vh s) l -> ordered s l -> ordered s' l.
Proof.
  intros s s' l Hw He Hv Ho a k b n o E Hu Hin. eapply Ho; eauto. eapply unpack_back; eauto. rewrite Forall_forall in Hv. apply Hv. rewrite E.
  apply in_or_app. right. left. reflexivity.
Qed.

Lemma below_depth : forall s h k x, denotes s h x -> below s h k -> k = h \/ exists y, denotes s k y /\ (depth y < depth x)%nat.
Proof.
  intros s h k x Hd H. induction H as [| k n o H IH Hu Ho]; [left; reflexivity |]. right.
  assert (Hk : exists y, denotes s k y /\ (depth y <= depth x)%nat).
  { destruct IH as [-> | [y [Hy Hlt]]]; [exists x; auto | exists y; split; [assumption | lia]]. }
  destruct Hk as [y [Hy Hle]]. pose proof (denotes_children _ _ _ _ Hu Hy) as Hch. destruct (Forall2_In_l _ _ _ _ _ _ Hch Ho) as [z [Hz Hdz]].
  exists z. split; [assumption |]. apply children_depth in Hz. lia.
Qed.

Definition sub_entry (s : factory) (h : N) (l : list N) : Prop := vh s h /\ sub_list s h l.
Definition lc_ok (s : factory) (lc : option (list (N * list N))) : Prop :=
  match lc with Some m => centry (sub_entry s) m | None => on_sub (cfg_caches (f_config s)) = true end.
Lemma lc_ok_ext : forall s s' lc, wf s -> ext s s' -> lc_ok s lc -> lc_ok s' lc.
Proof.
  intros s s' [m |] Hw He H; cbn in *.
  - intros h l Hg. destruct (H h l Hg) as [H1 H2]. split; [eapply vh_ext; eauto | eapply sub_list_ext; eauto].
  - destruct He as [_ [-> _]]. exact H.
Qed.

Lemma mono_sub_nodes_cached : forall fuel h lc, mono (sub_nodes_cached fuel h lc).
Proof.
  induction fuel as [| fuel IH]; intros h lc; cbn [sub_nodes_cached]; [apply mono_nofuel |].
  destruct (match lc with Some m => oc_get h m | None => None end); [apply mono_ret |].
  apply mono_bind; [auto with mono |]. intros [b |]; [apply mono_ret |].
  apply mono_bind; [auto with mono |]. intros ops. apply mono_bind.
  - apply mono_mfold. intros a b. destruct (memN h (fst b)); [apply mono_ret |]. apply mono_bind; [apply IH | intros; apply mono_ret].
  - intros p. apply mono_bind; [apply mono_lift |]. intros []; [apply mono_bind; [apply mono_put | intros; apply mono_ret] |].
    destruct (snd p); [apply mono_ret | apply mono_fail].
Qed.
Lemma mono_sub_nodes : forall fuel h, mono (sub_nodes fuel h).
Proof. intros. unfold sub_nodes. apply mono_bind; [apply mono_lift |]. intros. apply mono_bind; [apply mono_sub_nodes_cached | intros; apply mono_ret]. Qed.
Global Hint Resolve mono_sub_nodes : mono.

Lemma sub_nodes_cached_spec : forall fuel x W s h lc, inv W s -> vh s h -> denotes s h x -> (depth x < fuel)%nat -> lc_ok s lc ->
  xspec W s (sub_nodes_cached fuel h lc) (fun p s' _ => sub_list s' h (fst p) /\ lc_ok s' (snd p)).
Proof.
  induction fuel as [| fuel IH]; intros x W s h lc Hi Hv Hd Hf Hlc; [lia |]. cbn [sub_nodes_cached].
  destruct (match lc with Some m => oc_get h m | None => None end) as [l |] eqn:G1.
  { destruct lc as [m |]; [| discriminate]. apply x_ret; [assumption |]. split; [apply (Hlc h l G1) | exact Hlc]. }
  apply x_get_bind. destruct (oc_get h (oc_sub (f_caches s))) as [l |] eqn:G.
  { apply x_ret; [assumption |]. split; [apply (co_sub _ _ _ (i_caches _ _ Hi) h l G) | exact Hlc]. }
  destruct (open_node _ _ _ _ Hi Hv Hd) as [n [Hu [Hvs Hds]]]. eapply operandsM_bind; [exact Hu |].
  pose (I := fun (d : list N) (p : list N * option (list (N * list N))) (t : factory) (_ : world) =>
    ordered t (fst p) /\ NoDup (fst p) /\ incl d (node_operands n) /\ (forall k, In k (fst p) <-> exists o, In o d /\ below t o k) /\ lc_ok t (snd p)).
  assert (Hvo : forall t, ext s t -> forall o, In o (node_operands n) -> vh t o).
  { intros t He o Ho. rewrite Forall_forall in Hvs. eapply vh_ext; eauto. }
  assert (Hnoth : forall t, wf t -> ext s t -> forall d k, incl d (node_operands n) -> (exists o, In o d /\ below t o k) -> k <> h).
  { intros t Ht He d k Hinc [o [Ho Hb]] ->. apply Hinc in Ho. destruct (Forall2_In_l _ _ _ _ _ _ Hds Ho) as [y [Hy Hdy]].
    pose proof (denotes_ext _ _ _ _ He Hdy) as Hdt. pose proof (denotes_ext _ _ _ _ He Hd) as Hht. apply children_depth in Hy.
    destruct (below_depth t o h y Hdt Hb) as [<- | [z [Hz Hlt]]].
    - rewrite (denotes_fun _ _ _ _ Hht Hdt) in Hy. lia.
    - rewrite (denotes_fun _ _ _ _ Hht Hz) in Hy. lia. }
  eapply x_bind with (Q1 := I (node_operands n)).
  - apply (x_mfold _ _ _ I (node_operands n) [] W s ([], lc)); auto.
    + intros a b. destruct (memN h (fst b)); [apply mono_ret |]. apply mono_bind; [apply mono_sub_nodes_cached | intros; apply mono_ret].
    + unfold I. cbn [fst snd]. split; [intros a k b m o E; destruct a; discriminate |]. split; [constructor |]. split; [intros ? [] |].
      split; [| assumption]. intros k. split; [intros [] | intros [o [[] _]]].
    + intros d o b t W' Ho Hi' He Hs HI. destruct HI as [I1 [I2 [I3 [I4 I5]]]].
      assert (Hmem : memN h (fst b) = false).
      { destruct (memN h (fst b)) eqn:E; [| reflexivity]. apply memN_In in E. apply I4 in E. exfalso. exact (Hnoth t (i_wf _ _ Hi') He d h I3 E eq_refl). }
      rewrite Hmem. destruct (Forall2_In_l _ _ _ _ _ _ Hds Ho) as [y [Hy Hdy]].
      eapply x_bind; [apply (IH y W' t o (snd b)); auto; [eapply denotes_ext; eauto | apply children_depth in Hy; lia] | intros; apply mono_ret |].
      intros q t1 W1 Hi1 He1 _ [[Q1 [Q2 [Q3 Q4]]] Q5]. apply x_ret; [assumption |]. unfold I. cbn [fst snd].
      assert (Hvb : Forall (vh t) (fst b)).
      { apply Forall_forall. intros k Hk. apply I4 in Hk. destruct Hk as [o' [Ho' Hb]]. eapply below_vh; [apply (i_wf _ _ Hi') | | exact Hb]. apply Hvo; auto. }
      destruct (add_new_spec t1 (fst q) [] (fst b)) as [A1 [A2 A3]]; auto.
      { intros ? []. }
      { eapply ordered_ext; [apply (i_wf _ _ Hi') | exact He1 | exact Hvb | exact I1]. }
      split; [exact A1 |]. split; [exact A2 |]. split; [intros k Hk; apply in_app_or in Hk; destruct Hk as [Hk | [<- | []]]; auto |].
      split; [| exact Q5]. intros k. rewrite A3, I4, Q3. split.
      * intros [[o' [Ho' Hb]] | Hb].
        -- exists o'. split; [apply in_or_app; left; assumption |]. apply (proj2 (below_ext t t1 o' k (i_wf _ _ Hi') He1 (Hvo t He o' (I3 _ Ho')))). exact Hb.
        -- exists o. split; [apply in_or_app; right; left; reflexivity | exact Hb].
      * intros [o' [Ho' Hb]]. apply in_app_or in Ho'. destruct Ho' as [Ho' | [<- | []]]; [left | right; exact Hb].
        exists o'. split; [assumption |]. apply (proj1 (below_ext t t1 o' k (i_wf _ _ Hi') He1 (Hvo t He o' (I3 _ Ho')))). exact Hb.
  - intros p. apply mono_bind; [apply mono_lift |]. intros []; [apply mono_bind; [apply mono_put | intros; apply mono_ret] |].
    destruct (snd p); [apply mono_ret | apply mono_fail].
  - intros p t W1 Hi1 He1 Hs1 [I1 [I2 [I3 [I4 I5]]]]. cbn zeta.
    assert (Hut : unpack t h = Ok n) by (eapply unpack_ext; [apply He1 | exact Hu]).
    assert (Hsub : sub_list t h (fst p ++ [h])).
    { split; [| split; [| split]].
      - apply NoDup_snoc; [assumption |]. intros Hin. apply I4 in Hin. exact (Hnoth t (i_wf _ _ Hi1) He1 _ h I3 Hin eq_refl).
      - exists (fst p). reflexivity.
      - intros k. rewrite in_app_iff, I4. split.
        + intros [[o [Ho Hb]] | [<- | []]]; [| constructor]. eapply below_trans; [| exact Hb]. eapply below_step; [constructor | exact Hut | exact Ho].
        + intros Hb. destruct (below_front _ _ _ _ Hut Hb) as [-> | H]; [right; left; reflexivity | left; exact H].
      - apply ordered_snoc; [assumption |]. intros m o Hm Ho. assert (m = n) by congruence. subst m. apply I4. exists o. split; [assumption | constructor]. }
    assert (Hvt : vh t h) by (eapply vh_ext; eauto).
    eapply x_lift_bind; [reflexivity |]. destruct (on_sub (cfg_caches (f_config t))) eqn:Eon.
    + apply x_put_end; auto.
      * put_caches. split; assumption.
      * intros s' He' Hi'. cbn [fst snd]. split; [eapply sub_list_ext; eauto; apply (i_wf _ _ Hi1) | eapply lc_ok_ext; eauto; apply (i_wf _ _ Hi1)].
    + destruct (snd p) as [m |] eqn:Ep.
      * apply x_ret; [assumption |]. cbn [fst snd lc_ok]. split; [exact Hsub |]. apply centry_insert; [exact I5 |]. split; assumption.
      * cbn [lc_ok] in I5. congruence.
Qed.

Lemma sub_nodes_spec : forall fuel x W s h, inv W s -> vh s h -> denotes s h x -> (depth x < fuel)%nat ->
  xspec W s (sub_nodes fuel h) (fun l s' _ => sub_list s' h l).
Proof.
  intros fuel x W s h Hi Hv Hd Hf. unfold sub_nodes. eapply x_lift_bind; [reflexivity |].
  eapply x_bind; [apply (sub_nodes_cached_spec fuel x); auto | intros; apply mono_ret |].
  - destruct (on_sub (cfg_caches (f_config s))) eqn:E; cbn [lc_ok]; [assumption |]. intros k v Hg. discriminate.
  - intros p t W1 Hi1 He1 Hs1 [H1 _]. apply x_ret; assumption.
Qed.
