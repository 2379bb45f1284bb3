(** The invariant of histories with solvers. *)
From Coq Require Import NArith ZArith List Bool Arith Lia.
From Verif Require Import Base EncodingModel EncodingProofs Syntax FactoryModel FactoryInv FactoryBasics FactoryProofs FactorySpecs FactoryNary
  FactoryOps EvalProofs HistoryModel HistoryProofs ConstraintModel OpsModel OpsProofs CcModel EncBasics CcFrontProofs PbModel CacheModel TransModel
  TreeSpec WorldProofs MetricsProofs EncodeProofs NnfProofs DefBasics EncoderProofs XHistory XHistoryProofs
  Vec SatModel SatSpec SatBasics SatProp SatDb SatFront SatState MiniModel MiniProofs AssignmentModel EnumProofs BackboneProofs OptModel OptProofs MiniHistory PgSolverModel PgSolverProofs PgAddProofs BbSimpModel SatPredModel PgHistory PgTakeProofs BbSimpProofs.
Import ListNotations.
Local Open Scope N_scope.


Definition ginv_all (W : world) (g : gstate) : Prop := xinv W (g_x g) /\ Forall (slv_ok W (x_fac (g_x g)) (x_known (g_x g))) (g_solvers g).

Section History.
  Variable orc : oracle.
  Hypothesis So : sorting orc.

  Lemma mid : forall A (P : A -> Prop) l1 x l2, Forall P (l1 ++ x :: l2) -> P x.
  Proof. intros A P l1 x l2 H. apply Forall_app in H. destruct H as [_ H]. now inversion H. Qed.
  Lemma mid_change : forall A (P Q : A -> Prop) l1 x y l2, Forall P (l1 ++ x :: l2) -> (forall z, P z -> Q z) -> Q y -> Forall Q (l1 ++ y :: l2).
  Proof.
    intros A P Q l1 x y l2 H Hi Hy. apply Forall_app in H. destruct H as [H1 H2]. apply Forall_app. split; [eapply Forall_impl; [exact Hi | exact H1] |].
    constructor; [exact Hy |]. inversion H2; subst. eapply Forall_impl; [exact Hi | assumption].
  Qed.
  Lemma xinv_ext : forall W W' s s' known os, xinv W (mkX s known os) -> inv W' s' -> cap s' -> sub W' W -> ext s s' -> xinv W' (mkX s' known os).
  Proof.
    intros W W' s s' known os [H1 [H2 H3]] Hi Hc Hs He. cbn [x_fac x_known x_objs] in *. split; [exact Hi |]. split; cbn [x_fac x_known x_objs].
    - eapply Forall_impl; [| exact H2]. intros h. now apply has_ext.
    - eapply Forall_impl; [| exact H3]. intros o. now apply obj_ok_ext.
  Qed.

  Lemma xinv_more : forall W s r known os, xinv W (mkX s known os) -> has s r -> xinv W (mkX s (r :: known) os).
  Proof. intros W s r known os [H1 [H2 H3]] Hr. split; [exact H1 |]. split; [constructor; assumption | exact H3]. Qed.

  Lemma gstep_ok : forall W g g', gstep orc g g' -> ginv_all W g -> exists W', ginv_all W' g'.
  Proof.
    intros W g g' H [Hx Hs]. destruct H as [a b ss H | s known os ss rounds fuel h r s' [[Hh Ha] Hre] H Hc | s known os ss alg fuel h b s' [Hh Ha] H Hc | s known os ss alg fuel h b s' (Hh & Ha & Hre) H Hc | a ss mc H | s known os ss1 mc fs ad sh ss2 meth fuel h s' fs' [Hh Ha] H Hc | s known os ss1 mc fs ad sh ss2 meth fuel h s' fs' [Hh Ha] H Hc
      | s known os ss1 mc fs ad sh ss2 fuel asm order b fs' Ha H | a ss1 mc fs ad sh ss2 rounds fuel vs t b fs' H | a ss1 mc fs ad sh ss2 rounds fuel ec ms fs' H | a ss1 mc fs ad sh ss2]; cbn [g_x g_solvers x_fac x_known] in *.
    - destruct (xstep_ok W a b H Hx) as (W' & Hx' & Hsub & He). exists W'. split; [exact Hx' |]. cbn [g_x g_solvers]. eapply Forall_impl; [| exact Hs]. intros sv. eapply slv_ext; eauto; [apply Hx |].
      destruct H; cbn [x_known]; intros z Hz; try apply in_or_app; auto.
    - pose proof Hx as [Hi [Hk _]]. cbn [x_fac x_known] in *. pose proof Hk as Hk'. rewrite Forall_forall in Hk'. destruct (Hk' h Hh) as [x Hx']. pose proof (proj1 (proj2 Hx')) as Hd. destruct (Ha x Hd) as [Hen Hr].
      pose proof (p_run _ _ _ _ _ _ _ (backbone_simplification_spec orc So rounds fuel W s h x Hi Hx' Hen Hr (Hre x Hd)) H Hc) as (W' & Hi' & Hsub & He & y & Hy & _).
      exists W'. split; [apply xinv_more; [| exists y; exact Hy]; eapply xinv_ext; eauto |]. cbn [g_x g_solvers x_fac x_known]. eapply Forall_impl; [| exact Hs]. intros z. eapply slv_ext; eauto. intros k Hk0. now right.
    - pose proof Hx as [Hi [Hk _]]. cbn [x_fac x_known] in *. pose proof Hk as Hk'. rewrite Forall_forall in Hk'. destruct (Hk' h Hh) as [x Hx']. pose proof (proj1 (proj2 Hx')) as Hd. destruct (Ha x Hd) as [Hen Hr].
      pose proof (p_run _ _ _ _ _ _ _ (is_sat_spec orc So alg fuel W s h x Hi Hx' Hen Hr) H Hc) as (W' & Hi' & Hsub & He & _).
      exists W'. split; [eapply xinv_ext; eauto |]. cbn [g_x g_solvers x_fac x_known]. eapply Forall_impl; [| exact Hs]. intros z. eapply slv_ext; eauto. apply incl_refl.
    - pose proof Hx as [Hi [Hk _]]. cbn [x_fac x_known] in *. pose proof Hk as Hk'. rewrite Forall_forall in Hk'. destruct (Hk' h Hh) as [x Hx']. pose proof (proj1 (proj2 Hx')) as Hd.
      pose proof (p_run _ _ _ _ _ _ _ (is_tautology_spec orc So alg fuel W s h x Hi Hx' (Ha x Hd) Hre) H Hc) as (W' & Hi' & Hsub & He & _).
      exists W'. split; [eapply xinv_ext; eauto |]. cbn [g_x g_solvers x_fac x_known]. eapply Forall_impl; [| exact Hs]. intros z. eapply slv_ext; eauto. apply incl_refl.
    - exists W. split; [exact Hx |]. cbn [g_x g_solvers]. constructor; [apply slv_new; destruct H; congruence | exact Hs].
    - pose proof (mid _ _ _ _ _ Hs) as Hv. pose proof Hx as [Hi [Hk _]]. cbn [x_fac x_known] in *. rewrite Forall_forall in Hk. destruct (Hk h Hh) as [x Hx']. destruct (Ha x (proj1 (proj2 Hx'))) as [Hen Hr].
      assert (Hcp : cap (snd (add_formula meth fuel h (fs_pc fs) s))).
      { unfold fs_add, fs_take in H. destruct (add_formula meth fuel h (fs_pc fs) s) as [[[ad' pc'] | |] s1]; cbn [fst snd rbind] in *; try discriminate. destruct (m_take mc fuel ad' (fs_mini fs)); cbn [rbind] in H; try discriminate. inversion H; subst. exact Hc. }
      rewrite <- Forall_forall in Hk. pose proof (fs_add_ok mc (k_min _ _ _ _ Hv) W s known fs ad sh h x meth fuel Hi Hk Hv Hh Hx' Hen Hr Hcp) as K. rewrite H in K. destruct K as (W' & Hi' & Hsub & He & Hv'). cbn [fst snd] in *.
      exists W'. split; [eapply xinv_ext; eauto |]. cbn [g_x g_solvers x_fac x_known]. eapply mid_change; [exact Hs | | exact Hv']. intros z. eapply slv_ext; eauto. apply incl_refl.
    - pose proof (mid _ _ _ _ _ Hs) as Hv. pose proof Hx as [Hi [Hk _]]. cbn [x_fac x_known] in *. rewrite Forall_forall in Hk. destruct (Hk h Hh) as [x Hx']. destruct (Ha x (proj1 (proj2 Hx'))) as [Hen Hr].
      assert (Hcp : cap (snd (add_prop meth fuel h (fs_pc fs) s))).
      { unfold fs_add_prop, fs_take in H. destruct (add_prop meth fuel h (fs_pc fs) s) as [[[ad' pc'] | |] s1]; cbn [fst snd rbind] in *; try discriminate. destruct (m_take mc fuel ad' (fs_mini fs)); cbn [rbind] in H; try discriminate. inversion H; subst. exact Hc. }
      rewrite <- Forall_forall in Hk. pose proof (fs_add_prop_ok mc (k_min _ _ _ _ Hv) W s known fs ad sh h x meth fuel Hi Hk Hv Hh Hx' Hen Hr Hcp) as K. rewrite H in K. destruct K as (W' & Hi' & Hsub & He & Hv'). cbn [fst snd] in *.
      exists W'. split; [eapply xinv_ext; eauto |]. cbn [g_x g_solvers x_fac x_known]. eapply mid_change; [exact Hs | | exact Hv']. intros z. eapply slv_ext; eauto. apply incl_refl.
    - exists W. split; [exact Hx |]. cbn [g_x g_solvers x_fac x_known]. eapply mid_change; [exact Hs | auto |]. eapply slv_sat; [exact So | apply Hx | apply Hx | exact (mid _ _ _ _ _ Hs) | exact Ha | exact H].
    - exists W. split; [exact Hx |]. cbn [g_x g_solvers]. eapply mid_change; [exact Hs | auto |]. pose proof (mid _ _ _ _ _ Hs) as Hv. unfold fs_backbone in H.
      destruct (compute_backbone mc orc rounds fuel vs t (fs_mini fs)) as [[bb m] | |] eqn:Eb; cbn [rbind] in H; try discriminate. inversion H; subst. destruct (k_cls _ _ _ _ Hv) as (G0 & K0 & _). cbn [sv_mc sv_fs] in K0.
      destruct (backbone_st mc orc (k_min _ _ _ _ Hv) So G0 _ _ _ _ _ _ _ K0 Eb) as [_ En].
      eapply slv_other; [exact Hv | destruct (g_incremental (mc_sat mc)); auto | | |]; cbn [fs_mini]; rewrite ?En; auto; [| intros v Kv; rewrite En in Kv; exact (k_names _ _ _ _ Hv v Kv)].
      intros G I. exact (proj1 (backbone_st mc orc (k_min _ _ _ _ Hv) So G _ _ _ _ _ _ _ I Eb)).
    - exists W. split; [exact Hx |]. cbn [g_x g_solvers]. eapply mid_change; [exact Hs | auto |]. pose proof (mid _ _ _ _ _ Hs) as Hv. unfold fs_enumerate in H.
      destruct (enumerate_models mc orc rounds fuel ec (fs_mini fs)) as [[bb m] | |] eqn:Eb; cbn [rbind] in H; try discriminate. inversion H; subst. destruct (k_cls _ _ _ _ Hv) as (G0 & K0 & _). cbn [sv_mc sv_fs] in K0.
      destruct (enumerate_st mc orc (k_min _ _ _ _ Hv) So G0 _ _ _ _ _ _ K0 Eb) as [_ En].
      eapply slv_other; [exact Hv | auto | | |]; cbn [fs_mini]; rewrite ?En; auto; [| intros v Kv; rewrite En in Kv; exact (k_names _ _ _ _ Hv v Kv)].
      intros G I. exact (proj1 (enumerate_st mc orc (k_min _ _ _ _ Hv) So G _ _ _ _ _ _ I Eb)).
    - exists W. split; [exact Hx |]. cbn [g_x g_solvers]. eapply mid_change; [exact Hs | auto |]. apply slv_new. exact (k_min _ _ _ _ (mid _ _ _ _ _ Hs)).
  Qed.
  Theorem greachable_ok : forall cfg g, greachable orc cfg g -> exists W, ginv_all W g.
  Proof.
    intros cfg g H. unfold greachable in H. remember (mkG (mkX (factory_new cfg) [] []) []) as g0. induction H as [a | a b c H IH Hs].
    - subst a. exists (fun _ => True). split; [apply xinv_new | constructor].
    - destruct (IH Heqg0) as [W Hb]. eapply gstep_ok; eauto.
  Qed.
End History.
