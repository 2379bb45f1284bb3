(** Well-formed factories satisfy the documented invariants. *)
From Coq Require Import NArith List Bool Lia Permutation.
From Verif Require Import Base EncodingModel EncodingProofs Syntax FactoryModel FactoryInv FactoryBasics FactoryProofs FactorySpecs
  FactoryNary FactoryOps InvariantSpec HashConsProofs.
Import ListNotations.
Local Open Scope N_scope.

Lemma subterm_handle : forall s x y, subterm y x -> forall h, wf s -> vh s h -> denotes s h x -> exists h', vh s h' /\ denotes s h' y.
Proof.
  intros s x y H. induction H as [x | y a H IH | y a l Hin H IH | y a l Hin H IH | y a b H IH | y a b H IH | y a b H IH | y a b H IH];
    intros h Hw Hv Hd.
  - exists h. auto.
  - apply denotes_inv in Hd. destruct Hd as [k [Hu Hk]].
    apply (IH k); auto. pose proof (node_ops_vh s h _ Hw Hv Hu) as Hf. cbn in Hf. inversion Hf; assumption.
  - apply denotes_inv in Hd. destruct Hd as [k [Hu Hk]]. pose proof (node_ops_vh s h _ Hw Hv Hu) as Hf. cbn in Hf.
    destruct (Forall2_In_r _ _ _ _ _ _ Hk Hin) as [c [Hc Hdc]]. rewrite Forall_forall in Hf. apply (IH c); auto.
  - apply denotes_inv in Hd. destruct Hd as [k [Hu Hk]]. pose proof (node_ops_vh s h _ Hw Hv Hu) as Hf. cbn in Hf.
    destruct (Forall2_In_r _ _ _ _ _ _ Hk Hin) as [c [Hc Hdc]]. rewrite Forall_forall in Hf. apply (IH c); auto.
  - apply denotes_inv in Hd. destruct Hd as [k [k' [Hu [Hk Hk']]]]. pose proof (node_ops_vh s h _ Hw Hv Hu) as Hf. cbn in Hf.
    apply (IH k); auto. inversion Hf; assumption.
  - apply denotes_inv in Hd. destruct Hd as [k [k' [Hu [Hk Hk']]]]. pose proof (node_ops_vh s h _ Hw Hv Hu) as Hf. cbn in Hf.
    apply (IH k'); auto. apply Forall_inv_tail, Forall_inv in Hf. assumption.
  - apply denotes_inv in Hd. destruct Hd as [k [k' [Hu [Hk Hk']]]]. pose proof (node_ops_vh s h _ Hw Hv Hu) as Hf. cbn in Hf.
    apply (IH k); auto. inversion Hf; assumption.
  - apply denotes_inv in Hd. destruct Hd as [k [k' [Hu [Hk Hk']]]]. pose proof (node_ops_vh s h _ Hw Hv Hu) as Hf. cbn in Hf.
    apply (IH k'); auto. apply Forall_inv_tail, Forall_inv in Hf. assumption.
Qed.

Lemma nonconst_tree : forall s h x, cap s -> vh s h -> denotes s h x -> nonconst h -> ~ is_const x.
Proof.
  intros s h x Hc Hv Hd [H1 H2] [-> | ->].
  - rewrite (is_verum_denotes s h _ Hc Hv Hd) in H1. discriminate.
  - rewrite (is_falsum_denotes s h _ Hc Hv Hd) in H2. discriminate.
Qed.

Lemma inverse_compl : forall s h k x y, wf s -> vh s h -> vh s k -> denotes s h x -> denotes s k y -> inverse x y -> compl s h k.
Proof.
  intros s h k x y Hw Vh Vk Hx Hy [H | [H | [l [-> ->]]]].
  - inversion H; subst. apply denotes_inv in Hy. destruct Hy as [c [Hu Hc]]. right. left. rewrite Hu. f_equal. f_equal. symmetry.
    pose proof (node_ops_vh s k _ Hw Vk Hu) as Hf. apply Forall_inv in Hf.
    eapply (handles_canonical s x); eauto.
  - inversion H; subst. apply denotes_inv in Hx. destruct Hx as [c [Hu Hc]]. left. rewrite Hu. f_equal. f_equal.
    pose proof (node_ops_vh s h _ Hw Vh Hu) as Hf. apply Forall_inv in Hf.
    eapply handles_canonical; eauto.
  - apply denotes_inv in Hx, Hy. right. right. exists l. auto.
Qed.

Lemma ops_tree_ok : forall s cj l xs, wf s -> ops_ok s cj l -> (2 <= length l)%nat -> Forall2 (denotes s) l xs -> nary_ok xs.
Proof.
  intros s cj l xs Hw [Hg Hn Hc Hf Hco] Hlen Hd. apply Forall_good_vh in Hg. split; [| split; [| split]].
  - replace (length xs) with (length l); [assumption |]. clear -Hd. induction Hd; cbn; congruence.
  - intros x Hx. destruct (Forall2_In_r _ _ _ _ _ _ Hd Hx) as [h [Hh Hdh]]. rewrite Forall_forall in Hc, Hg.
    apply (nonconst_tree s h x (wf_cap s Hw) (Hg h Hh) Hdh (Hc h Hh)).
  - clear Hc Hf Hco Hlen. induction Hd as [| h x l xs Hdh Hd IH]; [constructor |].
    inversion Hn as [| ? ? Hnin Hn']; subst. apply Forall_inv_tail in Hg as Hg'. apply Forall_inv in Hg. constructor; [| auto].
    rewrite Forall_forall. intros y Hy Heq. destruct (Forall2_In_r _ _ _ _ _ _ Hd Hy) as [k [Hk Hdk]].
    apply Hnin. rewrite Forall_forall in Hg'. rewrite (handles_canonical s x h k y); auto.
  - intros x y Hx Hy Hi. destruct (Forall2_In_r _ _ _ _ _ _ Hd Hx) as [h [Hh Hdh]], (Forall2_In_r _ _ _ _ _ _ Hd Hy) as [k [Hk Hdk]].
    rewrite Forall_forall in Hg. apply (Hco h k Hh Hk). eapply inverse_compl; eauto.
Qed.

Lemma handle_local_ok : forall s h x, wf s -> vh s h -> denotes s h x -> local_ok x.
Proof.
  intros s h x Hw Hv Hd. destruct x as [ | | l | a | l | l | a b | a b | c | p]; cbn; auto; apply denotes_inv in Hd.
  - destruct Hd as [k [Hu Hk]]. pose proof (node_ops_vh s h _ Hw Hv Hu) as Hf. apply Forall_inv in Hf.
    destruct (vh_not_inv s h k Hw Hv Hu) as [i [_ Hi]]. destruct (wf_not_ops s Hw i k Hi) as [_ Hn]. unfold negatable in Hn.
    rewrite (type_denotes s k a (wf_cap s Hw) Hf Hk) in Hn. destruct a; auto; destruct Hn.
  - destruct Hd as [k [Hu Hk]]. destruct (vh_and_inv s h k Hw Hv Hu) as [i [_ Hi]]. destruct (wf_and_ops s Hw i k Hi) as [Ho Hl].
    split; [eapply ops_tree_ok; eauto |]. intros m Hm. destruct (Forall2_In_r _ _ _ _ _ _ Hk Hm) as [c [Hc Hdc]].
    destruct Ho as [Hg _ _ Hf _]. apply Forall_good_vh in Hg. rewrite Forall_forall in Hf, Hg.
    specialize (Hf c Hc _ (type_denotes s c _ (wf_cap s Hw) (Hg c Hc) Hdc)). discriminate.
  - destruct Hd as [k [Hu Hk]]. destruct (vh_or_inv s h k Hw Hv Hu) as [i [_ Hi]]. destruct (wf_or_ops s Hw i k Hi) as [Ho Hl].
    split; [eapply ops_tree_ok; eauto |]. intros m Hm. destruct (Forall2_In_r _ _ _ _ _ _ Hk Hm) as [c [Hc Hdc]].
    destruct Ho as [Hg _ _ Hf _]. apply Forall_good_vh in Hg. rewrite Forall_forall in Hf, Hg.
    specialize (Hf c Hc _ (type_denotes s c _ (wf_cap s Hw) (Hg c Hc) Hdc)). discriminate.
  - destruct Hd as [k [k' [Hu [Hk Hk']]]]. destruct (vh_impl_inv s h k k' Hw Hv Hu) as [i [_ Hi]].
    destruct (wf_impl_ops s Hw _ _ Hi) as [[G1 _] [[G2 _] [N1 [N2 Hne]]]]. cbn in *.
    split; [eapply (nonconst_tree s k); eauto using wf_cap |]. split; [eapply (nonconst_tree s k'); eauto using wf_cap |].
    intros He. apply Hne. eapply (handles_canonical s a); eauto.
  - destruct Hd as [k [k' [Hu [Hk Hk']]]]. destruct (vh_equiv_inv s h k k' Hw Hv Hu) as [i [_ Hi]].
    destruct (wf_equiv_ops s Hw _ _ Hi) as [[G1 _] [[G2 _] [N1 [N2 Hne]]]]. cbn in *.
    split; [eapply (nonconst_tree s k); eauto using wf_cap |]. split; [eapply (nonconst_tree s k'); eauto using wf_cap |].
    intros He. apply Hne. eapply (handles_canonical s a); eauto.
Qed.

Theorem handle_doc_ok : forall s h x, wf s -> vh s h -> denotes s h x -> doc_ok x.
Proof. intros s h x Hw Hv Hd y Hy. destruct (subterm_handle s x y Hy h Hw Hv Hd) as [k [Vk Hk]]. eapply handle_local_ok; eauto. Qed.
