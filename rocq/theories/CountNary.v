(** A conjunction keeps the variables of its operands, unless it is falsum. *)
From Coq Require Import NArith ZArith List Bool Lia.
From Verif Require Import Base EncodingModel EncodingProofs Syntax FactoryModel FactoryInv FactoryBasics FactoryProofs FactorySpecs FactoryNary FactoryOps OpsProofs NnfProofs.
Import ListNotations.
Local Open Scope N_scope.

Lemma filter_loop_keeps : forall s conj sub, wf s -> forall ops r r', Forall (vh s) ops -> frs32 r = fr32 r ->
  (forall o l r0 r1, In o ops -> unpack s o = Ok (nnode conj l) -> frs32 r0 = fr32 r0 -> sub l r0 = Ok (true, r1) -> frs32 r1 = fr32 r1 /\ incl (fr32 r0) (fr32 r1) /\ incl l (fr32 r1)) ->
  filter_loop sub s conj ops false r = Ok (true, r') ->
  frs32 r' = fr32 r' /\ incl (fr32 r) (fr32 r') /\ (forall h, In h ops -> nonconst h -> (forall l, unpack s h <> Ok (nnode conj l)) -> In h (fr32 r'))
  /\ (forall o l, In o ops -> unpack s o = Ok (nnode conj l) -> incl l (fr32 r')).
Proof.
  intros s conj sub Hw. pose proof (wf_cap s Hw) as Hc. induction ops as [| h ops IH]; intros r r' Hvs Hr Hsub E.
  - cbn [filter_loop] in E. injection E as <-. split; [assumption |]. split; [apply incl_refl |]. split; [intros ? [] | intros ? ? []].
  - inversion Hvs as [| ? ? Hv Hvs']; subst. cbn [filter_loop] in E. destruct (vh_type s h Hc Hv) as [ty Hty]. unfold ftype in E. rewrite Hty in E. cbn [of_opt rbind] in E.
    assert (Hsub' : forall o l r0 r1, In o ops -> unpack s o = Ok (nnode conj l) -> frs32 r0 = fr32 r0 -> sub l r0 = Ok (true, r1) -> frs32 r1 = fr32 r1 /\ incl (fr32 r0) (fr32 r1) /\ incl l (fr32 r1))
      by (intros o l r0 r1 Ho; apply Hsub; right; assumption).
    destruct (is_nary_type conj ty) eqn:Hn.
    + destruct (vh_nary s conj h ty Hw Hv Hty Hn) as [l [Hu [Hops _]]]. unfold operands in E. rewrite Hu in E. cbn [rbind] in E.
      replace (node_operands (nnode conj l)) with l in E by (destruct conj; reflexivity).
      destruct (sub l r) as [[b r1] | |] eqn:Es; try discriminate. cbn [rbind fst snd] in E. destruct b; [| discriminate].
      destruct (Hsub h l r r1 (or_introl eq_refl) Hu Hr Es) as (A1 & A2 & A3). destruct (IH r1 r' Hvs' A1 Hsub' E) as (B1 & B2 & B3 & B4).
      split; [assumption |]. split; [eapply incl_tran; eauto |]. split.
      * intros k [<- | Hk] Hnc Hnn; [exfalso; eapply Hnn; eauto | auto].
      * intros o m [<- | Ho] Hm; [| eauto]. assert (m = l) as -> by (destruct conj; cbn [nnode] in *; congruence). eapply incl_tran; eauto.
    + rewrite cnf_flag_spec in E by assumption. cbn [rbind] in E.
      assert (Hnn : forall l, unpack s h <> Ok (nnode conj l)) by (apply not_nnode; auto; intros ty0 Q; congruence).
      assert (Hstep : forall r1, frs32 r1 = fr32 r1 -> incl (fr32 r) (fr32 r1) -> (nonconst h -> In h (fr32 r1)) -> filter_loop sub s conj ops false r1 = Ok (true, r') ->
        frs32 r' = fr32 r' /\ incl (fr32 r) (fr32 r') /\ (forall k, In k (h :: ops) -> nonconst k -> (forall l, unpack s k <> Ok (nnode conj l)) -> In k (fr32 r'))
        /\ (forall o l, In o (h :: ops) -> unpack s o = Ok (nnode conj l) -> incl l (fr32 r'))).
      { intros r1 C1 C2 C3 E1. destruct (IH r1 r' Hvs' C1 Hsub' E1) as (B1 & B2 & B3 & B4). split; [assumption |]. split; [eapply incl_tran; eauto |]. split.
        - intros k [<- | Hk] Hnc Hk2; [apply B2; auto | auto].
        - intros o m [<- | Ho] Hm; [exfalso; eapply Hnn; eauto | eauto]. }
      destruct (is_verum h) eqn:Hver; [| destruct (is_falsum h) eqn:Hfal].
      * destruct conj; [| discriminate]. apply Hstep in E; auto; cbn [fr32 frs32]; auto using incl_refl. intros [H _]. congruence.
      * destruct conj; [discriminate |]. apply Hstep in E; auto; cbn [fr32 frs32]; auto using incl_refl. intros [_ H]. congruence.
      * destruct (contains_complement s (frs32 r) (frs64 r) h) as [b | |]; try discriminate. cbn [rbind] in E. destruct b; [discriminate |].
        cbn [orb] in E. rewrite (vh_not_large s h Hc Hv) in E. unfold filter_insert in E. rewrite (vh_as_32 s h Hc Hv) in E. unfold set_insert in E. rewrite Hr in E.
        destruct (memN h (fr32 r)) eqn:Hm; apply Hstep in E; auto; cbn [fr32 frs32]; auto using incl_refl.
        -- intros _. now apply memN_In.
        -- intros k Hk. apply in_or_app. now left.
        -- intros _. apply in_or_app. right. now left.
Qed.

Lemma prepare_keeps : forall s conj ops r, wf s -> Forall (vh s) ops -> prepare_nary s conj ops = Ok (Some r) ->
  (forall h, In h ops -> nonconst h -> (forall l, unpack s h <> Ok (nnode conj l)) -> In h (fr32 r)) /\ (forall o l, In o ops -> unpack s o = Ok (nnode conj l) -> incl l (fr32 r)).
Proof.
  intros s conj ops r Hw Hvs E. unfold prepare_nary, flatten_fuel in E. cbn [filter_flatten] in E.
  match type of E with context [filter_loop ?f s conj ops false ?r0] => destruct (filter_loop f s conj ops false r0) as [[b r1] | |] eqn:Ef; try discriminate end. cbn [rbind fst snd] in E.
  destruct b; [| discriminate]. injection E as <-.
  apply filter_loop_keeps in Ef; auto; [destruct Ef as (_ & _ & H); exact H |].
  intros o l r0 r2 Ho Hu Hr0 E2. rewrite Forall_forall in Hvs. specialize (Hvs o Ho).
  assert (Hok : ops_ok s conj l).
  { destruct (vh_type s o (wf_cap s Hw) Hvs) as [ty Hty]. destruct (is_nary_type conj ty) eqn:E.
    - destruct (vh_nary s conj o ty Hw Hvs Hty E) as [l' [Hu' [Hl' _]]]. assert (l = l') as -> by (destruct conj; cbn in *; congruence). assumption.
    - exfalso. eapply not_nnode; eauto. intros ty0 Q. congruence. }
  assert (Hflat : forall x, In x l -> forall k, unpack s x <> Ok (nnode conj k)).
  { pose proof (oo_flat _ _ _ Hok) as Hfl. rewrite Forall_forall in Hfl. pose proof (oo_good _ _ _ Hok) as Hgl. rewrite Forall_forall in Hgl. intros x Hx. apply not_nnode; [assumption | apply (Hgl x Hx) | apply (Hfl x Hx)]. }
  apply filter_loop_keeps in E2; auto.
  - destruct E2 as (A1 & A2 & A3 & _). split; [assumption |]. split; [assumption |]. intros x Hx. apply A3; auto. pose proof (oo_nonconst _ _ _ Hok) as Hnc. rewrite Forall_forall in Hnc. auto.
  - apply Forall_good_vh. apply (oo_good _ _ _ Hok).
  - intros o' l' r3 r4 Ho' Hu'. exfalso. eapply Hflat; eauto.
Qed.

(** The operands of the result. *)
Lemma f_nary_ops : forall s conj ops fr r s', wf s -> Forall (vh s) ops -> prepare_nary s conj ops = Ok (Some fr) -> f_nary conj ops s = (Ok r, s') -> cap s' ->
  fr32 fr = [] \/ fr32 fr = [r] \/ exists L, unpack s' r = Ok (nnode conj L) /\ incl (fr32 fr) L.
Proof.
  intros s conj ops fr r s' Hw Hvs Hp Hrun Hcap. pose proof (prepare_nary_spec s conj ops Hw Hvs) as Hq. rewrite Hp in Hq. destruct Hq as [[F64 Fs64 Fset Fops Fcnf] _].
  pose proof (wf_cap s Hw) as Hc0. unfold f_nary, bind, lift in Hrun. rewrite Hp in Hrun. cbn [fst snd] in Hrun. rewrite F64 in Hrun.
  destruct (fr32 fr) as [| h0 [| h1 L0]] eqn:E32; [now left | right; left | right; right].
  { unfold ret, modf in Hrun. assert (h0 = r) as -> by (destruct (fr_cnf fr && is_nary_operator h0); congruence). reflexivity. }
  set (L := h0 :: h1 :: L0) in *. unfold nary_insert, updt, nary_goi in Hrun. rewrite F64, E32, Fset in Hrun. fold L in Hrun.
  destruct (vtab_goi set_eqb (nary_type conj) false L L (c_small (nary_cache_of conj (f_tabs s)))) as [e t] eqn:E.
  set (s1 := with_tabs s (set_nary conj (f_tabs s) (mkCache2 t (c_large (nary_cache_of conj (f_tabs s)))))) in *.
  assert (Hs : r = e /\ f_tabs s' = f_tabs s1 /\ (cap s' -> cap s1)).
  { unfold modf, ret in Hrun. cbn [fst snd] in Hrun. fold s1 in Hrun. clearbody s1. destruct (fr_cnf fr && is_nary_operator e); inversion Hrun; subst; auto. }
  destruct Hs as (-> & Ht & Hcap1). specialize (Hcap1 Hcap).
  assert (Hok : c2_ok set_eqb id (nary_type conj) (nary_cache_of conj (f_tabs s))) by (destruct conj; [apply (wf_ands s Hw) | apply (wf_ors s Hw)]). destruct Hok as [Hsm Hlg].
  assert (Hkk : set_eqb L (id L) = true) by (apply (ke_refl _ keq_set)).
  destruct (vtab_goi_spec _ set_eqb id _ _ _ _ _ _ _ keq_set Hsm Hkk E) as [_ Hcase].
  destruct Hcase as [[-> [i [K [Hi [Hk ->]]]]] | [Hvec [-> Hfresh]]].
  - exists K. unfold id in Hk. pose proof (proj1 (set_eqb_spec _ _) Hk) as HLK. split; [| intros x Hx; now apply HLK].
    assert (Hlt : i < cap26).
    { pose proof (nthN_some_lt _ _ _ _ Hi) as Hlt. assert (Hlt' : i < tlen s (nary_type conj)) by (destruct conj; exact Hlt). destruct (cap_inv s Hc0) as [_ [Q _]]. specialize (Q (nary_type conj)). lia. }
    rewrite unpack_enc; [| destruct conj; reflexivity | apply small58; assumption]. rewrite Ht. unfold s1. destruct conj; cbn [nary_type nary_cache_of nnode set_nary] in *; cbn; cbn in Hi; rewrite Hi; reflexivity.
  - exists L. split; [| apply incl_refl].
    assert (Htl : lenN (vt_vec (c_small (nary_cache_of conj (f_tabs s)))) = tlen s (nary_type conj)) by (destruct conj; reflexivity). rewrite Htl in *.
    assert (Hlen : tlen s1 (nary_type conj) = tlen s (nary_type conj) + 1) by (destruct conj; cbn; cbn in Hvec; rewrite Hvec, lenN_app; reflexivity).
    assert (Hsmall : tlen s (nary_type conj) < cap26) by (eapply cap_tlen_new; eauto).
    rewrite unpack_enc; [| destruct conj; reflexivity | apply small58; assumption]. rewrite Ht. unfold s1.
    rewrite <- Htl. destruct conj; cbn [nary_type nary_cache_of nnode set_nary] in *; cbn; cbn in Hvec; rewrite Hvec; rewrite nthN_app_last; reflexivity.
Qed.
