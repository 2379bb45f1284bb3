(** Normal forms by distribution (factorization). *)
From Coq Require Import NArith ZArith List Bool Arith Lia.
From Verif Require Import Base EncodingModel Syntax FactoryModel FactoryInv FactoryBasics FactoryProofs FactorySpecs FactoryNary FactoryOps
  EvalProofs InvariantSpec HashConsProofs InvariantProofs ConstraintModel OpsModel OpsProofs CcModel EncBasics PbModel
  CacheModel TransModel TreeSpec WorldProofs EncodeProofs NnfProofs.
Import ListNotations.
Local Open Scope N_scope.

(* ------------------------------------------------------------------------------------------------------------------ *)
(** * Shapes *)

(** Clauses and terms, CNF and DNF, at once. *)
Definition nclause (conj : bool) (z : fml) : bool := if conj then is_fclause z else is_fterm z.
Definition nf (conj : bool) (y : fml) : bool := if conj then cnf_shape y else dnf_shape y.
Definition P_nf (conj : bool) (W : world) (x y : fml) : Prop := refines W x y /\ nf conj y = true.
Definition is_fnary (conj : bool) (x : fml) : bool := match x with FAnd _ => conj | FOr _ => negb conj | _ => false end.

Lemma nf_cases : forall conj y, nf conj y = true <->
  y = FTrue \/ y = FFalse \/ nclause conj y = true \/ exists l, y = fnary conj l /\ Forall (fun z => nclause conj z = true) l.
Proof.
  intros conj y. split.
  - intros H. destruct conj, y; cbn in H |- *; auto; try discriminate.
    + right; right; right. exists l. split; [reflexivity |]. apply Forall_forall. rewrite forallb_forall in H. assumption.
    + right; right; right. exists l. split; [reflexivity |]. apply Forall_forall. rewrite forallb_forall in H. assumption.
  - intros [-> | [-> | [H | [l [-> H]]]]].
    + destruct conj; reflexivity.
    + destruct conj; reflexivity.
    + destruct conj, y; cbn in *; auto; discriminate.
    + destruct conj; cbn; apply forallb_forall; rewrite Forall_forall in H; assumption.
Qed.
Lemma nclause_cases : forall conj z, nclause conj z = true <-> is_flit z = true \/ exists l, z = fnary (negb conj) l /\ Forall (fun w => is_flit w = true) l.
Proof.
  intros conj z. split.
  - intros H. destruct conj, z; cbn in *; auto; try discriminate; right; eexists; split; try reflexivity; rewrite forallb_forall in H; apply Forall_forall; assumption.
  - intros [H | [l [-> H]]]; [destruct conj, z; cbn in *; congruence |]. destruct conj; cbn; apply forallb_forall; rewrite Forall_forall in H; assumption.
Qed.
Lemma is_fnary_spec : forall conj x, is_fnary conj x = true <-> exists l, x = fnary conj l.
Proof.
  intros conj x. split; [| intros [l ->]; destruct conj; reflexivity].
  destruct conj, x; cbn; try discriminate; intros _; eauto.
Qed.
Lemma nclause_not_fnary : forall conj z, nclause conj z = true -> is_fnary conj z = false.
Proof. intros conj z H. destruct conj, z; cbn in *; congruence. Qed.
Lemma nf_fnary : forall conj l, nf conj (fnary conj l) = true -> Forall (fun z => nclause conj z = true) l.
Proof.
  intros conj l H. apply nf_cases in H. destruct H as [H | [H | [H | [k [H Hk]]]]]; try (destruct conj; discriminate).
  assert (k = l) by (destruct conj; cbn in H; congruence). subst. assumption.
Qed.

(** What hash consing guarantees about the operands of an n-ary formula. *)
Lemma wf_fnary : forall s h conj l, wf s -> vh s h -> denotes s h (fnary conj l) ->
  l <> [] /\ forall z, In z l -> z <> FTrue /\ z <> FFalse /\ is_fnary conj z = false.
Proof.
  intros s h conj l Hw Hv Hd. pose proof (handle_doc_ok s h _ Hw Hv Hd _ (su_refl _)) as Hl.
  assert (H : nary_ok l /\ forall k, ~ In (fnary conj k) l) by (destruct conj; exact Hl). destruct H as [[H2 [Hc _]] Hf]. split.
  - intros ->. cbn in H2. lia.
  - intros z Hz. pose proof (Hc z Hz) as Hnc. unfold is_const in Hnc. split; [tauto |]. split; [tauto |].
    destruct (is_fnary conj z) eqn:E; [| reflexivity]. apply is_fnary_spec in E. destruct E as [k ->]. exfalso. eapply Hf; eauto.
Qed.

(** Conjunctions of CNFs are CNFs (and dually). *)
Lemma nf_nary : forall s h conj ys y, wf s -> vh s h -> denotes s h y -> Forall (fun z => nf conj z = true) ys -> nary_tree conj ys y -> nf conj y = true.
Proof.
  intros s h conj ys y Hw Hv Hd HF Ht. rewrite Forall_forall in HF.
  assert (Hfl : forall z, fflat conj ys z -> nf conj z = true).
  { intros z [Hz | [l [Hl Hz]]]; [auto |]. apply HF in Hl. apply nf_fnary in Hl. rewrite Forall_forall in Hl. apply nf_cases. right; right; left. auto. }
  destruct Ht as [-> | [-> | [Ht | [l [-> Ht]]]]]; [destruct conj; reflexivity | destruct conj; reflexivity | auto |].
  destruct (wf_fnary s h conj l Hw Hv Hd) as [_ Hl]. apply nf_cases. right; right; right. exists l. split; [reflexivity |].
  rewrite Forall_forall in *. intros z Hz. destruct (Hl z Hz) as [H1 [H2 H3]]. specialize (Hfl z (Ht z Hz)). apply nf_cases in Hfl.
  destruct Hfl as [E | [E | [E | [k [-> _]]]]]; try contradiction; [assumption |]. destruct conj; discriminate.
Qed.
(** Disjunctions of clauses are clauses (and dually). *)
Lemma nf_dual : forall s h conj ys y, wf s -> vh s h -> denotes s h y -> Forall (fun z => nf conj z = true /\ is_fnary conj z = false) ys ->
  nary_tree (negb conj) ys y -> nf conj y = true /\ is_fnary conj y = false.
Proof.
  intros s h conj ys y Hw Hv Hd HF Ht. rewrite Forall_forall in HF.
  assert (Hcl : forall z, nf conj z = true /\ is_fnary conj z = false <-> z = FTrue \/ z = FFalse \/ nclause conj z = true).
  { intros z. split.
    - intros [H1 H2]. apply nf_cases in H1. destruct H1 as [E | [E | [E | [k [-> _]]]]]; auto. destruct conj; discriminate.
    - intros [-> | [-> | E]]; try (destruct conj; split; reflexivity). split; [apply nf_cases; auto | apply nclause_not_fnary; assumption]. }
  assert (Hnd : forall l, In (fnary (negb conj) l) ys -> Forall (fun w => is_flit w = true) l).
  { intros l Hl. apply HF in Hl. apply Hcl in Hl. destruct Hl as [E | [E | E]]; try (destruct conj; discriminate). apply nclause_cases in E.
    destruct E as [E | [k [E Hk]]]; [destruct conj; discriminate |]. assert (k = l) by (destruct conj; cbn in E; congruence). subst. assumption. }
  apply Hcl. destruct Ht as [-> | [-> | [[Ht | [l [Hl Ht]]] | [l [-> Ht]]]]]; [auto | auto | apply Hcl; auto | |].
  - apply Hnd in Hl. rewrite Forall_forall in Hl. right; right. apply nclause_cases. left. auto.
  - right; right. apply nclause_cases. right. exists l. split; [reflexivity |]. destruct (wf_fnary s h (negb conj) l Hw Hv Hd) as [_ Hl].
    rewrite Forall_forall in *. intros z Hz. destruct (Hl z Hz) as [H1 [H2 H3]]. destruct (Ht z Hz) as [Hin | [k [Hk Hin]]].
    + apply HF in Hin. apply Hcl in Hin. destruct Hin as [E | [E | E]]; try contradiction. apply nclause_cases in E. destruct E as [E | [k [-> _]]]; [assumption |].
      destruct conj; discriminate.
    + apply Hnd in Hk. rewrite Forall_forall in Hk. auto.
Qed.

(* ------------------------------------------------------------------------------------------------------------------ *)
(** * Distribution *)

(** A handler that never aborts. *)
Definition silent {H} (hd : fhandler H) : Prop := (forall st, fst (fh_dist hd st) = None) /\ (forall r st, fst (fh_clause hd r st) = None).
Definition fpost {H T} (hd : fhandler H) (P : T -> Prop) (r : fres T) : Prop := match r with FOk t => P t | FErr _ => ~ silent hd end.

Definition dist_ok (conj : bool) (x1 x2 y : fml) : Prop :=
  nf conj y = true /\ (forall v, sem v y = nary_sem (negb conj) v [x1; x2]) /\ incl (fvars y) (fvars x1 ++ fvars x2).

Lemma mono_distribute : forall H (hd : fhandler H) conj fuel f1 f2 st, mono (distribute hd conj fuel f1 f2 st).
Proof.
  intros H hd conj fuel. induction fuel as [| fuel IH]; intros f1 f2 st; cbn [distribute]; [apply mono_nofuel |].
  destruct (fh_dist hd st) as [[e |] st1]; [apply mono_ret |].
  destruct (is_type (nary_type conj) f1 || is_type (nary_type conj) f2).
  - destruct (if is_type (nary_type conj) f1 then (f1, f2) else (f2, f1)) as [a na]. apply mono_bind; [apply mono_operandsM |]. intros ops.
    apply mono_bind.
    + apply mono_mfold. intros op [[nops | e] st2]; [| apply mono_ret]. apply mono_bind; [apply IH | intros; apply mono_ret].
    + intros [[nops | e] st2]; mono_tac.
  - apply mono_bind; [auto with mono |]. intros r. destruct (fh_clause hd r st1) as [[e |] st2]; apply mono_ret.
Qed.
Global Hint Resolve mono_distribute : mono.

Lemma type_fnary : forall s h conj x, wf s -> vh s h -> denotes s h x -> is_type (nary_type conj) h = is_fnary conj x.
Proof.
  intros s h conj x Hw Hv Hd.
  destruct (vh_case s h (wf_cap s Hw) Hv) as [-> Ht Hu | -> Ht Hu | k E Hlo Ht Hu | ? ? ? ? Ht Hu | ? ? ? ? Ht Hu
        | ? ? ? ? Ht Hu | ? ? ? ? ? Ht Hu | ? ? ? ? ? Ht Hu | ? ? ? ? Ht Hu | ? ? ? ? Ht Hu];
    pose proof (denotes_by_node _ _ _ _ Hu Hd) as Hn; unfold is_type; rewrite Ht; cbn beta iota in Hn;
    try (subst x; destruct conj; reflexivity); try (destruct Hn as [? [-> _]]; destruct conj; reflexivity);
    destruct Hn as [? [? [-> _]]]; destruct conj; reflexivity.
Qed.

Lemma tres_denotes : forall (P : fml -> Prop) h s, tres P h s -> vh s h /\ exists y, denotes s h y /\ P y.
Proof. auto. Qed.

Definition dpost {H} (hd : fhandler H) (conj : bool) (x1 x2 : fml) (p : fres N * H) (s' : factory) : Prop :=
  fpost hd (fun r => tres (dist_ok conj x1 x2) r s') (fst p).

(** The loop over the operands of a conjunction. *)
Lemma dist_loop : forall H (hd : fhandler H) conj (rec : N -> N -> H -> M (fres N * H)) na xna,
  (forall o n st, mono (rec o n st)) -> forall ops xs done nops zs s st,
  wf s -> Forall (vh s) ops -> Forall2 (denotes s) ops xs -> vh s na -> denotes s na xna ->
  Forall (vh s) nops -> Forall2 (denotes s) nops zs -> Forall2 (fun x z => dist_ok conj x xna z) done zs ->
  (forall o x t st, In x xs -> wf t -> core s t -> vh t o -> denotes t o x -> vh t na -> denotes t na xna -> spec wf core t (rec o na st) (dpost hd conj x xna)) ->
  spec wf core s
    (mfold (fun op (p : fres (list N) * H) =>
                    match p with
                    | (FErr e, st) => ret (FErr e, st)
                    | (FOk nops, st) =>
                        q <-- rec op na st ;;
                        ret match q with
                            | (FOk r, st') => (FOk (nops ++ [r]), st')
                            | (FErr e, st') => (FErr e, st')
                            end
                    end) ops (FOk nops, st))
    (fun p s' => fpost hd (fun l => Forall (vh s') l /\ exists zs, Forall2 (denotes s') l zs /\ Forall2 (fun x z => dist_ok conj x xna z) (done ++ xs) zs) (fst p)).
Proof.
  intros H hd conj rec na xna Hm.
  assert (Herr : forall ops e st s, wf s -> ~ silent hd -> spec wf core s
    (mfold (fun op (p : fres (list N) * H) =>
                    match p with
                    | (FErr e, st) => ret (FErr e, st)
                    | (FOk nops, st) =>
                        q <-- rec op na st ;;
                        ret match q with
                            | (FOk r, st') => (FOk (nops ++ [r]), st')
                            | (FErr e, st') => (FErr e, st')
                            end
                    end) ops (FErr e, st)) (fun p s' => p = (FErr e, st))).
  { induction ops as [| o ops IH]; intros e st s Hw Hns; cbn [mfold]; [apply spec_ret; auto using core_refl |].
    eapply spec_bind; [exact core_trans | apply (spec_ret _ wf core s (FErr e, st) (fun p s' => p = (FErr e, st) /\ s' = s)); auto using core_refl | |].
    - intros. apply mono_mfold. intros a0 [[l | e'] st']; [| apply mono_ret]. apply mono_bind; [apply Hm | intros; apply mono_ret].
    - intros p t Hw' _ [-> ->]. apply IH; assumption. }
  induction ops as [| o ops IH]; intros xs done nops zs s st Hw Hv Hd Hvn Hdn Hvz Hdz HF Hrec; inversion Hd as [| ? x ? xs' Hx Hd']; subst; cbn [mfold].
  - apply spec_ret; [assumption | apply core_refl |]. cbn [fst fpost]. split; [assumption |]. exists zs. rewrite app_nil_r. auto.
  - inversion Hv as [| ? ? Hvo Hv']; subst.
    eapply spec_bind with (Q1 := fun p s' => fpost hd (fun l => exists r, l = nops ++ [r] /\ tres (dist_ok conj x xna) r s') (fst p)); [exact core_trans | | |].
    + eapply spec_bind; [exact core_trans | apply (Hrec o x s st); auto using core_refl; left; reflexivity | intros; apply mono_ret |].
      intros [[r | e] st1] s1 Hw1 Hc1 Hq; apply spec_ret; auto using core_refl. cbn [fst fpost]. exists r. auto.
    + intros. apply mono_mfold. intros a0 [[l | e'] st']; [| apply mono_ret]. apply mono_bind; [apply Hm | intros; apply mono_ret].
    + intros [[l | e] st1] s1 Hw1 Hc1 Hq; cbn [fst fpost] in Hq; pose proof (core_ext _ _ Hc1) as He.
      * destruct Hq as [r [-> [Hvr [z [Hdr Hz]]]]].
        replace (done ++ x :: xs') with ((done ++ [x]) ++ xs') by (rewrite <- app_assoc; reflexivity).
        apply (IH xs' (done ++ [x]) (nops ++ [r]) (zs ++ [z])); auto.
        -- eapply Forall_vh_ext; eauto.
        -- clear -Hd' He. induction Hd'; constructor; auto. eapply denotes_ext; eauto.
        -- eapply vh_ext; eauto.
        -- eapply denotes_ext; eauto.
        -- apply Forall_app. split; [eapply Forall_vh_ext; eauto | constructor; auto].
        -- apply Forall2_app; [| constructor; auto]. clear -Hdz He. induction Hdz; constructor; auto. eapply denotes_ext; eauto.
        -- apply Forall2_app; [assumption | constructor; auto].
        -- intros o' x' t st' Hin Hwt Hct. apply Hrec; [right; assumption | assumption | eapply core_trans; eauto].
      * eapply spec_conseq; [apply Herr; assumption |]. intros p s' _ _ ->. exact Hq.
Qed.

Lemma dist_ok_comm : forall conj x1 x2 y, dist_ok conj x1 x2 y -> dist_ok conj x2 x1 y.
Proof.
  intros conj x1 x2 y [H1 [H2 H3]]. split; [assumption |]. split.
  - intros v. rewrite H2. destruct conj; cbn; destruct (sem v x1), (sem v x2); reflexivity.
  - intros u Hu. apply H3 in Hu. apply in_app_or in Hu. apply in_or_app. tauto.
Qed.

(** Distributing over all operands is distributing over the formula. *)
Lemma dist_sem : forall conj xs xna zs v, xs <> [] -> Forall2 (fun x z => dist_ok conj x xna z) xs zs ->
  nary_sem conj v zs = nary_sem (negb conj) v [fnary conj xs; xna].
Proof.
  intros conj xs xna zs v Hne HF.
  assert (Hz : forall x z, dist_ok conj x xna z -> sem v z = if conj then sem v x || sem v xna else sem v x && sem v xna).
  { intros x z [_ [Hz _]]. rewrite Hz. destruct conj; cbn; [now rewrite orb_false_r | now rewrite andb_true_r]. }
  induction HF as [| x z xs zs Hx HF IH]; [contradiction |]. destruct HF as [| x' z' xs zs Hx' HF].
  - unfold nary_sem. destruct conj; cbn; rewrite (Hz _ _ Hx), ?andb_true_r, ?orb_false_r; reflexivity.
  - assert (x' :: xs <> []) as Hne' by discriminate. specialize (IH Hne'). unfold nary_sem in *.
    destruct conj; cbn [negb fnary forallb existsb] in *; rewrite (Hz _ _ Hx), IH; cbn [sem forallb existsb];
      destruct (sem v x), (sem v xna), (sem v x'); try reflexivity; cbn; rewrite ?andb_true_r, ?orb_false_r, ?andb_false_r, ?orb_true_r; reflexivity.
Qed.

Lemma dist_fvars : forall conj xs xna zs, Forall2 (fun x z => dist_ok conj x xna z) xs zs -> incl (flat_map fvars zs) (flat_map fvars xs ++ fvars xna).
Proof.
  intros conj xs xna zs HF. induction HF as [| x z xs zs [_ [_ Hx]] HF IH]; [intros u [] |]. cbn [flat_map]. intros u Hu.
  apply in_app_or in Hu. destruct Hu as [Hu | Hu]; [apply Hx in Hu | apply IH in Hu]; rewrite !in_app_iff in *; tauto.
Qed.

Lemma distribute_spec : forall H (hd : fhandler H) conj fuel s f1 f2 x1 x2 st, wf s -> vh s f1 -> vh s f2 -> denotes s f1 x1 -> denotes s f2 x2 ->
  nf conj x1 = true -> nf conj x2 = true -> (Nat.b2n (is_fnary conj x1) + Nat.b2n (is_fnary conj x2) < fuel)%nat ->
  spec wf core s (distribute hd conj fuel f1 f2 st) (dpost hd conj x1 x2).
Proof.
  intros H hd conj fuel. induction fuel as [| fuel IH]; intros s f1 f2 x1 x2 st Hw Hv1 Hv2 Hd1 Hd2 N1 N2 Hfu; [lia |]. cbn [distribute].
  destruct (fh_dist hd st) as [[e |] st1] eqn:Ed.
  { apply spec_ret; [assumption | apply core_refl |]. cbn. intros [Hs _]. specialize (Hs st). rewrite Ed in Hs. discriminate. }
  rewrite (type_fnary s f1 conj x1 Hw Hv1 Hd1), (type_fnary s f2 conj x2 Hw Hv2 Hd2).
  assert (Hgen : forall a na xa xna, vh s a -> vh s na -> denotes s a xa -> denotes s na xna -> nf conj xa = true -> nf conj xna = true ->
    is_fnary conj xa = true -> (Nat.b2n (is_fnary conj xna) < fuel)%nat ->
    spec wf core s (ops <-- operandsM a ;;
            p <-- mfold (fun op (p : fres (list N) * H) =>
                    match p with
                    | (FErr e, st) => ret (FErr e, st)
                    | (FOk nops, st) =>
                        q <-- distribute hd conj fuel op na st ;;
                        ret match q with
                            | (FOk r, st') => (FOk (nops ++ [r]), st')
                            | (FErr e, st') => (FErr e, st')
                            end
                    end) ops (FOk [], st1) ;;
            match p with
            | (FOk nops, st2) => r <-- f_nary conj nops ;; ret (FOk r, st2)
            | (FErr e, st2) => ret (FErr e, st2)
            end) (dpost hd conj xa xna)).
  { intros a na xa xna Ha Hna Hda Hdna Na Nna Fa Hfu'. apply is_fnary_spec in Fa. destruct Fa as [xs ->].
    destruct (wf_fnary s a conj xs Hw Ha Hda) as [Hne _]. pose proof (nf_fnary conj xs Na) as Hcl. rewrite Forall_forall in Hcl.
    destruct (vh_operands s a Hw Ha) as [n [Hu Hg]].
    assert (Hch : Forall2 (denotes s) (node_operands n) xs).
    { pose proof (denotes_children s a n _ Hu Hda) as Hc. destruct conj; exact Hc. }
    pose proof (vh_node s a n Hw Ha Hu) as Hvn.
    eapply spec_bind with (Q1 := fun l t => l = node_operands n /\ t = s); [exact core_trans | | |].
    - unfold operandsM. eapply spec_lift; [unfold operands; rewrite Hu; reflexivity | assumption | apply core_refl | auto].
    - intros ops. apply mono_bind.
      + apply mono_mfold. intros op [[nops | e'] st2]; [| apply mono_ret]. apply mono_bind; [apply mono_distribute | intros; apply mono_ret].
      + intros [[nops | e'] st2]; mono_tac.
    - intros l t _ _ [-> ->].
      eapply spec_bind; [exact core_trans | apply (dist_loop H hd conj (distribute hd conj fuel) na xna (mono_distribute H hd conj fuel) (node_operands n) xs [] [] []); auto | |].
      + intros o x t st' Hin Hwt Hct Hvo Hdo Hvt Hdt. apply IH; auto.
        * apply nf_cases. right; right; left. auto.
        * rewrite (nclause_not_fnary conj x) by auto. cbn. lia.
      + intros [[nops | e'] st2]; mono_tac.
      + intros [[nops | e'] st2] s1 Hw1 Hc1 Hq; cbn [fst fpost] in Hq; [| apply spec_ret; auto using core_refl].
        destruct Hq as [Hvz [zs [Hdz Hzs]]]. cbn [app] in Hzs.
        eapply spec_bind; [exact core_trans | apply (f_nary_tree s1 conj nops zs); assumption | intros; apply mono_ret |].
        intros r s2 Hw2 Hc2 [Hvr [y [Hdr [Hsy Hty]]]]. apply spec_ret; [assumption | apply core_refl |]. unfold dpost. cbn [fst fpost].
        split; [assumption |]. exists y. split; [assumption |]. split; [| split].
        * eapply nf_nary; [exact Hw2 | exact Hvr | exact Hdr | | exact Hty]. clear -Hzs. induction Hzs as [| a b xs zs [Hb _] Hzs IH]; constructor; assumption.
        * intros v. rewrite Hsy. apply dist_sem; assumption.
        * intros u Hu0. apply (nary_tree_fvars _ _ _ Hty) in Hu0. apply (dist_fvars _ _ _ _ Hzs) in Hu0. rewrite fvars_fnary. assumption. }
  destruct (is_fnary conj x1) eqn:E1; cbn [orb].
  - cbn [Nat.b2n] in Hfu. apply Hgen; auto. lia.
  - destruct (is_fnary conj x2) eqn:E2.
    + eapply spec_conseq; [apply (Hgen f2 f1 x2 x1); auto; rewrite E1; cbn in *; lia |].
      intros [[r | e] st2] s' _ _ Hq; unfold dpost in *; cbn [fst fpost] in *; [| assumption]. eapply tres_conseq; [exact Hq | intros y; apply dist_ok_comm].
    + eapply spec_bind; [exact core_trans | apply (f_nary_tree s (negb conj) [f1; f2] [x1; x2]); auto | |].
      { intros r. destruct (fh_clause hd r st1) as [[e |] st2]; apply mono_ret. }
      intros r s1 Hw1 Hc1 [Hvr [y [Hdr [Hsy Hty]]]]. destruct (fh_clause hd r st1) as [[e |] st2] eqn:Ec.
      * apply spec_ret; [assumption | apply core_refl |]. cbn. intros [_ Hs]. specialize (Hs r st1). rewrite Ec in Hs. discriminate.
      * apply spec_ret; [assumption | apply core_refl |]. unfold dpost. cbn [fst fpost]. split; [assumption |]. exists y. split; [assumption |]. split; [| split].
        -- eapply nf_dual; [exact Hw1 | exact Hvr | exact Hdr | | exact Hty]. repeat constructor; assumption.
        -- assumption.
        -- intros u Hu. apply (nary_tree_fvars _ _ _ Hty) in Hu. cbn [flat_map] in Hu. rewrite app_nil_r in Hu. assumption.
Qed.

Lemma mono_distribute_all : forall H (hd : fhandler H) conj fuel ops r st, mono (distribute_all hd conj fuel r ops st).
Proof.
  intros H hd conj fuel. induction ops as [| o ops IH]; intros r st; cbn [distribute_all]; [apply mono_ret |].
  apply mono_bind; [apply mono_distribute |]. intros [[r' | e] st']; [apply IH | apply mono_ret].
Qed.

Definition dall_ok (conj : bool) (xs : list fml) (y : fml) : Prop :=
  nf conj y = true /\ (forall v, sem v y = nary_sem (negb conj) v xs) /\ incl (fvars y) (flat_map fvars xs).

Lemma distribute_all_spec : forall H (hd : fhandler H) conj ops xs s r x st, wf s -> vh s r -> denotes s r x -> Forall (vh s) ops -> Forall2 (denotes s) ops xs ->
  nf conj x = true -> Forall (fun z => nf conj z = true) xs ->
  spec wf core s (distribute_all hd conj 4 r ops st) (fun p s' => fpost hd (fun g => tres (dall_ok conj (x :: xs)) g s') (fst p)).
Proof.
  intros H hd conj ops. induction ops as [| o ops IH]; intros xs s r x st Hw Hv Hd Hvs Hds Hn Hns; inversion Hds as [| ? y ? xs' Hy Hds']; subst; cbn [distribute_all].
  - apply spec_ret; [assumption | apply core_refl |]. cbn [fst fpost]. split; [assumption |]. exists x. split; [assumption |]. split; [assumption |]. split.
    + intros v. unfold nary_sem. destruct conj; cbn; now rewrite ?orb_false_r, ?andb_true_r.
    + cbn [flat_map]. rewrite app_nil_r. apply incl_refl.
  - inversion Hvs; subst. inversion Hns; subst.
    eapply spec_bind; [exact core_trans | apply (distribute_spec H hd conj 4 s r o x y); auto | |].
    { destruct (is_fnary conj x), (is_fnary conj y); cbn; lia. }
    { intros [[r' | e] st']; [apply mono_distribute_all | apply mono_ret]. }
    intros [[r' | e] st'] s1 Hw1 Hc1 Hq; unfold dpost in Hq; cbn [fst fpost] in Hq; [| apply spec_ret; auto using core_refl].
    destruct Hq as [Hvr [z [Hdz [Nz [Sz Iz]]]]]. pose proof (core_ext _ _ Hc1) as He.
    eapply spec_conseq; [apply (IH xs' s1 r' z); auto |].
    + eapply Forall_vh_ext; eauto.
    + clear -Hds' He. induction Hds'; constructor; auto. eapply denotes_ext; eauto.
    + intros [[g | e] st2] s2 _ _ Hg; cbn [fst fpost] in *; [| assumption]. eapply tres_conseq; [exact Hg |].
      intros w [Nw [Sw Iw]]. split; [assumption |]. split.
      * intros v. rewrite Sw. unfold nary_sem in *. specialize (Sz v). destruct conj; cbn in *; rewrite Sz; destruct (sem v x), (sem v y); reflexivity.
      * intros u Hu. apply Iw in Hu. cbn [flat_map] in *. rewrite in_app_iff in Hu. destruct Hu as [Hu | Hu]; [apply Iz in Hu |]; rewrite !in_app_iff in *; tauto.
Qed.

(* ------------------------------------------------------------------------------------------------------------------ *)
(** * The recursion *)

Lemma P_nf_sub : forall conj W W' x y, sub W' W -> P_nf conj W x y -> P_nf conj W' x y.
Proof. intros conj W W' x y Hs [H1 H2]. split; [eapply refines_sub; eauto | assumption]. Qed.
Lemma nf_nnf : forall conj y, nf conj y = true -> nnf_shape y = true.
Proof. intros [] y H; [now apply cnf_nnf | now apply dnf_nnf]. Qed.

(** The local cache holds correct results, and exists whenever it is needed. *)
Definition lc_ok (conj : bool) (lc : lcache) (s : factory) (W : world) : Prop :=
  (forall m, lc = Some m -> centry (e_form (P_nf conj) W s) m) /\ (conj = true -> on_cnf (cfg_caches (f_config s)) = false -> lc <> None).
Lemma lc_ok_ext : forall conj lc s s' W W', ext s s' -> sub W' W -> lc_ok conj lc s W -> lc_ok conj lc s' W'.
Proof.
  intros conj lc s s' W W' He Hs [H1 H2]. split.
  - intros m E h r Hg. eapply e_form_ext; [| exact He | eapply H1; eauto]. intros x y. apply P_nf_sub. assumption.
  - rewrite (ext_config _ _ He). assumption.
Qed.

Definition facq {H T} (hd : fhandler H) (conj : bool) (P : T -> factory -> world -> Prop) (p : fres T * H * lcache) (s : factory) (W : world) : Prop :=
  fpost hd (fun t => P t s W /\ lc_ok conj (snd p) s W) (fst (fst p)).
Definition press (P : world -> fml -> fml -> Prop) (xs : list fml) (rs : list N) (s : factory) (W : world) : Prop :=
  exists ys, Forall2 (hdl s) rs ys /\ Forall2 (P W) xs ys.
Lemma pres_ext : forall (P : world -> fml -> fml -> Prop) x r s s' W W', (forall x y, P W x y -> P W' x y) -> ext s s' -> pres P x r s W -> pres P x r s' W'.
Proof. intros P x r s s' W W' HP He [y [H1 H2]]. exists y. split; [eapply hdl_ext; eauto | auto]. Qed.

Lemma mono_fact_cached : forall conj lc h, mono (fact_cached conj lc h).
Proof. intros conj lc h. unfold fact_cached. destruct (match lc with Some m => oc_get h m | None => None end); [apply mono_ret | apply mono_get]. Qed.
Lemma mono_fact_store : forall conj lc h r, mono (fact_store conj lc h r).
Proof.
  intros [] lc h r; unfold fact_store.
  - apply mono_bind; [apply mono_lift |]. intros []; [apply mono_bind; [apply mono_put | intros; apply mono_ret] |]. destruct lc; [apply mono_ret | apply mono_fail].
  - apply mono_bind; [apply mono_put |]. intros _. apply mono_bind; [apply mono_put | intros; apply mono_ret].
Qed.
Lemma mono_compute_nops : forall H (rec : N -> H -> lcache -> M (fres N * H * lcache)), (forall o st lc, mono (rec o st lc)) ->
  forall ops st lc, mono (compute_nops rec ops st lc).
Proof.
  intros H rec Hm ops. induction ops as [| o ops IH]; intros st lc; cbn [compute_nops]; [apply mono_ret |].
  apply mono_bind; [apply Hm |]. intros [[[x | e] st1] lc1]; [| apply mono_ret]. apply mono_bind; [apply IH |]. intros; apply mono_ret.
Qed.
Lemma mono_fact_rec : forall H (hd : fhandler H) conj fuel h st lc, mono (fact_rec hd conj fuel h st lc).
Proof.
  intros H hd conj fuel. induction fuel as [| fuel IH]; intros h st lc; cbn [fact_rec]; [apply mono_nofuel |].
  apply mono_bind; [apply mono_fact_cached |]. intros [r |]; [apply mono_ret |]. apply mono_bind; [apply mono_unpackM |]. intros n.
  assert (Hn : forall ops, mono (p <-- compute_nops (fact_rec hd conj fuel) ops st lc ;;
            match p with
            | (FOk nops, st1, lc1) => r <-- f_nary conj nops ;; ret (FOk r, st1, lc1)
            | (FErr e, st1, lc1) => ret (FErr e, st1, lc1)
            end)).
  { intros ops. apply mono_bind; [apply mono_compute_nops; assumption |]. intros [[[x | e] st1] lc1]; mono_tac. }
  assert (Hd : forall ops, mono (p <-- compute_nops (fact_rec hd conj fuel) ops st lc ;;
            match p with
            | (FOk nops, st1, lc1) =>
                match nops with
                | [] => fail
                | first :: rest => q <-- distribute_all hd conj 4 first rest st1 ;; ret (fst q, snd q, lc1)
                end
            | (FErr e, st1, lc1) => ret (FErr e, st1, lc1)
            end)).
  { intros ops. apply mono_bind; [apply mono_compute_nops; assumption |]. intros [[[x | e] st1] lc1]; [| apply mono_ret].
    destruct x; [apply mono_fail |]. apply mono_bind; [apply mono_distribute_all | intros; apply mono_ret]. }
  apply mono_bind.
  - destruct n; try apply mono_ret; try (apply mono_bind; [apply mono_nnf_rec | intros; apply IH]); destruct conj; auto.
  - intros [[[r | e] st1] lc1]; [| apply mono_ret]. apply mono_bind; [apply mono_fact_store | intros; apply mono_ret].
Qed.
Global Hint Resolve mono_fact_rec : mono.

Lemma fact_cached_spec : forall conj lc W s h x, inv W s -> hdl s h x -> lc_ok conj lc s W ->
  exists o, fact_cached conj lc h s = (Ok o, s) /\ match o with Some r => pres (P_nf conj) x r s W | None => True end.
Proof.
  intros conj lc W s h x Hi Hx [Hl _].
  assert (Hent : forall r, e_form (P_nf conj) W s h r -> pres (P_nf conj) x r s W).
  { intros r [x' [y [[_ [Hx' _]] [Hy HP]]]]. destruct Hx as [_ [Hd _]]. rewrite (denotes_fun _ _ _ _ Hx' Hd) in HP. exists y. auto. }
  unfold fact_cached. destruct (match lc with Some m => oc_get h m | None => None end) as [r |] eqn:E.
  - exists (Some r). split; [reflexivity |]. destruct lc as [m |]; [| discriminate]. apply Hent. eapply Hl; eauto.
  - unfold cache_get, lift. eexists. split; [reflexivity |].
    destruct (oc_get h ((if conj then oc_cnf else oc_dnf) (f_caches s))) as [r |] eqn:Eg; [| exact I]. apply Hent. pose proof (i_caches _ _ Hi) as Hc.
    destruct conj; [apply (co_cnf _ _ _ Hc) in Eg | apply (co_dnf _ _ _ Hc) in Eg]; exact Eg.
Qed.

Lemma fact_store_spec : forall conj lc W s h r x, inv W s -> hdl s h x -> pres (P_nf conj) x r s W -> lc_ok conj lc s W ->
  xspec W s (fact_store conj lc h r) (fun lc' s' W' => pres (P_nf conj) x r s' W' /\ lc_ok conj lc' s' W').
Proof.
  intros conj lc W s h r x Hi Hx Hr Hl.
  assert (He : e_form (P_nf conj) W s h r) by (destruct Hr as [y [Hy HP]]; exists x, y; auto).
  destruct conj; unfold fact_store.
  - eapply x_lift_bind; [reflexivity |]. destruct (on_cnf (cfg_caches (f_config s))) eqn:Eon.
    + apply x_put_end; auto.
      * put_caches. exact He.
      * intros s' He' Hi'. split; [eapply pres_ext; eauto | eapply lc_ok_ext; eauto using sub_refl].
    + destruct lc as [m |]; [| destruct Hl as [_ Hl]; exfalso; now apply Hl]. apply x_ret; [assumption |]. split; [assumption |].
      destruct Hl as [Hl _]. split; [| discriminate]. intros m' E. injection E as <-. apply centry_insert; auto.
  - eapply x_bind with (Q1 := fun _ s' W' => ext s s' /\ inv W s' /\ W' = W); [| intros; apply mono_bind; [apply mono_put | intros; apply mono_ret] |].
    + apply x_put; auto. put_caches. exact He.
    + intros _ s1 W1 _ He1 _ [_ [Hi1 ->]]. destruct Hr as [y [Hy HP]]. pose proof (hdl_ext _ _ _ _ He1 Hy) as Hy1. apply x_put_end; auto.
      * put_caches. exists y. destruct Hy1 as [A [B _]]. split; [assumption |]. split; [assumption |]. symmetry. apply HP.
      * intros s2 He2 Hi2. pose proof (ext_trans _ _ _ He1 He2) as He'. split; [exists y; split; [eapply hdl_ext; eauto | assumption] |].
        apply (lc_ok_ext _ _ _ s2 _ W He' (sub_refl W)) in Hl. destruct Hl as [Hl1 Hl2]. split; [| discriminate].
        intros m E. destruct lc as [m0 |]; [| discriminate]. injection E as <-. apply centry_insert; [auto |].
        eapply e_form_ext; [| exact He' | exact He]. auto.
Qed.

Lemma compute_nops_spec : forall H (hd : fhandler H) conj (rec : N -> H -> lcache -> M (fres N * H * lcache)), (forall o st lc, mono (rec o st lc)) ->
  forall ops xs W s st lc, inv W s -> Forall2 (hdl s) ops xs -> lc_ok conj lc s W ->
  (forall o x t W' st lc, In x xs -> inv W' t -> ext s t -> sub W' W -> hdl t o x -> lc_ok conj lc t W' -> xspec W' t (rec o st lc) (facq hd conj (pres (P_nf conj) x))) ->
  xspec W s (compute_nops rec ops st lc) (facq hd conj (press (P_nf conj) xs)).
Proof.
  intros H hd conj rec Hm ops. induction ops as [| o ops IH]; intros xs W s st lc Hi Ho Hl Hrec; inversion Ho as [| ? x ? xs' Hx Ho']; subst; cbn [compute_nops].
  - apply x_ret; [assumption |]. split; [| assumption]. exists []. split; constructor.
  - eapply x_bind; [apply (Hrec o x); auto using ext_refl, sub_refl; left; reflexivity | |].
    { intros [[[r | e] st1] lc1]; [| apply mono_ret]. apply mono_bind; [apply mono_compute_nops; assumption | intros; apply mono_ret]. }
    intros [[[r | e] st1] lc1] s1 W1 Hi1 He1 Hs1 Hq; unfold facq in Hq; cbn [fst snd fpost] in Hq; [| apply x_ret; auto].
    destruct Hq as [Hr Hl1]. eapply x_bind; [apply (IH xs'); eauto using hdls_ext | intros; apply mono_ret |].
    { intros o' x' t W' st' lc' Hin Hit Het Hst. apply Hrec; auto; [right; assumption | eapply ext_trans; eauto | eapply sub_trans; eauto]. }
    intros [[[rs | e] st2] lc2] s2 W2 Hi2 He2 Hs2 Hq; unfold facq in Hq; cbn [fst snd fpost] in Hq; apply x_ret; auto.
    unfold facq. cbn [fst snd fpost]. destruct Hq as [[ys [Hys HF]] Hl2]. split; [| assumption]. destruct Hr as [y [Hy HP]].
    exists (y :: ys). split; constructor; auto; [eapply hdl_ext; eauto | eapply P_nf_sub; eauto].
Qed.

(** The recursion depth. *)
Definition fcost (x : fml) : nat := if nnf_shape x then S (depth x) else (2 * depth x + 8)%nat.

Lemma nnf_children : forall x y, nnf_shape x = true -> In y (children x) -> nnf_shape y = true.
Proof.
  intros x y H Hy. destruct x; cbn in *; try discriminate; try contradiction; rewrite forallb_forall in H; auto.
Qed.
Lemma fcost_children : forall x y, In y (children x) -> (fcost y < fcost x)%nat.
Proof.
  intros x y Hy. pose proof (children_depth x y Hy) as Hd. unfold fcost. destruct (nnf_shape x) eqn:E.
  - rewrite (nnf_children x y E Hy). lia.
  - destruct (nnf_shape y); lia.
Qed.

Theorem fact_rec_spec : forall H (hd : fhandler H) conj fuel x W s h st lc, inv W s -> hdl s h x -> encodable s x -> lc_ok conj lc s W ->
  (fcost x <= fuel)%nat -> xspec W s (fact_rec hd conj fuel h st lc) (facq hd conj (pres (P_nf conj) x)).
Proof.
  intros H hd conj fuel. induction fuel as [| fuel IH]; intros x W s h st lc Hi Hx Hen Hl Hfu.
  { unfold fcost in Hfu. destruct (nnf_shape x); lia. }
  cbn [fact_rec]. destruct (fact_cached_spec conj lc W s h x Hi Hx Hl) as [o [Ho Hko]]. eapply x_det_bind; [exact Ho |].
  destruct o as [r |]; [apply x_ret; [assumption |]; split; assumption |].
  destruct (vh_operands s h (i_wf _ _ Hi) (proj1 Hx)) as [n [Hu _]]. eapply x_unpack_bind; [exact Hu |].
  pose proof (hdls_children s h x n (i_wf _ _ Hi) Hx Hu) as Hch.
  assert (Hops : xspec W s (compute_nops (fact_rec hd conj fuel) (node_operands n) st lc) (facq hd conj (press (P_nf conj) (children x)))).
  { apply compute_nops_spec; auto; [apply mono_fact_rec |]. intros o x' t W' st' lc' Hin Hit Het Hst Hot Hlt. apply IH; auto.
    - eapply encodable_ext; [exact Het |]. eapply encodable_children; eauto.
    - pose proof (fcost_children x x' Hin). lia. }
  assert (Hself : forall st, nf conj x = true -> xspec W s (ret (FOk h, st, lc)) (facq hd conj (pres (P_nf conj) x))).
  { intros st' Hn. apply x_ret; [assumption |]. split; [| assumption]. exists x. split; [assumption |]. split; [apply refines_refl | assumption]. }
  assert (Hnnf : nnf_shape x = false -> xspec W s (m <-- nnf (S fuel) h ;; fact_rec hd conj fuel m st lc) (facq hd conj (pres (P_nf conj) x))).
  { intros Hn. unfold fcost in Hfu. rewrite Hn in Hfu.
    eapply x_bind; [apply nnf_spec; eauto; lia | intros; apply mono_fact_rec |].
    intros m s1 W1 Hi1 He1 Hs1 [y [Hy [R [Nn D]]]]. pose proof (ndep_depth x true) as Hnd.
    eapply x_conseq; [apply (IH y W1 s1 m st lc); auto |].
    - apply con_free_leaves. apply nnf_con_free. assumption.
    - eapply lc_ok_ext; eauto.
    - unfold fcost. rewrite Nn. lia.
    - intros [[[r | e] st2] lc2] s2 W2 Hi2 He2 Hs2 Hq; unfold facq in *; cbn [fst snd fpost] in *; [| assumption].
      destruct Hq as [[z [Hz [Rz Nz]]] Hl2]. split; [| assumption]. exists z. split; [assumption |]. split; [| assumption].
      eapply refines_trans; [apply nnf_con_free; exact Nn | eapply refines_sub; eauto | exact Rz]. }
  assert (Hnary : forall ops, node_operands n = ops -> x = fnary conj (children x) -> xspec W s
           (p <-- compute_nops (fact_rec hd conj fuel) ops st lc ;;
            match p with
            | (FOk nops, st1, lc1) => r <-- f_nary conj nops ;; ret (FOk r, st1, lc1)
            | (FErr e, st1, lc1) => ret (FErr e, st1, lc1)
            end) (facq hd conj (pres (P_nf conj) x))).
  { intros ops <- Ex. eapply x_bind; [exact Hops | intros [[[nops | e] st1] lc1]; mono_tac |].
    intros [[[nops | e] st1] lc1] s1 W1 Hi1 He1 Hs1 Hq; unfold facq in Hq; cbn [fst snd fpost] in Hq; [| apply x_ret; auto].
    destruct Hq as [[ys [Hys HF]] Hl1]. eapply x_bind; [apply x_nary; eassumption | intros; apply mono_ret |].
    intros r s2 W2 Hi2 He2 Hs2 [-> [Hc [y [Hy [Sy Ty]]]]]. apply x_ret; [assumption |]. split; [| eapply lc_ok_ext; eauto].
    exists y. split; [assumption |]. split.
    - rewrite Ex. eapply refines_nary; [| exact Sy | apply (nary_tree_fvars _ _ _ Ty)]. clear -HF. induction HF as [| a b l l' [R _] HF IHF]; constructor; assumption.
    - destruct Hy as [Hv [Hd _]]. eapply nf_nary; [apply Hi2 | exact Hv | exact Hd | | exact Ty].
      clear -HF. induction HF as [| a b l l' [_ R] HF IHF]; constructor; assumption. }
  assert (Hdist : forall ops, node_operands n = ops -> x = fnary (negb conj) (children x) -> xspec W s
           (p <-- compute_nops (fact_rec hd conj fuel) ops st lc ;;
            match p with
            | (FOk nops, st1, lc1) =>
                match nops with
                | [] => fail
                | first :: rest => q <-- distribute_all hd conj 4 first rest st1 ;; ret (fst q, snd q, lc1)
                end
            | (FErr e, st1, lc1) => ret (FErr e, st1, lc1)
            end) (facq hd conj (pres (P_nf conj) x))).
  { intros ops <- Ex. eapply x_bind; [exact Hops | |].
    { intros [[[[| f nops] | e] st1] lc1]; try apply mono_ret; [apply mono_fail |]. apply mono_bind; [apply mono_distribute_all | intros; apply mono_ret]. }
    intros [[[nops | e] st1] lc1] s1 W1 Hi1 He1 Hs1 Hq; unfold facq in Hq; cbn [fst snd fpost] in Hq; [| apply x_ret; auto].
    destruct Hq as [[ys [Hys HF]] Hl1].
    assert (Hne : children x <> []).
    { destruct Hx as [Hv [Hd _]]. rewrite Ex in Hd. apply (wf_fnary s h (negb conj) _ (i_wf _ _ Hi) Hv Hd). }
    destruct Hys as [| f y nops ys Hf Hys]; [inversion HF; congruence |].
    assert (Hnf : Forall (fun z => nf conj z = true) (y :: ys)).
    { clear -HF. remember (y :: ys) as l. clear Heql. induction HF as [| a b l l' [_ R] HF IHF]; constructor; assumption. }
    inversion Hnf as [| ? ? Nf Nfs]; subst.
    eapply x_bind with (Q1 := fun q s' W' => W' = W1 /\ core s1 s' /\ fpost hd (fun g => tres (dall_ok conj (y :: ys)) g s') (fst q)); [| intros; apply mono_ret |].
    { apply x_core; [assumption |]. apply distribute_all_spec; auto; [apply Hi1 | apply Hf | apply Hf | eapply hdls_vh; eauto | apply hdls_denotes; assumption]. }
    intros [[r | e] st2] s2 W2 Hi2 He2 Hs2 [-> [Hc Hq]]; cbn [fst fpost] in Hq; apply x_ret; auto.
    destruct Hq as [Hv [z [Hd [Nz [Sz Iz]]]]]. split; [| cbn [snd]; eapply lc_ok_ext; eauto].
    exists z. split.
    - split; [assumption |]. split; [assumption |]. intros u Hu0. apply Iz in Hu0. eapply known_ext; [exact He2 |].
      eapply (hdls_kn s1 (f :: nops) (y :: ys)); [constructor; assumption | assumption].
    - split; [| assumption]. rewrite Ex. eapply refines_nary; [| exact Sz | exact Iz].
      clear -HF. remember (y :: ys) as l. clear Heql. induction HF as [| a b l0 l' [R _] HF IHF]; constructor; assumption. }
  eapply x_bind with (Q1 := facq hd conj (pres (P_nf conj) x)).
  - pose proof (denotes_by_node _ _ _ _ Hu (proj1 (proj2 Hx))) as Hn.
    destruct n; cbn beta iota in Hn; cbn [node_operands] in *.
    + apply Hself. subst x. destruct conj; reflexivity.
    + apply Hself. subst x. destruct conj; reflexivity.
    + apply Hself. subst x. destruct conj; reflexivity.
    + apply Hnnf. destruct Hn as [? [-> _]]. reflexivity.
    + destruct Hn as [? [-> _]]. destruct conj; [apply Hnary | apply Hdist]; reflexivity.
    + destruct Hn as [? [-> _]]. destruct conj; [apply Hdist | apply Hnary]; reflexivity.
    + apply Hnnf. destruct Hn as [? [? [-> _]]]. reflexivity.
    + apply Hnnf. destruct Hn as [? [? [-> _]]]. reflexivity.
    + apply Hnnf. subst x. reflexivity.
    + apply Hnnf. subst x. reflexivity.
  - intros [[[r | e] st1] lc1]; [| apply mono_ret]. apply mono_bind; [apply mono_fact_store | intros; apply mono_ret].
  - intros [[[r | e] st1] lc1] s1 W1 Hi1 He1 Hs1 Hq; unfold facq in Hq; cbn [fst snd fpost] in Hq; [| apply x_ret; auto].
    destruct Hq as [Hr Hl1]. eapply x_bind; [apply (fact_store_spec conj lc1 W1 s1 h r x); eauto using hdl_ext | intros; apply mono_ret |].
    intros lc2 s2 W2 Hi2 He2 Hs2 Hq. apply x_ret; [assumption |]. exact Hq.
Qed.

Theorem factorization_spec : forall H (hd : fhandler H) conj fuel x W s h st, inv W s -> hdl s h x -> encodable s x -> (2 * depth x + 8 <= fuel)%nat ->
  xspec W s (factorization hd conj fuel h st) (fun p s' W' => fpost hd (fun r => pres (P_nf conj) x r s' W') (fst p)).
Proof.
  intros H hd conj fuel x W s h st Hi Hx Hen Hfu. unfold factorization. eapply x_lift_bind; [reflexivity |].
  eapply x_bind; [apply (fact_rec_spec H hd conj fuel x); auto | intros; apply mono_ret |].
  - split.
    + intros m E. destruct (_ : bool) in E; [discriminate |]. injection E as <-. intros k r Hg. discriminate.
    + intros -> E. cbn. rewrite E. discriminate.
  - unfold fcost. destruct (nnf_shape x); lia.
  - intros [[r st1] lc1] s1 W1 Hi1 He1 Hs1 Hq. apply x_ret; [assumption |]. unfold facq in Hq. cbn [fst snd] in *. destruct r; cbn [fpost] in *; [apply Hq | assumption].
Qed.

Lemma nop_silent : silent nop_handler.
Proof. split; reflexivity. Qed.

Theorem fact_nop_spec : forall conj fuel x W s h, inv W s -> hdl s h x -> encodable s x -> (2 * depth x + 8 <= fuel)%nat ->
  xspec W s (fact_nop conj fuel h) (pres (P_nf conj) x).
Proof.
  intros conj fuel x W s h Hi Hx Hen Hfu. unfold fact_nop.
  eapply x_bind; [apply (factorization_spec unit nop_handler conj fuel x); auto | intros [[r | e] u]; [apply mono_ret | apply mono_fail] |].
  intros [[r | e] u] s1 W1 Hi1 He1 Hs1 Hq; cbn [fst fpost] in Hq; [apply x_ret; assumption |]. exfalso. apply Hq. apply nop_silent.
Qed.

Lemma mono_factorization : forall H (hd : fhandler H) conj fuel h st, mono (factorization hd conj fuel h st).
Proof. intros. unfold factorization. mono_tac. Qed.
Lemma mono_fact_nop : forall conj fuel h, mono (fact_nop conj fuel h).
Proof. intros. unfold fact_nop. apply mono_bind; [apply mono_factorization |]. intros [[r | e] u]; [apply mono_ret | apply mono_fail]. Qed.
Global Hint Resolve mono_factorization mono_fact_nop : mono.
