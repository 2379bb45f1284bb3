(** What the DNNF compiler does before the compilation proper: clause form, backbone simplification, subsumption. *)
From Coq Require Import NArith List Bool Arith Lia.
From Verif Require Import Base EncodingModel Syntax FactoryModel FactoryInv FactoryBasics FactoryProofs FactoryOps EvalProofs InvariantSpec InvariantProofs OpsModel OpsProofs CacheModel TransModel TreeSpec WorldProofs MetricsProofs
  EncodeProofs NnfProofs CnfProofs DefBasics XHistoryProofs EncoderProofs DnnfSpec DnnfCompTree SatModel SatSpec SatInv SatProp MiniModel PgSolverModel PgHistory BbSimpModel BbSimpProofs SatPredModel UbTreeModel SubsumptionProofs DnnfModel DnnfCompModel DnnfCompProofs DnnfCompMain.
From Verif Require ParserModel BddDen SatDb.
Import ListNotations.
Local Open Scope nat_scope.
Local Notation inv := WorldProofs.inv.

(** The steps of [compile_dnnf] between the variables and the compilation. *)
Definition prepare (orc : oracle) (alg : cnf_algorithm) (ord : list lit -> nat -> list nat -> list nat) (rounds fuel : nat) (h : N) : M N :=
  p <-- cnf_transform alg fuel h (mkCnfEncoder None None) ;;
  s <-- backbone_simplification orc rounds fuel (fst p) ;;
  subsumption ord true fuel s.
Lemma compile_dnnf_steps : forall orc alg fid ord rounds dd fuel h s vs s1 u s2 r s', variables fuel h s = (Ok vs, s1) -> prepare orc alg ord rounds fuel h s1 = (Ok u, s2) ->
  dnnf_compile orc alg fid dd fuel u s2 = (Ok r, s') -> compile_dnnf orc alg fid ord rounds dd fuel h s = (Ok (mkDnnf (fst r) vs), s').
Proof.
  intros orc alg fid ord rounds dd fuel h s vs s1 u s2 r s' E1 E2 E3. unfold compile_dnnf, prepare, bind in *. rewrite E1. destruct (cnf_transform alg fuel h (mkCnfEncoder None None) s1) as [[p | |] t1]; try discriminate.
  destruct (backbone_simplification orc rounds fuel (fst p) t1) as [[b | |] t2]; try discriminate. rewrite E2, E3. reflexivity.
Qed.

Lemma mono_subsumption : forall ord fuel h, mono (subsumption ord true fuel h).
Proof. intros ord fuel h. unfold subsumption. apply mono_bind; [apply mono_lift |]. intros b. apply (mono_rest ord true fuel h b). Qed.

Lemma forced_occurs : forall x l, satisfiable x -> (forall v, sem v x = true -> lit_sem v l = true) -> In (lit_var l) (fvars x).
Proof.
  intros x l (v & Sv) H. destruct (in_dec BddDen.var_dec (lit_var l) (fvars x)) as [K | K]; [exact K |]. exfalso.
  set (w := upd v (lit_var l) (negb (v (lit_var l)))). assert (Sw : sem w x = true).
  { rewrite <- Sv. apply sem_fvars. intros u Hu. unfold w, upd. destruct (var_eqb u (lit_var l)) eqn:E; [| reflexivity]. apply var_eqb_spec in E. subst u. contradiction. }
  pose proof (H v Sv) as H1. pose proof (H w Sw) as H2. unfold w in H2. destruct l as [u p]. cbn [lit_sem lit_var] in *. unfold upd in H2. rewrite var_eqb_refl' in H2. destruct (v u), p; discriminate.
Qed.
Lemma single_clause : forall c l, is_fclause c = true -> local_ok c -> (forall k, In k (flits c) <-> k = l) -> c = FLit l.
Proof.
  intros c l Hc Hl H. destruct c as [| | k | | | ks | | | |]; try discriminate.
  - cbn [flits In] in H. f_equal. apply H. now left.
  - exfalso. cbn [is_fclause] in Hc. rewrite forallb_forall in Hc. assert (A : forall z, In z ks -> z = FLit l).
    { intros z Hz. pose proof (Hc z Hz) as Lz. destruct z as [| | k | | | | | | |]; try discriminate. f_equal. apply H. cbn [flits]. apply in_flat_map. exists (FLit k). split; [exact Hz | now left]. }
    destruct Hl as [(N2 & _ & Fo & _) _]. destruct ks as [| a [| b ks]]; cbn [length] in N2; [lia | lia |]. inversion Fo as [| ? ? F1 _]; subst. inversion F1 as [| ? ? F2 _]; subst. apply F2. rewrite (A a), (A b) by (cbn [In]; auto). apply feq_refl.
Qed.
Lemma conjunct_subterm : forall x c, In c (conjuncts x) -> subterm c x.
Proof. intros x c H. destruct x; cbn [conjuncts] in H; try (destruct H as [<- | []]; constructor). eapply su_and; [exact H | constructor]. Qed.

Section Prepare.
  Variables (orc : oracle) (alg : cnf_algorithm) (ord : list lit -> nat -> list nat -> list nat) (rounds fuel : nat).
  Hypothesis So : SatDb.sorting orc.
  Hypothesis Ho : forall q j l n, In n (ord q j l) <-> In n l.

  Theorem prepare_ok : forall W s h x r s', inv W s -> hdl s h x -> cnf_shape x = true -> named x -> room fuel x -> prepare orc alg ord rounds fuel h s = (Ok r, s') -> cap s' ->
    exists W' z, inv W' s' /\ sub W' W /\ ext s s' /\ hdl s' r z /\ cnf_shape z = true /\ (forall v, sem v z = sem v x) /\ incl (fvars z) (fvars x) /\ (~ satisfiable x -> z = FFalse)
      /\ (satisfiable z -> forall l, (forall v, sem v z = true -> lit_sem v l = true) -> In (FLit l) (conjuncts z)).
  Proof.
    intros W s h x r s' Hi Hh Hx Hn Hr E Hc. unfold prepare in E.
    assert (Et : cnf_transform alg fuel h (mkCnfEncoder None None) s = (Ok (h, mkCnfEncoder None None), s)).
    { destruct alg; cbn [cnf_transform]; unfold bind, lift; rewrite (wf_cnf_exact s (i_wf _ _ Hi) h x (proj1 Hh) (proj1 (proj2 Hh))), Hx; reflexivity. }
    unfold bind at 1 in E. rewrite Et in E. cbn [fst] in E.
    apply bind_cap in E; [| intros; apply mono_subsumption | exact Hc]. destruct E as (b & s1 & Eb & Hc1 & E).
    pose proof (p_run _ _ _ _ _ _ _ (backbone_simplification_spec orc So rounds fuel W s h x Hi Hh (con_free_encodable _ _ (cnf_con_free _ Hx)) Hr (fun a => con_free_restrictable a x (cnf_con_free _ Hx))) Eb Hc1) as K.
    cbn [rspec] in K. destruct K as (W1 & Hi1 & Hs1 & He1 & y & Hy & P1 & P2 & P3 & P4 & P5).
    assert (Sy : forall v, sem v y = sem v x).
    { intros v. apply eq_iff_eq_true. split; [apply P1 |]. intros H. destruct (proj1 (i_world _ _ Hi1) v) as (w & Hw & Ha).
      assert (Sw : sem w x = true) by (rewrite <- H; apply sem_fvars; intros u Hu; destruct (Hn u Hu) as [i ->]; apply Ha).
      rewrite <- (P2 w Hw Sw). apply sem_fvars. intros u Hu. destruct (Hn u (P3 u Hu)) as [i ->]. symmetry. apply Ha. }
    destruct (nf true y) eqn:Ny.
    2:{ exfalso. pose proof (subsumption_panics ord true fuel y W1 s1 b Hi1 Hy Ny) as K. rewrite E in K. specialize (K Hc). discriminate. }
    pose proof (cnf_depth y Ny) as Dy. destruct Hr as [_ Hr].
    destruct (x_run _ _ _ _ _ _ _ (subsumption_spec ord Ho true fuel y W1 s1 b Hi1 Hy Ny ltac:(lia)) E Hc) as (a & W2 & Ea & Hi2 & Hs2 & He2 & z & Hz & Cz). apply ok_inj in Ea. subst a.
    assert (F : cnf_shape z = true /\ (forall v, sem v z = sem v y) /\ incl (fvars z) (fvars y) /\ (y = FFalse -> z = FFalse) /\
      forall c, In c (conjuncts z) -> fvars c <> [] -> is_fclause c = true /\ exists d, In d (conjuncts y) /\ is_fclause d = true /\ forall l, In l (flits c) <-> In l (flits d)).
    { destruct Cz as [[<- Hne] | (xs & -> & S1 & S2 & S3 & S4)].
      - split; [exact Ny |]. split; [reflexivity |]. split; [apply incl_refl |]. split; [auto |]. intros c Hin Hf. assert (is_fclause c = true).
        { destruct (cnf_cases y Ny) as [-> | [-> | K]]; [destruct Hin as [<- | []]; now destruct Hf | destruct Hin as [<- | []]; now destruct Hf | auto]. }
        split; [assumption |]. exists c. split; [assumption |]. split; [assumption |]. intros l. tauto.
      - split; [exact S3 |]. split; [intros v; rewrite S1; reflexivity |]. split; [rewrite fvars_fnary; exact S2 |]. split; [discriminate |]. intros c Hin Hf.
        destruct S4 as [-> | [-> | (us & Hus & Fu & Hu & _)]]; [destruct Hin as [<- | []]; now destruct Hf | destruct Hin as [<- | []]; now destruct Hf |].
        rewrite Forall_forall in Fu. assert (Hin' : In c us).
        { destruct Hus as [-> | ->]; [exact Hin |]. pose proof (Fu z (or_introl eq_refl)) as Cc. cbn [nclause] in Cc. destruct z; try discriminate; exact Hin. }
        split; [exact (Fu c Hin') |]. destruct (Hu c Hin') as (d & Hd & Hl). exists d. split; [exact Hd |]. split; [| exact Hl].
        destruct (cnf_cases _ Ny) as [K | [K | K]]; try discriminate. apply K. exact Hd. }
    destruct F as (F1 & F2 & F3 & F4 & F5). exists W2, z. split; [exact Hi2 |]. split; [eapply WorldProofs.sub_trans; eauto |]. split; [eapply FactoryInv.ext_trans; eauto |]. split; [exact Hz |]. split; [exact F1 |].
    split; [intros v; rewrite F2; apply Sy |]. split; [eapply incl_tran; eauto |]. split.
    { intros Hns. apply F4, P4. intros v. destruct (sem v x) eqn:T; [| reflexivity]. exfalso. apply Hns. exists v. exact T. }
    intros Sz l Hl. pose proof (forced_occurs z l Sz Hl) as Hu. pose proof Hu as Hu0. rewrite fvars_conjuncts in Hu. apply in_flat_map in Hu. destruct Hu as (c & Hin & Huc).
    destruct (F5 c Hin) as [Cc (d & Hd & Cd & Hcd)]; [intros K; rewrite K in Huc; destruct Huc |].
    assert (Sx : exists v, W1 v /\ sem v x = true).
    { destruct Sz as (v & Sv). rewrite F2, Sy in Sv. destruct (proj1 (i_world _ _ Hi1) v) as (w & Hw & Ha). exists w. split; [exact Hw |]. rewrite <- Sv. apply sem_fvars. intros u Hu. destruct (Hn u Hu) as [i ->]. apply Ha. }
    assert (Hud : In (lit_var l) (fvars d)).
    { apply (flits_fvars_unit true c Cc) in Huc. destruct Huc as (k & Hk & Ek). apply (flits_fvars_unit true d Cd). exists k. split; [now apply Hcd | exact Ek]. }
    destruct l as [u p]. cbn [lit_var] in *. assert (Ed : d = FLit (Lit u p)).
    { assert (Hfx : forall v, sem v x = true -> v u = p). { intros v Sv. rewrite <- Sy, <- F2 in Sv. specialize (Hl v Sv). cbn [lit_sem] in Hl. destruct (v u), p; try reflexivity; discriminate. }
      destruct (P5 u p (P3 u (F3 u Hu0)) Sx Hfx) as [-> | (ks & -> & Q1 & Q2)].
      - destruct Hd as [<- | []]. reflexivity.
      - rewrite Forall_forall in Q2. destruct (Q2 d Hd) as [-> | K]; [reflexivity | contradiction]. }
    subst d. assert (Ec : c = FLit (Lit u p)).
    { apply single_clause; [exact Cc | | intros k; rewrite Hcd; cbn [flits In]; split; [intros [<- | []]; reflexivity | intros ->; now left]].
      apply (handle_doc_ok s' r z (i_wf _ _ Hi2) (proj1 Hz) (proj1 (proj2 Hz))). now apply conjunct_subterm. }
    rewrite <- Ec. exact Hin.
  Qed.
End Prepare.
