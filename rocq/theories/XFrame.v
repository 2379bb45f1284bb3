(** Everything but the constructors of implications and equivalences, [restrict] and [substitute] leaves the tables of implications and
    equivalences alone. *)
From Coq Require Import NArith ZArith List Bool Lia Arith.
From Verif Require Import Base EncodingModel EncodingProofs Syntax FactoryModel FactoryInv FactoryBasics FactoryProofs FactorySpecs FactoryNary FactoryOps
  HashConsProofs EvalProofs HistoryModel HistoryProofs ConstraintModel ConstraintProofs OpsModel OpsProofs CcModel CcFrontProofs
  PbModel CacheModel TransModel TreeSpec WorldProofs MetricsProofs EncodeProofs NnfProofs CnfProofs TseitinProofs PgProofs EncoderProofs PureProofs AnonProofs ParserRebuild.
Import ListNotations.
Local Open Scope N_scope.

Lemma fr_nofuel : forall A, fr (fun s : factory => (@NoFuel A, s)).
Proof. intros A s. auto. Qed.
#[export] Hint Resolve fr_ret fr_fail fr_lift fr_note fr_variable fr_new_aux fr_bind fr_nofuel : fr.
Lemma fr_f_new_aux : forall a, fr (f_new_aux a).
Proof. exact fr_new_aux. Qed.
Lemma fr_f_and : forall l, fr (f_and l).
Proof. intros. unfold f_and. fr_tac. Qed.
Lemma fr_f_or : forall l, fr (f_or l).
Proof. intros. unfold f_or. fr_tac. Qed.
#[export] Hint Resolve fr_f_and fr_f_or : fr.
Lemma fr_f_clause : forall l, fr (f_clause l).
Proof. intros. unfold f_clause. fr_tac. Qed.
Lemma fr_cc_negate : forall c, fr (cc_negate c).
Proof. intros. unfold cc_negate, f_or. fr_tac. Qed.
Lemma fr_pbc_negate : forall c, fr (pbc_negate c).
Proof. intros. unfold pbc_negate, f_or. fr_tac. Qed.
#[export] Hint Resolve fr_f_clause fr_cc_negate fr_pbc_negate : fr.

Lemma fr_nary_lazy : forall conj ms acc, Forall fr ms -> fr (nary_lazy conj acc ms).
Proof.
  intros conj ms. induction ms as [| m ms IH]; intros acc H; cbn [nary_lazy]; [auto with fr |].
  inversion H; subst. apply fr_bind; [assumption |]. intros h. apply fr_bind; [apply fr_lift |]. intros [r |]; [apply IH; assumption | apply fr_ret].
Qed.
#[export] Hint Resolve fr_nary_lazy : fr.
Lemma fr_subst_lit : forall sg l, fr (subst_lit sg l).
Proof. intros. unfold subst_lit. destruct (assoc _ _ _); [destruct (lit_phase l) |]; auto with fr; apply fr_ret. Qed.
#[export] Hint Resolve fr_subst_lit : fr.
Lemma fr_subst_vars : forall sg vs lits z, fr (subst_vars sg vs lits z).
Proof.
  intros sg vs. induction vs as [| u vs IH]; intros; cbn [subst_vars]; [apply fr_ret |]. apply fr_bind; [auto with fr |]. intros g.
  destruct (_ =? _); [apply IH |]. apply fr_bind; [apply fr_lift |]. intros n. destruct n; try apply IH; try apply fr_fail.
  destruct (lit_phase l); [apply IH | apply fr_fail].
Qed.
#[export] Hint Resolve fr_subst_vars : fr.
Lemma fr_subst_lits : forall sg ls cs lits zs z, fr (subst_lits sg ls cs lits zs z).
Proof.
  intros sg ls. induction ls as [| u ls IH]; intros; destruct cs; cbn [subst_lits]; try apply fr_ret. apply fr_bind; [auto with fr |]. intros g.
  destruct (_ =? _); [apply IH |]. apply fr_bind; [apply fr_lift |]. intros n. destruct n; try apply IH; apply fr_fail.
Qed.
#[export] Hint Resolve fr_subst_lits : fr.
Lemma fr_subst_cc : forall sg c, fr (subst_cc sg c).
Proof. intros. unfold subst_cc. apply fr_bind; [auto with fr |]. intros [[| ? ?] ?]; cbn [fst snd]; [apply fr_ret | auto with fr]. Qed.
#[export] Hint Resolve fr_subst_cc : fr.
Lemma fr_subst_pbc : forall sg c, fr (subst_pbc sg c).
Proof. intros. unfold subst_pbc. apply fr_bind; [auto with fr |]. intros [[[| ? ?] ?] ?]; [apply fr_ret | auto with fr]. Qed.
#[export] Hint Resolve fr_subst_pbc : fr.
Lemma fr_cc_restrict : forall c a, fr (cc_restrict c a).
Proof. intros. unfold cc_restrict. fr_tac. Qed.
#[export] Hint Resolve fr_cc_restrict : fr.
Lemma fr_pbc_restrict : forall p a, fr (pbc_restrict p a).
Proof. intros. unfold pbc_restrict. fr_tac. Qed.
#[export] Hint Resolve fr_pbc_restrict : fr.
Lemma fr_reduce : forall fuel c sum cs ls, fr (reduce fuel c sum cs ls).
Proof. induction fuel as [| fuel IH]; intros; cbn [reduce]; fr_tac; apply IH. Qed.
#[export] Hint Resolve fr_reduce : fr.
Lemma fr_normalize_le : forall ls cs rhs, fr (normalize_le ls cs rhs).
Proof. intros. unfold normalize_le. destruct (collect _ _) as [[? ?] ?]. apply fr_reduce. Qed.
#[export] Hint Resolve fr_normalize_le : fr.
Lemma fr_pbc_normalize : forall p, fr (pbc_normalize p).
Proof. intros. unfold pbc_normalize. fr_tac. Qed.
#[export] Hint Resolve fr_pbc_normalize : fr.
Lemma fr_put : forall on g, fr (cache_put on g).
Proof. intros on g s. unfold cache_put, modf. cbn [snd]. destruct (on _); auto. Qed.
#[export] Hint Resolve fr_put : fr.
Lemma fr_get : forall V (sel : op_caches -> list (N * V)) h, fr (cache_get sel h).
Proof. intros. apply fr_lift. Qed.
#[export] Hint Resolve fr_get : fr.
Lemma fr_unpackM : forall h, fr (unpackM h).
Proof. intros. apply fr_lift. Qed.
#[export] Hint Resolve fr_unpackM : fr.
Lemma fr_operandsM : forall h, fr (operandsM h).
Proof. intros. apply fr_lift. Qed.
#[export] Hint Resolve fr_operandsM : fr.
Lemma fr_mfold : forall A B (k : A -> B -> M B) l b, (forall a b, fr (k a b)) -> fr (mfold k l b).
Proof. intros A B k l. induction l as [| a l IH]; intros b H; cbn [mfold]; [apply fr_ret |]. apply fr_bind; [apply H |]. intros b'. apply IH. assumption. Qed.
#[export] Hint Resolve fr_mfold : fr.
Lemma fr_mall : forall k l, (forall a, fr (k a)) -> fr (mall k l).
Proof. intros k l H. induction l as [| a l IH]; cbn [mall]; [apply fr_ret |]. apply fr_bind; [apply H |]. intros []; [assumption | apply fr_ret]. Qed.
#[export] Hint Resolve fr_mall : fr.
Lemma fr_mmap : forall A B (k : A -> M B) l, (forall a, fr (k a)) -> fr (mmap k l).
Proof. intros A B k l H. induction l as [| a l IH]; cbn [mmap]; [apply fr_ret |]. apply fr_bind; [apply H |]. intros b. apply fr_bind; [assumption |]. intros. apply fr_ret. Qed.
#[export] Hint Resolve fr_mmap : fr.
Lemma fr_is_nnf : forall fuel h, fr (is_nnf fuel h).
Proof.
  induction fuel as [| fuel IH]; intros h; cbn [is_nnf]; [apply fr_nofuel |].
  apply fr_bind; [auto with fr |]. intros [b |]; [apply fr_ret |]. apply fr_bind; [auto with fr |]. intros n.
  apply fr_bind; [destruct n; try apply fr_ret; apply fr_mall; exact IH |]. intros r. apply fr_bind; [apply fr_put | intros; apply fr_ret].
Qed.
#[export] Hint Resolve fr_is_nnf : fr.
Lemma fr_is_dnf : forall h, fr (is_dnf h).
Proof. intros h. unfold is_dnf, put_is_dnf. fr_tac. Qed.
#[export] Hint Resolve fr_is_dnf : fr.
Lemma fr_search : forall test fuel stack seen, (forall h, fr (test h)) -> fr (search test fuel stack seen).
Proof.
  intros test fuel. induction fuel as [| fuel IH]; intros [| h st] seen Ht; cbn [search]; try apply fr_ret; [apply fr_nofuel |].
  apply fr_bind; [apply Ht |]. intros [[] |]; [apply fr_ret | apply IH; assumption |]. apply fr_bind; [auto with fr |]. intros ops.
  destruct (push_new ops st seen). apply IH. assumption.
Qed.
#[export] Hint Resolve fr_search : fr.
Lemma fr_contains_pbc : forall fuel h, fr (contains_pbc fuel h).
Proof.
  intros fuel h. unfold contains_pbc. apply fr_bind; [apply fr_search; intros k; unfold test_pbc; fr_tac |].
  intros []; [| apply fr_ret]. apply fr_bind; [apply fr_put | intros; apply fr_ret].
Qed.
#[export] Hint Resolve fr_contains_pbc : fr.
Lemma fr_formula_depth : forall fuel h, fr (formula_depth fuel h).
Proof.
  induction fuel as [| fuel IH]; intros h; cbn [formula_depth]; [apply fr_nofuel |].
  apply fr_bind; [auto with fr |]. intros [b |]; [apply fr_ret |].
  apply fr_bind; [| intros; apply fr_bind; [apply fr_put | intros; apply fr_ret]].
  destruct (is_atomic h); [apply fr_ret |]. apply fr_bind; [auto with fr |]. intros ops. apply fr_bind.
  - apply fr_mfold. intros a b. apply fr_bind; [apply IH | intros; apply fr_ret].
  - intros [m |]; [apply fr_ret | apply fr_fail].
Qed.
#[export] Hint Resolve fr_formula_depth : fr.
Lemma fr_number_of_atoms : forall fuel h, fr (number_of_atoms fuel h).
Proof.
  induction fuel as [| fuel IH]; intros h; cbn [number_of_atoms]; [apply fr_nofuel |]. destruct (is_atomic h); [apply fr_ret |].
  apply fr_bind; [auto with fr |]. intros [b |]; [apply fr_ret |].
  apply fr_bind; [auto with fr |]. intros ops. apply fr_bind; [| intros; apply fr_bind; [apply fr_put | intros; apply fr_ret]].
  apply fr_mfold. intros a b. apply fr_bind; [apply IH | intros; apply fr_ret].
Qed.
#[export] Hint Resolve fr_number_of_atoms : fr.
Lemma fr_number_of_nodes : forall fuel h, fr (number_of_nodes fuel h).
Proof.
  induction fuel as [| fuel IH]; intros h; cbn [number_of_nodes]; [apply fr_nofuel |]. destruct (is_constant h || is_literal h); [apply fr_ret |].
  apply fr_bind; [auto with fr |]. intros [b |]; [apply fr_ret |].
  apply fr_bind; [auto with fr |]. intros n. apply fr_bind; [| intros; apply fr_bind; [apply fr_put | intros; apply fr_ret]].
  destruct n; try apply fr_ret; apply fr_mfold; intros; (apply fr_bind; [apply IH | intros; apply fr_ret]).
Qed.
#[export] Hint Resolve fr_number_of_nodes : fr.
Lemma fr_variables : forall fuel h, fr (variables fuel h).
Proof.
  induction fuel as [| fuel IH]; intros h; cbn [variables]; [apply fr_nofuel |].
  apply fr_bind; [auto with fr |]. intros [b |]; [apply fr_ret |].
  apply fr_bind; [auto with fr |]. intros n. apply fr_bind; [| intros; apply fr_bind; [apply fr_put | intros; apply fr_ret]].
  destruct n; try apply fr_ret; apply fr_mfold; intros; (apply fr_bind; [apply IH | intros; apply fr_ret]).
Qed.
#[export] Hint Resolve fr_variables : fr.
Lemma fr_literals : forall fuel h, fr (literals fuel h).
Proof.
  induction fuel as [| fuel IH]; intros h; cbn [literals]; [apply fr_nofuel |].
  apply fr_bind; [auto with fr |]. intros [b |]; [apply fr_ret |].
  apply fr_bind; [auto with fr |]. intros n. apply fr_bind; [| intros; apply fr_bind; [apply fr_put | intros; apply fr_ret]].
  destruct n; try apply fr_ret; apply fr_mfold; intros; (apply fr_bind; [apply IH | intros; apply fr_ret]).
Qed.
#[export] Hint Resolve fr_literals : fr.
Lemma fr_variable_profile : forall fuel h m, fr (variable_profile_rec fuel h m).
Proof.
  induction fuel as [| fuel IH]; intros h m; cbn [variable_profile_rec]; [apply fr_nofuel |].
  apply fr_bind; [auto with fr |]. intros n. destruct n; try apply fr_ret; apply fr_mfold; exact IH.
Qed.
#[export] Hint Resolve fr_variable_profile : fr.
Lemma fr_sub_nodes_cached : forall fuel h lc, fr (sub_nodes_cached fuel h lc).
Proof.
  induction fuel as [| fuel IH]; intros h lc; cbn [sub_nodes_cached]; [apply fr_nofuel |].
  destruct (match lc with Some m => oc_get h m | None => None end); [apply fr_ret |].
  apply fr_bind; [auto with fr |]. intros [b |]; [apply fr_ret |].
  apply fr_bind; [auto with fr |]. intros ops. apply fr_bind.
  - apply fr_mfold. intros a b. destruct (memN h (fst b)); [apply fr_ret |]. apply fr_bind; [apply IH | intros; apply fr_ret].
  - intros p. apply fr_bind; [apply fr_lift |]. intros []; [apply fr_bind; [apply fr_put | intros; apply fr_ret] |].
    destruct (snd p); [apply fr_ret | apply fr_fail].
Qed.
#[export] Hint Resolve fr_sub_nodes_cached : fr.
Lemma fr_sub_nodes : forall fuel h, fr (sub_nodes fuel h).
Proof. intros. unfold sub_nodes. apply fr_bind; [apply fr_lift |]. intros. apply fr_bind; [apply fr_sub_nodes_cached | intros; apply fr_ret]. Qed.
#[export] Hint Resolve fr_sub_nodes : fr.
Lemma fr_emit : forall g, fr (emit g).
Proof.
  intros g s. unfold emit. destruct (g (ctrs_of s)) as [[[a k] cls] | |]; cbn [snd]; auto.
  destruct (ctrs_leb (ctrs_of s) k); cbn [snd]; [| auto].
  destruct (fr_mmap _ _ f_clause cls (fun c => fr_f_clause c) (with_ctrs s k)) as [E1 E2]. split; [rewrite E1 | rewrite E2]; reflexivity.
Qed.
#[export] Hint Resolve fr_emit : fr.
Lemma fr_cc_encode : forall c, fr (cc_encode c).
Proof.
  intros c. unfold cc_encode, cc_encoder_encode. apply fr_bind; [apply fr_lift |]. intros i. apply fr_bind; [apply fr_get |].
  intros [r |]; [apply fr_ret |]. apply fr_bind; [apply fr_lift |]. intros cfg. apply fr_bind; [apply fr_emit |].
  intros r. apply fr_bind; [apply fr_put | intros; apply fr_ret].
Qed.
#[export] Hint Resolve fr_cc_encode : fr.
Lemma fr_pb_encoder_encode : forall fuel cfg p, fr (pb_encoder_encode fuel cfg p).
Proof.
  induction fuel as [| fuel IH]; intros cfg p; cbn [pb_encoder_encode]; [apply fr_nofuel |].
  apply fr_bind; [apply fr_pbc_normalize |]. intros h. apply fr_bind; [apply fr_unpackM |]. intros n.
  destruct n; try apply fr_fail; try apply fr_ret; auto with fr.
  apply fr_mfold. intros o b. apply fr_bind; [apply fr_unpackM |]. intros m. apply fr_bind; [| intros; apply fr_ret].
  destruct m; try apply fr_fail; auto with fr.
Qed.
#[export] Hint Resolve fr_pb_encoder_encode : fr.
Lemma fr_pbc_encode : forall c, fr (pbc_encode c).
Proof.
  intros c. unfold pbc_encode. apply fr_bind; [apply fr_lift |]. intros i. apply fr_bind; [apply fr_get |].
  intros [r |]; [apply fr_ret |]. apply fr_bind; [apply fr_lift |]. intros cfg. apply fr_bind; [apply fr_pb_encoder_encode |].
  intros r. apply fr_bind; [apply fr_put | intros; apply fr_ret].
Qed.
#[export] Hint Resolve fr_pbc_encode : fr.
Lemma fr_nnf_known : forall h, fr (nnf_known h).
Proof.
  intros h. unfold nnf_known. apply fr_bind; [apply fr_get |]. intros i. apply fr_bind; [apply fr_get |]. intros c.
  apply fr_bind; [apply fr_get |]. intros d. destruct i as [[] |]; destruct c; destruct d as [[] |]; auto with fr; apply fr_ret.
Qed.
#[export] Hint Resolve fr_nnf_known : fr.
Lemma fr_nnf_rec : forall fuel h p, fr (nnf_rec fuel h p).
Proof.
  induction fuel as [| fuel IH]; intros h p; cbn [nnf_rec]; [apply fr_nofuel |].
  apply fr_bind; [destruct p; [apply fr_nnf_known | apply fr_ret] |]. intros [r |]; [apply fr_ret |].
  apply fr_bind; [apply fr_unpackM |]. intros n. apply fr_bind.
  - assert (HL : forall conj ops b, fr (nary_lazy conj [] (map (fun op => nnf_rec fuel op b) ops))).
    { intros. apply fr_nary_lazy. apply Forall_map. rewrite Forall_forall. auto. }
    destruct n; try apply IH; try apply HL; destruct p; fr_tac; auto.
  - intros r. apply fr_bind; [| intros; apply fr_ret]. destruct p; [| apply fr_ret]. apply fr_bind; [apply fr_lift |].
    intros []; [| apply fr_ret]. apply fr_bind; [apply fr_put | intros; apply fr_put].
Qed.
#[export] Hint Resolve fr_nnf_rec : fr.
Lemma fr_distribute : forall H (hd : fhandler H) conj fuel f1 f2 st, fr (distribute hd conj fuel f1 f2 st).
Proof.
  intros H hd conj fuel. induction fuel as [| fuel IH]; intros f1 f2 st; cbn [distribute]; [apply fr_nofuel |].
  destruct (fh_dist hd st) as [[e |] st1]; [apply fr_ret |].
  destruct (is_type (nary_type conj) f1 || is_type (nary_type conj) f2).
  - destruct (if is_type (nary_type conj) f1 then (f1, f2) else (f2, f1)) as [a na]. apply fr_bind; [apply fr_operandsM |]. intros ops.
    apply fr_bind.
    + apply fr_mfold. intros op [[nops | e] st2]; [| apply fr_ret]. apply fr_bind; [apply IH | intros; apply fr_ret].
    + intros [[nops | e] st2]; fr_tac.
  - apply fr_bind; [auto with fr |]. intros r. destruct (fh_clause hd r st1) as [[e |] st2]; apply fr_ret.
Qed.
#[export] Hint Resolve fr_distribute : fr.
Lemma fr_distribute_all : forall H (hd : fhandler H) conj fuel ops r st, fr (distribute_all hd conj fuel r ops st).
Proof.
  intros H hd conj fuel. induction ops as [| o ops IH]; intros r st; cbn [distribute_all]; [apply fr_ret |].
  apply fr_bind; [apply fr_distribute |]. intros [[r' | e] st']; [apply IH | apply fr_ret].
Qed.
#[export] Hint Resolve fr_distribute_all : fr.
Lemma fr_fact_cached : forall conj lc h, fr (fact_cached conj lc h).
Proof. intros conj lc h. unfold fact_cached. destruct (match lc with Some m => oc_get h m | None => None end); [apply fr_ret | apply fr_get]. Qed.
#[export] Hint Resolve fr_fact_cached : fr.
Lemma fr_fact_store : forall conj lc h r, fr (fact_store conj lc h r).
Proof.
  intros [] lc h r; unfold fact_store.
  - apply fr_bind; [apply fr_lift |]. intros []; [apply fr_bind; [apply fr_put | intros; apply fr_ret] |]. destruct lc; [apply fr_ret | apply fr_fail].
  - apply fr_bind; [apply fr_put |]. intros _. apply fr_bind; [apply fr_put | intros; apply fr_ret].
Qed.
#[export] Hint Resolve fr_fact_store : fr.
Lemma fr_compute_nops : forall H (rec : N -> H -> lcache -> M (fres N * H * lcache)), (forall o st lc, fr (rec o st lc)) ->
  forall ops st lc, fr (compute_nops rec ops st lc).
Proof.
  intros H rec Hm ops. induction ops as [| o ops IH]; intros st lc; cbn [compute_nops]; [apply fr_ret |].
  apply fr_bind; [apply Hm |]. intros [[[x | e] st1] lc1]; [| apply fr_ret]. apply fr_bind; [apply IH |]. intros; apply fr_ret.
Qed.
#[export] Hint Resolve fr_compute_nops : fr.
Lemma fr_fact_rec : forall H (hd : fhandler H) conj fuel h st lc, fr (fact_rec hd conj fuel h st lc).
Proof.
  intros H hd conj fuel. induction fuel as [| fuel IH]; intros h st lc; cbn [fact_rec]; [apply fr_nofuel |].
  apply fr_bind; [apply fr_fact_cached |]. intros [r |]; [apply fr_ret |]. apply fr_bind; [apply fr_unpackM |]. intros n.
  assert (Hn : forall ops, fr (p <-- compute_nops (fact_rec hd conj fuel) ops st lc ;;
            match p with
            | (FOk nops, st1, lc1) => r <-- f_nary conj nops ;; ret (FOk r, st1, lc1)
            | (FErr e, st1, lc1) => ret (FErr e, st1, lc1)
            end)).
  { intros ops. apply fr_bind; [apply fr_compute_nops; assumption |]. intros [[[x | e] st1] lc1]; fr_tac. }
  assert (Hd : forall ops, fr (p <-- compute_nops (fact_rec hd conj fuel) ops st lc ;;
            match p with
            | (FOk nops, st1, lc1) =>
                match nops with
                | [] => fail
                | first :: rest => q <-- distribute_all hd conj 4 first rest st1 ;; ret (fst q, snd q, lc1)
                end
            | (FErr e, st1, lc1) => ret (FErr e, st1, lc1)
            end)).
  { intros ops. apply fr_bind; [apply fr_compute_nops; assumption |]. intros [[[x | e] st1] lc1]; [| apply fr_ret].
    destruct x; [apply fr_fail |]. apply fr_bind; [apply fr_distribute_all | intros; apply fr_ret]. }
  apply fr_bind.
  - destruct n; try apply fr_ret; try (apply fr_bind; [apply fr_nnf_rec | intros; apply IH]); destruct conj; auto.
  - intros [[[r | e] st1] lc1]; [| apply fr_ret]. apply fr_bind; [apply fr_fact_store | intros; apply fr_ret].
Qed.
#[export] Hint Resolve fr_fact_rec : fr.
Lemma fr_factorization : forall H (hd : fhandler H) conj fuel h st, fr (factorization hd conj fuel h st).
Proof. intros. unfold factorization. fr_tac. Qed.
#[export] Hint Resolve fr_factorization : fr.
Lemma fr_fact_nop : forall conj fuel h, fr (fact_nop conj fuel h).
Proof. intros. unfold fact_nop. apply fr_bind; [apply fr_factorization |]. intros [[r | e] u]; [apply fr_ret | apply fr_fail]. Qed.
#[export] Hint Resolve fr_fact_nop : fr.
Lemma fr_index : forall V (m : list (N * V)) h, fr (index m h).
Proof. intros. apply fr_lift. Qed.
#[export] Hint Resolve fr_index : fr.
Lemma fr_compute_tseitin : forall fuel h st, fr (compute_tseitin fuel h st).
Proof.
  induction fuel as [| fuel IH]; intros h st; cbn [compute_tseitin]; [apply fr_nofuel |].
  destruct (assoc N.eqb h (cs_formula st)); [apply fr_ret |]. apply fr_bind; [apply fr_unpackM |]. intros n.
  assert (HL : forall ops p, fr (mfold (ts_loop fuel) ops p)).
  { intros ops p. apply fr_mfold. intros a [[[ns os] negs] st']. unfold ts_loop. apply fr_bind.
    - destruct (is_literal a); [apply fr_ret |]. apply fr_bind; [apply IH |]. intros. apply fr_bind; [apply fr_index | intros; apply fr_ret].
    - intros [n1 st1]. apply fr_bind; [apply fr_index | intros; apply fr_ret]. }
  destruct n; try apply fr_fail; try apply fr_ret.
  - apply fr_bind; [apply fr_f_new_aux |]. intros v. apply fr_bind; [apply HL |]. intros [[[ns os] negs] st'].
    apply fr_bind; [apply fr_mmap; intros; auto with fr |]. intros cs. apply fr_bind; [auto with fr |]. intros c. apply fr_bind; [auto with fr | intros; apply fr_ret].
  - apply fr_bind; [apply fr_f_new_aux |]. intros v. apply fr_bind; [apply HL |]. intros [[[ns os] negs] st'].
    apply fr_bind; [apply fr_mmap; intros; auto with fr |]. intros cs. apply fr_bind; [auto with fr |]. intros c. apply fr_bind; [auto with fr | intros; apply fr_ret].
Qed.
#[export] Hint Resolve fr_compute_tseitin : fr.
Lemma fr_pg_variable : forall h st, fr (pg_variable h st).
Proof.
  intros. unfold pg_variable. destruct (is_literal h).
  - apply fr_bind; [apply fr_unpackM |]. intros []; try apply fr_fail. apply fr_ret.
  - destruct (assoc N.eqb h (cs_variable st)); [apply fr_ret |]. apply fr_bind; [apply fr_f_new_aux | intros; apply fr_ret].
Qed.
#[export] Hint Resolve fr_pg_variable : fr.
Lemma fr_compute_pos : forall h st, fr (compute_pos_polarity h st).
Proof.
  intros. unfold compute_pos_polarity. destruct (assoc N.eqb h (cs_formula st)); [apply fr_ret |]. apply fr_bind; [apply fr_pg_variable |]. intros [pg st1].
  apply fr_bind; [apply fr_unpackM |]. intros n. apply fr_bind; [| intros; apply fr_ret]. destruct n; try apply fr_fail.
  - apply fr_bind; [apply fr_mfold; intros | intros; apply fr_bind; [auto with fr | intros; apply fr_ret]].
    apply fr_bind; [apply fr_pg_variable |]. intros. apply fr_bind; [auto with fr | intros; apply fr_ret].
  - apply fr_bind; [apply fr_mfold; intros | intros; apply fr_bind; [auto with fr | intros; apply fr_ret]].
    apply fr_bind; [apply fr_pg_variable | intros; apply fr_ret].
Qed.
#[export] Hint Resolve fr_compute_pos : fr.
Lemma fr_compute_transformation : forall fuel h st, fr (compute_transformation fuel h st).
Proof.
  induction fuel as [| fuel IH]; intros h st; cbn [compute_transformation]; [apply fr_nofuel |]. apply fr_bind; [apply fr_unpackM |].
  assert (H : forall ops, fr (number_of_atoms (S fuel) h ;;; p <-- compute_pos_polarity h st ;;
          q <-- mfold (fun op (q : list N * cnf_state) => r <-- compute_transformation fuel op (snd q) ;; ret (fst q ++ [fst r], snd r)) ops ([fst p], snd p) ;;
          r <-- f_and (fst q) ;; ret (r, snd q))).
  { intros ops. apply fr_bind; [auto with fr |]. intros _. apply fr_bind; [apply fr_compute_pos |]. intros p.
    apply fr_bind; [apply fr_mfold; intros; apply fr_bind; [apply IH | intros; apply fr_ret] |]. intros q. apply fr_bind; [auto with fr | intros; apply fr_ret]. }
  intros []; try apply fr_fail; try apply fr_ret; apply H.
Qed.
#[export] Hint Resolve fr_compute_transformation : fr.
Lemma fr_tr_rest : forall fuel ops p, fr (tr_rest fuel ops p).
Proof.
  intros. apply fr_bind; [apply fr_mfold; intros; apply fr_bind; [auto with fr | intros; apply fr_ret] |]. intros q. apply fr_bind; [auto with fr | intros; apply fr_ret].
Qed.
#[export] Hint Resolve fr_tr_rest : fr.
Lemma fr_nary_lazy_st : forall S conj (k : N -> S -> M (N * S)), (forall o st, fr (k o st)) -> forall ops acc st, fr (nary_lazy_st conj k acc ops st).
Proof.
  intros S conj k Hk ops. induction ops as [| o ops IH]; intros acc st; cbn [nary_lazy_st].
  - apply fr_bind; [auto with fr | intros; apply fr_ret].
  - apply fr_bind; [apply Hk |]. intros q. apply fr_bind; [apply fr_lift |]. intros [r |]; [apply IH | apply fr_ret].
Qed.
#[export] Hint Resolve fr_nary_lazy_st : fr.
Lemma fr_anon_var : forall v a, fr (anon_var v a).
Proof. intros v a. unfold anon_var. destruct (assoc var_eqb v (an_subst a)); [apply fr_ret |]. apply fr_bind; [auto with fr | intros; apply fr_ret]. Qed.
#[export] Hint Resolve fr_anon_var : fr.
