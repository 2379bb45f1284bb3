(** C58: the number of models of a conjunction of formulas, counted with a BDD, in every state a factory can get into. *)
From Coq Require Import String.
From Coq Require Import NArith ZArith List Bool Arith Lia.
From Verif Require BddMake BddDen.
Local Notation var_dec := BddDen.var_dec.
From Verif Require Import Base EncodingModel EncodingProofs Syntax FactoryModel FactoryInv FactoryBasics FactoryProofs FactoryOps EvalProofs HistoryModel InvariantSpec InvariantProofs OpsModel OpsProofs
  CcModel EncBasics CacheModel TransModel TreeSpec WorldProofs MetricsProofs EncodeProofs NnfProofs HandlerProofs DefBasics TseitinProofs PgProofs EncoderProofs PureProofs XHistory XHistoryProofs XReplay Properties_Factory Properties_Trans
  OrderModel OrderProofs Properties_Order BddModel BddCount CountModel CountProofs CountBdd CountMain Properties_Count CountNary CountConjModel CountConj CountConjMain.
Import ListNotations.
Local Open Scope list_scope.
Local Open Scope N_scope.

Lemma known_hdls : forall cfg s known os hs xs, xreachable cfg s known os -> incl hs known -> Forall2 (denotes s) hs xs -> exists W, inv W s /\ Forall2 (hdl s) hs xs.
Proof.
  intros cfg s known os hs xs Hr Hin Hd. destruct (xreachable_ok _ _ _ _ Hr) as [W [Hi [Hk _]]]. exists W. split; [exact Hi |]. rewrite Forall_forall in Hk. cbn [x_fac x_known] in Hk.
  induction Hd as [| h x hs xs Hx Hd IH]; constructor.
  - destruct (Hk h (Hin h (or_introl eq_refl))) as [y Hy]. rewrite (hdl_same _ _ _ _ Hy Hx). exact Hy.
  - apply IH. intros k Hk'. apply Hin. now right.
Qed.
Lemma mono_count_internal : forall alg prime size csize rounds fuelp fuel hs relevant vs, mono (count_internal alg prime size csize rounds fuelp fuel hs relevant vs).
Proof.
  intros. unfold count_internal. destruct (negb _); [apply mono_fail |]. destruct vs; [apply mono_ret |].
  apply mono_bind; [apply mono_encode_as_cnf | intros]. apply mono_bind; [apply mono_unit_literals | intros]. apply mono_bind; [apply mono_restrict_all | intros]. apply mono_bind; [apply mono_f_and | intros].
  apply mono_bind; [apply mono_count_formula | intros]. apply mono_bind; [apply mono_all_variables | intros]. apply mono_bind; [apply mono_care | intros; apply mono_ret].
Qed.

Section Counting.
Variables (alg : cnf_algorithm) (prime : nat -> N -> nat) (size csize rounds fuelp fuel : nat).
Hypothesis HP : BddMake.prime_ok prime.
Hypothesis Hsize : (3 <= size)%nat.
Hypothesis Hcsize : (1 <= csize)%nat.
Hypothesis Hfuel : (42 <= fuel)%nat.
(** The handles [hs] are known in a reachable state, where they denote [xs]. *)
Variables (cfg : ff_config) (s : factory) (hsknown : list N) (os : list obj) (hs : list N) (xs : list fml).
Hypothesis Hr : xreachable cfg s hsknown os.
Hypothesis Hin : incl hs hsknown.
Hypothesis Hd : Forall2 (denotes s) hs xs.
Hypothesis Hf : Forall (fun x => (depth x < fuelp)%nat) xs.

(** Whenever FORCE ends, the result is the number of models of the conjunction over the relevant variables. *)
Theorem C58_with_vars : forall relevant, Forall pureable xs -> NoDup relevant -> incl (flat_map fvars xs) relevant -> (forall u, In u relevant -> kept s u) -> flat_map fvars xs <> [] ->
  N.of_nat (List.length relevant) < 4294967296 ->
  let run := count_conjunction_with_vars alg prime size csize rounds fuelp fuel hs relevant s in
  cap (snd run) -> few_vars (snd run) -> fst run = NoFuel \/ exists n, fst run = Ok n /\ model_number relevant (FAnd xs) n.
Proof.
  intros relevant Hp Nr Ir Kr Hne Hl. destruct (known_hdls _ _ _ _ _ _ Hr Hin Hd) as [W [Hi Ho]]. cbv zeta. unfold count_conjunction_with_vars. intros Hc Hw.
  destruct (x_then _ _ W s _ (fun vs => count_internal alg prime size csize rounds fuelp fuel hs relevant vs) _ (all_variables_spec fuelp hs xs W s Hi Ho Hf) (fun vs => mono_count_internal _ _ _ _ _ _ _ _ _ vs) Hc) as (vs & s1 & W1 & _ & Hi1 & _ & He1 & Hvs & E1).
  rewrite E1 in Hc, Hw |- *.
  destruct (count_conj_main alg prime size csize rounds fuelp fuel hs xs W1 s1 relevant vs Hi1 (hdls_ext _ _ _ _ He1 Ho) Hp Hf HP Hsize Hcsize Hfuel Nr Ir (fun u H => kept_ext _ _ _ He1 (Kr u H)) Hne Hl Hvs Hc Hw) as [E | E]; [now left | right].
  eexists. split; [exact E |]. apply models_number; [assumption |]. rewrite fvars_and. assumption.
Qed.

(** The relevant variables have to contain those of the formulas: otherwise a panic. *)
Theorem C58_superset : forall relevant, ~ incl (flat_map fvars xs) relevant -> let run := count_conjunction_with_vars alg prime size csize rounds fuelp fuel hs relevant s in
  cap (snd run) -> fst run = Panic.
Proof.
  intros relevant Hn. destruct (known_hdls _ _ _ _ _ _ Hr Hin Hd) as [W [Hi Ho]]. cbv zeta. unfold count_conjunction_with_vars. intros Hc.
  destruct (x_then _ _ W s _ (fun vs => count_internal alg prime size csize rounds fuelp fuel hs relevant vs) _ (all_variables_spec fuelp hs xs W s Hi Ho Hf) (fun vs => mono_count_internal _ _ _ _ _ _ _ _ _ vs) Hc) as (vs & s1 & W1 & _ & Hi1 & _ & He1 & Hvs & E1).
  rewrite E1. unfold count_internal. destruct (forallb (fun u => existsb (var_eqb u) relevant) vs) eqn:Ea; [| reflexivity]. exfalso. apply Hn. intros u Hu. rewrite forallb_forall in Ea. apply existsb_var. apply Ea. now apply Hvs.
Qed.

(** Without relevant variables: the number of models over the variables of the formulas. *)
Theorem C58_count : Forall pureable xs -> few_vars s -> (flat_map fvars xs = [] -> Forall (fun x => con_free x = true) xs) ->
  let run := count_conjunction alg prime size csize rounds fuelp fuel hs s in
  cap (snd run) -> few_vars (snd run) -> fst run = NoFuel \/ exists n V, fst run = Ok n /\ NoDup V /\ (forall u, In u V <-> exists x, In x xs /\ In u (fvars x)) /\ model_number V (FAnd xs) n.
Proof.
  intros Hp Hfew Hcf. destruct (known_hdls _ _ _ _ _ _ Hr Hin Hd) as [W [Hi Ho]]. cbv zeta. unfold count_conjunction. intros Hc Hw.
  destruct (x_then _ _ W s _ (fun vs => count_internal alg prime size csize rounds fuelp fuel hs vs vs) _ (all_variables_spec fuelp hs xs W s Hi Ho Hf) (fun vs => mono_count_internal _ _ _ _ _ _ _ _ vs vs) Hc) as (vs & s1 & W1 & _ & Hi1 & _ & He1 & Hvs & E1).
  rewrite E1 in Hc, Hw |- *. clear E1. pose proof (set_nodup _ _ Hvs) as Nvs. pose proof (hdls_ext _ _ _ _ He1 Ho) as Ho1.
  assert (InV : forall u, In u vs <-> exists x, In x xs /\ In u (fvars x)) by (intros u; destruct Hvs as [_ Hvs]; rewrite Hvs; apply in_flat_map).
  assert (Iv : incl (flat_map fvars xs) vs) by (intros u Hu; now apply Hvs).
  destruct (list_eq_dec var_dec (flat_map fvars xs) []) as [E0 | E0].
  - right. assert (vs = []) as -> by (destruct vs as [| u vs]; [reflexivity |]; exfalso; assert (H : In u (flat_map fvars xs)) by (apply Hvs; now left); rewrite E0 in H; destruct H).
    unfold count_internal. cbn [forallb negb]. unfold ret. cbn [fst]. eexists _, []. split; [reflexivity |]. split; [constructor |]. split; [assumption |].
    assert (EV : forall v, forallb is_verum hs = forallb (sem v) xs).
    { intros v. specialize (Hcf E0). clear -Hcf E0 Ho1 Hi1. induction Ho1 as [| h x hs xs Hx Ho1 IH]; [reflexivity |]. cbn [flat_map] in E0. apply app_eq_nil in E0. inversion Hcf as [| ? ? Hcx Hcf']; subst. cbn [forallb].
      rewrite IH by tauto. f_equal. rewrite (is_verum_denotes s1 h x (wf_cap s1 (i_wf _ _ Hi1)) (proj1 Hx) (proj1 (proj2 Hx))).
      destruct (no_vars 3 1 (le_n 3) (le_n 1) x Hcx (handle_doc_ok s1 h x (i_wf _ _ Hi1) (proj1 Hx) (proj1 (proj2 Hx))) (proj1 E0)) as [-> | ->]; reflexivity. }
    destruct (forallb is_verum hs) eqn:Ev.
    + exists [[]]. split; [| reflexivity]. split; [constructor; [intros [] | constructor] |]. split; [intros v _; left; reflexivity |]. intros bs [<- | []]. exists (fun _ => false). split; [reflexivity |]. cbn [sem]. symmetry. apply EV.
    + exists []. split; [| reflexivity]. split; [constructor |]. split; [intros v E; cbn [sem] in E; rewrite <- (EV v) in E; discriminate | intros bs []].
  - assert (Kv : forall u, In u vs -> known s u).
    { intros u Hu. apply InV in Hu. destruct Hu as (x & Hx & Hu). clear -Ho Hx Hu. induction Ho as [| h y hs xs Hy Ho IH]; [destruct Hx |]. destruct Hx as [<- | Hx]; [apply (proj2 (proj2 Hy)); assumption | auto]. }
    destruct (count_conj_main alg prime size csize rounds fuelp fuel hs xs W1 s1 vs vs Hi1 Ho1 Hp Hf HP Hsize Hcsize Hfuel Nvs Iv) as [E | E]; auto.
    { intros u Hu. left. eapply known_ext; [exact He1 | auto]. }
    { assert (N.of_nat (List.length vs) <= 2097151); [| lia]. apply Hfew; assumption. }
    right. eexists _, vs. split; [exact E |]. split; [assumption |]. split; [assumption |]. apply models_number; [assumption |]. rewrite fvars_and. assumption.
Qed.
End Counting.
Print Assumptions C58_with_vars.
Print Assumptions C58_superset.
Print Assumptions C58_count.

(* ------------------------------------------------------------------------------------------------------------------ *)
(** * What does not hold *)

(** Constants only: the relevant variables are ignored.  Verum has four models over two variables. *)
Theorem C58_with_vars_refuted : exists cfg s known os hs xs relevant, xreachable cfg s known os /\ incl hs known /\ Forall2 (denotes s) hs xs /\ NoDup relevant /\ incl (flat_map fvars xs) relevant
  /\ (forall u, In u relevant -> kept s u)
  /\ (forall alg prime size csize rounds fuelp fuel, fst (count_conjunction_with_vars alg prime size csize rounds (S fuelp) fuel hs relevant s) = Ok 1)
  /\ model_number relevant (FAnd xs) 4.
Proof.
  exists default_config, (x_fac ex_c), (x_known ex_c), (x_objs ex_c), [constant true], [FTrue], [VFF 0; VFF 1].
  split; [apply (replay_reach _ ex_ab); vm_compute; reflexivity |]. split; [intros h [<- | []]; apply mem_in; vm_compute; reflexivity |]. split; [constructor; [apply (denotes_const _ true) | constructor] |].
  assert (Hn : NoDup [VFF 0; VFF 1]) by (constructor; [intros [E | []]; discriminate | constructor; [intros [] | constructor]]).
  split; [assumption |]. split; [intros u [] |]. split; [intros u [<- | [<- | []]]; right; eexists; reflexivity |]. split; [reflexivity |].
  apply (models_number [VFF 0; VFF 1] (FAnd [FTrue])); [assumption | intros u []].
Qed.
Print Assumptions C58_with_vars_refuted.

(* ------------------------------------------------------------------------------------------------------------------ *)
(** * Examples *)

(** At most one of A, B, C; A implies D; B or C; not A.  There are 4 models, and 8 with a further variable E.  The literal simplifies the others. *)
Definition ex_conj : list rstep := ex_count ++ [RCall (XCall (CLiteral "A"%string false)); RCall (XCall (CNary false [99; 163]))].
Definition ex_j : xstate := ex_of ex_conj.
Definition ex_jh : list N := [48; 14; 12; 39].
Definition ex_jx : list fml := [FCc (mkCc [VFF 0; VFF 1; VFF 2] LE 1); FImpl (ex_pos 0) (ex_pos 3); FOr [ex_pos 1; ex_pos 2]; FLit (Lit (VFF 0) false)].
Example C58_ex : xreachable default_config (x_fac ex_j) (x_known ex_j) (x_objs ex_j) /\ incl ex_jh (x_known ex_j) /\ Forall2 (denotes (x_fac ex_j)) ex_jh ex_jx /\ Forall pureable ex_jx /\ few_vars (x_fac ex_j)
  /\ Forall (fun x => (depth x < 60)%nat) ex_jx /\ NoDup ex_rel /\ incl (flat_map fvars ex_jx) ex_rel /\ (forall u, In u ex_rel -> kept (x_fac ex_j) u)
  /\ fst (count_conjunction CnfFactorization exprime 30 20 10 60 60 ex_jh (x_fac ex_j)) = Ok 4
  /\ fst (count_conjunction_with_vars CnfFactorization exprime 30 20 10 60 60 ex_jh ex_rel (x_fac ex_j)) = Ok 8
  /\ cap (snd (count_conjunction_with_vars CnfFactorization exprime 30 20 10 60 60 ex_jh ex_rel (x_fac ex_j)))
  /\ few_vars (snd (count_conjunction_with_vars CnfFactorization exprime 30 20 10 60 60 ex_jh ex_rel (x_fac ex_j)))
  /\ model_number ex_rel (FAnd ex_jx) 8.
Proof.
  assert (Hn : NoDup ex_rel) by (repeat constructor; cbn; intuition discriminate). assert (Hi : incl (flat_map fvars ex_jx) ex_rel) by (cbv; intuition).
  split; [apply (replay_reach _ ex_conj); vm_compute; reflexivity |]. split; [intros h [<- | [<- | [<- | [<- | []]]]]; apply mem_in; vm_compute; reflexivity |].
  split; [repeat constructor; apply (tree_of_sound 10); vm_compute; reflexivity |]. split; [repeat constructor |]. split; [apply few_of_number; vm_compute; reflexivity |]. split; [repeat constructor; cbn; lia |].
  split; [assumption |]. split; [assumption |].
  split; [intros u Hu; right; apply in_map_iff in Hu; destruct Hu as (i & <- & _); exists i; reflexivity |].
  split; [vm_compute; reflexivity |]. split; [vm_compute; reflexivity |]. split; [apply cap_b_ok; vm_compute; reflexivity |]. split; [apply few_of_number; vm_compute; reflexivity |].
  apply (models_number ex_rel (FAnd ex_jx)); assumption.
Qed.
(** A literal and its complement; a conjunction of literals; constants. *)
Example C58_ex2 : fst (count_conjunction CnfFactorization exprime 30 20 10 60 60 [35; 39] (x_fac ex_j)) = Ok 0
  /\ fst (count_conjunction_with_vars CnfFactorization exprime 30 20 10 60 60 [35; 99] ex_rel (x_fac ex_j)) = Ok 8
  /\ fst (count_conjunction CnfFactorization exprime 30 20 10 60 60 [constant true; constant false] (x_fac ex_j)) = Ok 0 /\ fst (count_conjunction CnfFactorization exprime 30 20 10 60 60 [] (x_fac ex_j)) = Ok 1.
Proof. vm_compute. repeat split. Qed.
