(** C39, C40, C41: binary decision diagrams. *)
From Coq Require Import NArith ZArith Arith List Bool Lia.
From Verif Require Import Base Syntax FactoryBasics AssignmentModel BddModel BddMake BddBuild BddDen BddCount BddEnum BddHist.
Import ListNotations.
Local Open Scope res_scope.

(** [reached vs cs k held]: a kernel made for the variables [vs] (with or without naming them at once), any table and cache sizes, any
    prime search; [cs] were called on it, and the user holds the BDDs [held], each with the formula it was built from. *)
Definition sizes_ok (vs : list var) (size csize : nat) : Prop := NoDup vs /\ (N.of_nat (length vs) <= 2097151)%N /\ 3 <= size /\ 1 <= csize.
Definition created (prime : nat -> N -> nat) (vs : list var) (size csize : nat) (k : kernel) : Prop :=
  new_kernel prime (length vs) size csize = Ok k \/ new_with_ordering prime vs size csize = Ok k.
Definition reached (vs : list var) (cs : list call) (k : kernel) (held : list (nat * fml)) : Prop :=
  exists prime size csize k0, prime_ok prime /\ sizes_ok vs size csize /\ created prime vs size csize k0 /\
    calls_ok vs (k0, []) cs /\ (qcalls cs < 2147483647)%N /\ run (k0, []) cs = Ok (k, held).

Lemma reached_hist : forall vs cs k held, reached vs cs k held -> hist vs (k, held) /\ (k_qid k < 2147483647)%N.
Proof.
  intros vs cs k held (prime & size & csize & k0 & P & (ND & L & S & C) & Cr & Co & Q & R).
  assert (H0 : hist vs (k0, []) /\ k_qid k0 = 0%N).
  { destruct Cr as [Cr | Cr].
    - destruct (hist_new prime vs size csize P ND L S C) as (k1 & E & H & Q1). rewrite Cr in E. injection E as <-. auto.
    - destruct (hist_ordering prime vs size csize P ND L S C) as (k1 & E & H & Q1). rewrite Cr in E. injection E as <-. auto. }
  destruct H0 as (H0 & Q0). destruct (run_ok vs cs k0 [] H0 Co) as (st & E & H & B); [rewrite Q0; lia | ].
  rewrite R in E. injection E as <-. split; [auto | ]. cbn [fst] in B. rewrite Q0 in B. lia.
Qed.

Lemma den_sem : forall k own n a, api k own -> den k n (fun v => sem v a) -> forall v, value k n v = Ok (sem v a).
Proof. intros k own n a A D v. exact (den_value k own n _ A D v). Qed.

(** Kernels can be created, and no call within the documented use fails. *)
Theorem C39_created : forall prime vs size csize, prime_ok prime -> sizes_ok vs size csize ->
  (exists k, new_kernel prime (length vs) size csize = Ok k) /\ (exists k, new_with_ordering prime vs size csize = Ok k).
Proof.
  intros prime vs size csize P (ND & L & S & C). destruct (hist_new prime vs size csize P ND L S C) as (k & E & _).
  destruct (hist_ordering prime vs size csize P ND L S C) as (k' & E' & _). split; eauto.
Qed.
Print Assumptions C39_created.

Theorem C39_no_panic : forall prime vs size csize k cs, prime_ok prime -> sizes_ok vs size csize -> created prime vs size csize k ->
  calls_ok vs (k, []) cs -> (qcalls cs < 2147483647)%N -> exists st, run (k, []) cs = Ok st.
Proof.
  intros prime vs size csize k cs P (ND & L & S & C) Cr Co Q.
  assert (H0 : hist vs (k, []) /\ k_qid k = 0%N).
  { destruct Cr as [Cr | Cr].
    - destruct (hist_new prime vs size csize P ND L S C) as (k1 & E & H & Q1). rewrite Cr in E. injection E as <-. auto.
    - destruct (hist_ordering prime vs size csize P ND L S C) as (k1 & E & H & Q1). rewrite Cr in E. injection E as <-. auto. }
  destruct H0 as (H0 & Q0). destruct (run_ok vs cs k [] H0 Co) as (st & E & _); [rewrite Q0; lia | ]. eauto.
Qed.
Print Assumptions C39_no_panic.

(* ------------------------------------------------------------------------------------------------------------------ *)
(** * C40: a held BDD keeps its function *)

(** Whatever was called, whatever was collected or resized in between: every BDD the user holds evaluates like its formula. *)
Theorem C40_held : forall vs cs k held, reached vs cs k held -> forall n a, In (n, a) held -> forall v, value k n v = Ok (sem v a).
Proof.
  intros vs cs k held R n a H v. destruct (reached_hist _ _ _ _ R) as (Hh & _). apply (den_sem k (map fst held)); [apply Hh | ].
  apply (h_den _ _ Hh n a H).
Qed.
Print Assumptions C40_held.

(** From any state, any further calls: what was held is still held, and evaluates to the same values. *)
Lemma run_held : forall cs k held st', run (k, held) cs = Ok st' -> exists l, snd st' = l ++ held.
Proof.
  induction cs as [ | c cs IH]; intros k held st' E; unfold run in E; cbn [rfold] in E; [injection E as <-; exists []; auto | ].
  destruct (step (k, held) c) as [[k1 held1] | | ] eqn:Es; cbn [rbind] in E; try discriminate.
  assert (G : exists l, held1 = l ++ held).
  { destruct c as [a | h a | i ls | i us | i us | i | one i | i us | cnf i | i]; cbn [step] in Es.
    - destruct (from_formula k a) as [[k2 n] | | ]; cbn [rbind] in Es; try discriminate. injection Es as _ <-. exists [(n, a)]. auto.
    - destruct (from_formula_h k h a) as [[[k2 h2] o] | | ]; cbn [rbind] in Es; try discriminate. injection Es as _ <-. destruct o as [n | ]; [exists [(n, a)] | exists []]; auto.
    - destruct (nth_error held i) as [[n a] | ]; [ | injection Es as _ <-; exists []; auto].
      destruct (bdd_restrict k n ls) as [[k2 x] | | ]; cbn [rbind] in Es; try discriminate. injection Es as _ <-. exists []. auto.
    - destruct (nth_error held i) as [[n a] | ]; [ | injection Es as _ <-; exists []; auto].
      destruct (bdd_exists k n us) as [[k2 x] | | ]; cbn [rbind] in Es; try discriminate. injection Es as _ <-. exists []. auto.
    - destruct (nth_error held i) as [[n a] | ]; [ | injection Es as _ <-; exists []; auto].
      destruct (bdd_forall k n us) as [[k2 x] | | ]; cbn [rbind] in Es; try discriminate. injection Es as _ <-. exists []. auto.
    - destruct (nth_error held i) as [[n a] | ]; [ | injection Es as _ <-; exists []; auto].
      destruct (sat_count k n) as [[k2 x] | | ]; cbn [rbind] in Es; try discriminate. injection Es as _ <-. exists []. auto.
    - destruct (nth_error held i) as [[n a] | ]; [ | injection Es as _ <-; exists []; auto].
      destruct (if one then path_count_one k n else path_count_zero k n) as [[k2 x] | | ]; cbn [rbind] in Es; try discriminate. injection Es as _ <-. exists []. auto.
    - destruct (nth_error held i) as [[n a] | ]; [ | injection Es as _ <-; exists []; auto].
      destruct (enumerate k n us) as [[k2 x] | | ]; cbn [rbind] in Es; try discriminate. injection Es as _ <-. exists []. auto.
    - destruct (nth_error held i) as [[n a] | ]; [ | injection Es as _ <-; exists []; auto].
      destruct (normal_form k n cnf) as [[k2 x] | | ]; cbn [rbind] in Es; try discriminate. injection Es as _ <-. exists []. auto.
    - destruct (nth_error held i) as [[n a] | ]; [ | injection Es as _ <-; exists []; auto].
      destruct (to_formula k n) as [x | | ]; cbn [rbind] in Es; try discriminate. injection Es as _ <-. exists []. auto. }
  destruct G as (l1 & ->). destruct (IH k1 (l1 ++ held) st' E) as (l2 & ->). exists (l2 ++ l1). apply app_assoc.
Qed.

Lemma rfold_app : forall A B (f : B -> A -> res B) l1 l2 b, rfold f b (l1 ++ l2) = (do b' <- rfold f b l1; rfold f b' l2).
Proof. intros A B f l1. induction l1 as [ | x l1 IH]; intros l2 b; cbn [rfold app rbind]; auto. destruct (f b x) as [y | | ]; cbn [rbind]; auto. Qed.
Lemma calls_ok_app : forall vs cs1 cs2 st st', calls_ok vs st cs1 -> run st cs1 = Ok st' -> calls_ok vs st' cs2 -> calls_ok vs st (cs1 ++ cs2).
Proof.
  intros vs cs1. induction cs1 as [ | c cs1 IH]; intros cs2 st st' C1 R C2; cbn [app]; [cbn in R; injection R as <-; auto | ].
  cbn [calls_ok] in *. destruct C1 as (C & C1). split; [auto | ]. unfold run in R. cbn [rfold] in R. destruct (step st c) as [st1 | | ]; auto. cbn [rbind] in R. eapply IH; eauto.
Qed.

Theorem C40_preserved : forall vs cs k held cs' k' held', reached vs cs k held -> calls_ok vs (k, held) cs' -> (qcalls (cs ++ cs') < 2147483647)%N ->
  run (k, held) cs' = Ok (k', held') ->
  incl held held' /\ forall n a, In (n, a) held -> forall v, value k' n v = value k n v.
Proof.
  intros vs cs k held cs' k' held' R C Q E. destruct (run_held _ _ _ _ E) as (l & El). cbn [snd] in El. subst held'. split; [apply incl_appr; apply incl_refl | ].
  intros n a H v. rewrite (C40_held vs cs k held R n a H). apply (C40_held vs (cs ++ cs') k' (l ++ held)); [ | apply in_or_app; right; auto].
  destruct R as (prime & size & csize & k0 & P & S & Cr & Co & _ & R). exists prime, size, csize, k0. split; [auto | ]. split; [auto | ]. split; [auto | ].
  split; [eapply calls_ok_app; eauto | ]. split; [auto | ]. unfold run in *. rewrite rfold_app, R. cbn [rbind]. auto.
Qed.
Print Assumptions C40_preserved.

(* ------------------------------------------------------------------------------------------------------------------ *)
(** * C39: the operations *)

(** Building a further BDD gives a node for the formula, added to the held ones. *)
Theorem C39_build : forall vs cs k held a, reached vs cs k held -> pure a -> incl (bvars a) vs ->
  exists k' n, from_formula k a = Ok (k', n) /\ (forall v, value k' n v = Ok (sem v a)) /\
    forall m b, In (m, b) held -> forall v, value k' m v = Ok (sem v b).
Proof.
  intros vs cs k held a R P I. destruct (reached_hist _ _ _ _ R) as ([A Ro D] & _). cbn [fst snd] in *.
  destruct (from_formula_den vs a k _ P I A Ro) as (k' & n & E & A' & X & R' & Dn). exists k', n. split; [auto | ]. split; [eapply den_sem; eauto | ].
  intros m b H. eapply den_sem; eauto. eapply den_ext_own; eauto. eapply own_in; eauto.
Qed.
Print Assumptions C39_build.

(** With a handler that stops the construction after some number of added references: the result is either absent or right. *)
Theorem C39_build_handler : forall vs cs k held h a, reached vs cs k held -> pure a -> incl (bvars a) vs ->
  exists k' h' o, from_formula_h k h a = Ok (k', h', o) /\ (o = None -> h <> None) /\
    (forall n, o = Some n -> forall v, value k' n v = Ok (sem v a)) /\
    forall m b, In (m, b) held -> forall v, value k' m v = Ok (sem v b).
Proof.
  intros vs cs k held h a R P I. destruct (reached_hist _ _ _ _ R) as ([A Ro D] & _). cbn [fst snd] in *.
  destruct (from_formula_h_den vs a k h _ P I A Ro) as (k' & h' & o & E & X & R' & Do). exists k', h', o. split; [auto | ]. destruct o as [n | ]; destruct Do as (D1 & D2).
  - split; [discriminate | ]. split; [intros n' En; injection En as <-; eapply den_sem; eauto | ].
    intros m b H. eapply den_sem; eauto. eapply den_ext_own; eauto. eapply own_in; eauto.
  - split; [auto | ]. split; [discriminate | ]. intros m b H. eapply den_sem; eauto. eapply den_ext_own; eauto. eapply own_in; eauto.
Qed.
Print Assumptions C39_build_handler.

(** Equal functions are the same node, and the same node is the same function. *)
Theorem C39_canonical : forall vs cs k held n a m b, reached vs cs k held -> In (n, a) held -> In (m, b) held ->
  ((forall v, sem v a = sem v b) <-> n = m).
Proof.
  intros vs cs k held n a m b R Hn Hm. destruct (reached_hist _ _ _ _ R) as ([A Ro D] & _). cbn [fst snd] in *.
  apply (den_canon k n m (fun v => sem v a) (fun v => sem v b)); auto. apply A.
Qed.
Print Assumptions C39_canonical.

(** A tautology is the node 1, a contradiction the node 0. *)
Theorem C39_constants : forall vs cs k held n a, reached vs cs k held -> In (n, a) held ->
  ((forall v, sem v a = true) <-> n = 1) /\ ((forall v, sem v a = false) <-> n = 0).
Proof.
  intros vs cs k held n a R Hn. destruct (reached_hist _ _ _ _ R) as ([A Ro D] & _). cbn [fst snd] in *. specialize (D n a Hn).
  assert (D1 : den k 1 (fun _ => true)) by (exists BddSpec.BT; split; [apply BddOps.wr_1; apply A | auto]).
  assert (D0 : den k 0 (fun _ => false)) by (exists BddSpec.BF; split; [apply BddOps.wr_0; apply A | auto]).
  split; [apply (den_canon k n 1 _ (fun _ => true)) | apply (den_canon k n 0 _ (fun _ => false))]; auto; apply A.
Qed.
Print Assumptions C39_constants.

(** Restriction: the value under [v] is the value of the formula under [v] overwritten by the literals. *)
Theorem C39_restrict : forall vs cs k held n a ls, reached vs cs k held -> In (n, a) held -> noncontra ls -> incl (map lit_var ls) vs ->
  exists k' m, bdd_restrict k n ls = Ok (k', m) /\ (forall v v', restricts v v' ls -> value k' m v = Ok (sem v' a)) /\
    forall i b, In (i, b) held -> forall v, value k' i v = Ok (sem v b).
Proof.
  intros vs cs k held n a ls R Hn C I. destruct (reached_hist _ _ _ _ R) as ([A Ro D] & Q). cbn [fst snd] in *.
  destruct (restrict_den vs k _ n _ ls A Ro (own_in _ _ _ Hn) (D n a Hn) C I Q) as (k' & x & g & E & A' & X & R' & Dx & G).
  exists k', x. split; [auto | ]. split; [intros v v' H; rewrite (den_value k' _ x g A' Dx v); f_equal; auto | ].
  intros m b H. eapply den_sem; eauto. eapply den_extq_own; eauto. eapply own_in; eauto.
Qed.
Print Assumptions C39_restrict.

Theorem C39_exists : forall vs cs k held n a us, reached vs cs k held -> In (n, a) held -> incl us vs ->
  exists k' m, bdd_exists k n us = Ok (k', m) /\
    (forall v, exists b, value k' m v = Ok b /\ (b = true <-> exists v', same_outside us v v' /\ sem v' a = true)) /\
    forall i b, In (i, b) held -> forall v, value k' i v = Ok (sem v b).
Proof.
  intros vs cs k held n a us R Hn I. destruct (reached_hist _ _ _ _ R) as ([A Ro D] & Q). cbn [fst snd] in *.
  destruct (exists_den vs k _ n _ us A Ro (own_in _ _ _ Hn) (D n a Hn) I Q) as (k' & x & g & E & A' & X & R' & Dx & G).
  exists k', x. split; [auto | ]. split; [intros v; exists (g v); split; [apply (den_value k' _ x g A' Dx v) | apply G] | ].
  intros m b H. eapply den_sem; eauto. eapply den_extq_own; eauto. eapply own_in; eauto.
Qed.
Print Assumptions C39_exists.

Theorem C39_forall : forall vs cs k held n a us, reached vs cs k held -> In (n, a) held -> incl us vs ->
  exists k' m, bdd_forall k n us = Ok (k', m) /\
    (forall v, exists b, value k' m v = Ok b /\ (b = true <-> forall v', same_outside us v v' -> sem v' a = true)) /\
    forall i b, In (i, b) held -> forall v, value k' i v = Ok (sem v b).
Proof.
  intros vs cs k held n a us R Hn I. destruct (reached_hist _ _ _ _ R) as ([A Ro D] & Q). cbn [fst snd] in *.
  destruct (forall_den vs k _ n _ us A Ro (own_in _ _ _ Hn) (D n a Hn) I Q) as (k' & x & g & E & A' & X & R' & Dx & G).
  exists k', x. split; [auto | ]. split; [intros v; exists (g v); split; [apply (den_value k' _ x g A' Dx v) | apply G] | ].
  intros m b H. eapply den_sem; eauto. eapply den_extq_own; eauto. eapply own_in; eauto.
Qed.
Print Assumptions C39_forall.

(** The formula of a BDD, and its normal forms, are equivalent to the formula it was built from; the normal forms have as many terms
    and clauses as [number_of_terms_dnf] and [number_of_clauses_cnf] say. *)
Theorem C39_to_formula : forall vs cs k held n a, reached vs cs k held -> In (n, a) held ->
  exists b, to_formula k n = Ok b /\ forall v, sem v b = sem v a.
Proof.
  intros vs cs k held n a R Hn. destruct (reached_hist _ _ _ _ R) as ([A Ro D] & Q). cbn [fst snd] in *. exact (to_formula_den k _ n _ A (D n a Hn)).
Qed.
Print Assumptions C39_to_formula.

Theorem C39_normal_form : forall vs cs k held n a cnf, reached vs cs k held -> In (n, a) held -> length (k_names k) = k_varnum k ->
  exists k' ts, normal_form k n cnf = Ok (k', ts) /\
    (forall v, (if cnf : bool then forallb (existsb (lit_sem v)) ts else existsb (forallb (lit_sem v)) ts) = sem v a) /\
    (exists k'', (if cnf then path_count_zero k n else path_count_one k n) = Ok (k'', N.of_nat (length ts))).
Proof.
  intros vs cs k held n a cnf R Hn L. destruct (reached_hist _ _ _ _ R) as ([A Ro D] & Q). cbn [fst snd] in *.
  destruct (normal_form_den cnf k _ n _ A (D n a Hn) L) as (ts & E & S & C). eauto.
Qed.
Print Assumptions C39_normal_form.

(* ------------------------------------------------------------------------------------------------------------------ *)
(** * C41: counting and enumeration *)

(** The count is the number of sequences of truth values for the kernel's variable slots under which the formula holds. *)
Theorem C41_count : forall vs cs k held n a, reached vs cs k held -> In (n, a) held ->
  exists k', sat_count k n = Ok (k', N.of_nat (length (filter (fun bs => sem (asg (k_names k) bs) a) (bools (k_varnum k))))) /\
    forall i b, In (i, b) held -> forall v, value k' i v = Ok (sem v b).
Proof.
  intros vs cs k held n a R Hn. destruct (reached_hist _ _ _ _ R) as ([A Ro D] & Q). cbn [fst snd] in *.
  destruct (sat_count_den k _ n _ A (D n a Hn)) as (k' & E & A' & X & N & P). exists k'. split; [exact E | ].
  intros m b H. eapply den_sem; eauto.
Qed.
Print Assumptions C41_count.

(** [bools n] are all sequences of length [n], each once; so the above is a count of assignments. *)
Lemma bools_all : forall n bs, In bs (bools n) <-> length bs = n.
Proof.
  induction n as [ | n IH]; intros bs; cbn [bools].
  - split; [intros [<- | []]; auto | destruct bs; [left; auto | discriminate]].
  - rewrite in_app_iff, !in_map_iff. split.
    + intros [(x & <- & H) | (x & <- & H)]; apply IH in H; cbn [length]; auto.
    + destruct bs as [ | [ | ] bs]; intros H; [discriminate | right | left]; injection H as H; exists bs; split; auto; apply IH; auto.
Qed.
Lemma bools_nodup : forall n, NoDup (bools n).
Proof.
  assert (M : forall b l, NoDup l -> NoDup (map (cons b) l : list (list bool))).
  { intros b l. induction l as [ | x l IH]; intros H; cbn [map]; [constructor | ]. inversion H; subst. constructor; auto. rewrite in_map_iff. intros (y & E & Hy). injection E as <-. auto. }
  induction n as [ | n IH]; cbn [bools]; [constructor; [intros [] | constructor] | ].
  assert (G : forall l1 l2 : list (list bool), NoDup l1 -> NoDup l2 -> (forall x, In x l1 -> ~ In x l2) -> NoDup (l1 ++ l2)).
  { intros l1 l2 H1 H2 H. induction l1 as [ | x l1 IHl]; cbn [app]; auto. inversion H1; subst. constructor.
    - rewrite in_app_iff. intros [Hx | Hx]; [auto | ]. apply (H x (or_introl eq_refl) Hx).
    - apply IHl; auto. intros y Hy. apply H. right. auto. }
  apply G; auto. intros x Hx Hy. apply in_map_iff in Hx. apply in_map_iff in Hy. destruct Hx as (y & <- & _). destruct Hy as (z & E & _). discriminate.
Qed.

(** Enumeration over all variables: every valuation satisfying the formula agrees with exactly one of the models, every other with
    none; and every model decides exactly the kernel's variables. *)
Theorem C41_enumerate : forall vs cs k held n a, reached vs cs k held -> In (n, a) held ->
  exists k' ms, enumerate k n None = Ok (k', ms) /\
    (forall v, length (filter (agrees v) ms) = if sem v a then 1 else 0) /\
    (forall m, In m ms -> forall x, In x (k_names k) <-> In x (m_pos m) \/ In x (m_neg m)).
Proof.
  intros vs cs k held n a R Hn. destruct (reached_hist _ _ _ _ R) as ([A Ro D] & Q). cbn [fst snd] in *.
  destruct (enumerate_all_den k _ n _ A (D n a Hn)) as (ms & E & S & C). eauto.
Qed.
Print Assumptions C41_enumerate.

(** Projected to some of the variables: the models are exactly the projections of the satisfying valuations, but a projection may
    come several times (refuted below). *)
Theorem C41_projected_partial : forall vs cs k held n a us, reached vs cs k held -> In (n, a) held -> incl us (k_names k) ->
  exists k' ms, enumerate k n (Some us) = Ok (k', ms) /\
    (forall v, sem v a = true -> exists m, In m ms /\ agrees v m = true) /\
    (forall m, In m ms -> exists v, sem v a = true /\ agrees v m = true) /\
    (forall m, In m ms -> forall x, In x us <-> In x (m_pos m) \/ In x (m_neg m)).
Proof.
  intros vs cs k held n a us R Hn I. destruct (reached_hist _ _ _ _ R) as ([A Ro D] & Q). cbn [fst snd] in *.
  destruct (enumerate_proj_den k _ n _ us A (D n a Hn) I) as (ms & E & S & T & C). eauto 8.
Qed.
Print Assumptions C41_projected_partial.

(* ------------------------------------------------------------------------------------------------------------------ *)
(** * Examples *)

Definition exprime (i : nat) (n : N) : nat := N.to_nat n.
Lemma exprime_ok : prime_ok exprime.
Proof. intros i old H. unfold exprime. lia. Qed.
Definition xA := VFF 0. Definition xB := VFF 1. Definition xC := VFF 2. Definition xD := VFF 3.
Definition pl v := FLit (Lit v true).
Definition nl v := FLit (Lit v false).
Definition exvs := [xA; xB; xC; xD].
Definition ex1 := FEquiv (pl xA) (FEquiv (pl xB) (FEquiv (pl xC) (pl xD))).
Definition ex2 := FOr [FAnd [pl xA; pl xB]; FAnd [nl xA; pl xD]; FAnd [nl xC; nl xB]].
Definition ex3 := FAnd [FOr [pl xA; pl xB]; FOr [pl xA; nl xD]; FOr [pl xC; nl xB]].
Definition excalls := [CBuild ex1; CRestrict 0 [Lit xC true; Lit xA false]; CBuild ex2; CExists 0 [xB]; CCount 1; CEnum 0 None; CBuildH (Some (0, 3)) ex3;
  CBuild ex3; CForall 1 [xD]; CPaths true 0; CNormal true 1; CFormula 2; CBuild (FNot (FNot ex1)); CEnum 0 (Some [xB])].

(** A run in the smallest possible table: several collections, the aborted construction leaves no BDD, and the two equivalent formulas
    share their node. *)
Example ex_run : exists k0 k held, new_with_ordering exprime exvs 3 2 = Ok k0 /\ run (k0, []) excalls = Ok (k, held) /\ (1 <= k_gbcnum k) /\
  map snd held = [FNot (FNot ex1); ex3; ex2; ex1] /\ nth 0 (map fst held) 0 = nth 3 (map fst held) 0 /\ calls_ok exvs (k0, []) excalls.
Proof.
  destruct (new_with_ordering exprime exvs 3 2) as [k0 | | ] eqn:E0; [ | vm_compute in E0; discriminate | vm_compute in E0; discriminate].
  destruct (run (k0, []) excalls) as [[k held] | | ] eqn:E1.
  2, 3: exfalso; assert (G : match (do k0 <- new_with_ordering exprime exvs 3 2; run (k0, []) excalls) with Ok _ => true | _ => false end = true) by (vm_compute; reflexivity);
    rewrite E0 in G; cbn [rbind] in G; rewrite E1 in G; discriminate.
  exists k0, k, held. split; [auto | ]. split; [auto | ].
  assert (G : match (do k0 <- new_with_ordering exprime exvs 3 2; run (k0, []) excalls) with
    Ok (k, held) => (1 <=? k_gbcnum k) && (nth 0 (map fst held) 0 =? nth 3 (map fst held) 0) | _ => false end = true) by (vm_compute; reflexivity).
  rewrite E0 in G. cbn [rbind] in G. rewrite E1 in G. apply andb_true_iff in G. destruct G as (G1 & G2). apply Nat.leb_le in G1. apply Nat.eqb_eq in G2.
  split; [exact G1 | ]. split; [ | split; [exact G2 | ]].
  - assert (G : (do k0 <- new_with_ordering exprime exvs 3 2; do ' (_, held) <- run (k0, []) excalls; Ok (map snd held)) = Ok [FNot (FNot ex1); ex3; ex2; ex1]) by (vm_compute; reflexivity).
    rewrite E0 in G. cbn [rbind] in G. rewrite E1 in G. cbn [rbind] in G. injection G as G. exact G.
  - vm_compute in E0. injection E0 as <-. clear. vm_compute. repeat split; auto; try congruence; try tauto; intuition (subst; cbn; congruence).
Qed.

Example ex_reached : exists k held, reached exvs excalls k held /\ length held = 4.
Proof.
  destruct ex_run as (k0 & k & held & E0 & E1 & _ & M & _ & C). exists k, held. split.
  - exists exprime, 3, 2, k0. split; [apply exprime_ok | ]. split; [ | split; [right; exact E0 | split; [exact C | split; [vm_compute; reflexivity | exact E1]]]].
    split; [ | split; [vm_compute; discriminate | lia]]. repeat constructor; cbn; intuition discriminate.
  - rewrite <- (map_length snd), M. reflexivity.
Qed.

Definition runk {A} (size : nat) (cs : list call) (g : kernel -> list nat -> res A) : res A :=
  do k0 <- new_with_ordering exprime exvs size 2; do ' (k, held) <- run (k0, []) cs; g k (map fst held).
Definition h0 (l : list nat) := nth 0 l 0.
Definition vals : list valuation :=
  map (asg exvs) (bools 4).

(** [ex2] restricted to [C], [not A] is [D]; quantified; counted; enumerated. *)
Example ex_restrict : runk 3 [CBuild ex2] (fun k l =>
  do ' (k1, m) <- bdd_restrict k (h0 l) [Lit xC true; Lit xA false];
  do ' (k2, d) <- from_formula k1 (pl xD); Ok (m =? d)) = Ok true.
Proof. vm_compute. reflexivity. Qed.
Example ex_exists : runk 3 [CBuild ex2] (fun k l =>
  do ' (k1, m) <- bdd_exists k (h0 l) [xB];
  do ' (k2, d) <- from_formula k1 (FOr [pl xA; pl xD; nl xC]); Ok (m =? d)) = Ok true.
Proof. vm_compute. reflexivity. Qed.
Example ex_forall : runk 3 [CBuild ex2] (fun k l =>
  do ' (k1, m) <- bdd_forall k (h0 l) [xB];
  do ' (k2, d) <- from_formula k1 (FOr [FAnd [nl xA; pl xD]; FAnd [pl xA; nl xC]]); Ok (m =? d)) = Ok true.
Proof. vm_compute. reflexivity. Qed.
Example ex_count : runk 3 [CBuild ex2] (fun k l => do ' (k1, c) <- sat_count k (h0 l); do ' (k2, ms) <- enumerate k1 (h0 l) None;
  Ok (c, length ms, length (filter (fun v => sem v ex2) vals))) = Ok (11%N, 11, 11).
Proof. vm_compute. reflexivity. Qed.
Example ex_normal : runk 3 [CBuild ex2] (fun k l => do ' (k1, d) <- normal_form k (h0 l) false; do ' (k2, c) <- normal_form k1 (h0 l) true;
  Ok (forallb (fun v => Bool.eqb (existsb (forallb (lit_sem v)) d) (sem v ex2) && Bool.eqb (forallb (existsb (lit_sem v)) c) (sem v ex2)) vals)) = Ok true.
Proof. vm_compute. reflexivity. Qed.

(* ------------------------------------------------------------------------------------------------------------------ *)
(** * What does not hold *)

(** The results of [restrict], [exists] and [for_all] are not protected: a later construction may collect and reuse the nodes of a
    BDD the user still holds.  Here the restriction of [ex1] is false under the empty assignment, and true after two more formulas
    have been built in the same kernel. *)
Theorem C40_restrict_result_refuted : exists k1 k2 n m st,
  runk 10 [CBuild ex1] (fun k l => Ok (k, h0 l)) = Ok (k1, n) /\ bdd_restrict k1 n [Lit xC true] = Ok (k2, m) /\
  value k2 m (fun _ => false) = Ok false /\
  run (k2, [(n, ex1)]) [CBuild ex2; CBuild ex3] = Ok st /\ value (fst st) m (fun _ => false) = Ok true.
Proof.
  assert (G : match (do ' (k1, n) <- runk 10 [CBuild ex1] (fun k l => Ok (k, h0 l)); do ' (k2, m) <- bdd_restrict k1 n [Lit xC true];
      do a <- value k2 m (fun _ => false); do st <- run (k2, [(n, ex1)]) [CBuild ex2; CBuild ex3]; do b <- value (fst st) m (fun _ => false); Ok (a, b)) with
    Ok (false, true) => true | _ => false end = true) by (vm_compute; reflexivity).
  destruct (runk 10 [CBuild ex1] (fun k l => Ok (k, h0 l))) as [[k1 n] | | ]; cbn [rbind] in G; try discriminate.
  destruct (bdd_restrict k1 n [Lit xC true]) as [[k2 m] | | ] eqn:E2; cbn [rbind] in G; try discriminate.
  destruct (value k2 m (fun _ => false)) as [a | | ] eqn:E3; cbn [rbind] in G; try discriminate.
  destruct (run (k2, [(n, ex1)]) [CBuild ex2; CBuild ex3]) as [st | | ] eqn:E4; cbn [rbind] in G; try discriminate.
  destruct (value (fst st) m (fun _ => false)) as [b | | ] eqn:E5; cbn [rbind] in G; try discriminate.
  exists k1, k2, n, m, st. destruct a, b; try discriminate. auto 8.
Qed.
Print Assumptions C40_restrict_result_refuted.

(** Enumeration projected to some variables can yield a model twice: [A or B] projected to [B]. *)
Theorem C41_projected_unique_refuted : exists k n k' ms, runk 10 [CBuild (FOr [pl xA; pl xB])] (fun k l => Ok (k, h0 l)) = Ok (k, n) /\
  enumerate k n (Some [xB]) = Ok (k', ms) /\ ms = [mkModel [xB] []; mkModel [] [xB]; mkModel [xB] []].
Proof.
  assert (G : (do ' (k, n) <- runk 10 [CBuild (FOr [pl xA; pl xB])] (fun k l => Ok (k, h0 l)); do ' (_, ms) <- enumerate k n (Some [xB]); Ok ms) =
    Ok [mkModel [xB] []; mkModel [] [xB]; mkModel [xB] []]) by (vm_compute; reflexivity).
  destruct (runk 10 [CBuild (FOr [pl xA; pl xB])] (fun k l => Ok (k, h0 l))) as [[k n] | | ]; cbn [rbind] in G; try discriminate.
  destruct (enumerate k n (Some [xB])) as [[k' ms] | | ] eqn:E2; cbn [rbind] in G; try discriminate. injection G as G.
  exists k, n, k', ms. split; [reflexivity | ]. split; [exact E2 | exact G].
Qed.
Print Assumptions C41_projected_unique_refuted.

(** A kernel with more variable slots than variables seen so far: the normal forms and the variable profile panic, although the BDD is
    fine. *)
Theorem C39_normal_form_unnamed_refuted : exists k0 k n, new_kernel exprime 2 10 2 = Ok k0 /\ from_formula k0 (pl xA) = Ok (k, n) /\
  normal_form k n true = Panic /\ normal_form k n false = Panic /\ bdd_variable_profile k n = Panic.
Proof.
  assert (G : match (do k0 <- new_kernel exprime 2 10 2; do ' (k, n) <- from_formula k0 (pl xA); Ok (normal_form k n true, normal_form k n false, bdd_variable_profile k n)) with
    Ok (Panic, Panic, Panic) => true | _ => false end = true) by (vm_compute; reflexivity).
  destruct (new_kernel exprime 2 10 2) as [k0 | | ]; cbn [rbind] in G; try discriminate.
  destruct (from_formula k0 (pl xA)) as [[k n] | | ] eqn:E; cbn [rbind] in G; try discriminate.
  exists k0, k, n. split; [auto | ]. split; [auto | ].
  destruct (normal_form k n true); try discriminate. destruct (normal_form k n false); try discriminate. destruct (bdd_variable_profile k n); try discriminate. auto.
Qed.
Print Assumptions C39_normal_form_unnamed_refuted.

(** A contradictory restriction is ignored: [A] restricted by [B, not B, not A] is [A]. *)
Theorem C39_contradictory_restrict_refuted : exists k n k', runk 10 [CBuild (pl xA)] (fun k l => Ok (k, h0 l)) = Ok (k, n) /\
  bdd_restrict k n [Lit xB true; Lit xB false; Lit xA false] = Ok (k', n) /\ value k' n (fun _ => true) = Ok true.
Proof.
  assert (G : match (do ' (k, n) <- runk 10 [CBuild (pl xA)] (fun k l => Ok (k, h0 l)); do ' (k', m) <- bdd_restrict k n [Lit xB true; Lit xB false; Lit xA false];
      do a <- value k' n (fun _ => true); Ok (a && (m =? n))) with Ok true => true | _ => false end = true) by (vm_compute; reflexivity).
  destruct (runk 10 [CBuild (pl xA)] (fun k l => Ok (k, h0 l))) as [[k n] | | ]; cbn [rbind] in G; try discriminate.
  destruct (bdd_restrict k n _) as [[k' m] | | ] eqn:E2; cbn [rbind] in G; try discriminate.
  destruct (value k' n (fun _ => true)) as [a | | ] eqn:E3; cbn [rbind] in G; try discriminate.
  destruct (a && (m =? n)) eqn:E4; try discriminate. apply andb_true_iff in E4. destruct E4 as (-> & E4). apply Nat.eqb_eq in E4. subst m.
  exists k, n, k'. auto.
Qed.
Print Assumptions C39_contradictory_restrict_refuted.

(** Projecting to a variable the kernel has not seen panics. *)
Theorem C41_unknown_variable_refuted : exists k0 k n, new_kernel exprime 2 10 2 = Ok k0 /\ from_formula k0 (pl xA) = Ok (k, n) /\ enumerate k n (Some [xB]) = Panic.
Proof.
  assert (G : match (do k0 <- new_kernel exprime 2 10 2; do ' (k, n) <- from_formula k0 (pl xA); Ok (enumerate k n (Some [xB]))) with
    Ok Panic => true | _ => false end = true) by (vm_compute; reflexivity).
  destruct (new_kernel exprime 2 10 2) as [k0 | | ]; cbn [rbind] in G; try discriminate.
  destruct (from_formula k0 (pl xA)) as [[k n] | | ] eqn:E; cbn [rbind] in G; try discriminate.
  exists k0, k, n. split; [auto | ]. split; [auto | ]. destruct (enumerate k n (Some [xB])); try discriminate. auto.
Qed.
Print Assumptions C41_unknown_variable_refuted.

(** The set counter: the reset in [restrict] is at 2^31 - 1, that in [exists] and [for_all] at 2^32 - 1, so the counter can pass the
    former; then restriction does nothing any more.  Here the counter of a kernel is set to the value it has after that many calls. *)
Theorem C39_counter_refuted : exists k n k', runk 10 [CBuild (pl xA)] (fun k l => Ok (k, h0 l)) = Ok (k, n) /\
  bdd_restrict (s_qset (k_qset k) 2147483648 (k_qlast k) k) n [Lit xA false] = Ok (k', n) /\ value k' n (fun _ => true) = Ok true.
Proof.
  assert (G : match (do ' (k, n) <- runk 10 [CBuild (pl xA)] (fun k l => Ok (k, h0 l)); do ' (k', m) <- bdd_restrict (s_qset (k_qset k) 2147483648 (k_qlast k) k) n [Lit xA false];
      do a <- value k' n (fun _ => true); Ok (a && (m =? n))) with Ok true => true | _ => false end = true) by (vm_compute; reflexivity).
  destruct (runk 10 [CBuild (pl xA)] (fun k l => Ok (k, h0 l))) as [[k n] | | ]; cbn [rbind] in G; try discriminate.
  destruct (bdd_restrict (s_qset (k_qset k) 2147483648 (k_qlast k) k) n _) as [[k' m] | | ] eqn:E2; cbn [rbind] in G; try discriminate.
  destruct (value k' n (fun _ => true)) as [a | | ] eqn:E3; cbn [rbind] in G; try discriminate.
  destruct (a && (m =? n)) eqn:E4; try discriminate. apply andb_true_iff in E4. destruct E4 as (-> & E4). apply Nat.eqb_eq in E4. subst m.
  exists k, n, k'. auto.
Qed.
Print Assumptions C39_counter_refuted.
