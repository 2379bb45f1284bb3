(** C30, C31: the UB tree and subsumption. *)
From Coq Require Import NArith List Bool Arith Lia Sorted.
From Verif Require Import Base EncodingModel Syntax FactoryModel FactoryBasics FactoryInv FactoryOps EvalProofs InvariantSpec InvariantProofs ConstraintModel OpsModel OpsProofs
  CacheModel TransModel TreeSpec WorldProofs MetricsProofs NnfProofs CnfProofs DefBasics XHistory XHistoryProofs XReplay HistoryModel Properties_Factory Properties_Trans
  UbTreeModel UbTreeProofs SubsumptionProofs.
Import ListNotations.

(* ------------------------------------------------------------------------------------------------------------------ *)
(** * C31: the UB tree stores exactly the added sets and answers subset queries *)

(** All calls of [add_set] in a row. *)
Fixpoint add_all {T} (ltb eqb : T -> T -> bool) (sets : list (list T)) (t : @ubtree T) : res ubtree :=
  match sets with [] => Ok t | s :: r => rbind (add_set ltb eqb s t) (add_all ltb eqb r) end.

(** [order] picks the order in which the matching children are visited (a hash map decides it in the code): any order is allowed. *)
Section UbTree.
  Context {T : Type} (ltb eqb : T -> T -> bool).
  Hypothesis ltb_trans : forall x y z, ltb x y = true -> ltb y z = true -> ltb x z = true.
  Hypothesis ltb_irrefl : forall x, ltb x x = false.
  Hypothesis ltb_total : forall x y, ltb x y = false -> eqb x y = false -> ltb y x = true.
  Hypothesis eqb_spec : forall x y, eqb x y = true <-> x = y.
  Variable order : list T -> nat -> list nat -> list nat.
  Hypothesis order_same : forall q j l n, In n (order q j l) <-> In n l.

  Definition increasing (l : list T) : Prop := StronglySorted (fun x y => ltb x y = true) l.

  Lemma add_all_ok : forall sets t W, ubinv ltb t W -> Forall increasing sets ->
    exists t' W', add_all ltb eqb sets t = Ok t' /\ ubinv ltb t' W' /\ forall s, stored t' s <-> stored t s \/ In s sets /\ s <> [].
  Proof.
    induction sets as [| s sets IH]; intros t W I F; cbn [add_all].
    - exists t, W. split; [reflexivity |]. split; [assumption |]. intros s. cbn. tauto.
    - inversion F as [| ? ? F1 F2]; subst. destruct (add_set_ok ltb eqb ltb_trans ltb_irrefl ltb_total eqb_spec t W s I F1) as (t1 & W1 & E1 & I1 & S1).
      rewrite E1. cbn [rbind]. destruct (IH t1 W1 I1 F2) as (t2 & W2 & E2 & I2 & S2). exists t2, W2. split; [exact E2 |]. split; [exact I2 |].
      intros a. rewrite S2, S1. cbn [In]. split.
      + intros [[K | [-> K]] | [K1 K2]]; auto.
      + intros [K | [[-> | K1] K2]]; auto.
  Qed.

  Theorem C31_ubtree : forall sets q, Forall increasing sets -> increasing q ->
    exists t, add_all ltb eqb sets ub_new = Ok t
    /\ (exists o, first_subset eqb order t q = Ok o
        /\ match o with
           | Some s => In s sets /\ s <> [] /\ incl s q
           | None => forall s, In s sets -> s <> [] -> ~ incl s q
           end)
    /\ (exists all, all_sets ltb eqb t = Ok all /\ NoDup all /\ forall s, In s all <-> In s sets /\ s <> []).
  Proof.
    intros sets q F Q. destruct (add_all_ok sets ub_new [] (inv_new ltb) F) as (t & W & E & I & S).
    assert (S' : forall s, stored t s <-> In s sets /\ s <> []) by (intros s; rewrite S; split; [intros [(nd & [] & _) | K]; exact K | auto]).
    exists t. split; [exact E |]. split.
    - destruct (first_subset_ok ltb eqb ltb_trans ltb_irrefl eqb_spec order order_same t W q I Q) as (o & Eo & Ho). exists o. split; [exact Eo |].
      destruct o as [s |]; [destruct Ho as [H1 H2]; apply S' in H1; tauto |]. intros s H1 H2. apply Ho, S'. auto.
    - destruct (all_sets_ok ltb eqb ltb_trans ltb_irrefl ltb_total eqb_spec t W I) as (all & Ea & Sa & Ia). exists all. split; [exact Ea |]. split; [| intros s; rewrite Ia; apply S'].
      assert (Irr : forall a, lex_ltb ltb eqb a a = false) by (intros a; apply (lex_irrefl ltb eqb); auto).
      clear -Sa Irr. induction Sa as [| a l Sa IH Fa]; constructor; [| exact IH]. intros K. rewrite Forall_forall in Fa. specialize (Fa a K). cbn beta in Fa. rewrite Irr in Fa. discriminate.
  Qed.
  (** The enumeration is sorted lexicographically, so it does not depend on the order of the insertions. *)
  Theorem C31_canonical : forall sets sets' t t', Forall increasing sets -> Forall increasing sets' -> (forall s, In s sets <-> In s sets') ->
    add_all ltb eqb sets ub_new = Ok t -> add_all ltb eqb sets' ub_new = Ok t' -> all_sets ltb eqb t = all_sets ltb eqb t'.
  Proof.
    intros sets sets' t t' F F' Same E E'.
    destruct (add_all_ok sets ub_new [] (inv_new ltb) F) as (t1 & W & E1 & I & S). rewrite E in E1. injection E1 as <-.
    destruct (add_all_ok sets' ub_new [] (inv_new ltb) F') as (t1 & W' & E1' & I' & S'). rewrite E' in E1'. injection E1' as <-.
    destruct (all_sets_ok ltb eqb ltb_trans ltb_irrefl ltb_total eqb_spec t W I) as (l & El & Sl & Il).
    destruct (all_sets_ok ltb eqb ltb_trans ltb_irrefl ltb_total eqb_spec t' W' I') as (l' & El' & Sl' & Il'). rewrite El, El'. f_equal.
    assert (Eq : forall s, In s l <-> In s l').
    { intros s. rewrite Il, Il', S, S'. split; (intros [(nd & [] & _) | [K1 K2]]; right; split; [apply Same; exact K1 | exact K2]). }
    assert (Irr : forall a, lex_ltb ltb eqb a a = false) by (intros a; apply (lex_irrefl ltb eqb); auto).
    assert (Tr : forall a b c, lex_ltb ltb eqb a b = true -> lex_ltb ltb eqb b c = true -> lex_ltb ltb eqb a c = true)
      by (intros; eapply (lex_trans ltb eqb); eauto).
    clear -Eq Sl Sl' Irr Tr. revert l' Sl' Eq. induction Sl as [| a l Sl IH Fa]; intros l' Sl' Eq.
    - destruct l' as [| b l']; [reflexivity |]. exfalso. apply (Eq b). now left.
    - destruct Sl' as [| b l' Sl' Fb]; [exfalso; apply (Eq a); now left |].
      rewrite Forall_forall in Fa, Fb. cbn beta in *.
      assert (a = b).
      { destruct (proj1 (Eq a) (or_introl eq_refl)) as [-> | Ha]; [reflexivity |]. destruct (proj2 (Eq b) (or_introl eq_refl)) as [-> | Hb]; [reflexivity |].
        exfalso. pose proof (Tr _ _ _ (Fa b Hb) (Fb a Ha)) as K. rewrite Irr in K. discriminate. }
      subst b. f_equal. apply IH; [exact Sl' |]. intros s. split; intros Hs.
      + destruct (proj1 (Eq s) (or_intror Hs)) as [<- | K]; [| exact K]. specialize (Fa a Hs). rewrite Irr in Fa. discriminate.
      + destruct (proj2 (Eq s) (or_intror Hs)) as [<- | K]; [| exact K]. specialize (Fb a Hs). rewrite Irr in Fb. discriminate.
  Qed.
End UbTree.
Print Assumptions C31_ubtree.
Print Assumptions C31_canonical.

Definition ex_sets : list (list nat) := [[1; 3; 5]; [2; 4]; [1; 3]; [2; 4; 6]; [7]].
Example C31_ex :
  match add_all Nat.ltb Nat.eqb ex_sets ub_new with
  | Ok t => first_subset Nat.eqb (fun _ _ l => l) t [0; 1; 2; 3; 6] = Ok (Some [1; 3])
      /\ first_subset Nat.eqb (fun _ _ l => rev l) t [1; 2; 5; 6] = Ok None
      /\ all_sets Nat.ltb Nat.eqb t = Ok [[1; 3]; [1; 3; 5]; [2; 4]; [2; 4; 6]; [7]]
  | _ => False
  end
  /\ Forall (increasing Nat.ltb) ex_sets.
Proof. split; [vm_compute; auto |]. repeat constructor. Qed.

(* ------------------------------------------------------------------------------------------------------------------ *)
(** * C30: subsumption keeps the meaning and leaves no subsumed clause or term *)

Local Open Scope N_scope.
(** The clauses of a CNF ([conj]) or the terms of a DNF. *)
Definition parts (conj : bool) (x : fml) : list fml :=
  match x with
  | FTrue | FFalse => []
  | FAnd l => if conj then l else [x]
  | FOr l => if conj then [x] else l
  | _ => [x]
  end.
Definition same_lits (c d : fml) : Prop := forall l, In l (flits c) <-> In l (flits d).
Definition no_subsumed (conj : bool) (y : fml) : Prop :=
  forall c d, In c (parts conj y) -> In d (parts conj y) -> incl (flits c) (flits d) -> same_lits c d.
Definition orders (ord : list lit -> nat -> list nat -> list nat) : Prop := forall q j l n, In n (ord q j l) <-> In n l.

Lemma parts_fnary : forall conj l, parts conj (fnary conj l) = l.
Proof. intros [] l; reflexivity. Qed.
Lemma parts_nclause : forall conj u, nclause conj u = true -> parts conj u = [u].
Proof. intros conj u H. apply nclause_cases in H. destruct H as [(l & ->) | (ls & ->)]; destruct conj; reflexivity. Qed.

Lemma subsumption_any : forall conj ord cfg s known os h x fuel, orders ord -> xreachable cfg s known os -> In h known -> denotes s h x ->
  nf conj x = true -> (depth x <= fuel)%nat ->
  returns (subsumption ord conj fuel h) s (fun r s' => exists y, denotes s' r y /\ (if conj then is_cnf_form y else is_dnf_form y) /\ equivalent x y
    /\ no_subsumed conj y /\ forall c, In c (parts conj y) -> exists d, In d (parts conj x) /\ same_lits c d).
Proof.
  intros conj ord cfg s known os h x fuel Ho Hr Hin Hd Hn Hf. destruct (known_hdl _ _ _ _ _ _ Hr Hin Hd) as [W [Hi [Hx _]]].
  eapply x_returns; [apply (subsumption_spec ord Ho conj fuel x W s h Hi Hx Hn Hf) |].
  intros r s' W' _ _ (y & Hy & [[<- Hne] | (xs & -> & Sy)]); exists y || exists x; (split; [apply Hy |]).
  - split; [apply nf_form; exact Hn |]. split; [split; [auto | apply incl_refl] |]. split.
    + apply nf_cases in Hn. destruct Hn as [-> | [-> | [Hn | (l & -> & _)]]]; try (intros c d [] _).
      * intros c d. rewrite (parts_nclause _ _ Hn). intros [<- | []] [<- | []] _ l. tauto.
      * exfalso. exact (Hne l eq_refl).
    + intros c Hc. exists c. split; [assumption |]. intros l. tauto.
  - destruct Sy as (S1 & S2 & S3 & S4). split; [apply nf_form; exact S3 |]. split.
    + split; [intros v; rewrite S1; destruct conj; reflexivity |]. rewrite fvars_fnary. exact S2.
    + rewrite parts_fnary. destruct S4 as [-> | [-> | (us & Hus & Fu & Hu & Ha)]]; try (split; [intros c d [] | intros c []]).
      assert (Ep : parts conj y = us).
      { destruct Hus as [-> | ->]; [apply parts_fnary |]. apply parts_nclause. inversion Fu; assumption. }
      unfold no_subsumed. rewrite Ep. split; [| exact Hu]. intros c d Hc Hd' Hcd l. split; [apply Hcd | apply (Ha c d Hc Hd' Hcd)].
Qed.

(** The functions [cnf_subsumption] and [dnf_subsumption]. *)
Theorem C30_cnf : forall ord cfg s known os h x fuel, orders ord -> xreachable cfg s known os -> In h known -> denotes s h x ->
  is_cnf_form x -> (depth x <= fuel)%nat ->
  returns (subsumption ord true fuel h) s (fun r s' => exists y, denotes s' r y /\ is_cnf_form y /\ equivalent x y
    /\ no_subsumed true y /\ forall c, In c (parts true y) -> exists d, In d (parts true x) /\ same_lits c d).
Proof. intros ord cfg s known os h x fuel Ho Hr Hin Hd Hn Hf. apply (subsumption_any true ord cfg s known os h x fuel); auto. apply cnf_shape_form. exact Hn. Qed.
Print Assumptions C30_cnf.
Theorem C30_dnf : forall ord cfg s known os h x fuel, orders ord -> xreachable cfg s known os -> In h known -> denotes s h x ->
  is_dnf_form x -> (depth x <= fuel)%nat ->
  returns (subsumption ord false fuel h) s (fun r s' => exists y, denotes s' r y /\ is_dnf_form y /\ equivalent x y
    /\ no_subsumed false y /\ forall c, In c (parts false y) -> exists d, In d (parts false x) /\ same_lits c d).
Proof. intros ord cfg s known os h x fuel Ho Hr Hin Hd Hn Hf. apply (subsumption_any false ord cfg s known os h x fuel); auto. apply dnf_shape_form. exact Hn. Qed.
Print Assumptions C30_dnf.
(** A formula that is not in normal form is refused with a panic. *)
Theorem C30_refuses : forall (cnf : bool) ord cfg s known os h x fuel, xreachable cfg s known os -> In h known -> denotes s h x ->
  ~ (if cnf then is_cnf_form x else is_dnf_form x) -> cap (snd (subsumption ord cnf fuel h s)) -> fst (subsumption ord cnf fuel h s) = Panic.
Proof.
  intros cnf ord cfg s known os h x fuel Hr Hin Hd Hn Hc. destruct (known_hdl _ _ _ _ _ _ Hr Hin Hd) as [W [Hi [Hx _]]].
  apply (subsumption_panics ord cnf fuel x W s h Hi Hx); [| exact Hc]. destruct (nf cnf x) eqn:E; [| reflexivity]. exfalso. apply Hn. apply (nf_form cnf x E).
Qed.
Print Assumptions C30_refuses.

Definition ex_30_steps : list rstep := ex_base ++ [RCall (XFactorization true 40 12); RCall (XFactorization false 40 12)].
Definition ex_30 : xstate := ex_of ex_30_steps.
Lemma ex_30_ok : xreachable default_config (x_fac ex_30) (x_known ex_30) (x_objs ex_30).
Proof. apply (replay_reach _ ex_30_steps). vm_compute. reflexivity. Qed.
Definition ex_30_r : N := Eval vm_compute in match fst (subsumption (fun _ _ l => l) true 10 331 (x_fac ex_30)) with Ok r => r | _ => 0 end.
Example C30_ex : existsb (N.eqb 331) (x_known ex_30) = true
  /\ tree_of 10 (x_fac ex_30) 331 = Some (FAnd [FOr [FLit (Lit (VFF 2) false); ex_A]; FOr [ex_B; FLit (Lit (VFF 2) false); ex_A]])
  /\ fst (subsumption (fun _ _ l => l) true 10 331 (x_fac ex_30)) = Ok ex_30_r
  /\ tree_of 10 (snd (subsumption (fun _ _ l => l) true 10 331 (x_fac ex_30))) ex_30_r = Some (FOr [FLit (Lit (VFF 2) false); ex_A])
  /\ fst (subsumption (fun _ _ l => l) true 10 12 (x_fac ex_30)) = Panic.
Proof. vm_compute. auto. Qed.
