(** C19, C28, C29, C46, C47, C49: metrics, caches, anonymizer, pure expansion and handlers, in every state a factory can get into. *)
From Coq Require Import NArith ZArith List Bool Arith Lia Sorted.
From Coq Require Import String.
From Verif Require Import Base EncodingModel EncodingProofs Syntax FactoryModel FactoryInv FactoryBasics FactoryProofs FactorySpecs FactoryNary FactoryOps
  EvalProofs InvariantSpec InvariantProofs HistoryModel HistoryProofs ConstraintModel ConstraintProofs OpsModel OpsProofs CcModel EncBasics CcFrontProofs PbModel
  CacheModel TransModel TreeSpec WorldProofs MetricsProofs EncodeProofs NnfProofs CnfProofs HandlerProofs DefBasics TseitinProofs PgProofs EncoderProofs
  PureProofs AnonProofs XHistory XHistoryProofs XReplay Properties_Factory Properties_Trans.
Import ListNotations.
Local Open Scope list_scope.
Local Open Scope N_scope.

(* ------------------------------------------------------------------------------------------------------------------ *)
(** * C28: variables and literals *)

Theorem C28_variables : forall cfg s known os h x fuel, xreachable cfg s known os -> In h known -> denotes s h x -> (depth x < fuel)%nat ->
  returns (variables fuel h) s (fun l s' => denotes s' h x /\ StronglySorted (fun a b => var_ltb a b = true) l /\ forall u, In u l <-> In u (fvars x)).
Proof.
  intros cfg s known os h x fuel Hr Hin Hd Hf. destruct (known_hdl _ _ _ _ _ _ Hr Hin Hd) as [W [Hi [Hx _]]].
  eapply x_returns; [apply (variables_spec fuel x W); auto; apply Hx |]. intros l s' W' _ He [H1 H2]. split; [exact (denotes_ext _ _ _ _ He Hd) |]. split; assumption.
Qed.
Print Assumptions C28_variables.
Theorem C28_literals : forall cfg s known os h x fuel, xreachable cfg s known os -> In h known -> denotes s h x -> (depth x < fuel)%nat ->
  returns (literals fuel h) s (fun l s' => denotes s' h x /\ StronglySorted (fun a b => lit_ltb a b = true) l /\ forall k, In k l <-> In k (flits x)).
Proof.
  intros cfg s known os h x fuel Hr Hin Hd Hf. destruct (known_hdl _ _ _ _ _ _ Hr Hin Hd) as [W [Hi [Hx _]]].
  eapply x_returns; [apply (literals_spec fuel x W); auto; apply Hx |]. intros l s' W' _ He [H1 H2]. split; [exact (denotes_ext _ _ _ _ He Hd) |]. split; assumption.
Qed.
Print Assumptions C28_literals.
(** Evaluation depends on these variables only. *)
Theorem C28_evaluation : forall x v w, (forall u, In u (fvars x) -> w u = v u) -> sem w x = sem v x.
Proof. exact sem_fvars. Qed.
Print Assumptions C28_evaluation.
Theorem C28_contains_variable : forall cfg s known os h x fuel u, xreachable cfg s known os -> In h known -> denotes s h x -> (N.to_nat (nodes x) <= fuel)%nat ->
  exists b, contains_var fuel u h s = (Ok b, s) /\ (b = true <-> In u (fvars x)).
Proof.
  intros cfg s known os h x fuel u Hr Hin Hd Hf. destruct (known_hdl _ _ _ _ _ _ Hr Hin Hd) as [W [Hi [Hx _]]].
  apply (contains_var_spec fuel u x W); auto. apply Hx.
Qed.
Print Assumptions C28_contains_variable.
(** The variable profile: how often each variable occurs as a leaf or in a constraint. *)
Theorem C28_profile : forall cfg s known os h x fuel, xreachable cfg s known os -> In h known -> denotes s h x -> (depth x < fuel)%nat ->
  returns (variable_profile_rec fuel h []) s (fun m _ => profile m (fvars x)).
Proof.
  intros cfg s known os h x fuel Hr Hin Hd Hf. destruct (known_hdl _ _ _ _ _ _ Hr Hin Hd) as [W [Hi [Hx _]]].
  eapply x_returns; [apply (variable_profile_spec fuel x W s h [] []); auto; [apply Hx |] |].
  - split; [constructor | intros u; reflexivity].
  - intros m s' W' _ _ H. exact H.
Qed.
Print Assumptions C28_profile.
Example C28_ex : fst (variables 20 12 (x_fac ex_b)) = Ok [VFF 0; VFF 1; VFF 2] /\ fst (variables 20 12 (x_fac ex_u)) = Ok [VFF 0; VFF 1; VFF 2]
  /\ fst (literals 20 332 (x_fac ex_u)) = Ok [Lit (VFF 0) true; Lit (VFF 1) true; Lit (VFF 2) true; Lit (VFF 0) false; Lit (VFF 1) false; Lit (VFF 2) false]
  /\ fst (contains_var 40 (VFF 2) 12 (x_fac ex_b)) = Ok true /\ fst (contains_var 40 (VFF 3) 12 (x_fac ex_b)) = Ok false.
Proof. vm_compute. auto 10. Qed.

(* ------------------------------------------------------------------------------------------------------------------ *)
(** * C29: metrics *)

Theorem C29_atoms : forall cfg s known os h x fuel, xreachable cfg s known os -> In h known -> denotes s h x -> (depth x < fuel)%nat -> atoms x < 2 ^ 64 ->
  returns (number_of_atoms fuel h) s (fun n _ => n = atoms x).
Proof.
  intros cfg s known os h x fuel Hr Hin Hd Hf Hb. destruct (known_hdl _ _ _ _ _ _ Hr Hin Hd) as [W [Hi [Hx _]]].
  eapply x_returns; [apply (number_of_atoms_spec fuel x W); auto; apply Hx |]. intros n s' W' _ _ ->. apply N.mod_small. exact Hb.
Qed.
Print Assumptions C29_atoms.
Theorem C29_nodes : forall cfg s known os h x fuel, xreachable cfg s known os -> In h known -> denotes s h x -> (depth x < fuel)%nat -> nodes x < 2 ^ 64 ->
  returns (number_of_nodes fuel h) s (fun n _ => n = nodes x).
Proof.
  intros cfg s known os h x fuel Hr Hin Hd Hf Hb. destruct (known_hdl _ _ _ _ _ _ Hr Hin Hd) as [W [Hi [Hx _]]].
  eapply x_returns; [apply (number_of_nodes_spec fuel x W); auto; apply Hx |]. intros n s' W' _ _ ->. apply N.mod_small. exact Hb.
Qed.
Print Assumptions C29_nodes.
Theorem C29_depth : forall cfg s known os h x fuel, xreachable cfg s known os -> In h known -> denotes s h x -> (depth x < fuel)%nat ->
  returns (formula_depth fuel h) s (fun n _ => n = N.of_nat (depth x)).
Proof.
  intros cfg s known os h x fuel Hr Hin Hd Hf. destruct (known_hdl _ _ _ _ _ _ Hr Hin Hd) as [W [Hi [Hx _]]].
  eapply x_returns; [apply (formula_depth_spec fuel x W); auto; apply Hx |]. intros n s' W' _ _ ->. reflexivity.
Qed.
Print Assumptions C29_depth.
(** Every sub-formula exactly once, operands before the formulas made of them, the formula itself at the end. *)
Theorem C29_sub_nodes : forall cfg s known os h x fuel, xreachable cfg s known os -> In h known -> denotes s h x -> (depth x < fuel)%nat ->
  returns (sub_nodes fuel h) s (fun l s' => NoDup l /\ (exists r, l = r ++ [h]) /\ (forall k, In k l <-> below s' h k)
     /\ forall a k b n o, l = a ++ k :: b -> unpack s' k = Ok n -> In o (node_operands n) -> In o a).
Proof.
  intros cfg s known os h x fuel Hr Hin Hd Hf. destruct (known_hdl _ _ _ _ _ _ Hr Hin Hd) as [W [Hi [Hx _]]].
  eapply x_returns; [apply (sub_nodes_spec fuel x W); auto; apply Hx |]. intros l s' W' _ _ H. exact H.
Qed.
Print Assumptions C29_sub_nodes.
Theorem C29_contains_node : forall cfg s known os h x fuel node, xreachable cfg s known os -> In h known -> denotes s h x -> (N.to_nat (nodes x) <= fuel)%nat ->
  exists b, contains_node fuel node h s = (Ok b, s) /\ (b = true <-> occurs s node h).
Proof.
  intros cfg s known os h x fuel node Hr Hin Hd Hf. destruct (known_hdl _ _ _ _ _ _ Hr Hin Hd) as [W [Hi [Hx _]]].
  apply (contains_node_spec fuel node x W); auto. apply Hx.
Qed.
Print Assumptions C29_contains_node.
Example C29_ex : fst (number_of_atoms 20 12 (x_fac ex_b)) = Ok 6 /\ fst (number_of_nodes 20 12 (x_fac ex_b)) = Ok (nodes ex_f) /\ nodes ex_f = 12
  /\ fst (formula_depth 20 12 (x_fac ex_u)) = Ok 4 /\ fst (sub_nodes 20 12 (x_fac ex_u)) = Ok [35; 99; 11; 163; 14; 15; 77; 12].
Proof. vm_compute. auto 10. Qed.

(** Shared sub-formulas: 64 times [g := g <=> (g | B)] makes a formula whose tree has more than 2^64 atoms, and the counter wraps around. *)
Fixpoint double (n : nat) (a : xstate) (h : N) (rs : list rstep) (hs : list (N * N)) : xstate * list rstep * list (N * N) :=
  match n with
  | O => (a, rs, hs)
  | S m =>
      let r1 := RCall (XCall (CNary false [h; 99])) in
      match replay1 r1 a with
      | Some b =>
          match x_known b with
          | o :: _ =>
              let r2 := RCall (XCall (CEquiv h o)) in
              match replay1 r2 b with
              | Some c => match x_known c with g :: _ => double m c g (rs ++ [r1; r2]) (hs ++ [(o, g)]) | [] => (a, [], []) end
              | None => (a, [], [])
              end
          | [] => (a, [], [])
          end
      | None => (a, [], [])
      end
  end.
Definition ex_two : list rstep := firstn 2 ex_base.
Definition ex_d : xstate * list rstep * list (N * N) := double 64 (ex_of ex_two) 35 ex_two [].
Definition ex_wide : list rstep := snd (fst ex_d).
Definition ex_w : xstate := ex_of ex_wide.
(** The handles of the chain, read off the store. *)
Fixpoint chain (s : factory) (hs : list (N * N)) (h : N) : bool :=
  match hs with
  | [] => true
  | (o, g) :: hs' =>
      match unpack s o, unpack s g with
      | Ok (NOr [a; b]), Ok (NEquiv c d) => (a =? h) && (b =? 99) && (c =? h) && (d =? o) && chain s hs' g
      | _, _ => false
      end
  end.
Fixpoint last_of (hs : list (N * N)) (h : N) : N := match hs with [] => h | (_, g) :: hs' => last_of hs' g end.
Fixpoint wide (n : nat) (x : fml) : fml := match n with O => x | S m => wide m (FEquiv x (FOr [x; ex_B])) end.
Lemma chain_denotes : forall s, denotes s 99 ex_B -> forall hs h x, chain s hs h = true -> denotes s h x -> denotes s (last_of hs h) (wide (List.length hs) x).
Proof.
  intros s HB. induction hs as [| [o g] hs IH]; intros h x Hc Hd; cbn [chain last_of List.length wide] in *; [exact Hd |].
  destruct (unpack s o) as [[| | | | | [| a [| b [|]]] | | | |] | |] eqn:Eo; try discriminate.
  destruct (unpack s g) as [[| | | | | | | c d | |] | |] eqn:Eg; try discriminate.
  apply andb_prop in Hc. destruct Hc as [Hc Hr]. apply andb_prop in Hc. destruct Hc as [Hc H4]. apply andb_prop in Hc. destruct Hc as [Hc H3].
  apply andb_prop in Hc. destruct Hc as [H1 H2]. apply N.eqb_eq in H1, H2, H3, H4. subst a b c d.
  apply IH; [exact Hr |]. eapply d_equiv; [exact Eg | exact Hd |]. eapply d_or; [exact Eo |]. constructor; [exact Hd |]. constructor; [exact HB | constructor].
Qed.
Lemma wide_atoms : forall n x, atoms (wide n x) = 2 ^ N.of_nat n * (atoms x + 1) - 1.
Proof.
  induction n as [| n IH]; intros x; [cbn [wide]; change (2 ^ N.of_nat 0) with 1; lia |]. cbn [wide]. rewrite IH. cbn [atoms fold_right].
  change (atoms ex_B) with 1. rewrite Nat2N.inj_succ, N.pow_succ_r'. lia.
Qed.
Lemma wide_depth : forall n x, depth (wide n x) = (2 * n + depth x)%nat.
Proof.
  induction n as [| n IH]; intros x; [reflexivity |]. cbn [wide]. rewrite IH. cbn [depth fold_right]. change (depth ex_B) with 0%nat. lia.
Qed.
Theorem C29_overflow_refuted : exists cfg s known os h x fuel n s', xreachable cfg s known os /\ In h known /\ denotes s h x /\ (depth x < fuel)%nat
  /\ number_of_atoms fuel h s = (Ok n, s') /\ n < 2 ^ 64 /\ 2 ^ 64 <= atoms x.
Proof.
  pose (h := last_of (snd ex_d) 35).
  exists default_config, (x_fac ex_w), (x_known ex_w), (x_objs ex_w), h, (wide 64 ex_A), 200%nat.
  assert (Hr : xreachable default_config (x_fac ex_w) (x_known ex_w) (x_objs ex_w)) by (apply (replay_reach _ ex_wide); vm_compute; reflexivity).
  assert (Hin : In h (x_known ex_w)) by (apply mem_in; vm_compute; reflexivity).
  assert (Hd : denotes (x_fac ex_w) h (wide 64 ex_A)).
  { pose proof (chain_denotes (x_fac ex_w)) as K. specialize (K ltac:(apply (tree_of_sound 10); vm_compute; reflexivity) (snd ex_d) 35 ex_A).
    assert (E : List.length (snd ex_d) = 64%nat) by (vm_compute; reflexivity). rewrite E in K.
    apply K; [vm_compute; reflexivity | apply (tree_of_sound 10); vm_compute; reflexivity]. }
  assert (Hf : (depth (wide 64 ex_A) < 200)%nat) by (rewrite wide_depth; vm_compute; lia).
  destruct (known_hdl _ _ _ _ _ _ Hr Hin Hd) as [W [Hi [Hx _]]].
  destruct (number_of_atoms_spec 200 _ W _ h Hi (proj1 Hx) Hd Hf) as [_ Hs].
  destruct Hs as [n [W' [E [_ [_ [_ ->]]]]]]; [apply cap_b_ok; vm_compute; reflexivity |].
  eexists _, _. split; [exact Hr |]. split; [exact Hin |]. split; [exact Hd |]. split; [exact Hf |].
  split; [rewrite (surjective_pairing (number_of_atoms 200 h (x_fac ex_w))), E; reflexivity |].
  rewrite wide_atoms. split; vm_compute; [reflexivity | discriminate].
Qed.
Print Assumptions C29_overflow_refuted.

(* ------------------------------------------------------------------------------------------------------------------ *)
(** * C19: two histories, two configurations, one formula *)

(** Unless one of them outgrows its factory, both computations return, and they return the same. *)
Definition agree {A} (m : M A) (s : factory) (m' : M A) (s' : factory) : Prop :=
  cap (snd (m s)) -> cap (snd (m' s')) -> exists r, fst (m s) = Ok r /\ fst (m' s') = Ok r.
Lemma agree_of : forall A (m m' : M A) s s' (Q : A -> Prop), (forall a b, Q a -> Q b -> a = b) ->
  returns m s (fun a _ => Q a) -> returns m' s' (fun a _ => Q a) -> agree m s m' s'.
Proof.
  intros A m m' s s' Q HQ H H' C C'. destruct (H C) as [a [E Ha]]. destruct (H' C') as [b [E' Hb]]. exists a. split; [exact E |]. now rewrite (HQ a b Ha Hb).
Qed.
Lemma sorted_same : forall A (lt : A -> A -> Prop), (forall a, ~ lt a a) -> (forall a b c, lt a b -> lt b c -> lt a c) ->
  forall l l', StronglySorted lt l -> StronglySorted lt l' -> (forall a, In a l <-> In a l') -> l = l'.
Proof.
  intros A lt Hir Htr. induction l as [| a l IH]; intros l' H H' Hs.
  - destruct l' as [| b l']; [reflexivity |]. destruct (proj2 (Hs b) (or_introl eq_refl)).
  - destruct l' as [| b l']; [destruct (proj1 (Hs a) (or_introl eq_refl)) |].
    apply StronglySorted_inv in H. apply StronglySorted_inv in H'. destruct H as [Hl Ha], H' as [Hl' Hb]. rewrite Forall_forall in Ha, Hb.
    assert (a = b) as <-.
    { destruct (proj1 (Hs a) (or_introl eq_refl)) as [-> | Hin]; [reflexivity |]. destruct (proj2 (Hs b) (or_introl eq_refl)) as [-> | Hin']; [reflexivity |].
      destruct (Hir a). apply (Htr a b a); [apply Ha; exact Hin' | apply Hb; exact Hin]. }
    f_equal. apply IH; auto. intros c. split; intros Hc.
    + destruct (proj1 (Hs c) (or_intror Hc)) as [<- | H]; [destruct (Hir a); apply Ha; exact Hc | exact H].
    + destruct (proj2 (Hs c) (or_intror Hc)) as [<- | H]; [destruct (Hir a); apply Hb; exact Hc | exact H].
Qed.

Section Two.
  Variables (cfg cfg' : ff_config) (s s' : factory) (known known' : list N) (os os' : list obj) (h h' : N) (x : fml).
  Hypotheses (Hr : xreachable cfg s known os) (Hr' : xreachable cfg' s' known' os') (Hin : In h known) (Hin' : In h' known')
    (Hd : denotes s h x) (Hd' : denotes s' h' x).

  Theorem C19_is_nnf : forall fuel fuel', (depth x < fuel)%nat -> (depth x < fuel')%nat -> agree (is_nnf fuel h) s (is_nnf fuel' h') s'.
  Proof.
    intros fuel fuel' F F'. destruct (known_hdl _ _ _ _ _ _ Hr Hin Hd) as [W [Hi [Hx _]]]. destruct (known_hdl _ _ _ _ _ _ Hr' Hin' Hd') as [W' [Hi' [Hx' _]]].
    apply agree_of with (Q := fun b => b = nnf_shape x); [congruence | |].
    - eapply x_returns; [apply (is_nnf_spec fuel x W s h); auto; apply Hx | intros a t V _ _ K; exact K].
    - eapply x_returns; [apply (is_nnf_spec fuel' x W' s' h'); auto; apply Hx' | intros a t V _ _ K; exact K].
  Qed.
  Theorem C19_is_dnf : agree (is_dnf h) s (is_dnf h') s'.
  Proof.
    destruct (known_hdl _ _ _ _ _ _ Hr Hin Hd) as [W [Hi [Hx _]]]. destruct (known_hdl _ _ _ _ _ _ Hr' Hin' Hd') as [W' [Hi' [Hx' _]]].
    apply agree_of with (Q := fun b => b = dnf_shape x); [congruence | |].
    - eapply x_returns; [apply (is_dnf_spec x W s h); auto; apply Hx | intros a t V _ _ K; exact K].
    - eapply x_returns; [apply (is_dnf_spec x W' s' h'); auto; apply Hx' | intros a t V _ _ K; exact K].
  Qed.
  Theorem C19_contains_pbc : forall fuel fuel', (N.to_nat (nodes x) <= fuel)%nat -> (N.to_nat (nodes x) <= fuel')%nat ->
    agree (contains_pbc fuel h) s (contains_pbc fuel' h') s'.
  Proof.
    intros fuel fuel' F F'. destruct (known_hdl _ _ _ _ _ _ Hr Hin Hd) as [W [Hi [Hx _]]]. destruct (known_hdl _ _ _ _ _ _ Hr' Hin' Hd') as [W' [Hi' [Hx' _]]].
    apply agree_of with (Q := fun b => b = negb (con_free x)); [congruence | |].
    - eapply x_returns; [apply (contains_pbc_spec fuel x W s h); auto; apply Hx | intros a t V _ _ K; exact K].
    - eapply x_returns; [apply (contains_pbc_spec fuel' x W' s' h'); auto; apply Hx' | intros a t V _ _ K; exact K].
  Qed.
  Theorem C19_depth : forall fuel fuel', (depth x < fuel)%nat -> (depth x < fuel')%nat -> agree (formula_depth fuel h) s (formula_depth fuel' h') s'.
  Proof.
    intros fuel fuel' F F'. destruct (known_hdl _ _ _ _ _ _ Hr Hin Hd) as [W [Hi [Hx _]]]. destruct (known_hdl _ _ _ _ _ _ Hr' Hin' Hd') as [W' [Hi' [Hx' _]]].
    apply agree_of with (Q := fun n => n = N.of_nat (depth x)); [congruence | |].
    - eapply x_returns; [apply (formula_depth_spec fuel x W s h); auto; apply Hx | intros a t V _ _ K; exact K].
    - eapply x_returns; [apply (formula_depth_spec fuel' x W' s' h'); auto; apply Hx' | intros a t V _ _ K; exact K].
  Qed.
  Theorem C19_atoms : forall fuel fuel', (depth x < fuel)%nat -> (depth x < fuel')%nat -> agree (number_of_atoms fuel h) s (number_of_atoms fuel' h') s'.
  Proof.
    intros fuel fuel' F F'. destruct (known_hdl _ _ _ _ _ _ Hr Hin Hd) as [W [Hi [Hx _]]]. destruct (known_hdl _ _ _ _ _ _ Hr' Hin' Hd') as [W' [Hi' [Hx' _]]].
    apply agree_of with (Q := fun n => n = atoms x mod m64); [congruence | |].
    - eapply x_returns; [apply (number_of_atoms_spec fuel x W s h); auto; apply Hx | intros a t V _ _ K; exact K].
    - eapply x_returns; [apply (number_of_atoms_spec fuel' x W' s' h'); auto; apply Hx' | intros a t V _ _ K; exact K].
  Qed.
  Theorem C19_nodes : forall fuel fuel', (depth x < fuel)%nat -> (depth x < fuel')%nat -> agree (number_of_nodes fuel h) s (number_of_nodes fuel' h') s'.
  Proof.
    intros fuel fuel' F F'. destruct (known_hdl _ _ _ _ _ _ Hr Hin Hd) as [W [Hi [Hx _]]]. destruct (known_hdl _ _ _ _ _ _ Hr' Hin' Hd') as [W' [Hi' [Hx' _]]].
    apply agree_of with (Q := fun n => n = nodes x mod m64); [congruence | |].
    - eapply x_returns; [apply (number_of_nodes_spec fuel x W s h); auto; apply Hx | intros a t V _ _ K; exact K].
    - eapply x_returns; [apply (number_of_nodes_spec fuel' x W' s' h'); auto; apply Hx' | intros a t V _ _ K; exact K].
  Qed.
  Theorem C19_variables : forall fuel fuel', (depth x < fuel)%nat -> (depth x < fuel')%nat -> agree (variables fuel h) s (variables fuel' h') s'.
  Proof.
    intros fuel fuel' F F'. destruct (known_hdl _ _ _ _ _ _ Hr Hin Hd) as [W [Hi [Hx _]]]. destruct (known_hdl _ _ _ _ _ _ Hr' Hin' Hd') as [W' [Hi' [Hx' _]]].
    apply agree_of with (Q := fun l => set_list var_ltb l (fvars x)).
    - intros a b [Sa Ha] [Sb Hb]. apply (sorted_same _ (fun u w => var_ltb u w = true)); auto.
      + intros u. now rewrite var_ltb_irrefl.
      + intros u w z. apply var_ltb_trans.
      + intros u. rewrite Ha, Hb. reflexivity.
    - eapply x_returns; [apply (variables_spec fuel x W s h); auto; apply Hx | intros a t V _ _ K; exact K].
    - eapply x_returns; [apply (variables_spec fuel' x W' s' h'); auto; apply Hx' | intros a t V _ _ K; exact K].
  Qed.
  Theorem C19_literals : forall fuel fuel', (depth x < fuel)%nat -> (depth x < fuel')%nat -> agree (literals fuel h) s (literals fuel' h') s'.
  Proof.
    intros fuel fuel' F F'. destruct (known_hdl _ _ _ _ _ _ Hr Hin Hd) as [W [Hi [Hx _]]]. destruct (known_hdl _ _ _ _ _ _ Hr' Hin' Hd') as [W' [Hi' [Hx' _]]].
    apply agree_of with (Q := fun l => set_list lit_ltb l (flits x)).
    - intros a b [Sa Ha] [Sb Hb]. apply (sorted_same _ (fun u w => lit_ltb u w = true)); auto.
      + intros [u q]. unfold lit_ltb. cbn [lit_phase lit_var]. destruct q; rewrite var_ltb_irrefl; discriminate.
      + intros u w z. apply lit_ltb_trans.
      + intros u. rewrite Ha, Hb. reflexivity.
    - eapply x_returns; [apply (literals_spec fuel x W s h); auto; apply Hx | intros a t V _ _ K; exact K].
    - eapply x_returns; [apply (literals_spec fuel' x W' s' h'); auto; apply Hx' | intros a t V _ _ K; exact K].
  Qed.
  (** The normal forms: equivalent formulas, of the same shape. *)
  Definition same_form (m : M N) (m' : M N) (shape : fml -> Prop) : Prop :=
    cap (snd (m s)) -> cap (snd (m' s')) -> exists r r' y y', fst (m s) = Ok r /\ fst (m' s') = Ok r' /\ denotes (snd (m s)) r y /\ denotes (snd (m' s')) r' y'
      /\ shape y /\ shape y' /\ forall v, sem v y' = sem v y.
  Theorem C19_nnf : forall fuel fuel', con_free x = true -> (depth x + 5 <= fuel)%nat -> (depth x + 5 <= fuel')%nat ->
    same_form (nnf fuel h) (nnf fuel' h') is_nnf_form.
  Proof.
    intros fuel fuel' Hc F F' C C'. destruct (C12_nnf cfg s known os h x fuel) as [r [E [y [Hy [Sy Ey]]]]]; auto.
    destruct (C12_nnf cfg' s' known' os' h' x fuel') as [r' [E' [y' [Hy' [Sy' Ey']]]]]; auto.
    exists r, r', y, y'. repeat (split; [assumption |]). intros v. destruct Ey as [Ey _], Ey' as [Ey' _]. congruence.
  Qed.
  Theorem C19_cnf : forall fuel fuel', con_free x = true -> (2 * depth x + 8 <= fuel)%nat -> (2 * depth x + 8 <= fuel')%nat ->
    same_form (fact_nop true fuel h) (fact_nop true fuel' h') is_cnf_form.
  Proof.
    intros fuel fuel' Hc F F' C C'. destruct (C14_cnf cfg s known os h x fuel) as [r [E [y [Hy [Sy Ey]]]]]; auto.
    destruct (C14_cnf cfg' s' known' os' h' x fuel') as [r' [E' [y' [Hy' [Sy' Ey']]]]]; auto.
    exists r, r', y, y'. repeat (split; [assumption |]). intros v. destruct Ey as [Ey _], Ey' as [Ey' _]. congruence.
  Qed.
  Theorem C19_dnf : forall fuel fuel', con_free x = true -> (2 * depth x + 8 <= fuel)%nat -> (2 * depth x + 8 <= fuel')%nat ->
    same_form (fact_nop false fuel h) (fact_nop false fuel' h') is_dnf_form.
  Proof.
    intros fuel fuel' Hc F F' C C'. destruct (C15_dnf cfg s known os h x fuel) as [r [E [y [Hy [Sy Ey]]]]]; auto.
    destruct (C15_dnf cfg' s' known' os' h' x fuel') as [r' [E' [y' [Hy' [Sy' Ey']]]]]; auto.
    exists r, r', y, y'. repeat (split; [assumption |]). intros v. destruct Ey as [Ey _], Ey' as [Ey' _]. congruence.
  Qed.
End Two.
Print Assumptions C19_is_nnf. Print Assumptions C19_variables. Print Assumptions C19_nnf. Print Assumptions C19_cnf. Print Assumptions C19_dnf.

(* ------------------------------------------------------------------------------------------------------------------ *)
(** * C46: anonymizer *)

(** Constraints whose sums stay within the machine integers, see C11. *)
Definition sensible_leaf (lf : leaf) : Prop :=
  match lf with
  | LfVar _ => True
  | LfCc c => (Z.of_nat (List.length (cc_vars c)) < 2 ^ 62)%Z
  | LfPbc p => (fold_right (fun c n => Z.abs c + n) 0 (pb_coeffs p) + Z.abs (pb_rhs p) < 2 ^ 63)%Z
      /\ ((pb_rhs p + fold_right (fun c n => Z.abs c + n) 0 (pb_coeffs p) < 2 ^ 32)%Z \/ ~ In 1%Z (pb_coeffs p))
  end.
Definition entry (a : anonymizer) (u : var) (g : N) : Prop := assoc var_eqb u (an_subst a) = Some g.
Theorem C46_anonymize : forall cfg s known os a h x fuel, xreachable cfg s known os -> In h known -> In (OAnon a) os -> denotes s h x ->
  Forall sensible_leaf (leaves x) -> (depth x < fuel)%nat ->
  returns (anonymize fuel h a) s (fun p s' => let a' := snd p in exists f : var -> N,
     (* every entry renames a variable to a named one, named by the prefix and a number; *)
     (forall u g, entry a' u g -> g = encode_lit (Lit (VFF (f u)) true) /\ exists_in s' (VFF (f u)) /\ exists k, name_of s' (f u) = Some (anon_name (an_prefix a) k))
     (* different variables get different names; *)
     /\ (forall u w g g', entry a' u g -> entry a' w g' -> f u = f w -> u = w)
     (* what was renamed before is still renamed like that; *) /\ (forall u g, entry a u g -> entry a' u g)
     (* all variables of the formula are renamed; *) /\ (forall u, In u (fvars x) -> exists g, entry a' u g)
     (* the result is the formula with its variables renamed. *)
     /\ exists y, denotes s' (fst p) y /\ (forall v, sem v y = sem (fun u => v (VFF (f u))) x) /\ incl (fvars y) (map (fun u => VFF (f u)) (fvars x))).
Proof.
  intros cfg s known os a h x fuel Hr Hin Ho Hd Hl Hf. destruct (known_hdl _ _ _ _ _ _ Hr Hin Hd) as [W [Hi [Hx Hos]]].
  rewrite Forall_forall in Hos. specialize (Hos _ Ho). cbn in Hos.
  eapply x_returns; [apply (anonymize_spec fuel x a W); auto; exact Hl |].
  intros [g0 a'] s' W' Hi' _ [[Hent Hinj] [[Hpre [_ Hle]] [Htot [y [Hy [Hs Hv]]]]]]. cbn [fst snd] in *.
  pose (f := fun u => match assoc var_eqb u (an_subst a') with
     | Some g => match unpack s' g with Ok (NLit (Lit (VFF i) _)) => i | _ => 0 end | None => 0 end).
  assert (Hf' : forall u i, renames a' s' u i -> f u = i).
  { intros u i [E K]. unfold f. rewrite E. rewrite unpack_lit; [reflexivity | apply wf_cap; apply Hi' |]. apply known_var_ok; [apply wf_cap; apply Hi' | exact K]. }
  assert (Hfe : forall u g, entry a' u g -> renames a' s' u (f u)).
  { intros u g E. destruct (Hent u g E) as [i [k [-> [K _]]]]. assert (R : renames a' s' u i) by (split; assumption). rewrite (Hf' _ _ R). exact R. }
  exists f. split; [| split; [| split; [| split]]].
  - intros u g E. pose proof (Hfe u g E) as R. destruct (Hent u g E) as [i [k [-> [K [Hn _]]]]]. assert (R' : renames a' s' u i) by (split; assumption).
    pose proof (Hf' _ _ R') as Ef. rewrite Ef. split; [reflexivity |]. split; [apply exists_known; exact K |]. exists k. rewrite <- Hpre. exact Hn.
  - intros u w g g' E E' Ef. apply (Hinj u w (f u)); [exact (Hfe u g E) |]. rewrite Ef. exact (Hfe w g' E').
  - exact Hle.
  - intros u Hu. destruct (Htot u Hu) as [i [E _]]. eexists. exact E.
  - exists y. split; [apply Hy |]. split.
    + intros v. apply Hs. intros u i R. now rewrite (Hf' _ _ R).
    + intros u Hu. destruct (Hv u Hu) as [u' [i [Hu' [-> R]]]]. apply in_map_iff. exists u'. split; [now rewrite (Hf' _ _ R) | exact Hu'].
Qed.
Print Assumptions C46_anonymize.
Definition ex_u_anon : anonymizer := match nth_error (x_objs ex_u) 0 with Some (OAnon a) => a | _ => anonymizer_new "x" end.
Example C46_ex : In (OAnon ex_u_anon) (x_objs ex_u) /\ List.length (an_subst ex_u_anon) = 3%nat /\ Forall sensible_leaf (leaves ex_f)
  /\ fst (anonymize 20 12 ex_u_anon (x_fac ex_u)) <> Panic.
Proof.
  split; [apply (nth_error_In _ 0); vm_compute; reflexivity |]. split; [vm_compute; reflexivity |].
  split; [cbn; repeat constructor | vm_compute; discriminate].
Qed.

(* ------------------------------------------------------------------------------------------------------------------ *)
(** * C47: pure expansion *)

Definition only_amo_exo (x : fml) : Prop :=
  Forall (fun lf => match lf with LfVar _ => True | LfCc c => is_amo c || is_exo c = true | LfPbc _ => False end) (leaves x).
Lemma con_free_iff : forall y, (forall lf, In lf (leaves y) -> exists u, lf = LfVar u) -> con_free y = true.
Proof.
  assert (Hl : forall l : list fml, Forall (fun y => (forall lf, In lf (leaves y) -> exists u, lf = LfVar u) -> con_free y = true) l ->
     (forall lf, In lf (flat_map leaves l) -> exists u, lf = LfVar u) -> forallb con_free l = true).
  { intros l IH H. apply forallb_forall. intros y Hy. rewrite Forall_forall in IH. apply IH; [exact Hy |]. intros lf Hlf. apply H. apply in_flat_map. exists y. auto. }
  induction y using fml_ind2; cbn [con_free leaves]; intros Hlf; auto.
  - rewrite IHy1, IHy2; auto; intros lf H; apply Hlf; apply in_or_app; auto.
  - rewrite IHy1, IHy2; auto; intros lf H; apply Hlf; apply in_or_app; auto.
  - destruct (Hlf _ (or_introl eq_refl)) as [u E]. discriminate.
  - destruct (Hlf _ (or_introl eq_refl)) as [u E]. discriminate.
Qed.
Theorem C47_pure_expansion : forall cfg s known os h x fuel, xreachable cfg s known os -> In h known -> denotes s h x -> only_amo_exo x -> (depth x < fuel)%nat ->
  returns (pure_expansion fuel h) s (fun r s' => exists y, denotes s' r y /\ equivalent x y /\ con_free y = true).
Proof.
  intros cfg s known os h x fuel Hr Hin Hd Hp Hf. destruct (known_hdl _ _ _ _ _ _ Hr Hin Hd) as [W [Hi [Hx _]]].
  eapply x_returns; [apply (pure_expansion_spec fuel x W); auto |].
  intros r s' W' _ _ [y [Hy [Hs Hl]]]. exists y.
  assert (Hv : incl (fvars y) (fvars x)).
  { intros u Hu. unfold fvars in Hu. apply in_flat_map in Hu. destruct Hu as [lf [Hlf Hu]]. apply Hl in Hlf. apply in_map_iff in Hlf.
    destruct Hlf as [w [<- Hw]]. destruct Hu as [<- | []]. exact Hw. }
  split; [apply Hy |]. split; [split; [exact Hs | exact Hv] |].
  apply con_free_iff. intros lf Hlf. apply Hl in Hlf. apply in_map_iff in Hlf. destruct Hlf as [u [<- _]]. exists u. reflexivity.
Qed.
Print Assumptions C47_pure_expansion.
Definition ex_amo : xstate := ex_of (firstn 3 ex_base ++ [RCall (XCall (CCc LE 1 [VFF 0; VFF 1; VFF 2])); RCall (XCall (CNot 48))]).
Example C47_ex : In 13 (x_known ex_amo) /\ tree_of 10 (x_fac ex_amo) 13 = Some (FNot (FCc (mkCc [VFF 0; VFF 1; VFF 2] LE 1)))
  /\ fst (pure_expansion 20 13 (x_fac ex_amo)) = Ok 77 /\ only_amo_exo (FNot (FCc (mkCc [VFF 0; VFF 1; VFF 2] LE 1))).
Proof. split; [vm_compute; auto |]. split; [vm_compute; reflexivity |]. split; [vm_compute; reflexivity |]. constructor; [reflexivity | constructor]. Qed.

(* ------------------------------------------------------------------------------------------------------------------ *)
(** * C49: handlers *)

(** A handler can only abort: where the computation without handler returns [r], the one with a handler returns [r] in the same state or an error. *)
Theorem C49_handler_only_aborts : forall H (hd : fhandler H) conj fuel h st s r s', fact_nop conj fuel h s = (Ok r, s') ->
  (exists st', factorization hd conj fuel h st s = (Ok (FOk r, st'), s'))
  \/ (exists e st' s2, factorization hd conj fuel h st s = (Ok (FErr e, st'), s2)).
Proof. exact handler_only_aborts. Qed.
Print Assumptions C49_handler_only_aborts.
(** With limits [d] and [c], for a computation that makes [D] distributions and [C] clauses if nothing stops it. *)
Theorem C49_limits : forall conj fuel h st s r D C s', factorization count_handler conj fuel h (0, 0) s = (Ok (FOk r, (D, C)), s') ->
  let d := ls_dists_limit st in let c := ls_clauses_limit st in
  (D <= d /\ C <= c /\ factorization limit_handler conj fuel h st s = (Ok (FOk r, mkLimit false D C d c), s'))
  \/ ((d < D \/ c < C) /\ exists e nd nc s2, factorization limit_handler conj fuel h st s = (Ok (FErr e, mkLimit true nd nc d c), s2)
      /\ match e with DistributionLimitReached => nd = d + 1 /\ nd <= D /\ nc <= c | ClauseLimitReached => nc = c + 1 /\ nc <= C /\ nd <= d end).
Proof. exact limit_exact. Qed.
Print Assumptions C49_limits.
(** In reachable states the computation with a handler returns: a correct normal form, or an error of the handler. *)
Theorem C49_result : forall H (hd : fhandler H) cfg s known os h x fuel conj st, xreachable cfg s known os -> In h known -> denotes s h x -> con_free x = true ->
  (2 * depth x + 8 <= fuel)%nat ->
  returns (factorization hd conj fuel h st) s (fun p s' => match fst p with
    | FOk r => exists y, denotes s' r y /\ equivalent x y /\ if conj then is_cnf_form y else is_dnf_form y
    | FErr _ => ~ ((forall t, fst (fh_dist hd t) = None) /\ forall r t, fst (fh_clause hd r t) = None)
    end).
Proof.
  intros H hd cfg s known os h x fuel cj st Hr Hin Hd Hc Hf. destruct (known_hdl _ _ _ _ _ _ Hr Hin Hd) as [W [Hi [Hx _]]].
  eapply x_returns; [apply (factorization_spec H hd cj fuel x W); auto; apply con_free_leaves; exact Hc |].
  intros [[r | e] st'] s' W' _ _ Hp; cbn [fst fpost] in *; [| exact Hp]. destruct Hp as [y [Hy [[_ [_ Hcf]] Hs]]]. exists y. split; [apply Hy |]. split; [exact (Hcf Hc) |].
  destruct cj; [apply cnf_shape_form | apply dnf_shape_form]; exact Hs.
Qed.
Print Assumptions C49_result.
Example C49_ex : fst (factorization count_handler true 40 12 (0, 0) (x_fac ex_b)) = Ok (FOk 331, (23, 15))
  /\ fst (factorization limit_handler true 40 12 (mkLimit false 0 0 23 15) (x_fac ex_b)) = Ok (FOk 331, mkLimit false 23 15 23 15)
  /\ fst (factorization limit_handler true 40 12 (mkLimit false 0 0 22 15) (x_fac ex_b)) = Ok (FErr DistributionLimitReached, mkLimit true 23 14 22 15)
  /\ fst (factorization limit_handler true 40 12 (mkLimit false 0 0 10 1) (x_fac ex_b)) = Ok (FErr ClauseLimitReached, mkLimit true 3 2 10 1).
Proof. vm_compute. auto. Qed.
