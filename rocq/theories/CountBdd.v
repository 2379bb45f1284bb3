(** The BDD of a conjunctive normal form counts its models. *)
From Coq Require Import NArith ZArith List Bool Arith Lia.
From Verif Require Import Base EncodingModel Syntax FactoryModel FactoryInv FactoryOps EvalProofs InvariantSpec OpsProofs TreeSpec NnfProofs CountProofs
  BddSpec BddModel BddLink BddTable BddMake BddRep BddOps BddBuild BddNew BddDen BddCount.
Import ListNotations.
Local Open Scope nat_scope.
Local Open Scope res_scope.

Lemma cnf_pure : forall y, doc_ok y -> cnf_shape y = true -> pure y.
Proof.
  assert (Hls : forall l, forallb is_flit l = true -> (fix all l := match l with [] => True | b :: r => pure b /\ all r end) l).
  { induction l as [| a l IH]; intros H; [exact I |]. cbn [forallb] in H. apply andb_true_iff in H. destruct H as [H1 H2]. split; [destruct a; try discriminate; exact I | exact (IH H2)]. }
  assert (Hcl : forall y, local_ok y -> is_fclause y = true -> pure y).
  { intros y Hl H. destruct y; try discriminate; try exact I. cbn [is_fclause] in H. split; [| apply Hls; exact H]. intros ->. destruct Hl as [[Hl _] _]. cbn [length] in Hl. lia. }
  intros y Hd H. assert (Hl : local_ok y) by (apply Hd; apply su_refl).
  destruct y; cbn [cnf_shape] in H; try exact I; try (apply Hcl; assumption); try discriminate.
  assert (Hall : forall a, In a l -> local_ok a) by (intros a Ha; apply Hd; eapply su_and; [exact Ha | apply su_refl]).
  split; [intros ->; destruct Hl as [[Hl _] _]; cbn [length] in Hl; lia |]. clear Hd Hl.
  induction l as [| a l IH]; [exact I |]. cbn [forallb] in H. apply andb_true_iff in H. destruct H as [H1 H2]. split; [apply Hcl; [apply Hall; now left | assumption] |]. apply IH; [assumption |]. intros b Hb. apply Hall. now right.
Qed.
Lemma bvars_incl : forall x, incl (bvars x) (fvars x).
Proof.
  assert (Hl : forall l, Forall (fun x => incl (bvars x) (fvars x)) l -> incl ((fix all l := match l with [] => [] | b :: r => bvars b ++ all r end) l) (flat_map fvars l)).
  { induction l as [| a l IH]; intros H u Hu; [destruct Hu |]. inversion H; subst. cbn [flat_map]. apply in_or_app. apply in_app_or in Hu. destruct Hu as [Hu | Hu]; [left; auto | right; apply IH; auto]. }
  induction x as [| | l | b IHb | l IHl | l IHl | b c IHb IHc | b c IHb IHc | c | p] using fml_ind2; cbn [bvars]; intros u Hu.
  - destruct Hu.
  - destruct Hu.
  - destruct Hu as [Hu | []]. subst u. left. reflexivity.
  - exact (IHb u Hu).
  - apply (Hl _ IHl) in Hu. exact (eq_ind_r (fun k => In u k) Hu (fvars_fnary true l)).
  - apply (Hl _ IHl) in Hu. exact (eq_ind_r (fun k => In u k) Hu (fvars_fnary false l)).
  - rewrite fvars_impl. apply in_or_app. apply in_app_or in Hu. destruct Hu; [left | right]; auto.
  - rewrite fvars_equiv. apply in_or_app. apply in_app_or in Hu. destruct Hu; [left | right]; auto.
  - destruct Hu.
  - destruct Hu.
Qed.

Lemma bdd_counts : forall prime size csize ord y, prime_ok prime -> (3 <= size)%nat -> (1 <= csize)%nat -> (N.of_nat (length ord) <= 2097151)%N -> NoDup ord -> (forall u, In u ord <-> In u (fvars y)) -> pure y ->
  (do k <- new_with_ordering prime ord size csize; do ' (k1, n) <- from_formula k y; do ' (_, c) <- sat_count k1 n; Ok c) = Ok (N.of_nat (length (models ord y))).
Proof.
  intros prime size csize ord y P Hs Hc Hn ND Hu Hp. destruct (new_with_ordering_api prime ord size csize P ND Hn Hs Hc) as (k & E & A & V & N & _). rewrite E. cbn [rbind].
  destruct (from_formula_den ord y k [] Hp) as (k1 & n & E1 & A1 & X1 & R1 & D1); auto.
  { intros u H. apply Hu. now apply bvars_incl. }
  { split; [assumption |]. split; [lia |]. rewrite N. apply incl_refl. }
  rewrite E1. cbn [rbind]. destruct (sat_count_den k1 [n] n _ A1 D1) as (k2 & E2 & _). rewrite E2. cbn [rbind]. f_equal.
  assert (En : k_names k1 = ord).
  { destruct (e_names _ _ _ X1) as [l El]. rewrite N in El. destruct l as [| u l]; [rewrite app_nil_r in El; exact El |]. exfalso.
    destruct R1 as (_ & _ & Rn). pose proof (proj1 (i_names _ (a_inv _ _ A1))) as Nd. rewrite El in Nd, Rn. apply NoDup_remove_2 in Nd. apply Nd. apply in_or_app. left. apply Rn. apply in_or_app. right. now left. }
  rewrite En, (e_varnum _ _ _ X1), V. reflexivity.
Qed.
