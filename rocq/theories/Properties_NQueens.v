(** C62: the generator for the n-queens problem. *)
From Coq Require Import String NArith ZArith List Bool Arith Lia.
From Verif Require Import Base Syntax FactoryModel FactoryInv TransModel WorldProofs AnonProofs XHistory XHistoryProofs XReplay Properties_Factory Properties_Trans NQueensModel NQueensProofs.
Import ListNotations.
Local Open Scope nat_scope.

(** A placement [b] of queens on a board of [n] rows: one queen in each row and each column, no two on a diagonal. *)
Definition placement (n : nat) (b : nat -> nat -> bool) : Prop :=
  (forall i, i < n -> exists j, j < n /\ b i j = true /\ forall j', j' < n -> b i j' = true -> j' = j)
  /\ (forall j, j < n -> exists i, i < n /\ b i j = true /\ forall i', i' < n -> b i' j = true -> i' = i)
  /\ (forall i j i' j', i < n -> j < n -> i' < n -> j' < n -> b i j = true -> b i' j' = true -> (i, j) <> (i', j') ->
        (Z.of_nat i - Z.of_nat j <> Z.of_nat i' - Z.of_nat j')%Z /\ i + j <> i' + j').
Lemma placement_queens : forall n b, placement n b <-> queens n b.
Proof.
  intros n b. split; intros (H1 & H2 & H3); (split; [exact H1 |]; split; [exact H2 |]); intros i j i' j' L1 L2 L3 L4 E E' Hne; destruct (H3 i j i' j' L1 L2 L3 L4 E E' Hne); split; lia.
Qed.

(** The result has, up to auxiliary variables, exactly the placements as models. The queen in row [i] and column [j] is the
    variable with the name "v" followed by [i * n + j + 1]; the variables of different cells are different. *)
Theorem C62_queens : forall cfg s known os fuel n, xreachable cfg s known os -> cfg_cc (f_config s) = pure_config ->
  1 <= n -> (Z.of_nat n < 2 ^ 30)%Z -> 6 <= fuel ->
  returns (generate_n_queens fuel n) s (fun r s' => exists y q, denotes s' r y
    /\ (forall i j, i < n -> j < n -> exists k, q i j = VFF k /\ name_of s' k = Some (anon_name "v" (N.of_nat (i * n + j + 1))))
    /\ (forall i j i' j', i < n -> j < n -> i' < n -> j' < n -> q i j = q i' j' -> i = i' /\ j = j')
    /\ (forall v, sem v y = true -> placement n (fun i j => v (q i j)))
    /\ (forall v, placement n (fun i j => v (q i j)) -> exists w, same_named v w /\ sem w y = true)).
Proof.
  intros cfg s known os fuel n Hr Hcfg Hn1 Hn Hf. destruct (xreachable_ok _ _ _ _ Hr) as [W [Hi _]].
  eapply x_returns; [apply (x_queens fuel n W); auto |].
  intros r s' W' Hi' _ (y & q & Hy & Hq & H1 & H2). exists y, q. split; [apply Hy |].
  assert (HN : forall i j, i < n -> j < n -> exists k, q i j = VFF k /\ name_of s' k = Some (anon_name "v" (N.of_nat (i * n + j + 1)))).
  { intros i j L1 L2. destruct (Hq i j L1 L2) as (k & E & _ & En). eauto. }
  split; [exact HN |]. split; [| split].
  - intros i j i' j' L1 L2 L3 L4 E. destruct (HN i j L1 L2) as (k & E1 & N1). destruct (HN i' j' L3 L4) as (k' & E2 & N2).
    rewrite E1, E2 in E. assert (EK : k = k') by congruence. rewrite EK, N2 in N1.
    assert (N3 : anon_name "v" (N.of_nat (i' * n + j' + 1)) = anon_name "v" (N.of_nat (i * n + j + 1))) by congruence.
    apply anon_name_inj in N3. assert (K : i' * n + j' = i * n + j) by lia.
    assert (i = i') by nia.
    subst i'. split; [reflexivity | lia].
  - intros v E. apply placement_queens. auto.
  - intros v Hp. destruct (i_world _ _ Hi') as [Hw _]. destruct (Hw v) as [w [HW Hag]]. exists w. split; [exact Hag |]. apply H2; [exact HW |].
    apply placement_queens in Hp. destruct Hp as (P1 & P2 & P3).
    assert (EQ : forall i j, i < n -> j < n -> w (q i j) = v (q i j)).
    { intros i j L1 L2. destruct (HN i j L1 L2) as (k & -> & _). apply Hag. }
    split; [| split].
    + intros i L. destruct (P1 i L) as (j & Lj & Ej & Hu). exists j. split; [exact Lj |]. split; [rewrite EQ; auto |]. intros j' Lj' E'. rewrite EQ in E' by assumption. auto.
    + intros j L. destruct (P2 j L) as (i & Li & Ei & Hu). exists i. split; [exact Li |]. split; [rewrite EQ; auto |]. intros i' Li' E'. rewrite EQ in E' by assumption. auto.
    + intros i j i' j' L1 L2 L3 L4 E E' Hne. rewrite EQ in E, E' by assumption. apply P3; assumption.
Qed.
Print Assumptions C62_queens.

(** A board without rows: the subtraction [n - 1] underflows (with overflow checks). *)
Theorem C62_empty_board_panics : forall fuel s, fst (generate_n_queens fuel 0 s) = Panic.
Proof. intros. reflexivity. Qed.
Print Assumptions C62_empty_board_panics.

(** Four queens on a fresh factory: 16 variables; a placement and a board that is none. *)
Definition ex_cfg : ff_config := mkFfConfig pure_config (cfg_pb default_config) (cfg_caches default_config).
Definition ex_q : factory := snd (generate_n_queens 10 4 (factory_new ex_cfg)).
Definition ex_qh : N := match fst (generate_n_queens 10 4 (factory_new ex_cfg)) with Ok h => h | _ => 0%N end.
Definition ex_board (l : list N) : valuation := fun u => match u with VFF k => existsb (N.eqb k) l | _ => false end.
Definition ex_y : fml := match tree_of 20 ex_q ex_qh with Some y => y | None => FTrue end.
Example C62_ex : xreachable ex_cfg (factory_new ex_cfg) [] [] /\ cfg_cc (f_config (factory_new ex_cfg)) = pure_config
  /\ fst (generate_n_queens 10 4 (factory_new ex_cfg)) = Ok ex_qh /\ tree_of 20 ex_q ex_qh = Some ex_y /\ name_of ex_q 15 = Some "v16"%string
  /\ sem (ex_board [1; 7; 8; 14]%N) ex_y = true /\ sem (ex_board [1; 7; 8; 15]%N) ex_y = false /\ sem (ex_board [0; 5; 10; 15]%N) ex_y = false.
Proof. split; [constructor |]. vm_compute. repeat split. Qed.
