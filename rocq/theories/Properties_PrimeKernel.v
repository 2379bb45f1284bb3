(** C59, continued: the table sizes that the code computes meet what the theorems about BDD kernels ask of sizes. *)
From Coq Require Import String.
From Coq Require Import NArith ZArith List Bool Arith Lia.
From Verif Require BddMake.
From Verif Require Import Base EncodingModel Syntax FactoryModel FactoryInv FactoryBasics FactoryProofs FactoryOps EvalProofs HistoryModel InvariantSpec InvariantProofs OpsModel OpsProofs
  CcModel EncBasics HandlerProofs DefBasics PgProofs Properties_Factory Properties_Trans CacheModel TransModel TreeSpec WorldProofs MetricsProofs EncodeProofs NnfProofs TseitinProofs EncoderProofs PureProofs XHistory XHistoryProofs XReplay
  OrderModel OrderProofs Properties_Order BddModel BddCount CountModel CountProofs CountBdd CountMain Properties_Count PrimeModel PrimeProofs PrimeGrow PrimeKernelModel Properties_Prime.
Import ListNotations.
Local Open Scope list_scope.
Local Open Scope N_scope.

(** New tables have at least three entries, and at least as many as requested. *)
Theorem C59_table_size : forall ws n fuel, n <= 2147483647 -> 2147483647 <= N.of_nat fuel ->
  exists r, table_size fuel ws n = Ok r /\ (3 <= r)%nat /\ n <= N.of_nat r.
Proof.
  intros ws n fuel Hn Hf. destruct (C59_gte ws (N.max n 3) fuel) as (r & Er & R & _); [lia | lia | assumption |].
  exists (N.to_nat r). unfold table_size. rewrite Er. split; [reflexivity |]. split; lia.
Qed.
Print Assumptions C59_table_size.
(** Growing tables really grow, whatever random numbers are drawn. *)
Theorem C59_growth : forall ws, BddMake.prime_ok (growth ws).
Proof.
  intros ws i old H3. unfold growth. set (b := N.min (2 * N.of_nat old) (N.of_nat old + 50000)). assert (Hb : N.of_nat old < b) by lia. destruct (b <=? 16827216) eqn:E; [| lia]. apply N.leb_le in E.
  destruct (C59_lte (ws i) b (N.to_nat b)) as (r & Er & _ & _ & _ & _ & R); [lia | lia | lia |]. rewrite Er.
  destruct (grow (N.of_nat old)) as (p & Hp & P1 & P2); [lia | lia |]. assert (p <= r) by (apply R; [assumption | lia | exact P2]). lia.
Qed.
Print Assumptions C59_growth.
(** So the count of models is right for every configured node and cache size and all random numbers. *)
Theorem C59_count : forall alg sfuel w0 w1 ws node_size cache_size cfg s known os h x fuelp relevant, node_size <= 2147483647 -> cache_size <= 2147483647 -> 2147483647 <= N.of_nat sfuel ->
  xreachable cfg s known os -> In h known -> denotes s h x -> pureable x -> (depth x < fuelp)%nat ->
  NoDup relevant -> incl (fvars x) relevant -> (forall u, In u relevant -> kept s u) -> fvars x <> [] -> N.of_nat (List.length relevant) < 4294967296 ->
  exists F, forall rounds fuel, (F <= fuel)%nat ->
    let run := count_with_sizes alg sfuel w0 w1 ws node_size cache_size rounds fuelp fuel h relevant s in
    cap (snd run) -> few_vars (snd run) -> fst run = NoFuel \/ exists n, fst run = Ok n /\ model_number relevant x n.
Proof.
  intros alg sfuel w0 w1 ws node_size cache_size cfg s known os h x fuelp relevant Hn Hc Hs Hr Hin Hd Hp Hf Nr Ir Kr Hne Hl.
  destruct (C59_table_size w0 node_size sfuel Hn Hs) as (size & E0 & S0 & _). destruct (C59_table_size w1 cache_size sfuel Hc Hs) as (csize & E1 & S1 & _).
  destruct (C57_with_vars alg (growth ws) size csize (C59_growth ws) S0 ltac:(lia) cfg s known os h x fuelp relevant Hr Hin Hd Hp Hf Nr Ir Kr Hne Hl) as [F HF].
  exists F. intros rounds fuel Hfu. assert (E : count_with_sizes alg sfuel w0 w1 ws node_size cache_size rounds fuelp fuel h relevant s = count_models_with_vars alg (growth ws) size csize rounds fuelp fuel h relevant s).
  { unfold count_with_sizes, bind, lift. rewrite E0, E1. reflexivity. }
  rewrite E. exact (HF rounds fuel Hfu).
Qed.
Print Assumptions C59_count.

(** The formula of [C57_ex] with a table that is too small at first, and random numbers that differ for every table. *)
Example C59_ex2 : table_size 20 ex_ws 10 = Ok 11%nat /\ table_size 20 ex_ws 0 = Ok 3%nat /\ growth (fun i c k => ex_ws (i + c) k) 0 22 = 19%nat
  /\ fst (count_with_sizes CnfFactorization 20 ex_ws (fun c k => ex_ws k c) (fun i c k => ex_ws (i + c) k) 10 8 10 60 60 11 ex_rel (x_fac ex_n)) = Ok 14.
Proof. vm_compute. repeat split. Qed.
