(** C27: the pseudo-Boolean encodings. *)
From Coq Require Import NArith ZArith List Bool Arith Lia.
From Verif Require Import Base EncodingModel Syntax FactoryModel CcModel EncBasics AmoProofs PbModel PbProofs Properties_Cc.
Import ListNotations.
Local Open Scope nat_scope.

(** A normalized constraint: [sum <= rhs], one positive coefficient per literal, no literal twice. *)
Record normalized (ls : list lit) (cs : list Z) : Prop := {
  nz_len : length ls = length cs;
  nz_pos : forall c, In c cs -> (1 <= c)%Z;
  nz_distinct : NoDup ls }.

(** The cardinality networks used by binary merge count with [usize]. *)
Definition pb_admissible (cfg : pb_config) (ls : list lit) : Prop :=
  cfg_pb_alg cfg = PbBinaryMerge -> cfg_watch_dog cfg = false -> (N.of_nat (S (length ls)) < 2 ^ 31)%N.

Lemma zsum_weight : forall b ls cs, zsum b ls cs = weight b ls cs.
Proof. intros b. induction ls as [| l ls IH]; intros [| c cs]; reflexivity || (cbn; now rewrite IH). Qed.

Theorem C27_encode : forall cfg ls cs rhs st, normalized ls cs -> (forall l, In l ls -> known_var st (lit_var l)) -> pb_admissible cfg ls ->
  delivers (encode_internal cfg ls cs rhs) st (fun b => (weight b ls cs <= rhs)%Z).
Proof.
  intros cfg ls cs rhs st [H1 H2 H3] Hk Ha. eapply delivers_iff; [| apply encode_internal_ok; try eassumption].
  - intros b. cbn beta. now rewrite zsum_weight.
Qed.
Print Assumptions C27_encode.

(** The algorithms called directly, as the encoder does it: at least two literals, coefficients up to the right-hand side. *)
Definition nats (cs : list nat) : list Z := map Z.of_nat cs.
Lemma wsum_weight : forall b ls cs, Z.of_nat (wsum b ls cs) = weight b ls (nats cs).
Proof. intros b. induction ls as [| l ls IH]; intros [| c cs]; cbn [wsum weight nats map]; try reflexivity. rewrite Nat2Z.inj_add, IH. destruct (lit_sem b l); reflexivity. Qed.

Theorem C27_swc : forall ls cs rhs st, (forall l, In l ls -> known_var st (lit_var l)) -> length ls = length cs -> (forall c, In c cs -> 1 <= c <= rhs) ->
  delivers (encode_swc ls cs rhs) st (fun b => (weight b ls (nats cs) <= Z.of_nat rhs)%Z).
Proof. intros ls cs rhs st Hk Hl Hc. eapply delivers_iff; [| now apply encode_swc_ok]. intros b. cbn beta. rewrite <- wsum_weight. lia. Qed.
Print Assumptions C27_swc.

Theorem C27_binary_merge : forall cfg ls cs rhs st, (forall l, In l ls -> known_var st (lit_var l)) -> NoDup ls -> length ls = length cs -> 2 <= length ls ->
  (forall c, In c cs -> 1 <= c <= rhs) -> (cfg_watch_dog cfg = false -> (N.of_nat (S (length ls)) < 2 ^ 31)%N) ->
  delivers (encode_binary_merge cfg ls cs rhs) st (fun b => (weight b ls (nats cs) <= Z.of_nat rhs)%Z).
Proof. intros cfg ls cs rhs st Hk Hd Hl H2 Hc Hs. eapply delivers_iff; [| now apply encode_binary_merge_ok]. intros b. cbn beta. rewrite <- wsum_weight. lia. Qed.
Print Assumptions C27_binary_merge.

Theorem C27_adder_networks : forall ls cs rhs st, (forall l, In l ls -> known_var st (lit_var l)) -> (forall c, In c cs -> c <= rhs) ->
  delivers (encode_adder_networks ls cs rhs) st (fun b => (weight b ls (nats cs) <= Z.of_nat rhs)%Z).
Proof. intros ls cs rhs st Hk Hc. eapply delivers_iff; [| now apply encode_adder_networks_ok]. intros b. cbn beta. rewrite <- wsum_weight. lia. Qed.
Print Assumptions C27_adder_networks.

Definition pl (i : N) : lit := Lit (VFF i) true.
Definition nl (i : N) : lit := Lit (VFF i) false.
Example C27_example : normalized [pl 0; nl 1; pl 2; pl 3] [2; 3; 9; 4]%Z
  /\ (forall l, In l [pl 0; nl 1; pl 2; pl 3] -> known_var st0 (lit_var l))
  /\ (forall a w, pb_admissible (mkPbConfig a true false w) [pl 0; nl 1; pl 2; pl 3]).
Proof.
  split; [constructor |].
  - reflexivity.
  - intros c Hc. cbn in Hc. intuition lia.
  - repeat (constructor; [cbn; intuition discriminate |]). constructor.
  - split; [intros l Hl; cbn in Hl; intuition (subst; cbn; lia) |]. intros a w _ _. reflexivity.
Qed.
(** All three algorithms run on it and emit clauses. *)
Example C27_example_runs : forall alg, In alg [PbSwc; PbBinaryMerge; PbAdderNetworks; PbBest] ->
  exists st' cls, encode_internal (mkPbConfig alg true false true) [pl 0; nl 1; pl 2; pl 3] [2; 3; 9; 4]%Z 6 st0 = Ok (tt, st', cls) /\ cls <> [].
Proof.
  intros alg H. cbn in H. destruct H as [<- | [<- | [<- | [<- | []]]]]; eexists; eexists; (split; [vm_compute; reflexivity | discriminate]).
Qed.

(** Binary merge needs distinct literals: its networks panic on a repeated one. *)
Theorem C27_binary_merge_duplicates_refuted : exists cfg ls cs rhs st, length ls = length cs /\ 2 <= length ls /\ (forall c, In c cs -> 1 <= c <= rhs)
  /\ (forall l, In l ls -> known_var st (lit_var l)) /\ encode_binary_merge cfg ls cs rhs st = Panic.
Proof.
  exists (mkPbConfig PbBinaryMerge false false false), [pl 0; pl 0], [1; 1], 1, st0. split; [reflexivity |].
  split; [cbn; lia |]. split; [intros c Hc; cbn in Hc; intuition lia |]. split; [intros l Hl; cbn in Hl; intuition (subst; cbn; lia) |]. vm_compute. reflexivity.
Qed.
