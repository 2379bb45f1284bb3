(** C01: handles decode to what was encoded. *)
From Coq Require Import NArith List Bool.
From Verif Require Import Base EncodingModel EncodingProofs.
Local Open Scope N_scope.

Definition max_index : N := 288230376151711744. (* 2^58 *)
Definition max_small_index : N := 67108864. (* 2^26 *)

Theorem C01_decode : forall i ty b, i < max_index ->
  formula_type_of (encode i ty b) = Some ty
  /\ is_large_cache (encode i ty b) = b
  /\ (is_const_type ty = false -> enc_index (encode i ty b) = i).
Proof.
  intros i ty b Hi. split; [apply formula_type_encode; right; exact Hi |].
  split; [apply is_large_cache_encode; right; exact Hi |]. intros Hc. apply enc_index_encode; assumption.
Qed.
Print Assumptions C01_decode.

Theorem C01_injective : forall i j ty ty' b b', i < max_index -> j < max_index ->
  is_const_type ty = false -> is_const_type ty' = false -> encode i ty b = encode j ty' b' -> i = j /\ ty = ty' /\ b = b'.
Proof. intros i j ty ty' b b' Hi Hj Hc Hc' He. exact (encode_inj i j ty ty' b b' Hc Hi Hc' Hj He). Qed.
Print Assumptions C01_injective.

(** The 32 bit form: encoding directly or truncating the 64 bit form gives the same number, which decodes alike; the code
    recognizes such handles by [is_large]. *)
Theorem C01_small : forall i ty b, i < max_small_index ->
  as_32 (encode i ty b) = encode i ty b /\ encode_small i ty b = encode i ty b /\ is_large (encode i ty b) = false.
Proof.
  intros i ty b Hi. split; [apply as_32_small, encode_small_bound, Hi |]. split; [apply encode_small_agrees; exact Hi |].
  apply is_large_spec, encode_small_bound, Hi.
Qed.
Print Assumptions C01_small.

(** [is_large] is exact: it holds for every larger index. *)
Theorem C01_large : forall i ty b, is_const_type ty = false -> max_small_index <= i -> i < max_index -> is_large (encode i ty b) = true.
Proof.
  intros i ty b Hc Hi Hi'. destruct (is_large (encode i ty b)) eqn:E; [reflexivity |]. exfalso.
  apply is_large_spec in E. rewrite encode_arith in E by assumption. unfold max_small_index in Hi. Lia.lia.
Qed.
Print Assumptions C01_large.

(** Non-vacuity and a look at concrete handles. *)
Example C01_ex : encode 67108863 (TLit (LTNeg (VTAux AuxCC))) true = 4294967273 /\ 67108863 < max_small_index
  /\ enc_index 4294967273 = 67108863 /\ formula_type_of 4294967273 = Some (TLit (LTNeg (VTAux AuxCC))).
Proof. vm_compute. repeat split; reflexivity. Qed.

(** Beyond the bounds the claims fail: an index of 2^58 is shifted out, and the 32 bit form of index 2^26 is that of index 0. *)
Theorem C01_overflow_refuted : exists i ty b, enc_index (encode i ty b) <> i /\ is_const_type ty = false.
Proof. exists max_index, TAnd, true. vm_compute. split; [discriminate | reflexivity]. Qed.
Theorem C01_small_overflow_refuted : exists i j ty b, i <> j /\ as_32 (encode i ty b) = as_32 (encode j ty b) /\ is_const_type ty = false.
Proof. exists 0, max_small_index, TAnd, false. vm_compute. split; [discriminate | split; reflexivity]. Qed.
