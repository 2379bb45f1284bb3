(** Lemmas about the bit packing of handles. *)
From Coq Require Import NArith List Bool Lia.
From Verif Require Import Base EncodingModel.
Local Open Scope N_scope.

Lemma header_lt : forall ty b, header (type_code ty) b < 64.
Proof.
  intros ty b.
  destruct ty as [ | | [[ | []] | [ | []]] | | | | | | | ]; destruct b; vm_compute; reflexivity.
Qed.

Lemma lor_shift6 : forall h i, h < 64 -> N.lor h (N.shiftl i 6) = h + 64 * i.
Proof.
  intros h i Hh.
  assert (Hl : N.land h (N.shiftl i 6) = 0).
  { apply N.bits_inj. intros n. rewrite N.land_spec, N.bits_0.
    destruct (N.lt_ge_cases n 6) as [Hn | Hn].
    - rewrite N.shiftl_spec_low by assumption. apply andb_false_r.
    - assert (Hb : N.testbit h n = false).
      { destruct (N.eq_dec h 0) as [-> | Hnz]; [apply N.bits_0 |].
        apply N.bits_above_log2.
        assert (N.log2 h < 6); [| lia].
        apply N.log2_lt_pow2; [lia |]. exact Hh. }
      rewrite Hb. reflexivity. }
  pose proof (N.add_nocarry_lxor _ _ Hl) as Ha.
  rewrite <- N.lxor_lor by exact Hl. rewrite <- Ha.
  rewrite N.shiftl_mul_pow2. change (2 ^ 6) with 64. lia.
Qed.

Definition is_const_type (ty : formula_type) : bool :=
  match ty with TTrue | TFalse => true | _ => false end.

Lemma encode_arith : forall i ty b, is_const_type ty = false -> i < 288230376151711744 ->
  encode i ty b = header (type_code ty) b + 64 * i.
Proof.
  intros i ty b Hc Hi.
  assert (He : encode i ty b = N.lor (header (type_code ty) b) (index_64 i))
    by (destruct ty; try discriminate; reflexivity).
  rewrite He. unfold index_64, trunc64, index_shift.
  rewrite N.mod_small.
  - apply lor_shift6. apply header_lt.
  - rewrite N.shiftl_mul_pow2. change (2 ^ 6) with 64. lia.
Qed.

Lemma div64_add : forall a i, a < 64 -> (a + 64 * i) / 64 = i.
Proof. intros a i H. rewrite N.mul_comm, N.div_add by lia. rewrite N.div_small by assumption. lia. Qed.

Lemma mod64_add : forall a i, a < 64 -> (a + 64 * i) mod 64 = a.
Proof. intros a i H. rewrite N.mul_comm, N.mod_add by lia. apply N.mod_small; assumption. Qed.

Lemma enc_index_encode : forall i ty b, is_const_type ty = false -> i < 288230376151711744 ->
  enc_index (encode i ty b) = i.
Proof.
  intros i ty b Hc Hi. rewrite encode_arith by assumption.
  unfold enc_index, index_shift. rewrite N.shiftr_div_pow2. change (2 ^ 6) with 64.
  apply div64_add. apply header_lt.
Qed.

Lemma land_low : forall a i m, a < 64 -> m < 64 -> N.land ((a + 64 * i) mod 256) m = N.land a m.
Proof.
  intros a i m Ha Hm.
  assert (E : forall x, N.land x 63 = x mod 64).
  { intros x. change 63 with (N.ones 6). rewrite N.land_ones. reflexivity. }
  assert (Em : m = N.land 63 m).
  { rewrite N.land_comm, E. symmetry. apply N.mod_small; assumption. }
  rewrite Em, !N.land_assoc, !E.
  replace (((a + 64 * i) mod 256) mod 64) with ((a + 64 * i) mod 64).
  - rewrite mod64_add by assumption. rewrite (N.mod_small a) by assumption. reflexivity.
  - generalize (a + 64 * i). intros x. change 256 with (64 * 4). rewrite N.mod_mul_r by lia.
    rewrite (N.mul_comm 64 (_ mod 4)), N.mod_add by lia. symmetry. apply N.mod_mod. lia.
Qed.

Lemma formula_type_encode : forall i ty b, is_const_type ty = true \/ i < 288230376151711744 ->
  formula_type_of (encode i ty b) = Some ty.
Proof.
  intros i ty b H. destruct (is_const_type ty) eqn:Hc.
  - destruct ty; try discriminate; destruct b; reflexivity.
  - destruct H as [H | H]; [discriminate |].
    rewrite encode_arith by assumption. unfold formula_type_of, type_mask.
    rewrite land_low; [| apply header_lt | lia].
    destruct ty as [ | | [[ | []] | [ | []]] | | | | | | | ]; destruct b; reflexivity.
Qed.

Lemma is_large_cache_encode : forall i ty b, is_const_type ty = true \/ i < 288230376151711744 ->
  is_large_cache (encode i ty b) = b.
Proof.
  intros i ty b H. destruct (is_const_type ty) eqn:Hc.
  - destruct ty; try discriminate; destruct b; reflexivity.
  - destruct H as [H | H]; [discriminate |].
    rewrite encode_arith by assumption. unfold is_large_cache, cache_mask.
    rewrite land_low; [| apply header_lt | lia].
    destruct ty as [ | | [[ | []] | [ | []]] | | | | | | | ]; destruct b; reflexivity.
Qed.

Lemma encode_inj : forall i j ty ty' b b',
  is_const_type ty = false -> i < 288230376151711744 ->
  is_const_type ty' = false -> j < 288230376151711744 ->
  encode i ty b = encode j ty' b' -> i = j /\ ty = ty' /\ b = b'.
Proof.
  intros i j ty ty' b b' Hc Hi Hc' Hj He. repeat split.
  - rewrite <- (enc_index_encode i ty b), <- (enc_index_encode j ty' b') by assumption. rewrite He. reflexivity.
  - assert (Some ty = Some ty') as H; [| congruence].
    rewrite <- (formula_type_encode i ty b), <- (formula_type_encode j ty' b') by (right; assumption).
    rewrite He. reflexivity.
  - rewrite <- (is_large_cache_encode i ty b), <- (is_large_cache_encode j ty' b') by (right; assumption).
    rewrite He. reflexivity.
Qed.

Lemma encode_small_bound : forall i ty b, i < 67108864 -> encode i ty b < 4294967296.
Proof.
  intros i ty b Hi. destruct (is_const_type ty) eqn:Hc.
  - destruct ty; try discriminate; destruct b; vm_compute; reflexivity.
  - rewrite encode_arith by (try assumption; lia). pose proof (header_lt ty b). lia.
Qed.

Lemma is_large_spec : forall h, is_large h = false <-> h < 4294967296.
Proof.
  intros h. unfold is_large, is_64_index. rewrite N.ltb_ge.
  change largest_32_index with 67108863. unfold index_shift. rewrite N.shiftr_div_pow2. change (2 ^ 6) with 64.
  split; intros H.
  - pose proof (N.div_mod h 64 ltac:(lia)). pose proof (N.mod_lt h 64 ltac:(lia)). lia.
  - assert (h / 64 < 67108864); [| lia]. apply N.div_lt_upper_bound; lia.
Qed.

Lemma as_32_small : forall h, h < 4294967296 -> as_32 h = h.
Proof. intros h H. unfold as_32, trunc32. apply N.mod_small. assumption. Qed.

Lemma encode_small_agrees : forall i ty b, i < 67108864 -> encode_small i ty b = encode i ty b.
Proof.
  intros i ty b Hi.
  assert (index_32 i = index_64 i) as E.
  { unfold index_32, index_64, trunc32, trunc64, index_shift.
    rewrite (N.mod_small i) by lia.
    rewrite N.shiftl_mul_pow2. change (2 ^ 6) with 64.
    rewrite !N.mod_small by lia. reflexivity. }
  unfold encode_small, encode. rewrite E. reflexivity.
Qed.
