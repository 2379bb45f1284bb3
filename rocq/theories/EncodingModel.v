(** Model of src/formulas/formula_cache/formula_encoding.rs: the bit packing of formula handles.
    Machine integers are [N]; the truncation of the shifted index to 64 (32) bits is explicit. *)
From Coq Require Import NArith List Bool.
From Verif Require Import Base.
Local Open Scope N_scope.

(** src/formulas/variable.rs, [AuxVarType] (CNF, CC, PB).  Simplification: the fourth variant TMP is left out; encoding it
    panics (formula_encoding.rs 89-91, 177-179) and it only occurs as a placeholder inside the modular totalizer. *)
Inductive aux_type := AuxCNF | AuxCC | AuxPB.

(** src/formulas/formula.rs, [VarType], [LitType], [FormulaType]. *)
Inductive var_type := VTFF | VTAux (a : aux_type).
Inductive lit_type := LTPos (v : var_type) | LTNeg (v : var_type).
Inductive formula_type :=
| TTrue | TFalse | TLit (l : lit_type) | TNot | TAnd | TOr | TImpl | TEquiv | TCc | TPbc.

(** formula_encoding.rs 8-24: the type codes. *)
Definition type_code (ty : formula_type) : N :=
  match ty with
  | TTrue => 1
  | TFalse => 2
  | TLit (LTPos VTFF) => 3
  | TLit (LTPos (VTAux AuxCNF)) => 4
  | TLit (LTPos (VTAux AuxCC)) => 5
  | TLit (LTPos (VTAux AuxPB)) => 6
  | TLit (LTNeg VTFF) => 7
  | TLit (LTNeg (VTAux AuxCNF)) => 8
  | TLit (LTNeg (VTAux AuxCC)) => 9
  | TLit (LTNeg (VTAux AuxPB)) => 10
  | TAnd => 11
  | TOr => 12
  | TNot => 13
  | TImpl => 14
  | TEquiv => 15
  | TCc => 16
  | TPbc => 17
  end.

(** formula_encoding.rs 3-6: shift, masks and the largest index that fits the 32 bit form (0xffff_ffff >> 6). *)
Definition index_shift : N := 6.
Definition type_mask : N := 31.
Definition cache_mask : N := 32.
Definition largest_32_index : N := N.shiftr 4294967295 index_shift.

(** formula_encoding.rs 28-30, [header]. *)
Definition header (code : N) (large_cache : bool) : N := if large_cache then N.lor 32 code else code.

(** [x as u32], [x as u64] on naturals. *)
Definition trunc32 (x : N) : N := x mod 4294967296.
Definition trunc64 (x : N) : N := x mod 18446744073709551616.

(** formula_encoding.rs 33-39, [index_32], [index_64]. *)
Definition index_32 (n : N) : N := trunc32 (N.shiftl (trunc32 n) index_shift).
Definition index_64 (n : N) : N := trunc64 (N.shiftl n index_shift).

(** formula_encoding.rs 157-182, [FormulaEncoding::encode]. *)
Definition encode (index : N) (ty : formula_type) (large_cache : bool) : N :=
  match ty with
  | TTrue | TFalse => header (type_code ty) large_cache
  | _ => N.lor (header (type_code ty) large_cache) (index_64 index)
  end.

(** formula_encoding.rs 67-94, [SmallFormulaEncoding::encode] (release build: the debug assertion is not modelled). *)
Definition encode_small (index : N) (ty : formula_type) (large_cache : bool) : N :=
  match ty with
  | TTrue | TFalse => header (type_code ty) large_cache
  | _ => N.lor (header (type_code ty) large_cache) (index_32 index)
  end.

(** formula_encoding.rs 150-152, [FormulaEncoding::encode_type]. *)
Definition encode_type (ty : formula_type) : N := encode 0 ty true.

(** formula_encoding.rs 188-190, [index] (102-104 for the 32 bit form). *)
Definition enc_index (h : N) : N := N.shiftr h index_shift.

(** formula_encoding.rs 193-195 (107-109), [is_large_cache]; [encoding as u8] keeps the low eight bits. *)
Definition is_large_cache (h : N) : bool := negb (N.land (h mod 256) cache_mask =? 0).

(** formula_encoding.rs 112-133 and 198-219, the table of type codes in [formula_type]; [None] = panic. *)
Definition type_of_code (c : N) : option formula_type :=
  if c =? 1 then Some TTrue
  else if c =? 2 then Some TFalse
  else if c =? 3 then Some (TLit (LTPos VTFF))
  else if c =? 4 then Some (TLit (LTPos (VTAux AuxCNF)))
  else if c =? 5 then Some (TLit (LTPos (VTAux AuxCC)))
  else if c =? 6 then Some (TLit (LTPos (VTAux AuxPB)))
  else if c =? 7 then Some (TLit (LTNeg VTFF))
  else if c =? 8 then Some (TLit (LTNeg (VTAux AuxCNF)))
  else if c =? 9 then Some (TLit (LTNeg (VTAux AuxCC)))
  else if c =? 10 then Some (TLit (LTNeg (VTAux AuxPB)))
  else if c =? 11 then Some TAnd
  else if c =? 12 then Some TOr
  else if c =? 13 then Some TNot
  else if c =? 14 then Some TImpl
  else if c =? 15 then Some TEquiv
  else if c =? 16 then Some TCc
  else if c =? 17 then Some TPbc
  else None.

(** formula_encoding.rs 198-219, [formula_type]. *)
Definition formula_type_of (h : N) : option formula_type := type_of_code (N.land (h mod 256) type_mask).

(** formula_encoding.rs 222-224 and 142-144, [is_64_index], [is_large]. *)
Definition is_64_index (i : N) : bool := largest_32_index <? i.
Definition is_large (h : N) : bool := is_64_index (N.shiftr h index_shift).

(** formula_encoding.rs 146-148 and 231-233, [as_32]; 226-228 / 56-58, [as_64] is the identity on values. *)
Definition as_32 (h : N) : N := trunc32 h.
Definition as_64 (h : N) : N := h.
