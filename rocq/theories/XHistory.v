(** Histories of a factory that also contain transformations, encodings, predicates, metrics, CNF encoders and anonymizers:
    everything that reads or writes the operation caches or makes auxiliary variables. *)
From Coq Require Import NArith ZArith List Bool Arith.
From Coq Require String.
From Verif Require Import Base EncodingModel Syntax FactoryModel FactoryInv FactoryOps EvalProofs HistoryModel ConstraintModel OpsModel OpsProofs CcModel CcFrontProofs
  PbModel CacheModel TransModel TreeSpec EncodeProofs PureProofs AnonProofs.
Import ListNotations.
Local Open Scope N_scope.

(** Objects the caller keeps between calls: CNF encoders (cnf/mod.rs 77-102; with or without kept states) and anonymizers. *)
Inductive obj :=
| OEnc (e : cnf_encoder)
| OAnon (a : anonymizer).

Definition enc_stateless : cnf_encoder := mkCnfEncoder None None.
Definition enc_stateful : cnf_encoder := mkCnfEncoder (Some cnf_state_new) (Some cnf_state_new).
(** What the caller can create. *)
Definition new_obj (o : obj) : Prop := o = OEnc enc_stateless \/ o = OEnc enc_stateful \/ exists p, o = OAnon (anonymizer_new p).

Inductive xcall :=
| XCall (c : call)
| XRestrict (fuel : nat) (a : assignment) (h : N)
| XSubstitute (fuel : nat) (sg : substitution) (h : N)
| XNnf (fuel : nat) (h : N)
| XFactorization (conj : bool) (fuel : nat) (h : N)
| XFactorizationH {H : Type} (hd : fhandler H) (st : H) (conj : bool) (fuel : nat) (h : N)
| XPure (fuel : nat) (h : N)
| XEncode (h : N)
| XIsNnf (fuel : nat) (h : N)
| XIsDnf (h : N)
| XContainsPbc (fuel : nat) (h : N)
| XDepth (fuel : nat) (h : N)
| XAtoms (fuel : nat) (h : N)
| XNodes (fuel : nat) (h : N)
| XVariables (fuel : nat) (h : N)
| XLiterals (fuel : nat) (h : N)
| XSubNodes (fuel : nat) (h : N)
| XCnf (alg : cnf_algorithm) (fuel : nat) (h : N)
| XTseitin (boundary : N) (fuel : nat) (h : N)
| XPg (boundary : N) (fuel : nat) (h : N)
| XAnonymize (fuel : nat) (h : N).

(** The constraint behind a handle. *)
Definition encode_handle (h : N) : M (list N) :=
  n <-- unpackM h ;; match n with NCc c => cc_encode c | NPbc p => pbc_encode p | _ => fail end.

(** A call, on an object if it needs one: the handles it returns, and the object afterwards. *)
Definition xrun (c : xcall) (o : obj) : M (list N * obj) :=
  match c with
  | XCall c => r <-- run_call c ;; ret ([r], o)
  | XRestrict fuel a h => r <-- restrict fuel a h ;; ret ([r], o)
  | XSubstitute fuel sg h => r <-- substitute fuel sg h ;; ret ([r], o)
  | XNnf fuel h => r <-- nnf fuel h ;; ret ([r], o)
  | XFactorization cj fuel h => r <-- fact_nop cj fuel h ;; ret ([r], o)
  | XFactorizationH hd st cj fuel h => p <-- factorization hd cj fuel h st ;; ret (match fst p with FOk r => [r] | FErr _ => [] end, o)
  | XPure fuel h => r <-- pure_expansion fuel h ;; ret ([r], o)
  | XEncode h => l <-- encode_handle h ;; ret (l, o)
  | XIsNnf fuel h => _ <-- is_nnf fuel h ;; ret ([], o)
  | XIsDnf h => _ <-- is_dnf h ;; ret ([], o)
  | XContainsPbc fuel h => _ <-- contains_pbc fuel h ;; ret ([], o)
  | XDepth fuel h => _ <-- formula_depth fuel h ;; ret ([], o)
  | XAtoms fuel h => _ <-- number_of_atoms fuel h ;; ret ([], o)
  | XNodes fuel h => _ <-- number_of_nodes fuel h ;; ret ([], o)
  | XVariables fuel h => _ <-- variables fuel h ;; ret ([], o)
  | XLiterals fuel h => _ <-- literals fuel h ;; ret ([], o)
  | XSubNodes fuel h => l <-- sub_nodes fuel h ;; ret (l, o)
  | XCnf alg fuel h =>
      match o with
      | OEnc e => p <-- cnf_transform alg fuel h e ;; ret ([fst p], OEnc (snd p))
      | OAnon _ => fail
      end
  | XTseitin b fuel h =>
      match o with
      | OEnc e => p <-- tseitin_cnf fuel h b (state_or_new (ce_tseitin e)) ;;
                  ret ([fst p], OEnc (mkCnfEncoder (keep_state (ce_tseitin e) (snd p)) (ce_pg e)))
      | OAnon _ => fail
      end
  | XPg b fuel h =>
      match o with
      | OEnc e => p <-- pg_on_formula fuel h b (state_or_new (ce_pg e)) ;;
                  ret ([fst p], OEnc (mkCnfEncoder (ce_tseitin e) (keep_state (ce_pg e) (snd p))))
      | OAnon _ => fail
      end
  | XAnonymize fuel h =>
      match o with
      | OAnon a => p <-- anonymize fuel h a ;; ret ([fst p], OAnon (snd p))
      | OEnc _ => fail
      end
  end.

(** The recursion bound is not in the code; it must be large enough. *)
Definition enough (k c fuel : nat) (x : fml) : Prop := (k * depth x + c <= fuel)%nat.
Definition all_of (s : factory) (h : N) (P : fml -> Prop) : Prop := forall x, denotes s h x -> P x.

(** Arguments come from the caller's handles, numbers in constraints stay within the machine types (see C10, C11, C13), and a
    parsed auxiliary variable (C08) is one that was generated. *)
Definition xcall_ok (s : factory) (known : list N) (c : xcall) : Prop :=
  match c with
  | XCall (CParsed a i) => i < ctr (ctrs_of s) a
  | XCall c => call_ok s known c
  | XRestrict fuel a h => In h known /\ all_of s h (fun x => restrictable a x /\ enough 1 1 fuel x)
  | XSubstitute fuel sg h => In h known /\ (forall u g, assoc var_eqb u sg = Some g -> In g known)
      /\ all_of s h (fun x => substitutable s sg x /\ enough 1 1 fuel x)
  | XNnf fuel h => In h known /\ all_of s h (fun x => encodable s x /\ enough 1 5 fuel x)
  | XFactorization _ fuel h | XFactorizationH _ _ _ fuel h => In h known /\ all_of s h (fun x => encodable s x /\ enough 2 8 fuel x)
  | XPure fuel h => In h known /\ all_of s h (fun x => pureable x /\ enough 1 1 fuel x)
  | XEncode h => In h known /\ all_of s h (encodable s)
  | XIsDnf h => In h known
  | XContainsPbc fuel h => In h known /\ all_of s h (fun x => (N.to_nat (nodes x) <= fuel)%nat)
  | XIsNnf fuel h | XDepth fuel h | XAtoms fuel h | XNodes fuel h | XVariables fuel h | XLiterals fuel h | XSubNodes fuel h =>
      In h known /\ all_of s h (enough 1 1 fuel)
  | XCnf _ fuel h | XTseitin _ fuel h | XPg _ fuel h => In h known /\ all_of s h (fun x => encodable s x /\ enough 4 14 fuel x)
  | XAnonymize fuel h => In h known /\ all_of s h (fun x => Forall anon_leaf (leaves x) /\ enough 1 1 fuel x)
  end.

Record xstate := mkX { x_fac : factory; x_known : list N; x_objs : list obj }.

(** A call without a kept object, a call on one of the kept objects, the creation of an object, looking at operands. *)
Inductive xstep : xstate -> xstate -> Prop :=
| xs_call : forall s known os c l o s', xcall_ok s known c -> xrun c (OEnc enc_stateless) s = (Ok (l, o), s') -> cap s' ->
    xstep (mkX s known os) (mkX s' (l ++ known) os)
| xs_use : forall s known os1 o os2 c l o' s', xcall_ok s known c -> xrun c o s = (Ok (l, o'), s') -> cap s' ->
    xstep (mkX s known (os1 ++ o :: os2)) (mkX s' (l ++ known) (os1 ++ o' :: os2))
| xs_new : forall s known os o, new_obj o -> xstep (mkX s known os) (mkX s known (o :: os))
| xs_operands : forall s known os h n, In h known -> unpack s h = Ok n -> xstep (mkX s known os) (mkX s (node_operands n ++ known) os).

Inductive xsteps : xstate -> xstate -> Prop :=
| xss_refl : forall a, xsteps a a
| xss_step : forall a b c, xsteps a b -> xstep b c -> xsteps a c.

Definition xreachable (cfg : ff_config) (s : factory) (known : list N) (os : list obj) : Prop :=
  xsteps (mkX (factory_new cfg) [] []) (mkX s known os).
