(** Model of the transformations that use the operation caches: the encodings of constraints as formulas, src/operations/
    transformations/nnf, cnf, dnf, pure_expansion.rs and anonymizer.rs.  Not modelled: the conversion through BDDs. *)
From Coq Require Import NArith ZArith List Bool.
From Coq Require String DecimalString.
From Verif Require Import Base EncodingModel Syntax FactoryModel ConstraintModel OpsModel CcModel PbModel CacheModel.
Import ListNotations.
Local Open Scope N_scope.

(* ------------------------------------------------------------------------------------------------------------------ *)
(** * Encodings of constraints *)

Definition ctrs_of (s : factory) : ctrs := mkCtrs (lenN (vt_vec (t_vars (f_tabs s)))) (f_cnf_ctr s) (f_cc_ctr s) (f_pb_ctr s).
Definition with_ctrs (s : factory) (k : ctrs) : factory :=
  mkFactory (f_config s) (f_tabs s) (k_cnf k) (k_cc k) (k_pb k) (f_caches s).
Definition ctrs_leb (a b : ctrs) : bool := (k_ff a =? k_ff b) && (k_cnf a <=? k_cnf b) && (k_cc a <=? k_cc b) && (k_pb a <=? k_pb b).

(** [for c in cs { result.push(k(c)) }]. *)
Fixpoint mmap {A B} (k : A -> M B) (l : list A) : M (list B) :=
  match l with
  | [] => ret []
  | x :: r => y <-- k x ;; ys <-- mmap k r ;; ret (y :: ys)
  end.

(** An encoder run with [EncodingResultFF] (encoding_result.rs 82-115): the auxiliary variables come from the counters of the
    factory and every clause becomes a formula.  The clauses are built after the encoder has finished (see CcModel.v).  No
    encoder decreases a counter or registers a variable; the test makes this evident. *)
Definition emit (g : G unit) : M (list N) := fun s =>
  match g (ctrs_of s) with
  | Ok (_, k, cls) => if ctrs_leb (ctrs_of s) k then mmap f_clause cls (with_ctrs s k) else (Panic, s)
  | Panic => (Panic, s)
  | NoFuel => (NoFuel, s)
  end.

(** cc_encoder.rs 21-26, [CcEncoder::encode]. *)
Definition cc_encoder_encode (cfg : cc_config) (c : cc) : M (list N) := emit (encode_cc cfg c).

(** pbc_cc.rs 260-270, [CardinalityConstraint::encode]. *)
Definition cc_encode (c : cc) : M (list N) :=
  index <-- lift (fun s => of_opt (simple_lookup cc_eqb c (t_ccs (f_tabs s)))) ;;
  cached <-- cache_get oc_ccenc index ;;
  match cached with
  | Some r => ret r
  | None =>
      cfg <-- lift (fun s => Ok (cfg_cc (f_config s))) ;;
      r <-- cc_encoder_encode cfg c ;;
      put_ccenc index r ;;; ret r
  end.

(** pb_encoder.rs 24-52, [PbEncoder::encode]; [fuel] bounds the nesting (an equation is encoded as two inequations). *)
Fixpoint pb_encoder_encode (fuel : nat) (cfg : pb_config) (p : pbc) : M (list N) :=
  match fuel with
  | O => nofuel
  | S fuel' =>
      h <-- pbc_normalize p ;;
      n <-- unpackM h ;;
      match n with
      | NPbc q => emit (encode_internal cfg (pb_lits q) (pb_coeffs q) (pb_rhs q))
      | NCc c => cc_encode c
      | NAnd ops =>
          mfold (fun op acc =>
            m <-- unpackM op ;;
            r <-- match m with NPbc q => pb_encoder_encode fuel' cfg q | NCc c => cc_encode c | _ => fail end ;;
            ret (acc ++ r)) ops []
      | NTrue => ret []
      | NFalse => ret [falsum]
      | _ => fail
      end
  end.

(** pbc_cc.rs 407-417, [PbConstraint::encode]. *)
Definition pbc_encode (p : pbc) : M (list N) :=
  index <-- lift (fun s => of_opt (simple_lookup pbc_eqb p (t_pbcs (f_tabs s)))) ;;
  cached <-- cache_get oc_pbcenc index ;;
  match cached with
  | Some r => ret r
  | None =>
      cfg <-- lift (fun s => Ok (cfg_pb (f_config s))) ;;
      r <-- pb_encoder_encode 2 cfg p ;;
      put_pbcenc index r ;;; ret r
  end.

(* ------------------------------------------------------------------------------------------------------------------ *)
(** * Negation normal form *)

(** nnf/mod.rs 25-36: the early returns. *)
Definition nnf_known (h : N) : M (option N) :=
  i <-- cache_get oc_is_nnf h ;;
  c <-- cache_get oc_is_cnf h ;;
  d <-- cache_get oc_is_dnf h ;;
  match i, c, d with
  | Some true, _, _ | _, Some _, _ | _, _, Some true => ret (Some h)
  | _, _, _ => cache_get oc_nnf h
  end.

(** nnf/mod.rs 24-111, [nnf_rec]; [fuel] bounds the recursion depth. *)
Fixpoint nnf_rec (fuel : nat) (h : N) (polarity : bool) : M N :=
  match fuel with
  | O => nofuel
  | S fuel' =>
      known <-- (if polarity then nnf_known h else ret None) ;;
      match known with
      | Some r => ret r
      | None =>
          n <-- unpackM h ;;
          r <-- match n with
                | NTrue | NFalse | NLit _ => if polarity then ret h else f_negate h
                | NNot op => nnf_rec fuel' op (negb polarity)
                | NOr ops => nary_lazy (negb polarity) [] (map (fun op => nnf_rec fuel' op polarity) ops)
                | NAnd ops => nary_lazy polarity [] (map (fun op => nnf_rec fuel' op polarity) ops)
                | NEquiv a b =>
                    left_false <-- nnf_rec fuel' a false ;;
                    right_true <-- nnf_rec fuel' b true ;;
                    left_true <-- nnf_rec fuel' a true ;;
                    right_false <-- nnf_rec fuel' b false ;;
                    if polarity then
                      op1 <-- f_or [left_false; right_true] ;;
                      op2 <-- f_or [left_true; right_false] ;;
                      f_and [op1; op2]
                    else
                      op1 <-- f_or [left_false; right_false] ;;
                      op2 <-- f_or [left_true; right_true] ;;
                      f_and [op1; op2]
                | NImpl a b =>
                    if polarity then
                      left_false <-- nnf_rec fuel' a false ;;
                      right_true <-- nnf_rec fuel' b true ;;
                      f_or [left_false; right_true]
                    else
                      left_true <-- nnf_rec fuel' a true ;;
                      right_false <-- nnf_rec fuel' b false ;;
                      f_and [left_true; right_false]
                | NCc c =>
                    if polarity then
                      encoded <-- cc_encode c ;;
                      nary_lazy true [] (map (fun op => nnf_rec fuel' op true) encoded)
                    else neg <-- cc_negate c ;; nnf_rec fuel' neg true
                | NPbc p =>
                    if polarity then
                      encoded <-- pbc_encode p ;;
                      nary_lazy true [] (map (fun op => nnf_rec fuel' op true) encoded)
                    else neg <-- pbc_negate p ;; nnf_rec fuel' neg true
                end ;;
          (if polarity then
             on <-- lift (fun s => Ok (on_nnf (cfg_caches (f_config s)))) ;;
             if on then put_nnf h r ;;; put_is_nnf r true else ret tt
           else ret tt) ;;;
          ret r
      end
  end.

(** nnf/mod.rs 20-22, [nnf], and formula_factory.rs, [nnf_of]. *)
Definition nnf (fuel : nat) (h : N) : M N := nnf_rec fuel h true.

(* ------------------------------------------------------------------------------------------------------------------ *)
(** * Factorization *)

(** handlers/factorization_handler.rs 19-24, [FactorizationError]. *)
Inductive fact_error := ClauseLimitReached | DistributionLimitReached.

(** factorization_handler.rs 5-15 and handler.rs, the trait [FactorizationHandler]: any state with three methods. *)
Record fhandler (H : Type) := mkHandler
  { fh_started : H -> H; fh_dist : H -> option fact_error * H; fh_clause : N -> H -> option fact_error * H }.
Arguments mkHandler {H} _ _ _.
Arguments fh_started {H} _ _.
Arguments fh_dist {H} _ _.
Arguments fh_clause {H} _ _ _.

(** factorization_handler.rs 28-32, [NopFactorizationHandler]. *)
Definition nop_handler : fhandler unit := mkHandler (fun u => u) (fun u => (None, u)) (fun _ u => (None, u)).

(** factorization_handler.rs 36-79, [ClauseLimitFactorizationHandler]. *)
Record limit_state := mkLimit { ls_aborted : bool; ls_dists : N; ls_clauses : N; ls_dists_limit : N; ls_clauses_limit : N }.
Definition limit_new (d c : N) : limit_state := mkLimit false 0 0 d c.
Definition limit_handler : fhandler limit_state :=
  mkHandler
    (fun l => mkLimit false 0 0 (ls_dists_limit l) (ls_clauses_limit l))
    (fun l =>
       let n := ls_dists l + 1 in
       let a := ls_dists_limit l <? n in
       (if a then Some DistributionLimitReached else None, mkLimit a n (ls_clauses l) (ls_dists_limit l) (ls_clauses_limit l)))
    (fun _ l =>
       let n := ls_clauses l + 1 in
       let a := ls_clauses_limit l <? n in
       (if a then Some ClauseLimitReached else None, mkLimit a (ls_dists l) n (ls_dists_limit l) (ls_clauses_limit l))).

(** [Result<T, FactorizationError>] together with the state of the handler [H] and the local cache. *)
Inductive fres (T : Type) := FOk (t : T) | FErr (e : fact_error).
Arguments FOk {T} _.
Arguments FErr {T} _.
Definition lcache := option (list (N * N)).

Definition is_type (ty : formula_type) (h : N) : bool :=
  match formula_type_of h, ty with Some TAnd, TAnd | Some TOr, TOr => true | _, _ => false end.

(** cnf/factorization.rs 92-110, [distribute] ([conj = true]) and dnf/factorization.rs 97-116 ([conj = false]); [fuel] bounds
    the recursion depth. *)
Fixpoint distribute {H} (hd : fhandler H) (conj : bool) (fuel : nat) (f1 f2 : N) (st : H) : M (fres N * H) :=
  match fuel with
  | O => nofuel
  | S fuel' =>
      match fh_dist hd st with
      | (Some e, st1) => ret (FErr e, st1)
      | (None, st1) =>
          let ty := nary_type conj in
          if is_type ty f1 || is_type ty f2 then
            let '(a, na) := if is_type ty f1 then (f1, f2) else (f2, f1) in
            ops <-- operandsM a ;;
            p <-- mfold (fun op (p : fres (list N) * H) =>
                    match p with
                    | (FErr e, st) => ret (FErr e, st)
                    | (FOk nops, st) =>
                        q <-- distribute hd conj fuel' op na st ;;
                        ret match q with
                            | (FOk r, st') => (FOk (nops ++ [r]), st')
                            | (FErr e, st') => (FErr e, st')
                            end
                    end) ops (FOk [], st1) ;;
            match p with
            | (FOk nops, st2) => r <-- f_nary conj nops ;; ret (FOk r, st2)
            | (FErr e, st2) => ret (FErr e, st2)
            end
          else
            r <-- f_nary (negb conj) [f1; f2] ;;
            match fh_clause hd r st1 with
            | (Some e, st2) => ret (FErr e, st2)
            | (None, st2) => ret (FOk r, st2)
            end
      end
  end.

(** cnf/factorization.rs 71-75 and dnf/factorization.rs 76-80: the loop over the remaining operands. *)
Fixpoint distribute_all {H} (hd : fhandler H) (conj : bool) (fuel : nat) (result : N) (ops : list N) (st : H) : M (fres N * H) :=
  match ops with
  | [] => ret (FOk result, st)
  | op :: r =>
      p <-- distribute hd conj fuel result op st ;;
      match p with
      | (FOk result', st') => distribute_all hd conj fuel result' r st'
      | (FErr e, st') => ret (FErr e, st')
      end
  end.

(** The cache lookups and insertions of cnf/factorization.rs 30-38, 46-52 and dnf/factorization.rs 31-32, 43-53. *)
Definition fact_cached (conj : bool) (lc : lcache) (h : N) : M (option N) :=
  match match lc with Some m => oc_get h m | None => None end with
  | Some r => ret (Some r)
  | None => cache_get (if conj then oc_cnf else oc_dnf) h
  end.
Definition fact_store (conj : bool) (lc : lcache) (h r : N) : M lcache :=
  if conj then
    on <-- lift (fun s => Ok (on_cnf (cfg_caches (f_config s)))) ;;
    if on then put_cnf h r ;;; ret lc
    else match lc with Some m => ret (Some (oc_insert h r m)) | None => fail end
  else
    put_dnf h r ;;; put_is_dnf r true ;;;
    ret match lc with Some m => Some (oc_insert h r m) | None => None end.

(** cnf/factorization.rs 79-90 and dnf/factorization.rs 84-95, [compute_nops]. *)
Fixpoint compute_nops {H} (rec : N -> H -> lcache -> M (fres N * H * lcache)) (ops : list N) (st : H) (lc : lcache)
    : M (fres (list N) * H * lcache) :=
  match ops with
  | [] => ret (FOk [], st, lc)
  | op :: r =>
      p <-- rec op st lc ;;
      match p with
      | (FOk x, st1, lc1) =>
          q <-- compute_nops rec r st1 lc1 ;;
          ret match q with
              | (FOk xs, st2, lc2) => (FOk (x :: xs), st2, lc2)
              | (FErr e, st2, lc2) => (FErr e, st2, lc2)
              end
      | (FErr e, st1, lc1) => ret (FErr e, st1, lc1)
      end
  end.

(** cnf/factorization.rs 22-77, [apply_rec], [handle_and], [handle_or] ([conj = true]) and dnf/factorization.rs 25-82
    ([conj = false]); [fuel] bounds the recursion depth. *)
Fixpoint fact_rec {H} (hd : fhandler H) (conj : bool) (fuel : nat) (h : N) (st : H) (lc : lcache) : M (fres N * H * lcache) :=
  match fuel with
  | O => nofuel
  | S fuel' =>
      cached <-- fact_cached conj lc h ;;
      match cached with
      | Some r => ret (FOk r, st, lc)
      | None =>
          n <-- unpackM h ;;
          let nary ops :=
            p <-- compute_nops (fact_rec hd conj fuel') ops st lc ;;
            match p with
            | (FOk nops, st1, lc1) => r <-- f_nary conj nops ;; ret (FOk r, st1, lc1)
            | (FErr e, st1, lc1) => ret (FErr e, st1, lc1)
            end in
          let dist ops :=
            p <-- compute_nops (fact_rec hd conj fuel') ops st lc ;;
            match p with
            | (FOk nops, st1, lc1) =>
                match nops with
                | [] => fail
                | first :: rest => q <-- distribute_all hd conj 4 first rest st1 ;; ret (fst q, snd q, lc1)
                end
            | (FErr e, st1, lc1) => ret (FErr e, st1, lc1)
            end in
          p <-- match n with
                | NLit _ | NTrue | NFalse => ret (FOk h, st, lc)
                | NPbc _ | NCc _ | NEquiv _ _ | NImpl _ _ | NNot _ => m <-- nnf fuel h ;; fact_rec hd conj fuel' m st lc
                | NOr ops => if conj then dist ops else nary ops
                | NAnd ops => if conj then nary ops else dist ops
                end ;;
          match p with
          | (FOk r, st1, lc1) => lc2 <-- fact_store conj lc1 h r ;; ret (FOk r, st1, lc2)
          | (FErr e, st1, lc1) => ret (FErr e, st1, lc1)
          end
      end
  end.

(** cnf/factorization.rs 9-20, [factorization_cnf_with_handler], and dnf/factorization.rs 12-23. *)
Definition factorization {H} (hd : fhandler H) (conj : bool) (fuel : nat) (h : N) (st : H) : M (fres N * H) :=
  on <-- lift (fun s => Ok ((if conj then on_cnf else on_dnf) (cfg_caches (f_config s)))) ;;
  p <-- fact_rec hd conj fuel h (fh_started hd st) (if on then None else Some []) ;;
  ret (fst p).

(** cnf/factorization.rs 5-7, [factorization_cnf], and dnf/factorization.rs 6-8, [factorization_dnf]. *)
Definition fact_nop (conj : bool) (fuel : nat) (h : N) : M N :=
  p <-- factorization nop_handler conj fuel h tt ;;
  match p with (FOk r, _) => ret r | (FErr _, _) => fail end.
Definition factorization_cnf : nat -> N -> M N := fact_nop true.
Definition factorization_dnf : nat -> N -> M N := fact_nop false.

(* ------------------------------------------------------------------------------------------------------------------ *)
(** * Tseitin *)

(** cnf/mod.rs 144-154, [TseitinState] and [PGState]: two hash maps; an insertion shadows an older entry. *)
Record cnf_state := mkCnfState { cs_formula : list (N * N); cs_variable : list (N * lit) }.
Definition cnf_state_new : cnf_state := mkCnfState [] [].
Definition cs_add_formula (h r : N) (st : cnf_state) : cnf_state := mkCnfState ((h, r) :: cs_formula st) (cs_variable st).
Definition cs_add_variable (h : N) (l : lit) (st : cnf_state) : cnf_state := mkCnfState (cs_formula st) ((h, l) :: cs_variable st).

(** The index operator of a hash map. *)
Definition index {V} (m : list (N * V)) (h : N) : M V := lift (fun _ => of_opt (assoc N.eqb h m)).

(** tseitin.rs 32-69, [compute_tseitin], with 71-88, [handle_nary]; [fuel] bounds the recursion depth. *)
Fixpoint compute_tseitin (fuel : nat) (h : N) (st : cnf_state) : M cnf_state :=
  match fuel with
  | O => nofuel
  | S fuel' =>
      match assoc N.eqb h (cs_formula st) with
      | Some _ => ret st
      | None =>
          n <-- unpackM h ;;
          let handle_nary ops (nops operands neg_operands : list N) :=
            mfold (fun op (p : list N * list N * list N * cnf_state) =>
              let '(nops, operands, neg_operands, st) := p in
              q <-- (if is_literal op then ret (nops, st)
                     else
                       st1 <-- compute_tseitin fuel' op st ;;
                       g <-- index (cs_formula st1) op ;;
                       ret (nops ++ [g], st1)) ;;
              let '(nops1, st1) := q in
              v <-- index (cs_variable st1) op ;;
              ret (nops1, operands ++ [encode_lit v], neg_operands ++ [encode_lit (lit_negate v)], st1))
            ops (nops, operands, neg_operands, st) in
          match n with
          | NLit l => ret (cs_add_variable h l (cs_add_formula h h st))
          | NAnd ops =>
              v <-- f_new_aux AuxCNF ;;
              let ts := encode_lit (Lit v true) in
              let neg_ts := encode_lit (Lit v false) in
              p <-- handle_nary ops [] [] [ts] ;;
              let '(nops, operands, neg_operands, st1) := p in
              cs <-- mmap (fun o => f_or [neg_ts; o]) operands ;;
              c <-- f_or neg_operands ;;
              r <-- f_and (nops ++ cs ++ [c]) ;;
              ret (cs_add_formula h r (cs_add_variable h (Lit v true) st1))
          | NOr ops =>
              v <-- f_new_aux AuxCNF ;;
              let ts := encode_lit (Lit v true) in
              let neg_ts := encode_lit (Lit v false) in
              p <-- handle_nary ops [] [neg_ts] [] ;;
              let '(nops, operands, neg_operands, st1) := p in
              cs <-- mmap (fun o => f_or [ts; o]) neg_operands ;;
              c <-- f_or operands ;;
              r <-- f_and (nops ++ cs ++ [c]) ;;
              ret (cs_add_formula h r (cs_add_variable h (Lit v true) st1))
          | _ => fail
          end
      end
  end.

(** tseitin.rs 10-29, [tseitin_cnf_with_boundary]. *)
Definition tseitin_cnf (fuel : nat) (h boundary : N) (st : cnf_state) : M (N * cnf_state) :=
  m <-- nnf fuel h ;;
  c <-- lift (fun s => is_cnf s m) ;;
  if c then ret (m, st)
  else
    atoms <-- number_of_atoms fuel m ;;
    if atoms <? boundary then r <-- factorization_cnf fuel m ;; ret (r, st)
    else
      subs <-- sub_nodes fuel m ;;
      st1 <-- mfold (compute_tseitin fuel) subs st ;;
      tseitin <-- index (cs_formula st1) m ;;
      top_level <-- index (cs_variable st1) m ;;
      r <-- restrict_by fuel top_level tseitin ;;
      ret (r, st1).

(* ------------------------------------------------------------------------------------------------------------------ *)
(** * Plaisted-Greenbaum *)

(** plaisted_greenbaum_on_formula.rs 68-78, [pg_variable]. *)
Definition pg_variable (h : N) (st : cnf_state) : M (lit * cnf_state) :=
  if is_literal h then
    n <-- unpackM h ;; match n with NLit l => ret (l, st) | _ => fail end
  else
    match assoc N.eqb h (cs_variable st) with
    | Some l => ret (l, st)
    | None => v <-- f_new_aux AuxCNF ;; ret (Lit v true, cs_add_variable h (Lit v true) st)
    end.

(** plaisted_greenbaum_on_formula.rs 41-66, [compute_pos_polarity]. *)
Definition compute_pos_polarity (h : N) (st : cnf_state) : M (N * cnf_state) :=
  match assoc N.eqb h (cs_formula st) with
  | Some r => ret (r, st)
  | None =>
      p <-- pg_variable h st ;;
      let '(pg, st1) := p in
      n <-- unpackM h ;;
      q <-- match n with
            | NAnd ops =>
                q <-- mfold (fun op (q : list N * cnf_state) =>
                        r <-- pg_variable op (snd q) ;;
                        c <-- f_clause [lit_negate pg; fst r] ;;
                        ret (fst q ++ [c], snd r)) ops ([], st1) ;;
                r <-- f_and (fst q) ;; ret (r, snd q)
            | NOr ops =>
                q <-- mfold (fun op (q : list lit * cnf_state) =>
                        r <-- pg_variable op (snd q) ;;
                        ret (fst q ++ [fst r], snd r)) ops ([lit_negate pg], st1) ;;
                r <-- f_clause (fst q) ;; ret (r, snd q)
            | _ => fail
            end ;;
      ret (fst q, cs_add_formula h (fst q) (snd q))
  end.

(** plaisted_greenbaum_on_formula.rs 26-39, [compute_transformation]; line 31 calls [number_of_atoms] for the capacity of a
    vector, which fills the cache of that function. *)
Fixpoint compute_transformation (fuel : nat) (h : N) (st : cnf_state) : M (N * cnf_state) :=
  match fuel with
  | O => nofuel
  | S fuel' =>
      n <-- unpackM h ;;
      match n with
      | NOr ops | NAnd ops =>
          number_of_atoms fuel h ;;;
          p <-- compute_pos_polarity h st ;;
          q <-- mfold (fun op (q : list N * cnf_state) =>
                  r <-- compute_transformation fuel' op (snd q) ;;
                  ret (fst q ++ [fst r], snd r)) ops ([fst p], snd p) ;;
          r <-- f_and (fst q) ;; ret (r, snd q)
      | NLit _ => ret (verum, st)
      | _ => fail
      end
  end.

(** plaisted_greenbaum_on_formula.rs 8-24, [pg_on_formula]. *)
Definition pg_on_formula (fuel : nat) (h boundary : N) (st : cnf_state) : M (N * cnf_state) :=
  m <-- nnf fuel h ;;
  c <-- lift (fun s => is_cnf s m) ;;
  if c then ret (m, st)
  else
    atoms <-- number_of_atoms fuel m ;;
    if atoms <? boundary then r <-- factorization_cnf fuel m ;; ret (r, st)
    else
      p <-- compute_transformation fuel m st ;;
      top_level <-- index (cs_variable (snd p)) m ;;
      r <-- restrict fuel (asg_of_lit top_level) (fst p) ;;
      ret (r, snd p).

(* ------------------------------------------------------------------------------------------------------------------ *)
(** * The CNF encoder *)

(** cnf/mod.rs 23-38, [CnfAlgorithm], without [Bdd]; advanced.rs 37-42 (the field [atom_boundary] is never read). *)
Inductive cnf_algorithm :=
| CnfFactorization
| CnfTseitin (boundary : N)
| CnfPlaistedGreenbaum (boundary : N)
| CnfAdvanced (distribution_boundary created_clause_boundary : N) (fallback : cnf_algorithm).

(** cnf/mod.rs 19: the boundary of the algorithms without a parameter. *)
Definition default_boundary : N := 12.

(** cnf/mod.rs 77-102, [CnfEncoder]: the states kept between calls ([None] for a stateless encoder). *)
Record cnf_encoder := mkCnfEncoder { ce_tseitin : option cnf_state; ce_pg : option cnf_state }.
Definition state_or_new (o : option cnf_state) : cnf_state := match o with Some st => st | None => cnf_state_new end.
Definition keep_state (o : option cnf_state) (st : cnf_state) : option cnf_state := match o with Some _ => Some st | None => None end.

(** As [nary_lazy], for a closure with a mutable state. *)
Fixpoint nary_lazy_st {S} (conj : bool) (k : N -> S -> M (N * S)) (acc ops : list N) (st : S) : M (N * S) :=
  match ops with
  | [] => r <-- f_nary conj acc ;; ret (r, st)
  | op :: ops' =>
      q <-- k op st ;;
      p <-- lift (fun s => prepare_nary s conj (acc ++ [fst q])) ;;
      match p with
      | None => ret (constant (negb conj), snd q)
      | Some _ => nary_lazy_st conj k (acc ++ [fst q]) ops' (snd q)
      end
  end.

(** cnf/mod.rs 42-69, [CnfAlgorithm::transform]; advanced.rs 10-33. *)
Fixpoint cnf_transform (alg : cnf_algorithm) (fuel : nat) (h : N) (enc : cnf_encoder) : M (N * cnf_encoder) :=
  c <-- lift (fun s => is_cnf s h) ;;
  if c then ret (h, enc)
  else
    match alg with
    | CnfFactorization => r <-- factorization_cnf fuel h ;; ret (r, enc)
    | CnfTseitin b =>
        p <-- tseitin_cnf fuel h b (state_or_new (ce_tseitin enc)) ;;
        ret (fst p, mkCnfEncoder (keep_state (ce_tseitin enc) (snd p)) (ce_pg enc))
    | CnfPlaistedGreenbaum b =>
        p <-- pg_on_formula fuel h b (state_or_new (ce_pg enc)) ;;
        ret (fst p, mkCnfEncoder (ce_tseitin enc) (keep_state (ce_pg enc) (snd p)))
    | CnfAdvanced d c fallback =>
        let single op enc :=
          p <-- factorization limit_handler true fuel op (limit_new d c) ;;
          match fst p with
          | FOk r => ret (r, enc)
          | FErr _ => cnf_transform fallback fuel op enc
          end in
        n <-- unpackM h ;;
        match n with
        | NAnd ops => nary_lazy_st true single [] ops enc
        | _ => single h enc
        end
    end.

(* ------------------------------------------------------------------------------------------------------------------ *)
(** * Pure expansion and anonymization *)

(** pbc_cc.rs 200-202 and 225-227, [is_amo], [is_exo]. *)
Definition is_amo (c : cc) : bool := match cc_cmp c with LE => cc_rhs c =? 1 | LT => cc_rhs c =? 2 | _ => false end.
Definition is_exo (c : cc) : bool := match cc_cmp c with EQ => cc_rhs c =? 1 | _ => false end.

(** pure_expansion.rs 4: the encoder. *)
Definition pure_config : cc_config := mkCcConfig AmoPure AmkBest AlkBest ExkBest.

(** pure_expansion.rs 11-32, [pure_expansion]; [fuel] bounds the recursion depth. *)
Fixpoint pure_expansion (fuel : nat) (h : N) : M N :=
  match fuel with
  | O => nofuel
  | S fuel' =>
      n <-- unpackM h ;;
      match n with
      | NPbc _ => fail
      | NCc c =>
          if is_amo c || is_exo c then
            enc <-- cc_encoder_encode pure_config c ;;
            enc' <-- (if is_exo c then o <-- f_or (map (fun v => encode_lit (Lit v true)) (cc_vars c)) ;; ret (enc ++ [o])
                      else ret enc) ;;
            f_and enc'
          else fail
      | NEquiv l r => l' <-- pure_expansion fuel' l ;; r' <-- pure_expansion fuel' r ;; f_equivalence l' r'
      | NImpl l r => l' <-- pure_expansion fuel' l ;; r' <-- pure_expansion fuel' r ;; f_implication l' r'
      | NOr ops => nary_lazy false [] (map (pure_expansion fuel') ops)
      | NAnd ops => nary_lazy true [] (map (pure_expansion fuel') ops)
      | NNot op => o <-- pure_expansion fuel' op ;; f_not o
      | NTrue | NFalse | NLit _ => ret h
      end
  end.

(** anonymizer.rs 10-17, [Anonymizer]. *)
Record anonymizer := mkAnonymizer { an_prefix : String.string; an_subst : substitution; an_counter : N }.
(** anonymizer.rs 26-28, [with_prefix]. *)
Definition anonymizer_new (prefix : String.string) : anonymizer := mkAnonymizer prefix [] 0.

(** [format!("{}{}", prefix, c)]. *)
Definition anon_name (prefix : String.string) (c : N) : String.string :=
  String.append prefix (DecimalString.NilZero.string_of_uint (N.to_uint c)).

(** anonymizer.rs 34-38. *)
Definition anon_var (v : var) (a : anonymizer) : M anonymizer :=
  match assoc var_eqb v (an_subst a) with
  | Some _ => ret a
  | None =>
      h <-- f_variable (anon_name (an_prefix a) (an_counter a)) ;;
      ret (mkAnonymizer (an_prefix a) ((v, h) :: an_subst a) (an_counter a + 1))
  end.

(** anonymizer.rs 31-41, [anonymize]. *)
Definition anonymize (fuel : nat) (h : N) (a : anonymizer) : M (N * anonymizer) :=
  vs <-- variables fuel h ;;
  a' <-- mfold anon_var vs a ;;
  r <-- substitute fuel (an_subst a') h ;;
  ret (r, a').
