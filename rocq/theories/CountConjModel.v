(** Model of src/operations/functions/model_count.rs 64-108, 111-113 and 132-175: counting the models of a conjunction of formulas with a BDD.

    Simplifications.  As in [CountModel]; the recursion of the clause form is bounded by a number computed from the factory, which is always enough.
    The two sets of the simple backbone are lists. *)
From Coq Require Import NArith ZArith List Bool Arith.
From Verif Require Import Base EncodingModel Syntax FactoryModel OpsModel CacheModel TransModel BddModel OrderModel XReplay CountModel.
Import ListNotations.
Local Open Scope N_scope.
Local Open Scope res_scope.

(** Not in the code: the nodes with operands that the factory holds, a bound of the depth of every formula. *)
Definition inner_nodes (s : factory) : nat :=
  (length (vt_vec (c_small (t_nots (f_tabs s)))) + length (vt_vec (c_small (t_ands (f_tabs s)))) + length (vt_vec (c_small (t_ors (f_tabs s))))
   + length (vt_vec (c_small (t_impls (f_tabs s)))) + length (vt_vec (c_small (t_equivs (f_tabs s)))))%nat.
Definition transform_fuel (s : factory) : nat := (4 * inner_nodes s + 14)%nat.

(** model_count.rs 66-69, 83-86 and 138-141: the variables of all the formulas. *)
Definition all_variables (fuel : nat) (hs : list N) : M (list var) :=
  mfold (fun h acc => vs <-- variables fuel h ;; ret (add_vars vs acc)) hs [].

(** model_count.rs 146-151, [encode_as_cnf]: the encoder is shared by the formulas. *)
Fixpoint encode_as_cnf (fuelp : nat) (hs : list N) (e : cnf_encoder) : M (list N) :=
  match hs with
  | [] => ret []
  | h :: r =>
      x <-- pure_expansion fuelp h ;;
      c <-- (fun s => cnf_transform count_algorithm (transform_fuel s) x e s) ;;
      cs <-- encode_as_cnf fuelp r (snd c) ;;
      ret (fst c :: cs)
  end.

(** model_count.rs 154-161: the formulas that are literals. *)
Fixpoint unit_literals (hs : list N) : M (list lit) :=
  match hs with
  | [] => ret []
  | h :: r =>
      n <-- lift (fun s => unpack s h) ;;
      ls <-- unit_literals r ;;
      ret (match n with NLit l => l :: ls | _ => ls end)
  end.
Definition backbone_of (ls : list lit) : assignment :=
  mkAsg (map lit_var (filter lit_phase ls)) (map lit_var (filter (fun l => negb (lit_phase l)) ls)).
(** model_count.rs 162-169. *)
Fixpoint restrict_all (fuel : nat) (a : assignment) (hs : list N) : M (list N) :=
  match hs with
  | [] => ret []
  | h :: r =>
      k <-- restrict fuel a h ;;
      ks <-- restrict_all fuel a r ;;
      ret (if is_verum k then ks else k :: ks)
  end.

(** model_count.rs 91-108, [count_models_internal]. *)
Definition count_internal (alg : cnf_algorithm) (prime : nat -> N -> nat) (size csize rounds fuelp fuel : nat) (hs : list N) (relevant vs : list var) : M N :=
  if negb (forallb (fun u => existsb (var_eqb u) relevant) vs) then fail
  else
    match vs with
    | [] => ret (if forallb is_verum hs then 1 else 0)
    | _ =>
        cs <-- encode_as_cnf fuelp hs count_encoder ;;
        ls <-- unit_literals cs ;;
        rs <-- restrict_all fuel (backbone_of ls) cs ;;
        z <-- f_and rs ;;
        n <-- count_formula alg prime size csize rounds fuel z ;;
        used <-- all_variables fuel rs ;;
        k <-- care_factor relevant (map lit_var ls ++ used) ;;
        ret (n * k)
    end.
(** model_count.rs 77-88. *)
Definition count_conjunction_with_vars (alg : cnf_algorithm) (prime : nat -> N -> nat) (size csize rounds fuelp fuel : nat) (hs : list N) (relevant : list var) : M N :=
  vs <-- all_variables fuelp hs ;;
  count_internal alg prime size csize rounds fuelp fuel hs relevant vs.
(** model_count.rs 65-71. *)
Definition count_conjunction (alg : cnf_algorithm) (prime : nat -> N -> nat) (size csize rounds fuelp fuel : nat) (hs : list N) : M N :=
  vs <-- all_variables fuelp hs ;;
  count_internal alg prime size csize rounds fuelp fuel hs vs vs.
