(** Model of the backbone simplification, src/operations/transformations/simplification/backbone_simplification.rs, and of the
    methods of [Backbone], src/backbones/mod.rs. *)
From Coq Require Import NArith ZArith List Bool Arith.
From Verif Require Import Base EncodingModel Syntax FactoryModel OpsModel CacheModel TransModel SatModel AssignmentModel MiniModel PgSolverModel.
Import ListNotations.
Local Open Scope N_scope.

(** backbones/mod.rs 74-98, [is_empty]. *)
Definition no_vars (o : option (list var)) : bool := match o with None | Some [] => true | _ => false end.
Definition bb_is_empty (b : backbone) : bool := match b with None => true | Some (pos, neg, _) => no_vars pos && no_vars neg end.
(** backbones/mod.rs 100-139, [complete_backbone]: a [BTreeSet] of literals. *)
Definition bb_vars (o : option (list var)) : list var := match o with None => [] | Some l => l end.
Definition bb_complete (b : backbone) : list lit :=
  match b with
  | None => []
  | Some (pos, neg, _) => add_lits (map (fun v => Lit v false) (bb_vars neg)) (add_lits (map (fun v => Lit v true) (bb_vars pos)) [])
  end.
(** backbones/mod.rs 142-146, [to_formula]. *)
Definition bb_to_formula (b : backbone) : M N :=
  match b with None => ret falsum | Some _ => f_and (map encode_lit (bb_complete b)) end.

(** [f.caches.backbone_simps.insert]. *)
Definition set_simps (c : op_caches) x : op_caches := mkOpCaches (oc_atoms c) (oc_nodes c) (oc_depth c) (oc_vars c) (oc_lits c)
  (oc_sub c) (oc_ccenc c) (oc_pbcenc c) (oc_nnf c) (oc_dnf c) (oc_cnf c) (oc_sat c) (oc_is_nnf c) (oc_is_dnf c) (oc_is_cnf c)
  (oc_contains_pbc c) x.
Definition put_simp (h r : N) : M unit := cache_put on_bb (fun c => set_simps c (oc_insert h r (oc_bb c))).

(** minisat_config.rs 73-95: the configuration of [MiniSat::new()], with [PgOnSolver] as CNF method. *)
Definition default_mc : mconfig := mkMc (mkCfg MinDeep true true false) false false true true true.

(** [solver.add(formula, f)] on a solver of one's own. *)
Definition add_to_solver (mc : mconfig) (meth : cnf_method) (fuel : nat) (h : N) (fs : fsolver) : M fsolver := fun s =>
  (do ' (_, fs') <- fs_add mc meth fuel h s fs; Ok fs', snd (add_formula meth fuel h (fs_pc fs) s)).

(** backbone_simplification.rs 25-48; [rounds] and [fuel] bound the loops. *)
Definition backbone_simplification (orc : oracle) (rounds fuel : nat) (h : N) : M N :=
  cached <-- cache_get oc_bb h ;;
  match cached with
  | Some r => ret r
  | None =>
      fs <-- add_to_solver default_mc PgOnSolver fuel h fs_new ;;
      vs <-- variables fuel h ;;
      p <-- lift (fun _ => fs_backbone default_mc orc rounds fuel vs PositiveAndNegative fs) ;;
      let b := fst p in
      r <-- match b with
            | None => ret falsum
            | Some _ =>
                if bb_is_empty b then ret h
                else
                  bf <-- bb_to_formula b ;;
                  rf <-- restrict fuel (asg_from_literals (bb_complete b)) h ;;
                  f_and [bf; rf]
            end ;;
      put_simp h r ;;; ret r
  end.
