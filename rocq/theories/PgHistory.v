(** Histories of one factory and several solvers to which formulas are added. *)
From Coq Require Import NArith ZArith List Bool Arith.
From Verif Require Import Base EncodingModel Syntax FactoryModel FactoryInv FactoryOps EvalProofs HistoryModel OpsProofs CcFrontProofs TransModel TreeSpec EncodeProofs XHistory
  SatModel SatSpec MiniModel OptModel PgSolverModel BbSimpModel SatPredModel.
Import ListNotations.
Local Open Scope N_scope.

(** A solver with its configuration; the formulas added since it was created or reset, and those of them that were added by
    [add] (not as propositions), which makes their variables known to the solver. *)
Record slv := mkSlv { sv_mc : mconfig; sv_fs : fsolver; sv_added : list N; sv_shown : list N }.
Record gstate := mkG { g_x : xstate; g_solvers : list slv }.

(** The recursion bound is not in the code; it must be large enough. *)
Definition room (fuel : nat) (x : fml) : Prop := (N.to_nat (nodes x) <= fuel)%nat /\ (4 * depth x + 14 <= fuel)%nat.
(** The caller has the handle, and the constraints in the formula can be encoded (see C10, C11). *)
Definition addable (s : factory) (known : list N) (fuel : nat) (h : N) : Prop := In h known /\ all_of s h (fun x => encodable s x /\ room fuel x).
(** Numbers in constraints stay within the machine types when the formula is restricted (see C22). *)
Definition simplifiable (s : factory) (known : list N) (fuel : nat) (h : N) : Prop := addable s known fuel h /\ all_of s h (fun x => forall a, restrictable a x).
(** The recursion bound is large enough for the negated formula. *)
Definition refutable (s : factory) (known : list N) (fuel : nat) (h : N) : Prop :=
  In h known /\ all_of s h (encodable s) /\ forall g s1, f_negate h s = (Ok g, s1) -> all_of s1 g (room fuel).
(** Assumptions are literals of variables that the caller has seen. *)
Definition asm_known (s : factory) (known : list N) (asm : option (list lit)) : Prop :=
  forall ls l, asm = Some ls -> In l ls -> knows_var s known (lit_var l).

Section Steps.
  Variable orc : oracle.
  (** A step of the factory (XHistory.v); functions of the factory that use a solver of their own; a new solver; calls on one of the solvers. *)
  Inductive gstep : gstate -> gstate -> Prop :=
  | gs_factory : forall a b ss, xstep a b -> gstep (mkG a ss) (mkG b ss)
  | gs_simplify : forall s known os ss rounds fuel h r s', simplifiable s known fuel h -> backbone_simplification orc rounds fuel h s = (Ok r, s') -> cap s' ->
      gstep (mkG (mkX s known os) ss) (mkG (mkX s' (r :: known) os) ss)
  | gs_is_sat : forall s known os ss alg fuel h b s', addable s known fuel h -> is_sat orc alg fuel h s = (Ok b, s') -> cap s' ->
      gstep (mkG (mkX s known os) ss) (mkG (mkX s' known os) ss)
  | gs_is_tautology : forall s known os ss alg fuel h b s', refutable s known fuel h -> is_tautology orc alg fuel h s = (Ok b, s') -> cap s' ->
      gstep (mkG (mkX s known os) ss) (mkG (mkX s' known os) ss)
  | gs_new : forall a ss mc, g_min (mc_sat mc) = MinBasic \/ g_min (mc_sat mc) = MinDeep -> gstep (mkG a ss) (mkG a (mkSlv mc fs_new [] [] :: ss))
  | gs_add : forall s known os ss1 mc fs ad sh ss2 meth fuel h s' fs', addable s known fuel h -> fs_add mc meth fuel h s fs = Ok (s', fs') -> cap s' ->
      gstep (mkG (mkX s known os) (ss1 ++ mkSlv mc fs ad sh :: ss2)) (mkG (mkX s' known os) (ss1 ++ mkSlv mc fs' (h :: ad) (h :: sh) :: ss2))
  | gs_prop : forall s known os ss1 mc fs ad sh ss2 meth fuel h s' fs', addable s known fuel h -> fs_add_prop mc meth fuel h s fs = Ok (s', fs') -> cap s' ->
      gstep (mkG (mkX s known os) (ss1 ++ mkSlv mc fs ad sh :: ss2)) (mkG (mkX s' known os) (ss1 ++ mkSlv mc fs' (h :: ad) sh :: ss2))
  | gs_sat : forall s known os ss1 mc fs ad sh ss2 fuel asm order b fs', asm_known s known asm -> fs_sat mc orc fuel asm order fs = Ok (b, fs') ->
      gstep (mkG (mkX s known os) (ss1 ++ mkSlv mc fs ad sh :: ss2)) (mkG (mkX s known os) (ss1 ++ mkSlv mc fs' ad sh :: ss2))
  | gs_backbone : forall a ss1 mc fs ad sh ss2 rounds fuel vs t b fs', fs_backbone mc orc rounds fuel vs t fs = Ok (b, fs') ->
      gstep (mkG a (ss1 ++ mkSlv mc fs ad sh :: ss2)) (mkG a (ss1 ++ mkSlv mc fs' ad sh :: ss2))
  | gs_enumerate : forall a ss1 mc fs ad sh ss2 rounds fuel ec ms fs', fs_enumerate mc orc rounds fuel ec fs = Ok (ms, fs') ->
      gstep (mkG a (ss1 ++ mkSlv mc fs ad sh :: ss2)) (mkG a (ss1 ++ mkSlv mc fs' ad sh :: ss2))
  | gs_reset : forall a ss1 mc fs ad sh ss2,
      gstep (mkG a (ss1 ++ mkSlv mc fs ad sh :: ss2)) (mkG a (ss1 ++ mkSlv mc (fs_reset fs) [] [] :: ss2)).

  Inductive gsteps : gstate -> gstate -> Prop :=
  | gss_refl : forall a, gsteps a a
  | gss_step : forall a b c, gsteps a b -> gstep b c -> gsteps a c.

  (** A new factory and no solvers. *)
  Definition greachable (cfg : ff_config) (g : gstate) : Prop := gsteps (mkG (mkX (factory_new cfg) [] []) []) g.
End Steps.
