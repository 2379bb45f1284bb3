(** Running a history with solvers, with a decision procedure for the side conditions; used by the examples. *)
From Coq Require Import NArith ZArith List Bool Arith Lia.
From Verif Require Import Base EncodingModel Syntax FactoryModel FactoryInv FactoryOps EvalProofs HistoryModel OpsProofs CcFrontProofs TransModel TreeSpec EncodeProofs DefBasics XHistory XReplay
  SatModel SatSpec MiniModel OptModel PgSolverModel BbSimpModel SatPredModel PgHistory.
Import ListNotations.
Local Open Scope N_scope.

Inductive gr :=
| GSimplify (rounds fuel : nat) (h : N)
| GIsSat (alg : cnf_algorithm) (fuel : nat) (h : N)
| GIsTautology (alg : cnf_algorithm) (fuel : nat) (h : N)
| GNew (mc : mconfig)
| GAdd (i : nat) (meth : cnf_method) (fuel : nat) (h : N)
| GProp (i : nat) (meth : cnf_method) (fuel : nat) (h : N)
| GSat (i : nat) (fuel : nat) (asm order : option (list lit))
| GBackbone (i : nat) (rounds fuel : nat) (vs : list var) (t : btype)
| GEnumerate (i : nat) (rounds fuel : nat) (ec : econfig)
| GReset (i : nat).

Definition room_b (d : nat) (s : factory) (h : N) (fuel : nat) : bool := match tree_of d s h with Some x => (N.to_nat (nodes x) <=? fuel)%nat | None => false end.
Lemma room_b_ok : forall d s h fuel, room_b d s h fuel = true -> all_of s h (fun x => (N.to_nat (nodes x) <= fuel)%nat).
Proof.
  intros d s h fuel H x Hx. unfold room_b in H. destruct (tree_of d s h) as [y |] eqn:E; [| discriminate].
  apply tree_of_sound in E. rewrite (denotes_fun _ _ _ _ Hx E). now apply Nat.leb_le.
Qed.
Definition addable_d (d : nat) (s : factory) (known : list N) (fuel : nat) (h : N) : bool := mem h known && (enc_d d s h 4 14 fuel && room_b d s h fuel).
Definition addable_b := addable_d 40.
Lemma addable_d_ok : forall d s known fuel h, addable_d d s known fuel h = true -> addable s known fuel h.
Proof.
  intros d s known fuel h H. apply andb_true_iff in H. destruct H as [H1 H]. apply andb_true_iff in H. destruct H as [H2 H3]. split; [now apply mem_in |].
  intros x Hx. destruct (enc_d_ok _ _ _ _ _ _ H2 x Hx) as [K1 K2]. split; [exact K1 |]. split; [exact (room_b_ok _ _ _ _ H3 x Hx) | exact K2].
Qed.
Lemma addable_b_ok : forall s known fuel h, addable_b s known fuel h = true -> addable s known fuel h.
Proof. exact (addable_d_ok 40). Qed.
(** Formulas without constraints can be restricted. *)
Definition free_b (d : nat) (s : factory) (h : N) : bool := match tree_of d s h with Some x => con_free x | None => false end.
Definition simplifiable_d (d : nat) (s : factory) (known : list N) (fuel : nat) (h : N) : bool := addable_d d s known fuel h && free_b d s h.
Lemma simplifiable_d_ok : forall d s known fuel h, simplifiable_d d s known fuel h = true -> simplifiable s known fuel h.
Proof.
  intros d s known fuel h H. apply andb_true_iff in H. destruct H as [H1 H2]. split; [exact (addable_d_ok _ _ _ _ _ H1) |]. intros x Hx a. unfold free_b in H2. destruct (tree_of d s h) as [y |] eqn:E; [| discriminate].
  apply tree_of_sound in E. rewrite (denotes_fun _ _ _ _ Hx E). now apply con_free_restrictable.
Qed.
Definition simplifiable_b := simplifiable_d 40.
Lemma simplifiable_b_ok : forall s known fuel h, simplifiable_b s known fuel h = true -> simplifiable s known fuel h.
Proof. exact (simplifiable_d_ok 40). Qed.
Definition refutable_d (d : nat) (s : factory) (known : list N) (fuel : nat) (h : N) : bool :=
  addable_d d s known fuel h && match f_negate h s with (Ok g, s1) => addable_d d s1 [g] fuel g | _ => true end.
Lemma refutable_d_ok : forall d s known fuel h, refutable_d d s known fuel h = true -> refutable s known fuel h.
Proof.
  intros d s known fuel h H. apply andb_true_iff in H. destruct H as [H1 H2]. destruct (addable_d_ok _ _ _ _ _ H1) as [K1 K2]. split; [exact K1 |]. split; [intros x Hx; now apply K2 |].
  intros g s1 E x Hx. rewrite E in H2. now apply (addable_d_ok _ _ _ _ _ H2).
Qed.
Definition refutable_b := refutable_d 40.
Lemma refutable_b_ok : forall s known fuel h, refutable_b s known fuel h = true -> refutable s known fuel h.
Proof. exact (refutable_d_ok 40). Qed.
Definition asm_b (s : factory) (known : list N) (asm : option (list lit)) : bool := match asm with Some ls => forallb (fun l => knows_b s known (lit_var l)) ls | None => true end.
Lemma asm_b_ok : forall s known asm, asm_b s known asm = true -> asm_known s known asm.
Proof. intros s known asm H ls l -> Hl. cbn [asm_b] in H. rewrite forallb_forall in H. apply knows_b_ok. auto. Qed.

Definition min_b (mc : mconfig) : bool := match g_min (mc_sat mc) with MinBasic | MinDeep => true | MinNone => false end.
Definition put (i : nat) (sv : slv) (ss : list slv) : list slv := firstn i ss ++ sv :: skipn (S i) ss.
Definition greplay1 (orc : oracle) (r : gr) (g : gstate) : option gstate :=
  let '(mkG (mkX s known os) ss) := g in
  match r with
  | GSimplify rounds fuel h =>
      if simplifiable_b s known fuel h then match backbone_simplification orc rounds fuel h s with (Ok r, s') => if cap_b s' then Some (mkG (mkX s' (r :: known) os) ss) else None | _ => None end else None
  | GIsSat alg fuel h => if addable_b s known fuel h then match is_sat orc alg fuel h s with (Ok _, s') => if cap_b s' then Some (mkG (mkX s' known os) ss) else None | _ => None end else None
  | GIsTautology alg fuel h =>
      if refutable_b s known fuel h then match is_tautology orc alg fuel h s with (Ok _, s') => if cap_b s' then Some (mkG (mkX s' known os) ss) else None | _ => None end else None
  | GNew mc => if min_b mc then Some (mkG (g_x g) (mkSlv mc fs_new [] [] :: ss)) else None
  | GAdd i meth fuel h =>
      match nth_error ss i with
      | Some (mkSlv mc fs ad sh) =>
          if addable_b s known fuel h then
            match fs_add mc meth fuel h s fs with Ok (s', fs') => if cap_b s' then Some (mkG (mkX s' known os) (put i (mkSlv mc fs' (h :: ad) (h :: sh)) ss)) else None | _ => None end
          else None
      | None => None
      end
  | GProp i meth fuel h =>
      match nth_error ss i with
      | Some (mkSlv mc fs ad sh) =>
          if addable_b s known fuel h then
            match fs_add_prop mc meth fuel h s fs with Ok (s', fs') => if cap_b s' then Some (mkG (mkX s' known os) (put i (mkSlv mc fs' (h :: ad) sh) ss)) else None | _ => None end
          else None
      | None => None
      end
  | GSat i fuel asm order =>
      match nth_error ss i with
      | Some (mkSlv mc fs ad sh) =>
          if asm_b s known asm then match fs_sat mc orc fuel asm order fs with Ok (_, fs') => Some (mkG (g_x g) (put i (mkSlv mc fs' ad sh) ss)) | _ => None end else None
      | None => None
      end
  | GBackbone i rounds fuel vs t =>
      match nth_error ss i with
      | Some (mkSlv mc fs ad sh) => match fs_backbone mc orc rounds fuel vs t fs with Ok (_, fs') => Some (mkG (g_x g) (put i (mkSlv mc fs' ad sh) ss)) | _ => None end
      | None => None
      end
  | GEnumerate i rounds fuel ec =>
      match nth_error ss i with
      | Some (mkSlv mc fs ad sh) => match fs_enumerate mc orc rounds fuel ec fs with Ok (_, fs') => Some (mkG (g_x g) (put i (mkSlv mc fs' ad sh) ss)) | _ => None end
      | None => None
      end
  | GReset i => match nth_error ss i with Some (mkSlv mc fs ad sh) => Some (mkG (g_x g) (put i (mkSlv mc (fs_reset fs) [] []) ss)) | None => None end
  end.
Fixpoint greplay (orc : oracle) (rs : list gr) (g : gstate) : option gstate :=
  match rs with [] => Some g | r :: rs' => match greplay1 orc r g with Some b => greplay orc rs' b | None => None end end.

Lemma put_split : forall i (ss : list slv) sv, nth_error ss i = Some sv -> exists a b, ss = a ++ sv :: b /\ forall sv', put i sv' ss = a ++ sv' :: b.
Proof.
  intros i ss sv H. exists (firstn i ss), (skipn (S i) ss). split; [| reflexivity]. revert i H. induction ss as [| x ss IH]; intros [| i] H; cbn in *; try discriminate; [injection H as <-; reflexivity |].
  f_equal. now apply IH.
Qed.
Lemma greplay1_step : forall orc r g g', greplay1 orc r g = Some g' -> gstep orc g g'.
Proof.
  intros orc r [[s known os] ss] g' H. destruct r as [rounds fuel h | alg fuel h | alg fuel h | mc | i meth fuel h | i meth fuel h | i fuel asm order | i rounds fuel vs t | i rounds fuel ec | i]; cbn [greplay1 g_x] in H.
  - destruct (simplifiable_b s known fuel h) eqn:Ea; [| discriminate]. destruct (backbone_simplification orc rounds fuel h s) as [[r | |] s'] eqn:Ef; try discriminate. destruct (cap_b s') eqn:Ec; [| discriminate]. injection H as <-.
    eapply gs_simplify; [apply simplifiable_b_ok; exact Ea | exact Ef | apply cap_b_ok; exact Ec].
  - destruct (addable_b s known fuel h) eqn:Ea; [| discriminate]. destruct (is_sat orc alg fuel h s) as [[r | |] s'] eqn:Ef; try discriminate. destruct (cap_b s') eqn:Ec; [| discriminate]. injection H as <-.
    eapply gs_is_sat; [apply addable_b_ok; exact Ea | exact Ef | apply cap_b_ok; exact Ec].
  - destruct (refutable_b s known fuel h) eqn:Ea; [| discriminate]. destruct (is_tautology orc alg fuel h s) as [[r | |] s'] eqn:Ef; try discriminate. destruct (cap_b s') eqn:Ec; [| discriminate]. injection H as <-.
    eapply gs_is_tautology; [apply refutable_b_ok; exact Ea | exact Ef | apply cap_b_ok; exact Ec].
  - destruct (min_b mc) eqn:E; [| discriminate]. injection H as <-. apply gs_new. unfold min_b in E. destruct (g_min (mc_sat mc)); auto; discriminate.
  - destruct (nth_error ss i) as [[mc fs ad sh] |] eqn:Es; [| discriminate]. destruct (put_split _ _ _ Es) as (a & b & -> & P). destruct (addable_b s known fuel h) eqn:Ea; [| discriminate]. destruct (fs_add mc meth fuel h s fs) as [[s' fs'] | |] eqn:Ef; try discriminate.
    destruct (cap_b s') eqn:Ec; [| discriminate]. injection H as <-. rewrite P. eapply gs_add; [apply addable_b_ok; exact Ea | exact Ef | apply cap_b_ok; exact Ec].
  - destruct (nth_error ss i) as [[mc fs ad sh] |] eqn:Es; [| discriminate]. destruct (put_split _ _ _ Es) as (a & b & -> & P). destruct (addable_b s known fuel h) eqn:Ea; [| discriminate]. destruct (fs_add_prop mc meth fuel h s fs) as [[s' fs'] | |] eqn:Ef; try discriminate.
    destruct (cap_b s') eqn:Ec; [| discriminate]. injection H as <-. rewrite P. eapply gs_prop; [apply addable_b_ok; exact Ea | exact Ef | apply cap_b_ok; exact Ec].
  - destruct (nth_error ss i) as [[mc fs ad sh] |] eqn:Es; [| discriminate]. destruct (put_split _ _ _ Es) as (a & b & -> & P). destruct (asm_b s known asm) eqn:Ea; [| discriminate]. destruct (fs_sat mc orc fuel asm order fs) as [[q fs'] | |] eqn:Ef; try discriminate.
    injection H as <-. rewrite P. eapply gs_sat; [apply asm_b_ok; exact Ea | exact Ef].
  - destruct (nth_error ss i) as [[mc fs ad sh] |] eqn:Es; [| discriminate]. destruct (put_split _ _ _ Es) as (a & b & -> & P). destruct (fs_backbone mc orc rounds fuel vs t fs) as [[q fs'] | |] eqn:Ef; try discriminate. injection H as <-. rewrite P. eapply gs_backbone; exact Ef.
  - destruct (nth_error ss i) as [[mc fs ad sh] |] eqn:Es; [| discriminate]. destruct (put_split _ _ _ Es) as (a & b & -> & P). destruct (fs_enumerate mc orc rounds fuel ec fs) as [[q fs'] | |] eqn:Ef; try discriminate. injection H as <-. rewrite P. eapply gs_enumerate; exact Ef.
  - destruct (nth_error ss i) as [[mc fs ad sh] |] eqn:Es; [| discriminate]. destruct (put_split _ _ _ Es) as (a & b & -> & P). injection H as <-. rewrite P. apply gs_reset.
Qed.
Lemma gsteps_xsteps : forall orc a b ss, xsteps a b -> gsteps orc (mkG a ss) (mkG b ss).
Proof. intros orc a b ss H. induction H as [| a b c H IH Hs]; [constructor | econstructor; [exact IH | now apply gs_factory]]. Qed.
Lemma gsteps_trans : forall orc a b c, gsteps orc a b -> gsteps orc b c -> gsteps orc a c.
Proof. intros orc a b c H1 H2. revert H1. induction H2 as [| b c d H IH Hs]; intros H1; [exact H1 | eapply gss_step; [apply IH; exact H1 | exact Hs]]. Qed.
Lemma greplay_steps : forall orc rs g g', greplay orc rs g = Some g' -> gsteps orc g g'.
Proof.
  intros orc. induction rs as [| r rs IH]; intros g g' H; cbn [greplay] in H; [injection H as <-; constructor |]. destruct (greplay1 orc r g) as [b |] eqn:E; [| discriminate].
  eapply gsteps_trans; [econstructor; [constructor | eapply greplay1_step; exact E] | apply IH; exact H].
Qed.
Lemma greplay_reach : forall orc cfg s known os rs g, xreachable cfg s known os -> greplay orc rs (mkG (mkX s known os) []) = Some g -> greachable orc cfg g.
Proof. intros orc cfg s known os rs g Hr H. eapply gsteps_trans; [apply gsteps_xsteps; exact Hr | eapply greplay_steps; exact H]. Qed.
