(** Running an extended history, with a decision procedure for the side conditions; used by the examples. *)
From Coq Require Import NArith ZArith List Bool Arith Lia.
From Verif Require Import Base EncodingModel EncodingProofs Syntax FactoryModel FactoryInv FactoryBasics FactoryOps EvalProofs HistoryModel ConstraintModel OpsModel
  OpsProofs CcModel ConstraintProofs CcFrontProofs PbModel CacheModel TransModel TreeSpec EncodeProofs NnfProofs PureProofs AnonProofs XHistory.
Import ListNotations.
Local Open Scope N_scope.

Fixpoint opt_map {A B} (f : A -> option B) (l : list A) : option (list B) :=
  match l with [] => Some [] | a :: l' => match f a, opt_map f l' with Some b, Some r => Some (b :: r) | _, _ => None end end.

Fixpoint tree_of (fuel : nat) (s : factory) (h : N) : option fml :=
  match fuel with
  | O => None
  | S fuel' =>
      let sub := tree_of fuel' s in
      match unpack s h with
      | Ok NTrue => Some FTrue
      | Ok NFalse => Some FFalse
      | Ok (NLit l) => Some (FLit l)
      | Ok (NNot a) => option_map FNot (sub a)
      | Ok (NAnd l) => option_map FAnd (opt_map sub l)
      | Ok (NOr l) => option_map FOr (opt_map sub l)
      | Ok (NImpl a b) => match sub a, sub b with Some x, Some y => Some (FImpl x y) | _, _ => None end
      | Ok (NEquiv a b) => match sub a, sub b with Some x, Some y => Some (FEquiv x y) | _, _ => None end
      | Ok (NCc c) => Some (FCc c)
      | Ok (NPbc p) => Some (FPbc p)
      | _ => None
      end
  end.

Lemma opt_map_all : forall A B (f : A -> option B) l r, opt_map f l = Some r -> Forall2 (fun a b => f a = Some b) l r.
Proof.
  intros A B f l. induction l as [| a l IH]; intros r H; cbn in H; [injection H as <-; constructor |].
  destruct (f a) eqn:E; [| discriminate]. destruct (opt_map f l); [| discriminate]. injection H as <-. constructor; auto.
Qed.
Lemma F2_impl : forall A B (P Q : A -> B -> Prop) l r, (forall a b, P a b -> Q a b) -> Forall2 P l r -> Forall2 Q l r.
Proof. intros A B P Q l r H HF. induction HF; constructor; auto. Qed.
Lemma tree_of_sound : forall fuel s h x, tree_of fuel s h = Some x -> denotes s h x.
Proof.
  induction fuel as [| fuel IH]; intros s h x H; [discriminate |]. cbn [tree_of] in H.
  destruct (unpack s h) as [[| | lt | a | l | l | a b | a b | c | p] | |] eqn:U; try discriminate; try (injection H as <-; econstructor; eassumption).
  - destruct (tree_of fuel s a) eqn:E; [| discriminate]. injection H as <-. econstructor; eauto.
  - destruct (opt_map (tree_of fuel s) l) eqn:E; [| discriminate]. injection H as <-. econstructor; [exact U |].
    apply opt_map_all in E. eapply F2_impl; [| exact E]. intros a b. apply IH.
  - destruct (opt_map (tree_of fuel s) l) eqn:E; [| discriminate]. injection H as <-. econstructor; [exact U |].
    apply opt_map_all in E. eapply F2_impl; [| exact E]. intros a b. apply IH.
  - destruct (tree_of fuel s a) eqn:E1; [| discriminate]. destruct (tree_of fuel s b) eqn:E2; [| discriminate]. injection H as <-. econstructor; eauto.
  - destruct (tree_of fuel s a) eqn:E1; [| discriminate]. destruct (tree_of fuel s b) eqn:E2; [| discriminate]. injection H as <-. econstructor; eauto.
Qed.

Definition mem (h : N) (l : list N) : bool := existsb (N.eqb h) l.
Lemma mem_in : forall h l, mem h l = true -> In h l.
Proof. intros h l H. apply existsb_exists in H. destruct H as [k [Hk E]]. apply N.eqb_eq in E. now subst. Qed.

Definition knows_b (s : factory) (known : list N) (v : var) : bool :=
  existsb (fun h => match unpack s h with Ok n => existsb (var_eqb v) (node_vars n) | _ => false end) known.
Lemma knows_b_ok : forall s known v, knows_b s known v = true -> knows_var s known v.
Proof.
  intros s known v H. apply existsb_exists in H. destruct H as [h [Hh H]]. destruct (unpack s h) as [n | |] eqn:U; try discriminate.
  apply existsb_exists in H. destruct H as [u [Hu E]]. apply var_eqb_spec in E. subst u. exists h, n. auto.
Qed.

(** A tree without constraints, and enough fuel; 40 is more than the depth of any example. *)
Definition con_free_d (d : nat) (s : factory) (h : N) (k c fuel : nat) : bool :=
  match tree_of d s h with Some x => con_free x && (k * depth x + c <=? fuel)%nat | None => false end.

Definition con_free_b := con_free_d 40.
(** Small cardinality constraints, with the default encoders. *)
Definition enc_leaf_b (lf : leaf) : bool :=
  match lf with LfVar _ => true | LfCc c => Nat.ltb (length (cc_vars c)) 1000 && (cc_rhs c <? 1000) | LfPbc _ => false end.
Definition enc_d (d : nat) (s : factory) (h : N) (k c fuel : nat) : bool :=
  match cfg_cc (f_config s), tree_of d s h with
  | mkCcConfig AmoBest AmkBest AlkBest ExkBest, Some x => forallb enc_leaf_b (leaves x) && (k * depth x + c <=? fuel)%nat
  | _, _ => false
  end.
Definition enc_b := enc_d 40.

Definition xok_b (s : factory) (known : list N) (c : xcall) : bool :=
  match c with
  | XCall (CVariable _) | XCall (CLiteral _ _) | XCall (CConstant _) | XCall (CAux _) => true
  | XCall (CNary _ ops) => forallb (fun h => mem h known) ops
  | XCall (CClause ls) => forallb (fun l => knows_b s known (lit_var l)) ls
  | XCall (CNot h) | XCall (CNegate h) => mem h known
  | XCall (CImpl a b) | XCall (CEquiv a b) => mem a known && mem b known
  | XCall (CCc _ rhs vs) => forallb (knows_b s known) vs && (rhs <? 4294967296)
  | XCall (CParsed a i) => i <? ctr (ctrs_of s) a
  | XNnf fuel h => mem h known && enc_b s h 1 5 fuel
  | XFactorization _ fuel h => mem h known && enc_b s h 2 8 fuel
  | XPure fuel h => mem h known && con_free_b s h 1 1 fuel
  | XEncode h => mem h known && enc_b s h 0 0 0
  | XIsDnf h => mem h known
  | XIsNnf fuel h | XDepth fuel h | XAtoms fuel h | XNodes fuel h | XVariables fuel h | XLiterals fuel h | XSubNodes fuel h =>
      mem h known && con_free_b s h 1 1 fuel
  | XCnf _ fuel h | XTseitin _ fuel h | XPg _ fuel h => mem h known && enc_b s h 4 14 fuel
  | XAnonymize fuel h => mem h known && con_free_b s h 1 1 fuel
  | _ => false
  end.

Lemma con_free_d_ok : forall d s h k c fuel, con_free_d d s h k c fuel = true -> all_of s h (fun x => con_free x = true /\ enough k c fuel x).
Proof.
  intros d s h k c fuel H x Hx. unfold con_free_d in H. destruct (tree_of d s h) as [y |] eqn:E; [| discriminate]. apply tree_of_sound in E.
  rewrite (denotes_fun _ _ _ _ Hx E). apply andb_true_iff in H. destruct H as [H1 H2]. split; [exact H1 | apply Nat.leb_le; exact H2].
Qed.
Lemma con_free_b_ok : forall s h k c fuel, con_free_b s h k c fuel = true -> all_of s h (fun x => con_free x = true /\ enough k c fuel x).
Proof. exact (con_free_d_ok 40). Qed.
Lemma sum_abs_ones : forall n, sum_abs (repeat 1%Z n) = Z.of_nat n.
Proof. induction n as [| n IH]; [reflexivity |]. cbn [repeat sum_abs] in *. unfold sum_abs in *. cbn [map fold_right] in *. lia. Qed.
Lemma enc_leaf_b_ok : forall lf, enc_leaf_b lf = true -> leaf_enc (mkCcConfig AmoBest AmkBest AlkBest ExkBest) lf.
Proof.
  intros [v | c | p] H; cbn [enc_leaf_b leaf_enc] in *; [exact I | | discriminate]. apply andb_true_iff in H. destruct H as [H1 H2].
  apply Nat.ltb_lt in H1. apply N.ltb_lt in H2. unfold con_enc. cbn [cfg_amo amo_cfg_ok]. split; [exact I |].
  assert (Z.of_nat (length (cc_vars c)) < 1000)%Z by lia. unfold pos_lits. rewrite map_length, sum_abs_ones. split; [lia |]. split; [unfold B63; lia |].
  intros _ _. repeat split.
Qed.
Lemma enc_d_ok : forall d s h k c fuel, enc_d d s h k c fuel = true -> all_of s h (fun x => encodable s x /\ enough k c fuel x).
Proof.
  intros d s h k c fuel H x Hx. unfold enc_d in H. unfold encodable. destruct (cfg_cc (f_config s)) as [a b e f].
  destruct a, b, e, f; try discriminate. destruct (tree_of d s h) as [y |] eqn:E; [| discriminate]. apply tree_of_sound in E.
  rewrite (denotes_fun _ _ _ _ Hx E). apply andb_true_iff in H. destruct H as [H1 H2]. split; [| apply Nat.leb_le; exact H2].
  apply Forall_forall. intros lf Hl. rewrite forallb_forall in H1. apply enc_leaf_b_ok. auto.
Qed.
Lemma enc_b_ok : forall s h k c fuel, enc_b s h k c fuel = true -> all_of s h (fun x => encodable s x /\ enough k c fuel x).
Proof. exact (enc_d_ok 40). Qed.
Lemma all_of_impl : forall s h (P Q : fml -> Prop), (forall x, P x -> Q x) -> all_of s h P -> all_of s h Q.
Proof. intros s h P Q H HP x Hx. auto. Qed.
Lemma con_free_anon : forall x, con_free x = true -> Forall anon_leaf (leaves x) /\ pureable x.
Proof.
  unfold pureable. intros x. induction x using fml_ind2; cbn [con_free leaves]; intros Hc; try discriminate; auto.
  - split; (constructor; [exact I | constructor]).
  - rewrite forallb_forall in Hc. rewrite Forall_forall in H. split; apply Forall_forall; intros lf Hl; apply in_flat_map in Hl; destruct Hl as [y [Hy Hl]];
      destruct (H y Hy (Hc y Hy)) as [A B]; rewrite Forall_forall in A, B; auto.
  - rewrite forallb_forall in Hc. rewrite Forall_forall in H. split; apply Forall_forall; intros lf Hl; apply in_flat_map in Hl; destruct Hl as [y [Hy Hl]];
      destruct (H y Hy (Hc y Hy)) as [A B]; rewrite Forall_forall in A, B; auto.
  - apply andb_true_iff in Hc. destruct Hc as [H1 H2]. split; apply Forall_app; split; try apply IHx1; try apply IHx2; assumption.
  - apply andb_true_iff in Hc. destruct Hc as [H1 H2]. split; apply Forall_app; split; try apply IHx1; try apply IHx2; assumption.
Qed.

Lemma xok_b_ok : forall s known c, xok_b s known c = true -> xcall_ok s known c.
Proof.
  intros s known c H.
  assert (Hm : forall (h : N) (b : bool), mem h known && b = true -> In h known /\ b = true).
  { intros h b E. apply andb_true_iff in E. destruct E as [E1 E2]. split; [apply mem_in; exact E1 | exact E2]. }
  assert (Hc : forall h k n fuel (P : fml -> Prop), mem h known && con_free_b s h k n fuel = true -> (forall x, con_free x = true -> P x) ->
    In h known /\ all_of s h (fun x => P x /\ enough k n fuel x)).
  { intros h k n fuel P E HP. apply Hm in E. destruct E as [E1 E2]. split; [exact E1 |]. eapply all_of_impl; [| exact (con_free_b_ok _ _ _ _ _ E2)].
    intros x [Hx1 Hx2]. auto. }
  assert (Hf : forall h k n fuel, mem h known && con_free_b s h k n fuel = true -> In h known /\ all_of s h (enough k n fuel)).
  { intros h k n fuel E. apply Hm in E. destruct E as [E1 E2]. split; [exact E1 |]. eapply all_of_impl; [| exact (con_free_b_ok _ _ _ _ _ E2)].
    intros x [Hx1 Hx2]. exact Hx2. }
  assert (He : forall h k n fuel, mem h known && enc_b s h k n fuel = true -> In h known /\ all_of s h (fun x => encodable s x /\ enough k n fuel x)).
  { intros h k n fuel E. apply Hm in E. destruct E as [E1 E2]. split; [exact E1 | exact (enc_b_ok _ _ _ _ _ E2)]. }
  destruct c as [c | | | | | | | | | | | | | | | | | | | |]; cbn [xok_b xcall_ok] in *; try discriminate;
    try (apply He; assumption);
    try (apply Hf; assumption);
    try (apply Hc; [assumption |]; intros x Hx; first [apply con_free_leaves; exact Hx | apply con_free_anon; exact Hx]).
  - destruct c; cbn [call_ok] in *; try exact I; try discriminate.
    + intros h Hh. rewrite forallb_forall in H. apply mem_in. auto.
    + rewrite forallb_forall in H. apply Forall_forall. intros l Hl. apply knows_b_ok. auto.
    + now apply mem_in.
    + now apply mem_in.
    + apply andb_true_iff in H. destruct H as [H1 H2]. split; now apply mem_in.
    + apply andb_true_iff in H. destruct H as [H1 H2]. split; now apply mem_in.
    + apply andb_true_iff in H. destruct H as [H1 H2]. split; [| apply N.ltb_lt; exact H2]. rewrite forallb_forall in H1. apply Forall_forall. intros v Hv.
      apply knows_b_ok. auto.
    + apply N.ltb_lt. exact H.
  - apply He in H. destruct H as [H1 H2]. split; [exact H1 |]. eapply all_of_impl; [| exact H2]. intros x Hx. apply Hx.
  - now apply mem_in.
Qed.

(** Steps of a replay: calls without or with a kept object (counted from the front), new objects, looking at operands. *)
Inductive rstep := RCall (c : xcall) | RUse (i : nat) (c : xcall) | RStateful | RAnon (p : String.string) | ROps (h : N).

Definition cap_b (s : factory) : bool := forallb (fun n => n <=? cap26) (sizes s).
Definition replay1 (r : rstep) (a : xstate) : option xstate :=
  match r with
  | RCall c =>
      if xok_b (x_fac a) (x_known a) c then
        match xrun c (OEnc enc_stateless) (x_fac a) with
        | (Ok (l, _), s') => if cap_b s' then Some (mkX s' (l ++ x_known a) (x_objs a)) else None
        | _ => None
        end
      else None
  | RUse i c =>
      match nth_error (x_objs a) i with
      | Some o =>
          if xok_b (x_fac a) (x_known a) c then
            match xrun c o (x_fac a) with
            | (Ok (l, o'), s') => if cap_b s' then Some (mkX s' (l ++ x_known a) (firstn i (x_objs a) ++ o' :: skipn (S i) (x_objs a))) else None
            | _ => None
            end
          else None
      | None => None
      end
  | RStateful => Some (mkX (x_fac a) (x_known a) (OEnc enc_stateful :: x_objs a))
  | RAnon p => Some (mkX (x_fac a) (x_known a) (OAnon (anonymizer_new p) :: x_objs a))
  | ROps h => if mem h (x_known a) then match unpack (x_fac a) h with Ok n => Some (mkX (x_fac a) (node_operands n ++ x_known a) (x_objs a)) | _ => None end else None
  end.
Fixpoint replay (rs : list rstep) (a : xstate) : option xstate :=
  match rs with [] => Some a | r :: rs' => match replay1 r a with Some b => replay rs' b | None => None end end.

Lemma cap_b_ok : forall s, cap_b s = true -> cap s.
Proof. intros s H. unfold cap. apply Forall_forall. unfold cap_b in H. rewrite forallb_forall in H. intros n Hn. apply N.leb_le. auto. Qed.

Lemma replay1_ok : forall r a b, replay1 r a = Some b -> xstep a b.
Proof.
  intros r [s known os] b H. destruct r as [c | i c | | p | h]; cbn [replay1 x_fac x_known x_objs] in H.
  - destruct (xok_b s known c) eqn:E; [| discriminate]. destruct (xrun c _ s) as [[[l o'] | |] s'] eqn:R; try discriminate.
    destruct (cap_b s') eqn:C; [| discriminate]. injection H as <-. eapply xs_call; [apply xok_b_ok; exact E | exact R | apply cap_b_ok; exact C].
  - destruct (nth_error os i) as [o |] eqn:No; [| discriminate]. destruct (xok_b s known c) eqn:E; [| discriminate].
    destruct (xrun c o s) as [[[l o'] | |] s'] eqn:R; try discriminate. destruct (cap_b s') eqn:C; [| discriminate]. injection H as <-.
    assert (Eo : os = firstn i os ++ o :: skipn (S i) os).
    { clear -No. revert i No. induction os as [| a os IH]; intros [| i] No; try discriminate; [injection No as <-; reflexivity |]. cbn [firstn skipn app]. f_equal. apply IH. exact No. }
    rewrite Eo at 1. eapply xs_use; [apply xok_b_ok; exact E | exact R | apply cap_b_ok; exact C].
  - injection H as <-. apply xs_new. right. left. reflexivity.
  - injection H as <-. apply xs_new. right. right. exists p. reflexivity.
  - destruct (mem h known) eqn:E; [| discriminate]. destruct (unpack s h) as [n | |] eqn:U; try discriminate. injection H as <-.
    apply xs_operands with (h := h); [now apply mem_in | exact U].
Qed.
Lemma replay_ok : forall rs a b c, xsteps a b -> replay rs b = Some c -> xsteps a c.
Proof.
  induction rs as [| r rs IH]; intros a b c H E; cbn [replay] in E; [injection E as <-; exact H |].
  destruct (replay1 r b) as [d |] eqn:R; [| discriminate]. apply (IH a d c); [| exact E]. eapply xss_step; [exact H | apply (replay1_ok r); exact R].
Qed.
Lemma replay_reach : forall cfg rs a, replay rs (mkX (factory_new cfg) [] []) = Some a -> xreachable cfg (x_fac a) (x_known a) (x_objs a).
Proof. intros cfg rs a H. unfold xreachable. destruct a as [s known os]. cbn [x_fac x_known x_objs]. eapply replay_ok; [apply xss_refl | exact H]. Qed.
