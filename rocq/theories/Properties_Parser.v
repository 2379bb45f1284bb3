(** C32: printing a formula and parsing the text, in every state a factory can get into. *)
From Coq Require Import Ascii String NArith ZArith Bool Arith Lia List.
From Verif Require Import Base EncodingModel Syntax FactoryModel FactoryInv FactoryBasics FactoryProofs FactorySpecs FactoryNary FactoryOps HashConsProofs EvalProofs HistoryModel HistoryProofs XHistory XReplay
  Properties_Factory ParserModel ParserSpec ParserText ParserGrammar ParserRebuild ParserProofs.
Import ListNotations.
Local Open Scope list_scope.
Local Open Scope N_scope.

Lemma denotes_vars_ok : forall d s h x v, (depth x < d)%nat -> wf s -> vh s h -> denotes s h x -> In v (fvars x) -> var_ok s v.
Proof.
  induction d as [ | d IH]; intros s h x v Hd Hw Hv Hx Hin; [lia | ]. pose proof (denotes_inv s h x Hx) as Hi.
  assert (N : forall conj L l, unpack s h = Ok (nnode conj L) -> Forall2 (denotes s) L l -> In v (flat_map leaf_vars (flat_map leaves l)) ->
    (fold_right (fun y n => Nat.max (depth y) n) 0 l < d)%nat -> var_ok s v).
  { intros conj L l Hu HL Hl Hdl. destruct (nary_stored s conj h L Hw Hv Hu) as [_ [Ho _]]. pose proof (oo_good s conj L Ho) as Hg. clear Hu Ho Hx Hi Hin Hd x.
    induction HL as [ | a y L l Ha HL IHL]; [destruct Hl | ]. cbn [flat_map fold_right] in *. inversion Hg as [ | ? ? G1 G2]; subst. rewrite flat_map_app in Hl.
    apply in_app_or in Hl. destruct Hl as [Hl | Hl]; [apply (IH s a y v); auto; [lia | apply G1] | apply IHL; auto; lia]. }
  unfold fvars in Hin. destruct x as [ | | l | a | l | l | a b | a b | c | p]; cbn [leaves flat_map leaf_vars app depth] in *.
  - destruct Hin.
  - destruct Hin.
  - destruct Hin as [<- | []]. apply (proj2 (vcase_lit_ok s h l (wf_cap s Hw) Hv Hi)).
  - destruct Hi as [k [Hu Ha]]. destruct (FactorySpecs.unpack_not_vh s h k Hw Hv Hu) as [i [_ [_ [Hk _]]]]. apply (IH s k a v); auto. lia.
  - destruct Hi as [L [Hu HL]]. apply (N true L l); auto. lia.
  - destruct Hi as [L [Hu HL]]. apply (N false L l); auto. lia.
  - destruct Hi as [k1 [k2 [Hu [H1 H2]]]]. destruct (HashConsProofs.vh_impl_inv s h k1 k2 Hw Hv Hu) as [i [_ Hi]].
    destruct (wf_impl_ops s Hw i _ Hi) as [[V1 _] [[V2 _] _]]. rewrite flat_map_app in Hin. apply in_app_or in Hin.
    destruct Hin; [apply (IH s k1 a v) | apply (IH s k2 b v)]; auto; lia.
  - destruct Hi as [k1 [k2 [Hu [H1 H2]]]]. destruct (HashConsProofs.vh_equiv_inv s h k1 k2 Hw Hv Hu) as [i [_ Hi]].
    destruct (wf_equiv_ops s Hw i _ Hi) as [[V1 _] [[V2 _] _]]. rewrite flat_map_app in Hin. apply in_app_or in Hin.
    destruct Hin; [apply (IH s k1 a v) | apply (IH s k2 b v)]; auto; lia.
  - rewrite app_nil_r in Hin. destruct (unpack_cc_vh s h c Hw Hv Hi) as [_ [H _]]. rewrite Forall_forall in H. auto.
  - rewrite app_nil_r in Hin. destruct (unpack_pbc_vh s h p Hw Hv Hi) as [_ [_ [H _]]]. rewrite Forall_forall in H. apply in_map_iff in Hin.
    destruct Hin as [l [<- Hl]]. apply H. auto.
Qed.

(** Every variable of a formula of the factory is read back, under the conditions of the specification. *)
Lemma vars_read : forall fid s h x, wf s -> vh s h -> denotes s h x -> names_ok fid (vt_vec (t_vars (f_tabs s))) x -> id_ok fid x -> reads fid s x.
Proof.
  intros fid s h x Hw Hv Hx Hn Hi v Hin.
  assert (Hok : var_ok s v) by (apply (denotes_vars_ok (S (depth x)) s h x v); auto).
  destruct v as [i | a i]; cbn [var_ok] in Hok.
  - destruct (nthN_lt_some _ _ _ Hok) as [n E]. destruct (Hn i n Hin E) as [H1 H2]. eapply var_reads_ff; eauto.
  - apply var_reads_aux; auto. eapply Hi; eauto.
Qed.

(** The text printed for a formula is parsed to the same handle, and nothing is added to the factory. *)
Theorem C32_print_parse : forall cfg s known h x fid fuel n, reachable cfg s known -> In h known -> denotes s h x ->
  right_nested x -> numbers_ok x -> names_ok fid (vt_vec (t_vars (f_tabs s))) x -> id_ok fid x -> (depth x < fuel)%nat -> (S (depth x) < n)%nat ->
  exists t, to_string fid fuel s h = Ok t /\ parse fid n t s = (Ok (Some h), s).
Proof.
  intros cfg s known h x fid fuel n Hr Hin Hd H1 H2 H3 H4 H5 H6. destruct (known_vh cfg s known h Hr Hin) as [Hw Hv].
  apply (print_parse fid s Hw (reachable_pinv cfg s known Hr) x h fuel n); auto. apply (vars_read fid s h x); auto.
Qed.
Print Assumptions C32_print_parse.

(* ------------------------------------------------------------------------------------------------------------------ *)
(** * Examples *)

(** Running a history of plain calls. *)
Definition plain_ok (s : factory) (known : list N) (c : call) : bool :=
  match c with
  | CPbc c rhs ls cs => forallb (fun l => knows_b s known (lit_var l)) ls && negb (is_lit_cc c rhs ls cs)
  | CParsed _ i => i <? cap26
  | _ => xok_b s known (XCall c)
  end.
Fixpoint plain (cs : list call) (s : factory) (known : list N) : option (factory * list N) :=
  match cs with
  | [] => Some (s, known)
  | c :: cs =>
      if plain_ok s known c then
        match run_call c s with (Ok r, s') => if cap_b s' then plain cs s' (r :: known) else None | _ => None end
      else None
  end.
Lemma plain_ok_ok : forall s known c, plain_ok s known c = true -> call_ok s known c.
Proof.
  intros s known c H. pose proof (xok_b_ok s known (XCall c)) as G.
  assert (K : (exists a i, c = CParsed a i) \/ (exists c' r ls cs, c = CPbc c' r ls cs) \/ (plain_ok s known c = xok_b s known (XCall c) /\ (xcall_ok s known (XCall c) -> call_ok s known c))).
  { destruct c; eauto 10. }
  destruct K as [[a [i ->]] | [[c' [r [ls [cs ->]]]] | [E K]]].
  - cbn [plain_ok call_ok] in *. apply N.ltb_lt. exact H.
  - cbn [plain_ok call_ok] in *. apply andb_true_iff in H. destruct H as [H1 H2]. split.
    + rewrite forallb_forall in H1. apply Forall_forall. intros l Hl. apply knows_b_ok. auto.
    + intros E. rewrite E in H2. discriminate.
  - apply K, G. congruence.
Qed.
Lemma plain_reach : forall cfg cs s known s' known', reachable cfg s known -> plain cs s known = Some (s', known') -> reachable cfg s' known'.
Proof.
  intros cfg. induction cs as [ | c cs IH]; intros s known s' known' Hr H; cbn [plain] in H; [injection H as <- <-; auto | ].
  destruct (plain_ok s known c) eqn:E; [ | discriminate]. destruct (run_call c s) as [[r | | ] s1] eqn:R; try discriminate.
  destruct (cap_b s1) eqn:C; [ | discriminate]. apply (IH s1 (r :: known)); auto. eapply sts_step; [exact Hr | ].
  eapply st_call; [apply plain_ok_ok; exact E | exact R | apply cap_b_ok; exact C].
Qed.

Open Scope string_scope.
Definition px : list call := [CVariable "A"; CVariable "B"; CVariable "C"; CAux AuxCNF].
Definition ps (cs : list call) : factory * list N := match plain (px ++ cs) (factory_new default_config) [] with Some q => q | None => (factory_new default_config, []) end.
Definition fid0 : text := tx "F7".
Definition ex_lA := Lit (VFF 0) true.
Definition ex_lnB := Lit (VFF 1) false.
Definition ps_rich : factory * list N :=
  ps [CNary true [35; 99]; CCc LE 1 [VFF 0; VFF 1; VFF 2]; CPbc GE (-3)%Z [ex_lA; ex_lnB] [2%Z; (-3)%Z]; CNary false [11; 163; 49]; CNot 48; CImpl 35 163;
      CImpl 36 14; CNary true [12; 13; 78]; CEquiv 75 12].
Definition fv (i : N) : fml := FLit (Lit (VFF i) true).
Definition rich_or : fml := FOr [FAnd [fv 0; fv 1]; fv 2; FPbc (mkPbc [ex_lA; ex_lnB] [2%Z; (-3)%Z] GE (-3))].
Definition rich : fml :=
  FEquiv (FAnd [rich_or; FNot (FCc (mkCc [VFF 0; VFF 1; VFF 2] LE 1)); FImpl (FLit (Lit (VAux AuxCNF 0) true)) (FImpl (fv 0) (fv 2))]) rich_or.
Lemma ps_reach : forall cs q, plain (px ++ cs) (factory_new default_config) [] = Some q -> reachable default_config (fst q) (snd q).
Proof. intros cs [s known] H. apply (plain_reach default_config (px ++ cs) (factory_new default_config) []); auto. apply sts_refl. Qed.
Definition text_is (r : res text) (t : string) : bool := match r with Ok u => text_eqb u (tx t) | _ => false end.


Lemma upper_id : forall c, (65 <= N_of_ascii c <= 90)%N -> identifier [c].
Proof. intros c H. exists c, []. split; [reflexivity | ]. split; [ | constructor]. left. right. left. exact H. Qed.
Example C32_ex : reachable default_config (fst ps_rich) (snd ps_rich) /\ In 15 (snd ps_rich) /\ denotes (fst ps_rich) 15 rich
  /\ right_nested rich /\ numbers_ok rich /\ names_ok fid0 (vt_vec (t_vars (f_tabs (fst ps_rich)))) rich /\ id_ok fid0 rich /\ depth rich = 4%nat
  /\ to_string fid0 5 (fst ps_rich) 15
     = Ok (tx "(A & B | C | (2*A + -3*~B >= -3)) & ~(A + B + C <= 1) & (@RESERVED_F7_CNF_0 => A => C) <=> A & B | C | (2*A + -3*~B >= -3)")
  /\ parse fid0 6 (tx "(A & B | C | (2*A + -3*~B >= -3)) & ~(A + B + C <= 1) & (@RESERVED_F7_CNF_0 => A => C) <=> A & B | C | (2*A + -3*~B >= -3)") (fst ps_rich)
     = (Ok (Some 15), fst ps_rich).
Proof.
  assert (Names : forall n, In n ["A"; "B"; "C"] -> identifier (list_ascii_of_string n) /\ ~ reserved fid0 (list_ascii_of_string n)).
  { intros n [<- | [<- | [<- | []]]]; (split; [apply upper_id; vm_compute; split; discriminate | intros [tag [d [_ [_ [_ E]]]]]; discriminate E]). }
  split; [apply (ps_reach [CNary true [35; 99]; CCc LE 1 [VFF 0; VFF 1; VFF 2]; CPbc GE (-3)%Z [ex_lA; ex_lnB] [2%Z; (-3)%Z]; CNary false [11; 163; 49]; CNot 48; CImpl 35 163;
      CImpl 36 14; CNary true [12; 13; 78]; CEquiv 75 12]); vm_compute; reflexivity | ].
  split; [vm_compute; auto | ]. split; [apply (tree_of_sound 10); vm_compute; reflexivity | ].
  split; [vm_compute; tauto | ]. split.
  { unfold rich, rich_or, fv. cbn [numbers_ok fold_right pb_coeffs pb_rhs]. unfold i64. repeat split; try lia; repeat constructor; lia. }
  split.
  { intros i n _ E. apply Names. change (vt_vec (t_vars (f_tabs (fst ps_rich)))) with ["A"; "B"; "C"] in E.
    apply nthN_In in E. exact E. }
  split.
  { intros a i _. constructor; [right; vm_compute; split; discriminate | ]. constructor; [left; vm_compute; split; discriminate | ]. constructor. }
  split; [reflexivity | ]. split; vm_compute; reflexivity.
Qed.

(* ------------------------------------------------------------------------------------------------------------------ *)
(** * Each condition is needed *)

(** An implication as left operand of an implication is printed without parentheses; the text is parsed as another, inequivalent formula. *)
Theorem C32_implication_refuted : exists s known h x t h' s' x' v, reachable default_config s known /\ In h known /\ denotes s h x
  /\ to_string fid0 10 s h = Ok t /\ parse fid0 10 t s = (Ok (Some h'), s') /\ denotes s' h' x' /\ sem v x <> sem v x'.
Proof.
  set (q := ps [CImpl 35 163; CImpl 14 99]). set (r := parse fid0 10 (tx "A => C => B") (fst q)).
  exists (fst q), (snd q), 78, (FImpl (FImpl (fv 0) (fv 2)) (fv 1)), (tx "A => C => B"), 206, (snd r), (FImpl (fv 0) (FImpl (fv 2) (fv 1))), (fun _ => false).
  split; [apply (ps_reach [CImpl 35 163; CImpl 14 99]); vm_compute; reflexivity | ]. split; [vm_compute; auto | ].
  split; [apply (tree_of_sound 10); vm_compute; reflexivity | ]. split; [vm_compute; reflexivity | ]. split; [vm_compute; reflexivity | ].
  split; [apply (tree_of_sound 10); vm_compute; reflexivity | ]. vm_compute. discriminate.
Qed.
Print Assumptions C32_implication_refuted.
(** The same for equivalences: an equivalent formula, but not the printed one. *)
Theorem C32_equivalence_refuted : exists s known h t h' s', reachable default_config s known /\ In h known
  /\ to_string fid0 10 s h = Ok t /\ parse fid0 10 t s = (Ok (Some h'), s') /\ h' <> h.
Proof.
  set (q := ps [CEquiv 35 163; CEquiv 15 99]). set (r := parse fid0 10 (tx "A <=> C <=> B") (fst q)).
  exists (fst q), (snd q), 79, (tx "A <=> C <=> B"), 207, (snd r).
  split; [apply (ps_reach [CEquiv 35 163; CEquiv 15 99]); vm_compute; reflexivity | ]. split; [vm_compute; auto | ].
  split; [vm_compute; reflexivity | ]. split; [vm_compute; reflexivity | ]. discriminate.
Qed.
Print Assumptions C32_equivalence_refuted.
(** In a factory whose identifier has a small letter, an auxiliary variable is read as a new variable with the same name. *)
Theorem C32_id_refuted : exists fid s known h t h' s', reachable default_config s known /\ In h known
  /\ to_string fid 10 s h = Ok t /\ parse fid 10 t s = (Ok (Some h'), s') /\ h' <> h /\ to_string fid 10 s' h' = Ok t.
Proof.
  set (q := ps []). set (r := parse (tx "f") 10 (tx "@RESERVED_f_CNF_0") (fst q)).
  exists (tx "f"), (fst q), (snd q), 36, (tx "@RESERVED_f_CNF_0"), 227, (snd r).
  split; [apply (ps_reach []); vm_compute; reflexivity | ]. split; [vm_compute; auto | ]. split; [vm_compute; reflexivity | ]. split; [vm_compute; reflexivity | ].
  split; [discriminate | ]. vm_compute. reflexivity.
Qed.
Print Assumptions C32_id_refuted.
(** Names that are not identifiers: the variable named "~A" is read as the negation of A. *)
Theorem C32_name_refuted : exists s known h t h' s', reachable default_config s known /\ In h known
  /\ to_string fid0 10 s h = Ok t /\ parse fid0 10 t s = (Ok (Some h'), s') /\ denotes s' h' (FLit (Lit (VFF 0) false)).
Proof.
  set (q := ps [CVariable "~A"]). set (r := parse fid0 10 (tx "~A") (fst q)).
  exists (fst q), (snd q), 227, (tx "~A"), 39, (snd r).
  split; [apply (ps_reach [CVariable "~A"]); vm_compute; reflexivity | ]. split; [vm_compute; auto | ]. split; [vm_compute; reflexivity | ]. split; [vm_compute; reflexivity | ].
  apply (tree_of_sound 10); vm_compute; reflexivity.
Qed.
Print Assumptions C32_name_refuted.
