(** Proofs about reading and writing files. *)
From Coq Require Import Ascii String NArith ZArith List Bool Lia.
From Verif Require Import Base EncodingModel EncodingProofs Syntax FactoryModel FactoryInv FactoryBasics FactoryProofs FactorySpecs
  FactoryNary FactoryOps EvalProofs OpsModel OpsProofs ParserModel HashConsProofs ParserText ParserRebuild ParserProofs ParserSpec IoModel IoSpec.
Import ListNotations.
Local Open Scope list_scope.

(* ------------------------------------------------------------------------------------------------------------------ *)
(** * Texts *)

Lemma white_iff : forall c, is_white c = true <-> white c.
Proof.
  intros c. unfold is_white, white. rewrite orb_true_iff, andb_true_iff, !N.leb_le, N.eqb_eq. reflexivity.
Qed.
Lemma blank_iff : forall c, is_blank c = true <-> blank c.
Proof.
  intros c. unfold is_blank, blank. rewrite orb_true_iff, !N.eqb_eq. split; intros [H | H].
  - left. apply (f_equal ascii_of_N) in H. rewrite ascii_N_embedding in H. exact H.
  - right. apply (f_equal ascii_of_N) in H. rewrite ascii_N_embedding in H. exact H.
  - left. subst. reflexivity.
  - right. subst. reflexivity.
Qed.
Lemma digit_plain : forall c, digit c -> is_blank c = false /\ is_white c = false /\ c <> "-"%char.
Proof.
  intros c H. unfold digit in H. unfold is_blank, is_white. split; [ | split].
  - apply orb_false_iff. split; apply N.eqb_neq; lia.
  - apply orb_false_iff. split; [apply andb_false_iff; right; apply N.leb_gt; lia | apply N.eqb_neq; lia].
  - intros ->. cbn in H. lia.
Qed.
Lemma drop_white_keeps : forall c s, is_white c = false -> In c s -> In c (drop_white s).
Proof.
  intros c s Hc. induction s as [| a s IH]; intros H; [destruct H |]. cbn [drop_white]. destruct (is_white a) eqn:E; [| exact H].
  apply IH. destruct H as [H | H]; [congruence | exact H].
Qed.
Lemma trim_keeps : forall c s, is_white c = false -> In c s -> In c (trim s).
Proof. intros c s Hc H. unfold trim. rewrite <- in_rev. apply drop_white_keeps; [exact Hc |]. rewrite <- in_rev. apply drop_white_keeps; [exact Hc | exact H]. Qed.
Lemma drop_white_all : forall s, Forall white s -> drop_white s = [].
Proof. intros s H. induction H as [| c s Hc _ IH]; [reflexivity |]. cbn [drop_white]. apply white_iff in Hc. rewrite Hc. exact IH. Qed.
Lemma trim_white : forall s, Forall white s -> trim s = [].
Proof. intros s H. unfold trim. rewrite (drop_white_all s H). reflexivity. Qed.
Lemma drop_white_id : forall s, (forall c, In c s -> is_white c = false) -> drop_white s = s.
Proof. intros [| c s] H; [reflexivity |]. cbn [drop_white]. rewrite H by (left; reflexivity). reflexivity. Qed.
Lemma trim_id : forall s, (forall c, In c s -> is_white c = false) -> trim s = s.
Proof. intros s H. unfold trim. rewrite (drop_white_id s H). rewrite drop_white_id, rev_involutive; [reflexivity |]. intros c Hc. apply H. now apply in_rev. Qed.

(** Lines. *)
Lemma split_lines_app : forall t cur r, ~ In LF t -> split_lines cur (t ++ LF :: r) = chomp (rev t ++ cur) :: split_lines [] r.
Proof.
  induction t as [| c t IH]; intros cur r H; cbn [app split_lines].
  - rewrite Ascii.eqb_refl. reflexivity.
  - destruct (Ascii.eqb_spec c LF) as [-> | Hc]; [exfalso; apply H; left; reflexivity |].
    rewrite IH by (intros Hi; apply H; right; exact Hi). cbn [rev]. rewrite <- app_assoc. reflexivity.
Qed.
Lemma split_lines_last : forall t cur, ~ In LF t -> split_lines cur t = match rev t ++ cur with [] => [] | _ => [rev (rev t ++ cur)] end.
Proof.
  induction t as [| c t IH]; intros cur H; cbn [split_lines]; [reflexivity |].
  destruct (Ascii.eqb_spec c LF) as [-> | Hc]; [exfalso; apply H; left; reflexivity |].
  rewrite IH by (intros Hi; apply H; right; exact Hi). cbn [rev]. rewrite <- app_assoc. reflexivity.
Qed.
Lemma chomp_cases : forall t, chomp (rev t) = t \/ t = chomp (rev t) ++ [CR].
Proof.
  intros t. destruct (rev t) as [| c r] eqn:E; cbn [chomp].
  - left. apply (f_equal (@rev ascii)) in E. rewrite rev_involutive in E. exact (eq_sym E).
  - assert (Et : t = rev r ++ [c]) by (rewrite <- (rev_involutive t), E; reflexivity). destruct (Ascii.eqb_spec c CR) as [-> | _].
    + right. assumption.
    + left. cbn [rev]. symmetry. assumption.
Qed.
Lemma lines_app : forall t r, ~ In LF t -> lines (t ++ LF :: r) = chomp (rev t) :: lines r.
Proof. intros t r H. unfold lines. rewrite split_lines_app by assumption. rewrite app_nil_r. reflexivity. Qed.
Lemma lines_last : forall t, ~ In LF t -> lines t = match t with [] => [] | _ => [t] end.
Proof.
  intros t H. unfold lines. rewrite split_lines_last by assumption. rewrite app_nil_r, rev_involutive. destruct t as [| c t]; [reflexivity |].
  destruct (rev (c :: t)) as [| d u] eqn:E; [| reflexivity].
  apply (f_equal (@length ascii)) in E. rewrite rev_length in E. discriminate.
Qed.

(** Splitting a clause line. *)
Lemma split_token : forall tok cur ins R, tok <> [] -> (forall c, In c tok -> is_blank c = false) ->
  split_blanks cur ins (tok ++ R) = split_blanks (rev tok ++ cur) false R.
Proof.
  induction tok as [| c tok IH]; intros cur ins R Hn H; [congruence |]. cbn [app split_blanks]. rewrite H by (left; reflexivity).
  destruct tok as [| d tok]; [reflexivity |]. rewrite IH; [| discriminate | intros e He; apply H; right; exact He].
  cbn [rev]. rewrite <- !app_assoc. reflexivity.
Qed.
Lemma split_inside : forall sep R, Forall blank sep -> split_blanks [] true (sep ++ R) = split_blanks [] true R.
Proof. intros sep R H. induction H as [| c sep Hc _ IH]; [reflexivity |]. cbn [app split_blanks]. apply blank_iff in Hc. rewrite Hc. exact IH. Qed.
Lemma split_sep : forall sep cur R, sep <> [] -> Forall blank sep -> split_blanks cur false (sep ++ R) = rev cur :: split_blanks [] true R.
Proof.
  intros [| c sep] cur R Hn H; [congruence |]. inversion H; subst. cbn [app split_blanks]. apply blank_iff in H2. rewrite H2, split_inside by assumption. reflexivity.
Qed.

Definition tlit := (bool * list ascii * list ascii)%type.
Definition tok (p : tlit) : text := (if fst (fst p) then ["-"%char] else []) ++ snd (fst p).
Definition tlit_ok (p : tlit) : Prop := snd (fst p) <> [] /\ Forall digit (snd (fst p)) /\ snd p <> [] /\ Forall blank (snd p).
Lemma tok_chars : forall p, tlit_ok p -> tok p <> [] /\ forall c, In c (tok p) -> is_blank c = false /\ is_white c = false.
Proof.
  intros [[n d] sp] [H1 [H2 _]]. unfold tok. cbn [fst snd] in *. split.
  - intros E. apply app_eq_nil in E. tauto.
  - intros c Hc. apply in_app_or in Hc. destruct Hc as [Hc | Hc].
    + destruct n; [| destruct Hc]. destruct Hc as [<- | []]. split; reflexivity.
    + rewrite Forall_forall in H2. destruct (digit_plain c (H2 c Hc)) as [? [? _]]. auto.
Qed.
Lemma split_lits : forall ls ins, Forall tlit_ok ls -> split_blanks [] ins (flat_map lit_chars ls ++ ["0"%char]) = map tok ls ++ [tx "0"].
Proof.
  induction ls as [| p ls IH]; intros ins H; [destruct ins; reflexivity |]. inversion H as [| ? ? Hp Hls]; subst. cbn [flat_map map app].
  destruct (tok_chars p Hp) as [T1 T2]. destruct Hp as [_ [_ [H3 H4]]].
  assert (E : lit_chars p = tok p ++ snd p) by (unfold lit_chars, tok; rewrite app_assoc; reflexivity).
  rewrite E, <- !app_assoc. rewrite split_token; [| assumption | intros c Hc; apply (T2 c Hc)]. rewrite app_nil_r.
  rewrite split_sep, rev_involutive by assumption. rewrite IH by assumption. reflexivity.
Qed.
Lemma split_clause : forall lead ls, Forall blank lead -> Forall tlit_ok ls ->
  exists w, Forall (eq []) w /\ split_blanks [] false (dline_text (DClause lead ls)) = w ++ map tok ls ++ [tx "0"].
Proof.
  intros lead ls H1 H2. cbn [dline_text]. destruct lead as [| c lead].
  - exists []. split; [constructor |]. cbn [app]. apply split_lits. assumption.
  - exists [[]]. split; [repeat constructor |]. rewrite split_sep by (assumption || discriminate). cbn [rev app]. rewrite split_lits by assumption. reflexivity.
Qed.

(* ------------------------------------------------------------------------------------------------------------------ *)
(** * Literals and clauses *)

Definition agree (s : factory) (v : valuation) (val : string -> bool) : Prop :=
  forall i n, nthN (vt_vec (t_vars (f_tabs s))) i = Some n -> v (VFF i) = val n.
Lemma agree_core : forall s s' v val, core s s' -> agree s' v val -> agree s v val.
Proof. intros s s' v val Hc H i n Hn. apply H. destruct Hc as [Ht _]. eapply prefix_nthN; [| exact Hn]. apply Ht. Qed.
(** [h] is a formula with value [S val] whenever the variables have the values [val] of their names. *)
Definition named (S : (string -> bool) -> bool) (h : N) (s : factory) : Prop :=
  vh s h /\ exists y, denotes s h y /\ forall v val, agree s v val -> sem v y = S val.
Lemma named_core : forall S h s s', core s s' -> named S h s -> named S h s'.
Proof.
  intros S h s s' Hc [Hv [y [Hy H]]]. pose proof (core_ext _ _ Hc). split; [eapply vh_ext; eauto |]. exists y. split; [eapply denotes_ext; eauto |].
  intros v val Ha. apply H. eapply agree_core; eauto.
Qed.

Definition tval (prefix : text) (p : tlit) (val : string -> bool) : bool := xorb (fst (fst p)) (val (string_of_list_ascii (prefix ++ snd (fst p)))).
Lemma mono_dimacs_lit : forall prefix t, mono (dimacs_lit prefix t).
Proof. intros. unfold dimacs_lit. destruct (strip (tx "-") t); mono_tac. Qed.
Lemma dimacs_lit_spec : forall s prefix p, wf s -> tlit_ok p -> spec wf core s (dimacs_lit prefix (tok p)) (named (tval prefix p)).
Proof.
  intros s prefix [[neg d] sp] Hw Hp. unfold dimacs_lit, tok, tval. cbn [fst snd]. destruct neg.
  - change (strip (tx "-") (["-"%char] ++ d)) with (Some d). eapply spec_conseq; [apply f_literal_spec; assumption |].
    intros h s' _ _ [i [Hv [Hd Hn]]]. split; [assumption |]. eexists. split; [exact Hd |]. intros v val Ha. cbn [sem]. unfold lit_sem.
    cbn [lit_var lit_phase]. rewrite (Ha i _ Hn). destruct (val _); reflexivity.
  - cbn [app]. assert (E : strip (tx "-") d = None).
    { destruct Hp as [H1 [H2 _]]. cbn [fst snd] in *. destruct d as [| c d]; [congruence |]. inversion H2; subst. cbn [strip tx list_ascii_of_string].
      destruct (digit_plain c H3) as [_ [_ Hc]]. destruct (Ascii.eqb_spec "-" c) as [E | _]; [congruence | reflexivity]. }
    rewrite E. eapply spec_conseq; [apply f_variable_spec; assumption |].
    intros h s' Hw' _ [i [-> [Hv [Hok Hn]]]]. split; [assumption |]. exists (FLit (Lit (VFF i) true)).
    split; [apply d_lit, unpack_lit; auto using wf_cap |]. intros v val Ha. cbn [sem]. unfold lit_sem. cbn [lit_var lit_phase]. rewrite (Ha i _ Hn).
    destruct (val _); reflexivity.
Qed.

Lemma lazy_clause : forall prefix ls s acc xs, wf s -> Forall (vh s) acc -> Forall2 (denotes s) acc xs -> Forall tlit_ok ls ->
  spec wf core s (nary_lazy false acc (map (fun p => dimacs_lit prefix (tok p)) ls))
    (fun h s' => vh s' h /\ exists y, denotes s' h y
       /\ forall v val, agree s' v val -> sem v y = existsb (sem v) xs || existsb (fun p => tval prefix p val) ls).
Proof.
  intros prefix. induction ls as [| p ls IH]; intros s acc xs Hw Hv Hd HF; cbn [map nary_lazy existsb].
  - eapply spec_conseq; [apply f_nary_tree; eassumption |]. intros r s' _ _ [Hr [y [Hy [Hs _]]]]. split; [assumption |]. exists y. split; [assumption |].
    intros v val _. rewrite Hs, orb_false_r. reflexivity.
  - inversion HF as [| ? ? Hp HF']; subst.
    assert (Hmono : forall l, Forall mono (map (fun p => dimacs_lit prefix (tok p)) l)).
    { intros l. apply Forall_forall. intros m Hm. apply in_map_iff in Hm. destruct Hm as [q [<- _]]. apply mono_dimacs_lit. }
    eapply spec_bind; [exact core_trans | apply dimacs_lit_spec; assumption | |].
    { intros h. apply mono_bind; [apply mono_lift |]. intros [r |]; [apply mono_nary_lazy; apply Hmono | apply mono_ret]. }
    intros h s1 Hw1 Hc1 [Hvh [z [Hz HP]]]. pose proof (core_ext _ _ Hc1) as He.
    assert (Hv1 : Forall (vh s1) (acc ++ [h])).
    { apply Forall_app. split; [| constructor; auto]. eapply Forall_impl; [| exact Hv]. intros k Hk. eapply vh_ext; eauto. }
    assert (Hd1 : Forall2 (denotes s1) (acc ++ [h]) (xs ++ [z])).
    { apply Forall2_app; [| constructor; auto]. clear -Hd He. induction Hd; constructor; auto. eapply denotes_ext; eauto. }
    pose proof (prepare_nary_spec s1 false (acc ++ [h]) Hw1 Hv1) as Hpn.
    destruct (prepare_nary s1 false (acc ++ [h])) as [[r |] | |] eqn:E; try contradiction.
    + eapply spec_bind; [exact core_trans | eapply (spec_lift _ wf core s1 _ (Some r) (fun p t => p = Some r /\ t = s1)); auto using core_refl | |].
      { intros [q |]; [apply mono_nary_lazy; apply Hmono | apply mono_ret]. }
      intros q t _ _ [-> ->]. eapply spec_conseq; [apply (IH s1 (acc ++ [h]) (xs ++ [z])); auto |].
      intros q t _ Hct [Hq [y [Hy H]]]. split; [assumption |]. exists y. split; [assumption |]. intros v val Ha. rewrite (H v val Ha), existsb_app.
      cbn [existsb]. rewrite orb_false_r, <- orb_assoc, (HP v val) by (eapply agree_core; eauto). reflexivity.
    + eapply spec_bind; [exact core_trans | eapply (spec_lift _ wf core s1 _ None (fun p t => p = None /\ t = s1)); auto using core_refl | |].
      { intros [q |]; [apply mono_nary_lazy; apply Hmono | apply mono_ret]. }
      intros q t _ _ [-> ->]. apply spec_ret; [assumption | apply core_refl |]. split; [apply vh_constant |]. exists FTrue.
      split; [constructor; reflexivity |]. intros v val Ha.
      assert (Hsem : nary_sem false v (xs ++ [z]) = true) by (eapply nary_sem_allv_not; eauto).
      cbn [nary_sem] in Hsem. rewrite existsb_app in Hsem. cbn [existsb] in Hsem. rewrite orb_false_r, (HP v val Ha) in Hsem.
      cbn [sem]. rewrite orb_assoc, Hsem. reflexivity.
Qed.

(* ------------------------------------------------------------------------------------------------------------------ *)
(** * Lines and files *)

Definition shows (l : dline) (t : text) : Prop :=
  match l with DSkip _ => ignored t | DClause lead ls => t = dline_text l /\ Forall blank lead /\ Forall tlit_ok ls end.
Lemma filter_toks : forall ls w, Forall (eq []) w -> Forall tlit_ok ls ->
  filter (fun t => negb (is_nil t)) (map trim (w ++ map tok ls)) = map tok ls.
Proof.
  intros ls w Hw H. induction Hw as [| x w <- _ IH]; [| exact IH]. cbn [app]. induction H as [| p ls Hp _ IH]; [reflexivity |].
  destruct (tok_chars p Hp) as [T1 T2]. cbn [map filter]. rewrite trim_id by (intros c Hc; apply (T2 c Hc)). rewrite IH.
  destruct (tok p); [congruence | reflexivity].
Qed.
Lemma clause_not_skipped : forall lead ls, Forall blank lead -> Forall tlit_ok ls -> let t := dline_text (DClause lead ls) in
  starts "c"%char t || starts "p"%char t || is_nil (trim t) = false.
Proof.
  intros lead ls H1 H2 t. assert (Hin : In "0"%char (trim t)).
  { apply trim_keeps; [reflexivity |]. unfold t. cbn [dline_text]. apply in_or_app. right. apply in_or_app. right. left. reflexivity. }
  assert (Hn : is_nil (trim t) = false) by (destruct (trim t); [destruct Hin | reflexivity]). rewrite Hn, orb_false_r. clear Hin Hn.
  assert (Hc : forall c r, t = c :: r -> c <> "c"%char /\ c <> "p"%char).
  { intros c r E. unfold t in E. cbn [dline_text] in E. destruct lead as [| b lead].
    - cbn [app] in E. destruct ls as [| p ls].
      + cbn [flat_map app] in E. injection E as <- _. split; discriminate.
      + inversion H2 as [| ? ? Hp _]; subst. destruct Hp as [P1 [P2 _]]. destruct p as [[neg d] sp]. cbn [fst snd] in *. unfold lit_chars in E.
        cbn [flat_map fst snd] in E. destruct neg; cbn [app] in E; [injection E as <- _; split; discriminate |].
        destruct d as [| e d]; [congruence |]. cbn [app] in E. injection E as <- _. inversion P2; subst. unfold digit in *.
        split; intros ->; cbn in H3; lia.
    - cbn [app] in E. injection E as <- _. inversion H1; subst. destruct H3; subst; split; discriminate. }
  destruct t as [| c r] eqn:E; [reflexivity |]. cbn [starts]. destruct (Hc c r eq_refl) as [C1 C2]. apply orb_false_iff.
  split; destruct (Ascii.eqb_spec c "c"), (Ascii.eqb_spec c "p"); congruence.
Qed.

Lemma dimacs_clause_eq : forall prefix lead ls, Forall blank lead -> Forall tlit_ok ls ->
  dimacs_line prefix (dline_text (DClause lead ls))
  = bind (nary_lazy false [] (map (fun p => dimacs_lit prefix (tok p)) ls)) (fun h => ret (Some h)).
Proof.
  intros prefix lead ls H1 H2. unfold dimacs_line. rewrite (clause_not_skipped lead ls H1 H2).
  destruct (split_clause lead ls H1 H2) as [w [Hw E]]. rewrite E, app_assoc, last_last, removelast_last, text_eqb_refl, filter_toks, map_map by assumption.
  reflexivity.
Qed.
Lemma dimacs_skip_eq : forall prefix t, ignored t -> dimacs_line prefix t = ret None.
Proof.
  intros prefix t [_ H]. unfold dimacs_line. destruct H as [[r ->] | [[r ->] | H]]; [reflexivity | |].
  - cbn [starts]. rewrite Ascii.eqb_refl, orb_true_r. reflexivity.
  - rewrite trim_white by assumption. cbn [is_nil]. rewrite orb_true_r. reflexivity.
Qed.
Lemma mono_dimacs_line : forall prefix t, mono (dimacs_line prefix t).
Proof.
  intros. unfold dimacs_line. destruct (_ || _); [apply mono_ret |]. cbn zeta. destruct (text_eqb _ _); [| apply mono_fail].
  apply mono_bind; [| intros; apply mono_ret]. apply mono_nary_lazy. apply Forall_forall. intros m Hm. apply in_map_iff in Hm.
  destruct Hm as [q [<- _]]. apply mono_dimacs_lit.
Qed.
Lemma mono_dimacs_lines : forall prefix ls, mono (dimacs_lines prefix ls).
Proof.
  intros prefix. induction ls as [| l ls IH]; cbn [dimacs_lines]; [apply mono_ret |]. apply mono_bind; [apply mono_dimacs_line |].
  intros o. apply mono_bind; [exact IH | intros; apply mono_ret].
Qed.

Lemma dimacs_lines_spec : forall prefix ds tl, Forall2 shows ds tl -> forall s, wf s ->
  spec wf core s (dimacs_lines prefix tl)
    (fun hs s' => Forall2 (fun c h => named (fun val => clause_value val prefix c) h s') (clauses ds) hs).
Proof.
  intros prefix ds tl H. induction H as [| d t ds tl Hd _ IH]; intros s Hw; cbn [dimacs_lines].
  - apply spec_ret; [assumption | apply core_refl |]. constructor.
  - assert (Hm : forall o : option N, mono (hs <-- dimacs_lines prefix tl ;; ret (match o with Some h => h :: hs | None => hs end))).
    { intros o. apply mono_bind; [apply mono_dimacs_lines | intros; apply mono_ret]. }
    destruct d as [u | lead ls]; cbn [shows] in Hd.
    + rewrite dimacs_skip_eq by assumption. eapply (spec_bind _ _ _ _ _ _ _ (fun o t => o = None /\ t = s)); [exact core_trans | | exact Hm |].
      { apply spec_ret; [assumption | apply core_refl | auto]. }
      intros o s1 _ _ [-> ->]. eapply spec_bind; [exact core_trans | apply IH; assumption | intros; apply mono_ret |].
      intros hs s2 Hw2 _ HF. apply spec_ret; [assumption | apply core_refl | exact HF].
    + destruct Hd as [-> [H1 H2]]. rewrite dimacs_clause_eq by assumption.
      eapply (spec_bind _ _ _ _ _ _ _ (fun o t => exists h, o = Some h /\ named (fun val => clause_value val prefix ls) h t)); [exact core_trans | | exact Hm |].
      { eapply spec_bind; [exact core_trans | apply (lazy_clause prefix ls s [] []); auto | intros; apply mono_ret |].
        intros h s1 Hw1 _ Hh. apply spec_ret; [assumption | apply core_refl |]. exists h. split; [reflexivity | exact Hh]. }
      intros o s1 Hw1 _ [h [-> Hh]]. eapply spec_bind; [exact core_trans | apply IH; assumption | intros; apply mono_ret |].
      intros hs s2 Hw2 Hc2 HF. apply spec_ret; [assumption | apply core_refl |]. cbn [clauses flat_map app]. constructor; [| exact HF].
      eapply named_core; eauto.
Qed.

Lemma ignored_chomp : forall t, ignored t -> ignored (chomp (rev t)).
Proof.
  intros t H. destruct (chomp_cases t) as [-> | E]; [assumption |]. remember (chomp (rev t)) as u. clear Hequ. subst t. destruct H as [H1 H2].
  split; [intros Hi; apply H1; apply in_or_app; auto |]. destruct H2 as [[r E] | [[r E] | E]].
  - left. destruct u as [| c u]; [discriminate |]. injection E as -> _. exists u. reflexivity.
  - right. left. destruct u as [| c u]; [discriminate |]. injection E as -> _. exists u. reflexivity.
  - right. right. apply Forall_app in E. tauto.
Qed.
Lemma blank_not_lf : forall c, blank c -> c <> LF.
Proof. intros c [-> | ->]; discriminate. Qed.
Lemma clause_no_lf : forall l, dline_ok l -> ~ In LF (dline_text l).
Proof.
  intros [t | lead ls] H; [exact (proj1 H) |]. destruct H as [H1 H2]. cbn [dline_text]. rewrite Forall_forall in *. intros Hi.
  apply in_app_or in Hi. destruct Hi as [Hi | Hi]; [apply (blank_not_lf _ (H1 _ Hi)); reflexivity |]. apply in_app_or in Hi.
  destruct Hi as [Hi | [Hi | []]]; [| discriminate]. apply in_flat_map in Hi. destruct Hi as [[[neg d] sp] [Hp Hi]]. destruct (H2 _ Hp) as [_ [P2 [_ P4]]].
  cbn [fst snd] in *. unfold lit_chars in Hi. cbn [fst snd] in Hi. apply in_app_or in Hi. destruct Hi as [Hi | Hi].
  - destruct neg; [| destruct Hi]. destruct Hi as [Hi | []]. discriminate.
  - apply in_app_or in Hi. rewrite Forall_forall in P2, P4. destruct Hi as [Hi | Hi]; [| apply (blank_not_lf _ (P4 _ Hi)); reflexivity].
    specialize (P2 _ Hi). unfold digit in P2. cbn in P2. lia.
Qed.
Lemma chomp_cr : forall t, chomp (rev (t ++ [CR])) = t.
Proof. intros t. rewrite rev_app_distr. cbn [rev app chomp]. rewrite Ascii.eqb_refl. apply rev_involutive. Qed.
Lemma shows_line : forall l, dline_ok l -> shows l (chomp (rev (dline_text l))).
Proof.
  intros [t | lead ls] H; [apply ignored_chomp; exact H |]. destruct H as [H1 H2]. cbn [shows]. split; [| auto]. cbn [dline_text].
  rewrite app_assoc, rev_app_distr. cbn [rev app chomp]. change (Ascii.eqb "0" CR) with false. cbn iota. cbn [rev]. rewrite rev_involutive. reflexivity.
Qed.
Lemma shows_text : forall l, dline_ok l -> shows l (dline_text l).
Proof. intros [t | lead ls] H; [exact H |]. destruct H as [H1 H2]. cbn [shows]. auto. Qed.

Lemma dfile_lines : forall ls final, Forall (fun p => dline_ok (fst p)) ls -> (forall l, final = Some l -> dline_ok l) ->
  exists ds, clauses ds = clauses (map fst ls ++ match final with Some l => [l] | None => [] end) /\ Forall2 shows ds (lines (dfile_text ls final)).
Proof.
  intros ls final H Hf. unfold dfile_text. induction H as [| [l crlf] ls Hl _ IH]; cbn [flat_map map app fst snd].
  - destruct final as [l |]; [| exists []; split; [reflexivity | constructor]]. specialize (Hf l eq_refl).
    rewrite (lines_last _ (clause_no_lf l Hf)). destruct (dline_text l) as [| c t] eqn:E.
    + exists []. split; [| constructor]. destruct l as [t | lead c]; [reflexivity |]. exfalso. cbn [dline_text] in E. rewrite app_assoc in E.
      apply app_eq_nil in E. destruct E. discriminate.
    + exists [l]. split; [reflexivity |]. constructor; [| constructor]. rewrite <- E. apply shows_text. assumption.
  - destruct IH as [ds [E HF]]. exists (l :: ds). cbn [fst] in Hl. split; [unfold clauses in *; cbn [flat_map]; rewrite E; reflexivity |].
    pose proof (clause_no_lf l Hl) as Hn. rewrite <- !app_assoc. destruct crlf; cbn [app].
    + change (dline_text l ++ return_ :: newline :: ?r) with (dline_text l ++ [CR] ++ LF :: r). rewrite app_assoc, lines_app.
      * rewrite chomp_cr. constructor; [apply shows_text; assumption | exact HF].
      * intros Hi. apply in_app_or in Hi. destruct Hi as [Hi | [Hi | []]]; [auto | discriminate].
    + change newline with LF. rewrite lines_app by assumption. constructor; [apply shows_line; assumption | exact HF].
Qed.

(* ------------------------------------------------------------------------------------------------------------------ *)
(** * Printed formulas are single lines *)

Definition one_line (t : text) : Prop := Forall (fun c => negb (Ascii.eqb c LF) && negb (Ascii.eqb c CR) = true) t.
Lemma one_line_app : forall a b, one_line a -> one_line b -> one_line (a ++ b).
Proof. intros a b H1 H2. apply Forall_app. split; assumption. Qed.
Lemma one_line_join : forall sep ts, one_line sep -> Forall one_line ts -> one_line (join sep ts).
Proof.
  intros sep ts Hs H. induction H as [| t ts Ht H IH]; [constructor |]. destruct ts as [| u ts]; [exact Ht |].
  change (join sep (t :: u :: ts)) with (t ++ sep ++ join sep (u :: ts)). apply one_line_app; [exact Ht |]. apply one_line_app; assumption.
Qed.
Lemma rmap_forall : forall A B (f : A -> res B) (Q : B -> Prop) l ts, rmap f l = Ok ts -> (forall x t, In x l -> f x = Ok t -> Q t) -> Forall Q ts.
Proof.
  intros A B f Q. induction l as [| x l IH]; intros ts E H; cbn [rmap] in E; [injection E as <-; constructor |].
  destruct (f x) as [y | |] eqn:E1; cbn [rbind] in E; try discriminate. destruct (rmap f l) as [ys | |] eqn:E2; cbn [rbind] in E; try discriminate.
  injection E as <-. constructor; [apply (H x); [left; reflexivity | exact E1] | apply IH; [reflexivity |]]. intros z t Hz Et. apply (H z); [right; exact Hz | exact Et].
Qed.
Lemma name_char_line : forall c, is_name_char c = true -> negb (Ascii.eqb c LF) && negb (Ascii.eqb c CR) = true.
Proof. intros c H. apply name_char_ws in H. destruct (Ascii.eqb_spec c LF) as [-> |]; [discriminate |]. destruct (Ascii.eqb_spec c CR) as [-> |]; [discriminate | reflexivity]. Qed.
Lemma show_N_line : forall n, one_line (show_N n).
Proof. intros n. eapply Forall_impl; [| apply (proj1 (show_N_digits n))]. intros c H. apply name_char_line, digit_name_char, H. Qed.
Lemma show_Z_line : forall z, one_line (show_Z z).
Proof. intros [| p | p]; cbn [show_Z]; [apply show_N_line | apply show_N_line |]. apply one_line_app; [repeat constructor | apply show_N_line]. Qed.
Lemma good_name_line : forall n, good_name n -> one_line n.
Proof.
  intros [| c n] H; [destruct H |]. destruct H as [H1 H2]. constructor.
  - destruct H1 as [H1 | ->]; [apply name_char_line; exact H1 | reflexivity].
  - eapply Forall_impl; [| exact H2]. exact name_char_line.
Qed.

Section OneLine.
Variables (fid : text) (s : factory).
Lemma lit_line : forall l t, var_reads fid s (lit_var l) -> lit_text fid s l = Ok t -> one_line t.
Proof.
  intros l t [n [H1 [H2 _]]] E. unfold lit_text in E. rewrite H1 in E. cbn [rbind] in E. injection E as <-.
  apply one_line_app; [destruct (lit_phase l); repeat constructor | apply good_name_line; exact H2].
Qed.
Lemma cmp_line : forall c, one_line (cmp_text c).
Proof. intros []; repeat constructor. Qed.
Lemma nary_line : forall (f : N -> res text) sep ty ops t, one_line sep -> (forall op t, In op ops -> f op = Ok t -> one_line t) ->
  rbind (rmap (fun op => rbind (f op) (fun t => rbind (ftype op) (fun ty' => Ok (if (precedence ty' <? ty)%N then tx "(" ++ t ++ tx ")" else t)))) ops)
    (fun ts => Ok (join sep ts)) = Ok t -> one_line t.
Proof.
  intros f sep ty ops t Hs H E. destruct (rmap _ ops) as [ts | |] eqn:E1; cbn [rbind] in E; try discriminate. injection E as <-.
  apply one_line_join; [exact Hs |]. eapply rmap_forall; [exact E1 |]. intros op u Hin Eu. cbn beta in Eu.
  destruct (f op) as [w | |] eqn:E2; cbn [rbind] in Eu; try discriminate. destruct (ftype op) as [ty' | |]; cbn [rbind] in Eu; try discriminate.
  injection Eu as <-. specialize (H op w Hin E2). destruct (_ <? _)%N; [| exact H].
  apply (one_line_app (tx "(")); [repeat constructor |]. apply one_line_app; [exact H | repeat constructor].
Qed.
Lemma to_string_line : forall fuel h x t, denotes s h x -> reads fid s x -> to_string fid fuel s h = Ok t -> one_line t.
Proof.
  induction fuel as [| fuel IH]; intros h x t Hd Hr E; [discriminate |]. cbn [to_string] in E.
  assert (L : forall l xs, Forall2 (denotes s) l xs -> (forall v, In v (flat_map leaf_vars (flat_map leaves xs)) -> var_reads fid s v) ->
    forall op u, In op l -> to_string fid fuel s op = Ok u -> one_line u).
  { intros l xs HF. induction HF as [| a y l xs Ha _ IHF]; intros Hv op u Hin Eu; [destruct Hin |]. cbn [flat_map] in Hv. rewrite flat_map_app in Hv.
    destruct Hin as [<- | Hin].
    - apply (IH a y u); [exact Ha | | exact Eu]. intros v Hx. apply Hv. apply in_or_app. left. exact Hx.
    - apply (IHF (fun v H => Hv v (in_or_app _ _ _ (or_intror H))) op u Hin Eu). }
  pose proof (denotes_inv s h x Hd) as Hi. unfold reads in Hr.
  destruct x as [ | | l | a | l | l | a b | a b | c | q].
  - rewrite Hi in E. cbn [rbind] in E. injection E as <-. repeat constructor.
  - rewrite Hi in E. cbn [rbind] in E. injection E as <-. repeat constructor.
  - rewrite Hi in E. cbn [rbind] in E. apply (lit_line l t); [| exact E]. apply Hr. left. reflexivity.
  - destruct Hi as [k [Hu Hk]]. rewrite Hu in E. cbn [rbind] in E. destruct (to_string fid fuel s k) as [u | |] eqn:Eu; cbn [rbind] in E; try discriminate.
    injection E as <-. apply (one_line_app (tx "~(")); [repeat constructor |]. apply one_line_app; [| repeat constructor]. apply (IH k a u); auto.
  - destruct Hi as [k [Hu Hk]]. rewrite Hu in E. cbn [rbind] in E. destruct (ftype h) as [ty | |]; cbn [rbind] in E; try discriminate.
    eapply nary_line; [| | exact E]; [repeat constructor |]. apply (L k l Hk). exact Hr.
  - destruct Hi as [k [Hu Hk]]. rewrite Hu in E. cbn [rbind] in E. destruct (ftype h) as [ty | |]; cbn [rbind] in E; try discriminate.
    eapply nary_line; [| | exact E]; [repeat constructor |]. apply (L k l Hk). exact Hr.
  - destruct Hi as [k1 [k2 [Hu [H1 H2]]]]. rewrite Hu in E. cbn [rbind] in E. destruct (ftype h) as [ty | |]; cbn [rbind] in E; try discriminate.
    eapply nary_line; [| | exact E]; [repeat constructor |]. apply (L [k1; k2] [a; b]); [auto |]. cbn [flat_map]. rewrite app_nil_r. exact Hr.
  - destruct Hi as [k1 [k2 [Hu [H1 H2]]]]. rewrite Hu in E. cbn [rbind] in E. destruct (ftype h) as [ty | |]; cbn [rbind] in E; try discriminate.
    eapply nary_line; [| | exact E]; [repeat constructor |]. apply (L [k1; k2] [a; b]); [auto |]. cbn [flat_map]. rewrite app_nil_r. exact Hr.
  - rewrite Hi in E. cbn [rbind] in E. unfold cc_text in E. destruct (rmap _ (cc_vars c)) as [ts | |] eqn:E1; cbn [rbind] in E; try discriminate.
    injection E as <-. apply one_line_app.
    + apply one_line_join; [repeat constructor |]. eapply rmap_forall; [exact E1 |]. intros v u Hin Eu. cbn beta in Eu. apply (lit_line (Lit v true) u); [| exact Eu].
      apply Hr. unfold fvars. cbn [leaves flat_map leaf_vars]. rewrite app_nil_r. exact Hin.
    + apply (one_line_app (tx " ")); [repeat constructor |]. apply one_line_app; [apply cmp_line |].
      apply (one_line_app (tx " ")); [repeat constructor | apply show_N_line].
  - rewrite Hi in E. cbn [rbind] in E. unfold pbc_text in E. destruct (rmap _ (combine (pb_lits q) (pb_coeffs q))) as [ts | |] eqn:E1; cbn [rbind] in E; try discriminate.
    injection E as <-. apply one_line_app.
    + apply one_line_join; [repeat constructor |]. eapply rmap_forall; [exact E1 |]. intros [l z] u Hin Eu. cbn [fst snd] in Eu.
      destruct (lit_text fid s l) as [w | |] eqn:Ew; cbn [rbind] in Eu; try discriminate. injection Eu as <-.
      assert (Hl : one_line w).
      { apply (lit_line l w); [| exact Ew]. apply Hr. unfold fvars. cbn [leaves flat_map leaf_vars]. rewrite app_nil_r. apply in_map.
        eapply in_combine_l. exact Hin. }
      destruct (Z.eqb z 1); [exact Hl |]. apply one_line_app; [apply show_Z_line |]. apply (one_line_app (tx "*")); [repeat constructor | exact Hl].
    + apply (one_line_app (tx " ")); [repeat constructor |]. apply one_line_app; [apply cmp_line |].
      apply (one_line_app (tx " ")); [repeat constructor | apply show_Z_line].
Qed.
End OneLine.

(** * Writing and reading formulas *)
Lemma one_line_lf : forall t, one_line t -> ~ In LF t.
Proof. intros t H Hi. unfold one_line in H. rewrite Forall_forall in H. specialize (H LF Hi). discriminate. Qed.
Lemma one_line_chomp : forall t, one_line t -> chomp (rev t) = t.
Proof.
  intros t H. destruct (chomp_cases t) as [E | E]; [exact E |]. exfalso. unfold one_line in H. rewrite Forall_forall in H.
  assert (Hi : In CR t) by (rewrite E; apply in_or_app; right; left; reflexivity). specialize (H CR Hi). discriminate.
Qed.
Lemma lines_texts : forall ts, Forall one_line ts -> lines (concat (map (fun t => t ++ [LF]) ts)) = ts.
Proof.
  intros ts H. induction H as [| t ts Ht _ IH]; [reflexivity |]. cbn [map concat]. rewrite <- app_assoc. cbn [app].
  rewrite lines_app by (apply one_line_lf; exact Ht). rewrite one_line_chomp, IH by exact Ht. reflexivity.
Qed.
Lemma lines_one : forall t, one_line t -> t <> [] -> lines t = [t].
Proof. intros t H Hn. rewrite lines_last by (apply one_line_lf; exact H). destruct t; [congruence | reflexivity]. Qed.

(** A conjunction of one operand that is no conjunction is that operand. *)
Lemma and_single : forall s h x, wf s -> vh s h -> denotes s h x -> match x with FAnd _ => False | _ => True end -> f_nary true [h] s = (Ok h, s).
Proof.
  intros s h x Hw Hv Hx Hna. pose proof (wf_cap s Hw) as Hc. unfold f_nary, bind, lift, prepare_nary, flatten_fuel. cbn [filter_flatten filter_loop].
  rewrite (child_ftype s Hw h x Hv Hx). cbn [rbind]. assert (E : is_nary_type true (type_of x) = false) by (destruct x; try reflexivity; destruct Hna).
  rewrite E, (cnf_flag_spec s true h _ Hc Hv). cbn [rbind fr_cnf frs32 frs64 fr32 fr64 andb].
  destruct (is_verum h) eqn:Ev.
  { rewrite (is_verum_denotes s h x Hc Hv Hx) in Ev. destruct x; try discriminate. pose proof (denotes_inv s h _ Hx) as Hu.
    rewrite (vh_const_inv s h true Hw Hv Hu). cbn [fst snd fr32 fr64 fr_cnf]. destruct (flag_of s true (constant true)); reflexivity. }
  destruct (is_falsum h) eqn:Ef.
  { rewrite (is_falsum_denotes s h x Hc Hv Hx) in Ef. destruct x; try discriminate. pose proof (denotes_inv s h _ Hx) as Hu.
    rewrite (vh_const_inv s h false Hw Hv Hu). reflexivity. }
  destruct (contains_complement_spec s [] h Hw ltac:(constructor) Hv (Coq.Init.Logic.conj Ev Ef)) as [b [-> Hb]]. cbn [rbind].
  assert (b = false) as -> by (destruct b; [destruct (proj1 Hb eq_refl) as [y [[] _]] | reflexivity]).
  cbn [orb]. rewrite (vh_not_large s h Hc Hv). unfold filter_insert. rewrite (vh_as_32 s h Hc Hv). unfold set_insert. cbn [frs32 frs64 fr32 fr64 memN existsb].
  cbn [app fst snd fr32 fr64 fr_cnf rbind]. unfold ret at 1. destruct (flag_of s true h && is_nary_operator h) eqn:Eg; [| reflexivity].
  apply andb_true_iff in Eg. destruct Eg as [Eg En]. unfold modf. rewrite note_settled; [reflexivity | | exact En].
  unfold flag_of in Eg. destruct (is_cnf s h) as [[] | |]; congruence.
Qed.

Section WriteRead.
Variables (fid : text) (s : factory).
Hypothesis Hw : wf s.
Hypothesis Hp : pinv s.

Lemma print_parse_line : forall x h fuel n, (depth x < fuel)%nat -> (S (depth x) < n)%nat -> vh s h -> denotes s h x -> right_nested x -> numbers_ok x -> reads fid s x ->
  exists t, to_string fid fuel s h = Ok t /\ parse fid n t s = (Ok (Some h), s) /\ one_line t /\ t <> [].
Proof.
  intros x h fuel n H1 H2 Hv Hx Hr Hn Hrd. destruct (print_parse fid s Hw Hp x h fuel n H1 H2 Hv Hx Hr Hn Hrd) as [t [E1 E2]].
  exists t. split; [exact E1 |]. split; [exact E2 |]. split; [eapply to_string_line; eauto |].
  destruct (round_all fid s Hw Hp (S (depth x)) x h fuel (S (depth x)) ltac:(lia) Hv Hx Hr Hn Hrd ltac:(lia) ltac:(lia)) as [t' [T1 [T2 _]]].
  assert (t' = t) as -> by congruence. intros ->. exact T2.
Qed.
Lemma read_operands_ok : forall n ts hs, Forall2 (fun t h => parse fid n t s = (Ok (Some h), s)) ts hs -> read_operands fid n ts s = (Ok hs, s).
Proof.
  intros n ts hs H. induction H as [| t h ts hs Ht _ IH]; [reflexivity |]. cbn [read_operands].
  rewrite (bind_ok _ _ _ _ _ _ _ Ht). rewrite (bind_ok _ _ _ _ _ _ _ IH). reflexivity.
Qed.

Theorem write_read : forall x h fuel n, (depth x < fuel)%nat -> (S (depth x) < n)%nat -> vh s h -> denotes s h x -> right_nested x -> numbers_ok x -> reads fid s x ->
  exists t, write_formula fid fuel s h = Ok t /\ read_formula fid n t s = (Ok h, s).
Proof.
  intros x h fuel n H1 H2 Hv Hx Hr Hn Hrd. pose proof (denotes_inv s h x Hx) as Hi.
  assert (One : match x with FAnd _ => False | _ => True end -> write_formula fid fuel s h = to_string fid fuel s h ->
    exists t, write_formula fid fuel s h = Ok t /\ read_formula fid n t s = (Ok h, s)).
  { intros Hna E. destruct (print_parse_line x h fuel n H1 H2 Hv Hx Hr Hn Hrd) as [t [E1 [E2 [E3 E4]]]]. exists t. split; [congruence |].
    unfold read_formula. rewrite (lines_one t E3 E4).
    rewrite (bind_ok _ _ _ _ s s [h] (read_operands_ok n [t] [h] ltac:(constructor; [exact E2 | constructor]))).
    eapply and_single; eauto. }
  unfold write_formula in *. destruct x as [ | | l | a | l | l | a b | a b | c | q];
    try (apply One; [exact I | first [rewrite Hi; reflexivity | destruct Hi as [k [Hu _]]; rewrite Hu; reflexivity | destruct Hi as [k1 [k2 [Hu _]]]; rewrite Hu; reflexivity]]).
  clear One. destruct Hi as [L [Hu HL]]. rewrite Hu. cbn [rbind]. cbn [depth] in H1, H2. cbn [right_nested] in Hr. cbn [numbers_ok] in Hn.
  destruct (nary_stored s true h L Hw Hv Hu) as [Hst [Ho _]].
  assert (F : exists ts, rmap (to_string fid fuel s) L = Ok ts /\ Forall one_line ts /\ Forall2 (fun t h => parse fid n t s = (Ok (Some h), s)) ts L).
  { pose proof (oo_good s true L Ho) as Hg. clear Hst Ho Hu Hx. unfold reads, fvars in Hrd. cbn [leaves] in Hrd.
    revert Hg H1 H2 Hr Hn Hrd. induction HL as [| k y L l Hk HL IH]; intros Hg H1 H2 Hr Hn Hrd; [exists []; repeat constructor |].
    cbn [fold_right] in Hr, Hn. cbn [flat_map] in Hrd. rewrite flat_map_app in Hrd. inversion Hg as [| ? ? [Hvk _] Hg']; subst.
    cbn [fold_right] in H1, H2.
    destruct IH as [ts [E1 [E2 E3]]]; auto.
    { lia. } { lia. } { tauto. } { tauto. }
    { intros v Hv'. apply Hrd. apply in_or_app. auto. }
    destruct (print_parse_line y k fuel n) as [t [P1 [P2 [P3 P4]]]]; auto.
    { lia. } { lia. } { tauto. } { tauto. }
    { intros v Hv'. apply Hrd. apply in_or_app. auto. }
    exists (t :: ts). cbn [rmap]. rewrite P1. cbn [rbind]. rewrite E1. cbn [rbind]. auto. }
  destruct F as [ts [E1 [E2 E3]]]. rewrite E1. cbn [rbind]. eexists. split; [reflexivity |].
  unfold read_formula. rewrite (lines_texts ts E2). rewrite (bind_ok _ _ _ _ s s L (read_operands_ok n ts L E3)). exact Hst.
Qed.
End WriteRead.
