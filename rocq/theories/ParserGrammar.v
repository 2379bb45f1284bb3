(** The grammar of ParserModel.v: what the rules match on printed texts. *)
From Coq Require Import Ascii String NArith ZArith Bool Arith Lia List.
From Verif Require Import Base EncodingModel Syntax FactoryModel ParserModel ParserText.
Import ListNotations.
Local Open Scope list_scope.
Local Open Scope nat_scope.

(* ------------------------------------------------------------------------------------------------------------------ *)
(** * Levels of the grammar *)

Definition opx (k : nat) : string := match k with 0 => "<=>" | 1 => "=>" | 2 => "|" | _ => "&" end.
Definition mkx (k : nat) : list pt -> pt := match k with 0 => PEquiv | 1 => PImpl | 2 => PDisj | _ => PConj end.
Definition pk (n k : nat) : P pt :=
  match k with
  | 0 => p_equiv (S n)
  | 1 => p_impl (p_equiv n)
  | 2 => p_disj (p_equiv n)
  | 3 => p_conj (p_equiv n)
  | _ => p_lit (p_equiv n)
  end.
Lemma pk_step : forall n k, k < 4 -> pk n k = p_list (opx k) (mkx k) (pk n (S k)).
Proof. intros n [ | [ | [ | [ | k]]]] H; try reflexivity. lia. Qed.

Definition sepx (k : nat) : text := tx " " ++ tx (opx k) ++ tx " ".
(** What can follow an expression of level [k]. *)
Definition fol (k : nat) (r : text) : Prop :=
  r = [] \/ (exists r', r = tx ")" ++ r') \/ exists j r', j < k /\ j < 4 /\ r = sepx j ++ r'.
Lemma fol_weaken : forall k k' r, k <= k' -> fol k r -> fol k' r.
Proof. intros k k' r H [F | [F | [j [r' [F1 [F2 F3]]]]]]; [left | right; left | right; right; exists j, r'; repeat split]; auto. lia. Qed.
Lemma fol_no_op : forall k r, k < 4 -> fol k r -> strip (tx (opx k)) (skip r) = None.
Proof.
  intros k r Hk [F | [[r' F] | [j [r' [F1 [F2 F3]]]]]]; subst r.
  - destruct k as [ | [ | [ | [ | k]]]]; reflexivity.
  - destruct k as [ | [ | [ | [ | k]]]]; reflexivity.
  - destruct k as [ | [ | [ | [ | k]]]]; try lia; destruct j as [ | [ | [ | [ | j]]]]; try lia; reflexivity.
Qed.
Lemma opx_solid : forall k, solid (tx (opx k)).
Proof. intros [ | [ | [ | k]]]; reflexivity. Qed.
Lemma skip_sep : forall k r, skip (sepx k ++ r) = tx (opx k) ++ tx " " ++ r.
Proof. intros k r. unfold sepx. rewrite <- !app_assoc. apply skip_space. apply opx_solid. Qed.

(* ------------------------------------------------------------------------------------------------------------------ *)
(** * Chains of operands *)

Definition Good (n k : nat) (t : text) (Q : pt -> Prop) : Prop :=
  forall rest, fol k rest -> exists x r, pk n k (t ++ rest) = Ok (Some (x, r)) /\ skip r = skip rest /\ length r <= length (t ++ rest) /\ Q x.
Definition Chain (n k : nat) (t : text) (Q : list pt -> Prop) : Prop :=
  forall rest, fol k rest -> exists x r xs, pk n (S k) (t ++ rest) = Ok (Some (x, r)) /\ length r <= length (t ++ rest) /\ Q (x :: xs) /\
    forall fuel s, skip s = skip r -> length s < fuel ->
      exists r', p_more (tx (opx k)) (pk n (S k)) fuel s = Ok (xs, r') /\ skip r' = skip rest /\ length r' <= length s.

Lemma chain_good : forall n k t Q, k < 4 -> Chain n k t Q -> Good n k t (fun x => exists xs, x = mkx k xs /\ Q xs).
Proof.
  intros n k t Q Hk C rest F. destruct (C rest F) as [x [r [xs [E1 [E2 [E3 E4]]]]]].
  destruct (E4 (S (length r)) (skip r) (skip_skip r)) as [r' [E5 [E6 E7]]]; [pose proof (skip_len r); lia | ].
  exists (mkx k (x :: xs)), r'. rewrite pk_step by auto. unfold p_list. rewrite E1. cbn [rbind]. rewrite E5. cbn [rbind fst snd].
  split; [reflexivity | ]. split; [auto | ]. split; [pose proof (skip_len r); lia | ]. exists (x :: xs). auto.
Qed.
Lemma chain_single : forall n k t Q, k < 4 -> Good n (S k) t Q -> Chain n k t (fun l => exists x, l = [x] /\ Q x).
Proof.
  intros n k t Q Hk G rest F. destruct (G rest) as [x [r [E1 [E2 [E3 E4]]]]]; [apply (fol_weaken k); auto | ].
  exists x, r, []. split; [auto | ]. split; [auto | ]. split; [exists x; auto | ].
  intros fuel s Hs Hf. destruct fuel as [ | fuel]; [lia | ]. exists s. cbn [p_more]. rewrite Hs, E2, fol_no_op by auto.
  split; [reflexivity | ]. split; [congruence | lia].
Qed.
Lemma chain_cons : forall n k t u Q QL, k < 4 -> solid u -> Good n (S k) t Q -> Chain n k u QL ->
  Chain n k (t ++ sepx k ++ u) (fun l => exists x l', l = x :: l' /\ Q x /\ QL l').
Proof.
  intros n k t u Q QL Hk Hu G C rest F. rewrite <- !app_assoc.
  destruct (G (sepx k ++ u ++ rest)) as [x [r [E1 [E2 [E3 E4]]]]].
  { right. right. exists k, (u ++ rest). split; [lia | ]. split; auto. }
  destruct (C rest F) as [y [r1 [ys [D1 [D2 [D3 D4]]]]]].
  exists x, r, (y :: ys). split; [exact E1 | ]. split; [exact E3 | ]. split; [exists x, (y :: ys); auto | ].
  intros fuel s Hs Hf. destruct fuel as [ | fuel]; [lia | ]. rewrite E2, skip_sep in Hs.
  assert (L : length (tx (opx k) ++ tx " " ++ u ++ rest) <= length s) by (rewrite <- Hs; apply skip_len).
  rewrite !app_length in L. cbn [tx list_ascii_of_string length] in L.
  assert (L2 : 1 <= length (list_ascii_of_string (opx k))) by (destruct k as [ | [ | [ | k]]]; cbn; lia).
  rewrite app_length in D2.
  destruct (D4 fuel r1 eq_refl) as [r' [D5 [D6 D7]]]; [lia | ].
  exists r'. cbn [p_more]. rewrite Hs, strip_app, skip_space by auto. rewrite D1. cbn [rbind]. rewrite D5. cbn [rbind fst snd].
  split; [reflexivity | ]. split; [auto | lia].
Qed.
Lemma good_lower : forall n k t Q, k < 4 -> Good n (S k) t Q -> Good n k t (fun x => exists y, x = mkx k [y] /\ Q y).
Proof.
  intros n k t Q Hk G rest F. destruct (chain_good n k t _ Hk (chain_single n k t Q Hk G) rest F) as [x [r [E1 [E2 [E3 [xs [E4 [y [E5 E6]]]]]]]]].
  exists x, r. split; [auto | ]. split; [auto | ]. split; [auto | ]. exists y. subst xs. auto.
Qed.
Lemma good_mono : forall n k t (Q Q' : pt -> Prop), (forall x, Q x -> Q' x) -> Good n k t Q -> Good n k t Q'.
Proof. intros n k t Q Q' H G rest F. destruct (G rest F) as [x [r [E1 [E2 [E3 E4]]]]]. exists x, r. auto. Qed.
Lemma chain_mono : forall n k t (Q Q' : list pt -> Prop), (forall x, Q x -> Q' x) -> Chain n k t Q -> Chain n k t Q'.
Proof. intros n k t Q Q' H G rest F. destruct (G rest F) as [x [r [xs [E1 [E2 [E3 E4]]]]]]. exists x, r, xs. auto. Qed.

(** Two or more operands. *)
Lemma chain_join : forall n k (ts : list text) (Qs : list (pt -> Prop)), k < 4 -> ts <> [] -> Forall2 (fun t Q => solid t /\ Good n (S k) t Q) ts Qs ->
  Chain n k (join (sepx k) ts) (fun l => Forall2 (fun x (Q : pt -> Prop) => Q x) l Qs) /\ solid (join (sepx k) ts).
Proof.
  intros n k ts Qs Hk Hne H. induction H as [ | t Q ts Qs [Ht HG] H IH]; [congruence | ].
  destruct H as [ | u Q' us Qs' [Hu HG'] H].
  - cbn [join]. split; auto. eapply chain_mono; [ | apply chain_single; eauto]. intros l [x [-> Hx]]. auto.
  - destruct IH as [IH1 IH2]; [discriminate | ]. split; [ | apply solid_app; auto].
    eapply chain_mono; [ | apply chain_cons; [auto | exact IH2 | exact HG | exact IH1]]. intros l [x [l' [-> [Hx Hl]]]]. constructor; auto.
Qed.

(* ------------------------------------------------------------------------------------------------------------------ *)
(** * Literals and comparisons *)

Definition sgn (ng : bool) : text := if ng then tx "~" else [].
Definition mulfol (r : text) : Prop := head_not is_name_char r /\ strip (tx "*") (skip r) = None.
Lemma head_not_digit : forall r, head_not is_name_char r -> head_not is_digit r.
Proof. intros [ | c r] H; auto. cbn [head_not] in *. destruct (is_digit c) eqn:E; auto. apply digit_name_char in E. congruence. Qed.
Lemma p_literal_app : forall ng n r, good_name n -> head_not is_name_char r -> p_literal (sgn ng ++ n ++ r) = Some (ng, n, r).
Proof.
  intros [ | ] n r Hn Hr; unfold p_literal, sgn.
  - rewrite strip_app, p_name_app by auto. auto.
  - cbn [app]. rewrite good_name_tilde, p_name_app by auto. auto.
Qed.
Lemma sgn_solid : forall ng n, good_name n -> solid (sgn ng ++ n).
Proof. intros [ | ] n H; [reflexivity | apply good_name_solid; auto]. Qed.

Definition nameish (c : ascii) : Prop := is_name_char c = true \/ c = "@"%char.
Lemma nameish_ws : forall c, nameish c -> is_ws c = false.
Proof. intros c [H | ->]; [apply name_char_ws; auto | reflexivity]. Qed.
Lemma span_digits_names : forall n r, Forall nameish n -> head_not is_digit r ->
  exists n', snd (span is_digit (n ++ r)) = n' ++ r /\ Forall nameish n'.
Proof.
  intros n r H Hr. induction H as [ | c n Hc H [n' [IH1 IH2]]]; cbn [app].
  - exists []. split; auto. destruct r as [ | c r]; auto. cbn [head_not] in Hr. cbn [span]. rewrite Hr. auto.
  - cbn [span]. destruct (is_digit c); cbn [snd]; [exists n'; auto | exists (c :: n); auto].
Qed.
Lemma good_name_nameish : forall n, good_name n -> Forall nameish n.
Proof.
  intros [ | c n] H; [destruct H | ]. destruct H as [H1 H2]. constructor; [exact H1 | ]. rewrite Forall_forall in *. intros x Hx. left. auto.
Qed.
Lemma nameish_strip : forall a c n r, nameish c -> is_name_char a = false -> a <> "@"%char -> strip [a] (c :: n ++ r) = None.
Proof.
  intros a c n r H H1 H2. cbn [strip]. destruct (Ascii.eqb a c) eqn:E; auto. apply Ascii.eqb_eq in E. subst c. destruct H as [H | H]; congruence.
Qed.
Lemma p_mul_lit : forall ng n r, good_name n -> mulfol r -> p_mul (sgn ng ++ n ++ r) = Some (PMul None ng n, r).
Proof.
  intros ng n r Hn [Hr1 Hr2].
  assert (E : p_number (sgn ng ++ n ++ r) = None \/ exists d r0, p_number (sgn ng ++ n ++ r) = Some (d, r0) /\ strip (tx "*") (skip r0) = None).
  { unfold p_number. destruct ng.
    - left. reflexivity.
    - cbn [sgn app]. pose proof (good_name_nameish n Hn) as HN. destruct n as [ | c n]; [destruct Hn | ]. inversion HN as [ | ? ? Hc HN']; subst.
      replace (strip (tx "-") ((c :: n) ++ r)) with (@None text) by (symmetry; apply nameish_strip; [auto | reflexivity | discriminate]).
      destruct (span_digits_names (c :: n) r HN (head_not_digit r Hr1)) as [n' [E1 E2]].
      destruct (span is_digit ((c :: n) ++ r)) as [d r0] eqn:Es. cbn [snd] in E1. subst r0. destruct d as [ | e d]; auto.
      right. eexists. eexists. split; [reflexivity | ].
      destruct E2 as [ | c' n' Hc' E2].
      + exact Hr2.
      + cbn [app skip]. rewrite (nameish_ws c' Hc'). change (tx "*") with ["*"%char]. apply nameish_strip; [auto | reflexivity | discriminate]. }
  unfold p_mul. destruct E as [E | [d [r0 [E E']]]]; rewrite E; try rewrite E'; rewrite app_assoc, skip_app by (apply sgn_solid; auto); rewrite <- app_assoc, p_literal_app by auto; auto.
Qed.
Lemma p_mul_coef : forall z ng n r, good_name n -> head_not is_name_char r ->
  p_mul (show_Z z ++ tx "*" ++ sgn ng ++ n ++ r) = Some (PMul (Some (show_Z z)) ng n, r).
Proof.
  intros z ng n r Hn Hr. unfold p_mul. rewrite p_number_Z by reflexivity. rewrite skip_app by reflexivity. rewrite strip_app.
  rewrite app_assoc, skip_app by (apply sgn_solid; auto). rewrite <- app_assoc, p_literal_app by auto. auto.
Qed.

(** Texts following a literal that is not a comparison. *)
Lemma fol_name : forall k r, fol k r -> head_not is_name_char r.
Proof. intros k r [-> | [[r' ->] | [j [r' [H1 [H2 ->]]]]]]; cbn [head_not]; auto; reflexivity. Qed.
Lemma fol_strip : forall k r a, fol k r -> In a ["*"; "+"; "-"]%char -> strip [a] (skip r) = None.
Proof.
  intros k r a [-> | [[r' ->] | [j [r' [H1 [H2 ->]]]]]] Ha; cbn [In] in Ha.
  - reflexivity.
  - destruct Ha as [<- | [<- | [<- | []]]]; reflexivity.
  - rewrite skip_sep. destruct j as [ | [ | [ | j]]]; destruct Ha as [<- | [<- | [<- | []]]]; reflexivity.
Qed.
Lemma fol_comp : forall k r, fol k r -> match p_comp (skip r) with Some (_, r2) => p_number (skip r2) = None | None => True end.
Proof.
  intros k r [-> | [[r' ->] | [j [r' [H1 [H2 ->]]]]]]; [exact I | exact I | ].
  rewrite skip_sep. destruct j as [ | [ | [ | j]]]; try exact I; reflexivity.
Qed.
Lemma p_terms_none : forall fuel s, strip (tx "+") (skip s) = None -> strip (tx "-") (skip s) = None -> p_terms (S fuel) s = Ok ([], s).
Proof. intros fuel s H1 H2. cbn [p_terms]. unfold p_term. rewrite H1, H2. auto. Qed.
Lemma cmp_none_lit : forall k ng n r, good_name n -> fol k r -> p_comparison (sgn ng ++ n ++ r) = Ok None.
Proof.
  intros k ng n r Hn F. unfold p_comparison. rewrite p_mul_lit; [ | auto | ].
  2:{ split; [apply (fol_name k); auto | apply (fol_strip k r "*"%char); auto; left; auto]. }
  rewrite p_terms_none.
  - cbn [rbind fst snd]. rewrite skip_skip. pose proof (fol_comp k r F) as H. destruct (p_comp (skip r)) as [[c r2] | ]; auto. rewrite H. auto.
  - rewrite skip_skip. apply (fol_strip k r "+"%char); auto. right. left. auto.
  - rewrite skip_skip. apply (fol_strip k r "-"%char); auto. right. right. left. auto.
Qed.

(** Literals, constants, parentheses and negations at the innermost level. *)
Lemma p_nots_none : forall n r, good_name n -> p_nots (n ++ r) = (O, n ++ r).
Proof.
  intros [ | c n] r H; [destruct H | ]. cbn [app p_nots]. pose proof (good_name_tilde (c :: n) r H) as T. cbn [tx list_ascii_of_string app strip] in T.
  rewrite Ascii.eqb_sym. destruct (Ascii.eqb "~" c); [discriminate | ]. pose proof (good_name_solid _ H) as S1. cbn [solid] in S1. rewrite S1. auto.
Qed.
Lemma p_simp_lit : forall eq s m r ng nm r', solid s -> p_nots s = (m, r) -> p_literal (skip r) = Some (ng, nm, r') ->
  p_simp eq s = Ok (Some (PSimp m (PLit ng nm), r')).
Proof.
  intros eq s m r ng nm r' Hs H1 H2. unfold p_simp. destruct s as [ | c s]; [destruct Hs | ]. cbn [solid] in Hs. rewrite Hs, H1, H2. auto.
Qed.
Lemma good_lit : forall n ng nm, good_name nm -> Good n 4 (sgn ng ++ nm) (fun x => x = PSimp (if ng then 1 else 0) (PLit false nm)) /\ solid (sgn ng ++ nm).
Proof.
  intros n ng nm Hn. split; [ | apply sgn_solid; auto]. intros rest F. exists (PSimp (if ng then 1 else 0) (PLit false nm)), rest.
  split; [ | split; [auto | split; [rewrite app_length; lia | auto]]].
  cbn [pk]. unfold p_lit. rewrite <- app_assoc, (cmp_none_lit 4) by auto. cbn [rbind].
  apply (p_simp_lit _ _ _ (nm ++ rest)).
  - rewrite app_assoc. apply solid_app. apply sgn_solid. auto.
  - destruct ng.
    + cbn [sgn tx list_ascii_of_string app p_nots]. change (Ascii.eqb "~" "~") with true. cbv iota. rewrite p_nots_none by auto. auto.
    + cbn [sgn app]. rewrite p_nots_none by auto. auto.
  - rewrite skip_app by (apply good_name_solid; auto). exact (p_literal_app false nm rest Hn (fol_name 4 rest F)).
Qed.
Lemma good_const : forall n (b : bool), Good n 4 (if b then tx "$true" else tx "$false") (fun x => x = PSimp 0 (PConst b)).
Proof.
  intros n b rest F. exists (PSimp 0 (PConst b)), rest. split; [ | split; [auto | split; [rewrite app_length; lia | auto]]].
  cbn [pk]. unfold p_lit. destruct b; reflexivity.
Qed.
Lemma good_paren : forall n m t Q, m < 2 -> solid t -> Good n 0 t Q ->
  Good (S n) 4 (repeat "~"%char m ++ tx "(" ++ t ++ tx ")") (fun x => exists y, x = PSimp m y /\ Q y).
Proof.
  intros n m t Q Hm Ht G rest F. destruct (G (tx ")" ++ rest)) as [y [r [E1 [E2 [E3 E4]]]]]; [right; left; exists rest; auto | ].
  exists (PSimp m y), rest. split; [ | split; [auto | split; [rewrite app_length; lia | exists y; auto]]].
  cbn [pk] in *. unfold p_lit. rewrite <- !app_assoc.
  assert (C : p_comparison (repeat "~"%char m ++ tx "(" ++ t ++ tx ")" ++ rest) = Ok None) by (destruct m as [ | [ | m]]; [reflexivity | reflexivity | lia]).
  rewrite C. cbn [rbind].
  assert (Q1 : p_simp (p_equiv (S n)) (repeat "~"%char m ++ tx "(" ++ t ++ tx ")" ++ rest) =
     rbind (p_equiv (S n) (skip (t ++ tx ")" ++ rest))) (fun o => match o with
              | None => Ok None
              | Some (t, r2) => match strip (tx ")") (skip r2) with Some r3 => Ok (Some (PSimp m t, r3)) | None => Ok None end
              end)).
  { destruct m as [ | [ | m]]; [reflexivity | reflexivity | lia]. }
  rewrite Q1, skip_app, E1 by auto. cbn [rbind]. rewrite E2. rewrite skip_app by reflexivity. rewrite strip_app. auto.
Qed.

(** Comparisons. *)
Definition mul_text (m : option Z * bool * text) : text :=
  let '(co, ng, n) := m in match co with Some z => show_Z z ++ tx "*" ++ sgn ng ++ n | None => sgn ng ++ n end.
Definition mul_of (m : option Z * bool * text) : pmul :=
  let '(co, ng, n) := m in PMul (match co with Some z => Some (show_Z z) | None => None end) ng n.
Definition mul_ok (m : option Z * bool * text) : Prop := good_name (snd m).
Lemma p_mul_text : forall m r, mul_ok m -> mulfol r -> p_mul (mul_text m ++ r) = Some (mul_of m, r).
Proof.
  intros [[[z | ] ng] n] r Hm Hr; unfold mul_text, mul_of; rewrite <- !app_assoc.
  - apply p_mul_coef; [exact Hm | apply Hr].
  - apply p_mul_lit; [exact Hm | apply Hr].
Qed.
Lemma mul_text_solid : forall m, mul_ok m -> solid (mul_text m).
Proof. intros [[[z | ] ng] n] Hm; unfold mul_text; [apply solid_app; apply show_Z_solid | apply sgn_solid; exact Hm]. Qed.

Definition plusses (ms : list (option Z * bool * text)) : text := concat (map (fun m => tx " + " ++ mul_text m) ms).
Lemma join_plus : forall m ms, join (tx " + ") (map mul_text (m :: ms)) = mul_text m ++ plusses ms.
Proof.
  intros m ms. revert m. induction ms as [ | m' ms IH]; intros m.
  - unfold plusses. cbn [map join concat]. rewrite app_nil_r. auto.
  - change (join (tx " + ") (map mul_text (m :: m' :: ms))) with (mul_text m ++ tx " + " ++ join (tx " + ") (map mul_text (m' :: ms))).
    rewrite IH. unfold plusses. cbn [map concat]. rewrite <- !app_assoc. auto.
Qed.
Definition cmp_rest (c : ctype) (d rest : text) : text := tx " " ++ cmp_text c ++ tx " " ++ d ++ rest.
Lemma cmp_mulfol : forall ms c d rest, mulfol (plusses ms ++ cmp_rest c d rest).
Proof. intros [ | m ms] c d rest; [destruct c; split; reflexivity | split; reflexivity]. Qed.
Lemma p_terms_plus : forall ms c d rest fuel s, Forall mul_ok ms -> skip s = skip (plusses ms ++ cmp_rest c d rest) -> length ms < fuel ->
  exists r, p_terms fuel s = Ok (map (fun m => (false, mul_of m)) ms, r) /\ skip r = skip (cmp_rest c d rest).
Proof.
  induction ms as [ | m ms IH]; intros c d rest fuel s Hm Hs Hf; (destruct fuel as [ | fuel]; [lia | ]).
  - exists s. split; [ | exact Hs]. apply p_terms_none; rewrite Hs; destruct c; reflexivity.
  - inversion Hm as [ | ? ? Hm1 Hm2]; subst. cbn [length] in Hf.
    destruct (IH c d rest fuel (plusses ms ++ cmp_rest c d rest) Hm2 eq_refl) as [r [E1 E2]]; [lia | ].
    exists r. split; [ | exact E2]. cbn [p_terms]. rewrite Hs. unfold plusses. cbn [map concat]. rewrite <- !app_assoc.
    change (concat (map (fun m0 => tx " + " ++ mul_text m0) ms)) with (plusses ms).
    change (skip (tx " + " ++ mul_text m ++ plusses ms ++ cmp_rest c d rest)) with (tx "+" ++ (tx " " ++ mul_text m ++ plusses ms ++ cmp_rest c d rest)).
    unfold p_term. rewrite strip_app, skip_space by (apply mul_text_solid; auto). rewrite p_mul_text by (auto; apply cmp_mulfol). rewrite E1. reflexivity.
Qed.
Lemma plusses_length : forall ms, length ms <= length (plusses ms).
Proof. induction ms as [ | m ms IH]; [auto | ]. unfold plusses in *. cbn [map concat]. rewrite app_length, app_length. change (length (tx " + ")) with 3. cbn [length]. lia. Qed.
Lemma good_cmp : forall n m ms c z, mul_ok m -> Forall mul_ok ms ->
  Good n 4 (join (tx " + ") (map mul_text (m :: ms)) ++ tx " " ++ cmp_text c ++ tx " " ++ show_Z z)
    (fun x => x = PCmp (mul_of m) (map (fun m => (false, mul_of m)) ms) c (show_Z z)) /\
  solid (join (tx " + ") (map mul_text (m :: ms)) ++ tx " " ++ cmp_text c ++ tx " " ++ show_Z z).
Proof.
  intros n m ms c z Hm Hms. rewrite join_plus. split.
  2:{ rewrite <- app_assoc. apply solid_app. apply mul_text_solid. auto. }
  intros rest F. exists (PCmp (mul_of m) (map (fun m => (false, mul_of m)) ms) c (show_Z z)), rest.
  split; [ | split; [auto | split; [rewrite app_length; lia | auto]]].
  cbn [pk]. unfold p_lit, p_comparison. rewrite <- !app_assoc. change (tx " " ++ cmp_text c ++ tx " " ++ show_Z z ++ rest) with (cmp_rest c (show_Z z) rest).
  rewrite p_mul_text by (auto; apply cmp_mulfol).
  destruct (p_terms_plus ms c (show_Z z) rest (S (length (plusses ms ++ cmp_rest c (show_Z z) rest))) (skip (plusses ms ++ cmp_rest c (show_Z z) rest)) Hms (skip_skip _)) as [r [E1 E2]].
  { rewrite app_length. pose proof (plusses_length ms). lia. }
  rewrite E1. cbn [rbind fst snd]. rewrite E2.
  assert (E3 : p_comp (skip (cmp_rest c (show_Z z) rest)) = Some (c, tx " " ++ show_Z z ++ rest)) by (destruct c; reflexivity).
  rewrite E3, skip_space by apply show_Z_solid. rewrite p_number_Z; [reflexivity | ]. apply head_not_digit. apply (fol_name 4). exact F.
Qed.
