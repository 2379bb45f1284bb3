(** Printing and parsing: the text of a stored formula is parsed to its handle. *)
From Coq Require Import Ascii String NArith ZArith Bool Arith Lia List.
From Verif Require Import Base EncodingModel EncodingProofs Syntax FactoryModel FactoryInv FactoryBasics FactoryProofs FactorySpecs FactoryNary FactoryOps
  HashConsProofs HistoryModel HistoryProofs EvalProofs ParserModel ParserSpec ParserText ParserGrammar ParserRebuild.
Import ListNotations.
Local Open Scope list_scope.
Local Open Scope nat_scope.

(* ------------------------------------------------------------------------------------------------------------------ *)
(** * Names *)

Lemma between_spec : forall lo hi c, between lo hi c = true <-> (N_of_ascii lo <= N_of_ascii c <= N_of_ascii hi)%N.
Proof. intros lo hi c. unfold between. rewrite andb_true_iff, N.leb_le, N.leb_le. tauto. Qed.
Lemma letter_or_digit_spec : forall c, is_alnum c = true <-> letter_or_digit c.
Proof.
  intros c. unfold is_alnum, is_digit, is_upper, is_lower, letter_or_digit. rewrite !orb_true_iff, !between_spec.
  change (N_of_ascii "0") with 48%N. change (N_of_ascii "9") with 57%N. change (N_of_ascii "A") with 65%N. change (N_of_ascii "Z") with 90%N.
  change (N_of_ascii "a") with 97%N. change (N_of_ascii "z") with 122%N. tauto.
Qed.
Lemma id_char_spec : forall c, is_digit c || is_upper c = true <-> id_char c.
Proof.
  intros c. unfold is_digit, is_upper, id_char. rewrite !orb_true_iff, !between_spec.
  change (N_of_ascii "0") with 48%N. change (N_of_ascii "9") with 57%N. change (N_of_ascii "A") with 65%N. change (N_of_ascii "Z") with 90%N. tauto.
Qed.
Lemma name_char_of : forall c, letter_or_digit c \/ c = "_"%char -> is_name_char c = true.
Proof. intros c [H | ->]; [ | reflexivity]. apply letter_or_digit_spec in H. unfold is_name_char. rewrite H. auto. Qed.
Lemma identifier_good : forall n, identifier n -> good_name n.
Proof.
  intros n [c [r [-> [H1 H2]]]]. split.
  - destruct H1 as [H1 | [H1 | H1]]; [left; apply name_char_of; auto | left; apply name_char_of; auto | right; auto].
  - eapply Forall_impl; [ | exact H2]. intros a Ha. apply name_char_of. auto.
Qed.

Lemma span_all : forall p s, Forall (fun c => p c = true) (fst (span p s)) /\ s = fst (span p s) ++ snd (span p s).
Proof.
  induction s as [ | c s [IH1 IH2]]; cbn [span]; [split; [constructor | reflexivity] | ]. destruct (p c) eqn:E; cbn [fst snd app]; split; auto. f_equal. auto.
Qed.
Lemma strip_some : forall p s r, strip p s = Some r -> s = p ++ r.
Proof.
  induction p as [ | a p IH]; intros s r H; [destruct s; injection H as <-; auto | ]. destruct s as [ | b s]; [discriminate | ]. simpl in H.
  destruct (Ascii.eqb a b) eqn:E; [ | discriminate]. apply Ascii.eqb_eq in E. subst b. simpl. f_equal. auto.
Qed.
Definition aux_tail (i r1 : text) (a : aux_type) (tag : text) : option (text * aux_type * text) :=
  match strip (tx "_" ++ tag ++ tx "_") r1 with
  | Some r2 => match span is_digit r2 with (d, []) => match d with [] => None | _ => Some (i, a, d) end | _ => None end
  | None => None
  end.
Lemma aux_match_tail : forall n, aux_match n =
  match strip (tx "@RESERVED_") n with
  | None => None
  | Some r =>
      let '(i, r1) := span (fun c => is_digit c || is_upper c) r in
      match aux_tail i r1 AuxCNF (tx "CNF") with
      | Some x => Some x
      | None => match aux_tail i r1 AuxCC (tx "CC") with Some x => Some x | None => aux_tail i r1 AuxPB (tx "PB") end
      end
  end.
Proof. reflexivity. Qed.
Lemma aux_tail_sound : forall i j r1 a a' tag d, aux_tail j r1 a tag = Some (i, a', d) ->
  i = j /\ a' = a /\ d <> [] /\ Forall (fun c => is_digit c = true) d /\ r1 = tx "_" ++ tag ++ tx "_" ++ d.
Proof.
  intros i j r1 a a' tag d H. unfold aux_tail in H. destruct (strip (tx "_" ++ tag ++ tx "_") r1) as [r2 | ] eqn:E; [ | discriminate].
  apply strip_some in E. destruct (span_all is_digit r2) as [S1 S2]. destruct (span is_digit r2) as [d' r3] eqn:Es. cbn [fst snd] in *.
  destruct r3; [ | destruct d'; discriminate]. rewrite app_nil_r in S2. subst r2. destruct d' as [ | c d']; [discriminate | ]. injection H as <- <- <-.
  split; [auto | ]. split; [auto | ]. split; [discriminate | ]. split; [auto | ]. rewrite E, <- !app_assoc. auto.
Qed.
Lemma aux_match_sound : forall n i a d, aux_match n = Some (i, a, d) ->
  d <> [] /\ Forall (fun c => is_digit c = true) d /\ n = aux_prefix i a ++ d.
Proof.
  intros n i a d H. rewrite aux_match_tail in H. destruct (strip (tx "@RESERVED_") n) as [r | ] eqn:E; [ | discriminate]. apply strip_some in E.
  destruct (span_all (fun c => is_digit c || is_upper c) r) as [S1 S2]. destruct (span (fun c => is_digit c || is_upper c) r) as [j r1]. cbn [fst snd] in *.
  assert (Q : forall a', aux_tail j r1 a' (aux_tag a') = Some (i, a, d) -> d <> [] /\ Forall (fun c => is_digit c = true) d /\ n = aux_prefix i a ++ d).
  { intros a' Hq. apply aux_tail_sound in Hq. destruct Hq as [-> [-> [H1 [H2 H3]]]]. split; [auto | ]. split; [auto | ].
    unfold aux_prefix. rewrite E, S2, H3, <- !app_assoc. auto. }
  destruct (aux_tail j r1 AuxCNF (tx "CNF")) eqn:E1; [injection H as ->; apply (Q AuxCNF); auto | ].
  destruct (aux_tail j r1 AuxCC (tx "CC")) eqn:E2; [injection H as ->; apply (Q AuxCC); auto | ]. apply (Q AuxPB). auto.
Qed.
Lemma digit_range : forall c, is_digit c = true <-> (48 <= N_of_ascii c <= 57)%N.
Proof. intros c. unfold is_digit. rewrite between_spec. reflexivity. Qed.
Lemma aux_match_reserved : forall fid n a d, aux_match n = Some (fid, a, d) -> reserved fid n.
Proof.
  intros fid n a d H. destruct (aux_match_sound n fid a d H) as [H1 [H2 H3]].
  exists (match a with AuxCNF => "CNF" | AuxCC => "CC" | AuxPB => "PB" end)%string, d. split; [destruct a; cbn [In]; auto | ]. split; [auto | ]. split.
  - eapply Forall_impl; [ | exact H2]. intros c Hc. apply digit_range. auto.
  - rewrite H3. unfold aux_prefix. rewrite <- !app_assoc. destruct a; reflexivity.
Qed.
Lemma aux_tail_complete : forall i a tag d, d <> [] -> Forall (fun c => is_digit c = true) d -> aux_tail i (tx "_" ++ tag ++ tx "_" ++ d) a tag = Some (i, a, d).
Proof.
  intros i a tag d H1 H2. unfold aux_tail. replace (tx "_" ++ tag ++ tx "_" ++ d) with ((tx "_" ++ tag ++ tx "_") ++ d) by (rewrite <- !app_assoc; auto).
  rewrite strip_app. pose proof (span_app is_digit d [] H2 I) as Hs. rewrite app_nil_r in Hs. rewrite Hs. destruct d; [congruence | ]. auto.
Qed.
Lemma aux_match_complete : forall fid a d, Forall id_char fid -> d <> [] -> Forall (fun c => is_digit c = true) d ->
  aux_match (aux_prefix fid a ++ d) = Some (fid, a, d).
Proof.
  intros fid a d Hf H1 H2. rewrite aux_match_tail. unfold aux_prefix. rewrite <- !app_assoc, strip_app.
  rewrite span_app.
  2:{ eapply Forall_impl; [ | exact Hf]. intros c Hc. apply id_char_spec. auto. }
  2:{ reflexivity. }
  destruct a; cbn [aux_tag].
  - rewrite aux_tail_complete by auto. auto.
  - replace (aux_tail fid (tx "_" ++ tx "CC" ++ tx "_" ++ d) AuxCNF (tx "CNF")) with (@None (text * aux_type * text)) by reflexivity.
    rewrite aux_tail_complete by auto. auto.
  - replace (aux_tail fid (tx "_" ++ tx "PB" ++ tx "_" ++ d) AuxCNF (tx "CNF")) with (@None (text * aux_type * text)) by reflexivity.
    replace (aux_tail fid (tx "_" ++ tx "PB" ++ tx "_" ++ d) AuxCC (tx "CC")) with (@None (text * aux_type * text)) by reflexivity.
    rewrite aux_tail_complete by auto. auto.
Qed.

(** The name of a variable is read back. *)
Definition var_reads (fid : text) (s : factory) (v : var) : Prop :=
  exists n, name_of fid s v = Ok n /\ good_name n /\ parsed_variable fid n s = (Ok (encode_lit (Lit v true)), s).
Lemma text_eqb_refl : forall t, text_eqb t t = true.
Proof. intros t. unfold text_eqb. apply String.eqb_refl. Qed.
Lemma text_eqb_eq : forall a b, text_eqb a b = true -> a = b.
Proof. intros a b H. unfold text_eqb in H. apply String.eqb_eq in H. rewrite <- (tx_inv a), <- (tx_inv b), H. auto. Qed.
Lemma var_reads_ff : forall fid s i n, wf s -> nthN (vt_vec (t_vars (f_tabs s))) i = Some n -> identifier (tx n) -> ~ reserved fid (tx n) -> var_reads fid s (VFF i).
Proof.
  intros fid s i n Hw Hi H1 H2. exists (tx n). cbn [name_of]. rewrite Hi. split; [reflexivity | ]. split; [apply identifier_good; auto | ].
  unfold parsed_variable. rewrite tx_inv'. pose proof (variable_stored s i n Hw Hi) as Hv.
  destruct (aux_match (tx n)) as [[[j a] d] | ] eqn:E; auto. destruct (text_eqb j fid) eqn:E2; auto. apply text_eqb_eq in E2. subst j.
  exfalso. apply H2. eapply aux_match_reserved; eauto.
Qed.
Lemma var_reads_aux : forall fid s a i, Forall id_char fid -> (i < cap26)%N -> var_reads fid s (VAux a i).
Proof.
  intros fid s a i Hf Hi. exists (aux_prefix fid a ++ show_N i). destruct (show_N_digits i) as [D1 D2]. split; [reflexivity | ]. split.
  - unfold aux_prefix. split; [right; reflexivity | ].
    assert (Hc : Forall (fun c => is_name_char c = true) (fid ++ tx "_" ++ aux_tag a ++ tx "_")).
    { apply Forall_app. split; [eapply Forall_impl; [ | exact Hf]; intros c Hc; apply name_char_of; left; destruct Hc; [left | right; left]; auto | ].
      destruct a; repeat (constructor; [reflexivity | ]); constructor. }
    assert (Hd : Forall (fun c => is_name_char c = true) (show_N i)) by (eapply Forall_impl; [ | exact D1]; intros c Hx; apply digit_name_char; auto).
    assert (Hr : Forall (fun c => is_name_char c = true) (tx "RESERVED_")) by (repeat (constructor; [reflexivity | ]); constructor).
    apply (proj2 (Forall_app _ (tx "RESERVED_" ++ fid ++ tx "_" ++ aux_tag a ++ tx "_") (show_N i))). split; [ | auto]. apply Forall_app. auto.
  - unfold parsed_variable. rewrite aux_match_complete by auto. rewrite text_eqb_refl, read_show_N.
    destruct (N.ltb_spec i 18446744073709551616); [reflexivity | ]. unfold cap26 in Hi. lia.
Qed.

(* ------------------------------------------------------------------------------------------------------------------ *)
(** * Evaluation of trees *)

Definition lvl (x : fml) : nat := match x with FEquiv _ _ => 0 | FImpl _ _ => 1 | FOr _ => 2 | FAnd _ => 3 | _ => 4 end.
Definition type_of (x : fml) : formula_type :=
  match x with
  | FTrue => TTrue | FFalse => TFalse | FLit l => TLit (lit_type_of l) | FNot _ => TNot | FAnd _ => TAnd | FOr _ => TOr
  | FImpl _ _ => TImpl | FEquiv _ _ => TEquiv | FCc _ => TCc | FPbc _ => TPbc
  end.
Definition prec (k : nat) : N := match k with 0 => 2%N | 1 => 3%N | 2 => 4%N | _ => 5%N end.
Lemma prec_lvl : forall x k, (k < 4)%nat -> lvl x <> k -> (precedence (type_of x) <? prec k)%N = false -> (S k <= lvl x)%nat.
Proof.
  intros x k Hk Hl H. apply N.ltb_ge in H. destruct k as [ | [ | [ | [ | k]]]]; [ | | | | lia]; destruct x; cbn [lvl type_of precedence prec] in *; lia.
Qed.

Lemma Forall2_impl' : forall A B (P Q : A -> B -> Prop) l m, (forall a b, P a b -> Q a b) -> Forall2 P l m -> Forall2 Q l m.
Proof. intros A B P Q l m H F. induction F; constructor; auto. Qed.
Lemma bind_ok : forall A B (m : M A) (k : A -> M B) s s' a, m s = (Ok a, s') -> bind m k s = k a s'.
Proof. intros A B m k s s' a H. unfold bind. rewrite H. auto. Qed.
Section Round.
Variables (fid : text) (s : factory).
Hypothesis Hw : wf s.
Hypothesis Hp : pinv s.
Let Hc : cap s := wf_cap s Hw.
Definition ev (h : N) (x : pt) : Prop := eval_pt fid x s = (Ok h, s).

Lemma ev_single : forall h k y, ev h y -> ev h (mkx k [y]).
Proof.
  intros h k y H. unfold ev in *. destruct k as [ | [ | [ | k]]]; cbn [mkx eval_pt]; auto; unfold bind; rewrite H; reflexivity.
Qed.
Lemma ev_list : forall hs l, Forall2 (fun x h => ev h x) l hs ->
  (fix go l := match l with [] => ret [] | x :: r => h <-- eval_pt fid x ;; hs <-- go r ;; ret (h :: hs) end) l s = (Ok hs, s).
Proof.
  intros hs l H. induction H as [ | x h l hs Hx H IH]; [reflexivity | ].
  etransitivity; [apply bind_ok; exact Hx | ]. etransitivity; [apply bind_ok; exact IH | ]. reflexivity.
Qed.
Lemma ev_conj : forall hs l h, 2 <= length hs -> Forall2 (fun x h => ev h x) l hs -> f_and hs s = (Ok h, s) -> ev h (PConj l).
Proof.
  intros hs l h H2 H Hf. unfold ev. cbn [eval_pt]. rewrite (bind_ok _ _ _ _ _ _ _ (ev_list hs l H)). destruct hs as [ | h1 [ | h2 hs]]; cbn [length] in H2; try lia. auto.
Qed.
Lemma ev_disj : forall hs l h, 2 <= length hs -> Forall2 (fun x h => ev h x) l hs -> f_or hs s = (Ok h, s) -> ev h (PDisj l).
Proof.
  intros hs l h H2 H Hf. unfold ev. cbn [eval_pt]. rewrite (bind_ok _ _ _ _ _ _ _ (ev_list hs l H)). destruct hs as [ | h1 [ | h2 hs]]; cbn [length] in H2; try lia. auto.
Qed.
Lemma ev_impl : forall x l h a b, l <> [] -> ev a x -> ev b (PImpl l) -> f_implication a b s = (Ok h, s) -> ev h (PImpl (x :: l)).
Proof.
  intros x l h a b Hl Ha Hb Hf. unfold ev in *. cbn [eval_pt] in *. destruct l as [ | y l]; [congruence | ].
  etransitivity; [apply bind_ok; exact Hb | ]. etransitivity; [apply bind_ok; exact Ha | ]. auto.
Qed.
Lemma ev_equiv : forall x l h a b, l <> [] -> ev a x -> ev b (PEquiv l) -> f_equivalence a b s = (Ok h, s) -> ev h (PEquiv (x :: l)).
Proof.
  intros x l h a b Hl Ha Hb Hf. unfold ev in *. cbn [eval_pt] in *. destruct l as [ | y l]; [congruence | ].
  etransitivity; [apply bind_ok; exact Hb | ]. etransitivity; [apply bind_ok; exact Ha | ]. auto.
Qed.
Lemma ev_simp0 : forall h y, ev h y -> ev h (PSimp 0 y).
Proof. intros h y H. unfold ev in *. cbn [eval_pt]. unfold bind. rewrite H. reflexivity. Qed.
Lemma ev_simp1 : forall h a y, ev a y -> f_not a s = (Ok h, s) -> ev h (PSimp 1 y).
Proof. intros h a y H Hn. unfold ev in *. cbn [eval_pt]. unfold bind. rewrite H. exact Hn. Qed.

Lemma good_down : forall n k t h, k <= 4 -> Good n k t (ev h) -> forall j, j <= k -> Good n j t (ev h).
Proof.
  intros n k t h. induction k as [ | k IH]; intros Hk G j Hj; [replace j with 0 by lia; auto | ].
  destruct (Nat.eq_dec j (S k)) as [-> | Hn]; auto. apply IH; [lia | | lia].
  eapply good_mono; [ | apply good_lower; [lia | exact G]]. intros x [y [-> Hy]]. apply ev_single. auto.
Qed.

(** * Literals and constraints *)
Lemma var_reads_eval : forall v, var_reads fid s v -> exists n, name_of fid s v = Ok n /\ good_name n /\ ev (encode_lit (Lit v true)) (PLit false n).
Proof. intros v [n [H1 [H2 H3]]]. exists n. split; auto. split; auto. unfold ev. cbn [eval_pt]. unfold parse_literal, bind. rewrite H3. reflexivity. Qed.
Lemma lit_good : forall n l, lit_ok s l -> var_reads fid s (lit_var l) ->
  exists t, lit_text fid s l = Ok t /\ solid t /\ Good n 4 t (ev (encode_lit l)).
Proof.
  intros n [v p] Hl Hr. cbn [lit_var] in *. destruct (var_reads_eval v Hr) as [nm [H1 [H2 H3]]].
  exists (sgn (negb p) ++ nm). unfold lit_text. cbn [lit_var lit_phase]. rewrite H1. cbn [rbind]. split; [destruct p; reflexivity | ].
  destruct (good_lit n (negb p) nm H2) as [G Hs]. split; [exact Hs | ]. eapply good_mono; [ | exact G]. intros x ->. destruct p; cbn [negb].
  - apply ev_simp0. auto.
  - apply (ev_simp1 _ (encode_lit (Lit v true))); auto. unfold f_not, bind, lift, ftype.
    rewrite (type_lit s (Lit v true) Hc Hl). cbn [of_opt]. unfold f_negate, bind, lift. rewrite unpack_lit by auto. reflexivity.
Qed.

Definition mt (s : factory) (q : lit * Z) (m : option Z * bool * text) : Prop :=
  name_of fid s (lit_var (fst q)) = Ok (snd m) /\ snd (fst m) = negb (lit_phase (fst q)) /\ fst (fst m) = (if Z.eqb (snd q) 1 then None else Some (snd q)) /\
  mul_ok m /\ parse_mul fid (mul_of m) s = (Ok q, s).
Lemma mul_reads : forall l z, lit_ok s l -> var_reads fid s (lit_var l) -> in_i64 z -> exists m, mt s (l, z) m.
Proof.
  intros [v p] z Hl Hr Hz. cbn [lit_var] in *. destruct Hr as [nm [H1 [H2 H3]]]. exists (if Z.eqb z 1 then None else Some z, negb p, nm).
  repeat (split; [auto; fail | ]). unfold mul_of, parse_mul.
  assert (E : (match (match (if Z.eqb z 1 then None else Some z) with Some z => Some (show_Z z) | None => None end) with Some d => read_i64 d | None => ret 1%Z end) s = (Ok z, s)).
  { destruct (Z.eqb_spec z 1); [subst; reflexivity | apply read_show_Z; auto]. }
  unfold bind at 1. rewrite E.
  assert (E2 : parse_literal fid (negb p) nm s = (Ok (encode_lit (Lit v p)), s)).
  { unfold parse_literal, bind. rewrite H3. destruct p; cbn [negb]; [reflexivity | ]. unfold f_negate, bind, lift. rewrite unpack_lit by auto. reflexivity. }
  unfold bind. rewrite E2. unfold lift. rewrite unpack_lit by auto. reflexivity.
Qed.
Lemma muls_read : forall qs, Forall (fun q => lit_ok s (fst q) /\ var_reads fid s (lit_var (fst q)) /\ in_i64 (snd q)) qs -> exists ms, Forall2 (mt s) qs ms.
Proof.
  induction qs as [ | [l z] qs IH]; intros H; [exists []; constructor | ]. inversion H as [ | a b [H1 [H2 H3]] H4]; subst.
  destruct (mul_reads l z H1 H2 H3) as [m Hm]. destruct (IH H4) as [ms Hms]. exists (m :: ms). constructor; auto.
Qed.
Lemma terms_read : forall qs ms, Forall2 (mt s) qs ms -> parse_terms fid (map (fun m => (false, mul_of m)) ms) s = (Ok qs, s).
Proof.
  intros qs ms H. induction H as [ | [l z] m qs ms Hm H IH]; [reflexivity | ]. cbn [map parse_terms]. unfold bind at 1.
  destruct Hm as [_ [_ [_ [_ E]]]]. rewrite E. unfold bind. rewrite IH. reflexivity.
Qed.
Lemma cmp_good : forall n qs c z h, qs <> [] -> Forall (fun q => lit_ok s (fst q) /\ var_reads fid s (lit_var (fst q)) /\ in_i64 (snd q)) qs -> in_i64 z ->
  f_pbc c z (map fst qs) (map snd qs) s = (Ok h, s) ->
  exists ts, rmap (fun q : lit * Z => rbind (lit_text fid s (fst q)) (fun t => Ok (if Z.eqb (snd q) 1 then t else show_Z (snd q) ++ tx "*" ++ t))) qs = Ok ts /\
    let t := join (tx " + ") ts ++ tx " " ++ cmp_text c ++ tx " " ++ show_Z z in solid t /\ Good n 4 t (ev h).
Proof.
  intros n qs c z h Hne Hq Hz Hf. destruct (muls_read qs Hq) as [ms Hms]. exists (map mul_text ms). split.
  - clear Hne Hq Hf. induction Hms as [ | [l z'] m qs ms Hm H IH]; [reflexivity | ]. destruct m as [[co ng] nm]. destruct Hm as [E1 [E2 [E3 _]]]. cbn [fst snd] in *.
    assert (El : lit_text fid s l = Ok (sgn ng ++ nm)) by (unfold lit_text; rewrite E1; subst ng; destruct (lit_phase l); reflexivity).
    cbn [rmap map fst snd]. rewrite El. cbn [rbind]. rewrite IH. cbn [rbind]. f_equal. f_equal. subst co. unfold mul_text.
    destruct (Z.eqb z' 1); reflexivity.
  - inversion Hms as [E | q m qs' ms' Hm Hms' E1 E2]; [subst qs; congruence | ]. subst qs ms.
    destruct (good_cmp n m ms' c z) as [G Hs].
    { apply Hm. }
    { clear - Hms'. induction Hms' as [ | q m qs ms Hm H IH]; constructor; [apply Hm | auto]. }
    split; [exact Hs | ]. eapply good_mono; [ | exact G]. intros x ->. unfold ev. cbn [eval_pt]. unfold bind at 1. destruct Hm as [_ [_ [_ [_ E]]]]. rewrite E.
    unfold bind at 1. rewrite (terms_read qs' ms' Hms'). unfold bind. rewrite read_show_Z by auto. exact Hf.
Qed.

(** * Formulas *)
Definition reads (x : fml) : Prop := forall v, In v (fvars x) -> var_reads fid s v.
Definition chained (n : nat) (x : fml) (h : N) (t : text) : Prop :=
  forall k, lvl x = k -> k < 2 -> Chain n k t (fun l => l <> [] /\ ev h (mkx k l)).
Definition round (d : nat) : Prop := forall x h fuel n, depth x < d -> vh s h -> denotes s h x -> right_nested x -> numbers_ok x -> reads x -> d <= fuel -> d <= n ->
  exists t, to_string fid fuel s h = Ok t /\ solid t /\ (forall k, k <= lvl x -> Good n k t (ev h)) /\ chained n x h t.

Definition child_text (k : nat) (x : fml) (t : text) : text := if (precedence (type_of x) <? prec k)%N then tx "(" ++ t ++ tx ")" else t.
Lemma paren_good : forall n k t h, k <= 4 -> solid t -> Good n 0 t (ev h) -> Good (S n) k (tx "(" ++ t ++ tx ")") (ev h).
Proof.
  intros n k t h Hk Ht G. apply (good_down (S n) 4); auto. eapply good_mono; [ | apply (good_paren n 0 t _ ltac:(lia) Ht G)].
  intros x [y [-> Hy]]. apply ev_simp0. auto.
Qed.
Lemma child : forall d x h fuel n k, round d -> k < 4 -> lvl x <> k -> depth x < d -> vh s h -> denotes s h x -> right_nested x -> numbers_ok x -> reads x -> d <= fuel -> d < n ->
  exists t, to_string fid fuel s h = Ok t /\ solid (child_text k x t) /\ Good n (S k) (child_text k x t) (ev h).
Proof.
  intros d x h fuel n k R Hk Hl H1 H2 H3 H4 H5 H6 H7 H8. destruct n as [ | n]; [lia | ].
  destruct (R x h fuel n H1 H2 H3 H4 H5 H6 H7 ltac:(lia)) as [t [E [T1 [T2 _]]]]. destruct (R x h fuel (S n) H1 H2 H3 H4 H5 H6 H7 ltac:(lia)) as [t' [E' [_ [T3 _]]]].
  assert (t' = t) as -> by congruence. exists t. split; auto. unfold child_text. destruct (precedence (type_of x) <? prec k)%N eqn:Ep.
  - split; [reflexivity | ]. apply paren_good; [lia | auto | apply T2; lia].
  - split; auto. apply T3. apply prec_lvl; auto.
Qed.
Lemma child_ftype : forall h x, vh s h -> denotes s h x -> ftype h = Ok (type_of x).
Proof. intros h x H1 H2. unfold ftype. rewrite (type_denotes s h x Hc H1 H2). destruct x; reflexivity. Qed.

(** Several operands. *)
Lemma children : forall d fuel n k L xs, round d -> k < 4 -> d <= fuel -> d < n ->
  Forall2 (fun h x => lvl x <> k /\ depth x < d /\ vh s h /\ denotes s h x /\ right_nested x /\ numbers_ok x /\ reads x) L xs ->
  exists ts, rmap (fun op => rbind (to_string fid fuel s op) (fun t => rbind (ftype op) (fun ty' =>
                     Ok (if (precedence ty' <? prec k)%N then tx "(" ++ t ++ tx ")" else t)))) L = Ok ts /\
    Forall2 (fun t (Q : pt -> Prop) => solid t /\ Good n (S k) t Q) ts (map ev L).
Proof.
  intros d fuel n k L xs R Hk Hf Hn H. induction H as [ | h x L xs [H1 [H2 [H3 [H4 [H5 [H6 H7]]]]]] H IH]; [exists []; split; [reflexivity | constructor] | ].
  destruct IH as [ts [E1 E2]]. destruct (child d x h fuel n k R Hk H1 H2 H3 H4 H5 H6 H7 Hf Hn) as [t [D1 [D2 D3]]].
  exists (child_text k x t :: ts). cbn [rmap map]. rewrite D1. cbn [rbind]. rewrite (child_ftype h x H3 H4). cbn [rbind]. rewrite E1. cbn [rbind].
  split; [reflexivity | ]. constructor; auto.
Qed.
Lemma ev_forall2 : forall L l, Forall2 (fun x (Q : pt -> Prop) => Q x) l (map ev L) -> Forall2 (fun x h => ev h x) l L.
Proof. induction L as [ | h L IH]; intros l H; inversion H; subst; constructor; auto. Qed.

Lemma fold_and_in : forall (P : fml -> Prop) l x, fold_right (fun y Q => P y /\ Q) True l -> In x l -> P x.
Proof. induction l as [ | a l IH]; intros x H Hx; [destruct Hx | ]. destruct H as [H1 H2]. destruct Hx as [-> | Hx]; auto. Qed.
Lemma fvars_in : forall x l v, In x l -> In v (fvars x) -> In v (flat_map leaf_vars (flat_map leaves l)).
Proof.
  intros x l v Hx Hv. unfold fvars in Hv. apply in_flat_map in Hv. destruct Hv as [lf [Hl Hv]]. apply in_flat_map. exists lf. split; auto. apply in_flat_map. exists x. auto.
Qed.
Lemma forall2_with : forall A B (P : A -> B -> Prop) (Q R : A -> Prop) (U : B -> Prop) l m, Forall2 P l m -> (forall a, In a l -> Q a) -> (forall b, In b m -> U b) ->
  Forall2 (fun a b => P a b /\ Q a /\ U b) l m.
Proof. intros A B P Q R U l m H. induction H; intros H1 H2; constructor; auto. - split; [auto | split; [apply H1; left; auto | apply H2; left; auto]]. - apply IHForall2; intros; [apply H1 | apply H2]; right; auto. Qed.

Lemma nary_round : forall d conj L xs h fuel n, round d -> vh s h -> unpack s h = Ok (nnode conj L) -> Forall2 (denotes s) L xs ->
  (forall x, In x xs -> depth x < d /\ right_nested x /\ numbers_ok x /\ reads x) -> d <= fuel -> d < n ->
  let k := if conj then 3 else 2 in
  exists ts, rmap (fun op => rbind (to_string fid fuel s op) (fun t => rbind (ftype op) (fun ty' =>
                     Ok (if (precedence ty' <? prec k)%N then tx "(" ++ t ++ tx ")" else t)))) L = Ok ts /\
    solid (join (sepx k) ts) /\ forall j, j <= k -> Good n j (join (sepx k) ts) (ev h).
Proof.
  intros d conj L xs h fuel n R Hv Hu Hd Hx Hf Hn k. destruct (nary_stored s conj h L Hw Hv Hu) as [Hs [Ho Hl]].
  assert (Hk : k < 4) by (unfold k; destruct conj; lia).
  destruct (children d fuel n k L xs R Hk Hf Hn) as [ts [E1 E2]].
  { destruct Ho as [Og _ _ Of _]. rewrite Forall_forall in Og, Of.
    assert (F : Forall2 (fun h x => denotes s h x /\ vh s h /\ (depth x < d /\ right_nested x /\ numbers_ok x /\ reads x)) L xs).
    { apply (forall2_with _ _ (denotes s) (vh s) (fun _ => True) (fun x => depth x < d /\ right_nested x /\ numbers_ok x /\ reads x)); auto. intros a Ha. apply (Og a Ha). }
    assert (F2 : Forall2 (fun h x => (denotes s h x /\ vh s h /\ (depth x < d /\ right_nested x /\ numbers_ok x /\ reads x)) /\
        (forall ty, formula_type_of h = Some ty -> is_nary_type conj ty = false) /\ True) L xs).
    { apply forall2_with; auto. exact (fun _ => True). }
    eapply Forall2_impl'; [ | exact F2]. intros a b [[B1 [B2 [B3 [B4 [B5 B6]]]]] [B7 _]]. split; [ | tauto].
    specialize (B7 _ (type_denotes s a b Hc B2 B1)). unfold k. destruct conj, b; cbn [lvl is_nary_type] in *; try lia; discriminate. }
  exists ts. split; [exact E1 | ].
  assert (Hts : ts <> []) by (intros ->; inversion E2 as [E | ]; destruct L; [cbn [length] in Hl; lia | discriminate]).
  destruct (chain_join n k ts (map ev L) Hk Hts E2) as [C Hsol]. split; [exact Hsol | ]. apply good_down; [lia | ].
  eapply good_mono; [ | apply (chain_good n k _ _ Hk C)]. intros x [l [-> Hl']]. apply ev_forall2 in Hl'. unfold k. destruct conj; cbn [mkx].
  - apply (ev_conj L); auto.
  - apply (ev_disj L); auto.
Qed.

Lemma binary_round : forall d k x a b h ha hb fuel n, round d -> k < 2 -> lvl x = k -> lvl a <> k -> depth a < d -> depth b < d ->
  vh s ha -> denotes s ha a -> right_nested a -> numbers_ok a -> reads a -> vh s hb -> denotes s hb b -> right_nested b -> numbers_ok b -> reads b -> d <= fuel -> d < n ->
  (forall y l, l <> [] -> ev ha y -> ev hb (mkx k l) -> ev h (mkx k (y :: l))) ->
  exists ts, rmap (fun op => rbind (to_string fid fuel s op) (fun t => rbind (ftype op) (fun ty' =>
                     Ok (if (precedence ty' <? prec k)%N then tx "(" ++ t ++ tx ")" else t)))) [ha; hb] = Ok ts /\
    solid (join (sepx k) ts) /\ (forall j, j <= k -> Good n j (join (sepx k) ts) (ev h)) /\ chained n x h (join (sepx k) ts).
Proof.
  intros d k x a b h ha hb fuel n R Hk Hx Hla Da Db Va Ea Ra Na Pa Vb Eb Rb Nb Pb Hf Hn Hev.
  destruct (child d a ha fuel n k R ltac:(lia) Hla Da Va Ea Ra Na Pa Hf Hn) as [ta [A1 [A2 A3]]].
  assert (B : exists tb, to_string fid fuel s hb = Ok tb /\ solid (child_text k b tb) /\ Chain n k (child_text k b tb) (fun l => l <> [] /\ ev hb (mkx k l))).
  { destruct (Nat.eq_dec (lvl b) k) as [El | El].
    - destruct (R b hb fuel n Db Vb Eb Rb Nb Pb Hf ltac:(lia)) as [tb [B1 [B2 [_ B4]]]]. exists tb. split; auto. unfold child_text.
      replace (precedence (type_of b) <? prec k)%N with false.
      + split; auto.
      + clear - El Hk. destruct b; cbn [lvl] in El; try lia; destruct k as [ | [ | k]]; try lia; reflexivity.
    - destruct (child d b hb fuel n k R ltac:(lia) El Db Vb Eb Rb Nb Pb Hf Hn) as [tb [B1 [B2 B3]]]. exists tb. split; auto. split; auto.
      eapply chain_mono; [ | apply (chain_single n k _ _ ltac:(lia) B3)]. intros l [y [-> Hy]]. split; [discriminate | ]. apply ev_single. auto. }
  destruct B as [tb [B1 [B2 B3]]]. exists [child_text k a ta; child_text k b tb]. cbn [rmap]. rewrite A1, B1. cbn [rbind].
  rewrite (child_ftype ha a Va Ea), (child_ftype hb b Vb Eb). cbn [rbind]. split; [reflexivity | ]. cbn [join].
  split; [apply solid_app; auto | ].
  assert (C : Chain n k (child_text k a ta ++ sepx k ++ child_text k b tb) (fun l => l <> [] /\ ev h (mkx k l))).
  { eapply chain_mono; [ | apply (chain_cons n k _ _ _ _ ltac:(lia) B2 A3 B3)]. intros l [y [l' [-> [Hy [Hl' Hb]]]]]. split; [discriminate | ]. apply Hev; auto. }
  split.
  - apply good_down; [lia | ]. eapply good_mono; [ | apply (chain_good n k _ _ ltac:(lia) C)]. intros y [l [-> [_ Hl]]]. auto.
  - intros k' Hk' _. subst k'. rewrite Hx. exact C.
Qed.

Lemma not_chained : forall n x h t, 2 <= lvl x -> chained n x h t.
Proof. intros n x h t H k Hk Hl. lia. Qed.
Lemma in_i64_one : in_i64 1.
Proof. unfold in_i64. lia. Qed.
Theorem round_all : forall d, round d.
Proof.
  induction d as [ | d IH]; intros x h fuel n Hd Hv Hx Hr Hn Hp' Hf Hm; [lia | ]. destruct fuel as [ | fuel]; [lia | ]. destruct n as [ | n]; [lia | ].
  pose proof (denotes_inv s h x Hx) as Hi. pose proof (child_ftype h x Hv Hx) as Hty. destruct x as [ | | l | a | l | l | a b | a b | c | p].
  - exists (tx "$true"). cbn [to_string]. rewrite Hi. split; [reflexivity | ]. split; [reflexivity | ]. split; [ | apply not_chained; cbn [lvl]; lia].
    apply good_down; [cbn [lvl]; lia | ]. eapply good_mono; [ | apply (good_const (S n) true)]. intros y ->. apply ev_simp0. unfold ev. cbn [eval_pt].
    rewrite (vh_const_inv s h true Hw Hv Hi). reflexivity.
  - exists (tx "$false"). cbn [to_string]. rewrite Hi. split; [reflexivity | ]. split; [reflexivity | ]. split; [ | apply not_chained; cbn [lvl]; lia].
    apply good_down; [cbn [lvl]; lia | ]. eapply good_mono; [ | apply (good_const (S n) false)]. intros y ->. apply ev_simp0. unfold ev. cbn [eval_pt].
    rewrite (vh_const_inv s h false Hw Hv Hi). reflexivity.
  - destruct (vcase_lit_ok s h l Hc Hv Hi) as [-> Hl]. destruct (lit_good (S n) l Hl) as [t [T1 [T2 T3]]]; [apply Hp'; left; reflexivity | ].
    exists t. cbn [to_string]. rewrite Hi. split; [exact T1 | ]. split; [exact T2 | ]. split; [ | apply not_chained; cbn [lvl]; lia]. apply good_down; [cbn [lvl]; lia | exact T3].
  - destruct Hi as [k [Hu Ha]]. destruct (unpack_not_vh s h k Hw Hv Hu) as [i [_ [_ [Hk _]]]]. cbn [depth] in Hd.
    destruct (IH a k fuel n ltac:(lia) Hk Ha Hr Hn Hp' ltac:(lia) ltac:(lia)) as [t [T1 [T2 [T3 _]]]].
    exists (repeat "~"%char 1 ++ tx "(" ++ t ++ tx ")"). cbn [to_string]. rewrite Hu. cbn [rbind]. rewrite T1. split; [reflexivity | ]. split; [reflexivity | ].
    split; [ | apply not_chained; cbn [lvl]; lia]. apply good_down; [cbn [lvl]; lia | ]. eapply good_mono; [ | apply (good_paren n 1 t _ ltac:(lia) T2 (T3 0 ltac:(lia)))].
    intros y [z [-> Hz]]. apply (ev_simp1 h k); auto. apply not_stored; auto.
  - destruct Hi as [L [Hu HL]]. cbn [depth] in Hd. cbn [right_nested numbers_ok] in Hr, Hn.
    destruct (nary_round d true L l h fuel (S n) IH Hv Hu HL) as [ts [T1 [T2 T3]]]; [ | lia | lia | ].
    { intros x Hxl. pose proof (depth_in x l Hxl). split; [lia | ]. split; [apply (fold_and_in _ l x Hr Hxl) | ]. split; [apply (fold_and_in _ l x Hn Hxl) | ].
      intros v Hvx. apply Hp'. apply (fvars_in x l v Hxl Hvx). }
    exists (join (sepx 3) ts). cbn [to_string]. rewrite Hu. cbn [rbind]. rewrite Hty. cbn [rbind type_of].
    change (precedence TAnd) with (prec 3). rewrite T1. split; [reflexivity | ]. split; [exact T2 | ]. split; [exact T3 | ]. apply not_chained; cbn [lvl]; lia.
  - destruct Hi as [L [Hu HL]]. cbn [depth] in Hd. cbn [right_nested numbers_ok] in Hr, Hn.
    destruct (nary_round d false L l h fuel (S n) IH Hv Hu HL) as [ts [T1 [T2 T3]]]; [ | lia | lia | ].
    { intros x Hxl. pose proof (depth_in x l Hxl). split; [lia | ]. split; [apply (fold_and_in _ l x Hr Hxl) | ]. split; [apply (fold_and_in _ l x Hn Hxl) | ].
      intros v Hvx. apply Hp'. apply (fvars_in x l v Hxl Hvx). }
    exists (join (sepx 2) ts). cbn [to_string]. rewrite Hu. cbn [rbind]. rewrite Hty. cbn [rbind type_of].
    change (precedence TOr) with (prec 2). rewrite T1. split; [reflexivity | ]. split; [exact T2 | ]. split; [exact T3 | ]. apply not_chained; cbn [lvl]; lia.
  - destruct Hi as [k1 [k2 [Hu [H1 H2]]]]. cbn [depth] in Hd. destruct Hr as [R0 [R1 R2]]. destruct Hn as [N1 N2].
    destruct (vh_impl_inv s h k1 k2 Hw Hv Hu) as [i [_ Hi]]. destruct (wf_impl_ops s Hw i _ Hi) as [[V1 _] [[V2 _] _]]. cbn [fst snd] in V1, V2.
    destruct (binary_round d 1 (FImpl a b) a b h k1 k2 fuel (S n)) as [ts [T1 [T2 [T3 T4]]]]; auto; try lia.
    { destruct a; cbn [lvl is_fimpl] in *; try discriminate; lia. }
    { intros v Hvx. apply Hp'. unfold fvars in *. cbn [leaves]. rewrite flat_map_app. apply in_or_app. auto. }
    { intros v Hvx. apply Hp'. unfold fvars in *. cbn [leaves]. rewrite flat_map_app. apply in_or_app. auto. }
    { intros y l Hl Hy Hb. cbn [mkx] in *. apply (ev_impl y l h k1 k2); auto. apply implication_stored; auto. }
    exists (join (sepx 1) ts). cbn [to_string]. rewrite Hu. cbn [rbind]. rewrite Hty. cbn [rbind type_of].
    change (precedence TImpl) with (prec 1). rewrite T1. split; [reflexivity | ]. split; [exact T2 | ]. split; [exact T3 | exact T4].
  - destruct Hi as [k1 [k2 [Hu [H1 H2]]]]. cbn [depth] in Hd. destruct Hr as [R0 [R1 R2]]. destruct Hn as [N1 N2].
    destruct (vh_equiv_inv s h k1 k2 Hw Hv Hu) as [i [_ Hi]]. destruct (wf_equiv_ops s Hw i _ Hi) as [[V1 _] [[V2 _] _]]. cbn [fst snd] in V1, V2.
    destruct (binary_round d 0 (FEquiv a b) a b h k1 k2 fuel (S n)) as [ts [T1 [T2 [T3 T4]]]]; auto; try lia.
    { destruct a; cbn [lvl is_fequiv] in *; try discriminate; lia. }
    { intros v Hvx. apply Hp'. unfold fvars in *. cbn [leaves]. rewrite flat_map_app. apply in_or_app. auto. }
    { intros v Hvx. apply Hp'. unfold fvars in *. cbn [leaves]. rewrite flat_map_app. apply in_or_app. auto. }
    { intros y l Hl Hy Hb. cbn [mkx] in *. apply (ev_equiv y l h k1 k2); auto. apply equivalence_stored; auto. }
    exists (join (sepx 0) ts). cbn [to_string]. rewrite Hu. cbn [rbind]. rewrite Hty. cbn [rbind type_of].
    change (precedence TEquiv) with (prec 0). rewrite T1. split; [reflexivity | ]. split; [exact T2 | ]. split; [exact T3 | exact T4].
  - destruct (unpack_cc_vh s h c Hw Hv Hi) as [C1 [C2 [C3 _]]].
    destruct (cmp_good (S n) (map (fun v => (Lit v true, 1%Z)) (cc_vars c)) (cc_cmp c) (Z.of_N (cc_rhs c)) h) as [ts [T1 [T2 T3]]].
    { destruct (cc_vars c); [congruence | discriminate]. }
    { apply Forall_forall. intros q Hq. apply in_map_iff in Hq. destruct Hq as [v [<- Hq]]. cbn [fst snd lit_var]. rewrite Forall_forall in C2.
      split; [apply (C2 v Hq) | ]. split; [ | apply in_i64_one]. apply Hp'. unfold fvars. cbn [leaves flat_map leaf_vars]. rewrite app_nil_r. auto. }
    { unfold in_i64. lia. }
    { rewrite !map_map. cbn [fst snd]. replace (map (fun _ : var => 1%Z) (cc_vars c)) with (repeat 1%Z (length (cc_vars c))); [apply cc_stored; auto | ].
      clear. induction (cc_vars c); cbn [map length repeat]; congruence. }
    assert (E1 : rmap (fun v => lit_text fid s (Lit v true)) (cc_vars c) = Ok ts).
    { rewrite <- T1. clear. induction (cc_vars c) as [ | v vs IHv]; [reflexivity | ]. cbn [rmap map fst snd]. rewrite IHv.
      destruct (lit_text fid s (Lit v true)); reflexivity. }
    assert (E2 : show_Z (Z.of_N (cc_rhs c)) = show_N (cc_rhs c)) by (destruct (cc_rhs c); reflexivity).
    rewrite E2 in T2, T3. eexists. cbn [to_string]. rewrite Hi. cbn [rbind]. unfold cc_text. rewrite E1. split; [reflexivity | ].
    split; [exact T2 | ]. split; [ | apply not_chained; cbn [lvl]; lia]. apply good_down; [cbn [lvl]; lia | exact T3].
  - destruct (unpack_pbc_vh s h p Hw Hv Hi) as [C1 [C2 [C3 _]]]. destruct Hn as [N1 N2].
    assert (M1 : map fst (combine (pb_lits p) (pb_coeffs p)) = pb_lits p /\ map snd (combine (pb_lits p) (pb_coeffs p)) = pb_coeffs p).
    { clear - C2. revert C2. generalize (pb_coeffs p) as cs. induction (pb_lits p) as [ | l ls IHl]; intros [ | z cs] H; try discriminate; auto.
      injection H as H. cbn [combine map fst snd]. destruct (IHl cs H) as [-> ->]. auto. }
    destruct M1 as [M1 M2].
    destruct (cmp_good (S n) (combine (pb_lits p) (pb_coeffs p)) (pb_cmp p) (pb_rhs p) h) as [ts [T1 [T2 T3]]].
    { intros E. rewrite E in M1. cbn [map] in M1. congruence. }
    { apply Forall_forall. intros [l z] Hq. cbn [fst snd]. pose proof (in_combine_l _ _ _ _ Hq) as Hl. pose proof (in_combine_r _ _ _ _ Hq) as Hz.
      rewrite Forall_forall in C3, N1. split; [apply C3; auto | ]. split; [ | specialize (N1 z Hz); unfold i64 in N1; unfold in_i64; lia].
      apply Hp'. unfold fvars. cbn [leaves flat_map leaf_vars]. rewrite app_nil_r. apply in_map. auto. }
    { unfold i64 in N2. unfold in_i64. lia. }
    { rewrite M1, M2. apply pbc_stored; auto. }
    eexists. cbn [to_string]. rewrite Hi. cbn [rbind]. unfold pbc_text. rewrite T1. split; [reflexivity | ].
    split; [exact T2 | ]. split; [ | apply not_chained; cbn [lvl]; lia]. apply good_down; [cbn [lvl]; lia | exact T3].
Qed.

Theorem print_parse : forall x h fuel n, depth x < fuel -> S (depth x) < n -> vh s h -> denotes s h x -> right_nested x -> numbers_ok x -> reads x ->
  exists t, to_string fid fuel s h = Ok t /\ parse fid n t s = (Ok (Some h), s).
Proof.
  intros x h fuel n Hf Hn Hv Hx Hr Hi Hp'. destruct n as [ | n]; [lia | ].
  destruct (round_all (S (depth x)) x h fuel n ltac:(lia) Hv Hx Hr Hi Hp' ltac:(lia) ltac:(lia)) as [t [T1 [T2 [T3 _]]]].
  exists t. split; [exact T1 | ]. destruct (T3 0 ltac:(lia) []) as [y [r [E1 [E2 [_ E4]]]]]; [left; reflexivity | ].
  rewrite app_nil_r in E1. cbn [pk] in E1.
  assert (F : p_formula (S n) t = Ok (Some (Some y))).
  { unfold p_formula. rewrite <- (app_nil_r t), skip_app by auto. rewrite app_nil_r, E1. cbn [rbind]. rewrite E2. reflexivity. }
  unfold parse, bind at 1, lift. rewrite F. rewrite (bind_ok _ _ _ _ _ _ _ E4). reflexivity.
Qed.
End Round.
