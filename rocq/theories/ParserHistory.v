(** Parsing is a sequence of calls of the factory. *)
From Coq Require Import String Ascii NArith ZArith List Bool Arith Lia.
From Verif Require Import Base EncodingModel Syntax FactoryModel FactoryInv FactoryBasics FactoryProofs FactorySpecs FactoryNary FactoryOps EvalProofs HistoryModel HistoryProofs WorldProofs
  XHistory XHistoryProofs ParserModel IoModel.
Import ListNotations.
Local Open Scope N_scope.

(** Calls of the constructors with arguments that the caller has. *)
Definition not_parsed (c : call) : Prop := match c with CParsed _ _ => False | _ => True end.
Inductive psteps (a : factory * list N) : factory * list N -> Prop :=
| ps_refl : psteps a a
| ps_call : forall s known c r s', psteps a (s, known) -> call_ok s known c -> not_parsed c -> run_call c s = (Ok r, s') -> cap s' -> psteps a (s', r :: known).

Lemma psteps_steps : forall a b, psteps a b -> steps a b.
Proof. intros a b H. induction H as [| s known c r s' H IH Hok _ Hr Hc]; [constructor |]. eapply sts_step; [exact IH |]. econstructor; eauto. Qed.
Lemma psteps_trans : forall a b c, psteps a b -> psteps b c -> psteps a c.
Proof. intros a b c H K. induction K as [| s known c r s' K IH Hok Hn Hr Hc]; [assumption | eapply ps_call; eauto]. Qed.
Lemma psteps_xsteps : forall a b os, psteps a b -> xsteps (mkX (fst a) (snd a) os) (mkX (fst b) (snd b) os).
Proof.
  intros a b os H. induction H as [| s known c r s' H IH Hok Hn Hr Hc]; [constructor |]. eapply xss_step; [exact IH |]. cbn [fst snd].
  change (r :: known) with ([r] ++ known). apply (xs_call s known os (XCall c) [r] (OEnc enc_stateless)); [| | exact Hc].
  - destruct c; cbn in *; try exact Hok; contradiction.
  - cbn [xrun]. unfold bind. rewrite Hr. reflexivity.
Qed.

Definition hist {A} (a : factory * list N) (m : M A) (Q : A -> factory -> list N -> Prop) : Prop :=
  forall r s', m (fst a) = (Ok r, s') -> cap s' -> exists known', psteps a (s', known') /\ Q r s' known'.

Lemma hist_ret : forall A a (x : A) (Q : A -> factory -> list N -> Prop), Q x (fst a) (snd a) -> hist a (ret x) Q.
Proof. intros A [s known] x Q H r s' E _. cbn in *. injection E as <- <-. exists known. split; [constructor | exact H]. Qed.
Lemma hist_fail : forall A a (Q : A -> factory -> list N -> Prop), hist a fail Q.
Proof. intros A a Q r s' E. discriminate. Qed.
Lemma hist_bind : forall A B a (m : M A) (k : A -> M B) Q1 Q, hist a m Q1 -> (forall x, mono (k x)) ->
  (forall x s1 known1, psteps a (s1, known1) -> Q1 x s1 known1 -> hist (s1, known1) (k x) Q) -> hist a (bind m k) Q.
Proof.
  intros A B a m k Q1 Q Hm Hmono Hk r s' E Hc. unfold bind in E. destruct (m (fst a)) as [o s1] eqn:Em. destruct o as [x | |]; try discriminate.
  assert (Hc1 : cap s1) by (eapply cap_le; [apply (Hmono x s1) | rewrite E; exact Hc]).
  destruct (Hm x s1 Em Hc1) as (known1 & H1 & Q1x). destruct (Hk x s1 known1 H1 Q1x r s' E Hc) as (known' & H2 & HQ).
  exists known'. split; [eapply psteps_trans; eauto | exact HQ].
Qed.
Lemma hist_lift : forall A a (f : factory -> res A) (Q : A -> factory -> list N -> Prop), (forall x, f (fst a) = Ok x -> Q x (fst a) (snd a)) -> hist a (lift f) Q.
Proof. intros A [s known] f Q H r s' E _. unfold lift in E. cbn [fst snd] in *. injection E as E <-. exists known. split; [constructor | auto]. Qed.
Lemma hist_call : forall a c, call_ok (fst a) (snd a) c -> not_parsed c -> hist a (run_call c) (fun r _ known' => In r known').
Proof. intros [s known] c Hok Hn r s' E Hc. exists (r :: known). split; [eapply ps_call; eauto; constructor | left; reflexivity]. Qed.
Lemma hist_weaken : forall A a (m : M A) (Q Q' : A -> factory -> list N -> Prop), hist a m Q -> (forall r s' k, psteps a (s', k) -> Q r s' k -> Q' r s' k) -> hist a m Q'.
Proof. intros A a m Q Q' H HQ r s' E Hc. destruct (H r s' E Hc) as (k & H1 & H2). exists k. split; [exact H1 | eapply HQ; eauto]. Qed.

(** What the caller has stays. *)
Lemma keep : forall a b h, psteps a b -> In h (snd a) -> In h (snd b).
Proof. intros a b h H. apply (steps_known _ _ (psteps_steps _ _ H)). Qed.
Lemma keep_lit : forall a b l, state_ok a -> psteps a b -> knows_lit (fst a) (snd a) l -> knows_lit (fst b) (snd b) l.
Proof.
  intros a b l Ha H (h & n & Hh & Hu & Hl). exists h, n. split; [eapply keep; eauto |]. split; [| exact Hl].
  eapply unpack_ext; [| exact Hu]. apply (proj2 (steps_ok _ _ (psteps_steps _ _ H) Ha)).
Qed.
Lemma keep_ok : forall a b, state_ok a -> psteps a b -> state_ok b.
Proof. intros a b Ha H. apply (steps_ok _ _ (psteps_steps _ _ H) Ha). Qed.

(* ------------------------------------------------------------------------------------------------------------------ *)
(** * Parse trees *)

Fixpoint pt_rec (P : pt -> Prop) (H1 : forall l, Forall P l -> P (PEquiv l)) (H2 : forall l, Forall P l -> P (PImpl l)) (H3 : forall l, Forall P l -> P (PDisj l))
  (H4 : forall l, Forall P l -> P (PConj l)) (H5 : forall m ms c d, P (PCmp m ms c d)) (H6 : forall n b, P b -> P (PSimp n b)) (H7 : forall ng n, P (PLit ng n)) (H8 : forall b, P (PConst b)) (t : pt) : P t :=
  let go := fix go (l : list pt) : Forall P l := match l with [] => Forall_nil _ | x :: r => Forall_cons x (pt_rec P H1 H2 H3 H4 H5 H6 H7 H8 x) (go r) end in
  match t with
  | PEquiv l => H1 l (go l) | PImpl l => H2 l (go l) | PDisj l => H3 l (go l) | PConj l => H4 l (go l)
  | PCmp m ms c d => H5 m ms c d | PSimp n b => H6 n b (pt_rec P H1 H2 H3 H4 H5 H6 H7 H8 b) | PLit ng n => H7 ng n | PConst b => H8 b
  end.

(** The names and the right-hand sides of comparisons in a parse tree. *)
Definition mul_name (m : pmul) : text := let '(PMul _ _ n) := m in n.
Fixpoint names_in (t : pt) : list text :=
  match t with
  | PEquiv l | PImpl l | PDisj l | PConj l => flat_map names_in l
  | PCmp m ms _ _ => mul_name m :: map (fun p => mul_name (snd p)) ms
  | PSimp _ b => names_in b
  | PLit _ n => [n]
  | PConst _ => []
  end.
Fixpoint bounds_in (t : pt) : list text :=
  match t with
  | PEquiv l | PImpl l | PDisj l | PConj l => flat_map bounds_in l
  | PCmp _ _ _ d => [d]
  | PSimp _ b => bounds_in b
  | PLit _ _ | PConst _ => []
  end.
(** Not the name of an auxiliary variable of this factory. *)
Definition plain (fid n : text) : Prop := forall i a d, aux_match n = Some (i, a, d) -> text_eqb i fid = false.
Definition small_bound (d : text) : Prop := forall s z, fst (read_i64 d s) = Ok z -> (z < 4294967296)%Z.
Definition fits (fid : text) (t : pt) : Prop := (forall n, In n (names_in t) -> plain fid n) /\ (forall d, In d (bounds_in t) -> small_bound d).

Lemma mono_parsed : forall fid n, mono (parsed_variable fid n).
Proof. intros. unfold parsed_variable. mono_tac. Qed.
Lemma mono_literal : forall fid ng n, mono (parse_literal fid ng n).
Proof. intros. unfold parse_literal. apply mono_bind; [apply mono_parsed | intros]. destruct ng; [apply mono_f_negate | apply mono_ret]. Qed.
Lemma mono_read : forall d, mono (read_i64 d).
Proof. intros. unfold read_i64. mono_tac. Qed.
Lemma mono_mul : forall fid m, mono (parse_mul fid m).
Proof.
  intros fid [co ng n]. unfold parse_mul. apply mono_bind; [destruct co; [apply mono_read | apply mono_ret] | intros]. apply mono_bind; [apply mono_literal | intros].
  apply mono_bind; [apply mono_lift | intros x]. destruct x; first [apply mono_ret | apply mono_fail].
Qed.
Lemma mono_terms : forall fid l, mono (parse_terms fid l).
Proof.
  intros fid. induction l as [| [ng m] r IH]; cbn [parse_terms]; [apply mono_ret |]. apply mono_bind; [apply mono_mul | intros]. apply mono_bind; [apply IH | intros; apply mono_ret].
Qed.
Lemma mono_eval : forall fid t, mono (eval_pt fid t).
Proof.
  intros fid t. induction t as [l IH | l IH | l IH | l IH | m ms c d | n b IH | ng n | b] using pt_rec; cbn [eval_pt].
  - induction IH as [| x r Hx Hr IHr]; [apply mono_fail |]. destruct r as [| y r]; [exact Hx |]. apply mono_bind; [exact IHr | intros]. apply mono_bind; [exact Hx | intros; apply mono_f_equivalence].
  - induction IH as [| x r Hx Hr IHr]; [apply mono_fail |]. destruct r as [| y r]; [exact Hx |]. apply mono_bind; [exact IHr | intros]. apply mono_bind; [exact Hx | intros; apply mono_f_implication].
  - apply mono_bind.
    + induction IH as [| x r Hx Hr IHr]; [apply mono_ret |]. apply mono_bind; [exact Hx | intros]. apply mono_bind; [exact IHr | intros; apply mono_ret].
    + intros [| h [| h' hs]]; [apply mono_fail | apply mono_ret | apply mono_f_nary].
  - apply mono_bind.
    + induction IH as [| x r Hx Hr IHr]; [apply mono_ret |]. apply mono_bind; [exact Hx | intros]. apply mono_bind; [exact IHr | intros; apply mono_ret].
    + intros [| h [| h' hs]]; [apply mono_fail | apply mono_ret | apply mono_f_nary].
  - apply mono_bind; [apply mono_mul | intros]. apply mono_bind; [apply mono_terms | intros]. apply mono_bind; [apply mono_read | intros; apply mono_f_pbc].
  - apply mono_bind; [exact IH | intros]. destruct (Nat.odd n); [apply mono_f_not | apply mono_ret].
  - apply mono_literal.
  - apply mono_ret.
Qed.

Lemma hist_literal : forall fid ng n a, plain fid n -> hist a (parse_literal fid ng n) (fun h _ k => In h k).
Proof.
  intros fid ng n a Hp. unfold parse_literal. eapply hist_bind.
  - assert (E : parsed_variable fid n = f_variable (string_of_list_ascii n)).
    { unfold parsed_variable. destruct (aux_match n) as [[[i t] d] |] eqn:E; [| reflexivity]. rewrite (Hp i t d E). reflexivity. }
    rewrite E. apply (hist_call a (CVariable (string_of_list_ascii n))); exact I.
  - intros x. destruct ng; [apply mono_f_negate | apply mono_ret].
  - intros h s1 k1 _ Hh. cbn beta in Hh. destruct ng; [| apply hist_ret; exact Hh]. apply (hist_call (s1, k1) (CNegate h)); [exact Hh | exact I].
Qed.
Lemma read_state : forall d s r s', read_i64 d s = (r, s') -> s' = s.
Proof. intros d s r s' E. unfold read_i64 in E. repeat match type of E with match ?x with _ => _ end _ = _ => destruct x | (if ?x then _ else _) _ = _ => destruct x end; inversion E; reflexivity. Qed.
Lemma hist_read : forall d a, hist a (read_i64 d) (fun z _ _ => exists s, fst (read_i64 d s) = Ok z).
Proof. intros d [s known] r s' E Hc. cbn [fst] in E. pose proof (read_state _ _ _ _ E) as ->. exists known. split; [constructor |]. exists s. rewrite E. reflexivity. Qed.
Lemma hist_mul : forall fid m a, plain fid (mul_name m) -> hist a (parse_mul fid m) (fun p s k => knows_lit s k (fst p)).
Proof.
  intros fid [co ng n] a Hp. unfold parse_mul. eapply (hist_bind _ _ _ _ _ (fun _ _ _ => True)).
  - destruct co as [d |]; [| apply hist_ret; exact I]. eapply hist_weaken; [apply hist_read | intros; exact I].
  - intros z. apply mono_bind; [apply mono_literal | intros]. apply mono_bind; [apply mono_lift | intros x]. destruct x; first [apply mono_ret | apply mono_fail].
  - intros z s1 k1 _ _. eapply hist_bind; [apply hist_literal; exact Hp | |].
    { intros. apply mono_bind; [apply mono_lift | intros w]. destruct w; first [apply mono_ret | apply mono_fail]. }
    intros h s2 k2 _ Hh. cbn beta in Hh. eapply (hist_bind _ _ _ _ _ (fun x s k => unpack s h = Ok x /\ In h k)).
    + apply hist_lift. intros x Hx. split; [exact Hx | exact Hh].
    + intros x. destruct x; first [apply mono_ret | apply mono_fail].
    + intros x s3 k3 _ [Hu Hk]. destruct x; try apply hist_fail. apply hist_ret. cbn [fst snd]. exists h, (NLit l). split; [exact Hk |]. split; [exact Hu | left; reflexivity].
Qed.
Lemma hist_terms : forall fid l a, state_ok a -> (forall p, In p l -> plain fid (mul_name (snd p))) -> hist a (parse_terms fid l) (fun ps s k => Forall (knows_lit s k) (map fst ps)).
Proof.
  intros fid. induction l as [| [ng m] r IH]; intros a Ha Hp; cbn [parse_terms]; [apply hist_ret; constructor |].
  eapply hist_bind; [apply hist_mul; apply (Hp (ng, m)); left; reflexivity | intros; apply mono_bind; [apply mono_terms | intros; apply mono_ret] |].
  intros p s1 k1 H1 Hl. cbn beta in Hl. pose proof (keep_ok _ _ Ha H1) as Ha1. eapply hist_bind; [apply IH; [exact Ha1 | intros q Hq; apply Hp; right; exact Hq] | intros; apply mono_ret |].
  intros ps s2 k2 H2 Hls. apply hist_ret. cbn [map fst snd]. constructor; [exact (keep_lit (s1, k1) (s2, k2) _ Ha1 H2 Hl) | exact Hls].
Qed.

Lemma fits_in : forall fid l x (c : list pt -> pt), (c = PEquiv \/ c = PImpl \/ c = PDisj \/ c = PConj) -> fits fid (c l) -> In x l -> fits fid x.
Proof.
  intros fid l x c Hc [H1 H2] Hx. assert (En : names_in (c l) = flat_map names_in l) by (destruct Hc as [-> | [-> | [-> | ->]]]; reflexivity).
  assert (Eb : bounds_in (c l) = flat_map bounds_in l) by (destruct Hc as [-> | [-> | [-> | ->]]]; reflexivity). rewrite En in H1. rewrite Eb in H2.
  split; [intros n Hn; apply H1 | intros d Hd; apply H2]; apply in_flat_map; eauto.
Qed.
Lemma hist_eval : forall fid t a, state_ok a -> fits fid t -> hist a (eval_pt fid t) (fun h _ k => In h k).
Proof.
  intros fid t. induction t as [l IH | l IH | l IH | l IH | m ms c d | n b IH | ng n | b] using pt_rec; intros a Ha Hf; cbn [eval_pt].
  - assert (Hl : forall x, In x l -> fits fid x) by (intros x; apply (fits_in fid l x PEquiv); auto). clear Hf. revert a Ha Hl.
    induction IH as [| x r Hx Hr IHr]; intros a Ha Hl; [apply hist_fail |]. destruct r as [| y r]; [apply Hx; [exact Ha | apply Hl; left; reflexivity] |].
    eapply hist_bind; [apply IHr; [exact Ha | intros z Hz; apply Hl; right; exact Hz] | intros; apply mono_bind; [apply mono_eval | intros; apply mono_f_equivalence] |].
    intros form s1 k1 H1 K1. cbn beta in K1. eapply hist_bind; [apply Hx; [exact (keep_ok _ _ Ha H1) | apply Hl; left; reflexivity] | intros; apply mono_f_equivalence |].
    intros left s2 k2 H2 K2. apply (hist_call (s2, k2) (CEquiv left form)); [split; [exact K2 | exact (keep _ _ form H2 K1)] | exact I].
  - assert (Hl : forall x, In x l -> fits fid x) by (intros x; apply (fits_in fid l x PImpl); auto). clear Hf. revert a Ha Hl.
    induction IH as [| x r Hx Hr IHr]; intros a Ha Hl; [apply hist_fail |]. destruct r as [| y r]; [apply Hx; [exact Ha | apply Hl; left; reflexivity] |].
    eapply hist_bind; [apply IHr; [exact Ha | intros z Hz; apply Hl; right; exact Hz] | intros; apply mono_bind; [apply mono_eval | intros; apply mono_f_implication] |].
    intros form s1 k1 H1 K1. cbn beta in K1. eapply hist_bind; [apply Hx; [exact (keep_ok _ _ Ha H1) | apply Hl; left; reflexivity] | intros; apply mono_f_implication |].
    intros left s2 k2 H2 K2. apply (hist_call (s2, k2) (CImpl left form)); [split; [exact K2 | exact (keep _ _ form H2 K1)] | exact I].
  - assert (Hl : forall x, In x l -> fits fid x) by (intros x; apply (fits_in fid l x PDisj); auto). clear Hf.
    eapply (hist_bind _ _ _ _ _ (fun hs _ k => incl hs k)).
    + revert a Ha Hl. induction IH as [| x r Hx Hr IHr]; intros a Ha Hl; [apply hist_ret; intros z [] |].
      eapply hist_bind; [apply Hx; [exact Ha | apply Hl; left; reflexivity] | |].
      { intros. apply mono_bind; [| intros; apply mono_ret]. clear. induction r as [| x r IH]; [apply mono_ret |]. apply mono_bind; [apply mono_eval | intros]. apply mono_bind; [exact IH | intros; apply mono_ret]. }
      intros h s1 k1 H1 K1. cbn beta in K1. eapply hist_bind; [apply IHr; [exact (keep_ok _ _ Ha H1) | intros z Hz; apply Hl; right; exact Hz] | intros; apply mono_ret |].
      intros hs s2 k2 H2 K2. apply hist_ret. intros z [<- | Hz]; [exact (keep _ _ h H2 K1) | exact (K2 z Hz)].
    + intros [| h [| h' hs]]; [apply mono_fail | apply mono_ret | apply mono_f_nary].
    + intros hs s1 k1 H1 K1. cbn beta in K1. destruct hs as [| h [| h' hs]]; [apply hist_fail | apply hist_ret; apply K1; left; reflexivity |].
      apply (hist_call (s1, k1) (CNary false (h :: h' :: hs))); [exact K1 | exact I].
  - assert (Hl : forall x, In x l -> fits fid x) by (intros x; apply (fits_in fid l x PConj); auto). clear Hf.
    eapply (hist_bind _ _ _ _ _ (fun hs _ k => incl hs k)).
    + revert a Ha Hl. induction IH as [| x r Hx Hr IHr]; intros a Ha Hl; [apply hist_ret; intros z [] |].
      eapply hist_bind; [apply Hx; [exact Ha | apply Hl; left; reflexivity] | |].
      { intros. apply mono_bind; [| intros; apply mono_ret]. clear. induction r as [| x r IH]; [apply mono_ret |]. apply mono_bind; [apply mono_eval | intros]. apply mono_bind; [exact IH | intros; apply mono_ret]. }
      intros h s1 k1 H1 K1. cbn beta in K1. eapply hist_bind; [apply IHr; [exact (keep_ok _ _ Ha H1) | intros z Hz; apply Hl; right; exact Hz] | intros; apply mono_ret |].
      intros hs s2 k2 H2 K2. apply hist_ret. intros z [<- | Hz]; [exact (keep _ _ h H2 K1) | exact (K2 z Hz)].
    + intros [| h [| h' hs]]; [apply mono_fail | apply mono_ret | apply mono_f_nary].
    + intros hs s1 k1 H1 K1. cbn beta in K1. destruct hs as [| h [| h' hs]]; [apply hist_fail | apply hist_ret; apply K1; left; reflexivity |].
      apply (hist_call (s1, k1) (CNary true (h :: h' :: hs))); [exact K1 | exact I].
  - destruct Hf as [Hn Hb]. cbn [names_in bounds_in] in *.
    eapply hist_bind; [apply hist_mul; apply Hn; left; reflexivity | intros; apply mono_bind; [apply mono_terms | intros]; apply mono_bind; [apply mono_read | intros; apply mono_f_pbc] |].
    intros p s1 k1 H1 K1. cbn beta in K1. pose proof (keep_ok _ _ Ha H1) as Ha1.
    eapply hist_bind; [apply hist_terms; [exact Ha1 | intros q Hq; apply Hn; right; apply in_map_iff; exists q; auto] | intros; apply mono_bind; [apply mono_read | intros; apply mono_f_pbc] |].
    intros ps s2 k2 H2 K2. cbn beta in K2. pose proof (keep_ok _ _ Ha1 H2) as Ha2. assert (Kp : Forall (knows_lit s2 k2) (map fst (p :: ps))) by (cbn [map]; constructor; [exact (keep_lit (s1, k1) (s2, k2) _ Ha1 H2 K1) | exact K2]).
    eapply hist_bind; [apply hist_read | intros; apply mono_f_pbc |].
    intros z s3 k3 H3 [s0 Hz]. apply (hist_call (s3, k3) (CPbc c z (map fst (p :: ps)) (map snd (p :: ps)))); [| exact I]. cbn [call_ok fst snd]. split.
    + eapply Forall_impl; [| exact Kp]. intros l0 Hl0. exact (keep_lit (s2, k2) (s3, k3) _ Ha2 H3 Hl0).
    + intros _. exact (Hb d (or_introl eq_refl) s0 z Hz).
  - eapply hist_bind; [apply IH; [exact Ha | exact Hf] | intros; destruct (Nat.odd n); [apply mono_f_not | apply mono_ret] |].
    intros h s1 k1 _ K1. cbn beta in K1. destruct (Nat.odd n); [| apply hist_ret; exact K1]. apply (hist_call (s1, k1) (CNot h)); [exact K1 | exact I].
  - apply hist_literal. apply (proj1 Hf). left. reflexivity.
  - apply (hist_call a (CConstant b)); exact I.
Qed.

Definition text_fits (fid : text) (fuel : nat) (s : text) : Prop := forall t, p_formula fuel s = Ok (Some (Some t)) -> fits fid t.
Lemma mono_parse : forall fid fuel s, mono (parse fid fuel s).
Proof. intros. unfold parse. apply mono_bind; [apply mono_lift | intros [[t |] |]]; [| apply mono_ret | apply mono_ret]. apply mono_bind; [apply mono_eval | intros; apply mono_ret]. Qed.
Lemma hist_parse : forall fid fuel s a, state_ok a -> text_fits fid fuel s -> hist a (parse fid fuel s) (fun o _ k => forall h, o = Some h -> In h k).
Proof.
  intros fid fuel s a Ha Hf. unfold parse. eapply (hist_bind _ _ _ _ _ (fun o _ _ => p_formula fuel s = Ok o)).
  - apply hist_lift. intros x E. exact E.
  - intros [[t |] |]; [| apply mono_ret | apply mono_ret]. apply mono_bind; [apply mono_eval | intros; apply mono_ret].
  - intros [[t |] |] s1 k1 H1 E; cbn beta in E.
    + eapply hist_bind; [apply hist_eval; [exact (keep_ok _ _ Ha H1) | exact (Hf t E)] | intros; apply mono_ret |].
      intros h s2 k2 _ K. apply hist_ret. intros h' Eh. injection Eh as <-. exact K.
    + change (ret (Some verum) : M (option N)) with (bind (ret verum) (fun h => ret (Some h)) : M (option N)).
      eapply hist_bind; [apply (hist_call (s1, k1) (CConstant true)); exact I | intros; apply mono_ret |].
      intros h s2 k2 _ K. apply hist_ret. intros h' Eh. injection Eh as <-. exact K.
    + apply hist_ret. discriminate.
Qed.
Lemma mono_operands : forall fid fuel ls, mono (read_operands fid fuel ls).
Proof.
  intros fid fuel. induction ls as [| l r IH]; cbn [read_operands]; [apply mono_ret |]. apply mono_bind; [apply mono_parse | intros [h |]; [| apply mono_fail]]. apply mono_bind; [exact IH | intros; apply mono_ret].
Qed.
Lemma hist_file : forall fid fuel ls a, state_ok a -> (forall l, In l ls -> text_fits fid fuel l) -> hist a (read_operands fid fuel ls) (fun hs _ k => incl hs k).
Proof.
  intros fid fuel. induction ls as [| l r IH]; intros a Ha Hf; cbn [read_operands]; [apply hist_ret; intros z [] |].
  eapply hist_bind; [apply hist_parse; [exact Ha | apply Hf; left; reflexivity] | intros [h |]; [| apply mono_fail]; apply mono_bind; [apply mono_operands | intros; apply mono_ret] |].
  intros [h |] s1 k1 H1 K1; [| apply hist_fail]. cbn beta in K1. eapply hist_bind; [apply IH; [exact (keep_ok _ _ Ha H1) | intros z Hz; apply Hf; right; exact Hz] | intros; apply mono_ret |].
  intros hs s2 k2 H2 K2. apply hist_ret. intros z [<- | Hz]; [exact (keep _ _ h H2 (K1 h eq_refl)) | exact (K2 z Hz)].
Qed.
Lemma hist_read_formula : forall fid fuel s a, state_ok a -> (forall l, In l (lines s) -> text_fits fid fuel l) -> hist a (read_formula fid fuel s) (fun h _ k => In h k).
Proof.
  intros fid fuel s a Ha Hf. unfold read_formula. eapply hist_bind; [apply hist_file; assumption | intros; apply mono_f_nary |].
  intros hs s1 k1 _ K. apply (hist_call (s1, k1) (CNary true hs)); [exact K | exact I].
Qed.
