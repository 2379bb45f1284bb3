(** C64: anonymising files. *)
From Coq Require Import String Ascii NArith ZArith List Bool Arith Lia.
From Verif Require Import Base EncodingModel Syntax FactoryModel FactoryInv FactoryBasics FactoryProofs FactoryOps EvalProofs MetricsProofs OpsModel OpsProofs TreeSpec WorldProofs HistoryModel HistoryProofs TransModel AnonProofs XHistory XHistoryProofs XReplay ParserModel IoModel ParserHistory
  Properties_Factory Properties_Trans Properties_Metrics Properties_ParserHistory FileAnonModel.
Import ListNotations.
Local Open Scope N_scope.

(** The formula [y] is [x] with its variables renamed: the new variables are different for different variables and are called
    prefix and number. *)
Definition renamed (s : factory) (prefix : String.string) (x y : fml) : Prop := exists f : var -> N,
  (forall u, In u (fvars x) -> exists k, AnonProofs.name_of s (f u) = Some (anon_name prefix k))
  /\ (forall u w, In u (fvars x) -> In w (fvars x) -> f u = f w -> u = w)
  /\ (forall v, sem v y = sem (fun u => v (VFF (f u))) x) /\ incl (fvars y) (map (fun u => VFF (f u)) (fvars x)).

Lemma mono_anonymize : forall fuel h a, mono (anonymize fuel h a).
Proof.
  intros. unfold anonymize. apply mono_bind; [apply mono_variables | intros]. apply mono_bind; [apply mono_mfold; intros; apply mono_anon_var |]. intros. apply mono_bind; [apply mono_substitute | intros; apply mono_ret].
Qed.

(** The new file is the text of the renamed formula of the old file. *)
Theorem C64_with_anonymizer : forall cfg s known os fid fuel contents a t a' s',
  xreachable cfg s known os -> In (OAnon a) os -> (forall l, In l (lines contents) -> text_fits fid fuel l) ->
  anonymize_file_with_anonymizer fid fuel contents a s = (Ok (t, a'), s') -> cap s' ->
  exists h s1, read_formula fid fuel contents s = (Ok h, s1) /\ forall x, denotes s1 h x -> Forall sensible_leaf (leaves x) -> (depth x < fuel)%nat ->
  exists r y, write_formula fid fuel s' r = Ok t /\ denotes s' r y /\ renamed s' (an_prefix a) x y /\ (forall u g, entry a u g -> entry a' u g).
Proof.
  intros cfg s known os fid fuel contents a t a' s' Hr Ho Hf E Hc. unfold anonymize_file_with_anonymizer, bind, lift, ret in E.
  destruct (read_formula fid fuel contents s) as [[h | |] s1] eqn:E1; try discriminate.
  destruct (anonymize fuel h a s1) as [[[r a2] | |] s2] eqn:E2; try discriminate. cbn [fst snd] in E.
  destruct (write_formula fid fuel s2 r) as [t2 | |] eqn:E3; try discriminate. injection E as <- <- <-.
  exists h, s1. split; [reflexivity |]. intros x Hx Hl Hd.
  assert (Hc1 : cap s1). { eapply cap_le; [| exact Hc]. pose proof (mono_anonymize fuel h a s1) as K. rewrite E2 in K. exact K. }
  destruct (C63_read_formula cfg s known os fid fuel contents h s1 Hr Hf E1 Hc1) as (known1 & Hr1 & _ & Hh).
  pose proof (C46_anonymize cfg s1 known1 os a h x fuel Hr1 Hh Ho Hx Hl Hd) as H. unfold returns in H. rewrite E2 in H. cbn [fst snd] in H.
  destruct (H Hc) as ([r3 a3] & Er & f & F1 & F2 & F3 & F4 & y & Hy & Hs & Hi). injection Er as <- <-. cbn [fst snd] in *.
  exists r, y. split; [exact E3 |]. split; [exact Hy |]. split; [| exact F3]. exists f. split; [| split; [| split; [exact Hs | exact Hi]]].
  - intros u Hu. destruct (F4 u Hu) as [g Hg]. apply (F1 u g Hg).
  - intros u w Hu Hw Ef. destruct (F4 u Hu) as [g Hg]. destruct (F4 w Hw) as [g' Hg']. exact (F2 u w g g' Hg Hg' Ef).
Qed.
Print Assumptions C64_with_anonymizer.

Theorem C64_anonymize_file : forall cfg fid fuel contents prefix t s', (forall l, In l (lines contents) -> text_fits fid fuel l) ->
  anonymize_file fid fuel contents prefix (factory_new cfg) = (Ok t, s') -> cap s' ->
  exists h s1, read_formula fid fuel contents (factory_new cfg) = (Ok h, s1) /\ forall x, denotes s1 h x -> Forall sensible_leaf (leaves x) -> (depth x < fuel)%nat ->
  exists r y, write_formula fid fuel s' r = Ok t /\ denotes s' r y /\ renamed s' prefix x y.
Proof.
  intros cfg fid fuel contents prefix t s' Hf E Hc.
  assert (Hr : xreachable cfg (factory_new cfg) [] [OAnon (anonymizer_new prefix)]).
  { eapply xss_step; [apply xss_refl |]. apply xs_new. right. right. eauto. }
  assert (E' : exists a', anonymize_file_with_anonymizer fid fuel contents (anonymizer_new prefix) (factory_new cfg) = (Ok (t, a'), s')).
  { unfold anonymize_file, anonymize_file_with_anonymizer, bind, lift, ret in *. destruct (read_formula fid fuel contents (factory_new cfg)) as [[h | |] s1]; try discriminate.
    destruct (anonymize fuel h (anonymizer_new prefix) s1) as [[[r a2] | |] s2]; try discriminate. cbn [fst snd] in *. injection E as E <-. rewrite E. eauto. }
  destruct E' as [a' E']. destruct (C64_with_anonymizer _ _ _ _ _ _ _ _ _ _ _ Hr (or_introl eq_refl) Hf E' Hc) as (h & s1 & H1 & H2).
  exists h, s1. split; [exact H1 |]. intros x Hx Hl Hd. destruct (H2 x Hx Hl Hd) as (r & y & K1 & K2 & K3 & _). exists r, y. auto.
Qed.
Print Assumptions C64_anonymize_file.

(** The names are replaced consistently, but the text may mean something else: the old file says [(A => C) => B], the new one is read
    as [v0 => (v1 => v2)] (see C32_implication_refuted); the one has five models, the other seven, so no renaming relates them. *)
Definition ex_file : text := tx "(A => C) => B".
Definition models3 (x : fml) : nat := length (filter (fun v => sem v x)
  (map (fun n => fun u => match u with VFF k => N.testbit n k | _ => false end) [0; 1; 2; 3; 4; 5; 6; 7])).
Theorem C64_meaning_refuted : exists h s1 x t s' h' s2 x', read_formula (tx "F") 20 ex_file (factory_new default_config) = (Ok h, s1) /\ denotes s1 h x
  /\ anonymize_file (tx "F") 20 ex_file "v" (factory_new default_config) = (Ok t, s')
  /\ read_formula (tx "F") 20 t (factory_new default_config) = (Ok h', s2) /\ denotes s2 h' x' /\ incl (fvars x) [VFF 0; VFF 1; VFF 2] /\ incl (fvars x') [VFF 0; VFF 1; VFF 2]
  /\ models3 x = 5%nat /\ models3 x' = 7%nat.
Proof.
  set (q1 := read_formula (tx "F") 20 ex_file (factory_new default_config)). set (q2 := anonymize_file (tx "F") 20 ex_file "v" (factory_new default_config)).
  set (t := match fst q2 with Ok t => t | _ => [] end). set (q3 := read_formula (tx "F") 20 t (factory_new default_config)).
  set (h := match fst q1 with Ok h => h | _ => 0 end). set (h' := match fst q3 with Ok h => h | _ => 0 end).
  set (x := match tree_of 20 (snd q1) h with Some x => x | None => FTrue end). set (x' := match tree_of 20 (snd q3) h' with Some x => x | None => FTrue end).
  exists h, (snd q1), x, t, (snd q2), h', (snd q3), x'.
  split; [vm_compute; reflexivity |]. split; [apply (tree_of_sound 20); vm_compute; reflexivity |]. split; [vm_compute; reflexivity |]. split; [vm_compute; reflexivity |].
  split; [apply (tree_of_sound 20); vm_compute; reflexivity |]. split; [vm_compute; intros u Hu; tauto |]. split; [vm_compute; intros u Hu; tauto |]. split; vm_compute; reflexivity.
Qed.
Print Assumptions C64_meaning_refuted.

(** Two lines with a constraint; one of the names is a name that the anonymizer would use. *)
Example C64_ex : fst (anonymize_file (tx "F") 20 (tx "v1 | ~Engine" ++ [LF] ++ tx "2*Engine + 3*~v1 <= 4") "v" (factory_new default_config))
  = Ok (tx "v0 | ~v1" ++ [LF] ++ tx "2*v1 + 3*~v0 <= 4" ++ [LF]).
Proof. vm_compute. reflexivity. Qed.
