(** Proofs about subsumption of CNFs and DNFs. *)
From Coq Require Import NArith List Bool Arith Lia Sorted.
From Verif Require Import Base EncodingModel Syntax FactoryModel FactoryBasics FactoryInv FactoryOps EvalProofs InvariantSpec InvariantProofs ConstraintModel OpsModel OpsProofs
  CacheModel TransModel TreeSpec WorldProofs MetricsProofs NnfProofs CnfProofs DefBasics HeapModel UbTreeModel UbTreeProofs.
Import ListNotations.

Lemma lit_ltb_irrefl : forall l, lit_ltb l l = false.
Proof.
  intros l. destruct (lit_ltb l l) eqn:E; [| reflexivity]. exfalso. unfold lit_ltb in E.
  assert (forall v, var_ltb v v = false) by (intros [i | a i]; cbn; rewrite ?N.ltb_irrefl; try reflexivity; destruct a; cbn; rewrite ?N.ltb_irrefl; reflexivity).
  destruct (lit_phase l); rewrite H in E; discriminate.
Qed.

Section Tree.
  Variable ord : list lit -> nat -> list nat -> list nat.
  Hypothesis ord_same : forall q j l n, In n (ord q j l) <-> In n l.

  Lemma strict_NoDup : forall l, strict lit_ltb l -> NoDup l.
  Proof.
    intros l H. induction H as [| x l H IH F]; constructor; auto. intros K. rewrite Forall_forall in F. specialize (F x K). cbn in F. rewrite lit_ltb_irrefl in F. discriminate.
  Qed.
  Lemma incl_same : forall a b : list lit, strict lit_ltb a -> length b <= length a -> incl a b -> incl b a.
  Proof. intros a b Sa L I. apply NoDup_length_incl; [apply strict_NoDup; assumption | assumption | assumption]. Qed.

  (** The loop that fills the tree, on sets of increasing size. *)
  Lemma subsume_loop_ok : forall sets t W, ubinv lit_ltb t W ->
    Forall (fun s => strict lit_ltb s /\ s <> []) sets -> StronglySorted (fun a b => length a <= length b) sets ->
    (forall s s', stored t s -> In s' sets -> length s <= length s') ->
    (forall a b, stored t a -> stored t b -> incl a b -> incl b a) ->
    exists t' W', subsume_loop ord sets t = Ok t' /\ ubinv lit_ltb t' W' /\
      (forall s, stored t s -> stored t' s) /\ (forall s, stored t' s -> stored t s \/ In s sets) /\
      (forall s, In s sets -> exists s', stored t' s' /\ incl s' s) /\
      (forall a b, stored t' a -> stored t' b -> incl a b -> incl b a).
  Proof.
    induction sets as [| s sets IH]; intros t W I F S L A; cbn [subsume_loop].
    - exists t, W. split; [reflexivity |]. split; [assumption |]. split; [auto |]. split; [auto |]. split; [intros s [] | assumption].
    - inversion F as [| ? ? [F1 F2] F']; subst. inversion S as [| ? ? S1 S2]; subst. rewrite Forall_forall in S2.
      destruct (first_subset_ok lit_ltb lit_eqb lit_ltb_trans lit_ltb_irrefl lit_eqb_spec ord ord_same t W s I F1) as (o & Eo & Ho).
      rewrite Eo. cbn [rbind]. destruct o as [s0 |].
      + destruct Ho as [H0 I0]. destruct (IH t W I F' S1) as (t' & W' & E & I' & M1 & M2 & M3 & M4).
        { intros a b Ha Hb. apply L; [assumption | now right]. }
        { exact A. }
        exists t', W'. split; [exact E |]. split; [exact I' |]. split; [exact M1 |]. split; [intros a Ha; destruct (M2 a Ha); [now left | right; now right] |].
        split; [| exact M4]. intros a [<- | Ha]; [exists s0; split; [apply M1; assumption | assumption] | apply M3; assumption].
      + destruct (add_set_ok lit_ltb lit_eqb lit_ltb_trans lit_ltb_irrefl lit_ltb_total lit_eqb_spec t W s I F1) as (t1 & W1 & E1 & I1 & St1). rewrite E1. cbn [rbind].
        destruct (IH t1 W1 I1 F' S1) as (t' & W' & E & I' & M1 & M2 & M3 & M4).
        { intros a b Ha Hb. apply St1 in Ha. destruct Ha as [Ha | [-> _]]; [apply L; [assumption | now right] | apply S2; assumption]. }
        { intros a b Ha Hb Hab. apply St1 in Ha. apply St1 in Hb. destruct Ha as [Ha | [-> _]]; destruct Hb as [Hb | [-> _]].
          - apply A; assumption.
          - exfalso. exact (Ho a Ha Hab).
          - apply incl_same; auto. apply L; [assumption | now left].
          - apply incl_refl. }
        exists t', W'. split; [exact E |]. split; [exact I' |]. split; [intros a Ha; apply M1, St1; now left |]. split.
        * intros a Ha. destruct (M2 a Ha) as [K | K]; [| right; now right]. apply St1 in K. destruct K as [K | [-> _]]; [now left | right; now left].
        * split; [| exact M4]. intros a [<- | Ha]; [| apply M3; assumption]. exists s. split; [apply M1, St1; right; auto | apply incl_refl].
  Qed.

  (** Grouping by size. *)
  Lemma group_push_in : forall A k (x : A) m y, In y (flat_map snd (group_push k x m)) <-> y = x \/ In y (flat_map snd m).
  Proof.
    intros A k x m y. induction m as [| [j l] m IH]; cbn [group_push flat_map snd app In]; [intuition |].
    destruct (k <? j); [cbn [flat_map snd app In]; intuition |]. destruct (k =? j); cbn [flat_map snd]; rewrite ?in_app_iff; cbn [In]; [intuition |]. rewrite IH. tauto.
  Qed.
  Definition grouped (m : list (nat * list (list lit))) : Prop :=
    StronglySorted lt (map fst m) /\ forall k l s, In (k, l) m -> In s l -> length s = k.
  Lemma group_push_ok : forall x m, grouped m -> grouped (group_push (length x) x m).
  Proof.
    intros x m [S G]. split.
    - assert (K : forall y, In y (map fst (group_push (length x) x m)) -> y = length x \/ In y (map fst m)).
      { clear. induction m as [| [j l] m IH]; cbn [group_push map fst In]; [intuition |]. intros y. destruct (length x <? j); [cbn; intuition |].
        destruct (length x =? j); cbn [map fst In]; [intuition |]. intros [H | H]; [auto |]. apply IH in H. tauto. }
      clear G. induction m as [| [j l] m IH]; cbn [group_push map fst]; [repeat constructor |]. cbn [map fst] in S. inversion S as [| ? ? S1 S2]; subst.
      destruct (Nat.ltb_spec (length x) j).
      + cbn [map fst]. constructor; [exact S |]. constructor; [assumption |]. rewrite Forall_forall in *. intros y Hy. specialize (S2 y Hy). lia.
      + destruct (Nat.eqb_spec (length x) j); cbn [map fst]; [constructor; assumption |]. constructor.
        * apply IH; [assumption |]. intros y Hy. clear -Hy. induction m as [| [j l] m IH]; cbn [group_push map fst In] in *; [intuition |]. destruct (length x <? j); [cbn in Hy; intuition |].
          destruct (length x =? j); cbn [map fst In] in Hy; [intuition |]. destruct Hy as [H | H]; [auto |]. apply IH in H. tauto.
        * rewrite Forall_forall in *. intros y Hy. assert (y = length x \/ In y (map fst m)) as [-> | Hy'].
          { clear -Hy. induction m as [| [j l] m IH]; cbn [group_push map fst In] in *; [intuition |]. destruct (length x <? j); [cbn in Hy; intuition |].
            destruct (length x =? j); cbn [map fst In] in Hy; [intuition |]. destruct Hy as [H | H]; [auto |]. apply IH in H. tauto. }
          -- lia.
          -- auto.
    - clear S. induction m as [| [j l] m IH]; cbn [group_push].
      + intros k l' s [[= <- <-] | []] [<- | []]. reflexivity.
      + assert (IH' := IH (fun k l' s H => G k l' s (or_intror H))). intros k l' s. destruct (length x <? j).
        * intros [[= <- <-] | H] Hs; [destruct Hs as [<- | []]; reflexivity | eapply G; eauto].
        * destruct (Nat.eqb_spec (length x) j) as [<- | N].
          -- intros [[= <- <-] | H] Hs; [| eapply G; [right; eauto | assumption]]. apply in_app_or in Hs. destruct Hs as [Hs | [<- | []]]; [| reflexivity].
             eapply G; [left; reflexivity | assumption].
          -- intros [[= <- <-] | H] Hs; [eapply G; [left; reflexivity | assumption] | eauto].
  Qed.
  Lemma grouped_sorted : forall m, grouped m -> StronglySorted (fun a b : list lit => length a <= length b) (flat_map snd m).
  Proof.
    induction m as [| [k l] m IH]; intros [S G]; cbn [flat_map snd]; [constructor |]. cbn [map fst] in S. inversion S as [| ? ? S1 S2]; subst.
    assert (Gm : grouped m) by (split; [assumption | intros; eapply G; [right; eauto | assumption]]).
    assert (Gl : forall s, In s l -> length s = k) by (intros; eapply G; [left; reflexivity | assumption]).
    assert (Gr : forall s, In s (flat_map snd m) -> k < length s).
    { intros s Hs. apply in_flat_map in Hs. destruct Hs as ([j l'] & Hj & Hs). cbn in Hs. rewrite (G j l' s (or_intror Hj) Hs).
      rewrite Forall_forall in S2. apply S2. apply (in_map fst) in Hj. exact Hj. }
    specialize (IH Gm). clear G S S1 S2 Gm. induction l as [| s l IHl]; cbn [app]; [exact IH |]. constructor.
    - apply IHl. intros; apply Gl; now right.
    - apply Forall_forall. intros a Ha. apply in_app_or in Ha. pose proof (Gl s (or_introl eq_refl)). destruct Ha as [Ha | Ha]; [pose proof (Gl a (or_intror Ha)); lia |].
      specialize (Gr a Ha). lia.
  Qed.
  Lemma group_all : forall sets m, grouped m -> grouped (fold_left (fun m set => group_push (length set) set m) sets m) /\
    forall y, In y (flat_map snd (fold_left (fun m set => group_push (length set) set m) sets m)) <-> In y sets \/ In y (flat_map snd m).
  Proof.
    induction sets as [| s sets IH]; intros m G; cbn [fold_left]; [split; [assumption | cbn; tauto] |].
    destruct (IH _ (group_push_ok s m G)) as [G' H']. split; [exact G' |]. intros y. rewrite H', group_push_in. cbn [In]. intuition.
  Qed.

  (** The sets that survive. *)
  Lemma subsumed_sets : forall sets, Forall (fun s => strict lit_ltb s /\ s <> []) sets ->
    exists t, subsume_loop ord (flat_map snd (fold_left (fun m set => group_push (length set) set m) sets [])) ub_new = Ok t /\
    exists l, all_sets lit_ltb lit_eqb t = Ok l /\
      (forall s, In s l -> In s sets) /\ (forall s, In s sets -> exists s', In s' l /\ incl s' s) /\
      (forall a b, In a l -> In b l -> incl a b -> incl b a).
  Proof.
    intros sets F. destruct (group_all sets []) as [G H]; [split; [constructor | intros k l s []] |].
    destruct (subsume_loop_ok (flat_map snd (fold_left (fun m set => group_push (length set) set m) sets [])) ub_new []) as (t & W & E & I & M1 & M2 & M3 & M4).
    - apply inv_new.
    - rewrite Forall_forall in *. intros s Hs. apply H in Hs. destruct Hs as [Hs | []]. auto.
    - apply grouped_sorted. exact G.
    - intros s s' (nd & [] & _).
    - intros a b (nd & [] & _).
    - exists t. split; [exact E |]. destruct (all_sets_ok lit_ltb lit_eqb lit_ltb_trans lit_ltb_irrefl lit_ltb_total lit_eqb_spec t W I) as (l & El & _ & Il).
      exists l. split; [exact El |]. split; [| split].
      + intros s Hs. apply Il in Hs. destruct (M2 s Hs) as [(nd & [] & _) | K]. apply H in K. destruct K as [K | []]. assumption.
      + intros s Hs. destruct (M3 s) as (s' & S1 & S2); [apply H; auto |]. exists s'. split; [apply Il; assumption | assumption].
      + intros a b Ha Hb. apply M4; apply Il; assumption.
  Qed.
End Tree.

(* ------------------------------------------------------------------------------------------------------------------ *)
(** * Units: clauses of a CNF, terms of a DNF *)

Definition noncompl (ls : list lit) : Prop := forall l, In l ls -> ~ In (lit_negate l) ls.
(** A valuation that makes exactly the literals of [s] with property [k] true. *)
Definition pick (s : list lit) (k : lit -> bool) (b : bool) : valuation :=
  fun u => xorb b (if existsb (lit_eqb (Lit u true)) s then k (Lit u true) else negb (k (Lit u false))).
Lemma existsb_lit : forall l s, existsb (lit_eqb l) s = true <-> In l s.
Proof.
  intros l s. rewrite existsb_exists. split; [intros (x & H & E); apply lit_eqb_spec in E; now subst | intros H; exists l; split; [assumption | now apply lit_eqb_spec]].
Qed.
Lemma pick_sem : forall s k b l, noncompl s -> In l s -> lit_sem (pick s k b) l = xorb b (k l).
Proof.
  intros s k b [u p] N H. unfold lit_sem, pick. cbn [lit_var lit_phase]. destruct (existsb (lit_eqb (Lit u true)) s) eqn:E.
  - apply existsb_lit in E. destruct p; [destruct b, (k (Lit u true)); reflexivity |]. exfalso. exact (N _ H E).
  - destruct p; [apply existsb_lit in H; congruence |]. destruct b, (k (Lit u false)); reflexivity.
Qed.
Lemma nary_lits : forall b s k, noncompl s -> nary_sem b (pick s k b) (map FLit s) = xorb b (existsb k s).
Proof.
  intros b s k N. assert (H : forall r, incl r s -> nary_sem b (pick s k b) (map FLit r) = xorb b (existsb k r)).
  { induction r as [| l r IH]; intros Hi; [destruct b; reflexivity |].
    assert (Hl : lit_sem (pick s k b) l = xorb b (k l)) by (apply pick_sem; [assumption | apply Hi; now left]).
    specialize (IH (fun x Hx => Hi x (or_intror Hx))). destruct b; cbn [nary_sem map forallb existsb] in *; change (sem ?v (FLit l)) with (lit_sem v l); rewrite Hl, IH;
      destruct (k l), (existsb k r); reflexivity. }
  apply H, incl_refl.
Qed.

(** [z] is a unit with the literals [s]. *)
Definition unit_of (conj : bool) (s : list lit) (z : fml) : Prop := nclause conj z = true /\ forall l, In l (flits z) <-> In l s.

Lemma flits_map : forall ls, flat_map flits (map FLit ls) = ls.
Proof. induction ls as [| l ls IH]; cbn; [reflexivity | now rewrite IH]. Qed.
Lemma flits_fnary : forall b l, flits (fnary b l) = flat_map flits l.
Proof. intros [] l; reflexivity. Qed.
Lemma nclause_cases : forall conj z, nclause conj z = true <-> (exists l, z = FLit l) \/ exists ls, z = fnary (negb conj) (map FLit ls).
Proof.
  intros conj z. split.
  - intros H. destruct conj; cbn in H; destruct z as [| | l | a | l | l | a b | a b | c | p]; cbn in H; try discriminate; try (left; eauto; fail); right.
    + exists (flat_map flits l). cbn. f_equal. induction l as [| w l IH]; [reflexivity |]. cbn in H. apply andb_true_iff in H. destruct H as [H1 H2].
      destruct w; try discriminate. cbn. f_equal. auto.
    + exists (flat_map flits l). cbn. f_equal. induction l as [| w l IH]; [reflexivity |]. cbn in H. apply andb_true_iff in H. destruct H as [H1 H2].
      destruct w; try discriminate. cbn. f_equal. auto.
  - intros [(l & ->) | (ls & ->)]; [destruct conj; reflexivity |]. destruct conj; cbn; apply forallb_forall; intros w Hw; apply in_map_iff in Hw; destruct Hw as (l & <- & _); reflexivity.
Qed.
Lemma unit_sem : forall conj s z v, unit_of conj s z -> sem v z = nary_sem (negb conj) v (map FLit s).
Proof.
  intros conj s z v [H1 H2].
  assert (E : sem v z = nary_sem (negb conj) v (map FLit (flits z))).
  { apply nclause_cases in H1. destruct H1 as [(l & ->) | (ls & ->)].
    - destruct conj; cbn; [now rewrite orb_false_r | now rewrite andb_true_r].
    - rewrite flits_fnary, flits_map. destruct conj; reflexivity. }
  rewrite E. apply eq_true_iff_eq. destruct conj; cbn [negb nary_sem].
  - rewrite !existsb_exists. split; intros (x & Hx & K); exists x; (split; [| assumption]); apply in_map_iff in Hx; destruct Hx as (l & <- & Hl); apply in_map; apply H2; assumption.
  - rewrite !forallb_forall. split; intros K x Hx; apply in_map_iff in Hx; destruct Hx as (l & <- & Hl); apply K, in_map, H2; assumption.
Qed.

Lemma fflat_lits : forall b s z, fflat b (map FLit s) z -> exists l, z = FLit l /\ In l s.
Proof.
  intros b s z [H | (l & H & _)]; apply in_map_iff in H; destruct H as (l0 & E & Hl); [exists l0; auto | destruct b; discriminate].
Qed.
(** Building a unit from its literals gives a unit with exactly these literals. *)
Lemma build_unit : forall conj s y, noncompl s -> s <> [] -> nary_tree (negb conj) (map FLit s) y ->
  (forall v, sem v y = nary_sem (negb conj) v (map FLit s)) -> unit_of conj s y.
Proof.
  intros conj s y N Ne T S.
  assert (S' : forall k, sem (pick s k (negb conj)) y = xorb (negb conj) (existsb k s)) by (intros k; rewrite S; apply nary_lits; assumption).
  destruct T as [-> | [-> | [T | (l & -> & T)]]].
  - exfalso. pose proof (S' (fun _ => true)) as A. pose proof (S' (fun _ => false)) as B. destruct s as [| x s]; [congruence |]. cbn [existsb] in A.
    assert (existsb (fun _ : lit => false) (x :: s) = false) as C by (clear; induction (x :: s); auto). rewrite C in B. destruct conj; discriminate.
  - exfalso. pose proof (S' (fun _ => true)) as A. pose proof (S' (fun _ => false)) as B. destruct s as [| x s]; [congruence |]. cbn [existsb] in A.
    assert (existsb (fun _ : lit => false) (x :: s) = false) as C by (clear; induction (x :: s); auto). rewrite C in B. destruct conj; discriminate.
  - apply fflat_lits in T. destruct T as (l & -> & Hl). split; [destruct conj; reflexivity |]. intros l'. cbn [flits In]. split; [intros [<- | []]; assumption |]. intros H'.
    left. specialize (S' (lit_eqb l')). change (sem ?v (FLit l)) with (lit_sem v l) in S'. rewrite (pick_sem s _ _ l N Hl) in S'.
    assert (E : existsb (lit_eqb l') s = true) by now apply existsb_lit. rewrite E in S'. assert (lit_eqb l' l = true) by (destruct conj, (lit_eqb l' l); auto; discriminate).
    apply lit_eqb_spec in H. auto.
  - assert (exists ls, l = map FLit ls /\ incl ls s) as (ls & -> & Hls).
    { clear -T. induction T as [| z l Hz T (ls & -> & Hls)]; [exists []; split; [reflexivity | intros ? []] |]. apply fflat_lits in Hz. destruct Hz as (x & -> & Hx).
      exists (x :: ls). split; [reflexivity |]. intros a [<- | Ha]; auto. }
    split; [apply nclause_cases; right; eauto |]. intros l. rewrite flits_fnary, flits_map. split; [apply Hls |]. intros Hl.
    specialize (S' (lit_eqb l)). assert (E : existsb (lit_eqb l) s = true) by now apply existsb_lit. rewrite E in S'.
    assert (Q : sem (pick s (lit_eqb l) (negb conj)) (fnary (negb conj) (map FLit ls)) = xorb (negb conj) (existsb (lit_eqb l) ls)).
    { clear -Hls N. destruct conj; cbn [negb fnary sem].
      - induction ls as [| x ls IH]; [reflexivity |]. cbn [map existsb]. change (sem ?v (FLit x)) with (lit_sem v x).
        rewrite (pick_sem s _ _ x N (Hls x (or_introl eq_refl))), IH by (intros a Ha; apply Hls; now right). cbn. destruct (lit_eqb l x), (existsb (lit_eqb l) ls); reflexivity.
      - induction ls as [| x ls IH]; [reflexivity |]. cbn [map forallb existsb]. change (sem ?v (FLit x)) with (lit_sem v x).
        rewrite (pick_sem s _ _ x N (Hls x (or_introl eq_refl))), IH by (intros a Ha; apply Hls; now right). cbn. destruct (lit_eqb l x), (existsb (lit_eqb l) ls); reflexivity. }
    rewrite Q in S'. apply existsb_lit. destruct conj, (existsb (lit_eqb l) ls); auto; discriminate.
Qed.

(** The operands of a formula in normal form. *)
Lemma operand_units : forall s h conj l z, wf s -> vh s h -> denotes s h (fnary conj l) -> nf conj (fnary conj l) = true -> In z l ->
  nclause conj z = true /\ flits z <> [] /\ noncompl (flits z).
Proof.
  intros s h conj l z Hw Hv Hd Hn Hz. pose proof (nf_fnary _ _ Hn) as HF. rewrite Forall_forall in HF. specialize (HF z Hz). split; [exact HF |].
  pose proof (handle_doc_ok s h _ Hw Hv Hd) as D.
  assert (Dz : local_ok z) by (apply D; destruct conj; econstructor; eauto; apply su_refl).
  apply nclause_cases in HF. destruct HF as [(x & ->) | (ls & ->)].
  - cbn. split; [discriminate |]. intros a [<- | []] [K | []]. destruct x as [u []]; discriminate.
  - rewrite flits_fnary, flits_map. assert (K : nary_ok (map FLit ls)) by (destruct conj; apply Dz). destruct K as (K1 & _ & _ & K4). split.
    + destruct ls; [cbn in K1; lia | discriminate].
    + intros a Ha Hb. apply (K4 (FLit a) (FLit (lit_negate a))); try (apply in_map; assumption). right. right. exists a. auto.
Qed.

Lemma x_mmap_pure : forall A B (f : A -> M B) (P : A -> B -> Prop) l W s, inv W s -> (forall a, mono (f a)) ->
  (forall a t W', In a l -> inv W' t -> ext s t -> xspec W' t (f a) (fun b _ _ => P a b)) ->
  xspec W s (mmap f l) (fun bs _ _ => Forall2 P l bs).
Proof.
  intros A B f P l. induction l as [| a l IH]; intros W s Hi Hm H; cbn [mmap].
  - apply x_ret; [assumption | constructor].
  - eapply x_bind; [apply H; auto using ext_refl; left; reflexivity | |].
    { intros. apply mono_bind; [apply mono_mmap; assumption | intros; apply mono_ret]. }
    intros r s1 W1 Hi1 He1 _ HP. eapply x_bind; [apply IH; auto | intros; apply mono_ret |].
    { intros b t W' Hb Ht Het. apply H; auto; [right; assumption | eapply ext_trans; eauto]. }
    intros rs s2 W2 Hi2 He2 _ HF. apply x_ret; [assumption |]. constructor; assumption.
Qed.

(** What the transformation guarantees about the result [y] for the operands [xs]. *)
Definition subsumed (conj : bool) (xs : list fml) (y : fml) : Prop :=
  (forall v, sem v y = nary_sem conj v xs) /\ incl (fvars y) (flat_map fvars xs) /\ nf conj y = true /\
  (y = FTrue \/ y = FFalse \/ exists us, (y = fnary conj us \/ us = [y]) /\ Forall (fun u => nclause conj u = true) us /\
     (forall u, In u us -> exists x, In x xs /\ forall l, In l (flits u) <-> In l (flits x)) /\
     (forall a b, In a us -> In b us -> incl (flits a) (flits b) -> incl (flits b) (flits a))).

Lemma flits_fvars_unit : forall conj z, nclause conj z = true -> forall u, In u (fvars z) <-> exists l, In l (flits z) /\ lit_var l = u.
Proof.
  intros conj z H u. apply nclause_cases in H. destruct H as [(l & ->) | (ls & ->)].
  - unfold fvars. cbn. split; [intros [<- | []]; exists l; auto | intros (x & [<- | []] & <-); auto].
  - rewrite flits_fnary, flits_map. rewrite fvars_fnary. split.
    + intros K. apply in_flat_map in K. destruct K as (w & Hw & K). apply in_map_iff in Hw. destruct Hw as (l & <- & Hl). cbn in K. destruct K as [<- | []]. eauto.
    + intros (l & Hl & <-). apply in_flat_map. exists (FLit l). split; [now apply in_map | cbn; auto].
Qed.

Section Main.
  Variable ord : list lit -> nat -> list nat -> list nat.
  Hypothesis ord_same : forall q j l n, In n (ord q j l) <-> In n l.

  Lemma mono_subsumed : forall fuel ops, mono (subsumed_ubtree ord fuel ops).
  Proof. intros. unfold subsumed_ubtree. apply mono_bind; [apply mono_mmap; auto with mono |]. intros. apply mono_lift. Qed.

  Lemma subsumption_ops : forall conj fuel ops xs W s h, inv W s -> Forall2 (hdl s) ops xs -> hdl s h (fnary conj xs) -> nf conj (fnary conj xs) = true ->
    (forall x, In x xs -> (depth x < fuel)%nat) ->
    xspec W s (t <-- subsumed_ubtree ord fuel ops ;; sets <-- lift (fun _ => all_sets lit_ltb lit_eqb t) ;;
      clauses <-- mmap (fun ls => f_nary (negb conj) (map encode_lit ls)) sets ;; f_nary conj clauses)
      (fun r s' _ => exists y, hdl s' r y /\ subsumed conj xs y).
  Proof.
    intros conj fuel ops xs W s h Hi Ho Hh Hn Hf.
    assert (U : forall z, In z xs -> nclause conj z = true /\ flits z <> [] /\ noncompl (flits z)).
    { intros z Hz. eapply operand_units; eauto; [apply Hi | apply Hh | apply Hh]. }
    assert (Mc : forall sets, mono (clauses <-- mmap (fun ls => f_nary (negb conj) (map encode_lit ls)) sets ;; f_nary conj clauses)).
    { intros sets. apply mono_bind; [apply mono_mmap; auto with mono |]. auto with mono. }
    eapply x_bind with (Q1 := fun t s1 W1 => exists l, all_sets lit_ltb lit_eqb t = Ok l /\
      (forall st, In st l -> exists x, In x xs /\ forall a, In a st <-> In a (flits x)) /\
      (forall x, In x xs -> exists st, In st l /\ incl st (flits x)) /\ (forall a b, In a l -> In b l -> incl a b -> incl b a)).
    - unfold subsumed_ubtree. eapply x_bind; [apply (x_mmap_pure _ _ (literals fuel) (fun o st => forall x, hdl s o x -> set_list lit_ltb st (flits x)) ops W s); auto with mono | intros; apply mono_lift |].
      + intros o t W' Hin Hi' He. destruct (Forall2_In_l _ _ _ _ _ _ Ho Hin) as (x & Hx & Hox).
        eapply x_conseq; [apply (literals_spec fuel x W' t o); auto; [eapply vh_ext; [exact He | apply Hox] | eapply denotes_ext; [exact He | apply Hox]] |].
        intros st ? ? _ _ _ HS x' Hx'. rewrite (denotes_fun _ _ _ _ (proj1 (proj2 Hx')) (proj1 (proj2 Hox))). exact HS.
      + intros sets s1 W1 Hi1 He1 _ HF.
        assert (HF2 : Forall2 (fun st x => set_list lit_ltb st (flits x)) sets xs).
        { clear -HF Ho. revert sets HF. induction Ho as [| o x ops xs Hox Ho IH]; intros sets HF; inversion HF; subst; constructor; auto. }
        destruct (subsumed_sets ord ord_same sets) as (t & Et & l & El & L1 & L2 & L3).
        { clear -HF2 U. induction HF2 as [| st x sets xs Hs HF IH]; constructor.
          - destruct (U x (or_introl eq_refl)) as (_ & Nf & _). destruct Hs as [S1 S2]. split; [assumption |]. intros ->. destruct (flits x) as [| a r]; [congruence |].
            apply (S2 a). now left.
          - apply IH. intros z Hz. apply U. now right. }
        eapply x_lift; [exact Et | assumption |]. exists l. split; [exact El |]. split; [| split; [| exact L3]].
        * intros st Hs. apply L1 in Hs. destruct (Forall2_In_l _ _ _ _ _ _ HF2 Hs) as (x & Hx & _ & Sx). eauto.
        * intros x Hx. assert (exists st, In st sets /\ set_list lit_ltb st (flits x)) as (st & Hs & _ & Ss).
          { clear -HF2 Hx. induction HF2 as [| st z sets xs Hs HF IH]; [destruct Hx |]. destruct Hx as [<- | Hx]; [exists st; split; [now left | assumption] |].
            destruct (IH Hx) as (st' & ? & ?). exists st'. split; [now right | assumption]. }
          destruct (L2 st Hs) as (st' & H1 & H2). exists st'. split; [assumption |]. intros a Ha. apply Ss, H2, Ha.
    - intros t. apply mono_bind; [apply mono_lift |]. intros. apply Mc.
    - intros t s1 W1 Hi1 He1 _ (l & El & L1 & L2 & L3). eapply x_lift_bind; [exact El |].
      assert (Kn : forall x a, In x xs -> In a (flits x) -> known s1 (lit_var a)).
      { intros x a Hx Ha. eapply known_ext; [exact He1 |]. eapply (hdls_kn _ _ _ Ho). apply in_flat_map. exists x. split; [assumption |].
        apply (flits_fvars_unit conj x (proj1 (U x Hx))). eauto. }
      eapply x_bind; [apply (x_mmap _ _ (fun st y => unit_of conj st y /\ incl (fvars y) (map lit_var st)) l W1 s1); auto with mono | auto with mono |].
      + intros st t1 Hst Hi2 He2. destruct (L1 st Hst) as (x & Hx & Sx). destruct (U x Hx) as (Ux1 & Ux2 & Ux3).
        assert (Ho2 : Forall2 (hdl t1) (map encode_lit st) (map FLit st)).
        { assert (K : forall a, In a st -> known t1 (lit_var a)) by (intros a Ha; eapply known_ext; [exact He2 |]; eapply Kn; eauto; now apply Sx).
          clear -K Hi2. induction st as [| a st IH]; cbn [map]; constructor; [apply hdl_lit; [apply Hi2 | apply K; now left] | apply IH; intros; apply K; now right]. }
        eapply x_conseq; [apply (x_nary (negb conj) _ _ W1 t1 Hi2 Ho2) |]. intros r s3 W3 Hi3 He3 _ (-> & Hc & y & Hy & Sy & Ty). split; [reflexivity |]. exists y. split; [assumption |].
        split.
        * apply build_unit; auto.
          -- intros a Ha Hb. apply (Ux3 a); now apply Sx.
          -- intros ->. destruct (flits x) as [| a r0]; [congruence |]. apply (Sx a). now left.
        * intros u Hu. apply (nary_tree_fvars _ _ _ Ty) in Hu. apply in_flat_map in Hu. destruct Hu as (w & Hw & Hu). apply in_map_iff in Hw. destruct Hw as (a & <- & Ha).
          cbn in Hu. destruct Hu as [<- | []]. now apply in_map.
      + intros cls s2 W2 Hi2 He2 _ (-> & ys & Hys & HF).
        eapply x_conseq; [apply (x_nary conj _ _ W1 s2 Hi2 Hys) |]. intros r s3 W3 Hi3 He3 _ (-> & Hc & y & Hy & Sy & Ty). exists y. split; [assumption |].
        assert (Yu : forall u, In u ys -> exists st, In st l /\ unit_of conj st u /\ incl (fvars u) (map lit_var st)).
        { intros u Hu. clear -HF Hu. induction HF as [| st z l ys Hs HF IH]; [destruct Hu |]. destruct Hu as [<- | Hu]; [exists st; split; [now left | assumption] |].
          destruct (IH Hu) as (st' & ? & ?). exists st'. split; [now right | assumption]. }
        assert (Uy : forall st, In st l -> exists u, In u ys /\ unit_of conj st u).
        { intros st Hs. clear -HF Hs. induction HF as [| st0 z l ys H0 HF IH]; [destruct Hs |]. destruct Hs as [<- | Hs]; [exists z; split; [now left | apply H0] |].
          destruct (IH Hs) as (u & ? & ?). exists u. split; [now right | assumption]. }
        assert (Fl : forall z, fflat conj ys z -> In z ys).
        { intros z [Hz | (k & Hk & _)]; [assumption |]. exfalso. destruct (Yu _ Hk) as (st & _ & (K & _) & _). apply nclause_cases in K.
          destruct K as [(a & K) | (ls & K)]; destruct conj; discriminate. }
        assert (Sem : forall v, nary_sem conj v ys = nary_sem conj v xs).
        { intros v.
          assert (XU : forall x, In x xs -> unit_of conj (flits x) x) by (intros x Hx; split; [apply U; assumption | tauto]).
          assert (Mono : forall st st' u u', unit_of conj st u -> unit_of conj st' u' -> incl st st' -> sem v u = conj -> sem v u' = conj).
          { intros st st' u u' Hu Hu' Hi0. rewrite (unit_sem _ _ _ _ Hu), (unit_sem _ _ _ _ Hu'). destruct conj; cbn [negb nary_sem].
            - rewrite !existsb_exists. intros (w & Hw & E). exists w. split; [| assumption]. apply in_map_iff in Hw. destruct Hw as (a & <- & Ha). apply in_map, Hi0, Ha.
            - intros E. destruct (forallb (sem v) (map FLit st')) eqn:E2; [| reflexivity]. rewrite forallb_forall in E2. exfalso.
              assert (forallb (sem v) (map FLit st) = true); [| congruence]. apply forallb_forall. intros w Hw. apply E2. apply in_map_iff in Hw. destruct Hw as (a & <- & Ha). apply in_map, Hi0, Ha. }
          assert (Iff : (forall u, In u ys -> sem v u = conj) <-> (forall x, In x xs -> sem v x = conj)).
          { split.
            - intros K x Hx. destruct (L2 x Hx) as (st & Hst & Ist). destruct (Uy st Hst) as (u & Hu & Uu). exact (Mono _ _ _ _ Uu (XU x Hx) Ist (K u Hu)).
            - intros K u Hu. destruct (Yu u Hu) as (st & Hst & Uu & _). destruct (L1 st Hst) as (x & Hx & Sx).
              refine (Mono _ _ _ _ (XU x Hx) Uu _ (K x Hx)). intros a Ha. apply Sx. assumption. }
          clear -Iff. destruct conj; cbn [nary_sem].
          - apply eq_true_iff_eq. rewrite !forallb_forall. exact Iff.
          - assert (G : forall zs, existsb (sem v) zs = false <-> forall z, In z zs -> sem v z = false).
            { intros zs. split.
              - intros E z Hz. destruct (sem v z) eqn:Ez; [| reflexivity]. assert (existsb (sem v) zs = true) by (apply existsb_exists; eauto). congruence.
              - intros K. destruct (existsb (sem v) zs) eqn:E; [| reflexivity]. apply existsb_exists in E. destruct E as (z & Hz & E). rewrite (K z Hz) in E. discriminate. }
            rewrite <- !G in Iff. destruct (existsb (sem v) ys), (existsb (sem v) xs); auto; exfalso; destruct Iff as [I1 I2]; [specialize (I2 eq_refl) | specialize (I1 eq_refl)]; discriminate. }
        split; [intros v; rewrite Sy; apply Sem |]. split; [| split].
        * intros u Hu. apply (nary_tree_fvars _ _ _ Ty) in Hu. apply in_flat_map in Hu. destruct Hu as (w & Hw & Hu). destruct (Yu w Hw) as (st & Hst & _ & Iw).
          apply Iw in Hu. apply in_map_iff in Hu. destruct Hu as (a & <- & Ha). destruct (L1 st Hst) as (x & Hx & Sx). apply in_flat_map. exists x. split; [assumption |].
          apply (flits_fvars_unit conj x (proj1 (U x Hx))). exists a. split; [now apply Sx | reflexivity].
        * apply (nf_nary s3 r conj ys y); [apply Hi3 | apply Hy | apply Hy | | exact Ty]. apply Forall_forall. intros z Hz. destruct (Yu z Hz) as (st & _ & (K & _) & _).
          apply nf_cases. auto.
        * assert (G : forall us, incl us ys -> Forall (fun u => nclause conj u = true) us /\
            (forall u, In u us -> exists x, In x xs /\ forall l, In l (flits u) <-> In l (flits x)) /\
            (forall a b, In a us -> In b us -> incl (flits a) (flits b) -> incl (flits b) (flits a))).
          { intros us Hus. split; [| split].
            - apply Forall_forall. intros u Hu. destruct (Yu u (Hus u Hu)) as (st & _ & (K & _) & _). exact K.
            - intros u Hu. destruct (Yu u (Hus u Hu)) as (st & Hst & (_ & K) & _). destruct (L1 st Hst) as (x & Hx & Sx). exists x. split; [assumption |]. intros a. rewrite K. apply Sx.
            - intros a b Ha Hb Hab. destruct (Yu a (Hus a Ha)) as (sa & Hsa & (_ & Ka) & _). destruct (Yu b (Hus b Hb)) as (sb & Hsb & (_ & Kb) & _).
              intros z Hz. apply Ka. apply (L3 sa sb Hsa Hsb); [| now apply Kb]. intros w Hw. apply Kb, Hab, Ka, Hw. }
          destruct Ty as [-> | [-> | [Ty | (us & -> & Ty)]]]; auto.
          -- right. right. exists [y]. split; [now right |]. apply G. intros z [<- | []]. apply Fl. exact Ty.
          -- right. right. exists us. split; [now left |]. apply G. rewrite Forall_forall in Ty. intros z Hz. apply Fl, Ty, Hz.
  Qed.

  Lemma mono_rest : forall conj fuel h b, mono (if negb b then fail else n <-- unpackM h ;;
    let go := fun ops => t <-- subsumed_ubtree ord fuel ops ;; sets <-- lift (fun _ => all_sets lit_ltb lit_eqb t) ;;
      clauses <-- mmap (fun ls => f_nary (negb conj) (map encode_lit ls)) sets ;; f_nary conj clauses in
    match n with
    | NTrue | NFalse | NLit _ => ret h
    | NAnd ops => if conj then go ops else ret h
    | NOr ops => if conj then ret h else go ops
    | _ => fail
    end).
  Proof.
    intros conj fuel h b.
    assert (Mg : forall ops, mono (t <-- subsumed_ubtree ord fuel ops ;; sets <-- lift (fun _ => all_sets lit_ltb lit_eqb t) ;;
      clauses <-- mmap (fun ls => f_nary (negb conj) (map encode_lit ls)) sets ;; f_nary conj clauses)).
    { intros ops. apply mono_bind; [apply mono_subsumed |]. intros. apply mono_bind; [apply mono_lift |]. intros.
      apply mono_bind; [apply mono_mmap; auto with mono |]. auto with mono. }
    destruct (negb b); [apply mono_fail |]. apply mono_bind; [apply mono_lift |]. intros n. cbv zeta.
    destruct n; try apply mono_ret; try apply mono_fail; destruct conj; try apply mono_ret; apply Mg.
  Qed.
  (** The whole function on a formula in normal form. *)
  Lemma subsumption_spec : forall conj fuel x W s h, inv W s -> hdl s h x -> nf conj x = true -> (depth x <= fuel)%nat ->
    xspec W s (subsumption ord conj fuel h) (fun r s' _ => exists y, hdl s' r y /\
      (x = y /\ (forall xs, x <> fnary conj xs) \/ exists xs, x = fnary conj xs /\ subsumed conj xs y)).
  Proof.
    intros conj fuel x W s h Hi Hh Hn Hf. unfold subsumption.
    eapply x_bind with (Q1 := fun b s1 W1 => b = true).
    - destruct conj.
      + eapply x_lift; [| assumption |]; [eapply wf_cnf_exact; [apply Hi | apply Hh | apply Hh] |]. exact Hn.
      + eapply x_conseq; [eapply is_dnf_spec; [exact Hi | apply Hh | apply Hh] |]. intros b s1 W1 _ _ _ ->. exact Hn.
    - intros b. apply mono_rest.
    - intros b s1 W1 Hi1 He1 _ ->. cbn [negb]. cbv zeta.
      assert (Hh1 : hdl s1 h x) by (eapply hdl_ext; eauto).
      destruct (vh_operands s1 h (i_wf _ _ Hi1) (proj1 Hh1)) as [n [Hu _]]. eapply x_unpack_bind; [exact Hu |].
      pose proof (hdls_children s1 h x n (i_wf _ _ Hi1) Hh1 Hu) as Hc. pose proof (proj1 (proj2 Hh1)) as Hd.
      assert (Same : (forall xs, x <> fnary conj xs) -> xspec W1 s1 (ret h) (fun r s' _ => exists y, hdl s' r y /\ (x = y /\ (forall xs, x <> fnary conj xs) \/ exists xs, x = fnary conj xs /\ subsumed conj xs y))).
      { intros Hne. apply x_ret; [assumption |]. exists x. split; [assumption | now left]. }
      assert (Go : forall ops xs, x = fnary conj xs -> Forall2 (hdl s1) ops xs -> xspec W1 s1
        (t <-- subsumed_ubtree ord fuel ops ;; sets <-- lift (fun _ => all_sets lit_ltb lit_eqb t) ;;
         clauses <-- mmap (fun ls => f_nary (negb conj) (map encode_lit ls)) sets ;; f_nary conj clauses)
        (fun r s' _ => exists y, hdl s' r y /\ (x = y /\ (forall xs, x <> fnary conj xs) \/ exists xs, x = fnary conj xs /\ subsumed conj xs y))).
      { intros ops xs -> Ho. eapply x_conseq; [apply (subsumption_ops conj fuel ops xs W1 s1 h); auto |].
        - intros z Hz. pose proof (depth_in z xs Hz). destruct conj; cbn in Hf; lia.
        - intros r s2 W2 _ _ _ (y & Hy & Sy). exists y. split; [assumption |]. right. eauto. }
      node_cases n Hu Hd; cbn [node_operands children] in *; try (destruct conj; discriminate); try (apply Same; intros xs; destruct conj; discriminate).
      + destruct conj; [| apply Same; discriminate]. apply (Go _ _ eq_refl Hc).
      + destruct conj; [apply Same; discriminate |]. apply (Go _ _ eq_refl Hc).
  Qed.
  (** Anything else is refused. *)
  Lemma subsumption_panics : forall conj fuel x W s h, inv W s -> hdl s h x -> nf conj x = false -> cap (snd (subsumption ord conj fuel h s)) ->
    fst (subsumption ord conj fuel h s) = Panic.
  Proof.
    intros conj fuel x W s h Hi Hh Hn Hc. unfold subsumption in *. destruct conj; cbn [nf] in Hn.
    - unfold bind, lift in *. rewrite (wf_cnf_exact s (i_wf _ _ Hi) h x (proj1 Hh) (proj1 (proj2 Hh))), Hn. reflexivity.
    - destruct (is_dnf_spec x W s h Hi (proj1 Hh) (proj1 (proj2 Hh))) as [_ H2]. unfold bind at 1 in Hc. unfold bind at 1.
      assert (Hc1 : cap (snd (is_dnf h s))).
      { destruct (is_dnf h s) as [r s1]. destruct r as [b | |]; cbn [fst snd] in *; [| exact Hc | exact Hc]. refine (cap_le _ _ _ Hc). apply (mono_rest false fuel h b). }
      destruct (H2 Hc1) as (a & W' & E & _ & _ & _ & ->). destruct (is_dnf h s) as [r s1]. cbn [fst] in E. subst r. rewrite Hn. reflexivity.
  Qed.
End Main.
