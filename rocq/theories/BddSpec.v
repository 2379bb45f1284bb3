(** Specification of binary decision diagrams, independent of the node table: decision trees, their truth value, ordered and
    reduced trees, and canonicity of ordered reduced trees. *)
From Coq Require Import Arith List Bool Lia.
Import ListNotations.

(** A decision tree: [BN l a b] tests variable number [l] and continues with [a] if it is false and with [b] if it is true. *)
Inductive bdt := BF | BT | BN (l : nat) (a b : bdt).

Fixpoint teval (t : bdt) (w : nat -> bool) : bool :=
  match t with
  | BF => false
  | BT => true
  | BN l a b => if w l then teval b w else teval a w
  end.

(** The first variable tested, [n] (the number of variables) for constants. *)
Definition top (n : nat) (t : bdt) : nat := match t with BN l _ _ => l | _ => n end.

(** Ordered and reduced tree over the variables below [n]. *)
Fixpoint wft (n : nat) (t : bdt) : Prop :=
  match t with
  | BN l a b => l < n /\ l < top n a /\ l < top n b /\ a <> b /\ wft n a /\ wft n b
  | _ => True
  end.

(** Every variable tested in [t] is below [m]. *)
Fixpoint tbelow (m : nat) (t : bdt) : Prop :=
  match t with
  | BN l a b => l < m /\ tbelow m a /\ tbelow m b
  | _ => True
  end.

Definition upw (w : nat -> bool) (l : nat) (x : bool) : nat -> bool := fun i => if i =? l then x else w i.

Lemma upw_same : forall w l x, upw w l x l = x.
Proof. intros. unfold upw. rewrite Nat.eqb_refl. reflexivity. Qed.

Lemma bdt_eq_dec : forall a b : bdt, {a = b} + {a <> b}.
Proof. decide equality. apply Nat.eq_dec. Qed.

Lemma top_le : forall n t, wft n t -> top n t <= n.
Proof. intros n [ | | l a b]; cbn [wft top]; lia. Qed.

Lemma teval_ext : forall t w w', (forall i, w i = w' i) -> teval t w = teval t w'.
Proof.
  induction t as [ | | l a IHa b IHb]; intros w w' H; cbn [teval]; auto.
  rewrite (H l), (IHa _ _ H), (IHb _ _ H). reflexivity.
Qed.

(** Only variables from the top on matter. *)
Lemma teval_from : forall n t w w', wft n t -> (forall i, top n t <= i -> i < n -> w i = w' i) -> teval t w = teval t w'.
Proof.
  intros n t. induction t as [ | | l a IHa b IHb]; intros w w' W H; cbn [teval]; auto.
  cbn [wft] in W. destruct W as (Hl & Ha & Hb & _ & Wa & Wb). cbn [top] in H.
  rewrite (H l) by lia.
  rewrite (IHa w w' Wa), (IHb w w' Wb); auto; intros i Hi Hn; apply H; lia.
Qed.

Lemma teval_below : forall m t w w', tbelow m t -> (forall i, i < m -> w i = w' i) -> teval t w = teval t w'.
Proof.
  intros m t. induction t as [ | | l a IHa b IHb]; intros w w' W H; cbn [teval]; auto.
  cbn [tbelow] in W. destruct W as (Hl & Wa & Wb).
  rewrite (H l) by lia. rewrite (IHa w w' Wa), (IHb w w' Wb); auto.
Qed.

Lemma wft_below : forall n t, wft n t -> tbelow n t.
Proof.
  intros n t. induction t as [ | | l a IHa b IHb]; cbn [wft tbelow]; auto. intuition.
Qed.

Lemma tbelow_mono : forall m m' t, m <= m' -> tbelow m t -> tbelow m' t.
Proof.
  intros m m' t Hm. induction t as [ | | l a IHa b IHb]; cbn [tbelow]; auto. intros (H1 & H2 & H3). repeat split; auto; lia.
Qed.

Lemma teval_upw_below : forall n t w l x, wft n t -> l < top n t -> teval t (upw w l x) = teval t w.
Proof.
  intros n t w l x W Hl. apply (teval_from n); auto. intros i Hi _. unfold upw.
  destruct (Nat.eqb_spec i l); [lia | reflexivity].
Qed.

(** Different ordered reduced trees differ at some assignment. *)
Lemma canon : forall n a b, wft n a -> wft n b -> (forall w, teval a w = teval b w) -> a = b.
Proof.
  intros n a. induction a as [ | | la a1 IH1 a2 IH2]; intros b.
  - (* false *)
    induction b as [ | | l b1 J1 b2 J2]; intros Wa Wb H; auto.
    + specialize (H (fun _ => true)). discriminate.
    + cbn [wft] in Wb. destruct Wb as (Hl & T1 & T2 & Hne & W1 & W2).
      exfalso. apply Hne. transitivity BF.
      * symmetry. apply J1; auto. intros w. rewrite <- (teval_upw_below n b1 w l false W1 T1).
        specialize (H (upw w l false)). cbn [teval] in H. rewrite ?upw_same in H. exact H.
      * apply J2; auto. intros w. rewrite <- (teval_upw_below n b2 w l true W2 T2).
        specialize (H (upw w l true)). cbn [teval] in H. rewrite ?upw_same in H. exact H.
  - induction b as [ | | l b1 J1 b2 J2]; intros Wa Wb H; auto.
    + specialize (H (fun _ => true)). discriminate.
    + cbn [wft] in Wb. destruct Wb as (Hl & T1 & T2 & Hne & W1 & W2).
      exfalso. apply Hne. transitivity BT.
      * symmetry. apply J1; auto. intros w. rewrite <- (teval_upw_below n b1 w l false W1 T1).
        specialize (H (upw w l false)). cbn [teval] in H. rewrite ?upw_same in H. exact H.
      * apply J2; auto. intros w. rewrite <- (teval_upw_below n b2 w l true W2 T2).
        specialize (H (upw w l true)). cbn [teval] in H. rewrite ?upw_same in H. exact H.
  - induction b as [ | | lb b1 J1 b2 J2]; intros Wa Wb H.
    + cbn [wft] in Wa. destruct Wa as (Hl & T1 & T2 & Hne & W1 & W2).
      exfalso. apply Hne. transitivity BF.
      * apply IH1; cbn [wft]; auto. intros w. rewrite <- (teval_upw_below n a1 w la false W1 T1).
        specialize (H (upw w la false)). cbn [teval] in H. rewrite ?upw_same in H. exact H.
      * symmetry. apply IH2; cbn [wft]; auto. intros w. rewrite <- (teval_upw_below n a2 w la true W2 T2).
        specialize (H (upw w la true)). cbn [teval] in H. rewrite ?upw_same in H. exact H.
    + cbn [wft] in Wa. destruct Wa as (Hl & T1 & T2 & Hne & W1 & W2).
      exfalso. apply Hne. transitivity BT.
      * apply IH1; cbn [wft]; auto. intros w. rewrite <- (teval_upw_below n a1 w la false W1 T1).
        specialize (H (upw w la false)). cbn [teval] in H. rewrite ?upw_same in H. exact H.
      * symmetry. apply IH2; cbn [wft]; auto. intros w. rewrite <- (teval_upw_below n a2 w la true W2 T2).
        specialize (H (upw w la true)). cbn [teval] in H. rewrite ?upw_same in H. exact H.
    + pose proof Wa as Wa'. pose proof Wb as Wb'.
      cbn [wft] in Wa. destruct Wa as (Hl & T1 & T2 & Hne & W1 & W2).
      cbn [wft] in Wb. destruct Wb as (Hl' & T1' & T2' & Hne' & W1' & W2').
      destruct (lt_eq_lt_dec la lb) as [[Hlt | Heq] | Hgt].
      * (* [b] does not depend on [la] *)
        exfalso. apply Hne. transitivity (BN lb b1 b2).
        -- apply IH1; auto. intros w. rewrite <- (teval_upw_below n a1 w la false W1 T1).
           rewrite <- (teval_upw_below n (BN lb b1 b2) w la false Wb') by (cbn [top]; lia).
           specialize (H (upw w la false)). cbn [teval] in H. rewrite ?upw_same in H. exact H.
        -- symmetry. apply IH2; auto. intros w. rewrite <- (teval_upw_below n a2 w la true W2 T2).
           rewrite <- (teval_upw_below n (BN lb b1 b2) w la true Wb') by (cbn [top]; lia).
           specialize (H (upw w la true)). cbn [teval] in H. rewrite ?upw_same in H. exact H.
      * subst lb. f_equal.
        -- apply IH1; auto. intros w. rewrite <- (teval_upw_below n a1 w la false W1 T1).
           rewrite <- (teval_upw_below n b1 w la false W1' T1').
           specialize (H (upw w la false)). cbn [teval] in H. rewrite ?upw_same in H. exact H.
        -- apply IH2; auto. intros w. rewrite <- (teval_upw_below n a2 w la true W2 T2).
           rewrite <- (teval_upw_below n b2 w la true W2' T2').
           specialize (H (upw w la true)). cbn [teval] in H. rewrite ?upw_same in H. exact H.
      * exfalso. apply Hne'. transitivity (BN la a1 a2).
        -- symmetry. apply J1; auto. intros w. rewrite <- (teval_upw_below n b1 w lb false W1' T1').
           rewrite <- (teval_upw_below n (BN la a1 a2) w lb false Wa') by (cbn [top]; lia).
           specialize (H (upw w lb false)). cbn [teval] in H. rewrite ?upw_same in H. exact H.
        -- apply J2; auto. intros w. rewrite <- (teval_upw_below n b2 w lb true W2' T2').
           rewrite <- (teval_upw_below n (BN la a1 a2) w lb true Wa') by (cbn [top]; lia).
           specialize (H (upw w lb true)). cbn [teval] in H. rewrite ?upw_same in H. exact H.
Qed.

(** The reduced node: [bn l a b] is [a] if both branches agree. *)
Definition bn (l : nat) (a b : bdt) : bdt := if bdt_eq_dec a b then a else BN l a b.

Lemma bn_eval : forall l a b w, teval (bn l a b) w = if w l then teval b w else teval a w.
Proof. intros. unfold bn. destruct (bdt_eq_dec a b) as [-> | ]; cbn [teval]; auto. destruct (w l); auto. Qed.

Lemma bn_wft : forall n l a b, l < n -> l < top n a -> l < top n b -> wft n a -> wft n b -> wft n (bn l a b).
Proof. intros. unfold bn. destruct (bdt_eq_dec a b); auto. cbn [wft]. auto 10. Qed.

Lemma bn_top : forall n l a b, l < top n a -> l <= top n (bn l a b).
Proof. intros. unfold bn. destruct (bdt_eq_dec a b); cbn [top]; lia. Qed.

Lemma bn_below : forall m l a b, l < m -> tbelow m a -> tbelow m b -> tbelow m (bn l a b).
Proof. intros. unfold bn. destruct (bdt_eq_dec a b); cbn [tbelow]; auto. Qed.
