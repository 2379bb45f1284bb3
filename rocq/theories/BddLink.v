(** Hash chains and the free list of the node table, as linked lists over the [hash] and [next] fields. *)
From Coq Require Import NArith Arith List Bool Lia.
From Verif Require Import Base BddModel.
Import ListNotations.

(* ------------------------------------------------------------------------------------------------------------------ *)
(** * Vectors *)

Lemma updn_length : forall A n (f : A -> A) l, length (updn n f l) = length l.
Proof. intros A n f l. revert n. induction l as [ | x l IH]; intros [ | n]; cbn [updn length]; auto. Qed.

Lemma nth_updn : forall A n (f : A -> A) l d m,
  nth m (updn n f l) d = if (m =? n) && (n <? length l) then f (nth m l d) else nth m l d.
Proof.
  intros A n f l d. revert n. induction l as [ | x l IH]; intros n m.
  - destruct n, m; cbn [updn length]; rewrite ?andb_false_r; reflexivity.
  - destruct n as [ | n], m as [ | m]; cbn [updn nth length]; try reflexivity. rewrite IH. reflexivity.
Qed.

Lemma getn_ok : forall A (l : list A) n d, n < length l -> getn l n = Ok (nth n l d).
Proof.
  intros A l n d H. unfold getn. rewrite (nth_error_nth' l d H). reflexivity.
Qed.

Lemma getn_inv : forall A (l : list A) n x d, getn l n = Ok x -> n < length l /\ x = nth n l d.
Proof.
  intros A l n x d H. unfold getn in H. destruct (nth_error l n) eqn:E; [ | discriminate]. injection H as <-.
  split; [apply nth_error_Some; congruence | symmetry; apply nth_error_nth; auto].
Qed.

Lemma putn_ok : forall A (l : list A) n f, n < length l -> putn l n f = Ok (updn n f l).
Proof. intros A l n f H. unfold putn. apply Nat.ltb_lt in H. rewrite H. reflexivity. Qed.

Lemma putn_inv : forall A (l : list A) n f l', putn l n f = Ok l' -> n < length l /\ l' = updn n f l.
Proof.
  intros A l n f l' H. unfold putn in H. destruct (n <? length l) eqn:E; [ | discriminate]. injection H as <-.
  apply Nat.ltb_lt in E. auto.
Qed.

Lemma rfold_app : forall A B (f : B -> A -> res B) l1 l2 b,
  rfold f b (l1 ++ l2) = rbind (rfold f b l1) (fun b' => rfold f b' l2).
Proof.
  intros A B f l1 l2. induction l1 as [ | x l1 IH]; intros b; cbn [app rfold rbind]; auto.
  destruct (f b x); cbn [rbind]; auto.
Qed.

(** Loops with an invariant indexed by the elements already treated. *)
Lemma rfold_inv : forall A B (f : B -> A -> res B) (I : list A -> B -> Prop) l b,
  I [] b ->
  (forall pre x b', I pre b' -> In x l -> (exists suf, l = pre ++ x :: suf) -> exists b'', f b' x = Ok b'' /\ I (pre ++ [x]) b'') ->
  exists b', rfold f b l = Ok b' /\ I l b'.
Proof.
  intros A B f I l b H0 Hs.
  assert (G : forall suf pre b', l = pre ++ suf -> I pre b' -> exists b'', rfold f b' suf = Ok b'' /\ I l b'').
  { induction suf as [ | x suf IH]; intros pre b' E Hi; cbn [rfold].
    - rewrite app_nil_r in E. subst pre. eauto.
    - destruct (Hs pre x b' Hi) as (b'' & Ef & Hi').
      + rewrite E. apply in_or_app. right. left. reflexivity.
      + exists suf. exact E.
      + rewrite Ef. cbn [rbind]. apply (IH (pre ++ [x])); auto. rewrite <- app_assoc. exact E. }
  exact (G l [] b eq_refl H0).
Qed.

Lemma down_in : forall s n, In n (down s) <-> 2 <= n < s.
Proof. intros. unfold down. rewrite <- in_rev, in_seq. lia. Qed.

Lemma down_nodup : forall s, NoDup (down s).
Proof. intros. unfold down. apply NoDup_rev, seq_NoDup. Qed.

Lemma nodup_mid : forall A (pre suf : list A) x, NoDup (pre ++ x :: suf) -> ~ In x pre.
Proof. intros A pre suf x H. apply NoDup_remove_2 in H. intro G. apply H. apply in_or_app. auto. Qed.

(* ------------------------------------------------------------------------------------------------------------------ *)
(** * Linked lists *)

(** Following [nx] from [s] one meets exactly [L] and then 0. *)
Fixpoint chain (nx : nat -> nat) (s : nat) (L : list nat) : Prop :=
  match L with
  | [] => s = 0
  | x :: L' => s = x /\ x <> 0 /\ chain nx (nx x) L'
  end.

Lemma chain_frame : forall nx nx' L s, (forall x, In x L -> nx' x = nx x) -> chain nx s L -> chain nx' s L.
Proof.
  intros nx nx' L. induction L as [ | x L IH]; intros s H C; cbn [chain] in *; auto.
  destruct C as (E & Hx & C). repeat split; auto. rewrite H by (left; auto). apply IH; auto.
  intros y Hy. apply H. right. exact Hy.
Qed.

Definition setf (f : nat -> nat) (n x : nat) : nat -> nat := fun m => if m =? n then x else f m.
Lemma setf_eq : forall f n x, setf f n x n = x.
Proof. intros. unfold setf. rewrite Nat.eqb_refl. reflexivity. Qed.
Lemma setf_ne : forall f n x m, m <> n -> setf f n x m = f m.
Proof. intros f n x m H. unfold setf. apply Nat.eqb_neq in H. rewrite H. reflexivity. Qed.

(** The chains and the free list hold exactly the nodes in [D]: those with [keep] are in the chain of their hash value, the
    others in the free list. *)
Record lk (len : nat) (hs nx : nat -> nat) (fp fn : nat) (D : nat -> Prop) (keep : nat -> bool) (hof : nat -> nat) : Prop := mkLk {
  lk_ch : forall h, h < len -> exists L, chain nx (hs h) L /\ NoDup L /\ forall n, In n L <-> D n /\ keep n = true /\ hof n = h;
  lk_fr : exists F, chain nx fp F /\ NoDup F /\ length F = fn /\ forall n, In n F <-> D n /\ keep n = false }.

Lemma lk_ext : forall len hs hs' nx nx' fp fn D D' keep keep' hof hof',
  lk len hs nx fp fn D keep hof ->
  (forall h, h < len -> hs' h = hs h) -> (forall n, D n -> nx' n = nx n) -> (forall n, D' n <-> D n) ->
  (forall n, D n -> keep' n = keep n) -> (forall n, D n -> keep n = true -> hof' n = hof n) ->
  lk len hs' nx' fp fn D' keep' hof'.
Proof.
  intros len hs hs' nx nx' fp fn D D' keep keep' hof hof' [C F] Eh En ED Ek Eo. constructor.
  - intros h Hh. destruct (C h Hh) as (L & C1 & C2 & C3). exists L. rewrite (Eh h Hh). split; [ | split; auto].
    + apply (chain_frame nx); auto. intros x Hx. apply En. apply C3. exact Hx.
    + intros n. rewrite C3, ED. split; intros (A1 & A2 & A3); repeat split; auto; try (rewrite Ek by auto; auto);
        try (rewrite Eo by auto; auto); try (rewrite Ek in A2 by auto; auto).
      rewrite Eo in A3; auto; rewrite Ek in A2 by auto; auto.
  - destruct F as (L & C1 & C2 & C3 & C4). exists L. repeat split; auto.
    + apply (chain_frame nx); auto. intros x Hx. apply En. apply C4. exact Hx.
    + apply ED. apply C4. auto.
    + apply C4 in H. destruct H as (H1 & H2). rewrite Ek; auto.
    + intros (H1 & H2). apply ED in H1. apply C4. split; auto. rewrite Ek in H2; auto.
Qed.

Lemma lk_empty : forall len hs nx keep hof, (forall h, h < len -> hs h = 0) -> lk len hs nx 0 0 (fun _ => False) keep hof.
Proof.
  intros len hs nx keep hof H. constructor.
  - intros h Hh. exists []. cbn [chain]. rewrite (H h Hh). split; [auto | split; [constructor | ]]. intros n. cbn [In]. tauto.
  - exists []. cbn [chain length]. split; [auto | split; [constructor | split; [auto | ]]]. intros n. cbn [In]. tauto.
Qed.

(** Adding node [n] to its chain. *)
Lemma lk_link : forall len hs nx fp fn D keep hof n,
  lk len hs nx fp fn D keep hof -> ~ D n -> n <> 0 -> keep n = true -> hof n < len ->
  lk len (setf hs (hof n) n) (setf nx n (hs (hof n))) fp fn (fun m => D m \/ m = n) keep hof.
Proof.
  intros len hs nx fp fn D keep hof n [C F] Dn N0 K H. constructor.
  - intros h Hh. destruct (C h Hh) as (L & C1 & C2 & C3).
    assert (NL : ~ In n L) by (intro G; apply C3 in G; tauto).
    assert (C1' : forall s, chain nx s L -> chain (setf nx n (hs (hof n))) s L).
    { intros s. apply chain_frame. intros x Hx. apply setf_ne. intros ->. auto. }
    destruct (Nat.eq_dec h (hof n)) as [-> | Hne].
    + exists (n :: L). rewrite setf_eq. cbn [chain]. rewrite setf_eq. split; [auto | split; [constructor; auto | ]].
      intros m. cbn [In]. rewrite C3. split.
      * intros [<- | (A1 & A2 & A3)]; auto.
      * intros ([A1 | ->] & A2 & A3); auto.
    + exists L. rewrite setf_ne by auto. split; [auto | split; auto].
      intros m. rewrite C3. split.
      * intros (A1 & A2 & A3); auto.
      * intros ([A1 | ->] & A2 & A3); auto. congruence.
  - destruct F as (L & C1 & C2 & C3 & C4). exists L.
    assert (NL : ~ In n L) by (intro G; apply C4 in G; tauto). repeat split; auto.
    + apply (chain_frame nx); auto. intros x Hx. apply setf_ne. intros ->. auto.
    + left. apply C4. auto.
    + apply C4 in H0. tauto.
    + intros ([A1 | ->] & A2); [apply C4; auto | congruence].
Qed.

(** Adding node [n] to the free list. *)
Lemma lk_free : forall len hs nx fp fn D keep hof n,
  lk len hs nx fp fn D keep hof -> ~ D n -> n <> 0 -> keep n = false ->
  lk len hs (setf nx n fp) n (S fn) (fun m => D m \/ m = n) keep hof.
Proof.
  intros len hs nx fp fn D keep hof n [C F] Dn N0 K. constructor.
  - intros h Hh. destruct (C h Hh) as (L & C1 & C2 & C3).
    assert (NL : ~ In n L) by (intro G; apply C3 in G; tauto).
    exists L. split; [ | split; auto].
    + apply (chain_frame nx); auto. intros x Hx. apply setf_ne. intros ->. auto.
    + intros m. rewrite C3. split.
      * intros (A1 & A2 & A3); auto.
      * intros ([A1 | ->] & A2 & A3); auto. congruence.
  - destruct F as (L & C1 & C2 & C3 & C4).
    assert (NL : ~ In n L) by (intro G; apply C4 in G; tauto).
    exists (n :: L). cbn [chain length]. rewrite setf_eq. repeat split; auto.
    + apply (chain_frame nx); auto. intros x Hx. apply setf_ne. intros ->. auto.
    + constructor; auto.
    + destruct H as [<- | H]; auto. apply C4 in H. tauto.
    + destruct H as [<- | H]; auto. apply C4 in H. tauto.
    + intros ([A1 | ->] & A2); [right; apply C4; auto | left; auto].
Qed.

(** Taking the first node of the free list and putting it into chain [h]. *)
Lemma lk_alloc : forall len hs nx fp fn D keep hof h,
  lk len hs nx fp fn D keep hof -> fp <> 0 -> h < len ->
  D fp /\ keep fp = false /\ (exists fn', fn = S fn' /\
  lk len (setf hs h fp) (setf nx fp (hs h)) (nx fp) fn' D (fun m => if m =? fp then true else keep m) (setf hof fp h)).
Proof.
  intros len hs nx fp fn D keep hof h [C F] N0 H.
  destruct F as (L & C1 & C2 & C3 & C4).
  destruct L as [ | x L]; cbn [chain] in C1; [congruence | ]. destruct C1 as (-> & _ & C1).
  assert (Hx : D x /\ keep x = false) by (apply C4; left; auto).
  inversion C2 as [ | ? ? NL ND]; subst.
  split; [apply Hx | split; [apply Hx | ]]. exists (length L). split; [reflexivity | ]. constructor.
  - intros h' Hh'. destruct (C h' Hh') as (L' & D1 & D2 & D3).
    assert (NL' : ~ In x L') by (intro G; apply D3 in G; destruct G as (_ & G & _); destruct Hx; congruence).
    assert (Ch : forall s, chain nx s L' -> chain (setf nx x (hs h)) s L').
    { intros s. apply chain_frame. intros y Hy. apply setf_ne. intros ->. auto. }
    destruct (Nat.eq_dec h' h) as [-> | Hne].
    + exists (x :: L'). rewrite setf_eq. cbn [chain]. rewrite setf_eq. split; [auto | split; [constructor; auto | ]].
      intros m. cbn [In]. rewrite D3. destruct (Nat.eqb_spec m x) as [-> | Hm].
      * rewrite setf_eq. split; auto. intros _. split; [apply Hx | auto].
      * rewrite setf_ne by auto. split; [intros [E | E]; [congruence | exact E] | auto].
    + exists L'. rewrite setf_ne by auto. split; [auto | split; auto].
      intros m. rewrite D3. destruct (Nat.eqb_spec m x) as [-> | Hm].
      * rewrite setf_eq. destruct Hx. split; intros (A1 & A2 & A3); congruence.
      * rewrite setf_ne by auto. tauto.
  - exists L. repeat split; auto.
    + apply (chain_frame nx); auto. intros y Hy. apply setf_ne. intros ->. auto.
    + apply C4. right. auto.
    + destruct (Nat.eqb_spec n x) as [-> | Hm]; [tauto | ]. apply C4. right. auto.
    + intros (A1 & A2). destruct (Nat.eqb_spec n x) as [-> | Hm]; [discriminate | ].
      assert (G : In n (x :: L)) by (apply C4; auto). destruct G as [G | G]; [congruence | auto].
Qed.
