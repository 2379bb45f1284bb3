(** The node table: invariant, marking, garbage collection, resizing and [make_node]. *)
From Coq Require Import NArith Arith List Bool Lia.
From Verif Require Import Base BddSpec BddModel BddLink.
Import ListNotations.
Local Open Scope res_scope.

Definition dead : node := mkNode 0 0 false None 0 0 0.
Definition nd (ns : list node) (n : nat) : node := nth n ns dead.
Definition mk (ns : list node) (n : nat) : Prop := n_mark (nd ns n) = true.
Definition live (ns : list node) (n : nat) : Prop := 2 <= n /\ n_low (nd ns n) <> None.
Definition liveb (ns : list node) (n : nat) : bool := match n_low (nd ns n) with Some _ => true | None => false end.
Definition valid (ns : list node) (n : nat) : Prop := n < 2 \/ live ns n.
Definition closed (ns : list node) : Prop :=
  forall n lo, 2 <= n -> n_low (nd ns n) = Some lo -> valid ns lo /\ valid ns (n_high (nd ns n)).
Definition body (x : node) := (n_ref x, n_level x, n_low x, n_high x).
Definition core (x : node) := (n_level x, n_low x, n_high x).
Definition same (ns ns' : list node) : Prop := length ns' = length ns /\ forall n, body (nd ns' n) = body (nd ns n).
Definition links (ns ns' : list node) : Prop :=
  forall n, n_hash (nd ns' n) = n_hash (nd ns n) /\ n_next (nd ns' n) = n_next (nd ns n).

Lemma nd_upd : forall n f ns m, nd (updn n f ns) m = if (m =? n) && (n <? length ns) then f (nd ns m) else nd ns m.
Proof. intros. unfold nd. apply nth_updn. Qed.
Lemma nd_upd_eq : forall n f ns, n < length ns -> nd (updn n f ns) n = f (nd ns n).
Proof. intros n f ns H. rewrite nd_upd, Nat.eqb_refl. apply Nat.ltb_lt in H. rewrite H. reflexivity. Qed.
Lemma nd_upd_ne : forall n f ns m, m <> n -> nd (updn n f ns) m = nd ns m.
Proof. intros n f ns m H. rewrite nd_upd. apply Nat.eqb_neq in H. rewrite H. reflexivity. Qed.
Lemma nd_out : forall ns n, length ns <= n -> nd ns n = dead.
Proof. intros. unfold nd. apply nth_overflow. assumption. Qed.

Lemma live_lt : forall ns n, live ns n -> n < length ns.
Proof.
  intros ns n (_ & H). destruct (le_lt_dec (length ns) n) as [G | G]; auto. rewrite nd_out in H by auto. cbn [dead n_low] in H. congruence.
Qed.
Lemma liveb_true : forall ns n, liveb ns n = true <-> n_low (nd ns n) <> None.
Proof. intros. unfold liveb. destruct (n_low (nd ns n)); split; congruence. Qed.

Lemma body_fields : forall x y, body x = body y -> n_ref x = n_ref y /\ n_level x = n_level y /\ n_low x = n_low y /\ n_high x = n_high y.
Proof. intros x y H. unfold body in H. injection H as -> -> -> ->. auto. Qed.
Lemma body_core : forall x y, body x = body y -> core x = core y.
Proof. intros x y H. apply body_fields in H. destruct H as (_ & H1 & H2 & H3). unfold core. congruence. Qed.
Lemma core_fields : forall x y, core x = core y -> n_level x = n_level y /\ n_low x = n_low y /\ n_high x = n_high y.
Proof. intros x y H. unfold core in H. injection H as -> -> ->. auto. Qed.

Lemma same_refl : forall ns, same ns ns.
Proof. intros; split; auto. Qed.
Lemma same_trans : forall a b c, same a b -> same b c -> same a c.
Proof. intros a b c (H1 & H2) (H3 & H4). split; [congruence | ]. intros n. rewrite H4. auto. Qed.
Lemma same_sym : forall a b, same a b -> same b a.
Proof. intros a b (H1 & H2). split; [congruence | ]. intros n. rewrite H2. auto. Qed.
Lemma links_refl : forall ns, links ns ns.
Proof. intros ns n; auto. Qed.
Lemma links_trans : forall a b c, links a b -> links b c -> links a c.
Proof. intros a b c H1 H2 n. destruct (H1 n), (H2 n). split; congruence. Qed.
Lemma same_live : forall a b n, same a b -> live a n -> live b n.
Proof. intros a b n (_ & H) (H1 & H2). split; auto. specialize (H n). apply body_fields in H. destruct H as (_ & _ & -> & _). auto. Qed.
Lemma same_valid : forall a b n, same a b -> valid a n -> valid b n.
Proof. intros a b n H [G | G]; [left | right]; auto. eapply same_live; eauto. Qed.
Lemma same_closed : forall a b, same a b -> closed a -> closed b.
Proof.
  intros a b H C n lo H2 E. pose proof H as (_ & Hb). specialize (Hb n). apply body_fields in Hb. destruct Hb as (_ & _ & Hl & Hh).
  rewrite Hl in E. destruct (C n lo H2 E). rewrite Hh. split; eapply same_valid; eauto.
Qed.

Lemma same_mark : forall i b ns, same ns (updn i (w_mark b) ns).
Proof.
  intros i b ns. split; [apply updn_length | ]. intros n. rewrite nd_upd. destruct (_ && _); reflexivity.
Qed.
Lemma links_mark : forall i b ns, links ns (updn i (w_mark b) ns).
Proof. intros i b ns n. rewrite nd_upd. destruct (_ && _); auto. Qed.

(** Number of unmarked nodes. *)
Definition white (ns : list node) : nat := length (filter (fun x => negb (n_mark x)) ns).

Lemma white_le : forall ns ns', length ns' = length ns -> (forall n, mk ns n -> mk ns' n) -> white ns' <= white ns.
Proof.
  induction ns as [ | x ns IH]; intros [ | y ns'] L H; cbn [length] in L; try discriminate; auto.
  unfold white in *. cbn [filter].
  assert (G : length (filter (fun x => negb (n_mark x)) ns') <= length (filter (fun x => negb (n_mark x)) ns)).
  { apply IH; [lia | ]. intros n Hn. apply (H (S n)). exact Hn. }
  specialize (H 0). unfold mk, nd in H. cbn [nth] in H.
  destruct (n_mark x), (n_mark y); cbn [negb length]; lia || (specialize (H eq_refl); discriminate).
Qed.

Lemma white_put : forall ns n, n < length ns -> n_mark (nd ns n) = false -> S (white (updn n (w_mark true) ns)) = white ns.
Proof.
  unfold white, nd. induction ns as [ | x ns IH]; intros n L H; cbn [length] in L; [lia | ].
  destruct n as [ | n]; cbn [updn nth filter] in *.
  - rewrite H. reflexivity.
  - specialize (IH n ltac:(lia) H). destruct (n_mark x); cbn [negb length]; lia.
Qed.

Lemma white_len : forall ns, white ns <= length ns.
Proof. intros. unfold white. induction ns as [ | x ns IH]; cbn [filter length]; auto. destruct (n_mark x); cbn [negb length]; lia. Qed.

(** Reachability. *)
Inductive reach (ns : list node) (i : nat) : nat -> Prop :=
| reach_refl : reach ns i i
| reach_lo : forall n lo, reach ns i n -> 2 <= n -> n_low (nd ns n) = Some lo -> reach ns i lo
| reach_hi : forall n, reach ns i n -> live ns n -> reach ns i (n_high (nd ns n)).

Lemma reach_trans : forall ns i j n, reach ns i j -> reach ns j n -> reach ns i n.
Proof. intros ns i j n H1 H2. induction H2; eauto using reach. Qed.

Lemma reach_same : forall a b i n, same a b -> reach a i n -> reach b i n.
Proof.
  intros a b i n S H. induction H as [ | n lo H IH H2 E | n H IH L]; eauto using reach.
  - apply (reach_lo b i n lo IH H2). destruct S as (_ & S). specialize (S n). apply body_fields in S. destruct S as (_ & _ & -> & _). auto.
  - pose proof S as (_ & Sb). specialize (Sb n). apply body_fields in Sb. destruct Sb as (_ & _ & _ & <-). apply reach_hi; auto.
    eapply same_live; eauto.
Qed.

Definition mkc (ns : list node) (c : nat) : Prop := c < 2 \/ mk ns c.
Definition kids (ns ns' : list node) (n : nat) : Prop :=
  (forall lo, n_low (nd ns n) = Some lo -> mkc ns' lo) /\ mkc ns' (n_high (nd ns n)).

Lemma mark_spec : forall fuel ns i, closed ns -> valid ns i -> white ns < fuel ->
  exists ns', mark fuel ns i = Ok ns' /\ same ns ns' /\ links ns ns' /\
    (forall n, mk ns n -> mk ns' n) /\ mkc ns' i /\
    (forall n, mk ns' n -> mk ns n \/ (live ns n /\ reach ns i n /\ kids ns ns' n)).
Proof.
  induction fuel as [ | fuel IH]; intros ns i C V W; [lia | ]. cbn [mark].
  destruct (Nat.ltb_spec i 2) as [H2 | H2].
  { exists ns. split; [auto | ]. split; [apply same_refl | ]. split; [apply links_refl | ]. split; [auto | ]. split; [left; auto | auto]. }
  assert (Li : live ns i) by (destruct V as [V | V]; [lia | auto]).
  pose proof (live_lt _ _ Li) as Hlt.
  rewrite (getn_ok _ ns i dead Hlt). cbn [rbind]. fold (nd ns i).
  destruct (n_low (nd ns i)) as [lo | ] eqn:El; [ | destruct Li; congruence].
  destruct (n_mark (nd ns i)) eqn:Em.
  { exists ns. split; [auto | ]. split; [apply same_refl | ]. split; [apply links_refl | ]. split; [auto | ]. split; [right; auto | auto]. }
  rewrite putn_ok by auto. cbn [rbind].
  set (ns1 := updn i (w_mark true) ns).
  assert (S1 : same ns ns1) by apply same_mark.
  assert (K1 : links ns ns1) by apply links_mark.
  assert (M1 : forall n, mk ns1 n <-> mk ns n \/ n = i).
  { intros n. unfold mk, ns1. rewrite nd_upd. apply Nat.ltb_lt in Hlt. rewrite Hlt, andb_true_r.
    destruct (Nat.eqb_spec n i) as [-> | Hn]; cbn [w_mark n_mark]; [tauto | ]. split; [auto | intros [G | G]; [auto | congruence]]. }
  assert (W1 : white ns1 < fuel) by (pose proof (white_put ns i Hlt Em); unfold ns1; lia).
  destruct (C i lo H2 El) as (Vlo & Vhi).
  destruct (IH ns1 lo (same_closed _ _ S1 C) (same_valid _ _ _ S1 Vlo) W1) as (ns2 & E2 & S2 & K2 & M2 & B2 & R2).
  rewrite E2. cbn [rbind].
  assert (S02 : same ns ns2) by (eapply same_trans; eauto).
  assert (L2 : i < length ns2) by (destruct S02 as (-> & _); auto).
  rewrite (getn_ok _ ns2 i dead L2). cbn [rbind]. fold (nd ns2 i).
  assert (Eh : n_high (nd ns2 i) = n_high (nd ns i)) by (destruct S02 as (_ & Sb); specialize (Sb i); apply body_fields in Sb; tauto).
  rewrite Eh.
  assert (W2 : white ns2 < fuel).
  { pose proof (white_le ns1 ns2 ltac:(destruct S2; auto) M2). lia. }
  destruct (IH ns2 (n_high (nd ns i)) (same_closed _ _ S02 C) (same_valid _ _ _ S02 Vhi) W2) as (ns3 & E3 & S3 & K3 & M3 & B3 & R3).
  exists ns3. rewrite E3. split; [reflexivity | ].
  assert (S03 : same ns ns3) by (eapply same_trans; eauto).
  split; [auto | ]. split; [eapply links_trans; [exact K1 | eapply links_trans; eauto] | ].
  assert (Mm : forall n, mk ns1 n -> mk ns3 n) by auto.
  split; [intros n Hn; apply Mm, M1; auto | ].
  assert (Mi : mk ns3 i) by (apply Mm, M1; auto).
  split; [right; auto | ].
  assert (Bc : forall c, mkc ns2 c -> mkc ns3 c) by (intros c [G | G]; [left | right]; auto).
  intros n Hn. apply R3 in Hn. destruct Hn as [Hn | (Ln & Rn & Kn)].
  - apply R2 in Hn. destruct Hn as [Hn | (Ln & Rn & Kn)].
    + apply M1 in Hn. destruct Hn as [Hn | ->]; [left; auto | right].
      split; [auto | ]. split; [constructor | ]. split.
      * intros lo' Elo. rewrite El in Elo. injection Elo as <-. auto.
      * auto.
    + right. pose proof S1 as (_ & Sb). pose proof (body_fields _ _ (Sb n)) as (_ & _ & Fl & Fh).
      split; [exact (same_live _ _ _ (same_sym _ _ S1) Ln) | ]. split.
      * eapply reach_trans; [ | eapply reach_same; [apply same_sym; exact S1 | exact Rn]].
        exact (reach_lo ns i i lo (reach_refl ns i) H2 El).
      * destruct Kn as (K4 & K5). split; [intros lo' G; apply Bc, K4; congruence | ]. rewrite Fh in K5. auto.
  - right. pose proof S02 as (_ & Sb). pose proof (body_fields _ _ (Sb n)) as (_ & _ & Fl & Fh).
    split; [exact (same_live _ _ _ (same_sym _ _ S02) Ln) | ]. split.
    + eapply reach_trans; [ | eapply reach_same; [apply same_sym; exact S02 | exact Rn]].
      exact (reach_hi ns i i (reach_refl ns i) Li).
    + destruct Kn as (K4 & K5). split; [intros lo' G; apply K4; congruence | ]. rewrite Fh in K5. auto.
Qed.

(* ------------------------------------------------------------------------------------------------------------------ *)
(** * The invariant of the table *)

Definition hof (ns : list node) (n : nat) : nat :=
  match n_low (nd ns n) with Some lo => nodehash (length ns) (n_level (nd ns n)) lo (n_high (nd ns n)) | None => 0 end.

Definition hs (ns : list node) (n : nat) : nat := n_hash (nd ns n).
Definition nx (ns : list node) (n : nat) : nat := n_next (nd ns n).

Record tinv (ns : list node) (fp fn : nat) : Prop := mkTinv {
  t_len : 3 <= length ns;
  t_closed : closed ns;
  t_lk : lk (length ns) (hs ns) (nx ns) fp fn (fun n => 2 <= n < length ns) (liveb ns) (hof ns);
  t_uniq : forall n m, live ns n -> live ns m -> core (nd ns n) = core (nd ns m) -> n = m;
  t_mark : forall n, n_mark (nd ns n) = false;
  t_ref : forall n, 2 <= n -> n_low (nd ns n) = None -> n_ref (nd ns n) = 0%N;
  t_const : forall n, n < 2 -> n_low (nd ns n) = Some n /\ n_high (nd ns n) = n /\ (0 < n_ref (nd ns n))%N }.

Lemma nodehash_lt : forall size l a b, 0 < size -> nodehash size l a b < size.
Proof.
  intros size l a b H. unfold nodehash.
  assert (G : (triple (N.of_nat l) (N.of_nat a) (N.of_nat b) mod N.of_nat size < N.of_nat size)%N) by (apply N.mod_lt; lia).
  lia.
Qed.

Lemma hof_lt : forall ns n, 0 < length ns -> hof ns n < length ns.
Proof. intros. unfold hof. destruct (n_low (nd ns n)); auto. apply nodehash_lt. auto. Qed.

(** A node is protected if it is reachable from the reference stack or from a node with a positive reference count. *)
Definition root (ns : list node) (st : list nat) (n : nat) : Prop := In n st \/ (0 < n_ref (nd ns n))%N.
Definition prot (ns : list node) (st : list nat) (n : nat) : Prop := exists r, root ns st r /\ reach ns r n.

Lemma prot_lo : forall ns st n lo, prot ns st n -> 2 <= n -> n_low (nd ns n) = Some lo -> prot ns st lo.
Proof. intros ns st n lo (r & H1 & H2) G1 G2. exists r. split; eauto using reach. Qed.
Lemma prot_hi : forall ns st n, prot ns st n -> live ns n -> prot ns st (n_high (nd ns n)).
Proof. intros ns st n (r & H1 & H2) G1. exists r. split; eauto using reach. Qed.
Lemma prot_root : forall ns st n, root ns st n -> prot ns st n.
Proof. intros ns st n H. exists n. split; auto. constructor. Qed.

(* ------------------------------------------------------------------------------------------------------------------ *)
(** * Garbage collection *)

(** State of marking: nothing but marks changed, the marked nodes are protected and live, and their children are marked. *)
Record marking (ns : list node) (st : list nat) (ns' : list node) : Prop := mkMarking {
  m_same : same ns ns';
  m_ok : forall n, mk ns' n -> live ns n /\ prot ns st n /\ kids ns ns' n }.

Lemma mark_step : forall ns st ns' i, closed ns -> marking ns st ns' -> valid ns i -> prot ns st i ->
  exists ns'', mark (S (length ns)) ns' i = Ok ns'' /\ marking ns st ns'' /\ links ns' ns'' /\
    (forall n, mk ns' n -> mk ns'' n) /\ mkc ns'' i.
Proof.
  intros ns st ns' i C [S M] V P.
  assert (W : white ns' < Datatypes.S (length ns)).
  { pose proof (white_len ns'). destruct S as (<- & _). lia. }
  destruct (mark_spec _ ns' i (same_closed _ _ S C) (same_valid _ _ _ S V) W) as (ns'' & E & S2 & K & M2 & B & R).
  exists ns''. split; [auto | ]. split; [ | auto].
  assert (Bc : forall c, mkc ns' c -> mkc ns'' c) by (intros c [G | G]; [left | right]; auto).
  constructor; [eapply same_trans; eauto | ].
  intros n Hn. apply R in Hn. destruct Hn as [Hn | (Ln & Rn & (K1 & K2))].
  - destruct (M n Hn) as (A1 & A2 & (A3 & A4)). split; [auto | ]. split; [auto | ]. split; auto.
  - pose proof S as (_ & Sb). pose proof (body_fields _ _ (Sb n)) as (_ & _ & Fl & Fh).
    split; [exact (same_live _ _ _ (same_sym _ _ S) Ln) | ]. split.
    + destruct P as (r & P1 & P2). exists r. split; auto. eapply reach_trans; [exact P2 | ].
      exact (reach_same _ _ _ _ (same_sym _ _ S) Rn).
    + split; [intros lo G; apply K1; congruence | ]. rewrite Fh in K2. auto.
Qed.

Lemma mark_phase1 : forall ns st, closed ns -> (forall n, n_mark (nd ns n) = false) -> (forall x, In x st -> valid ns x) ->
  exists ns', rfold (mark (S (length ns))) ns (rev st) = Ok ns' /\ marking ns st ns' /\ forall x, In x st -> mkc ns' x.
Proof.
  intros ns st C M0 V.
  destruct (rfold_inv _ _ (mark (S (length ns))) (fun pre ns' => marking ns st ns' /\ forall x, In x pre -> mkc ns' x) (rev st) ns)
    as (ns' & E & H1 & H2).
  - split; [ | intros x []]. constructor; [apply same_refl | ]. intros n Hn. unfold mk in Hn. rewrite M0 in Hn. discriminate.
  - intros pre x ns' (H1 & H2) Hx _. rewrite <- in_rev in Hx.
    destruct (mark_step ns st ns' x C H1 (V x Hx)) as (ns'' & E & G1 & _ & G2 & G3).
    + apply prot_root. left. auto.
    + exists ns''. split; [auto | ]. split; [auto | ]. intros y Hy. apply in_app_or in Hy. destruct Hy as [Hy | [<- | []]]; auto.
      destruct (H2 y Hy); [left | right]; auto.
  - exists ns'. split; [auto | ]. split; [auto | ]. intros x Hx. apply H2. rewrite <- in_rev. auto.
Qed.

Lemma same_hash : forall i h ns, same ns (updn i (w_hash h) ns).
Proof.
  intros i b ns. split; [apply updn_length | ]. intros n. rewrite nd_upd. destruct (_ && _); reflexivity.
Qed.

Lemma mark_phase2 : forall ns st ns1, closed ns -> (forall n, 2 <= n -> n_low (nd ns n) = None -> n_ref (nd ns n) = 0%N) ->
  marking ns st ns1 -> (forall x, In x st -> mkc ns1 x) ->
  exists ns', rfold gbc_root ns1 (seq 0 (length ns)) = Ok ns' /\ marking ns st ns' /\ (forall x, root ns st x -> mkc ns' x) /\
    (forall n, n < length ns -> n_hash (nd ns' n) = 0).
Proof.
  intros ns st ns1 C T M1 V.
  destruct (rfold_inv _ _ gbc_root
    (fun pre ns' => marking ns st ns' /\ (forall x, In x st -> mkc ns' x) /\
       (forall n, In n pre -> n_hash (nd ns' n) = 0 /\ ((0 < n_ref (nd ns n))%N -> mkc ns' n))) (seq 0 (length ns)) ns1)
    as (ns' & E & H1 & H2 & H3).
  - split; [auto | ]. split; [auto | ]. intros n [].
  - intros pre n ns' (H1 & H2 & H3) Hn _. apply in_seq in Hn.
    pose proof (m_same _ _ _ H1) as Sm. pose proof Sm as (Ln & Sb).
    unfold gbc_root. rewrite (getn_ok _ ns' n dead) by lia. cbn [rbind]. fold (nd ns' n).
    pose proof (body_fields _ _ (Sb n)) as (Fr & _). rewrite Fr.
    assert (G : exists ns'', (if (0 <? n_ref (nd ns n))%N then mark (S (length ns')) ns' n else Ok ns') = Ok ns'' /\
       marking ns st ns'' /\ links ns' ns'' /\ (forall m, mk ns' m -> mk ns'' m) /\ ((0 < n_ref (nd ns n))%N -> mkc ns'' n)).
    { destruct (N.ltb_spec 0 (n_ref (nd ns n))) as [Hr | Hr].
      - rewrite Ln. destruct (mark_step ns st ns' n C H1) as (ns'' & E & G1 & G2 & G3 & G4).
        + destruct (le_lt_dec 2 n) as [H2n | H2n]; [right | left; auto]. split; auto. intro G. rewrite (T n H2n G) in Hr. lia.
        + apply prot_root. right. auto.
        + exists ns''. auto.
      - exists ns'. split; [auto | ]. split; [auto | ]. split; [apply links_refl | ]. split; [auto | lia]. }
    destruct G as (ns'' & E & G1 & G2 & G3 & G4). rewrite E. cbn [rbind].
    pose proof (m_same _ _ _ G1) as (Ln2 & Sb2).
    rewrite putn_ok by lia. eexists. split; [reflexivity | ].
    assert (Mk : forall m, mk (updn n (w_hash 0) ns'') m <-> mk ns'' m).
    { intros m. unfold mk. rewrite nd_upd. destruct (_ && _); cbn [w_hash n_mark]; tauto. }
    assert (Bc : forall c, mkc ns'' c -> mkc (updn n (w_hash 0) ns'') c) by (intros c [F | F]; [left; auto | right; apply Mk; auto]).
    split; [ | split].
    + constructor; [eapply same_trans; [apply G1 | apply same_hash] | ].
      intros m Hm. apply Mk in Hm. destruct (m_ok _ _ _ G1 m Hm) as (A1 & A2 & (A3 & A4)). split; [auto | ]. split; [auto | ]. split; auto.
    + intros x Hx. apply Bc. destruct (H2 x Hx); [left | right]; auto.
    + intros m Hm. apply in_app_or in Hm. destruct Hm as [Hm | [<- | []]].
      * destruct (H3 m Hm) as (A1 & A2). split.
        -- rewrite nd_upd. destruct (_ && _); cbn [w_hash n_hash]; auto. destruct (G2 m). congruence.
        -- intros Hr. apply Bc. destruct (A2 Hr); [left | right]; auto.
      * split; [rewrite nd_upd_eq by lia; reflexivity | auto].
  - exists ns'. split; [auto | ]. split; [auto | ]. split.
    + intros x [Hx | Hx]; [auto | ].
      destruct (le_lt_dec (length ns) x) as [G | G].
      * rewrite nd_out in Hx by auto. cbn [dead n_ref] in Hx. lia.
      * apply H3; auto. apply in_seq. lia.
    + intros n Hn. apply H3. apply in_seq. lia.
Qed.

(** The two updates of [link]. *)
Lemma link_ok : forall ns n h, n < length ns -> h < length ns ->
  exists ns', link ns n h = Ok ns' /\ same ns ns' /\ (forall m, n_mark (nd ns' m) = n_mark (nd ns m)) /\
    (forall m, m < length ns -> hs ns' m = setf (hs ns) h n m) /\ (forall m, m < length ns -> nx ns' m = setf (nx ns) n (hs ns h) m).
Proof.
  intros ns n h Hn Hh. unfold link. rewrite (getn_ok _ ns h dead Hh). cbn [rbind]. rewrite putn_ok by auto. cbn [rbind].
  rewrite putn_ok by (rewrite updn_length; auto). eexists. split; [reflexivity | ]. fold (nd ns h). fold (hs ns h).
  apply Nat.ltb_lt in Hn. apply Nat.ltb_lt in Hh.
  assert (E : forall m, nd (updn h (w_hash n) (updn n (w_next (hs ns h)) ns)) m =
    (if m =? h then w_hash n else fun x => x) ((if m =? n then w_next (hs ns h) else fun x => x) (nd ns m))).
  { intros m. rewrite !nd_upd, updn_length, Hn, Hh, !andb_true_r. destruct (m =? h), (m =? n); reflexivity. }
  split; [split; [rewrite !updn_length; auto | ] | ].
  - intros m. rewrite E. destruct (m =? h), (m =? n); reflexivity.
  - split; [ | split].
    + intros m. rewrite E. destruct (m =? h), (m =? n); reflexivity.
    + intros m _. unfold hs at 1. rewrite E. unfold setf. destruct (m =? h), (m =? n); reflexivity.
    + intros m _. unfold nx at 1. rewrite E. unfold setf. destruct (m =? h), (m =? n); reflexivity.
Qed.

(** State of the sweep; [ns0] is the table before it, [pre] the nodes treated so far. *)
Record swept (ns0 : list node) (pre : list nat) (ns : list node) (fp fn : nat) : Prop := mkSwept {
  sw_len : length ns = length ns0;
  sw_rest : forall n, ~ In n pre -> body (nd ns n) = body (nd ns0 n) /\ n_mark (nd ns n) = n_mark (nd ns0 n);
  sw_kept : forall n, In n pre -> mk ns0 n -> body (nd ns n) = body (nd ns0 n) /\ n_mark (nd ns n) = false;
  sw_freed : forall n, In n pre -> ~ mk ns0 n -> n_ref (nd ns n) = n_ref (nd ns0 n) /\ n_low (nd ns n) = None /\ n_mark (nd ns n) = false;
  sw_lk : lk (length ns0) (hs ns) (nx ns) fp fn (fun n => In n pre) (fun n => n_mark (nd ns0 n)) (hof ns0) }.

Lemma in_snoc : forall A (l : list A) x y, In y (l ++ [x]) <-> In y l \/ y = x.
Proof. intros. rewrite in_app_iff. cbn [In]. intuition. Qed.

Lemma sweep_step : forall ns0 pre ns fp fn n, (forall m, mk ns0 m -> live ns0 m) -> swept ns0 pre ns fp fn ->
  2 <= n < length ns0 -> ~ In n pre -> (forall m, In m pre -> m < length ns0) ->
  exists ns' fp' fn', sweep (ns, fp, fn) n = Ok (ns', fp', fn') /\ swept ns0 (pre ++ [n]) ns' fp' fn'.
Proof.
  intros ns0 pre ns fp fn n ML [Ln Rs Kp Fr Lk] Hn Np Pl. unfold sweep.
  rewrite (getn_ok _ ns n dead) by lia. cbn [rbind]. fold (nd ns n).
  destruct (Rs n Np) as (Bn & Mn). pose proof (body_fields _ _ Bn) as (B1 & B2 & B3 & B4).
  assert (Free : n_mark (nd ns0 n) = false ->
    exists ns' fp' fn', rbind (putn ns n (fun x => w_next fp (w_low None x))) (fun ns1 => Ok (ns1, n, S fn)) = Ok (ns', fp', fn') /\
      swept ns0 (pre ++ [n]) ns' fp' fn').
  { intros Mf. rewrite putn_ok by lia. cbn [rbind]. do 3 eexists. split; [reflexivity | ].
    assert (E : forall m, m <> n -> nd (updn n (fun x => w_next fp (w_low None x)) ns) m = nd ns m) by (intros; apply nd_upd_ne; auto).
    assert (En : nd (updn n (fun x => w_next fp (w_low None x)) ns) n = w_next fp (w_low None (nd ns n))) by (apply nd_upd_eq; lia).
    constructor.
    - rewrite updn_length. auto.
    - intros m Hm. rewrite in_snoc in Hm. rewrite E by tauto. apply Rs. tauto.
    - intros m Hm Km. rewrite in_snoc in Hm. destruct (Nat.eq_dec m n) as [-> | Hne]; [unfold mk in Km; congruence | ].
      rewrite E by auto. apply Kp; auto. tauto.
    - intros m Hm Km. rewrite in_snoc in Hm. destruct (Nat.eq_dec m n) as [-> | Hne].
      + rewrite En. cbn [w_next w_low n_ref n_low n_mark]. split; [congruence | split; congruence].
      + rewrite E by auto. apply Fr; auto. tauto.
    - assert (L0 : lk (length ns0) (hs ns) (setf (nx ns) n fp) n (S fn) (fun m => In m pre \/ m = n) (fun n => n_mark (nd ns0 n)) (hof ns0)).
      { apply lk_free; auto. lia. }
      eapply lk_ext; [exact L0 | | | | | ]; auto.
      + intros h Hh. unfold hs. destruct (Nat.eq_dec h n) as [-> | Hne]; [rewrite En | rewrite E by auto]; reflexivity.
      + intros m _. unfold nx, setf. destruct (Nat.eqb_spec m n) as [-> | Hne]; [rewrite En | rewrite E by auto]; reflexivity.
      + intros m. apply in_snoc. }
  rewrite B3, Mn. destruct (n_low (nd ns0 n)) as [lo | ] eqn:El.
  - destruct (n_mark (nd ns0 n)) eqn:Mt; [ | apply Free; auto].
    rewrite putn_ok by lia. cbn [rbind].
    assert (Eh : nodehash (length ns) (n_level (nd ns n)) lo (n_high (nd ns n)) = hof ns0 n).
    { unfold hof. rewrite El, Ln, B2, B4. reflexivity. }
    rewrite Eh. assert (Hh : hof ns0 n < length ns0) by (apply hof_lt; lia).
    destruct (link_ok (updn n (w_mark false) ns) n (hof ns0 n)) as (ns' & E & Sm & Mk & Eh' & En'); try (rewrite updn_length; lia).
    rewrite E. cbn [rbind]. do 3 eexists. split; [reflexivity | ].
    rewrite updn_length in Eh', En'.
    assert (Bd : forall m, body (nd ns' m) = body (nd ns m)).
    { intros m. destruct Sm as (_ & Sm). rewrite Sm. apply same_mark. }
    assert (Mk' : forall m, m <> n -> n_mark (nd ns' m) = n_mark (nd ns m)).
    { intros m Hm. rewrite Mk, nd_upd_ne by auto. reflexivity. }
    assert (Mkn : n_mark (nd ns' n) = false) by (rewrite Mk, nd_upd_eq by lia; reflexivity).
    assert (Hs1 : forall m, hs (updn n (w_mark false) ns) m = hs ns m).
    { intros m. unfold hs. apply (links_mark n false ns m). }
    assert (Nx1 : forall m, nx (updn n (w_mark false) ns) m = nx ns m).
    { intros m. unfold nx. apply (links_mark n false ns m). }
    constructor.
    + destruct Sm as (-> & _). rewrite updn_length. auto.
    + intros m Hm. rewrite in_snoc in Hm. rewrite Bd, Mk' by tauto. apply Rs. tauto.
    + intros m Hm Km. rewrite in_snoc in Hm. rewrite Bd. destruct (Nat.eq_dec m n) as [-> | Hne]; [auto | ].
      rewrite Mk' by auto. apply Kp; auto. tauto.
    + intros m Hm Km. rewrite in_snoc in Hm. destruct (Nat.eq_dec m n) as [-> | Hne]; [unfold mk in Km; congruence | ].
      pose proof (body_fields _ _ (Bd m)) as (F1 & _ & F3 & _). rewrite F1, F3, Mk' by auto. apply Fr; auto. tauto.
    + assert (L0 : lk (length ns0) (setf (hs ns) (hof ns0 n) n) (setf (nx ns) n (hs ns (hof ns0 n))) fp fn
                     (fun m => In m pre \/ m = n) (fun n => n_mark (nd ns0 n)) (hof ns0)).
      { apply lk_link; auto. lia. }
      eapply lk_ext; [exact L0 | | | | | ]; auto.
      * intros h H'. rewrite Eh' by lia. unfold setf. destruct (h =? hof ns0 n); auto.
      * intros m Hm. rewrite En'.
        -- unfold setf. rewrite Hs1, Nx1. reflexivity.
        -- rewrite Ln. destruct Hm as [Hm | ->]; auto. lia.
      * intros m. apply in_snoc.
  - apply Free. destruct (n_mark (nd ns0 n)) eqn:Mt; auto. destruct (ML n Mt) as (_ & G). congruence.
Qed.

Lemma sweep_all : forall ns0, (forall m, mk ns0 m -> live ns0 m) -> (forall n, n < length ns0 -> n_hash (nd ns0 n) = 0) ->
  exists ns fp fn, rfold sweep (ns0, 0, 0) (down (length ns0)) = Ok (ns, fp, fn) /\ swept ns0 (down (length ns0)) ns fp fn.
Proof.
  intros ns0 ML H0.
  destruct (rfold_inv _ _ sweep (fun pre st => swept ns0 pre (fst (fst st)) (snd (fst st)) (snd st)) (down (length ns0)) (ns0, 0, 0))
    as (((ns & fp) & fn) & E & H).
  - cbn [fst snd]. constructor; auto; try (intros n []). apply (lk_ext _ (fun _ => 0) _ (nx ns0) _ 0 0 (fun _ => False) _ (fun n => n_mark (nd ns0 n)) _ (hof ns0)); auto.
    + apply lk_empty. auto.
    + intros n. cbn [In]. tauto.
  - intros pre n ((ns & fp) & fn) H Hn (suf & Es). cbn [fst snd] in *. apply down_in in Hn.
    destruct (sweep_step ns0 pre ns fp fn n ML H Hn) as (ns' & fp' & fn' & E & G).
    + pose proof (down_nodup (length ns0)) as ND. rewrite Es in ND. eapply nodup_mid. eauto.
    + intros m Hm. assert (In m (down (length ns0))) by (rewrite Es; apply in_or_app; auto). apply down_in in H1. lia.
    + exists (ns', fp', fn'). split; auto.
  - cbn [fst snd] in H. exists ns, fp, fn. auto.
Qed.

(** The table after a collection: the protected nodes are kept unchanged, the others are freed. *)
Record collected (ns : list node) (st : list nat) (ns' : list node) : Prop := mkCollected {
  c_len : length ns' = length ns;
  c_ref : forall n, n_ref (nd ns' n) = n_ref (nd ns n);
  c_const : forall n, n < 2 -> body (nd ns' n) = body (nd ns n);
  c_keep : forall n, live ns n -> prot ns st n -> body (nd ns' n) = body (nd ns n);
  c_only : forall n, live ns' n -> live ns n /\ prot ns st n }.

Lemma gbc_table : forall ns fp fn st, tinv ns fp fn -> (forall x, In x st -> valid ns x) ->
  exists ns1 ns2 ns3 fp' fn', rfold (mark (S (length ns))) ns (rev st) = Ok ns1 /\ rfold gbc_root ns1 (seq 0 (length ns)) = Ok ns2 /\
    rfold sweep (ns2, 0, 0) (down (length ns)) = Ok (ns3, fp', fn') /\ tinv ns3 fp' fn' /\ collected ns st ns3.
Proof.
  intros ns fp fn st [T1 T2 T3 T4 T5 T6 T7] V.
  destruct (mark_phase1 ns st T2 T5 V) as (ns1 & E1 & M1 & K1).
  destruct (mark_phase2 ns st ns1 T2 T6 M1 K1) as (ns2 & E2 & M2 & K2 & H2).
  pose proof (m_same _ _ _ M2) as (L2 & S2).
  assert (ML : forall m, mk ns2 m -> live ns2 m).
  { intros m Hm. destruct (m_ok _ _ _ M2 m Hm) as (A & _). exact (same_live _ _ _ (m_same _ _ _ M2) A). }
  destruct (sweep_all ns2 ML) as (ns3 & fp' & fn' & E3 & [W1 W2 W3 W4 W5]); [intros; apply H2; lia | ].
  rewrite L2 in *.
  exists ns1, ns2, ns3, fp', fn'. split; [auto | ]. split; [auto | ]. split; [auto | ].
  (* the marked nodes are the protected ones *)
  assert (MP : forall n, live ns n -> prot ns st n -> mk ns2 n).
  { intros n Hl (r & Rr & Re). revert Hl. assert (G : mkc ns2 n); [ | intros (Hl & _); destruct G as [G | G]; [lia | auto]].
    induction Re as [ | n lo Re IH Hn El | n Re IH Hl].
    - apply K2. auto.
    - destruct IH as [IH | IH]; [lia | ]. destruct (m_ok _ _ _ M2 n IH) as (_ & _ & (A & _)). auto.
    - destruct IH as [IH | IH]; [destruct Hl; lia | ]. destruct (m_ok _ _ _ M2 n IH) as (_ & _ & (_ & A)). auto. }
  assert (In2 : forall n, 2 <= n -> n < length ns -> In n (down (length ns))) by (intros; apply down_in; lia).
  assert (Out : forall n, length ns <= n -> nd ns3 n = nd ns n) by (intros; rewrite !nd_out by lia; reflexivity).
  assert (Cst : forall n, n < 2 -> body (nd ns3 n) = body (nd ns n) /\ n_mark (nd ns3 n) = false).
  { intros n Hn. destruct (W2 n) as (A & B); [rewrite down_in; lia | ]. rewrite A, B, S2. split; auto.
    destruct (n_mark (nd ns2 n)) eqn:Em; auto. destruct (ML n Em). lia. }
  assert (Kept : forall n, mk ns2 n -> body (nd ns3 n) = body (nd ns n) /\ n_mark (nd ns3 n) = false).
  { intros n Hm. destruct (ML n Hm) as (A1 & A2). pose proof (live_lt _ _ (ML n Hm)) as A3. rewrite L2 in A3.
    destruct (W3 n (In2 n A1 A3) Hm) as (B1 & B2). rewrite B1, S2. auto. }
  assert (Freed : forall n, 2 <= n -> n < length ns -> ~ mk ns2 n -> n_ref (nd ns3 n) = n_ref (nd ns n) /\ n_low (nd ns3 n) = None /\ n_mark (nd ns3 n) = false).
  { intros n A1 A2 Hm. destruct (W4 n (In2 n A1 A2) Hm) as (B1 & B2 & B3). split; [ | auto].
    rewrite B1. pose proof (body_fields _ _ (S2 n)). tauto. }
  assert (mkdec : forall n, mk ns2 n \/ ~ mk ns2 n) by (intros n; unfold mk; destruct (n_mark (nd ns2 n)); auto).
  assert (Live3 : forall n, live ns3 n <-> mk ns2 n).
  { intros n. split.
    - intros Hl. pose proof (live_lt _ _ Hl) as Hlt. destruct Hl as (A1 & A2). destruct (mkdec n) as [G | G]; auto.
      destruct (Freed n A1 ltac:(lia) G) as (_ & B & _). congruence.
    - intros Hm. destruct (ML n Hm) as (A1 & A2). split; auto. destruct (Kept n Hm) as (B & _). apply body_fields in B. destruct B as (_ & _ & -> & _).
      pose proof (body_fields _ _ (S2 n)) as (_ & _ & <- & _). auto. }
  assert (V3 : forall c, mkc ns2 c -> valid ns3 c) by (intros c [G | G]; [left; auto | right; apply Live3; auto]).
  assert (Ref : forall n, n_ref (nd ns3 n) = n_ref (nd ns n)).
  { intros n. destruct (le_lt_dec (length ns) n) as [G | G]; [rewrite Out by auto; auto | ].
    destruct (le_lt_dec 2 n) as [H | H].
    - destruct (mkdec n) as [K | K].
      + destruct (Kept n K) as (B & _). apply body_fields in B. tauto.
      + apply Freed; auto.
    - destruct (Cst n H) as (B & _). apply body_fields in B. tauto. }
  assert (Tinv : tinv ns3 fp' fn').
  { constructor.
    - lia.
    - intros n lo Hn El. assert (Hl : live ns3 n) by (split; congruence). apply Live3 in Hl.
      destruct (m_ok _ _ _ M2 n Hl) as (_ & _ & (A1 & A2)). destruct (Kept n Hl) as (B & _).
      apply body_fields in B. destruct B as (_ & _ & B3 & B4). rewrite B4. split; apply V3; auto. apply A1. congruence.
    - rewrite W1. eapply lk_ext; [exact W5 | | | | | ]; auto.
      + intros n. rewrite down_in. tauto.
      + intros n Hn. apply down_in in Hn. unfold liveb. pose proof (Live3 n) as LL.
        destruct (n_low (nd ns3 n)) as [lo | ] eqn:El.
        * symmetry. apply LL. split; [lia | congruence].
        * destruct (n_mark (nd ns2 n)) eqn:Em; auto. exfalso. assert (G : live ns3 n) by (apply LL; auto). destruct G. congruence.
      + intros n Hn Em. destruct (Kept n Em) as (B & _). apply body_fields in B. destruct B as (_ & B2 & B3 & B4).
        pose proof (body_fields _ _ (S2 n)) as (_ & F2 & F3 & F4). unfold hof. rewrite B2, B3, B4, F2, F3, F4, W1, L2. reflexivity.
    - intros n m Ln Lm Ec. apply Live3 in Ln. apply Live3 in Lm.
      destruct (Kept n Ln) as (B & _). destruct (Kept m Lm) as (B' & _).
      apply T4; [apply (m_ok _ _ _ M2 n Ln) | apply (m_ok _ _ _ M2 m Lm) | ].
      rewrite <- (body_core _ _ B), <- (body_core _ _ B'). auto.
    - intros n. destruct (le_lt_dec (length ns) n) as [G | G]; [rewrite Out by auto; rewrite nd_out by auto; auto | ].
      destruct (le_lt_dec 2 n) as [H | H]; [ | apply Cst; auto].
      destruct (mkdec n) as [K | K]; [apply Kept; auto | apply Freed; auto].
    - intros n Hn El. rewrite Ref. destruct (n_low (nd ns n)) as [lo | ] eqn:E0; [ | auto].
      destruct (N.eq_dec (n_ref (nd ns n)) 0) as [G | G]; auto. exfalso.
      assert (Hl : live ns n) by (split; congruence).
      assert (K : mk ns2 n). { apply MP; auto. apply prot_root. right. lia. }
      apply Live3 in K. destruct K. congruence.
    - intros n Hn. destruct (Cst n Hn) as (B & _). apply body_fields in B. destruct B as (-> & _ & -> & ->). auto. }
  split; [auto | ]. constructor; auto.
  - intros n Hn. apply Cst; auto.
  - intros n Hl Hp. apply Kept. auto.
  - intros n Hl. apply Live3 in Hl. destruct (m_ok _ _ _ M2 n Hl) as (A1 & A2 & _). auto.
Qed.

(* ------------------------------------------------------------------------------------------------------------------ *)
(** * Resizing *)

Record rehashed (ns0 : list node) (pre : list nat) (ns : list node) (fp fn : nat) : Prop := mkRehashed {
  rh_len : length ns = length ns0;
  rh_same : forall n, body (nd ns n) = body (nd ns0 n) /\ n_mark (nd ns n) = n_mark (nd ns0 n);
  rh_lk : lk (length ns0) (hs ns) (nx ns) fp fn (fun n => In n pre) (liveb ns0) (hof ns0) }.

Lemma rehash_step : forall ns0 pre ns fp fn n, rehashed ns0 pre ns fp fn ->
  2 <= n < length ns0 -> ~ In n pre -> (forall m, In m pre -> m < length ns0) ->
  exists ns' fp' fn', rehash (ns, fp, fn) n = Ok (ns', fp', fn') /\ rehashed ns0 (pre ++ [n]) ns' fp' fn'.
Proof.
  intros ns0 pre ns fp fn n [Ln Sm Lk] Hn Np Pl. unfold rehash.
  rewrite (getn_ok _ ns n dead) by lia. cbn [rbind]. fold (nd ns n).
  destruct (Sm n) as (Bn & Mn). pose proof (body_fields _ _ Bn) as (B1 & B2 & B3 & B4).
  rewrite B3. destruct (n_low (nd ns0 n)) as [lo | ] eqn:El.
  - assert (Eh : nodehash (length ns) (n_level (nd ns n)) lo (n_high (nd ns n)) = hof ns0 n).
    { unfold hof. rewrite El, Ln, B2, B4. reflexivity. }
    rewrite Eh. assert (Hh : hof ns0 n < length ns0) by (apply hof_lt; lia).
    destruct (link_ok ns n (hof ns0 n)) as (ns' & E & Sm' & Mk & Eh' & En'); try lia.
    rewrite E. cbn [rbind]. do 3 eexists. split; [reflexivity | ]. destruct Sm' as (L' & Sm'). constructor.
    + congruence.
    + intros m. rewrite Sm', Mk. apply Sm.
    + assert (L0 : lk (length ns0) (setf (hs ns) (hof ns0 n) n) (setf (nx ns) n (hs ns (hof ns0 n))) fp fn
                     (fun m => In m pre \/ m = n) (liveb ns0) (hof ns0)).
      { apply lk_link; auto; [lia | ]. apply liveb_true. congruence. }
      eapply lk_ext; [exact L0 | | | | | ]; auto.
      * intros h H'. apply Eh'. lia.
      * intros m Hm. apply En'. rewrite Ln. destruct Hm as [Hm | ->]; auto. lia.
      * intros m. apply in_snoc.
  - rewrite putn_ok by lia. cbn [rbind]. do 3 eexists. split; [reflexivity | ].
    assert (E : forall m, nd (updn n (w_next fp) ns) m = if m =? n then w_next fp (nd ns m) else nd ns m).
    { intros m. rewrite nd_upd. assert (G : n <? length ns = true) by (apply Nat.ltb_lt; lia). rewrite G, andb_true_r. reflexivity. }
    constructor.
    + rewrite updn_length. auto.
    + intros m. rewrite E. destruct (m =? n); apply Sm.
    + assert (L0 : lk (length ns0) (hs ns) (setf (nx ns) n fp) n (S fn) (fun m => In m pre \/ m = n) (liveb ns0) (hof ns0)).
      { apply lk_free; auto; [lia | ]. unfold liveb. rewrite El. auto. }
      eapply lk_ext; [exact L0 | | | | | ]; auto.
      * intros h H'. unfold hs. rewrite E. destruct (h =? n); auto.
      * intros m Hm. unfold nx, setf. rewrite E. destruct (m =? n); auto.
      * intros m. apply in_snoc.
Qed.

Lemma rehash_all : forall ns0, (forall n, n < length ns0 -> n_hash (nd ns0 n) = 0) ->
  exists ns fp fn, rfold rehash (ns0, 0, 0) (down (length ns0)) = Ok (ns, fp, fn) /\ rehashed ns0 (down (length ns0)) ns fp fn.
Proof.
  intros ns0 H0.
  destruct (rfold_inv _ _ rehash (fun pre st => rehashed ns0 pre (fst (fst st)) (snd (fst st)) (snd st)) (down (length ns0)) (ns0, 0, 0))
    as (((ns & fp) & fn) & E & H).
  - cbn [fst snd]. constructor; auto. apply (lk_ext _ (fun _ => 0) _ (nx ns0) _ 0 0 (fun _ => False) _ (liveb ns0) _ (hof ns0)); auto.
    + apply lk_empty. auto.
    + intros n. cbn [In]. tauto.
  - intros pre n ((ns & fp) & fn) H Hn (suf & Es). cbn [fst snd] in *. apply down_in in Hn.
    destruct (rehash_step ns0 pre ns fp fn n H Hn) as (ns' & fp' & fn' & E & G).
    + pose proof (down_nodup (length ns0)) as ND. rewrite Es in ND. eapply nodup_mid. eauto.
    + intros m Hm. assert (In m (down (length ns0))) by (rewrite Es; apply in_or_app; auto). apply down_in in H1. lia.
    + exists (ns', fp', fn'). split; auto.
  - cbn [fst snd] in H. exists ns, fp, fn. auto.
Qed.

Lemma nth_map_seq : forall (f : nat -> node) a c n, n < c -> nth n (map f (seq a c)) dead = f (a + n).
Proof.
  intros f a c n H. rewrite (nth_indep _ dead (f 0)) by (rewrite map_length, seq_length; auto).
  rewrite map_nth, seq_nth by auto. reflexivity.
Qed.

Lemma resize_table : forall ns fp fn new, tinv ns fp fn -> length ns < new ->
  exists ns1 ns2 fp' fn', putn (map (w_hash 0) ns ++ map fresh_node (seq (length ns) (new - length ns))) (new - 1) (w_next fp) = Ok ns1 /\
    rfold rehash (ns1, 0, 0) (down new) = Ok (ns2, fp', fn') /\ tinv ns2 fp' fn' /\ length ns2 = new /\
    (forall n, body (nd ns2 n) = body (nd ns n)) /\ fp' <> 0.
Proof.
  intros ns fp fn new [T1 T2 T3 T4 T5 T6 T7] Hn.
  set (base := map (w_hash 0) ns ++ map fresh_node (seq (length ns) (new - length ns))).
  assert (Lb : length base = new) by (unfold base; rewrite app_length, !map_length, seq_length; lia).
  rewrite putn_ok by lia. set (ns1 := updn (new - 1) (w_next fp) base).
  assert (L1 : length ns1 = new) by (unfold ns1; rewrite updn_length; auto).
  assert (Bb : forall n, body (nd base n) = body (nd ns n) /\ n_mark (nd base n) = false /\ (n < new -> n_hash (nd base n) = 0)).
  { intros n. unfold nd, base. destruct (le_lt_dec (length ns) n) as [G | G].
    - rewrite app_nth2 by (rewrite map_length; auto). rewrite map_length. rewrite (nth_overflow ns) by auto.
      destruct (le_lt_dec (new - length ns) (n - length ns)) as [G' | G'].
      + rewrite nth_overflow by (rewrite map_length, seq_length; auto). split; [auto | ]. split; auto.
      + rewrite nth_map_seq by auto. split; [auto | ]. split; auto.
    - rewrite app_nth1 by (rewrite map_length; auto).
      rewrite (nth_indep _ dead (w_hash 0 dead)) by (rewrite map_length; auto). rewrite map_nth.
      split; [reflexivity | ]. split; [ | auto]. cbn [w_hash n_mark]. apply T5. }
  assert (B1 : forall n, body (nd ns1 n) = body (nd ns n) /\ n_mark (nd ns1 n) = false /\ (n < new -> n_hash (nd ns1 n) = 0)).
  { intros n. unfold ns1. rewrite nd_upd. destruct (_ && _); [ | apply Bb].
    destruct (Bb n) as (A1 & A2 & A3). split; [ | split; auto]. rewrite <- A1. reflexivity. }
  destruct (rehash_all ns1) as (ns2 & fp' & fn' & E2 & [R1 R2 R3]); [intros n Hn'; apply B1; lia | ].
  rewrite L1 in *. exists ns1, ns2, fp', fn'. split; [reflexivity | ]. split; [auto | ].
  assert (B2 : forall n, body (nd ns2 n) = body (nd ns n)) by (intros n; destruct (R2 n) as (-> & _); apply B1).
  assert (Lv : forall n, live ns2 n <-> live ns n).
  { intros n. unfold live. pose proof (body_fields _ _ (B2 n)) as (_ & _ & -> & _). tauto. }
  assert (Vd : forall n, valid ns n -> valid ns2 n) by (intros n [G | G]; [left; auto | right; apply Lv; auto]).
  assert (Tinv : tinv ns2 fp' fn').
  { constructor.
    - lia.
    - intros n lo Hn' El. pose proof (body_fields _ _ (B2 n)) as (_ & _ & F3 & F4). rewrite F3 in El. rewrite F4.
      destruct (T2 n lo Hn' El). auto.
    - rewrite R1. eapply lk_ext; [exact R3 | | | | | ]; auto.
      + intros n. rewrite down_in. tauto.
      + intros n _. unfold liveb. destruct (R2 n) as (B & _). apply body_fields in B. destruct B as (_ & _ & -> & _). auto.
      + intros n _ _. unfold hof. destruct (R2 n) as (B & _). apply body_fields in B. destruct B as (_ & -> & -> & ->). rewrite R1, L1. auto.
    - intros n m A1 A2 Ec. apply Lv in A1. apply Lv in A2. apply T4; auto.
      rewrite <- (body_core _ _ (B2 n)), <- (body_core _ _ (B2 m)). auto.
    - intros n. destruct (R2 n) as (_ & ->). apply B1.
    - intros n A1 A2. pose proof (body_fields _ _ (B2 n)) as (-> & _ & F3 & _). rewrite F3 in A2. auto.
    - intros n A1. pose proof (body_fields _ _ (B2 n)) as (-> & _ & -> & ->). auto. }
  split; [auto | ]. split; [auto | ]. split; [auto | ].
  intros ->. destruct R3 as [_ (F & C1 & _ & _ & C4)]. destruct F as [ | x F]; [ | cbn [chain] in C1; destruct C1 as (G1 & G2 & _); congruence].
  destruct (C4 (length ns)) as (_ & C). destruct C.
  split; [apply down_in; lia | ]. unfold liveb. destruct (B1 (length ns)) as (B & _). apply body_fields in B. destruct B as (_ & _ & -> & _).
  rewrite nd_out by auto. reflexivity.
Qed.
