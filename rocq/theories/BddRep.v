(** What a node stands for, the invariant of the kernel, and [make_node] on the level of decision trees. *)
From Coq Require Import NArith ZArith Arith List Bool Lia.
From Verif Require Import Base Syntax BddSpec BddModel BddLink BddTable BddMake.
Import ListNotations.
Local Open Scope res_scope.

(** The decision tree a node stands for. *)
Inductive rep (ns : list node) : nat -> bdt -> Prop :=
| rep_f : rep ns 0 BF
| rep_t : rep ns 1 BT
| rep_n : forall n lo a b, 2 <= n -> n_low (nd ns n) = Some lo -> rep ns lo a -> rep ns (n_high (nd ns n)) b ->
    rep ns n (BN (n_level (nd ns n)) a b).

Definition wr (k : kernel) (n : nat) (t : bdt) : Prop := rep (k_nodes k) n t /\ wft (k_varnum k) t.

Lemma rep_det : forall ns n t, rep ns n t -> forall t', rep ns n t' -> t = t'.
Proof.
  intros ns n t H. induction H as [ | | n lo a b H2 El Ha IHa Hb IHb]; intros t' H'; inversion H'; subst; auto; try lia.
  rewrite El in H0. injection H0 as ->. f_equal; auto.
Qed.

Lemma rep_valid : forall ns n t, rep ns n t -> valid ns n.
Proof. intros ns n t H. destruct H; [left; lia | left; lia | right]. split; [auto | congruence]. Qed.

Lemma rep_bf : forall ns n, rep ns n BF -> n = 0.
Proof. intros ns n H. inversion H. auto. Qed.
Lemma rep_bt : forall ns n, rep ns n BT -> n = 1.
Proof. intros ns n H. inversion H. auto. Qed.
Lemma rep_0 : forall ns t, rep ns 0 t -> t = BF.
Proof. intros ns t H. inversion H; auto. lia. Qed.
Lemma rep_1 : forall ns t, rep ns 1 t -> t = BT.
Proof. intros ns t H. inversion H; auto. lia. Qed.
Lemma rep_bn : forall ns n l a b, rep ns n (BN l a b) ->
  2 <= n /\ l = n_level (nd ns n) /\ (exists lo, n_low (nd ns n) = Some lo /\ rep ns lo a) /\ rep ns (n_high (nd ns n)) b.
Proof. intros ns n l a b H. inversion H; subst. split; [auto | ]. split; [auto | ]. split; eauto. Qed.
Lemma rep_2 : forall ns n t, rep ns n t -> 2 <= n -> exists l a b, t = BN l a b.
Proof. intros ns n t H H2. destruct H; try lia. eauto. Qed.

Lemma rep_inj : forall ns, (forall n m, live ns n -> live ns m -> core (nd ns n) = core (nd ns m) -> n = m) ->
  forall t n m, rep ns n t -> rep ns m t -> n = m.
Proof.
  intros ns U t. induction t as [ | | l a IHa b IHb]; intros n m H1 H2.
  - apply rep_bf in H1. apply rep_bf in H2. congruence.
  - apply rep_bt in H1. apply rep_bt in H2. congruence.
  - apply rep_bn in H1. apply rep_bn in H2. destruct H1 as (A1 & A2 & (lo & A3 & A4) & A5). destruct H2 as (B1 & B2 & (lo' & B3 & B4) & B5).
    apply U; [split; [auto | congruence] | split; [auto | congruence] | ].
    unfold core. rewrite <- A2, <- B2, A3, B3. rewrite (IHa _ _ A4 B4), (IHb _ _ A5 B5). auto.
Qed.

Lemma rep_core : forall ns ns' n t, rep ns n t ->
  (forall m, reach ns n m -> live ns m -> core (nd ns' m) = core (nd ns m)) -> rep ns' n t.
Proof.
  intros ns ns' n t H. induction H as [ | | n lo a b H2 El Ha IHa Hb IHb]; intros C; try constructor.
  assert (Ln : live ns n) by (split; [auto | congruence]).
  pose proof (C n (reach_refl ns n) Ln) as E. apply core_fields in E. destruct E as (E1 & E2 & E3). rewrite <- E1.
  apply (rep_n ns' n lo); [auto | congruence | | ].
  - apply IHa. intros m Hm. apply C. eapply reach_trans; [ | exact Hm]. apply (reach_lo ns n n lo (reach_refl ns n) H2 El).
  - rewrite E3. apply IHb. intros m Hm. apply C. eapply reach_trans; [ | exact Hm]. apply (reach_hi ns n n (reach_refl ns n) Ln).
Qed.

Lemma rep_all : forall ns ns' n t, rep ns n t -> (forall m, live ns m -> core (nd ns' m) = core (nd ns m)) -> rep ns' n t.
Proof. intros. eapply rep_core; eauto. Qed.

Lemma rep_prot : forall ns ns' st n t, rep ns n t -> prot ns st n ->
  (forall m, live ns m -> prot ns st m -> core (nd ns' m) = core (nd ns m)) -> rep ns' n t.
Proof.
  intros ns ns' st n t H (r & R1 & R2) C. eapply rep_core; eauto. intros m Hm Lm. apply C; auto. exists r. split; auto.
  eapply reach_trans; eauto.
Qed.

(** Trees that do not depend on the first [m] variables start at [m] or later. *)
Lemma top_sem : forall n m t, wft n t -> m <= n ->
  (forall w w', (forall i, m <= i -> w i = w' i) -> teval t w = teval t w') -> m <= top n t.
Proof.
  intros n m t W Hm H. destruct t as [ | | l a b]; cbn [top]; auto. cbn [wft] in W. destruct W as (Hl & Ta & Tb & Hne & Wa & Wb).
  destruct (le_lt_dec m l) as [G | G]; auto. exfalso. apply Hne. apply (canon n); auto. intros w.
  assert (G1 : forall i, m <= i -> upw w l false i = upw w l true i).
  { intros i Hi. unfold upw. destruct (Nat.eqb_spec i l); [lia | auto]. }
  specialize (H _ _ G1). cbn [teval] in H. rewrite !upw_same in H.
  rewrite (teval_upw_below n a w l false Wa Ta), (teval_upw_below n b w l true Wb Tb) in H. auto.
Qed.

(* ------------------------------------------------------------------------------------------------------------------ *)
(** * Frame with an explicit stack *)

Record fr (st : list nat) (k k' : kernel) : Prop := mkFr {
  r_names : k_names k' = k_names k; r_vars : k_vars k' = k_vars k; r_varnum : k_varnum k' = k_varnum k;
  r_cap : k_cap k' = k_cap k; r_qset : k_qset k' = k_qset k; r_qid : k_qid k' = k_qid k; r_qlast : k_qlast k' = k_qlast k;
  r_prime : k_prime k' = k_prime k;
  r_ref : forall n, n_ref (nd (k_nodes k') n) = n_ref (nd (k_nodes k) n);
  r_const : forall n, n < 2 -> body (nd (k_nodes k') n) = body (nd (k_nodes k) n);
  r_prot : forall n, live (k_nodes k) n -> prot (k_nodes k) st n -> core (nd (k_nodes k') n) = core (nd (k_nodes k) n) }.

Lemma fr_of_frame : forall k k', frame k k' -> fr (k_stack k) k k'.
Proof. intros k k' [ ]. constructor; auto. Qed.
Lemma fr_refl : forall st k, fr st k k.
Proof. intros. constructor; auto. Qed.

Lemma prot_incl : forall ns st st' n, (forall x, In x st -> In x st') -> prot ns st n -> prot ns st' n.
Proof. intros ns st st' n H (r & [G | G] & R); exists r; split; auto; [left; auto | right; auto]. Qed.

Lemma prot_fr : forall st k k' n, fr st k k' -> prot (k_nodes k) st n -> prot (k_nodes k') st n.
Proof.
  intros st k k' n F (r & R & H). induction H as [ | n lo H IH H2 El | n H IH L].
  - exists r. split; [ | constructor]. destruct R as [R | R]; [left; auto | right]. rewrite (r_ref _ _ _ F). auto.
  - assert (Ln : live (k_nodes k) n) by (split; [auto | congruence]).
    assert (P : prot (k_nodes k) st n) by (exists r; auto).
    pose proof (r_prot _ _ _ F n Ln P) as E. apply core_fields in E. destruct E as (_ & E & _).
    apply (prot_lo _ _ n lo IH H2). congruence.
  - assert (P : prot (k_nodes k) st n) by (exists r; auto).
    pose proof (r_prot _ _ _ F n L P) as E. apply core_fields in E. destruct E as (_ & E & E').
    rewrite <- E'. apply prot_hi; auto. destruct L. split; [auto | congruence].
Qed.

Lemma live_fr : forall st k k' n, fr st k k' -> live (k_nodes k) n -> prot (k_nodes k) st n -> live (k_nodes k') n.
Proof.
  intros st k k' n F L P. pose proof (r_prot _ _ _ F n L P) as E. apply core_fields in E. destruct E as (_ & E & _).
  destruct L. split; [auto | congruence].
Qed.
Lemma valid_fr : forall st k k' n, fr st k k' -> valid (k_nodes k) n -> prot (k_nodes k) st n -> valid (k_nodes k') n.
Proof. intros st k k' n F [V | V] P; [left; auto | right; eapply live_fr; eauto]. Qed.

Lemma fr_trans : forall st k k1 k2, fr st k k1 -> fr st k1 k2 -> fr st k k2.
Proof.
  intros st k k1 k2 F G. pose proof F as [ ]. pose proof G as [ ]. constructor; [congruence | congruence | congruence | congruence | congruence | congruence | congruence | congruence | | | ].
  - intros n. rewrite r_ref1. auto.
  - intros n Hn. rewrite r_const1 by auto. auto.
  - intros n L P. rewrite r_prot1; [auto | eapply live_fr; eauto | eapply prot_fr; eauto].
Qed.
Lemma fr_weak : forall st st' k k', (forall x, In x st -> In x st') -> fr st' k k' -> fr st k k'.
Proof. intros st st' k k' H [ ]. constructor; auto. intros n L P. apply r_prot0; auto. eapply prot_incl; eauto. Qed.
Lemma fr_stack : forall st s k, fr st k (s_stack s k).
Proof. intros. constructor; auto. Qed.
Lemma fr_apply : forall st c k, fr st k (s_apply c k).
Proof. intros. constructor; auto. Qed.
Lemma fr_quant : forall st c k, fr st k (s_quant c k).
Proof. intros. constructor; auto. Qed.
Lemma fr_misc : forall st c k, fr st k (s_misc c k).
Proof. intros. constructor; auto. Qed.

Lemma wr_fr : forall st k k' n t, fr st k k' -> prot (k_nodes k) st n -> wr k n t -> wr k' n t.
Proof.
  intros st k k' n t F P (R & W). split; [ | rewrite (r_varnum _ _ _ F); auto].
  eapply rep_prot; eauto. apply (r_prot _ _ _ F).
Qed.

(* ------------------------------------------------------------------------------------------------------------------ *)
(** * The caches *)

Definition bsem (o : bop) (x y : bool) : bool :=
  match o with OpAnd => x && y | OpOr => x || y | OpImp => implb x y | OpEquiv => Bool.eqb x y end.

(** The variables of a cube of positive literals: those on the path of the true branches. *)
Fixpoint hpath (t : bdt) : list nat := match t with BN l _ b => l :: hpath b | _ => [] end.
(** The literals of a cube. *)
Fixpoint cpath (t : bdt) : list (nat * bool) :=
  match t with
  | BN l BF b => (l, true) :: cpath b
  | BN l a _ => (l, false) :: cpath a
  | _ => []
  end.
Definition ovr (w : nat -> bool) (L : list (nat * bool)) (i : nat) : bool :=
  match find (fun p => fst p =? i) L with Some p => snd p | None => w i end.
Definition agree (S : list nat) (w w' : nat -> bool) : Prop := forall i, ~ In i S -> w' i = w i.

Definition is_exists (t tr : bdt) (S : list nat) : Prop :=
  forall w, teval t w = true <-> exists w', agree S w w' /\ teval tr w' = true.
Definition is_forall (t tr : bdt) (S : list nat) : Prop :=
  forall w, teval t w = true <-> forall w', agree S w w' -> teval tr w' = true.
Definition is_quant (o : bop) (t tr : bdt) (S : list nat) : Prop :=
  match o with OpOr => is_exists t tr S | OpAnd => is_forall t tr S | _ => False end.
Definition is_restrict (t tr : bdt) (L : list (nat * bool)) : Prop := forall w, teval t w = teval tr (ovr w L).

(** Number of satisfying assignments of the variables from the top of the tree on. *)
Fixpoint tcount (n : nat) (t : bdt) : N :=
  match t with
  | BF => 0
  | BT => 1
  | BN l a b => 2 ^ N.of_nat (top n a - l - 1) * tcount n a + 2 ^ N.of_nat (top n b - l - 1) * tcount n b
  end%N.
Fixpoint tpaths (ct cf : N) (t : bdt) : N :=
  match t with BF => cf | BT => ct | BN _ a b => tpaths ct cf a + tpaths ct cf b end%N.

Section Caches.
  Variable R : nat -> bdt -> Prop.
  Variable vn : nat.

  Definition apply_ok (e : centry) : Prop := forall l, e_a e = Some l ->
    (forall o, e_c e = op_code o -> exists tl tr t, R l tl /\ R (e_b e) tr /\ R (e_res e) t /\
       forall w, teval t w = bsem o (teval tl w) (teval tr w)) /\
    (e_c e = OPCODE_NOT -> exists tr t, R l tr /\ R (e_res e) t /\ forall w, teval t w = negb (teval tr w)).

  Definition quant_ok (e : centry) : Prop := forall r, e_a e = Some r ->
    forall var o, 2 <= var -> e_c e = match o with OpOr => 8 * var | _ => 8 * var + 1 end -> (o = OpOr \/ o = OpAnd) ->
    exists tr tv t, R r tr /\ R var tv /\ R (e_res e) t /\ is_quant o t tr (hpath tv).

  Definition misc_ok (e : centry) : Prop := forall r, e_a e = Some r ->
    (forall var, 2 <= var -> e_c e = 8 * var + 1 ->
       exists tr tv t, R r tr /\ R var tv /\ R (e_res e) t /\ is_restrict t tr (cpath tv)) /\
    (e_c e = CACHEID_SATCOU -> exists tr, R r tr /\ e_bdres e = tcount vn tr) /\
    (e_c e = CACHEID_PATHCOU_ONE -> exists tr, R r tr /\ e_bdres e = tpaths 1 0 tr) /\
    (e_c e = CACHEID_PATHCOU_ZERO -> exists tr, R r tr /\ e_bdres e = tpaths 0 1 tr).
End Caches.

Definition caches_ok (k : kernel) : Prop :=
  Forall (apply_ok (wr k)) (k_apply k) /\ Forall (quant_ok (wr k)) (k_quant k) /\ Forall (misc_ok (wr k) (k_varnum k)) (k_misc k).

Lemma apply_ok_mono : forall (R R' : nat -> bdt -> Prop) e, (forall n t, R n t -> R' n t) -> apply_ok R e -> apply_ok R' e.
Proof.
  intros R R' e H A l E. destruct (A l E) as (A1 & A2). split.
  - intros o Ho. destruct (A1 o Ho) as (tl & tr & t & B1 & B2 & B3 & B4). exists tl, tr, t. auto.
  - intros Ho. destruct (A2 Ho) as (tr & t & B1 & B2 & B3). exists tr, t. auto.
Qed.
Lemma quant_ok_mono : forall (R R' : nat -> bdt -> Prop) e, (forall n t, R n t -> R' n t) -> quant_ok R e -> quant_ok R' e.
Proof.
  intros R R' e H A r E var o H2 Ec Ho. destruct (A r E var o H2 Ec Ho) as (tr & tv & t & B1 & B2 & B3 & B4).
  exists tr, tv, t. auto.
Qed.
Lemma misc_ok_mono : forall (R R' : nat -> bdt -> Prop) vn e, (forall n t, R n t -> R' n t) -> misc_ok R vn e -> misc_ok R' vn e.
Proof.
  intros R R' vn e H A r E. destruct (A r E) as (A1 & A2 & A3 & A4). split; [ | split; [ | split]].
  - intros var H2 Ec. destruct (A1 var H2 Ec) as (tr & tv & t & B1 & B2 & B3 & B4). exists tr, tv, t. auto.
  - intros Ec. destruct (A2 Ec) as (tr & B1 & B2). exists tr. auto.
  - intros Ec. destruct (A3 Ec) as (tr & B1 & B2). exists tr. auto.
  - intros Ec. destruct (A4 Ec) as (tr & B1 & B2). exists tr. auto.
Qed.
Lemma creset_ok : forall (P : centry -> Prop) c, (forall e, e_a e = None -> P e) -> Forall P (creset c).
Proof. intros P c H. unfold creset. induction c as [ | e c IH]; cbn [map]; constructor; auto. Qed.
Lemma forall_updn : forall A (P : A -> Prop) f n l, Forall P l -> (forall e, P (f e)) -> Forall P (updn n f l).
Proof. intros A P f n l H F. revert n. induction H; intros [ | n]; cbn [updn]; constructor; auto. Qed.

Lemma caches_mono : forall k k', k_varnum k' = k_varnum k -> (forall n t, wr k n t -> wr k' n t) ->
  k_apply k' = k_apply k -> k_quant k' = k_quant k -> k_misc k' = k_misc k -> caches_ok k -> caches_ok k'.
Proof.
  intros k k' V H E1 E2 E3 (A & B & C). unfold caches_ok. rewrite E1, E2, E3, V. split; [ | split].
  - exact (Forall_impl _ (fun e => apply_ok_mono _ _ e H) A).
  - exact (Forall_impl _ (fun e => quant_ok_mono _ _ e H) B).
  - exact (Forall_impl _ (fun e => misc_ok_mono _ _ _ e H) C).
Qed.

Lemma caches_reset : forall k k', k_apply k' = creset (k_apply k) -> k_quant k' = creset (k_quant k) -> k_misc k' = creset (k_misc k) ->
  caches_ok k'.
Proof.
  intros k k' E1 E2 E3. unfold caches_ok. rewrite E1, E2, E3.
  split; [ | split]; apply creset_ok; intros e E r Er; congruence.
Qed.

(* ------------------------------------------------------------------------------------------------------------------ *)
(** * The kernel invariant *)

(** Node [n] is the literal of variable number [i] with the given phase, and is never freed. *)
Definition litnode (k : kernel) (i : nat) (ph : bool) (n : nat) : Prop :=
  2 <= n /\ core (nd (k_nodes k) n) = (i, Some (if ph then 0 else 1), if ph then 1 else 0) /\ n_ref (nd (k_nodes k) n) = MAXREF.

Record kinv (k : kernel) : Prop := mkKinv {
  i_tk : tk k;
  i_prime : prime_ok (k_prime k);
  i_const : n_level (nd (k_nodes k) 0) = k_varnum k /\ n_level (nd (k_nodes k) 1) = k_varnum k;
  i_vars : length (k_vars k) = 2 * k_varnum k /\
    forall i, i < k_varnum k -> litnode k i true (nth (2 * i) (k_vars k) 0) /\ litnode k i false (nth (2 * i + 1) (k_vars k) 0);
  i_names : NoDup (k_names k) /\ length (k_names k) <= k_varnum k;
  i_cap : k_cap k = 2 * k_varnum k + 4;
  i_qset : length (k_qset k) = k_varnum k;
  i_clen : 0 < length (k_apply k) /\ 0 < length (k_quant k) /\ 0 < length (k_misc k);
  i_caches : caches_ok k }.

(** The elements of the reference stack are nodes. *)
Definition stv (k : kernel) : Prop := forall x, In x (k_stack k) -> valid (k_nodes k) x.

Lemma litnode_live : forall k i ph n, litnode k i ph n -> live (k_nodes k) n /\ forall st, prot (k_nodes k) st n.
Proof.
  intros k i ph n (H2 & C & R). unfold core in C. injection C as _ Cl _. split.
  - split; [auto | congruence].
  - intros st. apply prot_root. right. rewrite R. reflexivity.
Qed.

Lemma litnode_wr : forall k i ph n, i < k_varnum k -> litnode k i ph n -> wr k n (BN i (if ph then BF else BT) (if ph then BT else BF)).
Proof.
  intros k i ph n Hi (H2 & C & _). unfold core in C. injection C as C1 C2 C3. split.
  - rewrite <- C1. apply (rep_n _ n (if ph then 0 else 1)); auto; [ | rewrite C3]; destruct ph; constructor.
  - destruct ph; cbn [wft top]; repeat split; auto; discriminate.
Qed.

Lemma litnode_fr : forall st k k' i ph n, fr st k k' -> litnode k i ph n -> litnode k' i ph n.
Proof.
  intros st k k' i ph n F L. destruct (litnode_live _ _ _ _ L) as (L1 & L2). destruct L as (H2 & C & R).
  split; [auto | ]. split; [ | rewrite (r_ref _ _ _ F); auto]. rewrite (r_prot _ _ _ F n L1 (L2 st)). auto.
Qed.

(** Everything but the table and the caches is given by the frame. *)
Lemma kinv_fr : forall st k k', kinv k -> fr st k k' -> tk k' ->
  (0 < length (k_apply k') /\ 0 < length (k_quant k') /\ 0 < length (k_misc k')) -> caches_ok k' -> kinv k'.
Proof.
  intros st k k' [ ] F T C1 C2. pose proof F as [ ]. constructor; auto.
  - rewrite r_prime0. auto.
  - rewrite r_varnum0. destruct i_const0.
    pose proof (body_fields _ _ (r_const0 0 ltac:(lia))) as (_ & -> & _). pose proof (body_fields _ _ (r_const0 1 ltac:(lia))) as (_ & -> & _). auto.
  - rewrite r_vars0, r_varnum0. destruct i_vars0 as (V1 & V2). split; auto. intros i Hi. destruct (V2 i Hi).
    split; eapply litnode_fr; eauto.
  - rewrite r_names0, r_varnum0. auto.
  - rewrite r_cap0, r_varnum0. auto.
  - rewrite r_qset0, r_varnum0. auto.
Qed.

Lemma kinv_stack : forall k s, kinv k -> kinv (s_stack s k).
Proof. intros k s [ ]. constructor; auto. Qed.

Lemma stv_prot : forall k x, In x (k_stack k) -> prot (k_nodes k) (k_stack k) x.
Proof. intros. apply prot_root. left. auto. Qed.

Lemma stv_fr : forall k k', stv k -> fr (k_stack k) k k' -> k_stack k' = k_stack k -> stv k'.
Proof.
  intros k k' V F E x Hx. rewrite E in Hx. eapply valid_fr; eauto. apply stv_prot. auto.
Qed.

Lemma prot_const : forall k st n, tk k -> n < 2 -> prot (k_nodes k) st n.
Proof. intros k st n T H. apply prot_root. right. destruct (t_const _ _ _ T n H) as (_ & _ & G). auto. Qed.

Lemma wr_valid : forall k n t, wr k n t -> valid (k_nodes k) n.
Proof. intros k n t (R & _). eapply rep_valid; eauto. Qed.

Lemma wr_det : forall k n t t', wr k n t -> wr k n t' -> t = t'.
Proof. intros k n t t' (R & _) (R' & _). eapply rep_det; eauto. Qed.
Lemma wr_inj : forall k n m t, tk k -> wr k n t -> wr k m t -> n = m.
Proof. intros k n m t T (R & _) (R' & _). eapply rep_inj; eauto. apply T. Qed.

(** Outcome of an operation: the new kernel satisfies the invariant, the stack is the same, protected nodes are unchanged. *)
Record good (k k' : kernel) : Prop := mkGood {
  g_inv : kinv k'; g_stack : k_stack k' = k_stack k; g_fr : fr (k_stack k) k k'; g_stv : stv k' }.

Lemma good_refl : forall k, kinv k -> stv k -> good k k.
Proof. intros. constructor; auto. apply fr_refl. Qed.
Lemma good_trans : forall k k1 k2, good k k1 -> good k1 k2 -> good k k2.
Proof.
  intros k k1 k2 [ ] [ ]. constructor; auto; [congruence | ]. eapply fr_trans; eauto. rewrite g_stack0 in *. auto.
Qed.
Lemma good_wr : forall k k' n t, good k k' -> prot (k_nodes k) (k_stack k) n -> wr k n t -> wr k' n t.
Proof. intros k k' n t [ ] P W. eapply wr_fr; eauto. Qed.
Lemma good_prot : forall k k' n, good k k' -> prot (k_nodes k) (k_stack k) n -> prot (k_nodes k') (k_stack k') n.
Proof. intros k k' n [ ] P. rewrite g_stack0. eapply prot_fr; eauto. Qed.
Lemma good_varnum : forall k k', good k k' -> k_varnum k' = k_varnum k.
Proof. intros k k' [ ]. apply g_fr0. Qed.

Theorem make_spec : forall k lvl lo hi a b, kinv k -> stv k -> wr k lo a -> wr k hi b ->
  prot (k_nodes k) (k_stack k) lo -> prot (k_nodes k) (k_stack k) hi ->
  lvl < k_varnum k -> lvl < top (k_varnum k) a -> lvl < top (k_varnum k) b ->
  exists k' r, make_node k lvl lo hi = Ok (k', r) /\ good k k' /\ wr k' r (bn lvl a b).
Proof.
  intros k lvl lo hi a b K V Wa Wb Pa Pb Hl Ha Hb.
  destruct (make_node_spec k lvl lo hi) as (k' & r & E & T & F & C & _ & _ & R1 & R2); auto; try apply K; try (eapply wr_valid; eauto).
  exists k', r. split; [auto | ].
  pose proof (fr_of_frame _ _ F) as Fr.
  assert (Ck : caches_ok k' /\ 0 < length (k_apply k') /\ 0 < length (k_quant k') /\ 0 < length (k_misc k')).
  { destruct C as [(C1 & C2 & C3 & C4) | (C1 & C2 & C3)].
    - split.
      + apply (caches_mono k); auto; [apply Fr | | apply K]. intros n t (Rn & Wn). split; [ | rewrite (r_varnum _ _ _ Fr); auto].
        eapply rep_all; eauto.
      + rewrite C1, C2, C3. apply K.
    - split; [eapply caches_reset; eauto | ]. rewrite C1, C2, C3. unfold creset. rewrite !map_length. apply K. }
  assert (G : good k k').
  { constructor.
    - eapply kinv_fr; eauto; apply Ck.
    - apply F.
    - auto.
    - eapply stv_fr; eauto. apply F. }
  split; [auto | ].
  pose proof (good_wr _ _ _ _ G Pa Wa) as Wa'. pose proof (good_wr _ _ _ _ G Pb Wb) as Wb'.
  destruct (Nat.eq_dec lo hi) as [Eq | Ne].
  - rewrite (R1 Eq). subst hi. rewrite (wr_det _ _ _ _ Wb Wa). unfold bn. destruct (bdt_eq_dec a a); [auto | congruence].
  - destruct (R2 Ne) as (L & Co). unfold bn. destruct (bdt_eq_dec a b) as [Eab | Nab].
    + exfalso. apply Ne. subst b. exact (wr_inj k _ _ _ (i_tk k K) Wa Wb).
    + unfold core in Co. injection Co as Co1 Co2 Co3. split.
      * rewrite <- Co1. apply (rep_n _ r lo); [apply L | auto | apply Wa' | rewrite Co3; apply Wb'].
      * rewrite (r_varnum _ _ _ Fr). cbn [wft]. destruct Wa as (_ & Wa). destruct Wb as (_ & Wb). auto 10.
Qed.
