(** The recursive operations of the kernel: [apply_rec], [not_rec], [restrict_rec] and [quant_rec] compute the right trees. *)
From Coq Require Import NArith ZArith Arith List Bool Lia.
From Verif Require Import Base Syntax BddSpec BddModel BddLink BddTable BddMake BddRep.
Import ListNotations.
Local Open Scope res_scope.

(** A kernel in the middle of an operation started at [k]: more elements on the stack. *)
Record sub (k k' : kernel) : Prop := mkSub {
  u_inv : kinv k'; u_stv : stv k'; u_fr : fr (k_stack k) k k'; u_stack : exists p, k_stack k' = p ++ k_stack k }.

Lemma sub_refl : forall k, kinv k -> stv k -> sub k k.
Proof. intros. constructor; auto; [apply fr_refl | exists []; auto]. Qed.
Lemma good_sub : forall k k', good k k' -> sub k k'.
Proof. intros k k' [ ]. constructor; auto. exists []. auto. Qed.
Lemma sub_good : forall k k1 k2, sub k k1 -> good k1 k2 -> sub k k2.
Proof.
  intros k k1 k2 [A1 A2 A3 (p & A4)] [B1 B2 B3 B4]. constructor; auto.
  - eapply fr_trans; eauto. eapply fr_weak; [ | exact B3]. intros x Hx. rewrite A4. apply in_or_app. auto.
  - exists p. congruence.
Qed.
Lemma sub_wr : forall k k' n t, sub k k' -> prot (k_nodes k) (k_stack k) n -> wr k n t -> wr k' n t.
Proof. intros k k' n t [ ] P W. eapply wr_fr; eauto. Qed.
Lemma sub_prot : forall k k' n, sub k k' -> prot (k_nodes k) (k_stack k) n -> prot (k_nodes k') (k_stack k') n.
Proof.
  intros k k' n [A1 A2 A3 (p & A4)] P. eapply prot_incl; [ | eapply prot_fr; eauto]. intros x Hx. rewrite A4. apply in_or_app. auto.
Qed.
Lemma sub_varnum : forall k k', sub k k' -> k_varnum k' = k_varnum k.
Proof. intros k k' [ ]. apply u_fr0. Qed.
Lemma sub_cap : forall k k', sub k k' -> k_cap k' = k_cap k.
Proof. intros k k' [ ]. apply u_fr0. Qed.

Lemma sub_push : forall k k1 x, sub k k1 -> valid (k_nodes k1) x -> length (k_stack k1) < k_cap k1 ->
  push_ref k1 x = Ok (s_stack (x :: k_stack k1) k1) /\ sub k (s_stack (x :: k_stack k1) k1) /\
  prot (k_nodes k1) (x :: k_stack k1) x.
Proof.
  intros k k1 x [A1 A2 A3 (p & A4)] V L. unfold push_ref. apply Nat.ltb_lt in L. rewrite L. split; [auto | ]. split.
  - constructor.
    + apply kinv_stack. auto.
    + intros y [<- | Hy]; auto.
    + eapply fr_trans; [exact A3 | apply fr_stack].
    + exists (x :: p). cbn [s_stack k_stack]. rewrite A4. auto.
  - apply prot_root. left. left. auto.
Qed.

Lemma sub_pop2 : forall k k1 x y, sub k k1 -> stv k -> k_stack k1 = x :: y :: k_stack k ->
  pop_ref k1 2 = Ok (s_stack (k_stack k) k1) /\ good k (s_stack (k_stack k) k1).
Proof.
  intros k k1 x y [A1 A2 A3 (p & A4)] V E. unfold pop_ref. rewrite E. cbn [length Nat.leb skipn]. split; [auto | ].
  constructor; auto.
  - apply kinv_stack. auto.
  - eapply fr_trans; [exact A3 | apply fr_stack].
  - intros z Hz. apply A2. rewrite E. right. right. auto.
Qed.

(* ------------------------------------------------------------------------------------------------------------------ *)
(** * Access to nodes *)

Lemma level_wr : forall k n t, kinv k -> wr k n t -> level_of k n = Ok (top (k_varnum k) t).
Proof.
  intros k n t K (R & W). unfold level_of. pose proof (t_len _ _ _ (i_tk _ K)) as L.
  destruct R as [ | | n lo a b H2 El Ha Hb].
  - rewrite (getn_ok _ _ 0 dead) by lia. cbn [rbind top]. destruct (i_const _ K) as (E & _). unfold nd in E. rewrite E. auto.
  - rewrite (getn_ok _ _ 1 dead) by lia. cbn [rbind top]. destruct (i_const _ K) as (_ & E). unfold nd in E. rewrite E. auto.
  - rewrite (getn_ok _ _ n dead) by (apply live_lt; split; [auto | congruence]). reflexivity.
Qed.

Lemma node_wr : forall k n l a b, wr k n (BN l a b) ->
  2 <= n /\ l < k_varnum k /\ l < top (k_varnum k) a /\ l < top (k_varnum k) b /\ a <> b /\ exists lo hi,
    low_of k n = Ok lo /\ high_of k n = Ok hi /\ wr k lo a /\ wr k hi b /\
    (forall st, prot (k_nodes k) st n -> prot (k_nodes k) st lo /\ prot (k_nodes k) st hi).
Proof.
  intros k n l a b (R & W). apply rep_bn in R. destruct R as (H2 & -> & (lo & El & Ra) & Rb).
  cbn [wft] in W. destruct W as (W1 & W2 & W3 & W4 & W5 & W6).
  do 5 (split; [auto | ]). assert (Ln : live (k_nodes k) n) by (split; [auto | congruence]).
  exists lo, (n_high (nd (k_nodes k) n)). unfold low_of, high_of. rewrite (getn_ok _ _ n dead) by (apply live_lt; auto). cbn [rbind].
  fold (nd (k_nodes k) n). rewrite El. cbn [of_opt]. split; [auto | ]. split; [auto | ]. split; [split; auto | ]. split; [split; auto | ].
  intros st P. split; [eapply prot_lo; eauto | apply prot_hi; auto].
Qed.

Lemma wr_lt2 : forall k n t, wr k n t -> n < 2 -> t = if n =? 0 then BF else BT.
Proof.
  intros k n t (R & _) H. destruct n as [ | [ | n]]; cbn [Nat.eqb]; [eapply rep_0; eauto | eapply rep_1; eauto | lia].
Qed.
Lemma wr_ge2 : forall k n t, wr k n t -> 2 <= n -> exists l a b, t = BN l a b.
Proof. intros k n t (R & _) H. eapply rep_2; eauto. Qed.
Lemma wr_0 : forall k, wr k 0 BF.
Proof. intros. split; [constructor | exact Logic.I]. Qed.
Lemma wr_1 : forall k, wr k 1 BT.
Proof. intros. split; [constructor | exact Logic.I]. Qed.
Lemma wr_bool : forall k (b : bool), wr k (if b then 1 else 0) (if b then BT else BF).
Proof. intros k [ | ]; [apply wr_1 | apply wr_0]. Qed.

(* ------------------------------------------------------------------------------------------------------------------ *)
(** * Caches *)

Lemma cget_ok : forall c h, 0 < length c -> exists e, cget c h = Ok e /\ In e c.
Proof.
  intros c h L. unfold cget.
  assert (G : N.to_nat (h mod lenN c) < length c).
  { unfold lenN. assert (H : (h mod N.of_nat (length c) < N.of_nat (length c))%N) by (apply N.mod_lt; lia). lia. }
  rewrite (getn_ok _ c _ empty_entry) by auto. eexists. split; [reflexivity | ]. apply nth_In. auto.
Qed.
Lemma cput_ok : forall (c : list centry) h f, 0 < length c -> exists n, putn c (N.to_nat (h mod lenN c)%N) f = Ok (updn n f c).
Proof.
  intros c h f L.
  assert (G : N.to_nat (h mod lenN c) < length c).
  { unfold lenN. assert (H : (h mod N.of_nat (length c) < N.of_nat (length c))%N) by (apply N.mod_lt; lia). lia. }
  rewrite putn_ok by auto. eauto.
Qed.

Lemma good_set_apply : forall k k6 h l r c x, good k k6 ->
  (forall bd, apply_ok (wr k6) (mkEntry (Some l) r c bd x)) ->
  exists c', cset_res (k_apply k6) h l r c x = Ok c' /\ good k (s_apply c' k6).
Proof.
  intros k k6 h l r c x [A1 A2 A3 A4] N. unfold cset_res. pose proof A1 as [B1 B2 B3 B4 B5 B6 B7 B8 (C1 & C2 & C3)].
  destruct (cput_ok (k_apply k6) h (fun e => mkEntry (Some l) r c (e_bdres e) x) ltac:(apply B8)) as (n & E). rewrite E.
  eexists. split; [reflexivity | ]. constructor; auto.
  - constructor; auto.
    + cbn [s_apply k_apply k_quant k_misc]. rewrite updn_length. auto.
    + split; [ | split; auto]. cbn [s_apply k_apply]. apply forall_updn; [auto | intros e; apply N].
  - eapply fr_trans; [exact A3 | apply fr_apply].
Qed.
Lemma good_set_quant : forall k k6 h l r c x, good k k6 ->
  (forall bd, quant_ok (wr k6) (mkEntry (Some l) r c bd x)) ->
  exists c', cset_res (k_quant k6) h l r c x = Ok c' /\ good k (s_quant c' k6).
Proof.
  intros k k6 h l r c x [A1 A2 A3 A4] N. unfold cset_res. pose proof A1 as [B1 B2 B3 B4 B5 B6 B7 B8 (C1 & C2 & C3)].
  destruct (cput_ok (k_quant k6) h (fun e => mkEntry (Some l) r c (e_bdres e) x) ltac:(apply B8)) as (n & E). rewrite E.
  eexists. split; [reflexivity | ]. constructor; auto.
  - constructor; auto.
    + cbn [s_quant k_apply k_quant k_misc]. rewrite updn_length. auto.
    + split; [auto | split; auto]. cbn [s_quant k_quant]. apply forall_updn; [auto | intros e; apply N].
  - eapply fr_trans; [exact A3 | apply fr_quant].
Qed.
Lemma good_set_misc : forall k k6 h l r c x, good k k6 ->
  (forall bd, misc_ok (wr k6) (k_varnum k6) (mkEntry (Some l) r c bd x)) ->
  exists c', cset_res (k_misc k6) h l r c x = Ok c' /\ good k (s_misc c' k6).
Proof.
  intros k k6 h l r c x [A1 A2 A3 A4] N. unfold cset_res. pose proof A1 as [B1 B2 B3 B4 B5 B6 B7 B8 (C1 & C2 & C3)].
  destruct (cput_ok (k_misc k6) h (fun e => mkEntry (Some l) r c (e_bdres e) x) ltac:(apply B8)) as (n & E). rewrite E.
  eexists. split; [reflexivity | ]. constructor; auto.
  - constructor; auto.
    + cbn [s_misc k_apply k_quant k_misc]. rewrite updn_length. auto.
    + split; [auto | split; auto]. cbn [s_misc k_misc]. apply forall_updn; [auto | intros e; apply N].
  - eapply fr_trans; [exact A3 | apply fr_misc].
Qed.
Lemma good_set_bdres : forall k k6 h l r c x, good k k6 ->
  (forall rs, misc_ok (wr k6) (k_varnum k6) (mkEntry (Some l) r c x rs)) ->
  exists c', cset_bdres (k_misc k6) h l r c x = Ok c' /\ good k (s_misc c' k6).
Proof.
  intros k k6 h l r c x [A1 A2 A3 A4] N. unfold cset_bdres. pose proof A1 as [B1 B2 B3 B4 B5 B6 B7 B8 (C1 & C2 & C3)].
  destruct (cput_ok (k_misc k6) h (fun e => mkEntry (Some l) r c x (e_res e)) ltac:(apply B8)) as (n & E). rewrite E.
  eexists. split; [reflexivity | ]. constructor; auto.
  - constructor; auto.
    + cbn [s_misc k_apply k_quant k_misc]. rewrite updn_length. auto.
    + split; [auto | split; auto]. cbn [s_misc k_misc]. apply forall_updn; [auto | intros e; apply N].
  - eapply fr_trans; [exact A3 | apply fr_misc].
Qed.

(* ------------------------------------------------------------------------------------------------------------------ *)
(** * The two recursive calls *)

(** After the two recursive calls both results are on the stack. *)
Record two (k k4 : kernel) (x1 x2 : nat) (t1 t2 : bdt) : Prop := mkTwo {
  two_sub : sub k k4; two_stack : k_stack k4 = x2 :: x1 :: k_stack k;
  two_1 : wr k4 x1 t1; two_2 : wr k4 x2 t2;
  two_p1 : prot (k_nodes k4) (k_stack k4) x1; two_p2 : prot (k_nodes k4) (k_stack k4) x2;
  two_r1 : read_ref k4 2 = Ok x1; two_r2 : read_ref k4 1 = Ok x2 }.

Lemma push1 : forall k k1 x1 t1, kinv k -> stv k -> good k k1 -> wr k1 x1 t1 -> length (k_stack k) + 2 <= k_cap k ->
  exists k2, push_ref k1 x1 = Ok k2 /\ sub k k2 /\ k_stack k2 = x1 :: k_stack k /\ wr k2 x1 t1 /\ prot (k_nodes k2) (k_stack k2) x1.
Proof.
  intros k k1 x1 t1 K V G W L.
  destruct (sub_push k k1 x1 (good_sub _ _ G) (wr_valid _ _ _ W)) as (E & S & P).
  { rewrite (g_stack _ _ G), (sub_cap _ _ (good_sub _ _ G)). lia. }
  rewrite E. eexists. split; [reflexivity | ]. split; [auto | ]. split; [cbn [s_stack k_stack]; rewrite (g_stack _ _ G); auto | ].
  split; [exact W | exact P].
Qed.

Lemma push2 : forall k k2 k3 x1 x2 t1 t2, sub k k2 -> k_stack k2 = x1 :: k_stack k -> wr k2 x1 t1 ->
  prot (k_nodes k2) (k_stack k2) x1 -> good k2 k3 -> wr k3 x2 t2 -> length (k_stack k) + 2 <= k_cap k ->
  exists k4, push_ref k3 x2 = Ok k4 /\ two k k4 x1 x2 t1 t2.
Proof.
  intros k k2 k3 x1 x2 t1 t2 S2 E2 W1 P1 G W2 L.
  pose proof (sub_good _ _ _ S2 G) as S3.
  destruct (sub_push k k3 x2 S3 (wr_valid _ _ _ W2)) as (E & S & P).
  { rewrite (g_stack _ _ G), (sub_cap _ _ S3), E2. cbn [length]. lia. }
  rewrite E. eexists. split; [reflexivity | ].
  assert (Es : k_stack k3 = x1 :: k_stack k) by (rewrite (g_stack _ _ G); auto).
  constructor; auto.
  - cbn [s_stack k_stack]. rewrite Es. auto.
  - exact (good_wr _ _ _ _ G P1 W1).
  - cbn [s_stack k_stack k_nodes]. eapply prot_incl; [ | apply (good_prot _ _ _ G P1)]. intros y Hy. right. auto.
  - unfold read_ref. cbn [s_stack k_stack]. rewrite Es. reflexivity.
Qed.

Lemma two_done : forall k k4 x1 x2 t1 t2 k5 x t, stv k -> two k k4 x1 x2 t1 t2 -> good k4 k5 -> wr k5 x t ->
  exists k6, pop_ref k5 2 = Ok k6 /\ good k k6 /\ wr k6 x t.
Proof.
  intros k k4 x1 x2 t1 t2 k5 x t V [ ] G W.
  destruct (sub_pop2 k k5 x2 x1 (sub_good _ _ _ two_sub0 G) V) as (E & G').
  { rewrite (g_stack _ _ G). auto. }
  eexists. split; [exact E | ]. split; [auto | exact W].
Qed.

Lemma two_make : forall k k4 x1 x2 t1 t2 lvl, stv k -> two k k4 x1 x2 t1 t2 -> lvl < k_varnum k ->
  lvl < top (k_varnum k) t1 -> lvl < top (k_varnum k) t2 ->
  exists k5 x k6, make_node k4 lvl x1 x2 = Ok (k5, x) /\ pop_ref k5 2 = Ok k6 /\ good k k6 /\ wr k6 x (bn lvl t1 t2).
Proof.
  intros k k4 x1 x2 t1 t2 lvl V T Hl H1 H2. pose proof T as [ ].
  pose proof (sub_varnum _ _ two_sub0) as Vn.
  destruct (make_spec k4 lvl x1 x2 t1 t2) as (k5 & x & E & G & W); auto; try (rewrite Vn; auto); try apply two_sub0.
  destruct (two_done _ _ _ _ _ _ _ _ _ V T G W) as (k6 & E6 & G6 & W6).
  exists k5, x, k6. auto.
Qed.

(* ------------------------------------------------------------------------------------------------------------------ *)
(** * [apply_rec] *)

Lemma args_spec : forall k l r tl tr (b : bool), kinv k -> wr k l tl -> wr k r tr -> (2 <= l \/ 2 <= r) ->
  prot (k_nodes k) (k_stack k) l -> prot (k_nodes k) (k_stack k) r ->
  let n := k_varnum k in let m := Nat.min (top n tl) (top n tr) in let c := (top n tl ?= top n tr) in
  m < n /\ split_level k c l r = Ok m /\
  exists l0 r0 a0 b0, (if b then high_args k c l r else low_args k c l r) = Ok (l0, r0) /\ wr k l0 a0 /\ wr k r0 b0 /\
    prot (k_nodes k) (k_stack k) l0 /\ prot (k_nodes k) (k_stack k) r0 /\ m < top n a0 /\ m < top n b0 /\
    (forall w, w m = b -> teval tl w = teval a0 w /\ teval tr w = teval b0 w).
Proof.
  intros k l r tl tr b K Wl Wr H2 Pl Pr n m c.
  pose proof (top_le n tl (proj2 Wl)) as Tl. pose proof (top_le n tr (proj2 Wr)) as Tr.
  assert (Hm : m < n).
  { destruct H2 as [H2 | H2].
    - destruct (wr_ge2 _ _ _ Wl H2) as (x & a & d & ->). apply node_wr in Wl. destruct Wl as (_ & Hx & _). unfold m. cbn [top]. fold n in Hx. lia.
    - destruct (wr_ge2 _ _ _ Wr H2) as (x & a & d & ->). apply node_wr in Wr. destruct Wr as (_ & Hx & _). unfold m. cbn [top]. fold n in Hx. lia. }
  split; [auto | ].
  assert (Node : forall x t, wr k x t -> prot (k_nodes k) (k_stack k) x -> top n t = m ->
    exists lo hi a d, low_of k x = Ok lo /\ high_of k x = Ok hi /\ wr k lo a /\ wr k hi d /\
      prot (k_nodes k) (k_stack k) lo /\ prot (k_nodes k) (k_stack k) hi /\ m < top n a /\ m < top n d /\
      (forall w, teval t w = if w m then teval d w else teval a w)).
  { intros x t W P E. destruct t as [ | | lv a d]; cbn [top] in E; try lia. subst lv.
    destruct (node_wr _ _ _ _ _ W) as (_ & _ & Ta & Td & _ & lo & hi & E1 & E2 & W1 & W2 & Q). destruct (Q _ P).
    exists lo, hi, a, d. do 8 (split; [auto | ]). auto. }
  unfold split_level. rewrite (level_wr k l tl K Wl), (level_wr k r tr K Wr). fold n.
  unfold high_args, low_args.
  destruct (Nat.compare_spec (top n tl) (top n tr)) as [E | E | E]; subst c.
  - split; [f_equal; lia | ].
    destruct (Node l tl Wl Pl ltac:(lia)) as (l1 & l2 & a1 & a2 & E1 & E2 & E3 & E4 & E5 & E6 & E7 & E8 & E9).
    destruct (Node r tr Wr Pr ltac:(lia)) as (r1 & r2 & b1 & b2 & F1 & F2 & F3 & F4 & F5 & F6 & F7 & F8 & F9).
    rewrite E1, E2, F1, F2. cbn [rbind]. destruct b.
    + exists l2, r2, a2, b2. do 7 (split; [auto | ]). intros w Hw. rewrite E9, F9, Hw. auto.
    + exists l1, r1, a1, b1. do 7 (split; [auto | ]). intros w Hw. rewrite E9, F9, Hw. auto.
  - split; [f_equal; lia | ].
    destruct (Node l tl Wl Pl ltac:(lia)) as (l1 & l2 & a1 & a2 & E1 & E2 & E3 & E4 & E5 & E6 & E7 & E8 & E9).
    rewrite E1, E2. cbn [rbind]. destruct b.
    + exists l2, r, a2, tr. do 6 (split; [auto; lia | ]). split; [lia | ]. intros w Hw. rewrite E9, Hw. auto.
    + exists l1, r, a1, tr. do 6 (split; [auto; lia | ]). split; [lia | ]. intros w Hw. rewrite E9, Hw. auto.
  - split; [f_equal; lia | ].
    destruct (Node r tr Wr Pr ltac:(lia)) as (r1 & r2 & b1 & b2 & F1 & F2 & F3 & F4 & F5 & F6 & F7 & F8 & F9).
    rewrite F1, F2. cbn [rbind]. destruct b.
    + exists l, r2, tl, b2. do 5 (split; [auto; lia | ]). split; [lia | ]. split; [lia | ]. intros w Hw. rewrite F9, Hw. auto.
    + exists l, r1, tl, b1. do 5 (split; [auto; lia | ]). split; [lia | ]. split; [lia | ]. intros w Hw. rewrite F9, Hw. auto.
Qed.

Lemma apply_const_ok : forall k o l r tl tr x, wr k l tl -> wr k r tr -> apply_const o l r = Some x ->
  exists t, wr k x t /\ forall w, teval t w = bsem o (teval tl w) (teval tr w).
Proof.
  intros k o l r tl tr x Wl Wr E.
  assert (Z : forall n t, wr k n t -> n = 0 -> t = BF) by (intros n t (R & _) ->; eapply rep_0; eauto).
  assert (U : forall n t, wr k n t -> n = 1 -> t = BT) by (intros n t (R & _) ->; eapply rep_1; eauto).
  destruct o; cbn [apply_const] in E; try discriminate.
  - destruct (Nat.eqb_spec l r) as [-> | N1].
    { injection E as <-. exists tl. split; auto. intros w. rewrite (wr_det _ _ _ _ Wr Wl). cbn [bsem]. rewrite andb_diag. auto. }
    destruct (Nat.eqb_spec l 0) as [-> | N2]; cbn [orb] in E.
    { injection E as <-. exists BF. split; [apply wr_0 | ]. intros w. rewrite (Z _ _ Wl eq_refl). auto. }
    destruct (Nat.eqb_spec r 0) as [-> | N3].
    { injection E as <-. exists BF. split; [apply wr_0 | ]. intros w. rewrite (Z _ _ Wr eq_refl). cbn [bsem teval]. rewrite andb_false_r. auto. }
    destruct (Nat.eqb_spec l 1) as [-> | N4].
    { injection E as <-. exists tr. split; [auto | ]. intros w. rewrite (U _ _ Wl eq_refl). auto. }
    destruct (Nat.eqb_spec r 1) as [-> | N5]; [ | discriminate].
    injection E as <-. exists tl. split; [auto | ]. intros w. rewrite (U _ _ Wr eq_refl). cbn [bsem teval]. rewrite andb_true_r. auto.
  - destruct (Nat.eqb_spec l r) as [-> | N1].
    { injection E as <-. exists tl. split; auto. intros w. rewrite (wr_det _ _ _ _ Wr Wl). cbn [bsem]. rewrite orb_diag. auto. }
    destruct (Nat.eqb_spec l 1) as [-> | N2]; cbn [orb] in E.
    { injection E as <-. exists BT. split; [apply wr_1 | ]. intros w. rewrite (U _ _ Wl eq_refl). auto. }
    destruct (Nat.eqb_spec r 1) as [-> | N3].
    { injection E as <-. exists BT. split; [apply wr_1 | ]. intros w. rewrite (U _ _ Wr eq_refl). cbn [bsem teval]. rewrite orb_true_r. auto. }
    destruct (Nat.eqb_spec l 0) as [-> | N4].
    { injection E as <-. exists tr. split; [auto | ]. intros w. rewrite (Z _ _ Wl eq_refl). auto. }
    destruct (Nat.eqb_spec r 0) as [-> | N5]; [ | discriminate].
    injection E as <-. exists tl. split; [auto | ]. intros w. rewrite (Z _ _ Wr eq_refl). cbn [bsem teval]. rewrite orb_false_r. auto.
  - destruct (Nat.eqb_spec l 0) as [-> | N2].
    { injection E as <-. exists BT. split; [apply wr_1 | ]. intros w. rewrite (Z _ _ Wl eq_refl). auto. }
    destruct (Nat.eqb_spec l 1) as [-> | N3].
    { injection E as <-. exists tr. split; [auto | ]. intros w. rewrite (U _ _ Wl eq_refl). auto. }
    destruct (Nat.eqb_spec r 1) as [-> | N5]; [ | discriminate].
    injection E as <-. exists BT. split; [apply wr_1 | ]. intros w. rewrite (U _ _ Wr eq_refl). cbn [bsem teval]. destruct (teval tl w); auto.
Qed.

Lemma op_table_ok : forall k o l r tl tr, wr k l tl -> wr k r tr -> l < 2 -> r < 2 ->
  exists x t, getn (op_table o) (2 * l + r) = Ok x /\ wr k x t /\ forall w, teval t w = bsem o (teval tl w) (teval tr w).
Proof.
  intros k o l r tl tr Wl Wr Hl Hr. rewrite (wr_lt2 _ _ _ Wl Hl), (wr_lt2 _ _ _ Wr Hr).
  assert (G : forall b1 b2, exists x t, getn (op_table o) (2 * (if b1 : bool then 1 else 0) + (if b2 : bool then 1 else 0)) = Ok x /\ wr k x t /\
    forall w : nat -> bool, teval t w = bsem o b1 b2).
  { intros b1 b2. exists (if bsem o b1 b2 then 1 else 0), (if bsem o b1 b2 then BT else BF).
    split; [destruct o, b1, b2; reflexivity | ]. split; [apply wr_bool | ]. intros w. destruct (bsem o b1 b2); reflexivity. }
  destruct l as [ | [ | l]]; [ | | lia]; (destruct r as [ | [ | r]]; [ | | lia]); cbn [Nat.eqb teval].
  - apply (G false false).
  - apply (G false true).
  - apply (G true false).
  - apply (G true true).
Qed.

Lemma optnat_eqb_true : forall o n, optnat_eqb o n = true -> o = Some n.
Proof. intros [x | ] n H; cbn [optnat_eqb] in H; [apply Nat.eqb_eq in H; congruence | discriminate]. Qed.

Lemma op_code_inj : forall o o', op_code o = op_code o' -> o = o'.
Proof. intros [] []; cbn [op_code]; intros; try reflexivity; discriminate. Qed.
Lemma op_code_not : forall o, op_code o <> OPCODE_NOT.
Proof. intros []; cbn; discriminate. Qed.

Theorem apply_rec_spec : forall o fuel k l r tl tr, kinv k -> stv k -> wr k l tl -> wr k r tr ->
  prot (k_nodes k) (k_stack k) l -> prot (k_nodes k) (k_stack k) r ->
  k_varnum k - Nat.min (top (k_varnum k) tl) (top (k_varnum k) tr) < fuel ->
  length (k_stack k) + (k_varnum k - Nat.min (top (k_varnum k) tl) (top (k_varnum k) tr)) + 1 <= k_cap k ->
  exists k' x t, apply_rec fuel o k l r = Ok (k', x) /\ good k k' /\ wr k' x t /\
    forall w, teval t w = bsem o (teval tl w) (teval tr w).
Proof.
  intros o. induction fuel as [ | fuel IH]; intros k l r tl tr K V Wl Wr Pl Pr Hf Hc; [lia | ]. cbn [apply_rec].
  destruct (apply_const o l r) as [x | ] eqn:Ec.
  { destruct (apply_const_ok k o l r tl tr x Wl Wr Ec) as (t & W & H). exists k, x, t. split; [auto | ]. split; [apply good_refl; auto | auto]. }
  destruct ((l <? 2) && (r <? 2)) eqn:Eb.
  { apply andb_true_iff in Eb. destruct Eb as (E1 & E2). apply Nat.ltb_lt in E1. apply Nat.ltb_lt in E2.
    destruct (op_table_ok k o l r tl tr Wl Wr E1 E2) as (x & t & E & W & H). rewrite E. cbn [rbind].
    exists k, x, t. split; [auto | ]. split; [apply good_refl; auto | auto]. }
  assert (H2 : 2 <= l \/ 2 <= r).
  { apply andb_false_iff in Eb. destruct Eb as [Eb | Eb]; apply Nat.ltb_ge in Eb; auto. }
  set (h := triple (N.of_nat l) (N.of_nat r) (N.of_nat (op_code o))).
  destruct (cget_ok (k_apply k) h ltac:(apply (i_clen _ K))) as (e & Ee & Ie). rewrite Ee. cbn [rbind].
  destruct (optnat_eqb (e_a e) l && (e_b e =? r) && (e_c e =? op_code o)) eqn:Eh.
  { apply andb_true_iff in Eh. destruct Eh as (Eh & Eh3). apply andb_true_iff in Eh. destruct Eh as (Eh1 & Eh2).
    apply optnat_eqb_true in Eh1. apply Nat.eqb_eq in Eh2. apply Nat.eqb_eq in Eh3.
    pose proof (i_caches _ K) as (C1 & _). rewrite Forall_forall in C1. destruct (C1 e Ie l Eh1) as (C2 & _).
    destruct (C2 o Eh3) as (tl' & tr' & t & D1 & D2 & D3 & D4). rewrite Eh2 in D2.
    rewrite <- (wr_det _ _ _ _ D1 Wl), <- (wr_det _ _ _ _ D2 Wr).
    exists k, (e_res e), t. split; [auto | ]. split; [apply good_refl; auto | auto]. }
  rewrite (level_wr k l tl K Wl), (level_wr k r tr K Wr). cbn [rbind].
  set (n := k_varnum k) in *. set (m := Nat.min (top n tl) (top n tr)) in *. set (c := (top n tl ?= top n tr)).
  destruct (args_spec k l r tl tr false K Wl Wr H2 Pl Pr) as (Hm & _ & l0 & r0 & a0 & b0 & E0 & A1 & A2 & A3 & A4 & A5 & A6 & A7).
  fold n m c in Hm, E0, A5, A6, A7. cbv iota in E0. rewrite E0. cbn [rbind].
  destruct (IH k l0 r0 a0 b0) as (k1 & x1 & t1 & E1 & G1 & W1 & S1); auto; try (fold n; lia). rewrite E1. cbn [rbind].
  destruct (push1 k k1 x1 t1 K V G1 W1 ltac:(lia)) as (k2 & E2 & U2 & T2 & W2 & P2). rewrite E2. cbn [rbind].
  pose proof (sub_varnum _ _ U2) as N2. fold n in N2.
  pose proof (u_inv _ _ U2) as K2. pose proof (u_stv _ _ U2) as V2.
  pose proof (sub_wr _ _ _ _ U2 Pl Wl) as Wl2. pose proof (sub_wr _ _ _ _ U2 Pr Wr) as Wr2.
  pose proof (sub_prot _ _ _ U2 Pl) as Pl2. pose proof (sub_prot _ _ _ U2 Pr) as Pr2.
  destruct (args_spec k2 l r tl tr true K2 Wl2 Wr2 H2 Pl2 Pr2) as (_ & _ & l1 & r1 & a1 & b1 & E3 & B1 & B2 & B3 & B4 & B5 & B6 & B7).
  rewrite N2 in E3, B5, B6, B7. fold m in B5, B6, B7. fold c in E3. cbv iota in E3. rewrite E3. cbn [rbind].
  destruct (IH k2 l1 r1 a1 b1) as (k3 & x2 & t2 & E4 & G3 & W3 & S3); auto.
  { rewrite N2. lia. }
  { rewrite N2, T2, (sub_cap _ _ U2). cbn [length]. lia. }
  rewrite E4. cbn [rbind].
  destruct (push2 k k2 k3 x1 x2 t1 t2 U2 T2 W2 P2 G3 W3 ltac:(lia)) as (k4 & E5 & Tw). rewrite E5. cbn [rbind].
  pose proof Tw as [U4 T4 _ _ _ _ R1 R2].
  pose proof (sub_wr _ _ _ _ U4 Pl Wl) as Wl4. pose proof (sub_wr _ _ _ _ U4 Pr Wr) as Wr4.
  destruct (args_spec k4 l r tl tr true (u_inv _ _ U4) Wl4 Wr4 H2 (sub_prot _ _ _ U4 Pl) (sub_prot _ _ _ U4 Pr)) as (_ & E6 & _).
  rewrite (sub_varnum _ _ U4) in E6. fold n in E6. fold m c in E6. rewrite E6. cbn [rbind]. rewrite R1, R2. cbn [rbind].
  assert (Dl : forall w w', (forall i, S m <= i -> w i = w' i) -> teval t1 w = teval t1 w').
  { intros w w' Hw. rewrite !S1. rewrite (teval_from n a0 w w' (proj2 A1)), (teval_from n b0 w w' (proj2 A2)); auto; intros i Hi _; apply Hw; lia. }
  assert (Dr : forall w w', (forall i, S m <= i -> w i = w' i) -> teval t2 w = teval t2 w').
  { intros w w' Hw. rewrite !S3. destruct B1 as (_ & Wf1). destruct B2 as (_ & Wf2). rewrite N2 in Wf1, Wf2.
    rewrite (teval_from n a1 w w' Wf1), (teval_from n b1 w w' Wf2); auto; intros i Hi _; apply Hw; lia. }
  assert (Tp1 : S m <= top n t1).
  { apply top_sem; auto. destruct W1 as (_ & Wf). rewrite (good_varnum _ _ G1) in Wf. exact Wf. }
  assert (Tp2 : S m <= top n t2).
  { apply top_sem; auto. destruct W3 as (_ & Wf). rewrite (good_varnum _ _ G3), N2 in Wf. exact Wf. }
  destruct (two_make k k4 x1 x2 t1 t2 m V Tw Hm Tp1 Tp2) as (k5 & x & k6 & E7 & E8 & G6 & W6).
  rewrite E7. cbn [rbind]. rewrite E8. cbn [rbind].
  assert (Sem : forall w, teval (bn m t1 t2) w = bsem o (teval tl w) (teval tr w)).
  { intros w. rewrite bn_eval. destruct (w m) eqn:Ew.
    - rewrite S3. destruct (B7 w Ew) as (-> & ->). auto.
    - rewrite S1. destruct (A7 w Ew) as (-> & ->). auto. }
  destruct (good_set_apply k k6 h l r (op_code o) x G6) as (c' & E9 & G9).
  { intros bd l' El'. cbn [e_a e_c e_b e_res] in *. injection El' as <-. split.
    - intros o' Ho. apply op_code_inj in Ho. subst o'. exists tl, tr, (bn m t1 t2).
      split; [eapply good_wr; eauto | ]. split; [eapply good_wr; eauto | ]. auto.
    - intros Ho. exfalso. apply (op_code_not o). auto. }
  rewrite E9. cbn [rbind]. exists (s_apply c' k6), x, (bn m t1 t2). split; [auto | ]. split; [auto | ]. split; [exact W6 | auto].
Qed.

(* ------------------------------------------------------------------------------------------------------------------ *)
(** * [not_rec] *)

Theorem not_rec_spec : forall fuel k r tr, kinv k -> stv k -> wr k r tr -> prot (k_nodes k) (k_stack k) r ->
  k_varnum k - top (k_varnum k) tr < fuel -> length (k_stack k) + (k_varnum k - top (k_varnum k) tr) + 1 <= k_cap k ->
  exists k' x t, not_rec fuel k r = Ok (k', x) /\ good k k' /\ wr k' x t /\ forall w, teval t w = negb (teval tr w).
Proof.
  induction fuel as [ | fuel IH]; intros k r tr K V W P Hf Hc; [lia | ]. cbn [not_rec].
  destruct (Nat.eqb_spec r 0) as [-> | N0].
  { rewrite (rep_0 _ _ (proj1 W)). exists k, 1, BT. split; [auto | ]. split; [apply good_refl; auto | ]. split; [apply wr_1 | auto]. }
  destruct (Nat.eqb_spec r 1) as [-> | N1].
  { rewrite (rep_1 _ _ (proj1 W)). exists k, 0, BF. split; [auto | ]. split; [apply good_refl; auto | ]. split; [apply wr_0 | auto]. }
  destruct (cget_ok (k_apply k) (N.of_nat r) ltac:(apply (i_clen _ K))) as (e & Ee & Ie). rewrite Ee. cbn [rbind].
  destruct (optnat_eqb (e_a e) r && (e_c e =? OPCODE_NOT)) eqn:Eh.
  { apply andb_true_iff in Eh. destruct Eh as (Eh1 & Eh3). apply optnat_eqb_true in Eh1. apply Nat.eqb_eq in Eh3.
    pose proof (i_caches _ K) as (C1 & _). rewrite Forall_forall in C1. destruct (C1 e Ie r Eh1) as (_ & C2).
    destruct (C2 Eh3) as (tr' & t & D1 & D3 & D4). rewrite <- (wr_det _ _ _ _ D1 W).
    exists k, (e_res e), t. split; [auto | ]. split; [apply good_refl; auto | auto]. }
  destruct (wr_ge2 _ _ _ W ltac:(lia)) as (m & a & b & ->). set (n := k_varnum k) in *. cbn [top] in *.
  destruct (node_wr _ _ _ _ _ W) as (_ & Hm & Ta & Tb & _ & lo & hi & E1 & _ & Wa & _ & Q). destruct (Q _ P) as (Pa & _).
  fold n in Hm, Ta, Tb. rewrite E1. cbn [rbind].
  destruct (IH k lo a) as (k1 & x1 & t1 & E2 & G1 & W1 & S1); auto; try (fold n; lia). rewrite E2. cbn [rbind].
  destruct (push1 k k1 x1 t1 K V G1 W1 ltac:(lia)) as (k2 & E3 & U2 & T2 & W2 & P2). rewrite E3. cbn [rbind].
  pose proof (sub_varnum _ _ U2) as N2. fold n in N2.
  destruct (node_wr _ _ _ _ _ (sub_wr _ _ _ _ U2 P W)) as (_ & _ & _ & _ & _ & lo2 & hi2 & _ & E4 & _ & Wb & Q2).
  destruct (Q2 _ (sub_prot _ _ _ U2 P)) as (_ & Pb). rewrite E4. cbn [rbind].
  destruct (IH k2 hi2 b) as (k3 & x2 & t2 & E5 & G3 & W3 & S3); auto; try apply U2.
  { rewrite N2. lia. }
  { rewrite N2, T2, (sub_cap _ _ U2). cbn [length]. lia. }
  rewrite E5. cbn [rbind].
  destruct (push2 k k2 k3 x1 x2 t1 t2 U2 T2 W2 P2 G3 W3 ltac:(lia)) as (k4 & E6 & Tw). rewrite E6. cbn [rbind].
  pose proof Tw as [U4 T4 _ _ _ _ R1 R2].
  rewrite (level_wr k4 r _ (u_inv _ _ U4) (sub_wr _ _ _ _ U4 P W)). cbn [rbind top]. rewrite R1, R2. cbn [rbind].
  assert (Tp1 : S m <= top n t1).
  { apply top_sem; [ | lia | ].
    - destruct W1 as (_ & Wf). rewrite (good_varnum _ _ G1) in Wf. exact Wf.
    - intros w w' Hw. rewrite !S1. rewrite (teval_from n a w w' (proj2 Wa)); auto. intros i Hi _. apply Hw. lia. }
  assert (Tp2 : S m <= top n t2).
  { apply top_sem; [ | lia | ].
    - destruct W3 as (_ & Wf). rewrite (good_varnum _ _ G3), N2 in Wf. exact Wf.
    - intros w w' Hw. rewrite !S3. destruct Wb as (_ & Wf). rewrite N2 in Wf. rewrite (teval_from n b w w' Wf); auto. intros i Hi _. apply Hw. lia. }
  destruct (two_make k k4 x1 x2 t1 t2 m V Tw Hm Tp1 Tp2) as (k5 & x & k6 & E7 & E8 & G6 & W6).
  rewrite E7. cbn [rbind]. rewrite E8. cbn [rbind].
  assert (Sem : forall w, teval (bn m t1 t2) w = negb (teval (BN m a b) w)).
  { intros w. rewrite bn_eval. cbn [teval]. rewrite S1, S3. destruct (w m); auto. }
  destruct (good_set_apply k k6 (N.of_nat r) r 0 OPCODE_NOT x G6) as (c' & E9 & G9).
  { intros bd l' El'. cbn [e_a e_c e_b e_res] in *. injection El' as <-. split.
    - intros o' Ho. exfalso. apply (op_code_not o'). auto.
    - intros Ho. exists (BN m a b), (bn m t1 t2). split; [eapply good_wr; eauto | ]. auto. }
  rewrite E9. cbn [rbind]. exists (s_apply c' k6), x, (bn m t1 t2). split; [auto | ]. split; [auto | ]. split; [exact W6 | auto].
Qed.

(* ------------------------------------------------------------------------------------------------------------------ *)
(** * [restrict_rec] *)

(** The table of [varset2svartable] for the literals [L]. *)
Definition stab (k : kernel) (L : list (nat * bool)) : Prop :=
  (forall i, i < k_varnum k -> exists q, getn (k_qset k) i = Ok q /\
    match find (fun p => fst p =? i) L with
    | Some p => Z.to_N (Z.abs q) = k_qid k /\ (0 <? q)%Z = snd p
    | None => Z.to_N (Z.abs q) <> k_qid k
    end) /\
  (forall p, In p L -> fst p <= k_qlast k).

Lemma ovr_find : forall w L i p, find (fun p => fst p =? i) L = Some p -> ovr w L i = snd p.
Proof. intros w L i p H. unfold ovr. rewrite H. auto. Qed.
Lemma ovr_none : forall w L i, find (fun p => fst p =? i) L = None -> ovr w L i = w i.
Proof. intros w L i H. unfold ovr. rewrite H. auto. Qed.
Lemma find_fst_none : forall (L : list (nat * bool)) i, (forall p, In p L -> fst p <> i) -> find (fun p => fst p =? i) L = None.
Proof.
  intros L i H. induction L as [ | p L IH]; cbn [find]; auto. assert (G : fst p <> i) by (apply H; left; auto). apply Nat.eqb_neq in G. rewrite G.
  apply IH. intros q Hq. apply H. right. auto.
Qed.

Lemma restrict_dep : forall n m t tr L, is_restrict t tr L -> wft n tr -> m <= top n tr ->
  forall w w', (forall i, m <= i -> w i = w' i) -> teval t w = teval t w'.
Proof.
  intros n m t tr L H W T w w' E. rewrite !H. apply (teval_from n); auto. intros i Hi _. unfold ovr.
  destruct (find _ L); auto. apply E. lia.
Qed.

Lemma stab_fr : forall st k k' L, fr st k k' -> stab k L -> stab k' L.
Proof. intros st k k' L F H. unfold stab. rewrite (r_varnum _ _ _ F), (r_qset _ _ _ F), (r_qid _ _ _ F), (r_qlast _ _ _ F). auto. Qed.

Theorem restrict_rec_spec : forall v tv fuel k r tr, kinv k -> stv k -> 2 <= v -> wr k v tv -> prot (k_nodes k) (k_stack k) v ->
  stab k (cpath tv) -> wr k r tr -> prot (k_nodes k) (k_stack k) r ->
  k_varnum k - top (k_varnum k) tr < fuel -> length (k_stack k) + (k_varnum k - top (k_varnum k) tr) + 1 <= k_cap k ->
  exists k' x t, restrict_rec fuel (8 * v + 1) k r = Ok (k', x) /\ good k k' /\ wr k' x t /\ is_restrict t tr (cpath tv).
Proof.
  intros v tv. induction fuel as [ | fuel IH]; intros k r tr K V H2 Wv Pv Q W P Hf Hc; [lia | ]. cbn [restrict_rec].
  destruct (Nat.ltb_spec r 2) as [Hr | Hr].
  { exists k, r, tr. split; [auto | ]. split; [apply good_refl; auto | ]. split; [auto | ]. rewrite (wr_lt2 _ _ _ W Hr).
    intros w. destruct (r =? 0); auto. }
  rewrite (level_wr k r tr K W). cbn [rbind].
  destruct (wr_ge2 _ _ _ W Hr) as (m & a & b & ->). set (n := k_varnum k) in *. cbn [top] in *.
  destruct (Nat.ltb_spec (k_qlast k) m) as [Hq | Hq].
  { exists k, r, (BN m a b). split; [auto | ]. split; [apply good_refl; auto | ]. split; [auto | ].
    intros w. apply (teval_from n); [apply W | ]. intros i Hi _. cbn [top] in Hi. symmetry. apply ovr_none, find_fst_none.
    intros p Hp. destruct Q as (_ & Q). specialize (Q p Hp). lia. }
  set (h := pair (N.of_nat r) (N.of_nat (8 * v + 1))).
  destruct (cget_ok (k_misc k) h ltac:(apply (i_clen _ K))) as (e & Ee & Ie). rewrite Ee. cbn [rbind].
  destruct (optnat_eqb (e_a e) r && (e_c e =? 8 * v + 1)) eqn:Eh.
  { apply andb_true_iff in Eh. destruct Eh as (Eh1 & Eh3). apply optnat_eqb_true in Eh1. apply Nat.eqb_eq in Eh3.
    pose proof (i_caches _ K) as (_ & _ & C1). rewrite Forall_forall in C1. destruct (C1 e Ie r Eh1) as (C2 & _).
    destruct (C2 v H2 Eh3) as (tr' & tv' & t & D1 & D2 & D3 & D4).
    rewrite <- (wr_det _ _ _ _ D1 W), <- (wr_det _ _ _ _ D2 Wv).
    exists k, (e_res e), t. split; [auto | ]. split; [apply good_refl; auto | auto]. }
  destruct (node_wr _ _ _ _ _ W) as (_ & Hm & Ta & Tb & _ & lo & hi & E1 & E1h & Wa & Wb0 & Qp). destruct (Qp _ P) as (Pa & Pb0).
  fold n in Hm, Ta, Tb.
  destruct Q as (Q1 & Q2). pose proof (conj Q1 Q2 : stab k (cpath tv)) as Q. destruct (Q1 m Hm) as (q & Eq & Hqm). unfold insvarset. rewrite Eq. cbn [rbind].
  assert (Main : exists k6 x t,
    (if (Z.to_N (Z.abs q) =? k_qid k)%N then
       do child <- (if (0 <? q)%Z then high_of k r else low_of k r); restrict_rec fuel (8 * v + 1) k child
     else
       do lo <- low_of k r; do ' (k1, x1) <- restrict_rec fuel (8 * v + 1) k lo; do k2 <- push_ref k1 x1;
       do hi <- high_of k2 r; do ' (k3, x2) <- restrict_rec fuel (8 * v + 1) k2 hi; do k4 <- push_ref k3 x2;
       do lvl <- level_of k4 r; do a <- read_ref k4 2; do b <- read_ref k4 1;
       do ' (k5, x) <- make_node k4 lvl a b; do k6 <- pop_ref k5 2; Ok (k6, x)) = Ok (k6, x) /\
    good k k6 /\ wr k6 x t /\ is_restrict t (BN m a b) (cpath tv)).
  { destruct (find (fun p => fst p =? m) (cpath tv)) as [p | ] eqn:Ef.
    - destruct Hqm as (Hq1 & Hq2). rewrite Hq1, N.eqb_refl, Hq2. destruct (snd p) eqn:Ep.
      + rewrite E1h. cbn [rbind]. destruct (IH k hi b) as (k1 & x1 & t1 & E2 & G1 & W1 & S1); auto; try (fold n; lia).
        exists k1, x1, t1. split; [auto | ]. split; [auto | ]. split; [auto | ]. intros w. rewrite S1. cbn [teval].
        rewrite (ovr_find w _ m p Ef), Ep. auto.
      + rewrite E1. cbn [rbind]. destruct (IH k lo a) as (k1 & x1 & t1 & E2 & G1 & W1 & S1); auto; try (fold n; lia).
        exists k1, x1, t1. split; [auto | ]. split; [auto | ]. split; [auto | ]. intros w. rewrite S1. cbn [teval].
        rewrite (ovr_find w _ m p Ef), Ep. auto.
    - apply N.eqb_neq in Hqm. rewrite Hqm. rewrite E1. cbn [rbind].
      destruct (IH k lo a) as (k1 & x1 & t1 & E2 & G1 & W1 & S1); auto; try (fold n; lia). rewrite E2. cbn [rbind].
      destruct (push1 k k1 x1 t1 K V G1 W1 ltac:(lia)) as (k2 & E3 & U2 & T2 & W2 & P2). rewrite E3. cbn [rbind].
      pose proof (sub_varnum _ _ U2) as N2. fold n in N2.
      destruct (node_wr _ _ _ _ _ (sub_wr _ _ _ _ U2 P W)) as (_ & _ & _ & _ & _ & lo2 & hi2 & _ & E4 & _ & Wb & Qp2).
      destruct (Qp2 _ (sub_prot _ _ _ U2 P)) as (_ & Pb). rewrite E4. cbn [rbind].
      destruct (IH k2 hi2 b) as (k3 & x2 & t2 & E5 & G3 & W3 & S3); auto; try apply U2.
      { eapply sub_wr; eauto. }
      { eapply sub_prot; eauto. }
      { eapply stab_fr; [apply U2 | auto]. }
      { rewrite N2. lia. }
      { rewrite N2, T2, (sub_cap _ _ U2). cbn [length]. lia. }
      rewrite E5. cbn [rbind].
      destruct (push2 k k2 k3 x1 x2 t1 t2 U2 T2 W2 P2 G3 W3 ltac:(lia)) as (k4 & E6 & Tw). rewrite E6. cbn [rbind].
      pose proof Tw as [U4 T4 _ _ _ _ R1 R2].
      rewrite (level_wr k4 r _ (u_inv _ _ U4) (sub_wr _ _ _ _ U4 P W)). cbn [rbind top]. rewrite R1, R2. cbn [rbind].
      assert (Tp1 : S m <= top n t1).
      { apply top_sem; [ | lia | ].
        - destruct W1 as (_ & Wf). rewrite (good_varnum _ _ G1) in Wf. exact Wf.
        - apply (restrict_dep n _ _ a (cpath tv)); auto. apply Wa. }
      assert (Tp2 : S m <= top n t2).
      { apply top_sem; [ | lia | ].
        - destruct W3 as (_ & Wf). rewrite (good_varnum _ _ G3), N2 in Wf. exact Wf.
        - apply (restrict_dep n _ _ b (cpath tv)); auto. apply Wb0. }
      destruct (two_make k k4 x1 x2 t1 t2 m V Tw Hm Tp1 Tp2) as (k5 & x & k6 & E7 & E8 & G6 & W6).
      rewrite E7. cbn [rbind]. rewrite E8. cbn [rbind]. exists k6, x, (bn m t1 t2). do 3 (split; [auto | ]).
      intros w. rewrite bn_eval. cbn [teval]. rewrite S1, S3, (ovr_none w _ m Ef). auto. }
  destruct Main as (k6 & x & t & Em & G6 & W6 & S6). rewrite Em. cbn [rbind].
  destruct (good_set_misc k k6 h r 0 (8 * v + 1) x G6) as (c' & E9 & G9).
  { intros bd l' El'. cbn [e_a e_c e_b e_res e_bdres] in *. injection El' as <-. unfold CACHEID_SATCOU, CACHEID_PATHCOU_ONE, CACHEID_PATHCOU_ZERO.
    split; [ | split; [ | split]]; try lia.
    intros v' Hv' Ev. assert (v' = v) by lia. subst v'. exists (BN m a b), tv, t. split; [eapply good_wr; eauto | ]. split; [eapply good_wr; eauto | auto]. }
  rewrite E9. cbn [rbind]. exists (s_misc c' k6), x, t. split; [auto | ]. split; [auto | ]. split; [exact W6 | auto].
Qed.

(* ------------------------------------------------------------------------------------------------------------------ *)
(** * [quant_rec] *)

(** The table of [varset2vartable] for the variables [S]. *)
Definition vtab (k : kernel) (S : list nat) : Prop :=
  (forall i, i < k_varnum k -> exists b, invarset k i = Ok b /\ (b = true <-> In i S)) /\ (forall i, In i S -> i <= k_qlast k).

Lemma vtab_fr : forall st k k' S, fr st k k' -> vtab k S -> vtab k' S.
Proof. intros st k k' S F H. unfold vtab, invarset in *. rewrite (r_varnum _ _ _ F), (r_qset _ _ _ F), (r_qid _ _ _ F), (r_qlast _ _ _ F). auto. Qed.

Lemma agree_refl : forall S w, agree S w w.
Proof. intros S w i _. auto. Qed.

(** Replace the variables below [m] of [w1] by those of [w']. *)
Definition splice (m : nat) (w' w1 : nat -> bool) : nat -> bool := fun i => if i <? m then w' i else w1 i.
Lemma splice_agree : forall S m w w' w1, (forall i, m <= i -> w i = w' i) -> agree S w w1 -> agree S w' (splice m w' w1).
Proof.
  intros S m w w' w1 E A i Hi. unfold splice. destruct (Nat.ltb_spec i m); auto. rewrite (A i Hi). auto.
Qed.
Lemma splice_eval : forall n m t w' w1, wft n t -> m <= top n t -> teval t (splice m w' w1) = teval t w1.
Proof.
  intros n m t w' w1 W H. apply (teval_from n); auto. intros i Hi _. unfold splice. destruct (Nat.ltb_spec i m); [lia | auto].
Qed.

Lemma quant_dep : forall o n m t tr S, is_quant o t tr S -> wft n tr -> m <= top n tr ->
  forall w w', (forall i, m <= i -> w i = w' i) -> teval t w = teval t w'.
Proof.
  intros o n m t tr S H W T w w' E.
  assert (G : forall w w', (forall i, m <= i -> w i = w' i) -> teval t w = true -> teval t w' = true).
  { clear w w' E. intros w w' E Ht. destruct o; cbn [is_quant] in H; try contradiction.
    - apply H. intros w1 A. apply H with (w' := splice m w w1) in Ht.
      + rewrite (splice_eval n) in Ht; auto.
      + eapply splice_agree; [ | exact A]. intros i Hi. symmetry. auto.
    - apply H in Ht. destruct Ht as (w1 & A & Et). apply H. exists (splice m w' w1). split; [eapply splice_agree; eauto | ].
      rewrite (splice_eval n); auto. }
  destruct (teval t w) eqn:E1.
  - symmetry. apply (G w); auto.
  - destruct (teval t w') eqn:E2; auto. rewrite (G w' w) in E1; auto. intros i Hi. symmetry. auto.
Qed.

Lemma quant_none : forall o n t S, (o = OpOr \/ o = OpAnd) -> wft n t -> (forall i, In i S -> i < top n t) -> is_quant o t t S.
Proof.
  intros o n t S [-> | ->] W H; cbn [is_quant]; intros w.
  - split; [intros E; exists w; split; [apply agree_refl | auto] | ]. intros (w' & A & E). rewrite <- E. apply (teval_from n); auto.
    intros i Hi _. symmetry. apply A. intro Hin. specialize (H i Hin). lia.
  - split; [ | intros E; apply E; apply agree_refl]. intros E w' A. rewrite <- E. apply (teval_from n); auto.
    intros i Hi _. apply A. intro Hin. specialize (H i Hin). lia.
Qed.

Lemma upw_agree : forall S w w' m x, In m S -> agree S w w' -> agree S w (upw w' m x).
Proof. intros S w w' m x Hm A i Hi. unfold upw. destruct (Nat.eqb_spec i m); [congruence | auto]. Qed.

Lemma quant_in : forall o n m a b t1 t2 t S, (o = OpOr \/ o = OpAnd) -> wft n (BN m a b) -> In m S ->
  is_quant o t1 a S -> is_quant o t2 b S -> (forall w, teval t w = bsem o (teval t1 w) (teval t2 w)) -> is_quant o t (BN m a b) S.
Proof.
  intros o n m a b t1 t2 t S Ho W Hm H1 H2 Ht. cbn [wft] in W. destruct W as (_ & Ta & Tb & _ & Wa & Wb).
  destruct Ho as [-> | ->]; cbn [is_quant bsem] in *; intros w; rewrite Ht.
  - rewrite orb_true_iff, (H1 w), (H2 w). split.
    + intros [(w' & A & E) | (w' & A & E)].
      * exists (upw w' m false). split; [apply upw_agree; auto | ]. cbn [teval]. rewrite upw_same, (teval_upw_below n); auto.
      * exists (upw w' m true). split; [apply upw_agree; auto | ]. cbn [teval]. rewrite upw_same, (teval_upw_below n); auto.
    + intros (w' & A & E). cbn [teval] in E. destruct (w' m); [right | left]; exists w'; auto.
  - rewrite andb_true_iff, (H1 w), (H2 w). split.
    + intros (F1 & F2) w' A. cbn [teval]. destruct (w' m); auto.
    + intros F. split; intros w' A.
      * specialize (F (upw w' m false) (upw_agree _ _ _ _ _ Hm A)). cbn [teval] in F. rewrite upw_same, (teval_upw_below n) in F; auto.
      * specialize (F (upw w' m true) (upw_agree _ _ _ _ _ Hm A)). cbn [teval] in F. rewrite upw_same, (teval_upw_below n) in F; auto.
Qed.

Lemma quant_out : forall o m a b t1 t2 S, (o = OpOr \/ o = OpAnd) -> ~ In m S ->
  is_quant o t1 a S -> is_quant o t2 b S -> is_quant o (bn m t1 t2) (BN m a b) S.
Proof.
  intros o m a b t1 t2 S Ho Hm H1 H2. destruct Ho as [-> | ->]; cbn [is_quant] in *; intros w; rewrite bn_eval.
  - destruct (w m) eqn:Ew.
    + rewrite (H2 w). split; intros (w' & A & E); exists w'; (split; [auto | ]); cbn [teval] in *; rewrite (A m Hm), Ew in *; auto.
    + rewrite (H1 w). split; intros (w' & A & E); exists w'; (split; [auto | ]); cbn [teval] in *; rewrite (A m Hm), Ew in *; auto.
  - destruct (w m) eqn:Ew.
    + rewrite (H2 w). split; intros F w' A; specialize (F w' A); cbn [teval] in *; rewrite (A m Hm), Ew in *; auto.
    + rewrite (H1 w). split; intros F w' A; specialize (F w' A); cbn [teval] in *; rewrite (A m Hm), Ew in *; auto.
Qed.

Definition qcode (o : bop) (v : nat) : nat := match o with OpOr => 8 * v | _ => 8 * v + 1 end.

Theorem quant_rec_spec : forall o v tv, (o = OpOr \/ o = OpAnd) ->
  forall fuel k r tr, kinv k -> stv k -> 2 <= v -> wr k v tv -> prot (k_nodes k) (k_stack k) v ->
  vtab k (hpath tv) -> wr k r tr -> prot (k_nodes k) (k_stack k) r ->
  k_varnum k - top (k_varnum k) tr < fuel -> length (k_stack k) + (k_varnum k - top (k_varnum k) tr) + 2 <= k_cap k ->
  exists k' x t, quant_rec fuel o (qcode o v) k r = Ok (k', x) /\ good k k' /\ wr k' x t /\ is_quant o t tr (hpath tv).
Proof.
  intros o v tv Ho. induction fuel as [ | fuel IH]; intros k r tr K V H2 Wv Pv Q W P Hf Hc; [lia | ]. cbn [quant_rec].
  destruct (Nat.ltb_spec r 2) as [Hr | Hr].
  { exists k, r, tr. split; [auto | ]. split; [apply good_refl; auto | ]. split; [auto | ]. rewrite (wr_lt2 _ _ _ W Hr).
    destruct Ho as [-> | ->]; intros w; destruct (r =? 0); cbn [teval]; split; intros G; try discriminate; auto.
    - destruct G as (w' & _ & G). auto.
    - exists w. split; [apply agree_refl | auto].
    - apply (G w). apply agree_refl. }
  rewrite (level_wr k r tr K W). cbn [rbind].
  destruct (wr_ge2 _ _ _ W Hr) as (m & a & b & ->). set (n := k_varnum k) in *. cbn [top] in *.
  destruct (Nat.ltb_spec (k_qlast k) m) as [Hq | Hq].
  { exists k, r, (BN m a b). split; [auto | ]. split; [apply good_refl; auto | ]. split; [auto | ].
    apply (quant_none o n); auto; [apply W | ]. intros i Hi. cbn [top]. destruct Q as (_ & Q). specialize (Q i Hi). lia. }
  destruct (cget_ok (k_quant k) (N.of_nat r) ltac:(apply (i_clen _ K))) as (e & Ee & Ie). rewrite Ee. cbn [rbind].
  destruct (optnat_eqb (e_a e) r && (e_c e =? qcode o v)) eqn:Eh.
  { apply andb_true_iff in Eh. destruct Eh as (Eh1 & Eh3). apply optnat_eqb_true in Eh1. apply Nat.eqb_eq in Eh3.
    pose proof (i_caches _ K) as (_ & C1 & _). rewrite Forall_forall in C1.
    destruct (C1 e Ie r Eh1 v o H2 Eh3 Ho) as (tr' & tv' & t & D1 & D2 & D3 & D4).
    rewrite <- (wr_det _ _ _ _ D1 W), <- (wr_det _ _ _ _ D2 Wv).
    exists k, (e_res e), t. split; [auto | ]. split; [apply good_refl; auto | auto]. }
  destruct (node_wr _ _ _ _ _ W) as (_ & Hm & Ta & Tb & _ & lo & hi & E1 & E1h & Wa & Wb0 & Qp). destruct (Qp _ P) as (Pa & Pb0).
  fold n in Hm, Ta, Tb. rewrite E1. cbn [rbind].
  destruct (IH k lo a) as (k1 & x1 & t1 & E2 & G1 & W1 & S1); auto; try (fold n; lia). rewrite E2. cbn [rbind].
  destruct (push1 k k1 x1 t1 K V G1 W1 ltac:(lia)) as (k2 & E3 & U2 & T2 & W2 & P2). rewrite E3. cbn [rbind].
  pose proof (sub_varnum _ _ U2) as N2. fold n in N2.
  destruct (node_wr _ _ _ _ _ (sub_wr _ _ _ _ U2 P W)) as (_ & _ & _ & _ & _ & lo2 & hi2 & _ & E4 & _ & Wb & Qp2).
  destruct (Qp2 _ (sub_prot _ _ _ U2 P)) as (_ & Pb). rewrite E4. cbn [rbind].
  destruct (IH k2 hi2 b) as (k3 & x2 & t2 & E5 & G3 & W3 & S3); auto; try apply U2.
  { eapply sub_wr; eauto. }
  { eapply sub_prot; eauto. }
  { eapply vtab_fr; [apply U2 | auto]. }
  { rewrite N2. lia. }
  { rewrite N2, T2, (sub_cap _ _ U2). cbn [length]. lia. }
  rewrite E5. cbn [rbind].
  destruct (push2 k k2 k3 x1 x2 t1 t2 U2 T2 W2 P2 G3 W3 ltac:(lia)) as (k4 & E6 & Tw). rewrite E6. cbn [rbind].
  pose proof Tw as [U4 T4 X1 X2 Y1 Y2 R1 R2]. pose proof (sub_varnum _ _ U4) as N4. fold n in N4.
  rewrite (level_wr k4 r _ (u_inv _ _ U4) (sub_wr _ _ _ _ U4 P W)). cbn [rbind top].
  pose proof (vtab_fr _ _ _ _ (u_fr _ _ U4) Q) as Q4.
  destruct Q4 as (Q4 & _). destruct (Q4 m ltac:(lia)) as (inv & Einv & Hinv). rewrite Einv. cbn [rbind]. rewrite R1, R2. cbn [rbind].
  assert (Tp1 : S m <= top n t1).
  { apply top_sem; [ | lia | ].
    - destruct W1 as (_ & Wf). rewrite (good_varnum _ _ G1) in Wf. exact Wf.
    - apply (quant_dep o n _ _ a (hpath tv)); auto. apply Wa. }
  assert (Tp2 : S m <= top n t2).
  { apply top_sem; [ | lia | ].
    - destruct W3 as (_ & Wf). rewrite (good_varnum _ _ G3), N2 in Wf. exact Wf.
    - apply (quant_dep o n _ _ b (hpath tv)); auto. apply Wb0. }
  assert (Main : exists k5 x k6 t, (if inv then apply_rec (S (k_varnum k4)) o k4 x1 x2 else make_node k4 m x1 x2) = Ok (k5, x) /\
     pop_ref k5 2 = Ok k6 /\ good k k6 /\ wr k6 x t /\ is_quant o t (BN m a b) (hpath tv)).
  { destruct inv.
    - destruct (apply_rec_spec o (S (k_varnum k4)) k4 x1 x2 t1 t2) as (k5 & x & t & E7 & G5 & W5 & S5); auto; try apply U4.
      { lia. }
      { rewrite N4, T4, (sub_cap _ _ U4). cbn [length]. lia. }
      destruct (two_done _ _ _ _ _ _ _ _ _ V Tw G5 W5) as (k6 & E8 & G6 & W6).
      exists k5, x, k6, t. do 4 (split; [auto | ]). apply (quant_in o n m a b t1 t2); auto; [apply W | apply Hinv; auto].
    - destruct (two_make k k4 x1 x2 t1 t2 m V Tw Hm Tp1 Tp2) as (k5 & x & k6 & E7 & E8 & G6 & W6).
      exists k5, x, k6, (bn m t1 t2). do 4 (split; [auto | ]). apply quant_out; auto. intro Hin. apply Hinv in Hin. discriminate. }
  destruct Main as (k5 & x & k6 & t & E7 & E8 & G6 & W6 & S6). rewrite E7. cbn [rbind]. rewrite E8. cbn [rbind].
  destruct (good_set_quant k k6 (N.of_nat r) r 0 (qcode o v) x G6) as (c' & E9 & G9).
  { intros bd l' El' v' o' Hv' Ec' Ho'. cbn [e_a e_c e_b e_res e_bdres] in *. injection El' as <-.
    assert (Eo : o' = o /\ v' = v) by (destruct Ho as [-> | ->], Ho' as [-> | ->]; cbn [qcode] in Ec'; split; auto; lia).
    destruct Eo as (-> & ->). exists (BN m a b), tv, t. split; [eapply good_wr; eauto | ]. split; [eapply good_wr; eauto | auto]. }
  rewrite E9. cbn [rbind]. exists (s_quant c' k6), x, t. split; [auto | ]. split; [auto | ]. split; [exact W6 | auto].
Qed.
