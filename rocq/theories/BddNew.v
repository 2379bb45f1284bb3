(** The constructor of the kernel establishes the invariant. *)
From Coq Require Import NArith ZArith Arith List Bool Lia.
From Verif Require Import Base Syntax FactoryBasics BddSpec BddModel BddLink BddTable BddMake BddRep BddOps BddBuild.
Import ListNotations.
Local Open Scope res_scope.

Lemma tinv_upd : forall ns fp fn r f, tinv ns fp fn ->
  (forall x, n_mark (f x) = n_mark x /\ n_hash (f x) = n_hash x /\ n_next (f x) = n_next x /\ n_low (f x) = n_low x /\ n_high (f x) = n_high x) ->
  (2 <= r -> live ns r /\ forall x, n_level (f x) = n_level x) -> (r < 2 -> forall x, n_ref (f x) = n_ref x) ->
  tinv (updn r f ns) fp fn.
Proof.
  intros ns fp fn r f [T1 T2 T3 T4 T5 T6 T7] F R2 R0.
  assert (E : forall n, n_mark (nd (updn r f ns) n) = n_mark (nd ns n) /\ n_hash (nd (updn r f ns) n) = n_hash (nd ns n) /\
     n_next (nd (updn r f ns) n) = n_next (nd ns n) /\ n_low (nd (updn r f ns) n) = n_low (nd ns n) /\
     n_high (nd (updn r f ns) n) = n_high (nd ns n) /\ (2 <= n -> n_level (nd (updn r f ns) n) = n_level (nd ns n)) /\
     (n <> r -> n_ref (nd (updn r f ns) n) = n_ref (nd ns n)) /\ (n < 2 -> n_ref (nd (updn r f ns) n) = n_ref (nd ns n))).
  { intros n. rewrite nd_upd. destruct ((n =? r) && (r <? length ns)) eqn:Eq; [ | auto 10].
    apply andb_true_iff in Eq. destruct Eq as (Eq & _). apply Nat.eqb_eq in Eq. subst n.
    destruct (F (nd ns r)) as (F1 & F2 & F3 & F4 & F5). do 5 (split; [auto | ]). split; [intros H; apply (R2 H) | ]. split; [congruence | ].
    intros H. apply R0. auto. }
  assert (Lv : forall n, live (updn r f ns) n <-> live ns n).
  { intros n. unfold live. destruct (E n) as (_ & _ & _ & -> & _). tauto. }
  assert (Ln : length (updn r f ns) = length ns) by apply updn_length.
  constructor.
  - lia.
  - intros n lo Hn El. destruct (E n) as (_ & _ & _ & E4 & E5 & _). rewrite E4 in El. rewrite E5. destruct (T2 n lo Hn El) as (A & B).
    split; [destruct A as [A | A] | destruct B as [B | B]]; try (left; auto; fail); right; apply Lv; auto.
  - rewrite Ln. eapply lk_ext; [exact T3 | | | | | ].
    + intros m Hm. apply (E m).
    + intros m Hm. apply (E m).
    + intros m. tauto.
    + intros m Hm. unfold liveb. destruct (E m) as (_ & _ & _ & -> & _). auto.
    + intros m Hm _. cbv beta in Hm. unfold hof. destruct (E m) as (_ & _ & _ & -> & -> & E6 & _). rewrite E6 by lia. rewrite Ln. auto.
  - intros n m A B C. apply Lv in A. apply Lv in B. apply T4; auto. destruct A as (A & _). destruct B as (B & _).
    destruct (E n) as (_ & _ & _ & E4 & E5 & E6 & _). destruct (E m) as (_ & _ & _ & G4 & G5 & G6 & _).
    unfold core in *. rewrite E4, E5, G4, G5, E6, G6 in C by auto. auto.
  - intros n. destruct (E n) as (-> & _). auto.
  - intros n Hn El. destruct (E n) as (_ & _ & _ & E4 & _ & _ & E7 & _). rewrite E4 in El. rewrite E7; auto.
    intros ->. destruct (R2 Hn) as ((_ & G) & _). congruence.
  - intros n Hn. destruct (E n) as (_ & _ & _ & -> & -> & _ & _ & E8). rewrite E8 by auto. auto.
Qed.

(* ------------------------------------------------------------------------------------------------------------------ *)
(** * The initial node vector *)

Lemma chain_seq : forall nx size c a, a + c = size -> 0 < a ->
  (forall n, a <= n < size -> nx n = if n =? size - 1 then 0 else S n) -> chain nx (if c =? 0 then 0 else a) (seq a c).
Proof.
  intros nx size c. induction c as [ | c IH]; intros a E H N; cbn [seq chain Nat.eqb]; auto.
  split; [auto | ]. split; [lia | ]. rewrite N by lia. specialize (IH (S a) ltac:(lia) ltac:(lia)).
  destruct (Nat.eqb_spec a (size - 1)) as [Ea | Ea].
  - assert (c = 0) by lia. subst c. cbn [seq chain]. auto.
  - destruct (Nat.eqb_spec c 0) as [Ec | Ec]; [lia | ]. apply IH. intros n Hn. apply N. lia.
Qed.

Lemma initial_spec : forall size, 3 <= size -> exists ns, initial_nodes size = Ok ns /\ tinv ns 2 (size - 2) /\
  (forall n, n_ref (nd ns n) = if (n <? 2) then MAXREF else 0%N) /\ (forall n, 2 <= n -> n_low (nd ns n) = None).
Proof.
  intros size H. unfold initial_nodes.
  set (b := map fresh_node (seq 0 size)). assert (Lb : length b = size) by (unfold b; rewrite map_length, seq_length; auto).
  rewrite putn_ok by lia. cbn [rbind]. rewrite putn_ok by (rewrite updn_length; lia). cbn [rbind].
  rewrite putn_ok by (rewrite !updn_length; lia). eexists. split; [reflexivity | ].
  set (f0 := fun x : node => w_high 0 (w_low (Some 0) (w_ref MAXREF x))). set (f1 := fun x : node => w_high 1 (w_low (Some 1) (w_ref MAXREF x))).
  set (ns := updn 1 f1 _). assert (Ln : length ns = size) by (unfold ns; rewrite !updn_length; auto).
  assert (Nb : forall n, nd b n = if n <? size then fresh_node n else dead).
  { intros n. unfold nd, b. destruct (Nat.ltb_spec n size) as [G | G].
    - rewrite nth_map_seq by auto. f_equal.
    - apply nth_overflow. rewrite map_length, seq_length. auto. }
  assert (E : forall n, nd ns n = if n =? 1 then f1 (nd b 1) else if n =? 0 then f0 (nd b 0) else if n =? size - 1 then w_next 0 (nd b n) else nd b n).
  { intros n. unfold ns. rewrite nd_upd, nd_upd, nd_upd, !updn_length, Lb.
    assert (G1 : 1 <? size = true) by (apply Nat.ltb_lt; lia). assert (G0 : 0 <? size = true) by (apply Nat.ltb_lt; lia).
    assert (G2 : size - 1 <? size = true) by (apply Nat.ltb_lt; lia). rewrite G1, G0, G2, !andb_true_r.
    destruct (Nat.eqb_spec n 1) as [-> | N1]; [ | destruct (Nat.eqb_spec n 0) as [-> | N0]].
    - destruct (Nat.eqb_spec 1 (size - 1)) as [G | G]; [lia | ]. reflexivity.
    - destruct (Nat.eqb_spec 0 (size - 1)) as [G | G]; [lia | ]. reflexivity.
    - reflexivity. }
  assert (E2 : forall n, 2 <= n -> n_low (nd ns n) = None /\ n_ref (nd ns n) = 0%N).
  { intros n Hn. rewrite E. destruct (Nat.eqb_spec n 1); [lia | ]. destruct (Nat.eqb_spec n 0); [lia | ].
    rewrite Nb. destruct (n <? size); destruct (n =? size - 1); auto. }
  assert (Nl : forall n, ~ live ns n) by (intros n (G1 & G2); destruct (E2 n G1); congruence).
  split; [ | split].
  - constructor.
    + lia.
    + intros n lo Hn El. destruct (E2 n Hn). congruence.
    + constructor.
      * intros h Hh. exists []. cbn [chain]. split.
        { unfold hs. rewrite E, Nb. rewrite !Nb. destruct (h =? 1), (h =? 0), (h =? size - 1), (h <? size), (1 <? size), (0 <? size); reflexivity. }
        split; [constructor | ]. intros n. split; [intros [] | ]. intros (D1 & D2 & _). apply liveb_true in D2. destruct (E2 n); [lia | congruence].
      * exists (seq 2 (size - 2)). split.
        { assert (G : chain (nx ns) (if size - 2 =? 0 then 0 else 2) (seq 2 (size - 2))).
          { apply (chain_seq _ size); try lia. intros n Hn. unfold nx. rewrite E. destruct (Nat.eqb_spec n 1); [lia | ]. destruct (Nat.eqb_spec n 0); [lia | ].
            rewrite Nb. assert (G : n <? size = true) by (apply Nat.ltb_lt; lia). rewrite G. destruct (n =? size - 1); reflexivity. }
          destruct (Nat.eqb_spec (size - 2) 0); [lia | auto]. }
        split; [apply seq_NoDup | ]. split; [apply seq_length | ]. intros n. rewrite in_seq. split.
        -- intros G. split; [lia | ]. unfold liveb. destruct (E2 n) as (-> & _); [lia | auto].
        -- intros (G & _). lia.
    + intros n m A. destruct (Nl n A).
    + intros n. rewrite E, !Nb. destruct (n =? 1), (n =? 0), (n =? size - 1), (n <? size), (1 <? size), (0 <? size); reflexivity.
    + intros n Hn _. apply E2. auto.
    + intros n Hn. rewrite E. destruct n as [ | [ | n]]; [ | | lia]; cbn [Nat.eqb]; unfold f0, f1; cbn [w_high w_low w_ref n_low n_high n_ref]; repeat split; reflexivity.
  - intros n. destruct (Nat.ltb_spec n 2) as [G | G]; [ | apply E2; auto]. rewrite E. destruct n as [ | [ | n]]; [ | | lia]; reflexivity.
  - intros n Hn. apply E2. auto.
Qed.

(* ------------------------------------------------------------------------------------------------------------------ *)
(** * The loop over the variables *)

Definition blank (c : list centry) : Prop := 0 < length c /\ Forall (fun e => e_a e = None) c.

Record boot (nv : nat) (k : kernel) : Prop := mkBoot {
  b_tk : tk k; b_prime : prime_ok (k_prime k); b_len : length (k_vars k) = 2 * nv;
  b_lits : forall i, i < k_varnum k -> litnode k i true (nth (2 * i) (k_vars k) 0) /\ litnode k i false (nth (2 * i + 1) (k_vars k) 0);
  b_names : k_names k = []; b_stack : k_stack k = []; b_cap : k_cap k = 2 * nv + 4;
  b_q : k_qset k = repeat 0%Z nv /\ k_qid k = 0%N;
  b_caches : blank (k_apply k) /\ blank (k_quant k) /\ blank (k_misc k);
  b_own : owned k [] }.

Lemma blank_reset : forall c, blank c -> blank (creset c).
Proof.
  intros c (L & F). unfold blank, creset. rewrite map_length. split; auto. clear. induction c; cbn [map]; constructor; auto.
Qed.
Lemma blank_caching : forall k k', caching k k' -> blank (k_apply k) /\ blank (k_quant k) /\ blank (k_misc k) ->
  blank (k_apply k') /\ blank (k_quant k') /\ blank (k_misc k').
Proof.
  intros k k' [(-> & -> & -> & _) | (-> & -> & ->)] (A & B & C); auto using blank_reset.
Qed.

Lemma litnode_frame : forall k k' i ph n, frame k k' -> litnode k i ph n -> litnode k' i ph n.
Proof. intros k k' i ph n F L. eapply litnode_fr; [apply fr_of_frame; exact F | auto]. Qed.
Lemma litnode_nodes : forall k k' i ph n, k_nodes k' = k_nodes k -> litnode k i ph n -> litnode k' i ph n.
Proof. intros k k' i ph n E H. unfold litnode. rewrite E. exact H. Qed.

Lemma nth_upd : forall A (l : list A) n f m d, nth m (updn n f l) d = if (m =? n) && (n <? length l) then f (nth m l d) else nth m l d.
Proof. intros. apply nth_updn. Qed.

Lemma add_var_spec : forall nv k, boot nv k -> k_varnum k < nv ->
  exists k', add_var k = Ok k' /\ boot nv k' /\ k_varnum k' = S (k_varnum k).
Proof.
  intros nv k [B1 B2 B3 B4 B5 B6 B7 B8 B9 B10] Hv. unfold add_var. set (v := k_varnum k) in *.
  assert (V0 : forall ns, valid ns 0) by (left; lia). assert (V1 : forall ns, valid ns 1) by (left; lia).
  destruct (make_node_spec k v 0 1 B1 B2) as (k1 & p & E1 & T1 & F1 & C1 & _ & _ & _ & P1); auto; try (apply prot_const; [auto | lia]).
  { rewrite B6. intros x []. }
  destruct (P1 ltac:(lia)) as (Lp & Cp). clear P1. rewrite E1. cbn [rbind].
  assert (S1 : k_stack k1 = []) by (rewrite (f_stack _ _ F1); auto).
  unfold push_ref. rewrite S1. cbn [length]. assert (Hc : 0 <? k_cap k1 = true) by (apply Nat.ltb_lt; rewrite (f_cap _ _ F1), B7; lia).
  rewrite Hc. cbn [rbind]. change (k_vars (s_stack [p] k1)) with (k_vars k1).
  rewrite (f_vars _ _ F1). rewrite putn_ok by lia. cbn [rbind].
  set (vs1 := updn (2 * v) (fun _ => p) (k_vars k)). set (k2 := s_vars vs1 v (s_stack [p] k1)).
  assert (Lv1 : length vs1 = 2 * nv) by (unfold vs1; rewrite updn_length; auto).
  destruct (make_node_spec k2 v 1 0) as (k3 & q & E3 & T3 & F3 & C3 & _ & _ & _ & P3); auto; try (apply prot_const; [auto | lia]).
  { cbn [k2 s_vars s_stack k_prime]. rewrite (f_prime _ _ F1). auto. }
  { intros x [<- | []]. right. exact Lp. }
  destruct (P3 ltac:(lia)) as (Lq & Cq). clear P3. rewrite E3. cbn [rbind].
  assert (Vs3 : k_vars k3 = vs1) by (rewrite (f_vars _ _ F3); reflexivity).
  rewrite Vs3. rewrite putn_ok by lia. cbn [rbind]. set (vs2 := updn (2 * v + 1) (fun _ => q) vs1).
  assert (S3 : k_stack k3 = [p]) by (rewrite (f_stack _ _ F3); reflexivity).
  unfold pop_ref. cbn [s_vars k_stack]. rewrite S3. cbn [length Nat.leb skipn rbind].
  assert (Cp3 : core (nd (k_nodes k3) p) = (v, Some 0, 1)).
  { rewrite (f_prot _ _ F3); auto. apply prot_root. left. left. auto. }
  assert (Lp3 : live (k_nodes k3) p).
  { destruct Lp as (Lp & _). split; auto. unfold core in Cp3. injection Cp3 as _ -> _. congruence. }
  set (k4 := s_stack [] (s_vars vs2 v k3)). change (k_nodes k4) with (k_nodes k3).
  rewrite putn_ok by (apply live_lt; auto). cbn [rbind]. rewrite putn_ok by (rewrite updn_length; apply live_lt; auto). cbn [rbind].
  set (ns1 := updn p (w_ref MAXREF) (k_nodes k3)). set (ns2 := updn q (w_ref MAXREF) ns1).
  eexists. split; [reflexivity | ]. split; [ | reflexivity].
  assert (Wf : forall x, n_mark (w_ref MAXREF x) = n_mark x /\ n_hash (w_ref MAXREF x) = n_hash x /\ n_next (w_ref MAXREF x) = n_next x /\
     n_low (w_ref MAXREF x) = n_low x /\ n_high (w_ref MAXREF x) = n_high x) by auto.
  assert (E2 : forall n, core (nd ns2 n) = core (nd (k_nodes k3) n) /\
     n_ref (nd ns2 n) = if (n =? p) || (n =? q) then MAXREF else n_ref (nd (k_nodes k3) n)).
  { intros n. unfold ns2, ns1. rewrite !nd_upd, updn_length. pose proof (live_lt _ _ Lp3) as G1. pose proof (live_lt _ _ Lq) as G2.
    apply Nat.ltb_lt in G1. apply Nat.ltb_lt in G2. rewrite G1, G2, !andb_true_r. destruct (n =? q), (n =? p); auto. }
  assert (Lv : forall n, live ns1 n <-> live (k_nodes k3) n).
  { intros n. unfold live, ns1. rewrite nd_upd. destruct (_ && _); tauto. }
  constructor; cbn [s_vars s_nodes s_stack k_names k_nodes k_vars k_varnum k_prime k_cap k_qset k_qid k_apply k_quant k_misc k_stack k4].
  - unfold tk. cbn [s_vars s_nodes s_stack k_nodes k_freepos k_freenum k4]. apply tinv_upd; auto.
    + apply tinv_upd; auto.
      intros Hp. destruct Lp3. lia.
    + intros _. split; [apply Lv; auto | auto].
    + intros Hq. destruct Lq. lia.
  - rewrite (f_prime _ _ F3). cbn [k2 s_vars s_stack k_prime]. rewrite (f_prime _ _ F1). auto.
  - unfold vs2. rewrite updn_length. auto.
  - assert (Keep : forall i ph n, litnode k i ph n -> litnode (s_vars vs2 (S v) (s_nodes ns2 k4)) i ph n).
    { intros i ph n L. assert (L3 : litnode k3 i ph n).
      { eapply litnode_frame; [exact F3 | ]. eapply litnode_nodes; [ | eapply litnode_frame; [exact F1 | exact L]]. reflexivity. }
      destruct L3 as (A1 & A2 & A3). split; [auto | ]. cbn [s_vars s_nodes k_nodes]. destruct (E2 n) as (-> & ->). split; auto.
      destruct (_ || _); auto. }
    assert (NV : forall i, nth i vs2 0 = if i =? 2 * v + 1 then q else if i =? 2 * v then p else nth i (k_vars k) 0).
    { intros i. unfold vs2, vs1. rewrite !nth_upd, updn_length.
      assert (G1 : 2 * v <? length (k_vars k) = true) by (apply Nat.ltb_lt; lia).
      assert (G2 : 2 * v + 1 <? length (k_vars k) = true) by (apply Nat.ltb_lt; lia). rewrite G1, G2, !andb_true_r. auto. }
    intros i Hi. rewrite !NV. destruct (Nat.eq_dec i v) as [-> | Hne].
    + destruct (Nat.eqb_spec (2 * v) (2 * v + 1)); [lia | ]. rewrite !Nat.eqb_refl. split.
      * split; [apply Lp3 | ]. cbn [s_vars s_nodes k_nodes]. destruct (E2 p) as (-> & ->). rewrite Nat.eqb_refl. auto.
      * split; [apply Lq | ]. cbn [s_vars s_nodes k_nodes]. destruct (E2 q) as (-> & ->). rewrite Nat.eqb_refl, orb_true_r. auto.
    + destruct (Nat.eqb_spec (2 * i) (2 * v + 1)); [lia | ]. destruct (Nat.eqb_spec (2 * i) (2 * v)); [lia | ].
      destruct (Nat.eqb_spec (2 * i + 1) (2 * v + 1)); [lia | ]. destruct (Nat.eqb_spec (2 * i + 1) (2 * v)); [lia | ].
      destruct (B4 i ltac:(lia)). split; apply Keep; auto.
  - rewrite (f_names _ _ F3). cbn [k2 s_vars s_stack k_names]. rewrite (f_names _ _ F1). auto.
  - auto.
  - rewrite (f_cap _ _ F3). cbn [k2 s_vars s_stack k_cap]. rewrite (f_cap _ _ F1). auto.
  - rewrite (f_qset _ _ F3), (f_qid _ _ F3). cbn [k2 s_vars s_stack k_qset k_qid]. rewrite (f_qset _ _ F1), (f_qid _ _ F1). auto.
  - eapply blank_caching; [exact C3 | ]. cbn [k2 s_vars s_stack k_apply k_quant k_misc]. eapply blank_caching; eauto.
  - intros n Hn. cbn [s_vars s_nodes k_nodes]. destruct (E2 n) as (_ & ->). destruct (_ || _); [left; auto | ].
    rewrite (f_ref _ _ F3). cbn [k2 s_vars s_stack k_nodes]. rewrite (f_ref _ _ F1). apply B10. auto.
Qed.

Lemma add_vars_spec : forall nv l k, boot nv k -> k_varnum k + length l <= nv ->
  exists k', rfold (fun k (_ : nat) => add_var k) k l = Ok k' /\ boot nv k' /\ k_varnum k' = k_varnum k + length l.
Proof.
  intros nv l. induction l as [ | x l IH]; intros k B L; cbn [rfold length] in *.
  - exists k. rewrite Nat.add_0_r. auto.
  - destruct (add_var_spec nv k B ltac:(lia)) as (k1 & E & B1 & V1). rewrite E. cbn [rbind].
    destruct (IH k1 B1 ltac:(lia)) as (k2 & E2 & B2 & V2). exists k2. split; [auto | ]. split; [auto | ]. lia.
Qed.

Theorem new_kernel_api : forall prime nv size csize, prime_ok prime -> (N.of_nat nv <= 2097151)%N -> 3 <= size -> 1 <= csize ->
  exists k, new_kernel prime nv size csize = Ok k /\ api k [] /\ k_varnum k = nv /\ k_names k = [] /\ k_qid k = 0%N.
Proof.
  intros prime nv size csize P Hn Hs Hc. unfold new_kernel. assert (G : (2097151 <? N.of_nat nv)%N = false) by (apply N.ltb_ge; auto). rewrite G.
  destruct (initial_spec size Hs) as (ns & E & T & R & L). rewrite E. cbn [rbind].
  assert (Bl : blank (repeat empty_entry csize)).
  { split; [rewrite repeat_length; lia | ]. apply Forall_forall. intros e He. apply repeat_spec in He. subst. auto. }
  set (c := repeat empty_entry csize) in *.
  set (k0 := mkKernel [] ns (repeat 0 (2 * nv)) 2 (size - 2) 0 0 0 [] (2 * nv + 4) (repeat 0%Z nv) 0%N 0 c c c prime).
  assert (B0 : boot nv k0).
  { constructor; auto.
    - apply repeat_length.
    - intros i Hi. cbn in Hi. lia.
    - intros n Hn2. right. cbn [k0 k_nodes]. rewrite R. destruct (Nat.ltb_spec n 2); [lia | ]. cbn [count_occ]. unfold MAXREF. lia. }
  destruct (add_vars_spec nv (seq 0 nv) k0 B0) as (k1 & E1 & [B1 B2 B3 B4 B5 B6 B7 B8 B9 B10] & V1).
  { rewrite seq_length. cbn. lia. }
  rewrite E1. cbn [rbind]. rewrite seq_length in V1. cbn [k0 k_varnum Nat.add] in V1.
  pose proof (t_len _ _ _ B1) as Len. rewrite putn_ok by lia. cbn [rbind]. rewrite putn_ok by (rewrite updn_length; lia). cbn [rbind].
  set (ns1 := updn 0 (w_level nv) (k_nodes k1)). set (ns2 := updn 1 (w_level nv) ns1).
  eexists. split; [reflexivity | ].
  assert (E2 : forall n, n_ref (nd ns2 n) = n_ref (nd (k_nodes k1) n) /\ (2 <= n -> nd ns2 n = nd (k_nodes k1) n) /\ (n < 2 -> n_level (nd ns2 n) = nv)).
  { intros n. unfold ns2, ns1. rewrite !nd_upd, updn_length.
    assert (G1 : 1 <? length (k_nodes k1) = true) by (apply Nat.ltb_lt; lia). assert (G0 : 0 <? length (k_nodes k1) = true) by (apply Nat.ltb_lt; lia).
    rewrite G1, G0, !andb_true_r. destruct (Nat.eqb_spec n 1), (Nat.eqb_spec n 0); split; auto; split; auto; lia. }
  split; [ | auto].
  constructor.
  - constructor; cbn [s_nodes k_nodes k_varnum k_vars k_names k_cap k_qset k_prime k_apply k_quant k_misc].
    + unfold tk. cbn [s_nodes k_nodes k_freepos k_freenum]. apply tinv_upd; auto; [ | lia]. apply tinv_upd; auto. lia.
    + auto.
    + destruct (E2 0) as (_ & _ & A). destruct (E2 1) as (_ & _ & B). rewrite A, B by lia. auto.
    + split; [lia | ]. rewrite V1. intros i Hi. destruct (B4 i ltac:(lia)) as (A & B).
      assert (Q : forall ph n, litnode k1 i ph n -> litnode (s_nodes ns2 k1) i ph n).
      { intros ph n (Q1 & Q2 & Q3). split; [auto | ]. cbn [s_nodes k_nodes]. destruct (E2 n) as (_ & E3 & _). rewrite E3 by auto. auto. }
      split; apply Q; auto.
    + rewrite B5. cbn [length]. split; [constructor | lia].
    + rewrite B7. lia.
    + destruct B8 as (-> & _). rewrite repeat_length. auto.
    + destruct B9 as ((A & _) & (B & _) & (C & _)). auto.
    + destruct B9 as ((_ & A) & (_ & B) & (_ & C)). split; [ | split]; cbn [s_nodes k_apply k_quant k_misc].
      * eapply Forall_impl; [ | exact A]. intros e Ee r Er. congruence.
      * eapply Forall_impl; [ | exact B]. intros e Ee r Er. congruence.
      * eapply Forall_impl; [ | exact C]. intros e Ee r Er. congruence.
  - intros x Hx. cbn [s_nodes k_stack] in Hx. rewrite B6 in Hx. destruct Hx.
  - cbn [s_nodes k_stack]. rewrite B6. cbn. lia.
  - intros n Hn2. cbn [s_nodes k_nodes]. destruct (E2 n) as (-> & _). apply B10. auto.
  - cbn [s_nodes k_qset k_qid]. destruct B8 as (-> & ->). split; [ | lia]. apply Forall_forall. intros q Hq. apply repeat_spec in Hq. subst. cbn. lia.
  - cbn [s_nodes k_varnum k_names k_qid]. split; [lia | ]. split; [auto | apply B8].
Qed.

(** [new_with_var_ordering]. *)
Lemma add_names_spec : forall vs l k, api k [] -> room vs k -> incl l vs ->
  exists k', rfold (fun k v => do ' (k', _) <- get_or_add_var_index k v; Ok k') k l = Ok k' /\ api k' [] /\ ext [] k k' /\ room vs k' /\ incl l (k_names k').
Proof.
  intros vs l. induction l as [ | v l IH]; intros k A R I; cbn [rfold].
  - exists k. split; [auto | ]. split; [auto | ]. split; [apply ext_refl | ]. split; [auto | intros x []].
  - destruct (add_index_api k [] vs v A R) as (k1 & i & E & A1 & X1 & R1 & N1 & _); [apply I; left; auto | ]. rewrite E. cbn [rbind].
    destruct (IH k1 A1 R1) as (k2 & E2 & A2 & X2 & R2 & I2); [intros x Hx; apply I; right; auto | ].
    exists k2. split; [auto | ]. split; [auto | ]. split; [exact (ext_trans1 _ _ _ _ X1 X2) | ]. split; [auto | ].
    intros x [<- | Hx]; [ | auto]. destruct (e_names _ _ _ X2) as (l' & ->). apply in_or_app. left. eapply nth_error_In; eauto.
Qed.

Lemma names_order : forall l k, NoDup (k_names k ++ l) -> length (k_names k ++ l) <= k_varnum k ->
  exists k', rfold (fun k v => do ' (k', _) <- get_or_add_var_index k v; Ok k') k l = Ok k' /\ k_names k' = k_names k ++ l.
Proof.
  induction l as [ | v l IH]; intros k ND L; cbn [rfold].
  - exists k. rewrite app_nil_r. auto.
  - unfold get_or_add_var_index at 1. destruct (index_of v (k_names k)) as [i | ] eqn:E.
    + apply index_of_some in E. apply nth_error_In in E. apply NoDup_remove_2 in ND. exfalso. apply ND. apply in_or_app. auto.
    + rewrite app_length in L. cbn [length] in L. assert (G : length (k_names k) <? k_varnum k = true) by (apply Nat.ltb_lt; lia). rewrite G. cbn [rbind].
      destruct (IH (s_names (k_names k ++ [v]) k)) as (k' & E' & N').
      * cbn [s_names k_names]. rewrite <- app_assoc. auto.
      * cbn [s_names k_names k_varnum]. rewrite !app_length. cbn [length]. lia.
      * exists k'. split; [auto | ]. rewrite N'. cbn [s_names k_names]. rewrite <- app_assoc. auto.
Qed.

Theorem new_with_ordering_api : forall prime ord size csize, prime_ok prime -> NoDup ord -> (N.of_nat (length ord) <= 2097151)%N -> 3 <= size -> 1 <= csize ->
  exists k, new_with_ordering prime ord size csize = Ok k /\ api k [] /\ k_varnum k = length ord /\ k_names k = ord /\ k_qid k = 0%N.
Proof.
  intros prime ord size csize P ND Hn Hs Hc. unfold new_with_ordering.
  destruct (new_kernel_api prime (length ord) size csize P Hn Hs Hc) as (k & E & A & V & N & Q). rewrite E. cbn [rbind].
  destruct (add_names_spec ord ord k A) as (k' & E' & A' & X' & _ & _); [split; [auto | split; [lia | rewrite N; intros x []]] | apply incl_refl | ].
  destruct (names_order ord k) as (k2 & E2 & N2); [rewrite N; auto | rewrite N; cbn [app]; lia | ].
  rewrite E' in E2. injection E2 as <-. exists k'. split; [auto | ]. split; [auto | ]. split; [rewrite (e_varnum _ _ _ X'); auto | ].
  split; [rewrite N2, N; auto | rewrite (e_qid _ _ _ X'); auto].
Qed.
