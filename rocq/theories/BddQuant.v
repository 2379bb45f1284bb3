(** Restriction and quantification of BDDs held by the user. *)
From Coq Require Import NArith ZArith Arith List Bool Lia.
From Verif Require Import Base Syntax FactoryBasics BddSpec BddModel BddLink BddTable BddMake BddRep BddOps BddBuild.
Import ListNotations.
Local Open Scope res_scope.

(* ------------------------------------------------------------------------------------------------------------------ *)
(** * Cubes *)

Lemma cpath_ge : forall n t p, wft n t -> In p (cpath t) -> top n t <= fst p < n.
Proof.
  intros n t p. induction t as [ | | l a IHa b IHb]; intros W H; try destruct H. cbn [wft] in W. destruct W as (Hl & Ta & Tb & Hne & Wa & Wb).
  cbn [cpath top] in *. destruct a as [ | | la a1 a2].
  - destruct H as [<- | H]; [cbn; lia | ]. specialize (IHb Wb H). lia.
  - destruct H as [<- | H]; [cbn; lia | ]. specialize (IHa Wa H). lia.
  - destruct H as [<- | H]; [cbn; lia | ]. specialize (IHa Wa H). lia.
Qed.
Lemma hpath_ge : forall n t i, wft n t -> In i (hpath t) -> top n t <= i < n.
Proof.
  intros n t i. induction t as [ | | l a IHa b IHb]; intros W H; try destruct H; cbn [wft] in W; destruct W as (Hl & Ta & Tb & Hne & Wa & Wb); cbn [top].
  - lia.
  - specialize (IHb Wb H). lia.
Qed.

Definition cube (L : list (nat * bool)) (w : nat -> bool) : bool := forallb (fun p => Bool.eqb (w (fst p)) (snd p)) L.
Definition consistent (L : list (nat * bool)) : Prop := forall p q, In p L -> In q L -> fst p = fst q -> snd p = snd q.

Lemma cube_true : forall L w, cube L w = true <-> forall p, In p L -> w (fst p) = snd p.
Proof.
  intros L w. unfold cube. rewrite forallb_forall. split; intros H p Hp; specialize (H p Hp).
  - apply eqb_prop. auto.
  - rewrite H. apply eqb_reflx.
Qed.
Lemma cube_false : forall L w p, In p L -> w (fst p) <> snd p -> cube L w = false.
Proof.
  intros L w p Hp H. destruct (cube L w) eqn:E; auto. apply cube_true with (p := p) in E; auto. congruence.
Qed.
Lemma ovr_sat : forall L w, consistent L -> cube L (ovr w L) = true.
Proof.
  intros L w C. apply cube_true. intros p Hp. unfold ovr. destruct (find (fun p0 => fst p0 =? fst p) L) as [q | ] eqn:E.
  - apply find_some in E. destruct E as (Hq & E). apply Nat.eqb_eq in E. apply C; auto.
  - eapply find_none in E; eauto. rewrite Nat.eqb_refl in E. discriminate.
Qed.

Definition dropl (l : nat) (L : list (nat * bool)) : list (nat * bool) := filter (fun p => negb (fst p =? l)) L.
Lemma dropl_in : forall l L p, In p (dropl l L) <-> In p L /\ fst p <> l.
Proof.
  intros l L p. unfold dropl. rewrite filter_In. destruct (Nat.eqb_spec (fst p) l); cbn [negb]; split; intros (A & B); split; auto; try discriminate; congruence.
Qed.
Lemma cube_dropl : forall L l w b, (forall q, In q L -> fst q = l -> snd q = b) -> cube L (upw w l b) = cube (dropl l L) (upw w l b).
Proof.
  intros L l w b H. apply eq_true_iff_eq. rewrite !cube_true. split; intros G p Hp.
  - apply dropl_in in Hp. apply G. apply Hp.
  - destruct (Nat.eq_dec (fst p) l) as [E | E].
    + rewrite E, upw_same. symmetry. auto.
    + apply G. apply dropl_in. auto.
Qed.
Lemma cube_upw : forall L l w b, cube (dropl l L) (upw w l b) = cube (dropl l L) w.
Proof.
  intros L l w b. apply eq_true_iff_eq. rewrite !cube_true. split; intros G p Hp; specialize (G p Hp); apply dropl_in in Hp; destruct Hp as (_ & Hp);
    unfold upw in *; destruct (Nat.eqb_spec (fst p) l); congruence.
Qed.

(** The literals on the path of a cube are its literals. *)
Lemma cube_cpath : forall n t L, wft n t -> consistent L -> (forall w, teval t w = cube L w) -> forall p, In p (cpath t) <-> In p L.
Proof.
  intros n t. induction t as [ | | l a IHa b IHb]; intros L W C H.
  - specialize (H (ovr (fun _ => true) L)). rewrite ovr_sat in H by auto. discriminate.
  - assert (E : L = []).
    { destruct L as [ | p L]; auto. specialize (H (fun _ => negb (snd p))). rewrite (cube_false _ _ p) in H; [discriminate | left; auto | destruct (snd p); discriminate]. }
    subst L. cbn. tauto.
  - cbn [wft] in W. destruct W as (Hl & Ta & Tb & Hne & Wa & Wb).
    assert (Ha : forall w, teval a w = cube L (upw w l false)).
    { intros w. rewrite <- H. cbn [teval]. rewrite upw_same. symmetry. apply (teval_upw_below n); auto. }
    assert (Hb : forall w, teval b w = cube L (upw w l true)).
    { intros w. rewrite <- H. cbn [teval]. rewrite upw_same. symmetry. apply (teval_upw_below n); auto. }
    assert (Cd : consistent (dropl l L)).
    { intros p q Hp Hq. apply dropl_in in Hp. apply dropl_in in Hq. apply C; [apply Hp | apply Hq]. }
    destruct (in_dec (fun x y : nat => Nat.eq_dec x y) l (map fst L)) as [I | I].
    + apply in_map_iff in I. destruct I as ([l0 s] & E0 & I). cbn [fst] in E0. subst l0.
      assert (U : forall q, In q L -> fst q = l -> snd q = s) by (intros q Hq Eq; apply (C q (l, s)); auto).
      assert (F : forall w, cube L (upw w l (negb s)) = false).
      { intros w. apply (cube_false _ _ (l, s)); auto. cbn [fst snd]. rewrite upw_same. destruct s; discriminate. }
      assert (T : forall w, cube L (upw w l s) = cube (dropl l L) w).
      { intros w. rewrite cube_dropl by auto. apply cube_upw. }
      assert (Split : forall p, In p L <-> p = (l, s) \/ In p (dropl l L)).
      { intros p. rewrite dropl_in. split.
        - intros Hp. destruct (Nat.eq_dec (fst p) l) as [E | E]; [left | right; auto]. destruct p as [i q]. cbn [fst] in E. subst i.
          rewrite <- (U (l, q) Hp eq_refl). reflexivity.
        - intros [-> | (G & _)]; auto. }
      destruct s; cbn [negb] in F.
      * assert (Ea : a = BF) by (apply (canon n); [auto | exact Logic.I | intros w; rewrite Ha, F; reflexivity]). subst a.
        cbn [cpath]. assert (J := IHb (dropl l L) Wb Cd ltac:(intros w; rewrite Hb, T; auto)).
        intros p. rewrite Split, <- J. cbn [In]. intuition auto.
      * assert (Eb : b = BF) by (apply (canon n); [auto | exact Logic.I | intros w; rewrite Hb, F; reflexivity]). subst b.
        assert (J := IHa (dropl l L) Wa Cd ltac:(intros w; rewrite Ha, T; auto)).
        intros p. rewrite Split, <- J. destruct a as [ | | la a1 a2]; [congruence | | ]; cbn [cpath In]; intuition auto.
    + exfalso. apply Hne. apply (canon n); auto. intros w. rewrite Ha, Hb.
      assert (N : forall c q, In q L -> fst q = l -> snd q = c) by (intros c q Hq Eq; exfalso; apply I; subst l; apply in_map; auto).
      rewrite (cube_dropl L l w false (N false)), (cube_dropl L l w true (N true)), !cube_upw. auto.
Qed.

Lemma cube_hpath : forall t, (forall p, In p (cpath t) -> snd p = true) -> hpath t = map fst (cpath t).
Proof.
  induction t as [ | | l a IHa b IHb]; intros H; auto. destruct a as [ | | la a1 a2].
  - cbn [hpath cpath map fst] in *. rewrite IHb; [reflexivity | ]. intros p Hp. apply H. right. exact Hp.
  - cbn [cpath] in H. specialize (H (l, false) (or_introl eq_refl)). discriminate.
  - assert (E : cpath (BN l (BN la a1 a2) b) = (l, false) :: cpath (BN la a1 a2)) by reflexivity.
    rewrite E in H. specialize (H (l, false) (or_introl eq_refl)). discriminate.
Qed.

Lemma find_consistent : forall L i p, consistent L -> In p L -> fst p = i -> exists q, find (fun p => fst p =? i) L = Some q /\ snd q = snd p /\ fst q = i.
Proof.
  intros L i p C Hp E. destruct (find (fun p => fst p =? i) L) as [q | ] eqn:F.
  - apply find_some in F. destruct F as (Hq & F). apply Nat.eqb_eq in F. exists q. split; [auto | ]. split; [ | auto]. apply C; auto. congruence.
  - eapply find_none in F; eauto. apply Nat.eqb_neq in F. congruence.
Qed.
Lemma cpath_consistent : forall n t, wft n t -> consistent (cpath t).
Proof.
  intros n t. induction t as [ | | l a IHa b IHb]; intros W p q Hp Hq; try (destruct Hp; fail).
  cbn [wft] in W. destruct W as (Hl & Ta & Tb & Hne & Wa & Wb).
  destruct a as [ | | la a1 a2].
  - cbn [cpath] in Hp, Hq. destruct Hp as [<- | Hp], Hq as [<- | Hq]; cbn [fst snd]; auto.
    + intros E. pose proof (cpath_ge n b q Wb Hq). lia.
    + intros E. pose proof (cpath_ge n b p Wb Hp). lia.
    + apply IHb; auto.
  - cbn [cpath] in Hp, Hq. destruct Hp as [<- | []], Hq as [<- | []]. auto.
  - set (a := BN la a1 a2) in *. change (cpath (BN l a b)) with ((l, false) :: cpath a) in Hp, Hq.
    destruct Hp as [<- | Hp], Hq as [<- | Hq]; cbn [fst snd]; auto.
    + intros E. pose proof (cpath_ge n a q Wa Hq). lia.
    + intros E. pose proof (cpath_ge n a p Wa Hp). lia.
    + apply IHa; auto.
Qed.

(* ------------------------------------------------------------------------------------------------------------------ *)
(** * Marking the variables *)

Definition fresh_q (k : kernel) : Prop :=
  (0 < k_qid k <= 2147483647)%N /\ Forall (fun q => Z.to_N (Z.abs q) < k_qid k)%N (k_qset k).

Lemma as_i32_small : forall n, (n <= 2147483647)%N -> as_i32 n = Z.of_N n.
Proof. intros n H. unfold as_i32. assert (G : (n <? 2147483648)%N = true) by (apply N.ltb_lt; lia). rewrite G. auto. Qed.

Lemma kinv_qset : forall k qs i last, kinv k -> length qs = k_varnum k -> kinv (s_qset qs i last k).
Proof. intros k qs i last [ ] H. constructor; auto. Qed.

Lemma next_qid_ok : forall lim k own, api k own -> (k_qid k < 2147483647)%N -> (lim = 2147483647 \/ lim = 4294967295)%N ->
  exists qs i, next_qid lim k = Ok (s_qset qs i (k_qlast k) k) /\ fresh_q (s_qset qs i (k_qlast k) k) /\ length qs = k_varnum k /\ (i <= k_qid k + 1)%N.
Proof.
  intros lim k own A H Hl. unfold next_qid. destruct (a_q _ _ A) as (Q1 & Q2).
  assert (G : (4294967295 <? k_qid k + 1)%N = false) by (apply N.ltb_ge; lia). rewrite G.
  assert (D1 : fresh_q (s_qset (k_qset k) (k_qid k + 1) (k_qlast k) k)).
  { split; cbn [s_qset k_qid k_qset]; [lia | ]. eapply Forall_impl; [ | exact Q1]. intros q Hq. cbv beta in Hq. lia. }
  assert (D2 : fresh_q (s_qset (repeat 0%Z (k_varnum k)) 1 (k_qlast k) k)).
  { split; cbn [s_qset k_qid k_qset]; [lia | ]. apply Forall_forall. intros q Hq. apply repeat_spec in Hq. subst. cbn. lia. }
  destruct (N.eqb_spec (k_qid k + 1) lim) as [E | E].
  - exists (repeat 0%Z (k_varnum k)), 1%N. split; [auto | ]. split; [auto | ]. split; [apply repeat_length | lia].
  - exists (k_qset k), (k_qid k + 1)%N. split; [auto | ]. split; [auto | ]. split; [apply (i_qset _ (a_inv _ _ A)) | lia].
Qed.

Lemma wr_low0 : forall k n a, wr k n a -> (n =? 0) = match a with BF => true | _ => false end.
Proof.
  intros k n a W. destruct (Nat.eqb_spec n 0) as [-> | H].
  - rewrite (wr_lt2 _ _ _ W) by lia. auto.
  - destruct (le_lt_dec 2 n) as [G | G].
    + destruct (wr_ge2 _ _ _ W G) as (l & x & y & ->). auto.
    + rewrite (wr_lt2 _ _ _ W G). destruct (Nat.eqb_spec n 0); [lia | auto].
Qed.
Lemma cpath_step : forall l a b, cpath (BN l a b) = match a with BF => (l, true) :: cpath b | _ => (l, false) :: cpath a end.
Proof. intros l a b. destruct a; reflexivity. Qed.

Lemma svartable_ok : forall fuel k n t, kinv k -> wr k n t -> k_varnum k - top (k_varnum k) t < fuel ->
  exists qs last, svartable_loop fuel k n = Ok (s_qset qs (k_qid k) last k) /\ length qs = k_varnum k /\
    (forall i, nth i qs 0%Z = match find (fun p => fst p =? i) (cpath t) with
                              | Some p => if snd p then as_i32 (k_qid k) else (- as_i32 (k_qid k))%Z
                              | None => nth i (k_qset k) 0%Z end) /\
    last = if n <? 2 then k_qlast k else k_varnum k.
Proof.
  induction fuel as [ | fuel IH]; intros k n t K W Hf; [lia | ]. cbn [svartable_loop].
  destruct (Nat.ltb_spec n 2) as [H2 | H2].
  { exists (k_qset k), (k_qlast k). split; [destruct k; reflexivity | ]. split; [apply (i_qset _ K) | ]. split; [ | auto].
    intros i. rewrite (wr_lt2 _ _ _ W H2). destruct (n =? 0); reflexivity. }
  destruct (wr_ge2 _ _ _ W H2) as (l & a & b & ->). rewrite (level_wr k n _ K W). cbn [rbind top].
  destruct (node_wr _ _ _ _ _ W) as (_ & Hl & Ta & Tb & Hne & lo & hi & El & Eh & Wa & Wb & _). rewrite El, Eh. cbn [rbind].
  rewrite putn_ok by (rewrite (i_qset _ K); auto). cbn [rbind]. cbn [top] in Hf.
  rewrite (wr_low0 _ _ _ Wa). set (c := match a with BF => true | _ => false end).
  set (n' := if c then hi else lo). set (t' := if c then b else a).
  assert (Wt : wr k n' t') by (unfold n', t'; destruct c; auto).
  assert (Tt : l < top (k_varnum k) t') by (unfold t'; destruct c; auto).
  assert (Cp : cpath (BN l a b) = (l, c) :: cpath t') by (rewrite cpath_step; unfold t', c; destruct a; auto).
  rewrite (level_wr k n' t' K Wt). cbn [rbind].
  set (qs1 := updn l (fun _ => if c then as_i32 (k_qid k) else (- as_i32 (k_qid k))%Z) (k_qset k)).
  assert (Lq : length qs1 = k_varnum k) by (unfold qs1; rewrite updn_length; apply (i_qset _ K)).
  set (k1 := s_qset qs1 (k_qid k) (top (k_varnum k) t') k).
  destruct (IH k1 n' t') as (qs & last & E & L & N & La).
  - apply kinv_qset; auto.
  - exact Wt.
  - cbn [k1 s_qset k_varnum]. lia.
  - exists qs, last. cbn [k1 s_qset k_qid k_varnum k_qset k_qlast] in *. split; [rewrite E; reflexivity | ]. split; [auto | ]. split.
    + intros i. rewrite N, Cp. cbn [find fst]. unfold qs1. rewrite nth_updn, (i_qset _ K). apply Nat.ltb_lt in Hl. rewrite Hl, andb_true_r. destruct (Nat.eqb_spec l i) as [<- | Hi].
      * rewrite find_fst_none.
        { rewrite Nat.eqb_refl. cbn [snd]. auto. }
        intros p Hp. pose proof (cpath_ge (k_varnum k) t' p (proj2 Wt) Hp). lia.
      * destruct (find _ _); auto. assert (G : (i =? l) = false) by (apply Nat.eqb_neq; auto). rewrite G. auto.
    + rewrite La. destruct (Nat.ltb_spec n' 2) as [G | G]; auto. rewrite (wr_lt2 _ _ _ Wt G). destruct (n' =? 0); auto.
Qed.

Lemma vartable_ok : forall fuel k n t, kinv k -> wr k n t -> k_varnum k - top (k_varnum k) t < fuel ->
  exists qs last, vartable_loop fuel k n = Ok (s_qset qs (k_qid k) last k) /\ length qs = k_varnum k /\
    (forall i, nth i qs 0%Z = if in_dec Nat.eq_dec i (hpath t) then as_i32 (k_qid k) else nth i (k_qset k) 0%Z) /\
    (forall i, In i (hpath t) -> i <= last) /\ (forall m, m <= k_qlast k -> m <= top (k_varnum k) t -> m <= last).
Proof.
  induction fuel as [ | fuel IH]; intros k n t K W Hf; [lia | ]. cbn [vartable_loop].
  destruct (Nat.ltb_spec n 2) as [H2 | H2].
  { exists (k_qset k), (k_qlast k). split; [destruct k; reflexivity | ]. split; [apply (i_qset _ K) | ].
    rewrite (wr_lt2 _ _ _ W H2). split; [ | split; [ | auto]].
    - intros i. destruct (n =? 0); reflexivity.
    - intros i H. destruct (n =? 0); destruct H. }
  destruct (wr_ge2 _ _ _ W H2) as (l & a & b & ->). rewrite (level_wr k n _ K W). cbn [rbind top].
  destruct (node_wr _ _ _ _ _ W) as (_ & Hl & Ta & Tb & Hne & lo & hi & El & Eh & Wa & Wb & _).
  rewrite putn_ok by (rewrite (i_qset _ K); auto). cbn [rbind]. rewrite Eh. cbn [rbind]. cbn [top] in Hf.
  set (qs1 := updn l (fun _ => as_i32 (k_qid k)) (k_qset k)).
  assert (Lq : length qs1 = k_varnum k) by (unfold qs1; rewrite updn_length; apply (i_qset _ K)).
  set (k1 := s_qset qs1 (k_qid k) l k).
  destruct (IH k1 hi b) as (qs & last & E & L & N & La & Lb).
  - apply kinv_qset; auto.
  - exact Wb.
  - cbn [k1 s_qset k_varnum]. lia.
  - exists qs, last. cbn [k1 s_qset k_qid k_varnum k_qset k_qlast] in *. split; [rewrite E; reflexivity | ]. split; [auto | ].
    assert (Ll : l <= last) by (apply Lb; lia). split; [ | split].
    + intros i. rewrite N. cbn [hpath]. unfold qs1. rewrite nth_updn, (i_qset _ K). apply Nat.ltb_lt in Hl. rewrite Hl, andb_true_r.
      destruct (in_dec Nat.eq_dec i (hpath b)) as [G | G], (in_dec Nat.eq_dec i (l :: hpath b)) as [G' | G']; auto.
      * exfalso. apply G'. right. auto.
      * destruct G' as [-> | G']; [ | contradiction]. rewrite Nat.eqb_refl. auto.
      * destruct (Nat.eqb_spec i l) as [-> | Hi]; auto. exfalso. apply G'. left. auto.
    + intros i [<- | Hi]; auto.
    + intros m _ Hm. lia.
Qed.

Lemma nth_bound : forall (P : Z -> Prop) l i, Forall P l -> i < length l -> P (nth i l 0%Z).
Proof. intros P l i H L. rewrite Forall_forall in H. apply H. apply nth_In. auto. Qed.

(** What a quantification does to the rest of the kernel. *)
Record extq (own : list nat) (k k' : kernel) : Prop := mkExtq {
  q_names : exists l, k_names k' = k_names k ++ l;
  q_varnum : k_varnum k' = k_varnum k;
  q_qid : (k_qid k' <= k_qid k + 1)%N;
  q_wr : forall n t, In n own -> wr k n t -> wr k' n t }.
Lemma ext_extq : forall own k k', ext own k k' -> extq own k k'.
Proof. intros own k k' [A B C D]. constructor; auto. rewrite C. lia. Qed.
Lemma extq_trans : forall own k k1 k2, ext own k k1 -> extq own k1 k2 -> extq own k k2.
Proof.
  intros own k k1 k2 [(l1 & A) B C D] [(l2 & A') B' C' D']. constructor; try congruence.
  - exists (l1 ++ l2). rewrite A', A, app_assoc. auto.
  - intros n t Hn W. auto.
Qed.

Lemma q_done : forall k own qs i last k', api k own -> length qs = k_varnum k -> (i <= k_qid k + 1)%N -> (i <= 2147483647)%N ->
  Forall (fun q => Z.to_N (Z.abs q) <= i)%N qs -> good (s_qset qs i last k) k' -> api k' own /\ extq own k k' /\ k_names k' = k_names k.
Proof.
  intros k own qs i last k' A L Hi Hm F G. set (k1 := s_qset qs i last k) in *.
  assert (A1 : api k1 own).
  { pose proof A as [K V Ln O Q]. constructor; auto. apply kinv_qset; auto. }
  split; [eapply good_api; eauto | ]. destruct (good_ext _ _ _ A1 G) as [E1 E2 E3 E4].
  split; [constructor; auto | apply (g_fr _ _ G)]. rewrite E3. auto.
Qed.

Lemma nth_getn : forall (l : list Z) i, i < length l -> getn l i = Ok (nth i l 0%Z).
Proof. intros. apply getn_ok. auto. Qed.

Theorem restrict_api : forall k own r v tr tv, api k own -> In r own -> In v own -> wr k r tr -> wr k v tv -> (k_qid k < 2147483647)%N ->
  exists k' x t, brestrict k r v = Ok (k', x) /\ api k' own /\ extq own k k' /\ k_names k' = k_names k /\ wr k' x t /\ is_restrict t tr (cpath tv).
Proof.
  intros k own r v tr tv A Ir Iv Wr Wv Hq. unfold brestrict. destruct (Nat.ltb_spec v 2) as [H2 | H2].
  { exists k, r, tr. split; [auto | ]. split; [auto | ]. split; [apply ext_extq, ext_refl | ]. split; [auto | ]. split; [auto | ].
    rewrite (wr_lt2 _ _ _ Wv H2). intros w. destruct (v =? 0); reflexivity. }
  unfold varset2svartable. assert (G2 : (v <? 2) = false) by (apply Nat.ltb_ge; auto). rewrite G2.
  destruct (next_qid_ok 2147483647 k own A Hq (or_introl eq_refl)) as (qs0 & i & E0 & (F1 & F2) & L0 & Hi). rewrite E0. cbn [rbind].
  set (k0 := s_qset qs0 i (k_qlast k) k) in *. pose proof (a_inv _ _ A) as K. assert (K0 : kinv k0) by (apply kinv_qset; auto).
  destruct (svartable_ok (S (k_varnum k)) k0 v tv K0 Wv) as (qs & last & E1 & L1 & N1 & La); [cbn [k0 s_qset k_varnum]; lia | ].
  rewrite E1. cbn [rbind]. rewrite G2 in La.
  assert (Eq : s_qset qs (k_qid k0) last k0 = s_qset qs i last k) by reflexivity. rewrite Eq. clear Eq E1.
  cbn [k0 s_qset k_qid k_qset k_varnum] in *. rewrite as_i32_small in N1 by lia.
  set (k1 := s_qset qs i last k) in *. assert (K1 : kinv k1) by (apply kinv_qset; auto).
  assert (St : stab k1 (cpath tv)).
  { split.
    - intros j Hj. cbn [k1 s_qset k_qset k_varnum k_qid] in *. exists (nth j qs 0%Z). split; [apply nth_getn; lia | ]. rewrite N1.
      destruct (find _ _) as [p | ].
      + destruct (snd p); split; try lia.
      + pose proof (nth_bound _ _ j F2 ltac:(lia)) as G. cbv beta in G. lia.
    - intros p Hp. cbn [k1 s_qset k_qlast]. pose proof (cpath_ge _ _ _ (proj2 Wv) Hp). lia. }
  destruct (restrict_rec_spec v tv (S (k_varnum k)) k1 r tr K1) as (k' & x & t & E & G & W & R); auto.
  - exact (a_stv _ _ A).
  - exact (own_prot _ _ _ A Iv _).
  - exact (own_prot _ _ _ A Ir _).
  - cbn [k1 s_qset k_varnum]. lia.
  - rewrite (i_cap _ K1). cbn [k1 s_qset k_varnum k_stack]. pose proof (a_len _ _ A). lia.
  - exists k', x, t. split; [auto | ].
    destruct (q_done k own qs i last k' A L1 Hi ltac:(lia)) as (A' & X' & N'); auto.
    apply Forall_forall. intros q Hq'. apply (In_nth _ _ 0%Z) in Hq'. destruct Hq' as (j & Hj & <-). rewrite N1.
    destruct (find _ _) as [p | ]; [destruct (snd p); lia | ]. pose proof (nth_bound _ _ j F2 ltac:(lia)) as Gq. cbv beta in Gq. lia.
Qed.

Definition bquant (o : bop) (k : kernel) (r v : nat) : res (kernel * nat) :=
  if v <? 2 then Ok (k, r) else do k1 <- varset2vartable k v; quant_rec (S (k_varnum k)) o (qcode o v) k1 r.
Lemma bexists_bquant : forall k r v, bexists k r v = bquant OpOr k r v.
Proof. reflexivity. Qed.
Lemma bforall_bquant : forall k r v, bforall k r v = bquant OpAnd k r v.
Proof. reflexivity. Qed.

Theorem quant_api : forall o k own r v tr tv, (o = OpOr \/ o = OpAnd) -> api k own -> In r own -> In v own -> wr k r tr -> wr k v tv ->
  (k_qid k < 2147483647)%N ->
  exists k' x t, bquant o k r v = Ok (k', x) /\ api k' own /\ extq own k k' /\ k_names k' = k_names k /\ wr k' x t /\ is_quant o t tr (hpath tv).
Proof.
  intros o k own r v tr tv Ho A Ir Iv Wr Wv Hq. unfold bquant. destruct (Nat.ltb_spec v 2) as [H2 | H2].
  { exists k, r, tr. split; [auto | ]. split; [auto | ]. split; [apply ext_extq, ext_refl | ]. split; [auto | ]. split; [auto | ].
    rewrite (wr_lt2 _ _ _ Wv H2). assert (Eh : hpath (if v =? 0 then BF else BT) = []) by (destruct (v =? 0); auto). rewrite Eh.
    apply (quant_none o (k_varnum k)); auto; [apply Wr | intros i []]. }
  unfold varset2vartable. assert (G2 : (v <? 2) = false) by (apply Nat.ltb_ge; auto). rewrite G2.
  destruct (next_qid_ok 4294967295 k own A Hq (or_intror eq_refl)) as (qs0 & i & E0 & (F1 & F2) & L0 & Hi). rewrite E0. cbn [rbind].
  set (k0 := s_qset qs0 i (k_qlast k) k) in *. pose proof (a_inv _ _ A) as K. assert (K0 : kinv k0) by (apply kinv_qset; auto).
  destruct (vartable_ok (S (k_varnum k)) k0 v tv K0 Wv) as (qs & last & E1 & L1 & N1 & La & _); [cbn [k0 s_qset k_varnum]; lia | ].
  rewrite E1. cbn [rbind].
  assert (Eq : s_qset qs (k_qid k0) last k0 = s_qset qs i last k) by reflexivity. rewrite Eq. clear Eq E1.
  cbn [k0 s_qset k_qid k_qset k_varnum] in *. rewrite as_i32_small in N1 by lia.
  set (k1 := s_qset qs i last k) in *. assert (K1 : kinv k1) by (apply kinv_qset; auto).
  assert (St : vtab k1 (hpath tv)).
  { split.
    - intros j Hj. unfold invarset. cbn [k1 s_qset k_qset k_varnum k_qid] in *. rewrite nth_getn by lia. cbn [rbind]. eexists. split; [reflexivity | ].
      rewrite as_i32_small by lia. rewrite Z.eqb_eq, N1. destruct (in_dec _ _ _) as [G | G]; [tauto | ].
      pose proof (nth_bound _ _ j F2 ltac:(lia)) as G'. cbv beta in G'. split; [lia | contradiction].
    - exact La. }
  destruct (quant_rec_spec o v tv Ho (S (k_varnum k)) k1 r tr K1) as (k' & x & t & E & G & W & R); auto.
  - exact (a_stv _ _ A).
  - exact (own_prot _ _ _ A Iv _).
  - exact (own_prot _ _ _ A Ir _).
  - cbn [k1 s_qset k_varnum]. lia.
  - rewrite (i_cap _ K1). cbn [k1 s_qset k_varnum k_stack]. pose proof (a_len _ _ A). lia.
  - exists k', x, t. split; [auto | ].
    destruct (q_done k own qs i last k' A L1 Hi ltac:(lia)) as (A' & X' & N'); auto.
    apply Forall_forall. intros q Hq'. apply (In_nth _ _ 0%Z) in Hq'. destruct Hq' as (j & Hj & <-). rewrite N1.
    destruct (in_dec _ _ _); [lia | ]. pose proof (nth_bound _ _ j F2 ltac:(lia)) as Gq. cbv beta in Gq. lia.
Qed.
