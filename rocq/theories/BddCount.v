(** Counting models and paths; the paths of a BDD; formulas and normal forms read off a BDD. *)
From Coq Require Import NArith ZArith Arith List Bool Lia.
From Verif Require Import Base Syntax FactoryBasics BddSpec BddModel BddLink BddTable BddMake BddRep BddOps BddBuild BddQuant BddDen.
Import ListNotations.
Local Open Scope res_scope.

(* ------------------------------------------------------------------------------------------------------------------ *)
(** * Counting assignments *)

(** All sequences of [n] truth values. *)
Fixpoint bools (n : nat) : list (list bool) :=
  match n with O => [[]] | S n => map (cons false) (bools n) ++ map (cons true) (bools n) end.
Definition seqw (m : nat) (bs : list bool) (i : nat) : bool := nth (i - m) bs false.
Definition countb (P : list bool -> bool) (l : list (list bool)) : N := N.of_nat (length (filter P l)).

Lemma filter_map : forall A B (f : A -> B) (P : B -> bool) l, length (filter P (map f l)) = length (filter (fun x => P (f x)) l).
Proof. intros A B f P l. induction l as [ | x l IH]; cbn [map filter]; auto. destruct (P (f x)); cbn [length]; auto. Qed.
Lemma filter_len_ext : forall A (P Q : A -> bool) l, (forall x, P x = Q x) -> length (filter P l) = length (filter Q l).
Proof. intros A P Q l H. induction l as [ | x l IH]; cbn [filter]; auto. rewrite H. destruct (Q x); cbn [length]; auto. Qed.
Lemma filter_app_len : forall A (P : A -> bool) l l', length (filter P (l ++ l')) = length (filter P l) + length (filter P l').
Proof. intros A P l l'. rewrite filter_app, app_length. auto. Qed.

Lemma countb_bools : forall P n, countb P (bools (S n)) = (countb (fun bs => P (false :: bs)) (bools n) + countb (fun bs => P (true :: bs)) (bools n))%N.
Proof. intros P n. unfold countb. cbn [bools]. rewrite filter_app_len, !filter_map. lia. Qed.
Lemma countb_ext : forall P Q l, (forall bs, P bs = Q bs) -> countb P l = countb Q l.
Proof. intros P Q l H. unfold countb. rewrite (filter_len_ext _ P Q); auto. Qed.

Lemma tcount_spec : forall n c m t, m + c = n -> wft n t -> m <= top n t ->
  countb (fun bs => teval t (seqw m bs)) (bools c) = (2 ^ N.of_nat (top n t - m) * tcount n t)%N.
Proof.
  intros n. induction c as [ | c IH]; intros m t E W H.
  - destruct t as [ | | l a b]; cbn [bools countb filter teval top tcount].
    + rewrite N.mul_0_r. reflexivity.
    + assert (G : n - m = 0) by lia. rewrite G. reflexivity.
    + cbn [wft] in W. cbn [top] in H. lia.
  - rewrite countb_bools. destruct (Nat.eq_dec (top n t) m) as [Et | Et].
    + destruct t as [ | | l a b]; cbn [top] in Et; [lia | lia | ]. subst l. cbn [wft] in W. destruct W as (Hl & Ta & Tb & _ & Wa & Wb).
      assert (Sh : forall u x bs, wft n u -> m < top n u -> teval u (seqw m (x :: bs)) = teval u (seqw (S m) bs)).
      { intros u x bs Wu Hu. apply (teval_from n); auto. intros i Hi _. unfold seqw. replace (i - m) with (S (i - S m)) by lia. auto. }
      assert (Q1 : countb (fun bs => teval (BN m a b) (seqw m (false :: bs))) (bools c) = countb (fun bs => teval a (seqw (S m) bs)) (bools c)).
      { apply countb_ext. intros bs. cbn [teval]. unfold seqw at 1. rewrite Nat.sub_diag. cbn [nth]. apply Sh; auto. }
      assert (Q2 : countb (fun bs => teval (BN m a b) (seqw m (true :: bs))) (bools c) = countb (fun bs => teval b (seqw (S m) bs)) (bools c)).
      { apply countb_ext. intros bs. cbn [teval]. unfold seqw at 1. rewrite Nat.sub_diag. cbn [nth]. apply Sh; auto. }
      rewrite Q1, Q2, !IH by (auto; lia). cbn [top tcount]. rewrite Nat.sub_diag. cbn [N.of_nat]. rewrite N.pow_0_r, N.mul_1_l.
      replace (top n a - S m) with (top n a - m - 1) by lia. replace (top n b - S m) with (top n b - m - 1) by lia. reflexivity.
    + assert (G : forall x, countb (fun bs => teval t (seqw m (x :: bs))) (bools c) = (2 ^ N.of_nat (top n t - S m) * tcount n t)%N).
      { intros x. rewrite <- IH by (auto; lia). apply countb_ext. intros bs. apply (teval_from n); auto. intros i Hi _.
        unfold seqw. replace (i - m) with (S (i - S m)) by lia. auto. }
      rewrite !G. replace (top n t - m) with (S (top n t - S m)) by lia. rewrite Nat2N.inj_succ, N.pow_succ_r'. lia.
Qed.

Lemma sat_count_rec_spec : forall fuel k r t, kinv k -> stv k -> wr k r t -> k_varnum k - top (k_varnum k) t < fuel ->
  exists k', sat_count_rec fuel k r = Ok (k', tcount (k_varnum k) t) /\ good k k' /\ (forall n u, wr k n u -> wr k' n u).
Proof.
  induction fuel as [ | fuel IH]; intros k r t K V W Hf; [lia | ]. cbn [sat_count_rec].
  destruct (Nat.ltb_spec r 2) as [H2 | H2].
  { exists k. split; [ | split; [apply good_refl; auto | auto]]. rewrite (wr_lt2 _ _ _ W H2). destruct r as [ | [ | r]]; [ | | lia]; reflexivity. }
  destruct (cget_ok (k_misc k) (N.of_nat r) ltac:(apply (i_clen _ K))) as (e & Ee & Ie). rewrite Ee. cbn [rbind].
  destruct (optnat_eqb (e_a e) r && (e_c e =? CACHEID_SATCOU)) eqn:Eh.
  { apply andb_true_iff in Eh. destruct Eh as (Eh1 & Eh3). apply optnat_eqb_true in Eh1. apply Nat.eqb_eq in Eh3.
    pose proof (i_caches _ K) as (_ & _ & C1). rewrite Forall_forall in C1. destruct (C1 e Ie r Eh1) as (_ & C2 & _).
    destruct (C2 Eh3) as (tr & D1 & D2). rewrite <- (wr_det _ _ _ _ D1 W), D2. exists k. split; [auto | ]. split; [apply good_refl; auto | auto]. }
  destruct (wr_ge2 _ _ _ W H2) as (l & a & b & ->). cbn [top] in Hf.
  destruct (node_wr _ _ _ _ _ W) as (_ & Hl & Ta & Tb & Hne & lo & hi & El & Eh' & Wa & Wb & _). rewrite El, Eh'. cbn [rbind].
  rewrite (level_wr _ _ _ K W), (level_wr _ _ _ K Wa), (level_wr _ _ _ K Wb). cbn [rbind top].
  destruct (Nat.leb_spec (top (k_varnum k) a) l); [lia | ]. destruct (Nat.leb_spec (top (k_varnum k) b) l); [lia | ]. cbn [orb].
  destruct (IH k lo a K V Wa ltac:(lia)) as (k1 & E1 & G1 & M1). rewrite E1. cbn [rbind].
  assert (V1 : k_varnum k1 = k_varnum k) by apply (g_fr _ _ G1).
  destruct (IH k1 hi b (g_inv _ _ G1) (g_stv _ _ G1) (M1 _ _ Wb) ltac:(rewrite V1; lia)) as (k2 & E2 & G2 & M2). rewrite E2. cbn [rbind]. rewrite V1.
  assert (V2 : k_varnum k2 = k_varnum k1) by apply (g_fr _ _ G2).
  set (size := (2 ^ N.of_nat (top (k_varnum k) a - l - 1) * tcount (k_varnum k) a + 2 ^ N.of_nat (top (k_varnum k) b - l - 1) * tcount (k_varnum k) b)%N).
  destruct (good_set_bdres k k2 (N.of_nat r) r 0 CACHEID_SATCOU size (good_trans _ _ _ G1 G2)) as (c' & E9 & G9).
  - intros rs r0 Er. cbn [e_a] in Er. injection Er as <-. cbn [e_c e_b e_res e_bdres]. split; [ | split; [ | split]].
    + intros var Hv Ec. exfalso. unfold CACHEID_SATCOU in Ec. lia.
    + intros _. exists (BN l a b). split; [auto | ]. rewrite V2, V1. reflexivity.
    + discriminate.
    + discriminate.
  - rewrite E9. cbn [rbind]. eexists. split; [reflexivity | ]. split; [exact G9 | ]. intros n u Hu. exact (M2 _ _ (M1 _ _ Hu)).
Qed.

Definition asg (names : list var) (bs : list bool) : valuation := fun x => match index_of x names with Some i => nth i bs false | None => false end.

Theorem sat_count_den : forall k own r f, api k own -> den k r f ->
  exists k', sat_count k r = Ok (k', countb (fun bs => f (asg (k_names k) bs)) (bools (k_varnum k))) /\ api k' own /\ ext own k k' /\
    k_names k' = k_names k /\ forall n g, den k n g -> den k' n g.
Proof.
  intros k own r f A (t & W & H). unfold sat_count. pose proof (a_inv _ _ A) as K. rewrite (level_wr _ _ _ K W). cbn [rbind].
  destruct (sat_count_rec_spec (S (k_varnum k)) k r t K (a_stv _ _ A) W ltac:(lia)) as (k' & E & G & M). rewrite E. cbn [rbind].
  exists k'. assert (Ek : k_names k' = k_names k) by apply (g_fr _ _ G). split; [ | split; [exact (good_api _ _ _ A G) | split; [exact (good_ext _ _ _ A G) | split; [auto | ]]]].
  - f_equal. f_equal. rewrite (countb_ext _ (fun bs => teval t (seqw 0 bs))).
    + rewrite (tcount_spec (k_varnum k)); [ | lia | apply W | lia]. rewrite Nat.sub_0_r. lia.
    + intros bs. symmetry. apply H. intros i x Ex. unfold asg, seqw. rewrite (index_of_nth _ _ _ (proj1 (i_names _ K)) Ex), Nat.sub_0_r. auto.
  - intros n g (u & U & Hu). exists u. split; [auto | ]. rewrite Ek. auto.
Qed.

(* ------------------------------------------------------------------------------------------------------------------ *)
(** * Paths *)

Fixpoint profs (n : nat) (goal : bool) (t : bdt) : list profile :=
  match t with
  | BF => if goal then [] else [[]]
  | BT => if goal then [[]] else []
  | BN l a b => map (fun q => Some false :: repeat None (top n a - l - 1) ++ q) (profs n goal a) ++
                map (fun q => Some true :: repeat None (top n b - l - 1) ++ q) (profs n goal b)
  end.

Lemma profs_len : forall n goal t q, wft n t -> In q (profs n goal t) -> length q = n - top n t.
Proof.
  intros n goal t. induction t as [ | | l a IHa b IHb]; intros q W H.
  - destruct goal; [destruct H | ]. destruct H as [<- | []]. cbn. lia.
  - destruct goal; [ | destruct H]. destruct H as [<- | []]. cbn. lia.
  - cbn [wft] in W. destruct W as (Hl & Ta & Tb & _ & Wa & Wb). pose proof (top_le n a Wa) as La. pose proof (top_le n b Wb) as Lb.
    cbn [profs] in H. apply in_app_or in H. cbn [top]. destruct H as [H | H]; apply in_map_iff in H; destruct H as (q' & <- & H);
      cbn [length]; rewrite app_length, repeat_length.
    + rewrite (IHa q' Wa H). lia.
    + rewrite (IHb q' Wb H). lia.
Qed.

Lemma dontcare_all : forall l (p : profile), (forall i, In i l -> i < length p) -> exists p', rfold dontcare p l = Ok p' /\ length p' = length p /\
  forall i, nth i p' (Some false) = if in_dec Nat.eq_dec i l then None else nth i p (Some false).
Proof.
  induction l as [ | x l IH]; intros p H; cbn [rfold].
  - exists p. split; [auto | ]. split; [auto | ]. intros i. reflexivity.
  - unfold dontcare at 1. rewrite putn_ok by (apply H; left; auto). cbn [rbind].
    destruct (IH (updn x (fun _ => None) p)) as (p' & E & L & N).
    { intros i Hi. rewrite updn_length. apply H. right. auto. }
    exists p'. split; [auto | ]. split; [rewrite L; apply updn_length | ]. intros i. rewrite N, nth_updn.
    assert (Hx : x <? length p = true) by (apply Nat.ltb_lt; apply H; left; auto). rewrite Hx, andb_true_r.
    destruct (in_dec Nat.eq_dec i l) as [G | G], (in_dec Nat.eq_dec i (x :: l)) as [G' | G']; auto.
    + exfalso. apply G'. right. auto.
    + destruct G' as [-> | G']; [ | contradiction]. rewrite Nat.eqb_refl. auto.
    + destruct (Nat.eqb_spec i x) as [-> | Hi]; auto. exfalso. apply G'. left. auto.
Qed.

Lemma gap_in : forall a b i, In i (gap a b) <-> a < i < b.
Proof. intros a b i. unfold gap. rewrite <- in_rev, in_seq. lia. Qed.

Lemma nth_ext_prof : forall (p q : profile), length p = length q -> (forall i, i < length p -> nth i p (Some false) = nth i q (Some false)) -> p = q.
Proof. intros p q L H. apply (nth_ext p q (Some false) (Some false)); auto. Qed.

Lemma nth_firstn : forall A (d : A) l m i, nth i (firstn m l) d = if i <? m then nth i l d else d.
Proof.
  intros A d l m. revert l. induction m as [ | m IH]; intros l i.
  - cbn [firstn]. destruct i; reflexivity.
  - destruct l as [ | x l]; cbn [firstn].
    + destruct (i <? S m); destruct i; reflexivity.
    + destruct i as [ | i]; [reflexivity | ]. cbn [nth]. rewrite IH. reflexivity.
Qed.

Lemma nth_rep : forall A (x d : A) c i, i < c -> nth i (repeat x c) d = x.
Proof. intros A x d c. induction c as [ | c IH]; intros [ | i] H; cbn [repeat nth]; auto; try lia. apply IH. lia. Qed.

(** The profile prepared for a child that starts at [m]. *)
Lemma prepared : forall (p0 p : profile) l m (x : bool), length p0 = length p -> l < m -> m <= length p ->
  (forall i, nth i p0 (Some false) = if in_dec Nat.eq_dec i (gap l m) then None else nth i (updn l (fun _ => Some x) p) (Some false)) ->
  firstn m p0 = firstn l p ++ Some x :: repeat None (m - l - 1).
Proof.
  intros p0 p l m x L H1 H2 N. apply nth_ext_prof.
  - rewrite app_length. cbn [length]. rewrite repeat_length, !firstn_length. lia.
  - intros i Hi. rewrite firstn_length in Hi. rewrite nth_firstn. assert (G : i <? m = true) by (apply Nat.ltb_lt; lia). rewrite G.
    rewrite N, nth_updn. assert (Gl : l <? length p = true) by (apply Nat.ltb_lt; lia). rewrite Gl, andb_true_r.
    destruct (lt_eq_lt_dec i l) as [[C | C] | C].
    + rewrite app_nth1 by (rewrite firstn_length; lia). rewrite nth_firstn. assert (G' : i <? l = true) by (apply Nat.ltb_lt; lia). rewrite G'.
      destruct (in_dec _ _ _) as [I | I]; [apply gap_in in I; lia | ]. destruct (Nat.eqb_spec i l); [lia | auto].
    + subst i. rewrite app_nth2 by (rewrite firstn_length; lia). rewrite firstn_length, Nat.min_l, Nat.sub_diag by lia. cbn [nth].
      destruct (in_dec _ _ _) as [I | I]; [apply gap_in in I; lia | ]. rewrite Nat.eqb_refl. auto.
    + rewrite app_nth2 by (rewrite firstn_length; lia). rewrite firstn_length, Nat.min_l by lia.
      replace (i - l) with (S (i - l - 1)) by lia. cbn [nth]. rewrite nth_rep by lia. destruct (in_dec _ _ _) as [I | I]; auto. exfalso. apply I. apply gap_in. lia.
Qed.

Lemma firstn_sub : forall A (p p' : list A) m m', firstn m p = firstn m p' -> m' <= m -> firstn m' p = firstn m' p'.
Proof. intros A p p' m m' E H. replace m' with (Nat.min m' m) by lia. rewrite <- !firstn_firstn, E. auto. Qed.

Lemma paths_child : forall fuel goal k l c tc (p : profile) (x : bool), kinv k -> wr k c tc -> length p = k_varnum k -> l < top (k_varnum k) tc ->
  (forall (p : profile), length p = k_varnum k -> exists p', paths_rec fuel goal k c p =
      Ok (map (fun q => firstn (top (k_varnum k) tc) p ++ q) (profs (k_varnum k) goal tc), p') /\
      length p' = k_varnum k /\ firstn (top (k_varnum k) tc) p' = firstn (top (k_varnum k) tc) p) ->
  exists p', (if c =? (if goal then 0 else 1) then Ok ([], p)
              else do p0 <- putn p l (fun _ => Some x); do ll <- level_of k c; do p1 <- rfold dontcare p0 (gap l ll); paths_rec fuel goal k c p1) =
      Ok (map (fun q => firstn l p ++ Some x :: repeat None (top (k_varnum k) tc - l - 1) ++ q) (profs (k_varnum k) goal tc), p') /\
      length p' = k_varnum k /\ firstn l p' = firstn l p.
Proof.
  intros fuel goal k l c tc p x K W L Hl IH. pose proof (top_le _ _ (proj2 W)) as Lt.
  destruct (Nat.eqb_spec c (if goal then 0 else 1)) as [E | E].
  - exists p. split; [ | auto]. rewrite (wr_lt2 _ _ _ W) by (destruct goal; lia). destruct goal; subst c; reflexivity.
  - rewrite putn_ok by lia. cbn [rbind]. rewrite (level_wr _ _ _ K W). cbn [rbind].
    destruct (dontcare_all (gap l (top (k_varnum k) tc)) (updn l (fun _ => Some x) p)) as (p1 & E1 & L1 & N1).
    { intros i Hi. apply gap_in in Hi. rewrite updn_length. lia. }
    rewrite E1. cbn [rbind]. rewrite updn_length in L1. destruct (IH p1 ltac:(lia)) as (p' & E2 & L2 & F2). rewrite E2.
    assert (P : firstn (top (k_varnum k) tc) p1 = firstn l p ++ Some x :: repeat None (top (k_varnum k) tc - l - 1)) by (apply prepared; auto; lia).
    exists p'. split; [ | split; auto].
    + f_equal. f_equal. apply map_ext. intros q. rewrite P, <- app_assoc. reflexivity.
    + rewrite (firstn_sub _ _ _ _ l F2) by lia. replace l with (Nat.min l (top (k_varnum k) tc)) by lia. rewrite <- firstn_firstn, P.
      rewrite firstn_app, firstn_length. replace (l - Init.Nat.min l (length p)) with 0 by lia. rewrite firstn_O, app_nil_r.
      rewrite firstn_firstn. f_equal. lia.
Qed.

Lemma paths_rec_spec : forall fuel goal k r t (p : profile), kinv k -> wr k r t -> k_varnum k - top (k_varnum k) t < fuel -> length p = k_varnum k ->
  exists p', paths_rec fuel goal k r p = Ok (map (fun q => firstn (top (k_varnum k) t) p ++ q) (profs (k_varnum k) goal t), p') /\
    length p' = k_varnum k /\ firstn (top (k_varnum k) t) p' = firstn (top (k_varnum k) t) p.
Proof.
  induction fuel as [ | fuel IH]; intros goal k r t p K W Hf L; [lia | ]. cbn [paths_rec].
  assert (Full : firstn (k_varnum k) p = p) by (apply firstn_all2; lia).
  destruct (le_lt_dec 2 r) as [H2 | H2].
  2: { rewrite (wr_lt2 _ _ _ W H2). destruct r as [ | [ | r]]; [ | | lia]; destruct goal; cbn [Nat.eqb profs map top]; exists p; rewrite ?Full, ?app_nil_r; auto. }
  destruct (Nat.eqb_spec r (if goal then 1 else 0)) as [E | _]; [destruct goal; lia | ].
  destruct (Nat.eqb_spec r (if goal then 0 else 1)) as [E | _]; [destruct goal; lia | ].
  destruct (wr_ge2 _ _ _ W H2) as (l & a & b & ->). cbn [top] in *.
  destruct (node_wr _ _ _ _ _ W) as (_ & Hl & Ta & Tb & Hne & lo & hi & El & Eh & Wa & Wb & _).
  rewrite (level_wr _ _ _ K W), El, Eh. cbn [rbind top].
  destruct (paths_child fuel goal k l lo a p false K Wa L Ta) as (p1 & E1 & L1 & F1).
  { intros q Hq. apply IH; auto. lia. }
  rewrite E1. cbn [rbind].
  destruct (paths_child fuel goal k l hi b p1 true K Wb L1 Tb) as (p2 & E2 & L2 & F2).
  { intros q Hq. apply IH; auto. lia. }
  rewrite E2. cbn [rbind]. exists p2. split; [ | split; [auto | congruence]].
  f_equal. f_equal. cbn [profs]. rewrite map_app, !map_map. rewrite F1. reflexivity.
Qed.

Lemma paths_spec : forall goal k own r t, api k own -> wr k r t ->
  paths goal k r = Ok (init_ref k, map (fun q => repeat None (top (k_varnum k) t) ++ q) (profs (k_varnum k) goal t)).
Proof.
  intros goal k own r t A W. unfold paths. pose proof (a_inv _ _ A) as K. rewrite (level_wr _ _ _ K W). cbn [rbind].
  pose proof (top_le _ _ (proj2 W)) as Lt. set (n := k_varnum k) in *.
  destruct (dontcare_all (rev (seq 0 (top n t))) (repeat (Some false) n)) as (p & E & L & N).
  { intros i Hi. rewrite <- in_rev, in_seq in Hi. rewrite repeat_length. lia. }
  rewrite E. cbn [rbind]. rewrite repeat_length in L.
  destruct (paths_rec_spec (S n) goal (init_ref k) r t p (a_inv _ _ (api_init _ _ A)) W) as (p' & E' & _); [cbn [init_ref s_stack k_varnum]; lia | auto | ].
  change (k_varnum (init_ref k)) with n in E'. rewrite E'. cbn [rbind]. f_equal. f_equal. apply map_ext. intros q. f_equal.
  apply nth_ext_prof; [rewrite firstn_length, repeat_length; lia | ]. intros i Hi. rewrite firstn_length in Hi.
  rewrite nth_firstn. assert (G : i <? top n t = true) by (apply Nat.ltb_lt; lia). rewrite G, N.
  rewrite !nth_rep by lia.
  destruct (in_dec _ _ _) as [I | I]; auto. exfalso. apply I. rewrite <- in_rev, in_seq. lia.
Qed.

(** The assignment [w] follows the profile, whose first entry is for variable [m]. *)
Fixpoint follows (m : nat) (p : profile) (w : nat -> bool) : bool :=
  match p with
  | [] => true
  | x :: p => match x with Some b => Bool.eqb (w m) b | None => true end && follows (S m) p w
  end.

Lemma follows_none : forall c m q w, follows m (repeat None c ++ q) w = follows (m + c) q w.
Proof.
  induction c as [ | c IH]; intros m q w; cbn [repeat app follows]; [rewrite Nat.add_0_r; auto | ]. rewrite IH. cbn [andb]. replace (S m + c) with (m + S c) by lia. auto.
Qed.

(** The paths to a leaf are a partition of the assignments evaluated to it. *)
Lemma profs_follow : forall n goal t w, wft n t ->
  length (filter (fun q => follows (top n t) q w) (profs n goal t)) = if Bool.eqb (teval t w) goal then 1 else 0.
Proof.
  intros n goal t w. induction t as [ | | l a IHa b IHb]; intros W.
  - destruct goal; reflexivity.
  - destruct goal; reflexivity.
  - cbn [wft] in W. destruct W as (Hl & Ta & Tb & _ & Wa & Wb). cbn [profs top]. rewrite filter_app_len, !filter_map.
    assert (G : forall x c q, l < c -> follows l (Some x :: repeat None (c - l - 1) ++ q) w = (if Bool.eqb (w l) x then follows c q w else false)).
    { intros x c q Hc. cbn [follows]. rewrite follows_none. replace (S l + (c - l - 1)) with c by lia. destruct (Bool.eqb (w l) x); auto. }
    rewrite (filter_len_ext _ _ (fun q => if Bool.eqb (w l) false then follows (top n a) q w else false)) by (intros q; apply G; auto).
    rewrite (filter_len_ext _ _ (fun q => if Bool.eqb (w l) true then follows (top n b) q w else false) (profs n goal b)) by (intros q; apply G; auto).
    assert (F0 : forall l0 : list profile, length (filter (fun _ => false) l0) = 0) by (induction l0; auto).
    cbn [teval]. destruct (w l); cbn [Bool.eqb]; rewrite F0.
    + rewrite (IHb Wb). auto.
    + rewrite (IHa Wa). lia.
Qed.

Theorem paths_den : forall goal k own r t, api k own -> wr k r t ->
  exists ps, paths goal k r = Ok (init_ref k, ps) /\ (forall p, In p ps -> length p = k_varnum k) /\
    (forall w, length (filter (fun p => follows 0 p w) ps) = if Bool.eqb (teval t w) goal then 1 else 0) /\
    length ps = N.to_nat (if goal then tpaths 1 0 t else tpaths 0 1 t).
Proof.
  intros goal k own r t A W. eexists. split; [eapply paths_spec; eauto | ]. pose proof (top_le _ _ (proj2 W)) as Lt. split; [ | split].
  - intros p Hp. apply in_map_iff in Hp. destruct Hp as (q & <- & Hq). rewrite app_length, repeat_length, (profs_len _ _ _ _ (proj2 W) Hq). lia.
  - intros w. rewrite filter_map. rewrite (filter_len_ext _ _ (fun q => follows (top (k_varnum k) t) q w)).
    + apply profs_follow. apply W.
    + intros q. rewrite follows_none. auto.
  - rewrite map_length. clear. induction t as [ | | l a IHa b IHb]; try (destruct goal; reflexivity).
    cbn [profs tpaths]. rewrite app_length, !map_length, IHa, IHb. destruct goal; lia.
Qed.

(** The path counters. *)
Lemma path_count_spec : forall fuel (one : bool) k r t, kinv k -> stv k -> wr k r t -> k_varnum k - top (k_varnum k) t < fuel ->
  exists k', path_count_rec fuel (if one then CACHEID_PATHCOU_ONE else CACHEID_PATHCOU_ZERO) (if one then 1 else 0)%N (if one then 0 else 1)%N k r =
    Ok (k', tpaths (if one then 1 else 0)%N (if one then 0 else 1)%N t) /\ good k k' /\ (forall n u, wr k n u -> wr k' n u).
Proof.
  induction fuel as [ | fuel IH]; intros one k r t K V W Hf; [lia | ]. cbn [path_count_rec].
  destruct (le_lt_dec 2 r) as [H2 | H2].
  2: { exists k. split; [ | split; [apply good_refl; auto | auto]]. rewrite (wr_lt2 _ _ _ W H2). destruct r as [ | [ | r]]; [ | | lia]; reflexivity. }
  destruct (Nat.eqb_spec r 0); [lia | ]. destruct (Nat.eqb_spec r 1); [lia | ].
  destruct (cget_ok (k_misc k) (N.of_nat r) ltac:(apply (i_clen _ K))) as (e & Ee & Ie). rewrite Ee. cbn [rbind].
  destruct (optnat_eqb (e_a e) r && (e_c e =? (if one then CACHEID_PATHCOU_ONE else CACHEID_PATHCOU_ZERO))) eqn:Eh.
  { apply andb_true_iff in Eh. destruct Eh as (Eh1 & Eh3). apply optnat_eqb_true in Eh1. apply Nat.eqb_eq in Eh3.
    pose proof (i_caches _ K) as (_ & _ & C1). rewrite Forall_forall in C1. destruct (C1 e Ie r Eh1) as (_ & _ & C2 & C3).
    exists k. split; [ | split; [apply good_refl; auto | auto]].
    destruct one; [destruct (C2 Eh3) as (tr & D1 & D2) | destruct (C3 Eh3) as (tr & D1 & D2)]; rewrite <- (wr_det _ _ _ _ D1 W), D2; auto. }
  destruct (wr_ge2 _ _ _ W H2) as (l & a & b & ->). cbn [top] in Hf.
  destruct (node_wr _ _ _ _ _ W) as (_ & Hl & Ta & Tb & Hne & lo & hi & El & Eh' & Wa & Wb & _). rewrite El, Eh'. cbn [rbind].
  destruct (IH one k lo a K V Wa ltac:(lia)) as (k1 & E1 & G1 & M1). rewrite E1. cbn [rbind].
  assert (V1 : k_varnum k1 = k_varnum k) by apply (g_fr _ _ G1).
  destruct (IH one k1 hi b (g_inv _ _ G1) (g_stv _ _ G1) (M1 _ _ Wb) ltac:(rewrite V1; lia)) as (k2 & E2 & G2 & M2). rewrite E2. cbn [rbind].
  assert (V2 : k_varnum k2 = k_varnum k1) by apply (g_fr _ _ G2).
  set (ct := if one then 1%N else 0%N) in *. set (cf := if one then 0%N else 1%N) in *.
  destruct (good_set_bdres k k2 (N.of_nat r) r 0 (if one then CACHEID_PATHCOU_ONE else CACHEID_PATHCOU_ZERO) (tpaths ct cf a + tpaths ct cf b)%N (good_trans _ _ _ G1 G2)) as (c' & E9 & G9).
  - intros rs r0 Er. cbn [e_a] in Er. injection Er as <-. cbn [e_c e_b e_res e_bdres]. split; [ | split; [ | split]].
    + intros var Hv Ec. exfalso. unfold CACHEID_PATHCOU_ONE, CACHEID_PATHCOU_ZERO in Ec. destruct one; lia.
    + destruct one; discriminate.
    + destruct one; [ | discriminate]. intros _. exists (BN l a b). split; auto.
    + destruct one; [discriminate | ]. intros _. exists (BN l a b). split; auto.
  - rewrite E9. cbn [rbind]. eexists. split; [reflexivity | ]. split; [exact G9 | ]. intros n2 u Hu. exact (M2 _ _ (M1 _ _ Hu)).
Qed.

Lemma path_count_api : forall (one : bool) k own r t, api k own -> wr k r t ->
  exists k', (if one then path_count_one k r else path_count_zero k r) = Ok (k', if one then tpaths 1 0 t else tpaths 0 1 t) /\
    api k' own /\ ext own k k' /\ k_names k' = k_names k /\ forall n g, den k n g -> den k' n g.
Proof.
  intros one k own r t A W. destruct (path_count_spec (S (k_varnum k)) one k r t (a_inv _ _ A) (a_stv _ _ A) W ltac:(lia)) as (k' & E & G & M).
  assert (Ek : k_names k' = k_names k) by apply (g_fr _ _ G).
  exists k'. split; [destruct one; exact E | ]. split; [exact (good_api _ _ _ A G) | ]. split; [exact (good_ext _ _ _ A G) | ]. split; [auto | ].
  intros n g (u & U & Hu). exists u. split; [auto | ]. rewrite Ek. auto.
Qed.
