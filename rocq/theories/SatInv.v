(** The invariant of the solver. [F] is the list of the clauses added so far (as passed by the caller), [q] the number of
    trail literals whose watchers have been visited. *)
From Coq Require Import List Arith ZArith NArith Bool Lia Permutation.
From Verif Require Import Base Vec HeapModel HeapProofs SatSpec SatModel SatBasics SatHeap.
Import ListNotations.

Section Inv.
  Variable F : list (list nat).
  Variable nv : nat.

  Record goodcl (cl : clause) : Prop := {
    gc_lits : forall l, In l (c_data cl) -> l < 2 * nv;
    gc_nodup : NoDup (c_data cl);
    gc_len : 2 <= length (c_data cl);
    gc_ent : entails F (c_data cl) }.
  Definition goodid (A : list clause) (c : nat) : Prop := exists cl, nth_error A c = Some cl /\ goodcl cl.
  Definition reason_ok (A : list clause) (T : list nat) (i l c : nat) : Prop :=
    exists cl rest, nth_error A c = Some cl /\ goodcl cl /\ c_data cl = l :: rest /\
      forall r, In r rest -> exists j, j < i /\ nth_error T j = Some (lneg r).

  (** The trail, the values, levels and reasons. *)
  Record tinv (vs : list msvar) (T lim : list nat) (q : nat) (R : list (option nat)) (A : list clause) : Prop := {
    t_valid : forall l, In l T -> l < 2 * nv;
    t_nodup : NoDup (map lvar T);
    t_val : forall l, l < 2 * nv -> (asg_of vs l = Some true <-> In l T);
    t_lvl : forall i l, nth_error T i = Some l -> v_lvl (nth (lvar l) vs dvar) = Some (lv lim i);
    t_sorted : sorted_lim lim;
    t_q : q <= length T;
    t_lim : forall x, In x lim -> x <= q;
    t_reason : forall i l, nth_error T i = Some l -> 0 < lv lim i ->
      match nth (lvar l) R None with
      | Some c => reason_ok A T i l c
      | None => forall j, j < i -> lv lim j < lv lim i
      end;
    t_ent0 : forall i l, nth_error T i = Some l -> lv lim i = 0 -> entails F [l] }.

  Definition watched_by (x : nat) (d : list nat) : Prop := nth_error d 0 = Some x \/ nth_error d 1 = Some x.
  Definition wtrue (T lim : list nat) (i : nat) (d : list nat) : Prop :=
    exists j t, nth_error T j = Some t /\ In t d /\ lv lim j <= lv lim i.
  (** As [wtrue]; the true literal is the blocker or one of the first two literals of the clause. *)
  Definition wtrue2 (T lim : list nat) (i b : nat) (d : list nat) : Prop :=
    exists j t, nth_error T j = Some t /\ In t d /\ (t = b \/ watched_by t d) /\ lv lim j <= lv lim i.
  Definition false0 (T lim : list nat) (b : nat) : Prop := exists j, nth_error T j = Some (lneg b) /\ lv lim j = 0.
  Definition went (A : list clause) (T lim : list nat) (q p c b : nat) : Prop :=
    exists cl, nth_error A c = Some cl /\ goodcl cl /\ watched_by (lneg p) (c_data cl) /\ b < 2 * nv /\
      (In b (c_data cl) \/ false0 T lim b) /\ (forall i, i < q -> nth_error T i = Some p -> wtrue2 T lim i b (c_data cl)).
  Definition winv (A : list clause) (T lim : list nat) (q : nat) (W : list (list (nat * nat))) : Prop :=
    forall p ws, nth_error W p = Some ws -> NoDup (map fst ws) /\ forall c b, In (c, b) ws -> went A T lim q p c b.
  Definition watchedid (W : list (list (nat * nat))) (c : nat) : Prop := exists p ws b, nth_error W p = Some ws /\ In (c, b) ws.
  (** The clause [c] with the literals [d] is in the lists of its first two literals; one of the blockers is the other one. *)
  Definition paired (W : list (list (nat * nat))) (c : nat) (d : list nat) : Prop :=
    exists x y r b1 b2, d = x :: y :: r /\ In (c, b1) (nth (lneg x) W []) /\ In (c, b2) (nth (lneg y) W []) /\ (b1 = y \/ b2 = x).
  Definition covered (A : list clause) (T lim : list nat) (W : list (list (nat * nat))) (C : list nat) : Prop :=
    (exists j t, nth_error T j = Some t /\ In t C /\ lv lim j = 0) \/
    (exists c cl, paired W c (c_data cl) /\ nth_error A c = Some cl /\ c_learnt cl = false /\ incl (c_data cl) C).
  Definition hinv (vs : list msvar) (h : lheap) : Prop :=
    hok nv h /\ nv <= length (hix h) /\ forall v, v < nv -> v_asg (nth v vs dvar) = None -> In v (hp h).
End Inv.

Record sizes (st : solver) : Prop := {
  z_w : length (s_watches st) = 2 * length (s_vars st);
  z_r : length (s_reasons st) = length (s_vars st);
  z_a : length (s_acts st) = length (s_vars st);
  z_s : length (s_vars st) <= length (s_seen st);
  z_dec : forall v, v < length (s_vars st) -> v_dec (nth v (s_vars st) dvar) = true }.

Record inv (F : list (list nat)) (q : nat) (st : solver) : Prop := {
  i_sz : sizes st;
  i_t : tinv F (length (s_vars st)) (s_vars st) (s_trail st) (s_lim st) q (s_reasons st) (s_arena st);
  i_w : winv F (length (s_vars st)) (s_arena st) (s_trail st) (s_lim st) q (s_watches st);
  i_c : forall C, In C F -> covered (s_arena st) (s_trail st) (s_lim st) (s_watches st) C;
  i_v : forall c, In c (s_clauses st) \/ In c (s_learnts st) -> goodid F (length (s_vars st)) (s_arena st) c;
  i_h : hinv (length (s_vars st)) (s_vars st) (s_heap st) }.
Definition unseen (st : solver) : Prop := forall v, nth v (s_seen st) false = false.

(** ** Consequences *)
Lemma trail_pos_unique : forall T i j a b, NoDup (map lvar T) -> nth_error T i = Some a -> nth_error T j = Some b -> lvar a = lvar b -> i = j.
Proof.
  intros T i j a b N A B E. apply (NoDup_nth_error (map lvar T)).
  - exact N.
  - rewrite map_length. eapply nth_some_lt; eauto.
  - rewrite (map_nth_error _ _ _ A), (map_nth_error _ _ _ B). congruence.
Qed.
Section Facts.
  Context {F : list (list nat)} {nv : nat} {vs : list msvar} {T lim : list nat} {q : nat} {R : list (option nat)} {A : list clause}.
  Hypothesis I : tinv F nv vs T lim q R A.
  Lemma val_true : forall l, l < 2 * nv -> asg_of vs l = Some true -> In l T.
  Proof. intros l H E. now apply (t_val _ _ _ _ _ _ _ _ I). Qed.
  Lemma val_false : forall l, l < 2 * nv -> asg_of vs l = Some false -> In (lneg l) T.
  Proof. intros l H E. apply (t_val _ _ _ _ _ _ _ _ I); [now apply lneg_lt |]. rewrite asg_neg, E. reflexivity. Qed.
  Lemma val_undef : forall l, l < 2 * nv -> asg_of vs l = None -> ~ In l T /\ ~ In (lneg l) T.
  Proof.
    intros l H E. split; intros K.
    - apply (t_val _ _ _ _ _ _ _ _ I) in K; auto. congruence.
    - apply (t_val _ _ _ _ _ _ _ _ I) in K; [| now apply lneg_lt]. rewrite asg_neg, E in K. discriminate.
  Qed.
  Lemma in_true : forall l, In l T -> asg_of vs l = Some true.
  Proof. intros l H. apply (t_val _ _ _ _ _ _ _ _ I); auto. now apply (t_valid _ _ _ _ _ _ _ _ I). Qed.
  Lemma in_false : forall l, In (lneg l) T -> asg_of vs l = Some false.
  Proof. intros l H. apply in_true in H. rewrite asg_neg in H. destruct (asg_of vs l) as [[|]|]; cbn in H; congruence. Qed.
  Lemma not_both : forall l, In l T -> In (lneg l) T -> False.
  Proof. intros l H K. apply in_true in H. apply in_false in K. congruence. Qed.
  Lemma cur_level : forall i, q <= i -> lv lim i = length lim.
  Proof. intros i H. apply lv_full. intros x Hx. pose proof (t_lim _ _ _ _ _ _ _ _ I x Hx). lia. Qed.
End Facts.

Lemma goodcl_mono : forall F G nv nw cl, (forall x, In x F -> In x G) -> nv <= nw -> goodcl F nv cl -> goodcl G nw cl.
Proof.
  intros F G nv nw cl H L [A B C D]. constructor; auto.
  - intros l Hl. specialize (A l Hl). lia.
  - eapply ent_mono; eauto.
Qed.
Lemma goodcl_perm : forall F nv cl d lr, goodcl F nv cl -> Permutation (c_data cl) d -> goodcl F nv (mkCl d lr).
Proof.
  intros F nv cl d lr [A B C D] P. constructor; cbn.
  - intros l Hl. apply A. eapply Permutation_in; [symmetry |]; eauto.
  - eapply Permutation_NoDup; eauto.
  - now rewrite <- (Permutation_length P).
  - eapply ent_sub; eauto. intros l Hl. eapply Permutation_in; eauto.
Qed.
Lemma nth_app_some : forall A (l r : list A) i x, nth_error l i = Some x -> nth_error (l ++ r) i = Some x.
Proof. intros. rewrite nth_error_app1; auto. eapply nth_some_lt; eauto. Qed.
Lemma asg_upd_other : forall vs l m x, lvar l <> lvar m -> asg_of (upd vs (lvar m) x) l = asg_of vs l.
Proof. intros. unfold asg_of. rewrite nth_upd_neq by auto. reflexivity. Qed.
Lemma asg_upd_same : forall vs l x, lvar l < length vs -> asg_of (upd vs (lvar l) x) l = if lsign l then option_map negb (v_asg x) else v_asg x.
Proof. intros. unfold asg_of. rewrite nth_upd_eq by auto. reflexivity. Qed.
Lemma upd_dec : forall vs k x, (forall v, v < length vs -> v_dec (nth v vs dvar) = true) -> v_dec x = true ->
  forall v, v < length (upd vs k x) -> v_dec (nth v (upd vs k x) dvar) = true.
Proof.
  intros vs k x H Hx v Hv. rewrite upd_length in Hv. destruct (Nat.eq_dec k v) as [-> | N]; [now rewrite nth_upd_eq | rewrite nth_upd_neq by auto; auto].
Qed.

(** ** Enqueueing a literal *)
Definition enq (l : nat) (r : option nat) (st : solver) : solver :=
  set_trail (s_trail st ++ [l])
    (set_reasons (upd (s_reasons st) (lvar l) r)
      (set_vars (upd (s_vars st) (lvar l) (mkVar (Some (negb (lsign l))) (Some (dlevel st)) (v_pol (var_at st (lvar l))) (v_dec (var_at st (lvar l))))) st)).
Lemma enqueue_ok : forall l r st, value st l = None -> unchecked_enqueue l r st = Ok (enq l r st).
Proof. intros l r st H. unfold unchecked_enqueue. rewrite H. reflexivity. Qed.

Lemma wtrue_app : forall T lim i d x, wtrue T lim i d -> wtrue (T ++ [x]) lim i d.
Proof. intros T lim i d x (j & t & A & B & C). exists j, t. split; [now apply nth_app_some | auto]. Qed.
Lemma wtrue2_app : forall T lim i b d x, wtrue2 T lim i b d -> wtrue2 (T ++ [x]) lim i b d.
Proof. intros T lim i b d x (j & t & A & B). exists j, t. split; [now apply nth_app_some | auto]. Qed.
Lemma wtrue2_wtrue : forall T lim i b d, wtrue2 T lim i b d -> wtrue T lim i d.
Proof. intros T lim i b d (j & t & A & B & _ & C). exists j, t. auto. Qed.
Lemma paired_watched : forall W c d, paired W c d -> watchedid W c.
Proof.
  intros W c d (x & y & r & b1 & b2 & _ & H & _). exists (lneg x), (nth (lneg x) W []), b1. split; [| exact H]. apply nth_err_def.
  destruct (Nat.lt_ge_cases (lneg x) (length W)) as [L | L]; auto. rewrite nth_overflow in H by lia. destruct H.
Qed.
Lemma paired_mono : forall W W' c d, (forall z w, In (c, w) (nth z W []) -> In (c, w) (nth z W' [])) -> paired W c d -> paired W' c d.
Proof. intros W W' c d H (x & y & r & b1 & b2 & H1 & H2 & H3 & H4). exists x, y, r, b1, b2. auto. Qed.
Lemma false0_app : forall T lim b x, false0 T lim b -> false0 (T ++ [x]) lim b.
Proof. intros T lim b x (j & A & B). exists j. split; [now apply nth_app_some | auto]. Qed.
Lemma went_app : forall F nv A T lim q p c b x, q <= length T -> went F nv A T lim q p c b -> went F nv A (T ++ [x]) lim q p c b.
Proof.
  intros F nv A T lim q p c b x Hq (cl & H1 & H2 & H3 & H4 & H5 & H6). exists cl. repeat (split; [assumption |]). split.
  - destruct H5; [auto | right; now apply false0_app].
  - intros i Hi E. rewrite nth_error_app1 in E by lia. apply wtrue2_app. auto.
Qed.
Lemma covered_app : forall A T lim W C x, covered A T lim W C -> covered A (T ++ [x]) lim W C.
Proof. intros A T lim W C x [(j & t & H) | H]; [left; exists j, t; intuition auto using nth_app_some | right; exact H]. Qed.

Lemma enq_tinv : forall F st q l r, length (s_reasons st) = length (s_vars st) ->
  tinv F (length (s_vars st)) (s_vars st) (s_trail st) (s_lim st) q (s_reasons st) (s_arena st) ->
  l < 2 * length (s_vars st) -> value st l = None ->
  (0 < dlevel st -> match r with
    | Some c => reason_ok F (length (s_vars st)) (s_arena st) (s_trail st) (length (s_trail st)) l c
    | None => forall j, j < length (s_trail st) -> lv (s_lim st) j < dlevel st end) ->
  (dlevel st = 0 -> entails F [l]) ->
  tinv F (length (s_vars st)) (s_vars (enq l r st)) (s_trail (enq l r st)) (s_lim st) q (s_reasons (enq l r st)) (s_arena st).
Proof.
  intros F st q l r ZR I Hl U HR HE. unfold enq. ssimp. set (nv := length (s_vars st)) in *. set (T := s_trail st) in *. set (lim := s_lim st) in *.
  pose proof (val_undef I l Hl U) as [U1 U2]. assert (Lv : lvar l < nv) by (now apply lvar_lt).
  assert (CL : lv lim (length T) = dlevel st) by (apply (cur_level I), (t_q _ _ _ _ _ _ _ _ I)).
  assert (NV : forall m, In m T -> lvar m <> lvar l) by (intros m Hm E; apply same_var in E; destruct E; subst; auto).
  assert (RO : forall i m c, nth_error T i = Some m -> reason_ok F nv (s_arena st) T i m c -> reason_ok F nv (s_arena st) (T ++ [l]) i m c).
  { intros i m c E (cl & rest & A & B & C & D). exists cl, rest. repeat (split; [assumption |]). intros x Hx. destruct (D x Hx) as (j & Lj & Ej). exists j. split; auto. now apply nth_app_some. }
  constructor; try apply I.
  - intros m Hm. apply in_app_or in Hm. destruct Hm as [Hm | [<- | []]]; [now apply (t_valid _ _ _ _ _ _ _ _ I) | assumption].
  - rewrite map_app. cbn. apply (Permutation_NoDup (l := lvar l :: map lvar T)); [apply Permutation_cons_append |]. constructor; [| apply I].
    intros K. apply in_map_iff in K. destruct K as (m & E & Hm). now apply NV in Hm.
  - intros m Hm. rewrite in_app_iff. cbn. destruct (Nat.eq_dec (lvar m) (lvar l)) as [E | E].
    + apply same_var in E. destruct E as [-> | ->].
      * rewrite asg_upd_same by exact Lv. cbn. destruct (lsign l); cbn; intuition.
      * rewrite asg_neg, asg_upd_same by exact Lv. cbn. split.
        -- destruct (lsign l); cbn; discriminate.
        -- intros [K | [K | []]]; [contradiction | symmetry in K; now apply lneg_neq in K].
    + rewrite asg_upd_other by auto. rewrite (t_val _ _ _ _ _ _ _ _ I m Hm). split; [auto |]. intros [K | [-> | []]]; auto. congruence.
  - intros i m E. rewrite nth_snoc in E. destruct (Nat.eqb_spec i (length T)) as [-> | Ni].
    + inversion E; subst m. rewrite nth_upd_eq by exact Lv. cbn. now rewrite CL.
    + rewrite nth_upd_neq by (apply not_eq_sym, NV; eapply nth_error_In; eauto). now apply (t_lvl _ _ _ _ _ _ _ _ I).
  - rewrite app_length. cbn. pose proof (t_q _ _ _ _ _ _ _ _ I). fold T in H. lia.
  - intros i m E L. rewrite nth_snoc in E. destruct (Nat.eqb_spec i (length T)) as [-> | Ni].
    + inversion E; subst m. rewrite nth_upd_eq by (rewrite ZR; exact Lv). rewrite CL in L. specialize (HR L). destruct r as [c |].
      * destruct HR as (cl & rest & A & B & C & D). exists cl, rest. repeat (split; [assumption |]). intros x Hx. destruct (D x Hx) as (j & Lj & Ej). exists j. split; auto. now apply nth_app_some.
      * intros j Lj. rewrite CL. now apply HR.
    + rewrite nth_upd_neq by (apply not_eq_sym, NV; eapply nth_error_In; eauto). pose proof (t_reason _ _ _ _ _ _ _ _ I i m E L) as K.
      destruct (nth (lvar m) (s_reasons st) None); auto.
  - intros i m E L. rewrite nth_snoc in E. destruct (Nat.eqb_spec i (length T)) as [-> | Ni].
    + inversion E; subst m. apply HE. congruence.
    + now apply (t_ent0 _ _ _ _ _ _ _ _ I i).
Qed.
Lemma enq_inv : forall F st q l r, inv F q st -> l < 2 * length (s_vars st) -> value st l = None ->
  (0 < dlevel st -> match r with
    | Some c => reason_ok F (length (s_vars st)) (s_arena st) (s_trail st) (length (s_trail st)) l c
    | None => forall j, j < length (s_trail st) -> lv (s_lim st) j < dlevel st end) ->
  (dlevel st = 0 -> entails F [l]) ->
  inv F q (enq l r st).
Proof.
  intros F st q l r [Z I W C V H] Hl U HR HE. pose proof (enq_tinv F st q l r (z_r _ Z) I Hl U HR HE) as I'. 
  assert (EV : length (s_vars (enq l r st)) = length (s_vars st)) by (unfold enq; ssimp; apply upd_length).
  assert (Lv : lvar l < length (s_vars st)) by (now apply lvar_lt).
  pose proof (t_q _ _ _ _ _ _ _ _ I) as Tq. constructor; rewrite ?EV.
  - destruct Z. unfold enq. constructor; ssimp; try (rewrite ?upd_length; assumption). apply upd_dec; auto. cbn. unfold var_at. auto.
  - exact I'.
  - unfold enq. ssimp. intros p ws E. destruct (W p ws E) as [N K]. split; auto. intros c b Hb. apply went_app; auto.
  - unfold enq. ssimp. intros D HD. apply covered_app. auto.
  - exact V.
  - destruct H as (H1 & H2 & H3). unfold enq. ssimp. split; [exact H1 |]. split; [exact H2 |]. intros v Hv. destruct (Nat.eq_dec (lvar l) v) as [<- | N].
    + rewrite nth_upd_eq by exact Lv. discriminate.
    + rewrite nth_upd_neq by auto. auto.
Qed.
