(** Factorization handlers: they can abort a computation but not change it. *)
From Coq Require Import NArith ZArith List Bool Arith Lia.
From Verif Require Import Base EncodingModel Syntax FactoryModel FactoryInv FactoryBasics FactoryProofs FactorySpecs
  EvalProofs OpsModel OpsProofs CcModel CacheModel TransModel TreeSpec WorldProofs EncodeProofs NnfProofs CnfProofs.
Import ListNotations.
Local Open Scope N_scope.

Lemma bind_inv : forall A B (m : M A) (k : A -> M B) s b s', bind m k s = (Ok b, s') -> exists a s1, m s = (Ok a, s1) /\ k a s1 = (Ok b, s').
Proof. intros A B m k s b s' H. unfold bind in H. destruct (m s) as [[a | |] s1]; try discriminate. exists a, s1. auto. Qed.
Lemma bind_eq : forall A B (m : M A) (k : A -> M B) s a s1, m s = (Ok a, s1) -> bind m k s = k a s1.
Proof. intros A B m k s a s1 H. unfold bind. rewrite H. reflexivity. Qed.

(** The two kinds of results: with and without a local cache. *)
Definition vp {T H} (p : fres T * H) : fres (T * lcache) * H := (match fst p with FOk t => FOk (t, None) | FErr e => FErr e end, snd p).
Definition vt {T H} (p : fres T * H * lcache) : fres (T * lcache) * H := (match fst (fst p) with FOk t => FOk (t, snd p) | FErr e => FErr e end, snd (fst p)).

Section Sim.
  Context {H1 H2 : Type} (h1 : fhandler H1) (h2 : fhandler H2).
  Context (R : H1 -> H2 -> Prop) (E : H1 -> fact_error -> H2 -> Prop).
  Hypothesis silent1 : silent h1.
  (** Each event is either accepted by the second handler, or makes it abort. *)
  Hypothesis dist_sim : forall a b, R a b ->
    match fst (fh_dist h2 b) with None => R (snd (fh_dist h1 a)) (snd (fh_dist h2 b)) | Some e => E (snd (fh_dist h1 a)) e (snd (fh_dist h2 b)) end.
  Hypothesis clause_sim : forall r a b, R a b ->
    match fst (fh_clause h2 r b) with None => R (snd (fh_clause h1 r a)) (snd (fh_clause h2 r b)) | Some e => E (snd (fh_clause h1 r a)) e (snd (fh_clause h2 r b)) end.
  Hypothesis dist_err : forall a e b, E a e b -> E (snd (fh_dist h1 a)) e b.
  Hypothesis clause_err : forall r a e b, E a e b -> E (snd (fh_clause h1 r a)) e b.

  (** [x] is [Some] once the second run has aborted; the first one goes on. *)
  Definition rel (a : H1) (b : H2) (x : option (fact_error * H2)) : Prop := match x with None => R a b | Some (e, b') => E a e b' end.
  Definition sim {O1 O2 T} (v1 : O1 -> fres T * H1) (v2 : O2 -> fres T * H2) (m1 : M O1) (m2 : M O2) (x : option (fact_error * H2)) (s : factory) : Prop :=
    forall p s', m1 s = (Ok p, s') -> exists t, fst (v1 p) = FOk t
      /\ match x with
         | Some (e, b) => E (snd (v1 p)) e b
         | None => (exists q, m2 s = (Ok q, s') /\ fst (v2 q) = FOk t /\ R (snd (v1 p)) (snd (v2 q)))
                   \/ (exists q e s2, m2 s = (Ok q, s2) /\ fst (v2 q) = FErr e /\ E (snd (v1 p)) e (snd (v2 q)))
         end.

  Lemma sim_ret : forall O1 O2 T (v1 : O1 -> fres T * H1) (v2 : O2 -> fres T * H2) p q t a b x s, v1 p = (FOk t, a) -> v2 q = (FOk t, b) -> rel a b x ->
    sim v1 v2 (ret p) (ret q) x s.
  Proof.
    intros O1 O2 T v1 v2 p q t a b x s Hp Hq Hr p' s' E'. injection E' as <- <-. exists t. rewrite Hp. split; [reflexivity |].
    destruct x as [[e b'] |]; [exact Hr |]. left. exists q. rewrite Hq. auto.
  Qed.
  Lemma sim_skip : forall A O1 O2 T (v1 : O1 -> fres T * H1) (v2 : O2 -> fres T * H2) (m : M A) k1 k2 x s, (forall a s', sim v1 v2 (k1 a) (k2 a) x s') ->
    sim v1 v2 (bind m k1) (bind m k2) x s.
  Proof.
    intros A O1 O2 T v1 v2 m k1 k2 x s Hk p s' Hr. apply bind_inv in Hr. destruct Hr as [a [s1 [Ha Hr]]].
    rewrite (bind_eq _ _ _ k2 _ _ _ Ha). apply (Hk a s1 p s' Hr).
  Qed.
  Lemma sim_bind_gen : forall T0 O1 O2 P1 P2 T (u1 : P1 -> fres T0 * H1) (u2 : P2 -> fres T0 * H2) (c1 : T0 -> H1 -> P1) (c2 : T0 -> H2 -> P2)
    (v1 : O1 -> fres T * H1) (v2 : O2 -> fres T * H2) m1 m2 k1 k2 x s,
    (forall p t, fst (u1 p) = FOk t -> p = c1 t (snd (u1 p))) -> (forall q t, fst (u2 q) = FOk t -> q = c2 t (snd (u2 q))) ->
    sim u1 u2 m1 m2 x s -> (forall t a b x' s', rel a b x' -> sim v1 v2 (k1 (c1 t a)) (k2 (c2 t b)) x' s') ->
    (forall q e, fst (u2 q) = FErr e -> exists q', k2 q = ret q' /\ v2 q' = (FErr e, snd (u2 q))) ->
    inhabited H2 -> sim v1 v2 (bind m1 k1) (bind m2 k2) x s.
  Proof.
    intros T0 O1 O2 P1 P2 T u1 u2 c1 c2 v1 v2 m1 m2 k1 k2 x s Hc1 Hc2 Hm Hk He [b0] p s' Hr. apply bind_inv in Hr.
    destruct Hr as [p0 [s1 [Ha Hr]]]. destruct (Hm p0 s1 Ha) as [t [Ht Hx]]. rewrite (Hc1 _ _ Ht) in Hr.
    destruct x as [[e b] |].
    - exact (Hk t (snd (u1 p0)) b0 (Some (e, b)) s1 Hx p s' Hr).
    - destruct Hx as [[q [Hq [Hqt HR]]] | [q [e [s2 [Hq [Hqe HE]]]]]].
      + rewrite (bind_eq _ _ _ k2 _ _ _ Hq). rewrite (Hc2 _ _ Hqt). exact (Hk t _ (snd (u2 q)) None s1 HR p s' Hr).
      + destruct (Hk t _ b0 (Some (e, snd (u2 q))) s1 HE p s' Hr) as [t' [Ht' HE']]. exists t'. split; [assumption |]. right.
        destruct (He q e Hqe) as [q' [Hk' Hv]]. exists q', e, s2. rewrite (bind_eq _ _ _ k2 _ _ _ Hq), Hk', Hv. auto.
  Qed.
  Lemma sim_bindp : forall T0 O1 O2 T (v1 : O1 -> fres T * H1) (v2 : O2 -> fres T * H2) (m1 : M (fres T0 * H1)) (m2 : M (fres T0 * H2)) k1 k2 x s,
    inhabited H2 -> sim vp vp m1 m2 x s -> (forall t a b x' s', rel a b x' -> sim v1 v2 (k1 (FOk t, a)) (k2 (FOk t, b)) x' s') ->
    (forall e b, exists q', k2 (FErr e, b) = ret q' /\ v2 q' = (FErr e, b)) -> sim v1 v2 (bind m1 k1) (bind m2 k2) x s.
  Proof.
    intros T0 O1 O2 T v1 v2 m1 m2 k1 k2 x s Hin Hm Hk He.
    apply (sim_bind_gen _ _ _ _ _ _ vp vp (fun t a => (FOk (fst t), a)) (fun t a => (FOk (fst t), a))); auto.
    - intros [[t0 | e] a] t Ht; cbn in *; [injection Ht as <-; reflexivity | discriminate].
    - intros [[t0 | e] a] t Ht; cbn in *; [injection Ht as <-; reflexivity | discriminate].
    - intros [[t0 | e'] a] e Ht; cbn in *; [discriminate |]. injection Ht as <-. apply He.
  Qed.
  Lemma sim_bindt : forall T0 O1 O2 T (v1 : O1 -> fres T * H1) (v2 : O2 -> fres T * H2) (m1 : M (fres T0 * H1 * lcache)) (m2 : M (fres T0 * H2 * lcache)) k1 k2 x s,
    inhabited H2 -> sim vt vt m1 m2 x s -> (forall t lc a b x' s', rel a b x' -> sim v1 v2 (k1 (FOk t, a, lc)) (k2 (FOk t, b, lc)) x' s') ->
    (forall e b lc, exists q', k2 (FErr e, b, lc) = ret q' /\ v2 q' = (FErr e, b)) -> sim v1 v2 (bind m1 k1) (bind m2 k2) x s.
  Proof.
    intros T0 O1 O2 T v1 v2 m1 m2 k1 k2 x s Hin Hm Hk He.
    apply (sim_bind_gen _ _ _ _ _ _ vt vt (fun t a => (FOk (fst t), a, snd t)) (fun t a => (FOk (fst t), a, snd t))); auto.
    - intros [[[t0 | e] a] lc] t Ht; cbn in *; [injection Ht as <-; reflexivity | discriminate].
    - intros [[[t0 | e] a] lc] t Ht; cbn in *; [injection Ht as <-; reflexivity | discriminate].
    - intros [[[t0 | e'] a] lc] e Ht; cbn in *; [discriminate |]. injection Ht as <-. apply He.
  Qed.
  Lemma sim_fail : forall O1 O2 T (v1 : O1 -> fres T * H1) (v2 : O2 -> fres T * H2) m2 x s, sim v1 v2 fail m2 x s.
  Proof. intros. intros p s' Hr. discriminate. Qed.

  (** Events. *)
  Lemma sim_event : forall O1 O2 T (v1 : O1 -> fres T * H1) (v2 : O2 -> fres T * H2) e1 e2 (k1 : H1 -> M O1) (k2 : H2 -> M O2) (f2 : fact_error -> H2 -> O2) a b x s,
    fst e1 = None ->
    (R a b -> match fst e2 with None => R (snd e1) (snd e2) | Some e => E (snd e1) e (snd e2) end) -> (forall e b', E a e b' -> E (snd e1) e b') ->
    (forall e b', v2 (f2 e b') = (FErr e, b')) ->
    rel a b x -> (forall a' b' x', rel a' b' x' -> sim v1 v2 (k1 a') (k2 b') x' s) -> forall (f1 : fact_error -> H1 -> M O1),
    sim v1 v2 (match e1 with (Some e, st) => f1 e st | (None, st) => k1 st end) (match e2 with (Some e, st) => ret (f2 e st) | (None, st) => k2 st end) x s.
  Proof.
    intros O1 O2 T v1 v2 [o1 a1] [o2 b1] k1 k2 f2 a b x s Hs Hok Herr Hf HR Hk f1. cbn [fst snd] in *. subst o1.
    destruct x as [[e b'] |]; cbn [rel] in HR.
    - intros p s' Hr. destruct (Hk a1 b1 (Some (e, b')) (Herr _ _ HR) p s' Hr) as [t [Ht HE]]. exists t. auto.
    - specialize (Hok HR). destruct o2 as [e |]; [| apply Hk; exact Hok].
      intros p s' Hr. destruct (Hk a1 b1 (Some (e, b1)) Hok p s' Hr) as [t [Ht HE]]. exists t. split; [assumption |]. right.
      exists (f2 e b1), e, s. rewrite Hf. auto.
  Qed.

  Hypothesis inh : inhabited H2.

  Lemma distribute_sim : forall conj fuel f1 f2 a b x s, rel a b x -> sim vp vp (distribute h1 conj fuel f1 f2 a) (distribute h2 conj fuel f1 f2 b) x s.
  Proof.
    intros conj fuel. induction fuel as [| fuel IH]; intros f1 f2 a b x s HR; cbn [distribute]; [intros p s' Hr; discriminate |].
    apply (sim_event _ _ _ _ _ (fh_dist h1 a) (fh_dist h2 b) _ _ (fun e st => (FErr e, st)) a b);
      [apply silent1 | apply dist_sim | apply dist_err | reflexivity | exact HR |].
    clear a b x HR. intros a b x HR. destruct (is_type (nary_type conj) f1 || is_type (nary_type conj) f2).
    - destruct (if is_type (nary_type conj) f1 then (f1, f2) else (f2, f1)) as [c nc]. apply sim_skip. intros ops s1.
      apply sim_bindp; [assumption | | |].
      + match goal with |- sim _ _ (mfold ?F _ _) (mfold ?G _ _) _ _ =>
          assert (L : forall l a b x s1, rel a b x -> sim vp vp (mfold F ops (FOk l, a)) (mfold G ops (FOk l, b)) x s1) end; [| apply L; assumption].
        clear a b x s1 HR. induction ops as [| o ops IHo]; intros l a b x s1 HR; cbn [mfold]; [eapply sim_ret; [reflexivity | reflexivity | eassumption] |].
        apply sim_bindp; [assumption | | |].
        * apply sim_bindp; [assumption | apply IH; assumption | |].
          -- intros t a' b' x' s' HR'. eapply sim_ret; [reflexivity | reflexivity | eassumption].
          -- intros e b'. eexists. split; reflexivity.
        * intros t a' b' x' s' HR'. apply IHo. assumption.
        * intros e b'. exists (FErr e, b'). split; [| reflexivity]. clear. induction ops as [| o ops IHo]; cbn [mfold]; [reflexivity |].
          unfold bind at 1. cbn. exact IHo.
      + intros t a' b' x' s' HR'. apply sim_skip. intros r s2. eapply sim_ret; [reflexivity | reflexivity | eassumption].
      + intros e b'. eexists. split; reflexivity.
    - apply sim_skip. intros r s1.
      apply (sim_event _ _ _ _ _ (fh_clause h1 r a) (fh_clause h2 r b) (fun st => ret (FOk r, st)) (fun st => ret (FOk r, st)) (fun e st => (FErr e, st)) a b);
        [apply silent1 | apply clause_sim | apply clause_err | reflexivity | exact HR |].
      intros a' b' x' HR'. eapply sim_ret; [reflexivity | reflexivity | eassumption].
  Qed.
  Lemma distribute_all_sim : forall conj fuel ops r a b x s, rel a b x -> sim vp vp (distribute_all h1 conj fuel r ops a) (distribute_all h2 conj fuel r ops b) x s.
  Proof.
    intros conj fuel ops. induction ops as [| o ops IH]; intros r a b x s HR; cbn [distribute_all]; [eapply sim_ret; [reflexivity | reflexivity | eassumption] |].
    apply sim_bindp; [assumption | apply distribute_sim; assumption | |].
    - intros t a' b' x' s' HR'. apply IH. assumption.
    - intros e b'. eexists. split; reflexivity.
  Qed.
  Lemma compute_nops_sim : forall r1 r2, (forall o a b lc x s, rel a b x -> sim vt vt (r1 o a lc) (r2 o b lc) x s) ->
    forall ops a b lc x s, rel a b x -> sim vt vt (compute_nops r1 ops a lc) (compute_nops r2 ops b lc) x s.
  Proof.
    intros r1 r2 Hrec ops. induction ops as [| o ops IH]; intros a b lc x s HR; cbn [compute_nops]; [eapply sim_ret; [reflexivity | reflexivity | eassumption] |].
    apply sim_bindt; [assumption | apply Hrec; assumption | |].
    - intros t lc1 a' b' x' s' HR'. apply sim_bindt; [assumption | apply IH; assumption | |].
      + intros t' lc2 a2 b2 x2 s2 HR2. eapply sim_ret; [reflexivity | reflexivity | eassumption].
      + intros e b2 lc2. eexists. split; reflexivity.
    - intros e b' lc1. eexists. split; reflexivity.
  Qed.
  Lemma fact_rec_sim : forall conj fuel h a b lc x s, rel a b x -> sim vt vt (fact_rec h1 conj fuel h a lc) (fact_rec h2 conj fuel h b lc) x s.
  Proof.
    intros conj fuel. induction fuel as [| fuel IH]; intros h a b lc x s HR; cbn [fact_rec]; [intros p s' Hr; discriminate |].
    apply sim_skip. intros [r |] s1; [eapply sim_ret; [reflexivity | reflexivity | eassumption] |]. apply sim_skip. intros n s2.
    apply sim_bindt; [assumption | | |].
    - assert (Hnary : forall ops, sim vt vt
           (p <-- compute_nops (fact_rec h1 conj fuel) ops a lc ;;
            match p with
            | (FOk nops, st1, lc1) => r <-- f_nary conj nops ;; ret (FOk r, st1, lc1)
            | (FErr e, st1, lc1) => ret (FErr e, st1, lc1)
            end)
           (p <-- compute_nops (fact_rec h2 conj fuel) ops b lc ;;
            match p with
            | (FOk nops, st1, lc1) => r <-- f_nary conj nops ;; ret (FOk r, st1, lc1)
            | (FErr e, st1, lc1) => ret (FErr e, st1, lc1)
            end) x s2).
      { intros ops. apply sim_bindt; [assumption | apply compute_nops_sim; assumption | |].
        - intros t lc1 a' b' x' s' HR'. apply sim_skip. intros r s3. eapply sim_ret; [reflexivity | reflexivity | eassumption].
        - intros e b' lc1. eexists. split; reflexivity. }
      assert (Hdist : forall ops, sim vt vt
           (p <-- compute_nops (fact_rec h1 conj fuel) ops a lc ;;
            match p with
            | (FOk nops, st1, lc1) =>
                match nops with
                | [] => fail
                | first :: rest => q <-- distribute_all h1 conj 4 first rest st1 ;; ret (fst q, snd q, lc1)
                end
            | (FErr e, st1, lc1) => ret (FErr e, st1, lc1)
            end)
           (p <-- compute_nops (fact_rec h2 conj fuel) ops b lc ;;
            match p with
            | (FOk nops, st1, lc1) =>
                match nops with
                | [] => fail
                | first :: rest => q <-- distribute_all h2 conj 4 first rest st1 ;; ret (fst q, snd q, lc1)
                end
            | (FErr e, st1, lc1) => ret (FErr e, st1, lc1)
            end) x s2).
      { intros ops. apply sim_bindt; [assumption | apply compute_nops_sim; assumption | |].
        - intros [| f t] lc1 a' b' x' s' HR'; [apply sim_fail |]. apply sim_bindp; [assumption | apply distribute_all_sim; assumption | |].
          + intros t' a2 b2 x2 s3 HR2. eapply sim_ret; [reflexivity | reflexivity | eassumption].
          + intros e b2. eexists. split; reflexivity.
        - intros e b' lc1. eexists. split; reflexivity. }
      destruct n; try (eapply sim_ret; [reflexivity | reflexivity | eassumption]; fail); try (apply sim_skip; intros; apply IH; assumption); destruct conj; auto.
    - intros t lc1 a' b' x' s' HR'. apply sim_skip. intros lc2 s3. eapply sim_ret; [reflexivity | reflexivity | eassumption].
    - intros e b' lc1. eexists. split; reflexivity.
  Qed.

  Theorem factorization_sim : forall conj fuel h a b s p s', R (fh_started h1 a) (fh_started h2 b) -> factorization h1 conj fuel h a s = (Ok p, s') ->
    exists r, fst p = FOk r /\
      ((exists b', factorization h2 conj fuel h b s = (Ok (FOk r, b'), s') /\ R (snd p) b')
       \/ (exists e b' s2, factorization h2 conj fuel h b s = (Ok (FErr e, b'), s2) /\ E (snd p) e b')).
  Proof.
    intros conj fuel h a b s p s' HR Hr. unfold factorization in *. apply bind_inv in Hr. destruct Hr as [on [s1 [Hon Hr]]].
    apply bind_inv in Hr. destruct Hr as [[[q st] lc] [s2 [Hf Hr]]]. injection Hr as <- <-. rewrite (bind_eq _ _ _ _ _ _ _ Hon).
    destruct (fact_rec_sim conj fuel h _ _ (if on then None else Some []) None s1 HR _ _ Hf) as [[t lc'] [Ht Hx]].
    unfold vt in Ht. cbn [fst snd] in Ht. destruct q as [t' | e]; [| discriminate]. injection Ht as -> ->. exists t. split; [reflexivity |].
    destruct Hx as [[[[q st2] lc2] [Hq [Hqt HR']]] | [[[q st2] lc2] [e [s3 [Hq [Hqe HE]]]]]]; unfold vt in *; cbn [fst snd] in *.
    - destruct q as [t' | e]; [| discriminate]. injection Hqt as -> ->. left. exists st2. rewrite (bind_eq _ _ _ _ _ _ _ Hq). auto.
    - destruct q as [t' | e']; [discriminate |]. injection Hqe as ->. right. exists e, st2, s3. rewrite (bind_eq _ _ _ _ _ _ _ Hq). auto.
  Qed.
End Sim.

(** Any handler either aborts or leaves the result (and the factory) as without a handler. *)
Theorem handler_only_aborts : forall H (hd : fhandler H) conj fuel h st s r s', fact_nop conj fuel h s = (Ok r, s') ->
  (exists st', factorization hd conj fuel h st s = (Ok (FOk r, st'), s'))
  \/ (exists e st' s2, factorization hd conj fuel h st s = (Ok (FErr e, st'), s2)).
Proof.
  intros H hd conj fuel h st s r s' Hr. unfold fact_nop in Hr. apply bind_inv in Hr. destruct Hr as [[[t | e] u] [s1 [Hf Hr]]]; [| discriminate].
  injection Hr as <- <-.
  destruct (factorization_sim nop_handler hd (fun _ _ => True) (fun _ _ _ => True) nop_silent) with (conj := conj) (fuel := fuel) (h := h) (a := tt) (b := st) (s := s) (p := (@FOk N t, u)) (s' := s1)
    as [r [Er [[b' [Hb _]] | [e [b' [s2 [Hb _]]]]]]]; auto.
  - intros a b _. destruct (fst (fh_dist hd b)); exact I.
  - intros r a b _. destruct (fst (fh_clause hd r b)); exact I.
  - cbn in Er. injection Er as <-. left. eauto.
  - right. eauto.
Qed.

(** A handler that only counts. *)
Definition count_handler : fhandler (N * N) := mkHandler (fun _ => (0, 0)) (fun c => (None, (fst c + 1, snd c))) (fun _ c => (None, (fst c, snd c + 1))).

Definition limit_rel (d c : N) (a : N * N) (b : limit_state) : Prop := b = mkLimit false (fst a) (snd a) d c /\ fst a <= d /\ snd a <= c.
(** When the limit handler aborts, exactly one counter has just passed its limit. *)
Definition limit_err (d c : N) (a : N * N) (e : fact_error) (b : limit_state) : Prop :=
  exists nd nc, b = mkLimit true nd nc d c /\ nd <= fst a /\ nc <= snd a
  /\ match e with DistributionLimitReached => nd = d + 1 /\ nc <= c | ClauseLimitReached => nc = c + 1 /\ nd <= d end.

Theorem limit_exact : forall conj fuel h st s r D C s', factorization count_handler conj fuel h (0, 0) s = (Ok (FOk r, (D, C)), s') ->
  let d := ls_dists_limit st in let c := ls_clauses_limit st in
  (D <= d /\ C <= c /\ factorization limit_handler conj fuel h st s = (Ok (FOk r, mkLimit false D C d c), s'))
  \/ ((d < D \/ c < C) /\ exists e nd nc s2, factorization limit_handler conj fuel h st s = (Ok (FErr e, mkLimit true nd nc d c), s2)
      /\ match e with DistributionLimitReached => nd = d + 1 /\ nd <= D /\ nc <= c | ClauseLimitReached => nc = c + 1 /\ nc <= C /\ nd <= d end).
Proof.
  intros conj fuel h st s r D C s' Hf d c.
  destruct (factorization_sim count_handler limit_handler (limit_rel d c) (limit_err d c)) with (conj := conj) (fuel := fuel) (h := h) (a := (0, 0)) (b := st) (s := s) (p := (@FOk N r, (D, C))) (s' := s')
    as [r' [Er [[b' [Hb [-> [HD HC]]]] | [e [b' [s2 [Hb [nd [nc [-> [HD [HC He]]]]]]]]]]]]; auto.
  - split; reflexivity.
  - intros a b [-> [Ha Hb]]. cbn. destruct (N.ltb_spec d (fst a + 1)).
    + exists (fst a + 1), (snd a). cbn. repeat split; lia.
    + split; [reflexivity |]. cbn. lia.
  - intros r0 a b [-> [Ha Hb]]. cbn. destruct (N.ltb_spec c (snd a + 1)).
    + exists (fst a), (snd a + 1). cbn. repeat split; lia.
    + split; [reflexivity |]. cbn. lia.
  - intros a e b [nd [nc [-> [H1 [H2 H3]]]]]. exists nd, nc. cbn. split; [reflexivity |]. split; [lia |]. split; [lia | exact H3].
  - intros r0 a e b [nd [nc [-> [H1 [H2 H3]]]]]. exists nd, nc. cbn. split; [reflexivity |]. split; [lia |]. split; [lia | exact H3].
  - split; [reflexivity |]. cbn. lia.
  - cbn in Er. injection Er as <-. left. auto.
  - cbn [fst snd] in *. right. split; [destruct e; lia |]. exists e, nd, nc, s2. split; [assumption |]. destruct e; lia.
Qed.
