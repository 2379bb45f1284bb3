(** C35: saving and loading solver states. *)
From Coq Require Import List Arith ZArith NArith Bool Lia Permutation.
From Verif Require Import Base Vec HeapModel SatSpec SatModel SatProp SatDb SatSearch SatSolve SatFront SatState SatReplay SatHistory.
Import ListNotations.
Local Open Scope nat_scope.

(** Histories of calls; [Load i] loads the [i]-th valid state. *)
Inductive scall :=
| SNewVar (sign : bool)
| SAdd (c : list nat)
| SSolve (assumptions : list nat)
| SSave
| SLoad (i : nat).
(** The specification: the number of variables and the clauses that count, and those at the saved states. *)
Record spec := mkSpec { p_vars : nat; p_cls : list (list nat); p_saved : list (nat * list (list nat)) }.
Definition spec_call (c : scall) (s : spec) : spec :=
  match c with
  | SNewVar _ => mkSpec (S (p_vars s)) (p_cls s) (p_saved s)
  | SAdd ps => mkSpec (p_vars s) (p_cls s ++ [ps]) (p_saved s)
  | SSolve _ => s
  | SSave => mkSpec (p_vars s) (p_cls s) (p_saved s ++ [(p_vars s, p_cls s)])
  | SLoad i => let x := nth i (p_saved s) (0, []) in mkSpec (fst x) (snd x) (firstn (S i) (p_saved s))
  end.
Definition spec_new : spec := mkSpec 0 [] [].
Definition spec_run (cs : list scall) : spec := fold_left (fun s c => spec_call c s) cs spec_new.
Definition sdo_call (cfg : sconfig) (orc : oracle) (fuel : nat) (c : scall) (s : solver * list snapshot) : res (solver * list snapshot) :=
  match c with
  | SNewVar sign => do ' (_, st) <- new_var sign true (fst s); Ok (st, snd s)
  | SAdd ps => do ' (_, st) <- add_clause cfg fuel ps (fst s); Ok (st, snd s)
  | SSolve a => do ' (_, st) <- solve_with_assumptions cfg orc fuel a (fst s); Ok (st, snd s)
  | SSave => save cfg s
  | SLoad i => load cfg orc fuel i s
  end.
Fixpoint srun (cfg : sconfig) (orc : oracle) (fuel : nat) (cs : list scall) (s : solver * list snapshot) : res (solver * list snapshot) :=
  match cs with [] => Ok s | c :: r => do s1 <- sdo_call cfg orc fuel c s; srun cfg orc fuel r s1 end.

(** A question after a history. *)
Definition sask (cfg : sconfig) (orc : oracle) (fuel : nat) (cs : list scall) (a : list nat) : res (bool * solver) :=
  do s <- srun cfg orc fuel cs (solver_new, []); solve_with_assumptions cfg orc fuel a (fst s).

(** ** The states are restored *)
(** Calls that are allowed: literals of known variables, indices of valid states. *)
Definition allowed (c : scall) (p : spec) : Prop :=
  match c with
  | SAdd ps => forall l, In l ps -> l < 2 * p_vars p
  | SSolve a => forall l, In l a -> l < 2 * p_vars p
  | SLoad i => i < length (p_saved p)
  | _ => True
  end.
(** When a state is loaded, no clause added since it was saved is stored with the literals of another stored clause (see the
    finding below for what happens otherwise). Nothing is assumed about learnt clauses. *)
Definition unlike (st : solver) (c d : nat) : Prop := c_data (nth c (s_arena st) dcl) <> c_data (nth d (s_arena st) dcl).
Definition distinct (c : scall) (s : solver * list snapshot) : Prop :=
  match c with
  | SLoad i => forall sn, nth_error (snd s) i = Some sn ->
    forall a b, In a (skipn (n_clauses sn) (s_clauses (fst s))) -> In b (s_clauses (fst s)) -> a <> b -> unlike (fst s) a b
  | _ => True
  end.
Fixpoint proper (cfg : sconfig) (orc : oracle) (fuel : nat) (cs : list scall) (p : spec) (s : solver * list snapshot) : Prop :=
  match cs with
  | [] => True
  | c :: r => allowed c p /\ distinct c s /\ forall s1, sdo_call cfg orc fuel c s = Ok s1 -> proper cfg orc fuel r (spec_call c p) s1
  end.
(** The invariant along the history. *)
Lemma proper_run : forall cfg orc fuel, g_incremental cfg = true -> g_min cfg <> MinNone -> sorting orc ->
  forall cs p s, hist (p_vars p) (p_cls p) (p_saved p) (fst s) (snd s) -> proper cfg orc fuel cs p s ->
  rspec (srun cfg orc fuel cs s) (fun s' => let q := fold_left (fun x c => spec_call c x) cs p in hist (p_vars q) (p_cls q) (p_saved q) (fst s') (snd s')).
Proof.
  intros cfg orc fuel Inc Hm So. induction cs as [| c r IH]; intros p [st sn] H P; [exact H |]. cbn [srun fold_left]. destruct P as (Al & Di & P). cbn [fst snd] in *.
  assert (K : rspec (sdo_call cfg orc fuel c (st, sn)) (fun s' => let q := spec_call c p in hist (p_vars q) (p_cls q) (p_saved q) (fst s') (snd s'))).
  { destruct c as [sign | ps | a | | i]; cbn [sdo_call fst snd spec_call p_vars p_cls p_saved].
    - destruct (hist_new_var _ _ _ _ _ sign H) as (s & E & Hs). rewrite E. exact Hs.
    - eapply rspec_bind; [apply (hist_add cfg fuel _ _ _ _ _ ps Inc H Al) |]. intros [b s] [Hs _]. exact Hs.
    - eapply rspec_bind; [apply (hist_solve cfg orc fuel _ _ _ _ _ a Inc Hm So H Al) |]. intros [b s] [Hs _]. exact Hs.
    - destruct (hist_save cfg _ _ _ _ _ Inc H) as (x & E & Hs). unfold save. cbn [fst snd]. rewrite E. exact Hs.
    - unfold load. cbn [fst snd]. destruct (nth_error sn i) as [x |] eqn:E.
      + destruct (nth_error (p_saved p) i) as [[m Fs] |] eqn:E2; [| apply nth_error_None in E2; cbn in Al; lia].
        rewrite (nth_error_nth _ _ (0, []) E2). cbn [fst snd]. eapply rspec_bind; [apply (hist_load cfg orc fuel _ _ _ _ _ i x m Fs Inc H E E2) |].
        * intros a b Ha Hb N [K1 K2]. exact (Di x E a b Ha Hb N K1).
        * intros s Hs. exact Hs.
      + apply nth_error_None in E. rewrite (h_len _ _ _ _ _ H) in E. exfalso. apply (Nat.lt_irrefl i). eapply Nat.lt_le_trans; [exact Al | exact E]. }
  specialize (P). destruct (sdo_call cfg orc fuel c (st, sn)) as [s1 | |]; [| exact K | exact I]. cbn [rbind rspec] in *. apply IH; auto.
Qed.
(** After any history of allowed calls the solver answers for exactly the clauses that count: those added and not taken back
    by loading a state. The model has a value for each of the variables that count. No call panics. *)
Theorem C35_states_restored : forall cfg orc fuel cs A, g_incremental cfg = true -> g_min cfg <> MinNone -> (forall t l, Permutation (o_sort orc t l) l) ->
  proper cfg orc fuel cs spec_new (solver_new, []) -> (forall a, In a A -> a < 2 * p_vars (spec_run cs)) ->
  match sask cfg orc fuel cs A with
  | Ok (true, st) => length (s_model st) = p_vars (spec_run cs) /\ all_true (model_val st) (p_cls (spec_run cs) ++ unit_clauses A)
  | Ok (false, _) => forall V, ~ all_true V (p_cls (spec_run cs) ++ unit_clauses A)
  | Panic => False
  | NoFuel => True
  end.
Proof.
  intros cfg orc fuel cs A Inc Hm So P HA. pose proof (proper_run cfg orc fuel Inc Hm So cs spec_new (solver_new, []) hist_new P) as R. unfold sask.
  destruct (srun cfg orc fuel cs (solver_new, [])) as [s | |]; cbn [rbind rspec] in *; auto. fold (spec_run cs) in R.
  pose proof (hist_solve cfg orc fuel _ _ _ _ _ A Inc Hm So R HA) as Q. destruct (solve_with_assumptions cfg orc fuel A (fst s)) as [[b st] | |]; cbn [rspec] in Q; auto.
  destruct Q as [_ Q]. unfold answers in Q. cbn [fst snd] in Q. destruct b; exact Q.
Qed.
Print Assumptions C35_states_restored.
(** A state is loaded: the variables, clauses, learnt clauses and unit clauses are those of the moment at which it was saved. *)
Theorem C35_load_restores : forall cfg orc fuel cs i s s' sn, g_incremental cfg = true -> g_min cfg <> MinNone -> (forall t l, Permutation (o_sort orc t l) l) ->
  proper cfg orc fuel (cs ++ [SLoad i]) spec_new (solver_new, []) -> srun cfg orc fuel cs (solver_new, []) = Ok s -> nth_error (snd s) i = Some sn ->
  load cfg orc fuel i s = Ok s' ->
  length (s_vars (fst s')) = n_vars sn /\ s_clauses (fst s') = firstn (n_clauses sn) (s_clauses (fst s)) /\ s_learnts (fst s') = firstn (n_learnts sn) (s_learnts (fst s)) /\
  s_units (fst s') = firstn (n_units sn) (s_units (fst s)) /\ snd s' = firstn (S i) (snd s).
Proof.
  intros cfg orc fuel cs i s s' sn Inc Hm So P R E L.
  assert (G : forall cs p s0 s, proper cfg orc fuel (cs ++ [SLoad i]) p s0 -> srun cfg orc fuel cs s0 = Ok s -> proper cfg orc fuel cs p s0 /\ distinct (SLoad i) s /\ i < length (p_saved (fold_left (fun x c => spec_call c x) cs p))).
  { clear. induction cs as [| c r IH]; intros p s0 s P R; [cbn in R; inversion R; subst; split; [exact I | split; apply P] |]. cbn [app proper srun fold_left] in *. destruct P as (P1 & P2 & P3).
    destruct (sdo_call cfg orc fuel c s0) as [s1 | |]; try discriminate. cbn [rbind] in R. destruct (IH _ _ _ (P3 s1 eq_refl) R) as (K1 & K2 & K3). split; [| auto]. split; auto. split; auto. intros s2 E2. inversion E2. subst. auto. }
  destruct (G cs spec_new (solver_new, []) s P R) as (P1 & P2 & P3). pose proof (proper_run cfg orc fuel Inc Hm So cs spec_new (solver_new, []) hist_new P1) as H. rewrite R in H. cbn [rspec] in H. fold (spec_run cs) in *.
  unfold load in L. rewrite E in L. destruct (nth_error (p_saved (spec_run cs)) i) as [[m Fs] |] eqn:E2; [| apply nth_error_None in E2; lia].
  destruct (h_s _ _ _ _ _ H i sn m Fs E E2) as [_ K]. assert (Ap : apart sn (fst s)) by (intros a b Ha Hb N [K1 K2]; exact (P2 sn E a b Ha Hb N K1)).
  pose proof (load_ok cfg orc fuel sn Fs (fst s) Inc (hist_stru _ _ _ _ _ H) (h_x _ _ _ _ _ H) K Ap) as Q. destruct (load_state cfg orc fuel sn (fst s)) as [st | |]; try discriminate. cbn [rbind] in L. inversion L; subst s'. cbn [rspec fst snd] in *.
  destruct Q as (_ & Q1 & Q2 & Q3 & Q4 & _). auto.
Qed.
Print Assumptions C35_load_restores.
Definition st_cfg : sconfig := mkCfg MinDeep true true false.
Definition st_orc : oracle := mkO (fun _ v => Z.of_nat v) (fun _ => 100) (fun _ => false) (fun _ => false) (fun _ l => l) (fun _ _ => false) (fun _ _ _ => true).
(** Example: the later clauses and the third variable are taken back. *)
Definition ex_state : list scall := [SNewVar true; SNewVar true; SAdd [0; 2]; SSave; SNewVar true; SAdd [1; 4]; SAdd [3; 5]; SSolve [3; 5]; SAdd [3]; SSolve []; SLoad 0].
(** A check of the hypotheses by computation, for the examples. *)
Definition allowedb (c : scall) (p : spec) : bool :=
  match c with
  | SAdd ps => forallb (fun l => l <? 2 * p_vars p) ps
  | SSolve a => forallb (fun l => l <? 2 * p_vars p) a
  | SLoad i => i <? length (p_saved p)
  | _ => true
  end.
Definition unlikeb (st : solver) (c d : nat) : bool :=
  if list_eq_dec Nat.eq_dec (c_data (nth c (s_arena st) dcl)) (c_data (nth d (s_arena st) dcl)) then false else true.
Definition distinctb (c : scall) (s : solver * list snapshot) : bool :=
  match c with
  | SLoad i =>
    match nth_error (snd s) i with
    | None => true
    | Some sn => forallb (fun a => forallb (fun b => (a =? b) || unlikeb (fst s) a b) (s_clauses (fst s))) (skipn (n_clauses sn) (s_clauses (fst s)))
    end
  | _ => true
  end.
Fixpoint properb (cfg : sconfig) (orc : oracle) (fuel : nat) (cs : list scall) (p : spec) (s : solver * list snapshot) : bool :=
  match cs with
  | [] => true
  | c :: r => allowedb c p && distinctb c s && match sdo_call cfg orc fuel c s with Ok s1 => properb cfg orc fuel r (spec_call c p) s1 | _ => true end
  end.
Lemma properb_ok : forall cfg orc fuel cs p s, properb cfg orc fuel cs p s = true -> proper cfg orc fuel cs p s.
Proof.
  intros cfg orc fuel. induction cs as [| c r IH]; intros p s H; [exact I |]. cbn [properb proper] in *. apply andb_prop in H. destruct H as [H H3]. apply andb_prop in H. destruct H as [H1 H2]. split; [| split].
  - destruct c; cbn [allowed allowedb] in *; auto.
    + intros l Hl. rewrite forallb_forall in H1. apply Nat.ltb_lt, H1, Hl.
    + intros l Hl. rewrite forallb_forall in H1. apply Nat.ltb_lt, H1, Hl.
    + apply Nat.ltb_lt, H1.
  - destruct c; cbn [distinct distinctb] in *; auto. intros sn E. rewrite E in H2. intros a b Ha Hb N. rewrite forallb_forall in H2. specialize (H2 a Ha). rewrite forallb_forall in H2. specialize (H2 b Hb).
    apply orb_prop in H2. destruct H2 as [H2 | H2]; [apply Nat.eqb_eq in H2; contradiction |]. unfold unlikeb in H2. destruct (list_eq_dec Nat.eq_dec _ _) in H2; [discriminate | assumption].
  - intros s1 E. rewrite E in H3. auto.
Qed.
Example C35_proper_ex : proper st_cfg st_orc 200 ex_state spec_new (solver_new, []) /\ p_cls (spec_run ex_state) = [[0; 2]] /\ p_vars (spec_run ex_state) = 2 /\
  match sask st_cfg st_orc 200 ex_state [3] with Ok (b, st) => b = true /\ s_model st = [true; false] | _ => False end /\
  match sask st_cfg st_orc 200 ex_state [1; 3] with Ok (b, _) => b = false | _ => False end.
Proof. split; [apply properb_ok; vm_compute; reflexivity |]. vm_compute. auto. Qed.
(** ** Finding: duplicate clauses *)
(** [detach_clause] searches the watcher of the removed clause by comparing the contents of the clauses. A clause is added,
    a state is saved, the same clause is added again, the state is loaded: the watchers of the first copy are removed, and the
    second copy stays in the watch lists. After a call to the solver has reordered its literals, loading the first state does
    not find it any more, and the clause stays on the solver although it has been added after the state was saved. *)
Definition ex_dup : list scall :=
  [SNewVar true; SNewVar true; SNewVar true; SSave; SAdd [0; 2; 4]; SSave; SAdd [0; 2; 4]; SLoad 1; SSolve [1]; SLoad 0].
Lemma sask_get : forall cfg orc fuel cs a b, match sask cfg orc fuel cs a with Ok (x, _) => Bool.eqb x b | _ => false end = true ->
  exists s st, srun cfg orc fuel cs (solver_new, []) = Ok s /\ solve_with_assumptions cfg orc fuel a (fst s) = Ok (b, st).
Proof.
  intros cfg orc fuel cs a b H. unfold sask in H. destruct (srun cfg orc fuel cs (solver_new, [])) as [s | |]; cbn in H; try discriminate.
  destruct (solve_with_assumptions cfg orc fuel a (fst s)) as [[x st] | |] eqn:E; try discriminate. apply eqb_prop in H. subst. eauto.
Qed.
Theorem C35_duplicates_refuted : exists cfg orc fuel cs A s st,
  g_min cfg = MinDeep /\ g_incremental cfg = true /\ (forall t l, Permutation (o_sort orc t l) l) /\
  srun cfg orc fuel cs (solver_new, []) = Ok s /\ solve_with_assumptions cfg orc fuel A (fst s) = Ok (false, st) /\
  exists V, all_true V (p_cls (spec_run cs) ++ unit_clauses A).
Proof.
  exists st_cfg, st_orc, 200, ex_dup, [1; 3; 5]. destruct (sask_get st_cfg st_orc 200 ex_dup [1; 3; 5] false) as (s & st & H1 & H2); [vm_compute; reflexivity |].
  exists s, st. repeat (split; [first [reflexivity | assumption | intros; apply Permutation_refl] |]). exists (fun _ => false). cbn. intros c [<- | [<- | [<- | []]]].
  - exists 1. split; [left; reflexivity | reflexivity].
  - exists 3. split; [left; reflexivity | reflexivity].
  - exists 5. split; [left; reflexivity | reflexivity].
Qed.
Print Assumptions C35_duplicates_refuted.
