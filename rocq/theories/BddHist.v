(** Sequences of calls on one kernel. *)
From Coq Require Import NArith ZArith Arith List Bool Lia.
From Verif Require Import Base Syntax FactoryBasics AssignmentModel BddSpec BddModel BddLink BddTable BddMake BddRep BddOps BddBuild BddNew BddQuant BddDen BddCount BddEnum.
Import ListNotations.
Local Open Scope res_scope.

(* ------------------------------------------------------------------------------------------------------------------ *)
(** * What a node of the table stands for *)

(** Follow the decisions of [v] through the table from node [n]: the reference meaning of a [Bdd] (its index) in a kernel. *)
Fixpoint walk (fuel : nat) (k : kernel) (v : valuation) (n : nat) : res bool :=
  match fuel with
  | O => NoFuel
  | S fuel =>
      if n =? 0 then Ok false
      else if n =? 1 then Ok true
      else
        do nd <- getn (k_nodes k) n;
        do x <- of_opt (nth_error (k_names k) (n_level nd));
        if v x then walk fuel k v (n_high nd) else do lo <- of_opt (n_low nd); walk fuel k v lo
  end.
Definition value (k : kernel) (n : nat) (v : valuation) : res bool := walk (S (k_varnum k)) k v n.

Lemma walk_ok : forall fuel k v n t, kinv k -> wr k n t -> tbelow (length (k_names k)) t -> k_varnum k - top (k_varnum k) t < fuel ->
  walk fuel k v n = Ok (teval t (wof (k_names k) v)).
Proof.
  induction fuel as [ | fuel IH]; intros k v n t K W T Hf; [lia | ]. cbn [walk].
  destruct (le_lt_dec 2 n) as [H2 | H2].
  2: { rewrite (wr_lt2 _ _ _ W H2). destruct n as [ | [ | n]]; [ | | lia]; reflexivity. }
  destruct (Nat.eqb_spec n 0); [lia | ]. destruct (Nat.eqb_spec n 1); [lia | ].
  destruct (wr_ge2 _ _ _ W H2) as (l & a & b & ->). cbn [top tbelow] in *. destruct T as (Tl & T1 & T2).
  assert (EL := level_wr _ _ _ K W). destruct (node_wr _ _ _ _ _ W) as (_ & Hl & Ta & Tb & Hne & lo & hi & El & Eh & Wa & Wb & _).
  unfold level_of, low_of, high_of in *. destruct (getn (k_nodes k) n) as [nd | | ]; cbn [rbind] in *; try discriminate.
  injection EL as EL. injection Eh as Eh. rewrite EL, El, Eh. cbn [top] in *.
  destruct (nth_error (k_names k) l) as [x | ] eqn:Ex; [ | apply nth_error_None in Ex; lia]. cbn [of_opt rbind teval].
  rewrite <- (vw_wof (k_names k) v l x Ex). destruct (wof (k_names k) v l).
  - apply IH; auto. lia.
  - apply IH; auto. lia.
Qed.

Lemma den_value : forall k own n f, api k own -> den k n f -> forall v, value k n v = Ok (f v).
Proof.
  intros k own n f A (t & W & H) v. unfold value. rewrite (walk_ok _ k v n t); [ | apply A | auto | eapply den_tbelow; eauto; [apply A | apply W] | lia].
  f_equal. apply H. apply vw_wof.
Qed.

(* ------------------------------------------------------------------------------------------------------------------ *)
(** * Calls *)

(** The public calls; BDDs are named by their position among those the user holds.  The results of restrict, exists and for_all are
    not kept: nothing protects their nodes (see the refutation in Properties_Bdd). *)
Inductive call :=
| CBuild (a : fml)
| CBuildH (h : handler) (a : fml)
| CRestrict (i : nat) (ls : list lit)
| CExists (i : nat) (us : list var)
| CForall (i : nat) (us : list var)
| CCount (i : nat)
| CPaths (one : bool) (i : nat)
| CEnum (i : nat) (us : option (list var))
| CNormal (cnf : bool) (i : nat)
| CFormula (i : nat).

Definition state := (kernel * list (nat * fml))%type.

(** The formula recorded beside a held node is what it was built from; the code does not see it. *)
Definition step (st : state) (c : call) : res state :=
  let '(k, held) := st in
  let on i (g : nat -> res kernel) := match nth_error held i with None => Ok st | Some (n, _) => do k' <- g n; Ok (k', held) end in
  match c with
  | CBuild a => do ' (k', n) <- from_formula k a; Ok (k', (n, a) :: held)
  | CBuildH h a => do ' (k', _, o) <- from_formula_h k h a; Ok (k', match o with Some n => (n, a) :: held | None => held end)
  | CRestrict i ls => on i (fun n => do ' (k', _) <- bdd_restrict k n ls; Ok k')
  | CExists i us => on i (fun n => do ' (k', _) <- bdd_exists k n us; Ok k')
  | CForall i us => on i (fun n => do ' (k', _) <- bdd_forall k n us; Ok k')
  | CCount i => on i (fun n => do ' (k', _) <- sat_count k n; Ok k')
  | CPaths one i => on i (fun n => do ' (k', _) <- (if one then path_count_one k n else path_count_zero k n); Ok k')
  | CEnum i us => on i (fun n => do ' (k', _) <- enumerate k n us; Ok k')
  | CNormal cnf i => on i (fun n => do ' (k', _) <- normal_form k n cnf; Ok k')
  | CFormula i => on i (fun n => do _ <- to_formula k n; Ok k)
  end.

Definition run (st : state) (cs : list call) : res state := rfold step st cs.

(** Calls within the documented use: formulas without constraints over the kernel's variables [vs]; no contradictory restriction;
    enumeration only over known variables, normal forms only once all variables are known. *)
Definition call_ok (vs : list var) (k : kernel) (c : call) : Prop :=
  match c with
  | CBuild a | CBuildH _ a => pure a /\ incl (bvars a) vs
  | CRestrict _ ls => noncontra ls /\ incl (map lit_var ls) vs
  | CExists _ us | CForall _ us => incl us vs
  | CEnum _ (Some us) => incl us (k_names k)
  | CNormal _ _ => length (k_names k) = k_varnum k
  | _ => True
  end.
Fixpoint calls_ok (vs : list var) (st : state) (cs : list call) : Prop :=
  match cs with
  | [] => True
  | c :: cs => call_ok vs (fst st) c /\ match step st c with Ok st' => calls_ok vs st' cs | _ => True end
  end.
Definition is_q (c : call) : bool := match c with CRestrict _ _ | CExists _ _ | CForall _ _ => true | _ => false end.
Definition qcalls (cs : list call) : N := N.of_nat (length (filter is_q cs)).

Record hist (vs : list var) (st : state) : Prop := mkHist {
  h_api : api (fst st) (map fst (snd st));
  h_room : room vs (fst st);
  h_den : forall n a, In (n, a) (snd st) -> den (fst st) n (fun v => sem v a) }.

Lemma own_in : forall (held : list (nat * fml)) n a, In (n, a) held -> In n (map fst held).
Proof. intros held n a H. apply in_map_iff. exists (n, a). auto. Qed.

Lemma hist_ext : forall vs k k' held, hist vs (k, held) -> api k' (map fst held) -> room vs k' -> extq (map fst held) k k' -> hist vs (k', held).
Proof.
  intros vs k k' held [A R D] A' R' X. constructor; cbn [fst snd] in *; auto. intros n a H. eapply den_extq_own; eauto. eapply own_in; eauto.
Qed.
Lemma hist_add : forall vs k k' held x a, hist vs (k, held) -> api k' (x :: map fst held) -> room vs k' -> ext (map fst held) k k' ->
  den k' x (fun v => sem v a) -> hist vs (k', (x, a) :: held).
Proof.
  intros vs k k' held x a [A R D] A' R' X Dx. constructor; cbn [fst snd map] in *; auto. intros n b [E | H].
  - injection E as <- <-. auto.
  - eapply den_ext_own; eauto. eapply own_in; eauto.
Qed.
Lemma room_ext : forall vs own k k', room vs k -> ext own k k' -> k_names k' = k_names k -> room vs k'.
Proof. intros vs own k k' (R1 & R2 & R3) X N. split; [auto | ]. rewrite (e_varnum _ _ _ X), N. auto. Qed.

Theorem step_ok : forall vs k held c, hist vs (k, held) -> call_ok vs k c -> (is_q c = true -> (k_qid k < 2147483647)%N) ->
  exists k' held', step (k, held) c = Ok (k', held') /\ hist vs (k', held') /\ (k_qid k' <= k_qid k + if is_q c then 1 else 0)%N.
Proof.
  intros vs k held c H C Q. assert (H0 := H). destruct H0 as [A R D]. cbn [fst snd] in *.
  assert (On : forall i (g : nat -> res kernel) (b : bool), (forall n a, In (n, a) held -> den k n (fun v => sem v a) ->
       exists k', g n = Ok k' /\ api k' (map fst held) /\ room vs k' /\ extq (map fst held) k k' /\ (k_qid k' <= k_qid k + if b then 1 else 0)%N) ->
     exists k' held', match nth_error held i with None => Ok (k, held) | Some (n, _) => do k' <- g n; Ok (k', held) end = Ok (k', held') /\ hist vs (k', held') /\
       (k_qid k' <= k_qid k + if b then 1 else 0)%N).
  { intros i g b G. destruct (nth_error held i) as [[n a] | ] eqn:E.
    - apply nth_error_In in E. destruct (G n a E (D n a E)) as (k' & Ek & A' & R' & X & B). rewrite Ek. cbn [rbind]. exists k', held. split; [auto | ].
      split; [exact (hist_ext _ _ _ _ H A' R' X) | auto].
    - exists k, held. split; [auto | ]. split; [auto | ]. destruct b; lia. }
  assert (Init : forall n a, In (n, a) held -> den k n (fun v => sem v a) -> api (init_ref k) (map fst held) /\ room vs (init_ref k) /\ extq (map fst held) k (init_ref k) /\
       (k_qid (init_ref k) <= k_qid k + 0)%N).
  { intros n a _ _. split; [apply api_init; auto | ]. split; [exact R | ]. split; [apply ext_extq; apply init_ext | cbn; lia]. }
  destruct c as [a | h a | i ls | i us | i us | i | one i | i us | cnf i | i]; cbn [call_ok is_q] in *; cbn [step].
  - destruct C as (P & I). destruct (from_formula_den vs a k _ P I A R) as (k' & x & E & A' & X & R' & Dx). rewrite E. cbn [rbind].
    exists k', ((x, a) :: held). split; [auto | ]. split; [exact (hist_add _ _ _ _ _ _ H A' R' X Dx) | ]. rewrite (e_qid _ _ _ X). lia.
  - destruct C as (P & I). destruct (from_formula_h_den vs a k h _ P I A R) as (k' & h' & o & E & X & R' & Do). rewrite E. cbn [rbind].
    destruct o as [x | ]; destruct Do as (Do1 & Do2).
    + exists k', ((x, a) :: held). split; [auto | ]. split; [exact (hist_add _ _ _ _ _ _ H Do1 R' X Do2) | ]. rewrite (e_qid _ _ _ X). lia.
    + exists k', held. split; [auto | ]. split; [exact (hist_ext _ _ _ _ H Do2 R' (ext_extq _ _ _ X)) | ]. rewrite (e_qid _ _ _ X). lia.
  - apply (On i _ true). intros n a I Dn. destruct C as (C1 & C2).
    destruct (restrict_den vs k _ n _ ls A R (own_in _ _ _ I) Dn C1 C2 (Q eq_refl)) as (k' & x & g & E & A' & X & R' & _). rewrite E. cbn [rbind].
    exists k'. split; [auto | ]. split; [auto | ]. split; [auto | ]. split; [auto | ]. apply X.
  - apply (On i _ true). intros n a I Dn.
    destruct (exists_den vs k _ n _ us A R (own_in _ _ _ I) Dn C (Q eq_refl)) as (k' & x & g & E & A' & X & R' & _). rewrite E. cbn [rbind].
    exists k'. split; [auto | ]. split; [auto | ]. split; [auto | ]. split; [auto | ]. apply X.
  - apply (On i _ true). intros n a I Dn.
    destruct (forall_den vs k _ n _ us A R (own_in _ _ _ I) Dn C (Q eq_refl)) as (k' & x & g & E & A' & X & R' & _). rewrite E. cbn [rbind].
    exists k'. split; [auto | ]. split; [auto | ]. split; [auto | ]. split; [auto | ]. apply X.
  - apply (On i _ false). intros n a I Dn. destruct (sat_count_den k _ n _ A Dn) as (k' & E & A' & X & N & _). rewrite E. cbn [rbind].
    exists k'. split; [auto | ]. split; [auto | ]. split; [eapply room_ext; eauto | ]. split; [apply ext_extq; auto | ]. rewrite (e_qid _ _ _ X). lia.
  - apply (On i _ false). intros n a I (t & W & _). destruct (path_count_api one k _ n t A W) as (k' & E & A' & X & N & _). rewrite E. cbn [rbind].
    exists k'. split; [auto | ]. split; [auto | ]. split; [eapply room_ext; eauto | ]. split; [apply ext_extq; auto | ]. rewrite (e_qid _ _ _ X). lia.
  - apply (On i _ false). intros n a I Dn. exists (init_ref k). split; [ | eapply Init; eauto]. destruct us as [us | ].
    + destruct (enumerate_proj_den k _ n _ us A Dn C) as (ms & E & _). rewrite E. auto.
    + destruct (enumerate_all_den k _ n _ A Dn) as (ms & E & _). rewrite E. auto.
  - apply (On i _ false). intros n a I Dn. exists (init_ref k). split; [ | eapply Init; eauto].
    destruct (normal_form_den cnf k _ n _ A Dn C) as (ts & E & _). rewrite E. auto.
  - apply (On i _ false). intros n a I Dn. exists k. destruct (to_formula_den k _ n _ A Dn) as (b & E & _). rewrite E. cbn [rbind].
    split; [auto | ]. split; [auto | ]. split; [auto | ]. split; [apply ext_extq; apply ext_refl | lia].
Qed.

Theorem run_ok : forall vs cs k held, hist vs (k, held) -> calls_ok vs (k, held) cs -> (k_qid k + qcalls cs <= 2147483647)%N ->
  exists st', run (k, held) cs = Ok st' /\ hist vs st' /\ (k_qid (fst st') <= k_qid k + qcalls cs)%N.
Proof.
  intros vs cs. induction cs as [ | c cs IH]; intros k held H C Q.
  - exists (k, held). split; [auto | ]. split; [auto | ]. cbn [fst]. lia.
  - cbn [calls_ok fst] in C. destruct C as (C1 & C2).
    assert (EQ : qcalls (c :: cs) = ((if is_q c then 1 else 0) + qcalls cs)%N) by (unfold qcalls; cbn [filter]; destruct (is_q c); cbn [length]; lia).
    rewrite EQ in *. destruct (step_ok vs k held c H C1) as (k' & held' & E & H' & B). { intros Hq. rewrite Hq in Q. lia. }
    rewrite E in C2. destruct (IH k' held' H' C2) as (st' & E' & H'' & B'); [destruct (is_q c); lia | ].
    exists st'. split; [unfold run in *; cbn [rfold]; rewrite E; cbn [rbind]; exact E' | ]. split; [auto | ]. destruct (is_q c); lia.
Qed.

(** A fresh kernel. *)
Lemma hist_new : forall prime vs size csize, prime_ok prime -> NoDup vs -> (N.of_nat (length vs) <= 2097151)%N -> 3 <= size -> 1 <= csize ->
  exists k, new_kernel prime (length vs) size csize = Ok k /\ hist vs (k, []) /\ k_qid k = 0%N.
Proof.
  intros prime vs size csize P ND L S C. destruct (new_kernel_api prime (length vs) size csize P L S C) as (k & E & A & V & N & Q). exists k. split; [auto | ]. split; [ | auto].
  constructor; cbn [fst snd map]; auto; [ | intros n a []]. split; [auto | ]. rewrite V, N. split; [auto | intros x []].
Qed.
Lemma hist_ordering : forall prime vs size csize, prime_ok prime -> NoDup vs -> (N.of_nat (length vs) <= 2097151)%N -> 3 <= size -> 1 <= csize ->
  exists k, new_with_ordering prime vs size csize = Ok k /\ hist vs (k, []) /\ k_qid k = 0%N.
Proof.
  intros prime vs size csize P ND L S C. destruct (new_with_ordering_api prime vs size csize P ND L S C) as (k & E & A & V & N & Q). exists k. split; [auto | ]. split; [ | auto].
  constructor; cbn [fst snd map]; auto; [ | intros n a []]. split; [auto | ]. rewrite V, N. split; [auto | apply incl_refl].
Qed.
