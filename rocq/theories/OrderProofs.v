(** The variable orderings: every variable of the formula once, in the documented order. *)
From Coq Require Import NArith ZArith List Bool Arith Lia Permutation Sorted SpecFloat.
From Verif Require Import Base EncodingModel EncodingProofs Syntax FactoryModel FactoryInv FactoryBasics FactoryProofs FactoryOps EvalProofs OpsModel OpsProofs
  ConstraintProofs CacheModel TransModel TreeSpec WorldProofs MetricsProofs EncodeProofs NnfProofs DefBasics TseitinProofs EncoderProofs MiniModel MiniProofs OrderModel.
Import ListNotations.
Local Open Scope nat_scope.
Local Open Scope res_scope.

(* ------------------------------------------------------------------------------------------------------------------ *)
(** * First occurrences *)

(** The list without repetitions, every element at its first position. *)
Definition firsts (l : list var) : list var := fold_left add_new_var l [].
Lemma existsb_var : forall u l, existsb (var_eqb u) l = true <-> In u l.
Proof.
  intros u l. rewrite existsb_exists. split.
  - intros (w & Hw & E). apply var_eqb_spec in E. now subst.
  - intros H. exists u. split; [assumption | apply var_eqb_refl].
Qed.
Lemma existsb_var_f : forall u l, existsb (var_eqb u) l = false <-> ~ In u l.
Proof. intros u l. rewrite <- existsb_var. destruct (existsb (var_eqb u) l); split; congruence. Qed.
Lemma fold_new_in : forall l acc u, In u (fold_left add_new_var l acc) <-> In u acc \/ In u l.
Proof.
  induction l as [| w l IH]; intros acc u; cbn [fold_left]; [cbn [In]; tauto |]. rewrite IH. unfold add_new_var. destruct (existsb (var_eqb w) acc) eqn:E.
  - apply existsb_var in E. cbn [In]. split; [tauto |]. intros [H | [-> | H]]; auto.
  - rewrite in_app_iff. cbn [In]. tauto.
Qed.
Lemma fold_new_nodup : forall l acc, NoDup acc -> NoDup (fold_left add_new_var l acc).
Proof.
  induction l as [| w l IH]; intros acc H; cbn [fold_left]; [assumption |]. apply IH. unfold add_new_var. destruct (existsb (var_eqb w) acc) eqn:E; [assumption |].
  apply existsb_var_f in E. now apply NoDup_snoc.
Qed.
Lemma firsts_in : forall l u, In u (firsts l) <-> In u l.
Proof. intros l u. unfold firsts. rewrite fold_new_in. cbn [In]. tauto. Qed.
Lemma firsts_nodup : forall l, NoDup (firsts l).
Proof. intros l. apply fold_new_nodup. constructor. Qed.
Lemma firsts_app : forall a b, firsts (a ++ b) = fold_left add_new_var b (firsts a).
Proof. intros a b. unfold firsts. apply fold_left_app. Qed.

(* ------------------------------------------------------------------------------------------------------------------ *)
(** * Depth first *)

Lemma mono_dfs : forall fuel h m, mono (dfs_rec fuel h m).
Proof.
  induction fuel as [| fuel IH]; intros h m; cbn [dfs_rec]; [apply mono_nofuel |].
  apply mono_bind; [auto with mono |]. intros n. destruct n; try apply mono_ret; apply mono_mfold; exact IH.
Qed.
Lemma dfs_spec : forall fuel x W s h m l, inv W s -> vh s h -> denotes s h x -> (depth x < fuel)%nat -> m = firsts l ->
  xspec W s (dfs_rec fuel h m) (fun m' _ _ => m' = firsts (l ++ fvars x)).
Proof.
  induction fuel as [| fuel IH]; intros x W s h m l Hi Hv Hd Hf Hp; [lia |]. cbn [dfs_rec].
  destruct (open_node _ _ _ _ Hi Hv Hd) as [n [Hu [Hvs Hds]]]. eapply x_unpack_bind; [exact Hu |].
  assert (Hfold : flat_map fvars (children x) = fvars x -> xspec W s (mfold (dfs_rec fuel) (node_operands n) m)
            (fun m' _ _ => m' = firsts (l ++ fvars x))).
  { intros E. rewrite <- E. apply (x_mfold_trees _ _ (fun d m => m = firsts (l ++ flat_map fvars d)) _ (children x) [] W s m); auto.
    - intros. apply mono_dfs.
    - cbn [flat_map]. rewrite app_nil_r. assumption.
    - intros d o y b t W' Hy Hi' He Hvo Hdo Hb. eapply x_conseq; [apply (IH y); eauto; apply children_depth in Hy; lia |].
      cbn beta. intros m' s1 W1 _ _ _ H. rewrite flat_map_app. cbn [flat_map]. rewrite app_nil_r, app_assoc. exact H. }
  node_cases n Hu Hd.
  - apply Hfold; reflexivity.
  - apply Hfold; reflexivity.
  - apply x_ret; [assumption |]. rewrite firsts_app. reflexivity.
  - apply Hfold. cbn [children flat_map]. apply app_nil_r.
  - apply Hfold. cbn [children]. apply flat_map_fvars.
  - apply Hfold. cbn [children]. apply flat_map_fvars.
  - apply Hfold. cbn [children flat_map]. unfold fvars. cbn [leaves]. rewrite flat_map_app, app_nil_r. reflexivity.
  - apply Hfold. cbn [children flat_map]. unfold fvars. cbn [leaves]. rewrite flat_map_app, app_nil_r. reflexivity.
  - apply x_ret; [assumption |]. unfold fvars. cbn [leaves flat_map leaf_vars]. rewrite app_nil_r. now rewrite firsts_app.
  - apply x_ret; [assumption |]. unfold fvars. cbn [leaves flat_map leaf_vars]. rewrite app_nil_r. now rewrite firsts_app.
Qed.

(* ------------------------------------------------------------------------------------------------------------------ *)
(** * Breadth first *)

(** The nodes below a node; a negative literal is a node above its variable. *)
Definition bchildren (x : fml) : list fml :=
  match x with FLit l => if lit_phase l then [] else [FLit (Lit (lit_var l) true)] | _ => children x end.
(** The variables at distance [k] of the root, from left to right. *)
Fixpoint level (k : nat) (x : fml) : list var :=
  match k with
  | O => match x with FLit l => if lit_phase l then [lit_var l] else [] | FCc c => cc_vars c | FPbc p => map lit_var (pb_lits p) | _ => [] end
  | S k' => flat_map (level k') (bchildren x)
  end.
(** Level by level. *)
Definition level_order (x : fml) : list var := flat_map (fun k => level k x) (seq 0 (depth x + 2)).

Fixpoint bsize (x : fml) : nat :=
  match x with
  | FLit l => if lit_phase l then 1 else 2
  | FNot a => 1 + bsize a
  | FAnd l | FOr l => 1 + list_sum (map bsize l)
  | FImpl a b | FEquiv a b => 1 + (bsize a + bsize b)
  | _ => 1
  end.
Lemma bsize_children : forall x, bsize x = 1 + list_sum (map bsize (bchildren x)).
Proof.
  intros [| | l | a | l | l | a b | a b | c | p]; cbn [bsize bchildren children map list_sum fold_right]; try lia; try reflexivity; unfold list_sum; cbn [fold_right]; try lia.
  destruct (lit_phase l); cbn [map fold_right bsize lit_phase]; lia.
Qed.
Definition fits (K : nat) (x : fml) : Prop := forall k, K <= k -> level k x = [].
Lemma fits_children : forall K x, fits (S K) x -> Forall (fits K) (bchildren x).
Proof.
  intros K x H. apply Forall_forall. intros y Hy k Hk. specialize (H (S k) ltac:(lia)). cbn [level] in H.
  destruct (level k y) as [| u r] eqn:E; [reflexivity | exfalso]. assert (I : In u (flat_map (level k) (bchildren x))) by (apply in_flat_map; exists y; rewrite E; split; [assumption | now left]).
  rewrite H in I. destruct I.
Qed.
Lemma fits_le : forall K K' x, K <= K' -> fits K x -> fits K' x.
Proof. intros K K' x H Hf k Hk. apply Hf. lia. Qed.

(** What is still to come if the queue is [A ++ B], where [A] is the rest of a level. *)
Definition todo (K : nat) (A B : list fml) : list var :=
  flat_map (level 0) A ++ flat_map (fun k => flat_map (level k) B ++ flat_map (level (S k)) A) (seq 0 K).
Lemma todo_step : forall K x A B, todo K (x :: A) B = level 0 x ++ todo K A (B ++ bchildren x).
Proof.
  intros K x A B. unfold todo. change (flat_map (level 0) (x :: A)) with (level 0 x ++ flat_map (level 0) A). rewrite <- app_assoc. f_equal. f_equal. apply flat_map_ext. intros k.
  rewrite flat_map_app, <- app_assoc. f_equal.
Qed.
Lemma todo_swap : forall K B, Forall (fits K) B -> todo K [] B = todo (pred K) B [].
Proof.
  intros [| K] B H; unfold todo; cbn [pred seq flat_map app].
  - rewrite app_nil_r. symmetry. induction B as [| x B IH]; [reflexivity |]. inversion H; subst. change (level 0 x ++ flat_map (level 0) B = []). rewrite IH by assumption. rewrite app_nil_r.
    apply H2. lia.
  - rewrite app_nil_r. f_equal. rewrite <- seq_shift. rewrite flat_map_concat_map, map_map, <- flat_map_concat_map. apply flat_map_ext. intros k. apply app_nil_r.
Qed.
Lemma todo_nil : forall K, todo K [] [] = [].
Proof. intros K. unfold todo. cbn [flat_map app]. induction (seq 0 K); [reflexivity | assumption]. Qed.

Definition open (s : factory) (h : N) (x : fml) : Prop := vh s h /\ denotes s h x.
Lemma bfs_spec : forall fuel W s K A B qa qb acc, inv W s -> Forall2 (open s) qa A -> Forall2 (open s) qb B -> Forall (fits (S K)) A -> Forall (fits K) B ->
  list_sum (map bsize (A ++ B)) < fuel -> bfs_loop fuel (qa ++ qb) acc s = (Ok (fold_left add_new_var (todo K A B) acc), s).
Proof.
  induction fuel as [| fuel IH]; intros W s K A B qa qb acc Hi HA HB FA FB Hf; [lia |].
  assert (Step : forall K x A B h qa qb, open s h x -> Forall2 (open s) qa A -> Forall2 (open s) qb B -> fits (S K) x -> Forall (fits (S K)) A -> Forall (fits K) B ->
    list_sum (map bsize (x :: A ++ B)) < S fuel -> bfs_loop (S fuel) (h :: qa ++ qb) acc s = (Ok (fold_left add_new_var (todo K (x :: A) B) acc), s)).
  { clear K A B qa qb HA HB FA FB Hf. intros K x A B h qa qb [Hv Hd] HA HB Fx FA FB Hf. cbn [bfs_loop].
    destruct (open_node _ _ _ _ Hi Hv Hd) as [n [Hu [Hvs Hds]]]. unfold bind at 1, unpackM, lift. cbn beta iota. rewrite Hu.
    rewrite todo_step, fold_left_app. cbn [map list_sum fold_right] in Hf. unfold list_sum in Hf. cbn [fold_right] in Hf. fold (list_sum (map bsize (A ++ B))) in Hf. rewrite bsize_children in Hf.
    assert (Q : bchildren x = children x -> level 0 x = [] -> bfs_loop fuel ((qa ++ qb) ++ node_operands n) acc s =
      (Ok (fold_left add_new_var (todo K A (B ++ bchildren x)) (fold_left add_new_var (level 0 x) acc)), s)).
    { intros E E0. rewrite E0. cbn [fold_left]. rewrite <- app_assoc. apply (IH W); auto.
      - apply Forall2_app; [assumption |]. rewrite E. clear -Hvs Hds. induction Hds; constructor; inversion Hvs; subst; [split; assumption | auto].
      - apply Forall_app. split; [assumption | now apply fits_children].
      - rewrite app_assoc, map_app, list_sum_app. lia. }
    assert (Q0 : bchildren x = [] -> bfs_loop fuel (qa ++ qb) (fold_left add_new_var (level 0 x) acc) s =
      (Ok (fold_left add_new_var (todo K A (B ++ bchildren x)) (fold_left add_new_var (level 0 x) acc)), s)).
    { intros E. rewrite E, app_nil_r. apply (IH W); auto. lia. }
    node_cases n Hu Hd.
    - apply Q; reflexivity.
    - apply Q; reflexivity.
    - destruct (lit_phase l) eqn:P.
      + specialize (Q0 ltac:(cbn [bchildren]; now rewrite P)). cbn [level] in Q0 |- *. rewrite P in Q0 |- *. exact Q0.
      + destruct (vcase_lit_ok s h l (wf_cap _ (i_wf _ _ Hi)) Hv Hu) as [-> Hok]. cbn [level bchildren] in *. rewrite P in *. cbn [fold_left]. rewrite <- app_assoc. apply (IH W); auto.
        * apply Forall2_app; [assumption |]. constructor; [| constructor]. split; [apply vh_lit; exact Hok | apply encode_unpack; [apply (wf_cap _ (i_wf _ _ Hi)) | exact Hok]].
        * apply Forall_app. split; [assumption |]. pose proof (fits_children K _ Fx) as G. cbn [bchildren] in G. rewrite P in G. exact G.
        * rewrite app_assoc, map_app, list_sum_app. lia.
    - apply Q; reflexivity.
    - apply Q; reflexivity.
    - apply Q; reflexivity.
    - apply Q; reflexivity.
    - apply Q; reflexivity.
    - apply Q0; reflexivity.
    - apply Q0; reflexivity. }
  destruct HA as [| h x qa A Hx HA].
  - destruct HB as [| h x qb B Hx HB].
    + rewrite todo_nil. reflexivity.
    + rewrite todo_swap by assumption. cbn [app]. rewrite <- (app_nil_r qb). apply Step; auto.
      * inversion FB; subst. apply (fits_le K); [lia | assumption].
      * inversion FB; subst. eapply Forall_impl; [| eassumption]. intros y. apply fits_le. lia.
      * rewrite app_nil_r. exact Hf.
  - inversion FA; subst. cbn [app]. apply Step; auto.
Qed.

Lemma fits_depth : forall d x, depth x <= d -> fits (d + 2) x.
Proof.
  induction d as [| d IH]; intros x Hd k Hk.
  - destruct k as [| [| k]]; [lia | lia |]. cbn [level]. destruct x as [| | l | a | l | l | a b | a b | c | p]; try reflexivity; try (cbn [depth] in Hd; lia).
    cbn [bchildren]. destruct (lit_phase l); reflexivity.
  - destruct k as [| k]; [lia |]. cbn [level]. assert (G : forall y, In y (bchildren x) -> level k y = []).
    { intros y Hy. destruct x as [| | l | a | l | l | a b | a b | c | p]; cbn [bchildren] in Hy; try (destruct Hy; fail);
        try (apply IH; [apply children_depth in Hy; lia | lia]).
      destruct (lit_phase l); [destruct Hy |]. destruct Hy as [<- | []]. destruct k as [| k]; [lia | reflexivity]. }
    revert G. induction (bchildren x) as [| y r J]; intros G; [reflexivity |]. cbn [flat_map]. rewrite (G y (or_introl eq_refl)). apply J. intros z Hz. apply G. now right.
Qed.
Lemma bsize_nodes : forall x, bsize x <= 2 * N.to_nat (nodes x).
Proof.
  assert (L : forall l, Forall (fun x => bsize x <= 2 * N.to_nat (nodes x)) l -> list_sum (map bsize l) <= 2 * N.to_nat (fold_right (fun y n => (nodes y + n)%N) 0%N l)).
  { intros l H. induction H as [| y r Hy H IH]; [cbn; lia |]. cbn [map fold_right]. unfold list_sum in *. cbn [fold_right]. lia. }
  induction x as [| | l | a IH | l IH | l IH | a b IHa IHb | a b IHa IHb | c | p] using fml_ind2; cbn [bsize nodes]; try (destruct (lit_phase l)); try lia; specialize (L l IH); lia.
Qed.
Theorem bfs_ordering_spec : forall fuel W s h x, inv W s -> vh s h -> denotes s h x -> 2 * N.to_nat (nodes x) < fuel ->
  bfs_ordering fuel h s = (Ok (firsts (level_order x)), s).
Proof.
  intros fuel W s h x Hi Hv Hd Hf. unfold bfs_ordering. change [h] with ([h] ++ []).
  rewrite (bfs_spec fuel W s (S (depth x)) [x] [] [h] [] [] Hi); auto.
  - f_equal. f_equal. unfold firsts, level_order, todo. f_equal. cbn [flat_map]. rewrite !app_nil_r. replace (depth x + 2) with (S (S (depth x))) by lia. change (seq 0 (S (S (depth x)))) with (0 :: seq 1 (S (depth x))).
    cbn [flat_map]. f_equal. rewrite <- seq_shift, flat_map_concat_map, (flat_map_concat_map _ (map S _)), map_map. f_equal. apply map_ext. intros k. cbn [app]. now rewrite app_nil_r.
  - repeat constructor; assumption.
  - constructor; [| constructor]. replace (S (S (depth x))) with (depth x + 2) by lia. now apply fits_depth.
  - cbn [map app]. unfold list_sum. cbn [fold_right]. pose proof (bsize_nodes x). lia.
Qed.

(** The levels have the variables of the formula. *)
Lemma level_in : forall k x u, In u (level k x) -> In u (fvars x).
Proof.
  induction k as [| k IH]; intros x u H.
  - destruct x as [| | l | a | l | l | a b | a b | c | p]; cbn [level] in H; try (destruct H; fail); unfold fvars; cbn [leaves flat_map leaf_vars]; rewrite ?app_nil_r; try assumption.
    destruct (lit_phase l); [assumption | destruct H].
  - cbn [level] in H. apply in_flat_map in H. destruct H as (y & Hy & H). apply IH in H.
    destruct x as [| | l | a | l | l | a b | a b | c | p]; cbn [bchildren] in Hy; try (destruct Hy; fail);
      try (apply fvars_children; [reflexivity | exists y; split; assumption]).
    destruct (lit_phase l); [destruct Hy |]. destruct Hy as [<- | []]. exact H.
Qed.
Lemma in_level : forall x u, In u (fvars x) -> exists k, In u (level k x).
Proof.
  assert (G : forall d x u, depth x <= d -> In u (fvars x) -> exists k, In u (level k x)).
  { induction d as [| d IH]; intros x u Hd H.
    - destruct x as [| | l | a | l | l | a b | a b | c | p]; try (cbn [depth] in Hd; lia); unfold fvars in H; cbn [leaves flat_map leaf_vars] in H; rewrite ?app_nil_r in H; try (destruct H; fail).
      + destruct (lit_phase l) eqn:P; [exists 0 | exists 1; cbn [level bchildren flat_map]]; cbn [level]; rewrite P; [assumption |]. cbn [flat_map level lit_phase lit_var app]. exact H.
      + exists 0. exact H.
      + exists 0. exact H.
    - destruct (atomic x) eqn:A.
      + apply IH; [| assumption]. destruct x; try discriminate A; cbn [depth]; lia.
      + apply fvars_children in H; [| assumption]. destruct H as (y & Hy & H). destruct (IH y u) as (k & Hk); [apply children_depth in Hy; lia | assumption |].
        exists (S k). cbn [level]. apply in_flat_map. exists y. split; [| assumption]. destruct x; try discriminate A; exact Hy. }
  intros x u. apply (G (depth x)). apply Nat.le_refl.
Qed.
Lemma level_order_in : forall x u, In u (level_order x) <-> In u (fvars x).
Proof.
  intros x u. unfold level_order. rewrite in_flat_map. split.
  - intros (k & _ & H). eapply level_in; eauto.
  - intros H. apply in_level in H. destruct H as (k & H). exists k. split; [| assumption]. apply in_seq. split; [lia |].
    destruct (le_lt_dec (depth x + 2) k) as [L | L]; [| lia]. rewrite (fits_depth (depth x) x (Nat.le_refl _) k L) in H. destruct H.
Qed.

(* ------------------------------------------------------------------------------------------------------------------ *)
(** * Sorting *)

Lemma ins_by_perm : forall A leb (x : A) l, Permutation (ins_by leb x l) (x :: l).
Proof.
  intros A leb x l. induction l as [| y r IH]; cbn [ins_by]; [reflexivity |]. destruct (leb x y); [reflexivity |]. rewrite IH. apply perm_swap.
Qed.
Lemma sort_by_perm : forall A leb (l : list A), Permutation (sort_by leb l) l.
Proof. intros A leb l. induction l as [| x r IH]; cbn [sort_by]; [reflexivity |]. rewrite ins_by_perm. now constructor. Qed.
Lemma sort_by_sorted : forall A (leb : A -> A -> bool) l, (forall a b, leb a b = false -> leb b a = true) -> (forall a b c, leb a b = true -> leb b c = true -> leb a c = true) ->
  StronglySorted (fun a b => leb a b = true) (sort_by leb l).
Proof.
  intros A leb l Tot Tr. induction l as [| x r IH]; cbn [sort_by]; [constructor |]. revert IH. generalize (sort_by leb r). intros s Hs.
  induction Hs as [| y t Ht IH Hy]; cbn [ins_by]; [repeat constructor |]. destruct (leb x y) eqn:E.
  - constructor; [constructor; assumption |]. constructor; [assumption |]. eapply Forall_impl; [| exact Hy]. cbn beta. intros z Hz. eapply Tr; eauto.
  - constructor; [assumption |]. rewrite Forall_forall in *. intros z Hz. apply (Permutation_in _ (ins_by_perm _ leb x t)) in Hz. destruct Hz as [<- | Hz]; auto.
Qed.

(* ------------------------------------------------------------------------------------------------------------------ *)
(** * By number of occurrences *)

(** How [a] compares to [b]: numbers of occurrences in [l], then first positions in [d]. *)
Definition before (rev : bool) (l d : list var) (a b : var) : Prop :=
  let n := count_occ_var a l in let m := count_occ_var b l in
  (if rev then (m < n)%N else (n < m)%N) \/ n = m /\ exists i j, idx_of d a = Some i /\ idx_of d b = Some j /\ i <= j.

Lemma idx_from_in : forall l k v, In v l -> exists i, idx_from k l v = Some i.
Proof.
  induction l as [| x r IH]; intros k v H; [destruct H |]. cbn [idx_from]. destruct (var_eqb x v) eqn:E; [eauto |]. apply IH. destruct H as [<- | H]; [rewrite var_eqb_refl in E; discriminate | assumption].
Qed.
Lemma sorted_map : forall A B (f : A -> B) (R : A -> A -> Prop) (Q : B -> B -> Prop) l, StronglySorted R l -> (forall a b, In a l -> In b l -> R a b -> Q (f a) (f b)) -> StronglySorted Q (map f l).
Proof.
  intros A B f R Q l H. induction H as [| x r H IH Hx]; intros G; cbn [map]; constructor.
  - apply IH. intros a b Ha Hb. apply G; now right.
  - rewrite Forall_forall in *. intros y Hy. apply in_map_iff in Hy. destruct Hy as (z & <- & Hz). apply G; [now left | now right | auto].
Qed.
Lemma profile_keys : forall m l, profile m l -> NoDup (map fst m) /\ (forall u, In u (map fst m) <-> In u l) /\ forall u n, In (u, n) m -> n = count_occ_var u l.
Proof.
  intros m l [Hs Hp].
  assert (ND : NoDup (map fst m)).
  { unfold sortedm in Hs. induction Hs as [| x r Hs IH Hx]; constructor; [| assumption]. intros H. rewrite Forall_forall in Hx. specialize (Hx x H). rewrite var_ltb_irrefl in Hx. discriminate. }
  assert (C : forall u, count_occ_var u l = 0%N <-> ~ In u l).
  { intros u. clear. induction l as [| w r IH]; cbn [count_occ_var In]; [tauto |]. destruct (var_eqb w u) eqn:E.
    - apply var_eqb_spec in E. subst. split; [lia | tauto].
    - assert (w <> u) by (intros ->; rewrite var_eqb_refl in E; discriminate). rewrite N.add_0_l, IH. tauto. }
  assert (A : forall u n, In (u, n) m -> assoc var_eqb u m = Some n).
  { clear Hs Hp C. induction m as [| [w k] r IH]; intros u n H; [destruct H |]. cbn [assoc]. inversion ND; subst. destruct H as [E | H].
    - injection E as -> ->. now rewrite var_eqb_refl.
    - destruct (var_eqb u w) eqn:E; [| now apply IH]. apply var_eqb_spec in E. subst. exfalso. apply H2. apply (in_map fst _ _ H). }
  split; [assumption |]. split.
  - intros u. specialize (Hp u). specialize (C u). split.
    + intros H. apply in_map_iff in H. destruct H as ([w n] & <- & H). cbn [fst] in *. rewrite (A w n H) in Hp. destruct (N.eqb_spec (count_occ_var w l) 0); [discriminate |].
      destruct (existsb (var_eqb w) l) eqn:E; [now apply existsb_var | apply existsb_var_f in E; tauto].
    + intros H. destruct (N.eqb_spec (count_occ_var u l) 0); [tauto |]. destruct (existsb (var_eqb u) (map fst m)) eqn:E; [now apply existsb_var |]. apply existsb_var_f in E.
      rewrite assoc_not_key in Hp by assumption. discriminate.
  - intros u n H. specialize (Hp u). rewrite (A u n H) in Hp. destruct (N.eqb (count_occ_var u l) 0); [discriminate |]. now injection Hp.
Qed.

Lemma run_positions : forall d m s, (forall u, In u (map fst m) -> In u d) ->
  exists t, mmap (fun p : var * N => i <-- lift (fun _ => of_opt (idx_of d (fst p))) ;; ret (fst p, (snd p, i))) m s = (Ok t, s) /\
    map fst t = map fst m /\ forall q, In q t -> In (fst q, fst (snd q)) m /\ idx_of d (fst q) = Some (snd (snd q)).
Proof.
  intros d m s. induction m as [| [u n] r IH]; intros H.
  - exists []. split; [reflexivity |]. split; [reflexivity |]. intros q [].
  - destruct (idx_from_in d 0 u (H u (or_introl eq_refl))) as (i & Hi). destruct IH as (t & E & E1 & E2); [intros w Hw; apply H; now right |].
    exists ((u, (n, i)) :: t). split.
    + cbn [mmap]. unfold bind, lift, ret in *. cbn [fst snd]. unfold idx_of. rewrite Hi. cbn [of_opt]. unfold idx_of in E. rewrite E. reflexivity.
    + split; [cbn [map fst]; now rewrite E1 |]. intros q [<- | Hq]; cbn [fst snd]; [split; [now left | exact Hi] |]. destruct (E2 q Hq). split; [now right | assumption].
Qed.

Lemma occ_leb_total : forall rev a b, occ_leb rev a b = false -> occ_leb rev b a = true.
Proof.
  intros rev [u [n i]] [w [m j]]. unfold occ_leb. cbn [snd]. rewrite (N.eqb_sym m n). destruct (N.eqb_spec n m).
  - intros H. apply Nat.leb_gt in H. apply Nat.leb_le. lia.
  - destruct rev; intros H; apply N.ltb_ge in H; apply N.ltb_lt; lia.
Qed.
Lemma occ_leb_trans : forall rev a b c, occ_leb rev a b = true -> occ_leb rev b c = true -> occ_leb rev a c = true.
Proof.
  intros rev [u [n i]] [w [m j]] [x [k l]]. unfold occ_leb. cbn [snd]. intros H1 H2.
  destruct (N.eqb_spec n m), (N.eqb_spec m k), (N.eqb_spec n k); destruct rev; rewrite ?Nat.leb_le, ?N.ltb_lt in *; lia.
Qed.

Theorem sort_ordering_spec : forall rev fuel x W s h, inv W s -> vh s h -> denotes s h x -> (depth x < fuel)%nat ->
  xspec W s (sort_ordering rev fuel h) (fun r _ _ => NoDup r /\ (forall u, In u r <-> In u (fvars x)) /\ StronglySorted (before rev (fvars x) (firsts (fvars x))) r).
Proof.
  intros rev fuel x W s h Hi Hv Hd Hf. unfold sort_ordering, variable_profile, dfs_ordering.
  assert (Mm : forall d (m : list (var * N)), mono (mmap (fun p : var * N => i <-- lift (fun _ => of_opt (idx_of d (fst p))) ;; ret (fst p, (snd p, i))) m)).
  { intros d m. apply mono_mmap. intros. apply mono_bind; [apply mono_lift | intros; apply mono_ret]. }
  eapply x_bind; [apply (variable_profile_spec fuel x W s h [] []); auto; split; [constructor | intros; reflexivity] |
    intros; apply mono_bind; [apply mono_dfs | intros; apply mono_bind; [apply Mm | intros; apply mono_ret]] |].
  intros m s1 W1 Hi1 He1 _ Hm. cbn [app] in Hm.
  eapply x_bind; [apply (dfs_spec fuel x W1 s1 h [] []); auto; [eapply vh_ext; eauto | eapply denotes_ext; eauto] | intros; apply mono_bind; [apply Mm | intros; apply mono_ret] |].
  intros d s2 W2 Hi2 He2 _ Hdfs. cbn [app] in Hdfs. subst d. destruct (profile_keys _ _ Hm) as (ND & K & C).
  destruct (run_positions (firsts (fvars x)) m s2) as (t & E & E1 & E2); [intros u Hu; apply firsts_in; now apply K |].
  eapply x_bind with (Q1 := fun t' _ _ => t' = t); [| intros; apply mono_ret |].
  { unfold xspec. rewrite E. cbn [fst snd]. split; [apply size_le_refl |]. intros _. exists t, W2. auto using sub_refl, ext_refl. }
  intros t' s3 W3 Hi3 _ _ ->. apply x_ret; [assumption |].
  assert (P : Permutation (map fst (sort_by (occ_leb rev) t)) (map fst m)) by (rewrite <- E1; apply Permutation_map; apply sort_by_perm).
  split; [eapply Permutation_NoDup; [symmetry; exact P | assumption] |].
  split; [intros u; rewrite <- K; split; apply Permutation_in; [exact P | symmetry; exact P] |].
  eapply sorted_map; [apply sort_by_sorted; [apply occ_leb_total | apply occ_leb_trans] |]. intros a b Ha Hb. 
  apply (Permutation_in _ (sort_by_perm _ (occ_leb rev) t)) in Ha. apply (Permutation_in _ (sort_by_perm _ (occ_leb rev) t)) in Hb.
  destruct (E2 a Ha) as [A1 A2]. destruct (E2 b Hb) as [B1 B2]. apply C in A1. apply C in B1. unfold before. rewrite <- A1, <- B1.
  destruct a as [u [n i]], b as [w [k j]]. unfold occ_leb. cbn [fst snd] in *. destruct (N.eqb_spec n k).
  - intros H. apply Nat.leb_le in H. right. split; [assumption |]. eauto.
  - destruct rev; intros H; apply N.ltb_lt in H; left; assumption.
Qed.

(* ------------------------------------------------------------------------------------------------------------------ *)
(** * FORCE *)

Definition hg_n (g : hypergraph) : nat := length (hg_nodes g).
(** Contents without repetitions, all indices in range. *)
Record hg_ok (g : hypergraph) : Prop := mkHgOk
  { ho_nodup : NoDup (hg_contents g);
    ho_edges : Forall (Forall (fun i => i < hg_n g)) (hg_edges g);
    ho_nodes : Forall (fun p => Forall (fun e => e < length (hg_edges g)) (snd p)) (hg_nodes g) }.

Lemma idx_lt : forall l v i, idx_of l v = Some i -> i < length l.
Proof.
  intros l v i H. apply idx_from_some in H. destruct H as [_ H]. rewrite Nat.sub_0_r in H. apply nth_error_Some. rewrite H. discriminate.
Qed.
Lemma clause_nodes_ok : forall vs g is g', clause_nodes vs g = (is, g') -> hg_ok g ->
  hg_ok g' /\ hg_edges g' = hg_edges g /\ hg_n g <= hg_n g' /\ Forall (fun i => i < hg_n g') is /\ forall u, In u (hg_contents g') <-> In u (hg_contents g) \/ In u vs.
Proof.
  induction vs as [| v r IH]; intros g is g' E Hg; cbn [clause_nodes] in E.
  - injection E as <- <-. split; [assumption |]. split; [reflexivity |]. split; [lia |]. split; [constructor |]. intros u. cbn [In]. tauto.
  - destruct (idx_of (hg_contents g) v) as [i |] eqn:I.
    + destruct (clause_nodes r g) as [is' g2] eqn:E2. injection E as <- <-. destruct (IH _ _ _ E2 Hg) as (H1 & H2 & H3 & H4 & H5). split; [assumption |]. split; [assumption |]. split; [assumption |].
      split; [constructor; [| assumption]; apply idx_lt in I; unfold hg_contents in I; rewrite map_length in I; unfold hg_n in *; lia |].
      intros u. rewrite H5. cbn [In]. split; [tauto |]. intros [H | [<- | H]]; auto. left. apply idx_from_some in I. destruct I as [_ I]. eapply nth_error_In; eauto.
    + unfold add_node in E. destruct (clause_nodes r (mkHg (hg_nodes g ++ [(v, [])]) (hg_edges g))) as [is' g2] eqn:E2. injection E as <- <-.
      assert (Hc : hg_contents (mkHg (hg_nodes g ++ [(v, [])]) (hg_edges g)) = hg_contents g ++ [v]) by (unfold hg_contents; cbn [hg_nodes]; now rewrite map_app).
      assert (Hl : hg_n (mkHg (hg_nodes g ++ [(v, [])]) (hg_edges g)) = S (hg_n g)) by (unfold hg_n; cbn [hg_nodes]; rewrite app_length; cbn [length]; lia).
      destruct (IH _ _ _ E2) as (H1 & H2 & H3 & H4 & H5).
      { destruct Hg as [G1 G2 G3]. constructor.
        - rewrite Hc. apply NoDup_snoc; [assumption |]. apply idx_from_none in I. exact I.
        - rewrite Hl. cbn [hg_edges]. eapply Forall_impl; [| exact G2]. intros e He. eapply Forall_impl; [| exact He]. cbn beta. intros; lia.
        - cbn [hg_nodes hg_edges]. apply Forall_app. split; [assumption |]. repeat constructor. }
      rewrite Hl in H3. split; [assumption |]. split; [exact H2 |]. split; [lia |]. split; [constructor; [| assumption]; unfold hg_n in *; lia |].
      intros u. rewrite H5, Hc, in_app_iff. cbn [In]. tauto.
Qed.
Lemma push_edge_fst : forall e i l, map fst (push_edge e i l) = map fst l.
Proof. intros e i l. revert i. induction l as [| [v es] r IH]; intros [| i]; cbn [push_edge map]; try reflexivity. now rewrite IH. Qed.
Lemma push_edges_fst : forall e is l, map fst (fold_left (fun l i => push_edge e i l) is l) = map fst l.
Proof. intros e is. induction is as [| i r IH]; intros l; cbn [fold_left]; [reflexivity |]. rewrite IH. apply push_edge_fst. Qed.
Lemma push_edge_lt : forall m e i (l : list (var * list nat)), e < m -> Forall (fun p => Forall (fun e => e < m) (snd p)) l -> Forall (fun p => Forall (fun e => e < m) (snd p)) (push_edge e i l).
Proof.
  intros m e i l He H. revert i. induction H as [| [v es] r Hp H IH]; intros [| i]; cbn [push_edge]; constructor; auto. cbn [snd] in *. apply Forall_app. auto.
Qed.
Lemma add_edge_ok : forall nodes g, hg_ok g -> Forall (fun i => i < hg_n g) nodes ->
  exists g', add_edge nodes g = Ok g' /\ hg_ok g' /\ hg_contents g' = hg_contents g.
Proof.
  intros nodes g [G1 G2 G3] H. unfold add_edge. assert (E : forallb (fun i => i <? length (hg_nodes g)) nodes = true) by (rewrite forallb_forall; rewrite Forall_forall in H; intros i Hi; apply Nat.ltb_lt; apply H; assumption).
  rewrite E. eexists. split; [reflexivity |]. set (g' := mkHg _ _). assert (Hc : hg_contents g' = hg_contents g) by (unfold hg_contents, g'; cbn [hg_nodes]; apply push_edges_fst).
  assert (Hn : hg_n g' = hg_n g) by (unfold hg_n; rewrite <- (map_length fst (hg_nodes g')), <- (map_length fst (hg_nodes g)); unfold hg_contents in Hc; now rewrite Hc).
  split; [| assumption]. constructor.
  - now rewrite Hc.
  - rewrite Hn. unfold g'. cbn [hg_edges]. apply Forall_app. split; [assumption | constructor; [assumption | constructor]].
  - unfold g'. cbn [hg_nodes hg_edges]. rewrite app_length. cbn [length]. clear -G3.
    assert (G : Forall (fun p : var * list nat => Forall (fun e => e < length (hg_edges g) + 1) (snd p)) (hg_nodes g)).
    { eapply Forall_impl; [| exact G3]. intros p Hp. eapply Forall_impl; [| exact Hp]. cbn beta. intros; lia. }
    revert G. generalize (hg_nodes g). induction nodes as [| i r IH]; intros l G; cbn [fold_left]; [assumption |]. apply IH. apply push_edge_lt; [lia | assumption].
Qed.

Lemma mono_hg_add_clause : forall fuel h g, mono (hg_add_clause fuel h g).
Proof. intros. apply mono_bind; [apply mono_variables | intros; apply mono_lift]. Qed.
Lemma hg_add_clause_spec : forall fuel c W s h g, inv W s -> vh s h -> denotes s h c -> (depth c < fuel)%nat -> hg_ok g ->
  xspec W s (hg_add_clause fuel h g) (fun g' _ _ => hg_ok g' /\ forall u, In u (hg_contents g') <-> In u (hg_contents g) \/ In u (fvars c)).
Proof.
  intros fuel c W s h g Hi Hv Hd Hf Hg. unfold hg_add_clause. eapply x_bind; [apply (variables_spec fuel c W); auto | intros; apply mono_lift |].
  intros vs s1 W1 Hi1 _ _ [_ Hvs]. destruct (clause_nodes vs g) as [is g1] eqn:E. destruct (clause_nodes_ok _ _ _ _ E Hg) as (H1 & H2 & H3 & H4 & H5).
  destruct (add_edge_ok is g1 H1 H4) as (g' & Eg & Hg' & Hc). eapply x_lift; [exact Eg | assumption |]. split; [assumption |]. intros u. rewrite Hc, H5, Hvs. tauto.
Qed.
Lemma mono_hypergraph : forall fuel h, mono (hypergraph_from_cnf fuel h).
Proof.
  intros fuel h. unfold hypergraph_from_cnf. cbv zeta. apply mono_bind; [apply mono_lift |]. intros n. destruct n; try apply mono_ret; try apply mono_fail; try apply mono_hg_add_clause.
  apply mono_mfold. intros. apply mono_hg_add_clause.
Qed.
Lemma hypergraph_spec : forall fuel y W s h, inv W s -> vh s h -> denotes s h y -> (depth y < fuel)%nat -> cnf_shape y = true ->
  xspec W s (hypergraph_from_cnf fuel h) (fun g _ _ => hg_ok g /\ forall u, In u (hg_contents g) <-> In u (fvars y)).
Proof.
  intros fuel y W s h Hi Hv Hd Hf Hy. unfold hypergraph_from_cnf. cbv zeta. destruct (open_node _ _ _ _ Hi Hv Hd) as [n [Hu [Hvs Hds]]]. eapply x_unpack_bind; [exact Hu |].
  assert (E0 : hg_ok (mkHg [] [])) by (repeat constructor).
  assert (C : xspec W s (hg_add_clause fuel h (mkHg [] [])) (fun g _ _ => hg_ok g /\ forall u, In u (hg_contents g) <-> In u (fvars y))).
  { eapply x_conseq; [apply (hg_add_clause_spec fuel y); auto |]. cbn beta. intros g s1 W1 _ _ _ [H1 H2]. split; [assumption |]. intros u. rewrite H2. cbn. tauto. }
  node_cases n Hu Hd; try discriminate Hy; try exact C.
  - apply x_ret; [assumption |]. split; [assumption |]. intros u. cbn. tauto.
  - apply x_ret; [assumption |]. split; [assumption |]. intros u. cbn. tauto.
  - eapply x_conseq; [apply (x_mfold_trees _ _ (fun d g => hg_ok g /\ forall u, In u (hg_contents g) <-> In u (flat_map fvars d)) _ x [] W s (mkHg [] [])); auto |].
    + intros. apply mono_hg_add_clause.
    + split; [assumption |]. intros u. cbn. tauto.
    + intros d o z g t W' Hz Hi' He Hvo Hdo [Hg Hc]. eapply x_conseq; [apply (hg_add_clause_spec fuel z); auto |].
      * assert (Hz' : In z (children (FAnd x))) by exact Hz. apply children_depth in Hz'. lia.
      * cbn beta. intros g' s1 W1 _ _ _ [H1 H2]. split; [assumption |]. intros u. rewrite H2, Hc, flat_map_app, in_app_iff. cbn [flat_map]. rewrite app_nil_r. tauto.
    + cbn beta. intros g s1 W1 _ _ _ [H1 H2]. split; [assumption |]. intros u. rewrite H2. cbn [app]. rewrite flat_map_fvars. unfold fvars. cbn [leaves]. tauto.
Qed.

Lemma res_map_ok : forall A B (f : A -> res B) l, (forall a, In a l -> exists b, f a = Ok b) -> exists bs, res_map f l = Ok bs /\ length bs = length l.
Proof.
  intros A B f l. induction l as [| a r IH]; intros H; cbn [res_map]; [exists []; auto |]. destruct (H a (or_introl eq_refl)) as (b & E). destruct IH as (bs & E1 & E2); [intros; apply H; now right |].
  exists (b :: bs). rewrite E, E1. cbn [rbind length]. auto.
Qed.
Lemma initial_ok : forall g d, (forall u, In u (hg_contents g) <-> In u d) -> exists o, initial_ordering g d = Ok o /\ length o = hg_n g.
Proof.
  intros g d H. unfold initial_ordering. assert (E : forallb (fun v => existsb (var_eqb v) (hg_contents g)) d = true) by (rewrite forallb_forall; intros u Hu; apply existsb_var; now apply H). rewrite E.
  destruct (res_map_ok _ _ (fun v => of_opt (idx_of d v)) (hg_contents g)) as (o & E1 & E2).
  - intros v Hv. destruct (idx_from_in d 0 v) as (i & Hi); [now apply H |]. exists i. unfold idx_of. now rewrite Hi.
  - exists o. split; [assumption |]. rewrite E2. unfold hg_contents, hg_n. apply map_length.
Qed.
Lemma order_length : forall ls, length (order_of_locations ls) = length ls.
Proof. intros ls. unfold order_of_locations. cbv zeta. now rewrite map_length, seq_length. Qed.
Lemma force_round_ok : forall g o, hg_ok g -> length o = hg_n g -> exists o', force_round g o = Ok o' /\ length o' = hg_n g.
Proof.
  intros g o [G1 G2 G3] Ho. unfold force_round. destruct (res_map_ok _ _ (fun p => new_location g o (snd p)) (hg_nodes g)) as (ls & E1 & E2).
  - intros p Hp. unfold new_location. rewrite Forall_forall in G3. specialize (G3 p Hp). 
    destruct (res_map_ok _ _ (fun e => do ns <- of_opt (nth_error (hg_edges g) e); center_of_gravity o ns) (snd p)) as (cs & F1 & _).
    + intros e He. rewrite Forall_forall in G3. specialize (G3 e He). destruct (nth_error (hg_edges g) e) as [ns |] eqn:En; [| apply nth_error_None in En; lia]. cbn [of_opt rbind]. unfold center_of_gravity.
      apply nth_error_In in En. rewrite Forall_forall in G2. specialize (G2 ns En). destruct (res_map_ok _ _ (fun i => of_opt (nth_error o i)) ns) as (lv & L1 & _).
      * intros i Hi. rewrite Forall_forall in G2. specialize (G2 i Hi). destruct (nth_error o i) as [k |] eqn:Ek; [exists k; reflexivity | apply nth_error_None in Ek; lia].
      * rewrite L1. cbn [rbind]. eauto.
    + rewrite F1. cbn [rbind]. eauto.
  - rewrite E1. cbn [rbind]. eexists. split; [reflexivity |]. rewrite order_length, E2. reflexivity.
Qed.
Lemma force_loop_ok : forall rounds g o, hg_ok g -> length o = hg_n g -> force_loop rounds g o = NoFuel \/ exists o', force_loop rounds g o = Ok o' /\ length o' = hg_n g.
Proof.
  induction rounds as [| n IH]; intros g o Hg Ho; cbn [force_loop]; [now left |]. destruct (force_round_ok g o Hg Ho) as (c & E & Hc). rewrite E. cbn [rbind].
  destruct (nats_eqb o c); [right; eauto | apply IH; assumption].
Qed.
Lemma NoDup_app_intro : forall A (a b : list A), NoDup a -> NoDup b -> (forall x, In x a -> ~ In x b) -> NoDup (a ++ b).
Proof.
  intros A a b Ha Hb H. induction Ha as [| x r Hx Ha IH]; cbn [app]; [assumption |]. constructor.
  - rewrite in_app_iff. intros [K | K]; [auto | exact (H x (or_introl eq_refl) K)].
  - apply IH. intros y Hy. apply H. now right.
Qed.
Lemma force_result_ok : forall g o vs, hg_ok g -> length o = hg_n g -> NoDup vs -> NoDup (force_result g o vs) /\ forall u, In u (force_result g o vs) <-> In u vs.
Proof.
  intros g o vs [G1 _ _] Ho Hv. unfold force_result. cbv zeta. set (ns := map fst _).
  assert (P : Permutation ns (hg_contents g)).
  { unfold ns. transitivity (map fst (combine (hg_contents g) o)); [apply Permutation_map, sort_by_perm |]. assert (L : length (hg_contents g) = length o) by (unfold hg_contents, hg_n in *; rewrite map_length; lia).
    revert L. generalize (hg_contents g). clear. induction o as [| k o IH]; intros [| x l] L; try discriminate L; cbn [combine map fst]; [constructor |]. constructor. apply IH. now injection L. }
  assert (N : NoDup ns) by (eapply Permutation_NoDup; [symmetry; exact P | assumption]). clearbody ns.
  split.
  - apply NoDup_app_intro; [now apply NoDup_filter | now apply NoDup_filter |]. intros x Hx Hy. apply filter_In in Hy. destruct Hy as [_ Hy]. apply negb_true_iff in Hy. apply existsb_var_f in Hy. auto.
  - intros u. rewrite in_app_iff, !filter_In, existsb_var, negb_true_iff. split; [tauto |]. intros H.
    destruct (existsb (var_eqb u) (filter (fun v => existsb (var_eqb v) vs) ns)) eqn:E; [| auto]. left. apply existsb_var in E. apply filter_In in E. destruct E as [E1 E2]. split; assumption.
Qed.

Definition force_prep (alg : cnf_algorithm) (fuel : nat) (h : N) : M (hypergraph * list nat * list var) :=
  vs <-- variables fuel h ;;
  n <-- nnf fuel h ;;
  ws <-- variables fuel n ;;
  c <-- cnf_transform alg fuel n (mkCnfEncoder None None) ;;
  g <-- hypergraph_from_cnf fuel (fst c) ;;
  dfs <-- dfs_ordering fuel (fst c) ;;
  init <-- lift (fun _ => initial_ordering g dfs) ;;
  ret (g, init, add_vars ws vs).
Lemma force_split : forall alg rounds fuel h s, force_ordering alg rounds fuel h s =
  (p <-- force_prep alg fuel h ;; lift (fun _ => do ord <- force_loop rounds (fst (fst p)) (snd (fst p)); Ok (force_result (fst (fst p)) ord (snd p)))) s.
Proof.
  intros alg rounds fuel h s. unfold force_ordering, force_prep, force, bind, lift, ret.
  destruct (variables fuel h s) as [[vs | |] s1]; try reflexivity. destruct (nnf fuel h s1) as [[n | |] s2]; try reflexivity.
  destruct (variables fuel n s2) as [[ws | |] s3]; try reflexivity. destruct (cnf_transform alg fuel n (mkCnfEncoder None None) s3) as [[c | |] s4]; try reflexivity.
  destruct (hypergraph_from_cnf fuel (fst c) s4) as [[g | |] s5]; try reflexivity. destruct (dfs_ordering fuel (fst c) s5) as [[d | |] s6]; try reflexivity.
  destruct (initial_ordering g d); reflexivity.
Qed.
Lemma force_prep_spec : forall alg fuel x W s h, inv W s -> hdl s h x -> encodable s x -> (8 * depth x + 26 <= fuel)%nat ->
  xspec W s (force_prep alg fuel h) (fun p s' W' => hg_ok (fst (fst p)) /\ length (snd (fst p)) = hg_n (fst (fst p)) /\ NoDup (snd p) /\
    exists y, refines W' x y /\ forall u, In u (snd p) <-> In u (fvars x) \/ In u (fvars y)).
Proof.
  intros alg fuel x W s h Hi Hx Hen Hf. unfold force_prep, dfs_ordering.
  assert (M7 : forall g d (vs : list var), mono (init <-- lift (fun _ => initial_ordering g d) ;; ret (g, init, vs))) by (intros; apply mono_bind; [apply mono_lift | intros; apply mono_ret]).
  assert (M6 : forall g c (vs : list var), mono (dfs <-- dfs_rec fuel c [] ;; init <-- lift (fun _ => initial_ordering g dfs) ;; ret (g, init, vs))) by (intros; apply mono_bind; [apply mono_dfs | intros; apply M7]).
  assert (M5 : forall c (vs : list var), mono (g <-- hypergraph_from_cnf fuel c ;; dfs <-- dfs_rec fuel c [] ;; init <-- lift (fun _ => initial_ordering g dfs) ;; ret (g, init, vs)))
    by (intros; apply mono_bind; [apply mono_hypergraph | intros; apply M6]).
  assert (M4 : forall n (vs : list var), mono (c <-- cnf_transform alg fuel n (mkCnfEncoder None None) ;; g <-- hypergraph_from_cnf fuel (fst c) ;; dfs <-- dfs_rec fuel (fst c) [] ;;
    init <-- lift (fun _ => initial_ordering g dfs) ;; ret (g, init, vs))) by (intros; apply mono_bind; [apply mono_cnf_transform | intros; apply M5]).
  assert (M3 : forall n (vs : list var), mono (ws <-- variables fuel n ;; c <-- cnf_transform alg fuel n (mkCnfEncoder None None) ;; g <-- hypergraph_from_cnf fuel (fst c) ;; dfs <-- dfs_rec fuel (fst c) [] ;;
    init <-- lift (fun _ => initial_ordering g dfs) ;; ret (g, init, add_vars ws vs))) by (intros; apply mono_bind; [apply mono_variables | intros; apply M4]).
  eapply x_bind; [apply (variables_spec fuel x W); auto; [apply Hx | apply Hx | lia] | intros; apply mono_bind; [apply mono_nnf_rec | intros; apply M3] |].
  intros vs s1 W1 Hi1 He1 Hs1 Hvs. apply (hdl_ext _ s1) in Hx; [| assumption].
  eapply x_bind; [apply (nnf_spec fuel x W1 s1 h); auto; [eapply encodable_ext; eauto | lia] | intros; apply M3 |].
  intros n s2 W2 Hi2 He2 Hs2 (y & Hy & Ry & Ny & Dy). pose proof (ndep_depth x true) as Hnd.
  eapply x_bind; [apply (variables_spec fuel y W2); auto; [apply Hy | apply Hy | lia] | intros; apply M4 |].
  intros ws s3 W3 Hi3 He3 Hs3 Hws. apply (hdl_ext _ s3) in Hy; [| assumption].
  eapply x_bind; [apply (cnf_transform_spec alg fuel y W3 s3 n (mkCnfEncoder None None)); auto; [apply con_free_leaves; now apply nnf_con_free | split; discriminate | lia] | intros; apply M5 |].
  intros c s4 W4 Hi4 He4 Hs4 (_ & z & Hz & Cz & _). pose proof (cnf_depth z Cz) as Dz.
  eapply x_bind; [apply (hypergraph_spec fuel z W4); auto; [apply Hz | apply Hz | lia] | intros; apply M6 |].
  intros g s5 W5 Hi5 He5 Hs5 [Hg Hgc]. apply (hdl_ext _ s5) in Hz; [| assumption].
  eapply x_bind; [apply (dfs_spec fuel z W5 s5 (fst c) [] []); auto; [apply Hz | apply Hz | lia] | intros; apply M7 |].
  intros d s6 W6 Hi6 He6 Hs6 Hd. cbn [app] in Hd. subst d. destruct (initial_ok g (firsts (fvars z))) as (o & Eo & Lo); [intros u; rewrite firsts_in; apply Hgc |].
  eapply x_lift_bind; [exact Eo |]. apply x_ret; [assumption |]. cbn [fst snd]. split; [assumption |]. split; [assumption |].
  destruct (vars_all_ok ws vs (fvars x) Hvs) as [A1 A2]. split.
  { revert A1. fold (add_vars ws vs). generalize (add_vars ws vs). intros l Hl. unfold strict in Hl. induction Hl as [| u r Hl IH Hu]; constructor; [| assumption]. intros H. rewrite Forall_forall in Hu.
    specialize (Hu u H). rewrite var_ltb_irrefl in Hu. discriminate. }
  exists y. split; [eapply refines_sub; [| exact Ry]; eauto using sub_trans |]. intros u. unfold add_vars. rewrite A2, in_app_iff. destruct Hws as [_ Hws]. rewrite Hws. tauto.
Qed.
(** Never a panic; and a result, if the loop ends, has every variable once. *)
Theorem force_ordering_spec : forall alg rounds fuel x W s h, inv W s -> hdl s h x -> encodable s x -> (8 * depth x + 26 <= fuel)%nat ->
  cap (snd (force_ordering alg rounds fuel h s)) ->
  fst (force_ordering alg rounds fuel h s) = NoFuel \/
  exists r y W', fst (force_ordering alg rounds fuel h s) = Ok r /\ refines W' x y /\ NoDup r /\ forall u, In u r <-> In u (fvars x) \/ In u (fvars y).
Proof.
  intros alg rounds fuel x W s h Hi Hx Hen Hf. rewrite force_split. destruct (force_prep_spec alg fuel x W s h Hi Hx Hen Hf) as [_ H].
  unfold bind. destruct (force_prep alg fuel h s) as [r s1] eqn:E. cbn [fst snd] in H. intros Hc.
  assert (Hc1 : cap s1) by (destruct r; exact Hc). destruct (H Hc1) as (p & W1 & -> & Hi1 & Hs1 & He1 & Hg & Hl & Hn & y & Hy & Hu).
  destruct p as [[g o] vs]. unfold lift. cbn [fst snd] in *.
  destruct (force_loop_ok rounds g o Hg Hl) as [-> | (o' & -> & Ho')]; cbn [rbind]; [now left |]. right.
  destruct (force_result_ok g o' vs Hg Ho' Hn) as [R1 R2]. exists (force_result g o' vs), y, W1. split; [reflexivity |]. split; [assumption |]. split; [assumption |]. intros u. rewrite R2. apply Hu.
Qed.
