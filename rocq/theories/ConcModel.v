(** The append-only vector (src/collections/append_vec.rs) and the formula caches on top of it
    (src/formulas/formula_cache/*_cache.rs) under concurrency.

    The model is a transition system over an arbitrary number of threads with a release/acquire memory: every thread has a view
    (the non-atomic writes which happen before its current point, and the newest value of [count] it has seen).  A load of [count]
    may return any value which is not older than the view; an acquire load adds the view of the message it reads; a successful
    compare-exchange with [Release] adds a message which carries the view of the thread and, as part of the release sequence,
    the view of the message it replaces.  Non-atomic accesses which are not ordered by the view, reads of null pointers or
    uninitialised cells, accesses outside of a block and overwriting lead to [Bad].

    Simplified: allocation never fails; [usize] counters do not wrap; [drop] is not modelled (exclusive access). *)
From Coq Require Import List Arith Bool.
Import ListNotations.
Local Open Scope nat_scope.

(** append_vec.rs 38-40 *)
Definition bin_size (b : nat) : nat := 8 * 2 ^ b.
(** append_vec.rs 31-37; [BITS - 1 - leading_zeros] is the binary logarithm. *)
Definition indices (i : nat) : nat * nat := let j := i + 8 in let b := Nat.log2 j - 3 in (b, j - bin_size b).
(** append_vec.rs 10, 18-19: length of [data] on x86_64 *)
Definition BINS : nat := 44.

(** What a thread knows. *)
Record view := mkView { vcount : nat; vdata : nat -> bool; vcell : nat -> nat -> bool }.
Definition vjoin (a b : view) : view := mkView (Nat.max (vcount a) (vcount b)) (fun x => vdata a x || vdata b x) (fun x y => vcell a x y || vcell b x y).
Definition vempty : view := mkView 0 (fun _ => false) (fun _ _ => false).
Definition know_count (n : nat) (w : view) : view := mkView (Nat.max n (vcount w)) (vdata w) (vcell w).
Definition know_data (b : nat) (w : view) : view := mkView (vcount w) (fun x => (x =? b) || vdata w x) (vcell w).
Definition know_cell (blk o : nat) (w : view) : view := mkView (vcount w) (vdata w) (fun x y => ((x =? blk) && (y =? o)) || vcell w x y).

Definition upd {A} (f : nat -> A) (x : nat) (a : A) : nat -> A := fun y => if y =? x then a else f y.

Section Model.
  (** [T]: the stored elements; [key]: what the reverse map hashes (equivalence_cache.rs 40: the sorted pair;
      nary_formula_cache.rs 64: the set of operands); [shard]: the shard of the DashMap of a key. *)
  Variables (T K : Type) (key : T -> K) (keyb : K -> K -> bool) (shard : K -> nat).

  (** Positions in [push], append_vec.rs 101-156. *)
  Inductive ppc :=
  | Reserving                     (* before fetch_add, 102 *)
  | Loading (idx : nat)           (* before [self.len()], 104 and 118 *)
  | Allocating (idx : nat)        (* 106-115 *)
  | Reading (idx : nat)           (* reading the pointer, 124 and 130 *)
  | Writing (idx blk : nat)       (* 137 *)
  | Publishing (idx : nat).       (* compare_exchange, 144 *)
  Inductive pc :=
  | Idle
  | Dead (idx : nat)              (* panicked in [push]: more than 44 bins *)
  | Push (c : bool) (v : T) (p : ppc)   (* [c]: called from get_or_insert *)
  | Idx1 (i : nat)                (* Index::index 170: length check *)
  | Idx2 (i : nat)                (* 176: reading the pointer *)
  | Idx3 (i blk : nat)            (* 177: reading the cell *)
  | Fast (e : T)                  (* simple_cache.rs 31, var_cache.rs 30: [get] *)
  | Lock (e : T)                  (* [entry]: waiting for the lock of the shard *)
  | Lookup (e : T)                (* holding the lock *)
  | Insert (e : T) (idx : nat).   (* [or_insert_with] after the closure *)

  Record state := mkSt {
    reserved : nat; msgs : list view;                            (* message [n] is the write of the value [n] to [count] *)
    data : nat -> option nat; sizes : nat -> nat; heap : nat -> nat -> option T; next : nat;
    locks : nat -> option nat; lviews : nat -> view; dmap : list (K * nat);
    boxes : nat -> view;                                         (* other synchronisation between threads *)
    pcs : nat -> pc; views : nat -> view }.
  (** append_vec.rs 155-160 *)
  Definition init : state := mkSt 0 [vempty] (fun _ => None) (fun _ => 0) (fun _ _ => None) 0 (fun _ => None) (fun _ => vempty) [] (fun _ => vempty) (fun _ => Idle) (fun _ => vempty).
  Definition latest (s : state) : nat := length (msgs s) - 1.

  Inductive op := OpPush (v : T) | OpIndex (i : nat) | OpLen (n : nat) | OpGet (e : T) | OpEntry (e : T) | OpSend (m : nat) | OpRecv (m : nat).
  (** A thread starts an operation, or makes its next step; [n] is the value it reads from [count]. *)
  Inductive action := Begin (t : nat) (o : op) | Step (t n : nat).
  Inductive event :=
  | EPush (t : nat) (v : T) (i : nat) | EPushPanic (t : nat) | EIndex (t i : nat) (v : T) | EIndexPanic (t i : nat) | ELen (t n : nat)
  | EGot (t : nat) (e : T) (i : nat) | ESend (t m : nat) | ERecv (t m : nat).
  Inductive outcome := Disabled | Bad | Next (s : state) (ev : list event).

  Definition goto (s : state) (t : nat) (p : pc) (w : view) : state :=
    mkSt (reserved s) (msgs s) (data s) (sizes s) (heap s) (next s) (locks s) (lviews s) (dmap s) (boxes s) (upd (pcs s) t p) (upd (views s) t w).
  Definition may_read (s : state) (t n : nat) : bool := (vcount (views s t) <=? n) && (n <=? latest s).
  (** View after [count.load(Acquire)] returned [n], append_vec.rs 96-98. *)
  Definition acquired (s : state) (t n : nat) : view := vjoin (views s t) (nth n (msgs s) vempty).
  Fixpoint assoc (k : K) (m : list (K * nat)) : option nat := match m with [] => None | (k', i) :: r => if keyb k k' then Some i else assoc k r end.
  (** Leaving the critical section of the shard of [e]. *)
  Definition unlock (s : state) (t : nat) (e : T) : state :=
    let h := shard (key e) in
    mkSt (reserved s) (msgs s) (data s) (sizes s) (heap s) (next s) (upd (locks s) h None) (upd (lviews s) h (vjoin (lviews s h) (views s t))) (dmap s) (boxes s) (pcs s) (views s).
  (** Leaving [push] with a panic; the guard of the shard is dropped. *)
  Definition die (s : state) (t : nat) (c : bool) (v : T) (idx : nat) : outcome :=
    let s' := if c then unlock s t v else s in Next (goto s' t (Dead idx) (views s t)) [EPushPanic t].

  Definition push_step (s : state) (t n : nat) (c : bool) (v : T) (p : ppc) : outcome :=
    let w := views s t in
    match p with
    | Reserving => Next (mkSt (reserved s + 1) (msgs s) (data s) (sizes s) (heap s) (next s) (locks s) (lviews s) (dmap s) (boxes s) (upd (pcs s) t (Push c v (Loading (reserved s)))) (views s)) []
    | Loading idx =>
        if may_read s t n then
          let '(b, o) := indices idx in
          let p' := if n <? 1 + idx - o then if o =? 0 then Allocating idx else Loading idx else Reading idx in
          Next (goto s t (Push c v p') (acquired s t n)) []
        else Disabled
    | Allocating idx =>
        let '(b, o) := indices idx in
        if b <? BINS then
          match data s b with
          | Some _ => Bad
          | None => Next (mkSt (reserved s) (msgs s) (upd (data s) b (Some (next s))) (upd (sizes s) (next s) (bin_size b)) (heap s) (S (next s)) (locks s) (lviews s) (dmap s) (boxes s)
                      (upd (pcs s) t (Push c v (Writing idx (next s)))) (upd (views s) t (know_data b w))) []
          end
        else die s t c v idx
    | Reading idx =>
        let '(b, o) := indices idx in
        if b <? BINS then match data s b with Some blk => if vdata w b then Next (goto s t (Push c v (Writing idx blk)) w) [] else Bad | None => Bad end
        else die s t c v idx
    | Writing idx blk =>
        let '(b, o) := indices idx in
        if o <? sizes s blk then
          match heap s blk o with
          | Some _ => Bad
          | None => Next (mkSt (reserved s) (msgs s) (data s) (sizes s) (upd (heap s) blk (upd (heap s blk) o (Some v))) (next s) (locks s) (lviews s) (dmap s) (boxes s)
                      (upd (pcs s) t (Push c v (Publishing idx))) (upd (views s) t (know_cell blk o w))) []
          end
        else Bad
    | Publishing idx =>
        if may_read s t n then
          if n =? idx then
            if n =? latest s then
              let m := know_count (S idx) (vjoin w (nth n (msgs s) vempty)) in
              Next (mkSt (reserved s) (msgs s ++ [m]) (data s) (sizes s) (heap s) (next s) (locks s) (lviews s) (dmap s) (boxes s)
                (upd (pcs s) t (if c then Insert v idx else Idle)) (upd (views s) t (know_count (S idx) w))) [EPush t v idx]
            else Disabled                                        (* a read-modify-write reads the newest value *)
          else Next (goto s t (Push c v (Publishing idx)) (know_count n w)) []
        else Disabled
    end.

  Definition step (s : state) (t n : nat) : outcome :=
    let w := views s t in
    match pcs s t with
    | Idle | Dead _ => Disabled
    | Push c v p => push_step s t n c v p
    | Idx1 i => if may_read s t n then if i <? n then Next (goto s t (Idx2 i) (acquired s t n)) [] else Next (goto s t Idle (acquired s t n)) [EIndexPanic t i] else Disabled
    | Idx2 i => let '(b, o) := indices i in match data s b with Some blk => if vdata w b && (b <? BINS) then Next (goto s t (Idx3 i blk) w) [] else Bad | None => Bad end
    | Idx3 i blk =>
        let '(b, o) := indices i in
        if o <? sizes s blk then match heap s blk o with Some v => if vcell w blk o then Next (goto s t Idle w) [EIndex t i v] else Bad | None => Bad end else Bad
    | Fast e =>
        let h := shard (key e) in
        match locks s h with
        | Some _ => Disabled
        | None => let w' := vjoin w (lviews s h) in match assoc (key e) (dmap s) with Some i => Next (goto s t Idle w') [EGot t e i] | None => Next (goto s t (Lock e) w') [] end
        end
    | Lock e =>
        let h := shard (key e) in
        match locks s h with
        | Some _ => Disabled
        | None => Next (mkSt (reserved s) (msgs s) (data s) (sizes s) (heap s) (next s) (upd (locks s) h (Some t)) (lviews s) (dmap s) (boxes s) (upd (pcs s) t (Lookup e)) (upd (views s) t (vjoin w (lviews s h)))) []
        end
    | Lookup e =>
        match assoc (key e) (dmap s) with
        | Some i => Next (goto (unlock s t e) t Idle w) [EGot t e i]
        | None => Next (goto s t (Push true e Reserving) w) []
        end
    | Insert e idx =>
        let s1 := unlock s t e in
        Next (mkSt (reserved s1) (msgs s1) (data s1) (sizes s1) (heap s1) (next s1) (locks s1) (lviews s1) ((key e, idx) :: dmap s1) (boxes s1) (upd (pcs s1) t Idle) (views s1)) [EGot t e idx]
    end.

  Definition begin (s : state) (t : nat) (o : op) : outcome :=
    let w := views s t in
    match pcs s t with
    | Idle =>
        match o with
        | OpPush v => Next (goto s t (Push false v Reserving) w) []
        | OpIndex i => Next (goto s t (Idx1 i) w) []
        | OpLen n => if may_read s t n then Next (goto s t Idle (acquired s t n)) [ELen t n] else Disabled
        | OpGet e => Next (goto s t (Fast e) w) []
        | OpEntry e => Next (goto s t (Lock e) w) []
        | OpSend m => Next (mkSt (reserved s) (msgs s) (data s) (sizes s) (heap s) (next s) (locks s) (lviews s) (dmap s) (upd (boxes s) m (vjoin (boxes s m) w)) (pcs s) (views s)) [ESend t m]
        | OpRecv m => Next (goto s t Idle (vjoin w (boxes s m))) [ERecv t m]
        end
    | _ => Disabled
    end.
  Definition exec (s : state) (a : action) : outcome := match a with Begin t o => begin s t o | Step t n => step s t n end.
  (** A schedule, newest action first; the trace of events, newest event first. *)
  Fixpoint run (l : list action) : outcome :=
    match l with
    | [] => Next init []
    | a :: r => match run r with Next s tr => match exec s a with Next s' ev => Next s' (ev ++ tr) | x => x end | x => x end
    end.
End Model.
Arguments Idle {T}. Arguments Dead {T}. Arguments Idx1 {T}. Arguments Idx2 {T}. Arguments Idx3 {T}. Arguments Push {T}. Arguments Fast {T}. Arguments Lock {T}. Arguments Lookup {T}. Arguments Insert {T}.
Arguments Disabled {T K}. Arguments Bad {T K}. Arguments Next {T K}.
Arguments Begin {T}. Arguments Step {T}. Arguments OpPush {T}. Arguments OpIndex {T}. Arguments OpLen {T}. Arguments OpGet {T}. Arguments OpEntry {T}. Arguments OpSend {T}. Arguments OpRecv {T}.
Arguments EPush {T}. Arguments EPushPanic {T}. Arguments EIndex {T}. Arguments EIndexPanic {T}. Arguments ELen {T}. Arguments EGot {T}. Arguments ESend {T}. Arguments ERecv {T}.
Arguments reserved {T K}. Arguments msgs {T K}. Arguments data {T K}. Arguments sizes {T K}. Arguments heap {T K}. Arguments next {T K}. Arguments locks {T K}. Arguments lviews {T K}.
Arguments dmap {T K}. Arguments boxes {T K}. Arguments pcs {T K}. Arguments views {T K}. Arguments latest {T K}. Arguments goto {T K}. Arguments may_read {T K}. Arguments acquired {T K}. Arguments mkSt {T K}.
