(** Model of collections/lng_heap.rs: the variable order heap of the SAT solver.

    Simplifications: [usize] positions are [nat] (a vector never has 2^64 elements); the sentinel [MsVar::MAX] in
    [indices] is [None]; the activities ([f64]) are integers: the code only compares them, and every finite set of
    [f64] values other than NaN is order-isomorphic to a set of integers.  [debug_assert] is not modelled. *)
From Coq Require Import List Arith ZArith Bool.
From Verif Require Import Base Vec.
Import ListNotations.
Local Open Scope res_scope.

(** lng_heap.rs 6-9 *)
Record lheap := mkHeap { hp : list nat; hix : list (option nat) }.
(** lng_heap.rs 12-14 *)
Definition heap_new : lheap := mkHeap [] [].
(** lng_heap.rs 16-18 *)
Definition heap_empty (h : lheap) : bool := match hp h with [] => true | _ => false end.
(** lng_heap.rs 20-22 *)
Definition in_heap (h : lheap) (n : nat) : bool :=
  match nth_error (hix h) n with Some (Some _) => true | _ => false end.
(** lng_heap.rs 114-124 *)
Definition left_ (p : nat) : nat := p * 2 + 1.
Definition right_ (p : nat) : nat := (p + 1) * 2.
Definition parent_ (p : nat) : nat := Nat.div2 (p - 1).

(** [v[i]] and [v[i] = x] with the bounds check. *)
Definition vget {A} (l : list A) (i : nat) : res A := of_opt (nth_error l i).
Definition vset {A} (l : list A) (i : nat) (x : A) : res (list A) :=
  if (i <? length l)%nat then Ok (upd l i x) else Panic.
(** [self.heap[j] = x; self.indices[x.0] = j;] *)
Definition place (h : lheap) (j x : nat) : res lheap :=
  do a <- vset (hp h) j x; do b <- vset (hix h) x (Some j); Ok (mkHeap a b).

(** lng_heap.rs 81-89, the loop of [percolate_up] and the two writes after it *)
Fixpoint up_loop (acts : list Z) (fuel : nat) (h : lheap) (x j p : nat) : res lheap :=
  match fuel with
  | O => NoFuel
  | S fu =>
      if (j =? 0)%nat then place h j x
      else
        do ax <- vget acts x; do hpp <- vget (hp h) p; do ap <- vget acts hpp;
        if (ax >? ap)%Z then
          do h1 <- place h j hpp;
          up_loop acts fu h1 x p (if (p =? 0)%nat then 0 else parent_ p)
        else place h j x
  end.
(** lng_heap.rs 77-90 *)
Definition percolate_up (acts : list Z) (h : lheap) (pos : nat) : res lheap :=
  do x <- vget (hp h) pos;
  up_loop acts (S pos) h x pos (if (pos =? 0)%nat then 0 else parent_ pos).

(** lng_heap.rs 95-111, the loop of [percolate_down] and the two writes after it *)
Fixpoint down_loop (acts : list Z) (fuel : nat) (h : lheap) (y p : nat) : res lheap :=
  match fuel with
  | O => NoFuel
  | S fu =>
      if (left_ p <? length (hp h))%nat then
        do child <-
          (if (right_ p <? length (hp h))%nat then
             do hr <- vget (hp h) (right_ p); do hl <- vget (hp h) (left_ p);
             do ar <- vget acts hr; do al <- vget acts hl;
             Ok (if (ar >? al)%Z then right_ p else left_ p)
           else Ok (left_ p));
        do hc <- vget (hp h) child; do ac <- vget acts hc; do ay <- vget acts y;
        if (ac <=? ay)%Z then place h p y
        else do h1 <- place h p hc; down_loop acts fu h1 y child
      else place h p y
  end.
(** lng_heap.rs 92-112 *)
Definition percolate_down (acts : list Z) (h : lheap) (pos : nat) : res lheap :=
  do y <- vget (hp h) pos; down_loop acts (S (length (hp h))) h y pos.

(** lng_heap.rs 24-27; [indices[n]] = MAX makes the access to the heap panic *)
Definition heap_decrease (acts : list Z) (h : lheap) (n : nat) : res lheap :=
  do i <- vget (hix h) n;
  match i with Some pos => percolate_up acts h pos | None => Panic end.

(** lng_heap.rs 29-35 *)
Definition heap_insert (acts : list Z) (h : lheap) (n : nat) : res lheap :=
  let ix := grow_to (hix h) (n + 1) None in
  do ix' <- vset ix n (Some (length (hp h)));
  percolate_up acts (mkHeap (hp h ++ [n]) ix') (length (hp h)).

(** lng_heap.rs 37-47 *)
Definition heap_remove_min (acts : list Z) (h : lheap) : res (nat * lheap) :=
  do x <- vget (hp h) 0;
  do l <- vget (hp h) (length (hp h) - 1);
  do h0 <- place h 0 l;
  do ix <- vset (hix h0) x None;
  let h1 := mkHeap (vpop (hp h0)) ix in
  if (1 <? length (hp h1))%nat then do h2 <- percolate_down acts h1 0; Ok (x, h2) else Ok (x, h1).

(** lng_heap.rs 49-61; [indices[n]] = MAX takes the else branch *)
Definition heap_remove (acts : list Z) (h : lheap) (n : nat) : res lheap :=
  do i <- vget (hix h) n;
  do ix <- vset (hix h) n None;
  let h0 := mkHeap (hp h) ix in
  if (length (hp h) =? 0)%nat then Panic
  else
  match i with
  | Some k =>
      if (k <? length (hp h) - 1)%nat then
        do l <- vget (hp h) (length (hp h) - 1);
        do h1 <- place h0 k l;
        percolate_down acts (mkHeap (vpop (hp h1)) (hix h1)) k
      else Ok (mkHeap (vpop (hp h0)) (hix h0))
  | None => Ok (mkHeap (vpop (hp h0)) (hix h0))
  end.

(** lng_heap.rs 64-66 *)
Fixpoint clear_ix (l : list nat) (ix : list (option nat)) : res (list (option nat)) :=
  match l with [] => Ok ix | n :: r => do ix' <- vset ix n None; clear_ix r ix' end.
(** lng_heap.rs 68-71, from position [i] on *)
Fixpoint fill (l : list nat) (h : lheap) (i : nat) : res lheap :=
  match l with
  | [] => Ok h
  | n :: r => do ix' <- vset (hix h) n (Some i); fill r (mkHeap (hp h ++ [n]) ix') (S i)
  end.
(** lng_heap.rs 72-74: positions k-1, ..., 0 *)
Fixpoint heapify (acts : list Z) (k : nat) (h : lheap) : res lheap :=
  match k with O => Ok h | S i => do h1 <- percolate_down acts h i; heapify acts i h1 end.
(** lng_heap.rs 63-75 *)
Definition heap_build (acts : list Z) (h : lheap) (ns : list nat) : res lheap :=
  do ix <- clear_ix (hp h) (hix h);
  do h1 <- fill ns (mkHeap [] ix) 0;
  heapify acts (Nat.div2 (length (hp h1))) h1.
