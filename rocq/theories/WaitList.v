(** The intrusive doubly linked list of waiters, /repo/src/wait/queue.rs:104-159,
    459-630.  Waiters are numbered; [heap n] is the memory of waiter [n]. *)
From Coq Require Import List Bool Arith NArith.
From Verif Require Import WaitCellModel.
Import ListNotations.

(** queue.rs:104-147: Waiter { state } and its Node { next, prev, waiter }.
    A waker is a number; two wakers for which [Notify::same] holds (wait.rs:56-60,
    will_wake / same thread id) are the same number. *)
Record waiter := mkWaiter {
  n_state : N;
  n_next : option nat;
  n_prev : option nat;
  n_waker : option waker
}.
(** The memory of all waiters. *)
Definition heap := nat -> waiter.

(** queue.rs:151-154: List { head, tail }. *)
Record wlist := mkList { l_head : option nat; l_tail : option nat }.

(** queue.rs:541-546: List::new. *)
Definition list_new : wlist := mkList None None.

(** queue.rs:156-159. *)
Definition Q_EMPTY : N := 0.
(** queue.rs:157. *)
Definition Q_WAITING : N := 1.
(** queue.rs:158. *)
Definition Q_WAKING : N := 2.
(** queue.rs:159. *)
Definition Q_CLOSED : N := 3.

(** queue.rs:459-469: Waiter::new. *)
Definition waiter_new : waiter := mkWaiter Q_EMPTY None None None.

(** A write to waiter [n]. *)
Definition hset (h : heap) (n : nat) (x : waiter) : heap := fun m => if Nat.eqb m n then x else h m.

(** Writes of single fields: queue.rs:279, 577-582 (state), 514-535 (set_prev, take_prev,
    take_next), 271-277 (waiter). *)
Definition set_state (h : heap) (n : nat) (v : N) : heap :=
  hset h n (mkWaiter v (n_next (h n)) (n_prev (h n)) (n_waker (h n))).
(** queue.rs:530 (take_next), 591 and 611 (next of a neighbour). *)
Definition set_next (h : heap) (n : nat) (v : option nat) : heap :=
  hset h n (mkWaiter (n_state (h n)) v (n_prev (h n)) (n_waker (h n))).
(** queue.rs:514-528 (set_prev, take_prev). *)
Definition set_prev (h : heap) (n : nat) (v : option nat) : heap :=
  hset h n (mkWaiter (n_state (h n)) (n_next (h n)) v (n_waker (h n))).
(** queue.rs:271-277, 350-359, 586 (the waiter field of the node). *)
Definition set_waker (h : heap) (n : nat) (v : option waker) : heap :=
  hset h n (mkWaiter (n_state (h n)) (n_next (h n)) (n_prev (h n)) v).

(** Comparison of Option<NonNull<Waiter>> with a waiter. *)
Definition opt_is (o : option nat) (n : nat) : bool := match o with Some m => Nat.eqb m n | None => false end.

(** queue.rs:548-574: List::enqueue.  The debug assertion (559-563) compares the
    head that was just taken and cannot fail; it is left out. *)
Definition enqueue (h : heap) (l : wlist) (n : nat) : heap * wlist :=
  let head := l_head l in
  let h := set_prev (set_next h n head) n None in
  let h := match head with Some x => set_prev h x (Some n) | None => h end in
  (h, mkList (Some n) (match l_tail l with None => Some n | Some t => Some t end)).

(** Other waiters whose memory [enqueue] (queue.rs:548-574) touches. *)
Definition enqueue_touches (l : wlist) : list nat := match l_head l with Some x => [x] | None => [] end.

(** queue.rs:584-598: the part of List::dequeue after the state swap (577-582), for the
    waiter [n] found at the tail. *)
Definition dequeue_links (h : heap) (l : wlist) (n : nat) : heap * wlist * option waker :=
  let prev := n_prev (h n) in
  let w := n_waker (h n) in
  let h := set_waker (set_prev (set_next h n None) n None) n None in
  match prev with
  | Some p => (set_next h p None, mkList (l_head l) prev, w)
  | None => (h, mkList None prev, w)
  end.

(** Waiters whose memory [dequeue_links] (queue.rs:584-598) touches. *)
Definition dequeue_touches (h : heap) (n : nat) : list nat :=
  n :: match n_prev (h n) with Some p => [p] | None => [] end.

(** queue.rs:601-626: List::remove.  The debug assertions (610, 620) are
    returned as the third component: [true] if they hold. *)
Definition list_remove (h : heap) (l : wlist) (n : nat) : heap * wlist * bool :=
  let prev := n_prev (h n) in
  let next := n_next (h n) in
  let h := set_next (set_prev h n None) n None in
  let '(h, l, ok1) :=
    match prev with
    | Some p => (set_next h p next, l, opt_is (n_next (h p)) n)
    | None => (h, (if opt_is (l_head l) n then mkList next (l_tail l) else l), true)
    end in
  match next with
  | Some x => (set_prev h x prev, l, ok1 && opt_is (n_prev (h x)) n)
  | None => (h, (if opt_is (l_tail l) n then mkList (l_head l) prev else l), ok1)
  end.

(** Waiters whose memory [list_remove] (queue.rs:601-626) touches. *)
Definition remove_touches (h : heap) (n : nat) : list nat :=
  n :: match n_prev (h n) with Some p => [p] | None => [] end ++ match n_next (h n) with Some x => [x] | None => [] end.

(** queue.rs:628-630: List::is_empty. *)
Definition list_is_empty (l : wlist) : bool :=
  match l_head l, l_tail l with None, None => true | _, _ => false end.
