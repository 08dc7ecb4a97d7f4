(** Vocabulary for the accounting of wakeups: how often something happened. *)
From Coq Require Import List Bool Arith NArith.
From Verif Require Import QueueSpec WaitCellModel WaitList WaitQueueModel.
Import ListNotations.

Definition times {A} (p : A -> bool) (es : list A) : nat := length (filter p es).

(** The queue of waiting senders. *)
Definition enqueued (n : nat) (e : qevent) : bool := match e with EEnq i _ => Nat.eqb i n | _ => false end.
Definition woken (n : nat) (e : qevent) : bool := match e with EWoke _ i _ => Nat.eqb i n | _ => false end.
Definition any_woken (e : qevent) : bool := match e with EWoke _ _ _ => true | _ => false end.
Definition any_stored (e : qevent) : bool := match e with EStored _ => true | _ => false end.
Definition any_consumed (e : qevent) : bool := match e with EConsumed _ => true | _ => false end.
Definition notify_called (e : qevent) : bool := match e with ECallNotify _ => true | _ => false end.
Definition never_closed (es : list qevent) : Prop := forall k, ~ In (ECallClose k) es.

(** The receiver's cell. *)
Definition waker_passed (w : waker) (e : wevent) : bool := match e with CallWait _ v _ => Nat.eqb v w | _ => false end.
Definition waker_woken (w : waker) (e : wevent) : bool := match e with Woke _ v => Nat.eqb v w | _ => false end.

(** The ring. *)
Definition released_slot {T} (e : event T) : bool := match e with Release _ _ => true | _ => false end.
