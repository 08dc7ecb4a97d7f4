(** Vocabulary for the wait-queue theorems; all of it is read off the events. *)
From Coq Require Import List Bool Arith NArith.
From Verif Require Import WaitCellModel WaitList WaitListSpec WaitQueueModel.
Import ListNotations.

(** The waiters that wait for a wakeup, longest waiting first. *)
Fixpoint waiting (es : list qevent) : list nat :=
  match es with
  | [] => []
  | EEnq i _ :: es' => waiting es' ++ [i]
  | ESwap _ n _ :: es' => without n (waiting es')
  | ERemoved i :: es' => without i (waiting es')
  | _ :: es' => waiting es'
  end.

(** The waker most recently stored in waiter [n]. *)
Fixpoint given (n : nat) (es : list qevent) : option waker :=
  match es with
  | [] => None
  | (EEnq i w | EUpd i w) :: es' => if Nat.eqb i n then Some w else given n es'
  | _ :: es' => given n es'
  end.

(** The waker its owner passed most recently. *)
Fixpoint passed (n : nat) (es : list qevent) : option waker :=
  match es with
  | [] => None
  | (EStart i w | ECont i w) :: es' => if Nat.eqb i n then Some w else passed n es'
  | _ :: es' => passed n es'
  end.

(** No access to released memory, no failed assertion. *)
Definition no_ub (es : list qevent) : Prop := forall i, ~ In (EUb i) es.
Definition no_failure (es : list qevent) : Prop := forall i, ~ In (EAssert i) es.

(** Is a notify call by [i] in progress? *)
Fixpoint in_notify (i : nat) (es : list qevent) : bool :=
  match es with
  | [] => false
  | ECallNotify j :: es' => if Nat.eqb j i then true else in_notify i es'
  | (ERetNotify j _ | EAssert j) :: es' => if Nat.eqb j i then false else in_notify i es'
  | _ :: es' => in_notify i es'
  end.

(** Waiter [n] was taken by a waking thread that has not unlinked it yet. *)
Fixpoint half_taken (n : nat) (es : list qevent) : bool :=
  match es with
  | [] => false
  | ESwap _ m _ :: es' => if Nat.eqb m n then true else half_taken n es'
  | EUnlink _ m _ :: es' => if Nat.eqb m n then false else half_taken n es'
  | _ :: es' => half_taken n es'
  end.

(** A notification is stored in the queue: stored and not consumed since. *)
Fixpoint stored (es : list qevent) : bool :=
  match es with
  | [] => false
  | EStored _ :: _ => true
  | EConsumed _ :: _ => false
  | _ :: es' => stored es'
  end.

(** The queue was closed. *)
Definition is_eclosed (e : qevent) : bool := match e with EClosed _ => true | _ => false end.
Definition q_closed (es : list qevent) : bool := existsb is_eclosed es.

(** Only [r] ever notifies; nothing is dropped while waiting; nothing times out. *)
Definition one_notifier (r : nat) (es : list qevent) : Prop := forall i, In (ECallNotify i) es -> i = r.
Definition no_drops (es : list qevent) : Prop := forall i, ~ In (EDrop i) es.
Definition no_timeouts (es : list qevent) : Prop := forall i, ~ In (ETimeout i) es.

(** A timed wait gives up only when its waiter is not in the list any more. *)
Fixpoint timeouts_unqueued (es : list qevent) : Prop :=
  match es with
  | [] => True
  | ETimeout i :: es' => (~ In i (waiting es') /\ half_taken i es' = false) /\ timeouts_unqueued es'
  | _ :: es' => timeouts_unqueued es'
  end.

(** No owner (that polls or drops its future) sees that it was taken before the waking
    thread has unlinked its waiter. *)
Fixpoint undisturbed (es : list qevent) : Prop :=
  match es with
  | [] => True
  | EPeek i :: es' => half_taken i es' = false /\ undisturbed es'
  | _ :: es' => undisturbed es'
  end.

(** Since its last call waiter [i] was woken, or told Notified. *)
Fixpoint due (i : nat) (es : list qevent) : bool :=
  match es with
  | [] => false
  | (EStart j _ | ECont j _) :: es' => if Nat.eqb j i then false else due i es'
  | EWoke _ j _ :: es' => if Nat.eqb j i then true else due i es'
  | ERet j Notified :: es' => if Nat.eqb j i then true else due i es'
  | _ :: es' => due i es'
  end.

(** Owners look at a waiter that waits (or drop it, or give up) only once it has been
    woken. *)
Fixpoint patient (es : list qevent) : Prop :=
  match es with
  | [] => True
  | (ECont i _ | EDrop i | ETimeout i) :: es' => due i es' = true /\ patient es'
  | _ :: es' => patient es'
  end.

(** The borrow of the receiver by its RecvRefs: no notify is in progress when
    the receiver closes the queue, and none starts afterwards. *)
Fixpoint close_exclusive (es : list qevent) : Prop :=
  match es with
  | [] => True
  | ECallClose _ :: es' => (forall i, in_notify i es' = false) /\ close_exclusive es'
  | ECallNotify _ :: es' => (forall k, ~ In (ECallClose k) es') /\ close_exclusive es'
  | _ :: es' => close_exclusive es'
  end.

(** Nothing is happening inside the queue. *)
Definition q_quiet (s : qsys) : Prop := forall i, q_pc s i = QIdle.

(** The queue, another waiter, or an agent inside the queue's code has a pointer to
    waiter [n]. *)
Definition points_to (s : qsys) (n : nat) : Prop :=
  l_head (q_list s) = Some n \/ l_tail (q_list s) = Some n \/
  (exists m, n_next (q_heap s m) = Some n \/ n_prev (q_heap s m) = Some n) \/
  (exists k, q_pc s k = TLinks n \/ q_pc s k = KLinks n).

(** The memory of waiter [n] was released. *)
Definition released (n : nat) (es : list qevent) : Prop := In (EFreed n) es \/ In (ETimeout n) es.

(** Waking thread [k] took waiter [n] and has not woken it yet. *)
Fixpoint owed (k n : nat) (es : list qevent) : bool :=
  match es with
  | [] => false
  | ESwap j m _ :: es' => if Nat.eqb j k && Nat.eqb m n then true else owed k n es'
  | EWoke j m _ :: es' => if Nat.eqb j k && Nat.eqb m n then false else owed k n es'
  | _ :: es' => owed k n es'
  end.

(** What [k] took out of the list last. *)
Fixpoint last_unlinked (k : nat) (es : list qevent) : option (nat * option waker) :=
  match es with
  | [] => None
  | EUnlink j n w :: es' => if Nat.eqb j k then Some (n, w) else last_unlinked k es'
  | _ :: es' => last_unlinked k es'
  end.

(** What waiter [n] was told since it was put into the list: nothing yet, or the
    state (WAKING: notified, CLOSED) the thread that took it left in it. *)
Fixpoint verdict (n : nat) (es : list qevent) : option N :=
  match es with
  | [] => None
  | ESwap _ m st :: es' => if Nat.eqb m n then Some st else verdict n es'
  | EEnq m _ :: es' => if Nat.eqb m n then None else verdict n es'
  | _ :: es' => verdict n es'
  end.

(** Is owner [n] inside start_wait or continue_wait? *)
Fixpoint in_call (n : nat) (es : list qevent) : bool :=
  match es with
  | [] => false
  | (EStart i _ | ECont i _) :: es' => if Nat.eqb i n then true else in_call n es'
  | ERet i _ :: es' => if Nat.eqb i n then false else in_call n es'
  | _ :: es' => in_call n es'
  end.

(** Owner [n] is inside continue_wait, and this is what it had been told when it
    called it. *)
Fixpoint told (n : nat) (es : list qevent) : option N :=
  match es with
  | [] => None
  | ECont i _ :: es' => if Nat.eqb i n then verdict n es' else told n es'
  | (EStart i _ | ERet i _) :: es' => if Nat.eqb i n then None else told n es'
  | _ :: es' => told n es'
  end.

Definition says (v : N) (r : wait_result) : Prop :=
  (v = Q_WAKING /\ r = Notified) \/ (v = Q_CLOSED /\ r = Closed).

(** Is the waiting future [i] being dropped? *)
Fixpoint in_drop (i : nat) (es : list qevent) : bool :=
  match es with
  | [] => false
  | EDrop j :: es' => if Nat.eqb j i then true else in_drop i es'
  | EFreed j :: es' => if Nat.eqb j i then false else in_drop i es'
  | _ :: es' => in_drop i es'
  end.

(** No waiting future is dropped while a notify call is in progress. *)
Fixpoint drops_apart (es : list qevent) : Prop :=
  match es with
  | [] => True
  | EDrop _ :: es' => (forall k, in_notify k es' = false) /\ drops_apart es'
  | ECallNotify _ :: es' => (forall i, in_drop i es' = false) /\ drops_apart es'
  | _ :: es' => drops_apart es'
  end.

(** Owner [n] is inside a start_wait that it called after the queue was closed. *)
Fixpoint late (n : nat) (es : list qevent) : bool :=
  match es with
  | [] => false
  | EStart i _ :: es' => if Nat.eqb i n then q_closed es' else late n es'
  | (ECont i _ | ERet i _) :: es' => if Nat.eqb i n then false else late n es'
  | _ :: es' => late n es'
  end.

(** The events since [i] last called notify. *)
Fixpoint this_notify (i : nat) (es : list qevent) : list qevent :=
  match es with
  | [] => []
  | ECallNotify j :: es' => if Nat.eqb j i then [ECallNotify j] else ECallNotify j :: this_notify i es'
  | e :: es' => e :: this_notify i es'
  end.
