(** Theorems about the senders' wait queue.  [debug] is cfg(debug_assertions).
    Hypothesis [no_ub es]: so far nothing touched a released waiter (from then on
    the behaviour is undefined); C28 says when that is guaranteed. *)
From Coq Require Import List Bool Arith NArith Lia.
From Verif Require Import WaitCellModel WaitList WaitListSpec WaitListFacts WaitQueueModel WaitQueueSpec WaitQueueFacts WaitQueueSafety
  WaitQueueWake WaitQueuePatient WaitQueueStored WaitQueueCalls.
Import ListNotations.

Lemma qexec_run debug l s es s' es' : qrun debug es s -> qexec debug s es l = Some (s', es') -> qrun debug es' s'.
Proof.
  revert s es. induction l as [|a l IH]; simpl; intros s es Hr H.
  - injection H as <- <-. exact Hr.
  - destruct (qstep_sys debug s a) as [[s1 e]|] eqn:E; [|discriminate].
    eapply IH; [|exact H]. exact (qrun_step debug es s a s1 e Hr E).
Qed.

Lemma qcase debug l (P : qsys -> list qevent -> Prop) :
  match qexec debug q_init [] l with Some (s, es) => P s es | None => False end -> exists s es, qrun debug es s /\ P s es.
Proof.
  pose proof (qexec_run debug l q_init []) as H. destruct (qexec debug q_init [] l) as [[s es]|]; [|tauto].
  intros HP. exists s, es. split; [apply H; [constructor|reflexivity]|exact HP].
Qed.

(** Schedules used below: [n] steps of [i]; a first waiter; a further waiter; a
    notify that finds a waiter. *)
Definition go (i n : nat) : list qaction := repeat (QStep i false) n.
Definition first_waits (i : nat) (w : waker) : list qaction := [QNew i; QStart i w] ++ go i 9.
Definition next_waits (i : nat) (w : waker) : list qaction := [QNew i; QStart i w] ++ go i 8.
Definition notifies (k : nat) : list qaction := QNotify k :: go k 8.

(** C21 (senders).  A waiter that waits, and whose owner is not in the middle of
    a call, holds the waker its owner passed last. *)
Theorem C21_queue_latest : forall debug es s n,
  qrun debug es s -> no_ub es -> In n (waiting es) -> in_call n es = false -> ~ released n es ->
  given n es = passed n es.
Proof. exact waiting_latest. Qed.
Print Assumptions C21_queue_latest.

(** What is woken for waiter [n] is the waker it held when it was taken out of
    the line of waiting senders. *)
Theorem C21_queue_woken : forall debug es s es2 k n w es1,
  qrun debug es s -> no_ub es -> es = es2 ++ EWoke k n w :: es1 ->
  exists esb esm esa st, es1 = esb ++ EUnlink k n (Some w) :: esm ++ ESwap k n st :: esa /\ given n esa = Some w /\ In n (waiting esa).
Proof. exact woke_waker. Qed.
Print Assumptions C21_queue_woken.

(** A send future polled with 7, then with 8, then woken: 8 is woken. *)
Example C21_queue_case : exists s es, qrun true es s /\
  es = [] ++ EWoke 1 0 8 :: [EUnlink 1 0 (Some 8); ESwap 1 0 Q_WAKING; ECallNotify 1; ERet 0 Wait; EUpd 0 8; ECont 0 8;
    ERet 0 Wait; EEnq 0 7; EStart 0 7; ENew 0].
Proof.
  apply (qcase true (first_waits 0 7 ++ [QCont 0 8] ++ go 0 6 ++ [QNotify 1] ++ go 1 7) (fun s es =>
  es = [] ++ EWoke 1 0 8 :: [EUnlink 1 0 (Some 8); ESwap 1 0 Q_WAKING; ECallNotify 1; ERet 0 Wait; EUpd 0 8; ECont 0 8;
    ERet 0 Wait; EEnq 0 7; EStart 0 7; ENew 0])). vm_compute. reflexivity.
Qed.

Example C21_queue_case_waiting : exists s es, qrun true es s /\ no_ub es /\ In 0 (waiting es) /\ in_call 0 es = false /\ ~ released 0 es /\
  passed 0 es = Some 8.
Proof.
  apply (qcase true (first_waits 0 7 ++ [QCont 0 8] ++ go 0 6) (fun s es => no_ub es /\ In 0 (waiting es) /\ in_call 0 es = false /\ ~ released 0 es /\
  passed 0 es = Some 8)). vm_compute. split; [intros i; intuition discriminate|]. split; [now left|]. split; [reflexivity|]. split; [intuition discriminate|reflexivity].
Qed.

(** C22.  Whoever is woken waited longest of all that were waiting when it was
    picked. *)
Theorem C22_oldest_first : forall debug es s es2 k n w es1,
  qrun debug es s -> no_ub es -> es = es2 ++ EWoke k n w :: es1 ->
  exists esb st esa q, es1 = esb ++ ESwap k n st :: esa /\ waiting esa = n :: q.
Proof.
  intros debug es s es2 k n w es1 Hr Hu He.
  destruct (woke_waker debug es s es2 k n w es1 Hr Hu He) as (esb & esm & esa & st & -> & _ & _).
  destruct (swap_oldest debug es s (es2 ++ EWoke k n w :: esb ++ EUnlink k n (Some w) :: esm) k n st esa Hr Hu) as [q Hq].
  { rewrite He, <- !app_assoc. simpl. rewrite <- app_assoc. reflexivity. }
  exists (esb ++ EUnlink k n (Some w) :: esm), st, esa, q. split; [rewrite <- app_assoc; reflexivity|exact Hq].
Qed.
Print Assumptions C22_oldest_first.

(** Nobody is taken out of the line except the one at its front. *)
Theorem C22_taken_from_front : forall debug es s es2 k n st es1,
  qrun debug es s -> no_ub es -> es = es2 ++ ESwap k n st :: es1 -> exists q, waiting es1 = n :: q.
Proof. exact swap_oldest. Qed.
Print Assumptions C22_taken_from_front.

(** Three waiters, the middle one cancelled, two notifications: 0 and 2, in this order. *)
Definition three_waiters : list qaction := first_waits 0 7 ++ next_waits 1 8 ++ next_waits 2 9.
Example C22_case : exists s es, qrun true es s /\ waiting es = [] /\
  filter (fun e => match e with EWoke _ _ _ => true | _ => false end) es = [EWoke 4 2 9; EWoke 3 0 7].
Proof.
  apply (qcase true (three_waiters ++ [QDrop 1] ++ go 1 6 ++ notifies 3 ++ notifies 4) (fun s es => waiting es = [] /\
  filter (fun e => match e with EWoke _ _ _ => true | _ => false end) es = [EWoke 4 2 9; EWoke 3 0 7])). vm_compute. auto.
Qed.

(** C23.  Whenever nobody holds the queue's lock, the list in memory is exactly
    the waiting senders, doubly linked in the order they started waiting; every other
    waiter points nowhere. *)
Theorem C23_list_is_waiters : forall debug es s,
  qrun debug es s -> no_ub es -> q_lock s = None ->
  represents (q_heap s) (q_list s) (waiting es) /\ forall n, ~ In n (waiting es) -> detached (q_heap s) n.
Proof.
  intros debug es s Hr Hu Hl. pose proof (proj1 (qrun_inv _ _ _ Hr Hu)) as HI.
  assert (Hm : members es s = waiting es) by (unfold members, window; rewrite Hl; reflexivity).
  rewrite <- Hm. split; [exact (I_rep _ _ HI)|exact (I_det _ _ HI)].
Qed.
Print Assumptions C23_list_is_waiters.

(** The list operations, on any list: enqueue adds at the back, dequeue takes the
    oldest, remove takes exactly that waiter from any position (and does nothing to a
    waiter that was removed before); nothing else changes. *)
Theorem C23_enqueue : forall h l q n h' l',
  represents h l q -> ~ In n q -> enqueue h l n = (h', l') ->
  represents h' l' (q ++ [n]) /\ only_links h h' n q /\ n_waker (h' n) = n_waker (h n).
Proof. exact enqueue_spec. Qed.
Print Assumptions C23_enqueue.
Theorem C23_dequeue : forall h l q n h' l' w,
  represents h l (n :: q) -> dequeue_links h l n = (h', l', w) ->
  represents h' l' q /\ only_links h h' n q /\ w = n_waker (h n) /\ n_waker (h' n) = None /\ detached h' n.
Proof. exact dequeue_spec. Qed.
Print Assumptions C23_dequeue.
Theorem C23_remove : forall h l q n h' l' ok,
  represents h l q -> In n q \/ detached h n -> list_remove h l n = (h', l', ok) ->
  represents h' l' (without n q) /\ only_links h h' n q /\ n_waker (h' n) = n_waker (h n) /\
  detached h' n /\ (In n q -> ok = true).
Proof. exact remove_spec. Qed.
Print Assumptions C23_remove.

Example C23_case : exists s es, qrun true es s /\ no_ub es /\ q_lock s = None /\ waiting es = [0; 2] /\
  l_tail (q_list s) = Some 0 /\ l_head (q_list s) = Some 2 /\ n_prev (q_heap s 0) = Some 2 /\ n_next (q_heap s 2) = Some 0.
Proof.
  apply (qcase true (three_waiters ++ [QDrop 1] ++ go 1 6) (fun s es => no_ub es /\ q_lock s = None /\ waiting es = [0; 2] /\
  l_tail (q_list s) = Some 0 /\ l_head (q_list s) = Some 2 /\ n_prev (q_heap s 0) = Some 2 /\ n_next (q_heap s 2) = Some 0)).
  vm_compute. split; [intros i; intuition discriminate|]. auto 8.
Qed.

(** C24.  A send future dropped while a receive is waking it stays in the list. *)
Theorem C24_refuted : exists s es,
  qrun false es s /\ no_timeouts es /\ one_notifier 1 es /\ In (EDrop 0) es /\ In (EFreed 0) es /\ points_to s 0.
Proof.
  apply (qcase false (first_waits 0 7 ++ [QNotify 1] ++ go 1 3 ++ [QDrop 0] ++ go 0 2) (fun s es =>
    no_timeouts es /\ one_notifier 1 es /\ In (EDrop 0) es /\ In (EFreed 0) es /\ points_to s 0)).
  vm_compute. split; [intros i; intuition discriminate|]. split; [intros i; intuition congruence|]. split; [tauto|]. split; [tauto|]. right. left. reflexivity.
Qed.
Print Assumptions C24_refuted.

(** Provided no owner looks at its waiter between the two halves of a wakeup of
    it, a released waiter is not reachable from the queue, at any later time. *)
Theorem C24_released_unreachable : forall debug es s n,
  qrun debug es s -> undisturbed es -> timeouts_unqueued es -> released n es -> ~ points_to s n.
Proof. exact released_unreachable. Qed.
Print Assumptions C24_released_unreachable.

Example C24_case : exists s es, qrun true es s /\ undisturbed es /\ timeouts_unqueued es /\ released 1 es /\ waiting es = [0; 2].
Proof.
  apply (qcase true (three_waiters ++ [QDrop 1] ++ go 1 6) (fun s es => undisturbed es /\ timeouts_unqueued es /\ released 1 es /\ waiting es = [0; 2])).
  vm_compute. split; [tauto|]. split; [tauto|]. split; [left; now left|reflexivity].
Qed.

(** C25.  A send future that was woken and then dropped takes the wakeup with
    it: the other sender (1) is left waiting, although the queue is quiet. *)
Theorem C25_refuted : forall debug, exists s es,
  qrun debug es s /\ q_quiet s /\ no_ub es /\ no_failure es /\ drops_apart es /\ one_notifier 2 es /\
  In (ERetNotify 2 true) es /\ In (EFreed 0) es /\ waiting es = [1] /\ stored es = false.
Proof.
  intros debug. apply (qcase debug (first_waits 0 7 ++ next_waits 1 8 ++ notifies 2 ++ [QDrop 0] ++ go 0 2) (fun s es =>
  q_quiet s /\ no_ub es /\ no_failure es /\ drops_apart es /\ one_notifier 2 es /\
  In (ERetNotify 2 true) es /\ In (EFreed 0) es /\ waiting es = [1] /\ stored es = false)).
  destruct debug; vm_compute;
  (split; [intros [|[|[|i]]]; reflexivity|]; split; [intros i; intuition discriminate|]; split; [intros i; intuition discriminate|];
   split; [split; [intros [|[|[|i]]]; reflexivity|]; split; [intros [|[|[|i]]]; reflexivity|exact I]|];
   split; [intros i; intuition congruence|]; split; [tauto|]; split; [tauto|]; auto).
Qed.
Print Assumptions C25_refuted.

(** A cancellation that overlaps a notify: the notify finds the list empty.  With
    debug assertions it panics; without, its notification is lost: sender 2 waits. *)
Theorem C25_race_refuted : exists s es,
  qrun false es s /\ q_quiet s /\ no_ub es /\ one_notifier 1 es /\ In (ERetNotify 1 false) es /\ stored es = false /\ waiting es = [2] /\
  forall k n w, ~ In (EWoke k n w) es.
Proof.
  apply (qcase false (first_waits 0 7 ++ [QNotify 1] ++ go 1 1 ++ [QDrop 0] ++ go 0 6 ++ go 1 5 ++ first_waits 2 9) (fun s es =>
  q_quiet s /\ no_ub es /\ one_notifier 1 es /\ In (ERetNotify 1 false) es /\ stored es = false /\ waiting es = [2] /\
  forall k n w, ~ In (EWoke k n w) es)).
  vm_compute. split; [intros [|[|[|i]]]; reflexivity|]. split; [intros i; intuition discriminate|]. split; [intros i; intuition congruence|].
  split; [tauto|]. split; [reflexivity|]. split; [reflexivity|]. intros k n w. intuition discriminate.
Qed.
Print Assumptions C25_race_refuted.

Theorem C25_race_panics_refuted : exists s es, qrun true es s /\ no_ub es /\ one_notifier 1 es /\ In (EAssert 1) es.
Proof.
  apply (qcase true (first_waits 0 7 ++ [QNotify 1] ++ go 1 1 ++ [QDrop 0] ++ go 0 6 ++ go 1 2) (fun s es => no_ub es /\ one_notifier 1 es /\ In (EAssert 1) es)).
  vm_compute. split; [intros i; intuition discriminate|]. split; [intros i; intuition congruence|tauto].
Qed.
Print Assumptions C25_race_panics_refuted.

(** Cancelling a sender that was not woken yet, at a time when no notify is in
    progress, costs nobody a wakeup: with one notifier, every notify wakes a waiting
    sender, or nobody waits and the notification is stored; as long as it is stored
    nobody waits; and no assertion fails. *)
Theorem C25_apart_stored : forall r debug es s,
  qrun debug es s -> solo_ok r es -> q_closed es = false -> stored es = true -> waiting es = [].
Proof. exact stored_nobody. Qed.
Print Assumptions C25_apart_stored.

Theorem C25_apart_result : forall r debug es s es2 k b es1,
  qrun debug es s -> solo_ok r es -> es = es2 ++ ERetNotify k b :: es1 ->
  if b then exists n w, In (ESwap k n Q_WAKING) (this_notify k es1) /\ In (EWoke k n w) (this_notify k es1)
  else In (EStored k) (this_notify k es1).
Proof. exact notify_result. Qed.
Print Assumptions C25_apart_result.

Theorem C25_apart_no_failure : forall r debug es s, qrun debug es s -> solo_ok r es -> no_failure es.
Proof. intros r debug es s Hr Hok. exact (proj2 (ninv_run r debug es s Hr Hok)). Qed.
Print Assumptions C25_apart_no_failure.

(** Sender 0 waits and is cancelled; a notify stores its notification; sender 1
    consumes it. *)
Example C25_case : exists s es, qrun true es s /\ solo_ok 2 es /\ q_closed es = false /\ stored es = true /\ es =
  [] ++ ERetNotify 2 false :: [EStored 2; ECallNotify 2; EFreed 0; ERemoved 0; EDrop 0; ERet 0 Wait; EEnq 0 7; EStart 0 7; ENew 0].
Proof.
  apply (qcase true (first_waits 0 7 ++ [QDrop 0] ++ go 0 6 ++ [QNotify 2] ++ go 2 3) (fun s es => solo_ok 2 es /\ q_closed es = false /\ stored es = true /\ es =
  [] ++ ERetNotify 2 false :: [EStored 2; ECallNotify 2; EFreed 0; ERemoved 0; EDrop 0; ERet 0 Wait; EEnq 0 7; EStart 0 7; ENew 0])).
  vm_compute. split; [|auto]. split; [split; [intros i; intuition discriminate|split; [intros k; intuition discriminate|exact I]]|].
  split; [intros i; intuition congruence|]. split; [intros [|i]; reflexivity|]. split; [intros i; reflexivity|exact I].
Qed.

(** C27.  Two handles dropped concurrently (1 and 2): the notify of 2 wipes out the
    notification stored by 1's second drop, and sender 3 waits although a notification
    was stored and never consumed.  With debug assertions: a panic. *)
Theorem C27_refuted : exists s es,
  qrun false es s /\ q_quiet s /\ no_ub es /\ no_drops es /\ no_timeouts es /\ q_closed es = false /\
  stored es = true /\ waiting es = [3].
Proof.
  apply (qcase false (first_waits 0 7 ++ [QNotify 1; QNotify 2] ++ go 1 1 ++ go 2 1 ++ go 1 7 ++ [QNotify 1] ++ go 1 3 ++ go 2 5 ++ first_waits 3 9) (fun s es =>
  q_quiet s /\ no_ub es /\ no_drops es /\ no_timeouts es /\ q_closed es = false /\ stored es = true /\ waiting es = [3])).
  vm_compute. split; [intros [|[|[|[|i]]]]; reflexivity|]. split; [intros i; intuition discriminate|]. split; [intros i; intuition discriminate|].
  split; [intros i; intuition discriminate|]. auto.
Qed.
Print Assumptions C27_refuted.

Theorem C27_panics_refuted : exists s es, qrun true es s /\ no_ub es /\ no_drops es /\ no_timeouts es /\ In (EAssert 2) es.
Proof.
  apply (qcase true (first_waits 0 7 ++ [QNotify 1; QNotify 2] ++ go 1 1 ++ go 2 1 ++ go 1 7 ++ go 2 2) (fun s es =>
  no_ub es /\ no_drops es /\ no_timeouts es /\ In (EAssert 2) es)).
  vm_compute. split; [intros i; intuition discriminate|]. split; [intros i; intuition discriminate|]. split; [intros i; intuition discriminate|tauto].
Qed.
Print Assumptions C27_panics_refuted.

(** As long as handles are dropped by one thread [r] at a time, and nothing is
    cancelled: no wakeup is lost and no assertion fails. *)
Theorem C27_one_notifier : forall r debug es s,
  qrun debug es s -> no_ub es -> close_exclusive es -> one_notifier r es -> no_drops es -> q_closed es = false ->
  no_failure es /\ (stored es = true -> waiting es = []) /\
  forall es2 k b es1, es = es2 ++ ERetNotify k b :: es1 ->
    if b then exists n w, In (ESwap k n Q_WAKING) (this_notify k es1) /\ In (EWoke k n w) (this_notify k es1)
    else In (EStored k) (this_notify k es1).
Proof.
  intros r debug es s Hr Hu He H1 Hd Hc.
  assert (Hok : solo_ok r es).
  { split; [split; assumption|]. split; [exact H1|]. clear - Hd. 
    assert (Hin : forall i es', (forall j, ~ In (EDrop j) es') -> in_drop i es' = false).
    { intros i es'. induction es' as [|e es' IH]; intros H; [reflexivity|].
      assert (K : in_drop i es' = false) by (apply IH; intros j Hj; apply (H j); now right).
      destruct e; auto; simpl. - destruct (H i0). now left. - rewrite K. destruct (Nat.eqb i0 i); reflexivity. }
    induction es as [|e es IH]; [exact I|].
    assert (Hd' : no_drops es) by (intros j Hj; apply (Hd j); now right).
    destruct e; simpl; auto. destruct (Hd i). now left. }
  split; [exact (C25_apart_no_failure r debug es s Hr Hok)|]. split; [exact (C25_apart_stored r debug es s Hr Hok Hc)|].
  intros es2 k b es1. exact (C25_apart_result r debug es s es2 k b es1 Hr Hok).
Qed.
Print Assumptions C27_one_notifier.

(** The schedule of C27_refuted with the two drops on one thread: the second
    notification is stored, and sender 3 consumes it. *)
Example C27_case : exists s es, qrun true es s /\ no_ub es /\ close_exclusive es /\ one_notifier 1 es /\ no_drops es /\ q_closed es = false /\
  In (ERet 3 Notified) es /\ In (ERetNotify 1 false) es /\ In (ERetNotify 1 true) es.
Proof.
  apply (qcase true (first_waits 0 7 ++ notifies 1 ++ [QNotify 1] ++ go 1 3 ++ [QNew 3; QStart 3 9] ++ go 3 2) (fun s es =>
  no_ub es /\ close_exclusive es /\ one_notifier 1 es /\ no_drops es /\ q_closed es = false /\
  In (ERet 3 Notified) es /\ In (ERetNotify 1 false) es /\ In (ERetNotify 1 true) es)).
  vm_compute. split; [intros i; intuition discriminate|]. split; [split; [intros i; intuition discriminate|split; [intros i; intuition discriminate|exact I]]|].
  split; [intros i; intuition congruence|]. split; [intros i; intuition discriminate|]. split; [reflexivity|]. tauto.
Qed.

(** C28.  A waiting send that is polled again at the wrong moment returns while
    the receive waking it is still going to write to its waiter. *)
Theorem C28_refuted : forall debug, exists s es,
  qrun debug es s /\ no_drops es /\ no_timeouts es /\ one_notifier 1 es /\ In (EUb 1) es.
Proof.
  intros debug. apply (qcase debug (first_waits 0 7 ++ [QNotify 1] ++ go 1 3 ++ [QCont 0 7] ++ go 0 2 ++ [QFree 0] ++ go 1 1) (fun s es =>
    no_drops es /\ no_timeouts es /\ one_notifier 1 es /\ In (EUb 1) es)).
  destruct debug; vm_compute; (split; [intros i; intuition discriminate|]; split; [intros i; intuition discriminate|]; split; [intros i; intuition congruence|tauto]).
Qed.
Print Assumptions C28_refuted.

(** If no owner looks at its waiter between the two halves of a wakeup of it (and
    no timed wait gives up while its waiter is queued), no released waiter is touched, whatever
    waits, notifies, closes and cancellations overlap. *)
Theorem C28_no_use_after_release : forall debug es s,
  qrun debug es s -> undisturbed es -> timeouts_unqueued es -> no_ub es.
Proof. intros debug es s Hr Hd Ht. exact (proj1 (qrun_safe debug es s Hr Hd Ht)). Qed.
Print Assumptions C28_no_use_after_release.

(** Two concurrent notifies, a cancellation, a close, and a re-poll, overlapping. *)
Example C28_case : exists s es, qrun false es s /\ undisturbed es /\ timeouts_unqueued es /\ In (EPeek 0) es /\ length es = 32.
Proof.
  apply (qcase false (three_waiters ++ [QNotify 3; QNotify 4; QCont 1 5] ++ go 3 3 ++ go 4 1 ++ go 1 1 ++ go 3 5 ++ go 4 7 ++ [QDrop 2] ++ go 2 6 ++ go 1 3 ++
    [QCont 0 5] ++ go 0 2 ++ [QClose 5] ++ go 5 4) (fun s es => undisturbed es /\ timeouts_unqueued es /\ In (EPeek 0) es /\ length es = 32)).
  vm_compute. split; [tauto|]. split; [exact I|]. split; [tauto|reflexivity].
Qed.

(** In particular if every owner looks again, drops its future or gives up only once it was woken. *)
Theorem C28_patient : forall debug es s, qrun debug es s -> patient es -> no_ub es.
Proof. intros debug es s Hr Hp. exact (proj1 (proj2 (proj2 (patient_safe debug es s Hr Hp)))). Qed.
Print Assumptions C28_patient.
(** Three waiters; the first is woken, polls and returns; a second one is woken and dropped; the queue is closed and the third polls. *)
Example C28_patient_case : exists s es, qrun true es s /\ patient es /\ In (EFreed 0) es /\ In (ERet 0 Notified) es /\ In (EDrop 1) es /\ In (ERet 2 Closed) es.
Proof.
  apply (qcase true (three_waiters ++ notifies 3 ++ [QCont 0 7] ++ go 0 2 ++ [QFree 0] ++ notifies 3 ++ [QDrop 1] ++ go 1 2 ++ [QClose 5] ++ go 5 7 ++ [QCont 2 5] ++ go 2 2)
    (fun s es => patient es /\ In (EFreed 0) es /\ In (ERet 0 Notified) es /\ In (EDrop 1) es /\ In (ERet 2 Closed) es)).
  vm_compute. tauto.
Qed.

(** C29.  A timed send that gives up while it waits stays in the queue, always; and the
    next notify touches its dead stack frame. *)
Theorem C29_refuted : forall debug, exists s es,
  qrun debug es s /\ no_drops es /\ one_notifier 1 es /\ In (ETimeout 0) es /\ In (EUb 1) es.
Proof.
  intros debug. apply (qcase debug (first_waits 0 7 ++ [QTimeout 0; QNotify 1] ++ go 1 3) (fun s es =>
    no_drops es /\ one_notifier 1 es /\ In (ETimeout 0) es /\ In (EUb 1) es)).
  destruct debug; vm_compute; (split; [intros i; intuition discriminate|]; split; [intros i; intuition congruence|tauto]).
Qed.
Print Assumptions C29_refuted.

Theorem C29_always_left_behind : forall debug es s n,
  qrun debug (ETimeout n :: es) s -> no_ub es -> In n (waiting es) -> q_lock s = None -> points_to s n.
Proof.
  intros debug es s n Hr Hu Hin Hl.
  assert (Hu' : no_ub (ETimeout n :: es)) by (intros i [H|H]; [discriminate|exact (Hu i H)]).
  destruct (C23_list_is_waiters debug _ s Hr Hu' Hl) as [(_ & Hlk & Ht & _) _]. cbn [waiting] in Hlk, Ht.
  unfold points_to. revert Ht. generalize (l_tail (q_list s)). intros t Ht.
  destruct (waiting es) as [|x q]; [destruct Hin|]. destruct Hin as [->|Hin]; [right; left; exact Ht|].
  right. right. left. clear Ht. revert x Hlk Hin. generalize (@None nat) at 1. induction q as [|y q IH]; intros o x Hlk Hin; [destruct Hin|].
  destruct Hlk as (_ & Hp & Hlk). destruct Hin as [->|Hin]; [exists x; right; exact Hp|]. exact (IH _ y Hlk Hin).
Qed.
Print Assumptions C29_always_left_behind.

Example C29_case : exists s es, qrun true (ETimeout 1 :: es) s /\ no_ub es /\ In 1 (waiting es) /\ q_lock s = None.
Proof.
  assert (H : exists s es, qrun true es s /\ exists es', es = ETimeout 1 :: es' /\ no_ub es' /\ In 1 (waiting es') /\ q_lock s = None).
  { apply (qcase true (three_waiters ++ [QTimeout 1]) (fun s es => exists es', es = ETimeout 1 :: es' /\ no_ub es' /\ In 1 (waiting es') /\ q_lock s = None)).
    vm_compute. eexists. split; [reflexivity|]. split; [intros i; intuition discriminate|]. split; [tauto|reflexivity]. }
  destruct H as (s & es & Hr & es' & -> & H). exists s, es'. split; assumption.
Qed.

(** C30 (queue).  When close returns, everybody who waited at any time since the
    state word became CLOSED was taken with CLOSED and woken, or left by itself
    (cancelled). *)
Theorem C30_queue_wakes_all : forall debug es s es3 k es2 es1 n,
  qrun debug es s -> close_ok es -> es = es3 ++ ERetClose k :: es2 ++ es1 ->
  q_closed es1 = true -> In n (waiting es1) ->
  In (ERemoved n) es2 \/ exists j w, In (ESwap j n Q_CLOSED) es2 /\ In (EWoke j n w) es2.
Proof. exact close_wakes. Qed.
Print Assumptions C30_queue_wakes_all.

(** A woken sender is told what happened: Closed if it was taken with CLOSED,
    Notified if it was taken by a notify. *)
Theorem C30_queue_told : forall debug es s es2 n r es1 v,
  qrun debug es s -> no_ub es -> es = es2 ++ ERet n r :: es1 -> told n es1 = Some v -> says v r.
Proof. exact told_result. Qed.
Print Assumptions C30_queue_told.

(** Afterwards nobody waits, and nobody starts to. *)
Theorem C30_queue_nobody_waits : forall debug es s k, qrun debug es s -> close_ok es -> In (ERetClose k) es -> waiting es = [].
Proof. exact closed_stays_empty. Qed.
Print Assumptions C30_queue_nobody_waits.

Theorem C30_queue_nobody_starts : forall debug es s es3 n w es2 k es1,
  qrun debug es s -> close_ok es -> es <> es3 ++ EEnq n w :: es2 ++ ERetClose k :: es1.
Proof. intros debug es s es3 n w es2 k es1 Hr Hok He. exact (closed_no_enq debug es s es3 n w es2 k es1 Hr Hok He). Qed.
Print Assumptions C30_queue_nobody_starts.

(** A start_wait called after the state word became CLOSED answers Closed. *)
Theorem C30_queue_late : forall debug es s es2 n r es1,
  qrun debug es s -> close_ok es -> es = es2 ++ ERet n r :: es1 -> late n es1 = true -> r = Closed.
Proof. exact late_closed. Qed.
Print Assumptions C30_queue_late.

(** Three waiters; one is cancelled while the queue is being closed; the others
    are woken; 0 is told Closed; 4 comes late. *)
Definition closing : list qaction :=
  three_waiters ++ [QClose 3] ++ go 3 1 ++ [QDrop 1] ++ go 1 6 ++ go 3 9 ++ [QCont 0 7] ++ go 0 2 ++ [QNew 4; QStart 4 9] ++ go 4 2.
Example C30_queue_case : exists s es, qrun true es s /\ close_ok es /\
  exists es3 es2 es1, es = es3 ++ ERetClose 3 :: es2 ++ EClosed 3 :: es1 /\ waiting es1 = [0; 1; 2] /\
    es2 = [EWoke 3 2 9; EUnlink 3 2 (Some 9); ESwap 3 2 Q_CLOSED; EWoke 3 0 7; EUnlink 3 0 (Some 7); ESwap 3 0 Q_CLOSED; EFreed 1; ERemoved 1; EDrop 1] /\
    es3 = [ERet 4 Closed; EStart 4 9; ENew 4; ERet 0 Closed; EPeek 0; ECont 0 7].
Proof.
  apply (qcase true closing (fun s es => close_ok es /\
  exists es3 es2 es1, es = es3 ++ ERetClose 3 :: es2 ++ EClosed 3 :: es1 /\ waiting es1 = [0; 1; 2] /\
    es2 = [EWoke 3 2 9; EUnlink 3 2 (Some 9); ESwap 3 2 Q_CLOSED; EWoke 3 0 7; EUnlink 3 0 (Some 7); ESwap 3 0 Q_CLOSED; EFreed 1; ERemoved 1; EDrop 1] /\
    es3 = [ERet 4 Closed; EStart 4 9; ENew 4; ERet 0 Closed; EPeek 0; ECont 0 7])).
  vm_compute. split; [split; [intros i; intuition discriminate|split; [intros [|[|[|[|i]]]]; reflexivity|exact I]]|].
  eexists [_; _; _; _; _; _], [_; _; _; _; _; _; _; _; _], _. repeat split; reflexivity.
Qed.
Example C30_queue_case_late : late 4 [EStart 4 9; ENew 4; ERet 0 Closed; EPeek 0; ECont 0 7; ERetClose 3; EClosed 3] = true /\
  told 0 [EPeek 0; ECont 0 7; ERetClose 3; EWoke 3 0 7; EUnlink 3 0 (Some 7); ESwap 3 0 Q_CLOSED] = Some Q_CLOSED.
Proof. split; reflexivity. Qed.

(** C26 (queue).  Whatever calls overlap: if anybody is inside the queue's code,
    they can go on, or whoever holds the lock can. *)
Theorem C26_queue_never_stuck : forall debug es s i,
  qrun debug es s -> no_ub es -> q_pc s i <> QIdle ->
  (exists s' e, qstep debug s i false = Some (s', e)) \/ (exists k, q_lock s = Some k /\ exists s' e, qstep debug s k false = Some (s', e)).
Proof. exact never_stuck. Qed.
Print Assumptions C26_queue_never_stuck.

Example C26_queue_case : exists s es, qrun true es s /\ no_ub es /\ q_pc s 1 = SLock 8 /\ q_lock s = Some 2.
Proof.
  apply (qcase true (first_waits 0 7 ++ [QNotify 2] ++ go 2 2 ++ [QNew 1; QStart 1 8] ++ go 1 1) (fun s es => no_ub es /\ q_pc s 1 = SLock 8 /\ q_lock s = Some 2)).
  vm_compute. split; [intros i; intuition discriminate|auto].
Qed.
