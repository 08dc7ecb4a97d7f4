(** C64: wakeups are paid for. *)
From Coq Require Import List Bool Arith NArith Lia.
From Verif Require Import QueueSpec CoreModel CoreArith WaitCellModel WaitCellSpec WaitCellTheorems WaitList WaitQueueModel WaitQueueSpec WaitQueueTheorems.
From Verif Require Import ChannelModel ChannelSpec ChannelFacts ChannelDemo WakeSpec WakeCount ChannelPaid.
From Verif Require Import History.
Import ListNotations.

(** A sender is woken at most once for each time it went to sleep, by notify and close together; while it is
    asleep it has been woken less often than that. *)
Theorem C64_woken_once : forall debug es s n, qrun debug es s -> no_ub es ->
  times (woken n) es + count_occ Nat.eq_dec (waiting es) n <= times (enqueued n) es.
Proof. exact woken_once. Qed.
Print Assumptions C64_woken_once.

(** Until the queue is closed, every wakeup of a sender and every notification that a sender picked up instead of
    going to sleep comes from a call of notify of its own: no call has two effects. *)
Theorem C64_paid_for : forall debug es s, qrun debug es s -> never_closed es ->
  times any_woken es + times any_consumed es <= times notify_called es.
Proof. exact paid_for. Qed.
Print Assumptions C64_paid_for.

(** The receiver: a waker is woken at most once for each time it was passed to poll_recv_ref (or wait_with). *)
Theorem C64_receiver : forall debug es s w, wrun debug es s -> times (waker_woken w) es <= times (waker_passed w) es.
Proof. exact cell_woken. Qed.
Print Assumptions C64_receiver.

(** The channel: while the receiver has not been dropped, every sender that was woken, and every sender that was
    let through instead of going to sleep, was so for a slot of its own that the receiver released. *)
Theorem C64_channel : forall T W cap (pol : policy T) async debug es s,
  wf W cap -> crun (core_new W (N.of_nat cap)) pol async debug es s -> ring_calm W cap es -> (forall p, ~ In (RxDropped p) es) ->
  times any_woken (queue_of es) + times any_consumed (queue_of es) <= times released_slot (ring_of es).
Proof.
  intros T W cap pol async debug es s Hwf Hr HC Hd.
  assert (Hn : never_closed (queue_of es)).
  { intros k Hk. destruct (ends_dropped W cap pol async debug es s Hr (or_intror (ex_intro _ k Hk))) as [p Hp]. exact (Hd p Hp). }
  pose proof (paid_for debug _ _ (crun_queue _ _ _ _ _ _ Hr) Hn).
  pose proof (released_paid W cap pol async debug Hwf es s Hr HC). lia.
Qed.
Print Assumptions C64_channel.

(** Three senders wait; one notify wakes one of them. *)
Example C64_case_once : exists s es, qrun true es s /\
  (no_ub es /\ never_closed es /\ waiting es = [1; 2] /\ times (woken 0) es = 1 /\ times (enqueued 0) es = 1 /\
   times (enqueued 1) es = 1 /\ times any_woken es = 1 /\ times notify_called es = 1).
Proof.
  apply (qcase true (three_waiters ++ WaitQueueTheorems.notifies 3) (fun s es =>
   no_ub es /\ never_closed es /\ waiting es = [1; 2] /\ times (woken 0) es = 1 /\ times (enqueued 0) es = 1 /\
   times (enqueued 1) es = 1 /\ times any_woken es = 1 /\ times notify_called es = 1)).
  vm_compute. repeat split; intros; intuition discriminate.
Qed.

(** Two notifies with nobody waiting leave one notification, which one sender picks up; the next one sleeps. *)
Example C64_case_consumed : exists s es, qrun true es s /\
  (never_closed es /\ times any_woken es = 0 /\ times any_consumed es = 1 /\ times notify_called es = 2 /\ waiting es = [1]).
Proof.
  apply (qcase true ([QNotify 5] ++ go 5 3 ++ [QNotify 6] ++ go 6 3 ++ [QNew 0; QStart 0 7] ++ go 0 2 ++ first_waits 1 8) (fun s es =>
   never_closed es /\ times any_woken es = 0 /\ times any_consumed es = 1 /\ times notify_called es = 2 /\ waiting es = [1])).
  vm_compute. repeat split; intros; intuition discriminate.
Qed.

(** Three notifiers overlap with one wait: its waker is woken once. *)
Example C64_case_receiver : exists s es, wrun true es s /\
  (times (waker_woken 7) es = 1 /\ times (waker_passed 7) es = 1 /\ times (fun e => match e with CallNotify _ _ => true | _ => false end) es = 3).
Proof.
  apply (wcase true (overlap_prefix ++ [WAStep 1; WAStep 1; WAStep 1]) (fun s es =>
   times (waker_woken 7) es = 1 /\ times (waker_passed 7) es = 1 /\ times (fun e => match e with CallNotify _ _ => true | _ => false end) es = 3)).
  vm_compute. repeat split.
Qed.

(** Two senders sleep on a full channel; one message is received and its RecvRef dropped: one of them is woken. *)
Example C64_case_channel : forall debug, exists s es, crun (core_new 64 1) dpol false debug es s /\
  (ring_calm 64 1 es /\ (forall p, ~ In (RxDropped p) es) /\ times any_woken (queue_of es) = 1 /\
   times released_slot (ring_of es) = 1 /\ waiting (queue_of es) = [5]).
Proof.
  intros debug. apply (played_case (core_new 64 1) dpol false debug (sends 1 7 ++ sends 3 8 ++ sends 5 9 ++ recvs 2 9 ++ unrefs 2)). intros Hr.
  split; [|split; [|split; [|split]]].
  - apply (calm_few 64 1 dpol false debug _ _ wf1 Hr). destruct debug; vm_compute; reflexivity.
  - intros p. destruct debug; none_in.
  - destruct debug; vm_compute; reflexivity.
  - destruct debug; vm_compute; reflexivity.
  - destruct debug; vm_compute; reflexivity.
Qed.
