(** C63: what a blocking send does after it has been woken. *)
From Coq Require Import List Bool Arith NArith Lia.
From Verif Require Import QueueSpec CoreModel CoreArith RingSpec SoloSpec WaitCellModel WaitList WaitQueueModel ChannelModel ChannelSpec ChannelFacts ChannelDemo SpinSpec ChannelSpin ChannelAlone.
From Verif Require Import History.
Import ListNotations.

(** C63, refuted as stated: a blocking send_ref whose waiter has been taken out of the queue, while the room it
    was woken for has gone to somebody else, does not go back to sleep, nor return, however long it runs: it
    goes round its loop.  The same holds of send_ref_timeout, which is the same loop up to what it does after
    Wait: it does not look at the clock. *)
Theorem C63_send_spins : forall T W cap (pol : policy T) debug es s i,
  let P := core_new W (N.of_nat cap) in
  wf W cap -> crun P pol false debug es s -> ring_calm W cap es ->
  ch_tx s i = TCall SQueued \/ ch_tx s i = TAgain SQueued ->
  n_state (q_heap (ch_queue s) i) = Q_WAKING -> occupancy (ring_of es) = cap -> closed_in (ring_of es) = false ->
  forall w n, tx_alone P pol false debug n s es i w = None.
Proof.
  intros T W cap pol debug es s i P Hwf Hr HC E Hn Ho Hcl w n.
  exact (send_spins W cap pol debug Hwf i w s es Hr HC E Hn Ho Hcl n).
Qed.
Print Assumptions C63_send_spins.

(** In every execution: once a blocking send that slept has been told Notified, it is never told Wait again, so
    it neither sleeps again nor (send_ref_timeout) compares the time with its deadline again. *)
Theorem C63_sleeps_no_more : forall T W cap (pol : policy T) debug es s i es1 es2,
  let P := core_new W (N.of_nat cap) in
  crun P pol false debug es s -> memory_ok es -> queue_of es = es2 ++ ERet i Notified :: es1 -> In (ERet i Wait) es1 ->
  ~ In (ERet i Wait) es2.
Proof. intros T W cap pol debug es s i es1 es2 P Hr Hm Hq Hin. exact (never_again W cap pol debug es s i Hr Hm es2 es1 Hq Hin). Qed.
Print Assumptions C63_sleeps_no_more.

(** Process 3 sleeps because the only slot is full; the message is received and the RecvRef dropped, which wakes
    it; before it has run, process 5 sends into the slot. *)
Definition snatched : list (@caction nat) :=
  sends 1 7 ++ sends 3 8 ++ recvs 2 9 ++ unrefs 2 ++ tries 5 6 ++ [CResume 3].

(** Hence the property is false: the queue is full, nobody else is in the middle of anything, the channel is
    open, and the send that slept neither returns nor goes back to sleep. *)
Theorem C63_refuted : forall debug, exists es s,
  wf 64 1 /\ crun (core_new 64 1) dpol false debug es s /\ memory_ok es /\
  In (OnQueue (ERet 3 Wait)) es /\ occupancy (ring_of es) = 1 /\ closed_in (ring_of es) = false /\
  ch_rx s = RIdle /\ ch_refs s = [] /\ (forall i, i <> 3 -> ch_tx s i = TNone \/ ch_tx s i = TEnd) /\
  forall w n, tx_alone (core_new 64 1) dpol false debug n s es 3 w = None.
Proof.
  intros debug.
  assert (H : exists s es, crun (core_new 64 1) dpol false debug es s /\
    (ring_calm 64 1 es /\ memory_ok es /\ In (OnQueue (ERet 3 Wait)) es /\ occupancy (ring_of es) = 1 /\ closed_in (ring_of es) = false /\
     ch_rx s = RIdle /\ ch_refs s = [] /\ (forall i, i <> 3 -> ch_tx s i = TNone \/ ch_tx s i = TEnd) /\
     ch_tx s 3 = TCall SQueued /\ n_state (q_heap (ch_queue s) 3) = Q_WAKING)).
  { apply (played_case (core_new 64 1) dpol false debug snatched). intros Hr. split; [|split; [|split; [|split; [|split; [|split; [|split; [|split; [|split]]]]]]]].
    - apply (calm_few 64 1 dpol false debug _ _ wf1 Hr). destruct debug; vm_compute; reflexivity.
    - intros k. destruct debug; none_in.
    - destruct debug; is_in.
    - destruct debug; vm_compute; reflexivity.
    - destruct debug; vm_compute; reflexivity.
    - destruct debug; vm_compute; reflexivity.
    - destruct debug; vm_compute; reflexivity.
    - intros i Hi. destruct debug; (do 6 (destruct i as [|i]; [first [left; vm_compute; reflexivity|right; vm_compute; reflexivity|now destruct Hi]|])); left; vm_compute; reflexivity.
    - destruct debug; vm_compute; reflexivity.
    - destruct debug; vm_compute; reflexivity. }
  destruct H as (s & es & Hr & HC & Hm & Hw & Ho & Hcl & Hrx & Hrf & Htx & E & Hn).
  exists es, s. split; [exact wf1|]. split; [exact Hr|]. split; [exact Hm|]. split; [exact Hw|]. split; [exact Ho|]. split; [exact Hcl|].
  split; [exact Hrx|]. split; [exact Hrf|]. split; [exact Htx|].
  exact (C63_send_spins nat 64 1 dpol debug es s 3 wf1 Hr HC (or_introl E) Hn Ho Hcl).
Qed.
Print Assumptions C63_refuted.

(** The hypotheses of C63_sleeps_no_more are met: process 3 slept, was woken, found the queue full and was told
    Notified again, three times. *)
Example C63_case : forall debug, exists s es, crun (core_new 64 1) dpol false debug es s /\
  (memory_ok es /\ In (OnQueue (ERet 3 Wait)) es /\ 3 <= length (filter (fun e => match e with ERet 3 Notified => true | _ => false end) (queue_of es))).
Proof.
  intros debug. apply (played_case (core_new 64 1) dpol false debug (snatched ++ tx 3 30)). intros Hr.
  split; [|split].
  - intros k. destruct debug; none_in.
  - destruct debug; is_in.
  - destruct debug; vm_compute; lia.
Qed.

(** C63, what holds: in every other situation a send that runs alone returns or goes to sleep within 57 steps.
    It may be anywhere inside send_ref, send, try_send_ref or the poll of their futures; nobody else is between
    reserving the slot the tail points to and releasing it, and the lock of the wait queue is free or its own.
    The one exception is a blocking send that was woken although the queue is full and open: C63_send_spins. *)
Theorem C63_send_returns : forall T W cap (pol : policy T) async debug es s i,
  let P := core_new W (N.of_nat cap) in
  wf W cap -> crun P pol async debug es s -> memory_ok es -> ring_calm W cap es -> sending (ch_tx s i) = true ->
  (forall j, j <> i -> occupies P (st_agents (ch_ring s) j) <> Some (tail_index P (st_core (ch_ring s)))) ->
  q_lock (ch_queue s) = None \/ q_lock (ch_queue s) = Some i ->
  async = true \/
  ~ (n_state (q_heap (ch_queue s) i) = Q_WAKING /\ occupancy (ring_of es) = cap /\ closed_in (ring_of es) = false) ->
  forall w, exists s' es', tx_alone P pol async debug 57 s es i w = Some (s', es').
Proof.
  intros T W cap pol async debug es s i P Hwf Hr Hm HC Hse Hu HL Hns w.
  exact (send_returns W cap pol async debug Hwf i w s es Hr Hm HC Hse Hu HL Hns).
Qed.
Print Assumptions C63_send_returns.

(** The hypotheses are met by a blocking send woken to a queue with room, and by the asynchronous send in the very
    situation in which the blocking one spins; the latter goes back to sleep. *)
Example C63_returns_blocking : forall debug, exists s es, crun (core_new 64 1) dpol false debug es s /\
  (memory_ok es /\ ring_calm 64 1 es /\ ch_tx s 3 = TCall SQueued /\
   (forall j, j <> 3 -> occupies (core_new 64 1) (st_agents (ch_ring s) j) <> Some (tail_index (core_new 64 1) (st_core (ch_ring s)))) /\
   q_lock (ch_queue s) = None /\ n_state (q_heap (ch_queue s) 3) = Q_WAKING /\ occupancy (ring_of es) = 0 /\
   match tx_alone (core_new 64 1) dpol false debug 57 s es 3 7 with Some (s', _) => ch_tx s' 3 = THold | None => False end).
Proof.
  intros debug. apply (played_case (core_new 64 1) dpol false debug (sends 1 7 ++ sends 3 8 ++ recvs 2 9 ++ unrefs 2 ++ [CResume 3])). intros Hr.
  split; [|split; [|split; [|split; [|split; [|split; [|split]]]]]].
  - intros k. destruct debug; none_in.
  - apply (calm_few 64 1 dpol false debug _ _ wf1 Hr). destruct debug; vm_compute; reflexivity.
  - destruct debug; vm_compute; reflexivity.
  - intros j Hj. destruct debug; (do 6 (destruct j as [|j]; [first [exfalso; apply Hj; reflexivity|vm_compute; discriminate]|])); vm_compute; discriminate.
  - destruct debug; vm_compute; reflexivity.
  - destruct debug; vm_compute; reflexivity.
  - destruct debug; vm_compute; reflexivity.
  - destruct debug; vm_compute; reflexivity.
Qed.

Example C63_returns_async : forall debug, exists s es, crun (core_new 64 1) dpol true debug es s /\
  (memory_ok es /\ ring_calm 64 1 es /\ ch_tx s 3 = TCall SQueued /\
   (forall j, j <> 3 -> occupies (core_new 64 1) (st_agents (ch_ring s) j) <> Some (tail_index (core_new 64 1) (st_core (ch_ring s)))) /\
   q_lock (ch_queue s) = None /\ n_state (q_heap (ch_queue s) 3) = Q_WAKING /\ occupancy (ring_of es) = 1 /\
   match tx_alone (core_new 64 1) dpol true debug 57 s es 3 7 with Some (s', _) => ch_tx s' 3 = TPark | None => False end).
Proof.
  intros debug. apply (played_case (core_new 64 1) dpol true debug snatched). intros Hr.
  split; [|split; [|split; [|split; [|split; [|split; [|split]]]]]].
  - intros k. destruct debug; none_in.
  - apply (calm_few 64 1 dpol true debug _ _ wf1 Hr). destruct debug; vm_compute; reflexivity.
  - destruct debug; vm_compute; reflexivity.
  - intros j Hj. destruct debug; (do 6 (destruct j as [|j]; [first [exfalso; apply Hj; reflexivity|vm_compute; discriminate]|])); vm_compute; discriminate.
  - destruct debug; vm_compute; reflexivity.
  - destruct debug; vm_compute; reflexivity.
  - destruct debug; vm_compute; reflexivity.
  - destruct debug; vm_compute; reflexivity.
Qed.
