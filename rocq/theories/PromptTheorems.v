(** C66 and C67: a receive that finds a message and a send that finds room return at once. *)
From Coq Require Import List Bool Arith NArith Lia.
From Verif Require Import QueueSpec CoreModel CoreArith RingSpec SoloSpec WaitCellModel WaitList WaitQueueModel ChannelModel ChannelSpec ChannelFacts ChannelDemo PollSpec SpinSpec ChannelPrompt.
From Verif Require Import History.
Import ListNotations.

(** C66, receiving.  In every reachable state, whatever everybody else is in the middle of: if the oldest
    message not yet received has been committed (its SendRef was dropped), a recv_ref, poll_recv_ref or
    try_recv_ref that is about to look at the queue and runs without interference returns that message in four
    of its own steps.  It touches neither the wait cell nor the wait queue.  Nothing is required of the others:
    they may be suspended inside notify, hold the lock of the wait queue, or hold any SendRef or RecvRef. *)
Theorem C66_recv : forall T W cap (pol : policy T) async debug es s h k v,
  let P := core_new W (N.of_nat cap) in
  wf W cap -> crun P pol async debug es s -> ring_calm W cap es -> ch_rx s = RAgain h k ->
  committed (ring_of es) (count is_take (ring_of es)) = Some v ->
  exists s', rx_alone P pol async debug 4 s es =
    Some (s', Recvd (RecvMsg h v) :: OnRing (Take h v) :: OnRing (Invoke h OpPop) :: es) /\ ch_refs s' = h :: ch_refs s.
Proof. intros T W cap pol async debug es s h k v P Hwf Hr HC E Hv. exact (recv_prompt W cap pol async debug Hwf s es h k v Hr HC E Hv). Qed.
Print Assumptions C66_recv.

(** C67, sending.  If the channel is open and has room, and nobody else is between reserving the slot the tail
    points to and releasing it, then a send_ref, try_send_ref or poll of a send future that is about to look at
    the queue and runs without interference returns a SendRef in five of its own steps.  It touches neither the
    wait cell nor the wait queue: it may be that somebody is suspended with the lock of the wait queue, and that
    others have been waiting for this very slot. *)
Theorem C67_send : forall T W cap (pol : policy T) async debug es s i st w,
  let P := core_new W (N.of_nat cap) in
  wf W cap -> crun P pol async debug es s -> ring_calm W cap es -> ch_tx s i = TAgain st ->
  closed_in (ring_of es) = false -> occupancy (ring_of es) < cap ->
  (forall j, j <> i -> occupies P (st_agents (ch_ring s) j) <> Some (tail_index P (st_core (ch_ring s)))) ->
  exists s' e, tx_alone P pol async debug 5 s es i w =
    Some (s', Sent i SentOk :: OnRing e :: OnRing (Reserve i) :: OnRing (Invoke i OpPush) :: es) /\
    ch_tx s' i = THold /\ ((exists v, e = HandOut i v) \/ (exists l v, e = Overwrite i l v)).
Proof. intros T W cap pol async debug es s i st w P Hwf Hr HC E Hcl Ho Hu. exact (send_prompt W cap pol async debug Hwf i w s es st Hr HC E Hcl Ho Hu). Qed.
Print Assumptions C67_send.

(** C67, sending into a closed channel: Closed in two steps, whatever anybody else is doing. *)
Theorem C67_closed : forall T W cap (pol : policy T) async debug es s i st w,
  let P := core_new W (N.of_nat cap) in
  wf W cap -> crun P pol async debug es s -> ring_calm W cap es -> ch_tx s i = TAgain st ->
  closed_in (ring_of es) = true ->
  exists s', tx_alone P pol async debug 2 s es i w =
    Some (s', Sent i SentClosed :: OnRing (RetPushClosed i) :: OnRing (Invoke i OpPush) :: es) /\ ch_tx s' i = TEnd.
Proof. intros T W cap pol async debug es s i st w P Hwf Hr HC E Hcl. exact (send_closed_prompt W cap pol async debug Hwf i w s es st Hr HC E Hcl). Qed.
Print Assumptions C67_closed.

(** The same from the call on: a receive that is called now and runs alone has the message in four steps; *)
Theorem C66_call : forall T W cap (pol : policy T) async debug es s a s1 l h v,
  let P := core_new W (N.of_nat cap) in
  wf W cap -> crun P pol async debug es s -> ring_calm W cap es ->
  (a = CTryRecv h \/ exists w, a = CRecv h w) -> cstep_sys P pol async debug s a = Some (s1, l) ->
  committed (ring_of es) (count is_take (ring_of es)) = Some v ->
  exists s' es', rx_alone P pol async debug 4 s1 (l ++ es) = Some (s', Recvd (RecvMsg h v) :: es').
Proof. intros T W cap pol async debug es s a s1 l h v P Hwf Hr HC Ha Hs Hv. exact (recv_call W cap pol async debug Hwf s es a s1 l h v Hr HC Ha Hs Hv). Qed.
Print Assumptions C66_call.

(** a send that is called now and runs alone has its SendRef in six, or is told Closed in three. *)
Theorem C67_call : forall T W cap (pol : policy T) async debug es s i try s1 l w,
  let P := core_new W (N.of_nat cap) in
  wf W cap -> crun P pol async debug es s -> ring_calm W cap es -> cstep_sys P pol async debug s (CSend i try) = Some (s1, l) ->
  (closed_in (ring_of es) = false -> occupancy (ring_of es) < cap ->
   (forall j, j <> i -> occupies P (st_agents (ch_ring s) j) <> Some (tail_index P (st_core (ch_ring s)))) ->
   exists s' es', tx_alone P pol async debug 6 s1 (l ++ es) i w = Some (s', Sent i SentOk :: es') /\ ch_tx s' i = THold) /\
  (closed_in (ring_of es) = true ->
   exists s' es', tx_alone P pol async debug 3 s1 (l ++ es) i w = Some (s', Sent i SentClosed :: es')).
Proof.
  intros T W cap pol async debug es s i try s1 l w P Hwf Hr HC Hs. split.
  - exact (send_call W cap pol async debug Hwf i try w s es s1 l Hr HC Hs).
  - exact (send_call_closed W cap pol async debug Hwf i try w s es s1 l Hr HC Hs).
Qed.
Print Assumptions C67_call.

Lemma wf2 : wf 64 2.
Proof. split; [lia|]. vm_compute. reflexivity. Qed.

(** Process 1 has sent 7 and is suspended inside the notify that announces it; process 3 has reserved the
    second slot and holds its SendRef.  The receiver polls: the state in which an empty channel would make it
    spin (C62_poll_spins). *)
Definition amid : list (@caction nat) :=
  [CSend 1 true] ++ tx 1 30 ++ [CWrite 1 7; CDropSendRef 1] ++ tx 1 2 ++ [CSend 3 true] ++ tx 3 30 ++ [CRecv 4 9].
Example C66_recv_case : forall async debug, exists s es, crun (core_new 64 2) dpol async debug es s /\
  (ring_calm 64 2 es /\ ch_rx s = RAgain 4 (KFirst 9) /\ in_notify s 1 /\ ch_tx s 3 = THold /\
   committed (ring_of es) (count is_take (ring_of es)) = Some 7 /\
   exists s' es', rx_alone (core_new 64 2) dpol async debug 4 s es = Some (s', Recvd (RecvMsg 4 7) :: es')).
Proof.
  intros async debug. apply (played_case (core_new 64 2) dpol async debug amid). intros Hr.
  split; [|split; [|split; [|split; [|split]]]].
  - apply (calm_few 64 2 dpol async debug _ _ wf2 Hr). destruct async, debug; vm_compute; reflexivity.
  - destruct async, debug; vm_compute; reflexivity.
  - destruct async, debug; vm_compute; exact I.
  - destruct async, debug; vm_compute; reflexivity.
  - destruct async, debug; vm_compute; reflexivity.
  - destruct async, debug; eexists _, _; vm_compute; reflexivity.
Qed.

(** The same state a moment before the call. *)
Example C66_call_case : forall async debug, exists s es, crun (core_new 64 2) dpol async debug es s /\
  (ring_calm 64 2 es /\ committed (ring_of es) (count is_take (ring_of es)) = Some 7 /\
   (exists s1 l, cstep_sys (core_new 64 2) dpol async debug s (CRecv 4 9) = Some (s1, l)) /\
   (exists s1 l, cstep_sys (core_new 64 2) dpol async debug s (CTryRecv 4) = Some (s1, l))).
Proof.
  intros async debug. apply (played_case (core_new 64 2) dpol async debug (removelast amid)). intros Hr.
  split; [|split; [|split]].
  - apply (calm_few 64 2 dpol async debug _ _ wf2 Hr). destruct async, debug; vm_compute; reflexivity.
  - destruct async, debug; vm_compute; reflexivity.
  - destruct async, debug; eexists _, _; vm_compute; reflexivity.
  - destruct async, debug; eexists _, _; vm_compute; reflexivity.
Qed.

(** The only slot was full and process 3 is suspended inside start_wait, with the lock; the message has been
    received and its RecvRef dropped; the receiver waits for the lock, to notify.  Process 5 sends, and gets the
    slot ahead of process 3. *)
Definition barge : list (@caction nat) :=
  sends 1 7 ++ [CSend 3 false] ++ tx 3 13 ++ [CTryRecv 2] ++ rx 15 ++ [CDropRef 2] ++ rx 3 ++ [CSend 5 true].
Example C67_case : forall async debug, exists s es, crun (core_new 64 1) dpol async debug es s /\
  (ring_calm 64 1 es /\ ch_tx s 5 = TAgain STry /\ closed_in (ring_of es) = false /\ occupancy (ring_of es) < 1 /\
   (forall j, j <> 5 -> occupies (core_new 64 1) (st_agents (ch_ring s) j) <> Some (tail_index (core_new 64 1) (st_core (ch_ring s)))) /\
   q_lock (ch_queue s) = Some 3 /\ q_pc (ch_queue s) 3 = SUnlock Wait /\ ch_rx s = RNotify).
Proof.
  intros async debug. apply (played_case (core_new 64 1) dpol async debug barge). intros Hr.
  split; [|split; [|split; [|split; [|split; [|split; [|split]]]]]].
  - apply (calm_few 64 1 dpol async debug _ _ wf1 Hr). destruct async, debug; vm_compute; reflexivity.
  - destruct async, debug; vm_compute; reflexivity.
  - destruct async, debug; vm_compute; reflexivity.
  - destruct async, debug; vm_compute; lia.
  - intros j _. destruct async, debug; (do 7 (destruct j as [|j]; [vm_compute; discriminate|])); vm_compute; discriminate.
  - destruct async, debug; vm_compute; reflexivity.
  - destruct async, debug; vm_compute; reflexivity.
  - destruct async, debug; vm_compute; reflexivity.
Qed.

(** The same a moment before the call, of send_ref or try_send_ref. *)
Example C67_call_case : forall async debug try, exists s es, crun (core_new 64 1) dpol async debug es s /\
  (ring_calm 64 1 es /\ closed_in (ring_of es) = false /\ occupancy (ring_of es) < 1 /\ q_lock (ch_queue s) = Some 3 /\
   (forall j, j <> 5 -> occupies (core_new 64 1) (st_agents (ch_ring s) j) <> Some (tail_index (core_new 64 1) (st_core (ch_ring s)))) /\
   exists s1 l, cstep_sys (core_new 64 1) dpol async debug s (CSend 5 try) = Some (s1, l)).
Proof.
  intros async debug try. apply (played_case (core_new 64 1) dpol async debug (removelast barge)). intros Hr.
  split; [|split; [|split; [|split; [|split]]]].
  - apply (calm_few 64 1 dpol async debug _ _ wf1 Hr). destruct async, debug; vm_compute; reflexivity.
  - destruct async, debug; vm_compute; reflexivity.
  - destruct async, debug; vm_compute; lia.
  - destruct async, debug; vm_compute; reflexivity.
  - intros j _. destruct async, debug; (do 7 (destruct j as [|j]; [vm_compute; discriminate|])); vm_compute; discriminate.
  - destruct async, debug, try; eexists _, _; vm_compute; reflexivity.
Qed.

(** Closed: the Receiver has been dropped while process 3 holds a SendRef; process 5 then sends. *)
Example C67_closed_case : forall async debug, exists s es, crun (core_new 64 2) dpol async debug es s /\
  (ring_calm 64 2 es /\ ch_tx s 5 = TAgain STry /\ ch_tx s 3 = THold /\ closed_in (ring_of es) = true).
Proof.
  intros async debug. apply (played_case (core_new 64 2) dpol async debug ([CSend 3 true] ++ tx 3 30 ++ [CDropRx false] ++ rx 1 ++ [CSend 5 true])). intros Hr.
  split; [|split; [|split]].
  - apply (calm_few 64 2 dpol async debug _ _ wf2 Hr). destruct async, debug; vm_compute; reflexivity.
  - destruct async, debug; vm_compute; reflexivity.
  - destruct async, debug; vm_compute; reflexivity.
  - destruct async, debug; vm_compute; reflexivity.
Qed.

(** The condition of C67_send on the slot at the tail is exact: while somebody else is between reserving that
    slot and releasing it and the channel is open, a send that is about to look at the queue never returns and
    never goes to sleep, as long as it runs alone. *)
Theorem C67_blocked : forall T W cap (pol : policy T) async debug es s i j st,
  let P := core_new W (N.of_nat cap) in
  wf W cap -> crun P pol async debug es s -> ring_calm W cap es -> ch_tx s i = TAgain st ->
  closed_in (ring_of es) = false -> j <> i ->
  occupies P (st_agents (ch_ring s) j) = Some (tail_index P (st_core (ch_ring s))) ->
  forall w n, tx_alone P pol async debug n s es i w = None.
Proof.
  intros T W cap pol async debug es s i j st P Hwf Hr HC E Hcl Hj Ho w n.
  exact (send_never W cap pol async debug Hwf i j w s es st Hr HC E Hcl Hj Ho n).
Qed.
Print Assumptions C67_blocked.

(** Hence a channel can be empty and open, with nobody in the middle of anything, and yet refuse to answer: the
    only slot's message has been received and its RecvRef is kept.  try_send neither succeeds nor reports Full. *)
Theorem C67_refuted : forall async debug, exists es s,
  crun (core_new 64 1) dpol async debug es s /\ ch_tx s 3 = TAgain STry /\
  closed_in (ring_of es) = false /\ occupancy (ring_of es) = 0 /\ ch_rx s = RIdle /\ ch_refs s = [2] /\
  (forall i, i <> 3 -> ch_tx s i = TNone \/ ch_tx s i = TEnd) /\
  forall w n, tx_alone (core_new 64 1) dpol async debug n s es 3 w = None.
Proof.
  intros async debug.
  assert (H : exists s es, crun (core_new 64 1) dpol async debug es s /\
    (ring_calm 64 1 es /\ ch_tx s 3 = TAgain STry /\ closed_in (ring_of es) = false /\ occupancy (ring_of es) = 0 /\
     ch_rx s = RIdle /\ ch_refs s = [2] /\ (forall i, i <> 3 -> ch_tx s i = TNone \/ ch_tx s i = TEnd) /\
     occupies (core_new 64 1) (st_agents (ch_ring s) 2) = Some (tail_index (core_new 64 1) (st_core (ch_ring s))))).
  { apply (played_case (core_new 64 1) dpol async debug (sends 1 7 ++ recvs 2 9 ++ [CSend 3 true])). intros Hr.
    split; [|split; [|split; [|split; [|split; [|split; [|split]]]]]].
    - apply (calm_few 64 1 dpol async debug _ _ wf1 Hr). destruct async, debug; vm_compute; reflexivity.
    - destruct async, debug; vm_compute; reflexivity.
    - destruct async, debug; vm_compute; reflexivity.
    - destruct async, debug; vm_compute; reflexivity.
    - destruct async, debug; vm_compute; reflexivity.
    - destruct async, debug; vm_compute; reflexivity.
    - intros i Hi. destruct async, debug; (do 4 (destruct i as [|i]; [first [left; vm_compute; reflexivity|right; vm_compute; reflexivity|now destruct Hi]|])); left; vm_compute; reflexivity.
    - destruct async, debug; vm_compute; reflexivity. }
  destruct H as (s & es & Hr & HC & E & Hcl & Ho & Hrx & Hrf & Htx & Hocc).
  exists es, s. repeat (split; [assumption|]).
  exact (C67_blocked nat 64 1 dpol async debug es s 3 2 STry wf1 Hr HC E Hcl ltac:(discriminate) Hocc).
Qed.
Print Assumptions C67_refuted.
