(** C62: the receiver's calls return without help. *)
From Coq Require Import List Bool Arith NArith Lia.
From Verif Require Import QueueSpec CoreModel CoreArith RingSpec SoloSpec WaitCellModel ChannelModel ChannelSpec ChannelFacts ChannelDemo PollSpec ChannelPoll.
From Verif Require WaitCellSpec.
From Verif Require Import History.
Import ListNotations.

(** C62.  In every reachable state, whatever everybody else is in the middle of, a recv_ref /
    poll_recv_ref / try_recv_ref in progress that runs without interference returns (with a message, with
    None, or with Pending) within 41 of its own steps, provided nobody is between the fetch_or and the
    fetch_and of rx_wait.notify() and nobody holds a RecvRef to the next slot. *)
Theorem C62_recv_returns : forall T W cap (pol : policy T) async debug es s,
  let P := core_new W (N.of_nat cap) in
  wf W cap -> crun P pol async debug es s -> ring_calm W cap es -> in_recv (ch_rx s) = true ->
  (forall j, ~ in_notify s j) -> front_unheld P s ->
  exists s' es' r, rx_alone P pol async debug 41 s es = Some (s', Recvd r :: es').
Proof. intros T W cap pol async debug es s P Hwf Hr HC Hin Hn Hu. exact (poll_returns W cap pol async debug Hwf s es Hr HC Hin Hn Hu). Qed.
Print Assumptions C62_recv_returns.

(** try_recv_ref does not depend on what the senders do in notify. *)
Theorem C62_try_recv_returns : forall T W cap (pol : policy T) async debug es s h,
  let P := core_new W (N.of_nat cap) in
  wf W cap -> crun P pol async debug es s -> ring_calm W cap es -> ch_rx s = RAgain h KTry \/ ch_rx s = RPop h KTry ->
  front_unheld P s ->
  exists s' es' r, rx_alone P pol async debug 15 s es = Some (s', Recvd r :: es').
Proof. intros T W cap pol async debug es s h P Hwf Hr HC Hin Hu. exact (try_returns W cap pol async debug Hwf s es h Hr HC Hin Hu). Qed.
Print Assumptions C62_try_recv_returns.

(** The condition on notify is needed: if a Sender (or the drop of a SendRef) is suspended there, the
    senders have not closed the channel and there is nothing to receive, then a recv_ref / poll_recv_ref goes
    round its loop for ever: it does not return Pending, however long it runs. *)
Theorem C62_poll_spins : forall T W cap (pol : policy T) async debug es s j h w,
  let P := core_new W (N.of_nat cap) in
  wf W cap -> crun P pol async debug es s -> ring_calm W cap es -> ch_rx s = RAgain h (KFirst w) ->
  in_notify s j -> WaitCellSpec.closed_in (cell_of es) = false ->
  committed (ring_of es) (count is_take (ring_of es)) = None ->
  closed_in (ring_of es) = false \/ count is_take (ring_of es) < count is_reserve (ring_of es) ->
  forall n, rx_alone P pol async debug n s es = None.
Proof.
  intros T W cap pol async debug es s j h w P Hwf Hr HC E Hj Hcl H1 H2.
  exact (poll_spins W cap pol async debug Hwf es s j h w Hr HC Hj Hcl (conj H1 H2) E).
Qed.
Print Assumptions C62_poll_spins.

(** Process 1 has sent a message, which the receiver has taken with try_recv and dropped; 1 is now suspended
    inside the notify that announces it.  The receiver polls. *)
Definition stall : list (@caction nat) :=
  [CSend 1 true] ++ tx 1 30 ++ [CWrite 1 7; CDropSendRef 1; CTryRecv 2] ++ rx 15 ++ unrefs 2 ++ tx 1 2 ++ [CRecv 4 9].

(** Hence C62 without the condition is false: the channel is empty, no handle is outstanding, one send is in
    progress and has nothing left to do but to finish its notify, and the poll never returns. *)
Theorem C62_refuted : forall async debug, exists es s,
  wf 64 1 /\ crun (core_new 64 1) dpol async debug (Recving 4 (Some 9) :: es) s /\
  occupancy (ring_of es) = 0 /\ ch_refs s = [] /\ (forall i, i <> 1 -> ch_tx s i = TNone) /\ ch_tx s 1 = TNotify /\
  forall n, rx_alone (core_new 64 1) dpol async debug n s (Recving 4 (Some 9) :: es) = None.
Proof.
  intros async debug.
  assert (H : exists s es, crun (core_new 64 1) dpol async debug es s /\
    (ring_calm 64 1 es /\ (exists es1, es = Recving 4 (Some 9) :: es1 /\ occupancy (ring_of es1) = 0) /\ ch_refs s = [] /\
     (forall i, i <> 1 -> ch_tx s i = TNone) /\ ch_tx s 1 = TNotify /\ ch_rx s = RAgain 4 (KFirst 9) /\ in_notify s 1 /\
     WaitCellSpec.closed_in (cell_of es) = false /\ committed (ring_of es) (count is_take (ring_of es)) = None /\ closed_in (ring_of es) = false)).
  { apply (played_case (core_new 64 1) dpol async debug stall). intros Hr. split; [|split; [|split; [|split; [|split; [|split; [|split; [|split; [|split]]]]]]]].
    - apply (calm_few 64 1 dpol async debug _ _ wf1 Hr). destruct async, debug; vm_compute; reflexivity.
    - eexists. split; destruct async, debug; vm_compute; reflexivity.
    - destruct async, debug; vm_compute; reflexivity.
    - intros [|[|i]] Hi; [destruct async, debug; vm_compute; reflexivity|lia|destruct async, debug; vm_compute; reflexivity].
    - destruct async, debug; vm_compute; reflexivity.
    - destruct async, debug; vm_compute; reflexivity.
    - destruct async, debug; vm_compute; exact I.
    - destruct async, debug; vm_compute; reflexivity.
    - destruct async, debug; vm_compute; reflexivity.
    - destruct async, debug; vm_compute; reflexivity. }
  destruct H as (s & es & Hr & HC & (es1 & -> & Ho) & Hrefs & Htx & H1 & E & Hj & Hcl & Hco & Hcd).
  exists es1, s. split; [exact wf1|]. split; [exact Hr|]. split; [exact Ho|]. split; [exact Hrefs|]. split; [exact Htx|]. split; [exact H1|].
  exact (C62_poll_spins nat 64 1 dpol async debug _ s 1 4 9 wf1 Hr HC E Hj Hcl Hco (or_introl Hcd)).
Qed.
Print Assumptions C62_refuted.

(** The hypotheses of the positive theorems are met in the middle of things: the receiver has put its waker
    into the cell and not yet left it, meanwhile process 1 sent a message and its notify found the cell locked,
    and process 3 is inside push_ref.  The receiver's call then finds the message. *)
Definition midway : list (@caction nat) :=
  [CRecv 4 9] ++ rx 7 ++ [CSend 1 true] ++ tx 1 30 ++ [CWrite 1 7; CDropSendRef 1] ++ tx 1 30 ++ [CSend 3 true] ++ tx 3 2.
Example C62_case : forall async debug, exists s es, crun (core_new 64 1) dpol async debug es s /\
  (ring_calm 64 1 es /\ in_recv (ch_rx s) = true /\ (exists w p, ws_pc (ch_cell s) 0 = WCas2 w p false) /\
   w_state (ws_cell (ch_cell s)) = N.lor PARKING NOTIFYING /\ ch_tx s 3 = TPush STry /\
   (forall j, ~ in_notify s j) /\ front_unheld (core_new 64 1) s /\
   exists s' es', rx_alone (core_new 64 1) dpol async debug 41 s es = Some (s', Recvd (RecvMsg 4 7) :: es')).
Proof.
  intros async debug. apply (played_case (core_new 64 1) dpol async debug midway). intros Hr.
  split; [|split; [|split; [|split; [|split; [|split; [|split]]]]]].
  - apply (calm_few 64 1 dpol async debug _ _ wf1 Hr). destruct async, debug; vm_compute; reflexivity.
  - destruct async, debug; vm_compute; reflexivity.
  - destruct async, debug; eexists _, _; vm_compute; reflexivity.
  - destruct async, debug; vm_compute; reflexivity.
  - destruct async, debug; vm_compute; reflexivity.
  - intros j Hj. destruct async, debug; revert Hj; (do 5 (destruct j as [|j]; [vm_compute; tauto|])); vm_compute; tauto.
  - intros j. destruct async, debug; (do 6 (destruct j as [|j]; [vm_compute; discriminate|])); vm_compute; discriminate.
  - destruct async, debug; eexists _, _; vm_compute; reflexivity.
Qed.

(** A try_recv while process 1 is suspended inside notify: it returns. *)
Example C62_try_case : forall async debug, exists s es, crun (core_new 64 1) dpol async debug es s /\
  (ring_calm 64 1 es /\ ch_rx s = RAgain 4 KTry /\ front_unheld (core_new 64 1) s /\ in_notify s 1 /\
   exists s' es', rx_alone (core_new 64 1) dpol async debug 15 s es = Some (s', Recvd RecvEmpty :: es')).
Proof.
  intros async debug. apply (played_case (core_new 64 1) dpol async debug (removelast stall ++ [CTryRecv 4])). intros Hr.
  split; [|split; [|split; [|split]]].
  - apply (calm_few 64 1 dpol async debug _ _ wf1 Hr). destruct async, debug; vm_compute; reflexivity.
  - destruct async, debug; vm_compute; reflexivity.
  - intros j. destruct async, debug; (do 6 (destruct j as [|j]; [vm_compute; discriminate|])); vm_compute; discriminate.
  - destruct async, debug; vm_compute; exact I.
  - destruct async, debug; eexists _, _; vm_compute; reflexivity.
Qed.
