(** C68: RecvRefs that are kept. *)
From Coq Require Import List Bool Arith NArith Lia.
From Verif Require Import QueueSpec CoreModel CoreArith RingSpec SoloSpec WaitCellModel WaitList WaitQueueModel ChannelModel ChannelSpec ChannelFacts ChannelDemo PollSpec SpinSpec ChannelPrompt ChannelKept.
From Verif Require Import History.
Import ListNotations.

(** In every reachable state: the RecvRefs the receiver has kept and the slots reserved but not yet received
    together are at most the capacity. *)
Theorem C68_room : forall T W cap (pol : policy T) async debug es s,
  let P := core_new W (N.of_nat cap) in
  wf W cap -> crun P pol async debug es s -> ring_calm W cap es ->
  length (ch_refs s) + occupancy (ring_of es) <= cap.
Proof. intros T W cap pol async debug es s P Hwf Hr HC. exact (kept_room W cap pol async debug Hwf es s Hr HC). Qed.
Print Assumptions C68_room.

(** A receiver that has kept as many RecvRefs as there are slots stops the channel: in every continuation, under
    every schedule, until one of the RecvRefs is dropped, no slot is reserved and nothing is received. *)
Theorem C68_stops : forall T W cap (pol : policy T) async debug es s l s',
  let P := core_new W (N.of_nat cap) in
  wf W cap -> crun P pol async debug es s -> length (ch_refs s) = cap ->
  csteps P pol async debug s l s' -> ring_calm W cap (l ++ es) -> (forall h v, ~ In (Release h v) (ring_of l)) ->
  ch_refs s' = ch_refs s /\ (forall i, ~ In (Reserve i) (ring_of l)) /\ (forall h v, ~ In (Take h v) (ring_of l)).
Proof.
  intros T W cap pol async debug es s l s' P Hwf Hr Hl Hst HC Hno.
  destruct (kept_dead W cap pol async debug Hwf s es Hr (Nat.eq_le_incl _ _ (eq_sym Hl)) l s' Hst HC Hno) as (H1 & H2 & H3).
  split; [exact H1|]. clear - H2 H3. induction (ring_of l) as [|e es' IH]; [split; intros; intros []|].
  destruct e; cbn in H2, H3; try discriminate; destruct (IH H2 H3) as [I1 I2]; split; intros; (intros [H|H]; [discriminate|]); [now apply (I1 _ H)|now apply (I2 _ _ H)|..];
    first [now apply (I1 _ H)|now apply (I2 _ _ H)].
Qed.
Print Assumptions C68_stops.

(** A recv_ref, poll_recv_ref, try_recv_ref or next() that the receiver then starts never returns while it runs
    alone, not even with None after all the senders are gone; *)
Theorem C68_recv_never : forall T W cap (pol : policy T) async debug es s h k,
  let P := core_new W (N.of_nat cap) in
  wf W cap -> crun P pol async debug es s -> ring_calm W cap es -> ch_rx s = RAgain h k -> length (ch_refs s) = cap ->
  forall n, rx_alone P pol async debug n s es = None.
Proof.
  intros T W cap pol async debug es s h k P Hwf Hr HC E Hl n.
  exact (recv_never W cap pol async debug Hwf s es h k Hr HC E (Nat.eq_le_incl _ _ (eq_sym Hl)) n).
Qed.
Print Assumptions C68_recv_never.

(** nor does a send, unless the channel is closed. *)
Theorem C68_send_never : forall T W cap (pol : policy T) async debug es s i st w,
  let P := core_new W (N.of_nat cap) in
  wf W cap -> crun P pol async debug es s -> ring_calm W cap es -> ch_tx s i = TAgain st ->
  closed_in (ring_of es) = false -> length (ch_refs s) = cap ->
  forall n, tx_alone P pol async debug n s es i w = None.
Proof.
  intros T W cap pol async debug es s i st w P Hwf Hr HC E Hcl Hl n.
  exact (send_kept W cap pol async debug Hwf i w s es st Hr HC E Hcl (Nat.eq_le_incl _ _ (eq_sym Hl)) n).
Qed.
Print Assumptions C68_send_never.

Lemma wf2 : wf 64 2.
Proof. split; [lia|]. vm_compute. reflexivity. Qed.

(** Hence a channel cannot be collected: two messages are sent into a channel of capacity 2 and the last Sender is
    dropped; the receiver, all alone, receives both, keeps them (as collect() on its Iterator does), and asks for
    the next: neither a message nor None. *)
Definition collect : list (@caction nat) :=
  sends 1 10 ++ sends 3 20 ++ [CDropTx 5 false] ++ tx 5 20 ++ recvs 0 7 ++ recvs 2 7 ++ [CRecv 4 7].
Theorem C68_refuted : forall async debug, exists es s,
  crun (core_new 64 2) dpol async debug es s /\ ch_rx s = RAgain 4 (KFirst 7) /\ ch_refs s = [2; 0] /\ ch_count s = 0 /\
  closed_in (ring_of es) = true /\ occupancy (ring_of es) = 0 /\ (forall i, ch_tx s i = TNone \/ ch_tx s i = TEnd) /\
  forall n, rx_alone (core_new 64 2) dpol async debug n s es = None.
Proof.
  intros async debug.
  assert (H : exists s es, crun (core_new 64 2) dpol async debug es s /\
    (ring_calm 64 2 es /\ ch_rx s = RAgain 4 (KFirst 7) /\ ch_refs s = [2; 0] /\ ch_count s = 0 /\
     closed_in (ring_of es) = true /\ occupancy (ring_of es) = 0 /\ (forall i, ch_tx s i = TNone \/ ch_tx s i = TEnd))).
  { apply (played_case (core_new 64 2) dpol async debug collect). intros Hr. split; [|split; [|split; [|split; [|split; [|split]]]]].
    - apply (calm_few 64 2 dpol async debug _ _ wf2 Hr). destruct async, debug; vm_compute; reflexivity.
    - destruct async, debug; vm_compute; reflexivity.
    - destruct async, debug; vm_compute; reflexivity.
    - destruct async, debug; vm_compute; reflexivity.
    - destruct async, debug; vm_compute; reflexivity.
    - destruct async, debug; vm_compute; reflexivity.
    - intros i. destruct async, debug; (do 6 (destruct i as [|i]; [first [left; vm_compute; reflexivity|right; vm_compute; reflexivity]|])); left; vm_compute; reflexivity. }
  destruct H as (s & es & Hr & HC & E & Hrf & Hct & Hcl & Ho & Htx).
  exists es, s. repeat (split; [assumption|]).
  apply (C68_recv_never nat 64 2 dpol async debug es s 4 (KFirst 7)); auto; [exact wf2|now rewrite Hrf].
Qed.
Print Assumptions C68_refuted.

(** The hypotheses of C68_stops and C68_send_never are met, with a continuation in which others do run: capacity 1,
    the RecvRef is kept, process 3 is inside try_send_ref and process 5 starts one. *)
Example C68_case : forall async debug, exists s es s' l, crun (core_new 64 1) dpol async debug es s /\
  csteps (core_new 64 1) dpol async debug s l s' /\
  (ring_calm 64 1 (l ++ es) /\ length (ch_refs s) = 1 /\ ch_tx s 3 = TAgain STry /\ closed_in (ring_of es) = false /\
   (forall h v, ~ In (Release h v) (ring_of l)) /\ In (OnRing (Invoke 3 OpPush)) l /\ In (OnRing (Invoke 5 OpPush)) l).
Proof.
  intros async debug.
  apply (played_further (core_new 64 1) dpol async debug (sends 1 7 ++ recvs 2 9 ++ [CSend 3 true]) (tx 3 9 ++ [CSend 5 true] ++ tx 5 20)).
  intros Hr Hr2. split; [|split; [|split; [|split; [|split; [|split]]]]].
  - apply (calm_few 64 1 dpol async debug _ _ wf1 Hr2). destruct async, debug; vm_compute; reflexivity.
  - destruct async, debug; vm_compute; reflexivity.
  - destruct async, debug; vm_compute; reflexivity.
  - destruct async, debug; vm_compute; reflexivity.
  - intros h v. destruct async, debug; none_in.
  - destruct async, debug; is_in.
  - destruct async, debug; is_in.
Qed.

(** C68_room is attained and not only by kept RecvRefs: capacity 2, one RecvRef kept, one message waiting. *)
Example C68_room_case : forall async debug, exists s es, crun (core_new 64 2) dpol async debug es s /\
  (ring_calm 64 2 es /\ length (ch_refs s) = 1 /\ occupancy (ring_of es) = 1).
Proof.
  intros async debug. apply (played_case (core_new 64 2) dpol async debug (sends 1 10 ++ sends 3 20 ++ recvs 0 7)). intros Hr.
  split; [|split].
  - apply (calm_few 64 2 dpol async debug _ _ wf2 Hr). destruct async, debug; vm_compute; reflexivity.
  - destruct async, debug; vm_compute; reflexivity.
  - destruct async, debug; vm_compute; reflexivity.
Qed.
