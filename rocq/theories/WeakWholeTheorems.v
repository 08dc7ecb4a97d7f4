(** Theorems about a whole channel on weak memory ([WeakWholeModel]): C57, C58.

    [o] gives the memory orderings; [code_chan_orders] are those of the code.  [async]: async_impl.rs or blocking.rs.
    [wq_hasty (z_q s) = []]: no waiting send was polled out of turn while its notifier was still at work on it (C54 shows the
    data race there is otherwise); [zrun_patient]: every poll of a waiting send is due to a wake. *)
From Coq Require Import List Bool Arith NArith Lia.
From Verif Require Import Word QueueSpec CoreModel CoreArith RingSpec RingFacts Demo WaitCellModel WaitCellSpec WaitList WaitListSpec WaitQueueModel WaitQueueSpec
  WaitQueueWake WeakQueueLate WeakModel WeakSpec WeakFacts WeakCellModel WeakQueueModel WeakQueueTheorems WeakChannelModel WeakChannelSpec WeakChannelTheorems WeakWholeModel WeakWholeFacts WeakWholeLink
  WeakWholeSend WeakWholeSpec WeakWholeStop WeakWholeDemo.
From Verif Require ChannelSpec.
From Verif Require Import History.
Import ListNotations.

(** ** C57.  The ring, the receiver's cell and the senders' queue of a whole channel are executions of the models of which
    C46-C56 speak. *)
Theorem C57_parts : forall T P (pol : policy T) debug o async zs s,
  zrun P pol debug o async zs s -> yrun P pol debug o async (y_events zs) (z_y s) /\ wqrun debug (q_events zs) (z_q s).
Proof. exact @zproj. Qed.
Print Assumptions C57_parts.

(** The channel uses the queue as C55 and C56 ask: one notifier, no close during a notify, none after a close; nobody is taken out of
    it by a cancellation unless a send was cancelled; and there is no data race in the queue. *)
Theorem C57_queue_use : forall T P (pol : policy T) debug o async zs s,
  zrun P pol debug o async zs s -> wq_hasty (z_q s) = [] ->
  close_exclusive (q_events zs) /\ one_notifier 0 (q_events zs) /\ no_ub (q_events zs) /\ wq_races (z_q s) = [] /\
  (no_cancel zs -> no_drops (q_events zs) /\ no_timeouts (q_events zs)).
Proof.
  intros T P pol debug o async zs s Hr Hh. destruct (zproj _ _ _ _ _ _ _ Hr) as [_ Hq]. pose proof (link_run _ _ _ _ _ _ _ Hr Hh) as HK.
  destruct (C54_no_race _ _ _ Hq Hh) as [H1 H2]. split; [exact (K_excl _ _ HK)|]. split; [exact (K_note _ _ HK)|]. split; [exact H2|]. split; [exact H1|].
  intros Hn. split; intros i Hi; apply (Hn i), (K_drop _ _ HK); auto.
Qed.
Print Assumptions C57_queue_use.

(** Dropping a RecvRef wakes a waiting send or leaves a notification for the next one to wait; the debug assertion of
    notify never fails. *)
Theorem C57_notified : forall T P (pol : policy T) debug o async zs s,
  zrun P pol debug o async zs s -> wq_hasty (z_q s) = [] -> no_cancel zs ->
  no_failure (q_events zs) /\
  forall es2 k b es1, q_events zs = es2 ++ ERetNotify k b :: es1 ->
    if b then exists n w, In (ESwap k n Q_WAKING) (this_notify k es1) /\ In (EWoke k n w) (this_notify k es1)
    else In (EStored k) (this_notify k es1).
Proof.
  intros T P pol debug o async zs s Hr Hh Hn. destruct (C57_queue_use _ _ _ _ _ _ _ _ Hr Hh) as (H1 & H2 & _ & _ & H3).
  destruct (zproj _ _ _ _ _ _ _ Hr) as [_ Hq]. destruct (C55_one_notifier 0 _ _ _ Hq Hh H1 H2 (proj1 (H3 Hn))) as (K1 & _ & K2). auto.
Qed.
Print Assumptions C57_notified.

(** Room is announced: if a send is queued although every element that was ever in the channel is gone from it, then the
    receiver's thread is about to notify, or a send that was woken has not tried again yet. *)
Theorem C57_room_announced : forall T W cap (pol : policy T) debug o async zs s n,
  wf W cap -> sound_chan o -> zrun (core_new W (N.of_nat cap)) pol debug o async zs s -> few_pushes W cap (z_ring zs) ->
  wq_hasty (z_q s) = [] -> no_cancel zs -> closed_in (z_ring zs) = false ->
  In n (waiting (q_events zs)) -> count is_reserve (z_ring zs) <= count ChannelSpec.is_release (z_ring zs) ->
  is_notifying s \/ exists i, tries_again s i.
Proof.
  intros T W cap pol debug o async zs s n Hwf Ho Hr H1 H2 H3.
  exact (room_announced W cap pol debug o async Hwf Ho zs s n Hr (conj H1 (conj H2 H3))).
Qed.
Print Assumptions C57_room_announced.

(** A send waits only for a receiver that can go on: if everybody has stopped and a send waits, then there is a message at the
    front, and the receiver is between two calls or was woken. *)
Theorem C57_sender_waits : forall T W cap (pol : policy T) debug o async zs s i,
  wf W cap -> sound_chan o -> zrun (core_new W (N.of_nat cap)) pol debug o async zs s -> few_pushes W cap (z_ring zs) ->
  wq_hasty (z_q s) = [] -> no_cancel zs -> ~ hushed (z_ring zs) -> z_stopped s zs -> send_waits s zs i ->
  (exists v, committed (z_ring zs) (count is_take (z_ring zs)) = Some v) /\
  (y_rx (z_y s) = RIdle \/ exists w, y_rx (z_y s) = RPend w /\ recv_woken zs w).
Proof.
  intros T W cap pol debug o async zs s i Hwf Ho Hr H1 H2 H3 H4 H5 [H6 _].
  exact (send_idle W cap pol debug o async Hwf Ho zs s i Hr (conj H1 (conj H2 H3)) H4 H5 H6).
Qed.
Print Assumptions C57_sender_waits.

(** No deadlock: it is impossible that everybody has stopped, a send waits, and so does the receiver. *)
Theorem C57_no_deadlock : forall T W cap (pol : policy T) debug o async zs s i w,
  wf W cap -> sound_chan o -> zrun (core_new W (N.of_nat cap)) pol debug o async zs s -> few_pushes W cap (z_ring zs) ->
  wq_hasty (z_q s) = [] -> no_cancel zs -> ~ hushed (z_ring zs) -> z_stopped s zs ->
  send_waits s zs i -> y_rx (z_y s) = RPend w -> recv_woken zs w.
Proof.
  intros T W cap pol debug o async zs s i w Hwf Ho Hr H1 H2 H3 H4 H5 H6 H7.
  destruct (C57_sender_waits _ _ _ _ _ _ _ _ _ _ Hwf Ho Hr H1 H2 H3 H4 H5 H6) as [_ [E|(w' & E & H)]]; rewrite H7 in E; [discriminate|]. now injection E as <-.
Qed.
Print Assumptions C57_no_deadlock.

(** The same for the orderings of the code, in terms of when the sends are polled. *)
Theorem C57_code : forall T W cap (pol : policy T) debug async zs s i,
  wf W cap -> zrun_patient (core_new W (N.of_nat cap)) pol debug code_chan_orders async zs s -> few_pushes W cap (z_ring zs) ->
  ~ hushed (z_ring zs) -> z_stopped s zs -> send_waits s zs i ->
  (exists v, committed (z_ring zs) (count is_take (z_ring zs)) = Some v) /\
  (y_rx (z_y s) = RIdle \/ exists w, y_rx (z_y s) = RPend w /\ recv_woken zs w).
Proof.
  intros T W cap pol debug async zs s i Hwf Hp Hf. destruct (pat_nice W cap pol debug _ async zs s Hp) as (Hr & Hh & Hn).
  exact (C57_sender_waits T W cap pol debug _ async zs s i Hwf code_sound Hr Hf Hh Hn).
Qed.
Print Assumptions C57_code.

Theorem C57_code_safe : forall T W cap (pol : policy T) debug async zs s, let P := core_new W (N.of_nat cap) in
  zrun_patient P pol debug code_chan_orders async zs s -> zrun P pol debug code_chan_orders async zs s /\ wq_hasty (z_q s) = [] /\ no_cancel zs.
Proof. intros T W cap pol debug async zs s. apply pat_nice. Qed.
Print Assumptions C57_code_safe.

(** *** Concrete cases.  The channel has capacity 1.  Send 1 fills it with 10; 2 and 3 wait; the receiver takes 10 and drops the
    RecvRef, which wakes 2; 2 sends 20.  3 waits, and the receiver, who is not in a call, finds 20. *)
Definition three_senders : list choice :=
  [clones 0 1; clones 0 2] ++ sends 1 0 7 ++ fills 0 10 ++ sends 2 1 8 ++ sends 3 2 9 ++ polls 5 ++ drops_ref 0 ++ resumes 2 8 ++ fills 1 20.
Notation cap1 := (core_new 64 (N.of_nat 1)).
Lemma wf1 : wf 64 1.
Proof. split; [lia|]. vm_compute. reflexivity. Qed.
(** What [vm_compute] can check. *)
Definition loud (es : list (event nat)) : Prop := existsb (fun e => match e with Closing _ false => true | _ => false end) es = false.
Lemma not_hushed es : loud es -> ~ hushed es.
Proof. intros H (i & es2 & es1 & -> & _). unfold loud in H. rewrite existsb_app in H. cbn in H. rewrite orb_true_r in H. discriminate. Qed.
Definition halted (s : zstate (T := nat)) (zs : list (zevent (T := nat))) : Prop :=
  (forall j, y_tx (z_y s) j = SIdle \/ y_tx (z_y s) j = SGone) /\
  (forall i, z_op s i = ONone \/ z_op s i = OEnd \/ z_op s i = OPark /\ ChannelSpec.woken_in i (q_events zs) = false) /\
  (z_rx s = XFree \/ z_rx s = XGone) /\
  (y_rx (z_y s) = RIdle \/ y_rx (z_y s) = RGone \/ exists w, y_rx (z_y s) = RPend w) /\
  (forall k, match w_pcs (y_ring (z_y s)) k with QHold _ => False | _ => True end).
Lemma halted_stopped s zs : halted s zs -> z_stopped s zs.
Proof.
  intros (H1 & H2 & H3 & H4 & H5). repeat split; auto. intros a r E. specialize (H5 (rx_agent a)). now rewrite E in H5.
Qed.
Ltac halt := repeat split; try (intros ? ? ?; contradiction); try reflexivity;
  try (let i := fresh "i" in intros i; do 12 (try (destruct i as [|i]; [solve [auto]|])); solve [auto]); auto 20; eauto.

Example C57_case : forall async, exists zs s, zrun_patient cap1 demo_policy true code_chan_orders async zs s /\
  few_pushes 64 1 (z_ring zs) /\ ~ hushed (z_ring zs) /\ z_stopped s zs /\ send_waits s zs 3 /\ In (EWoke 0 2 8) (q_events zs) /\
  committed (z_ring zs) (count is_take (z_ring zs)) = Some 20.
Proof.
  intros async. destruct (play_patient cap1 demo_policy true code_chan_orders async three_senders (fun s zs =>
    few_pushes 64 1 (z_ring zs) /\ loud (z_ring zs) /\ halted s zs /\ send_waits s zs 3 /\ In (EWoke 0 2 8) (q_events zs) /\
    committed (z_ring zs) (count is_take (z_ring zs)) = Some 20)) as (zs & s & H); [destruct async; vm_compute; halt|].
  exists zs, s. destruct H as (H1 & H2 & H3 & H4 & H5). auto 10 using not_hushed, halted_stopped.
Qed.

(** The receiver waits for a message, send 1 brings one and wakes it; send 2 finds the channel full and waits. *)
Example C57_case_woken : forall async, exists zs s, zrun_patient cap1 demo_policy true code_chan_orders async zs s /\
  few_pushes 64 1 (z_ring zs) /\ ~ hushed (z_ring zs) /\ z_stopped s zs /\ send_waits s zs 2 /\ y_rx (z_y s) = RPend 5.
Proof.
  intros async. destruct (play_patient cap1 demo_policy true code_chan_orders async (polls 5 ++ sends 1 0 7 ++ fills 0 10 ++ sends 2 0 8) (fun s zs =>
    few_pushes 64 1 (z_ring zs) /\ loud (z_ring zs) /\ halted s zs /\ send_waits s zs 2 /\ y_rx (z_y s) = RPend 5)) as (zs & s & H); [destruct async; vm_compute; halt|].
  exists zs, s. destruct H as (H1 & H2 & H3 & H4 & H5). auto 10 using not_hushed, halted_stopped.
Qed.

(** The ring is empty and 2 and 3 are queued: before the notify; when 2 was woken and has not tried yet, and 3 is queued. *)
Example C57_case_room : forall async, exists zs s, zrun_patient cap1 demo_policy true code_chan_orders async zs s /\
  few_pushes 64 1 (z_ring zs) /\ closed_in (z_ring zs) = false /\ waiting (q_events zs) = [2; 3] /\
  count is_reserve (z_ring zs) = 1 /\ count ChannelSpec.is_release (z_ring zs) = 1 /\ is_notifying s.
Proof.
  intros async. apply (play_patient cap1 demo_policy true code_chan_orders async
    ([clones 0 1; clones 0 2] ++ sends 1 0 7 ++ fills 0 10 ++ sends 2 1 8 ++ sends 3 2 9 ++ polls 5 ++ [only (DoRefDrop 0); only DoNotify]) (fun s zs =>
    few_pushes 64 1 (z_ring zs) /\ closed_in (z_ring zs) = false /\ waiting (q_events zs) = [2; 3] /\
    count is_reserve (z_ring zs) = 1 /\ count ChannelSpec.is_release (z_ring zs) = 1 /\ is_notifying s)).
  destruct async; vm_compute; halt.
Qed.
Example C57_case_again : forall async, exists zs s, zrun_patient cap1 demo_policy true code_chan_orders async zs s /\
  few_pushes 64 1 (z_ring zs) /\ closed_in (z_ring zs) = false /\ waiting (q_events zs) = [3] /\
  count is_reserve (z_ring zs) = 1 /\ count ChannelSpec.is_release (z_ring zs) = 1 /\ tries_again s 2 /\ z_rx s = XFree.
Proof.
  intros async. apply (play_patient cap1 demo_policy true code_chan_orders async
    ([clones 0 1; clones 0 2] ++ sends 1 0 7 ++ fills 0 10 ++ sends 2 1 8 ++ sends 3 2 9 ++ polls 5 ++ drops_ref 0) (fun s zs =>
    few_pushes 64 1 (z_ring zs) /\ closed_in (z_ring zs) = false /\ waiting (q_events zs) = [3] /\
    count is_reserve (z_ring zs) = 1 /\ count ChannelSpec.is_release (z_ring zs) = 1 /\ tries_again s 2 /\ z_rx s = XFree)).
  destruct async; vm_compute; halt.
Qed.
(** The same execution has a notify that wakes. *)
Example C57_case_notified : forall async, exists zs s, zrun_patient cap1 demo_policy true code_chan_orders async zs s /\
  exists es1, q_events zs = [] ++ ERetNotify 0 true :: es1.
Proof.
  intros async. apply (play_patient cap1 demo_policy true code_chan_orders async
    ([clones 0 1; clones 0 2] ++ sends 1 0 7 ++ fills 0 10 ++ sends 2 1 8 ++ sends 3 2 9 ++ polls 5 ++ drops_ref 0) (fun s zs => exists es1, q_events zs = [] ++ ERetNotify 0 true :: es1)).
  destruct async; vm_compute; (split; [reflexivity|]); eexists; reflexivity.
Qed.

(** *** With cancellation it is not so, even if no cancellation overlaps a notify (on sequentially consistent memory that suffices,
    C26).  Capacity 1, full; 2 waits and is cancelled; 3 is told Full; the receiver takes the element and notifies, but its
    load of the state word (/repo/src/wait/queue.rs:375) returns the WAITING of before the cancellation, and the notification is lost;
    3 waits, and so does the receiver, in an empty channel, for ever.  With debug assertions notify panics. *)
Definition stale_notify : list choice :=
  [clones 0 1; clones 0 2] ++ sends 1 0 7 ++ fills 0 10 ++ sends 2 1 8 ++ [only (DoCancel 2)] ++ drives 2 8 12 ++
  [only (DoSend 3 2)] ++ drives 3 9 5 ++ polls 5 ++ [only (DoRefDrop 0); only DoNotify; only (DoRx (Some 1))] ++ rx_steps 12 ++ drives 3 9 24 ++ polls 6.
Definition not_woken_cell (zs : list (zevent (T := nat))) (w : waker) : Prop :=
  match parked 0 (z_cell zs) with Some (_, later) => existsb (fun e => match e with Woke _ _ => true | _ => false end) later = false | None => True end.
Lemma not_woken zs w : not_woken_cell zs w -> ~ recv_woken zs w.
Proof.
  unfold not_woken_cell. intros H (k & later & E & Hin). rewrite E in H. assert (existsb (fun e => match e with Woke _ _ => true | _ => false end) later = true); [|congruence].
  apply existsb_exists. eexists. split; [exact Hin|reflexivity].
Qed.
Theorem C57_cancelled_refuted : exists zs s, zrun cap1 demo_policy false code_chan_orders true zs s /\
  few_pushes 64 1 (z_ring zs) /\ wq_hasty (z_q s) = [] /\ drops_apart (q_events zs) /\ ~ hushed (z_ring zs) /\ z_stopped s zs /\
  send_waits s zs 3 /\ y_rx (z_y s) = RPend 6 /\ ~ recv_woken zs 6 /\
  count is_reserve (z_ring zs) = 1 /\ count ChannelSpec.is_release (z_ring zs) = 1 /\ closed_in (z_ring zs) = false.
Proof.
  destruct (play_case cap1 demo_policy false code_chan_orders true stale_notify (fun s zs =>
    few_pushes 64 1 (z_ring zs) /\ wq_hasty (z_q s) = [] /\ drops_apart (q_events zs) /\ loud (z_ring zs) /\ halted s zs /\
    send_waits s zs 3 /\ y_rx (z_y s) = RPend 6 /\ not_woken_cell zs 6 /\
    count is_reserve (z_ring zs) = 1 /\ count ChannelSpec.is_release (z_ring zs) = 1 /\ closed_in (z_ring zs) = false)) as (zs & s & H).
  { vm_compute. halt. }
  exists zs, s. destruct H as (H1 & H2 & H3 & H4 & H5 & H6 & H7 & H8 & H9). destruct H9 as (H9 & H10). apply not_woken in H9. apply not_hushed in H5. apply halted_stopped in H6. auto 20.
Qed.
Print Assumptions C57_cancelled_refuted.
Theorem C57_cancelled_panics_refuted : exists zs s, zrun cap1 demo_policy true code_chan_orders true zs s /\
  few_pushes 64 1 (z_ring zs) /\ wq_hasty (z_q s) = [] /\ drops_apart (q_events zs) /\ In (EAssert 0) (q_events zs).
Proof.
  apply (play_case cap1 demo_policy true code_chan_orders true stale_notify (fun s zs =>
    few_pushes 64 1 (z_ring zs) /\ wq_hasty (z_q s) = [] /\ drops_apart (q_events zs) /\ In (EAssert 0) (q_events zs))).
  vm_compute. halt.
Qed.
Print Assumptions C57_cancelled_panics_refuted.

(** ** C58.  When the drop of the Receiver is over, every send that waits has been woken - whether or not sends were
    cancelled -, unless the Receiver was dropped by a panicking thread. *)
Theorem C58_dropped : forall T W cap (pol : policy T) debug o async zs s i,
  sound_chan o -> zrun (core_new W (N.of_nat cap)) pol debug o async zs s -> wq_hasty (z_q s) = [] -> no_failure (q_events zs) ->
  ~ hushed (z_ring zs) -> z_rx s = XGone -> ~ send_waits s zs i.
Proof.
  intros T W cap pol debug o async zs s i Ho Hr Hh Hf Hp Hg [Hi Hw].
  pose proof (gone_woken W cap pol debug o async Ho zs s i Hr Hh Hf Hp Hg Hi). congruence.
Qed.
Print Assumptions C58_dropped.

(** A start_wait called when the drop of the Receiver is over answers Closed (what continue_wait answers: C54_told, by C57_parts). *)
Theorem C58_told : forall T P (pol : policy T) debug o async zs s es2 n r es1,
  zrun P pol debug o async zs s -> wq_hasty (z_q s) = [] ->
  q_events zs = es2 ++ ERet n r :: es1 -> after_close n es1 = true -> r = Closed.
Proof.
  intros T P pol debug o async zs s es2 n r es1 Hr Hh E. destruct (zproj _ _ _ _ _ _ _ Hr) as [_ Hq].
  exact (C56_after _ _ _ _ _ _ _ Hq Hh (proj1 (C57_queue_use _ _ _ _ _ _ _ _ Hr Hh)) E).
Qed.
Print Assumptions C58_told.

Theorem C58_code : forall T W cap (pol : policy T) debug async zs s i,
  zrun_patient (core_new W (N.of_nat cap)) pol debug code_chan_orders async zs s ->
  ~ hushed (z_ring zs) -> z_rx s = XGone -> ~ send_waits s zs i.
Proof.
  intros T W cap pol debug async zs s i Hp H1 H2. destruct (pat_nice W cap pol debug _ async zs s Hp) as (Hr & Hh & Hn).
  exact (C58_dropped T W cap pol debug _ async zs s i code_sound Hr Hh (proj1 (C57_notified _ _ _ _ _ _ _ _ Hr Hh Hn)) H1 H2).
Qed.
Print Assumptions C58_code.

(** 2 and 3 wait; 2 is cancelled; 4 is told Full; the Receiver is dropped, which wakes 3; 3 is told Closed, and so is 4, which
    starts to wait afterwards. *)
Definition rx_dropped : list choice :=
  [clones 0 1; clones 0 2; clones 0 3] ++ sends 1 0 7 ++ fills 0 10 ++ sends 2 1 8 ++ sends 3 2 9 ++ [only (DoCancel 2)] ++ drives 2 8 12 ++
  [only (DoSend 4 3)] ++ drives 4 6 5 ++ drops_rx.
Example C58_case : exists zs s, zrun cap1 demo_policy true code_chan_orders true zs s /\ wq_hasty (z_q s) = [] /\ no_failure (q_events zs) /\
  ~ hushed (z_ring zs) /\ z_rx s = XGone /\ z_op s 3 = OPark /\ z_op s 4 = OCall Fresh /\ firstn 2 (q_events zs) = [ERetClose 0; EWoke 0 3 9].
Proof.
  destruct (play_case cap1 demo_policy true code_chan_orders true rx_dropped (fun s zs => wq_hasty (z_q s) = [] /\ no_failure (q_events zs) /\
    loud (z_ring zs) /\ z_rx s = XGone /\ z_op s 3 = OPark /\ z_op s 4 = OCall Fresh /\ firstn 2 (q_events zs) = [ERetClose 0; EWoke 0 3 9])) as (zs & s & H).
  { vm_compute. split; [reflexivity|]. split; [intros i; intuition discriminate|]. auto 10. }
  exists zs, s. destruct H as (H1 & H2 & H3 & H4 & H5). auto 10 using not_hushed.
Qed.
Example C58_case_told : exists zs s, zrun cap1 demo_policy true code_chan_orders true zs s /\ wq_hasty (z_q s) = [] /\ z_op s 3 = OEnd /\ z_op s 4 = OEnd /\
  exists es1, q_events zs = [ERet 4 Closed; EStart 4 6] ++ ERet 3 Closed :: es1 /\ after_close 4 (EStart 4 6 :: ERet 3 Closed :: es1) = true.
Proof.
  apply (play_case cap1 demo_policy true code_chan_orders true (rx_dropped ++ resumes 3 9 ++ drives 4 6 12) (fun s zs => wq_hasty (z_q s) = [] /\ z_op s 3 = OEnd /\ z_op s 4 = OEnd /\
  exists es1, q_events zs = [ERet 4 Closed; EStart 4 6] ++ ERet 3 Closed :: es1 /\ after_close 4 (EStart 4 6 :: ERet 3 Closed :: es1) = true)).
  vm_compute. repeat (split; [reflexivity|]). eexists. repeat split; reflexivity.
Qed.
