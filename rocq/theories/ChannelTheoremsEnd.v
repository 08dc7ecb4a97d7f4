(** Theorems about the channel: C31, C38, C40, C42.  See ChannelTheorems for the
    hypotheses that occur everywhere. *)
From Coq Require Import List Bool Arith NArith Lia.
From Verif Require Import QueueSpec CoreModel CoreArith RingSpec WaitCellModel WaitQueueModel WaitQueueSpec.
From Verif Require WaitCellSpec.
From Verif Require Import ChannelModel ChannelSpec ChannelFacts ChannelSend ChannelEnd ChannelDeadlock ChannelProgress ChannelDrain ChannelClose ChannelOrder
  ChannelResults ChannelDemo.
From Verif Require Import History.
Import ListNotations.

Notation run_of W cap pol async debug := (crun (core_new W (N.of_nat cap)) pol async debug).

(** ** C31 *)
(** The receiver gets the messages in the order of their places in the queue, without a gap. *)
Theorem C31_order : forall T W cap (pol : policy T) async debug es s,
  wf W cap -> run_of W cap pol async debug es s -> ring_calm W cap es ->
  map Some (received es) = map (committed (ring_of es)) (seq 0 (length (received es))).
Proof. intros T W cap pol async debug es s Hwf Hr HC. exact (received_order W cap pol async debug Hwf _ _ Hr HC). Qed.
Print Assumptions C31_order.

(** When recv returns None (try_recv Closed), every place that was ever reserved has been
    received; in particular every message sent. *)
Theorem C31_drained : forall T W cap (pol : policy T) async debug es s es2 r es1,
  wf W cap -> run_of W cap pol async debug es s -> ring_calm W cap es -> no_user_panic es ->
  es = es2 ++ Recvd r :: es1 -> r = RecvNone \/ r = RecvClosed ->
  map Some (received es1) = map (committed (ring_of es1)) (seq 0 (count is_reserve (ring_of es1))) /\
  forall i v, In (OnRing (Commit i v)) es1 -> In v (received es1).
Proof.
  intros T W cap pol async debug es s es2 r es1 Hwf Hr HC Hp E Hx. split.
  - exact (none_drained W cap pol async debug Hwf _ _ _ _ _ Hr HC Hp E Hx).
  - exact (none_got_all W cap pol async debug Hwf _ _ _ _ _ Hr HC Hp E Hx).
Qed.
Print Assumptions C31_drained.

(** After None no call gives a message or waits. *)
Theorem C31_forever : forall T W cap (pol : policy T) async debug es s es2 r es1 r0,
  wf W cap -> run_of W cap pol async debug es s -> ring_calm W cap es ->
  es = es2 ++ Recvd r :: es1 -> In (Recvd r0) es1 -> r0 = RecvNone \/ r0 = RecvClosed ->
  r = RecvNone \/ r = RecvClosed \/ r = RecvEmpty.
Proof. intros T W cap pol async debug es s es2 r es1 r0 Hwf Hr HC E Hin Hx. exact (none_forever W cap pol async debug Hwf _ _ _ _ _ _ Hr HC E Hin Hx). Qed.
Print Assumptions C31_forever.

(** A call of recv that starts when the last Sender is gone does not wait. *)
Theorem C31_never_waits : forall T W cap (pol : policy T) async debug es s es3 r es2 h w es1,
  wf W cap -> run_of W cap pol async debug es s -> ring_calm W cap es ->
  es = es3 ++ Recvd r :: es2 ++ Recving h w :: es1 -> disconnected es1 -> r <> RecvPending.
Proof. intros T W cap pol async debug es s es3 r es2 h w es1 Hwf Hr HC E HD. exact (never_waits W cap pol async debug Hwf _ _ _ _ _ _ _ _ Hr HC E HD). Qed.
Print Assumptions C31_never_waits.

(** Once the drop of the last Sender is over, the channel is disconnected in this sense; and a receiver
    that waits has been woken, or some call of notify is about to wake it. *)
Theorem C31_disconnected : forall T W cap (pol : policy T) async debug es s i pan,
  wf W cap -> run_of W cap pol async debug es s -> ring_calm W cap es ->
  In (TxDropped i 0 pan) es -> ch_tx s i = TEnd -> (async = true \/ pan = false) -> ch_rx s = RIdle \/ (exists w, ch_rx s = RPark w) ->
  disconnected es /\
  forall w, ch_rx s = RPark w -> recv_woken es = true \/ exists k, WaitCellSpec.about_to_wake (ch_cell s) k w.
Proof.
  intros T W cap pol async debug es s i pan Hwf Hr HC Hin He Hp Hx.
  assert (HD : disconnected es).
  { destruct (dropped_disconnected W cap pol async debug Hwf _ _ Hr HC i pan Hin He) as [H|(H1 & [H2|H2])]; [exact H| |].
    - destruct Hp; congruence.
    - exfalso. unfold rx_closed in H2. destruct Hx as [Hx|[w Hx]]; rewrite Hx in H2; exact H2. }
  split; [exact HD|]. intros w Hw. exact (disconnected_woken W cap pol async debug Hwf _ _ _ Hr HC HD Hw).
Qed.
Print Assumptions C31_disconnected.

(** When everybody has stopped and the last Sender is gone, the receiver does not wait. *)
Theorem C31_nobody_waits : forall T W cap (pol : policy T) async debug es s w,
  wf W cap -> run_of W cap pol async debug es s -> ring_calm W cap es -> no_user_panic es ->
  stopped s es -> senders es = 0 -> (async = true \/ forall i, ~ In (TxDropped i 0 true) es) -> ch_rx s <> RPark w.
Proof.
  intros T W cap pol async debug es s w Hwf Hr HC Hp Hst Hn Hq Hx.
  destruct (recv_stuck W cap pol async debug Hwf _ _ _ Hr HC Hp Hst Hx) as [_ H]. rewrite <- (senders_count _ _ _ _ _ _ _ Hr), Hn in H.
  destruct H as [H|(-> & i & H)]; [lia|]. destruct Hq as [Hq|Hq]; [discriminate|exact (Hq _ H)].
Qed.
Print Assumptions C31_nobody_waits.

(** Capacity 2, two messages; the Sender is dropped; the receiver gets both and then None, twice. *)
Definition drain_two : list (@caction nat) :=
  sends 1 10 ++ sends 3 20 ++ [CDropTx 5 false] ++ tx 5 20 ++ recvs 0 7 ++ unrefs 0 ++ recvs 2 7 ++ unrefs 2 ++ recvs 4 7 ++ recvs 6 7.
Lemma wf2 : wf 64 2.
Proof. split; [lia|]. vm_compute. reflexivity. Qed.
(** Before and after the last event satisfying [f]. *)
Fixpoint before {A} (f : A -> bool) (l : list A) : list A := match l with [] => [] | x :: l' => if f x then [] else x :: before f l' end.
Fixpoint after {A} (f : A -> bool) (l : list A) : list A := match l with [] => [] | x :: l' => if f x then l' else after f l' end.
Definition is_result (e : cevent nat) : bool := match e with Recvd _ => true | _ => false end.
Definition is_call (e : cevent nat) : bool := match e with Recving _ _ => true | _ => false end.
Definition results (es : list (cevent nat)) : list (cevent nat) := filter (fun e => match e with Recvd _ | Sent _ _ => true | _ => false end) es.
Example C31_case : forall async, exists s es, run_of 64 2 dpol async true es s /\ ring_calm 64 2 es /\ no_user_panic es /\
  results es = [Recvd RecvNone; Recvd RecvNone; Recvd (RecvMsg 2 20); Recvd (RecvMsg 0 10); Sent 3 SentOk; Sent 1 SentOk] /\
  stopped s es /\ senders es = 0 /\ (forall i, ~ In (TxDropped i 0 true) es) /\ In (TxDropped 5 0 false) es /\ ch_tx s 5 = TEnd /\ ch_rx s = RIdle.
Proof.
  intros async. apply (played_case _ _ _ _ drain_two (fun s es => _)). intros Hr.
  split; [apply (calm_few _ _ _ _ _ _ _ wf2 Hr); destruct async; vm_compute; reflexivity|]. clear Hr.
  destruct async; (split; [none_in|]; split; [same|]; split; [split; [every10|split; same]|]; split; [same|]; split; [none_in|]; split; [is_in|]; split; same).
Qed.
(** The receiver waits when the last Sender is dropped: it is woken; the next call gives None. *)
Example C31_waiting_case : forall async, exists s es, run_of 64 2 dpol async true es s /\ ring_calm 64 2 es /\
  In (TxDropped 5 0 false) es /\ ch_tx s 5 = TEnd /\ ch_rx s = RPark 7 /\ recv_woken es = true.
Proof.
  intros async. apply (played_case _ _ _ _ (recvs 0 7 ++ [CDropTx 5 false] ++ tx 5 20) (fun s es => _)). intros Hr.
  split; [apply (calm_few _ _ _ _ _ _ _ wf2 Hr); destruct async; vm_compute; reflexivity|]. clear Hr.
  destruct async; (split; [is_in|]; split; [same|]; split; [same|]; same).
Qed.
(** A call of recv that starts after the drop of the last Sender. *)
Example C31_never_waits_case : forall async, exists s es, run_of 64 2 dpol async true es s /\ ring_calm 64 2 es /\
  exists es3 es2 es1, es = es3 ++ Recvd RecvNone :: es2 ++ Recving 2 (Some 7) :: es1 /\ disconnected es1.
Proof.
  intros async. apply (played_case _ _ _ _ (recvs 0 7 ++ [CDropTx 5 false] ++ tx 5 20 ++ recvs 2 7) (fun s es => _)). intros Hr.
  split; [apply (calm_few _ _ _ _ _ _ _ wf2 Hr); destruct async; vm_compute; reflexivity|]. clear Hr.
  match goal with |- exists _ _ _, ?x = _ /\ _ => set (es := x) end. exists (before is_result es), (before is_call (after is_result es)), (after is_call (after is_result es)).
  destruct async; (split; [same|]; exists 5, false; vm_compute; eexists; split; [repeat first [left; reflexivity|right]|repeat first [left; reflexivity|right]]).
Qed.

(** ** C42 *)
(** recv returns None (try_recv Closed) only if no Sender is left; and then no completed
    message is at the front. *)
Theorem C42_none_truthful : forall T W cap (pol : policy T) async debug es s es2 r es1,
  wf W cap -> run_of W cap pol async debug es s -> ring_calm W cap es ->
  es = es2 ++ Recvd r :: es1 -> r = RecvNone \/ r = RecvClosed ->
  senders es1 = 0 /\ committed (ring_of es1) (count is_take (ring_of es1)) = None.
Proof. intros T W cap pol async debug es s es2 r es1 Hwf Hr HC E Hx. exact (none_true W cap pol async debug Hwf _ _ _ _ _ Hr HC E Hx). Qed.
Print Assumptions C42_none_truthful.

(** recv waits only after, during this call, its waker has been registered with the cell, and after that the
    queue has been looked at again and had no completed message at the front. *)
Theorem C42_pending_checked : forall T W cap (pol : policy T) async debug es s es2 es1,
  wf W cap -> run_of W cap pol async debug es s -> ring_calm W cap es ->
  es = es2 ++ Recvd RecvPending :: es1 ->
  exists h w es0, es1 = OnRing (RetEmpty h) :: es0 /\ receiving es0 = Some (h, Some w) /\ rechecked h w es0.
Proof. intros T W cap pol async debug es s es2 es1 Hwf Hr HC E. exact (pending_true W cap pol async debug Hwf _ _ _ _ Hr HC E). Qed.
Print Assumptions C42_pending_checked.

(** A message, Pending, and None once the Sender is gone. *)
Example C42_case : forall async, exists s es, run_of 64 2 dpol async true es s /\ ring_calm 64 2 es /\
  results es = [Recvd RecvNone; Recvd RecvPending; Recvd (RecvMsg 0 10); Sent 1 SentOk].
Proof.
  intros async. apply (played_case _ _ _ _ (sends 1 10 ++ recvs 0 7 ++ unrefs 0 ++ recvs 2 7 ++ [CDropTx 5 false] ++ tx 5 20 ++ recvs 4 7) (fun s es => _)). intros Hr.
  split; [apply (calm_few _ _ _ _ _ _ _ wf2 Hr); destruct async; vm_compute; reflexivity|]. clear Hr. destruct async; same.
Qed.

(** ** C40 *)
(** Dropping a SendRef: the message is published before rx_wait.notify() is called. *)
Theorem C40_publish_first : forall T W cap (pol : policy T) async debug es s es2 i es1,
  wf W cap -> run_of W cap pol async debug es s -> ring_calm W cap es ->
  es = es2 ++ OnCell (CallNotify i false) :: es1 -> exists v, In (OnRing (Commit i v)) es1.
Proof. intros T W cap pol async debug es s es2 i es1 Hwf Hr HC E. exact (commit_first W cap pol async debug Hwf _ _ Hr HC _ _ _ E). Qed.
Print Assumptions C40_publish_first.

(** So whoever wakes the receiver has published a message before, or was the last Sender. *)
Theorem C40_woken_receiver : forall T W cap (pol : policy T) async debug es s es2 i w es1,
  wf W cap -> run_of W cap pol async debug es s -> ring_calm W cap es ->
  es = es2 ++ OnCell (Woke i w) :: es1 -> i <> 0 ->
  (exists v, In (OnRing (Commit i v)) es1) \/ exists p, In (TxDropped i 0 p) es1.
Proof. intros T W cap pol async debug es s es2 i w es1 Hwf Hr HC E Hi. exact (woke_after W cap pol async debug Hwf _ _ Hr HC _ _ _ _ E Hi). Qed.
Print Assumptions C40_woken_receiver.

(** And a poll of the queue that starts after the message was published finds it: if it reports Empty, then at some
    moment of the poll the message had already been taken, or an earlier place was reserved and not yet published. *)
Theorem C40_poll_finds : forall T W cap (pol : policy T) async debug es s es3 h es2 es1 i v,
  wf W cap -> run_of W cap pol async debug es s -> ring_calm W cap es ->
  es = es3 ++ OnRing (RetEmpty h) :: es2 ++ OnRing (Invoke h OpPop) :: es1 -> In (OnRing (Commit i v)) es1 ->
  exists p r, committed (ring_of es1) p = Some v /\ In r (moments h (ring_of (es2 ++ OnRing (Invoke h OpPop) :: es1))) /\
    (p < count is_take r \/ exists p', count is_take r <= p' < p /\ p' < count is_reserve r /\ committed r p' = None).
Proof.
  intros T W cap pol async debug es s es3 h es2 es1 i v Hwf Hr HC -> Hin. pose proof (crun_ring _ _ _ _ _ _ Hr) as Hh. unfold ring_calm in HC.
  rewrite ring_of_app in *. cbn [ring_of] in *. rewrite ring_of_app in *. cbn [ring_of] in *.
  apply (found W cap pol Hwf (ring_of es3) h (ring_of es2) (ring_of es1) i v); [eexists; exact Hh|exact HC|now apply in_ring].
Qed.
Print Assumptions C40_poll_finds.

(** Dropping a RecvRef: its slot is released before tx_wait.notify() is called; at every call there have been
    more releases than calls so far. *)
Theorem C40_release_first : forall T W cap (pol : policy T) async debug es s es2 i es1,
  wf W cap -> run_of W cap pol async debug es s -> ring_calm W cap es ->
  es = es2 ++ OnQueue (ECallNotify i) :: es1 -> S (notifications es1) <= count is_release (ring_of es1).
Proof. intros T W cap pol async debug es s es2 i es1 Hwf Hr HC E. exact (release_first W cap pol async debug Hwf _ _ Hr HC _ _ _ E). Qed.
Print Assumptions C40_release_first.

(** And a push that starts later finds the place: if it reports Full, then, at some moment of the push, as many
    places had been reserved as the takes before the push allow. *)
Theorem C40_push_finds : forall T W cap (pol : policy T) async debug es s es3 i es2 es1,
  wf W cap -> run_of W cap pol async debug es s -> ring_calm W cap es ->
  es = es3 ++ OnRing (RetFull i) :: es2 ++ OnRing (Invoke i OpPush) :: es1 ->
  exists r, In r (moments i (ring_of (es2 ++ OnRing (Invoke i OpPush) :: es1))) /\ count is_take (ring_of es1) + cap <= count is_reserve r.
Proof.
  intros T W cap pol async debug es s es3 i es2 es1 Hwf Hr HC ->. pose proof (crun_ring _ _ _ _ _ _ Hr) as Hh. unfold ring_calm in HC.
  rewrite ring_of_app in *. cbn [ring_of] in *. rewrite ring_of_app in *. cbn [ring_of] in *.
  apply (reused W cap pol Hwf (ring_of es3) i (ring_of es2) (ring_of es1)); [eexists; exact Hh|exact HC].
Qed.
Print Assumptions C40_push_finds.

(** Nothing is left unannounced: when everybody has stopped, tx_wait.notify() has been called once for every
    release and rx_wait.notify() has been called by everybody who published. *)
Theorem C40_all_announced : forall T W cap (pol : policy T) async debug es s,
  wf W cap -> run_of W cap pol async debug es s -> ring_calm W cap es -> stopped s es ->
  notifications es = count is_release (ring_of es) /\ forall i v, In (OnRing (Commit i v)) es -> In (OnCell (CallNotify i false)) es.
Proof. intros T W cap pol async debug es s Hwf Hr HC Hst. exact (all_announced W cap pol async debug Hwf _ _ Hr HC Hst). Qed.
Print Assumptions C40_all_announced.

(** The receiver waits and is woken by the first send; it takes the message, which wakes a send that waits. *)
Example C40_case : forall async, exists s es, run_of 64 1 dpol async true es s /\ ring_calm 64 1 es /\ stopped s es /\
  In (OnCell (CallNotify 1 false)) es /\ In (OnCell (Woke 1 7)) es /\ In (OnQueue (ECallNotify 0)) es /\ In (OnQueue (EWoke 0 3 103)) es /\
  In (OnRing (RetFull 3)) es /\ In (OnRing (RetEmpty 4)) es /\ In (OnRing (Commit 3 20)) es /\ received es = [10; 20].
Proof.
  intros async. apply (played_case _ _ _ _ (recvs 0 7 ++ sends 1 10 ++ sends 3 20 ++ recvs 0 7 ++ unrefs 0 ++ resumes 3 20 ++ recvs 2 7 ++ unrefs 2 ++ recvs 4 7) (fun s es => _)). intros Hr.
  split; [apply (calm_few _ _ _ _ _ _ _ wf1 Hr); destruct async; vm_compute; reflexivity|]. clear Hr.
  destruct async; (split; [split; [every10|split; same]|]; split; [is_in|]; split; [is_in|]; split; [is_in|]; split; [is_in|]; split; [is_in|]; split; [is_in|]; split; [is_in|]; same).
Qed.

(** ** C38 *)
(** Refuted: the last Sender of the blocking flavour is dropped by a panicking thread; the receiver waits
    forever. *)
Theorem C38_receiver_refuted : exists s es, run_of 64 1 dpol false true es s /\ ring_calm 64 1 es /\ no_user_panic es /\ stopped s es /\
  In (TxDropped 1 0 true) es /\ senders es = 0 /\ ch_rx s = RPark 7.
Proof.
  apply (played_case _ _ _ _ (recvs 0 7 ++ [CDropTx 1 true] ++ tx 1 20) (fun s es => _)). intros Hr.
  split; [apply (calm_few _ _ _ _ _ _ _ wf1 Hr); vm_compute; reflexivity|]. clear Hr.
  split; [none_in|]. split; [split; [every10|split; same]|]. split; [is_in|]. split; same.
Qed.
Print Assumptions C38_receiver_refuted.

(** Refuted in both flavours: the receiver is dropped by a panicking thread; a send waits forever. *)
Theorem C38_sender_refuted : forall async, exists s es, run_of 64 1 dpol async true es s /\ ring_calm 64 1 es /\ memory_ok es /\ no_user_panic es /\ stopped s es /\
  In (RxDropped true) es /\ ch_rx s = RGone /\ ch_tx s 3 = TPark.
Proof.
  intros async. apply (played_case _ _ _ _ (sends 1 10 ++ sends 3 20 ++ [CDropRx true] ++ rx 20) (fun s es => _)). intros Hr.
  split; [apply (calm_few _ _ _ _ _ _ _ wf1 Hr); destruct async; vm_compute; reflexivity|]. clear Hr.
  destruct async; (split; [none_in|]; split; [none_in|]; split; [split; [every10|split; same]|]; split; [is_in|]; split; same).
Qed.
Print Assumptions C38_sender_refuted.

(** What does hold: recv of the async flavour notices the last Sender being dropped by a panicking thread. *)
Theorem C38_async_receiver_partial : forall T W cap (pol : policy T) debug es s l s' i pan,
  wf W cap -> run_of W cap pol true debug es s -> In (TxDropped i 0 pan) es -> ch_tx s i = TEnd ->
  csteps (core_new W (N.of_nat cap)) pol true debug s l s' -> ring_calm W cap (l ++ es) ->
  (forall w, ch_rx s = RPark w -> recv_woken es = true \/ exists k, WaitCellSpec.about_to_wake (ch_cell s) k w) /\
  (forall es3 r es2 h w es1, l = es3 ++ Recvd r :: es2 ++ Recving h w :: es1 -> r <> RecvPending).
Proof.
  intros T W cap pol debug es s l s' i pan Hwf Hr Hin He Hl HC. pose proof (calm_tail _ _ _ _ HC) as HC0.
  assert (HD : disconnected es).
  { destruct (dropped_disconnected W cap pol true debug Hwf _ _ Hr HC0 i pan Hin He) as [H|(H1 & _)]; [exact H|discriminate]. }
  split; [intros w Hw; exact (disconnected_woken W cap pol true debug Hwf _ _ _ Hr HC0 HD Hw)|].
  intros es3 r es2 h w es1 ->. pose proof (steps_run _ _ _ _ _ _ Hr _ _ Hl) as Hr'.
  apply (never_waits W cap pol true debug Hwf _ _ es3 r es2 h w (es1 ++ es) Hr' HC).
  - rewrite <- app_assoc. simpl. rewrite <- app_assoc. reflexivity.
  - destruct HD as (k & p & b & D1 & D2). exists k, p, b. split; apply in_or_app; now right.
Qed.
Print Assumptions C38_async_receiver_partial.
(** The receiver waits, is woken, and its next call returns None. *)
Example C38_async_receiver_case : exists s es s' l, run_of 64 1 dpol true true es s /\ csteps (core_new 64 1) dpol true true s l s' /\ ring_calm 64 1 (l ++ es) /\
  In (TxDropped 1 0 true) es /\ ch_tx s 1 = TEnd /\ ch_rx s = RPark 7 /\ recv_woken es = true /\ results l = [Recvd RecvNone].
Proof.
  apply (played_further _ _ _ _ (recvs 0 7 ++ [CDropTx 1 true] ++ tx 1 20) (recvs 2 7) (fun s es s' l => _)). intros Hr Hr'.
  split; [apply (calm_few _ _ _ _ _ _ _ wf1 Hr'); vm_compute; reflexivity|]. clear Hr Hr'.
  split; [is_in|]. split; [same|]. split; [same|]. split; same.
Qed.
(** try_recv does not notice: it reports Empty, although no Sender is left. *)
Theorem C38_try_recv_refuted : forall async, exists s es es2 es1, run_of 64 1 dpol async true es s /\ ring_calm 64 1 es /\ no_user_panic es /\
  es = es2 ++ Recvd RecvEmpty :: es1 /\ In (TxDropped 1 0 true) es1 /\ senders es1 = 0.
Proof.
  intros async. enough (H : exists s es, run_of 64 1 dpol async true es s /\ ring_calm 64 1 es /\ no_user_panic es /\ exists es2 es1, es = es2 ++ Recvd RecvEmpty :: es1 /\
    In (TxDropped 1 0 true) es1 /\ senders es1 = 0) by (destruct H as (s & es & H1 & H2 & H3 & es2 & es1 & H4); exists s, es, es2, es1; auto).
  apply (played_case _ _ _ _ ([CDropTx 1 true] ++ tx 1 20 ++ [CTryRecv 0] ++ rx 20) (fun s es => _)). intros Hr.
  split; [apply (calm_few _ _ _ _ _ _ _ wf1 Hr); destruct async; vm_compute; reflexivity|]. clear Hr.
  match goal with |- _ /\ exists _ _, ?x = _ /\ _ => set (es := x) end. split; [destruct async; none_in|]. exists (before is_result es), (after is_result es).
  destruct async; (split; [same|]; split; [is_in|]; same).
Qed.
Print Assumptions C38_try_recv_refuted.
