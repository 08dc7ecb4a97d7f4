(** Theorems about the channel: C26 and C30 (see ChannelTheoremsEnd for C31, C38, C40, C42).

    [crun P pol async debug es s]: [s] is reached by some interleaving of any number of
    senders and the receiver, with the events [es] (most recent first).  [async] chooses the
    flavour, [debug] is cfg(debug_assertions).  Hypotheses that occur everywhere:
    - [wf W cap]          the capacity is positive and small enough for the word size
    - [ring_calm W cap es] no call is overtaken by a whole wrap of the counters
    - [memory_ok es]      nothing touched a released waiter so far (C28_channel says when that is the case). *)
From Coq Require Import List Bool Arith NArith Lia.
From Verif Require Import QueueSpec History CoreModel CoreArith RingSpec WaitCellModel WaitQueueModel WaitQueueSpec.
From Verif Require WaitCellSpec.
From Verif Require Import ChannelModel ChannelSpec ChannelFacts ChannelSend ChannelEnd ChannelDeadlock ChannelProgress ChannelDrain ChannelClose ChannelOrder
  ChannelResults ChannelPatient ChannelDemo.
Import ListNotations.

Notation run_of W cap pol async debug := (crun (core_new W (N.of_nat cap)) pol async debug).
Notation steps_of W cap pol async debug := (csteps (core_new W (N.of_nat cap)) pol async debug).

(** ** C28 *)
(** If no waiting send is cancelled or times out, and waiting sends are polled only
    after a wakeup, no released waiter is touched. *)
Theorem C28_channel : forall T W cap (pol : policy T) async debug es s,
  run_of W cap pol async debug es s -> no_cancel es -> no_spurious es -> memory_ok es.
Proof. intros T W cap pol async debug es s Hr Hc Hn. exact (patient_memory _ _ _ _ _ _ Hr Hc Hn). Qed.
Print Assumptions C28_channel.

(** ** C26 *)
(** When everybody has stopped and the receiver waits, the channel is empty and
    a Sender is left (or, blocking flavour, the last one was dropped by a panicking thread: C38). *)
Theorem C26_receiver_waits : forall T W cap (pol : policy T) async debug es s w,
  wf W cap -> run_of W cap pol async debug es s -> ring_calm W cap es -> no_user_panic es ->
  stopped s es -> ch_rx s = RPark w ->
  occupancy (ring_of es) = 0 /\ (0 < senders es \/ (async = false /\ exists i, In (TxDropped i 0 true) es)).
Proof.
  intros T W cap pol async debug es s w Hwf Hr HC Hp Hst Hx.
  destruct (recv_stuck W cap pol async debug Hwf _ _ _ Hr HC Hp Hst Hx) as [H1 H2]. rewrite (senders_count _ _ _ _ _ _ _ Hr).
  split; [unfold occupancy; lia|exact H2].
Qed.
Print Assumptions C26_receiver_waits.

(** When everybody has stopped and a send waits, a completed message is there for
    the receiver, and the receiver does not wait (it is not calling recv). *)
Theorem C26_sender_waits : forall T W cap (pol : policy T) async debug es s i,
  wf W cap -> run_of W cap pol async debug es s -> ring_calm W cap es -> memory_ok es ->
  one_receiver es -> no_cancel es -> no_user_panic es -> ~ In (RxDropped true) es ->
  stopped s es -> ch_tx s i = TPark ->
  (exists v, committed (ring_of es) (count is_take (ring_of es)) = Some v) /\ ch_rx s = RIdle.
Proof.
  intros T W cap pol async debug es s i Hwf Hr HC Hm H1 H2 Hp Hd Hst Hi.
  exact (send_idle W cap pol async debug Hwf _ _ _ Hr (conj Hm (conj H1 (conj H2 HC))) Hp Hd Hst Hi).
Qed.
Print Assumptions C26_sender_waits.

Theorem C26_no_deadlock : forall T W cap (pol : policy T) async debug es s i w,
  wf W cap -> run_of W cap pol async debug es s -> ring_calm W cap es -> memory_ok es ->
  one_receiver es -> no_cancel es -> no_user_panic es -> ~ In (RxDropped true) es ->
  stopped s es -> ~ (ch_tx s i = TPark /\ ch_rx s = RPark w).
Proof.
  intros T W cap pol async debug es s i w Hwf Hr HC Hm H1 H2 Hp Hd Hst [Hi Hx].
  destruct (C26_sender_waits T W cap pol async debug es s i Hwf Hr HC Hm H1 H2 Hp Hd Hst Hi) as [_ H]. congruence.
Qed.
Print Assumptions C26_no_deadlock.

(** The same without a word about memory. *)
Theorem C26_no_deadlock_patient : forall T W cap (pol : policy T) async debug es s i w,
  wf W cap -> run_of W cap pol async debug es s -> ring_calm W cap es ->
  one_receiver es -> no_cancel es -> no_spurious es -> no_user_panic es -> ~ In (RxDropped true) es ->
  stopped s es -> ~ (ch_tx s i = TPark /\ ch_rx s = RPark w).
Proof.
  intros T W cap pol async debug es s i w Hwf Hr HC H1 H2 H3. apply C26_no_deadlock with (1 := Hwf) (2 := Hr) (3 := HC); auto. exact (patient_memory _ _ _ _ _ _ Hr H2 H3).
Qed.
Print Assumptions C26_no_deadlock_patient.

(** As long as not everybody has stopped, somebody can go on without any help
    from outside. *)
Theorem C26_goes_on : forall T W cap (pol : policy T) async debug es s,
  wf W cap -> run_of W cap pol async debug es s -> ring_calm W cap es -> memory_ok es -> one_receiver es -> no_cancel es ->
  stopped s es \/ exists a s' l, goes_on es a /\ cstep_sys (core_new W (N.of_nat cap)) pol async debug s a = Some (s', l).
Proof.
  intros T W cap pol async debug es s Hwf Hr HC Hm H1 H2.
  exact (stopped_or_goes W cap pol async debug Hwf _ _ Hr (conj Hm (conj H1 (conj H2 HC)))).
Qed.
Print Assumptions C26_goes_on.

(** Capacity 1, three senders: the first fills the channel, the others wait; the receiver
    takes the message, which wakes the second; the third waits. *)
Definition one_of_three : list (@caction nat) := sends 1 10 ++ sends 3 20 ++ sends 5 30 ++ recvs 0 7 ++ unrefs 0 ++ resumes 3 20.
Example C26_sender_case : forall async, exists s es, run_of 64 1 dpol async true es s /\
  ring_calm 64 1 es /\ memory_ok es /\ one_receiver es /\ no_cancel es /\ no_spurious es /\ no_user_panic es /\ ~ In (RxDropped true) es /\ stopped s es /\
  ch_tx s 5 = TPark /\ ch_rx s = RIdle /\ received es = [10] /\ In (OnQueue (EWoke 0 3 103)) es.
Proof.
  intros async. apply (played_case _ _ _ _ one_of_three (fun s es => _)). intros Hr. split; [apply (calm_few _ _ _ _ _ _ _ wf1 Hr); destruct async; vm_compute; reflexivity|]. clear Hr.
  destruct async;
  (split; [none_in|]; split; [none_in|]; split; [none_in|]; split; [vm_compute; auto|]; split; [none_in|]; split; [none_in|]; split; [split; [every10|split; same]|];
   split; [same|]; split; [same|]; split; [same|]; is_in).
Qed.
(** The receiver waits for the first message. *)
Example C26_receiver_case : forall async, exists s es, run_of 64 1 dpol async true es s /\
  ring_calm 64 1 es /\ no_user_panic es /\ stopped s es /\ ch_rx s = RPark 7 /\ received es = [10] /\ senders es = 1.
Proof.
  intros async. apply (played_case _ _ _ _ (sends 1 10 ++ recvs 0 7 ++ unrefs 0 ++ recvs 2 7) (fun s es => _)). intros Hr.
  split; [apply (calm_few _ _ _ _ _ _ _ wf1 Hr); destruct async; vm_compute; reflexivity|]. clear Hr.
  destruct async; (split; [none_in|]; split; [split; [every10|split; same]|]; split; [same|]; split; same).
Qed.
(** A receiver that was woken, but has not polled again. *)
Example C26_goes_on_case : exists s es, run_of 64 1 dpol true true es s /\ ring_calm 64 1 es /\ memory_ok es /\ one_receiver es /\ no_cancel es /\
  ~ stopped s es /\ ch_rx s = RPark 7 /\ recv_woken es = true.
Proof.
  apply (played_case _ _ _ _ (recvs 0 7 ++ sends 1 10) (fun s es => _)). intros Hr. split; [apply (calm_few _ _ _ _ _ _ _ wf1 Hr); vm_compute; reflexivity|]. clear Hr.
  split; [none_in|]. split; [none_in|]. split; [none_in|]. split; [|split; same]. intros (_ & H & _). vm_compute in H. discriminate.
Qed.

(** The conditions are necessary.  A woken send that is cancelled (async), or that times out (blocking), takes
    the wakeup with it: a send waits on an empty channel while the receiver waits. *)
Theorem C26_cancel_refuted : forall async, exists s es, run_of 64 1 dpol async true es s /\
  ring_calm 64 1 es /\ memory_ok es /\ one_receiver es /\ no_user_panic es /\ 0 < senders es /\ stopped s es /\
  ch_tx s 5 = TPark /\ ch_rx s = RPark 7 /\ occupancy (ring_of es) = 0.
Proof.
  intros async. apply (played_case _ _ _ _ (sends 1 10 ++ sends 3 20 ++ sends 5 30 ++ recvs 0 7 ++ unrefs 0 ++ [if async then CCancel 3 else CTimeout 3] ++ tx 3 20 ++ recvs 2 7) (fun s es => _)).
  intros Hr. split; [apply (calm_few _ _ _ _ _ _ _ wf1 Hr); destruct async; vm_compute; reflexivity|]. clear Hr.
  destruct async; (split; [none_in|]; split; [none_in|]; split; [none_in|]; split; [vm_compute; lia|]; split; [split; [every10|split; same]|]; split; [same|]; split; same).
Qed.
Print Assumptions C26_cancel_refuted.

(** RecvRefs dropped on two threads: the second notify, delayed, forgets the notification stored by a later
    one (release builds; with debug assertions it panics). *)
Definition two_threads : list (@caction nat) :=
  sends 1 10 ++ sends 5 30 ++ recvs 0 7 ++ [CDropRefOn 0 7] ++ tx 7 2 ++ sends 9 40 ++ recvs 2 7 ++ unrefs 2 ++ resumes 5 30 ++
  [CSend 11 false] ++ tx 11 5 ++ recvs 4 7 ++ unrefs 4 ++ tx 7 30 ++ tx 11 30 ++ recvs 6 7.
Theorem C26_two_threads_refuted : forall async, exists s es, run_of 64 1 dpol async false es s /\
  ring_calm 64 1 es /\ memory_ok es /\ no_cancel es /\ no_user_panic es /\ 0 < senders es /\ stopped s es /\
  ch_tx s 11 = TPark /\ ch_rx s = RPark 7 /\ occupancy (ring_of es) = 0.
Proof.
  intros async. apply (played_case _ _ _ _ two_threads (fun s es => _)).
  intros Hr. split; [apply (calm_few _ _ _ _ _ _ _ wf1 Hr); destruct async; vm_compute; reflexivity|]. clear Hr.
  destruct async; (split; [none_in|]; split; [none_in|]; split; [none_in|]; split; [vm_compute; lia|];
    split; [split; [vm_compute; intros [|[|[|[|[|[|[|[|[|[|[|[|i]]]]]]]]]]]]; vm_compute; auto|split; same]|]; split; [same|]; split; same).
Qed.
Print Assumptions C26_two_threads_refuted.
Theorem C26_two_threads_panics_refuted : forall async, exists s es, run_of 64 1 dpol async true es s /\
  ring_calm 64 1 es /\ memory_ok es /\ no_cancel es /\ no_user_panic es /\ In (OnQueue (EAssert 7)) es /\ ch_tx s 7 = TDead.
Proof.
  intros async. apply (played_case _ _ _ _ two_threads (fun s es => _)).
  intros Hr. split; [apply (calm_few _ _ _ _ _ _ _ wf1 Hr); destruct async; vm_compute; reflexivity|]. clear Hr.
  destruct async; (split; [none_in|]; split; [none_in|]; split; [none_in|]; split; [is_in|same]).
Qed.
Print Assumptions C26_two_threads_panics_refuted.

(** ** C30 *)
(** Once the receiver has been dropped (by a thread that is not panicking: C38), every
    send that waits has been woken. *)
Theorem C30_woken : forall T W cap (pol : policy T) async debug es s i,
  wf W cap -> run_of W cap pol async debug es s -> ring_calm W cap es -> memory_ok es ->
  ch_rx s = RGone -> ~ In (RxDropped true) es -> ch_tx s i = TPark -> send_woken i es = true.
Proof. intros. eapply gone_woken; eauto. Qed.
Print Assumptions C30_woken.

(** When everybody has stopped, no send waits. *)
Theorem C30_nobody_waits : forall T W cap (pol : policy T) async debug es s,
  wf W cap -> run_of W cap pol async debug es s -> ring_calm W cap es -> memory_ok es ->
  ch_rx s = RGone -> ~ In (RxDropped true) es -> stopped s es ->
  forall i, ch_tx s i = TNone \/ ch_tx s i = TEnd \/ ch_tx s i = TDead.
Proof.
  intros T W cap pol async debug es s Hwf Hr HC Hm Hx Hd Hst i. pose proof (gone_stopped W cap pol async debug Hwf _ _ Hr HC Hm Hx Hd Hst i) as H.
  destruct (ch_tx s i); auto; contradiction.
Qed.
Print Assumptions C30_nobody_waits.

(** A send that waits when the ring has been closed returns nothing but Closed. *)
Theorem C30_result : forall T W cap (pol : policy T) async debug es s l s' i r,
  wf W cap -> run_of W cap pol async debug es s -> ch_rx s = RGone -> ~ In (RxDropped true) es -> ch_tx s i = TPark ->
  steps_of W cap pol async debug s l s' -> ring_calm W cap (l ++ es) -> In (Sent i r) l -> r = SentClosed.
Proof.
  intros T W cap pol async debug es s l s' i r Hwf Hr Hx Hd Hi Hl HC Hin.
  pose proof (gone_closed W cap pol async debug Hwf _ _ Hr (calm_tail _ _ _ _ HC) Hx Hd) as Hcl.
  exact (proj1 (proj2 (doomed_steps W cap pol async debug Hwf false _ _ _ _ i Hr Hl HC (parked_doomed async es s i Hcl Hi))) r Hin).
Qed.
Print Assumptions C30_result.

(** A send that starts later returns nothing but Closed and never starts to wait. *)
Theorem C30_late : forall T W cap (pol : policy T) async debug es s l s' i t,
  wf W cap -> run_of W cap pol async debug es s -> ch_rx s = RGone -> ~ In (RxDropped true) es ->
  steps_of W cap pol async debug s l s' -> ring_calm W cap (l ++ es) -> In (Sending i t) l ->
  (forall r, In (Sent i r) l -> r = SentClosed) /\ (forall w, ~ In (OnQueue (EStart i w)) l) /\ ch_tx s' i <> TPark.
Proof.
  intros T W cap pol async debug es s l s' i t Hwf Hr Hx Hd Hl HC Hin.
  pose proof (gone_closed W cap pol async debug Hwf _ _ Hr (calm_tail _ _ _ _ HC) Hx Hd) as Hcl.
  destruct (late_sends W cap pol async debug Hwf _ _ _ _ i t Hr Hl HC Hcl Hin) as (H1 & H2 & H3).
  split; [exact H2|]. split; [intros w Hw; apply (H3 w); now apply in_queue|]. destruct H1 as [_ H1]. intros E. rewrite E in H1. discriminate.
Qed.
Print Assumptions C30_late.

(** Two sends wait when the receiver goes away; then the first is polled again and another one starts. *)
Example C30_case : forall async, exists s es s' l, run_of 64 1 dpol async true es s /\ steps_of 64 1 dpol async true s l s' /\
  ring_calm 64 1 (l ++ es) /\ ring_calm 64 1 es /\ memory_ok es /\ ch_rx s = RGone /\ ~ In (RxDropped true) es /\ ch_tx s 3 = TPark /\ ch_tx s 5 = TPark /\
  In (Sent 3 SentClosed) l /\ In (Sending 7 false) l /\ In (Sent 7 SentClosed) l.
Proof.
  intros async. apply (played_further _ _ _ _ (sends 1 10 ++ sends 3 20 ++ sends 5 30 ++ [CDropRx false] ++ rx 40) (resumes 3 20 ++ sends 7 40) (fun s es s' l => _)). intros Hr Hr'.
  split; [apply (calm_few _ _ _ _ _ _ _ wf1 Hr'); destruct async; vm_compute; reflexivity|].
  split; [apply (calm_few _ _ _ _ _ _ _ wf1 Hr); destruct async; vm_compute; reflexivity|]. clear Hr Hr'.
  destruct async; (split; [none_in|]; split; [same|]; split; [none_in|]; split; [same|]; split; [same|]; split; [is_in|]; split; is_in).
Qed.
(** After that everybody has stopped. *)
Example C30_nobody_waits_case : forall async, exists s es, run_of 64 1 dpol async true es s /\ ring_calm 64 1 es /\ memory_ok es /\ ch_rx s = RGone /\ ~ In (RxDropped true) es /\
  stopped s es /\ In (Sent 3 SentClosed) es /\ In (Sent 5 SentClosed) es /\ In (OnQueue (EWoke 0 5 105)) es.
Proof.
  intros async. apply (played_case _ _ _ _ (sends 1 10 ++ sends 3 20 ++ sends 5 30 ++ [CDropRx false] ++ rx 40 ++ resumes 3 20 ++ resumes 5 30) (fun s es => _)). intros Hr.
  split; [apply (calm_few _ _ _ _ _ _ _ wf1 Hr); destruct async; vm_compute; reflexivity|]. clear Hr.
  destruct async; (split; [none_in|]; split; [same|]; split; [none_in|]; split; [split; [every10|split; same]|]; split; [is_in|]; split; is_in).
Qed.
