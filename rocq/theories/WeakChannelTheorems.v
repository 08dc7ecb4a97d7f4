(** Theorems about the receiving side of a channel on weak memory ([WeakChannelModel]): C51-C53.

    [o] gives the memory orderings; [code_chan_orders] are those of the code.  [async]: async_impl.rs or
    blocking.rs. *)
From Coq Require Import List Bool Arith NArith Lia.
From Verif Require Import Word QueueSpec CoreModel CoreArith RingSpec RingFacts ChainFacts Demo WaitCellModel WaitCellSpec WeakModel WeakSpec WeakFacts WeakTheorems
  WeakCellModel WeakCellTheorems WeakChannelModel WeakChannelSpec WeakChannelFacts WeakChannelInv History.
Import ListNotations.

(** ** Concrete schedules, for the examples: the actions [l] lead to a state and a history for which [Q] holds. *)
Definition chan_demo (o : chan_orders) (async : bool) (l : list (yaction (T := nat))) (Q : ystate (T := nat) -> list (yevent (T := nat)) -> Prop) : Prop :=
  exists s ys, chan_case (core_new 64 2) demo_policy true o async l = Some (s, ys) /\
    yrun (core_new 64 2) demo_policy true o async ys s /\ few_pushes 64 2 (ring_events ys) /\ Q s ys.
Lemma yexec_run {T} P (pol : policy T) debug o async l s ys s' ys' :
  yrun P pol debug o async ys s -> yexec P pol debug o async s ys l = Some (s', ys') -> yrun P pol debug o async ys' s'.
Proof.
  revert s ys. induction l as [|a l IH]; simpl; intros s ys Hr H.
  - injection H as <- <-. exact Hr.
  - destruct (ystep P pol debug o async s a) as [[s1 e]|] eqn:E; [|discriminate].
    eapply IH; [|exact H]. exact (yrun_step _ _ _ _ _ ys s a s1 e Hr E).
Qed.
Lemma ycase_demo o async l (Q : ystate -> list yevent -> Prop) :
  match chan_case (core_new 64 2) demo_policy true o async l with
  | Some (s, ys) => few_pushes 64 2 (ring_events ys) /\ Q s ys
  | None => False
  end -> chan_demo o async l Q.
Proof.
  unfold chan_case. destruct (yexec _ _ _ _ _ _ _ l) as [[s ys]|] eqn:E; [|tauto]. intros H. exists s, ys. split; [exact E|split; [|exact H]].
  eapply yexec_run; [|exact E]. constructor.
Qed.

Definition begin_send (j v kt ks : nat) : list (yaction (T := nat)) :=
  [ASend j; APush j kt false; APush j ks false; APush j 0 false; APush j 0 false; AWrite j v].
Definition note (j n : nat) : list (yaction (T := nat)) := repeat (ANotify j None) n.
Definition send (j v kt ks n : nat) : list (yaction (T := nat)) := begin_send j v kt ks ++ [ACommit j] ++ note j n.
(** A pop_ref that reads the [kh]-th head, then the [ks]-th state. *)
Definition recv (kh ks : nat) : list (yaction (T := nat)) := [ARecv kh false; ARecv ks false; ARecv 0 false].
Definition spin (kh ks : nat) : list (yaction (T := nat)) := concat (repeat (recv kh ks) 4).
Definition reg : list (yaction (T := nat)) := [AWait None; AWait None; AWait None].

(** ** What was proved of the ring and of the cell holds of those of a channel. *)
Theorem C51_parts : forall T P (pol : policy T) debug o async ys s,
  yrun P pol debug o async ys s ->
  weak_run P pol (co_ring o) (ring_events ys) (y_ring s) /\ krun debug (co_cell o) (cell_events ys) (y_cell s).
Proof. intros T P pol debug o async ys s. exact (proj_run P pol debug o async ys s). Qed.
Print Assumptions C51_parts.

(** ** C51.  No lost wakeups: a receiver that was told Pending, with waker [w], while the message to be received
    next is complete, has been woken with [w] since it registered, or a Sender is about to do so or to fetch_or. *)
Theorem C51_woken : forall T W cap (pol : policy T) debug o async ys s w,
  wf W cap -> sound_chan o -> yrun (core_new W (N.of_nat cap)) pol debug o async ys s -> few_pushes W cap (ring_events ys) ->
  y_rx s = RPend w ->
  exists later, parked 0 (cell_events ys) = Some (w, later) /\
    forall v, committed (ring_events ys) (length (taken_values (ring_events ys))) = Some v ->
      (exists k, In (Woke k w) later) \/
      exists j, about_to_wake (wc_sys (y_cell s)) (tx_thread j) w \/ ws_pc (wc_sys (y_cell s)) (tx_thread j) = NOr false.
Proof.
  intros T W cap pol debug o async ys s w Hwf Ho Hr Hf Hx. rewrite taken_length.
  exact (pending_woken W cap pol debug o async Hwf Ho ys s w Hr Hf Hx).
Qed.
Print Assumptions C51_woken.

(** The same when all Senders are dropped - except, in the blocking flavour, if the last one was dropped by a
    panicking thread (see C38). *)
Theorem C51_woken_by_close : forall T W cap (pol : policy T) debug o async ys s w,
  wf W cap -> sound_chan o -> yrun (core_new W (N.of_nat cap)) pol debug o async ys s -> few_pushes W cap (ring_events ys) ->
  y_rx s = RPend w -> dropped ys = created ys -> async = true \/ ~ hushed (ring_events ys) ->
  exists later, parked 0 (cell_events ys) = Some (w, later) /\
    ((exists k, In (Woke k w) later) \/
     exists j, about_to_wake (wc_sys (y_cell s)) (tx_thread j) w \/
       ws_pc (wc_sys (y_cell s)) (tx_thread j) = NOr true \/ y_tx s j = SClosing).
Proof.
  intros T W cap pol debug o async ys s w Hwf Ho. exact (pending_closed W cap pol debug o async Hwf Ho ys s w).
Qed.
Print Assumptions C51_woken_by_close.

(** Once every Sender has finished what it was doing, the receiver has been woken. *)
Theorem C51_settled : forall T W cap (pol : policy T) debug o async ys s w,
  wf W cap -> sound_chan o -> yrun (core_new W (N.of_nat cap)) pol debug o async ys s -> few_pushes W cap (ring_events ys) ->
  y_rx s = RPend w -> settled s ->
  (exists v, committed (ring_events ys) (length (taken_values (ring_events ys))) = Some v) \/
  (dropped ys = created ys /\ (async = true \/ ~ hushed (ring_events ys))) ->
  exists k later, parked 0 (cell_events ys) = Some (w, later) /\ In (Woke k w) later.
Proof.
  intros T W cap pol debug o async ys s w Hwf Ho Hr Hf Hx Hs. rewrite taken_length.
  exact (pending_settled W cap pol debug o async Hwf Ho ys s w Hr Hf Hx Hs).
Qed.
Print Assumptions C51_settled.

Lemma code_sound : sound_chan code_chan_orders.
Proof. constructor; try reflexivity. repeat split; reflexivity. Qed.
Lemma code_sound_count : sound_count code_chan_orders.
Proof. constructor; reflexivity. Qed.

Theorem C51_code : forall T W cap (pol : policy T) debug async ys s w,
  wf W cap -> yrun (core_new W (N.of_nat cap)) pol debug code_chan_orders async ys s -> few_pushes W cap (ring_events ys) ->
  y_rx s = RPend w -> settled s ->
  (exists v, committed (ring_events ys) (length (taken_values (ring_events ys))) = Some v) \/
  (dropped ys = created ys /\ (async = true \/ ~ hushed (ring_events ys))) ->
  exists k later, parked 0 (cell_events ys) = Some (w, later) /\ In (Woke k w) later.
Proof. intros T W cap pol debug async ys s w Hwf. exact (C51_settled T W cap pol debug code_chan_orders async ys s w Hwf code_sound). Qed.
Print Assumptions C51_code.

(** The receiver waits with waker 7; the message 10 is sent; the Sender has the waker in hand, then wakes it. *)
Definition waits : list (yaction (T := nat)) := [APoll 7] ++ recv 0 0 ++ reg ++ recv 0 0.
Example C51_woken_case : chan_demo code_chan_orders true (waits ++ send 0 10 0 0 3) (fun s ys =>
  y_rx s = RPend 7 /\ committed (ring_events ys) (length (taken_values (ring_events ys))) = Some 10 /\
  parked 0 (cell_events ys) = Some (7, [Took 1 (Some 7); Fetched 1 false; CallNotify 1 false]) /\
  about_to_wake (wc_sys (y_cell s)) (tx_thread 0) 7).
Proof. apply ycase_demo. vm_compute. auto. Qed.
Ltac demo_settled := let j := fresh in intros j; do 4 (destruct j as [|j]; [repeat split; discriminate|]); repeat split; discriminate.
Example C51_settled_case : chan_demo code_chan_orders true (waits ++ send 0 10 0 0 5) (fun s ys =>
  y_rx s = RPend 7 /\ settled s /\ committed (ring_events ys) (length (taken_values (ring_events ys))) = Some 10 /\
  parked 0 (cell_events ys) = Some (7, [RetNotify 1 true; Woke 1 7; Took 1 (Some 7); Fetched 1 false; CallNotify 1 false])).
Proof. apply ycase_demo. vm_compute. do 2 (split; [reflexivity|]). split; [demo_settled|]. auto. Qed.
Example C51_closed_case : chan_demo code_chan_orders false (waits ++ [ADropTx 0; AClose 0 false] ++ note 0 5) (fun s ys =>
  y_rx s = RPend 7 /\ settled s /\ dropped ys = created ys /\ ~ hushed (ring_events ys) /\
  parked 0 (cell_events ys) = Some (7, [RetNotify 1 true; Woke 1 7; Took 1 (Some 7); Fetched 1 true; CallNotify 1 true])).
Proof.
  apply ycase_demo. vm_compute. do 2 (split; [reflexivity|]). split; [demo_settled|]. split; [reflexivity|]. split; [|reflexivity].
  intros (i & es2 & es1 & H & _). do 5 (destruct es2 as [|? es2]; cbn in H; [discriminate|injection H as _ H]). destruct es2; discriminate.
Qed.

(** The orderings are needed.  If neither compare_exchange of a registration acquires (/repo/src/wait/cell.rs:69,
    101): the message 10 was sent before, its notification is over, and the receiver waits. *)
Definition asleep (s : ystate (T := nat)) (ys : list (yevent (T := nat))) : Prop :=
  y_rx s = RPend 7 /\ settled s /\
  (exists v, committed (ring_events ys) (length (taken_values (ring_events ys))) = Some v) /\
  forall k, ~ In (Woke k 7) (cell_events ys).
Ltac demo_asleep := apply ycase_demo; vm_compute; do 2 (split; [reflexivity|]); split; [demo_settled|];
  split; [eexists; reflexivity|]; intros k; intuition discriminate.
Theorem C51_register_must_acquire : let o := mkCO code_orders (mkK Relaxed Release Acquire AcqRel AcqRel AcqRel) Release true in
  chan_demo o true (send 0 10 0 0 4 ++ [APoll 7] ++ spin 0 0 ++ reg ++ spin 0 0) asleep.
Proof. demo_asleep. Qed.
Print Assumptions C51_register_must_acquire.
(** If the fetch_or of a notification does not release (164): two Senders, the older message is the one of the
    Sender that notifies last and finds the cell being notified. *)
Theorem C51_notify_must_release : let o := mkCO code_orders (mkK Acquire AcqRel Acquire AcqRel Acquire AcqRel) Release true in
  chan_demo o true ([AClone 0 1] ++ begin_send 1 10 0 0 ++ begin_send 0 20 1 0 ++ [ACommit 1; ACommit 0] ++
    note 0 2 ++ note 1 2 ++ note 0 2 ++ [APoll 7] ++ spin 0 0 ++ reg ++ spin 0 0) asleep.
Proof. demo_asleep. Qed.
Print Assumptions C51_notify_must_release.

(** ** C52.  recv answers None, and try_recv Closed, only if all Senders are dropped and the message to be received
    next is not there: all were received, or a Sender never completed one (SendRef leaked, push panicked); and
    nothing is sent afterwards. *)
Theorem C52_end_of_stream : forall T W cap (pol : policy T) debug o async ys2 x ys1 s,
  wf W cap -> sound_chan o -> yrun (core_new W (N.of_nat cap)) pol debug o async (ys2 ++ YRet x :: ys1) s ->
  few_pushes W cap (ring_events (ys2 ++ YRet x :: ys1)) -> x = NoMore \/ x = TryClosed ->
  dropped ys1 = created ys1 /\
  committed (ring_events ys1) (length (taken_values (ring_events ys1))) = None /\
  (length (taken_values (ring_events ys1)) = count is_reserve (ring_events ys1) \/ exists j, y_tx s j = SDead) /\
  forall i v, ~ In (YR (Commit i v)) ys2.
Proof.
  intros T W cap pol debug o async ys2 x ys1 s Hwf Ho Hr Hf Hx. rewrite taken_length.
  destruct (end_of_stream W cap pol debug o async Hwf Ho _ s Hr Hf x ys2 ys1 Hx eq_refl) as (H1 & _ & [H2 H3] & H4).
  repeat split; auto. intros i v Hin. apply (H4 i v). clear -Hin. induction ys2 as [|e l IH]; [destruct Hin|].
  destruct Hin as [->|Hin]; [now left|]. specialize (IH Hin). destruct e; cbn; auto.
Qed.
Print Assumptions C52_end_of_stream.

(** If no Sender leaked a SendRef or panicked in a push: all messages were received, in order. *)
Theorem C52_all_received : forall T W cap (pol : policy T) debug o async ys2 x ys1 s,
  wf W cap -> sound_chan o -> yrun (core_new W (N.of_nat cap)) pol debug o async (ys2 ++ YRet x :: ys1) s ->
  few_pushes W cap (ring_events (ys2 ++ YRet x :: ys1)) -> x = NoMore \/ x = TryClosed ->
  (forall j, y_tx s j <> SDead) ->
  let es := ring_events ys1 in
  map (committed es) (seq 0 (count is_reserve es)) = map Some (taken_values es).
Proof.
  intros T W cap pol debug o async ys2 x ys1 s Hwf Ho Hr Hf Hx Hd es.
  destruct (C52_end_of_stream T W cap pol debug o async ys2 x ys1 s Hwf Ho Hr Hf Hx) as (_ & _ & [H|[j Hj]] & _); [|destruct (Hd j Hj)].
  unfold es. rewrite <- H. symmetry. destruct (proj_run _ _ _ _ _ _ _ Hr) as [Hw _].
  destruct (history_chain W cap pol (co_ring o) Hwf (so_ring _ Ho) _ (ex_intro _ s.(y_ring) Hw) Hf) as [q Hq].
  rewrite ring_app in Hq. cbn [ring_events] in Hq. destruct (chain_suffix _ _ _ _ _ _ _ Hq) as [q1 Hq1].
  rewrite taken_length. exact (chain_fifo_list _ _ _ _ _ _ Hq1).
Qed.
Print Assumptions C52_all_received.

Theorem C52_code : forall T W cap (pol : policy T) debug async ys2 x ys1 s,
  wf W cap -> yrun (core_new W (N.of_nat cap)) pol debug code_chan_orders async (ys2 ++ YRet x :: ys1) s ->
  few_pushes W cap (ring_events (ys2 ++ YRet x :: ys1)) -> x = NoMore \/ x = TryClosed ->
  dropped ys1 = created ys1 /\
  committed (ring_events ys1) (length (taken_values (ring_events ys1))) = None /\
  (length (taken_values (ring_events ys1)) = count is_reserve (ring_events ys1) \/ exists j, y_tx s j = SDead) /\
  forall i v, ~ In (YR (Commit i v)) ys2.
Proof. intros T W cap pol debug async ys2 x ys1 s Hwf. exact (C52_end_of_stream T W cap pol debug code_chan_orders async ys2 x ys1 s Hwf code_sound). Qed.
Print Assumptions C52_code.

(** Two Senders; the message 10 is received, then both are dropped; recv answers None. *)
Definition stream : list (yaction (T := nat)) :=
  [AClone 0 1; ADropTx 0] ++ send 1 10 0 0 4 ++ [APoll 7] ++ recv 0 1 ++ [ARefDrop 0; ADropTx 1; AClose 1 false] ++ note 1 4 ++
  [APoll 7] ++ recv 1 0 ++ [ATry] ++ recv 1 0.
Example C52_case : chan_demo code_chan_orders true stream (fun s ys =>
  (forall j, y_tx s j <> SDead) /\ taken_values (ring_events ys) = [10] /\
  exists ys2 ys1, ys = ys2 ++ YRet NoMore :: ys1 /\ firstn 1 ys2 = [YRet TryClosed]).
Proof.
  apply ycase_demo. vm_compute. split; [reflexivity|]. split; [|split; [reflexivity|eexists [_; _; _], _; split; reflexivity]].
  intros j. do 4 (destruct j as [|j]; [discriminate|]). discriminate.
Qed.

(** The orderings are needed: the stream ends with a message (10; 20) that was completed and not received.  If the failing
    compare_exchange (/repo/src/wait/cell.rs:188) does not acquire; the tail word alone does not help if its
    read-modify-writes are relaxed, ... *)
Definition cut_short (v : nat) (s : ystate (T := nat)) (ys : list (yevent (T := nat))) : Prop :=
  firstn 1 ys = [YRet NoMore] /\ committed (ring_events ys) (length (taken_values (ring_events ys))) = Some v.
Definition relaxed_rmw : orders := mkO true true true false true true.
Theorem C52_failure_must_acquire : let o := mkCO relaxed_rmw (mkK Acquire AcqRel Relaxed AcqRel AcqRel AcqRel) Release true in
  chan_demo o true (send 0 10 0 0 4 ++ [ADropTx 0; AClose 0 false] ++ note 0 4 ++ [APoll 7] ++ spin 0 0 ++ [AWait (Some 4)] ++ spin 0 0) (cut_short 10).
Proof. apply ycase_demo. vm_compute. auto. Qed.
Print Assumptions C52_failure_must_acquire.
(** ... or if the fetch_and of a registration overtaken by a notification (116) does not. *)
Theorem C52_reset_must_acquire : let o := mkCO relaxed_rmw (mkK Acquire AcqRel Acquire Release AcqRel AcqRel) Release true in
  chan_demo o true ([AClone 0 1] ++ begin_send 1 10 0 0 ++ [ACommit 1; AExt (Tx 1) (Rx 0); APoll 7] ++ recv 0 1 ++
    [APoll 7] ++ recv 1 0 ++ [AWait None; AWait None] ++ note 1 2 ++ [AWait (Some 2)] ++
    send 0 20 1 0 2 ++ [ADropTx 1; ADropTx 0; AClose 0 false] ++ note 0 2 ++ repeat (AWait None) 5 ++ spin 1 0) (cut_short 20).
Proof. apply ycase_demo. vm_compute. auto. Qed.
Print Assumptions C52_reset_must_acquire.
(** With these two and the same ring the theorem holds: C52_end_of_stream does not ask for more. *)
Example C52_relaxed_rmw : sound_chan (mkCO relaxed_rmw code_cell_orders Relaxed false).
Proof. constructor; try reflexivity. repeat split; reflexivity. Qed.

(** ** C53.  Everything ever sent happens before the closing of the channel: when the last Sender is being dropped,
    the completion of every message is visible to it. *)
Theorem C53_last_sender : forall T P (pol : policy T) debug o async ys s j i v es2 es1,
  sound_count o -> yrun P pol debug o async ys s -> y_tx s j = SClosing \/ y_tx s j = SCloseTx ->
  ring_events ys = es2 ++ Commit i v :: es1 -> known (w_views (y_ring s) (tx_agent j)) es1.
Proof.
  intros T P pol debug o async ys s j i v es2 es1 Ho Hr Hj E. destruct (last_run P pol debug o async ys s Ho Hr) as [_ HG].
  apply (ig_closer _ _ HG j Hj). rewrite E. now apply at_split.
Qed.
Print Assumptions C53_last_sender.

Theorem C53_code : forall T P (pol : policy T) debug async ys s j i v es2 es1,
  yrun P pol debug code_chan_orders async ys s -> y_tx s j = SClosing \/ y_tx s j = SCloseTx ->
  ring_events ys = es2 ++ Commit i v :: es1 -> known (w_views (y_ring s) (tx_agent j)) es1.
Proof. intros T P pol debug async ys s j i v es2 es1. exact (C53_last_sender T P pol debug code_chan_orders async ys s j i v es2 es1 code_sound_count). Qed.
Print Assumptions C53_code.

(** Sender 1 sends 10 and is dropped, then Sender 0, the last one. *)
Definition two_drops : list (yaction (T := nat)) := [AClone 0 1] ++ send 1 10 0 0 4 ++ [ADropTx 1; ADropTx 0].
Example C53_case : chan_demo code_chan_orders true two_drops (fun s ys => y_tx s 0 = SClosing /\
  ring_events ys = [] ++ Commit 3 10 :: [Wrote 3 10; HandOut 3 0; Reserve 3; Invoke 3 OpPush]).
Proof. apply ycase_demo. vm_compute. auto. Qed.

(** Both the release of the fetch_sub and the fence are needed. *)
Definition unaware (s : ystate (T := nat)) (ys : list (yevent (T := nat))) : Prop :=
  y_tx s 0 = SClosing /\ exists es1, ring_events ys = [] ++ Commit 3 10 :: es1 /\ ~ known (w_views (y_ring s) (tx_agent 0)) es1.
Theorem C53_drop_must_release : chan_demo (mkCO code_orders code_cell_orders Relaxed true) true two_drops unaware.
Proof. apply ycase_demo. vm_compute. repeat split. eexists. split; [reflexivity|discriminate]. Qed.
Print Assumptions C53_drop_must_release.
Theorem C53_fence_needed : chan_demo (mkCO code_orders code_cell_orders Release false) true two_drops unaware.
Proof. apply ycase_demo. vm_compute. repeat split. eexists. split; [reflexivity|discriminate]. Qed.
Print Assumptions C53_fence_needed.
