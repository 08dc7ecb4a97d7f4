(** Definitions used in the statements about a whole channel on weak memory. *)
From Coq Require Import List Bool Arith NArith.
From Verif Require Import QueueSpec CoreModel WaitCellModel WaitCellSpec WaitList WaitQueueModel WaitQueueSpec WeakModel WeakCellModel WeakQueueModel WeakChannelModel WeakWholeModel.
From Verif Require ChannelSpec.
Import ListNotations.

Section Spec.
  Context {T : Type}.
  Variables (P : params) (pol : policy T) (debug : bool) (o : chan_orders) (async : bool).
  Notation zevents := (list (zevent (T := T))).
  Notation state := (zstate (T := T)).

  (** The events of the ring, of the receiver's cell, of the senders' queue. *)
  Definition z_ring (zs : zevents) : list (event T) := ring_events (y_events zs).
  Definition z_cell (zs : zevents) : list wevent := cell_events (y_events zs).

  (** Send [i] waits: it was told to (async: its poll returned Pending; blocking: its thread parks), and nobody has called
      its waker since.  The receiver was woken since its poll returned Pending. *)
  Definition send_waits (s : state) (zs : zevents) (i : nat) : Prop := z_op s i = OPark /\ ChannelSpec.woken_in i (q_events zs) = false.
  Definition recv_woken (zs : zevents) (w : waker) : Prop := exists k later, parked 0 (z_cell zs) = Some (w, later) /\ In (Woke k w) later.

  (** Everybody has stopped: every Sender is idle or gone (there is no SendRef, and none was leaked or lost in a panic),
      every send that may wait is over or waits, the receiver is in no call, and there is no RecvRef. *)
  Definition z_stopped (s : state) (zs : zevents) : Prop :=
    (forall j, y_tx (z_y s) j = SIdle \/ y_tx (z_y s) j = SGone) /\
    (forall i, z_op s i = ONone \/ z_op s i = OEnd \/ send_waits s zs i) /\
    (z_rx s = XFree \/ z_rx s = XGone) /\
    (y_rx (z_y s) = RIdle \/ y_rx (z_y s) = RGone \/ exists w, y_rx (z_y s) = RPend w) /\
    (forall a r, w_pcs (y_ring (z_y s)) (rx_agent a) <> QHold r).

  (** Send [i] is going to call try_send_ref before it waits (again): it was taken out of the queue by a notify and may
      not know yet, was told Notified, is about to, or is in try_send_ref and nothing is decided. *)
  Definition tries_again (s : state) (i : nat) : Prop :=
    match z_op s i with
    | OAgain _ => True
    | OPush _ => match w_pcs (y_ring (z_y s)) (tx_agent (z_by s i)) with PStart | PState _ | PCas _ | PHead _ | PReload => True | _ => False end
    | OWait _ =>
        match q_pc (wq_sys (z_q s)) i with
        | SUnlock Notified | SRet Notified => True
        | CLoad _ | CLock _ | CLoad2 _ | CUpd _ | SUnlock Wait | SRet Wait => n_state (q_heap (wq_sys (z_q s)) i) = Q_WAKING
        | _ => False
        end
    | OCall Queued | OPark => n_state (q_heap (wq_sys (z_q s)) i) = Q_WAKING
    | _ => False
    end.
  (** The receiver's thread has dropped a RecvRef and has not decided yet whom to notify (/repo/src/wait/queue.rs:375-425). *)
  Definition is_notifying (s : state) : Prop :=
    z_rx s = XNote \/
    z_rx s = XNotify /\ match q_pc (wq_sys (z_q s)) 0 with TLoad | TCas _ | TLock _ | TSlow _ => True | _ => False end.

  (** Executions in which a waiting send is polled (its thread returns from park) only because it was woken, and none is
      given up. *)
  Definition on_wake (s : state) (a : zaction (T := T)) : Prop :=
    match a with
    | DoCall i _ sync => z_op s i = OPark -> sync = true
    | DoCancel _ | DoTimeout _ => False
    | _ => True
    end.
  Inductive zrun_patient : zevents -> state -> Prop :=
  | zpat_init : zrun_patient [] (zinit P)
  | zpat_step zs s a s' evs : zrun_patient zs s -> on_wake s a -> zstep P pol debug o async s a = Some (s', evs) -> zrun_patient (evs ++ zs) s'.
End Spec.
