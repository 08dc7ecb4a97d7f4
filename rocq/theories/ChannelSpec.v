(** Vocabulary for the channel theorems, read off the events. *)
From Coq Require Import List Bool Arith NArith.
From Verif Require Import QueueSpec CoreModel WaitCellModel ChannelModel.
From Verif Require CoreArith History WaitCellSpec WaitQueueModel WaitQueueSpec.
Import ListNotations.

Section Spec.
  Context {T : Type}.
  Notation cevent := (cevent T).

  (** The events of each component. *)
  Fixpoint ring_of (es : list cevent) : list (event T) :=
    match es with [] => [] | OnRing e :: es' => e :: ring_of es' | _ :: es' => ring_of es' end.
  Fixpoint cell_of (es : list cevent) : list wevent :=
    match es with [] => [] | OnCell e :: es' => e :: cell_of es' | _ :: es' => cell_of es' end.
  Fixpoint queue_of (es : list cevent) : list WaitQueueModel.qevent :=
    match es with [] => [] | OnQueue e :: es' => e :: queue_of es' | _ :: es' => queue_of es' end.

  (** Number of events of the ring satisfying [f]. *)
  Definition is_release (e : event T) : bool := match e with Release _ _ => true | _ => false end.

  (** Calls of tx_wait.notify(). *)
  Definition is_notify (e : WaitQueueModel.qevent) : bool := match e with WaitQueueModel.ECallNotify _ => true | _ => false end.
  Definition notifications (es : list cevent) : nat := length (filter is_notify (queue_of es)).

  (** A waker of send [i] was woken since [i] last passed one (so [i] is about to
      be polled, or its thread returns from park). *)
  Fixpoint woken_in (i : nat) (es : list WaitQueueModel.qevent) : bool :=
    match es with
    | [] => false
    | (WaitQueueModel.EStart j _ | WaitQueueModel.ECont j _) :: es' => if Nat.eqb j i then false else woken_in i es'
    | WaitQueueModel.EWoke _ j _ :: es' => if Nat.eqb j i then true else woken_in i es'
    | _ :: es' => woken_in i es'
    end.
  Definition send_woken (i : nat) (es : list cevent) : bool := woken_in i (queue_of es).

  (** The receiver's waker was woken since its last wait_with returned Wait. *)
  Definition recv_woken (es : list cevent) : bool :=
    match WaitCellSpec.parked 0 (cell_of es) with
    | Some (w, later) => existsb (fun e => match e with Woke _ v => Nat.eqb v w | _ => false end) later
    | None => false
    end.

  (** Send [i] waits: it was told to wait and not woken since.  The receiver
      waits: its last poll returned Pending and it was not woken since. *)
  Definition send_waits (s : @chan T) (es : list cevent) (i : nat) : Prop := ch_tx s i = TPark /\ send_woken i es = false.
  Definition recv_waits (s : @chan T) (es : list cevent) : Prop := (exists w, ch_rx s = RPark w) /\ recv_woken es = false.

  (** Everybody has stopped: every send is over or waits, the receiver is idle,
      gone or waits, nobody holds a SendRef or RecvRef, and no Sender or RecvRef is in the
      middle of being dropped. *)
  Definition stopped (s : @chan T) (es : list cevent) : Prop :=
    (forall i, match ch_tx s i with
               | TNone | TEnd | TDead => True
               | TPark => send_woken i es = false
               | _ => False
               end) /\
    match ch_rx s with
    | RIdle | RGone => True
    | RPark _ => recv_woken es = false
    | _ => False
    end /\ ch_refs s = [].

  (** Steps that need nobody's cooperation: everybody goes on with what they are
      doing, whoever was woken polls again, and SendRefs and RecvRefs are dropped
      eventually. *)
  Definition goes_on (es : list cevent) (a : @caction T) : Prop :=
    match a with
    | CTx _ _ _ | CRx _ | CDropSendRef _ | CDropRef _ => True
    | CResume i => send_woken i es = true
    | CRecv _ _ => recv_woken es = true
    | _ => False
    end.

  (** Number of Senders: the first one, those cloned, less those dropped. *)
  Fixpoint clones (es : list cevent) : nat := match es with [] => 0 | TxCloned :: es' => S (clones es') | _ :: es' => clones es' end.
  Fixpoint drops (es : list cevent) : nat := match es with [] => 0 | TxDropped _ _ _ :: es' => S (drops es') | _ :: es' => drops es' end.
  Definition senders (es : list cevent) : nat := 1 + clones es - drops es.

  (** The drop of the last Sender has called close_tx and that call is over. *)
  Definition disconnected (es : list cevent) : Prop :=
    exists i p b, In (TxDropped i 0 p) es /\ In (OnCell (RetNotify i b)) es.

  (** The receiver's call in progress, or its last one: RecvRef and waker. *)
  Fixpoint receiving (es : list cevent) : option (nat * option waker) :=
    match es with [] => None | Recving h w :: _ => Some (h, w) | _ :: es' => receiving es' end.

  (** During its call with RecvRef [h] and waker [w], which is still in progress at [es], the receiver
      has registered [w] with the cell; and after that there was a moment without a completed message
      at the front. *)
  Definition checked (h : nat) (w : waker) (es : list cevent) : Prop :=
    exists esc esd, es = esc ++ OnCell (RetWait 0 Wait) :: esd /\ (forall h' w', ~ In (Recving h' w') esc) /\
      WaitCellSpec.last_call 0 (cell_of esd) = Some w /\ receiving esd = Some (h, Some w).
  Definition rechecked (h : nat) (w : waker) (es : list cevent) : Prop :=
    exists esb esa, es = esb ++ esa /\ (forall h' w', ~ In (Recving h' w') esb) /\ checked h w esa /\
      History.committed (ring_of esa) (count is_take (ring_of esa)) = None.

  (** Messages received, oldest first. *)
  Fixpoint received (es : list cevent) : list T :=
    match es with [] => [] | Recvd (RecvMsg _ v) :: es' => received es' ++ [v] | _ :: es' => received es' end.

  (** How the channel is used: all RecvRefs are dropped by the receiver's thread, no
      waiting send is cancelled or times out, waiting sends are polled (their threads return from park) only
      when they were woken, new_element and recycle do not panic. *)
  Definition one_receiver (es : list cevent) : Prop := WaitQueueSpec.one_notifier 0 (queue_of es).
  Definition no_cancel (es : list cevent) : Prop := forall i, ~ In (Cancelled i) es.
  Fixpoint no_spurious (es : list cevent) : Prop :=
    match es with
    | [] => True
    | OnQueue (WaitQueueModel.ECont i _) :: es' => WaitQueueSpec.due i (queue_of es') = true /\ no_spurious es'
    | _ :: es' => no_spurious es'
    end.
  Definition no_user_panic (es : list cevent) : Prop := forall i, ~ In (OnRing (Poison i)) es.

  (** Nothing touched a released waiter (C28 says when this is the case); the
      word-size condition of the ring. *)
  Definition memory_ok (es : list cevent) : Prop := WaitQueueSpec.no_ub (queue_of es).
  Definition ring_calm (W : N) (cap : nat) (es : list cevent) : Prop := calm (CoreArith.slack W cap) (ring_of es).
End Spec.
