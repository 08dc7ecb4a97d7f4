(** A whole channel on weak memory: the ring, the receiver's wait cell and the sender count ([WeakChannelModel]) together
    with the queue of waiting senders ([WeakQueueModel]), as in /repo/src/mpsc.rs, async_impl.rs and blocking.rs.  No proofs
    here.

    Modelled: everything in [WeakChannelModel]; send_ref that waits for capacity (/repo/src/mpsc/async_impl.rs:1436-1489,
    /repo/src/mpsc/blocking.rs:1651-1698), its cancellation and its timeout; the notification of a waiting sender when
    a RecvRef is dropped (/repo/src/mpsc.rs:288-309, 567-573); closing the queue when the Receiver is dropped (339-345).
    Not modelled: RecvRefs dropped by another thread than the receiver's (see C41 for what goes wrong).

    A waiting sender's views of the ring and of the queue are independent of each other, except that [AExt] may make
    anything visible in the ring at any time: what the queue's mutex and wakeups make visible there is one of those. *)
From Coq Require Import List Bool Arith NArith.
From Verif Require Import Word QueueSpec CoreModel WaitCellModel WaitList WaitQueueModel WeakModel WeakCellModel WeakQueueModel WeakChannelModel.
Import ListNotations.

(** Which attempt of send_ref: the one before the waiter exists (blocking.rs:1658-1662); with the waiter not in the queue
    (async_impl.rs:1443-1466, blocking.rs:1676-1677); after it was in the queue (async_impl.rs:1467-1487, blocking.rs:1678-1680). *)
Inductive attempt := Fast | Fresh | Queued.

(** Where a send_ref that may wait is: not started; before the waiter is created; before, in try_send_ref; before, in
    start_wait or continue_wait; told to wait; being cancelled (async_impl.rs:1494-1502); over (its SendRef, if it returned one,
    belongs to the caller). *)
Inductive opstage := ONone | ONew | OAgain (q : attempt) | OPush (q : attempt) | OCall (q : attempt) | OWait (q : attempt)
  | OPark | OCancel | OEnd.

(** Where the receiver is, as far as the queue is concerned: not there; a RecvRef was dropped and tx_wait.notify() comes next
    (/repo/src/mpsc.rs:567-573); in notify; the ring was closed and tx_wait.close() comes next (343); in close; gone. *)
Inductive rxstage := XFree | XNote | XNotify | XClosing | XClose | XGone.

(** Events: those of the receiving side and of the queue; a send starts, is given up. *)
Inductive zevent {T : Type} :=
| ZY (e : yevent (T := T))
| ZQ (e : qevent)
| ZSending (i j : nat)
| ZCancelled (i : nat).

Section Whole.
  Context {T : Type}.
  Variables (P : params) (pol : policy T) (debug : bool) (o : chan_orders).
  Variable async : bool.  (* async_impl.rs or blocking.rs *)

  Notation event' := (zevent (T := T)).

  (** ChannelCore (/repo/src/mpsc.rs:261-266): ring, cell and count; the queue; where every send is, and with which Sender; which
      send uses a Sender; where the receiver is.  Send [i] is agent [i] of the queue; the receiver is agent 0. *)
  Record zstate := mkZ {
    z_y : ystate (T := T);
    z_q : wqueue;
    z_op : nat -> opstage;
    z_by : nat -> nat;
    z_use : nat -> option nat;
    z_rx : rxstage }.

  (** Update of one component. *)
  Definition on_y (s : zstate) (y : ystate (T := T)) : zstate := mkZ y (z_q s) (z_op s) (z_by s) (z_use s) (z_rx s).
  Definition on_q (s : zstate) (q : wqueue) : zstate := mkZ (z_y s) q (z_op s) (z_by s) (z_use s) (z_rx s).
  Definition on_op (s : zstate) (i : nat) (x : opstage) : zstate := mkZ (z_y s) (z_q s) (pset (z_op s) i x) (z_by s) (z_use s) (z_rx s).
  Definition on_rx (s : zstate) (x : rxstage) : zstate := mkZ (z_y s) (z_q s) (z_op s) (z_by s) (z_use s) x.
  (** Send [i] starts with Sender [j]; is over: the Sender is no longer borrowed (async_impl.rs:1436, blocking.rs:1651). *)
  Definition begin (s : zstate) (i j : nat) (x : opstage) : zstate :=
    mkZ (z_y s) (z_q s) (pset (z_op s) i x) (pset (z_by s) i j) (pset (z_use s) j (Some i)) (z_rx s).
  Definition finish (s : zstate) (i : nat) : zstate :=
    mkZ (z_y s) (z_q s) (pset (z_op s) i OEnd) (z_by s) (pset (z_use s) (z_by s i) None) (z_rx s).

  (** try_send_ref was Full (async_impl.rs:1444-1450, 1481-1487; blocking.rs:1658-1691). *)
  Definition after_full (q : attempt) : opstage :=
    match q with
    | Fast => ONew
    | Fresh => OCall Fresh
    | Queued => if async then OAgain Fresh else OCall Queued
    end.

  (** The next step of a send in try_send_ref gave [evs] and left the ring in [r] (/repo/src/mpsc.rs:352-363). *)
  Definition after_push (s : zstate) (i : nat) (q : attempt) (evs : list (yevent (T := T))) : zstate :=
    match evs with
    | [YR (RetFull _)] => on_op s i (after_full q)
    | [YR (RetPushClosed _)] => finish s i
    | _ => match w_pcs (y_ring (z_y s)) (tx_agent (z_by s i)) with PHold _ => finish s i | _ => s end
    end.

  (** The result of start_wait or continue_wait (async_impl.rs:1450-1480, blocking.rs:1682-1696); a failed debug assertion ends the
      send. *)
  Definition after_wait (s : zstate) (i : nat) (q : attempt) (e : option qevent) : zstate :=
    match e with
    | Some (ERet _ Wait) => on_op s i OPark
    | Some (ERet _ Notified) => on_op s i (OAgain q)
    | Some (ERet _ Closed) | Some (EAssert _) | Some (EUb _) => finish s i
    | _ => s
    end.

  Definition zys (l : list (yevent (T := T))) : list event' := map ZY l.
  Definition zqs (e : option qevent) : list event' := match e with Some x => [ZQ x] | None => [] end.

  Definition y_do (s : zstate) (a : yaction (T := T)) (f : zstate -> list (yevent (T := T)) -> zstate) : option (zstate * list event') :=
    match ystep P pol debug o async (z_y s) a with
    | Some (y', evs) => Some (f (on_y s y') evs, zys evs)
    | None => None
    end.
  Definition q_do (s : zstate) (a : wqaction) (f : zstate -> option qevent -> zstate) : option (zstate * list event') :=
    match wq_step debug (z_q s) a with
    | Some (q', e) => Some (f (on_q s q') e, zqs e)
    | None => None
    end.

  (** Is the Sender not borrowed by a send that may wait?  Is the receiver's thread not in the queue? *)
  Definition unused (s : zstate) (j : nat) : bool := match z_use s j with None => true | Some _ => false end.
  Definition rx_here (s : zstate) : bool := match z_rx s with XFree => true | _ => false end.

  (** What happens as in [WeakChannelModel]: by Senders that are not in a send that may wait (a clone can be made of
      any), and by the receiver when it is not in the queue. *)
  Definition plain (s : zstate) (a : yaction (T := T)) : bool :=
    match a with
    | ASend j | APush j _ _ | AWrite j _ | ACommit j | AForget j _ | APanic j _ | ANotify j _ | ADropTx j | AClose j _ => unused s j
    | AClone _ _ | ARefWrite _ _ | AExt _ _ => true
    | APoll _ | ATry | AAbandon | ARecv _ _ | AWait _ => rx_here s
    | ARefDrop _ | ADropRx _ => false
    end.

  (** Is there a RecvRef?  (It borrows the Receiver, /repo/src/mpsc.rs:288-306, so the Receiver cannot be dropped.) *)
  Definition has_ref (s : zstate) : bool :=
    existsb (fun a => match w_pcs (y_ring (z_y s)) (rx_agent a) with QHold _ => true | _ => false end) (seq 0 (S (y_me (z_y s)))).

  (** What may happen.
      - [DoY a]: see [plain]
      - [DoSend i j]: Sender [j] is used to send and to wait if need be (Sender::send, send_ref)
      - [DoNew i]: the waiter is created; [DoTry i], [DoPush i k spur]: try_send_ref; [DoPanic i j']: new_element or recycle panics in it
      - [DoCall i w sync]: start_wait, or - also when the send was told to wait and is polled again or its thread returns
        from park - continue_wait, see [WeakQueueModel.ACall]; [DoStep i k]: a step in it, see [WeakQueueModel.AStep]
      - [DoFree i]: the waiter of a send that is over is released
      - [DoCancel i], [DoTimeout i]: a waiting send is dropped (async_impl.rs:1494-1502), times out (blocking.rs:1746-1750)
      - [DoRefDrop a], [DoNotify]: the receiver's thread drops a RecvRef, which calls tx_wait.notify()
      - [DoDropRx panicking], [DoClose]: the Receiver is dropped, which calls tx_wait.close()
      - [DoRx k]: a step of the receiver's thread in notify or close. *)
  Inductive zaction :=
  | DoY (a : yaction (T := T))
  | DoSend (i j : nat)
  | DoNew (i : nat)
  | DoTry (i : nat)
  | DoPush (i k : nat) (spur : bool)
  | DoPanic (i j' : nat)
  | DoCall (i : nat) (w : waker) (sync : bool)
  | DoStep (i : nat) (k : option nat)
  | DoFree (i : nat)
  | DoCancel (i : nat)
  | DoTimeout (i : nat)
  | DoRefDrop (a : nat)
  | DoNotify
  | DoDropRx (panicking : bool)
  | DoClose
  | DoRx (k : option nat).

  (** Effect of each; the lines are given with the actions and the stages. *)
  Definition zstep (s : zstate) (a : zaction) : option (zstate * list event') :=
    match a with
    | DoY a => if plain s a then y_do s a (fun s _ => s) else None
    | DoSend i j =>
        match i, z_op s i, y_tx (z_y s) j, z_use s j with
        | S _, ONone, SIdle, None => Some (begin s i j (if async then ONew else OAgain Fast), [ZSending i j])
        | _, _, _, _ => None
        end
    | DoNew i =>
        match z_op s i with
        | ONew => q_do s (ACall (QNew i) false) (fun s _ => on_op s i (if async then OAgain Fresh else OCall Fresh))
        | _ => None
        end
    | DoTry i =>
        match z_op s i with
        | OAgain q => y_do s (ASend (z_by s i)) (fun s _ => on_op s i (OPush q))
        | _ => None
        end
    | DoPush i k spur =>
        match z_op s i with
        | OPush q => y_do s (APush (z_by s i) k spur) (fun s evs => after_push s i q evs)
        | _ => None
        end
    | DoPanic i j' =>
        match z_op s i with
        | OPush _ => y_do s (APanic (z_by s i) j') (fun s _ => finish s i)
        | _ => None
        end
    | DoCall i w sync =>
        match z_op s i with
        | OCall Fresh => q_do s (ACall (WaitQueueModel.QStart i w) sync) (fun s _ => on_op s i (OWait Fresh))
        | OCall Queued | OPark => q_do s (ACall (QCont i w) sync) (fun s _ => on_op s i (OWait Queued))
        | _ => None
        end
    | DoStep i k =>
        match z_op s i with
        | OWait q => q_do s (AStep i k) (fun s e => after_wait s i q e)
        | OCancel => q_do s (AStep i k) (fun s e => match e with Some (EFreed _) | Some (EAssert _) | Some (EUb _) => finish s i | _ => s end)
        | _ => None
        end
    | DoFree i =>
        match z_op s i with
        | OEnd => q_do s (ACall (QFree i) false) (fun s _ => s)
        | _ => None
        end
    | DoCancel i =>
        match z_op s i, async with
        | OPark, true =>
            match q_do s (ACall (QDrop i) false) (fun s _ => on_op s i OCancel) with
            | Some (s', evs) => Some (s', ZCancelled i :: evs)
            | None => None
            end
        | _, _ => None
        end
    | DoTimeout i =>
        match z_op s i, async with
        | OPark, false =>
            match q_do s (ACall (QTimeout i) false) (fun s _ => finish s i) with
            | Some (s', evs) => Some (s', ZCancelled i :: evs)
            | None => None
            end
        | _, _ => None
        end
    | DoRefDrop a =>
        if rx_here s && rx_free (y_rx (z_y s)) then y_do s (ARefDrop a) (fun s _ => on_rx s XNote) else None
    | DoNotify =>
        match z_rx s with
        | XNote => q_do s (ACall (QNotify 0) false) (fun s _ => on_rx s XNotify)
        | _ => None
        end
    | DoDropRx panicking =>
        if rx_here s && negb (has_ref s)
        then y_do s (ADropRx panicking)
               (fun s evs => on_rx s (match evs with [YR (Closing _ true)] => XClosing | _ => XGone end))
        else None
    | DoClose =>
        match z_rx s with
        | XClosing => q_do s (ACall (QClose 0) false) (fun s _ => on_rx s XClose)
        | _ => None
        end
    | DoRx k =>
        match z_rx s with
        | XNotify => q_do s (AStep 0 k) (fun s e => match e with Some (ERetNotify _ _) => on_rx s XFree | Some (EAssert _) | Some (EUb _) => on_rx s XGone | _ => s end)
        | XClose => q_do s (AStep 0 k) (fun s e => match e with Some (ERetClose _) | Some (EAssert _) | Some (EUb _) => on_rx s XGone | _ => s end)
        | _ => None
        end
    end.

  (** A new channel (/repo/src/mpsc.rs:315-322). *)
  Definition zinit : zstate := mkZ (yinit P) wq_init (fun _ => ONone) (fun _ => 0) (fun _ => None) XFree.

  (** Executions; events most recent first. *)
  Inductive zrun : list event' -> zstate -> Prop :=
  | zrun_init : zrun [] zinit
  | zrun_step zs s a s' evs : zrun zs s -> zstep s a = Some (s', evs) -> zrun (evs ++ zs) s'.

  (** Executable version, for examples. *)
  Fixpoint zexec (s : zstate) (zs : list event') (l : list zaction) : option (zstate * list event') :=
    match l with
    | [] => Some (s, zs)
    | a :: l' => match zstep s a with
                 | Some (s', evs) => zexec s' (evs ++ zs) l'
                 | None => None
                 end
    end.
End Whole.

(** The events of the receiving side and of the queue in a history. *)
Fixpoint y_events {T} (zs : list (zevent (T := T))) : list (yevent (T := T)) :=
  match zs with [] => [] | ZY e :: l => e :: y_events l | _ :: l => y_events l end.
Fixpoint q_events {T} (zs : list (zevent (T := T))) : list qevent :=
  match zs with [] => [] | ZQ e :: l => e :: q_events l | _ :: l => q_events l end.
