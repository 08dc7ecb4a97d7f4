(** The channel: ring, receiver's wait cell, senders' wait queue and sender
    count put together (/repo/src/mpsc.rs, /repo/src/mpsc/blocking.rs,
    /repo/src/mpsc/async_impl.rs).  No proofs here.

    Every step of the channel performs at most one step of one component, so the
    models of the components are used as they are, and every interleaving of the
    components' single accesses is possible. *)
From Coq Require Import List Bool Arith NArith.
From Verif Require Import QueueSpec CoreModel WaitCellModel.
From Verif Require WaitQueueModel.
Import ListNotations.

(** Identifiers.  A process with an odd number is one call of a send operation
    (and what is done with its SendRef), one drop of a Sender, or one RecvRef
    dropped by another thread than the receiver's.  The receiver is process 0 on
    the cell and the queue.  Even numbers name RecvRefs on the ring.
    Simplification: the operations of the receiver itself (try_recv, recv, dropping
    RecvRefs, dropping the Receiver) are made by one thread. *)

(** What [send_ref] remembers between two attempts.
    - [SFast]    first attempt of the blocking send_ref, no waiter yet (blocking.rs:1658-1662)
    - [SUnq]     the waiter exists and is not queued (blocking.rs:1665 [unqueued = true]; async_impl.rs State::Start)
    - [SQueued]  start_wait returned Wait (blocking.rs:1693 [unqueued = false]; async_impl.rs State::Waiting and State::Done)
    - [STry]     try_send_ref (mpsc.rs:352-364), which never waits. *)
Inductive sstage := SFast | SUnq | SQueued | STry.

(** Program counters of the odd processes: send_ref and send (blocking.rs:1651-1698,
    async_impl.rs:1436-1490), Drop for Sender (async_impl.rs:271-282, blocking.rs:1245-1257), Drop for
    SendRef and RecvRef (mpsc.rs:268-306, 559-573). *)
Inductive tpc :=
| TNone
| TNew                    (* about to create the waiter: blocking.rs:1664, async_impl.rs SendRefFuture *)
| TAgain (st : sstage)    (* about to call push_ref *)
| TPush (st : sstage)     (* inside push_ref *)
| TCall (st : sstage)     (* about to call start_wait / continue_wait: blocking.rs:1676-1680, async_impl.rs:1450,1468 *)
| TWait (st : sstage)     (* inside it *)
| TPark                   (* told Wait: parked (blocking.rs:1682-1696) or Pending (async_impl.rs:1443-1480) *)
| THold                   (* SendRef handed out *)
| TDropped                (* its slot field was dropped, its NotifyRx not yet (mpsc.rs:284-285) *)
| TNotify                 (* inside rx_wait.notify(): mpsc.rs:559-565 *)
| TCancel                 (* a waiting future is being dropped: async_impl.rs:1494-1502 *)
| TEnd                    (* returned; SendRef, if any, dropped *)
| TDead                   (* unwound by a panic *)
| XClose (pan : bool)     (* last Sender dropped, about to close the core: async_impl.rs:279, blocking.rs:1254 *)
| XTx                     (* about to call close_tx: async_impl.rs:280, blocking.rs:1255 *)
| XIn                     (* inside it *)
| UDropped                (* RecvRef dropped elsewhere: slot released, NotifyTx not dropped yet (mpsc.rs:304-305) *)
| UNotify.                (* inside tx_wait.notify(): mpsc.rs:567-573 *)

(** poll_recv_ref (mpsc.rs:404-451): which of its pop_ref calls this is.
    [KTry]: try_recv_ref (mpsc.rs:379-387). *)
Inductive rstage :=
| KTry
| KFirst (w : waker)      (* 426 *)
| KAgain (w : waker)      (* 434 *)
| KLast.                  (* 442 *)

(** Program counters of the receiver: poll_recv_ref (mpsc.rs:404-451), try_recv_ref (379-387), the drop
    of a RecvRef (567-573) and of the Receiver (339-345). *)
Inductive rpc :=
| RIdle
| RAgain (h : nat) (k : rstage)   (* about to call pop_ref for RecvRef [h] *)
| RPop (h : nat) (k : rstage)     (* inside pop_ref *)
| RCall (h : nat) (w : waker)     (* about to call wait_with: mpsc.rs:429 *)
| RWait (h : nat) (w : waker)     (* inside it *)
| RPark (w : waker)               (* poll_recv_ref returned Pending (mpsc.rs:436): parked (blocking.rs:1612) *)
| RDropped                        (* RecvRef: slot released, NotifyTx not dropped yet *)
| RNotify                         (* inside tx_wait.notify() *)
| RClosing (pan : bool)           (* Receiver dropped: mpsc.rs:340 *)
| RCloseQ                         (* about to call tx_wait.close(): mpsc.rs:343 *)
| RInClose                        (* inside it *)
| RGone                           (* dropped *)
| RDead.                          (* a debug assertion failed *)

(** What a send returns (mpsc.rs:352-364, blocking.rs:1651-1698, async_impl.rs:1436-1490). *)
Inductive sres := SentOk | SentFull | SentClosed.
(** What the receiver's calls return (mpsc.rs:379-451, blocking.rs:1599-1616, async_impl.rs:1389-1403). *)
Inductive rres (T : Type) :=
| RecvMsg (h : nat) (v : T)   (* Ok / Some / Ready(Some): RecvRef [h] shows [v] *)
| RecvNone                    (* None / Ready(None) *)
| RecvPending                 (* Pending, the thread parks *)
| RecvEmpty                   (* try_recv: Empty *)
| RecvClosed.                 (* try_recv: Closed *)
Arguments RecvMsg {T}. Arguments RecvNone {T}. Arguments RecvPending {T}.
Arguments RecvEmpty {T}. Arguments RecvClosed {T}.

(** Events: those of the components, and the calls and results of the channel.
    [Recving h (Some w)]: recv or poll_recv with waker [w]; [Recving h None]: try_recv.
    [TxDropped i n pan]: a Sender is dropped by [i], by a thread that is unwinding if [pan], and [n]
    are left. *)
Inductive cevent (T : Type) :=
| OnRing (e : event T)
| OnCell (e : wevent)
| OnQueue (e : WaitQueueModel.qevent)
| Sending (i : nat) (try : bool)
| Sent (i : nat) (r : sres)
| Cancelled (i : nat)
| Recving (h : nat) (w : option waker)
| Recvd (r : rres T)
| TxCloned
| TxDropped (i n : nat) (pan : bool)
| RxDropped (pan : bool).
Arguments OnRing {T}. Arguments OnCell {T}. Arguments OnQueue {T}. Arguments Sending {T}. Arguments Sent {T}.
Arguments Cancelled {T}. Arguments Recving {T}. Arguments Recvd {T}. Arguments TxCloned {T}. Arguments TxDropped {T}.
Arguments RxDropped {T}.

(** What a caller learns from a component's event ([None]: the call goes on), here from push_ref
    (/repo/src/lib.rs:177-281). *)
Inductive pushed := PushFull | PushClosed | PushOk.
(** Result<Ref, TrySendError> (/repo/src/lib.rs:177-281). *)
Definition push_ret {T} (e : option (event T)) : option pushed :=
  match e with
  | Some (RetFull _) => Some PushFull
  | Some (RetPushClosed _) => Some PushClosed
  | Some (HandOut _ _) | Some (Overwrite _ _ _) => Some PushOk
  | _ => None
  end.
(** The same for pop_ref (/repo/src/lib.rs:284-368). *)
Inductive popped (T : Type) := PopMsg (v : T) | PopClosed | PopEmpty.
Arguments PopMsg {T}. Arguments PopClosed {T}. Arguments PopEmpty {T}.
(** Result<Ref, TryRecvError> (/repo/src/lib.rs:284-368). *)
Definition pop_ret {T} (e : option (event T)) : option (popped T) :=
  match e with
  | Some (Take _ v) => Some (PopMsg v)
  | Some (RetPopClosed _) => Some PopClosed
  | Some (RetEmpty _) => Some PopEmpty
  | _ => None
  end.
(** bool (/repo/src/lib.rs:168-174). *)
Definition close_ret {T} (e : option (event T)) : bool := match e with Some (Closing _ b) => b | _ => false end.
(** Results of the calls on the wait cell and the wait queue: a WaitResult, done,
    or unwound by a failed debug assertion. *)
Inductive called := Got (r : wait_result) | Done | Failed.
(** Result of wait_with (wait/cell.rs:65), notify (152), close_tx (156). *)
Definition cell_ret (e : option wevent) : option called :=
  match e with
  | Some (RetWait _ r) => Some (Got r)
  | Some (RetNotify _ _) => Some Done
  | Some (Asserted _) => Some Failed
  | _ => None
  end.
(** Result of start_wait (wait/queue.rs:188), continue_wait (301), notify (370), close (443). *)
Definition queue_ret (e : option WaitQueueModel.qevent) : option called :=
  match e with
  | Some (WaitQueueModel.ERet _ r) => Some (Got r)
  | Some (WaitQueueModel.ERetNotify _ _) | Some (WaitQueueModel.ERetClose _) | Some (WaitQueueModel.EFreed _) => Some Done
  | Some (WaitQueueModel.EAssert _) | Some (WaitQueueModel.EUb _) => Some Failed
  | _ => None
  end.

Section Channel.
  Context {T : Type}.
  Variables (P : params) (pol : policy T).
  Variable async : bool.   (* mpsc::channel or mpsc::blocking::channel *)
  Variable debug : bool.   (* cfg(debug_assertions) *)

  (** ChannelCore (/repo/src/mpsc.rs:261-266) and where everybody is.
      [ch_count] is tx_count (/repo/src/mpsc.rs:265); that it never wraps is the subject of
      TxCount.v.  [ch_live], [ch_refs], [ch_out] are what the borrow checker
      knows: the sends in progress (each borrows a Sender), the RecvRefs (each
      borrows the Receiver), and the RecvRefs being dropped elsewhere. *)
  Record chan := mkChan {
    ch_ring : @state T;
    ch_cell : wsys;
    ch_queue : WaitQueueModel.qsys;
    ch_tx : nat -> tpc;
    ch_rx : rpc;
    ch_count : nat;
    ch_live : list nat;
    ch_refs : list nat;
    ch_out : list nat }.

  (** Updates of single fields of ChannelCore (mpsc.rs:261-266): core. *)
  Definition on_ring s v := mkChan v (ch_cell s) (ch_queue s) (ch_tx s) (ch_rx s) (ch_count s) (ch_live s) (ch_refs s) (ch_out s).
  (** rx_wait. *)
  Definition on_cell s v := mkChan (ch_ring s) v (ch_queue s) (ch_tx s) (ch_rx s) (ch_count s) (ch_live s) (ch_refs s) (ch_out s).
  (** tx_wait. *)
  Definition on_queue s v := mkChan (ch_ring s) (ch_cell s) v (ch_tx s) (ch_rx s) (ch_count s) (ch_live s) (ch_refs s) (ch_out s).
  (** Process [i] moves to [p]. *)
  Definition tset (f : nat -> tpc) (i : nat) (p : tpc) : nat -> tpc := fun j => if Nat.eqb j i then p else f j.
  (** Process [i] of the channel moves to [p]. *)
  Definition on_tx s i p :=
    mkChan (ch_ring s) (ch_cell s) (ch_queue s) (tset (ch_tx s) i p) (ch_rx s) (ch_count s) (ch_live s) (ch_refs s) (ch_out s).
  (** The receiver moves to [p]. *)
  Definition on_rx s p :=
    mkChan (ch_ring s) (ch_cell s) (ch_queue s) (ch_tx s) p (ch_count s) (ch_live s) (ch_refs s) (ch_out s).
  (** tx_count. *)
  Definition on_count s n :=
    mkChan (ch_ring s) (ch_cell s) (ch_queue s) (ch_tx s) (ch_rx s) n (ch_live s) (ch_refs s) (ch_out s).
  (** The borrows of Senders, Receiver and RecvRefs (no run-time counterpart). *)
  Definition on_live s l :=
    mkChan (ch_ring s) (ch_cell s) (ch_queue s) (ch_tx s) (ch_rx s) (ch_count s) l (ch_refs s) (ch_out s).
  (** The outstanding RecvRefs (no run-time counterpart). *)
  Definition on_refs s l :=
    mkChan (ch_ring s) (ch_cell s) (ch_queue s) (ch_tx s) (ch_rx s) (ch_count s) (ch_live s) l (ch_out s).
  (** The RecvRefs being dropped by other threads (no run-time counterpart). *)
  Definition on_out s l :=
    mkChan (ch_ring s) (ch_cell s) (ch_queue s) (ch_tx s) (ch_rx s) (ch_count s) (ch_live s) (ch_refs s) l.

  (** ChannelCore::new (/repo/src/mpsc.rs:315-322): one Sender. *)
  Definition chan_init : chan :=
    mkChan (init_state P) winit WaitQueueModel.q_init (fun _ => TNone) RIdle 1 [] [] [].

  (** Removes a borrow. *)
  Definition drop_id (i : nat) (l : list nat) : list nat := filter (fun j => negb (Nat.eqb j i)) l.

  (** The send is over: its borrow of the Sender ends (mpsc.rs:268-286). *)
  Definition finish s i p := on_live (on_tx s i p) (drop_id i (ch_live s)).

  (** An optional event as a list. *)
  Definition olist {A} (o : option A) : list A := match o with Some x => [x] | None => [] end.
  (** The channel afterwards and the events, most recent first; [None]: not possible now. *)
  Definition result := option (chan * list (cevent T)).

  (** One step of a component (here the ring), followed by the local consequence [k] of its
      event. *)
  Definition ring_do (s : chan) (a : action) (k : chan -> option (event T) -> chan * list (cevent T)) : result :=
    match step P pol (ch_ring s) a with
    | Some (r, e) => let '(s', l) := k (on_ring s r) e in Some (s', l ++ map OnRing (olist e))
    | None => None
    end.
  (** The same for the wait cell. *)
  Definition cell_do (s : chan) (a : waction) (k : chan -> option wevent -> chan * list (cevent T)) : result :=
    match wstep_sys debug (ch_cell s) a with
    | Some (c, e) => let '(s', l) := k (on_cell s c) e in Some (s', l ++ map OnCell (olist e))
    | None => None
    end.
  (** The same for the wait queue. *)
  Definition queue_do (s : chan) (a : WaitQueueModel.qaction)
      (k : chan -> option WaitQueueModel.qevent -> chan * list (cevent T)) : result :=
    match WaitQueueModel.qstep_sys debug (ch_queue s) a with
    | Some (q, e) => let '(s', l) := k (on_queue s q) e in Some (s', l ++ map OnQueue (olist e))
    | None => None
    end.

  (** After push_ref returned Full (blocking.rs:1658-1664, 1682-1696; async_impl.rs:1444-1450, 1481-1487). *)
  Definition after_full s i st : chan * list (cevent T) :=
    match st with
    | STry => (finish s i TEnd, [Sent i SentFull])
    | SFast => (on_tx s i TNew, [])
    | SUnq => (on_tx s i (TCall SUnq), [])
    | SQueued => (on_tx s i (if async then TAgain SUnq else TCall SQueued), [])
    end.

  (** After start_wait / continue_wait (blocking.rs:1682-1696; async_impl.rs:1450-1480). *)
  Definition after_wait s i st r : chan * list (cevent T) :=
    match r with
    | Closed => (finish s i TEnd, [Sent i SentClosed])
    | Notified => (on_tx s i (TAgain st), [])
    | Wait => (on_tx s i TPark, [])
    end.

  (** The next step of process [i]; [w] is the waker it passes, if it passes one.  The lines are given
      with [tpc].
      Simplifications: backoff pauses are omitted; [thread::current()] is any waker. *)
  Definition tx_step (s : chan) (i : nat) (w : waker) (spur : bool) : result :=
    match ch_tx s i with
    | TNew => queue_do s (WaitQueueModel.QNew i) (fun s _ => (on_tx s i (if async then TAgain SUnq else TCall SUnq), []))
    | TAgain st => ring_do s (AInvoke i OpPush) (fun s _ => (on_tx s i (TPush st), []))
    | TPush st =>
        ring_do s (AStep i spur) (fun s e =>
          match push_ret e with
          | Some PushFull => after_full s i st
          | Some PushClosed => (finish s i TEnd, [Sent i SentClosed])
          | Some PushOk => (on_tx s i THold, [Sent i SentOk])
          | None => (s, [])
          end)
    | TCall st =>
        queue_do s (match st with SQueued => WaitQueueModel.QCont i w | _ => WaitQueueModel.QStart i w end)
          (fun s _ => (on_tx s i (TWait st), []))
    | TWait st =>
        queue_do s (WaitQueueModel.QStep i spur) (fun s e =>
          match queue_ret e with
          | Some (Got r) => after_wait s i st r
          | Some Failed => (finish s i TDead, [])
          | _ => (s, [])
          end)
    | TDropped => cell_do s (WANotify i false) (fun s _ => (on_tx s i TNotify, []))
    | TNotify =>
        cell_do s (WAStep i) (fun s e =>
          match cell_ret e with
          | Some Done => (finish s i TEnd, [])
          | _ => (s, [])
          end)
    | TCancel =>
        queue_do s (WaitQueueModel.QStep i spur) (fun s e =>
          match queue_ret e with
          | Some Done => (finish s i TEnd, [])
          | Some Failed => (finish s i TDead, [])
          | _ => (s, [])
          end)
    | XClose pan =>
        ring_do s (AClose i pan) (fun s e =>
          (on_tx s i (if async || close_ret e then XTx else TEnd), []))
    | XTx => cell_do s (WANotify i true) (fun s _ => (on_tx s i XIn, []))
    | XIn =>
        cell_do s (WAStep i) (fun s e =>
          match cell_ret e with
          | Some Done => (on_tx s i TEnd, [])
          | _ => (s, [])
          end)
    | UDropped => queue_do s (WaitQueueModel.QNotify i) (fun s _ => (on_tx s i UNotify, []))
    | UNotify =>
        queue_do s (WaitQueueModel.QStep i spur) (fun s e =>
          match queue_ret e with
          | Some Done => (on_out (on_tx s i TEnd) (drop_id i (ch_out s)), [])
          | Some Failed => (on_out (on_tx s i TDead) (drop_id i (ch_out s)), [])
          | _ => (s, [])
          end)
    | TNone | TPark | THold | TEnd | TDead => None
    end.

  (** The next step of the receiver inside poll_recv_ref / try_recv_ref
      (/repo/src/mpsc.rs:379-451), inside the drop of a RecvRef (567-573) or of
      the Receiver (339-345). *)
  Definition rx_step (s : chan) (spur : bool) : result :=
    match ch_rx s with
    | RAgain h k => ring_do s (AInvoke h OpPop) (fun s _ => (on_rx s (RPop h k), []))
    | RPop h k =>
        ring_do s (AStep h spur) (fun s e =>
          match pop_ret e with
          | Some (PopMsg v) => (on_refs (on_rx s RIdle) (h :: ch_refs s), [Recvd (RecvMsg h v)])
          | Some PopClosed => (on_rx s RIdle, [Recvd (match k with KTry => RecvClosed | _ => RecvNone end)])
          | Some PopEmpty =>
              match k with
              | KTry => (on_rx s RIdle, [Recvd RecvEmpty])
              | KFirst w => (on_rx s (RCall h w), [])
              | KAgain w => (on_rx s (RPark w), [Recvd RecvPending])
              | KLast => (on_rx s RIdle, [Recvd RecvNone])
              end
          | None => (s, [])
          end)
    | RCall h w => cell_do s (WACall 0 w false) (fun s _ => (on_rx s (RWait h w), []))
    | RWait h w =>
        cell_do s (WAStep 0) (fun s e =>
          match cell_ret e with
          | Some (Got Wait) => (on_rx s (RAgain h (KAgain w)), [])
          | Some (Got Closed) => (on_rx s (RAgain h KLast), [])
          | Some (Got Notified) => (on_rx s (RAgain h (KFirst w)), [])
          | Some Failed => (on_rx s RDead, [])
          | _ => (s, [])
          end)
    | RDropped => queue_do s (WaitQueueModel.QNotify 0) (fun s _ => (on_rx s RNotify, []))
    | RNotify =>
        queue_do s (WaitQueueModel.QStep 0 spur) (fun s e =>
          match queue_ret e with
          | Some Done => (on_rx s RIdle, [])
          | Some Failed => (on_rx s RDead, [])
          | _ => (s, [])
          end)
    | RClosing pan =>
        ring_do s (AClose 0 pan) (fun s e =>
          (on_rx s (if close_ret e then RCloseQ else RGone), []))
    | RCloseQ => queue_do s (WaitQueueModel.QClose 0) (fun s _ => (on_rx s RInClose, []))
    | RInClose =>
        queue_do s (WaitQueueModel.QStep 0 spur) (fun s e =>
          match queue_ret e with
          | Some Done => (on_rx s RGone, [])
          | Some Failed => (on_rx s RDead, [])
          | _ => (s, [])
          end)
    | RIdle | RPark _ | RGone | RDead => None
    end.

  (** The receiver is free to call something: it is idle, or its last poll
      returned Pending (polling again, parking and being woken, spuriously or not, or
      giving up on the future). *)
  Definition rx_free (s : chan) : bool := match ch_rx s with RIdle | RPark _ => true | _ => false end.
  (** No borrow is left. *)
  Definition nil_b (l : list nat) : bool := match l with [] => true | _ => false end.
  (** [i] is the number of a process that has not been used. *)
  Definition fresh_tx (s : chan) (i : nat) : bool := Nat.odd i && match ch_tx s i with TNone => true | _ => false end.

  (** What may happen.
      - [CSend i try]    somebody who has a Sender calls try_send_ref or send_ref
      - [CTx i w spur]   process [i] makes its next step
      - [CResume i]      a parked send is polled again / its thread returns from park, for whatever reason
      - [CDropSendRef i] the SendRef is dropped: Ref::drop, its first field (mpsc.rs:284)
      - [CWrite j v]     somebody writes through SendRef or RecvRef [j]
      - [CPanic i]       new_element / recycle panics inside push_ref
      - [CFree i]        the waiter of a send that is over is released (blocking.rs:1686, async_impl.rs:1494-1502
                         when not waiting); here at any time after the send returned
      - [CCancel i]      a waiting send future is dropped (async_impl.rs:1494-1502)
      - [CTimeout i]     a timed send gives up after Wait (blocking.rs:1746-1750)
      - [CClone]         a Sender is cloned (async_impl.rs:262, blocking.rs:1237)
      - [CDropTx i pan]  a Sender is dropped, by a thread that is unwinding if [pan]
                         (async_impl.rs:271-282, blocking.rs:1245-1257); the last one only
                         when no send borrows it
      - [CRecv h w], [CTryRecv h]  recv_ref / poll_recv_ref with waker [w], try_recv_ref
      - [CRx spur]       the receiver makes its next step
      - [CDropRef h]     the receiver drops RecvRef [h]: Ref::drop, its first field (mpsc.rs:304)
      - [CDropRefOn h i] another thread does
      - [CDropRx pan]    the Receiver is dropped, which no RecvRef borrows. *)
  Inductive caction :=
  | CSend (i : nat) (try : bool)
  | CTx (i : nat) (w : waker) (spur : bool)
  | CResume (i : nat)
  | CDropSendRef (i : nat)
  | CWrite (j : nat) (v : T)
  | CPanic (i : nat)
  | CFree (i : nat)
  | CCancel (i : nat)
  | CTimeout (i : nat)
  | CClone
  | CDropTx (i : nat) (pan : bool)
  | CRecv (h : nat) (w : waker)
  | CTryRecv (h : nat)
  | CRx (spur : bool)
  | CDropRef (h : nat)
  | CDropRefOn (h i : nat)
  | CDropRx (pan : bool).

  (** [h] names no RecvRef in use. *)
  Definition ring_idle (s : chan) (h : nat) : bool := match st_agents (ch_ring s) h with Idle => true | _ => false end.

  (** Effect of each; the lines are given with the actions above. *)
  Definition cstep_sys (s : chan) (a : caction) : result :=
    match a with
    | CSend i try =>
        if fresh_tx s i && (0 <? ch_count s)
        then Some (on_live (on_tx s i (if try then TAgain STry else if async then TNew else TAgain SFast)) (i :: ch_live s), [Sending i try])
        else None
    | CTx i w spur => tx_step s i w spur
    | CResume i => match ch_tx s i with TPark => Some (on_tx s i (TCall SQueued), []) | _ => None end
    | CDropSendRef i =>
        match ch_tx s i with
        | THold => ring_do s (ADrop i) (fun s _ => (on_tx s i TDropped, []))
        | _ => None
        end
    | CWrite j v => ring_do s (AWrite j v) (fun s _ => (s, []))
    | CPanic i =>
        match ch_tx s i with
        | TPush _ => ring_do s (APanic i) (fun s _ => (finish s i TDead, []))
        | _ => None
        end
    | CFree i =>
        match ch_tx s i with
        | THold | TDropped | TNotify | TEnd => queue_do s (WaitQueueModel.QFree i) (fun s _ => (s, []))
        | _ => None
        end
    | CCancel i =>
        match ch_tx s i with
        | TPark => queue_do s (WaitQueueModel.QDrop i) (fun s _ => (on_tx s i TCancel, [Cancelled i]))
        | _ => None
        end
    | CTimeout i =>
        match ch_tx s i with
        | TPark => queue_do s (WaitQueueModel.QTimeout i) (fun s _ => (finish s i TEnd, [Cancelled i]))
        | _ => None
        end
    | CClone => if 0 <? ch_count s then Some (on_count s (S (ch_count s)), [TxCloned]) else None
    | CDropTx i pan =>
        if fresh_tx s i then
          match ch_count s with
          | 0 => None
          | 1 => if nil_b (ch_live s) then Some (on_count (on_tx s i (XClose pan)) 0, [TxDropped i 0 pan]) else None
          | S n => Some (on_count (on_tx s i TEnd) n, [TxDropped i n pan])
          end
        else None
    | CRecv h w =>
        if rx_free s && Nat.even h && ring_idle s h then Some (on_rx s (RAgain h (KFirst w)), [Recving h (Some w)]) else None
    | CTryRecv h =>
        if rx_free s && Nat.even h && ring_idle s h then Some (on_rx s (RAgain h KTry), [Recving h None]) else None
    | CRx spur => rx_step s spur
    | CDropRef h =>
        if rx_free s && existsb (Nat.eqb h) (ch_refs s)
        then ring_do s (ADrop h) (fun s _ => (on_refs (on_rx s RDropped) (drop_id h (ch_refs s)), []))
        else None
    | CDropRefOn h i =>
        if fresh_tx s i && existsb (Nat.eqb h) (ch_refs s)
        then ring_do s (ADrop h) (fun s _ =>
               (on_out (on_refs (on_tx s i UDropped) (drop_id h (ch_refs s))) (i :: ch_out s), []))
        else None
    | CDropRx pan =>
        if rx_free s && nil_b (ch_refs s) && nil_b (ch_out s) then Some (on_rx s (RClosing pan), [RxDropped pan]) else None
    end.

  (** Executions; events most recent first. *)
  Inductive crun : list (cevent T) -> chan -> Prop :=
  | crun_init : crun [] chan_init
  | crun_step es s a s' l : crun es s -> cstep_sys s a = Some (s', l) -> crun (l ++ es) s'.

  (** What can happen after [s]: the events since, most recent first. *)
  Inductive csteps (s : chan) : list (cevent T) -> chan -> Prop :=
  | csteps_here : csteps s [] s
  | csteps_step l s1 a s2 l' : csteps s l s1 -> cstep_sys s1 a = Some (s2, l') -> csteps s (l' ++ l) s2.

  (** Executable version, for examples. *)
  Fixpoint cexec (s : chan) (es : list (cevent T)) (l : list caction) : option (chan * list (cevent T)) :=
    match l with
    | [] => Some (s, es)
    | a :: l' => match cstep_sys s a with
                 | Some (s', es') => cexec s' (es' ++ es) l'
                 | None => None
                 end
    end.
End Channel.
