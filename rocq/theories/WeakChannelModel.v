(** The receiving side of a channel on weak memory: the ring ([WeakModel]) and the receiver's wait cell
    ([WeakCellModel]) put together as in /repo/src/mpsc.rs, with the sender count.  No proofs here.

    Modelled: try_send_ref and dropping the SendRef, clone and drop of Sender, poll_recv_ref, try_recv_ref and
    dropping the RecvRef, drop of Receiver.  Every atomic access is a step of its own with the ordering written in
    the code.  Not modelled here: waiting for capacity (the tx_wait queue; a sender that finds the channel full
    just returns), and panics of Waker::clone.  The synchronisation the queue causes is covered by [AExt].
    Simplification: a Sender is in one call at a time; threads that share one by reference appear as threads with a clone
    each (which adds to the sender count, but not to the ring, cell and queue). *)
From Coq Require Import List Bool Arith NArith.
From Verif Require Import Word QueueSpec CoreModel WaitCellModel WeakModel WeakCellModel.
Import ListNotations.

(** Who has a view of the ring, as agents of [WeakModel]: the [j]-th sender; the receiver, which uses a new number
    after every message received, because the RecvRef (/repo/src/mpsc.rs:286-304) keeps the old one; and, so that
    synchronisation through the other atomics carries over to the ring: tx_count (/repo/src/mpsc.rs:264) and the
    [n]-th value of the cell's lock (/repo/src/wait/cell.rs:37), each with the view its value carries. *)
Definition tx_agent (j : nat) : agent := 3 * j.
Definition rx_agent (a : nat) : agent := 3 * a + 1.
Definition count_agent : agent := 2.
Definition lock_agent (n : nat) : agent := 3 * n + 5.

(** In the cell, thread 0 is the receiver and thread [S j] the [j]-th sender. *)
Definition tx_thread (j : nat) : nat := S j.

(** Where a sender is: it does not exist; it exists and is not in use; in push_ref or holding a SendRef
    (/repo/src/mpsc.rs:351-363); in rx_wait.notify() after the element was published (559-565); in Drop for Sender
    before core.close(); in rx_wait.close_tx() (/repo/src/mpsc/async_impl.rs:277-280,
    /repo/src/mpsc/blocking.rs:1251-1255); its SendRef was leaked or its push panicked. *)
Inductive sstage := SGone | SIdle | SPush | SNotify | SClosing | SCloseTx | SDead.

(** Which of the pop_refs of poll_recv_ref (/repo/src/mpsc.rs:404-451): at the top of the loop (426), after the
    registration (434), after Closed (442). *)
Inductive which := First | Again | Last.
(** Where the receiver is: not in use; in a pop_ref of poll_recv_ref with waker [w]; in wait_with (429); poll_recv_ref
    returned Pending (436); in try_recv_ref (379-395); dropped. *)
Inductive rstage := RIdle | RPop (w : waker) (p : which) | RWait (w : waker) | RPend (w : waker) | RTry | RGone.

(** What a receive returns (/repo/src/mpsc.rs:404-451, 379-395). *)
Inductive rresult := Got | NoMore | IsPending | TryEmpty | TryClosed.

(** Observable events: those of the ring and of the cell; the receiver is polled with a waker; a receive returns;
    a Sender is cloned, dropped. *)
Inductive yevent {T : Type} :=
| YR (e : event T)
| YC (e : wevent)
| YPoll (w : waker)
| YRet (r : rresult)
| YClone (j j' : nat)
| YDropTx (j : nat).

(** The orderings: of the ring, of the cell, of tx_count.fetch_sub (/repo/src/mpsc/async_impl.rs:273,
    /repo/src/mpsc/blocking.rs:1247), and whether the last sender executes the fence (278, 1252). *)
Record chan_orders := mkCO { co_ring : orders; co_cell : cell_orders; co_sub : ordering; co_fence : bool }.
Definition code_chan_orders : chan_orders := mkCO code_orders code_cell_orders Release true.

Section Channel.
  Context {T : Type}.
  Variables (P : params) (pol : policy T) (debug : bool) (o : chan_orders).
  Variable async : bool.  (* async_impl.rs or blocking.rs *)

  Notation event' := (yevent (T := T)).

  (** ChannelCore (/repo/src/mpsc.rs:261-266) without tx_wait: the ring, the cell, tx_count; and where everybody is. *)
  Record ystate := mkY {
    y_ring : wstate (T := T);
    y_cell : wcell;
    y_count : nat;
    y_tx : nat -> sstage;
    y_rx : rstage;
    y_me : nat }.

  Definition updt (f : nat -> sstage) (j : nat) (x : sstage) : nat -> sstage := fun i => if Nat.eqb i j then x else f i.

  (** What [i] has seen of the ring becomes visible to [j]. *)
  Definition xsync (r : wstate (T := T)) (i j : agent) : wstate (T := T) :=
    match weak_step P pol (co_ring o) r (XSync i j) with Some (r', _) => r' | None => r end.

  (** The effect of an access to the cell's lock by [i] on the views of the ring. *)
  Definition lock_sync (r : wstate (T := T)) (i : agent) (y : csync) : wstate (T := T) :=
    match y with
    | NoSync => r
    | LoadSync n ord => if is_acquire ord then xsync r (lock_agent n) i else r
    | RmwSync n ord =>
        let r1 := if is_acquire ord then xsync r (lock_agent (Nat.pred n)) i else r in
        let r2 := if is_release ord then xsync r1 i (lock_agent n) else r1 in
        xsync r2 (lock_agent (Nat.pred n)) (lock_agent n)
    end.

  Definition yr (e : option (event T)) : list event' := match e with Some x => [YR x] | None => [] end.
  Definition yc (e : option wevent) : list (yevent (T := T)) := match e with Some x => [YC x] | None => [] end.

  (** Parties between which other means (locks, spawning and joining threads, moving a handle) may synchronise. *)
  Inductive party := Tx (j : nat) | Rx (a : nat).
  Definition party_agent (p : party) : agent := match p with Tx j => tx_agent j | Rx a => rx_agent a end.

  (** What may happen.  [k], [spur]: see [WeakModel.wstep]; [x]: see [WeakCellModel.cas].  A panicking or leaked
      push leaves its agent behind; the Sender goes on as the unused [j'].  A Sender used by several calls at once
      appears as several clones. *)
  Inductive yaction :=
  | ASend (j : nat)
  | APush (j : nat) (k : nat) (spur : bool)
  | AWrite (j : nat) (v : T)
  | ACommit (j : nat)
  | AForget (j j' : nat)
  | APanic (j j' : nat)
  | ANotify (j : nat) (x : option nat)
  | AClone (j j' : nat)
  | ADropTx (j : nat)
  | AClose (j : nat) (panicking : bool)
  | APoll (w : waker)
  | ATry
  | AAbandon
  | ARecv (k : nat) (spur : bool)
  | AWait (x : option nat)
  | ARefWrite (a : nat) (v : T)
  | ARefDrop (a : nat)
  | ADropRx (panicking : bool)
  | AExt (p q : party).

  Definition ring_step := weak_step P pol (co_ring o).
  Definition cell_step := wcell_step debug (co_cell o).
  Definition cell_call (s : wcell) (a : kaction) := kstep debug (co_cell o) s a.

  (** The receiver's result, when its pop_ref returned (/repo/src/mpsc.rs:404-451, 379-395).  A received message takes the
      agent with it. *)
  Definition got (s : ystate) (r : wstate (T := T)) (evs : list event') : ystate * list event' :=
    (mkY (xsync r (rx_agent (y_me s)) (rx_agent (S (y_me s)))) (y_cell s) (y_count s) (y_tx s) RIdle (S (y_me s)),
     YRet Got :: evs).
  Definition set_rx (s : ystate) (r : wstate (T := T)) (c : wcell) (x : rstage) : ystate :=
    mkY r c (y_count s) (y_tx s) x (y_me s).
  Definition set_tx (s : ystate) (r : wstate (T := T)) (c : wcell) (j : nat) (x : sstage) : ystate :=
    mkY r c (y_count s) (updt (y_tx s) j x) (y_rx s) (y_me s).

  Definition recv_step (s : ystate) (r : wstate (T := T)) (e : option (event T)) : option (ystate * list event') :=
    let evs := yr e in
    match y_rx s, e with
    | RPop _ _, Some (Take _ _) => Some (got s r evs)
    | RTry, Some (Take _ _) => Some (got s r evs)
    | RPop w First, Some (RetEmpty _) =>
        match cell_call (y_cell s) (KWait 0 w false) with
        | Some (c, ce) => Some (set_rx s r c (RWait w), yc ce ++ evs)
        | None => None
        end
    | RPop w Again, Some (RetEmpty _) => Some (set_rx s r (y_cell s) (RPend w), YRet IsPending :: evs)
    | RPop _ Last, Some (RetEmpty _) => Some (set_rx s r (y_cell s) RIdle, YRet NoMore :: evs)
    | RPop _ _, Some (RetPopClosed _) => Some (set_rx s r (y_cell s) RIdle, YRet NoMore :: evs)
    | RTry, Some (RetEmpty _) => Some (set_rx s r (y_cell s) RIdle, YRet TryEmpty :: evs)
    | RTry, Some (RetPopClosed _) => Some (set_rx s r (y_cell s) RIdle, YRet TryClosed :: evs)
    | RPop _ _, _ | RTry, _ => Some (set_rx s r (y_cell s) (y_rx s), evs)
    | _, _ => None
    end.

  (** The start of the next pop_ref after wait_with returned (/repo/src/mpsc.rs:429-448). *)
  Definition next_pop (s : ystate) (r : wstate (T := T)) (c : wcell) (w : waker) (p : which) (evs : list event') : option (ystate * list event') :=
    match ring_step r (XInvoke (rx_agent (y_me s)) OpPop) with
    | Some (r', e) => Some (set_rx s r' c (RPop w p), yr e ++ evs)
    | None => None
    end.

  (** Does the receiver exist without a call in progress?  (A Pending poll may be polled again or dropped.) *)
  Definition rx_free (x : rstage) : bool := match x with RIdle | RPend _ => true | _ => false end.

  Definition ystep (s : ystate) (a : yaction) : option (ystate * list event') :=
    let r := y_ring s in
    let c := y_cell s in
    match a with
    | ASend j =>
        match y_tx s j, ring_step r (XInvoke (tx_agent j) OpPush) with
        | SIdle, Some (r', e) => Some (set_tx s r' c j SPush, yr e)
        | _, _ => None
        end
    | APush j k spur =>
        match y_tx s j, ring_step r (XStep (tx_agent j) k spur) with
        | SPush, Some (r', e) =>
            Some (set_tx s r' c j (match e with Some (RetFull _) | Some (RetPushClosed _) => SIdle | _ => SPush end), yr e)
        | _, _ => None
        end
    | AWrite j v =>
        match y_tx s j, ring_step r (XWrite (tx_agent j) v) with
        | SPush, Some (r', e) => Some (set_tx s r' c j SPush, yr e)
        | _, _ => None
        end
    | ACommit j =>
        match y_tx s j, ring_step r (XDrop (tx_agent j)), cell_call c (KNotify (tx_thread j) false) with
        | SPush, Some (r', e), Some (c', ce) => Some (set_tx s r' c' j SNotify, yc ce ++ yr e)
        | _, _, _ => None
        end
    | AForget j j' =>
        match y_tx s j, y_tx s j', w_pcs r (tx_agent j) with
        | SPush, SGone, PHold _ =>
            Some (mkY (xsync r (tx_agent j) (tx_agent j')) c (y_count s) (updt (updt (y_tx s) j SDead) j' SIdle) (y_rx s) (y_me s), [])
        | _, _, _ => None
        end
    | APanic j j' =>
        match y_tx s j, y_tx s j', ring_step r (XPanic (tx_agent j)) with
        | SPush, SGone, Some (r', e) =>
            Some (mkY (xsync r' (tx_agent j) (tx_agent j')) c (y_count s) (updt (updt (y_tx s) j SDead) j' SIdle) (y_rx s) (y_me s), yr e)
        | _, _, _ => None
        end
    | ANotify j x =>
        match y_tx s j, cell_step c (tx_thread j) x with
        | SNotify, Some (c', e, y) =>
            Some (set_tx s (lock_sync r (tx_agent j) y) c' j (match e with Some (RetNotify _ _) => SIdle | _ => SNotify end), yc e)
        | SCloseTx, Some (c', e, y) =>
            Some (set_tx s (lock_sync r (tx_agent j) y) c' j (match e with Some (RetNotify _ _) => SGone | _ => SCloseTx end), yc e)
        | _, _ => None
        end
    | AClone j j' =>
        match y_tx s j, y_tx s j' with
        | SIdle, SGone => Some (mkY (xsync r (tx_agent j) (tx_agent j')) c (S (y_count s)) (updt (y_tx s) j' SIdle) (y_rx s) (y_me s),
                                [YClone j j'])
        | _, _ => None
        end
    | ADropTx j =>
        match y_tx s j with
        | SIdle =>
            let r1 := if is_release (co_sub o) then xsync r (tx_agent j) count_agent else r in
            if Nat.eqb (y_count s) 1 then
              let r2 := if co_fence o then xsync r1 count_agent (tx_agent j) else r1 in
              Some (mkY r2 c 0 (updt (y_tx s) j SClosing) (y_rx s) (y_me s), [YDropTx j])
            else Some (mkY r1 c (Nat.pred (y_count s)) (updt (y_tx s) j SGone) (y_rx s) (y_me s), [YDropTx j])
        | _ => None
        end
    | AClose j panicking =>
        match y_tx s j, ring_step r (XClose (tx_agent j) panicking), cell_call c (KNotify (tx_thread j) true) with
        | SClosing, Some (r', e), Some (c', ce) =>
            let was_open := match e with Some (Closing _ b) => b | _ => false end in
            if async || was_open then Some (set_tx s r' c' j SCloseTx, yc ce ++ yr e)
            else Some (set_tx s r' c j SGone, yr e)
        | _, _, _ => None
        end
    | APoll w =>
        match ring_step r (XInvoke (rx_agent (y_me s)) OpPop) with
        | Some (r', e) => if rx_free (y_rx s) then Some (set_rx s r' c (RPop w First), yr e ++ [YPoll w]) else None
        | None => None
        end
    | ATry =>
        match ring_step r (XInvoke (rx_agent (y_me s)) OpPop) with
        | Some (r', e) => if rx_free (y_rx s) then Some (set_rx s r' c RTry, yr e) else None
        | None => None
        end
    | AAbandon => match y_rx s with RPend _ => Some (set_rx s r c RIdle, []) | _ => None end
    | ARecv k spur =>
        match ring_step r (XStep (rx_agent (y_me s)) k spur) with
        | Some (r', e) => recv_step s r' e
        | None => None
        end
    | AWait x =>
        match y_rx s, cell_step c 0 x with
        | RWait w, Some (c', e, y) =>
            let r' := lock_sync r (rx_agent (y_me s)) y in
            match e with
            | Some (RetWait _ Wait) => next_pop s r' c' w Again (yc e)
            | Some (RetWait _ Closed) => next_pop s r' c' w Last (yc e)
            | Some (RetWait _ Notified) => next_pop s r' c' w First (yc e)
            | _ => Some (set_rx s r' c' (RWait w), yc e)
            end
        | _, _ => None
        end
    | ARefWrite a v =>
        match w_pcs r (rx_agent a), ring_step r (XWrite (rx_agent a) v) with
        | QHold _, Some (r', e) => Some (set_rx s r' c (y_rx s), yr e)
        | _, _ => None
        end
    | ARefDrop a =>
        match w_pcs r (rx_agent a), ring_step r (XDrop (rx_agent a)) with
        | QHold _, Some (r', e) => Some (set_rx s r' c (y_rx s), yr e)
        | _, _ => None
        end
    | ADropRx panicking =>
        match ring_step r (XClose (rx_agent (y_me s)) panicking) with
        | Some (r', e) => if rx_free (y_rx s) then Some (set_rx s r' c RGone, yr e) else None
        | None => None
        end
    | AExt p q => Some (set_rx s (xsync r (party_agent p) (party_agent q)) c (y_rx s), [])
    end.

  (** A new channel: one Sender, one Receiver (/repo/src/mpsc.rs:315-322, /repo/src/mpsc/async_impl.rs:36-68). *)
  Definition yinit : ystate :=
    mkY (weak_init P) wcell_init 1 (fun j => if Nat.eqb j 0 then SIdle else SGone) RIdle 0.

  (** Executions; events most recent first. *)
  Inductive yrun : list event' -> ystate -> Prop :=
  | yrun_init : yrun [] yinit
  | yrun_step ys s a s' evs : yrun ys s -> ystep s a = Some (s', evs) -> yrun (evs ++ ys) s'.

  (** Executable version, for examples. *)
  Fixpoint yexec (s : ystate) (ys : list event') (l : list yaction) : option (ystate * list event') :=
    match l with
    | [] => Some (s, ys)
    | a :: l' => match ystep s a with
                 | Some (s', evs) => yexec s' (evs ++ ys) l'
                 | None => None
                 end
    end.
End Channel.

(** The events of the ring and of the cell in a history. *)
Fixpoint ring_events {T} (ys : list (yevent (T := T))) : list (event T) :=
  match ys with [] => [] | YR e :: l => e :: ring_events l | _ :: l => ring_events l end.
Fixpoint cell_events {T} (ys : list (yevent (T := T))) : list wevent :=
  match ys with [] => [] | YC e :: l => e :: cell_events l | _ :: l => cell_events l end.
