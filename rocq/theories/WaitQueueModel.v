(** The senders' wait queue, /repo/src/wait/queue.rs, at the granularity of
    single atomic accesses; accesses to lock-protected fields between two atomic
    accesses are one step.  Sequentially consistent interleaving. *)
From Coq Require Import List Bool Arith NArith.
From Verif Require Import WaitCellModel WaitList.
Import ListNotations.
Local Open Scope N_scope.

(** Program counters in /repo/src/wait/queue.rs, with the live local variables.  Agent [i] owns waiter [i] (one waiting send = one agent),
    and any agent can notify or close. *)
Inductive qpc :=
| QIdle
(* start_wait, 188-202 *)
| SCas (w : waker)
(* start_wait_slow, 208-291 *)
| SLock (w : waker) | SLoad (w : waker) | SCasEmpty (w : waker) | SCasWaking (w : waker)
| SNode (w : waker) | SSwap (w : waker) | SEnq (w : waker)
(* return from a slow path: the guard is dropped *)
| SUnlock (r : wait_result)
| SRet (r : wait_result)
(* continue_wait, 301-320; continue_wait_slow, 326-362 *)
| CLoad (w : waker) | CLock (w : waker) | CLoad2 (w : waker) | CUpd (w : waker)
(* notify, 370-392; notify_slow, 398-440 *)
| TLoad | TCas (st : N) | TLock (st : N) | TSlow (st : N) | TLinks (n : nat)
| TEmpty (o : option (nat * waker)) | TUnlock (o : option (nat * waker)) | TWake (n : nat) (w : waker) | TRet (b : bool)
(* close, 443-453 *)
| KSwap | KLock | KLoop | KLinks (n : nat) | KWake (n : nat) (w : waker) | KUnlock
(* dropping a waiting future: async_impl.rs:1494-1502, Waiter::remove 472-486 *)
| DLoad | DLock | DRemove | DEmpty | DUnlock | DFree.

(** Life of waiter [i], as its owner sees it: not created yet; created, not
    queued; the last call returned Wait (State::Waiting, async_impl.rs:1450-1466; the parked
    thread, blocking.rs:1682-1696); told Notified after that; told Closed, so that the
    send returns; released. *)
Inductive phase := PAbsent | PFresh | PWaiting | PWoken | PDone | PGone.

(** Events.
    - [ENew i]           waiter [i] is created
    - [EStart i w], [ECont i w]  start_wait / continue_wait is called with waker [w]
    - [ERet i r]         it returned [r]
    - [EPeek i]          owner [i] learnt from its waiter's state, without the lock, that it was taken
    - [EEnq i w]         waiter [i] was put into the list, holding [w]
    - [EUpd i w]         the waker stored in waiter [i] was replaced by [w]
    - [EConsumed i]      [i] consumed the stored notification
    - [ECallNotify i], [ERetNotify i b]
    - [EStored i]        [i] stored a notification in the queue
    - [ESwap i n st]     [i] took waiter [n] and set its state to [st]
    - [EUnlink i n w]    [i] unlinked waiter [n] and took waker [w] out of it
    - [EWoke i n w]      [i] woke [w], which it took out of waiter [n]
    - [ECallClose i], [EClosed i], [ERetClose i]
    - [EDrop i]          the waiting future [i] is dropped
    - [ERemoved i]       its waiter was removed from the list
    - [ETimeout i]       a timed wait [i] gives up
    - [EFreed i]         the memory of waiter [i] is released
    - [EUb i]            [i] accessed the memory of a waiter that was released
    - [EAssert i]        a debug assertion of [i] failed. *)
Inductive qevent :=
| ENew (i : nat)
| EStart (i : nat) (w : waker)
| ECont (i : nat) (w : waker)
| ERet (i : nat) (r : wait_result)
| EPeek (i : nat)
| EEnq (i : nat) (w : waker)
| EUpd (i : nat) (w : waker)
| EConsumed (i : nat)
| ECallNotify (i : nat)
| ERetNotify (i : nat) (b : bool)
| EStored (i : nat)
| ESwap (i n : nat) (st : N)
| EUnlink (i n : nat) (w : option waker)
| EWoke (i n : nat) (w : waker)
| ECallClose (i : nat)
| EClosed (i : nat)
| ERetClose (i : nat)
| EDrop (i : nat)
| ERemoved (i : nat)
| ETimeout (i : nat)
| EFreed (i : nat)
| EUb (i : nat)
| EAssert (i : nat).

(** queue.rs:60-100: WaitQueue { state, list: Mutex<List> }, with the memory of the
    waiters, where every agent is, and the life of every waiter. *)
Record qsys := mkQ {
  q_state : N;
  q_lock : option nat;
  q_list : wlist;
  q_heap : heap;
  q_pc : nat -> qpc;
  q_phase : nat -> phase
}.

(** A write of the state word (queue.rs:60-100). *)
Definition with_state s v := mkQ v (q_lock s) (q_list s) (q_heap s) (q_pc s) (q_phase s).
(** The mutex around the list is taken or released (queue.rs:99). *)
Definition with_lock s v := mkQ (q_state s) v (q_list s) (q_heap s) (q_pc s) (q_phase s).
(** Writes under the mutex: the waiters and the list (queue.rs:99, 104-154). *)
Definition with_mem s (h : heap) (l : wlist) := mkQ (q_state s) (q_lock s) l h (q_pc s) (q_phase s).
(** Update of one agent's entry. *)
Definition pset {A} (f : nat -> A) (i : nat) (p : A) : nat -> A := fun j => if Nat.eqb j i then p else f j.
(** Agent [i] moves to [p]. *)
Definition with_pc s i p := mkQ (q_state s) (q_lock s) (q_list s) (q_heap s) (pset (q_pc s) i p) (q_phase s).
(** The life of waiter [i] moves on. *)
Definition with_phase s i p := mkQ (q_state s) (q_lock s) (q_list s) (q_heap s) (q_pc s) (pset (q_phase s) i p).

(** queue.rs:171-176: WaitQueue::new. *)
Definition q_init : qsys :=
  mkQ Q_EMPTY None list_new (fun _ => waiter_new) (fun _ => QIdle) (fun _ => PAbsent).

(** Is the memory of waiter [n] valid?  (It is between queue.rs:459 and the end of the owner.) *)
Definition live (s : qsys) (n : nat) : bool :=
  match q_phase s n with PAbsent | PGone => false | _ => true end.

(** What the owner does with a result: see [phase] (async_impl.rs:1450-1480, blocking.rs:1682-1696). *)
Definition ret_phase (p : phase) (r : wait_result) : phase :=
  match r with
  | Wait => PWaiting
  | Closed => PDone
  | Notified => match p with PWaiting => PWoken | _ => p end
  end.

Section Queue.
  Variable debug : bool.  (* cfg(debug_assertions) *)

  (** A failed debug assertion (queue.rs:231, 247, 274, 281, 310, 340, 411, 435, 582, 611, 620)
      panics; unwinding drops the lock guard. *)
  Definition failed (s : qsys) (i : nat) : qsys * option qevent :=
    (with_pc (match q_lock s with Some j => if Nat.eqb j i then with_lock s None else s | None => s end) i QIdle, Some (EAssert i)).

  (** Touching released memory: what follows is not defined; here the agent stops
      (with the lock, if it had it). *)
  Definition undefined (s : qsys) (i : nat) : qsys * option qevent := (with_pc s i QIdle, Some (EUb i)).

  (** start_wait_slow, 216-259: the match on the loaded state. *)
  Definition s_dispatch (w : waker) (st : N) : qpc :=
    if st =? Q_EMPTY then SCasEmpty w
    else if st =? Q_WAKING then SCasWaking w
    else if st =? Q_CLOSED then SUnlock Closed
    else SNode w.

  (** notify, 377-391. *)
  Definition n_dispatch (st : N) : qpc :=
    if (st =? Q_WAKING) || (st =? Q_EMPTY) then TCas st else TLock st.

  (** One step of agent [i]; the lines of queue.rs are given with each case.  [spur]: a compare_exchange_weak of this step fails
      spuriously.  [None]: no step possible (idle, or waiting for the lock). *)
  Definition qstep (s : qsys) (i : nat) (spur : bool) : option (qsys * option qevent) :=
    let st := q_state s in
    let h := q_heap s in
    let l := q_list s in
    match q_pc s i with
    | QIdle => None
    (* 193-197 *)
    | SCas w =>
        if st =? Q_WAKING then Some (with_pc (with_state s Q_EMPTY) i (SRet Notified), Some (EConsumed i))
        else if st =? Q_CLOSED then Some (with_pc s i (SRet Closed), None)
        else Some (with_pc s i (SLock w), None)
    (* 215 *)
    | SLock w => match q_lock s with
                 | None => Some (with_pc (with_lock s (Some i)) i (SLoad w), None)
                 | Some _ => None
                 end
    (* 218 *)
    | SLoad w => Some (with_pc s i (s_dispatch w st), None)
    (* 225-234 *)
    | SCasEmpty w =>
        if (st =? Q_EMPTY) && negb spur then Some (with_pc (with_state s Q_WAITING) i (SNode w), None)
        else if debug && (st =? Q_WAITING) then Some (failed s i)
        else Some (with_pc s i (s_dispatch w st), None)
    (* 239-249 *)
    | SCasWaking w =>
        if (st =? Q_WAKING) && negb spur
        then Some (with_pc (with_state s Q_EMPTY) i (SUnlock Notified), Some (EConsumed i))
        else if debug && (st =? Q_WAITING) then Some (failed s i)
        else Some (with_pc s i (s_dispatch w st), None)
    (* 271-277 *)
    | SNode w =>
        if debug && match n_waker (h i) with Some _ => true | None => false end then Some (failed s i)
        else Some (with_pc (with_mem s (set_waker h i (Some w)) l) i (SSwap w), None)
    (* 279-286 *)
    | SSwap w =>
        if debug && negb ((n_state (h i) =? Q_EMPTY) || (n_state (h i) =? Q_WAKING)) then Some (failed s i)
        else Some (with_pc (with_mem s (set_state h i Q_WAITING) l) i (SEnq w), None)
    (* 287 *)
    | SEnq w =>
        if forallb (live s) (enqueue_touches l)
        then let '(h', l') := enqueue h l i in
             Some (with_pc (with_mem s h' l') i (SUnlock Wait), Some (EEnq i w))
        else Some (undefined s i)
    (* 290, 361: the guard is dropped *)
    | SUnlock r => Some (with_pc (with_lock s None) i (SRet r), None)
    | SRet r => Some (with_phase (with_pc s i QIdle) i (ret_phase (q_phase s i) r), Some (ERet i r))
    (* 305-315 *)
    | CLoad w =>
        let v := n_state (h i) in
        if v =? Q_WAKING then Some (with_pc s i (SRet Notified), Some (EPeek i))
        else if v =? Q_CLOSED then Some (with_pc s i (SRet Closed), Some (EPeek i))
        else if debug && negb (v =? Q_WAITING) then Some (failed s i)
        else Some (with_pc s i (CLock w), None)
    (* 332 *)
    | CLock w => match q_lock s with
                 | None => Some (with_pc (with_lock s (Some i)) i (CLoad2 w), None)
                 | Some _ => None
                 end
    (* 336-345 *)
    | CLoad2 w =>
        let v := n_state (h i) in
        if v =? Q_WAKING then Some (with_pc s i (SUnlock Notified), None)
        else if v =? Q_CLOSED then Some (with_pc s i (SUnlock Closed), None)
        else if debug && negb (v =? Q_WAITING) then Some (failed s i)
        else Some (with_pc s i (CUpd w), None)
    (* 350-359 *)
    | CUpd w => Some (with_pc (with_mem s (set_waker h i (Some w)) l) i (SUnlock Wait), Some (EUpd i w))
    (* 375 *)
    | TLoad => Some (with_pc s i (n_dispatch st), None)
    (* 377-387 *)
    | TCas v =>
        if (st =? v) && negb spur then Some (with_pc (with_state s Q_WAKING) i (TRet false), Some (EStored i))
        else Some (with_pc s i (n_dispatch st), None)
    (* 401 *)
    | TLock v => match q_lock s with
                 | None => Some (with_pc (with_lock s (Some i)) i (TSlow v), None)
                 | Some _ => None
                 end
    (* 402-410, 431-437; the arm EMPTY | WAKING (403-408) is never entered from notify *)
    | TSlow v =>
        if v =? Q_WAITING then
          match l_tail l with
          | Some n =>
              if live s n then
                if debug && negb (n_state (h n) =? Q_WAITING) then Some (failed s i)
                else Some (with_pc (with_mem s (set_state h n Q_WAKING) l) i (TLinks n), Some (ESwap i n Q_WAKING))
              else Some (undefined s i)
          | None => if debug then Some (failed s i) else Some (with_pc s i (TEmpty None), None)
          end
        else if debug then Some (failed s i) else Some (with_pc s i (TUnlock None), None)
    (* 584-597 *)
    | TLinks n =>
        if forallb (live s) (dequeue_touches h n) then
          let '(h', l', w) := dequeue_links h l n in
          Some (with_pc (with_mem s h' l') i (TEmpty (option_map (pair n) w)), Some (EUnlink i n w))
        else Some (undefined s i)
    (* 418-420 *)
    | TEmpty o => Some (with_pc (if list_is_empty l then with_state s Q_EMPTY else s) i (TUnlock o), None)
    (* 423 *)
    | TUnlock o => Some (with_pc (with_lock s None) i (match o with Some (n, w) => TWake n w | None => TRet false end), None)
    (* 426-429 *)
    | TWake n w => Some (with_pc s i (TRet true), Some (EWoke i n w))
    | TRet b => Some (with_pc s i QIdle, Some (ERetNotify i b))
    (* 446 *)
    | KSwap => Some (with_pc (with_state s Q_CLOSED) i KLock, Some (EClosed i))
    (* 447 *)
    | KLock => match q_lock s with
               | None => Some (with_pc (with_lock s (Some i)) i KLoop, None)
               | Some _ => None
               end
    (* 448-449, 577-582 *)
    | KLoop =>
        if list_is_empty l then Some (with_pc s i KUnlock, None)
        else match l_tail l with
             | Some n =>
                 if live s n then
                   if debug && negb (n_state (h n) =? Q_WAITING) then Some (failed s i)
                   else Some (with_pc (with_mem s (set_state h n Q_CLOSED) l) i (KLinks n), Some (ESwap i n Q_CLOSED))
                 else Some (undefined s i)
             | None => Some (s, None)
             end
    | KLinks n =>
        if forallb (live s) (dequeue_touches h n) then
          let '(h', l', w) := dequeue_links h l n in
          Some (with_pc (with_mem s h' l') i (match w with Some w => KWake n w | None => KLoop end), Some (EUnlink i n w))
        else Some (undefined s i)
    (* 450 *)
    | KWake n w => Some (with_pc s i KLoop, Some (EWoke i n w))
    (* 453 *)
    | KUnlock => Some (with_pc (with_lock s None) i QIdle, Some (ERetClose i))
    (* async_impl.rs:1498, queue.rs:489-491 *)
    | DLoad => if n_state (h i) =? Q_WAITING then Some (with_pc s i DLock, None) else Some (with_pc s i DFree, Some (EPeek i))
    (* 474 *)
    | DLock => match q_lock s with
               | None => Some (with_pc (with_lock s (Some i)) i DRemove, None)
               | Some _ => None
               end
    (* 475-482 *)
    | DRemove =>
        if forallb (live s) (remove_touches h i) then
          let '(h', l', ok) := list_remove h l i in
          if debug && negb ok then Some (failed s i)
          else Some (with_pc (with_mem s h' l') i DEmpty, Some (ERemoved i))
        else Some (undefined s i)
    (* 483-485 *)
    | DEmpty =>
        Some (with_pc (if list_is_empty l && (st =? Q_WAITING) then with_state s Q_EMPTY else s) i DUnlock, None)
    (* 486 *)
    | DUnlock => Some (with_pc (with_lock s None) i DFree, None)
    | DFree => Some (with_phase (with_pc s i QIdle) i PGone, Some (EFreed i))
    end.

  (** What may happen.
      - [QNew i]      a send starts waiting: its waiter is created (blocking.rs:1665, async_impl.rs: SendRefFuture)
      - [QStart i w], [QCont i w]  its owner calls start_wait / continue_wait.
          continue_wait is only called once start_wait returned Wait (async_impl.rs:1450-1480; blocking.rs:1676-1680)
      - [QNotify i], [QClose i]
      - [QFree i]     the owner returns / is dropped when it is not waiting (blocking.rs:1686-1690; async_impl.rs:1498)
      - [QDrop i]     a waiting future is dropped (async_impl.rs:1494-1502)
      - [QTimeout i]  a timed send gives up after Wait (blocking.rs:1746-1750): its waiter is released as it is
      - [QStep i spur] *)
  Inductive qaction :=
  | QNew (i : nat) | QStart (i : nat) (w : waker) | QCont (i : nat) (w : waker)
  | QNotify (i : nat) | QClose (i : nat)
  | QFree (i : nat) | QDrop (i : nat) | QTimeout (i : nat)
  | QStep (i : nat) (spur : bool).

  (** Agent [i] is in no call. *)
  Definition idle (s : qsys) (i : nat) : bool := match q_pc s i with QIdle => true | _ => false end.

  (** Effect of each: creation (queue.rs:459-469), the calls (188, 301, 370, 443), release. *)
  Definition qstep_sys (s : qsys) (a : qaction) : option (qsys * option qevent) :=
    match a with
    | QNew i => match idle s i, q_phase s i with
                | true, PAbsent => Some (with_phase (with_mem s (hset (q_heap s) i waiter_new) (q_list s)) i PFresh, Some (ENew i))
                | _, _ => None
                end
    | QStart i w => match idle s i, q_phase s i with
                    | true, (PFresh | PWoken) => Some (with_pc s i (SCas w), Some (EStart i w))
                    | _, _ => None
                    end
    | QCont i w => match idle s i, q_phase s i with
                   | true, (PWaiting | PWoken) => Some (with_pc s i (CLoad w), Some (ECont i w))
                   | _, _ => None
                   end
    | QNotify i => if idle s i then Some (with_pc s i TLoad, Some (ECallNotify i)) else None
    | QClose i => if idle s i then Some (with_pc s i KSwap, Some (ECallClose i)) else None
    | QFree i => match idle s i, q_phase s i with
                 | true, (PFresh | PWoken | PDone) => Some (with_phase s i PGone, Some (EFreed i))
                 | _, _ => None
                 end
    | QDrop i => match idle s i, q_phase s i with
                 | true, PWaiting => Some (with_pc s i DLoad, Some (EDrop i))
                 | _, _ => None
                 end
    | QTimeout i => match idle s i, q_phase s i with
                    | true, PWaiting => Some (with_phase s i PGone, Some (ETimeout i))
                    | _, _ => None
                    end
    | QStep i spur => qstep s i spur
    end.

  (** Executions; events most recent first. *)
  Inductive qrun : list qevent -> qsys -> Prop :=
  | qrun_init : qrun [] q_init
  | qrun_step es s a s' e : qrun es s -> qstep_sys s a = Some (s', e) ->
      qrun (match e with Some x => x :: es | None => es end) s'.

  (** Executable version, for examples. *)
  Fixpoint qexec (s : qsys) (es : list qevent) (l : list qaction) : option (qsys * list qevent) :=
    match l with
    | [] => Some (s, es)
    | a :: l' => match qstep_sys s a with
                 | Some (s', e) => qexec s' (match e with Some x => x :: es | None => es end) l'
                 | None => None
                 end
    end.
End Queue.
