(** The receiver's wait cell (/repo/src/wait/cell.rs).  No proofs here.

    Every access to the [lock] word and every access to the [waiter] cell is one
    step of the thread performing it; any number of threads may call
    [wait_with], [notify] and [close_tx] at the same time.  Memory is
    sequentially consistent. *)
From Coq Require Import List Bool Arith NArith.
Import ListNotations.
Local Open Scope N_scope.

(** Identity of a Waker or Thread ([Notify::same], /repo/src/wait.rs:56-60). *)
Definition waker := nat.

(** State bits (/repo/src/wait/cell.rs:225-228). *)
Definition WAITING : N := 0.
(** cell.rs:226. *)
Definition PARKING : N := 1.
(** cell.rs:227. *)
Definition NOTIFYING : N := 2.
(** cell.rs:228. *)
Definition TX_CLOSED : N := 4.
(** State::contains (/repo/src/wait/cell.rs:230-232). *)
Definition contains (s b : N) : bool := N.land s b =? b.

(** WaitResult (/repo/src/wait.rs:33-54). *)
Inductive wait_result := Wait | Closed | Notified.

(** WaitCell (/repo/src/wait/cell.rs:36-39). *)
Record cell := mkCell { w_state : N; w_waiter : option waker }.
(** WaitCell::new (/repo/src/wait/cell.rs:48-53). *)
Definition cell_new : cell := mkCell WAITING None.

(** Program counters of wait_with (/repo/src/wait/cell.rs:65-150) and notify2 (160-176),
    with the live local variables.  [pan]: the closure given to wait_with (it clones a
    Waker) panics. *)
Inductive wpc :=
| WIdle
| WCas1 (w : waker) (pan : bool)                       (* 69: compare_exchange(WAITING, PARKING) *)
| WSelf (w : waker) (pan : bool)                       (* 74-78: f().notify() *)
| WReplace (w : waker) (pan : bool)                    (* 90-99: run f, replace the waiter *)
| WCas2 (w : waker) (prev : option waker) (pan : bool) (* 101: compare_exchange(PARKING, WAITING) *)
| WTake (w : waker) (actual : N) (prev : option waker) (pan : bool)             (* 113 *)
| WAnd (w : waker) (actual : N) (prev mine : option waker) (pan : bool)         (* 116 *)
| WPrev (w : waker) (state : N) (prev mine : option waker) (pan : bool)         (* 124-130 *)
| WMine (w : waker) (state : N) (mine : option waker) (pan : bool)              (* 132-135 *)
| WRet (state : N) (pan : bool)                        (* 137-147 *)
| NOr (close : bool)                                   (* 164: fetch_or *)
| NTake                                                (* 166 *)
| NAnd (w : option waker)                              (* 168: fetch_and(!NOTIFYING) *)
| NWake (w : waker)                                    (* 171: waiter.notify() *)
| NRet (b : bool).                                     (* 172, 175 *)

(** Observable events.
    - [CallWait i w pan] wait_with is called with waker [w]; [pan]: its closure will panic
    - [Registered i w]   [w] was stored in the cell
    - [RetWait i r]      wait_with returned [r]
    - [Unwound i]        wait_with unwound with the closure's panic
    - [CallNotify i c]   notify ([c = false]) or close_tx ([c = true]) is called
    - [Fetched i c]      its fetch_or took effect
    - [Took i ow]        it removed [ow] from the cell
    - [RetNotify i b]    it returned [b]
    - [Woke i w]         [w.notify()] was executed by [i]
    - [Asserted i]       a debug assertion failed. *)
Inductive wevent :=
| CallWait (i : nat) (w : waker) (pan : bool)
| Registered (i : nat) (w : waker)
| RetWait (i : nat) (r : wait_result)
| Unwound (i : nat)
| CallNotify (i : nat) (close : bool)
| Fetched (i : nat) (close : bool)
| Took (i : nat) (w : option waker)
| RetNotify (i : nat) (b : bool)
| Woke (i : nat) (w : waker)
| Asserted (i : nat).

Section Cell.
  Variable debug : bool.  (* cfg(debug_assertions) *)

  (** One step of wait_with (/repo/src/wait/cell.rs:65-150) or notify2
      (160-176) by thread [i].  Simplifications: a waker's [notify] and [drop] do
      not panic; [drop(prev_waiter)] (line 107) is not an event; the spin_loop
      hint (76) is omitted. *)
  Definition wstep (c : cell) (i : nat) (p : wpc) : cell * wpc * option wevent :=
    let s := w_state c in
    match p with
    | WCas1 w pan =>
        if s =? WAITING then (mkCell PARKING (w_waiter c), WReplace w pan, None)
        else if contains s TX_CLOSED then (c, WIdle, Some (RetWait i Closed))
        else if contains s NOTIFYING then (c, WSelf w pan, None)
        else if debug && negb ((s =? PARKING) || (s =? N.lor PARKING NOTIFYING))
        then (c, WIdle, Some (Asserted i))
        else (c, WIdle, Some (RetWait i Wait))
    | WSelf w pan => if pan then (c, WIdle, Some (Unwound i)) else (c, WRet NOTIFYING false, Some (Woke i w))
    | WReplace w pan =>
        if pan then (c, WCas2 w None true, None)
        else (mkCell s (Some w), WCas2 w (w_waiter c) false, Some (Registered i w))
    | WCas2 w prev pan =>
        if s =? PARKING
        then (mkCell WAITING (w_waiter c), WIdle, Some (if pan then Unwound i else RetWait i Wait))
        else (c, WTake w s prev pan, None)
    | WTake w actual prev pan => (mkCell s None, WAnd w actual prev (w_waiter c) pan, None)
    | WAnd w actual prev mine pan =>
        let c' := mkCell (N.land s TX_CLOSED) (w_waiter c) in
        if debug && negb ((s =? actual) || (s =? N.lor actual TX_CLOSED))
        then (c', WIdle, Some (Asserted i))
        else (c', WPrev w s prev mine pan, None)
    | WPrev w state prev mine pan =>
        match prev with
        | Some v => (c, WMine w state mine pan, Some (Woke i v))
        | None => (c, WMine w state mine pan, None)
        end
    | WMine w state mine pan =>
        match mine with
        | Some v => if debug && pan then (c, WIdle, Some (Asserted i))
                    else (c, WRet state pan, Some (Woke i v))
        | None => (c, WRet state pan, None)
        end
    | WRet state pan =>
        (c, WIdle, Some (if pan then Unwound i
                         else RetWait i (if contains state TX_CLOSED then Closed else Notified)))
    | NOr close =>
        let bits := N.lor NOTIFYING (if close then TX_CLOSED else WAITING) in
        (mkCell (N.lor s bits) (w_waiter c), (if s =? WAITING then NTake else NRet false), Some (Fetched i close))
    | NTake => (mkCell s None, NAnd (w_waiter c), Some (Took i (w_waiter c)))
    | NAnd w =>
        let c' := mkCell (N.ldiff s NOTIFYING) (w_waiter c) in
        match w with
        | Some v => (c', NWake v, None)
        | None => (c', NRet false, None)
        end
    | NWake w => (c, NRet true, Some (Woke i w))
    | NRet b => (c, WIdle, Some (RetNotify i b))
    | WIdle => (c, WIdle, None)
    end.

  (** The cell and where every thread is. *)
  Record wsys := mkW { ws_cell : cell; ws_pc : nat -> wpc }.
  (** Thread [i] moves to [p]. *)
  Definition wset (f : nat -> wpc) (i : nat) (p : wpc) : nat -> wpc := fun j => if Nat.eqb j i then p else f j.

  (** What may happen: a thread calls wait_with (65-150), notify (152-154) or close_tx
      (156-158), or a thread inside a call makes its next step. *)
  Inductive waction :=
  | WACall (i : nat) (w : waker) (pan : bool)
  | WANotify (i : nat) (close : bool)
  | WAStep (i : nat).

  (** Calls and steps: wait_with (/repo/src/wait/cell.rs:65-150), notify (152-154), close_tx
      (156-158), notify2 (160-176). *)
  Definition wstep_sys (s : wsys) (a : waction) : option (wsys * option wevent) :=
    match a with
    | WACall i w pan =>
        match ws_pc s i with
        | WIdle => Some (mkW (ws_cell s) (wset (ws_pc s) i (WCas1 w pan)), Some (CallWait i w pan))
        | _ => None
        end
    | WANotify i close =>
        match ws_pc s i with
        | WIdle => Some (mkW (ws_cell s) (wset (ws_pc s) i (NOr close)), Some (CallNotify i close))
        | _ => None
        end
    | WAStep i =>
        match ws_pc s i with
        | WIdle => None
        | p => let '(c', p', e) := wstep (ws_cell s) i p in Some (mkW c' (wset (ws_pc s) i p'), e)
        end
    end.

  (** A new cell, nobody inside it (/repo/src/wait/cell.rs:48-53). *)
  Definition winit : wsys := mkW cell_new (fun _ => WIdle).

  (** Executions; events most recent first. *)
  Inductive wrun : list wevent -> wsys -> Prop :=
  | wrun_init : wrun [] winit
  | wrun_step es s a s' e : wrun es s -> wstep_sys s a = Some (s', e) ->
      wrun (match e with Some x => x :: es | None => es end) s'.

  (** Executable version, for examples. *)
  Fixpoint wexec (s : wsys) (es : list wevent) (l : list waction) : option (wsys * list wevent) :=
    match l with
    | [] => Some (s, es)
    | a :: l' => match wstep_sys s a with
                 | Some (s', e) => wexec s' (match e with Some x => x :: es | None => es end) l'
                 | None => None
                 end
    end.
End Cell.
