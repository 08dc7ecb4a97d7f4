(** The timed loops recv_ref_timeout and send_ref_timeout
    (/repo/src/mpsc/blocking.rs:1620-1648, 1702-1755).  No proofs here.

    Time is a natural number; the environment (the rest of the channel, the OS)
    is an oracle: a list giving, for each iteration, the outcome of the poll and
    the clock when park_timeout returned and [elapsed] was read. *)
From Coq Require Import List Bool Arith.
Import ListNotations.

(** What one iteration of recv_ref_timeout observes: Poll::Ready(Some slot),
    Poll::Ready(None), or Pending followed by a park that ends at time [woke]. *)
Inductive recv_obs (T : Type) := RReady (v : T) | RDisconnected | RPending (woke : nat).
Arguments RReady {T}. Arguments RDisconnected {T}. Arguments RPending {T}.

(** Result<RecvRef, RecvTimeoutError> (/repo/src/mpsc/errors.rs:54-59). *)
Inductive recv_out (T : Type) := RMsg (v : T) | RTimeout | RClosed.
Arguments RMsg {T}. Arguments RTimeout {T}. Arguments RClosed {T}.

(** recv_ref_timeout; the second component is the clock of the last park (the
    start when there was none) and the third the number of iterations made.
    [None]: the oracle is exhausted. *)
Fixpoint recv_timeout {T} (begin timeout last n : nat) (obs : list (recv_obs T))
  : option (recv_out T * nat * nat) :=
  match obs with
  | [] => None
  | RReady v :: _ => Some (RMsg v, last, S n)
  | RDisconnected :: _ => Some (RClosed, last, S n)
  | RPending woke :: obs' =>
      if timeout <=? woke - begin then Some (RTimeout, woke, S n)
      else recv_timeout begin timeout woke (S n) obs'
  end.

(** One iteration of send_ref_timeout after the first try_send_ref found the
    channel full: start_wait/continue_wait said Closed; or Notified and then
    try_send_ref succeeded, found it closed, or full; or Wait and the park
    ended at [woke]. *)
Inductive send_obs (T : Type) := SClosedWait | SNotified (r : option (option T)) | SWait (woke : nat).
Arguments SClosedWait {T}. Arguments SNotified {T}. Arguments SWait {T}.

(** Result<SendRef, SendTimeoutError> (/repo/src/mpsc/errors.rs:15-24). *)
Inductive send_out (T : Type) := SSlot (v : T) | STimedOut | SClosed.
Arguments SSlot {T}. Arguments STimedOut {T}. Arguments SClosed {T}.

(** [SNotified (Some (Some slot))]: Ok; [SNotified (Some None)]: Closed;
    [SNotified None]: still full. *)
Fixpoint send_timeout_loop {T} (begin timeout last n : nat) (obs : list (send_obs T))
  : option (send_out T * nat * nat) :=
  match obs with
  | [] => None
  | SClosedWait :: _ => Some (SClosed, last, S n)
  | SNotified (Some (Some v)) :: _ => Some (SSlot v, last, S n)
  | SNotified (Some None) :: _ => Some (SClosed, last, S n)
  | SNotified None :: obs' => send_timeout_loop begin timeout last (S n) obs'
  | SWait woke :: obs' =>
      if timeout <=? woke - begin then Some (STimedOut, woke, S n)
      else send_timeout_loop begin timeout woke (S n) obs'
  end.

(** What the OS guarantees about park_timeout, up to a scheduling delay [eps]
    per iteration: an iteration that starts at [prev] ends by
    [prev + timeout + eps], and clocks do not go back. *)
Fixpoint parks_ok {T} (timeout eps prev : nat) (obs : list (recv_obs T)) : Prop :=
  match obs with
  | RPending woke :: obs' => prev <= woke <= prev + timeout + eps /\ parks_ok timeout eps woke obs'
  | _ :: obs' => parks_ok timeout eps prev obs'
  | [] => True
  end.
