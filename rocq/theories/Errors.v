(** Error types of the channels (/repo/src/mpsc/errors.rs) and the by-value
    wrappers around the reference-returning calls.  No proofs here. *)
From Coq Require Import List Bool.
Import ListNotations.

(** enum TrySendError (/repo/src/mpsc/errors.rs:35-44). *)
Inductive try_send_error (T : Type) := TSFull (v : T) | TSClosed (v : T).
Arguments TSFull {T}. Arguments TSClosed {T}.

(** enum SendTimeoutError (/repo/src/mpsc/errors.rs:15-24). *)
Inductive send_timeout_error (T : Type) := STTimeout (v : T) | STClosed (v : T).
Arguments STTimeout {T}. Arguments STClosed {T}.

(** struct Closed (/repo/src/mpsc/errors.rs:84). *)
Inductive closed_error (T : Type) := CClosed (v : T).
Arguments CClosed {T}.

(** std's Result. *)
Inductive result (A E : Type) := Ok (a : A) | Err (e : E).
Arguments Ok {A E}. Arguments Err {A E}.

(** TrySendError::with_value, is_full, is_closed, into_inner
    (/repo/src/mpsc/errors.rs:185-223). *)
Definition ts_with_value {T} (e : try_send_error unit) (value : T) : try_send_error T :=
  match e with TSFull _ => TSFull value | TSClosed _ => TSClosed value end.
(** TrySendError::is_full (/repo/src/mpsc/errors.rs:196-198). *)
Definition ts_is_full {T} (e : try_send_error T) : bool := match e with TSFull _ => true | _ => false end.
(* lines 210-212: the pattern is Self::Full, as in is_full *)
(** TrySendError::is_closed (/repo/src/mpsc/errors.rs:210-212). *)
Definition ts_is_closed {T} (e : try_send_error T) : bool := match e with TSFull _ => true | _ => false end.
(** TrySendError::into_inner (/repo/src/mpsc/errors.rs:218-223). *)
Definition ts_into_inner {T} (e : try_send_error T) : T := match e with TSFull v => v | TSClosed v => v end.

(** SendTimeoutError::with_value, is_timeout, is_closed, into_inner
    (/repo/src/mpsc/errors.rs:117-156). *)
Definition st_with_value {T} (e : send_timeout_error unit) (value : T) : send_timeout_error T :=
  match e with STTimeout _ => STTimeout value | STClosed _ => STClosed value end.
(** SendTimeoutError::is_timeout (/repo/src/mpsc/errors.rs:129-131). *)
Definition st_is_timeout {T} (e : send_timeout_error T) : bool := match e with STTimeout _ => true | _ => false end.
(* lines 143-145: the pattern is Self::Timeout, as in is_timeout *)
(** SendTimeoutError::is_closed (/repo/src/mpsc/errors.rs:143-145). *)
Definition st_is_closed {T} (e : send_timeout_error T) : bool := match e with STTimeout _ => true | _ => false end.
(** SendTimeoutError::into_inner (/repo/src/mpsc/errors.rs:151-156). *)
Definition st_into_inner {T} (e : send_timeout_error T) : T := match e with STTimeout v => v | STClosed v => v end.

(** Closed::into_inner (/repo/src/mpsc/errors.rs:93-95). *)
Definition c_into_inner {T} (e : closed_error T) : T := match e with CClosed v => v end.

(** The by-value calls, given the outcome of the reference-returning call they
    make: [Ok old] is a handle whose slot contains [old], and the result
    includes what the slot contains when the handle is dropped.
    ChannelCore::try_send (/repo/src/mpsc.rs:366-377). *)
Definition try_send {T} (r : result T (try_send_error unit)) (val : T) : result T (try_send_error T) :=
  match r with Ok _ => Ok val | Err e => Err (ts_with_value e val) end.
(** Sender::send, StaticSender::send (/repo/src/mpsc/async_impl.rs:185-193,
    873-881, /repo/src/mpsc/blocking.rs:344-352, 1040-1048). *)
Definition send {T} (r : result T (closed_error unit)) (val : T) : result T (closed_error T) :=
  match r with Ok _ => Ok val | Err (CClosed _) => Err (CClosed val) end.
(** send_timeout (/repo/src/mpsc/blocking.rs:462-470, 1161-1169). *)
Definition send_timeout {T} (r : result T (send_timeout_error unit)) (val : T) : result T (send_timeout_error T) :=
  match r with Ok _ => Ok val | Err e => Err (st_with_value e val) end.
