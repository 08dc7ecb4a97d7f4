(** Constructors and their capacity checks.  No proofs here. *)
From Coq Require Import List Bool Arith NArith.
From Verif Require Import QueueSpec CoreModel.
Import ListNotations.
Local Open Scope N_scope.

(** ThingBuf::with_recycle (/repo/src/thingbuf.rs:305-312) and the channels'
    with_recycle (/repo/src/mpsc/async_impl.rs:37-48,
    /repo/src/mpsc/blocking.rs:40-53): [None] is the assertion failure. *)
Definition checked_new {T} (W capacity : N) : option (params * @state T) :=
  if 0 <? capacity then Some (core_new W capacity, init_state (core_new W capacity)) else None.

(** StaticThingBuf::new / with_recycle (/repo/src/static_thingbuf.rs:205-230) and StaticChannel::new (/repo/src/mpsc/async_impl.rs:707-714,
    /repo/src/mpsc/blocking.rs): no check of CAP. *)
Definition static_new {T} (W capacity : N) : option (params * @state T) :=
  Some (core_new W capacity, init_state (core_new W capacity)).
