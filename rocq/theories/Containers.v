(** Dropping the types that contain a Core.  No proofs here. *)
From Coq Require Import List Bool Arith NArith.
From Verif Require Import QueueSpec CoreModel Teardown.
Import ListNotations.

(** The types that contain a Core: ThingBuf (/repo/src/thingbuf.rs:183-187), StaticThingBuf
    (/repo/src/static_thingbuf.rs:195-199), the heap-allocated channels' Inner
    (/repo/src/mpsc/async_impl.rs:70-74, /repo/src/mpsc/blocking.rs:72-76) and StaticChannel
    (/repo/src/mpsc/async_impl.rs:645-650, /repo/src/mpsc/blocking.rs:122-127). *)
Inductive container := CThingBuf | CStaticThingBuf | CInner | CStaticChannel.

(** Has the type a Drop that calls drop_slots?  /repo/src/thingbuf.rs:496-500, /repo/src/static_thingbuf.rs:526-530,
    /repo/src/mpsc/async_impl.rs:602-606, /repo/src/mpsc/blocking.rs:1592-1596; StaticChannel has no Drop. *)
Definition drops_slots (k : container) : bool :=
  match k with CThingBuf | CStaticThingBuf | CInner => true | CStaticChannel => false end.

(** Dropping a value of type [k]: its own Drop, then those of its fields, among them Drop for Core
    (/repo/src/lib.rs:412-420), whose debug assertion requires has_dropped_slots.  [None]: the assertion fails
    (a panic in a destructor).  Otherwise the elements dropped: MaybeUninit (lib.rs:101-104) drops nothing by
    itself. *)
Definition drop_container {T} (debug : bool) (P : params) (k : container) (c : core T) : option (list (option T)) :=
  let '(flag, dropped) := if drops_slots k then teardown P false c else (false, []) in
  if debug && negb flag then None else Some dropped.
