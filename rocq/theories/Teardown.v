(** Dropping a queue.  No proofs here. *)
From Coq Require Import List Bool Arith NArith.
From Verif Require Import QueueSpec CoreModel.
Import ListNotations.

(** Core::drop_slots with its has_dropped_slots flag (/repo/src/lib.rs:388-409,
    98, called from Drop for ThingBuf, /repo/src/thingbuf.rs:496-498, for
    StaticThingBuf, /repo/src/static_thingbuf.rs:528, and from the channels'
    Drop for Inner, /repo/src/mpsc/async_impl.rs:602-606,
    /repo/src/mpsc/blocking.rs:1592-1596).
    The slot contents dropped are returned in order; [None] among them is a
    drop of uninitialised memory.  In builds with debug assertions the second
    call panics instead of returning. *)
Definition teardown {T} (P : params) (flag : bool) (c : core T) : bool * list (option T) :=
  if flag then (flag, []) else (true, drop_slots P c).

(** A push is between claiming a slot (/repo/src/lib.rs:218-220) and having initialised it
    (233-240), or died there. *)
Definition constructing (p : pc) : bool := match p with PInit _ | PDead _ => true | _ => false end.
