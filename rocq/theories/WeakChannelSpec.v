(** Definitions used in the statements about the receiving side of a channel on weak memory. *)
From Coq Require Import List Bool Arith NArith.
From Verif Require Import QueueSpec CoreModel WeakModel WeakSpec WeakCellModel WeakChannelModel History.
Import ListNotations.

(** The orderings the theorems need: those of the ring; the fetch_or of a notification is (at least) release
    (/repo/src/wait/cell.rs:164), the compare_exchange that ends a registration (at least) acquire (101), the failing
    compare_exchange and the fetch_and of wait_with too (188, 116). *)
Record sound_chan (o : chan_orders) : Prop := {
  so_ring : sound_orders (co_ring o);
  so_notify : is_release (k_notify (co_cell o)) = true;
  so_unpark : is_acquire (k_unpark (co_cell o)) = true;
  so_fail : is_acquire (k_fail (co_cell o)) = true;
  so_reset : is_acquire (k_reset (co_cell o)) = true }.

(** The fetch_sub of the sender count is release and the last Sender executes the fence
    (/repo/src/mpsc/async_impl.rs:273-278, /repo/src/mpsc/blocking.rs:1247-1252). *)
Record sound_count (o : chan_orders) : Prop := {
  so_sub : is_release (co_sub o) = true;
  so_fence : co_fence o = true }.

(** Senders dropped and created so far (one exists from the start). *)
Fixpoint dropped {T} (ys : list (yevent (T := T))) : nat :=
  match ys with [] => 0 | YDropTx _ :: l => S (dropped l) | _ :: l => dropped l end.
Fixpoint created {T} (ys : list (yevent (T := T))) : nat :=
  match ys with [] => 1 | YClone _ _ :: l => S (created l) | _ :: l => created l end.

(** A thread that was panicking tried to close the ring before anybody else did: this has no effect
    (/repo/src/lib.rs:169-171). *)
Definition hushed {T} (es : list (event T)) : Prop :=
  exists i es2 es1, es = es2 ++ Closing i false :: es1 /\ closed_in es1 = false.

(** No Sender is in the middle of a notification or of closing the channel. *)
Definition settled {T} (s : ystate (T := T)) : Prop :=
  forall j, y_tx s j <> SNotify /\ y_tx s j <> SCloseTx /\ y_tx s j <> SClosing.

(** Events of a concrete schedule, for examples. *)
Definition chan_case {T} P pol debug o async (l : list (yaction (T := T))) : option (ystate (T := T) * list (yevent (T := T))) :=
  yexec P pol debug o async (yinit P) [] l.
