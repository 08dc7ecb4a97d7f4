(** Definitions used in the statements about the wait cell on weak memory. *)
From Coq Require Import List Bool Arith NArith.
From Verif Require Import WeakCellModel.

(** The orderings the accesses to the waker rely on: taking the lock is (at least) acquire
    (/repo/src/wait/cell.rs:69, 164), giving it back (at least) release (101, 116, 168). *)
Record sound_cell (k : cell_orders) : Prop := {
  sk_park : is_acquire (k_park k) = true;
  sk_unpark : is_release (k_unpark k) = true;
  sk_reset : is_release (k_reset k) = true;
  sk_notify : is_acquire (k_notify k) = true;
  sk_unlock : is_release (k_unlock k) = true }.

