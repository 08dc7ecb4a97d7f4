(** Vocabulary for the statements about a receiver that runs alone. *)
From Coq Require Import List Bool Arith NArith.
From Verif Require Import QueueSpec CoreModel SoloSpec WaitCellModel ChannelModel.
Import ListNotations.

Section Spec.
  Context {T : Type}.
  Variables (P : params) (pol : policy T) (async debug : bool).

  (** Only the receiver runs, for at most [n] steps, until its call has returned. *)
  Fixpoint rx_alone (n : nat) (s : @chan T) (es : list (cevent T)) : option (@chan T * list (cevent T)) :=
    if rx_free s then Some (s, es) else
    match n with
    | 0 => None
    | S m => match cstep_sys P pol async debug s (CRx false) with
             | Some (s', l) => rx_alone m s' (l ++ es)
             | None => None
             end
    end.

  (** The receiver is inside recv_ref / poll_recv_ref / try_recv_ref. *)
  Definition in_recv (r : rpc) : bool :=
    match r with RAgain _ _ | RPop _ _ | RCall _ _ | RWait _ _ => true | _ => false end.

  (** Somebody is inside rx_wait.notify() or rx_wait.close_tx(), past its fetch_or (wait/cell.rs:164)
      and not past its fetch_and (168). *)
  Definition in_notify (s : @chan T) (j : nat) : Prop :=
    match ws_pc (ch_cell s) j with NTake | NAnd _ => True | _ => False end.

  (** Nobody has a RecvRef to the slot that is next to be received from. *)
  Definition front_unheld (s : @chan T) : Prop :=
    forall h, pop_handle (st_agents (ch_ring s) h) <> Some (head_index P (st_core (ch_ring s))).
End Spec.
