(** Vocabulary for the statements about a send that runs alone. *)
From Coq Require Import List Bool Arith NArith.
From Verif Require Import QueueSpec CoreModel WaitCellModel ChannelModel.
Import ListNotations.

Section Spec.
  Context {T : Type}.
  Variables (P : params) (pol : policy T) (async debug : bool).

  (** Process [i] has nothing to do by itself: its call has returned, or it sleeps. *)
  Definition tx_rests (t : tpc) : bool := match t with TNone | TPark | THold | TEnd | TDead => true | _ => false end.

  (** It is inside send_ref, try_send_ref or the future of send_ref, and not asleep. *)
  Definition sending (t : tpc) : bool := match t with TNew | TAgain _ | TPush _ | TCall _ | TWait _ => true | _ => false end.

  (** Only process [i] runs, for at most [n] steps, passing waker [w], until it rests. *)
  Fixpoint tx_alone (n : nat) (s : @chan T) (es : list (cevent T)) (i : nat) (w : waker) : option (@chan T * list (cevent T)) :=
    if tx_rests (ch_tx s i) then Some (s, es) else
    match n with
    | 0 => None
    | S m => match cstep_sys P pol async debug s (CTx i w false) with
             | Some (s', l) => tx_alone m s' (l ++ es) i w
             | None => None
             end
    end.
End Spec.
