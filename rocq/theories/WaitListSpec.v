(** What the waiter list means. *)
From Coq Require Import List Bool Arith NArith.
From Verif Require Import WaitCellModel WaitList.
Import ListNotations.

(** First / last element of a list, or a default. *)
Definition hd_or (q : list nat) (d : option nat) : option nat := match q with [] => d | x :: _ => Some x end.
Fixpoint last_or (q : list nat) (d : option nat) : option nat :=
  match q with [] => d | x :: q' => last_or q' (Some x) end.

(** [q], oldest waiter first, is doubly linked: [next] points to the older
    neighbour (first one: [older]), [prev] to the newer one (last one: [newer]). *)
Fixpoint linked (h : heap) (older : option nat) (q : list nat) (newer : option nat) : Prop :=
  match q with
  | [] => True
  | x :: q' => n_next (h x) = older /\ n_prev (h x) = hd_or q' newer /\ linked h (Some x) q' newer
  end.

(** The list [l] in memory [h] holds exactly the waiters [q], oldest first. *)
Definition represents (h : heap) (l : wlist) (q : list nat) : Prop :=
  NoDup q /\ linked h None q None /\ l_tail l = hd_or q None /\ l_head l = last_or q None.

(** Waiter [n] points nowhere. *)
Definition detached (h : heap) (n : nat) : Prop := n_next (h n) = None /\ n_prev (h n) = None.

(** State and waker of every waiter but [n] are the same in both memories, and
    so are the links of the waiters outside [n :: q]. *)
Definition only_links (h h' : heap) (n : nat) (q : list nat) : Prop :=
  (forall m, n_state (h' m) = n_state (h m)) /\ (forall m, m <> n -> n_waker (h' m) = n_waker (h m)) /\
  (forall m, ~ In m (n :: q) -> h' m = h m).

Definition without (n : nat) (q : list nat) : list nat := filter (fun m => negb (Nat.eqb m n)) q.
