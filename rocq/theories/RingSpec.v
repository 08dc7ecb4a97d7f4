(** Definitions used in the statements of the ring theorems. *)
From Coq Require Import List Arith NArith.
From Verif Require Import Word QueueSpec History CoreModel CoreArith.
Import ListNotations.

(** A history of a queue of capacity [cap] on a [W]-bit machine: the events of
    an arbitrary interleaving of arbitrarily many callers. *)
Definition ring_history {T} (W : N) (cap : nat) (pol : policy T) (es : list (event T)) : Prop :=
  exists s, run (core_new W (N.of_nat cap)) pol es s.

(** Values returned by all dequeues so far, oldest first. *)
Fixpoint taken_values {T} (es : list (event T)) : list T :=
  match es with
  | [] => []
  | Take _ v :: es' => taken_values es' ++ [v]
  | _ :: es' => taken_values es'
  end.

(** Values sent by [i], oldest first. *)
Fixpoint sent_by {T} (i : agent) (es : list (event T)) : list T :=
  match es with
  | [] => []
  | Commit j v :: es' => if Nat.eqb i j then sent_by i es' ++ [v] else sent_by i es'
  | _ :: es' => sent_by i es'
  end.

(** Values dequeued so far that were sent by [i], in the order in which they
    were dequeued: the [n]-th dequeue is matched with the [n]-th reservation. *)
Fixpoint received_from {T} (i : agent) (es : list (event T)) : list T :=
  match es with
  | [] => []
  | Take _ v :: es' =>
      match nth_error (reservers es') (count is_take es') with
      | Some j => if Nat.eqb i j then received_from i es' ++ [v] else received_from i es'
      | None => received_from i es'
      end
  | _ :: es' => received_from i es'
  end.

(** The slot an agent may be reading or writing the element of. *)
Definition accesses (P : params) (p : pc) : option N :=
  match p with
  | PInit t => Some (fst (idx_gen P t))
  | PHold r | QHold r => Some (r_idx r)
  | _ => None
  end.

(** Every plain (overflow-checked in debug builds) addition the agent is about
    to evaluate stays below 2^W:
    [tail + 1] (/repo/src/lib.rs:213,250), [(idx | gen) + 1] and [idx + 1] (150-161),
    [head + 1] (311). *)
Definition arithmetic_fits (P : params) (p : pc) : Prop :=
  match p with
  | PState t | PCas t | PInit t | QState t _ | QCas t _ =>
      (t + 1 < p_mod P)%N /\
      let '(idx, gen) := idx_gen P t in (idx + 1 < p_mod P)%N /\ (N.lor idx gen + 1 < p_mod P)%N
  | _ => True
  end.

(** Indices used with get_unchecked (/repo/src/lib.rs:199-208, 296-305) or held
    in a Ref are within the slot array. *)
Definition in_bounds {T} (P : params) (c : core T) (p : pc) : Prop :=
  match p with
  | PState t | PCas t | PInit t | QState t _ | QCas t _ => (fst (idx_gen P t) < c_len c)%N
  | PHold r | QHold r => (r_idx r < c_len c)%N
  | _ => True
  end.

(** Events of a concrete schedule, for examples. *)
Definition exec_events {T} (W : N) (cap : nat) (pol : policy T) (l : list action) : option (list (event T)) :=
  match exec (core_new W (N.of_nat cap)) pol (init_state (core_new W (N.of_nat cap))) [] l with
  | Some (_, es) => Some es
  | None => None
  end.
