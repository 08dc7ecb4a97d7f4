(** Definitions used in the statements of the theorems about the ring on weak memory. *)
From Coq Require Import List Bool Arith NArith.
From Verif Require Import Word QueueSpec CoreModel CoreArith WeakModel History.
Import ListNotations.

(** A history, on weak memory, of a queue of capacity [cap] on a [W]-bit machine whose atomic accesses have
    the orders [o]. *)
Definition weak_history {T} (W : N) (cap : nat) (pol : policy T) (o : orders) (es : list (event T)) : Prop :=
  exists s, weak_run (core_new W (N.of_nat cap)) pol o es s.

(** Fewer pushes than there are positions before words repeat (about 2^62 for small queues on 64 bits). *)
Definition few_pushes {T} (W : N) (cap : nat) (es : list (event T)) : Prop :=
  (N.of_nat (count is_reserve es) < slack W cap)%N.

(** The three orders the theorems need: both loads of slot.state are (at least) acquire
    (/repo/src/lib.rs:213, 311) and the store in Ref::drop is (at least) release (479). *)
Definition sound_orders (o : orders) : Prop :=
  o_push_load o = true /\ o_pop_load o = true /\ o_drop o = true.

(** The event that followed the history [es1] happens before whatever has view [v]. *)
Definition known {T} (v : view) (es1 : list (event T)) : Prop := v_know v (length es1) = true.

(** The [n]-th push was completed, with value [v], right after [es1]. *)
Definition completes {T} (n : nat) (v : T) (es2 : list (event T)) (es1 es : list (event T)) : Prop :=
  exists j, es = es2 ++ Commit j v :: es1 /\ last_is j (reservers es1) n = true.

(** The element of the [n]-th push was given back, with contents [v], right after [es1]. *)
Definition gives_back {T} (n : nat) (v : T) (es2 : list (event T)) (es1 es : list (event T)) : Prop :=
  exists j, es = es2 ++ Release j v :: es1 /\ last_is j (takers es1) n = true.

(** Events of a concrete schedule, for examples. *)
Definition weak_events {T} (W : N) (cap : nat) (pol : policy T) (o : orders) (l : list waction) : option (list (event T)) :=
  match weak_exec (core_new W (N.of_nat cap)) pol o (weak_init (core_new W (N.of_nat cap))) [] l with
  | Some (_, es) => Some es
  | None => None
  end.
