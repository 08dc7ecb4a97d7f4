(** The spin lock used without std (/repo/src/util/mutex/spin_impl.rs).
    No proofs here. *)
From Coq Require Import List Bool Arith.
Import ListNotations.

(** Program counter of one thread: [Cas] is about to compare_exchange (line
    43), [Load] about to load [locked] in the inner loop (line 44), [Held] holds
    the guard. *)
Inductive lpc := LIdle | LCas | LLoad | LHeld.

(** struct Mutex (/repo/src/util/mutex/spin_impl.rs:12-15), its [locked] flag, and where every
    thread is. *)
Record lock := mkL { l_locked : bool; l_pc : nat -> lpc }.

(** Mutex::new (/repo/src/util/mutex/spin_impl.rs:23-37). *)
Definition lock_init : lock := mkL false (fun _ => LIdle).
(** Thread [i] moves to [p]. *)
Definition lset (f : nat -> lpc) (i : nat) (p : lpc) : nat -> lpc := fun j => if Nat.eqb j i then p else f j.

(** Mutex::lock (/repo/src/util/mutex/spin_impl.rs:40-55) and
    MutexGuard::drop (91-96), one shared-memory access per step. *)
Definition lstep (s : lock) (i : nat) : option lock :=
  match l_pc s i with
  | LIdle => Some (mkL (l_locked s) (lset (l_pc s) i LCas))
  | LCas => if l_locked s then Some (mkL true (lset (l_pc s) i LLoad))
            else Some (mkL true (lset (l_pc s) i LHeld))
  | LLoad => if l_locked s then Some (mkL true (lset (l_pc s) i LLoad))
             else Some (mkL false (lset (l_pc s) i LCas))
  | LHeld => Some (mkL false (lset (l_pc s) i LIdle))
  end.

(** Threads step in the order [sched], inside the calls of
    /repo/src/util/mutex/spin_impl.rs:40-55, 91-96. *)
Fixpoint lrun (s : lock) (sched : list nat) : option lock :=
  match sched with
  | [] => Some s
  | i :: l => match lstep s i with Some s' => lrun s' l | None => None end
  end.
