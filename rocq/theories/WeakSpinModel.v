(** The spin lock used without std on weak memory (/repo/src/util/mutex/spin_impl.rs).  No proofs here.

    The flag has a modification order; loads and failing compare_exchanges may return any value not older than what the
    thread has seen.  What a thread knows of the others is a vector clock: [c j] is the number of actions of thread [j]
    that happened before.  The protected data is ordinary memory, and a missing happens-before between two accesses is
    recorded. *)
From Coq Require Import List Bool Arith.
From Verif Require Import WeakCellModel.
Import ListNotations.

(** The orderings in Mutex::lock (/repo/src/util/mutex/spin_impl.rs:43: success, failure; 44) and in Drop for MutexGuard (93). *)
Record lock_orders := mkLO { lo_cas : ordering; lo_fail : ordering; lo_load : ordering; lo_unlock : ordering }.
Definition code_lock_orders : lock_orders := mkLO AcqRel Acquire Relaxed Release.

(** Vector clocks: what is known of every thread. *)
Definition clock := nat -> nat.
Definition c_join (a b : clock) : clock := fun j => Nat.max (a j) (b j).
Definition c_tick (i : nat) (a : clock) : clock := fun j => if Nat.eqb j i then S (a j) else a j.

(** Where a thread is: not in lock; about to compare_exchange (43); about to load in the inner loop (44); holds the guard.
    Backoff::spin_yield (45) touches no shared memory. *)
Inductive spc := SpIdle | SpCas | SpLoad | SpHeld.

(** The values the flag had, oldest first, each with the clock that an acquiring read of it learns; the oldest value each
    thread may still read; what each thread knows; where it is; the accesses to the data (/repo/src/util/mutex/spin_impl.rs:62-88), by
    thread and time of that thread; and the threads that raced. *)
Record spin := mkSp {
  sp_hist : list (bool * clock);
  sp_seen : nat -> nat;
  sp_clock : nat -> clock;
  sp_pc : nat -> spc;
  sp_acc : list (nat * nat);
  sp_bad : list nat }.

(** Events: thread [i] has acquired, released the lock, when it knew [c]. *)
Inductive sevent := Locked (i : nat) (c : clock) | Unlocked (i : nat) (c : clock).

(** Mutex::new (/repo/src/util/mutex/spin_impl.rs:23-37). *)
Definition spin_init : spin := mkSp [(false, fun _ => 0)] (fun _ => 0) (fun _ _ => 0) (fun _ => SpIdle) [] [].

(** Update of one thread. *)
Definition fset {A} (f : nat -> A) (i : nat) (x : A) : nat -> A := fun j => if Nat.eqb j i then x else f j.

(** A read of the value [p] of the modification order: what is known afterwards. *)
Definition learn (s : spin) (i p : nat) (ord : ordering) : clock :=
  match nth_error (sp_hist s) p with
  | Some (_, u) => if is_acquire ord then c_join (sp_clock s i) u else sp_clock s i
  | None => sp_clock s i
  end.
(** Thread [i] has read the value [p] and goes on at [q]. *)
Definition sp_read (s : spin) (i p : nat) (ord : ordering) (q : spc) : spin :=
  mkSp (sp_hist s) (fset (sp_seen s) i p) (fset (sp_clock s) i (c_tick i (learn s i p ord))) (fset (sp_pc s) i q) (sp_acc s) (sp_bad s).

(** What may happen.
    - [SpCall i]: lock is called (40)
    - [SpStep i k]: the next access of [i] in lock: of the newest value ([None]), or of the [p]-th if that is not older than
      what it has seen; a compare_exchange that reads an old value fails, so it must be [true]
    - [SpAccess i]: the data is accessed through the guard (62-88)
    - [SpDrop i]: the guard is dropped (91-96)
    - [SpWork i]: anything else [i] does
    - [SpSync i j]: [j] learns what [i] knows by other means. *)
Inductive spaction := SpCall (i : nat) | SpStep (i : nat) (k : option nat) | SpAccess (i : nat) | SpDrop (i : nat) | SpWork (i : nat) | SpSync (i j : nat).

(** The newest value of the flag and the clock it carries. *)
Definition newest (s : spin) : bool * clock := nth (length (sp_hist s) - 1) (sp_hist s) (false, fun _ => 0).

Section Spin.
  Variable o : lock_orders.

  (** Effect of each; the lines are given with the actions.  A read-modify-write continues the release sequence of what it read.  A store
      to the flag by a thread that has not seen the newest value is recorded like a race. *)
  Definition sp_step (s : spin) (a : spaction) : option (spin * option sevent) :=
    match a with
    | SpCall i => match sp_pc s i with
                  | SpIdle => Some (mkSp (sp_hist s) (sp_seen s) (sp_clock s) (fset (sp_pc s) i SpCas) (sp_acc s) (sp_bad s), None)
                  | _ => None
                  end
    | SpStep i k =>
        let p := match k with Some p => p | None => length (sp_hist s) - 1 end in
        match sp_pc s i, nth_error (sp_hist s) p with
        | SpCas, Some (true, _) => if sp_seen s i <=? p then Some (sp_read s i p (lo_fail o) SpLoad, None) else None
        | SpCas, Some (false, u) =>
            match k with
            | Some _ => None
            | None =>
                let c := c_tick i (learn s i p (lo_cas o)) in
                let u' := if is_release (lo_cas o) then c_join c u else u in
                Some (mkSp (sp_hist s ++ [(true, u')]) (fset (sp_seen s) i (length (sp_hist s))) (fset (sp_clock s) i c)
                        (fset (sp_pc s) i SpHeld) (sp_acc s) (sp_bad s), Some (Locked i c))
            end
        | SpLoad, Some (b, _) => if sp_seen s i <=? p then Some (sp_read s i p (lo_load o) (if b then SpLoad else SpCas), None) else None
        | _, _ => None
        end
    | SpAccess i =>
        match sp_pc s i with
        | SpHeld =>
            let c := c_tick i (sp_clock s i) in
            let ok := forallb (fun a => snd a <=? c (fst a)) (sp_acc s) in
            Some (mkSp (sp_hist s) (sp_seen s) (fset (sp_clock s) i c) (sp_pc s) ((i, c i) :: sp_acc s) (if ok then sp_bad s else i :: sp_bad s), None)
        | _ => None
        end
    | SpDrop i =>
        match sp_pc s i with
        | SpHeld =>
            let c := c_tick i (sp_clock s i) in
            let u := if is_release (lo_unlock o) then c else fun _ => 0 in
            let ok := sp_seen s i =? length (sp_hist s) - 1 in
            Some (mkSp (sp_hist s ++ [(false, u)]) (fset (sp_seen s) i (length (sp_hist s))) (fset (sp_clock s) i c)
                    (fset (sp_pc s) i SpIdle) (sp_acc s) (if ok then sp_bad s else i :: sp_bad s), Some (Unlocked i c))
        | _ => None
        end
    | SpWork i => Some (mkSp (sp_hist s) (sp_seen s) (fset (sp_clock s) i (c_tick i (sp_clock s i))) (sp_pc s) (sp_acc s) (sp_bad s), None)
    | SpSync i j => Some (mkSp (sp_hist s) (fset (sp_seen s) j (Nat.max (sp_seen s i) (sp_seen s j)))
                            (fset (sp_clock s) j (c_join (sp_clock s j) (sp_clock s i))) (sp_pc s) (sp_acc s) (sp_bad s), None)
    end.

  (** Executions; events most recent first. *)
  Inductive sprun : list sevent -> spin -> Prop :=
  | sprun_init : sprun [] spin_init
  | sprun_step es s a s' e : sprun es s -> sp_step s a = Some (s', e) -> sprun (match e with Some x => x :: es | None => es end) s'.

  (** Executable version, for examples. *)
  Fixpoint sp_exec (s : spin) (es : list sevent) (l : list spaction) : option (spin * list sevent) :=
    match l with
    | [] => Some (s, es)
    | a :: l' => match sp_step s a with Some (s', e) => sp_exec s' (match e with Some x => x :: es | None => es end) l' | None => None end
    end.
End Spin.
