(** The receiver's wait cell (/repo/src/wait/cell.rs) on weak memory, with the memory orderings written in the
    code.  No proofs here.

    As in [WeakModel], the lock word has the list of all values it ever had (its modification order); a
    thread has seen some of them and may read any value that is not older.  Read-modify-writes read the newest
    value; a compare_exchange that fails is a load.  The stored waker is ordinary memory: an access to it by a
    thread that has not seen the previous access is a data race and is recorded.  What a step computes from what
    it read is taken from [WaitCellModel.wstep].

    Simplifications: only the accesses to the cell itself make other accesses to it visible (a thread may in
    fact have seen more, which only rules out executions); as in [WeakModel] for the rest. *)
From Coq Require Import List Bool Arith NArith.
From Verif Require Import WaitCellModel.
Import ListNotations.

(** Memory orderings (core::sync::atomic::Ordering, /repo/src/wait/cell.rs:1-8). *)
Inductive ordering := Relaxed | Acquire | Release | AcqRel.
(** The access makes visible to the thread what the value read carries (cell.rs:69, 101, 116, 164, 168, 188). *)
Definition is_acquire (o : ordering) : bool := match o with Acquire | AcqRel => true | _ => false end.
(** The value written carries what the thread has seen (cell.rs:101, 116, 164, 168). *)
Definition is_release (o : ordering) : bool := match o with Release | AcqRel => true | _ => false end.

(** The orderings of the accesses to the lock word:
    - [k_park]:   compare_exchange(WAITING, PARKING) of wait_with (/repo/src/wait/cell.rs:69)
    - [k_unpark]: compare_exchange(PARKING, WAITING) (101)
    - [k_fail]:   either of them when it fails (188)
    - [k_reset]:  fetch_and of wait_with (116)
    - [k_notify]: fetch_or of notify2 (164)
    - [k_unlock]: fetch_and of notify2 (168). *)
Record cell_orders := mkK {
  k_park : ordering; k_unpark : ordering; k_fail : ordering; k_reset : ordering; k_notify : ordering; k_unlock : ordering }.
(** The orderings in the code (lines as above). *)
Definition code_cell_orders : cell_orders := mkK Acquire AcqRel Acquire AcqRel AcqRel AcqRel.

(** One entry of the modification order of the lock word (/repo/src/wait/cell.rs:37): the word and the number of
    accesses to the waker that reading it with acquire makes visible. *)
Record cmsg := mkCM { cm_word : N; cm_acc : nat }.

(** What a thread has seen: the oldest value of the lock it may still read, and the number of accesses to the waker
    (/repo/src/wait/cell.rs:36-39). *)
Record cview := mkCV { cv_lock : nat; cv_acc : nat }.

(** The cell (/repo/src/wait/cell.rs:36-39): the newest values and where every thread is, as in [WaitCellModel]; the
    modification order of the lock, oldest first; the number of accesses to the waker; what every thread has
    seen; and the threads that accessed the waker in a data race. *)
Record wcell := mkWC {
  wc_sys : wsys;
  wc_msgs : list cmsg;
  wc_acc : nat;
  wc_views : nat -> cview;
  wc_races : list nat }.

(** What an access to the lock makes visible to whom, beyond the cell itself ([WeakChannelModel] uses it): nothing;
    a load of the [k]-th value; a read-modify-write that appends the [n]-th value. *)
Inductive csync :=
| NoSync
| LoadSync (k : nat) (o : ordering)
| RmwSync (n : nat) (o : ordering).

(** Update of one thread's view. *)
Definition updc (f : nat -> cview) (i : nat) (v : cview) : nat -> cview := fun j => if Nat.eqb j i then v else f j.
(** The waker accesses the newest value of the lock carries. *)
Definition newest_acc (l : list cmsg) : nat :=
  match nth_error l (Nat.pred (length l)) with Some m => cm_acc m | None => 0 end.

Section WeakCell.
  Variables (debug : bool) (k : cell_orders).

  (** Thread [i] makes the step of [WaitCellModel.wstep] with the cell as it is; [v] is its view afterwards. *)
  Definition plain (s : wcell) (i : nat) (v : cview) (acc : nat) (races : list nat) : wcell * option wevent :=
    let '(c', p', e) := wstep debug (ws_cell (wc_sys s)) i (ws_pc (wc_sys s) i) in
    (mkWC (mkW c' (wset (ws_pc (wc_sys s)) i p')) (wc_msgs s) acc (updc (wc_views s) i v) races, e).

  (** An access to the waker (/repo/src/wait/cell.rs:94, 113, 166). *)
  Definition access_waker (s : wcell) (i : nat) : wcell * option wevent :=
    let v := wc_views s i in
    let n := S (wc_acc s) in
    plain s i (mkCV (cv_lock v) n) n (if Nat.eqb (cv_acc v) (wc_acc s) then wc_races s else i :: wc_races s).

  (** A read-modify-write of the lock (69, 101, 116, 164, 168): acts on the newest value and appends a new one,
      which also carries what the value replaced carried (release sequence). *)
  Definition rmw (s : wcell) (i : nat) (o : ordering) : wcell * option wevent * csync :=
    let v := wc_views s i in
    let n := length (wc_msgs s) in
    let prev := newest_acc (wc_msgs s) in
    let v' := mkCV n (if is_acquire o then Nat.max (cv_acc v) prev else cv_acc v) in
    let '(s', e) := plain s i v' (wc_acc s) (wc_races s) in
    let m := mkCM (w_state (ws_cell (wc_sys s'))) (if is_release o then Nat.max (cv_acc v') prev else prev) in
    (mkWC (wc_sys s') (wc_msgs s ++ [m]) (wc_acc s') (wc_views s') (wc_races s'), e, RmwSync n o).

  (** A compare_exchange that fails (/repo/src/wait/cell.rs:188): a load that returns the [x]-th value, which is not
      the expected one.  The step is made with the word read, which need not be the newest. *)
  Definition cas_fails (s : wcell) (i : nat) (expected : N) (x : nat) : option (wcell * option wevent * csync) :=
    let v := wc_views s i in
    if cv_lock v <=? x then
      match nth_error (wc_msgs s) x with
      | Some m =>
          if N.eqb (cm_word m) expected then None
          else
            let c := ws_cell (wc_sys s) in
            let '(_, p', e) := wstep debug (mkCell (cm_word m) (w_waiter c)) i (ws_pc (wc_sys s) i) in
            let v' := mkCV x (if is_acquire (k_fail k) then Nat.max (cv_acc v) (cm_acc m) else cv_acc v) in
            Some (mkWC (mkW c (wset (ws_pc (wc_sys s)) i p')) (wc_msgs s) (wc_acc s) (updc (wc_views s) i v') (wc_races s),
                  e, LoadSync x (k_fail k))
      | None => None
      end
    else None.

  (** A compare_exchange: [None] - it succeeds, [Some x] - it fails having read the [x]-th value. *)
  Definition cas (s : wcell) (i : nat) (expected : N) (o : ordering) (x : option nat) : option (wcell * option wevent * csync) :=
    match x with
    | None => if N.eqb (w_state (ws_cell (wc_sys s))) expected then Some (rmw s i o) else None
    | Some x => cas_fails s i expected x
    end.

  Definition no_sync (r : wcell * option wevent) : option (wcell * option wevent * csync) := Some (r, NoSync).

  (** One step of thread [i] inside wait_with (/repo/src/wait/cell.rs:65-150) or notify2 (160-176). *)
  Definition wcell_step (s : wcell) (i : nat) (x : option nat) : option (wcell * option wevent * csync) :=
    match ws_pc (wc_sys s) i with
    | WIdle => None
    | WCas1 _ _ => cas s i WAITING (k_park k) x
    | WReplace _ false => no_sync (access_waker s i)
    | WCas2 _ _ _ => cas s i PARKING (k_unpark k) x
    | WTake _ _ _ _ => no_sync (access_waker s i)
    | WAnd _ _ _ _ _ => Some (rmw s i (k_reset k))
    | NOr _ => Some (rmw s i (k_notify k))
    | NTake => no_sync (access_waker s i)
    | NAnd _ => Some (rmw s i (k_unlock k))
    | _ => no_sync (plain s i (wc_views s i) (wc_acc s) (wc_races s))
    end.

  (** Calls of wait_with, notify and close_tx (/repo/src/wait/cell.rs:65, 152-158). *)
  Definition wcell_call (s : wcell) (i : nat) (p : wpc) (e : wevent) : option (wcell * option wevent) :=
    match ws_pc (wc_sys s) i with
    | WIdle => Some (mkWC (mkW (ws_cell (wc_sys s)) (wset (ws_pc (wc_sys s)) i p)) (wc_msgs s) (wc_acc s) (wc_views s) (wc_races s),
                     Some e)
    | _ => None
    end.

  (** What may happen.  [x]: see [cas]. *)
  Inductive kaction :=
  | KWait (i : nat) (w : waker) (pan : bool)
  | KNotify (i : nat) (close : bool)
  | KStep (i : nat) (x : option nat).

  (** Its effect (/repo/src/wait/cell.rs:65-176). *)
  Definition kstep (s : wcell) (a : kaction) : option (wcell * option wevent) :=
    match a with
    | KWait i w pan => wcell_call s i (WCas1 w pan) (CallWait i w pan)
    | KNotify i close => wcell_call s i (NOr close) (CallNotify i close)
    | KStep i x => match wcell_step s i x with Some (s', e, _) => Some (s', e) | None => None end
    end.

  (** A new cell (/repo/src/wait/cell.rs:48-53). *)
  Definition wcell_init : wcell := mkWC winit [mkCM WAITING 0] 0 (fun _ => mkCV 0 0) [].

  (** Executions; events most recent first. *)
  Inductive krun : list wevent -> wcell -> Prop :=
  | krun_init : krun [] wcell_init
  | krun_step es s a s' e : krun es s -> kstep s a = Some (s', e) ->
      krun (match e with Some x => x :: es | None => es end) s'.

  (** Executable version, for examples. *)
  Fixpoint kexec (s : wcell) (es : list wevent) (l : list kaction) : option (wcell * list wevent) :=
    match l with
    | [] => Some (s, es)
    | a :: l' => match kstep s a with
                 | Some (s', e) => kexec s' (match e with Some x => x :: es | None => es end) l'
                 | None => None
                 end
    end.
End WeakCell.
