(** The senders' wait queue (/repo/src/wait/queue.rs) on weak memory.  No proofs here.

    As in [WeakCellModel]: an atomic location has the list of all values it ever had (its modification order); a
    thread may read any of them that is not older than what it has seen.  Read-modify-writes act on the newest value; a
    compare_exchange that fails is a load.  The list and the waiters' nodes are ordinary memory: an access by a
    thread that has not seen all earlier accesses is a data race and is recorded.  Threads see what others did only
    through the mutex around the list, and through being woken: all atomic accesses of the queue are treated as
    relaxed, although the code has them SeqCst, Acquire or Release (193, 218, 225, 239, 280, 305, 336, 375, 380, 420, 446,
    484, 490, 580).  This only adds executions.  What a step computes from what it read is taken from
    [WaitQueueModel.qstep].

    The store of EMPTY (420) is appended to the modification order: every other write of the state word is a
    read-modify-write, which leaves no room before it, and the earlier stores have been seen (the list is locked).
    The mutex (std, parking_lot, or the spin lock of SpinLock.v) is assumed to make visible to whoever locks it
    all that was visible to whoever unlocked it. *)
From Coq Require Import List Bool Arith NArith.
From Verif Require Import WaitCellModel WaitList WaitQueueModel.
Import ListNotations.

(** What a thread has seen: the oldest value of the state word (/repo/src/wait/queue.rs:60-86) and of every waiter's
    state (104-133) it may still read, and the number of accesses to every piece of ordinary memory: [None] is the
    list (151-154), [Some n] the node of waiter [n] (136-147). *)
Record qview := mkQV { qv_state : nat; qv_node : nat -> nat; qv_data : option nat -> nat }.
(** A thread that has seen nothing (WaitQueue::new, queue.rs:171-176). *)
Definition qv_zero : qview := mkQV 0 (fun _ => 0) (fun _ => 0).
(** What is seen by whoever has seen both (at the mutex, queue.rs:99, and at a wakeup, 428, 450). *)
Definition qv_join (a b : qview) : qview :=
  mkQV (Nat.max (qv_state a) (qv_state b)) (fun n => Nat.max (qv_node a n) (qv_node b n)) (fun x => Nat.max (qv_data a x) (qv_data b x)).

(** The queue (/repo/src/wait/queue.rs:60-100): the newest values and where every thread is, as in [WaitQueueModel]; the
    modification orders of the state word and of every waiter's state, oldest first; what every thread has
    seen; what the last thread that unlocked the mutex had seen; for every owner that was woken and did not act on it
    yet, what the waking threads had seen; the newest value of its waiter's state it was woken about; the number of
    accesses to ordinary memory; the threads that accessed it in a data race; the owners that learnt from their waiter's
    state that they were taken without having been woken by whoever took them, or that gave up without that. *)
Record wqueue := mkWQ {
  wq_sys : qsys;
  wq_hist : list N;
  wq_nodes : nat -> list N;
  wq_views : nat -> qview;
  wq_lockv : qview;
  wq_wakes : nat -> option qview;
  wq_woken : nat -> nat;
  wq_data : option nat -> nat;
  wq_races : list nat;
  wq_hasty : list nat }.

(** Equality of pieces of ordinary memory. *)
Definition loc_eqb (x y : option nat) : bool :=
  match x, y with None, None => true | Some n, Some m => Nat.eqb n m | _, _ => false end.
(** Is [x] among [q]? *)
Definition touched (q : list (option nat)) (x : option nat) : bool := existsb (loc_eqb x) q.

(** The ordinary memory the next step of agent [i] reads or writes (lines of /repo/src/wait/queue.rs): 272-278; 288 (548-574);
    410, 448-449 (577-579); 584-598; 419; 350-359; 481 (601-626); 483; the end of the waiter's life. *)
Definition touches (s : qsys) (i : nat) : list (option nat) :=
  match q_pc s i with
  | SNode _ | CUpd _ | DFree => [Some i]
  | SEnq _ => None :: Some i :: map Some (enqueue_touches (q_list s))
  | TSlow _ | KLoop | TEmpty _ | DEmpty => [None]
  | TLinks n | KLinks n => None :: map Some (dequeue_touches (q_heap s) n)
  | DRemove => None :: map Some (remove_touches (q_heap s) i)
  | _ => []
  end.

(** Does the next step of agent [i], acting on the newest value, write the state word (queue.rs:193, 227, 242, 380, 446, 420, 484)? *)
Definition writes_state (s : qsys) (i : nat) : bool :=
  match q_pc s i with
  | SCas _ | SCasWaking _ => N.eqb (q_state s) Q_WAKING
  | SCasEmpty _ => N.eqb (q_state s) Q_EMPTY
  | TCas v => N.eqb (q_state s) v
  | KSwap => true
  | TEmpty _ => list_is_empty (q_list s)
  | DEmpty => list_is_empty (q_list s) && N.eqb (q_state s) Q_WAITING
  | _ => false
  end.
(** Does it access the state word at all (193, 218, 227, 242, 375, 380, 446, 420, 484)? *)
Definition uses_state (s : qsys) (i : nat) : bool :=
  match q_pc s i with
  | SCas _ | SLoad _ | SCasEmpty _ | SCasWaking _ | TLoad | TCas _ | KSwap => true
  | TEmpty _ | DEmpty => list_is_empty (q_list s)
  | _ => false
  end.
(** The waiter whose state agent [i], moving from [p] to [p'], has swapped (280, 580). *)
Definition swaps (i : nat) (p p' : qpc) : option nat :=
  match p, p' with
  | SSwap _, SEnq _ => Some i
  | TSlow _, TLinks n => Some n
  | KLoop, KLinks n => Some n
  | _, _ => None
  end.
(** The waiter whose state the next step of agent [i] loads (305, 336, 490). *)
Definition loads_node (s : qsys) (i : nat) : bool :=
  match q_pc s i with CLoad _ | CLoad2 _ | DLoad => true | _ => false end.

(** Index of the newest value. *)
Definition last_index (l : list N) : nat := Nat.pred (length l).
(** Thread [i] has seen [v]. *)
Definition qv_set (f : nat -> qview) (i : nat) (v : qview) : nat -> qview := pset f i v.

(** Agent [i] accesses the ordinary memory [q] (lines as in [touches]). *)
Definition access (s : wqueue) (i : nat) (q : list (option nat)) : wqueue :=
  let v := wq_views s i in
  let d x := if touched q x then S (wq_data s x) else wq_data s x in
  let v' := mkQV (qv_state v) (qv_node v) (fun x => if touched q x then S (wq_data s x) else qv_data v x) in
  let ok := forallb (fun x => Nat.eqb (qv_data v x) (wq_data s x)) q in
  mkWQ (wq_sys s) (wq_hist s) (wq_nodes s) (qv_set (wq_views s) i v') (wq_lockv s) (wq_wakes s) (wq_woken s) d
       (if ok then wq_races s else i :: wq_races s) (wq_hasty s).

(** The mutex went from [l] to [l'] in a step of agent [i] (215, 290, 332, 361, 401, 424, 447, 453, 474, 486, and unwinding). *)
Definition mutex_sync (s : wqueue) (i : nat) (l l' : option nat) : wqueue :=
  match l, l' with
  | None, Some _ => mkWQ (wq_sys s) (wq_hist s) (wq_nodes s) (qv_set (wq_views s) i (qv_join (wq_views s i) (wq_lockv s))) (wq_lockv s)
                      (wq_wakes s) (wq_woken s) (wq_data s) (wq_races s) (wq_hasty s)
  | Some _, None => mkWQ (wq_sys s) (wq_hist s) (wq_nodes s) (wq_views s) (wq_views s i) (wq_wakes s) (wq_woken s) (wq_data s) (wq_races s) (wq_hasty s)
  | _, _ => s
  end.

(** A thread that read or wrote the [k]-th value of the state word has seen it. *)
Definition see_state (v : qview) (k : nat) : qview := mkQV k (qv_node v) (qv_data v).
(** The same for the state of waiter [n]. *)
Definition see_node (v : qview) (n k : nat) : qview := mkQV (qv_state v) (pset (qv_node v) n k) (qv_data v).

(** Agent [i] was told, in a step with event [e], by the [k]-th value of its waiter's state that it was taken (305-308, 490):
    it is hasty if it has not been woken about that value. *)
Definition hasten (s : wqueue) (i k : nat) (e : option qevent) : list nat :=
  match e with
  | Some (EPeek _) => if k <=? wq_woken s i then wq_hasty s else i :: wq_hasty s
  | _ => wq_hasty s
  end.

Section WeakQueue.
  Variable debug : bool.

  (** Agent [i] makes a step that acts on the newest values. *)
  Definition newest (s : wqueue) (i : nat) : option (wqueue * option qevent) :=
    let y := wq_sys s in
    match qstep debug y i false with
    | None => None
    | Some (y', e) =>
        let s := access s i (touches y i) in
        let h' := if writes_state y i then wq_hist s ++ [q_state y'] else wq_hist s in
        let v := wq_views s i in
        let v := if uses_state y i then see_state v (last_index h') else v in
        let '(nodes', v) :=
          match swaps i (q_pc y i) (q_pc y' i) with
          | Some n => let l := wq_nodes s n ++ [n_state (q_heap y' n)] in (pset (wq_nodes s) n l, see_node v n (last_index l))
          | None => (wq_nodes s, if loads_node y i then see_node v i (last_index (wq_nodes s i)) else v)
          end in
        let wakes' := match e with
                      | Some (EWoke _ n _) => pset (wq_wakes s) n (Some (match wq_wakes s n with Some u => qv_join u v | None => v end))
                      | _ => wq_wakes s
                      end in
        let s := mkWQ y' h' nodes' (qv_set (wq_views s) i v) (wq_lockv s) wakes' (wq_woken s) (wq_data s) (wq_races s)
                      (hasten s i (last_index (wq_nodes s i)) e) in
        Some (mutex_sync s i (q_lock y) (q_lock y'), e)
    end.

  (** What [qstep] makes of an old value: only where the agent is, and the mutex (unwinding), can change. *)
  Definition after_load (s : wqueue) (i k : nat) (v : qview) (r : option (qsys * option qevent)) : option (wqueue * option qevent) :=
    match r with
    | None => None
    | Some (y', e) =>
        let y := wq_sys s in
        let s' := mkWQ (mkQ (q_state y) (q_lock y') (q_list y) (q_heap y) (q_pc y') (q_phase y)) (wq_hist s) (wq_nodes s)
                       (qv_set (wq_views s) i v) (wq_lockv s) (wq_wakes s) (wq_woken s) (wq_data s) (wq_races s) (hasten s i k e) in
        Some (mutex_sync s' i (q_lock y) (q_lock y'), e)
    end.

  (** The [k]-th value of the state word may be returned by the load, or by the failing compare_exchange, that is
      next (218, 375; 193, 484: not the expected value; 227, 242, 380: the weak ones may fail in any case). *)
  Definition may_read (p : qpc) (v : N) : bool :=
    match p with
    | SLoad _ | TLoad | SCasEmpty _ | SCasWaking _ | TCas _ => true
    | SCas _ => negb (N.eqb v Q_WAKING)
    | DEmpty => negb (N.eqb v Q_WAITING)
    | _ => false
    end.

  (** Agent [i] makes a step that reads the [k]-th value of the state word, or of its waiter's state. *)
  Definition older (s : wqueue) (i k : nat) : option (wqueue * option qevent) :=
    let y := wq_sys s in
    let v := wq_views s i in
    if loads_node y i then
      match nth_error (wq_nodes s i) k with
      | Some w =>
          if qv_node v i <=? k
          then after_load s i k (see_node v i k) (qstep debug (with_mem y (set_state (q_heap y) i w) (q_list y)) i false)
          else None
      | None => None
      end
    else if uses_state y i then
      match nth_error (wq_hist s) k with
      | Some w =>
          if (qv_state v <=? k) && may_read (q_pc y i) w
          then after_load (access s i (touches y i)) i k (see_state (wq_views (access s i (touches y i)) i) k) (qstep debug (with_state y w) i true)
          else None
      | None => None
      end
    else None.

  (** What may happen.  [ACall a sync]: a call, see [WaitQueueModel.qaction]; [sync]: the owner acts because it was
      woken (a poll by the executor, a return from park) and sees what the waking thread had seen.  [AStep i k]: a step;
      [Some k]: it reads the [k]-th value. *)
  Inductive wqaction :=
  | ACall (a : qaction) (sync : bool)
  | AStep (i : nat) (k : option nat).

  (** The owner a call belongs to, if it is one of start_wait, continue_wait (188, 301) or a release of a waiter (blocking.rs:1746-1750,
      async_impl.rs:1494-1502). *)
  Definition caller (a : qaction) : option nat :=
    match a with QStart i _ | QCont i _ | QDrop i | QTimeout i | QFree i => Some i | _ => None end.
  (** Ordinary memory a call accesses: the waiter is created (459-469), or released. *)
  Definition call_touches (a : qaction) : list (option nat) :=
    match a with QNew i | QFree i | QTimeout i => [Some i] | _ => [] end.
  (** The agent of a call. *)
  Definition call_agent (a : qaction) : nat :=
    match a with QNew i | QStart i _ | QCont i _ | QNotify i | QClose i | QFree i | QDrop i | QTimeout i | QStep i _ => i end.
  (** Does the owner give up on a waiter it was not woken about (blocking.rs:1746-1750)? *)
  Definition gives_up (s : wqueue) (a : qaction) (woken : nat) : bool :=
    match a with QTimeout i => woken <? last_index (wq_nodes s i) | _ => false end.

  (** Effect of a call: see [WaitQueueModel.qstep_sys]. *)
  Definition call (s : wqueue) (a : qaction) (sync : bool) : option (wqueue * option qevent) :=
    let y := wq_sys s in
    let i := call_agent a in
    let wake := match caller a with Some _ => if sync then wq_wakes s i else None | None => None end in
    match a, sync, wake with
    | QStep _ _, _, _ => None
    | _, true, None => None
    | _, _, _ =>
        match qstep_sys debug y a with
        | None => None
        | Some (y', e) =>
            let v := match wake with Some u => qv_join (wq_views s i) u | None => wq_views s i end in
            let woken := match wake with Some u => Nat.max (wq_woken s i) (qv_node u i) | None => wq_woken s i end in
            let s' := mkWQ y' (wq_hist s) (wq_nodes s) (qv_set (wq_views s) i v) (wq_lockv s)
                           (match wake with Some _ => pset (wq_wakes s) i None | None => wq_wakes s end)
                           (pset (wq_woken s) i woken) (wq_data s) (wq_races s)
                           (if gives_up s a woken then i :: wq_hasty s else wq_hasty s) in
            Some (access s' i (call_touches a), e)
        end
    end.

  (** Its effect (/repo/src/wait/queue.rs:188-486). *)
  Definition wq_step (s : wqueue) (a : wqaction) : option (wqueue * option qevent) :=
    match a with
    | ACall a sync => call s a sync
    | AStep i None => newest s i
    | AStep i (Some k) => older s i k
    end.

  (** A new queue (queue.rs:171-176); the first value of a waiter's state is that of Waiter::new (459-469). *)
  Definition wq_init : wqueue :=
    mkWQ q_init [Q_EMPTY] (fun _ => [Q_EMPTY]) (fun _ => qv_zero) qv_zero (fun _ => None) (fun _ => 0) (fun _ => 0) [] [].

  (** Executions; events most recent first. *)
  Inductive wqrun : list qevent -> wqueue -> Prop :=
  | wqrun_init : wqrun [] wq_init
  | wqrun_step es s a s' e : wqrun es s -> wq_step s a = Some (s', e) ->
      wqrun (match e with Some x => x :: es | None => es end) s'.

  (** Executable version, for examples. *)
  Fixpoint wqexec (s : wqueue) (es : list qevent) (l : list wqaction) : option (wqueue * list qevent) :=
    match l with
    | [] => Some (s, es)
    | a :: l' => match wq_step s a with
                 | Some (s', e) => wqexec s' (match e with Some x => x :: es | None => es end) l'
                 | None => None
                 end
    end.
End WeakQueue.
