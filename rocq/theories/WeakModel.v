(** The ring of /repo/src/lib.rs on weak memory: push_ref, pop_ref, len, Ref::drop, close, with the memory
    orderings written in the code.  No proofs here.

    [CoreModel] interleaves single accesses to one memory that everybody sees at once.  Here every atomic
    location has the list of all values it ever had (its modification order); a thread has a [view], for
    each location the oldest value it may still read.  A load returns any value not older than the
    thread's view.  A release store attaches the writer's view to the value, an acquire load that
    returns the value adds that view to the reader's.  A read-modify-write reads the last value.  The
    slots' elements are ordinary memory: accessing one without having seen the previous access to it is a
    data race, reported as [UB].

    Simplifications: SeqCst is treated as AcqRel, which allows more executions than the code has; loads
    are not reordered after later stores (no load buffering, as in the RC11 memory model).  What a step
    computes from what it read is taken from [CoreModel.cstep]. *)
From Coq Require Import List Bool Arith NArith.
From Verif Require Import Word QueueSpec CoreModel.
Import ListNotations.

(** A view: per atomic location the index, in its modification order, of the oldest value that may still
    be read ([v_head]: /repo/src/lib.rs:90, [v_tail]: 91, [v_state]: 103); per element (line 102) the
    number of accesses that happened before; and the events that happened before, by their number in the
    history. *)
Record view := mkV {
  v_head : nat;
  v_tail : nat;
  v_state : N -> nat;
  v_value : N -> nat;
  v_know : nat -> bool }.

(** Nothing seen yet except the initial values (construction of the queue happens before its use,
    /repo/src/thingbuf.rs:305-313). *)
Definition view0 : view := mkV 0 0 (fun _ => 0) (fun _ => 0) (fun _ => false).

(** The view after seeing everything in both. *)
Definition join (a b : view) : view :=
  mkV (Nat.max (v_head a) (v_head b)) (Nat.max (v_tail a) (v_tail b))
      (fun i => Nat.max (v_state a i) (v_state b i)) (fun i => Nat.max (v_value a i) (v_value b i))
      (fun n => v_know a n || v_know b n).

(** A location or an element was seen at index [n]; an event was seen. *)
Definition saw_head (v : view) (n : nat) : view := mkV n (v_tail v) (v_state v) (v_value v) (v_know v).
Definition saw_tailw (v : view) (n : nat) : view := mkV (v_head v) n (v_state v) (v_value v) (v_know v).
Definition saw_state (v : view) (i : N) (n : nat) : view :=
  mkV (v_head v) (v_tail v) (fun j => if (j =? i)%N then n else v_state v j) (v_value v) (v_know v).
Definition saw_value (v : view) (i : N) (n : nat) : view :=
  mkV (v_head v) (v_tail v) (v_state v) (fun j => if (j =? i)%N then n else v_value v j) (v_know v).
Definition saw_event (v : view) (n : nat) : view :=
  mkV (v_head v) (v_tail v) (v_state v) (v_value v) (fun m => Nat.eqb m n || v_know v m).

(** One entry of a modification order: the value and what reading it with acquire makes visible. *)
Record msg := mkM { m_word : N; m_view : view }.

(** The orderings of the accesses, [true] being the one in the code.
    - [o_push_load]: slot.state.load(Acquire) in push_ref (/repo/src/lib.rs:213); [false]: Relaxed
    - [o_pop_load]:  slot.state.load(Acquire) in pop_ref (311)
    - [o_drop]:      slot.state.store(_, Release) in Ref::drop (479); [false]: Relaxed
    - [o_rmw]:       the read-modify-writes of head and tail, SeqCst (173, 220, 268, 319, 346); [false]:
                     Relaxed
    - [o_reload]:    the Acquire loads of head and tail, also by a failed compare_exchange_weak (220, 279,
                     319, 366)
    - [o_len]:       the SeqCst loads of head and tail in len (372, 373, 375), as if they were Acquire; [false]: Relaxed. *)
Record orders := mkO { o_push_load : bool; o_pop_load : bool; o_drop : bool; o_rmw : bool; o_reload : bool; o_len : bool }.
Definition code_orders : orders := mkO true true true true true true.

Section Weak.
  Context {T : Type}.
  Variables (P : params) (pol : policy T) (o : orders).

  (** The queue (/repo/src/lib.rs:89-104): the newest values, as in [CoreModel]; the modification orders of
      head, tail and every slot's state, oldest first; how often every element has been accessed; where
      every agent is and what it has seen, now and when its current call started; and how many events
      there have been. *)
  Record wstate := mkWS {
    w_core : core T;
    w_heads : list msg;
    w_tails : list msg;
    w_states : N -> list msg;
    w_acc : N -> nat;
    w_pcs : agent -> pc;
    w_views : agent -> view;
    w_call : agent -> view;
    w_time : nat }.

  (** Update of one agent's view. *)
  Definition updv (f : agent -> view) (i : agent) (v : view) : agent -> view :=
    fun j => if Nat.eqb j i then v else f j.

  (** Index of the newest value. *)
  Definition newest (l : list msg) : nat := Nat.pred (length l).
  Definition last_view (l : list msg) : view :=
    match nth_error l (newest l) with Some m => m_view m | None => view0 end.

  (** A load may return the [k]-th value if the thread has seen none newer. *)
  Definition readable (l : list msg) (seen k : nat) : option msg :=
    if seen <=? k then nth_error l k else None.

  (** [v] extended by what an access makes visible, if it is an acquire. *)
  Definition acquire (acq : bool) (v : view) (m : view) : view := if acq then join v m else v.

  (** The view attached to a new value: that of the writer, if it is a release; a read-modify-write also
      passes on the view of the value it replaces (release sequence). *)
  Definition released_view (rel : bool) (v : view) (prev : view) : view := if rel then join v prev else prev.

  (** The event of a step, if any, is seen by the agent that makes the step. *)
  Definition with_event (v : view) (e : option (event T)) (time : nat) : view :=
    match e with Some _ => saw_event v time | None => v end.
  Definition next_time (e : option (event T)) (time : nat) : nat := match e with Some _ => S time | None => time end.

  (** Agent [i] goes to [p] with view [v]; nothing is written. *)
  Definition local (s : wstate) (i : agent) (p : pc) (v : view) (e : option (event T)) : wstate :=
    mkWS (w_core s) (w_heads s) (w_tails s) (w_states s) (w_acc s) (upd (w_pcs s) i p)
         (updv (w_views s) i (with_event v e (w_time s))) (w_call s) (next_time e (w_time s)).

  (** Loads of tail (/repo/src/lib.rs:187, 279, 372, 375, and 220 when it fails), head (287, 366, 373, 319 when it fails)
      and a slot's state (213, 311): the step [p] of [CoreModel.cstep] is made with the value read. *)
  Definition load_tail (s : wstate) (i : agent) (p : pc) (k : nat) (acq : bool) : option (wstate * option (event T)) :=
    let v := w_views s i in
    match readable (w_tails s) (v_tail v) k with
    | None => None
    | Some m =>
        let '(_, p', e) := cstep P pol (set_tail (w_core s) (m_word m)) i p true in
        Some (local s i p' (acquire acq (saw_tailw v k) (m_view m)) e, e)
    end.
  Definition load_head (s : wstate) (i : agent) (p : pc) (k : nat) (acq : bool) : option (wstate * option (event T)) :=
    let v := w_views s i in
    match readable (w_heads s) (v_head v) k with
    | None => None
    | Some m =>
        let '(_, p', e) := cstep P pol (set_head (w_core s) (m_word m)) i p true in
        Some (local s i p' (acquire acq (saw_head v k) (m_view m)) e, e)
    end.
  Definition load_state (s : wstate) (i : agent) (p : pc) (word : N) (k : nat) (acq : bool) : option (wstate * option (event T)) :=
    let v := w_views s i in
    let idx := fst (idx_gen P word) in
    match readable (w_states s idx) (v_state v idx) k with
    | None => None
    | Some m =>
        let '(_, p', e) := cstep P pol (set_state (w_core s) idx (m_word m)) i p true in
        Some (local s i p' (acquire acq (saw_state v idx k) (m_view m)) e, e)
    end.

  (** Read-modify-writes of tail (/repo/src/lib.rs:173, 220, 346) and head (268, 319), the new value being
      that of [c]. *)
  Definition rmw_tail (s : wstate) (i : agent) (c : core T) (p : pc) (v : view) (e : option (event T)) : wstate :=
    let prev := last_view (w_tails s) in
    let v1 := with_event (saw_tailw (acquire (o_rmw o) v prev) (length (w_tails s))) e (w_time s) in
    mkWS c (w_heads s) (w_tails s ++ [mkM (c_tail c) (released_view (o_rmw o) v1 prev)]) (w_states s) (w_acc s)
         (upd (w_pcs s) i p) (updv (w_views s) i v1) (w_call s) (next_time e (w_time s)).
  Definition rmw_head (s : wstate) (i : agent) (c : core T) (p : pc) (v : view) (e : option (event T)) : wstate :=
    let prev := last_view (w_heads s) in
    let v1 := with_event (saw_head (acquire (o_rmw o) v prev) (length (w_heads s))) e (w_time s) in
    mkWS c (w_heads s ++ [mkM (c_head c) (released_view (o_rmw o) v1 prev)]) (w_tails s) (w_states s) (w_acc s)
         (upd (w_pcs s) i p) (updv (w_views s) i v1) (w_call s) (next_time e (w_time s)).

  (** Accesses to the element of slot [idx] (/repo/src/lib.rs:233-240, 449-473): [s] with one more access to
      it, or nothing if the agent has not seen the previous one: a data race. *)
  Definition access (s : wstate) (i : agent) (idx : N) : option wstate :=
    let v := w_views s i in
    if Nat.eqb (v_value v idx) (w_acc s idx) then
      let n := S (w_acc s idx) in
      Some (mkWS (w_core s) (w_heads s) (w_tails s) (w_states s) (fun j => if (j =? idx)%N then n else w_acc s j)
                 (w_pcs s) (updv (w_views s) i (saw_value v idx n)) (w_call s) (w_time s))
    else None.
  Definition race (s : wstate) (i : agent) : wstate * option (event T) :=
    (local s i Crashed (w_views s i) (Some (UB i)), Some (UB i)).

  (** Ref::drop (/repo/src/lib.rs:475-481): the store to slot.state.  If the agent has not seen the newest
      value, the new one could be put anywhere after what it has seen; this is reported like a race. *)
  Definition store_state (s : wstate) (i : agent) (r : ref) (e : event T) : wstate * option (event T) :=
    let v := w_views s i in
    let l := w_states s (r_idx r) in
    if Nat.eqb (v_state v (r_idx r)) (newest l) then
      let v1 := with_event (saw_state v (r_idx r) (length l)) (Some e) (w_time s) in
      let m := mkM (r_new r) (if o_drop o then v1 else saw_state view0 (r_idx r) (length l)) in
      (mkWS (ref_drop (w_core s) r) (w_heads s) (w_tails s)
            (fun j => if (j =? r_idx r)%N then l ++ [m] else w_states s j) (w_acc s)
            (upd (w_pcs s) i Idle) (updv (w_views s) i v1) (w_call s) (S (w_time s)), Some e)
    else race s i.

  (** One step of agent [i] inside push_ref (/repo/src/lib.rs:177-281), pop_ref (284-368) or len (370-386).  [k]: which
      value a load returns; [spur]: a compare_exchange_weak fails although it could succeed. *)
  Definition wstep (s : wstate) (i : agent) (k : nat) (spur : bool) : option (wstate * option (event T)) :=
    let c := w_core s in
    let v := w_views s i in
    match w_pcs s i with
    | PStart => load_tail s i PStart k false
    | PReload => load_tail s i PReload k (o_reload o)
    | PState t => load_state s i (PState t) t k (o_push_load o)
    | PCas t =>
        if (c_tail c =? t)%N && negb spur then
          let '(c', p', e) := cstep P pol c i (PCas t) false in Some (rmw_tail s i c' p' v e, e)
        else load_tail s i (PCas t) k (o_reload o)
    | PInit t =>
        match access s i (fst (idx_gen P t)) with
        | Some s' =>
            let '(c', p', e) := cstep P pol c i (PInit t) false in
            Some (local (mkWS c' (w_heads s') (w_tails s') (w_states s') (w_acc s') (w_pcs s') (w_views s') (w_call s')
                              (w_time s')) i p' (w_views s' i) e, e)
        | None => Some (race s i)
        end
    | PHead t => let '(c', p', e) := cstep P pol c i (PHead t) false in Some (rmw_head s i c' p' v e, e)
    | QStart => load_head s i QStart k false
    | QReload b => load_head s i (QReload b) k (o_reload o)
    | QState h b => load_state s i (QState h b) h k (o_pop_load o)
    | QCas h b =>
        if (c_head c =? h)%N && negb spur then
          (* the Ref that is returned exposes the element at once: lines 321-328, 449-461 *)
          match access s i (fst (idx_gen P h)) with
          | Some s' =>
              let '(c', p', e) := cstep P pol c i (QCas h b) false in Some (rmw_head s' i c' p' (w_views s' i) e, e)
          | None => Some (race s i)
          end
        else load_head s i (QCas h b) k (o_reload o)
    | QTail h b => let '(c', p', e) := cstep P pol c i (QTail h b) false in Some (rmw_tail s i c' p' v e, e)
    | LTail => load_tail s i LTail k (o_len o)
    | LHead t => load_head s i (LHead t) k (o_len o)
    | LCheck t h => load_tail s i (LCheck t h) k (o_len o)
    | _ => None
    end.

  (** What may happen.  As in [CoreModel.action], and:
      - [XWrite i v]  the holder of a Ref reads or writes the element through it
      - [XSync i j]   something else makes what [i] has done so far visible to [j]: a lock, a channel, spawning
                      or joining a thread, moving a handle to another thread. *)
  Inductive waction :=
  | XInvoke (i : agent) (op : op)
  | XStep (i : agent) (k : nat) (spur : bool)
  | XWrite (i : agent) (v : T)
  | XDrop (i : agent)
  | XPanic (i : agent)
  | XClose (i : agent) (panicking : bool)
  | XSync (i j : agent).

  (** Their effects: calls and steps of /repo/src/lib.rs:177-386, writes through a Ref (463-473), Ref::drop
      (475-481), a panic of the recycling policy (234, 239), close (168-174). *)
  Definition weak_step (s : wstate) (a : waction) : option (wstate * option (event T)) :=
    let c := w_core s in
    match a with
    | XInvoke i op =>
        match w_pcs s i with
        | Idle =>
            let e := Some (Invoke i op) in
            let s' := local s i (entry_pc op) (w_views s i) e in
            Some (mkWS (w_core s') (w_heads s') (w_tails s') (w_states s') (w_acc s') (w_pcs s') (w_views s')
                       (updv (w_call s) i (w_views s i)) (w_time s'), e)
        | _ => None
        end
    | XStep i k spur => wstep s i k spur
    | XWrite i v =>
        match w_pcs s i with
        | PHold r | QHold r =>
            match access s i (r_idx r) with
            | Some s' =>
                let e := Some (Wrote i v) in
                Some (local (mkWS (set_value c (r_idx r) (Some v)) (w_heads s') (w_tails s') (w_states s') (w_acc s') (w_pcs s')
                                  (w_views s') (w_call s') (w_time s')) i (w_pcs s i) (w_views s' i) e, e)
            | None => Some (race s i)
            end
        | _ => None
        end
    | XDrop i =>
        match w_pcs s i with
        | PHold r => Some (store_state s i r (match s_value (c_slots c (r_idx r)) with
                                              | Some v => Commit i v | None => UB i end))
        | QHold r => Some (store_state s i r (match s_value (c_slots c (r_idx r)) with
                                              | Some v => Release i v | None => UB i end))
        | _ => None
        end
    | XPanic i =>
        match w_pcs s i with
        | PInit t => Some (local s i (PDead t) (w_views s i) (Some (Poison i)), Some (Poison i))
        | _ => None
        end
    | XClose i panicking =>
        match w_pcs s i with
        | Idle =>
            let '(c', b) := core_close P c panicking in
            let e := Some (Closing i b) in
            if panicking then Some (local s i Idle (w_views s i) e, e)
            else Some (rmw_tail s i c' Idle (w_views s i) e, e)
        | _ => None
        end
    | XSync i j =>
        Some (mkWS c (w_heads s) (w_tails s) (w_states s) (w_acc s) (w_pcs s)
                   (updv (w_views s) j (join (w_views s j) (w_views s i))) (w_call s) (w_time s), None)
    end.

  (** A new queue (/repo/src/lib.rs:108-123). *)
  Definition weak_init : wstate :=
    let c := core_init (p_capacity P) in
    mkWS c [mkM (c_head c) view0] [mkM (c_tail c) view0] (fun i => [mkM (s_state (c_slots c i)) view0]) (fun _ => 0)
         (fun _ => Idle) (fun _ => view0) (fun _ => view0) 0.

  (** Executions from the initial state; events most recent first. *)
  Inductive weak_run : list (event T) -> wstate -> Prop :=
  | weak_run_init : weak_run [] weak_init
  | weak_run_step es s a s' e : weak_run es s -> weak_step s a = Some (s', e) -> weak_run (ocons e es) s'.

  (** Executable version, for examples. *)
  Fixpoint weak_exec (s : wstate) (es : list (event T)) (l : list waction) : option (wstate * list (event T)) :=
    match l with
    | [] => Some (s, es)
    | a :: l' => match weak_step s a with
                 | Some (s', e) => weak_exec s' (ocons e es) l'
                 | None => None
                 end
    end.
End Weak.
