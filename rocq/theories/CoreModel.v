(** Model of /repo/src/lib.rs: Core, Slot, Ref.  No proofs here.

    One [step] performs at most one access to shared memory (head, tail, one
    slot's state, or one slot's value while it is exclusively owned).  Memory
    is sequentially consistent: the orderings in the Rust code are ignored. *)
From Coq Require Import List Bool Arith NArith.
From Verif Require Import Word QueueSpec.
Import ListNotations.
Local Open Scope N_scope.

(** A recycling policy (/repo/src/recycling.rs:20-37, trait Recycle).
    Simplification: policies are pure functions, without internal state. *)
Record policy (T : Type) := mkPolicy { new_element : T; recycle : T -> T }.
Arguments mkPolicy {T}. Arguments new_element {T}. Arguments recycle {T}.

(** The immutable fields of struct Core (/repo/src/lib.rs:89-99); [p_mod] is
    2^W, the number of values of a W-bit usize, and [p_width] is W. *)
Record params := mkP {
  p_gen : N; p_gen_mask : N; p_idx_mask : N; p_closed : N; p_capacity : N;
  p_width : N; p_mod : N }.

(** Core::new (/repo/src/lib.rs:108-123).  [<<] drops the bits above the word;
    [!] complements W bits.  The overflow of [capacity + 1] is excluded by the
    well-formedness condition of the theorems. *)
Definition core_new (W capacity : N) : params :=
  let closed := next_power_of_two (capacity + 1) in
  let idx_mask := closed - 1 in
  let gen := N.shiftl closed 1 mod 2 ^ W in
  let gen_mask := N.lnot (N.lor closed idx_mask) W in
  mkP gen gen_mask idx_mask closed capacity W (2 ^ W).

(** struct Slot (/repo/src/lib.rs:101-104); [None] is MaybeUninit::uninit. *)
Record slot (T : Type) := mkSlot { s_state : N; s_value : option T }.
Arguments mkSlot {T}. Arguments s_state {T}. Arguments s_value {T}.

(** Slot::new (/repo/src/lib.rs:541-546). *)
Definition slot_new {T} (idx : N) : slot T := mkSlot idx None.

(** The mutable shared state: head and tail (/repo/src/lib.rs:90-91) and the
    slot array; [c_len] is slots.len(). *)
Record core (T : Type) := mkC {
  c_head : N; c_tail : N; c_len : N; c_slots : N -> slot T }.
Arguments mkC {T}. Arguments c_head {T}. Arguments c_tail {T}.
Arguments c_len {T}. Arguments c_slots {T}.

(** Core::new together with Slot::make_boxed_array / make_static_array
    (/repo/src/lib.rs:113-115, 519-521, 528-537). *)
Definition core_init {T} (capacity : N) : core T :=
  mkC 0 0 capacity (fun i => slot_new i).

(** Replaces slot [i] of the array (field slots, /repo/src/thingbuf.rs:183-189). *)
Definition set_slot {T} (c : core T) (i : N) (s : slot T) : core T :=
  mkC (c_head c) (c_tail c) (c_len c) (fun j => if j =? i then s else c_slots c j).
(** A write of slot [i]'s state (struct Slot, /repo/src/lib.rs:103). *)
Definition set_state {T} (c : core T) (i : N) (st : N) : core T :=
  set_slot c i (mkSlot st (s_value (c_slots c i))).
(** A write of slot [i]'s value (struct Slot, /repo/src/lib.rs:102). *)
Definition set_value {T} (c : core T) (i : N) (v : option T) : core T :=
  set_slot c i (mkSlot (s_state (c_slots c i)) v).
(** A write of head (/repo/src/lib.rs:90). *)
Definition set_head {T} (c : core T) (h : N) : core T :=
  mkC h (c_tail c) (c_len c) (c_slots c).
(** A write of tail (/repo/src/lib.rs:91). *)
Definition set_tail {T} (c : core T) (t : N) : core T :=
  mkC (c_head c) t (c_len c) (c_slots c).

(** Core::idx_gen (/repo/src/lib.rs:145-147). *)
Definition idx_gen (P : params) (v : N) : N * N :=
  (N.land v (p_idx_mask P), N.land v (p_gen_mask P)).

(** Core::next (/repo/src/lib.rs:150-161). *)
Definition next (P : params) (idx gen : N) : N :=
  if idx + 1 <? p_capacity P then N.lor idx gen + 1
  else wrapping_add (p_mod P) gen (p_gen P).

(** Backoff (/repo/src/util.rs:11, 23-72), spin (32-47): spin and spin_yield saturate the counter;
    pausing itself has no effect on the state. *)
Definition backoff_spin (b : N) : N := if b <=? 3 then b + 1 else b.
(** spin_yield (/repo/src/util.rs:50-67). *)
Definition backoff_spin_yield (b : N) : N := if b <=? 6 then b + 1 else b.
(** done_spinning (/repo/src/util.rs:69-71). *)
Definition done_spinning (b : N) : bool := 3 <=? b.

(** struct Ref (/repo/src/lib.rs:61-65): the slot it points to and new_state. *)
Record ref := mkRef { r_idx : N; r_new : N }.

(** Program counters.  [P..]: push_ref (/repo/src/lib.rs:177-281), [Q..]:
    pop_ref (284-368), [L..]: len (370-386).  The arguments are the live local
    variables.  An agent that holds a Ref is at [PHold]/[QHold]; several Refs
    held by one thread are several agents. *)
Inductive pc :=
| Idle
| PStart                  (* 187: about to load tail *)
| PState (tail : N)       (* 213: about to load slot.state *)
| PCas (tail : N)         (* 218: about to compare_exchange_weak tail *)
| PInit (tail : N)        (* 233: owns the slot, about to write / recycle *)
| PHead (tail : N)        (* 268: about to read head *)
| PReload                 (* 279: about to load tail again *)
| PHold (r : ref)         (* push Ref outstanding *)
| PDead (tail : N)        (* new_element / recycle panicked *)
| QStart                  (* 287 *)
| QState (head b : N)     (* 311; b is the backoff counter *)
| QCas (head b : N)       (* 317 *)
| QTail (head b : N)      (* 346 *)
| QReload (b : N)         (* 366 *)
| QHold (r : ref)         (* pop Ref outstanding *)
| LTail                   (* 372 *)
| LHead (tail : N)        (* 373 *)
| LCheck (tail head : N)  (* 375 *)
| Crashed.                (* after undefined behaviour *)

Section Step.
  Context {T : Type}.
  Variables (P : params) (pol : policy T).

  (** Top of the loop of push_ref (/repo/src/lib.rs:190-192). *)
  Definition push_top (i : agent) (tail : N) : pc * option (event T) :=
    if negb (N.land tail (p_closed P) =? 0) then (Idle, Some (RetPushClosed i))
    else (PState tail, None).

  (** The result of len (/repo/src/lib.rs:376-383). *)
  Definition len_of (tail head : N) : N :=
    let head_idx := fst (idx_gen P head) in
    let tail_idx := fst (idx_gen P tail) in
    match head_idx ?= tail_idx with
    | Lt => tail_idx - head_idx
    | Gt => p_capacity P - head_idx + tail_idx
    | Eq => if tail =? head then 0 else p_capacity P
    end.

  (** One step of agent [i] at [p] of push_ref (/repo/src/lib.rs:177-281), pop_ref
      (284-368) or len (370-386), the lines given with [pc]; [spur] makes a compare_exchange_weak fail
      spuriously.  Returns the new shared state, program counter, and event. *)
  Definition cstep (c : core T) (i : agent) (p : pc) (spur : bool)
    : core T * pc * option (event T) :=
    match p with
    (* push_ref *)
    | PStart | PReload =>
        let '(p', e) := push_top i (c_tail c) in (c, p', e)
    | PState tail =>
        let '(idx, gen) := idx_gen P tail in
        if idx <? c_len c then
          let state := s_state (c_slots c idx) in
          if state =? tail then (c, PCas tail, None)
          else if wrapping_add (p_mod P) state (p_gen P) =? tail + 1 then (c, PHead tail, None)
          else (c, PReload, None)
        else (c, Crashed, Some (UB i))
    | PCas tail =>
        let '(idx, gen) := idx_gen P tail in
        if (c_tail c =? tail) && negb spur then
          (set_tail c (next P idx gen), PInit tail, Some (Reserve i))
        else
          let '(p', e) := push_top i (c_tail c) in (c, p', e)
    | PInit tail =>
        let '(idx, gen) := idx_gen P tail in
        let hold := PHold (mkRef idx (tail + 1)) in
        if gen =? 0 then
          let v := new_element pol in
          (set_value c idx (Some v), hold,
           Some match s_value (c_slots c idx) with
                | None => HandOut i v
                | Some leaked => Overwrite i leaked v
                end)
        else
          match s_value (c_slots c idx) with
          | Some old =>
              let v := recycle pol old in
              (set_value c idx (Some v), hold, Some (HandOut i v))
          | None => (c, Crashed, Some (UB i))
          end
    | PHead tail =>
        if wrapping_add (p_mod P) (c_head c) (p_gen P) =? tail
        then (c, Idle, Some (RetFull i))
        else (c, PReload, None)
    (* pop_ref *)
    | QStart => (c, QState (c_head c) 0, None)
    | QReload b => (c, QState (c_head c) b, None)
    | QState head b =>
        let '(idx, gen) := idx_gen P head in
        if idx <? c_len c then
          let state := s_state (c_slots c idx) in
          if state =? head + 1 then (c, QCas head b, None)
          else if state =? head then (c, QTail head b, None)
          else (c, QReload (backoff_spin_yield b), None)
        else (c, Crashed, Some (UB i))
    | QCas head b =>
        let '(idx, gen) := idx_gen P head in
        if (c_head c =? head) && negb spur then
          let c' := set_head c (next P idx gen) in
          match s_value (c_slots c idx) with
          | Some v =>
              (c', QHold (mkRef idx (wrapping_add (p_mod P) head (p_gen P))), Some (Take i v))
          | None => (c', Crashed, Some (UB i)) (* the Ref would expose uninitialised memory *)
          end
        else (c, QState (c_head c) (backoff_spin b), None)
    | QTail head b =>
        let tail := c_tail c in
        if N.land tail (N.lnot (p_closed P) (p_width P)) =? head then
          (c, Idle, Some (if negb (N.land tail (p_closed P) =? 0) then RetPopClosed i else RetEmpty i))
        else if done_spinning b then (c, Idle, Some (RetEmpty i))
        else (c, QReload (backoff_spin b), None)
    (* len *)
    | LTail => (c, LHead (c_tail c), None)
    | LHead tail => (c, LCheck tail (c_head c), None)
    | LCheck tail head =>
        if c_tail c =? tail then (c, Idle, Some (RetLen i (len_of tail head)))
        else (c, LTail, None)
    | Idle | PHold _ | PDead _ | QHold _ | Crashed => (c, p, None)
    end.

  (** Entry points of push_ref, pop_ref, len (/repo/src/lib.rs:177, 284, 370). *)
  Definition entry_pc (o : op) : pc :=
    match o with OpPush => PStart | OpPop => QStart | OpLen => LTail end.

  (** Ref::drop (/repo/src/lib.rs:475-481). *)
  Definition ref_drop (c : core T) (r : ref) : core T := set_state c (r_idx r) (r_new r).

  (** Core::close (/repo/src/lib.rs:168-174). *)
  Definition core_close (c : core T) (panicking : bool) : core T * bool :=
    if panicking then (c, false)
    else (set_tail c (N.lor (c_tail c) (p_closed P)),
          N.land (c_tail c) (p_closed P) =? 0).

  (** The ring and where every agent is; agents are not part of the code. *)
  Record state := mkS { st_core : core T; st_agents : agent -> pc }.

  (** Agent [i] moves to [p]. *)
  Definition upd (f : agent -> pc) (i : agent) (p : pc) : agent -> pc :=
    fun j => if Nat.eqb j i then p else f j.

  (** What the scheduler may do: calls, steps, Ref::drop, close.  [AWrite]: the holder of a Ref writes through
      it (DerefMut, /repo/src/lib.rs:463-473).  [APanic]: new_element / recycle
      panics (lines 234, 239). *)
  Inductive action :=
  | AInvoke (i : agent) (o : op)
  | AStep (i : agent) (spur : bool)
  | AWrite (i : agent) (v : T)
  | ADrop (i : agent)
  | APanic (i : agent)
  | AClose (i : agent) (panicking : bool).

  (** The agent is inside push_ref, pop_ref or len (/repo/src/lib.rs:177-386). *)
  Definition stepping (p : pc) : bool :=
    match p with Idle | PHold _ | PDead _ | QHold _ | Crashed => false | _ => true end.

  (** What an action of the scheduler does: calls and single steps of
      /repo/src/lib.rs:177-386, close (168-174), writes through a Ref (463-473), Ref::drop
      (475-481), a panic of the recycling policy inside push_ref (234, 239). *)
  Definition step (s : state) (a : action) : option (state * option (event T)) :=
    let c := st_core s in
    match a with
    | AInvoke i o =>
        match st_agents s i with
        | Idle => Some (mkS c (upd (st_agents s) i (entry_pc o)), Some (Invoke i o))
        | _ => None
        end
    | AStep i spur =>
        let p := st_agents s i in
        if stepping p then
          let '(c', p', e) := cstep c i p spur in
          Some (mkS c' (upd (st_agents s) i p'), e)
        else None
    | AWrite i v =>
        match st_agents s i with
        | PHold r | QHold r =>
            Some (mkS (set_value c (r_idx r) (Some v)) (st_agents s), Some (Wrote i v))
        | _ => None
        end
    | ADrop i =>
        match st_agents s i with
        | PHold r =>
            Some (mkS (ref_drop c r) (upd (st_agents s) i Idle),
                  Some match s_value (c_slots c (r_idx r)) with
                       | Some v => Commit i v | None => UB i end)
        | QHold r =>
            Some (mkS (ref_drop c r) (upd (st_agents s) i Idle),
                  Some match s_value (c_slots c (r_idx r)) with
                       | Some v => Release i v | None => UB i end)
        | _ => None
        end
    | APanic i =>
        match st_agents s i with
        | PInit tail => Some (mkS c (upd (st_agents s) i (PDead tail)), Some (Poison i))
        | _ => None
        end
    | AClose i panicking =>
        match st_agents s i with
        | Idle => let '(c', b) := core_close c panicking in
                  Some (mkS c' (st_agents s), Some (Closing i b))
        | _ => None
        end
    end.

  (** Adds an event to the history, if there is one (not part of the code). *)
  Definition ocons {A} (o : option A) (l : list A) : list A :=
    match o with Some x => x :: l | None => l end.

  (** A new queue (/repo/src/lib.rs:108-123), nobody inside it. *)
  Definition init_state : state := mkS (core_init (p_capacity P)) (fun _ => Idle).

  (** Executions from the initial state; events most recent first. *)
  Inductive run : list (event T) -> state -> Prop :=
  | run_init : run [] init_state
  | run_step es s a s' e :
      run es s -> step s a = Some (s', e) -> run (ocons e es) s'.

  (** Executable version, used for concrete examples. *)
  Fixpoint exec (s : state) (es : list (event T)) (l : list action)
    : option (state * list (event T)) :=
    match l with
    | [] => Some (s, es)
    | a :: l' => match step s a with
                 | Some (s', e) => exec s' (ocons e es) l'
                 | None => None
                 end
    end.

  (** Core::drop_slots (/repo/src/lib.rs:388-409): the indices dropped, in
      order; [None] is a drop of uninitialised memory. *)
  Definition num_initialized (c : core T) : N :=
    let '(idx, gen) := idx_gen P (c_tail c) in
    if 0 <? gen then p_capacity P else idx.
  (** Core::drop_slots (/repo/src/lib.rs:388-409), its loop. *)
  Definition drop_slots (c : core T) : list (option T) :=
    map (fun i => s_value (c_slots c (N.of_nat i))) (seq 0 (N.to_nat (num_initialized c))).
End Step.
