(** Specification of the queue, independent of the implementation model.

    The observable history of a queue is a list of [event]s (most recent
    first).  The abstract state is an append-only log: entry [p] of the log is
    the [p]-th reservation ever made by a push. *)
From Coq Require Import List Arith NArith Lia.
Import ListNotations.

Definition agent := nat.

Inductive op := OpPush | OpPop | OpLen.

(** Observable events.  [i] is the calling thread / handle.
    - [Invoke i o]       the call starts
    - [Reserve i]        push_ref wins a position (the call is about to succeed)
    - [HandOut i v]      push_ref returns its Ref; the element it exposes is [v]
    - [Wrote i v]        the holder of a Ref writes [v] through it
    - [Commit i v]       the push Ref is dropped with element [v] in it
    - [Take i v]         pop_ref returns a Ref exposing element [v]
    - [Release i v]      the pop Ref is dropped leaving [v] in the slot
    - [RetFull i], [RetPushClosed i], [RetEmpty i], [RetPopClosed i],
      [RetLen i n]       the other results
    - [Closing i b]      a close() call, with its result
    - [Poison i]         user code (new_element / recycle) panicked inside push
    - [Overwrite i v]    the initialised element [v] was overwritten in place
                         without its destructor running (a leak)
    - [UB i]             undefined behaviour. *)
Inductive event (T : Type) :=
| Invoke (i : agent) (o : op)
| Reserve (i : agent)
| HandOut (i : agent) (v : T)
| Wrote (i : agent) (v : T)
| Commit (i : agent) (v : T)
| Take (i : agent) (v : T)
| Release (i : agent) (v : T)
| RetFull (i : agent)
| RetPushClosed (i : agent)
| RetEmpty (i : agent)
| RetPopClosed (i : agent)
| RetLen (i : agent) (n : N)
| Closing (i : agent) (b : bool)
| Poison (i : agent)
| Overwrite (i : agent) (leaked v : T)
| UB (i : agent).
Arguments Invoke {T}. Arguments Reserve {T}. Arguments HandOut {T}. Arguments Wrote {T}. Arguments Commit {T}.
Arguments Take {T}. Arguments Release {T}. Arguments RetFull {T}. Arguments RetPushClosed {T}.
Arguments RetEmpty {T}. Arguments RetPopClosed {T}. Arguments RetLen {T}. Arguments Closing {T}.
Arguments Poison {T}. Arguments Overwrite {T}. Arguments UB {T}.

Definition agent_of {T} (e : event T) : agent :=
  match e with
  | Invoke i _ | Reserve i | HandOut i _ | Wrote i _ | Commit i _ | Take i _ | Release i _
  | RetFull i | RetPushClosed i | RetEmpty i | RetPopClosed i | RetLen i _
  | Closing i _ | Poison i | Overwrite i _ _ | UB i => i
  end.

(** Life of one entry: reserved by a pusher; being filled through the pusher's
    Ref (with its current contents); published; held by a popper through its Ref
    (with its current contents); released with some left-over contents. *)
Inductive entry (T : Type) :=
| Reserved (i : agent)
| Filling (i : agent) (v : T)
| Published (v : T)
| Held (i : agent) (v : T)
| Released (v : T).
Arguments Reserved {T}. Arguments Filling {T}. Arguments Published {T}.
Arguments Held {T}. Arguments Released {T}.

Definition owner {T} (e : entry T) : option agent :=
  match e with
  | Reserved i | Filling i _ | Held i _ => Some i
  | Published _ | Released _ => None
  end.

Record queue (T : Type) := mkQ {
  qlog : list (entry T);   (* every reservation ever made, oldest first *)
  qtaken : nat;            (* how many of them have been dequeued *)
  qclosed : bool }.
Arguments mkQ {T}. Arguments qlog {T}. Arguments qtaken {T}. Arguments qclosed {T}.

Definition empty_queue {T} : queue T := mkQ [] 0 false.

(** Number of elements reserved or stored and not yet dequeued. *)
Definition qlen {T} (q : queue T) : nat := length (qlog q) - qtaken q.

Fixpoint set_nth {A} (l : list A) (n : nat) (x : A) : list A :=
  match l, n with
  | [], _ => []
  | _ :: l', 0 => x :: l'
  | y :: l', S n' => y :: set_nth l' n' x
  end.

Section Spec.
  Context {T : Type}.
  Variables (cap : nat)             (* capacity *)
            (fresh_pos : nat -> Prop) (* positions at which the slot is treated as never used *)
            (new : T) (recycle : T -> T).

  (** [i] owns no entry. *)
  Definition unowned (q : queue T) (i : agent) : Prop :=
    forall p e, nth_error (qlog q) p = Some e -> owner e <> Some i.

  Definition set_entry (q : queue T) (p : nat) (e : entry T) : queue T :=
    mkQ (set_nth (qlog q) p e) (qtaken q) (qclosed q).

  (** The element [v] handed out for position [p]. *)
  Definition element_ok (q : queue T) (p : nat) (v : T) : Prop :=
    (fresh_pos p /\ v = new) \/
    (~ fresh_pos p /\ cap <= p /\
     exists old, nth_error (qlog q) (p - cap) = Some (Released old) /\ v = recycle old).

  (** Effect of an event on the abstract queue. *)
  Inductive sstep : queue T -> event T -> queue T -> Prop :=
  | s_reserve q i :
      qclosed q = false -> length (qlog q) < qtaken q + cap -> unowned q i ->
      sstep q (Reserve i) (mkQ (qlog q ++ [Reserved i]) (qtaken q) false)
  | s_handout q i p v :
      nth_error (qlog q) p = Some (Reserved i) -> element_ok q p v -> p < cap \/ ~ fresh_pos p ->
      sstep q (HandOut i v) (set_entry q p (Filling i v))
  | s_overwrite q i p v leaked :
      nth_error (qlog q) p = Some (Reserved i) -> element_ok q p v ->
      fresh_pos p -> cap <= p -> nth_error (qlog q) (p - cap) = Some (Released leaked) ->
      sstep q (Overwrite i leaked v) (set_entry q p (Filling i v))
  | s_wrote_push q i p u v :
      nth_error (qlog q) p = Some (Filling i u) ->
      sstep q (Wrote i v) (set_entry q p (Filling i v))
  | s_commit q i p v :
      nth_error (qlog q) p = Some (Filling i v) ->
      sstep q (Commit i v) (set_entry q p (Published v))
  | s_take q i v :
      nth_error (qlog q) (qtaken q) = Some (Published v) -> unowned q i ->
      sstep q (Take i v) (mkQ (set_nth (qlog q) (qtaken q) (Held i v)) (S (qtaken q)) (qclosed q))
  | s_wrote_pop q i p u v :
      nth_error (qlog q) p = Some (Held i u) ->
      sstep q (Wrote i v) (set_entry q p (Held i v))
  | s_release q i p v :
      nth_error (qlog q) p = Some (Held i v) ->
      sstep q (Release i v) (set_entry q p (Released v))
  | s_closing q i :
      sstep q (Closing i (negb (qclosed q))) (mkQ (qlog q) (qtaken q) true)
  | s_not_closing q i :    (* close() by a panicking thread does nothing *)
      sstep q (Closing i false) q
  | s_poison q i p :
      nth_error (qlog q) p = Some (Reserved i) -> sstep q (Poison i) q
  | s_invoke q i o : unowned q i -> sstep q (Invoke i o) q
  | s_full q i : sstep q (RetFull i) q
  | s_pushclosed q i : sstep q (RetPushClosed i) q
  | s_emptyret q i : sstep q (RetEmpty i) q
  | s_popclosed q i : sstep q (RetPopClosed i) q
  | s_len q i n : sstep q (RetLen i n) q.

  (** The oldest entry not yet dequeued is a completed element. *)
  Definition front_ready (q : queue T) : Prop :=
    exists v, nth_error (qlog q) (qtaken q) = Some (Published v).

  (** What a non-mutating result asserts about the queue. *)
  Definition observes (q : queue T) (e : event T) : Prop :=
    match e with
    | RetFull _ => qlen q = cap /\ qclosed q = false
    | RetPushClosed _ => qclosed q = true
    | RetEmpty _ => ~ front_ready q /\ (qclosed q = false \/ 0 < qlen q)
    | RetPopClosed _ => qclosed q = true /\ qlen q = 0
    | RetLen _ n => qclosed q = true \/ N.to_nat n = qlen q
    | _ => True
    end.

  Definition is_invoke (i : agent) (e : event T) : bool :=
    match e with Invoke j _ => Nat.eqb i j | _ => false end.

  (** Abstract states from the invocation of [i]'s current call up to now.
      [es] events and [hist] states, both most recent first; [hist] has one
      more element than [es]. *)
  Fixpoint since_call (i : agent) (es : list (event T)) (hist : list (queue T)) : list (queue T) :=
    match es, hist with
    | e :: es', q :: hist' => q :: (if is_invoke i e then [] else since_call i es' hist')
    | _, _ => hist
    end.

  (** [explains es hist]: the history [es] is a correct behaviour of the
      abstract queue, with [hist] its successive states: every event has its
      effect at once, and every non-mutating result is true of some state
      between the invocation and the return of the call. *)
  Inductive explains : list (event T) -> list (queue T) -> Prop :=
  | ex_init : explains [] [empty_queue]
  | ex_step es q hist e q' :
      explains es (q :: hist) ->
      sstep q e q' ->
      (exists q0, In q0 (since_call (agent_of e) es (q :: hist)) /\ observes q0 e) ->
      explains (e :: es) (q' :: q :: hist).
End Spec.

(** ** Bounds on histories *)

Definition is_reserve {T} (e : event T) : bool := match e with Reserve _ => true | _ => false end.
Definition is_take {T} (e : event T) : bool := match e with Take _ _ => true | _ => false end.

Fixpoint count {T} (f : event T -> bool) (es : list (event T)) : nat :=
  match es with [] => 0 | e :: es' => (if f e then 1 else 0) + count f es' end.

(** Number of [f]-events since the start of [i]'s current call. *)
Fixpoint count_since {T} (f : event T -> bool) (i : agent) (es : list (event T)) : nat :=
  match es with
  | [] => 0
  | e :: es' => if is_invoke i e then 0 else (if f e then 1 else 0) + count_since f i es'
  end.

(** [i] has a call in progress that has not taken effect. *)
Definition pending {T} (i : agent) (es : list (event T)) : Prop :=
  exists o, find (fun e => Nat.eqb i (agent_of e)) es = Some (Invoke i o).

(** At no time did a call in progress see [B] or more pushes, or [B] or more
    pops, succeed since it started. *)
Fixpoint calm {T} (B : N) (es : list (event T)) : Prop :=
  match es with
  | [] => True
  | e :: es' =>
      calm B es' /\
      forall i, pending i es ->
        (N.of_nat (count_since is_reserve i es) < B)%N /\
        (N.of_nat (count_since is_take i es) < B)%N
  end.
