(** Vocabulary for stating queue properties directly on histories (lists of
    events, most recent first), without reference to the abstract queue or to
    the implementation model. *)
From Coq Require Import List Arith NArith.
From Verif Require Import QueueSpec.
Import ListNotations.

Section History.
  Context {T : Type}.
  Notation event := (event T).

  (** Agents of all successful reservations / dequeues, in order. *)
  Fixpoint reservers (es : list event) : list agent :=
    match es with
    | [] => []
    | Reserve i :: es' => reservers es' ++ [i]
    | _ :: es' => reservers es'
    end.
  Fixpoint takers (es : list event) : list agent :=
    match es with
    | [] => []
    | Take i _ :: es' => takers es' ++ [i]
    | _ :: es' => takers es'
    end.

  (** [last_is i l n]: the last occurrence of [i] in [l] is at index [n]. *)
  Definition last_is (i : agent) (l : list agent) (n : nat) : bool :=
    match nth_error l n with
    | Some j => Nat.eqb i j && forallb (fun k => negb (Nat.eqb i k)) (skipn (S n) l)
    | None => false
    end.

  (** The value with which the [n]-th reservation (counting from 0) has been
      completed, if it has: a [Commit] completes the most recent reservation of
      its agent. *)
  Fixpoint committed (es : list event) (n : nat) : option T :=
    match es with
    | [] => None
    | Commit i v :: es' => if last_is i (reservers es') n then Some v else committed es' n
    | _ :: es' => committed es' n
    end.

  (** What was left in the slot by the [n]-th dequeue, once its handle is dropped. *)
  Fixpoint released (es : list event) (n : nat) : option T :=
    match es with
    | [] => None
    | Release i v :: es' => if last_is i (takers es') n then Some v else released es' n
    | _ :: es' => released es' n
    end.

  (** The element seen through [i]'s handle: what it was handed, or what [i]
      itself last wrote. *)
  Fixpoint content (i : agent) (es : list event) : option T :=
    match es with
    | [] => None
    | HandOut j v :: es' | Overwrite j _ v :: es' | Wrote j v :: es' | Take j v :: es' =>
        if Nat.eqb i j then Some v else content i es'
    | _ :: es' => content i es'
    end.

  (** A close() that took effect has happened. *)
  Definition closed_in (es : list event) : bool :=
    existsb (fun e => match e with Closing _ true => true | _ => false end) es.

  (** Elements reserved or stored and not yet dequeued. *)
  Definition occupancy (es : list event) : nat := count is_reserve es - count is_take es.

  (** The histories at the successive instants from the invocation of [i]'s
      current call up to now. *)
  Fixpoint moments (i : agent) (es : list event) : list (list event) :=
    es :: match es with
          | [] => []
          | e :: es' => if is_invoke i e then [] else moments i es'
          end.
End History.
