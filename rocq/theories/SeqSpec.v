(** Sequential specification of a ThingBuf: a bounded list queue whose free
    slots remember what was left in them.  Independent of the implementation's
    words, indices and generations except through [fresh], which says at which
    pushes the slot is treated as never used. *)
From Coq Require Import List Bool Arith NArith.
From Verif Require Import QueueSpec CoreModel CoreArith SeqModel.
Import ListNotations.

Section SeqSpec.
  Context {T : Type}.
  Variables (cap : nat) (fresh : nat -> bool) (pol : policy T).

  Record sq := mkSq {
    sq_items : list T;   (* stored elements, oldest first *)
    sq_free : list T;    (* what was left in the released slots, in order of reuse *)
    sq_pushed : nat }.   (* number of pushes so far *)

  Definition sq_empty : sq := mkSq [] [] 0.

  (** The element a push finds in its slot. *)
  Definition sq_element (s : sq) : T :=
    if fresh (sq_pushed s) then new_element pol
    else match sq_free s with old :: _ => recycle pol old | [] => new_element pol end.

  Definition sq_push (s : sq) (f : T -> T) (back : option T) : sq * tres (T := T) :=
    if length (sq_items s) <? cap then
      (mkSq (sq_items s ++ [f (sq_element s)])
            (if sq_pushed s <? cap then sq_free s else tl (sq_free s))
            (S (sq_pushed s)),
       ROk (sq_element s))
    else (s, RFull back).

  Definition sq_pop (s : sq) (f : T -> T) : sq * tres (T := T) :=
    match sq_items s with
    | [] => (s, RNone)
    | v :: rest => (mkSq rest (sq_free s ++ [f v]) (sq_pushed s), ROk v)
    end.

  Definition sq_op (s : sq) (o : top) : sq * tres :=
    match o with
    | TPush v => sq_push s (fun _ => v) (Some v)
    | TPushWith f => sq_push s f None
    | TPop => sq_pop s (fun _ => new_element pol)
    | TPopWith f => sq_pop s f
    | TLen => (s, RLength (N.of_nat (length (sq_items s))))
    | TRemaining => (s, RLength (N.of_nat (cap - length (sq_items s))))
    | TIsEmpty => (s, RBool (Nat.eqb (length (sq_items s)) 0))
    end.

  Fixpoint sq_run (s : sq) (l : list top) : sq * list tres :=
    match l with
    | [] => (s, [])
    | o :: l' => let '(s1, r) := sq_op s o in
                 let '(s2, rs) := sq_run s1 l' in (s2, r :: rs)
    end.
End SeqSpec.
Arguments mkSq {T}. Arguments sq_items {T}. Arguments sq_free {T}. Arguments sq_pushed {T}.

(** A plain bounded FIFO of values, for push by value, pop, len, remaining and
    is_empty; for a successful push the answer is just Ok. *)
Definition fifo_op {T} (cap : nat) (l : list T) (o : top (T := T)) : list T * option (tres (T := T)) :=
  match o with
  | TPush v => if length l <? cap then (l ++ [v], None) else (l, Some (RFull (Some v)))
  | TPop | TPopWith _ => match l with [] => (l, Some RNone) | v :: l' => (l', Some (ROk v)) end
  | TLen => (l, Some (RLength (N.of_nat (length l))))
  | TRemaining => (l, Some (RLength (N.of_nat (cap - length l))))
  | TIsEmpty => (l, Some (RBool (Nat.eqb (length l) 0)))
  | TPushWith _ => (l, None)
  end.
Fixpoint fifo_run {T} (cap : nat) (l : list T) (ops : list (top (T := T))) : list T * list (option (tres (T := T))) :=
  match ops with
  | [] => (l, [])
  | o :: ops' => let '(l1, r) := fifo_op cap l o in
                 let '(l2, rs) := fifo_run cap l1 ops' in (l2, r :: rs)
  end.

Definition by_value {T} (o : top (T := T)) : bool := match o with TPushWith _ => false | _ => true end.
(** The answer of push is Ok(()): the element found in the slot is not visible. *)
Definition visible {T} (o : top (T := T)) (r : tres (T := T)) : option (tres (T := T)) :=
  match o, r with TPush _, ROk _ => None | _, _ => Some r end.

(** The generation field of position [k] is zero: [k / cap] is a multiple of
    the number of generations that fit in a word. *)
Definition fresh_at (W : N) (cap k : nat) : bool := (N.of_nat (k / cap) mod ngen W cap =? 0)%N.

(** Events that accompany a change of the shared state. *)
Definition mutates {T} (e : event T) : bool :=
  match e with
  | Reserve _ | HandOut _ _ | Overwrite _ _ _ | Wrote _ _ | Commit _ _ | Take _ _ | Release _ _ | Closing _ _ | UB _ => true
  | _ => false
  end.
