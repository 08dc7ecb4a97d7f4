(** Calls run to completion by one thread, and the single-threaded ThingBuf API
    (/repo/src/thingbuf.rs, /repo/src/static_thingbuf.rs).  No proofs here. *)
From Coq Require Import List Bool Arith NArith.
From Verif Require Import Word QueueSpec CoreModel.
Import ListNotations.

Section Seq.
  Context {T : Type}.
  Variables (P : params) (pol : policy T).

  (** Run agent [i] alone until its call (/repo/src/lib.rs:177-386) returns; [None] when [fuel] steps are
      not enough. *)
  Fixpoint call (fuel : nat) (s : state) (es : list (event T)) (i : agent)
    : option (state * list (event T)) :=
    if stepping (st_agents s i) then
      match fuel with
      | 0 => None
      | S f => match step P pol s (AStep i false) with
               | Some (s', e) => call f s' (ocons e es) i
               | None => None
               end
      end
    else Some (s, es).

  (** Operations of the ThingBuf API (/repo/src/thingbuf.rs:231-493); [TPushWith]/[TPopWith] model push_ref /
      pop_ref / push_with / pop_with: the caller sees the element and leaves
      [f element] in the slot. *)
  Inductive top :=
  | TPush (v : T)
  | TPop
  | TPushWith (f : T -> T)
  | TPopWith (f : T -> T)
  | TLen
  | TRemaining
  | TIsEmpty.

  (** Their results.  [ROk seen]: success, with the element seen through the handle;
      [RFull back]: Err(Full(..)), with the value given back by push. *)
  Inductive tres :=
  | ROk (seen : T)
  | RFull (back : option T)
  | RNone
  | RLength (n : N)
  | RBool (b : bool).

  (** A ThingBuf (/repo/src/thingbuf.rs:183-189) with its history. *)
  Definition tb : Type := @state T * list (event T).

  (** One action on it. *)
  Definition act (x : tb) (a : action) : option tb :=
    match step P pol (fst x) a with
    | Some (s', e) => Some (s', ocons e (snd x))
    | None => None
    end.

  (** The element in the slot of [i]'s outstanding handle (Deref,
      /repo/src/lib.rs:449-461). *)
  Definition seen_by (s : state) (i : agent) : option T :=
    match st_agents s i with
    | PHold r | QHold r => s_value (c_slots (st_core s) (r_idx r))
    | _ => None
    end.

  (** Write [f seen] through the handle of agent 0 and drop it (/repo/src/lib.rs:463-481). *)
  Definition finish (x : tb) (f : T -> T) : option (tb * tres) :=
    match seen_by (fst x) 0 with
    | Some v =>
        match act x (AWrite 0 (f v)) with
        | Some x1 => match act x1 (ADrop 0) with
                     | Some x2 => Some (x2, ROk v)
                     | None => None
                     end
        | None => None
        end
    | None => None
    end.

  (** ThingBuf::push_ref/push/push_with (/repo/src/thingbuf.rs:388-437),
      pop_ref/pop/pop_with (461-493), len (270), remaining (242), is_empty
      (291): same code in /repo/src/static_thingbuf.rs.  [None]: out of fuel,
      the [unreachable!()] of push_ref (thingbuf.rs:393) is reached, or the
      subtraction in remaining underflows. *)
  Definition tb_op (fuel : nat) (x : tb) (o : top) : option (tb * tres) :=
    let start := match o with
                 | TPush _ | TPushWith _ => OpPush
                 | TPop | TPopWith _ => OpPop
                 | TLen | TRemaining | TIsEmpty => OpLen
                 end in
    match act x (AInvoke 0 start) with
    | None => None
    | Some x1 =>
        match call fuel (fst x1) (snd x1) 0 with
        | None => None
        | Some x2 =>
            match o, st_agents (fst x2) 0, snd x2 with
            | TPush v, PHold _, _ => finish x2 (fun _ => v)
            | TPushWith f, PHold _, _ => finish x2 f
            | TPush v, Idle, RetFull _ :: _ => Some (x2, RFull (Some v))
            | TPushWith _, Idle, RetFull _ :: _ => Some (x2, RFull None)
            | TPop, QHold _, _ => finish x2 (fun _ => new_element pol) (* recycling::take, recycling.rs:196-201 *)
            | TPopWith f, QHold _, _ => finish x2 f
            | TPop, Idle, RetEmpty _ :: _ | TPopWith _, Idle, RetEmpty _ :: _ => Some (x2, RNone)
            | TPop, Idle, RetPopClosed _ :: _ | TPopWith _, Idle, RetPopClosed _ :: _ => Some (x2, RNone)
            | TLen, Idle, RetLen _ n :: _ => Some (x2, RLength n)
            | TRemaining, Idle, RetLen _ n :: _ =>
                if (p_capacity P <? n)%N then None else Some (x2, RLength (p_capacity P - n))
            | TIsEmpty, Idle, RetLen _ n :: _ => Some (x2, RBool (n =? 0)%N)
            | _, _, _ => None
            end
        end
    end.

  (** A sequence of calls by one thread (/repo/src/thingbuf.rs:231-493). *)
  Fixpoint tb_run (fuel : nat) (x : tb) (l : list top) : option (tb * list tres) :=
    match l with
    | [] => Some (x, [])
    | o :: l' =>
        match tb_op fuel x o with
        | Some (x', r) =>
            match tb_run fuel x' l' with
            | Some (x2, rs) => Some (x2, r :: rs)
            | None => None
            end
        | None => None
        end
    end.

  (** ThingBuf::new / with_recycle (/repo/src/thingbuf.rs:194, 305). *)
  Definition tb_init : tb := (init_state P, []).
End Seq.
Arguments TPush {T}. Arguments TPop {T}. Arguments TPushWith {T}. Arguments TPopWith {T}. Arguments TLen {T}. Arguments TRemaining {T}. Arguments TIsEmpty {T}.
Arguments ROk {T}. Arguments RFull {T}. Arguments RNone {T}. Arguments RLength {T}. Arguments RBool {T}.
