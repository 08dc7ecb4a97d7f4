(** Definitions used in the statements about calls that run alone. *)
From Coq Require Import List Bool Arith NArith.
From Verif Require Import Word QueueSpec CoreModel.
Import ListNotations.

(** The agent is inside push_ref / pop_ref / len. *)
Definition in_push (p : pc) : bool :=
  match p with PStart | PState _ | PCas _ | PInit _ | PHead _ | PReload => true | _ => false end.
Definition in_pop (p : pc) : bool :=
  match p with QStart | QState _ _ | QCas _ _ | QTail _ _ | QReload _ => true | _ => false end.
Definition in_len (p : pc) : bool :=
  match p with LTail | LHead _ | LCheck _ _ => true | _ => false end.

(** The slot kept busy by an agent: it is initialising it, it died doing so, or
    it has a handle to it. *)
Definition occupies (P : params) (p : pc) : option N :=
  match p with
  | PInit t | PDead t => Some (fst (idx_gen P t))
  | PHold r | QHold r => Some (r_idx r)
  | _ => None
  end.
Definition pop_handle (p : pc) : option N :=
  match p with QHold r => Some (r_idx r) | _ => None end.

(** Index of the slot the next push / the next pop will use. *)
Definition tail_index {T} (P : params) (c : core T) : N := fst (idx_gen P (c_tail c)).
Definition head_index {T} (P : params) (c : core T) : N := fst (idx_gen P (c_head c)).
