(** Definitions used in the statements about system-wide progress. *)
From Coq Require Import List Bool Arith NArith.
From Verif Require Import Word QueueSpec CoreModel SoloSpec.
Import ListNotations.

(** A call got somewhere: it reserved a place, was handed an element, took an element, or returned. *)
Definition got_somewhere {T} (e : event T) : bool :=
  match e with
  | Reserve _ | HandOut _ _ | Overwrite _ _ _ | Take _ _ | RetPushClosed _ | RetFull _ | RetPopClosed _ | RetEmpty _ | RetLen _ _ => true
  | _ => false
  end.

(** [ls] is nothing but steps of the agents in [A], and no compare_exchange_weak fails spuriously. *)
Definition only_steps {T} (A : list agent) (ls : list (@action T)) : Prop :=
  forall a, In a ls -> exists i, In i A /\ a = AStep i false.
Definition runs_in {T} (ls : list (@action T)) (j : agent) : Prop := exists spur, In (AStep j spur) ls.

(** What stands in the way of a push is an agent that keeps the tail slot busy, and of a pop one that has a handle to the head slot. *)
Definition in_the_way {T} (P : params) (s : state (T := T)) (i j : agent) : Prop :=
  in_push (st_agents s i) = true /\ j <> i /\ occupies P (st_agents s j) = Some (tail_index P (st_core s)) \/
  in_pop (st_agents s i) = true /\ pop_handle (st_agents s j) = Some (head_index P (st_core s)).
Definition nothing_in_the_way {T} (P : params) (s : state (T := T)) : Prop :=
  forall j, occupies P (st_agents s j) <> Some (tail_index P (st_core s)) /\ pop_handle (st_agents s j) <> Some (head_index P (st_core s)).

(** Steps in which the hardware makes compare_exchange_weak fail without cause. *)
Definition is_spurious {T} (a : @action T) : bool := match a with AStep _ true => true | _ => false end.
Definition spurious {T} (ls : list (@action T)) : nat := length (filter is_spurious ls).
