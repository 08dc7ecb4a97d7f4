(** Recycling policies (/repo/src/recycling.rs).  No proofs here. *)
From Coq Require Import List Bool NArith.
From Verif Require Import CoreModel.
Import ListNotations.
Local Open Scope N_scope.

(** DefaultRecycle (/repo/src/recycling.rs:63, 203-221).  [clone_from] is taken to
    make the element equal to its argument, as the Clone trait requires. *)
Definition default_policy {T} (default : T) : policy T := mkPolicy default (fun _ => default).

(** struct WithCapacity (/repo/src/recycling.rs:188-191). *)
Record with_capacity := mkWC { wc_min : N; wc_max : N }.

(** new, with_max_capacity, with_min_capacity, min_capacity, max_capacity
    (/repo/src/recycling.rs:235-240, 280-282, 317-319, 346-348, 377-379). *)
Definition wc_new (W : N) : with_capacity := mkWC 0 (2 ^ W - 1).
(** with_max_capacity (/repo/src/recycling.rs:280-282). *)
Definition with_max_capacity (r : with_capacity) (max : N) : with_capacity := mkWC (wc_min r) max.
(** with_min_capacity (/repo/src/recycling.rs:317-319). *)
Definition with_min_capacity (r : with_capacity) (min : N) : with_capacity := mkWC min (wc_max r).

(** A collection (Vec, String, VecDeque, BinaryHeap, HashMap, HashSet): its items
    and its allocated capacity. *)
Record coll (A : Type) := mkColl { items : list A; capacity : N }.
Arguments mkColl {A}. Arguments items {A}. Arguments capacity {A}.
(** Its number of items. *)
Definition len {A} (c : coll A) : N := N.of_nat (length (items c)).

(** std's with_capacity(n), clear() and shrink_to(n), as documented: [alloc n]
    is the capacity a request for [n] yields (n for Vec and String; some
    collections round up); clear keeps the capacity; shrink_to never goes below
    the length or its argument and never increases the capacity. *)
Section Std.
  Variable alloc : N -> N.
  Context {A : Type}.
  (** std: with_capacity, as used at /repo/src/recycling.rs:414 and the like. *)
  Definition std_with_capacity (n : N) : coll A := mkColl [] (alloc n).
  (** std: clear, as used at /repo/src/recycling.rs:419 and the like. *)
  Definition std_clear (c : coll A) : coll A := mkColl [] (capacity c).
  (** std: shrink_to, as used at /repo/src/recycling.rs:420 and the like. *)
  Definition std_shrink_to (c : coll A) (n : N) : coll A :=
    mkColl (items c) (N.min (capacity c) (alloc (N.max (len c) n))).
  (** std: push, by the user between two uses of the slot. *)
  Definition std_push (c : coll A) (a : A) (grown : N) : coll A :=
    mkColl (items c ++ [a]) (N.max (capacity c) (N.max (len c + 1) grown)).

  (** impl Recycle<Vec<T>> for WithCapacity and the five others, which have the
      same body (/repo/src/recycling.rs:412-489). *)
  Definition wc_new_element (r : with_capacity) : coll A := std_with_capacity (wc_min r).
  (** WithCapacity's recycle (/repo/src/recycling.rs:412-489). *)
  Definition wc_recycle (r : with_capacity) (c : coll A) : coll A := std_shrink_to (std_clear c) (wc_max r).
  (** WithCapacity as a policy (/repo/src/recycling.rs:412-489). *)
  Definition wc_policy (r : with_capacity) : policy (coll A) := mkPolicy (wc_new_element r) (wc_recycle r).
End Std.

(** impl Recycle<T> for Arc<R> (/repo/src/recycling.rs:397-410): delegates. *)
Definition arc_policy {T} (r : policy T) : policy T := mkPolicy (new_element r) (fun v => recycle r v).

(** recycling::take (/repo/src/recycling.rs:196-201): returns the element and
    leaves a new one; the pair is (returned, left in the slot). *)
Definition take {T} (element : T) (r : policy T) : T * T := (element, new_element r).
