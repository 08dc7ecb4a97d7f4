(** The sender count of a channel, Sender::clone / drop, is_closed, and the
    one-shot split of a static channel.  No proofs here. *)
From Coq Require Import List Bool Arith NArith.
Import ListNotations.
Local Open Scope N_scope.

(** Existing Sender values are identified by numbers; [SClosing]: the handle was
    dropped, its fetch_sub returned at most 1, and the thread has not yet
    called close. *)
Record txs := mkTx {
  tx_count : N;               (* the atomic counter, a W-bit word *)
  tx_live : list nat;         (* Sender values that exist (also if leaked by mem::forget) *)
  tx_closing : list nat;      (* drops between fetch_sub and close *)
  tx_closes : nat }.          (* number of times the senders closed the channel *)

(** ChannelCore::new (/repo/src/mpsc.rs:315-322) plus the construction of the
    first Sender. *)
Definition tx_init : txs := mkTx 1 [0%nat] [] 0%nat.

(** What may happen: Sender::clone and the two halves of Sender::drop
    (/repo/src/mpsc/async_impl.rs:262-282, /repo/src/mpsc/blocking.rs:1236-1257). *)
Inductive txact :=
| XClone (i j : nat)  (* &Sender i is cloned, giving the new value j *)
| XDrop (i : nat)     (* Sender i is dropped: the fetch_sub *)
| XClose (i : nat).   (* ... and the close that follows it *)

(** Sender::clone (/repo/src/mpsc/async_impl.rs:262-269, 947-957; blocking.rs
    534-543, 1236-1243): fetch_add wraps.  Sender::drop
    (/repo/src/mpsc/async_impl.rs:271-282, 958-970; blocking.rs 545-557,
    1245-1257).  Simplification: close() and close_tx()/notify() following the
    fetch_sub are one step here (they are separate steps in the channel model). *)
Definition tx_step (W : N) (s : txs) (a : txact) : option txs :=
  match a with
  | XClone i j =>
      if existsb (Nat.eqb i) (tx_live s) && negb (existsb (Nat.eqb j) (tx_live s)) then
        Some (mkTx ((tx_count s + 1) mod 2 ^ W) (j :: tx_live s) (tx_closing s) (tx_closes s))
      else None
  | XDrop i =>
      if existsb (Nat.eqb i) (tx_live s) then
        let prev := tx_count s in
        Some (mkTx ((prev + 2 ^ W - 1) mod 2 ^ W) (remove Nat.eq_dec i (tx_live s))
                   (if 1 <? prev then tx_closing s else i :: tx_closing s) (tx_closes s))
      else None
  | XClose i =>
      if existsb (Nat.eqb i) (tx_closing s) then
        Some (mkTx (tx_count s) (tx_live s) (remove Nat.eq_dec i (tx_closing s)) (S (tx_closes s)))
      else None
  end.

(** A sequence of these. *)
Fixpoint tx_run (W : N) (s : txs) (l : list txact) : option txs :=
  match l with
  | [] => Some s
  | a :: l' => match tx_step W s a with Some s' => tx_run W s' l' | None => None end
  end.

(** Receiver::is_closed (/repo/src/mpsc/async_impl.rs:581-583, 1286-1288,
    /repo/src/mpsc/blocking.rs:875-877, 1561-1563). *)
Definition is_closed (s : txs) : bool := tx_count s <=? 1.

(** StaticChannel::try_split (/repo/src/mpsc/async_impl.rs:741-756,
    /repo/src/mpsc/blocking.rs:225-240): one compare_exchange on is_split; the
    result says whether the caller got the pair. *)
Definition try_split (is_split : bool) : bool * bool := if is_split then (true, false) else (true, true).

(** Threads call try_split in any order; results in that order. *)
Fixpoint split_run (is_split : bool) (callers : list nat) : list (nat * bool) :=
  match callers with
  | [] => []
  | i :: l => let '(f, r) := try_split is_split in (i, r) :: split_run f l
  end.
