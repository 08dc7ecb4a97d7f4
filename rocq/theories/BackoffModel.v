(** Backoff (/repo/src/util.rs:23-72) with the number of spin-loop hints each
    call executes.  No proofs here.  The counter functions are the ones used in
    the ring model ([CoreModel.backoff_spin], ...). *)
From Coq Require Import List Bool NArith.
From Verif Require Import CoreModel.
Import ListNotations.
Local Open Scope N_scope.

(** [BSpin]: spin (line 32); [BYield std]: spin_yield (line 50), [std] says
    whether the std feature is on. *)
Inductive bop := BSpin | BYield (std : bool).

(** Number of hint::spin_loop() calls (lines 34, 53-55). *)
Definition hints (b : N) (o : bop) : N :=
  match o with
  | BSpin => N.shiftl 1 (N.min b 3)
  | BYield std => if (b <=? 3) || negb std then N.shiftl 1 b else 0
  end.

(** The counter after the call (lines 44-46, 64-66); [None] if the u8 addition overflows. *)
Definition bnext (b : N) (o : bop) : option N :=
  let b' := match o with BSpin => backoff_spin b | BYield _ => backoff_spin_yield b end in
  if b' <? 256 then Some b' else None.

(** A sequence of calls on one Backoff (/repo/src/util.rs:32, 50). *)
Fixpoint brun (b : N) (l : list bop) : option N :=
  match l with
  | [] => Some b
  | o :: l' => match bnext b o with Some b' => brun b' l' | None => None end
  end.
