(** Definitions used in the statements about the wait cell. *)
From Coq Require Import List Bool Arith NArith.
From Verif Require Import WaitCellModel.
Import ListNotations.
Local Open Scope N_scope.

(** The thread's next step reads or writes the [waiter] cell. *)
Definition touches_waiter (p : wpc) : bool :=
  match p with WReplace _ _ | WTake _ _ _ _ | NTake => true | _ => false end.

(** The waker given to [i]'s latest wait_with. *)
Fixpoint last_call (i : nat) (es : list wevent) : option waker :=
  match es with
  | [] => None
  | CallWait j w _ :: es' => if Nat.eqb i j then Some w else last_call i es'
  | _ :: es' => last_call i es'
  end.

(** The waker most recently stored in the cell by anybody. *)
Fixpoint last_registered (es : list wevent) : option waker :=
  match es with
  | [] => None
  | Registered _ w :: _ => Some w
  | _ :: es' => last_registered es'
  end.

(** Only [r] calls wait_with. *)
Definition single_waiter (r : nat) (es : list wevent) : Prop := forall i w pan, In (CallWait i w pan) es -> i = r.

(** No closure given to wait_with panics. *)
Definition no_panic (es : list wevent) : Prop := forall i w, ~ In (CallWait i w true) es.

Definition is_call (r : nat) (e : wevent) : bool :=
  match e with CallWait i _ _ => Nat.eqb r i | _ => false end.
Definition is_fetched (e : wevent) : bool := match e with Fetched _ _ => true | _ => false end.
Definition is_closing (e : wevent) : bool := match e with Fetched _ true => true | _ => false end.

(** [parked r es = Some (w, l)]: [r]'s latest wait_with, given [w], returned Wait,
    and [l] are the events since. *)
Fixpoint parked (r : nat) (es : list wevent) : option (waker * list wevent) :=
  match es with
  | [] => None
  | e :: es' =>
      let later := match parked r es' with Some (w, l) => Some (w, e :: l) | None => None end in
      match e with
      | CallWait i _ _ => if Nat.eqb r i then None else later
      | RetWait i Wait => if Nat.eqb r i then option_map (fun w => (w, [])) (last_call r es') else later
      | _ => later
      end
  end.

(** [k] is in the middle of a notify and is about to wake [w]. *)
Definition about_to_wake (s : wsys) (k : nat) (w : waker) : Prop :=
  match ws_pc s k with
  | NTake => w_waiter (ws_cell s) = Some w
  | NAnd (Some v) | NWake v => v = w
  | _ => False
  end.

(** Some close_tx has taken effect. *)
Definition closed_in (es : list wevent) : bool := existsb is_closing es.

(** The cell was already closed when [i]'s latest wait_with was called. *)
Fixpoint closed_at_call (i : nat) (es : list wevent) : bool :=
  match es with
  | [] => false
  | CallWait j _ _ :: es' => if Nat.eqb i j then closed_in es' else closed_at_call i es'
  | _ :: es' => closed_at_call i es'
  end.

Definition quiet (s : wsys) : Prop := forall i, ws_pc s i = WIdle.

(** Steps a thread still needs to finish its notify / wait_with call. *)
Definition steps_left (p : wpc) : nat :=
  match p with
  | WIdle => 0
  | WCas1 _ _ => 8 | WSelf _ _ => 2 | WReplace _ _ => 7 | WCas2 _ _ _ => 6 | WTake _ _ _ _ => 5
  | WAnd _ _ _ _ _ => 4 | WPrev _ _ _ _ _ => 3 | WMine _ _ _ _ => 2 | WRet _ _ => 1
  | NOr _ => 5 | NTake => 4 | NAnd _ => 3 | NWake _ => 2 | NRet _ => 1
  end.
