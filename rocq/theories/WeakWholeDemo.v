(** Concrete executions of a whole channel on weak memory, for examples and counterexamples. *)
From Coq Require Import List Bool Arith NArith.
From Verif Require Import QueueSpec CoreModel Demo WaitCellModel WaitList WaitQueueModel WeakModel WeakCellModel WeakQueueModel WeakChannelModel WeakWholeModel WeakWholeSpec.
Import ListNotations.

Section Play.
  Variables (P : params) (pol : policy nat) (debug : bool) (o : chan_orders) (async : bool).
  Notation state := (zstate (T := nat)).
  Notation action := (zaction (T := nat)).

  (** A choice depends on the state; of the actions it offers the first enabled one is done, none if none is. *)
  Definition choice := state -> list action.
  Fixpoint first_enabled (s : state) (l : list action) : option (action * state * list (zevent (T := nat))) :=
    match l with
    | [] => None
    | a :: l' => match zstep P pol debug o async s a with Some (s', evs) => Some (a, s', evs) | None => first_enabled s l' end
    end.
  (** [calm]: so far nobody was polled without having been woken, and nobody was given up, see [WeakWholeSpec.on_wake]. *)
  Definition wakeful (s : state) (a : action) : bool :=
    match a with
    | DoCall i _ sync => match z_op s i with OPark => sync | _ => true end
    | DoCancel _ | DoTimeout _ => false
    | _ => true
    end.
  Fixpoint play (s : state) (zs : list (zevent (T := nat))) (calm : bool) (l : list choice) : state * list (zevent (T := nat)) * bool :=
    match l with
    | [] => (s, zs, calm)
    | c :: l' => match first_enabled s (c s) with Some (a, s', evs) => play s' (evs ++ zs) (calm && wakeful s a) l' | None => play s zs calm l' end
    end.

  Lemma first_enabled_step s l a s' evs : first_enabled s l = Some (a, s', evs) -> zstep P pol debug o async s a = Some (s', evs).
  Proof. induction l as [|b l IH]; cbn; [discriminate|]. destruct (zstep P pol debug o async s b) as [[u e]|] eqn:E; [intros H; injection H as <- <- <-; exact E|exact IH]. Qed.
  Lemma wakeful_on s a : wakeful s a = true -> on_wake s a.
  Proof. destruct a; cbn; try easy. intros H E. now rewrite E in H. Qed.
  Lemma play_run l : forall s zs calm, zrun P pol debug o async zs s -> (calm = true -> zrun_patient P pol debug o async zs s) ->
    let '(s', zs', calm') := play s zs calm l in
    zrun P pol debug o async zs' s' /\ (calm' = true -> zrun_patient P pol debug o async zs' s').
  Proof.
    induction l as [|c l IH]; intros s zs calm H1 H2; cbn [play]; [auto|].
    destruct (first_enabled s (c s)) as [[[a s'] evs]|] eqn:E; [|now apply IH]. apply first_enabled_step in E.
    apply IH; [now apply (zrun_step P pol debug o async zs s a)|]. intros H. apply andb_true_iff in H as [Hc Ha].
    apply (zpat_step P pol debug o async zs s a); auto using wakeful_on.
  Qed.
  Lemma play_case l (Q : state -> list (zevent (T := nat)) -> Prop) :
    (let '(s, zs, _) := play (zinit P) [] true l in Q s zs) -> exists zs s, zrun P pol debug o async zs s /\ Q s zs.
  Proof.
    intros H. pose proof (play_run l (zinit P) [] true (zrun_init _ _ _ _ _) (fun _ => zpat_init _ _ _ _ _)) as K.
    destruct (play (zinit P) [] true l) as [[s zs] b]. exists zs, s. split; [exact (proj1 K)|exact H].
  Qed.
  Lemma play_patient l (Q : state -> list (zevent (T := nat)) -> Prop) :
    (let '(s, zs, calm) := play (zinit P) [] true l in calm = true /\ Q s zs) -> exists zs s, zrun_patient P pol debug o async zs s /\ Q s zs.
  Proof.
    intros H. pose proof (play_run l (zinit P) [] true (zrun_init _ _ _ _ _) (fun _ => zpat_init _ _ _ _ _)) as K.
    destruct (play (zinit P) [] true l) as [[s zs] b]. destruct H as [-> H]. exists zs, s. split; [exact (proj2 K eq_refl)|exact H].
  Qed.
End Play.

(** Choices: [only a]; a step of send [i], which reads the newest values and passes waker [w]; the first [n] steps. *)
Definition only (a : zaction (T := nat)) : choice := fun _ => [a].
Definition recent : list nat := rev (seq 0 16).
Definition drive (i : nat) (w : waker) : choice := fun s =>
  match z_op s i with
  | ONew => [DoNew i]
  | OAgain _ => [DoTry i]
  | OPush _ => map (fun k => DoPush i k false) recent
  | OCall _ => [DoCall i w false]
  | OWait _ | OCancel => [DoStep i None]
  | _ => []
  end.
Definition drives (i : nat) (w : waker) (n : nat) : list choice := repeat (drive i w) n.
(** Send [i] with Sender [j]; the SendRef is written, dropped, and the receiver notified. *)
Definition sends (i j : nat) (w : waker) : list choice := only (DoSend i j) :: drives i w 24.
Definition fills (j : nat) (v : nat) : list choice :=
  [only (DoY (WeakChannelModel.AWrite j v)); only (DoY (ACommit j))] ++ repeat (only (DoY (ANotify j None))) 5.
(** The receiver polls with waker [w], or try_recv_ref; it drops its RecvRef, and notifies. *)
Definition polling : choice := fun s =>
  match y_rx (z_y s) with
  | RPop _ _ | RTry => map (fun k => DoY (ARecv k false)) recent
  | RWait _ => [DoY (AWait None)]
  | _ => []
  end.
Definition polls (w : waker) : list choice := only (DoY (APoll w)) :: repeat polling 24.
Definition rx_steps (n : nat) : list choice := repeat (only (DoRx None)) n.
Definition drops_ref (a : nat) : list choice := [only (DoRefDrop a); only DoNotify] ++ rx_steps 12.
Definition drops_rx : list choice := [only (DoDropRx false); only DoClose] ++ rx_steps 24.
Definition clones (j k : nat) : choice := only (DoY (AClone j k)).
Definition resumes (i : nat) (w : waker) : list choice := only (DoCall i w true) :: drives i w 24.

Definition zplay (debug async : bool) (l : list choice) := play (core_new 64 1) demo_policy debug code_chan_orders async (zinit (core_new 64 1)) [] true l.
