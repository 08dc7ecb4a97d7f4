(** Schedules of the channel, for the examples. *)
From Coq Require Import List Bool Arith NArith Lia.
From Verif Require RingFacts.
From Verif Require Import QueueSpec CoreModel CoreArith RingSpec WaitCellModel ChannelModel ChannelSpec ChannelFacts.
From Verif Require WaitQueueModel.
Import ListNotations.

Section Play.
  Context {T : Type}.
  Variables (P : params) (pol : policy T) (async debug : bool).
  Notation chan := (@chan T).
  (** Execute a schedule, leaving out what is not possible. *)
  Fixpoint play (s : chan) (es : list (cevent T)) (l : list (@caction T)) : chan * list (cevent T) :=
    match l with
    | [] => (s, es)
    | a :: l' => match cstep_sys P pol async debug s a with
                 | Some (s', es') => play s' (es' ++ es) l'
                 | None => play s es l'
                 end
    end.
  Lemma play_run l : forall s es, crun P pol async debug es s -> let (s', es') := play s es l in crun P pol async debug es' s'.
  Proof.
    induction l as [|a l IH]; intros s es Hr; [exact Hr|]. simpl. destruct (cstep_sys P pol async debug s a) as [[s' es']|] eqn:E; [|now apply IH].
    apply IH. exact (crun_step _ _ _ _ _ _ _ _ _ Hr E).
  Qed.
  Lemma play_steps l s0 : forall s es, csteps P pol async debug s0 es s -> let (s', es') := play s es l in csteps P pol async debug s0 es' s'.
  Proof.
    induction l as [|a l IH]; intros s es Hr; [exact Hr|]. simpl. destruct (cstep_sys P pol async debug s a) as [[s' es']|] eqn:E; [|now apply IH].
    apply IH. exact (csteps_step _ _ _ _ _ _ _ _ _ _ Hr E).
  Qed.
  Definition played (l : list (@caction T)) := play (chan_init P) [] l.
  Lemma played_run l : crun P pol async debug (snd (played l)) (fst (played l)).
  Proof. pose proof (play_run l (chan_init P) [] (crun_init _ _ _ _)) as H. unfold played. destruct (play (chan_init P) [] l). exact H. Qed.
  Lemma played_case l (Q : chan -> list (cevent T) -> Prop) :
    (crun P pol async debug (snd (played l)) (fst (played l)) -> Q (fst (played l)) (snd (played l))) -> exists s es, crun P pol async debug es s /\ Q s es.
  Proof. intros H. exists (fst (played l)), (snd (played l)). split; [apply played_run|apply H, played_run]. Qed.
  Lemma steps_run s0 es0 : crun P pol async debug es0 s0 -> forall es s, csteps P pol async debug s0 es s -> crun P pol async debug (es ++ es0) s.
  Proof. intros H es s H2. induction H2 as [|l1 s1 a s2 l' H2 IH Hs]; [exact H|]. rewrite <- app_assoc. exact (crun_step _ _ _ _ _ _ _ _ _ IH Hs). Qed.
  Lemma played_further l l2 (Q : chan -> list (cevent T) -> chan -> list (cevent T) -> Prop) :
    let s := fst (played l) in let es := snd (played l) in let s' := fst (play s [] l2) in let es' := snd (play s [] l2) in
    (crun P pol async debug es s -> crun P pol async debug (es' ++ es) s' -> Q s es s' es') ->
    exists s es s' es', crun P pol async debug es s /\ csteps P pol async debug s es' s' /\ Q s es s' es'.
  Proof.
    intros s es s' es' HQ. exists s, es, s', es'. pose proof (played_run l : crun P pol async debug es s) as H. pose proof (play_steps l2 s s [] (csteps_here _ _ _ _ _)) as H2.
    unfold s', es' in *. destruct (play s [] l2) as [s2 es2]. simpl in *. split; [exact H|]. split; [exact H2|]. apply HQ; [exact H|]. exact (steps_run _ _ H _ _ H2).
  Qed.
End Play.

(** Fewer pushes than the counter can tell apart. *)
Lemma calm_few {T} W cap (pol : policy T) async debug es s : wf W cap -> crun (core_new W (N.of_nat cap)) pol async debug es s ->
  (N.of_nat (count is_reserve (ring_of es)) < slack W cap)%N -> ring_calm W cap es.
Proof. intros Hwf Hr H. apply (RingFacts.calm_of_few W cap pol Hwf); [exists (ch_ring s); exact (crun_ring _ _ _ _ _ _ Hr)|exact H]. Qed.

Lemma wf1 : wf 64 1.
Proof. split; [lia|]. vm_compute. reflexivity. Qed.

(** new_element gives 0; recycling adds 1000. *)
Definition dpol : policy nat := mkPolicy 0 (fun v => v + 1000).
Definition tx (i n : nat) : list (@caction nat) := repeat (CTx i (100 + i) false) n.
Definition rx (n : nat) : list (@caction nat) := repeat (CRx false) n.
(** Process [i] sends [v] (and waits, if it must); tries to; goes on once it was woken. *)
Definition sends (i v : nat) : list (@caction nat) := [CSend i false] ++ tx i 30 ++ [CWrite i v; CDropSendRef i] ++ tx i 30.
Definition tries (i v : nat) : list (@caction nat) := [CSend i true] ++ tx i 30 ++ [CWrite i v; CDropSendRef i] ++ tx i 30.
Definition resumes (i v : nat) : list (@caction nat) := [CResume i] ++ tx i 30 ++ [CWrite i v; CDropSendRef i] ++ tx i 30.
(** The receiver receives with RecvRef [h] and waker [w] (and waits, if it must); drops the RecvRef. *)
Definition recvs (h w : nat) : list (@caction nat) := [CRecv h w] ++ rx 40.
Definition unrefs (h : nat) : list (@caction nat) := [CDropRef h] ++ rx 30.

(** Tactics for concrete histories. *)
Ltac walk := repeat match goal with
  | H : _ \/ _ |- _ => destruct H as [H|H]; [first [discriminate H|congruence|idtac]|]
  | H : False |- _ => destruct H
  end.
Ltac same := vm_compute; first [reflexivity|exact I].
Ltac none_in := vm_compute; intros; walk.
Ltac is_in := vm_compute; repeat first [left; reflexivity|right].
Ltac every10 := vm_compute; intros [|[|[|[|[|[|[|[|[|[|i]]]]]]]]]]; vm_compute; auto.
