(** Sends that are polled only when they were woken. *)
From Coq Require Import List Bool Arith NArith.
From Verif Require Import QueueSpec CoreModel WaitCellModel WaitQueueModel WaitQueueSpec WaitQueuePatient ChannelModel ChannelSpec ChannelFacts ChannelInv.
Import ListNotations.

Lemma patient_chan {T} P (pol : policy T) async debug es s : crun P pol async debug es s -> no_cancel es -> no_spurious es -> patient (queue_of es).
Proof.
  intros Hr Hc Hn. assert (Hd : forall i, ~ In (EDrop i) (queue_of es) /\ ~ In (ETimeout i) (queue_of es)).
  { intros i. split; intros H; apply (Hc i); apply (cancel_events _ _ _ _ _ _ _ Hr); auto. }
  clear Hr Hc. induction es as [|e es IH]; [exact I|].
  destruct e as [e|e|e|i t|i r|i|h w|r| |i n p|p]; simpl in *; auto.
  assert (IH' : no_spurious es -> patient (queue_of es)).
  { intros H. apply IH; [exact H|]. intros i. destruct (Hd i) as [D1 D2]. auto. }
  destruct e; auto.
  - destruct Hn. auto.
  - destruct (Hd i) as [D _]. destruct D. now left.
  - destruct (Hd i) as [_ D]. destruct D. now left.
Qed.

Lemma patient_memory {T} P (pol : policy T) async debug es s : crun P pol async debug es s -> no_cancel es -> no_spurious es -> memory_ok es.
Proof. intros Hr Hc Hn. exact (proj1 (proj2 (proj2 (patient_safe _ _ _ (crun_queue _ _ _ _ _ _ Hr) (patient_chan _ _ _ _ _ _ Hr Hc Hn))))). Qed.
