(** C65: the interleavings of the sequentially consistent models are executions of the weak-memory models. *)
From Coq Require Import List Bool Arith NArith Lia.
From Verif Require Import QueueSpec CoreModel CoreArith RingSpec RingFacts RingTheorems Demo WeakModel WeakSpec WeakFacts WeakTheorems WeakAdequacy.
From Verif Require Import WaitCellModel WaitCellSpec WaitCellTheorems WeakCellModel WaitList WaitQueueModel WaitQueueSpec WaitQueueTheorems WeakQueueModel WeakAdequacy2.
From Verif Require Import History.
Import ListNotations.

(** The ring: whatever push, pop, len and close can do when their accesses are interleaved one by one, they can do
    with the orderings of the code (or any others that exclude races), with the same results and the same memory. *)
Theorem C65_ring : forall T W cap (pol : policy T) o es s,
  let P := core_new W (N.of_nat cap) in
  wf W cap -> sound_orders o -> CoreModel.run P pol es s -> few_pushes W cap es ->
  exists ws, weak_run P pol o es ws /\ w_core ws = st_core s /\ forall i, w_pcs ws i = st_agents s i.
Proof.
  intros T W cap pol o es s P Hwf Ho Hr Hf. destruct (simulated W cap pol o Hwf Ho es s Hr Hf) as (ws & H1 & H2 & H3 & _). eauto.
Qed.
Print Assumptions C65_ring.

(** The receiver's wait cell, with any orderings. *)
Theorem C65_cell : forall debug k es s, wrun debug es s -> exists ws, krun debug k es ws /\ wc_sys ws = s.
Proof. intros debug k es s Hr. destruct (cell_simulated debug k es s Hr) as (ws & H1 & H2 & _). eauto. Qed.
Print Assumptions C65_cell.

(** The senders' wait queue. *)
Theorem C65_queue : forall debug es s, qrun debug es s -> exists ws, wqrun debug es ws /\ wq_sys ws = s.
Proof. intros debug es s Hr. destruct (queue_simulated debug es s Hr) as (ws & H1 & H2 & _). eauto. Qed.
Print Assumptions C65_queue.

(** The converse is false: with the orderings of the code a pop can return None although the oldest message was
    there during the whole call, which no interleaving allows. *)
Theorem C65_converse_refuted : exists es,
  weak_history 64 2 demo_policy code_orders es /\ few_pushes 64 2 es /\ ~ ring_history 64 2 demo_policy es.
Proof.
  destruct C49_empty_truthful_refuted as (es2 & i & es1 & Hh & Hf & Hm). exists (es2 ++ RetEmpty i :: es1).
  split; [exact Hh|]. split; [exact Hf|]. intros Hr.
  destruct (C03_empty_truthful nat 64 2 demo_policy es2 i es1 demo_wf Hr) as (es0 & H1 & H2 & _).
  - apply (calm_of_few 64 2 demo_policy demo_wf _ Hr). exact Hf.
  - specialize (Hm es0 H1). congruence.
Qed.
Print Assumptions C65_converse_refuted.

(** So the executions that refute C25, C28, C29 and C44 exist on weak memory too. *)
Theorem C65_findings_remain : forall debug,
  (exists es ws, wqrun debug es ws /\ no_drops es /\ no_timeouts es /\ one_notifier 1 es /\ In (EUb 1) es) /\
  (exists es ws, wqrun debug es ws /\ no_drops es /\ one_notifier 1 es /\ In (ETimeout 0) es /\ In (EUb 1) es) /\
  (exists es ws, wqrun debug es ws /\ q_quiet (wq_sys ws) /\ no_ub es /\ one_notifier 2 es /\ In (ERetNotify 2 true) es /\
     In (EFreed 0) es /\ waiting es = [1] /\ stored es = false) /\
  (exists es ws, krun true code_cell_orders es ws /\ quiet (wc_sys ws) /\ parked 0 es <> None /\ parked 1 es <> None /\
     (forall k, ~ In (Woke k 7) es) /\ w_waiter (ws_cell (wc_sys ws)) = None).
Proof.
  intros debug. split; [|split; [|split]].
  - destruct (C28_refuted debug) as (s & es & Hr & H). destruct (C65_queue _ _ _ Hr) as (ws & Hw & _). exists es, ws. exact (conj Hw H).
  - destruct (C29_refuted debug) as (s & es & Hr & H). destruct (C65_queue _ _ _ Hr) as (ws & Hw & _). exists es, ws. exact (conj Hw H).
  - destruct (C25_refuted debug) as (s & es & Hr & H). destruct (C65_queue _ _ _ Hr) as (ws & Hw & <-). exists es, ws. tauto.
  - destruct C44_refuted as (s & es & Hr & H). destruct (C65_cell _ code_cell_orders _ _ Hr) as (ws & Hw & <-). exists es, ws. tauto.
Qed.
Print Assumptions C65_findings_remain.

(** The hypotheses of C65_ring are met by the execution used for C01. *)
Example C65_case : wf 64 2 /\ sound_orders code_orders /\ ring_history 64 2 demo_policy demo_events /\ few_pushes 64 2 demo_events.
Proof. split; [exact demo_wf|]. split; [exact code_orders_sound|]. split; [exact demo_history|]. vm_compute. reflexivity. Qed.
