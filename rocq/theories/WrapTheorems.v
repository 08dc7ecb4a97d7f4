(** Why the theorems about the ring have the premise [calm]: without it C01, C02 and C04 are false.  A call that is
    stopped for long enough sees the same word again when the generation counter has gone once around (ABA). *)
From Coq Require Import List Bool Arith NArith Lia.
From Verif Require Import Word QueueSpec CoreModel CoreArith RingSpec RingFacts Demo RingWrap History.
Import ListNotations.

(** On every machine: a push (by 1) that is stopped between loading the slot's state and its compare_exchange while
    [span W cap] pushes of another thread go through, is granted a place in a queue that is full. *)
Theorem C02_wrap_refuted : forall T W cap (pol : policy T) (v : T), wf W cap ->
  exists es, ring_history W cap pol es /\ count is_reserve es = count is_take es + cap + 1 /\
    (N.of_nat (count is_reserve es) = span W cap + 1)%N.
Proof.
  intros T W cap pol v Hwf. destruct (wrap_capacity W cap pol Hwf v) as (es & s & Hr & H1 & H2 & _).
  exists es. split; [exists s; exact Hr|auto].
Qed.
Print Assumptions C02_wrap_refuted.

(** On a 4-bit machine with capacity 2 the words repeat after 4 pushes.  The pop of 1 is stopped before its
    compare_exchange; meanwhile 10, 20, 30 and 40 are sent and received; then it receives 30 again. *)
Definition wrap_pop : list (@action nat) :=
  demo_push 2 10 ++ [AInvoke 1 OpPop] ++ steps 1 2 ++
  demo_pop 3 ++ [ADrop 3] ++ demo_push 2 20 ++ demo_pop 3 ++ [ADrop 3] ++
  demo_push 2 30 ++ demo_pop 3 ++ [ADrop 3] ++ demo_push 2 40 ++ demo_pop 3 ++ [ADrop 3] ++ steps 1 1.
Theorem C01_wrap_refuted : wf 4 2 /\ exists es, ring_history 4 2 demo_policy es /\
  taken_values es = [10; 20; 30; 40; 30] /\ map (committed es) (seq 0 5) = [Some 10; Some 20; Some 30; Some 40; None].
Proof.
  split; [split; [lia|reflexivity]|].
  assert (H : exists es, exec_events 4 2 demo_policy wrap_pop = Some es /\
    taken_values es = [10; 20; 30; 40; 30] /\ map (committed es) (seq 0 5) = [Some 10; Some 20; Some 30; Some 40; None]).
  { vm_compute. eexists. repeat split. }
  destruct H as (es & H & H'). exists es. split; [exact (exec_history _ _ _ _ _ H)|exact H'].
Qed.
Print Assumptions C01_wrap_refuted.

(** The push of 1 is stopped; 10 and 20 are sent and received, 30 and 40 sent; 3 receives 30 and keeps the handle; then 1
    is handed the same element. *)
Definition wrap_push : list (@action nat) :=
  [AInvoke 1 OpPush] ++ steps 1 2 ++ demo_push 2 10 ++ demo_pop 3 ++ [ADrop 3] ++ demo_push 2 20 ++ demo_pop 3 ++ [ADrop 3] ++
  demo_push 2 30 ++ demo_push 2 40 ++ demo_pop 3 ++ steps 1 2.
Theorem C04_wrap_refuted : let P := core_new 4 2 in exists es s, run P demo_policy es s /\
  accesses P (st_agents s 1) = Some 0%N /\ accesses P (st_agents s 3) = Some 0%N /\ In (Overwrite 1 30 0) es.
Proof.
  intros P.
  assert (H : exists s es, exec P demo_policy (init_state P) [] wrap_push = Some (s, es) /\
    accesses P (st_agents s 1) = Some 0%N /\ accesses P (st_agents s 3) = Some 0%N /\ In (Overwrite 1 30 0) es).
  { vm_compute. eexists _, _. split; [reflexivity|]. auto. }
  destruct H as (s & es & H & H'). exists es, s. split; [exact (exec_run _ _ _ _ _ _ _ (run_init _ _) H)|exact H'].
Qed.
Print Assumptions C04_wrap_refuted.
