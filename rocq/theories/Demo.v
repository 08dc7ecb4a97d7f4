(** A concrete interleaved schedule used to show that the hypotheses of the
    ring theorems are met by non-trivial histories. *)
From Coq Require Import List Bool Arith NArith Lia.
From Verif Require Import Word QueueSpec History CoreModel CoreArith CoreStep RingSpec RingFacts.
Import ListNotations.

(** new_element gives 0; recycling adds 1000, so that reuse is visible. *)
Definition demo_policy : policy nat := mkPolicy 0 (fun v => v + 1000).

Definition steps (i n : nat) : list (@action nat) := repeat (AStep i false) n.
Definition demo_push i v : list (@action nat) := [AInvoke i OpPush] ++ steps i 4 ++ [AWrite i v; ADrop i].
Definition demo_pop i : list (@action nat) := [AInvoke i OpPop] ++ steps i 3.

Definition demo_schedule : list (@action nat) :=
  (* two pushes interleaved: 1 loses the race for the first slot *)
  [AInvoke 1 OpPush; AInvoke 2 OpPush; AStep 1 false; AStep 2 false; AStep 1 false; AStep 2 false;
   AStep 2 false; AStep 1 false; AStep 1 false; AStep 1 false; AStep 1 false; AWrite 1 10; ADrop 1]
  (* the first slot is reserved but not published: a pop finds nothing *)
  ++ [AInvoke 3 OpPop] ++ repeat (AStep 3 false) 12
  ++ [AStep 2 false; AWrite 2 20; ADrop 2]
  ++ [AInvoke 1 OpPush] ++ steps 1 3 (* Full *)
  ++ [AInvoke 4 OpLen] ++ steps 4 3 (* 2 *)
  ++ demo_pop 3 ++ [AWrite 3 7; ADrop 3] ++ demo_pop 3 ++ [ADrop 3]
  ++ demo_push 1 30 ++ [AClose 5 false]
  ++ [AInvoke 2 OpPush; AStep 2 false] (* Closed *)
  ++ demo_pop 3 ++ [ADrop 3] ++ demo_pop 3.

Definition demo_events : list (event nat) :=
  [RetPopClosed 3; Invoke 3 OpPop; Release 3 30; Take 3 30; Invoke 3 OpPop; RetPushClosed 2;
   Invoke 2 OpPush; Closing 5 true; Commit 1 30; Wrote 1 30; HandOut 1 1007; Reserve 1; Invoke 1 OpPush;
   Release 3 10; Take 3 10; Invoke 3 OpPop; Release 3 7; Wrote 3 7; Take 3 20; Invoke 3 OpPop;
   RetLen 4 2%N; Invoke 4 OpLen; RetFull 1; Invoke 1 OpPush; Commit 2 20; Wrote 2 20; HandOut 2 0; RetEmpty 3;
   Invoke 3 OpPop; Commit 1 10; Wrote 1 10; HandOut 1 0; Reserve 1; Reserve 2; Invoke 2 OpPush; Invoke 1 OpPush].

Lemma demo_runs : exec_events 64 2 demo_policy demo_schedule = Some demo_events.
Proof. vm_compute. reflexivity. Qed.

Lemma demo_wf : wf 64 2.
Proof. split; [lia|]. vm_compute. reflexivity. Qed.

Lemma demo_history : ring_history 64 2 demo_policy demo_events.
Proof. exact (exec_history _ _ _ _ _ demo_runs). Qed.

Lemma demo_calm : calm (slack 64 2) demo_events.
Proof. apply (calm_of_few 64 2 demo_policy demo_wf _ demo_history). vm_compute. reflexivity. Qed.

(** [split_at k]: the demo history cut just before its [k]-th most recent event. *)
Definition demo_before k := skipn (S k) demo_events.
Definition demo_after k := firstn k demo_events.
