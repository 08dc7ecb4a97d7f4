(** Theorems about dropping the container types: C45. *)
From Coq Require Import List Bool Arith NArith Lia.
From Verif Require Import Word QueueSpec CoreModel CoreArith RingSpec TeardownFacts Teardown SeqModel SeqTheorems Containers Demo History.
Import ListNotations.

(** C45 is false for StaticChannel: after any execution, dropping one fails the debug assertion of Drop for
    Core; in particular after none at all. *)
Theorem C45_static_channel_refuted : exists k, forall T W cap (pol : policy T) es s,
  run (core_new W cap) pol es s -> drop_container true (core_new W cap) k (st_core s) = None.
Proof. exists CStaticChannel. reflexivity. Qed.
Print Assumptions C45_static_channel_refuted.

(** In release builds it drops none of its elements. *)
Theorem C45_static_channel_leaks : exists es s,
  wf 64 2 /\ run (core_new 64 2) demo_policy es s /\ (forall j, st_agents s j = Idle) /\
  s_value (c_slots (st_core s) 0) = Some 30 /\ drop_container false (core_new 64 2) CStaticChannel (st_core s) = Some [].
Proof.
  destruct C14_case as (s & Hr & Hid & _ & _ & Hd). exists demo_events, s. split; [exact demo_wf|]. split; [exact Hr|].
  split; [exact Hid|]. split; [|reflexivity].
  assert (Hc : s_value (c_slots (st_core s) 0) = match drop_slots (core_new 64 2) (st_core s) with x :: _ => x | [] => None end).
  { unfold drop_slots. destruct (N.to_nat (num_initialized (core_new 64 2) (st_core s))) eqn:E; [|reflexivity].
    unfold drop_slots in Hd. rewrite E in Hd. discriminate. }
  rewrite Hc, Hd. reflexivity.
Qed.
Print Assumptions C45_static_channel_leaks.

(** Every other container: no assertion fails, and (no call in progress, fewer than [span] pushes) exactly the
    initialised elements are dropped, each once. *)
Theorem C45_others : forall T W cap (pol : policy T) es s k debug,
  let P := core_new W (N.of_nat cap) in
  wf W cap -> run P pol es s -> calm (slack W cap) es -> (forall j, st_agents s j = Idle) ->
  (N.of_nat (count is_reserve es) < span W cap)%N -> k <> CStaticChannel ->
  exists dropped, drop_container debug P k (st_core s) = Some dropped /\
    length dropped = Nat.min cap (count is_reserve es) /\
    forall p, p < count is_reserve es -> count is_reserve es <= p + cap ->
      exists v, nth_error dropped (p mod cap) = Some (Some v) /\
        (if p <? count is_take es then released es p else committed es p) = Some v.
Proof.
  intros T W cap pol es s k debug P Hwf Hr HC Hid Hs Hk. exists (drop_slots P (st_core s)). split.
  - unfold drop_container. destruct k; try easy; cbn; now rewrite andb_false_r.
  - split; [exact (drop_count W cap pol Hwf es s Hr HC Hs)|exact (drop_contents W cap pol Hwf es s Hr HC Hid Hs)].
Qed.
Print Assumptions C45_others.

Example C45_case : exists s, run (core_new 64 2) demo_policy demo_events s /\ (forall j, st_agents s j = Idle) /\
  drop_container true (core_new 64 2) CInner (st_core s) = Some [Some 30; Some 10].
Proof.
  destruct C14_case as (s & Hr & Hid & _ & _ & Hd). exists s. split; [exact Hr|]. split; [exact Hid|].
  unfold drop_container. cbn [drops_slots teardown]. cbn. f_equal. exact Hd.
Qed.
