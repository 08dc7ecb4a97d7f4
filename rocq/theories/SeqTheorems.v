(** Theorems about single calls and single-threaded use: C07, C11-C16.
    [wf W cap]: 0 < cap and 4 * cap < 2^W, where W is the width of usize. *)
From Coq Require Import List Bool Arith NArith Lia.
From Verif Require Import Word QueueSpec History CoreModel CoreArith CoreStep RingSpec RingFacts RingTheorems
  SeqModel SeqSpec SoloSpec SoloFacts SeqFacts Teardown TeardownFacts Constructors Demo.
Import ListNotations.

(** C07 is false for the static constructors: on every word width and for every
    element type, one push on a StaticThingBuf or StaticChannel of capacity 0
    indexes outside the empty slot array with an unchecked access. *)
Theorem C07_refuted : forall T W (pol : policy T), exists P s0 es s,
  static_new (T := T) W 0 = Some (P, s0) /\ s0 = init_state P /\ run P pol es s /\ es = [UB 0; Invoke 0 OpPush].
Proof.
  intros T W pol. exists (core_new W 0), (init_state (core_new W 0)).
  assert (H : exec (core_new W 0) pol (init_state (core_new W 0)) [] [AInvoke 0 OpPush; AStep 0 false; AStep 0 false]
     = Some (mkS (core_init 0) (upd (upd (upd (fun _ => Idle) 0 PStart) 0 (PState 0)) 0 Crashed), [UB 0; Invoke 0 OpPush]))
    by reflexivity.
  eexists _, _. repeat split. exact (exec_run _ _ _ _ _ _ _ (run_init _ _) H).
Qed.
Print Assumptions C07_refuted.

(** The other constructors reject capacity 0, and what they do construct never
    reaches undefined behaviour. *)
Theorem C07_checked_constructors : forall T W cap (pol : policy T) P s0,
  checked_new (T := T) W (N.of_nat cap) = Some (P, s0) -> (4 * N.of_nat cap < 2 ^ W)%N ->
  s0 = init_state P /\ forall es s i, run P pol es s -> calm (slack W cap) es -> ~ In (UB i) es.
Proof.
  intros T W cap pol P s0 H1 H2. unfold checked_new in H1. destruct (N.ltb_spec 0 (N.of_nat cap)); [|discriminate].
  injection H1 as <- <-. split; auto. intros es s i Hr HC.
  assert (Hwf : wf W cap) by (split; lia).
  exact (no_ub W cap pol Hwf es i (ex_intro _ s Hr) HC).
Qed.
Print Assumptions C07_checked_constructors.

Example C07_case : checked_new (T := nat) 64 0 = None /\
  checked_new (T := nat) 64 2 = Some (core_new 64 2, init_state (core_new 64 2)) /\ (4 * 2 < 2 ^ 64)%N /\
  (exists s, run (core_new 64 2) demo_policy demo_events s) /\ calm (slack 64 2) demo_events.
Proof. split; [reflexivity|]. split; [reflexivity|]. split; [reflexivity|]. split; [exact demo_history|exact demo_calm]. Qed.

(** C11.  Any sequence of operations by one thread, of any length, gives exactly
    the results of the sequential specification: each call returns, and the
    element seen by every push_ref / pop_ref / pop is the specified one. *)
Theorem C11_sequential : forall T W cap (pol : policy T) fuel ops,
  wf W cap -> 12 <= fuel ->
  exists x, tb_run (core_new W (N.of_nat cap)) pol fuel (tb_init (core_new W (N.of_nat cap))) ops
            = Some (x, snd (sq_run cap (fresh_at W cap) pol sq_empty ops)).
Proof.
  intros T W cap pol fuel ops Hwf Hf.
  destruct (run_seq W cap pol Hwf fuel ops Hf _ _ (Seq_init W cap pol)) as (x & H & _). eauto.
Qed.
Print Assumptions C11_sequential.

(** For the by-value operations this is a bounded FIFO: nothing depends on the
    word width, the generation counters or the recycling policy. *)
Theorem C11_bounded_fifo : forall T W cap (pol : policy T) fuel ops,
  wf W cap -> 12 <= fuel -> forallb by_value ops = true ->
  exists x rs, tb_run (core_new W (N.of_nat cap)) pol fuel (tb_init (core_new W (N.of_nat cap))) ops = Some (x, rs) /\
    map (fun p => visible (fst p) (snd p)) (combine ops rs) = snd (fifo_run cap [] ops).
Proof.
  intros T W cap pol fuel ops Hwf Hf Hb.
  destruct (run_seq W cap pol Hwf fuel ops Hf _ _ (Seq_init W cap pol)) as (x & H & _).
  eexists _, _. split; [exact H|].
  change (@nil T) with (sq_items (@sq_empty T)). now rewrite (fifo_refine cap pol (fresh_at W cap) ops Hb sq_empty).
Qed.
Print Assumptions C11_bounded_fifo.

(** A 3-bit machine wraps after two pushes: seven pushes and pops on capacity 1. *)
Definition wrap_ops : list (@top nat) :=
  [TPush 1; TPush 2; TPop; TPop; TPush 3; TLen; TPop; TPush 4; TPopWith (fun v => v); TPush 5; TRemaining; TPop; TIsEmpty].
Example C11_case : wf 3 1 /\ forallb by_value wrap_ops = true /\ span 3 1 = 2%N /\
  fresh_at 3 1 1 = false /\ fresh_at 3 1 2 = true /\
  snd (fifo_run 1 [] wrap_ops) =
    [None; Some (RFull (Some 2)); Some (ROk 1); Some RNone; None; Some (RLength 1); Some (ROk 3); None;
     Some (ROk 4); None; Some (RLength 0); Some (ROk 5); Some (RBool true)].
Proof. split; [split; [lia|reflexivity]|]. repeat split. Qed.

(** C12.  A push that fails returns exactly the value it was given and leaves
    the shared state untouched. *)
Theorem C12_failed_push : forall T W cap (pol : policy T) fuel x v x' b,
  tb_op (core_new W (N.of_nat cap)) pol fuel x (TPush v) = Some (x', RFull b) ->
  b = Some v /\ st_core (fst x') = st_core (fst x).
Proof.
  intros T W cap pol fuel x v x' b H.
  destruct (failed_op W cap pol fuel x (TPush v) x' _ H I) as [H1 H2]. auto.
Qed.
Print Assumptions C12_failed_push.

(** Under concurrency: a call that returns Full, Empty or Closed has done
    nothing else since it was invoked, and steps that do not report a change
    leave the shared state untouched. *)
Theorem C12_failed_call_no_effect : forall T W cap (pol : policy T) es2 e i es1,
  wf W cap -> ring_history W cap pol (es2 ++ e :: es1) -> calm (slack W cap) (es2 ++ e :: es1) ->
  e = RetFull i \/ e = RetPushClosed i \/ e = RetEmpty i \/ e = RetPopClosed i ->
  exists o, find (fun x => Nat.eqb i (agent_of x)) es1 = Some (Invoke i o).
Proof. intros T W cap pol es2 e i es1 Hwf [s Hr]. exact (failed_pending W cap pol Hwf es2 e i es1 s Hr). Qed.
Print Assumptions C12_failed_call_no_effect.

Theorem C12_quiet_steps : forall T W cap (pol : policy T) s a s' oe,
  step (core_new W (N.of_nat cap)) pol s a = Some (s', oe) ->
  (forall e, oe = Some e -> mutates e = false) -> st_core s' = st_core s.
Proof. intros T W cap pol. exact (silent_core W cap pol). Qed.
Print Assumptions C12_quiet_steps.

Example C12_case :
  (exists x1 r1 x2, tb_op (core_new 64 1) demo_policy 12 (tb_init (core_new 64 1)) (TPush 5) = Some (x1, r1) /\
     tb_op (core_new 64 1) demo_policy 12 x1 (TPush 6) = Some (x2, RFull (Some 6))) /\
  demo_events = demo_after 22 ++ RetFull 1 :: demo_before 22.
Proof.
  split; [|reflexivity].
  destruct (C11_sequential nat 64 1 demo_policy 12 [TPush 5; TPush 6]) as [x Hx]; [split; [lia|reflexivity]|lia|].
  cbn [tb_run] in Hx. change (N.of_nat 1) with 1%N in Hx.
  destruct (tb_op (core_new 64 1) demo_policy 12 (tb_init (core_new 64 1)) (TPush 5)) as [[x1 r1]|]; [|discriminate].
  destruct (tb_op (core_new 64 1) demo_policy 12 x1 (TPush 6)) as [[x2 r2]|] eqn:E2; [|discriminate].
  exists x1, r1, x2. split; auto. rewrite E2. injection Hx as _ _ ->. reflexivity.
Qed.

(** C13.  In every reachable state, whatever other calls are in progress, a push
    that runs without interference returns within 6 of its own steps, provided
    nobody else is initialising or holding the slot at the tail. *)
Theorem C13_push_returns : forall T W cap (pol : policy T) es s i,
  let P := core_new W (N.of_nat cap) in
  wf W cap -> run P pol es s -> calm (slack W cap) es -> in_push (st_agents s i) = true ->
  (forall j, j <> i -> occupies P (st_agents s j) <> Some (tail_index P (st_core s))) ->
  exists s' es', call P pol 6 s es i = Some (s', es') /\
    (st_agents s' i = Idle \/ exists r, st_agents s' i = PHold r).
Proof. intros T W cap pol es s i P Hwf. exact (ret_push W cap pol Hwf s es i). Qed.
Print Assumptions C13_push_returns.

(** A pop returns within 14 steps unless the slot at the head is held by an
    earlier pop. *)
Theorem C13_pop_returns : forall T W cap (pol : policy T) es s i,
  let P := core_new W (N.of_nat cap) in
  wf W cap -> run P pol es s -> calm (slack W cap) es -> in_pop (st_agents s i) = true ->
  (forall j, pop_handle (st_agents s j) <> Some (head_index P (st_core s))) ->
  exists s' es', call P pol 14 s es i = Some (s', es') /\
    (st_agents s' i = Idle \/ exists r, st_agents s' i = QHold r).
Proof. intros T W cap pol es s i P Hwf. exact (ret_pop W cap pol Hwf s es i). Qed.
Print Assumptions C13_pop_returns.

Theorem C13_len_returns : forall T W cap (pol : policy T) es s i,
  let P := core_new W (N.of_nat cap) in
  in_len (st_agents s i) = true ->
  exists s' es', call P pol 5 s es i = Some (s', es') /\ st_agents s' i = Idle.
Proof. intros T W cap pol es s i P. exact (ret_len W cap pol s es i). Qed.
Print Assumptions C13_len_returns.

(** The conditions are exact: if the tail slot is occupied (by a handle, or by a
    push that is initialising it or died there) and the queue is open, a push
    spins for ever while the occupant does nothing; it neither succeeds nor
    reports Full. *)
Theorem C13_push_spins : forall T W cap (pol : policy T) es s i j,
  let P := core_new W (N.of_nat cap) in
  wf W cap -> run P pol es s -> calm (slack W cap) es -> st_agents s i = PStart ->
  N.land (c_tail (st_core s)) (p_closed P) = 0%N ->
  occupies P (st_agents s j) = Some (tail_index P (st_core s)) ->
  forall fuel, call P pol fuel s es i = None.
Proof. intros T W cap pol es s i j P Hwf. exact (push_spins W cap pol Hwf s es i j). Qed.
Print Assumptions C13_push_spins.

Theorem C13_pop_spins : forall T W cap (pol : policy T) es s i j,
  let P := core_new W (N.of_nat cap) in
  wf W cap -> run P pol es s -> calm (slack W cap) es -> st_agents s i = QStart ->
  pop_handle (st_agents s j) = Some (head_index P (st_core s)) ->
  forall fuel, call P pol fuel s es i = None.
Proof. intros T W cap pol es s i j P Hwf. exact (pop_spins W cap pol Hwf s es i j). Qed.
Print Assumptions C13_pop_spins.

(** Hence C13 as documented is false: here a queue of capacity 2 holds no
    element at all, one handle obtained by pop_ref is kept, and a second pop
    (or a push) never returns. *)
Definition held_schedule : list (@action nat) :=
  demo_push 1 10 ++ demo_pop 2 (* keeps its Ref *) ++ demo_push 1 20 ++ demo_pop 3 ++ [ADrop 3].
Definition held_state : option (@state nat * list (event nat)) :=
  exec (core_new 64 2) demo_policy (init_state (core_new 64 2)) [] held_schedule.

Lemma held_facts : forall o, exists es s,
  run (core_new 64 2) demo_policy (Invoke 4 o :: es) s /\ calm (slack 64 2) (Invoke 4 o :: es) /\ occupancy es = 0 /\
  st_agents s 4 = entry_pc o /\ st_agents s 2 = QHold (mkRef 0 8) /\
  (forall j, j <> 2 -> j <> 4 -> st_agents s j = Idle) /\
  tail_index (core_new 64 2) (st_core s) = 0%N /\ head_index (core_new 64 2) (st_core s) = 0%N /\
  N.land (c_tail (st_core s)) (p_closed (core_new 64 2)) = 0%N.
Proof.
  intros o.
  assert (H : exists s, exec (core_new 64 2) demo_policy (init_state (core_new 64 2)) [] (held_schedule ++ [AInvoke 4 o])
     = Some (s, Invoke 4 o :: match held_state with Some (_, es) => es | None => [] end) /\
     (forall j, j <> 2 -> j <> 4 -> st_agents s j = Idle) /\
     st_agents s 4 = entry_pc o /\ st_agents s 2 = QHold (mkRef 0 8) /\
     tail_index (core_new 64 2) (st_core s) = 0%N /\ head_index (core_new 64 2) (st_core s) = 0%N /\
     N.land (c_tail (st_core s)) (p_closed (core_new 64 2)) = 0%N).
  { eexists. split; [vm_compute; reflexivity|]. split; [|repeat split; destruct o; reflexivity].
    intros j H2 H4. do 5 (destruct j as [|j]; [vm_compute; congruence|]). reflexivity. }
  destruct H as (s & He & Hid & H4 & H2 & Ht & Hh & Hc).
  exists (match held_state with Some (_, es) => es | None => [] end), s.
  assert (Hr := exec_run _ _ _ _ _ _ _ (run_init _ _) He).
  split; [exact Hr|]. split.
  - apply (calm_of_few 64 2 demo_policy demo_wf _ (ex_intro _ s Hr)). vm_compute. reflexivity.
  - split; [vm_compute; reflexivity|]. auto 10.
Qed.

Theorem C13_refuted : exists W cap (pol : policy nat) es s,
  wf W cap /\ run (core_new W (N.of_nat cap)) pol (Invoke 4 OpPop :: es) s /\ occupancy es = 0 /\
  (forall j, j <> 2 -> j <> 4 -> st_agents s j = Idle) /\
  st_agents s 4 = QStart /\ (exists r, st_agents s 2 = QHold r) /\
  forall fuel, call (core_new W (N.of_nat cap)) pol fuel s (Invoke 4 OpPop :: es) 4 = None.
Proof.
  destruct (held_facts OpPop) as (es & s & Hr & HC & Ho & H4 & H2 & Hid & Ht & Hh & Hc).
  exists 64%N, 2, demo_policy, es, s. split; [exact demo_wf|]. split; [exact Hr|]. split; [exact Ho|]. split; [exact Hid|]. split; [exact H4|]. split; [eauto|].
  apply (pop_spins 64 2 demo_policy demo_wf s _ 4 2 Hr HC); auto.
  change (N.of_nat 2) with 2%N. now rewrite H2, Hh.
Qed.
Print Assumptions C13_refuted.

Theorem C13_refuted_push : exists W cap (pol : policy nat) es s,
  wf W cap /\ run (core_new W (N.of_nat cap)) pol (Invoke 4 OpPush :: es) s /\ occupancy es = 0 /\
  (forall j, j <> 2 -> j <> 4 -> st_agents s j = Idle) /\
  st_agents s 4 = PStart /\ (exists r, st_agents s 2 = QHold r) /\
  forall fuel, call (core_new W (N.of_nat cap)) pol fuel s (Invoke 4 OpPush :: es) 4 = None.
Proof.
  destruct (held_facts OpPush) as (es & s & Hr & HC & Ho & H4 & H2 & Hid & Ht & Hh & Hc).
  exists 64%N, 2, demo_policy, es, s. split; [exact demo_wf|]. split; [exact Hr|]. split; [exact Ho|]. split; [exact Hid|]. split; [exact H4|]. split; [eauto|].
  apply (push_spins 64 2 demo_policy demo_wf s _ 4 2 Hr HC); auto.
  change (N.of_nat 2) with 2%N. now rewrite H2, Ht.
Qed.
Print Assumptions C13_refuted_push.

(** The hypotheses of the positive theorems are met with calls half way through
    and handles outstanding elsewhere: a push holds slot 0, others are mid-call. *)
Definition busy_schedule : list (@action nat) :=
  [AInvoke 1 OpPush] ++ steps 1 4 ++ [AInvoke 2 OpPush] ++ steps 2 2 ++ [AInvoke 3 OpPop; AStep 3 false; AInvoke 4 OpLen].
Example C13_case : exists es s, wf 64 2 /\ run (core_new 64 2) demo_policy es s /\ calm (slack 64 2) es /\
  in_push (st_agents s 2) = true /\ in_pop (st_agents s 3) = true /\ in_len (st_agents s 4) = true /\
  (exists r, st_agents s 1 = PHold r) /\
  (forall j, j <> 2 -> occupies (core_new 64 2) (st_agents s j) <> Some (tail_index (core_new 64 2) (st_core s))) /\
  (forall j, pop_handle (st_agents s j) <> Some (head_index (core_new 64 2) (st_core s))).
Proof.
  assert (H : exists s es, exec (core_new 64 2) demo_policy (init_state (core_new 64 2)) [] busy_schedule = Some (s, es) /\
     count is_reserve es = 1 /\ in_push (st_agents s 2) = true /\ in_pop (st_agents s 3) = true /\ in_len (st_agents s 4) = true /\
     (exists r, st_agents s 1 = PHold r) /\
     (forall j, j <> 2 -> occupies (core_new 64 2) (st_agents s j) <> Some (tail_index (core_new 64 2) (st_core s))) /\
     (forall j, pop_handle (st_agents s j) <> Some (head_index (core_new 64 2) (st_core s)))).
  { eexists _, _. split; [vm_compute; reflexivity|]. do 4 (split; [vm_compute; reflexivity|]).
    split; [eexists; vm_compute; reflexivity|]. split.
    - intros j _. do 5 (destruct j as [|j]; [vm_compute; discriminate|]). vm_compute. discriminate.
    - intros j. do 5 (destruct j as [|j]; [vm_compute; discriminate|]). vm_compute. discriminate. }
  destruct H as (s & es & He & Hc & H). exists es, s.
  assert (Hr := exec_run _ _ _ _ _ _ _ (run_init _ _) He).
  split; [exact demo_wf|]. split; [exact Hr|]. split; [|exact H].
  apply (calm_of_few 64 2 demo_policy demo_wf _ (ex_intro _ s Hr)). rewrite Hc. reflexivity.
Qed.

(** C14.  When the queue is dropped (nobody is in the middle of constructing an
    element, fewer than [span] pushes were made), the slots whose destructor
    runs are exactly the initialised ones; each is visited once. *)
Theorem C14_drops_exactly_initialised : forall T W cap (pol : policy T) es s,
  let P := core_new W (N.of_nat cap) in
  wf W cap -> run P pol es s -> calm (slack W cap) es ->
  (forall j, constructing (st_agents s j) = false) ->
  (N.of_nat (count is_reserve es) < span W cap)%N ->
  (forall k, k < cap -> s_value (c_slots (st_core s) (N.of_nat k)) <> None <-> (N.of_nat k < num_initialized P (st_core s))%N) /\
  length (drop_slots P (st_core s)) = Nat.min cap (count is_reserve es).
Proof.
  intros T W cap pol es s P Hwf Hr HC Hn Hs. split.
  - exact (drop_exact W cap pol Hwf es s Hr HC Hn Hs).
  - exact (drop_count W cap pol Hwf es s Hr HC Hs).
Qed.
Print Assumptions C14_drops_exactly_initialised.

(** In terms of the history: when no call is in progress and no handle is
    outstanding, the elements dropped are, for each slot, the last one sent
    through it, or what the receiver left there. *)
Theorem C14_drops_contents : forall T W cap (pol : policy T) es s,
  let P := core_new W (N.of_nat cap) in
  wf W cap -> run P pol es s -> calm (slack W cap) es -> (forall j, st_agents s j = Idle) ->
  (N.of_nat (count is_reserve es) < span W cap)%N ->
  forall p, p < count is_reserve es -> count is_reserve es <= p + cap ->
    exists v, nth_error (drop_slots P (st_core s)) (p mod cap) = Some (Some v) /\
      (if p <? count is_take es then released es p else committed es p) = Some v.
Proof. intros T W cap pol es s P Hwf. exact (drop_contents W cap pol Hwf es s). Qed.
Print Assumptions C14_drops_contents.

Theorem C14_drops_once : forall T P (c : core T),
  let '(flag, dropped) := teardown P false c in dropped = drop_slots P c /\ teardown P flag c = (true, []).
Proof. intros T P c. split; reflexivity. Qed.
Print Assumptions C14_drops_once.

Example C14_case : exists s, run (core_new 64 2) demo_policy demo_events s /\
  (forall j, st_agents s j = Idle) /\ (N.of_nat (count is_reserve demo_events) < span 64 2)%N /\
  count is_reserve demo_events = 3 /\ drop_slots (core_new 64 2) (st_core s) = [Some 30; Some 10].
Proof.
  assert (H : exists s, exec (core_new 64 2) demo_policy (init_state (core_new 64 2)) [] demo_schedule = Some (s, demo_events) /\
     (forall j, st_agents s j = Idle) /\ drop_slots (core_new 64 2) (st_core s) = [Some 30; Some 10]).
  { eexists. split; [vm_compute; reflexivity|]. split; [|vm_compute; reflexivity].
    intros j. do 6 (destruct j as [|j]; [vm_compute; reflexivity|]). vm_compute. reflexivity. }
  destruct H as (s & He & Hid & Hd). exists s.
  split; [exact (exec_run _ _ _ _ _ _ _ (run_init _ _) He)|]. split; [exact Hid|].
  split; [reflexivity|]. split; [reflexivity|exact Hd].
Qed.

(** C15 is false: if the element constructor panics, dropping the queue runs a
    destructor on uninitialised memory. *)
Theorem C15_refuted : exists W cap (pol : policy nat) es s,
  wf W cap /\ run (core_new W (N.of_nat cap)) pol es s /\ In (Poison 1) es /\
  (forall j, j <> 1 -> st_agents s j = Idle) /\
  In None (snd (teardown (core_new W (N.of_nat cap)) false (st_core s))).
Proof.
  assert (H : exists s es, exec (core_new 64 2) demo_policy (init_state (core_new 64 2)) []
      ([AInvoke 1 OpPush] ++ steps 1 3 ++ [APanic 1]) = Some (s, es) /\ In (Poison 1) es /\
      (forall j, j <> 1 -> st_agents s j = Idle) /\ In None (snd (teardown (core_new 64 2) false (st_core s)))).
  { eexists _, _. split; [vm_compute; reflexivity|]. split; [vm_compute; tauto|]. split; [|vm_compute; tauto].
    intros j Hj. do 2 (destruct j as [|j]; [try reflexivity; congruence|]). reflexivity. }
  destruct H as (s & es & He & H). exists 64%N, 2, demo_policy, es, s.
  split; [exact demo_wf|]. split; [exact (exec_run _ _ _ _ _ _ _ (run_init _ _) He)|exact H].
Qed.
Print Assumptions C15_refuted.

(** Moreover the queue is wedged: no element at or after the poisoned position
    is ever received, and at most [cap] further pushes succeed, for ever. *)
Theorem C15_wedged : forall T W cap (pol : policy T) es2 i es1 p,
  wf W cap -> ring_history W cap pol (es2 ++ Poison i :: es1) -> calm (slack W cap) (es2 ++ Poison i :: es1) ->
  last_is i (reservers es1) p = true ->
  count is_take (es2 ++ Poison i :: es1) <= p /\ count is_reserve (es2 ++ Poison i :: es1) <= p + cap.
Proof. intros T W cap pol es2 i es1 p Hwf. exact (poison_wedges W cap pol Hwf es2 i es1 p). Qed.
Print Assumptions C15_wedged.

(** What does hold (C14 above covers the other direction): if no constructor
    panicked, no uninitialised slot is dropped. *)
Theorem C15_sound_without_panics : forall T W cap (pol : policy T) es s,
  let P := core_new W (N.of_nat cap) in
  wf W cap -> run P pol es s -> calm (slack W cap) es ->
  (forall j, constructing (st_agents s j) = false) ->
  (N.of_nat (count is_reserve es) < span W cap)%N ->
  ~ In None (snd (teardown P false (st_core s))).
Proof.
  intros T W cap pol es s P Hwf Hr HC Hn Hs Hin. cbn [teardown snd] in Hin. unfold drop_slots in Hin.
  apply in_map_iff in Hin as (k & Hk & Hin). apply in_seq in Hin.
  destruct (Nat.lt_ge_cases k cap) as [Hlt|Hge].
  - apply (proj2 (drop_exact W cap pol Hwf es s Hr HC Hn Hs k Hlt)); auto. fold P. lia.
  - pose proof (drop_count W cap pol Hwf es s Hr HC Hs) as Hl. unfold drop_slots in Hl.
    rewrite map_length, seq_length in Hl. fold P in Hl. lia.
Qed.
Print Assumptions C15_sound_without_panics.

Example C15_case : exists es1 es2, ring_history 64 2 demo_policy (es2 ++ Poison 1 :: es1) /\
  calm (slack 64 2) (es2 ++ Poison 1 :: es1) /\ last_is 1 (reservers es1) 1 = true /\
  count is_take (es2 ++ Poison 1 :: es1) = 1 /\ count is_reserve (es2 ++ Poison 1 :: es1) = 3.
Proof.
  pose (sch := demo_push 2 5 ++ [AInvoke 1 OpPush] ++ steps 1 3 ++ [APanic 1] ++ demo_pop 3 ++ [ADrop 3] ++ demo_push 2 6).
  assert (H : exists s, exec (core_new 64 2) demo_policy (init_state (core_new 64 2)) [] sch =
    Some (s, [Commit 2 6; Wrote 2 6; HandOut 2 1005; Reserve 2; Invoke 2 OpPush; Release 3 5; Take 3 5; Invoke 3 OpPop] ++
             Poison 1 :: [Reserve 1; Invoke 1 OpPush; Commit 2 5; Wrote 2 5; HandOut 2 0; Reserve 2; Invoke 2 OpPush])).
  { eexists. vm_compute. reflexivity. }
  destruct H as [s H]. eexists _, _.
  assert (Hh : ring_history 64 2 demo_policy ([Commit 2 6; Wrote 2 6; HandOut 2 1005; Reserve 2; Invoke 2 OpPush; Release 3 5; Take 3 5; Invoke 3 OpPop] ++
             Poison 1 :: [Reserve 1; Invoke 1 OpPush; Commit 2 5; Wrote 2 5; HandOut 2 0; Reserve 2; Invoke 2 OpPush]))
    by (exists s; exact (exec_run _ _ _ _ _ _ _ (run_init _ _) H)).
  split; [exact Hh|]. split; [|repeat split].
  apply (calm_of_few 64 2 demo_policy demo_wf _ Hh). vm_compute. reflexivity.
Qed.

(** C16 is false on every machine: a single thread pushing and popping
    [span W cap] times makes the generation wrap to zero, and the next push
    overwrites an initialised element without running its destructor.  Before
    that number of pushes it never happens (C05_no_overwrite). *)
Theorem C16_refuted : forall T W cap (pol : policy T) (v : T),
  wf W cap ->
  exists ops x rs old, tb_run (core_new W (N.of_nat cap)) pol 12 (tb_init (core_new W (N.of_nat cap))) ops = Some (x, rs) /\
    In (Overwrite 0 old (new_element pol)) (snd x).
Proof. intros T W cap pol v Hwf. exact (wrap_overwrites W cap pol Hwf v). Qed.
Print Assumptions C16_refuted.

(** ... and dropping the queue exactly at the wrap drops none of its elements. *)
Theorem C16_refuted_teardown : exists W cap (pol : policy nat) x rs,
  wf W cap /\
  tb_run (core_new W (N.of_nat cap)) pol 12 (tb_init (core_new W (N.of_nat cap))) [TPush 1; TPop; TPush 2] = Some (x, rs) /\
  rs = [ROk 0; ROk 1; ROk 1000] /\ s_value (c_slots (st_core (fst x)) 0) = Some 2 /\
  snd (teardown (core_new W (N.of_nat cap)) false (st_core (fst x))) = [].
Proof.
  exists 3%N, 1, demo_policy. eexists _, _. split; [split; [lia|reflexivity]|].
  split; [vm_compute; reflexivity|]. repeat split.
Qed.
Print Assumptions C16_refuted_teardown.

(** On a 32-bit machine this takes about 10^9 pushes. *)
Example C16_case : wf 32 128 /\ span 32 128 = 1073741824%N.
Proof. split; [split; [lia|reflexivity]|reflexivity]. Qed.
