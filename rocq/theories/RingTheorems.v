(** Theorems about the ring: C01-C06, C08-C10, C39.

    Throughout: [W] is the machine word width, [cap] the capacity, [wf W cap]
    says 0 < cap and 4 * cap < 2^W; [es] is an arbitrary history (most recent
    event first) of arbitrarily many concurrent callers;
    [calm (slack W cap) es] says that no single call was overtaken by
    [slack W cap] = cap * (2^g - 1) or more operations while in progress, where
    [g] is the number of generation bits (the ABA window; about 2^62 for small
    queues on 64-bit machines).  Every history with fewer than [slack W cap]
    pushes in total is calm ([calm_when_few_pushes]). *)
From Coq Require Import List Bool Arith NArith.
From Verif Require Import Word QueueSpec History CoreModel CoreArith RingSpec RingFacts Demo.
Import ListNotations.

Theorem calm_when_few_pushes : forall T W cap (pol : policy T) es,
  wf W cap -> ring_history W cap pol es ->
  (N.of_nat (count is_reserve es) < slack W cap)%N -> calm (slack W cap) es.
Proof. intros T W cap pol es Hwf. exact (calm_of_few W cap pol Hwf es). Qed.
Print Assumptions calm_when_few_pushes.

(** C01.  The sequence of all values received is the sequence of values sent,
    in the order in which the pushes were granted their place: the [n]-th
    dequeue returns the value of the [n]-th reservation.  Nothing is lost,
    duplicated, invented or reordered. *)
Theorem C01_fifo : forall T W cap (pol : policy T) es,
  wf W cap -> ring_history W cap pol es -> calm (slack W cap) es ->
  map Some (taken_values es) = map (committed es) (seq 0 (length (taken_values es))).
Proof.
  intros T W cap pol es Hwf Hh HC. rewrite taken_length. exact (fifo_list W cap pol Hwf es Hh HC).
Qed.
Print Assumptions C01_fifo.

(** ... and the value was already completely sent when it was received. *)
Theorem C01_sent_before_received : forall T W cap (pol : policy T) es2 i v es1,
  wf W cap -> ring_history W cap pol (es2 ++ Take i v :: es1) -> calm (slack W cap) (es2 ++ Take i v :: es1) ->
  committed es1 (length (taken_values es1)) = Some v.
Proof.
  intros T W cap pol es2 i v es1 Hwf Hh HC. rewrite taken_length. exact (fifo_nth W cap pol Hwf es2 i v es1 Hh HC).
Qed.
Print Assumptions C01_sent_before_received.

Example C01_case : wf 64 2 /\ ring_history 64 2 demo_policy demo_events /\ calm (slack 64 2) demo_events /\
  taken_values demo_events = [20; 10; 30] /\
  demo_events = demo_after 14 ++ Take 3 10 :: demo_before 14.
Proof. exact (conj demo_wf (conj demo_history (conj demo_calm (conj eq_refl eq_refl)))). Qed.

(** C02.  Never more than [cap] elements in the queue ... *)
Theorem C02_capacity : forall T W cap (pol : policy T) es2 es1,
  wf W cap -> ring_history W cap pol (es2 ++ es1) -> calm (slack W cap) (es2 ++ es1) ->
  count is_take es1 <= count is_reserve es1 <= count is_take es1 + cap.
Proof. intros T W cap pol es2 es1 Hwf. exact (capacity_bound W cap pol Hwf es2 es1). Qed.
Print Assumptions C02_capacity.

(** ... and a push that reports Full was full, and open, at some moment of the call. *)
Theorem C02_full_truthful : forall T W cap (pol : policy T) es2 i es1,
  wf W cap -> ring_history W cap pol (es2 ++ RetFull i :: es1) -> calm (slack W cap) (es2 ++ RetFull i :: es1) ->
  exists es0, In es0 (moments i es1) /\ occupancy es0 = cap /\ closed_in es0 = false.
Proof. intros T W cap pol es2 i es1 Hwf. exact (full_true W cap pol Hwf es2 i es1). Qed.
Print Assumptions C02_full_truthful.

Example C02_case : wf 64 2 /\ ring_history 64 2 demo_policy demo_events /\ calm (slack 64 2) demo_events /\
  demo_events = demo_after 22 ++ RetFull 1 :: demo_before 22 /\ occupancy (demo_before 22) = 2.
Proof. exact (conj demo_wf (conj demo_history (conj demo_calm (conj eq_refl eq_refl)))). Qed.

(** C03.  A pop that reports Empty: at some moment of the call the oldest
    element not yet dequeued had not been completely sent (or did not exist). *)
Theorem C03_empty_truthful : forall T W cap (pol : policy T) es2 i es1,
  wf W cap -> ring_history W cap pol (es2 ++ RetEmpty i :: es1) -> calm (slack W cap) (es2 ++ RetEmpty i :: es1) ->
  exists es0, In es0 (moments i es1) /\ committed es0 (length (taken_values es0)) = None /\
    (closed_in es0 = false \/ 0 < occupancy es0).
Proof.
  intros T W cap pol es2 i es1 Hwf Hh HC.
  destruct (empty_open W cap pol Hwf es2 i es1 Hh HC) as (es0 & H1 & H2).
  exists es0. rewrite taken_length. exact (conj H1 H2).
Qed.
Print Assumptions C03_empty_truthful.

Example C03_case : wf 64 2 /\ ring_history 64 2 demo_policy demo_events /\ calm (slack 64 2) demo_events /\
  demo_events = demo_after 27 ++ RetEmpty 3 :: demo_before 27 /\ occupancy (demo_before 27) = 2.
Proof. exact (conj demo_wf (conj demo_history (conj demo_calm (conj eq_refl eq_refl)))). Qed.

(** C04.  At no time do two callers have access to the element of the same slot. *)
Theorem C04_exclusive : forall T W cap (pol : policy T) es s i j a b,
  let P := core_new W (N.of_nat cap) in
  wf W cap -> run P pol es s -> calm (slack W cap) es ->
  accesses P (st_agents s i) = Some a -> accesses P (st_agents s j) = Some b -> a = b -> i = j.
Proof.
  intros T W cap pol es s i j a b P Hwf Hr HC Ha Hb Hab.
  destruct (Nat.eq_dec i j) as [|Hij]; [assumption|].
  destruct (exclusive W cap pol Hwf s es i j a b Hr HC Hij Ha Hb Hab).
Qed.
Print Assumptions C04_exclusive.

(** In terms of the history: what a handle finally publishes or leaves behind is
    what it was handed or last wrote itself: nobody else writes the element
    while the handle is outstanding. *)
Theorem C04_no_interference : forall T W cap (pol : policy T) es2 e es1 i v,
  wf W cap -> ring_history W cap pol (es2 ++ e :: es1) -> calm (slack W cap) (es2 ++ e :: es1) ->
  e = Commit i v \/ e = Release i v -> content i es1 = Some v.
Proof.
  intros T W cap pol es2 e es1 i v Hwf Hh HC [-> | ->].
  - exact (commit_content W cap pol Hwf es2 i v es1 Hh HC).
  - exact (release_content W cap pol Hwf es2 i v es1 Hh HC).
Qed.
Print Assumptions C04_no_interference.

Example C04_case : exists s,
  run (core_new 64 2) demo_policy [Take 3 20; Invoke 3 OpPop; HandOut 1 0; Reserve 1; Invoke 1 OpPush; Commit 2 20; Wrote 2 20; HandOut 2 0; Reserve 2; Invoke 2 OpPush] s
  /\ accesses (core_new 64 2) (st_agents s 1) = Some 1%N /\ accesses (core_new 64 2) (st_agents s 3) = Some 0%N.
Proof.
  destruct (exec (core_new 64 2) demo_policy (init_state (core_new 64 2)) []
    (demo_push 2 20 ++ [AInvoke 1 OpPush] ++ steps 1 4 ++ demo_pop 3)) as [[s es]|] eqn:E; [|discriminate].
  exists s. pose proof (exec_run _ _ _ _ _ _ _ (run_init _ _) E) as Hr.
  vm_compute in E. injection E as <- <-. repeat split. exact Hr.
Qed.

(** C05.  The element exposed by a push handle is a fresh one for the first
    [cap] pushes and afterwards the recycled element left behind by the dequeue
    [cap] places earlier -- always initialised, never shared. *)
Theorem C05_element : forall T W cap (pol : policy T) es2 i v es1,
  wf W cap -> ring_history W cap pol (es2 ++ HandOut i v :: es1) -> calm (slack W cap) (es2 ++ HandOut i v :: es1) ->
  exists n, last_is i (reservers es1) n = true /\ committed es1 n = None /\
    ((n < cap /\ v = new_element pol) \/
     (cap <= n /\ exists old, released es1 (n - cap) = Some old /\ v = recycle pol old)).
Proof. intros T W cap pol es2 i v es1 Hwf. exact (handout_any W cap pol Hwf es2 i v es1). Qed.
Print Assumptions C05_element.

(** Until [cap * 2^g] pushes have been made no initialised element is
    overwritten without being dropped (see C16 for what happens afterwards). *)
Theorem C05_no_overwrite : forall T W cap (pol : policy T) es i l v,
  wf W cap -> ring_history W cap pol es -> calm (slack W cap) es ->
  (N.of_nat (count is_reserve es) <= span W cap)%N -> ~ In (Overwrite i l v) es.
Proof. intros T W cap pol es i l v Hwf. exact (no_overwrite W cap pol Hwf es i l v). Qed.
Print Assumptions C05_no_overwrite.

Example C05_case : wf 64 2 /\ ring_history 64 2 demo_policy demo_events /\ calm (slack 64 2) demo_events /\
  demo_events = demo_after 10 ++ HandOut 1 1007 :: demo_before 10 /\ released (demo_before 10) 0 = Some 7 /\
  last_is 1 (reservers (demo_before 10)) 2 = true /\
  (N.of_nat (count is_reserve demo_events) <= span 64 2)%N.
Proof.
  refine (conj demo_wf (conj demo_history (conj demo_calm (conj eq_refl (conj eq_refl (conj eq_refl _)))))).
  vm_compute. discriminate.
Qed.

(** C06.  No execution reaches undefined behaviour (an out-of-bounds access or a
    read of uninitialised memory); all indices are in bounds and no addition
    overflows. *)
Theorem C06_no_undefined_behaviour : forall T W cap (pol : policy T) es i,
  wf W cap -> ring_history W cap pol es -> calm (slack W cap) es -> ~ In (UB i) es.
Proof. intros T W cap pol es i Hwf. exact (no_ub W cap pol Hwf es i). Qed.
Print Assumptions C06_no_undefined_behaviour.

Theorem C06_bounds_and_arithmetic : forall T W cap (pol : policy T) es s i,
  let P := core_new W (N.of_nat cap) in
  wf W cap -> run P pol es s -> calm (slack W cap) es ->
  in_bounds P (st_core s) (st_agents s i) /\ arithmetic_fits P (st_agents s i).
Proof.
  intros T W cap pol es s i P Hwf Hr HC.
  exact (conj (bounds_ok W cap pol Hwf s es i Hr HC) (arith_fits W cap pol Hwf s es i Hr HC)).
Qed.
Print Assumptions C06_bounds_and_arithmetic.

Example C06_case : exists s, run (core_new 64 2) demo_policy demo_events s.
Proof. exact demo_history. Qed.

(** C08.  Closing is permanent: no push is granted after it, a push all of whose
    duration lies after it reports Closed, and Closed is only ever reported
    after a close. *)
Theorem C08_no_push_after_close : forall T W cap (pol : policy T) es2 i es1,
  wf W cap -> ring_history W cap pol (es2 ++ Reserve i :: es1) -> calm (slack W cap) (es2 ++ Reserve i :: es1) ->
  closed_in es1 = false.
Proof.
  intros T W cap pol es2 i es1 Hwf Hh HC. exact (proj1 (reserve_not_closed W cap pol Hwf es2 i es1 Hh HC)).
Qed.
Print Assumptions C08_no_push_after_close.

Theorem C08_push_result_after_close : forall T W cap (pol : policy T) es2 i e es1,
  wf W cap -> ring_history W cap pol (es2 ++ e :: es1) -> calm (slack W cap) (es2 ++ e :: es1) ->
  e = Reserve i \/ e = RetFull i \/ e = RetPushClosed i ->
  (forall es0, In es0 (moments i es1) -> closed_in es0 = true) ->
  e = RetPushClosed i.
Proof. intros T W cap pol es2 i e es1 Hwf. exact (push_after_close W cap pol Hwf es2 i e es1). Qed.
Print Assumptions C08_push_result_after_close.

Theorem C08_closed_truthful : forall T W cap (pol : policy T) es2 i es1,
  wf W cap -> ring_history W cap pol (es2 ++ RetPushClosed i :: es1) ->
  calm (slack W cap) (es2 ++ RetPushClosed i :: es1) ->
  exists es0, In es0 (moments i es1) /\ closed_in es0 = true.
Proof. intros T W cap pol es2 i es1 Hwf. exact (push_closed_true W cap pol Hwf es2 i es1). Qed.
Print Assumptions C08_closed_truthful.

(** close() reports whether this call closed the queue, and afterwards it is closed. *)
Theorem C08_close_result : forall T W cap (pol : policy T) es s i s' e,
  wf W cap -> run (core_new W (N.of_nat cap)) pol es s -> calm (slack W cap) es ->
  step (core_new W (N.of_nat cap)) pol s (AClose i false) = Some (s', e) ->
  e = Some (Closing i (negb (closed_in es))) /\ closed_in (ocons e es) = true.
Proof.
  intros T W cap pol es s i s' e Hwf Hr HC Hs.
  pose proof (close_result W cap pol Hwf s es i s' e Hr HC Hs) as E.
  split; [exact E|]. rewrite E. simpl. destruct (closed_in es); reflexivity.
Qed.
Print Assumptions C08_close_result.

Example C08_close_case :
  exec_events 64 2 demo_policy (demo_schedule ++ [AClose 7 false]) = Some (Closing 7 false :: demo_events) /\
  exec_events 64 2 demo_policy demo_schedule = Some (demo_after 7 ++ Closing 5 true :: demo_before 7) /\
  closed_in demo_events = true /\ closed_in (demo_before 7) = false.
Proof. vm_compute. repeat split. Qed.

Example C08_case : wf 64 2 /\ ring_history 64 2 demo_policy demo_events /\ calm (slack 64 2) demo_events /\
  demo_events = demo_after 5 ++ RetPushClosed 2 :: demo_before 5 /\
  (forall es0, In es0 (moments 2 (demo_before 5)) -> closed_in es0 = true) /\
  demo_events = demo_after 11 ++ Reserve 1 :: demo_before 11.
Proof.
  refine (conj demo_wf (conj demo_history (conj demo_calm (conj eq_refl (conj _ eq_refl))))).
  simpl. intros es0 [<-|[]]. reflexivity.
Qed.

(** C09.  A pop that reports Closed: the queue is closed, and every element ever
    completely sent had been dequeued before. *)
Theorem C09_drained_before_closed : forall T W cap (pol : policy T) es2 i es1 n v,
  wf W cap -> ring_history W cap pol (es2 ++ RetPopClosed i :: es1) ->
  calm (slack W cap) (es2 ++ RetPopClosed i :: es1) ->
  committed (es2 ++ RetPopClosed i :: es1) n = Some v -> nth_error (taken_values es1) n = Some v.
Proof. intros T W cap pol es2 i es1 n v Hwf. exact (drained_before_closed W cap pol Hwf es2 i es1 n v). Qed.
Print Assumptions C09_drained_before_closed.

Theorem C09_pop_closed_truthful : forall T W cap (pol : policy T) es2 i es1,
  wf W cap -> ring_history W cap pol (es2 ++ RetPopClosed i :: es1) ->
  calm (slack W cap) (es2 ++ RetPopClosed i :: es1) ->
  exists es0, In es0 (moments i es1) /\ closed_in es0 = true /\ occupancy es0 = 0.
Proof. intros T W cap pol es2 i es1 Hwf. exact (pop_closed_occ W cap pol Hwf es2 i es1). Qed.
Print Assumptions C09_pop_closed_truthful.

(** A pop that runs entirely while the queue is closed and drained reports Closed. *)
Theorem C09_closed_reported : forall T W cap (pol : policy T) es2 i v e es1,
  wf W cap -> ring_history W cap pol (es2 ++ e :: es1) -> calm (slack W cap) (es2 ++ e :: es1) ->
  e = Take i v \/ e = RetEmpty i \/ e = RetPopClosed i ->
  (forall es0, In es0 (moments i es1) -> closed_in es0 = true /\ occupancy es0 = 0) ->
  e = RetPopClosed i.
Proof. intros T W cap pol es2 i v e es1 Hwf. exact (pop_after_close W cap pol Hwf es2 i v e es1). Qed.
Print Assumptions C09_closed_reported.

Example C09_reported_case : demo_events = demo_after 0 ++ RetPopClosed 3 :: demo_before 0 /\
  (forall es0, In es0 (moments 3 (demo_before 0)) -> closed_in es0 = true /\ occupancy es0 = 0).
Proof. split; [reflexivity|]. simpl. intros es0 [<-|[]]. split; reflexivity. Qed.

Example C09_case : wf 64 2 /\ ring_history 64 2 demo_policy demo_events /\ calm (slack 64 2) demo_events /\
  demo_events = demo_after 0 ++ RetPopClosed 3 :: demo_before 0 /\ committed demo_events 2 = Some 30.
Proof. exact (conj demo_wf (conj demo_history (conj demo_calm (conj eq_refl eq_refl)))). Qed.

(** C10.  len() is the exact number of elements at some moment of the call (as
    long as the queue is not closed); remaining() and is_empty() are computed
    from it. *)
Theorem C10_len_snapshot : forall T W cap (pol : policy T) es2 i n es1,
  wf W cap -> ring_history W cap pol (es2 ++ RetLen i n :: es1) -> calm (slack W cap) (es2 ++ RetLen i n :: es1) ->
  closed_in es1 = false ->
  exists es0, In es0 (moments i es1) /\ N.to_nat n = occupancy es0 /\ occupancy es0 <= cap.
Proof. intros T W cap pol es2 i n es1 Hwf. exact (len_true W cap pol Hwf es2 i n es1). Qed.
Print Assumptions C10_len_snapshot.

Example C10_case : wf 64 2 /\ ring_history 64 2 demo_policy demo_events /\ calm (slack 64 2) demo_events /\
  demo_events = demo_after 20 ++ RetLen 4 2%N :: demo_before 20 /\ closed_in (demo_before 20) = false.
Proof. exact (conj demo_wf (conj demo_history (conj demo_calm (conj eq_refl eq_refl)))). Qed.

(** C39.  What has been received from producer [i] so far is, in order, an
    initial segment of what [i] has sent. *)
Theorem C39_per_producer_order : forall T W cap (pol : policy T) es i,
  wf W cap -> ring_history W cap pol es -> calm (slack W cap) es ->
  exists rest, sent_by i es = received_from i es ++ rest.
Proof. intros T W cap pol es i Hwf. exact (per_producer W cap pol Hwf i es). Qed.
Print Assumptions C39_per_producer_order.

(** No element is received before every element granted an earlier place has
    been completely sent and received. *)
Theorem C39_head_of_line : forall T W cap (pol : policy T) es2 i v es1 m,
  wf W cap -> ring_history W cap pol (es2 ++ Take i v :: es1) -> calm (slack W cap) (es2 ++ Take i v :: es1) ->
  m <= length (taken_values es1) -> exists w, committed es1 m = Some w.
Proof.
  intros T W cap pol es2 i v es1 m Hwf Hh HC. rewrite taken_length.
  exact (head_of_line W cap pol Hwf es2 i v es1 m Hh HC).
Qed.
Print Assumptions C39_head_of_line.

Example C39_case : wf 64 2 /\ ring_history 64 2 demo_policy demo_events /\ calm (slack 64 2) demo_events /\
  sent_by 1 demo_events = [10; 30] /\ received_from 1 demo_events = [10; 30] /\
  received_from 1 (demo_before 3) = [10].
Proof. exact (conj demo_wf (conj demo_history (conj demo_calm (conj eq_refl (conj eq_refl eq_refl))))). Qed.
