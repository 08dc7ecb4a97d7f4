(** Theorems about the senders' wait queue on weak memory.  [debug] is cfg(debug_assertions).

    Hypothesis [wq_hasty s = []]: no owner learnt from its waiter's state that it was taken (or gave up on it by a
    timeout) before it was woken by whoever took it, so far.  C54_patient says when that is guaranteed;
    C54_hasty_race_refuted what happens otherwise. *)
From Coq Require Import List Bool Arith NArith Lia.
From Verif Require Import WaitCellModel WaitList WaitListSpec WaitListFacts WaitQueueModel WaitQueueSpec WaitQueueFacts WaitQueueSafety
  WaitQueueWake WaitQueuePatient WaitQueueStored WaitQueueCalls WeakQueueModel WeakQueueFacts WeakQueueInv WeakQueueMove WeakQueueData
  WeakQueuePatient WeakQueueLate.
Import ListNotations.

Lemma wqexec_run debug l s es s' es' : wqrun debug es s -> wqexec debug s es l = Some (s', es') -> wqrun debug es' s'.
Proof.
  revert s es. induction l as [|a l IH]; simpl; intros s es Hr H.
  - injection H as <- <-. exact Hr.
  - destruct (wq_step debug s a) as [[s1 e]|] eqn:E; [|discriminate].
    eapply IH; [|exact H]. exact (wqrun_step debug es s a s1 e Hr E).
Qed.

Lemma wqcase debug l (P : wqueue -> list qevent -> Prop) :
  match wqexec debug wq_init [] l with Some (s, es) => P s es | None => False end -> exists s es, wqrun debug es s /\ P s es.
Proof.
  pose proof (wqexec_run debug l wq_init []) as H. destruct (wqexec debug wq_init [] l) as [[s es]|]; [|tauto].
  intros HP. exists s, es. split; [apply H; [constructor|reflexivity]|exact HP].
Qed.

(** Schedules: [n] steps of [i] that act on the newest values; a first waiter; a further waiter. *)
Definition wgo (i n : nat) : list wqaction := repeat (AStep i None) n.
Definition wfirst (i : nat) (w : waker) : list wqaction := [ACall (QNew i) false; ACall (QStart i w) false] ++ wgo i 9.
Definition wnext (i : nat) (w : waker) : list wqaction := [ACall (QNew i) false; ACall (QStart i w) false] ++ wgo i 8.

(** C54.  No data race and nothing released is touched, whatever old values are read. *)
Theorem C54_no_race : forall debug es s, wqrun debug es s -> wq_hasty s = [] -> wq_races s = [] /\ no_ub es.
Proof.
  intros debug es s Hr Hh. destruct (wq_run 0 debug es s Hr Hh) as [Hl Hu Ht _ _ _ Hx].
  split; [exact Hx|exact (proj1 (qrun_safe _ _ _ Hl Hu Ht))].
Qed.
Print Assumptions C54_no_race.

(** Owners that look at a waiter that waits (or drop it, or give up) only because they were woken never do so too early. *)
Theorem C54_patient : forall debug es s, woken_run debug es s -> patient es -> wq_hasty s = [] /\ wq_races s = [] /\ no_ub es.
Proof.
  intros debug es s Hr Hp. pose proof (proj1 (woken_patient debug es s Hr Hp)) as Hh. split; [exact Hh|].
  exact (C54_no_race debug es s (woken_is_run _ _ _ Hr) Hh).
Qed.
Print Assumptions C54_patient.

(** The list is the line of waiting senders whenever the lock is free. *)
Theorem C54_list_is_waiters : forall debug es s,
  wqrun debug es s -> wq_hasty s = [] -> q_lock (wq_sys s) = None ->
  represents (q_heap (wq_sys s)) (q_list (wq_sys s)) (waiting es) /\ forall n, ~ In n (waiting es) -> detached (q_heap (wq_sys s)) n.
Proof.
  intros debug es s Hr Hh Hk. destruct (wq_run 0 debug es s Hr Hh) as [Hl Hu Ht _ _ _ _].
  destruct (qrun_safe _ _ _ Hl Hu Ht) as (_ & HI & _).
  assert (Hm : members es (wq_sys s) = waiting es) by (unfold members, window; rewrite Hk; reflexivity).
  rewrite <- Hm. split; [exact (I_rep _ _ HI)|exact (I_det _ _ HI)].
Qed.
Print Assumptions C54_list_is_waiters.

(** Whoever is woken waited longest, and is woken with the waker it held when it was taken. *)
Theorem C54_oldest_first : forall debug es s es2 k n w es1,
  wqrun debug es s -> wq_hasty s = [] -> es = es2 ++ EWoke k n w :: es1 ->
  exists esb st esa q, es1 = esb ++ ESwap k n st :: esa /\ waiting esa = n :: q /\ given n esa = Some w.
Proof.
  intros debug es s es2 k n w es1 Hr Hh He. destruct (wq_run 0 debug es s Hr Hh) as [Hl Hu Ht _ _ _ _].
  destruct (qrun_safe _ _ _ Hl Hu Ht) as (Hub & _).
  destruct (woke_waker debug es (wq_sys s) es2 k n w es1 Hl Hub He) as (esb & esm & esa & st & -> & Hg & _).
  destruct (swap_oldest debug es (wq_sys s) (es2 ++ EWoke k n w :: esb ++ EUnlink k n (Some w) :: esm) k n st esa Hl Hub) as [q Hq].
  { rewrite He, <- !app_assoc. simpl. rewrite <- app_assoc. reflexivity. }
  exists (esb ++ EUnlink k n (Some w) :: esm), st, esa, q. split; [rewrite <- app_assoc; reflexivity|auto].
Qed.
Print Assumptions C54_oldest_first.

(** A waiter that waits, and whose owner is not in a call, holds the waker its owner passed last. *)
Theorem C54_latest : forall debug es s n,
  wqrun debug es s -> wq_hasty s = [] -> In n (waiting es) -> in_call n es = false -> ~ released n es -> given n es = passed n es.
Proof.
  intros debug es s n Hr Hh. destruct (wq_run 0 debug es s Hr Hh) as [Hl Hu Ht _ _ _ _].
  exact (waiting_latest debug es (wq_sys s) n Hl (proj1 (qrun_safe _ _ _ Hl Hu Ht))).
Qed.
Print Assumptions C54_latest.

(** What a woken sender is told is what happened. *)
Theorem C54_told : forall debug es s es2 n r es1 v,
  wqrun debug es s -> wq_hasty s = [] -> es = es2 ++ ERet n r :: es1 -> told n es1 = Some v -> says v r.
Proof.
  intros debug es s es2 n r es1 v Hr Hh. destruct (wq_run 0 debug es s Hr Hh) as [Hl Hu Ht _ _ _ _].
  exact (told_result debug es (wq_sys s) es2 n r es1 v Hl (proj1 (qrun_safe _ _ _ Hl Hu Ht))).
Qed.
Print Assumptions C54_told.

(** A released waiter is not reachable. *)
Theorem C54_released_unreachable : forall debug es s n,
  wqrun debug es s -> wq_hasty s = [] -> released n es -> ~ points_to (wq_sys s) n.
Proof.
  intros debug es s n Hr Hh. destruct (wq_run 0 debug es s Hr Hh) as [Hl Hu Ht _ _ _ _]. exact (released_unreachable debug es (wq_sys s) n Hl Hu Ht).
Qed.
Print Assumptions C54_released_unreachable.

(** Whoever is inside the queue's code can go on, or whoever holds the lock can. *)
Theorem C54_never_stuck : forall debug es s i,
  wqrun debug es s -> wq_hasty s = [] -> q_pc (wq_sys s) i <> QIdle ->
  (exists s' e, wq_step debug s (AStep i None) = Some (s', e)) \/
  (exists k, q_lock (wq_sys s) = Some k /\ exists s' e, wq_step debug s (AStep k None) = Some (s', e)).
Proof.
  intros debug es s i Hr Hh Hp. destruct (wq_run 0 debug es s Hr Hh) as [Hl Hu Ht _ _ _ _].
  assert (Hx : forall j y e, qstep debug (wq_sys s) j false = Some (y, e) -> exists s' e', wq_step debug s (AStep j None) = Some (s', e')).
  { intros j y e Hq. cbn [wq_step]. unfold newest. rewrite Hq. destruct (swaps j (q_pc (wq_sys s) j) (q_pc y j)); eauto. }
  destruct (never_stuck debug es (wq_sys s) i Hl (proj1 (qrun_safe _ _ _ Hl Hu Ht)) Hp) as [(y & e & Hq)|(k & Hk & y & e & Hq)]; [left; eauto|right; eauto].
Qed.
Print Assumptions C54_never_stuck.

(** Two waiters, the second of which reads the state word of before the first; a notify; 0 is woken, acts on it, and is
    queued again; another notify. *)
Definition w_story : list wqaction :=
  wfirst 0 7 ++ [ACall (QNew 1) false; ACall (QStart 1 8) false; AStep 1 (Some 0)] ++ wgo 1 7 ++ [ACall (QNotify 3) false; AStep 3 (Some 1)] ++ wgo 3 7 ++
  [ACall (QCont 0 7) true; AStep 0 (Some 2)] ++ wgo 0 1 ++ [ACall (QStart 0 9) false; AStep 0 (Some 1)] ++ wgo 0 7 ++
  [ACall (QNotify 3) false] ++ wgo 3 7.
Example C54_case : exists s es, wqrun true es s /\ wq_hasty s = [] /\ q_lock (wq_sys s) = None /\ waiting es = [0] /\ passed 0 es = Some 9 /\
  es = [] ++ EWoke 3 1 8 :: [EUnlink 3 1 (Some 8); ESwap 3 1 Q_WAKING; ECallNotify 3; ERet 0 Wait; EEnq 0 9; EStart 0 9;
        ERet 0 Notified; EPeek 0; ECont 0 7; ERetNotify 3 true; EWoke 3 0 7; EUnlink 3 0 (Some 7); ESwap 3 0 Q_WAKING; ECallNotify 3;
        ERet 1 Wait; EEnq 1 8; EStart 1 8; ENew 1; ERet 0 Wait; EEnq 0 7; EStart 0 7; ENew 0].
Proof.
  apply (wqcase true w_story (fun s es => wq_hasty s = [] /\ q_lock (wq_sys s) = None /\ waiting es = [0] /\ passed 0 es = Some 9 /\
  es = [] ++ EWoke 3 1 8 :: [EUnlink 3 1 (Some 8); ESwap 3 1 Q_WAKING; ECallNotify 3; ERet 0 Wait; EEnq 0 9; EStart 0 9;
        ERet 0 Notified; EPeek 0; ECont 0 7; ERetNotify 3 true; EWoke 3 0 7; EUnlink 3 0 (Some 7); ESwap 3 0 Q_WAKING; ECallNotify 3;
        ERet 1 Wait; EEnq 1 8; EStart 1 8; ENew 1; ERet 0 Wait; EEnq 0 7; EStart 0 7; ENew 0])).
  vm_compute. auto 10.
Qed.
Example C54_case_told : told 0 [EPeek 0; ECont 0 7; ERetNotify 3 true; EWoke 3 0 7; EUnlink 3 0 (Some 7); ESwap 3 0 Q_WAKING] = Some Q_WAKING /\
  in_call 0 [ERet 0 Wait; EEnq 0 9; EStart 0 9] = false.
Proof. split; reflexivity. Qed.

(** The same execution satisfies the hypotheses of C54_patient. *)
Fixpoint all_take (s : wqueue) (l : list wqaction) : Prop :=
  match l with
  | [] => True
  | a :: l' => takes_wake s a /\ match wq_step true s a with Some (s', _) => all_take s' l' | None => True end
  end.
Lemma wokenexec l s es s' es' : woken_run true es s -> all_take s l -> wqexec true s es l = Some (s', es') -> woken_run true es' s'.
Proof.
  revert s es. induction l as [|a l IH]; simpl; intros s es Hr Ht H; [injection H as <- <-; exact Hr|].
  destruct Ht as [Ha Ht]. destruct (wq_step true s a) as [[s1 e]|] eqn:E; [|discriminate].
  eapply IH; [|exact Ht|exact H]. exact (woken_step true es s a s1 e Hr Ha E).
Qed.
Example C54_patient_case : exists s es, woken_run true es s /\ patient es /\ length es = 23 /\ In (ECont 0 7) es.
Proof.
  assert (H : all_take wq_init w_story) by (vm_compute; intuition (reflexivity || discriminate)).
  pose proof (wokenexec w_story wq_init []) as K.
  assert (Hx : match wqexec true wq_init [] w_story with Some (s, es) => patient es /\ length es = 23 /\ In (ECont 0 7) es | None => False end)
    by (vm_compute; tauto).
  destruct (wqexec true wq_init [] w_story) as [[s es]|] eqn:E; [|contradiction].
  exists s, es. split; [apply K; [constructor|exact H|reflexivity]|exact Hx].
Qed.

(** A released waiter; somebody waiting for the lock. *)
Example C54_case_released : exists s es, wqrun true es s /\ wq_hasty s = [] /\ released 0 es /\ waiting es = [1] /\ q_pc (wq_sys s) 2 = SLock 5 /\ q_lock (wq_sys s) = Some 3.
Proof.
  apply (wqcase true (wfirst 0 7 ++ wnext 1 8 ++ [ACall (QDrop 0) false] ++ wgo 0 6 ++ [ACall (QNew 2) false; ACall (QStart 2 5) false] ++ wgo 2 1 ++
    [ACall (QNotify 3) false] ++ wgo 3 2) (fun s es => wq_hasty s = [] /\ released 0 es /\ waiting es = [1] /\ q_pc (wq_sys s) 2 = SLock 5 /\ q_lock (wq_sys s) = Some 3)).
  vm_compute. split; [reflexivity|]. split; [tauto|auto].
Qed.

(** An owner polled (for another reason) after a notify has unlinked its waiter, but before it is woken, reads WAKING,
    returns Notified and is released: it writes to the waiter without having seen the writes of the unlinking, which come
    after the swap (280, 580; 584-598) it may have synchronised with. *)
Theorem C54_hasty_race_refuted : forall debug, exists s es, wqrun debug es s /\ no_ub es /\ undisturbed es /\ one_notifier 1 es /\ no_timeouts es /\ no_drops es /\ wq_races s <> [].
Proof.
  intros debug. apply (wqcase debug (wfirst 0 7 ++ [ACall (QNotify 1) false] ++ wgo 1 4 ++ [ACall (QCont 0 8) false] ++ wgo 0 2 ++ [ACall (QFree 0) false])
    (fun s es => no_ub es /\ undisturbed es /\ one_notifier 1 es /\ no_timeouts es /\ no_drops es /\ wq_races s <> [])).
  destruct debug; vm_compute; (split; [intros i; intuition discriminate|]); (split; [auto|]); (split; [intros i; intuition congruence|]); (split; [intros i; intuition discriminate|]);
  (split; [intros i; intuition discriminate|discriminate]).
Qed.
Print Assumptions C54_hasty_race_refuted.

(** C55.  With one notifier, and no send cancelled while it waits, notifications are not lost although the notifier may
    read old values. *)
Theorem C55_one_notifier : forall r debug es s,
  wqrun debug es s -> wq_hasty s = [] -> close_exclusive es -> one_notifier r es -> no_drops es ->
  no_failure es /\ (q_closed es = false -> stored es = true -> waiting es = []) /\
  forall es2 k b es1, es = es2 ++ ERetNotify k b :: es1 ->
    if b then exists n w, In (ESwap k n Q_WAKING) (this_notify k es1) /\ In (EWoke k n w) (this_notify k es1)
    else In (EStored k) (this_notify k es1).
Proof.
  intros r debug es s Hr Hh He H1 Hd. destruct (wq_run r debug es s Hr Hh) as [Hl Hu Ht _ _ _ _].
  pose proof (proj1 (qrun_safe _ _ _ Hl Hu Ht)) as Hub.
  assert (Hg : Gr r es) by (split; [split; assumption|split; assumption]).
  assert (Hok : solo_ok r es).
  { split; [split; assumption|]. split; [exact H1|]. clear - Hd.
    assert (Hin : forall i es', (forall j, ~ In (EDrop j) es') -> in_drop i es' = false).
    { intros i es'. induction es' as [|e es' IH]; intros H; [reflexivity|].
      assert (K : in_drop i es' = false) by (apply IH; intros j Hj; apply (H j); now right).
      destruct e; auto; simpl. - destruct (H i0). now left. - rewrite K. destruct (Nat.eqb i0 i); reflexivity. }
    induction es as [|e es IH]; [exact I|].
    assert (Hd' : no_drops es) by (intros j Hj; apply (Hd j); now right).
    destruct e; simpl; auto. destruct (Hd i). now left. }
  split; [exact (proj2 (ninv_lrun r debug (Gr r) (Gr_tail r) es (wq_sys s) Hl Hg Hok))|].
  split; [exact (stored_nobody_l (Gr r) (Gr_tail r) r debug es (wq_sys s) Hl Hg Hok)|].
  intros es2 k b es1. exact (notify_result_l (Gr r) (Gr_tail r) r debug es (wq_sys s) es2 k b es1 Hl Hg Hok).
Qed.
Print Assumptions C55_one_notifier.

(** A waiter; a notify by a thread that has seen nothing of it; a notify that finds nobody, whose load returns the value
    WAITING of before. *)
Example C55_case : exists s es, wqrun true es s /\ wq_hasty s = [] /\ close_exclusive es /\ one_notifier 1 es /\ no_drops es /\ q_closed es = false /\
  stored es = true /\ es = [ERetNotify 1 false; EStored 1; ECallNotify 1; ERetNotify 1 true; EWoke 1 0 7; EUnlink 1 0 (Some 7); ESwap 1 0 Q_WAKING; ECallNotify 1;
    ERet 0 Wait; EEnq 0 7; EStart 0 7; ENew 0].
Proof.
  apply (wqcase true (wfirst 0 7 ++ [ACall (QNotify 1) false; AStep 1 (Some 0); AStep 1 None] ++ wgo 1 7 ++ [ACall (QNotify 1) false] ++ wgo 1 3) (fun s es =>
    wq_hasty s = [] /\ close_exclusive es /\ one_notifier 1 es /\ no_drops es /\ q_closed es = false /\
    stored es = true /\ es = [ERetNotify 1 false; EStored 1; ECallNotify 1; ERetNotify 1 true; EWoke 1 0 7; EUnlink 1 0 (Some 7); ESwap 1 0 Q_WAKING; ECallNotify 1;
    ERet 0 Wait; EEnq 0 7; EStart 0 7; ENew 0])).
  vm_compute. split; [reflexivity|]. split; [repeat (split; [intros; intuition discriminate|]); exact I|]. split; [intros i; intuition congruence|]. split; [intros i; intuition discriminate|auto].
Qed.

(** With cancelled sends it is not so, even if no cancellation overlaps a notify in time (which suffices on sequentially
    consistent memory, C25_apart_result): the load of a later notify (375, Acquire) may still return the WAITING of before the
    cancellation; the notify then finds an empty list, and the notification is lost (in debug builds, it panics). *)
Theorem C55_cancelled_refuted : exists s es, wqrun false es s /\ wq_hasty s = [] /\ close_ok es /\ one_notifier 1 es /\ drops_apart es /\
  stored es = false /\ waiting es = [2] /\
  exists es2 es1, es = es2 ++ ERetNotify 1 false :: es1 /\ ~ In (EStored 1) es1 /\ In (EStart 2 8) es2 /\ ~ In (EStart 2 8) es1.
Proof.
  apply (wqcase false (wfirst 0 7 ++ [ACall (QDrop 0) false] ++ wgo 0 6 ++ [ACall (QNotify 1) false; AStep 1 (Some 1)] ++ wgo 1 5 ++ wfirst 2 8) (fun s es =>
    wq_hasty s = [] /\ close_ok es /\ one_notifier 1 es /\ drops_apart es /\ stored es = false /\ waiting es = [2] /\
    exists es2 es1, es = es2 ++ ERetNotify 1 false :: es1 /\ ~ In (EStored 1) es1 /\ In (EStart 2 8) es2 /\ ~ In (EStart 2 8) es1)).
  vm_compute. split; [reflexivity|]. split; [split; [intros i; intuition discriminate|repeat (split; [intros; intuition discriminate|]); exact I]|]. split; [intros i; intuition congruence|].
  split; [split; [intros [|[|i]]; reflexivity|split; [intros; reflexivity|exact I]]|]. split; [reflexivity|]. split; [reflexivity|].
  eexists [_; _; _; _], _. split; [reflexivity|]. split; [intuition discriminate|]. split; [tauto|intuition discriminate].
Qed.
Print Assumptions C55_cancelled_refuted.

Theorem C55_cancelled_panics_refuted : exists s es, wqrun true es s /\ wq_hasty s = [] /\ close_ok es /\ one_notifier 1 es /\ drops_apart es /\ In (EAssert 1) es.
Proof.
  apply (wqcase true (wfirst 0 7 ++ [ACall (QDrop 0) false] ++ wgo 0 6 ++ [ACall (QNotify 1) false; AStep 1 (Some 1)] ++ wgo 1 2) (fun s es =>
    wq_hasty s = [] /\ close_ok es /\ one_notifier 1 es /\ drops_apart es /\ In (EAssert 1) es)).
  vm_compute. split; [reflexivity|]. split; [split; [intros i; intuition discriminate|repeat (split; [intros; intuition discriminate|]); exact I]|]. split; [intros i; intuition congruence|].
  split; [split; [intros [|[|i]]; reflexivity|split; [intros; reflexivity|exact I]]|tauto].
Qed.
Print Assumptions C55_cancelled_panics_refuted.

(** C56.  Closing the queue on weak memory: when close returns, everybody who waited at any time since the state word
    became CLOSED was taken with CLOSED and woken, or left by itself. *)
Theorem C56_wakes_all : forall debug es s es3 k es2 es1 n,
  wqrun debug es s -> wq_hasty s = [] -> close_exclusive es -> es = es3 ++ ERetClose k :: es2 ++ es1 ->
  q_closed es1 = true -> In n (waiting es1) ->
  In (ERemoved n) es2 \/ exists j w, In (ESwap j n Q_CLOSED) es2 /\ In (EWoke j n w) es2.
Proof.
  intros debug es s es3 k es2 es1 n Hr Hh He. destruct (wq_run 0 debug es s Hr Hh) as [Hl Hu Ht _ _ _ _].
  exact (close_wakes debug es (wq_sys s) es3 k es2 es1 n Hl (conj (proj1 (qrun_safe _ _ _ Hl Hu Ht)) He)).
Qed.
Print Assumptions C56_wakes_all.

(** Afterwards nobody waits, nobody is queued, and a start_wait called from then on answers Closed. *)
Theorem C56_afterwards : forall debug es s k,
  wqrun debug es s -> wq_hasty s = [] -> close_exclusive es -> In (ERetClose k) es -> waiting es = [].
Proof.
  intros debug es s k Hr Hh He. destruct (wq_run 0 debug es s Hr Hh) as [Hl Hu Ht _ _ _ _].
  exact (closed_stays_empty debug es (wq_sys s) k Hl (conj (proj1 (qrun_safe _ _ _ Hl Hu Ht)) He)).
Qed.
Print Assumptions C56_afterwards.

Theorem C56_nobody_starts : forall debug es s es3 n w es2 k es1,
  wqrun debug es s -> wq_hasty s = [] -> close_exclusive es -> es <> es3 ++ EEnq n w :: es2 ++ ERetClose k :: es1.
Proof.
  intros debug es s es3 n w es2 k es1 Hr Hh He. destruct (wq_run 0 debug es s Hr Hh) as [Hl Hu Ht _ _ _ _].
  exact (closed_no_enq debug es (wq_sys s) es3 n w es2 k es1 Hl (conj (proj1 (qrun_safe _ _ _ Hl Hu Ht)) He)).
Qed.
Print Assumptions C56_nobody_starts.

Theorem C56_after : forall debug es s es2 n r es1,
  wqrun debug es s -> wq_hasty s = [] -> close_exclusive es -> es = es2 ++ ERet n r :: es1 -> after_close n es1 = true -> r = Closed.
Proof.
  intros debug es s es2 n r es1 Hr Hh He. destruct (wq_run 0 debug es s Hr Hh) as [Hl Hu Ht _ _ _ _].
  exact (after_closed debug es (wq_sys s) es2 n r es1 Hl (conj (proj1 (qrun_safe _ _ _ Hl Hu Ht)) He)).
Qed.
Print Assumptions C56_after.

(** 2 starts to wait between the swap of CLOSED and the sweep, reading old values, and is queued; both waiters are woken; 4
    comes after close returned, reads an old value first, and is told Closed. *)
Definition w_closing : list wqaction :=
  wfirst 0 7 ++ [ACall (QClose 1) false; AStep 1 None; ACall (QNew 2) false; ACall (QStart 2 8) false; AStep 2 (Some 1); AStep 2 None; AStep 2 (Some 1)] ++
  wgo 2 5 ++ wgo 1 9 ++ [ACall (QCont 2 8) true] ++ wgo 2 2 ++ [ACall (QNew 4) false; ACall (QStart 4 9) false; AStep 4 (Some 0)] ++ wgo 4 4.
Example C56_case : exists s es, wqrun true es s /\ wq_hasty s = [] /\ close_exclusive es /\
  exists es3 es2 es1, es = es3 ++ ERetClose 1 :: es2 ++ es1 /\ q_closed es1 = true /\ waiting es1 = [0; 2] /\
    es2 = [EWoke 1 2 8; EUnlink 1 2 (Some 8); ESwap 1 2 Q_CLOSED; EWoke 1 0 7; EUnlink 1 0 (Some 7); ESwap 1 0 Q_CLOSED] /\
    es3 = [ERet 4 Closed; EStart 4 9; ENew 4; ERet 2 Closed; EPeek 2; ECont 2 8].
Proof.
  apply (wqcase true w_closing (fun s es => wq_hasty s = [] /\ close_exclusive es /\
  exists es3 es2 es1, es = es3 ++ ERetClose 1 :: es2 ++ es1 /\ q_closed es1 = true /\ waiting es1 = [0; 2] /\
    es2 = [EWoke 1 2 8; EUnlink 1 2 (Some 8); ESwap 1 2 Q_CLOSED; EWoke 1 0 7; EUnlink 1 0 (Some 7); ESwap 1 0 Q_CLOSED] /\
    es3 = [ERet 4 Closed; EStart 4 9; ENew 4; ERet 2 Closed; EPeek 2; ECont 2 8])).
  vm_compute. split; [reflexivity|]. split; [split; [intros i; reflexivity|exact I]|].
  eexists [_; _; _; _; _; _], [_; _; _; _; _; _], _. repeat split; reflexivity.
Qed.
Example C56_case_after : after_close 4 [EStart 4 9; ENew 4; ERet 2 Closed; EPeek 2; ECont 2 8; ERetClose 1] = true.
Proof. reflexivity. Qed.

(** On weak memory "after the state word became CLOSED" is not enough to be told Closed (it is on sequentially consistent memory,
    C30_queue_late): an owner that has not heard of the close may still be queued.  It is woken by the sweep (C56_wakes_all). *)
Theorem C56_late_refuted : exists s es, wqrun true es s /\ wq_hasty s = [] /\ close_exclusive es /\
  exists es2 es1, es = es2 ++ ERet 2 Wait :: es1 /\ WaitQueueSpec.late 2 es1 = true.
Proof.
  apply (wqcase true (wfirst 0 7 ++ [ACall (QClose 1) false; AStep 1 None; ACall (QNew 2) false; ACall (QStart 2 8) false; AStep 2 (Some 1); AStep 2 None; AStep 2 (Some 1)] ++
  wgo 2 5) (fun s es => wq_hasty s = [] /\ close_exclusive es /\ exists es2 es1, es = es2 ++ ERet 2 Wait :: es1 /\ WaitQueueSpec.late 2 es1 = true)).
  vm_compute. split; [reflexivity|]. split; [split; [intros i; reflexivity|exact I]|]. eexists [], _. split; reflexivity.
Qed.
Print Assumptions C56_late_refuted.
