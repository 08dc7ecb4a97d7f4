(** Theorems about the ring on weak memory ([WeakModel]): C46-C49.

    [o] gives the memory orderings of the accesses.  The theorems hold for every [o] in which both loads of a
    slot's state are Acquire and the store in Ref::drop is Release ([sound_orders]), whatever the orderings
    of head and tail; [code_orders] are those of the code.  [few_pushes]: fewer pushes in total than
    [slack W cap] (about 2^62 for small queues on 64 bits), so that no word of tail or head repeats. *)
From Coq Require Import List Bool Arith NArith Lia.
From Verif Require Import Word QueueSpec CoreModel CoreArith RingSpec RingFacts ChainFacts Demo WeakModel WeakSpec WeakFacts History.
Import ListNotations.

(** ** A concrete execution *)
(** Agent [i] pushes [v]; its loads of tail and of the slot's state return the values numbered [kt], [ks]. *)
Definition wpush (i v kt ks : nat) : list (waction (T := nat)) :=
  [XInvoke i OpPush; XStep i kt false; XStep i ks false; XStep i 0 false; XStep i 0 false; XWrite i v; XDrop i].
Definition wpop (i kh ks : nat) : list (waction (T := nat)) :=
  [XInvoke i OpPop; XStep i kh false; XStep i ks false; XStep i 0 false].
(** The rounds of a pop that reads the old value [ks] of the slot's state over and over. *)
Definition wstale (i ks : nat) : list (waction (T := nat)) :=
  [XInvoke i OpPop] ++ concat (repeat [XStep i 0 false; XStep i ks false; XStep i 0 false] 4).


Definition wdemo : list (waction (T := nat)) :=
  (* 2 reads tail after 1's update, 1 has not finished yet *)
  [XInvoke 1 OpPush; XStep 1 0 false; XStep 1 0 false; XStep 1 0 false]
  ++ wpush 2 20 1 0 ++ [XStep 1 0 false; XWrite 1 10; XDrop 1]
  (* a push that reads the first value of slot 0's state ends with Full *)
  ++ [XInvoke 4 OpPush; XStep 4 2 false; XStep 4 1 false; XStep 4 0 false]
  (* 3 does not see the first element, although it is there: Empty *)
  ++ wstale 3 0
  (* now it does *)
  ++ [XSync 1 3] ++ wpop 3 0 1 ++ [XWrite 3 7; XDrop 3]
  (* 4 reads an old tail and an old state, fails, and then reuses the slot *)
  ++ [XInvoke 4 OpPush; XStep 4 2 false; XStep 4 2 false; XStep 4 0 false; XStep 4 0 false; XWrite 4 30; XDrop 4]
  ++ [XClose 5 false] ++ [XInvoke 2 OpPush; XStep 2 8 false]
  ++ wpop 3 2 1 ++ [XDrop 3] ++ wpop 3 3 3 ++ [XDrop 3] ++ wpop 3 4 2.

Definition wdemo_events : list (event nat) :=
  [RetPopClosed 3; Invoke 3 OpPop; Release 3 30; Take 3 30; Invoke 3 OpPop; Release 3 20; Take 3 20; Invoke 3 OpPop;
   RetPushClosed 2; Invoke 2 OpPush; Closing 5 true; Commit 4 30; Wrote 4 30; HandOut 4 1007; Reserve 4;
   Invoke 4 OpPush; Release 3 7; Wrote 3 7; Take 3 10; Invoke 3 OpPop; RetEmpty 3; Invoke 3 OpPop; RetFull 4;
   Invoke 4 OpPush; Commit 1 10; Wrote 1 10; HandOut 1 0; Commit 2 20; Wrote 2 20; HandOut 2 0; Reserve 2;
   Invoke 2 OpPush; Reserve 1; Invoke 1 OpPush].
Definition wbefore k := skipn (S k) wdemo_events.
Definition wafter k := firstn k wdemo_events.

Lemma weak_events_history {T} W cap (pol : policy T) o l es : weak_events W cap pol o l = Some es -> weak_history W cap pol o es.
Proof.
  unfold weak_events. intros H.
  assert (G : forall l es s s' es', weak_run (core_new W (N.of_nat cap)) pol o es s ->
    weak_exec (core_new W (N.of_nat cap)) pol o s es l = Some (s', es') -> weak_run (core_new W (N.of_nat cap)) pol o es' s').
  { clear. induction l as [|a l IH]; intros es s s' es' Hr E; simpl in E.
    - injection E as <- <-. exact Hr.
    - destruct (weak_step _ _ _ s a) as [[s1 e]|] eqn:Es; [|discriminate].
      eapply IH; [|exact E]. econstructor; eauto. }
  destruct (weak_exec _ _ _ _ _ _) as [[s es']|] eqn:E; [|discriminate]. injection H as <-.
  exists s. eapply G; [|exact E]. constructor.
Qed.

Lemma wdemo_history : weak_history 64 2 demo_policy code_orders wdemo_events.
Proof. apply (weak_events_history _ _ _ _ wdemo). vm_compute. reflexivity. Qed.
Lemma wdemo_few : few_pushes 64 2 wdemo_events.
Proof. vm_compute. reflexivity. Qed.
Lemma code_orders_sound : sound_orders code_orders.
Proof. repeat split. Qed.

(** The step of the demo execution that made its [k]-th most recent event. *)
Lemma wdemo_step k e : wdemo_events = wafter k ++ e :: wbefore k -> exists s a s',
  weak_run (core_new 64 2) demo_policy code_orders (wbefore k) s /\
  weak_step (core_new 64 2) demo_policy code_orders s a = Some (s', Some e).
Proof.
  intros E. destruct wdemo_history as [s Hr].
  destruct (run_before 64 2 demo_policy code_orders wdemo_events s Hr _ _ _ E) as (s0 & a & s1 & H1 & H2 & _). eauto.
Qed.

(** ** C46.  No execution has a data race on an element, reads an uninitialised element, or accesses a slot out of
    bounds. *)
Theorem C46_no_data_race : forall T W cap (pol : policy T) o es i,
  wf W cap -> sound_orders o -> weak_history W cap pol o es -> few_pushes W cap es -> ~ In (UB i) es.
Proof. intros T W cap pol o es i Hwf Ho. exact (weak_no_ub W cap pol o Hwf Ho es i). Qed.
Print Assumptions C46_no_data_race.

Theorem C46_code : forall T W cap (pol : policy T) es i,
  wf W cap -> weak_history W cap pol code_orders es -> few_pushes W cap es -> ~ In (UB i) es.
Proof. intros T W cap pol es i Hwf. exact (C46_no_data_race T W cap pol code_orders es i Hwf code_orders_sound). Qed.
Print Assumptions C46_code.

Example C46_case : wf 64 2 /\ sound_orders code_orders /\ weak_history 64 2 demo_policy code_orders wdemo_events /\
  few_pushes 64 2 wdemo_events /\ length (taken_values wdemo_events) = 3.
Proof. exact (conj demo_wf (conj code_orders_sound (conj wdemo_history (conj wdemo_few eq_refl)))). Qed.

(** None of the three orders can be weakened to Relaxed: with any of them relaxed two threads race. *)
Theorem C46_store_must_release : exists es, weak_history 64 2 demo_policy (mkO true true false true true true) es /\
  few_pushes 64 2 es /\ In (UB 3) es.
Proof.
  exists [UB 3; Invoke 3 OpPop; Commit 1 10; Wrote 1 10; HandOut 1 0; Reserve 1; Invoke 1 OpPush].
  split; [|split; [vm_compute; reflexivity|left; reflexivity]].
  apply (weak_events_history _ _ _ _ (wpush 1 10 0 0 ++ wpop 3 0 1)). vm_compute. reflexivity.
Qed.
Print Assumptions C46_store_must_release.
Theorem C46_pop_must_acquire : exists es, weak_history 64 2 demo_policy (mkO true false true true true true) es /\
  few_pushes 64 2 es /\ In (UB 3) es.
Proof.
  exists [UB 3; Invoke 3 OpPop; Commit 1 10; Wrote 1 10; HandOut 1 0; Reserve 1; Invoke 1 OpPush].
  split; [|split; [vm_compute; reflexivity|left; reflexivity]].
  apply (weak_events_history _ _ _ _ (wpush 1 10 0 0 ++ wpop 3 0 1)). vm_compute. reflexivity.
Qed.
Print Assumptions C46_pop_must_acquire.
Theorem C46_push_must_acquire : exists es, weak_history 64 2 demo_policy (mkO false true true true true true) es /\
  few_pushes 64 2 es /\ In (UB 1) es.
Proof.
  exists [UB 1; Reserve 1; Invoke 1 OpPush; Release 3 7; Wrote 3 7; Take 3 10; Invoke 3 OpPop; Commit 2 20;
          Wrote 2 20; HandOut 2 0; Reserve 2; Invoke 2 OpPush; Commit 1 10; Wrote 1 10; HandOut 1 0; Reserve 1;
          Invoke 1 OpPush].
  split; [|split; [vm_compute; reflexivity|left; reflexivity]].
  apply (weak_events_history _ _ _ _
    (wpush 1 10 0 0 ++ wpush 2 20 1 0 ++ wpop 3 0 1 ++ [XWrite 3 7; XDrop 3] ++ firstn 5 (wpush 1 30 2 2))).
  vm_compute. reflexivity.
Qed.
Print Assumptions C46_push_must_acquire.

(** ** C47.  The guarantees of a queue hold as well. *)
Theorem C47_fifo : forall T W cap (pol : policy T) o es,
  wf W cap -> sound_orders o -> weak_history W cap pol o es -> few_pushes W cap es ->
  map Some (taken_values es) = map (committed es) (seq 0 (length (taken_values es))).
Proof.
  intros T W cap pol o es Hwf Ho Hh Hf. destruct (history_chain W cap pol o Hwf Ho es Hh Hf) as [q Hq].
  rewrite taken_length. exact (chain_fifo_list _ _ _ _ _ _ Hq).
Qed.
Print Assumptions C47_fifo.

Theorem C47_sent_before_received : forall T W cap (pol : policy T) o es2 i v es1,
  wf W cap -> sound_orders o -> weak_history W cap pol o (es2 ++ Take i v :: es1) ->
  few_pushes W cap (es2 ++ Take i v :: es1) -> committed es1 (length (taken_values es1)) = Some v.
Proof.
  intros T W cap pol o es2 i v es1 Hwf Ho Hh Hf. destruct (history_chain W cap pol o Hwf Ho _ Hh Hf) as [q Hq].
  rewrite taken_length. exact (chain_fifo_nth _ _ _ _ _ _ _ _ _ Hq).
Qed.
Print Assumptions C47_sent_before_received.

Theorem C47_capacity : forall T W cap (pol : policy T) o es2 es1,
  wf W cap -> sound_orders o -> weak_history W cap pol o (es2 ++ es1) -> few_pushes W cap (es2 ++ es1) ->
  count is_take es1 <= count is_reserve es1 <= count is_take es1 + cap.
Proof.
  intros T W cap pol o es2 es1 Hwf Ho Hh Hf. destruct (history_chain W cap pol o Hwf Ho _ Hh Hf) as [q Hq].
  destruct (chain_suffix _ _ _ _ _ _ _ Hq) as [q1 Hq1]. exact (chain_counts _ _ _ _ _ _ Hq1).
Qed.
Print Assumptions C47_capacity.

Theorem C47_per_producer_order : forall T W cap (pol : policy T) o es i,
  wf W cap -> sound_orders o -> weak_history W cap pol o es -> few_pushes W cap es ->
  exists rest, sent_by i es = received_from i es ++ rest.
Proof.
  intros T W cap pol o es i Hwf Ho Hh Hf. exact (ch_per_producer _ _ _ _ i es (history_chain W cap pol o Hwf Ho es Hh Hf)).
Qed.
Print Assumptions C47_per_producer_order.

(** The element a push handle exposes is new or the one left behind [cap] places earlier, recycled. *)
Theorem C47_element : forall T W cap (pol : policy T) o es2 i v es1,
  wf W cap -> sound_orders o -> weak_history W cap pol o (es2 ++ HandOut i v :: es1) ->
  few_pushes W cap (es2 ++ HandOut i v :: es1) ->
  exists n, last_is i (reservers es1) n = true /\ committed es1 n = None /\
    ((n < cap /\ v = new_element pol) \/
     (cap <= n /\ exists old, released es1 (n - cap) = Some old /\ v = recycle pol old)).
Proof. intros T W cap pol o es2 i v es1 Hwf Ho. exact (weak_handout W cap pol o Hwf Ho es2 i v es1). Qed.
Print Assumptions C47_element.

(** What a handle publishes or leaves behind is what it was handed or last wrote itself. *)
Theorem C47_no_interference : forall T W cap (pol : policy T) o es2 e es1 i v,
  wf W cap -> sound_orders o -> weak_history W cap pol o (es2 ++ e :: es1) -> few_pushes W cap (es2 ++ e :: es1) ->
  e = Commit i v \/ e = Release i v -> content i es1 = Some v.
Proof. intros T W cap pol o es2 e es1 i v Hwf Ho. exact (weak_content W cap pol o Hwf Ho es2 e es1 i v). Qed.
Print Assumptions C47_no_interference.

Example C47_case : taken_values wdemo_events = [10; 20; 30] /\
  wdemo_events = wafter 6 ++ Take 3 20 :: wbefore 6 /\
  wdemo_events = wafter 13 ++ HandOut 4 1007 :: wbefore 13 /\ released (wbefore 13) 0 = Some 7 /\
  wdemo_events = wafter 16 ++ Release 3 7 :: wbefore 16 /\
  sent_by 4 wdemo_events = [30] /\ count is_reserve (wbefore 14) = 2.
Proof. repeat split. Qed.

(** ** C48.  Publication: completing a push happens before the dequeue of its element, so everything the sender did
    before it is visible to the receiver ... *)
Theorem C48_publication : forall T W cap (pol : policy T) o es s a s' i v,
  let P := core_new W (N.of_nat cap) in
  wf W cap -> sound_orders o -> weak_run P pol o es s -> few_pushes W cap es ->
  weak_step P pol o s a = Some (s', Some (Take i v)) ->
  exists es2 es1, completes (length (taken_values es)) v es2 es1 es /\ known (w_views s i) es1.
Proof.
  intros T W cap pol o es s a s' i v P Hwf Ho. rewrite taken_length.
  exact (weak_publication W cap pol o Hwf Ho es s a s' i v).
Qed.
Print Assumptions C48_publication.

Example C48_case : exists s a s', weak_run (core_new 64 2) demo_policy code_orders (wbefore 6) s /\
  weak_step (core_new 64 2) demo_policy code_orders s a = Some (s', Some (Take 3 20)) /\
  wbefore 6 = skipn 7 (wafter 27) ++ Commit 2 20 :: wbefore 27.
Proof. destruct (wdemo_step 6 _ eq_refl) as (s & a & s' & H1 & H2). exists s, a, s'. auto. Qed.

(** ... and giving an element back happens before the push that reuses its slot. *)
Theorem C48_reuse : forall T W cap (pol : policy T) o es s a s' i,
  let P := core_new W (N.of_nat cap) in
  wf W cap -> sound_orders o -> weak_run P pol o es s -> few_pushes W cap es ->
  weak_step P pol o s a = Some (s', Some (Reserve i)) -> cap <= count is_reserve es ->
  exists old es2 es1, gives_back (count is_reserve es - cap) old es2 es1 es /\ known (w_views s i) es1.
Proof. intros T W cap pol o es s a s' i P Hwf Ho. exact (weak_reuse W cap pol o Hwf Ho es s a s' i). Qed.
Print Assumptions C48_reuse.

Example C48_reuse_case : exists s a s', weak_run (core_new 64 2) demo_policy code_orders (wbefore 14) s /\
  weak_step (core_new 64 2) demo_policy code_orders s a = Some (s', Some (Reserve 4)) /\
  2 <= count is_reserve (wbefore 14) /\ released (wbefore 14) 0 = Some 7.
Proof.
  destruct (wdemo_step 14 _ eq_refl) as (s & a & s' & H1 & H2). exists s, a, s'. repeat (split; auto).
Qed.

(** ** C49.  Results.  Full, Closed (push), Closed (pop) and success are truthful at the moment the call returns. *)
Theorem C49_results : forall T W cap (pol : policy T) o es s a s' i e,
  let P := core_new W (N.of_nat cap) in
  wf W cap -> sound_orders o -> weak_run P pol o es s -> few_pushes W cap es ->
  weak_step P pol o s a = Some (s', Some e) ->
  (e = RetFull i -> occupancy es = cap) /\
  (e = RetPushClosed i -> closed_in es = true) /\
  (e = RetPopClosed i -> closed_in es = true /\ occupancy es = 0) /\
  (e = Reserve i -> closed_in es = false /\ occupancy es < cap).
Proof.
  intros T W cap pol o es s a s' i e P Hwf Ho Hr Hf Hs. repeat match goal with |- _ /\ _ => split end; intros ->.
  - exact (weak_full W cap pol o Hwf Ho es s a s' i Hr Hf Hs).
  - exact (weak_push_closed W cap pol o Hwf Ho es s a s' i Hr Hf Hs).
  - exact (weak_pop_closed W cap pol o Hwf Ho es s a s' i Hr Hf Hs).
  - exact (weak_reserve W cap pol o Hwf Ho es s a s' i Hr Hf Hs).
Qed.
Print Assumptions C49_results.

Example C49_results_case :
  (exists s a s', weak_run (core_new 64 2) demo_policy code_orders (wbefore 22) s /\
     weak_step (core_new 64 2) demo_policy code_orders s a = Some (s', Some (RetFull 4))) /\
  (exists s a s', weak_run (core_new 64 2) demo_policy code_orders (wbefore 8) s /\
     weak_step (core_new 64 2) demo_policy code_orders s a = Some (s', Some (RetPushClosed 2))) /\
  (exists s a s', weak_run (core_new 64 2) demo_policy code_orders (wbefore 0) s /\
     weak_step (core_new 64 2) demo_policy code_orders s a = Some (s', Some (RetPopClosed 3))).
Proof. exact (conj (wdemo_step 22 _ eq_refl) (conj (wdemo_step 8 _ eq_refl) (wdemo_step 0 _ eq_refl))). Qed.

(** A pop returns Empty only if the caller had not seen, when the call started, the completion of some push [n]
    among those dequeued so far and the next one (nor its dequeue). *)
Theorem C49_empty : forall T W cap (pol : policy T) o es s a s' i,
  let P := core_new W (N.of_nat cap) in
  wf W cap -> sound_orders o -> weak_run P pol o es s -> few_pushes W cap es ->
  weak_step P pol o s a = Some (s', Some (RetEmpty i)) ->
  exists n, n <= length (taken_values es) /\
    (forall v es2 es1, completes n v es2 es1 es -> ~ known (w_call s i) es1) /\
    (forall j v es2 es1, es = es2 ++ Take j v :: es1 -> length (taken_values es1) = n -> ~ known (w_call s i) es1).
Proof.
  intros T W cap pol o es s a s' i P Hwf Ho Hr Hf Hs.
  destruct (weak_empty W cap pol o Hwf Ho es s a s' i Hr Hf Hs) as (n & H1 & H2 & H3).
  exists n. rewrite taken_length. split; [exact H1|]. split; [exact H2|].
  intros j v es2 es1. rewrite taken_length. apply H3.
Qed.
Print Assumptions C49_empty.

(** With one consumer: Empty is not returned once completing the oldest element happens before the call. *)
Theorem C49_single_consumer : forall T W cap (pol : policy T) o es s a s' i v es2 es1,
  let P := core_new W (N.of_nat cap) in
  wf W cap -> sound_orders o -> weak_run P pol o es s -> few_pushes W cap es ->
  weak_step P pol o s a = Some (s', Some (RetEmpty i)) ->
  (forall j w, In (Take j w) es -> j = i) ->
  completes (length (taken_values es)) v es2 es1 es -> ~ known (w_call s i) es1.
Proof.
  intros T W cap pol o es s a s' i v es2 es1 P Hwf Ho Hr Hf Hs H1. rewrite taken_length.
  exact (weak_single W cap pol o Hwf Ho es s a s' i Hr Hf Hs H1 v es2 es1).
Qed.
Print Assumptions C49_single_consumer.

Example C49_empty_case : exists s a s', weak_run (core_new 64 2) demo_policy code_orders (wbefore 20) s /\
  weak_step (core_new 64 2) demo_policy code_orders s a = Some (s', Some (RetEmpty 3)) /\
  (forall j w, In (Take j w) (wbefore 20) -> j = 3) /\
  completes (length (taken_values (wbefore 20))) 10 (firstn 3 (wbefore 20)) (wbefore 24) (wbefore 20).
Proof.
  destruct (wdemo_step 20 _ eq_refl) as (s & a & s' & H1 & H2). exists s, a, s'. split; [exact H1|]. split; [exact H2|].
  split; [|exists 1; split; reflexivity].
  intros j w H. vm_compute in H. repeat (destruct H as [H|H]; [discriminate|]). destruct H.
Qed.

(** What C03 says under sequential consistency is false on weak memory: a pop may return Empty although
    throughout the call the oldest element was complete. *)
Theorem C49_empty_truthful_refuted : exists es2 i es1,
  weak_history 64 2 demo_policy code_orders (es2 ++ RetEmpty i :: es1) /\ few_pushes 64 2 (es2 ++ RetEmpty i :: es1) /\
  forall es0, In es0 (moments i es1) -> committed es0 (length (taken_values es0)) = Some 10.
Proof.
  exists (wafter 20), 3, (wbefore 20). split; [exact wdemo_history|]. split; [exact wdemo_few|].
  intros es0 H. vm_compute in H. repeat (destruct H as [<-|H]; [reflexivity|]). destruct H.
Qed.
Print Assumptions C49_empty_truthful_refuted.
