(** Theorems about the receiver's wait cell.  [debug] is cfg(debug_assertions). *)
From Coq Require Import List Bool Arith NArith Lia.
From Verif Require Import WaitCellModel WaitCellSpec WaitCellFacts.
Import ListNotations.

(** A schedule in which receiver 0 registers waker 7 and two senders (1, 2) and
    the last sender's close (3) overlap: 1 gets the lock, 2 and 3 return while 1
    still holds the waker. *)
Definition overlap_prefix : list waction :=
  [WACall 0 7 false; WAStep 0; WAStep 0; WAStep 0; WANotify 1 false; WANotify 2 false; WAStep 1; WAStep 2; WAStep 2;
   WANotify 3 true; WAStep 3; WAStep 3].
Definition overlap_events : list wevent :=
  [RetNotify 3 false; Fetched 3 true; CallNotify 3 true; RetNotify 2 false; Fetched 2 false; Fetched 1 false;
   CallNotify 2 false; CallNotify 1 false; RetWait 0 Wait; Registered 0 7; CallWait 0 7 false].

Definition events_of (r : option (wsys * list wevent)) : option (list wevent) := option_map snd r.

Lemma wexec_run debug l s es s' es' : wrun debug es s -> wexec debug s es l = Some (s', es') -> wrun debug es' s'.
Proof.
  revert s es. induction l as [|a l IH]; simpl; intros s es Hr H.
  - injection H as <- <-. exact Hr.
  - destruct (wstep_sys debug s a) as [[s1 e]|] eqn:E; [|discriminate].
    eapply IH; [|exact H]. exact (wrun_step debug es s a s1 e Hr E).
Qed.

Lemma wcase debug l (P : wsys -> list wevent -> Prop) :
  match wexec debug winit [] l with Some (s, es) => P s es | None => False end -> exists s es, wrun debug es s /\ P s es.
Proof.
  pose proof (wexec_run debug l winit []) as H. destruct (wexec debug winit [] l) as [[s es]|]; [|tauto].
  intros HP. exists s, es. split; [apply H; [constructor|reflexivity]|exact HP].
Qed.

(** C19.  At most one thread is about to read or write the stored waker; this
    holds for any number of threads in wait_with, notify and close_tx. *)
Theorem C19_no_data_race : forall debug es s i j,
  wrun debug es s -> touches_waiter (ws_pc s i) = true -> touches_waiter (ws_pc s j) = true -> i = j.
Proof. intros debug es s i j. exact (accesses_exclusive debug es s i j). Qed.
Print Assumptions C19_no_data_race.

(** No debug assertion of the cell fails unless cloning a waker panics. *)
Theorem C19_no_assertion_fails : forall debug es s i,
  wrun debug es s -> no_panic es -> ~ In (Asserted i) es.
Proof. intros debug es s i Hr Hn. exact (no_assert debug es s Hr Hn i). Qed.
Print Assumptions C19_no_assertion_fails.

Example C19_case : exists s es, wrun true es s /\ touches_waiter (ws_pc s 1) = true /\
  ws_pc s 0 = WCas1 8 false /\ ws_pc s 2 = NOr false.
Proof.
  apply (wcase true [WACall 0 7 false; WAStep 0; WAStep 0; WAStep 0; WANotify 1 false; WANotify 2 false; WAStep 1; WACall 0 8 false]
    (fun s es => touches_waiter (ws_pc s 1) = true /\ ws_pc s 0 = WCas1 8 false /\ ws_pc s 2 = NOr false)).
  vm_compute. auto.
Qed.

(** C20.  The receiver [r] was told to wait with waker [w]; if any notify or
    close_tx took effect since, [w] was woken, or some thread in the middle of its
    notify call is about to wake it.  (Any number of notifiers.) *)
Theorem C20_woken : forall debug es s r w later,
  wrun debug es s -> single_waiter r es -> parked r es = Some (w, later) ->
  existsb is_fetched later = true ->
  (exists k, In (Woke k w) later) \/ (exists k, about_to_wake s k w).
Proof.
  intros debug es s r w later Hr HS Hp Hf.
  destruct (wrun_parked debug r es s Hr HS w later Hp) as [_ [(H & _)|[H|H]]].
  - congruence.
  - right. exact H.
  - left. exact H.
Qed.
Print Assumptions C20_woken.

(** When no call is in progress it has been woken. *)
Theorem C20_woken_quiet : forall debug es s r w later,
  wrun debug es s -> single_waiter r es -> parked r es = Some (w, later) ->
  existsb is_fetched later = true -> quiet s -> exists k, In (Woke k w) later.
Proof.
  intros debug es s r w later Hr HS Hp Hf Hq.
  destruct (C20_woken debug es s r w later Hr HS Hp Hf) as [H|[k H]]; [exact H|].
  unfold about_to_wake in H. rewrite Hq in H. destruct H.
Qed.
Print Assumptions C20_woken_quiet.

(** As long as nothing took effect, [w] is still the one stored. *)
Theorem C20_still_registered : forall debug es s r w later,
  wrun debug es s -> single_waiter r es -> parked r es = Some (w, later) ->
  existsb is_fetched later = false ->
  w_waiter (ws_cell s) = Some w \/ (exists k, In (Woke k w) later) \/ (exists k, about_to_wake s k w).
Proof.
  intros debug es s r w later Hr HS Hp Hf.
  destruct (wrun_parked debug r es s Hr HS w later Hp) as [_ [(_ & H & _)|[H|H]]]; auto.
Qed.
Print Assumptions C20_still_registered.

(** Every call on the cell finishes within at most 8 of its own steps, whatever
    the other threads do. *)
Theorem C20_wait_free : forall debug s i s' e,
  wstep_sys debug s (WAStep i) = Some (s', e) ->
  steps_left (ws_pc s' i) < steps_left (ws_pc s i) <= 8.
Proof.
  intros debug s i s' e H. destruct (wastep debug s i s' e H) as (c' & p' & H1 & -> & H2).
  cbn [ws_pc]. rewrite wset_same. pose proof (wstep_progress debug _ _ _ _ _ _ H2 H1).
  split; [assumption|]. destruct (ws_pc s i); simpl; lia.
Qed.
Print Assumptions C20_wait_free.

Example C20_case : exists s es, wrun true es s /\ es = overlap_events /\
  parked 0 es = Some (7, firstn 8 es) /\ existsb is_fetched (firstn 8 es) = true /\ about_to_wake s 1 7.
Proof.
  apply (wcase true overlap_prefix (fun s es => es = overlap_events /\
    parked 0 es = Some (7, firstn 8 es) /\ existsb is_fetched (firstn 8 es) = true /\ about_to_wake s 1 7)).
  vm_compute. auto.
Qed.

Example C20_case_single : single_waiter 0 overlap_events.
Proof. intros i w pan; simpl; intuition congruence. Qed.

Example C20_case_woken : exists s es, wrun true es s /\ es = Woke 1 7 :: Took 1 (Some 7) :: overlap_events.
Proof.
  apply (wcase true (overlap_prefix ++ [WAStep 1; WAStep 1; WAStep 1])
    (fun s es => es = Woke 1 7 :: Took 1 (Some 7) :: overlap_events)).
  vm_compute. auto.
Qed.

(** C21 (receiver).  The waker a sender takes out of the cell is the one stored
    last, and what a sender wakes is what it took. *)
Theorem C21_latest_waker : forall debug es2 k w es1 s,
  wrun debug (es2 ++ Took k (Some w) :: es1) s -> last_registered es1 = Some w.
Proof. intros debug es2 k w es1 s. exact (took_latest debug es2 k w es1 s). Qed.
Print Assumptions C21_latest_waker.

Theorem C21_woken_waker : forall debug r es2 k w es1 s,
  wrun debug (es2 ++ Woke k w :: es1) s -> single_waiter r (es2 ++ Woke k w :: es1) -> k <> r ->
  exists esb esa, es1 = esb ++ Took k (Some w) :: esa /\ last_registered esa = Some w.
Proof. intros debug r es2 k w es1 s. exact (woke_by debug r es2 k w es1 s). Qed.
Print Assumptions C21_woken_waker.

(** A receiver polled with 7 and then with 8: the next send wakes 8. *)
Example C21_case : exists s es, wrun true es s /\ es =
  [] ++ Woke 1 8 :: Took 1 (Some 8) :: [Fetched 1 false; CallNotify 1 false; RetWait 0 Wait; Registered 0 8; CallWait 0 8 false;
   RetWait 0 Wait; Registered 0 7; CallWait 0 7 false].
Proof.
  apply (wcase true [WACall 0 7 false; WAStep 0; WAStep 0; WAStep 0; WACall 0 8 false; WAStep 0; WAStep 0; WAStep 0;
     WANotify 1 false; WAStep 1; WAStep 1; WAStep 1; WAStep 1] (fun s es => es =
  [] ++ Woke 1 8 :: Took 1 (Some 8) :: [Fetched 1 false; CallNotify 1 false; RetWait 0 Wait; Registered 0 8; CallWait 0 8 false;
   RetWait 0 Wait; Registered 0 7; CallWait 0 7 false])).
  vm_compute. auto.
Qed.

(** C31 (cell).  A registration that starts after close_tx took effect is told
    Closed; and Closed is only answered when close_tx took effect. *)
Theorem C31_cell_closed : forall debug es2 i res es1 s,
  wrun debug (es2 ++ RetWait i res :: es1) s -> closed_at_call i es1 = true -> res = Closed.
Proof. intros debug es2 i res es1 s. exact (closed_answer debug es2 i res es1 s). Qed.
Print Assumptions C31_cell_closed.

Theorem C42_cell_closed_truthful : forall debug es2 i es1 s,
  wrun debug (es2 ++ RetWait i Closed :: es1) s -> exists k, In (Fetched k true) es1.
Proof.
  intros debug es2 i es1 s H. apply closed_truthful in H. apply existsb_exists in H as (e & Hin & He).
  destruct e as [| | | | |k [|]| | | |]; try discriminate. exists k. exact Hin.
Qed.
Print Assumptions C42_cell_closed_truthful.

Example C31_cell_case : exists s es, wrun true es s /\ es =
  [] ++ RetWait 0 Closed :: [CallWait 0 7 false; RetNotify 1 false; Took 1 None; Fetched 1 true; CallNotify 1 true].
Proof.
  apply (wcase true [WANotify 1 true; WAStep 1; WAStep 1; WAStep 1; WAStep 1; WACall 0 7 false; WAStep 0] (fun s es => es =
  [] ++ RetWait 0 Closed :: [CallWait 0 7 false; RetNotify 1 false; Took 1 None; Fetched 1 true; CallNotify 1 true])).
  vm_compute. auto.
Qed.

(** C43.  Whatever panics happened before: when no call is in progress and the
    channel is open, the cell is in its initial lock state, a registration
    succeeds, and the next notification wakes it. *)
Theorem C43_usable_after_panic : forall debug es s i j w,
  wrun debug es s -> quiet s -> closed_in es = false -> i <> j ->
  w_state (ws_cell s) = WAITING /\
  exists s', wexec debug s es ([WACall i w false; WAStep i; WAStep i; WAStep i; WANotify j false;
                               WAStep j; WAStep j; WAStep j; WAStep j; WAStep j])
    = Some (s', [RetNotify j true; Woke j w; Took j (Some w); Fetched j false; CallNotify j false;
                 RetWait i Wait; Registered i w; CallWait i w false] ++ es) /\ quiet s'.
Proof.
  intros debug es s i j w Hr Hq Hc Hij.
  exact (conj (quiet_state debug es s Hr Hq Hc) (usable debug es s i j w Hr Hq Hc Hij)).
Qed.
Print Assumptions C43_usable_after_panic.

(** A registration that panics while a notification arrives. *)
Example C43_case : exists s es, wrun true es s /\ quiet s /\
  es = [Unwound 0; RetNotify 1 false; Fetched 1 false; CallNotify 1 false; CallWait 0 7 true].
Proof.
  apply (wcase true [WACall 0 7 true; WAStep 0; WAStep 0; WANotify 1 false; WAStep 1; WAStep 1; WAStep 0;
    WAStep 0; WAStep 0; WAStep 0; WAStep 0; WAStep 0] (fun s es => quiet s /\
  es = [Unwound 0; RetNotify 1 false; Fetched 1 false; CallNotify 1 false; CallWait 0 7 true])).
  vm_compute. split; [|reflexivity]. intros [|[|i]]; reflexivity.
Qed.

(** A panicking clone racing with a send, when an earlier waker (7) is still
    registered, fails a debug assertion and the earlier waker is dropped unwoken;
    without debug assertions it is woken. *)
Theorem C43_debug_assertion_refuted : exists s es,
  wrun true es s /\ In (Asserted 0) es /\ single_waiter 0 es /\ w_waiter (ws_cell s) = None /\ forall k w, ~ In (Woke k w) es.
Proof.
  apply (wcase true [WACall 0 7 false; WAStep 0; WAStep 0; WAStep 0; WACall 0 8 true; WAStep 0; WAStep 0;
    WANotify 1 false; WAStep 1; WAStep 0; WAStep 0; WAStep 0; WAStep 0; WAStep 0]
   (fun s es => In (Asserted 0) es /\ single_waiter 0 es /\ w_waiter (ws_cell s) = None /\ forall k w, ~ In (Woke k w) es)).
  vm_compute. split; [now left|]. split; [intros i w pan; intuition congruence|].
  split; [reflexivity|]. intros k w. intuition discriminate.
Qed.
Print Assumptions C43_debug_assertion_refuted.

(** C44.  Two receives waiting at the same time: only the later one is woken. *)
Theorem C44_refuted : exists s es,
  wrun true es s /\ quiet s /\ parked 0 es <> None /\ parked 1 es <> None /\ no_panic es /\
  (exists k, In (Woke k 8) es) /\ (forall k, ~ In (Woke k 7) es) /\ w_waiter (ws_cell s) = None.
Proof.
  apply (wcase true [WACall 0 7 false; WAStep 0; WAStep 0; WAStep 0; WACall 1 8 false; WAStep 1; WAStep 1; WAStep 1;
    WANotify 2 false; WAStep 2; WAStep 2; WAStep 2; WAStep 2; WAStep 2; WANotify 2 false; WAStep 2; WAStep 2; WAStep 2; WAStep 2]
   (fun s es => quiet s /\ parked 0 es <> None /\ parked 1 es <> None /\ no_panic es /\
  (exists k, In (Woke k 8) es) /\ (forall k, ~ In (Woke k 7) es) /\ w_waiter (ws_cell s) = None)).
  vm_compute.
  split; [intros [|[|[|i]]]; reflexivity|]. split; [discriminate|]. split; [discriminate|].
  split; [intros i w; intuition discriminate|]. split; [exists 2; tauto|].
  split; [intros k; intuition discriminate|reflexivity].
Qed.
Print Assumptions C44_refuted.
