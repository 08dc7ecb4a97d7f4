(** Theorems about the receiver's wait cell on weak memory ([WeakCellModel]): C50.

    [k] gives the memory orderings of the accesses to the lock word; [code_cell_orders] are those of the code. *)
From Coq Require Import List Bool Arith NArith Lia.
From Verif Require Import WaitCellModel WaitCellSpec WaitCellFacts WeakCellModel WeakCellSpec WeakCellFacts.
Import ListNotations.

Lemma kexec_run debug k l s es s' es' : krun debug k es s -> kexec debug k s es l = Some (s', es') -> krun debug k es' s'.
Proof.
  revert s es. induction l as [|a l IH]; simpl; intros s es Hr H.
  - injection H as <- <-. exact Hr.
  - destruct (kstep debug k s a) as [[s1 e]|] eqn:E; [|discriminate].
    eapply IH; [|exact H]. exact (krun_step debug k es s a s1 e Hr E).
Qed.
Lemma kcase debug k l (P : wcell -> list wevent -> Prop) :
  match kexec debug k wcell_init [] l with Some (s, es) => P s es | None => False end -> exists s es, krun debug k es s /\ P s es.
Proof.
  pose proof (kexec_run debug k l wcell_init []) as H. destruct (kexec debug k wcell_init [] l) as [[s es]|]; [|tauto].
  intros HP. exists s, es. split; [apply H; [constructor|reflexivity]|exact HP].
Qed.

Definition kreg (i w : nat) : list kaction := [KWait i w false; KStep i None; KStep i None; KStep i None].
Definition knote (i : nat) (c : bool) : list kaction := [KNotify i c; KStep i None; KStep i None; KStep i None].

(** C50.  No access to the stored waker is a data race. *)
Theorem C50_no_data_race : forall debug k es s,
  sound_cell k -> krun debug k es s -> wc_races s = [].
Proof. intros debug k es s Hk Hr. exact (ri_races _ (krun_races debug k es s Hk Hr)). Qed.
Print Assumptions C50_no_data_race.

Theorem C50_code : forall debug es s, krun debug code_cell_orders es s -> wc_races s = [].
Proof. intros debug es s. apply C50_no_data_race. constructor; reflexivity. Qed.
Print Assumptions C50_code.

(** A registration, a notification that takes the waker, a registration overtaken by a notification, and a
    compare_exchange that reads an old value (7 answered Notified although the cell is free again). *)
Definition kdemo : list kaction :=
  kreg 0 7 ++ knote 1 false ++ [KStep 1 None; KStep 1 None]
  ++ [KWait 0 8 false; KStep 0 (Some 3); KStep 0 None; KStep 0 None]
  ++ [KWait 0 9 false; KStep 0 None; KStep 0 None; KNotify 2 true; KStep 2 None; KStep 0 (Some 6); KStep 0 None; KStep 0 None;
      KStep 0 None; KStep 0 None; KStep 0 None].
Definition kdemo_events : list wevent :=
  [RetWait 0 Closed; Woke 0 9; Fetched 2 true; CallNotify 2 true; Registered 0 9; CallWait 0 9 false;
   RetWait 0 Notified; Woke 0 8; CallWait 0 8 false; RetNotify 1 true; Woke 1 7; Took 1 (Some 7); Fetched 1 false; CallNotify 1 false;
   RetWait 0 Wait; Registered 0 7; CallWait 0 7 false].
Example C50_case : exists s es, krun true code_cell_orders es s /\ es = kdemo_events /\ wc_acc s = 4.
Proof. apply (kcase true code_cell_orders kdemo (fun s es => es = kdemo_events /\ wc_acc s = 4)). vm_compute. auto. Qed.

(** Each of the five orders that [sound_cell] asks for is needed: without it there is a race. *)
Theorem C50_park_must_acquire : exists s es, krun true (mkK Relaxed AcqRel Acquire AcqRel AcqRel AcqRel) es s /\ In 0 (wc_races s).
Proof. apply (kcase true _ (knote 1 false ++ kreg 0 7) (fun s es => In 0 (wc_races s))). vm_compute. auto. Qed.
Print Assumptions C50_park_must_acquire.
Theorem C50_unpark_must_release : exists s es, krun true (mkK Acquire Acquire Acquire AcqRel AcqRel AcqRel) es s /\ In 1 (wc_races s).
Proof. apply (kcase true _ (kreg 0 7 ++ knote 1 false) (fun s es => In 1 (wc_races s))). vm_compute. auto. Qed.
Print Assumptions C50_unpark_must_release.
Theorem C50_reset_must_release : exists s es, krun true (mkK Acquire AcqRel Acquire Acquire AcqRel AcqRel) es s /\ In 1 (wc_races s).
Proof.
  apply (kcase true _ ([KWait 0 7 false; KStep 0 None; KStep 0 None; KNotify 2 false; KStep 2 None; KStep 0 (Some 2);
    KStep 0 None; KStep 0 None] ++ knote 1 false) (fun s es => In 1 (wc_races s))). vm_compute. auto.
Qed.
Print Assumptions C50_reset_must_release.
Theorem C50_notify_must_acquire : exists s es, krun true (mkK Acquire AcqRel Acquire AcqRel Release AcqRel) es s /\ In 1 (wc_races s).
Proof. apply (kcase true _ (kreg 0 7 ++ knote 1 false) (fun s es => In 1 (wc_races s))). vm_compute. auto. Qed.
Print Assumptions C50_notify_must_acquire.
Theorem C50_unlock_must_release : exists s es, krun true (mkK Acquire AcqRel Acquire AcqRel AcqRel Acquire) es s /\ In 0 (wc_races s).
Proof. apply (kcase true _ (knote 1 false ++ kreg 0 7) (fun s es => In 0 (wc_races s))). vm_compute. auto. Qed.
Print Assumptions C50_unlock_must_release.

(** What C19-C21 and C42 say of the cell holds on weak memory, whatever the orderings. *)
Theorem C50_no_assertion_fails : forall debug k es s i, krun debug k es s -> no_panic es -> ~ In (Asserted i) es.
Proof. intros debug k es s i Hr Hn. exact (krun_no_assert debug k es s Hr Hn i). Qed.
Print Assumptions C50_no_assertion_fails.

Theorem C50_woken : forall debug k es s r w later,
  krun debug k es s -> single_waiter r es -> parked r es = Some (w, later) -> existsb is_fetched later = true ->
  (exists j, In (Woke j w) later) \/ (exists j, about_to_wake (wc_sys s) j w).
Proof.
  intros debug k es s r w later Hr HS Hp Hf.
  destruct (krun_single debug k r es s Hr HS) as [_ HP]. destruct (HP w later Hp) as [_ [(H & _)|[H|H]]]; auto. congruence.
Qed.
Print Assumptions C50_woken.

Theorem C50_latest_waker : forall debug k es2 j w es1 s,
  krun debug k (es2 ++ Took j (Some w) :: es1) s -> last_registered es1 = Some w.
Proof. intros debug k es2 j w es1 s. exact (ktook_latest debug k es2 j w es1 s). Qed.
Print Assumptions C50_latest_waker.

Theorem C50_closed_truthful : forall debug k es2 i es1 s,
  krun debug k (es2 ++ RetWait i Closed :: es1) s -> exists j, In (Fetched j true) es1.
Proof.
  intros debug k es2 i es1 s H. apply kclosed_truthful in H. apply existsb_exists in H as (e & Hin & He).
  destruct e as [| | | | |j [|]| | | |]; try discriminate. exists j. exact Hin.
Qed.
Print Assumptions C50_closed_truthful.

(** Calls finish within eight own steps. *)
Theorem C50_wait_free : forall debug k s i x s' e,
  kstep debug k s (KStep i x) = Some (s', e) ->
  steps_left (ws_pc (wc_sys s') i) < steps_left (ws_pc (wc_sys s) i) <= 8.
Proof.
  intros debug k s i x s' e H. split; [exact (kprogress debug k s i x s' e H)|].
  destruct (ws_pc (wc_sys s) i); simpl; lia.
Qed.
Print Assumptions C50_wait_free.

(** Thread 0 was told to wait with waker 7 and 1, which has taken it, has not woken it yet. *)
Example C50_woken_case : exists s es, krun true code_cell_orders es s /\ single_waiter 0 es /\ no_panic es /\
  parked 0 es = Some (7, [Took 1 (Some 7); Fetched 1 false; CallNotify 1 false]) /\ about_to_wake (wc_sys s) 1 7 /\
  es = [] ++ Took 1 (Some 7) :: [Fetched 1 false; CallNotify 1 false; RetWait 0 Wait; Registered 0 7; CallWait 0 7 false].
Proof.
  apply (kcase true code_cell_orders (kreg 0 7 ++ knote 1 false) (fun s es => single_waiter 0 es /\ no_panic es /\
    parked 0 es = Some (7, [Took 1 (Some 7); Fetched 1 false; CallNotify 1 false]) /\ about_to_wake (wc_sys s) 1 7 /\
    es = [] ++ Took 1 (Some 7) :: [Fetched 1 false; CallNotify 1 false; RetWait 0 Wait; Registered 0 7; CallWait 0 7 false])).
  vm_compute. split; [intros i w pan; intuition congruence|]. split; [intros i w; intuition discriminate|]. auto.
Qed.
Example C50_closed_case : exists s es, krun true code_cell_orders es s /\
  es = [] ++ RetWait 0 Closed :: skipn 1 kdemo_events.
Proof. apply (kcase true code_cell_orders kdemo (fun s es => es = [] ++ RetWait 0 Closed :: skipn 1 kdemo_events)). vm_compute. auto. Qed.

(** Unlike under sequential consistency (C31): a registration that starts after close_tx took effect may be told
    Notified, having read an old value of the lock; the caller then tries again. *)
Theorem C50_closed_answer_refuted : exists s es,
  krun true code_cell_orders es s /\ exists es1, es = RetWait 0 Notified :: es1 /\ closed_at_call 0 es1 = true.
Proof.
  apply (kcase true code_cell_orders (knote 1 false ++ [KStep 1 None] ++ knote 2 true ++ [KStep 2 None; KWait 0 7 false; KStep 0 (Some 1); KStep 0 None; KStep 0 None])
    (fun s es => exists es1, es = RetWait 0 Notified :: es1 /\ closed_at_call 0 es1 = true)).
  vm_compute. eexists. split; reflexivity.
Qed.
Print Assumptions C50_closed_answer_refuted.
