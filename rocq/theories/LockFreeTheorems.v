(** Theorems about system-wide progress of the ring: C60.
    [wf W cap]: 0 < cap and 4 * cap < 2^W, where W is the width of usize. *)
From Coq Require Import List Bool Arith NArith Lia.
From Verif Require Import Word QueueSpec CoreModel CoreArith CoreInv CoreStep RingSpec RingFacts SeqModel SoloSpec SoloFacts SeqTheorems Demo
  LockFreeSpec LockFree History.
Import ListNotations.

(** C60.  Take any reachable state, any calls in progress there, and any schedule in which no compare_exchange_weak fails without
    cause.  While none of the running calls gets anywhere (reserves a place, is handed an element, takes one or returns), they make
    at most 13 steps each on average, unless a slot that one of them needs is kept busy by an agent that does not run. *)
Theorem C60_lock_free : forall T W cap (pol : policy T) es s A ls l s',
  let P := core_new W (N.of_nat cap) in
  wf W cap -> run P pol es s -> exec P pol s es ls = Some (s', l ++ es) -> calm (slack W cap) (l ++ es) ->
  only_steps A ls -> (forall i j, runs_in ls i -> in_the_way P s i j -> runs_in ls j) ->
  (forall e, In e l -> got_somewhere e = false) -> length ls <= 13 * length A.
Proof.
  intros T W cap pol es s A ls l s' P Hwf Hr He HC Ho Hw Hq.
  exact (quiet_bound W cap pol Hwf A ls s es s' l Hr HC Ho Hw He Hq).
Qed.
Print Assumptions C60_lock_free.

(** So the work is bounded by what is achieved: however calls, steps, writes, drops and closes are interleaved, as long as nobody
    keeps the slot at the tail busy or has a handle to the slot at the head, the number of steps is at most 13 for every running
    agent and every event (a call starts, reserves, takes, returns, a handle is written or dropped, ...) or spurious failure. *)
Theorem C60_bounded_work : forall T W cap (pol : policy T) es s A ls l s',
  let P := core_new W (N.of_nat cap) in
  wf W cap -> run P pol es s -> exec P pol s es ls = Some (s', l ++ es) -> calm (slack W cap) (l ++ es) ->
  (forall i, runs_in ls i -> In i A) ->
  (forall ls1 ls2 s1 es1, ls = ls1 ++ ls2 -> exec P pol s es ls1 = Some (s1, es1) -> nothing_in_the_way P s1) ->
  length ls <= (13 * length A + 1) * (length l + spurious ls + 1).
Proof.
  intros T W cap pol es s A ls l s' P Hwf Hr He HC HA Hw.
  exact (bounded_work W cap pol Hwf A (length ls) ls s es s' l (le_n _) Hr HC HA Hw He).
Qed.
Print Assumptions C60_bounded_work.

(** The exception is real. *)
Section Stuck.
  Context {T : Type} (P : params) (pol : policy T) (c : core T) (A : agent -> bool) (X : agent -> pc -> Prop).
  Hypothesis HX : forall i p spur, X i p -> stepping p = true /\ exists p', cstep P pol c i p spur = (c, p', None) /\ X i p'.
  Lemma stuck ls : forall s es, (forall a, In a ls -> exists i spur, A i = true /\ a = AStep i spur) ->
    st_core s = c -> (forall i, A i = true -> X i (st_agents s i)) -> exists s', exec P pol s es ls = Some (s', es).
  Proof.
    induction ls as [|a ls IH]; intros s es Ha Hc Hs; cbn [exec]; [eauto|].
    destruct (Ha a (or_introl eq_refl)) as (i & spur & Hi & ->). cbn [step].
    destruct (HX i _ spur (Hs i Hi)) as (Hst & p' & Ep & Hp). rewrite Hst, Hc, Ep. cbn [ocons].
    apply IH; [intros a0 H0; apply Ha; now right|reflexivity|]. cbn [st_agents]. intros j Hj. unfold upd.
    destruct (Nat.eqb_spec j i) as [->|]; auto.
  Qed.
End Stuck.

(** The queue, documented as lock-free (thingbuf.rs:11), is not: here a queue of capacity 1 is open, nobody has a Ref, one push was
    suspended while it initialises the slot it reserved, and two other pushes run for ever, in any schedule, without either of them
    (or anyone) getting anywhere. *)
Definition suspended_schedule : list (@action nat) :=
  [AInvoke 1 OpPush] ++ steps 1 3 ++ [AInvoke 2 OpPush; AInvoke 3 OpPush].
Theorem C60_refuted : exists W cap (pol : policy nat) es s,
  let P := core_new W (N.of_nat cap) in
  wf W cap /\ run P pol es s /\ calm (slack W cap) es /\
  (exists t, st_agents s 1 = PInit t) /\ st_agents s 2 = PStart /\ st_agents s 3 = PStart /\
  (forall j, j <> 1 -> j <> 2 -> j <> 3 -> st_agents s j = Idle) /\
  forall ls, (forall a, In a ls -> exists i spur, (i = 2 \/ i = 3) /\ a = AStep i spur) ->
    exists s', exec P pol s es ls = Some (s', es).
Proof.
  exists 64%N, 1, demo_policy.
  destruct (exec (core_new 64 1) demo_policy (init_state (core_new 64 1)) [] suspended_schedule) as [[s es]|] eqn:E; [|vm_compute in E; discriminate E].
  exists es, s. pose proof (exec_run _ _ _ _ _ _ _ (run_init _ _) E) as Hr. change (N.of_nat 1) with 1%N. cbn zeta.
  assert (Hwf : wf 64 1) by (split; [lia|reflexivity]).
  split; [exact Hwf|]. split; [exact Hr|].
  vm_compute in E. injection E as <- <-.
  split; [apply (calm_of_few 64 1 demo_policy Hwf _ (ex_intro _ _ Hr)); reflexivity|].
  split; [eexists; reflexivity|]. split; [reflexivity|]. split; [reflexivity|].
  split; [intros j H1 H2 H3; do 4 (destruct j as [|j]; [reflexivity || contradiction|]); reflexivity|].
  intros ls Hls.
  eapply (stuck _ _ _ (fun i => Nat.eqb i 2 || Nat.eqb i 3) (fun i p => p = PStart \/ p = PReload \/ p = PState 4)).
  2:{ intros a Ha. destruct (Hls a Ha) as (i & spur & Hi & ->). exists i, spur. split; [destruct Hi; subst i; reflexivity|reflexivity]. }
  2:reflexivity.
  - intros i p spur [->|[->| ->]]; (split; [reflexivity|]); eexists; (split; [vm_compute; reflexivity|auto]).
  - intros i Hi. apply orb_true_iff in Hi. destruct Hi as [Hi|Hi]; apply Nat.eqb_eq in Hi; subst i; left; reflexivity.
Qed.
Print Assumptions C60_refuted.

(** Worse, one thread that was suspended while it has an element popped can stop pushes and pops alike, of a queue with no element
    in it: none of the running calls succeeds or returns Full, Empty or Closed. *)
Theorem C60_all_stuck_refuted : exists W cap (pol : policy nat) es s,
  let P := core_new W (N.of_nat cap) in
  wf W cap /\ run P pol es s /\ calm (slack W cap) es /\ occupancy es = 0 /\
  (exists r, st_agents s 2 = QHold r) /\ st_agents s 4 = QStart /\ st_agents s 5 = PStart /\
  (forall j, j <> 2 -> j <> 4 -> j <> 5 -> st_agents s j = Idle) /\
  forall ls, (forall a, In a ls -> exists i spur, (i = 4 \/ i = 5) /\ a = AStep i spur) ->
    exists s', exec P pol s es ls = Some (s', es).
Proof.
  exists 64%N, 2, demo_policy.
  destruct (exec (core_new 64 2) demo_policy (init_state (core_new 64 2)) [] (held_schedule ++ [AInvoke 4 OpPop; AInvoke 5 OpPush]))
    as [[s es]|] eqn:E; [|vm_compute in E; discriminate E].
  exists es, s. pose proof (exec_run _ _ _ _ _ _ _ (run_init _ _) E) as Hr. change (N.of_nat 2) with 2%N. cbn zeta.
  split; [exact demo_wf|]. split; [exact Hr|].
  vm_compute in E. injection E as <- <-.
  split; [apply (calm_of_few 64 2 demo_policy demo_wf _ (ex_intro _ _ Hr)); reflexivity|]. split; [reflexivity|].
  split; [eexists; reflexivity|]. split; [reflexivity|]. split; [reflexivity|].
  split; [intros j H1 H2 H3; do 6 (destruct j as [|j]; [reflexivity || contradiction|]); reflexivity|].
  intros ls Hls.
  eapply (stuck _ _ _ (fun i => Nat.eqb i 4 || Nat.eqb i 5)
    (fun i p => (p = PStart \/ p = PReload \/ p = PState 8 \/ p = PHead 8) \/ (p = QStart \/ exists b, p = QReload b \/ p = QState 8 b))).
  2:{ intros a Ha. destruct (Hls a Ha) as (i & spur & Hi & ->). exists i, spur. split; [destruct Hi; subst i; reflexivity|reflexivity]. }
  2:reflexivity.
  - intros i p spur [[->|[->|[->| ->]]]|[->|[b [->| ->]]]]; (split; [reflexivity|]).
    + exists (PState 8). split; [vm_compute; reflexivity|auto].
    + exists (PState 8). split; [vm_compute; reflexivity|auto].
    + exists (PHead 8). split; [vm_compute; reflexivity|auto].
    + exists PReload. split; [vm_compute; reflexivity|auto].
    + exists (QState 8 0). split; [vm_compute; reflexivity|]. right; right; exists 0%N; right; reflexivity.
    + exists (QState 8 b). split; [vm_compute; reflexivity|]. right; right; exists b; right; reflexivity.
    + exists (QReload (backoff_spin_yield b)). split; [vm_compute; reflexivity|]. right; right; eexists; left; reflexivity.
  - intros i Hi. apply orb_true_iff in Hi. destruct Hi as [Hi|Hi]; apply Nat.eqb_eq in Hi; subst i; [right|left]; left; reflexivity.
Qed.
Print Assumptions C60_all_stuck_refuted.

(** The hypotheses are met: a push is suspended while it initialises slot 0; a pop looks for its element 11 times, and another push
    comes as far as slot 1, before anything happens. *)
Definition waiting_schedule : list (@action nat) := [AInvoke 1 OpPush] ++ steps 1 3 ++ [AInvoke 2 OpPush; AInvoke 3 OpPop].
Definition waiting_state : @state nat * list (event nat) :=
  match exec (core_new 64 2) demo_policy (init_state (core_new 64 2)) [] waiting_schedule with
  | Some x => x | None => (init_state (core_new 64 2), [])
  end.
Example C60_case : exists es s ls s',
  let P := core_new 64 2 in
  wf 64 2 /\ run P demo_policy es s /\ exec P demo_policy s es ls = Some (s', [] ++ es) /\ calm (slack 64 2) ([] ++ es) /\
  only_steps [2; 3] ls /\ length ls = 13 /\ (exists t, st_agents s 1 = PInit t) /\ (forall i j, ~ in_the_way P s i j).
Proof.
  exists (snd waiting_state), (fst waiting_state), (steps 3 7 ++ steps 2 2 ++ steps 3 4).
  assert (E : exec (core_new 64 2) demo_policy (init_state (core_new 64 2)) [] waiting_schedule = Some (fst waiting_state, snd waiting_state))
    by reflexivity.
  pose proof (exec_run _ _ _ _ _ _ _ (run_init _ _) E) as Hr.
  eexists. cbn zeta. split; [exact demo_wf|]. split; [exact Hr|]. split; [vm_compute; reflexivity|].
  split; [apply (calm_of_few 64 2 demo_policy demo_wf _ (ex_intro _ _ Hr)); reflexivity|].
  split; [intros a Ha; cbn in Ha; decompose [or] Ha; subst; try contradiction; eexists; (split; [|reflexivity]); cbn; auto|].
  split; [reflexivity|]. split; [eexists; reflexivity|].
  intros i j [(_ & _ & H)|(_ & H)]; revert H; do 4 (destruct j as [|j]; [vm_compute; discriminate|]); vm_compute; discriminate.
Qed.

(** And two pushes and two pops, the second push in the middle of the first, on a queue of capacity 3. *)
Definition free_schedule : list (@action nat) :=
  [AInvoke 1 OpPush; AInvoke 2 OpPush; AStep 1 false; AStep 2 false; AStep 1 false; AStep 2 false; AStep 2 true; AStep 1 false; AStep 1 false]
  ++ steps 2 5 ++ [AWrite 1 10; ADrop 1; AWrite 2 20; ADrop 2] ++ demo_pop 3 ++ [ADrop 3] ++ demo_pop 4.
Definition actor {T} (a : @action T) : agent :=
  match a with AInvoke i _ | AStep i _ | AWrite i _ | ADrop i | APanic i | AClose i _ => i end.
Lemma others_idle {T} P (pol : policy T) n ls : forall s es s' es', forallb (fun a => actor a <? n) ls = true ->
  (forall j, n <= j -> st_agents s j = Idle) -> exec P pol s es ls = Some (s', es') -> forall j, n <= j -> st_agents s' j = Idle.
Proof.
  induction ls as [|a ls IH]; intros s es s' es' Ha Hs H j Hj; cbn [exec] in H; [injection H as <- <-; auto|].
  cbn [forallb] in Ha. apply andb_true_iff in Ha. destruct Ha as [Ha Hl]. apply Nat.ltb_lt in Ha.
  destruct (step P pol s a) as [[s1 e]|] eqn:Ea; [|discriminate]. apply (IH s1 (ocons e es) s' es' Hl); auto. intros k Hk. specialize (Hs k Hk).
  destruct a as [i o|i sp|i v|i|i|i pa]; cbn [step actor] in *; destruct (st_agents s i); try discriminate; cbn [stepping] in Ea;
    repeat match type of Ea with context [let '(_, _) := ?x in _] => destruct x as [? ?] end;
    injection Ea as <- _; cbn [st_agents]; unfold upd; try (destruct (Nat.eqb_spec k i); [lia|]); auto.
Qed.
Definition clear_below (P : params) (n : nat) (s : @state nat) : bool :=
  forallb (fun j => match occupies P (st_agents s j) with Some k => negb (N.eqb k (tail_index P (st_core s))) | None => true end
                    && match pop_handle (st_agents s j) with Some k => negb (N.eqb k (head_index P (st_core s))) | None => true end) (seq 0 n).
Lemma clear_below_sound P n s : clear_below P n s = true -> (forall j, n <= j -> st_agents s j = Idle) -> nothing_in_the_way P s.
Proof.
  intros H Hi j. destruct (le_gt_dec n j) as [Hj|Hj]; [rewrite (Hi j Hj); split; discriminate|].
  unfold clear_below in H. rewrite forallb_forall in H. specialize (H j ltac:(apply in_seq; lia)). apply andb_true_iff in H. destruct H as [H1 H2].
  split; intros E; rewrite E in *; rewrite N.eqb_refl in *; discriminate.
Qed.
Lemma free_clear : forallb (fun n => match exec (core_new 64 3) demo_policy (init_state (core_new 64 3)) [] (firstn n free_schedule) with
    | Some (s1, _) => clear_below (core_new 64 3) 5 s1 | None => true end) (seq 0 30) = true.
Proof. vm_compute. reflexivity. Qed.

Example C60_work_case : exists s' l,
  let P := core_new 64 3 in
  let s := init_state P in
  wf 64 3 /\ exec P demo_policy s [] free_schedule = Some (s', l ++ []) /\ calm (slack 64 3) (l ++ []) /\
  (forall i, runs_in free_schedule i -> In i [1; 2; 3; 4]) /\
  (forall ls1 ls2 s1 es1, free_schedule = ls1 ++ ls2 -> exec P demo_policy s [] ls1 = Some (s1, es1) -> nothing_in_the_way P s1) /\
  count is_take l = 2.
Proof.
  assert (Hwf : wf 64 3) by (split; [lia|reflexivity]).
  destruct (exec (core_new 64 3) demo_policy (init_state (core_new 64 3)) [] free_schedule) as [[s' l]|] eqn:E; [|vm_compute in E; discriminate E].
  pose proof (exec_run _ _ _ _ _ _ _ (run_init _ _) E) as Hr.
  exists s', l. cbn zeta. rewrite app_nil_r. split; [exact Hwf|]. split; [exact E|].
  split; [apply (calm_of_few 64 3 demo_policy Hwf _ (ex_intro _ _ Hr)); clear Hr; vm_compute in E; injection E as <- <-; reflexivity|].
  split.
  { assert (HX : forallb (fun a : @action nat => match a with AStep i _ => existsb (Nat.eqb i) [1; 2; 3; 4] | _ => true end) free_schedule = true)
      by reflexivity.
    rewrite forallb_forall in HX. intros i [sp Hi]. specialize (HX _ Hi). apply existsb_exists in HX. destruct HX as (j & Hj & Ej).
    apply Nat.eqb_eq in Ej. subst j. exact Hj. }
  split; [|clear Hr; vm_compute in E; injection E as <- <-; reflexivity].
  clear. intros ls1 ls2 s1 es1 H He.
  assert (H1 : ls1 = firstn (length ls1) free_schedule) by (rewrite H, firstn_app, Nat.sub_diag, firstn_all, firstn_O, app_nil_r; reflexivity).
  assert (H2 : length ls1 < 30) by (apply (f_equal (@length _)) in H; rewrite app_length in H; cbn in H; lia).
  pose proof free_clear as Hc. rewrite forallb_forall in Hc. specialize (Hc (length ls1) ltac:(apply in_seq; lia)).
  rewrite <- H1, He in Hc. apply clear_below_sound with (n := 5); [exact Hc|].
  eapply others_idle with (3 := He); [|reflexivity].
  assert (HX : forallb (fun a => actor a <? 5) free_schedule = true) by reflexivity.
  rewrite H, forallb_app in HX. apply andb_true_iff in HX. exact (proj1 HX).
Qed.
