(** Theorems about len on weak memory ([WeakModel]): C61.

    The loads of len are SeqCst in the code (/repo/src/lib.rs:372, 373, 375); the theorems need only that they are
    (at least) acquire loads, and that the read-modify-writes of head and tail acquire and release. *)
From Coq Require Import List Bool Arith NArith Lia.
From Verif Require Import Word QueueSpec CoreModel CoreArith RingSpec RingFacts Demo WeakModel WeakSpec WeakFacts WeakTheorems WeakLen History.
Import ListNotations.

(** ** A concrete execution *)
(** 1 pushes two elements, 2 dequeues one.  3 reads an old tail (0) and the new head (1); it must then see the
    first reservation, so it starts over, and reads tail = 1, head = 1: nothing, as far as it knows.  Once it
    has heard of everything it is told 1. *)
Definition ldemo : list (waction (T := nat)) :=
  wpush 1 10 0 0 ++ wpush 1 20 1 0 ++ wpop 2 0 1
  ++ [XInvoke 3 OpLen; XStep 3 0 false; XStep 3 1 false; XStep 3 1 false; XStep 3 1 false; XStep 3 1 false; XStep 3 1 false]
  ++ [XSync 1 3; XSync 2 3; XInvoke 3 OpLen; XStep 3 2 false; XStep 3 1 false; XStep 3 2 false].
Definition ldemo_events : list (event nat) :=
  [RetLen 3 1; Invoke 3 OpLen; RetLen 3 0; Invoke 3 OpLen; Take 2 10; Invoke 2 OpPop; Commit 1 20; Wrote 1 20; HandOut 1 0; Reserve 1; Invoke 1 OpPush;
   Commit 1 10; Wrote 1 10; HandOut 1 0; Reserve 1; Invoke 1 OpPush].
Definition lbefore (k : nat) : list (event nat) := skipn (S k) ldemo_events.
Example ldemo_runs : weak_events 64 4 demo_policy code_orders ldemo = Some ldemo_events.
Proof. vm_compute. reflexivity. Qed.

Lemma weak_exec_run {T} P (pol : policy T) o l : forall es s s' es', weak_run P pol o es s ->
  weak_exec P pol o s es l = Some (s', es') -> weak_run P pol o es' s'.
Proof.
  induction l as [|a l IH]; intros es s s' es' Hr E; simpl in E.
  - injection E as <- <-. exact Hr.
  - destruct (weak_step _ _ _ s a) as [[s1 e]|] eqn:Es; [|discriminate]. eapply IH; [|exact E]. econstructor; eauto.
Qed.
(** The state before the last of the actions [l], and the state the last one leads to. *)
Definition last_of (cap : nat) (o : orders) (l : list (waction (T := nat))) : option (list (event nat) * wstate * waction * wstate * option (event nat)) :=
  let P := core_new 64 (N.of_nat cap) in
  match rev l with
  | a :: l' =>
      match weak_exec P demo_policy o (weak_init P) [] (rev l') with
      | Some (s, es) => match weak_step P demo_policy o s a with Some (s', e) => Some (es, s, a, s', e) | None => None end
      | None => None
      end
  | [] => None
  end.
Lemma last_of_run cap o l es s a s' e : last_of cap o l = Some (es, s, a, s', e) ->
  weak_run (core_new 64 (N.of_nat cap)) demo_policy o es s /\ weak_step (core_new 64 (N.of_nat cap)) demo_policy o s a = Some (s', e).
Proof.
  unfold last_of. destruct (rev l) as [|x l']; [discriminate|].
  destruct (weak_exec _ _ _ _ _ _) as [[s0 es0]|] eqn:E; [|discriminate].
  destruct (weak_step _ _ _ s0 x) as [[s1 e1]|] eqn:Es; [|discriminate]. intros H. injection H as <- <- <- <- <-.
  split; [|exact Es]. eapply weak_exec_run; [constructor|exact E].
Qed.

(** ** C61.  What len returns is the difference [t - h] of a tail and a head that fit together: at most [cap], from
    reservations and dequeues that have happened, including all of those that happen before the call. *)
Theorem C61_len : forall T W cap (pol : policy T) o es s a s' i n,
  let P := core_new W (N.of_nat cap) in
  wf W cap -> sound_orders o -> o_rmw o = true -> o_len o = true ->
  weak_run P pol o es s -> few_pushes W cap es ->
  weak_step P pol o s a = Some (s', Some (RetLen i n)) -> closed_in es = false ->
  exists t h, N.to_nat n = t - h /\ h <= t <= h + cap /\ t <= count is_reserve es /\ h <= count is_take es /\
    (forall j es2 es1, es = es2 ++ Reserve j :: es1 -> known (w_call s i) es1 -> count is_reserve es1 < t) /\
    (forall j v es2 es1, es = es2 ++ Take j v :: es1 -> known (w_call s i) es1 -> count is_take es1 < h).
Proof.
  intros T W cap pol o es s a s' i n P Hwf Ho H1 H2 Hr Hf Hs Hc.
  destruct (weak_len W cap pol o Hwf Ho H1 H2 es s a s' i n Hr Hf Hs Hc) as (t & h & E & E1 & E2 & E3 & E4 & E5).
  exists t, h. repeat (split; [assumption|]). split.
  - intros j es2 es1 -> Hk. apply (E4 (length es1)); [|exact Hk]. exists es2, (Reserve j), es1. repeat split.
  - intros j v es2 es1 -> Hk. apply (E5 (length es1)); [|exact Hk]. exists es2, (Take j v), es1. repeat split.
Qed.
Print Assumptions C61_len.

(** 3 has not heard of the second push: it is told 0. *)
Example C61_len_case : exists s a s', weak_run (core_new 64 4) demo_policy code_orders (lbefore 2) s /\
  weak_step (core_new 64 4) demo_policy code_orders s a = Some (s', Some (RetLen 3 0)) /\
  few_pushes 64 4 (lbefore 2) /\ closed_in (lbefore 2) = false /\ occupancy (lbefore 2) = 1.
Proof.
  destruct (last_of 4 code_orders (firstn (length ldemo - 6) ldemo)) as [[[[[es s] a] s'] e]|] eqn:E; [|vm_compute in E; discriminate E].
  assert (Eo : option_map (fun x => let '(es, _, _, _, e) := x in (es, e)) (last_of 4 code_orders (firstn (length ldemo - 6) ldemo)) =
    Some (lbefore 2, Some (RetLen 3 0%N))) by (vm_compute; reflexivity).
  rewrite E in Eo. cbn [option_map] in Eo. injection Eo as -> ->. apply last_of_run in E as [H1 H2].
  exists s, a, s'. split; [exact H1|]. split; [exact H2|]. repeat split.
Qed.

(** Somebody who has heard of every reservation and every dequeue is told the exact number ... *)
Theorem C61_len_exact : forall T W cap (pol : policy T) o es s a s' i n,
  let P := core_new W (N.of_nat cap) in
  wf W cap -> sound_orders o -> o_rmw o = true -> o_len o = true ->
  weak_run P pol o es s -> few_pushes W cap es ->
  weak_step P pol o s a = Some (s', Some (RetLen i n)) -> closed_in es = false ->
  (forall es2 e es1, es = es2 ++ e :: es1 -> is_reserve e = true \/ is_take e = true -> known (w_call s i) es1) ->
  N.to_nat n = occupancy es.
Proof. intros T W cap pol o es s a s' i n P Hwf Ho H1 H2. exact (weak_len_exact W cap pol o Hwf Ho H1 H2 es s a s' i n). Qed.
Print Assumptions C61_len_exact.

Example C61_len_exact_case : exists s a s', weak_run (core_new 64 4) demo_policy code_orders (lbefore 0) s /\
  weak_step (core_new 64 4) demo_policy code_orders s a = Some (s', Some (RetLen 3 1)) /\
  few_pushes 64 4 (lbefore 0) /\ closed_in (lbefore 0) = false /\
  (forall es2 e es1, lbefore 0 = es2 ++ e :: es1 -> is_reserve e = true \/ is_take e = true -> known (w_call s 3) es1).
Proof.
  destruct (last_of 4 code_orders ldemo) as [[[[[es s] a] s'] e]|] eqn:E; [|vm_compute in E; discriminate E].
  assert (Eo : option_map (fun x => let '(es, s, _, _, e) := x in (es, e, map (v_know (w_call s 3)) [1; 6; 11])) (last_of 4 code_orders ldemo) =
    Some (lbefore 0, Some (RetLen 3 1%N), [true; true; true])) by (vm_compute; reflexivity).
  rewrite E in Eo. cbn [option_map] in Eo. injection Eo as -> -> K1 K2 K3. apply last_of_run in E as [H1 H2].
  exists s, a, s'. split; [exact H1|]. split; [exact H2|]. split; [reflexivity|]. split; [reflexivity|].
  intros es2 x es1 Ex Hx. unfold known.
  assert (Hl : length es1 = length (lbefore 0) - S (length es2)).
  { rewrite Ex, app_length. simpl. lia. }
  assert (Hb : length es2 < 15). { assert (Hq := f_equal (@length _) Ex). rewrite app_length in Hq. simpl in Hq. lia. }
  assert (Hn : nth_error (lbefore 0) (length es2) = Some x). { rewrite Ex, nth_error_app2, Nat.sub_diag by lia. reflexivity. }
  rewrite Hl. clear Hl Ex. set (m := length es2) in *. clearbody m. change (length (lbefore 0)) with 15.
  do 15 (destruct m as [|m]; [cbn in Hn; injection Hn as <-; cbn in Hx; first [assumption|destruct Hx; discriminate]|]). lia.
Qed.

(** ... for example the only thread that pushes and dequeues. *)
Theorem C61_len_alone : forall T W cap (pol : policy T) o es s a s' i n,
  let P := core_new W (N.of_nat cap) in
  wf W cap -> sound_orders o -> o_rmw o = true -> o_len o = true ->
  weak_run P pol o es s -> few_pushes W cap es ->
  weak_step P pol o s a = Some (s', Some (RetLen i n)) -> closed_in es = false ->
  (forall j, In (Reserve j) es -> j = i) -> (forall j v, In (Take j v) es -> j = i) ->
  N.to_nat n = occupancy es.
Proof. intros T W cap pol o es s a s' i n P Hwf Ho H1 H2. exact (weak_len_alone W cap pol o Hwf Ho H1 H2 es s a s' i n). Qed.
Print Assumptions C61_len_alone.

Definition lalone : list (waction (T := nat)) :=
  wpush 1 10 0 0 ++ wpush 1 20 1 0 ++ wpop 1 0 1 ++ [XDrop 1] ++ wpush 1 30 2 0
  ++ [XInvoke 1 OpLen; XStep 1 3 false; XStep 1 1 false; XStep 1 3 false].
Definition lalone_events : list (event nat) :=
  [Invoke 1 OpLen; Commit 1 30; Wrote 1 30; HandOut 1 0; Reserve 1; Invoke 1 OpPush; Release 1 10; Take 1 10; Invoke 1 OpPop;
   Commit 1 20; Wrote 1 20; HandOut 1 0; Reserve 1; Invoke 1 OpPush; Commit 1 10; Wrote 1 10; HandOut 1 0; Reserve 1; Invoke 1 OpPush].
Example C61_len_alone_case : exists s a s', weak_run (core_new 64 4) demo_policy code_orders lalone_events s /\
  weak_step (core_new 64 4) demo_policy code_orders s a = Some (s', Some (RetLen 1 2)) /\
  few_pushes 64 4 lalone_events /\ closed_in lalone_events = false /\
  (forall j, In (Reserve j) lalone_events -> j = 1) /\ (forall j v, In (Take j v) lalone_events -> j = 1).
Proof.
  destruct (last_of 4 code_orders lalone) as [[[[[es s] a] s'] e]|] eqn:E; [|vm_compute in E; discriminate E].
  assert (Eo : option_map (fun x => let '(es, _, _, _, e) := x in (es, e)) (last_of 4 code_orders lalone) =
    Some (lalone_events, Some (RetLen 1 2%N))) by (vm_compute; reflexivity).
  rewrite E in Eo. cbn [option_map] in Eo. injection Eo as -> ->. apply last_of_run in E as [H1 H2].
  exists s, a, s'. split; [exact H1|]. split; [exact H2|]. split; [reflexivity|]. split; [reflexivity|].
  split; [intros j H|intros j v H]; cbn in H; repeat (destruct H as [H|H]; [congruence|]); destruct H.
Qed.

(** With relaxed loads in len, or relaxed read-modify-writes of head and tail, len could return 3 although the
    queue has never held more than one element: an old tail is read together with a newer head. *)
Definition relaxed_len : orders := mkO true true true true true false.
Definition relaxed_rmws : orders := mkO true true true false true true.
Definition lbad : list (waction (T := nat)) :=
  wpush 1 10 0 0 ++ wpop 2 0 1 ++ [XInvoke 3 OpLen; XStep 3 0 false; XStep 3 1 false; XStep 3 0 false].
Theorem C61_len_needs_orders : forall o, o = relaxed_len \/ o = relaxed_rmws -> exists es2 i es1,
  sound_orders o /\ weak_history 64 4 demo_policy o (es2 ++ RetLen i 3 :: es1) /\ few_pushes 64 4 (es2 ++ RetLen i 3 :: es1) /\
  closed_in es1 = false /\ forall es3 es0, es1 = es3 ++ es0 -> occupancy es0 <= 1.
Proof.
  intros o Ho. exists [], 3, [Invoke 3 OpLen; Take 2 10; Invoke 2 OpPop; Commit 1 10; Wrote 1 10; HandOut 1 0; Reserve 1; Invoke 1 OpPush].
  split; [destruct Ho as [-> | ->]; repeat split|]. split.
  { apply (weak_events_history _ _ _ _ lbad). destruct Ho as [-> | ->]; vm_compute; reflexivity. }
  split; [vm_compute; reflexivity|]. split; [reflexivity|].
  intros es3 es0 E. do 9 (destruct es3 as [|? es3]; cbn in E; [subst es0; cbn; lia|injection E as _ E || discriminate E]).
Qed.
Print Assumptions C61_len_needs_orders.
