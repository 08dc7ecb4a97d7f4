(** Senders are woken for slots that were released. *)
From Coq Require Import List Bool Arith NArith Lia.
From Verif Require Import CoreArith RingFacts.
From Verif Require Import QueueSpec CoreModel WaitCellModel WaitList WaitQueueModel WaitQueueSpec WaitQueueFacts WaitQueueWake.
From Verif Require Import ChannelModel ChannelSpec ChannelFacts ChannelLink ChannelEvents ChannelRing ChannelInv ChannelSend WakeSpec WakeCount.
From Verif Require Import History HistoryFacts.
Import ListNotations.

Lemma qstep_calls debug q i spur q' e : qstep debug q i spur = Some (q', Some e) -> notify_called e = false.
Proof. intros Hs. destruct e; try reflexivity. exfalso. qcases Hs E q i. Qed.
Lemma q_calls debug q a q' e : qstep_sys debug q a = Some (q', e) -> (forall i, a <> QNotify i) -> times notify_called (olist e) = 0.
Proof.
  intros Hs Ha. destruct a as [i|i w|i w|i|i|i|i|i|i spur]; try (qcalls Hs q i E Ep; try reflexivity; now destruct (Ha i)).
  destruct e as [e|]; [|reflexivity]. cbn [qstep_sys] in Hs. cbn [olist]. rewrite times_cons, (qstep_calls _ _ _ _ _ _ Hs). reflexivity.
Qed.
Lemma q_notifies debug q i q' e : qstep_sys debug q (QNotify i) = Some (q', e) -> e = Some (ECallNotify i).
Proof. intros Hs. qcalls Hs q i E Ep; reflexivity. Qed.
Lemma queue_only {T} (e : option qevent) : @queue_of T (map OnQueue (olist e)) = olist e /\ @ring_of T (map OnQueue (olist e)) = [].
Proof. destruct e; split; reflexivity. Qed.

Section Paid.
  Context {T : Type}.
  Variables (W : N) (cap : nat) (pol : policy T) (async debug : bool).
  Hypothesis Hwf : wf W cap.
  Notation P := (core_new W (N.of_nat cap)).
  Notation cstep_sys := (@cstep_sys T P pol async debug).
  Notation crun := (@crun T P pol async debug).

  (** RecvRefs whose slot is released but that have not called notify yet. *)
  Definition half_dropped (t : tpc) : bool := match t with UDropped => true | _ => false end.
  Definition pend (s : @chan T) : nat :=
    times (fun i => half_dropped (ch_tx s i)) (ch_out s) + match ch_rx s with RDropped => 1 | _ => 0 end.

  Lemma times_le {A} (p q : A -> bool) l : (forall x, p x = true -> q x = true) -> times p l <= times q l.
  Proof. intros H. induction l as [|x l IH]; [cbn; lia|]. rewrite !times_cons. specialize (H x). destruct (p x); [rewrite H by reflexivity|]; lia. Qed.
  Lemma times_lt {A} (p q : A -> bool) l x : (forall x, p x = true -> q x = true) -> In x l -> p x = false -> q x = true -> times p l < times q l.
  Proof.
    intros H Hin Hp Hq. induction l as [|y l IH]; [destruct Hin|]. rewrite !times_cons. destruct Hin as [->|Hin].
    - rewrite Hp, Hq. pose proof (times_le p q l H). lia.
    - specialize (IH Hin). specialize (H y). destruct (p y); [rewrite H by reflexivity|]; lia.
  Qed.
  Lemma tset_half (f : nat -> tpc) i p l : half_dropped p = false -> times (fun j => half_dropped (tset f i p j)) l <= times (fun j => half_dropped (f j)) l.
  Proof. intros H. apply times_le. intros j. unfold tset. destruct (Nat.eqb_spec j i) as [->|]; congruence. Qed.
  Lemma drop_half (f : nat -> bool) i l : times f (drop_id i l) <= times f l.
  Proof. unfold drop_id. induction l as [|x l IH]; [cbn; lia|]. cbn [filter]. destruct (negb (Nat.eqb x i)); rewrite !times_cons; lia. Qed.

  Lemma dropped_release s h r e : Link s -> existsb (Nat.eqb h) (ch_refs s) = true -> step P pol (ch_ring s) (ADrop h) = Some (r, e) ->
    e = Some (UB h) \/ exists v, e = Some (Release h v).
  Proof.
    intros HK Hx Hs. apply existsb_exists in Hx. destruct Hx as (x & Hin & Hx). apply Nat.eqb_eq in Hx. subst x.
    pose proof (K_h _ HK h (proj2 (K_refs _ HK) h Hin)) as Hh. unfold hlink in Hh.
    destruct (r_drop _ _ _ _ _ _ Hs) as (_ & _ & [[[x Hp] _]|[_ H]]); [|exact H]. exfalso. rewrite Hp in Hh.
    revert Hh. repeat match goal with |- context [match ?b with _ => _ end] => destruct b end; intuition (try congruence); repeat match goal with H : exists _, _ |- _ => destruct H end; congruence.
  Qed.
  Lemma paid_step s a s' l : Link s -> cstep_sys s a = Some (s', l) -> (forall i, ~ In (UB i) (ring_of l)) ->
    times notify_called (queue_of l) + pend s' <= pend s + times released_slot (ring_of l).
  Proof.
    intros HK Hs Hub. unfold pend. ccases Hs a; rewrite ?ring_of_app, ?queue_of_app in *;
      cbn [ring_of queue_of map olist app ch_tx ch_rx ch_out on_tx on_rx on_ring on_cell on_queue on_out on_refs on_live on_count finish] in *.
    all: try (match goal with |- context [times _ (queue_of (map OnRing (olist ?o)))] => destruct o end; cbn [map olist app ring_of queue_of] in * ).
    all: try (match goal with |- context [times _ (queue_of (map OnCell (olist ?o)))] => destruct o end; cbn [map olist app ring_of queue_of] in * ).
    all: rewrite ?(proj1 (queue_only _)), ?(proj2 (queue_only _)); cbn [app].
    all: try match goal with H : qstep_sys _ _ (QNotify _) = Some (_, ?o) |- _ => pose proof (q_notifies _ _ _ _ _ H); subst o; cbn [olist] end.
    all: try match goal with H : qstep_sys _ _ _ = Some (_, ?o) |- context [times _ (olist ?o)] => rewrite (q_calls _ _ _ _ _ H) by (intros ?; repeat match goal with |- context [match ?st with _ => _ end] => destruct st end; discriminate) end.
    all: rewrite ?times_cons; change (times notify_called []) with 0; cbn [notify_called].
    all: repeat match goal with H : ch_rx _ = _ |- _ => rewrite H in * end.
    all: try match goal with |- context [times (fun j => half_dropped (tset ?f ?i ?p j)) ?l] => pose proof (tset_half f i p l eq_refl) end.
    all: try match goal with |- context [times ?f (drop_id ?i ?l)] => pose proof (drop_half f i l) end.
    all: try lia.
    all: repeat match goal with H : (_ && _)%bool = true |- _ => apply andb_true_iff in H; destruct H end.
    all: try match goal with Hx : existsb _ _ = true, Hs : step _ _ _ (ADrop ?h) = Some (_, ?o) |- _ =>
           destruct (dropped_release _ _ _ _ HK Hx Hs) as [He|[v He]]; try discriminate He; injection He as -> end.
    all: try (exfalso; eapply Hub; left; reflexivity).
    - assert (Hlt : times (fun j => half_dropped (tset (ch_tx s) i UNotify j)) (ch_out s) < times (fun j => half_dropped (ch_tx s j)) (ch_out s)).
      { apply (times_lt _ _ _ i).
        - intros j. unfold tset. destruct (Nat.eqb_spec j i) as [->|]; [discriminate|auto].
        - apply (K_out _ HK). now rewrite Heqt.
        - now rewrite tset_same.
        - now rewrite Heqt. }
      lia.
    - pose proof (tset_half (ch_tx s) i TEnd (ch_out s) eq_refl). lia.
    - pose proof (tset_half (ch_tx s) i TDead (ch_out s) eq_refl). lia.
    - cbn [released_slot]. lia.
    - cbn [released_slot]. rewrite tset_same. cbn [half_dropped].
      assert (Hi : ~ In i (ch_out s)).
      { intros Hin. apply (K_out _ HK) in Hin. match goal with H : fresh_tx _ _ = true |- _ => destruct (fresh_tx_odd _ _ H) as (_ & _ & Ht) end. rewrite Ht in Hin. discriminate. }
      assert (He : forall l, ~ In i l -> times (fun j => half_dropped (tset (ch_tx s) i UDropped j)) l = times (fun j => half_dropped (ch_tx s j)) l).
      { induction l as [|x l IH]; intros Hn; [reflexivity|]. rewrite !times_cons, IH by (intros Hin; apply Hn; now right). f_equal.
        unfold tset. rewrite (proj2 (Nat.eqb_neq x i)); [reflexivity|]. intros ->. apply Hn. now left. }
      rewrite (He _ Hi). lia.
  Qed.
  Lemma released_paid es s : crun es s -> ring_calm W cap es ->
    times notify_called (queue_of es) + pend s <= times released_slot (ring_of es).
  Proof.
    intros Hr. induction Hr as [|es s a s' l Hr IH Hs]; intros HC; [cbn; lia|].
    specialize (IH (calm_tail W cap _ _ HC)). pose proof (link_run _ _ _ _ _ _ Hr) as HK.
    assert (Hub : forall i, ~ In (UB i) (ring_of l)).
    { intros i Hin. apply (no_ring_ub W cap pol async debug Hwf (l ++ es) s' i (crun_step _ _ _ _ _ _ _ _ _ Hr Hs) HC). rewrite ring_of_app. apply in_or_app. now left. }
    pose proof (paid_step _ _ _ _ HK Hs Hub). rewrite ring_of_app, queue_of_app, !times_app. lia.
  Qed.

  Lemma q_closes q a q' e k : qstep_sys debug q a = Some (q', e) -> In (ECallClose k) (olist e) -> a = QClose k.
  Proof.
    intros Hs Hin. destruct a as [i|i w|i w|i|i|i|i|i|i spur]; try (qcalls Hs q i E Ep; destruct Hin as [Hin|[]]; congruence).
    exfalso. cbn [qstep_sys] in Hs. qcases Hs E q i; cbn [olist In] in Hin; intuition congruence.
  Qed.
  Lemma ends_dropped es s : crun es s -> ending (ch_rx s) = true \/ (exists k, In (ECallClose k) (queue_of es)) -> exists p, In (RxDropped p) es.
  Proof.
    intros Hr. induction Hr as [|es s a s' l Hr IH Hs]; [intros [H|[k []]]; discriminate|]. intros H.
    assert (Hd : ending (ch_rx s) = true \/ (exists k, In (ECallClose k) (queue_of es)) \/ exists p, In (RxDropped p) l).
    { rewrite queue_of_app in H. destruct H as [H|[k H]]; [|apply in_app_or in H; destruct H as [H|H]; [|eauto]].
      - ccases Hs a; cbn [ch_rx on_tx on_rx on_ring on_cell on_queue on_out on_refs on_live on_count finish] in H; auto; try discriminate H;
          try (right; right; eexists; left; reflexivity); try (left; rewrite ?Heqr; reflexivity); 
          try (left; match goal with E : ch_rx _ = _ |- _ => rewrite E end; reflexivity);
          try (match goal with E : ch_rx _ = _ |- _ => rewrite E in H end; discriminate H).
      - left. ccases Hs a; rewrite ?queue_of_app in H; cbn [queue_of app] in H;
          try (match type of H with context [map OnRing (olist ?o)] => destruct o end; destruct H; fail);
          try (match type of H with context [map OnCell (olist ?o)] => destruct o end; destruct H; fail);
          try (destruct H; fail); rewrite ?(proj1 (queue_only _)) in H;
          match goal with E : qstep_sys _ _ ?b = Some (_, ?o) |- _ => pose proof (q_closes _ _ _ _ _ E H) as Hb end;
          repeat match type of Hb with (match ?st with _ => _ end) = _ => destruct st end; try discriminate Hb.
        reflexivity. }
    destruct Hd as [Hd|[Hd|[p Hd]]]; [destruct (IH (or_introl Hd)) as [p Hp]|destruct (IH (or_intror Hd)) as [p Hp]|];
      exists p; apply in_or_app; auto.
  Qed.
End Paid.
