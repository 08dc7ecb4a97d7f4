(** Facts about a whole channel on weak memory: its parts, where everybody is. *)
From Coq Require Import List Bool Arith NArith Lia.
From Verif Require Import Word QueueSpec CoreModel WaitCellModel WaitList WaitListSpec WaitQueueModel WaitQueueSpec WaitQueueFacts WeakModel WeakCellModel WeakQueueModel
  WeakQueueFacts WeakQueueInv WeakQueueData WeakChannelModel WeakWholeModel.
From Verif Require Import History.
Import ListNotations.

Lemma y_events_app {T} (a b : list (zevent (T := T))) : y_events (a ++ b) = y_events a ++ y_events b.
Proof. induction a as [|x a IH]; simpl; [reflexivity|]. destruct x; simpl; now rewrite IH. Qed.
Lemma q_events_app {T} (a b : list (zevent (T := T))) : q_events (a ++ b) = q_events a ++ q_events b.
Proof. induction a as [|x a IH]; simpl; [reflexivity|]. destruct x; simpl; now rewrite IH. Qed.
Lemma y_events_zys {T} l : y_events (zys (T := T) l) = l.
Proof. unfold zys. induction l; simpl; congruence. Qed.
Lemma q_events_zys {T} l : q_events (zys (T := T) l) = [].
Proof. unfold zys. induction l; simpl; congruence. Qed.
Definition olist {A} (e : option A) : list A := match e with Some x => [x] | None => [] end.
Lemma y_events_zqs {T} e : y_events (zqs (T := T) e) = [].
Proof. destruct e; reflexivity. Qed.
Lemma q_events_zqs {T} e : q_events (zqs (T := T) e) = olist e.
Proof. destruct e; reflexivity. Qed.
Lemma olist_app e es : olist e ++ es = app_ev e es.
Proof. destruct e; reflexivity. Qed.

Section Facts.
  Context {T : Type}.
  Variables (P : params) (pol : policy T) (debug : bool) (o : chan_orders) (async : bool).
  Notation ystep := (ystep P pol debug o async).
  Notation zstep := (zstep P pol debug o async).
  Notation zrun := (zrun P pol debug o async).

  Inductive zmoved (s s' : zstate (T := T)) (evs : list (zevent (T := T))) : Prop :=
  | M_none : z_y s' = z_y s -> z_q s' = z_q s -> y_events evs = [] -> q_events evs = [] -> zmoved s s' evs
  | M_y a : ystep (z_y s) a = Some (z_y s', y_events evs) -> z_q s' = z_q s -> q_events evs = [] -> zmoved s s' evs
  | M_q a e : wq_step debug (z_q s) a = Some (z_q s', e) -> z_y s' = z_y s -> y_events evs = [] -> q_events evs = olist e -> zmoved s s' evs.

  Lemma y_do_cases s a f s' evs : y_do P pol debug o async s a f = Some (s', evs) ->
    exists y' l, ystep (z_y s) a = Some (y', l) /\ s' = f (on_y s y') l /\ evs = zys l.
  Proof. unfold y_do. destruct (WeakChannelModel.ystep _ _ _ _ _ _ _) as [[y' l]|]; [|discriminate]. intros H; injection H as <- <-. eauto. Qed.
  Lemma q_do_cases (s : zstate (T := T)) a f s' evs : q_do debug s a f = Some (s', evs) ->
    exists q' e, wq_step debug (z_q s) a = Some (q', e) /\ s' = f (on_q s q') e /\ evs = zqs e.
  Proof. unfold q_do. destruct (wq_step debug (z_q s) a) as [[q' e]|]; [|discriminate]. intros H; injection H as <- <-. eauto. Qed.

  (** The cases of a step. *)
  Inductive zcase (s : zstate (T := T)) : zaction (T := T) -> zstate (T := T) -> list (zevent (T := T)) -> Prop :=
  | Z_plain a y' l : plain s a = true -> ystep (z_y s) a = Some (y', l) -> zcase s (DoY a) (on_y s y') (zys l)
  | Z_send i j : i <> 0 -> z_op s i = ONone -> y_tx (z_y s) j = SIdle -> z_use s j = None ->
      zcase s (DoSend i j) (begin s i j (if async then ONew else OAgain Fast)) [ZSending i j]
  | Z_new i q' e : z_op s i = ONew -> wq_step debug (z_q s) (ACall (QNew i) false) = Some (q', e) ->
      zcase s (DoNew i) (on_op (on_q s q') i (if async then OAgain Fresh else OCall Fresh)) (zqs e)
  | Z_try i q y' l : z_op s i = OAgain q -> ystep (z_y s) (ASend (z_by s i)) = Some (y', l) ->
      zcase s (DoTry i) (on_op (on_y s y') i (OPush q)) (zys l)
  | Z_push i k spur q y' l : z_op s i = OPush q -> ystep (z_y s) (APush (z_by s i) k spur) = Some (y', l) ->
      zcase s (DoPush i k spur) (after_push async (on_y s y') i q l) (zys l)
  | Z_panic i j' q y' l : z_op s i = OPush q -> ystep (z_y s) (APanic (z_by s i) j') = Some (y', l) ->
      zcase s (DoPanic i j') (finish (on_y s y') i) (zys l)
  | Z_start i w sync q' e : z_op s i = OCall Fresh -> wq_step debug (z_q s) (ACall (WaitQueueModel.QStart i w) sync) = Some (q', e) ->
      zcase s (DoCall i w sync) (on_op (on_q s q') i (OWait Fresh)) (zqs e)
  | Z_cont i w sync q' e : z_op s i = OCall Queued \/ z_op s i = OPark -> wq_step debug (z_q s) (ACall (QCont i w) sync) = Some (q', e) ->
      zcase s (DoCall i w sync) (on_op (on_q s q') i (OWait Queued)) (zqs e)
  | Z_wait i k q q' e : z_op s i = OWait q -> wq_step debug (z_q s) (AStep i k) = Some (q', e) ->
      zcase s (DoStep i k) (after_wait (on_q s q') i q e) (zqs e)
  | Z_dropping i k q' e : z_op s i = OCancel -> wq_step debug (z_q s) (AStep i k) = Some (q', e) ->
      zcase s (DoStep i k) (match e with Some (EFreed _) | Some (EAssert _) | Some (EUb _) => finish (on_q s q') i | _ => on_q s q' end) (zqs e)
  | Z_free i q' e : z_op s i = OEnd -> wq_step debug (z_q s) (ACall (QFree i) false) = Some (q', e) ->
      zcase s (DoFree i) (on_q s q') (zqs e)
  | Z_cancel i q' e : z_op s i = OPark -> async = true -> wq_step debug (z_q s) (ACall (QDrop i) false) = Some (q', e) ->
      zcase s (DoCancel i) (on_op (on_q s q') i OCancel) (ZCancelled i :: zqs e)
  | Z_timeout i q' e : z_op s i = OPark -> async = false -> wq_step debug (z_q s) (ACall (QTimeout i) false) = Some (q', e) ->
      zcase s (DoTimeout i) (finish (on_q s q') i) (ZCancelled i :: zqs e)
  | Z_refdrop a y' l : z_rx s = XFree -> rx_free (y_rx (z_y s)) = true -> ystep (z_y s) (ARefDrop a) = Some (y', l) ->
      zcase s (DoRefDrop a) (on_rx (on_y s y') XNote) (zys l)
  | Z_notify q' e : z_rx s = XNote -> wq_step debug (z_q s) (ACall (QNotify 0) false) = Some (q', e) ->
      zcase s DoNotify (on_rx (on_q s q') XNotify) (zqs e)
  | Z_droprx pan y' l : z_rx s = XFree -> has_ref s = false -> ystep (z_y s) (ADropRx pan) = Some (y', l) ->
      zcase s (DoDropRx pan) (on_rx (on_y s y') (match l with [YR (Closing _ true)] => XClosing | _ => XGone end)) (zys l)
  | Z_close q' e : z_rx s = XClosing -> wq_step debug (z_q s) (ACall (QClose 0) false) = Some (q', e) ->
      zcase s DoClose (on_rx (on_q s q') XClose) (zqs e)
  | Z_rxnotify k q' e : z_rx s = XNotify -> wq_step debug (z_q s) (AStep 0 k) = Some (q', e) ->
      zcase s (DoRx k) (match e with Some (ERetNotify _ _) => on_rx (on_q s q') XFree | Some (EAssert _) | Some (EUb _) => on_rx (on_q s q') XGone | _ => on_q s q' end) (zqs e)
  | Z_rxclose k q' e : z_rx s = XClose -> wq_step debug (z_q s) (AStep 0 k) = Some (q', e) ->
      zcase s (DoRx k) (match e with Some (ERetClose _) | Some (EAssert _) | Some (EUb _) => on_rx (on_q s q') XGone | _ => on_q s q' end) (zqs e).

  Lemma rx_here_eq (s : zstate (T := T)) : rx_here s = true -> z_rx s = XFree.
  Proof. unfold rx_here. destruct (z_rx s); congruence. Qed.

  Lemma zstep_cases s a s' evs : zstep s a = Some (s', evs) -> zcase s a s' evs.
  Proof.
    intros H. destruct a as [a|i j|i|i|i k spur|i j'|i w sync|i k|i|i|i|a| |pan| |k]; cbn [WeakWholeModel.zstep] in H.
    - destruct (plain s a) eqn:E; [|discriminate]. apply y_do_cases in H as (y' & l & H & -> & ->). now constructor.
    - destruct i; [discriminate|]. destruct (z_op s (S i)) eqn:E1; try discriminate. destruct (y_tx (z_y s) j) eqn:E2; try discriminate.
      destruct (z_use s j) eqn:E3; try discriminate. injection H as <- <-. now constructor.
    - destruct (z_op s i) eqn:E; try discriminate. apply q_do_cases in H as (q' & e & H & -> & ->). now constructor.
    - destruct (z_op s i) eqn:E; try discriminate. apply y_do_cases in H as (q' & e & H & -> & ->). now constructor.
    - destruct (z_op s i) eqn:E; try discriminate. apply y_do_cases in H as (q' & e & H & -> & ->). now constructor.
    - destruct (z_op s i) eqn:E; try discriminate. apply y_do_cases in H as (q' & e & H & -> & ->). now apply Z_panic with (q := q).
    - destruct (z_op s i) as [| | | |[]| | | |] eqn:E; try discriminate; apply q_do_cases in H as (q' & e & H & -> & ->); constructor; auto.
    - destruct (z_op s i) eqn:E; try discriminate; apply q_do_cases in H as (q' & e & H & -> & ->); constructor; auto.
    - destruct (z_op s i) eqn:E; try discriminate. apply q_do_cases in H as (q' & e & H & -> & ->). now constructor.
    - destruct (z_op s i) eqn:E; try discriminate. destruct async eqn:Ea; [|discriminate].
      destruct (q_do _ _ _ _) as [[s1 l]|] eqn:H1; [|discriminate]. injection H as <- <-. apply q_do_cases in H1 as (q' & e & H & -> & ->). now constructor.
    - destruct (z_op s i) eqn:E; try discriminate. destruct async eqn:Ea; [discriminate|].
      destruct (q_do _ _ _ _) as [[s1 l]|] eqn:H1; [|discriminate]. injection H as <- <-. apply q_do_cases in H1 as (q' & e & H & -> & ->). now constructor.
    - destruct (rx_here s && rx_free (y_rx (z_y s))) eqn:E; [|discriminate]. apply andb_true_iff in E as [E1 E2]. apply rx_here_eq in E1.
      apply y_do_cases in H as (q' & e & H & -> & ->). now constructor.
    - destruct (z_rx s) eqn:E; try discriminate. apply q_do_cases in H as (q' & e & H & -> & ->). now constructor.
    - destruct (rx_here s && negb (has_ref s)) eqn:E; [|discriminate]. apply andb_true_iff in E as [E1 E2]. apply rx_here_eq in E1. apply negb_true_iff in E2.
      apply y_do_cases in H as (q' & e & H & -> & ->). now apply Z_droprx.
    - destruct (z_rx s) eqn:E; try discriminate. apply q_do_cases in H as (q' & e & H & -> & ->). now constructor.
    - destruct (z_rx s) eqn:E; try discriminate; apply q_do_cases in H as (q' & e & H & -> & ->); now constructor.
  Qed.

  Lemma after_push_parts (s : zstate (T := T)) i q l : z_y (after_push async s i q l) = z_y s /\ z_q (after_push async s i q l) = z_q s /\ z_rx (after_push async s i q l) = z_rx s /\ z_by (after_push async s i q l) = z_by s.
  Proof. unfold after_push. repeat match goal with |- context [match ?x with _ => _ end] => destruct x end; auto. Qed.
  Lemma after_wait_parts (s : zstate (T := T)) i q e : z_y (after_wait s i q e) = z_y s /\ z_q (after_wait s i q e) = z_q s /\ z_rx (after_wait s i q e) = z_rx s /\ z_by (after_wait s i q e) = z_by s.
  Proof. unfold after_wait. repeat match goal with |- context [match ?x with _ => _ end] => destruct x end; auto. Qed.

  Lemma zcase_moved s a s' evs : zcase s a s' evs -> zmoved s s' evs.
  Proof.
    intros H; destruct H; cbn.
    all: try (apply M_none; reflexivity).
    all: try (eapply M_y; cbn; rewrite ?y_events_zys, ?q_events_zys, ?(proj1 (after_push_parts _ _ _ _)), ?(proj1 (proj2 (after_push_parts _ _ _ _))); eauto; fail).
    all: eapply M_q; cbn; rewrite ?y_events_zqs, ?q_events_zqs, ?(proj1 (after_wait_parts _ _ _ _)), ?(proj1 (proj2 (after_wait_parts _ _ _ _))); eauto.
    all: try (destruct e as [[]|]; eauto).
  Qed.

  Lemma zproj zs s : zrun zs s -> yrun P pol debug o async (y_events zs) (z_y s) /\ wqrun debug (q_events zs) (z_q s).
  Proof.
    induction 1 as [|zs s a s' evs Hr [IH1 IH2] Hs]; [split; constructor|]. rewrite y_events_app, q_events_app.
    destruct (zcase_moved _ _ _ _ (zstep_cases _ _ _ _ Hs)) as [E1 E2 E3 E4|b E1 E2 E3|b e E1 E2 E3 E4].
    - now rewrite E1, E2, E3, E4.
    - rewrite E2, E3. split; [|exact IH2]. exact (yrun_step _ _ _ _ _ _ _ _ _ _ IH1 E1).
    - rewrite E2, E3, E4. split; [exact IH1|]. rewrite olist_app. exact (wqrun_step _ _ _ _ _ _ IH2 E1).
  Qed.
End Facts.
