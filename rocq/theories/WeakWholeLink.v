(** A whole channel on weak memory: where everybody is in the queue, and how the queue is used. *)
From Coq Require Import List Bool Arith NArith Lia.
From Verif Require Import Word QueueSpec CoreModel WaitCellModel WaitList WaitListSpec WaitQueueModel WaitQueueSpec WaitQueueFacts WaitQueueSafety WaitQueueWake
  WaitQueueStored WeakModel WeakCellModel WeakQueueModel WeakQueueFacts WeakQueueInv WeakQueueData WeakChannelModel WeakWholeModel.
From Verif Require Import ChannelFacts.
From Verif Require Import WeakChannelFacts WeakWholeFacts.
From Verif Require Import History.
Import ListNotations.

(** ** A step of the queue *)
Definition moves (debug : bool) (es : list qevent) (y : qsys) (a : wqaction) (y' : qsys) (e : option qevent) : Prop :=
  match a with
  | ACall b _ => qstep_sys debug y b = Some (y', e)
  | AStep i _ => sim (Gr 0) debug es y i y' e
  end.
Lemma wq_moves debug es q a q' e : wqrun debug es q -> wq_step debug q a = Some (q', e) -> wq_hasty q' = [] ->
  wq_hasty q = [] /\ moves debug es (wq_sys q) a (wq_sys q') e.
Proof.
  intros Hr Hs Hh. pose proof (wq_bounded _ _ _ Hr) as HB.
  assert (Hq : wq_hasty q = []).
  { destruct a as [a sync|i [k|]]; cbn [wq_step] in Hs.
    - destruct (call_spec _ _ _ _ _ _ HB Hs) as (i & v0 & _ & _ & _ & HW & _). apply (W_hasty _ _ _ _ _ _ HW Hh).
    - destruct (older_spec _ _ _ _ _ _ HB Hs) as (l & HW & _). apply (W_hasty _ _ _ _ _ _ HW Hh).
    - destruct (newest_spec _ _ _ _ _ HB Hs) as (y' & _ & _ & HW & _). apply (W_hasty _ _ _ _ _ _ HW Hh). }
  split; [exact Hq|]. pose proof (wq_run 0 _ _ _ Hr Hq) as HW. destruct (qrun_safe _ _ _ (Q_run _ _ _ _ HW) (Q_und _ _ _ _ HW) (Q_time _ _ _ _ HW)) as (_ & HI & _).
  destruct a as [a sync|i [k|]]; cbn [wq_step moves] in *.
  - destruct (call_spec _ _ _ _ _ _ HB Hs) as (i & v0 & H & _). exact H.
  - apply (older_sim debug 0 es q i k q' e); auto; apply HW.
  - destruct (newest_spec _ _ _ _ _ HB Hs) as (y' & H & <- & _). left. eauto.
Qed.

Lemma wq_no_ub debug es q : wqrun debug es q -> wq_hasty q = [] -> no_ub es.
Proof.
  intros Hr Hq. pose proof (wq_run 0 _ _ _ Hr Hq) as HW. apply (qrun_safe _ _ _ (Q_run _ _ _ _ HW) (Q_und _ _ _ _ HW) (Q_time _ _ _ _ HW)).
Qed.

(** The agent itself. *)
Lemma sim_own G debug es y i y' e : sim G debug es y i y' e ->
  match e with
  | Some (ERet k r) => k = i /\ kind (q_pc y i) = KCall /\ q_pc y' i = QIdle /\ q_phase y' i = ret_phase (q_phase y i) r
  | Some (ERetNotify k _) => k = i /\ kind (q_pc y i) = KNotify /\ q_pc y' i = QIdle /\ q_phase y' i = q_phase y i
  | Some (ERetClose k) => k = i /\ kind (q_pc y i) = KClose /\ q_pc y' i = QIdle /\ q_phase y' i = q_phase y i
  | Some (EFreed k) => k = i /\ kind (q_pc y i) = KDrop /\ q_pc y' i = QIdle /\ q_phase y' i = PGone
  | Some (EAssert k) | Some (EUb k) => k = i /\ q_pc y' i = QIdle /\ q_phase y' i = q_phase y i
  | Some (ENew _) | Some (EStart _ _) | Some (ECont _ _) | Some (ECallNotify _) | Some (ECallClose _) | Some (EDrop _) | Some (ETimeout _) => False
  | _ => kind (q_pc y' i) = kind (q_pc y i) /\ q_phase y' i = q_phase y i
  end.
Proof.
  intros [[spur Hs]|(-> & p' & Hst & ->)].
  - qcases Hs E y i; cbn [with_phase with_pc with_state with_mem with_lock q_pc q_phase]; rewrite ?pset_same, ?E; simpl; repeat split; auto.
  - cbn. rewrite pset_same. stales Hst; rewrite ?E; try (split; reflexivity); destruct H' as [->| ->]; split; reflexivity.
Qed.
(** The others. *)
Lemma sim_others G debug es y i y' e : sim G debug es y i y' e -> forall j, j <> i -> q_pc y' j = q_pc y j /\ q_phase y' j = q_phase y j.
Proof.
  intros [[spur Hs]|(-> & p' & Hst & ->)] j Hj.
  - apply (q_others debug y (QStep i spur) y' e i Hs eq_refl j Hj).
  - cbn. now rewrite pset_other by exact Hj.
Qed.
Definition mover (a : wqaction) : nat := match a with ACall b _ => call_agent b | AStep i _ => i end.
Lemma moves_others debug es y a y' e : moves debug es y a y' e -> forall j, j <> mover a -> q_pc y' j = q_pc y j /\ q_phase y' j = q_phase y j.
Proof.
  destruct a as [b sync|i k]; cbn [moves mover]; intros H j Hj.
  - apply (q_others debug y b y' e (call_agent b) H); [destruct b; reflexivity|exact Hj].
  - exact (sim_others _ _ _ _ _ _ _ H j Hj).
Qed.

(** ** Where everybody is *)
Definition stage_ok (q : attempt) (ph : phase) : Prop :=
  match q with Fast => ph = PAbsent | Fresh => ph = PFresh \/ ph = PWoken | Queued => ph = PWoken end.
Definition call_ok (q : attempt) (ph : phase) : Prop :=
  match q with Fast => False | Fresh => ph = PFresh \/ ph = PWoken | Queued => ph = PWaiting \/ ph = PWoken end.
Definition oplink (es : list qevent) (x : opstage) (p : qpc) (ph : phase) : Prop :=
  match x with
  | ONone | ONew => p = QIdle /\ ph = PAbsent
  | OAgain q | OPush q => p = QIdle /\ stage_ok q ph
  | OCall q => p = QIdle /\ call_ok q ph
  | OWait q => kind p = KCall /\ call_ok q ph
  | OPark => p = QIdle /\ ph = PWaiting
  | OCancel => kind p = KDrop /\ ph = PWaiting
  | OEnd => p = QIdle /\ (no_failure es -> ph <> PWaiting)
  end.
Definition rxlink (x : rxstage) (p : qpc) : Prop :=
  match x with XNotify => kind p = KNotify | XClose => kind p = KClose | _ => p = QIdle end.
Definition live (x : opstage) : bool := match x with ONone | OEnd => false | _ => true end.
Definition in_push (x : opstage) : bool := match x with OPush _ => true | _ => false end.

Lemma no_failure_tail e es : no_failure (app_ev e es) -> no_failure es.
Proof. intros H i Hi. apply (H i). destruct e; [right|]; exact Hi. Qed.
Lemma oplink_more e es x p ph : oplink es x p ph -> oplink (app_ev e es) x p ph.
Proof. destruct x; cbn; auto. intros [H1 H2]. split; auto. intros Hf. apply H2. exact (no_failure_tail _ _ Hf). Qed.
Lemma stage_call q ph : stage_ok q ph -> q <> Fast -> call_ok q ph.
Proof. destruct q; cbn; auto; congruence. Qed.
Lemma stage_waiting q : ~ stage_ok q PWaiting.
Proof. destruct q; cbn; intuition discriminate. Qed.

(** ** The Senders *)
Definition tx_actor {T} (a : yaction (T := T)) : option nat :=
  match a with
  | ASend j | APush j _ _ | AWrite j _ | ACommit j | AForget j _ | APanic j _ | ANotify j _ | ADropTx j | AClose j _ => Some j
  | _ => None
  end.
Section Senders.
  Context {T : Type}.
  Variables (P : params) (pol : policy T) (debug : bool) (o : chan_orders) (async : bool).
  Notation ystep := (ystep P pol debug o async).

  Lemma tx_stays y a y' l j : ystep y a = Some (y', l) -> tx_actor a <> Some j -> y_tx y j <> SGone -> y_tx y' j = y_tx y j.
  Proof.
    intros H Ha Hg. destruct a as [k|k n b|k v|k|k j'|k j'|k x|k j'|k|k b|w| | |n b|x|i v|i|b|p q]; cbn [WeakChannelModel.ystep tx_actor] in *;
      unfold recv_step, next_pop in H;
      repeat match type of H with
      | context [match ?x with _ => _ end] => lazymatch x with context [match _ with _ => _ end] => fail | _ => destruct x eqn:? end
      | context [let '(_, _) := ?x in _] => destruct x eqn:?
      end; try discriminate; injection H as <- <-; cbn [y_tx set_tx set_rx got fst]; auto; rewrite ?updt_other by congruence; auto.
  Qed.
  Lemma push_tx y j k spur y' l : ystep y (APush j k spur) = Some (y', l) ->
    exists e, weak_step P pol (co_ring o) (y_ring y) (XStep (tx_agent j) k spur) = Some (y_ring y', e) /\ l = yr e /\ y_tx y j = SPush /\
      y_tx y' j = match e with Some (RetFull _) | Some (RetPushClosed _) => SIdle | _ => SPush end.
  Proof.
    cbn [WeakChannelModel.ystep]. unfold ring_step. destruct (y_tx y j) eqn:E; try discriminate. destruct (weak_step _ _ _ _ _) as [[r e]|] eqn:Es; [|discriminate].
    intros H. injection H as <- <-. exists e. cbn. rewrite updt_same. auto.
  Qed.
  Lemma send_tx y j y' l : ystep y (ASend j) = Some (y', l) ->
    exists e, weak_step P pol (co_ring o) (y_ring y) (XInvoke (tx_agent j) OpPush) = Some (y_ring y', e) /\ l = yr e /\ y_tx y j = SIdle /\ y_tx y' j = SPush.
  Proof.
    cbn [WeakChannelModel.ystep]. unfold ring_step. destruct (y_tx y j) eqn:E; try discriminate. destruct (weak_step _ _ _ _ _) as [[r e]|] eqn:Es; [|discriminate].
    intros H. injection H as <- <-. exists e. cbn. rewrite updt_same. auto.
  Qed.
End Senders.

Section Link.
  Context {T : Type}.
  Variables (P : params) (pol : policy T) (debug : bool) (o : chan_orders) (async : bool).
  Notation ystep := (ystep P pol debug o async).
  Notation zcase := (zcase P pol debug o async).
  Notation zrun := (zrun P pol debug o async).
  Notation zstate := (zstate (T := T)).
  Notation sysq s := (wq_sys (z_q s)).

  (** The step of the queue, of the ring and the cell. *)
  Definition q_act (s : zstate) (a : zaction (T := T)) : option wqaction :=
    match a with
    | DoNew i => Some (ACall (QNew i) false)
    | DoCall i w sync => match z_op s i with OCall Fresh => Some (ACall (WaitQueueModel.QStart i w) sync) | _ => Some (ACall (QCont i w) sync) end
    | DoStep i k => Some (AStep i k)
    | DoFree i => Some (ACall (QFree i) false)
    | DoCancel i => Some (ACall (QDrop i) false)
    | DoTimeout i => Some (ACall (QTimeout i) false)
    | DoNotify => Some (ACall (QNotify 0) false)
    | DoClose => Some (ACall (QClose 0) false)
    | DoRx k => Some (AStep 0 k)
    | _ => None
    end.
  Lemma zcase_q s a s' evs : zcase s a s' evs ->
    match q_act s a with
    | Some b => exists e, wq_step debug (z_q s) b = Some (z_q s', e) /\ q_events evs = olist e /\ z_y s' = z_y s /\ y_events evs = []
    | None => z_q s' = z_q s /\ q_events evs = []
    end.
  Proof.
    intros H; destruct H; cbn [q_act].
    all: rewrite ?q_events_zys, ?y_events_zys, ?q_events_zqs, ?y_events_zqs; try (split; reflexivity).
    all: try match goal with H : z_op _ _ = OCall Fresh |- _ => rewrite H end.
    all: try match goal with H : z_op _ _ = OCall Queued \/ _ |- _ => destruct H as [H|H]; rewrite H end.
    all: try (rewrite (proj1 (proj2 (after_push_parts _ _ _ _ _))); split; reflexivity).
    all: exists e; cbn [q_events y_events]; rewrite ?q_events_zqs, ?y_events_zqs, ?(proj1 (after_wait_parts _ _ _ _)), ?(proj1 (proj2 (after_wait_parts _ _ _ _))); auto.
    all: destruct e as [[]|]; auto.
  Qed.
  Lemma zcase_moves zs s a s' evs : zrun zs s -> zcase s a s' evs -> wq_hasty (z_q s') = [] -> wq_hasty (z_q s) = [] /\
    match q_act s a with
    | Some b => exists e, moves debug (q_events zs) (sysq s) b (sysq s') e /\ q_events evs = olist e /\ forall i, e <> Some (EUb i)
    | None => z_q s' = z_q s /\ q_events evs = []
    end.
  Proof.
    intros Hr H Hh. pose proof (zcase_q _ _ _ _ H) as Hq. destruct (q_act s a) as [b|].
    - destruct Hq as (e & Hs & He & _). destruct (wq_moves _ _ _ _ _ _ (proj2 (zproj _ _ _ _ _ _ _ Hr)) Hs Hh) as [H1 H2]. split; [exact H1|]. exists e. repeat split; auto.
      intros i ->. apply (wq_no_ub debug (app_ev (Some (EUb i)) (q_events zs)) (z_q s')) with (i := i); [|exact Hh|left; reflexivity].
      exact (wqrun_step _ _ _ _ _ _ (proj2 (zproj _ _ _ _ _ _ _ Hr)) Hs).
    - destruct Hq as [Hq He]. rewrite Hq in Hh. auto.
  Qed.

  Record Link (zs : list (zevent (T := T))) (s : zstate) : Prop := {
    K_q : forall i, i <> 0 -> oplink (q_events zs) (z_op s i) (q_pc (sysq s) i) (q_phase (sysq s) i);
    K_0 : rxlink (z_rx s) (q_pc (sysq s) 0) /\ q_phase (sysq s) 0 = PAbsent /\ z_op s 0 = ONone;
    K_use : forall i, live (z_op s i) = true -> z_use s (z_by s i) = Some i /\ y_tx (z_y s) (z_by s i) = if in_push (z_op s i) then SPush else SIdle;
    K_note : forall k, In (ECallNotify k) (q_events zs) -> k = 0;
    K_close : forall k, In (ECallClose k) (q_events zs) -> k = 0 /\ (z_rx s = XClose \/ z_rx s = XGone);
    K_excl : close_exclusive (q_events zs);
    K_drop : forall i, In (EDrop i) (q_events zs) \/ In (ETimeout i) (q_events zs) -> In (ZCancelled i) zs
  }.

  Lemma pset_op (f : nat -> opstage) i x : pset f i x i = x.
  Proof. apply pset_same. Qed.

  Lemma phase_ret q ph r : call_ok q ph -> match r with Wait => ret_phase ph r = PWaiting | Notified => stage_ok q (ret_phase ph r) | Closed => ret_phase ph r <> PWaiting end.
  Proof. destruct r; cbn; [reflexivity|discriminate|]. destruct q; cbn; [tauto| |]; intros [->| ->]; auto. Qed.

  Lemma olist_inj {A} (e e' : option A) : olist e = olist e' -> e = e'.
  Proof. destruct e, e'; cbn; congruence. Qed.

  Lemma kq_step zs s a s' evs : zrun zs s -> zcase s a s' evs -> wq_hasty (z_q s') = [] -> Link zs s ->
    forall i, i <> 0 -> oplink (q_events (evs ++ zs)) (z_op s' i) (q_pc (sysq s') i) (q_phase (sysq s') i).
  Proof.
    intros Hr Hc Hh HK j Hj. destruct (zcase_moves _ _ _ _ _ Hr Hc Hh) as [_ Hm]. rewrite q_events_app. pose proof (K_q _ _ HK j Hj) as Kj.
    pose proof (K_0 _ _ HK) as (_ & _ & K0).
    destruct (q_act s a) as [b|] eqn:Eb.
    - destruct Hm as (e & Hm & He & Hub). rewrite He, olist_app.
      assert (Hex : forall i, mover b = i -> (i <> j -> z_op s' j = z_op s j) -> (i = j -> oplink (app_ev e (q_events zs)) (z_op s' j) (q_pc (sysq s') j) (q_phase (sysq s') j)) ->
         oplink (app_ev e (q_events zs)) (z_op s' j) (q_pc (sysq s') j) (q_phase (sysq s') j)).
      { intros i H1 H2 H3. destruct (Nat.eq_dec i j) as [E|E]; [auto|]. rewrite (H2 E).
        destruct (moves_others _ _ _ _ _ _ Hm j) as [-> ->]; [congruence|]. apply oplink_more, Kj. }
      destruct Hc; cbn [q_act] in Eb; try discriminate.
      all: cbn [q_events] in He; rewrite ?q_events_zqs in He; apply olist_inj in He; subst.
      + injection Eb as <-. apply (Hex i); [reflexivity|intros; cbn; now rewrite pset_other by congruence|]. intros ->. cbn [z_op on_op on_q z_q] in *. rewrite pset_op.
        destruct (q_new _ _ _ _ _ Hm) as (-> & _ & _ & -> & ->). destruct async; cbn; auto.
      + rewrite H in Eb. injection Eb as <-. apply (Hex i); [reflexivity|intros; cbn; now rewrite pset_other by congruence|]. intros ->. cbn [z_op on_op on_q z_q] in *. rewrite pset_op.
        destruct (q_start _ _ _ _ _ _ Hm) as (-> & _ & Hp & -> & ->). cbn. auto.
      + assert (Eb' : b = ACall (QCont i w) sync) by (destruct H as [H|H]; rewrite H in Eb; congruence). subst b.
        apply (Hex i); [reflexivity|intros; cbn; now rewrite pset_other by congruence|]. intros ->. cbn [z_op on_op on_q z_q] in *. rewrite pset_op.
        destruct (q_cont _ _ _ _ _ _ Hm) as (-> & _ & Hp & -> & ->). cbn. auto.
      + injection Eb as <-. apply (Hex i); [reflexivity| |].
        { intros Hne. unfold after_wait. destruct e as [[]|]; try reflexivity; try (cbn; now rewrite pset_other by congruence). destruct r; cbn; now rewrite pset_other by congruence. }
        intros ->. rewrite H in Kj. destruct Kj as [K1 K2]. destruct (after_wait_parts (on_q s q') j q e) as (_ & Hz & _). rewrite Hz in Hm |- *. cbn [on_q z_q] in Hm |- *. clear Hz.
        pose proof (sim_own _ _ _ _ _ _ _ Hm) as Ho. unfold after_wait.
        destruct e as [[]|]; try (exfalso; exact Ho); try (exfalso; eapply Hub; reflexivity); try (destruct Ho as [Ho1 Ho2]; cbn [z_op on_q]; rewrite H; cbn; rewrite Ho1, Ho2; auto; fail).
        all: try (destruct Ho as (_ & Ho & _); congruence).
        all: try (destruct Ho as (-> & Ho1 & Ho2); cbn; rewrite pset_op; cbn; split; [exact Ho1|]; intros Hf; exfalso; eapply Hf; cbn; auto; fail).
        destruct Ho as (_ & _ & -> & ->). pose proof (phase_ret q _ r K2) as Hp. destruct r; cbn in *; rewrite pset_op; cbn; auto.
      + injection Eb as <-. apply (Hex i); [reflexivity| |].
        { intros Hne. destruct e as [[]|]; try reflexivity; try (cbn; now rewrite pset_other by congruence). }
        intros ->. rewrite H in Kj. destruct Kj as [K1 K2].
        assert (Hz : z_q (match e with Some (EFreed _) | Some (EAssert _) | Some (EUb _) => finish (on_q s q') j | _ => on_q s q' end) = q') by (destruct e as [[]|]; reflexivity).
        rewrite Hz in Hm |- *. pose proof (sim_own _ _ _ _ _ _ _ Hm) as Ho.
        destruct e as [[]|]; try (exfalso; exact Ho); try (exfalso; eapply Hub; reflexivity); try (destruct Ho as [Ho1 Ho2]; cbn [z_op on_q]; rewrite H; cbn; rewrite Ho1, Ho2; auto; fail).
        all: try (destruct Ho as (_ & Ho & _); congruence).
        all: try (destruct Ho as (-> & Ho1 & Ho2); cbn; rewrite pset_op; cbn; split; [exact Ho1|]; intros Hf; exfalso; eapply Hf; cbn; auto; fail).
        destruct Ho as (_ & _ & -> & ->). cbn. rewrite pset_op. cbn. split; [reflexivity|discriminate].
      + injection Eb as <-. apply (Hex i); [reflexivity|reflexivity|]. intros ->. cbn [z_op on_q z_q] in *. rewrite H.
        destruct (q_free _ _ _ _ _ Hm) as (-> & _ & -> & ->). cbn. split; [reflexivity|discriminate].
      + injection Eb as <-. apply (Hex i); [reflexivity|intros; cbn; now rewrite pset_other by congruence|]. intros ->. cbn [z_op on_op on_q z_q] in *. rewrite pset_op.
        destruct (q_drop _ _ _ _ _ Hm) as (-> & _ & _ & -> & ->). cbn. auto.
      + injection Eb as <-. apply (Hex i); [reflexivity|intros; cbn; now rewrite pset_other by congruence|]. intros ->. cbn [z_op on_op on_q z_q finish] in *. rewrite pset_op.
        destruct (q_timeout _ _ _ _ _ Hm) as (-> & _ & _ & -> & ->). cbn. split; [reflexivity|discriminate].
      + injection Eb as <-. apply (Hex 0); [reflexivity|reflexivity|congruence].
      + injection Eb as <-. apply (Hex 0); [reflexivity|reflexivity|congruence].
      + injection Eb as <-. apply (Hex 0); [reflexivity| |congruence]. intros _. destruct e as [[]|]; reflexivity.
      + injection Eb as <-. apply (Hex 0); [reflexivity| |congruence]. intros _. destruct e as [[]|]; reflexivity.
    - destruct Hm as [-> ->]. cbn [app].
      destruct Hc; cbn [q_act] in Eb; try discriminate; cbn [z_op on_y on_rx]; auto.
      + (* DoSend *) cbn. destruct (Nat.eq_dec j i) as [->|Hn]; [|now rewrite pset_other by congruence]. rewrite pset_op. rewrite H0 in Kj. destruct async; cbn in *; auto.
      + (* DoTry *) cbn. destruct (Nat.eq_dec j i) as [->|Hn]; [|now rewrite pset_other by congruence]. rewrite pset_op. rewrite H in Kj. auto.
      + (* DoPush *) assert (Hd : z_op (after_push async (on_y s y') i q l) j = z_op s j \/ j = i /\ (z_op (after_push async (on_y s y') i q l) j = after_full async q \/ z_op (after_push async (on_y s y') i q l) j = OEnd)).
        { unfold after_push. repeat match goal with |- context [match ?x with _ => _ end] => destruct x end; cbn [z_op on_op on_y finish]; auto.
          all: destruct (Nat.eq_dec j i) as [->|Hn]; [rewrite pset_op; auto|rewrite pset_other by congruence; auto]. }
        destruct Hd as [->|(-> & Hd)]; [exact Kj|]. rewrite H in Kj. destruct Kj as [K1 K2]. destruct Hd as [->| ->].
        * destruct q; cbn in *; auto. destruct async; cbn; auto.
        * split; [exact K1|]. intros _ E. rewrite E in K2. exact (stage_waiting _ K2).
      + (* DoPanic *) cbn. destruct (Nat.eq_dec j i) as [->|Hn]; [|now rewrite pset_other by congruence]. rewrite pset_op. rewrite H in Kj. destruct Kj as [K1 K2].
        split; [exact K1|]. intros _ E. rewrite E in K2. exact (stage_waiting _ K2).
      + exfalso. rewrite H in Eb. discriminate.
      + exfalso. destruct H as [H|H]; rewrite H in Eb; discriminate.
  Qed.

  Lemma k0_step zs s a s' evs : zrun zs s -> zcase s a s' evs -> wq_hasty (z_q s') = [] -> Link zs s ->
    rxlink (z_rx s') (q_pc (sysq s') 0) /\ q_phase (sysq s') 0 = PAbsent /\ z_op s' 0 = ONone.
  Proof.
    intros Hr Hc Hh HK. destruct (zcase_moves _ _ _ _ _ Hr Hc Hh) as [_ Hm]. pose proof (K_0 _ _ HK) as (K1 & K2 & K3).
    (* a step by an operation *)
    assert (Hop : forall i, i <> 0 -> match q_act s a with Some b => mover b = i | None => True end -> z_rx s' = z_rx s -> z_op s' 0 = z_op s 0 ->
      rxlink (z_rx s') (q_pc (sysq s') 0) /\ q_phase (sysq s') 0 = PAbsent /\ z_op s' 0 = ONone).
    { intros i Hi Hb -> ->. destruct (q_act s a) as [b|].
      - destruct Hm as (e & Hm & _). destruct (moves_others _ _ _ _ _ _ Hm 0) as [-> ->]; [congruence|]. auto.
      - destruct Hm as [-> _]. auto. }
    assert (Hnz : forall i x, z_op s i = x -> x <> ONone -> i <> 0) by (intros i x H1 H2 ->; congruence).
    destruct Hc; cbn [q_act] in *.
    - cbn. auto.
    - apply (Hop i); auto. cbn. now rewrite pset_other by congruence.
    - assert (Hi : i <> 0) by (eapply Hnz; eauto; discriminate). apply (Hop i); auto. cbn. now rewrite pset_other by congruence.
    - assert (Hi : i <> 0) by (eapply Hnz; eauto; discriminate). apply (Hop i); auto. cbn. now rewrite pset_other by congruence.
    - assert (Hi : i <> 0) by (eapply Hnz; eauto; discriminate). apply (Hop i); auto; [apply (after_push_parts async (on_y s y') i q l)|].
      unfold after_push. repeat match goal with |- context [match ?x with _ => _ end] => destruct x end; cbn [z_op on_op on_y finish]; now rewrite ?pset_other by congruence.
    - assert (Hi : i <> 0) by (eapply Hnz; eauto; discriminate). apply (Hop i); auto. cbn. now rewrite pset_other by congruence.
    - assert (Hi : i <> 0) by (eapply Hnz; eauto; discriminate). rewrite H in *. apply (Hop i); auto. cbn. now rewrite pset_other by congruence.
    - assert (Hi : i <> 0) by (destruct H; eapply Hnz; eauto; discriminate). apply (Hop i); auto; [destruct H as [H|H]; rewrite H; reflexivity|]. cbn. now rewrite pset_other by congruence.
    - assert (Hi : i <> 0) by (eapply Hnz; eauto; discriminate). apply (Hop i); auto; [apply (after_wait_parts (on_q s q') i q e)|].
      unfold after_wait. repeat match goal with |- context [match ?x with _ => _ end] => destruct x end; cbn [z_op on_op on_q finish]; now rewrite ?pset_other by congruence.
    - assert (Hi : i <> 0) by (eapply Hnz; eauto; discriminate). apply (Hop i); auto; destruct e as [[]|]; cbn [z_op z_rx on_op on_q finish]; now rewrite ?pset_other by congruence.
    - assert (Hi : i <> 0) by (eapply Hnz; eauto; discriminate). apply (Hop i); auto.
    - assert (Hi : i <> 0) by (eapply Hnz; eauto; discriminate). apply (Hop i); auto. cbn. now rewrite pset_other by congruence.
    - assert (Hi : i <> 0) by (eapply Hnz; eauto; discriminate). apply (Hop i); auto. cbn. now rewrite pset_other by congruence.
    - cbn. rewrite H in K1. auto.
    - destruct Hm as (e' & Hm & _). cbn [z_q z_op z_rx on_q on_rx moves rxlink] in *. destruct (q_notify _ _ _ _ _ Hm) as (_ & _ & A1 & A2). rewrite A1, A2. auto.
    - cbn. rewrite H in K1. repeat match goal with |- context [match ?x with _ => _ end] => is_var x; destruct x end; cbn; auto.
    - destruct Hm as (e' & Hm & _). cbn [z_q z_op z_rx on_q on_rx moves rxlink] in *. destruct (q_close _ _ _ _ _ Hm) as (_ & _ & A1 & A2). rewrite A1, A2. auto.
    - rewrite H in K1. cbn in K1. destruct Hm as (e' & Hm & He & Hub). rewrite q_events_zqs in He; apply olist_inj in He; subst e'.
      pose proof (sim_own _ _ _ _ _ _ _ Hm) as Ho.
      destruct e as [[]|]; cbn [z_q z_op z_rx on_q on_rx] in *; try (exfalso; exact Ho); try (exfalso; eapply Hub; reflexivity); try (destruct Ho as [Ho1 Ho2]; rewrite ?H; cbn; rewrite Ho1, Ho2; auto; fail).
      all: try (destruct Ho as (_ & Ho & _); congruence).
      all: try (destruct Ho as (_ & -> & ->); repeat split; auto; fail). destruct Ho as (_ & _ & -> & ->); repeat split; auto.
    - rewrite H in K1. cbn in K1. destruct Hm as (e' & Hm & He & Hub). rewrite q_events_zqs in He; apply olist_inj in He; subst e'.
      pose proof (sim_own _ _ _ _ _ _ _ Hm) as Ho.
      destruct e as [[]|]; cbn [z_q z_op z_rx on_q on_rx] in *; try (exfalso; exact Ho); try (exfalso; eapply Hub; reflexivity); try (destruct Ho as [Ho1 Ho2]; rewrite ?H; cbn; rewrite Ho1, Ho2; auto; fail).
      all: try (destruct Ho as (_ & Ho & _); congruence).
      all: try (destruct Ho as (_ & -> & ->); repeat split; auto; fail). destruct Ho as (_ & _ & -> & ->); repeat split; auto.
  Qed.

  (** A Sender that a send borrows moves only by that send. *)
  Lemma use_keeps (s s' : zstate) : (forall i, live (z_op s i) = true -> z_use s (z_by s i) = Some i /\ y_tx (z_y s) (z_by s i) = if in_push (z_op s i) then SPush else SIdle) ->
    forall j, z_use s' = z_use s -> z_by s' = z_by s -> (forall i, i <> j -> z_op s' i = z_op s i) -> (forall i, i <> j -> live (z_op s i) = true -> y_tx (z_y s') (z_by s i) = y_tx (z_y s) (z_by s i)) ->
    (live (z_op s' j) = true -> live (z_op s j) = true /\ y_tx (z_y s') (z_by s j) = if in_push (z_op s' j) then SPush else SIdle) ->
    forall i, live (z_op s' i) = true -> z_use s' (z_by s' i) = Some i /\ y_tx (z_y s') (z_by s' i) = if in_push (z_op s' i) then SPush else SIdle.
  Proof.
    intros HU j E1 E2 E3 E4 E5 i Hi. rewrite E1, E2. destruct (Nat.eq_dec i j) as [->|Hn].
    - destruct (E5 Hi) as [H1 H2]. split; [apply HU, H1|exact H2].
    - rewrite (E3 i Hn) in Hi |- *. destruct (HU i Hi) as [H1 H2]. split; [exact H1|]. now rewrite (E4 i Hn Hi).
  Qed.
  Lemma use_ends (s s' : zstate) : (forall i, live (z_op s i) = true -> z_use s (z_by s i) = Some i /\ y_tx (z_y s) (z_by s i) = if in_push (z_op s i) then SPush else SIdle) ->
    forall j, live (z_op s j) = true -> z_use s' = pset (z_use s) (z_by s j) None -> z_by s' = z_by s -> z_op s' = pset (z_op s) j OEnd ->
    (forall i, i <> j -> live (z_op s i) = true -> y_tx (z_y s') (z_by s i) = y_tx (z_y s) (z_by s i)) ->
    forall i, live (z_op s' i) = true -> z_use s' (z_by s' i) = Some i /\ y_tx (z_y s') (z_by s' i) = if in_push (z_op s' i) then SPush else SIdle.
  Proof.
    intros HU j Hl E1 E2 E3 E4 i. rewrite E1, E2, E3. destruct (Nat.eq_dec i j) as [->|Hn].
    - rewrite pset_same. discriminate.
    - rewrite pset_other by exact Hn. intros Hi. destruct (HU i Hi) as [H1 H2], (HU j Hl) as [H3 _]. rewrite pset_other by congruence. split; [exact H1|]. now rewrite (E4 i Hn Hi).
  Qed.
  Lemma stays_for (s : zstate) y' l a j : ystep (z_y s) a = Some (y', l) -> (forall i, live (z_op s i) = true -> z_use s (z_by s i) = Some i /\ y_tx (z_y s) (z_by s i) = if in_push (z_op s i) then SPush else SIdle) ->
    (forall k, tx_actor a = Some k -> z_use s k = None \/ z_use s k = Some j) ->
    forall i, i <> j -> live (z_op s i) = true -> y_tx y' (z_by s i) = y_tx (z_y s) (z_by s i).
  Proof.
    intros Hs HU Ha i Hn Hi. destruct (HU i Hi) as [H1 H2]. apply (tx_stays _ _ _ _ _ _ _ _ _ _ Hs).
    - intros E. destruct (Ha _ E); congruence.
    - rewrite H2. destruct (in_push _); discriminate.
  Qed.
  Lemma plain_use (s : zstate) (a : yaction (T := T)) k : plain s a = true -> tx_actor a = Some k -> z_use s k = None.
  Proof. destruct a; cbn; intros H E; try discriminate; injection E as <-; unfold unused in H; destruct (z_use s j); congruence. Qed.

  Lemma kuse_step zs s a s' evs : zcase s a s' evs -> Link zs s ->
    forall i, live (z_op s' i) = true -> z_use s' (z_by s' i) = Some i /\ y_tx (z_y s') (z_by s' i) = if in_push (z_op s' i) then SPush else SIdle.
  Proof.
    intros Hc HK. pose proof (K_use _ _ HK) as HU. destruct (K_0 _ _ HK) as (_ & _ & K0). destruct Hc.
    - apply (use_keeps s _ HU 0); auto; [|cbn; rewrite K0; discriminate].
      intros k Hk Hl. apply (stays_for _ _ _ _ 0 H0 HU); auto. intros x Hx. left. exact (plain_use _ _ _ H Hx).
    - intros k. cbn [begin z_op z_use z_by z_y]. destruct (Nat.eq_dec k i) as [->|Hn].
      + rewrite !pset_same. intros _. split; [reflexivity|]. rewrite H1. destruct async; reflexivity.
      + rewrite !(pset_other _ i) by exact Hn. intros Hk. destruct (HU k Hk) as [A1 A2]. rewrite pset_other by congruence. auto.
    - apply (use_keeps s _ HU i); auto; cbn; [intros; now rewrite pset_other|]. rewrite pset_same. rewrite H. intros _. destruct (HU i) as [_ A]; [now rewrite H|]. rewrite H in A. rewrite A. destruct async; auto.
    - destruct (HU i) as [A1 A2]; [now rewrite H|]. apply (use_keeps s _ HU i); auto; cbn; [intros; now rewrite pset_other| |].
      + apply (stays_for _ _ _ _ i H0 HU). intros x Hx. injection Hx as <-. auto.
      + rewrite pset_same, H. intros _. destruct (send_tx _ _ _ _ _ _ _ _ _ H0) as (_ & _ & _ & _ & B). rewrite B. auto.
    - destruct (HU i) as [A1 A2]; [now rewrite H|]. destruct (push_tx _ _ _ _ _ _ _ _ _ _ _ H0) as (e & B1 & -> & B2 & B3).
      assert (Hst : forall k', k' <> i -> live (z_op s k') = true -> y_tx y' (z_by s k') = y_tx (z_y s) (z_by s k')).
      { apply (stays_for _ _ _ _ i H0 HU). intros x Hx. injection Hx as <-. auto. }
      assert (Hfin : forall i0, live (z_op (finish (on_y s y') i) i0) = true -> z_use (finish (on_y s y') i) (z_by (finish (on_y s y') i) i0) = Some i0 /\
        y_tx (z_y (finish (on_y s y') i)) (z_by (finish (on_y s y') i) i0) = if in_push (z_op (finish (on_y s y') i) i0) then SPush else SIdle).
      { apply (use_ends s _ HU i); auto. now rewrite H. }
      assert (Hkeep : y_tx y' (z_by s i) = SPush -> forall i0, live (z_op (on_y s y') i0) = true -> z_use (on_y s y') (z_by (on_y s y') i0) = Some i0 /\
        y_tx (z_y (on_y s y')) (z_by (on_y s y') i0) = if in_push (z_op (on_y s y') i0) then SPush else SIdle).
      { intros B. apply (use_keeps s _ HU i); auto. cbn. rewrite H. auto. }
      unfold after_push. destruct e as [[]|]; cbn [yr]; try (destruct (w_pcs _ _); auto; fail); auto.
      apply (use_keeps s _ HU i); auto; cbn [z_op on_op on_y]; [intros; now rewrite pset_other|]. rewrite pset_same, H. intros _. split; [reflexivity|]. cbn. rewrite B3. destruct q; [| |destruct async]; reflexivity.
    - destruct (HU i) as [A1 A2]; [now rewrite H|]. apply (use_ends s _ HU i); auto; [now rewrite H|]. cbn. apply (stays_for _ _ _ _ i H0 HU). intros x Hx. injection Hx as <-. auto.
    - apply (use_keeps s _ HU i); auto; cbn; [intros; now rewrite pset_other|]. rewrite pset_same. rewrite H. intros _. destruct (HU i) as [_ A]; [now rewrite H|]. rewrite H in A. rewrite A. auto.
    - apply (use_keeps s _ HU i); auto; cbn; [intros; now rewrite pset_other|]. rewrite pset_same. intros _. destruct (HU i) as [_ A]; [destruct H as [H|H]; now rewrite H|].
      destruct H as [H|H]; rewrite H in A |- *; auto.
    - destruct (HU i) as [A1 A2]; [now rewrite H|]. rewrite H in A2. unfold after_wait. destruct e as [[]|].
      all: try (apply (use_ends s _ HU i); auto; now rewrite H).
      all: try (apply (use_keeps s _ HU i); auto; cbn; rewrite H; auto; fail).
      destruct r; try (apply (use_ends s _ HU i); auto; now rewrite H).
      all: apply (use_keeps s _ HU i); auto; cbn; [intros; now rewrite pset_other|]; rewrite H; auto; rewrite pset_same; auto.
    - destruct (HU i) as [A1 A2]; [now rewrite H|]. rewrite H in A2. destruct e as [[]|].
      all: try (apply (use_ends s _ HU i); auto; now rewrite H).
      all: apply (use_keeps s _ HU i); auto; cbn; rewrite H; auto.
    - apply (use_keeps s _ HU i); auto; cbn; rewrite H; auto; discriminate.
    - destruct (HU i) as [A1 A2]; [now rewrite H|]. rewrite H in A2. apply (use_keeps s _ HU i); auto; cbn; [intros; now rewrite pset_other|]; rewrite H, pset_same; auto.
    - apply (use_ends s _ HU i); auto; now rewrite H.
    - apply (use_keeps s _ HU 0); auto; [|cbn; rewrite K0; discriminate]. apply (stays_for _ _ _ _ 0 H1 HU). intros x Hx. discriminate.
    - apply (use_keeps s _ HU 0); auto. cbn. rewrite K0. discriminate.
    - apply (use_keeps s _ HU 0); auto; [|cbn; rewrite K0; discriminate]. apply (stays_for _ _ _ _ 0 H1 HU). intros x Hx. discriminate.
    - apply (use_keeps s _ HU 0); auto. cbn. rewrite K0. discriminate.
    - destruct e as [[]|]; apply (use_keeps s _ HU 0); auto; cbn; rewrite K0; discriminate.
    - destruct e as [[]|]; apply (use_keeps s _ HU 0); auto; cbn; rewrite K0; discriminate.
  Qed.

  (** Calls of the queue made by a step. *)
  Definition is_call (e : qevent) : bool := match e with ECallNotify _ | ECallClose _ | EDrop _ | ETimeout _ => true | _ => false end.
  Lemma calls_step zs s a s' evs : zrun zs s -> zcase s a s' evs -> wq_hasty (z_q s') = [] ->
    forall e, In e (q_events evs) -> is_call e = true ->
    q_events evs = [e] /\
    ((e = ECallNotify 0 /\ z_rx s = XNote /\ z_rx s' = XNotify) \/ (e = ECallClose 0 /\ z_rx s = XClosing /\ z_rx s' = XClose) \/
     exists i, (e = EDrop i \/ e = ETimeout i) /\ In (ZCancelled i) evs).
  Proof.
    intros Hr Hc Hh e He Hk. destruct (zcase_moves _ _ _ _ _ Hr Hc Hh) as [_ Hm].
    destruct (q_act s a) as [b|] eqn:Eb; [|destruct Hm as [_ Hm]; rewrite Hm in He; destruct He].
    destruct Hm as (e1 & Hm & He1 & _). rewrite He1 in He |- *. destruct e1 as [e1|]; [|destruct He]. destruct He as [<-|[]]. split; [reflexivity|].
    destruct Hc; cbn [q_act] in Eb; try discriminate; try (destruct H as [H|H]; rewrite H in Eb); try rewrite H in Eb; injection Eb as <-; cbn [moves] in Hm.
    all: try (apply sim_own in Hm; destruct e1; cbn in Hk; try discriminate; exfalso; exact Hm).
    - destruct (q_new _ _ _ _ _ Hm) as (E & _); injection E as ->; discriminate.
    - destruct (q_start _ _ _ _ _ _ Hm) as (E & _); injection E as ->; discriminate.
    - destruct (q_cont _ _ _ _ _ _ Hm) as (E & _); injection E as ->; discriminate.
    - destruct (q_cont _ _ _ _ _ _ Hm) as (E & _); injection E as ->; discriminate.
    - destruct (q_free _ _ _ _ _ Hm) as (E & _); injection E as ->; discriminate.
    - destruct (q_drop _ _ _ _ _ Hm) as (E & _); injection E as ->. right; right. exists i. split; [auto|now left].
    - destruct (q_timeout _ _ _ _ _ Hm) as (E & _); injection E as ->. right; right. exists i. split; [auto|now left].
    - destruct (q_notify _ _ _ _ _ Hm) as (E & _); injection E as ->. left. auto.
    - destruct (q_close _ _ _ _ _ Hm) as (E & _); injection E as ->. right; left. auto.
  Qed.
  Lemma no_call_excl l es : (forall e, In e l -> is_call e = false) -> close_exclusive es -> close_exclusive (l ++ es).
  Proof.
    induction l as [|e l IH]; intros Hl He; [exact He|]. specialize (IH (fun e' H => Hl e' (or_intror H)) He). pose proof (Hl e (or_introl eq_refl)) as H. destruct e; cbn in H; try discriminate; exact IH.
  Qed.
  (** Once in [XClose] or [XGone] the receiver stays there. *)
  Lemma rx_over s a s' evs : zcase s a s' evs -> z_rx s = XClose \/ z_rx s = XGone -> z_rx s' = XClose \/ z_rx s' = XGone.
  Proof.
    intros Hc Hx. destruct Hc; cbn [z_rx on_y on_q on_op on_rx begin finish]; auto; try (destruct Hx; congruence).
    - now rewrite (proj1 (proj2 (proj2 (after_push_parts _ _ _ _ _)))).
    - now rewrite (proj1 (proj2 (proj2 (after_wait_parts _ _ _ _)))).
    - destruct e as [[]|]; auto.
    - destruct e as [[]|]; auto.
  Qed.

  Theorem link_run zs s : zrun zs s -> wq_hasty (z_q s) = [] -> Link zs s.
  Proof.
    induction 1 as [|zs s a s' evs Hr IH Hs]; intros Hh.
    { constructor; cbn; try tauto; try discriminate; auto. }
    apply zstep_cases in Hs. destruct (zcase_moves _ _ _ _ _ Hr Hs Hh) as [Hh0 _]. specialize (IH Hh0).
    pose proof (calls_step _ _ _ _ _ Hr Hs Hh) as Hcall. constructor.
    - apply (kq_step _ _ _ _ _ Hr Hs Hh IH).
    - apply (k0_step _ _ _ _ _ Hr Hs Hh IH).
    - apply (kuse_step _ _ _ _ _ Hs IH).
    - intros k. rewrite q_events_app, in_app_iff. intros [Hk|Hk]; [|apply (K_note _ _ IH k Hk)].
      destruct (Hcall _ Hk eq_refl) as (_ & [(E & _)|[(E & _)|(i & [E|E] & _)]]); congruence.
    - intros k. rewrite q_events_app, in_app_iff. intros [Hk|Hk].
      + destruct (Hcall _ Hk eq_refl) as (_ & [(E & _)|[(E & _ & E')|(i & [E|E] & _)]]); try congruence. split; [congruence|auto].
      + destruct (K_close _ _ IH k Hk) as [H1 H2]. split; [exact H1|]. exact (rx_over _ _ _ _ Hs H2).
    - rewrite q_events_app. destruct (existsb is_call (q_events evs)) eqn:Ex.
      + apply existsb_exists in Ex as (e & He & Hk). destruct (Hcall e He Hk) as (-> & [(-> & E & _)|[(-> & E & _)|(i & [->| ->] & _)]]); cbn; try apply (K_excl _ _ IH).
        * split; [|apply (K_excl _ _ IH)]. intros k Hk'. destruct (K_close _ _ IH k Hk') as [_ [H|H]]; congruence.
        * split; [|apply (K_excl _ _ IH)]. intros i.
          pose proof (wq_run 0 _ _ _ (proj2 (zproj _ _ _ _ _ _ _ Hr)) Hh0) as HW. rewrite (proj1 (binv_run _ _ _ (Q_run _ _ _ _ HW) (wq_no_ub _ _ _ (proj2 (zproj _ _ _ _ _ _ _ Hr)) Hh0) i)).
          destruct (Nat.eq_dec i 0) as [->|Hi].
          -- destruct (K_0 _ _ IH) as [Hx _]. rewrite E in Hx. cbn in Hx. now rewrite Hx.
          -- pose proof (K_q _ _ IH i Hi) as Hx. destruct (z_op s i); cbn in Hx; destruct Hx as [Hx _]; try (now rewrite Hx); destruct (q_pc (sysq s) i); cbn in Hx; try discriminate; reflexivity.
      + apply no_call_excl; [|apply (K_excl _ _ IH)]. intros e He. destruct (is_call e) eqn:E; [|reflexivity]. rewrite <- Ex. symmetry. apply existsb_exists. eauto.
    - intros i. rewrite q_events_app, !in_app_iff. intros [[Hi|Hi]|[Hi|Hi]].
      + left. destruct (Hcall _ Hi eq_refl) as (_ & [(E & _)|[(E & _)|(k & [E|E] & Hin)]]); congruence.
      + right. apply (K_drop _ _ IH i). auto.
      + left. destruct (Hcall _ Hi eq_refl) as (_ & [(E & _)|[(E & _)|(k & [E|E] & Hin)]]); congruence.
      + right. apply (K_drop _ _ IH i). auto.
  Qed.

  (** The queue is used as its theorems ask. *)
  Definition no_cancel (zs : list (zevent (T := T))) : Prop := forall i, ~ In (ZCancelled i) zs.
  Theorem gr_run zs s : zrun zs s -> wq_hasty (z_q s) = [] -> no_cancel zs -> Gr 0 (q_events zs).
  Proof.
    intros Hr Hh Hn. pose proof (link_run _ _ Hr Hh) as HK. repeat split.
    - apply (wq_no_ub _ _ _ (proj2 (zproj _ _ _ _ _ _ _ Hr)) Hh).
    - apply (K_excl _ _ HK).
    - exact (K_note _ _ HK).
    - intros i Hi. apply (Hn i), (K_drop _ _ HK). auto.
  Qed.
End Link.
