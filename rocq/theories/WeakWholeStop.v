(** A whole channel on weak memory: what is left when everybody has stopped; after the Receiver was dropped; sends that
    are polled only when they were woken. *)
From Coq Require Import List Bool Arith NArith Lia.
From Verif Require Import Word QueueSpec CoreModel CoreArith CoreInv RingSpec HistoryFacts RingFacts ChainFacts WaitCellModel WaitCellSpec WaitList WaitListSpec
  WaitQueueModel WaitQueueSpec WaitQueueFacts WaitQueueSafety WaitQueueWake WaitQueueStored WaitQueueCalls.
From Verif Require ChannelSpec ChannelSend ChannelEvents ChannelInv ChannelQueue.
From Verif Require Import ChannelFacts.
From Verif Require Import WeakModel WeakSpec WeakInv WeakFacts WeakCellModel WeakQueueModel WeakQueueFacts WeakQueueInv WeakQueueData WeakQueuePatient WeakQueueLate WeakQueueTheorems
  WeakChannelModel WeakChannelSpec WeakWholeModel WeakChannelFacts WeakChannelInv WeakWholeFacts WeakWholeLink WeakWholeSend WeakWholeSpec.
From Verif Require Import History.
Import ListNotations.

Section Stop.
  Context {T : Type}.
  Variables (W : N) (cap : nat) (pol : policy T) (debug : bool) (o : chan_orders) (async : bool).
  Hypothesis Hwf : wf W cap.
  Hypothesis Ho : sound_chan o.
  Notation P := (core_new W (N.of_nat cap)).
  Notation zcase := (zcase P pol debug o async).
  Notation zrun := (zrun P pol debug o async).
  Notation zstate := (zstate (T := T)).
  Notation sysq s := (wq_sys (z_q s)).
  Notation ring zs := (ring_events (y_events zs)).
  Notation few := (few_pushes (T := T) W cap).
  Notation nice := (nice W cap).

  (** ** A send that waits was told that the ring is full *)
  Definition asked (x : opstage) : bool := match x with OCall _ | OWait _ | OPark | OCancel => true | ONew => negb async | _ => false end.
  Lemma asked_full zs s i : zrun zs s -> asked (z_op s i) = true -> exists k, In (RetFull k) (ring zs).
  Proof.
    intros Hr. induction Hr as [|zs s a s' evs Hr IH Hs]; [discriminate|]. intros Hi.
    apply zstep_cases in Hs. rewrite y_events_app, ring_app.
    assert (Hold : asked (z_op s i) = true -> exists k, In (RetFull k) (ring evs ++ ring zs)) by (intros H; destruct (IH H) as [k Hk]; exists k; apply in_or_app; now right).
    assert (Hset : forall j x, pset (z_op s) j x i = z_op s' i -> (asked x = true -> asked (z_op s j) = true) -> exists k, In (RetFull k) (ring evs ++ ring zs)).
    { intros j x E Hx. apply Hold. rewrite <- E in Hi. destruct (Nat.eq_dec i j) as [->|Hn]; [rewrite pset_same in Hi; auto|now rewrite pset_other in Hi]. }
    clear IH. destruct Hs; try (apply Hold; exact Hi); try (eapply Hset; [reflexivity|]; rewrite ?H, ?H0; unfold asked; destruct async; cbn; congruence).
    - (* try_send_ref *) unfold after_push in *. rewrite y_events_zys in *. repeat match type of Hi with context [match ?x with _ => _ end] => destruct x end; try (apply Hold; exact Hi);
        try (eapply Hset; [reflexivity|]; cbn; congruence). exists i1. now left.
    - eapply Hset; [reflexivity|]. destruct H as [-> | ->]; reflexivity.
    - unfold after_wait in *. repeat match type of Hi with context [match ?x with _ => _ end] => destruct x end; try (apply Hold; exact Hi);
        (eapply Hset; [reflexivity|]; rewrite H; cbn; congruence).
    - repeat match type of Hi with context [match ?x with _ => _ end] => destruct x end; try (apply Hold; exact Hi);
        (eapply Hset; [reflexivity|]; rewrite H; cbn; congruence).
    - repeat match type of Hi with context [match ?x with _ => _ end] => destruct x end; apply Hold; exact Hi.
    - repeat match type of Hi with context [match ?x with _ => _ end] => destruct x end; apply Hold; exact Hi.
  Qed.

  Lemma full_reserved es r k : weak_run P pol (co_ring o) es r -> few es -> In (RetFull k) es -> 0 < count is_reserve es.
  Proof.
    induction 1 as [|es r a r' e Hr IH Hs]; intros Hf Hk; [destruct Hk|]. assert (Hf' : few es) by (rewrite ocons_app in Hf; exact (few_before _ _ _ _ Hf)).
    rewrite ocons_app, count_split. rewrite ocons_app in Hk. apply in_app_iff in Hk as [Hk|Hk]; [|specialize (IH Hf' Hk); lia].
    destruct e as [e|]; [|destruct Hk]. destruct Hk as [->|[]]. pose proof (weak_full W cap pol (co_ring o) Hwf (so_ring _ Ho) _ _ _ _ _ Hr Hf' Hs) as Hc. unfold occupancy in Hc.
    pose proof (CoreArith.cap_pos _ _ Hwf). lia.
  Qed.

  (** ** After the Receiver was dropped *)
  Lemma count_stays y a y' l ys : ystep P pol debug o async y a = Some (y', l) -> Cnt y ys -> y_count y = 0 -> y_count y' = 0.
  Proof.
    intros Hs HC Hz. pose proof (cnt_zero _ _ HC Hz) as Hd.
    assert (Ha : forall j, y_tx y j <> SIdle) by (intros j E; specialize (Hd j); rewrite E in Hd; discriminate).
    assert (Hrs : forall r e y1 l1, recv_step P pol debug o y r e = Some (y1, l1) -> y_count y1 = y_count y).
    { intros r e y1 l1. unfold recv_step, got, set_rx. repeat match goal with |- context [match ?x with _ => _ end] => destruct x end; intros [= <- _] || discriminate; reflexivity. }
    assert (Hnp : forall r c w p evs y1 l1, next_pop P pol o y r c w p evs = Some (y1, l1) -> y_count y1 = y_count y).
    { intros r c w p evs y1 l1. unfold next_pop, set_rx. repeat match goal with |- context [match ?x with _ => _ end] => destruct x end; intros [= <- _] || discriminate; reflexivity. }
    destruct a; cbn [ystep] in Hs; unfold set_tx, set_rx in Hs;
      repeat match type of Hs with
      | context [match y_tx y ?j with _ => _ end] => destruct (y_tx y j) eqn:?; try discriminate; try (exfalso; now apply (Ha j))
      | context [match ?x with _ => _ end] => destruct x eqn:?; try discriminate
      end; try (injection Hs as <- _; exact Hz); try (rewrite (Hrs _ _ _ _ Hs); exact Hz); try (rewrite (Hnp _ _ _ _ _ _ _ Hs); exact Hz).
  Qed.

  Lemma gone_step y a y' l : ystep P pol debug o async y a = Some (y', l) -> y_rx y' = RGone -> y_rx y = RGone \/ exists pan, a = ADropRx pan.
  Proof.
    intros Hs Hg.
    assert (Hrs : forall r e y1 l1, recv_step P pol debug o y r e = Some (y1, l1) -> y_rx y1 = RGone -> y_rx y = RGone).
    { intros r e y1 l1. unfold recv_step, got, set_rx. repeat match goal with |- context [match ?x with _ => _ end] => destruct x eqn:? end; intros [= <- _] || discriminate; cbn; congruence. }
    assert (Hnp : forall r c w p evs y1 l1, next_pop P pol o y r c w p evs = Some (y1, l1) -> y_rx y1 = RGone -> y_rx y = RGone).
    { intros r c w p evs y1 l1. unfold next_pop, set_rx. repeat match goal with |- context [match ?x with _ => _ end] => destruct x end; intros [= <- _] || discriminate; cbn; congruence. }
    destruct a; try (right; now eexists); left; cbn [ystep] in Hs; unfold set_tx, set_rx in Hs;
      repeat match type of Hs with
      | context [match ?x with _ => _ end] => destruct x eqn:?; try discriminate
      end; try (injection Hs as <- _; cbn in Hg; congruence); try (exact (Hrs _ _ _ _ Hs Hg)); try (exact (Hnp _ _ _ _ _ _ _ Hs Hg)).
  Qed.

  (** Where the receiver is. *)
  Definition rx_done (x : rxstage) : bool := match x with XClosing | XClose | XGone => true | _ => false end.
  Lemma gone_run zs s : zrun zs s -> y_rx (z_y s) = RGone -> rx_done (z_rx s) = true.
  Proof.
    induction 1 as [|zs s a s' evs Hr IH Hs]; [discriminate|]. apply zstep_cases in Hs.
    assert (Hy : forall b y' l, ystep P pol debug o async (z_y s) b = Some (y', l) -> (forall pan, b <> ADropRx pan) -> y_rx y' = RGone -> rx_done (z_rx s) = true).
    { intros b y' l Hb Hn Hg. destruct (gone_step _ _ _ _ Hb Hg) as [H|[pan ->]]; [auto|now destruct (Hn pan)]. }
    destruct Hs; intros Hg; cbn [z_y z_rx on_y on_q on_op on_rx finish begin] in *; auto.
    - apply (Hy _ _ _ H0); auto. intros pan ->. discriminate.
    - apply (Hy _ _ _ H0); auto. discriminate.
    - rewrite (proj1 (after_push_parts _ _ _ _ _)) in Hg. rewrite (proj1 (proj2 (proj2 (after_push_parts _ _ _ _ _)))). apply (Hy _ _ _ H0); auto. discriminate.
    - apply (Hy _ _ _ H0); auto. discriminate.
    - destruct (after_wait_parts (on_q s q') i q e) as (E1 & _ & E3 & _). rewrite E3. rewrite E1 in Hg. auto.
    - destruct e as [[]|]; auto.
    - rewrite H in Hy. discriminate (Hy _ _ _ H1 ltac:(discriminate) Hg).
    - specialize (IH Hg). rewrite H in IH. discriminate.
    - destruct l as [|[[]| | | | |] [|]]; try reflexivity. all: destruct b; reflexivity.
    - destruct e as [[]|]; cbn [z_y z_rx on_y on_q on_op on_rx finish begin] in *; try reflexivity; try (apply IH; exact Hg). specialize (IH Hg). rewrite H in IH. discriminate.
    - destruct e as [[]|]; cbn [z_y z_rx on_y on_q on_op on_rx finish begin] in *; try reflexivity; apply IH; exact Hg.
  Qed.

  Lemma hushed_app (l es : list (event T)) : hushed es -> hushed (l ++ es).
  Proof. intros (i & es2 & es1 & -> & H). exists i, (l ++ es2), es1. split; [now rewrite app_assoc|exact H]. Qed.

  Lemma close_event r i pan r' e : weak_step P pol (co_ring o) r (WeakModel.XClose i pan) = Some (r', e) -> exists b, e = Some (Closing i b).
  Proof. cbn. destruct (w_pcs r i); try discriminate. destruct (core_close _ _ _). destruct pan; intros [= _ <-]; eauto. Qed.

  (** When its drop is over, the Receiver has closed the queue - unless it was dropped while panicking, or no Sender was left. *)
  Lemma closed_run zs s : zrun zs s -> wq_hasty (z_q s) = [] -> no_failure (q_events zs) -> z_rx s = XGone ->
    (exists k, In (ERetClose k) (q_events zs)) \/ hushed (ring zs) \/ y_count (z_y s) = 0.
  Proof.
    induction 1 as [|zs s a s' evs Hr IH Hs]; [discriminate|]. intros Hh Hf Hg. pose proof (zstep_cases _ _ _ _ _ _ _ _ _ Hs) as Hc. clear Hs.
    destruct (zcase_moves _ _ _ _ _ _ _ _ _ _ Hr Hc Hh) as [Hh0 Hm]. rewrite q_events_app in Hf.
    assert (Hf0 : no_failure (q_events zs)) by (intros k Hk; apply (Hf k), in_or_app; now right).
    assert (Hf1 : forall k, ~ In (EAssert k) (q_events evs)) by (intros k Hk; apply (Hf k), in_or_app; now left).
    specialize (IH Hh0 Hf0). rewrite q_events_app, y_events_app, ring_app.
    assert (Old : z_rx s = XGone -> (y_count (z_y s) = 0 -> y_count (z_y s') = 0) -> (exists k, In (ERetClose k) (q_events evs ++ q_events zs)) \/ hushed (ring evs ++ ring zs) \/ y_count (z_y s') = 0).
    { intros E Hz. destruct (IH E) as [[k Hk]|[H|H]]; [left; exists k; apply in_or_app; now right|right; left; now apply hushed_app|auto]. }
    destruct (zproj _ _ _ _ _ _ _ Hr) as [Hyr _]. pose proof (good_run _ _ _ _ _ _ _ Ho Hyr) as HG.
    assert (Hcs : forall b y' l, ystep P pol debug o async (z_y s) b = Some (y', l) -> y_count (z_y s) = 0 -> y_count y' = 0).
    { intros b y' l Hb. exact (count_stays _ _ _ _ _ Hb (gd_cnt _ _ _ _ _ _ HG)). }
    assert (Hub : forall e, q_events evs = olist e -> forall k, e <> Some (EUb k)).
    { intros e Ee k ->. destruct (q_act s a); [|destruct Hm as [_ Hm]; rewrite Hm in Ee; discriminate]. destruct Hm as (e' & _ & E' & Hu). rewrite E' in Ee. apply olist_inj in Ee. now apply (Hu k). }
    destruct Hc; cbn [z_y z_rx on_y on_q on_op on_rx finish begin] in *; try congruence; auto.
    - apply Old; eauto.
    - apply Old; eauto.
    - rewrite (proj1 (after_push_parts _ _ _ _ _)) in *. rewrite (proj1 (proj2 (proj2 (after_push_parts _ _ _ _ _)))) in Hg. apply Old; eauto.
    - apply Old; eauto.
    - destruct (after_wait_parts (on_q s q') i q e) as (E1 & _ & E3 & _). rewrite E3 in Hg. rewrite E1 in *. apply Old; auto.
    - destruct e as [[]|]; apply Old; auto.
    - (* the Receiver is dropped *) cbn [ystep] in H1. unfold ring_step in H1. destruct (weak_step _ _ _ _ _) as [[r' e]|] eqn:Ew; [|discriminate]. destruct (rx_free (y_rx (z_y s))) eqn:Erx; [|discriminate].
      injection H1 as <- <-. destruct (close_event _ _ _ _ _ Ew) as [b ->]. cbn [yr] in Hg. destruct b; [discriminate|]. rewrite y_events_zys. cbn [yr ring_events app].
      destruct (closed_in (ring zs)) eqn:Ec; [|right; left; exists (rx_agent (y_me (z_y s))), [], (ring zs); auto].
      destruct (gd_ir _ _ _ _ _ _ HG Ec) as [E|E]; [right; right; exact E|rewrite E in Erx; discriminate].
    - destruct e as [[]|]; cbn [z_y z_rx on_y on_q on_op on_rx finish begin] in *; try congruence; exfalso; [apply (Hub _ (q_events_zqs _) i); reflexivity|apply (Hf1 i); now left].
    - destruct e as [[]|]; cbn [z_y z_rx on_y on_q on_op on_rx finish begin] in *; try congruence.
      + left. eexists. now left.
      + exfalso. apply (Hub _ (q_events_zqs _) i); reflexivity.
      + exfalso. apply (Hf1 i); now left.
  Qed.

  (** ** Who is parked *)
  Lemma parked_attended zs s i : zrun zs s -> wq_hasty (z_q s) = [] -> z_op s i = OPark -> ChannelSpec.woken_in i (q_events zs) = false ->
    (z_rx s = XFree \/ z_rx s = XGone) -> In i (waiting (q_events zs)).
  Proof.
    intros Hr Hh Hi Hw Hx. pose proof (link_run _ _ _ _ _ _ _ Hr Hh) as HK. destruct (zproj _ _ _ _ _ _ _ Hr) as [_ Hq].
    pose proof (wq_run 0 _ _ _ Hq Hh) as HW. destruct (qrun_safe _ _ _ (Q_run _ _ _ _ HW) (Q_und _ _ _ _ HW) (Q_time _ _ _ _ HW)) as (Hub & _).
    destruct (K_0 _ _ HK) as (Kx & _ & K0). assert (H0 : i <> 0) by (intros ->; congruence). pose proof (K_q _ _ HK i H0) as Kq. rewrite Hi in Kq. destruct Kq as [K1 K2].
    assert (Hp : ChannelQueue.parks (q_pc (sysq s) i) (q_phase (sysq s) i)) by (rewrite K1; split; [reflexivity|exact K2]).
    destruct (ChannelQueue.kinv_run _ _ _ (Q_run _ _ _ _ HW) Hub i Hp) as [H|[[k H]|H]]; [exact H| |congruence]. exfalso.
    apply (proj1 (oinv_run _ _ _ (Q_run _ _ _ _ HW) Hub)) in H. destruct (Nat.eq_dec k 0) as [->|Hk].
    - assert (E : q_pc (sysq s) 0 = QIdle) by (destruct Hx as [E|E]; rewrite E in Kx; exact Kx). rewrite E in H. discriminate.
    - pose proof (K_q _ _ HK k Hk) as Kk. destruct (z_op s k); cbn [oplink] in Kk; destruct Kk as [Kk _]; try (rewrite Kk in H; discriminate); destruct (q_pc (sysq s) k); discriminate.
  Qed.

  (** A send of the channel holds on to its Sender. *)
  Lemma live_count zs s i : zrun zs s -> wq_hasty (z_q s) = [] -> live (z_op s i) = true -> y_count (z_y s) <> 0.
  Proof.
    intros Hr Hh Hi Hz. pose proof (link_run _ _ _ _ _ _ _ Hr Hh) as HK. destruct (K_use _ _ HK i Hi) as [_ Ht].
    pose proof (cnt_zero _ _ (gd_cnt _ _ _ _ _ _ (good_run _ _ _ _ _ _ _ Ho (proj1 (zproj _ _ _ _ _ _ _ Hr)))) Hz (z_by s i)) as Hd.
    rewrite Ht in Hd. destruct (in_push (z_op s i)); discriminate.
  Qed.

  (** The Receiver's drop is over: whoever waited was woken. *)
  Lemma gone_woken zs s i : zrun zs s -> wq_hasty (z_q s) = [] -> no_failure (q_events zs) -> ~ hushed (ring zs) -> z_rx s = XGone ->
    z_op s i = OPark -> ChannelSpec.woken_in i (q_events zs) = true.
  Proof.
    intros Hr Hh Hf Hp Hx Hi. destruct (ChannelSpec.woken_in i (q_events zs)) eqn:E; [reflexivity|exfalso].
    pose proof (parked_attended _ _ _ Hr Hh Hi E (or_intror Hx)) as Hin.
    destruct (closed_run _ _ Hr Hh Hf Hx) as [[k Hk]|[H|H]]; [|contradiction|].
    - rewrite (C56_afterwards debug _ _ k (proj2 (zproj _ _ _ _ _ _ _ Hr)) Hh (K_excl _ _ (link_run _ _ _ _ _ _ _ Hr Hh)) Hk) in Hin. exact Hin.
    - apply (live_count _ _ i Hr Hh); [now rewrite Hi|exact H].
  Qed.

  (** Everybody has stopped, and the channel is not closed by the Receiver: there is no RecvRef. *)
  Lemma stopped_released zs s : zrun zs s -> nice zs s -> z_stopped s zs -> count ChannelSpec.is_release (ring zs) = count is_take (ring zs).
  Proof.
    intros Hr HN (_ & _ & _ & _ & Hst). pose proof (known_run _ _ _ _ _ _ Hwf Ho _ _ Hr HN) as K.
    apply (released_all _ _ _ _ _ (k_ring _ _ _ _ _ _ _ K) (k_noub _ _ _ _ _ _ _ K)). intros i. destruct (holder (w_pcs (y_ring (z_y s)) i)) eqn:E; [exfalso|reflexivity].
    pose proof (holds_run _ _ _ _ _ (k_ring _ _ _ _ _ _ _ K) (k_noub _ _ _ _ _ _ _ K) i) as Hc. rewrite E in Hc. cbn [b2n] in Hc.
    assert (Hin : exists v0, In (Take i v0) (ring zs)).
    { assert (Hpos : 0 < count (took i) (ring zs)) by lia. clear - Hpos. induction (ring zs) as [|x l IH]; cbn [count] in Hpos; [lia|].
      destruct (took i x) eqn:Ex; [|destruct IH as [v0 IH]; [exact Hpos|exists v0; now right]].
      destruct x; try discriminate. apply Nat.eqb_eq in Ex. rewrite <- Ex. eexists. now left. }
    destruct Hin as [v Hin]. destruct (takers_rx _ _ _ _ _ _ _ _ _ Ho (proj1 (zproj _ _ _ _ _ _ _ Hr)) Hin) as [n ->].
    destruct (w_pcs (y_ring (z_y s)) (rx_agent n)) eqn:Ep; try discriminate. exact (Hst _ _ Ep).
  Qed.

  Lemma send_idle zs s i : zrun zs s -> nice zs s -> ~ hushed (ring zs) -> z_stopped s zs -> z_op s i = OPark ->
    (exists v, committed (ring zs) (count is_take (ring zs)) = Some v) /\
    (y_rx (z_y s) = RIdle \/ exists w, y_rx (z_y s) = RPend w /\ recv_woken zs w).
  Proof.
    intros Hr HN Hp Hst Hi. pose proof HN as (Hfw & Hh & Hnc). pose proof (known_run _ _ _ _ _ _ Hwf Ho _ _ Hr HN) as K.
    pose proof (zproj _ _ _ _ _ _ _ Hr) as [Hyr Hqr]. pose proof (all_run W cap pol debug o async Hwf Ho _ _ Hyr Hfw) as HA.
    pose proof Hst as (Htx & Hop & Hx & Hrx & Href).
    assert (Hnw : ChannelSpec.woken_in i (q_events zs) = false) by (destruct (Hop i) as [E|[E|[_ E]]]; congruence).
    pose proof (parked_attended _ _ _ Hr Hh Hi Hnw Hx) as Hin.
    assert (Hxg : z_rx s = XFree).
    { destruct Hx as [Hx|Hx]; [exact Hx|exfalso]. rewrite (gone_woken _ _ _ Hr Hh (k_fail _ _ _ _ _ _ _ K) Hp Hx Hi) in Hnw. discriminate. }
    assert (Hg : y_rx (z_y s) <> RGone) by (intros E; apply (gone_run _ _ Hr) in E; rewrite Hxg in E; discriminate).
    assert (Hop' : closed_in (ring zs) = false).
    { destruct (closed_in (ring zs)) eqn:E; [exfalso|reflexivity]. destruct (gd_ir _ _ _ _ _ _ (al_good _ _ _ _ _ _ _ _ HA) E) as [H|H]; [|contradiction].
      apply (live_count _ _ i Hr Hh); [now rewrite Hi|exact H]. }
    assert (Hfront : exists v, committed (ring zs) (count is_take (ring zs)) = Some v).
    { destruct (dinv_run W cap pol debug o async Hwf Ho _ _ Hr HN) as [H|H|H|H|H _|H|j H].
      - exfalso. destruct (asked_full _ _ i Hr ltac:(now rewrite Hi)) as [k Hk]. pose proof (full_reserved _ _ _ (k_ring _ _ _ _ _ _ _ K) Hfw Hk). lia.
      - congruence.
      - rewrite (stopped_released _ _ Hr HN Hst) in H. destruct (committed (ring zs) (count is_take (ring zs))) as [v|] eqn:Ec; [eauto|exfalso].
        destruct (unfinished _ _ _ _ _ (k_ring _ _ _ _ _ _ _ K) (k_noub _ _ _ _ _ _ _ K) _ H Ec) as (k & _ & Hk).
        destruct (al_sp _ _ _ _ _ _ _ _ HA k) as (j & _ & Hj); [now destruct (w_pcs (y_ring (z_y s)) k)|]. destruct (Htx j) as [E|E], Hj; congruence.
      - congruence.
      - congruence.
      - exfalso. destruct (q_closed (q_events zs)) eqn:Eq.
        + unfold q_closed in Eq. apply existsb_exists in Eq as (e & He & Eq). destruct e; try discriminate.
          destruct (C_call _ _ (k_closed _ _ _ _ _ _ _ K) ltac:(unfold q_closed; apply existsb_exists; eexists; split; [exact He|reflexivity])) as [j Hj].
          destruct (K_close _ _ (k_link _ _ _ _ _ _ _ K) _ Hj) as [_ [E|E]]; congruence.
        + destruct (k_gr _ _ _ _ _ _ _ K) as ((_ & Hex) & H1 & H2).
          destruct (C55_one_notifier 0 _ _ _ Hqr Hh Hex H1 H2) as (_ & Hs & _). rewrite (Hs Eq H) in Hin. exact Hin.
      - exfalso. unfold retry in H. destruct (Hop j) as [E|[E|[E Ew]]]; rewrite E in H; try contradiction.
        pose proof (parked_attended _ _ _ Hr Hh E Ew Hx) as Hj. rewrite (I_wait _ _ (k_inv _ _ _ _ _ _ _ K) j Hj) in H. discriminate. }
    split; [exact Hfront|]. destruct Hrx as [E|[E|[w E]]]; [now left|contradiction|right]. exists w. split; [exact E|].
    refine (pending_settled W cap pol debug o async Hwf Ho _ _ w Hyr Hfw E _ (or_introl Hfront)). intros j. destruct (Htx j) as [-> | ->]; repeat split; discriminate.
  Qed.

  (** ** Sends that are polled only when they were woken *)
  Notation zpat := (zrun_patient P pol debug o async).
  Definition again (x : opstage) : bool := match x with OAgain Queued | OPush Queued | OCall Queued => true | _ => false end.
  Record Pat (zs : list (zevent (T := T))) (s : zstate) : Prop := {
    p_run : zrun zs s;
    p_nc : no_cancel zs;
    p_q : woken_run debug (q_events zs) (z_q s);
    p_patient : patient (q_events zs);
    p_due : forall i, again (z_op s i) = true -> due i (q_events zs) = true;
    p_phase : forall i, z_op s i = OCall Queued -> q_phase (sysq s) i = PWoken }.

  Lemma call_source q b q' e : wq_step debug q b = Some (q', Some e) ->
    match e with
    | EStart i w => exists sync, b = ACall (WaitQueueModel.QStart i w) sync
    | ECont i w => exists sync, b = ACall (QCont i w) sync /\ (sync = true -> exists u, wq_wakes q i = Some u)
    | EDrop i => exists sync, b = ACall (QDrop i) sync
    | ETimeout i => exists sync, b = ACall (QTimeout i) sync
    | _ => True
    end.
  Proof.
    intros H.
    assert (Hst : forall y i spur y', qstep debug y i spur = Some (y', Some e) -> match e with EStart _ _ | ECont _ _ | EDrop _ | ETimeout _ => False | _ => True end).
    { intros y i spur y' Hq. pose proof (ChannelEvents.q_event debug y (QStep i spur) y' e Hq) as Q. destruct e; auto; discriminate. }
    destruct b as [b sync|i [k|]]; cbn [wq_step] in H.
    - assert (Hq : exists y', qstep_sys debug (wq_sys q) b = Some (y', Some e) /\ (sync = true -> caller b <> None /\ wq_wakes q (call_agent b) <> None)).
      { unfold call in H. destruct b; try discriminate H; destruct sync; cbn [caller] in H; try discriminate H;
          try (destruct (wq_wakes q _) eqn:Ew; [|discriminate H]); destruct (qstep_sys debug (wq_sys q) _) as [[y' e']|]; try discriminate H; injection H as _ ->;
          (eexists; split; [reflexivity|]; intros; cbn [call_agent caller]; solve [discriminate|split; [discriminate|congruence]]). }
      destruct Hq as (y' & Hq & Hw). pose proof (ChannelEvents.q_event _ _ _ _ _ Hq) as Q. destruct e; auto; subst b; eauto.
      exists sync. split; [reflexivity|]. intros E. destruct (Hw E) as [_ H']. cbn [call_agent] in H'. destruct (wq_wakes q i); [eauto|congruence].
    - assert (Hq : exists y spur y', qstep debug y i spur = Some (y', Some e)).
      { unfold older, after_load in H. repeat match type of H with
          | context [match qstep ?d ?y ?j ?sp with _ => _ end] => destruct (qstep d y j sp) as [[y1 e1]|] eqn:?; [injection H as _ ->; eauto|discriminate H]
          | context [match ?x with _ => _ end] => destruct x; try discriminate H
          end. }
      destruct Hq as (y & spur & y' & Hq). specialize (Hst _ _ _ _ Hq). destruct e; tauto.
    - unfold newest in H. destruct (qstep debug (wq_sys q) i false) as [[y1 e1]|] eqn:Hq; [|discriminate H].
      assert (E : e1 = Some e) by (destruct (swaps i _ _); injection H as _ ->; reflexivity). subst e1. specialize (Hst _ _ _ _ Hq). destruct e; tauto.
  Qed.
  Lemma due_more i e es : due i es = true -> (forall w, e <> Some (EStart i w) /\ e <> Some (ECont i w)) -> due i (app_ev e es) = true.
  Proof.
    intros H He. destruct e as [e|]; [|exact H]. destruct e; cbn [app_ev due]; auto.
    - destruct (Nat.eqb_spec i0 i) as [->|Hn]; [|exact H]. now destruct (proj1 (He w)).
    - destruct (Nat.eqb_spec i0 i) as [->|Hn]; [|exact H]. now destruct (proj2 (He w)).
    - destruct r; auto. now destruct (Nat.eqb i0 i).
    - now destruct (Nat.eqb n i).
  Qed.

  Lemma pat_run zs s : zpat zs s -> Pat zs s.
  Proof.
    induction 1 as [|zs s a s' evs Hp IH Hw Hs].
    { constructor; try (constructor; fail); try (intros; discriminate); try (intros i []). }
    destruct IH as [Hr Hnc Hq Hpt Hdue Hph]. pose proof (zrun_step _ _ _ _ _ _ _ _ _ _ Hr Hs) as Hr'. pose proof (zstep_cases _ _ _ _ _ _ _ _ _ Hs) as Hc. clear Hs Hp.
    destruct (woken_patient _ _ _ Hq Hpt) as [Hh HPI]. pose proof (link_run _ _ _ _ _ _ _ Hr Hh) as HK.
    assert (Hnc' : no_cancel (evs ++ zs)).
    { intros i Hi. apply in_app_iff in Hi as [Hi|Hi]; [|exact (Hnc i Hi)]. destruct Hc; cbn [on_wake] in Hw; try contradiction;
        try (unfold zys in Hi; apply in_map_iff in Hi as (? & ? & _); discriminate); try (destruct e; cbn in Hi; [destruct Hi as [Hi|[]]; discriminate|destruct Hi]);
        destruct Hi as [Hi|[]]; discriminate. }
    pose proof (zcase_q _ _ _ _ _ _ _ _ _ Hc) as Hzq. destruct (q_act s a) as [b|] eqn:Ea.
    2:{ (* the queue is not involved *)
      destruct Hzq as [Eq Ee]. constructor; auto; rewrite ?q_events_app, ?Ee, ?Eq; cbn [app]; auto.
      - intros i Hi. apply Hdue. clear - Hc Ea Hi. destruct Hc; cbn [q_act] in Ea; try discriminate; try (rewrite H in Ea; discriminate); try (destruct H as [H|H]; rewrite H in Ea; discriminate); cbn [z_op on_y on_op begin finish on_rx] in Hi; auto.
        + destruct (Nat.eq_dec i i0) as [->|Hn]; [rewrite pset_same in Hi; destruct async; discriminate|now rewrite pset_other in Hi].
        + destruct (Nat.eq_dec i i0) as [->|Hn]; [rewrite pset_same in Hi; rewrite H; destruct q; auto|now rewrite pset_other in Hi].
        + destruct (Nat.eq_dec i i0) as [->|Hn].
          * rewrite H. unfold after_push in Hi. repeat match type of Hi with context [match ?x with _ => _ end] => destruct x end; cbn [z_op on_y on_op finish] in Hi; try (rewrite pset_same in Hi); try (rewrite H in Hi; exact Hi); try discriminate Hi.
            destruct q, async; try discriminate Hi; reflexivity.
          * unfold after_push in Hi. repeat match type of Hi with context [match ?x with _ => _ end] => destruct x end; cbn [z_op on_y on_op finish] in Hi; try exact Hi; now rewrite pset_other in Hi.
        + destruct (Nat.eq_dec i i0) as [->|Hn]; [rewrite pset_same in Hi; discriminate|now rewrite pset_other in Hi].
      - intros i Hi. clear - Hc Ea Hi Hph HK. destruct Hc; cbn [q_act] in Ea; try discriminate; try (rewrite H in Ea; discriminate); try (destruct H as [H|H]; rewrite H in Ea; discriminate); cbn [z_op on_y on_op begin finish on_rx] in Hi; auto.
        + apply Hph. destruct (Nat.eq_dec i i0) as [->|Hn]; [rewrite pset_same in Hi; destruct async; discriminate|now rewrite pset_other in Hi].
        + apply Hph. destruct (Nat.eq_dec i i0) as [->|Hn]; [rewrite pset_same in Hi; discriminate|now rewrite pset_other in Hi].
        + destruct (Nat.eq_dec i i0) as [->|Hn].
          * assert (H0' : i0 <> 0) by (intros ->; destruct (K_0 _ _ HK) as (_ & _ & E); congruence). pose proof (K_q _ _ HK i0 H0') as Kq. rewrite H in Kq. destruct Kq as [_ Kq].
            unfold after_push in Hi. repeat match type of Hi with context [match ?x with _ => _ end] => destruct x end; cbn [z_op on_y on_op finish] in Hi; try (rewrite pset_same in Hi); try congruence.
            destruct q, async; try discriminate Hi. exact Kq.
          * apply Hph. unfold after_push in Hi. repeat match type of Hi with context [match ?x with _ => _ end] => destruct x end; cbn [z_op on_y on_op finish] in Hi; try exact Hi; now rewrite pset_other in Hi.
        + apply Hph. destruct (Nat.eq_dec i i0) as [->|Hn]; [rewrite pset_same in Hi; discriminate|now rewrite pset_other in Hi]. }
    (* the queue *)
    destruct Hzq as (e & Hst & Ee & _ & _).
    assert (Eqs : q_events (evs ++ zs) = app_ev e (q_events zs)) by (rewrite q_events_app, Ee; apply olist_app).
    assert (Htw : takes_wake (z_q s) b).
    { clear - Hc Ea Hw Hph. destruct Hc; cbn [q_act] in Ea; try discriminate; cbn [on_wake] in Hw; try contradiction.
      all: try (injection Ea as <-; exact I).
      - rewrite H in Ea. injection Ea as <-. exact I.
      - destruct H as [H|H]; rewrite H in Ea; injection Ea as <-; cbn; [intros E; rewrite (Hph _ H) in E; discriminate|intros _; auto]. }
    pose proof (woken_step _ _ _ _ _ _ Hq Htw Hst) as Hq'. rewrite <- Eqs in Hq'.
    assert (Hsrc : forall x, e = Some x -> match x with
      | EStart i w => exists sync, a = DoCall i w sync /\ z_op s i = OCall Fresh
      | ECont i w => exists sync, a = DoCall i w sync /\ (z_op s i = OCall Queued \/ z_op s i = OPark /\ exists u, wq_wakes (z_q s) i = Some u)
      | EDrop _ | ETimeout _ => False | _ => True end).
    { intros x ->. pose proof (call_source _ _ _ _ Hst) as Q. clear - Q Hc Ea Hw. destruct x; auto.
      - destruct Q as [sync ->]. destruct Hc; cbn [q_act] in Ea; try discriminate.
        + rewrite H in Ea. injection Ea as -> -> ->. eauto.
        + destruct H as [H|H]; rewrite H in Ea; discriminate.
      - destruct Q as (sync & -> & Q). destruct Hc; cbn [q_act] in Ea; try discriminate.
        + rewrite H in Ea. discriminate.
        + cbn [on_wake] in Hw. destruct H as [H|H]; rewrite H in Ea; injection Ea as -> -> ->; eauto 8.
      - destruct Q as [sync ->]. destruct Hc; cbn [q_act on_wake] in *; try discriminate; try contradiction; [rewrite H in Ea|destruct H as [H|H]; rewrite H in Ea]; discriminate.
      - destruct Q as [sync ->]. destruct Hc; cbn [q_act on_wake] in *; try discriminate; try contradiction; [rewrite H in Ea|destruct H as [H|H]; rewrite H in Ea]; discriminate. }
    assert (Hpt' : patient (q_events (evs ++ zs))).
    { rewrite Eqs. destruct e as [e|]; [|exact Hpt]. specialize (Hsrc _ eq_refl). destruct e; cbn [app_ev patient]; auto; try contradiction.
      destruct Hsrc as (sync & _ & [H|[_ [u H]]]); (split; [|exact Hpt]); [apply Hdue; now rewrite H|exact (P_due _ _ HPI _ _ H)]. }
    destruct (woken_patient _ _ _ Hq' Hpt') as [Hh' _]. pose proof (link_run _ _ _ _ _ _ _ Hr' Hh') as HK'.
    destruct (wq_moves _ _ _ _ _ _ (woken_is_run _ _ _ Hq) Hst Hh') as [_ Hm].
    constructor; auto.
    - (* due *) intros i Hi. rewrite Eqs.
      assert (Hret : forall j k r, b = AStep j k -> e = Some (ERet i r) -> i = j).
      { intros j k r -> ->. cbn [moves] in Hm. destruct Hm as [[spur Hm]|(Hm & _)]; [|discriminate]. destruct (ChannelEvents.q_event debug _ (QStep j spur) _ _ Hm) as [sp E]. congruence. }
      assert (Hown : z_op s' i = z_op s i /\ (forall w, e <> Some (EStart i w) /\ e <> Some (ECont i w)) \/ e = Some (ERet i Notified)).
      { assert (Hset : forall j x, again x = false -> z_op s' i = pset (z_op s) j x i -> z_op s' i = z_op s i).
        { intros j x Hx E. destruct (Nat.eq_dec i j) as [->|Hn]; [rewrite E, pset_same in Hi; congruence|]. now rewrite pset_other in E by exact Hn. }
        assert (Hno : z_op s' i = z_op s i \/ e = Some (ERet i Notified)).
        { clear - Hc Ea Ee Hi Hset Hm. destruct Hc; cbn [q_act] in Ea; try discriminate; try (left; eapply Hset; [|reflexivity]; try destruct async; reflexivity); try (now left).
          - rewrite q_events_zqs in Ee. apply olist_inj in Ee. subst e0. unfold after_wait in *. destruct e as [[]|]; try (now left); try (left; eapply Hset; [|reflexivity]; reflexivity).
            injection Ea as <-. cbn [moves] in Hm. destruct Hm as [[spur Hm]|(Hm & _)]; [|discriminate]. destruct (ChannelEvents.q_event debug _ (QStep i0 spur) _ _ Hm) as [sp E]. injection E as <- _.
            destruct r; try (left; eapply Hset; [|reflexivity]; reflexivity). cbn [z_op on_op on_q] in *.
            destruct (Nat.eq_dec i i0) as [->|Hn]; [now right|left; now rewrite pset_other].
          - left. destruct e0 as [[]|]; try reflexivity; (eapply Hset; [|reflexivity]; reflexivity).
          - left. destruct e0 as [[]|]; reflexivity.
          - left. destruct e0 as [[]|]; reflexivity. }
        destruct Hno as [Hno|Hno]; [left; split; [exact Hno|]|now right].
        intros w. split; intros E; specialize (Hsrc _ E); cbn in Hsrc; destruct Hsrc as (sync & -> & Hz).
        - rewrite Hno, Hz in Hi. discriminate.
        - clear - Hc Hno Hz Hi. remember (DoCall i w sync) as a. destruct Hc; try discriminate; injection Heqa as -> -> ->; cbn [z_op on_op on_q] in Hno; rewrite pset_same in Hno; destruct Hz as [Hz|[Hz _]]; congruence. }
      destruct Hown as [[H1 H2]| ->]; [apply due_more; [apply Hdue; now rewrite <- H1|exact H2]|]. cbn [app_ev due]. now rewrite Nat.eqb_refl.
    - (* phase *) intros i Hi.
      assert (Ho' : z_op s i = OCall Queued /\ mover b <> i).
      { clear - Hc Ea Hi Ee Hm HK.
        assert (Hset : forall j x, x <> OCall Queued -> z_op s' i = pset (z_op s) j x i -> z_op s i = OCall Queued /\ j <> i).
        { intros j x Hx E. destruct (Nat.eq_dec i j) as [->|Hn]; [rewrite E, pset_same in Hi; congruence|]. rewrite pset_other in E by exact Hn. split; congruence. }
        assert (H0 : forall x, z_op s i = x -> x <> ONone -> 0 <> i) by (intros x E Hx <-; destruct (K_0 _ _ HK) as (_ & _ & E0); congruence).
        destruct Hc; cbn [q_act] in Ea; try discriminate.
        - injection Ea as <-. eapply Hset; [|reflexivity]. destruct async; discriminate.
        - rewrite H in Ea. injection Ea as <-. eapply Hset; [|reflexivity]. discriminate.
        - destruct H as [H|H]; rewrite H in Ea; injection Ea as <-; (eapply Hset; [|reflexivity]; discriminate).
        - injection Ea as <-. cbn [mover]. unfold after_wait in *. destruct e0 as [[]|]; try (eapply Hset; [|reflexivity]; discriminate).
          all: try (split; [exact Hi|]; intros ->; cbn [z_op on_q] in Hi; congruence). destruct r; (eapply Hset; [|reflexivity]; discriminate).
        - injection Ea as <-. cbn [mover]. destruct e0 as [[]|]; try (eapply Hset; [|reflexivity]; discriminate); (split; [exact Hi|]; intros ->; cbn [z_op on_q] in Hi; congruence).
        - injection Ea as <-. cbn [mover]. split; [exact Hi|]. cbn. intros ->. cbn [z_op on_q] in Hi. congruence.
        - injection Ea as <-. eapply Hset; [|reflexivity]. discriminate.
        - injection Ea as <-. eapply Hset; [|reflexivity]. discriminate.
        - injection Ea as <-. cbn in *. split; [exact Hi|]. apply (H0 _ Hi). discriminate.
        - injection Ea as <-. cbn in *. split; [exact Hi|]. apply (H0 _ Hi). discriminate.
        - injection Ea as <-. cbn [mover]. assert (E : z_op s i = OCall Queued) by (destruct e0 as [[]|]; exact Hi). split; [exact E|]. apply (H0 _ E). discriminate.
        - injection Ea as <-. cbn [mover]. assert (E : z_op s i = OCall Queued) by (destruct e0 as [[]|]; exact Hi). split; [exact E|]. apply (H0 _ E). discriminate. }
      destruct Ho' as [H1 H2]. rewrite (proj2 (moves_others _ _ _ _ _ _ Hm i ltac:(congruence))). now apply Hph.
  Qed.

  Lemma pat_nice zs s : zpat zs s -> zrun zs s /\ wq_hasty (z_q s) = [] /\ no_cancel zs.
  Proof. intros H. destruct (pat_run _ _ H) as [H1 H2 H3 H4 _ _]. split; [exact H1|]. split; [exact (proj1 (woken_patient _ _ _ H3 H4))|exact H2]. Qed.

  (** ** Room is announced *)
  Lemma closing_first zs s : zrun zs s -> wq_hasty (z_q s) = [] -> z_rx s = XClosing \/ (exists k, In (ECallClose k) (q_events zs)) -> closed_in (ring zs) = true.
  Proof.
    induction 1 as [|zs s a s' evs Hr IH Hs]; [intros _ [H|[k []]]; discriminate|]. intros Hh Hx.
    pose proof (zstep_cases _ _ _ _ _ _ _ _ _ Hs) as Hc. clear Hs.
    destruct (zcase_moves _ _ _ _ _ _ _ _ _ _ Hr Hc Hh) as [Hh0 _]. specialize (IH Hh0).
    pose proof (calls_step _ _ _ _ _ _ _ _ _ _ Hr Hc Hh) as Hcall. rewrite q_events_app in Hx. rewrite y_events_app, ring_app.
    assert (Old : closed_in (ring zs) = true -> closed_in (ring evs ++ ring zs) = true).
    { unfold closed_in. rewrite existsb_app. intros ->. apply orb_true_r. }
    destruct Hx as [Hx|[k Hk]]; [|apply Old; apply in_app_or in Hk as [Hk|Hk]; [|apply IH; eauto];
      destruct (Hcall _ Hk eq_refl) as (_ & [(E & _)|[(_ & E & _)|(i & [E|E] & _)]]); try discriminate; apply IH; now left].
    assert (OldX : z_rx s = XClosing -> closed_in (ring evs ++ ring zs) = true) by (intros E; apply Old, IH; now left).
    clear Hcall Old IH. destruct Hc; cbn [z_y z_rx on_y on_q on_op on_rx finish begin] in *; try congruence; auto.
    - rewrite (proj1 (proj2 (proj2 (after_push_parts _ _ _ _ _)))) in Hx. auto.
    - rewrite (proj1 (proj2 (proj2 (after_wait_parts (on_q s q') i q e)))) in Hx. auto.
    - destruct e as [[]|]; auto.
    - rewrite y_events_zys. destruct l as [|[[]| | | | |] [|]]; try discriminate Hx; destruct b; first [reflexivity|discriminate Hx].
    - destruct e as [[]|]; cbn [z_rx on_rx] in Hx; congruence || auto.
    - destruct e as [[]|]; cbn [z_rx on_rx] in Hx; congruence || auto.
  Qed.

  Lemma room_announced zs s n : zrun zs s -> nice zs s -> closed_in (ring zs) = false -> In n (waiting (q_events zs)) ->
    count is_reserve (ring zs) <= count ChannelSpec.is_release (ring zs) -> is_notifying s \/ exists i, tries_again s i.
  Proof.
    intros Hr HN Hcl Hw Hc. pose proof (known_run _ _ _ _ _ _ Hwf Ho _ _ Hr HN) as K. pose proof HN as (Hfw & Hh & Hnc).
    assert (Hres : 0 < count is_reserve (ring zs)).
    { destruct (waiting_where W cap pol debug o async Hwf Ho _ _ _ Hr HN Hw) as [_ Hwh].
      destruct (asked_full _ _ n Hr) as (k & Hk); [destruct (z_op s n) as [| | | |[]| | | |]; try contradiction; reflexivity|].
      exact (full_reserved _ _ k (k_ring _ _ _ _ _ _ _ K) Hfw Hk). }
    destruct (dinv_run W cap pol debug o async Hwf Ho _ _ Hr HN) as [E|E|E|E|E1 E2|E|i E]; try congruence; try lia.
    - left. now left.
    - left. right. split; [exact E1|]. destruct (q_pc (sysq s) 0); try discriminate E2; exact I.
    - exfalso. assert (Hqc : q_closed (q_events zs) = false).
      { destruct (q_closed (q_events zs)) eqn:Eq; [|reflexivity]. rewrite (closing_first _ _ Hr Hh) in Hcl; [discriminate|]. right.
        exact (C_call _ _ (k_closed _ _ _ _ _ _ _ K) Eq). }
      destruct (k_gr _ _ _ _ _ _ _ K) as ((_ & Hex) & H1 & H2). destruct (zproj _ _ _ _ _ _ _ Hr) as [_ Hqr].
      destruct (C55_one_notifier 0 _ _ _ Hqr Hh Hex H1 H2) as (_ & Hs & _). rewrite (Hs Hqc E) in Hw. exact Hw.
    - right. exists i. unfold tries_again. unfold retry, undecided, ChannelSend.qretry in E. destruct (z_op s i) as [| | | |[]| | | |]; auto.
      destruct (w_pcs (y_ring (z_y s)) (tx_agent (z_by s i))); try discriminate E; exact I.
  Qed.
End Stop.
