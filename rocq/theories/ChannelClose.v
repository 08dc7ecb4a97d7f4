(** The receiver goes away; and the order of publishing and notifying. *)
From Coq Require Import List Bool Arith NArith Lia.
From Verif Require CoreInv CoreStep RingFacts.
From Verif Require Import CoreArith RingSpec.
From Verif Require Import QueueSpec CoreModel WaitCellModel WaitList WaitListSpec WaitQueueModel WaitQueueSpec WaitQueueFacts WaitQueueWake.
From Verif Require WaitCellSpec WaitCellFacts WaitCellTheorems.
From Verif Require Import ChannelModel ChannelSpec ChannelFacts ChannelLink ChannelEvents ChannelRing ChannelQueue ChannelInv ChannelSend ChannelStop ChannelRecv ChannelEnd ChannelDeadlock.
From Verif Require Import History.
Import ListNotations.

Section Close.
  Context {T : Type}.
  Variables (W : N) (cap : nat) (pol : policy T) (async debug : bool).
  Hypothesis Hwf : wf W cap.
  Notation P := (core_new W (N.of_nat cap)).
  Notation B := (slack W cap).
  Notation cstep_sys := (@cstep_sys T P pol async debug).
  Notation crun := (@crun T P pol async debug).
  Notation csteps := (@csteps T P pol async debug).
  Local Arguments drop_id : simpl never.

  Lemma csteps_run es s l s' : crun es s -> csteps s l s' -> crun (l ++ es) s'.
  Proof. intros Hr. induction 1 as [|l s1 a s2 l' H IH Hs]; [exact Hr|]. rewrite <- app_assoc. exact (crun_step _ _ _ _ _ _ _ _ _ IH Hs). Qed.

  (** ** Waiting Senders *)
  Lemma gone_closed es s : crun es s -> ring_calm W cap es -> ch_rx s = RGone -> ~ In (RxDropped true) es -> closed_in (ring_of es) = true.
  Proof. intros Hr HC Hx Hd. pose proof (ginv_run W cap pol async debug Hwf _ _ Hr HC) as G. unfold ginv in G. rewrite Hx in G. destruct G; [contradiction|assumption]. Qed.
  Lemma park_count (s : @chan T) i : Link s -> active (ch_tx s i) = true -> 0 < ch_count s.
  Proof.
    intros HK Hi. destruct (ch_count s) eqn:E; [|lia]. exfalso. apply (K_live _ HK) in Hi. rewrite (K_zero _ HK E) in Hi. exact Hi.
  Qed.
  Lemma gone_woken es s i : crun es s -> ring_calm W cap es -> memory_ok es -> ch_rx s = RGone -> ~ In (RxDropped true) es -> ch_tx s i = TPark ->
    send_woken i es = true.
  Proof.
    intros Hr HC Hm Hx Hd Hi. pose proof (link_run _ _ _ _ _ _ Hr) as HK.
    pose proof (l_ring _ _ _ (linv_run W cap pol async debug Hwf _ _ Hr HC) (park_count _ i HK ltac:(now rewrite Hi)) (gone_closed _ _ Hr HC Hx Hd)) as Hc.
    unfold rx_closed in Hc. rewrite Hx in Hc. exact (closed_nobody W cap pol async debug _ _ Hr Hm Hc _ Hi).
  Qed.

  (** ** What sends return on a closed channel *)
  (** [late]: the send started when the ring was closed. *)
  Definition doomed (late : bool) (i : nat) (es : list (cevent T)) (s : @chan T) : Prop :=
    closed_in (ring_of es) = true /\
    match ch_tx s i with
    | TEnd | TDead => True
    | TNew => late = true -> async = true
    | TAgain st => late = true \/ st <> STry
    | TPush st => undecided (st_agents (ch_ring s) i) = true /\
        if late then forall es0, In es0 (moments i (ring_of es)) -> closed_in es0 = true else st <> STry
    | TCall st | TWait st => late = false /\ st <> STry
    | TPark | TCancel => late = false
    | _ => False
    end.

  Lemma tx_frame s a s' l i : Link s -> cstep_sys s a = Some (s', l) -> Nat.even i = false -> actor a <> Some i ->
    ch_tx s' i = ch_tx s i /\ st_agents (ch_ring s') i = st_agents (ch_ring s) i /\ (forall r, ~ In (Sent i r) l) /\ (forall w, ~ In (EStart i w) (queue_of l)).
  Proof.
    intros HK Hs Hev Ha. assert (H0 : i <> 0) by (intros ->; discriminate).
    assert (Hq : forall w, ~ In (EStart i w) (queue_of l)).
    { intros w Hin. destruct (events_tail _ _ _ _ _ _ _ _ Hs) as (_ & _ & L3). destruct (single _ L3) as [E|[e E]]; rewrite E in Hin; [contradiction|]. destruct Hin as [->|[]].
      clear - Hs E Ha. ccases Hs a; cbn [actor] in Ha; rewrite ?queue_of_app in E; cbn in E; try discriminate E; try (destruct o as [[]|]; try discriminate E).
      all: injection E; intros; subst.
      all: match goal with H : qstep_sys _ _ _ = Some (_, Some _) |- _ => pose proof (q_event _ _ _ _ _ H) as Q end; try discriminate Q; injection Q; intros; subst; congruence. }
    split; [|split; [|split; [|exact Hq]]]; clear Hq.
    all: ccases Hs a; cbn [actor] in Ha; cbn [ch_tx ch_ring ch_queue on_ring on_cell on_queue on_tx on_rx on_count on_live on_refs on_out finish]; auto 6.
    all: try (rewrite tset_other by congruence; reflexivity).
    all: try (intros rr Hin; cbn in Hin; try (destruct o; cbn in Hin); repeat (destruct Hin as [Hin|Hin]); try discriminate; try contradiction; injection Hin; congruence).
    all: try (match goal with H : step _ _ _ _ = Some _ |- _ => refine (r_others _ _ _ _ _ _ _ _ H _) end).
    all: try congruence.
    all: auto.
    all: frs; refs; intros ->.
    all: try (match goal with H : ch_rx _ = _ |- _ => pose proof (K_use _ HK i ltac:(rewrite H; reflexivity)) as [? _] end; congruence).
    all: match goal with H : In _ (ch_refs _) |- _ => apply (proj2 (K_refs _ HK)) in H; congruence end.
  Qed.

  Lemma moments_closed i e (es : list (event T)) : closed_in es = true -> (forall es0, In es0 (moments i es) -> closed_in es0 = true) ->
    forall es0, In es0 (moments i (e :: es)) -> closed_in es0 = true.
  Proof.
    intros Hc Hm es0. cbn [moments]. assert (H1 : closed_in (e :: es) = true) by (unfold closed_in in *; simpl; rewrite Hc; apply orb_true_r).
    intros [<-|Hin]; [exact H1|]. destruct (is_invoke i e); [contradiction|auto].
  Qed.

  Lemma doomed_step late es s a s' l i : crun es s -> ring_calm W cap (l ++ es) -> cstep_sys s a = Some (s', l) -> doomed late i es s ->
    doomed late i (l ++ es) s' /\ (forall r, In (Sent i r) l -> r = SentClosed) /\ (late = true -> forall w, ~ In (EStart i w) (queue_of l)).
  Proof.
    intros Hr HC Hs [Hcl HD]. pose proof (link_run _ _ _ _ _ _ Hr) as HK. pose proof (calm_tail _ _ _ _ HC) as HC0.
    pose proof (crun_ring _ _ _ _ _ _ (crun_step _ _ _ _ _ _ _ _ _ Hr Hs)) as Hrr. unfold ring_calm in HC. rewrite ring_of_app in *.
    assert (Hne : ch_tx s i <> TNone) by (intros E; rewrite E in HD; exact HD).
    destruct (tx_odd _ _ HK Hne) as [Hev H0].
    assert (Hcl' : closed_in (ring_of l ++ ring_of es) = true) by (rewrite closed_app, Hcl; apply orb_true_r).
    assert (Hmom : (forall es0, In es0 (moments i (ring_of es)) -> closed_in es0 = true) -> forall es0, In es0 (moments i (ring_of l ++ ring_of es)) -> closed_in es0 = true).
    { intros H. destruct (events_tail _ _ _ _ _ _ _ _ Hs) as (L1 & _). destruct (single _ L1) as [->|[e ->]]; [exact H|]. now apply moments_closed. }
    unfold doomed. rewrite ring_of_app.
    assert (Hd : {actor a = Some i} + {actor a <> Some i}) by (decide equality; apply Nat.eq_dec). destruct Hd as [Ha|Ha].
    2:{ destruct (tx_frame _ _ _ _ _ HK Hs Hev Ha) as (E1 & E2 & E3 & E4). split; [|split; [intros r Hin; destruct (E3 _ Hin)|auto]]. split; [exact Hcl'|].
        rewrite E1, E2. destruct (ch_tx s i); auto. destruct HD as [D1 D2]. split; [exact D1|]. destruct late; auto. }
    assert (Hu : forall spur r' o st, ch_tx s i = TPush st -> step P pol (ch_ring s) (AStep i spur) = Some (r', o) -> ring_of l = olist o ->
      (o = None /\ undecided (st_agents r' i) = true) \/ (o = Some (RetFull i) /\ late = false) \/ o = Some (RetPushClosed i)).
    { intros spur r' o st Et Hst El. rewrite Et in HD. destruct HD as [D1 D2]. rewrite El in *.
      destruct (r_undecided _ _ _ _ _ _ _ _ Hst D1) as [H|[->|[->|[->| ->]]]]; auto.
      - exfalso. cbn in HC, Hrr. destruct (RingFacts.reserve_not_closed W cap pol Hwf [] i (ring_of es) ltac:(eexists; exact Hrr) HC). congruence.
      - right. left. split; [reflexivity|]. destruct late; [exfalso|reflexivity]. cbn in HC, Hrr.
        pose proof (RingFacts.push_after_close W cap pol Hwf [] i _ (ring_of es) ltac:(eexists; exact Hrr) HC ltac:(right; left; reflexivity) D2). discriminate.
      - exfalso. cbn in HC, Hrr. apply (RingFacts.no_ub W cap pol Hwf _ i ltac:(eexists; exact Hrr) HC). now left. }
    assert (Hq : late = true -> forall w, ~ In (EStart i w) (queue_of l)).
    { intros -> w Hin. destruct (events_tail _ _ _ _ _ _ _ _ Hs) as (_ & _ & L3). destruct (single _ L3) as [E|[e E]]; rewrite E in Hin; [contradiction|]. destruct Hin as [->|[]].
      pose proof (at_queue _ _ _ _ _ _ _ _ _ HK Hs E) as [Q|[Q|Q]]; rewrite Q in HD; destruct HD; discriminate. }
    ccases Hs a; cbn [actor] in Ha; try discriminate Ha; injection Ha as ->; frs; rewrite ?Heqt, ?Heqt0 in HD; try contradiction; try congruence.
    all: cbn [ch_tx ch_ring ch_queue on_ring on_cell on_queue on_tx on_rx on_count on_live on_refs on_out finish]; rewrite ?tset_same, ?Heqt.
    all: try (match goal with H : step _ _ _ (AStep ?j ?sp) = Some (?r', ?o), Ht : ch_tx _ ?j = TPush ?st |- _ =>
      destruct (Hu sp r' o st Ht H ltac:(cbn; destruct o; reflexivity)) as [[-> Hund]|[[-> ->]| ->]] end; clear Hu;
      try match goal with H : push_ret _ = _ |- _ => discriminate H end).
    all: split; [split; [exact Hcl'|]|split; [|try exact Hq]].
    all: try (intros rr Hin; cbn in Hin; try (match type of Hin with context [olist ?o] => destruct o; cbn in Hin end); repeat (destruct Hin as [Hin|Hin]); try discriminate; try contradiction; injection Hin; congruence).
    all: try exact I.
    all: try discriminate.
    all: try exact HD.
    all: try (right; discriminate).
    all: try (split; [exact (proj1 HD)|discriminate]).
    all: try exact (proj1 HD).
    all: try (split; [reflexivity|discriminate]).
    all: try (right; exact (proj2 HD)).
    - split; [|discriminate]. destruct late; [discriminate (HD eq_refl)|reflexivity].
    - destruct (r_invoke _ _ _ _ _ _ _ Heqo) as (_ & -> & _ & E & _). rewrite E. split; [reflexivity|]. destruct late.
      + intros es0. cbn [olist map ring_of app moments is_invoke]. rewrite Nat.eqb_refl. intros [<-|[]]. exact Hcl'.
      + destruct HD as [HD|HD]; [discriminate|exact HD].
    - exfalso. apply (proj2 HD). reflexivity.
    - split; [exact Hund|]. destruct late; [|apply HD]. apply Hmom, HD.
    - split; [exact HD|discriminate].
  Qed.
  Lemma doomed_steps late es s l s' i : crun es s -> csteps s l s' -> ring_calm W cap (l ++ es) -> doomed late i es s ->
    doomed late i (l ++ es) s' /\ (forall r, In (Sent i r) l -> r = SentClosed) /\ (late = true -> forall w, ~ In (EStart i w) (queue_of l)).
  Proof.
    intros Hr H HC HD. induction H as [|l s1 a s2 l' H IH Hs]; [repeat split; auto; try apply HD; contradiction|].
    rewrite <- app_assoc in *. destruct (IH (calm_tail _ _ _ _ HC)) as (I1 & I2 & I3).
    destruct (doomed_step late _ _ _ _ _ i (csteps_run _ _ _ _ Hr H) HC Hs I1) as (S1 & S2 & S3). split; [exact S1|]. split.
    - intros r Hin. apply in_app_or in Hin. destruct Hin; auto.
    - intros Hl w. rewrite queue_of_app. intros Hin. apply in_app_or in Hin. destruct Hin as [Hin|Hin]; [exact (S3 Hl _ Hin)|exact (I3 Hl _ Hin)].
  Qed.

  Lemma parked_doomed es s i : closed_in (ring_of es) = true -> ch_tx s i = TPark -> doomed false i es s.
  Proof. intros Hc Hi. split; [exact Hc|]. now rewrite Hi. Qed.
  Lemma sending_new s a s' l i t : cstep_sys s a = Some (s', l) -> In (Sending i t) l ->
    l = [Sending i t] /\ ch_tx s i = TNone /\ ch_tx s' i = if t then TAgain STry else if async then TNew else TAgain SFast.
  Proof.
    intros Hs Hin. ccases Hs a; cbn [ch_tx on_ring on_cell on_queue on_tx on_rx on_count on_live on_refs on_out finish] in *;
      try (cbn in Hin; try (destruct o; cbn in Hin); repeat (destruct Hin as [Hin|Hin]); try discriminate; try contradiction; fail).
    all: destruct Hin as [Hin|[]]; injection Hin; intros; subst; frs; rewrite tset_same; auto.
  Qed.
  (** A process that has not started has done nothing. *)
  Lemma none_back s a s' l i : Link s -> cstep_sys s a = Some (s', l) -> ch_tx s' i = TNone ->
    ch_tx s i = TNone /\ (forall r, ~ In (Sent i r) l) /\ (forall w, ~ In (EStart i w) (queue_of l)).
  Proof.
    intros HK Hs Hn. assert (Hb : ch_tx s i = TNone /\ (forall r, ~ In (Sent i r) l)).
    { ccases Hs a; cbn [ch_tx on_ring on_cell on_queue on_tx on_rx on_count on_live on_refs on_out finish] in *;
        try (unfold tset in Hn; match type of Hn with context [Nat.eqb ?x ?y] => destruct (Nat.eqb_spec x y) as [E|E]; [discriminate Hn|] end);
        (split; [exact Hn|]); intros rr Hin; cbn in Hin; try (destruct o; cbn in Hin); repeat (destruct Hin as [Hin|Hin]); try discriminate; try contradiction;
        injection Hin; intros; congruence. }
    destruct Hb as [Hb1 Hb2]. split; [exact Hb1|]. split; [exact Hb2|].
    intros w Hin. destruct (events_tail _ _ _ _ _ _ _ _ Hs) as (_ & _ & L3). destruct (single _ L3) as [E|[e E]]; rewrite E in Hin; [contradiction|]. destruct Hin as [->|[]].
    pose proof (at_queue _ _ _ _ _ _ _ _ _ HK Hs E) as [Q|[Q|Q]]; congruence.
  Qed.
  Lemma none_steps es s l s' i : crun es s -> csteps s l s' -> ch_tx s' i = TNone -> ch_tx s i = TNone /\ (forall r, ~ In (Sent i r) l) /\ (forall w, ~ In (EStart i w) (queue_of l)).
  Proof.
    intros Hr H. induction H as [|l s1 a s2 l' H IH Hs]; intros E; [auto|]. pose proof (link_run _ _ _ _ _ _ (csteps_run _ _ _ _ Hr H)) as HK.
    destruct (none_back _ _ _ _ _ HK Hs E) as (N1 & N2 & N3). destruct (IH N1) as (I1 & I2 & I3). split; [exact I1|]. rewrite queue_of_app. split.
    - intros r Hin. apply in_app_or in Hin. destruct Hin as [Hin|Hin]; [exact (N2 _ Hin)|exact (I2 _ Hin)].
    - intros w Hin. apply in_app_or in Hin. destruct Hin as [Hin|Hin]; [exact (N3 _ Hin)|exact (I3 _ Hin)].
  Qed.
  (** A send that starts on a closed ring. *)
  Lemma late_sends es s l s' i t : crun es s -> csteps s l s' -> ring_calm W cap (l ++ es) -> closed_in (ring_of es) = true -> In (Sending i t) l ->
    doomed true i (l ++ es) s' /\ (forall r, In (Sent i r) l -> r = SentClosed) /\ (forall w, ~ In (EStart i w) (queue_of l)).
  Proof.
    intros Hr H HC Hcl Hin. induction H as [|l s1 a s2 l' H IH Hs]; [contradiction|]. pose proof (csteps_run _ _ _ _ Hr H) as Hr1.
    rewrite <- app_assoc in *. pose proof (calm_tail _ _ _ _ HC) as HC0.
    assert (Hcl1 : closed_in (ring_of (l ++ es)) = true) by now apply closed_mono.
    apply in_app_or in Hin. destruct Hin as [Hin|Hin].
    - destruct (sending_new _ _ _ _ _ _ Hs Hin) as (El & E1 & E2). destruct (none_steps _ _ _ _ _ Hr H E1) as (N1 & N2 & N3). subst l'. split; [|split].
      + split; [exact (closed_mono [Sending i t] _ Hcl1)|]. rewrite E2. destruct t; [now left|]. destruct async; [auto|now left].
      + intros r [X|X]; [discriminate|destruct (N2 _ X)].
      + exact N3.
    - destruct (IH HC0 Hin) as (I1 & I2 & I3). destruct (doomed_step true _ _ _ _ _ i Hr1 HC Hs I1) as (S1 & S2 & S3). split; [exact S1|]. split.
      + intros r X. apply in_app_or in X. destruct X; auto.
      + intros w. rewrite queue_of_app. intros X. apply in_app_or in X. destruct X as [X|X]; [exact (S3 eq_refl _ X)|exact (I3 _ X)].
  Qed.
  (** Nobody waits when everybody has stopped. *)
  Lemma gone_stopped es s : crun es s -> ring_calm W cap es -> memory_ok es -> ch_rx s = RGone -> ~ In (RxDropped true) es -> stopped s es ->
    forall i, match ch_tx s i with TNone | TEnd | TDead => True | _ => False end.
  Proof.
    intros Hr HC Hm Hx Hd Hst i. pose proof (proj1 Hst i) as H. pose proof (gone_woken _ _ i Hr HC Hm Hx Hd) as Hw. destruct (ch_tx s i); auto.
    rewrite (Hw eq_refl) in H. discriminate.
  Qed.
  Lemma gone_steps s l s' : csteps s l s' -> ch_rx s = RGone -> ch_rx s' = RGone /\ forall p, ~ In (RxDropped p) l.
  Proof.
    intros H Hx. induction H as [|l s1 a s2 l' H IH Hs]; [auto|]. destruct IH as [I1 I2].
    assert (Hg : ch_rx s2 = RGone /\ forall p, ~ In (RxDropped p) l').
    { clear - I1 Hs. ccases Hs a; cbn [ch_rx on_ring on_cell on_queue on_tx on_rx on_count on_live on_refs on_out finish] in *; try congruence;
        try (split; [exact I1|]; intros pp Hin; cbn in Hin; try (destruct o; cbn in Hin); repeat (destruct Hin as [Hin|Hin]); try discriminate; contradiction).
      all: frs; unfold rx_free in *; rewrite I1 in *; discriminate. }
    destruct Hg as [G1 G2]. split; [exact G1|]. intros p Hin. apply in_app_or in Hin. destruct Hin as [Hin|Hin]; [exact (G2 _ Hin)|exact (I2 _ Hin)].
  Qed.
End Close.
