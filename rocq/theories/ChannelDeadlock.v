(** What is left when everybody has stopped. *)
From Coq Require Import List Bool Arith NArith Lia.
From Verif Require CoreInv CoreStep RingFacts.
From Verif Require Import CoreArith RingSpec.
From Verif Require Import QueueSpec CoreModel WaitCellModel WaitList WaitListSpec WaitQueueModel WaitQueueSpec WaitQueueFacts WaitQueueWake.
From Verif Require WaitCellSpec WaitCellFacts WaitCellTheorems.
From Verif Require Import ChannelModel ChannelSpec ChannelFacts ChannelLink ChannelEvents ChannelRing ChannelQueue ChannelInv ChannelSend ChannelStop ChannelRecv ChannelEnd.
From Verif Require Import History.
Import ListNotations.

Section Deadlock.
  Context {T : Type}.
  Variables (W : N) (cap : nat) (pol : policy T) (async debug : bool).
  Hypothesis Hwf : wf W cap.
  Notation P := (core_new W (N.of_nat cap)).
  Notation B := (slack W cap).
  Notation cstep_sys := (@cstep_sys T P pol async debug).
  Notation crun := (@crun T P pol async debug).
  Notation nice := (nice W cap).
  Local Arguments drop_id : simpl never.

  Lemma existsb_woke w later k : In (Woke k w) later -> existsb (fun e => match e with Woke _ v => Nat.eqb v w | _ => false end) later = true.
  Proof. intros H. apply existsb_exists. exists (Woke k w). split; [exact H|apply Nat.eqb_refl]. Qed.

  (** A notification that took effect while the receiver was parked has woken it. *)
  Lemma fetched_woken es s : crun es s -> stopped s es -> fetched (cell_of es) -> recv_woken es = true.
  Proof.
    intros Hr Hst (w & later & H1 & H2). unfold recv_woken. rewrite H1.
    destruct (WaitCellTheorems.C20_woken_quiet debug _ _ 0 w later (crun_cell _ _ _ _ _ _ Hr) (proj1 (cell_use W cap pol async debug _ _ Hr)) H1 H2 (stopped_cell W cap pol async debug _ _ Hr Hst)) as [k Hk].
    exact (existsb_woke _ _ _ Hk).
  Qed.

  (** The receiver still waits. *)
  Lemma recv_stuck es s w : crun es s -> ring_calm W cap es -> no_user_panic es -> stopped s es -> ch_rx s = RPark w ->
    count is_take (ring_of es) = count is_reserve (ring_of es) /\
    (0 < ch_count s \/ (async = false /\ exists i, In (TxDropped i 0 true) es)).
  Proof.
    intros Hr HC Hp Hst Hx. assert (Hnw : recv_woken es = false) by (destruct Hst as (_ & H & _); now rewrite Hx in H).
    assert (Hnf : ~ fetched (cell_of es)) by (intros H; rewrite (fetched_woken _ _ Hr Hst H) in Hnw; discriminate).
    split.
    - destruct (jinv_run W cap pol async debug Hwf _ _ Hr HC) as [H|[[i H]|H]]; [unfold parkable; now rewrite Hx| | |contradiction].
      + pose proof (counts_now W cap pol Hwf _ _ (crun_ring _ _ _ _ _ _ Hr) HC) as [H1 _].
        destruct (Nat.eq_dec (count is_take (ring_of es)) (count is_reserve (ring_of es))) as [E|E]; [exact E|exfalso].
        destruct (front_complete W cap pol Hwf _ _ (crun_ring _ _ _ _ _ _ Hr) HC) as [v Hv]; [|lia|congruence].
        intros j. now rewrite (stopped_ring W cap pol async debug _ _ Hr Hp Hst j).
      + exfalso. destruct Hst as (H1 & _). specialize (H1 i). destruct H as [H|[H _]]; rewrite H in H1; exact H1.
    - destruct (Nat.eq_dec (ch_count s) 0) as [E|E]; [right|left; lia].
      destruct (linv_run W cap pol async debug Hwf _ _ Hr HC) as [_ L2 _ L4 _ _]. apply L2 in E. destruct E as (i & pan & Hi).
      specialize (L4 _ _ Hi). destruct Hst as (H1 & _). specialize (H1 i). destruct (ch_tx s i); try contradiction.
      destruct L4 as [_ [H|[Ha [->|H]]]].
      + exfalso. apply Hnf. pose proof (rcell_run W cap pol async debug _ _ Hr) as HR. rewrite Hx in HR. destruct HR as (later & H2 & H3). exists w, later. auto.
      + eauto.
      + exfalso. unfold rx_closed in H. rewrite Hx in H. exact H.
  Qed.

  (** Once its drop is over, a Receiver not dropped while panicking has closed the ring. *)
  Definition ginv (es : list (cevent T)) (s : @chan T) : Prop :=
    match ch_rx s with
    | RClosing p => In (RxDropped p) es
    | RCloseQ | RInClose | RGone => In (RxDropped true) es \/ closed_in (ring_of es) = true
    | _ => True
    end.
  Lemma ginv_run es s : crun es s -> ring_calm W cap es -> ginv es s.
  Proof.
    induction 1 as [|es s a s' l Hr IH Hs]; intros HC; [exact I|]. pose proof (calm_tail _ _ _ _ HC) as HC0. specialize (IH HC0). clear HC.
    unfold ginv in *. pose proof (link_run _ _ _ _ _ _ Hr) as HK.
    assert (Hsame : ch_rx s' = ch_rx s -> match ch_rx s' with
      | RClosing p => In (RxDropped p) (l ++ es) | RCloseQ | RInClose | RGone => In (RxDropped true) (l ++ es) \/ closed_in (ring_of (l ++ es)) = true | _ => True end).
    { intros ->. destruct (ch_rx s); auto.
      1: apply in_or_app; now right.
      all: destruct IH as [H|H]; [left; apply in_or_app; now right|right; now apply closed_mono]. }
    pose proof (closed_mono l es) as Hmono.
    ccases Hs a; try (apply Hsame; reflexivity); cbn [ch_rx on_ring on_cell on_queue on_tx on_rx on_count on_live on_refs on_out finish] in *; auto; rewrite ?Heqr in *.
    all: try exact I.
    all: try (now left).
    all: try (destruct IH as [H|H]; [left; apply in_or_app; now right|right; now apply Hmono]).
    all: destruct pan; [left; apply in_or_app; now right|right].
    all: pose proof (RingFacts.close_result W cap pol Hwf _ _ _ _ _ (crun_ring _ _ _ _ _ _ Hr) HC0 Heqo) as Q; destruct (closed_in (ring_of es)) eqn:E0; [now apply Hmono|].
    all: rewrite Q; reflexivity.
  Qed.

  Lemma ret_gone es s : crun es s -> forall k, In (ERetClose k) (queue_of es) -> ch_rx s = RGone.
  Proof.
    induction 1 as [|es s a s' l Hr IH Hs]; intros k; [intros []|]. pose proof (link_run _ _ _ _ _ _ Hr) as HK. rewrite queue_of_app. intros Hin. apply in_app_or in Hin. destruct Hin as [Hin|Hin].
    - clear IH. ccases Hs a; cbn [ch_rx on_ring on_cell on_queue on_tx on_rx on_count on_live on_refs on_out finish] in *; rewrite ?queue_of_app in Hin; cbn in Hin; try contradiction;
        try (destruct o; cbn in Hin; try contradiction; destruct Hin as [Hin|[]]; try discriminate; subst).
      all: try discriminate.
      all: try reflexivity.
      all: exfalso; match goal with H : qstep_sys _ _ _ = Some (_, Some _) |- _ => pose proof (q_event _ _ _ _ _ H) as [sp Q]; try discriminate Q; pose proof (q_own _ _ _ _ _ _ H) as Qo end.
      all: cbn in Qo; destruct Qo as (_ & [(_ & Qo & _)|[(_ & (x & Qo) & _)|(Qk & _ & _)]]); try discriminate.
      all: odds HK; match goal with H : kind (q_pc _ ?i) = KClose |- _ => first [pose proof (tx_in_queue _ i HK ltac:(assumption)) as Kq|pose proof (rx_in_queue _ HK) as Kq]; rewrite H in Kq end; try contradiction; congruence.
    - specialize (IH _ Hin). clear Hin. ccases Hs a; cbn [ch_rx on_ring on_cell on_queue on_tx on_rx on_count on_live on_refs on_out finish] in *; frs; auto; try congruence.
      all: unfold rx_free in *; rewrite IH in *; discriminate.
  Qed.

  (** After tx_wait.close() nobody waits unwoken. *)
  Lemma closed_nobody es s : crun es s -> memory_ok es -> In (ERetClose 0) (queue_of es) -> forall i, ch_tx s i = TPark -> send_woken i es = true.
  Proof.
    intros Hr Hm Hc i Hi. pose proof (crun_queue _ _ _ _ _ _ Hr) as Hq. pose proof (exclusive_run _ _ _ _ _ _ Hr Hm) as Hx.
    pose proof (cinv_run _ _ _ Hq (conj Hm Hx)) as HC.
    destruct (parked_attended W cap pol async debug _ _ _ Hr Hm Hi) as [H|[[k H]|H]]; [| |exact H]; exfalso.
    - rewrite (C_done _ _ HC) in H; [exact H|]. exists 0. auto.
    - assert (Hd : q_closed (queue_of es) = true) by (apply (C_swept _ _ HC); exists 0; auto).
      destruct (C_call _ _ HC Hd) as [j Hj]. pose proof (C_quiet _ _ HC _ Hj k) as Ht.
      pose proof (link_run _ _ _ _ _ _ Hr) as HK. pose proof (ret_gone _ _ Hr _ Hc) as Hg.
      destruct (Nat.eq_dec k 0) as [->|Hk].
      + pose proof (rx_in_queue _ HK) as Q. destruct (q_pc (ch_queue s) 0); cbn in Ht, H, Q; try discriminate; congruence.
      + pose proof (tx_in_queue _ _ HK Hk) as Q. destruct (q_pc (ch_queue s) k); cbn in Ht, H, Q; try discriminate; contradiction.
  Qed.

  (** A Sender that waits when everybody has stopped: a message is ready and the
      receiver is not waiting. *)
  Lemma send_idle es s i : crun es s -> nice es -> no_user_panic es -> ~ In (RxDropped true) es -> stopped s es -> ch_tx s i = TPark ->
    (exists v, committed (ring_of es) (count is_take (ring_of es)) = Some v) /\ ch_rx s = RIdle.
  Proof.
    intros Hr HN Hp Hd Hst Hi. pose proof HN as (Hm & _ & _ & HC). pose proof (link_run _ _ _ _ _ _ Hr) as HK.
    assert (Hcount : 0 < ch_count s).
    { destruct (ch_count s) eqn:E; [|lia]. exfalso. assert (H : In i (ch_live s)) by (apply (K_live _ HK); now rewrite Hi). rewrite (K_zero _ HK E) in H. exact H. }
    assert (Hnw : send_woken i es = false) by (destruct Hst as (H & _); specialize (H i); now rewrite Hi in H).
    assert (Hopen : closed_in (ring_of es) = false).
    { destruct (closed_in (ring_of es)) eqn:E; [exfalso|reflexivity].
      pose proof (l_ring _ _ _ (linv_run W cap pol async debug Hwf _ _ Hr HC) Hcount E) as Hx. unfold rx_closed in Hx.
      destruct Hst as (_ & Hst & _). destruct (ch_rx s); try contradiction. rewrite (closed_nobody _ _ Hr Hm Hx _ Hi) in Hnw. discriminate. }
    destruct (send_stuck W cap pol async debug Hwf _ _ _ Hr HN Hp Hst Hi Hopen) as [v Hv]. split; [eauto|].
    destruct (ch_rx s) as [| | | | |w| | | | | | |] eqn:Ex; try (destruct Hst as (_ & Hx & _); rewrite Ex in Hx; contradiction); [reflexivity| |].
    - exfalso. destruct (recv_stuck _ _ _ Hr HC Hp Hst Ex) as [E _].
      rewrite (empty_front W cap pol Hwf _ _ (crun_ring _ _ _ _ _ _ Hr) HC) in Hv; [discriminate|lia].
    - exfalso. pose proof (ginv_run _ _ Hr HC) as G. unfold ginv in G. rewrite Ex in G. destruct G as [G|G]; [contradiction|congruence].
  Qed.
End Deadlock.
