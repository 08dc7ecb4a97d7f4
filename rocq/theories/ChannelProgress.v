(** Somebody can always go on, unless everybody has stopped. *)
From Coq Require Import List Bool Arith NArith Lia.
From Verif Require CoreInv CoreStep RingFacts.
From Verif Require Import CoreArith RingSpec.
From Verif Require Import QueueSpec CoreModel WaitCellModel WaitList WaitListSpec WaitQueueModel WaitQueueSpec WaitQueueFacts WaitQueueWake WaitQueueCalls.
From Verif Require WaitCellSpec WaitCellFacts WaitCellTheorems.
From Verif Require Import ChannelModel ChannelSpec ChannelFacts ChannelLink ChannelEvents ChannelRing ChannelQueue ChannelInv ChannelSend ChannelStop ChannelRecv ChannelEnd.
From Verif Require Import History.
Import ListNotations.

Section Progress.
  Context {T : Type}.
  Variables (W : N) (cap : nat) (pol : policy T) (async debug : bool).
  Hypothesis Hwf : wf W cap.
  Notation P := (core_new W (N.of_nat cap)).
  Notation cstep_sys := (@cstep_sys T P pol async debug).
  Notation crun := (@crun T P pol async debug).
  Notation nice := (nice W cap).
  Local Arguments drop_id : simpl never.

  Lemma ring_can s a k : (exists r e, step P pol (ch_ring s) a = Some (r, e)) -> exists s' l, @ring_do T P pol s a k = Some (s', l).
  Proof. intros (r & e & H). unfold ring_do. rewrite H. destruct (k (on_ring s r) e). eauto. Qed.
  Lemma cell_can s a k : (exists c e, wstep_sys debug (ch_cell s) a = Some (c, e)) -> exists s' l, @cell_do T debug s a k = Some (s', l).
  Proof. intros (r & e & H). unfold cell_do. rewrite H. destruct (k (on_cell s r) e). eauto. Qed.
  Lemma queue_can s a k : (exists q e, qstep_sys debug (ch_queue s) a = Some (q, e)) -> exists s' l, @queue_do T debug s a k = Some (s', l).
  Proof. intros (r & e & H). unfold queue_do. rewrite H. destruct (k (on_queue s r) e). eauto. Qed.

  Lemma no_crash es s i : crun es s -> ring_calm W cap es -> st_agents (ch_ring s) i <> Crashed.
  Proof.
    intros Hr HC E. destruct (good_now W cap pol Hwf _ _ (crun_ring _ _ _ _ _ _ Hr) HC) as (q & hist & g & [_ HA] & _).
    specialize (HA i). rewrite E in HA. exact HA.
  Qed.
  Lemma ring_steps (r : @state T) i spur : stepping (st_agents r i) = true -> exists r' e, step P pol r (AStep i spur) = Some (r', e).
  Proof. intros H. cbn [step]. rewrite H. destruct (cstep _ _ _ _ _ _) as [[c p] e]. eauto. Qed.
  Lemma cell_steps c i : ws_pc c i <> WIdle -> exists c' e, wstep_sys debug c (WAStep i) = Some (c', e).
  Proof. intros H. cbn [wstep_sys]. destruct (ws_pc c i); try congruence; destruct (wstep _ _ _ _) as [[? ?] ?]; eauto. Qed.

  Notation can s es := (exists a s' l, goes_on es a /\ cstep_sys s a = Some (s', l)).

  (** Whoever is inside the queue's code can go on, or the one who holds its lock. *)
  Lemma queue_goes es s i : crun es s -> memory_ok es -> q_pc (ch_queue s) i <> QIdle -> can s es.
  Proof.
    intros Hr Hm Hi. pose proof (link_run _ _ _ _ _ _ Hr) as HK.
    assert (Hgo : forall k, q_pc (ch_queue s) k <> QIdle -> (exists q e, qstep debug (ch_queue s) k false = Some (q, e)) -> can s es).
    { intros k Hk Hst. destruct (Nat.eq_dec k 0) as [->|Hk0].
      - pose proof (proj1 (K_q0 _ HK)) as K. assert (Hc : exists s' l, cstep_sys s (CRx false) = Some (s', l)).
        { cbn [ChannelModel.cstep_sys]. unfold rx_step. destruct (ch_rx s) eqn:E; cbn in K; try congruence; apply queue_can; exact Hst. }
        destruct Hc as (s' & l & Hc). exists (CRx false), s', l. split; [exact I|exact Hc].
      - pose proof (K_q _ HK k Hk0) as K. assert (Hc : exists s' l, cstep_sys s (CTx k 0 false) = Some (s', l)).
        { cbn [ChannelModel.cstep_sys]. unfold tx_step. destruct (ch_tx s k) eqn:E; cbn in K; try (destruct K; congruence); try congruence; apply queue_can; exact Hst. }
        destruct Hc as (s' & l & Hc). exists (CTx k 0 false), s', l. split; [exact I|exact Hc]. }
    destruct (never_stuck debug _ _ i (crun_queue _ _ _ _ _ _ Hr) Hm Hi) as [H|(k & Hk & H)]; [exact (Hgo i Hi H)|].
    apply (Hgo k); [|exact H]. intros E. pose proof (proj1 (qrun_inv _ _ _ (crun_queue _ _ _ _ _ _ Hr) Hm)) as HI.
    pose proof (proj2 (I_lock _ _ HI k) Hk) as Hh. rewrite E in Hh. discriminate.
  Qed.

  Definition tx_busy (es : list (cevent T)) (s : @chan T) (i : nat) : bool :=
    match ch_tx s i with TNone | TEnd | TDead => false | TPark => send_woken i es | _ => true end.
  Lemma tx_goes es s i : crun es s -> ring_calm W cap es -> memory_ok es -> tx_busy es s i = true -> can s es.
  Proof.
    intros Hr HC Hm Hb. pose proof (link_run _ _ _ _ _ _ Hr) as HK.
    assert (Hi : Nat.even i = false /\ i <> 0) by (apply (tx_odd _ _ HK); intros E; unfold tx_busy in Hb; rewrite E in Hb; discriminate).
    destruct Hi as [Hev H0]. pose proof (K_q _ HK i H0) as Kq. pose proof (K_c _ HK i H0) as Kc. pose proof (K_r _ HK i Hev) as Kr.
    assert (Hgo : (exists s' l, cstep_sys s (CTx i 0 false) = Some (s', l)) -> can s es).
    { intros (s' & l & H). exists (CTx i 0 false), s', l. split; [exact I|exact H]. }
    unfold tx_busy in Hb. cbn [ChannelModel.cstep_sys] in Hgo. unfold tx_step in Hgo.
    destruct (ch_tx s i) eqn:E; try discriminate; cbn in Kq, Kc, Kr.
    - apply Hgo, queue_can. cbn [qstep_sys]. unfold idle. destruct Kq as [-> ->]. eauto.
    - apply Hgo, ring_can. cbn [step]. rewrite Kr. eauto.
    - apply Hgo, ring_can, ring_steps. pose proof (no_crash _ _ i Hr HC). destruct (st_agents (ch_ring s) i); try discriminate Kr; try reflexivity. congruence.
    - apply Hgo, queue_can. destruct Kq as [Kq Kp]. destruct st; try contradiction; cbn [qstep_sys]; unfold idle; rewrite Kq; destruct Kp as [-> | ->]; eauto.
    - apply (queue_goes es s i Hr Hm). intros Hq. rewrite Hq in Kq. destruct Kq; discriminate.
    - exists (CResume i). cbn [ChannelModel.cstep_sys]. rewrite E. do 2 eexists. split; [exact Hb|reflexivity].
    - destruct Kr as [r Kr]. assert (Hc : exists s' l, cstep_sys s (CDropSendRef i) = Some (s', l)).
      { cbn [ChannelModel.cstep_sys]. rewrite E. apply ring_can. cbn [step]. rewrite Kr. eauto. }
      destruct Hc as (s' & l & Hc). exists (CDropSendRef i), s', l. split; [exact I|exact Hc].
    - apply Hgo, cell_can. cbn [wstep_sys]. rewrite Kc. eauto.
    - apply Hgo, cell_can, cell_steps. intros Hq. rewrite Hq in Kc. discriminate.
    - apply (queue_goes es s i Hr Hm). intros Hq. rewrite Hq in Kq. destruct Kq; discriminate.
    - apply Hgo, ring_can. cbn [step]. rewrite Kr. destruct (core_close _ _). eauto.
    - apply Hgo, cell_can. cbn [wstep_sys]. rewrite Kc. eauto.
    - apply Hgo, cell_can, cell_steps. intros Hq. rewrite Hq in Kc. discriminate.
    - apply Hgo, queue_can. cbn [qstep_sys]. unfold idle. destruct Kq as [-> _]. eauto.
    - apply (queue_goes es s i Hr Hm). intros Hq. rewrite Hq in Kq. destruct Kq; discriminate.
  Qed.

  (** A handle number that is free. *)
  Lemma free_handle (l : list nat) : exists h, Nat.even h = true /\ ~ In h l.
  Proof.
    exists (2 * S (list_max l)). split; [rewrite Nat.even_mul; reflexivity|]. intros H.
    pose proof (proj1 (list_max_le l (list_max l)) (Nat.le_refl _)) as Hf. rewrite Forall_forall in Hf. specialize (Hf _ H). lia.
  Qed.

  Definition rx_busy (es : list (cevent T)) (s : @chan T) : bool :=
    match ch_rx s with RIdle => negb (nil_b (ch_refs s)) | RGone | RDead => false | RPark _ => recv_woken es || negb (nil_b (ch_refs s)) | _ => true end.
  Lemma rx_goes es s : crun es s -> ring_calm W cap es -> memory_ok es -> rx_busy es s = true -> can s es.
  Proof.
    intros Hr HC Hm Hb. pose proof (link_run _ _ _ _ _ _ Hr) as HK.
    pose proof (proj1 (K_q0 _ HK)) as Kq. pose proof (K_c0 _ HK) as Kc. pose proof (K_use _ HK) as Ku. pose proof (K_h _ HK) as Kh.
    assert (Hgo : (exists s' l, cstep_sys s (CRx false) = Some (s', l)) -> can s es).
    { intros (s' & l & H). exists (CRx false), s', l. split; [exact I|exact H]. }
    assert (Hdrop : rx_free s = true -> negb (nil_b (ch_refs s)) = true -> can s es).
    { intros Hf Hn. destruct (ch_refs s) as [|h hs] eqn:Er; [discriminate|].
      assert (Hc : exists s' l, cstep_sys s (CDropRef h) = Some (s', l)).
      { cbn [ChannelModel.cstep_sys]. rewrite Hf, Er. cbn [existsb]. rewrite Nat.eqb_refl. cbn [orb andb]. apply ring_can.
        destruct (rx_holds s h HK) as [r Hh]; [rewrite Er; now left|]. cbn [step]. rewrite Hh. eauto. }
      destruct Hc as (s' & l & Hc). exists (CDropRef h), s', l. split; [exact I|exact Hc]. }
    unfold rx_busy in Hb. cbn [ChannelModel.cstep_sys] in Hgo. unfold rx_step in Hgo. unfold rx_free in Hdrop.
    destruct (ch_rx s) eqn:E; try discriminate; cbn in Kq, Kc, Ku.
    - apply Hdrop; auto.
    - destruct (Ku h eq_refl) as [He Hn]. apply Hgo, ring_can. cbn [step]. rewrite (proj2 (Kh h He) Hn). eauto.
    - destruct (Ku h eq_refl) as [He Hn]. pose proof (proj2 (Kh h He) Hn) as Hp. cbn beta iota in Hp. rewrite Nat.eqb_refl in Hp.
      apply Hgo, ring_can, ring_steps. pose proof (no_crash _ _ h Hr HC). destruct (st_agents (ch_ring s) h); try discriminate Hp; try reflexivity. congruence.
    - apply Hgo, cell_can. cbn [wstep_sys]. rewrite Kc. eauto.
    - apply Hgo, cell_can, cell_steps. intros Hq. rewrite Hq in Kc. discriminate.
    - destruct (recv_woken es) eqn:Ew; [|apply Hdrop; auto]. destruct (free_handle (ch_refs s)) as (h & He & Hn).
      exists (CRecv h w). cbn [ChannelModel.cstep_sys]. unfold rx_free, ring_idle. rewrite E, He, (proj2 (Kh h He) Hn). cbn [andb]. do 2 eexists. split; [exact Ew|reflexivity].
    - apply Hgo, queue_can. cbn [qstep_sys]. unfold idle. rewrite Kq. eauto.
    - apply (queue_goes es s 0 Hr Hm). intros Hq. rewrite Hq in Kq. discriminate.
    - apply Hgo, ring_can. cbn [step]. destruct (Kh 0 eq_refl) as [_ Ki]. rewrite Ki; [destruct (core_close _ _); eauto|].
      rewrite (proj1 (K_end _ HK ltac:(now rewrite E))). simpl. tauto.
    - apply Hgo, queue_can. cbn [qstep_sys]. unfold idle. rewrite Kq. eauto.
    - apply (queue_goes es s 0 Hr Hm). intros Hq. rewrite Hq in Kq. discriminate.
  Qed.

  (** The processes that may be in the middle of something. *)
  Definition droppers (es : list (cevent T)) : list nat :=
    flat_map (fun e => match e with TxDropped i _ _ => [i] | _ => [] end) es.
  Lemma busy_listed es s i : crun es s -> ring_calm W cap es -> tx_busy es s i = true -> In i (ch_live s ++ ch_out s ++ droppers es).
  Proof.
    intros Hr HC Hb. pose proof (link_run _ _ _ _ _ _ Hr) as HK. destruct (active (ch_tx s i)) eqn:Ea.
    - apply in_or_app. left. now apply (K_live _ HK).
    - apply in_or_app. right. apply in_or_app. destruct (dropping (ch_tx s i)) eqn:Ed; [left; now apply (K_out _ HK)|right].
      unfold tx_busy in Hb. assert (Hc : closer (ch_tx s i) = true) by (destruct (ch_tx s i); try discriminate; reflexivity).
      destruct (l_tx _ _ _ (linv_run W cap pol async debug Hwf _ _ Hr HC) _ Hc) as [p Hp]. apply in_flat_map. exists (TxDropped i 0 p). split; [exact Hp|now left].
  Qed.

  (** With one thread receiving and nothing cancelled the receiver's thread does not fail. *)
  Lemma rx_alive es s : crun es s -> nice es -> ch_rx s <> RDead.
  Proof.
    intros Hr HN E. revert E. induction Hr as [|es s a s' l Hr IH Hs]; [discriminate|].
    pose proof (nice_tail _ _ _ _ HN) as HN0. specialize (IH HN0).
    pose proof (crun_step _ _ _ _ _ _ _ _ _ Hr Hs) as Hr'. pose proof (k_fail _ _ _ (known_run _ _ _ _ _ _ _ Hr' HN)) as HF.
    destruct HN as (Hm & _). unfold memory_ok, no_ub in Hm. unfold no_failure in HF. pose proof (cell_no_fail W cap pol async debug _ _ 0 Hr') as Hcf.
    rewrite queue_of_app in Hm, HF. rewrite cell_of_app in Hcf. clear Hr'.
    ccases Hs a; cbn [ch_rx on_ring on_cell on_queue on_tx on_rx on_count on_live on_refs on_out finish] in *; try congruence.
    all: intros _.
    - destruct o as [[]|]; try discriminate. pose proof (c_event _ _ _ _ _ Heqo) as Q. cbn in Q. injection Q as <-. apply Hcf. now left.
    - destruct o as [[]|]; try discriminate; [apply (Hm i)|apply (HF i)]; now left.
    - destruct o as [[]|]; try discriminate; [apply (Hm i)|apply (HF i)]; now left.
  Qed.

  Lemma find_busy es s (l : list nat) : (exists i, tx_busy es s i = true) \/ (forall i, In i l -> tx_busy es s i = false).
  Proof.
    induction l as [|x l [IH|IH]]; [right; intros i []|now left|]. destruct (tx_busy es s x) eqn:E; [left; eauto|right].
    intros i [<-|H]; auto.
  Qed.

  Theorem stopped_or_goes es s : crun es s -> nice es -> stopped s es \/ can s es.
  Proof.
    intros Hr HN. pose proof HN as (Hm & _ & _ & HC). pose proof (rx_alive _ _ Hr HN) as Ha. pose proof (link_run _ _ _ _ _ _ Hr) as HK.
    destruct (rx_busy es s) eqn:Eb; [right; exact (rx_goes _ _ Hr HC Hm Eb)|].
    destruct (find_busy es s (ch_live s ++ ch_out s ++ droppers es)) as [[i Hi]|Hn]; [right; exact (tx_goes _ _ _ Hr HC Hm Hi)|left].
    assert (Ht : forall i, tx_busy es s i = false).
    { intros i. destruct (tx_busy es s i) eqn:E; [|reflexivity]. rewrite <- E. apply Hn. exact (busy_listed _ _ _ Hr HC E). }
    unfold rx_busy in Eb. split; [|split].
    - intros i. specialize (Ht i). unfold tx_busy in Ht. destruct (ch_tx s i); auto; discriminate.
    - destruct (ch_rx s); auto; try discriminate. apply orb_false_iff in Eb. apply Eb.
    - destruct (ch_rx s) eqn:Ex; try discriminate.
      + destruct (ch_refs s); [reflexivity|discriminate].
      + apply orb_false_iff in Eb. destruct Eb as [_ Eb]. destruct (ch_refs s); [reflexivity|discriminate].
      + apply (K_end _ HK). now rewrite Ex.
      + congruence.
  Qed.
End Progress.
