(** When everybody has stopped. *)
From Coq Require Import List Bool Arith NArith Lia.
From Verif Require CoreInv CoreStep RingFacts WaitCellSpec WaitCellFacts.
From Verif Require Import CoreArith RingSpec.
From Verif Require Import QueueSpec CoreModel WaitCellModel WaitList WaitListSpec WaitListFacts WaitQueueModel WaitQueueSpec WaitQueueFacts WaitQueueWake WaitQueueStored WaitQueueCalls.
From Verif Require Import ChannelModel ChannelSpec ChannelFacts ChannelLink ChannelEvents ChannelRing ChannelQueue ChannelInv ChannelSend.
From Verif Require Import History.
Import ListNotations.

Section Stop.
  Context {T : Type}.
  Variables (W : N) (cap : nat) (pol : policy T) (async debug : bool).
  Hypothesis Hwf : wf W cap.
  Notation P := (core_new W (N.of_nat cap)).
  Notation B := (slack W cap).
  Notation cstep_sys := (@cstep_sys T P pol async debug).
  Notation crun := (@crun T P pol async debug).
  Notation nice := (nice W cap).

  Lemma pdead_poison es s i x : run P pol es s -> st_agents s i = PDead x -> In (Poison i) es.
  Proof.
    induction 1 as [|es s a s' e Hr IH Hs]; [discriminate|]. intros Hx.
    assert (Hold : st_agents s i = PDead x -> In (Poison i) (ocons e es)) by (intros H; destruct e; [right|]; auto).
    assert (Hother : forall j, j <> i -> match a with AWrite _ _ => True | AInvoke k _ | AStep k _ | ADrop k | APanic k | AClose k _ => k = j end -> In (Poison i) (ocons e es)).
    { intros j Hj Ha. apply Hold. rewrite <- Hx. symmetry. apply (r_others W cap pol _ _ _ _ _ Hs). destruct a; congruence || exact I. }
    destruct a as [j o|j spur|j v|j|j|j pan].
    all: try (destruct (Nat.eq_dec j i) as [->|Hj]; [|apply (Hother j); [exact Hj|reflexivity]]).
    - destruct (r_invoke _ _ _ _ _ _ _ Hs) as (_ & _ & _ & H & _). rewrite H in Hx. destruct o; discriminate.
    - cbn [step] in Hs. destruct (stepping (st_agents s i)) eqn:Est; [|discriminate].
      destruct (st_agents s i) eqn:E; try discriminate Est; unfold cstep, push_top, idx_gen in Hs; wcs Hs; injection Hs as <- <-;
        repeat match goal with H : (_, _) = (_, _) |- _ => injection H; clear H; intros; subst end; cbn [st_agents] in Hx; rewrite ?CoreInv.upd_same in Hx; discriminate Hx.
    - destruct (r_write _ _ _ _ _ _ _ Hs) as (_ & H). apply Hold. rewrite <- Hx. symmetry. now rewrite H.
    - destruct (r_drop _ _ _ _ _ _ Hs) as (H & _). congruence.
    - destruct (r_panic _ _ _ _ _ _ Hs) as (-> & _). now left.
    - destruct (r_close _ _ _ _ _ _ _ Hs) as (_ & _ & H). apply Hold. rewrite <- Hx. now rewrite H.
  Qed.

  Lemma in_ring (e : event T) es : In e (ring_of es) -> In (OnRing e) es.
  Proof. induction es as [|x es IH]; simpl; [tauto|]. destruct x; simpl; intuition congruence. Qed.

  (** Then nobody is inside a component. *)
  Lemma stopped_ring es s : crun es s -> no_user_panic es -> stopped s es -> forall i, st_agents (ch_ring s) i = Idle.
  Proof.
    intros Hr Hp (H1 & H2 & H3) i. pose proof (link_run _ _ _ _ _ _ Hr) as HK. destruct (Nat.even i) eqn:E.
    - pose proof (proj2 (K_h _ HK i E)) as Hh. rewrite H3 in Hh. specialize (Hh ltac:(simpl; tauto)). destruct (ch_rx s); try contradiction; exact Hh.
    - pose proof (K_r _ HK i E) as Kr. specialize (H1 i). destruct (ch_tx s i); try contradiction; try exact Kr.
      destruct Kr as [Kr|[x Kr]]; [exact Kr|]. destruct (Hp i). apply in_ring. exact (pdead_poison _ _ _ _ (crun_ring _ _ _ _ _ _ Hr) Kr).
  Qed.
  Lemma stopped_queue es s : crun es s -> stopped s es -> forall i, q_pc (ch_queue s) i = QIdle.
  Proof.
    intros Hr (H1 & H2 & H3) i. pose proof (link_run _ _ _ _ _ _ Hr) as HK. destruct (Nat.eq_dec i 0) as [->|E].
    - destruct (K_q0 _ HK) as [K0 _]. destruct (ch_rx s); try contradiction; exact K0.
    - pose proof (K_q _ HK i E) as Kq. specialize (H1 i). destruct (ch_tx s i); try contradiction; cbn in Kq; tauto.
  Qed.
  Lemma stopped_cell es s : crun es s -> stopped s es -> forall i, ws_pc (ch_cell s) i = WIdle.
  Proof.
    intros Hr (H1 & H2 & H3) i. pose proof (link_run _ _ _ _ _ _ Hr) as HK. destruct (Nat.eq_dec i 0) as [->|E].
    - pose proof (K_c0 _ HK) as K0. destruct (ch_rx s); try contradiction; exact K0.
    - pose proof (K_c _ HK i E) as Kq. specialize (H1 i). destruct (ch_tx s i); try contradiction; cbn in Kq; tauto.
  Qed.

  (** A parked send that nobody is about to wake was woken or is in the list. *)
  Lemma parked_attended es s i : crun es s -> memory_ok es -> ch_tx s i = TPark ->
    In i (waiting (queue_of es)) \/ (exists k, carries (q_pc (ch_queue s) k) = Some i) \/ send_woken i es = true.
  Proof.
    intros Hr Hm Hp. pose proof (link_run _ _ _ _ _ _ Hr) as HK. pose proof (crun_queue _ _ _ _ _ _ Hr) as Hq.
    destruct (tx_odd _ _ HK ltac:(rewrite Hp; discriminate)) as [_ H0]. pose proof (K_q _ HK i H0) as Kq. rewrite Hp in Kq. destruct Kq as [K1 K2].
    assert (Hk : parks (q_pc (ch_queue s) i) (q_phase (ch_queue s) i)) by (rewrite K1; split; [reflexivity|exact K2]).
    destruct (kinv_run _ _ _ Hq Hm i Hk) as [H|[[k H]|H]]; auto.
    right; left. exists k. now apply (proj1 (oinv_run _ _ _ Hq Hm)).
  Qed.
  Lemma stopped_attended es s i : crun es s -> memory_ok es -> stopped s es -> ch_tx s i = TPark -> In i (waiting (queue_of es)).
  Proof.
    intros Hr Hm Hst Hp. destruct (parked_attended _ _ _ Hr Hm Hp) as [H|[[k H]|H]]; [exact H| |].
    - rewrite (stopped_queue _ _ Hr Hst k) in H. discriminate.
    - destruct Hst as (H1 & _). specialize (H1 i). rewrite Hp in H1. congruence.
  Qed.

  (** A send still waits when everybody has stopped: a message is ready. *)
  Lemma send_stuck es s i : crun es s -> nice es -> no_user_panic es -> stopped s es -> ch_tx s i = TPark -> closed_in (ring_of es) = false ->
    exists v, committed (ring_of es) (count is_take (ring_of es)) = Some v.
  Proof.
    intros Hr HN Hp Hst Hi Hcl. pose proof (known_run _ _ _ _ _ _ _ Hr HN) as K.
    pose proof (stopped_queue _ _ Hr Hst) as Hq. destruct HN as (Hm & H1 & H2 & Hc).
    pose proof (stopped_attended _ _ _ Hr Hm Hst Hi) as Hin.
    destruct (dinv_run W cap pol async debug Hwf es s Hr ltac:(repeat split; assumption)) as [H|H|H|H|j H|H _|H|j H].
    - pose proof (fwants_run W cap pol async debug Hwf es s Hr Hc i ltac:(rewrite Hi; exact I)). lia.
    - congruence.
    - apply (front_complete W cap pol Hwf _ _ (crun_ring _ _ _ _ _ _ Hr) Hc ltac:(intros j; now rewrite (stopped_ring _ _ Hr Hp Hst j))).
      pose proof (refs_count W cap pol async debug Hwf _ _ Hr Hc) as Hrc. destruct Hst as (_ & _ & Hrf). rewrite Hrf in Hrc. simpl in Hrc. lia.
    - destruct Hst as (_ & Hx & _). rewrite H in Hx. contradiction.
    - destruct Hst as (Hx & _). specialize (Hx j). rewrite H in Hx. contradiction.
    - destruct Hst as (_ & Hx & _). rewrite H in Hx. contradiction.
    - exfalso. assert (Hqc : q_closed (queue_of es) = false).
      { destruct (q_closed (queue_of es)) eqn:E; [|reflexivity]. rewrite (e_closed _ _ (einv_run _ _ _ _ _ _ Hr) E) in Hcl. discriminate. }
      rewrite (stored_nobody 0 _ _ _ (k_run _ _ _ K) (solo_run _ _ _ _ _ _ Hr Hm H1 H2) Hqc H) in Hin. exact Hin.
    - exfalso. unfold retry in H. assert (Hj : ch_tx s j = TPark).
      { destruct Hst as (Hx & _). specialize (Hx j). destruct (ch_tx s j); try contradiction; reflexivity. }
      rewrite Hj in H. pose proof (stopped_attended _ _ _ Hr Hm Hst Hj) as Hjn. rewrite (I_wait _ _ (k_inv _ _ _ K) j Hjn) in H. discriminate.
  Qed.
End Stop.
