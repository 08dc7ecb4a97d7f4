(** Invariants of the channel. *)
From Coq Require Import List Bool Arith NArith Lia.
From Verif Require CoreInv CoreArith CoreStep RingSpec RingFacts WaitCellSpec WaitCellFacts.
From Verif Require Import QueueSpec CoreModel WaitCellModel WaitListSpec WaitQueueModel WaitQueueSpec WaitQueueFacts WaitQueueWake WaitQueueStored WaitQueueCalls.
From Verif Require Import ChannelModel ChannelSpec ChannelFacts ChannelLink ChannelEvents ChannelRing ChannelQueue.
From Verif Require Import History.
Import ListNotations.

Lemma single {A} (l : list A) : length l <= 1 -> l = [] \/ exists e, l = [e].
Proof. destruct l as [|x [|y l]]; simpl; [auto|eauto|lia]. Qed.

Section Inv.
  Context {T : Type}.
  Variables (P : params) (pol : policy T) (async debug : bool).
  Notation cstep_sys := (@cstep_sys T P pol async debug).
  Notation crun := (@crun T P pol async debug).
  Local Arguments drop_id : simpl never.

  (** ** Closing the queue *)
  Definition shut (r : rpc) : Prop := match r with RInClose | RGone | RDead => True | _ => False end.
  Record EInv (es : list (cevent T)) (s : @chan T) : Prop := {
    e_call : forall k, In (ECallClose k) (queue_of es) -> k = 0 /\ shut (ch_rx s) /\ ch_refs s = [] /\ ch_out s = [];
    e_rx : ch_rx s = RCloseQ \/ ch_rx s = RInClose -> closed_in (ring_of es) = true;
    e_closed : q_closed (queue_of es) = true -> closed_in (ring_of es) = true }.

  Lemma closed_app (a b : list (event T)) : closed_in (a ++ b) = closed_in a || closed_in b.
  Proof. apply existsb_app. Qed.

  Lemma shut_stays s a s' l : Link s -> cstep_sys s a = Some (s', l) -> shut (ch_rx s) -> ch_refs s = [] -> ch_out s = [] ->
    shut (ch_rx s') /\ ch_refs s' = [] /\ ch_out s' = [].
  Proof.
    intros HK Hs Hsh Hr Ho. ccases Hs a; cbn in *; frs; try contradiction; rewrite ?Hr, ?Ho in *; auto; try discriminate.
    all: unfold rx_free in *; destruct (ch_rx s); try discriminate; try contradiction; cbn in *; try discriminate; auto.
  Qed.

  Lemma einv_step es s a s' l : Link s -> EInv es s -> cstep_sys s a = Some (s', l) -> EInv (l ++ es) s'.
  Proof.
    intros HK [E1 E2 E3] Hs.
    destruct (events_tail _ _ _ _ _ _ _ _ Hs) as (L1 & _ & L3).
    assert (H3 : q_closed (queue_of (l ++ es)) = true -> closed_in (ring_of (l ++ es)) = true).
    { rewrite queue_of_app, ring_of_app, closed_app. destruct (single _ L3) as [->|[e He]].
      - simpl. intros H. rewrite (E3 H). apply orb_true_r.
      - rewrite He. simpl. pose proof (at_queue _ _ _ _ _ _ _ _ _ HK Hs He) as Q. intros H. apply orb_true_iff in H.
        destruct H as [H|H]; [|rewrite (E3 H); apply orb_true_r]. destruct e; try discriminate H.
        rewrite (E2 ltac:(right; apply Q)). apply orb_true_r. }
    constructor; [| |exact H3].
    - intros k. rewrite queue_of_app. intros H. apply in_app_or in H. destruct H as [H|H].
      + destruct (single _ L3) as [E|[e He]]; [rewrite E in H; contradiction|]. rewrite He in H. destruct H as [H|[]]. subst e.
        pose proof (at_queue _ _ _ _ _ _ _ _ _ HK Hs He) as (-> & Q1 & Q2).
        destruct (K_end _ HK ltac:(rewrite Q1; reflexivity)) as [Hr Ho].
        split; [reflexivity|]. rewrite Q2. split; [exact I|].
        clear - HK Hs Q1 Q2 Hr Ho. ccases Hs a; cbn in *; try (split; assumption); frs; try congruence; rewrite ?Hr, ?Ho in *; auto; discriminate.
      + destruct (E1 k H) as (-> & H1 & H2 & H4). split; [reflexivity|]. exact (shut_stays _ _ _ _ HK Hs H1 H2 H4).
    - rewrite ring_of_app, closed_app. intros H.
      assert (Hc : closed_in (ring_of es) = true -> closed_in (ring_of l) || closed_in (ring_of es) = true) by (intros ->; apply orb_true_r).
      clear E1 E3 H3 L1 L3. ccases Hs a; cbn [ch_rx on_rx on_tx on_ring on_cell on_queue on_live on_refs on_out on_count finish] in H;
        try (apply Hc, E2; exact H); try (destruct H; discriminate).
      all: try (apply Hc, E2; match goal with H : ch_rx _ = _ |- _ => rewrite <- H end; exact H).
      all: try (apply Hc, E2; auto; fail).
      match goal with H : close_ret ?o = true |- _ => destruct o as [[]|]; try discriminate H end. cbn in *. subst. reflexivity.
  Qed.
  Lemma einv_run es s : crun es s -> EInv es s.
  Proof.
    induction 1 as [|es s a s' l Hr IH Hs].
    - constructor; simpl; try contradiction; try discriminate. intros [H|H]; discriminate.
    - exact (einv_step _ _ _ _ _ (link_run _ _ _ _ _ _ Hr) IH Hs).
  Qed.

  (** ** The premises on the use of the channel, for the queue *)
  Lemma cancel_events es s i : crun es s -> In (EDrop i) (queue_of es) \/ In (ETimeout i) (queue_of es) -> In (Cancelled i) es.
  Proof.
    induction 1 as [|es s a s' l Hr IH Hs]; [simpl; tauto|]. rewrite queue_of_app.
    destruct (events_tail _ _ _ _ _ _ _ _ Hs) as (_ & _ & L3).
    destruct (single _ L3) as [->|[e He]]; [intros H; apply in_or_app; right; auto|]. rewrite He.
    pose proof (at_queue _ _ _ _ _ _ _ _ _ (link_run _ _ _ _ _ _ Hr) Hs He) as Q. intros H. apply in_or_app. simpl in H.
    destruct H as [[->|H]|[->|H]]; [left; apply Q|right; apply IH; now left|left; apply Q|right; apply IH; now right].
  Qed.

  Lemma in_drop_in j es : in_drop j es = true -> In (EDrop j) es.
  Proof.
    induction es as [|e es IH]; simpl; [discriminate|]. destruct e; auto.
    - destruct (Nat.eqb_spec i j) as [->|]; auto.
    - destruct (Nat.eqb_spec i j) as [->|]; [discriminate|auto].
  Qed.
  Lemma no_drops_apart es : no_drops es -> drops_apart es.
  Proof.
    intros H. induction es as [|e es IH]; [exact I|].
    assert (Ht : no_drops es) by (intros i Hi; apply (H i); now right).
    destruct e; simpl; auto.
    - split; [|auto]. intros j. destruct (in_drop j es) eqn:E; [|reflexivity]. destruct (Ht j). now apply in_drop_in.
    - destruct (H i). now left.
  Qed.

  Lemma memory_tail l (es : list (cevent T)) : memory_ok (l ++ es) -> memory_ok es.
  Proof. unfold memory_ok. rewrite queue_of_app. intros H i Hi. apply (H i). apply in_or_app. now right. Qed.

  (** Nobody is notifying while or after the receiver closes the queue. *)
  Lemma exclusive_run es s : crun es s -> memory_ok es -> close_exclusive (queue_of es).
  Proof.
    induction 1 as [|es s a s' l Hr IH Hs]; [simpl; auto|]. intros Hm. pose proof (memory_tail _ _ Hm) as Hm0. specialize (IH Hm0). rewrite queue_of_app.
    destruct (events_tail _ _ _ _ _ _ _ _ Hs) as (_ & _ & L3).
    destruct (single _ L3) as [->|[e He]]; [exact IH|]. rewrite He. pose proof (link_run _ _ _ _ _ _ Hr) as HK.
    pose proof (at_queue _ _ _ _ _ _ _ _ _ HK Hs He) as Q.
    destruct e; simpl; try exact IH.
    - split; [|exact IH]. intros k Hk. destruct (e_call _ _ (einv_run _ _ Hr) k Hk) as (_ & Hsh & _ & Ho).
      destruct Q as [(_ & Q & _)|[Q _]].
      + rewrite Q in Hsh. contradiction.
      + assert (Hin : In i (ch_out s)) by (apply (K_out _ HK); rewrite Q; reflexivity). rewrite Ho in Hin. contradiction.
    - split; [|exact IH]. intros j. destruct Q as (-> & Q & _).
      destruct (K_end _ HK ltac:(rewrite Q; reflexivity)) as [_ Ho].
      destruct (in_notify j (queue_of es)) eqn:E; [|reflexivity]. exfalso.
      pose proof (binv_run _ _ _ (crun_queue _ _ _ _ _ _ Hr) Hm0) as HB.
      assert (Ht : kind (q_pc (ch_queue s) j) = KNotify) by (destruct (HB j) as (B1 & _); rewrite E in B1; destruct (q_pc (ch_queue s) j); discriminate || reflexivity).
      destruct (Nat.eq_dec j 0) as [->|Hj].
      + pose proof (rx_in_queue _ HK) as Hx. rewrite Ht in Hx. congruence.
      + pose proof (tx_in_queue _ j HK Hj) as Hx. rewrite Ht in Hx.
        assert (Hin : In j (ch_out s)) by (apply (K_out _ HK); rewrite Hx; reflexivity). rewrite Ho in Hin. contradiction.
  Qed.

  Lemma solo_run es s : crun es s -> memory_ok es -> one_receiver es -> no_cancel es -> solo_ok 0 (queue_of es).
  Proof.
    intros Hr Hm H1 Hc. split; [split; [exact Hm|exact (exclusive_run _ _ Hr Hm)]|]. split; [exact H1|].
    apply no_drops_apart. intros i Hi. apply (Hc i). apply (cancel_events _ _ _ Hr). now left.
  Qed.
End Inv.
