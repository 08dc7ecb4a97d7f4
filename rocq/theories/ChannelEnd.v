(** How the two sides of the channel end. *)
From Coq Require Import List Bool Arith NArith Lia.
From Verif Require CoreInv CoreStep RingFacts.
From Verif Require Import CoreArith RingSpec.
From Verif Require Import QueueSpec CoreModel WaitCellModel WaitList WaitListSpec WaitQueueModel WaitQueueSpec WaitQueueFacts WaitQueueWake.
From Verif Require WaitCellSpec WaitCellFacts WaitCellTheorems.
From Verif Require Import ChannelModel ChannelSpec ChannelFacts ChannelLink ChannelEvents ChannelRing ChannelQueue ChannelInv ChannelSend ChannelStop ChannelRecv.
From Verif Require Import History.
Import ListNotations.

Section End_.
  Context {T : Type}.
  Variables (W : N) (cap : nat) (pol : policy T) (async debug : bool).
  Hypothesis Hwf : wf W cap.
  Notation P := (core_new W (N.of_nat cap)).
  Notation B := (slack W cap).
  Notation cstep_sys := (@cstep_sys T P pol async debug).
  Notation crun := (@crun T P pol async debug).
  Notation nice := (nice W cap).
  Local Arguments drop_id : simpl never.

  (** A Sender's drop that found no other Sender. *)
  Definition closer (t : tpc) : bool := match t with XClose _ | XTx | XIn => true | _ => false end.
  Lemma count_step s a s' l : cstep_sys s a = Some (s', l) ->
    (exists i pan, a = CDropTx i pan /\ ch_count s = 1 /\ ch_count s' = 0 /\ l = [TxDropped i 0 pan] /\ ch_tx s i = TNone /\ ch_tx s' i = XClose pan /\
       (forall j, j <> i -> ch_tx s' j = ch_tx s j) /\ ch_ring s' = ch_ring s /\ ch_cell s' = ch_cell s /\ ch_rx s' = ch_rx s) \/
    ((ch_count s' = 0 <-> ch_count s = 0) /\ (forall i p, ~ In (TxDropped i 0 p) l) /\ (forall j, closer (ch_tx s' j) = true -> closer (ch_tx s j) = true)).
  Proof.
    intros Hs. ccases Hs a; frs; cbn [ch_count ch_tx ch_rx ch_cell ch_ring on_ring on_cell on_queue on_tx on_rx on_count on_live on_refs on_out finish].
    all: try (right; split; [reflexivity|]; split; [intros ?i ?p Hin; simpl in Hin; try match type of Hin with context [olist ?o] => destruct o; simpl in Hin end; intuition discriminate|];
      intros j; try (unfold tset; destruct (Nat.eqb_spec j i) as [->|]; [|tauto]); cbn; try discriminate; try tauto; rewrite ?Heqt; auto; fail).
    - right. repeat split; auto. intros k pn Hin. destruct o; simpl in Hin; intuition discriminate.
    - right. match goal with H : (0 <? _) = true |- _ => apply Nat.ltb_lt in H end. split; [lia|]. split; [|auto]. intros k pn [Hin|[]]. discriminate.
    - left. exists i, pan. rewrite tset_same. repeat split; auto. intros j Hj. now rewrite tset_other.
    - right. split; [lia|]. split; [intros k p [Hin|[]]; discriminate|]. intros j. unfold tset. destruct (Nat.eqb_spec j i); [discriminate|auto].
  Qed.

  Lemma nor_step s a s' l i c : cstep_sys s a = Some (s', l) -> ws_pc (ch_cell s) i = NOr c ->
    ws_pc (ch_cell s') i = NOr c \/ cell_of l = [Fetched i c].
  Proof.
    intros Hs Hn. destruct (moved_step _ _ _ _ _ _ _ _ Hs) as [_ E _ _ _ _|a0 r e He _ E _ _ _ _|a0 r e He _ <- _ _ E _|a0 r e He _ E _ _ _ _]; try (left; rewrite E; exact Hn).
    destruct a0 as [k w pan|k c'|k].
    - destruct (c_call _ _ _ _ _ _ _ He) as (E1 & _ & _ & _ & E2). left. rewrite E2; [exact Hn|congruence].
    - destruct (c_notify _ _ _ _ _ _ He) as (E1 & _ & _ & _ & E2). left. rewrite E2; [exact Hn|congruence].
    - destruct (Nat.eq_dec i k) as [->|Hk].
      + right. rewrite E, (c_nor _ _ _ _ _ He c Hn). reflexivity.
      + left. destruct (c_own _ _ _ _ _ He) as (E2 & _). rewrite E2; [exact Hn|congruence].
  Qed.

  Lemma x_step s a s' l i : Link s -> cstep_sys s a = Some (s', l) ->
    match ch_tx s i with
    | XClose pan => ch_tx s' i = XClose pan \/
        exists b, ring_of l = [Closing i b] /\ (pan = true -> b = false) /\ ch_tx s' i = (if async || b then XTx else TEnd) /\
          step P pol (ch_ring s) (AClose i pan) = Some (ch_ring s', Some (Closing i b))
    | XTx => ch_tx s' i = XTx \/ (ch_tx s' i = XIn /\ ws_pc (ch_cell s') i = NOr true)
    | XIn => ch_tx s' i = XIn \/ (ch_tx s' i = TEnd /\ exists b, cell_of l = [RetNotify i b])
    | TEnd => ch_tx s' i = TEnd
    | _ => True
    end.
  Proof.
    intros HK Hs. destruct (ch_tx s i) eqn:Ei; try exact I.
    all: assert (Hi : i <> 0) by (apply (tx_odd _ _ HK); congruence).
    all: ccases Hs a; frs; cbn [ch_count ch_tx ch_rx ch_cell ch_ring on_ring on_cell on_queue on_tx on_rx on_count on_live on_refs on_out finish]; odds HK.
    all: try (assumption || (left; assumption)).
    all: try (unfold tset; match goal with |- context [Nat.eqb ?j ?k] => destruct (Nat.eqb_spec j k) as [->|]; [congruence|now auto] end).
    all: match goal with |- context [tset _ ?k _ ?j] => destruct (Nat.eq_dec k j) as [->|Hkj]; [rewrite tset_same; try (left; congruence)|rewrite tset_other by congruence; left; assumption] end.
    - right. destruct (r_close _ _ _ _ _ _ _ Heqo) as (_ & (b & -> & Hb) & _). cbn [close_ret] in Heqb. assert (pan0 = pan) by congruence. subst pan0. exists b. rewrite Heqb. auto.
    - right. destruct (r_close _ _ _ _ _ _ _ Heqo) as (_ & (b & -> & Hb) & _). cbn [close_ret] in Heqb. assert (pan0 = pan) by congruence. subst pan0. exists b. rewrite Heqb. auto.
    - right. split; [reflexivity|]. now destruct (c_notify _ _ _ _ _ _ Heqo) as (_ & _ & _ & -> & _).
    - right. split; [reflexivity|]. match goal with H : cell_ret ?o = _ |- _ => destruct o as [[]|]; try discriminate H end. pose proof (c_event _ _ _ _ _ Heqo) as Q. injection Q as <-. cbn. eauto.
  Qed.

  (** Only the Sender that closes the channel sets CLOSED in the cell. *)
  Definition ninv (s : @chan T) : Prop := forall i, ws_pc (ch_cell s) i = NOr true -> ch_tx s i = XIn.
  Lemma nor_new s a s' l i c : Link s -> cstep_sys s a = Some (s', l) -> ws_pc (ch_cell s') i = NOr c ->
    ws_pc (ch_cell s) i = NOr c \/ cell_of l = [CallNotify i c].
  Proof.
    intros HK Hs Hn. destruct (moved_step _ _ _ _ _ _ _ _ Hs) as [_ E _ _ _ _|a0 r e He _ E _ _ _ _|a0 r e He _ <- _ _ E _|a0 r e He _ E _ _ _ _]; try (left; rewrite <- E; exact Hn).
    destruct a0 as [k w pan|k c'|k].
    - destruct (Nat.eq_dec i k) as [->|Hk].
      + exfalso. cbn [wstep_sys] in He. destruct (ws_pc (ch_cell s) k); try discriminate. injection He as E1 _. rewrite <- E1 in Hn. cbn [ws_pc] in Hn. rewrite WaitCellFacts.wset_same in Hn. discriminate.
      + destruct (c_call _ _ _ _ _ _ _ He) as (_ & _ & _ & _ & E2). left. rewrite <- E2; [exact Hn|congruence].
    - destruct (c_notify _ _ _ _ _ _ He) as (_ & Ee & _ & E1 & E2). destruct (Nat.eq_dec i k) as [->|Hk].
      + right. rewrite E, Ee. rewrite E1 in Hn. injection Hn as ->. reflexivity.
      + left. rewrite <- E2; [exact Hn|congruence].
    - destruct (Nat.eq_dec i k) as [->|Hk].
      + exfalso. cbn [wstep_sys] in He. destruct (ws_pc (ch_cell s) k) eqn:E0; try discriminate; unfold wstep in He; wcs He; try discriminate He;
          injection He as E1 _; rewrite <- E1 in Hn; cbn [ws_pc] in Hn; rewrite WaitCellFacts.wset_same in Hn; discriminate Hn.
      + left. destruct (c_own _ _ _ _ _ He) as (E2 & _). rewrite <- E2; [exact Hn|congruence].
  Qed.
  Lemma ninv_run es s : crun es s -> ninv s.
  Proof.
    induction 1 as [|es s a s' l Hr IH Hs]; [intros i H; discriminate H|]. intros i Hn. pose proof (link_run _ _ _ _ _ _ Hr) as HK.
    destruct (nor_new _ _ _ _ _ _ HK Hs Hn) as [H|E].
    - pose proof (x_step _ _ _ _ i HK Hs) as X. rewrite (IH i H) in X. destruct X as [X|[X _]]; [exact X|].
      assert (Hi : i <> 0) by (apply (tx_odd _ _ HK); rewrite (IH i H); discriminate).
      pose proof (K_c _ (link_run _ _ _ _ _ _ (crun_step _ _ _ _ _ _ _ _ _ Hr Hs)) i Hi) as K. rewrite X in K. simpl in K. congruence.
    - pose proof (at_cell _ _ _ _ _ _ _ _ _ HK Hs E) as (_ & _ & Q). exact Q.
  Qed.

  (** The receiver has closed the ring. *)
  Definition rx_closed (es : list (cevent T)) (s : @chan T) : Prop :=
    match ch_rx s with RCloseQ | RInClose | RDead => True | RGone => In (ERetClose 0) (queue_of es) | _ => False end.
  Lemma rx_closed_step es s a s' l : Link s -> cstep_sys s a = Some (s', l) -> rx_closed es s -> rx_closed (l ++ es) s'.
  Proof.
    intros HK Hs. unfold rx_closed. rewrite queue_of_app. clear Hwf. ccases Hs a; cbn [ch_rx on_ring on_cell on_queue on_tx on_rx on_count on_live on_refs on_out finish]; frs; rewrite ?Heqr; auto; try contradiction.
    all: try (destruct (ch_rx s); auto; intros ?; apply in_or_app; now right).
    3: { intros _. pose proof (q_own _ _ _ _ _ _ Heqo) as Q. rewrite Heqo0 in Q. destruct Q as (_ & [(Q & _)|[(Q & _)|(_ & -> & _)]]); [| |now left].
      all: pose proof (proj1 (K_q0 _ HK)) as K; rewrite Heqr in K; simpl in K; congruence. }
    all: unfold rx_free in H; destruct (ch_rx s); try discriminate H; tauto.
  Qed.

  Record LInv (es : list (cevent T)) (s : @chan T) : Prop := {
    l_one : forall i p i' p', In (TxDropped i 0 p) es -> In (TxDropped i' 0 p') es -> i = i' /\ p = p';
    l_zero : ch_count s = 0 <-> exists i p, In (TxDropped i 0 p) es;
    l_tx : forall i, closer (ch_tx s i) = true -> exists p, In (TxDropped i 0 p) es;
    l_at : forall i pan, In (TxDropped i 0 pan) es ->
      match ch_tx s i with
      | XClose p => p = pan /\ (closed_in (ring_of es) = true -> rx_closed es s)
      | XTx => (pan = false \/ async = true) /\ (pan = false -> closed_in (ring_of es) = true)
      | XIn => (pan = false -> closed_in (ring_of es) = true) /\ (ws_pc (ch_cell s) i = NOr true \/ WaitCellSpec.closed_in (cell_of es) = true)
      | TEnd => (pan = false -> closed_in (ring_of es) = true) /\
          (WaitCellSpec.closed_in (cell_of es) = true \/ (async = false /\ (pan = true \/ rx_closed es s)))
      | _ => False
      end;
    l_ring : 0 < ch_count s -> closed_in (ring_of es) = true -> rx_closed es s;
    l_cell : WaitCellSpec.closed_in (cell_of es) = true -> ch_count s = 0
  }.

  Lemma closed_mono (l es : list (cevent T)) : closed_in (ring_of es) = true -> closed_in (ring_of (l ++ es)) = true.
  Proof. rewrite ring_of_app, closed_app. intros ->. apply orb_true_r. Qed.
  Lemma cell_closed_mono (l es : list (cevent T)) : WaitCellSpec.closed_in (cell_of es) = true -> WaitCellSpec.closed_in (cell_of (l ++ es)) = true.
  Proof. rewrite cell_of_app. unfold WaitCellSpec.closed_in. rewrite existsb_app. intros ->. apply orb_true_r. Qed.
  (** Who closes the ring. *)
  Lemma closing_by es s a s' l : Link s -> cstep_sys s a = Some (s', l) -> closed_in (ring_of es) = false -> closed_in (ring_of (l ++ es)) = true ->
    rx_closed (l ++ es) s' \/ exists i, ch_tx s i = XClose false /\ ch_tx s' i = XTx.
  Proof.
    intros HK Hs H0 H. rewrite ring_of_app, closed_app, H0, orb_false_r in H. destruct (events_tail _ _ _ _ _ _ _ _ Hs) as (L1 & _).
    destruct (single _ L1) as [E|[e E]]; rewrite E in H; [discriminate|]. destruct e; try discriminate H. cbn in H. destruct b; [|discriminate H]. clear H.
    pose proof (at_ring _ _ _ _ _ _ _ _ _ HK Hs E) as [(-> & pan & Q1 & Q2 & Q3)|(pan & Q1 & Q2 & Q3)].
    - left. unfold rx_closed. rewrite Q3. exact I.
    - right. exists i. destruct pan; [discriminate (Q2 eq_refl)|]. rewrite orb_true_r in Q3. auto.
  Qed.

  Lemma linv_step es s a s' l : crun es s -> ring_calm W cap es -> cstep_sys s a = Some (s', l) -> LInv es s -> LInv (l ++ es) s'.
  Proof.
    intros Hr HC Hs [L1 L2 L3 L4 L5 L6]. pose proof (link_run _ _ _ _ _ _ Hr) as HK.
    assert (Hcell : WaitCellSpec.closed_in (cell_of (l ++ es)) = true -> WaitCellSpec.closed_in (cell_of es) = true \/ exists i, cell_of l = [Fetched i true] /\ ch_tx s i = XIn).
    { rewrite cell_of_app. unfold WaitCellSpec.closed_in. rewrite existsb_app. intros H. apply orb_true_iff in H. destruct H as [H|H]; [right|now left].
      destruct (events_tail _ _ _ _ _ _ _ _ Hs) as (_ & Lc & _). destruct (single _ Lc) as [E|[e E]]; rewrite E in H; [discriminate|].
      cbn in H. rewrite orb_false_r in H. destruct e; try discriminate H. destruct close; [|discriminate]. exists i. split; [exact E|]. apply (ninv_run _ _ Hr).
      destruct (moved_step _ _ _ _ _ _ _ _ Hs) as [_ _ _ _ E0 _|a0 r e He _ _ _ _ E0 _|a0 r e He _ _ _ _ E0 _|a0 r e He _ _ _ _ E0 _]; rewrite E in E0; try discriminate.
      destruct e as [e|]; [injection E0 as <-|discriminate]. apply (c_event _ _ _ _ _ He). }
    assert (Hrx : closed_in (ring_of es) = true -> (closed_in (ring_of es) = true -> rx_closed es s) -> rx_closed (l ++ es) s').
    { intros H1 H2. apply (rx_closed_step _ _ _ _ _ HK Hs); auto. }
    destruct (count_step _ _ _ _ Hs) as [(i & pan & -> & N1 & N0 & -> & T0 & T1 & To & Er & Ec & Ex)|(Hn & Hl & Hx)].
    - assert (Hno : forall k p, ~ In (TxDropped k 0 p) es) by (intros k p Hk; assert (ch_count s = 0) by (apply L2; eauto); lia).
      assert (Hrx' : rx_closed es s -> rx_closed ([TxDropped i 0 pan] ++ es) s') by (intros H; exact (rx_closed_step _ _ _ _ _ HK Hs H)).
      constructor.
      + intros k p k' p' [E|H] [E'|H']; try (destruct (Hno _ _ H)); try (destruct (Hno _ _ H')). split; congruence.
      + split; [intros _|intros _; exact N0]. exists i, pan. now left.
      + intros j Hj. destruct (Nat.eq_dec j i) as [->|Hji]; [exists pan; now left|]. rewrite (To _ Hji) in Hj. destruct (L3 _ Hj) as [p H]. exists p. now right.
      + intros k p [E|H]; [|destruct (Hno _ _ H)]. injection E as <- <-. rewrite T1. split; [reflexivity|]. cbn [ring_of app]. intros H. apply Hrx'. apply L5; [lia|exact H].
      + lia.
      + intros _. exact N0.
    - assert (Hin : forall i p, In (TxDropped i 0 p) (l ++ es) <-> In (TxDropped i 0 p) es).
      { intros i p. split; intros H; [apply in_app_or in H; destruct H as [H|H]; [destruct (Hl _ _ H)|exact H]|apply in_or_app; now right]. }
      constructor.
      + intros i p i' p' H H'. apply Hin in H, H'. eauto.
      + rewrite Hn, L2. split; intros (i & p & H); exists i, p; now apply Hin.
      + intros i Hi. destruct (L3 _ (Hx _ Hi)) as [p H]. exists p. now apply Hin.
      + intros i pan H. apply Hin in H. specialize (L4 _ _ H). pose proof (x_step _ _ _ _ i HK Hs) as X.
        destruct (ch_tx s i) eqn:Ei; try contradiction.
        * rewrite X. destruct L4 as [H1 H2]. split; [intros Hp; apply closed_mono; auto|]. destruct H2 as [H2|[H2 H3]]; [left; now apply cell_closed_mono|].
          right. split; [exact H2|]. destruct H3 as [H3|H3]; [now left|right]. exact (rx_closed_step _ _ _ _ _ HK Hs H3).
        * destruct L4 as [<- Hc]. destruct X as [X|(b & El & Hb & -> & Hst)].
          { rewrite X. split; [reflexivity|]. intros H2. destruct (closed_in (ring_of es)) eqn:E0; [apply Hrx; auto|].
            destruct (closing_by _ _ _ _ _ HK Hs E0 H2) as [H3|(j & H3 & H4)]; [exact H3|].
            destruct (L3 j ltac:(rewrite H3; reflexivity)) as [p Hj]. destruct (L1 _ _ _ _ H Hj) as [-> _]. congruence. }
          assert (Hb' : pan0 = false -> b = negb (closed_in (ring_of es))).
          { intros ->. pose proof (RingFacts.close_result W cap pol Hwf _ _ _ _ _ (crun_ring _ _ _ _ _ _ Hr) HC Hst) as Q. congruence. }
          assert (Hcl : pan0 = false -> closed_in (ring_of (l ++ es)) = true).
          { intros Hp. specialize (Hb' Hp). rewrite ring_of_app, closed_app, El. cbn. destruct (closed_in (ring_of es)); [apply orb_true_r|]. rewrite Hb'. reflexivity. }
          destruct async eqn:Ea; [cbn [orb]; auto|]. cbn [orb]. destruct b.
          { split; [left|exact Hcl]. destruct pan0; auto. }
          split; [exact Hcl|]. right. split; [reflexivity|]. destruct pan0; [now left|right]. specialize (Hb' eq_refl). destruct (closed_in (ring_of es)) eqn:E0; [apply Hrx; auto|discriminate].
        * destruct L4 as [H1 H2]. destruct X as [->|[-> Hn']]; (split; [auto|]); auto using closed_mono.
        * destruct L4 as [H1 H2]. assert (Hd : ws_pc (ch_cell s') i = NOr true \/ WaitCellSpec.closed_in (cell_of (l ++ es)) = true).
          { destruct H2 as [H2|H2]; [|right; now apply cell_closed_mono]. destruct (nor_step _ _ _ _ _ _ Hs H2) as [H3|H3]; [now left|right].
            rewrite cell_of_app, H3. reflexivity. }
          destruct X as [X|[X _]]; rewrite X; (split; [auto using closed_mono|]); auto.
          destruct Hd as [Hd|Hd]; [|now left]. pose proof (ninv_run _ _ (crun_step _ _ _ _ _ _ _ _ _ Hr Hs) _ Hd). congruence.
      + intros Hp H. destruct (closed_in (ring_of es)) eqn:E0; [apply Hrx; auto; intros _; apply L5; auto; lia|].
        destruct (closing_by _ _ _ _ _ HK Hs E0 H) as [H3|(j & H3 & H4)]; [exact H3|].
        pose proof (K_last _ HK ltac:(lia) j) as K. rewrite H3 in K. contradiction.
      + intros H. apply Hn. destruct (Hcell H) as [H'|(i & _ & Hi)]; [auto|]. apply L2. destruct (L3 i ltac:(rewrite Hi; reflexivity)) as [p Hp]. eauto.
  Qed.
  Lemma linv_run es s : crun es s -> ring_calm W cap es -> LInv es s.
  Proof.
    induction 1 as [|es s a s' l Hr IH Hs]; intros HC.
    - constructor; simpl; try contradiction; try discriminate. split; [discriminate|intros (? & ? & [])].
    - pose proof (calm_tail _ _ _ _ HC) as HC0. exact (linv_step _ _ _ _ _ Hr HC0 Hs (IH HC0)).
  Qed.

End End_.
