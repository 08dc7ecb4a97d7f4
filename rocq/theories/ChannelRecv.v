(** The receiver: who still has to tell it that there is a message. *)
From Coq Require Import List Bool Arith NArith Lia.
From Verif Require CoreInv CoreStep RingFacts.
From Verif Require Import CoreArith RingSpec.
From Verif Require Import QueueSpec CoreModel WaitCellModel WaitList WaitListSpec WaitQueueModel WaitQueueSpec WaitQueueFacts WaitQueueWake.
From Verif Require WaitCellSpec WaitCellFacts WaitCellTheorems.
From Verif Require Import ChannelModel ChannelSpec ChannelFacts ChannelLink ChannelEvents ChannelRing ChannelQueue ChannelInv ChannelSend ChannelStop.
From Verif Require Import History.
Import ListNotations.

(** What the cell's events say about where the receiver is. *)
Definition rcell (r : rpc) (ces : list wevent) : Prop :=
  match r with
  | RWait _ w => WaitCellSpec.last_call 0 ces = Some w
  | RAgain _ (KAgain w) | RPop _ (KAgain w) | RPark w =>
      exists later, WaitCellSpec.parked 0 ces = Some (w, later) /\ (WaitCellSpec.closed_in ces = true -> existsb WaitCellSpec.is_fetched later = true)
  | _ => True
  end.
Definition own0 (e : wevent) : bool :=
  match e with CallWait i _ _ | RetWait i _ => Nat.eqb 0 i | _ => false end.
Lemma parked_other e ces w later : own0 e = false -> WaitCellSpec.parked 0 ces = Some (w, later) -> WaitCellSpec.parked 0 (e :: ces) = Some (w, e :: later).
Proof.
  intros He Hp. cbn [WaitCellSpec.parked]. rewrite Hp. destruct e; try reflexivity; cbn in He |- *; [now rewrite He|]. destruct r; try reflexivity. now rewrite He.
Qed.
Lemma rcell_other r e ces : own0 e = false -> rcell r ces -> rcell r (e :: ces).
Proof.
  intros He.
  assert (Hp : forall w, (exists later, WaitCellSpec.parked 0 ces = Some (w, later) /\ (WaitCellSpec.closed_in ces = true -> existsb WaitCellSpec.is_fetched later = true)) ->
    exists later, WaitCellSpec.parked 0 (e :: ces) = Some (w, later) /\ (WaitCellSpec.closed_in (e :: ces) = true -> existsb WaitCellSpec.is_fetched later = true)).
  { intros w (later & H1 & H2). exists (e :: later). split; [now apply parked_other|]. cbn. intros H. apply orb_true_iff in H. destruct H as [H|H].
    - destruct e; try discriminate H. reflexivity.
    - rewrite (H2 H). apply orb_true_r. }
  destruct r as [|h [| |w|]|h [| |w|]| | | | | | | | | |]; cbn [rcell]; auto.
  destruct e; auto; cbn in He |- *. rewrite He. auto.
Qed.

(** When wait_with returns Wait, the cell is not closed. *)
Lemma wait_open debug ces c c' : WaitCellModel.wrun debug ces c ->
  wstep_sys debug c (WAStep 0) = Some (c', Some (RetWait 0 Wait)) -> WaitCellSpec.closed_in ces = false.
Proof.
  intros Hr Hs. pose proof (WaitCellFacts.l_closed _ _ (WaitCellFacts.wrun_inv _ _ _ Hr)) as Hc. rewrite <- Hc. unfold WaitCellFacts.has_closed. clear Hc Hr.
  cbn [wstep_sys] in Hs. destruct (ws_pc c 0) eqn:E; try discriminate; unfold wstep in Hs; wcs Hs; try discriminate Hs; try assumption.
  - reflexivity.
  - apply N.eqb_eq in Heqb. rewrite Heqb. reflexivity.
Qed.

Lemma c_nor debug s k s' e : wstep_sys debug s (WAStep k) = Some (s', e) -> forall c, ws_pc s k = NOr c -> e = Some (Fetched k c).
Proof. intros Hs c E. cbn [wstep_sys] in Hs. rewrite E in Hs. cbn in Hs. now injection Hs as <- <-. Qed.

Section Recv.
  Context {T : Type}.
  Variables (W : N) (cap : nat) (pol : policy T) (async debug : bool).
  Hypothesis Hwf : wf W cap.
  Notation P := (core_new W (N.of_nat cap)).
  Notation B := (slack W cap).
  Notation cstep_sys := (@cstep_sys T P pol async debug).
  Notation crun := (@crun T P pol async debug).
  Notation nice := (nice W cap).
  Local Arguments drop_id : simpl never.

  (** Only the receiver waits on the cell, and cloning its waker does not panic. *)
  Lemma cell_use es s : crun es s -> WaitCellSpec.single_waiter 0 (cell_of es) /\ WaitCellSpec.no_panic (cell_of es).
  Proof.
    induction 1 as [|es s a s' l Hr [IH1 IH2] Hs]; [split; intros i w; simpl; tauto|]. rewrite cell_of_app.
    destruct (events_tail _ _ _ _ _ _ _ _ Hs) as (_ & L2 & _). destruct (single _ L2) as [->|[e He]]; [split; assumption|].
    rewrite He. pose proof (at_cell _ _ _ _ _ _ _ _ _ (link_run _ _ _ _ _ _ Hr) Hs He) as Q. split.
    - intros i w pan [->|Hin]; [apply Q|exact (IH1 _ _ _ Hin)].
    - intros i w [->|Hin]; [|exact (IH2 _ _ Hin)]. destruct Q as (_ & Q & _). discriminate.
  Qed.
  Lemma cell_no_fail es s i : crun es s -> ~ In (Asserted i) (cell_of es).
  Proof. intros Hr. apply (WaitCellFacts.no_assert debug _ _ (crun_cell _ _ _ _ _ _ Hr)). apply (cell_use _ _ Hr). Qed.

  Lemma rcell_step es s a s' l : crun es s -> cstep_sys s a = Some (s', l) -> rcell (ch_rx s) (cell_of es) -> rcell (ch_rx s') (cell_of (l ++ es)).
  Proof.
    intros Hr Hs HR. pose proof (link_run _ _ _ _ _ _ Hr) as HK. pose proof (crun_cell _ _ _ _ _ _ Hr) as Hc. rewrite cell_of_app.
    destruct (events_tail _ _ _ _ _ _ _ _ Hs) as (_ & L2 & _). destruct (single _ L2) as [E|[e E]].
    - rewrite E. clear L2 Hc. ccases Hs a; cbn [ch_rx on_ring on_cell on_queue on_tx on_rx on_count on_live on_refs on_out finish] in *; try exact HR; try exact I;
        rewrite ?Heqr in HR; try exact HR.
      all: try (destruct k; exact HR).
      all: try (rewrite Heqr; exact HR).
      + destruct (c_call _ _ _ _ _ _ _ Heqo) as (_ & -> & _). discriminate E.
      + destruct o as [[]|]; discriminate.
    - pose proof (at_cell _ _ _ _ _ _ _ _ _ HK Hs E) as Q. rewrite E. cbn [app].
      assert (Hsame : own0 e = false -> ch_rx s' = ch_rx s -> rcell (ch_rx s') (e :: cell_of es)) by (intros H1 ->; now apply rcell_other).
      destruct (own0 e) eqn:Eo.
      + destruct e; try discriminate Eo.
        * destruct Q as (-> & -> & h & _ & ->). reflexivity.
        * destruct Q as (-> & h & w & Q1 & ->). destruct r; try exact I. rewrite Q1 in HR. cbn [rcell] in *. exists [].
          cbn. rewrite HR. split; [reflexivity|]. intros Hx. exfalso.
          destruct (moved_step _ _ _ _ _ _ _ _ Hs) as [_ _ _ _ E0 _|a0 r e He _ _ _ _ E0 _|a0 r e He _ _ _ _ E0 _|a0 r e He _ _ _ _ E0 _]; rewrite E in E0; try discriminate.
          destruct e as [e|]; [injection E0 as <-|discriminate]. rewrite (c_event _ _ _ _ _ He) in He. pose proof (wait_open _ _ _ _ Hc He) as Ho. unfold WaitCellSpec.closed_in in Ho. rewrite Ho in Hx. discriminate.
      + specialize (Hsame eq_refl). assert (Hx : ch_rx s' = ch_rx s \/ ch_rx s' = RDead).
        { clear - HK Hs E Eo. ccases Hs a; cbn [ch_rx on_ring on_cell on_queue on_tx on_rx on_count on_live on_refs on_out finish] in *; auto;
            rewrite ?cell_of_app in E; cbn in E; try discriminate E; try (destruct o; discriminate E).
          all: destruct o as [[]|]; cbn in E; try discriminate; injection E as <-.
          all: match goal with H : wstep_sys _ _ _ = Some _ |- _ => pose proof (c_event _ _ _ _ _ H) as Q end; try discriminate.
          all: try (injection Q as <-; discriminate).
          cbn beta match in Q. conj. discriminate. }
        destruct Hx as [Hx|Hx]; [apply Hsame; exact Hx|rewrite Hx; exact I].
  Qed.
  Lemma rcell_run es s : crun es s -> rcell (ch_rx s) (cell_of es).
  Proof. induction 1 as [|es s a s' l Hr IH Hs]; [exact I|exact (rcell_step _ _ _ _ _ Hr Hs IH)]. Qed.

  (** ** A completed message is always announced *)
  (** The receiver has last seen no completed message and is about to wait, or waits. *)
  Definition parkable (s : @chan T) : Prop :=
    match ch_rx s with
    | RPark _ => True
    | RPop h (KAgain _) => exists t b, st_agents (ch_ring s) h = QTail t b
    | _ => False
    end.
  Definition announces (s : @chan T) (i : nat) : Prop :=
    ch_tx s i = TDropped \/ (ch_tx s i = TNotify /\ ws_pc (ch_cell s) i = NOr false).
  Definition fetched (ces : list wevent) : Prop :=
    exists w later, WaitCellSpec.parked 0 ces = Some (w, later) /\ existsb WaitCellSpec.is_fetched later = true.

  Lemma announce_step s a s' l i : Link s -> cstep_sys s a = Some (s', l) -> announces s i -> announces s' i \/ cell_of l = [Fetched i false].
  Proof.
    intros HK Hs HA. assert (Hi : i <> 0). { apply (tx_odd _ _ HK). intros E. destruct HA as [H|[H _]]; congruence. }
    assert (Hn : ch_tx s i <> TNone) by (intros E; destruct HA as [H|[H _]]; congruence).
    unfold announces in *. ccases Hs a; frs; odds HK; try match goal with H : wstep_sys _ _ (WAStep _) = Some _ |- _ => pose proof (c_nor _ _ _ _ _ H) as Hnor end; facts;
      cbn; try (left; exact HA).
    all: try (match goal with |- context [tset _ ?k _ ?j] => destruct (Nat.eq_dec k j) as [->|Hik]; [rewrite tset_same|rewrite tset_other by congruence] end).
    all: try (left; exact HA).
    all: try (exfalso; destruct HA as [HA|[HA _]]; congruence).
    all: try congruence.
    all: try (left; coth i; exact HA).
    all: try (left; right; split; [reflexivity|assumption]).
    all: match goal with Hx : forall c, _ = _ -> _ = Some (Fetched ?k _) |- context [[Fetched ?j _]] => destruct (Nat.eq_dec k j) as [Hkj|Hkj]; [try congruence; subst|try congruence; left; coth j; exact HA] end.
    all: destruct HA as [HA|[_ HA]]; try congruence; try (rewrite (Hnor _ HA); right; reflexivity).
    all: match goal with Hq : cell_ret ?o = _ |- _ => rewrite (Hnor _ HA) in Hq; discriminate Hq end.
  Qed.

  (** How the receiver comes to be inside pop_ref, or parked. *)
  Lemma rx_to_park s a s' l w : cstep_sys s a = Some (s', l) -> ch_rx s' = RPark w ->
    ch_rx s = RPark w \/ (exists h, ch_rx s = RPop h (KAgain w) /\ ring_of l = [RetEmpty h]).
  Proof.
    intros Hs Hp. ccases Hs a; cbn [ch_rx on_ring on_cell on_queue on_tx on_rx on_count on_live on_refs on_out finish] in *; auto; try discriminate; try congruence.
    right. exists h. split; [congruence|]. match goal with H : pop_ret ?o = _ |- _ => destruct o as [[]|]; try discriminate H end. cbn.
    destruct (r_event _ _ _ _ _ _ Heqo) as [[sp E] _]. congruence.
  Qed.
  Lemma rx_to_pop s a s' l h k : Link s -> cstep_sys s a = Some (s', l) -> ch_rx s' = RPop h k ->
    (ch_rx s = RAgain h k /\ st_agents (ch_ring s') h = CoreModel.QStart) \/
    (ch_rx s = RPop h k /\ (st_agents (ch_ring s') h = st_agents (ch_ring s) h \/
       exists spur e, step P pol (ch_ring s) (AStep h spur) = Some (ch_ring s', e) /\ ring_of l = olist e)).
  Proof.
    intros HK Hs Hp. ccases Hs a; cbn [ch_rx ch_ring on_ring on_cell on_queue on_tx on_rx on_count on_live on_refs on_out finish] in *; auto; try discriminate.
    all: try congruence.
    all: match goal with H : step _ _ _ _ = Some _ |- _ => idtac | _ => exfalso; congruence end.
    15: { left. injection Hp as <- <-. destruct (r_invoke _ _ _ _ _ _ _ Heqo) as (_ & _ & _ & E & _). auto. }
    15: { right. rewrite Heqr in Hp. injection Hp as <- <-. split; [reflexivity|right]. do 2 eexists. split; [exact Heqo|]. destruct o; reflexivity. }
    all: right; split; [congruence|]; left; match goal with H : step _ _ _ _ = Some _ |- _ => refine (r_others _ _ _ _ _ _ _ _ H _) end.
    all: try exact I.
    all: destruct (K_use _ HK h ltac:(rewrite Hp; reflexivity)) as [Hev Hnr].
    all: try (frs; odds HK; intros ->; congruence).
    all: frs; refs; try (intros ->; contradiction).
  Qed.

  (** The receiver stops looking only when the front is not complete. *)
  Lemma park_start es s a s' l : crun es s -> ring_calm W cap es -> cstep_sys s a = Some (s', l) -> parkable s' ->
    parkable s \/ (ring_of l = [] /\ committed (ring_of es) (count is_take (ring_of es)) = None).
  Proof.
    intros Hr HC Hs Hp. pose proof (link_run _ _ _ _ _ _ Hr) as HK. pose proof (crun_ring _ _ _ _ _ _ Hr) as Hrr.
    unfold parkable in Hp. destruct (ch_rx s') as [|?|h [| |w|]| | |w| | | | | | |] eqn:Ex; try contradiction.
    - destruct Hp as (t & b & Hp). destruct (rx_to_pop _ _ _ _ _ _ HK Hs Ex) as [[_ E]|[E1 [E|(spur & e & He & El)]]]; [congruence| |].
      + left. unfold parkable. rewrite E1, <- E. eauto.
      + destruct (st_agents (ch_ring s) h) eqn:Ea.
        all: try (left; unfold parkable; rewrite E1, Ea; eauto; fail).
        all: pose proof He as He'; cbn [step] in He; rewrite Ea in He; cbn [stepping] in He; try discriminate He; unfold cstep, push_top, idx_gen in He; wcs He;
          try (injection He as H1 H2; rewrite <- H1 in Hp; cbn [st_agents] in Hp; rewrite CoreInv.upd_same in Hp; discriminate Hp).
        injection He as H1 H2. rewrite <- H1 in Hp. cbn [st_agents] in Hp. rewrite CoreInv.upd_same in Hp. injection Hp as -> ->. subst e.
        right. split; [exact El|]. apply (blocked_now W cap pol Hwf (ring_of es) _ h spur (ch_ring s') t b b Hrr HC Ea He'). rewrite <- H1. cbn [st_agents]. apply CoreInv.upd_same.
    - left. unfold parkable. destruct (rx_to_park _ _ _ _ _ Hs Ex) as [E|(h & E & El)]; rewrite E; [exact I|].
      destruct (moved_step _ _ _ _ _ _ _ _ Hs) as [_ _ _ E0 _ _|a0 r e He _ _ _ E0 _ _|a0 r e He _ _ _ E0 _ _|a0 r e He _ _ _ E0 _ _]; rewrite El in E0; try discriminate.
      destruct e as [e|]; [injection E0 as <-|discriminate]. destruct (r_event _ _ _ _ _ _ He) as [_ H]. exact H.
  Qed.

  (** While the receiver is about to wait or waits, a completed message at the front
      is about to be announced, or has been. *)
  Definition jinv (es : list (cevent T)) (s : @chan T) : Prop :=
    parkable s ->
    committed (ring_of es) (count is_take (ring_of es)) = None \/ (exists i, announces s i) \/ fetched (cell_of es).
  Lemma parkable_cell es s : crun es s -> parkable s -> exists w later, WaitCellSpec.parked 0 (cell_of es) = Some (w, later).
  Proof.
    intros Hr Hp. pose proof (rcell_run _ _ Hr) as HR. unfold parkable in Hp.
    destruct (ch_rx s) as [|?|h [| |w|]| | |w| | | | | | |]; try contradiction; destruct HR as (later & H & _); eauto.
  Qed.
  Lemma jinv_step es s a s' l : crun es s -> ring_calm W cap es -> cstep_sys s a = Some (s', l) -> jinv es s -> jinv (l ++ es) s'.
  Proof.
    intros Hr HC Hs IH Hp'. pose proof (link_run _ _ _ _ _ _ Hr) as HK.
    pose proof (crun_step _ _ _ _ _ _ _ _ _ Hr Hs) as Hr'.
    rewrite ring_of_app, cell_of_app. destruct (park_start _ _ _ _ _ Hr HC Hs Hp') as [Hp|[El Hn]]; [|left; rewrite El; exact Hn].
    destruct (events_tail _ _ _ _ _ _ _ _ Hs) as (L1 & L2 & _).
    assert (Hown : forall e, cell_of l = [e] -> own0 e = false).
    { intros e El. pose proof (at_cell _ _ _ _ _ _ _ _ _ HK Hs El) as Q. unfold parkable in Hp. destruct e; try reflexivity.
      - destruct Q as (_ & _ & h & Q & _). rewrite Q in Hp. contradiction.
      - destruct Q as (_ & h & w & Q & _). rewrite Q in Hp. contradiction. }
    destruct (IH Hp) as [H|[[i H]|(w & later & H1 & H2)]].
    - destruct (single _ L1) as [->|[e El]]; [left; exact H|]. rewrite El. pose proof (at_ring _ _ _ _ _ _ _ _ _ HK Hs El) as Q.
      destruct e; try (left; exact H).
      + right. left. exists i. left. apply Q.
      + exfalso. destruct Q as (_ & Q & _). unfold parkable in Hp'. rewrite Q in Hp'. exact Hp'.
    - destruct (announce_step _ _ _ _ _ HK Hs H) as [H'|El]; [right; left; eauto|]. right. right.
      destruct (parkable_cell _ _ Hr Hp) as (w & later & Hw). rewrite El. exists w, (Fetched i false :: later). split; [|reflexivity].
      apply parked_other; [reflexivity|exact Hw].
    - right. right. destruct (single _ L2) as [->|[e El]]; [exists w, later; auto|]. rewrite El. exists w, (e :: later). split.
      + apply parked_other; auto.
      + cbn. rewrite H2. apply orb_true_r.
  Qed.
  Lemma jinv_run es s : crun es s -> ring_calm W cap es -> jinv es s.
  Proof.
    induction 1 as [|es s a s' l Hr IH Hs]; [intros _ []|]. intros HC. pose proof (calm_tail _ _ _ _ HC) as HC0.
    apply (jinv_step _ _ a _ _ Hr HC0 Hs). auto.
  Qed.

End Recv.
