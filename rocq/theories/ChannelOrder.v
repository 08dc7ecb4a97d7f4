(** Publishing comes before notifying (mpsc.rs:269-304, 559-573). *)
From Coq Require Import List Bool Arith NArith Lia.
From Verif Require CoreInv CoreStep RingFacts HistoryFacts.
From Verif Require Import CoreArith RingSpec.
From Verif Require Import QueueSpec CoreModel WaitCellModel WaitList WaitListSpec WaitQueueModel WaitQueueSpec WaitQueueFacts.
From Verif Require WaitCellSpec WaitCellFacts.
From Verif Require Import ChannelModel ChannelSpec ChannelFacts ChannelLink ChannelEvents ChannelRing ChannelQueue ChannelInv ChannelSend ChannelStop ChannelDrain.
From Verif Require Import History.
Import ListNotations.

Section Order.
  Context {T : Type}.
  Variables (W : N) (cap : nat) (pol : policy T) (async debug : bool).
  Hypothesis Hwf : wf W cap.
  Notation P := (core_new W (N.of_nat cap)).
  Notation B := (slack W cap).
  Notation cstep_sys := (@cstep_sys T P pol async debug).
  Notation crun := (@crun T P pol async debug).
  Local Arguments drop_id : simpl never.

  (** ** SendRef *)
  Lemma to_dropped es s a s' l i : crun es s -> ring_calm W cap (l ++ es) -> cstep_sys s a = Some (s', l) -> ch_tx s' i = TDropped ->
    ch_tx s i = TDropped \/ exists v, ring_of l = [Commit i v].
  Proof.
    intros Hr HC Hs Hi. pose proof (link_run _ _ _ _ _ _ Hr) as HK. pose proof (fun j => no_ring_ub W cap pol async debug Hwf _ _ j (crun_step _ _ _ _ _ _ _ _ _ Hr Hs) HC) as Hub.
    rewrite ring_of_app in Hub. clear Hr HC.
    ccases Hs a; cbn [ch_tx on_ring on_cell on_queue on_tx on_rx on_count on_live on_refs on_out finish] in Hi; auto;
      try (unfold tset in Hi; match type of Hi with context [Nat.eqb ?x ?y] => destruct (Nat.eqb_spec x y) as [Ee|Hne]; [subst; try discriminate Hi|auto] end).
    right. match goal with H : step _ _ _ _ = Some _ |- _ => destruct (r_drop _ _ _ _ _ _ H) as (_ & _ & Hd) end.
    destruct (tx_holds _ _ HK Heqt) as [r Hr]. destruct Hd as [[_ [->|[v ->]]]|[[r' Hx] _]]; [|simpl; eauto|congruence].
    destruct (Hub i0). now left.
  Qed.
  Lemma from_dropped s a s' l i : cstep_sys s a = Some (s', l) -> ch_tx s i = TDropped ->
    ch_tx s' i = TDropped \/ cell_of l = [CallNotify i false].
  Proof.
    intros Hs Hi. ccases Hs a; cbn [ch_tx on_ring on_cell on_queue on_tx on_rx on_count on_live on_refs on_out finish]; auto;
      try (unfold tset; match goal with |- context [Nat.eqb ?x ?y] => destruct (Nat.eqb_spec x y) as [->|Hne]; [try congruence|auto] end).
    all: try (frs; congruence).
    right. match goal with H : wstep_sys _ _ _ = Some _ |- _ => cbn [wstep_sys] in H; wcs H; try discriminate H; injection H; intros; subst end. reflexivity.
  Qed.
  Definition announced (es : list (cevent T)) (s : @chan T) (i : nat) : Prop :=
    (ch_tx s i = TDropped -> exists v, In (Commit i v) (ring_of es)) /\
    (forall v, In (Commit i v) (ring_of es) -> ch_tx s i = TDropped \/ In (CallNotify i false) (cell_of es)).
  Lemma announced_run es s : crun es s -> ring_calm W cap es -> forall i, announced es s i.
  Proof.
    intros Hr. induction Hr as [|es s a s' l Hr IH Hs]; intros HC i; [split; [discriminate|contradiction]|].
    destruct (IH (calm_tail _ _ _ _ HC) i) as [I1 I2]. pose proof (link_run _ _ _ _ _ _ Hr) as HK. split.
    - intros E. rewrite ring_of_app. destruct (to_dropped _ _ _ _ _ _ Hr HC Hs E) as [X|[v X]].
      + destruct (I1 X) as [v Hv]. exists v. apply in_or_app. now right.
      + exists v. rewrite X. now left.
    - intros v Hin. rewrite ring_of_app in Hin. rewrite cell_of_app. apply in_app_or in Hin. destruct Hin as [Hin|Hin].
      + destruct (events_tail _ _ _ _ _ _ _ _ Hs) as (L1 & _ & _). destruct (single _ L1) as [E|[e E]]; rewrite E in Hin; [contradiction|]. destruct Hin as [->|[]].
        left. apply (at_ring _ _ _ _ _ _ _ _ _ HK Hs E).
      + destruct (I2 _ Hin) as [X|X]; [|right; apply in_or_app; now right].
        destruct (from_dropped _ _ _ _ _ Hs X) as [Y|Y]; [now left|]. right. rewrite Y. now left.
  Qed.
  Lemma in_ring e (es : list (cevent T)) : In (OnRing e) es <-> In e (ring_of es).
  Proof. induction es as [|[] es IH]; simpl; rewrite <- ?IH; intuition congruence. Qed.
  Lemma in_queue e (es : list (cevent T)) : In (OnQueue e) es <-> In e (queue_of es).
  Proof. induction es as [|[] es IH]; simpl; rewrite <- ?IH; intuition congruence. Qed.
  Lemma commit_first es s : crun es s -> ring_calm W cap es -> forall es2 i es1, es = es2 ++ OnCell (CallNotify i false) :: es1 ->
    exists v, In (OnRing (Commit i v)) es1.
  Proof.
    intros Hr HC es2 i es1 ->. destruct (crun_cut _ _ _ _ _ _ _ Hr _ _ _ eq_refl) as (es0 & s0 & a & s1 & l1 & l2 & Hr0 & Hs & ->).
    assert (HC0 : ring_calm W cap es0). { apply (calm_tail W cap (es2 ++ OnCell (CallNotify i false) :: l2)). rewrite <- app_assoc. exact HC. }
    pose proof (link_run _ _ _ _ _ _ Hr0) as HK. destruct (events_tail _ _ _ _ _ _ _ _ Hs) as (_ & L2 & _).
    assert (E : cell_of (l1 ++ OnCell (CallNotify i false) :: l2) = [CallNotify i false]).
    { rewrite cell_of_app in *. simpl in *. rewrite app_length in L2. simpl in L2. destruct (cell_of l1); [|simpl in L2; lia]. destruct (cell_of l2); [reflexivity|simpl in L2; lia]. }
    pose proof (at_cell _ _ _ _ _ _ _ _ _ HK Hs E) as (_ & Q & _). destruct (proj1 (announced_run _ _ Hr0 HC0 i) Q) as [v Hv].
    exists v. apply in_or_app. right. now apply in_ring.
  Qed.

  (** A receiver that is told that the channel is empty, after a message was published. *)
  Lemma commit_place es i v : ring_history W cap pol es -> calm B es -> In (Commit i v) es -> exists p, p < count is_reserve es /\ committed es p = Some v.
  Proof.
    intros Hh HC Hin. apply in_split in Hin. destruct Hin as (es2 & es1 & ->).
    destruct (RingFacts.history_at W cap pol Hwf _ _ _ Hh HC) as (q & q' & h & _ & Hok & Hs & _).
    apply RingFacts.commit_inv in Hs as [p Hp]. exists p.
    pose proof (HistoryFacts.h_entry _ _ _ Hok _ _ Hp) as (E1 & E2 & _). assert (L : p < length (qlog q)) by (apply nth_error_Some; congruence).
    rewrite (HistoryFacts.h_res _ _ _ Hok) in L. split.
    - rewrite count_app. simpl. lia.
    - apply (RingFacts.committed_persist W cap pol Hwf); auto. simpl. now rewrite E1.
  Qed.
  Lemma moments_from h o (es0 : list (event T)) l m : In m (moments h (l ++ Invoke h o :: es0)) -> exists m', m = m' ++ es0.
  Proof.
    induction l as [|e l IH]; cbn [app moments is_invoke].
    - rewrite Nat.eqb_refl. intros [<-|[]]. now exists [Invoke h o].
    - intros [<-|Hin]; [exists (e :: l ++ [Invoke h o]); simpl; now rewrite <- app_assoc|]. destruct (is_invoke h e); [contradiction|auto].
  Qed.
  Lemma found r2 h r1 r0 i v : ring_history W cap pol (r2 ++ RetEmpty h :: r1 ++ Invoke h OpPop :: r0) -> calm B (r2 ++ RetEmpty h :: r1 ++ Invoke h OpPop :: r0) ->
    In (Commit i v) r0 ->
    exists p r, committed r0 p = Some v /\ In r (moments h (r1 ++ Invoke h OpPop :: r0)) /\
      (p < count is_take r \/ exists p', count is_take r <= p' < p /\ p' < count is_reserve r /\ committed r p' = None).
  Proof.
    intros Hh HC Hin. destruct (RingFacts.empty_true W cap pol Hwf _ _ _ Hh HC) as (r & Hm & Hn).
    destruct (moments_from _ _ _ _ _ Hm) as [m' ->]. destruct (RingFacts.moment_suffix _ _ _ Hm) as [x Ex]. rewrite Ex in Hh, HC.
    assert (Hh1 : ring_history W cap pol (m' ++ r0)) by (apply (RingFacts.run_suffix W cap pol (r2 ++ RetEmpty h :: x)); rewrite <- app_assoc; exact Hh).
    assert (HC1 : calm B (m' ++ r0)) by (apply (RingFacts.calm_suffix W cap (r2 ++ RetEmpty h :: x)); rewrite <- app_assoc; exact HC).
    destruct (commit_place r0 i v) as (p & Hp & Hc); [now apply (RingFacts.run_suffix _ _ _ m')|now apply (RingFacts.calm_suffix _ _ m')|assumption|].
    exists p, (m' ++ r0). split; [exact Hc|]. split; [exact Hm|].
    destruct (Nat.lt_ge_cases p (count is_take (m' ++ r0))) as [L|L]; [now left|]. right. exists (count is_take (m' ++ r0)).
    assert (Hx : committed (m' ++ r0) p = Some v) by now apply (RingFacts.committed_persist W cap pol Hwf).
    assert (p <> count is_take (m' ++ r0)) by congruence. rewrite count_app in *. split; [lia|]. split; [|exact Hn].
    rewrite count_app. pose proof (count_app is_take m' r0). lia.
  Qed.
  (** A sender that is told that the channel is full, after capacity was released. *)
  Lemma reused r2 i r1 r0 : ring_history W cap pol (r2 ++ RetFull i :: r1 ++ Invoke i OpPush :: r0) -> calm B (r2 ++ RetFull i :: r1 ++ Invoke i OpPush :: r0) ->
    exists r, In r (moments i (r1 ++ Invoke i OpPush :: r0)) /\ count is_take r0 + cap <= count is_reserve r.
  Proof.
    intros Hh HC. destruct (RingFacts.full_true W cap pol Hwf _ _ _ Hh HC) as (r & Hm & Ho & _). exists r. split; [exact Hm|].
    destruct (moments_from _ _ _ _ _ Hm) as [m' ->]. unfold occupancy in Ho. rewrite (count_app is_take) in Ho.
    pose proof (proj1 Hwf). lia.
  Qed.

  (** Who wakes the receiver has published a message or was the last Sender. *)
  Lemma closing_dropped es s : crun es s -> forall i, match ch_tx s i with XClose _ | XTx | XIn => True | _ => False end -> exists p, In (TxDropped i 0 p) es.
  Proof.
    intros Hr. induction Hr as [|es s a s' l Hr IH Hs]; intros i Hi; [contradiction|].
    assert (H : match ch_tx s i with XClose _ | XTx | XIn => True | _ => False end \/ exists p, In (TxDropped i 0 p) l).
    { clear - Hs Hi. ccases Hs a; cbn [ch_tx on_ring on_cell on_queue on_tx on_rx on_count on_live on_refs on_out finish] in Hi; auto;
        try (unfold tset in Hi; match type of Hi with context [Nat.eqb ?x ?y] => destruct (Nat.eqb_spec x y) as [Ee|Hne]; [subst; try contradiction Hi|auto] end).
      all: try (match goal with H : ch_tx _ _ = _ |- _ => rewrite H end; auto; fail).
      all: try (right; eexists; now left). }
    destruct H as [H|[p H]]; [|exists p; apply in_or_app; now left]. destruct (IH i H) as [p Hp]. exists p. apply in_or_app. now right.
  Qed.
  Lemma notify_called es s : crun es s -> forall i, ch_tx s i = TNotify -> In (CallNotify i false) (cell_of es).
  Proof.
    intros Hr. induction Hr as [|es s a s' l Hr IH Hs]; intros i Hi; [discriminate|].
    assert (H : ch_tx s i = TNotify \/ In (CallNotify i false) (cell_of l)).
    { clear - Hs Hi. ccases Hs a; cbn [ch_tx on_ring on_cell on_queue on_tx on_rx on_count on_live on_refs on_out finish] in Hi; auto;
        try (unfold tset in Hi; match type of Hi with context [Nat.eqb ?x ?y] => destruct (Nat.eqb_spec x y) as [Ee|Hne]; [subst; try discriminate Hi|auto] end).
      right. match goal with H : wstep_sys _ _ _ = Some _ |- _ => cbn [wstep_sys] in H; wcs H; try discriminate H; injection H; intros; subst end. now left. }
    rewrite cell_of_app. apply in_or_app. destruct H; auto.
  Qed.
  Lemma woke_after es s : crun es s -> ring_calm W cap es -> forall es2 i w es1, es = es2 ++ OnCell (Woke i w) :: es1 -> i <> 0 ->
    (exists v, In (OnRing (Commit i v)) es1) \/ (exists p, In (TxDropped i 0 p) es1).
  Proof.
    intros Hr HC es2 i w es1 -> Hi. destruct (crun_cut _ _ _ _ _ _ _ Hr _ _ _ eq_refl) as (es0 & s0 & a & s1 & l1 & l2 & Hr0 & Hs & ->).
    assert (HC0 : ring_calm W cap es0). { apply (calm_tail W cap (es2 ++ OnCell (Woke i w) :: l2)). rewrite <- app_assoc. exact HC. }
    pose proof (link_run _ _ _ _ _ _ Hr0) as HK.
    assert (Hx : ws_pc (ch_cell s0) i <> WIdle).
    { destruct (events_tail _ _ _ _ _ _ _ _ Hs) as (_ & L2 & _).
      destruct (moved_step _ _ _ _ _ _ _ _ Hs) as [_ _ _ _ E _|? ? ? ? _ _ _ _ E _|a0 r e He _ _ _ _ E _|? ? ? ? _ _ _ _ E _]; rewrite cell_of_app in E; simpl in E; try (destruct (cell_of l1); discriminate E).
      assert (e = Some (Woke i w)) as -> by (destruct (cell_of l1) as [|? [|]]; destruct e; try discriminate E; simpl in E; congruence).
      rewrite (c_event _ _ _ _ _ He) in He. intros Ew. cbn [wstep_sys] in He. rewrite Ew in He. discriminate. }
    pose proof (K_c _ HK i Hi) as Kc. unfold clink in Kc. destruct (ch_tx s0 i) eqn:E; try contradiction.
    - left. pose proof (notify_called _ _ Hr0 _ E) as Hn. apply in_cell, in_split in Hn. destruct Hn as (x & y & ->).
      destruct (commit_first _ _ Hr0 HC0 _ _ _ eq_refl) as [v Hv]. exists v. apply in_or_app; right. apply in_or_app; right. now right.
    - right. destruct (closing_dropped _ _ Hr0 i) as [p Hp]; [now rewrite E|]. exists p. apply in_or_app. now right.
  Qed.

  (** ** RecvRef *)
  Lemma notifications_app l (es : list (cevent T)) : notifications (l ++ es) = notifications l + notifications es.
  Proof. unfold notifications. now rewrite queue_of_app, filter_app, app_length. Qed.
  Ltac quietR HK := first [reflexivity
    | match goal with H : step _ _ _ _ = Some (_, ?o) |- _ => destruct o as [[]|]; try reflexivity; exfalso; pose proof (r_event _ _ _ _ _ _ H) as [Qa [? Qb]]; try discriminate Qa;
        match goal with Ht : ch_tx _ _ = THold |- _ => destruct (tx_holds _ _ HK Ht) as [? Hp]; injection Qa; intros; subst; congruence end end
    | match goal with |- context [olist ?o] => destruct o; reflexivity end].
  Ltac quietN := first [reflexivity
    | match goal with H : qstep_sys _ _ _ = Some (_, ?o) |- _ => destruct o as [[]|]; try reflexivity; exfalso; pose proof (q_event _ _ _ _ _ H) as Qa; cbn in Qa; try discriminate Qa; try (destruct Qa; discriminate) end
    | match goal with |- context [olist ?o] => destruct o; reflexivity end].
  Ltac quietF := let j := fresh "j" in first [intros j; reflexivity |
     intros j; unfold tset; match goal with |- context [Nat.eqb ?x ?y] => destruct (Nat.eqb_spec x y) as [Ee|Hne]; [subst; split; intros Hd; try discriminate Hd; frs; congruence|reflexivity] end].
  Ltac quietX := first [reflexivity | split; intros Hd; try discriminate Hd; frs; unfold rx_free in *; congruence | split; intros Hd; try discriminate Hd; frs; unfold rx_free in *; rewrite Hd in *; discriminate].
  Lemma note_step es s a s' l : crun es s -> ring_calm W cap (l ++ es) -> cstep_sys s a = Some (s', l) ->
    let R := count is_release (ring_of l) in let N := notifications l in
    (R = 0 /\ N = 0 /\ (forall i, ch_tx s' i = UDropped <-> ch_tx s i = UDropped) /\ (ch_rx s' = RDropped <-> ch_rx s = RDropped)) \/
    (R = 1 /\ N = 0 /\ ch_tx s' = ch_tx s /\ ch_rx s' = RDropped /\ ch_rx s <> RDropped) \/
    (R = 0 /\ N = 1 /\ ch_tx s' = ch_tx s /\ ch_rx s = RDropped /\ ch_rx s' <> RDropped) \/
    (exists i, R = 1 /\ N = 0 /\ ch_tx s i <> UDropped /\ ch_tx s' = tset (ch_tx s) i UDropped /\ ch_rx s' = ch_rx s) \/
    (exists i, R = 0 /\ N = 1 /\ ch_tx s i = UDropped /\ ch_tx s' = tset (ch_tx s) i UNotify /\ ch_rx s' = ch_rx s).
  Proof.
    intros Hr HC Hs R N. subst R N. unfold notifications. pose proof (link_run _ _ _ _ _ _ Hr) as HK. pose proof (fun j => no_ring_ub W cap pol async debug Hwf _ _ j (crun_step _ _ _ _ _ _ _ _ _ Hr Hs) HC) as Hub.
    rewrite ring_of_app in Hub. clear Hr HC.
    ccases Hs a; cbn [ch_tx ch_rx on_ring on_cell on_queue on_tx on_rx on_count on_live on_refs on_out finish].
    all: rewrite ?ring_of_app, ?queue_of_app; cbn [app ring_of queue_of].
    all: try (left; split; [quietR HK|]; split; [quietN|]; split; [quietF|quietX]; fail).
    - do 4 right. exists i. match goal with H : qstep_sys _ _ _ = Some _ |- _ => cbn [qstep_sys] in H; wcs H; try discriminate H; injection H; intros; subst end. auto 8.
    - do 2 right. left. match goal with H : qstep_sys _ _ _ = Some _ |- _ => cbn [qstep_sys] in H; wcs H; try discriminate H; injection H; intros; subst end. repeat split. discriminate.
    - right. left. frs. refs. match goal with H : step _ _ _ _ = Some _ |- _ => destruct (r_drop _ _ _ _ _ _ H) as (_ & _ & Hd) end.
      destruct (rx_holds _ _ HK ltac:(eassumption)) as [r Hr]. destruct Hd as [[[r' Hx] _]|[_ [->|[v ->]]]]; [congruence|destruct (Hub h); now left|].
      repeat split. unfold rx_free in *. intros E. rewrite E in *. discriminate.
    - do 3 right. left. exists i. frs. refs. match goal with H : step _ _ _ _ = Some _ |- _ => destruct (r_drop _ _ _ _ _ _ H) as (_ & _ & Hd) end.
      destruct (rx_holds _ _ HK ltac:(eassumption)) as [r Hr]. destruct Hd as [[[r' Hx] _]|[_ [->|[v ->]]]]; [congruence|destruct (Hub h); now left|].
      repeat split. congruence.
  Qed.
  Definition at_drop (r : rpc) : nat := match r with RDropped => 1 | _ => 0 end.
  Lemma at_drop_1 r : r = RDropped -> at_drop r = 1.
  Proof. now intros ->. Qed.
  Lemma at_drop_0 r : r <> RDropped -> at_drop r = 0.
  Proof. destruct r; auto. congruence. Qed.
  Lemma notes_run es s : crun es s -> ring_calm W cap es -> exists pend, NoDup pend /\ (forall i, In i pend <-> ch_tx s i = UDropped) /\
    count is_release (ring_of es) = notifications es + length pend + at_drop (ch_rx s).
  Proof.
    intros Hr. induction Hr as [|es s a s' l Hr IH Hs]; intros HC; [exists []; repeat split; [constructor|contradiction|discriminate]|].
    destruct (IH (calm_tail _ _ _ _ HC)) as (pend & N1 & N2 & N3). rewrite ring_of_app, notifications_app, count_app.
    destruct (note_step _ _ _ _ _ Hr HC Hs) as [(R & N & F & X)|[(R & N & F & X1 & X2)|[(R & N & F & X1 & X2)|[(i & R & N & F1 & F2 & X)|(i & R & N & F1 & F2 & X)]]]]; rewrite R, N.
    - exists pend. split; [exact N1|]. split; [intros j; rewrite F; apply N2|]. rewrite N3. simpl. f_equal.
      destruct (ch_rx s) eqn:E; try (rewrite (at_drop_0 (ch_rx s')); [reflexivity|intros Hd; apply X in Hd; discriminate]). rewrite (at_drop_1 (ch_rx s')); [reflexivity|now apply X].
    - exists pend. split; [exact N1|]. split; [now rewrite F|]. rewrite (at_drop_1 _ X1). rewrite (at_drop_0 _ X2) in N3. lia.
    - exists pend. split; [exact N1|]. split; [now rewrite F|]. rewrite (at_drop_0 _ X2). rewrite (at_drop_1 _ X1) in N3. lia.
    - exists (i :: pend). split; [constructor; [rewrite N2; assumption|exact N1]|]. rewrite F2, X. split; [|simpl; lia].
      intros j. unfold tset. simpl. destruct (Nat.eqb_spec j i) as [->|Hne]; [tauto|]. rewrite <- N2. split; [intros [E|E]; [congruence|exact E]|auto].
    - exists (drop_id i pend). split; [now apply NoDup_filter|]. rewrite F2, X. split.
      + intros j. unfold tset, drop_id. rewrite filter_In, N2. destruct (Nat.eqb_spec j i) as [->|Hne]; simpl; intuition congruence.
      + pose proof (drop_length i pend N1 ltac:(now apply N2)). lia.
  Qed.
  Lemma release_first es s : crun es s -> ring_calm W cap es -> forall es2 i es1, es = es2 ++ OnQueue (ECallNotify i) :: es1 ->
    S (notifications es1) <= count is_release (ring_of es1).
  Proof.
    intros Hr HC es2 i es1 ->. destruct (crun_cut _ _ _ _ _ _ _ Hr _ _ _ eq_refl) as (es0 & s0 & a & s1 & l1 & l2 & Hr0 & Hs & ->).
    assert (HC0 : ring_calm W cap es0). { apply (calm_tail W cap (es2 ++ OnQueue (ECallNotify i) :: l2)). rewrite <- app_assoc. exact HC. }
    pose proof (link_run _ _ _ _ _ _ Hr0) as HK. destruct (notes_run _ _ Hr0 HC0) as (pend & N1 & N2 & N3).
    assert (E : queue_of (l1 ++ OnQueue (ECallNotify i) :: l2) = [ECallNotify i] /\ queue_of l2 = []).
    { destruct (events_tail _ _ _ _ _ _ _ _ Hs) as (_ & _ & L3). rewrite queue_of_app in *. simpl in *. rewrite app_length in L3. simpl in L3.
      destruct (queue_of l1); [|simpl in L3; lia]. destruct (queue_of l2); [auto|simpl in L3; lia]. }
    destruct E as [E1 E2]. rewrite notifications_app, ring_of_app, count_app, N3. unfold notifications at 1. rewrite E2. simpl.
    destruct (at_queue _ _ _ _ _ _ _ _ _ HK Hs E1) as [(_ & Q & _)|(Q & _)]; [rewrite Q; simpl; lia|].
    apply N2 in Q. destruct pend; [contradiction|simpl; lia].
  Qed.
  Lemma all_announced es s : crun es s -> ring_calm W cap es -> stopped s es ->
    notifications es = count is_release (ring_of es) /\ forall i v, In (OnRing (Commit i v)) es -> In (OnCell (CallNotify i false)) es.
  Proof.
    intros Hr HC (S1 & S2 & _). split.
    - destruct (notes_run _ _ Hr HC) as (pend & _ & N2 & N3). destruct pend as [|j pend].
      + rewrite N3, at_drop_0; [simpl; lia|]. intros E. rewrite E in S2. exact S2.
      + exfalso. specialize (S1 j). rewrite (proj1 (N2 j) (or_introl eq_refl)) in S1. exact S1.
    - intros i v Hin. apply in_ring in Hin. apply in_cell. destruct (proj2 (announced_run _ _ Hr HC i) _ Hin) as [E|E]; [|exact E].
      specialize (S1 i). rewrite E in S1. contradiction.
  Qed.
End Order.
