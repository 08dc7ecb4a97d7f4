(** Which step of the channel emits which event of its components. *)
From Coq Require Import List Bool Arith NArith Lia.
From Verif Require CoreInv CoreArith WaitCellSpec WaitCellFacts.
From Verif Require Import QueueSpec CoreModel WaitCellModel WaitListSpec WaitQueueModel WaitQueueSpec WaitQueueFacts WaitQueueWake.
From Verif Require Import ChannelModel ChannelSpec ChannelFacts ChannelLink.
Import ListNotations.

(** ** The components *)
Lemma q_event debug s a s' e : qstep_sys debug s a = Some (s', Some e) ->
  match e with
  | ENew i => a = QNew i
  | EStart i w => a = WaitQueueModel.QStart i w
  | ECont i w => a = QCont i w
  | ECallNotify i => a = QNotify i
  | ECallClose i => a = QClose i
  | EDrop i => a = QDrop i
  | ETimeout i => a = QTimeout i
  | EFreed i => a = QFree i \/ (exists spur, a = QStep i spur)
  | EClosed i => (exists spur, a = QStep i spur) /\ q_pc s i = KSwap /\ q_pc s' i = KLock
  | EStored i => (exists spur, a = QStep i spur) /\ (exists v, q_pc s i = TCas v) /\ q_pc s' i = TRet false
  | EConsumed i => (exists spur, a = QStep i spur) /\ calling (q_pc s i) = true /\ (q_pc s' i = SUnlock Notified \/ q_pc s' i = SRet Notified)
  | ERet i _ | EPeek i | EEnq i _ | EUpd i _ | ERetNotify i _ | ESwap i _ _ | EUnlink i _ _ | EWoke i _ _
  | ERetClose i | ERemoved i | EUb i | EAssert i => exists spur, a = QStep i spur
  end.
Proof.
  intros Hs. destruct a as [i|i w|i w|i|i|i|i|i|i spur];
    try (cbn [qstep_sys] in Hs; destruct (idle s i); try discriminate; try (destruct (q_phase s i); try discriminate); injection Hs as <- <-; auto; fail).
  cbn [qstep_sys] in Hs. remember (Some e) as o eqn:Ho.
  qcases Hs E s i; try discriminate Ho; injection Ho as <-; rewrite ?E; unfold with_pc, with_state, with_lock, with_mem, with_phase; cbn [q_pc]; rewrite ?pset_same;
    repeat split; eauto.
Qed.

Lemma c_event debug s a s' e : wstep_sys debug s a = Some (s', Some e) ->
  match e with
  | CallWait i w pan => a = WACall i w pan
  | CallNotify i c => a = WANotify i c
  | Fetched i c => a = WAStep i /\ ws_pc s i = NOr c /\ notifies (ws_pc s' i) = true /\ forall c', ws_pc s' i <> NOr c'
  | RetWait i _ | RetNotify i _ | Registered i _ | Woke i _ | Asserted i | Unwound i | Took i _ => a = WAStep i
  end.
Proof.
  intros Hs. destruct a as [i w pan|i c|i]; cbn [wstep_sys] in Hs; destruct (ws_pc s i) eqn:E; try discriminate; try (injection Hs as <- <-; reflexivity);
    unfold wstep in Hs; wcs Hs; try discriminate Hs; injection Hs as <- <-; try reflexivity; rewrite ?E;
    cbn [ws_pc]; rewrite WaitCellFacts.wset_same; repeat split; discriminate.
Qed.

Section RingEvents.
  Context {T : Type}.
  Variables (P : params) (pol : policy T).
  Lemma r_event s a s' (e : event T) : step P pol s a = Some (s', Some e) ->
    match e with
    | Invoke i o => a = AInvoke i o
    | Commit i v => a = ADrop i /\ exists r, st_agents s i = PHold r
    | Release i v => a = ADrop i /\ exists r, st_agents s i = QHold r
    | Closing i b => exists pan, a = AClose i pan /\ (pan = true -> b = false)
    | Wrote i v => a = AWrite i v
    | Poison i => a = APanic i
    | Reserve i => (exists spur, a = AStep i spur) /\ (exists t, st_agents s i = PCas t) /\ (exists t, st_agents s' i = PInit t)
    | HandOut i _ | Overwrite i _ _ => (exists spur, a = AStep i spur) /\ (exists t, st_agents s i = PInit t)
    | RetFull i => (exists spur, a = AStep i spur) /\ (exists t, st_agents s i = PHead t)
    | RetPushClosed i => (exists spur, a = AStep i spur) /\ popping (st_agents s i) = false
    | Take i _ => (exists spur, a = AStep i spur) /\ (exists t b, st_agents s i = QCas t b)
    | RetEmpty i | RetPopClosed i => (exists spur, a = AStep i spur) /\ (exists t b, st_agents s i = QTail t b)
    | RetLen i _ => exists spur, a = AStep i spur
    | UB i => True
    end.
  Proof.
    intros Hs. destruct a as [i o|i spur|i v|i|i|i pan]; cbn [step] in Hs; try destruct (stepping (st_agents s i)) eqn:Est; try discriminate;
      destruct (st_agents s i) eqn:E; try discriminate; unfold cstep, push_top, idx_gen, core_close in Hs; wcs Hs; try discriminate Hs;
      repeat match goal with H : (_, _) = (_, _) |- _ => injection H; clear H; intros; subst end;
      injection Hs as <- <-; cbn [st_agents]; rewrite ?CoreInv.upd_same; eauto 8.
    all: try (destruct (s_value _); eauto 8).
    all: try (destruct (negb _); eauto 8).
    all: try (rewrite E; split; [eauto|reflexivity]).
    exists false. split; [reflexivity|discriminate].
  Qed.
End RingEvents.

(** ** The channel *)
Section Events.
  Context {T : Type}.
  Variables (P : params) (pol : policy T) (async debug : bool).
  Notation cstep_sys := (@cstep_sys T P pol async debug).
  Notation crun := (@crun T P pol async debug).
  Notation queue_do := (@queue_do T debug).
  Local Arguments drop_id : simpl never.

  (** A step leaves an event of at most one component. *)
  Ltac onely Hl := repeat match type of Hl with context [olist ?o] => destruct o; simpl in Hl; try discriminate Hl end.

  (** Which process is inside which call of the queue. *)
  Lemma tx_in_queue (s : @chan T) i : Link s -> i <> 0 ->
    match kind (q_pc (ch_queue s) i) with
    | KIdle => True
    | KCall => exists st, ch_tx s i = TWait st
    | KNotify => ch_tx s i = UNotify
    | KClose => False
    | KDrop => ch_tx s i = TCancel
    end.
  Proof.
    intros HK Hi. pose proof (K_q _ HK i Hi) as H. destruct (ch_tx s i); cbn in H; first [rewrite H; exact I|rewrite (proj1 H); simpl; eauto].
  Qed.
  Lemma rx_in_queue (s : @chan T) : Link s ->
    match kind (q_pc (ch_queue s) 0) with
    | KIdle => True
    | KNotify => ch_rx s = RNotify
    | KClose => ch_rx s = RInClose
    | _ => False
    end.
  Proof.
    intros HK. destruct (K_q0 _ HK) as [H _]. destruct (ch_rx s); cbn in H; rewrite H; simpl; auto.
  Qed.

  Lemma at_queue s a s' l e : Link s -> cstep_sys s a = Some (s', l) -> queue_of l = [e] ->
    match e with
    | ENew i => ch_tx s i = TNew
    | EStart i _ => ch_tx s i = TCall SUnq \/ ch_tx s i = TCall SFast \/ ch_tx s i = TCall STry
    | ECont i _ => ch_tx s i = TCall SQueued
    | ECallNotify i => (i = 0 /\ ch_rx s = RDropped /\ ch_rx s' = RNotify) \/ (ch_tx s i = UDropped /\ ch_tx s' i = UNotify)
    | ECallClose i => i = 0 /\ ch_rx s = RCloseQ /\ ch_rx s' = RInClose
    | EDrop i => ch_tx s i = TPark /\ In (Cancelled i) l
    | ETimeout i => ch_tx s i = TPark /\ In (Cancelled i) l
    | EClosed i => i = 0 /\ ch_rx s = RInClose /\ ch_rx s' = RInClose
    | _ => True
    end.
  Proof.
    intros HK Hs Hl. ccases Hs a; try discriminate Hl; cbn in Hl; rewrite ?queue_of_app in Hl; simpl in Hl; onely Hl.
    all: match goal with H : qstep_sys _ _ _ = Some (_, Some _) |- _ => pose proof (q_event _ _ _ _ _ H) as Q end.
    all: injection Hl as ->; destruct e; auto.
    all: conj; try match goal with H : _ = _ :> qaction |- _ => try discriminate H; injection H; clear H; intros; subst end.
    all: cbn; rewrite ?tset_same; auto 6.
    all: odds HK; try (match goal with E : q_pc _ ?i = KSwap, H : ?i <> 0 |- _ => pose proof (tx_in_queue _ _ HK H) as Hx; rewrite E in Hx; contradiction end).
    all: try discriminate.
    all: pose proof (rx_in_queue _ HK) as Hx; match goal with E : q_pc _ 0 = KSwap |- _ => rewrite E in Hx end; simpl in Hx; congruence.
  Qed.

  Lemma tx_pushing (s : @chan T) i st : Link s -> ch_tx s i = TPush st -> pushing (st_agents (ch_ring s) i) = true.
  Proof. intros HK H. odds HK. pose proof (K_r _ HK i He) as Hr. rewrite H in Hr. exact Hr. Qed.
  Lemma rx_popping (s : @chan T) h k : Link s -> ch_rx s = RPop h k -> popping (st_agents (ch_ring s) h) = true.
  Proof.
    intros HK H. destruct (K_use _ HK h ltac:(rewrite H; reflexivity)) as [E N].
    pose proof (proj2 (K_h _ HK h E) N) as Hr. rewrite H, Nat.eqb_refl in Hr. exact Hr.
  Qed.

  Lemma tx_holds (s : @chan T) i : Link s -> ch_tx s i = THold -> exists r, st_agents (ch_ring s) i = PHold r.
  Proof. intros HK H. odds HK. pose proof (K_r _ HK i He) as Hr. rewrite H in Hr. exact Hr. Qed.
  Lemma rx_holds (s : @chan T) h : Link s -> In h (ch_refs s) -> exists r, st_agents (ch_ring s) h = QHold r.
  Proof. intros HK H. exact (proj1 (K_h _ HK h (proj2 (K_refs _ HK) h H)) H). Qed.

  Lemma at_ring s a s' l e : Link s -> cstep_sys s a = Some (s', l) -> ring_of l = [e] ->
    match e with
    | Reserve i => exists st, ch_tx s i = TPush st /\ ch_tx s' i = TPush st
    | HandOut i _ | Overwrite i _ _ => (exists st, ch_tx s i = TPush st) /\ ch_tx s' i = THold /\ In (Sent i SentOk) l
    | RetFull i => exists st, ch_tx s i = TPush st /\
        ch_tx s' i = match st with STry => TEnd | SFast => TNew | SUnq => TCall SUnq | SQueued => if async then TAgain SUnq else TCall SQueued end
    | RetPushClosed i => (exists st, ch_tx s i = TPush st) /\ ch_tx s' i = TEnd /\ In (Sent i SentClosed) l
    | Commit i _ => ch_tx s i = THold /\ ch_tx s' i = TDropped
    | Poison i => (exists st, ch_tx s i = TPush st) /\ ch_tx s' i = TDead
    | Take h v => (exists k, ch_rx s = RPop h k) /\ ch_rx s' = RIdle /\ ch_refs s' = h :: ch_refs s /\ In (Recvd (RecvMsg h v)) l
    | RetEmpty h => exists k, ch_rx s = RPop h k /\
        ch_rx s' = match k with KFirst w => RCall h w | KAgain w => RPark w | _ => RIdle end
    | RetPopClosed h => (exists k, ch_rx s = RPop h k) /\ ch_rx s' = RIdle
    | Release h _ => In h (ch_refs s) /\ ch_refs s' = drop_id h (ch_refs s) /\ (ch_rx s' = RDropped \/ exists i, ch_tx s' i = UDropped)
    | Closing i b => (i = 0 /\ exists pan, ch_rx s = RClosing pan /\ (pan = true -> b = false) /\ ch_rx s' = (if b then RCloseQ else RGone)) \/
                     (exists pan, ch_tx s i = XClose pan /\ (pan = true -> b = false) /\ ch_tx s' i = (if async || b then XTx else TEnd))
    | _ => True
    end.
  Proof.
    intros HK Hs Hl. ccases Hs a; try discriminate Hl; cbn in Hl; rewrite ?ring_of_app in Hl; simpl in Hl; onely Hl.
    all: match goal with H : step _ _ _ _ = Some (_, Some _) |- _ => pose proof (r_event _ _ _ _ _ _ H) as Q end.
    all: injection Hl as ->; destruct e; try exact I.
    all: conj; try match goal with H : _ = _ :> action |- _ => try discriminate H; injection H; clear H; intros; subst end.
    all: try discriminate.
    all: try match goal with H : ch_tx _ _ = TPush _ |- _ => pose proof (tx_pushing _ _ _ HK H) as Hp end.
    all: try match goal with H : ch_rx _ = RPop _ _ |- _ => pose proof (rx_popping _ _ _ HK H) as Hp end.
    all: try match goal with H : st_agents _ ?i = _, Hp : _ (st_agents _ ?i) = true |- _ => rewrite H in Hp; discriminate Hp end.
    all: frs; refs; try congruence.
    all: try match goal with H : ch_tx _ _ = THold |- _ => pose proof (tx_holds _ _ HK H) as [? Hp]; try congruence end.
    all: try match goal with H : In _ (ch_refs _) |- _ => pose proof (rx_holds _ _ HK H) as [? Hp]; try congruence end.
    all: cbn; rewrite ?tset_same.
    all: try (split; [assumption|reflexivity]).
    all: try (split; [eauto; fail|]).
    all: try (eexists; split; [eassumption|]; simpl; try match goal with H : async = _ |- _ => rewrite H end; reflexivity).
    all: try (eexists; split; reflexivity).
    all: try (split; [reflexivity|now left]).
    all: try reflexivity.
    all: try (eexists; split; eassumption).
    all: try (split; [reflexivity|]; split; [reflexivity|]; left; cbn in *; congruence).
    all: try (split; [reflexivity|]; right; eexists; apply tset_same).
    all: try (split; [reflexivity|]; left; reflexivity).
    all: cbn [close_ret] in *.
    all: try (right; eexists; split; [eassumption|]; split; [assumption|]; rewrite ?Heqb0; match goal with H : _ = _ :> bool |- context [_ || _] => rewrite H end; reflexivity).
    all: try (left; split; [reflexivity|]; eexists; split; [reflexivity|]; split; [assumption|]; subst; reflexivity).
  Qed.

  Lemma at_cell s a s' l e : Link s -> cstep_sys s a = Some (s', l) -> cell_of l = [e] ->
    match e with
    | CallWait i w pan => i = 0 /\ pan = false /\ exists h, ch_rx s = RCall h w /\ ch_rx s' = RWait h w
    | RetWait i r => i = 0 /\ exists h w, ch_rx s = RWait h w /\
        ch_rx s' = match r with Wait => RAgain h (KAgain w) | Closed => RAgain h KLast | Notified => RAgain h (KFirst w) end
    | CallNotify i c => i <> 0 /\ if c then ch_tx s i = XTx /\ ch_tx s' i = XIn else ch_tx s i = TDropped /\ ch_tx s' i = TNotify
    | Fetched i c => i <> 0 /\ ((ch_tx s i = TNotify /\ ch_tx s' i = TNotify) \/ (ch_tx s i = XIn /\ ch_tx s' i = XIn))
    | RetNotify i _ => i <> 0 /\ (ch_tx s i = TNotify \/ ch_tx s i = XIn) /\ ch_tx s' i = TEnd
    | _ => True
    end.
  Proof.
    intros HK Hs Hl. ccases Hs a; try discriminate Hl; cbn in Hl; rewrite ?cell_of_app in Hl; simpl in Hl; onely Hl.
    all: match goal with H : wstep_sys _ _ _ = Some (_, Some _) |- _ => pose proof (c_event _ _ _ _ _ H) as Q end.
    all: injection Hl as ->; destruct e; try exact I.
    all: conj; try match goal with H : _ = _ :> waction |- _ => try discriminate H; injection H; clear H; intros; subst end.
    all: try discriminate.
    all: odds HK; cbn; rewrite ?tset_same.
    all: try (split; [assumption|]; repeat split; auto; fail).
    all: try (split; [assumption|]; simpl; rewrite ?tset_same; split; auto; fail).
    all: try (repeat split; eauto; fail).
    all: try match goal with H : cell_ret _ = Some _ |- _ => cbn in H; injection H; clear H; intros; subst end.
    all: try (split; [reflexivity|]; eexists; eexists; split; reflexivity).
    all: exfalso; match goal with H : wstep_sys _ _ _ = Some _ |- _ => destruct (c_own _ _ _ _ _ H) as (_ & Qw & Qn) end.
    all: try (match goal with H : ?i <> 0, Ht : ch_tx _ ?i = _ |- _ => pose proof (K_c _ HK i H) as Kc; rewrite Ht in Kc; exact (Qn Kc) end).
    all: pose proof (K_c0 _ HK) as Kc; match goal with H : ch_rx _ = _ |- _ => rewrite H in Kc end; try exact (Qw Kc).
    cbn in Kc. match goal with H : ws_pc _ 0 = NOr _ |- _ => rewrite H in Kc end. discriminate.
  Qed.

  (** What only certain steps touch. *)
  Lemma refs_change s a s' l : Link s -> cstep_sys s a = Some (s', l) ->
    ch_refs s' = ch_refs s \/ (exists h v, ring_of l = [Take h v]) \/ (exists h v, ring_of l = [Release h v]) \/ (exists h, ring_of l = [UB h]).
  Proof.
    intros HK Hs. ccases Hs a; cbn; auto; right.
    - left. match goal with H : pop_ret ?o = _ |- _ => destruct o as [[]|]; try discriminate H end. simpl. eauto.
    - right. frs; refs. match goal with H : step _ _ _ _ = Some _ |- _ => destruct (r_drop _ _ _ _ _ _ H) as (_ & _ & Hd) end.
      destruct (rx_holds _ _ HK ltac:(eassumption)) as [r Hr].
      destruct Hd as [[[r' Hx] _]|[_ [->|[v ->]]]]; [congruence|right|left]; simpl; eauto.
    - right. frs; refs. match goal with H : step _ _ _ _ = Some _ |- _ => destruct (r_drop _ _ _ _ _ _ H) as (_ & _ & Hd) end.
      destruct (rx_holds _ _ HK ltac:(eassumption)) as [r Hr].
      destruct Hd as [[[r' Hx] _]|[_ [->|[v ->]]]]; [congruence|right|left]; simpl; eauto.
  Qed.

  Lemma events_tail s a s' l : cstep_sys s a = Some (s', l) -> length (ring_of l) <= 1 /\ length (cell_of l) <= 1 /\ length (queue_of l) <= 1.
  Proof.
    intros Hs. destruct (moved_step _ _ _ _ _ _ _ _ Hs) as [_ _ _ -> -> ->|a0 r e He _ _ _ -> -> ->|a0 r e He _ _ _ -> -> ->|a0 r e He _ _ _ -> -> ->]; try destruct e; simpl; lia.
  Qed.
End Events.
