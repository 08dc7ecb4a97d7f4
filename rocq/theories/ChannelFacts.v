(** Where everybody is: the channel's program counters against those of its components. *)
From Coq Require Import List Bool Arith NArith Lia.
From Verif Require CoreInv CoreArith WaitCellSpec WaitCellFacts.
From Verif Require Import QueueSpec CoreModel WaitCellModel WaitListSpec WaitQueueModel WaitQueueSpec WaitQueueFacts WaitQueueWake.
From Verif Require Import ChannelModel ChannelSpec.
Import ListNotations.

Lemma tset_same f i p : tset f i p i = p.
Proof. unfold tset. now rewrite Nat.eqb_refl. Qed.
Lemma tset_other f i p j : j <> i -> tset f i p j = f j.
Proof. intros H. unfold tset. now rewrite (proj2 (Nat.eqb_neq j i) H). Qed.

(** What kind of call of the queue [p] is inside of. *)
Inductive qkind := KIdle | KCall | KNotify | KClose | KDrop.
Definition kind (p : qpc) : qkind :=
  match p with
  | QIdle => KIdle
  | TLoad | TCas _ | TLock _ | TSlow _ | TLinks _ | TEmpty _ | TUnlock _ | TWake _ _ | TRet _ => KNotify
  | KSwap | KLock | KLoop | KLinks _ | KWake _ _ | KUnlock => KClose
  | DLoad | DLock | DRemove | DEmpty | DUnlock | DFree => KDrop
  | _ => KCall
  end.
Lemma kind_idle p : kind p = KIdle <-> p = QIdle.
Proof. split; [destruct p; simpl; congruence|intros ->; reflexivity]. Qed.

(** A step of [i] in the queue: the call goes on, returns, or fails. *)
Lemma q_own debug s i spur s' e : qstep debug s i spur = Some (s', e) ->
  match queue_ret e with
  | None => kind (q_pc s' i) = kind (q_pc s i) /\ q_phase s' i = q_phase s i
  | Some (Got r) => q_pc s i = SRet r /\ e = Some (ERet i r) /\ q_pc s' i = QIdle /\ q_phase s' i = ret_phase (q_phase s i) r
  | Some ChannelModel.Done =>
      q_pc s' i = QIdle /\
      ((kind (q_pc s i) = KDrop /\ e = Some (EFreed i) /\ q_phase s' i = PGone) \/
       (kind (q_pc s i) = KNotify /\ (exists b, e = Some (ERetNotify i b)) /\ q_phase s' i = q_phase s i) \/
       (kind (q_pc s i) = KClose /\ e = Some (ERetClose i) /\ q_phase s' i = q_phase s i))
  | Some Failed => (e = Some (EAssert i) \/ e = Some (EUb i)) /\ q_pc s' i = QIdle /\ q_phase s' i = q_phase s i
  end.
Proof.
  intros Hs. qcases Hs E s i; cbn [queue_ret with_phase with_pc with_state with_mem with_lock q_pc q_phase];
    rewrite ?pset_same, ?E; simpl; repeat split; eauto 10.
Qed.

(** What kind of call of the cell [p] is inside of; [pan] never happens here. *)
Inductive ckind := CIdle | CWaits | CNotifies (c : bool) | COther.
Definition celk (p : wpc) : ckind :=
  match p with
  | WIdle => CIdle
  | WCas1 _ false | WSelf _ false | WReplace _ false | WCas2 _ _ false | WTake _ _ _ false | WAnd _ _ _ _ false
  | WPrev _ _ _ _ false | WMine _ _ _ false | WRet _ false => CWaits
  | WCas1 _ _ | WSelf _ _ | WReplace _ _ | WCas2 _ _ _ | WTake _ _ _ _ | WAnd _ _ _ _ _ | WPrev _ _ _ _ _ | WMine _ _ _ _ | WRet _ _ => COther
  | NOr c => CNotifies c
  | NTake | NAnd _ | NWake _ | NRet _ => CNotifies false
  end.
Definition notifies (p : wpc) : bool := match celk p with CNotifies _ => true | _ => false end.
Lemma celk_idle p : celk p = CIdle <-> p = WIdle.
Proof. split; [destruct p; simpl; try congruence; destruct pan; congruence|intros ->; reflexivity]. Qed.

Ltac wcs Hs :=
  repeat match type of Hs with
  | context [match ?x with _ => _ end] =>
      lazymatch x with context [match _ with _ => _ end] => fail | _ => destruct x eqn:?; try discriminate Hs end
  end.

Lemma c_own debug s i s' e : wstep_sys debug s (WAStep i) = Some (s', e) ->
  (forall j, j <> i -> ws_pc s' j = ws_pc s j) /\
  (celk (ws_pc s i) = CWaits ->
     match cell_ret e with
     | None => celk (ws_pc s' i) = CWaits
     | Some (Got r) => ws_pc s' i = WIdle /\ e = Some (RetWait i r)
     | Some ChannelModel.Done => False
     | Some Failed => ws_pc s' i = WIdle /\ e = Some (Asserted i)
     end) /\
  (notifies (ws_pc s i) = true ->
     match cell_ret e with
     | None => notifies (ws_pc s' i) = true
     | Some ChannelModel.Done => ws_pc s' i = WIdle /\ exists b, e = Some (RetNotify i b)
     | _ => False
     end).
Proof.
  intros Hs. cbn [wstep_sys] in Hs. destruct (ws_pc s i) eqn:E; try discriminate; unfold wstep in Hs; wcs Hs; injection Hs as <- <-;
    cbn [ws_pc]; rewrite ?WaitCellFacts.wset_same; cbn [cell_ret celk notifies];
    (split; [intros j Hj; now rewrite WaitCellFacts.wset_other|]);
    split; intros Hk; try discriminate Hk; try (destruct pan; discriminate Hk); unfold notifies; simpl; eauto.
Qed.
Lemma c_call debug s i w pan s' e : wstep_sys debug s (WACall i w pan) = Some (s', e) ->
  ws_pc s i = WIdle /\ e = Some (CallWait i w pan) /\ ws_cell s' = ws_cell s /\
  ws_pc s' i = WCas1 w pan /\ (forall j, j <> i -> ws_pc s' j = ws_pc s j).
Proof.
  intros Hs. cbn [wstep_sys] in Hs. destruct (ws_pc s i) eqn:E; try discriminate. injection Hs as <- <-. simpl.
  rewrite WaitCellFacts.wset_same. repeat split. intros j Hj. now rewrite WaitCellFacts.wset_other.
Qed.
Lemma c_notify debug s i c s' e : wstep_sys debug s (WANotify i c) = Some (s', e) ->
  ws_pc s i = WIdle /\ e = Some (CallNotify i c) /\ ws_cell s' = ws_cell s /\
  ws_pc s' i = NOr c /\ (forall j, j <> i -> ws_pc s' j = ws_pc s j).
Proof.
  intros Hs. cbn [wstep_sys] in Hs. destruct (ws_pc s i) eqn:E; try discriminate. injection Hs as <- <-. simpl.
  rewrite WaitCellFacts.wset_same. repeat split. intros j Hj. now rewrite WaitCellFacts.wset_other.
Qed.

(** The calls of the queue. *)
Lemma q_others debug s a s' e i : qstep_sys debug s a = Some (s', e) ->
  match a with QNew j | QStart j _ | QCont j _ | QNotify j | QClose j | QFree j | QDrop j | QTimeout j | QStep j _ => j end = i ->
  forall j, j <> i -> q_pc s' j = q_pc s j /\ q_phase s' j = q_phase s j.
Proof.
  intros Hs <- j Hj. destruct a; cbn [qstep_sys] in Hs;
    try (destruct (qstep_agent _ _ _ _ _ _ Hs) as (_ & H1 & H2); split; [apply H1|apply H2]; exact Hj);
    destruct (idle s i); try discriminate; destruct (q_phase s i); try discriminate; injection Hs as <- <-; simpl;
    rewrite ?pset_other by exact Hj; split; reflexivity.
Qed.
Lemma q_new debug s i s' e : qstep_sys debug s (QNew i) = Some (s', e) ->
  e = Some (ENew i) /\ q_pc s i = QIdle /\ q_phase s i = PAbsent /\ q_pc s' i = QIdle /\ q_phase s' i = PFresh.
Proof.
  cbn [qstep_sys]. unfold idle. destruct (q_pc s i) eqn:E; try discriminate. destruct (q_phase s i) eqn:E2; try discriminate.
  intros H. injection H as <- <-. simpl. now rewrite pset_same.
Qed.
Lemma q_start debug s i w s' e : qstep_sys debug s (QStart i w) = Some (s', e) ->
  e = Some (EStart i w) /\ q_pc s i = QIdle /\ (q_phase s i = PFresh \/ q_phase s i = PWoken) /\ q_pc s' i = SCas w /\ q_phase s' i = q_phase s i.
Proof.
  cbn [qstep_sys]. unfold idle. destruct (q_pc s i) eqn:E; try discriminate. destruct (q_phase s i) eqn:E2; try discriminate;
  intros H; injection H as <- <-; simpl; rewrite pset_same; auto.
Qed.
Lemma q_cont debug s i w s' e : qstep_sys debug s (QCont i w) = Some (s', e) ->
  e = Some (ECont i w) /\ q_pc s i = QIdle /\ (q_phase s i = PWaiting \/ q_phase s i = PWoken) /\ q_pc s' i = CLoad w /\ q_phase s' i = q_phase s i.
Proof.
  cbn [qstep_sys]. unfold idle. destruct (q_pc s i) eqn:E; try discriminate. destruct (q_phase s i) eqn:E2; try discriminate;
  intros H; injection H as <- <-; simpl; rewrite pset_same; auto.
Qed.
Lemma q_notify debug s i s' e : qstep_sys debug s (QNotify i) = Some (s', e) ->
  e = Some (ECallNotify i) /\ q_pc s i = QIdle /\ q_pc s' i = TLoad /\ q_phase s' i = q_phase s i.
Proof.
  cbn [qstep_sys]. unfold idle. destruct (q_pc s i) eqn:E; try discriminate.
  intros H; injection H as <- <-; simpl; rewrite pset_same; auto.
Qed.
Lemma q_close debug s i s' e : qstep_sys debug s (QClose i) = Some (s', e) ->
  e = Some (ECallClose i) /\ q_pc s i = QIdle /\ q_pc s' i = KSwap /\ q_phase s' i = q_phase s i.
Proof.
  cbn [qstep_sys]. unfold idle. destruct (q_pc s i) eqn:E; try discriminate.
  intros H; injection H as <- <-; simpl; rewrite pset_same; auto.
Qed.
Lemma q_free debug s i s' e : qstep_sys debug s (QFree i) = Some (s', e) ->
  e = Some (EFreed i) /\ q_pc s i = QIdle /\ q_pc s' i = QIdle /\ q_phase s' i = PGone.
Proof.
  cbn [qstep_sys]. unfold idle. destruct (q_pc s i) eqn:E; try discriminate. destruct (q_phase s i) eqn:E2; try discriminate;
  intros H; injection H as <- <-; simpl; rewrite pset_same; auto.
Qed.
Lemma q_drop debug s i s' e : qstep_sys debug s (QDrop i) = Some (s', e) ->
  e = Some (EDrop i) /\ q_pc s i = QIdle /\ q_phase s i = PWaiting /\ q_pc s' i = DLoad /\ q_phase s' i = PWaiting.
Proof.
  cbn [qstep_sys]. unfold idle. destruct (q_pc s i) eqn:E; try discriminate. destruct (q_phase s i) eqn:E2; try discriminate;
  intros H; injection H as <- <-; simpl; rewrite pset_same; auto.
Qed.
Lemma q_timeout debug s i s' e : qstep_sys debug s (QTimeout i) = Some (s', e) ->
  e = Some (ETimeout i) /\ q_pc s i = QIdle /\ q_phase s i = PWaiting /\ q_pc s' i = QIdle /\ q_phase s' i = PGone.
Proof.
  cbn [qstep_sys]. unfold idle. destruct (q_pc s i) eqn:E; try discriminate. destruct (q_phase s i) eqn:E2; try discriminate;
  intros H; injection H as <- <-; simpl; rewrite pset_same; auto.
Qed.

(** The ring. *)
Definition pushing (p : pc) : bool :=
  match p with PStart | PState _ | PCas _ | PInit _ | PHead _ | PReload | Crashed => true | _ => false end.
Definition popping (p : pc) : bool :=
  match p with CoreModel.QStart | QState _ _ | QCas _ _ | QTail _ _ | QReload _ | Crashed => true | _ => false end.

Section Ring.
  Context {T : Type}.
  Variables (P : params) (pol : policy T).

  Lemma r_own s i spur s' e : step P pol s (AStep i spur) = Some (s', e) ->
    (forall j, j <> i -> st_agents s' j = st_agents s j) /\
    (pushing (st_agents s i) = true ->
       match push_ret e with
       | None => pushing (st_agents s' i) = true
       | Some PushFull => st_agents s' i = Idle /\ e = Some (RetFull i)
       | Some PushClosed => st_agents s' i = Idle /\ e = Some (RetPushClosed i)
       | Some PushOk => exists r, st_agents s' i = PHold r
       end) /\
    (popping (st_agents s i) = true ->
       match pop_ret e with
       | None => popping (st_agents s' i) = true
       | Some (PopMsg v) => (exists r, st_agents s' i = QHold r) /\ e = Some (Take i v)
       | Some PopClosed => st_agents s' i = Idle /\ e = Some (RetPopClosed i)
       | Some PopEmpty => st_agents s' i = Idle /\ e = Some (RetEmpty i)
       end).
  Proof.
    intros Hs. cbn [step] in Hs. destruct (stepping (st_agents s i)) eqn:Est; [|discriminate].
    destruct (st_agents s i) eqn:E; try discriminate Est; unfold cstep, push_top, idx_gen in Hs; wcs Hs; injection Hs as <- <-;
      cbn [st_agents]; unfold upd; rewrite ?Nat.eqb_refl;
      (split; [intros j Hj; now rewrite (proj2 (Nat.eqb_neq j i) Hj)|]);
      repeat match goal with H : (_, _) = (_, _) |- _ => injection H as <- <- end;
      split; intros Hk; try discriminate Hk; simpl; eauto.
  Qed.
  Lemma r_invoke s i o s' e : step P pol s (AInvoke i o) = Some (s', e) ->
    st_agents s i = Idle /\ e = Some (Invoke i o) /\ st_core s' = st_core s /\ st_agents s' i = entry_pc o /\
    (forall j, j <> i -> st_agents s' j = st_agents s j).
  Proof.
    intros Hs. cbn [step] in Hs. destruct (st_agents s i) eqn:E; try discriminate. injection Hs as <- <-. simpl. unfold upd.
    rewrite Nat.eqb_refl. repeat split. intros j Hj. now rewrite (proj2 (Nat.eqb_neq j i) Hj).
  Qed.
  Lemma r_write s i v s' e : step P pol s (AWrite i v) = Some (s', e) -> e = Some (Wrote i v) /\ st_agents s' = st_agents s.
  Proof. intros Hs. cbn [step] in Hs. destruct (st_agents s i) eqn:E; try discriminate; injection Hs as <- <-; auto. Qed.
  Lemma r_drop s i s' e : step P pol s (ADrop i) = Some (s', e) ->
    st_agents s' i = Idle /\ (forall j, j <> i -> st_agents s' j = st_agents s j) /\
    (((exists r, st_agents s i = PHold r) /\ (e = Some (UB i) \/ exists v, e = Some (Commit i v))) \/
     ((exists r, st_agents s i = QHold r) /\ (e = Some (UB i) \/ exists v, e = Some (Release i v)))).
  Proof.
    intros Hs. cbn [step] in Hs. destruct (st_agents s i) eqn:E; try discriminate; injection Hs as <- <-; cbn [st_agents]; unfold upd;
      rewrite Nat.eqb_refl; (split; [reflexivity|]); (split; [intros j Hj; now rewrite (proj2 (Nat.eqb_neq j i) Hj)|]);
      [left|right]; (split; [eauto|]); destruct (s_value _); eauto.
  Qed.
  Lemma r_panic s i s' e : step P pol s (APanic i) = Some (s', e) ->
    e = Some (Poison i) /\ (exists t, st_agents s i = PInit t /\ st_agents s' i = PDead t) /\ (forall j, j <> i -> st_agents s' j = st_agents s j).
  Proof.
    intros Hs. cbn [step] in Hs. destruct (st_agents s i) eqn:E; try discriminate. injection Hs as <- <-. simpl. unfold upd.
    rewrite Nat.eqb_refl. repeat split; eauto. intros j Hj. now rewrite (proj2 (Nat.eqb_neq j i) Hj).
  Qed.
  Lemma r_close s i pan s' e : step P pol s (AClose i pan) = Some (s', e) ->
    st_agents s i = Idle /\ (exists b, e = Some (Closing i b) /\ (pan = true -> b = false)) /\ st_agents s' = st_agents s.
  Proof.
    intros Hs. cbn [step] in Hs. destruct (st_agents s i) eqn:E; try discriminate. unfold core_close in Hs.
    destruct pan; injection Hs as <- <-; repeat split; eexists; split; try reflexivity. discriminate.
  Qed.
End Ring.

(** All steps, one goal for each way a step can go. *)
Ltac brk Hs :=
  repeat match type of Hs with
  | None = Some _ => discriminate Hs
  | (let '(_, _) := (_, _) in _) = _ => cbn beta iota in Hs
  | (match (_, _) with (_, _) => _ end) = _ => cbn beta iota in Hs
  | context [match ?x with _ => _ end] =>
      lazymatch x with context [match _ with _ => _ end] => fail | _ => destruct x eqn:?; try discriminate Hs end
  | Some _ = Some _ => injection Hs as <- <-
  end.
Ltac ccases Hs a :=
  destruct a; cbn [ChannelModel.cstep_sys] in Hs;
  unfold tx_step, rx_step, ring_do, cell_do, queue_do, after_full, after_wait in Hs; brk Hs.

Section Facts.
  Context {T : Type}.
  Variables (P : params) (pol : policy T) (async debug : bool).
  Notation cstep_sys := (@cstep_sys T P pol async debug).
  Notation crun := (@crun T P pol async debug).

  Lemma ring_of_app (a b : list (cevent T)) : ring_of (a ++ b) = ring_of a ++ ring_of b.
  Proof. induction a as [|[] a IH]; simpl; congruence. Qed.
  Lemma cell_of_app (a b : list (cevent T)) : cell_of (a ++ b) = cell_of a ++ cell_of b.
  Proof. induction a as [|[] a IH]; simpl; congruence. Qed.
  Lemma queue_of_app (a b : list (cevent T)) : queue_of (a ++ b) = queue_of a ++ queue_of b.
  Proof. induction a as [|[] a IH]; simpl; congruence. Qed.

  (** A step of the channel is a step of one component, or of none. *)
  Inductive moved (s : chan) (l : list (cevent T)) (s' : chan) : Prop :=
  | moved_none : ch_ring s' = ch_ring s -> ch_cell s' = ch_cell s -> ch_queue s' = ch_queue s ->
      ring_of l = [] -> cell_of l = [] -> queue_of l = [] -> moved s l s'
  | moved_ring a r e : step P pol (ch_ring s) a = Some (r, e) ->
      ch_ring s' = r -> ch_cell s' = ch_cell s -> ch_queue s' = ch_queue s ->
      ring_of l = olist e -> cell_of l = [] -> queue_of l = [] -> moved s l s'
  | moved_cell a c e : wstep_sys debug (ch_cell s) a = Some (c, e) ->
      ch_ring s' = ch_ring s -> ch_cell s' = c -> ch_queue s' = ch_queue s ->
      ring_of l = [] -> cell_of l = olist e -> queue_of l = [] -> moved s l s'
  | moved_queue a q e : qstep_sys debug (ch_queue s) a = Some (q, e) ->
      ch_ring s' = ch_ring s -> ch_cell s' = ch_cell s -> ch_queue s' = q ->
      ring_of l = [] -> cell_of l = [] -> queue_of l = olist e -> moved s l s'.

  Lemma moved_step s a s' l : cstep_sys s a = Some (s', l) -> moved s l s'.
  Proof.
    intros Hs. ccases Hs a.
    all: first
      [ apply moved_none; reflexivity
      | match goal with
        | H : step _ _ _ _ = Some (?r, ?o) |- _ => apply (moved_ring _ _ _ _ r o H); destruct o; reflexivity
        | H : wstep_sys _ _ _ = Some (?r, ?o) |- _ => apply (moved_cell _ _ _ _ r o H); destruct o; reflexivity
        | H : qstep_sys _ _ _ = Some (?r, ?o) |- _ => apply (moved_queue _ _ _ _ r o H); destruct o; reflexivity
        end ].
  Qed.
  Lemma crun_ring es s : crun es s -> run P pol (ring_of es) (ch_ring s).
  Proof.
    induction 1 as [|es s a s' l Hr IH Hs]; [constructor|].
    rewrite ring_of_app. destruct (moved_step _ _ _ _ Hs) as [H _ _ Hl _ _|a0 r e He H _ _ Hl _ _|a0 r e He H _ _ Hl _ _|a0 r e He H _ _ Hl _ _];
      rewrite H, Hl; try exact IH.
    pose proof (run_step _ _ _ _ _ _ _ IH He) as Hx. now destruct e.
  Qed.
  Lemma crun_cell es s : crun es s -> wrun debug (cell_of es) (ch_cell s).
  Proof.
    induction 1 as [|es s a s' l Hr IH Hs]; [constructor|].
    rewrite cell_of_app. destruct (moved_step _ _ _ _ Hs) as [_ H _ _ Hl _|a0 r e He _ H _ _ Hl _|a0 r e He _ H _ _ Hl _|a0 r e He _ H _ _ Hl _];
      rewrite H, Hl; try exact IH.
    pose proof (wrun_step _ _ _ _ _ _ IH He) as Hx. now destruct e.
  Qed.
  Lemma crun_queue es s : crun es s -> qrun debug (queue_of es) (ch_queue s).
  Proof.
    induction 1 as [|es s a s' l Hr IH Hs]; [constructor|].
    rewrite queue_of_app. destruct (moved_step _ _ _ _ Hs) as [_ _ H _ _ Hl|a0 r e He _ _ H _ _ Hl|a0 r e He _ _ H _ _ Hl|a0 r e He _ _ H _ _ Hl];
      rewrite H, Hl; try exact IH.
    pose proof (qrun_step _ _ _ _ _ _ IH He) as Hx. now destruct e.
  Qed.
End Facts.
