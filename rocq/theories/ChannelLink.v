(** Where everybody is: the channel's program counters against those of its components. *)
From Coq Require Import List Bool Arith NArith Lia.
From Verif Require CoreInv CoreArith WaitCellSpec WaitCellFacts.
From Verif Require Import QueueSpec CoreModel WaitCellModel WaitListSpec WaitQueueModel WaitQueueSpec WaitQueueFacts WaitQueueWake.
From Verif Require Import ChannelModel ChannelSpec ChannelFacts.
Import ListNotations.

(** ** The queue *)
Definition stage_ok (st : sstage) (ph : phase) : Prop :=
  match st with
  | SFast | STry => ph = PAbsent
  | SUnq => ph = PFresh \/ ph = PWoken
  | SQueued => ph = PWoken
  end.
Definition call_ok (st : sstage) (ph : phase) : Prop :=
  match st with
  | SFast | STry => False
  | SUnq => ph = PFresh \/ ph = PWoken
  | SQueued => ph = PWaiting \/ ph = PWoken
  end.
Definition qlink (t : tpc) (p : qpc) (ph : phase) : Prop :=
  match t with
  | TNone | TNew | XClose _ | XTx | XIn | UDropped => p = QIdle /\ ph = PAbsent
  | TAgain st | TPush st => p = QIdle /\ stage_ok st ph
  | TCall st => p = QIdle /\ call_ok st ph
  | TWait st => kind p = KCall /\ call_ok st ph
  | TPark => p = QIdle /\ ph = PWaiting
  | TCancel => kind p = KDrop /\ ph = PWaiting
  | UNotify => kind p = KNotify /\ ph = PAbsent
  | THold | TDropped | TNotify | TEnd => p = QIdle /\ ph <> PWaiting
  | TDead => p = QIdle
  end.
(** The receiver, agent 0 of the queue. *)
Definition q0link (r : rpc) (p : qpc) : Prop :=
  match r with RNotify => kind p = KNotify | RInClose => kind p = KClose | _ => p = QIdle end.

(** ** The cell *)
Definition clink (t : tpc) (p : wpc) : Prop :=
  match t with TNotify | XIn => notifies p = true | _ => p = WIdle end.
Definition c0link (r : rpc) (p : wpc) : Prop :=
  match r with RWait _ _ => celk p = CWaits | _ => p = WIdle end.

(** ** The ring *)
Definition rlink (t : tpc) (p : pc) : Prop :=
  match t with
  | TPush _ => pushing p = true
  | THold => exists r, p = PHold r
  | TDead => p = Idle \/ exists x, p = PDead x
  | _ => p = Idle
  end.
(** The handle the receiver is about to use. *)
Definition in_use (r : rpc) : option nat :=
  match r with RAgain h _ | RPop h _ | RCall h _ | RWait h _ => Some h | _ => None end.
Definition hlink (r : rpc) (refs : list nat) (h : nat) (p : pc) : Prop :=
  (In h refs -> exists x, p = QHold x) /\
  (~ In h refs -> match r with RPop h' _ => if Nat.eqb h' h then popping p = true else p = Idle | _ => p = Idle end).

Definition active (t : tpc) : bool :=
  match t with
  | TNew | TAgain _ | TPush _ | TCall _ | TWait _ | TPark | THold | TDropped | TNotify | TCancel => true
  | _ => false
  end.
Definition dropping (t : tpc) : bool := match t with UDropped | UNotify => true | _ => false end.
Definition ending (r : rpc) : bool := match r with RClosing _ | RCloseQ | RInClose | RGone => true | _ => false end.

Section LinkDef.
  Context {T : Type}.

  Record Link (s : @chan T) : Prop := {
    K_even : forall i, Nat.even i = true -> ch_tx s i = TNone;
    K_q : forall i, i <> 0 -> qlink (ch_tx s i) (q_pc (ch_queue s) i) (q_phase (ch_queue s) i);
    K_q0 : q0link (ch_rx s) (q_pc (ch_queue s) 0) /\ q_phase (ch_queue s) 0 = PAbsent;
    K_c : forall i, i <> 0 -> clink (ch_tx s i) (ws_pc (ch_cell s) i);
    K_c0 : c0link (ch_rx s) (ws_pc (ch_cell s) 0);
    K_r : forall i, Nat.even i = false -> rlink (ch_tx s i) (st_agents (ch_ring s) i);
    K_h : forall h, Nat.even h = true -> hlink (ch_rx s) (ch_refs s) h (st_agents (ch_ring s) h);
    K_use : forall h, in_use (ch_rx s) = Some h -> Nat.even h = true /\ ~ In h (ch_refs s);
    K_refs : NoDup (ch_refs s) /\ forall h, In h (ch_refs s) -> Nat.even h = true;
    K_live : forall i, In i (ch_live s) <-> active (ch_tx s i) = true;
    K_out : forall i, In i (ch_out s) <-> dropping (ch_tx s i) = true;
    K_end : ending (ch_rx s) = true -> ch_refs s = [] /\ ch_out s = [];
    K_zero : ch_count s = 0 -> ch_live s = [];
    K_last : 0 < ch_count s -> forall i, match ch_tx s i with XClose _ | XTx | XIn => False | _ => True end
  }.

  Lemma fresh_tx_odd (s : @chan T) i : fresh_tx s i = true -> Nat.even i = false /\ i <> 0 /\ ch_tx s i = TNone.
  Proof.
    unfold fresh_tx. intros H. apply andb_true_iff in H. destruct H as [H1 H2].
    rewrite <- Nat.negb_even in H1. apply negb_true_iff in H1. split; [exact H1|]. split.
    - intros ->. discriminate.
    - destruct (ch_tx s i); congruence.
  Qed.
  Lemma drop_id_in i j l : In j (drop_id i l) <-> In j l /\ j <> i.
  Proof. unfold drop_id. rewrite filter_In, negb_true_iff, Nat.eqb_neq. reflexivity. Qed.
  Lemma tx_odd s i : Link s -> ch_tx s i <> TNone -> Nat.even i = false /\ i <> 0.
  Proof.
    intros HK H. split.
    - destruct (Nat.even i) eqn:E; [|reflexivity]. destruct H. now apply (K_even _ HK).
    - intros ->. apply H. now apply (K_even _ HK).
  Qed.
  Lemma rx_free_cases (s : @chan T) : rx_free s = true -> ch_rx s = RIdle \/ exists w, ch_rx s = RPark w.
  Proof. unfold rx_free. destruct (ch_rx s); try discriminate; eauto. Qed.
  Lemma existsb_refs h l : existsb (Nat.eqb h) l = true -> In h l.
  Proof. intros H. apply existsb_exists in H. destruct H as (x & Hx & E). apply Nat.eqb_eq in E. now subst. Qed.
  Lemma nil_b_nil l : nil_b l = true -> l = [].
  Proof. destruct l; [reflexivity|discriminate]. Qed.
End LinkDef.

Ltac frs := repeat match goal with
  | H : fresh_tx _ _ && _ = true |- _ => apply andb_true_iff in H; destruct H
  | H : rx_free _ && _ = true |- _ => apply andb_true_iff in H; destruct H
  | H : rx_free _ && _ && _ = true |- _ => apply andb_true_iff in H; destruct H
  | H : fresh_tx _ _ = true |- _ => apply fresh_tx_odd in H; destruct H as (? & ? & ?)
  end.
(** Case [j = i] or not. *)
Ltac here i j := destruct (Nat.eq_dec j i) as [->|?Hji]; [rewrite ?tset_same|rewrite ?tset_other by assumption].

Ltac odds HK := repeat match goal with
  | H : ch_tx ?s ?i = ?t |- _ =>
      lazymatch goal with
      | _ : i <> 0 |- _ => fail
      | _ => destruct (tx_odd s i HK ltac:(rewrite H; discriminate)) as [?He ?Hz]
      end
  end.
(** What the step did inside its component. *)
Ltac facts := repeat match goal with
  | H : qstep_sys _ _ (QStep ?i _) = Some (_, _) |- _ => pose proof (q_own _ _ _ _ _ _ H) as ?Q; pose proof (q_others _ _ _ _ _ i H eq_refl) as ?Qo; clear H
  | H : qstep_sys _ _ (QNew ?i) = Some (_, _) |- _ => pose proof (q_new _ _ _ _ _ H) as ?Q; pose proof (q_others _ _ _ _ _ i H eq_refl) as ?Qo; clear H
  | H : qstep_sys _ _ (WaitQueueModel.QStart ?i _) = Some (_, _) |- _ => pose proof (q_start _ _ _ _ _ _ H) as ?Q; pose proof (q_others _ _ _ _ _ i H eq_refl) as ?Qo; clear H
  | H : qstep_sys _ _ (QCont ?i _) = Some (_, _) |- _ => pose proof (q_cont _ _ _ _ _ _ H) as ?Q; pose proof (q_others _ _ _ _ _ i H eq_refl) as ?Qo; clear H
  | H : qstep_sys _ _ (QNotify ?i) = Some (_, _) |- _ => pose proof (q_notify _ _ _ _ _ H) as ?Q; pose proof (q_others _ _ _ _ _ i H eq_refl) as ?Qo; clear H
  | H : qstep_sys _ _ (QClose ?i) = Some (_, _) |- _ => pose proof (q_close _ _ _ _ _ H) as ?Q; pose proof (q_others _ _ _ _ _ i H eq_refl) as ?Qo; clear H
  | H : qstep_sys _ _ (QFree ?i) = Some (_, _) |- _ => pose proof (q_free _ _ _ _ _ H) as ?Q; pose proof (q_others _ _ _ _ _ i H eq_refl) as ?Qo; clear H
  | H : qstep_sys _ _ (QDrop ?i) = Some (_, _) |- _ => pose proof (q_drop _ _ _ _ _ H) as ?Q; pose proof (q_others _ _ _ _ _ i H eq_refl) as ?Qo; clear H
  | H : qstep_sys _ _ (QTimeout ?i) = Some (_, _) |- _ => pose proof (q_timeout _ _ _ _ _ H) as ?Q; pose proof (q_others _ _ _ _ _ i H eq_refl) as ?Qo; clear H
  | H : wstep_sys _ _ (WAStep _) = Some (_, _) |- _ => pose proof (c_own _ _ _ _ _ H) as (?Qo & ?Qw & ?Qn); clear H
  | H : wstep_sys _ _ (WACall _ _ _) = Some (_, _) |- _ => pose proof (c_call _ _ _ _ _ _ _ H) as (?Qi & ?Qe & ?Qc & ?Qp & ?Qo); clear H
  | H : wstep_sys _ _ (WANotify _ _) = Some (_, _) |- _ => pose proof (c_notify _ _ _ _ _ _ H) as (?Qi & ?Qe & ?Qc & ?Qp & ?Qo); clear H
  | H : step _ _ _ (AStep _ _) = Some (_, _) |- _ => pose proof (r_own _ _ _ _ _ _ _ H) as (?Qo & ?Qu & ?Qp); clear H
  | H : step _ _ _ (AInvoke _ _) = Some (_, _) |- _ => pose proof (r_invoke _ _ _ _ _ _ _ H) as (?Qi & ?Qe & ?Qc & ?Qp & ?Qo); clear H
  | H : step _ _ _ (AWrite _ _) = Some (_, _) |- _ => pose proof (r_write _ _ _ _ _ _ _ H) as (?Qe & ?Qa); clear H
  | H : step _ _ _ (ADrop _) = Some (_, _) |- _ => pose proof (r_drop _ _ _ _ _ _ H) as (?Qi & ?Qo & ?Qd); clear H
  | H : step _ _ _ (APanic _) = Some (_, _) |- _ => pose proof (r_panic _ _ _ _ _ _ H) as (?Qe & ?Qp & ?Qo); clear H
  | H : step _ _ _ (AClose _ _) = Some (_, _) |- _ => pose proof (r_close _ _ _ _ _ _ _ H) as (?Qi & ?Qb & ?Qa); clear H
  end;
  repeat match goal with
  | H : queue_ret ?o = _, Q : context [queue_ret ?o] |- _ => lazymatch Q with H => fail | _ => rewrite H in Q end
  | H : cell_ret ?o = _, Q : context [cell_ret ?o] |- _ => lazymatch Q with H => fail | _ => rewrite H in Q end
  | H : push_ret ?o = _, Q : context [push_ret ?o] |- _ => lazymatch Q with H => fail | _ => rewrite H in Q end
  | H : pop_ret ?o = _, Q : context [pop_ret ?o] |- _ => lazymatch Q with H => fail | _ => rewrite H in Q end
  end.
Ltac setup HK Hs a := ccases Hs a; frs; odds HK; facts.

Ltac conj := repeat match goal with
  | H : _ /\ _ |- _ => destruct H
  | H : exists _, _ |- _ => destruct H
  | H : False |- _ => contradiction
  end.
Ltac disj := repeat match goal with H : _ \/ _ |- _ => destruct H; conj end.

Ltac qoth j := match goal with Q : forall _, _ -> q_pc _ _ = _ /\ _ |- _ => destruct (Q j ltac:(congruence)) as [-> ->] end.
Ltac coth j := match goal with Q : forall _, _ -> ws_pc _ _ = _ |- _ => rewrite (Q j ltac:(congruence)) end.
Ltac refs := repeat match goal with H : existsb (Nat.eqb _) _ = true |- _ => apply existsb_refs in H end.
Ltac roth j := match goal with Q : forall _, _ -> st_agents _ _ = _ |- _ => rewrite (Q j ltac:(congruence)) end.


Section Link.
  Context {T : Type}.
  Variables (P : params) (pol : policy T) (async debug : bool).
  Notation cstep_sys := (@cstep_sys T P pol async debug).
  Notation crun := (@crun T P pol async debug).
  Local Arguments drop_id : simpl never.

  Lemma link_even s a s' l : Link s -> cstep_sys s a = Some (s', l) -> forall i, Nat.even i = true -> ch_tx s' i = TNone.
  Proof.
    intros HK Hs j Hj. pose proof (K_even _ HK j Hj) as E. ccases Hs a; frs; cbn; try exact E;
      match goal with |- tset _ ?i _ _ = _ => here i j; [congruence|exact E] end.
  Qed.
  Lemma link_q s a s' l : Link s -> cstep_sys s a = Some (s', l) ->
    forall i, i <> 0 -> qlink (ch_tx s' i) (q_pc (ch_queue s') i) (q_phase (ch_queue s') i).
  Proof.
    intros HK Hs j Hj. setup HK Hs a; cbn.
    all: pose proof (K_q _ HK j Hj) as Kj; clear HK.
    all: try exact Kj.
    all: try (match goal with Q : forall _, _ -> q_pc _ _ = _ /\ _ |- _ => destruct (Q j ltac:(assumption)) as [-> ->]; exact Kj end).
    all: match goal with
      | |- qlink (tset _ ?i _ _) _ _ => here i j
      | Q : forall j, j <> ?i -> q_pc _ _ = _ /\ _ |- _ => here i j
      end; try exact Kj;
      try (match goal with Q : forall _, _ -> q_pc _ _ = _ /\ _ |- _ => destruct (Q j ltac:(assumption)) as [-> ->]; exact Kj end).
    all: match goal with H : ch_tx _ _ = _ |- _ => rewrite H in Kj; rewrite ?H end; cbn in Kj |- *; conj; try (split; congruence); try congruence.
    all: repeat match goal with H : q_pc ?q ?i = _, K : context [kind (q_pc ?q ?i)] |- _ => rewrite H in K; try discriminate K end.
    all: try destruct st; cbn in *; conj; disj; try congruence;
      repeat match goal with H : q_pc ?q ?i = _ |- context [q_pc ?q ?i] => rewrite H | H : q_phase ?q ?i = _ |- context [q_phase ?q ?i] => rewrite H end;
      cbn; try (repeat split; (congruence || (left; congruence) || (right; congruence))).
  Qed.

  Lemma link_q0 s a s' l : Link s -> cstep_sys s a = Some (s', l) ->
    q0link (ch_rx s') (q_pc (ch_queue s') 0) /\ q_phase (ch_queue s') 0 = PAbsent.
  Proof.
    intros HK Hs. setup HK Hs a; cbn.
    all: pose proof (K_q0 _ HK) as K0; clear HK.
    all: try exact K0.
    all: try (qoth 0; exact K0).
    all: try match goal with H : rx_free _ = true |- _ => destruct (rx_free_cases _ H) as [?|[? ?]]; clear H end.
    all: try match goal with H : ch_rx _ = _ |- _ => rewrite H in K0; rewrite ?H end; cbn in K0 |- *; conj; try (split; congruence); try congruence.
    all: repeat match goal with H : q_pc ?q ?i = _, K : context [kind (q_pc ?q ?i)] |- _ => rewrite H in K; try discriminate K end.
    all: disj; try congruence.
    all: repeat match goal with H : q_pc ?q ?i = _ |- context [q_pc ?q ?i] => rewrite H | H : q_phase ?q ?i = _ |- context [q_phase ?q ?i] => rewrite H end; cbn.
    all: try (split; congruence).
  Qed.

  Lemma link_c s a s' l : Link s -> cstep_sys s a = Some (s', l) -> forall i, i <> 0 -> clink (ch_tx s' i) (ws_pc (ch_cell s') i).
  Proof.
    intros HK Hs j Hj. setup HK Hs a; cbn.
    all: pose proof (K_c _ HK j Hj) as Kj; clear HK.
    all: try exact Kj.
    all: try (coth j; exact Kj).
    all: match goal with
      | |- clink (tset _ ?i _ _) _ => here i j
      | Q : forall j, j <> ?i -> ws_pc _ _ = _ |- _ => here i j
      end; try exact Kj; try (coth j; exact Kj).
    all: match goal with H : ch_tx _ _ = _ |- _ => rewrite H in Kj; rewrite ?H end; cbn in Kj |- *; conj; try congruence.
    all: try match goal with Q : notifies _ = true -> _ |- _ => specialize (Q Kj) end; conj; try assumption.
    all: try match goal with Q : ws_pc ?c ?i = NOr _ |- _ => rewrite Q; reflexivity end.
  Qed.
  Lemma link_c0 s a s' l : Link s -> cstep_sys s a = Some (s', l) -> c0link (ch_rx s') (ws_pc (ch_cell s') 0).
  Proof.
    intros HK Hs. setup HK Hs a; cbn.
    all: pose proof (K_c0 _ HK) as Kj; clear HK.
    all: try exact Kj.
    all: try (coth 0; exact Kj).
    all: try match goal with H : rx_free _ = true |- _ => destruct (rx_free_cases _ H) as [?|[? ?]]; clear H end.
    all: match goal with H : ch_rx _ = _ |- _ => rewrite H in Kj; rewrite ?H end; cbn in Kj |- *; conj; try congruence.
    all: try match goal with Q : celk _ = CWaits -> _ |- _ => specialize (Q Kj) end; conj; try assumption.
    all: try match goal with Q : ws_pc ?c ?i = WCas1 _ _ |- _ => rewrite Q; reflexivity end.
  Qed.

  Lemma link_r s a s' l : Link s -> cstep_sys s a = Some (s', l) ->
    forall i, Nat.even i = false -> rlink (ch_tx s' i) (st_agents (ch_ring s') i).
  Proof.
    intros HK Hs j Hj. setup HK Hs a; cbn.
    all: pose proof (K_r _ HK j Hj) as Kj.
    all: refs; repeat match goal with
      | H : In ?h (ch_refs _) |- _ => let E := fresh "Ev" in pose proof (proj2 (K_refs _ HK) h H) as E; clear H
      | H : ch_rx ?s = RAgain ?h _ |- _ => let E := fresh "Ev" in pose proof (proj1 (K_use _ HK h ltac:(rewrite H; reflexivity))) as E; clear H
      | H : ch_rx ?s = RPop ?h _ |- _ => let E := fresh "Ev" in pose proof (proj1 (K_use _ HK h ltac:(rewrite H; reflexivity))) as E; clear H
      end.
    all: clear HK.
    all: try match goal with H : st_agents ?a = st_agents ?b |- _ => rewrite H end.
    all: try exact Kj.
    all: try (roth j; exact Kj).
    all: match goal with
      | |- rlink (tset _ ?i _ _) _ => here i j
      | Q : forall j, j <> ?i -> st_agents _ _ = _ |- _ => here i j
      end; try exact Kj; try (roth j; exact Kj).
    all: match goal with H : ch_tx _ _ = _ |- _ => rewrite H in Kj; rewrite ?H end; cbn in Kj |- *; conj; try congruence.
    all: try match goal with Q : pushing _ = true -> _ |- _ => specialize (Q Kj) end; conj; try assumption.
    all: eauto.
    all: try match goal with Q : st_agents ?c ?i = entry_pc _ |- _ => rewrite Q; reflexivity end.
    all: match goal with Qo : forall j : agent, j <> ?h -> _ |- st_agents _ ?i = _ => rewrite (Qo i ltac:(congruence)); assumption end.
  Qed.

  Lemma link_refs s a s' l : Link s -> cstep_sys s a = Some (s', l) ->
    NoDup (ch_refs s') /\ forall h, In h (ch_refs s') -> Nat.even h = true.
  Proof.
    intros HK Hs. pose proof (K_refs _ HK) as [Hn He]. pose proof (K_use _ HK) as Hu. clear HK. ccases Hs a; frs; refs; cbn; try (split; assumption).
    - destruct (Hu _ eq_refl) as [E1 E2].
      split; [constructor; assumption|]. intros x [<-|Hx]; [exact E1|now apply He].
    - split; [now apply NoDup_filter|]. intros x Hx. apply drop_id_in in Hx. apply He. tauto.
    - split; [now apply NoDup_filter|]. intros x Hx. apply drop_id_in in Hx. apply He. tauto.
  Qed.

  Lemma link_h s a s' l : Link s -> cstep_sys s a = Some (s', l) ->
    forall h, Nat.even h = true -> hlink (ch_rx s') (ch_refs s') h (st_agents (ch_ring s') h).
  Proof.
    intros HK Hs j Hj. setup HK Hs a; cbn.
    all: pose proof (K_h _ HK j Hj) as Kj.
    all: refs; repeat match goal with
      | H : ch_rx ?s = RAgain ?h _ |- _ =>
          lazymatch goal with _ : ~ In h (ch_refs s) |- _ => fail | _ => destruct (K_use _ HK h ltac:(rewrite H; reflexivity)) as [?Ev ?Nin] end
      | H : ch_rx ?s = RPop ?h _ |- _ =>
          lazymatch goal with _ : ~ In h (ch_refs s) |- _ => fail | _ => destruct (K_use _ HK h ltac:(rewrite H; reflexivity)) as [?Ev ?Nin] end
      end.
    all: pose proof (K_use _ HK) as Hu; clear HK.
    all: try match goal with H : st_agents ?a = st_agents ?b |- _ => rewrite H end.
    all: try exact Kj.
    all: try (roth j; exact Kj).
    all: try match goal with H : rx_free _ = true |- _ => destruct (rx_free_cases _ H) as [?|[? ?]]; clear H end.
    all: try (match goal with H : ch_rx _ = _ |- _ => rewrite H in Kj; rewrite ?H end; exact Kj).
    all: destruct Kj as [K1 K2].
    all: try match goal with Q : forall j, j <> ?i -> st_agents _ _ = _ |- _ => here i j end.
    all: split; intros Hin; try rewrite drop_id_in in Hin; cbn in Hin.
    all: try (roth j).
    all: try (apply K1; tauto).
    all: try match goal with H : ch_rx _ = _ |- _ => rewrite H in K2; rewrite ?H end; cbn in K2 |- *.
    all: try (apply K2; tauto).
    all: rewrite ?Nat.eqb_refl in *.
    all: try match goal with H : ?j <> ?h |- _ => rewrite (proj2 (Nat.eqb_neq h j) (fun E => H (eq_sym E))) in * end.
    all: try (apply K2; tauto).
    all: try (exfalso; tauto).
    all: try (destruct Hin as [Hin|Hin]; [congruence|auto; fail]).
    all: try (specialize (K2 ltac:(tauto)); specialize (Qp K2)).
    all: conj; try assumption; eauto.
    all: try (rewrite Qp; reflexivity).
    all: try (exfalso; apply Hin; now left).
    all: try (apply K2; intros Hx; apply Hin; now right).
    all: destruct (ch_rx s) eqn:Er; try assumption;
      match goal with |- context [?x =? ?y] => destruct (Nat.eqb_spec x y); [subst; exfalso; apply (Hu _ eq_refl); assumption|assumption] end.
  Qed.
  Lemma link_use s a s' l : Link s -> cstep_sys s a = Some (s', l) ->
    forall h, in_use (ch_rx s') = Some h -> Nat.even h = true /\ ~ In h (ch_refs s').
  Proof.
    intros HK Hs j. ccases Hs a; frs; cbn; intros Hj; try discriminate Hj; pose proof (K_use _ HK) as Hu; pose proof (K_h _ HK) as Hh; clear HK; try (apply Hu; exact Hj).
    all: try (injection Hj as <-; apply Hu; match goal with H : ch_rx _ = _ |- _ => rewrite H; reflexivity end).
    all: try (destruct (Hu _ Hj) as [H1' H2']; split; [exact H1'|rewrite drop_id_in; tauto]).
    all: injection Hj as <-; split; [assumption|]; intros Hin; destruct (proj1 (Hh h ltac:(assumption)) Hin) as [x Hx].
    all: match goal with H : ring_idle _ _ = true |- _ => unfold ring_idle in H; rewrite Hx in H; discriminate H end.
  Qed.

  Lemma link_live s a s' l : Link s -> cstep_sys s a = Some (s', l) -> forall i, In i (ch_live s') <-> active (ch_tx s' i) = true.
  Proof.
    intros HK Hs j. ccases Hs a; frs; pose proof (K_live _ HK j) as Kj; clear HK; cbn; try exact Kj.
    all: match goal with |- context [tset _ ?i _ _] => here i j end; cbn; rewrite ?drop_id_in; try exact Kj; try tauto.
    all: try match goal with H : ch_tx _ _ = _ |- _ => rewrite H in Kj end; cbn in Kj; try exact Kj.
    all: try (split; intros; (discriminate || tauto || (split; auto; fail))).
    all: split; intros HH; [destruct HH as [HH|HH]; [congruence|tauto]|right; tauto].
  Qed.
  Lemma link_out s a s' l : Link s -> cstep_sys s a = Some (s', l) -> forall i, In i (ch_out s') <-> dropping (ch_tx s' i) = true.
  Proof.
    intros HK Hs j. ccases Hs a; frs; pose proof (K_out _ HK j) as Kj; clear HK; cbn; try exact Kj.
    all: match goal with |- context [tset _ ?i _ _] => here i j end; cbn; rewrite ?drop_id_in; try exact Kj; try tauto.
    all: try match goal with H : ch_tx _ _ = _ |- _ => rewrite H in Kj end; cbn in Kj; try exact Kj.
    all: try (split; intros; (discriminate || tauto || (split; auto; fail))).
    all: split; intros HH; [destruct HH as [HH|HH]; [congruence|tauto]|right; tauto].
  Qed.
  Lemma link_end s a s' l : Link s -> cstep_sys s a = Some (s', l) -> ending (ch_rx s') = true -> ch_refs s' = [] /\ ch_out s' = [].
  Proof.
    intros HK Hs. ccases Hs a; cbn; intros Hx; try discriminate Hx; pose proof (K_end _ HK) as Kj; clear HK; try (apply Kj; exact Hx).
    all: try (apply Kj; match goal with H : ch_rx _ = _ |- _ => rewrite H; reflexivity end).
    all: try (destruct (Kj Hx) as [Ka Kb]; rewrite ?Ka, ?Kb; now split).
    - destruct (Kj Hx) as [E _]. rewrite E in *. frs. discriminate.
    - match goal with H : _ = true |- _ => apply andb_true_iff in H; destruct H as [H H2]; apply andb_true_iff in H; destruct H as [H H1] end.
      split; now apply nil_b_nil.
  Qed.
  Lemma link_zero s a s' l : Link s -> cstep_sys s a = Some (s', l) -> ch_count s' = 0 -> ch_live s' = [].
  Proof.
    intros HK Hs. ccases Hs a; cbn; intros Hx; pose proof (K_zero _ HK) as Kj; clear HK; try (apply Kj; exact Hx); try (rewrite (Kj Hx); reflexivity).
    all: try discriminate Hx.
    all: try (now apply nil_b_nil).
    all: frs; match goal with H : (0 <? _) = true |- _ => apply Nat.ltb_lt in H end; lia.
  Qed.
  Lemma link_last s a s' l : Link s -> cstep_sys s a = Some (s', l) ->
    0 < ch_count s' -> forall i, match ch_tx s' i with XClose _ | XTx | XIn => False | _ => True end.
  Proof.
    intros HK Hs Hc j. ccases Hs a; frs; cbn in Hc |- *; pose proof (K_last _ HK) as Kj; clear HK; try (apply Kj; (assumption || lia)).
    all: match goal with |- context [tset _ ?i _ _] => here i j end; try exact I; try (apply Kj; (assumption || lia)).
    all: try lia.
    all: match goal with H : ch_tx _ ?i = _ |- _ => generalize (Kj ltac:(assumption) i); rewrite H; auto end.
  Qed.

  Lemma link_step s a s' l : Link s -> cstep_sys s a = Some (s', l) -> Link s'.
  Proof.
    intros HK Hs. constructor.
    - exact (link_even _ _ _ _ HK Hs).
    - exact (link_q _ _ _ _ HK Hs).
    - exact (link_q0 _ _ _ _ HK Hs).
    - exact (link_c _ _ _ _ HK Hs).
    - exact (link_c0 _ _ _ _ HK Hs).
    - exact (link_r _ _ _ _ HK Hs).
    - exact (link_h _ _ _ _ HK Hs).
    - exact (link_use _ _ _ _ HK Hs).
    - exact (link_refs _ _ _ _ HK Hs).
    - exact (link_live _ _ _ _ HK Hs).
    - exact (link_out _ _ _ _ HK Hs).
    - exact (link_end _ _ _ _ HK Hs).
    - exact (link_zero _ _ _ _ HK Hs).
    - exact (link_last _ _ _ _ HK Hs).
  Qed.
  Lemma link_run es s : crun es s -> Link s.
  Proof.
    induction 1 as [|es s a s' l Hr IH Hs]; [|exact (link_step _ _ _ _ IH Hs)].
    constructor; simpl; auto; try (split; reflexivity); try discriminate; try tauto.
    - intros h _. split; simpl; tauto.
    - split; [constructor|tauto].
    - intros i. split; [tauto|discriminate].
    - intros i. split; [tauto|discriminate].
  Qed.
End Link.
