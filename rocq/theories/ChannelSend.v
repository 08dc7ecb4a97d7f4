(** Senders: who still has to be told that there is room. *)
From Coq Require Import List Bool Arith NArith Lia.
From Verif Require CoreInv CoreStep RingFacts WaitCellSpec WaitCellFacts.
From Verif Require Import CoreArith RingSpec.
From Verif Require Import QueueSpec CoreModel WaitCellModel WaitList WaitListSpec WaitListFacts WaitQueueModel WaitQueueSpec WaitQueueFacts WaitQueueWake WaitQueueStored WaitQueueCalls.
From Verif Require Import ChannelModel ChannelSpec ChannelFacts ChannelLink ChannelEvents ChannelRing ChannelQueue ChannelInv.
From Verif Require Import History.
Import ListNotations.

(** A waiter's state changes when it is taken out of the list, or by its owner. *)
Lemma state_stays debug es q a q' e i : QInv es q -> qstep_sys debug q a = Some (q', e) -> (forall k, e <> Some (EUb k)) ->
  ~ In i (waiting es) ->
  match a with QNew j => j <> i | QStep j _ => j = i -> forall w, q_pc q i <> SSwap w | _ => True end ->
  n_state (q_heap q' i) = n_state (q_heap q i).
Proof.
  intros HI Hs Hub Hw Ha.
  destruct a as [j|j w|j w|j|j|j|j|j|j spur]; cbn [qstep_sys] in Hs;
    try (destruct (idle q j); try discriminate; try (destruct (q_phase q j); try discriminate); injection Hs as <- <-; try reflexivity).
  - cbn. unfold hset. rewrite (proj2 (Nat.eqb_neq i j)) by congruence. reflexivity.
  - destruct (qstep_states _ _ _ _ _ _ _ HI Hs (Hub j)) as [(n & st & r & _ & _ & Hr & _ & _ & H)|[_ H]].
    + rewrite H. destruct (Nat.eqb_spec i n) as [->|]; [|reflexivity]. destruct Hw. rewrite Hr. now left.
    + destruct (H i) as [E|(E & w & Hx & _)]; [exact E|]. destruct (Ha (eq_sym E) w). now rewrite E.
Qed.

Definition q_actor (a : qaction) : nat :=
  match a with QNew j | WaitQueueModel.QStart j _ | QCont j _ | QNotify j | QClose j | QFree j | QDrop j | QTimeout j | QStep j _ => j end.
Lemma q_frame debug es q a q' e i : QInv es q -> qstep_sys debug q a = Some (q', e) -> (forall k, e <> Some (EUb k)) -> q_actor a <> i ->
  q_pc q' i = q_pc q i /\ q_phase q' i = q_phase q i /\ (~ In i (waiting es) -> n_state (q_heap q' i) = n_state (q_heap q i)).
Proof.
  intros HI Hs Hub Hi. destruct (q_others _ _ _ _ _ (q_actor a) Hs) with (j := i) as [H1 H2]; [destruct a; reflexivity|congruence|].
  split; [exact H1|]. split; [exact H2|]. intros Hw. apply (state_stays _ _ _ _ _ _ _ HI Hs Hub Hw). destruct a; cbn in Hi; try exact I; congruence.
Qed.

(** A released waiter is in the list only if its wait was given up. *)
Lemma gone_unqueued {G} debug es s : lrun G debug es s -> no_ub es -> forall n, q_phase s n = PGone -> In n (waiting es) -> In (ETimeout n) es.
Proof.
  apply (@qrun_ind2 G debug (fun es s => forall n, q_phase s n = PGone -> In n (waiting es) -> In (ETimeout n) es) no_ub); [exact no_ub_tail|auto|..].
  - intros n H. discriminate.
  - intros es0 s0 i spur s' e _ Hu HI IH Hs n Hp Hin. pose proof (I_node _ _ HI i) as HN. specialize (IH n).
    assert (Hub : e <> Some (EUb i)) by (intros ->; apply (Hu i); now left).
    assert (Hsub : In n (waiting es0) -> q_phase s0 n = PGone -> In (ETimeout n) (app_ev e es0)).
    { intros H1 H2. specialize (IH H2 H1). destruct e; [right|]; exact IH. }
    destruct (Nat.eq_dec n i) as [->|Hne].
    + qcases Hs E s0 i; unfold with_pc, with_mem, with_phase, with_state, with_lock in Hp; cbn [q_pc q_phase] in Hp; rewrite ?pset_same in Hp;
        cbn [app_ev waiting] in Hin; try (apply without_in in Hin); try (apply Hsub; tauto).
      * cbn [node_ok] in HN. destruct HN as [[H|H] _]; rewrite H in Hp; discriminate.
      * cbn [node_ok] in HN. apply Hsub; [exact Hin|]. destruct r; simpl in Hp; try discriminate. destruct (q_phase s0 i); try discriminate; reflexivity.
      * cbn [node_ok] in HN. tauto.
    + destruct (qstep_agent _ _ _ _ _ _ Hs) as (_ & _ & Hph). rewrite (Hph n Hne) in Hp. apply Hsub; [|exact Hp].
      destruct e as [[]|]; cbn [app_ev waiting] in Hin; try (apply without_in in Hin); try tauto.
      apply in_app_or in Hin. destruct Hin as [Hin|[Hin|[]]]; [exact Hin|]. subst.
      exfalso. apply Hne. clear - Hs. match type of Hs with _ = Some (_, ?x) => remember x as o eqn:Ho end. qcases Hs E s0 i; congruence.
  - intros es0 s0 a s' e _ Hu HI IH Ha Hs n Hp Hin.
    destruct (qcall_agent _ _ _ _ _ Ha Hs) as (i & p' & ph' & E & Hpc & Hph & _ & _ & _ & _ & Hc). rewrite (Hph n) in Hp.
    pose proof (I_node _ _ HI n) as HN.
    assert (Hcase : e = Some (ETimeout i) \/ waiting (app_ev e es0) = waiting es0) by
      (clear - Hc; repeat match goal with H : _ \/ _ |- _ => destruct H | H : _ /\ _ |- _ => destruct H | H : exists _, _ |- _ => destruct H end; subst; auto).
    destruct (Nat.eq_dec n i) as [->|Hne].
    + rewrite pset_same in Hp. rewrite E in HN. cbn [node_ok] in HN. subst ph'.
      repeat match goal with H : _ \/ _ |- _ => destruct H | H : _ /\ _ |- _ => destruct H | H : exists _, _ |- _ => destruct H end; subst; cbn [app_ev waiting In] in *;
        try discriminate; auto; try congruence.
      all: try (right; apply IH; assumption).
      all: exfalso; match goal with H : q_phase _ _ = _ |- _ => rewrite H in HN end; cbn in HN; tauto.
    + rewrite pset_other in Hp by exact Hne. specialize (IH n Hp).
      destruct Hcase as [->|Hcase]; [right; apply IH; exact Hin|]. rewrite Hcase in Hin. specialize (IH Hin). destruct e; [right|]; exact IH.
  - intros es0 s0 i p' _ _ _ IH _. exact IH.
Qed.

(** Inside a call of the queue, told to try again. *)
Definition qretry (p : qpc) (v : N) : Prop :=
  match p with
  | SUnlock Notified | SRet Notified => True
  | CLoad _ | CLock _ | CLoad2 _ | CUpd _ | SUnlock Wait | SRet Wait => v = Q_WAKING
  | _ => False
  end.
Lemma qretry_step debug s i spur s' e : qstep debug s i spur = Some (s', e) -> e <> Some (EUb i) -> e <> Some (EAssert i) ->
  qretry (q_pc s i) (n_state (q_heap s i)) ->
  match queue_ret e with
  | None => qretry (q_pc s' i) (n_state (q_heap s' i))
  | Some (Got Notified) => True
  | Some (Got Wait) => n_state (q_heap s' i) = Q_WAKING
  | _ => False
  end.
Proof.
  intros Hs H1 H2 HR. qcases Hs E s i; cbn [qretry] in HR; try contradiction; unfold with_pc, with_mem, with_phase, with_state, with_lock;
    cbn [queue_ret q_pc q_heap]; rewrite ?pset_same; try congruence; cbn [qretry]; auto.
  all: try (rewrite HR in *; discriminate).
  autorewrite with mem. exact HR.
Qed.

Section Send.
  Context {T : Type}.
  Variables (W : N) (cap : nat) (pol : policy T) (async debug : bool).
  Hypothesis Hwf : wf W cap.
  Notation P := (core_new W (N.of_nat cap)).
  Notation B := (slack W cap).
  Notation cstep_sys := (@cstep_sys T P pol async debug).
  Notation crun := (@crun T P pol async debug).
  Local Arguments drop_id : simpl never.

  Lemma calm_tail l (es : list (cevent T)) : ring_calm W cap (l ++ es) -> ring_calm W cap es.
  Proof. unfold ring_calm. rewrite ring_of_app. apply RingFacts.calm_suffix. Qed.
  Lemma no_ring_ub es s i : crun es s -> ring_calm W cap es -> ~ In (UB i) (ring_of es).
  Proof. intros Hr HC. apply (RingFacts.no_ub W cap pol Hwf); [exists (ch_ring s); exact (crun_ring _ _ _ _ _ _ Hr)|exact HC]. Qed.

  Lemma count_app f (a b : list (event T)) : count f (a ++ b) = count f a + count f b.
  Proof. induction a as [|x a IH]; simpl; [reflexivity|rewrite IH; lia]. Qed.
  Lemma drop_length h l : NoDup l -> In h l -> S (length (drop_id h l)) = length l.
  Proof.
    unfold drop_id. induction l as [|x l IH]; simpl; [tauto|]. intros Hn Hin. apply NoDup_cons_iff in Hn. destruct Hn as [Hx Hn].
    destruct (Nat.eqb_spec x h) as [->|Hne]; simpl.
    - f_equal. clear IH Hin Hn. induction l as [|y l IH]; simpl; [reflexivity|].
      destruct (Nat.eqb_spec y h) as [->|]; simpl; [destruct Hx; now left|]. f_equal. apply IH. intros H. apply Hx. now right.
    - f_equal. apply IH; [exact Hn|]. destruct Hin; [congruence|assumption].
  Qed.

  (** ** Every dequeued element is held by a RecvRef or released *)
  Lemma refs_count es s : crun es s -> ring_calm W cap es ->
    count is_take (ring_of es) = count is_release (ring_of es) + length (ch_refs s).
  Proof.
    intros Hr. induction Hr as [|es s a s' l Hr IH Hs]; [reflexivity|]. intros HC.
    assert (Hub := fun i => no_ring_ub _ _ i (crun_step _ _ _ _ _ _ _ _ _ Hr Hs) HC).
    specialize (IH (calm_tail _ _ HC)). rewrite ring_of_app, !count_app. pose proof (link_run _ _ _ _ _ _ Hr) as HK.
    destruct (refs_change _ _ _ _ _ _ _ _ HK Hs) as [E|[(h & v & E)|[(h & v & E)|(h & E)]]].
    - destruct (events_tail _ _ _ _ _ _ _ _ Hs) as (L1 & _ & _). destruct (single _ L1) as [->|[e He]]; [simpl; rewrite E; lia|].
      rewrite E, He. pose proof (at_ring _ _ _ _ _ _ _ _ _ HK Hs He) as Q.
      destruct e; simpl; try lia.
      + destruct Q as (_ & _ & Q & _). rewrite Q in E. exfalso. apply (f_equal (@length nat)) in E. simpl in E. lia.
      + destruct Q as (Q1 & Q & _). rewrite Q in E. exfalso. pose proof (drop_length _ _ (proj1 (K_refs _ HK)) Q1) as HL. rewrite E in HL. lia.
    - rewrite E. pose proof (at_ring _ _ _ _ _ _ _ _ _ HK Hs E) as (_ & _ & -> & _). simpl. lia.
    - rewrite E. pose proof (at_ring _ _ _ _ _ _ _ _ _ HK Hs E) as (Q1 & -> & _). simpl.
      pose proof (drop_length _ _ (proj1 (K_refs _ HK)) Q1). lia.
    - destruct (Hub h). rewrite ring_of_app, E. now left.
  Qed.
  Lemma release_le es s : crun es s -> ring_calm W cap es ->
    count is_release (ring_of es) <= count is_take (ring_of es) <= count is_reserve (ring_of es).
  Proof.
    intros Hr HC. pose proof (refs_count _ _ Hr HC). pose proof (counts_now W cap pol Hwf _ _ (crun_ring _ _ _ _ _ _ Hr) HC). lia.
  Qed.

  (** ** Whoever waits, or is about to, has seen the queue full *)
  Definition fwants (t : tpc) : Prop :=
    match t with TCall _ | TWait _ | TPark => True | TNew => async = false | _ => False end.
  Lemma full_step es s a s' l i : crun es s -> ring_calm W cap es -> cstep_sys s a = Some (s', l) -> ring_of l = [RetFull i] ->
    occupancy (ring_of es) = cap.
  Proof.
    intros Hr HC Hs Hl. pose proof (crun_ring _ _ _ _ _ _ Hr) as Hrr.
    destruct (moved_step _ _ _ _ _ _ _ _ Hs) as [_ _ _ E _ _|a0 r e He _ _ _ E _ _|a0 r e He _ _ _ E _ _|a0 r e He _ _ _ E _ _]; rewrite Hl in E; try discriminate.
    destruct e as [e|]; [injection E as <-|discriminate].
    destruct (r_event _ _ _ _ _ _ He) as [[spur ->] _]. exact (full_now W cap pol Hwf _ _ _ _ _ Hrr HC He).
  Qed.
  Lemma cap_pos : 0 < cap.
  Proof. apply Hwf. Qed.
  Lemma fwants_run es s : crun es s -> ring_calm W cap es -> forall i, fwants (ch_tx s i) -> 0 < count is_reserve (ring_of es).
  Proof.
    intros Hr. induction Hr as [|es s a s' l Hr IH Hs]; [simpl; contradiction|]. intros HC. pose proof (calm_tail _ _ HC) as HC0. specialize (IH HC0).
    rewrite ring_of_app, count_app.
    assert (Hfull : (exists i, ring_of l = [RetFull i]) -> 0 < count is_reserve (ring_of l) + count is_reserve (ring_of es)).
    { intros [i Hi]. pose proof (full_step _ _ _ _ _ _ Hr HC0 Hs Hi) as Hf. unfold occupancy in Hf. pose proof cap_pos. lia. }
    assert (Hold : 0 < count is_reserve (ring_of es) -> 0 < count is_reserve (ring_of l) + count is_reserve (ring_of es)) by lia.
    intros j. ccases Hs a; cbn; intros Hj; try (apply Hold, (IH j); exact Hj).
    all: match type of Hj with fwants (tset _ ?i _ _) => destruct (Nat.eq_dec j i) as [->|Hji]; [rewrite tset_same in Hj|rewrite tset_other in Hj by assumption; apply Hold, (IH j); exact Hj] end.
    all: cbn in Hj; try contradiction; try congruence.
    all: try (match goal with H : push_ret ?o = Some PushFull |- _ => apply Hfull; destruct o as [[]|]; try discriminate H; simpl; eauto end).
    all: try (apply Hold); match goal with H : ch_tx _ ?i = _ |- _ => apply (IH i); rewrite H; cbn; auto end.
  Qed.

  (** ** Sends that will try again *)
  (** Inside push_ref, before it is known whether it succeeds. *)
  Definition undecided (p : pc) : bool := match p with PInit _ => false | _ => pushing p end.
  (** The send has been told that there is room and has not tried since. *)
  Definition retry (s : @chan T) (i : nat) : Prop :=
    match ch_tx s i with
    | TAgain _ => True
    | TPush _ => undecided (st_agents (ch_ring s) i) = true
    | TWait _ => qretry (q_pc (ch_queue s) i) (n_state (q_heap (ch_queue s) i))
    | TCall SQueued | TPark => n_state (q_heap (ch_queue s) i) = Q_WAKING
    | _ => False
    end.
  Lemma r_undecided s i spur s' e : step P pol s (AStep i spur) = Some (s', e) -> undecided (st_agents s i) = true ->
    (e = None /\ undecided (st_agents s' i) = true) \/ e = Some (Reserve i) \/ e = Some (RetFull i) \/ e = Some (RetPushClosed i) \/ e = Some (UB i).
  Proof.
    intros Hs Hu. cbn [step] in Hs. destruct (stepping (st_agents s i)) eqn:Est; [|discriminate].
    destruct (st_agents s i) eqn:E; try discriminate Est; try discriminate Hu; unfold cstep, push_top, idx_gen in Hs; wcs Hs; injection Hs as <- <-;
      repeat match goal with H : (_, _) = (_, _) |- _ => injection H; clear H; intros; subst end; cbn [st_agents]; rewrite ?CoreInv.upd_same; auto.
  Qed.

  Definition no_qub (l : list (cevent T)) := forall k, ~ In (EUb k) (queue_of l).
  Definition no_qfail (l : list (cevent T)) := forall k, ~ In (EAssert k) (queue_of l).

  (** The sending process that makes the step. *)
  Definition actor (a : @caction T) : option nat :=
    match a with
    | CSend i _ | CTx i _ _ | CResume i | CDropSendRef i | CPanic i | CFree i | CCancel i | CTimeout i | CDropTx i _ | CDropRefOn _ i => Some i
    | _ => None
    end.
  Lemma r_others r a r' e i : step P pol r a = Some (r', e) ->
    match a with AWrite _ _ => True | AInvoke j _ | AStep j _ | ADrop j | APanic j | AClose j _ => j <> i end -> st_agents r' i = st_agents r i.
  Proof.
    intros Hs Hi. destruct a as [j o|j spur|j v|j|j|j pan].
    - destruct (r_invoke _ _ _ _ _ _ _ Hs) as (_ & _ & _ & _ & H). apply H. congruence.
    - destruct (r_own _ _ _ _ _ _ _ Hs) as (H & _). apply H. congruence.
    - destruct (r_write _ _ _ _ _ _ _ Hs) as (_ & ->). reflexivity.
    - destruct (r_drop _ _ _ _ _ _ Hs) as (_ & H & _). apply H. congruence.
    - destruct (r_panic _ _ _ _ _ _ Hs) as (_ & _ & H). apply H. congruence.
    - destruct (r_close _ _ _ _ _ _ _ Hs) as (_ & _ & ->). reflexivity.
  Qed.
  (** The others stay where they are. *)
  Lemma frame (es : list (cevent T)) s a s' l i : Link s -> QInv (queue_of es) (ch_queue s) -> cstep_sys s a = Some (s', l) -> no_qub l -> Nat.even i = false -> actor a <> Some i ->
    ch_tx s' i = ch_tx s i /\ st_agents (ch_ring s') i = st_agents (ch_ring s) i /\
    q_pc (ch_queue s') i = q_pc (ch_queue s) i /\ q_phase (ch_queue s') i = q_phase (ch_queue s) i /\
    (~ In i (waiting (queue_of es)) -> n_state (q_heap (ch_queue s') i) = n_state (q_heap (ch_queue s) i)).
  Proof.
    intros HK HI Hs Hub Hev Ha. assert (H0 : i <> 0) by (intros ->; discriminate).
    ccases Hs a; cbn [actor] in Ha; cbn [ch_tx ch_ring ch_queue on_ring on_cell on_queue on_tx on_rx on_count on_live on_refs on_out finish]; auto 6.
    all: try (rewrite tset_other by congruence).
    all: split; [reflexivity|].
    all: try (match goal with H : qstep_sys _ _ ?a = Some (?q, ?o) |- _ =>
      split; [reflexivity|]; refine (q_frame _ _ _ _ _ _ _ HI H _ _);
      [intros k ->; apply (Hub k); rewrite ?queue_of_app; simpl; now left|cbn [q_actor]; congruence] end).
    all: try (split; [|auto]; match goal with H : step _ _ _ _ = Some _ |- _ => refine (r_others _ _ _ _ _ H _) end).
    all: try congruence.
    all: auto.
    all: frs; refs; intros ->.
    all: try (match goal with H : ch_rx _ = _ |- _ => pose proof (K_use _ HK i ltac:(rewrite H; reflexivity)) as [? _] end; congruence).
    all: match goal with H : In _ (ch_refs _) |- _ => apply (proj2 (K_refs _ HK)) in H; congruence end.
  Qed.

  (** A send that will try again goes on to do so. *)
  Lemma retry_step (es : list (cevent T)) s a s' l i : Link s -> QInv (queue_of es) (ch_queue s) -> cstep_sys s a = Some (s', l) ->
    no_qub l -> no_qfail l -> (forall j, ~ In (Cancelled j) l) ->
    retry s i -> retry s' i \/ (exists e, ring_of l = [e] /\ (e = Reserve i \/ e = RetFull i \/ e = RetPushClosed i \/ e = UB i)).
  Proof.
    intros HK HI Hs Hub Hnf Hnc HR.
    assert (Hw : n_state (q_heap (ch_queue s) i) = Q_WAKING -> ~ In i (waiting (queue_of es))).
    { intros H1 H2. rewrite (I_wait _ _ HI _ H2) in H1. discriminate H1. }
    assert (Hne : ch_tx s i <> TNone) by (intros E; unfold retry in HR; rewrite E in HR; exact HR).
    destruct (tx_odd _ _ HK Hne) as [Hev H0].
    assert (Hd : {actor a = Some i} + {actor a <> Some i}) by (decide equality; apply Nat.eq_dec). destruct Hd as [Ha|Ha].
    2:{ left. destruct (frame _ _ _ _ _ _ HK HI Hs Hub Hev Ha) as (E1 & E2 & E3 & _ & E5). unfold retry in *. rewrite E1, E2, E3.
        destruct (ch_tx s i); try exact HR; [destruct st; try exact HR; rewrite E5; auto| |rewrite E5; auto].
        destruct (q_pc (ch_queue s) i) as [| | | | | | | | |[]|[]| | | | | | | | | | | | | | | | | | | | | | | | |]; cbn in HR |- *; auto; try (rewrite E5; auto). }
    assert (Hst : forall a' q' o, qstep_sys debug (ch_queue s) a' = Some (q', o) -> (forall k, o <> Some (EUb k)) ->
      match a' with QNew j => j <> i | QStep j _ => j = i -> forall w, q_pc (ch_queue s) i <> SSwap w | _ => True end ->
      n_state (q_heap (ch_queue s) i) = Q_WAKING -> n_state (q_heap q' i) = Q_WAKING).
    { intros a' q' o H1 H2 H3 H4. rewrite (state_stays _ _ _ _ _ _ _ HI H1 H2 (Hw H4) H3). exact H4. }
    unfold retry in HR.
    ccases Hs a; cbn [actor] in Ha; try discriminate Ha; injection Ha as ->; frs; rewrite ?Heqt, ?Heqt0 in HR; try contradiction; try congruence.
    all: unfold retry; cbn [ch_tx ch_ring ch_queue on_ring on_cell on_queue on_tx on_rx on_count on_live on_refs on_out finish]; rewrite ?tset_same, ?Heqt; auto.
    all: try (destruct (Hnc i); now left).
    all: try (match goal with H : step _ _ _ (AStep _ _) = Some _ |- _ => destruct (r_undecided _ _ _ _ _ H HR) as [[-> Hu]|[->|[->|[->| ->]]]] end;
      try (match goal with H : push_ret _ = _ |- _ => discriminate H end); first [left; exact Hu|right; simpl; eauto 8]; fail).
    all: try (match goal with H : step _ _ _ (APanic _) = Some _ |- _ => destruct (r_panic _ _ _ _ _ _ H) as (_ & (t & E & _) & _); rewrite E in HR; discriminate end).
    all: try (match goal with H : step _ _ _ (AInvoke _ _) = Some _ |- _ => destruct (r_invoke _ _ _ _ _ _ _ H) as (_ & _ & _ & -> & _) end; now left).
    all: try (match goal with H : qstep_sys _ _ (QStep _ _) = Some _ |- _ => cbn [qstep_sys] in H; pose proof (qretry_step _ _ _ _ _ _ H) as Q end;
      match goal with H : queue_ret _ = _ |- _ => rewrite H in Q end; 
      match type of Q with ?A -> ?B -> _ => assert (H1 : A) by (intros ->; apply (Hub i); simpl; auto); assert (H2 : B) by (intros ->; apply (Hnf i); simpl; auto); specialize (Q H1 H2 HR) end;
      try contradiction; left; exact Q).
    left. destruct (q_cont _ _ _ _ _ _ Heqo) as (-> & _ & _ & -> & _). cbn. apply (Hst _ _ _ Heqo); [discriminate|exact I|exact HR].
  Qed.

  (** ** How the channel is used *)
  Definition nice (es : list (cevent T)) : Prop := memory_ok es /\ one_receiver es /\ no_cancel es /\ ring_calm W cap es.
  Lemma nice_tail l es : nice (l ++ es) -> nice es.
  Proof.
    intros (H1 & H2 & H3 & H4). split; [exact (memory_tail _ _ H1)|]. split; [|split].
    - intros i Hi. apply H2. rewrite queue_of_app. apply in_or_app. now right.
    - intros i Hi. apply (H3 i). apply in_or_app. now right.
    - exact (calm_tail _ _ H4).
  Qed.
  Record known (es : list (cevent T)) (s : @chan T) : Prop := {
    k_link : Link s;
    k_run : qrun debug (queue_of es) (ch_queue s);
    k_inv : QInv (queue_of es) (ch_queue s);
    k_closed : CInv (queue_of es) (ch_queue s);
    k_notify : NInv 0 (queue_of es) (ch_queue s);
    k_fail : no_failure (queue_of es) }.
  Lemma known_run es s : crun es s -> nice es -> known es s.
  Proof.
    intros Hr (H1 & H2 & H3 & H4). pose proof (crun_queue _ _ _ _ _ _ Hr) as Hq. pose proof (solo_run _ _ _ _ _ _ Hr H1 H2 H3) as Hso.
    destruct (ninv_run 0 debug _ _ Hq Hso) as [HN HF].
    constructor; auto; [exact (link_run _ _ _ _ _ _ Hr)|apply (qrun_inv _ _ _ Hq H1)|exact (cinv_run _ _ _ Hq (proj1 Hso))].
  Qed.

  Lemma dead_phase es s : crun es s -> nice es -> forall i, ch_tx s i = TDead -> q_phase (ch_queue s) i <> PWaiting.
  Proof.
    intros Hr. induction Hr as [|es s a s' l Hr IH Hs]; [discriminate|]. intros HN. specialize (IH (nice_tail _ _ HN)).
    pose proof (known_run _ _ Hr (nice_tail _ _ HN)) as K. pose proof (known_run _ _ (crun_step _ _ _ _ _ _ _ _ _ Hr Hs) HN) as K'.
    pose proof (k_link _ _ K) as HK. pose proof (k_fail _ _ K') as HF. destruct HN as (Hub & _). unfold memory_ok, no_ub in Hub. unfold no_failure in HF.
    rewrite queue_of_app in Hub, HF. intros j Hj. clear K K'.
    assert (Hev : Nat.even j = false /\ j <> 0) by (apply (tx_odd _ _ (link_step _ _ _ _ _ _ _ _ HK Hs)); rewrite Hj; discriminate). destruct Hev as [Hev H0].
    pose proof (K_q _ HK j H0) as Kj. specialize (IH j).
    ccases Hs a; cbn in Hj |- *; try (apply IH; exact Hj).
    all: try match type of Hj with tset _ ?i _ _ = _ => destruct (Nat.eq_dec j i) as [->|Hji]; [rewrite tset_same in Hj; try discriminate Hj|rewrite tset_other in Hj by assumption] end.
    all: try (apply IH; exact Hj).
    all: try match goal with H : qstep_sys _ _ ?a = Some _ |- _ => destruct (q_others _ _ _ _ _ (q_actor a) H eq_refl j) as [_ ->]; [cbn; congruence|]; apply IH; exact Hj end.
    all: try match goal with H : queue_ret ?o = Some Failed |- _ => exfalso; destruct o as [[]|]; try discriminate H; [eapply Hub|eapply HF]; simpl; left; reflexivity end.
    match goal with H : ch_tx _ _ = TPush ?st |- _ => rewrite H in Kj; destruct Kj as [_ Kj]; destruct st; simpl in Kj; intros E; rewrite E in Kj end; try discriminate Kj; destruct Kj; discriminate.
  Qed.

  (** Where a waiter in the list is. *)
  Lemma waiting_where es s n : crun es s -> nice es -> In n (waiting (queue_of es)) ->
    n <> 0 /\
    match ch_tx s n with
    | TCall SQueued | TPark => True
    | TWait _ => match q_pc (ch_queue s) n with CLoad _ | CLock _ | CLoad2 _ | CUpd _ | SUnlock Wait | SRet Wait => True | _ => False end
    | _ => False
    end.
  Proof.
    intros Hr HN Hin. pose proof (known_run _ _ Hr HN) as K. pose proof (k_link _ _ K) as HK.
    pose proof (I_node _ _ (k_inv _ _ K) n) as HI.
    assert (H0 : n <> 0).
    { intros ->. pose proof (rx_in_queue _ HK) as Hx. destruct (K_q0 _ HK) as [_ Hp]. rewrite Hp in HI.
      destruct (q_pc (ch_queue s) 0); simpl in Hx; try contradiction; cbn in HI; tauto. }
    split; [exact H0|]. pose proof (K_q _ HK n H0) as Kq. pose proof (tx_in_queue _ _ HK H0) as Hx.
    assert (Hgone : q_phase (ch_queue s) n <> PGone).
    { intros E. pose proof (gone_unqueued _ _ _ (k_run _ _ K) (proj1 HN) n E Hin) as Ht.
      destruct HN as (_ & _ & Hc & _). apply (Hc n). apply (cancel_events _ _ _ _ _ _ _ Hr). now right. }
    pose proof (dead_phase _ _ Hr HN n) as Hd.
    assert (Hdrop : kind (q_pc (ch_queue s) n) <> KDrop).
    { intros E. destruct (binv_run _ _ _ (k_run _ _ K) (proj1 HN) n) as (_ & B2).
      destruct HN as (_ & _ & Hc & _). apply (Hc n). apply (cancel_events _ _ _ _ _ _ _ Hr). left. apply in_drop_in.
      rewrite (proj1 B2). destruct (q_pc (ch_queue s) n); try discriminate; reflexivity. }
    clear K Hr HN. destruct (ch_tx s n) eqn:Et; cbn [qlink] in Kq; conj.
    all: try (match goal with H : q_pc _ _ = QIdle |- _ => rewrite H in HI; cbn [node_ok] in HI end; destruct (q_phase (ch_queue s) n); cbn [rest] in HI; try discriminate; try congruence; try tauto; fail).
    all: try (match goal with H : q_pc _ _ = QIdle |- _ => rewrite H in HI; cbn [node_ok] in HI end; destruct st; cbn [stage_ok call_ok] in *; 
      destruct (q_phase (ch_queue s) n); cbn [rest] in HI; try tauto; disj; try discriminate; fail).
    all: destruct (q_pc (ch_queue s) n) as [| | | | | | | | |[]|[]| | | | | | | | | | | | | | | | | | | | | | | | |]; try discriminate; try exact I; try (destruct Hdrop; reflexivity);
      cbn [node_ok] in HI; try tauto.
    all: destruct (q_phase (ch_queue s) n); cbn [rest] in HI; try tauto; disj; try discriminate; try tauto.
    all: exfalso; clear Hx; conj; disj; try discriminate; try tauto.
  Qed.

  (** ** Room is always announced *)
  Definition before_take (p : qpc) : bool := match p with TLoad | TCas _ | TLock _ | TSlow _ => true | _ => false end.
  Lemma notify_own es q i spur q' e : QInv es q -> CInv es q -> NInv 0 es q -> qstep debug q i spur = Some (q', e) -> e <> Some (EUb i) ->
    before_take (q_pc q i) = true ->
    (e = None /\ before_take (q_pc q' i) = true) \/ e = Some (EStored i) \/ (exists n r, waiting es = n :: r /\ e = Some (ESwap i n Q_WAKING)).
  Proof.
    intros HI HC HN Hs Hub Hb. destruct (q_pc q i) eqn:E; try discriminate Hb.
    4:{ destruct (slow_takes 0 _ _ _ _ _ _ _ _ HI HC HN E Hs Hub) as (n & r & H1 & H2 & _). eauto 6. }
    all: unfold qstep in Hs; rewrite E in Hs; cbn match in Hs.
    - injection Hs as <- <-. left. split; [reflexivity|]. cbn. rewrite pset_same. unfold n_dispatch. destruct (_ || _); reflexivity.
    - destruct (_ && _); injection Hs as <- <-; auto. left. split; [reflexivity|]. cbn. rewrite pset_same. unfold n_dispatch. destruct (_ || _); reflexivity.
    - destruct (q_lock q); [discriminate|]. injection Hs as <- <-. left. split; [reflexivity|]. cbn. now rewrite pset_same.
  Qed.

  Inductive DInv (es : list (cevent T)) (s : @chan T) : Prop :=
  | D_new : count is_reserve (ring_of es) = 0 -> DInv es s
  | D_closed : closed_in (ring_of es) = true -> DInv es s
  | D_room : count is_release (ring_of es) < count is_reserve (ring_of es) -> DInv es s
  | D_rx : ch_rx s = RDropped -> DInv es s
  | D_out i : ch_tx s i = UDropped -> DInv es s
  | D_notify : ch_rx s = RNotify -> before_take (q_pc (ch_queue s) 0) = true -> DInv es s
  | D_stored : stored (queue_of es) = true -> DInv es s
  | D_retry i : retry s i -> DInv es s.

  Lemma dinv_step es s a s' l : crun es s -> nice (l ++ es) -> DInv es s -> cstep_sys s a = Some (s', l) -> DInv (l ++ es) s'.
  Proof.
    intros Hr HN HD Hs. pose proof (nice_tail _ _ HN) as HN0. pose proof (known_run _ _ Hr HN0) as K.
    pose proof (crun_step _ _ _ _ _ _ _ _ _ Hr Hs) as Hr'. pose proof (known_run _ _ Hr' HN) as K'.
    pose proof (k_link _ _ K) as HK. pose proof (k_inv _ _ K) as HI.
    destruct HN as (Hub & Hone & Hnc & Hcalm). pose proof (proj2 (proj2 (proj2 HN0))) as Hcalm0.
    assert (Hubl : no_qub l). { intros k Hk. apply (Hub k). rewrite queue_of_app. apply in_or_app. now left. }
    assert (Hfl : no_qfail l). { intros k Hk. apply (k_fail _ _ K' k). rewrite queue_of_app. apply in_or_app. now left. }
    assert (Hncl : forall j, ~ In (Cancelled j) l). { intros j Hj. apply (Hnc j). apply in_or_app. now left. }
    destruct (events_tail _ _ _ _ _ _ _ _ Hs) as (L1 & _ & L3).
    assert (Hring : DInv (l ++ es) s' \/
      ((forall i, ring_of l <> [Reserve i] /\ ring_of l <> [RetFull i] /\ ring_of l <> [RetPushClosed i] /\ ring_of l <> [UB i]) /\
       count is_reserve (ring_of (l ++ es)) = count is_reserve (ring_of es) /\ count is_release (ring_of (l ++ es)) = count is_release (ring_of es) /\
       (closed_in (ring_of es) = true -> closed_in (ring_of (l ++ es)) = true))).
    { destruct (single _ L1) as [E|[e E]].
      { right. rewrite ring_of_app, E. repeat split; try discriminate. auto. }
      pose proof (at_ring _ _ _ _ _ _ _ _ _ HK Hs E) as Q. pose proof (release_le _ _ Hr Hcalm0) as Hle.
      destruct e; cbn beta match in Q;
        try (right; rewrite ring_of_app, E; repeat split; try discriminate; try reflexivity; intros Hc; cbn; rewrite ?orb_true_iff; auto; fail).
      - left. apply D_room. rewrite ring_of_app, E. simpl. lia.
      - left. destruct Q as (_ & _ & [Q|[j Q]]); [now apply D_rx|now apply (D_out _ _ j)].
      - left. apply D_room. rewrite ring_of_app, E. simpl. pose proof (full_step _ _ _ _ _ _ Hr Hcalm0 Hs E) as Hf. unfold occupancy in Hf.
        pose proof cap_pos. lia.
      - left. apply D_closed. unfold ring_calm in Hcalm. pose proof (crun_ring _ _ _ _ _ _ Hr') as Hrr. rewrite ring_of_app, E in *.
        destruct (RingFacts.push_closed_true W cap pol Hwf [] i (ring_of es) (ex_intro _ (ch_ring s') Hrr) Hcalm) as (es0 & Hm & Hc).
        destruct (RingFacts.moment_suffix _ _ _ Hm) as [es' E']. rewrite E'. apply (RingFacts.closed_mono ([RetPushClosed i] ++ es')). exact Hc.
      - exfalso. apply (no_ring_ub _ _ i Hr' Hcalm). rewrite ring_of_app, E. now left. }
    destruct Hring as [Hd|(Hno & Hres & Hrel & Hcl)]; [exact Hd|].
    destruct HD as [H|H|H|H|i H|H1 H2|H|i H].
    - apply D_new. congruence.
    - apply D_closed. auto.
    - apply D_room. congruence.
    - (* the RecvRef's notification is about to start *)
      assert (Hx : ch_rx s' = RDropped \/ (ch_rx s' = RNotify /\ q_pc (ch_queue s') 0 = TLoad)).
      { clear - HK Hs H. ccases Hs a; cbn [ch_rx ch_queue on_ring on_cell on_queue on_tx on_rx on_count on_live on_refs on_out finish]; auto; frs; try congruence.
        all: try (unfold rx_free in *; rewrite H in *; discriminate).
        right. split; [reflexivity|]. match goal with H : qstep_sys _ _ _ = Some _ |- _ => pose proof (q_notify _ _ _ _ _ H) as Q end. tauto. }
      destruct Hx as [Hx|[H1 H2]]; [now apply D_rx|apply D_notify; [exact H1|now rewrite H2]].
    - (* nobody else notifies *)
      assert (Hx : ch_tx s' i = UDropped \/ queue_of l = [ECallNotify i]).
      { assert (Hd : {actor a = Some i} + {actor a <> Some i}) by (decide equality; apply Nat.eq_dec). 
        destruct (tx_odd _ _ HK ltac:(rewrite H; discriminate)) as [Hev H0]. destruct Hd as [Ha|Ha].
        - right. clear - HK Hs H Ha. ccases Hs a; cbn [actor] in Ha; try discriminate Ha; injection Ha as ->; frs; try congruence.
          match goal with H : qstep_sys _ _ _ = Some _ |- _ => pose proof (q_notify _ _ _ _ _ H) as Q end. conj. subst. reflexivity.
        - left. destruct (frame _ _ _ _ _ _ HK HI Hs Hubl Hev Ha) as (E & _). congruence. }
      destruct Hx as [Hx|Hx]; [now apply (D_out _ _ i)|].
      exfalso. destruct (tx_odd _ _ HK ltac:(rewrite H; discriminate)) as [_ H0]. apply H0. apply Hone. rewrite queue_of_app, Hx. now left.
    - (* the notification takes effect *)
      assert (Hx : (ch_rx s' = RNotify /\ q_pc (ch_queue s') 0 = q_pc (ch_queue s) 0) \/
        (exists spur e, qstep debug (ch_queue s) 0 spur = Some (ch_queue s', e) /\ queue_of l = olist e /\ (queue_ret e = None -> ch_rx s' = RNotify) /\ ch_tx s' = ch_tx s)).
      { clear - HK Hs H1. ccases Hs a; cbn [ch_rx ch_tx ch_queue on_ring on_cell on_queue on_tx on_rx on_count on_live on_refs on_out finish]; auto; frs; try congruence.
        all: try (unfold rx_free in *; rewrite H1 in *; discriminate).
        all: try (right; match goal with H : qstep_sys _ _ (QStep 0 _) = Some _ |- _ => cbn [qstep_sys] in H; eexists; eexists; split; [exact H|] end;
          rewrite ?queue_of_app; split; [match goal with |- context [olist ?o] => destruct o; reflexivity end|]; split; [congruence|reflexivity]).
        all: odds HK; left; split; [assumption|]; match goal with H : qstep_sys _ _ ?a = Some _ |- _ => apply (q_others _ _ _ _ _ (q_actor a) H eq_refl 0); cbn; congruence end. }
      destruct Hx as [[Hx Hy]|(spur & e & Hq & Hl & Hret & Htx)]; [apply D_notify; congruence|].
      assert (Hue : e <> Some (EUb 0)). { intros ->. apply (Hubl 0). rewrite Hl. now left. }
      destruct (notify_own _ _ _ _ _ _ HI (k_closed _ _ K) (k_notify _ _ K) Hq Hue H2) as [[-> Hb]|[->|(n & r & Hw & ->)]].
      + apply D_notify; [apply Hret; reflexivity|exact Hb].
      + apply D_stored. rewrite queue_of_app, Hl. reflexivity.
      + apply (D_retry _ _ n). destruct (waiting_where _ _ n Hr HN0 ltac:(rewrite Hw; now left)) as [H0 Hn].
        destruct (qstep_states _ _ _ _ _ _ _ HI Hq Hue) as [(n' & st & q & E1 & _ & E2 & _ & _ & Hst)|[Hbad _]]; [|destruct (Hbad n Q_WAKING eq_refl)].
        injection E1 as <- <-. specialize (Hst n). rewrite Nat.eqb_refl in Hst.
        assert (Hpc : q_pc (ch_queue s') n = q_pc (ch_queue s) n) by (apply (qstep_agent _ _ _ _ _ _ Hq); exact H0).
        unfold retry. rewrite Htx, Hpc, Hst. destruct (ch_tx s n); try contradiction; auto.
        * destruct st; try contradiction; reflexivity.
        * destruct (q_pc (ch_queue s) n) as [| | | | | | | | |[]|[]| | | | | | | | | | | | | | | | | | | | | | | | |]; cbn in Hn |- *; try contradiction; auto.
    - (* a stored notification is consumed by a send that tries again *)
      destruct (single _ L3) as [E|[e E]]; [apply D_stored; rewrite queue_of_app, E; exact H|].
      assert (Hd : (exists j, e = EConsumed j) \/ stored (e :: queue_of es) = true) by (destruct e; cbn; eauto).
      destruct Hd as [[j ->]|Hd]; [|apply D_stored; rewrite queue_of_app, E; exact Hd].
      apply (D_retry _ _ j).
      destruct (moved_step _ _ _ _ _ _ _ _ Hs) as [_ _ _ _ _ E0|a0 r e He _ _ _ _ _ E0|a0 r e He _ _ _ _ _ E0|a0 r e He _ _ Eq _ _ E0]; rewrite E in E0; try discriminate.
      destruct e as [e|]; [injection E0 as <-|discriminate]. destruct (q_event _ _ _ _ _ He) as (_ & Hc & Hp).
      assert (H0 : j <> 0).
      { intros ->. pose proof (rx_in_queue _ HK) as Hx. destruct (q_pc (ch_queue s) 0); try discriminate Hc; exact Hx. }
      pose proof (tx_in_queue _ j (k_link _ _ K') H0) as Hx. unfold retry.
      rewrite Eq in *. destruct Hp as [Hp|Hp]; rewrite Hp in Hx |- *; destruct Hx as [st Hx]; rewrite Hx; exact I.
    - destruct (retry_step _ _ _ _ _ _ HK HI Hs Hubl Hfl Hncl H) as [Hx|(e & E & Hx)]; [now apply (D_retry _ _ i)|].
      exfalso. destruct (Hno i) as (N1 & N2 & N3 & N4). destruct Hx as [->|[->|[->| ->]]]; contradiction.
  Qed.
  Lemma dinv_run es s : crun es s -> nice es -> DInv es s.
  Proof.
    induction 1 as [|es s a s' l Hr IH Hs]; intros HN; [now apply D_new|].
    exact (dinv_step _ _ _ _ _ Hr HN (IH (nice_tail _ _ HN)) Hs).
  Qed.
End Send.
