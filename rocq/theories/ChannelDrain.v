(** What the receiver gets at the end. *)
From Coq Require Import List Bool Arith NArith Lia.
From Verif Require CoreInv CoreStep RingFacts.
From Verif Require Import CoreArith RingSpec.
From Verif Require Import QueueSpec CoreModel WaitCellModel WaitList WaitListSpec WaitQueueModel WaitQueueSpec WaitQueueFacts WaitQueueWake.
From Verif Require WaitCellSpec WaitCellFacts WaitCellTheorems.
From Verif Require Import ChannelModel ChannelSpec ChannelFacts ChannelLink ChannelEvents ChannelRing ChannelQueue ChannelInv ChannelSend ChannelStop ChannelRecv ChannelEnd.
From Verif Require Import History.
Import ListNotations.

Lemma app_cut {A} (l es es2 es1 : list A) x : l ++ es = es2 ++ x :: es1 ->
  (exists l2, l = es2 ++ x :: l2 /\ es1 = l2 ++ es) \/ (exists es2', es2 = l ++ es2' /\ es = es2' ++ x :: es1).
Proof.
  revert es2. induction l as [|y l IH]; intros es2 H; [right; exists es2; auto|].
  destruct es2 as [|z es2]; simpl in H; injection H as -> H.
  - left. exists l. split; [reflexivity|congruence].
  - destruct (IH _ H) as [(l2 & -> & E)|(es2' & -> & E)]; [left; exists l2; auto|right; exists es2'; auto].
Qed.

Section Drain.
  Context {T : Type}.
  Variables (W : N) (cap : nat) (pol : policy T) (async debug : bool).
  Hypothesis Hwf : wf W cap.
  Notation P := (core_new W (N.of_nat cap)).
  Notation B := (slack W cap).
  Notation cstep_sys := (@cstep_sys T P pol async debug).
  Notation crun := (@crun T P pol async debug).
  Local Arguments drop_id : simpl never.

  (** The step that left an event. *)
  Lemma crun_cut es s : crun es s -> forall es2 e es1, es = es2 ++ e :: es1 ->
    exists es0 s0 a s1 l1 l2, crun es0 s0 /\ cstep_sys s0 a = Some (s1, l1 ++ e :: l2) /\ es1 = l2 ++ es0.
  Proof.
    induction 1 as [|es s a s' l Hr IH Hs]; intros es2 e es1 E; [destruct es2; discriminate|].
    destruct (app_cut _ _ _ _ _ E) as [(l2 & -> & ->)|(es2' & -> & ->)]; [|exact (IH _ _ _ eq_refl)].
    exists es, s, a, s', es2, l2. auto.
  Qed.

  Lemma recvd_step s a s' l1 l2 r : cstep_sys s a = Some (s', l1 ++ Recvd r :: l2) ->
    exists h k e spur, l1 = [] /\ l2 = [OnRing e] /\ a = CRx spur /\ ch_rx s = RPop h k /\ step P pol (ch_ring s) (AStep h spur) = Some (ch_ring s', Some e) /\
      match e with
      | Take h' v => h' = h /\ r = RecvMsg h v /\ ch_rx s' = RIdle
      | RetPopClosed h' => h' = h /\ r = (match k with KTry => RecvClosed | _ => RecvNone end) /\ ch_rx s' = RIdle
      | RetEmpty h' => h' = h /\
          match k with
          | KTry => r = RecvEmpty /\ ch_rx s' = RIdle | KFirst _ => False
          | KAgain w => r = RecvPending /\ ch_rx s' = RPark w | KLast => r = RecvNone /\ ch_rx s' = RIdle end
      | _ => False
      end.
  Proof.
    intros Hs. remember (l1 ++ Recvd r :: l2) as l eqn:El. ccases Hs a; cbn [ch_ring ch_rx on_ring on_cell on_queue on_tx on_rx on_count on_live on_refs on_out finish] in *;
      try (destruct l1 as [|x [|y l1]]; discriminate El);
      try (destruct o as [o|]; destruct l1 as [|x [|y [|z l1]]]; discriminate El).
    all: match goal with H : pop_ret ?o = _ |- _ => destruct o as [[]|]; try discriminate H; pose proof H as Hret end.
    all: destruct l1 as [|x [|y [|z l1]]]; try discriminate El; injection El as <- <-.
    all: match goal with H : step _ _ _ _ = Some (_, Some _) |- _ => destruct (r_event _ _ _ _ _ _ H) as [[sp Q] _] end.
    all: injection Q as <- <-; try (injection Hret as ->).
    all: do 4 eexists; repeat (split; [reflexivity || eassumption|]); cbn; auto.
  Qed.

  Lemma to_pop_invoke s a s' l h k : cstep_sys s a = Some (s', l) -> ch_rx s = RAgain h k -> ch_rx s' = RPop h k -> ring_of l = [Invoke h OpPop].
  Proof.
    intros Hs H1 H2. ccases Hs a; cbn [ch_ring ch_rx on_ring on_cell on_queue on_tx on_rx on_count on_live on_refs on_out finish] in *; try congruence.
    destruct (r_invoke _ _ _ _ _ _ _ Heqo) as (_ & -> & _). injection H2 as <- <-. reflexivity.
  Qed.

  (** Nobody overtakes the only receiver. *)
  Lemma alone_run es s : crun es s -> forall h k, ch_rx s = RPop h k -> count_since is_take h (ring_of es) = 0.
  Proof.
    induction 1 as [|es s a s' l Hr IH Hs]; intros h k Hx; [discriminate|]. pose proof (link_run _ _ _ _ _ _ Hr) as HK. rewrite ring_of_app.
    destruct (rx_to_pop _ _ _ _ _ _ _ _ _ _ _ HK Hs Hx) as [[H1 _]|[H1 _]].
    - rewrite (to_pop_invoke _ _ _ _ _ _ Hs H1 Hx). cbn. now rewrite Nat.eqb_refl.
    - destruct (events_tail _ _ _ _ _ _ _ _ Hs) as (L1 & _). destruct (single _ L1) as [->|[e El]]; [exact (IH _ _ H1)|].
      pose proof (at_ring _ _ _ _ _ _ _ _ _ HK Hs El) as Q. rewrite El. cbn [app count_since]. rewrite (IH _ _ H1).
      destruct (is_invoke h e); [reflexivity|]. destruct e; try reflexivity. destruct Q as (_ & Q & _). congruence.
  Qed.

  (** The last pop of poll_recv_ref is made when the cell is closed. *)
  Definition lasts (r : rpc) : bool := match r with RAgain _ KLast | RPop _ KLast => true | _ => false end.
  Lemma last_run es s : crun es s -> lasts (ch_rx s) = true -> WaitCellSpec.closed_in (cell_of es) = true.
  Proof.
    induction 1 as [|es s a s' l Hr IH Hs]; intros Hx; [discriminate|]. pose proof (link_run _ _ _ _ _ _ Hr) as HK.
    destruct (lasts (ch_rx s)) eqn:E; [apply cell_closed_mono; auto|]. clear IH.
    pose proof (crun_cell _ _ _ _ _ _ (crun_step _ _ _ _ _ _ _ _ _ Hr Hs)) as Hc.
    apply cell_closed_mono. rewrite cell_of_app in Hc.
    ccases Hs a; cbn [ch_ring ch_rx on_ring on_cell on_queue on_tx on_rx on_count on_live on_refs on_out finish] in *; rewrite ?Heqr in *; try congruence; try discriminate.
    - destruct k; discriminate.
    - match goal with H : cell_ret ?o = _ |- _ => destruct o as [[]|]; try discriminate H; injection H as -> end. exact (WaitCellFacts.closed_truthful debug [] _ _ _ Hc).
  Qed.

  (** Without Senders nobody writes. *)
  Lemma zero_live (s : @chan T) i : Link s -> ch_count s = 0 -> active (ch_tx s i) = false.
  Proof.
    intros HK H0. destruct (active (ch_tx s i)) eqn:E; [|reflexivity]. apply (K_live _ HK) in E. rewrite (K_zero _ HK H0) in E. contradiction.
  Qed.
  Lemma zero_done es s : crun es s -> no_user_panic es -> ch_count s = 0 -> forall i, mid_push (st_agents (ch_ring s) i) = false.
  Proof.
    intros Hr Hp H0 i. pose proof (link_run _ _ _ _ _ _ Hr) as HK. pose proof (zero_live _ i HK H0) as HL. destruct (Nat.even i) eqn:E.
    - destruct (K_h _ HK i E) as [H1 H2]. destruct (in_dec Nat.eq_dec i (ch_refs s)) as [H|H].
      + destruct (H1 H) as [x ->]. reflexivity.
      + specialize (H2 H). destruct (ch_rx s); try (rewrite H2; reflexivity). destruct (Nat.eqb h i); [|now rewrite H2]. destruct (st_agents (ch_ring s) i); try discriminate H2; reflexivity.
    - pose proof (K_r _ HK i E) as Kr. destruct (ch_tx s i); try discriminate HL; try (rewrite Kr; reflexivity).
      destruct Kr as [->|[x Kr]]; [reflexivity|]. destruct (Hp i). apply in_ring. exact (pdead_poison W cap pol _ _ _ _ (crun_ring _ _ _ _ _ _ Hr) Kr).
  Qed.

  (** When the last pop finds the front unwritten, it stays so. *)
  Definition blind (s : @chan T) : Prop := match ch_rx s with RPop h KLast => exists t b, st_agents (ch_ring s) h = QTail t b | _ => False end.
  Lemma blind_start es s a s' l : crun es s -> ring_calm W cap es -> cstep_sys s a = Some (s', l) -> blind s' ->
    blind s \/ (ring_of l = [] /\ committed (ring_of es) (count is_take (ring_of es)) = None).
  Proof.
    intros Hr HC Hs Hp. pose proof (link_run _ _ _ _ _ _ Hr) as HK. pose proof (crun_ring _ _ _ _ _ _ Hr) as Hrr.
    unfold blind in Hp. destruct (ch_rx s') as [|?|h [| |w|]| | |w| | | | | | |] eqn:Ex; try contradiction.
    destruct Hp as (t & b & Hp). destruct (rx_to_pop _ _ _ _ _ _ _ _ _ _ _ HK Hs Ex) as [[_ E]|[E1 [E|(spur & e & He & El)]]]; [congruence| |].
    - left. unfold blind. rewrite E1, <- E. eauto.
    - destruct (st_agents (ch_ring s) h) eqn:Ea.
      all: try (left; unfold blind; rewrite E1, Ea; eauto; fail).
      all: pose proof He as He'; cbn [step] in He; rewrite Ea in He; cbn [stepping] in He; try discriminate He; unfold cstep, push_top, idx_gen in He; wcs He;
        try (injection He as H1 H2; rewrite <- H1 in Hp; cbn [st_agents] in Hp; rewrite CoreInv.upd_same in Hp; discriminate Hp).
      injection He as H1 H2. rewrite <- H1 in Hp. cbn [st_agents] in Hp. rewrite CoreInv.upd_same in Hp. injection Hp as -> ->. subst e.
      right. split; [exact El|]. apply (blocked_now W cap pol Hwf (ring_of es) _ h spur (ch_ring s') t b b Hrr HC Ea He'). rewrite <- H1. cbn [st_agents]. apply CoreInv.upd_same.
  Qed.
  Lemma blind_run es s : crun es s -> ring_calm W cap es -> blind s -> committed (ring_of es) (count is_take (ring_of es)) = None.
  Proof.
    induction 1 as [|es s a s' l Hr IH Hs]; intros HC Hb; [contradiction|]. pose proof (calm_tail _ _ _ _ HC) as HC0. pose proof (link_run _ _ _ _ _ _ Hr) as HK.
    rewrite ring_of_app. destruct (blind_start _ _ _ _ _ Hr HC0 Hs Hb) as [H|[-> H]]; [|exact H]. specialize (IH HC0 H).
    destruct (events_tail _ _ _ _ _ _ _ _ Hs) as (L1 & _). destruct (single _ L1) as [->|[e El]]; [exact IH|]. rewrite El.
    pose proof (at_ring _ _ _ _ _ _ _ _ _ HK Hs El) as Q. destruct e; try exact IH.
    - exfalso. assert (H0 : ch_count s = 0).
      { apply (l_cell _ _ _ (linv_run W cap pol async debug Hwf _ _ Hr HC0)), (last_run _ _ Hr). unfold blind in H. destruct (ch_rx s) as [|?|? []| | | | | | | | | |]; try contradiction. reflexivity. }
      pose proof (zero_live _ i HK H0) as HL. rewrite (proj1 Q) in HL. discriminate.
    - exfalso. destruct Q as (_ & Q & _). unfold blind in Hb. now rewrite Q in Hb.
  Qed.

  (** Number of Senders. *)
  Lemma senders_run es s : crun es s -> ch_count s + drops es = 1 + clones es.
  Proof.
    induction 1 as [|es s a s' l Hr IH Hs]; [reflexivity|].
    assert (Hd : drops (l ++ es) = drops l + drops es). { clear. induction l as [|[] l IH]; simpl; congruence. }
    assert (Hc : clones (l ++ es) = clones l + clones es). { clear. induction l as [|[] l IH]; simpl; congruence. }
    rewrite Hd, Hc. clear Hd Hc.
    ccases Hs a; cbn [ch_count on_ring on_cell on_queue on_tx on_rx on_count on_live on_refs on_out finish drops clones app olist map]; try lia.
    all: try (destruct o; cbn; lia).
  Qed.

  (** None and Closed are only reported without Senders and messages. *)
  Lemma none_now es s a s' l1 l2 r : crun es s -> ring_calm W cap es -> cstep_sys s a = Some (s', l1 ++ Recvd r :: l2) -> r = RecvNone \/ r = RecvClosed ->
    ch_count s = 0 /\ committed (ring_of es) (count is_take (ring_of es)) = None /\
    ((closed_in (ring_of es) = true /\ count is_take (ring_of es) = count is_reserve (ring_of es)) \/ WaitCellSpec.closed_in (cell_of es) = true).
  Proof.
    intros Hr HC Hs Hx. pose proof (crun_ring _ _ _ _ _ _ Hr) as Hrr. pose proof (linv_run W cap pol async debug Hwf _ _ Hr HC) as HL.
    destruct (recvd_step _ _ _ _ _ _ Hs) as (h & k & e & spur & -> & -> & -> & E1 & He & Q).
    pose proof (tail_now W cap pol Hwf _ _ _ _ _ _ Hrr HC (alone_run _ _ Hr _ _ E1) He) as [T1 T2].
    destruct e; try contradiction.
    - destruct Q as (_ & -> & _). destruct Hx; discriminate.
    - destruct Q as (-> & Q). destruct k; try contradiction; try (destruct Q as (-> & _); destruct Hx; discriminate).
      assert (Hcl : WaitCellSpec.closed_in (cell_of es) = true) by (apply (last_run _ _ Hr); now rewrite E1).
      split; [exact (l_cell _ _ _ HL Hcl)|]. split; [|auto]. apply (blind_run _ _ Hr HC). unfold blind. rewrite E1. exact (proj2 (r_event _ _ _ _ _ _ He)).
    - destruct Q as (-> & _). destruct (T2 eq_refl) as [T3 T4]. split.
      + destruct (ch_count s) eqn:Ec; [reflexivity|exfalso]. pose proof (l_ring _ _ _ HL ltac:(lia) T3) as Hb. unfold rx_closed in Hb. now rewrite E1 in Hb.
      + split; [|auto]. apply (empty_front W cap pol Hwf _ _ Hrr HC). lia.
  Qed.

  (** Every message was received before. *)
  Lemma none_all es s : crun es s -> ring_calm W cap es -> no_user_panic es -> ch_count s = 0 ->
    committed (ring_of es) (count is_take (ring_of es)) = None -> count is_take (ring_of es) = count is_reserve (ring_of es).
  Proof.
    intros Hr HC Hp H0 Hn. pose proof (crun_ring _ _ _ _ _ _ Hr) as Hrr. pose proof (counts_now W cap pol Hwf _ _ Hrr HC) as [H1 _].
    destruct (Nat.eq_dec (count is_take (ring_of es)) (count is_reserve (ring_of es))) as [E|E]; [exact E|exfalso].
    destruct (front_complete W cap pol Hwf _ _ Hrr HC (zero_done _ _ Hr Hp H0)) as [v Hv]; [lia|congruence].
  Qed.

  Lemma received_app l (es : list (cevent T)) : received (l ++ es) = received es ++ received l.
  Proof. induction l as [|x l IH]; simpl; [now rewrite app_nil_r|]. destruct x; auto. destruct r; auto. now rewrite IH, app_assoc. Qed.
  Lemma taken_app l (es : list (event T)) : taken_values (l ++ es) = taken_values es ++ taken_values l.
  Proof. induction l as [|x l IH]; simpl; [now rewrite app_nil_r|]. destruct x; auto. now rewrite IH, app_assoc. Qed.
  Lemma received_run es s : crun es s -> received es = taken_values (ring_of es).
  Proof.
    induction 1 as [|es s a s' l Hr IH Hs]; [reflexivity|]. pose proof (link_run _ _ _ _ _ _ Hr) as HK.
    rewrite ring_of_app, received_app, taken_app, IH. f_equal. destruct (events_tail _ _ _ _ _ _ _ _ Hs) as (L1 & _).
    assert (Hin : (exists r, In (Recvd r) l) \/ forall r, ~ In (Recvd r) l).
    { clear. induction l as [|x l IH]; [right; auto|]. destruct IH as [[r IH]|IH]; [left; exists r; now right|].
      destruct x; try (right; intros r' [E|E]; [discriminate|exact (IH _ E)]). left. eexists. now left. }
    destruct Hin as [[r Hin]|Hin].
    - apply in_split in Hin. destruct Hin as (l1 & l2 & El). subst l.
      destruct (recvd_step _ _ _ _ _ _ Hs) as (h & k & e & spur & -> & -> & -> & E1 & He & Q).
      destruct e; try contradiction; [destruct Q as (-> & -> & _); reflexivity|destruct Q as (-> & Q)|destruct Q as (-> & -> & _); destruct k; reflexivity].
      destruct k; try contradiction; destruct Q as (-> & _); reflexivity.
    - transitivity (@nil T).
      + clear - Hin. induction l as [|x l IH]; [reflexivity|]. simpl. rewrite IH by (intros r Hr; apply (Hin r); now right). destruct x; try reflexivity. destruct (Hin r). now left.
      + destruct (single _ L1) as [->|[e El]]; [reflexivity|]. rewrite El. destruct e; try reflexivity.
        pose proof (at_ring _ _ _ _ _ _ _ _ _ HK Hs El) as (_ & _ & _ & Q). destruct (Hin _ Q).
  Qed.

  (** ** Afterwards *)
  Definition settled (r : rpc) (c : bool) : Prop :=
    match r with RAgain _ (KAgain _) | RPop _ (KAgain _) | RPark _ => False | RCall _ _ | RWait _ _ => c = true | _ => True end.
  Record over (es : list (cevent T)) (s : @chan T) : Prop := {
    o_count : ch_count s = 0;
    o_front : committed (ring_of es) (count is_take (ring_of es)) = None;
    o_why : (closed_in (ring_of es) = true /\ count is_take (ring_of es) = count is_reserve (ring_of es)) \/ WaitCellSpec.closed_in (cell_of es) = true;
    o_rx : settled (ch_rx s) (WaitCellSpec.closed_in (cell_of es)) }.

  Lemma settled_step es s a s' l : crun es s -> cstep_sys s a = Some (s', l) -> settled (ch_rx s) (WaitCellSpec.closed_in (cell_of es)) ->
    (forall h w, ring_of l = [RetEmpty h] -> ch_rx s = RPop h (KFirst w) -> WaitCellSpec.closed_in (cell_of es) = true) ->
    settled (ch_rx s') (WaitCellSpec.closed_in (cell_of (l ++ es))).
  Proof.
    intros Hr Hs HS He. pose proof (cell_closed_mono l es) as Hm.
    assert (Hsame : ch_rx s' = ch_rx s -> settled (ch_rx s') (WaitCellSpec.closed_in (cell_of (l ++ es)))).
    { intros ->. destruct (ch_rx s); auto; exact (Hm HS). }
    pose proof (crun_cell _ _ _ _ _ _ Hr) as Hc.
    ccases Hs a; try (apply Hsame; reflexivity); cbn [ch_ring ch_rx on_ring on_cell on_queue on_tx on_rx on_count on_live on_refs on_out finish] in *; rewrite ?Heqr in *; try exact I.
    - destruct k; exact HS.
    - apply Hm. match goal with H : pop_ret ?o = _ |- _ => destruct o as [[]|]; try discriminate H end.
      destruct (r_event _ _ _ _ _ _ Heqo) as [[sp Q] _]. injection Q as <- <-. exact (He _ _ eq_refl eq_refl).
    - exact HS.
    - destruct k; exact HS.
    - exact (Hm HS).
    - match goal with H : cell_ret ?o = _ |- _ => destruct o as [[]|]; try discriminate H; injection H as -> end.
      pose proof (c_event _ _ _ _ _ Heqo) as Q. cbn in Q. injection Q as <-. pose proof (wait_open _ _ _ _ Hc Heqo) as Q. cbn in HS. congruence.
    - exact (Hm HS).
    - exact (Hm HS).
  Qed.

  Lemma over_step es s a s' l : crun es s -> cstep_sys s a = Some (s', l) -> ring_calm W cap (l ++ es) -> over es s -> over (l ++ es) s'.
  Proof.
    intros Hr Hs HC [O1 O2 O3 O4]. pose proof (calm_tail _ _ _ _ HC) as HC0. pose proof (link_run _ _ _ _ _ _ Hr) as HK. pose proof (crun_ring _ _ _ _ _ _ Hr) as Hrr.
    pose proof (crun_ring _ _ _ _ _ _ (crun_step _ _ _ _ _ _ _ _ _ Hr Hs)) as Hrr'.
    destruct (events_tail _ _ _ _ _ _ _ _ Hs) as (L1 & _).
    assert (Hact : forall i, active (ch_tx s i) = false) by (intros i; now apply zero_live).
    assert (Hno : forall e, ring_of l = [e] -> (forall i, e <> Reserve i) /\ (forall h v, e <> Take h v) /\ (forall i v, e <> Commit i v)).
    { intros e El. pose proof (at_ring _ _ _ _ _ _ _ _ _ HK Hs El) as Q. repeat split; intros; intros ->.
      - destruct Q as (st & Q & _). specialize (Hact i). rewrite Q in Hact. discriminate.
      - rewrite ring_of_app, El in Hrr'. unfold ring_calm in HC. rewrite ring_of_app, El in HC.
        pose proof (RingFacts.fifo_nth W cap pol Hwf [] h v (ring_of es) ltac:(eexists; exact Hrr') HC). congruence.
      - destruct Q as (Q & _). specialize (Hact i). rewrite Q in Hact. discriminate. }
    assert (Hct : count is_take (ring_of (l ++ es)) = count is_take (ring_of es) /\ count is_reserve (ring_of (l ++ es)) = count is_reserve (ring_of es) /\
      committed (ring_of (l ++ es)) (count is_take (ring_of (l ++ es))) = None).
    { rewrite ring_of_app. destruct (single _ L1) as [->|[e El]]; [auto|]. rewrite El. destruct (Hno _ El) as (N1 & N2 & N3).
      destruct e; auto; exfalso; [eapply N1|eapply N3|eapply N2]; reflexivity. }
    destruct Hct as (C1 & C2 & C3). split.
    - destruct (count_step _ _ _ _ _ _ _ _ _ Hs) as [(i & pan & _ & H & _)|(H & _)]; [congruence|now apply H].
    - exact C3.
    - destruct O3 as [[H1 H2]|H]; [left|right; now apply cell_closed_mono]. split; [now apply closed_mono|]. congruence.
    - apply (settled_step _ _ _ _ _ Hr Hs O4). intros h w El Ex. destruct O3 as [[H1 H2]|H]; [exfalso|exact H].
      destruct (moved_step _ _ _ _ _ _ _ _ Hs) as [_ _ _ E0 _ _|a0 r e He _ _ _ E0 _ _|a0 r e He _ _ _ E0 _ _|a0 r e He _ _ _ E0 _ _]; rewrite El in E0; try discriminate.
      destruct e as [e|]; [injection E0 as <-|discriminate]. destruct (r_event _ _ _ _ _ _ He) as [[sp ->] _].
      destruct (tail_now W cap pol Hwf _ _ _ _ _ _ Hrr HC0 (alone_run _ _ Hr _ _ Ex) He) as [T1 _]. destruct (T1 eq_refl); [congruence|lia].
  Qed.
  Lemma over_run es s : crun es s -> ring_calm W cap es -> (exists r, In (Recvd r) es /\ (r = RecvNone \/ r = RecvClosed)) -> over es s.
  Proof.
    induction 1 as [|es s a s' l Hr IH Hs]; intros HC (r & Hin & Hx); [contradiction|]. pose proof (calm_tail _ _ _ _ HC) as HC0.
    apply in_app_or in Hin. destruct Hin as [Hin|Hin]; [|apply (over_step _ _ _ _ _ Hr Hs HC); eauto].
    apply in_split in Hin. destruct Hin as (l1 & l2 & El). subst l.
    destruct (none_now _ _ _ _ _ _ _ Hr HC0 Hs Hx) as (N1 & N2 & N3).
    destruct (recvd_step _ _ _ _ _ _ Hs) as (h & k & e & spur & -> & -> & -> & E1 & He & Q).
    assert (Hx' : ch_rx s' = RIdle /\ (e = RetPopClosed h \/ e = RetEmpty h)).
    { destruct e; try contradiction; destruct Q as (-> & Q); [destruct Q as (-> & _); destruct Hx; discriminate| |split; [apply Q|auto]].
      split; [|auto]. destruct k; try contradiction; destruct Q as (-> & Q); try exact Q. destruct Hx; discriminate. }
    destruct Hx' as [E2 E3]. split.
    - destruct (count_step _ _ _ _ _ _ _ _ _ Hs) as [(i & pan & _ & H & _)|(H & _)]; [congruence|now apply H].
    - cbn [app ring_of]. destruct E3 as [-> | ->]; exact N2.
    - cbn [app ring_of cell_of]. destruct E3 as [-> | ->]; exact N3.
    - rewrite E2. exact I.
  Qed.

  (** No call made later waits or gets a message. *)
  Lemma over_results es s a s' l1 l2 r : crun es s -> ring_calm W cap (l2 ++ es) -> over es s -> cstep_sys s a = Some (s', l1 ++ Recvd r :: l2) ->
    r = RecvNone \/ r = RecvClosed \/ r = RecvEmpty.
  Proof.
    intros Hr HC [O1 O2 O3 O4] Hs. pose proof (crun_ring _ _ _ _ _ _ (crun_step _ _ _ _ _ _ _ _ _ Hr Hs)) as Hrr'.
    destruct (recvd_step _ _ _ _ _ _ Hs) as (h & k & e & spur & -> & -> & -> & E1 & He & Q). destruct e; try contradiction.
    - exfalso. unfold ring_calm in HC. cbn [app ring_of] in HC, Hrr'.
      pose proof (RingFacts.fifo_nth W cap pol Hwf [] _ _ (ring_of es) ltac:(eexists; exact Hrr') HC). congruence.
    - destruct Q as (_ & Q). destruct k; try contradiction; destruct Q as (-> & _); auto. rewrite E1 in O4. contradiction.
    - destruct Q as (_ & -> & _). destruct k; auto.
  Qed.

  (** ** After the last Sender *)
  Lemma in_cell e (es : list (cevent T)) : In (OnCell e) es <-> In e (cell_of es).
  Proof. induction es as [|x es IH]; simpl; [tauto|]. destruct x; simpl; rewrite <- IH; intuition congruence. Qed.
  Lemma notified_end es s : crun es s -> forall i b, In (RetNotify i b) (cell_of es) -> ch_tx s i = TEnd.
  Proof.
    induction 1 as [|es s a s' l Hr IH Hs]; intros i b Hin; [contradiction|]. pose proof (link_run _ _ _ _ _ _ Hr) as HK.
    rewrite cell_of_app in Hin. apply in_app_or in Hin. destruct Hin as [Hin|Hin].
    - destruct (events_tail _ _ _ _ _ _ _ _ Hs) as (_ & L2 & _). destruct (single _ L2) as [E|[e El]]; [rewrite E in Hin; contradiction|].
      rewrite El in Hin. destruct Hin as [->|[]]. apply (at_cell _ _ _ _ _ _ _ _ _ HK Hs El).
    - pose proof (x_step _ _ _ _ _ _ _ _ _ i HK Hs) as X. rewrite (IH _ _ Hin) in X. exact X.
  Qed.
  Lemma disconnected_closed es s : crun es s -> ring_calm W cap es -> disconnected es -> WaitCellSpec.closed_in (cell_of es) = true.
  Proof.
    induction 1 as [|es s a s' l Hr IH Hs]; intros HC (i & p & b & H1 & H2); [contradiction|]. pose proof (calm_tail _ _ _ _ HC) as HC0. pose proof (link_run _ _ _ _ _ _ Hr) as HK.
    apply in_cell in H2. rewrite cell_of_app in H2. apply cell_closed_mono. apply in_app_or in H1. apply in_app_or in H2.
    destruct H1 as [H1|H1].
    - exfalso. assert (Hi : ch_tx s i = TNone /\ cell_of l = []).
      { destruct (count_step _ _ _ _ _ _ _ _ _ Hs) as [(j & q & _ & _ & _ & El & Hj & _)|(_ & H & _)]; [|destruct (H _ _ H1)].
        rewrite El in H1 |- *. destruct H1 as [H1|[]]. injection H1 as -> _. auto. }
      destruct Hi as [Hi El]. rewrite El in H2. destruct H2 as [[]|H2]. rewrite (notified_end _ _ Hr _ _ H2) in Hi. discriminate.
    - destruct H2 as [H2|H2]; [|apply IH; [exact HC0|]; exists i, p, b; split; [exact H1|now apply in_cell]].
      destruct (events_tail _ _ _ _ _ _ _ _ Hs) as (_ & L2 & _). destruct (single _ L2) as [E|[e El]]; [rewrite E in H2; contradiction|].
      rewrite El in H2. destruct H2 as [->|[]]. pose proof (at_cell _ _ _ _ _ _ _ _ _ HK Hs El) as (_ & Q & Q').
      pose proof (l_at _ _ _ (linv_run W cap pol async debug Hwf _ _ Hr HC0) _ _ H1) as Ha.
      destruct Q as [Q|Q]; rewrite Q in Ha; [contradiction|]. destruct Ha as (_ & [Ha|Ha]); [|exact Ha]. exfalso.
      destruct (nor_step _ _ _ _ _ _ _ _ _ _ _ Hs Ha) as [E|E]; [|rewrite El in E; discriminate].
      pose proof (link_run _ _ _ _ _ _ (crun_step _ _ _ _ _ _ _ _ _ Hr Hs)) as HK'.
      assert (Hi : i <> 0) by (apply (tx_odd _ _ HK'); congruence). pose proof (K_c _ HK' i Hi) as K. rewrite Q' in K. cbn in K. congruence.
  Qed.

  (** Once the drop of the last Sender is over, the channel is disconnected. *)
  Lemma dropped_disconnected es s : crun es s -> ring_calm W cap es -> forall i pan, In (TxDropped i 0 pan) es -> ch_tx s i = TEnd ->
    disconnected es \/ (async = false /\ (pan = true \/ rx_closed es s)).
  Proof.
    induction 1 as [|es s a s' l Hr IH Hs]; intros HC i pan H1 H2; [contradiction|]. pose proof (calm_tail _ _ _ _ HC) as HC0. pose proof (link_run _ _ _ _ _ _ Hr) as HK.
    apply in_app_or in H1. destruct H1 as [H1|H1].
    - exfalso. destruct (count_step _ _ _ _ _ _ _ _ _ Hs) as [(j & q & _ & _ & _ & El & _ & Hj & _)|(_ & H & _)]; [|destruct (H _ _ H1)].
      rewrite El in H1. destruct H1 as [H1|[]]. injection H1 as -> _. congruence.
    - pose proof (l_at _ _ _ (linv_run W cap pol async debug Hwf _ _ Hr HC0) _ _ H1) as Ha. pose proof (x_step _ _ _ _ _ _ _ _ _ i HK Hs) as X.
      destruct (ch_tx s i) eqn:Ei; try contradiction.
      + destruct (IH HC0 _ _ H1 Ei) as [(j & q & b & D1 & D2)|(D1 & [D2|D2])]; [left|right|right].
        * exists j, q, b. split; apply in_or_app; now right.
        * auto.
        * split; [exact D1|right]. exact (rx_closed_step _ _ _ _ _ _ _ _ _ _ HK Hs D2).
      + destruct Ha as [-> Ha]. destruct X as [X|(b & El & Hb & X & He)]; [congruence|]. rewrite H2 in X. destruct async; [discriminate|]. destruct b; [discriminate|].
        right. split; [reflexivity|]. destruct pan; [now left|right]. apply (rx_closed_step _ _ _ _ _ _ _ _ _ _ HK Hs), Ha.
        pose proof (RingFacts.close_result W cap pol Hwf _ _ _ _ _ (crun_ring _ _ _ _ _ _ Hr) HC0 He) as Q. destruct (closed_in (ring_of es)); [reflexivity|discriminate Q].
      + destruct X as [X|[X _]]; congruence.
      + left. exists i, pan. destruct X as [X|[_ X]]; [congruence|].
            destruct X as [b El]. exists b. split; apply in_or_app; [now right|left]. apply in_cell. rewrite El. now left.
  Qed.

  (** A call that starts then does not wait. *)
  Lemma disconnected_step l (es : list (cevent T)) : disconnected es -> disconnected (l ++ es).
  Proof. intros (i & p & b & D1 & D2). exists i, p, b. split; apply in_or_app; now right. Qed.
  Lemma quit_run es s : crun es s -> ring_calm W cap es -> forall es2 h w es1, es = es2 ++ Recving h w :: es1 -> disconnected es1 ->
    settled (ch_rx s) true /\ WaitCellSpec.closed_in (cell_of es) = true.
  Proof.
    induction 1 as [|es s a s' l Hr IH Hs]; intros HC es2 h w es1 E HD; [destruct es2; discriminate|]. pose proof (calm_tail _ _ _ _ HC) as HC0.
    destruct (app_cut _ _ _ _ _ E) as [(l2 & El & E1)|(es2' & _ & E1)].
    - assert (Hl2 : l2 = [] /\ settled (ch_rx s') true).
      { subst l. clear - Hs. remember (es2 ++ Recving h w :: l2) as l eqn:El. ccases Hs a; cbn [ch_rx on_ring on_cell on_queue on_tx on_rx on_count on_live on_refs on_out finish] in *;
          try (destruct es2 as [|x [|y es2]]; discriminate El);
          try (destruct o as [o|]; destruct es2 as [|x [|y [|z es2]]]; discriminate El).
        all: destruct es2 as [|x [|y es2]]; try discriminate El; injection El as E1 E2 E3; split; [congruence|exact I]. }
      destruct Hl2 as [-> Hx]. split; [exact Hx|]. subst es1. apply cell_closed_mono. exact (disconnected_closed _ _ Hr HC0 HD).
    - destruct (IH HC0 _ _ _ _ E1 HD) as [H1 H2]. pose proof (cell_closed_mono l _ H2) as H3. split; [|exact H3].
      rewrite <- H3. apply (settled_step _ _ _ _ _ Hr Hs); [now rewrite H2|auto].
  Qed.

  (** ** What a receiver did before it waits *)
  Definition vinv (es : list (cevent T)) (s : @chan T) : Prop :=
    match ch_rx s with
    | RAgain h k => match k with
        | KTry => receiving es = Some (h, None)
        | KFirst w => receiving es = Some (h, Some w)
        | KAgain w => receiving es = Some (h, Some w) /\ checked h w es
        | KLast => exists w, receiving es = Some (h, Some w) end
    | RPop h k => match k with
        | KTry => receiving es = Some (h, None)
        | KFirst w => receiving es = Some (h, Some w)
        | KAgain w => receiving es = Some (h, Some w) /\ checked h w es /\ (parkable s -> rechecked h w es)
        | KLast => exists w, receiving es = Some (h, Some w) end
    | RCall h w | RWait h w => receiving es = Some (h, Some w)
    | RPark w => exists h, receiving es = Some (h, Some w)
    | _ => True
    end.
  Lemma receiving_app l (es : list (cevent T)) : (forall h w, ~ In (Recving h w) l) -> receiving (l ++ es) = receiving es.
  Proof. induction l as [|x l IH]; intros H; [reflexivity|]. simpl. rewrite IH by (intros h w Hin; apply (H h w); now right). destruct x; try reflexivity. destruct (H h w). now left. Qed.
  Lemma no_recving s a s' l : cstep_sys s a = Some (s', l) ->
    (exists h w, l = [Recving h w] /\ ch_rx s' = RAgain h (match w with Some w => KFirst w | None => KTry end)) \/ (forall h w, ~ In (Recving h w) l).
  Proof.
    intros Hs. ccases Hs a; cbn [ch_rx on_ring on_cell on_queue on_tx on_rx on_count on_live on_refs on_out finish] in *;
      try (right; intros ?h ?w Hin; cbn in Hin; try (destruct o; cbn in Hin); intuition discriminate).
    - left. exists h, (Some w). auto.
    - left. exists h, None. auto.
  Qed.
  Lemma checked_app h w l (es : list (cevent T)) : (forall h' w', ~ In (Recving h' w') l) -> checked h w es -> checked h w (l ++ es).
  Proof.
    intros Hl (esc & esd & -> & H1 & H2 & H3). exists (l ++ esc), esd. split; [apply app_assoc|]. split; [|auto].
    intros h' w' Hin. apply in_app_or in Hin. destruct Hin as [Hin|Hin]; [exact (Hl _ _ Hin)|exact (H1 _ _ Hin)].
  Qed.
  Lemma rechecked_app h w l (es : list (cevent T)) : (forall h' w', ~ In (Recving h' w') l) -> rechecked h w es -> rechecked h w (l ++ es).
  Proof.
    intros Hl (esb & esa & -> & H1 & H2). exists (l ++ esb), esa. split; [apply app_assoc|]. split; [|auto].
    intros h' w' Hin. apply in_app_or in Hin. destruct Hin as [Hin|Hin]; [exact (Hl _ _ Hin)|exact (H1 _ _ Hin)].
  Qed.
  Lemma vinv_step es s a s' l : crun es s -> ring_calm W cap es -> cstep_sys s a = Some (s', l) -> vinv es s -> vinv (l ++ es) s'.
  Proof.
    intros Hr HC Hs HV. destruct (no_recving _ _ _ _ Hs) as [(h & w & -> & Hx)|Hn].
    { unfold vinv. rewrite Hx. destruct w; reflexivity. }
    pose proof (park_start W cap pol async debug Hwf _ _ _ _ _ Hr HC Hs) as Hps.
    pose proof (rcell_run W cap pol async debug _ _ Hr) as HR. pose proof (link_run _ _ _ _ _ _ Hr) as HK.
    assert (Hrec : receiving (l ++ es) = receiving es) by now apply receiving_app.
    assert (Hchk : forall h w, checked h w es -> checked h w (l ++ es)) by (intros; now apply checked_app).
    assert (Hsame : ch_rx s' = ch_rx s -> vinv (l ++ es) s').
    { intros Hx. unfold vinv in *. rewrite Hx, Hrec. destruct (ch_rx s) as [|h k|h k| | | | | | | | | |] eqn:Er; auto; destruct k; auto.
      - destruct HV; auto.
      - destruct HV as (V1 & V2 & V3). split; [exact V1|]. split; [auto|]. intros Hp. destruct (Hps Hp) as [H|[H1 H2]]; [apply rechecked_app; auto|].
        exists l, es. auto. }
    assert (Hpark : forall h w, ch_rx s = RAgain h (KAgain w) -> parkable s' -> rechecked h w (l ++ es)).
    { intros h w Hx Hp. destruct (Hps Hp) as [H|[H1 H2]]; [unfold parkable in H; rewrite Hx in H; contradiction|].
      unfold vinv in HV. rewrite Hx in HV. exists l, es. split; [reflexivity|]. split; [exact Hn|]. split; [apply HV|exact H2]. }
    unfold vinv in HV.
    ccases Hs a; try (apply Hsame; reflexivity); unfold vinv; rewrite Hrec; cbn [ch_rx on_ring on_cell on_queue on_tx on_rx on_count on_live on_refs on_out finish] in *; rewrite ?Heqr in *; try exact I; try exact HV.
    - destruct (Hn h (Some w)). now left.
    - destruct (Hn h None). now left.
    - destruct k; auto. destruct HV as [V1 V2]. split; [exact V1|]. split; [auto|]. intros Hp. exact (Hpark _ _ eq_refl Hp).
    - destruct HV; eauto.
    - destruct k; auto. destruct HV as (V1 & V2 & V3). split; [exact V1|]. split; [auto|]. intros Hp. destruct (Hps Hp) as [H|[H1 H2]]; [apply rechecked_app; auto|].
      exists (map OnRing (olist o)), es. auto.
    - split; [exact HV|]. match goal with H : cell_ret ?o = _ |- _ => destruct o as [[]|]; try discriminate H; injection H as -> end.
      pose proof (c_event _ _ _ _ _ Heqo) as Q. cbn in Q. injection Q as <-. exists [], es. cbn. repeat split; auto.
    - eauto.
  Qed.
  Lemma vinv_run es s : crun es s -> ring_calm W cap es -> vinv es s.
  Proof. induction 1 as [|es s a s' l Hr IH Hs]; intros HC; [exact I|]. pose proof (calm_tail _ _ _ _ HC) as HC0. exact (vinv_step _ _ _ _ _ Hr HC0 Hs (IH HC0)). Qed.

  Lemma pending_checked es s a s' l1 l2 : crun es s -> ring_calm W cap es -> cstep_sys s a = Some (s', l1 ++ Recvd RecvPending :: l2) ->
    exists h w, receiving es = Some (h, Some w) /\ l2 = [OnRing (RetEmpty h)] /\ rechecked h w es.
  Proof.
    intros Hr HC Hs. destruct (recvd_step _ _ _ _ _ _ Hs) as (h & k & e & spur & -> & -> & -> & E1 & He & Q).
    pose proof (vinv_run _ _ Hr HC) as HV. unfold vinv in HV. rewrite E1 in HV.
    destruct e; try contradiction; [destruct Q as (_ & Q & _); discriminate| |destruct Q as (_ & Q & _); destruct k; discriminate].
    destruct Q as (-> & Q). destruct k; try contradiction; try (destruct Q; discriminate). destruct HV as (V1 & V2 & V3).
    exists h, w. split; [exact V1|]. split; [reflexivity|]. apply V3. unfold parkable. rewrite E1. apply (r_event _ _ _ _ _ _ He).
  Qed.

  (** A receiver that waits when the last Sender goes away is woken. *)
  Lemma disconnected_woken es s w : crun es s -> ring_calm W cap es -> disconnected es -> ch_rx s = RPark w ->
    recv_woken es = true \/ exists k, WaitCellSpec.about_to_wake (ch_cell s) k w.
  Proof.
    intros Hr HC HD Hx. pose proof (rcell_run W cap pol async debug _ _ Hr) as HR. rewrite Hx in HR. destruct HR as (later & H1 & H2).
    specialize (H2 (disconnected_closed _ _ Hr HC HD)). unfold recv_woken. rewrite H1.
    destruct (WaitCellTheorems.C20_woken debug _ _ 0 w later (crun_cell _ _ _ _ _ _ Hr) (proj1 (cell_use W cap pol async debug _ _ Hr)) H1 H2) as [[k H]|H]; [left|auto].
    apply existsb_exists. exists (Woke k w). split; [exact H|apply Nat.eqb_refl].
  Qed.
End Drain.
