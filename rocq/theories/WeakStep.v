(** Every step of the ring on weak memory preserves the invariant. *)
From Coq Require Import List Bool Arith NArith Lia.
From Coq Require Import ZifyN ZifyNat ZifyBool.
From Verif Require Import Word QueueSpec CoreModel CoreArith CoreInv CoreStep HistoryFacts ChainFacts WeakModel WeakInv History.
Import ListNotations.

Section Weak.
  Context {T : Type}.
  Variables (W : N) (cap : nat) (pol : policy T) (o : orders).
  Hypothesis Hwf : wf W cap.
  Notation P := (core_new W (N.of_nat cap)).
  Notation enc := (enc W cap).
  Notation word := (word W cap).
  Notation ifld := (ifield cap).
  Notation queue := (queue T).
  Notation event := (event T).
  Notation wstate := (@wstate T).
  Notation fresh := (fresh_pos W cap).
  Notation sstep := (sstep cap fresh (new_element pol) (recycle pol)).
  Notation chain := (chain cap fresh (new_element pol) (recycle pol)).
  Notation SInv := (SInv W cap).
  Notation Inv := (Inv W cap).
  Notation AInv := (AInv W cap).
  Notation B := (slack W cap).
  Notation WI := (WI W cap pol).
  Notation AW := (AW W cap).
  Notation fidx := (fidx cap).
  Notation vok := (vok cap).
  Hypothesis Hpush : o_push_load o = true.
  Hypothesis Hpop : o_pop_load o = true.
  Hypothesis Hdrop : o_drop o = true.

  Lemma B_pos : (0 < B)%N.
  Proof. unfold slack. pose proof (ngen_ge2 _ _ Hwf). pose proof (cap_pos _ _ Hwf). nia. Qed.

  (** ** The matching state of the sequentially consistent model: everybody idle except the holders and [i]. *)
  Definition quieted (ag : agent -> pc) (i : agent) (p : pc) : agent -> pc :=
    fun j => if Nat.eqb j i then p else if holder (ag j) then ag j else Idle.

  Lemma sc_inv s es q g i p : WI s es q g -> (holder (w_pcs s i) = true -> p = w_pcs s i) ->
    AInv i p [Invoke i OpPush] [q] q g ->
    Inv (mkS (w_core s) (quieted (w_pcs s) i p)) [Invoke i OpPush] [q] q g.
  Proof.
    intros HI Hp HA. constructor; cbn [st_core st_agents].
    - eapply SInv_agents; [apply HI|]. intros j Hj. unfold quieted. split; auto.
      destruct (Nat.eqb_spec j i) as [->|]; [now rewrite Hp|]. now rewrite Hj.
    - intros j. unfold quieted. destruct (Nat.eqb_spec j i) as [->|Hj]; auto.
      pose proof (wi_agents _ _ _ _ _ _ _ HI j) as HJ. destruct (w_pcs s j); cbn [holder CoreInv.AInv]; auto.
  Qed.

  Lemma sc_back (c : core T) ag i p p' q g : SInv c (upd (quieted ag i p) i p') q g -> SInv c (upd ag i p') q g.
  Proof.
    intros HS. eapply SInv_agents; [exact HS|]. intros j Hj. split; auto. unfold upd, quieted in *.
    destruct (Nat.eqb_spec j i); auto. destruct (holder (ag j)) eqn:E; auto. discriminate.
  Qed.

  Lemma calm_one i : calm B [Invoke (T := T) i OpPush].
  Proof.
    simpl. split; auto. intros j [op Hj]. simpl in Hj. pose proof B_pos. destruct (Nat.eqb j i); lia.
  Qed.

  (** ** Steps without effect on the log *)
  Lemma wi_local s es q g i p' V oe g' :
    WI s es q g -> holder (w_pcs s i) = false ->
    vle (w_views s i) V -> vok es (w_states s) (w_acc s) V ->
    (forall j, j <> i -> g' j = g j) ->
    AW (w_states s) (with_event V oe (w_time s)) (w_call s i) q g' i p' ->
    (forall e, oe = Some e -> sstep q e q /\ is_commit e = false /\ is_release e = false /\ is_take e = false) ->
    WI (local s i p' V oe) (ocons oe es) q g'.
  Proof.
    intros HI Hh Hle HV Hg HA He.
    assert (HV' : vok (ocons oe es) (w_states s) (w_acc s) (with_event V oe (w_time s))).
    { rewrite (wi_time _ _ _ _ _ _ _ HI). apply vok_event; auto.
      intros x n E Hm. destruct (He _ E) as (_ & H1 & _ & H2). rewrite no_mark in Hm by auto. discriminate. }
    apply (wi_quiet W cap pol s es q g i (local s i p' V oe) oe q g' p' (with_event V oe (w_time s))); auto; try reflexivity.
    - cbn [local w_call]. apply (vok_mono cap es oe (w_states s) (w_states s) (w_acc s) (w_acc s)); auto. apply HI.
    - cbn [local w_call]. eapply vle_trans; [apply HI|]. eapply vle_trans; [exact Hle|apply vle_event].
    - cbn [local w_time]. rewrite (wi_time _ _ _ _ _ _ _ HI). now destruct oe.
    - cbn [local w_core w_pcs]. eapply SInv_agents; [apply HI|]. intros j Hj.
      assert (j <> i) by congruence. rewrite upd_other by auto. auto.
    - destruct oe as [e|]; simpl; [|apply HI]. econstructor; [apply HI|]. now apply He.
    - eapply vle_trans; [exact Hle|apply vle_event].
    - intros e E. destruct (He _ E) as (_ & H1 & H2 & _). auto.
  Qed.

  Lemma push_top_case i w (q : queue) (g : ghost) : tail_word W cap q w ->
    (push_top (T := T) P i w = (Idle, Some (RetPushClosed i)) /\ qclosed q = true) \/
    (exists n, push_top (T := T) P i w = (PState (enc n), None) /\ n <= length (qlog q)).
  Proof.
    intros (b & n & -> & Hn & Hb). unfold push_top. rewrite (closed_test _ _ Hwf).
    destruct b; [left; auto|right; exists n; auto].
  Qed.

  Lemma wi_load_tail s es q g i k acq p s' oe :
    WI s es q g -> holder (w_pcs s i) = false ->
    (forall c : core T, fst (cstep P pol c i p true) = (c, fst (push_top (T := T) P i (c_tail c))) /\
       snd (cstep P pol c i p true) = snd (push_top P i (c_tail c))) ->
    load_tail P pol s i p k acq = Some (s', oe) ->
    (exists g', WI s' (ocons oe es) q g') /\
    (oe = None \/ (oe = Some (RetPushClosed i) /\ qclosed q = true)).
  Proof.
    intros HI Hh Hcs. unfold load_tail.
    destruct (readable (w_tails s) (v_tail (w_views s i)) k) as [m|] eqn:Hr; [|discriminate].
    apply readable_inv in Hr as [Hk Hm]. apply nth_error_In in Hm.
    destruct (Hcs (set_tail (w_core s) (m_word m))) as [E1 E2]. cbn [c_tail set_tail] in E1, E2.
    destruct (cstep P pol (set_tail (w_core s) (m_word m)) i p true) as [[c' p'] e]. cbn [fst snd] in E1, E2.
    intros [= <- <-]. injection E1 as _ E1.
    assert (HV : vok es (w_states s) (w_acc s) (acquire acq (saw_tailw (w_views s i) k) (m_view m))).
    { apply vok_acquire; [apply vok_saw_tail, HI|now apply (wi_vtails _ _ _ _ _ _ _ HI)]. }
    assert (HL : vle (w_views s i) (acquire acq (saw_tailw (w_views s i) k) (m_view m))).
    { eapply vle_trans; [apply vle_saw_tail|apply vle_acquire]. }
    destruct (push_top_case i _ q g (wi_tails _ _ _ _ _ _ _ HI m Hm)) as [[E3 Hc]|(n & E3 & Hn)];
      rewrite E3 in E1, E2; cbn [fst snd] in E1, E2; subst p' e.
    - split; [|auto]. exists g. apply (wi_local s es q g); auto.
      + exact I.
      + intros e [= <-]. repeat split. constructor.
    - split; [|auto]. exists (updg g i n). apply (wi_local s es q g); auto.
      + intros j Hj. now apply updg_other.
      + cbn [WeakInv.AW]. unfold wpush. rewrite updg_same. auto.
      + discriminate.
  Qed.

  Lemma wi_load_head s es q g i k acq p s' oe :
    WI s es q g -> holder (w_pcs s i) = false ->
    (exists b', forall c : core T, cstep P pol c i p true = (c, QState (c_head c) b', None)) ->
    load_head P pol s i p k acq = Some (s', oe) ->
    (exists g', WI s' (ocons oe es) q g') /\ oe = None.
  Proof.
    intros HI Hh [b' Hcs]. unfold load_head.
    destruct (readable (w_heads s) (v_head (w_views s i)) k) as [m|] eqn:Hr; [|discriminate].
    apply readable_inv in Hr as [Hk Hm]. apply nth_error_In in Hm.
    rewrite (Hcs (set_head (w_core s) (m_word m))). cbn [c_head set_head]. intros [= <- <-].
    split; [|auto].
    destruct (wi_heads _ _ _ _ _ _ _ HI m Hm) as (n & En & Hn).
    exists (updg g i n). apply (wi_local s es q g); auto.
    - eapply vle_trans; [apply vle_saw_head|apply vle_acquire].
    - apply vok_acquire; [apply vok_saw_head, HI|now apply (wi_vheads _ _ _ _ _ _ _ HI)].
    - intros j Hj. now apply updg_other.
    - cbn [WeakInv.AW]. unfold wpop. rewrite updg_same, En. auto.
    - discriminate.
  Qed.

  (** Loading a slot's state. *)
  Lemma load_state_view s es q g i idx k m acq : WI s es q g -> v_state (w_views s i) idx <= k ->
    nth_error (w_states s idx) k = Some m ->
    let V := acquire acq (saw_state (w_views s i) idx k) (m_view m) in
    vle (w_views s i) V /\ vok es (w_states s) (w_acc s) V /\ (acq = true -> got (w_states s) V idx k).
  Proof.
    intros HI Hk Hm V. assert (HkL := nth_lt _ _ _ Hm). split; [|split].
    - eapply vle_trans; [apply vle_saw_state; exact Hk|apply vle_acquire].
    - apply vok_acquire; [apply vok_saw_state; auto; apply HI|].
      apply nth_error_In in Hm. eapply (wi_vstates _ _ _ _ _ _ _ HI); eauto.
    - intros ->. exists m. split; auto. split; [apply vle_join_r|]. unfold V. cbn. rewrite N.eqb_refl. lia.
  Qed.

  Lemma set_state_len (c : core T) k w : c_len (set_state c k w) = c_len c.
  Proof. reflexivity. Qed.
  Lemma set_state_at (c : core T) k w : s_state (c_slots (set_state c k w) k) = w.
  Proof. cbn. now rewrite N.eqb_refl. Qed.

  Lemma wi_load_push s es q g i k t s' oe :
    WI s es q g -> (N.of_nat (length (qlog q)) < B)%N -> w_pcs s i = PState t ->
    load_state P pol s i (PState t) t k (o_push_load o) = Some (s', oe) ->
    WI s' (ocons oe es) q g /\ oe = None.
  Proof.
    intros HI Hfew Hpc. pose proof (wi_agents _ _ _ _ _ _ _ HI i) as HA. rewrite Hpc in HA. destruct HA as [Et Hle].
    unfold load_state. rewrite Et, (idx_gen_enc _ _ Hwf). cbn [fst].
    destruct (readable (w_states s (ifld (g i))) (v_state (w_views s i) (ifld (g i))) k) as [m|] eqn:Hr; [|discriminate].
    apply readable_inv in Hr as [Hk Hm].
    destruct (load_state_view s es q g i _ k m (o_push_load o) HI Hk Hm) as (HL & HV & HG).
    cbn [cstep]. rewrite (idx_gen_enc _ _ Hwf), set_state_len, set_state_at.
    rewrite (i_len _ _ _ _ _ _ (wi_S _ _ _ _ _ _ _ HI)).
    assert (Hlt : (ifld (g i) <? N.of_nat cap)%N = true) by (apply N.ltb_lt, (ifield_lt W); auto).
    rewrite Hlt.
    assert (Hh : holder (w_pcs s i) = false) by now rewrite Hpc.
    destruct (N.eqb_spec (m_word m) (enc (g i))) as [Eq|Neq].
    - intros [= <- <-]. split; auto. apply (wi_local s es q g); auto; [|discriminate].
      cbn [WeakInv.AW with_event]. split; [split; auto|].
      assert (Ek : k = fidx (g i)) by (eapply (read_free W cap pol Hwf); eauto).
      rewrite <- Ek at 1. auto.
    - destruct (_ =? _)%N; intros [= <- <-]; split; auto; apply (wi_local s es q g); auto; try discriminate.
      + cbn [WeakInv.AW with_event]. split; auto.
      + exact I.
  Qed.

  Lemma wi_load_pop s es q g i k h b s' oe :
    WI s es q g -> (N.of_nat (length (qlog q)) < B)%N -> w_pcs s i = QState h b ->
    load_state P pol s i (QState h b) h k (o_pop_load o) = Some (s', oe) ->
    WI s' (ocons oe es) q g /\ oe = None.
  Proof.
    intros HI Hfew Hpc. pose proof (wi_agents _ _ _ _ _ _ _ HI i) as HA. rewrite Hpc in HA. destruct HA as [Et Hle].
    unfold load_state. rewrite Et, (idx_gen_enc _ _ Hwf). cbn [fst].
    destruct (readable (w_states s (ifld (g i))) (v_state (w_views s i) (ifld (g i))) k) as [m|] eqn:Hr; [|discriminate].
    apply readable_inv in Hr as [Hk Hm].
    destruct (load_state_view s es q g i _ k m (o_pop_load o) HI Hk Hm) as (HL & HV & HG).
    cbn [cstep]. rewrite (idx_gen_enc _ _ Hwf), set_state_len, set_state_at.
    rewrite (i_len _ _ _ _ _ _ (wi_S _ _ _ _ _ _ _ HI)).
    assert (Hlt : (ifld (g i) <? N.of_nat cap)%N = true) by (apply N.ltb_lt, (ifield_lt W); auto).
    rewrite Hlt.
    assert (Hh : holder (w_pcs s i) = false) by now rewrite Hpc.
    pose proof (i_order _ _ _ _ _ _ (wi_S _ _ _ _ _ _ _ HI)) as Ho.
    destruct (N.eqb_spec (m_word m) (enc (g i) + 1)) as [Eq|Neq].
    - intros [= <- <-]. split; auto. apply (wi_local s es q g); auto; [|discriminate].
      cbn [WeakInv.AW with_event]. split; [split; auto|].
      assert (Ek : k = S (fidx (g i))) by (eapply (read_full W cap pol Hwf); eauto; lia).
      rewrite <- Ek at 1. auto.
    - destruct (N.eqb_spec (m_word m) (enc (g i))) as [Eq2|Neq2];
        intros [= <- <-]; split; auto; apply (wi_local s es q g); auto; try discriminate.
      + cbn [WeakInv.AW with_event]. split; [split; auto|].
        assert (Ek : k = fidx (g i)) by (eapply (read_free W cap pol Hwf); eauto; lia).
        rewrite <- Ek. destruct (wi_call _ _ _ _ _ _ _ HI i) as (Hc & _). specialize (Hc (ifld (g i))). lia.
      + exact I.
  Qed.

  (** ** Read-modify-writes *)
  Definition rmw_view_t (s : wstate) v (e : option event) : view :=
    with_event (saw_tailw (acquire (o_rmw o) v (last_view (w_tails s))) (length (w_tails s))) e (w_time s).
  Definition rmw_view_h (s : wstate) v (e : option event) : view :=
    with_event (saw_head (acquire (o_rmw o) v (last_view (w_heads s))) (length (w_heads s))) e (w_time s).

  Lemma rmw_t_le s v e : vle v (rmw_view_t s v e).
  Proof.
    eapply vle_trans; [|apply vle_event]. eapply vle_trans; [apply vle_acquire|apply vle_saw_tail].
  Qed.
  Lemma rmw_h_le s v e : vle v (rmw_view_h s v e).
  Proof.
    eapply vle_trans; [|apply vle_event]. eapply vle_trans; [apply vle_acquire|apply vle_saw_head].
  Qed.

  Lemma rmw_t_ok s es q g v oe st acc : WI s es q g ->
    (forall k, w_acc s k <= acc k) -> (forall k, length (w_states s k) <= length (st k)) ->
    (forall e n, oe = Some e -> marks e es n = true -> S (fidx n) <= v_state v (ifld n)) ->
    vok es st acc v -> vok (ocons oe es) st acc (rmw_view_t s v oe).
  Proof.
    intros HI Ha Hs He Hv. pose proof (proj1 (vle_acquire (o_rmw o) v (last_view (w_tails s)))) as L1. unfold rmw_view_t. rewrite (wi_time _ _ _ _ _ _ _ HI). apply vok_event.
    - apply vok_saw_tail, vok_acquire; auto.
      apply (vok_mono cap es None (w_states s) st (w_acc s) acc); auto. apply (vok_last_tail W cap pol s es q g HI).
    - intros x n E Hm. specialize (He x n E Hm). pose proof (L1 (ifld n)). cbn [v_state saw_tailw]. lia.
  Qed.
  Lemma rmw_h_ok s es q g v oe st acc : WI s es q g ->
    (forall k, w_acc s k <= acc k) -> (forall k, length (w_states s k) <= length (st k)) ->
    (forall e n, oe = Some e -> marks e es n = true -> S (fidx n) <= v_state v (ifld n)) ->
    vok es st acc v -> vok (ocons oe es) st acc (rmw_view_h s v oe).
  Proof.
    intros HI Ha Hs He Hv. pose proof (proj1 (vle_acquire (o_rmw o) v (last_view (w_heads s)))) as L1. unfold rmw_view_h. rewrite (wi_time _ _ _ _ _ _ _ HI). apply vok_event.
    - apply vok_saw_head, vok_acquire; auto.
      apply (vok_mono cap es None (w_states s) st (w_acc s) acc); auto. apply (vok_last_head W cap pol s es q g HI).
    - intros x n E Hm. specialize (He x n E Hm). pose proof (L1 (ifld n)). cbn [v_state saw_head]. lia.
  Qed.

  Lemma rmw_t_msg s es q g v oe st acc : WI s es q g ->
    (forall k, w_acc s k <= acc k) -> (forall k, length (w_states s k) <= length (st k)) ->
    (forall e n, oe = Some e -> marks e es n = true -> S (fidx n) <= v_state v (ifld n)) ->
    vok es st acc v -> vok (ocons oe es) st acc (released_view (o_rmw o) (rmw_view_t s v oe) (last_view (w_tails s))).
  Proof.
    intros. apply vok_released; [eapply rmw_t_ok; eauto|].
    apply (vok_mono cap es oe (w_states s) st (w_acc s) acc); auto. apply (vok_last_tail W cap pol s es q g); auto.
  Qed.
  Lemma rmw_h_msg s es q g v oe st acc : WI s es q g ->
    (forall k, w_acc s k <= acc k) -> (forall k, length (w_states s k) <= length (st k)) ->
    (forall e n, oe = Some e -> marks e es n = true -> S (fidx n) <= v_state v (ifld n)) ->
    vok es st acc v -> vok (ocons oe es) st acc (released_view (o_rmw o) (rmw_view_h s v oe) (last_view (w_heads s))).
  Proof.
    intros. apply vok_released; [eapply rmw_h_ok; eauto|].
    apply (vok_mono cap es oe (w_states s) st (w_acc s) acc); auto. apply (vok_last_head W cap pol s es q g); auto.
  Qed.

  Lemma next_time_ocons (oe : option event) es : next_time oe (length es) = length (ocons oe es).
  Proof. now destruct oe. Qed.

  Lemma wi_rmw_tail s es q g i c' p' oe q' :
    WI s es q g -> holder (w_pcs s i) = false -> holder p' = false ->
    qlog q' = qlog q -> qtaken q' = qtaken q -> (qclosed q = true -> qclosed q' = true) ->
    c_tail c' = word (qclosed q') (length (qlog q')) ->
    SInv c' (w_pcs s) q' g ->
    AW (w_states s) (rmw_view_t s (w_views s i) oe) (w_call s i) q' g i p' ->
    (oe = None -> q' = q) ->
    (forall e, oe = Some e -> sstep q e q' /\ is_commit e = false /\ is_release e = false /\ is_take e = false) ->
    WI (rmw_tail o s i c' p' (w_views s i) oe) (ocons oe es) q' g.
  Proof.
    intros HI Hh Hh' El Etk Ecl Htw HS HA Hn He.
    assert (He1 : forall e n, oe = Some e -> marks e es n = true -> S (fidx n) <= v_state (w_views s i) (ifld n)).
    { intros e n E Hm. destruct (He _ E) as (_ & H1 & _ & H2). rewrite no_mark in Hm by auto. discriminate. }
    apply (wi_quiet W cap pol s es q g i _ oe q' g p' (rmw_view_t s (w_views s i) oe)); auto; try reflexivity.
    - apply (vok_mono cap es oe (w_states s) (w_states s) (w_acc s) (w_acc s)); auto. apply HI.
    - eapply vle_trans; [apply HI|]. apply rmw_t_le.
    - cbn [rmw_tail w_time]. rewrite (wi_time _ _ _ _ _ _ _ HI). apply next_time_ocons.
    - cbn [rmw_tail w_core w_pcs]. eapply SInv_agents; [exact HS|]. intros j Hj. split; auto.
      assert (j <> i) by congruence. now rewrite upd_other.
    - destruct oe as [e|]; simpl; [|rewrite Hn by auto; apply HI]. econstructor; [apply HI|]. now apply He.
    - intros m Hm. cbn [rmw_tail w_tails] in Hm. apply in_app_or in Hm as [Hm|[<-|[]]]; [now left|right].
      cbn [m_word m_view]. split.
      + exists (qclosed q'), (length (qlog q')). auto.
      + apply (rmw_t_msg s es q g); auto. apply HI.
    - apply rmw_t_le.
    - apply (rmw_t_ok s es q g); auto. apply HI.
    - intros e E. destruct (He _ E) as (_ & H1 & H2 & _). auto.
  Qed.

  Lemma wi_rmw_head s es q g i c' p' oe :
    WI s es q g -> holder (w_pcs s i) = false -> holder p' = false ->
    c_head c' = enc (qtaken q) ->
    SInv c' (w_pcs s) q g ->
    AW (w_states s) (rmw_view_h s (w_views s i) oe) (w_call s i) q g i p' ->
    (forall e, oe = Some e -> sstep q e q /\ is_commit e = false /\ is_release e = false /\ is_take e = false) ->
    WI (rmw_head o s i c' p' (w_views s i) oe) (ocons oe es) q g.
  Proof.
    intros HI Hh Hh' Htw HS HA He.
    assert (He1 : forall e n, oe = Some e -> marks e es n = true -> S (fidx n) <= v_state (w_views s i) (ifld n)).
    { intros e n E Hm. destruct (He _ E) as (_ & H1 & _ & H2). rewrite no_mark in Hm by auto. discriminate. }
    apply (wi_quiet W cap pol s es q g i _ oe q g p' (rmw_view_h s (w_views s i) oe)); auto; try reflexivity.
    - apply (vok_mono cap es oe (w_states s) (w_states s) (w_acc s) (w_acc s)); auto. apply HI.
    - eapply vle_trans; [apply HI|]. apply rmw_h_le.
    - cbn [rmw_head w_time]. rewrite (wi_time _ _ _ _ _ _ _ HI). apply next_time_ocons.
    - cbn [rmw_head w_core w_pcs]. eapply SInv_agents; [exact HS|]. intros j Hj. split; auto.
      assert (j <> i) by congruence. now rewrite upd_other.
    - destruct oe as [e|]; simpl; [|apply HI]. econstructor; [apply HI|]. now apply He.
    - intros m Hm. cbn [rmw_head w_heads] in Hm. apply in_app_or in Hm as [Hm|[<-|[]]]; [now left|right].
      cbn [m_word m_view]. split.
      + exists (qtaken q). auto.
      + apply (rmw_h_msg s es q g); auto. apply HI.
    - apply rmw_h_le.
    - apply (rmw_h_ok s es q g); auto. apply HI.
    - intros e E. destruct (He _ E) as (_ & H1 & H2 & _). auto.
  Qed.

  (** The states of a slot that does not change. *)
  Lemma same_words s es q g p : WI s es q g ->
    (forall n m, ifld n = ifld p -> nth_error (w_states s (ifld p)) (fidx n) = Some m -> m_word m = enc n) /\
    (forall n m, ifld n = ifld p -> nth_error (w_states s (ifld p)) (S (fidx n)) = Some m -> m_word m = (enc n + 1)%N).
  Proof.
    intros HI. split; intros n m E Hm; rewrite <- E in Hm.
    - eapply (wi_free _ _ _ _ _ _ _ HI); eauto.
    - eapply (wi_full _ _ _ _ _ _ _ HI); eauto.
  Qed.

  (** *** Reserving a position *)
  Lemma wi_reserve s es q g i t :
    WI s es q g -> (N.of_nat (length (qlog q)) < B)%N -> w_pcs s i = PCas t -> c_tail (w_core s) = t ->
    exists q', WI (rmw_tail o s i (set_tail (w_core s) (let '(idx, gen) := idx_gen P t in next P idx gen))
                      (PInit t) (w_views s i) (Some (Reserve i))) (Reserve i :: es) q' g /\
      sstep q (Reserve i) q' /\ g i = length (qlog q) /\
      got (w_states s) (w_views s i) (ifld (g i)) (fidx (g i)).
  Proof.
    intros HI Hfew Hpc Ht. pose proof (wi_S _ _ _ _ _ _ _ HI) as HS.
    pose proof (wi_agents _ _ _ _ _ _ _ HI i) as HA. rewrite Hpc in HA. destruct HA as [[Et Hle] Hgot].
    assert (Hw := i_tail _ _ _ _ _ _ HS). rewrite Ht, Et in Hw. pose proof (slack_span _ _ Hwf).
    assert (Hg : g i = length (qlog q) /\ qclosed q = false).
    { apply (word_inj _ _ Hwf) in Hw as (Hb & Hi1 & Hi2). split; [|congruence].
      eapply (fields_inj _ _ Hwf); eauto. lia. }
    destruct Hg as [Hg Hcl]. pose proof Hgot as (m & Hm & Hmv & Hms). pose proof (nth_lt _ _ _ Hm) as HmL.
    rewrite Hg in HmL. destruct (tail_free W cap pol Hwf s es q g HI Hfew HmL) as (Hroom & HL & Hval).
    assert (HAi : AInv i (PCas t) [Invoke i OpPush] [q] q g).
    { cbn [CoreInv.AInv]. split; [|auto].
      - unfold push_local. repeat split; auto.
        + cbn. rewrite Nat.eqb_refl. lia.
        + exists q. pose proof (i_order _ _ _ _ _ _ HS). split; [apply since_call_head|]. rewrite Hg. repeat split; auto; lia.
        + exists OpPush. cbn. now rewrite Nat.eqb_refl. }
    assert (Hq : holder (w_pcs s i) = true -> PCas t = w_pcs s i) by (rewrite Hpc; discriminate).
    pose proof (sc_inv s es q g i (PCas t) HI Hq HAi) as HSC.
    destruct (inv_reserve W cap pol Hwf _ _ _ _ _ i t HSC (calm_one i)) as (q' & HI' & Hss).
    { cbn. unfold quieted. now rewrite Nat.eqb_refl. }
    { exact Ht. }
    exists q'. split; [|auto]. pose proof (inv_s _ _ _ _ _ _ _ HI') as HS'. cbn [st_core st_agents] in HS'.
    apply sc_back in HS'.
    assert (Eq' : qlog q' = qlog q ++ [Reserved i] /\ qtaken q' = qtaken q /\ qclosed q' = false).
    { inversion Hss; subst; auto. }
    destruct Eq' as (El & Etk & Ec).
    assert (Hlen' : length (qlog q') = S (length (qlog q))) by (rewrite El, app_length; simpl; lia).
    destruct (same_words s es q g (length (qlog q)) HI) as [Hw1 Hw2].
    assert (HVle : vle (w_views s i) (rmw_view_t s (w_views s i) (Some (Reserve i)))) by apply rmw_t_le.
    assert (HVok : vok (Reserve i :: es) (w_states s) (w_acc s) (rmw_view_t s (w_views s i) (Some (Reserve i)))).
    { apply (rmw_t_ok s es q g (w_views s i) (Some (Reserve i))); auto; [|apply HI]. intros e n [= <-] Hmk. discriminate. }
    apply (wi_update W cap pol Hwf s es q g i _ (Reserve i) q' (length (qlog q)) (Reserved i) (PInit t)
             (rmw_view_t s (w_views s i) (Some (Reserve i))) []); auto; try reflexivity.
    - now rewrite app_nil_r.
    - cbn [rmw_tail w_time next_time]. now rewrite (wi_time _ _ _ _ _ _ _ HI).
    - lia.
    - pose proof (cap_pos _ _ Hwf). lia.
    - rewrite El. apply nth_snoc.
    - intros n Hn. rewrite El. destruct (Nat.lt_ge_cases n (length (qlog q))) as [Hlt|Hge].
      + now apply nth_error_app1.
      + rewrite nth_error_app2 by auto. destruct (n - length (qlog q)) as [|k] eqn:E; [lia|]. simpl.
        symmetry. destruct k; apply nth_error_None; lia.
    - intros x j Hx. apply nth_lt in Hx. lia.
    - intros j [= <-]. reflexivity.
    - lia.
    - congruence.
    - econstructor; [apply HI|exact Hss].
    - intros m0 Hm0. cbn [rmw_tail w_tails] in Hm0. apply in_app_or in Hm0 as [Hm0|[<-|[]]]; [now left|right].
      cbn [m_word m_view]. split.
      + exists false, (length (qlog q')). cbn [c_tail set_tail].
        rewrite Et, (idx_gen_enc _ _ Hwf), (next_enc _ _ Hwf), Hg, Hlen'. repeat split; auto. discriminate.
      + apply (rmw_t_msg s es q g (w_views s i) (Some (Reserve i))); auto; [|apply HI]. intros e n [= <-] Hmk. discriminate.
    - intros m0 [].
    - simpl. rewrite HL. lia.
    - intros _. rewrite <- Hg in Hval, HL |- *.
      rewrite (last_view_at _ _ _ Hm HL) in Hval.
      destruct HVle as (L1 & L2 & _). destruct Hmv as (M1 & M2 & _).
      specialize (L1 (ifld (g i))). specialize (L2 (ifld (g i))). specialize (M2 (ifld (g i))).
      pose proof (vk_value _ _ _ _ _ HVok (ifld (g i))) as B1. pose proof (vk_state _ _ _ _ _ HVok (ifld (g i))) as B2.
      cbn [rmw_tail w_acc w_states]. lia.
    - cbn [WeakInv.AW]. split; auto. rewrite Hg, El. apply nth_snoc.
    - discriminate.
    - discriminate.
    - intros n m0 es2 j v es1 _ Hge Hn. cbn [rmw_tail w_states] in Hn. apply nth_lt in Hn. exfalso. exact (Nat.lt_irrefl _ (Nat.lt_le_trans _ _ _ Hn Hge)).
    - intros n m0 es2 j v es1 _ Hge Hn. cbn [rmw_tail w_states] in Hn. apply nth_lt in Hn. exfalso. exact (Nat.lt_irrefl _ (Nat.lt_le_trans _ _ _ Hn Hge)).
  Qed.

  (** *** Accesses to an element *)
  Definition acc_next (s : wstate) (k : N) : N -> nat := fun j => if (j =? k)%N then S (w_acc s k) else w_acc s j.
  Definition accessed (s : wstate) (i : agent) (k : N) : wstate :=
    mkWS (w_core s) (w_heads s) (w_tails s) (w_states s) (acc_next s k) (w_pcs s)
         (updv (w_views s) i (saw_value (w_views s i) k (S (w_acc s k)))) (w_call s) (w_time s).

  Lemma access_ok s i k : v_value (w_views s i) k = w_acc s k -> access s i k = Some (accessed s i k).
  Proof. intros H. unfold access. rewrite H, Nat.eqb_refl. reflexivity. Qed.

  Lemma acc_next_same s k : acc_next s k k = S (w_acc s k).
  Proof. unfold acc_next. now rewrite N.eqb_refl. Qed.
  Lemma acc_next_other s k j : j <> k -> acc_next s k j = w_acc s j.
  Proof. intros H. unfold acc_next. apply N.eqb_neq in H. now rewrite H. Qed.
  Lemma acc_next_le s k j : w_acc s j <= acc_next s k j.
  Proof. unfold acc_next. destruct (N.eqb_spec j k) as [->|]; lia. Qed.

  Lemma vok_accessed s es q g i k : WI s es q g ->
    vok es (w_states s) (acc_next s k) (saw_value (w_views s i) k (S (w_acc s k))).
  Proof.
    intros HI. apply vok_saw_value.
    - apply (vok_mono cap es None (w_states s) (w_states s) (w_acc s) (acc_next s k)); auto using acc_next_le. apply HI.
    - now rewrite acc_next_same.
  Qed.
  Lemma vle_accessed s es q g i k : WI s es q g -> vle (w_views s i) (saw_value (w_views s i) k (S (w_acc s k))).
  Proof.
    intros HI. apply vle_saw_value. pose proof (vk_value _ _ _ _ _ (wi_vagent _ _ _ _ _ _ _ HI i) k). lia.
  Qed.

  (** *** Taking the front *)
  Lemma wi_take s es q g i h b c' p' oe :
    WI s es q g -> (N.of_nat (length (qlog q)) < B)%N -> w_pcs s i = QCas h b -> c_head (w_core s) = h ->
    cstep P pol (w_core s) i (QCas h b) false = (c', p', oe) ->
    exists q' v, access s i (ifld (g i)) = Some (accessed s i (ifld (g i))) /\ oe = Some (Take i v) /\ h = enc (g i) /\
      WI (rmw_head o (accessed s i (ifld (g i))) i c' p' (w_views (accessed s i (ifld (g i))) i) oe) (Take i v :: es) q' g /\
      sstep q (Take i v) q' /\ g i = qtaken q /\
      got (w_states s) (w_views s i) (ifld (g i)) (S (fidx (g i))).
  Proof.
    intros HI Hfew Hpc Hh Hcs. pose proof (wi_S _ _ _ _ _ _ _ HI) as HS.
    pose proof (wi_agents _ _ _ _ _ _ _ HI i) as HA. rewrite Hpc in HA. destruct HA as [[Et Hle] Hgot].
    assert (Hw := i_head _ _ _ _ _ _ HS). rewrite Hh, Et in Hw. pose proof (slack_span _ _ Hwf).
    pose proof (i_order _ _ _ _ _ _ HS) as Hord.
    assert (Hg : g i = qtaken q).
    { eapply (enc_inj _ _ Hwf); eauto. lia. }
    pose proof Hgot as (m & Hm & Hmv & Hms). pose proof (nth_lt _ _ _ Hm) as HmL. rewrite Hg in HmL.
    destruct (head_full W cap pol Hwf s es q g HI Hfew HmL) as (v & Hv & HL & Hval).
    rewrite <- Hg in HL, Hval, Hv.
    assert (Hacc : v_value (w_views s i) (ifld (g i)) = w_acc s (ifld (g i)) /\
      S (v_state (w_views s i) (ifld (g i))) = length (w_states s (ifld (g i)))).
    { rewrite (last_view_at _ _ _ Hm HL) in Hval. destruct Hmv as (_ & M2 & _). specialize (M2 (ifld (g i))).
      pose proof (vk_value _ _ _ _ _ (wi_vagent _ _ _ _ _ _ _ HI i) (ifld (g i))) as B1.
      pose proof (vk_state _ _ _ _ _ (wi_vagent _ _ _ _ _ _ _ HI i) (ifld (g i))) as B2. lia. }
    assert (HAi : AInv i (QCas h b) [Invoke i OpPush] [q] q g).
    { cbn [CoreInv.AInv]. split.
      - unfold pop_local. repeat split; auto.
        + cbn. rewrite Nat.eqb_refl. lia.
        + exists OpPush. cbn. now rewrite Nat.eqb_refl.
      - intros _. exists v. now rewrite <- Hg. }
    assert (Hq : holder (w_pcs s i) = true -> QCas h b = w_pcs s i) by (rewrite Hpc; discriminate).
    pose proof (sc_inv s es q g i (QCas h b) HI Hq HAi) as HSC.
    destruct (inv_take W cap pol Hwf _ _ _ _ _ i h b c' p' oe HSC (calm_one i)) as (q' & v' & HI' & Hss & -> & -> & ->).
    { cbn. unfold quieted. now rewrite Nat.eqb_refl. }
    { exact Hh. }
    { exact Hcs. }
    assert (Eq' : v' = v /\ qlog q' = set_nth (qlog q) (g i) (Held i v) /\ qtaken q' = S (g i) /\ qclosed q' = qclosed q).
    { inversion Hss; subst. rewrite <- Hg in *. cbn. split; [congruence|]. repeat split; auto. congruence. }
    destruct Eq' as (-> & El & Etk & Ec).
    exists q', v. split; [apply access_ok, Hacc|]. split; auto. split; auto. split; [|auto].
    pose proof (inv_s _ _ _ _ _ _ _ HI') as HS'. cbn [st_core st_agents] in HS'. apply sc_back in HS'.
    assert (Hlen' : length (qlog q') = length (qlog q)) by (rewrite El; apply set_nth_length).
    pose proof (nth_lt _ _ _ Hv) as Hlt.
    destruct (same_words s es q g (g i) HI) as [Hw1 Hw2].
    cbn [accessed w_views]. rewrite updv_same.
    set (k := ifld (g i)) in *. set (v1 := saw_value (w_views s i) k (S (w_acc s k))).
    pose proof (vok_accessed s es q g i k HI) as Hok1. pose proof (vle_accessed s es q g i k HI) as Hle1. fold v1 in Hok1, Hle1.
    assert (Hmk : forall e n, Some (Take i v) = Some e -> marks e es n = true -> S (fidx n) <= v_state v1 (ifld n)).
    { intros e n [= <-] Hmk. cbn [marks] in Hmk. apply Nat.eqb_eq in Hmk.
      pose proof (h_take _ _ _ (chain_ok _ _ _ _ _ _ (wi_chain _ _ _ _ _ _ _ HI))) as Htk.
      assert (n = g i) as -> by congruence. exact Hms. }
    set (V := rmw_view_h s v1 (Some (Take i v))).
    assert (HVle : vle v1 V) by apply rmw_h_le.
    assert (HVok : vok (Take i v :: es) (w_states s) (acc_next s k) V).
    { apply (rmw_h_ok s es q g v1 (Some (Take i v))); auto using acc_next_le. }
    assert (Hown : v_value V k = acc_next s k k /\ S (v_state V k) = length (w_states s k)).
    { destruct HVle as (L1 & L2 & _). specialize (L1 k). specialize (L2 k).
      destruct Hle1 as (L3 & _). specialize (L3 k).
      pose proof (vk_value _ _ _ _ _ HVok k) as B1. pose proof (vk_state _ _ _ _ _ HVok k) as B2.
      assert (v_value v1 k = S (w_acc s k)) by (unfold v1; cbn; now rewrite N.eqb_refl).
      rewrite acc_next_same in *. lia. }
    apply (wi_update W cap pol Hwf s es q g i _ (Take i v) q' (g i) (Held i v)
             (QHold (mkRef k (enc (g i + cap)))) V []); auto; try reflexivity.
    - now rewrite app_nil_r.
    - intros j Hj. apply acc_next_other. exact Hj.
    - apply acc_next_le.
    - intros j. cbn [rmw_head w_views accessed]. unfold V, rmw_view_h.
      destruct (Nat.eq_dec j i) as [->|Hj]; [now rewrite !updv_same|now rewrite !updv_other].
    - cbn [rmw_head w_time next_time]. cbn [accessed w_time]. now rewrite (wi_time _ _ _ _ _ _ _ HI).
    - lia.
    - lia.
    - rewrite El. apply nth_set_same; auto.
    - intros n Hn. rewrite El. apply nth_set_other. auto.
    - intros x j Hx Ho. rewrite Hv in Hx. injection Hx as <-. discriminate.
    - intros j [= <-]. reflexivity.
    - lia.
    - congruence.
    - econstructor; [apply HI|exact Hss].
    - intros m0 Hm0. cbn [rmw_head w_heads accessed] in Hm0. apply in_app_or in Hm0 as [Hm0|[<-|[]]]; [now left|right].
      cbn [m_word m_view]. split.
      + exists (S (g i)). cbn [c_head set_head]. split; auto. lia.
      + apply (rmw_h_msg s es q g v1 (Some (Take i v))); auto. apply acc_next_le.
    - intros m0 [].
    - change (length (w_states s k) = fidx (g i) + 2). lia.
    - eapply vle_trans; eauto.
    - discriminate.
    - cbn [WeakInv.AW]. split; auto. exists v. rewrite El. apply nth_set_same; auto.
    - discriminate.
    - discriminate.
    - intros n m0 es2 j u es1 _ Hge Hn. cbn [rmw_head w_states accessed] in Hn. apply nth_lt in Hn. fold k in Hge, Hn. exfalso. exact (Nat.lt_irrefl _ (Nat.lt_le_trans _ _ _ Hn Hge)).
    - intros n m0 es2 j u es1 _ Hge Hn. cbn [rmw_head w_states accessed] in Hn. apply nth_lt in Hn. fold k in Hge, Hn. exfalso. exact (Nat.lt_irrefl _ (Nat.lt_le_trans _ _ _ Hn Hge)).
  Qed.

  Lemma owner_here s es q g p e i : WI s es q g -> nth_error (qlog q) p = Some e -> owner e = Some i ->
    p = g i /\ length (qlog q) <= p + cap /\ holder (w_pcs s i) = true.
  Proof.
    intros HI Hn Ho. pose proof (wi_S _ _ _ _ _ _ _ HI) as HS.
    destruct (owner_holder _ _ _ _ _ _ HS _ _ _ Hn Ho) as [H1 H2]. split; auto. split; auto.
    eapply live_in_window; eauto. intros v ->. discriminate.
  Qed.

  (** *** The owner of an entry accesses its element *)
  Lemma wi_entry s es q g i e e' sl ev p' :
    WI s es q g -> nth_error (qlog q) (g i) = Some e -> owner e = Some i -> owner e' = Some i ->
    (done_entry e' <-> done_entry e) -> cells e' = cells e ->
    agent_of ev = i -> is_reserve ev = false -> is_take ev = false -> is_commit ev = false -> is_release ev = false ->
    let q' := set_entry q (g i) e' in
    sstep q ev q' ->
    slot_ok W cap q' g (upd (w_pcs s) i p') (g i) e' sl ->
    AInv i p' [ev; Invoke i OpPush] [q'; q] q' g ->
    (forall st V C, AW st V C q' g i p') ->
    let k := ifld (g i) in let s1 := accessed s i k in
    access s i k = Some s1 /\
    WI (local (mkWS (set_slot (w_core s) k sl) (w_heads s1) (w_tails s1) (w_states s1) (w_acc s1) (w_pcs s1) (w_views s1)
                    (w_call s1) (w_time s1)) i p' (w_views s1 i) (Some ev)) (ev :: es) q' g.
  Proof.
    intros HI Hn Ho Ho' Hdone Hcells Hag Hr Ht Hc Hrl q' Hss Hsl HA HAW k s1.
    pose proof (wi_S _ _ _ _ _ _ _ HI) as HS.
    destruct (wi_own _ _ _ _ _ _ _ HI _ _ _ Hn Ho) as [Hval Hst]. fold k in Hval, Hst.
    destruct (owner_here s es q g _ _ _ HI Hn Ho) as (_ & Hwin & Hh).
    split; [now apply access_ok|].
    assert (HSC : Inv (mkS (w_core s) (quieted (w_pcs s) i (w_pcs s i))) [Invoke i OpPush] [q] q g).
    { apply (sc_inv s es q g); auto. pose proof (wi_agents _ _ _ _ _ _ _ HI i) as HA0.
      destruct (w_pcs s i); try discriminate; exact HA0. }
    assert (HI' := inv_entry_update W cap Hwf _ _ _ _ g i e e' sl ev p' HSC Hn Ho Hdone
      ltac:(intros j Hj; congruence) Hag Hr Ht).
    cbn [st_core st_agents] in HI'. fold q' in HI'.
    assert (HS' : SInv (set_slot (w_core s) k sl) (upd (w_pcs s) i p') q' g).
    { apply sc_back with (p := w_pcs s i). apply HI'; [|exact HA].
      revert Hsl. destruct e'; cbn [slot_ok owner] in *; try discriminate; injection Ho' as ->; rewrite !upd_same; auto. }
    assert (Hlen' : length (qlog q') = length (qlog q)) by apply set_nth_length.
    pose proof (nth_lt _ _ _ Hn) as Hlt.
    destruct (same_words s es q g (g i) HI) as [Hw1 Hw2].
    assert (Es1 : w_views s1 i = saw_value (w_views s i) k (S (w_acc s k))) by (cbn [s1 accessed w_views]; apply updv_same).
    rewrite Es1. set (v1 := saw_value (w_views s i) k (S (w_acc s k))).
    pose proof (vok_accessed s es q g i k HI) as Hok1. pose proof (vle_accessed s es q g i k HI) as Hle1. fold v1 in Hok1, Hle1.
    set (V := with_event v1 (Some ev) (length es)).
    assert (HVle : vle v1 V) by apply vle_event.
    assert (HVok : vok (ev :: es) (w_states s) (acc_next s k) V).
    { apply (vok_event cap es (Some ev)); auto. intros x n [= <-] Hm. rewrite no_mark in Hm by auto. discriminate. }
    assert (Hown : v_value V k = acc_next s k k /\ S (v_state V k) = length (w_states s k)).
    { destruct HVle as (L1 & L2 & _). specialize (L1 k). specialize (L2 k).
      destruct Hle1 as (L3 & _). specialize (L3 k).
      pose proof (vk_value _ _ _ _ _ HVok k) as B1. pose proof (vk_state _ _ _ _ _ HVok k) as B2.
      assert (v_value v1 k = S (w_acc s k)) by (unfold v1; cbn; now rewrite N.eqb_refl).
      rewrite acc_next_same in *. lia. }
    apply (wi_update W cap pol Hwf s es q g i _ ev q' (g i) e' p' V []); auto; try reflexivity.
    - now rewrite app_nil_r.
    - intros j Hj. apply acc_next_other. exact Hj.
    - apply acc_next_le.
    - intros j. cbn [local w_views]. unfold V. rewrite <- (wi_time _ _ _ _ _ _ _ HI).
      destruct (Nat.eq_dec j i) as [->|Hj]; [now rewrite !updv_same|].
      rewrite !updv_other by auto. cbn [s1 accessed w_views]. now rewrite updv_other.
    - cbn [local w_time s1 accessed next_time]. now rewrite (wi_time _ _ _ _ _ _ _ HI).
    - lia.
    - lia.
    - apply nth_set_same; auto.
    - intros n Hne. apply nth_set_other. auto.
    - intros x j Hx Hj. rewrite Hn in Hx. injection Hx as <-. congruence.
    - intros j Hj. congruence.
    - econstructor; [apply HI|exact Hss].
    - intros m0 [].
    - change (length (w_states s k) = fidx (g i) + cells e'). rewrite Hcells. apply (wi_len _ _ _ _ _ _ _ HI); auto.
    - eapply vle_trans; eauto.
    - congruence.
    - intros n m0 j u ->. discriminate.
    - intros n m0 j u ->. discriminate.
    - intros n m0 es2 j u es1 _ Hge Hn0. cbn [local w_states s1 accessed] in Hn0. apply nth_lt in Hn0. fold k in Hge, Hn0. exfalso. exact (Nat.lt_irrefl _ (Nat.lt_le_trans _ _ _ Hn0 Hge)).
    - intros n m0 es2 j u es1 _ Hge Hn0. cbn [local w_states s1 accessed] in Hn0. apply nth_lt in Hn0. fold k in Hge, Hn0. exfalso. exact (Nat.lt_irrefl _ (Nat.lt_le_trans _ _ _ Hn0 Hge)).
  Qed.
End Weak.
