(** Dropping a Ref, and the remaining steps, preserve the invariant. *)
From Coq Require Import List Bool Arith NArith Lia.
From Coq Require Import ZifyN ZifyNat ZifyBool.
From Verif Require Import Word QueueSpec CoreModel CoreArith CoreInv CoreStep HistoryFacts ChainFacts WeakModel WeakInv WeakStep History.
Import ListNotations.

Section Weak.
  Context {T : Type}.
  Variables (W : N) (cap : nat) (pol : policy T) (o : orders).
  Hypothesis Hwf : wf W cap.
  Notation P := (core_new W (N.of_nat cap)).
  Notation enc := (enc W cap).
  Notation word := (word W cap).
  Notation ifld := (ifield cap).
  Notation queue := (queue T).
  Notation event := (event T).
  Notation wstate := (@wstate T).
  Notation fresh := (fresh_pos W cap).
  Notation sstep := (sstep cap fresh (new_element pol) (recycle pol)).
  Notation chain := (chain cap fresh (new_element pol) (recycle pol)).
  Notation SInv := (SInv W cap).
  Notation Inv := (Inv W cap).
  Notation AInv := (AInv W cap).
  Notation B := (slack W cap).
  Notation WI := (WI W cap pol).
  Notation AW := (AW W cap).
  Notation fidx := (fidx cap).
  Notation vok := (vok cap).
  Hypothesis Hpush : o_push_load o = true.
  Hypothesis Hpop : o_pop_load o = true.
  Hypothesis Hdrop : o_drop o = true.

  (** *** Ref::drop *)
  Lemma committed_since es2 (j : agent) (v : T) es1 n : last_is j (reservers es1) n = true ->
    exists w, committed (es2 ++ Commit j v :: es1) n = Some w.
  Proof.
    intros H. induction es2 as [|e es2 [w IH]]; cbn [app committed]; [rewrite H; eauto|].
    destruct e; eauto. destruct (last_is i _ n); eauto.
  Qed.
  Lemma released_since es2 (j : agent) (v : T) es1 n : last_is j (takers es1) n = true ->
    exists w, released (es2 ++ Release j v :: es1) n = Some w.
  Proof.
    intros H. induction es2 as [|e es2 [w IH]]; cbn [app released]; [rewrite H; eauto|].
    destruct e; eauto. destruct (last_is i _ n); eauto.
  Qed.

  Definition dropped (s : wstate) (i : agent) (r : ref) (e : event) : wstate :=
    let l := w_states s (r_idx r) in
    let v1 := with_event (saw_state (w_views s i) (r_idx r) (length l)) (Some e) (w_time s) in
    mkWS (ref_drop (w_core s) r) (w_heads s) (w_tails s)
         (fun j => if (j =? r_idx r)%N then l ++ [mkM (r_new r) v1] else w_states s j) (w_acc s)
         (upd (w_pcs s) i Idle) (updv (w_views s) i v1) (w_call s) (S (w_time s)).

  Lemma store_ok s i r e : S (v_state (w_views s i) (r_idx r)) = length (w_states s (r_idx r)) ->
    store_state o s i r e = (dropped s i r e, Some e).
  Proof.
    intros H. unfold store_state, newest. rewrite <- H. cbn [Nat.pred]. rewrite Nat.eqb_refl, Hdrop, H. reflexivity.
  Qed.

  Lemma fidx_even n : exists x, fidx n = 2 * x.
  Proof. unfold WeakInv.fidx. eauto. Qed.

  Lemma wi_drop s es q g i r e e' ev :
    WI s es q g -> nth_error (qlog q) (g i) = Some e -> owner e = Some i -> owner e' = None ->
    (done_entry e' <-> done_entry e) -> r_idx r = ifld (g i) ->
    agent_of ev = i -> is_reserve ev = false -> is_take ev = false ->
    ((exists v, ev = Commit i v /\ e = Filling i v /\ e' = Published v /\ r_new r = (enc (g i) + 1)%N) \/
     (exists v, ev = Release i v /\ e = Held i v /\ e' = Released v /\ r_new r = enc (g i + cap))) ->
    let q' := set_entry q (g i) e' in
    sstep q ev q' ->
    store_state o s i r ev = (dropped s i r ev, Some ev) /\ WI (dropped s i r ev) (ev :: es) q' g.
  Proof.
    intros HI Hn Ho Ho' Hdone Hr Hag Hres Htake Hcase q' Hss.
    pose proof (wi_S _ _ _ _ _ _ _ HI) as HS.
    destruct (wi_own _ _ _ _ _ _ _ HI _ _ _ Hn Ho) as [Hval Hst].
    destruct (owner_here W cap pol s es q g _ _ _ HI Hn Ho) as (_ & Hwin & Hh).
    pose proof (wi_len _ _ _ _ _ _ _ HI _ _ Hn Hwin) as HL.
    pose proof (i_slot _ _ _ _ _ _ HS _ _ Hn Hwin) as Hsl.
    split; [apply store_ok; now rewrite Hr|].
    set (k := ifld (g i)) in *.
    assert (HSC : Inv (mkS (w_core s) (quieted (w_pcs s) i (w_pcs s i))) [Invoke i OpPush] [q] q g).
    { apply (sc_inv W cap pol s es q g); auto. pose proof (wi_agents _ _ _ _ _ _ _ HI i) as HA0.
      destruct (w_pcs s i); try discriminate; exact HA0. }
    assert (HI' := inv_entry_update W cap Hwf _ _ _ _ g i e e' (mkSlot (r_new r) (s_value (c_slots (w_core s) k))) ev Idle HSC
      Hn Ho Hdone ltac:(intros j Hj; congruence) Hag Hres Htake).
    cbn [st_core st_agents] in HI'. fold q' in HI'.
    assert (HS' : SInv (ref_drop (w_core s) r) (upd (w_pcs s) i Idle) q' g).
    { apply sc_back with (p := w_pcs s i). unfold ref_drop, set_state. rewrite Hr. apply HI'; [|exact I].
      destruct Hcase as [(v & -> & -> & -> & E)|(v & -> & -> & -> & E)]; cbn [slot_ok s_state s_value] in *; rewrite E; tauto. }
    assert (Hlen' : length (qlog q') = length (qlog q)) by apply set_nth_length.
    pose proof (nth_lt _ _ _ Hn) as Hlt.
    destruct (same_words W cap pol s es q g (g i) HI) as [Hw1 Hw2]. fold k in Hw1, Hw2.
    pose proof (chain_ok _ _ _ _ _ _ (wi_chain _ _ _ _ _ _ _ HI)) as Hok.
    pose proof (h_entry _ _ _ Hok _ _ Hn) as Heh.
    set (v1 := saw_state (w_views s i) k (length (w_states s k))).
    set (V := with_event v1 (Some ev) (length es)).
    set (m := mkM (r_new r) V).
    set (st' := fun j => if (j =? k)%N then w_states s k ++ [m] else w_states s j).
    assert (Hstk : st' k = w_states s k ++ [m]) by (unfold st'; now rewrite N.eqb_refl).
    assert (Hsto : forall j, j <> k -> st' j = w_states s j) by (intros j Hj; unfold st'; apply N.eqb_neq in Hj; now rewrite Hj).
    assert (Hle1 : vle (w_views s i) v1) by (apply vle_saw_state; lia).
    assert (HVle : vle v1 V) by apply vle_event.
    assert (Hlens : forall j, length (w_states s j) <= length (st' j)).
    { intros j. destruct (N.eq_dec j k) as [->|Hj]; [rewrite Hstk, app_length; lia|rewrite Hsto; auto]. }
    assert (Hv1s : v_state v1 k = length (w_states s k)) by (unfold v1; cbn; now rewrite N.eqb_refl).
    assert (Hok1 : vok es st' (w_acc s) v1).
    { apply vok_saw_state.
      - apply (vok_mono cap es None (w_states s) st' (w_acc s) (w_acc s)); auto. apply HI.
      - lia.
      - rewrite Hstk, app_length. simpl. lia. }
    assert (Hmine : forall j u n, ev = Commit j u -> last_is j (reservers es) n = true -> n = g i).
    { intros j u n -> Hl. destruct Hcase as [(v & [= -> ->] & -> & _)|(v & [=] & _)]. destruct Heh as [Heh _].
      eapply last_is_unique; eauto. }
    assert (HVok : vok (ev :: es) st' (w_acc s) V).
    { apply (vok_event cap es (Some ev)); auto. intros x n [= <-] Hl.
      destruct Hcase as [(v & E & -> & _)|(v & E & -> & _)]; rewrite E in Hl; cbn [marks] in Hl; [|discriminate].
      rewrite (Hmine i v n E Hl). fold k. cbn [cells] in HL. lia. }
    assert (EV : with_event (saw_state (w_views s i) (r_idx r) (length (w_states s (r_idx r)))) (Some ev) (w_time s) = V).
    { rewrite Hr, (wi_time _ _ _ _ _ _ _ HI). reflexivity. }
    assert (Est : w_states (dropped s i r ev) = st').
    { unfold dropped. rewrite EV. cbn [w_states]. now rewrite Hr. }
    assert (Hvals : v_value V k = w_acc s k).
    { destruct HVle as (_ & L2 & _). specialize (L2 k). destruct Hle1 as (_ & L3 & _). specialize (L3 k).
      pose proof (vk_value _ _ _ _ _ HVok k). lia. }
    assert (Hnew : forall n0 m0, length (w_states s k) <= n0 -> nth_error (st' k) n0 = Some m0 -> n0 = length (w_states s k) /\ m0 = m).
    { intros n0 m0 Hge Hm0. rewrite Hstk in Hm0. pose proof (nth_lt _ _ _ Hm0) as Hb. rewrite app_length in Hb. simpl in Hb.
      assert (n0 = length (w_states s k)) by lia. subst n0. rewrite nth_snoc in Hm0. split; congruence. }
    assert (Hknow : v_know V (length es) = true) by (unfold V; cbn; now rewrite Nat.eqb_refl).
    assert (Hfree : forall n, ifld n = k -> fidx n = length (w_states s k) -> n = g i + cap /\
        exists v, ev = Release i v /\ e = Held i v /\ r_new r = enc (g i + cap)).
    { intros n En Ef. destruct (fidx_even n) as [x Hx]. destruct (fidx_even (g i)) as [y Hy].
      destruct Hcase as [(v & -> & -> & -> & E)|(v & -> & -> & -> & E)]; cbn [cells] in HL.
      - exfalso. clear - Ef HL Hx Hy. lia.
      - split; [|eauto]. apply (fidx_inj W cap Hwf).
        + rewrite En. symmetry. apply (ifield_add_cap W cap Hwf).
        + rewrite (fidx_add W cap Hwf). clear - Ef HL. lia. }
    assert (Hfull : forall n, ifld n = k -> S (fidx n) = length (w_states s k) -> n = g i /\
        exists v, ev = Commit i v /\ e = Filling i v /\ r_new r = (enc (g i) + 1)%N).
    { intros n En Ef. destruct (fidx_even n) as [x Hx]. destruct (fidx_even (g i)) as [y Hy].
      destruct Hcase as [(v & -> & -> & -> & E)|(v & -> & -> & -> & E)]; cbn [cells] in HL.
      - split; [|eauto]. apply (fidx_inj W cap Hwf); [exact En|clear - Ef HL; lia].
      - exfalso. clear - Ef HL Hx Hy. lia. }
    assert (HnewC : forall n0 m0, nth_error (st' k) n0 = Some m0 ->
        nth_error (w_states s k) n0 = Some m0 \/ (n0 = length (w_states s k) /\ m0 = m)).
    { intros n0 m0 Hm0. destruct (Nat.lt_ge_cases n0 (length (w_states s k))) as [Hlt0|Hge0]; [left|right; auto].
      rewrite Hstk in Hm0. now rewrite nth_error_app1 in Hm0. }
    apply (wi_update W cap pol Hwf s es q g i _ ev q' (g i) e' Idle V [m]); rewrite ?Est; auto; try reflexivity.
    - intros j. unfold dropped. rewrite EV. reflexivity.
    - cbn [dropped w_time]. now rewrite (wi_time _ _ _ _ _ _ _ HI).
    - rewrite Hlen'. auto.
    - rewrite Hlen'. auto.
    - apply nth_set_same; auto.
    - intros n Hne. apply nth_set_other. auto.
    - intros x j Hx Hj. rewrite Hn in Hx. injection Hx as <-. congruence.
    - intros j Hj. congruence.
    - econstructor; [apply HI|exact Hss].
    - intros m0 [<-|[]]. exact HVok.
    - intros n m0 En Hm0. destruct (HnewC _ _ Hm0) as [Hm1|[E ->]]; [eapply Hw1; eauto|].
      destruct (Hfree n En E) as (-> & v & _ & _ & Er). exact Er.
    - intros n m0 En Hm0. destruct (HnewC _ _ Hm0) as [Hm1|[E ->]]; [eapply Hw2; eauto|].
      destruct (Hfull n En E) as (-> & v & _ & _ & Er). exact Er.
    - fold k. rewrite Hstk, app_length, HL.
      destruct Hcase as [(v & -> & -> & -> & E)|(v & -> & -> & -> & E)]; cbn [cells length]; clear; lia.
    - eapply vle_trans; eauto.
    - congruence.
    - intros _. fold k. rewrite Hstk, last_view_snoc. exact Hvals.
    - intros n m0 j v Ev Hm0 Hl. rewrite (Hmine j v n Ev Hl) in Hm0. fold k in Hm0.
      destruct (HnewC _ _ Hm0) as [Hm1|[E ->]]; [|exact Hknow].
      exfalso. apply nth_lt in Hm1. subst ev.
      destruct Hcase as [(u & _ & -> & _)|(u & [=] & _)]. cbn [cells] in HL. clear - Hm1 HL. lia.
    - intros n m0 j v Ev Hm0 Hl. assert (n = g i) as ->.
      { subst ev. destruct Hcase as [(u & [=] & _)|(u & [= -> ->] & -> & _)]. destruct Heh as [Heh _].
        eapply last_is_unique; eauto. }
      fold k in Hm0. destruct (HnewC _ _ Hm0) as [Hm1|[E ->]]; [|exact Hknow].
      exfalso. apply nth_lt in Hm1. subst ev. rewrite (fidx_add W cap Hwf) in Hm1.
      destruct Hcase as [(u & [=] & _)|(u & _ & -> & _)]. cbn [cells] in HL. clear - Hm1 HL. lia.
    - intros n m0 es2 j v es1 En Hge Hm0 Ees Hl. destruct (Hnew _ _ Hge Hm0) as [E _].
      destruct (Hfull n En E) as (-> & u & _ & -> & _). destruct Heh as (_ & Heh & _).
      destruct (committed_since es2 j v es1 (g i) Hl) as [w Hw]. rewrite <- Ees in Hw. congruence.
    - intros n m0 es2 j v es1 En Hge Hm0 Ees Hl. destruct (Hnew _ _ Hge Hm0) as [E _].
      assert (En' : ifld (n + cap) = k) by (rewrite (ifield_add_cap W cap Hwf); exact En).
      destruct (Hfree (n + cap) En' E) as (E2 & u & _ & -> & _). assert (n = g i) as -> by (clear - E2; lia).
      destruct Heh as (_ & Heh & _).
      destruct (released_since es2 j v es1 (g i) Hl) as [w Hw]. rewrite <- Ees in Hw. congruence.
  Qed.

  Lemma AW_mono st V V' C (q : queue) g i p : vle V V' -> AW st V C q g i p -> AW st V' C q g i p.
  Proof.
    intros Hv HA. destruct p; cbn [WeakInv.AW] in *; auto; destruct HA as [H1 (m & Hm & Hm1 & Hm2)]; split; auto;
      exists m; (split; [exact Hm|]); (split; [eapply vle_trans; eauto|]); destruct Hv as (L1 & _); specialize (L1 (ifld (g i))); lia.
  Qed.

  (** ** All steps *)
  Definition few (q : queue) : Prop := (N.of_nat (length (qlog q)) < B)%N.

  (** What the results say. *)
  Definition result (s : wstate) (q : queue) (e : event) : Prop :=
    match e with
    | RetFull _ => qlen q = cap
    | RetPushClosed _ => qclosed q = true
    | RetPopClosed _ => qclosed q = true /\ qlen q = 0
    | RetEmpty i => exists n, n <= qtaken q /\ v_state (w_call s i) (ifld n) <= fidx n
    | Reserve i => got (w_states s) (w_views s i) (ifld (length (qlog q))) (fidx (length (qlog q)))
    | Take i _ => got (w_states s) (w_views s i) (ifld (qtaken q)) (S (fidx (qtaken q)))
    | _ => True
    end.
  Definition step_ok (s s' : wstate) (es : list event) (q : queue) (oe : option event) : Prop :=
    exists q' g', WI s' (ocons oe es) q' g' /\ forall e, oe = Some e -> sstep q e q' /\ result s q e.

  Lemma ok_quiet s s' es q g oe : WI s' (ocons oe es) q g -> (forall e, oe = Some e -> sstep q e q /\ result s q e) ->
    step_ok s s' es q oe.
  Proof. intros H1 H2. exists q, g. auto. Qed.

  Lemma ok_tail s es q g i k acq p s' oe :
    WI s es q g -> holder (w_pcs s i) = false ->
    (forall c : core T, fst (cstep P pol c i p true) = (c, fst (push_top (T := T) P i (c_tail c))) /\
       snd (cstep P pol c i p true) = snd (push_top P i (c_tail c))) ->
    load_tail P pol s i p k acq = Some (s', oe) -> step_ok s s' es q oe.
  Proof.
    intros HI Hh Hcs H. destruct (wi_load_tail W cap pol o Hwf Hpush Hpop Hdrop s es q g i k acq p s' oe HI Hh Hcs H) as [[g' HI'] Hoe].
    exists q, g'. split; auto. intros e ->. destruct Hoe as [|[[= ->] Hc]]; [discriminate|]. split; [constructor|exact Hc].
  Qed.
  Lemma ok_head s es q g i k acq p s' oe :
    WI s es q g -> holder (w_pcs s i) = false ->
    (exists b', forall c : core T, cstep P pol c i p true = (c, QState (c_head c) b', None)) ->
    load_head P pol s i p k acq = Some (s', oe) -> step_ok s s' es q oe.
  Proof.
    intros HI Hh Hcs H. destruct (wi_load_head W cap pol o Hpush Hpop Hdrop s es q g i k acq p s' oe HI Hh Hcs H) as [[g' HI'] ->].
    exists q, g'. split; auto. discriminate.
  Qed.

  Lemma ok_len_tail s es q g i k acq p s' oe :
    WI s es q g -> holder (w_pcs s i) = false ->
    (forall c : core T, cstep P pol c i p true = (c, LTail, None) \/ (exists t, cstep P pol c i p true = (c, LHead t, None)) \/
       exists n, cstep P pol c i p true = (c, Idle, Some (RetLen i n))) ->
    load_tail P pol s i p k acq = Some (s', oe) -> step_ok s s' es q oe.
  Proof.
    intros HI Hh Hcs. unfold load_tail.
    destruct (readable (w_tails s) (v_tail (w_views s i)) k) as [m|] eqn:Hr; [|discriminate].
    apply readable_inv in Hr as [Hk Hm]. apply nth_error_In in Hm.
    assert (HV : vok es (w_states s) (w_acc s) (acquire acq (saw_tailw (w_views s i) k) (m_view m))).
    { apply vok_acquire; [apply vok_saw_tail, HI|now apply (wi_vtails _ _ _ _ _ _ _ HI)]. }
    assert (HL : vle (w_views s i) (acquire acq (saw_tailw (w_views s i) k) (m_view m))).
    { eapply vle_trans; [apply vle_saw_tail|apply vle_acquire]. }
    destruct (Hcs (set_tail (w_core s) (m_word m))) as [E|[[t E]|[n E]]]; rewrite E; intros [= <- <-]; apply (ok_quiet s _ es q g);
      try discriminate; try (apply (wi_local W cap pol o Hpush Hpop Hdrop s es q g); auto; try exact I; try discriminate;
        intros e [= <-]; repeat split; constructor).
    intros e [= <-]. split; [constructor|exact I].
  Qed.
  Lemma ok_len_head s es q g i k acq t s' oe :
    WI s es q g -> holder (w_pcs s i) = false -> load_head P pol s i (LHead t) k acq = Some (s', oe) -> step_ok s s' es q oe.
  Proof.
    intros HI Hh. unfold load_head.
    destruct (readable (w_heads s) (v_head (w_views s i)) k) as [m|] eqn:Hr; [|discriminate].
    apply readable_inv in Hr as [Hk Hm]. apply nth_error_In in Hm. cbn [cstep]. intros [= <- <-].
    apply (ok_quiet s _ es q g); [|discriminate]. apply (wi_local W cap pol o Hpush Hpop Hdrop s es q g); auto.
    - eapply vle_trans; [apply vle_saw_head|apply vle_acquire].
    - apply vok_acquire; [apply vok_saw_head, HI|now apply (wi_vheads _ _ _ _ _ _ _ HI)].
    - exact I.
    - discriminate.
  Qed.

  Lemma wi_wstep s es q g i k spur s' oe : WI s es q g -> few q -> wstep P pol o s i k spur = Some (s', oe) -> step_ok s s' es q oe.
  Proof.
    intros HI Hfew Hst. pose proof (wi_S _ _ _ _ _ _ _ HI) as HS. pose proof (i_order _ _ _ _ _ _ HS) as Hord.
    pose proof (slack_span _ _ Hwf) as Hsp. unfold few in Hfew.
    unfold wstep in Hst. pose proof (wi_agents _ _ _ _ _ _ _ HI i) as HA.
    destruct (w_pcs s i) as [| |tl|tl|tl|tl| |r|tl| |h b|h b|h b|b|r| |tl|tl hd|] eqn:Hpc; try discriminate; cbn [WeakInv.AW] in HA;
      assert (Hnh := f_equal holder Hpc); cbn [holder] in Hnh.
    - (* PStart *)
      eapply ok_tail; eauto. intros c. cbn [cstep]. destruct (push_top P i (c_tail c)). auto.
    - (* PState *)
      destruct (wi_load_push W cap pol o Hwf Hpush Hpop Hdrop s es q g i k tl s' oe HI Hfew Hpc Hst) as [HI' ->].
      apply (ok_quiet s s' es q g); auto. discriminate.
    - (* PCas *)
      destruct ((c_tail (w_core s) =? tl)%N && negb spur) eqn:Hc.
      + apply andb_true_iff in Hc as [Hc _]. apply N.eqb_eq in Hc.
        destruct (wi_reserve W cap pol o Hwf Hpush Hpop Hdrop s es q g i tl HI Hfew Hpc Hc) as (q' & HI' & Hss & Hg & Hgot).
        revert Hst. cbn [cstep]. destruct (idx_gen P tl) as [idx gen]. rewrite Hc, N.eqb_refl. cbn [andb negb].
        intros [= <- <-]. exists q', g. split; [exact HI'|]. intros e [= <-]. split; [exact Hss|].
        cbn [result]. rewrite <- Hg. exact Hgot.
      + eapply ok_tail; eauto. intros c. cbn [cstep]. destruct (idx_gen P tl) as [idx gen]. rewrite andb_false_r.
        destruct (push_top P i (c_tail c)). auto.
    - (* PInit *)
      destruct HA as [Et Hn].
      destruct (owner_here W cap pol s es q g _ _ _ HI Hn eq_refl) as (_ & Hwin & _).
      pose proof (i_slot _ _ _ _ _ _ HS _ _ Hn Hwin) as Hsl. cbn [slot_ok] in Hsl. destruct Hsl as (Hst0 & _ & _ & Hsl).
      rewrite Et, (idx_gen_enc _ _ Hwf) in Hst. cbn [fst] in Hst.
      set (r := mkRef (ifld (g i)) (enc (g i) + 1)%N) in *.
      assert (Hsome : exists ev v, sstep q ev (set_entry q (g i) (Filling i v)) /\ agent_of ev = i /\ is_reserve ev = false /\
                is_take ev = false /\ is_commit ev = false /\ is_release ev = false /\ result s q ev /\
                cstep P pol (w_core s) i (PInit (enc (g i))) false = (set_value (w_core s) (ifld (g i)) (Some v), PHold r, Some ev)).
      { cbn [cstep]. rewrite (idx_gen_enc _ _ Hwf).
        destruct (N.eqb_spec (gfield W cap (g i) * gword cap) 0) as [Hz|Hz].
        - apply (gfield_zero W cap) in Hz.
          assert (Hok : element_ok cap fresh (new_element pol) (recycle pol) q (g i) (new_element pol))
            by (left; split; auto).
          destruct Hsl as [(Hlc & Hnone)|(Hge & old & Hold & Hv)].
          + exists (HandOut i (new_element pol)), (new_element pol). rewrite Hnone. repeat split. apply s_handout; auto.
          + exists (Overwrite i old (new_element pol)), (new_element pol). rewrite Hv. repeat split. apply s_overwrite; auto.
        - assert (Hnf : ~ fresh (g i)) by (intros Hf; apply Hz; now apply (gfield_zero W cap)).
          destruct Hsl as [(Hlc & Hnone)|(Hge & old & Hold & Hv)].
          + exfalso. apply Hnf. unfold CoreInv.fresh_pos. rewrite Nat.div_small by auto.
            apply N.mod_0_l. pose proof (ngen_ge2 _ _ Hwf). lia.
          + exists (HandOut i (recycle pol old)), (recycle pol old). rewrite Hv. repeat split. apply s_handout; auto.
            right. repeat split; eauto. }
      destruct Hsome as (ev & v & Hss & E1 & E2 & E3 & E4 & E5 & Hres & Ecs).
      destruct (wi_entry W cap pol o Hwf Hpush Hpop Hdrop s es q g i (Reserved i) (Filling i v)
        (mkSlot (s_state (c_slots (w_core s) (ifld (g i)))) (Some v)) ev (PHold r)) as [Hacc HI']; auto; try reflexivity.
      { cbn [slot_ok s_state s_value]. rewrite upd_same. auto. }
      { cbn [CoreInv.AInv]. split; auto. exists v. apply nth_set_same. eapply nth_lt; eauto. }
      { intros. cbn [WeakInv.AW]. split; auto. exists v. apply nth_set_same. eapply nth_lt; eauto. }
      rewrite Hacc, Ecs in Hst. injection Hst as <- <-. exists (set_entry q (g i) (Filling i v)), g.
      split; [exact HI'|]. intros e [= <-]. auto.
    - (* PHead *)
      destruct HA as [Et Hle]. cbn [cstep] in Hst. rewrite (i_head _ _ _ _ _ _ HS), (wadd_gen _ _ Hwf) in Hst.
      destruct (N.eqb_spec (enc (qtaken q + cap)) tl) as [Eq|Neq]; injection Hst as <- <-.
      + rewrite Et in Eq.
        assert (Hg : g i = qtaken q + cap) by (eapply (enc_inj _ _ Hwf); [symmetry; exact Eq|lia|lia]).
        apply (ok_quiet s _ es q g).
        * apply (wi_rmw_head W cap pol o Hpush Hpop Hdrop); auto; try reflexivity.
          -- apply HS.
          -- intros e [= <-]. split; [constructor|auto].
        * intros e [= <-]. split; [constructor|]. cbn [result]. unfold qlen. lia.
      + apply (ok_quiet s _ es q g); [|discriminate].
        apply (wi_rmw_head W cap pol o Hpush Hpop Hdrop); auto; try reflexivity; [apply HS|discriminate].
    - (* PReload *)
      eapply ok_tail; eauto. intros c. cbn [cstep]. destruct (push_top P i (c_tail c)). auto.
    - (* QStart *)
      eapply ok_head; eauto. exists 0%N. reflexivity.
    - (* QState *)
      destruct (wi_load_pop W cap pol o Hwf Hpush Hpop Hdrop s es q g i k h b s' oe HI Hfew Hpc Hst) as [HI' ->].
      apply (ok_quiet s s' es q g); auto. discriminate.
    - (* QCas *)
      destruct ((c_head (w_core s) =? h)%N && negb spur) eqn:Hc.
      + apply andb_true_iff in Hc as [Hc _]. apply N.eqb_eq in Hc.
        destruct (cstep P pol (w_core s) i (QCas h b) false) as [[c' p'] oe'] eqn:Hcs.
        destruct (wi_take W cap pol o Hwf Hpush Hpop Hdrop s es q g i h b c' p' oe' HI Hfew Hpc Hc Hcs)
          as (q' & v & Hacc & -> & Eh & HI' & Hss & Hg & Hgot).
        rewrite Eh, (idx_gen_enc _ _ Hwf) in Hst. cbn [fst] in Hst. rewrite Hacc in Hst. injection Hst as <- <-.
        exists q', g. split; [exact HI'|]. intros e [= <-]. split; [exact Hss|]. cbn [result]. rewrite <- Hg. exact Hgot.
      + eapply ok_head; eauto. exists (backoff_spin b). intros c. cbn [cstep]. destruct (idx_gen P h) as [idx gen].
        now rewrite andb_false_r.
    - (* QTail *)
      destruct HA as [[Et Hle] Hseen]. cbn [cstep] in Hst.
      rewrite (i_tail _ _ _ _ _ _ HS), (unclosed_word _ _ Hwf), (closed_test _ _ Hwf) in Hst.
      destruct (N.eqb_spec (enc (length (qlog q))) h) as [Eq|Neq].
      + injection Hst as <- <-. rewrite Et in Eq.
        assert (Hg : g i = length (qlog q)) by (eapply (enc_inj _ _ Hwf); [symmetry; exact Eq|lia|lia]).
        apply (ok_quiet s _ es q g).
        * apply (wi_rmw_tail W cap pol o Hpush Hpop Hdrop s es q g); auto; try reflexivity; try discriminate.
          -- apply HS.
          -- intros e [= <-]. destruct (qclosed q); (split; [constructor|auto]).
        * intros e [= <-]. destruct (qclosed q) eqn:Ec; (split; [constructor|]); cbn [result].
          -- split; auto. unfold qlen. lia.
          -- exists (g i). auto.
      + destruct (done_spinning b); injection Hst as <- <-.
        * apply (ok_quiet s _ es q g).
          -- apply (wi_rmw_tail W cap pol o Hpush Hpop Hdrop s es q g); auto; try reflexivity; try discriminate; [apply HS|].
             intros e [= <-]. split; [constructor|auto].
          -- intros e [= <-]. split; [constructor|]. cbn [result]. exists (g i). auto.
        * apply (ok_quiet s _ es q g); [|discriminate].
          apply (wi_rmw_tail W cap pol o Hpush Hpop Hdrop s es q g); auto; try reflexivity; try discriminate. apply HS.
    - (* QReload *)
      eapply ok_head; eauto. exists b. reflexivity.
    - (* LTail *) eapply ok_len_tail; eauto. intros c. right. left. eexists. reflexivity.
    - (* LHead *) eapply ok_len_head; eauto.
    - (* LCheck *)
      eapply ok_len_tail; eauto. intros c. cbn [cstep]. destruct (_ =? _)%N; [right; right|left]; eauto.
  Qed.

  Lemma wi_step s es q g a s' oe : WI s es q g -> few q -> weak_step P pol o s a = Some (s', oe) -> step_ok s s' es q oe.
  Proof.
    intros HI Hfew Hst. pose proof (wi_S _ _ _ _ _ _ _ HI) as HS. pose proof (i_order _ _ _ _ _ _ HS) as Hord.
    pose proof (slack_span _ _ Hwf) as Hsp. unfold few in Hfew.
    destruct a as [i op|i k spur|i v|i|i|i pk|i j]; cbn [weak_step] in Hst.
    - (* XInvoke *)
      assert (Hi : w_pcs s i = Idle /\ s' = (let s0 := local s i (entry_pc op) (w_views s i) (Some (Invoke i op)) in
         mkWS (w_core s0) (w_heads s0) (w_tails s0) (w_states s0) (w_acc s0) (w_pcs s0) (w_views s0)
                       (updv (w_call s) i (w_views s i)) (w_time s0)) /\ oe = Some (Invoke i op)).
      { destruct op; try discriminate; destruct (w_pcs s i); try discriminate; injection Hst as <- <-;
          (split; [|split]; auto; discriminate). }
      destruct Hi as (Hpc & -> & ->). clear Hst.
      assert (Hun : unowned q i).
      { intros p x Hx Ho. destruct (owner_here W cap pol s es q g _ _ _ HI Hx Ho) as (_ & _ & Hh). rewrite Hpc in Hh. discriminate. }
      assert (HV : vok (Invoke i op :: es) (w_states s) (w_acc s) (with_event (T := T) (w_views s i) (Some (Invoke i op)) (w_time s))).
      { rewrite (wi_time _ _ _ _ _ _ _ HI). apply (vok_event cap es (Some (Invoke i op))); [apply HI|intros x n [= <-] Hmk; discriminate]. }
      apply (ok_quiet s _ es q g).
      + apply (wi_quiet W cap pol s es q g i _ (Some (Invoke i op)) q g (entry_pc op)
                 (with_event (T := T) (w_views s i) (Some (Invoke i op)) (w_time s))); auto; try reflexivity.
        * intros j Hj. cbn [w_call]. now apply updv_other.
        * cbn [w_call]. rewrite updv_same.
          apply (vok_mono cap es (Some (Invoke i op)) (w_states s) (w_states s) (w_acc s) (w_acc s)); auto. apply HI.
        * cbn [w_call]. rewrite updv_same. apply vle_event.
        * cbn [local w_time next_time ocons length]. now rewrite (wi_time _ _ _ _ _ _ _ HI).
        * change (SInv (w_core s) (upd (w_pcs s) i (entry_pc op)) q g). eapply SInv_agents; [apply HI|]. intros j Hj. split; auto.
          assert (j <> i) by (intros ->; rewrite Hpc in Hj; discriminate). now apply upd_other.
        * econstructor; [apply HI|]. now apply s_invoke.
        * apply vle_event.
        * destruct op; cbn; auto.
        * intros e [= <-]. auto.
      + intros e [= <-]. split; [now apply s_invoke|exact I].
    - (* XStep *)
      eapply wi_wstep; eauto.
    - (* XWrite *)
      assert (HA := wi_agents _ _ _ _ _ _ _ HI i).
      destruct (w_pcs s i) as [| |tl|tl|tl|tl| |r|tl| |h b|h b|h b|b|r| |tl|tl hd|] eqn:Hpc; try discriminate;
        cbn [WeakInv.AW] in HA; destruct HA as [Er [u Hn]];
        destruct (owner_here W cap pol s es q g _ _ _ HI Hn eq_refl) as (_ & Hwin & _);
        pose proof (i_slot _ _ _ _ _ _ HS _ _ Hn Hwin) as Hsl; cbn [slot_ok] in Hsl; destruct Hsl as (Hst0 & _ & _ & Hsl);
        rewrite Er in Hst; cbn [r_idx] in Hst.
      + destruct (wi_entry W cap pol o Hwf Hpush Hpop Hdrop s es q g i (Filling i u) (Filling i v)
          (mkSlot (s_state (c_slots (w_core s) (ifld (g i)))) (Some v)) (Wrote i v) (PHold r)) as [Hacc HI']; auto; try reflexivity.
        { eapply s_wrote_push; eauto. }
        { cbn [slot_ok s_state s_value]. rewrite upd_same. rewrite Er. auto. }
        { cbn [CoreInv.AInv]. split; auto. exists v. apply nth_set_same. eapply nth_lt; eauto. }
        { intros. cbn [WeakInv.AW]. split; auto. exists v. apply nth_set_same. eapply nth_lt; eauto. }
        rewrite Hacc in Hst. injection Hst as <- <-. exists (set_entry q (g i) (Filling i v)), g.
        split; [rewrite <- Er; exact HI'|]. intros e [= <-]. split; [eapply s_wrote_push; eauto|exact I].
      + destruct (wi_entry W cap pol o Hwf Hpush Hpop Hdrop s es q g i (Held i u) (Held i v)
          (mkSlot (s_state (c_slots (w_core s) (ifld (g i)))) (Some v)) (Wrote i v) (QHold r)) as [Hacc HI']; auto; try reflexivity.
        { eapply s_wrote_pop; eauto. }
        { cbn [slot_ok s_state s_value]. rewrite upd_same. rewrite Er. auto. }
        { cbn [CoreInv.AInv]. split; auto. exists v. apply nth_set_same. eapply nth_lt; eauto. }
        { intros. cbn [WeakInv.AW]. split; auto. exists v. apply nth_set_same. eapply nth_lt; eauto. }
        rewrite Hacc in Hst. injection Hst as <- <-. exists (set_entry q (g i) (Held i v)), g.
        split; [rewrite <- Er; exact HI'|]. intros e [= <-]. split; [eapply s_wrote_pop; eauto|exact I].
    - (* XDrop *)
      assert (HA := wi_agents _ _ _ _ _ _ _ HI i).
      destruct (w_pcs s i) as [| |tl|tl|tl|tl| |r|tl| |h b|h b|h b|b|r| |tl|tl hd|] eqn:Hpc; try discriminate;
        cbn [WeakInv.AW] in HA; destruct HA as [Er [u Hn]];
        destruct (owner_here W cap pol s es q g _ _ _ HI Hn eq_refl) as (_ & Hwin & _);
        pose proof (i_slot _ _ _ _ _ _ HS _ _ Hn Hwin) as Hsl; cbn [slot_ok] in Hsl; destruct Hsl as (Hst0 & _ & _ & Hsl).
      + assert (Ev : s_value (c_slots (w_core s) (r_idx r)) = Some u) by (rewrite Er; exact Hsl). rewrite Ev in Hst.
        destruct (wi_drop s es q g i r (Filling i u) (Published u) (Commit i u)) as [E HI']; auto; try reflexivity.
        { rewrite Er. reflexivity. }
        { left. exists u. rewrite Er. auto. }
        { apply s_commit. exact Hn. }
        injection Hst as Hst. rewrite E in Hst. injection Hst as <- <-.
        exists (set_entry q (g i) (Published u)), g. split; [exact HI'|]. intros e [= <-]. split; [apply s_commit; exact Hn|exact I].
      + assert (Ev : s_value (c_slots (w_core s) (r_idx r)) = Some u) by (rewrite Er; exact Hsl). rewrite Ev in Hst.
        destruct (wi_drop s es q g i r (Held i u) (Released u) (Release i u)) as [E HI']; auto; try reflexivity.
        { rewrite Er. reflexivity. }
        { right. exists u. rewrite Er. auto. }
        { apply s_release. exact Hn. }
        injection Hst as Hst. rewrite E in Hst. injection Hst as <- <-.
        exists (set_entry q (g i) (Released u)), g. split; [exact HI'|]. intros e [= <-]. split; [apply s_release; exact Hn|exact I].
    - (* XPanic *)
      assert (HA := wi_agents _ _ _ _ _ _ _ HI i).
      destruct (w_pcs s i) as [| |tl|tl|tl|tl| |r|tl| |h b|h b|h b|b|r| |tl|tl hd|] eqn:Hpc; try discriminate.
      cbn [WeakInv.AW] in HA. destruct HA as [Et Hn]. injection Hst as <- <-.
      assert (Hss : sstep q (Poison i) q) by (eapply s_poison; eauto).
      apply (ok_quiet s _ es q g); [|intros e [= <-]; split; [exact Hss|exact I]].
      apply (wi_quiet W cap pol s es q g i _ (Some (Poison i)) q g (PDead tl)
               (with_event (T := T) (w_views s i) (Some (Poison i)) (w_time s))); auto; try reflexivity.
      + cbn [local w_call]. apply (vok_mono cap es (Some (Poison i)) (w_states s) (w_states s) (w_acc s) (w_acc s)); auto. apply HI.
      + cbn [local w_call]. eapply vle_trans; [apply HI|]. apply vle_event.
      + cbn [local w_time next_time ocons length]. now rewrite (wi_time _ _ _ _ _ _ _ HI).
      + change (SInv (w_core s) (upd (w_pcs s) i (PDead tl)) q g).
        constructor; try apply HS. intros p e He Hwin.
        assert (Hs := i_slot _ _ _ _ _ _ HS _ _ He Hwin).
        destruct e as [j|j v|v|j v|v]; cbn [slot_ok] in *; auto.
        * destruct (Nat.eq_dec j i) as [->|Hj]; [|now rewrite upd_other].
          rewrite upd_same. destruct Hs as (E1 & E2 & E3 & E4). repeat split; auto. right. now rewrite Et, E2.
        * destruct (Nat.eq_dec j i) as [->|Hj]; [|now rewrite upd_other].
          destruct Hs as (_ & _ & E3 & _). congruence.
        * destruct (Nat.eq_dec j i) as [->|Hj]; [|now rewrite upd_other].
          destruct Hs as (_ & _ & E3 & _). congruence.
      + econstructor; [apply HI|exact Hss].
      + apply vle_event.
      + rewrite (wi_time _ _ _ _ _ _ _ HI). apply (vok_event cap es (Some (Poison i))); [apply HI|intros x n [= <-] Hmk; discriminate].
      + cbn [WeakInv.AW]. auto.
      + intros e [= <-]. auto.
    - (* XClose *)
      destruct (w_pcs s i) as [| |tl|tl|tl|tl| |r|tl| |h b|h b|h b|b|r| |tl|tl hd|] eqn:Hpc; try discriminate.
      assert (Hnh : holder (w_pcs s i) = false) by now rewrite Hpc.
      destruct pk; cbn [core_close] in Hst; injection Hst as <- <-.
      + apply (ok_quiet s _ es q g); [|intros e [= <-]; split; [constructor|exact I]].
        apply (wi_local W cap pol o Hpush Hpop Hdrop s es q g); auto.
        * apply vle_refl.
        * apply HI.
        * exact I.
        * intros e [= <-]. split; [constructor|auto].
      + change (next_power_of_two (N.of_nat cap + 1)) with (p_closed P). rewrite (i_tail _ _ _ _ _ _ HS).
        assert (Hb : (N.land (word (qclosed q) (length (qlog q))) (p_closed P) =? 0)%N = negb (qclosed q)).
        { pose proof (closed_test _ _ Hwf (qclosed q) (length (qlog q))) as H. destruct (qclosed q), (N.land _ _ =? 0)%N; auto; discriminate. }
        rewrite Hb. exists (mkQ (qlog q) (qtaken q) true), g.
        assert (Hss : sstep q (Closing i (negb (qclosed q))) (mkQ (qlog q) (qtaken q) true)) by constructor.
        split; [|intros e [= <-]; split; [exact Hss|exact I]].
        apply (wi_rmw_tail W cap pol o Hpush Hpop Hdrop s es q g); auto; try reflexivity; try discriminate.
        * cbn [c_tail set_tail qclosed qlog]. apply (set_closed_word _ _ Hwf).
        * constructor; try apply HS. cbn [c_tail set_tail qclosed qlog]. apply (set_closed_word _ _ Hwf).
        * intros e [= <-]. auto.
    - (* XSync *)
      injection Hst as <- <-. apply (ok_quiet s _ es q g); [|discriminate].
      apply (wi_quiet W cap pol s es q g j _ None q g (w_pcs s j) (join (w_views s j) (w_views s i))); auto; try reflexivity.
      + intros x. cbn [w_pcs]. unfold upd. destruct (Nat.eqb_spec x j) as [->|]; reflexivity.
      + cbn [w_call ocons]. apply HI.
      + cbn [w_call]. eapply vle_trans; [apply HI|apply vle_join_l].
      + cbn [w_time ocons]. apply HI.
      + apply HI.
      + apply vle_join_l.
      + cbn [ocons]. apply vok_join; apply HI.
      + cbn [w_call]. eapply AW_mono; [apply vle_join_l|apply HI].
      + discriminate.
  Qed.
End Weak.
