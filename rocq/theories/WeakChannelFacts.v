(** Invariants of the receiving side of a channel on weak memory. *)
From Coq Require Import List Bool Arith NArith Lia.
From Verif Require Import Word QueueSpec CoreModel CoreArith CoreInv RingSpec HistoryFacts RingFacts ChainFacts WaitCellModel WaitCellSpec
  WaitCellFacts WeakModel WeakSpec WeakInv WeakFacts WeakCellModel WeakCellSpec WeakCellFacts WeakChannelModel WeakChannelSpec History.
Import ListNotations.

(** ** Events of a ring step *)
Section Source.
  Context {T : Type}.
  Variables (P : params) (pol : policy T) (o : orders).

  (** Which action an event comes from. *)
  Definition source (s : wstate (T := T)) (a : waction (T := T)) (e : event T) : Prop :=
    match e with
    | Commit i _ => a = XDrop i /\ exists r, w_pcs s i = PHold r
    | Take i _ => (exists k b, a = XStep i k b) /\ in_pop (w_pcs s i) = true
    | Closing i _ => exists b, a = XClose i b
    | Invoke i p => a = XInvoke i p
    | RetEmpty i | RetPopClosed i => (exists k b, a = XStep i k b) /\ in_pop (w_pcs s i) = true
    | RetFull i | RetPushClosed i | Reserve i => (exists k b, a = XStep i k b) /\ in_pop (w_pcs s i) = false
    | _ => True
    end.

  Definition cstep_event (i : agent) (p : pc) (e : event T) : Prop :=
    match e with
    | Take j _ | RetEmpty j | RetPopClosed j => j = i /\ in_pop p = true
    | RetFull j | RetPushClosed j | Reserve j => j = i /\ in_pop p = false
    | Commit _ _ | Closing _ _ | Invoke _ _ => False
    | _ => True
    end.
  Lemma cstep_source c i p spur c' p' e : cstep P pol c i p spur = (c', p', Some e) -> cstep_event i p e.
  Proof.
    intros H. destruct p; cbn [cstep] in H; unfold push_top in H;
      destruct (negb (N.land (c_tail c) (p_closed P) =? 0)%N);
      repeat match type of H with context [match ?x with _ => _ end] => destruct x end;
      try discriminate; injection H as <- <- <-; cbn; auto.
  Qed.
  Lemma race_event (s : wstate (T := T)) i s' e : Some (race s i) = Some (s', e) -> e = Some (UB i).
  Proof. unfold race. now intros [= <- <-]. Qed.

  Lemma wstep_source s i k spur s' e : wstep P pol o s i k spur = Some (s', Some e) -> cstep_event i (w_pcs s i) e.
  Proof.
    unfold wstep, load_tail, load_head, load_state. intros H.
    destruct (w_pcs s i) eqn:Ep; try discriminate.
    all: repeat match type of H with
         | context [readable ?a ?b ?c] => destruct (readable a b c); [|discriminate]
         | context [if ?b then _ else _] => destruct b
         | context [access ?a ?b ?c] => destruct (access a b c) eqn:?; [|apply race_event in H; injection H as ->; exact I]
         | context [cstep ?P ?pol ?c ?i ?p ?b] => destruct (cstep P pol c i p b) as [[c' p'] e'] eqn:Ec
         end; injection H as <- ->; eapply cstep_source; eauto.
  Qed.

  Lemma step_source s a s' e : weak_step P pol o s a = Some (s', Some e) -> source s a e.
  Proof.
    destruct a as [i op|i k spur|i v|i|i|i b|i j]; intros H.
    - cbn in H. destruct op; try discriminate; destruct (w_pcs s i); try discriminate; injection H as <- <-; reflexivity.
    - apply wstep_source in H. destruct e; cbn in *; try tauto; destruct H as [-> H]; split; eauto.
    - cbn in H. destruct (w_pcs s i); try discriminate;
        (destruct (access s i (r_idx r)); [injection H as <- <-|apply race_event in H; injection H as ->]; exact I).
    - cbn in H. destruct (w_pcs s i) eqn:Ep; try discriminate; unfold store_state in H;
        (match type of H with context [Nat.eqb ?a ?b] => destruct (Nat.eqb a b) end; [injection H as <- <-|apply race_event in H; injection H as ->; exact I]);
        destruct (s_value _); try exact I. split; eauto.
    - cbn in H. destruct (w_pcs s i); try discriminate. injection H as <- <-. exact I.
    - cbn in H. destruct (w_pcs s i); try discriminate. destruct (core_close P (w_core s) b) as [c' x]. destruct b; injection H as <- <-; cbn; eauto.
    - discriminate.
  Qed.
End Source.

(** ** The composite's ring and cell are a ring and a cell *)
Section Facts.
  Context {T : Type}.
  Variables (P : params) (pol : policy T) (debug : bool) (o : chan_orders) (async : bool).
  Notation event := (event T).
  Notation wstate := (@wstate T).
  Notation ystate := (@ystate T).
  Notation yevent := (@yevent T).
  Notation rrun := (weak_run P pol (co_ring o)).
  Notation crun := (krun debug (co_cell o)).
  Notation rstep := (weak_step P pol (co_ring o)).
  Notation xsync := (xsync P pol o).
  Notation lock_sync := (lock_sync P pol o).
  Notation ystep := (ystep P pol debug o async).
  Notation yrun := (yrun P pol debug o async).
  Notation ocons := CoreModel.ocons.
  Notation wcons := WaitCellFacts.ocons.

  (** [i] knows the event of time [t]. *)
  Definition Kn (r : wstate) (i : agent) (t : nat) : Prop := v_know (w_views r i) t = true.

  Lemma xsync_eq r i j : xsync r i j = mkWS (w_core r) (w_heads r) (w_tails r) (w_states r) (w_acc r) (w_pcs r)
                   (updv (w_views r) j (join (w_views r j) (w_views r i))) (w_call r) (w_time r).
  Proof. reflexivity. Qed.
  Lemma xsync_step r i j : rstep r (XSync i j) = Some (xsync r i j, None).
  Proof. reflexivity. Qed.

  (** Only views changed, and only grew. *)
  Record grew (r r' : wstate) : Prop := {
    gr_run : forall es, rrun es r -> rrun es r';
    gr_pcs : w_pcs r' = w_pcs r;
    gr_call : w_call r' = w_call r;
    gr_know : forall i t, Kn r i t -> Kn r' i t }.
  Lemma grew_refl r : grew r r.
  Proof. constructor; auto. Qed.
  Lemma grew_trans r1 r2 r3 : grew r1 r2 -> grew r2 r3 -> grew r1 r3.
  Proof. intros [A1 A2 A3 A4] [B1 B2 B3 B4]. constructor; auto; congruence. Qed.
  Lemma xsync_grew r i j : grew r (xsync r i j).
  Proof.
    constructor; try reflexivity.
    - intros es H. exact (weak_run_step P pol (co_ring o) es r (XSync i j) _ None H (xsync_step r i j)).
    - intros k t H. exact (know_step P pol (co_ring o) r (XSync i j) _ None k t (xsync_step r i j) H).
  Qed.
  Lemma xsync_know r i j t : Kn r i t -> Kn (xsync r i j) j t.
  Proof. unfold Kn. rewrite xsync_eq. cbn [w_views]. rewrite updv_same. cbn [v_know join]. intros ->. apply orb_true_r. Qed.

  Lemma lock_grew r i y : grew r (lock_sync r i y).
  Proof.
    destruct y as [|n ord|n ord]; cbn [WeakChannelModel.lock_sync]; [apply grew_refl| |].
    - destruct (is_acquire ord); [apply xsync_grew|apply grew_refl].
    - eapply grew_trans; [|apply xsync_grew]. destruct (is_acquire ord), (is_release ord); try apply grew_refl; try apply xsync_grew.
      eapply grew_trans; apply xsync_grew.
  Qed.
  Lemma lock_load r i n ord t : is_acquire ord = true -> Kn r (lock_agent n) t -> Kn (lock_sync r i (LoadSync n ord)) i t.
  Proof. intros H. cbn. rewrite H. apply xsync_know. Qed.
  Lemma lock_acq r i n ord t : is_acquire ord = true -> Kn r (lock_agent (Nat.pred n)) t -> Kn (lock_sync r i (RmwSync n ord)) i t.
  Proof.
    intros H Hk. cbn. rewrite H. apply (gr_know _ _ (xsync_grew _ _ _)).
    destruct (is_release ord); [apply (gr_know _ _ (xsync_grew _ _ _))|]; now apply xsync_know.
  Qed.
  Lemma lock_rel r i n ord t : is_release ord = true -> Kn r i t -> Kn (lock_sync r i (RmwSync n ord)) (lock_agent n) t.
  Proof.
    intros H Hk. cbn. rewrite H. apply (gr_know _ _ (xsync_grew _ _ _)). apply xsync_know.
    destruct (is_acquire ord); [apply (gr_know _ _ (xsync_grew _ _ _))|]; auto.
  Qed.
  Lemma lock_seq r i n ord t : Kn r (lock_agent (Nat.pred n)) t -> Kn (lock_sync r i (RmwSync n ord)) (lock_agent n) t.
  Proof.
    intros Hk. cbn. apply xsync_know. 
    destruct (is_acquire ord), (is_release ord); repeat apply (gr_know _ _ (xsync_grew _ _ _)); auto.
  Qed.

  (** A composite step, case by case. *)
  Definition alive (x : sstage) : bool := match x with SIdle | SPush | SNotify => true | _ => false end.
  Definition after (st : sstage) (e : option wevent) : sstage :=
    match e with
    | Some (RetNotify _ _) => match st with SNotify => SIdle | _ => SGone end
    | _ => st
    end.
  Definition was_open (e : option event) : bool := match e with Some (Closing _ b) => b | _ => false end.
  Definition next_which (res : wait_result) : which := match res with Wait => Again | Closed => Last | Notified => First end.
  Definition popping (x : rstage) : bool := match x with RPop _ _ | RTry => true | _ => false end.
  Definition pop_end (e : option event) : bool :=
    match e with Some (Take _ _) | Some (RetEmpty _) | Some (RetPopClosed _) => true | _ => false end.
  Notation me s := (rx_agent (y_me s)).
  Notation cstepw := (wcell_step debug (co_cell o)).
  Notation kst := (kstep debug (co_cell o)).

  Inductive ycase (s : ystate) : ystate -> list yevent -> Prop :=
  | yc_push j a r' e x : (y_tx s j = SIdle /\ a = XInvoke (tx_agent j) OpPush /\ x = SPush) \/
        (y_tx s j = SPush /\ (exists k b, a = XStep (tx_agent j) k b) /\
           x = match e with Some (RetFull _) | Some (RetPushClosed _) => SIdle | _ => SPush end) \/
        (y_tx s j = SPush /\ (exists v, a = XWrite (tx_agent j) v) /\ x = SPush) ->
      rstep (y_ring s) a = Some (r', e) ->
      ycase s (set_tx s r' (y_cell s) j x) (yr e)
  | yc_commit j r' e c' : y_tx s j = SPush -> rstep (y_ring s) (XDrop (tx_agent j)) = Some (r', e) ->
      kst (y_cell s) (KNotify (tx_thread j) false) = Some (c', Some (CallNotify (tx_thread j) false)) ->
      ycase s (set_tx s r' c' j SNotify) (YC (CallNotify (tx_thread j) false) :: yr e)
  | yc_fork j j' r' e : y_tx s j = SPush -> y_tx s j' = SGone ->
      (r' = y_ring s /\ e = None /\ exists q, w_pcs r' (tx_agent j) = PHold q) \/ rstep (y_ring s) (XPanic (tx_agent j)) = Some (r', e) ->
      ycase s (mkY (xsync r' (tx_agent j) (tx_agent j')) (y_cell s) (y_count s) (updt (updt (y_tx s) j SDead) j' SIdle) (y_rx s) (y_me s)) (yr e)
  | yc_notify j x c' e y : y_tx s j = SNotify \/ y_tx s j = SCloseTx -> cstepw (y_cell s) (tx_thread j) x = Some (c', e, y) ->
      ycase s (set_tx s (lock_sync (y_ring s) (tx_agent j) y) c' j (after (y_tx s j) e)) (yc e)
  | yc_clone j j' : y_tx s j = SIdle -> y_tx s j' = SGone ->
      ycase s (mkY (xsync (y_ring s) (tx_agent j) (tx_agent j')) (y_cell s) (S (y_count s)) (updt (y_tx s) j' SIdle) (y_rx s) (y_me s)) [YClone j j']
  | yc_drop j r1 : y_tx s j = SIdle -> r1 = (if is_release (co_sub o) then xsync (y_ring s) (tx_agent j) count_agent else y_ring s) ->
      y_count s <> 1 ->
      ycase s (mkY r1 (y_cell s) (Nat.pred (y_count s)) (updt (y_tx s) j SGone) (y_rx s) (y_me s)) [YDropTx j]
  | yc_last j r1 : y_tx s j = SIdle -> r1 = (if is_release (co_sub o) then xsync (y_ring s) (tx_agent j) count_agent else y_ring s) ->
      y_count s = 1 ->
      ycase s (mkY (if co_fence o then xsync r1 count_agent (tx_agent j) else r1) (y_cell s) 0 (updt (y_tx s) j SClosing) (y_rx s) (y_me s)) [YDropTx j]
  | yc_close j b r' e c' : y_tx s j = SClosing -> rstep (y_ring s) (XClose (tx_agent j) b) = Some (r', e) ->
      kst (y_cell s) (KNotify (tx_thread j) true) = Some (c', Some (CallNotify (tx_thread j) true)) ->
      async || was_open e = true ->
      ycase s (set_tx s r' c' j SCloseTx) (YC (CallNotify (tx_thread j) true) :: yr e)
  | yc_noclose j b r' e : y_tx s j = SClosing -> rstep (y_ring s) (XClose (tx_agent j) b) = Some (r', e) ->
      async || was_open e = false ->
      ycase s (set_tx s r' (y_cell s) j SGone) (yr e)
  | yc_call r' e x evs : rx_free (y_rx s) = true -> rstep (y_ring s) (XInvoke (me s) OpPop) = Some (r', e) ->
      (exists w, x = RPop w First /\ evs = yr e ++ [YPoll w]) \/ (x = RTry /\ evs = yr e) ->
      ycase s (set_rx s r' (y_cell s) x) evs
  | yc_abandon w : y_rx s = RPend w -> ycase s (set_rx s (y_ring s) (y_cell s) RIdle) []
  | yc_got k b r' i v : popping (y_rx s) = true -> rstep (y_ring s) (XStep (me s) k b) = Some (r', Some (Take i v)) ->
      ycase s (mkY (xsync r' (me s) (rx_agent (S (y_me s)))) (y_cell s) (y_count s) (y_tx s) RIdle (S (y_me s))) [YRet Got; YR (Take i v)]
  | yc_register k b r' i w c' : y_rx s = RPop w First -> rstep (y_ring s) (XStep (me s) k b) = Some (r', Some (RetEmpty i)) ->
      kst (y_cell s) (KWait 0 w false) = Some (c', Some (CallWait 0 w false)) ->
      ycase s (set_rx s r' c' (RWait w)) [YC (CallWait 0 w false); YR (RetEmpty i)]
  | yc_pending k b r' i w : y_rx s = RPop w Again -> rstep (y_ring s) (XStep (me s) k b) = Some (r', Some (RetEmpty i)) ->
      ycase s (set_rx s r' (y_cell s) (RPend w)) [YRet IsPending; YR (RetEmpty i)]
  | yc_nomore k b r' e w p : y_rx s = RPop w p -> rstep (y_ring s) (XStep (me s) k b) = Some (r', Some e) ->
      (exists i, e = RetEmpty i /\ p = Last) \/ (exists i, e = RetPopClosed i) ->
      ycase s (set_rx s r' (y_cell s) RIdle) [YRet NoMore; YR e]
  | yc_try k b r' e x : y_rx s = RTry -> rstep (y_ring s) (XStep (me s) k b) = Some (r', Some e) ->
      (exists i, e = RetEmpty i /\ x = TryEmpty) \/ (exists i, e = RetPopClosed i /\ x = TryClosed) ->
      ycase s (set_rx s r' (y_cell s) RIdle) [YRet x; YR e]
  | yc_pop k b r' e : popping (y_rx s) = true -> rstep (y_ring s) (XStep (me s) k b) = Some (r', e) -> pop_end e = false ->
      ycase s (set_rx s r' (y_cell s) (y_rx s)) (yr e)
  | yc_wait w x c' e y : y_rx s = RWait w -> cstepw (y_cell s) 0 x = Some (c', e, y) ->
      (forall i res, e <> Some (RetWait i res)) ->
      ycase s (set_rx s (lock_sync (y_ring s) (me s) y) c' (RWait w)) (yc e)
  | yc_waited w x c' i res y r' : y_rx s = RWait w -> cstepw (y_cell s) 0 x = Some (c', Some (RetWait i res), y) ->
      rstep (lock_sync (y_ring s) (me s) y) (XInvoke (me s) OpPop) = Some (r', Some (Invoke (me s) OpPop)) ->
      ycase s (set_rx s r' c' (RPop w (next_which res))) [YR (Invoke (me s) OpPop); YC (RetWait i res)]
  | yc_ref i a r' e : (exists q, w_pcs (y_ring s) (rx_agent i) = QHold q) ->
      (exists v, a = XWrite (rx_agent i) v) \/ a = XDrop (rx_agent i) -> rstep (y_ring s) a = Some (r', e) ->
      ycase s (set_rx s r' (y_cell s) (y_rx s)) (yr e)
  | yc_droprx b r' e : rx_free (y_rx s) = true -> rstep (y_ring s) (XClose (me s) b) = Some (r', e) ->
      ycase s (set_rx s r' (y_cell s) RGone) (yr e)
  | yc_ext i j : (forall n, i <> lock_agent n) -> 
      ycase s (set_rx s (xsync (y_ring s) i j) (y_cell s) (y_rx s)) [].

  Lemma call_event c i p e c' e' : wcell_call c i p e = Some (c', e') -> e' = Some e.
  Proof. unfold wcell_call. destruct (ws_pc (wc_sys c) i); try discriminate. now intros [= <- <-]. Qed.

  Lemma ystep_cases s a s' evs : ystep s a = Some (s', evs) -> ycase s s' evs.
  Proof.
    intros H. destruct a as [j|j k b|j v|j|j j'|j j'|j x|j j'|j|j b|w| | |k b|x|i v|i|b|p q]; cbn [WeakChannelModel.ystep] in H;
      unfold ring_step, cell_step, cell_call in H.
    - destruct (y_tx s j) eqn:Ej; try discriminate. destruct (rstep _ _) as [[r' e]|] eqn:E; [|discriminate]. injection H as <- <-.
      eapply yc_push; eauto 6.
    - destruct (y_tx s j) eqn:Ej; try discriminate. destruct (rstep _ _) as [[r' e]|] eqn:E; [|discriminate]. injection H as <- <-.
      eapply yc_push; eauto 8.
    - destruct (y_tx s j) eqn:Ej; try discriminate. destruct (rstep _ _) as [[r' e]|] eqn:E; [|discriminate]. injection H as <- <-.
      eapply yc_push; eauto 8.
    - destruct (y_tx s j) eqn:Ej; try discriminate. destruct (rstep _ _) as [[r' e]|] eqn:E; [|discriminate].
      destruct (kst _ _) as [[c' ce]|] eqn:Ec; [|discriminate]. injection H as <- <-.
      pose proof (call_event _ _ _ _ _ _ Ec) as ->. eapply yc_commit; eauto.
    - destruct (y_tx s j) eqn:Ej; try discriminate. destruct (y_tx s j') eqn:Ej'; try discriminate.
      destruct (w_pcs (y_ring s) (tx_agent j)) eqn:Ep; try discriminate. injection H as <- <-. apply (yc_fork s j j' (y_ring s) None); eauto.
    - destruct (y_tx s j) eqn:Ej; try discriminate. destruct (y_tx s j') eqn:Ej'; try discriminate.
      destruct (rstep _ _) as [[r' e]|] eqn:E; [|discriminate]. injection H as <- <-. apply (yc_fork s j j' r' e); eauto.
    - destruct (y_tx s j) eqn:Ej; try discriminate; (destruct (cstepw _ _ _) as [[[c' e] y]|] eqn:E; [|discriminate]); injection H as <- <-;
        pose proof (yc_notify s j x c' e y) as Hc; rewrite Ej in Hc; unfold after in Hc; destruct e as [[]|]; eauto.
    - destruct (y_tx s j) eqn:Ej; try discriminate. destruct (y_tx s j') eqn:Ej'; try discriminate. injection H as <- <-. now apply yc_clone.
    - destruct (y_tx s j) eqn:Ej; try discriminate. destruct (Nat.eqb_spec (y_count s) 1) as [Ec|Ec]; injection H as <- <-.
      + eapply yc_last; eauto.
      + eapply yc_drop; eauto.
    - destruct (y_tx s j) eqn:Ej; try discriminate. destruct (rstep _ _) as [[r' e]|] eqn:E; [|discriminate].
      destruct (kst _ _) as [[c' ce]|] eqn:Ec; [|discriminate]. pose proof (call_event _ _ _ _ _ _ Ec) as ->.
      fold (was_open e) in H. destruct (async || was_open e) eqn:Ea; injection H as <- <-.
      + eapply yc_close; eauto.
      + eapply yc_noclose; eauto.
    - destruct (rstep _ _) as [[r' e]|] eqn:E; [|discriminate]. destruct (rx_free (y_rx s)) eqn:Er; [|discriminate]. injection H as <- <-.
      eapply yc_call; eauto.
    - destruct (rstep _ _) as [[r' e]|] eqn:E; [|discriminate]. destruct (rx_free (y_rx s)) eqn:Er; [|discriminate]. injection H as <- <-.
      eapply yc_call; eauto.
    - destruct (y_rx s) eqn:Er; try discriminate. injection H as <- <-. eapply yc_abandon; eauto.
    - destruct (rstep _ _) as [[r' e]|] eqn:E; [|discriminate].
      destruct (pop_end e) eqn:Ee.
      + unfold recv_step, got, cell_call in H. destruct (y_rx s) as [|w p|w|w| |] eqn:Er; try discriminate;
          destruct e as [[]|]; try discriminate; try (destruct p).
        all: try (injection H as <- <-; (eapply yc_got || eapply yc_pending || eapply yc_nomore || eapply yc_try); eauto; now rewrite Er).
        destruct (kst _ _) as [[c' ce]|] eqn:Ec; [|discriminate]. pose proof (call_event _ _ _ _ _ _ Ec) as ->. injection H as <- <-.
        eapply yc_register; eauto.
      + pose proof (yc_pop s k b r' e) as Hc. unfold recv_step in H. destruct (y_rx s) as [|w p|w|w| |] eqn:Er; try discriminate;
          destruct e as [[]|]; try discriminate; try (destruct p); injection H as <- <-; apply Hc; auto.
    - destruct (y_rx s) as [|w p|w|w| |] eqn:Er; try discriminate. destruct (cstepw _ _ _) as [[[c' e] y]|] eqn:E; [|discriminate].
      assert (D : (exists i res, e = Some (RetWait i res)) \/ (forall i res, e <> Some (RetWait i res))).
      { destruct e as [[]|]; try (right; discriminate). eauto. }
      destruct D as [(i & res & ->)|D].
      + unfold next_pop, ring_step in H.
        destruct (rstep (lock_sync (y_ring s) (me s) y) (XInvoke (me s) OpPop)) as [[r' e]|] eqn:E2.
        * assert (e = Some (Invoke (me s) OpPop)) as ->.
          { cbn [weak_step] in E2. destruct (w_pcs _ _); try discriminate. now injection E2. }
          pose proof (yc_waited s w x c' i res y r' Er E E2) as Hc. destruct res; injection H as <- <-; exact Hc.
        * destruct res; discriminate.
      + pose proof (yc_wait s w x c' e y Er E D) as Hc. destruct e as [[]|]; try (injection H as <- <-; exact Hc). now destruct (D i r).
    - destruct (w_pcs (y_ring s) (rx_agent i)) eqn:Ep; try discriminate. destruct (rstep _ _) as [[r' e]|] eqn:E; [|discriminate].
      injection H as <- <-. eapply yc_ref; [eauto| |exact E]; eauto.
    - destruct (w_pcs (y_ring s) (rx_agent i)) eqn:Ep; try discriminate. destruct (rstep _ _) as [[r' e]|] eqn:E; [|discriminate].
      injection H as <- <-. eapply yc_ref; [eauto| |exact E]; eauto.
    - destruct (rstep _ _) as [[r' e]|] eqn:E; [|discriminate]. destruct (rx_free (y_rx s)) eqn:Er; [|discriminate]. injection H as <- <-.
      eapply yc_droprx; eauto.
    - injection H as <- <-. apply yc_ext. intros n. destruct p; cbn; unfold tx_agent, rx_agent, lock_agent; lia.
  Qed.

  Lemma ring_yr e (ys : list yevent) : ring_events (yr e ++ ys) = ocons e (ring_events ys).
  Proof. destruct e; reflexivity. Qed.
  Lemma ring_yc e (ys : list yevent) : ring_events (yc e ++ ys) = ring_events ys.
  Proof. destruct e; reflexivity. Qed.
  Lemma cell_yr e (ys : list yevent) : cell_events (yr e ++ ys) = cell_events ys.
  Proof. destruct e; reflexivity. Qed.
  Lemma cell_yc e (ys : list yevent) : cell_events (yc e ++ ys) = wcons e (cell_events ys).
  Proof. destruct e; reflexivity. Qed.

  (** The ring step and the cell step of a composite step. *)
  Definition ring_moves (s s' : ystate) (es es' : list event) : Prop :=
    exists a r r1 e, grew (y_ring s) r /\ rstep r a = Some (r1, e) /\ grew r1 (y_ring s') /\ es' = ocons e es /\
      (forall j, a <> XInvoke (tx_agent j) OpPop).
  Definition ring_part (s s' : ystate) (es es' : list event) : Prop :=
    (grew (y_ring s) (y_ring s') /\ es' = es) \/ ring_moves s s' es es'.
  Definition cell_part (s s' : ystate) (ces ces' : list wevent) : Prop :=
    (y_cell s' = y_cell s /\ ces' = ces) \/
    exists a e, kst (y_cell s) a = Some (y_cell s', e) /\ ces' = wcons e ces.

  Lemma tx_rx j a : tx_agent j <> rx_agent a. Proof. unfold tx_agent, rx_agent. lia. Qed.
  Lemma one_move (s s' : ystate) a e es : rstep (y_ring s) a = Some (y_ring s', e) -> (forall j, a <> XInvoke (tx_agent j) OpPop) ->
    ring_part s s' es (ocons e es).
  Proof. intros H Ha. right. exists a, (y_ring s), (y_ring s'), e. repeat split; auto; apply grew_refl. Qed.
  Lemma cell_one (s s' : ystate) i x e y ces : cstepw (y_cell s) i x = Some (y_cell s', e, y) ->
    cell_part s s' ces (wcons e ces).
  Proof. intros H. right. exists (KStep i x), e. split; auto. cbn [kstep]. now rewrite H. Qed.

  Lemma parts s s' evs (ys : list yevent) : ycase s s' evs ->
    ring_part s s' (ring_events ys) (ring_events (evs ++ ys)) /\ cell_part s s' (cell_events ys) (cell_events (evs ++ ys)).
  Proof.
    assert (G : forall s s' es, grew (y_ring s) (y_ring s') -> ring_part s s' es es) by (intros; left; auto).
    assert (N : forall s s' ces, y_cell s' = y_cell s -> cell_part s s' ces ces) by (intros; left; auto).
    assert (D : forall a k, XInvoke (T := T) (rx_agent a) OpPop <> XInvoke (tx_agent k) OpPop)
      by (intros a k E; injection E as E; symmetry in E; now apply tx_rx in E).
    intros H. destruct H; cbn [app ring_events cell_events]; rewrite ?ring_yr, ?ring_yc, ?cell_yr, ?cell_yc.
    - split; [|now apply N]. eapply one_move; [cbn; eauto|]. destruct H as [(_ & -> & _)|[(_ & (k & b & ->) & _)|(_ & (v & ->) & _)]]; discriminate.
    - split; [eapply one_move; [cbn; eauto|discriminate]|]. right. eexists _, (Some _). split; [exact H1|reflexivity].
    - split; [|now apply N]. destruct H1 as [(-> & -> & _)|H1].
      + apply G. apply xsync_grew.
      + right. eexists _, _, _, _. split; [apply grew_refl|]. split; [exact H1|]. split; [apply xsync_grew|split; [reflexivity|discriminate]].
    - split; [apply G, lock_grew|]. eapply cell_one. cbn. eauto.
    - split; [apply G, xsync_grew|now apply N].
    - split; [|now apply N]. apply G. cbn. subst r1. destruct (is_release _); [apply xsync_grew|apply grew_refl].
    - split; [|now apply N]. apply G. cbn. eapply grew_trans with (r2 := r1).
      + subst r1. destruct (is_release _); [apply xsync_grew|apply grew_refl].
      + destruct (co_fence o); [apply xsync_grew|apply grew_refl].
    - split; [eapply one_move; [cbn; eauto|discriminate]|]. right. eexists _, (Some _). split; [exact H1|reflexivity].
    - split; [|now apply N]. eapply one_move; [cbn; eauto|discriminate].
    - assert (E : ring_events (evs ++ ys) = ocons e (ring_events ys) /\ cell_events (evs ++ ys) = cell_events ys).
      { destruct H1 as [(w & -> & ->)|[-> ->]]; [rewrite <- app_assoc|]; now rewrite ring_yr, cell_yr. }
      destruct E as [-> ->]. split; [|now apply N]. eapply one_move; [cbn; eauto|apply D].
    - split; [apply G, grew_refl|now apply N].
    - split; [|now apply N]. right. eexists _, _, _, _. split; [apply grew_refl|]. split; [exact H0|].
      split; [apply xsync_grew|split; [reflexivity|discriminate]].
    - split; [eapply (one_move _ _ _ (Some _)); [cbn; eauto|discriminate]|]. right. eexists _, (Some _). split; [exact H1|reflexivity].
    - split; [eapply (one_move _ _ _ (Some _)); [cbn; eauto|discriminate]|now apply N].
    - split; [eapply (one_move _ _ _ (Some _)); [cbn; eauto|discriminate]|now apply N].
    - split; [eapply (one_move _ _ _ (Some _)); [cbn; eauto|discriminate]|now apply N].
    - split; [|now apply N]. eapply one_move; [cbn; eauto|discriminate].
    - split; [apply G, lock_grew|]. eapply cell_one. cbn. eauto.
    - split; [|eapply (cell_one _ _ _ _ (Some _)); cbn; eauto].
      right. eexists _, _, _, (Some _). split; [apply lock_grew|]. split; [exact H1|]. split; [apply grew_refl|split; [reflexivity|apply D]].
    - split; [|now apply N]. eapply one_move; [cbn; eauto|]. destruct H0 as [[v ->]| ->]; discriminate.
    - split; [|now apply N]. eapply one_move; [cbn; eauto|discriminate].
    - split; [apply G, xsync_grew|now apply N].
  Qed.

  Lemma ring_part_run s s' es es' : ring_part s s' es es' -> rrun es (y_ring s) -> rrun es' (y_ring s').
  Proof.
    intros [[H ->]|(a & r & r1 & e & H1 & H2 & H3 & -> & _)] Hr; [now apply (gr_run _ _ H)|].
    apply (gr_run _ _ H3). eapply weak_run_step; [apply (gr_run _ _ H1); exact Hr|exact H2].
  Qed.
  Lemma cell_part_run s s' ces ces' : cell_part s s' ces ces' -> crun ces (y_cell s) -> crun ces' (y_cell s').
  Proof.
    intros [[H ->]|(a & e & H & ->)] Hr; [now rewrite H|]. exact (krun_step _ _ _ _ _ _ _ Hr H).
  Qed.
  Lemma proj_run ys s : yrun ys s -> rrun (ring_events ys) (y_ring s) /\ crun (cell_events ys) (y_cell s).
  Proof.
    induction 1 as [|ys s a s' evs Hr IH Hs]; [split; constructor|]. apply ystep_cases in Hs.
    destruct (parts _ _ _ ys Hs) as [H1 H2]. split; [eapply ring_part_run|eapply cell_part_run]; eauto; apply IH.
  Qed.

  (** Knowledge only grows. *)
  Lemma ygrow s s' evs i t : ycase s s' evs -> Kn (y_ring s) i t -> Kn (y_ring s') i t.
  Proof.
    intros H. destruct (parts _ _ _ [] H) as [[[Hg _]|(a & r & r1 & e & H1 & H2 & H3 & _)] _] ; intros Hk.
    - now apply (gr_know _ _ Hg).
    - apply (gr_know _ _ H3). unfold Kn. eapply know_step; [exact H2|]. now apply (gr_know _ _ H1).
  Qed.

  (** ** Agents *)
  Lemma tx_inj j j' : tx_agent j = tx_agent j' -> j = j'. Proof. unfold tx_agent. lia. Qed.
  Lemma rx_inj j j' : rx_agent j = rx_agent j' -> j = j'. Proof. unfold rx_agent. lia. Qed.

  Lemma pop_step r a r' e x : rstep r a = Some (r', e) -> a <> XInvoke x OpPop -> in_pop (w_pcs r x) = false -> in_pop (w_pcs r' x) = false.
  Proof.
    intros H Ha Hp. pose proof H as H0. apply step_moved in H. destruct H as (_ & _ & _ & H1 & H2 & H3).
    destruct (Nat.eq_dec x (WeakFacts.actor a)) as [->|Hx]; [|destruct (H1 _ Hx) as [-> _]; exact Hp].
    destruct (invokes a) eqn:Ei.
    - destruct a as [i op| | | | | |]; try discriminate. cbn [WeakFacts.actor] in *. cbn in H0. destruct op; try congruence;
      (destruct (w_pcs r i); try discriminate; injection H0 as <- <-; cbn [w_pcs local]; now rewrite upd_same).
    - destruct (H2 eq_refl) as [_ [H4 _]]. destruct (in_pop (w_pcs r' _)); auto. rewrite H4 in Hp; auto.
  Qed.
  Lemma call_keep r a r' e x : rstep r a = Some (r', e) -> (forall op, a <> XInvoke x op) -> w_call r' x = w_call r x.
  Proof.
    intros H Ha. apply step_moved in H. destruct H as (_ & _ & _ & H1 & H2 & H3).
    destruct (Nat.eq_dec x (WeakFacts.actor a)) as [->|Hx]; [|now destruct (H1 _ Hx)].
    destruct (invokes a) eqn:Ei; [|now apply H2]. destruct a; try discriminate. now destruct (Ha op).
  Qed.
  Lemma call_new r x op r' e : rstep r (XInvoke x op) = Some (r', e) -> w_call r' x = w_views r x.
  Proof. intros H. apply step_moved in H. destruct H as (_ & _ & _ & H1 & H2 & H3). now apply H3. Qed.

  (** ** Where everybody is *)
  Notation pcs s := (ws_pc (wc_sys (y_cell s))).
  Record Stg (s : ystate) (ces : list wevent) : Prop := {
    sg_tx : forall j, waiting_pc (pcs s (S j)) = false;
    sg_false : forall j, pcs s (S j) = NOr false -> y_tx s j = SNotify;
    sg_true : forall j, pcs s (S j) = NOr true -> y_tx s j = SCloseTx;
    sg_rx : pcs s 0 = WIdle \/ (waiting_pc (pcs s 0) = true /\ exists w, y_rx s = RWait w);
    sg_call : forall w, y_rx s = RWait w -> last_call 0 ces = Some w;
    sg_single : single_waiter 0 ces;
    sg_pop : forall j, in_pop (w_pcs (y_ring s) (tx_agent j)) = false }.

  (** ** Steps of the cell *)
  Definition is_rmw (y : csync) : bool := match y with RmwSync _ _ => true | _ => false end.

  Lemma cell_msgs c i x c' e y es : KInv c es -> cstepw c i x = Some (c', e, y) ->
    (wc_msgs c' = wc_msgs c /\ is_rmw y = false) \/
    exists m ord, wc_msgs c' = wc_msgs c ++ [m] /\ y = RmwSync (length (wc_msgs c)) ord /\
      rmw_order (co_cell o) (ws_pc (wc_sys c) i) = Some ord /\
      (has_closed (cm_word m) = true -> has_closed (w_state (ws_cell (wc_sys c))) = true \/ ws_pc (wc_sys c) i = NOr true).
  Proof.
    intros HK H. pose proof (ki_step _ _ _ _ _ _ _ _ _ HK H) as HK'. pose proof (l_closed _ _ (ki_l _ _ HK)) as Hc.
    pose proof (l_closed _ _ (ki_l _ _ HK')) as Hc'.
    apply step_cases in H. destruct H as [ord c1 p' Ho Hs Hc0 a m|x1 m p' c'' Hw Hx Hm Hs|c1 p' Ht Hs|c1 p' Ho Ht Hn Hs]; cbn [wc_msgs wc_sys ws_cell] in *; auto.
    right. exists m, ord. repeat split; auto. cbn [cm_word m]. rewrite Hc', Hc. intros Hcl.
    destruct e as [e|]; [|auto]. cbn [WaitCellFacts.ocons] in Hcl. unfold WaitCellSpec.closed_in in *. cbn [existsb] in Hcl.
    destruct (is_closing e) eqn:Ee; [right|auto]. destruct e as [| | | | |j [|]| | | |]; try discriminate.
    destruct (ws_pc (wc_sys c) i); try discriminate; unfold WaitCellModel.wstep in Hs;
      repeat match type of Hs with
         | context [if ?b then _ else _] => destruct b
         | context [match ?b with Some _ => _ | None => _ end] => destruct b
         end; try discriminate; congruence.
  Qed.

  Ltac break_wstep Hs := unfold WaitCellModel.wstep in Hs;
      repeat match type of Hs with
         | context [if ?b then _ else _] => destruct b eqn:?
         | context [match ?b with Some _ => _ | None => _ end] => destruct b eqn:?
         end; try discriminate.

  Lemma cell_sender c i x c' e y : cstepw c i x = Some (c', e, y) -> waiting_pc (ws_pc (wc_sys c) i) = false ->
    exists p', ws_pc (wc_sys c') = wset (ws_pc (wc_sys c)) i p' /\ waiting_pc p' = false /\ (forall b, p' <> NOr b) /\
      (forall k w b, e <> Some (CallWait k w b)) /\ (forall k r, e <> Some (RetWait k r)) /\
      (forall b, ws_pc (wc_sys c) i = NOr b -> e = Some (Fetched i b) /\ y = RmwSync (length (wc_msgs c)) (k_notify (co_cell o))).
  Proof.
    intros H Hw. assert (Hy : forall b, ws_pc (wc_sys c) i = NOr b -> y = RmwSync (length (wc_msgs c)) (k_notify (co_cell o))).
    { intros b Hb. unfold wcell_step in H. rewrite Hb in H. unfold rmw in H. destruct (plain _ _ _ _ _ _). now injection H as _ _ <-. }
    apply step_word in H as (d & d' & p' & Hs & Hp & Hn & _ & _). exists p'. split; [exact Hp|].
    destruct (ws_pc (wc_sys c) i) eqn:Ep; try discriminate; try congruence; break_wstep Hs; injection Hs as <- <- <-;
      repeat split; try discriminate; intros; try discriminate; try (now eapply Hy); congruence.
  Qed.

  Lemma cell_waiter c i x c' e y : cstepw c i x = Some (c', e, y) -> waiting_pc (ws_pc (wc_sys c) i) = true ->
    exists p', ws_pc (wc_sys c') = wset (ws_pc (wc_sys c)) i p' /\ (p' = WIdle \/ waiting_pc p' = true) /\
      (forall k w b, e <> Some (CallWait k w b)) /\ (forall k r, e = Some (RetWait k r) -> k = i /\ p' = WIdle) /\
      (forall st, saw p' = Some st -> contains st TX_CLOSED = true ->
         saw (ws_pc (wc_sys c) i) = Some st \/
         (st = w_state (ws_cell (wc_sys c)) /\ y = RmwSync (length (wc_msgs c)) (k_reset (co_cell o)))) /\
      (forall k, e = Some (RetWait k Closed) ->
         (exists st, saw (ws_pc (wc_sys c) i) = Some st /\ contains st TX_CLOSED = true) \/
         (exists n m, y = LoadSync n (k_fail (co_cell o)) /\ nth_error (wc_msgs c) n = Some m /\ has_closed (cm_word m) = true)).
  Proof.
    intros H Hw. assert (Hy : forall w a p m b, ws_pc (wc_sys c) i = WAnd w a p m b -> y = RmwSync (length (wc_msgs c)) (k_reset (co_cell o))).
    { intros w a p m b Hb. unfold wcell_step in H. rewrite Hb in H. unfold rmw in H. destruct (plain _ _ _ _ _ _). now injection H as _ _ <-. }
    apply step_cases in H. destruct H as [ord c1 p' Ho Hs Hc0 a m|x1 m p' c'' Hcm Hx Hm Hs|c1 p' Ht Hs|c1 p' Ho Ht Hn Hs]; cbn [wc_msgs wc_sys ws_cell ws_pc] in *;
      exists p'; (split; [reflexivity|]).
    1,3,4: destruct (ws_pc (wc_sys c) i) eqn:Ep; try discriminate; try congruence; break_wstep Hs; injection Hs as <- <- <-;
      cbn [saw] in *;
      repeat split; auto; intros; try discriminate; try congruence; try (injection H as <- <-; auto; fail);
      try (injection H as <-; try discriminate; right; split; auto; eapply Hy; eauto; fail);
      try (injection H as <-; left; eauto; fail).
    all: try (rewrite Hc0 in *; discriminate).
    destruct (ws_pc (wc_sys c) i) eqn:Ep; try tauto; break_wstep Hs; injection Hs as <- <- <-;
      cbn [saw w_state] in *; repeat split; auto; intros; try discriminate; try congruence; try (injection H as <- <-; auto; fail).
    right. exists x1, m. auto.
  Qed.

  Lemma cell_wait c x c' e y ces : KInv c ces -> SInv 0 c -> cstepw c 0 x = Some (c', e, y) -> waiting_pc (ws_pc (wc_sys c) 0) = true ->
    single_waiter 0 ces ->
    forall k, e = Some (RetWait k Wait) -> y = RmwSync (length (wc_msgs c)) (k_unpark (co_cell o)).
  Proof.
    intros HK HS H Hw H1 k ->. pose proof (ki_l _ _ HK) as HL.
    apply step_cases in H. destruct H as [ord c1 p' Ho Hs Hc0 a m|x1 m p' c'' Hcm Hx Hm Hs|c1 p' Ht Hs|c1 p' Ho Ht Hn Hs]; cbn [wc_msgs wc_sys ws_cell ws_pc] in *.
    - destruct (ws_pc (wc_sys c) 0) eqn:Ep; try discriminate.
      + break_wstep Hs. rewrite Hc0 in *. discriminate.
      + now injection Ho as <-.
      + break_wstep Hs.
    - destruct (ws_pc (wc_sys c) 0) eqn:Ep; try tauto.
      + pose proof (HS ltac:(now rewrite Ep) _ _ Hx Hm) as HR. unfold WaitCellModel.wstep in Hs; cbn [w_state] in Hs.
        destruct HR as [HR|[HR|[HR|HR]]]; rewrite HR in *; cbn in Hs; try (exfalso; now apply Hcm); discriminate.
      + break_wstep Hs. cbn in Heqb. apply N.eqb_eq in Heqb. congruence.
    - destruct (ws_pc (wc_sys c) 0) eqn:Ep; try discriminate; break_wstep Hs.
    - destruct (ws_pc (wc_sys c) 0) eqn:Ep; try discriminate; try congruence; break_wstep Hs; try (destruct (contains state TX_CLOSED)); discriminate.
  Qed.

  (** ** The stages fit the cell *)
  Lemma kcall c i p e c' : wcell_call c i p e = Some (c', Some e) -> ws_pc (wc_sys c) i = WIdle /\
    ws_pc (wc_sys c') = wset (ws_pc (wc_sys c)) i p /\ wc_msgs c' = wc_msgs c /\ ws_cell (wc_sys c') = ws_cell (wc_sys c).
  Proof. unfold wcell_call. destruct (ws_pc (wc_sys c) i) eqn:E; try discriminate. now intros [= <-]. Qed.

  Lemma updt_same f j x : updt f j x j = x.
  Proof. unfold updt. now rewrite Nat.eqb_refl. Qed.
  Lemma updt_other f j x i : i <> j -> updt f j x i = f i.
  Proof. intros H. unfold updt. now rewrite (proj2 (Nat.eqb_neq i j) H). Qed.

  Lemma stg_init : Stg (yinit P) [].
  Proof. constructor; cbn; auto; try discriminate. intros i w pan []. Qed.

  Lemma last_call_wcons e ces : (forall k w b, e <> Some (CallWait k w b)) -> last_call 0 (wcons e ces) = last_call 0 ces.
  Proof. intros H. apply last_call_frame. destruct e as [[]|]; cbn; auto. eapply H; eauto. Qed.
  Lemma single_wcons e ces : (forall k w b, e <> Some (CallWait k w b)) -> single_waiter 0 ces -> single_waiter 0 (wcons e ces).
  Proof. intros H HS i w b Hin. destruct e as [e|]; [|eapply HS; eauto]. destruct Hin as [->|Hin]; [now destruct (H i w b)|eapply HS; eauto]. Qed.

  Ltac stay := constructor; cbn [y_cell y_tx y_rx set_tx set_rx]; auto.
  Lemma stg_step s s' evs (ys : list yevent) : ycase s s' evs -> Stg s (cell_events ys) -> Stg s' (cell_events (evs ++ ys)).
  Proof.
    intros H HI. pose proof (sg_tx _ _ HI) as Htx. pose proof (sg_false _ _ HI) as Hf. pose proof (sg_true _ _ HI) as Ht.
    pose proof (sg_rx _ _ HI) as Hrx. pose proof (sg_call _ _ HI) as Hcl. pose proof (sg_single _ _ HI) as Hsw.
    assert (Hpop : forall j, in_pop (w_pcs (y_ring s') (tx_agent j)) = false).
    { intros j. destruct (parts _ _ _ ys H) as [[[Hg _]|(a & r & r1 & e & G1 & G2 & G3 & _ & G4)] _].
      - rewrite (gr_pcs _ _ Hg). apply HI.
      - rewrite (gr_pcs _ _ G3). eapply pop_step; [exact G2|apply G4|]. rewrite (gr_pcs _ _ G1). apply HI. }
    destruct H; cbn [app cell_events]; rewrite ?cell_yr, ?cell_yc.
    - stay; intros k Hk; (assert (k <> j) by (intros ->; apply Hf in Hk || apply Ht in Hk; intuition congruence)); rewrite !updt_other by auto; auto.
    - apply kcall in H1 as (G1 & G2 & G3 & G4). stay; rewrite ?G2; unfold tx_thread.
      + intros k. destruct (Nat.eq_dec (S k) (S j)) as [->|]; [now rewrite wset_same|rewrite wset_other; auto].
      + intros k Hk. destruct (Nat.eq_dec k j) as [->|]; [now rewrite updt_same|]. rewrite updt_other by auto.
        rewrite wset_other in Hk by congruence. auto.
      + intros k Hk. destruct (Nat.eq_dec k j) as [->|]; [now rewrite wset_same in Hk|]. rewrite updt_other by auto.
        rewrite wset_other in Hk by congruence. auto.
      + rewrite wset_other by auto. auto.
      + intros ? ? ? [E|Hin]; [discriminate|eauto].
    - stay; intros k Hk; (assert (k <> j) by (intros ->; apply Hf in Hk || apply Ht in Hk; congruence));
        (assert (k <> j') by (intros ->; apply Hf in Hk || apply Ht in Hk; congruence)); rewrite !updt_other by auto; auto.
    - apply cell_sender in H0 as (p' & Hp & Hw & Hn & Hc & Hr & Hor); [|apply Htx]. unfold tx_thread in *. stay; rewrite ?Hp.
      + intros k. destruct (Nat.eq_dec (S k) (S j)) as [->|]; [now rewrite wset_same|rewrite wset_other; auto].
      + intros k Hk. destruct (Nat.eq_dec k j) as [->|]; [rewrite wset_same in Hk; now destruct (Hn false)|]. rewrite updt_other by auto.
        rewrite wset_other in Hk by congruence. auto.
      + intros k Hk. destruct (Nat.eq_dec k j) as [->|]; [rewrite wset_same in Hk; now destruct (Hn true)|]. rewrite updt_other by auto.
        rewrite wset_other in Hk by congruence. auto.
      + rewrite wset_other by auto. auto.
      + intros w Hx. rewrite last_call_wcons; auto.
      + now apply single_wcons.
    - stay; intros k Hk; (assert (k <> j') by (intros ->; apply Hf in Hk || apply Ht in Hk; congruence)); rewrite !updt_other by auto; auto.
    - stay; intros k Hk; (assert (k <> j) by (intros ->; apply Hf in Hk || apply Ht in Hk; congruence)); rewrite !updt_other by auto; auto.
    - stay; intros k Hk; (assert (k <> j) by (intros ->; apply Hf in Hk || apply Ht in Hk; congruence)); rewrite !updt_other by auto; auto.
    - apply kcall in H1 as (G1 & G2 & G3 & G4). stay; rewrite ?G2; unfold tx_thread.
      + intros k. destruct (Nat.eq_dec (S k) (S j)) as [->|]; [now rewrite wset_same|rewrite wset_other; auto].
      + intros k Hk. destruct (Nat.eq_dec k j) as [->|]; [now rewrite wset_same in Hk|]. rewrite updt_other by auto.
        rewrite wset_other in Hk by congruence. auto.
      + intros k Hk. destruct (Nat.eq_dec k j) as [->|]; [now rewrite updt_same|]. rewrite updt_other by auto.
        rewrite wset_other in Hk by congruence. auto.
      + rewrite wset_other by auto. auto.
      + intros ? ? ? [E|Hin]; [discriminate|eauto].
    - stay; intros k Hk; (assert (k <> j) by (intros ->; apply Hf in Hk || apply Ht in Hk; congruence)); rewrite !updt_other by auto; auto.
    - assert (E : cell_events (evs ++ ys) = cell_events ys).
      { destruct H1 as [(w & -> & ->)|[-> ->]]; [rewrite <- app_assoc|]; now rewrite cell_yr. }
      rewrite E. stay.
      + left. destruct Hrx as [|[_ [w Hw]]]; auto. rewrite Hw in H. discriminate.
      + intros w Hw. destruct H1 as [(w' & -> & _)|[-> _]]; discriminate.
    - stay. 
      + left. destruct Hrx as [|[_ [w' Hw]]]; auto. congruence.
      + discriminate.
    - stay.
      + left. destruct Hrx as [|[_ [w Hw]]]; auto. rewrite Hw in H. discriminate.
      + discriminate.
    - apply kcall in H1 as (G1 & G2 & G3 & G4). stay; rewrite ?G2.
      + intros ?. rewrite wset_other; auto.
      + intros ? Hk. rewrite wset_other in Hk by auto. auto.
      + intros ? Hk. rewrite wset_other in Hk by auto. auto.
      + right. rewrite wset_same. split; [reflexivity|eauto].
      + intros v E. injection E as <-. reflexivity.
      + intros ? ? ? [E|Hin]; [now injection E|eauto].
    - stay.
      + left. destruct Hrx as [|[_ [w' Hw]]]; auto. congruence.
      + discriminate.
    - stay.
      + left. destruct Hrx as [|[_ [w' Hw]]]; auto. congruence.
      + discriminate.
    - stay.
      + left. destruct Hrx as [|[_ [w' Hw]]]; auto. congruence.
      + discriminate.
    - stay.
    - assert (Hwp : waiting_pc (pcs s 0) = true).
      { destruct Hrx as [E|[E _]]; auto. apply step_word in H0 as (? & ? & ? & _ & _ & Hn & _). congruence. }
      apply cell_waiter in H0 as (p' & Hp & Hw & Hc & Hr & _); auto. stay; rewrite ?Hp.
      + intros ?. rewrite wset_other; auto.
      + intros ? Hk. rewrite wset_other in Hk by auto. auto.
      + intros ? Hk. rewrite wset_other in Hk by auto. auto.
      + rewrite wset_same. destruct Hw; eauto.
      + intros v E. injection E as <-. rewrite last_call_wcons; auto.
      + now apply single_wcons.
    - assert (Hwp : waiting_pc (pcs s 0) = true).
      { destruct Hrx as [E|[E _]]; auto. apply step_word in H0 as (? & ? & ? & _ & _ & Hn & _). congruence. }
      apply cell_waiter in H0 as (p' & Hp & Hw & Hc & Hr & _); auto. stay; rewrite ?Hp.
      + intros ?. rewrite wset_other; auto.
      + intros ? Hk. rewrite wset_other in Hk by auto. auto.
      + intros ? Hk. rewrite wset_other in Hk by auto. auto.
      + rewrite wset_same. left. now apply (Hr i res).
      + discriminate.
      + intros ? ? ? [E|Hin]; [discriminate|eauto].
    - stay.
    - stay.
      + left. destruct Hrx as [|[_ [w' Hw]]]; auto. rewrite Hw in H. discriminate.
      + discriminate.
    - stay.
  Qed.

  (** ** Events and their times *)
  Fixpoint at_time (f : event -> bool) (es : list event) (t : nat) : Prop :=
    match es with [] => False | e :: l => (f e = true /\ t = length l) \/ at_time f l t end.
  Definition cmt (e : event) : bool := match e with Commit _ _ => true | _ => false end.
  Lemma at_split f es2 e es1 : f e = true -> at_time f (es2 ++ e :: es1) (length es1).
  Proof. intros H. induction es2; cbn; auto. Qed.

  Lemma no_commit r a r' e es t : rstep r a = Some (r', e) -> (forall i q, a = XDrop i -> w_pcs r i <> PHold q) ->
    at_time cmt (ocons e es) t -> at_time cmt es t.
  Proof.
    intros H Ha Ht. destruct e as [e|]; [|exact Ht]. destruct Ht as [[He _]|Ht]; [|exact Ht].
    apply step_source in H. destruct e; try discriminate. destruct H as [-> [q Hq]]. now destruct (Ha i q eq_refl).
  Qed.
  Lemma no_take r a r' e es t : rstep r a = Some (r', e) -> (forall i k b, a = XStep i k b -> in_pop (w_pcs r i) = false) ->
    at_time is_take (ocons e es) t -> at_time is_take es t.
  Proof.
    intros H Ha Ht. destruct e as [e|]; [|exact Ht]. destruct Ht as [[He _]|Ht]; [|exact Ht].
    apply step_source in H. destruct e; try discriminate. destruct H as [(k & b & ->) Hp]. rewrite (Ha i k b eq_refl) in Hp. discriminate.
  Qed.
  Lemma no_take_end (e : option event) es t : pop_end e = false -> at_time is_take (ocons e es) t -> at_time is_take es t.
  Proof. intros H Ht. destruct e as [e|]; [|exact Ht]. destruct Ht as [[He _]|Ht]; [|exact Ht]. destruct e; discriminate. Qed.

  Lemma call_rings evs (e : option event) x w (ys : list yevent) : (x = RPop w First /\ evs = yr e ++ [YPoll w]) \/ (x = RTry /\ evs = yr e) ->
    ring_events (evs ++ ys) = ocons e (ring_events ys).
  Proof. intros [(-> & ->)|[-> ->]]; [rewrite <- app_assoc|]; now rewrite ring_yr. Qed.

  Ltac poll_evs := match goal with
    | H : (exists w, _ /\ ?evs = yr ?e ++ [YPoll w]) \/ _ |- _ =>
        let E := fresh "E" in let F := fresh "F" in
        assert (E : forall ys, ring_events (evs ++ ys) = ocons e (ring_events ys)) by
          (intros; destruct H as [(?w & -> & ->)|[-> ->]]; [rewrite <- app_assoc|]; now rewrite ring_yr);
        assert (F : forall ys, cell_events (evs ++ ys) = cell_events ys) by
          (intros; destruct H as [(?w & -> & ->)|[-> ->]]; [rewrite <- app_assoc|]; now rewrite cell_yr)
    end.

  Lemma ktime es r : rrun es r -> w_time r = length es.
  Proof. induction 1 as [|es r a r' e Hr IH Hs]; auto. rewrite (time_step _ _ _ _ _ _ _ Hs), IH. destruct e; auto. Qed.

  (** A new Commit is that of a sender that is now about to notify. *)
  Lemma ycommit s s' evs ys t : ycase s s' evs -> rrun (ring_events ys) (y_ring s) ->
    at_time cmt (ring_events (evs ++ ys)) t -> at_time cmt (ring_events ys) t \/
    exists j, y_tx s j = SPush /\ y_tx s' j = SNotify /\ pcs s' (S j) = NOr false /\ Kn (y_ring s') (tx_agent j) t /\ y_count s' = y_count s.
  Proof.
    intros H Hr. destruct H; try poll_evs; cbn [app ring_events]; rewrite ?E, ?ring_yr, ?ring_yc; intros Ht; auto.
    - left. eapply no_commit; [exact H0| |exact Ht].
      destruct H as [(_ & -> & _)|[(_ & (k & b & ->) & _)|(_ & (v & ->) & _)]]; discriminate.
    - destruct e as [e|]; [|auto]. destruct Ht as [[He Ht]|Ht]; [right|auto]. exists j. destruct e; try discriminate.
      split; auto. apply kcall in H1 as (_ & G2 & _ & _). cbn [y_tx y_cell y_ring y_count set_tx]. rewrite updt_same, G2. unfold tx_thread. rewrite wset_same.
      repeat split. subst t. unfold Kn. rewrite <- (ktime _ _ Hr).
      pose proof (step_source _ _ _ _ _ _ _ H0) as [E _]. injection E as <-. apply step_moved in H0. now apply H0.
    - left. destruct H1 as [(-> & -> & _)|H1]; [exact Ht|]. eapply no_commit; [exact H1| |exact Ht]. discriminate.
    - left. eapply no_commit; [exact H0| |exact Ht]. discriminate.
    - left. eapply no_commit; [exact H0| |exact Ht]. discriminate.
    - left. eapply no_commit; [exact H0| |exact Ht]. discriminate.
    - left. destruct Ht as [[He _]|Ht]; [discriminate|exact Ht].
    - left. destruct Ht as [[He _]|Ht]; [discriminate|exact Ht].
    - left. destruct Ht as [[He _]|Ht]; [discriminate|exact Ht].
    - left. destruct Ht as [[He _]|Ht]; [|exact Ht]. destruct H1 as [[i [-> _]]|[i ->]]; discriminate.
    - left. destruct Ht as [[He _]|Ht]; [|exact Ht]. destruct H1 as [[i [-> _]]|[i [-> _]]]; discriminate.
    - left. eapply no_commit; [exact H0| |exact Ht]. discriminate.
    - left. destruct Ht as [[He _]|Ht]; [discriminate|exact Ht].
    - left. eapply no_commit; [exact H1| |exact Ht]. destruct H as [q Hq]. destruct H0 as [[v ->]| ->]; [discriminate|].
      intros k q' E. injection E as <-. congruence.
    - left. eapply no_commit; [exact H0| |exact Ht]. discriminate.
  Qed.

  (** ** Senders that exist *)
  Record Cnt (s : ystate) (ys : list yevent) : Prop := {
    ct_list : exists l, NoDup l /\ (forall j, In j l <-> alive (y_tx s j) = true) /\ length l = y_count s;
    ct_events : y_count s + dropped ys = created ys }.

  Lemma cnt_init : Cnt (yinit P) [].
  Proof.
    constructor; [|reflexivity]. exists [0]. split; [repeat constructor; cbn; tauto|]. split; [|reflexivity].
    intros j. cbn. destruct j; cbn; intuition (try discriminate; auto).
  Qed.
  Lemma cnt_zero s ys : Cnt s ys -> y_count s = 0 -> forall j, alive (y_tx s j) = false.
  Proof.
    intros [(l & _ & H & E) _] H0 j. rewrite H0 in E. destruct l; [|discriminate].
    destruct (alive (y_tx s j)) eqn:Ea; auto. apply H in Ea. destruct Ea.
  Qed.
  Lemma cnt_pos s ys j : Cnt s ys -> alive (y_tx s j) = true -> 0 < y_count s.
  Proof. intros [(l & _ & H & E) _] Ha. apply H in Ha. destruct l; [destruct Ha|]. cbn in E. lia. Qed.
  Lemma dropped_app (a b : list yevent) : dropped (a ++ b) = dropped a + dropped b.
  Proof. induction a as [|[] a IH]; cbn; auto. Qed.
  Lemma created_app (a b : list yevent) : created (a ++ b) + 1 = created a + created b.
  Proof. induction a as [|[] a IH]; cbn; lia. Qed.

  Lemma cnt_same s s' evs (ys : list yevent) : Cnt s ys -> y_count s' = y_count s -> (forall j, alive (y_tx s' j) = alive (y_tx s j)) ->
    dropped evs = 0 -> created evs = 1 -> Cnt s' (evs ++ ys).
  Proof.
    intros [(l & H1 & H2 & H3) H4] E1 E2 E3 E4. constructor.
    - exists l. rewrite E1. split; [auto|]. split; [|auto]. intros j. now rewrite E2.
    - pose proof (created_app evs ys). rewrite dropped_app. lia.
  Qed.
  Lemma dropped_yr (e : option event) : dropped (yr e) = 0 /\ created (yr e) = 1.
  Proof. destruct e; auto. Qed.
  Lemma dropped_yc (e : option wevent) : dropped (T := T) (yc e) = 0 /\ created (T := T) (yc e) = 1.
  Proof. destruct e; auto. Qed.

  Lemma cnt_step s s' evs (ys : list yevent) : ycase s s' evs -> Cnt s ys -> Cnt s' (evs ++ ys).
  Proof.
    intros H HI.
    assert (U : forall j x, alive x = alive (y_tx s j) -> forall k, alive (updt (y_tx s) j x k) = alive (y_tx s k)).
    { intros j x E k. unfold updt. destruct (Nat.eqb_spec k j) as [->|]; auto. }
    destruct H.
    - apply (cnt_same s); auto; try apply dropped_yr. cbn [y_tx set_tx]. apply U.
      destruct H as [(-> & _ & ->)|[(-> & _ & ->)|(-> & _ & ->)]]; auto. destruct e as [[]|]; reflexivity.
    - apply (cnt_same s); auto; cbn [y_tx set_tx]; try (cbn [dropped created]; apply dropped_yr). apply U. now rewrite H.
    - pose proof (dropped_yr e) as [D1 D2]. constructor.
      2:{ pose proof (ct_events _ _ HI). pose proof (created_app (yr e) ys). rewrite dropped_app. cbn [y_count]. lia. }
      destruct (ct_list _ _ HI) as (l & L1 & L2 & L3). cbn [y_tx y_count].
      assert (Hj : In j l) by (apply L2; now rewrite H). apply in_split in Hj as (l1 & l2 & ->).
      assert (Hjj : j <> j') by (intros ->; congruence).
      assert (Hn : ~ In j (l1 ++ l2)) by (now apply NoDup_remove_2). 
      exists (j' :: l1 ++ l2). split; [|split].
      + constructor; [|now apply NoDup_remove_1 in L1]. intros Hin. assert (In j' (l1 ++ j :: l2)) as Hx by (apply in_app_iff in Hin; apply in_app_iff; cbn; tauto).
        apply L2 in Hx. rewrite H0 in Hx. discriminate.
      + intros k. destruct (Nat.eq_dec k j') as [->|Hk]; [rewrite updt_same; cbn; tauto|]. rewrite updt_other by auto.
        destruct (Nat.eq_dec k j) as [->|Hkj].
        * rewrite updt_same. cbn. split; [|discriminate]. intros [E|E]; [congruence|tauto].
        * rewrite updt_other by auto. rewrite <- L2. cbn. rewrite !in_app_iff. cbn. intuition congruence.
      + rewrite app_length in L3. cbn [length] in *. rewrite app_length. lia.
    - apply (cnt_same s); auto; try apply dropped_yc. cbn [y_tx set_tx]. apply U.
      destruct H as [-> | ->]; destruct e as [[]|]; reflexivity.
    - constructor.
      2:{ pose proof (ct_events _ _ HI). cbn [y_count app dropped created]. lia. }
      destruct (ct_list _ _ HI) as (l & L1 & L2 & L3). cbn [y_tx y_count]. exists (j' :: l). split; [|split].
      + constructor; auto. intros Hx. apply L2 in Hx. rewrite H0 in Hx. discriminate.
      + intros k. destruct (Nat.eq_dec k j') as [->|Hk]; [rewrite updt_same; cbn; tauto|]. rewrite updt_other by auto.
        cbn. rewrite <- L2. intuition congruence.
      + cbn. now rewrite L3.
    - pose proof (cnt_pos s ys j HI ltac:(now rewrite H)) as Hp. constructor.
      2:{ pose proof (ct_events _ _ HI). cbn [y_count app dropped created]. lia. }
      destruct (ct_list _ _ HI) as (l & L1 & L2 & L3). cbn [y_tx y_count].
      assert (Hj : In j l) by (apply L2; now rewrite H). apply in_split in Hj as (l1 & l2 & ->).
      assert (Hn : ~ In j (l1 ++ l2)) by (now apply NoDup_remove_2). exists (l1 ++ l2). split; [now apply NoDup_remove_1 in L1|split].
      + intros k. destruct (Nat.eq_dec k j) as [->|Hk]; [rewrite updt_same; cbn; split; [tauto|discriminate]|].
        rewrite updt_other by auto. rewrite <- L2, !in_app_iff. cbn. intuition congruence.
      + rewrite app_length in *. cbn in L3. lia.
    - constructor.
      2:{ pose proof (ct_events _ _ HI). cbn [y_count app dropped created]. lia. }
      destruct (ct_list _ _ HI) as (l & L1 & L2 & L3). cbn [y_tx y_count].
      assert (Hj : In j l) by (apply L2; now rewrite H). rewrite H1 in L3. destruct l as [|j0 [|]]; try discriminate.
      destruct Hj as [->|[]]. exists []. split; [constructor|]. split; [|reflexivity].
      intros k. destruct (Nat.eq_dec k j) as [->|Hk]; [rewrite updt_same; cbn; split; [tauto|discriminate]|].
      rewrite updt_other by auto. rewrite <- L2. cbn. intuition congruence.
    - apply (cnt_same s); auto; cbn [y_tx set_tx]; try (cbn [dropped created]; apply dropped_yr). apply U. now rewrite H.
    - apply (cnt_same s); auto; cbn [y_tx set_tx]; try (cbn [dropped created]; apply dropped_yr). apply U. now rewrite H.
    - apply (cnt_same s); auto; destruct H1 as [(w & -> & ->)|[-> ->]]; destruct e; reflexivity.
    - apply (cnt_same s); auto.
    - apply (cnt_same s); auto.
    - apply (cnt_same s); auto.
    - apply (cnt_same s); auto.
    - apply (cnt_same s); auto.
    - apply (cnt_same s); auto.
    - apply (cnt_same s); auto; apply dropped_yr.
    - apply (cnt_same s); auto; apply dropped_yc.
    - apply (cnt_same s); auto.
    - apply (cnt_same s); auto; apply dropped_yr.
    - apply (cnt_same s); auto; apply dropped_yr.
    - apply (cnt_same s); auto.
  Qed.

  (** ** The newest value of the lock knows the published elements *)
  Definition nl (s : ystate) : agent := lock_agent (Nat.pred (length (wc_msgs (y_cell s)))).

  Lemma snoc_len {A} (l : list A) x : Nat.pred (length (l ++ [x])) = length l.
  Proof. rewrite app_length. cbn. lia. Qed.

  Lemma nl_step c i x c' e y ces r ag t : KInv c ces -> cstepw c i x = Some (c', e, y) ->
    Kn r (lock_agent (Nat.pred (length (wc_msgs c)))) t ->
    Kn (lock_sync r ag y) (lock_agent (Nat.pred (length (wc_msgs c')))) t.
  Proof.
    intros HK H Hk. destruct (cell_msgs _ _ _ _ _ _ _ HK H) as [[-> _]|(m & ord & -> & -> & _)].
    - now apply (gr_know _ _ (lock_grew _ _ _)).
    - rewrite snoc_len. now apply lock_seq.
  Qed.

  Lemma ylock s s' evs (ys : list yevent) : ycase s s' evs -> KInv (y_cell s) (cell_events ys) -> Stg s (cell_events ys) -> sound_chan o ->
    (forall t, Kn (y_ring s) (nl s) t -> Kn (y_ring s') (nl s') t) /\
    (forall j, pcs s (S j) = NOr false -> pcs s' (S j) = NOr false \/
       ((forall t, Kn (y_ring s) (tx_agent j) t -> Kn (y_ring s') (nl s') t) /\ exists i b, evs = [YC (Fetched i b)])).
  Proof.
    intros H HK HS Ho. pose proof H as H'. destruct H;
      try (split; [intros t Hk; exact (ygrow _ _ _ _ _ H' Hk)|auto]; fail).
    - pose proof (kcall _ _ _ _ _ H1) as (G1 & G2 & G3 & _). split.
      + intros t Hk. unfold nl in *. cbn [y_cell set_tx] in *. rewrite G3. exact (ygrow _ _ _ _ _ H' Hk).
      + intros k Hk. left. cbn [y_cell set_tx]. rewrite G2. unfold tx_thread. rewrite wset_other; auto. intros E. unfold tx_thread in G1. congruence.
    - split.
      + intros t Hk. exact (nl_step _ _ _ _ _ _ _ _ _ _ HK H0 Hk).
      + intros k Hk. pose proof (cell_sender _ _ _ _ _ _ H0 ltac:(apply (sg_tx _ _ HS))) as (p' & Hp & _ & _ & _ & _ & Hor).
        unfold tx_thread in *. cbn [y_cell set_tx]. rewrite Hp.
        destruct (Nat.eq_dec k j) as [->|Hkj]; [right|left; rewrite wset_other; congruence].
        destruct (Hor _ Hk) as [-> ->]. split; [|cbn [yc]; eauto]. intros t Ht. unfold nl. cbn [y_cell y_ring set_tx].
        destruct (cell_msgs _ _ _ _ _ _ _ HK H0) as [[_ E]|(m & ord & -> & _)]; [discriminate|]. rewrite snoc_len.
        apply lock_rel; auto. apply Ho.
    - pose proof (kcall _ _ _ _ _ H1) as (G1 & G2 & G3 & _). split.
      + intros t Hk. unfold nl in *. cbn [y_cell set_tx] in *. rewrite G3. exact (ygrow _ _ _ _ _ H' Hk).
      + intros k Hk. left. cbn [y_cell set_tx]. rewrite G2. unfold tx_thread. rewrite wset_other; auto. intros E. unfold tx_thread in G1. congruence.
    - pose proof (kcall _ _ _ _ _ H1) as (G1 & G2 & G3 & _). split.
      + intros t Hk. unfold nl in *. cbn [y_cell set_rx] in *. rewrite G3. exact (ygrow _ _ _ _ _ H' Hk).
      + intros j Hk. left. cbn [y_cell set_rx]. rewrite G2. now rewrite wset_other.
    - split.
      + intros t Hk. exact (nl_step _ _ _ _ _ _ _ _ _ _ HK H0 Hk).
      + intros j Hk. left. cbn [y_cell set_rx]. apply step_word in H0 as (_ & _ & p' & _ & -> & _). now rewrite wset_other.
    - split.
      + intros t Hk. unfold Kn. cbn [y_ring set_rx]. eapply know_step; [exact H1|].
        exact (nl_step _ _ _ _ _ _ _ _ _ _ HK H0 Hk).
      + intros j Hk. left. cbn [y_cell set_rx]. apply step_word in H0 as (_ & _ & p' & _ & -> & _). now rewrite wset_other.
  Qed.

  Definition IA (s : ystate) (es : list event) : Prop := forall t, at_time cmt es t ->
    Kn (y_ring s) (nl s) t \/ exists j, pcs s (S j) = NOr false /\ Kn (y_ring s) (tx_agent j) t.

  Lemma ia_step s s' evs (ys : list yevent) : ycase s s' evs -> rrun (ring_events ys) (y_ring s) -> KInv (y_cell s) (cell_events ys) -> Stg s (cell_events ys) ->
    sound_chan o -> IA s (ring_events ys) -> IA s' (ring_events (evs ++ ys)).
  Proof.
    intros H Hr HK HS Ho HI t Ht. destruct (ylock _ _ _ _ H HK HS Ho) as [L1 L2].
    destruct (ycommit _ _ _ _ _ H Hr Ht) as [Hc|(j & _ & _ & Hj & Hk & _)]; [|right; eauto].
    destruct (HI _ Hc) as [Hk|(j & Hj & Hk)]; [left; auto|].
    destruct (L2 _ Hj) as [Hj'|[Hj' _]]; [right|left; auto]. exists j. split; auto. exact (ygrow _ _ _ _ _ H Hk).
  Qed.

  (** ** The last sender knows all published elements *)
  Record IG (s : ystate) (es : list event) : Prop := {
    ig_open : y_count s <> 0 -> forall t, at_time cmt es t -> Kn (y_ring s) count_agent t \/
      exists j, alive (y_tx s j) = true /\ Kn (y_ring s) (tx_agent j) t;
    ig_closer : forall j, y_tx s j = SClosing \/ y_tx s j = SCloseTx ->
      y_count s = 0 /\ forall t, at_time cmt es t -> Kn (y_ring s) (tx_agent j) t }.

  (** No sender changes except [j], which stays as alive as it was. *)
  Lemma ig_frame s s' evs (ys : list yevent) : ycase s s' evs -> rrun (ring_events ys) (y_ring s) -> Cnt s ys -> y_count s' = y_count s ->
    (forall j, alive (y_tx s j) = true -> alive (y_tx s' j) = true) ->
    (forall j, y_tx s' j = SClosing \/ y_tx s' j = SCloseTx -> y_tx s j = SClosing \/ y_tx s j = SCloseTx) ->
    IG s (ring_events ys) -> IG s' (ring_events (evs ++ ys)).
  Proof.
    intros H Hr HC E1 E2 E3 [I1 I2]. constructor; rewrite E1.
    - intros Hn t Ht. destruct (ycommit _ _ _ _ _ H Hr Ht) as [Hc|(j & _ & Hs & Hj & Hk & _)].
      + destruct (I1 Hn t Hc) as [Hk|(j & Ha & Hk)]; [left; exact (ygrow _ _ _ _ _ H Hk)|right].
        exists j. split; auto. exact (ygrow _ _ _ _ _ H Hk).
      + right. exists j. now rewrite Hs.
    - intros j Hj. destruct (I2 j (E3 _ Hj)) as [H0 Hk]. split; auto. intros t Ht.
      destruct (ycommit _ _ _ _ _ H Hr Ht) as [Hc|(j' & Hs & _)]; [exact (ygrow _ _ _ _ _ H (Hk _ Hc))|].
      pose proof (cnt_zero _ _ HC H0 j') as Ha. rewrite Hs in Ha. discriminate.
  Qed.

  Lemma ig_step s s' evs (ys : list yevent) : ycase s s' evs -> rrun (ring_events ys) (y_ring s) -> Cnt s ys -> sound_count o ->
    IG s (ring_events ys) -> IG s' (ring_events (evs ++ ys)).
  Proof.
    intros H Hr HC Ho HI. pose proof H as H'.
    assert (F : y_count s' = y_count s -> (forall j, alive (y_tx s j) = true -> alive (y_tx s' j) = true) ->
      (forall j, y_tx s' j = SClosing \/ y_tx s' j = SCloseTx -> y_tx s j = SClosing \/ y_tx s j = SCloseTx) ->
      IG s' (ring_events (evs ++ ys))) by (intros; eapply ig_frame; eauto).
    destruct H; try (apply F; auto; fail).
    - apply F; auto; intros k; cbn [y_tx set_tx]; unfold updt; destruct (Nat.eqb_spec k j) as [->|]; auto.
      + destruct H as [(-> & _ & ->)|[(-> & _ & ->)|(-> & _ & ->)]]; auto. destruct e as [[]|]; auto.
      + destruct H as [(-> & _ & ->)|[(-> & _ & ->)|(-> & _ & ->)]]; auto; try (intros [E|E]; discriminate).
        destruct e as [[]|]; intros [E|E]; discriminate.
    - apply F; auto; intros k; cbn [y_tx set_tx]; unfold updt; destruct (Nat.eqb_spec k j) as [->|]; auto. intros [E|E]; discriminate.
    - destruct HI as [I1 I2].
      assert (Hc : forall t, at_time cmt (ring_events (yr e ++ ys)) t -> at_time cmt (ring_events ys) t).
      { intros t. rewrite ring_yr. destruct H1 as [(_ & -> & _)|H1]; auto. eapply no_commit; eauto. discriminate. }
      constructor; cbn [y_count y_tx].
      + intros Hn t Ht. destruct (I1 Hn t (Hc _ Ht)) as [Hk|(k & Ha & Hk)]; [left; exact (ygrow _ _ _ _ _ H' Hk)|right].
        destruct (Nat.eq_dec k j) as [->|Hkj].
        * exists j'. rewrite updt_same. split; auto. cbn [y_ring]. apply xsync_know.
          destruct H1 as [(-> & _)|H1]; auto. unfold Kn. eapply know_step; eauto.
        * exists k. split; [|exact (ygrow _ _ _ _ _ H' Hk)]. unfold updt. destruct (Nat.eqb k j'); auto.
          now rewrite (proj2 (Nat.eqb_neq k j) Hkj).
      + intros k Hk. unfold updt in Hk. destruct (Nat.eqb k j'); [destruct Hk; discriminate|].
        destruct (Nat.eqb k j); [destruct Hk; discriminate|]. destruct (I2 k Hk) as [H2 H3]. split; auto.
        intros t Ht. exact (ygrow _ _ _ _ _ H' (H3 _ (Hc _ Ht))).
    - apply F; auto; intros k; cbn [y_tx set_tx]; unfold updt; destruct (Nat.eqb_spec k j) as [->|]; auto.
      + destruct H as [-> | ->]; [|discriminate]. destruct e as [[]|]; auto.
      + destruct H as [-> | ->]; auto. destruct e as [[]|]; intros [E|E]; discriminate.
    - destruct HI as [I1 I2]. cbn [app ring_events]. pose proof (cnt_pos _ _ j HC ltac:(now rewrite H)) as Hp. constructor; cbn [y_count y_tx].
      + intros _ t Ht. destruct (I1 ltac:(lia) t Ht) as [Hk|(k & Ha & Hk)]; [left; exact (ygrow _ _ _ _ _ H' Hk)|right].
        exists k. split; [|exact (ygrow _ _ _ _ _ H' Hk)]. unfold updt. now destruct (Nat.eqb k j').
      + intros k Hk. unfold updt in Hk. destruct (Nat.eqb k j'); [destruct Hk; discriminate|]. destruct (I2 k Hk). lia.
    - destruct HI as [I1 I2]. cbn [app ring_events]. pose proof (cnt_pos _ _ j HC ltac:(now rewrite H)) as Hp. constructor; cbn [y_count y_tx].
      + intros _ t Ht. destruct (I1 ltac:(lia) t Ht) as [Hk|(k & Ha & Hk)]; [left; exact (ygrow _ _ _ _ _ H' Hk)|].
        destruct (Nat.eq_dec k j) as [->|Hkj].
        * left. cbn [y_ring]. rewrite H0, (so_sub _ Ho). now apply xsync_know.
        * right. exists k. split; [|exact (ygrow _ _ _ _ _ H' Hk)]. unfold updt. now rewrite (proj2 (Nat.eqb_neq k j) Hkj).
      + intros k Hk. unfold updt in Hk. destruct (Nat.eqb k j); [destruct Hk; discriminate|]. destruct (I2 k Hk). lia.
    - destruct HI as [I1 I2]. cbn [app ring_events]. constructor; cbn [y_count y_tx]; [easy|].
      intros k Hk. split; [reflexivity|]. intros t Ht. unfold updt in Hk.
      destruct (Nat.eq_dec k j) as [->|Hkj]; [|rewrite (proj2 (Nat.eqb_neq k j) Hkj) in Hk].
      + cbn [y_ring]. rewrite (so_fence _ Ho). destruct (I1 ltac:(lia) t Ht) as [Hc|(k & Ha & Hc)].
        * apply xsync_know. rewrite H0, (so_sub _ Ho). now apply (gr_know _ _ (xsync_grew _ _ _)).
        * destruct (ct_list _ _ HC) as (l & L1 & L2 & L3). rewrite H1 in L3. destruct l as [|j0 [|]]; try discriminate.
          assert (Hj : In j [j0]) by (apply L2; now rewrite H). assert (Hk' : In k [j0]) by (now apply L2).
          destruct Hj as [->|[]], Hk' as [->|[]]. apply (gr_know _ _ (xsync_grew _ _ _)).
          rewrite H0, (so_sub _ Ho). now apply (gr_know _ _ (xsync_grew _ _ _)).
      + destruct (I2 k Hk). lia.
    - apply F; auto; intros k; cbn [y_tx set_tx]; unfold updt; destruct (Nat.eqb_spec k j) as [->|]; auto. rewrite H. discriminate.
    - apply F; auto; intros k; cbn [y_tx set_tx]; unfold updt; destruct (Nat.eqb_spec k j) as [->|]; auto;
        try (rewrite H; discriminate); intros [E|E]; discriminate.
  Qed.

  Lemma zero_step s s' evs (ys : list yevent) : ycase s s' evs -> rrun (ring_events ys) (y_ring s) -> Cnt s ys -> y_count s = 0 ->
    y_count s' = 0 /\ forall t, at_time cmt (ring_events (evs ++ ys)) t -> at_time cmt (ring_events ys) t.
  Proof.
    intros H Hr HC H0. pose proof (cnt_zero _ _ HC H0) as Hz. split.
    - destruct H; auto; cbn [y_count]; [|lia]. specialize (Hz j). rewrite H in Hz. discriminate.
    - intros t Ht. destruct (ycommit _ _ _ _ _ H Hr Ht) as [|(j & Hs & _)]; auto. specialize (Hz j). rewrite Hs in Hz. discriminate.
  Qed.

  (** Only the last sender closes. *)
  Definition IZ (s : ystate) : Prop := forall j, y_tx s j = SClosing \/ y_tx s j = SCloseTx -> y_count s = 0.

  Lemma closers s s' evs : ycase s s' evs -> forall k, y_tx s' k = SClosing \/ y_tx s' k = SCloseTx ->
    (y_tx s k = SClosing \/ y_tx s k = SCloseTx) \/ y_count s' = 0.
  Proof.
    intros H k Hk. destruct H; auto; cbn [y_tx y_count set_tx] in *; auto; unfold updt in Hk.
    - destruct (Nat.eq_dec k j) as [->|Hn]; [rewrite Nat.eqb_refl in Hk|rewrite (proj2 (Nat.eqb_neq _ _) Hn) in Hk; auto]. exfalso.
      destruct H as [(_ & _ & ->)|[(_ & _ & ->)|(_ & _ & ->)]]; try (destruct Hk; discriminate). destruct e as [[]|]; destruct Hk; discriminate.
    - destruct (Nat.eq_dec k j) as [->|Hn]; [rewrite Nat.eqb_refl in Hk|rewrite (proj2 (Nat.eqb_neq _ _) Hn) in Hk; auto]. destruct Hk; discriminate.
    - destruct (Nat.eq_dec k j') as [->|Hn']; [rewrite Nat.eqb_refl in Hk; destruct Hk; discriminate|rewrite (proj2 (Nat.eqb_neq _ _) Hn') in Hk]. destruct (Nat.eq_dec k j) as [->|Hn]; [rewrite Nat.eqb_refl in Hk|rewrite (proj2 (Nat.eqb_neq _ _) Hn) in Hk; auto]. destruct Hk; discriminate.
    - destruct (Nat.eq_dec k j) as [->|Hn]; [rewrite Nat.eqb_refl in Hk|rewrite (proj2 (Nat.eqb_neq _ _) Hn) in Hk; auto]. destruct H as [H|H]; auto. rewrite H in Hk. destruct e as [[]|]; destruct Hk; discriminate.
    - destruct (Nat.eq_dec k j') as [->|Hn]; [rewrite Nat.eqb_refl in Hk|rewrite (proj2 (Nat.eqb_neq _ _) Hn) in Hk; auto]. destruct Hk; discriminate.
    - destruct (Nat.eq_dec k j) as [->|Hn]; [rewrite Nat.eqb_refl in Hk|rewrite (proj2 (Nat.eqb_neq _ _) Hn) in Hk; auto]. destruct Hk; discriminate.
    - destruct (Nat.eq_dec k j) as [->|Hn]; [auto|rewrite (proj2 (Nat.eqb_neq _ _) Hn) in Hk; auto].
    - destruct (Nat.eq_dec k j) as [->|Hn]; [rewrite Nat.eqb_refl in Hk|rewrite (proj2 (Nat.eqb_neq _ _) Hn) in Hk; auto]. destruct Hk; discriminate.
  Qed.
  Lemma iz_step s s' evs (ys : list yevent) : ycase s s' evs -> rrun (ring_events ys) (y_ring s) -> Cnt s ys -> IZ s -> IZ s'.
  Proof. intros H Hr HC HI j Hj. destruct (closers _ _ _ H _ Hj) as [Ho|]; auto. eapply zero_step; eauto. Qed.

  (** ** Values of the lock that say closed know everything *)
  Definition IF (s : ystate) (es : list event) : Prop := forall x m, nth_error (wc_msgs (y_cell s)) x = Some m -> has_closed (cm_word m) = true ->
    y_count s = 0 /\ forall t, at_time cmt es t -> Kn (y_ring s) (lock_agent x) t.

  Lemma if_cell s i x c' e y ag es ces : KInv (y_cell s) ces -> IF s es -> cstepw (y_cell s) i x = Some (c', e, y) -> sound_chan o ->
    (pcs s i = NOr true -> y_count s = 0 /\ forall t, at_time cmt es t -> Kn (y_ring s) (nl s) t) ->
    forall x m, nth_error (wc_msgs c') x = Some m -> has_closed (cm_word m) = true ->
      y_count s = 0 /\ forall t, at_time cmt es t -> Kn (lock_sync (y_ring s) ag y) (lock_agent x) t.
  Proof.
    intros HK HI Hs Ho Hor z m Hm Hc. destruct (cell_msgs _ _ _ _ _ _ _ HK Hs) as [[E _]|(m0 & ord & E & Ey & _ & Hcl)]; rewrite E in Hm.
    - destruct (HI _ _ Hm Hc) as [H0 H1]. split; auto. intros t Ht. apply (gr_know _ _ (lock_grew _ _ _)). auto.
    - apply nth_snoc in Hm as [Hm|[-> ->]].
      + destruct (HI _ _ Hm Hc) as [H0 H1]. split; auto. intros t Ht. apply (gr_know _ _ (lock_grew _ _ _)). auto.
      + destruct (Hcl Hc) as [Hcs|Hcs].
        * destruct (ki_new _ _ HK) as (m1 & Hn & Ew). rewrite <- Ew in Hcs. destruct (HI _ _ Hn Hcs) as [H0 H1]. split; auto.
          intros t Ht. rewrite Ey. apply lock_seq. auto.
        * destruct (Hor Hcs) as [H0 H1]. split; auto. intros t Ht. rewrite Ey. apply lock_seq. apply H1. exact Ht.
  Qed.

  Lemma if_step s s' evs (ys : list yevent) : ycase s s' evs -> rrun (ring_events ys) (y_ring s) -> KInv (y_cell s) (cell_events ys) ->
    Stg s (cell_events ys) -> Cnt s ys -> sound_chan o -> IA s (ring_events ys) -> IZ s -> IF s (ring_events ys) -> IF s' (ring_events (evs ++ ys)).
  Proof.
    intros H Hr HK HS HC Ho HA HZ HI. pose proof H as H'.
    assert (F : wc_msgs (y_cell s') = wc_msgs (y_cell s) -> IF s' (ring_events (evs ++ ys))).
    { intros E x m Hm Hc. rewrite E in Hm. destruct (HI _ _ Hm Hc) as [H0 H1].
      destruct (zero_step _ _ _ _ H Hr HC H0) as [Z1 Z2]. split; auto. intros t Ht. exact (ygrow _ _ _ _ _ H (H1 _ (Z2 _ Ht))). }
    assert (N0 : pcs s 0 <> NOr true).
    { intros E. destruct (sg_rx _ _ HS) as [G|[G _]]; rewrite E in G; discriminate. }
    destruct H; try (apply F; reflexivity).
    - apply kcall in H1 as (_ & _ & G3 & _). apply F. exact G3.
    - rewrite ring_yc. unfold IF. cbn [y_cell y_ring y_count set_tx].
      eapply if_cell; eauto. intros Hp. unfold tx_thread in *. pose proof (HZ j (or_intror (sg_true _ _ HS _ Hp))) as Z.
      split; auto. intros t Ht. destruct (HA t Ht) as [|(k & Hk & _)]; auto.
      pose proof (cnt_zero _ _ HC Z k) as D. rewrite (sg_false _ _ HS _ Hk) in D. discriminate.
    - apply kcall in H1 as (_ & _ & G3 & _). apply F. exact G3.
    - apply kcall in H1 as (_ & _ & G3 & _). apply F. exact G3.
    - rewrite ring_yc. unfold IF. cbn [y_cell y_ring y_count set_rx]. eapply if_cell; eauto. intros Hp. congruence.
    - cbn [app ring_events]. unfold IF. cbn [y_cell y_ring y_count set_rx]. intros z m Hm Hc.
      assert (D : pcs s 0 = NOr true -> y_count s = 0 /\ (forall t, at_time cmt (ring_events ys) t -> Kn (y_ring s) (nl s) t)) by (intros Hp; congruence).
      destruct (if_cell _ _ _ _ _ _ (me s) _ _ HK HI H0 Ho D _ _ Hm Hc) as [Z Hk]. split; auto. intros t [[E _]|Ht]; [discriminate|].
      unfold Kn. eapply know_step; [exact H1|]. now apply Hk.
  Qed.

  (** ** A receiver that saw the cell closed knows everything *)
  Definition ISaw (s : ystate) (es : list event) : Prop := forall st, saw (pcs s 0) = Some st -> contains st TX_CLOSED = true ->
    y_count s = 0 /\ forall t, at_time cmt es t -> Kn (y_ring s) (me s) t.

  Lemma wait_pc s i x c' e y w ces : Stg s ces -> y_rx s = RWait w -> cstepw (y_cell s) 0 x = Some (c', e, y) -> i = 0 -> waiting_pc (pcs s i) = true.
  Proof.
    intros HS Hw H ->. destruct (sg_rx _ _ HS) as [E|[E _]]; auto. apply step_word in H as (? & ? & ? & _ & _ & Hn & _). congruence.
  Qed.

  Lemma saw_cell s x c' e y w es ces : KInv (y_cell s) ces -> Stg s ces -> y_rx s = RWait w -> IF s es -> ISaw s es -> sound_chan o ->
    cstepw (y_cell s) 0 x = Some (c', e, y) ->
    forall st, saw (ws_pc (wc_sys c') 0) = Some st -> contains st TX_CLOSED = true ->
      y_count s = 0 /\ forall t, at_time cmt es t -> Kn (lock_sync (y_ring s) (me s) y) (me s) t.
  Proof.
    intros HK HS Hw HF HI Ho H st Hst Hc. pose proof (wait_pc _ _ _ _ _ _ _ _ HS Hw H eq_refl) as Hp.
    apply cell_waiter in H as (p' & E & _ & _ & _ & Hsaw & _); auto. rewrite E, wset_same in Hst.
    destruct (Hsaw _ Hst Hc) as [Hs|[Es Ey]].
    - destruct (HI _ Hs Hc) as [Z Hk]. split; auto. intros t Ht. apply (gr_know _ _ (lock_grew _ _ _)). auto.
    - destruct (ki_new _ _ HK) as (m & Hn & Ew). destruct (HF _ _ Hn) as [Z Hk]; [unfold has_closed; congruence|]. split; auto.
      intros t Ht. rewrite Ey. apply lock_acq; [apply Ho|auto].
  Qed.

  Lemma saw_step s s' evs (ys : list yevent) : ycase s s' evs -> rrun (ring_events ys) (y_ring s) -> KInv (y_cell s) (cell_events ys) ->
    Stg s (cell_events ys) -> Cnt s ys -> sound_chan o -> IF s (ring_events ys) -> ISaw s (ring_events ys) -> ISaw s' (ring_events (evs ++ ys)).
  Proof.
    intros H Hr HK HS HC Ho HF HI. pose proof H as H'.
    assert (F : pcs s' 0 = pcs s 0 -> y_me s' = y_me s -> ISaw s' (ring_events (evs ++ ys))).
    { intros E Em st Hst Hc. rewrite E in Hst. destruct (HI _ Hst Hc) as [H0 H1].
      destruct (zero_step _ _ _ _ H Hr HC H0) as [Z1 Z2]. split; auto. intros t Ht. rewrite Em. exact (ygrow _ _ _ _ _ H (H1 _ (Z2 _ Ht))). }
    destruct H; try (apply F; reflexivity).
    - apply kcall in H1 as (_ & G & _ & _). apply F; auto. cbn [y_cell set_tx]. rewrite G. reflexivity.
    - apply step_word in H0 as (_ & _ & p' & _ & G & _). apply F; auto. cbn [y_cell set_tx]. rewrite G. reflexivity.
    - apply kcall in H1 as (_ & G & _ & _). apply F; auto. cbn [y_cell set_tx]. rewrite G. reflexivity.
    - intros st Hst. destruct (sg_rx _ _ HS) as [G|[_ [w G]]]; [|rewrite G in H; discriminate]. cbn [y_cell] in Hst. rewrite G in Hst. discriminate.
    - apply kcall in H1 as (_ & G & _ & _). intros st Hst. cbn [y_cell set_rx] in Hst. rewrite G in Hst. discriminate.
    - intros st Hst Hc. rewrite ring_yc. exact (saw_cell _ _ _ _ _ _ _ _ HK HS H HF HI Ho H0 st Hst Hc).
    - intros st Hst Hc. cbn [y_cell set_rx] in Hst.
      pose proof (wait_pc _ _ _ _ _ _ _ _ HS H H0 eq_refl) as Hp.
      apply cell_waiter in H0 as (p' & E & _ & _ & Hr0 & _); auto. destruct (Hr0 _ _ eq_refl) as [_ ->]. rewrite E, wset_same in Hst. discriminate.
  Qed.

  (** ** The receiver's calls *)
  Notation kcall_of s t := (v_know (w_call (y_ring s) (me s)) t = true).

  Lemma rx_frame s s' evs : ycase s s' evs -> y_rx s' = y_rx s -> (forall w, y_rx s <> RWait w) ->
    y_me s' = y_me s /\ w_call (y_ring s') (me s) = w_call (y_ring s) (me s).
  Proof.
    assert (C : forall r a r' e j, rstep r a = Some (r', e) -> WeakFacts.actor a = tx_agent j -> w_call r' (me s) = w_call r (me s)).
    { intros r a r' e j H Ha. eapply call_keep; eauto. intros op ->. cbn in Ha. now apply eq_sym, tx_rx in Ha. }
    intros H Hx Hw. destruct H; cbn [y_me y_ring y_rx set_tx set_rx] in *; try (split; [reflexivity|]); try reflexivity.
    - eapply C; [exact H0|]. destruct H as [(_ & -> & _)|[(_ & (k & b & ->) & _)|(_ & (v & ->) & _)]]; reflexivity.
    - eapply C; [exact H0|reflexivity].
    - rewrite (gr_call _ _ (xsync_grew _ _ _)). destruct H1 as [(-> & _)|H1]; auto. eapply C; [exact H1|reflexivity].
    - now rewrite (gr_call _ _ (lock_grew _ _ _)).
    - subst r1. now destruct (is_release _).
    - subst r1. now destruct (is_release _), (co_fence o).
    - eapply C; [exact H0|reflexivity].
    - eapply C; [exact H0|reflexivity].
    - destruct H1 as [(w & -> & _)|[-> _]]; [|rewrite <- Hx in H; discriminate].
      rewrite <- Hx in H. discriminate.
    - rewrite <- Hx in H. discriminate.
    - congruence.
    - congruence.
    - congruence.
    - congruence.
    - eapply call_keep; eauto. discriminate.
    - now destruct (Hw w).
    - congruence.
    - eapply call_keep; eauto. destruct H0 as [[v ->]| ->]; discriminate.
    - eapply call_keep; eauto. discriminate.
  Qed.

  Definition IL (s : ystate) (es : list event) : Prop := forall w, y_rx s = RPop w Last ->
    y_count s = 0 /\ forall t, at_time cmt es t -> kcall_of s t.

  Lemma il_step s s' evs (ys : list yevent) : ycase s s' evs -> rrun (ring_events ys) (y_ring s) -> KInv (y_cell s) (cell_events ys) ->
    Stg s (cell_events ys) -> Cnt s ys -> sound_chan o -> IF s (ring_events ys) -> ISaw s (ring_events ys) -> IL s (ring_events ys) -> IL s' (ring_events (evs ++ ys)).
  Proof.
    intros H Hr HK HS HC Ho HF Hsaw HI w Hw. pose proof H as H'.
    assert (F : y_rx s' = y_rx s -> y_count s' = 0 /\ forall t, at_time cmt (ring_events (evs ++ ys)) t -> kcall_of s' t).
    { intros E. destruct (rx_frame _ _ _ H E ltac:(intros; rewrite <- E, Hw; discriminate)) as [E1 E2].
      destruct (HI w ltac:(congruence)) as [H0 H1]. destruct (zero_step _ _ _ _ H Hr HC H0) as [Z1 Z2]. split; auto. intros t Ht.
      rewrite E1, E2. auto. }
    destruct H; try (apply F; reflexivity); try discriminate.
    - destruct H1 as [(w' & -> & _)|[-> _]]; discriminate.
    - injection Hw as <- Hn. destruct res; try discriminate. cbn [app ring_events y_ring y_count y_me set_rx]. rewrite (call_new _ _ _ _ _ H1).
      pose proof (wait_pc _ _ _ _ _ _ _ _ HS H H0 eq_refl) as Hp.
      apply cell_waiter in H0 as (p' & E & _ & _ & _ & _ & Hcl); auto.
      destruct (Hcl _ eq_refl) as [(st & Hst & Hc)|(n & m & Ey & Hm & Hc)].
      + destruct (Hsaw _ Hst Hc) as [Z Hk]. split; auto. intros t [[D _]|Ht]; [discriminate|]. apply (gr_know _ _ (lock_grew _ _ _)). now apply Hk.
      + destruct (HF _ _ Hm Hc) as [Z Hk]. split; auto. intros t [[D _]|Ht]; [discriminate|]. rewrite Ey. apply lock_load; [apply Ho|now apply Hk].
  Qed.

  (** The receiver knows what was taken. *)
  Definition ID (s : ystate) (es : list event) : Prop := forall t, at_time is_take es t ->
    Kn (y_ring s) (me s) t /\ (popping (y_rx s) = true -> kcall_of s t).

  Lemma id_step s s' evs (ys : list yevent) : ycase s s' evs -> rrun (ring_events ys) (y_ring s) ->
    Stg s (cell_events ys) -> ID s (ring_events ys) -> ID s' (ring_events (evs ++ ys)).
  Proof.
    intros H Hr HS HI t Ht. pose proof H as H'. pose proof (sg_pop _ _ HS) as Hpop.
    assert (F : at_time is_take (ring_events ys) t -> y_rx s' = y_rx s -> (forall w, y_rx s <> RWait w) -> Kn (y_ring s') (me s') t /\ (popping (y_rx s') = true -> kcall_of s' t)).
    { intros Hc E Hw. destruct (rx_frame _ _ _ H E Hw) as [E1 E2]. destruct (HI _ Hc) as [K1 K2]. rewrite E1, E2, E. split; auto.
      exact (ygrow _ _ _ _ _ H K1). }
    assert (G : at_time is_take (ring_events ys) t -> popping (y_rx s') = false -> y_me s' = y_me s -> Kn (y_ring s') (me s') t /\ (popping (y_rx s') = true -> kcall_of s' t)).
    { intros Hc E E1. split; [|congruence]. rewrite E1. exact (ygrow _ _ _ _ _ H (proj1 (HI _ Hc))). }
    assert (FG : at_time is_take (ring_events ys) t -> y_rx s' = y_rx s -> y_me s' = y_me s -> Kn (y_ring s') (me s') t /\ (popping (y_rx s') = true -> kcall_of s' t)).
    { intros Hc E E1. destruct (y_rx s) eqn:Er; try (apply G; auto; rewrite E; reflexivity); apply F; auto; discriminate. }
    assert (C : forall r' x e, rstep (y_ring s) (XInvoke (me s) OpPop) = Some (r', e) -> at_time is_take (ring_events ys) t ->
       y_ring x = r' -> y_me x = y_me s -> Kn (y_ring x) (me x) t /\ (popping (y_rx x) = true -> kcall_of x t)).
    { intros r' x e Hi Hc Ex Em. destruct (HI _ Hc) as [K1 _]. rewrite Ex, Em. split.
      - unfold Kn. eapply know_step; eauto.
      - intros _. now rewrite (call_new _ _ _ _ _ Hi). }
    destruct H; try poll_evs; cbn [app ring_events] in Ht; rewrite ?E, ?ring_yr, ?ring_yc in Ht.
    - apply FG; auto. eapply no_take; [exact H0| |exact Ht]. intros i k b E. subst a.
      destruct H as [(_ & E & _)|[(_ & (k' & b' & E) & _)|(_ & (v & E) & _)]]; try discriminate. injection E as -> _ _. apply Hpop.
    - apply FG; auto. eapply no_take; [exact H0| |exact Ht]. discriminate.
    - apply FG; auto. destruct H1 as [(-> & -> & _)|H1]; auto. eapply no_take; [exact H1| |exact Ht]. discriminate.
    - apply FG; auto.
    - apply FG; auto.
    - apply FG; auto.
    - apply FG; auto.
    - apply FG; auto. eapply no_take; [exact H0| |exact Ht]. discriminate.
    - apply FG; auto. eapply no_take; [exact H0| |exact Ht]. discriminate.
    - eapply C; eauto. eapply no_take; [exact H0| |exact Ht]. discriminate.
    - apply G; auto.
    - cbn [y_ring y_me]. split; [|discriminate]. destruct Ht as [[_ Ht]|Ht].
      + apply xsync_know. subst t. pose proof (step_source _ _ _ _ _ _ _ H0) as [(k' & b' & E) _]. injection E as <- _ _.
        unfold Kn. rewrite <- (ktime _ _ Hr). apply step_moved in H0. now apply H0.
      + apply xsync_know. unfold Kn. eapply know_step; [exact H0|]. now apply HI.
    - destruct Ht as [[D _]|Ht]; [discriminate|]. apply G; auto.
    - destruct Ht as [[D _]|Ht]; [discriminate|]. apply G; auto.
    - destruct Ht as [[D _]|Ht]; [destruct H1 as [[i [-> _]]|[i ->]]; discriminate|]. apply G; auto.
    - destruct Ht as [[D _]|Ht]; [destruct H1 as [[i [-> _]]|[i [-> _]]]; discriminate|]. apply G; auto.
    - apply FG; auto. eapply no_take_end; eauto.
    - apply G; auto.
    - destruct Ht as [[D _]|Ht]; [discriminate|]. cbn [y_ring y_me set_rx]. destruct (HI _ Ht) as [K1 _]. 
      assert (K2 : Kn (lock_sync (y_ring s) (me s) y) (me s) t) by (now apply (gr_know _ _ (lock_grew _ _ _))).
      split; [unfold Kn; eapply know_step; eauto|]. intros _. now rewrite (call_new _ _ _ _ _ H1).
    - apply FG; auto. eapply no_take; [exact H1| |exact Ht]. destruct H0 as [[v ->]| ->]; discriminate.
    - apply G; auto. eapply no_take; [exact H0| |exact Ht]. discriminate.
    - apply FG; auto.
  Qed.

  (** Who closed the ring. *)
  Definition IR (s : ystate) (es : list event) : Prop := History.closed_in es = true -> y_count s = 0 \/ y_rx s = RGone.

  Lemma no_closing r a r' e es : rstep r a = Some (r', e) -> (forall i b, a <> XClose i b) ->
    History.closed_in (ocons e es) = true -> History.closed_in es = true.
  Proof.
    intros H Ha. destruct e as [e|]; auto. unfold History.closed_in. cbn [ocons existsb]. apply step_source in H.
    destruct e; auto. destruct H as [b0 E]. now destruct (Ha i b0).
  Qed.

  Lemma ir_step s s' evs (ys : list yevent) : ycase s s' evs -> rrun (ring_events ys) (y_ring s) -> Cnt s ys -> IZ s ->
    IR s (ring_events ys) -> IR s' (ring_events (evs ++ ys)).
  Proof.
    intros H Hr HC HG HI.
    assert (F : (History.closed_in (ring_events (evs ++ ys)) = true -> History.closed_in (ring_events ys) = true) -> (y_rx s = RGone -> y_rx s' = RGone) ->
      IR s' (ring_events (evs ++ ys))).
    { intros F1 F2 Hc. destruct (HI (F1 Hc)) as [Z|Z]; [left|auto]. eapply zero_step; eauto. }
    destruct H; try poll_evs; cbn [app ring_events]; rewrite ?E, ?ring_yr, ?ring_yc; cbn [app ring_events] in F; rewrite ?E, ?ring_yr, ?ring_yc in F;
      try (apply F; auto; cbn [y_rx set_rx]; congruence).
    - apply F; auto. eapply no_closing; [exact H0|]. destruct H as [(_ & -> & _)|[(_ & (k & b & ->) & _)|(_ & (v & ->) & _)]]; discriminate.
    - apply F; auto. eapply no_closing; [exact H0|discriminate].
    - apply F; auto. destruct H1 as [(-> & -> & _)|H1]; auto. eapply no_closing; [exact H1|discriminate].
    - intros _. left. apply (HG j). auto.
    - intros _. left. apply (HG j). auto.
    - apply F; [|intros Z; rewrite Z in H; discriminate]. eapply no_closing; [exact H0|discriminate].
    - apply F; auto. intros Z; rewrite Z in H; discriminate.
    - apply F; [|congruence]. destruct H1 as [[i [-> _]]|[i ->]]; auto.
    - apply F; [|congruence]. destruct H1 as [[i [-> _]]|[i [-> _]]]; auto.
    - apply F; auto. eapply no_closing; [exact H0|discriminate].
    - apply F; auto. eapply no_closing; [exact H1|]. destruct H0 as [[v ->]| ->]; discriminate.
    - right. reflexivity.
  Qed.
End Facts.
