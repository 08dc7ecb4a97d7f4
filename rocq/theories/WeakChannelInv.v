(** More invariants of the receiving side of a channel on weak memory, and the lemmas behind the theorems. *)
From Coq Require Import List Bool Arith NArith Lia.
From Verif Require Import Word QueueSpec CoreModel CoreArith CoreInv RingSpec HistoryFacts RingFacts ChainFacts WaitCellModel WaitCellSpec
  WaitCellFacts WeakModel WeakSpec WeakInv WeakFacts WeakCellModel WeakCellSpec WeakCellFacts WeakChannelModel WeakChannelSpec WeakChannelFacts History.
Import ListNotations.

(** ** Reservations that are not completed *)
Definition owner (p : pc) : bool := match p with PInit _ | PHold _ | PDead _ => true | _ => false end.
Definition in_push (p : pc) : bool :=
  match p with PStart | PState _ | PCas _ | PInit _ | PHead _ | PReload | PHold _ | PDead _ => true | _ => false end.

Section Owner.
  Context {T : Type}.
  Variables (P : params) (pol : policy T) (o : orders).

  (** How the position of the agent changes. *)
  Definition pc_ok (i : agent) (p p' : pc) (e : option (event T)) : Prop :=
    (owner p = true -> owner p' = true \/ (exists v, e = Some (Commit i v)) \/ (exists k, e = Some (UB k))) /\
    (forall k, e = Some (Reserve k) -> k = i /\ owner p = false /\ owner p' = true) /\
    (forall k v, e = Some (Commit k v) -> k = i) /\
    (in_push p' = true -> in_push p = true /\ forall k, e <> Some (RetFull k) /\ e <> Some (RetPushClosed k)).

  Lemma cstep_pc c i p spur c' p' e : cstep P pol c i p spur = (c', p', e) -> pc_ok i p p' e.
  Proof.
    unfold pc_ok. intros H. destruct p; cbn [cstep] in H; unfold push_top in H;
      destruct (negb (N.land (c_tail c) (p_closed P) =? 0)%N);
      repeat match type of H with context [match ?x with _ => _ end] => destruct x end;
      injection H as <- <- <-; cbn; repeat split; intros; try discriminate; eauto; congruence.
  Qed.

  Lemma pc_race i p k : pc_ok i p Crashed (Some (UB k)).
  Proof. unfold pc_ok. cbn. repeat split; intros; try discriminate; eauto. Qed.

  Lemma step_pc s a s' e : weak_step P pol o s a = Some (s', e) ->
    (forall i, i <> actor a -> w_pcs s' i = w_pcs s i) /\
    (pc_ok (actor a) (w_pcs s (actor a)) (w_pcs s' (actor a)) e /\ (forall i, a = XDrop i -> in_push (w_pcs s' i) = false) \/
     exists op, a = XInvoke (actor a) op /\ e = Some (Invoke (actor a) op) /\ w_pcs s (actor a) = Idle /\ w_pcs s' (actor a) = entry_pc op).
  Proof.
    intros H. split; [intros i Hi; apply step_moved in H; now apply H|].
    destruct a as [i op|i k spur|i v|i|i|i b|i j]; cbn [actor].
    - right. exists op. cbn in H. destruct op; try discriminate; destruct (w_pcs s i); try discriminate; injection H as <- <-;
        cbn [w_pcs local]; rewrite upd_same; auto.
    - left. split; [|discriminate]. cbn [weak_step] in H. unfold wstep, load_tail, load_head, load_state in H.
      destruct (w_pcs s i) eqn:Ep; try discriminate.
      all: repeat match type of H with
         | context [readable ?a ?b ?c] => destruct (readable a b c); [|discriminate]
         | context [if ?b then _ else _] => destruct b
         | context [access ?a ?b ?c] => destruct (access a b c) eqn:?; [|unfold race in H; injection H as <- <-; cbn [w_pcs local]; rewrite upd_same; apply pc_race]
         | context [cstep ?P ?pol ?c ?i ?p ?b] => destruct (cstep P pol c i p b) as [[c' p'] e'] eqn:Ec
         end; injection H as <- <-; cbn [w_pcs local rmw_tail rmw_head]; rewrite upd_same; eapply cstep_pc; eauto.
    - left. split; [|discriminate]. cbn in H. destruct (w_pcs s i) eqn:Ep; try discriminate;
        (destruct (access s i (r_idx r)); [injection H as <- <-; cbn [w_pcs local]; rewrite upd_same|
           unfold race in H; injection H as <- <-; cbn [w_pcs local]; rewrite upd_same; apply pc_race]);
        unfold pc_ok; cbn; repeat split; intros; try discriminate; auto.
    - left. cbn in H. destruct (w_pcs s i) eqn:Ep; try discriminate; unfold store_state in H;
        (match type of H with context [Nat.eqb ?a ?b] => destruct (Nat.eqb a b) end; [injection H as <- <-|unfold race in H; injection H as <- <-]);
        cbn [w_pcs local]; (split; [rewrite upd_same|intros ? [= <-]; now rewrite upd_same]); try apply pc_race;
        destruct (s_value _); unfold pc_ok; cbn; repeat split; intros; try discriminate; eauto; congruence.
    - left. split; [|discriminate]. cbn in H. destruct (w_pcs s i) eqn:Ep; try discriminate. injection H as <- <-. cbn [w_pcs local]. rewrite upd_same.
      unfold pc_ok; cbn; repeat split; intros; try discriminate; auto.
    - left. split; [|discriminate]. cbn in H. destruct (w_pcs s i) eqn:Ep; try discriminate. destruct (core_close P (w_core s) b) as [c' x].
      destruct b; injection H as <- <-; cbn [w_pcs local rmw_tail]; rewrite upd_same; unfold pc_ok; cbn; repeat split; intros; discriminate.
    - left. split; [|discriminate]. injection H as <- <-. cbn [w_pcs]. unfold pc_ok. repeat split; intros; try discriminate; auto.
  Qed.

  Lemma count_reservers (es : list (event T)) : length (reservers es) = count is_reserve es.
  Proof. induction es as [|e es IH]; auto. destruct e; cbn; auto. rewrite app_length, IH. cbn. lia. Qed.

  (** A push that has a position and has not completed it is at [owner]. *)
  Lemma unfinished es s : weak_run P pol o es s -> (forall k, ~ In (UB k) es) -> forall n, n < count is_reserve es -> committed es n = None ->
    exists i, last_is i (reservers es) n = true /\ owner (w_pcs s i) = true.
  Proof.
    induction 1 as [|es s a s' e Hr IH Hs]; intros Hub n Hn Hc; [inversion Hn|].
    apply step_pc in Hs as [Hoth Hact].
    assert (Hub' : forall k, ~ In (UB k) es) by (intros k Hk; apply (Hub k); destruct e; cbn; auto).
    assert (Hcommit : forall k v, e = Some (Commit k v) -> k = actor a).
    { intros k v E. destruct Hact as [[(_ & _ & H & _) _]|(op & _ & E' & _)]; [eauto|congruence]. }
    assert (Hres : forall k, e = Some (Reserve k) -> k = actor a /\ owner (w_pcs s (actor a)) = false /\ owner (w_pcs s' (actor a)) = true).
    { intros k E. destruct Hact as [[(_ & H & _ & _) _]|(op & _ & E' & _)]; [eauto|congruence]. }
    assert (Hkeep : forall i, owner (w_pcs s i) = true -> owner (w_pcs s' i) = true \/ (i = actor a /\ exists v, e = Some (Commit i v))).
    { intros i Hi. destruct (Nat.eq_dec i (actor a)) as [->|Hne]; [|rewrite Hoth; auto].
      destruct Hact as [[(H & _) _]|(op & _ & _ & E & _)]; [|rewrite E in Hi; discriminate].
      destruct (H Hi) as [H1|[[v H1]|[k H1]]]; auto; [right; eauto|]. subst e. exfalso. apply (Hub k). now left. }
    assert (Hold : n < count is_reserve es -> committed es n = None -> reservers (CoreModel.ocons e es) = reservers es ->
      (forall k v, e = Some (Commit k v) -> last_is k (reservers es) n = false) ->
      exists i, last_is i (reservers (CoreModel.ocons e es)) n = true /\ owner (w_pcs s' i) = true).
    { intros Hn' Hc' Er He. destruct (IH Hub' n Hn' Hc') as (i & Hl & Ho). exists i. rewrite Er. split; auto.
      destruct (Hkeep i Ho) as [|[_ [v E]]]; auto. rewrite (He _ _ E) in Hl. discriminate. }
    destruct e as [e|]; [|apply Hold; auto; discriminate].
    destruct e; try (apply Hold; auto; discriminate).
    - destruct (Hres _ eq_refl) as (-> & Ho & Ho'). cbn [CoreModel.ocons committed reservers count is_reserve] in *.
      destruct (Nat.eq_dec n (count is_reserve es)) as [->|Hne].
      + exists (actor a). split; auto. unfold last_is. rewrite <- count_reservers, nth_error_app2, Nat.sub_diag by lia. cbn [nth_error].
        rewrite Nat.eqb_refl. cbn [andb]. rewrite skipn_all2; auto. rewrite app_length. cbn [length]. lia.
      + destruct (IH Hub' n ltac:(lia) Hc) as (i & Hl & Hi). assert (Hia : i <> actor a) by (intros ->; congruence).
        exists i. split; [|now rewrite Hoth]. unfold last_is in *. rewrite nth_error_app1 by (rewrite count_reservers; lia).
        destruct (nth_error (reservers es) n); [|discriminate]. apply andb_prop in Hl as [-> Hl]. cbn [andb].
        rewrite skipn_app, forallb_app. apply andb_true_intro. split; [exact Hl|]. apply forallb_forall. intros x Hx.
        destruct (S n - length (reservers es)) as [|m]; [|now destruct m]. cbn in Hx. destruct Hx as [<-|[]].
        now rewrite (proj2 (Nat.eqb_neq i (actor a))).
    - cbn [CoreModel.ocons committed] in Hc. destruct (last_is i (reservers es) n) eqn:El; [discriminate|]. apply Hold; auto. intros k w [= <- <-]. exact El.
  Qed.
End Owner.

Ltac break_wstep Hs := unfold WaitCellModel.wstep in Hs;
  repeat match type of Hs with
     | context [if ?b then _ else _] => destruct b eqn:?
     | context [match ?b with Some _ => _ | None => _ end] => destruct b eqn:?
     end; try discriminate.
Ltac poll_evs := match goal with
  | H : (exists w, _ /\ ?evs = yr ?e ++ [YPoll w]) \/ _ |- _ =>
      let E := fresh "E" in let F := fresh "F" in
      assert (E : forall ys, ring_events (evs ++ ys) = CoreModel.ocons e (ring_events ys)) by
        (intros; destruct H as [(?w & -> & ->)|[-> ->]]; [rewrite <- app_assoc|]; now rewrite ring_yr);
      assert (F : forall ys, cell_events (evs ++ ys) = cell_events ys) by
        (intros; destruct H as [(?w & -> & ->)|[-> ->]]; [rewrite <- app_assoc|]; now rewrite cell_yr)
  end.

Section More.
  Context {T : Type}.
  Variables (P : params) (pol : policy T) (debug : bool) (o : chan_orders) (async : bool).
  Notation event := (event T).
  Notation wstate := (@wstate T).
  Notation ystate := (@ystate T).
  Notation yevent := (@yevent T).
  Notation rrun := (weak_run P pol (co_ring o)).
  Notation crun := (krun debug (co_cell o)).
  Notation rstep := (weak_step P pol (co_ring o)).
  Notation yrun := (yrun P pol debug o async).
  Notation ycase := (ycase P pol debug o async).
  Notation ocons := CoreModel.ocons.
  Notation wcons := WaitCellFacts.ocons.
  Notation pcs s := (ws_pc (wc_sys (y_cell s))).
  Notation me s := (rx_agent (y_me s)).
  Notation kcall_of s t := (v_know (w_call (y_ring s) (me s)) t = true).

  (** Everything [WeakChannelFacts] shows. *)
  Record Good (s : ystate) (ys : list yevent) : Prop := {
    gd_ring : rrun (ring_events ys) (y_ring s);
    gd_cell : crun (cell_events ys) (y_cell s);
    gd_stg : Stg s (cell_events ys);
    gd_cnt : Cnt s ys;
    gd_ia : IA s (ring_events ys);
    gd_iz : IZ s;
    gd_if : IF s (ring_events ys);
    gd_saw : ISaw s (ring_events ys);
    gd_il : IL s (ring_events ys);
    gd_id : ID s (ring_events ys);
    gd_ir : IR s (ring_events ys) }.

  Lemma gd_k s ys : Good s ys -> KInv (y_cell s) (cell_events ys).
  Proof. intros H. exact (krun_inv _ _ _ _ (gd_cell _ _ H)). Qed.

  Lemma good_run ys s : sound_chan o -> yrun ys s -> Good s ys.
  Proof.
    intros Ho. induction 1 as [|ys s a s' evs Hr IH Hs].
    - constructor; try (intros ? []; fail); try (constructor; fail).
      + apply stg_init.
      + apply cnt_init.
      + intros j [H|H]; cbn in H; destruct (Nat.eqb j 0); discriminate.
      + intros x m H Hc. exfalso. cbn in H. destruct x as [|[|x]]; try discriminate. injection H as <-. discriminate.
      + intros st H. discriminate.
      + intros w H. discriminate.
      + intros H. discriminate.
    - destruct (proj_run P pol debug o async (evs ++ ys) s' (yrun_step _ _ _ _ _ ys s a s' evs Hr Hs)) as [R1 R2].
      apply ystep_cases in Hs. pose proof (gd_k _ _ IH) as HK. destruct IH. constructor; auto.
      + eapply stg_step; eauto.
      + eapply cnt_step; eauto.
      + eapply ia_step; eauto.
      + eapply iz_step; eauto.
      + eapply if_step; eauto.
      + eapply saw_step; eauto.
      + eapply il_step; eauto.
      + eapply id_step; eauto.
      + eapply ir_step; eauto.
  Qed.

  Lemma last_run ys s : sound_count o -> yrun ys s -> Cnt s ys /\ IG s (ring_events ys).
  Proof.
    intros Ho. induction 1 as [|ys s a s' evs Hr [IH1 IH2] Hs].
    - split; [apply cnt_init|]. constructor; [intros _ t []|]. intros j [H|H]; cbn in H; destruct (Nat.eqb j 0); discriminate.
    - destruct (proj_run P pol debug o async ys s Hr) as [R1 _]. apply ystep_cases in Hs. split; [eapply cnt_step|eapply ig_step]; eauto.
  Qed.

  (** ** Which pushes are in progress *)
  Definition SP (s : ystate) : Prop := forall i, in_push (w_pcs (y_ring s) i) = true ->
    exists j, i = tx_agent j /\ (y_tx s j = SPush \/ y_tx s j = SDead).

  Lemma lock_pcs r i y : w_pcs (lock_sync P pol o r i y) = w_pcs r.
  Proof. apply (gr_pcs P pol o). apply lock_grew. Qed.

  Lemma push_frame r a r' e i : rstep r a = Some (r', e) -> a <> XInvoke i OpPush -> in_push (w_pcs r' i) = true ->
    in_push (w_pcs r i) = true /\ (i = actor a -> (forall k, e <> Some (RetFull k) /\ e <> Some (RetPushClosed k)) /\ a <> XDrop i).
  Proof.
    intros H Ha Hp. apply step_pc in H as [H1 H2]. destruct (Nat.eq_dec i (actor a)) as [->|Hi].
    - destruct H2 as [[(_ & _ & _ & H2) H3]|(op & E & _ & _ & E')].
      + destruct (H2 Hp) as (A & B). repeat split; auto; try apply B. intros E. rewrite (H3 _ E) in Hp. discriminate.
      + rewrite E' in Hp. destruct op; try discriminate. congruence.
    - rewrite H1 in Hp by auto. split; auto.
  Qed.

  Lemma sp_step s s' evs : ycase s s' evs -> SP s -> SP s'.
  Proof.
    intros H HS.
    assert (F : w_pcs (y_ring s') = w_pcs (y_ring s) -> (forall j, y_tx s j = SPush \/ y_tx s j = SDead -> y_tx s' j = SPush \/ y_tx s' j = SDead) -> SP s').
    { intros E1 E2 i Hi. rewrite E1 in Hi. destruct (HS i Hi) as (j & -> & Hj). eauto. }
    assert (R : forall a e, rstep (y_ring s) a = Some (y_ring s', e) -> (forall i, a <> XInvoke i OpPush) -> y_tx s' = y_tx s -> SP s').
    { intros a e E1 E2 E4 i Hi. destruct (push_frame _ _ _ _ _ E1 (E2 i) Hi) as [A _]. destruct (HS _ A) as (j & E & Hj). rewrite E4. eauto. }
    (* an action of sender [j] *)
    assert (Q : forall a r' e j i, rstep (y_ring s) a = Some (r', e) -> actor a = tx_agent j -> in_push (w_pcs r' i) = true -> i <> tx_agent j ->
      exists j', i = tx_agent j' /\ j' <> j /\ (y_tx s j' = SPush \/ y_tx s j' = SDead)).
    { intros a r' e j i E1 E2 Hi Hij. apply step_pc in E1 as [E1 _]. rewrite E1 in Hi by congruence. destruct (HS _ Hi) as (j' & -> & Hj').
      exists j'. repeat split; auto; congruence. }
    destruct H; try (apply F; [|]; auto; fail).
    - intros i Hi. cbn [y_ring y_tx set_tx] in *. destruct (Nat.eq_dec i (tx_agent j)) as [->|Hij].
      + exists j. split; auto. rewrite updt_same. destruct H as [(_ & _ & ->)|[(_ & (k & b & ->) & ->)|(_ & _ & ->)]]; auto.
        destruct (push_frame _ _ _ _ _ H0 ltac:(discriminate) Hi) as [_ A]. destruct (A eq_refl) as [B _].
        destruct e as [[]|]; auto; exfalso; match goal with i : agent |- _ => specialize (B i); destruct B; congruence end.
      + assert (Ha : actor a = tx_agent j) by (destruct H as [(_ & -> & _)|[(_ & (k & b & ->) & _)|(_ & (v & ->) & _)]]; reflexivity).
        destruct (Q _ _ _ _ _ H0 Ha Hi Hij) as (j' & -> & Hj & Hs). exists j'. now rewrite updt_other.
    - intros i Hi. cbn [y_ring y_tx set_tx] in *. destruct (Nat.eq_dec i (tx_agent j)) as [->|Hij].
      + destruct (push_frame _ _ _ _ _ H0 ltac:(discriminate) Hi) as [_ A]. now destruct (A eq_refl).
      + destruct (Q _ _ _ _ _ H0 eq_refl Hi Hij) as (j' & -> & Hj & Hs). exists j'. now rewrite updt_other.
    - intros i Hi. cbn [y_ring y_tx] in *. rewrite (gr_pcs _ _ _ _ _ (xsync_grew P pol o _ _ _)) in Hi.
      destruct (Nat.eq_dec i (tx_agent j)) as [->|Hij].
      + exists j. split; auto. right. rewrite updt_other, updt_same; congruence.
      + assert (D : exists k, i = tx_agent k /\ k <> j /\ (y_tx s k = SPush \/ y_tx s k = SDead)).
        { destruct H1 as [(-> & _)|H1]; [|eapply Q; eauto; reflexivity]. destruct (HS _ Hi) as (k & -> & Hk). exists k. repeat split; auto; congruence. }
        destruct D as (k & -> & Hk & Hs). exists k. split; auto. rewrite !updt_other; auto; intros ->; destruct Hs; congruence.
    - apply F; cbn [y_ring y_tx set_tx].
      + apply lock_pcs.
      + intros k Hk. rewrite updt_other; auto; intros ->; destruct H, Hk; congruence.
    - apply F; cbn [y_ring y_tx set_tx]; auto. intros k Hk. rewrite updt_other; auto; intros ->; destruct Hk; congruence.
    - apply F; cbn [y_ring y_tx set_tx]; [subst r1; now destruct (is_release _)|]. intros k Hk. rewrite updt_other; auto; intros ->; destruct Hk; congruence.
    - apply F; cbn [y_ring y_tx set_tx]; [subst r1; now destruct (is_release _), (co_fence o)|]. intros k Hk. rewrite updt_other; auto; intros ->; destruct Hk; congruence.
    - intros i Hi. cbn [y_ring y_tx set_tx] in *. destruct (push_frame _ _ _ _ _ H0 ltac:(discriminate) Hi) as [A _].
      destruct (HS _ A) as (k & -> & Hk). exists k. split; auto. rewrite updt_other; auto; intros ->; destruct Hk; congruence.
    - intros i Hi. cbn [y_ring y_tx set_tx] in *. destruct (push_frame _ _ _ _ _ H0 ltac:(discriminate) Hi) as [A _].
      destruct (HS _ A) as (k & -> & Hk). exists k. split; auto. rewrite updt_other; auto; intros ->; destruct Hk; congruence.
    - eapply R; [exact H0|discriminate|reflexivity].
    - intros i0 Hi. cbn [y_ring y_tx] in *. rewrite (gr_pcs _ _ _ _ _ (xsync_grew P pol o _ _ _)) in Hi.
      destruct (push_frame _ _ _ _ _ H0 ltac:(discriminate) Hi) as [A _]. eauto.
    - eapply R; [exact H0|discriminate|reflexivity].
    - eapply R; [exact H0|discriminate|reflexivity].
    - eapply R; [exact H0|discriminate|reflexivity].
    - eapply R; [exact H0|discriminate|reflexivity].
    - eapply R; [exact H0|discriminate|reflexivity].
    - apply F; cbn [y_ring y_tx set_rx]; auto. apply lock_pcs.
    - intros i' Hi. cbn [y_ring y_tx set_rx] in *. destruct (push_frame _ _ _ _ _ H1 ltac:(discriminate) Hi) as [A _]. rewrite lock_pcs in A. auto.
    - eapply R; [exact H1|destruct H0 as [[v ->]| ->]; discriminate|reflexivity].
    - eapply R; [exact H0|discriminate|reflexivity].
  Qed.

  (** ** Which notifications are in progress *)
  Definition IQ (s : ystate) : Prop := forall j, pcs s (S j) = WIdle \/ y_tx s j = SNotify \/ y_tx s j = SCloseTx.

  Lemma ret_idle c i x c' k b y : wcell_step debug (co_cell o) c i x = Some (c', Some (RetNotify k b), y) -> ws_pc (wc_sys c') i = WIdle.
  Proof.
    intros H. apply step_word in H as (d & d' & p' & Hs & Hp & Hn & _ & _). rewrite Hp, wset_same.
    destruct (ws_pc (wc_sys c) i) eqn:Ep; try congruence; break_wstep Hs; injection Hs as <- <- <- <-; auto.
  Qed.

  Lemma iq_step s s' evs : ycase s s' evs -> IQ s -> IQ s'.
  Proof.
    intros H HQ.
    assert (F : y_cell s' = y_cell s -> (forall j, y_tx s j = SNotify \/ y_tx s j = SCloseTx -> y_tx s' j = y_tx s j) -> IQ s').
    { intros E1 E2 j. rewrite E1. destruct (HQ j) as [|Hj]; auto. rewrite E2; auto. }
    assert (C : forall p ev c' x j, wcell_call (y_cell s) (tx_thread j) p ev = Some (c', Some ev) -> x = SNotify \/ x = SCloseTx ->
      forall k, ws_pc (wc_sys c') (S k) = WIdle \/ updt (y_tx s) j x k = SNotify \/ updt (y_tx s) j x k = SCloseTx).
    { intros p ev c' x j Hc Hx k. apply kcall in Hc as (_ & -> & _). destruct (Nat.eq_dec k j) as [->|Hk]; [rewrite updt_same; auto|].
      unfold tx_thread. rewrite wset_other, updt_other; auto. }
    assert (W : forall x c' e y, wcell_step debug (co_cell o) (y_cell s) 0 x = Some (c', e, y) -> forall j, ws_pc (wc_sys c') (S j) = pcs s (S j)).
    { intros x c' e y Hw j. apply step_word in Hw as (d & d' & p' & _ & Hp & _). rewrite Hp, wset_other; auto. }
    destruct H; try (apply F; auto; fail).
    - apply F; auto. intros k Hk. cbn [y_tx set_tx]. apply updt_other. intros ->.
      destruct H as [(H & _)|[(H & _)|(H & _)]]; rewrite H in Hk; destruct Hk; discriminate.
    - intros k. exact (C _ _ _ _ _ H1 (or_introl eq_refl) k).
    - apply F; auto. intros k Hk. cbn [y_tx]. rewrite !updt_other; auto; intros ->; destruct Hk; congruence.
    - intros k. cbn [y_cell y_tx set_tx]. destruct (Nat.eq_dec k j) as [->|Hk].
      + rewrite updt_same. destruct e as [[]|]; cbn [after]; auto. left. eapply ret_idle; eauto.
      + rewrite updt_other by auto. apply step_word in H0 as (d & d' & p' & _ & Hp & _). rewrite Hp. unfold tx_thread. rewrite wset_other by auto. apply HQ.
    - apply F; auto. intros k Hk. cbn [y_tx]. apply updt_other. intros ->. destruct Hk; congruence.
    - apply F; auto. intros k Hk. cbn [y_tx]. apply updt_other. intros ->. destruct Hk; congruence.
    - apply F; auto. intros k Hk. cbn [y_tx]. apply updt_other. intros ->. destruct Hk; congruence.
    - intros k. exact (C _ _ _ _ _ H1 (or_intror eq_refl) k).
    - apply F; auto. intros k Hk. cbn [y_tx]. apply updt_other. intros ->. destruct Hk; congruence.
    - intros j. apply kcall in H1 as (_ & G & _). cbn [y_cell y_tx set_rx]. rewrite G, wset_other by auto. apply HQ.
    - intros j. cbn [y_cell y_tx set_rx]. rewrite (W _ _ _ _ H0). apply HQ.
    - intros j. cbn [y_cell y_tx set_rx]. rewrite (W _ _ _ _ H0). apply HQ.
  Qed.

  (** ** The ring is closed by the last sender or the receiver *)
  Record IU (s : ystate) (es : list event) : Prop := {
    iu_one : forall j j', y_tx s j = SClosing -> y_tx s j' = SClosing -> j = j';
    iu_closed : History.closed_in es = true -> y_rx s = RGone \/ forall j, y_tx s j <> SClosing }.

  Lemma new_closing s s' evs : ycase s s' evs -> forall j, y_tx s' j = SClosing -> y_tx s j = SClosing \/
    (y_count s = 1 /\ y_rx s' = y_rx s /\ evs = [YDropTx j] /\ forall k, k <> j -> y_tx s' k = y_tx s k).
  Proof.
    intros H k Hk.
    assert (U : forall j x, x <> SClosing -> updt (y_tx s) j x k = SClosing -> y_tx s k = SClosing).
    { intros j x Hx E. destruct (Nat.eq_dec k j) as [->|Hkj]; [rewrite updt_same in E; congruence|rewrite updt_other in E; auto]. }
    destruct H; cbn [y_tx set_tx set_rx] in Hk; auto.
    - left. eapply U; [|exact Hk]. destruct H as [(_ & _ & ->)|[(_ & _ & ->)|(_ & _ & ->)]]; try discriminate. destruct e as [[]|]; discriminate.
    - left. eapply U; [|exact Hk]. discriminate.
    - left. destruct (Nat.eq_dec k j') as [->|Hkj]; [rewrite updt_same in Hk; discriminate|]. rewrite updt_other in Hk by auto. eapply U; [|exact Hk]. discriminate.
    - left. eapply U; [|exact Hk]. destruct H as [H|H]; rewrite H; destruct e as [[]|]; discriminate.
    - left. eapply U; [|exact Hk]. discriminate.
    - left. eapply U; [|exact Hk]. discriminate.
    - destruct (Nat.eq_dec k j) as [->|Hkj]; [|rewrite updt_other in Hk by auto; auto]. right. repeat split; auto. intros k Hkj. cbn [y_tx]. now rewrite updt_other.
    - left. eapply U; [|exact Hk]. discriminate.
    - left. eapply U; [|exact Hk]. discriminate.
  Qed.

  Lemma iu_step s s' evs (ys : list yevent) : ycase s s' evs -> IZ s -> IR s (ring_events ys) ->
    IU s (ring_events ys) -> IU s' (ring_events (evs ++ ys)).
  Proof.
    intros H HG HR [I1 I2].
    assert (H0 : y_count s = 1 -> forall j, y_tx s j <> SClosing).
    { intros E j Hj. pose proof (HG j (or_introl Hj)). lia. }
    constructor.
    - intros j j' Hj Hj'. destruct (new_closing _ _ _ H _ Hj) as [Ho|(E & _ & _ & Ht)].
      + destruct (new_closing _ _ _ H _ Hj') as [Ho'|(E & _ & _ & Ht)]; auto.
        destruct (H0 E _ Ho).
      + destruct (Nat.eq_dec j j') as [|Hne]; auto. rewrite Ht in Hj' by auto. destruct (H0 E _ Hj').
    - assert (F : History.closed_in (ring_events ys) = true -> (y_rx s = RGone -> y_rx s' = RGone) -> y_rx s' = RGone \/ forall j, y_tx s' j <> SClosing).
      { intros Hc Hx. destruct (I2 Hc) as [Hg|Hn]; auto. destruct (y_rx s) eqn:Ex; auto. 
        all: right; intros j Hj; destruct (new_closing _ _ _ H _ Hj) as [Ho|(E & Ex' & _)]; [now apply (Hn j)|].
        all: destruct (HR Hc) as [D|D]; [lia|congruence]. }
      assert (U : forall j r c x, y_tx s j = SClosing -> x <> SClosing -> forall k, y_tx (set_tx s r c j x) k <> SClosing).
      { intros j r c x Hj Hx k. cbn [y_tx set_tx]. destruct (Nat.eq_dec k j) as [->|Hk]; [now rewrite updt_same|].
        rewrite updt_other by auto. intros D. now apply Hk, I1. }
      destruct H; try poll_evs; cbn [app ring_events]; rewrite ?E, ?ring_yr, ?ring_yc; cbn [app ring_events] in F; rewrite ?E, ?ring_yr, ?ring_yc in F; intros Hc;
        try (apply F; auto; cbn [y_rx set_rx]; congruence).
      + apply F; auto. eapply no_closing; [exact H1| |exact Hc]. destruct H as [(_ & -> & _)|[(_ & (k & b & ->) & _)|(_ & (v & ->) & _)]]; discriminate.
      + apply F; auto. eapply no_closing; [exact H1| |exact Hc]. discriminate.
      + apply F; auto. destruct H2 as [(-> & -> & _)|H2]; auto. eapply no_closing; [exact H2| |exact Hc]. discriminate.
      + right. now apply U.
      + right. now apply U.
      + apply F; [|intros Z; rewrite Z in H; discriminate]. eapply no_closing; [exact H1| |exact Hc]. discriminate.
      + apply F; auto. intros Z; rewrite Z in H; discriminate.
      + apply F; [|cbn [y_rx set_rx]; congruence]. destruct H2 as [[i [-> _]]|[i ->]]; auto.
      + apply F; [|cbn [y_rx set_rx]; congruence]. destruct H2 as [[i [-> _]]|[i [-> _]]]; auto.
      + apply F; auto. eapply no_closing; [exact H1| |exact Hc]. discriminate.
      + apply F; auto. eapply no_closing; [exact H2| |exact Hc]. destruct H1 as [[v ->]| ->]; discriminate.
      + left. reflexivity.
  Qed.

  (** ** The close of the last sender is on its way *)
  Definition LC (s : ystate) (es : list event) (ces : list wevent) : Prop := y_count s = 0 ->
    (exists j, y_tx s j = SClosing) \/ (exists j, pcs s (S j) = NOr true) \/ WaitCellSpec.closed_in ces = true \/
    (async = false /\ (y_rx s = RGone \/ hushed es)).

  Lemma hushed_more es s s' evs (ys : list yevent) : ycase s s' evs -> es = ring_events ys -> hushed es -> hushed (ring_events (evs ++ ys)).
  Proof.
    intros _ -> (i & es2 & es1 & E & Hc). exists i, (ring_events evs ++ es2), es1. split; auto.
    rewrite <- app_assoc, <- E. clear. induction evs as [|e evs IH]; auto. destruct e; cbn; rewrite ?IH; auto.
  Qed.
  Lemma closed_more (evs ys : list yevent) : WaitCellSpec.closed_in (cell_events ys) = true -> WaitCellSpec.closed_in (cell_events (evs ++ ys)) = true.
  Proof.
    intros H. induction evs as [|e evs IH]; auto. destruct e; cbn; auto. unfold WaitCellSpec.closed_in in *. cbn [existsb]. now rewrite IH, orb_true_r.
  Qed.
  Lemma gone_stays s s' evs : ycase s s' evs -> y_rx s = RGone -> y_rx s' = RGone.
  Proof. intros H E. destruct H; auto; try congruence; rewrite E in H; discriminate. Qed.

  Lemma lc_step s s' evs (ys : list yevent) : ycase s s' evs -> KInv (y_cell s) (cell_events ys) -> Stg s (cell_events ys) -> IU s (ring_events ys) ->
    LC s (ring_events ys) (cell_events ys) -> LC s' (ring_events (evs ++ ys)) (cell_events (evs ++ ys)).
  Proof.
    intros H HK HS HU HL H0.
    assert (Old : WaitCellSpec.closed_in (cell_events ys) = true \/ (async = false /\ (y_rx s = RGone \/ hushed (ring_events ys))) ->
      WaitCellSpec.closed_in (cell_events (evs ++ ys)) = true \/ (async = false /\ (y_rx s' = RGone \/ hushed (ring_events (evs ++ ys))))).
    { intros [Hc|[Ha [Hg|Hh]]]; [left; now apply closed_more|right; split; auto|right; split; auto].
      - left. eapply gone_stays; eauto.
      - right. eapply hushed_more; eauto. }
    assert (F : y_count s = 0 -> (forall j, y_tx s j = SClosing -> y_tx s' j = SClosing) -> (forall j, pcs s (S j) = NOr true -> pcs s' (S j) = NOr true) ->
      (exists j, y_tx s' j = SClosing) \/ (exists j, pcs s' (S j) = NOr true) \/ WaitCellSpec.closed_in (cell_events (evs ++ ys)) = true \/
      (async = false /\ (y_rx s' = RGone \/ hushed (ring_events (evs ++ ys))))).
    { intros Hz F1 F2. destruct (HL Hz) as [[j Hj]|[[j Hj]|Ho]]; eauto. }
    assert (U : forall j x, y_tx s j <> SClosing -> forall k, y_tx s k = SClosing -> updt (y_tx s) j x k = SClosing).
    { intros j x Hj k Hk. rewrite updt_other; auto. intros ->. auto. }
    assert (C : forall i p ev c', wcell_call (y_cell s) i p ev = Some (c', Some ev) -> forall j, pcs s (S j) = NOr true -> ws_pc (wc_sys c') (S j) = NOr true).
    { intros i p ev c' Hc j Hj. apply kcall in Hc as (G & -> & _). rewrite wset_other; auto. intros <-. congruence. }
    assert (W : forall x c' e y, wcell_step debug (co_cell o) (y_cell s) 0 x = Some (c', e, y) -> forall j, pcs s (S j) = NOr true -> ws_pc (wc_sys c') (S j) = NOr true).
    { intros x c' e y Hw j Hj. apply step_word in Hw as (d & d' & p' & _ & Hp & _). rewrite Hp, wset_other; auto. }
    destruct H; cbn [y_count set_tx set_rx] in H0; try (apply F; auto; fail).
    - apply F; auto. apply U. destruct H as [(-> & _)|[(-> & _)|(-> & _)]]; discriminate.
    - apply F; auto; [apply U; congruence|]. exact (C _ _ _ _ H2).
    - apply F; auto. cbn [y_tx]. intros k Hk. rewrite !updt_other; auto; intros ->; congruence.
    - destruct (HL H0) as [[k Hk]|[[k Hk]|Ho]]; [| |auto].
      + left. exists k. apply U; auto. destruct H; congruence.
      + pose proof (cell_sender _ _ _ _ _ _ _ _ H1 (sg_tx _ _ HS j)) as (p' & Hp & _ & _ & _ & _ & Hor).
        destruct (Nat.eq_dec k j) as [->|Hkj].
        * right; right; left. destruct (Hor _ Hk) as [-> _]. reflexivity.
        * right; left. exists k. cbn [y_cell set_tx]. rewrite Hp. unfold tx_thread. rewrite wset_other; auto.
    - discriminate.
    - destruct (Nat.eq_dec (y_count s) 0) as [Ez|Ez]; [|lia]. apply F; auto. apply U. congruence.
    - left. exists j. cbn [y_tx]. apply updt_same.
    - right; left. exists j. apply kcall in H2 as (_ & G & _). cbn [y_cell set_tx]. rewrite G. unfold tx_thread. now rewrite wset_same.
    - destruct async; [discriminate|]. right; right; right. split; auto. cbn [orb] in H2.
      assert (Ee : e = Some (Closing (tx_agent j) false)).
      { unfold weak_step in H1. destruct (w_pcs (y_ring s) (tx_agent j)); try discriminate. destruct (core_close P (w_core (y_ring s)) b) as [cc xx].
        destruct b; injection H1 as _ <-; cbn [was_open] in H2; now subst. }
      rewrite ring_yr, Ee. cbn [CoreModel.ocons]. destruct (History.closed_in (ring_events ys)) eqn:Ec.
      + left. destruct (iu_closed _ _ HU Ec) as [|Hn]; auto. now destruct (Hn j).
      + right. exists (tx_agent j), [], (ring_events ys). auto.
    - apply F; auto. exact (C _ _ _ _ H2).
    - apply F; auto. exact (W _ _ _ _ H1).
    - apply F; auto. exact (W _ _ _ _ H1).
  Qed.

  (** ** A receiver that registered and found nothing *)
  Lemma parked_keep e ces w later : parked 0 ces = Some (w, later) -> (forall v b, e <> Some (CallWait 0 v b)) -> e <> Some (RetWait 0 Wait) ->
    parked 0 (wcons e ces) = Some (w, wcons e later).
  Proof.
    intros H H1 H2. destruct e as [e|]; [|exact H]. cbn [WaitCellFacts.ocons parked]. rewrite H. destruct e as [i v b| |i r| | | | | | |]; auto.
    - destruct (Nat.eqb_spec 0 i) as [<-|]; auto. now destruct (H1 v b).
    - destruct r; auto. destruct (Nat.eqb_spec 0 i) as [<-|]; auto. congruence.
  Qed.

  Lemma parked_frame s s' evs (ys : list yevent) w later : ycase s s' evs -> Stg s (cell_events ys) -> y_rx s' = y_rx s -> (forall v, y_rx s <> RWait v) ->
    parked 0 (cell_events ys) = Some (w, later) ->
    exists later', parked 0 (cell_events (evs ++ ys)) = Some (w, later') /\
      (existsb is_fetched later = true \/ (exists i b, evs = [YC (Fetched i b)]) -> existsb is_fetched later' = true).
  Proof.
    intros H HS Hx Hw Hp.
    assert (F : forall e, cell_events (evs ++ ys) = wcons e (cell_events ys) -> (forall v b, e <> Some (CallWait 0 v b)) -> e <> Some (RetWait 0 Wait) ->
      exists later', parked 0 (cell_events (evs ++ ys)) = Some (w, later') /\
      (existsb is_fetched later = true \/ (exists i b, evs = [YC (Fetched i b)]) -> existsb is_fetched later' = true)).
    { intros e E E1 E2. exists (wcons e later). rewrite E. split; [now apply parked_keep|]. intros [Hf|(i & b & ->)].
      - destruct e; auto. cbn [WaitCellFacts.ocons existsb]. now rewrite Hf, orb_true_r.
      - cbn in E. destruct e as [e|]; [injection E as <-; reflexivity|]. exfalso. apply (f_equal (@length wevent)) in E. cbn in E. lia. }
    assert (N : cell_events (evs ++ ys) = cell_events ys -> exists later', parked 0 (cell_events (evs ++ ys)) = Some (w, later') /\
      (existsb is_fetched later = true \/ (exists i b, evs = [YC (Fetched i b)]) -> existsb is_fetched later' = true)).
    { intros E. apply (F None); auto; discriminate. }
    destruct H; try poll_evs; cbn [app cell_events] in *; rewrite ?F, ?cell_yr, ?cell_yc in *; try (apply N; auto; fail);
      try (eapply (F (Some _)); [reflexivity|discriminate|discriminate]); cbn [y_rx set_rx] in Hx; try congruence.
    - apply cell_sender in H0 as (p' & _ & _ & _ & H1 & H2 & _); [|apply (sg_tx _ _ HS)]. now apply (F e).
  Qed.

  Definition IB (s : ystate) (es : list event) (ces : list wevent) : Prop := forall w, y_rx s = RPop w Again ->
    exists later, parked 0 ces = Some (w, later) /\
      forall t, at_time cmt es t -> kcall_of s t \/ (exists j, pcs s (S j) = NOr false) \/ existsb is_fetched later = true.

  Lemma ib_step s s' evs (ys : list yevent) : ycase s s' evs -> sound_chan o -> Good s ys -> IB s (ring_events ys) (cell_events ys) ->
    IB s' (ring_events (evs ++ ys)) (cell_events (evs ++ ys)).
  Proof.
    intros H Ho HG HI w Hw. pose proof (gd_k _ _ HG) as HK. pose proof (gd_stg _ _ HG) as HS. pose proof (gd_ring _ _ HG) as Hr.
    assert (F : y_rx s' = y_rx s -> exists later, parked 0 (cell_events (evs ++ ys)) = Some (w, later) /\
      forall t, at_time cmt (ring_events (evs ++ ys)) t -> kcall_of s' t \/ (exists j, pcs s' (S j) = NOr false) \/ existsb is_fetched later = true).
    { intros E. assert (Hx : forall v, y_rx s <> RWait v) by (intros v; rewrite <- E, Hw; discriminate).
      destruct (HI w ltac:(congruence)) as (later & Hp & Hk).
      destruct (parked_frame _ _ _ _ _ _ H HS E Hx Hp) as (later' & Hp' & Hf). exists later'. split; auto. intros t Ht.
      destruct (rx_frame _ _ _ _ _ _ _ _ H E Hx) as [E1 E2]. rewrite E1, E2.
      destruct (ycommit _ _ _ _ _ _ _ _ _ _ H Hr Ht) as [Hc|(j & _ & _ & Hj & _)]; [|right; left; eauto].
      destruct (Hk t Hc) as [|[[j Hj]|Hl]]; auto. right. destruct (ylock _ _ _ _ _ _ _ _ _ H HK HS Ho) as [_ L]. destruct (L _ Hj) as [Hj'|[_ Hev]]; eauto. }
    destruct H; try (apply F; reflexivity); try discriminate.
    - destruct H1 as [(w' & -> & _)|[-> _]]; discriminate.
    - cbn [y_rx set_rx] in Hw. injection Hw as <- Hn. destruct res; try discriminate. cbn [app cell_events ring_events].
      pose proof (wait_pc debug o _ _ _ _ _ _ _ _ HS H H0 eq_refl) as Hp.
      pose proof (cell_waiter _ _ _ _ _ _ _ _ H0 Hp) as (p' & _ & _ & _ & Hr0 & _). destruct (Hr0 _ _ eq_refl) as [-> _].
      exists []. split; [cbn [parked]; now rewrite (sg_call _ _ HS _ H)|].
      intros t Ht. cbn [y_ring y_me y_cell set_rx]. rewrite (call_new _ _ _ _ _ _ _ _ H1).
      destruct Ht as [[D _]|Ht]; [discriminate|]. destruct (krun_single _ _ 0 _ _ (gd_cell _ _ HG) (sg_single _ _ HS)) as [HSI _].
      pose proof (cell_wait _ _ _ _ _ _ _ _ HK HSI H0 Hp (sg_single _ _ HS) _ eq_refl) as ->.
      destruct (gd_ia _ _ HG t Ht) as [Hk|(j & Hj & _)].
      + left. apply lock_acq; [apply Ho|exact Hk].
      + right; left. exists j. apply step_word in H0 as (d & d' & p'' & _ & Hpp & _). rewrite Hpp, wset_other; auto.
  Qed.

  Definition ready (es : list event) : Prop := exists v es2 es1, completes (count is_take es) v es2 es1 es.
  Definition IC (s : ystate) (es : list event) (ces : list wevent) : Prop := forall w, y_rx s = RPend w ->
    exists later, parked 0 ces = Some (w, later) /\
      (ready es -> (exists j, pcs s (S j) = NOr false) \/ existsb is_fetched later = true).

  (** No element is taken while the receiver has no call in progress, and a new one is announced. *)
  Lemma ready_frame s s' evs (ys : list yevent) : ycase s s' evs -> rrun (ring_events ys) (y_ring s) -> (exists w, y_rx s' = RPend w) -> y_rx s' = y_rx s ->
    Stg s (cell_events ys) -> ready (ring_events (evs ++ ys)) -> ready (ring_events ys) \/ exists j, pcs s' (S j) = NOr false.
  Proof.
    intros H Hr [w Hw] Hx HS Hrd.
    assert (K : exists e, ring_events (evs ++ ys) = ocons e (ring_events ys) /\ match e with Some (Take _ _) => False | _ => True end).
    { assert (NT : forall a r' e, rstep (y_ring s) a = Some (r', e) -> (forall i k b, a = XStep i k b -> in_pop (w_pcs (y_ring s) i) = false) ->
        match e with Some (Take _ _) => False | _ => True end).
      { intros a r' e E Ha. destruct e as [[]|]; auto. apply step_source in E as [(k & b & ->) D]. rewrite (Ha _ _ _ eq_refl) in D. discriminate. }
      destruct H; try poll_evs; cbn [app ring_events]; rewrite ?E, ?ring_yr, ?ring_yc; cbn [y_rx set_rx] in *; try congruence;
        try (exists None; auto; fail); try (rewrite <- Hx, Hw in H; discriminate).
      - exists e. split; auto. eapply NT; eauto. intros i k b ->.
        destruct H as [(_ & E & _)|[(_ & (k' & b' & E) & _)|(_ & (v & E) & _)]]; try discriminate. injection E as -> _ _. apply (sg_pop _ _ HS).
      - exists e. split; auto. eapply NT; eauto. discriminate.
      - exists e. split; auto. destruct H1 as [(_ & -> & _)|H1]; auto. eapply NT; eauto. discriminate.
      - exists e. split; auto. eapply NT; eauto. discriminate.
      - exists e. split; auto. eapply NT; eauto. discriminate.
      - destruct H1 as [(w0 & -> & _)|[-> _]]; discriminate.
      - rewrite Hw in H. discriminate.
      - exists e. split; auto. eapply NT; eauto. destruct H0 as [[v ->]| ->]; discriminate. }
    destruct K as (e & E & He). rewrite E in Hrd. destruct Hrd as (v & es2 & es1 & j & E2 & Hl).
    assert (Hcnt : count is_take (ocons e (ring_events ys)) = count is_take (ring_events ys)) by (destruct e as [[]|]; cbn; tauto).
    rewrite Hcnt in Hl. assert (Ht : at_time cmt (ring_events (evs ++ ys)) (length es1)) by (rewrite E, E2; now apply at_split).
    destruct e as [e|]; cbn [CoreModel.ocons] in E2.
    - destruct es2 as [|e' es2].
      + injection E2 as -> E2. destruct (ycommit _ _ _ _ _ _ _ _ _ _ H Hr Ht) as [Hc|(k & _ & _ & Hk & _)]; [|right; eauto].
        exfalso. rewrite <- E2 in Hc. revert Hc. generalize (ring_events ys). clear. intros l.
        assert (A : forall t, at_time cmt l t -> t < length l) by (induction l as [|x l IH]; cbn; [tauto|intros t [[_ ->]|Ht]; [lia|specialize (IH _ Ht); lia]]).
        intros Hc. specialize (A _ Hc). lia.
      + injection E2 as -> E2. left. exists v, es2, es1, j. auto.
    - left. exists v, es2, es1, j. auto.
  Qed.

  Lemma ic_step s s' evs (ys : list yevent) : ycase s s' evs -> sound_chan o -> Good s ys -> IB s (ring_events ys) (cell_events ys) ->
    (forall a r' i, rstep (y_ring s) a = Some (r', Some (RetEmpty i)) ->
      (forall j v es2 es1, ring_events ys = es2 ++ Take j v :: es1 -> known (w_call (y_ring s) i) es1) ->
      forall v es2 es1, completes (count is_take (ring_events ys)) v es2 es1 (ring_events ys) -> ~ known (w_call (y_ring s) i) es1) ->
    IC s (ring_events ys) (cell_events ys) -> IC s' (ring_events (evs ++ ys)) (cell_events (evs ++ ys)).
  Proof.
    intros H Ho HG HB NE HI w Hw. pose proof (gd_k _ _ HG) as HK. pose proof (gd_stg _ _ HG) as HS. pose proof (gd_ring _ _ HG) as Hr.
    assert (F : y_rx s' = y_rx s -> exists later, parked 0 (cell_events (evs ++ ys)) = Some (w, later) /\
      (ready (ring_events (evs ++ ys)) -> (exists j, pcs s' (S j) = NOr false) \/ existsb is_fetched later = true)).
    { intros E. assert (Hx : forall v, y_rx s <> RWait v) by (intros v; rewrite <- E, Hw; discriminate).
      destruct (HI w ltac:(congruence)) as (later & Hp & Hk).
      destruct (parked_frame _ _ _ _ _ _ H HS E Hx Hp) as (later' & Hp' & Hf). exists later'. split; auto. intros Hrd.
      destruct (ready_frame _ _ _ _ H Hr (ex_intro _ w Hw) E HS Hrd) as [Hrd'|]; auto.
      destruct (Hk Hrd') as [[j Hj]|Hl]; auto. destruct (ylock _ _ _ _ _ _ _ _ _ H HK HS Ho) as [_ L]. destruct (L _ Hj) as [Hj'|[_ Hev]]; eauto. }
    destruct H; try (apply F; reflexivity); try discriminate.
    - destruct H1 as [(w' & -> & _)|[-> _]]; discriminate.
    - cbn [y_rx set_rx] in Hw. injection Hw as <-. cbn [app cell_events ring_events y_cell set_rx].
      destruct (HB _ H) as (later & Hp & Hk). exists later. split; auto. intros (v & es2 & es1 & j & E & Hl).
      cbn [count is_take] in Hl. destruct es2 as [|e' es2]; [discriminate|]. injection E as <- E.
      assert (Ei : i = me s). { pose proof (step_source _ _ _ _ _ _ _ H0) as [(k' & b' & D) _]. now injection D as <- _ _. }
      assert (Hc : completes (count is_take (ring_events ys)) v es2 es1 (ring_events ys)) by (exists j; auto).
      assert (Ht : forall j v es2 es1, ring_events ys = es2 ++ Take j v :: es1 -> known (w_call (y_ring s) i) es1).
      { intros j' v' e2 e1 E'. unfold known. rewrite Ei. apply (gd_id _ _ HG); [rewrite E'; now apply at_split|now rewrite H]. }
      destruct (Hk (length es1)) as [D|D]; auto; [rewrite E; now apply at_split|]. exfalso. eapply NE; eauto. unfold known. now rewrite Ei.
  Qed.
End More.

(** ** The lemmas behind the theorems *)
Section Final.
  Context {T : Type}.
  Variables (W : N) (cap : nat) (pol : policy T) (debug : bool) (o : chan_orders) (async : bool).
  Hypothesis Hwf : wf W cap.
  Hypothesis Ho : sound_chan o.
  Notation P := (core_new W (N.of_nat cap)).
  Notation event := (event T).
  Notation ystate := (@ystate T).
  Notation yevent := (@yevent T).
  Notation yrun := (yrun P pol debug o async).
  Notation ycase := (ycase P pol debug o async).
  Notation few := (few_pushes (T := T) W cap).
  Notation pcs s := (ws_pc (wc_sys (y_cell s))).
  Notation Good := (Good P pol debug o).
  Notation LC := (LC (T := T) async).

  Lemma ring_app (a b : list yevent) : ring_events (a ++ b) = ring_events a ++ ring_events b.
  Proof. induction a as [|e a IH]; auto. destruct e; cbn; now rewrite ?IH. Qed.

  Record All (s : ystate) (ys : list yevent) : Prop := {
    al_good : Good s ys;
    al_sp : SP s;
    al_iq : IQ s;
    al_iu : IU s (ring_events ys);
    al_lc : LC s (ring_events ys) (cell_events ys);
    al_ib : IB s (ring_events ys) (cell_events ys);
    al_ic : IC s (ring_events ys) (cell_events ys) }.

  Lemma all_run ys s : yrun ys s -> few (ring_events ys) -> All s ys.
  Proof.
    induction 1 as [|ys s a s' evs Hr IH Hs]; intros Hf.
    - constructor; auto.
      + apply (good_run P pol debug o async); auto. constructor.
      + intros i Hi. discriminate.
      + intros j. auto.
      + constructor; [|discriminate]. intros j j' Hj. cbn in Hj. destruct (Nat.eqb j 0); discriminate.
      + intros D. discriminate.
      + intros w D. discriminate.
      + intros w D. discriminate.
    - rewrite ring_app in Hf. pose proof (few_before _ _ _ _ Hf) as Hf0. specialize (IH Hf0). pose proof (gd_k _ _ _ _ _ _ (al_good _ _ IH)) as HK.
      pose proof (good_run P pol debug o async _ _ Ho (yrun_step _ _ _ _ _ ys s a s' evs Hr Hs)) as HG'.
      apply ystep_cases in Hs. destruct IH as [HG HS HQ HU HL HB HC]. pose proof HG as [G1 G2 G3 G4 G5 G6 G7 G8 G9 G10 G11]. constructor; auto.
      + eapply sp_step; eauto.
      + eapply iq_step; eauto.
      + eapply iu_step; eauto.
      + eapply lc_step; eauto.
      + eapply ib_step; eauto.
      + eapply ic_step; eauto. intros x r' i Hx Ht. eapply weak_not_empty; eauto. apply Ho.
  Qed.

  (** ** A pending receiver is woken *)
  Lemma woken s ys w later : All s ys -> y_rx s = RPend w -> parked 0 (cell_events ys) = Some (w, later) ->
    existsb is_fetched later = true \/ WaitCellSpec.closed_in (cell_events ys) = true ->
    (exists k, In (Woke k w) later) \/ exists j, about_to_wake (wc_sys (y_cell s)) (tx_thread j) w.
  Proof.
    intros [HG _ _ _ _ _ _] Hx Hp Hf. pose proof (gd_stg _ _ _ _ _ _ HG) as HS.
    destruct (krun_single _ _ 0 _ _ (gd_cell _ _ _ _ _ _ HG) (sg_single _ _ HS)) as [_ HP]. destruct (HP _ _ Hp) as [_ [(H1 & _ & H2)|[[k Hk]|H]]]; auto.
    - exfalso. destruct Hf as [Hf|Hf]; [congruence|]. pose proof (l_closed _ _ (ki_l _ _ (gd_k _ _ _ _ _ _ HG))) as Hc. rewrite H2, Hf in Hc. discriminate.
    - right. destruct k as [|j]; [exfalso|exists j; exact Hk]. unfold about_to_wake in Hk.
      destruct (sg_rx _ _ HS) as [E|[_ [w' E]]]; [rewrite E in Hk; exact Hk|congruence].
  Qed.
  Lemma waking_stage s ys j w : All s ys -> about_to_wake (wc_sys (y_cell s)) (tx_thread j) w -> y_tx s j = SNotify \/ y_tx s j = SCloseTx.
  Proof. intros [_ _ HQ _ _ _ _] H. destruct (HQ j) as [E|]; auto. unfold about_to_wake, tx_thread in H. rewrite E in H. destruct H. Qed.

  Lemma pending_woken ys s w : yrun ys s -> few (ring_events ys) -> y_rx s = RPend w ->
    exists later, parked 0 (cell_events ys) = Some (w, later) /\
      forall v, committed (ring_events ys) (count is_take (ring_events ys)) = Some v ->
        (exists k, In (Woke k w) later) \/ exists j, about_to_wake (wc_sys (y_cell s)) (tx_thread j) w \/ pcs s (tx_thread j) = NOr false.
  Proof.
    intros Hr Hf Hx. pose proof (all_run _ _ Hr Hf) as HA. destruct (al_ic _ _ HA _ Hx) as (later & Hp & Hk). exists later. split; auto.
    intros v Hv. apply committed_split in Hv as (es2 & es1 & Hc). destruct Hk as [[j Hj]|Hl]; [exists v, es2, es1; auto|right; exists j; auto|].
    destruct (woken _ _ _ _ HA Hx Hp (or_introl Hl)) as [|[j Hj]]; eauto.
  Qed.

  Lemma pending_closed ys s w : yrun ys s -> few (ring_events ys) -> y_rx s = RPend w -> dropped ys = created ys ->
    async = true \/ ~ hushed (ring_events ys) ->
    exists later, parked 0 (cell_events ys) = Some (w, later) /\
      ((exists k, In (Woke k w) later) \/
       exists j, about_to_wake (wc_sys (y_cell s)) (tx_thread j) w \/ pcs s (tx_thread j) = NOr true \/ y_tx s j = SClosing).
  Proof.
    intros Hr Hf Hx Hd Ha. pose proof (all_run _ _ Hr Hf) as HA. destruct (al_ic _ _ HA _ Hx) as (later & Hp & _). exists later. split; auto.
    pose proof (ct_events _ _ (gd_cnt _ _ _ _ _ _ (al_good _ _ HA))) as Hn. assert (Hz : y_count s = 0) by lia.
    destruct (al_lc _ _ HA Hz) as [[j Hj]|[[j Hj]|[Hc|[E [Hg|Hh]]]]].
    - right. exists j. auto.
    - right. exists j. auto.
    - destruct (woken _ _ _ _ HA Hx Hp (or_intror Hc)) as [|[j Hj]]; eauto.
    - congruence.
    - destruct Ha; [congruence|contradiction].
  Qed.

  Lemma pending_settled ys s w : yrun ys s -> few (ring_events ys) -> y_rx s = RPend w -> settled s ->
    (exists v, committed (ring_events ys) (count is_take (ring_events ys)) = Some v) \/
    (dropped ys = created ys /\ (async = true \/ ~ hushed (ring_events ys))) ->
    exists k later, parked 0 (cell_events ys) = Some (w, later) /\ In (Woke k w) later.
  Proof.
    intros Hr Hf Hx Hs H. pose proof (all_run _ _ Hr Hf) as HA. pose proof (gd_stg _ _ _ _ _ _ (al_good _ _ HA)) as HS.
    assert (N : forall j, about_to_wake (wc_sys (y_cell s)) (tx_thread j) w \/ pcs s (tx_thread j) = NOr false \/ pcs s (tx_thread j) = NOr true \/ y_tx s j = SClosing -> False).
    { intros j Hj. destruct (Hs j) as (S1 & S2 & S3). destruct Hj as [Hj|[Hj|[Hj|Hj]]]; [|apply (sg_false _ _ HS) in Hj|apply (sg_true _ _ HS) in Hj|]; auto.
      destruct (waking_stage _ _ _ _ HA Hj); auto. }
    destruct H as [[v Hv]|[Hd Ha]].
    - destruct (pending_woken _ _ _ Hr Hf Hx) as (later & Hp & Hk). destruct (Hk _ Hv) as [[k Hin]|[j Hj]]; [eauto|exfalso; apply (N j); tauto].
    - destruct (pending_closed _ _ _ Hr Hf Hx Hd Ha) as (later & Hp & Hk). destruct Hk as [[k Hin]|[j Hj]]; [eauto|exfalso; apply (N j); tauto].
  Qed.

  (** ** The end of the stream *)
  Definition is_ret (e : yevent) : bool := match e with YRet _ => true | _ => false end.
  Lemma ret_head s s' evs : ycase s s' evs -> match evs with [] => True | _ :: l => forallb (fun e => negb (is_ret e)) l = true end.
  Proof.
    intros H. destruct H; auto; try (destruct e as [e|]; reflexivity).
    destruct H1 as [(w & _ & ->)|[_ ->]]; destruct e; reflexivity.
  Qed.
  Lemma ret_split evs (ys ys2 ys1 : list yevent) x : match evs with [] => True | _ :: l => forallb (fun e => negb (is_ret e)) l = true end ->
    evs ++ ys = ys2 ++ YRet x :: ys1 ->
    (ys2 = [] /\ exists l, evs = YRet x :: l /\ ys1 = l ++ ys) \/ exists l, ys2 = evs ++ l /\ ys = l ++ YRet x :: ys1.
  Proof.
    assert (A : forall l ys2, forallb (fun e => negb (is_ret e)) l = true -> l ++ ys = ys2 ++ YRet x :: ys1 -> exists m, ys2 = l ++ m /\ ys = m ++ YRet x :: ys1).
    { induction l as [|e l IH]; cbn; intros y2 H E; [eauto|]. apply andb_prop in H as [H1 H2]. destruct y2 as [|e' y2]; injection E as -> E; [discriminate|].
      destruct (IH _ H2 E) as (m & -> & ->). eauto. }
    destruct evs as [|e evs]; cbn; intros H E; [right; eauto|]. destruct ys2 as [|e' ys2]; injection E as -> E; [left; eauto|right].
    destruct (A _ _ H E) as (m & -> & ->). eauto.
  Qed.

  Lemma dead_stays s s' evs j : ycase s s' evs -> y_tx s j = SDead -> y_tx s' j = SDead.
  Proof.
    intros H Hj. destruct H; auto; cbn [y_tx set_tx].
    - rewrite updt_other; auto. intros ->. destruct H as [(H & _)|[(H & _)|(H & _)]]; congruence.
    - rewrite updt_other; auto. congruence.
    - rewrite updt_other by congruence. destruct (Nat.eq_dec j j0) as [->|]; [now rewrite updt_same|now rewrite updt_other].
    - rewrite updt_other; auto. intros ->. destruct H; congruence.
    - rewrite updt_other; auto. congruence.
    - rewrite updt_other; auto. congruence.
    - rewrite updt_other; auto. congruence.
    - rewrite updt_other; auto. congruence.
    - rewrite updt_other; auto. congruence.
  Qed.
  Lemma at_lt (f : event -> bool) l t : at_time f l t -> t < length l.
  Proof. induction l as [|x l IH]; cbn; [tauto|intros [[_ ->]|Ht]; [lia|specialize (IH Ht); lia]]. Qed.

  (** What holds when a receive says that there is nothing left. *)
  Definition over (s : ystate) (es : list event) : Prop :=
    committed es (count is_take es) = None /\ (count is_take es = count is_reserve es \/ exists j, y_tx s j = SDead).

  Lemma all_over s ys : All s ys -> few (ring_events ys) -> y_count s = 0 ->
    committed (ring_events ys) (count is_take (ring_events ys)) = None -> over s (ring_events ys).
  Proof.
    intros HA Hf Hz Hc. split; auto. pose proof (gd_ring _ _ _ _ _ _ (al_good _ _ HA)) as Hr.
    assert (Hh : weak_history W cap pol (co_ring o) (ring_events ys)) by (eexists; eauto).
    destruct (history_chain W cap pol (co_ring o) Hwf (so_ring _ Ho) _ Hh Hf) as (q & Hq). pose proof (chain_counts _ _ _ _ _ _ Hq) as Hn.
    destruct (Nat.eq_dec (count is_take (ring_events ys)) (count is_reserve (ring_events ys))) as [|Hne]; auto. right.
    destruct (unfinished _ _ _ _ _ Hr (fun k => weak_no_ub W cap pol (co_ring o) Hwf (so_ring _ Ho) _ k Hh Hf) (count is_take (ring_events ys)) ltac:(lia) Hc) as (i & _ & Hi).
    destruct (al_sp _ _ HA i) as (j & _ & [Hj|Hj]); eauto.
    - now destruct (w_pcs (y_ring s) i).
    - pose proof (cnt_zero _ _ (gd_cnt _ _ _ _ _ _ (al_good _ _ HA)) Hz j) as D. rewrite Hj in D. discriminate.
  Qed.

  Lemma no_more s s' x l ys : All s ys -> few (ring_events ys) -> ycase s s' (YRet x :: l) -> x = NoMore \/ x = TryClosed ->
    y_count s = 0 /\ y_count s' = 0 /\ ring_events (l ++ ys) = ring_events l ++ ring_events ys /\ over s (ring_events (l ++ ys)) /\ y_tx s' = y_tx s /\
    dropped (l ++ ys) = dropped ys /\ created (l ++ ys) = created ys.
  Proof.
    intros HA Hf H Hx. pose proof (gd_ring _ _ _ _ _ _ (al_good _ _ HA)) as Hr.
    assert (PC : forall a r' i, weak_step P pol (co_ring o) (y_ring s) a = Some (r', Some (RetPopClosed i)) -> y_rx s <> RGone ->
      y_count s = 0 /\ committed (ring_events ys) (count is_take (ring_events ys)) = None).
    { intros a r' i Hs Hg. destruct (weak_pop_closed W cap pol (co_ring o) Hwf (so_ring _ Ho) _ _ _ _ _ Hr Hf Hs) as [Hc Ho0].
      destruct (gd_ir _ _ _ _ _ _ (al_good _ _ HA) Hc) as [Hz|Hz]; [|contradiction]. split; auto.
      destruct (committed _ _) as [v|] eqn:Ev; auto. exfalso. apply committed_split in Ev as (es2 & es1 & j & E & Hl).
      unfold last_is in Hl. destruct (nth_error (reservers es1) _) eqn:En; [|discriminate]. apply nth_lt in En. rewrite count_reservers in En.
      unfold occupancy in Ho0. assert (Hle : count is_reserve es1 <= count is_reserve (ring_events ys)); [|lia].
      rewrite E. clear. induction es2 as [|e es2 IH]; cbn; [lia|]. destruct (is_reserve e); lia. }
    assert (Fin : y_count s = 0 -> committed (ring_events ys) (count is_take (ring_events ys)) = None -> forall e r',
      match e with RetEmpty _ | RetPopClosed _ => True | _ => False end -> l = [YR e] -> s' = set_rx s r' (y_cell s) RIdle ->
      y_count s = 0 /\ y_count s' = 0 /\ ring_events (l ++ ys) = ring_events l ++ ring_events ys /\ over s (ring_events (l ++ ys)) /\ y_tx s' = y_tx s /\
      dropped (l ++ ys) = dropped ys /\ created (l ++ ys) = created ys).
    { intros Hz Hc e r' He -> ->. pose proof (all_over _ _ HA Hf Hz Hc) as Hov. repeat split; auto; cbn [app ring_events]; destruct e; try tauto; exact Hov || apply Hov. }
    remember (YRet x :: l) as evs eqn:Ev. destruct H; try discriminate; try (destruct e; discriminate).
    - exfalso. destruct H1 as [(w & _ & ->)|[_ ->]]; destruct e; discriminate.
    - injection Ev as <- <-. destruct Hx; discriminate.
    - injection Ev as <- <-. destruct Hx; discriminate.
    - injection Ev as <- <-. destruct H1 as [(i & -> & ->)|[i ->]].
      + destruct (gd_il _ _ _ _ _ _ (al_good _ _ HA) _ H) as [Hz Hk]. eapply (Fin Hz); eauto; [|exact I].
        destruct (committed _ _) as [v|] eqn:Ec; auto. exfalso. apply committed_split in Ec as (es2 & es1 & Hc).
        assert (Ei : i = rx_agent (y_me s)). { pose proof (step_source _ _ _ _ _ _ _ H0) as [(k' & b' & D) _]. now injection D as <- _ _. }
        refine (weak_not_empty W cap pol (co_ring o) Hwf (so_ring _ Ho) _ _ _ _ _ Hr Hf H0 _ v es2 es1 Hc _); rewrite Ei.
        * intros j' v' e2 e1 E'. unfold known. apply (gd_id _ _ _ _ _ _ (al_good _ _ HA)); [rewrite E'; now apply at_split|now rewrite H].
        * apply Hk. destruct Hc as (j & -> & _). now apply at_split.
      + destruct (PC _ _ _ H0 ltac:(congruence)) as [Hz Hc]. eapply (Fin Hz Hc); eauto. exact I.
    - injection Ev as <- <-. destruct H1 as [(i & -> & ->)|[i [-> ->]]]; [destruct Hx; discriminate|].
      destruct (PC _ _ _ H0 ltac:(congruence)) as [Hz Hc]. eapply (Fin Hz Hc); eauto. exact I.
  Qed.

  Lemma end_of_stream ys s : yrun ys s -> few (ring_events ys) -> forall x ys2 ys1, x = NoMore \/ x = TryClosed -> ys = ys2 ++ YRet x :: ys1 ->
    dropped ys1 = created ys1 /\ y_count s = 0 /\ over s (ring_events ys1) /\ (forall i v, ~ In (Commit i v) (ring_events ys2)).
  Proof.
    induction 1 as [|ys s a s' evs Hr IH Hs]; intros Hf x ys2 ys1 Hx E; [destruct ys2; discriminate|].
    apply ystep_cases in Hs. pose proof (ret_head _ _ _ Hs) as Hh. pose proof Hf as Hf1. rewrite ring_app in Hf1. pose proof (few_before _ _ _ _ Hf1) as Hf0.
    pose proof (all_run _ _ Hr Hf0) as HA. pose proof (gd_cnt _ _ _ _ _ _ (al_good _ _ HA)) as HC.
    destruct (ret_split _ _ _ _ _ Hh E) as [(-> & l & -> & ->)|(l & -> & ->)].
    - destruct (no_more _ _ _ _ _ HA Hf0 Hs Hx) as (Z & Z' & _ & Hov & Et & E1 & E2). pose proof (ct_events _ _ HC). split; [lia|]. split; [auto|].
      split; [|intros i v []]. unfold over in *. rewrite Et. exact Hov.
    - destruct (IH Hf0 x l ys1 Hx eq_refl) as (H1 & H2 & [H3 H4] & H5).
      destruct (zero_step _ _ _ _ _ _ _ _ _ Hs (gd_ring _ _ _ _ _ _ (al_good _ _ HA)) HC H2) as [Z1 Z2].
      repeat split; auto.
      + destruct H4 as [|[j Hj]]; auto. right. exists j. eapply dead_stays; eauto.
      + intros i v. rewrite ring_app. intros Hin. apply in_app_or in Hin as [Hin|Hin]; [|now apply (H5 i v)].
        apply in_split in Hin as (l1 & l2 & El). specialize (Z2 (length (l2 ++ ring_events (l ++ YRet x :: ys1)))).
        rewrite (ring_app evs), El, <- app_assoc in Z2. cbn [app] in Z2.
        assert (A := Z2 (at_split cmt l1 (Commit i v) _ eq_refl)). apply at_lt in A. rewrite app_length in A. lia.
  Qed.
End Final.
