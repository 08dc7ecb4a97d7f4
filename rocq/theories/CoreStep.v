(** Every step of the ring preserves the invariant and is explained by the log. *)
From Coq Require Import List Bool Arith NArith Lia.
From Coq Require Import ZifyN ZifyNat ZifyBool.
From Verif Require Import Word QueueSpec CoreModel CoreArith CoreInv.
Import ListNotations.

Section Steps.
  Context {T : Type}.
  Variables (W : N) (cap : nat) (pol : policy T).
  Hypothesis Hwf : wf W cap.
  Notation P := (core_new W (N.of_nat cap)).
  Notation enc := (enc W cap).
  Notation word := (word W cap).
  Notation ifld := (ifield cap).
  Notation queue := (queue T).
  Notation event := (event T).
  Notation core := (core T).
  Notation slot := (slot T).
  Notation entry := (entry T).
  Notation fresh_pos := (fresh_pos W cap).
  Notation sstep := (sstep cap fresh_pos (new_element pol) (recycle pol)).
  Notation explains := (explains cap fresh_pos (new_element pol) (recycle pol)).
  Notation observes := (observes cap).
  Notation front_ready := (@front_ready T).
  Notation Inv := (Inv W cap).
  Notation SInv := (SInv W cap).
  Notation AInv := (AInv W cap).
  Notation slot_ok := (slot_ok W cap).
  Notation step := (step P pol).
  Notation B := (slack W cap).

  Definition Good (s : state) (es : list event) : Prop :=
    exists q hist g, Inv s es (q :: hist) q g /\ explains es (q :: hist).

  Lemma Good_ext c ag ag' es : (forall j, ag' j = ag j) -> Good (mkS c ag) es -> Good (mkS c ag') es.
  Proof.
    intros Hj (q & hist & g & HI & HE). exists q, hist, g. split; auto. constructor; simpl.
    - eapply SInv_agents; [apply HI|]. auto.
    - intros i. rewrite Hj. apply HI.
  Qed.

  Lemma calm_use i (es : list event) : calm B es -> pending i es ->
    (N.of_nat (count_since is_reserve i es) < B /\ N.of_nat (count_since is_take i es) < B)%N.
  Proof.
    destruct es as [|e es]; simpl.
    - intros _ [o H]. discriminate.
    - intros [_ H] Hp. auto.
  Qed.

  Lemma calm_tail oe (es : list event) : calm B (ocons oe es) -> calm B es.
  Proof. destruct oe; simpl; tauto. Qed.

  (** Once the queue is closed nothing more is reserved. *)
  Lemma sstep_closed_log q e q' : sstep q e q' -> qclosed q = true ->
    qclosed q' = true /\ length (qlog q') = length (qlog q).
  Proof.
    intros Hs Hc. destruct Hs; simpl; rewrite ?set_nth_length; auto; congruence.
  Qed.

  Lemma explains_closed_log es hist q : explains es (q :: hist) ->
    forall q0, In q0 (q :: hist) -> qclosed q0 = true ->
      qclosed q = true /\ length (qlog q) = length (qlog q0).
  Proof.
    intros H. remember (q :: hist) as h eqn:E. revert q hist E.
    induction H; intros q1 h1 [= <- <-] q0 Hin Hc.
    - destruct Hin as [<-|[]]. auto.
    - destruct Hin as [<-|Hin]; [auto|].
      destruct (IHexplains _ _ eq_refl _ Hin Hc) as [Hc1 Hl1].
      destruct (sstep_closed_log _ _ _ H0 Hc1) as [Hc2 Hl2]. split; auto. congruence.
  Qed.

  (** A non-mutating step: same core, same log. *)
  Lemma good_silent s es q hist g i p' g' :
    Inv s es (q :: hist) q g -> explains es (q :: hist) ->
    holder (st_agents s i) = false -> (forall j, j <> i -> g' j = g j) ->
    AInv i p' es (q :: hist) q g' ->
    Good (mkS (st_core s) (upd (st_agents s) i p')) es.
  Proof.
    intros HI HE Hh Hg HA. exists q, hist, g'. split; auto.
    apply (inv_frame W cap s es (q :: hist) q g i p' None g'); auto; discriminate.
  Qed.

  Lemma good_event s es q hist g i p' g' e :
    Inv s es (q :: hist) q g -> explains es (q :: hist) ->
    holder (st_agents s i) = false -> (forall j, j <> i -> g' j = g j) ->
    agent_of e = i -> is_reserve e = false -> is_take e = false ->
    sstep q e q ->
    (exists q0, In q0 (since_call i es (q :: hist)) /\ observes q0 e) ->
    AInv i p' (e :: es) (q :: q :: hist) q g' ->
    Good (mkS (st_core s) (upd (st_agents s) i p')) (e :: es).
  Proof.
    intros HI HE Hh Hg Ha H1 H2 Hs Ho HA. exists q, (q :: hist), g'. split.
    - apply (inv_frame W cap s es (q :: hist) q g i p' (Some e) g'); auto. congruence.
    - econstructor; eauto. now rewrite Ha.
  Qed.

  Lemma pending_invoke i o (es : list event) : pending i (Invoke i o :: es).
  Proof. exists o. simpl. now rewrite Nat.eqb_refl. Qed.

  Lemma good_invoke s es i o :
    Good s es -> st_agents s i = Idle ->
    Good (mkS (st_core s) (upd (st_agents s) i (entry_pc o))) (Invoke i o :: es).
  Proof.
    intros (q & hist & g & HI & HE) Hi.
    eapply good_event with (g' := g); eauto.
    - now rewrite Hi.
    - constructor. eapply not_holder_unowned; [apply HI|]. now rewrite Hi.
    - exists q. split; [apply since_call_head|exact I].
    - destruct o; apply pending_invoke.
  Qed.

  (** Loop top of push, after the tail word has been read. *)
  Lemma good_push_top s es q hist g i p' e :
    Inv s es (q :: hist) q g -> explains es (q :: hist) ->
    holder (st_agents s i) = false -> pending i es ->
    push_top P i (c_tail (st_core s)) = (p', e) ->
    Good (mkS (st_core s) (upd (st_agents s) i p')) (ocons e es).
  Proof.
    intros HI HE Hh Hp. unfold push_top.
    rewrite (i_tail _ _ _ _ _ _ (inv_s _ _ _ _ _ _ _ HI)), (closed_test _ _ Hwf).
    destruct (qclosed q) eqn:Ec; intros [= <- <-]; simpl.
    - eapply good_event with (g' := g); eauto; try constructor.
      exists q. split; [apply since_call_head|exact Ec].
    - eapply good_silent with (g' := updg g i (length (qlog q))); eauto.
      + intros j Hj. now apply updg_other.
      + simpl. unfold push_local. rewrite updg_same. repeat split; auto; try lia.
        exists q. pose proof (i_order _ _ _ _ _ _ (inv_s _ _ _ _ _ _ _ HI)).
        repeat split; auto; try lia. apply since_call_head.
  Qed.

  (** *** Mutating steps *)

  Lemma slot_other c i sl j : j <> i -> c_slots (set_slot (T := T) c i sl) j = c_slots c j.
  Proof. intros H. simpl. apply N.eqb_neq in H. now rewrite H. Qed.
  Lemma slot_same c i sl : c_slots (set_slot (T := T) c i sl) i = sl.
  Proof. simpl. now rewrite N.eqb_refl. Qed.

  Lemma unused_index (n p p' : nat) : p < n -> n <= p' < cap -> n <= p + cap -> ifld p <> ifld p'.
  Proof.
    intros H1 H2 H3. unfold ifield. rewrite (Nat.mod_small p') by lia. rewrite Nat.mod_small by lia. lia.
  Qed.

  Lemma inv_reserve s es q hist g i t :
    Inv s es (q :: hist) q g -> calm B es ->
    st_agents s i = PCas t -> c_tail (st_core s) = t ->
    exists q', Inv (mkS (set_tail (st_core s) (let '(idx, gen) := idx_gen P t in next P idx gen))
              (upd (st_agents s) i (PInit t))) (Reserve i :: es) (q' :: q :: hist) q' g /\ sstep q (Reserve i) q'.
  Proof.
    intros HI HC Hpc Ht. pose proof (inv_s _ _ _ _ _ _ _ HI) as HS.
    assert (HA := inv_a _ _ _ _ _ _ _ HI i). rewrite Hpc in HA. simpl in HA.
    destruct HA as [(Et & Hle & Hcnt & Hsaw & Hpend) Hfree].
    destruct (calm_use _ _ HC Hpend) as [Hc1 _].
    assert (Hw := i_tail _ _ _ _ _ _ HS). rewrite Ht, Et in Hw.
    pose proof (slack_span _ _ Hwf).
    assert (Hg : g i = length (qlog q) /\ qclosed q = false).
    { apply (word_inj _ _ Hwf) in Hw as (Hb & Hi1 & Hi2). split; [|congruence].
      eapply (fields_inj _ _ Hwf); eauto. lia. }
    destruct Hg as [Hg Hcl]. destruct (Hfree Hg) as [Hroom Hrel].
    pose proof (i_order _ _ _ _ _ _ HS) as Ho.
    set (n := length (qlog q)) in *.
    assert (Hrel' : n < cap \/ (cap <= n /\ exists old, nth_error (qlog q) (n - cap) = Some (Released old))).
    { destruct (Nat.lt_ge_cases n cap); [now left|right]. split; auto. destruct Hrel as [Hrel|Hrel]; [lia|auto]. }
    clear Hrel. rename Hrel' into Hrel.
    assert (Hun : unowned q i) by (eapply not_holder_unowned; eauto; now rewrite Hpc).
    set (q' := mkQ (qlog q ++ [Reserved i]) (qtaken q) false).
    assert (Hlen' : length (qlog q') = S n) by (simpl; rewrite app_length; simpl; fold n; lia).
    exists q'. split; [constructor; cbn [st_core st_agents]|].
    - (* SInv *)
      constructor.
      + rewrite Hlen'. simpl. lia.
      + apply HS.
      + apply HS.
      + cbn [c_tail set_tail]. rewrite Hlen', Et, (idx_gen_enc _ _ Hwf), (next_enc _ _ Hwf), Hg. reflexivity.
      + intros p e He. simpl in He. apply nth_snoc_inv in He as [He|[-> ->]].
        * apply (i_done _ _ _ _ _ _ HS _ _ He).
        * fold n. simpl. lia.
      + intros p e He Hwin. rewrite Hlen' in Hwin. simpl in He.
        apply nth_snoc_inv in He as [He|[-> ->]].
        * assert (Hs := i_slot _ _ _ _ _ _ HS _ _ He ltac:(fold n; lia)).
          assert (Hown := Hun _ _ He).
          destruct e as [j|j v|v|j v|v]; simpl in *; auto;
            (assert (j <> i) by congruence; rewrite !upd_other by auto; auto).
          destruct Hs as (E1 & E2 & E3 & E4). repeat split; auto.
          destruct E4 as [E4|(E4 & old & E5 & E6)]; auto.
          right. split; auto. exists old. split; auto.
          now apply nth_app_l.
        * fold n. simpl. rewrite upd_same, <- Hg, <- Et. repeat split; auto.
          -- rewrite Et, Hg. destruct Hrel as [Hrel|[Hnc [old Hrel]]].
             ++ rewrite (i_slot0 _ _ _ _ _ _ HS n) by (fold n; lia). reflexivity.
             ++                 assert (Hs := i_slot _ _ _ _ _ _ HS _ _ Hrel ltac:(fold n; lia)). simpl in Hs.
                rewrite <- (ifield_add_cap W cap Hwf) in Hs.
                replace (n - cap + cap) with n in Hs by lia. apply Hs.
          -- rewrite Hg. destruct Hrel as [Hrel|[Hnc [old Hrel]]].
             ++ left. split; auto. rewrite (i_slot0 _ _ _ _ _ _ HS n) by (fold n; lia). reflexivity.
             ++ right.                 split; auto. exists old. split; [now apply nth_app_l|].
                assert (Hs := i_slot _ _ _ _ _ _ HS _ _ Hrel ltac:(fold n; lia)). simpl in Hs.
                rewrite <- (ifield_add_cap W cap Hwf) in Hs.
                replace (n - cap + cap) with n in Hs by lia. apply Hs.
      + intros p Hp. rewrite Hlen' in Hp. apply (i_slot0 _ _ _ _ _ _ HS). fold n. lia.
      + intros p e He Hp. rewrite Hlen' in Hp. simpl in He.
        apply nth_snoc_inv in He as [He|[-> ->]]; [|fold n in Hp; lia].
        destruct (Nat.eq_dec (p + cap) n) as [Epn|Hne].
        * destruct Hrel as [Hrel|[Hnc [old Hrel]]]; [lia|].
          replace (n - cap) with p in Hrel by lia. exists old. congruence.
        * apply (i_old _ _ _ _ _ _ HS _ _ He). fold n. lia.
    - (* agents *)
      intros j. destruct (Nat.eq_dec j i) as [->|Hj].
      + rewrite upd_same. simpl. split; auto. rewrite Hg. apply nth_snoc.
      + rewrite upd_other by auto.
        refine (AInv_stable W cap i j (Some (Reserve i)) es (q :: hist) q q' g g _ _ Hj eq_refl
                  (inv_a _ _ _ _ _ _ _ HI j)).
        constructor; simpl; auto; try congruence.
        * rewrite app_length. reflexivity.
        * intros. now apply nth_app_l.
        * intros. now apply nth_app_l.
        * intros [v Hv] _. exists v. now apply nth_app_l.
        * intros e [= <-]. reflexivity.
    - unfold q'. apply (s_reserve cap fresh_pos (new_element pol) (recycle pol) q i Hcl Hroom Hun).
  Qed.

  Lemma good_reserve s es q hist g i t :
    Inv s es (q :: hist) q g -> explains es (q :: hist) -> calm B es ->
    st_agents s i = PCas t -> c_tail (st_core s) = t ->
    Good (mkS (set_tail (st_core s) (let '(idx, gen) := idx_gen P t in next P idx gen))
              (upd (st_agents s) i (PInit t))) (Reserve i :: es).
  Proof.
    intros HI HE HC Hpc Ht. destruct (inv_reserve _ _ _ _ _ _ _ HI HC Hpc Ht) as (q' & HI' & Hs).
    exists q', (q :: hist), g. split; auto. econstructor; eauto.
    exists q. split; [apply since_call_head|exact I].
  Qed.

  (** The slot of an entry owned by [i]. *)
  Lemma owned_slot (s : @state T) es q hist g i e : Inv s es (q :: hist) q g ->
    nth_error (qlog q) (g i) = Some e -> owner e = Some i ->
    slot_ok q g (st_agents s) (g i) e (c_slots (st_core s) (ifld (g i))).
  Proof.
    intros HI Hn Ho. pose proof (inv_s _ _ _ _ _ _ _ HI) as HS.
    apply (i_slot _ _ _ _ _ _ HS); auto. eapply live_in_window; eauto. intros v ->. discriminate.
  Qed.

  (** Agent [i] changes the entry it owns, and its slot. *)
  Lemma inv_entry_update (s : @state T) es q hist g i e e' sl ev p' :
    Inv s es (q :: hist) q g ->
    nth_error (qlog q) (g i) = Some e -> owner e = Some i ->
    (done_entry e' <-> done_entry e) ->
    (forall j, owner e' = Some j -> j = i) ->
    agent_of ev = i -> is_reserve ev = false -> is_take ev = false ->
    let q' := set_entry q (g i) e' in
    slot_ok q' g (upd (st_agents s) i p') (g i) e' sl ->
    AInv i p' (ev :: es) (q' :: q :: hist) q' g ->
    Inv (mkS (set_slot (st_core s) (ifld (g i)) sl) (upd (st_agents s) i p')) (ev :: es) (q' :: q :: hist) q' g.
  Proof.
    intros HI Hn Hown Hdone Hown' Hag Hr Ht q' Hsl HA.
    pose proof (inv_s _ _ _ _ _ _ _ HI) as HS.
    assert (Hnr : forall v, e <> Released v) by (intros v ->; discriminate).
    assert (Hlive : length (qlog q) <= g i + cap) by (eapply live_in_window; eauto).
    pose proof (nth_lt _ _ _ Hn) as Hlt.
    assert (Hlen : length (qlog q') = length (qlog q)) by (simpl; apply set_nth_length).
    assert (Hother : forall p x j, nth_error (qlog q) p = Some x -> owner x = Some j ->
              p <> g i -> j <> i).
    { intros p x j Hx Hj Hne ->. apply Hne.
      destruct (owner_holder _ _ _ _ _ _ HS _ _ _ Hx Hj). auto. }
    assert (Hnt : nth_error (qlog q') (g i) = Some e') by (simpl; now apply nth_set_same).
    assert (Hno : forall p, p <> g i -> nth_error (qlog q') p = nth_error (qlog q) p).
    { intros p Hp. simpl. apply nth_set_other. auto. }
    constructor; cbn [st_core st_agents].
    - constructor.
      + rewrite Hlen. apply HS.
      + apply HS.
      + apply HS.
      + rewrite Hlen. apply HS.
      + intros p x Hx. change (qtaken q') with (qtaken q). destruct (Nat.eq_dec p (g i)) as [->|Hne].
        * assert (x = e') by congruence. subst x. rewrite Hdone.
          apply (i_done _ _ _ _ _ _ HS _ _ Hn).
        * rewrite Hno in Hx by auto. apply (i_done _ _ _ _ _ _ HS _ _ Hx).
      + intros p x Hx Hwin. rewrite Hlen in Hwin. destruct (Nat.eq_dec p (g i)) as [->|Hne].
        * assert (x = e') by congruence. subst x. rewrite slot_same. exact Hsl.
        * rewrite Hno in Hx by auto. pose proof (nth_lt _ _ _ Hx).
          rewrite slot_other.
          2:{ intros E. apply Hne. eapply (win_distinct W cap Hwf); eauto. }
          assert (Hs := i_slot _ _ _ _ _ _ HS _ _ Hx Hwin).
          destruct x as [j|j v|v|j v|v]; cbn [CoreInv.slot_ok] in *; auto;
            rewrite upd_other by (eapply Hother; eauto; reflexivity); auto.
          destruct Hs as (E1 & E2 & E3 & E4). repeat split; auto.
          destruct E4 as [E4|(E4 & old & E5 & E6)]; auto.
          right. split; auto. exists old. split; auto.
          rewrite Hno; auto. intros E. rewrite E in E5. rewrite Hn in E5.
          injection E5 as E5. now apply Hnr in E5.
      + intros p Hp. rewrite Hlen in Hp. rewrite slot_other.
        2:{ apply not_eq_sym. eapply unused_index; eauto. }
        now apply (i_slot0 _ _ _ _ _ _ HS).
      + intros p x Hx Hp. rewrite Hlen in Hp.
        destruct (Nat.eq_dec p (g i)) as [->|Hne]; [lia|].
        rewrite Hno in Hx by auto. apply (i_old _ _ _ _ _ _ HS _ _ Hx Hp).
    - intros j. destruct (Nat.eq_dec j i) as [->|Hj].
      + now rewrite upd_same.
      + rewrite upd_other by auto.
        refine (AInv_stable W cap i j (Some ev) es (q :: hist) q q' g g _ _ Hj eq_refl
                  (inv_a _ _ _ _ _ _ _ HI j)).
        constructor; cbn [oreserve otake]; rewrite ?Hr, ?Ht; cbn [b2n]; rewrite ?Nat.add_0_r; auto.
        * intros p v Hv. rewrite Hno; auto. intros ->. rewrite Hn in Hv. injection Hv as Hv. now apply Hnr in Hv.
        * intros k p x Hk Hx Hv. rewrite Hno; auto. intros ->. rewrite Hn in Hv. injection Hv as <-.
          rewrite Hown in Hx. congruence.
        * intros [v Hv] _. exists v. change (qtaken q') with (qtaken q).
          rewrite Hno; auto. intros E. rewrite E, Hn in Hv. injection Hv as ->. discriminate.
        * intros x [= <-]. exact Hag.
        * discriminate.
  Qed.

  Lemma good_entry_update (s : @state T) es q hist g i e e' sl ev p' :
    Inv s es (q :: hist) q g -> explains es (q :: hist) ->
    nth_error (qlog q) (g i) = Some e -> owner e = Some i ->
    (done_entry e' <-> done_entry e) ->
    (forall j, owner e' = Some j -> j = i) ->
    agent_of ev = i -> is_reserve ev = false -> is_take ev = false ->
    (forall q0, observes q0 ev) ->
    let q' := set_entry q (g i) e' in
    slot_ok q' g (upd (st_agents s) i p') (g i) e' sl ->
    AInv i p' (ev :: es) (q' :: q :: hist) q' g ->
    sstep q ev q' ->
    Good (mkS (set_slot (st_core s) (ifld (g i)) sl) (upd (st_agents s) i p')) (ev :: es).
  Proof.
    intros HI HE Hn Hown Hdone Hown' Hag Hr Ht Hobs q' Hsl HA Hss.
    exists q', (q :: hist), g. split; [eapply inv_entry_update; eauto|].
    econstructor; eauto. exists q. split; [apply since_call_head|apply Hobs].
  Qed.

  Lemma inv_take s es q hist g i h b c' p' oe :
    Inv s es (q :: hist) q g -> calm B es ->
    st_agents s i = QCas h b -> c_head (st_core s) = h ->
    cstep P pol (st_core s) i (QCas h b) false = (c', p', oe) ->
    exists q' v, Inv (mkS c' (upd (st_agents s) i p')) (Take i v :: es) (q' :: q :: hist) q' g /\
      sstep q (Take i v) q' /\ oe = Some (Take i v) /\ p' = QHold (mkRef (ifld (g i)) (enc (g i + cap))) /\
      c' = set_head (st_core s) (enc (S (g i))).
  Proof.
    intros HI HC Hpc Hh Hst. pose proof (inv_s _ _ _ _ _ _ _ HI) as HS.
    assert (HA := inv_a _ _ _ _ _ _ _ HI i). rewrite Hpc in HA. simpl in HA.
    destruct HA as [(Et & Hle & Hcnt & Hpend) Hfr].
    destruct (calm_use _ _ HC Hpend) as [_ Hc1].
    assert (Hw := i_head _ _ _ _ _ _ HS). rewrite Hh, Et in Hw.
    pose proof (slack_span _ _ Hwf).
    assert (Hg : g i = qtaken q) by (eapply (enc_inj _ _ Hwf); eauto; lia).
    destruct (Hfr Hg) as [v Hv].
    pose proof (nth_lt _ _ _ Hv) as Hlt.
    pose proof (i_order _ _ _ _ _ _ HS) as Ho.
    assert (Hs := i_slot _ _ _ _ _ _ HS _ _ Hv ltac:(lia)). simpl in Hs. destruct Hs as [Hs1 Hs2].
    cbn [cstep] in Hst. rewrite Hh, N.eqb_refl in Hst. cbn [negb andb] in Hst.
    rewrite Et, (idx_gen_enc _ _ Hwf), (next_enc _ _ Hwf), (wadd_gen _ _ Hwf), Hg, Hs2 in Hst.
    injection Hst as <- <- <-. simpl.
    assert (Hun : unowned q i) by (eapply not_holder_unowned; eauto; now rewrite Hpc).
    set (n := length (qlog q)) in *. set (hd := qtaken q) in *.
    set (q' := mkQ (set_nth (qlog q) hd (Held i v)) (S hd) (qclosed q)).
    assert (Hlen : length (qlog q') = n) by (simpl; apply set_nth_length).
    assert (Hnt : nth_error (qlog q') hd = Some (Held i v)) by (simpl; now apply nth_set_same).
    assert (Hno : forall p, p <> hd -> nth_error (qlog q') p = nth_error (qlog q) p).
    { intros p Hp. simpl. apply nth_set_other. auto. }
    exists q', v. split; [constructor; simpl|].
    - constructor; try (rewrite Hlen).
      + simpl. lia.
      + apply HS.
      + reflexivity.
      + apply HS.
      + intros p x Hx. destruct (Nat.eq_dec p hd) as [->|Hne].
        * assert (x = Held i v) by congruence. subst x. simpl. split; auto; lia.
        * rewrite Hno in Hx by auto. rewrite <- (i_done _ _ _ _ _ _ HS _ _ Hx). fold hd.
          unfold q'; cbn [qtaken]. lia.
      + intros p x Hx Hwin. destruct (Nat.eq_dec p hd) as [->|Hne].
        * assert (x = Held i v) by congruence. subst x. simpl. rewrite upd_same.
          repeat split; auto.
        * rewrite Hno in Hx by auto.
          assert (Hs := i_slot _ _ _ _ _ _ HS _ _ Hx Hwin).
          assert (Hown := Hun _ _ Hx).
          destruct x as [j|j w|w|j w|w]; simpl in *; auto;
            (assert (j <> i) by congruence; rewrite upd_other by auto; auto).
          destruct Hs as (E1 & E2 & E3 & E4). repeat split; auto.
          destruct E4 as [E4|(E4 & old & E5 & E6)]; auto.
          right. split; auto. exists old. split; auto.
          rewrite nth_set_other; auto. intros E. rewrite <- E in E5. congruence.
      + intros p Hp. now apply (i_slot0 _ _ _ _ _ _ HS).
      + intros p x Hx Hp. destruct (Nat.eq_dec p hd) as [->|Hne]; [lia|].
        rewrite Hno in Hx by auto. now apply (i_old _ _ _ _ _ _ HS _ _ Hx).
    - intros j. destruct (Nat.eq_dec j i) as [->|Hj].
      + rewrite upd_same. simpl. rewrite Hg. eauto.
      + rewrite upd_other by auto.
        refine (AInv_stable W cap i j (Some (Take i v)) es (q :: hist) q q' g g _ _ Hj eq_refl
                  (inv_a _ _ _ _ _ _ _ HI j)).
        constructor; auto; try congruence.
        * rewrite Hlen. simpl. fold n. lia.
        * simpl. fold hd. lia.
        * intros p w Hw'. rewrite Hno; auto. congruence.
        * intros k p x Hk Hx Hw'. rewrite Hno; auto. intros ->. rewrite Hv in Hw'. injection Hw' as <-. discriminate.
        * intros _ E. unfold q' in E; cbn [qtaken] in E. fold hd in E. lia.
        * intros e [= <-]. reflexivity.
    - split; [apply s_take; [exact Hv|exact Hun]|]. rewrite Hg. auto.
  Qed.

  Lemma good_take s es q hist g i h b c' p' oe :
    Inv s es (q :: hist) q g -> explains es (q :: hist) -> calm B es ->
    st_agents s i = QCas h b -> c_head (st_core s) = h ->
    cstep P pol (st_core s) i (QCas h b) false = (c', p', oe) ->
    Good (mkS c' (upd (st_agents s) i p')) (ocons oe es).
  Proof.
    intros HI HE HC Hpc Hh Hst.
    destruct (inv_take _ _ _ _ _ _ _ _ _ _ _ HI HC Hpc Hh Hst) as (q' & v & HI' & Hs & -> & _).
    exists q', (q :: hist), g. split; auto. econstructor; eauto.
    exists q. split; [apply since_call_head|exact I].
  Qed.

  (** *** The main step lemma *)
  Lemma step_good s es a s' oe :
    Good s es -> calm B es -> step s a = Some (s', oe) -> Good s' (ocons oe es).
  Proof.
    intros HG HC Hstep. pose proof HG as (q & hist & g & HI & HE).
    pose proof (inv_s _ _ _ _ _ _ _ HI) as HS.
    destruct a as [i o|i spur|i v|i|i|i pk]; cbn [CoreModel.step] in Hstep.
    - (* AInvoke *)
      destruct (st_agents s i) eqn:Hpc; try discriminate. injection Hstep as <- <-.
      now apply good_invoke.
    - (* AStep *)
      destruct (st_agents s i) eqn:Hpc; try discriminate; cbn [stepping] in Hstep;
        assert (HA := inv_a _ _ _ _ _ _ _ HI i); rewrite Hpc in HA; cbn [CoreInv.AInv] in HA;
        assert (Hnh := f_equal holder Hpc); cbn [holder] in Hnh.
      + (* PStart *)
        cbn [cstep] in Hstep.
        destruct (push_top P i (c_tail (st_core s))) as [p' e] eqn:Ht. injection Hstep as <- <-.
        eapply good_push_top; eauto.
      + (* PState *)
        pose proof HA as (Et & Hle & Hcnt & Hsaw & Hpend).
        cbn [cstep] in Hstep. rewrite Et, (idx_gen_enc _ _ Hwf), (i_len _ _ _ _ _ _ HS) in Hstep.
        assert (Hlt : (ifld (g i) <? N.of_nat cap)%N = true) by (apply N.ltb_lt, (ifield_lt W); auto).
        rewrite Hlt in Hstep.
        destruct (N.eqb_spec (s_state (c_slots (st_core s) (ifld (g i)))) (enc (g i))) as [Eq|Neq].
        * injection Hstep as <- <-. simpl. eapply good_silent with (g' := g); eauto.
          simpl. split; [now rewrite <- Et|]. intros Hg. rewrite Hg in Eq.
          eapply tail_slot_free; eauto.
        * destruct (N.eqb_spec (wrapping_add (p_mod P) (s_state (c_slots (st_core s) (ifld (g i)))) (p_gen P)) (enc (g i) + 1)).
          -- injection Hstep as <- <-. simpl. eapply good_silent with (g' := g); eauto. now rewrite <- Et.
          -- injection Hstep as <- <-. simpl. eapply good_silent with (g' := g); eauto.
      + (* PCas *)
        pose proof HA as [(Et & Hle & Hcnt & Hsaw & Hpend) _].
        cbn [cstep] in Hstep. destruct (idx_gen P tail) as [idx gen] eqn:Eig.
        destruct (N.eqb_spec (c_tail (st_core s)) tail) as [Eq|Neq].
        * destruct spur; cbn [andb negb] in Hstep.
          -- destruct (push_top P i (c_tail (st_core s))) as [p' e] eqn:Ht. injection Hstep as <- <-.
             eapply good_push_top; eauto.
          -- injection Hstep as <- <-. simpl.
             pose proof (good_reserve _ _ _ _ _ i tail HI HE HC Hpc Eq) as Hr.
             rewrite Eig in Hr. exact Hr.
        * cbn [andb] in Hstep.
          destruct (push_top P i (c_tail (st_core s))) as [p' e] eqn:Ht. injection Hstep as <- <-.
          eapply good_push_top; eauto.
      + (* PInit *)
        pose proof HA as (Et & Hn).
        pose proof (owned_slot _ _ _ _ _ _ _ HI Hn eq_refl) as Hsl. simpl in Hsl.
        destruct Hsl as (Hst & _ & _ & Hsl).
        cbn [cstep] in Hstep. rewrite Et, (idx_gen_enc _ _ Hwf) in Hstep.
        destruct (N.eqb_spec (gfield W cap (g i) * gword cap) 0) as [Hz|Hz].
        * apply (gfield_zero W cap) in Hz. injection Hstep as <- <-.
          assert (Hok : element_ok cap fresh_pos (new_element pol) (recycle pol) q (g i) (new_element pol))
            by (left; split; auto).
          eapply good_entry_update with (e := Reserved i) (e' := Filling i (new_element pol)); eauto.
          -- reflexivity.
          -- simpl. congruence.
          -- destruct s_value; reflexivity.
          -- destruct s_value; reflexivity.
          -- destruct s_value; reflexivity.
          -- intros q0. destruct s_value; exact I.
          -- simpl. rewrite upd_same. auto.
          -- simpl. split; auto. exists (new_element pol). apply nth_set_same. eapply nth_lt; eauto.
          -- destruct Hsl as [(Hlc & Hnone)|(Hge & old & Hold & Hv)].
             ++ rewrite Hnone. apply s_handout; auto.
             ++ rewrite Hv. apply s_overwrite; auto.
        * assert (Hnf : ~ fresh_pos (g i)) by (intros Hf; apply Hz; now apply (gfield_zero W cap)).
          destruct Hsl as [(Hlc & Hnone)|(Hge & old & Hold & Hv)].
          -- exfalso. apply Hnf. unfold CoreInv.fresh_pos. rewrite Nat.div_small by auto.
             apply N.mod_0_l. pose proof (ngen_ge2 _ _ Hwf). lia.
          -- rewrite Hv in Hstep. injection Hstep as <- <-.
             eapply good_entry_update with (e := Reserved i) (e' := Filling i (recycle pol old)); eauto.
             ++ reflexivity.
             ++ simpl. congruence.
             ++ intros q0. exact I.
             ++ simpl. rewrite upd_same. auto.
             ++ simpl. split; auto. exists (recycle pol old). apply nth_set_same. eapply nth_lt; eauto.
             ++ apply s_handout; auto. right. repeat split; eauto.
      + (* PHead *)
        pose proof HA as (Et & Hle & Hcnt & Hsaw & Hpend).
        cbn [cstep] in Hstep. rewrite (i_head _ _ _ _ _ _ HS), (wadd_gen _ _ Hwf) in Hstep.
        destruct (N.eqb_spec (enc (qtaken q + cap)) tail) as [Eq|Neq]; injection Hstep as <- <-; simpl.
        * rewrite Et in Eq. pose proof (i_order _ _ _ _ _ _ HS).
          destruct (calm_use _ _ HC Hpend) as [Hc1 _].
          pose proof (slack_span _ _ Hwf).
          assert (Hg : g i = qtaken q + cap).
          { eapply (enc_inj _ _ Hwf); [symmetry; exact Eq|lia|lia]. }
          eapply good_event with (g' := g); eauto; try constructor.
          destruct Hsaw as (q0 & Hin & H1 & H2 & H3 & H4). exists q0. split; auto.
          simpl. unfold qlen. split; [lia|auto].
        * eapply good_silent with (g' := g); eauto.
      + (* PReload *)
        cbn [cstep] in Hstep.
        destruct (push_top P i (c_tail (st_core s))) as [p' e] eqn:Ht. injection Hstep as <- <-.
        eapply good_push_top; eauto.
      + (* QStart *)
        cbn [cstep] in Hstep. injection Hstep as <- <-. simpl.
        eapply good_silent with (g' := updg g i (qtaken q)); eauto.
        * intros j Hj. now apply updg_other.
        * simpl. unfold pop_local. rewrite updg_same. repeat split; auto; try lia. apply HS.
      + (* QState *)
        pose proof HA as (Et & Hle & Hcnt & Hpend).
        cbn [cstep] in Hstep. rewrite Et, (idx_gen_enc _ _ Hwf), (i_len _ _ _ _ _ _ HS) in Hstep.
        assert (Hlt : (ifld (g i) <? N.of_nat cap)%N = true) by (apply N.ltb_lt, (ifield_lt W); auto).
        rewrite Hlt in Hstep.
        destruct (N.eqb_spec (s_state (c_slots (st_core s) (ifld (g i)))) (enc (g i) + 1)) as [Eq|Neq].
        * injection Hstep as <- <-. simpl. eapply good_silent with (g' := g); eauto.
          simpl. split; [now rewrite <- Et|]. intros Hg. rewrite Hg in Eq.
          eapply head_slot_ready; eauto.
        * destruct (N.eqb_spec (s_state (c_slots (st_core s) (ifld (g i)))) (enc (g i))) as [Eq2|Neq2].
          -- injection Hstep as <- <-. simpl. eapply good_silent with (g' := g); eauto.
             simpl. split; [now rewrite <- Et|]. exists q. split; [apply since_call_head|].
             destruct (calm_use _ _ HC Hpend) as [_ Hc1].
             destruct (head_slot_blocked _ _ Hwf _ _ _ _ HS (g i)) as [Hg0 Hnf]; auto; [lia|].
             pose proof (i_order _ _ _ _ _ _ HS). repeat split; auto; lia.
          -- injection Hstep as <- <-. simpl. eapply good_silent with (g' := g); eauto.
      + (* QCas *)
        pose proof HA as [(Et & Hle & Hcnt & Hpend) _].
        destruct (N.eqb_spec (c_head (st_core s)) head) as [Eq|Neq].
        * destruct spur.
          -- cbn [cstep] in Hstep. destruct (idx_gen P head) as [idx gen].
             rewrite andb_false_r in Hstep. injection Hstep as <- <-. simpl.
             eapply good_silent with (g' := updg g i (qtaken q)); eauto.
             ++ intros j Hj. now apply updg_other.
             ++ simpl. unfold pop_local. rewrite updg_same. repeat split; auto; try lia. apply HS.
          -- destruct (cstep P pol (st_core s) i (QCas head b) false) as [[c' p'] e] eqn:Hcs.
             injection Hstep as <- <-. eapply good_take; eauto.
        * cbn [cstep] in Hstep. destruct (idx_gen P head) as [idx gen].
          apply N.eqb_neq in Neq. rewrite Neq in Hstep. cbn [andb] in Hstep. injection Hstep as <- <-. simpl.
          eapply good_silent with (g' := updg g i (qtaken q)); eauto.
          -- intros j Hj. now apply updg_other.
          -- simpl. unfold pop_local. rewrite updg_same. repeat split; auto; try lia. apply HS.
      + (* QTail *)
        pose proof HA as [(Et & Hle & Hcnt & Hpend) Hseen].
        cbn [cstep] in Hstep. rewrite (i_tail _ _ _ _ _ _ HS), (unclosed_word _ _ Hwf), (closed_test _ _ Hwf) in Hstep.
        destruct (N.eqb_spec (enc (length (qlog q))) head) as [Eq|Neq].
        * injection Hstep as <- <-. simpl. rewrite Et in Eq.
          pose proof (i_order _ _ _ _ _ _ HS). destruct (calm_use _ _ HC Hpend) as [_ Hc1].
          pose proof (slack_span _ _ Hwf).
          assert (Hg : g i = length (qlog q)).
          { eapply (enc_inj _ _ Hwf); [symmetry; exact Eq|lia|lia]. }
          destruct (qclosed q) eqn:Ec.
          -- eapply good_event with (g' := g); eauto; try constructor.
             exists q. split; [apply since_call_head|]. simpl. unfold qlen. split; [auto|lia].
          -- eapply good_event with (g' := g); eauto; try constructor.
             exists q. split; [apply since_call_head|]. simpl. split; [|now left].
             intros [v Hv]. apply nth_lt in Hv. lia.
        * destruct (done_spinning b).
          -- injection Hstep as <- <-. simpl.
             eapply good_event with (g' := g); eauto; try constructor.
             destruct Hseen as (q0 & Hin & Hnf & Hq0 & Hl0). exists q0. split; auto. simpl. split; auto.
             destruct (qclosed q0) eqn:Ec0; [right|now left].
             destruct (explains_closed_log _ _ _ HE _ (since_call_incl _ _ _ _ Hin) Ec0) as [_ Hlen].
             unfold qlen. destruct (Nat.eq_dec (length (qlog q0)) (g i)) as [El|]; [|lia].
             exfalso. apply Neq. rewrite Et, Hlen. congruence.
          -- injection Hstep as <- <-. simpl. eapply good_silent with (g' := g); eauto.
      + (* QReload *)
        cbn [cstep] in Hstep. injection Hstep as <- <-. simpl.
        eapply good_silent with (g' := updg g i (qtaken q)); eauto.
        * intros j Hj. now apply updg_other.
        * simpl. unfold pop_local. rewrite updg_same. repeat split; auto; try lia. apply HS.
      + (* LTail *)
        cbn [cstep] in Hstep. injection Hstep as <- <-. simpl.
        eapply good_silent with (g' := updg g i (length (qlog q))); eauto.
        * intros j Hj. now apply updg_other.
        * simpl. exists (qclosed q). unfold len_local. rewrite updg_same. repeat split; auto; try lia. apply HS.
      + (* LHead *)
        destruct HA as [b HA]. pose proof HA as (Et & Hle & Hcnt & Hb & Hpend).
        cbn [cstep] in Hstep. injection Hstep as <- <-. simpl.
        eapply good_silent with (g' := g); eauto.
        simpl. exists b. split; auto. exists q. pose proof (i_order _ _ _ _ _ _ HS).
        repeat split; auto; try lia; [apply since_call_head|apply HS].
      + (* LCheck *)
        destruct HA as [b [HA (q0 & Hin & Eh & Hl1 & Hl2 & Hbc)]]. pose proof HA as (Et & Hle & Hcnt & Hb & Hpend).
        cbn [cstep] in Hstep. rewrite (i_tail _ _ _ _ _ _ HS) in Hstep.
        destruct (N.eqb_spec (word (qclosed q) (length (qlog q))) tail) as [Eq|Neq].
        * injection Hstep as <- <-. simpl. rewrite Et in Eq.
          apply (word_inj _ _ Hwf) in Eq as (Eb & Ei & Eg).
          destruct (calm_use _ _ HC Hpend) as [Hc1 _]. pose proof (slack_span _ _ Hwf).
          assert (Hg : g i = length (qlog q)).
          { eapply (fields_inj _ _ Hwf); [symmetry; exact Ei|symmetry; exact Eg|lia|lia]. }
          assert (Hl0 : length (qlog q0) = g i) by lia.
          eapply good_event with (g' := g); eauto; try constructor.
          exists q0. split; auto. simpl. destruct b; [left; auto|right].
          unfold qlen. rewrite Hl0, Et, Eh. unfold len_of.
          change (CoreArith.word W cap false (g i)) with (enc (g i)).
          rewrite !(idx_gen_enc _ _ Hwf). cbn [fst].
          assert (Hc := cap_pos _ _ Hwf).
          assert (Hr : g i - qtaken q0 <= cap) by lia.
          set (x := g i) in *. set (y := qtaken q0) in *.
          assert (Hyx : y <= x) by lia.
          pose proof (ifield_lt W cap Hwf x) as Hx1. pose proof (ifield_lt W cap Hwf y) as Hy1.
          unfold ifield in *.
          assert (Dx := Nat.div_mod x cap ltac:(lia)). assert (Dy := Nat.div_mod y cap ltac:(lia)).
          destruct (N.compare_spec (N.of_nat (y mod cap)) (N.of_nat (x mod cap))) as [Hc3|Hc3|Hc3].
          -- assert (Hmm : y mod cap = x mod cap) by lia.
             assert (Hdd : x / cap = y / cap \/ x / cap = S (y / cap)) by nia.
             destruct (N.eqb_spec (enc x) (enc y)) as [Exy|Nxy].
             ++ symmetry in Exy. apply (enc_inj _ _ Hwf) in Exy; [lia|lia|]. unfold span. pose proof (ngen_ge2 _ _ Hwf). nia.
             ++ rewrite P_capacity by auto. destruct Hdd as [Hdd|Hdd]; [|nia].
                exfalso. apply Nxy. assert (x = y) by nia. congruence.
          -- assert (Hdd : x / cap = y / cap) by nia. nia.
          -- rewrite P_capacity by auto. assert (Hdd : x / cap = S (y / cap)) by nia. nia.
        * injection Hstep as <- <-. simpl. eapply good_silent with (g' := g); eauto.
    - (* AWrite *)
      destruct (st_agents s i) as [] eqn:Hpc; try discriminate; injection Hstep as <- <-;
        assert (HA := inv_a _ _ _ _ _ _ _ HI i); rewrite Hpc in HA; simpl in HA; destruct HA as [-> [u Hn]];
        pose proof (owned_slot _ _ _ _ _ _ _ HI Hn eq_refl) as Hsl; simpl in Hsl;
        destruct Hsl as (E1 & _ & E2 & E3);
        apply (Good_ext _ (upd (st_agents s) i (st_agents s i)));
        try (intros j; unfold upd; destruct (Nat.eqb_spec j i); congruence); rewrite Hpc.
      + eapply good_entry_update with (e := Filling i u) (e' := Filling i v); eauto.
        * reflexivity.
        * simpl. congruence.
        * intros q0. exact I.
        * simpl. rewrite upd_same. auto.
        * simpl. split; auto. exists v. apply nth_set_same. eapply nth_lt; eauto.
        * eapply s_wrote_push; eauto.
      + eapply good_entry_update with (e := Held i u) (e' := Held i v); eauto.
        * reflexivity.
        * simpl. congruence.
        * intros q0. exact I.
        * simpl. rewrite upd_same. auto.
        * simpl. split; auto. exists v. apply nth_set_same. eapply nth_lt; eauto.
        * eapply s_wrote_pop; eauto.
    - (* ADrop *)
      destruct (st_agents s i) as [] eqn:Hpc; try discriminate; injection Hstep as <- <-;
        assert (HA := inv_a _ _ _ _ _ _ _ HI i); rewrite Hpc in HA; simpl in HA; destruct HA as [-> [u Hn]];
        pose proof (owned_slot _ _ _ _ _ _ _ HI Hn eq_refl) as Hsl; simpl in Hsl;
        destruct Hsl as (E1 & _ & E2 & E3);
        cbn [r_idx r_new]; rewrite E3; unfold ref_drop, set_state; cbn [r_idx r_new]; rewrite E3.
      + eapply good_entry_update with (e := Filling i u) (e' := Published u); eauto.
        * simpl. tauto.
        * discriminate.
        * intros q0. exact I.
        * simpl. auto.
        * exact I.
        * eapply s_commit; eauto.
      + eapply good_entry_update with (e := Held i u) (e' := Released u); eauto.
        * simpl. tauto.
        * discriminate.
        * intros q0. exact I.
        * simpl. auto.
        * exact I.
        * eapply s_release; eauto.
    - (* APanic *)
      destruct (st_agents s i) as [] eqn:Hpc; try discriminate; injection Hstep as <- <-; simpl.
      assert (HA := inv_a _ _ _ _ _ _ _ HI i). rewrite Hpc in HA. simpl in HA. destruct HA as [Et Hn].
      exists q, (q :: hist), g. split; [constructor; simpl|].
      + constructor; try apply HS. intros p e He Hwin.
        assert (Hs := i_slot _ _ _ _ _ _ HS _ _ He Hwin).
        destruct e as [j|j v|v|j v|v]; simpl in *; auto.
        * destruct (Nat.eq_dec j i) as [->|Hj].
          -- rewrite upd_same. destruct Hs as (E1 & E2 & E3 & E4).
             repeat split; auto. right. congruence.
          -- rewrite upd_other by auto. auto.
        * destruct Hs as (E1 & E2 & E3 & E4). assert (j <> i) by congruence.
          rewrite upd_other by auto. auto.
        * destruct Hs as (E1 & E2 & E3 & E4). assert (j <> i) by congruence.
          rewrite upd_other by auto. auto.
      + intros j. destruct (Nat.eq_dec j i) as [->|Hj].
        * rewrite upd_same. simpl. auto.
        * rewrite upd_other by auto.
          refine (AInv_stable W cap i j (Some (Poison i)) es (q :: hist) q q g g _ _ Hj eq_refl
                  (inv_a _ _ _ _ _ _ _ HI j)).
          apply evolves_refl; auto. intros e [= <-]. reflexivity.
      + econstructor; eauto; [econstructor; eauto|]. exists q. split; [apply since_call_head|exact I].
    - (* AClose *)
      destruct (st_agents s i) as [] eqn:Hpc; try discriminate.
      unfold core_close in Hstep. destruct pk.
      + injection Hstep as <- <-. simpl. exists q, (q :: hist), g. split; [constructor; simpl|].
        * apply HS.
        * intros j. destruct (Nat.eq_dec j i) as [->|Hj]; [now rewrite Hpc|].
          refine (AInv_stable W cap i j (Some (Closing i false)) es (q :: hist) q q g g _ _ Hj eq_refl
                  (inv_a _ _ _ _ _ _ _ HI j)).
          apply evolves_refl; auto. intros e [= <-]. reflexivity.
        * econstructor; eauto; [apply s_not_closing|]. exists q. split; [apply since_call_head|exact I].
      + rewrite (i_tail _ _ _ _ _ _ HS), (set_closed_word _ _ Hwf), (closed_eqb _ _ Hwf) in Hstep.
        injection Hstep as <- <-. simpl.
        set (q' := mkQ (qlog q) (qtaken q) true).
        exists q', (q :: hist), g. split; [constructor; simpl|].
        * constructor; try apply HS. reflexivity.
        * intros j. destruct (Nat.eq_dec j i) as [->|Hj]; [now rewrite Hpc|].
          refine (AInv_stable W cap i j (Some (Closing i (negb (qclosed q)))) es (q :: hist) q q' g g _ _ Hj eq_refl
                  (inv_a _ _ _ _ _ _ _ HI j)).
          constructor; simpl; auto; try congruence; try lia. intros e [= <-]. reflexivity.
        * econstructor; eauto; [apply s_closing|]. exists q. split; [apply since_call_head|exact I].
  Qed.

  Lemma run_good es s : run P pol es s -> calm B es -> Good s es.
  Proof.
    induction 1 as [|es s a s' e Hr IH Hs]; intros HC.
    - exists empty_queue, [], (fun _ => 0). split; [apply Inv_init; auto|constructor].
    - pose proof (calm_tail _ _ HC). eapply step_good; eauto.
  Qed.
End Steps.
