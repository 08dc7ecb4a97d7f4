(** Behaviour of a call that runs without interference. *)
From Coq Require Import List Bool Arith NArith Lia.
From Coq Require Import ZifyN ZifyNat ZifyBool.
From Verif Require Import Word QueueSpec CoreModel CoreArith CoreInv CoreStep SeqModel SoloSpec.
Import ListNotations.

Section Solo.
  Context {T : Type}.
  Variables (W : N) (cap : nat) (pol : policy T).
  Hypothesis Hwf : wf W cap.
  Notation P := (core_new W (N.of_nat cap)).
  Notation enc := (enc W cap).
  Notation word := (word W cap).
  Notation ifld := (ifield cap).
  Notation cstep := (cstep P pol).
  Notation step := (step P pol).
  Notation SInv := (SInv (T := T) W cap).

  (** ** One step at a time, in a state satisfying the invariant *)
  Section OneStep.
    Variables (c : core T) (ag : agent -> pc) (q : queue T) (g : ghost).
    Hypothesis HS : SInv c ag q g.
    Notation n := (length (qlog q)).
    Notation h := (qtaken q).

    Lemma solo_top i : push_top (T := T) P i (c_tail c) =
      if qclosed q then (Idle, Some (RetPushClosed i)) else (PState (enc n), None).
    Proof.
      unfold push_top. rewrite (i_tail _ _ _ _ _ _ HS), (closed_test _ _ Hwf).
      destruct (qclosed q); reflexivity.
    Qed.

    Lemma in_len_ok p : (ifld p <? c_len c)%N = true.
    Proof. rewrite (i_len _ _ _ _ _ _ HS). apply N.ltb_lt. apply (ifield_lt W cap Hwf). Qed.

    Lemma ifld_sub : cap <= n -> ifld (n - cap) = ifld n.
    Proof. intros H. rewrite <- (ifield_add_cap W cap Hwf). f_equal. lia. Qed.

    (** The slot at the tail position. *)
    Lemma tail_free : n < cap \/ (exists v, nth_error (qlog q) (n - cap) = Some (Released v)) ->
      s_state (c_slots c (ifld n)) = enc n.
    Proof.
      intros H. destruct (Nat.lt_ge_cases n cap) as [Hn|Hn].
      - rewrite (i_slot0 _ _ _ _ _ _ HS) by lia. reflexivity.
      - destruct H as [H|[v H]]; [lia|].
        assert (Hs := i_slot _ _ _ _ _ _ HS _ _ H ltac:(lia)). simpl in Hs.
        rewrite ifld_sub in Hs by auto. replace (n - cap + cap) with n in Hs by lia. apply Hs.
    Qed.

    Lemma solo_state_free i : n < cap \/ (exists v, nth_error (qlog q) (n - cap) = Some (Released v)) ->
      cstep c i (PState (enc n)) false = (c, PCas (enc n), None).
    Proof.
      intros H. cbn [CoreModel.cstep]. rewrite (idx_gen_enc _ _ Hwf), in_len_ok, (tail_free H), N.eqb_refl. reflexivity.
    Qed.

    Lemma tail_taken e : cap <= n -> nth_error (qlog q) (n - cap) = Some e -> (forall v, e <> Released v) ->
      s_state (c_slots c (ifld n)) =
        match e with Reserved _ | Filling _ _ => enc (n - cap) | _ => enc (n - cap) + 1 end%N.
    Proof.
      intros Hn He Hr. assert (Hs := i_slot _ _ _ _ _ _ HS _ _ He ltac:(lia)).
      rewrite ifld_sub in Hs by auto. destruct e; simpl in Hs; try apply Hs. now destruct (Hr v).
    Qed.

    Lemma solo_state_taken i e : cap <= n -> nth_error (qlog q) (n - cap) = Some e -> (forall v, e <> Released v) ->
      cstep c i (PState (enc n)) false =
        (c, match e with Reserved _ | Filling _ _ => PReload | _ => PHead (enc n) end, None).
    Proof.
      intros Hn He Hr. cbn [CoreModel.cstep]. rewrite (idx_gen_enc _ _ Hwf), in_len_ok.
      rewrite (tail_taken e Hn He Hr). assert (En : n - cap + cap = n) by lia.
      destruct e as [j|j v|v|j v|v]; try (now destruct (Hr v)).
      - replace (enc (n - cap) =? enc n)%N with false.
        2:{ symmetry. apply N.eqb_neq. intros E. apply (enc_neq_cap W cap Hwf (n - cap)). now rewrite En. }
        rewrite (wadd_gen _ _ Hwf), En. replace (enc n =? enc n + 1)%N with false; [reflexivity|].
        symmetry. apply N.eqb_neq. lia.
      - replace (enc (n - cap) =? enc n)%N with false.
        2:{ symmetry. apply N.eqb_neq. intros E. apply (enc_neq_cap W cap Hwf (n - cap)). now rewrite En. }
        rewrite (wadd_gen _ _ Hwf), En. replace (enc n =? enc n + 1)%N with false; [reflexivity|].
        symmetry. apply N.eqb_neq. lia.
      - replace (enc (n - cap) + 1 =? enc n)%N with false.
        2:{ symmetry. apply N.eqb_neq. apply (enc_S_neq W cap Hwf). apply ifld_sub. auto. }
        rewrite (wadd_gen1 _ _ Hwf), En, N.eqb_refl. reflexivity.
      - replace (enc (n - cap) + 1 =? enc n)%N with false.
        2:{ symmetry. apply N.eqb_neq. apply (enc_S_neq W cap Hwf). apply ifld_sub. auto. }
        rewrite (wadd_gen1 _ _ Hwf), En, N.eqb_refl. reflexivity.
    Qed.

    Lemma solo_head i : cstep c i (PHead (enc n)) false =
      if Nat.eqb n (h + cap) then (c, Idle, Some (RetFull i)) else (c, PReload, None).
    Proof.
      cbn [CoreModel.cstep]. rewrite (i_head _ _ _ _ _ _ HS), (wadd_gen _ _ Hwf).
      pose proof (i_order _ _ _ _ _ _ HS) as Ho. pose proof (slack_span _ _ Hwf).
      pose proof (ngen_ge2 _ _ Hwf). pose proof (cap_pos _ _ Hwf).
      destruct (Nat.eqb_spec n (h + cap)) as [->|Hne].
      - now rewrite N.eqb_refl.
      - replace (enc (h + cap) =? enc n)%N with false; auto. symmetry. apply N.eqb_neq. intros E. symmetry in E.
        apply (enc_inj _ _ Hwf) in E; try lia. unfold slack, span in *. nia.
    Qed.

    (** An initialising push does not crash. *)
    Lemma solo_init i : nth_error (qlog q) (g i) = Some (Reserved i) ->
      exists c' r e, cstep c i (PInit (enc (g i))) false = (c', PHold r, Some e) /\
        (exists v, e = HandOut i v \/ exists l, e = Overwrite i l v).
    Proof.
      intros Hn. assert (L : n <= g i + cap).
      { eapply live_in_window; eauto. discriminate. }
      assert (Hs := i_slot _ _ _ _ _ _ HS _ _ Hn L). simpl in Hs. destruct Hs as (E1 & E2 & E3 & E4).
      cbn [CoreModel.cstep]. rewrite (idx_gen_enc _ _ Hwf).
      destruct (gfield W cap (g i) * gword cap =? 0)%N eqn:Eg.
      - destruct (s_value (c_slots c (ifld (g i)))) as [l|]; do 3 eexists; split; try reflexivity; eauto.
      - destruct E4 as [[E4 E5]|(E4 & old & E5 & E6)].
        + exfalso. apply N.eqb_neq in Eg. apply Eg. apply (gfield_zero W cap).
          rewrite Nat.div_small by auto. reflexivity.
        + rewrite E6. do 3 eexists; split; try reflexivity; eauto.
    Qed.

    (** The slot at the head position. *)
    Lemma head_empty : h = n -> n < cap \/ (exists v, nth_error (qlog q) (n - cap) = Some (Released v)) ->
      s_state (c_slots c (ifld h)) = enc h.
    Proof. intros ->. apply tail_free. Qed.

    Lemma head_entry e : nth_error (qlog q) h = Some e ->
      (exists i, e = Reserved i) \/ (exists i v, e = Filling i v) \/ (exists v, e = Published v).
    Proof.
      intros He. assert (Hd := i_done _ _ _ _ _ _ HS _ _ He).
      destruct e; simpl in Hd; eauto; exfalso; lia.
    Qed.

    Lemma solo_pop_ready i v b : nth_error (qlog q) h = Some (Published v) ->
      cstep c i (QState (enc h) b) false = (c, QCas (enc h) b, None).
    Proof.
      intros Hv. pose proof (i_order _ _ _ _ _ _ HS) as Ho.
      pose proof (nth_lt _ _ _ Hv).
      assert (Hs := i_slot _ _ _ _ _ _ HS _ _ Hv ltac:(lia)). simpl in Hs.
      cbn [CoreModel.cstep]. rewrite (idx_gen_enc _ _ Hwf), in_len_ok. destruct Hs as [-> _].
      now rewrite N.eqb_refl.
    Qed.

    Lemma solo_pop_take i v b : nth_error (qlog q) h = Some (Published v) ->
      cstep c i (QCas (enc h) b) false =
        (set_head c (enc (S h)), QHold (mkRef (ifld h) (enc (h + cap))), Some (Take i v)).
    Proof.
      intros Hv. pose proof (i_order _ _ _ _ _ _ HS) as Ho. pose proof (nth_lt _ _ _ Hv).
      assert (Hs := i_slot _ _ _ _ _ _ HS _ _ Hv ltac:(lia)). simpl in Hs. destruct Hs as [_ Hv2].
      cbn [CoreModel.cstep]. rewrite (i_head _ _ _ _ _ _ HS), N.eqb_refl, (idx_gen_enc _ _ Hwf), (next_enc _ _ Hwf),
        (wadd_gen _ _ Hwf), Hv2. reflexivity.
    Qed.

    Lemma solo_pop_wait i b : s_state (c_slots c (ifld h)) = enc h ->
      cstep c i (QState (enc h) b) false = (c, QTail (enc h) b, None).
    Proof.
      intros E. cbn [CoreModel.cstep]. rewrite (idx_gen_enc _ _ Hwf), in_len_ok, E.
      replace (enc h =? enc h + 1)%N with false by (symmetry; apply N.eqb_neq; lia).
      now rewrite N.eqb_refl.
    Qed.

    Lemma solo_pop_held i b p j v : p + cap = h -> nth_error (qlog q) p = Some (Held j v) -> n = h ->
      cstep c i (QState (enc h) b) false = (c, QReload (backoff_spin_yield b), None).
    Proof.
      intros Ep Hp En.
      assert (Hs := i_slot _ _ _ _ _ _ HS _ _ Hp ltac:(lia)). simpl in Hs. destruct Hs as (Hs & _).
      assert (Ei : ifld p = ifld h) by (rewrite <- Ep; symmetry; apply (ifield_add_cap W cap Hwf)).
      rewrite Ei in Hs. cbn [CoreModel.cstep]. rewrite (idx_gen_enc _ _ Hwf), in_len_ok, Hs.
      replace (enc p + 1 =? enc h + 1)%N with false.
      2:{ symmetry. apply N.eqb_neq. intros E. apply (enc_neq_cap W cap Hwf p). rewrite Ep. lia. }
      replace (enc p + 1 =? enc h)%N with false; auto.
      symmetry. apply N.eqb_neq. now apply (enc_S_neq W cap Hwf).
    Qed.

    Lemma solo_pop_tail i b : cstep c i (QTail (enc h) b) false =
      if Nat.eqb n h then (c, Idle, Some (if qclosed q then RetPopClosed i else RetEmpty i))
      else if done_spinning b then (c, Idle, Some (RetEmpty i))
      else (c, QReload (backoff_spin b), None).
    Proof.
      cbn [CoreModel.cstep]. rewrite (i_tail _ _ _ _ _ _ HS), (unclosed_word _ _ Hwf), (closed_test _ _ Hwf).
      pose proof (i_order _ _ _ _ _ _ HS) as Ho. pose proof (slack_span _ _ Hwf).
      pose proof (ngen_ge2 _ _ Hwf). pose proof (cap_pos _ _ Hwf).
      destruct (Nat.eqb_spec n h) as [->|Hne].
      - now rewrite N.eqb_refl.
      - replace (enc n =? enc h)%N with false; auto. symmetry. apply N.eqb_neq. intros E. symmetry in E.
        apply (enc_inj _ _ Hwf) in E; try lia. unfold slack, span in *. nia.
    Qed.
  End OneStep.

  (** ** Whole calls *)
  Notation call := (call P pol).

  Lemma call_step k s es i c' p' e : stepping (st_agents s i) = true ->
    cstep (st_core s) i (st_agents s i) false = (c', p', e) ->
    call (S k) s es i = call k (mkS c' (upd (st_agents s) i p')) (ocons e es) i.
  Proof. intros H1 H2. cbn [SeqModel.call]. rewrite H1. cbn [CoreModel.step]. rewrite H1, H2. reflexivity. Qed.

  Lemma call_done k s es i : stepping (st_agents s i) = false -> call k s es i = Some (s, es).
  Proof. intros H. destruct k; cbn [SeqModel.call]; now rewrite H. Qed.

  Lemma call_mono k k' s es i r : k <= k' -> call k s es i = Some r -> call k' s es i = Some r.
  Proof.
    revert k' s es. induction k as [|k IH]; intros k' s es Hk H.
    - cbn [SeqModel.call] in H. destruct (stepping (st_agents s i)) eqn:E; [discriminate|].
      rewrite call_done by auto. exact H.
    - destruct (stepping (st_agents s i)) eqn:E.
      + destruct k' as [|k']; [lia|]. cbn [SeqModel.call] in *. rewrite E in *.
        destruct (step s (AStep i false)) as [[s' e]|]; [|discriminate]. apply IH; [lia|auto].
      + rewrite call_done by auto. rewrite call_done in H by auto. exact H.
  Qed.

  Lemma call_run k s es i s' es' : run P pol es s -> call k s es i = Some (s', es') -> run P pol es' s'.
  Proof.
    revert s es. induction k as [|k IH]; intros s es Hr H; cbn [SeqModel.call] in H.
    - destruct (stepping (st_agents s i)); [discriminate|]. now injection H as <- <-.
    - destruct (stepping (st_agents s i)); [|now injection H as <- <-].
      destruct (step s (AStep i false)) as [[s1 e]|] eqn:E; [|discriminate].
      eapply IH; [|exact H]. econstructor; eauto.
  Qed.

  Lemma SInv_upd c ag q g i p' : SInv c ag q g -> holder (ag i) = false -> SInv c (upd ag i p') q g.
  Proof.
    intros HS Hh. eapply SInv_agents; eauto. intros j Hj.
    assert (j <> i) by congruence. rewrite upd_other by auto. auto.
  Qed.

  (** What the slot at the tail position contains. *)
  Definition leftover (q : queue T) (p : nat) : option T :=
    if p <? cap then None
    else match nth_error (qlog q) (p - cap) with Some (Released v) => Some v | _ => None end.

  Definition free_at (q : queue T) (p : nat) : Prop :=
    p < cap \/ exists v, nth_error (qlog q) (p - cap) = Some (Released v).

  (** The event of a successful push at position [p]. *)
  Definition handout_event (q : queue T) (i : agent) (p : nat) : event T :=
    match leftover q p with
    | None => HandOut i (new_element pol)
    | Some old => if (gfield W cap p =? 0)%N then Overwrite i old (new_element pol)
                  else HandOut i (recycle pol old)
    end.

  Definition others_same (s s' : @state T) (i : agent) : Prop :=
    forall j, j <> i -> st_agents s' j = st_agents s j.

  Lemma init_after_cas c ag q g i x : SInv c ag q g -> free_at q (length (qlog q)) ->
    let n := length (qlog q) in
    exists c', cstep (set_tail c x) i (PInit (enc n)) false =
      (c', PHold (mkRef (ifld n) (enc n + 1)), Some (handout_event q i n)).
  Proof.
    intros HS Hf n. cbn [CoreModel.cstep]. rewrite (idx_gen_enc _ _ Hwf).
    change (c_slots (set_tail c x) (ifld n)) with (c_slots c (ifld n)).
    unfold handout_event, leftover.
    destruct (Nat.ltb_spec n cap) as [Hn|Hn].
    - assert (E0 : (gfield W cap n * gword cap)%N = 0%N).
      { apply (gfield_zero W cap). rewrite Nat.div_small by auto. reflexivity. }
      rewrite E0, N.eqb_refl. rewrite (i_slot0 _ _ _ _ _ _ HS) by (fold n; lia). simpl. eauto.
    - destruct Hf as [Hf|[v Hf]]; [fold n in Hf; lia|]. fold n in Hf.
      assert (Hs := i_slot _ _ _ _ _ _ HS _ _ Hf ltac:(fold n; lia)). simpl in Hs.
      assert (Ei : ifld (n - cap) = ifld n) by (apply (ifld_sub q); auto).
      rewrite Ei in Hs. destruct Hs as [_ Hs]. rewrite Hs, Hf.
      destruct (gfield W cap n =? 0)%N eqn:Eg.
      + apply N.eqb_eq in Eg. rewrite Eg. simpl. eauto.
      + apply N.eqb_neq in Eg. replace (gfield W cap n * gword cap =? 0)%N with false; [eauto|].
        symmetry. apply N.eqb_neq. pose proof (G_eq cap). pose proof (K_pos cap). nia.
  Qed.

  Lemma upd_upd_other ag i a b j : j <> i -> upd (upd ag i a) i b j = ag j.
  Proof. intros H. now rewrite !upd_other. Qed.

  Lemma push_top_step s q g i :
    SInv (st_core s) (st_agents s) q g ->
    st_agents s i = PStart \/ st_agents s i = PReload ->
    cstep (st_core s) i (st_agents s i) false =
      (st_core s, (if qclosed q then Idle else PState (enc (length (qlog q)))),
       if qclosed q then Some (RetPushClosed i) else None).
  Proof.
    intros HS Hpc. assert (E := solo_top _ _ _ _ HS i). destruct Hpc as [-> | ->]; cbn [CoreModel.cstep];
      rewrite E; destruct (qclosed q); reflexivity.
  Qed.

  (** A push that has just read the tail, alone. *)
  Lemma push_free s es q g i : let n := length (qlog q) in
    SInv (st_core s) (st_agents s) q g -> st_agents s i = PState (enc n) -> qclosed q = false ->
    free_at q n ->
    exists s', others_same s s' i /\ st_agents s' i = PHold (mkRef (ifld n) (enc n + 1)) /\
      call 3 s es i = Some (s', handout_event q i n :: Reserve i :: es).
  Proof.
    intros n HS A1 Hcl Hf.
    assert (St1 := solo_state_free (st_core s) (st_agents s) q g HS i Hf). fold n in St1. rewrite <- A1 in St1 at 1.
    set (s2 := mkS (st_core s) (upd (st_agents s) i (PCas (enc n)))).
    assert (A2 : st_agents s2 i = PCas (enc n)) by (simpl; apply upd_same).
    assert (St2 : cstep (st_core s2) i (st_agents s2 i) false =
      (set_tail (st_core s) (enc (S n)), PInit (enc n), Some (Reserve i))).
    { rewrite A2. cbn [CoreModel.cstep st_core s2]. rewrite (i_tail _ _ _ _ _ _ HS), Hcl. fold n.
      change (word false n) with (enc n).
      rewrite N.eqb_refl, (idx_gen_enc _ _ Hwf), (next_enc _ _ Hwf). reflexivity. }
    set (s3 := mkS (set_tail (st_core s) (enc (S n))) (upd (st_agents s2) i (PInit (enc n)))).
    assert (A3 : st_agents s3 i = PInit (enc n)) by (simpl; apply upd_same).
    destruct (init_after_cas _ _ _ _ i (enc (S n)) HS Hf) as [c' St3]. fold n in St3.
    assert (St3' : cstep (st_core s3) i (st_agents s3 i) false =
       (c', PHold (mkRef (ifld n) (enc n + 1)), Some (handout_event q i n))) by (rewrite A3; exact St3).
    exists (mkS c' (upd (st_agents s3) i (PHold (mkRef (ifld n) (enc n + 1))))).
    split; [|split].
    - intros j Hj. simpl. rewrite !upd_other by auto. reflexivity.
    - simpl. apply upd_same.
    - rewrite (call_step _ _ _ _ _ _ _ ltac:(rewrite A1; reflexivity) St1). fold s2.
      rewrite (call_step _ _ _ _ _ _ _ ltac:(rewrite A2; reflexivity) St2). fold s3.
      rewrite (call_step _ _ _ _ _ _ _ ltac:(rewrite A3; reflexivity) St3').
      rewrite call_done; [reflexivity|]. simpl. now rewrite upd_same.
  Qed.

  Lemma push_full s es q g i v : let n := length (qlog q) in
    SInv (st_core s) (st_agents s) q g -> st_agents s i = PState (enc n) -> cap <= n ->
    nth_error (qlog q) (n - cap) = Some (Published v) ->
    n = qtaken q + cap /\
    exists s', others_same s s' i /\ st_agents s' i = Idle /\ st_core s' = st_core s /\
      call 3 s es i = Some (s', RetFull i :: es).
  Proof.
    intros n HS A1 Hnc Hpub. pose proof (i_order _ _ _ _ _ _ HS) as Ho. fold n in Ho.
    assert (Hd := i_done _ _ _ _ _ _ HS _ _ Hpub). simpl in Hd.
    assert (Efull : n = qtaken q + cap) by lia. split; auto.
    assert (St1 := solo_state_taken (st_core s) (st_agents s) q g HS i _ Hnc Hpub ltac:(discriminate)).
    fold n in St1. rewrite <- A1 in St1 at 1. cbn iota in St1.
    set (s2 := mkS (st_core s) (upd (st_agents s) i (PHead (enc n)))).
    assert (A2 : st_agents s2 i = PHead (enc n)) by (simpl; apply upd_same).
    assert (St2 := solo_head (st_core s) (st_agents s) q g HS i). fold n in St2.
    rewrite (proj2 (Nat.eqb_eq _ _) Efull) in St2.
    assert (St2' : cstep (st_core s2) i (st_agents s2 i) false = (st_core s, Idle, Some (RetFull i)))
      by (rewrite A2; exact St2).
    exists (mkS (st_core s) (upd (st_agents s2) i Idle)). split; [|split; [|split]].
    - intros j Hj. simpl. rewrite !upd_other by auto. reflexivity.
    - simpl. apply upd_same.
    - reflexivity.
    - rewrite (call_step _ _ _ _ _ _ _ ltac:(rewrite A1; reflexivity) St1). fold s2.
      rewrite (call_step _ _ _ _ _ _ _ ltac:(rewrite A2; reflexivity) St2').
      rewrite call_done; [reflexivity|]. simpl. now rewrite upd_same.
  Qed.

  Definition unblocked_push (q : queue T) : Prop :=
    let n := length (qlog q) in
    free_at q n \/ (cap <= n /\ exists v, nth_error (qlog q) (n - cap) = Some (Published v)).

  Definition push_result (q : queue T) (i : agent) (s' : @state T) (es es' : list (event T)) : Prop :=
    let n := length (qlog q) in
    (qclosed q = true /\ st_agents s' i = Idle /\ es' = RetPushClosed i :: es) \/
    (qclosed q = false /\ free_at q n /\ st_agents s' i = PHold (mkRef (ifld n) (enc n + 1)) /\
       es' = handout_event q i n :: Reserve i :: es) \/
    (qclosed q = false /\ n = qtaken q + cap /\ st_agents s' i = Idle /\ es' = RetFull i :: es).

  (** A push starting afresh, alone, with nobody on the tail slot. *)
  Lemma push_fresh s es q g i :
    SInv (st_core s) (st_agents s) q g ->
    st_agents s i = PStart \/ st_agents s i = PReload -> unblocked_push q ->
    exists s' es', call 4 s es i = Some (s', es') /\ others_same s s' i /\ push_result q i s' es es'.
  Proof.
    intros HS Hpc Hfree. unfold push_result. set (n := length (qlog q)) in *.
    assert (Hstp : stepping (st_agents s i) = true) by (destruct Hpc as [-> | ->]; reflexivity).
    assert (Hnh : holder (st_agents s i) = false) by (destruct Hpc as [-> | ->]; reflexivity).
    assert (Htop := push_top_step _ _ _ _ HS Hpc). fold n in Htop.
    destruct (qclosed q) eqn:Ecl.
    { eexists _, _. split; [rewrite (call_step _ _ _ _ _ _ _ Hstp Htop), call_done; [reflexivity|]|split].
      - simpl. now rewrite upd_same.
      - intros j Hj. simpl. now apply upd_other.
      - left. split; auto. split; auto. simpl. apply upd_same. }
    set (s1 := mkS (st_core s) (upd (st_agents s) i (PState (enc n)))).
    assert (A1 : st_agents s1 i = PState (enc n)) by (simpl; apply upd_same).
    assert (HS1 : SInv (st_core s1) (st_agents s1) q g) by (apply SInv_upd; auto).
    rewrite (call_step _ _ _ _ _ _ _ Hstp Htop). fold s1.
    assert (Hoth : forall s', others_same s1 s' i -> others_same s s' i).
    { intros s' H j Hj. rewrite H by auto. simpl. now apply upd_other. }
    destruct Hfree as [Hf|(Hnc & v & Hpub)].
    - destruct (push_free s1 es q g i HS1 A1 Ecl Hf) as (s' & H1 & H2 & H3).
      exists s', (handout_event q i n :: Reserve i :: es). split; auto. split; auto. right; left. auto.
    - destruct (push_full s1 es q g i v HS1 A1 Hnc Hpub) as (Hn & s' & H1 & H2 & _ & H3).
      exists s', (RetFull i :: es). split; auto. split; auto. right; right. auto.
  Qed.

  (** ** Pops *)
  Definition unblocked_pop (q : queue T) : Prop :=
    qtaken q = length (qlog q) -> free_at q (length (qlog q)).

  Definition pop_result (q : queue T) (i : agent) (s' : @state T) (es es' : list (event T)) : Prop :=
    let h := qtaken q in
    (exists v, nth_error (qlog q) h = Some (Published v) /\
       st_agents s' i = QHold (mkRef (ifld h) (enc (h + cap))) /\ es' = Take i v :: es) \/
    ((forall v, nth_error (qlog q) h <> Some (Published v)) /\ st_agents s' i = Idle /\
       es' = (if Nat.eqb (length (qlog q)) h && qclosed q then RetPopClosed i else RetEmpty i) :: es).

  Lemma call_silent k s es i p' : stepping (st_agents s i) = true ->
    cstep (st_core s) i (st_agents s i) false = (st_core s, p', None) ->
    call (S k) s es i = call k (mkS (st_core s) (upd (st_agents s) i p')) es i.
  Proof. intros H1 H2. now rewrite (call_step _ _ _ _ _ _ _ H1 H2). Qed.

  Lemma pop_state s es q g i b : SInv (st_core s) (st_agents s) q g -> unblocked_pop q ->
    st_agents s i = QState (enc (qtaken q)) b ->
    exists s' es', call (2 + 3 * N.to_nat (3 - b)) s es i = Some (s', es') /\ others_same s s' i /\ pop_result q i s' es es'.
  Proof.
    set (h := qtaken q). intros HS Hub. remember (N.to_nat (3 - b)) as m eqn:Em. revert s b HS Em.
    induction m as [m IHm] using lt_wf_ind. intros s b HS Em A1.
    assert (Hstp : stepping (st_agents s i) = true) by now rewrite A1.
    pose proof (i_order _ _ _ _ _ _ HS) as Ho.
    change (2 + 3 * m) with (S (S (3 * m))).
    assert (Hcase : (exists v, nth_error (qlog q) h = Some (Published v)) \/
      ((forall v, nth_error (qlog q) h <> Some (Published v)) /\ s_state (c_slots (st_core s) (ifld h)) = enc h)).
    { destruct (Nat.eq_dec h (length (qlog q))) as [E|E].
      - right. split.
        + intros v Hv. apply nth_lt in Hv. lia.
        + unfold h in *. apply (head_empty _ _ _ _ HS); auto. apply Hub. auto.
      - destruct (nth_ex (qlog q) h) as [e He]; [unfold h in *; lia|].
        assert (Hs := i_slot _ _ _ _ _ _ HS _ _ He ltac:(unfold h in *; lia)).
        destruct (head_entry _ _ _ _ HS e He) as [[j ->]|[(j & v & ->)|[v ->]]]; eauto; right.
        + split; [congruence|]. apply Hs.
        + split; [congruence|]. apply Hs. }
    destruct Hcase as [[v Hv]|[Hnv Hst]].
    - (* ready *)
      assert (St1 := solo_pop_ready _ _ _ _ HS i v b Hv). fold h in St1. rewrite <- A1 in St1 at 1.
      assert (St2 := solo_pop_take _ _ _ _ HS i v b Hv). fold h in St2.
      set (s2 := mkS (st_core s) (upd (st_agents s) i (QCas (enc h) b))).
      assert (A2 : st_agents s2 i = QCas (enc h) b) by (simpl; apply upd_same).
      change (st_core s) with (st_core s2) in St2. rewrite <- A2 in St2 at 1.
      exists (mkS (set_head (st_core s) (enc (S h))) (upd (st_agents s2) i (QHold (mkRef (ifld h) (enc (h + cap)))))),
        (Take i v :: es).
      split; [|split].
      + rewrite (call_silent _ _ _ _ _ Hstp St1). fold s2.
        rewrite (call_step _ _ _ _ _ _ _ ltac:(rewrite A2; reflexivity) St2).
        rewrite call_done; [reflexivity|]. simpl. now rewrite upd_same.
      + intros j Hj. simpl. rewrite !upd_other by auto. reflexivity.
      + left. exists v. split; auto. split; auto. simpl. apply upd_same.
    - assert (St1 := solo_pop_wait _ _ _ _ HS i b Hst). fold h in St1. rewrite <- A1 in St1 at 1.
      set (s2 := mkS (st_core s) (upd (st_agents s) i (QTail (enc h) b))).
      assert (A2 : st_agents s2 i = QTail (enc h) b) by (simpl; apply upd_same).
      assert (St2 := solo_pop_tail _ _ _ _ HS i b). fold h in St2.
      change (st_core s) with (st_core s2) in St2. rewrite <- A2 in St2 at 1.
      rewrite (call_silent _ _ _ _ _ Hstp St1). fold s2.
      assert (Hret : forall e, cstep (st_core s2) i (st_agents s2 i) false = (st_core s2, Idle, Some e) ->
        e = (if Nat.eqb (length (qlog q)) h && qclosed q then RetPopClosed i else RetEmpty i) ->
        exists s' es', call (S (3 * m)) s2 es i = Some (s', es') /\ others_same s s' i /\ pop_result q i s' es es').
      { intros e H1 H2. exists (mkS (st_core s) (upd (st_agents s2) i Idle)), (e :: es). split; [|split].
        - rewrite (call_step _ _ _ _ _ _ _ ltac:(rewrite A2; reflexivity) H1).
          rewrite call_done; [reflexivity|]. simpl. now rewrite upd_same.
        - intros j Hj. simpl. rewrite !upd_other by auto. reflexivity.
        - right. split; auto. split; [simpl; apply upd_same|]. now rewrite H2. }
      destruct (Nat.eqb (length (qlog q)) h) eqn:Ee.
      + eapply Hret; [exact St2|]. simpl. reflexivity.
      + destruct (done_spinning b) eqn:Ed.
        * eapply Hret; [exact St2|]. reflexivity.
        * unfold done_spinning in Ed. apply N.leb_gt in Ed.
          rewrite (call_silent _ _ _ _ _ ltac:(rewrite A2; reflexivity) St2).
          set (b' := backoff_spin b).
          assert (Eb : b' = (b + 1)%N).
          { unfold b', backoff_spin. destruct (N.leb_spec b 3); lia. }
          set (s3 := mkS (st_core s2) (upd (st_agents s2) i (QReload b'))).
          assert (A3 : st_agents s3 i = QReload b') by (simpl; apply upd_same).
          assert (St3 : cstep (st_core s3) i (st_agents s3 i) false = (st_core s3, QState (enc h) b', None)).
          { rewrite A3. cbn [CoreModel.cstep]. change (st_core s3) with (st_core s).
            now rewrite (i_head _ _ _ _ _ _ HS). }
          set (s4 := mkS (st_core s3) (upd (st_agents s3) i (QState (enc h) b'))).
          assert (HS4 : SInv (st_core s4) (st_agents s4) q g).
          { apply SInv_upd; [|now rewrite A3]. apply SInv_upd; [|now rewrite A2].
            apply SInv_upd; [exact HS|now rewrite A1]. }
          destruct (IHm (N.to_nat (3 - b')) ltac:(lia) s4 b' HS4 eq_refl) as (s' & es' & H1 & H2 & H3).
          { simpl. apply upd_same. }
          exists s', es'. split; [|split; auto].
          -- destruct m as [|m]; [lia|]. replace (3 * S m) with (S (S (S (3 * m)))) by lia.
             rewrite (call_silent _ _ _ _ _ ltac:(rewrite A3; reflexivity) St3). fold s4.
             eapply call_mono; [|exact H1]. lia.
          -- intros j Hj. rewrite H2 by auto. simpl. rewrite !upd_other by auto. reflexivity.
  Qed.

  Lemma pop_fresh s es q g i b : SInv (st_core s) (st_agents s) q g -> unblocked_pop q ->
    st_agents s i = QStart \/ st_agents s i = QReload b ->
    exists s' es', call 12 s es i = Some (s', es') /\ others_same s s' i /\ pop_result q i s' es es'.
  Proof.
    intros HS Hub A1.
    assert (St : exists b', cstep (st_core s) i (st_agents s i) false = (st_core s, QState (enc (qtaken q)) b', None)).
    { destruct A1 as [-> | ->]; cbn [CoreModel.cstep]; rewrite (i_head _ _ _ _ _ _ HS); eauto. }
    destruct St as [b' St].
    assert (Hstp : stepping (st_agents s i) = true) by (destruct A1 as [-> | ->]; reflexivity).
    assert (Hnh : holder (st_agents s i) = false) by (destruct A1 as [-> | ->]; reflexivity).
    rewrite (call_silent _ _ _ _ _ Hstp St).
    set (s1 := mkS (st_core s) (upd (st_agents s) i (QState (enc (qtaken q)) b'))).
    assert (HS1 : SInv (st_core s1) (st_agents s1) q g) by (apply SInv_upd; auto).
    destruct (pop_state s1 es q g i b' HS1 Hub) as (s' & es' & H1 & H2 & H3).
    { simpl. apply upd_same. }
    exists s', es'. split; [|split; auto].
    - eapply call_mono; [|exact H1]. lia.
    - intros j Hj. rewrite H2 by auto. simpl. rewrite upd_other by auto. reflexivity.
  Qed.

  (** ** len *)
  Lemma len_fresh s es i : st_agents s i = LTail ->
    exists s' n, call 3 s es i = Some (s', RetLen i n :: es) /\ others_same s s' i /\
      st_agents s' i = Idle /\ st_core s' = st_core s /\ n = len_of P (c_tail (st_core s)) (c_head (st_core s)).
  Proof.
    intros A1. eexists _, _. split; [|split; [|split; [|split]]].
    - rewrite (call_silent _ _ _ _ (LHead (c_tail (st_core s)))); [|rewrite A1; reflexivity|rewrite A1; reflexivity].
      rewrite (call_silent _ _ _ _ (LCheck (c_tail (st_core s)) (c_head (st_core s))));
        [|simpl; rewrite upd_same; reflexivity|simpl st_agents; rewrite upd_same; reflexivity].
      rewrite (call_step _ _ _ _ (st_core s) Idle (Some (RetLen i (len_of P (c_tail (st_core s)) (c_head (st_core s))))));
        [|simpl; rewrite upd_same; reflexivity|].
      + rewrite call_done; [reflexivity|]. simpl. now rewrite upd_same.
      + simpl st_agents. rewrite upd_same. cbn [CoreModel.cstep st_core]. now rewrite N.eqb_refl.
    - intros j Hj. simpl. rewrite !upd_other by auto. reflexivity.
    - simpl. apply upd_same.
    - reflexivity.
    - reflexivity.
  Qed.
End Solo.
