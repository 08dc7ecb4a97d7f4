(** Histories whose events are, one after another, effects on the abstract queue ([QueueSpec.sstep]); what
    this alone says about the history. *)
From Coq Require Import List Bool Arith NArith Lia.
From Verif Require Import QueueSpec CoreInv RingSpec HistoryFacts History.
Import ListNotations.

Section Chain.
  Context {T : Type}.
  Variables (cap : nat) (fresh : nat -> Prop) (new : T) (recycle : T -> T).
  Notation event := (event T).
  Notation queue := (queue T).
  Notation sstep := (sstep cap fresh new recycle).
  Notation hist_ok := (hist_ok (T := T) cap).

  Inductive chain : list event -> queue -> Prop :=
  | chain_nil : chain [] empty_queue
  | chain_cons es q e q' : chain es q -> sstep q e q' -> chain (e :: es) q'.

  Lemma chain_ok es q : chain es q -> hist_ok es q.
  Proof.
    intros H. induction H as [|es0 q0 e0 q1 H IH Hs]; [exact (hist_ok_init cap fresh new recycle)|].
    exact (hist_ok_step cap fresh new recycle es0 q0 e0 q1 IH Hs).
  Qed.

  Lemma chain_at es2 e es1 q : chain (es2 ++ e :: es1) q ->
    exists q1 q2, chain es1 q1 /\ sstep q1 e q2 /\ hist_ok es1 q1.
  Proof.
    revert q. induction es2 as [|x es2 IH]; intros q H; simpl in H; inversion H; subst.
    - match goal with A : chain _ ?x, Bb : sstep ?x _ ?y |- _ => exists x, y; split; [exact A|split; [exact Bb|]] end.
      now apply chain_ok.
    - eapply IH. eassumption.
  Qed.

  Lemma chain_suffix es2 es1 q : chain (es2 ++ es1) q -> exists q1, chain es1 q1.
  Proof.
    revert q. induction es2 as [|x es2 IH]; intros q H; simpl in H; eauto. inversion H; subst; eauto.
  Qed.

  Lemma ch_take_inv q i v q' : sstep q (Take i v) q' -> nth_error (qlog q) (qtaken q) = Some (Published v).
  Proof. inversion 1; auto. Qed.
  Lemma ch_commit_inv q i v q' : sstep q (Commit i v) q' -> exists p, nth_error (qlog q) p = Some (Filling i v).
  Proof. inversion 1; eauto. Qed.

  Lemma chain_fifo_nth es2 i v es1 q : chain (es2 ++ Take i v :: es1) q -> committed es1 (count is_take es1) = Some v.
  Proof.
    intros H. destruct (chain_at _ _ _ _ H) as (q1 & q2 & _ & Hs & Hok).
    apply ch_take_inv in Hs. rewrite <- (h_take _ _ _ Hok). apply (h_entry _ _ _ Hok _ _ Hs).
  Qed.

  Lemma chain_committed_stable e es n w q : chain (e :: es) q ->
    committed es n = Some w -> committed (e :: es) n = Some w.
  Proof.
    intros Hh Hn. destruct e; try exact Hn.
    destruct (chain_at [] _ _ _ Hh) as (q1 & q2 & _ & Hs & Hok).
    apply ch_commit_inv in Hs as [p Hs]. destruct (h_entry _ _ _ Hok _ _ Hs) as (E1 & E2 & E3).
    destruct (Nat.eq_dec n p) as [->|Hne]; [congruence|].
    rewrite (committed_other _ _ _ _ p); auto.
  Qed.

  Lemma chain_counts es q : chain es q -> count is_take es <= count is_reserve es <= count is_take es + cap.
  Proof.
    intros H. apply chain_ok in H. pose proof (h_order _ _ _ H). pose proof (h_res _ _ _ H). pose proof (h_take _ _ _ H). lia.
  Qed.

  Lemma chain_fifo_list es q : chain es q ->
    map Some (taken_values es) = map (committed es) (seq 0 (count is_take es)).
  Proof.
    revert q. induction es as [|e es IH]; intros q Hh; [reflexivity|].
    destruct (chain_suffix [e] es _ Hh) as [q1 Hh']. specialize (IH _ Hh').
    assert (Hst : map (committed (e :: es)) (seq 0 (count is_take es)) = map (committed es) (seq 0 (count is_take es))).
    { apply map_ext_in. intros n Hn. apply in_seq in Hn. simpl in Hn.
      assert (E : nth_error (map (committed es) (seq 0 (count is_take es))) n = Some (committed es n)).
      { apply map_nth_error. rewrite (nth_error_nth' _ 0) by (rewrite seq_length; lia). now rewrite seq_nth by lia. }
      rewrite <- IH, nth_error_map in E.
      destruct (nth_error (taken_values es) n) as [w|]; [|discriminate]. injection E as E.
      rewrite <- E. eapply chain_committed_stable; eauto. }
    destruct (is_take e) eqn:Et.
    - destruct e; try discriminate. cbn [taken_values count is_take].
      rewrite map_app. simpl (1 + _). rewrite seq_S, map_app, Hst, IH. simpl. f_equal. f_equal.
      symmetry. exact (chain_fifo_nth [] _ _ _ _ Hh).
    - assert (E1 : count is_take (e :: es) = count is_take es) by (simpl; now rewrite Et).
      rewrite E1, Hst, <- IH. f_equal. destruct e; try discriminate; reflexivity.
  Qed.
  (** ** Per-producer order *)
  Definition ch_contrib (i : agent) (es : list event) (p : nat) : list T :=
    match nth_error (reservers es) p with
    | Some j => if Nat.eqb i j then match committed es p with Some v => [v] | None => [] end else []
    | None => []
    end.

  Lemma ch_reservers_grow e (es : list event) p : p < length (reservers es) ->
    nth_error (reservers (e :: es)) p = nth_error (reservers es) p.
  Proof. intros Hp. destruct e; simpl; auto. now apply nth_error_app1. Qed.

  Lemma ch_flat_map_ext_in {A C} (f g : A -> list C) l : (forall x, In x l -> f x = g x) -> flat_map f l = flat_map g l.
  Proof. induction l; simpl; intros H; auto. rewrite H by now left. f_equal. apply IHl. intros x Hx. apply H. now right. Qed.

  Lemma ch_flat_map_nil {A C} (f : A -> list C) l : (forall x, In x l -> f x = []) -> flat_map f l = [].
  Proof. induction l; simpl; intros H; auto. rewrite H by now left. apply IHl. intros x Hx. apply H. now right. Qed.

  Lemma ch_last_is_nth i l n : last_is i l n = true -> nth_error l n = Some i.
  Proof.
    unfold last_is. destruct (nth_error l n); [|discriminate]. intros H. apply andb_true_iff in H as [H _].
    apply Nat.eqb_eq in H. now subst.
  Qed.

  Lemma ch_last_is_after i l n m : last_is i l n = true -> n < m -> nth_error l m <> Some i.
  Proof.
    intros H1 H2 H3. assert (L : last_is i l n = true) by auto. unfold last_is in H1.
    destruct (nth_error l n); [|discriminate]. apply andb_true_iff in H1 as [_ H1].
    rewrite forallb_forall in H1. pose proof (nth_lt _ _ _ H3) as Hm.
    assert (In i (skipn (S n) l)) as Hin.
    { apply nth_error_In with (n := m - S n). rewrite <- H3.
      rewrite <- (firstn_skipn (S n) l) at 2.
      rewrite nth_error_app2; rewrite firstn_length_le by lia; [reflexivity|lia]. }
    apply H1 in Hin. rewrite Nat.eqb_refl in Hin. discriminate.
  Qed.

  Lemma ch_sent_contrib i es : (exists q, chain es q) ->
    sent_by i es = flat_map (ch_contrib i es) (seq 0 (length (reservers es))).
  Proof.
    induction es as [|e es IH]; intros Hh; [reflexivity|].
    destruct Hh as [qx Hh]. assert (Hh' := chain_suffix [e] es _ Hh). specialize (IH Hh').
    destruct (chain_at [] _ _ _ Hh) as (q & q' & _ & Hs & Hok).
    destruct e; try exact IH.
    - (* Reserve *)
      cbn [sent_by reservers]. rewrite app_length. simpl length. rewrite Nat.add_1_r, seq_S, flat_map_app.
      assert (E : flat_map (ch_contrib i (Reserve i0 :: es)) [0 + length (reservers es)] = []).
      { simpl. unfold ch_contrib. cbn [reservers committed]. rewrite nth_snoc.
        assert (committed es (length (reservers es)) = None) as ->.
        { apply (h_committed_none _ _ _ Hok). rewrite (h_res _ _ _ Hok), reservers_length. lia. }
        now destruct (Nat.eqb i i0). }
      rewrite E, app_nil_r, IH. apply ch_flat_map_ext_in. intros p Hp. apply in_seq in Hp.
      unfold ch_contrib. rewrite ch_reservers_grow by lia. reflexivity.
    - (* Commit *)
      apply ch_commit_inv in Hs as [p Hs]. pose proof (h_entry _ _ _ Hok _ _ Hs) as (E1 & E2 & E3).
      cbn [reservers].
      assert (Hoth : forall n, n <> p -> ch_contrib i (Commit i0 v :: es) n = ch_contrib i es n).
      { intros n Hn. unfold ch_contrib. cbn [reservers]. now rewrite (committed_other _ _ _ _ p). }
      pose proof (last_is_bound _ _ _ E1) as Hb.
      replace (length (reservers es)) with (p + (1 + (length (reservers es) - S p))) by lia.
      rewrite !seq_app, !flat_map_app. simpl (0 + p).
      rewrite (ch_flat_map_ext_in _ (ch_contrib i es) (seq 0 p)).
      2:{ intros n Hn. apply in_seq in Hn. apply Hoth. lia. }
      rewrite (ch_flat_map_ext_in _ (ch_contrib i es) (seq (p + 1) _)).
      2:{ intros n Hn. apply in_seq in Hn. apply Hoth. lia. }
      replace (length (reservers es)) with (p + (1 + (length (reservers es) - S p))) in IH by lia.
      rewrite !seq_app, !flat_map_app in IH. simpl (0 + p) in IH.
      assert (Ep : flat_map (ch_contrib i es) (seq p 1) = []).
      { simpl. unfold ch_contrib. rewrite E2. destruct (nth_error (reservers es) p); auto. now destruct (Nat.eqb i a). }
      rewrite Ep in IH. simpl in IH.
      assert (Ep' : flat_map (ch_contrib i (Commit i0 v :: es)) (seq p 1) = if Nat.eqb i i0 then [v] else []).
      { simpl. unfold ch_contrib. cbn [reservers committed]. rewrite E1, (ch_last_is_nth _ _ _ E1).
        now destruct (Nat.eqb i i0). }
      rewrite Ep'. cbn [sent_by]. rewrite IH. destruct (Nat.eqb_spec i i0) as [->|Hne]; [|reflexivity].
      rewrite (ch_flat_map_nil (ch_contrib i0 es) (seq (p + 1) _)).
      2:{ intros n Hn. apply in_seq in Hn. unfold ch_contrib.
          destruct (nth_error (reservers es) n) as [j|] eqn:E; auto.
          destruct (Nat.eqb_spec i0 j) as [<-|]; auto. exfalso.
          apply (ch_last_is_after _ _ _ n E1); auto. lia. }
      now rewrite !app_nil_r.
  Qed.

  Lemma ch_received_contrib i es : (exists q, chain es q) ->
    received_from i es = flat_map (ch_contrib i es) (seq 0 (count is_take es)).
  Proof.
    induction es as [|e es IH]; intros Hh; [reflexivity|].
    destruct Hh as [qx Hh]. assert (Hh' := chain_suffix [e] es _ Hh). specialize (IH Hh').
    destruct Hh' as [qy Hh']. pose proof (chain_counts _ _ Hh') as Hcnt.
    assert (Hst : flat_map (ch_contrib i (e :: es)) (seq 0 (count is_take es)) = received_from i es).
    { rewrite IH. apply ch_flat_map_ext_in. intros p Hp. apply in_seq in Hp.
      unfold ch_contrib. rewrite ch_reservers_grow by (rewrite reservers_length; lia).
      pose proof (chain_fifo_list _ _ Hh') as Hf.
      assert (E : nth_error (map (committed es) (seq 0 (count is_take es))) p = Some (committed es p)).
      { apply map_nth_error. rewrite (nth_error_nth' _ 0) by (rewrite seq_length; lia). now rewrite seq_nth by lia. }
      rewrite <- Hf, nth_error_map in E.
      destruct (nth_error (taken_values es) p) as [w|]; [|discriminate]. injection E as E.
      rewrite <- E. now rewrite (chain_committed_stable _ _ _ _ _ Hh (eq_sym E)). }
    destruct (is_take e) eqn:Et.
    - destruct e; try discriminate. cbn [received_from count is_take].
      simpl (1 + _). rewrite seq_S, flat_map_app, Hst. simpl (0 + _). cbn [flat_map]. rewrite app_nil_r.
      unfold ch_contrib. cbn [reservers committed].
      rewrite (chain_fifo_nth [] _ _ _ _ Hh).
      destruct (nth_error (reservers es) (count is_take es)) as [j|]; [|now rewrite app_nil_r].
      destruct (Nat.eqb i j); [reflexivity|now rewrite app_nil_r].
    - assert (E1 : count is_take (e :: es) = count is_take es) by (simpl; now rewrite Et).
      rewrite E1, Hst. destruct e; try discriminate; reflexivity.
  Qed.

  Lemma ch_per_producer i es : (exists q, chain es q) ->
    exists rest, sent_by i es = received_from i es ++ rest.
  Proof.
    intros Hh. rewrite ch_sent_contrib, ch_received_contrib by auto. destruct Hh as [q Hh].
    pose proof (chain_counts _ _ Hh).
    replace (length (reservers es)) with (count is_take es + (count is_reserve es - count is_take es))
      by (rewrite reservers_length; lia).
    rewrite seq_app, flat_map_app. eauto.
  Qed.
End Chain.
