(** The invariant of the ring on weak memory. *)
From Coq Require Import List Bool Arith NArith Lia.
From Coq Require Import ZifyN ZifyNat ZifyBool.
From Verif Require Import Word QueueSpec CoreModel CoreArith CoreInv CoreStep HistoryFacts ChainFacts WeakModel History.
Import ListNotations.

(** ** Views *)
Definition vle (a b : view) : Prop :=
  (forall k, v_state a k <= v_state b k) /\
  (forall k, v_value a k <= v_value b k) /\ (forall t, v_know a t = true -> v_know b t = true).

Lemma vle_refl a : vle a a.
Proof. unfold vle. repeat split; auto. Qed.
Lemma vle_trans a b c : vle a b -> vle b c -> vle a c.
Proof.
  intros (A3 & A4 & A5) (B3 & B4 & B5). unfold vle. repeat split; auto.
  - intros k. specialize (A3 k). specialize (B3 k). lia.
  - intros k. specialize (A4 k). specialize (B4 k). lia.
Qed.
Lemma vle_join_l a b : vle a (join a b).
Proof.
  unfold vle, join; cbn. repeat split; intros n; lia.
Qed.
Lemma vle_join_r a b : vle b (join a b).
Proof.
  unfold vle, join; cbn. repeat split; intros n; lia.
Qed.
Lemma vle_acquire acq v m : vle v (acquire acq v m).
Proof. destruct acq; [apply vle_join_l|apply vle_refl]. Qed.
Lemma vle_event {T} v (e : option (event T)) t : vle v (with_event v e t).
Proof.
  destruct e; [|apply vle_refl]. unfold vle, with_event, saw_event; cbn. repeat split; auto.
  intros n H. rewrite H. apply orb_true_r.
Qed.
Lemma vle_saw_tail v k : vle v (saw_tailw v k).
Proof. unfold vle, saw_tailw; cbn. repeat split; auto. Qed.
Lemma vle_saw_head v k : vle v (saw_head v k).
Proof. unfold vle, saw_head; cbn. repeat split; auto. Qed.
Lemma vle_saw_state v i k : v_state v i <= k -> vle v (saw_state v i k).
Proof.
  intros H. unfold vle, saw_state; cbn. repeat split; auto. intros j. destruct (N.eqb_spec j i) as [->|]; auto.
Qed.
Lemma vle_saw_value v i k : v_value v i <= k -> vle v (saw_value v i k).
Proof.
  intros H. unfold vle, saw_value; cbn. repeat split; auto. intros j. destruct (N.eqb_spec j i) as [->|]; auto.
Qed.

Lemma updv_same f i v : updv f i v i = v.
Proof. unfold updv. now rewrite Nat.eqb_refl. Qed.
Lemma updv_other f i v j : j <> i -> updv f i v j = f j.
Proof. intros H. unfold updv. apply Nat.eqb_neq in H. now rewrite H. Qed.

Lemma readable_inv l seen k m : readable l seen k = Some m -> seen <= k /\ nth_error l k = Some m.
Proof. unfold readable. destruct (Nat.leb_spec seen k); [auto|discriminate]. Qed.

Lemma newest_lt l : 0 < length l -> newest l < length l.
Proof. unfold newest. lia. Qed.
Lemma last_view_snoc l m : last_view (l ++ [m]) = m_view m.
Proof.
  unfold last_view, newest. rewrite app_length. simpl length. replace (Nat.pred (length l + 1)) with (length l) by lia.
  now rewrite nth_snoc.
Qed.
Lemma last_view_at l n m : nth_error l n = Some m -> length l = S n -> last_view l = m_view m.
Proof. intros H E. unfold last_view, newest. rewrite E. simpl. now rewrite H. Qed.

Section Views.
  Context {T : Type}.
  Variable cap : nat.
  Notation ifld := (ifield cap).
  Notation event := (event T).

  (** Index, in the modification order of its slot's state, of the value that says position [p] is free. *)
  Definition fidx (p : nat) : nat := 2 * (p / cap).

  (** The event, after [es], says that position [n] has been published. *)
  Definition marks (e : event) (es : list event) (n : nat) : bool :=
    match e with
    | Commit i _ => last_is i (reservers es) n
    | Take _ _ => Nat.eqb n (count is_take es)
    | _ => false
    end.

  (** What is known to have been published is seen to be. *)
  Definition kf (es : list event) (V : view) : Prop :=
    forall es2 e es1 n, es = es2 ++ e :: es1 -> v_know V (length es1) = true ->
      marks e es1 n = true -> S (fidx n) <= v_state V (ifld n).

  Record vok (es : list event) (st : N -> list msg) (acc : N -> nat) (V : view) : Prop := {
    vk_value : forall k, v_value V k <= acc k;
    vk_state : forall k, v_state V k < length (st k);
    vk_know : forall t, v_know V t = true -> t < length es;
    vk_kf : kf es V }.

  Definition is_commit (e : event) : bool := match e with Commit _ _ => true | _ => false end.

  Lemma no_mark e es n : is_commit e = false -> is_take e = false -> marks e es n = false.
  Proof. destruct e; cbn; auto; discriminate. Qed.

  Lemma kf_mono es e V : (forall t, v_know V t = true -> t < length es) -> kf es V -> kf (e :: es) V.
  Proof.
    intros Hb H es2 e0 es1 n E Hk Hl. destruct es2 as [|x es2]; simpl in E; injection E as -> E.
    - subst es. apply Hb in Hk. lia.
    - eapply H; eauto.
  Qed.

  Lemma vok_mono es oe st st' acc acc' V :
    (forall k, acc k <= acc' k) -> (forall k, length (st k) <= length (st' k)) ->
    vok es st acc V -> vok (ocons oe es) st' acc' V.
  Proof.
    intros Ha Hs []. constructor.
    - intros k. specialize (vk_value0 k). specialize (Ha k). lia.
    - intros k. specialize (vk_state0 k). specialize (Hs k). lia.
    - intros t Ht. apply vk_know0 in Ht. destruct oe; simpl; lia.
    - destruct oe; simpl; auto. now apply kf_mono.
  Qed.

  Lemma vok_join es st acc a b : vok es st acc a -> vok es st acc b -> vok es st acc (join a b).
  Proof.
    intros [] []. constructor; cbn.
    - intros k. specialize (vk_value0 k). specialize (vk_value1 k). lia.
    - intros k. specialize (vk_state0 k). specialize (vk_state1 k). lia.
    - intros t Ht. apply orb_true_iff in Ht as [Ht|Ht]; auto.
    - intros es2 e es1 n E Hk Hl. cbn [v_know v_state join saw_state saw_event] in *. apply orb_true_iff in Hk as [Hk|Hk].
      + pose proof (vk_kf0 _ _ _ _ E Hk Hl). lia.
      + pose proof (vk_kf1 _ _ _ _ E Hk Hl). lia.
  Qed.

  Lemma vok_acquire acq es st acc a b : vok es st acc a -> vok es st acc b -> vok es st acc (acquire acq a b).
  Proof. destruct acq; simpl; auto. apply vok_join. Qed.
  Lemma vok_released rel es st acc a b : vok es st acc a -> vok es st acc b -> vok es st acc (released_view rel a b).
  Proof. destruct rel; simpl; auto. apply vok_join. Qed.

  Lemma vok_view0 es st acc : (forall k, 0 < length (st k)) -> vok es st acc view0.
  Proof. intros H. constructor; cbn; try lia; auto. intros es2 e es1 n _ Hk. discriminate. Qed.

  Lemma vok_saw_tail es st acc v k : vok es st acc v -> vok es st acc (saw_tailw v k).
  Proof. intros []. constructor; auto. Qed.
  Lemma vok_saw_head es st acc v k : vok es st acc v -> vok es st acc (saw_head v k).
  Proof. intros []. constructor; auto. Qed.
  Lemma vok_saw_state es st acc v i k : vok es st acc v -> v_state v i <= k -> k < length (st i) ->
    vok es st acc (saw_state v i k).
  Proof.
    intros [] H1 H2. constructor; cbn; auto.
    - intros j. destruct (N.eqb_spec j i) as [->|]; auto.
    - intros es2 e es1 n E Hk Hl. cbn [v_know v_state join saw_state saw_event] in *. pose proof (vk_kf0 _ _ _ _ E Hk Hl).
      destruct (N.eqb_spec (ifld n) i) as [<-|]; lia.
  Qed.
  Lemma vok_saw_value es st acc v i k : vok es st acc v -> k <= acc i -> vok es st acc (saw_value v i k).
  Proof.
    intros [] H1. constructor; cbn; auto. intros j. destruct (N.eqb_spec j i) as [->|]; auto.
  Qed.

  (** The agent's own event. *)
  Lemma vok_event es e st acc v :
    vok es st acc v ->
    (forall x n, e = Some x -> marks x es n = true -> S (fidx n) <= v_state v (ifld n)) ->
    vok (ocons e es) st acc (with_event v e (length es)).
  Proof.
    intros [] He. destruct e as [e|]; cbn [ocons with_event]; [|constructor; auto].
    constructor; cbn; auto.
    - intros t Ht. apply orb_true_iff in Ht as [Ht|Ht].
      + apply Nat.eqb_eq in Ht. lia.
      + apply vk_know0 in Ht. lia.
    - intros es2 e0 es1 n E Hk Hl. cbn [v_know v_state join saw_state saw_event] in *. destruct es2 as [|x es2]; simpl in E; injection E as -> E.
      + subst es1. eapply He; eauto.
      + apply orb_true_iff in Hk as [Hk|Hk].
        * apply Nat.eqb_eq in Hk. subst es. rewrite app_length in Hk. simpl in Hk. lia.
        * eapply vk_kf0; eauto.
  Qed.

End Views.

Section Weak.
  Context {T : Type}.
  Variables (W : N) (cap : nat) (pol : policy T) (o : orders).
  Hypothesis Hwf : wf W cap.
  Notation P := (core_new W (N.of_nat cap)).
  Notation enc := (enc W cap).
  Notation word := (word W cap).
  Notation ifld := (ifield cap).
  Notation queue := (queue T).
  Notation event := (event T).
  Notation wstate := (@wstate T).
  Notation fresh := (fresh_pos W cap).
  Notation sstep := (sstep cap fresh (new_element pol) (recycle pol)).
  Notation chain := (chain cap fresh (new_element pol) (recycle pol)).
  Notation SInv := (SInv W cap).
  Notation B := (slack W cap).

  Notation fidx := (fidx cap).
  Notation vok := (vok (T := T) cap).

  (** ** The invariant *)
  Definition cells (e : entry T) : nat :=
    match e with Reserved _ | Filling _ _ => 1 | Published _ | Held _ _ => 2 | Released _ => 3 end.

  Definition wpush (q : queue) (g : ghost) (i : agent) (t : N) : Prop := t = enc (g i) /\ g i <= length (qlog q).
  Definition wpop (q : queue) (g : ghost) (i : agent) (h : N) : Prop := h = enc (g i) /\ g i <= qtaken q.
  (** [i] has read the [n]-th value of slot [k]'s state and has acquired what came with it. *)
  Definition got (st : N -> list msg) (V : view) (k : N) (n : nat) : Prop :=
    exists m, nth_error (st k) n = Some m /\ vle (m_view m) V /\ n <= v_state V k.

  Definition AW (st : N -> list msg) (V C : view) (q : queue) (g : ghost) (i : agent) (p : pc) : Prop :=
    match p with
    | Idle | PStart | PReload | QStart | QReload _ | LTail | LHead _ | LCheck _ _ => True
    | PState t | PHead t => wpush q g i t
    | PCas t => wpush q g i t /\ got st V (ifld (g i)) (fidx (g i))
    | PInit t | PDead t => t = enc (g i) /\ nth_error (qlog q) (g i) = Some (Reserved i)
    | PHold r => r = mkRef (ifld (g i)) (enc (g i) + 1)%N /\ exists v, nth_error (qlog q) (g i) = Some (Filling i v)
    | QState h _ => wpop q g i h
    | QCas h _ => wpop q g i h /\ got st V (ifld (g i)) (S (fidx (g i)))
    | QTail h _ => wpop q g i h /\ v_state C (ifld (g i)) <= fidx (g i)
    | QHold r => r = mkRef (ifld (g i)) (enc (g i + cap)) /\ exists v, nth_error (qlog q) (g i) = Some (Held i v)
    | Crashed => False
    end.

  Definition tail_word (q : queue) (w : N) : Prop :=
    exists b n, w = word b n /\ n <= length (qlog q) /\ (b = true -> qclosed q = true).
  Definition head_word (q : queue) (w : N) : Prop := exists n, w = enc n /\ n <= qtaken q.

  Record WI (s : wstate) (es : list event) (q : queue) (g : ghost) : Prop := {
    wi_S : SInv (w_core s) (w_pcs s) q g;
    wi_chain : chain es q;
    wi_time : w_time s = length es;
    wi_tails : forall m, In m (w_tails s) -> tail_word q (m_word m);
    wi_heads : forall m, In m (w_heads s) -> head_word q (m_word m);
    wi_free : forall p m, nth_error (w_states s (ifld p)) (fidx p) = Some m -> m_word m = enc p;
    wi_full : forall p m, nth_error (w_states s (ifld p)) (S (fidx p)) = Some m -> m_word m = (enc p + 1)%N;
    wi_some : forall k, 0 < length (w_states s k);
    wi_len : forall p e, nth_error (qlog q) p = Some e -> length (qlog q) <= p + cap ->
      length (w_states s (ifld p)) = fidx p + cells e;
    wi_len0 : forall p, length (qlog q) <= p < cap -> length (w_states s (ifld p)) = 1;
    wi_vagent : forall i, vok es (w_states s) (w_acc s) (w_views s i);
    wi_vcall : forall i, vok es (w_states s) (w_acc s) (w_call s i);
    wi_vtails : forall m, In m (w_tails s) -> vok es (w_states s) (w_acc s) (m_view m);
    wi_vheads : forall m, In m (w_heads s) -> vok es (w_states s) (w_acc s) (m_view m);
    wi_vstates : forall k m, In m (w_states s k) -> vok es (w_states s) (w_acc s) (m_view m);
    wi_call : forall i, vle (w_call s i) (w_views s i);
    wi_own : forall p e i, nth_error (qlog q) p = Some e -> owner e = Some i ->
      v_value (w_views s i) (ifld p) = w_acc s (ifld p) /\
      S (v_state (w_views s i) (ifld p)) = length (w_states s (ifld p));
    wi_unowned : forall p e, nth_error (qlog q) p = Some e -> length (qlog q) <= p + cap -> owner e = None ->
      v_value (last_view (w_states s (ifld p))) (ifld p) = w_acc s (ifld p);
    wi_unused : forall p, length (qlog q) <= p < cap -> w_acc s (ifld p) = 0;
    wi_agents : forall i, AW (w_states s) (w_views s i) (w_call s i) q g i (w_pcs s i);
    wi_pub : forall n m es2 i v es1, nth_error (w_states s (ifld n)) (S (fidx n)) = Some m ->
      es = es2 ++ Commit i v :: es1 -> last_is i (reservers es1) n = true -> v_know (m_view m) (length es1) = true;
    wi_rel : forall n m es2 i v es1, nth_error (w_states s (ifld n)) (fidx (n + cap)) = Some m ->
      es = es2 ++ Release i v :: es1 -> last_is i (takers es1) n = true -> v_know (m_view m) (length es1) = true }.

  Lemma fidx_add p : fidx (p + cap) = fidx p + 2.
  Proof. unfold fidx. rewrite (div_add_cap W cap Hwf). lia. Qed.

  Lemma fidx_small p : p < cap -> fidx p = 0.
  Proof. intros H. unfold fidx. now rewrite Nat.div_small. Qed.

  (** The [k]-th value of slot [ifld p]'s state belongs to this position. *)
  Definition pos_at (p k : nat) : nat := p mod cap + (k / 2) * cap.

  Lemma pos_at_ifld p k : ifld (pos_at p k) = ifld p.
  Proof.
    unfold ifield, pos_at. pose proof (cap_pos _ _ Hwf). rewrite Nat.mod_add by lia. rewrite Nat.mod_mod by lia. reflexivity.
  Qed.
  Lemma pos_at_fidx p k : fidx (pos_at p k) = 2 * (k / 2).
  Proof.
    unfold fidx, pos_at. pose proof (cap_pos _ _ Hwf). rewrite Nat.div_add by lia.
    rewrite (Nat.div_small (p mod cap)) by (apply Nat.mod_upper_bound; lia). lia.
  Qed.
  Lemma pos_at_self p : pos_at p (fidx p) = p.
  Proof.
    unfold pos_at, fidx. pose proof (cap_pos _ _ Hwf). rewrite (Nat.mul_comm 2), Nat.div_mul by lia.
    pose proof (Nat.div_mod p cap). lia.
  Qed.
  Lemma fidx_inj p p' : ifld p = ifld p' -> fidx p = fidx p' -> p = p'.
  Proof.
    unfold ifield, fidx. intros H1 H2. pose proof (cap_pos _ _ Hwf).
    pose proof (Nat.div_mod p cap). pose proof (Nat.div_mod p' cap).
    assert (p mod cap = p' mod cap) by lia. assert (p / cap = p' / cap) by lia. nia.
  Qed.

  (** The entry that currently determines a slot. *)
  Lemma slot_entry (q : queue) n : exists p, ifld p = ifld n /\
    ((length (qlog q) <= p < cap) \/ (p < length (qlog q) /\ length (qlog q) <= p + cap)).
  Proof.
    pose proof (cap_pos _ _ Hwf) as Hc. set (l := length (qlog q)).
    assert (Hr : n mod cap < cap) by (apply Nat.mod_upper_bound; lia).
    destruct (Nat.lt_ge_cases l cap) as [Hlc|Hlc].
    - exists (n mod cap). split; [unfold ifield; f_equal; apply Nat.mod_mod; lia|].
      destruct (Nat.lt_ge_cases (n mod cap) l); [right; lia|left; lia].
    - set (d := (l - cap) mod cap). set (r := n mod cap) in *.
      assert (Hdlt : d < cap) by (apply Nat.mod_upper_bound; lia).
      pose proof (Nat.div_mod (l - cap) cap ltac:(lia)) as Hdm. fold d in Hdm.
      set (k := (l - cap) / cap) in *.
      destruct (Nat.le_gt_cases d r).
      + exists (cap * k + r). split; [|right; lia]. unfold ifield. f_equal.
        rewrite Nat.add_comm, Nat.mul_comm, Nat.mod_add by lia. now apply Nat.mod_small.
      + exists (cap * (k + 1) + r). split; [|right; lia]. unfold ifield. f_equal.
        rewrite Nat.add_comm, Nat.mul_comm, Nat.mod_add by lia. now apply Nat.mod_small.
  Qed.

  Section Facts.
    Variables (s : wstate) (es : list event) (q : queue) (g : ghost).
    Hypothesis HI : WI s es q g.
    Hypothesis Hfew : (N.of_nat (length (qlog q)) < B)%N.

    Lemma states_bound n k : k < length (w_states s (ifld n)) -> pos_at n k <= length (qlog q) + cap.
    Proof.
      intros Hk. destruct (slot_entry q n) as (p & Ei & [Hp|[Hp Hw]]).
      - rewrite <- Ei, (wi_len0 _ _ _ _ HI p Hp) in Hk. assert (k = 0) by lia. subst k.
        unfold pos_at. simpl. pose proof (Nat.mod_upper_bound n cap ltac:(pose proof (cap_pos _ _ Hwf); lia)). lia.
      - destruct (nth_ex (qlog q) p Hp) as [e He].
        rewrite <- Ei, (wi_len _ _ _ _ HI p e He Hw) in Hk.
        assert (Hm : n mod cap = p mod cap) by (unfold ifield in Ei; lia).
        assert (Hk2 : k / 2 <= p / cap + 1).
        { unfold fidx in Hk. destruct e; simpl in Hk; apply Nat.lt_succ_r; apply Nat.div_lt_upper_bound; lia. }
        unfold pos_at. rewrite Hm. pose proof (cap_pos _ _ Hwf). pose proof (Nat.div_mod p cap ltac:(lia)). nia.
    Qed.

    (** Reading a slot's state identifies the position. *)
    Lemma read_free n k m : n <= length (qlog q) -> nth_error (w_states s (ifld n)) k = Some m -> m_word m = enc n ->
      k = fidx n.
    Proof.
      intros Hn Hk Hm. pose proof (states_bound n k (nth_lt _ _ _ Hk)) as Hb.
      pose proof (pos_at_ifld n k) as Ei. pose proof (pos_at_fidx n k) as Ef.
      pose proof (slack_span _ _ Hwf). pose proof (cap_pos _ _ Hwf).
      rewrite <- Ei in Hk. destruct (Nat.Even_or_Odd k) as [[j Hj]|[j Hj]].
      - assert (E2 : k / 2 = j) by (subst k; rewrite Nat.mul_comm, Nat.div_mul; lia).
        assert (Ek : k = fidx (pos_at n k)) by (rewrite Ef, E2; exact Hj).
        rewrite Ek in Hk at 2. apply (wi_free _ _ _ _ HI) in Hk. rewrite Hm in Hk.
        assert (n = pos_at n k).
        { destruct (Nat.le_ge_cases n (pos_at n k)).
          - eapply (enc_inj _ _ Hwf); eauto. lia.
          - symmetry. eapply (enc_inj _ _ Hwf); eauto. lia. }
        congruence.
      - exfalso. assert (E2 : k / 2 = j).
        { symmetry. apply (Nat.div_unique k 2 j 1); lia. }
        assert (Ek : k = S (fidx (pos_at n k))) by (rewrite Ef, E2; lia).
        rewrite Ek in Hk at 2. apply (wi_full _ _ _ _ HI) in Hk. rewrite Hm in Hk. symmetry in Hk.
        now apply (enc_S_neq _ _ Hwf) in Hk.
    Qed.

    Lemma read_full n k m : n <= length (qlog q) -> nth_error (w_states s (ifld n)) k = Some m -> m_word m = (enc n + 1)%N ->
      k = S (fidx n).
    Proof.
      intros Hn Hk Hm. pose proof (states_bound n k (nth_lt _ _ _ Hk)) as Hb.
      pose proof (pos_at_ifld n k) as Ei. pose proof (pos_at_fidx n k) as Ef.
      pose proof (slack_span _ _ Hwf). pose proof (cap_pos _ _ Hwf).
      rewrite <- Ei in Hk. destruct (Nat.Even_or_Odd k) as [[j Hj]|[j Hj]].
      - exfalso. assert (E2 : k / 2 = j) by (subst k; rewrite Nat.mul_comm, Nat.div_mul; lia).
        assert (Ek : k = fidx (pos_at n k)) by (rewrite Ef, E2; exact Hj).
        rewrite Ek in Hk at 2. apply (wi_free _ _ _ _ HI) in Hk. rewrite Hm in Hk.
        now apply (enc_S_neq _ _ Hwf) in Hk.
      - assert (E2 : k / 2 = j).
        { symmetry. apply (Nat.div_unique k 2 j 1); lia. }
        assert (Ek : k = S (fidx (pos_at n k))) by (rewrite Ef, E2; lia).
        rewrite Ek in Hk at 2. apply (wi_full _ _ _ _ HI) in Hk. rewrite Hm in Hk.
        assert (n = pos_at n k); [|congruence].
        assert (Hk' : enc n = enc (pos_at n k)) by lia.
        destruct (Nat.le_ge_cases n (pos_at n k)).
        + eapply (enc_inj _ _ Hwf); eauto. lia.
        + symmetry. eapply (enc_inj _ _ Hwf); eauto. lia.
    Qed.

    (** A slot free for the next position. *)
    Lemma tail_free : fidx (length (qlog q)) < length (w_states s (ifld (length (qlog q)))) ->
      let n := length (qlog q) in
      (n < qtaken q + cap /\ (n < cap \/ exists old, nth_error (qlog q) (n - cap) = Some (Released old))) /\
      length (w_states s (ifld n)) = S (fidx n) /\
      v_value (last_view (w_states s (ifld n))) (ifld n) = w_acc s (ifld n).
    Proof.
      intros Hf n. subst n. set (n := length (qlog q)) in *. pose proof (cap_pos _ _ Hwf).
      pose proof (i_order _ _ _ _ _ _ (wi_S _ _ _ _ HI)) as Ho.
      destruct (Nat.lt_ge_cases n cap) as [Hc|Hc].
      - split; [split; [lia|now left]|].
        pose proof (wi_len0 _ _ _ _ HI n ltac:(fold n; lia)) as L.
        rewrite (fidx_small n Hc). split; [auto|].
        rewrite (wi_unused _ _ _ _ HI n ltac:(fold n; lia)).
        assert (Hv : v_value (last_view (w_states s (ifld n))) (ifld n) <= w_acc s (ifld n)).
        { unfold last_view. destruct (nth_error (w_states s (ifld n)) (newest (w_states s (ifld n)))) as [m|] eqn:E; [|simpl; lia].
          apply nth_error_In in E. apply (wi_vstates _ _ _ _ HI) in E. apply E. }
        rewrite (wi_unused _ _ _ _ HI n ltac:(fold n; lia)) in Hv. lia.
      - destruct (nth_ex (qlog q) (n - cap)) as [e He]; [fold n; lia|].
        assert (Hw : length (qlog q) <= n - cap + cap) by (fold n; lia).
        pose proof (wi_len _ _ _ _ HI _ _ He Hw) as L.
        assert (Ei : ifld (n - cap) = ifld n) by (rewrite <- (ifield_add_cap W cap Hwf); f_equal; lia).
        assert (Ef : fidx n = fidx (n - cap) + 2) by (rewrite <- fidx_add; f_equal; lia).
        rewrite Ei in L. destruct e as [j|j v|v|j v|v]; cbn [cells] in L; try lia.
        assert (Hd : n - cap < qtaken q) by (apply (i_done _ _ _ _ _ _ (wi_S _ _ _ _ HI) _ _ He); exact I).
        split; [split; [lia|right; eauto]|]. split; [lia|].
        rewrite <- Ei. eapply (wi_unowned _ _ _ _ HI); eauto.
    Qed.

    (** The front is published. *)
    Lemma head_full : S (fidx (qtaken q)) < length (w_states s (ifld (qtaken q))) ->
      let n := qtaken q in
      exists v, nth_error (qlog q) n = Some (Published v) /\ length (w_states s (ifld n)) = S (S (fidx n)) /\
      v_value (last_view (w_states s (ifld n))) (ifld n) = w_acc s (ifld n).
    Proof.
      intros Hf n. subst n. set (h := qtaken q) in *. set (n := length (qlog q)) in *. pose proof (cap_pos _ _ Hwf).
      pose proof (i_order _ _ _ _ _ _ (wi_S _ _ _ _ HI)) as Ho.
      assert (Hlt : h < n).
      { destruct (Nat.lt_ge_cases h n) as [|Hge]; auto. exfalso. assert (Eh : h = n) by (fold n h in Ho; lia).
        destruct (Nat.lt_ge_cases n cap) as [Hc|Hc].
        - pose proof (wi_len0 _ _ _ _ HI n ltac:(fold n; lia)) as L. rewrite Eh, L in Hf. lia.
        - destruct (nth_ex (qlog q) (n - cap)) as [e He]; [fold n; lia|].
          assert (Hw : length (qlog q) <= n - cap + cap) by (fold n; lia).
          pose proof (wi_len _ _ _ _ HI _ _ He Hw) as L.
          assert (Ei : ifld (n - cap) = ifld n) by (rewrite <- (ifield_add_cap W cap Hwf); f_equal; lia).
          assert (Ef : fidx n = fidx (n - cap) + 2) by (rewrite <- fidx_add; f_equal; lia).
          rewrite Ei in L. rewrite Eh in Hf. destruct e as [j|j v|v|j v|v]; cbn [cells] in L; lia. }
      destruct (nth_ex (qlog q) h) as [e He]; [exact Hlt|].
      assert (Hw : length (qlog q) <= h + cap) by (fold n h in Ho |- *; lia).
      pose proof (wi_len _ _ _ _ HI _ _ He Hw) as L.
      assert (Hd := i_done _ _ _ _ _ _ (wi_S _ _ _ _ HI) _ _ He). fold h in Hd.
      destruct e as [j|j v|v|j v|v]; cbn [cells done_entry] in L, Hd; try (exfalso; lia).
      exists v. split; auto. split; [lia|]. eapply (wi_unowned _ _ _ _ HI); eauto.
    Qed.

    Lemma vok_last_tail : vok es (w_states s) (w_acc s) (last_view (w_tails s)).
    Proof.
      unfold last_view. destruct (nth_error (w_tails s) _) as [m|] eqn:E.
      - apply nth_error_In in E. now apply (wi_vtails _ _ _ _ HI).
      - apply vok_view0. apply (wi_some _ _ _ _ HI).
    Qed.
    Lemma vok_last_head : vok es (w_states s) (w_acc s) (last_view (w_heads s)).
    Proof.
      unfold last_view. destruct (nth_error (w_heads s) _) as [m|] eqn:E.
      - apply nth_error_In in E. now apply (wi_vheads _ _ _ _ HI).
      - apply vok_view0. apply (wi_some _ _ _ _ HI).
    Qed.
  End Facts.

  (** ** Preservation *)
  Definition is_release (e : event) : bool := match e with Release _ _ => true | _ => false end.

  Lemma split_ocons (oe : option event) es (e : event) es2 es1 : ocons oe es = es2 ++ e :: es1 ->
    (oe = Some e /\ es1 = es) \/ exists es2', es = es2' ++ e :: es1.
  Proof.
    destruct oe as [x|]; simpl; intros E; [|right; eauto].
    destruct es2 as [|y es2]; simpl in E; injection E as -> E; [left; auto|right; eauto].
  Qed.

  (** Log, slots and elements unchanged. *)
  Lemma wi_quiet s es q g i s' oe q' g' p' V' :
    WI s es q g ->
    w_states s' = w_states s -> w_acc s' = w_acc s ->
    (forall j, w_pcs s' j = upd (w_pcs s) i p' j) -> (forall j, w_views s' j = updv (w_views s) i V' j) ->
    (forall j, j <> i -> w_call s' j = w_call s j) ->
    vok (ocons oe es) (w_states s) (w_acc s) (w_call s' i) -> vle (w_call s' i) V' ->
    w_time s' = length (ocons oe es) ->
    qlog q' = qlog q -> qtaken q' = qtaken q -> (qclosed q = true -> qclosed q' = true) ->
    SInv (w_core s') (w_pcs s') q' g' -> chain (ocons oe es) q' ->
    (forall m, In m (w_tails s') -> In m (w_tails s) \/
       (tail_word q' (m_word m) /\ vok (ocons oe es) (w_states s) (w_acc s) (m_view m))) ->
    (forall m, In m (w_heads s') -> In m (w_heads s) \/
       (head_word q' (m_word m) /\ vok (ocons oe es) (w_states s) (w_acc s) (m_view m))) ->
    vle (w_views s i) V' -> vok (ocons oe es) (w_states s) (w_acc s) V' ->
    (forall j, j <> i -> g' j = g j) ->
    AW (w_states s) V' (w_call s' i) q' g' i p' ->
    (forall e, oe = Some e -> is_commit e = false /\ is_release e = false) ->
    WI s' (ocons oe es) q' g'.
  Proof.
    intros HI Est Eacc Epc Ev Ecall Hcv Hcl Et El Etk Ecl HS HC Htl Hhd Hle HV Hg HA He.
    assert (Hmono : forall V, vok es (w_states s) (w_acc s) V -> vok (ocons oe es) (w_states s) (w_acc s) V)
      by (intros V HV0; eapply vok_mono; eauto).
    assert (Hvv : forall j, vok (ocons oe es) (w_states s) (w_acc s) (w_views s' j)).
    { intros j. rewrite Ev. destruct (Nat.eq_dec j i) as [->|Hj].
      - now rewrite updv_same.
      - rewrite updv_other by auto. apply Hmono, HI. }
    constructor; rewrite ?Est, ?Eacc, ?El; auto; try apply HI.
    - intros m Hm. destruct (Htl m Hm) as [Hm'|[Hw _]]; auto.
      destruct (wi_tails _ _ _ _ HI m Hm') as (b & n & E1 & E2 & E3). exists b, n. rewrite El. auto.
    - intros m Hm. destruct (Hhd m Hm) as [Hm'|[Hw _]]; auto.
      destruct (wi_heads _ _ _ _ HI m Hm') as (n & E1 & E2). exists n. rewrite Etk. auto.
    - intros j. destruct (Nat.eq_dec j i) as [->|Hj]; auto.
      rewrite Ecall by auto. apply Hmono, HI.
    - intros m Hm. destruct (Htl m Hm) as [Hm'|[_ Hw]]; auto. apply Hmono. now apply (wi_vtails _ _ _ _ HI).
    - intros m Hm. destruct (Hhd m Hm) as [Hm'|[_ Hw]]; auto. apply Hmono. now apply (wi_vheads _ _ _ _ HI).
    - intros k m Hm. apply Hmono. eapply (wi_vstates _ _ _ _ HI); eauto.
    - intros j. rewrite Ev. destruct (Nat.eq_dec j i) as [->|Hj].
      + now rewrite updv_same.
      + rewrite updv_other, Ecall by auto. apply HI.
    - intros p e j Hp Ho. destruct (wi_own _ _ _ _ HI _ _ _ Hp Ho) as [E1 E2].
      assert (Hle' : vle (w_views s j) (w_views s' j)).
      { rewrite Ev. destruct (Nat.eq_dec j i) as [->|Hj]; [now rewrite updv_same|].
        rewrite updv_other by auto. apply vle_refl. }
      destruct Hle' as (L1 & L2 & _). specialize (L1 (ifld p)). specialize (L2 (ifld p)).
      pose proof (vk_value _ _ _ _ _ (Hvv j) (ifld p)). pose proof (vk_state _ _ _ _ _ (Hvv j) (ifld p)). lia.
    - intros j. rewrite Ev, Epc. destruct (Nat.eq_dec j i) as [->|Hj].
      + now rewrite updv_same, upd_same.
      + rewrite updv_other, upd_other, Ecall by auto. pose proof (wi_agents _ _ _ _ HI j) as HJ.
        destruct (w_pcs s j); cbn [AW] in *; unfold wpush, wpop in *; rewrite ?Hg, ?El, ?Etk by auto; auto.
    - intros n m es2 j v es1 Hn E Hl. apply split_ocons in E as [[E _]|[es2' E]].
      + destruct (He _ E). discriminate.
      + eapply (wi_pub _ _ _ _ HI); eauto.
    - intros n m es2 j v es1 Hn E Hl. apply split_ocons in E as [[E _]|[es2' E]].
      + destruct (He _ E). discriminate.
      + eapply (wi_rel _ _ _ _ HI); eauto.
  Qed.

  (** One entry, its slot and its element change. *)
  Lemma wi_update s es q g i s' e q' p x' p' V' more :
    WI s es q g ->
    (forall k, k <> ifld p -> w_states s' k = w_states s k) ->
    w_states s' (ifld p) = w_states s (ifld p) ++ more ->
    (forall k, k <> ifld p -> w_acc s' k = w_acc s k) -> w_acc s (ifld p) <= w_acc s' (ifld p) ->
    w_pcs s' = upd (w_pcs s) i p' -> (forall j, w_views s' j = updv (w_views s) i V' j) -> w_call s' = w_call s ->
    w_time s' = S (length es) ->
    (* the log *)
    length (qlog q) <= length (qlog q') -> length (qlog q') <= p + cap ->
    nth_error (qlog q') p = Some x' ->
    (forall n, n <> p -> nth_error (qlog q') n = nth_error (qlog q) n) ->
    (forall x j, nth_error (qlog q) p = Some x -> owner x = Some j -> j = i) ->
    (forall j, owner x' = Some j -> j = i) ->
    qtaken q <= qtaken q' -> (qclosed q = true -> qclosed q' = true) ->
    SInv (w_core s') (w_pcs s') q' g -> chain (e :: es) q' ->
    (forall m, In m (w_tails s') -> In m (w_tails s) \/
       (tail_word q' (m_word m) /\ vok (e :: es) (w_states s') (w_acc s') (m_view m))) ->
    (forall m, In m (w_heads s') -> In m (w_heads s) \/
       (head_word q' (m_word m) /\ vok (e :: es) (w_states s') (w_acc s') (m_view m))) ->
    (forall m, In m more -> vok (e :: es) (w_states s') (w_acc s') (m_view m)) ->
    (forall n m, ifld n = ifld p -> nth_error (w_states s' (ifld p)) (fidx n) = Some m -> m_word m = enc n) ->
    (forall n m, ifld n = ifld p -> nth_error (w_states s' (ifld p)) (S (fidx n)) = Some m -> m_word m = (enc n + 1)%N) ->
    length (w_states s' (ifld p)) = fidx p + cells x' ->
    vle (w_views s i) V' -> vok (e :: es) (w_states s') (w_acc s') V' ->
    (owner x' = Some i -> v_value V' (ifld p) = w_acc s' (ifld p) /\
       S (v_state V' (ifld p)) = length (w_states s' (ifld p))) ->
    (owner x' = None -> v_value (last_view (w_states s' (ifld p))) (ifld p) = w_acc s' (ifld p)) ->
    AW (w_states s') V' (w_call s i) q' g i p' ->
    (forall n m j v, e = Commit j v -> nth_error (w_states s' (ifld n)) (S (fidx n)) = Some m ->
       last_is j (reservers es) n = true -> v_know (m_view m) (length es) = true) ->
    (forall n m j v, e = Release j v -> nth_error (w_states s' (ifld n)) (fidx (n + cap)) = Some m ->
       last_is j (takers es) n = true -> v_know (m_view m) (length es) = true) ->
    (forall n m es2 j v es1, ifld n = ifld p -> length (w_states s (ifld p)) <= S (fidx n) ->
       nth_error (w_states s' (ifld p)) (S (fidx n)) = Some m ->
       es = es2 ++ Commit j v :: es1 -> last_is j (reservers es1) n = true -> v_know (m_view m) (length es1) = true) ->
    (forall n m es2 j v es1, ifld n = ifld p -> length (w_states s (ifld p)) <= fidx (n + cap) ->
       nth_error (w_states s' (ifld p)) (fidx (n + cap)) = Some m ->
       es = es2 ++ Release j v :: es1 -> last_is j (takers es1) n = true -> v_know (m_view m) (length es1) = true) ->
    WI s' (e :: es) q' g.
  Proof.
    intros HI Est Emore Eacc Hacc Epc Ev Ecall Et Hlen Hwin Hx' Hother Hown Hown' Htk Hcl HS HC Htl Hhd Hmore Hfree Hfull
      HL Hle HV Howner Hnone HA Hpub Hrel Hpub' Hrel'.
    assert (Hap : forall k, exists r, w_states s' k = w_states s k ++ r /\ (forall m, In m r -> In m more)).
    { intros k. destruct (N.eq_dec k (ifld p)) as [->|Hk]; [exists more; auto|].
      exists []. rewrite app_nil_r. split; [auto|]. intros m []. }
    assert (Hlens : forall k, length (w_states s k) <= length (w_states s' k)).
    { intros k. destruct (Hap k) as (r & -> & _). rewrite app_length. lia. }
    assert (Haccs : forall k, w_acc s k <= w_acc s' k).
    { intros k. destruct (N.eq_dec k (ifld p)) as [->|Hk]; [auto|]. rewrite Eacc by auto. lia. }
    assert (Hnth : forall k n m, nth_error (w_states s k) n = Some m -> nth_error (w_states s' k) n = Some m).
    { intros k n m H. destruct (Hap k) as (r & -> & _). now apply nth_app_l. }
    assert (Hnth' : forall k n m, nth_error (w_states s' k) n = Some m -> nth_error (w_states s k) n = Some m \/
       (k = ifld p /\ length (w_states s (ifld p)) <= n /\ nth_error (w_states s' (ifld p)) n = Some m)).
    { intros k n m H. destruct (N.eq_dec k (ifld p)) as [->|Hk]; [|left; now rewrite Est in H by auto].
      destruct (Nat.lt_ge_cases n (length (w_states s (ifld p)))) as [Hn|Hn]; [left|right; auto].
      rewrite Emore in H. now rewrite nth_error_app1 in H. }
    assert (Hmono : forall V, vok es (w_states s) (w_acc s) V -> vok (e :: es) (w_states s') (w_acc s') V)
      by (intros V HV0; apply (vok_mono cap es (Some e) (w_states s) (w_states s') (w_acc s) (w_acc s')); auto).
    assert (Hvv : forall j, vok (e :: es) (w_states s') (w_acc s') (w_views s' j)).
    { intros j. rewrite Ev. destruct (Nat.eq_dec j i) as [->|Hj].
      - now rewrite updv_same.
      - rewrite updv_other by auto. apply Hmono, HI. }
    assert (Hpl : p < length (qlog q')) by (eapply nth_lt; eauto).
    constructor; auto.
    - intros m Hm. destruct (Htl m Hm) as [Hm'|[Hw _]]; auto.
      destruct (wi_tails _ _ _ _ HI m Hm') as (b & n & E1 & E2 & E3). exists b, n. repeat split; auto. lia.
    - intros m Hm. destruct (Hhd m Hm) as [Hm'|[Hw _]]; auto.
      destruct (wi_heads _ _ _ _ HI m Hm') as (n & E1 & E2). exists n. split; auto. lia.
    - intros n m Hm. destruct (N.eq_dec (ifld n) (ifld p)) as [E|Hk].
      + rewrite E in Hm. eapply Hfree; eauto.
      + rewrite Est in Hm by auto. eapply (wi_free _ _ _ _ HI); eauto.
    - intros n m Hm. destruct (N.eq_dec (ifld n) (ifld p)) as [E|Hk].
      + rewrite E in Hm. eapply Hfull; eauto.
      + rewrite Est in Hm by auto. eapply (wi_full _ _ _ _ HI); eauto.
    - intros k. pose proof (wi_some _ _ _ _ HI k). specialize (Hlens k). lia.
    - intros n x Hn Hw. destruct (Nat.eq_dec n p) as [->|Hne]; [congruence|].
      pose proof (nth_lt _ _ _ Hn) as Hnl.
      assert (Hk : ifld n <> ifld p) by (intros E; apply Hne; eapply (win_distinct W cap Hwf); eauto).
      rewrite Hother in Hn by auto. rewrite Est by auto. eapply (wi_len _ _ _ _ HI); eauto. lia.
    - intros n Hn. rewrite Est. { apply (wi_len0 _ _ _ _ HI). lia. }
      apply not_eq_sym. eapply (unused_index cap); eauto.
    - intros j. rewrite Ecall. apply Hmono, HI.
    - intros m Hm. destruct (Htl m Hm) as [Hm'|[_ Hw]]; auto. apply Hmono. now apply (wi_vtails _ _ _ _ HI).
    - intros m Hm. destruct (Hhd m Hm) as [Hm'|[_ Hw]]; auto. apply Hmono. now apply (wi_vheads _ _ _ _ HI).
    - intros k m Hm. destruct (Hap k) as (r & E & Hr). rewrite E in Hm. apply in_app_or in Hm as [Hm|Hm]; auto.
      apply Hmono. eapply (wi_vstates _ _ _ _ HI); eauto.
    - intros j. rewrite Ev, Ecall. destruct (Nat.eq_dec j i) as [->|Hj].
      + rewrite updv_same. eapply vle_trans; [apply HI|exact Hle].
      + rewrite updv_other by auto. apply HI.
    - intros n x j Hn Ho. destruct (Nat.eq_dec n p) as [->|Hne].
      + assert (x = x') by congruence. subst x. pose proof (Hown' _ Ho) as Ej. subst j. rewrite Ev, updv_same. auto.
      + pose proof (nth_lt _ _ _ Hn) as Hnl.
        assert (Hnr : forall v, x <> Released v) by (intros v ->; discriminate).
        pose proof (live_in_window _ _ _ _ _ _ HS _ _ Hn Hnr) as Hw.
        assert (Hk : ifld n <> ifld p) by (intros E; apply Hne; eapply (win_distinct W cap Hwf); eauto).
        rewrite Hother in Hn by auto. destruct (wi_own _ _ _ _ HI _ _ _ Hn Ho) as [E1 E2].
        rewrite (Eacc _ Hk), (Est _ Hk).
        assert (Hle' : vle (w_views s j) (w_views s' j)).
        { rewrite Ev. destruct (Nat.eq_dec j i) as [->|Hj]; [now rewrite updv_same|].
          rewrite updv_other by auto. apply vle_refl. }
        destruct Hle' as (L1 & L2 & _). specialize (L1 (ifld n)). specialize (L2 (ifld n)).
        pose proof (vk_value _ _ _ _ _ (Hvv j) (ifld n)) as B1. pose proof (vk_state _ _ _ _ _ (Hvv j) (ifld n)) as B2.
        rewrite (Eacc _ Hk) in B1. rewrite (Est _ Hk) in B2. lia.
    - intros n x Hn Hw Ho. destruct (Nat.eq_dec n p) as [->|Hne].
      + assert (x = x') by congruence. subst x. auto.
      + pose proof (nth_lt _ _ _ Hn) as Hnl.
        assert (Hk : ifld n <> ifld p) by (intros E; apply Hne; eapply (win_distinct W cap Hwf); eauto).
        rewrite Hother in Hn by auto. rewrite (Eacc _ Hk), (Est _ Hk). eapply (wi_unowned _ _ _ _ HI); eauto. lia.
    - intros n Hn. rewrite Eacc. { apply (wi_unused _ _ _ _ HI). lia. }
      apply not_eq_sym. eapply (unused_index cap); eauto.
    - intros j. rewrite Ev, Epc, Ecall. destruct (Nat.eq_dec j i) as [->|Hj].
      + now rewrite updv_same, upd_same.
      + rewrite updv_other, upd_other by auto. pose proof (wi_agents _ _ _ _ HI j) as HJ.
        assert (Hkeep : forall x, nth_error (qlog q) (g j) = Some x -> owner x = Some j -> nth_error (qlog q') (g j) = Some x).
        { intros x Hx Ho. rewrite Hother; auto. intros E. rewrite E in Hx. apply Hj. eapply Hown; eauto. }
        assert (Hgot : forall V k n, got (w_states s) V k n -> got (w_states s') V k n).
        { intros V k n (m & M1 & M2). exists m. split; auto. }
        destruct (w_pcs s j); cbn [AW] in *; unfold wpush, wpop in *; auto.
        * destruct HJ as [E1 E2]. split; [auto|lia].
        * destruct HJ as [[E1 E2] E3]. split; [split; [auto|lia]|auto].
        * destruct HJ as [E1 E2]. split; auto.
        * destruct HJ as [E1 E2]. split; [auto|lia].
        * destruct HJ as [E1 [v E2]]. split; [auto|]. exists v. auto.
        * destruct HJ as [E1 E2]. split; auto.
        * destruct HJ as [E1 E2]. split; [auto|lia].
        * destruct HJ as [[E1 E2] E3]. split; [split; [auto|lia]|auto].
        * destruct HJ as [[E1 E2] E3]. split; [split; [auto|lia]|auto].
        * destruct HJ as [E1 [v E2]]. split; [auto|]. exists v. auto.
    - intros n m es2 j v es1 Hn E Hl. destruct (split_ocons (Some e) es _ _ _ E) as [[E1 E2]|[es2' E1]].
      + injection E1 as E1. subst es1. eapply Hpub; eauto.
      + destruct (Hnth' _ _ _ Hn) as [Hn'|(K1 & K2 & K3)]; [eapply (wi_pub _ _ _ _ HI)|eapply Hpub']; eauto.
    - intros n m es2 j v es1 Hn E Hl. destruct (split_ocons (Some e) es _ _ _ E) as [[E1 E2]|[es2' E1]].
      + injection E1 as E1. subst es1. eapply Hrel; eauto.
      + destruct (Hnth' _ _ _ Hn) as [Hn'|(K1 & K2 & K3)]; [eapply (wi_rel _ _ _ _ HI)|eapply Hrel']; eauto.
  Qed.
End Weak.
