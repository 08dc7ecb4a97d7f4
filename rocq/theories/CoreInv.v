(** The invariant of the ring and its preservation: forward simulation from the
    implementation model to the log specification. *)
From Coq Require Import List Bool Arith NArith Lia.
From Coq Require Import ZifyN ZifyNat ZifyBool.
From Verif Require Import Word QueueSpec CoreModel CoreArith.
Import ListNotations.

(** ** Lists *)
Lemma nth_set_same {A} (l : list A) n x : n < length l -> nth_error (set_nth l n x) n = Some x.
Proof. revert n; induction l; intros [|n] H; simpl in *; auto; try lia. apply IHl. lia. Qed.
Lemma nth_set_other {A} (l : list A) n m x : n <> m -> nth_error (set_nth l n x) m = nth_error l m.
Proof. revert n m; induction l; intros [|n] [|m] H; simpl in *; auto; congruence. Qed.
Lemma set_nth_length {A} (l : list A) n x : length (set_nth l n x) = length l.
Proof. revert n; induction l; intros [|n]; simpl; auto. Qed.
Lemma nth_lt {A} (l : list A) n x : nth_error l n = Some x -> n < length l.
Proof. intros H. apply nth_error_Some. congruence. Qed.
Lemma nth_app_l {A} (l l' : list A) n x : nth_error l n = Some x -> nth_error (l ++ l') n = Some x.
Proof. intros H. rewrite nth_error_app1; auto. eapply nth_lt; eauto. Qed.
Lemma nth_snoc {A} (l : list A) x : nth_error (l ++ [x]) (length l) = Some x.
Proof. rewrite nth_error_app2, Nat.sub_diag; auto. Qed.
Lemma nth_ex {A} (l : list A) n : n < length l -> exists x, nth_error l n = Some x.
Proof. intros H. destruct (nth_error l n) eqn:E; eauto. apply nth_error_None in E. lia. Qed.
Lemma nth_snoc_inv {A} (l : list A) x n y : nth_error (l ++ [x]) n = Some y ->
  nth_error l n = Some y \/ (n = length l /\ y = x).
Proof.
  intros H. destruct (Nat.lt_ge_cases n (length l)).
  - left. now rewrite nth_error_app1 in H.
  - right. rewrite nth_error_app2 in H by auto.
    destruct (n - length l) as [|m] eqn:E; simpl in H.
    + split; [lia|congruence].
    + destruct m; discriminate.
Qed.
Lemma nth_set_inv {A} (l : list A) n x m y : nth_error (set_nth l n x) m = Some y ->
  (m = n /\ y = x /\ n < length l) \/ (m <> n /\ nth_error l m = Some y).
Proof.
  intros H. destruct (Nat.eq_dec m n) as [->|Hne].
  - left. pose proof (nth_lt _ _ _ H) as L. rewrite set_nth_length in L.
    rewrite nth_set_same in H by auto. repeat split; auto; congruence.
  - right. rewrite nth_set_other in H by auto. auto.
Qed.

(** ** Histories *)
Lemma since_call_cons {T} i (e : event T) es q hist q0 :
  is_invoke i e = false -> In q0 (since_call i es hist) ->
  In q0 (since_call i (e :: es) (q :: hist)).
Proof. intros H1 H2. simpl. rewrite H1. now right. Qed.

Lemma since_call_head {T} i (es : list (event T)) q hist : In q (since_call i es (q :: hist)).
Proof. destruct es; simpl; auto. Qed.

Lemma since_call_incl {T} i (es : list (event T)) hist q0 :
  In q0 (since_call i es hist) -> In q0 hist.
Proof.
  revert hist; induction es as [|e es IH]; intros [|q hist]; simpl; auto.
  intros [H|H]; auto. right. destruct (is_invoke i e); [destruct H|auto].
Qed.

Section Inv.
  Context {T : Type}.
  Variables (W : N) (cap : nat) (pol : policy T).
  Hypothesis Hwf : wf W cap.
  Notation P := (core_new W (N.of_nat cap)).
  Notation enc := (enc W cap).
  Notation word := (word W cap).
  Notation ifld := (ifield cap).
  Notation queue := (queue T).
  Notation event := (event T).
  Notation core := (core T).
  Notation slot := (slot T).
  Notation entry := (entry T).

  (** Positions whose generation field is zero. *)
  Definition fresh_pos (p : nat) : Prop := (N.of_nat (p / cap) mod ngen W cap = 0)%N.

  Notation sstep := (sstep cap fresh_pos (new_element pol) (recycle pol)).
  Notation explains := (explains cap fresh_pos (new_element pol) (recycle pol)).
  Notation observes := (observes cap).
  Notation front_ready := (@front_ready T).

  Definition ghost := agent -> nat.
  Definition updg (g : ghost) (i : agent) (p : nat) : ghost := fun j => if Nat.eqb j i then p else g j.

  Lemma updg_same g i p : updg g i p i = p.
  Proof. unfold updg. now rewrite Nat.eqb_refl. Qed.
  Lemma updg_other g i p j : j <> i -> updg g i p j = g j.
  Proof. intros H. unfold updg. apply Nat.eqb_neq in H. now rewrite H. Qed.
  Lemma upd_same ag i p : upd ag i p i = p.
  Proof. unfold upd. now rewrite Nat.eqb_refl. Qed.
  Lemma upd_other ag i p j : j <> i -> upd ag i p j = ag j.
  Proof. intros H. unfold upd. apply Nat.eqb_neq in H. now rewrite H. Qed.

  Definition slot_ok (q : queue) (g : ghost) (ag : agent -> pc) (p : nat) (e : entry) (sl : slot) : Prop :=
    match e with
    | Reserved i =>
        s_state sl = enc p /\ g i = p /\
        (ag i = PInit (enc p) \/ ag i = PDead (enc p)) /\
        ((p < cap /\ s_value sl = None) \/
         (cap <= p /\ exists old, nth_error (qlog q) (p - cap) = Some (Released old)
                                  /\ s_value sl = Some old))
    | Filling i v =>
        s_state sl = enc p /\ g i = p /\
        ag i = PHold (mkRef (ifld p) (enc p + 1)) /\ s_value sl = Some v
    | Published v => s_state sl = (enc p + 1)%N /\ s_value sl = Some v
    | Held i v => s_state sl = (enc p + 1)%N /\ g i = p /\
                  ag i = QHold (mkRef (ifld p) (enc (p + cap))) /\ s_value sl = Some v
    | Released v => s_state sl = enc (p + cap) /\ s_value sl = Some v
    end.

  Definition done_entry (e : entry) : Prop :=
    match e with Held _ _ | Released _ => True | _ => False end.

  Record SInv (c : core) (ag : agent -> pc) (q : queue) (g : ghost) : Prop := {
    i_order : qtaken q <= length (qlog q) <= qtaken q + cap;
    i_len : c_len c = N.of_nat cap;
    i_head : c_head c = enc (qtaken q);
    i_tail : c_tail c = word (qclosed q) (length (qlog q));
    i_done : forall p e, nth_error (qlog q) p = Some e -> p < qtaken q <-> done_entry e;
    i_slot : forall p e, nth_error (qlog q) p = Some e -> length (qlog q) <= p + cap ->
                slot_ok q g ag p e (c_slots c (ifld p));
    i_slot0 : forall p, length (qlog q) <= p < cap -> c_slots c (ifld p) = mkSlot (enc p) None;
    i_old : forall p e, nth_error (qlog q) p = Some e -> p + cap < length (qlog q) ->
                exists v, e = Released v }.

  (** A state observed when the local copy of tail was loaded. *)
  Definition saw_tail (i : agent) (es : list event) (hist : list queue) (q : queue) (p : nat) : Prop :=
    exists q0 : queue, In q0 (since_call i es hist) /\ length (qlog q0) = p /\ qclosed q0 = false
               /\ qtaken q0 <= qtaken q /\ p <= qtaken q0 + cap.

  Definition push_local i (es : list event) (hist : list queue) (q : queue) (g : ghost) (t : N) : Prop :=
    t = enc (g i) /\ g i <= length (qlog q) /\
    length (qlog q) <= g i + count_since is_reserve i es /\
    saw_tail i es hist q (g i) /\ pending i es.

  Definition pop_local i (es : list event) (q : queue) (g : ghost) (h : N) : Prop :=
    h = enc (g i) /\ g i <= qtaken q /\
    qtaken q <= g i + count_since is_take i es /\ pending i es.

  Definition len_local i (es : list event) (q : queue) (g : ghost) (b : bool) (t : N) : Prop :=
    t = word b (g i) /\ g i <= length (qlog q) /\
    length (qlog q) <= g i + count_since is_reserve i es /\
    (b = true -> qclosed q = true) /\ pending i es.

  Definition AInv (i : agent) (p : pc) (es : list event) (hist : list queue) (q : queue) (g : ghost) : Prop :=
    match p with
    | Idle => True
    | PStart | PReload | QStart | QReload _ | LTail => pending i es
    | PState t | PHead t => push_local i es hist q g t
    | PCas t => push_local i es hist q g t /\
        (g i = length (qlog q) -> length (qlog q) < qtaken q + cap /\
           (length (qlog q) < cap \/
            exists old, nth_error (qlog q) (length (qlog q) - cap) = Some (Released old)))
    | PInit t | PDead t => t = enc (g i) /\ nth_error (qlog q) (g i) = Some (Reserved i)
    | PHold r => r = mkRef (ifld (g i)) (enc (g i) + 1)%N /\
        exists v, nth_error (qlog q) (g i) = Some (Filling i v)
    | QState h _ => pop_local i es q g h
    | QCas h _ => pop_local i es q g h /\ (g i = qtaken q -> front_ready q)
    | QTail h _ => pop_local i es q g h /\
        exists q0, In q0 (since_call i es hist) /\ ~ front_ready q0 /\
          qtaken q0 = g i /\ g i <= length (qlog q0)
    | QHold r => r = mkRef (ifld (g i)) (enc (g i + cap)) /\
        exists v, nth_error (qlog q) (g i) = Some (Held i v)
    | LHead t => exists b, len_local i es q g b t
    | LCheck t h => exists b, len_local i es q g b t /\
        exists q0, In q0 (since_call i es hist) /\ h = enc (qtaken q0) /\
          g i <= length (qlog q0) <= length (qlog q) /\
          qtaken q0 <= length (qlog q0) <= qtaken q0 + cap /\
          (b = true -> qclosed q0 = true)
    | Crashed => False
    end.

  Record Inv (s : state) (es : list event) (hist : list queue) (q : queue) (g : ghost) : Prop := {
    inv_s : SInv (st_core s) (st_agents s) q g;
    inv_a : forall i, AInv i (st_agents s i) es hist q g }.

  Definition holder (p : pc) : bool :=
    match p with PInit _ | PDead _ | PHold _ | QHold _ => true | _ => false end.

  (** ** Stability of one agent's facts under another agent's step *)

  Definition b2n (b : bool) : nat := if b then 1 else 0.
  Definition oreserve (oe : option event) : bool := match oe with Some e => is_reserve e | None => false end.
  Definition otake (oe : option event) : bool := match oe with Some e => is_take e | None => false end.

  Record evolves (i : agent) (q : queue) (oe : option event) (q' : queue) : Prop := {
    ev_T : length (qlog q') = length (qlog q) + b2n (oreserve oe);
    ev_H : qtaken q' = qtaken q + b2n (otake oe);
    ev_closed : qclosed q = true -> qclosed q' = true;
    ev_rel : forall p v, nth_error (qlog q) p = Some (Released v) -> nth_error (qlog q') p = Some (Released v);
    ev_own : forall j p e, j <> i -> owner e = Some j -> nth_error (qlog q) p = Some e -> nth_error (qlog q') p = Some e;
    ev_front : front_ready q -> qtaken q' = qtaken q -> front_ready q';
    ev_agent : forall e, oe = Some e -> agent_of e = i;
    ev_none : oe = None -> q' = q }.

  Definition ohist (oe : option event) (q' : queue) (hist : list queue) : list queue :=
    match oe with Some _ => q' :: hist | None => hist end.

  Lemma pending_other i j (e : event) es : agent_of e = i -> j <> i -> pending j es -> pending j (e :: es).
  Proof.
    intros H1 H2 [o H]. exists o. simpl. rewrite H1.
    apply Nat.eqb_neq in H2. now rewrite H2.
  Qed.

  Lemma not_invoke_other i j (e : event) : agent_of e = i -> j <> i -> is_invoke j e = false.
  Proof. destruct e; simpl; auto. intros -> H. now apply Nat.eqb_neq. Qed.

  Lemma count_since_ocons f i j oe es :
    (forall e, oe = Some e -> agent_of e = i) -> j <> i ->
    count_since f j (ocons oe es) =
    b2n (match oe with Some e => f e | None => false end) + count_since (T := T) f j es.
  Proof.
    intros H1 H2. destruct oe as [e|]; simpl; auto.
    rewrite (not_invoke_other i j e); auto.
  Qed.

  Lemma window_ocons i j oe es q' hist q0 :
    (forall e, oe = Some e -> agent_of e = i) -> j <> i ->
    In q0 (since_call (T := T) j es hist) ->
    In q0 (since_call j (ocons oe es) (ohist oe q' hist)).
  Proof.
    intros H1 H2 H. destruct oe as [e|]; simpl; auto.
    rewrite (not_invoke_other i j e); auto.
  Qed.

  Lemma pending_ocons i j oe es :
    (forall e, oe = Some e -> agent_of e = i) -> j <> i -> pending (T := T) j es -> pending j (ocons oe es).
  Proof. intros H1 H2 H. destruct oe as [e|]; simpl; auto. apply (pending_other i); auto. Qed.

  Lemma AInv_stable i j oe es hist q q' g g' p :
    evolves i q oe q' -> j <> i -> g' j = g j ->
    AInv j p es hist q g -> AInv j p (ocons oe es) (ohist oe q' hist) q' g'.
  Proof.
    intros Ev Hj Hg HA. destruct Ev as [HT HH Hc Hrel Hown Hfr Hag Hnone].
    assert (Hpend : pending j es -> pending j (ocons oe es)) by (eapply pending_ocons; eauto).
    assert (HcR : count_since is_reserve j (ocons oe es) = b2n (oreserve oe) + count_since is_reserve j es)
      by (apply (count_since_ocons _ i); auto).
    assert (HcT : count_since is_take j (ocons oe es) = b2n (otake oe) + count_since is_take j es)
      by (apply (count_since_ocons _ i); auto).
    assert (Hwin : forall q0, In q0 (since_call j es hist) -> In q0 (since_call j (ocons oe es) (ohist oe q' hist)))
      by (intros; eapply window_ocons; eauto).
    assert (Hpush : forall t, push_local j es hist q g t -> push_local j (ocons oe es) (ohist oe q' hist) q' g' t).
    { intros t (E1 & E2 & E3 & (q0 & W1 & W2 & W3 & W4 & W5) & E5). unfold push_local. rewrite Hg, HcR.
      repeat split; auto; try lia. exists q0. repeat split; auto; lia. }
    assert (Hpop : forall h, pop_local j es q g h -> pop_local j (ocons oe es) q' g' h).
    { intros t (E1 & E2 & E3 & E4). unfold pop_local. rewrite Hg, HcT. repeat split; auto; lia. }
    assert (Hlen : forall b t, len_local j es q g b t -> len_local j (ocons oe es) q' g' b t).
    { intros b t (E1 & E2 & E3 & E4 & E5). unfold len_local. rewrite Hg, HcR. repeat split; auto; lia. }
    destruct p; simpl in *; auto; rewrite ?Hg.
    - (* PCas *) destruct HA as [HA1 HA2]. split; auto. intros Heq.
      destruct HA1 as (_ & HA1 & _).
      assert (length (qlog q') = length (qlog q)) as E by lia. rewrite E.
      destruct HA2 as [B1 B2]; [lia|]. split; [lia|].
      destruct B2 as [B2|[old B2]]; [now left|right]. exists old. auto.
    - destruct HA as [E H]; split; auto. eapply Hown; eauto; reflexivity.
    - destruct HA as [E [v H]]; split; auto. exists v. eapply Hown; eauto; reflexivity.
    - destruct HA as [E H]; split; auto. eapply Hown; eauto; reflexivity.
    - (* QCas *) destruct HA as [HA1 HA2]. split; auto. intros Heq.
      destruct HA1 as (_ & HA1 & _). apply Hfr; [apply HA2; lia|lia].
    - (* QTail *) destruct HA as [HA1 (q0 & HA2 & HA3)]. split; auto. exists q0. rewrite ?Hg. auto.
    - destruct HA as [E [v H]]; split; auto. exists v. eapply Hown; eauto; reflexivity.
    - destruct HA as [b HA]. exists b. auto.
    - destruct HA as [b [HA (q0 & B1 & B2 & B3 & B4 & B5)]]. exists b. split; auto.
      exists q0. repeat split; auto; lia.
  Qed.

  (** ** Facts derivable from the invariant *)

  Lemma win_distinct n p p' : p < n -> p' < n -> n <= p + cap -> n <= p' + cap ->
    ifld p = ifld p' -> p = p'.
  Proof.
    intros. destruct (Nat.le_ge_cases p p').
    - eapply mod_window; eauto; lia.
    - symmetry. eapply mod_window; eauto; lia.
  Qed.

  Section Facts.
    Variables (c : core) (ag : agent -> pc) (q : queue) (g : ghost).
    Hypothesis HS : SInv c ag q g.

    Lemma live_in_window p e : nth_error (qlog q) p = Some e -> (forall v, e <> Released v) ->
      length (qlog q) <= p + cap.
    Proof.
      intros H1 H2. destruct (Nat.le_gt_cases (length (qlog q)) (p + cap)) as [|Hlt]; auto.
      destruct (i_old _ _ _ _ HS p e H1 Hlt) as [v ->]. now destruct (H2 v).
    Qed.

    Lemma owner_holder p e i : nth_error (qlog q) p = Some e -> owner e = Some i ->
      holder (ag i) = true /\ g i = p.
    Proof.
      intros H Ho. assert (L : length (qlog q) <= p + cap).
      { eapply live_in_window; eauto. intros v ->. discriminate. }
      pose proof (i_slot _ _ _ _ HS _ _ H L) as Hs.
      destruct e; simpl in *; try discriminate; injection Ho as ->.
      - destruct Hs as (_ & Hg & [-> | ->] & _); auto.
      - destruct Hs as (_ & Hg & -> & _). auto.
      - destruct Hs as (_ & Hg & -> & _). auto.
    Qed.

    Lemma not_holder_unowned i : holder (ag i) = false -> unowned q i.
    Proof. intros H1 p e H2 H3. destruct (owner_holder _ _ _ H2 H3). congruence. Qed.

    (** What the slot of the tail position says. *)
    Lemma tail_slot_free : s_state (c_slots c (ifld (length (qlog q)))) = enc (length (qlog q)) ->
      length (qlog q) < qtaken q + cap /\
      (length (qlog q) < cap \/
       exists old, nth_error (qlog q) (length (qlog q) - cap) = Some (Released old)).
    Proof.
      intros E. pose proof (cap_pos _ _ Hwf). pose proof (i_order _ _ _ _ HS).
      set (n := length (qlog q)) in *.
      destruct (Nat.lt_ge_cases n cap) as [|Hge]; [split; [lia|now left]|].
      destruct (nth_ex (qlog q) (n - cap)) as [e He]; [lia|].
      assert (Hs := i_slot _ _ _ _ HS _ _ He ltac:(fold n; lia)).
      assert (Ei : ifld (n - cap) = ifld n).
      { rewrite <- (ifield_add_cap W cap Hwf). f_equal. lia. }
      rewrite Ei in Hs. assert (En : (n - cap + cap = n)%nat) by lia.
      destruct e as [i|i v|v|i v|v]; simpl in Hs.
      - destruct Hs as (Hs & _). rewrite E in Hs. exfalso.
        apply (enc_neq_cap W cap Hwf (n - cap)). now rewrite En.
      - destruct Hs as (Hs & _). rewrite E in Hs. exfalso.
        apply (enc_neq_cap W cap Hwf (n - cap)). now rewrite En.
      - destruct Hs as (Hs & _). rewrite E in Hs. exfalso. symmetry in Hs.
        now apply (enc_S_neq W cap Hwf) in Hs.
      - destruct Hs as (Hs & _). rewrite E in Hs. exfalso. symmetry in Hs.
        now apply (enc_S_neq W cap Hwf) in Hs.
      - assert (n - cap < qtaken q) by (apply (i_done _ _ _ _ HS _ _ He); exact I).
        split; [lia|]. right. exists v. auto.
    Qed.

    (** What the slot of the head position says. *)
    Lemma head_slot_ready : s_state (c_slots c (ifld (qtaken q))) = (enc (qtaken q) + 1)%N -> front_ready q.
    Proof.
      intros E. pose proof (cap_pos _ _ Hwf). pose proof (i_order _ _ _ _ HS).
      destruct (Nat.lt_ge_cases (qtaken q) (length (qlog q))) as [Hlt|Hge].
      - destruct (nth_ex (qlog q) (qtaken q)) as [e He]; [lia|].
        assert (Hs := i_slot _ _ _ _ HS _ _ He ltac:(lia)).
        assert (Hd := i_done _ _ _ _ HS _ _ He).
        destruct e as [i|i v|v|i v|v]; simpl in Hs, Hd.
        + destruct Hs as (Hs & _). rewrite E in Hs. now apply (enc_S_neq W cap Hwf) in Hs.
        + destruct Hs as (Hs & _). rewrite E in Hs. now apply (enc_S_neq W cap Hwf) in Hs.
        + now exists v.
        + lia.
        + lia.
      - assert (Hq : qtaken q = length (qlog q)) by lia. rewrite Hq in E. exfalso.
        set (n := length (qlog q)) in *.
        destruct (Nat.lt_ge_cases n cap) as [Hc|Hc].
        + rewrite (i_slot0 _ _ _ _ HS n) in E by (fold n; lia). simpl in E. lia.
        + destruct (nth_ex (qlog q) (n - cap)) as [e He]; [lia|].
          assert (Hs := i_slot _ _ _ _ HS _ _ He ltac:(fold n; lia)).
          assert (Ei : ifld (n - cap) = ifld n).
          { rewrite <- (ifield_add_cap W cap Hwf). f_equal. lia. }
          rewrite Ei in Hs. assert (En : (n - cap + cap = n)%nat) by lia.
          assert (Hd := i_done _ _ _ _ HS _ _ He).
          destruct e as [i|i v|v|i v|v]; simpl in Hs, Hd.
          * lia.
          * lia.
          * lia.
          * destruct Hs as (Hs & _). rewrite E in Hs.
            apply (enc_neq_cap W cap Hwf (n - cap)). rewrite En. lia.
          * destruct Hs as (Hs & _). rewrite E, En in Hs. lia.
    Qed.

    (** A popper that sees [state == head] with a recent enough [head] sees the
        current front, and it is not ready. *)
    Lemma head_slot_blocked p : p <= qtaken q -> (N.of_nat (qtaken q) < N.of_nat p + slack W cap)%N ->
      s_state (c_slots c (ifld p)) = enc p -> p = qtaken q /\ ~ front_ready q.
    Proof.
      intros Hle Hst E. pose proof (cap_pos _ _ Hwf) as Hc0. pose proof (i_order _ _ _ _ HS) as Ho.
      pose proof (slack_span _ _ Hwf) as Hsp.
      assert (Hp : p = qtaken q).
      { set (n := length (qlog q)) in *.
        (* the position currently occupying the slot of p *)
        destruct (Nat.lt_ge_cases n cap) as [Hnc|Hnc].
        - destruct (Nat.lt_ge_cases p n) as [Hpn|Hpn]; [|lia].
          destruct (nth_ex (qlog q) p) as [e He]; [exact Hpn|].
          assert (Hs := i_slot _ _ _ _ HS _ _ He ltac:(fold n; lia)).
          assert (Hd := i_done _ _ _ _ HS _ _ He).
          destruct e as [i|i v|v|i v|v]; simpl in Hs, Hd.
          + lia.
          + lia.
          + lia.
          + destruct Hs as (Hs & _). lia.
          + destruct Hs as (Hs & _). rewrite E in Hs. symmetry in Hs. now apply (enc_neq_cap W cap Hwf) in Hs.
        - (* p' in [n - cap, n) with the same index *)
          set (d := (n - cap) mod cap). set (r := p mod cap).
          assert (Hex : exists p', n - cap <= p' < n /\ ifld p' = ifld p).
          { assert (Hr : r < cap) by (apply Nat.mod_upper_bound; lia).
            assert (Hdlt : d < cap) by (apply Nat.mod_upper_bound; lia).
            pose proof (Nat.div_mod (n - cap) cap ltac:(lia)) as Hdm. fold d in Hdm.
            set (k := (n - cap) / cap) in *.
            destruct (Nat.le_gt_cases d r).
            - exists (cap * k + r). split; [lia|]. unfold ifield. f_equal.
              rewrite Nat.add_comm, Nat.mul_comm, Nat.mod_add by lia. now apply Nat.mod_small.
            - exists (cap * (k + 1) + r). split; [lia|]. unfold ifield. f_equal.
              rewrite Nat.add_comm, Nat.mul_comm, Nat.mod_add by lia. now apply Nat.mod_small. }
          destruct Hex as (p' & Hp' & Hi).
          destruct (nth_ex (qlog q) p') as [e He]; [fold n; lia|].
          assert (Hs := i_slot _ _ _ _ HS _ _ He ltac:(fold n; lia)).
          assert (Hd := i_done _ _ _ _ HS _ _ He).
          rewrite Hi in Hs.
          destruct e as [i|i v|v|i v|v]; simpl in Hs, Hd.
          + destruct Hs as (Hs & _). rewrite E in Hs.
            apply (enc_inj W cap Hwf) in Hs; [lia|lia|lia].
          + destruct Hs as (Hs & _). rewrite E in Hs.
            apply (enc_inj W cap Hwf) in Hs; [lia|lia|lia].
          + destruct Hs as (Hs & _). rewrite E in Hs. symmetry in Hs.
            now apply (enc_S_neq W cap Hwf) in Hs.
          + destruct Hs as (Hs & _). rewrite E in Hs. symmetry in Hs.
            now apply (enc_S_neq W cap Hwf) in Hs.
          + destruct Hs as (Hs & _). rewrite E in Hs.
            apply (enc_inj W cap Hwf) in Hs; [lia|lia|lia]. }
      split; auto. intros [v Hv]. subst p.
      assert (Hs := i_slot _ _ _ _ HS _ _ Hv ltac:(lia)). simpl in Hs. destruct Hs as [Hs _]. lia.
    Qed.
  End Facts.

  (** ** Initial state *)
  Lemma Inv_init : Inv (init_state P) [] [empty_queue] empty_queue (fun _ => 0).
  Proof.
    pose proof (cap_pos _ _ Hwf).
    constructor; simpl; auto.
    constructor; simpl; try lia; auto.
    - rewrite enc_small; auto.
    - symmetry. apply (enc_small W cap Hwf 0). lia.
    - intros [|p] e; discriminate.
    - intros [|p] e; discriminate.
    - intros p Hp. unfold slot_new. f_equal.
      unfold ifield. rewrite Nat.mod_small by lia. symmetry. apply enc_small; auto. lia.
  Qed.

  (** ** Steps that leave the log unchanged and do not touch the core *)
  Lemma evolves_refl i q oe : oreserve oe = false -> otake oe = false ->
    (forall e, oe = Some e -> agent_of e = i) -> evolves i q oe q.
  Proof. intros H1 H2 H3. constructor; auto; rewrite ?H1, ?H2; simpl; lia. Qed.

  Lemma SInv_agents c ag ag' q g g' :
    SInv c ag q g -> (forall j, holder (ag j) = true -> ag' j = ag j /\ g' j = g j) ->
    SInv c ag' q g'.
  Proof.
    intros HS H. constructor; try apply HS.
    intros p e He Hw. assert (Hs := i_slot _ _ _ _ HS p e He Hw).
    destruct e as [i|i v|v|i v|v]; simpl in *; auto;
      destruct (owner_holder _ _ _ _ HS _ _ i He eq_refl) as [Hh _]; destruct (H i Hh) as [-> ->]; auto.
  Qed.

  Lemma inv_frame s es hist q g i p' oe g' :
    Inv s es hist q g ->
    holder (st_agents s i) = false ->
    oreserve oe = false -> otake oe = false -> (forall e, oe = Some e -> agent_of e = i) ->
    (forall j, j <> i -> g' j = g j) ->
    AInv i p' (ocons oe es) (ohist oe q hist) q g' ->
    Inv (mkS (st_core s) (upd (st_agents s) i p')) (ocons oe es) (ohist oe q hist) q g'.
  Proof.
    intros HI Hh H1 H2 H3 Hg HA. constructor; simpl.
    - eapply SInv_agents; [apply HI|]. intros j Hj.
      assert (j <> i) by congruence. rewrite upd_other by auto. auto.
    - intros j. destruct (Nat.eq_dec j i) as [->|Hj].
      + now rewrite upd_same.
      + rewrite upd_other by auto. eapply AInv_stable; [|exact Hj|auto|apply HI].
        apply evolves_refl; auto.
  Qed.
End Inv.
