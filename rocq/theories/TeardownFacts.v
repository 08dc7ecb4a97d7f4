(** What is initialised when a queue is dropped. *)
From Coq Require Import List Bool Arith NArith Lia.
From Coq Require Import ZifyN ZifyNat ZifyBool.
From Verif Require Import Word QueueSpec History CoreModel CoreArith CoreInv CoreStep HistoryFacts RingSpec RingFacts Teardown.
Import ListNotations.

Lemma window_pos cap n k : 0 < cap -> k < cap -> k < n -> exists p, p < n /\ n <= p + cap /\ p mod cap = k.
Proof.
  intros Hc Hk Hn. exists (n - 1 - (n - 1 - k) mod cap).
  pose proof (Nat.mod_upper_bound (n - 1 - k) cap ltac:(lia)).
  pose proof (Nat.mod_le (n - 1 - k) cap ltac:(lia)).
  repeat split; try lia.
  pose proof (Nat.div_mod (n - 1 - k) cap ltac:(lia)) as E.
  replace (n - 1 - (n - 1 - k) mod cap) with (k + ((n - 1 - k) / cap) * cap) by nia.
  rewrite Nat.mod_add by lia. now apply Nat.mod_small.
Qed.

Section Facts.
  Context {T : Type}.
  Variables (W : N) (cap : nat) (pol : policy T).
  Hypothesis Hwf : wf W cap.
  Notation P := (core_new W (N.of_nat cap)).
  Notation enc := (enc W cap).
  Notation ifld := (ifield cap).
  Notation SInv := (SInv (T := T) W cap).
  Notation B := (slack W cap).

  Definition is_init (c : core T) (k : nat) : Prop := s_value (c_slots c (N.of_nat k)) <> None.

  Lemma init_iff c ag q g k : SInv c ag q g -> (forall j, constructing (ag j) = false) -> k < cap ->
    is_init c k <-> k < length (qlog q).
  Proof.
    intros HS Hc Hk. pose proof (cap_pos _ _ Hwf) as Hcap. unfold is_init. split.
    - intros Hi. destruct (Nat.lt_ge_cases k (length (qlog q))) as [|Hge]; auto. exfalso. apply Hi.
      assert (E := i_slot0 _ _ _ _ _ _ HS k ltac:(lia)). unfold ifield in E. rewrite Nat.mod_small in E by auto.
      now rewrite E.
    - intros Hn. destruct (window_pos cap (length (qlog q)) k Hcap Hk Hn) as (p & H1 & H2 & H3).
      destruct (nth_ex (qlog q) p H1) as [e He].
      assert (Hs := i_slot _ _ _ _ _ _ HS _ _ He H2). unfold ifield in Hs. rewrite H3 in Hs.
      destruct e as [j|j v|v|j v|v]; simpl in Hs.
      + exfalso. destruct Hs as (_ & _ & [E|E] & _); specialize (Hc j); rewrite E in Hc; discriminate.
      + destruct Hs as (_ & _ & _ & ->). discriminate.
      + destruct Hs as (_ & ->). discriminate.
      + destruct Hs as (_ & _ & _ & ->). discriminate.
      + destruct Hs as (_ & ->). discriminate.
  Qed.

  Lemma gen_zero_iff n : (N.of_nat n < span W cap)%N -> (gfield W cap n = 0)%N <-> n < cap.
  Proof.
    intros Hn. pose proof (cap_pos _ _ Hwf) as Hcap. unfold gfield, span in *.
    assert (Hd : (N.of_nat (n / cap) < ngen W cap)%N).
    { rewrite Nat2N.inj_div. apply N.div_lt_upper_bound; lia. }
    rewrite N.mod_small by auto. split; intros H.
    - destruct (Nat.lt_ge_cases n cap) as [|Hge]; auto. assert (1 <= n / cap); [|lia].
      apply Nat.div_le_lower_bound; lia.
    - now rewrite Nat.div_small.
  Qed.

  Lemma num_init c ag q g : SInv c ag q g -> (N.of_nat (length (qlog q)) < span W cap)%N ->
    num_initialized P c = N.of_nat (Nat.min cap (length (qlog q))).
  Proof.
    intros HS Hn. unfold num_initialized. rewrite (i_tail _ _ _ _ _ _ HS), (idx_gen_word _ _ Hwf).
    pose proof (gen_zero_iff _ Hn) as Hz. pose proof (G_eq cap) as HG. pose proof (K_pos cap) as HK.
    pose proof (cap_pos _ _ Hwf).
    change (p_capacity P) with (N.of_nat cap).
    destruct (N.ltb_spec 0 (gfield W cap (length (qlog q)) * gword cap)) as [H1|H1].
    - rewrite Nat.min_l; auto. destruct (Nat.lt_ge_cases (length (qlog q)) cap) as [Hlt|]; auto.
      apply Hz in Hlt. rewrite Hlt in H1. lia.
    - assert (Hlt : length (qlog q) < cap) by (apply Hz; nia).
      rewrite Nat.min_r by lia. unfold ifield. now rewrite Nat.mod_small.
  Qed.

  Lemma drop_exact es s : run P pol es s -> calm B es ->
    (forall j, constructing (st_agents s j) = false) ->
    (N.of_nat (count is_reserve es) < span W cap)%N ->
    forall k, k < cap -> is_init (st_core s) k <-> (N.of_nat k < num_initialized P (st_core s))%N.
  Proof.
    intros Hr HC Hn Hsp k Hk.
    destruct (run_good _ _ _ Hwf _ _ Hr HC) as (q & hist & g & HI & HE).
    pose proof (inv_s _ _ _ _ _ _ _ HI) as HS.
    rewrite <- (h_res _ _ _ (explains_hist _ _ _ _ _ _ _ HE)) in Hsp.
    rewrite (num_init _ _ _ _ HS Hsp), (init_iff _ _ _ _ _ HS Hn Hk). lia.
  Qed.

  Lemma drop_count es s : run P pol es s -> calm B es ->
    (N.of_nat (count is_reserve es) < span W cap)%N ->
    length (drop_slots P (st_core s)) = Nat.min cap (count is_reserve es).
  Proof.
    intros Hr HC Hsp. destruct (run_good _ _ _ Hwf _ _ Hr HC) as (q & hist & g & HI & HE).
    pose proof (inv_s _ _ _ _ _ _ _ HI) as HS.
    rewrite <- (h_res _ _ _ (explains_hist _ _ _ _ _ _ _ HE)) in *.
    unfold drop_slots. rewrite map_length, seq_length, (num_init _ _ _ _ HS Hsp). lia.
  Qed.

  Lemma drop_contents es s : run P pol es s -> calm B es -> (forall j, st_agents s j = Idle) ->
    (N.of_nat (count is_reserve es) < span W cap)%N ->
    forall p, p < count is_reserve es -> count is_reserve es <= p + cap ->
      exists v, nth_error (drop_slots P (st_core s)) (p mod cap) = Some (Some v) /\
        (if p <? count is_take es then released es p else committed es p) = Some v.
  Proof.
    intros Hr HC Hid Hsp p Hp1 Hp2. destruct (run_good _ _ _ Hwf _ _ Hr HC) as (q & hist & g & HI & HE).
    pose proof (inv_s _ _ _ _ _ _ _ HI) as HS. pose proof (explains_hist _ _ _ _ _ _ _ HE) as Hok.
    rewrite <- (h_res _ _ _ Hok) in *. rewrite <- (h_take _ _ _ Hok).
    pose proof (cap_pos _ _ Hwf) as Hcap.
    destruct (nth_ex (qlog q) p Hp1) as [e He].
    assert (Hs := i_slot _ _ _ _ _ _ HS _ _ He Hp2).
    assert (Hd := i_done _ _ _ _ _ _ HS _ _ He).
    assert (Hx := h_entry _ _ _ Hok _ _ He).
    assert (Hlt : p mod cap < Nat.min cap (length (qlog q))).
    { pose proof (Nat.mod_upper_bound p cap ltac:(lia)). pose proof (Nat.mod_le p cap ltac:(lia)). lia. }
    assert (Hnth : nth_error (drop_slots P (st_core s)) (p mod cap) = Some (s_value (c_slots (st_core s) (ifld p)))).
    { unfold drop_slots. rewrite (num_init _ _ _ _ HS Hsp), Nat2N.id.
      apply (map_nth_error (fun i => s_value (c_slots (st_core s) (N.of_nat i))) (p mod cap)).
      rewrite (nth_error_nth' _ 0) by (rewrite seq_length; lia). rewrite seq_nth by lia. reflexivity. }
    rewrite Hnth. destruct e as [j|j v|v|j v|v]; simpl in Hs, Hd, Hx.
    - destruct Hs as (_ & _ & [E|E] & _); rewrite Hid in E; discriminate.
    - destruct Hs as (_ & _ & E & _); rewrite Hid in E; discriminate.
    - destruct Hs as (_ & ->). exists v. split; auto.
      replace (p <? qtaken q) with false by (symmetry; apply Nat.ltb_ge; lia). auto.
    - destruct Hs as (_ & _ & E & _); rewrite Hid in E; discriminate.
    - destruct Hs as (_ & ->). exists v. split; auto.
      replace (p <? qtaken q) with true by (symmetry; apply Nat.ltb_lt; lia). tauto.
  Qed.

  (** ** A poisoned slot *)
  Lemma poisoned i es s : run P pol es s -> forall es2 es1, es = es2 ++ Poison i :: es1 ->
    (exists t, st_agents s i = PDead t) /\ Forall (fun e => agent_of e <> i) es2.
  Proof.
    induction 1 as [|es s a s' oe Hr IH Hst]; intros es2 es1 E.
    - destruct es2; discriminate.
    - assert (Hstep : forall t, st_agents s i = PDead t ->
        st_agents s' i = PDead t /\ forall e, oe = Some e -> agent_of e <> i).
      { intros t Hd. destruct a as [k o|k sp|k v|k|k|k pa]; cbn [step] in Hst;
          (destruct (Nat.eq_dec k i) as [->|Hne]; [rewrite Hd in Hst; discriminate|]).
        - destruct (st_agents s k); try discriminate. injection Hst as <- <-. simpl. rewrite upd_other by auto.
          split; auto. intros e [= <-]. auto.
        - destruct (stepping (st_agents s k)); [|discriminate].
          destruct (cstep P pol (st_core s) k (st_agents s k) sp) as [[c' p'] e'] eqn:Ec. injection Hst as <- <-.
          simpl. rewrite upd_other by auto. split; auto. intros e ->.
          assert (agent_of e = k); [|congruence].
          clear - Ec. destruct (st_agents s k); cbn [cstep] in Ec; unfold push_top in Ec;
            repeat match type of Ec with
              | context [if ?x then _ else _] => destruct x
              | context [match ?x with _ => _ end] => destruct x end;
            try discriminate; inversion Ec; subst; reflexivity.
        - destruct (st_agents s k); try discriminate; injection Hst as <- <-; simpl; split; auto; intros e [= <-]; auto.
        - destruct (st_agents s k); try discriminate; injection Hst as <- <-; simpl; rewrite upd_other by auto;
            split; auto; intros e [= <-]; destruct (s_value _); auto.
        - destruct (st_agents s k); try discriminate; injection Hst as <- <-; simpl; rewrite upd_other by auto;
            split; auto; intros e [= <-]; auto.
        - destruct (st_agents s k); try discriminate. destruct (core_close P (st_core s) pa).
          injection Hst as <- <-. simpl. split; auto; intros e [= <-]; auto. }
      destruct oe as [e|]; simpl in E.
      + destruct es2 as [|e2 es2]; simpl in E.
        * injection E as -> ->. split; [|constructor].
          assert (HX : exists t, st_agents s i = PInit t /\ a = APanic i).
          { clear - Hst. destruct a as [k o|k sp|k v|k|k|k pa]; cbn [step] in Hst.
            - destruct (st_agents s k); discriminate.
            - destruct (stepping (st_agents s k)); [|discriminate].
              destruct (cstep P pol (st_core s) k (st_agents s k) sp) as [[c' p'] e'] eqn:Ec. injection Hst as _ ->.
              exfalso. destruct (st_agents s k); cbn [cstep] in Ec; unfold push_top in Ec;
                repeat match type of Ec with
              | context [if ?x then _ else _] => destruct x
              | context [match ?x with _ => _ end] => destruct x end; discriminate.
            - destruct (st_agents s k); discriminate.
            - destruct (st_agents s k); try discriminate; destruct (s_value _); discriminate.
            - destruct (st_agents s k) eqn:E; try discriminate. injection Hst as _ <-. eauto.
            - destruct (st_agents s k); try discriminate. destruct (core_close P (st_core s) pa); discriminate. }
          destruct HX as (t & Ht & ->). cbn [step] in Hst. rewrite Ht in Hst. injection Hst as <-.
          exists t. simpl. apply upd_same.
        * injection E as <- ->. destruct (IH es2 es1 eq_refl) as [[t Ht] HF].
          destruct (Hstep t Ht) as [H1 H2]. split; [eauto|]. constructor; auto.
      + destruct (IH es2 es1 E) as [[t Ht] HF]. destruct (Hstep t Ht) as [H1 H2]. eauto.
  Qed.

  Lemma last_is_quiet i es2 es1 n : Forall (fun e => agent_of e <> i) es2 ->
    last_is i (reservers (es2 ++ es1)) n = last_is i (reservers (T := T) es1) n.
  Proof.
    induction es2 as [|e es2 IH]; intros HF; auto. apply Forall_cons_iff in HF as [He HF].
    destruct e; simpl; auto. simpl in He. rewrite last_is_snoc_other by auto. auto.
  Qed.

  Lemma poison_wedges es2 i es1 p : ring_history W cap pol (es2 ++ Poison i :: es1) ->
    calm B (es2 ++ Poison i :: es1) -> last_is i (reservers es1) p = true ->
    count is_take (es2 ++ Poison i :: es1) <= p /\ count is_reserve (es2 ++ Poison i :: es1) <= p + cap.
  Proof.
    intros [s Hr] HC Hl. destruct (poisoned i _ _ Hr _ _ eq_refl) as [[t Ht] HF].
    destruct (run_good _ _ _ Hwf _ _ Hr HC) as (q & hist & g & HI & HE).
    pose proof (inv_s _ _ _ _ _ _ _ HI) as HS. pose proof (explains_hist _ _ _ _ _ _ _ HE) as Hok.
    pose proof (inv_a _ _ _ _ _ _ _ HI i) as HA. rewrite Ht in HA. simpl in HA. destruct HA as [_ Hn].
    pose proof (h_entry _ _ _ Hok _ _ Hn) as [Hx _].
    rewrite last_is_quiet in Hx by auto. cbn [reservers] in Hx.
    pose proof (last_is_unique _ _ _ _ Hx Hl) as Eg.
    pose proof (i_done _ _ _ _ _ _ HS _ _ Hn) as Hd. simpl in Hd.
    pose proof (i_order _ _ _ _ _ _ HS) as Ho.
    rewrite <- (h_res _ _ _ Hok), <- (h_take _ _ _ Hok). lia.
  Qed.
End Facts.
