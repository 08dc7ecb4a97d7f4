(** What happens without the premise [calm]: a push that sleeps while the generation counter goes once around
    (the ABA problem) ruins the queue, on every machine. *)
From Coq Require Import List Bool Arith NArith Lia.
From Verif Require Import Word QueueSpec CoreModel CoreArith CoreInv CoreStep RingSpec RingFacts SeqModel SeqSpec SeqFacts HistoryFacts History.
Import ListNotations.

(** ** A call stopped before its compare_exchange does not disturb the others *)
Section Frame.
  Context {T : Type}.
  Variables (P : params) (pol : policy T) (A : agent).
  Hypothesis Hidx : idx_gen P 0 = (0, 0)%N.
  Hypothesis Hlen : (0 < p_capacity P)%N.
  Notation state := (@state T).
  Notation run := (run P pol).

  Definition actor (a : @action T) : agent :=
    match a with AInvoke i _ | AStep i _ | AWrite i _ | ADrop i | APanic i | AClose i _ => i end.

  Lemma cstep_agent c i p b c' p' e : cstep P pol c i p b = (c', p', Some e) -> agent_of e = i.
  Proof.
    destruct p; cbn [cstep]; unfold push_top; intros H;
      repeat match type of H with context [match ?x with _ => _ end] =>
        lazymatch x with context [match ?y with _ => _ end] => destruct y | _ => destruct x end end; try discriminate; inversion H; subst; reflexivity.
  Qed.

  Lemma actor_event s a s' e : step P pol s a = Some (s', Some e) -> agent_of e = actor a.
  Proof.
    destruct a as [i o|i b|i v|i|i|i b]; cbn [step actor].
    - destruct (st_agents s i); try discriminate. now intros [= _ <-].
    - destruct (stepping _); [|discriminate]. destruct (cstep P pol (st_core s) i (st_agents s i) b) as [[c' p'] oe] eqn:E.
      intros [= _ ->]. exact (cstep_agent _ _ _ _ _ _ _ E).
    - destruct (st_agents s i); try discriminate; now intros [= _ <-].
    - destruct (st_agents s i); try discriminate; intros [= _ <-]; now destruct (s_value _).
    - destruct (st_agents s i); try discriminate. now intros [= _ <-].
    - destruct (st_agents s i); try discriminate. destruct (core_close _ _ _). now intros [= _ <-].
  Qed.

  Lemma idle_acts s a s' e : st_agents s (actor a) = Idle -> step P pol s a = Some (s', e) -> exists x, e = Some x.
  Proof.
    destruct a as [i o|i b|i v|i|i|i b]; cbn [step actor]; intros ->; try discriminate.
    - intros [= _ <-]. eauto.
    - destruct (core_close _ _ _). intros [= _ <-]. eauto.
  Qed.

  Lemma other_stays s a s' e : actor a <> A -> step P pol s a = Some (s', e) -> st_agents s' A = st_agents s A.
  Proof.
    intros Ha. assert (U : forall (f : agent -> pc) p, upd f (actor a) p A = f A).
    { intros f p. unfold upd. destruct (Nat.eqb_spec A (actor a)); congruence. }
    destruct a as [i o|i b|i v|i|i|i b]; cbn [step actor] in *.
    - destruct (st_agents s i); try discriminate. intros [= <- _]. apply U.
    - destruct (stepping _); [|discriminate]. destruct (cstep _ _ _ _ _ _) as [[c' p'] oe]. intros [= <- _]. apply U.
    - destruct (st_agents s i); try discriminate; now intros [= <- _].
    - destruct (st_agents s i); try discriminate; intros [= <- _]; apply U.
    - destruct (st_agents s i); try discriminate. intros [= <- _]. apply U.
    - destruct (st_agents s i); try discriminate. destruct (core_close _ _ _). now intros [= <- _].
  Qed.

  (** The states differ only in where [A] is. *)
  Definition same_but (s s' : state) : Prop := st_core s' = st_core s /\ forall j, j <> A -> st_agents s' j = st_agents s j.

  Lemma frame_step s a s1 e s' : actor a <> A -> same_but s s' -> step P pol s a = Some (s1, e) ->
    exists s1', step P pol s' a = Some (s1', e) /\ same_but s1 s1'.
  Proof.
    intros Ha [Hc Hj]. pose proof (Hj _ Ha) as Hi.
    assert (U : forall c p, same_but (mkS c (upd (st_agents s) (actor a) p)) (mkS c (upd (st_agents s') (actor a) p))).
    { intros c p. split; [reflexivity|]. intros j Hne. cbn [st_agents]. unfold upd. destruct (Nat.eqb j (actor a)); auto. }
    destruct a as [i o|i b|i v|i|i|i b]; cbn [step actor] in *; rewrite Hi, Hc.
    - destruct (st_agents s i); try discriminate. intros [= <- <-]. eexists. split; [reflexivity|apply U].
    - destruct (stepping _); [|discriminate]. destruct (cstep _ _ _ _ _ _) as [[c' p'] oe]. intros [= <- <-]. eexists. split; [reflexivity|apply U].
    - destruct (st_agents s i); try discriminate; intros [= <- <-]; eexists; (split; [reflexivity|]); split; auto.
    - destruct (st_agents s i); try discriminate; intros [= <- <-]; eexists; (split; [reflexivity|apply U]).
    - destruct (st_agents s i); try discriminate. intros [= <- <-]. eexists. split; [reflexivity|apply U].
    - destruct (st_agents s i); try discriminate. destruct (core_close _ _ _). intros [= <- <-]. eexists. split; [reflexivity|]. split; auto.
  Qed.

  (** Any execution in which [A] does nothing can also happen after [A] has called push_ref, loaded tail and the
      state of the first slot, and stopped before its compare_exchange (/repo/src/lib.rs:187-218). *)
  Lemma asleep_run es s : run es s -> Forall (fun e => agent_of e <> A) es ->
    st_agents s A = Idle /\
    exists s', run (es ++ [Invoke A OpPush]) s' /\ st_agents s' A = PCas 0 /\ same_but s s'.
  Proof.
    induction 1 as [|es s a s1 e Hr IH Hs]; intros HF.
    - split; [reflexivity|].
      assert (H1 : step P pol (init_state P) (AInvoke A OpPush) = Some (mkS (st_core (T := T) (init_state P)) (upd (st_agents (T := T) (init_state P)) A PStart), Some (Invoke A OpPush)))
        by reflexivity.
      set (s1 := mkS _ (upd _ A PStart)) in H1. pose proof (run_step P pol [] _ _ _ _ (run_init P pol) H1) as R1. cbn [ocons] in R1.
      assert (E1 : st_agents s1 A = PStart) by (unfold s1; cbn; unfold upd; now rewrite Nat.eqb_refl).
      assert (H2 : step P pol s1 (AStep A false) = Some (mkS (st_core s1) (upd (st_agents s1) A (PState 0)), None)).
      { cbn [step]. rewrite E1. reflexivity. }
      set (s2 := mkS (st_core s1) _) in H2. pose proof (run_step P pol _ _ _ _ _ R1 H2) as R2. cbn [ocons] in R2.
      assert (E2 : st_agents s2 A = PState 0) by (unfold s2; cbn [st_agents]; unfold upd; now rewrite Nat.eqb_refl).
      assert (H3 : step P pol s2 (AStep A false) = Some (mkS (st_core s2) (upd (st_agents s2) A (PCas 0)), None)).
      { cbn [step]. rewrite E2. cbn [stepping cstep]. rewrite Hidx. cbn [s2 s1 st_core init_state core_init c_len c_slots s_state].
        rewrite (proj2 (N.ltb_lt _ _) Hlen). reflexivity. }
      eexists. split; [exact (run_step P pol _ _ _ _ _ R2 H3)|]. split; [cbn [st_agents]; unfold upd; now rewrite Nat.eqb_refl|].
      split; [reflexivity|]. intros j Hj. cbn [st_agents s2 s1]. unfold upd. apply Nat.eqb_neq in Hj. now rewrite Hj.
    - assert (HF0 : Forall (fun e => agent_of e <> A) es). { destruct e; cbn [ocons] in HF; [now apply Forall_inv_tail in HF|exact HF]. }
      destruct (IH HF0) as [HA (s' & Hr' & HC & HS)].
      assert (Ha : actor a <> A).
      { intros E. destruct (idle_acts s a s1 e) as [x ->]; [now rewrite E|exact Hs|]. apply Forall_inv in HF.
        now rewrite (actor_event _ _ _ _ Hs) in HF. }
      split; [now rewrite (other_stays _ _ _ _ Ha Hs)|].
      destruct (frame_step _ _ _ _ _ Ha HS Hs) as (s1' & Hs' & HS'). exists s1'. split; [|split; [|exact HS']].
      + replace (ocons e es ++ [Invoke A OpPush]) with (ocons e (es ++ [Invoke A OpPush])) by (destruct e; reflexivity).
        exact (run_step P pol _ _ _ _ _ Hr' Hs').
      + now rewrite (other_stays _ _ _ _ Ha Hs').
  Qed.
End Frame.

Section Wrap.
  Context {T : Type}.
  Variables (W : N) (cap : nat) (pol : policy T).
  Hypothesis Hwf : wf W cap.
  Notation P := (core_new W (N.of_nat cap)).

  Lemma pushes_run fresh' (v : T) k : forall s, length (sq_items s) + k <= cap ->
    length (sq_items (fst (sq_run cap fresh' pol s (repeat (TPush v) k)))) = length (sq_items s) + k /\
    sq_pushed (fst (sq_run cap fresh' pol s (repeat (TPush v) k))) = sq_pushed s + k.
  Proof.
    induction k as [|k IH]; intros s Hs; cbn [repeat sq_run]; [cbn [fst]; lia|].
    cbn [sq_op]. unfold sq_push. replace (length (sq_items s) <? cap) with true by (symmetry; apply Nat.ltb_lt; lia).
    match goal with |- context [sq_run cap fresh' pol ?x (repeat (TPush v) k)] => specialize (IH x) end.
    cbn [sq_items sq_pushed] in IH. rewrite app_length in IH. cbn [length] in IH. specialize (IH ltac:(lia)).
    destruct (sq_run cap fresh' pol _ (repeat (TPush v) k)) as [s2 rs]. cbn [fst] in *. lia.
  Qed.

  Lemma enc_span : enc W cap (N.to_nat (span W cap)) = 0%N.
  Proof.
    pose proof (cap_pos _ _ Hwf) as Hcap. pose proof (ngen_ge2 _ _ Hwf) as Hg.
    assert (E : N.to_nat (span W cap) = cap * N.to_nat (ngen W cap)) by (unfold span; lia).
    unfold enc, word, gfield, ifield. rewrite E, Nat.mul_comm, Nat.div_mul, Nat.mod_mul by lia.
    rewrite N2Nat.id, N.mod_same by lia. reflexivity.
  Qed.

  Lemma zero_idx : idx_gen P 0 = (0, 0)%N.
  Proof.
    pose proof (cap_pos _ _ Hwf) as Hcap. pose proof (idx_gen_enc W cap Hwf (N.to_nat (span W cap))) as H.
    rewrite enc_span in H. rewrite H. unfold ifield, gfield.
    pose proof (ngen_ge2 _ _ Hwf) as Hg.
    assert (E : N.to_nat (span W cap) = cap * N.to_nat (ngen W cap)) by (unfold span; lia).
    rewrite E, Nat.mul_comm, Nat.div_mul, Nat.mod_mul by lia. rewrite N2Nat.id, N.mod_same by lia. reflexivity.
  Qed.

  (** A push that sleeps while [span W cap] others go through, the last [cap] of which are still in the queue, is
      granted a place in the full queue. *)
  Lemma wrap_capacity (v : T) : exists es s, run P pol es s /\ count is_reserve es = count is_take es + cap + 1 /\
    (N.of_nat (count is_reserve es) = span W cap + 1)%N /\ exists es', es = Reserve 1 :: es' ++ [Invoke 1 OpPush] /\ Forall (fun e => agent_of e = 0) es'.
  Proof.
    pose proof (cap_pos _ _ Hwf) as Hcap. pose proof (ngen_ge2 _ _ Hwf) as Hg. assert (Hcap' : (0 < p_capacity P)%N) by (cbn; lia).
    set (n := N.to_nat (span W cap)). assert (Hn : cap <= n) by (unfold n, span; nia).
    destruct (run_seq W cap pol Hwf 12 (pairs v (n - cap)) (le_n _) _ _ (Seq_init W cap pol)) as (x1 & _ & HQ1).
    destruct (pairs_run W cap pol Hwf (fresh_at W cap) v (n - cap) sq_empty eq_refl) as [H1 H2].
    set (s1 := fst (sq_run _ _ _ _ (pairs v (n - cap)))) in *.
    destruct (run_seq W cap pol Hwf 12 (repeat (TPush v) cap) (le_n _) _ _ HQ1) as (x2 & _ & HQ2).
    destruct (pushes_run (fresh_at W cap) v cap s1) as [H3 H4]; [rewrite H1; cbn; lia|].
    set (s2 := fst (sq_run _ _ _ s1 _)) in *. rewrite H1 in H3. rewrite H2 in H4. cbn [length sq_empty sq_pushed] in H3, H4.
    destruct (Seq_SInv W cap pol Hwf _ _ HQ2) as (q & hist & g & HE & (Hcl & rel & Hl & Hlr & Hp & _) & HI).
    destruct HQ2 as (Hr & Hs & _ & _ & _).
    assert (Hlen : length (qlog q) = n) by lia. assert (Htk : qtaken q + cap = n).
    { rewrite Hl, app_length, !map_length, Hlr in Hlen. lia. }
    pose proof (explains_hist _ _ _ _ _ _ _ HE) as HH.
    destruct (asleep_run P pol 1 zero_idx Hcap' _ _ Hr) as (_ & s' & Hr' & HA & HC & _).
    - eapply Forall_impl; [|exact Hs]. cbn. intros e E. lia.
    - assert (Ht : c_tail (st_core s') = 0%N).
      { rewrite HC, (i_tail _ _ _ _ _ _ HI), Hcl, Hlen. apply enc_span. }
      assert (Hstep : exists s3, step P pol s' (AStep 1 false) = Some (s3, Some (Reserve 1))).
      { cbn [step]. rewrite HA. cbn [stepping cstep]. rewrite zero_idx, Ht. cbn. eauto. }
      destruct Hstep as [s3 Hstep]. exists (Reserve 1 :: snd x2 ++ [Invoke 1 OpPush]), s3.
      split; [exact (run_step _ _ _ _ _ _ _ Hr' Hstep)|].
      assert (CA : forall f a b, count (T := T) f (a ++ b) = count f a + count f b).
      { intros f a b. induction a as [|e a IH]; cbn; [reflexivity|]. destruct (f e); lia. }
      cbn [count is_reserve is_take]. rewrite !CA. cbn [count is_reserve is_take].
      pose proof (h_res _ _ _ HH). pose proof (h_take _ _ _ HH). repeat split; [lia|unfold n in *; lia|].
      exists (snd x2). split; [reflexivity|exact Hs].
  Qed.
End Wrap.
