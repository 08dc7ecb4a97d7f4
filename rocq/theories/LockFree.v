(** System-wide progress of the ring: whoever runs, somebody gets somewhere. *)
From Coq Require Import List Bool Arith NArith Lia.
From Verif Require Import Word QueueSpec CoreModel CoreArith CoreInv CoreStep RingSpec RingFacts SeqModel SeqFacts SoloSpec SoloFacts LockFreeSpec.
Import ListNotations.

Section LockFree.
  Context {T : Type}.
  Variables (W : N) (cap : nat) (pol : policy T).
  Hypothesis Hwf : wf W cap.
  Notation P := (core_new W (N.of_nat cap)).
  Notation cstep := (cstep P pol).
  Notation step := (step P pol).
  Notation call := (call P pol).
  Notation exec := (exec P pol).
  Notation B := (slack W cap).

  (** ** Steps without an event *)
  Lemma quiet_stepping c i p spur c' p' : stepping p = true -> cstep c i p spur = (c', p', None) -> stepping p' = true.
  Proof.
    intros Hp H. destruct p; try discriminate; cbn [CoreModel.cstep] in H; unfold push_top in H;
      repeat (match type of H with context [let '(_, _) := ?x in _] => destruct x eqn:?
              | context [match ?x with _ => _ end] => destruct x eqn:? end; cbn in H);
      try discriminate; injection H; intros; subst; try discriminate; try reflexivity;
      match goal with H : (if ?b then _ else _) = (_, _) |- _ => destruct b; inversion H end; reflexivity.
  Qed.

  Lemma quiet_core c i p spur c' p' : stepping p = true -> cstep c i p spur = (c', p', None) -> c' = c.
  Proof.
    intros Hp H. apply (silent_core W cap pol (mkS c (fun _ => p)) (AStep i spur) (mkS c' (upd (fun _ => p) i p')) None); [|discriminate].
    cbn [CoreModel.step st_agents st_core]. now rewrite Hp, H.
  Qed.

  Definition nextpc (c : core T) (i : agent) (p : pc) : pc := snd (fst (cstep c i p false)).
  Fixpoint walk (c : core T) (i : agent) (k : nat) (p : pc) : pc :=
    match k with 0 => p | S k' => walk c i k' (nextpc c i p) end.
  Definition silent (c : core T) (i : agent) (p : pc) : Prop := snd (cstep c i p false) = None.

  Lemma returning n : forall s es i s' es', call n s es i = Some (s', es') -> stepping (st_agents s i) = true ->
    exists k, k < n /\ ~ silent (st_core s) i (walk (st_core s) i k (st_agents s i)).
  Proof.
    induction n as [|n IH]; intros s es i s' es' H Hst; cbn [SeqModel.call] in H; rewrite Hst in H; [discriminate|].
    cbn [CoreModel.step] in H. rewrite Hst in H.
    destruct (cstep (st_core s) i (st_agents s i) false) as [[c' p'] [e|]] eqn:Ec.
    - exists 0. split; [lia|]. unfold silent. cbn [walk]. rewrite Ec. discriminate.
    - pose proof (quiet_core _ _ _ _ _ _ Hst Ec) as ->. pose proof (quiet_stepping _ _ _ _ _ _ Hst Ec) as Hp.
      destruct (IH _ _ _ _ _ H) as (k & Hk & Hn); [cbn [st_agents]; now rewrite upd_same|].
      cbn [st_agents st_core] in Hn. rewrite upd_same in Hn. exists (S k). split; [lia|].
      cbn [walk]. unfold nextpc. rewrite Ec. exact Hn.
  Qed.

  Definition stepcount (i : agent) (ls : list (@action T)) : nat :=
    length (filter (fun a => match a with AStep j _ => Nat.eqb j i | _ => false end) ls).

  Lemma exec_grows ls : forall s es s' es', exec s es ls = Some (s', es') -> exists l, es' = l ++ es.
  Proof.
    induction ls as [|a ls IH]; intros s es s' es' H; cbn [CoreModel.exec] in H.
    - injection H as <- <-. now exists [].
    - destruct (step s a) as [[s1 e]|] eqn:Ea; [|discriminate]. destruct (IH _ _ _ _ H) as [l ->].
      destruct e as [e|]; cbn [ocons]; [exists (l ++ [e]); now rewrite <- app_assoc|now exists l].
  Qed.

  Lemma quiet_window A ls : forall s es s', only_steps A ls -> exec s es ls = Some (s', es) ->
    st_core s' = st_core s /\ forall i k, k < stepcount i ls -> silent (st_core s) i (walk (st_core s) i k (st_agents s i)).
  Proof.
    induction ls as [|a ls IH]; intros s es s' Ho H; cbn [CoreModel.exec] in H.
    - injection H as <-. split; auto. intros i k Hk. cbn in Hk. lia.
    - destruct (Ho a) as (j & Hj & ->); [now left|]. cbn [CoreModel.step] in H.
      destruct (stepping (st_agents s j)) eqn:Hst; [|discriminate].
      destruct (cstep (st_core s) j (st_agents s j) false) as [[c' p'] e] eqn:Ec.
      destruct e as [e|].
      { exfalso. destruct (exec_grows _ _ _ _ _ H) as [l Hl]. apply (f_equal (@length _)) in Hl. rewrite app_length in Hl. cbn in Hl. lia. }
      cbn [ocons] in H. pose proof (quiet_core _ _ _ _ _ _ Hst Ec) as ->.
      destruct (IH _ _ _ ltac:(intros a Ha; apply Ho; now right) H) as [H1 H2]. cbn [st_core st_agents] in *. split; auto.
      intros i k Hk. specialize (H2 i). unfold upd in H2. cbn [stepcount filter] in Hk. unfold stepcount in Hk. cbn [filter] in Hk.
      destruct (Nat.eqb_spec j i) as [->|Hne].
      + rewrite Nat.eqb_refl in H2. cbn [length] in Hk. destruct k as [|k]; cbn [walk].
        * unfold silent. now rewrite Ec.
        * unfold nextpc. rewrite Ec. cbn [fst snd]. apply H2. unfold stepcount. lia.
      + destruct (Nat.eqb_spec i j); [congruence|]. apply H2. exact Hk.
  Qed.

  (** ** Somebody runs often *)
  Lemma busiest (A : list agent) (ls : list (@action T)) n : only_steps A ls -> n * length A < length ls ->
    exists i, In i A /\ S n <= stepcount i ls.
  Proof.
    revert ls. induction A as [|i A IH]; intros ls Ho Hl.
    - destruct ls as [|a ls]; [cbn in Hl; lia|]. destruct (Ho a (or_introl eq_refl)) as (j & [] & _).
    - destruct (le_gt_dec (S n) (stepcount i ls)) as [H|H]; [exists i; split; [now left|auto]|].
      set (f := fun a : @action T => match a with AStep j _ => Nat.eqb j i | _ => false end).
      destruct (IH (filter (fun a => negb (f a)) ls)) as (j & Hj & Hc).
      + intros a Ha. apply filter_In in Ha. destruct Ha as [Ha Hf]. destruct (Ho a Ha) as (j & [<-|Hj] & ->); [|eauto].
        unfold f in Hf. now rewrite Nat.eqb_refl in Hf.
      + assert (E : length ls = length (filter f ls) + length (filter (fun a => negb (f a)) ls)).
        { clear. induction ls as [|a ls IH]; auto. cbn [filter]. destruct (f a); cbn [negb length]; lia. }
        unfold stepcount in H. fold f in H. cbn [length] in Hl. lia.
      + exists j. split; [now right|]. eapply Nat.le_trans; [exact Hc|]. unfold stepcount. clear. induction ls as [|a ls IH]; auto.
        cbn [filter]. destruct (f a); cbn [negb filter]; destruct a as [| k sp| | | |]; cbn [length]; try lia; destruct (Nat.eqb k j); cbn [length]; lia.
  Qed.

  Lemma only_runs A ls s es s' es' i : only_steps A ls -> exec s es ls = Some (s', es') -> es' = es -> 0 < stepcount i ls ->
    stepping (st_agents s i) = true /\ runs_in ls i.
  Proof.
    revert s es. induction ls as [|a ls IH]; intros s es Ho H E Hk; [cbn in Hk; lia|]. subst es'.
    destruct (Ho a) as (j & Hj & ->); [now left|]. cbn [CoreModel.exec CoreModel.step] in H.
    destruct (stepping (st_agents s j)) eqn:Hst; [|discriminate].
    destruct (Nat.eq_dec j i) as [->|Hne]; [split; auto; exists false; now left|].
    unfold stepcount in Hk. cbn [filter] in Hk. rewrite (proj2 (Nat.eqb_neq j i) Hne) in Hk.
    destruct (cstep (st_core s) j (st_agents s j) false) as [[c' p'] [e|]] eqn:Ec.
    { exfalso. destruct (exec_grows _ _ _ _ _ H) as [l Hl]. apply (f_equal (@length _)) in Hl. rewrite app_length in Hl. cbn in Hl. lia. }
    destruct (IH _ _ ltac:(intros a Ha; apply Ho; now right) H eq_refl Hk) as [H1 [sp H2]]. cbn [st_agents] in H1. unfold upd in H1.
    destruct (Nat.eqb_spec i j); [congruence|]. split; auto. exists sp. now right.
  Qed.

  Lemma returns_soon s es i : run P pol es s -> calm B es -> stepping (st_agents s i) = true ->
    (forall j, ~ in_the_way P s i j) -> exists s' es', call 14 s es i = Some (s', es').
  Proof.
    intros Hr HC Hst Hw.
    assert (HX : in_push (st_agents s i) = true \/ in_pop (st_agents s i) = true \/ in_len (st_agents s i) = true)
      by (destruct (st_agents s i); try discriminate; cbn; auto).
    destruct HX as [Hp|[Hp|Hp]].
    - destruct (returns_mono W cap pol 6 14 s es i push_ok) as (s' & es' & H & _); [lia| |eauto].
      apply (ret_push W cap pol Hwf); auto. intros j Hj E. apply (Hw j). left. auto.
    - destruct (ret_pop W cap pol Hwf s es i Hr HC Hp) as (s' & es' & H & _); [|eauto]. intros j E. apply (Hw j). right. auto.
    - destruct (returns_mono W cap pol 5 14 s es i (fun p => p = Idle)) as (s' & es' & H & _); [lia| |eauto].
      apply (ret_len W cap pol); auto.
  Qed.

  (** A push that is initialising a slot gets somewhere with its next step. *)
  Lemma init_loud c i t : ~ silent c i (PInit t).
  Proof.
    unfold silent. cbn [CoreModel.cstep]. destruct (idx_gen P t) as [idx gen]. destruct (N.eqb gen 0); [discriminate|].
    destruct (s_value (c_slots c idx)); discriminate.
  Qed.

  Lemma lock_free A ls s es s' : run P pol es s -> calm B es -> only_steps A ls -> 13 * length A < length ls ->
    (forall i j, runs_in ls i -> in_the_way P s i j -> runs_in ls j) ->
    exec s es ls = Some (s', es) -> False.
  Proof.
    intros Hr HC Ho Hl Hw He. destruct (busiest A ls 13 Ho Hl) as (i & Hi & Hc).
    destruct (only_runs A ls s es s' es i Ho He eq_refl ltac:(lia)) as [Hst Hru].
    destruct (quiet_window A ls s es s' Ho He) as [Hcore Hsil].
    destruct (returns_soon s es i Hr HC Hst) as (s1 & es1 & Hcall).
    - intros j Hj. pose proof (Hw i j Hru Hj) as [sp Hj'].
      assert (Hcj : 0 < stepcount j ls).
      { unfold stepcount. destruct (filter _ ls) eqn:Ef; [|cbn; lia]. exfalso.
        assert (HX : In (AStep j sp) (@nil (@action T))); [|destruct HX]. rewrite <- Ef. apply filter_In. split; auto. apply Nat.eqb_refl. }
      destruct (only_runs A ls s es s' es j Ho He eq_refl Hcj) as [Hstj _].
      pose proof (Hsil j 0 Hcj) as Hq. cbn [walk] in Hq.
      destruct Hj as [(_ & _ & E)|(_ & E)]; destruct (st_agents s j); try discriminate. exact (init_loud _ _ _ Hq).
    - destruct (returning _ _ _ _ _ _ Hcall Hst) as (k & Hk & Hn). apply Hn, Hsil. lia.
  Qed.

  Lemma step_event s i spur s' e : step s (AStep i spur) = Some (s', Some e) -> got_somewhere e = true \/ e = UB i.
  Proof.
    cbn [CoreModel.step]. destruct (stepping (st_agents s i)) eqn:Hst; [|discriminate].
    destruct (cstep (st_core s) i (st_agents s i) spur) as [[c' p'] e'] eqn:Ec. intros H. injection H as _ ->.
    destruct (st_agents s i); try discriminate; cbn [CoreModel.cstep] in Ec; unfold push_top in Ec;
      repeat (match type of Ec with context [let '(_, _) := ?x in _] => destruct x eqn:?
              | context [match ?x with _ => _ end] => destruct x eqn:? end; cbn in Ec);
      try discriminate; injection Ec; intros; subst; auto; repeat (match goal with |- context [if ?b then _ else _] => destruct b end); auto;
      match goal with H : (if ?b then _ else _) = (_, _) |- _ => destruct b; inversion H end; auto.
  Qed.

  Lemma new_events A ls : forall s es s' es', only_steps A ls -> exec s es ls = Some (s', es') ->
    exists l, es' = l ++ es /\ forall e, In e l -> got_somewhere e = true \/ exists i, e = UB i.
  Proof.
    induction ls as [|a ls IH]; intros s es s' es' Ho H; cbn [CoreModel.exec] in H.
    - injection H as <- <-. exists []. split; [auto|intros e []].
    - destruct (Ho a) as (j & Hj & ->); [now left|].
      destruct (step s (AStep j false)) as [[s1 e]|] eqn:Ea; [|discriminate].
      destruct (IH _ _ _ _ ltac:(intros a Ha; apply Ho; now right) H) as (l & -> & Hl).
      destruct e as [e|]; cbn [ocons]; [|exists l; split; auto].
      exists (l ++ [e]). split; [now rewrite <- app_assoc|]. intros e0 He. apply in_app_or in He. destruct He as [He|[<-|[]]]; auto.
      destruct (step_event _ _ _ _ _ Ea); eauto.
  Qed.

  Lemma quiet_bound A ls s es s' l : run P pol es s -> calm B (l ++ es) -> only_steps A ls ->
    (forall i j, runs_in ls i -> in_the_way P s i j -> runs_in ls j) ->
    exec s es ls = Some (s', l ++ es) -> (forall e, In e l -> got_somewhere e = false) -> length ls <= 13 * length A.
  Proof.
    intros Hr HC Ho Hw He Hq. destruct (le_gt_dec (length ls) (13 * length A)) as [|Hl]; auto. exfalso.
    destruct (new_events A ls s es s' _ Ho He) as (l' & El & Hev). apply app_inv_tail in El. subst l'.
    destruct l as [|e l]; [exact (lock_free A ls s es s' Hr HC Ho Hl Hw He)|].
    pose proof (Hq e (or_introl eq_refl)) as Hqe. destruct (Hev e (or_introl eq_refl)) as [H|[i ->]]; [congruence|].
    apply (no_ub W cap pol Hwf ((UB i :: l) ++ es) i); [|exact HC|now left].
    exists s'. apply (exec_run _ _ _ _ _ _ _ Hr He).
  Qed.

  (** ** Bounded work *)
  Lemma loud_action s a s' : step s a = Some (s', None) -> exists i spur, a = AStep i spur.
  Proof.
    destruct a as [i o|i sp|i v|i|i|i pa]; cbn [CoreModel.step]; intros H; eauto; exfalso;
      destruct (st_agents s i); try discriminate; cbn in H; try destruct pa; discriminate.
  Qed.

  Lemma quiet_only A ls : forall s es s', (forall i, runs_in ls i -> In i A) -> spurious ls = 0 ->
    exec s es ls = Some (s', es) -> only_steps A ls.
  Proof.
    induction ls as [|a ls IH]; intros s es s' HA Hsp H; [intros a []|]. cbn [CoreModel.exec] in H.
    destruct (step s a) as [[s1 [e|]]|] eqn:Ea; [| |discriminate].
    { exfalso. destruct (exec_grows _ _ _ _ _ H) as [l Hl]. apply (f_equal (@length _)) in Hl. rewrite app_length in Hl. cbn in Hl. lia. }
    destruct (loud_action _ _ _ Ea) as (i & spur & ->). unfold spurious in Hsp. cbn [filter is_spurious] in Hsp.
    destruct spur; [discriminate|]. cbn [ocons] in H. intros a [<-|Ha].
    - exists i. split; auto. apply HA. exists false. now left.
    - apply (IH _ _ _ ltac:(intros k [sp Hk]; apply HA; exists sp; now right) Hsp H a Ha).
  Qed.

  Lemma exec_split ls1 : forall ls2 s es s' es', exec s es (ls1 ++ ls2) = Some (s', es') ->
    exists s1 es1, exec s es ls1 = Some (s1, es1) /\ exec s1 es1 ls2 = Some (s', es').
  Proof.
    induction ls1 as [|a ls1 IH]; intros ls2 s es s' es' H; cbn [app CoreModel.exec] in *; [eauto|].
    destruct (step s a) as [[s1 e]|]; [eauto|discriminate].
  Qed.
  Lemma exec_join ls1 : forall ls2 s es s1 es1, exec s es ls1 = Some (s1, es1) -> exec s es (ls1 ++ ls2) = exec s1 es1 ls2.
  Proof.
    induction ls1 as [|a ls1 IH]; intros ls2 s es s1 es1 H; cbn [app CoreModel.exec] in *; [now injection H as <- <-|].
    destruct (step s a) as [[s2 e]|]; [eauto|discriminate].
  Qed.

  Lemma bounded_work A n : forall ls s es s' l, length ls <= n -> run P pol es s -> calm B (l ++ es) ->
    (forall i, runs_in ls i -> In i A) ->
    (forall ls1 ls2 s1 es1, ls = ls1 ++ ls2 -> exec s es ls1 = Some (s1, es1) -> nothing_in_the_way P s1) ->
    exec s es ls = Some (s', l ++ es) ->
    length ls <= (13 * length A + 1) * (length l + spurious ls + 1).
  Proof.
    induction n as [|n IH]; intros ls s es s' l Hn Hr HC HA Hw He; [lia|].
    set (m := 13 * length A + 1). destruct (le_gt_dec (length ls) m) as [Hs|Hs]; [nia|].
    pose proof (firstn_skipn m ls) as Esp. set (ls1 := firstn m ls) in *. set (ls2 := skipn m ls) in *.
    assert (L1 : length ls1 = m) by (unfold ls1; rewrite firstn_length; lia).
    assert (L2 : length ls = m + length ls2) by (rewrite <- Esp, app_length; lia).
    rewrite <- Esp in He. destruct (exec_split ls1 ls2 s es s' _ He) as (s1 & es1 & H1 & H2).
    destruct (exec_grows _ _ _ _ _ H1) as [l1 ->]. destruct (exec_grows _ _ _ _ _ H2) as [l2 El].
    assert (l = l2 ++ l1) as -> by (apply (app_inv_tail es); rewrite El; apply app_assoc).
    assert (Hr1 : run P pol (l1 ++ es) s1) by exact (exec_run _ _ _ _ _ _ _ Hr H1).
    assert (IHx : length ls2 <= m * (length l2 + spurious ls2 + 1)).
    { apply (IH ls2 s1 (l1 ++ es) s'); auto.
      - lia.
      - now rewrite app_assoc.
      - intros i [sp Hi]. apply HA. exists sp. rewrite <- Esp. apply in_or_app. auto.
      - intros a b s2 es2 E H. apply (Hw (ls1 ++ a) b s2 es2); [now rewrite <- app_assoc, <- E|].
        now rewrite (exec_join _ _ _ _ _ _ H1).
      - now rewrite app_assoc. }
    assert (Sp : spurious ls = spurious ls1 + spurious ls2).
    { unfold spurious. now rewrite <- Esp at 1; rewrite filter_app, app_length. }
    rewrite L2, Sp, app_length.
    assert (0 < length l1 + spurious ls1); [|nia].
    destruct l1 as [|e l1]; [|cbn; lia]. destruct (spurious ls1) as [|k] eqn:Es; [exfalso|cbn; lia]. cbn [app] in *.
    assert (HA1 : forall i, runs_in ls1 i -> In i A).
    { intros i [sp Hi]. apply HA. exists sp. rewrite <- Esp. apply in_or_app. auto. }
    pose proof (quiet_only A ls1 s es s1 HA1 Es H1) as Ho.
    apply (lock_free A ls1 s es s1); auto.
    - apply (calm_suffix W cap (l2 ++ [])). exact HC.
    - unfold m in L1. lia.
    - intros i j _ Hj. exfalso. destruct (Hw [] ls s es eq_refl eq_refl j) as [Hx Hy].
      destruct Hj as [(_ & _ & E)|(_ & E)]; auto.
  Qed.
End LockFree.
