(** Proofs about the small components. *)
From Coq Require Import List Bool Arith NArith Lia.
From Verif Require Import Word QueueSpec History CoreModel CoreArith RingSpec RingFacts SeqModel
  Recycling SpinLock BackoffModel TxCount Timeouts.
Import ListNotations.

(** ** Sender count *)
Lemma existsb_eqb i l : existsb (Nat.eqb i) l = true <-> In i l.
Proof.
  rewrite existsb_exists. split.
  - intros (x & Hx & He). apply Nat.eqb_eq in He. now subst.
  - intros H. exists i. split; auto. apply Nat.eqb_refl.
Qed.

Lemma remove_len i (l : list nat) : NoDup l -> In i l -> S (length (remove Nat.eq_dec i l)) = length l.
Proof.
  induction l as [|a l IH]; intros Hn Hin; [destruct Hin|]. inversion Hn; subst.
  cbn [remove]. destruct (Nat.eq_dec i a) as [->|Hia].
  - rewrite notin_remove; auto.
  - destruct Hin as [->|Hin]; [congruence|]. cbn [length]. now rewrite IH.
Qed.

Lemma remove_nodup i (l : list nat) : NoDup l -> NoDup (remove Nat.eq_dec i l).
Proof.
  induction l as [|a l IH]; intros Hn; cbn [remove]; auto. inversion Hn; subst.
  destruct (Nat.eq_dec i a); auto. constructor; auto. intros H. apply in_remove in H. tauto.
Qed.

Definition TxInv (W : N) (s : txs) : Prop :=
  NoDup (tx_live s) /\ tx_count s = (N.of_nat (length (tx_live s)) mod 2 ^ W)%N /\
  length (tx_closing s) + tx_closes s = (match tx_live s with [] => 1 | _ => 0 end).

Definition tx_fits (W : N) (s : txs) : Prop := (N.of_nat (length (tx_live s)) < 2 ^ W)%N.

Lemma tx_step_inv W s a s' : TxInv W s -> tx_fits W s -> tx_step W s a = Some s' -> TxInv W s'.
Proof.
  intros (Hn & Hc & Hl) Hf H. unfold tx_fits in Hf.
  assert (H2 : (2 ^ W <> 0)%N) by (apply N.pow_nonzero; lia).
  destruct a as [i j|i|i]; cbn [tx_step] in H.
  - destruct (existsb (Nat.eqb i) (tx_live s)) eqn:Ei; [|discriminate].
    destruct (existsb (Nat.eqb j) (tx_live s)) eqn:Ej; [discriminate|]. injection H as <-.
    apply existsb_eqb in Ei. split; [|split]; cbn [tx_live tx_count tx_closing tx_closes].
    + constructor; auto. intros Hj. apply existsb_eqb in Hj. congruence.
    + rewrite Hc. cbn [length]. rewrite Nat2N.inj_succ, N.add_mod_idemp_l by auto. f_equal. lia.
    + destruct (tx_live s); [destruct Ei|]. lia.
  - destruct (existsb (Nat.eqb i) (tx_live s)) eqn:Ei; [|discriminate]. injection H as <-.
    apply existsb_eqb in Ei. pose proof (remove_len i _ Hn Ei) as Hr.
    assert (Hcount : tx_count s = N.of_nat (length (tx_live s))) by (rewrite Hc; apply N.mod_small; auto).
    split; [|split]; cbn [tx_live tx_count tx_closing tx_closes].
    + now apply remove_nodup.
    + rewrite Hcount, <- Hr, Nat2N.inj_succ.
      replace (N.succ (N.of_nat (length (remove Nat.eq_dec i (tx_live s)))) + 2 ^ W - 1)%N
        with (N.of_nat (length (remove Nat.eq_dec i (tx_live s))) + 1 * 2 ^ W)%N by lia.
      now rewrite N.mod_add by auto.
    + rewrite Hcount. destruct (N.ltb_spec 1 (N.of_nat (length (tx_live s)))).
      * destruct (tx_live s); [destruct Ei|]. destruct (remove Nat.eq_dec i (n :: l)); cbn [length] in *; lia.
      * destruct (remove Nat.eq_dec i (tx_live s)); destruct (tx_live s); cbn [length] in *; try lia.
  - destruct (existsb (Nat.eqb i) (tx_closing s)) eqn:Ei; [|discriminate]. injection H as <-.
    apply existsb_eqb in Ei. split; [|split]; cbn [tx_live tx_count tx_closing tx_closes]; auto.
    destruct (tx_closing s) as [|a [|b l]] eqn:E; [destruct Ei| |].
    + destruct Ei as [->|[]]. cbn [remove length] in *. destruct (Nat.eq_dec i i); [|congruence].
      cbn [length]. lia.
    + cbn [length] in Hl. destruct (tx_live s); lia.
Qed.

Lemma tx_run_app W s l1 l2 s' : tx_run W s (l1 ++ l2) = Some s' ->
  exists s1, tx_run W s l1 = Some s1 /\ tx_run W s1 l2 = Some s'.
Proof.
  revert s. induction l1 as [|a l1 IH]; intros s H; cbn [app tx_run] in *; [eauto|].
  destruct (tx_step W s a); [auto|discriminate].
Qed.

Lemma tx_run_snoc W s l a : tx_run W s (l ++ [a]) =
  match tx_run W s l with Some s1 => tx_step W s1 a | None => None end.
Proof.
  revert s. induction l as [|b l IH]; intros s; cbn [app tx_run].
  - now destruct (tx_step W s a).
  - now destruct (tx_step W s b).
Qed.

Lemma tx_run_inv W l : forall s, tx_run W tx_init l = Some s ->
  (forall l1 l2 s1, l = l1 ++ l2 -> tx_run W tx_init l1 = Some s1 -> tx_fits W s1) -> TxInv W s /\ tx_fits W s.
Proof.
  induction l as [|a l IH] using rev_ind; intros s H Hb.
  - injection H as <-. assert (Hf : tx_fits W tx_init) by (apply (Hb [] [] tx_init); auto).
    split; auto. split; [|split]; cbn.
    + constructor; [auto|constructor].
    + symmetry. apply N.mod_small. exact Hf.
    + reflexivity.
  - rewrite tx_run_snoc in H. destruct (tx_run W tx_init l) as [s1|] eqn:E; [|discriminate].
    destruct (IH s1 eq_refl) as [Hi Hf].
    { intros l1 l2 s2 -> H2. apply (Hb l1 (l2 ++ [a]) s2); auto. now rewrite app_assoc. }
    split; [eapply tx_step_inv; eauto|].
    apply (Hb (l ++ [a]) [] s); [now rewrite app_nil_r|]. now rewrite tx_run_snoc, E.
Qed.

Lemma tx_closing_facts W l s : tx_run W tx_init l = Some s ->
  (forall l1 l2 s1, l = l1 ++ l2 -> tx_run W tx_init l1 = Some s1 -> tx_fits W s1) ->
  tx_closes s <= 1 /\ (tx_closes s = 1 \/ tx_closing s <> [] -> tx_live s = []) /\
  (tx_live s = [] -> tx_closing s = [] -> tx_closes s = 1).
Proof.
  intros H Hb. destruct (tx_run_inv W l s H Hb) as [(_ & _ & Hl) _].
  destruct (tx_live s), (tx_closing s); cbn [length] in Hl; repeat split; try lia; try congruence;
  intros [?|?]; try lia; congruence.
Qed.

Lemma tx_is_closed W l s : tx_run W tx_init l = Some s ->
  (forall l1 l2 s1, l = l1 ++ l2 -> tx_run W tx_init l1 = Some s1 -> tx_fits W s1) ->
  is_closed s = true <-> length (tx_live s) <= 1.
Proof.
  intros H Hb. destruct (tx_run_inv W l s H Hb) as [(_ & Hc & _) Hf].
  unfold is_closed. rewrite Hc, N.mod_small by exact Hf. rewrite N.leb_le. lia.
Qed.

(** The wrap: 2^W - 1 clones, then one drop closes the channel. *)
Definition clones (n : nat) : list txact := map (fun k => XClone 0 (S k)) (seq 0 n).

Lemma clones_run W n : tx_run W tx_init (clones n) =
  Some (mkTx ((N.of_nat (S n) mod 2 ^ W)) (rev (seq 0 (S n))) [] 0)%N \/ n = 0.
Proof.
  induction n as [|n IH]; [now right|]. left. unfold clones. rewrite seq_S, map_app. cbn [map].
  rewrite tx_run_snoc. fold (clones n). cbn [Nat.add].
  assert (E : tx_run W tx_init (clones n) =
    Some (mkTx (if Nat.eqb n 0 then 1 else N.of_nat (S n) mod 2 ^ W) (rev (seq 0 (S n))) [] 0)%N).
  { destruct n as [|n]; [reflexivity|]. destruct IH as [-> | H]; [reflexivity|discriminate H]. }
  rewrite E. cbn [tx_step tx_live tx_count tx_closing tx_closes].
  replace (existsb (Nat.eqb 0) (rev (seq 0 (S n)))) with true.
  2:{ symmetry. apply existsb_eqb. rewrite <- in_rev. apply in_seq. lia. }
  replace (existsb (Nat.eqb (S n)) (rev (seq 0 (S n)))) with false.
  2:{ symmetry. apply not_true_is_false. intros H. apply existsb_eqb in H. rewrite <- in_rev in H. apply in_seq in H. lia. }
  cbn [andb negb]. f_equal. rewrite (seq_S (S n)), rev_app_distr. cbn [rev app Nat.add]. f_equal.
  rewrite (Nat2N.inj_succ (S n)).
  assert (H2 : (2 ^ W <> 0)%N) by (apply N.pow_nonzero; lia).
  destruct n as [|n]; cbn [Nat.eqb].
  - f_equal.
  - rewrite N.add_mod_idemp_l by auto. f_equal. lia.
Qed.

Lemma tx_wrap W : (0 < W)%N -> exists l s, tx_run W tx_init l = Some s /\ tx_closes s = 1 /\ tx_live s <> [].
Proof.
  intros HW. set (n := N.to_nat (2 ^ W - 1)).
  assert (H2 : (2 <= 2 ^ W)%N) by (change 2%N with (2 ^ 1)%N at 1; apply N.pow_le_mono_r; lia).
  assert (Hn : n <> 0) by (unfold n; lia).
  destruct (clones_run W n) as [E|]; [|congruence].
  exists ((clones n ++ [XDrop 0]) ++ [XClose 0]).
  rewrite tx_run_snoc, tx_run_snoc, E. cbn [tx_step tx_live tx_count tx_closing tx_closes].
  replace (existsb (Nat.eqb 0) (rev (seq 0 (S n)))) with true.
  2:{ symmetry. apply existsb_eqb. rewrite <- in_rev. apply in_seq. lia. }
  replace (N.of_nat (S n) mod 2 ^ W)%N with 0%N.
  2:{ replace (N.of_nat (S n)) with (2 ^ W)%N by (unfold n; lia). symmetry. apply N.mod_same. lia. }
  cbn [N.ltb N.compare existsb Nat.eqb orb].
  eexists. split; [reflexivity|]. split; [reflexivity|]. cbn [tx_live].
  intros Hnil. assert (Hin : In n (remove Nat.eq_dec 0 (rev (seq 0 (S n))))).
  { apply in_in_remove; [congruence|]. rewrite <- in_rev. apply in_seq. lia. }
  rewrite Hnil in Hin. destruct Hin.
Qed.

(** ** Static split *)
Lemma split_true l : forall r, In r (split_run true l) -> snd r = false.
Proof. induction l as [|i l IH]; intros r H; [destruct H|]. destruct H as [<-|H]; auto. Qed.

Lemma split_once i l : exists rest, split_run false (i :: l) = (i, true) :: rest /\
  map fst rest = l /\ forall r, In r rest -> snd r = false.
Proof.
  exists (split_run true l). split; [reflexivity|]. split; [|exact (split_true l)].
  induction l as [|j l IH]; cbn; [reflexivity|]. now f_equal.
Qed.

(** ** Spin lock *)
Definition LInv (s : lock) : Prop :=
  (l_locked s = true <-> exists i, l_pc s i = LHeld) /\
  (forall i j, l_pc s i = LHeld -> l_pc s j = LHeld -> i = j).

Lemma lset_same f i p : lset f i p i = p.
Proof. unfold lset. now rewrite Nat.eqb_refl. Qed.
Lemma lset_other f i p j : j <> i -> lset f i p j = f j.
Proof. intros H. unfold lset. now rewrite (proj2 (Nat.eqb_neq j i) H). Qed.

(** A move of [i] between states other than Held. *)
Lemma linv_move s i p : LInv s -> l_pc s i <> LHeld -> p <> LHeld ->
  LInv (mkL (l_locked s) (lset (l_pc s) i p)).
Proof.
  intros [H1 H2] Hi Hp. split; cbn [l_locked l_pc].
  - rewrite H1. split; intros [k Hk]; exists k.
    + rewrite lset_other; auto. congruence.
    + destruct (Nat.eq_dec k i) as [->|Hk']; [rewrite lset_same in Hk; congruence|].
      now rewrite lset_other in Hk.
  - intros a b Ha Hb.
    destruct (Nat.eq_dec a i) as [->|Ha']; [rewrite lset_same in Ha; congruence|].
    destruct (Nat.eq_dec b i) as [->|Hb']; [rewrite lset_same in Hb; congruence|].
    rewrite lset_other in Ha, Hb by auto. eauto.
Qed.

Lemma lstep_inv s i s' : LInv s -> lstep s i = Some s' -> LInv s'.
Proof.
  intros HI H. pose proof HI as [H1 H2]. unfold lstep in H.
  destruct (l_pc s i) eqn:Ei.
  - injection H as <-. apply linv_move; congruence.
  - destruct (l_locked s) eqn:El; injection H as <-.
    + rewrite <- El. apply linv_move; congruence.
    + split; cbn [l_locked l_pc].
      * split; auto. intros _. exists i. apply lset_same.
      * intros a b Ha Hb.
        assert (Hno : forall k, l_pc s k <> LHeld) by (intros k Hk; assert (false = true) by (apply H1; eauto); congruence).
        destruct (Nat.eq_dec a i) as [->|Ha']; [|rewrite lset_other in Ha by auto; destruct (Hno _ Ha)].
        destruct (Nat.eq_dec b i) as [->|Hb']; [auto|rewrite lset_other in Hb by auto; destruct (Hno _ Hb)].
  - destruct (l_locked s) eqn:El; injection H as <-; rewrite <- El; apply linv_move; congruence.
  - injection H as <-. split; cbn [l_locked l_pc].
    + split; [discriminate|]. intros [k Hk]. destruct (Nat.eq_dec k i) as [->|Hk'].
      * rewrite lset_same in Hk. discriminate.
      * rewrite lset_other in Hk by auto. destruct Hk'. eauto.
    + intros a b Ha Hb.
      destruct (Nat.eq_dec a i) as [->|Ha']; [rewrite lset_same in Ha; congruence|].
      destruct (Nat.eq_dec b i) as [->|Hb']; [rewrite lset_same in Hb; congruence|].
      rewrite lset_other in Ha, Hb by auto. eauto.
Qed.

Lemma lrun_inv l : forall s s', LInv s -> lrun s l = Some s' -> LInv s'.
Proof.
  induction l as [|i l IH]; intros s s' HI H; cbn [lrun] in H; [now injection H as <-|].
  destruct (lstep s i) eqn:E; [|discriminate]. eapply IH; [|eauto]. eapply lstep_inv; eauto.
Qed.

Lemma linv_init : LInv lock_init.
Proof. split; cbn; [split; [discriminate|intros [? H]; discriminate]|intros i j H; discriminate]. Qed.

Lemma lock_acquire sched s i : lrun lock_init sched = Some s -> (forall j, l_pc s j <> LHeld) ->
  exists n s', n <= 3 /\ lrun s (repeat i n) = Some s' /\ l_pc s' i = LHeld /\ l_locked s' = true.
Proof.
  intros H Hno. destruct (lrun_inv _ _ _ linv_init H) as [H1 _].
  assert (El : l_locked s = false).
  { apply not_true_is_false. intros Ht. apply H1 in Ht as [k Hk]. destruct (Hno k Hk). }
  assert (Hcas : forall s0, l_locked s0 = false -> l_pc s0 i = LCas ->
    exists s', lstep s0 i = Some s' /\ l_pc s' i = LHeld /\ l_locked s' = true).
  { intros s0 E1 E2. unfold lstep. rewrite E2, E1. eexists. split; [reflexivity|]. split; [apply lset_same|reflexivity]. }
  destruct (l_pc s i) eqn:Ei.
  - destruct (Hcas (mkL (l_locked s) (lset (l_pc s) i LCas))) as (s' & Hs & Hh); [exact El|apply lset_same|].
    exists 2, s'. split; [lia|]. split; [|exact Hh]. cbn [repeat lrun]. unfold lstep at 1. rewrite Ei. now rewrite Hs.
  - destruct (Hcas s El Ei) as (s' & Hs & Hh). exists 1, s'. split; [lia|]. split; [|exact Hh]. cbn [repeat lrun]. now rewrite Hs.
  - destruct (Hcas (mkL false (lset (l_pc s) i LCas))) as (s' & Hs & Hh); [reflexivity|apply lset_same|].
    exists 2, s'. split; [lia|]. split; [|exact Hh]. cbn [repeat lrun]. unfold lstep at 1. rewrite Ei, El. now rewrite Hs.
  - destruct (Hno i Ei).
Qed.

Lemma lock_blocks sched s i j s' : lrun lock_init sched = Some s -> l_pc s j = LHeld -> j <> i ->
  lstep s i = Some s' -> l_pc s' i <> LHeld.
Proof.
  intros H Hj Hij Hs Hi. pose proof (lrun_inv _ _ _ linv_init H) as HI.
  pose proof (lstep_inv _ _ _ HI Hs) as [_ H2].
  assert (Hj' : l_pc s' j = LHeld).
  { unfold lstep in Hs. destruct (l_pc s i), (l_locked s); injection Hs as <-; cbn [l_pc]; now rewrite lset_other. }
  apply Hij. symmetry. exact (H2 i j Hi Hj').
Qed.

(** ** Backoff *)
Lemma bnext_spec b o b' : bnext b o = Some b' -> (b <= b')%N /\ (b <= 7 -> b' <= 7)%N /\ (b < 3 -> b' = b + 1)%N.
Proof.
  unfold bnext, backoff_spin, backoff_spin_yield.
  destruct o.
  - destruct (N.leb_spec b 3); destruct (_ <? 256)%N; intros E; try discriminate; injection E as <-; lia.
  - destruct (N.leb_spec b 6); destruct (_ <? 256)%N; intros E; try discriminate; injection E as <-; lia.
Qed.

Lemma bnext_total b o : (b <= 7)%N -> exists b', bnext b o = Some b' /\ (b' <= 7)%N.
Proof.
  intros Hb. unfold bnext, backoff_spin, backoff_spin_yield.
  destruct o.
  - destruct (N.leb_spec b 3).
    + destruct (N.ltb_spec (b + 1) 256); [|lia]. eexists. split; [reflexivity|lia].
    + destruct (N.ltb_spec b 256); [|lia]. eexists. split; [reflexivity|lia].
  - destruct (N.leb_spec b 6).
    + destruct (N.ltb_spec (b + 1) 256); [|lia]. eexists. split; [reflexivity|lia].
    + destruct (N.ltb_spec b 256); [|lia]. eexists. split; [reflexivity|lia].
Qed.

Lemma brun_total l : forall b, (b <= 7)%N -> exists b', brun b l = Some b' /\ (b' <= 7)%N /\ (b <= b')%N /\
  (N.min 3 (b + N.of_nat (length l)) <= b')%N.
Proof.
  induction l as [|o l IH]; intros b Hb; cbn [brun].
  - exists b. repeat split; auto; cbn [length]; lia.
  - destruct (bnext_total b o Hb) as (b1 & E & H1). rewrite E.
    destruct (bnext_spec _ _ _ E) as (H2 & _ & H3).
    destruct (IH b1 H1) as (b2 & E2 & H4 & H5 & H6). exists b2. repeat split; auto; [lia|].
    cbn [length]. rewrite Nat2N.inj_succ. destruct (N.lt_ge_cases b 3); [specialize (H3 H)|]; lia.
Qed.

Lemma hints_bound b o : (b <= 7)%N -> (1 <= hints b o \/ o = BYield true)%N /\
  (hints b o <= 128)%N /\ (o <> BYield false -> hints b o <= 8)%N.
Proof.
  intros Hb. assert (Hcases : (b=0\/b=1\/b=2\/b=3\/b=4\/b=5\/b=6\/b=7)%N) by lia.
  destruct o as [|[]]; repeat (destruct Hcases as [->|Hcases]); try subst b;
  vm_compute; split; try (split; try discriminate; auto); try (left; discriminate); auto; congruence.
Qed.

(** ** Timeouts *)
Section Timeouts.
  Context {T : Type}.

  Lemma recv_timeout_spec (obs : list (recv_obs T)) : forall b t last n out w m,
    recv_timeout b t last n obs = Some (out, w, m) ->
    n < m /\ m - n <= length obs /\
    (forall k, k < m - n - 1 -> exists w', nth_error obs k = Some (RPending w') /\ w' - b < t) /\
    match out with
    | RMsg v => nth_error obs (m - n - 1) = Some (RReady v)
    | RClosed => nth_error obs (m - n - 1) = Some RDisconnected
    | RTimeout => nth_error obs (m - n - 1) = Some (RPending w) /\ t <= w - b
    end.
  Proof.
    induction obs as [|o obs IH]; intros b t last n out w m H; [discriminate|].
    destruct o as [v| |woke]; cbn [recv_timeout] in H.
    - injection H as <- <- <-. replace (S n - n - 1) with 0 by lia. repeat split; cbn [length]; try lia; auto.
    - injection H as <- <- <-. replace (S n - n - 1) with 0 by lia. repeat split; cbn [length]; try lia; auto.
    - destruct (Nat.leb_spec t (woke - b)) as [Hle|Hgt].
      + injection H as <- <- <-. replace (S n - n - 1) with 0 by lia. repeat split; cbn [length]; try lia; auto.
      + destruct (IH _ _ _ _ _ _ _ H) as (H1 & H2 & H3 & H4).
        split; [lia|]. split; [cbn [length]; lia|]. replace (m - n - 1) with (S (m - S n - 1)) by lia. split; [|exact H4].
        intros [|k] Hk; [exists woke; auto|]. cbn [nth_error]. apply H3. lia.
  Qed.

  Lemma recv_timeout_latest (obs : list (recv_obs T)) : forall b t eps last n w m,
    b <= last -> last - b < t \/ last = b -> parks_ok t eps last obs ->
    recv_timeout b t last n obs = Some (RTimeout, w, m) -> w <= b + (2 * t - 1) + eps \/ t = 0 /\ w <= b + eps.
  Proof.
    induction obs as [|o obs IH]; intros b t eps last n w m Hb Hl Hp H; [discriminate|].
    destruct o as [v| |woke]; cbn [recv_timeout parks_ok] in *; try discriminate.
    destruct Hp as [Hw Hp]. destruct (Nat.leb_spec t (woke - b)) as [Hle|Hgt].
    - injection H as <- <-. lia.
    - eapply (IH b t eps woke); eauto; lia.
  Qed.

  Lemma recv_timeout_overrun b t : 1 < t -> parks_ok (T := T) t 0 b [RPending (b + (t - 1)); RPending (b + (2 * t - 1))] /\
    recv_timeout (T := T) b t b 0 [RPending (b + (t - 1)); RPending (b + (2 * t - 1))] = Some (RTimeout, b + (2 * t - 1), 2).
  Proof.
    intros Ht. split; [cbn [parks_ok]; lia|]. cbn [recv_timeout].
    destruct (Nat.leb_spec t (b + (t - 1) - b)); [lia|].
    destruct (Nat.leb_spec t (b + (2 * t - 1) - b)); [reflexivity|lia].
  Qed.

  Lemma send_timeout_spec (obs : list (send_obs T)) : forall b t last n out w m,
    send_timeout_loop b t last n obs = Some (out, w, m) ->
    n < m /\ m - n <= length obs /\
    (forall k, k < m - n - 1 -> (exists w', nth_error obs k = Some (SWait w') /\ w' - b < t) \/ nth_error obs k = Some (SNotified None)) /\
    match out with
    | SSlot v => nth_error obs (m - n - 1) = Some (SNotified (Some (Some v)))
    | SClosed => nth_error obs (m - n - 1) = Some SClosedWait \/ nth_error obs (m - n - 1) = Some (SNotified (Some None))
    | STimedOut => nth_error obs (m - n - 1) = Some (SWait w) /\ t <= w - b
    end.
  Proof.
    induction obs as [|o obs IH]; intros b t last n out w m H; [discriminate|].
    destruct o as [|r|woke]; cbn [send_timeout_loop] in H.
    - injection H as <- <- <-. replace (S n - n - 1) with 0 by lia. repeat split; cbn [length]; try lia; auto.
    - destruct r as [[v|]|].
      + injection H as <- <- <-. replace (S n - n - 1) with 0 by lia. repeat split; cbn [length]; try lia; auto.
      + injection H as <- <- <-. replace (S n - n - 1) with 0 by lia. repeat split; cbn [length]; try lia; auto.
      + destruct (IH _ _ _ _ _ _ _ H) as (H1 & H2 & H3 & H4).
        split; [lia|]. split; [cbn [length]; lia|]. replace (m - n - 1) with (S (m - S n - 1)) by lia. split; [|exact H4].
        intros [|k] Hk; [right; reflexivity|]. cbn [nth_error]. apply H3. lia.
    - destruct (Nat.leb_spec t (woke - b)) as [Hle|Hgt].
      + injection H as <- <- <-. replace (S n - n - 1) with 0 by lia. repeat split; cbn [length]; try lia; auto.
      + destruct (IH _ _ _ _ _ _ _ H) as (H1 & H2 & H3 & H4).
        split; [lia|]. split; [cbn [length]; lia|]. replace (m - n - 1) with (S (m - S n - 1)) by lia. split; [|exact H4].
        intros [|k] Hk; [left; exists woke; auto|]. cbn [nth_error]. apply H3. lia.
  Qed.

  Lemma send_timeout_spins b t last n k (obs : list (send_obs T)) :
    send_timeout_loop b t last n (repeat (SNotified None) k ++ obs) = send_timeout_loop b t last (n + k) obs.
  Proof.
    revert n. induction k as [|k IH]; intros n; cbn [repeat app send_timeout_loop]; [now rewrite Nat.add_0_r|].
    rewrite IH. f_equal. lia.
  Qed.
End Timeouts.

(** ** Recycling *)
Lemma wc_facts {A} (alloc : N -> N) r (c : coll A) : (forall n, n <= alloc n)%N ->
  items (wc_new_element alloc (A := A) r) = [] /\ (wc_min r <= capacity (wc_new_element alloc (A := A) r))%N /\
  items (wc_recycle alloc r c) = [] /\
  (capacity c <= wc_max r -> capacity (wc_recycle alloc r c) = capacity c)%N /\
  (wc_max r < capacity c -> wc_max r <= capacity (wc_recycle alloc r c) /\ capacity (wc_recycle alloc r c) <= alloc (wc_max r) /\
     capacity (wc_recycle alloc r c) <= capacity c)%N.
Proof.
  intros Ha. cbn. pose proof (Ha (wc_min r)). pose proof (Ha (wc_max r)).
  change (len (std_clear c)) with 0%N. rewrite N.max_0_l. repeat split; auto; try lia.
Qed.

Section Recycle.
  Context {T : Type}.
  Variables (W : N) (cap : nat) (Hwf : wf W cap).
  Notation B := (slack W cap).

  Lemma handout_kinds (pol : policy T) es i v : ring_history W cap pol es -> calm B es -> In (HandOut i v) es ->
    v = new_element pol \/ exists old, v = recycle pol old.
  Proof.
    intros Hh HC Hin. apply in_split in Hin as (es2 & es1 & ->).
    destruct (handout_any W cap pol Hwf es2 i v es1 Hh HC) as (n & _ & _ & [(_ & Hv)|(_ & old & _ & Hv)]); eauto.
  Qed.

  (** Elements of a [finish]ed call: what is left in the slot. *)
  Lemma finish_release P (pol : policy T) x f x' r : finish P pol x f = Some (x', r) ->
    (exists q, st_agents (fst x) 0 = QHold q) ->
    exists v, r = ROk v /\ snd x' = Release 0 (f v) :: Wrote 0 (f v) :: snd x.
  Proof.
    intros H [q Hq]. unfold finish, seen_by in H. rewrite Hq in H.
    destruct (s_value (c_slots (st_core (fst x)) (r_idx q))) as [v|] eqn:Ev; [|discriminate].
    unfold act in H. cbn [step] in H. rewrite Hq in H. cbn [fst snd step st_agents st_core] in H. rewrite Hq in H.
    unfold set_value, set_slot in H. cbn [c_slots] in H.
    rewrite N.eqb_refl in H. cbn [s_value ocons] in H. injection H as <- <-. exists v. split; reflexivity.
  Qed.

  Lemma pop_leaves_fresh P (pol : policy T) fuel x x' v : tb_op P pol fuel x TPop = Some (x', ROk v) ->
    exists es, snd x' = Release 0 (new_element pol) :: es.
  Proof.
    intros H. unfold tb_op in H. destruct (act P pol x (AInvoke 0 OpPop)) as [x1|]; [|discriminate].
    destruct (call P pol fuel (fst x1) (snd x1) 0) as [x2|]; [|discriminate].
    destruct (st_agents (fst x2) 0) eqn:E; try discriminate.
    - destruct (snd x2) as [|[] ?]; discriminate.
    - destruct (finish_release _ _ _ _ _ _ H) as (w & _ & Hs); [eauto|]. eauto.
  Qed.
End Recycle.
