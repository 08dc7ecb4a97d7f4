(** The spin lock on weak memory ([WeakSpinModel]): C59. *)
From Coq Require Import List Bool Arith Lia.
From Verif Require Import WeakCellModel WeakSpinModel.
Import ListNotations.

(** ** Mutual exclusion, whatever the orderings *)
Record Excl (s : spin) : Prop := {
  x_hist : sp_hist s <> [];
  x_seen : forall i, sp_seen s i <= length (sp_hist s) - 1;
  x_free : fst (newest s) = false -> forall i, sp_pc s i <> SpHeld;
  x_held : fst (newest s) = true -> exists h, sp_pc s h = SpHeld /\ (forall i, sp_pc s i = SpHeld -> i = h) /\ sp_seen s h = length (sp_hist s) - 1 }.

Lemma fset_same {A} (f : nat -> A) i x : fset f i x i = x.
Proof. unfold fset. now rewrite Nat.eqb_refl. Qed.
Lemma fset_other {A} (f : nat -> A) i j x : j <> i -> fset f i x j = f j.
Proof. intros H. unfold fset. now rewrite (proj2 (Nat.eqb_neq j i) H). Qed.
Lemma newest_app l x a b c d e : newest (mkSp (l ++ [x]) a b c d e) = x.
Proof. unfold newest. cbn [sp_hist]. rewrite app_length, Nat.add_1_r. cbn. rewrite Nat.sub_0_r, app_nth2 by lia. now rewrite Nat.sub_diag. Qed.
Lemma newest_at s : sp_hist s <> [] -> nth_error (sp_hist s) (length (sp_hist s) - 1) = Some (newest s).
Proof. intros H. apply nth_error_nth'. destruct (sp_hist s); [congruence|cbn; lia]. Qed.
Lemma nth_bound {A} (l : list A) p x : nth_error l p = Some x -> p <= length l - 1.
Proof. intros H. assert (p < length l) by (apply nth_error_Some; congruence). lia. Qed.

Ltac same_seen := intros i0; cbn [sp_seen sp_hist]; rewrite ?app_length; cbn [length]; unfold fset; try destruct (Nat.eqb i0 _).

Lemma excl_step o s a s' e : Excl s -> sp_step o s a = Some (s', e) -> Excl s'.
Proof.
  intros [Hn Hs Hf Hh] H. pose proof (newest_at _ Hn) as En.
  assert (Hread : forall i p ord q, sp_pc s i <> SpHeld -> q <> SpHeld -> sp_seen s i <= p -> p <= length (sp_hist s) - 1 -> Excl (sp_read s i p ord q)).
  { intros i p ord q Hi Hq Hp1 Hp2. constructor; cbn [sp_read sp_hist sp_seen sp_pc].
    - exact Hn.
    - intros j. unfold fset. destruct (Nat.eqb j i); auto.
    - intros E j. unfold fset. destruct (Nat.eqb j i); [exact Hq|exact (Hf E j)].
    - intros E. destruct (Hh E) as (h & H1 & H2 & H3). assert (h <> i) by congruence. exists h. rewrite !fset_other by assumption. repeat split; auto.
      intros j. unfold fset. destruct (Nat.eqb j i); [congruence|apply H2]. }
  destruct a as [i|i k|i|i|i|i j]; cbn [sp_step] in H.
  - destruct (sp_pc s i) eqn:Ep; try discriminate. injection H as <- <-. constructor; cbn [sp_hist sp_seen sp_pc]; auto.
    + intros E j. unfold fset. destruct (Nat.eqb j i); [discriminate|exact (Hf E j)].
    + intros E. destruct (Hh E) as (h & H1 & H2 & H3). assert (h <> i) by congruence. exists h. rewrite fset_other by assumption. repeat split; auto.
      intros j. unfold fset. destruct (Nat.eqb j i); [discriminate|apply H2].
  - set (p := match k with Some p => p | None => length (sp_hist s) - 1 end) in H.
    destruct (sp_pc s i) eqn:Ep; try discriminate; destruct (nth_error (sp_hist s) p) as [[b u]|] eqn:Eb; try discriminate.
    + destruct b.
      * destruct (sp_seen s i <=? p) eqn:El; [|discriminate]. injection H as <- <-. apply Hread; try congruence; [now apply Nat.leb_le|eapply nth_bound; eauto].
      * destruct k; [discriminate|]. injection H as <- <-. subst p. rewrite En in Eb. injection Eb as Eb.
        constructor; rewrite ?newest_app; cbn [sp_hist sp_seen sp_pc fst].
        -- destruct (sp_hist s); discriminate.
        -- intros j. rewrite app_length. cbn. specialize (Hs j). unfold fset. destruct (Nat.eqb j i); lia.
        -- discriminate.
        -- intros _. exists i. rewrite !fset_same, app_length. cbn. repeat split; try lia. intros j. unfold fset.
           destruct (Nat.eqb_spec j i); [auto|]. intros Hj. destruct (Hf ltac:(now rewrite Eb) j Hj).
    + destruct (sp_seen s i <=? p) eqn:El; [|discriminate]. injection H as <- <-. apply Hread; [congruence|destruct b; discriminate|now apply Nat.leb_le|eapply nth_bound; eauto].
  - destruct (sp_pc s i) eqn:Ep; try discriminate. injection H as <- <-. constructor; auto.
  - destruct (sp_pc s i) eqn:Ep; try discriminate. injection H as <- <-. constructor; rewrite ?newest_app; cbn [sp_hist sp_seen sp_pc fst].
    + destruct (sp_hist s); discriminate.
    + intros j. rewrite app_length. cbn. specialize (Hs j). unfold fset. destruct (Nat.eqb j i); lia.
    + intros _ j. unfold fset. destruct (Nat.eqb_spec j i); [discriminate|]. intros Hj.
      destruct (fst (newest s)) eqn:E; [|exact (Hf eq_refl j Hj)]. destruct (Hh eq_refl) as (h & _ & H2 & _). apply n. now rewrite (H2 _ Hj), (H2 _ Ep).
    + discriminate.
  - injection H as <- <-. constructor; auto.
  - injection H as <- <-. constructor; cbn [sp_hist sp_seen sp_pc]; auto.
    + intros m. unfold fset. destruct (Nat.eqb m j); auto. pose proof (Hs i). pose proof (Hs j). lia.
    + intros E. destruct (Hh E) as (h & H1 & H2 & H3). exists h. repeat split; auto. unfold fset.
      destruct (Nat.eqb_spec h j); [subst|auto]. pose proof (Hs i). lia.
Qed.
Lemma excl_run o es s : sprun o es s -> Excl s.
Proof.
  induction 1 as [|es s a s' e Hr IH Hs]; [|exact (excl_step _ _ _ _ _ IH Hs)].
  constructor; cbn; try discriminate; auto.
Qed.

(** ** Everything done under the lock is known to whoever holds it next *)
Definition c_le (a b : clock) : Prop := forall k, a k <= b k.
Definition all_known (es : list sevent) (acc : list (nat * nat)) (c : clock) : Prop :=
  (forall j n, In (j, n) acc -> n <= c j) /\ forall i u, In (Unlocked i u) es -> c_le u c.
Lemma tick_le i c : c_le c (c_tick i c).
Proof. intros k. unfold c_tick. destruct (Nat.eqb k i); lia. Qed.
Lemma known_le es acc c c' : all_known es acc c -> c_le c c' -> all_known es acc c'.
Proof. intros [H1 H2] H. split; [intros j n Hj; specialize (H1 j n Hj); specialize (H j); lia|intros i u Hi k; specialize (H2 i u Hi k); specialize (H k); lia]. Qed.
Record Known (es : list sevent) (s : spin) : Prop := {
  kn_free : fst (newest s) = false -> all_known es (sp_acc s) (snd (newest s));
  kn_held : forall h, sp_pc s h = SpHeld -> all_known es (sp_acc s) (sp_clock s h);
  kn_bad : sp_bad s = [];
  kn_hb : forall es2 j c es1, es = es2 ++ Locked j c :: es1 -> forall i u, In (Unlocked i u) es1 -> c_le u c }.

Lemma known_step o es s a s' e : is_acquire (lo_cas o) = true -> is_release (lo_unlock o) = true -> sprun o es s -> Known es s ->
  sp_step o s a = Some (s', e) -> Known (match e with Some x => x :: es | None => es end) s'.
Proof.
  intros Ha Hu Hr [Kf Kh Kb Khb] H. destruct (excl_run _ _ _ Hr) as [Hn Hs Hf Hh]. pose proof (newest_at _ Hn) as En.
  assert (Hread : forall i p ord q, sp_pc s i <> SpHeld -> q <> SpHeld -> Known es (sp_read s i p ord q)).
  { intros i p ord q Hi Hq. constructor; cbn [sp_read sp_hist sp_seen sp_pc sp_acc sp_bad sp_clock]; auto.
    intros h. unfold fset at 1. destruct (Nat.eqb_spec h i); [congruence|]. intros E. rewrite fset_other by assumption. exact (Kh h E). }
  destruct a as [i|i k|i|i|i|i j]; cbn [sp_step] in H.
  - destruct (sp_pc s i) eqn:Ep; try discriminate. injection H as <- <-. constructor; cbn [sp_pc sp_acc sp_bad sp_clock]; auto.
    intros h. unfold fset. destruct (Nat.eqb_spec h i); [discriminate|apply Kh].
  - set (p := match k with Some p => p | None => length (sp_hist s) - 1 end) in H.
    destruct (sp_pc s i) eqn:Ep; try discriminate; destruct (nth_error (sp_hist s) p) as [[b u]|] eqn:Eb; try discriminate.
    + destruct b.
      * destruct (sp_seen s i <=? p) eqn:El; [|discriminate]. injection H as <- <-. apply Hread; congruence.
      * destruct k; [discriminate|]. injection H as <- <-. subst p. pose proof Eb as Eb'. rewrite En in Eb. injection Eb as Eb.
        assert (Hall : all_known es (sp_acc s) (c_tick i (learn s i (length (sp_hist s) - 1) (lo_cas o)))).
        { eapply known_le; [apply Kf; now rewrite Eb|]. rewrite Eb. cbn [snd]. intros x. etransitivity; [|apply tick_le]. unfold learn. rewrite Eb', Ha. unfold c_join. lia. }
        constructor; rewrite ?newest_app; cbn [sp_hist sp_seen sp_pc sp_acc sp_bad sp_clock fst]; auto.
        -- discriminate.
        -- intros h. unfold fset. destruct (Nat.eqb_spec h i).
           ++ intros _. destruct Hall as [H1 H2]. split; [exact H1|]. intros m x [Hm|Hm]; [discriminate|eauto].
           ++ intros Hj. destruct (Hf ltac:(now rewrite Eb) h Hj).
        -- intros es2 m c es1 E x y Hx. destruct es2 as [|z es2]; cbn [app] in E.
           ++ injection E as _ <- <-. exact (proj2 Hall x y Hx).
           ++ injection E as _ E. subst. exact (Khb es2 m c es1 eq_refl x y Hx).
    + destruct (sp_seen s i <=? p) eqn:El; [|discriminate]. injection H as <- <-. apply Hread; [congruence|destruct b; discriminate].
  - destruct (sp_pc s i) eqn:Ep; try discriminate. injection H as <- <-.
    assert (Eh : fst (newest s) = true) by (destruct (fst (newest s)) eqn:E; [reflexivity|destruct (Hf eq_refl i Ep)]).
    pose proof (known_le _ _ _ _ (Kh i Ep) (tick_le i _)) as Hall.
    assert (Hok : forallb (fun a => snd a <=? c_tick i (sp_clock s i) (fst a)) (sp_acc s) = true).
    { apply forallb_forall. intros [j n] Hj. apply Nat.leb_le. exact (proj1 Hall j n Hj). }
    constructor; cbn [sp_pc sp_acc sp_bad sp_clock].
    + unfold newest in *. cbn [sp_hist]. congruence.
    + intros h Hp. destruct (Hh Eh) as (h' & _ & H2 & _). rewrite (H2 _ Hp), <- (H2 _ Ep), fset_same. split; [|exact (proj2 Hall)].
      intros j n [E|Hj]; [injection E as <- <-; reflexivity|exact (proj1 Hall j n Hj)].
    + now rewrite Hok.
    + exact Khb.
  - destruct (sp_pc s i) eqn:Ep; try discriminate. injection H as <- <-.
    assert (Eh : fst (newest s) = true) by (destruct (fst (newest s)) eqn:E; [reflexivity|destruct (Hf eq_refl i Ep)]).
    destruct (Hh Eh) as (h' & H1 & H2 & H3). pose proof (H2 _ Ep) as <-.
    pose proof (known_le _ _ _ _ (Kh i Ep) (tick_le i _)) as Hall.
    constructor; rewrite ?newest_app; cbn [sp_pc sp_acc sp_bad sp_clock fst snd].
    + intros _. rewrite Hu. split; [exact (proj1 Hall)|]. intros m x [Hm|Hm]; [injection Hm as _ <-; intros y; lia|exact (proj2 Hall m x Hm)].
    + intros h. unfold fset at 1. destruct (Nat.eqb_spec h i); [discriminate|]. intros Hp. destruct n. exact (H2 _ Hp).
    + now rewrite H3, Nat.eqb_refl.
    + intros es2 m c es1 E x y Hx. destruct es2 as [|z es2]; cbn in E; [discriminate|]. injection E as _ E. subst. exact (Khb es2 m c es1 eq_refl x y Hx).
  - injection H as <- <-. constructor; cbn [sp_pc sp_acc sp_bad sp_clock]; auto. intros h Hp. unfold fset. destruct (Nat.eqb_spec h i); [subst|apply Kh; exact Hp].
    eapply known_le; [exact (Kh i Hp)|apply tick_le].
  - injection H as <- <-. constructor; cbn [sp_pc sp_acc sp_bad sp_clock]; auto. intros h Hp. unfold fset. destruct (Nat.eqb_spec h j); [subst|apply Kh; exact Hp].
    eapply known_le; [exact (Kh j Hp)|]. intros x. unfold c_join. lia.
Qed.
Lemma known_run o es s : is_acquire (lo_cas o) = true -> is_release (lo_unlock o) = true -> sprun o es s -> Known es s.
Proof.
  intros Ha Hu. induction 1 as [|es s a s' e Hr IH Hs]; [|exact (known_step _ _ _ _ _ _ Ha Hu Hr IH Hs)].
  constructor; cbn; try discriminate; auto.
  - intros _. split; intros ? ? [].
  - intros [|? ?]; discriminate.
Qed.

(** ** C59.  The spin lock provides mutual exclusion whatever the orderings, ... *)
Theorem C59_mutual_exclusion : forall o es s i j, sprun o es s -> sp_pc s i = SpHeld -> sp_pc s j = SpHeld -> i = j.
Proof.
  intros o es s i j Hr Hi Hj. destruct (excl_run _ _ _ Hr) as [_ _ Hf Hh]. destruct (fst (newest s)); [|destruct (Hf eq_refl i Hi)].
  destruct (Hh eq_refl) as (h & _ & H & _). now rewrite (H i Hi), (H j Hj).
Qed.
Print Assumptions C59_mutual_exclusion.

(** ... no access to the data is a race, ... *)
Theorem C59_no_race : forall o es s, is_acquire (lo_cas o) = true -> is_release (lo_unlock o) = true -> sprun o es s -> sp_bad s = [].
Proof. intros o es s Ha Hu Hr. exact (kn_bad _ _ (known_run _ _ _ Ha Hu Hr)). Qed.
Print Assumptions C59_no_race.

(** ... and everything that happened before an unlock happens before every later lock (this is what [WeakQueueModel] assumes of the
    mutex of the wait queue). *)
Theorem C59_synchronises : forall o es s es2 j c es1 i u, is_acquire (lo_cas o) = true -> is_release (lo_unlock o) = true ->
  sprun o es s -> es = es2 ++ Locked j c :: es1 -> In (Unlocked i u) es1 -> forall k, u k <= c k.
Proof. intros o es s es2 j c es1 i u Ha Hu Hr E Hi. exact (kn_hb _ _ (known_run _ _ _ Ha Hu Hr) es2 j c es1 E i u Hi). Qed.
Print Assumptions C59_synchronises.

Theorem C59_code : forall es s, sprun code_lock_orders es s -> sp_bad s = [] /\
  forall es2 j c es1 i u, es = es2 ++ Locked j c :: es1 -> In (Unlocked i u) es1 -> forall k, u k <= c k.
Proof.
  intros es s Hr. split; [exact (C59_no_race code_lock_orders es s eq_refl eq_refl Hr)|].
  intros es2 j c es1 i u. exact (C59_synchronises code_lock_orders es s es2 j c es1 i u eq_refl eq_refl Hr).
Qed.
Print Assumptions C59_code.

(** If nobody holds the lock, a thread that waits for it gets it within two steps of its own, once it reads the newest value. *)
Theorem C59_free : forall o es s i, sprun o es s -> (forall j, sp_pc s j <> SpHeld) -> sp_pc s i = SpCas \/ sp_pc s i = SpLoad ->
  exists s1 e1, sp_step o s (SpStep i None) = Some (s1, e1) /\
    (sp_pc s1 i = SpHeld \/ exists s2 e2, sp_step o s1 (SpStep i None) = Some (s2, e2) /\ sp_pc s2 i = SpHeld).
Proof.
  intros o es s i Hr Hno Hi. destruct (excl_run _ _ _ Hr) as [Hn Hs _ Hh]. pose proof (newest_at _ Hn) as En.
  destruct (newest s) as [b u] eqn:Eb. destruct b; [destruct (Hh eq_refl) as (h & H & _); destruct (Hno h H)|].
  cbn [sp_step]. rewrite En. destruct Hi as [-> | ->].
  - eexists _, _. split; [reflexivity|]. left. cbn [sp_pc]. apply fset_same.
  - rewrite (proj2 (Nat.leb_le _ _) (Hs i)). eexists _, _. split; [reflexivity|]. right. cbn [sp_read sp_pc sp_hist]. rewrite fset_same, En.
    eexists _, _. split; [reflexivity|]. cbn [sp_pc]. apply fset_same.
Qed.
Print Assumptions C59_free.

(** *** Concrete cases *)
Definition sp_case (o : lock_orders) (l : list spaction) (Q : spin -> list sevent -> Prop) : Prop :=
  match sp_exec o spin_init [] l with Some (s, es) => Q s es | None => False end.
Lemma sp_exec_run o l : forall s es s' es', sprun o es s -> sp_exec o s es l = Some (s', es') -> sprun o es' s'.
Proof.
  induction l as [|a l IH]; cbn; intros s es s' es' Hr H; [injection H as <- <-; exact Hr|].
  destruct (sp_step o s a) as [[s1 e]|] eqn:E; [|discriminate]. eapply IH; [|exact H]. exact (sprun_step o es s a s1 e Hr E).
Qed.
Lemma sp_demo o l Q : sp_case o l Q -> exists s es, sprun o es s /\ Q s es.
Proof.
  unfold sp_case. destruct (sp_exec o spin_init [] l) as [[s es]|] eqn:E; [|easy]. intros H. exists s, es. split; [|exact H].
  exact (sp_exec_run o l _ _ _ _ (sprun_init o) E).
Qed.
(** 0 holds the lock and writes; 1 fails, spins, reads an old [true] after the unlock, then gets the lock and writes. *)
Definition sp_story : list spaction :=
  [SpCall 0; SpStep 0 None; SpAccess 0; SpAccess 0; SpCall 1; SpStep 1 None; SpStep 1 None; SpDrop 0; SpStep 1 (Some 1); SpStep 1 None; SpStep 1 None; SpAccess 1].
Example C59_case : exists s es, sprun code_lock_orders es s /\ sp_pc s 1 = SpHeld /\ sp_acc s = [(1, 6); (0, 3); (0, 2)] /\
  exists c u es1, es = [] ++ Locked 1 c :: es1 /\ In (Unlocked 0 u) es1 /\ u 0 = 4 /\ c 0 = 4.
Proof.
  destruct (sp_demo code_lock_orders sp_story (fun s es => sp_pc s 1 = SpHeld /\ sp_acc s = [(1, 6); (0, 3); (0, 2)] /\
    match es with Locked 1 c :: Unlocked 0 u :: _ => u 0 = 4 /\ c 0 = 4 | _ => False end)) as (s & es & Hr & H1 & H2 & H3); [vm_compute; auto|].
  exists s, es. destruct es as [|[[|[|]] c|] [|[|[|] u] es1]]; try contradiction. repeat (split; [assumption|]).
  exists c, u, (Unlocked 0 u :: es1). repeat split; try apply H3. now left.
Qed.
Example C59_free_case : exists s es, sprun code_lock_orders es s /\ sp_pc s 1 = SpLoad /\ sp_pc s 0 = SpIdle /\ length (sp_hist s) = 3.
Proof. apply (sp_demo _ (firstn 9 sp_story) (fun s es => sp_pc s 1 = SpLoad /\ sp_pc s 0 = SpIdle /\ length (sp_hist s) = 3)). vm_compute. auto. Qed.

(** Both orderings are needed. *)
Definition sp_two : list spaction := [SpCall 0; SpStep 0 None; SpAccess 0; SpDrop 0; SpCall 1; SpStep 1 None; SpAccess 1].
Theorem C59_cas_must_acquire : exists s es, sprun (mkLO Release Acquire Relaxed Release) es s /\ In 1 (sp_bad s).
Proof. apply (sp_demo _ sp_two (fun s es => In 1 (sp_bad s))). vm_compute. auto. Qed.
Print Assumptions C59_cas_must_acquire.
Theorem C59_unlock_must_release : exists s es, sprun (mkLO AcqRel Acquire Relaxed Relaxed) es s /\ In 1 (sp_bad s).
Proof. apply (sp_demo _ sp_two (fun s es => In 1 (sp_bad s))). vm_compute. auto. Qed.
Print Assumptions C59_unlock_must_release.
(** The release of the compare_exchange and the acquire of its failure are not. *)
Example C59_weaker_orders : let o := mkLO Acquire Relaxed Relaxed Release in is_acquire (lo_cas o) = true /\ is_release (lo_unlock o) = true.
Proof. split; reflexivity. Qed.
