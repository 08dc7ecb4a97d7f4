(** Invariants of the wait cell on weak memory. *)
From Coq Require Import List Bool Arith NArith Lia.
From Verif Require Import WaitCellModel WaitCellSpec WaitCellFacts WeakCellModel WeakCellSpec.
Import ListNotations.

Lemma updc_same f i v : updc f i v i = v.
Proof. unfold updc. now rewrite Nat.eqb_refl. Qed.
Lemma updc_other f i v j : j <> i -> updc f i v j = f j.
Proof. intros H. unfold updc. apply Nat.eqb_neq in H. now rewrite H. Qed.

Definition in_range (w : N) : Prop := (w = 0 \/ w = 1 \/ w = 2 \/ w = 3 \/ w = 4 \/ w = 6 \/ w = 7)%N.
Definition parking (p : wpc) : bool := match p with WReplace _ _ | WCas2 _ _ _ => true | _ => false end.

Section Facts.
  Variables (debug : bool) (k : cell_orders).
  Notation wstep := (wstep debug).
  Notation kstep := (kstep debug k).
  Notation krun := (krun debug k).

  (** Does the step write the lock, and with which ordering? *)
  Definition rmw_order (p : wpc) : option ordering :=
    match p with
    | WCas1 _ _ => Some (k_park k) | WCas2 _ _ _ => Some (k_unpark k) | WAnd _ _ _ _ _ => Some (k_reset k)
    | NOr _ => Some (k_notify k) | NAnd _ => Some (k_unlock k) | _ => None
    end.
  Definition touches (p : wpc) : bool :=
    match p with WReplace _ false | WTake _ _ _ _ | NTake => true | _ => false end.

  (** What a step of [i] does. *)
  Inductive kcase (s : wcell) (i : nat) (e : option wevent) : wcell -> csync -> Prop :=
  | kc_rmw o c' p' : rmw_order (ws_pc (wc_sys s) i) = Some o ->
      wstep (ws_cell (wc_sys s)) i (ws_pc (wc_sys s) i) = (c', p', e) ->
      (match ws_pc (wc_sys s) i with WCas1 _ _ => w_state (ws_cell (wc_sys s)) = WAITING
       | WCas2 _ _ _ => w_state (ws_cell (wc_sys s)) = PARKING | _ => True end) ->
      let a := if is_acquire o then Nat.max (cv_acc (wc_views s i)) (newest_acc (wc_msgs s)) else cv_acc (wc_views s i) in
      let m := mkCM (w_state c') (if is_release o then Nat.max a (newest_acc (wc_msgs s)) else newest_acc (wc_msgs s)) in
      kcase s i e (mkWC (mkW c' (wset (ws_pc (wc_sys s)) i p')) (wc_msgs s ++ [m]) (wc_acc s)
                     (updc (wc_views s) i (mkCV (length (wc_msgs s)) a)) (wc_races s))
            (RmwSync (length (wc_msgs s)) o)
  | kc_fail x m p' c'' : (match ws_pc (wc_sys s) i with WCas1 _ _ => cm_word m <> WAITING
       | WCas2 _ _ _ => cm_word m <> PARKING | _ => False end) ->
      cv_lock (wc_views s i) <= x -> nth_error (wc_msgs s) x = Some m ->
      wstep (mkCell (cm_word m) (w_waiter (ws_cell (wc_sys s)))) i (ws_pc (wc_sys s) i) = (c'', p', e) ->
      kcase s i e (mkWC (mkW (ws_cell (wc_sys s)) (wset (ws_pc (wc_sys s)) i p')) (wc_msgs s) (wc_acc s)
         (updc (wc_views s) i (mkCV x (if is_acquire (k_fail k) then Nat.max (cv_acc (wc_views s i)) (cm_acc m) else cv_acc (wc_views s i))))
         (wc_races s)) (LoadSync x (k_fail k))
  | kc_touch c' p' : touches (ws_pc (wc_sys s) i) = true ->
      wstep (ws_cell (wc_sys s)) i (ws_pc (wc_sys s) i) = (c', p', e) ->
      kcase s i e (mkWC (mkW c' (wset (ws_pc (wc_sys s)) i p')) (wc_msgs s) (S (wc_acc s))
         (updc (wc_views s) i (mkCV (cv_lock (wc_views s i)) (S (wc_acc s))))
         (if Nat.eqb (cv_acc (wc_views s i)) (wc_acc s) then wc_races s else i :: wc_races s)) NoSync
  | kc_local c' p' : rmw_order (ws_pc (wc_sys s) i) = None -> touches (ws_pc (wc_sys s) i) = false ->
      ws_pc (wc_sys s) i <> WIdle ->
      wstep (ws_cell (wc_sys s)) i (ws_pc (wc_sys s) i) = (c', p', e) ->
      kcase s i e (mkWC (mkW c' (wset (ws_pc (wc_sys s)) i p')) (wc_msgs s) (wc_acc s)
         (updc (wc_views s) i (wc_views s i)) (wc_races s)) NoSync.

  Lemma rmw_cases s i o s' e y : rmw debug s i o = (s', e, y) ->
    rmw_order (ws_pc (wc_sys s) i) = Some o ->
    (match ws_pc (wc_sys s) i with WCas1 _ _ => w_state (ws_cell (wc_sys s)) = WAITING
       | WCas2 _ _ _ => w_state (ws_cell (wc_sys s)) = PARKING | _ => True end) -> kcase s i e s' y.
  Proof.
    unfold rmw, plain. destruct (wstep _ _ _) as [[c' p'] e'] eqn:E. cbn [wc_sys wc_acc wc_views wc_races ws_cell cv_acc].
    intros [= <- <- <-] Ho Hc. apply (kc_rmw s i e' o c' p'); auto.
  Qed.

  Lemma cas_cases s i w o x s' e y : cas debug k s i w o x = Some (s', e, y) ->
    rmw_order (ws_pc (wc_sys s) i) = Some o ->
    match ws_pc (wc_sys s) i with WCas1 _ _ => w = WAITING | WCas2 _ _ _ => w = PARKING | _ => False end -> kcase s i e s' y.
  Proof.
    unfold cas. destruct x as [x|].
    - unfold cas_fails. destruct (cv_lock (wc_views s i) <=? x) eqn:El; [|discriminate]. apply Nat.leb_le in El.
      destruct (nth_error (wc_msgs s) x) as [m|] eqn:Em; [|discriminate]. destruct (N.eqb_spec (cm_word m) w) as [|Hw]; [discriminate|].
      destruct (wstep _ _ _) as [[c' p'] e'] eqn:E. intros [= <- <- <-] Ho Hc.
      apply (kc_fail s i e' x m p' c'); auto. destruct (ws_pc (wc_sys s) i); try tauto; congruence.
    - destruct (N.eqb_spec (w_state (ws_cell (wc_sys s))) w) as [Hw|]; [|discriminate]. intros H Ho Hc.
      injection H as H. eapply rmw_cases; eauto. destruct (ws_pc (wc_sys s) i); auto; congruence.
  Qed.

  Lemma step_cases s i x s' e y : wcell_step debug k s i x = Some (s', e, y) -> kcase s i e s' y.
  Proof.
    unfold wcell_step, no_sync, access_waker, plain.
    assert (L : rmw_order (ws_pc (wc_sys s) i) = None -> touches (ws_pc (wc_sys s) i) = false -> ws_pc (wc_sys s) i <> WIdle ->
      Some ((let '(c', p', e0) := wstep (ws_cell (wc_sys s)) i (ws_pc (wc_sys s) i) in
        (mkWC (mkW c' (wset (ws_pc (wc_sys s)) i p')) (wc_msgs s) (wc_acc s) (updc (wc_views s) i (wc_views s i)) (wc_races s), e0)), NoSync)
       = Some (s', e, y) -> kcase s i e s' y).
    { intros H1 H2 H3. destruct (wstep _ _ _) as [[c' p'] e'] eqn:E. intros [= <- <- <-]. eapply kc_local; eauto. }
    assert (A : touches (ws_pc (wc_sys s) i) = true ->
      Some ((let '(c', p', e0) := wstep (ws_cell (wc_sys s)) i (ws_pc (wc_sys s) i) in
        (mkWC (mkW c' (wset (ws_pc (wc_sys s)) i p')) (wc_msgs s) (S (wc_acc s)) (updc (wc_views s) i (mkCV (cv_lock (wc_views s i)) (S (wc_acc s))))
          (if Nat.eqb (cv_acc (wc_views s i)) (wc_acc s) then wc_races s else i :: wc_races s), e0)), NoSync)
       = Some (s', e, y) -> kcase s i e s' y).
    { intros H1. destruct (wstep _ _ _) as [[c' p'] e'] eqn:E. intros [= <- <- <-]. eapply kc_touch; eauto. }
    assert (R : forall o, rmw_order (ws_pc (wc_sys s) i) = Some o ->
      match ws_pc (wc_sys s) i with WCas1 _ _ | WCas2 _ _ _ => False | _ => True end ->
      Some (rmw debug s i o) = Some (s', e, y) -> kcase s i e s' y).
    { intros o H1 H2 H. injection H as H. eapply rmw_cases; eauto. destruct (ws_pc (wc_sys s) i); tauto. }
    destruct (ws_pc (wc_sys s) i) eqn:Ep; intros H; try discriminate;
      try (destruct pan); try (exact (L eq_refl eq_refl ltac:(discriminate) H)); try (exact (A eq_refl H));
      try (exact (R _ eq_refl I H)).
    all: eapply cas_cases; [exact H|rewrite Ep; reflexivity|rewrite Ep; reflexivity].
  Qed.

  Lemma step_sys s i e c' p' : ws_pc (wc_sys s) i <> WIdle -> wstep (ws_cell (wc_sys s)) i (ws_pc (wc_sys s) i) = (c', p', e) ->
    wstep_sys debug (wc_sys s) (WAStep i) = Some (mkW c' (wset (ws_pc (wc_sys s)) i p'), e).
  Proof.
    intros Hn H. unfold wstep_sys. destruct (ws_pc (wc_sys s) i); try congruence; now rewrite H.
  Qed.

  Record KInv (s : wcell) (es : list wevent) : Prop := {
    ki_l : LInv (wc_sys s) es;
    ki_new : exists m, nth_error (wc_msgs s) (Nat.pred (length (wc_msgs s))) = Some m /\
               cm_word m = w_state (ws_cell (wc_sys s));
    ki_range : forall x m, nth_error (wc_msgs s) x = Some m -> in_range (cm_word m);
    ki_closed : forall x m, nth_error (wc_msgs s) x = Some m -> has_closed (cm_word m) = true -> closed_in es = true;
    ki_lock : forall i, cv_lock (wc_views s i) < length (wc_msgs s);
    ki_park : forall i x m, parking (ws_pc (wc_sys s) i) = true -> cv_lock (wc_views s i) <= x ->
                nth_error (wc_msgs s) x = Some m ->
                (cm_word m = 1 \/ cm_word m = 3 \/ cm_word m = 7)%N /\ (cm_word m <= w_state (ws_cell (wc_sys s)))%N }.

  Lemma nth_snoc {A} (l : list A) a x m : nth_error (l ++ [a]) x = Some m ->
    nth_error l x = Some m \/ (x = length l /\ m = a).
  Proof.
    intros H. destruct (Nat.lt_ge_cases x (length l)) as [Hx|Hx].
    - rewrite nth_error_app1 in H; auto.
    - rewrite nth_error_app2 in H by auto. destruct (x - length l) as [|d] eqn:E; simpl in H; [|destruct d; discriminate].
      injection H as <-. right. split; auto. lia.
  Qed.
  Lemma nth_snoc_last {A} (l : list A) a : nth_error (l ++ [a]) (Nat.pred (length (l ++ [a]))) = Some a.
  Proof. rewrite app_length. simpl. rewrite Nat.add_1_r. simpl. rewrite nth_error_app2 by auto. now rewrite Nat.sub_diag. Qed.

  Lemma ki_init : KInv wcell_init [].
  Proof.
    constructor.
    - apply linv_init.
    - exists (mkCM 0 0). split; reflexivity.
    - intros [|[|x]] m H; try discriminate. injection H as <-. unfold in_range. auto.
    - intros [|[|x]] m H; try discriminate. injection H as <-. discriminate.
    - intros i. simpl. auto.
    - discriminate.
  Qed.

  Lemma range_lock f st : lock_ok f st -> in_range st.
  Proof. intros H. apply lock_range in H. exact H. Qed.

  Lemma closed_range st : in_range st -> has_closed st = true -> (st = 4 \/ st = 6 \/ st = 7)%N.
  Proof. intros [->|[->|[->|[->|[->|[->| ->]]]]]]; try discriminate; auto. Qed.

  (** A step that may write the lock changes the word only upwards while somebody else is parking. *)
  Lemma word_up s i es c' p' e h : LInv s es -> ws_pc s i <> WIdle -> wstep (ws_cell s) i (ws_pc s i) = (c', p', e) ->
    h <> i -> parking (ws_pc s h) = true ->
    (w_state (ws_cell s) <= w_state c')%N /\ (w_state c' = 1 \/ w_state c' = 3 \/ w_state c' = 7)%N.
  Proof.
    intros HI Hn Hs Hh Hp. pose proof (wstep_inv debug _ _ _ _ _ _ HI Hn Hs) as HI'.
    pose proof (lock_word _ _ h (l_holder _ _ HI)) as H0. pose proof (lock_word _ _ h (l_holder _ _ HI')) as H1.
    cbn [ws_pc ws_cell] in H1. rewrite wset_other in H1 by auto.
    assert (Hpp : holds (ws_pc s h) = true /\ forall st, word_ok st (ws_pc s h) -> (st = 1 \/ st = 3 \/ st = 7)%N)
      by (destruct (ws_pc s h); try discriminate; split; auto).
    destruct Hpp as [Hhold Hw]. pose proof (Hw _ (H0 Hhold)) as A. pose proof (Hw _ (H1 Hhold)) as B. split; auto.
    assert (holds (ws_pc s i) = false).
    { destruct (holds (ws_pc s i)) eqn:E; auto. exfalso. apply Hh. exact (lock_unique _ _ h i (l_holder _ _ HI) Hhold E). }
    destruct (ws_cell s) as [st wt]. cbn [w_state] in *.
    destruct (ws_pc s i); try discriminate; try congruence; unfold WaitCellModel.wstep in Hs; cbn [w_state w_waiter] in Hs;
      repeat match type of Hs with
             | context [if ?b then _ else _] => destruct b eqn:?
             | context [match ?b with Some _ => _ | None => _ end] => destruct b
             end; injection Hs as <- <- <-; cbn [w_state] in *; try lia.
    1: unfold WAITING, PARKING in *; match goal with H : N.eqb _ _ = true |- _ => apply N.eqb_eq in H end; lia.
    all: destruct A as [-> |[-> | ->]]; cbn in *; lia.
  Qed.

  Lemma closed_step s i es c' p' e : LInv s es -> ws_pc s i <> WIdle -> wstep (ws_cell s) i (ws_pc s i) = (c', p', e) ->
    has_closed (w_state c') = true -> closed_in (ocons e es) = true.
  Proof. intros HI Hn Hs H. pose proof (l_closed _ _ (wstep_inv debug _ _ _ _ _ _ HI Hn Hs)) as E. cbn in E. congruence. Qed.

  Lemma rmw_not_idle p o : rmw_order p = Some o -> p <> WIdle.
  Proof. intros H ->. discriminate. Qed.
  Lemma touches_not_idle p : touches p = true -> p <> WIdle.
  Proof. intros H ->. discriminate. Qed.

  Lemma same_word s i c' p' e : wstep (ws_cell s) i (ws_pc s i) = (c', p', e) -> rmw_order (ws_pc s i) = None ->
    w_state c' = w_state (ws_cell s).
  Proof.
    intros Hs Hr. destruct (ws_pc s i); try discriminate; unfold WaitCellModel.wstep in Hs;
      repeat match type of Hs with
             | context [if ?b then _ else _] => destruct b eqn:?
             | context [match ?b with Some _ => _ | None => _ end] => destruct b
             end; injection Hs as <- <- <-; reflexivity.
  Qed.

  (** A compare_exchange that fails. *)
  Lemma fail_linv s es i m c'' p' e : LInv s es -> in_range (cm_word m) ->
    (match ws_pc s i with WCas1 _ _ => cm_word m <> WAITING | WCas2 _ _ _ => cm_word m <> PARKING | _ => False end) ->
    (parking (ws_pc s i) = true -> (cm_word m = 1 \/ cm_word m = 3 \/ cm_word m = 7)%N /\ (cm_word m <= w_state (ws_cell s))%N) ->
    wstep (mkCell (cm_word m) (w_waiter (ws_cell s))) i (ws_pc s i) = (c'', p', e) ->
    LInv (mkW (ws_cell s) (wset (ws_pc s) i p')) (ocons e es) /\ e <> Some (Asserted i).
  Proof.
    intros HI HR Hw Hpk Hs. pose proof (l_holder _ _ HI) as HL. fold (lock_ok (ws_pc s) (w_state (ws_cell s))) in HL.
    destruct (ws_pc s i) eqn:Ep; try tauto; unfold WaitCellModel.wstep in Hs; cbn [w_state w_waiter] in Hs.
    - destruct HR as [HR|[HR|[HR|[HR|[HR|[HR|HR]]]]]]; rewrite HR in *; cbn in Hs; rewrite ?andb_false_r in Hs;
        try (exfalso; now apply Hw); injection Hs as <- <- <-;
        (split; [apply linv_step; rewrite ?Ep; simpl; auto; try discriminate; try apply HI|discriminate]);
        apply (lock_frame _ _ _ _ _ HL); rewrite ?Ep; auto.
    - destruct (Hpk eq_refl) as [Hr Hle].
      pose proof (lock_word _ _ i HL) as HW. rewrite Ep in HW. specialize (HW eq_refl). simpl in HW.
      destruct (N.eqb_spec (cm_word m) PARKING) as [|_]; [congruence|]. injection Hs as <- <- <-.
      split; [|discriminate]. unfold PARKING in Hw.
      apply linv_step; rewrite ?Ep; simpl; auto; try discriminate; [|apply HI].
      apply (lock_keep _ _ _ _ _ HL); rewrite ?Ep; simpl; auto. lia.
  Qed.

  Lemma ki_step s es i x s' e y : KInv s es -> wcell_step debug k s i x = Some (s', e, y) -> KInv s' (ocons e es).
  Proof.
    intros HK Hs. apply step_cases in Hs. pose proof (ki_l _ _ HK) as HI. destruct HK as [_ Hnew Hrange Hclosed Hlock Hpark].
    destruct Hs as [o c' p' Ho Hs Hc a m|x0 m p' c'' Hw Hx Hm Hs|c' p' Ht Hs|c' p' Ho Ht Hn Hs].
    - pose proof (rmw_not_idle _ _ Ho) as Hn. pose proof (wstep_inv debug _ _ _ _ _ _ HI Hn Hs) as HI'.
      pose proof (range_lock _ _ (l_holder _ _ HI')) as HR. cbn [ws_cell] in HR.
      constructor; cbn [wc_sys wc_msgs wc_acc wc_views wc_races ws_pc ws_cell].
      + exact HI'.
      + exists m. split; [apply nth_snoc_last|reflexivity].
      + intros z m' Hz. apply nth_snoc in Hz as [Hz|[-> ->]]; [eauto|exact HR].
      + intros z m' Hz Hcl. apply nth_snoc in Hz as [Hz|[-> ->]]; [apply closed_tail; eauto|].
        exact (closed_step _ _ _ _ _ _ HI Hn Hs Hcl).
      + intros j. rewrite app_length. simpl. destruct (Nat.eq_dec j i) as [->|Hj]; [rewrite updc_same; simpl; lia|].
        rewrite updc_other by auto. specialize (Hlock j). lia.
      + intros j z m' Hpj Hz Hm'. destruct (Nat.eq_dec j i) as [->|Hj].
        * rewrite updc_same in Hz. rewrite wset_same in Hpj. cbn [cv_lock] in Hz.
          apply nth_snoc in Hm' as [Hm'|[-> ->]]; [assert (z < length (wc_msgs s)) by (apply nth_error_Some; congruence); lia|].
          cbn [cm_word m]. destruct (ws_pc (wc_sys s) i) eqn:Ep; try discriminate; unfold WaitCellModel.wstep in Hs;
            rewrite ?Hc in Hs; cbn in Hs;
            repeat match type of Hs with
             | context [if ?b then _ else _] => destruct b eqn:?
             | context [match ?b with Some _ => _ | None => _ end] => destruct b
             end; injection Hs as <- <- <-; try discriminate. cbn. split; [auto|lia].
        * rewrite updc_other in Hz by auto. rewrite wset_other in Hpj by auto.
          destruct (word_up _ _ _ _ _ _ j HI Hn Hs Hj Hpj) as [Hup Hin].
          apply nth_snoc in Hm' as [Hm'|[-> ->]].
          -- destruct (Hpark _ _ _ Hpj Hz Hm') as [H1 H2]. split; auto. lia.
          -- cbn [cm_word m]. split; auto. lia.
    - assert (HF : LInv (mkW (ws_cell (wc_sys s)) (wset (ws_pc (wc_sys s)) i p')) (ocons e es) /\ e <> Some (Asserted i)).
      { eapply fail_linv; eauto. }
      destruct HF as [HI' _]. constructor; cbn [wc_sys wc_msgs wc_acc wc_views wc_races ws_pc ws_cell]; auto.
      + intros z m' Hz Hcl. apply closed_tail. eauto.
      + intros j. destruct (Nat.eq_dec j i) as [->|Hj]; [rewrite updc_same; simpl; apply nth_error_Some; congruence|].
        rewrite updc_other by auto. auto.
      + intros j z m' Hpj Hz Hm'. destruct (Nat.eq_dec j i) as [->|Hj].
        * exfalso. rewrite wset_same in Hpj. destruct (ws_pc (wc_sys s) i) eqn:Ep; try tauto; unfold WaitCellModel.wstep in Hs;
            cbn [w_state] in Hs.
          -- destruct (N.eqb_spec (cm_word m) WAITING); [congruence|].
             repeat match type of Hs with context [if ?b then _ else _] => destruct b eqn:? end; injection Hs as <- <- <-; discriminate.
          -- destruct (N.eqb_spec (cm_word m) PARKING); [congruence|]. injection Hs as <- <- <-. discriminate.
        * rewrite updc_other in Hz by auto. rewrite wset_other in Hpj by auto. eauto.
    - pose proof (touches_not_idle _ Ht) as Hn. pose proof (wstep_inv debug _ _ _ _ _ _ HI Hn Hs) as HI'.
      assert (Ho : rmw_order (ws_pc (wc_sys s) i) = None) by (destruct (ws_pc (wc_sys s) i); try discriminate; reflexivity).
      pose proof (same_word _ _ _ _ _ Hs Ho) as Hsame.
      constructor; cbn [wc_sys wc_msgs wc_acc wc_views wc_races ws_pc ws_cell]; auto.
      + destruct Hnew as (m & H1 & H2). exists m. split; auto. congruence.
      + intros z m' Hz Hcl. apply closed_tail. eauto.
      + intros j. destruct (Nat.eq_dec j i) as [->|Hj]; [rewrite updc_same; simpl; auto|rewrite updc_other; auto].
      + intros j z m' Hpj Hz Hm'. rewrite Hsame. destruct (Nat.eq_dec j i) as [->|Hj].
        * rewrite updc_same in Hz. rewrite wset_same in Hpj. cbn [cv_lock] in Hz.
          destruct (ws_pc (wc_sys s) i) eqn:Ep; try discriminate; [apply (Hpark i z m'); auto; now rewrite Ep| |];
          unfold WaitCellModel.wstep in Hs; injection Hs as <- <- <-; discriminate.
        * rewrite updc_other in Hz by auto. rewrite wset_other in Hpj by auto. eauto.
    - pose proof (wstep_inv debug _ _ _ _ _ _ HI Hn Hs) as HI'. pose proof (same_word _ _ _ _ _ Hs Ho) as Hsame.
      constructor; cbn [wc_sys wc_msgs wc_acc wc_views wc_races ws_pc ws_cell]; auto.
      + destruct Hnew as (m & H1 & H2). exists m. split; auto. congruence.
      + intros z m' Hz Hcl. apply closed_tail. eauto.
      + intros j. destruct (Nat.eq_dec j i) as [->|Hj]; [rewrite updc_same; simpl; auto|rewrite updc_other; auto].
      + intros j z m' Hpj Hz Hm'. rewrite Hsame. destruct (Nat.eq_dec j i) as [->|Hj].
        * rewrite updc_same in Hz. rewrite wset_same in Hpj.
          destruct (ws_pc (wc_sys s) i) eqn:Ep; try discriminate; try congruence; unfold WaitCellModel.wstep in Hs;
          repeat match type of Hs with
             | context [if ?b then _ else _] => destruct b eqn:?
             | context [match ?b with Some _ => _ | None => _ end] => destruct b
             end; injection Hs as <- <- <-; try discriminate. apply (Hpark i z m'); auto; now rewrite Ep.
        * rewrite updc_other in Hz by auto. rewrite wset_other in Hpj by auto. eauto.
  Qed.

  Lemma ki_call s es i p e s' a : KInv s es -> ws_pc (wc_sys s) i = WIdle ->
    wstep_sys debug (wc_sys s) a = Some (wc_sys s', e) ->
    ws_pc (wc_sys s') = wset (ws_pc (wc_sys s)) i p -> parking p = false -> ws_cell (wc_sys s') = ws_cell (wc_sys s) ->
    wc_msgs s' = wc_msgs s -> wc_views s' = wc_views s -> KInv s' (ocons e es).
  Proof.
    intros HK Hi Hs Hpc Hp Hc Hm Hv. pose proof (wsys_inv _ _ _ _ _ _ (ki_l _ _ HK) Hs) as HI'.
    destruct HK as [_ Hnew Hrange Hclosed Hlock Hpark].
    constructor; rewrite ?Hm, ?Hv, ?Hc; auto.
    - intros z m' Hz Hcl. apply closed_tail. eauto.
    - intros j z m' Hpj Hz Hm'. rewrite Hpc in Hpj. destruct (Nat.eq_dec j i) as [->|Hj]; [rewrite wset_same in Hpj; congruence|].
      rewrite wset_other in Hpj by auto. eauto.
  Qed.

  Lemma call_inv s i p e s' e' : wcell_call s i p e = Some (s', e') ->
    ws_pc (wc_sys s) i = WIdle /\ e' = Some e /\
    s' = mkWC (mkW (ws_cell (wc_sys s)) (wset (ws_pc (wc_sys s)) i p)) (wc_msgs s) (wc_acc s) (wc_views s) (wc_races s).
  Proof. unfold wcell_call. destruct (ws_pc (wc_sys s) i); try discriminate. intros [= <- <-]. auto. Qed.

  Lemma ki_kstep s es a s' e : KInv s es -> kstep s a = Some (s', e) -> KInv s' (ocons e es).
  Proof.
    intros HK Hs. destruct a as [i w pan|i close|i x]; simpl in Hs.
    - apply call_inv in Hs as (Hi & -> & ->). eapply (ki_call s es i (WCas1 w pan) _ _ (WACall i w pan)); eauto.
      simpl. now rewrite Hi.
    - apply call_inv in Hs as (Hi & -> & ->). eapply (ki_call s es i (NOr close) _ _ (WANotify i close)); eauto.
      simpl. now rewrite Hi.
    - destruct (wcell_step debug k s i x) as [[[s1 e1] y]|] eqn:E; [|discriminate]. injection Hs as <- <-. eapply ki_step; eauto.
  Qed.

  Lemma krun_inv es s : krun es s -> KInv s es.
  Proof. induction 1; [apply ki_init|]. eapply ki_kstep; eauto. Qed.

  (** ** Races on the waker *)
  Record RInv (s : wcell) : Prop := {
    ri_view : forall i, cv_acc (wc_views s i) <= wc_acc s;
    ri_msg : newest_acc (wc_msgs s) <= wc_acc s;
    ri_msgs : forall x m, nth_error (wc_msgs s) x = Some m -> cm_acc m <= wc_acc s;
    ri_held : forall i, holds (ws_pc (wc_sys s) i) = true -> cv_acc (wc_views s i) = wc_acc s;
    ri_free : (forall i, holds (ws_pc (wc_sys s) i) = false) -> newest_acc (wc_msgs s) = wc_acc s;
    ri_races : wc_races s = [] }.

  Lemma newest_snoc l m : newest_acc (l ++ [m]) = cm_acc m.
  Proof. unfold newest_acc. now rewrite nth_snoc_last. Qed.

  Lemma ri_init : RInv wcell_init.
  Proof.
    constructor; simpl; auto; try discriminate. intros [|[|x]] m H; try discriminate. injection H as <-. simpl. auto.
  Qed.

  Lemma holds_wset f i p j : holds (wset f i p j) = if Nat.eqb j i then holds p else holds (f j).
  Proof. unfold wset. now destruct (Nat.eqb j i). Qed.

  (** Who holds the lock after a read-modify-write. *)
  Lemma rmw_holds s es i o c' p' e : sound_cell k -> LInv s es -> rmw_order (ws_pc s i) = Some o ->
    wstep (ws_cell s) i (ws_pc s i) = (c', p', e) ->
    (match ws_pc s i with WCas1 _ _ => w_state (ws_cell s) = WAITING | WCas2 _ _ _ => w_state (ws_cell s) = PARKING | _ => True end) ->
    (holds (ws_pc s i) = false /\ holds p' = false) \/
    (holds (ws_pc s i) = false /\ holds p' = true /\ is_acquire o = true /\ forall j, holds (ws_pc s j) = false) \/
    (holds (ws_pc s i) = true /\ holds p' = false /\ is_release o = true).
  Proof.
    intros Hk HI Ho Hs Hc. destruct Hk as [K1 K2 K3 K4 K5].
    assert (H0 : w_state (ws_cell s) = 0%N -> forall j, holds (ws_pc s j) = false).
    { intros E. destruct (l_holder _ _ HI) as [(h & H1 & H2 & _)|[H1 _]]; auto.
      exfalso. rewrite E in H2. destruct (ws_pc s h); simpl in H1, H2; try discriminate; lia. }
    destruct (ws_pc s i) eqn:Ep; try discriminate; injection Ho as <-; unfold WaitCellModel.wstep in Hs; cbn zeta in Hs;
      rewrite ?Hc in Hs; cbn in Hs.
    - injection Hs as <- <- <-. right. left. simpl. repeat split; auto.
    - destruct pan; injection Hs as <- <- <-; right; right; simpl; repeat split; auto.
    - destruct (debug && _); injection Hs as <- <- <-; right; right; simpl; repeat split; auto.
    - injection Hs as <- <- <-. destruct (N.eqb_spec (w_state (ws_cell s)) WAITING) as [E|E]; simpl; [|auto].
      right. left. repeat split; auto.
    - destruct w; injection Hs as <- <- <-; right; right; simpl; repeat split; auto.
  Qed.

  Lemma ri_step s es i x s' e y : sound_cell k -> KInv s es -> RInv s -> wcell_step debug k s i x = Some (s', e, y) -> RInv s'.
  Proof.
    intros Hk HK HR Hs. apply step_cases in Hs. pose proof (ki_l _ _ HK) as HI.
    assert (HU : forall j, holds (ws_pc (wc_sys s) i) = true -> holds (ws_pc (wc_sys s) j) = true -> j = i)
      by (intros j H1 H2; exact (lock_unique _ _ j i (l_holder _ _ HI) H2 H1)).
    destruct HR as [Rv Rm Rms Rh Rf Rr].
    destruct Hs as [o c' p' Ho Hs Hc a m|x0 m p' c'' Hw Hx Hm Hs|c' p' Ht Hs|c' p' Ho Ht Hn Hs].
    - destruct (rmw_holds _ _ _ _ _ _ _ Hk HI Ho Hs Hc) as [(H1 & H2)|[(H1 & H2 & H3 & H4)|(H1 & H2 & H3)]].
      + assert (Ha : a <= wc_acc s) by (unfold a; specialize (Rv i); destruct (is_acquire o); lia).
        assert (Hm : newest_acc (wc_msgs s) <= cm_acc m <= wc_acc s) by (unfold m; cbn [cm_acc]; destruct (is_release o); lia).
        constructor; cbn [wc_sys wc_msgs wc_acc wc_views wc_races ws_pc]; rewrite ?newest_snoc; auto; try lia.
        * intros j. destruct (Nat.eq_dec j i) as [->|Hj]; [rewrite updc_same; auto|rewrite updc_other; auto].
        * intros z m' Hz. apply nth_snoc in Hz as [Hz|[-> ->]]; [eauto|lia].
        * intros j. rewrite holds_wset. destruct (Nat.eqb_spec j i) as [->|Hj]; [congruence|]. rewrite updc_other; auto.
        * intros Hf. assert (newest_acc (wc_msgs s) = wc_acc s); [|lia]. apply Rf. intros j. specialize (Hf j).
          rewrite holds_wset in Hf. destruct (Nat.eqb_spec j i) as [Ej|]; [rewrite Ej|]; auto.
      + specialize (Rf H4). assert (Ha : a = wc_acc s) by (unfold a; rewrite H3; specialize (Rv i); lia).
        assert (Hm : cm_acc m = wc_acc s) by (unfold m; cbn [cm_acc]; destruct (is_release o); lia).
        constructor; cbn [wc_sys wc_msgs wc_acc wc_views wc_races ws_pc]; rewrite ?newest_snoc; auto; try lia.
        * intros j. destruct (Nat.eq_dec j i) as [->|Hj]; [rewrite updc_same; simpl; lia|rewrite updc_other; auto].
        * intros z m' Hz. apply nth_snoc in Hz as [Hz|[-> ->]]; [eauto|lia].
        * intros j. rewrite holds_wset. destruct (Nat.eqb_spec j i) as [->|Hj]; [rewrite updc_same; auto|]. rewrite updc_other; auto.
      + specialize (Rh i H1). assert (Ha : a = wc_acc s) by (unfold a; destruct (is_acquire o); lia).
        assert (Hm : cm_acc m = wc_acc s) by (unfold m; cbn [cm_acc]; rewrite H3; lia).
        constructor; cbn [wc_sys wc_msgs wc_acc wc_views wc_races ws_pc]; rewrite ?newest_snoc; auto; try lia.
        * intros j. destruct (Nat.eq_dec j i) as [->|Hj]; [rewrite updc_same; simpl; lia|rewrite updc_other; auto].
        * intros z m' Hz. apply nth_snoc in Hz as [Hz|[-> ->]]; [eauto|lia].
        * intros j. rewrite holds_wset. destruct (Nat.eqb_spec j i) as [->|Hj]; [congruence|]. intros Hh. exfalso. apply Hj. auto.
    - assert (Hh : holds p' = holds (ws_pc (wc_sys s) i)).
      { destruct (ws_pc (wc_sys s) i) eqn:Ep; try tauto; unfold WaitCellModel.wstep in Hs; cbn [w_state] in Hs.
        - destruct (N.eqb_spec (cm_word m) WAITING); [congruence|].
          repeat match type of Hs with context [if ?b then _ else _] => destruct b eqn:? end; injection Hs as <- <- <-; reflexivity.
        - destruct (N.eqb_spec (cm_word m) PARKING); [congruence|]. injection Hs as <- <- <-. reflexivity. }
      specialize (Rms _ _ Hm) as Hma.
      constructor; cbn [wc_sys wc_msgs wc_acc wc_views wc_races ws_pc]; auto.
      + intros j. destruct (Nat.eq_dec j i) as [->|Hj]; [rewrite updc_same|rewrite updc_other; auto].
        cbn [cv_acc]. specialize (Rv i). destruct (is_acquire (k_fail k)); lia.
      + intros j. rewrite holds_wset. destruct (Nat.eqb_spec j i) as [->|Hj]; [|rewrite updc_other; auto].
        rewrite updc_same. cbn [cv_acc]. intros H. rewrite Hh in H. specialize (Rh _ H). specialize (Rv i). destruct (is_acquire (k_fail k)); lia.
      + intros Hf. apply Rf. intros j. specialize (Hf j). rewrite holds_wset in Hf. destruct (Nat.eqb_spec j i) as [Ej|]; congruence.
    - assert (Hh : holds (ws_pc (wc_sys s) i) = true /\ holds p' = true).
      { destruct (ws_pc (wc_sys s) i) eqn:Ep; try discriminate; unfold WaitCellModel.wstep in Hs; cbn zeta in Hs.
        - destruct pan; injection Hs as <- <- <-; auto.
        - injection Hs as <- <- <-. auto.
        - injection Hs as <- <- <-. auto. }
      destruct Hh as [Hh Hh']. rewrite (Rh _ Hh), Nat.eqb_refl.
      constructor; cbn [wc_sys wc_msgs wc_acc wc_views wc_races ws_pc]; auto.
      + intros j. destruct (Nat.eq_dec j i) as [->|Hj]; [rewrite updc_same; simpl; lia|rewrite updc_other; auto].
      + intros z m' Hz. specialize (Rms _ _ Hz). lia.
      + intros j. rewrite holds_wset. destruct (Nat.eqb_spec j i) as [->|Hj]; [now rewrite updc_same|].
        intros H. exfalso. apply Hj. auto.
      + intros Hf. specialize (Hf i). rewrite holds_wset, Nat.eqb_refl in Hf. congruence.
    - assert (Hh : holds p' = holds (ws_pc (wc_sys s) i)).
      { destruct (ws_pc (wc_sys s) i) eqn:Ep; try discriminate; try congruence; unfold WaitCellModel.wstep in Hs;
          repeat match type of Hs with
             | context [if ?b then _ else _] => destruct b eqn:?
             | context [match ?b with Some _ => _ | None => _ end] => destruct b
             end; injection Hs as <- <- <-; try discriminate; reflexivity. }
      constructor; cbn [wc_sys wc_msgs wc_acc wc_views wc_races ws_pc]; auto.
      + intros j. destruct (Nat.eq_dec j i) as [->|Hj]; [rewrite updc_same; auto|rewrite updc_other; auto].
      + intros j. rewrite holds_wset. destruct (Nat.eqb_spec j i) as [->|Hj]; [|rewrite updc_other; auto].
        rewrite updc_same, Hh. auto.
      + intros Hf. apply Rf. intros j. specialize (Hf j). rewrite holds_wset in Hf. destruct (Nat.eqb_spec j i) as [Ej|]; congruence.
  Qed.

  Lemma ri_call s i p : RInv s -> ws_pc (wc_sys s) i = WIdle -> holds p = false ->
    RInv (mkWC (mkW (ws_cell (wc_sys s)) (wset (ws_pc (wc_sys s)) i p)) (wc_msgs s) (wc_acc s) (wc_views s) (wc_races s)).
  Proof.
    intros [Rv Rm Rms Rh Rf Rr] Hi Hp. constructor; cbn [wc_sys wc_msgs wc_acc wc_views wc_races ws_pc]; auto.
    - intros j. rewrite holds_wset. destruct (Nat.eqb_spec j i) as [->|Hj]; [congruence|auto].
    - intros Hf. apply Rf. intros j. specialize (Hf j). rewrite holds_wset in Hf. destruct (Nat.eqb_spec j i) as [Ej|]; [rewrite Ej|]; auto.
      now rewrite Hi.
  Qed.

  Lemma krun_races es s : sound_cell k -> krun es s -> RInv s.
  Proof.
    intros Hk. induction 1 as [|es s a s' e Hr IH Hs]; [apply ri_init|]. pose proof (krun_inv _ _ Hr) as HK.
    destruct a as [i w pan|i close|i x]; simpl in Hs.
    - apply call_inv in Hs as (Hi & -> & ->). now apply ri_call.
    - apply call_inv in Hs as (Hi & -> & ->). now apply ri_call.
    - destruct (wcell_step debug k s i x) as [[[s1 e1] y]|] eqn:E; [|discriminate]. injection Hs as <- <-. eapply ri_step; eauto.
  Qed.

  (** ** One waiting thread *)
  (** [r] has seen the value it unlocked with; later ones come from notifications. *)
  Definition SInv (r : nat) (s : wcell) : Prop :=
    wait_holder (ws_pc (wc_sys s) r) = false -> forall x m, cv_lock (wc_views s r) <= x -> nth_error (wc_msgs s) x = Some m ->
      (cm_word m = 0 \/ cm_word m = 2 \/ cm_word m = 4 \/ cm_word m = 6)%N.

  Lemma only_waiter r s es : LInv s es -> single_waiter r es -> forall i, waiting_pc (ws_pc s i) = true -> i = r.
  Proof. intros HI HS i Hi. apply (l_waiting _ _ HI), last_call_in in Hi as (w & pan & Hin). eauto. Qed.

  Lemma holder_waits p : wait_holder p = true -> waiting_pc p = true.
  Proof. destruct p; auto; discriminate. Qed.

  (** Words written when [r] does not hold the lock afterwards. *)
  Lemma free_word r s es : LInv s es -> single_waiter r es -> wait_holder (ws_pc s r) = false ->
    (w_state (ws_cell s) = 0 \/ w_state (ws_cell s) = 2 \/ w_state (ws_cell s) = 4 \/ w_state (ws_cell s) = 6)%N.
  Proof.
    intros HI HS Hr. destruct (l_holder _ _ HI) as [(h & H1 & H2 & _)|[H1 H2]]; [|tauto].
    unfold holds in H1. destruct (wait_holder (ws_pc s h)) eqn:E.
    - pose proof (only_waiter _ _ _ HI HS h (holder_waits _ E)). congruence.
    - destruct (ws_pc s h); try discriminate; simpl in H2; tauto.
  Qed.

  Lemma single_ocons r e es : single_waiter r (ocons e es) -> single_waiter r es.
  Proof. destruct e; auto. apply single_tail. Qed.

  Lemma si_step r s es i x s' e y : single_waiter r (ocons e es) -> KInv s es -> SInv r s ->
    wcell_step debug k s i x = Some (s', e, y) -> SInv r s'.
  Proof.
    intros HS HK HR Hs. pose proof (ki_step _ _ _ _ _ _ _ HK Hs) as HK'. pose proof (ki_l _ _ HK') as HI'.
    apply step_cases in Hs. pose proof (ki_l _ _ HK) as HI. intros Hwh x0 m0 Hx0 Hm0.
    pose proof (free_word r _ _ HI' HS Hwh) as Hfree.
    destruct Hs as [o c' p' Ho Hs Hc a m|x1 m p' c'' Hw Hx Hm Hs|c' p' Ht Hs|c' p' Ho Ht Hn Hs];
      cbn [wc_sys wc_msgs wc_acc wc_views wc_races ws_pc ws_cell] in *.
    - apply nth_snoc in Hm0 as [Hm0|[-> ->]]; [|exact Hfree].
      destruct (Nat.eq_dec r i) as [->|Hri].
      + rewrite updc_same in Hx0. cbn [cv_lock] in Hx0. assert (x0 < length (wc_msgs s)) by (apply nth_error_Some; congruence). lia.
      + rewrite updc_other in Hx0 by auto. rewrite wset_other in Hwh by auto. eapply HR; eauto.
    - destruct (Nat.eq_dec r i) as [->|Hri].
      + rewrite updc_same in Hx0. rewrite wset_same in Hwh. cbn [cv_lock] in Hx0.
        destruct (ws_pc (wc_sys s) i) eqn:Ep; try tauto.
        * eapply HR; [now rewrite Ep| |exact Hm0]. lia.
        * unfold WaitCellModel.wstep in Hs. cbn [w_state] in Hs. destruct (N.eqb_spec (cm_word m) PARKING); [congruence|].
          injection Hs as <- <- <-. discriminate.
      + rewrite updc_other in Hx0 by auto. rewrite wset_other in Hwh by auto. eapply HR; eauto.
    - destruct (Nat.eq_dec r i) as [->|Hri].
      + rewrite updc_same in Hx0. rewrite wset_same in Hwh. cbn [cv_lock] in Hx0. eapply HR; eauto.
        destruct (ws_pc (wc_sys s) i) eqn:Ep; try discriminate; unfold WaitCellModel.wstep in Hs; cbn zeta in Hs;
          try (destruct pan); injection Hs as <- <- <-; try discriminate. reflexivity.
      + rewrite updc_other in Hx0 by auto. rewrite wset_other in Hwh by auto. eapply HR; eauto.
    - destruct (Nat.eq_dec r i) as [->|Hri].
      + rewrite updc_same in Hx0. rewrite wset_same in Hwh. eapply HR; eauto.
        destruct (ws_pc (wc_sys s) i) eqn:Ep; try discriminate; try congruence; try reflexivity; unfold WaitCellModel.wstep in Hs; cbn zeta in Hs;
          try (destruct pan); try discriminate; injection Hs as <- <- <-; discriminate.
      + rewrite updc_other in Hx0 by auto. rewrite wset_other in Hwh by auto. eapply HR; eauto.
  Qed.

  Lemma pi_step r s es i x s' e y : single_waiter r (ocons e es) -> KInv s es -> SInv r s -> PInv r (wc_sys s) es ->
    wcell_step debug k s i x = Some (s', e, y) -> PInv r (wc_sys s') (ocons e es).
  Proof.
    intros HS HK HSI HP Hs. pose proof (ki_l _ _ HK) as HI. apply step_cases in Hs.
    destruct Hs as [o c' p' Ho Hs Hc a m|x1 m p' c'' Hw Hx Hm Hs|c' p' Ht Hs|c' p' Ho Ht Hn Hs]; cbn [wc_sys].
    - eapply pinv_step; eauto. apply step_sys; eauto. eapply rmw_not_idle; eauto.
    - assert (Hi : i = r).
      { apply (only_waiter r _ _ HI); [eapply single_ocons; eauto|]. destruct (ws_pc (wc_sys s) i); try tauto; reflexivity. }
      subst i. intros w l Hp. exfalso.
      assert (Hn : parked r es = None).
      { destruct (parked r es) as [[w0 l0]|] eqn:E; auto. destruct (HP _ _ E) as [H _].
        destruct (ws_pc (wc_sys s) r); try tauto; discriminate. }
      assert (He : e <> Some (RetWait r Wait)).
      { destruct (ws_pc (wc_sys s) r) eqn:Ep; try tauto; unfold WaitCellModel.wstep in Hs; cbn [w_state] in Hs.
        - pose proof (HSI ltac:(now rewrite Ep) _ _ Hx Hm) as HR.
          destruct HR as [HR|[HR|[HR|HR]]]; rewrite HR in *; cbn in Hs; try (exfalso; now apply Hw); injection Hs as <- <- <-; discriminate.
        - destruct (N.eqb_spec (cm_word m) PARKING); [congruence|]. injection Hs as <- <- <-. discriminate. }
      destruct e as [e|]; cbn [ocons] in Hp; [|congruence].
      apply parked_cons in Hp as [[-> _]|(l' & _ & Hp & _)]; congruence.
    - eapply pinv_step; eauto. apply step_sys; eauto. now apply touches_not_idle.
    - eapply pinv_step; eauto. apply step_sys; eauto.
  Qed.

  Lemma krun_single r es s : krun es s -> single_waiter r es -> SInv r s /\ PInv r (wc_sys s) es.
  Proof.
    induction 1 as [|es s a s' e Hr IH Hs]; intros HS.
    - split; [|intros w l; discriminate]. intros _ [|[|x]] m _ H; try discriminate. injection H as <-. auto.
    - destruct (IH (single_ocons _ _ _ HS)) as [H1 H2]. pose proof (krun_inv _ _ Hr) as HK.
      destruct a as [i w pan|i close|i x]; simpl in Hs.
      + apply call_inv in Hs as (Hi & -> & ->). split.
        * intros Hw. apply H1. cbn [wc_sys ws_pc] in Hw. destruct (Nat.eq_dec r i) as [->|]; [now rewrite Hi|now rewrite wset_other in Hw].
        * apply (pinv_step debug r (wc_sys s) es (WACall i w pan) _ (Some (CallWait i w pan))); auto; [apply HK|]. simpl. now rewrite Hi.
      + apply call_inv in Hs as (Hi & -> & ->). split.
        * intros Hw. apply H1. cbn [wc_sys ws_pc] in Hw. destruct (Nat.eq_dec r i) as [->|]; [now rewrite Hi|now rewrite wset_other in Hw].
        * apply (pinv_step debug r (wc_sys s) es (WANotify i close) _ (Some (CallNotify i close))); auto; [apply HK|]. simpl. now rewrite Hi.
      + destruct (wcell_step debug k s i x) as [[[s1 e1] y]|] eqn:E; [|discriminate]. injection Hs as <- <-.
        split; [eapply si_step; eauto|eapply pi_step; eauto].
  Qed.

  (** ** Results and assertions *)
  Lemma krun_split es2 e es1 s : krun (es2 ++ e :: es1) s ->
    exists s1 a s2, krun es1 s1 /\ kstep s1 a = Some (s2, Some e).
  Proof.
    intros H. remember (es2 ++ e :: es1) as es. revert es2 Heqes.
    induction H as [|es s a s' [x|] Hr IH Hs]; intros es2 E.
    - destruct es2; discriminate.
    - destruct es2 as [|y es2]; simpl in E.
      + injection E as -> ->. exists s, a, s'. auto.
      + injection E as -> ->. eauto.
    - eauto.
  Qed.

  (** Every step is a step of [WaitCellModel] with some word. *)
  Lemma step_word s i x s' e y : wcell_step debug k s i x = Some (s', e, y) ->
    exists c c' p', wstep c i (ws_pc (wc_sys s) i) = (c', p', e) /\ ws_pc (wc_sys s') = wset (ws_pc (wc_sys s)) i p' /\
      ws_pc (wc_sys s) i <> WIdle /\ w_waiter c = w_waiter (ws_cell (wc_sys s)) /\
      ((c = ws_cell (wc_sys s) /\ ws_cell (wc_sys s') = c') \/
       (exists x m, nth_error (wc_msgs s) x = Some m /\ cv_lock (wc_views s i) <= x /\ w_state c = cm_word m /\
          ws_cell (wc_sys s') = ws_cell (wc_sys s) /\
          match ws_pc (wc_sys s) i with WCas1 _ _ => cm_word m <> WAITING | WCas2 _ _ _ => cm_word m <> PARKING | _ => False end)).
  Proof.
    intros Hs. apply step_cases in Hs.
    destruct Hs as [o c' p' Ho Hs Hc a m|x1 m p' c'' Hw Hx Hm Hs|c' p' Ht Hs|c' p' Ho Ht Hn Hs]; cbn [wc_sys ws_pc ws_cell].
    - do 3 eexists. repeat split; eauto. eapply rmw_not_idle; eauto.
    - do 3 eexists. split; [exact Hs|]. split; [reflexivity|]. split; [intros E; now rewrite E in Hw|]. split; [reflexivity|].
      right. exists x1, m. auto.
    - do 3 eexists. repeat split; eauto. now apply touches_not_idle.
    - do 3 eexists. repeat split; eauto.
  Qed.

  Lemma krun_pan es s : krun es s -> no_panic es -> forall i, pan_of (ws_pc (wc_sys s) i) = false.
  Proof.
    induction 1 as [|es s a s' e Hr IH Hs]; intros Hn i; [reflexivity|].
    assert (Hn0 : no_panic es) by (destruct e; auto; intros j0 w0 Hin0; apply (Hn j0 w0); now right).
    specialize (IH Hn0). destruct a as [j w pan|j close|j x]; simpl in Hs.
    - apply call_inv in Hs as (Hi & -> & ->). cbn [wc_sys ws_pc].
      destruct (Nat.eq_dec i j) as [->|]; [rewrite wset_same|now rewrite wset_other].
      simpl. destruct pan; auto. destruct (Hn j w). now left.
    - apply call_inv in Hs as (Hi & -> & ->). cbn [wc_sys ws_pc].
      destruct (Nat.eq_dec i j) as [->|]; [now rewrite wset_same|now rewrite wset_other].
    - destruct (wcell_step debug k s j x) as [[[s1 e1] y]|] eqn:E; [|discriminate]. injection Hs as <- <-.
      apply step_word in E as (c & c' & p' & Hs & -> & _).
      destruct (Nat.eq_dec i j) as [->|]; [rewrite wset_same|now rewrite wset_other].
      eapply wstep_pan; eauto.
  Qed.

  Lemma krun_no_assert es s : krun es s -> no_panic es -> forall i, ~ In (Asserted i) es.
  Proof.
    induction 1 as [|es s a s' e Hr IH Hs]; intros Hn i Hin; [exact Hin|].
    assert (Hn0 : no_panic es) by (destruct e; auto; intros j0 w0 Hin0; apply (Hn j0 w0); now right).
    destruct e as [e|]; [|eapply IH; eauto]. destruct Hin as [->|Hin]; [|eapply IH; eauto].
    destruct a as [j w pan|j close|j x]; simpl in Hs.
    - apply call_inv in Hs as (_ & H & _). discriminate.
    - apply call_inv in Hs as (_ & H & _). discriminate.
    - destruct (wcell_step debug k s j x) as [[[s1 e1] y]|] eqn:E; [|discriminate]. injection Hs as <- ->.
      pose proof (krun_inv _ _ Hr) as HK. pose proof (krun_pan _ _ Hr Hn0 j) as Hp.
      apply step_cases in E.
      destruct E as [o c' p' Ho Hs Hc a m|x1 m p' c'' Hw Hx Hm Hs|c' p' Ht Hs|c' p' Ho Ht Hni Hs];
        pose proof (wstep_event_agent debug _ _ _ _ _ _ Hs i eq_refl) as <-.
      + eapply no_assert_step; [apply HK|exact Hp|exact Hs|reflexivity].
      + destruct (fail_linv _ _ _ _ _ _ _ (ki_l _ _ HK) (ki_range _ _ HK _ _ Hm) Hw
          (fun H => ki_park _ _ HK _ _ _ H Hx Hm) Hs) as [_ H]. now apply H.
      + eapply no_assert_step; [apply HK|exact Hp|exact Hs|reflexivity].
      + eapply no_assert_step; [apply HK|exact Hp|exact Hs|reflexivity].
  Qed.

  Lemma krun_saw es s : krun es s -> forall i st, saw (ws_pc (wc_sys s) i) = Some st -> contains st TX_CLOSED = true ->
    closed_in es = true.
  Proof.
    induction 1 as [|es s a s' e Hr IH Hs]; intros i st Hi Hc; [discriminate|].
    pose proof (krun_inv _ _ Hr) as HK.
    change (match e with Some x => x :: es | None => es end) with (ocons e es). apply closed_tail.
    destruct a as [j w pan|j close|j x]; simpl in Hs.
    - apply call_inv in Hs as (Hj & -> & ->). cbn [wc_sys ws_pc] in Hi.
      destruct (Nat.eq_dec i j) as [->|Hij]; [rewrite wset_same in Hi; discriminate|].
      rewrite wset_other in Hi by auto. eauto.
    - apply call_inv in Hs as (Hj & -> & ->). cbn [wc_sys ws_pc] in Hi.
      destruct (Nat.eq_dec i j) as [->|Hij]; [rewrite wset_same in Hi; discriminate|].
      rewrite wset_other in Hi by auto. eauto.
    - destruct (wcell_step debug k s j x) as [[[s1 e1] y]|] eqn:E; [|discriminate]. injection Hs as <- <-.
      apply step_word in E as (c & c' & p' & Hs & Hpc & _ & _ & Hcc). rewrite Hpc in Hi.
      destruct (Nat.eq_dec i j) as [->|Hij]; [rewrite wset_same in Hi|rewrite wset_other in Hi by auto; eauto].
      assert (D : saw (ws_pc (wc_sys s) j) = Some st \/ st = w_state c \/ contains st TX_CLOSED = false).
      { destruct (ws_pc (wc_sys s) j) eqn:Ep; unfold WaitCellModel.wstep in Hs;
          repeat match type of Hs with
             | context [if ?b then _ else _] => destruct b
             | context [match ?b with Some _ => _ | None => _ end] => destruct b
             end; injection Hs as <- <- <-; simpl in Hi; try discriminate; injection Hi as <-; simpl; auto. }
      destruct D as [D|[->|D]]; [eauto| |congruence].
      destruct Hcc as [[-> _]|(x0 & m & Hm & _ & Hw & _)].
      + rewrite <- (l_closed _ _ (ki_l _ _ HK)). exact Hc.
      + rewrite Hw in Hc. exact (ki_closed _ _ HK _ _ Hm Hc).
  Qed.

  (** A Closed answer means the cell was closed. *)
  Lemma kclosed_truthful es2 i es1 s : krun (es2 ++ RetWait i Closed :: es1) s -> closed_in es1 = true.
  Proof.
    intros H. apply krun_split in H as (s1 & a & s2 & Hr & Hs).
    pose proof (krun_inv _ _ Hr) as HK. pose proof (krun_saw _ _ Hr) as Hp.
    destruct a as [j w pan|j close|j x]; simpl in Hs.
    - apply call_inv in Hs as (_ & H & _). discriminate.
    - apply call_inv in Hs as (_ & H & _). discriminate.
    - destruct (wcell_step debug k s1 j x) as [[[s3 e1] y]|] eqn:E; [|discriminate]. injection Hs as <- ->.
      apply step_word in E as (c & c' & p' & Hs & Hpc & Hn & _ & Hcc).
      assert (Hst : contains (w_state c) TX_CLOSED = true -> closed_in es1 = true).
      { intros Hc. destruct Hcc as [[-> _]|(x0 & m & Hm & _ & Hw & _)].
        - rewrite <- (l_closed _ _ (ki_l _ _ HK)). exact Hc.
        - rewrite Hw in Hc. exact (ki_closed _ _ HK _ _ Hm Hc). }
      specialize (Hp j).
      destruct (ws_pc (wc_sys s1) j) eqn:Ep; try congruence; unfold WaitCellModel.wstep in Hs; cbn zeta in Hs; try discriminate.
      + destruct (w_state c =? WAITING)%N; [discriminate|].
        destruct (contains (w_state c) TX_CLOSED) eqn:E; [auto|].
        repeat match type of Hs with context [if ?b then _ else _] => destruct b end; discriminate.
      + destruct pan; discriminate.
      + destruct pan; discriminate.
      + repeat match type of Hs with context [if ?b then _ else _] => destruct b end; discriminate.
      + repeat match type of Hs with context [if ?b then _ else _] => destruct b end; discriminate.
      + destruct prev; discriminate.
      + destruct mine; [destruct (debug && pan)|]; discriminate.
      + destruct pan; [discriminate|]. eapply Hp; [reflexivity|].
        revert Hs. destruct (contains state TX_CLOSED); auto. intros; discriminate.
      + destruct w; discriminate.
  Qed.

  (** The waker taken by a notification is the one stored last. *)
  Lemma ktook_latest es2 j w es1 s : krun (es2 ++ Took j (Some w) :: es1) s -> last_registered es1 = Some w.
  Proof.
    intros H. apply krun_split in H as (s1 & a & s2 & Hr & Hs). pose proof (krun_inv _ _ Hr) as HK.
    destruct a as [i v pan|i close|i x]; simpl in Hs.
    - apply call_inv in Hs as (_ & H & _). discriminate.
    - apply call_inv in Hs as (_ & H & _). discriminate.
    - destruct (wcell_step debug k s1 i x) as [[[s3 e1] y]|] eqn:E; [|discriminate]. injection Hs as <- ->.
      apply step_word in E as (c & c' & p' & Hs & Hpc & Hn & Hw & _).
      destruct (ws_pc (wc_sys s1) i) eqn:Ep; unfold WaitCellModel.wstep in Hs;
        repeat match type of Hs with
           | context [if ?b then _ else _] => destruct b
           | context [match ?b with Some _ => _ | None => _ end] => destruct b
           end; try discriminate.
      injection Hs as <- <- E1 E2. apply (l_reg _ _ (ki_l _ _ HK)). congruence.
  Qed.

  Lemma kprogress s i x s' e : kstep s (KStep i x) = Some (s', e) ->
    steps_left (ws_pc (wc_sys s') i) < steps_left (ws_pc (wc_sys s) i).
  Proof.
    simpl. destruct (wcell_step debug k s i x) as [[[s3 e1] y]|] eqn:E; [|discriminate]. intros [= <- <-].
    apply step_word in E as (c & c' & p' & Hs & -> & Hn & _). rewrite wset_same. eapply wstep_progress; eauto.
  Qed.
End Facts.
