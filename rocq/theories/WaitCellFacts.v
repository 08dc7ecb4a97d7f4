(** Invariants of the wait cell. *)
From Coq Require Import List Bool Arith NArith Lia.
From Verif Require Import WaitCellModel WaitCellSpec.
Import ListNotations.
Local Open Scope N_scope.

Definition wait_holder (p : wpc) : bool :=
  match p with WReplace _ _ | WCas2 _ _ _ | WTake _ _ _ _ | WAnd _ _ _ _ _ => true | _ => false end.
Definition note_holder (p : wpc) : bool := match p with NTake | NAnd _ => true | _ => false end.
Definition holds (p : wpc) : bool := wait_holder p || note_holder p.

Definition call_waker (p : wpc) : option waker :=
  match p with
  | WCas1 w _ | WReplace w _ | WCas2 w _ _ | WTake w _ _ _ | WAnd w _ _ _ _ | WPrev w _ _ _ _ | WMine w _ _ _ => Some w
  | _ => None
  end.
Definition waiting_pc (p : wpc) : bool :=
  match p with WIdle | NOr _ | NTake | NAnd _ | NWake _ | NRet _ => false | _ => true end.

(** The lock word against the thread holding the lock. *)
Definition word_ok (s : N) (p : wpc) : Prop :=
  match p with
  | WReplace _ _ | WCas2 _ _ _ => s = 1 \/ s = 3 \/ s = 7
  | WTake _ a _ _ | WAnd _ a _ _ _ => (a = 3 /\ (s = 3 \/ s = 7)) \/ (a = 7 /\ s = 7)
  | NTake | NAnd _ => s = 2 \/ s = 6
  | _ => True
  end.

Definition has_closed (s : N) : bool := contains s TX_CLOSED.

Record LInv (s : wsys) (es : list wevent) : Prop := {
  l_holder : (exists h, holds (ws_pc s h) = true /\ word_ok (w_state (ws_cell s)) (ws_pc s h) /\
                forall i, holds (ws_pc s i) = true -> i = h) \/
             ((forall i, holds (ws_pc s i) = false) /\
              (w_state (ws_cell s) = 0 \/ w_state (ws_cell s) = 4 \/ w_state (ws_cell s) = 6));
  l_closed : has_closed (w_state (ws_cell s)) = closed_in es;
  l_call : forall i w, call_waker (ws_pc s i) = Some w -> last_call i es = Some w;
  l_stored : forall i w prev, ws_pc s i = WCas2 w prev false -> w_waiter (ws_cell s) = Some w;
  l_reg : forall w, w_waiter (ws_cell s) = Some w -> last_registered es = Some w;
  l_waiting : forall i, waiting_pc (ws_pc s i) = true -> last_call i es <> None }.

Lemma wset_same f i p : wset f i p i = p.
Proof. unfold wset. now rewrite Nat.eqb_refl. Qed.
Lemma wset_other f i p j : j <> i -> wset f i p j = f j.
Proof. intros H. unfold wset. apply Nat.eqb_neq in H. now rewrite H. Qed.

Section Facts.
  Variable debug : bool.
  Notation wstep := (wstep debug).
  Notation wstep_sys := (wstep_sys debug).
  Notation wrun := (wrun debug).

  Lemma linv_init : LInv winit [].
  Proof. constructor; simpl; try discriminate; auto. Qed.

  Definition lock_ok (f : nat -> wpc) (s : N) : Prop :=
    (exists h, holds (f h) = true /\ word_ok s (f h) /\ forall i, holds (f i) = true -> i = h) \/
    ((forall i, holds (f i) = false) /\ (s = 0 \/ s = 4 \/ s = 6)).

  Lemma lock_frame f s i p' s' : lock_ok f s -> holds (f i) = false -> holds p' = false ->
    (forall q, holds q = true -> word_ok s q -> word_ok s' q) ->
    (s = 0 \/ s = 4 \/ s = 6 -> s' = 0 \/ s' = 4 \/ s' = 6) -> lock_ok (wset f i p') s'.
  Proof.
    intros [(h & H1 & H2 & H3)|[H1 H2]] Hi Hp Hw Hf.
    - left. exists h. assert (h <> i) by (intros ->; congruence). rewrite wset_other by auto.
      repeat split; auto. intros j. destruct (Nat.eq_dec j i) as [->|]; [rewrite wset_same; congruence|].
      rewrite wset_other; auto.
    - right. split; auto. intros j. destruct (Nat.eq_dec j i) as [->|]; [now rewrite wset_same|].
      rewrite wset_other; auto.
  Qed.

  Lemma lock_acquire f i p' s' : lock_ok f 0 -> holds p' = true -> word_ok s' p' -> lock_ok (wset f i p') s'.
  Proof.
    intros [(h & H1 & H2 & H3)|[H1 H2]] Hp Hw.
    - destruct (f h); simpl in H1, H2; try discriminate; lia.
    - left. exists i. rewrite wset_same. repeat split; auto.
      intros j. destruct (Nat.eq_dec j i) as [->|]; auto. rewrite wset_other by auto. now rewrite H1.
  Qed.

  Lemma lock_keep f s i p' s' : lock_ok f s -> holds (f i) = true -> holds p' = true ->
    word_ok s' p' -> lock_ok (wset f i p') s'.
  Proof.
    intros [(h & H1 & H2 & H3)|[H1 H2]] Hi Hp Hw; [|rewrite H1 in Hi; discriminate].
    left. pose proof (H3 _ Hi) as <-. exists i. rewrite wset_same. repeat split; auto.
    intros j. destruct (Nat.eq_dec j i) as [->|]; auto. rewrite wset_other by auto. auto.
  Qed.

  Lemma lock_release f s i p' s' : lock_ok f s -> holds (f i) = true -> holds p' = false ->
    s' = 0 \/ s' = 4 \/ s' = 6 -> lock_ok (wset f i p') s'.
  Proof.
    intros [(h & H1 & H2 & H3)|[H1 H2]] Hi Hp Hw; [|rewrite H1 in Hi; discriminate].
    right. split; auto. intros j. destruct (Nat.eq_dec j i) as [->|]; [now rewrite wset_same|].
    rewrite wset_other by auto. destruct (holds (f j)) eqn:E; auto.
    pose proof (H3 _ Hi). pose proof (H3 _ E). congruence.
  Qed.

  Lemma lock_word f s i : lock_ok f s -> holds (f i) = true -> word_ok s (f i).
  Proof.
    intros [(h & H1 & H2 & H3)|[H1 H2]] Hi; [|rewrite H1 in Hi; discriminate].
    now rewrite (H3 _ Hi).
  Qed.

  Lemma lock_unique f s i j : lock_ok f s -> holds (f i) = true -> holds (f j) = true -> i = j.
  Proof.
    intros [(h & H1 & H2 & H3)|[H1 H2]] Hi Hj; [|rewrite H1 in Hi; discriminate].
    rewrite (H3 _ Hi), (H3 _ Hj). reflexivity.
  Qed.

  Lemma lock_range f s : lock_ok f s -> s = 0 \/ s = 1 \/ s = 2 \/ s = 3 \/ s = 4 \/ s = 6 \/ s = 7.
  Proof.
    intros [(h & H1 & H2 & H3)|[H1 H2]]; [|lia].
    destruct (f h); simpl in H1, H2; try discriminate; lia.
  Qed.

  Definition not_call (e : option wevent) : Prop :=
    match e with Some (CallWait _ _ _) => False | _ => True end.
  Definition ocons (e : option wevent) (es : list wevent) : list wevent :=
    match e with Some x => x :: es | None => es end.

  Lemma last_call_frame i e es : not_call e -> last_call i (ocons e es) = last_call i es.
  Proof. destruct e as [[]|]; simpl; tauto. Qed.

  (** Everything but the lock. *)
  Lemma linv_step s es i c' p' e :
    LInv s es -> lock_ok (wset (ws_pc s) i p') (w_state c') -> not_call e ->
    has_closed (w_state c') = match e with Some x => is_closing x | None => false end || closed_in es ->
    (call_waker p' = None \/ call_waker p' = call_waker (ws_pc s i)) ->
    waiting_pc (ws_pc s i) = waiting_pc p' \/ waiting_pc p' = false ->
    (w_waiter c' = w_waiter (ws_cell s) \/ holds (ws_pc s i) = true) ->
    (forall w prev, p' = WCas2 w prev false -> w_waiter c' = Some w) ->
    match e with Some (Registered _ w) => w_waiter c' = Some w | _ => w_waiter c' = None \/ w_waiter c' = w_waiter (ws_cell s) end ->
    LInv (mkW c' (wset (ws_pc s) i p')) (ocons e es).
  Proof.
    intros HI Hl He Hc Hcall Hwp Hw Hst Hr.
    constructor; cbn [ws_cell ws_pc].
    - exact Hl.
    - rewrite Hc. destruct e; reflexivity.
    - intros j w Hj. rewrite last_call_frame by auto. apply (l_call _ _ HI).
      destruct (Nat.eq_dec j i) as [->|Hji]; [rewrite wset_same in Hj|rewrite wset_other in Hj; auto].
      destruct Hcall; congruence.
    - intros j w prev Hj. destruct (Nat.eq_dec j i) as [->|Hji].
      + rewrite wset_same in Hj. eauto.
      + rewrite wset_other in Hj by auto. destruct Hw as [->|Hw]; [eapply (l_stored _ _ HI); eauto|].
        exfalso. apply Hji. eapply lock_unique; [apply HI|now rewrite Hj|auto].
    - intros w Hww. destruct e as [[]|]; simpl; try (apply (l_reg _ _ HI); destruct Hr; congruence). congruence.
    - intros j Hj. rewrite last_call_frame by auto. apply (l_waiting _ _ HI).
      destruct (Nat.eq_dec j i) as [->|Hji]; [rewrite wset_same in Hj|rewrite wset_other in Hj; auto].
      destruct Hwp; congruence.
  Qed.

  Ltac cases_word H := destruct H as [H|[H|[H|[H|[H|[H|H]]]]]].

  Lemma wstep_inv s es i c' p' e :
    LInv s es -> ws_pc s i <> WIdle -> wstep (ws_cell s) i (ws_pc s i) = (c', p', e) ->
    LInv (mkW c' (wset (ws_pc s) i p')) (ocons e es).
  Proof.
    intros HI Hidle Hs. pose proof (l_holder _ _ HI) as HL. fold (lock_ok (ws_pc s) (w_state (ws_cell s))) in HL.
    pose proof (lock_range _ _ HL) as HR. pose proof (l_closed _ _ HI) as HC.
    pose proof (lock_word _ _ i HL) as HW.
    destruct (ws_cell s) as [st wt] eqn:Ec. cbn [w_state w_waiter] in *.
    destruct (ws_pc s i) eqn:Ep; try congruence; unfold WaitCellModel.wstep in Hs; cbn [w_state w_waiter] in Hs.
    - (* WCas1 *)
      cases_word HR; subst st; cbn in Hs; rewrite ?andb_false_r in Hs; injection Hs as <- <- <-;
        (apply linv_step; rewrite ?Ep, ?Ec; simpl; auto; try discriminate).
      + apply (lock_acquire _ _ _ _ HL); simpl; auto.
      + apply (lock_frame _ _ _ _ _ HL); rewrite ?Ep; auto.
      + apply (lock_frame _ _ _ _ _ HL); rewrite ?Ep; auto.
      + apply (lock_frame _ _ _ _ _ HL); rewrite ?Ep; auto.
      + apply (lock_frame _ _ _ _ _ HL); rewrite ?Ep; auto.
      + apply (lock_frame _ _ _ _ _ HL); rewrite ?Ep; auto.
      + apply (lock_frame _ _ _ _ _ HL); rewrite ?Ep; auto.
    - (* WSelf *)
      destruct pan; injection Hs as <- <- <-; (apply linv_step; rewrite ?Ep, ?Ec; simpl; auto; try discriminate);
        apply (lock_frame _ _ _ _ _ HL); rewrite ?Ep; auto.
    - (* WReplace *)
      specialize (HW eq_refl). simpl in HW.
      destruct pan; injection Hs as <- <- <-; (apply linv_step; rewrite ?Ep, ?Ec; simpl; auto; try discriminate).
      + apply (lock_keep _ _ _ _ _ HL); rewrite ?Ep; auto.
      + apply (lock_keep _ _ _ _ _ HL); rewrite ?Ep; auto.
      + congruence.
    - (* WCas2 *)
      specialize (HW eq_refl). simpl in HW. destruct HW as [->|[->| ->]]; cbn in Hs; injection Hs as <- <- <-;
        (apply linv_step; rewrite ?Ep, ?Ec; simpl; auto; try discriminate); try (destruct pan; simpl; auto; fail).
      + apply (lock_release _ _ _ _ _ HL); rewrite ?Ep; auto.
      + apply (lock_keep _ _ _ _ _ HL); rewrite ?Ep; simpl; auto.
      + apply (lock_keep _ _ _ _ _ HL); rewrite ?Ep; simpl; auto.
    - (* WTake *)
      specialize (HW eq_refl). simpl in HW. injection Hs as <- <- <-. apply linv_step; rewrite ?Ep, ?Ec; simpl; auto; try discriminate.
      apply (lock_keep _ _ _ _ _ HL); rewrite ?Ep; simpl; auto.
    - (* WAnd *)
      specialize (HW eq_refl). simpl in HW.
      destruct HW as [[-> [->| ->]]|[-> ->]]; cbn in Hs; rewrite ?andb_false_r in Hs; injection Hs as <- <- <-;
        (apply linv_step; rewrite ?Ep, ?Ec; simpl; auto; try discriminate);
        apply (lock_release _ _ _ _ _ HL); rewrite ?Ep; auto.
    - (* WPrev *)
      destruct prev; injection Hs as <- <- <-; (apply linv_step; rewrite ?Ep, ?Ec; simpl; auto; try discriminate);
        apply (lock_frame _ _ _ _ _ HL); rewrite ?Ep; auto.
    - (* WMine *)
      destruct mine; [destruct (debug && pan)|]; injection Hs as <- <- <-; (apply linv_step; rewrite ?Ep, ?Ec; simpl; auto; try discriminate);
        apply (lock_frame _ _ _ _ _ HL); rewrite ?Ep; auto.
    - (* WRet *)
      injection Hs as <- <- <-. apply linv_step; rewrite ?Ep, ?Ec; simpl; auto; try discriminate; try (destruct pan; simpl; auto; fail).
      apply (lock_frame _ _ _ _ _ HL); rewrite ?Ep; auto.
    - (* NOr *)
      injection Hs as <- <- <-.
      apply linv_step; rewrite ?Ep, ?Ec; simpl; auto; try discriminate.
      + cases_word HR; subst st; destruct close; cbn;
          first [ apply (lock_acquire _ _ _ _ HL); simpl; auto; fail
                | apply (lock_frame _ _ _ _ _ HL); rewrite ?Ep; auto;
                  intros q; destruct q; simpl; try discriminate; intros; lia ].
      + rewrite <- HC. cases_word HR; subst st; destruct close; reflexivity.
      + destruct (st =? WAITING); auto.
      + destruct (st =? WAITING); auto.
      + destruct (st =? WAITING); discriminate.
    - (* NTake *)
      specialize (HW eq_refl). simpl in HW. injection Hs as <- <- <-.
      apply linv_step; rewrite ?Ep, ?Ec; simpl; auto; try discriminate.
      apply (lock_keep _ _ _ _ _ HL); rewrite ?Ep; simpl; auto.
    - (* NAnd *)
      specialize (HW eq_refl). simpl in HW.
      destruct HW as [->| ->]; destruct w; cbn in Hs; injection Hs as <- <- <-;
        (apply linv_step; rewrite ?Ep, ?Ec; simpl; auto; try discriminate);
        apply (lock_release _ _ _ _ _ HL); rewrite ?Ep; auto.
    - (* NWake *)
      injection Hs as <- <- <-. apply linv_step; rewrite ?Ep, ?Ec; simpl; auto; try discriminate.
      apply (lock_frame _ _ _ _ _ HL); rewrite ?Ep; auto.
    - (* NRet *)
      injection Hs as <- <- <-. apply linv_step; rewrite ?Ep, ?Ec; simpl; auto; try discriminate.
      apply (lock_frame _ _ _ _ _ HL); rewrite ?Ep; auto.
  Qed.
  Lemma wastep s i s' e : wstep_sys s (WAStep i) = Some (s', e) ->
    exists c' p', wstep (ws_cell s) i (ws_pc s i) = (c', p', e) /\
      s' = mkW c' (wset (ws_pc s) i p') /\ ws_pc s i <> WIdle.
  Proof.
    unfold WaitCellModel.wstep_sys. destruct (ws_pc s i) eqn:Ep; try discriminate;
      (match goal with |- context [wstep ?c ?j ?p] => destruct (wstep c j p) as [[c' p'] e'] end;
       intros [= <- <-]; exists c', p'; repeat split; auto; discriminate).
  Qed.

  Lemma wsys_inv s es a s' e : LInv s es -> wstep_sys s a = Some (s', e) -> LInv s' (ocons e es).
  Proof.
    intros HI Hs. destruct a as [i w pan|i close|i]; [simpl in Hs|simpl in Hs|].
    - destruct (ws_pc s i) eqn:Ep; try discriminate. injection Hs as <- <-.
      constructor; cbn [ws_cell ws_pc ocons].
      + apply (lock_frame _ _ _ _ _ (l_holder _ _ HI)); rewrite ?Ep; auto.
      + apply HI.
      + intros j v Hj. simpl. destruct (Nat.eqb_spec j i) as [->|Hji]; [rewrite wset_same in Hj; exact Hj|].
        rewrite wset_other in Hj by auto. now apply (l_call _ _ HI).
      + intros j v prev Hj. destruct (Nat.eq_dec j i) as [->|Hji]; [rewrite wset_same in Hj; discriminate|].
        rewrite wset_other in Hj by auto. eapply (l_stored _ _ HI); eauto.
      + apply HI.
      + intros j Hj. simpl. destruct (Nat.eqb_spec j i) as [->|Hji]; [discriminate|].
        rewrite wset_other in Hj by auto. now apply (l_waiting _ _ HI).
    - destruct (ws_pc s i) eqn:Ep; try discriminate. injection Hs as <- <-.
      apply linv_step; rewrite ?Ep; simpl; auto; try discriminate.
      + apply (lock_frame _ _ _ _ _ (l_holder _ _ HI)); rewrite ?Ep; auto.
      + apply HI.
    - apply wastep in Hs as (c' & p' & Hs & -> & Hni). eapply wstep_inv; eauto.
  Qed.

  Lemma wrun_inv es s : wrun es s -> LInv s es.
  Proof. induction 1; [apply linv_init|]. eapply wsys_inv; eauto. Qed.

  Lemma wrun_split es2 e es1 s : wrun (es2 ++ e :: es1) s ->
    exists s1 a s2, wrun es1 s1 /\ wstep_sys s1 a = Some (s2, Some e).
  Proof.
    intros H. remember (es2 ++ e :: es1) as es. revert es2 Heqes.
    induction H as [|es s a s' [x|] Hr IH Hs]; intros es2 E.
    - destruct es2; discriminate.
    - destruct es2 as [|y es2]; simpl in E.
      + injection E as -> ->. exists s, a, s'. auto.
      + injection E as -> ->. eauto.
    - eauto.
  Qed.

  Lemma accesses_exclusive es s i j : wrun es s ->
    touches_waiter (ws_pc s i) = true -> touches_waiter (ws_pc s j) = true -> i = j.
  Proof.
    intros Hr Hi Hj. apply wrun_inv in Hr. eapply lock_unique; [apply Hr| |].
    - destruct (ws_pc s i); try discriminate; reflexivity.
    - destruct (ws_pc s j); try discriminate; reflexivity.
  Qed.

  (** ** One registered receiver *)
  Lemma last_call_in i es : last_call i es <> None -> exists w pan, In (CallWait i w pan) es.
  Proof.
    induction es as [|e es IH]; simpl; [congruence|]. intros H.
    destruct e; try (destruct (IH H) as (w' & p' & ?); eauto; fail).
    destruct (Nat.eqb_spec i i0) as [<-|]; [eauto|]. destruct (IH H) as (w' & p' & ?); eauto.
  Qed.

  Definition PInv (r : nat) (s : wsys) (es : list wevent) : Prop :=
    forall w l, parked r es = Some (w, l) ->
      waiting_pc (ws_pc s r) = false /\
      ((existsb is_fetched l = false /\ w_waiter (ws_cell s) = Some w /\ w_state (ws_cell s) = 0) \/
       (exists k, about_to_wake s k w) \/ (exists k, In (Woke k w) l)).

  Lemma parked_cons r e es w l : parked r (e :: es) = Some (w, l) ->
    (e = RetWait r Wait /\ l = [] /\ last_call r es = Some w) \/
    (exists l', l = e :: l' /\ parked r es = Some (w, l') /\ is_call r e = false).
  Proof.
    simpl. intros H.
    assert (D : match parked r es with Some (w0, l0) => Some (w0, e :: l0) | None => None end = Some (w, l) ->
      is_call r e = false ->
      exists l', l = e :: l' /\ parked r es = Some (w, l') /\ is_call r e = false).
    { destruct (parked r es) as [[w0 l0]|]; [|discriminate]. intros [= <- <-] ?. eauto. }
    destruct e; auto; simpl in *.
    - destruct (Nat.eqb r i) eqn:E; [discriminate|auto].
    - destruct r0; auto. destruct (Nat.eqb_spec r i) as [<-|]; auto.
      destruct (last_call r es) eqn:E; [|discriminate]. injection H as <- <-. auto.
  Qed.

  Lemma about_other s k w i c' p' : about_to_wake s k w -> k <> i ->
    (w_waiter c' = w_waiter (ws_cell s) \/ ws_pc s k <> NTake) ->
    about_to_wake (mkW c' (wset (ws_pc s) i p')) k w.
  Proof.
    intros H Hki Hw. unfold about_to_wake in *. cbn [ws_pc ws_cell]. rewrite wset_other by auto.
    destruct (ws_pc s k); auto. destruct Hw; congruence.
  Qed.

  Lemma single_tail r e es : single_waiter r (e :: es) -> single_waiter r es.
  Proof. intros H i w pan Hin. apply (H i w pan). now right. Qed.

  Lemma pinv_step r s es a s' e : single_waiter r (ocons e es) -> LInv s es -> PInv r s es ->
    wstep_sys s a = Some (s', e) -> PInv r s' (ocons e es).
  Proof.
    intros HS HI HP Hs.
    assert (HS0 : single_waiter r es) by (destruct e; auto; eapply single_tail; eauto).
    assert (Hr : forall i, waiting_pc (ws_pc s i) = true -> i = r).
    { intros i Hi. apply (l_waiting _ _ HI), last_call_in in Hi as (w & pan & Hin). eauto. }
    pose proof (l_holder _ _ HI) as HL. fold (lock_ok (ws_pc s) (w_state (ws_cell s))) in HL.
    intros w l Hpk.
    destruct a as [i v pan|i close|i]; [simpl in Hs|simpl in Hs|].
    - destruct (ws_pc s i) eqn:Ep; try discriminate. injection Hs as <- <-. cbn [ocons] in *.
      apply parked_cons in Hpk as [[H _]|(l' & -> & Hpk & Hc)]; [discriminate|].
      simpl in Hc. apply Nat.eqb_neq in Hc. assert (i = r) by (eapply HS; left; reflexivity). congruence.
    - destruct (ws_pc s i) eqn:Ep; try discriminate. injection Hs as <- <-. cbn [ocons] in *.
      apply parked_cons in Hpk as [[H _]|(l' & -> & Hpk & _)]; [discriminate|].
      destruct (HP _ _ Hpk) as [Hw Hd]. split.
      + cbn [ws_pc]. destruct (Nat.eq_dec r i) as [->|]; [now rewrite wset_same|now rewrite wset_other].
      + destruct Hd as [(D1 & D2 & D3)|[(k & D)|(k & D)]].
        * left. simpl. auto.
        * right. left. exists k. assert (k <> i) by (intros ->; unfold about_to_wake in D; now rewrite Ep in D).
          apply about_other; auto.
        * right. right. exists k. now right.
    - apply wastep in Hs as (c' & p' & Hs & -> & Hni).
      assert (Hnew : e = Some (RetWait r Wait) -> l = [] -> last_call r es = Some w ->
        waiting_pc (ws_pc (mkW c' (wset (ws_pc s) i p')) r) = false /\
        ((existsb is_fetched l = false /\ w_waiter c' = Some w /\ w_state c' = 0) \/
         (exists k, about_to_wake (mkW c' (wset (ws_pc s) i p')) k w) \/ (exists k, In (Woke k w) l))).
      { intros -> -> Hlc. cbn [ws_pc].
        pose proof (lock_range _ _ HL) as HR.
        destruct (ws_pc s i) eqn:Ep; try congruence; unfold WaitCellModel.wstep in Hs.
        - (* CAS1 cannot return Wait to the only waiter *)
          exfalso. destruct (ws_cell s) as [st wt] eqn:Ec. cbn [w_state w_waiter] in *.
          cases_word HR; subst st; cbn in Hs; rewrite ?andb_false_r in Hs; try discriminate.
          destruct HL as [(h & H1 & H2 & H3)|[H1 H2]]; [|lia].
          assert (Hh : waiting_pc (ws_pc s h) = true)
            by (destruct (ws_pc s h); simpl in H1, H2; try discriminate; auto; lia).
          pose proof (Hr _ Hh). assert (i = r) by (apply Hr; now rewrite Ep). subst. rewrite Ep in H1. discriminate.
        - destruct pan; discriminate.
        - destruct pan; discriminate.
        - destruct (w_state (ws_cell s) =? PARKING) eqn:E2; [|discriminate].
          destruct pan; [discriminate|]. injection Hs as <- <- <-.
          rewrite wset_same. split; auto. left. split; auto. split; auto. cbn [w_waiter].
          rewrite (l_stored _ _ HI _ _ _ Ep). pose proof (l_call _ _ HI i w0) as Hcall. rewrite Ep in Hcall.
          specialize (Hcall eq_refl). congruence.
        - discriminate.
        - destruct (debug && _); discriminate.
        - destruct prev; discriminate.
        - destruct mine; [destruct (debug && pan)|]; discriminate.
        - destruct pan; [discriminate|]. destruct (contains state TX_CLOSED); discriminate.
        - discriminate.
        - discriminate.
        - destruct w0; discriminate.
        - discriminate.
        - discriminate. }
      assert (Hold : forall l', parked r es = Some (w, l') -> l = (match e with Some x => x :: l' | None => l' end) ->
        waiting_pc (ws_pc (mkW c' (wset (ws_pc s) i p')) r) = false /\
        ((existsb is_fetched l = false /\ w_waiter c' = Some w /\ w_state c' = 0) \/
         (exists k, about_to_wake (mkW c' (wset (ws_pc s) i p')) k w) \/ (exists k, In (Woke k w) l))).
      { intros l' Hpk' El. destruct (HP _ _ Hpk') as [Hw Hd].
        assert (Hwi : waiting_pc (ws_pc s i) = false).
        { destruct (waiting_pc (ws_pc s i)) eqn:E; auto. pose proof (Hr _ E). congruence. }
        assert (Hin : forall k, In (Woke k w) l' -> In (Woke k w) l) by (intros k; rewrite El; destruct e; simpl; auto).
        assert (Hwp : waiting_pc p' = false ->
          waiting_pc (ws_pc (mkW c' (wset (ws_pc s) i p')) r) = false).
        { intros Hp. cbn [ws_pc]. destruct (Nat.eq_dec r i) as [->|]; [now rewrite wset_same|now rewrite wset_other]. }
        destruct (ws_pc s i) eqn:Ep; try discriminate; try congruence; unfold WaitCellModel.wstep in Hs; injection Hs as <- <- <- || idtac.
        - (* NOr *) split; [apply Hwp; destruct (_ =? _); reflexivity|]. destruct Hd as [(D1 & D2 & D3)|[(k & D)|(k & D)]].
          + right. left. exists i. unfold about_to_wake. cbn [ws_pc ws_cell w_waiter]. rewrite wset_same, D3. exact D2.
          + right. left. exists k. assert (k <> i) by (intros ->; unfold about_to_wake in D; now rewrite Ep in D).
            apply about_other; auto.
          + right. right. eauto.
        - (* NTake *) split; [apply Hwp; reflexivity|]. destruct Hd as [(D1 & D2 & D3)|[(k & D)|(k & D)]].
          + pose proof (lock_word _ _ i HL) as HW. rewrite Ep, D3 in HW. simpl in HW. specialize (HW eq_refl). lia.
          + right. left. exists k. destruct (Nat.eq_dec k i) as [->|Hki].
            * unfold about_to_wake in *. rewrite Ep in D. cbn [ws_pc ws_cell]. now rewrite wset_same, D.
            * apply about_other; auto. right. intros Hk. apply Hki. eapply lock_unique; [exact HL|now rewrite Hk|now rewrite Ep].
          + right. right. eauto.
        - (* NAnd *) destruct w0 as [v|]; injection Hs as <- <- <-; (split; [apply Hwp; reflexivity|]).
          + destruct Hd as [(D1 & D2 & D3)|[(k & D)|(k & D)]].
            * pose proof (lock_word _ _ i HL) as HW. rewrite Ep, D3 in HW. simpl in HW. specialize (HW eq_refl). lia.
            * right. left. exists k. destruct (Nat.eq_dec k i) as [->|Hki].
              -- unfold about_to_wake in *. rewrite Ep in D. cbn [ws_pc ws_cell]. now rewrite wset_same.
              -- apply about_other; auto.
            * right. right. eauto.
          + destruct Hd as [(D1 & D2 & D3)|[(k & D)|(k & D)]].
            * pose proof (lock_word _ _ i HL) as HW. rewrite Ep, D3 in HW. simpl in HW. specialize (HW eq_refl). lia.
            * right. left. exists k. assert (k <> i) by (intros ->; unfold about_to_wake in D; now rewrite Ep in D).
              apply about_other; auto.
            * right. right. eauto.
        - (* NWake *) split; [apply Hwp; reflexivity|]. destruct Hd as [(D1 & D2 & D3)|[(k & D)|(k & D)]].
          + left. subst l. simpl. auto.
          + destruct (Nat.eq_dec k i) as [->|Hki].
            * right. right. exists i. unfold about_to_wake in D. rewrite Ep in D. subst. now left.
            * right. left. exists k. apply about_other; auto.
          + right. right. eauto.
        - (* NRet *) split; [apply Hwp; reflexivity|]. destruct Hd as [(D1 & D2 & D3)|[(k & D)|(k & D)]].
          + left. subst l. simpl. auto.
          + right. left. exists k. assert (k <> i) by (intros ->; unfold about_to_wake in D; now rewrite Ep in D).
            apply about_other; auto.
          + right. right. eauto. }
      destruct e as [e|]; cbn [ocons] in Hpk.
      + apply parked_cons in Hpk as [(-> & E1 & E2)|(l' & E1 & E2 & _)]; eauto.
      + eauto.
  Qed.

  Lemma wrun_parked r es s : wrun es s -> single_waiter r es -> PInv r s es.
  Proof.
    induction 1 as [|es s a s' e Hr IH Hs]; intros HS.
    - intros w l. discriminate.
    - apply (pinv_step r s es a s' e); auto; [now apply wrun_inv|].
      apply IH. destruct e; auto; eapply single_tail; eauto.
  Qed.

  (** ** Results and assertions *)
  Definition pan_of (p : wpc) : bool :=
    match p with
    | WCas1 _ b | WSelf _ b | WReplace _ b | WCas2 _ _ b | WTake _ _ _ b | WAnd _ _ _ _ b
    | WPrev _ _ _ _ b | WMine _ _ _ b | WRet _ b => b
    | _ => false
    end.

  Lemma wstep_pan c i p c' p' e : wstep c i p = (c', p', e) -> pan_of p = false -> pan_of p' = false.
  Proof.
    intros H Hp. destruct p; simpl in Hp; subst; unfold WaitCellModel.wstep in H;
      repeat match type of H with
             | context [if ?b then _ else _] => destruct b
             | context [match ?b with Some _ => _ | None => _ end] => destruct b
             end; injection H as <- <- <-; reflexivity.
  Qed.

  Lemma no_panic_pcs es s : wrun es s -> no_panic es -> forall i, pan_of (ws_pc s i) = false.
  Proof.
    induction 1 as [|es s a s' e Hr IH Hs]; intros Hn i; [reflexivity|].
    assert (Hn0 : no_panic es) by (destruct e; auto; intros j0 w0 Hin0; apply (Hn j0 w0); now right).
    specialize (IH Hn0). destruct a as [j w pan|j close|j].
    - simpl in Hs. destruct (ws_pc s j) eqn:Ep; try discriminate. injection Hs as <- <-. cbn [ws_pc].
      destruct (Nat.eq_dec i j) as [->|]; [rewrite wset_same|now rewrite wset_other].
      simpl. destruct pan; auto. destruct (Hn j w). now left.
    - simpl in Hs. destruct (ws_pc s j) eqn:Ep; try discriminate. injection Hs as <- <-. cbn [ws_pc].
      destruct (Nat.eq_dec i j) as [->|]; [now rewrite wset_same|now rewrite wset_other].
    - apply wastep in Hs as (c' & p' & Hs & -> & Hni). cbn [ws_pc].
      destruct (Nat.eq_dec i j) as [->|]; [rewrite wset_same|now rewrite wset_other].
      eapply wstep_pan; eauto.
  Qed.

  Lemma no_assert_step es s i c' p' e : LInv s es -> pan_of (ws_pc s i) = false ->
    wstep (ws_cell s) i (ws_pc s i) = (c', p', e) -> e <> Some (Asserted i).
  Proof.
    intros HI Hp Hs. pose proof (l_holder _ _ HI) as HL. fold (lock_ok (ws_pc s) (w_state (ws_cell s))) in HL.
    pose proof (lock_range _ _ HL) as HR. pose proof (lock_word _ _ i HL) as HW.
    destruct (ws_cell s) as [st wt] eqn:Ec. cbn [w_state w_waiter] in *.
    destruct (ws_pc s i) eqn:Ep; simpl in Hp; subst; unfold WaitCellModel.wstep in Hs; cbn [w_state w_waiter] in Hs.
    all: try (injection Hs as <- <- <-; discriminate).
    - cases_word HR; subst st; cbn in Hs; rewrite ?andb_false_r in Hs; injection Hs as <- <- <-; discriminate.
    - destruct (st =? PARKING); injection Hs as <- <- <-; discriminate.
    - specialize (HW eq_refl). simpl in HW.
      destruct HW as [[-> [->| ->]]|[-> ->]]; cbn in Hs; rewrite ?andb_false_r in Hs; injection Hs as <- <- <-; discriminate.
    - destruct prev; injection Hs as <- <- <-; discriminate.
    - destruct mine; rewrite ?andb_false_r in Hs; injection Hs as <- <- <-; discriminate.
    - destruct w; injection Hs as <- <- <-; discriminate.
  Qed.

  Lemma wstep_event_agent c i p c' p' e : wstep c i p = (c', p', Some e) -> forall j, e = Asserted j -> j = i.
  Proof.
    intros H j ->. destruct p; unfold WaitCellModel.wstep in H;
      repeat match type of H with
             | context [if ?b then _ else _] => destruct b
             | context [match ?b with Some _ => _ | None => _ end] => destruct b
             end; try discriminate; congruence.
  Qed.

  Lemma no_assert es s : wrun es s -> no_panic es -> forall i, ~ In (Asserted i) es.
  Proof.
    induction 1 as [|es s a s' e Hr IH Hs]; intros Hn i Hin; [exact Hin|].
    assert (Hn0 : no_panic es) by (destruct e; auto; intros j0 w0 Hin0; apply (Hn j0 w0); now right).
    destruct e as [e|]; [|eapply IH; eauto]. destruct Hin as [->|Hin]; [|eapply IH; eauto].
    destruct a as [j w pan|j close|j].
    - simpl in Hs. destruct (ws_pc s j); discriminate.
    - simpl in Hs. destruct (ws_pc s j); discriminate.
    - apply wastep in Hs as (c' & p' & Hs & -> & Hni).
      pose proof (wstep_event_agent _ _ _ _ _ _ Hs i eq_refl) as <-.
      eapply no_assert_step; [apply wrun_inv; eauto| |exact Hs|reflexivity]. eapply no_panic_pcs; eauto.
  Qed.

  Lemma closed_tail e es : closed_in es = true -> closed_in (ocons e es) = true.
  Proof. destruct e; simpl; auto. intros ->. apply orb_true_r. Qed.

  Lemma closed_at_call_frame i e es : not_call e -> closed_at_call i (ocons e es) = closed_at_call i es.
  Proof. destruct e as [[]|]; simpl; tauto. Qed.

  Lemma closed_at_call_now i es : closed_at_call i es = true -> closed_in es = true.
  Proof.
    induction es as [|e es IH]; simpl; [discriminate|]. intros H.
    destruct e; simpl; try (apply IH in H; rewrite H; apply orb_true_r); auto.
    destruct (Nat.eqb i i0); auto. 
  Qed.

  Definition past_cas1 (p : wpc) : bool := waiting_pc p && match p with WCas1 _ _ => false | _ => true end.

  Lemma wstep_not_call c i p c' p' e : wstep c i p = (c', p', e) -> not_call e.
  Proof.
    intros H. destruct p; unfold WaitCellModel.wstep in H;
      repeat match type of H with
             | context [if ?b then _ else _] => destruct b
             | context [match ?b with Some _ => _ | None => _ end] => destruct b
             end; injection H as <- <- <-; exact I.
  Qed.

  Lemma past_cas1_open es s : wrun es s -> forall i, past_cas1 (ws_pc s i) = true -> closed_at_call i es = false.
  Proof.
    induction 1 as [|es s a s' e Hr IH Hs]; intros i Hi; [discriminate|].
    pose proof (wrun_inv _ _ Hr) as HI.
    destruct a as [j w pan|j close|j].
    - simpl in Hs. destruct (ws_pc s j) eqn:Ep; try discriminate. injection Hs as <- <-. cbn [ws_pc] in Hi.
      destruct (Nat.eq_dec i j) as [->|Hij]; [rewrite wset_same in Hi; discriminate|].
      rewrite wset_other in Hi by auto. simpl. apply Nat.eqb_neq in Hij. rewrite Hij. auto.
    - simpl in Hs. destruct (ws_pc s j) eqn:Ep; try discriminate. injection Hs as <- <-. cbn [ws_pc] in Hi.
      destruct (Nat.eq_dec i j) as [->|Hij]; [rewrite wset_same in Hi; discriminate|].
      rewrite wset_other in Hi by auto. simpl. auto.
    - apply wastep in Hs as (c' & p' & Hs & -> & Hni). cbn [ws_pc] in Hi.
      pose proof (wstep_not_call _ _ _ _ _ _ Hs) as Hnc.
      change (match e with Some x => x :: es | None => es end) with (ocons e es).
      rewrite closed_at_call_frame by auto.
      destruct (Nat.eq_dec i j) as [->|Hij]; [rewrite wset_same in Hi|rewrite wset_other in Hi by auto; auto].
      destruct (past_cas1 (ws_pc s j)) eqn:Epc; [auto|].
      destruct (closed_at_call j es) eqn:Eca; auto. exfalso.
      apply closed_at_call_now in Eca. rewrite <- (l_closed _ _ HI) in Eca. unfold has_closed in Eca.
      destruct (ws_pc s j) eqn:Ep; try discriminate; try congruence; unfold WaitCellModel.wstep in Hs; cbn zeta in Hs.
      + destruct (w_state (ws_cell s) =? WAITING) eqn:E0.
        * apply N.eqb_eq in E0. rewrite E0 in Eca. discriminate.
        * rewrite Eca in Hs. injection Hs as <- <- <-. discriminate.
      + injection Hs as <- <- <-. destruct (_ =? _); discriminate.
      + injection Hs as <- <- <-. discriminate.
      + destruct w; injection Hs as <- <- <-; discriminate.
      + injection Hs as <- <- <-. discriminate.
      + injection Hs as <- <- <-. discriminate.
  Qed.

  (** Once closed, wait_with always answers Closed. *)
  Lemma closed_answer es2 i res es1 s : wrun (es2 ++ RetWait i res :: es1) s ->
    closed_at_call i es1 = true -> res = Closed.
  Proof.
    intros H Hc. apply wrun_split in H as (s1 & a & s2 & Hr & Hs).
    pose proof (wrun_inv _ _ Hr) as HI. pose proof (past_cas1_open _ _ Hr i) as Hp.
    destruct a as [j w pan|j close|j].
    - simpl in Hs. destruct (ws_pc s1 j); discriminate.
    - simpl in Hs. destruct (ws_pc s1 j); discriminate.
    - apply wastep in Hs as (c' & p' & Hs & -> & Hni).
      assert (Hji : j = i).
      { destruct (ws_pc s1 j); unfold WaitCellModel.wstep in Hs; cbn zeta in Hs;
          repeat match type of Hs with
             | context [if ?b then _ else _] => destruct b
             | context [match ?b with Some _ => _ | None => _ end] => destruct b
             end; try discriminate; congruence. }
      subst j. destruct (ws_pc s1 i) eqn:Ep; try congruence; unfold WaitCellModel.wstep in Hs; cbn zeta in Hs;
        try (rewrite Hp in Hc by reflexivity; discriminate).
      + apply closed_at_call_now in Hc. rewrite <- (l_closed _ _ HI) in Hc. unfold has_closed in Hc.
        destruct (w_state (ws_cell s1) =? WAITING) eqn:E0; [discriminate|]. rewrite Hc in Hs. congruence.
      + discriminate.
      + discriminate.
      + destruct w; discriminate.
      + discriminate.
      + discriminate.
  Qed.

  Definition saw (p : wpc) : option N :=
    match p with WPrev _ st _ _ _ | WMine _ st _ _ | WRet st _ => Some st | _ => None end.

  Lemma saw_closed es s : wrun es s -> forall i st, saw (ws_pc s i) = Some st -> contains st TX_CLOSED = true ->
    closed_in es = true.
  Proof.
    induction 1 as [|es s a s' e Hr IH Hs]; intros i st Hi Hc; [discriminate|].
    pose proof (wrun_inv _ _ Hr) as HI.
    change (match e with Some x => x :: es | None => es end) with (ocons e es).
    destruct a as [j w pan|j close|j].
    - simpl in Hs. destruct (ws_pc s j) eqn:Ep; try discriminate. injection Hs as <- <-. cbn [ws_pc] in Hi.
      destruct (Nat.eq_dec i j) as [->|Hij]; [rewrite wset_same in Hi; discriminate|].
      rewrite wset_other in Hi by auto. apply closed_tail. eauto.
    - simpl in Hs. destruct (ws_pc s j) eqn:Ep; try discriminate. injection Hs as <- <-. cbn [ws_pc] in Hi.
      destruct (Nat.eq_dec i j) as [->|Hij]; [rewrite wset_same in Hi; discriminate|].
      rewrite wset_other in Hi by auto. apply closed_tail. eauto.
    - apply wastep in Hs as (c' & p' & Hs & -> & Hni). cbn [ws_pc] in Hi. apply closed_tail.
      destruct (Nat.eq_dec i j) as [->|Hij]; [rewrite wset_same in Hi|rewrite wset_other in Hi by auto; eauto].
      assert (D : saw (ws_pc s j) = Some st \/ st = w_state (ws_cell s) \/ contains st TX_CLOSED = false).
      { destruct (ws_pc s j) eqn:Ep; unfold WaitCellModel.wstep in Hs;
          repeat match type of Hs with
             | context [if ?b then _ else _] => destruct b
             | context [match ?b with Some _ => _ | None => _ end] => destruct b
             end; injection Hs as <- <- <-; simpl in Hi; try discriminate; injection Hi as <-; simpl; auto. }
      destruct D as [D|[->|D]]; [eauto| |congruence].
      rewrite <- (l_closed _ _ HI). exact Hc.
  Qed.

  (** A Closed answer means the cell was closed. *)
  Lemma closed_truthful es2 i es1 s : wrun (es2 ++ RetWait i Closed :: es1) s -> closed_in es1 = true.
  Proof.
    intros H. apply wrun_split in H as (s1 & a & s2 & Hr & Hs).
    pose proof (wrun_inv _ _ Hr) as HI. pose proof (saw_closed _ _ Hr) as Hp.
    destruct a as [j w pan|j close|j].
    - simpl in Hs. destruct (ws_pc s1 j); discriminate.
    - simpl in Hs. destruct (ws_pc s1 j); discriminate.
    - apply wastep in Hs as (c' & p' & Hs & -> & Hni). specialize (Hp j).
      destruct (ws_pc s1 j) eqn:Ep; try congruence; unfold WaitCellModel.wstep in Hs; cbn zeta in Hs; try discriminate.
      + destruct (w_state (ws_cell s1) =? WAITING); [discriminate|].
        destruct (contains (w_state (ws_cell s1)) TX_CLOSED) eqn:E.
        * rewrite <- (l_closed _ _ HI). exact E.
        * repeat match type of Hs with context [if ?b then _ else _] => destruct b end; discriminate.
      + destruct pan; discriminate.
      + destruct pan; discriminate.
      + repeat match type of Hs with context [if ?b then _ else _] => destruct b end; discriminate.
      + repeat match type of Hs with context [if ?b then _ else _] => destruct b end; discriminate.
      + destruct prev; discriminate.
      + destruct mine; [destruct (debug && pan)|]; discriminate.
      + destruct pan; [discriminate|]. eapply Hp; [reflexivity|].
        revert Hs. destruct (contains state TX_CLOSED); auto. intros; discriminate.
      + destruct w; discriminate.
  Qed.

  (** The waker taken by a notification is the one stored last. *)
  Lemma took_latest es2 k w es1 s : wrun (es2 ++ Took k (Some w) :: es1) s -> last_registered es1 = Some w.
  Proof.
    intros H. apply wrun_split in H as (s1 & a & s2 & Hr & Hs).
    pose proof (wrun_inv _ _ Hr) as HI.
    destruct a as [j v pan|j close|j].
    - simpl in Hs. destruct (ws_pc s1 j); discriminate.
    - simpl in Hs. destruct (ws_pc s1 j); discriminate.
    - apply wastep in Hs as (c' & p' & Hs & -> & Hni).
      destruct (ws_pc s1 j) eqn:Ep; unfold WaitCellModel.wstep in Hs;
        repeat match type of Hs with
           | context [if ?b then _ else _] => destruct b
           | context [match ?b with Some _ => _ | None => _ end] => destruct b
           end; try discriminate.
      injection Hs as <- <- E1 E2. now apply (l_reg _ _ HI).
  Qed.

  (** What a notifier wakes is what it took. *)
  Definition in_hand (p : wpc) : option waker :=
    match p with NAnd o => o | NWake w => Some w | _ => None end.

  Lemma hand_took es s : wrun es s -> forall k w, in_hand (ws_pc s k) = Some w ->
    exists esb esa, es = esb ++ Took k (Some w) :: esa.
  Proof.
    induction 1 as [|es s a s' e Hr IH Hs]; intros k w Hk; [discriminate|].
    change (match e with Some x => x :: es | None => es end) with (ocons e es).
    assert (D : in_hand (ws_pc s k) = Some w \/ e = Some (Took k (Some w))).
    { destruct a as [j v pan|j close|j].
      - simpl in Hs. destruct (ws_pc s j) eqn:Ep; try discriminate. injection Hs as <- <-. cbn [ws_pc] in Hk.
        destruct (Nat.eq_dec k j) as [->|Hij]; [rewrite wset_same in Hk; discriminate|rewrite wset_other in Hk by auto; auto].
      - simpl in Hs. destruct (ws_pc s j) eqn:Ep; try discriminate. injection Hs as <- <-. cbn [ws_pc] in Hk.
        destruct (Nat.eq_dec k j) as [->|Hij]; [rewrite wset_same in Hk; discriminate|rewrite wset_other in Hk by auto; auto].
      - apply wastep in Hs as (c' & p' & Hs & -> & Hni). cbn [ws_pc] in Hk.
        destruct (Nat.eq_dec k j) as [->|Hij]; [rewrite wset_same in Hk|rewrite wset_other in Hk by auto; auto].
        destruct (ws_pc s j) eqn:Ep; unfold WaitCellModel.wstep in Hs;
          repeat match type of Hs with
             | context [if ?b then _ else _] => destruct b
             | context [match ?b with Some _ => _ | None => _ end] => destruct b eqn:?
             end; injection Hs as <- <- <-; simpl in Hk; try discriminate; simpl; auto.
        right. congruence. }
    destruct D as [D| ->].
    - destruct (IH _ _ D) as (esb & esa & ->). destruct e as [e|]; simpl; [exists (e :: esb), esa|exists esb, esa]; reflexivity.
    - exists [], es. reflexivity.
  Qed.

  Lemma woke_by r es2 k w es1 s : wrun (es2 ++ Woke k w :: es1) s -> single_waiter r (es2 ++ Woke k w :: es1) -> k <> r ->
    exists esb esa, es1 = esb ++ Took k (Some w) :: esa /\ last_registered esa = Some w.
  Proof.
    intros H HS Hkr. apply wrun_split in H as (s1 & a & s2 & Hr & Hs).
    assert (Hw : waiting_pc (ws_pc s1 k) = false).
    { destruct (waiting_pc (ws_pc s1 k)) eqn:E; auto. exfalso. apply Hkr.
      apply (l_waiting _ _ (wrun_inv _ _ Hr)), last_call_in in E as (v & pan & Hin).
      apply (HS k v pan). apply in_or_app. right. now right. }
    pose proof (hand_took _ _ Hr k w) as Hh.
    assert (Hin : in_hand (ws_pc s1 k) = Some w).
    { destruct a as [j v pan|j close|j].
      - simpl in Hs. destruct (ws_pc s1 j); discriminate.
      - simpl in Hs. destruct (ws_pc s1 j); discriminate.
      - apply wastep in Hs as (c' & p' & Hs & -> & Hni).
        assert (j = k).
        { destruct (ws_pc s1 j); unfold WaitCellModel.wstep in Hs;
          repeat match type of Hs with
             | context [if ?b then _ else _] => destruct b
             | context [match ?b with Some _ => _ | None => _ end] => destruct b
             end; try discriminate; congruence. }
        subst j. destruct (ws_pc s1 k) eqn:Ep; try discriminate; unfold WaitCellModel.wstep in Hs; simpl; try discriminate.
        + destruct w0; discriminate.
        + congruence. }
    destruct (Hh Hin) as (esb & esa & ->). exists esb, esa. split; auto.
    eapply took_latest; eauto.
  Qed.

  (** ** Progress *)
  Lemma wstep_progress c i p c' p' e : p <> WIdle -> wstep c i p = (c', p', e) ->
    (steps_left p' < steps_left p)%nat.
  Proof.
    intros Hp H. destruct p; try congruence; unfold WaitCellModel.wstep in H;
      repeat match type of H with
             | context [if ?b then _ else _] => destruct b
             | context [match ?b with Some _ => _ | None => _ end] => destruct b
             end; injection H as <- <- <-; simpl; lia.
  Qed.

  Lemma quiet_state es s : wrun es s -> quiet s -> closed_in es = false -> w_state (ws_cell s) = WAITING.
  Proof.
    intros Hr Hq Hc. apply wrun_inv in Hr. rewrite <- (l_closed _ _ Hr) in Hc.
    destruct (l_holder _ _ Hr) as [(h & H1 & _)|[_ [H|[H|H]]]].
    - rewrite Hq in H1. discriminate.
    - exact H.
    - rewrite H in Hc. discriminate.
    - rewrite H in Hc. discriminate.
  Qed.

  (** From a quiet, open cell a lone registration succeeds and a lone
      notification wakes it. *)
  Lemma usable es s i j w : wrun es s -> quiet s -> closed_in es = false -> i <> j ->
    exists s', wexec debug s es ([WACall i w false; WAStep i; WAStep i; WAStep i; WANotify j false;
                                 WAStep j; WAStep j; WAStep j; WAStep j; WAStep j])
      = Some (s', [RetNotify j true; Woke j w; Took j (Some w); Fetched j false; CallNotify j false;
                   RetWait i Wait; Registered i w; CallWait i w false] ++ es) /\ quiet s'.
  Proof.
    intros Hr Hq Hc Hij. pose proof (quiet_state _ _ Hr Hq Hc) as H0.
    destruct s as [[st wt] f]. simpl in H0. subst st.
    assert (Hji : j <> i) by auto. assert (Hqi : f i = WIdle) by exact (Hq i). assert (Hqj : f j = WIdle) by exact (Hq j).
    eexists. split.
    - cbn -[wset]. rewrite Hqi. cbn -[wset]. rewrite wset_same. cbn -[wset]. rewrite wset_same. cbn -[wset].
      rewrite wset_same. cbn -[wset]. rewrite !(wset_other _ i _ j) by auto. rewrite Hqj. cbn -[wset].
      rewrite wset_same. cbn -[wset]. rewrite wset_same. cbn -[wset]. rewrite wset_same. cbn -[wset].
      rewrite wset_same. cbn -[wset]. rewrite wset_same. cbn -[wset]. reflexivity.
    - intros k. cbn -[wset]. destruct (Nat.eq_dec k j) as [->|Hk]; [now rewrite wset_same|].
      rewrite !(wset_other _ j _ k) by auto.
      destruct (Nat.eq_dec k i) as [->|Hk2]; [now rewrite wset_same|]. rewrite !(wset_other _ i _ k) by auto. apply Hq.
  Qed.
End Facts.
