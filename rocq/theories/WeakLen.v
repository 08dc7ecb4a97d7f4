(** What len returns on weak memory. *)
From Coq Require Import List Bool Arith NArith Lia.
From Coq Require Import ZifyN ZifyNat ZifyBool.
From Verif Require Import Word QueueSpec CoreModel CoreArith CoreInv CoreStep RingSpec HistoryFacts RingFacts ChainFacts WeakModel WeakSpec
  WeakInv WeakStep WeakDrop WeakFacts WeakLenStep WeakLenInv History.
Import ListNotations.

Section Len.
  Context {T : Type}.
  Variables (W : N) (cap : nat) (pol : policy T) (o : orders).
  Hypothesis Hwf : wf W cap.
  Hypothesis Ho : sound_orders o.
  Hypothesis Hrmw : o_rmw o = true.
  Hypothesis Hlen : o_len o = true.
  Notation P := (core_new W (N.of_nat cap)).
  Notation word := (word W cap).
  Notation enc := (enc W cap).
  Notation event := (event T).
  Notation wstate := (@wstate T).
  Notation WI := (WI W cap pol).
  Notation run := (weak_run P pol o).
  Notation few_pushes := (few_pushes (T := T) W cap).
  Notation VC := (VC (T := T) cap).

  (** The values of head and tail, by position. *)
  Record MO (es : list event) (s : wstate) (tp hp : list nat) : Prop := {
    mo_t : length tp = length (w_tails s);
    mo_h : length hp = length (w_heads s);
    mo_tl : exists k, S k = length tp /\ nth_error tp k = Some (count is_reserve es);
    mo_hl : exists k, S k = length hp /\ nth_error hp k = Some (count is_take es);
    mo_tail : forall k m n, nth_error (w_tails s) k = Some m -> nth_error tp k = Some n ->
      (exists b, m_word m = word b n) /\ n <= count is_reserve es /\ seesR es (m_view m) n;
    mo_head : forall k m n, nth_error (w_heads s) k = Some m -> nth_error hp k = Some n ->
      m_word m = enc n /\ n <= count is_take es /\ seesT es (m_view m) n }.
  Record LV (es : list event) (s : wstate) (tp hp : list nat) : Prop := {
    lv_agent : forall i, VC es tp hp (w_views s i);
    lv_tail : forall m, In m (w_tails s) -> VC es tp hp (m_view m);
    lv_head : forall m, In m (w_heads s) -> VC es tp hp (m_view m);
    lv_state : forall k m, In m (w_states s k) -> VC es tp hp (m_view m) }.

  (** What is read is at least what was known when the call started. *)
  Definition freshR (es : list event) (C : view) (n : nat) : Prop := forall t p, at_pos mR es t p -> v_know C t = true -> p < n.
  Definition freshT (es : list event) (C : view) (n : nat) : Prop := forall t p, at_pos mT es t p -> v_know C t = true -> p < n.
  Definition LHok (es : list event) (V C : view) (t : N) (n : nat) : Prop :=
    (exists b, t = word b n /\ (b = true -> closed_in es = true)) /\ n <= count is_reserve es /\ seesR es V n /\ freshR es C n.
  Definition LCok (es : list event) (V C : view) (h : N) (n n' : nat) : Prop :=
    h = enc n' /\ n' <= count is_take es /\ seesT es V n' /\ freshT es C n' /\ n <= n' + cap.
  Definition PCok (es : list event) (s : wstate) (i : agent) : Prop :=
    match w_pcs s i with
    | LHead t => exists n, LHok es (w_views s i) (w_call s i) t n
    | LCheck t h => exists n n', LHok es (w_views s i) (w_call s i) t n /\ LCok es (w_views s i) (w_call s i) h n n'
    | _ => True
    end.

  Definition own (es : list event) (s : wstate) : Prop :=
    forall es2 e es1 j, es = es2 ++ e :: es1 -> doer e = Some j -> v_know (w_views s j) (length es1) = true.
  Definition LI (es : list event) (s : wstate) : Prop :=
    (exists tp hp, MO es s tp hp /\ LV es s tp hp) /\ own es s /\ forall i, PCok es s i.

  Lemma vc_built es (s : wstate) tp hp v :
    (forall i, VC es tp hp (w_views s i)) -> (forall m, In m (w_tails s) -> VC es tp hp (m_view m)) ->
    (forall m, In m (w_heads s) -> VC es tp hp (m_view m)) -> (forall k m, In m (w_states s k) -> VC es tp hp (m_view m)) ->
    0 < length tp -> 0 < length hp ->
    built s (length tp) (length hp) v -> VC es tp hp v.
  Proof.
    intros H1 H2 H3 H4 H5 H6 Hb. induction Hb; eauto.
    - now apply vc_zero.
    - now apply vc_join.
    - apply vc_saw_tail; auto; tauto.
    - apply vc_saw_head; auto; tauto.
    - now apply vc_saw_state.
    - now apply vc_saw_value.
  Qed.

  Lemma run_orderly (es : list event) q : hist_ok cap es q -> orderly cap es.
  Proof. intros H. unfold orderly. pose proof (h_order _ _ _ H). rewrite (h_res _ _ _ H), (h_take _ _ _ H) in *. lia. Qed.

  Lemma last_tails_vc es s tp hp : MO es s tp hp -> LV es s tp hp -> VC es tp hp (last_view (w_tails s)).
  Proof.
    intros HM HV. destruct (mo_tl _ _ _ _ HM) as (k1 & E1 & _). destruct (mo_hl _ _ _ _ HM) as (k2 & E2 & _). unfold last_view.
    destruct (nth_error _ _) as [m|] eqn:E; [apply (lv_tail _ _ _ _ HV); eapply nth_error_In; eauto|apply vc_zero; lia].
  Qed.
  Lemma last_heads_vc es s tp hp : MO es s tp hp -> LV es s tp hp -> VC es tp hp (last_view (w_heads s)).
  Proof.
    intros HM HV. destruct (mo_tl _ _ _ _ HM) as (k1 & E1 & _). destruct (mo_hl _ _ _ _ HM) as (k2 & E2 & _). unfold last_view.
    destruct (nth_error _ _) as [m|] eqn:E; [apply (lv_head _ _ _ _ HV); eapply nth_error_In; eauto|apply vc_zero; lia].
  Qed.
  Lemma mo_bounded es s tp hp : MO es s tp hp -> LV es s tp hp -> bounded s.
  Proof.
    intros HM HV. assert (Hin : forall v, VC es tp hp v -> inside s v).
    { intros v H. split; [rewrite <- (mo_t _ _ _ _ HM)|rewrite <- (mo_h _ _ _ _ HM)]; apply H. }
    split; [intros i; apply Hin, HV|]. split; apply Hin; [now apply last_tails_vc|now apply last_heads_vc].
  Qed.

  Lemma last_tail_sees es s tp hp : MO es s tp hp -> seesR es (last_view (w_tails s)) (count is_reserve es).
  Proof.
    intros HM. destruct (mo_tl _ _ _ _ HM) as (k & E & Hn). pose proof (mo_t _ _ _ _ HM) as El.
    destruct (nth_error (w_tails s) k) as [m|] eqn:Em; [|apply nth_error_None in Em; lia].
    rewrite (last_view_at _ _ _ Em) by lia. apply (mo_tail _ _ _ _ HM _ _ _ Em Hn).
  Qed.
  Lemma last_head_sees es s tp hp : MO es s tp hp -> seesT es (last_view (w_heads s)) (count is_take es).
  Proof.
    intros HM. destruct (mo_hl _ _ _ _ HM) as (k & E & Hn). pose proof (mo_h _ _ _ _ HM) as El.
    destruct (nth_error (w_heads s) k) as [m|] eqn:Em; [|apply nth_error_None in Em; lia].
    rewrite (last_view_at _ _ _ Em) by lia. apply (mo_head _ _ _ _ HM _ _ _ Em Hn).
  Qed.

  Lemma count_ocons f (oe : option event) es : count f es <= count f (ocons oe es).
  Proof. destruct oe; simpl; lia. Qed.

  (** What the actor of an event must know. *)
  Lemma event_past es s a s' e v1 tp hp t' m1 R m2 p p' :
    run es s -> few_pushes es -> weak_step P pol o s a = Some (s', Some e) ->
    MO es s tp hp -> own es s -> (forall e0 j, Some e = Some e0 -> doer e0 = Some j -> j = WeakFacts.actor a) ->
    knows_le (w_views s (WeakFacts.actor a)) v1 ->
    (is_reserve e = true -> knows_le (last_view (w_tails s)) v1) ->
    (is_take e = true -> knows_le (last_view (w_heads s)) v1) ->
    (forall m1 R m2 t p t' p', rule cap m1 R m2 -> at_pos m1 es t p -> v_know v1 t = true ->
      R p p' -> at_pos m2 es t' p' -> v_know v1 t' = true) ->
    rule cap m1 R m2 -> m1 e es p -> R p p' -> at_pos m2 es t' p' -> v_know v1 t' = true.
  Proof.
    intros Hr Hf Hs HM Hown Hd Hk Ht Hh HR Hrule Hm HRp Hp.
    destruct Hrule.
    - destruct Hm as [He <-]. apply (Ht He). eapply last_tail_sees; eauto.
    - destruct Hm as [He <-]. apply (Hh He). eapply last_head_sees; eauto.
    - destruct Hm as [He <-]. destruct e; try discriminate. cbn in HRp. subst p'.
      destruct (weak_publication W cap pol o Hwf Ho _ _ _ _ _ _ Hr Hf Hs) as (es2 & es1 & (j & E & Hl) & Hkn).
      rewrite (Hd _ _ eq_refl eq_refl) in Hkn. apply Hk in Hkn.
      eapply (HR _ _ _ (length es1) _ t' _ (r_CR cap)); [|exact Hkn|reflexivity|exact Hp].
      exists es2, (Commit j v), es1. split; [exact E|]. split; [reflexivity|]. exists j, v. auto.
    - destruct Hm as [He <-]. destruct e; try discriminate. cbn in HRp.
      destruct (weak_reuse W cap pol o Hwf Ho _ _ _ _ _ Hr Hf Hs) as (old & es2 & es1 & (j & E & Hl) & Hkn); [lia|].
      rewrite (Hd _ _ eq_refl eq_refl) in Hkn. apply Hk in Hkn.
      replace (count is_reserve es - cap) with p' in Hl by lia.
      eapply (HR _ _ _ (length es1) _ t' _ (r_LT cap)); [|exact Hkn|reflexivity|exact Hp].
      exists es2, (Release j old), es1. split; [exact E|]. split; [reflexivity|]. exists j, old. auto.
    - destruct Hm as (j & v & -> & Hl). cbn in HRp. subst p'. apply last_is_nth in Hl.
      destruct (pos_R_who _ _ _ _ Hp Hl) as (es2 & es1 & E & <-). apply Hk. rewrite <- (Hd _ _ eq_refl eq_refl).
      eapply Hown; [exact E|reflexivity].
    - destruct Hm as (j & v & -> & Hl). cbn in HRp. subst p'. apply last_is_nth in Hl.
      destruct (pos_T_who _ _ _ _ Hp Hl) as (es2 & w & es1 & E & <-). apply Hk. rewrite <- (Hd _ _ eq_refl eq_refl).
      eapply Hown; [exact E|reflexivity].
  Qed.

  Lemma step_lv es s a s' oe q' g' tp hp :
    run es s -> few_pushes es -> weak_step P pol o s a = Some (s', oe) -> WI s' (ocons oe es) q' g' ->
    orderly cap es -> w_time s = length es -> MO es s tp hp -> LV es s tp hp -> own es s ->
    exists tp' hp', MO (ocons oe es) s' tp' hp' /\ LV (ocons oe es) s' tp' hp'.
  Proof.
    intros Hr Hf Hs HI' Hord Htime HM HV Hown.
    pose proof (step_shape P pol o Hrmw (proj2 (proj2 Ho)) s a s' oe (mo_bounded _ _ _ _ HM HV) Hs) as (Hd & v1 & Hb & Hk & Hviews & Htl & Hhl & Hst).
    rewrite Htime in *. set (i := WeakFacts.actor a) in *. set (V := with_event v1 oe (length es)) in *.
    pose proof (chain_ok _ _ _ _ _ _ (wi_chain _ _ _ _ _ _ _ HI')) as Hok'. pose proof (wi_S _ _ _ _ _ _ _ HI') as HS'.
    pose proof (i_tail _ _ _ _ _ _ HS') as Etail. pose proof (i_head _ _ _ _ _ _ HS') as Ehead.
    rewrite (h_res _ _ _ Hok') in Etail. rewrite (h_take _ _ _ Hok') in Ehead.
    set (es' := ocons oe es) in *.
    pose proof (count_ocons is_reserve oe es) as HcR. pose proof (count_ocons is_take oe es) as HcT. fold es' in HcR, HcT.
    destruct (mo_tl _ _ _ _ HM) as (kt & Ekt & Hkt). destruct (mo_hl _ _ _ _ HM) as (kh & Ekh & Hkh).
    pose proof (mo_t _ _ _ _ HM) as Elt. pose proof (mo_h _ _ _ _ HM) as Elh.
    (* the new lists of positions *)
    assert (Htp : exists tp', longer tp tp' (count is_reserve es') /\ length tp' = length (w_tails s') /\
      (tp' = tp -> w_tails s' = w_tails s /\ ~ exists j, oe = Some (Reserve j)) /\
      (tp' <> tp -> tp' = tp ++ [count is_reserve es'] /\ w_tails s' = w_tails s ++ [mkM (c_tail (w_core s')) (join V (last_view (w_tails s)))] /\
         length (w_tails s) <= v_tail v1 /\ knows_le (last_view (w_tails s)) v1)).
    { destruct Htl as [[E Hn]|(E & H1 & H2)].
      - exists tp. split; [now left|]. rewrite E. auto. split; [auto|]. split; [auto|]. intros []; auto.
      - exists (tp ++ [count is_reserve es']). split; [now right|]. split; [rewrite E, !app_length, Elt; reflexivity|].
        split; [|auto]. intros Ex. apply (f_equal (@length nat)) in Ex. rewrite app_length in Ex. cbn in Ex. lia. }
    assert (Hhp : exists hp', longer hp hp' (count is_take es') /\ length hp' = length (w_heads s') /\
      (hp' = hp -> w_heads s' = w_heads s /\ ~ exists j v, oe = Some (Take j v)) /\
      (hp' <> hp -> hp' = hp ++ [count is_take es'] /\ w_heads s' = w_heads s ++ [mkM (c_head (w_core s')) (join V (last_view (w_heads s)))] /\
         length (w_heads s) <= v_head v1 /\ knows_le (last_view (w_heads s)) v1)).
    { destruct Hhl as [[E Hn]|(E & H1 & H2)].
      - exists hp. split; [now left|]. rewrite E. auto. split; [auto|]. split; [auto|]. intros []; auto.
      - exists (hp ++ [count is_take es']). split; [now right|]. split; [rewrite E, !app_length, Elh; reflexivity|].
        split; [|auto]. intros Ex. apply (f_equal (@length nat)) in Ex. rewrite app_length in Ex. cbn in Ex. lia. }
    clear Htl Hhl. destruct Htp as (tp' & Ltp & Etp & Htp1 & Htp2). destruct Hhp as (hp' & Lhp & Ehp & Hhp1 & Hhp2).
    assert (Dt : tp' = tp \/ tp' <> tp) by (destruct (list_eq_dec Nat.eq_dec tp' tp); auto).
    assert (Dh : hp' = hp \/ hp' <> hp) by (destruct (list_eq_dec Nat.eq_dec hp' hp); auto).
    assert (Hup : forall v, VC es tp hp v -> VC es tp' hp' v).
    { intros v H. eapply (vc_longer cap es tp hp tp' hp'); [| |exact Ltp|exact Lhp|exact H]; auto. }
    assert (Hold : forall v, VC es tp hp v -> VC es' tp' hp' v).
    { intros v H. apply Hup in H. unfold es'. destruct oe as [e|]; [apply vc_older; auto|exact H]. }
    assert (H0t : 0 < length tp') by (destruct Ltp as [->| ->]; rewrite ?app_length; lia).
    assert (H0h : 0 < length hp') by (destruct Lhp as [->| ->]; rewrite ?app_length; lia).
    assert (Hv1 : VC es tp' hp' v1).
    { apply (vc_built es s); auto; try (rewrite Etp, Ehp; exact Hb).
      - intros j. apply Hup, HV.
      - intros m Hm. apply Hup. now apply (lv_tail _ _ _ _ HV).
      - intros m Hm. apply Hup. now apply (lv_head _ _ _ _ HV).
      - intros k m Hm. apply Hup. now apply (lv_state _ _ _ _ HV k). }
    assert (HVV : VC es' tp' hp' V).
    { unfold V, es'. destruct oe as [e|]; [|exact Hv1]. cbn [with_event ocons].
      assert (Rt : is_reserve e = true -> tp' <> tp). { intros He E. destruct (Htp1 E) as [_ Hn]. apply Hn. destruct e; try discriminate; eauto. }
      assert (Rh : is_take e = true -> hp' <> hp). { intros He E. destruct (Hhp1 E) as [_ Hn]. apply Hn. destruct e; try discriminate; eauto. }
      apply vc_event; auto.
      - intros m1 R m2 p t' p' Hru Hm HRp Hp.
        eapply (event_past es s a s' e v1 tp hp t'); eauto.
        + intros He. now apply Htp2, Rt.
        + intros He. now apply Hhp2, Rh.
        + intros. eapply (vc_rule _ _ _ _ _ Hv1); eauto.
      - intros k n He Hkk Hn. destruct (Htp2 (Rt He)) as (E & _ & Hlen1 & _). rewrite E in Hn.
        rewrite nth_error_app2 in Hn by lia. destruct (k - length tp) as [|[]]; cbn in Hn; try discriminate. injection Hn as <-.
        simpl. rewrite He. lia.
      - intros k n He Hkk Hn. destruct (Hhp2 (Rh He)) as (E & _ & Hlen1 & _). rewrite E in Hn.
        rewrite nth_error_app2 in Hn by lia. destruct (k - length hp) as [|[]]; cbn in Hn; try discriminate. injection Hn as <-.
        simpl. rewrite He. lia. }
    assert (HlT : VC es' tp' hp' (last_view (w_tails s))).
    { apply Hold. now apply last_tails_vc. }
    assert (HlH : VC es' tp' hp' (last_view (w_heads s))).
    { apply Hold. now apply last_heads_vc. }
    exists tp', hp'. split.
    - constructor; auto.
      + destruct Dt as [E|E].
        * destruct (Htp1 E) as [_ Hn]. rewrite E. exists kt. split; auto. rewrite Hkt. f_equal. unfold es'. destruct oe as [e|]; auto.
          simpl. destruct e; simpl; auto. exfalso. apply Hn. eauto.
        * destruct (Htp2 E) as (-> & _). exists (length tp). split; [rewrite app_length; cbn; lia|apply nth_snoc].
      + destruct Dh as [E|E].
        * destruct (Hhp1 E) as [_ Hn]. rewrite E. exists kh. split; auto. rewrite Hkh. f_equal. unfold es'. destruct oe as [e|]; auto.
          simpl. destruct e; simpl; auto. exfalso. apply Hn. eauto.
        * destruct (Hhp2 E) as (-> & _). exists (length hp). split; [rewrite app_length; cbn; lia|apply nth_snoc].
      + assert (Hkeep : forall k m n, nth_error (w_tails s) k = Some m -> nth_error tp k = Some n ->
          (exists b, m_word m = word b n) /\ n <= count is_reserve es' /\ seesR es' (m_view m) n).
        { intros k m n Hm Hn. destruct (mo_tail _ _ _ _ HM _ _ _ Hm Hn) as (H1 & H2 & H3). split; auto. split; [lia|].
          unfold es'. destruct oe; [apply seesR_cons|]; auto. }
        destruct Dt as [E|E].
        * destruct (Htp1 E) as [E1 _]. rewrite E, E1. exact Hkeep.
        * destruct (Htp2 E) as (E1 & E2 & _ & Hkn). rewrite E1, E2. intros k m n Hm Hn.
          destruct (Nat.lt_ge_cases k (length tp)) as [Hl|Hl].
          -- rewrite nth_error_app1 in Hm, Hn by lia. eauto.
          -- rewrite nth_error_app2 in Hm, Hn by lia. rewrite Elt in Hn. destruct (k - length (w_tails s)) as [|[]]; cbn in Hm, Hn; try discriminate.
             injection Hm as <-. injection Hn as <-. cbn [m_word m_view]. split; [exists (qclosed q'); exact Etail|]. split; [lia|].
             intros t p Hp Hlt. cbn. apply orb_true_iff. left. unfold V, es' in *. destruct oe as [e|].
             ++ cbn [with_event saw_event v_know]. apply orb_true_iff. apply at_pos_cons in Hp as [[-> _]|Hp]; [left; apply Nat.eqb_refl|right].
                apply Hkn. eapply last_tail_sees; eauto. now apply pos_R_lt in Hp.
             ++ apply Hkn. eapply last_tail_sees; eauto.
      + assert (Hkeep : forall k m n, nth_error (w_heads s) k = Some m -> nth_error hp k = Some n ->
          m_word m = enc n /\ n <= count is_take es' /\ seesT es' (m_view m) n).
        { intros k m n Hm Hn. destruct (mo_head _ _ _ _ HM _ _ _ Hm Hn) as (H1 & H2 & H3). split; auto. split; [lia|].
          unfold es'. destruct oe; [apply seesT_cons|]; auto. }
        destruct Dh as [E|E].
        * destruct (Hhp1 E) as [E1 _]. rewrite E, E1. exact Hkeep.
        * destruct (Hhp2 E) as (E1 & E2 & _ & Hkn). rewrite E1, E2. intros k m n Hm Hn.
          destruct (Nat.lt_ge_cases k (length hp)) as [Hl|Hl].
          -- rewrite nth_error_app1 in Hm, Hn by lia. eauto.
          -- rewrite nth_error_app2 in Hm, Hn by lia. rewrite Elh in Hn. destruct (k - length (w_heads s)) as [|[]]; cbn in Hm, Hn; try discriminate.
             injection Hm as <-. injection Hn as <-. cbn [m_word m_view]. split; [exact Ehead|]. split; [lia|].
             intros t p Hp Hlt. cbn. apply orb_true_iff. left. unfold V, es' in *. destruct oe as [e|].
             ++ cbn [with_event saw_event v_know]. apply orb_true_iff. apply at_pos_cons in Hp as [[-> _]|Hp]; [left; apply Nat.eqb_refl|right].
                apply Hkn. eapply last_head_sees; eauto. now apply pos_T_lt in Hp.
             ++ apply Hkn. eapply last_head_sees; eauto.
    - constructor.
      + intros j. rewrite Hviews. unfold updv. destruct (Nat.eqb_spec j i); [exact HVV|]. apply Hold, HV.
      + intros m Hm. destruct Dt as [E|E].
        * destruct (Htp1 E) as [E1 _]. rewrite E1 in Hm. apply Hold. now apply (lv_tail _ _ _ _ HV).
        * destruct (Htp2 E) as (_ & E2 & _). rewrite E2 in Hm. apply in_app_or in Hm as [Hm|[<-|[]]].
          -- apply Hold. now apply (lv_tail _ _ _ _ HV).
          -- cbn [m_view]. now apply vc_join.
      + intros m Hm. destruct Dh as [E|E].
        * destruct (Hhp1 E) as [E1 _]. rewrite E1 in Hm. apply Hold. now apply (lv_head _ _ _ _ HV).
        * destruct (Hhp2 E) as (_ & E2 & _). rewrite E2 in Hm. apply in_app_or in Hm as [Hm|[<-|[]]].
          -- apply Hold. now apply (lv_head _ _ _ _ HV).
          -- cbn [m_view]. now apply vc_join.
      + intros k m Hm. apply Hst in Hm as [Hm|Hm]; [apply Hold; now apply (lv_state _ _ _ _ HV k)|]. rewrite Hm. exact HVV.
  Qed.

  Lemma step_own es s a s' oe : bounded s -> weak_step P pol o s a = Some (s', oe) -> w_time s = length es -> own es s -> own (ocons oe es) s'.
  Proof.
    intros Hb Hs Ht H es2 e es1 j E Hd. pose proof (step_shape P pol o Hrmw (proj2 (proj2 Ho)) s a s' oe Hb Hs) as (Hdo & _).
    destruct oe as [x|]; [|eapply know_step; eauto]. cbn [ocons] in E. destruct es2 as [|y es2]; simpl in E; injection E as -> E.
    - subst es1. rewrite (Hdo _ _ eq_refl Hd). apply step_moved in Hs. destruct Hs as (_ & _ & H1 & _). rewrite <- Ht. now apply H1.
    - eapply know_step; eauto.
  Qed.

  (** Where the program counter of len comes from. *)
  Lemma wstep_pc s i k spur s' e : wstep P pol o s i k spur = Some (s', e) ->
    w_pcs s' i = Crashed \/ exists c c' b, cstep P pol c i (w_pcs s i) b = (c', w_pcs s' i, e).
  Proof.
    unfold wstep, load_tail, load_head, load_state. intros H. destruct (w_pcs s i) eqn:Ep; try discriminate;
      repeat match type of H with
         | context [WeakModel.readable ?a ?b ?c] => destruct (WeakModel.readable a b c); [|discriminate]
         | context [if ?b then _ else _] => destruct b
         | context [WeakModel.access ?a ?b ?c] => destruct (WeakModel.access a b c) eqn:?; [|injection H as <- <-; left; cbn; apply upd_same]
         | context [cstep ?P ?pol ?c ?i ?p ?b] => destruct (cstep P pol c i p b) as [[c' p'] e'] eqn:Ec
         end; injection H as <- <-; right; cbn [w_pcs local rmw_tail rmw_head]; rewrite upd_same; eauto.
  Qed.

  Definition len_pc (p : pc) : bool := match p with LHead _ | LCheck _ _ => true | _ => false end.
  Lemma step_len s a s' e : weak_step P pol o s a = Some (s', e) -> len_pc (w_pcs s' (WeakFacts.actor a)) = true ->
    (w_pcs s' (WeakFacts.actor a) = w_pcs s (WeakFacts.actor a) /\ e = None) \/
    (exists k spur, a = XStep (WeakFacts.actor a) k spur) /\
      match w_pcs s' (WeakFacts.actor a) with
      | LHead _ => w_pcs s (WeakFacts.actor a) = LTail
      | LCheck t _ => w_pcs s (WeakFacts.actor a) = LHead t
      | _ => False
      end.
  Proof.
    intros H Hl. destruct a as [i op|i k spur|i v|i|i|i b|i j]; cbn [WeakFacts.actor] in *.
    - exfalso. cbn in H. destruct op; destruct (w_pcs s i); try discriminate; injection H as <- <-; cbn in Hl; rewrite upd_same in Hl; discriminate.
    - right. split; [eauto|]. cbn [weak_step] in H. apply wstep_pc in H as [H|(c & c' & b & H)]; [rewrite H in Hl; discriminate|].
      apply cstep_len in H as (H1 & H2 & _). destruct (w_pcs s' i); try discriminate; [eapply H1|eapply H2]; reflexivity.
    - exfalso. cbn in H. destruct (w_pcs s i) eqn:Ep; try discriminate;
        (destruct (WeakModel.access s i (r_idx r)); [injection H as <- <-|unfold race in H; injection H as <- <-]);
        cbn in Hl; rewrite upd_same in Hl; discriminate.
    - exfalso. cbn in H. destruct (w_pcs s i) eqn:Ep; try discriminate; unfold store_state in H;
        (match type of H with context [Nat.eqb ?a ?b] => destruct (Nat.eqb a b) end; [injection H as <- <-|unfold race in H; injection H as <- <-]);
        cbn in Hl; rewrite upd_same in Hl; discriminate.
    - exfalso. cbn in H. destruct (w_pcs s i) eqn:Ep; try discriminate. injection H as <- <-. cbn in Hl; rewrite upd_same in Hl; discriminate.
    - exfalso. cbn [weak_step] in H. destruct (w_pcs s i) eqn:Ep; try discriminate. destruct (core_close _ _ _) as [c' b']. destruct b; injection H as <- <-;
        cbn in Hl; rewrite upd_same in Hl; discriminate.
    - left. cbn in H. injection H as <- <-. auto.
  Qed.

  Lemma closed_ocons (oe : option event) es : closed_in es = true -> closed_in (ocons oe es) = true.
  Proof. intros H. destruct oe as [e|]; cbn [ocons]; auto. change (e :: es) with ([e] ++ es). now apply closed_mono. Qed.

  Lemma fresh_old m (oe : option event) es (C : view) t p : (forall t, v_know C t = true -> t < length es) ->
    at_pos m (ocons oe es) t p -> v_know C t = true -> at_pos m es t p.
  Proof. intros H Hp Hk. destruct oe; auto. eapply at_pos_back; eauto. Qed.

  Lemma LHok_mono oe es V V' C t n : knows_le V V' -> (forall t, v_know C t = true -> t < length es) ->
    LHok es V C t n -> LHok (ocons oe es) V' C t n.
  Proof.
    intros Hk HC ((b & H1 & Hb) & H2 & H3 & H4). pose proof (count_ocons is_reserve oe es).
    split; [exists b; split; auto; intros; now apply closed_ocons, Hb|]. split; [lia|]. split.
    - eapply seesR_mono; [exact Hk|]. destruct oe; [apply seesR_cons|]; auto.
    - intros t' p Hp Hkn. apply (H4 t' p); auto. eapply fresh_old; eauto.
  Qed.
  Lemma LCok_mono oe es V V' C h n n' : knows_le V V' -> (forall t, v_know C t = true -> t < length es) ->
    LCok es V C h n n' -> LCok (ocons oe es) V' C h n n'.
  Proof.
    intros Hk HC (H1 & H2 & H3 & H4 & H5). pose proof (count_ocons is_take oe es).
    split; auto. split; [lia|]. split; [|split; [|auto]].
    - eapply seesT_mono; [exact Hk|]. destruct oe; [apply seesT_cons|]; auto.
    - intros t' p Hp Hkn. apply (H4 t' p); auto. eapply fresh_old; eauto.
  Qed.

  Lemma step_pc es s a s' oe q g tp hp : WI s es q g -> hist_ok cap es q -> weak_step P pol o s a = Some (s', oe) ->
    MO es s tp hp -> LV es s tp hp -> (forall i, PCok es s i) -> forall i, PCok (ocons oe es) s' i.
  Proof.
    intros HI Hok Hs HM HV HP i. pose proof (run_orderly _ _ Hok) as [Hor1 Hor2].
    pose proof (step_moved _ _ _ _ _ _ _ Hs) as (_ & Hgrow & _ & Hoth & Hcall & _).
    assert (HC : forall j t, v_know (w_call s j) t = true -> t < length es) by (intros j; apply (wi_vcall _ _ _ _ _ _ _ HI)).
    assert (Hvc : forall j, knows_le (w_call s j) (w_views s j)).
    { intros j t. apply (wi_call _ _ _ _ _ _ _ HI j). }
    assert (Hsame : w_pcs s' i = w_pcs s i -> w_call s' i = w_call s i -> PCok (ocons oe es) s' i).
    { intros E1 E2. specialize (HP i). unfold PCok in *. rewrite E1, E2. assert (Hk : knows_le (w_views s i) (w_views s' i)) by (intros t; apply Hgrow).
      destruct (w_pcs s i); auto.
      - destruct HP as [n H]. exists n. eapply LHok_mono; eauto.
      - destruct HP as (n & n' & H1 & H2). exists n, n'. split; [eapply LHok_mono; eauto|eapply LCok_mono; eauto]. }
    destruct (Nat.eq_dec i (WeakFacts.actor a)) as [Ei|Hi]; [|destruct (Hoth _ Hi); auto].
    destruct (len_pc (w_pcs s' i)) eqn:El; [|unfold PCok; destruct (w_pcs s' i); auto; discriminate].
    rewrite Ei in El. destruct (step_len _ _ _ _ Hs El) as [[E1 ->]|[(k & spur & Ea) Hpc]].
    - rewrite <- Ei in E1. apply Hsame; auto. rewrite Ei. apply Hcall. destruct a; auto. cbn in Hs. destruct (w_pcs s i0); discriminate.
    - rewrite <- Ei in *. rewrite Ea in Hs. cbn [weak_step] in Hs. unfold WeakModel.wstep in Hs.
      unfold PCok. destruct (w_pcs s' i) eqn:Ep'; try discriminate El.
      + rewrite Hpc in Hs. unfold load_tail in Hs. destruct (readable _ _ _) as [m|] eqn:Er; [|discriminate]. cbn [cstep c_tail set_tail] in Hs.
        rewrite Hlen in Hs. injection Hs as <- <-. cbn [w_pcs local] in Ep'. rewrite upd_same in Ep'. injection Ep' as Et.
        apply readable_inv in Er as [Hk Hm].
        assert (Hn : exists n, nth_error tp k = Some n).
        { destruct (nth_error tp k) eqn:E; eauto. apply nth_error_None in E. rewrite (mo_t _ _ _ _ HM) in E.
          pose proof (nth_lt _ _ _ Hm). lia. }
        destruct Hn as [n Hn]. destruct (mo_tail _ _ _ _ HM _ _ _ Hm Hn) as ((b & Hw) & Hle & Hsee).
        exists n. cbn [w_views local w_call]. rewrite updv_same. cbn [with_event ocons].
        split.
        { exists b. split; [congruence|]. intros ->.
          destruct (wi_tails _ _ _ _ _ _ _ HI m (nth_error_In _ _ Hm)) as (b2 & n2 & E2 & _ & Hcl). rewrite Hw in E2.
          apply (word_inj _ _ Hwf) in E2 as (E2 & _). rewrite <- (h_closed _ _ _ Hok). apply Hcl. congruence. }
        split; [exact Hle|]. split.
        * eapply seesR_mono; [|exact Hsee]. intros t Ht. cbn. rewrite Ht. apply orb_true_r.
        * intros t p Hp Hkn. apply Hvc in Hkn. eapply (vc_tail _ _ _ _ _ (lv_agent _ _ _ _ HV i)); eauto.
      + rewrite Hpc in Hs. unfold load_head in Hs. destruct (readable _ _ _) as [m|] eqn:Er; [|discriminate]. cbn [cstep c_head set_head] in Hs.
        rewrite Hlen in Hs. injection Hs as <- <-. cbn [w_pcs local] in Ep'. rewrite upd_same in Ep'. injection Ep' as Eh.
        apply readable_inv in Er as [Hk Hm].
        assert (Hn : exists n, nth_error hp k = Some n).
        { destruct (nth_error hp k) eqn:E; eauto. apply nth_error_None in E. rewrite (mo_h _ _ _ _ HM) in E.
          pose proof (nth_lt _ _ _ Hm). lia. }
        destruct Hn as [n' Hn]. destruct (mo_head _ _ _ _ HM _ _ _ Hm Hn) as (Hw & Hle & Hsee).
        specialize (HP i). unfold PCok in HP. rewrite Hpc in HP. destruct HP as [n HP].
        exists n, n'. cbn [w_views local w_call]. rewrite updv_same. cbn [with_event ocons].
        assert (Hgr : knows_le (w_views s i) (acquire true (saw_head (w_views s i) k) (m_view m))).
        { intros t Ht. cbn. now rewrite Ht. }
        split; [apply (LHok_mono None) with (V := w_views s i); auto; apply HC|].
        split; [congruence|]. split; [exact Hle|]. split; [|split].
        * eapply seesT_mono; [|exact Hsee]. intros t Ht. cbn. rewrite Ht. apply orb_true_r.
        * intros t p Hp Hkn. apply Hvc in Hkn. eapply (vc_head _ _ _ _ _ (lv_agent _ _ _ _ HV i)); eauto.
        * destruct (Nat.le_gt_cases n cap) as [Hc|Hc]; [lia|].
          destruct HP as (_ & HnR & HsR & _).
          destruct (pos_R_ex es (n - 1)) as [t Ht]; [lia|]. destruct (pos_T_ex es (n - 1 - cap)) as [t' Ht']; [lia|].
          assert (Hkt : v_know (w_views s i) t = true) by (apply (HsR _ _ Ht); lia).
          assert (Hkt' : v_know (w_views s i) t' = true).
          { eapply (vc_rule _ _ _ _ _ (lv_agent _ _ _ _ HV i) _ _ _ _ _ _ _ (r_RT cap) Ht Hkt); [|exact Ht']. cbn. lia. }
          pose proof (vc_head _ _ _ _ _ (lv_agent _ _ _ _ HV i) _ _ _ _ Hkt' Ht' Hk Hn). lia.
  Qed.

  Lemma run_li es s : run es s -> few_pushes es -> LI es s.
  Proof.
    induction 1 as [|es s a s' oe Hr IH Hs]; intros Hf.
    - split; [|split].
      + exists [0], [0]. split.
        * constructor; try reflexivity; try (exists 0; auto; fail).
          -- intros k m n Hm Hn. cbn in Hm. destruct k as [|[]]; try discriminate. injection Hm as <-. injection Hn as <-.
             destruct (run_ok W cap pol o Hwf Ho _ _ (weak_run_init _ _ _) Hf) as (q & g & HI).
             pose proof (i_tail _ _ _ _ _ _ (wi_S _ _ _ _ _ _ _ HI)) as Et.
             rewrite (h_res _ _ _ (chain_ok _ _ _ _ _ _ (wi_chain _ _ _ _ _ _ _ HI))) in Et.
             split; [exists (qclosed q); exact Et|]. split; [lia|]. intros t p _ Hp. lia.
          -- intros k m n Hm Hn. cbn in Hm. destruct k as [|[]]; try discriminate. injection Hm as <-. injection Hn as <-.
             destruct (run_ok W cap pol o Hwf Ho _ _ (weak_run_init _ _ _) Hf) as (q & g & HI).
             pose proof (i_head _ _ _ _ _ _ (wi_S _ _ _ _ _ _ _ HI)) as Et.
             rewrite (h_take _ _ _ (chain_ok _ _ _ _ _ _ (wi_chain _ _ _ _ _ _ _ HI))) in Et.
             split; [exact Et|]. split; [lia|]. intros t p _ Hp. lia.
        * assert (Hz : VC [] [0] [0] view0) by (apply vc_zero; cbn; lia).
          constructor; cbn; intros; auto; repeat match goal with H : _ \/ False |- _ => destruct H as [<-|[]] end; exact Hz.
      + intros es2 e es1 j E. destruct es2; discriminate.
      + intros i. exact I.
    - pose proof (count_ocons is_reserve oe es) as Hc. assert (Hf0 : few_pushes es) by (unfold WeakSpec.few_pushes in *; lia).
      destruct (IH Hf0) as ((tp & hp & HM & HV) & Hown & HP).
      destruct (run_ok W cap pol o Hwf Ho _ _ Hr Hf0) as (q & g & HI).
      destruct (run_ok W cap pol o Hwf Ho _ _ (weak_run_step _ _ _ _ _ _ _ _ Hr Hs) Hf) as (q' & g' & HI').
      pose proof (chain_ok _ _ _ _ _ _ (wi_chain _ _ _ _ _ _ _ HI)) as Hok.
      split; [|split].
      + eapply step_lv; eauto; [eapply run_orderly; eauto|apply HI].
      + eapply step_own; eauto; [eapply mo_bounded; eauto|apply HI].
      + eapply step_pc; eauto.
  Qed.

  (** The arithmetic of len (lines 376-383). *)
  Lemma len_of_diff x y : y <= x <= y + cap -> (N.of_nat x < span W cap)%N ->
    N.to_nat (len_of P (word false x) (enc y)) = x - y.
  Proof.
    intros Hxy Hs. unfold len_of. change (CoreArith.word W cap false x) with (enc x).
    rewrite !(idx_gen_enc _ _ Hwf). cbn [fst]. assert (Hc := cap_pos _ _ Hwf).
    pose proof (ifield_lt W cap Hwf x) as Hx1. pose proof (ifield_lt W cap Hwf y) as Hy1. unfold ifield in *.
    assert (Dx := Nat.div_mod x cap ltac:(lia)). assert (Dy := Nat.div_mod y cap ltac:(lia)).
    destruct (N.compare_spec (N.of_nat (y mod cap)) (N.of_nat (x mod cap))) as [Hc3|Hc3|Hc3].
    - assert (Hmm : y mod cap = x mod cap) by lia. assert (Hdd : x / cap = y / cap \/ x / cap = S (y / cap)) by nia.
      destruct (N.eqb_spec (enc x) (enc y)) as [Exy|Nxy].
      + symmetry in Exy. apply (enc_inj _ _ Hwf) in Exy; lia.
      + rewrite P_capacity by auto. destruct Hdd as [Hdd|Hdd]; [|nia]. exfalso. apply Nxy. assert (x = y) by nia. congruence.
    - assert (Hdd : x / cap = y / cap) by nia. nia.
    - rewrite P_capacity by auto. assert (Hdd : x / cap = S (y / cap)) by nia. nia.
  Qed.

  Lemma weak_len es s a s' i x : run es s -> few_pushes es -> weak_step P pol o s a = Some (s', Some (RetLen i x)) ->
    closed_in es = false ->
    exists n n', N.to_nat x = n - n' /\ n' <= n <= n' + cap /\ n <= count is_reserve es /\ n' <= count is_take es /\
      freshR es (w_call s i) n /\ freshT es (w_call s i) n'.
  Proof.
    intros Hr Hf Hs Hcl. destruct (run_li _ _ Hr Hf) as ((tp & hp & HM & HV) & _ & HP).
    destruct (run_ok W cap pol o Hwf Ho _ _ Hr Hf) as (q & g & HI).
    pose proof (run_orderly _ _ (chain_ok _ _ _ _ _ _ (wi_chain _ _ _ _ _ _ _ HI))) as [Hor1 Hor2].
    assert (Hst : exists j k spur, a = XStep j k spur /\ exists t h, w_pcs s j = LCheck t h).
    { destruct a as [j op|j k spur|j v|j|j|j b|j j']; cbn in Hs.
      - destruct (w_pcs s j); discriminate.
      - exists j, k, spur. split; auto. destruct (wstep_pc _ _ _ _ _ _ Hs) as [H|(c & c' & b & H)].
        + exfalso. destruct (run_ok W cap pol o Hwf Ho _ _ (weak_run_step P pol o es s (XStep j k spur) s' _ Hr Hs)) as (q' & g' & HI').
          { unfold WeakSpec.few_pushes in *. cbn [ocons count is_reserve]. lia. }
          pose proof (wi_agents _ _ _ _ _ _ _ HI' j) as HA. rewrite H in HA. exact HA.
        + apply cstep_len in H as (_ & _ & H). eapply H; eauto.
      - destruct (w_pcs s j); try discriminate; destruct (WeakModel.access _ _ _); discriminate.
      - destruct (w_pcs s j); try discriminate; unfold store_state in Hs;
          (match type of Hs with context [Nat.eqb ?a ?b] => destruct (Nat.eqb a b) end; [|discriminate]); destruct (s_value _); discriminate.
      - destruct (w_pcs s j); discriminate.
      - destruct (w_pcs s j); try discriminate. destruct b; discriminate.
      - discriminate. }
    destruct Hst as (j & k & spur & -> & t & h & Ep). pose proof (HP j) as Hj. unfold PCok in Hj. rewrite Ep in Hj.
    destruct Hj as (n & n' & ((b & Et & Hb) & Hn & HsR & HfR) & Eh & Hn' & HsT & HfT & Hcap).
    cbn [weak_step] in Hs. unfold WeakModel.wstep in Hs. rewrite Ep in Hs. unfold load_tail in Hs.
    destruct (readable _ _ _) as [m|] eqn:Er; [|discriminate]. apply readable_inv in Er as [Hk Hm]. cbn [cstep c_tail set_tail] in Hs.
    destruct (N.eqb_spec (m_word m) t) as [Ew|_]; [|discriminate]. injection Hs as _ Ej Ex. subst j.
    assert (Hn3 : exists n, nth_error tp k = Some n).
    { destruct (nth_error tp k) eqn:E; eauto. apply nth_error_None in E. rewrite (mo_t _ _ _ _ HM) in E.
      pose proof (nth_lt _ _ _ Hm). lia. }
    destruct Hn3 as [n3 Hn3]. destruct (mo_tail _ _ _ _ HM _ _ _ Hm Hn3) as ((b3 & Hw3) & Hle3 & _).
    pose proof (slack_span W cap Hwf) as Hsl. assert (Hf1 := Hf). unfold WeakSpec.few_pushes in Hf1.
    assert (E3 : n3 = n).
    { rewrite Hw3, Et in Ew. apply (word_inj _ _ Hwf) in Ew as (_ & Ei & Eg).
      destruct (Nat.le_ge_cases n3 n); [|symmetry; symmetry in Ei, Eg]; eapply (fields_inj _ _ Hwf); eauto; lia. }
    subst n3. assert (Hord : n' <= n).
    { destruct n' as [|p]; [lia|]. destruct (pos_T_ex es p) as [tt Htt]; [lia|]. destruct (pos_R_ex es p) as [tr Htr]; [lia|].
      assert (K1 : v_know (w_views s i) tt = true) by (apply (HsT _ _ Htt); lia).
      assert (K2 : v_know (w_views s i) tr = true).
      { eapply (vc_rule _ _ _ _ _ (lv_agent _ _ _ _ HV i) _ _ _ _ _ _ _ (r_TR cap) Htt K1); [|exact Htr]. reflexivity. }
      pose proof (vc_tail _ _ _ _ _ (lv_agent _ _ _ _ HV i) _ _ _ _ K2 Htr Hk Hn3). lia. }
    exists n, n'. split; [|auto 10].
    rewrite <- Ex, Et, Eh. destruct b; [rewrite Hb in Hcl by auto; discriminate|]. apply len_of_diff; lia.
  Qed.

  (** ** Exactness *)
  Lemma weak_len_exact es s a s' i x : run es s -> few_pushes es -> weak_step P pol o s a = Some (s', Some (RetLen i x)) ->
    closed_in es = false ->
    (forall es2 e es1, es = es2 ++ e :: es1 -> is_reserve e = true \/ is_take e = true -> known (w_call s i) es1) ->
    N.to_nat x = occupancy es.
  Proof.
    intros Hr Hf Hs Hcl Hk. destruct (weak_len _ _ _ _ _ _ Hr Hf Hs Hcl) as (n & n' & E & _ & H1 & H2 & H3 & H4).
    unfold occupancy. enough (n = count is_reserve es /\ n' = count is_take es) as [-> ->] by exact E. split.
    - destruct (Nat.eq_dec n (count is_reserve es)) as [|Hne]; auto. exfalso. destruct (pos_R_ex es n) as [t Ht]; [lia|].
      enough (n < n) by lia. apply (H3 t n Ht). destruct Ht as (es2 & e & es1 & E1 & <- & He & _). eapply Hk; eauto.
    - destruct (Nat.eq_dec n' (count is_take es)) as [|Hne]; auto. exfalso. destruct (pos_T_ex es n') as [t Ht]; [lia|].
      enough (n' < n') by lia. apply (H4 t n' Ht). destruct Ht as (es2 & e & es1 & E1 & <- & He & _). eapply Hk; eauto.
  Qed.

  Definition in_len (p : pc) : bool := match p with LTail | LHead _ | LCheck _ _ => true | _ => false end.
  Lemma cstep_in_len c i p spur c' p' e : cstep P pol c i p spur = (c', p', e) -> in_len p' = true ->
    in_len p = true /\ e = None.
  Proof.
    intros H. destruct p; cbn [cstep] in H; unfold push_top in H;
      destruct (negb (N.land (c_tail c) (p_closed P) =? 0)%N);
      repeat match type of H with context [match ?x with _ => _ end] => destruct x end;
      injection H as <- <- <-; intros; try discriminate; auto.
  Qed.
  Lemma step_in_len s a s' e : weak_step P pol o s a = Some (s', e) -> in_len (w_pcs s' (WeakFacts.actor a)) = true ->
    a = XInvoke (WeakFacts.actor a) OpLen \/ in_len (w_pcs s (WeakFacts.actor a)) = true /\ e = None /\ invokes a = false.
  Proof.
    intros H Hl. destruct a as [i op|i k spur|i v|i|i|i b|i j]; cbn [WeakFacts.actor] in *.
    - cbn in H. destruct op; auto; exfalso; destruct (w_pcs s i); try discriminate; injection H as <- <-; cbn in Hl; rewrite upd_same in Hl; discriminate.
    - right. cbn [weak_step] in H. apply wstep_pc in H as [H|(c & c' & b & H)]; [rewrite H in Hl; discriminate|].
      destruct (cstep_in_len _ _ _ _ _ _ _ H Hl); auto.
    - exfalso. cbn in H. destruct (w_pcs s i) eqn:Ep; try discriminate;
        (destruct (WeakModel.access s i (r_idx r)); [injection H as <- <-|unfold race in H; injection H as <- <-]);
        cbn in Hl; rewrite upd_same in Hl; discriminate.
    - exfalso. cbn in H. destruct (w_pcs s i) eqn:Ep; try discriminate; unfold store_state in H;
        (match type of H with context [Nat.eqb ?a ?b] => destruct (Nat.eqb a b) end; [injection H as <- <-|unfold race in H; injection H as <- <-]);
        cbn in Hl; rewrite upd_same in Hl; discriminate.
    - exfalso. cbn in H. destruct (w_pcs s i) eqn:Ep; try discriminate. injection H as <- <-. cbn in Hl; rewrite upd_same in Hl; discriminate.
    - exfalso. cbn [weak_step] in H. destruct (w_pcs s i) eqn:Ep; try discriminate. destruct (core_close _ _ _) as [c' b']. destruct b; injection H as <- <-;
        cbn in Hl; rewrite upd_same in Hl; discriminate.
    - right. cbn in H. injection H as <- <-. auto.
  Qed.

  (** Somebody inside len knew everything they have done themselves when the call started. *)
  Lemma own_call es s : run es s -> few_pushes es -> forall es2 e es1 i, es = es2 ++ e :: es1 -> doer e = Some i ->
    in_len (w_pcs s i) = true -> v_know (w_call s i) (length es1) = true.
  Proof.
    induction 1 as [|es s a s' oe Hr IH Hs]; intros Hf es2 e es1 i E Hd Hl; [destruct es2; discriminate|].
    pose proof (count_ocons is_reserve oe es) as Hc. assert (Hf0 : few_pushes es) by (unfold WeakSpec.few_pushes in *; lia).
    destruct (run_li _ _ Hr Hf0) as ((tp & hp & HM & HV) & Hown & HP). pose proof (mo_bounded _ _ _ _ HM HV) as Hb.
    pose proof (step_shape P pol o Hrmw (proj2 (proj2 Ho)) s a s' oe Hb Hs) as (Hdo & _).
    pose proof (step_moved _ _ _ _ _ _ _ Hs) as (_ & _ & _ & Hoth & Hcall & Hinv).
    assert (Hact : i = WeakFacts.actor a -> a = XInvoke i OpLen \/ in_len (w_pcs s i) = true /\ oe = None /\ invokes a = false).
    { intros ->. now apply step_in_len in Hs. }
    assert (Hpast : forall es2', es = es2' ++ e :: es1 -> v_know (w_call s' i) (length es1) = true).
    { intros es2' E'. destruct (Nat.eq_dec i (WeakFacts.actor a)) as [Ei|Hi].
      - destruct (Hact Ei) as [Ea|(H1 & H2 & H3)].
        + destruct (Hinv ltac:(now rewrite Ea)) as [Hcl _]. rewrite <- Ei in Hcl. rewrite Hcl. eapply Hown; eauto.
        + destruct (Hcall H3) as [Hcl _]. rewrite <- Ei in Hcl. rewrite Hcl. eapply IH; eauto.
      - destruct (Hoth _ Hi) as [Hp Hcl]. rewrite Hcl. eapply IH; eauto. now rewrite <- Hp. }
    destruct oe as [x|]; cbn [ocons] in E; [|eauto]. destruct es2 as [|y es2]; simpl in E; injection E as -> E; [|eauto].
    exfalso. destruct (Hact (Hdo _ _ eq_refl Hd)) as [Ea|(_ & H2 & _)]; [|discriminate].
    rewrite Ea in Hs. cbn in Hs. destruct (w_pcs s i); try discriminate. injection Hs as _ <-. discriminate.
  Qed.

  Lemma weak_len_alone es s a s' i x : run es s -> few_pushes es -> weak_step P pol o s a = Some (s', Some (RetLen i x)) ->
    closed_in es = false -> (forall j, In (Reserve j) es -> j = i) -> (forall j v, In (Take j v) es -> j = i) ->
    N.to_nat x = occupancy es.
  Proof.
    intros Hr Hf Hs Hcl H1 H2. eapply weak_len_exact; eauto. intros es2 e es1 E He.
    assert (Hd : doer e = Some i).
    { assert (Hin : In e es) by (rewrite E; apply in_or_app; right; now left).
      destruct e; destruct He; try discriminate; cbn; f_equal; eauto. }
    unfold known. eapply own_call; eauto.
    destruct a as [j op|j k spur|j v|j|j|j b|j j']; cbn in Hs; try discriminate.
    - destruct (w_pcs s j); discriminate.
    - destruct (wstep_pc _ _ _ _ _ _ Hs) as [H|(c & c' & b & H)].
      + exfalso. destruct (run_ok W cap pol o Hwf Ho _ _ (weak_run_step P pol o es s (XStep j k spur) s' _ Hr Hs)) as (q' & g' & HI').
        { unfold WeakSpec.few_pushes in *. cbn [ocons count is_reserve]. lia. }
        pose proof (wi_agents _ _ _ _ _ _ _ HI' j) as HA. rewrite H in HA. exact HA.
      + pose proof H as H0. apply cstep_len in H as (_ & _ & H). destruct (H _ _ eq_refl) as (t & h & Ep).
        rewrite Ep in H0. cbn [cstep] in H0. destruct (c_tail c =? t)%N; [|discriminate]. injection H0 as _ _ -> _. now rewrite Ep.
    - destruct (w_pcs s j); try discriminate; destruct (WeakModel.access _ _ _); discriminate.
    - destruct (w_pcs s j); try discriminate; unfold store_state in Hs;
        (match type of Hs with context [Nat.eqb ?a ?b] => destruct (Nat.eqb a b) end; [|discriminate]); destruct (s_value _); discriminate.
    - destruct (w_pcs s j); discriminate.
    - destruct (w_pcs s j); try discriminate. destruct b; discriminate.
  Qed.
End Len.
