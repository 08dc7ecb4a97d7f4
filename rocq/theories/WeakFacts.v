(** Proofs of the theorems about the ring on weak memory, from the invariant. *)
From Coq Require Import List Bool Arith NArith Lia.
From Coq Require Import ZifyN ZifyNat ZifyBool.
From Verif Require Import Word QueueSpec CoreModel CoreArith CoreInv CoreStep RingSpec HistoryFacts RingFacts ChainFacts WeakModel WeakSpec
  WeakInv WeakStep WeakDrop History.
Import ListNotations.

(** ** How views change *)
(** Inside pop_ref, before it returns. *)
Definition in_pop (p : pc) : bool :=
  match p with QStart | QState _ _ | QCas _ _ | QTail _ _ | QReload _ => true | _ => false end.

Section Know.
  Context {T : Type}.
  Variables (P : params) (pol : policy T) (o : orders).
  Notation weak_step := (weak_step P pol o).

  (** Program counter and event of a step: a pop in progress was one before; Take and Empty come from the
      agent itself, out of a pop. *)
  Definition pop_ok (i : agent) (p p' : pc) (e : option (event T)) : Prop :=
    (in_pop p' = true -> in_pop p = true) /\
    (forall j v, e = Some (Take j v) -> j = i /\ in_pop p' = false) /\
    (forall j, e = Some (RetEmpty j) -> j = i /\ in_pop p = true).

  Lemma cstep_pop c i p spur c' p' e : cstep P pol c i p spur = (c', p', e) -> pop_ok i p p' e.
  Proof.
    intros H. unfold pop_ok. destruct p; cbn [cstep] in H; unfold push_top in H;
      destruct (negb (N.land (c_tail c) (p_closed P) =? 0)%N);
      repeat match type of H with context [match ?x with _ => _ end] => destruct x end;
      injection H as <- <- <-; (split; [|split]); cbn; intros; try discriminate; auto;
      match goal with E : Some _ = Some _ |- _ => injection E; intros; subst; auto end.
  Qed.

  (** What a step does to clocks, views and program counters; [inv]: it is the start of a call. *)
  Definition moved (s s' : wstate (T := T)) (i : agent) (e : option (event T)) (inv : bool) : Prop :=
    w_time s' = next_time e (w_time s) /\
    (forall j t, v_know (w_views s j) t = true -> v_know (w_views s' j) t = true) /\
    (e <> None -> v_know (w_views s' i) (w_time s) = true) /\
    (forall j, j <> i -> w_pcs s' j = w_pcs s j /\ w_call s' j = w_call s j) /\
    (inv = false -> w_call s' i = w_call s i /\ pop_ok i (w_pcs s i) (w_pcs s' i) e) /\
    (inv = true -> w_call s' i = w_views s i /\ exists op, e = Some (Invoke i op)).

  Lemma know_updv (f : agent -> view) i v : (forall t, v_know (f i) t = true -> v_know v t = true) ->
    forall j t, v_know (f j) t = true -> v_know (updv f i v j) t = true.
  Proof. intros H j t Hk. unfold updv. destruct (Nat.eqb_spec j i) as [->|]; auto. Qed.
  Lemma know_with v (e : option (event T)) n t : v_know v t = true -> v_know (with_event v e n) t = true.
  Proof. intros H. destruct e; cbn; auto. rewrite H. apply orb_true_r. Qed.
  Lemma know_this v (e : option (event T)) n : e <> None -> v_know (with_event v e n) n = true.
  Proof. intros H. destruct e; [|easy]. cbn. now rewrite Nat.eqb_refl. Qed.
  Lemma know_acquire b v m t : v_know v t = true -> v_know (acquire b v m) t = true.
  Proof. intros H. destruct b; cbn; auto. now rewrite H. Qed.
  Lemma updv_same (f : agent -> view) i v : updv f i v i = v.
  Proof. unfold updv. now rewrite Nat.eqb_refl. Qed.
  Lemma upd_same (f : agent -> pc) i p : upd f i p i = p.
  Proof. unfold upd. now rewrite Nat.eqb_refl. Qed.
  Lemma upd_other (f : agent -> pc) i p j : j <> i -> upd f i p j = f j.
  Proof. intros H. unfold upd. now rewrite (proj2 (Nat.eqb_neq j i) H). Qed.

  Lemma moved_any s s' i p v e : w_time s' = next_time e (w_time s) ->
    (forall j, w_views s' j = updv (w_views s) i v j) -> (forall t, v_know (w_views s i) t = true -> v_know v t = true) ->
    (e <> None -> v_know v (w_time s) = true) ->
    (forall j, w_pcs s' j = upd (w_pcs s) i p j) -> (forall j, w_call s' j = w_call s j) ->
    pop_ok i (w_pcs s i) p e -> moved s s' i e false.
  Proof.
    intros Ht Hv Hg Hk Hp Hc Ho. split; [exact Ht|]. split; [|split; [|split; [|split]]].
    - intros j t H. rewrite Hv. now apply know_updv.
    - intros He. rewrite Hv, updv_same. auto.
    - intros j Hj. rewrite Hp, upd_other, Hc; auto.
    - intros _. rewrite Hp, upd_same, Hc. auto.
    - discriminate.
  Qed.

  Lemma moved_local s i p v e : (forall t, v_know (w_views s i) t = true -> v_know v t = true) ->
    pop_ok i (w_pcs s i) p e -> moved s (local s i p v e) i e false.
  Proof.
    intros Hg Ho. apply (moved_any _ _ _ p (with_event v e (w_time s))); auto.
    - intros t H. apply know_with. auto.
    - apply know_this.
  Qed.

  Lemma access_same (s : wstate (T := T)) i k s1 : access s i k = Some s1 ->
    w_time s1 = w_time s /\ w_pcs s1 = w_pcs s /\ w_call s1 = w_call s /\
    (forall j, w_views s1 j = updv (w_views s) i (w_views s1 i) j) /\
    (forall t, v_know (w_views s i) t = true -> v_know (w_views s1 i) t = true).
  Proof.
    unfold access. destruct (Nat.eqb _ _); [|discriminate]. intros H. injection H as <-. cbn.
    split; auto. split; auto. split; auto. split.
    - intros j. unfold updv. destruct (Nat.eqb_spec j i); auto. now rewrite Nat.eqb_refl.
    - intros t H. rewrite updv_same. exact H.
  Qed.

  Lemma pop_ok_quiet i p p' (e : event T) : (in_pop p' = true -> in_pop p = true) ->
    match e with Take _ _ | RetEmpty _ => false | _ => true end = true -> pop_ok i p p' (Some e).
  Proof.
    intros H He. split; [exact H|]. split; [intros j v E|intros j E]; injection E as ->; discriminate.
  Qed.

  Lemma moved_race s i s' e : race s i = (s', e) -> moved s s' i e false.
  Proof.
    unfold race. intros H. injection H as <- <-. apply moved_local; auto. apply pop_ok_quiet; auto. discriminate.
  Qed.

  Lemma some_race s i s' e : Some (race s i) = Some (s', e) -> moved s s' i e false.
  Proof. intros H. apply moved_race. congruence. Qed.

  Lemma load_tail_moved s i p k acq s' e : p = w_pcs s i -> load_tail P pol s i p k acq = Some (s', e) -> moved s s' i e false.
  Proof.
    intros Hp. unfold load_tail. destruct (readable _ _ _); [|discriminate].
    destruct (cstep _ _ _ _ _ _) as [[c' p'] e'] eqn:E. intros H. injection H as <- <-.
    apply cstep_pop in E. subst p. apply moved_local; auto. intros t Ht. now apply know_acquire.
  Qed.
  Lemma load_head_moved s i p k acq s' e : p = w_pcs s i -> load_head P pol s i p k acq = Some (s', e) -> moved s s' i e false.
  Proof.
    intros Hp. unfold load_head. destruct (readable _ _ _); [|discriminate].
    destruct (cstep _ _ _ _ _ _) as [[c' p'] e'] eqn:E. intros H. injection H as <- <-.
    apply cstep_pop in E. subst p. apply moved_local; auto. intros t Ht. now apply know_acquire.
  Qed.
  Lemma load_state_moved s i p w k acq s' e : p = w_pcs s i -> load_state P pol s i p w k acq = Some (s', e) -> moved s s' i e false.
  Proof.
    intros Hp. unfold load_state. destruct (readable _ _ _); [|discriminate].
    destruct (cstep _ _ _ _ _ _) as [[c' p'] e'] eqn:E. intros H. injection H as <- <-.
    apply cstep_pop in E. subst p. apply moved_local; auto. intros t Ht. now apply know_acquire.
  Qed.
  Lemma rmw_tail_moved s i c p v e : (forall t, v_know (w_views s i) t = true -> v_know v t = true) ->
    pop_ok i (w_pcs s i) p e -> moved s (rmw_tail o s i c p v e) i e false.
  Proof.
    intros Hg Ho. eapply (moved_any _ _ _ p); try (intros; reflexivity); auto.
    - intros t H. apply know_with, (know_acquire _ _ _ _ (Hg t H)).
    - apply know_this.
  Qed.
  Lemma rmw_head_moved s s1 i c p v e : w_time s1 = w_time s -> w_pcs s1 = w_pcs s -> w_call s1 = w_call s ->
    (forall j, w_views s1 j = updv (w_views s) i (w_views s1 i) j) ->
    (forall t, v_know (w_views s i) t = true -> v_know v t = true) ->
    pop_ok i (w_pcs s i) p e -> moved s (rmw_head o s1 i c p v e) i e false.
  Proof.
    intros Ht Hp Hc Hv Hg Ho.
    eapply (moved_any s _ i p (with_event (saw_head (acquire (o_rmw o) v (last_view (w_heads s1))) (length (w_heads s1))) e (w_time s1))); auto.
    - cbn. now rewrite Ht.
    - intros j. cbn [rmw_head w_views]. unfold updv at 1 2. destruct (Nat.eqb_spec j i); auto.
      rewrite Hv. unfold updv. now rewrite (proj2 (Nat.eqb_neq j i)).
    - intros t H. apply know_with, (know_acquire _ _ _ _ (Hg t H)).
    - rewrite Ht. apply know_this.
    - intros j. cbn. now rewrite Hp.
    - intros j. cbn. now rewrite Hc.
  Qed.

  Lemma wstep_moved s i k spur s' e : wstep P pol o s i k spur = Some (s', e) -> moved s s' i e false.
  Proof.
    unfold wstep. intros H. destruct (w_pcs s i) eqn:Ep; try discriminate.
    - now apply load_tail_moved in H.
    - now apply load_state_moved in H.
    - destruct (_ && _)%bool.
      + destruct (cstep _ _ _ _ _ _) as [[c' p'] e'] eqn:E. injection H as <- <-. apply cstep_pop in E. rewrite <- Ep in E.
        apply rmw_tail_moved; auto.
      + now apply load_tail_moved in H.
    - destruct (access s i _) as [s1|] eqn:Ea; [|now apply some_race].
      destruct (cstep _ _ _ _ _ _) as [[c' p'] e'] eqn:E. injection H as <- <-. apply cstep_pop in E. rewrite <- Ep in E.
      destruct (access_same _ _ _ _ Ea) as (H1 & H2 & H3 & H4 & H5).
      apply (moved_any _ _ _ p' (with_event (w_views s1 i) e' (w_time s))); auto.
      + cbn. now rewrite H1.
      + intros j. cbn. rewrite H1. unfold updv at 1 2. destruct (Nat.eqb_spec j i); auto.
        rewrite H4. unfold updv. now rewrite (proj2 (Nat.eqb_neq j i)).
      + intros t Ht. apply know_with. auto.
      + apply know_this.
      + intros j. cbn. now rewrite H2.
      + intros j. cbn. now rewrite H3.
    - destruct (cstep _ _ _ _ _ _) as [[c' p'] e'] eqn:E. injection H as <- <-. apply cstep_pop in E. rewrite <- Ep in E.
      apply rmw_head_moved; auto. intros j. unfold updv. destruct (Nat.eqb_spec j i); now subst.
    - now apply load_tail_moved in H.
    - now apply load_head_moved in H.
    - now apply load_state_moved in H.
    - destruct (_ && _)%bool.
      + destruct (access s i _) as [s1|] eqn:Ea; [|now apply some_race].
        destruct (cstep _ _ _ _ _ _) as [[c' p'] e'] eqn:E. injection H as <- <-. apply cstep_pop in E. rewrite <- Ep in E.
        destruct (access_same _ _ _ _ Ea) as (H1 & H2 & H3 & H4 & H5). apply rmw_head_moved; auto.
      + now apply load_head_moved in H.
    - destruct (cstep _ _ _ _ _ _) as [[c' p'] e'] eqn:E. injection H as <- <-. apply cstep_pop in E. rewrite <- Ep in E.
      apply rmw_tail_moved; auto.
    - now apply load_head_moved in H.
    - now apply load_tail_moved in H.
    - now apply load_head_moved in H.
    - now apply load_tail_moved in H.
  Qed.

  Lemma store_moved s i r e s' oe : (in_pop (w_pcs s i) = false) ->
    match e with Take _ _ | RetEmpty _ => false | _ => true end = true ->
    Some (store_state o s i r e) = Some (s', oe) -> moved s s' i oe false.
  Proof.
    intros Hp He. unfold store_state. destruct (Nat.eqb _ _); [|apply some_race]. intros H. injection H as <- <-.
    apply (moved_any _ _ _ Idle (with_event (saw_state (w_views s i) (r_idx r) (length (w_states s (r_idx r)))) (Some e) (w_time s))); auto.
    - intros t Ht. now apply know_with.
    - apply know_this.
    - apply pop_ok_quiet; auto. discriminate.
  Qed.

  Definition actor (a : waction (T := T)) : agent :=
    match a with
    | XInvoke i _ | XStep i _ _ | XWrite i _ | XDrop i | XPanic i | XClose i _ => i
    | XSync _ j => j
    end.
  Definition invokes (a : waction (T := T)) : bool := match a with XInvoke _ _ => true | _ => false end.

  Lemma step_moved s a s' e : weak_step s a = Some (s', e) -> moved s s' (actor a) e (invokes a).
  Proof.
    destruct a as [i op|i k spur|i v|i|i|i pa|i j]; cbn [actor invokes]; intros H.
    - assert (Hs : exists c', s' = mkWS (w_core s) (w_heads s) (w_tails s) (w_states s) (w_acc s)
        (upd (w_pcs s) i c') (updv (w_views s) i (with_event (w_views s i) (Some (@Invoke T i op)) (w_time s)))
        (updv (w_call s) i (w_views s i)) (S (w_time s)) /\ e = Some (Invoke i op)).
      { cbn [WeakModel.weak_step] in H. destruct op; try discriminate; destruct (w_pcs s i); try discriminate;
          injection H as <- <-; eexists; split; reflexivity. }
      destruct Hs as (p' & -> & ->). split; [reflexivity|]. split; [|split; [|split; [|split]]].
      + intros j t Hk. cbn [w_views]. apply know_updv; auto. intros t'. apply know_with.
      + intros _. cbn [w_views]. rewrite updv_same. now apply know_this.
      + intros j Hj. cbn [w_pcs w_call]. rewrite upd_other by auto. split; auto. unfold updv. now rewrite (proj2 (Nat.eqb_neq j i)).
      + discriminate.
      + intros _. cbn [w_call]. rewrite updv_same. eauto.
    - now apply wstep_moved in H.
    - cbn [WeakModel.weak_step] in H.
      assert (Hh : exists r, access s i r = None /\ Some (race s i) = Some (s', e) \/
        exists s1 c, access s i r = Some s1 /\ in_pop (w_pcs s i) = false /\ e = Some (Wrote i v) /\
          s' = local (mkWS c (w_heads s1) (w_tails s1) (w_states s1) (w_acc s1) (w_pcs s1)
                                  (w_views s1) (w_call s1) (w_time s1)) i (w_pcs s i) (w_views s1 i) e).
      { destruct (w_pcs s i) as [| | | | | | |r| | | | | | |r| | | | ]; try discriminate;
          (destruct (access s i (r_idx r)) as [s1|] eqn:Ea; exists (r_idx r); [right|left; auto]);
          injection H as <- <-; eexists s1, _; (split; [exact Ea|]); (split; [reflexivity|]); split; reflexivity. }
      destruct Hh as [r [[_ Hr]|(s1 & c & Ea & Hp & -> & ->)]]; [now apply some_race|].
      destruct (access_same _ _ _ _ Ea) as (H1 & H2 & H3 & H4 & H5).
      apply (moved_any _ _ _ (w_pcs s i) (with_event (w_views s1 i) (Some (Wrote i v)) (w_time s))); auto.
      + cbn. now rewrite H1.
      + intros j. cbn [local w_views w_time]. rewrite H1. unfold updv at 1 2. destruct (Nat.eqb_spec j i); auto.
        rewrite H4. unfold updv. now rewrite (proj2 (Nat.eqb_neq j i)).
      + intros t Ht. apply know_with. auto.
      + apply know_this.
      + intros j. cbn. now rewrite H2.
      + intros j. cbn. now rewrite H3.
      + apply pop_ok_quiet; auto.
    - cbn [WeakModel.weak_step] in H. destruct (w_pcs s i) eqn:Ep; try discriminate;
        apply store_moved in H; auto; try (now rewrite Ep); destruct (s_value _); reflexivity.
    - cbn [WeakModel.weak_step] in H. destruct (w_pcs s i) eqn:Ep; try discriminate. injection H as <- <-.
      apply moved_local; auto. apply pop_ok_quiet; auto. discriminate.
    - cbn [WeakModel.weak_step] in H. destruct (w_pcs s i) eqn:Ep; try discriminate.
      destruct (core_close _ _ _) as [c' b]. destruct pa; injection H as <- <-.
      + apply moved_local; auto. apply pop_ok_quiet; auto. discriminate.
      + apply rmw_tail_moved; auto. apply pop_ok_quiet; auto. discriminate.
    - cbn [WeakModel.weak_step] in H. injection H as <- <-.
      apply (moved_any _ _ _ (w_pcs s j) (join (w_views s j) (w_views s i))); auto.
      + intros t Ht. cbn. now rewrite Ht.
      + intros k. unfold upd. destruct (Nat.eqb_spec k j); now subst.
      + split; [auto|]. split; discriminate.
  Qed.

  Lemma time_step s a s' e : weak_step s a = Some (s', e) -> w_time s' = next_time e (w_time s).
  Proof. intros H. apply step_moved in H. apply H. Qed.
  Lemma know_step s a s' e j t : weak_step s a = Some (s', e) -> v_know (w_views s j) t = true -> v_know (w_views s' j) t = true.
  Proof. intros H. apply step_moved in H. apply H. Qed.
  Lemma take_step s a s' i v : weak_step s a = Some (s', Some (Take i v)) ->
    v_know (w_views s' i) (w_time s) = true /\ in_pop (w_pcs s' i) = false.
  Proof.
    intros H. apply step_moved in H. destruct H as (_ & _ & H1 & _ & H2 & H3). destruct (invokes a).
    - destruct (H3 eq_refl) as [_ [op E]]. discriminate.
    - destruct (H2 eq_refl) as [_ (_ & Ht & _)]. destruct (Ht _ _ eq_refl) as [-> Hp]. split; auto. apply H1. discriminate.
  Qed.
  Lemma empty_step s a s' i : weak_step s a = Some (s', Some (RetEmpty i)) -> in_pop (w_pcs s i) = true.
  Proof.
    intros H. apply step_moved in H. destruct H as (_ & _ & H1 & _ & H2 & H3). destruct (invokes a).
    - destruct (H3 eq_refl) as [_ [op E]]. discriminate.
    - destruct (H2 eq_refl) as [_ (_ & _ & Ht)]. destruct (Ht _ eq_refl) as [-> Hp]. exact Hp.
  Qed.
  Lemma call_step s a s' e i : weak_step s a = Some (s', e) -> in_pop (w_pcs s' i) = true ->
    (in_pop (w_pcs s i) = true /\ w_call s' i = w_call s i) \/ w_call s' i = w_views s i.
  Proof.
    intros H Hp. apply step_moved in H. destruct H as (_ & _ & _ & H1 & H2 & H3).
    destruct (Nat.eq_dec i (actor a)) as [->|Hi].
    - destruct (invokes a); [right; now apply H3|left]. destruct (H2 eq_refl) as [H4 [H5 _]]. auto.
    - destruct (H1 _ Hi) as [H4 H5]. rewrite H4 in Hp. auto.
  Qed.
End Know.

Section Facts.
  Context {T : Type}.
  Variables (W : N) (cap : nat) (pol : policy T) (o : orders).
  Hypothesis Hwf : wf W cap.
  Hypothesis Ho : sound_orders o.
  Notation P := (core_new W (N.of_nat cap)).
  Notation ifld := (ifield cap).
  Notation queue := (queue T).
  Notation event := (event T).
  Notation wstate := (@wstate T).
  Notation fresh := (fresh_pos W cap).
  Notation sstep := (sstep cap fresh (new_element pol) (recycle pol)).
  Notation chain := (chain cap fresh (new_element pol) (recycle pol)).
  Notation WI := (WI W cap pol).
  Notation fidx := (fidx cap).
  Notation run := (weak_run P pol o).
  Notation few_pushes := (few_pushes (T := T) W cap).
  Notation weak_history := (weak_history W cap pol o).

  Lemma weak_init_ok : WI (weak_init P) [] empty_queue (fun _ => 0).
  Proof.
    pose proof (cap_pos _ _ Hwf) as Hc.
    pose proof (inv_s _ _ _ _ _ _ _ (Inv_init (T := T) W cap Hwf)) as HS.
    assert (Hv : forall V, V = view0 -> vok (T := T) cap [] (w_states (weak_init (T := T) P)) (fun _ => 0) V).
    { intros V ->. apply vok_view0. intros k. cbn. lia. }
    assert (Hz : enc W cap 0 = 0%N) by (apply (enc_small W cap Hwf); lia).
    assert (Hnil : forall n (e : entry T), nth_error (qlog (empty_queue (T := T))) n = Some e -> False) by (intros [|n] e; discriminate).
    constructor.
    - exact HS.
    - constructor.
    - reflexivity.
    - intros m [<-|[]]. exists false, 0. cbn [m_word]. split; [symmetry; exact Hz|]. split; [apply Nat.le_refl|discriminate].
    - intros m [<-|[]]. exists 0. split; [symmetry; exact Hz|apply Nat.le_refl].
    - intros p m Hm. cbn [weak_init w_states] in Hm.
      destruct (fidx p) as [|[|]] eqn:E; try discriminate. injection Hm as <-. cbn [m_word].
      unfold WeakInv.fidx in E. assert (H : p / cap = 0) by lia. apply Nat.div_small_iff in H; [|lia].
      unfold ifield. rewrite Nat.mod_small by auto. symmetry. apply (enc_small W cap Hwf). auto.
    - intros p m Hm. cbn [weak_init w_states] in Hm. destruct (fidx p) as [|]; discriminate.
    - intros k. cbn. lia.
    - intros p e Hp. destruct (Hnil _ _ Hp).
    - reflexivity.
    - intros i. now apply Hv.
    - intros i. now apply Hv.
    - intros m [<-|[]]. now apply Hv.
    - intros m [<-|[]]. now apply Hv.
    - intros k m [<-|[]]. now apply Hv.
    - intros i. apply vle_refl.
    - intros p e i Hp. destruct (Hnil _ _ Hp).
    - intros p e Hp. destruct (Hnil _ _ Hp).
    - reflexivity.
    - intros i. exact I.
    - intros n m es2 i v es1 _ E. destruct es2; discriminate.
    - intros n m es2 i v es1 _ E. destruct es2; discriminate.
  Qed.

  Lemma run_ok es s : run es s -> few_pushes es -> exists q g, WI s es q g.
  Proof.
    destruct Ho as (H1 & H2 & H3). induction 1 as [|es s a s' e Hr IH Hs]; intros Hf.
    - exists empty_queue, (fun _ => 0). apply weak_init_ok.
    - assert (Hle : count is_reserve es <= count is_reserve (ocons e es)) by (destruct e; simpl; lia).
      unfold WeakSpec.few_pushes in *. destruct IH as (q & g & HI); [lia|].
      destruct (wi_step W cap pol o Hwf H1 H2 H3 s es q g a s' e HI) as (q' & g' & HI' & _); [|exact Hs|eauto].
      unfold few. rewrite (h_res _ _ _ (chain_ok _ _ _ _ _ _ (wi_chain _ _ _ _ _ _ _ HI))). lia.
  Qed.

  Lemma run_before es s : run es s -> forall es2 e es1, es = es2 ++ e :: es1 ->
    exists s0 a s1, run es1 s0 /\ weak_step P pol o s0 a = Some (s1, Some e) /\ run (e :: es1) s1.
  Proof.
    induction 1 as [|es s a s' [e|] Hr IH Hs]; intros es2 x es1 E; simpl in E.
    - destruct es2; discriminate.
    - destruct es2 as [|y es2]; simpl in E; injection E as -> E.
      + subst es1. exists s, a, s'. split; auto. split; auto. exact (weak_run_step _ _ _ _ _ _ _ (Some x) Hr Hs).
      + eauto.
    - eauto.
  Qed.

  Lemma few_before (es2 es1 : list event) : few_pushes (es2 ++ es1) -> few_pushes es1.
  Proof.
    unfold WeakSpec.few_pushes. intros H. induction es2 as [|e es2 IH]; simpl in H; auto. apply IH. lia.
  Qed.

  Lemma history_chain es : weak_history es -> few_pushes es -> exists q, chain es q.
  Proof. intros [s Hr] Hf. destruct (run_ok _ _ Hr Hf) as (q & g & HI). exists q. apply HI. Qed.

  (** The step that made an event. *)
  Lemma step_facts es s a s' e : run es s -> few_pushes es -> weak_step P pol o s a = Some (s', Some e) ->
    exists q g q' , WI s es q g /\ hist_ok cap es q /\ sstep q e q' /\ result cap s q e.
  Proof.
    intros Hr Hf Hs. destruct Ho as (H1 & H2 & H3). destruct (run_ok _ _ Hr Hf) as (q & g & HI).
    pose proof (chain_ok _ _ _ _ _ _ (wi_chain _ _ _ _ _ _ _ HI)) as Hok.
    destruct (wi_step W cap pol o Hwf H1 H2 H3 s es q g a s' (Some e) HI) as (q' & g' & _ & He).
    - unfold few. rewrite (h_res _ _ _ Hok). exact Hf.
    - exact Hs.
    - destruct (He e eq_refl). exists q, g, q'. auto.
  Qed.

  (** ** No undefined behaviour *)
  Lemma weak_no_ub es i : weak_history es -> few_pushes es -> ~ In (UB i) es.
  Proof.
    intros [s Hr] Hf Hin. apply in_split in Hin as (es2 & es1 & E).
    destruct (run_before _ _ Hr _ _ _ E) as (s0 & a & s1 & Hr0 & Hs & _).
    assert (Hf0 : few_pushes es1).
    { rewrite E in Hf. change (UB i :: es1) with ([UB i] ++ es1) in Hf. rewrite app_assoc in Hf. eapply few_before; eauto. }
    destruct (step_facts _ _ _ _ _ Hr0 Hf0 Hs) as (q & g & q' & _ & _ & Hss & _). inversion Hss.
  Qed.

  (** ** Publication *)
  Lemma committed_split (es : list event) n v : committed es n = Some v ->
    exists es2 es1, completes n v es2 es1 es.
  Proof.
    induction es as [|e es IH]; [discriminate|]. intros H.
    assert (Hc : (exists j, e = Commit j v /\ last_is j (reservers es) n = true) \/ committed es n = Some v).
    { destruct e; cbn [committed] in H; auto. destruct (last_is i (reservers es) n) eqn:E; auto. injection H as ->. eauto. }
    destruct Hc as [(j & -> & Hl)|Hc].
    - exists [], es. exists j. auto.
    - destruct (IH Hc) as (es2 & es1 & j & -> & Hl). exists (e :: es2), es1. exists j. auto.
  Qed.
  Lemma released_split (es : list event) n v : released es n = Some v ->
    exists es2 es1, gives_back n v es2 es1 es.
  Proof.
    induction es as [|e es IH]; [discriminate|]. intros H.
    assert (Hc : (exists j, e = Release j v /\ last_is j (takers es) n = true) \/ released es n = Some v).
    { destruct e; cbn [released] in H; auto. destruct (last_is i (takers es) n) eqn:E; auto. injection H as ->. eauto. }
    destruct Hc as [(j & -> & Hl)|Hc].
    - exists [], es. exists j. auto.
    - destruct (IH Hc) as (es2 & es1 & j & -> & Hl). exists (e :: es2), es1. exists j. auto.
  Qed.

  Lemma weak_publication es s a s' i v : run es s -> few_pushes es ->
    weak_step P pol o s a = Some (s', Some (Take i v)) ->
    exists es2 es1, completes (count is_take es) v es2 es1 es /\ known (w_views s i) es1.
  Proof.
    intros Hr Hf Hs. destruct (step_facts _ _ _ _ _ Hr Hf Hs) as (q & g & q' & HI & Hok & Hss & Hres).
    cbn [result] in Hres. destruct Hres as (m & Hm & Hv & _).
    assert (Hc : committed es (count is_take es) = Some v).
    { apply ch_take_inv in Hss. rewrite <- (h_take _ _ _ Hok). apply (h_entry _ _ _ Hok _ _ Hss). }
    destruct (committed_split _ _ _ Hc) as (es2 & es1 & j & E & Hl). exists es2, es1. split; [exists j; auto|].
    unfold known. apply Hv. rewrite (h_take _ _ _ Hok) in Hm. eapply (wi_pub _ _ _ _ _ _ _ HI); eauto.
  Qed.

  Lemma ch_reserve_inv q i q' : sstep q (Reserve i) q' -> qclosed q = false /\ length (qlog q) < qtaken q + cap.
  Proof. inversion 1; auto. Qed.

  Lemma weak_reuse es s a s' i : run es s -> few_pushes es ->
    weak_step P pol o s a = Some (s', Some (Reserve i)) -> cap <= count is_reserve es ->
    exists old es2 es1, gives_back (count is_reserve es - cap) old es2 es1 es /\ known (w_views s i) es1.
  Proof.
    intros Hr Hf Hs Hc. destruct (step_facts _ _ _ _ _ Hr Hf Hs) as (q & g & q' & HI & Hok & Hss & Hres).
    cbn [result] in Hres. destruct Hres as (m & Hm & Hv & _). pose proof (nth_lt _ _ _ Hm) as HmL.
    assert (Hfew : (N.of_nat (length (qlog q)) < slack W cap)%N) by (rewrite (h_res _ _ _ Hok); exact Hf).
    destruct (tail_free W cap pol Hwf s es q g HI Hfew HmL) as ((_ & [Hlt|[old Hold]]) & _).
    - rewrite (h_res _ _ _ Hok) in Hlt. lia.
    - pose proof (h_entry _ _ _ Hok _ _ Hold) as [Hrel _]. rewrite (h_res _ _ _ Hok) in *.
      destruct (released_split _ _ _ Hrel) as (es2 & es1 & j & E & Hl). exists old, es2, es1. split; [exists j; auto|].
      unfold known. apply Hv.
      assert (Epos : count is_reserve es - cap + cap = count is_reserve es) by lia.
      eapply (wi_rel _ _ _ _ _ _ _ HI (count is_reserve es - cap)); eauto.
      rewrite Epos. rewrite <- (ifield_add_cap W cap Hwf (count is_reserve es - cap)), Epos. exact Hm.
  Qed.

  (** ** Results *)
  Lemma occ_q es (q : queue) : hist_ok cap es q -> occupancy es = qlen q.
  Proof. intros []. unfold occupancy, qlen. lia. Qed.

  Lemma weak_full es s a s' i : run es s -> few_pushes es -> weak_step P pol o s a = Some (s', Some (RetFull i)) ->
    occupancy es = cap.
  Proof.
    intros Hr Hf Hs. destruct (step_facts _ _ _ _ _ Hr Hf Hs) as (q & g & q' & HI & Hok & Hss & Hres).
    rewrite (occ_q _ _ Hok). exact Hres.
  Qed.
  Lemma weak_push_closed es s a s' i : run es s -> few_pushes es -> weak_step P pol o s a = Some (s', Some (RetPushClosed i)) ->
    closed_in es = true.
  Proof.
    intros Hr Hf Hs. destruct (step_facts _ _ _ _ _ Hr Hf Hs) as (q & g & q' & HI & Hok & Hss & Hres).
    rewrite <- (h_closed _ _ _ Hok). exact Hres.
  Qed.
  Lemma weak_pop_closed es s a s' i : run es s -> few_pushes es -> weak_step P pol o s a = Some (s', Some (RetPopClosed i)) ->
    closed_in es = true /\ occupancy es = 0.
  Proof.
    intros Hr Hf Hs. destruct (step_facts _ _ _ _ _ Hr Hf Hs) as (q & g & q' & HI & Hok & Hss & Hres).
    rewrite <- (h_closed _ _ _ Hok), (occ_q _ _ Hok). exact Hres.
  Qed.
  Lemma weak_reserve es s a s' i : run es s -> few_pushes es -> weak_step P pol o s a = Some (s', Some (Reserve i)) ->
    closed_in es = false /\ occupancy es < cap.
  Proof.
    intros Hr Hf Hs. destruct (step_facts _ _ _ _ _ Hr Hf Hs) as (q & g & q' & HI & Hok & Hss & Hres).
    apply ch_reserve_inv in Hss. rewrite <- (h_closed _ _ _ Hok), (occ_q _ _ Hok). unfold qlen. pose proof (cap_pos _ _ Hwf). destruct Hss as [Hc Hl]. split; [exact Hc|lia].
  Qed.

  Lemma weak_empty es s a s' i : run es s -> few_pushes es -> weak_step P pol o s a = Some (s', Some (RetEmpty i)) ->
    exists n, n <= count is_take es /\
      (forall v es2 es1, completes n v es2 es1 es -> ~ known (w_call s i) es1) /\
      (forall j v es2 es1, es = es2 ++ Take j v :: es1 -> count is_take es1 = n -> ~ known (w_call s i) es1).
  Proof.
    intros Hr Hf Hs. destruct (step_facts _ _ _ _ _ Hr Hf Hs) as (q & g & q' & HI & Hok & Hss & Hres).
    destruct Hres as (n & Hn & Hst). exists n. rewrite <- (h_take _ _ _ Hok). split; auto.
    pose proof (vk_kf _ _ _ _ _ (wi_vcall _ _ _ _ _ _ _ HI i)) as Hkf. split.
    - intros v es2 es1 (j & E & Hl) Hk. pose proof (Hkf _ _ _ n E Hk Hl). lia.
    - intros j v es2 es1 E Ec Hk. pose proof (Hkf _ _ _ n E Hk) as H. cbn [marks] in H. rewrite Ec, Nat.eqb_refl in H.
      specialize (H eq_refl). lia.
  Qed.

  (** ** What the chain of effects says *)
  Lemma weak_handout es2 i v es1 : weak_history (es2 ++ HandOut i v :: es1) -> few_pushes (es2 ++ HandOut i v :: es1) ->
    exists n, last_is i (reservers es1) n = true /\ committed es1 n = None /\
      ((n < cap /\ v = new_element pol) \/
       (cap <= n /\ exists old, released es1 (n - cap) = Some old /\ v = recycle pol old)).
  Proof.
    intros Hh Hf. destruct (history_chain _ Hh Hf) as [q Hq]. destruct (chain_at _ _ _ _ _ _ _ _ Hq) as (q1 & q2 & _ & Hs & Hok).
    apply handout_inv in Hs as (p & H1 & H2 & H3). exists p. destruct (h_entry _ _ _ Hok _ _ H1) as [E1 E2].
    split; auto. split; auto. destruct H2 as [[Hfr ->]|(Hfr & Hc & old & Hold & ->)].
    - left. split; auto. tauto.
    - right. split; auto. exists old. split; auto. apply (h_entry _ _ _ Hok _ _ Hold).
  Qed.
  Lemma weak_content es2 e es1 i v : weak_history (es2 ++ e :: es1) -> few_pushes (es2 ++ e :: es1) ->
    e = Commit i v \/ e = Release i v -> content i es1 = Some v.
  Proof.
    intros Hh Hf He. destruct (history_chain _ Hh Hf) as [q Hq]. destruct (chain_at _ _ _ _ _ _ _ _ Hq) as (q1 & q2 & _ & Hs & Hok).
    destruct He as [-> | ->].
    - apply commit_inv in Hs as [p Hs]. apply (h_entry _ _ _ Hok _ _ Hs).
    - apply release_inv in Hs as [p Hs]. apply (h_entry _ _ _ Hok _ _ Hs).
  Qed.

  (** ** What an agent knows *)
  Lemma know_time es s : run es s -> w_time s = length es.
  Proof.
    induction 1 as [|es s a s' e Hr IH Hs]; auto. rewrite (time_step _ _ _ _ _ _ _ Hs), IH. destruct e; auto.
  Qed.

  Lemma know_own es s : run es s ->
    forall i v es2 es1, es = es2 ++ Take i v :: es1 ->
      known (w_views s i) es1 /\ (in_pop (w_pcs s i) = true -> known (w_call s i) es1).
  Proof.
    unfold known. induction 1 as [|es s a s' e Hr IH Hs]; intros i v es2 es1 E.
    - destruct es2; discriminate.
    - destruct e as [e|].
      + destruct es2 as [|x es2]; simpl in E; injection E as -> E.
        * subst es1. pose proof (know_time _ _ Hr) as Ht. destruct (take_step _ _ _ _ _ _ _ _ Hs) as [H1 H2].
          rewrite <- Ht. split; [exact H1|]. rewrite H2. discriminate.
        * destruct (IH _ _ _ _ E) as [H1 H2]. split; [eapply know_step; eauto|]. intros Hp.
          destruct (call_step _ _ _ _ _ _ _ i Hs Hp) as [[H3 E3]|E3]; rewrite E3; auto.
      + destruct (IH _ _ _ _ E) as [H1 H2]. split; [eapply know_step; eauto|]. intros Hp.
        destruct (call_step _ _ _ _ _ _ _ i Hs Hp) as [[H3 E3]|E3]; rewrite E3; auto.
  Qed.

  Lemma nth_take (es : list event) n : n < count is_take es ->
    exists j v es2 es1, es = es2 ++ Take j v :: es1 /\ count is_take es1 = n.
  Proof.
    induction es as [|e es IH]; simpl; intros H; [lia|].
    destruct (Nat.eq_dec n (count is_take es)) as [->|Hn].
    - destruct e; simpl in H; try lia. eexists _, _, [], es. split; [reflexivity|reflexivity].
    - destruct IH as (j & v & es2 & es1 & -> & E); [destruct (is_take e); lia|]. exists j, v, (e :: es2), es1. auto.
  Qed.

  (** Empty is not returned to a caller that has seen all dequeues and the completion of the oldest element. *)
  Lemma weak_not_empty es s a s' i : run es s -> few_pushes es -> weak_step P pol o s a = Some (s', Some (RetEmpty i)) ->
    (forall j v es2 es1, es = es2 ++ Take j v :: es1 -> known (w_call s i) es1) ->
    forall v es2 es1, completes (count is_take es) v es2 es1 es -> ~ known (w_call s i) es1.
  Proof.
    intros Hr Hf Hs Ht v es2 es1 Hc Hk. destruct (weak_empty _ _ _ _ _ Hr Hf Hs) as (n & Hn & H1 & H2).
    destruct (Nat.eq_dec n (count is_take es)) as [->|Hne]; [exact (H1 _ _ _ Hc Hk)|].
    destruct (nth_take es n) as (j & w & e2 & e1 & E & En); [lia|]. exact (H2 _ _ _ _ E En (Ht _ _ _ _ E)).
  Qed.

  Lemma weak_single es s a s' i : run es s -> few_pushes es -> weak_step P pol o s a = Some (s', Some (RetEmpty i)) ->
    (forall j v, In (Take j v) es -> j = i) ->
    forall v es2 es1, completes (count is_take es) v es2 es1 es -> ~ known (w_call s i) es1.
  Proof.
    intros Hr Hf Hs H1. apply (weak_not_empty _ _ _ _ _ Hr Hf Hs). intros j v es2 es1 E.
    assert (j = i) as -> by (apply (H1 j v); rewrite E; apply in_or_app; right; left; reflexivity).
    destruct (know_own _ _ Hr _ _ _ _ E) as [_ H]. apply H. eapply empty_step; eauto.
  Qed.
End Facts.
