(** How a step of the ring on weak memory changes views and modification orders. *)
From Coq Require Import List Bool Arith NArith Lia.
From Coq Require Import ZifyN ZifyNat ZifyBool.
From Verif Require Import Word QueueSpec CoreModel WeakModel WeakInv WeakFacts History.
Import ListNotations.

Definition knows_le (a b : view) : Prop := forall t, v_know a t = true -> v_know b t = true.

(** Whose event it is, for the events that matter here. *)
Definition doer {T} (e : event T) : option agent :=
  match e with Reserve j | Take j _ | Commit j _ | Release j _ => Some j | _ => None end.

Section Shape.
  Context {T : Type}.
  Variables (P : params) (pol : policy T) (o : orders).
  Hypothesis Hrmw : o_rmw o = true.
  Hypothesis Hdrop : o_drop o = true.
  Notation wstate := (@wstate T).
  Notation event := (event T).

  (** Views put together from those of agents and values in [s]; the modification orders of tail and head are
      [nt] and [nh] long. *)
  Inductive built (s : wstate) (nt nh : nat) : view -> Prop :=
  | b_agent j : built s nt nh (w_views s j)
  | b_tail m : In m (w_tails s) -> built s nt nh (m_view m)
  | b_head m : In m (w_heads s) -> built s nt nh (m_view m)
  | b_state k m : In m (w_states s k) -> built s nt nh (m_view m)
  | b_zero : built s nt nh view0
  | b_join a b : built s nt nh a -> built s nt nh b -> built s nt nh (join a b)
  | b_saw_tail v k : built s nt nh v -> v_tail v <= k < nt -> built s nt nh (saw_tailw v k)
  | b_saw_head v k : built s nt nh v -> v_head v <= k < nh -> built s nt nh (saw_head v k)
  | b_saw_state v i k : built s nt nh v -> built s nt nh (saw_state v i k)
  | b_saw_value v i k : built s nt nh v -> built s nt nh (saw_value v i k).

  (** The modification order [l'] is [l], or [l] and one more value [w] written by a read-modify-write. *)
  Definition extends (l l' : list msg) (w : N) (seen : nat) (v1 V : view) (must : Prop) : Prop :=
    (l' = l /\ ~ must) \/ (l' = l ++ [mkM w (join V (last_view l))] /\ length l <= seen /\ knows_le (last_view l) v1).

  Definition shape (s s' : wstate) (i : agent) (oe : option event) : Prop :=
    (forall e j, oe = Some e -> doer e = Some j -> j = i) /\
    exists v1, built s (length (w_tails s')) (length (w_heads s')) v1 /\ knows_le (w_views s i) v1 /\
      (forall j, w_views s' j = updv (w_views s) i (with_event v1 oe (w_time s)) j) /\
      extends (w_tails s) (w_tails s') (c_tail (w_core s')) (v_tail v1) v1 (with_event v1 oe (w_time s)) (exists j, oe = Some (Reserve j)) /\
      extends (w_heads s) (w_heads s') (c_head (w_core s')) (v_head v1) v1 (with_event v1 oe (w_time s)) (exists j v, oe = Some (Take j v)) /\
      (forall k m, In m (w_states s' k) -> In m (w_states s k) \/ m_view m = with_event v1 oe (w_time s)).

  Lemma built_last_tails s nt nh : built s nt nh (last_view (w_tails s)).
  Proof. unfold last_view. destruct (nth_error _ _) eqn:E; [|constructor]. apply b_tail. eapply nth_error_In; eauto. Qed.
  Lemma built_last_heads s nt nh : built s nt nh (last_view (w_heads s)).
  Proof. unfold last_view. destruct (nth_error _ _) eqn:E; [|constructor]. apply b_head. eapply nth_error_In; eauto. Qed.
  Lemma built_acquire s nt nh b v m : built s nt nh v -> built s nt nh m -> built s nt nh (acquire b v m).
  Proof. intros H1 H2. destruct b; cbn [acquire]; auto. now apply b_join. Qed.

  Lemma know_acq b v m : knows_le v (acquire b v m).
  Proof. intros t H. destruct b; cbn; auto. now rewrite H. Qed.
  Lemma know_event v (e : option event) t : knows_le v (with_event v e t).
  Proof. intros t' H. now apply know_with. Qed.

  Lemma cstep_event c i p spur c' p' e : cstep P pol c i p spur = (c', p', e) ->
    (forall x j, e = Some x -> doer x = Some j -> j = i) /\
    ((exists j, e = Some (Reserve j)) -> exists t, p = PCas t /\ spur = false) /\
    ((exists j v, e = Some (Take j v)) -> exists h b, p = QCas h b /\ spur = false).
  Proof.
    intros H. destruct p; cbn [cstep] in H; unfold push_top in H;
      destruct (negb (N.land (c_tail c) (p_closed P) =? 0)%N), spur; rewrite ?andb_false_r in H;
      repeat match type of H with context [match ?x with _ => _ end] => destruct x end;
      injection H as <- <- <-; (split; [|split]);
      try (intros x j E1 E2; inversion E1; subst x; cbn in E2; congruence);
      try (intros [j E]; inversion E; eauto; fail);
      try (intros [j [v E]]; inversion E; eauto; fail).
  Qed.

  Lemma shape_local s i p v e : built s (length (w_tails s)) (length (w_heads s)) v -> knows_le (w_views s i) v ->
    (forall x j, e = Some x -> doer x = Some j -> j = i) ->
    (~ exists j, e = Some (Reserve j)) -> (~ exists j v, e = Some (Take j v)) -> shape s (local s i p v e) i e.
  Proof.
    intros H1 H2 H3 H4 H5. split; [exact H3|]. exists v. split; [exact H1|]. split; [exact H2|].
    split; [reflexivity|]. split; [left; auto|]. split; [left; auto|]. auto.
  Qed.

  Lemma shape_race s i s' e : Some (race s i) = Some (s', e) -> shape s s' i e.
  Proof.
    intros H. injection H as <- <-. apply shape_local; [constructor|intros t; auto|..].
    - intros x j E. injection E as <-. discriminate.
    - intros [j E]. discriminate.
    - intros (j & v & E). discriminate.
  Qed.

  Lemma shape_load_tail s i p k acq s' e : load_tail P pol s i p k acq = Some (s', e) -> shape s s' i e.
  Proof.
    unfold load_tail. destruct (readable _ _ _) as [m|] eqn:Er; [|discriminate]. apply readable_inv in Er as [Hk Hm].
    destruct (cstep _ _ _ _ _ _) as [[c' p'] e'] eqn:E. intros H. injection H as <- <-.
    apply cstep_event in E as (E1 & E2 & E3). apply shape_local; auto.
    - apply built_acquire; [apply b_saw_tail; [constructor|split; [exact Hk|apply nth_error_Some; congruence]]|]. apply b_tail. eapply nth_error_In; eauto.
    - intros t Ht. now apply know_acq.
    - intros H. destruct (E2 H) as (t & _ & Hf). discriminate.
    - intros H. destruct (E3 H) as (t & b & _ & Hf). discriminate.
  Qed.
  Lemma shape_load_head s i p k acq s' e : load_head P pol s i p k acq = Some (s', e) -> shape s s' i e.
  Proof.
    unfold load_head. destruct (readable _ _ _) as [m|] eqn:Er; [|discriminate]. apply readable_inv in Er as [Hk Hm].
    destruct (cstep _ _ _ _ _ _) as [[c' p'] e'] eqn:E. intros H. injection H as <- <-.
    apply cstep_event in E as (E1 & E2 & E3). apply shape_local; auto.
    - apply built_acquire; [apply b_saw_head; [constructor|split; [exact Hk|apply nth_error_Some; congruence]]|]. apply b_head. eapply nth_error_In; eauto.
    - intros t Ht. now apply know_acq.
    - intros H. destruct (E2 H) as (t & _ & Hf). discriminate.
    - intros H. destruct (E3 H) as (t & b & _ & Hf). discriminate.
  Qed.
  Lemma shape_load_state s i p w k acq s' e : load_state P pol s i p w k acq = Some (s', e) -> shape s s' i e.
  Proof.
    unfold load_state. destruct (readable _ _ _) as [m|] eqn:Er; [|discriminate]. apply readable_inv in Er as [Hk Hm].
    destruct (cstep _ _ _ _ _ _) as [[c' p'] e'] eqn:E. intros H. injection H as <- <-.
    apply cstep_event in E as (E1 & E2 & E3). apply shape_local; auto.
    - apply built_acquire; [apply b_saw_state; constructor|]. eapply b_state. eapply nth_error_In; eauto.
    - intros t Ht. now apply know_acq.
    - intros H. destruct (E2 H) as (t & _ & Hf). discriminate.
    - intros H. destruct (E3 H) as (t & b & _ & Hf). discriminate.
  Qed.

  (** The element's access count is the only thing that changes. *)
  Definition touched (s s1 : wstate) (i : agent) : Prop :=
    w_heads s1 = w_heads s /\ w_tails s1 = w_tails s /\ w_states s1 = w_states s /\ w_time s1 = w_time s /\
    (forall nt nh, built s nt nh (w_views s1 i)) /\ v_tail (w_views s1 i) = v_tail (w_views s i) /\
    v_head (w_views s1 i) = v_head (w_views s i) /\ knows_le (w_views s i) (w_views s1 i) /\
    (forall j, w_views s1 j = updv (w_views s) i (w_views s1 i) j).
  Lemma access_touched s i k s1 : access s i k = Some s1 -> touched s s1 i.
  Proof.
    unfold access. destruct (Nat.eqb _ _); [|discriminate]. intros H. injection H as <-. unfold touched. cbn [w_heads w_tails w_states w_time w_views].
    rewrite updv_same. repeat (split; [reflexivity|]). split; [intros nt nh; apply b_saw_value; constructor|]. split; [reflexivity|]. split; [reflexivity|]. split; [intros t; auto|reflexivity].
  Qed.

  Lemma shape_views s s1 i v V j : touched s s1 i -> V = v -> updv (w_views s1) i v j = updv (w_views s) i V j.
  Proof.
    intros (_ & _ & _ & _ & _ & _ & _ & _ & H) ->. unfold updv. destruct (Nat.eqb_spec j i); auto. rewrite H. unfold updv.
    now rewrite (proj2 (Nat.eqb_neq j i)).
  Qed.

  (** The next two need that no agent has seen more of a modification order than there is. *)
  Definition inside (s : wstate) (v : view) : Prop := v_tail v < length (w_tails s) /\ v_head v < length (w_heads s).
  Definition bounded (s : wstate) : Prop :=
    (forall i, inside s (w_views s i)) /\ inside s (last_view (w_tails s)) /\ inside s (last_view (w_heads s)).

  Lemma shape_rmw_tail s i c p e : v_tail (acquire true (w_views s i) (last_view (w_tails s))) <= length (w_tails s) ->
    (forall x j, e = Some x -> doer x = Some j -> j = i) -> (~ exists j v, e = Some (Take j v)) ->
    shape s (rmw_tail o s i c p (w_views s i) e) i e.
  Proof.
    intros Hb H3 H5. split; [exact H3|]. unfold rmw_tail. rewrite Hrmw. cbn [w_views w_tails w_heads w_states w_core].
    exists (saw_tailw (acquire true (w_views s i) (last_view (w_tails s))) (length (w_tails s))).
    split; [apply b_saw_tail; [apply built_acquire; [constructor|apply built_last_tails]|split; [exact Hb|rewrite app_length; cbn; lia]]|].
    split; [intros t Ht; apply (know_acq true), Ht|].
    split; [reflexivity|]. split; [|split; [left; auto|auto]].
    right. split; [reflexivity|]. split; [cbn; lia|]. intros t Ht. cbn. rewrite Ht. apply orb_true_r.
  Qed.
  Lemma shape_rmw_head s s1 i c p e : touched s s1 i ->
    v_head (acquire true (w_views s1 i) (last_view (w_heads s))) <= length (w_heads s) ->
    (forall x j, e = Some x -> doer x = Some j -> j = i) -> (~ exists j, e = Some (Reserve j)) ->
    shape s (rmw_head o s1 i c p (w_views s1 i) e) i e.
  Proof.
    intros Ht Hb H3 H5. pose proof Ht as (E1 & E2 & E3 & E4 & Hbu & _ & _ & Hkn & _). split; [exact H3|].
    unfold rmw_head. rewrite Hrmw, E1, E2, E3, E4. cbn [w_views w_tails w_heads w_states w_core].
    exists (saw_head (acquire true (w_views s1 i) (last_view (w_heads s))) (length (w_heads s))).
    split; [apply b_saw_head; [apply built_acquire; [apply Hbu|apply built_last_heads]|split; [exact Hb|rewrite app_length; cbn; lia]]|].
    split; [intros t Hk; apply (know_acq true), Hkn, Hk|].
    split; [intros j; now apply shape_views|]. split; [left; auto|]. split; [|auto].
    right. split; [reflexivity|]. split; [cbn; lia|]. intros t Hk. cbn. rewrite Hk. apply orb_true_r.
  Qed.
  Lemma shape_touch s s1 i c p e : touched s s1 i ->
    (forall x j, e = Some x -> doer x = Some j -> j = i) -> (~ exists j, e = Some (Reserve j)) -> (~ exists j v, e = Some (Take j v)) ->
    shape s (local (mkWS c (w_heads s1) (w_tails s1) (w_states s1) (w_acc s1) (w_pcs s1) (w_views s1) (w_call s1) (w_time s1))
                   i p (w_views s1 i) e) i e.
  Proof.
    intros Ht H3 H4 H5. pose proof Ht as (E1 & E2 & E3 & E4 & Hbu & _ & _ & Hkn & _). split; [exact H3|]. exists (w_views s1 i).
    split; [apply Hbu|]. split; [exact Hkn|]. unfold local. cbn [w_views w_tails w_heads w_states w_core w_time].
    rewrite E1, E2, E3, E4. split; [intros j; now apply shape_views|]. split; [left; auto|]. split; [left; auto|]. auto.
  Qed.

  Lemma touched_refl s i : touched s s i.
  Proof.
    unfold touched. repeat (split; [reflexivity|]). split; [constructor|]. repeat (split; [reflexivity|]). split; [intros t; auto|].
    intros j. unfold updv. destruct (Nat.eqb_spec j i); now subst.
  Qed.

  Lemma bounded_tail s i : bounded s -> v_tail (acquire true (w_views s i) (last_view (w_tails s))) <= length (w_tails s).
  Proof. intros (H1 & [H2 _] & _). destruct (H1 i) as [H3 _]. cbn. lia. Qed.
  Lemma bounded_head s s1 i : bounded s -> touched s s1 i -> v_head (acquire true (w_views s1 i) (last_view (w_heads s))) <= length (w_heads s).
  Proof. intros (H1 & _ & [_ H2]) (_ & _ & _ & _ & _ & _ & E & _). destruct (H1 i) as [_ H3]. cbn. rewrite E. lia. Qed.

  Lemma wstep_shape s i k spur s' e : bounded s -> wstep P pol o s i k spur = Some (s', e) -> shape s s' i e.
  Proof.
    intros Hb. unfold wstep. intros H. destruct (w_pcs s i) eqn:Ep; try discriminate;
      try (now apply shape_load_tail in H); try (now apply shape_load_head in H); try (now apply shape_load_state in H).
    - destruct (_ && _)%bool; [|now apply shape_load_tail in H].
      destruct (cstep _ _ _ _ _ _) as [[c' p'] e'] eqn:E. injection H as <- <-. apply cstep_event in E as (E1 & E2 & E3).
      apply shape_rmw_tail; auto; [now apply bounded_tail|]. intros H. destruct (E3 H) as (h1 & b1 & Hx & _). discriminate.
    - destruct (access s i _) as [s1|] eqn:Ea; [|now apply shape_race]. apply access_touched in Ea.
      destruct (cstep _ _ _ _ _ _) as [[c' p'] e'] eqn:E. injection H as <- <-. apply cstep_event in E as (E1 & E2 & E3).
      apply shape_touch; auto; intros H; [destruct (E2 H) as (h1 & Hx & _)|destruct (E3 H) as (h1 & b1 & Hx & _)]; discriminate.
    - destruct (cstep _ _ _ _ _ _) as [[c' p'] e'] eqn:E. injection H as <- <-. apply cstep_event in E as (E1 & E2 & E3).
      apply shape_rmw_head; auto; [apply touched_refl|apply bounded_head; auto; apply touched_refl|]. intros H. destruct (E2 H) as (h1 & Hx & _). discriminate.
    - destruct (_ && _)%bool; [|now apply shape_load_head in H].
      destruct (access s i _) as [s1|] eqn:Ea; [|now apply shape_race]. apply access_touched in Ea.
      destruct (cstep _ _ _ _ _ _) as [[c' p'] e'] eqn:E. injection H as <- <-. apply cstep_event in E as (E1 & E2 & E3).
      apply shape_rmw_head; auto; [now apply bounded_head|]. intros H. destruct (E2 H) as (h1 & Hx & _). discriminate.
    - destruct (cstep _ _ _ _ _ _) as [[c' p'] e'] eqn:E. injection H as <- <-. apply cstep_event in E as (E1 & E2 & E3).
      apply shape_rmw_tail; auto; [now apply bounded_tail|]. intros H. destruct (E3 H) as (h1 & b1 & Hx & _). discriminate.
  Qed.

  Lemma shape_store s i r e s' oe : doer e = Some i \/ doer e = None ->
    match e with Reserve _ | Take _ _ => false | _ => true end = true ->
    Some (store_state o s i r e) = Some (s', oe) -> shape s s' i oe.
  Proof.
    intros Hd He. unfold store_state. destruct (Nat.eqb _ _); [|apply shape_race]. rewrite Hdrop. intros H. injection H as <- <-.
    split. { intros x j E Ed. injection E as <-. destruct Hd; congruence. }
    exists (saw_state (w_views s i) (r_idx r) (length (w_states s (r_idx r)))).
    split; [apply b_saw_state; constructor|]. split; [intros t; auto|]. split; [reflexivity|].
    split; [left; split; [reflexivity|]; intros [j E]; injection E as ->; discriminate|].
    split; [left; split; [reflexivity|]; intros (j & v & E); injection E as ->; discriminate|].
    intros k m. cbn [w_states]. destruct (N.eqb_spec k (r_idx r)) as [->|]; auto. intros Hin.
    apply in_app_or in Hin as [Hin|[<-|[]]]; auto.
  Qed.

  Lemma step_shape s a s' oe : bounded s -> weak_step P pol o s a = Some (s', oe) -> shape s s' (WeakFacts.actor a) oe.
  Proof.
    intros Hb. destruct a as [i op|i k spur|i v|i|i|i pa|i j]; cbn [WeakFacts.actor]; intros H; cbn [weak_step] in H.
    - destruct (w_pcs s i); try discriminate. injection H as <- <-. split.
      { intros x j E. injection E as <-. discriminate. }
      exists (w_views s i). split; [constructor|]. split; [intros t; auto|]. split; [reflexivity|].
      split; [left; split; [reflexivity|intros [j E]; discriminate]|]. split; [left; split; [reflexivity|intros (j & v & E); discriminate]|]. auto.
    - now apply wstep_shape in H.
    - destruct (w_pcs s i) as [| | | | | | |r| | | | | | |r| | | | ]; try discriminate;
        (destruct (access s i (r_idx r)) as [s1|] eqn:Ea; [|now apply shape_race]); apply access_touched in Ea;
        injection H as <- <-; (apply shape_touch; auto; [intros x j E; injection E as <-; discriminate|intros [j E]; discriminate|intros (j & u & E); discriminate]).
    - destruct (w_pcs s i) as [| | | | | | |r| | | | | | |r| | | | ]; try discriminate;
        apply shape_store in H; auto; destruct (s_value _); cbn; auto.
    - destruct (w_pcs s i); try discriminate. injection H as <- <-.
      apply shape_local; [constructor|intros t; auto|intros x j E; injection E as <-; discriminate|intros [j E]; discriminate|intros (j & u & E); discriminate].
    - destruct (w_pcs s i); try discriminate. destruct (core_close _ _ _) as [c' b]. destruct pa; injection H as <- <-.
      + apply shape_local; [constructor|intros t; auto|intros x j E; injection E as <-; discriminate|intros [j E]; discriminate|intros (j & u & E); discriminate].
      + apply shape_rmw_tail; [now apply bounded_tail|intros x j E; injection E as <-; discriminate|intros (j & u & E); discriminate].
    - injection H as <- <-. split; [discriminate|]. exists (join (w_views s j) (w_views s i)).
      split; [apply b_join; constructor|]. split; [intros t Ht; cbn; now rewrite Ht|]. split; [reflexivity|].
      split; [left; split; [reflexivity|intros [x E]; discriminate]|]. split; [left; split; [reflexivity|intros (x & v & E); discriminate]|]. auto.
  Qed.

  (** Where the three steps of len come from. *)
  Lemma cstep_len c i p spur c' p' e : cstep P pol c i p spur = (c', p', e) ->
    (forall t, p' = LHead t -> p = LTail) /\ (forall t h, p' = LCheck t h -> p = LHead t) /\
    (forall j n, e = Some (RetLen j n) -> exists t h, p = LCheck t h).
  Proof.
    intros H. destruct p; cbn [cstep] in H; unfold push_top in H;
      destruct (negb (N.land (c_tail c) (p_closed P) =? 0)%N), spur; rewrite ?andb_false_r in H;
      repeat match type of H with context [match ?x with _ => _ end] => destruct x end;
      injection H as <- <- <-; (split; [|split]); intros; try discriminate; try congruence; eauto.
  Qed.
End Shape.
