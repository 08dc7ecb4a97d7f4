(** The order in which reservations and dequeues become visible on weak memory. *)
From Coq Require Import List Bool Arith NArith Lia.
From Coq Require Import ZifyN ZifyNat ZifyBool.
From Verif Require Import Word QueueSpec CoreModel CoreArith CoreInv RingSpec HistoryFacts RingFacts ChainFacts WeakModel WeakSpec
  WeakInv WeakStep WeakDrop WeakFacts WeakLenStep History.
Import ListNotations.

(** ** Positions in a history *)
Section Marks.
  Context {T : Type}.
  Notation event := (event T).
  (** [m e es1 p]: the event [e] after the history [es1] is the one in question for position [p]. *)
  Definition mark := event -> list event -> nat -> Prop.
  Definition at_pos (m : mark) (es : list event) (t p : nat) : Prop :=
    exists es2 e es1, es = es2 ++ e :: es1 /\ length es1 = t /\ m e es1 p.

  Definition mR : mark := fun e es1 p => is_reserve e = true /\ count is_reserve es1 = p.
  Definition mT : mark := fun e es1 p => is_take e = true /\ count is_take es1 = p.
  Definition mC : mark := fun e es1 p => exists j v, e = Commit j v /\ last_is j (reservers es1) p = true.
  Definition mL : mark := fun e es1 p => exists j v, e = Release j v /\ last_is j (takers es1) p = true.

  Lemma at_pos_lt m es t p : at_pos m es t p -> t < length es.
  Proof. intros (es2 & e & es1 & -> & <- & _). rewrite app_length. simpl. lia. Qed.
  Lemma at_pos_cons m e es t p : at_pos m (e :: es) t p -> (t = length es /\ m e es p) \/ at_pos m es t p.
  Proof.
    intros (es2 & x & es1 & E & Hl & Hm). destruct es2 as [|y es2]; simpl in E; injection E as -> E.
    - subst. auto.
    - right. exists es2, x, es1. auto.
  Qed.
  Lemma at_pos_old m e es t p : at_pos m es t p -> at_pos m (e :: es) t p.
  Proof. intros (es2 & x & es1 & -> & Hl & Hm). exists (e :: es2), x, es1. auto. Qed.
  Lemma at_pos_back m e es t p : at_pos m (e :: es) t p -> t < length es -> at_pos m es t p.
  Proof. intros H Ht. apply at_pos_cons in H as [[-> _]|H]; auto. lia. Qed.

  Lemma count_app f (a b : list event) : count f (a ++ b) = count f a + count f b.
  Proof. induction a; simpl; auto. lia. Qed.
  Lemma pos_R_lt es t p : at_pos mR es t p -> p < count is_reserve es.
  Proof. intros (es2 & e & es1 & -> & _ & He & <-). rewrite count_app. simpl. rewrite He. lia. Qed.
  Lemma pos_T_lt es t p : at_pos mT es t p -> p < count is_take es.
  Proof. intros (es2 & e & es1 & -> & _ & He & <-). rewrite count_app. simpl. rewrite He. lia. Qed.
  Lemma pos_C_lt es t p : at_pos mC es t p -> p < count is_reserve es.
  Proof.
    intros (es2 & e & es1 & -> & _ & j & v & -> & Hl). rewrite count_app. simpl.
    apply last_is_bound in Hl. rewrite reservers_length in Hl. lia.
  Qed.
  Lemma pos_L_lt es t p : at_pos mL es t p -> p < count is_take es.
  Proof.
    intros (es2 & e & es1 & -> & _ & j & v & -> & Hl). rewrite count_app. simpl.
    apply last_is_bound in Hl. rewrite takers_length in Hl. lia.
  Qed.
  Lemma pos_R_ex (es : list event) p : p < count is_reserve es -> exists t, at_pos mR es t p.
  Proof.
    induction es as [|e es IH]; simpl; intros H; [lia|].
    destruct (Nat.eq_dec p (count is_reserve es)) as [->|Hn].
    - exists (length es), [], e, es. repeat split; auto. destruct (is_reserve e); auto; lia.
    - destruct IH as [t Ht]; [destruct (is_reserve e); lia|]. exists t. now apply at_pos_old.
  Qed.
  Lemma pos_T_ex (es : list event) p : p < count is_take es -> exists t, at_pos mT es t p.
  Proof.
    induction es as [|e es IH]; simpl; intros H; [lia|].
    destruct (Nat.eq_dec p (count is_take es)) as [->|Hn].
    - exists (length es), [], e, es. repeat split; auto. destruct (is_take e); auto; lia.
    - destruct IH as [t Ht]; [destruct (is_take e); lia|]. exists t. now apply at_pos_old.
  Qed.

  (** Who made the [p]-th reservation, and the [p]-th dequeue. *)
  Lemma pos_R_who es t p j : at_pos mR es t p -> nth_error (reservers es) p = Some j ->
    exists es2 es1, es = es2 ++ Reserve j :: es1 /\ length es1 = t.
  Proof.
    revert t p. induction es as [|e es IH]; intros t p H Hn; [destruct p; discriminate|].
    assert (Hold : nth_error (reservers es) p = Some j -> at_pos mR es t p ->
      exists es2 es1, e :: es = es2 ++ Reserve j :: es1 /\ length es1 = t).
    { intros H1 H2. destruct (IH _ _ H2 H1) as (es2 & es1 & -> & E). exists (e :: es2), es1. auto. }
    apply at_pos_cons in H as [[-> [He Hc]]|H].
    - destruct e; try discriminate. cbn [reservers] in Hn. rewrite <- Hc, <- reservers_length, nth_snoc in Hn.
      injection Hn as ->. exists [], es. auto.
    - apply Hold; auto. pose proof (pos_R_lt _ _ _ H) as Hlt.
      destruct e; cbn [reservers] in Hn; auto. rewrite nth_error_app1 in Hn; auto. now rewrite reservers_length.
  Qed.
  Lemma pos_T_who es t p j : at_pos mT es t p -> nth_error (takers es) p = Some j ->
    exists es2 v es1, es = es2 ++ Take j v :: es1 /\ length es1 = t.
  Proof.
    revert t p. induction es as [|e es IH]; intros t p H Hn; [destruct p; discriminate|].
    assert (Hold : nth_error (takers es) p = Some j -> at_pos mT es t p ->
      exists es2 v es1, e :: es = es2 ++ Take j v :: es1 /\ length es1 = t).
    { intros H1 H2. destruct (IH _ _ H2 H1) as (es2 & v & es1 & -> & E). exists (e :: es2), v, es1. auto. }
    apply at_pos_cons in H as [[-> [He Hc]]|H].
    - destruct e; try discriminate. cbn [takers] in Hn. rewrite <- Hc, <- takers_length, nth_snoc in Hn.
      injection Hn as ->. exists [], v, es. auto.
    - apply Hold; auto. pose proof (pos_T_lt _ _ _ H) as Hlt.
      destruct e; cbn [takers] in Hn; auto. rewrite nth_error_app1 in Hn; auto. now rewrite takers_length.
  Qed.
  Lemma last_is_nth i l n : last_is i l n = true -> nth_error l n = Some i.
  Proof. unfold last_is. destruct (nth_error l n); [|discriminate]. intros H. apply andb_prop in H as [H _]. apply Nat.eqb_eq in H. congruence. Qed.
End Marks.

(** ** What is visible together *)
Section Vis.
  Context {T : Type}.
  Variable cap : nat.
  Notation event := (event T).
  Notation mark := (@mark T).

  (** Whoever knows the event [m1] of position [p] knows the event [m2] of position [p'] (which is earlier). *)
  Inductive rule : mark -> (nat -> nat -> Prop) -> mark -> Prop :=
  | r_RR : rule mR (fun p p' => p' < p) mR
  | r_TT : rule mT (fun p p' => p' < p) mT
  | r_TR : rule mT (fun p p' => p' = p) mR
  | r_RT : rule mR (fun p p' => p = p' + cap) mT
  | r_CR : rule mC (fun p p' => p' = p) mR
  | r_LT : rule mL (fun p p' => p' = p) mT.

  Record VC (es : list event) (tp hp : list nat) (V : view) : Prop := {
    vc_old : forall t, v_know V t = true -> t < length es;
    vc_rule : forall m1 R m2 t p t' p', rule m1 R m2 -> at_pos m1 es t p -> v_know V t = true ->
      R p p' -> at_pos m2 es t' p' -> v_know V t' = true;
    vc_tail : forall t p k n, v_know V t = true -> at_pos mR es t p -> v_tail V <= k -> nth_error tp k = Some n -> p < n;
    vc_head : forall t p k n, v_know V t = true -> at_pos mT es t p -> v_head V <= k -> nth_error hp k = Some n -> p < n;
    vc_bt : v_tail V < length tp;
    vc_bh : v_head V < length hp }.

  Lemma vc_zero es tp hp : 0 < length tp -> 0 < length hp -> VC es tp hp view0.
  Proof. intros H1 H2. constructor; cbn; intros; auto; discriminate. Qed.
  Lemma vc_join es tp hp a b : VC es tp hp a -> VC es tp hp b -> VC es tp hp (join a b).
  Proof.
    intros [A1 A2 A3 A4 A5 A6] [B1 B2 B3 B4 B5 B6]. constructor; cbn.
    - intros t H. apply orb_prop in H as []; auto.
    - intros m1 R m2 t p t' p' Hr Hp H HR Hp'. apply orb_prop in H as [H|H]; apply orb_true_iff; [left|right]; eauto.
    - intros t p k n H Hp Hk Hn. apply orb_prop in H as [H|H]; [apply (A3 t p k n)|apply (B3 t p k n)]; auto; lia.
    - intros t p k n H Hp Hk Hn. apply orb_prop in H as [H|H]; [apply (A4 t p k n)|apply (B4 t p k n)]; auto; lia.
    - lia.
    - lia.
  Qed.
  Lemma vc_saw_tail es tp hp v k : VC es tp hp v -> v_tail v <= k -> k < length tp -> VC es tp hp (saw_tailw v k).
  Proof. intros [A1 A2 A3 A4 A5 A6] Hk Hl. constructor; cbn; auto. intros t p j n H Hp Hj Hn. apply (A3 t p j n); auto. lia. Qed.
  Lemma vc_saw_head es tp hp v k : VC es tp hp v -> v_head v <= k -> k < length hp -> VC es tp hp (saw_head v k).
  Proof. intros [A1 A2 A3 A4 A5 A6] Hk Hl. constructor; cbn; auto. intros t p j n H Hp Hj Hn. apply (A4 t p j n); auto. lia. Qed.
  Lemma vc_saw_state es tp hp v i k : VC es tp hp v -> VC es tp hp (saw_state v i k).
  Proof. intros [A1 A2 A3 A4 A5 A6]. constructor; auto. Qed.
  Lemma vc_saw_value es tp hp v i k : VC es tp hp v -> VC es tp hp (saw_value v i k).
  Proof. intros [A1 A2 A3 A4 A5 A6]. constructor; auto. Qed.

  (** Nothing that is already known says something about the new event [e]. *)
  Definition orderly (es : list event) : Prop := count is_take es <= count is_reserve es <= count is_take es + cap.
  Lemma rule_past m1 R m2 es e t p p' : orderly es -> rule m1 R m2 -> at_pos m1 es t p -> m2 e es p' -> ~ R p p'.
  Proof.
    intros [H1 H2] Hr Hp Hm HR. destruct Hr; destruct Hm as [He Hc]; cbn beta in HR.
    - apply pos_R_lt in Hp. lia.
    - apply pos_T_lt in Hp. lia.
    - apply pos_T_lt in Hp. lia.
    - apply pos_R_lt in Hp. lia.
    - apply pos_C_lt in Hp. lia.
    - apply pos_L_lt in Hp. lia.
  Qed.

  (** More has happened, but [V] has not seen it; the modification orders [tp] and [hp] got longer, by
      values that are as new as the history. *)
  Definition longer (l l' : list nat) (new : nat) : Prop := l' = l \/ l' = l ++ [new].
  Lemma vc_longer es tp hp tp' hp' nr nt V : count is_reserve es <= nr -> count is_take es <= nt ->
    longer tp tp' nr -> longer hp hp' nt -> VC es tp hp V -> VC es tp' hp' V.
  Proof.
    intros Hnr Hnt Ht Hh [A1 A2 A3 A4 A5 A6]. constructor; auto.
    - intros t p k n H Hp Hk Hn. pose proof (pos_R_lt _ _ _ Hp) as Hlt. destruct Ht as [->| ->]; [eauto|].
      destruct (Nat.lt_ge_cases k (length tp)) as [Hl|Hl]; [rewrite nth_error_app1 in Hn by auto; eauto|].
      rewrite nth_error_app2 in Hn by auto. destruct (k - length tp) as [|[]]; cbn in Hn; try discriminate. injection Hn as <-. lia.
    - intros t p k n H Hp Hk Hn. pose proof (pos_T_lt _ _ _ Hp) as Hlt. destruct Hh as [->| ->]; [eauto|].
      destruct (Nat.lt_ge_cases k (length hp)) as [Hl|Hl]; [rewrite nth_error_app1 in Hn by auto; eauto|].
      rewrite nth_error_app2 in Hn by auto. destruct (k - length hp) as [|[]]; cbn in Hn; try discriminate. injection Hn as <-. lia.
    - destruct Ht as [->| ->]; auto. rewrite app_length. lia.
    - destruct Hh as [->| ->]; auto. rewrite app_length. lia.
  Qed.
  Lemma vc_older e es tp hp V : orderly es -> VC es tp hp V -> VC (e :: es) tp hp V.
  Proof.
    intros Ho [A1 A2 A3 A4 A5 A6]. constructor; auto.
    - intros t H. apply A1 in H. simpl. lia.
    - intros m1 R m2 t p t' p' Hr Hp H HR Hp'. pose proof (A1 _ H) as Hlt. apply at_pos_back in Hp; [|exact Hlt].
      apply at_pos_cons in Hp' as [[-> Hm]|Hp']; [|eauto]. exfalso. exact (rule_past _ _ _ _ _ _ _ _ Ho Hr Hp Hm HR).
    - intros t p k n H Hp Hk Hn. apply at_pos_back in Hp; eauto.
    - intros t p k n H Hp Hk Hn. apply at_pos_back in Hp; eauto.
  Qed.

  (** A view that has seen the new event [e]. *)
  Lemma vc_event e es tp hp V : orderly es -> VC es tp hp V ->
    (forall m1 R m2 p t' p', rule m1 R m2 -> m1 e es p -> R p p' -> at_pos m2 es t' p' -> v_know V t' = true) ->
    (forall k n, is_reserve e = true -> v_tail V <= k -> nth_error tp k = Some n -> count is_reserve es < n) ->
    (forall k n, is_take e = true -> v_head V <= k -> nth_error hp k = Some n -> count is_take es < n) ->
    VC (e :: es) tp hp (saw_event V (length es)).
  Proof.
    intros Ho HV Hrule Ht Hh. pose proof (vc_older e es tp hp V Ho HV) as [A1 A2 A3 A4 A5 A6]. pose proof HV as [C1 C2 C3 C4 C5 C6].
    constructor; cbn [saw_event v_know v_tail v_head]; auto.
    - intros t H. apply orb_prop in H as [H|H]; auto. apply Nat.eqb_eq in H. subst. simpl. lia.
    - intros m1 R m2 t p t' p' Hr Hp H HR Hp'. apply orb_true_iff. apply at_pos_cons in Hp' as [[-> Hm]|Hp'].
      { left. apply Nat.eqb_refl. }
      right. apply at_pos_cons in Hp as [[-> Hm]|Hp]; [eauto|]. apply orb_prop in H as [H|H]; [|eauto].
      apply Nat.eqb_eq in H. apply at_pos_lt in Hp. lia.
    - intros t p k n H Hp Hk Hn. apply at_pos_cons in Hp as [[-> [He <-]]|Hp]; [eauto|]. apply orb_prop in H as [H|H]; [|eauto].
      apply Nat.eqb_eq in H. apply at_pos_lt in Hp. lia.
    - intros t p k n H Hp Hk Hn. apply at_pos_cons in Hp as [[-> [He <-]]|Hp]; [eauto|]. apply orb_prop in H as [H|H]; [|eauto].
      apply Nat.eqb_eq in H. apply at_pos_lt in Hp. lia.
  Qed.

  (** [V] has seen the first [n] reservations; the first [n] dequeues. *)
  Definition seesR (es : list event) (V : view) (n : nat) : Prop := forall t p, at_pos mR es t p -> p < n -> v_know V t = true.
  Definition seesT (es : list event) (V : view) (n : nat) : Prop := forall t p, at_pos mT es t p -> p < n -> v_know V t = true.
  Lemma seesR_mono es V V' n : knows_le V V' -> seesR es V n -> seesR es V' n.
  Proof. intros H1 H2 t p Hp Hl. eauto. Qed.
  Lemma seesT_mono es V V' n : knows_le V V' -> seesT es V n -> seesT es V' n.
  Proof. intros H1 H2 t p Hp Hl. eauto. Qed.
  Lemma seesR_cons e es V n : n <= count is_reserve es -> seesR es V n -> seesR (e :: es) V n.
  Proof. intros Hn H t p Hp Hl. apply at_pos_cons in Hp as [[-> [_ <-]]|Hp]; [lia|eauto]. Qed.
  Lemma seesT_cons e es V n : n <= count is_take es -> seesT es V n -> seesT (e :: es) V n.
  Proof. intros Hn H t p Hp Hl. apply at_pos_cons in Hp as [[-> [_ <-]]|Hp]; [lia|eauto]. Qed.
End Vis.
