(** Ordinary memory of the wait queue on weak memory: every access follows all earlier ones. *)
From Coq Require Import List Bool Arith NArith Lia.
From Verif Require Import WaitCellModel WaitList WaitListSpec WaitListFacts WaitQueueModel WaitQueueSpec WaitQueueFacts WaitQueueSafety
  WaitQueueWake WaitQueueStored WeakQueueModel WeakQueueFacts WeakQueueInv WeakQueueMove.
Import ListNotations.
(** The owner of a waiter, at [p] in phase [ph], knows that nobody else uses it. *)
Definition knows (p : qpc) (ph : phase) : Prop :=
  match p with
  | SUnlock Wait | SRet Wait | CUpd _ => False
  | SUnlock _ | SRet _ | DEmpty | DUnlock | DFree => True
  | _ => ph <> PWaiting
  end.

Lemma knows_out es y n : QInv es y -> LiveInv es y -> knows (q_pc y n) (q_phase y n) -> ~ In n (members es y).
Proof.
  intros HI [HL1 HL2] Hk Hin. pose proof (HL1 n Hin) as Hg. unfold members in Hin. destruct (window y) as [m|] eqn:Ew.
  - destruct Hin as [->|Hin].
    + specialize (HL2 n eq_refl). destruct (q_pc y n); try match goal with r : wait_result |- _ => destruct r end; simpl in *; try contradiction; congruence.
    + pose proof (I_node _ _ HI n) as Hn. destruct (q_pc y n), (q_phase y n); try match goal with r : wait_result |- _ => destruct r end; simpl in *; try tauto; try congruence; intuition congruence.
  - pose proof (I_node _ _ HI n) as Hn. destruct (q_pc y n), (q_phase y n); try match goal with r : wait_result |- _ => destruct r end; simpl in *; try tauto; try congruence; intuition congruence.
Qed.

Definition covers (s : wqueue) (v : qview) (x : option nat) : Prop := qv_data v x = wq_data s x.

(** Ordinary memory. *)
Record DI (es : list qevent) (s : wqueue) : Prop := {
  D_list : covers s (Lv s) None;
  D_mem : forall n, In n (members es (wq_sys s)) -> covers s (Lv s) (Some n);
  D_all : forall n, covers s (Lv s) (Some n) \/ covers s (wq_views s n) (Some n);
  D_own : forall n, knows (q_pc (wq_sys s) n) (q_phase (wq_sys s) n) -> covers s (wq_views s n) (Some n);
  D_carry : forall k n, carries (q_pc (wq_sys s) k) = Some n -> half (q_pc (wq_sys s) k) = None -> qv_node (wq_views s k) n = last_index (wq_nodes s n) ->
     covers s (wq_views s k) (Some n) \/ knows (q_pc (wq_sys s) n) (q_phase (wq_sys s) n);
  D_wakes : forall n u, wq_wakes s n = Some u -> qv_node u n = last_index (wq_nodes s n) -> covers s u (Some n) \/ knows (q_pc (wq_sys s) n) (q_phase (wq_sys s) n);
  D_woken : forall n, wq_woken s n = last_index (wq_nodes s n) -> covers s (wq_views s n) (Some n)
}.

Record Dv (es : list qevent) (s s' : wqueue) (i : nat) (e : option qevent) (q : list (option nat)) (v0 : qview) : Prop := {
  V_acc : forall n, In (Some n) q -> (holds (q_pc (wq_sys s) i) = true /\ In n (members es (wq_sys s))) \/
     (n = i /\ (knows (q_pc (wq_sys s') i) (q_phase (wq_sys s') i) \/ n_state (q_heap (wq_sys s) i) = Q_WAITING));
  V_own : In (Some i) q -> holds (q_pc (wq_sys s) i) = true \/ knows (q_pc (wq_sys s') i) (q_phase (wq_sys s') i);
  V_none : In None q -> holds (q_pc (wq_sys s) i) = true;
  V_know : knows (q_pc (wq_sys s') i) (q_phase (wq_sys s') i) -> knows (q_pc (wq_sys s) i) (q_phase (wq_sys s) i) \/ In (Some i) q \/ e = Some (EPeek i) \/
     holds (q_pc (wq_sys s) i) = true;
  V_lose : knows (q_pc (wq_sys s) i) (q_phase (wq_sys s) i) -> knows (q_pc (wq_sys s') i) (q_phase (wq_sys s') i) \/ n_state (q_heap (wq_sys s) i) = Q_WAITING;
  V_peek : e = Some (EPeek i) -> wq_woken s i = last_index (wq_nodes s i);
  V_mem : forall n, In n (members (app_ev e es) (wq_sys s')) -> In n (members es (wq_sys s)) \/ (In (Some n) q /\ holds (q_pc (wq_sys s) i) = true);
  V_half : forall n, half (q_pc (wq_sys s) i) = Some n -> In (Some n) q;
  V_race : forall x, In x q -> covers s v0 x;
  V_live : LiveInv es (wq_sys s); V_live' : LiveInv (app_ev e es) (wq_sys s')
}.

Section MoveD.
  Variables (es : list qevent) (s s' : wqueue) (i : nat) (e : option qevent) (q : list (option nat)) (v0 : qview).
  Hypothesis HM : Mv es s s' i e q v0.
  Let y := wq_sys s.
  Let y' := wq_sys s'.

  Lemma covers_le v v' x : covers s v x -> vle v v' -> vle v' (top s') -> ~ In x q -> covers s' v' x.
  Proof.
    unfold covers. intros H (_ & _ & H1) (_ & _ & H2) Hn. specialize (H1 x). specialize (H2 x). cbn [top qv_data] in H2.
    rewrite (W_data _ _ _ _ _ _ (M_step _ _ _ _ _ _ _ HM)) in *. destruct (touched q x) eqn:Et; [apply touched_in in Et; contradiction|]. lia.
  Qed.

  Lemma Lv_top : vle (Lv s') (top s').
  Proof. unfold Lv. destruct (q_lock (wq_sys s')); [apply (B_view _ (M_b' _ _ _ _ _ _ _ HM))|apply (B_lockv _ (M_b' _ _ _ _ _ _ _ HM))]. Qed.

  Lemma covers_new x : In x q -> covers s' (wq_views s' i) x.
  Proof. intros H. apply (W_seen _ _ _ _ _ _ (M_step _ _ _ _ _ _ _ HM)). now apply touched_in. Qed.

  Lemma in_dec_q x : In x q \/ ~ In x q.
  Proof. destruct (in_dec (fun a b : option nat => ltac:(decide equality; apply Nat.eq_dec)) x q); auto. Qed.

  (** Whoever learnt that [n] was taken for good is not contradicted by a later access. *)
  Lemma late n : NI s -> LiveInv es y -> (forall m, In (Some m) q -> (holds (q_pc y i) = true /\ In m (members es y)) \/
     (m = i /\ (knows (q_pc y' i) (q_phase y' i) \/ n_state (q_heap y i) = Q_WAITING))) ->
    In (Some n) q -> forall k, k = last_index (wq_nodes s n) -> nth_error (wq_nodes s n) k <> Some Q_WAITING -> (window y = Some n -> k <> last_index (wq_nodes s n)) ->
    n = i /\ knows (q_pc y' n) (q_phase y' n).
  Proof.
    intros HN HL Hacc Hq k -> Hk Hw. pose proof (N_new _ HN n) as Hnew. fold y in Hnew. pose proof (M_I _ _ _ _ _ _ _ HM) as HI. fold y in HI.
    assert (Hst : n_state (q_heap y n) <> Q_WAITING) by congruence.
    destruct (Hacc n Hq) as [[_ Hin]|(-> & [?|?])]; [|auto|contradiction].
    exfalso. unfold members in Hin. destruct (window y) as [m|] eqn:Ew; [destruct Hin as [->|Hin]|].
    - apply Hw; [congruence|reflexivity].
    - apply Hst, (I_wait _ _ HI n Hin).
    - apply Hst, (I_wait _ _ HI n Hin).
  Qed.

  Lemma di_step : NI s -> Dv es s s' i e q v0 -> DI es s -> DI (app_ev e es) s' /\ wq_races s' = wq_races s.
  Proof.
    intros HN [V1 V2 V3 V4 V4' V5 V6 V8 V9 HL HL'] [D1 D2 D3 D4 D5 D6 D7]. fold y y' in V1, V2, V3, V4, V4', V6, V8, HL, HL'. fold y in D2, D4, D5, D6.
    pose proof HM as [HW HB HB' HI HI' Hpc Hph _ _ _ _ _ Hn Hc Hwk]. fold y y' in HI, HI', Hpc, Hph, Hn, Hc, Hwk.
    pose proof (Lv_le _ _ _ _ _ _ _ HM) as HLle. pose proof (Lv_holds _ _ _ _ _ _ _ HM) as HLh. fold y in HLh.
    pose proof (mv_view _ _ _ _ _ _ _ HM) as Hvle. pose proof Lv_top as HLt. pose proof (B_view _ HB') as Hvt.
    pose proof (late) as Hlate.
    assert (Hnode : forall n, wq_nodes s' n = wq_nodes s n \/ (last_index (wq_nodes s n) < last_index (wq_nodes s' n) /\ wq_woken s' = wq_woken s /\ wq_wakes s' = wq_wakes s)).
    { intros n. pose proof (last_lt _ (B_nodes _ HB n)). destruct Hn as [(H1 & _)|(m & H1 & H2 & _ & _ & _ & _ & _ & _ & H3 & H4)]; [auto|].
      destruct (Nat.eq_dec n m) as [->|Hm]; [right; rewrite H1, last_app; split; [lia|auto]|left; auto]. }
    assert (Hkn : forall n, knows (q_pc y n) (q_phase y n) -> n <> i -> knows (q_pc y' n) (q_phase y' n)) by (intros n H Hne; rewrite Hpc, Hph by exact Hne; exact H).
    (* what the owner knew it still knows, or it is about to wait *)
    split; [|apply (W_races _ _ _ _ _ _ HW); exact V9].
    assert (Hown : forall n, knows (q_pc y' n) (q_phase y' n) -> covers s' (wq_views s' n) (Some n)).
    { intros n Hk. destruct (in_dec_q (Some n)) as [Hq|Hq].
      - destruct (Nat.eq_dec n i) as [->|Hni]; [apply covers_new; exact Hq|]. exfalso.
        destruct (V1 n Hq) as [[_ Hin]|[? _]]; [|contradiction]. rewrite Hpc, Hph in Hk by exact Hni. exact (knows_out _ _ _ HI HL Hk Hin).
      - apply (covers_le (wq_views s n)); auto. destruct (Nat.eq_dec n i) as [->|Hni]; [|apply D4; rewrite <- Hpc, <- Hph by exact Hni; exact Hk].
        destruct (V4 Hk) as [?|[?|[He|Hh]]]; [auto|contradiction|apply D7; auto|].
        destruct (D3 i) as [Hx|Hx]; [|exact Hx]. unfold Lv in Hx. apply (I_lock _ _ HI) in Hh. fold y in Hx. rewrite Hh in Hx. exact Hx. }
    assert (Hlast : forall n v, v <= last_index (wq_nodes s n) -> v = last_index (wq_nodes s' n) -> v = last_index (wq_nodes s n) /\ wq_nodes s' n = wq_nodes s n).
    { intros n v H1 H2. destruct (Hnode n) as [He|[Hlt _]]; [rewrite He in *; auto|lia]. }
    (* a view that saw the newest state of [n] *)
    assert (Hsee : forall n v v', qv_node v n = last_index (wq_nodes s n) -> nth_error (wq_nodes s n) (qv_node v n) <> Some Q_WAITING ->
       (window y = Some n -> qv_node v n <> last_index (wq_nodes s n)) -> (covers s v (Some n) \/ knows (q_pc y n) (q_phase y n)) ->
       vle v v' -> vle v' (top s') -> covers s' v' (Some n) \/ knows (q_pc y' n) (q_phase y' n)).
    { intros n v v' H1 H2 H3 H4 H5 H6. destruct (in_dec_q (Some n)) as [Hq|Hq].
      - right. eapply Hlate; eauto.
      - destruct H4 as [H4|H4]; [left; eapply covers_le; eauto|].
        destruct (Nat.eq_dec n i) as [->|Hni]; [|right; auto]. destruct (V4' H4) as [?|Hst]; [auto|].
        exfalso. apply H2. rewrite H1, (N_new _ HN i). fold y. congruence. }
    constructor; fold y'.
    - destruct (in_dec_q None) as [Hq|Hq].
      + unfold covers. rewrite (HLh (V3 Hq)). apply covers_new, Hq.
      + apply (covers_le (Lv s)); auto.
    - intros n Hin. destruct (in_dec_q (Some n)) as [Hq|Hq].
      + destruct (V1 n Hq) as [[Hh _]|[-> _]]; [unfold covers; rewrite (HLh Hh); apply covers_new, Hq|].
        destruct (V2 Hq) as [Hh|Hk]; [unfold covers; rewrite (HLh Hh); apply covers_new, Hq|].
        destruct (knows_out _ _ _ HI' HL' Hk Hin).
      + destruct (V6 n Hin) as [Ho|[? _]]; [|contradiction]. apply (covers_le (Lv s)); auto.
    - intros n. destruct (in_dec_q (Some n)) as [Hq|Hq].
      + destruct (V1 n Hq) as [[Hh _]|[-> _]]; [left; unfold covers; rewrite (HLh Hh); apply covers_new, Hq|].
        right. apply covers_new, Hq.
      + destruct (D3 n) as [Hx|Hx]; [left; apply (covers_le (Lv s)); auto|right; apply (covers_le (wq_views s n)); auto].
    - exact Hown.
    - intros k n Hk Hh Hl. destruct (Nat.eq_dec k i) as [->|Hki].
      + destruct (Hc n Hk) as [?|[G1 G2]]; [congruence|]. rewrite G2 in Hl.
        destruct (half (q_pc y i)) as [m|] eqn:Em.
        * assert (m = n). { clear - G1 Em. destruct (q_pc y i); simpl in *; try discriminate; congruence. } subst m. left. apply covers_new, V8. reflexivity.
        * destruct (Hlast n _ (proj1 (proj2 (B_view _ HB i)) n) Hl) as [Hl' _].
          apply (Hsee n (wq_views s i)); auto; [apply (N_carry _ HN); exact G1|]. intros Hwin. apply (N_win _ HN n Hwin); assumption.
      + rewrite (W_views _ _ _ _ _ _ HW k Hki) in *. rewrite (Hpc k Hki) in Hk, Hh.
        destruct (Hlast n _ (proj1 (proj2 (B_view _ HB k)) n) Hl) as [Hl' _].
        apply (Hsee n (wq_views s k)); auto; [apply (N_carry _ HN); exact Hk|intros Hwin; apply (N_win _ HN n Hwin); assumption|apply vle_refl|].
        rewrite <- (W_views _ _ _ _ _ _ HW k Hki). apply Hvt.
    - intros n u Hu Hl. pose proof (B_wakes _ HB' _ _ Hu) as Hut.
      destruct (W_wakes _ _ _ _ _ _ HW n) as [K|[K|(w & K1 & K)]]; rewrite K in Hu; [|discriminate|].
      + destruct (Hlast n _ (proj1 (proj2 (B_wakes _ HB _ _ Hu)) n) Hl) as [Hl' _].
        apply (Hsee n u); auto; [exact (N_wakes _ HN _ _ Hu)|intros Hwin; apply (N_win _ HN n Hwin); assumption|apply vle_refl].
      + destruct (Hwk n w K1) as (G1 & G2 & G3).
        assert (Hcase : forall v, (v = wq_views s' i \/ wq_wakes s n = Some v) -> qv_node v n = last_index (wq_nodes s' n) -> vle v u -> covers s' u (Some n) \/ knows (q_pc y' n) (q_phase y' n)).
        { intros v [->|Hv] Hvl Hvu.
          - rewrite G3 in Hvl. destruct (Hlast n _ (proj1 (proj2 (B_view _ HB i)) n) Hvl) as [Hl' _].
            apply (Hsee n (wq_views s i)); auto; [apply (N_carry _ HN); exact G1|intros Hwin; apply (N_win _ HN n Hwin); assumption|].
            eapply vle_trans; [apply Hvle|exact Hvu].
          - destruct (Hlast n _ (proj1 (proj2 (B_wakes _ HB _ _ Hv)) n) Hvl) as [Hl' _].
            apply (Hsee n v); auto; [exact (N_wakes _ HN _ _ Hv)|intros Hwin; apply (N_win _ HN n Hwin); assumption]. }
        destruct (wq_wakes s n) as [u0|] eqn:Eu; injection Hu as <-.
        * cbn [qv_join qv_node] in Hl. destruct (Nat.max_spec (qv_node u0 n) (qv_node (wq_views s' i) n)) as [[_ E]|[_ E]]; rewrite E in Hl.
          -- apply (Hcase (wq_views s' i)); auto. apply vle_join_r.
          -- apply (Hcase u0); auto. apply vle_join_l.
        * apply (Hcase (wq_views s' i)); auto. apply vle_refl.
    - intros n Hl. assert (Hcase : forall k v, k = last_index (wq_nodes s' n) -> k <= last_index (wq_nodes s n) -> (v = wq_views s n \/ vle v v0 /\ n = i) ->
        nth_error (wq_nodes s n) k <> Some Q_WAITING -> (window y = Some n -> k <> last_index (wq_nodes s n)) -> (k = last_index (wq_nodes s n) -> covers s v (Some n) \/ knows (q_pc y n) (q_phase y n)) ->
        covers s' (wq_views s' n) (Some n)).
      { intros k v H1 H2 H3 H4 H5 H6. destruct (Hlast n k H2 H1) as [H7 _]. destruct (in_dec_q (Some n)) as [Hq|Hq].
        - destruct (Hlate n HN HL V1 Hq k H7 H4 H5) as [-> _]. apply covers_new, Hq.
        - destruct (H6 H7) as [Hv|Hv].
          + apply (covers_le v); auto. destruct H3 as [->|[H3 ->]]; [apply Hvle|]. eapply vle_trans; [exact H3|apply (W_le _ _ _ _ _ _ HW)].
          + apply (covers_le (wq_views s n)); auto. }
      destruct (W_woken _ _ _ _ _ _ HW n) as [K|(-> & u & Hu & K & Hu0)]; rewrite K in Hl.
      + apply (Hcase (wq_woken s n) (wq_views s n)); auto; [apply (B_woken _ HB)|apply (N_woken _ HN)|intros Hwin; apply (N_win _ HN n Hwin)].
      + destruct (Nat.max_spec (wq_woken s i) (qv_node u i)) as [[_ E]|[_ E]]; rewrite E in Hl.
        * apply (Hcase (qv_node u i) u); auto; [apply (B_wakes _ HB _ _ Hu)|exact (N_wakes _ HN _ _ Hu)|intros Hwin; apply (N_win _ HN i Hwin); assumption].
        * apply (Hcase (wq_woken s i) (wq_views s i)); auto; [apply (B_woken _ HB)|apply (N_woken _ HN)|intros Hwin; apply (N_win _ HN i Hwin)].
  Qed.
End MoveD.

(** ** The steps and the calls do this. *)
Lemma k_touch es y i n : QInv es y -> In (Some n) (touches y i) ->
  (holds (q_pc y i) = true /\ In n (members es y)) \/ (n = i /\ (n_state (q_heap y i) = Q_WAITING \/ (exists w, q_pc y i = SNode w) \/ q_pc y i = DFree \/ q_pc y i = DRemove)).
Proof.
  intros HI. pose proof (I_node _ _ HI i) as Hn. unfold touches.
  assert (Hm : forall x : nat, forall l, In (Some x) (map Some l) -> In x l) by (intros x l H; apply in_map_iff in H; destruct H as (z & Hz & H); injection Hz as ->; exact H).
  destruct (q_pc y i) eqn:E; simpl in Hn; try (intros []; fail); intros Hin.
  - destruct Hin as [Hin|[]]. injection Hin as <-. right. eauto 6.
  - destruct Hin as [Hin|[Hin|Hin]]; [discriminate|injection Hin as <-; right; split; [reflexivity|left; apply Hn]|].
    apply Hm in Hin. unfold enqueue_touches in Hin. destruct (l_head (q_list y)) as [x|] eqn:Eh; [|destruct Hin]. destruct Hin as [<-|[]].
    left. split; [reflexivity|]. exact (rep_head_in _ _ _ _ (I_rep _ _ HI) Eh).
  - destruct Hin as [Hin|[]]. injection Hin as <-. right. split; [reflexivity|]. left. apply Hn.
  - destruct Hin as [Hin|[]]; discriminate.
  - destruct Hin as [Hin|Hin]; [discriminate|]. apply Hm in Hin. left. split; [reflexivity|].
    assert (Hk : In n0 (members es y)). { unfold members, window. rewrite (proj1 (I_lock _ _ HI i)) by (now rewrite E). rewrite E. now left. }
    destruct Hin as [<-|Hin]; [exact Hk|]. destruct (n_prev (q_heap y n0)) as [p|] eqn:Ep; [|destruct Hin]. destruct Hin as [<-|[]].
    exact (rep_prev_in _ _ _ _ _ (I_rep _ _ HI) Hk Ep).
  - destruct Hin as [Hin|[]]; discriminate.
  - destruct Hin as [Hin|[]]; discriminate.
  - destruct Hin as [Hin|Hin]; [discriminate|]. apply Hm in Hin. left. split; [reflexivity|].
    assert (Hk : In n0 (members es y)). { unfold members, window. rewrite (proj1 (I_lock _ _ HI i)) by (now rewrite E). rewrite E. now left. }
    destruct Hin as [<-|Hin]; [exact Hk|]. destruct (n_prev (q_heap y n0)) as [p|] eqn:Ep; [|destruct Hin]. destruct Hin as [<-|[]].
    exact (rep_prev_in _ _ _ _ _ (I_rep _ _ HI) Hk Ep).
  - destruct Hin as [Hin|Hin]; [discriminate|]. apply Hm in Hin. destruct Hin as [<-|Hin]; [right; auto 6|].
    left. split; [reflexivity|]. destruct (in_dec Nat.eq_dec i (members es y)) as [Hk|Hk].
    + apply in_app_or in Hin. destruct Hin as [Hin|Hin].
      * destruct (n_prev (q_heap y i)) as [p|] eqn:Ep; [|destruct Hin]. destruct Hin as [<-|[]]. exact (rep_prev_in _ _ _ _ _ (I_rep _ _ HI) Hk Ep).
      * destruct (n_next (q_heap y i)) as [p|] eqn:Ep; [|destruct Hin]. destruct Hin as [<-|[]]. exact (rep_next_in _ _ _ _ _ (I_rep _ _ HI) Hk Ep).
    + destruct (I_det _ _ HI i Hk) as [K1 K2]. rewrite K1, K2 in Hin. destruct Hin.
  - destruct Hin as [Hin|[]]; discriminate.
  - destruct Hin as [Hin|[]]. injection Hin as <-. right. auto 6.
Qed.

Lemma k_none y i : In None (touches y i) -> holds (q_pc y i) = true.
Proof.
  unfold touches. destruct (q_pc y i); simpl; try reflexivity; try (intros []; fail); intros [H|[]]; discriminate.
Qed.

Lemma k_know debug es y i spur y' e : QInv es y -> qstep debug y i spur = Some (y', e) -> knows (q_pc y' i) (q_phase y' i) ->
  knows (q_pc y i) (q_phase y i) \/ In (Some i) (touches y i) \/ e = Some (EPeek i) \/ holds (q_pc y i) = true.
Proof.
  intros HI Hs. pose proof (I_node _ _ HI i) as Hn. unfold touches. qcases Hs E y i; unfold with_pc, with_mem, with_phase, with_state, with_lock; cbn [q_pc q_phase]; rewrite ?pset_same, ?E in *; cbn [holds knows]; auto 6; intros Hk.
  all: try (left; exact Hk); try (left; destruct r; simpl in *; auto; fail).
  all: try (right; left; now left).
  all: try (destruct r; simpl in *; auto; congruence).
  all: try (left; simpl in Hn; destruct Hn as [[Hn|Hn] _]; rewrite Hn; discriminate).
Qed.

Lemma k_lose debug es y i spur y' e : QInv es y -> qstep debug y i spur = Some (y', e) -> e <> Some (EUb i) -> knows (q_pc y i) (q_phase y i) -> knows (q_pc y' i) (q_phase y' i) \/ n_state (q_heap y i) = Q_WAITING.
Proof.
  intros HI Hs Hub. pose proof (I_node _ _ HI i) as Hn. pose proof (proj2 (qinv_step _ _ _ _ _ _ _ HI Hs Hub)) as Hf.
  qcases Hs E y i; unfold with_pc, with_mem, with_phase, with_state, with_lock; cbn [q_pc q_phase]; rewrite ?pset_same, ?E in *; simpl in Hn; cbn [knows]; auto.
  all: try (destruct Hf as [? Hf]; [reflexivity|discriminate]).
  all: try (destruct Hub; reflexivity).
  all: try (intros _; right; apply Hn).
  all: try (intros Hk; left; exact Hk).
  all: try (destruct r; simpl; auto; intros _; left; try discriminate; destruct (q_phase y i); discriminate).
  all: try (intros _; right; eqs; destruct (n_state (q_heap y i)); auto; fail).
  all: try (intros Hk; destruct o as [[? ?]|]; left; exact Hk).
  all: try (intros Hk; exfalso; destruct Hn as [[Hp|Hp] Hn]; [congruence|]; rewrite Hp in Hn; destruct Hn as [Hn _]; rewrite Hn in C; discriminate).
  all: left; discriminate.
Qed.

Lemma k_mem debug es y i spur y' e n : QInv es y -> QInv (app_ev e es) y' -> qstep debug y i spur = Some (y', e) -> e <> Some (EUb i) -> In n (members (app_ev e es) y') ->
  In n (members es y) \/ (In (Some n) (touches y i) /\ holds (q_pc y i) = true).
Proof.
  intros HI HI' Hs Hub Hin. destruct (qstep_agent _ _ _ _ _ _ Hs) as (_ & Hpc & _).
  assert (Hw : In n (waiting (app_ev e es)) -> In n (waiting es) \/ (In (Some n) (touches y i) /\ holds (q_pc y i) = true)).
  { destruct e as [x|]; [|auto]. simpl app_ev. intros Hw. destruct x; simpl in Hw; auto; try (apply without_in in Hw; left; tauto).
    apply in_app_or in Hw. destruct Hw as [|[<-|[]]]; [auto|]. right. clear - Hs.
    assert (Hp : i0 = i /\ exists w, q_pc y i = SEnq w).
    { unfold qstep, s_dispatch, n_dispatch, failed, undefined in Hs. destruct (q_pc y i) eqn:E; [discriminate|..];
      repeat match type of Hs with
      | context [if ?b then _ else _] => destruct b eqn:?
      | context [match q_lock ?b with Some _ => _ | None => _ end] => destruct (q_lock b) eqn:?
      | context [match l_tail ?b with Some _ => _ | None => _ end] => destruct (l_tail b) eqn:?
      | context [let '(_, _) := ?b in _] => destruct b as [[? ?] ?] eqn:? || destruct b as [? ?] eqn:?
      end; try discriminate. injection Hs as _ <- _. eauto. }
    destruct Hp as (-> & w0 & Hp). unfold touches. rewrite Hp. split; [right; now left|reflexivity]. }
  assert (Hsub : In n (waiting es) -> In n (members es y)) by (unfold members; destruct (window y); [right|]; auto).
  unfold members in Hin. destruct (window y') as [m|] eqn:Ew; [|destruct (Hw Hin); auto].
  destruct Hin as [->|Hin]; [|destruct (Hw Hin); auto]. left. unfold window in Ew. destruct (q_lock y') as [k|] eqn:El; [|discriminate].
  destruct (Nat.eq_dec k i) as [->|Hk].
  - assert (Hst : exists st, e = Some (ESwap i n st)).
    { clear - Hs Ew. qcases Hs E y i; unfold with_pc, with_mem, with_phase, with_state, with_lock in Ew; cbn [q_pc] in Ew; rewrite ?pset_same in Ew; try discriminate Ew; try congruence; try (rewrite E in Ew; discriminate).
      all: try (repeat match type of Ew with half (match ?o with _ => _ end) = _ => destruct o end; discriminate).
      all: injection Ew as ->; eauto. }
    destruct Hst as [st ->]. destruct (qstep_states _ _ _ _ _ _ _ HI Hs Hub) as [(n' & st' & q & He & _ & Hq & _)|[Hno _]]; [|destruct (Hno _ _ eq_refl)].
    injection He as <- <-. apply Hsub. rewrite Hq. now left.
  - rewrite (Hpc k Hk) in Ew. pose proof (half_holds _ _ Ew) as Hh. apply (I_lock _ _ HI) in Hh. unfold members, window. rewrite Hh, Ew. now left.
Qed.

Lemma stale_facts G es y i p' : QInv es y -> stale G es y i p' ->
  holds p' = holds (q_pc y i) /\ half (q_pc y i) = None /\ half p' = None /\ (knows p' (q_phase y i) -> knows (q_pc y i) (q_phase y i) \/ holds (q_pc y i) = true) /\
  (knows (q_pc y i) (q_phase y i) -> knows p' (q_phase y i)) /\ (forall x, In x (touches y i) -> x = None).
Proof.
  intros HI Hs. pose proof (I_node _ _ HI i) as Hn. unfold touches. inversion Hs as [w E E'|w E Hc E'|w p E Hc Hp E'|w E Hc E'|w E Hq Hc E'|v E Hv E'|v E H1 H2 Hc E'|w E E'|E E']; subst p'.
  all: try (destruct Hp as [-> | ->]).
  all: try (destruct E as [E|[E|E]]); try (destruct E as [E|[u E]]); rewrite E in *; simpl in Hn |- *.
  all: repeat (split; [reflexivity|]).
  all: try (split; [auto|split; [auto|intros x []]]; fail).
  all: try (split; [intros _; left; destruct Hn as [[K|K] _]; rewrite K; discriminate|split; [auto|intros x []]]).
Qed.

(** A step of an agent. *)
Lemma step_dv G debug es s s' i e : Mv es s s' i e (touches (wq_sys s) i) (wq_views s i) -> sim G debug es (wq_sys s) i (wq_sys s') e -> e <> Some (EUb i) ->
  LiveInv es (wq_sys s) -> LiveInv (app_ev e es) (wq_sys s') -> DI es s -> (e = Some (EPeek i) -> wq_woken s i = last_index (wq_nodes s i)) ->
  Dv es s s' i e (touches (wq_sys s) i) (wq_views s i).
Proof.
  intros HM Hsim Hub HL HL' HD Hpk. set (y := wq_sys s) in *. set (y' := wq_sys s') in *.
  pose proof (M_I _ _ _ _ _ _ _ HM) as HI. pose proof (M_I' _ _ _ _ _ _ _ HM) as HI'. fold y in HI. fold y' in HI'.
  assert (Hf : (knows (q_pc y' i) (q_phase y' i) -> knows (q_pc y i) (q_phase y i) \/ In (Some i) (touches y i) \/ e = Some (EPeek i) \/ holds (q_pc y i) = true) /\
     (knows (q_pc y i) (q_phase y i) -> knows (q_pc y' i) (q_phase y' i) \/ n_state (q_heap y i) = Q_WAITING) /\
     (forall n, In n (members (app_ev e es) y') -> In n (members es y) \/ (In (Some n) (touches y i) /\ holds (q_pc y i) = true)) /\
     (forall n, In (Some n) (touches y i) -> (exists w, q_pc y i = SNode w) \/ q_pc y i = DFree \/ q_pc y i = DRemove -> n = i -> (exists w, q_pc y i = SNode w) \/ knows (q_pc y' i) (q_phase y' i))).
  { destruct Hsim as [(spur & Hs)|(-> & p' & Hst & Hy)].
    - split; [exact (k_know _ _ _ _ _ _ _ HI Hs)|]. split; [exact (k_lose _ _ _ _ _ _ _ HI Hs Hub)|]. split; [intros n; exact (k_mem _ _ _ _ _ _ _ _ HI HI' Hs Hub)|].
      intros n _ Hp _. destruct Hp as [?|Hp]; [auto|right]. pose proof (proj2 (qinv_step _ _ _ _ _ _ _ HI Hs Hub)) as Hfail.
      clear - Hs Hp Hub Hfail. unfold qstep in Hs. destruct Hp as [Hp|Hp]; rewrite Hp in *.
      + injection Hs as <- <-. cbn [with_phase with_pc q_pc q_phase]. rewrite !pset_same. discriminate.
      + destruct (forallb (live y) (remove_touches (q_heap y) i)); [|injection Hs as <- <-; destruct Hub; reflexivity].
        destruct (list_remove (q_heap y) (q_list y) i) as [[h' l'] ok]. destruct (debug && negb ok).
        * unfold failed in Hs. injection Hs as _ <-. destruct Hfail as [? K]; [reflexivity|discriminate].
        * injection Hs as <- <-. cbn [with_mem with_pc q_pc q_phase]. rewrite !pset_same. exact I.
    - destruct (stale_facts _ _ _ _ _ HI Hst) as (F1 & F2 & F3 & F4 & F5 & F6).
      assert (Hpi : q_pc y' i = p' /\ q_phase y' i = q_phase y i) by (rewrite Hy; cbn [with_pc q_pc q_phase]; rewrite pset_same; auto). destruct Hpi as [-> ->].
      split; [intros Hk; destruct (F4 Hk); auto|]. split; [auto|]. split.
      + simpl app_ev. intros n Hin. left. replace (members es y) with (members es y'); [exact Hin|]. rewrite Hy. unfold members, window, with_pc. cbn [q_lock q_pc].
        destruct (q_lock y) as [k|]; [|reflexivity]. unfold pset. destruct (Nat.eqb_spec k i) as [->|]; [|reflexivity]. rewrite F2, F3. reflexivity.
      + intros n Hn. discriminate (F6 _ Hn). }
  destruct Hf as (F1 & F2 & F3 & F4).
  assert (Hph : (exists w, q_pc y i = SNode w) -> knows (q_pc y' i) (q_phase y' i)).
  { intros [w Hw]. destruct (F2) as [K|K]; [rewrite Hw; pose proof (I_node _ _ HI i) as Hn; rewrite Hw in Hn; simpl in Hn |- *; destruct Hn as [[K|K] _]; rewrite K; discriminate|exact K|].
    exfalso. pose proof (I_node _ _ HI i) as Hn; rewrite Hw in Hn; simpl in Hn. destruct Hn as [[Hn|Hn] Hr]; rewrite Hn in Hr; simpl in Hr; destruct Hr as [Hr _]; rewrite Hr in K; discriminate. }
  assert (HLv : holds (q_pc y i) = true -> Lv s = wq_views s i) by (intros Hh; apply (I_lock _ _ HI) in Hh; unfold Lv; fold y; now rewrite Hh).
  constructor; fold y y'; auto.
  - intros n Hq. destruct (k_touch _ _ _ _ HI Hq) as [?|(-> & [K|K])]; [auto|auto|]. right. split; [reflexivity|]. left.
    destruct (F4 i Hq K eq_refl); auto.
  - intros Hq. destruct (k_touch _ _ _ _ HI Hq) as [[? _]|(_ & [K|K])]; [auto| |].
    + assert (Hor : holds (q_pc y i) = true \/ q_pc y i = DFree) by (unfold touches in Hq; destruct (q_pc y i) eqn:E; auto; destruct Hq).
      destruct Hor as [?|E]; [auto|]. destruct (F4 i Hq (or_intror (or_introl E)) eq_refl) as [[w Hw]|?]; [congruence|auto].
    + destruct (F4 i Hq K eq_refl); auto.
  - apply k_none.
  - intros n Hh. unfold touches. destruct (q_pc y i); simpl in Hh; try discriminate; injection Hh as ->; right; now left.
  - intros x Hx. destruct x as [n|].
    + destruct (k_touch _ _ _ _ HI Hx) as [[Hh Hin]|(-> & K)].
      * rewrite <- (HLv Hh). apply (D_mem _ _ HD). exact Hin.
      * destruct (holds (q_pc y i)) eqn:Eh.
        -- rewrite <- (HLv eq_refl). destruct (D_all _ _ HD i) as [?|Hc]; [assumption|]. unfold covers in *. now rewrite (HLv eq_refl).
        -- apply (D_own _ _ HD). fold y. unfold touches in Hx. destruct (q_pc y i) eqn:E; try discriminate Eh; try (destruct Hx; fail). exact I.
    + rewrite <- (HLv (k_none _ _ Hx)). apply (D_list _ _ HD).
Qed.

(** A call. *)
Lemma call_dv debug es s a sync s' e : Bounded s -> QInv es (wq_sys s) -> QInv (app_ev e es) (wq_sys s') -> NI s -> DI es s ->
  LiveInv es (wq_sys s) -> LiveInv (app_ev e es) (wq_sys s') ->
  call debug s a sync = Some (s', e) -> wq_hasty s' = [] -> exists v0, Mv es s s' (call_agent a) e (ev_touches e) v0 /\ Dv es s s' (call_agent a) e (ev_touches e) v0.
Proof.
  intros HB HI HI' HN HD HL HL' Hc Hh. destruct (call_mv _ _ _ _ _ _ _ HB HI HI' Hc) as [v1 HM1].
  destruct (call_spec _ _ _ _ _ _ HB Hc) as (i & v0 & Hs & Hn & Hi & HW & Hv & H1 & H2 & H3 & H4 & H5 & H6).
  assert (HM : Mv es s s' i e (ev_touches e) v0) by (rewrite Hi in HW |- *; destruct HM1; constructor; auto).
  rewrite <- Hi. clear v1 HM1 Hc. exists v0. split; [exact HM|].
  destruct (qcall_agent _ _ _ _ _ Hn Hs) as (j & p' & ph' & J1 & J2 & J3 & J4 & J5 & J6 & J7 & J8).
  assert (Hj : j = i).
  { clear - J1 J2 J3 J8 Hs Hn Hi. subst i. set (y2 := wq_sys s') in *. clearbody y2. destruct a as [i|i w|i w|i|i|i|i|i|i spur]; try (destruct (Hn i spur); reflexivity); qcalls Hs (wq_sys s) i E Ep;
    repeat match goal with H : _ \/ _ |- _ => destruct H | H : _ /\ _ |- _ => destruct H | H : exists _, _ |- _ => destruct H end; cbn [call_agent]; congruence. }
  subst j. clear Hi.
  assert (Hpi : q_pc (wq_sys s') i = p' /\ q_phase (wq_sys s') i = ph') by (rewrite J2, J3, !pset_same; auto). destruct Hpi as [Hpi Hphi].
  assert (Hv0 : vle (wq_views s i) v0 /\ vle v0 (top s)).
  { destruct H4 as [->|(u & Hu & ->)]; [split; [apply vle_refl|apply (B_view _ HB)]|].
    split; [apply vle_join_l|apply vle_join; [apply (B_view _ HB)|exact (B_wakes _ HB _ _ Hu)]]. }
  assert (Hcov : forall v x, covers s v x -> vle v v0 -> covers s v0 x).
  { unfold covers. intros v x Hx (_ & _ & Hle). specialize (Hle x). destruct Hv0 as [_ (_ & _ & Ht)]. specialize (Ht x). cbn [top qv_data] in Ht. lia. }
  assert (Hkn : knows (q_pc (wq_sys s) i) (q_phase (wq_sys s) i) -> covers s v0 (Some i)) by (intros Hk; apply (Hcov (wq_views s i)); [apply (D_own _ _ HD); exact Hk|apply Hv0]).
  rewrite J1 in Hkn. simpl in Hkn.
  assert (Hto : forall x, In x (ev_touches e) -> x = Some i /\ knows p' ph' /\ covers s v0 (Some i)).
  { intros x. destruct J8 as [(-> & -> & Hp & -> & _)|(_ & [(w & -> & _)|[(w & -> & _)|[(-> & _)|[(-> & _)|[(-> & -> & -> & Hp)|[(-> & _)|(-> & -> & -> & Hp)]]]]]])]; simpl; try (intros []; fail); intros [<-|[]]; (split; [reflexivity|]); (split; [discriminate|]).
    - apply Hkn. congruence.
    - apply Hkn. destruct Hp as [->|[->| ->]]; discriminate.
    - specialize (H6 eq_refl Hh). destruct (W_woken _ _ _ _ _ _ HW i) as [K|(_ & u & Hu & K & Hu0)]; rewrite K in H6.
      + apply (Hcov (wq_views s i)); [|apply Hv0]. apply (D_woken _ _ HD). pose proof (B_woken _ HB i). lia.
      + pose proof (B_woken _ HB i). pose proof (proj1 (proj2 (B_wakes _ HB _ _ Hu)) i). cbn [top qv_node] in *.
        destruct (Nat.eq_dec (qv_node u i) (last_index (wq_nodes s i))) as [El|El].
        * destruct (D_wakes _ _ HD _ _ Hu El) as [Hx|Hx]; [exact (Hcov u _ Hx Hu0)|]. rewrite J1 in Hx. simpl in Hx. exact (Hkn Hx).
        * apply (Hcov (wq_views s i)); [|apply Hv0]. apply (D_woken _ _ HD). lia. }
  assert (Hwt : waiting (app_ev e es) = waiting es).
  { destruct J8 as [(-> & _)|(_ & [(w & -> & _)|[(w & -> & _)|[(-> & _)|[(-> & _)|[(-> & _)|[(-> & _)|(-> & _)]]]]]])]; reflexivity. }
  assert (Hph' : half p' = None).
  { destruct J8 as [(_ & -> & _)|(_ & [(w & _ & -> & _)|[(w & _ & -> & _)|[(_ & -> & _)|[(_ & -> & _)|[(_ & -> & _)|[(_ & -> & _)|(_ & -> & _)]]]]]])]; reflexivity. }
  constructor; rewrite ?Hpi, ?Hphi; auto.
  - intros n Hq. destruct (Hto _ Hq) as (K1 & K2 & _). injection K1 as ->. auto.
  - intros Hq. right. apply (Hto _ Hq).
  - intros Hq. destruct (Hto _ Hq) as [K _]. discriminate.
  - intros Hk. rewrite J1. cbn [knows].
    destruct J8 as [(-> & -> & Hp & -> & _)|(_ & [(w & -> & -> & -> & _)|[(w & -> & -> & -> & _)|[(-> & -> & ->)|[(-> & -> & ->)|[(-> & -> & -> & _)|[(-> & -> & -> & Hp)|(-> & -> & -> & _)]]]]]])]; simpl in *; auto.
  - rewrite J1. cbn [knows]. intros Hk. left.
    destruct J8 as [(-> & -> & Hp & -> & _)|(_ & [(w & -> & -> & -> & _)|[(w & -> & -> & -> & _)|[(-> & -> & ->)|[(-> & -> & ->)|[(-> & -> & -> & _)|[(-> & -> & -> & Hp)|(-> & -> & -> & _)]]]]]])]; simpl in *; auto; congruence.
  - destruct J8 as [(-> & _)|(_ & [(w & -> & _)|[(w & -> & _)|[(-> & _)|[(-> & _)|[(-> & _)|[(-> & _)|(-> & _)]]]]]])]; discriminate.
  - intros n Hin. left. replace (members es (wq_sys s)) with (members (app_ev e es) (wq_sys s')); [exact Hin|]. unfold members, window. rewrite Hwt, J5.
    destruct (q_lock (wq_sys s)) as [k|]; [|reflexivity]. rewrite J2. unfold pset. destruct (Nat.eqb_spec k i) as [->|]; [|reflexivity]. rewrite J1, Hph'. reflexivity.
  - rewrite J1. discriminate.
  - intros x Hx. destruct (Hto _ Hx) as (-> & _ & K). exact K.
Qed.

(** ** All executions. *)
Lemma bounded_init : Bounded wq_init.
Proof. constructor; simpl; try discriminate; intros; try (split; [|split]; intros; simpl; lia); try lia. Qed.

Lemma wq_bounded debug es s : wqrun debug es s -> Bounded s.
Proof.
  induction 1 as [|es s a s' e Hr HB Hs]; [exact bounded_init|]. destruct a as [a sync|i [k|]]; cbn [wq_step] in Hs.
  - destruct (call_spec _ _ _ _ _ _ HB Hs) as (i & v0 & _ & _ & _ & HW & Hv & _). apply (wstep_bounded _ _ _ _ _ _ HW HB Hv).
  - destruct (older_spec _ _ _ _ _ _ HB Hs) as (q & HW & Hv & _). apply (wstep_bounded _ _ _ _ _ _ HW HB Hv).
  - destruct (newest_spec _ _ _ _ _ HB Hs) as (y' & _ & _ & HW & Hv & _). apply (wstep_bounded _ _ _ _ _ _ HW HB Hv).
Qed.

Record WQ (r : nat) (debug : bool) (es : list qevent) (s : wqueue) : Prop := {
  Q_run : lrun (Gr r) debug es (wq_sys s);
  Q_und : undisturbed es; Q_time : timeouts_unqueued es;
  Q_S : SI r es s; Q_N : NI s; Q_D : DI es s; Q_race : wq_races s = []
}.

Lemma wq_start r debug : WQ r debug [] wq_init.
Proof.
  constructor; try exact I; try reflexivity; [constructor|..].
  - constructor; simpl; try discriminate; try reflexivity.
    + intros [|[|k]] v; simpl; try discriminate. intros H; injection H as <-. auto.
    + intros [|[|k]]; discriminate.
    + intros _ [k []].
    + intros _ [|[|k]] _; discriminate.
  - constructor; simpl; try discriminate; try reflexivity.
    + intros n k v _ Hk. cbn in Hk; lia.
  - constructor; try reflexivity; simpl; try discriminate; try (intros n []; fail); auto.
    + intros n. left. reflexivity.
Qed.

Lemma peek_value debug y i w r e : loads_node y i = true -> qstep debug (with_mem y (set_state (q_heap y) i w) (q_list y)) i false = Some (r, e) -> e = Some (EPeek i) -> w <> Q_WAITING.
Proof.
  intros Hl Hs -> ->. unfold loads_node in Hl. unfold qstep in Hs. cbn [q_pc with_mem q_heap q_state q_list] in Hs. autorewrite with mem in Hs. rewrite Nat.eqb_refl in Hs.
  destruct (q_pc y i); try discriminate; nq; cbn [negb] in Hs; rewrite ?andb_false_r in Hs; discriminate.
Qed.

Lemma wq_next r debug es s a s' e : Bounded s -> WQ r debug es s -> wq_step debug s a = Some (s', e) -> wq_hasty s' = [] -> WQ r debug (app_ev e es) s'.
Proof.
  intros HB [Hr Hu Ht HS HN HD Hrc] Hs Hh. destruct (qrun_safe _ _ _ Hr Hu Ht) as (Hub & HI & HWi & HL & _). set (y := wq_sys s) in *.
  pose proof (binv_run _ _ _ Hr Hub) as HBI.
  (* what is left once the step is known to be one of [lrun] *)
  assert (Hfin : lrun (Gr r) debug (app_ev e es) (wq_sys s') -> undisturbed (app_ev e es) -> timeouts_unqueued (app_ev e es) ->
    (QInv (app_ev e es) (wq_sys s') -> LiveInv (app_ev e es) (wq_sys s') -> no_ub (app_ev e es) ->
     exists i q v0, Mv es s s' i e q v0 /\ Dv es s s' i e q v0) -> WQ r debug (app_ev e es) s').
  { intros Hr' Hu' Ht' Hd. destruct (qrun_safe _ _ _ Hr' Hu' Ht') as (Hub' & HI' & _ & HL' & _). destruct (Hd HI' HL' Hub') as (i & q & v0 & HM & HV).
    destruct (di_step _ _ _ _ _ _ _ HM HN HV HD) as [HD' Hr2]. constructor; auto.
    - apply (si_step _ _ _ _ _ _ _ HM); auto. intros Hok. split; [apply (cinv_run _ _ _ Hr); exact (close_ok_tail _ _ Hok)|exact (cinv_run _ _ _ Hr' Hok)].
    - exact (ni_step _ _ _ _ _ _ _ HM HN).
    - congruence. }
  assert (Hnohalf : forall n, wq_woken s n = last_index (wq_nodes s n) -> half_taken n es = false).
  { intros n Hw. destruct (half_taken n es) eqn:Eh; [|reflexivity]. apply HWi in Eh. destruct (proj1 (N_win _ HN n Eh) Hw). }
  assert (Hnub : no_ub (app_ev e es) -> forall i, e <> Some (EUb i)) by (intros Hx i ->; apply (Hx i); now left).
  destruct a as [a sync|i [k|]]; cbn [wq_step] in Hs.
  - destruct (call_spec _ _ _ _ _ _ HB Hs) as (i & v0 & Hq & Hn & Hi & HW & _ & _ & _ & _ & Hv0 & _ & Hto).
    apply Hfin.
    + exact (lrun_step _ _ _ _ _ _ _ Hr Hq).
    + destruct e as [x|]; [|exact Hu]. destruct x; simpl; auto. exfalso. set (y2 := wq_sys s') in *. clearbody y2. clear - Hq Hn.
      destruct a as [i|i w|i w|i|i|i|i|i|i spur]; try (destruct (Hn i spur); reflexivity); cbn [qstep_sys] in Hq; destruct (idle (wq_sys s) i); try discriminate; destruct (q_phase (wq_sys s) i); discriminate.
    + destruct e as [x|]; [|exact Ht]. destruct x as [| | | | | | | | | | | | | | | | | | |j| | |]; simpl; auto. split; [|exact Ht].
      assert (Hj : j = i). { subst i. set (y2 := wq_sys s') in *. clearbody y2. clear - Hq Hn.
        destruct a as [i|i w|i w|i|i|i|i|i|i spur]; try (destruct (Hn i spur); reflexivity); cbn [qstep_sys] in Hq; destruct (idle (wq_sys s) i); try discriminate; destruct (q_phase (wq_sys s) i); try discriminate. injection Hq as _ <-. reflexivity. }
      subst j. specialize (Hto eq_refl Hh).
      assert (Hk : exists k, k = last_index (wq_nodes s i) /\ nth_error (wq_nodes s i) k <> Some Q_WAITING /\ (window y = Some i -> k <> last_index (wq_nodes s i))).
      { destruct (W_woken _ _ _ _ _ _ HW i) as [K|(_ & u & Hx & K & _)]; rewrite K in Hto; pose proof (B_woken _ HB i) as B1.
        - exists (wq_woken s i). split; [lia|]. split; [apply (N_woken _ HN)|intros Hw; apply (N_win _ HN i Hw)].
        - pose proof (proj1 (proj2 (B_wakes _ HB _ _ Hx)) i) as B2. cbn [top qv_node] in B2.
          destruct (Nat.max_spec (wq_woken s i) (qv_node u i)) as [[_ E]|[_ E]]; rewrite E in Hto.
          + exists (qv_node u i). split; [lia|]. split; [exact (N_wakes _ HN _ _ Hx)|intros Hw; apply (N_win _ HN i Hw); exact Hx].
          + exists (wq_woken s i). split; [lia|]. split; [apply (N_woken _ HN)|intros Hw; apply (N_win _ HN i Hw)]. }
      destruct Hk as (k & -> & Hk1 & Hk2). rewrite (N_new _ HN i) in Hk1. split.
      * intros Hin. apply Hk1. f_equal. exact (I_wait _ _ HI i Hin).
      * destruct (half_taken i es) eqn:Eh; [|reflexivity]. apply HWi in Eh. destruct (Hk2 Eh eq_refl).
    + intros HI' HL' _. destruct (call_dv _ _ _ _ _ _ _ HB HI HI' HN HD HL HL' Hs Hh) as (v1 & HM & HV). eauto.
  - pose proof (older_sim _ _ _ _ _ _ _ _ Hr HI HB HS HN Hs) as Hsim. fold y in Hsim.
    destruct (older_spec _ _ _ _ _ _ HB Hs) as (q & HW & _ & _ & _ & _ & _ & Hcase).
    assert (Hpk : e = Some (EPeek i) -> wq_woken s i = last_index (wq_nodes s i)).
    { intros He. destruct Hcase as [(Hl & _ & w & r0 & Hw & Hk & Hq & _ & _ & _ & Hx)|(Hl & _ & _ & w & r0 & _ & _ & _ & Hq & _)].
      - specialize (Hx He Hh). pose proof (peek_value _ _ _ _ _ _ Hl Hq He) as Hne. pose proof (nth_le _ _ _ Hw) as Hkl. pose proof (B_woken _ HB i).
        destruct (Nat.eq_dec k (last_index (wq_nodes s i))) as [->|Hd]; [lia|]. exfalso. apply Hne. apply (N_own _ HN i k w Hk); [lia|exact Hw].
      - exfalso. subst e. fold y in Hl, Hq. clearbody y. clear - Hl Hq. unfold loads_node in Hl. unfold qstep, s_dispatch, n_dispatch, failed, undefined in Hq. cbn [with_state q_pc q_state q_heap q_list q_lock] in Hq. destruct (q_pc y i) eqn:E; try discriminate;
        repeat match type of Hq with
        | context [if ?b then _ else _] => destruct b eqn:?
        | context [match q_lock ?b with Some _ => _ | None => _ end] => destruct (q_lock b) eqn:?
        | context [match l_tail ?b with Some _ => _ | None => _ end] => destruct (l_tail b) eqn:?
        | context [let '(_, _) := ?b in _] => destruct b as [[? ?] ?] eqn:? || destruct b as [? ?] eqn:?
        end; discriminate. }
    apply Hfin.
    + destruct Hsim as [[spur Hq]|(-> & p' & Hst & ->)]; [exact (lrun_step _ _ _ _ (QStep i spur) _ _ Hr Hq)|exact (lrun_stale _ _ _ _ _ _ Hr Hst)].
    + destruct Hsim as [[spur Hq]|(-> & _)]; [|exact Hu]. destruct (qstep_agent _ _ _ _ _ _ Hq) as (Ha & _).
      destruct e as [x|]; [|exact Hu]. destruct x; simpl; auto. subst. auto.
    + destruct Hsim as [[spur Hq]|(-> & _)]; [|exact Ht]. destruct (qstep_agent _ _ _ _ _ _ Hq) as (Ha & _).
      destruct e as [x|]; [|exact Ht]. destruct x; simpl; auto; contradiction.
    + intros HI' HL' Hub'. destruct (older_mv _ _ _ _ _ _ _ _ HB HI HI' HS Hs) as (q' & HM & Hq & Hq2 & _).
      assert (Hqt : q' = touches y i). { destruct (loads_node y i) eqn:El; [|auto]. destruct Hq as [->|?]; [|assumption]. unfold loads_node in El. unfold touches. destruct (q_pc y i); try discriminate; reflexivity. }
      subst q'.
      exists i, (touches y i), (wq_views s i). split; [exact HM|]. apply (step_dv (Gr r) debug); auto.
  - destruct (newest_spec _ _ _ _ _ HB Hs) as (y' & Hq & Hy & HW & _ & _ & _ & _ & _ & _ & Hx). subst y'.
    destruct (qstep_agent _ _ _ _ _ _ Hq) as (Ha & _).
    assert (Hpk : e = Some (EPeek i) -> wq_woken s i = last_index (wq_nodes s i)) by (intros He; specialize (Hx He Hh); pose proof (B_woken _ HB i); lia).
    apply Hfin.
    + exact (lrun_step _ _ _ _ (QStep i false) _ _ Hr Hq).
    + destruct e as [x|]; [|exact Hu]. destruct x; simpl; auto. subst. auto.
    + destruct e as [x|]; [|exact Ht]. destruct x; simpl; auto; contradiction.
    + intros HI' HL' Hub'. exists i, (touches y i), (wq_views s i).
      pose proof (newest_mv _ _ _ _ _ _ _ HB HI HI' HS Hs (Hnub Hub' i)) as HM. split; [exact HM|]. apply (step_dv (Gr r) debug); auto. left. exists false. exact Hq.
Qed.

Theorem wq_run r debug es s : wqrun debug es s -> wq_hasty s = [] -> WQ r debug es s.
Proof.
  induction 1 as [|es s a s' e Hr IH Hs]; intros Hh; [apply wq_start|]. pose proof (wq_bounded _ _ _ Hr) as HB.
  apply (wq_next r debug es s a s' e HB); auto. apply IH.
  destruct a as [a sync|i [k|]]; cbn [wq_step] in Hs.
  - destruct (call_spec _ _ _ _ _ _ HB Hs) as (i & v0 & _ & _ & _ & HW & _). apply (W_hasty _ _ _ _ _ _ HW Hh).
  - destruct (older_spec _ _ _ _ _ _ HB Hs) as (q & HW & _). apply (W_hasty _ _ _ _ _ _ HW Hh).
  - destruct (newest_spec _ _ _ _ _ HB Hs) as (y' & _ & _ & HW & _). apply (W_hasty _ _ _ _ _ _ HW Hh).
Qed.
