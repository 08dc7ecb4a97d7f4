(** Invariants of the wait queue on weak memory: every execution is one of [lrun]. *)
From Coq Require Import List Bool Arith NArith Lia.
From Verif Require Import WaitCellModel WaitList WaitListSpec WaitListFacts WaitQueueModel WaitQueueSpec WaitQueueFacts WaitQueueSafety
  WaitQueueWake WaitQueueStored WeakQueueModel WeakQueueFacts.
Import ListNotations.

(** What whoever locks the mutex next has seen, or whoever holds it. *)
Definition Lv (s : wqueue) : qview := match q_lock (wq_sys s) with Some j => wq_views s j | None => wq_lockv s end.

(** Only [r] notifies, nothing is dropped while waiting, the receiver is not used after it closed the queue. *)
Definition Gr (r : nat) (es : list qevent) : Prop := close_ok es /\ one_notifier r es /\ no_drops es.
Lemma Gr_tail r e es : Gr r (app_ev e es) -> Gr r es.
Proof.
  intros (H1 & H2 & H3). split; [exact (close_ok_tail _ _ H1)|]. split; intros i Hi; [apply H2|apply (H3 i)]; destruct e; try right; exact Hi.
Qed.

(** The state word. *)
Record SI (r : nat) (es : list qevent) (s : wqueue) : Prop := {
  S_new : nth_error (wq_hist s) (last_index (wq_hist s)) = Some (q_state (wq_sys s));
  S_dom : forall k v, nth_error (wq_hist s) k = Some v -> v = Q_EMPTY \/ v = Q_WAITING \/ v = Q_WAKING \/ (v = Q_CLOSED /\ q_closed es = true);
  S_lock1 : forall k, nth_error (wq_hist s) k = Some Q_WAITING -> k <= qv_state (Lv s);
  S_lock2 : nth_error (wq_hist s) (qv_state (Lv s)) = Some Q_WAITING ->
            forall k v, qv_state (Lv s) < k -> nth_error (wq_hist s) k = Some v -> v = Q_CLOSED;
  S_cas : forall i, casing (q_pc (wq_sys s) i) = true -> nth_error (wq_hist s) (qv_state (wq_views s i)) <> Some Q_WAITING;
  S_tcas : forall i v, q_pc (wq_sys s) i = TCas v -> v = Q_EMPTY \/ v = Q_WAKING;
  S_close : close_ok es -> forall i, swapped (q_pc (wq_sys s) i) = true ->
            forall k v, qv_state (wq_views s i) <= k -> nth_error (wq_hist s) k = Some v -> v = Q_CLOSED;
  S_closed : close_ok es -> (exists k, In (ERetClose k) es) ->
            forall k v, qv_state (Lv s) <= k -> nth_error (wq_hist s) k = Some v -> v = Q_CLOSED;
  S_solo : Gr r es -> forall k, qv_state (wq_views s r) <= k -> nth_error (wq_hist s) k = Some Q_WAITING ->
            k = last_index (wq_hist s) \/ q_closed es = true
}.

(** The waiters' states. *)
Record NI (s : wqueue) : Prop := {
  N_new : forall n, nth_error (wq_nodes s n) (last_index (wq_nodes s n)) = Some (n_state (q_heap (wq_sys s) n));
  N_own : forall n k v, qv_node (wq_views s n) n <= k -> k < last_index (wq_nodes s n) -> nth_error (wq_nodes s n) k = Some v -> v = Q_WAITING;
  N_lockv : forall n, qv_node (Lv s) n = last_index (wq_nodes s n);
  N_carry : forall k n, carries (q_pc (wq_sys s) k) = Some n -> nth_error (wq_nodes s n) (qv_node (wq_views s k) n) <> Some Q_WAITING;
  N_wakes : forall n u, wq_wakes s n = Some u -> nth_error (wq_nodes s n) (qv_node u n) <> Some Q_WAITING;
  N_woken : forall n, nth_error (wq_nodes s n) (wq_woken s n) <> Some Q_WAITING;
  N_win : forall n, window (wq_sys s) = Some n -> wq_woken s n <> last_index (wq_nodes s n) /\
     (forall u, wq_wakes s n = Some u -> qv_node u n <> last_index (wq_nodes s n)) /\
     (forall k, carries (q_pc (wq_sys s) k) = Some n -> half (q_pc (wq_sys s) k) = None -> qv_node (wq_views s k) n <> last_index (wq_nodes s n))
}.

Lemma nth_le (l : list N) k v : nth_error l k = Some v -> k <= last_index l.
Proof. intros H. assert (k < length l) by (apply nth_error_Some; congruence). unfold last_index. lia. Qed.

Ltac nq := repeat match goal with
  | H : context [(?a =? ?b)%N] |- _ => let x := eval vm_compute in (a =? b)%N in match x with true => idtac | false => idtac end; change (a =? b)%N with x in H
  | |- context [(?a =? ?b)%N] => let x := eval vm_compute in (a =? b)%N in match x with true => idtac | false => idtac end; change (a =? b)%N with x
  end; cbn [orb andb negb].

(** ** Every step is one of [lrun]. *)
Lemma merged_pc y w i p : merged y (with_pc (with_state y w) i p) = with_pc y i p.
Proof. reflexivity. Qed.
Lemma merged_pc' y h i p : merged y (with_pc (with_mem y h (q_list y)) i p) = with_pc y i p.
Proof. reflexivity. Qed.
Lemma with_state_same y : with_state y (q_state y) = y.
Proof. destruct y. reflexivity. Qed.

Definition sim (G : list qevent -> Prop) (debug : bool) (es : list qevent) (y : qsys) (i : nat) (y' : qsys) (e : option qevent) : Prop :=
  (exists spur, qstep debug y i spur = Some (y', e)) \/ (e = None /\ exists p', stale G es y i p' /\ y' = with_pc y i p').

Lemma older_sim debug r es s i k s' e :
  lrun (Gr r) debug es (wq_sys s) -> QInv es (wq_sys s) -> Bounded s -> SI r es s -> NI s ->
  older debug s i k = Some (s', e) -> sim (Gr r) debug es (wq_sys s) i (wq_sys s') e.
Proof.
  intros Hr HI HB HS HN Ho. destruct (older_spec _ _ _ _ _ _ HB Ho) as (q & _ & _ & _ & _ & _ & _ & Hcase).
  set (y := wq_sys s) in *.
  assert (Hlk : holds (q_pc y i) = true -> Lv s = wq_views s i).
  { intros Hh. apply (I_lock _ _ HI) in Hh. unfold Lv. fold y. now rewrite Hh. }
  destruct Hcase as [(Hld & _ & w & t & Hw & Hk & Hq & Hs' & _)|(_ & Hus & _ & w & t & Hw & Hk & Hm & Hq & Hs' & _)]; rewrite Hs'; clear Hs'.
  - (* a waiter's state *)
    assert (Hval : w <> Q_WAITING -> w = n_state (q_heap y i)).
    { intros Hne. destruct (Nat.eq_dec k (last_index (wq_nodes s i))) as [->|Hl].
      - rewrite (N_new _ HN i) in Hw. fold y in Hw. congruence.
      - pose proof (nth_le _ _ _ Hw). exfalso. apply Hne. apply (N_own _ HN i k w Hk); [lia|exact Hw]. }
    unfold loads_node in Hld. unfold qstep in Hq. cbn [q_pc with_mem q_heap q_state q_list] in Hq. autorewrite with mem in Hq. rewrite Nat.eqb_refl in Hq.
    destruct (q_pc y i) eqn:E; try discriminate.
    + (* CLoad *)
      destruct (N.eqb_spec w Q_WAITING) as [->|Hne].
      * nq. cbn [negb] in Hq. rewrite andb_false_r in Hq. injection Hq as <- <-. right. split; [reflexivity|]. exists (CLock w0). split; [constructor; exact E|reflexivity].
      * left. exists false. unfold qstep. rewrite E. rewrite <- (Hval Hne), (proj2 (N.eqb_neq _ _) Hne).
        destruct (w =? Q_WAKING)%N; [injection Hq as <- <-; reflexivity|]. destruct (w =? Q_CLOSED)%N; [injection Hq as <- <-; reflexivity|].
        destruct (debug && negb false); injection Hq as <- <-; [|reflexivity]. unfold failed. cbn [q_lock with_mem].
        destruct (q_lock y); [destruct (n =? i)|]; reflexivity.
    + (* CLoad2 *)
      assert (Hkl : k = last_index (wq_nodes s i)).
      { pose proof (nth_le _ _ _ Hw). pose proof (N_lockv _ HN i) as Hl. rewrite (Hlk eq_refl) in Hl. lia. }
      assert (Hv : w = n_state (q_heap y i)) by (rewrite Hkl, (N_new _ HN i) in Hw; fold y in Hw; congruence).
      left. exists false. unfold qstep. rewrite E, <- Hv.
      destruct (w =? Q_WAKING)%N; [injection Hq as <- <-; reflexivity|]. destruct (w =? Q_CLOSED)%N; [injection Hq as <- <-; reflexivity|].
      destruct (debug && negb (w =? Q_WAITING)%N); injection Hq as <- <-; [|reflexivity]. unfold failed. cbn [q_lock with_mem].
      destruct (q_lock y); [destruct (n =? i)|]; reflexivity.
    + (* DLoad *)
      destruct (N.eqb_spec w Q_WAITING) as [->|Hne].
      * injection Hq as <- <-. right. split; [reflexivity|]. exists DLock. split; [constructor; exact E|reflexivity].
      * left. exists false. unfold qstep. rewrite E. rewrite <- (Hval Hne). rewrite (proj2 (N.eqb_neq _ _) Hne). injection Hq as <- <-. reflexivity.
  - (* the state word *)
    destruct (N.eq_dec w (q_state y)) as [Hv|Hv].
    { subst w. rewrite with_state_same in Hq. left. exists true. rewrite Hq. f_equal. f_equal.
      unfold uses_state in Hus. unfold qstep, failed in Hq. destruct (q_pc y i) eqn:E; try discriminate; cbn [may_read] in Hm; rewrite ?andb_false_r in Hq.
      - destruct (q_state y =? Q_WAKING)%N; [discriminate|]. destruct (q_state y =? Q_CLOSED)%N; injection Hq as <- _; reflexivity.
      - injection Hq as <- _. reflexivity.
      - destruct (debug && (q_state y =? Q_WAITING)%N); [destruct (q_lock y) as [l|] eqn:El; [destruct (l =? i)|]|]; injection Hq as <- _; destruct y; reflexivity.
      - destruct (debug && (q_state y =? Q_WAITING)%N); [destruct (q_lock y) as [l|] eqn:El; [destruct (l =? i)|]|]; injection Hq as <- _; destruct y; reflexivity.
      - injection Hq as <- _. reflexivity.
      - injection Hq as <- _. reflexivity.
      - destruct (q_state y =? Q_WAITING)%N; [discriminate|]. rewrite andb_false_r in Hq. injection Hq as <- _. reflexivity. }
    assert (Hnl : k <> last_index (wq_hist s)) by (intros ->; rewrite (S_new _ _ _ HS) in Hw; fold y in Hw; congruence).
    pose proof (nth_le _ _ _ Hw) as Hkl.
    assert (Hnw : holds (q_pc y i) = true -> w <> Q_WAITING -> q_state y <> Q_WAITING).
    { intros Hh Hne Hst. pose proof (S_new _ _ _ HS) as Hl. fold y in Hl. rewrite Hst in Hl. apply (S_lock1 _ _ _ HS) in Hl. rewrite (Hlk Hh) in Hl. lia. }
    assert (Hcl : w = Q_CLOSED -> q_closed es = true).
    { intros ->. destruct (S_dom _ _ _ HS _ _ Hw) as [?|[?|[?|[_ ?]]]]; try discriminate. assumption. }
    assert (Hdom : w = Q_EMPTY \/ w = Q_WAITING \/ w = Q_WAKING \/ w = Q_CLOSED) by (destruct (S_dom _ _ _ HS _ _ Hw) as [?|[?|[?|[? _]]]]; auto).
    assert (Hcas : casing (q_pc y i) = true -> w <> Q_WAITING).
    { intros Hc ->. apply (S_cas _ _ _ HS i Hc). replace (qv_state (wq_views s i)) with k; [exact Hw|].
      apply (S_lock1 _ _ _ HS) in Hw. rewrite Hlk in Hw by (apply casing_holds; exact Hc). lia. }
    unfold uses_state in Hus. unfold qstep, failed in Hq. cbn [q_pc with_state q_heap q_state q_list] in Hq.
    destruct (q_pc y i) eqn:E; try discriminate; cbn [may_read] in Hm; rewrite ?andb_false_r in Hq.
    + (* SCas *)
      destruct (w =? Q_WAKING)%N; [discriminate|]. right. destruct (N.eqb_spec w Q_CLOSED) as [->|Hne]; injection Hq as <- <-; (split; [reflexivity|]).
      * exists (SRet Closed). split; [eapply st_scas_closed; eauto|reflexivity].
      * exists (SLock w0). split; [eapply st_scas; eauto|reflexivity].
    + (* SLoad *)
      injection Hq as <- <-. right. split; [reflexivity|]. exists (s_dispatch w0 w). split; [|reflexivity]. unfold s_dispatch.
      destruct Hdom as [->|[->|[->| ->]]]; nq.
      * apply (st_sload _ _ _ _ w0); auto; try (apply Hnw; [reflexivity|discriminate]).
      * assert (Hkp : k = qv_state (Lv s)) by (pose proof (S_lock1 _ _ _ HS _ Hw); rewrite (Hlk eq_refl) in *; lia).
        apply st_snode; [exact E|..].
        -- rewrite Hkp in Hw. apply (S_lock2 _ _ _ HS Hw (last_index (wq_hist s))); [lia|exact (S_new _ _ _ HS)].
        -- intros Hu Hx c Hc. assert (Q_WAITING = Q_CLOSED); [|discriminate].
           apply (S_closed _ _ _ HS (conj Hu Hx) (ex_intro _ c Hc) k); [lia|exact Hw].
      * apply (st_sload _ _ _ _ w0); auto; try (apply Hnw; [reflexivity|discriminate]).
      * apply (st_sclosed _ _ _ _ w0); auto.
    + (* SCasEmpty *)
      assert (Hne : (w =? Q_WAITING)%N = false) by (apply N.eqb_neq; auto). rewrite Hne, andb_false_r in Hq.
      injection Hq as <- <-. right. split; [reflexivity|]. exists (s_dispatch w0 w). split; [|reflexivity]. unfold s_dispatch.
      destruct Hdom as [->|[->|[->| ->]]]; nq; [|discriminate|..].
      * apply (st_sload _ _ _ _ w0); auto; try (apply Hnw; [reflexivity|discriminate]).
      * apply (st_sload _ _ _ _ w0); auto; try (apply Hnw; [reflexivity|discriminate]).
      * apply (st_sclosed _ _ _ _ w0); auto.
    + (* SCasWaking *)
      assert (Hne : (w =? Q_WAITING)%N = false) by (apply N.eqb_neq; auto). rewrite Hne, andb_false_r in Hq.
      injection Hq as <- <-. right. split; [reflexivity|]. exists (s_dispatch w0 w). split; [|reflexivity]. unfold s_dispatch.
      destruct Hdom as [->|[->|[->| ->]]]; nq; [|discriminate|..].
      * apply (st_sload _ _ _ _ w0); auto; try (apply Hnw; [reflexivity|discriminate]).
      * apply (st_sload _ _ _ _ w0); auto; try (apply Hnw; [reflexivity|discriminate]).
      * apply (st_sclosed _ _ _ _ w0); auto.
    + (* TLoad *)
      injection Hq as <- <-. right. split; [reflexivity|]. exists (n_dispatch w). split; [|reflexivity].
      assert (Hsolo : w <> Q_EMPTY -> w <> Q_WAKING -> Gr r es -> w = q_state y).
      { intros N1 N2 HG. exfalso. pose proof (cinv_run _ _ _ Hr (proj1 HG)) as HC.
        assert (Hi : i = r). { apply (proj1 (proj2 HG)). apply in_notify_in. rewrite (proj1 (binv_run _ _ _ Hr (proj1 (proj1 HG)) i)). fold y. now rewrite E. }
        assert (Hc : q_closed es = false) by (apply (notifying_open es y i HC); now rewrite E). subst i.
        destruct Hdom as [?|[->|[?| ->]]]; [congruence| |congruence|rewrite (Hcl eq_refl) in Hc; discriminate].
        destruct (S_solo _ _ _ HS HG k Hk Hw); congruence. }
      unfold n_dispatch. destruct (N.eqb_spec w Q_WAKING) as [->|N2]; nq; [apply st_tcas; auto|].
      destruct (N.eqb_spec w Q_EMPTY) as [->|N1]; nq; [apply st_tcas; auto|]. apply st_tlock; auto.
    + (* TCas *)
      injection Hq as <- <-. right. split; [reflexivity|]. exists (n_dispatch w). split; [|reflexivity].
      assert (Hsolo : w <> Q_EMPTY -> w <> Q_WAKING -> Gr r es -> w = q_state y).
      { intros N1 N2 HG. exfalso. pose proof (cinv_run _ _ _ Hr (proj1 HG)) as HC.
        assert (Hi : i = r). { apply (proj1 (proj2 HG)). apply in_notify_in. rewrite (proj1 (binv_run _ _ _ Hr (proj1 (proj1 HG)) i)). fold y. now rewrite E. }
        assert (Hc : q_closed es = false) by (apply (notifying_open es y i HC); now rewrite E). subst i.
        destruct Hdom as [?|[->|[?| ->]]]; [congruence| |congruence|rewrite (Hcl eq_refl) in Hc; discriminate].
        destruct (S_solo _ _ _ HS HG k Hk Hw); congruence. }
      unfold n_dispatch. destruct (N.eqb_spec w Q_WAKING) as [->|N2]; nq; [apply st_tcas; eauto|].
      destruct (N.eqb_spec w Q_EMPTY) as [->|N1]; nq; [apply st_tcas; eauto|]. apply st_tlock; eauto.
    + (* DEmpty *)
      destruct (N.eqb_spec w Q_WAITING) as [|Hne]; [discriminate|]. rewrite andb_false_r in Hq. injection Hq as <- <-.
      left. exists true. unfold qstep. rewrite E. rewrite (proj2 (N.eqb_neq _ _) (Hnw eq_refl Hne)), andb_false_r. reflexivity.
Qed.

(** ** What a step does to what the invariants talk about. *)
Definition wcase (y y' : qsys) (i : nat) (e : option qevent) : Prop :=
  (q_state y = Q_WAKING /\ q_state y' = Q_EMPTY) \/
  (holds (q_pc y i) = true /\ casing (q_pc y' i) = false /\ q_state y = Q_EMPTY /\ q_state y' = Q_WAITING) \/
  (q_pc y i = TCas (q_state y) /\ q_state y' = Q_WAKING) \/
  (e = Some (EClosed i) /\ q_state y' = Q_CLOSED) \/
  (holds (q_pc y i) = true /\ is_t (q_pc y i) = true /\ q_state y' = Q_EMPTY) \/
  (holds (q_pc y i) = true /\ is_d (q_pc y i) = true /\ q_state y' = Q_EMPTY).

Definition ncase (es : list qevent) (y y' : qsys) (i n : nat) (e : option qevent) : Prop :=
  (n = i /\ n_state (q_heap y' n) = Q_WAITING /\ half (q_pc y' i) = None) \/
  (In n (waiting es) /\ n_state (q_heap y' n) <> Q_WAITING /\ half (q_pc y' i) = Some n).

Record Mv (es : list qevent) (s s' : wqueue) (i : nat) (e : option qevent) (q : list (option nat)) (v0 : qview) : Prop := {
  M_step : WStep s s' i e q v0;
  M_b : Bounded s; M_b' : Bounded s';
  M_I : QInv es (wq_sys s); M_I' : QInv (app_ev e es) (wq_sys s');
  M_pc : forall j, j <> i -> q_pc (wq_sys s') j = q_pc (wq_sys s) j;
  M_ph : forall j, j <> i -> q_phase (wq_sys s') j = q_phase (wq_sys s) j;
  M_hist : (wq_hist s' = wq_hist s /\ q_state (wq_sys s') = q_state (wq_sys s)) \/
    (wq_hist s' = wq_hist s ++ [q_state (wq_sys s')] /\ qv_state (wq_views s' i) = length (wq_hist s) /\ wcase (wq_sys s) (wq_sys s') i e);
  M_cas : casing (q_pc (wq_sys s') i) = true -> nth_error (wq_hist s') (qv_state (wq_views s' i)) <> Some Q_WAITING;
  M_tcas : forall v, q_pc (wq_sys s') i = TCas v -> v = Q_EMPTY \/ v = Q_WAKING;
  M_swapped : swapped (q_pc (wq_sys s') i) = true -> swapped (q_pc (wq_sys s) i) = true \/ qv_state (wq_views s' i) = length (wq_hist s) /\ q_state (wq_sys s') = Q_CLOSED;
  M_ret : forall k, e = Some (ERetClose k) -> k = i /\ swapped (q_pc (wq_sys s) i) = true /\ holds (q_pc (wq_sys s) i) = true;
  M_nodes : ((forall n, wq_nodes s' n = wq_nodes s n) /\ (forall n, n_state (q_heap (wq_sys s') n) = n_state (q_heap (wq_sys s) n)) /\ half (q_pc (wq_sys s') i) = None) \/
    exists n, wq_nodes s' n = wq_nodes s n ++ [n_state (q_heap (wq_sys s') n)] /\ (forall m, m <> n -> wq_nodes s' m = wq_nodes s m) /\
      (forall m, m <> n -> n_state (q_heap (wq_sys s') m) = n_state (q_heap (wq_sys s) m)) /\
      qv_node (wq_views s' i) n = length (wq_nodes s n) /\ holds (q_pc (wq_sys s) i) = true /\ half (q_pc (wq_sys s) i) = None /\ carries (q_pc (wq_sys s) i) = None /\
      ncase es (wq_sys s) (wq_sys s') i n e /\ wq_woken s' = wq_woken s /\ wq_wakes s' = wq_wakes s;
  M_carry : forall n, carries (q_pc (wq_sys s') i) = Some n ->
      half (q_pc (wq_sys s') i) = Some n \/ (carries (q_pc (wq_sys s) i) = Some n /\ qv_node (wq_views s' i) n = qv_node (wq_views s i) n);
  M_woke : forall n w, e = Some (EWoke i n w) -> carries (q_pc (wq_sys s) i) = Some n /\ half (q_pc (wq_sys s) i) = None /\ qv_node (wq_views s' i) n = qv_node (wq_views s i) n
}.

Lemma nth_app_old (l : list N) x k v : nth_error l k = Some v -> nth_error (l ++ [x]) k = Some v.
Proof. intros H. rewrite nth_error_app1; [exact H|]. apply nth_error_Some. congruence. Qed.
Lemma nth_app_inv (l : list N) x k v : nth_error (l ++ [x]) k = Some v -> nth_error l k = Some v \/ (k = length l /\ v = x).
Proof.
  intros H. destruct (Nat.lt_ge_cases k (length l)) as [Hk|Hk]; [rewrite nth_error_app1 in H by exact Hk; auto|].
  rewrite nth_error_app2 in H by exact Hk. destruct (k - length l) as [|m] eqn:Em; simpl in H; [right; split; [lia|congruence]|destruct m; discriminate].
Qed.

Section Move.
  Variables (es : list qevent) (s s' : wqueue) (i : nat) (e : option qevent) (q : list (option nat)) (v0 : qview).
  Hypothesis HM : Mv es s s' i e q v0.
  Let y := wq_sys s.
  Let y' := wq_sys s'.

  Lemma mv_view j : vle (wq_views s j) (wq_views s' j).
  Proof.
    destruct (Nat.eq_dec j i) as [->|Hj].
    - eapply vle_trans; [apply (W_v0 _ _ _ _ _ _ (M_step _ _ _ _ _ _ _ HM))|apply (W_le _ _ _ _ _ _ (M_step _ _ _ _ _ _ _ HM))].
    - rewrite (W_views _ _ _ _ _ _ (M_step _ _ _ _ _ _ _ HM) j Hj). apply vle_refl.
  Qed.

  Lemma Lv_case : (Lv s' = wq_views s' i /\ vle (Lv s) (Lv s')) \/ (Lv s' = Lv s /\ q_lock y <> Some i /\ q_lock y' <> Some i).
  Proof.
    pose proof (M_I _ _ _ _ _ _ _ HM) as HI. pose proof (M_I' _ _ _ _ _ _ _ HM) as HI'. fold y in HI. fold y' in HI'.
    pose proof (M_pc _ _ _ _ _ _ _ HM) as Hpc. fold y y' in Hpc.
    pose proof (M_step _ _ _ _ _ _ _ HM) as HW.
    unfold Lv. fold y y'. destruct (W_lock _ _ _ _ _ _ HW) as [[H1 H2]|[(H1 & H2 & H3 & H4)|(H1 & H2 & H3)]]; fold y y' in H1; fold y y' in H2.
    - rewrite H1. destruct (q_lock y) as [j|]; [|right; split; [exact H2|split; discriminate]].
      destruct (Nat.eq_dec j i) as [->|Hj]; [left; split; [reflexivity|apply mv_view]|].
      right. split; [apply (W_views _ _ _ _ _ _ HW); exact Hj|split; congruence].
    - destruct (q_lock y') as [j|] eqn:El; [|congruence].
      assert (j = i). { destruct (Nat.eq_dec j i) as [|Hj]; [assumption|]. apply (I_lock _ _ HI') in El. rewrite (Hpc j Hj) in El. apply (I_lock _ _ HI) in El. congruence. }
      subst j. left. split; [reflexivity|]. rewrite H1. exact H4.
    - destruct (q_lock y) as [j|] eqn:El; [|congruence].
      assert (j = i). { destruct (Nat.eq_dec j i) as [|Hj]; [assumption|]. apply (I_lock _ _ HI) in El. rewrite <- (Hpc j Hj) in El. apply (I_lock _ _ HI') in El. congruence. }
      subst j. left. rewrite H2, H3. split; [reflexivity|apply mv_view].
  Qed.

  Lemma Lv_le : vle (Lv s) (Lv s').
  Proof. destruct Lv_case as [[_ H]|[-> _]]; [exact H|apply vle_refl]. Qed.
  Lemma Lv_holds : holds (q_pc y i) = true -> Lv s' = wq_views s' i.
  Proof. intros H. apply (I_lock _ _ (M_I _ _ _ _ _ _ _ HM)) in H. destruct Lv_case as [[K _]|(_ & K & _)]; [exact K|contradiction]. Qed.

  Lemma si_step r : BInv es y -> (close_ok (app_ev e es) -> CInv es y /\ CInv (app_ev e es) y') -> SI r es s -> SI r (app_ev e es) s'.
  Proof.
    intros HBI HC HS. pose proof HM as [HW HB HB' HI HI' Hpc Hph Hh Hcas Htcas Hsw Hret _ _ _]. fold y y' in HI, HI', Hpc, Hh, Hcas, Htcas, Hsw, Hret.
    pose proof HS as [S1 S2 S3 S4 S5 S6 S7 S8 S9]. fold y in S1, S5, S6, S7.
    pose proof (last_lt _ (B_hist _ HB)) as Hll.
    assert (Hnth : forall k v, nth_error (wq_hist s') k = Some v -> nth_error (wq_hist s) k = Some v \/
       (k = length (wq_hist s) /\ v = q_state y' /\ qv_state (wq_views s' i) = k /\ last_index (wq_hist s') = k /\ wcase y y' i e)).
    { intros k v Hk. destruct Hh as [[H1 _]|(H1 & H2 & H3)]; rewrite H1 in *; [auto|]. apply nth_app_inv in Hk. destruct Hk as [Hk|[-> ->]]; [auto|]. right.
      rewrite last_app. auto. }
    assert (Hlst : last_index (wq_hist s) <= last_index (wq_hist s')).
    { destruct Hh as [[-> _]|(-> & _)]; [lia|]. rewrite last_app. lia. }
    assert (Hclt : q_closed es = true -> q_closed (app_ev e es) = true) by apply closed_tail.
    constructor; fold y'.
    - destruct Hh as [[H1 H2]|(H1 & _ & _)]; rewrite H1.
      + rewrite H2. exact S1.
      + rewrite last_app. rewrite nth_error_app2 by lia. rewrite Nat.sub_diag. reflexivity.
    - intros k v Hk. destruct (Hnth k v Hk) as [Ho|(-> & -> & _ & _ & Hw)].
      + destruct (S2 k v Ho) as [?|[?|[?|[? ?]]]]; auto 6.
      + destruct Hw as [(_ & ->)|[(_ & _ & _ & ->)|[(_ & ->)|[(-> & ->)|[(_ & _ & ->)|(_ & _ & ->)]]]]]; auto.
    - intros k Hk. pose proof Lv_le as (Hle & _ & _). destruct (Hnth k _ Hk) as [Ho|(-> & Hv & Hx & _ & Hw)].
      + specialize (S3 k Ho). lia.
      + destruct Hw as [(_ & Hq)|[(Hq & _)|[(_ & Hq)|[(_ & Hq)|[(_ & _ & Hq)|(_ & _ & Hq)]]]]]; try (rewrite Hq in Hv; discriminate).
        rewrite (Lv_holds Hq). lia.
    - intros Hp k v Hlt Hk. pose proof Lv_le as (Hle & _ & _).
      destruct (Hnth _ _ Hp) as [Ho|(Hpl & _ & _ & Hl & _)].
      2:{ apply nth_le in Hk. lia. }
      assert (Hpp : qv_state (Lv s') = qv_state (Lv s)) by (specialize (S3 _ Ho); lia). rewrite Hpp in *.
      destruct (Hnth k v Hk) as [Hk'|(-> & -> & Hx & _ & Hw)]; [exact (S4 Ho k v Hlt Hk')|].
      assert (Hnl : holds (q_pc y i) = false). { destruct (holds (q_pc y i)) eqn:Eh; [|reflexivity]. rewrite <- Hpp in Hlt. rewrite (Lv_holds Eh) in Hlt. lia. }
      assert (Hnew : q_state y = Q_WAITING \/ q_state y = Q_CLOSED).
      { destruct (Nat.eq_dec (qv_state (Lv s)) (last_index (wq_hist s))) as [El|El]; [rewrite El, S1 in Ho; left; congruence|].
        right. apply (S4 Ho (last_index (wq_hist s))); [|exact S1]. apply nth_le in Ho. lia. }
      destruct Hw as [(Hq & _)|[(Hq & _)|[(Hq & _)|[(_ & Hq)|[(Hq & _)|(Hq & _)]]]]]; try congruence.
      + rewrite Hq in Hnew. destruct Hnew; discriminate.
      + apply S6 in Hq. destruct Hnew as [K|K]; rewrite K in Hq; destruct Hq; discriminate.
    - intros j Hj. destruct (Nat.eq_dec j i) as [->|Hji]; [auto|].
      rewrite (W_views _ _ _ _ _ _ HW j Hji). rewrite (Hpc j Hji) in Hj. intros Hk.
      destruct (Hnth _ _ Hk) as [Ho|(Hl & _)]; [exact (S5 j Hj Ho)|].
      pose proof (B_view _ HB j) as (Hb & _ & _). cbn [top qv_state] in Hb. lia.
    - intros j v Hj. destruct (Nat.eq_dec j i) as [->|Hji]; [auto|]. rewrite (Hpc j Hji) in Hj. eauto.
    - intros Hok j Hj k v Hk Hv. destruct (HC Hok) as [HC0 HC1]. pose proof (mv_view j) as (Hle & _ & _).
      assert (Hcase : swapped (q_pc y j) = true \/ j = i /\ qv_state (wq_views s' i) = length (wq_hist s) /\ q_state y' = Q_CLOSED).
      { destruct (Nat.eq_dec j i) as [->|Hji]; [|rewrite (Hpc j Hji) in Hj; auto]. destruct (Hsw Hj) as [?|[? ?]]; auto. }
      destruct (Hnth k v Hv) as [Ho|(-> & -> & _)].
      + destruct Hcase as [Hc|(-> & Hx & _)].
        * apply (S7 (close_ok_tail _ _ Hok) j Hc k v); [lia|exact Ho].
        * apply nth_le in Ho. lia.
      + destruct Hcase as [Hc|(_ & _ & Hq)]; [|exact Hq]. apply (C_state _ _ HC1). apply Hclt. apply closed_in. exists j. apply (HBI j). exact Hc.
    - intros Hok [k0 Hk0] k v Hk Hv. destruct (HC Hok) as [HC0 HC1]. pose proof Lv_le as (Hle & _ & _).
      assert (Hq : q_state y' = Q_CLOSED) by (apply (C_state _ _ HC1); apply (C_swept _ _ HC1); eauto).
      destruct (Hnth k v Hv) as [Ho|(_ & -> & _)]; [|exact Hq].
      assert (Hold : In (ERetClose k0) es \/ e = Some (ERetClose k0)) by (destruct e; [destruct Hk0; [right; congruence|auto]|auto]).
      destruct Hold as [Hold|Hnew]; [apply (S8 (close_ok_tail _ _ Hok) (ex_intro _ k0 Hold) k v); [lia|exact Ho]|].
      destruct (Hret _ Hnew) as (-> & H1 & H2). rewrite (Lv_holds H2) in Hk. pose proof (mv_view i) as (Hle' & _ & _).
      apply (S7 (close_ok_tail _ _ Hok) i H1 k v); [lia|exact Ho].
    - intros HG k Hk Hv. pose proof (mv_view r) as (Hle & _ & _).
      destruct (Hnth k _ Hv) as [Ho|(_ & _ & _ & Hl & _)]; [|auto].
      destruct (S9 (Gr_tail _ _ _ HG) k) as [Hkl|Hc]; [lia|exact Ho| |auto].
      destruct Hh as [[H1 _]|(H1 & H2 & Hw)]; [rewrite H1; auto|].
      assert (Hst : q_state y = Q_WAITING) by (rewrite Hkl, S1 in Ho; congruence).
      destruct Hw as [(Hq & _)|[(_ & _ & Hq & _)|[(Hq & _)|[(-> & _)|[(_ & Hq & _)|(_ & Hq & _)]]]]]; try (rewrite Hst in Hq; discriminate).
      + apply S6 in Hq. rewrite Hst in Hq. destruct Hq; discriminate.
      + right. reflexivity.
      + assert (i = r). { apply (proj1 (proj2 (Gr_tail _ _ _ HG))). apply in_notify_in. rewrite (proj1 (HBI i)). exact Hq. } subst r. lia.
      + exfalso. assert (Hd : in_drop i es = true) by (rewrite (proj1 (proj2 (HBI i))); exact Hq).
        apply (proj2 (proj2 (Gr_tail _ _ _ HG)) i). clear - Hd. induction es as [|x l IH]; simpl in Hd; [discriminate|].
        destruct x; try (right; auto; fail); match type of Hd with context [Nat.eqb ?a i] => destruct (Nat.eqb_spec a i) as [->|] end; try discriminate; [now left|right; auto..].
  Qed.
End Move.

Lemma half_holds p n : half p = Some n -> holds p = true.
Proof. destruct p; simpl; congruence. Qed.

Section MoveN.
  Variables (es : list qevent) (s s' : wqueue) (i : nat) (e : option qevent) (q : list (option nat)) (v0 : qview).
  Hypothesis HM : Mv es s s' i e q v0.
  Let y := wq_sys s.
  Let y' := wq_sys s'.

  Lemma nodes_old n k : k <= last_index (wq_nodes s n) -> nth_error (wq_nodes s' n) k = nth_error (wq_nodes s n) k.
  Proof.
    intros Hk. pose proof (last_lt _ (B_nodes _ (M_b _ _ _ _ _ _ _ HM) n)) as Hl.
    destruct (M_nodes _ _ _ _ _ _ _ HM) as [(H1 & _)|(m & H1 & H2 & _)]; [now rewrite H1|].
    destruct (Nat.eq_dec n m) as [->|Hm]; [|now rewrite H2]. rewrite H1. apply nth_error_app1. lia.
  Qed.

  Lemma ni_step : NI s -> NI s'.
  Proof.
    intros [N1 N2 N3 N4 N5 N6 N7]. pose proof HM as [HW HB HB' HI HI' Hpc Hph _ _ _ _ _ Hn Hc Hwk]. fold y y' in HI, HI', Hpc, Hph, Hn, Hc, Hwk. fold y in N1, N4, N7.
    pose proof nodes_old as Hold.
    assert (Hlt : forall n, S (last_index (wq_nodes s n)) = length (wq_nodes s n)) by (intros n; apply last_lt, (B_nodes _ HB)).
    assert (Hvb : forall j n, qv_node (wq_views s j) n <= last_index (wq_nodes s n)) by (intros j n; apply (B_view _ HB j)).
    assert (Hub : forall m u, wq_wakes s m = Some u -> forall n, qv_node u n <= last_index (wq_nodes s n)) by (intros m u Hu; apply (B_wakes _ HB _ _ Hu)).
    assert (Hhalf : forall n, half (q_pc y' i) = Some n -> wq_nodes s' n = wq_nodes s n ++ [n_state (q_heap y' n)] /\ qv_node (wq_views s' i) n = length (wq_nodes s n) /\
       n_state (q_heap y' n) <> Q_WAITING /\ wq_woken s' = wq_woken s /\ wq_wakes s' = wq_wakes s).
    { intros n Hh. destruct Hn as [(_ & _ & K)|(m & K1 & _ & _ & K2 & _ & _ & _ & Kc & K3 & K4)]; [congruence|].
      destruct Kc as [(_ & _ & K)|(_ & K & K')]; [congruence|]. replace n with m in * by congruence. auto. }
    assert (Hmax : forall n a b, nth_error (wq_nodes s' n) a <> Some Q_WAITING -> nth_error (wq_nodes s' n) b <> Some Q_WAITING -> nth_error (wq_nodes s' n) (Nat.max a b) <> Some Q_WAITING).
    { intros n a b Ha Hb. destruct (Nat.max_spec a b) as [[_ ->]|[_ ->]]; assumption. }
    constructor; fold y'.
    - intros n. destruct Hn as [(H1 & H2 & _)|(m & H1 & H2 & H3 & _)]; [rewrite H1, H2; apply N1|].
      destruct (Nat.eq_dec n m) as [->|Hm]; [|rewrite H2, H3 by exact Hm; apply N1].
      rewrite H1, last_app, nth_error_app2, Nat.sub_diag by lia. reflexivity.
    - intros n k v Hk Hl Hv. assert (Hko : qv_node (wq_views s n) n <= k). { pose proof (mv_view _ _ _ _ _ _ _ HM n) as (_ & Hle & _). specialize (Hle n). lia. }
      destruct Hn as [(H1 & _)|(m & H1 & H2 & _ & H4 & _ & _ & _ & H5 & _)]; [rewrite H1 in *; eauto|].
      destruct (Nat.eq_dec n m) as [->|Hm]; [|rewrite H2 in * by exact Hm; eauto].
      rewrite H1, last_app in Hl. destruct H5 as [(-> & _)|(H5 & _)]; [lia|].
      rewrite Hold in Hv by (specialize (Hlt m); lia).
      destruct (Nat.eq_dec k (last_index (wq_nodes s m))) as [->|]; [|apply (N2 m k v); [exact Hko|specialize (Hlt m); lia|exact Hv]].
      rewrite N1 in Hv. pose proof (I_wait _ _ HI m H5). congruence.
    - intros n. destruct (Lv_case _ _ _ _ _ _ _ HM) as [[HL Hle]|(HL & HL1 & HL2)].
      + pose proof (B_view _ HB' i) as (_ & Hb & _). specialize (Hb n). cbn [top qv_node] in Hb. rewrite <- HL in Hb.
        destruct Hle as (_ & Hle & _). specialize (Hle n). rewrite N3 in Hle.
        destruct Hn as [(H1 & _)|(m & H1 & H2 & _ & H4 & _)]; [rewrite H1 in *; lia|].
        destruct (Nat.eq_dec n m) as [->|Hm]; [|rewrite H2 in * by exact Hm; lia]. rewrite H1, last_app, HL. exact H4.
      + rewrite HL. destruct Hn as [(H1 & _)|(m & _ & _ & _ & _ & H5 & _)]; [rewrite H1; apply N3|].
        apply (I_lock _ _ HI) in H5. contradiction.
    - intros k n Hk. destruct (Nat.eq_dec k i) as [->|Hki].
      + destruct (Hc n Hk) as [Hh|[H1 H2]].
        * destruct (Hhalf n Hh) as (H1 & H2 & H3 & _). rewrite H1, H2, nth_error_app2, Nat.sub_diag by lia. simpl. congruence.
        * rewrite H2, Hold by apply Hvb. exact (N4 i n H1).
      + rewrite (W_views _ _ _ _ _ _ HW k Hki), Hold by apply Hvb. rewrite (Hpc k Hki) in Hk. exact (N4 k n Hk).
    - intros n u Hu. destruct (W_wakes _ _ _ _ _ _ HW n) as [K|[K|(w & K1 & K)]]; rewrite K in Hu.
      + rewrite Hold by exact (Hub _ _ Hu n). eauto.
      + discriminate.
      + destruct (Hwk n w K1) as (H1 & H2 & H3).
        assert (Hv : nth_error (wq_nodes s' n) (qv_node (wq_views s' i) n) <> Some Q_WAITING) by (rewrite H3, Hold by apply Hvb; exact (N4 i n H1)).
        destruct (wq_wakes s n) as [u0|] eqn:Eu; injection Hu as <-; [|exact Hv]. cbn [qv_join qv_node]. apply Hmax; [|exact Hv].
        rewrite Hold by exact (Hub _ _ Eu n). eauto.
    - intros n. destruct (W_woken _ _ _ _ _ _ HW n) as [->|(-> & u & Hu & -> & _)].
      + rewrite Hold by apply (B_woken _ HB). apply N6.
      + apply Hmax; rewrite Hold by first [apply (B_woken _ HB)|exact (Hub _ _ Hu i)]; eauto.
    - intros n Hwin. unfold window in Hwin. destruct (q_lock y') as [k|] eqn:El; [|discriminate].
      destruct (Nat.eq_dec k i) as [->|Hki].
      + destruct (Hhalf n Hwin) as (H1 & H2 & _ & H3 & H4). specialize (Hlt n). rewrite H1, last_app, H3, H4.
        split; [pose proof (B_woken _ HB n); lia|]. split.
        * intros u Hu. pose proof (Hub _ _ Hu n). lia.
        * intros k Hk Hh. assert (k <> i) by (intros ->; congruence). rewrite (W_views _ _ _ _ _ _ HW k) by assumption. specialize (Hvb k n). lia.
      + rewrite (Hpc k Hki) in Hwin. pose proof (half_holds _ _ Hwin) as Hh. apply (I_lock _ _ HI) in Hh.
        assert (Hw0 : window y = Some n) by (unfold window; now rewrite Hh). destruct (N7 n Hw0) as (M1 & M2 & M3).
        assert (Hni : holds (q_pc y i) = false) by (destruct (holds (q_pc y i)) eqn:Ei; [apply (I_lock _ _ HI) in Ei; congruence|reflexivity]).
        assert (Hnn : half (q_pc y i) = None) by (destruct (half (q_pc y i)) eqn:Ei; [apply half_holds in Ei; congruence|reflexivity]).
        destruct Hn as [(H1 & _ & Hnh)|(m & _ & _ & _ & _ & H5 & _)]; [|congruence]. rewrite H1.
        assert (Hmx : forall a b, a <= last_index (wq_nodes s n) -> b <= last_index (wq_nodes s n) -> a <> last_index (wq_nodes s n) -> b <> last_index (wq_nodes s n) -> Nat.max a b <> last_index (wq_nodes s n)) by (intros; lia).
        split; [|split].
        * destruct (W_woken _ _ _ _ _ _ HW n) as [->|(-> & u & Hu & -> & _)]; [exact M1|].
          apply Hmx; auto; [apply (B_woken _ HB)|exact (Hub _ _ Hu i)].
        * intros u Hu. destruct (W_wakes _ _ _ _ _ _ HW n) as [K|[K|(w & K1 & K)]]; rewrite K in Hu; [auto|discriminate|].
          destruct (Hwk n w K1) as (G1 & G2 & G3). specialize (M3 i G1 G2).
          destruct (wq_wakes s n) as [u0|] eqn:Eu; injection Hu as <-; [|now rewrite G3]. cbn [qv_join qv_node]. rewrite G3. apply Hmx; auto; exact (Hub _ _ Eu n).
        * intros j Hj Hjh. destruct (Nat.eq_dec j i) as [->|Hji].
          -- destruct (Hc n Hj) as [?|[G1 G2]]; [congruence|]. rewrite G2. auto.
          -- rewrite (W_views _ _ _ _ _ _ HW j Hji). rewrite (Hpc j Hji) in Hj, Hjh. auto.
  Qed.
End MoveN.
