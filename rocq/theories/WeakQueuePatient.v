(** The wait queue on weak memory whose owners only look when they were woken. *)
From Coq Require Import List Bool Arith NArith Lia.
From Verif Require Import WaitCellModel WaitList WaitListSpec WaitListFacts WaitQueueModel WaitQueueSpec WaitQueueFacts WaitQueueSafety
  WaitQueueWake WaitQueuePatient WaitQueueStored WeakQueueModel WeakQueueFacts WeakQueueInv WeakQueueMove WeakQueueData.
Import ListNotations.

(** The owner of a waiter that waits acts on it only because it was woken, and sees what the waking thread had seen (the
    executor polls only tasks that were woken; park returns only after an unpark). *)
Definition takes_wake (s : wqueue) (a : wqaction) : Prop :=
  match a with
  | ACall (QCont i _ | QDrop i | QTimeout i) sync => q_phase (wq_sys s) i = PWaiting -> sync = true
  | _ => True
  end.

Inductive woken_run (debug : bool) : list qevent -> wqueue -> Prop :=
| woken_init : woken_run debug [] wq_init
| woken_step es s a s' e : woken_run debug es s -> takes_wake s a -> wq_step debug s a = Some (s', e) -> woken_run debug (app_ev e es) s'.

Lemma woken_is_run debug es s : woken_run debug es s -> wqrun debug es s.
Proof. induction 1 as [|es s a s' e _ IH _ Hs]; [constructor|exact (wqrun_step debug es s a s' e IH Hs)]. Qed.

Record PI (es : list qevent) (s : wqueue) : Prop := {
  P_J : JInv es (wq_sys s);
  P_due : forall n u, wq_wakes s n = Some u -> due n es = true;
  P_wake : forall n u, wq_wakes s n = Some u -> sleeping (q_pc (wq_sys s) n) (q_phase (wq_sys s) n) /\ qv_node u n = last_index (wq_nodes s n);
  P_woken : forall n, ~ sleeping (q_pc (wq_sys s) n) (q_phase (wq_sys s) n) -> (forall w, q_pc (wq_sys s) n <> SEnq w) ->
    wq_woken s n = last_index (wq_nodes s n);
  P_carry : forall k n, carries (q_pc (wq_sys s) k) = Some n -> qv_node (wq_views s k) n = last_index (wq_nodes s n)
}.

Lemma jinv_stale (G : list qevent -> Prop) es s i p' : JInv es s -> stale G es s i p' -> JInv es (with_pc s i p').
Proof.
  intros HJ Hst. pose proof (J_start _ _ HJ i) as Q3.
  apply (jinv_local es s i p' (q_phase s) (q_lock s) (q_state s) (q_list s) (q_heap s) None); cbn [app_ev]; auto; stales Hst;
  repeat match goal with H : _ \/ _ |- _ => destruct H end; subst; auto;
  try (rewrite E in Q3; intros _; apply Q3; reflexivity); try discriminate;
  rewrite E; intros [X|[X|[X Y]]] Z; try discriminate; (split; [|exact Z]); right; right; split; auto.
Qed.

(** Sleeping ends only by a call of the owner. *)
Lemma sleeps_on debug y i spur y' e : qstep debug y i spur = Some (y', e) ->
  (sleeping (q_pc y i) (q_phase y i) \/ (exists w, q_pc y i = SEnq w) -> sleeping (q_pc y' i) (q_phase y' i) \/ e = Some (EUb i)) /\
  (forall w, q_pc y' i = SEnq w -> exists u, q_pc y i = SSwap u).
Proof.
  intros Hs. qcases Hs E y i; unfold with_pc, with_mem, with_phase, with_state, with_lock in *; cbn [q_pc q_phase]; rewrite ?pset_same; (split; [|intros ? Hx; first [discriminate|congruence|match type of Hx with context [match ?o with _ => _ end] => destruct o; discriminate end|eauto]]).
  all: try (right; reflexivity).
  all: intros [[X|[X|[X Y]]]|[u X]]; try discriminate; try (injection X as ->); left; unfold sleeping; rewrite ?E; cbn [own]; auto; right; right; split; auto; match goal with |- context [match ?o with _ => _ end] => destruct o; reflexivity end.
Qed.

Lemma newest_hasty debug s i s' e : newest debug s i = Some (s', e) -> wq_hasty s' = hasten s i (last_index (wq_nodes s i)) e.
Proof.
  unfold newest. destruct (qstep debug (wq_sys s) i false) as [[y' e0]|]; [|discriminate].
  destruct (swaps i (q_pc (wq_sys s) i) (q_pc y' i)); intros Hn; injection Hn as <- <-;
  unfold mutex_sync, access; destruct (q_lock (wq_sys s)), (q_lock y'); reflexivity.
Qed.
Lemma older_hasty debug s i k s' e : older debug s i k = Some (s', e) -> wq_hasty s' = hasten s i k e.
Proof.
  unfold older, after_load. destruct (loads_node (wq_sys s) i).
  - destruct (nth_error (wq_nodes s i) k) as [w|]; [|discriminate]. destruct (qv_node (wq_views s i) i <=? k); [|discriminate].
    destruct (qstep debug _ i false) as [[y' e0]|]; [|discriminate]. intros H. injection H as <- <-. unfold mutex_sync. destruct (q_lock (wq_sys s)), (q_lock y'); reflexivity.
  - destruct (uses_state (wq_sys s) i); [|discriminate]. destruct (nth_error (wq_hist s) k) as [w|]; [|discriminate]. destruct ((qv_state (wq_views s i) <=? k) && may_read (q_pc (wq_sys s) i) w); [|discriminate].
    destruct (qstep debug _ i true) as [[y' e0]|]; [|discriminate]. intros H. injection H as <- <-. unfold mutex_sync, access. cbn [wq_sys]. destruct (q_lock (wq_sys s)), (q_lock y'); reflexivity.
Qed.

(** What a call does to the wakeups. *)
Lemma call_wakes debug s a sync s' e : call debug s a sync = Some (s', e) ->
  let i := call_agent a in
  (wq_wakes s' = wq_wakes s /\ (forall n, wq_woken s' n = wq_woken s n) /\ sync = false \/
   exists u, wq_wakes s i = Some u /\ sync = true /\ wq_wakes s' i = None /\ (forall n, n <> i -> wq_wakes s' n = wq_wakes s n) /\
     wq_woken s' i = Nat.max (wq_woken s i) (qv_node u i) /\ (forall n, n <> i -> wq_woken s' n = wq_woken s n)) /\
  (wq_hasty s' = wq_hasty s \/ exists j, a = QTimeout j /\ wq_woken s' j < last_index (wq_nodes s j)).
Proof.
  intros Hc i. unfold call in Hc. fold i in Hc.
  set (wake := match caller a with Some _ => if sync then wq_wakes s i else None | None => None end) in *.
  assert (Hw : (wake = None /\ sync = false) \/ (wake = None /\ sync = true) \/ exists u, wake = Some u /\ wq_wakes s i = Some u /\ sync = true).
  { subst wake. destruct (caller a), sync; auto. destruct (wq_wakes s i) as [u|]; eauto 6. }
  assert (Hn : forall j spur, a <> QStep j spur) by (intros j spur ->; discriminate).
  set (wk := match wake with Some u => Nat.max (wq_woken s i) (qv_node u i) | None => wq_woken s i end) in *.
  set (v0 := match wake with Some u => qv_join (wq_views s i) u | None => wq_views s i end) in *.
  assert (He : (wake <> None \/ sync = false) /\ exists y', 
     s' = access (mkWQ y' (wq_hist s) (wq_nodes s) (qv_set (wq_views s) i v0) (wq_lockv s)
                           (match wake with Some _ => pset (wq_wakes s) i None | None => wq_wakes s end)
                           (pset (wq_woken s) i wk) (wq_data s) (wq_races s)
                           (if gives_up s a wk then i :: wq_hasty s else wq_hasty s)) i (call_touches a)).
  { destruct (qstep_sys debug (wq_sys s) a) as [[y' e0]|] eqn:Eq.
    - split.
      + clear - Hc. destruct wake; [left; discriminate|]. destruct sync; [|auto]. destruct a; discriminate.
      + exists y'. subst wk v0. destruct a as [j|j w|j w|j|j|j|j|j|j spur]; try (destruct (Hn j spur eq_refl)); destruct sync, wake; try discriminate; injection Hc as <- <-; reflexivity.
    - destruct a as [j|j w|j w|j|j|j|j|j|j spur]; try (destruct (Hn j spur eq_refl)); destruct sync, wake; discriminate. }
  destruct He as (Hsy & y' & ->). unfold access. cbn [wq_wakes wq_woken wq_hasty wq_nodes]. clear Hc. split.
  - destruct Hw as [[W W']|[[W W']|(u & W & W' & W'')]]; [|destruct Hsy as [Hsy|Hsy]; congruence|]; subst wk; rewrite W.
    + left. split; [reflexivity|]. split; [|exact W']. intros n. unfold pset. destruct (Nat.eqb_spec n i) as [->|]; reflexivity.
    + right. exists u. split; [exact W'|]. split; [exact W''|]. rewrite !pset_same. split; [reflexivity|]. split; [intros n Hx; now rewrite pset_other|]. split; [reflexivity|intros n Hx; now rewrite pset_other].
  - unfold gives_up. destruct a; auto. destruct (Nat.ltb_spec wk (last_index (wq_nodes s i0))) as [H|H]; [|auto]. right. exists i0. split; [reflexivity|].
    cbn [call_agent] in *. subst i. now rewrite pset_same.
Qed.

Lemma sleeping_dec p ph : sleeping p ph \/ ~ sleeping p ph.
Proof.
  unfold sleeping. destruct (own p) eqn:E.
  - destruct p; try discriminate; try (right; intros [X|[X|[X _]]]; discriminate);
    destruct r; auto; right; intros [X|[X|[X _]]]; discriminate.
  - destruct ph; try (right; intros [X|[X|[_ X]]]; [subst p; discriminate..|discriminate]). left. auto.
Qed.

(** What all moves have in common. *)
Section Next.
  Variables (es : list qevent) (s s' : wqueue) (i : nat) (e : option qevent) (q : list (option nat)) (v0 : qview).
  Hypothesis HM : Mv es s s' i e q v0.
  Hypothesis HP : PI es s.
  Hypothesis HJ' : JInv (app_ev e es) (wq_sys s').
  Hypothesis Hwakes : forall n, wq_wakes s' n = wq_wakes s n \/ wq_wakes s' n = None \/ exists w, e = Some (EWoke i n w).
  Hypothesis Hdue : forall n u, wq_wakes s' n = Some u -> wq_wakes s n = Some u -> due n es = true -> due n (app_ev e es) = true.
  Hypothesis Hsl : forall u, wq_wakes s' i = Some u -> sleeping (q_pc (wq_sys s) i) (q_phase (wq_sys s) i) -> sleeping (q_pc (wq_sys s') i) (q_phase (wq_sys s') i).
  Hypothesis Hwk : ~ sleeping (q_pc (wq_sys s') i) (q_phase (wq_sys s') i) -> (forall w, q_pc (wq_sys s') i <> SEnq w) ->
    (wq_woken s' i = wq_woken s i /\ ~ sleeping (q_pc (wq_sys s) i) (q_phase (wq_sys s) i) /\ (forall w, q_pc (wq_sys s) i <> SEnq w)) \/
    wq_woken s' i = last_index (wq_nodes s i).
  Hypothesis Hown : forall n, wq_nodes s' i <> wq_nodes s i -> half (q_pc (wq_sys s') i) = None -> carries (q_pc (wq_sys s) n) <> Some i /\ wq_wakes s i = None /\ exists w, q_pc (wq_sys s') i = SEnq w.

  Lemma pi_next : PI (app_ev e es) s'.
  Proof.
    destruct HP as [P1 P2 P3 P4 P5]. pose proof (M_step _ _ _ _ _ _ _ HM) as HW.
    assert (Hnn : forall n, wq_nodes s' n = wq_nodes s n \/ (n = i /\ half (q_pc (wq_sys s') i) = None) \/ (In n (waiting es) /\ half (q_pc (wq_sys s') i) = Some n)).
    { intros n. destruct (M_nodes _ _ _ _ _ _ _ HM) as [(K & _)|(m & K1 & K2 & K3 & K4 & K5 & K6 & K7 & K8 & K9)]; [auto|].
      destruct (Nat.eq_dec n m) as [->|Hne]; [|left; auto]. right. destruct K8 as [(-> & _ & H)|(H1 & _ & H2)]; auto. }
    assert (Hsn : forall n, n <> i -> (sleeping (q_pc (wq_sys s') n) (q_phase (wq_sys s') n) <-> sleeping (q_pc (wq_sys s) n) (q_phase (wq_sys s) n))).
    { intros n Hne. rewrite (M_pc _ _ _ _ _ _ _ HM n Hne), (M_ph _ _ _ _ _ _ _ HM n Hne). tauto. }
    assert (Hwn : forall n, n <> i -> wq_woken s' n = wq_woken s n).
    { intros n Hne. destruct (W_woken _ _ _ _ _ _ HW n) as [?|[? _]]; [assumption|contradiction]. }
    assert (Hlen : forall n x, wq_nodes s' n = wq_nodes s n ++ [x] -> last_index (wq_nodes s' n) = length (wq_nodes s n)) by (intros n x ->; apply last_app).
    constructor; [exact HJ'|..].
    - intros n u Hn. destruct (Hwakes n) as [K|[K|[w ->]]]; [|congruence|simpl; now rewrite Nat.eqb_refl].
      assert (K' : wq_wakes s n = Some u) by congruence. apply (Hdue n u Hn K'). eapply P2; eauto.
    - intros n u Hn. destruct (Hwakes n) as [K|[K|[w Ke]]]; [|congruence|].
      + assert (K' : wq_wakes s n = Some u) by congruence. destruct (P3 _ _ K') as [S1 S2]. split.
        * destruct (Nat.eq_dec n i) as [->|Hne]; [eauto|apply Hsn; assumption].
        * destruct (Hnn n) as [->|[[-> Hh]|[Hin _]]]; [exact S2|..].
          -- destruct (list_eq_dec N.eq_dec (wq_nodes s' i) (wq_nodes s i)) as [->|Hd]; [exact S2|]. destruct (Hown 0 Hd Hh) as (_ & Hx & _). congruence.
          -- destruct (J_wait _ _ P1 _ Hin) as [Hx _]. rewrite (P2 _ _ K') in Hx. discriminate.
      + destruct (M_woke _ _ _ _ _ _ _ HM _ _ Ke) as (C1 & C2 & C3).
        destruct (J_carry _ _ P1 _ _ C1) as (D1 & D2 & D3 & D4).
        assert (Hno : wq_wakes s n = None) by (destruct (wq_wakes s n) eqn:Ex; [rewrite (P2 _ _ Ex) in D1; discriminate|reflexivity]).
        assert (Hni : own (q_pc (wq_sys s) i) = false) by (destruct (q_pc (wq_sys s) i); try discriminate; reflexivity).
        split.
        * destruct (Nat.eq_dec n i) as [->|Hne]; [eauto|apply Hsn; assumption].
        * destruct (W_wakes _ _ _ _ _ _ HW n) as [X|[X|(w' & _ & X)]]; [congruence..|]. rewrite Hno in X. assert (u = wq_views s' i) by congruence. subst u.
          rewrite C3, (P5 _ _ C1). destruct (Hnn n) as [->|[[-> Hh]|[Hin _]]]; [reflexivity|..|contradiction].
          destruct (list_eq_dec N.eq_dec (wq_nodes s' i) (wq_nodes s i)) as [->|Hd]; [reflexivity|]. destruct (Hown i Hd Hh) as (Hx & _). contradiction.
    - intros n Hns Hne. destruct (Hnn n) as [Hsame|[[-> Hh]|[Hin Hh]]].
      + rewrite Hsame. destruct (Nat.eq_dec n i) as [->|Hni].
        * destruct (Hwk Hns Hne) as [(-> & X1 & X2)|X]; [apply P4; assumption|exact X].
        * rewrite Hwn by exact Hni. rewrite (Hsn n Hni) in Hns. rewrite (M_pc _ _ _ _ _ _ _ HM n Hni) in Hne. apply P4; assumption.
      + destruct (list_eq_dec N.eq_dec (wq_nodes s' i) (wq_nodes s i)) as [Hd|Hd].
        * rewrite Hd. destruct (Hwk Hns Hne) as [(-> & X1 & X2)|X]; [apply P4; assumption|exact X].
        * destruct (Hown 0 Hd Hh) as (_ & _ & w & Hx). destruct (Hne _ Hx).
      + assert (Hc : carries (q_pc (wq_sys s') i) = Some n) by (destruct (q_pc (wq_sys s') i); try discriminate; exact Hh).
        destruct (J_carry _ _ HJ' _ _ Hc) as (_ & Hx & _). contradiction.
    - intros k n Hc. destruct (Nat.eq_dec k i) as [->|Hk].
      + destruct (M_carry _ _ _ _ _ _ _ HM _ Hc) as [Hh|[C1 C2]].
        * destruct (M_nodes _ _ _ _ _ _ _ HM) as [(_ & _ & K)|(m & K1 & K2 & K3 & K4 & K5 & K6 & K7 & K8 & K9)]; [congruence|].
          destruct K8 as [(_ & _ & X)|(_ & _ & X)]; [congruence|]. assert (m = n) by congruence. subst m. rewrite (Hlen _ _ K1). exact K4.
        * rewrite C2, (P5 _ _ C1). destruct (Hnn n) as [->|[[-> Hh]|[Hin _]]]; [reflexivity|..].
          -- destruct (list_eq_dec N.eq_dec (wq_nodes s' i) (wq_nodes s i)) as [->|Hd]; [reflexivity|]. destruct (Hown i Hd Hh) as (Hx & _). contradiction.
          -- destruct (J_carry _ _ P1 _ _ C1) as (_ & _ & Hx & _). contradiction.
      + rewrite (M_pc _ _ _ _ _ _ _ HM k Hk) in Hc. rewrite (W_views _ _ _ _ _ _ HW k Hk), (P5 _ _ Hc).
        destruct (Hnn n) as [->|[[-> Hh]|[Hin _]]]; [reflexivity|..].
        * destruct (list_eq_dec N.eq_dec (wq_nodes s' i) (wq_nodes s i)) as [->|Hd]; [reflexivity|]. destruct (Hown k Hd Hh) as (Hx & _). contradiction.
        * destruct (J_carry _ _ P1 _ _ Hc) as (_ & _ & Hx & _). contradiction.
  Qed.
End Next.

Lemma peek_loads debug y i spur y' j : qstep debug y i spur = Some (y', Some (EPeek j)) -> j = i /\ loads_node y i = true.
Proof.
  intros Hs. assert (Hx : forall e, e = Some (EPeek j) -> qstep debug y i spur = Some (y', e) -> j = i /\ loads_node y i = true); [|exact (Hx _ eq_refl Hs)].
  clear Hs. intros e He Hs. unfold loads_node. qcases Hs E y i; try discriminate; injection He as ->; auto.
Qed.

Lemma loads_awake y i : loads_node y i = true -> ~ sleeping (q_pc y i) (q_phase y i) /\ forall w, q_pc y i <> SEnq w.
Proof. unfold loads_node, sleeping. destruct (q_pc y i); try discriminate; intros _; (split; [intros [X|[X|[X _]]]; discriminate|discriminate]). Qed.

Lemma due_step debug y i spur y' e n es : qstep debug y i spur = Some (y', e) -> due n es = true -> due n (app_ev e es) = true.
Proof.
  intros Hs Hd. qcases Hs E y i; cbn [app_ev due]; try exact Hd; try (destruct r; try exact Hd); destruct (_ =? n); auto.
Qed.

Lemma pi_start : PI [] wq_init.
Proof.
  constructor; cbn; try discriminate; try reflexivity.
  constructor; cbn; try contradiction; try discriminate.
Qed.

Lemma pi_step debug es s a s' e : WQ 0 debug es s -> Bounded s -> PI es s -> takes_wake s a -> wq_step debug s a = Some (s', e) -> patient (app_ev e es) ->
  wq_hasty s = [] -> wq_hasty s' = [] /\ PI (app_ev e es) s'.
Proof.
  intros HQ HB HP Hta Hs Hpat Hh. pose proof HP as [P1 P2 P3 P4 P5].
  assert (Hh' : wq_hasty s' = []).
  { destruct a as [a sync|i [k|]]; cbn [wq_step] in Hs.
    - destruct (call_wakes _ _ _ _ _ _ Hs) as [Hw [K|(j & -> & K)]]; [congruence|]. exfalso. cbn [call_agent takes_wake] in *.
      unfold call in Hs. cbn [call_agent caller qstep_sys] in Hs.
      destruct (idle (wq_sys s) j) eqn:Ei; [apply idle_pc in Ei|destruct sync; destruct (wq_wakes s j); discriminate].
      destruct (q_phase (wq_sys s) j) eqn:Ep; try (destruct sync; destruct (wq_wakes s j); discriminate). specialize (Hta eq_refl). subst sync.
      destruct Hw as [(_ & _ & X)|(u & X1 & _ & _ & _ & X2 & _)]; [discriminate|]. destruct (P3 _ _ X1) as [_ X3]. lia.
    - rewrite (older_hasty _ _ _ _ _ _ Hs). unfold hasten. destruct e as [[]|]; auto.
      destruct (older_spec _ _ _ _ _ _ HB Hs) as (q & _ & _ & _ & _ & _ & _ & [(Hl & _ & w & r & Hw & _)|(Hl & _ & _ & w & r & _ & _ & _ & Hq & _)]).
      + destruct (loads_awake _ _ Hl) as [L1 L2]. rewrite (P4 i L1 L2). pose proof (nth_le _ _ _ Hw). destruct (Nat.leb_spec k (last_index (wq_nodes s i))); [exact Hh|lia].
      + apply peek_loads in Hq as [_ Hq]. unfold loads_node in *. cbn [with_state q_pc] in Hq. congruence.
    - rewrite (newest_hasty _ _ _ _ _ Hs). unfold hasten. destruct e as [[]|]; auto.
      destruct (newest_spec _ _ _ _ _ HB Hs) as (y' & Hq & _). apply peek_loads in Hq as [_ Hl]. destruct (loads_awake _ _ Hl) as [L1 L2]. rewrite (P4 i L1 L2), Nat.leb_refl. exact Hh. }
  split; [exact Hh'|]. pose proof (wq_next 0 debug es s a s' e HB HQ Hs Hh') as HQ'.
  destruct HQ as [Hr Hu Ht HS HN HD _]. destruct HQ' as [Hr' Hu' Ht' _ _ _ _].
  destruct (qrun_safe _ _ _ Hr Hu Ht) as (_ & HI & _). destruct (qrun_safe _ _ _ Hr' Hu' Ht') as (Hub' & HI' & _).
  assert (Hnub : forall i, e <> Some (EUb i)) by (intros i ->; apply (Hub' i); now left).
  assert (Hnd : forall i, wq_nodes s' i = wq_nodes s i -> wq_nodes s' i <> wq_nodes s i -> False) by auto.
  destruct a as [a sync|i [k|]]; cbn [wq_step] in Hs.
  - destruct (call_mv _ _ _ _ _ _ _ HB HI HI' Hs) as [v0 HM]. destruct (call_wakes _ _ _ _ _ _ Hs) as [Hw _].
    destruct (call_spec _ _ _ _ _ _ HB Hs) as (i0 & _ & Hq & Hn & Hi0 & _ & _ & _ & Hno & _). clear i0 Hi0.
    set (i := call_agent a) in *.
    destruct (qcall_agent _ _ _ _ _ Hn Hq) as (j & p' & ph' & J1 & J2 & J3 & _ & _ & _ & _ & J8).
    assert (Hj : j = i).
    { clear - J1 J2 J3 J8 Hq Hn. subst i. set (y2 := wq_sys s') in *. clearbody y2. destruct a as [i|i w|i w|i|i|i|i|i|i spur]; try (destruct (Hn i spur); reflexivity); qcalls Hq (wq_sys s) i E Ep;
      repeat match goal with H : _ \/ _ |- _ => destruct H | H : _ /\ _ |- _ => destruct H | H : exists _, _ |- _ => destruct H end; cbn [call_agent]; congruence. }
    subst j.
    assert (Htk : (exists w, e = Some (ECont i w)) \/ e = Some (EDrop i) \/ e = Some (ETimeout i) -> q_phase (wq_sys s) i = PWaiting ->
      wq_wakes s' i = None /\ wq_woken s' i = last_index (wq_nodes s i)).
    { intros He Hp. assert (Hsy : sync = true).
      { clear - Hta Hq He Hp. subst i. set (y2 := wq_sys s') in *. clearbody y2. destruct a as [i|i w|i w|i|i|i|i|i|i spur]; cbn [call_agent] in *; try (apply Hta; exact Hp);
        try (cbn [qstep_sys] in Hq; destruct (idle (wq_sys s) i); try discriminate; rewrite ?Hp in Hq; try discriminate;
          injection Hq as <- <-; destruct He as [[w' He]|[He|He]]; discriminate).
        cbn [qstep_sys] in Hq. destruct (qstep_agent _ _ _ _ _ _ Hq) as (Ha & _). destruct He as [[w' ->]|[-> | ->]]; contradiction. }
      destruct Hw as [(_ & _ & X)|(u & X1 & _ & X2 & _ & X3 & _)]; [congruence|]. split; [exact X2|]. destruct (P3 _ _ X1) as [_ X4]. rewrite X3.
      pose proof (B_woken _ HB i). lia. }
    assert (Hnw : forall u, wq_wakes s i = Some u -> q_phase (wq_sys s) i = PWaiting).
    { intros u Hx. destruct (P3 _ _ Hx) as [[X|[X|[_ X]]] _]; [rewrite J1 in X; discriminate..|exact X]. }
    assert (Hsame : q_phase (wq_sys s) i <> PWaiting -> wq_woken s' i = wq_woken s i).
    { intros Hx. destruct Hw as [(_ & X & _)|(u & X1 & _)]; [apply X|destruct (Hx (Hnw _ X1))]. }
    apply (pi_next es s s' i e (ev_touches e) v0 HM HP).
    + exact (jinv_call _ _ _ _ _ _ P1 Hn Hq Hpat).
    + intros n. destruct (W_wakes _ _ _ _ _ _ (M_step _ _ _ _ _ _ _ HM) n) as [?|[?|(w & ? & _)]]; eauto.
    + intros n u Hu1 Hu2 Hd. assert (Hx : (forall w, e <> Some (EStart n w)) /\ (forall w, e <> Some (ECont n w))).
      { split; intros w ->; destruct (Nat.eq_dec n i) as [->|Hne]; clear Hq Hs.
        - repeat match goal with H : _ \/ _ |- _ => destruct H | H : _ /\ _ |- _ => destruct H | H : exists _, _ |- _ => destruct H end; try discriminate; specialize (Hnw _ Hu2); congruence.
        - repeat match goal with H : _ \/ _ |- _ => destruct H | H : _ /\ _ |- _ => destruct H | H : exists _, _ |- _ => destruct H end; try discriminate; congruence.
        - destruct (Htk (or_introl (ex_intro _ w eq_refl)) (Hnw _ Hu2)). congruence.
        - repeat match goal with H : _ \/ _ |- _ => destruct H | H : _ /\ _ |- _ => destruct H | H : exists _, _ |- _ => destruct H end; try discriminate; congruence. }
      destruct Hx as [X1 X2]. destruct e as [[]|]; cbn [app_ev due]; auto.
      * destruct (Nat.eqb_spec i0 n) as [->|]; [destruct (X1 _ eq_refl)|exact Hd].
      * destruct (Nat.eqb_spec i0 n) as [->|]; [destruct (X2 _ eq_refl)|exact Hd].
      * destruct r; auto. destruct (i0 =? n); auto.
      * destruct (_ =? n); auto.
    + intros u Hu1 Hsl. rewrite J2, J3, !pset_same. destruct Hsl as [X|[X|[_ X]]]; [rewrite J1 in X; discriminate..|].
      right. right. destruct J8 as [(-> & -> & H1 & -> & _)|(_ & [(w & -> & -> & -> & H1)|[(w & -> & -> & -> & H1)|[(-> & -> & ->)|[(-> & -> & ->)|[(-> & -> & -> & H1)|[(-> & -> & -> & H1)|(-> & -> & -> & H1)]]]]]])]; auto; try congruence.
      * destruct H1; congruence.
      * destruct (Htk (or_introl (ex_intro _ w eq_refl)) X). congruence.
      * destruct H1 as [?|[?|?]]; congruence.
      * destruct (Htk (or_intror (or_introl eq_refl)) X). congruence.
      * destruct (Htk (or_intror (or_intror eq_refl)) X). congruence.
    + rewrite J2, J3, !pset_same, J1. intros Hns _.
      assert (Hnot : q_phase (wq_sys s) i <> PWaiting -> wq_woken s' i = wq_woken s i /\ ~ sleeping QIdle (q_phase (wq_sys s) i) /\ (forall w, QIdle <> SEnq w)).
      { intros Hx. split; [auto|]. split; [|discriminate]. intros [X|[X|[_ X]]]; try discriminate. auto. }
      assert (Hpw : (q_phase (wq_sys s) i = PWaiting /\ ((exists w, e = Some (ECont i w)) \/ e = Some (EDrop i) \/ e = Some (ETimeout i))) \/ q_phase (wq_sys s) i <> PWaiting).
      { destruct J8 as [(-> & -> & H1 & -> & _)|(_ & [(w & -> & -> & -> & H1)|[(w & -> & -> & -> & H1)|[(-> & -> & ->)|[(-> & -> & ->)|[(-> & -> & -> & H1)|[(-> & -> & -> & H1)|(-> & -> & -> & H1)]]]]]])]; auto.
        - right. congruence.
        - right. destruct H1; congruence.
        - destruct H1; [left; split; [assumption|eauto]|right; congruence].
        - right. intros X. apply Hns. right. right. auto.
        - right. intros X. apply Hns. right. right. auto.
        - right. destruct H1 as [?|[?|?]]; congruence. }
      destruct Hpw as [[X1 X2]|X]; [right; apply (Htk X2 X1)|left; auto].
    + intros n Hd. rewrite Hno in Hd. destruct Hd. reflexivity.
  - destruct (older_mv _ _ _ _ _ _ _ _ HB HI HI' HS Hs) as (q & HM & _ & _ & Hwk & Hwo).
    pose proof (older_sim _ _ _ _ _ _ _ _ Hr HI HB HS HN Hs) as Hsim.
    destruct (older_spec _ _ _ _ _ _ HB Hs) as (_ & _ & _ & _ & Hno & _).
    assert (Hsle : sleeping (q_pc (wq_sys s) i) (q_phase (wq_sys s) i) \/ (exists w, q_pc (wq_sys s) i = SEnq w) -> sleeping (q_pc (wq_sys s') i) (q_phase (wq_sys s') i)).
    { destruct Hsim as [[spur Hq]|(-> & p' & Hst & ->)].
      - intros X. destruct (proj1 (sleeps_on _ _ _ _ _ _ Hq) X) as [?|Y]; [assumption|destruct (Hnub _ Y)].
      - unfold with_pc. cbn [q_pc q_phase]. rewrite pset_same. clear - Hst. stales Hst; rewrite E; intros [[X|[X|[X Y]]]|[u X]]; try discriminate; right; right; auto. }
    apply (pi_next es s s' i e q _ HM HP).
    + destruct Hsim as [[spur Hq]|(-> & p' & Hst & ->)]; [exact (jinv_step _ _ _ _ _ _ _ HI P1 Hq (Hnub i))|exact (jinv_stale _ _ _ _ _ P1 Hst)].
    + intros n. left. now rewrite Hwk.
    + intros n u _ _ Hd. destruct Hsim as [[spur Hq]|(-> & _)]; [exact (due_step _ _ _ _ _ _ _ _ Hq Hd)|exact Hd].
    + intros u _ X. auto.
    + intros X _. left. split; [now rewrite Hwo|]. split; [auto|]. intros w Y. apply X, Hsle. eauto.
    + intros n Hd. rewrite Hno in Hd. destruct Hd. reflexivity.
  - pose proof (newest_mv _ _ _ _ _ _ _ HB HI HI' HS Hs (Hnub i)) as HM.
    destruct (newest_spec _ _ _ _ _ HB Hs) as (y' & Hq & Hy & HW & _ & _ & _ & Hno & _). subst y'.
    assert (Hsle : sleeping (q_pc (wq_sys s) i) (q_phase (wq_sys s) i) \/ (exists w, q_pc (wq_sys s) i = SEnq w) -> sleeping (q_pc (wq_sys s') i) (q_phase (wq_sys s') i)).
    { intros X. destruct (proj1 (sleeps_on _ _ _ _ _ _ Hq) X) as [?|Y]; [assumption|destruct (Hnub _ Y)]. }
    apply (pi_next es s s' i e _ _ HM HP).
    + exact (jinv_step _ _ _ _ _ _ _ HI P1 Hq (Hnub i)).
    + intros n. destruct (W_wakes _ _ _ _ _ _ HW n) as [?|[?|(w & ? & _)]]; eauto.
    + intros n u _ _ Hd. exact (due_step _ _ _ _ _ _ _ _ Hq Hd).
    + intros u _ X. auto.
    + intros X _. left. split; [now rewrite (proj1 (newest_wakes _ _ _ _ _ Hs))|]. split; [auto|]. intros w Y. apply X, Hsle. eauto.
    + intros n Hd Hhf. assert (E : exists w w', q_pc (wq_sys s) i = SSwap w /\ q_pc (wq_sys s') i = SEnq w').
      { specialize (Hno i). destruct (swaps i (q_pc (wq_sys s) i) (q_pc (wq_sys s') i)) as [m|] eqn:Esw; [|contradiction].
        unfold swaps in Esw. destruct (q_pc (wq_sys s) i) eqn:E1; try discriminate; destruct (q_pc (wq_sys s') i) eqn:E2; try discriminate; eauto. }
      destruct E as (w & w' & E & E'). assert (Hns : ~ sleeping (q_pc (wq_sys s) i) (q_phase (wq_sys s) i)) by (rewrite E; intros [X|[X|[X _]]]; discriminate).
      split; [intros X; destruct (J_carry _ _ P1 _ _ X) as (_ & Y & _); contradiction|]. split; [|eauto].
      destruct (wq_wakes s i) eqn:Ex; [destruct (P3 _ _ Ex); contradiction|reflexivity].
Qed.

Theorem woken_patient debug es s : woken_run debug es s -> patient es -> wq_hasty s = [] /\ PI es s.
Proof.
  induction 1 as [|es s a s' e Hr IH Hta Hs]; intros Hp; [split; [reflexivity|exact pi_start]|].
  destruct (IH (patient_tail _ _ Hp)) as [Hh HP]. pose proof (woken_is_run _ _ _ Hr) as Hr'.
  exact (pi_step debug es s a s' e (wq_run 0 _ _ _ Hr' Hh) (wq_bounded _ _ _ Hr') HP Hta Hs Hp Hh).
Qed.
