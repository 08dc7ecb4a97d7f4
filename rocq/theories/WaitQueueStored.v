(** With one notifier, notifications are never lost. *)
From Coq Require Import List Bool Arith NArith Lia.
From Verif Require Import WaitCellModel WaitList WaitListSpec WaitListFacts WaitQueueModel WaitQueueSpec WaitQueueFacts WaitQueueSafety WaitQueueWake.
Import ListNotations.

(** Inside these parts of a critical section the state word is WAITING. *)
Definition wmid (p : qpc) : bool :=
  match p with SNode _ | SSwap _ | SEnq _ | TLinks _ | TEmpty _ => true | _ => false end.
Definition mid (p : qpc) : bool := match p with DEmpty => true | _ => wmid p end.

Lemma wmid_holds p : wmid p = true -> holds p = true.
Proof. destruct p; simpl; congruence. Qed.
Lemma mid_holds p : mid p = true -> holds p = true.
Proof. destruct p; simpl; congruence. Qed.

Record NInv (r : nat) (es : list qevent) (s : qsys) : Prop := {
  N_wait : q_closed es = false -> waiting es <> [] -> q_state s = Q_WAITING;
  N_full : q_closed es = false -> q_state s = Q_WAITING -> waiting es <> [] \/ exists k, mid (q_pc s k) = true;
  N_mid : q_closed es = false -> forall k, wmid (q_pc s k) = true -> q_state s = Q_WAITING;
  N_lock : forall k v, q_pc s k = TLock v \/ q_pc s k = TSlow v -> v = Q_WAITING /\ q_state s = Q_WAITING;
  N_cas : forall k v, q_pc s k = TCas v -> v = Q_EMPTY \/ v = Q_WAKING;
  N_stored : q_closed es = false -> (stored es = true <-> q_state s = Q_WAKING);
  N_dom : q_state s = Q_EMPTY \/ q_state s = Q_WAITING \/ q_state s = Q_WAKING \/ (q_state s = Q_CLOSED /\ q_closed es = true);
  N_drop : forall k i, is_t (q_pc s k) = true -> is_d (q_pc s i) = false
}.

Definition solo_ok (r : nat) (es : list qevent) : Prop := close_ok es /\ one_notifier r es /\ drops_apart es.
Lemma solo_ok_tail r e es : solo_ok r (app_ev e es) -> solo_ok r es.
Proof.
  intros (H1 & H2 & H3). split; [exact (close_ok_tail _ _ H1)|]. split.
  - intros i Hi. apply H2. destruct e; [right|]; exact Hi.
  - destruct e as [[]|]; simpl in H3; tauto.
Qed.

Lemma in_notify_in i es : in_notify i es = true -> In (ECallNotify i) es.
Proof.
  induction es as [|e es IH]; simpl; [discriminate|]. destruct e; auto.
  - destruct (Nat.eqb_spec i0 i) as [->|]; auto.
  - destruct (Nat.eqb_spec i0 i) as [->|]; [discriminate|auto].
  - destruct (Nat.eqb_spec i0 i) as [->|]; [discriminate|auto].
Qed.

(** What a step does to the parts of the state the invariant talks about. *)
Ltac own Hs E s i := qcases Hs E s i; unfold with_pc, with_mem, with_phase, with_state, with_lock; cbn [q_pc q_state q_list]; rewrite ?pset_same, ?E;
  cbn [wmid mid is_t is_d swapped is_k holds]; try discriminate; try exact I.
Ltac eqs :=
  try match goal with H : (_ || _)%bool = true |- _ => apply orb_prop in H end;
  try match goal with H : (_ || _)%bool = false |- _ => apply orb_false_iff in H; destruct H as [? ?] end;
  try match goal with H : (_ && _)%bool = true |- _ => apply andb_prop in H; destruct H as [? ?] end;
  repeat match goal with H : (_ =? _)%N = true |- _ => apply N.eqb_eq in H | H : (_ =? _)%N = false |- _ => apply N.eqb_neq in H end.

Lemma own_wmid debug s i spur s' e : qstep debug s i spur = Some (s', e) ->
  wmid (q_pc s' i) = true -> wmid (q_pc s i) = true \/ (exists w, q_pc s i = SCasEmpty w /\ q_state s' = Q_WAITING) \/ (exists v, q_pc s i = TSlow v) \/
     (holds (q_pc s i) = true /\ q_state s <> Q_EMPTY /\ q_state s <> Q_WAKING /\ q_state s <> Q_CLOSED /\ q_state s' = q_state s).
Proof.
  intros Hs. own Hs E s i; eqs; intros _;
  first [left; reflexivity|right; right; right; repeat split; assumption|right; left; eexists; split; reflexivity|right; right; left; eexists; reflexivity].
Qed.
Lemma own_lock debug s i spur s' e v : qstep debug s i spur = Some (s', e) -> q_pc s' i = TLock v ->
  v = q_state s /\ q_state s' = q_state s /\ q_state s <> Q_EMPTY /\ q_state s <> Q_WAKING /\ is_t (q_pc s i) = true.
Proof. intros Hs. own Hs E s i; eqs; intros Hv; injection Hv as <-; repeat split; assumption. Qed.
Lemma own_slow debug s i spur s' e v : qstep debug s i spur = Some (s', e) -> q_pc s' i = TSlow v -> q_pc s i = TLock v /\ q_state s' = q_state s.
Proof. intros Hs. own Hs E s i; eqs; intros Hv; injection Hv as <-; split; reflexivity. Qed.
Lemma own_cas debug s i spur s' e v : qstep debug s i spur = Some (s', e) -> q_pc s' i = TCas v -> v = Q_EMPTY \/ v = Q_WAKING.
Proof. intros Hs. own Hs E s i; eqs; intros Hv; injection Hv as <-;
  match goal with H : _ \/ _ |- _ => destruct H as [H|H]; apply N.eqb_eq in H; auto end. Qed.
Lemma own_t debug s i spur s' e : qstep debug s i spur = Some (s', e) -> is_t (q_pc s' i) = true -> is_t (q_pc s i) = true.
Proof. intros Hs. own Hs E s i; auto. Qed.
Lemma own_d debug s i spur s' e : qstep debug s i spur = Some (s', e) -> is_d (q_pc s' i) = true -> is_d (q_pc s i) = true.
Proof. intros Hs. own Hs E s i; auto. Qed.
Lemma own_mid debug s i spur s' e : qstep debug s i spur = Some (s', e) -> mid (q_pc s i) = true ->
  mid (q_pc s' i) = true \/ e = Some (EUb i) \/ e = Some (EAssert i) \/ (exists w, e = Some (EEnq i w)) \/
     (list_is_empty (q_list s) = false /\ e = None /\ half (q_pc s i) = None) \/ q_state s' <> Q_WAITING.
Proof.
  intros Hs. own Hs E s i; intros _; auto; try (right; right; right; left; eexists; reflexivity).
  - repeat right. discriminate.
  - right; right; right; right; left. auto.
  - repeat right. discriminate.
  - match goal with H : (_ && _)%bool = false |- _ => apply andb_false_iff in H; destruct H as [H|H] end.
    + right; right; right; right; left. auto.
    + apply N.eqb_neq in C. repeat right. exact C.
Qed.
Lemma own_event debug s i spur s' e : qstep debug s i spur = Some (s', e) ->
  match e with
  | Some (EEnq _ _) => wmid (q_pc s i) = true
  | Some (ESwap _ n st) => (exists v, q_pc s i = TSlow v /\ q_pc s' i = TLinks n) \/ swapped (q_pc s i) = true
  | Some (ERemoved _) => is_d (q_pc s i) = true /\ q_pc s' i = DEmpty
  | _ => True
  end.
Proof. intros Hs. own Hs E s i; auto; left; eexists; split; reflexivity. Qed.

Lemma mutex es s k j : QInv es s -> holds (q_pc s k) = true -> holds (q_pc s j) = true -> k = j.
Proof. intros HI H1 H2. apply (I_lock _ _ HI) in H1, H2. congruence. Qed.

Lemma notifying_open es s k : CInv es s -> is_t (q_pc s k) = true -> q_closed es = false.
Proof.
  intros HC Hk. destruct (q_closed es) eqn:Ec; [|reflexivity]. destruct (C_call _ _ HC Ec) as [j Hj].
  rewrite (C_quiet _ _ HC j Hj k) in Hk. discriminate.
Qed.

(** A notifier in the slow path finds somebody waiting. *)
Lemma slow_takes r debug es s i v spur s' e : QInv es s -> CInv es s -> NInv r es s -> q_pc s i = TSlow v ->
  qstep debug s i spur = Some (s', e) -> e <> Some (EUb i) -> exists n q, waiting es = n :: q /\ e = Some (ESwap i n Q_WAKING) /\ q_pc s' i = TLinks n.
Proof.
  intros HI HC HN E Hs Hub. destruct (N_lock _ _ _ HN i v (or_intror E)) as [-> Hst].
  assert (Hc : q_closed es = false) by (apply (notifying_open es s i HC); rewrite E; reflexivity).
  assert (Hh : holds (q_pc s i) = true) by (rewrite E; reflexivity).
  assert (Hm : members es s = waiting es) by (apply (holder_members es s i HI Hh); rewrite E; reflexivity).
  destruct (N_full _ _ _ HN Hc Hst) as [Hw|[k Hk]].
  2:{ pose proof (mutex _ _ _ _ HI Hh (mid_holds _ Hk)). subst k. rewrite E in Hk. discriminate. }
  destruct (waiting es) as [|n q] eqn:Ew; [congruence|]. exists n, q.
  pose proof (rep_tail _ _ _ (I_rep _ _ HI)) as Ht. rewrite Hm in Ht. simpl in Ht.
  assert (Hn : n_state (q_heap s n) = Q_WAITING) by (apply (I_wait _ _ HI); rewrite Ew; now left).
  unfold qstep in Hs. rewrite E in Hs. change ((Q_WAITING =? Q_WAITING)%N) with true in Hs. cbn match in Hs. rewrite Ht, Hn in Hs.
  destruct (live s n); [|injection Hs as <- <-; destruct Hub; reflexivity].
  change ((Q_WAITING =? Q_WAITING)%N) with true in Hs. rewrite andb_false_r in Hs. injection Hs as <- <-.
  split; [reflexivity|]. split; [reflexivity|]. cbn [with_pc q_pc]. apply pset_same.
Qed.

Section StoredStep.
  Variables (r : nat) (debug : bool).
  Lemma ninv_step es s i spur s' e : QInv es s -> BInv es s -> CInv es s -> NInv r es s -> solo_ok r (app_ev e es) ->
    qstep debug s i spur = Some (s', e) -> NInv r (app_ev e es) s' /\ e <> Some (EAssert i).
  Proof.
    intros HI HB HC HN Hok Hs. destruct (qstep_agent _ _ _ _ _ _ Hs) as (Ha & Hp & _).
    assert (Hub : e <> Some (EUb i)) by (intros ->; apply (proj1 (proj1 Hok) i); now left).
    assert (Hr : forall k, is_t (q_pc s k) = true -> k = r).
    { intros k Hk. rewrite <- (proj1 (HB k)) in Hk. apply in_notify_in in Hk. apply (proj1 (proj2 Hok)). destruct e; [right|]; exact Hk. }
    assert (Has : e <> Some (EAssert i)).
    { intros He. destruct (proj2 (qinv_step debug es s i spur s' e HI Hs Hub) He) as [v E].
      destruct (slow_takes r debug es s i v spur s' e HI HC HN E Hs Hub) as (n & q & _ & He' & _). congruence. }
    split; [|exact Has].
    assert (Hcl : q_closed (app_ev e es) = false -> q_closed es = false).
    { intros Hc. destruct (q_closed es) eqn:Ec; [|reflexivity]. rewrite (closed_tail e es Ec) in Hc. discriminate. }
    assert (Hempty : holds (q_pc s i) = true -> half (q_pc s i) = None -> list_is_empty (q_list s) = true <-> waiting es = []).
    { intros Hh Hf. rewrite <- (holder_members es s i HI Hh Hf). apply (rep_empty _ _ _ (I_rep _ _ HI)). }
    pose proof (qstep_state _ _ _ _ _ _ Hs) as Hst. pose proof (own_event _ _ _ _ _ _ Hs) as Hev.
    constructor.
    - (* N_wait *)
      intros Hc Hw. pose proof (Hcl Hc) as Hc0.
      assert (Hs0 : q_state s = Q_WAITING).
      { destruct (waiting es) as [|x q] eqn:Ew; [|apply (N_wait _ _ _ HN Hc0); rewrite Ew; discriminate].
        destruct e as [[]|]; cbn [app_ev waiting] in Hw; rewrite ?Ew in Hw; try (exfalso; apply Hw; reflexivity).
        exact (N_mid _ _ _ HN Hc0 i Hev). }
      destruct Hst as [[A _]|[(-> & A & B)|[(-> & _ & A & B)|[(-> & A & B)|[(-> & [o [A _]] & B & _)|[(-> & A & B)|(-> & A & _ & B & D & _)]]]]]].
      + congruence.
      + rewrite A in Hs0. discriminate.
      + exact B.
      + destruct (N_cas _ _ _ HN i _ A) as [K|K]; rewrite Hs0 in K; discriminate.
      + destruct Hw. apply Hempty; auto; rewrite A; reflexivity.
      + unfold q_closed in Hc. simpl in Hc. discriminate.
      + destruct Hw. apply Hempty; auto; rewrite A; reflexivity.
    - (* N_full *)
      intros Hc Hw. pose proof (Hcl Hc) as Hc0.
      destruct Hst as [[A B]|[(-> & A & B)|[(-> & (w & _ & A) & _)|[(-> & _ & B)|[(-> & _ & _ & B)|[(-> & _ & B)|(-> & _ & _ & _ & _ & B)]]]]]];
        try (rewrite B in Hw; discriminate).
      2:{ right. exists i. rewrite A. reflexivity. }
      rewrite A in Hw. destruct (N_full _ _ _ HN Hc0 Hw) as [Hne|[k Hk]].
      + destruct e as [[]|]; auto; cbn [app_ev waiting].
        * left. destruct (waiting es); discriminate.
        * right. destruct Hev as [(v & _ & Hev)|Hev].
          -- exists i. rewrite Hev. reflexivity.
          -- exfalso. assert (q_closed es = true) by (apply closed_in; exists i; apply (HB i); exact Hev). congruence.
        * right. exists i. rewrite (proj2 Hev). reflexivity.
      + destruct (Nat.eq_dec k i) as [->|Hki]; [|right; exists k; rewrite (Hp k Hki); exact Hk].
        destruct (own_mid _ _ _ _ _ _ Hs Hk) as [Hm|[He|[He|[[w ->]|[(Hl & -> & Hf)|Hn]]]]].
        * right. eauto.
        * contradiction.
        * contradiction.
        * left. cbn [app_ev waiting]. destruct (waiting es); discriminate.
        * left. cbn [app_ev]. intros K. apply Hempty in K; [congruence|apply mid_holds; exact Hk|exact Hf].
        * congruence.
    - (* N_mid *)
      intros Hc k Hk. pose proof (Hcl Hc) as Hc0. destruct (Nat.eq_dec k i) as [->|Hki].
      + assert (Hsame : wmid (q_pc s i) = true \/ (exists v, q_pc s i = TSlow v) -> q_state s = Q_WAITING -> q_state s' = Q_WAITING).
        { intros Hx Hs0.
          destruct Hst as [[A B]|[(-> & A & B)|[(-> & _ & A & B)|[(-> & A & _)|[(-> & [o [_ A]] & _)|[(-> & A & _)|(-> & A & _)]]]]]].
          - congruence.
          - rewrite A in Hs0. discriminate.
          - exact B.
          - rewrite A in Hx. destruct Hx as [Hx|[v Hx]]; discriminate.
          - rewrite A in Hk. discriminate.
          - rewrite A in Hx. destruct Hx as [Hx|[v Hx]]; discriminate.
          - rewrite A in Hx. destruct Hx as [Hx|[v Hx]]; discriminate. }
        destruct (own_wmid _ _ _ _ _ _ Hs Hk) as [Hx|[(w & _ & Hx)|[[v Hx]|(_ & D1 & D2 & D3 & Hx)]]].
        * apply Hsame; auto. exact (N_mid _ _ _ HN Hc0 i Hx).
        * exact Hx.
        * apply Hsame; [eauto|]. apply (N_lock _ _ _ HN i v). auto.
        * rewrite Hx. destruct (N_dom _ _ _ HN) as [?|[?|[?|[? ?]]]]; congruence.
      + rewrite (Hp k Hki) in Hk. pose proof (N_mid _ _ _ HN Hc0 k Hk) as Hs0. pose proof (wmid_holds _ Hk) as Hh.
        destruct Hst as [[A B]|[(-> & A & B)|[(-> & _ & A & B)|[(-> & A & _)|[(-> & [o [A _]] & _)|[(-> & A & _)|(-> & A & _)]]]]]].
        * congruence.
        * rewrite A in Hs0. discriminate.
        * exact B.
        * destruct (N_cas _ _ _ HN i _ A) as [K|K]; rewrite Hs0 in K; discriminate.
        * destruct Hki. apply (mutex es s k i HI Hh). rewrite A. reflexivity.
        * unfold q_closed in Hc. simpl in Hc. discriminate.
        * destruct Hki. apply (mutex es s k i HI Hh). rewrite A. reflexivity.
    - (* N_lock *)
      intros k v Hk. destruct (Nat.eq_dec k i) as [->|Hki].
      + destruct Hk as [Hk|Hk].
        * destruct (own_lock _ _ _ _ _ _ _ Hs Hk) as (-> & Hx & D1 & D2 & Ht). rewrite Hx.
          pose proof (notifying_open es s i HC Ht) as Hc0. destruct (N_dom _ _ _ HN) as [?|[?|[?|[? ?]]]]; congruence || auto.
        * destruct (own_slow _ _ _ _ _ _ _ Hs Hk) as [Hk0 Hx]. rewrite Hx. apply (N_lock _ _ _ HN i v). auto.
      + rewrite (Hp k Hki) in Hk. destruct (N_lock _ _ _ HN k v Hk) as [-> Hs0]. split; [reflexivity|].
        assert (Htk : is_t (q_pc s k) = true) by (destruct Hk as [-> | ->]; reflexivity).
        destruct Hst as [[A B]|[(-> & A & B)|[(-> & _ & A & B)|[(-> & A & _)|[(-> & [o [A _]] & _)|[(-> & A & _)|(-> & A & _)]]]]]].
        * congruence.
        * rewrite A in Hs0. discriminate.
        * exact B.
        * destruct Hki. rewrite (Hr k Htk), (Hr i); [reflexivity|]. rewrite A. reflexivity.
        * destruct Hki. rewrite (Hr k Htk), (Hr i); [reflexivity|]. rewrite A. reflexivity.
        * assert (Hck : In (ECallClose i) es) by (apply (HB i); rewrite A; reflexivity).
          rewrite (C_quiet _ _ HC i Hck k) in Htk. discriminate.
        * pose proof (N_drop _ _ _ HN k i Htk) as K. rewrite A in K. discriminate.
    - (* N_cas *)
      intros k v Hk. destruct (Nat.eq_dec k i) as [->|Hki]; [exact (own_cas _ _ _ _ _ _ _ Hs Hk)|].
      rewrite (Hp k Hki) in Hk. exact (N_cas _ _ _ HN k v Hk).
    - (* N_stored *)
      intros Hc. pose proof (Hcl Hc) as Hc0. pose proof (N_stored _ _ _ HN Hc0) as HS.
      destruct Hst as [[A B]|[(-> & A & B)|[(-> & _ & A & B)|[(-> & A & B)|[(-> & [o [A _]] & _ & B)|[(-> & A & B)|(-> & A & _ & _ & D & B)]]]]]].
      + rewrite A. destruct e as [[]|]; try contradiction; cbn [app_ev stored]; try exact HS. tauto.
      + rewrite B. simpl. split; discriminate.
      + rewrite B. cbn [app_ev]. rewrite HS, A. split; discriminate.
      + rewrite B. simpl. tauto.
      + rewrite B. cbn [app_ev]. rewrite HS. rewrite (N_mid _ _ _ HN Hc0 i) by (rewrite A; reflexivity). split; discriminate.
      + unfold q_closed in Hc. simpl in Hc. discriminate.
      + rewrite B. cbn [app_ev]. rewrite HS, D. split; discriminate.
    - (* N_dom *)
      destruct Hst as [[A B]|[(-> & A & B)|[(-> & _ & A & B)|[(-> & A & B)|[(-> & _ & _ & B)|[(-> & A & B)|(-> & A & _ & _ & D & B)]]]]]]; rewrite ?B; auto.
      + rewrite A. destruct (N_dom _ _ _ HN) as [?|[?|[?|[? ?]]]]; auto. right; right; right. split; [assumption|now apply closed_tail].
    - (* N_drop *)
      intros k j Hk. destruct (is_d (q_pc s' j)) eqn:Ed; [|reflexivity]. rewrite <- (N_drop _ _ _ HN k j).
      + destruct (Nat.eq_dec j i) as [->|Hji]; [symmetry; exact (own_d _ _ _ _ _ _ Hs Ed)|rewrite (Hp j Hji) in Ed; auto].
      + destruct (Nat.eq_dec k i) as [->|Hki]; [exact (own_t _ _ _ _ _ _ Hs Hk)|now rewrite (Hp k Hki) in Hk].
  Qed.

  Lemma ninv_stale (G : list qevent -> Prop) es s i p' : QInv es s -> CInv es s -> NInv r es s -> G es -> stale G es s i p' -> NInv r es (with_pc s i p').
  Proof.
    intros HI HC HN HG Hs.
    constructor.
    - exact (N_wait _ _ _ HN).
    - intros H1 H2. destruct (N_full _ _ _ HN H1 H2) as [H|[k Hk]]; [auto|]. right. exists k. unfold with_pc. cbn [q_pc]. rewrite pset_other; [exact Hk|].
      intros ->. stales Hs; rewrite E in Hk; discriminate.
    - intros H1 k. unfold with_pc. cbn [q_pc q_state]. destruct (Nat.eq_dec k i) as [->|Hk]; [rewrite pset_same|rewrite pset_other by exact Hk; exact (N_mid _ _ _ HN H1 k)].
      stales Hs; try discriminate; try (destruct H' as [->| ->]; discriminate).
      intros _. exfalso. destruct (N_dom _ _ _ HN) as [K|[K|[K|[_ K]]]]; rewrite ?Hs in K; try discriminate. congruence.
    - intros k v. unfold with_pc. cbn [q_pc q_state]. destruct (Nat.eq_dec k i) as [->|Hk]; [rewrite pset_same|rewrite pset_other by exact Hk; exact (N_lock _ _ _ HN k v)].
      assert (Ht : q_pc s i = TLoad \/ (exists u, q_pc s i = TCas u) -> q_closed es = false).
      { intros Hx. apply (notifying_open es s i HC). destruct Hx as [->|[u ->]]; reflexivity. }
      stales Hs; try (intros [Hx|Hx]; discriminate); try (destruct H' as [->| ->]; intros [Hx|Hx]; discriminate).
      all: intros [Hx|Hx]; [injection Hx as ->|discriminate]; specialize (H'' HG); subst v; assert (Hc : q_closed es = false) by (apply Ht; eauto);
        destruct (N_dom _ _ _ HN) as [?|[?|[?|[? ?]]]]; auto; congruence.
    - intros k v. unfold with_pc. cbn [q_pc q_state]. destruct (Nat.eq_dec k i) as [->|Hk]; [rewrite pset_same|rewrite pset_other by exact Hk; exact (N_cas _ _ _ HN k v)].
      stales Hs; try discriminate; try (destruct H' as [->| ->]; discriminate); intros Hx; injection Hx as <-; exact Hs.
    - exact (N_stored _ _ _ HN).
    - exact (N_dom _ _ _ HN).
    - intros k j. unfold with_pc. cbn [q_pc]. intros Hk.
      assert (Hk0 : is_t (q_pc s k) = true).
      { revert Hk. destruct (Nat.eq_dec k i) as [->|Hk]; [rewrite pset_same|rewrite pset_other by exact Hk; auto].
        stales Hs; rewrite E; auto; destruct H' as [->| ->]; auto. }
      pose proof (N_drop _ _ _ HN k j Hk0) as Hj. destruct (Nat.eq_dec j i) as [->|Hj']; [rewrite pset_same|rewrite pset_other by exact Hj'; exact Hj].
      stales Hs; rewrite E in Hj; auto; destruct H' as [->| ->]; auto.
  Qed.

  Lemma ninv_lrun (G : list qevent -> Prop) (HG : forall e es, G (app_ev e es) -> G es) es s :
    lrun G debug es s -> G es -> solo_ok r es -> NInv r es s /\ no_failure es.
  Proof.
    intros Hr. induction Hr as [|es s a s' e Hr IH Hs|es s i p' Hr IH Hs]; intros Hg Hok.
    3:{ destruct (IH Hg Hok) as [HN Hf]. split; [|exact Hf]. apply (ninv_stale G); auto.
        - exact (proj1 (qrun_inv _ _ _ Hr (proj1 (proj1 Hok)))).
        - exact (cinv_run _ _ _ Hr (proj1 Hok)). }
    - split; [|intros i []]. constructor; simpl; try discriminate; auto.
      + intros _ H. destruct H. reflexivity.
      + intros k v [H|H]; discriminate.
      + intros _. split; discriminate.
    - pose proof (solo_ok_tail _ _ _ Hok) as Hok0. destruct (IH (HG _ _ Hg) Hok0) as [HN Hf]. clear IH.
      pose proof (proj1 (qrun_inv _ _ _ Hr (proj1 (proj1 Hok0)))) as HI.
      pose proof (binv_run _ _ _ Hr (proj1 (proj1 Hok0))) as HB. pose proof (cinv_run _ _ _ Hr (proj1 Hok0)) as HC.
      destruct (match a with QStep i spur => Some (i, spur) | _ => None end) as [[i spur]|] eqn:Ea.
      + destruct a; try discriminate. injection Ea as -> ->. cbn [qstep_sys] in Hs.
        destruct (ninv_step es s i spur s' e HI HB HC HN Hok Hs) as [HN' He]. split; [exact HN'|].
        destruct (qstep_agent _ _ _ _ _ _ Hs) as (Ha & _).
        intros j Hj. destruct e as [x|]; [|exact (Hf j Hj)]. destruct Hj as [->|Hj]; [|exact (Hf j Hj)]. simpl in Ha. subst. congruence.
      + assert (Ha : forall i spur, a <> QStep i spur) by (intros i spur ->; discriminate).
        destruct (qcall_agent _ _ _ _ _ Ha Hs) as (i & p' & ph' & E & Hp & Hph & Hst & _ & _ & _ & Hc).
        assert (Hcl : q_closed (app_ev e es) = q_closed es /\ waiting (app_ev e es) = waiting es /\ stored (app_ev e es) = stored es /\
          (forall j, ~ In (EAssert j) (app_ev e es)) /\ wmid p' = false /\ mid p' = false /\ (forall v, p' <> TLock v) /\ (forall v, p' <> TSlow v) /\ (forall v, p' <> TCas v)).
        { clear - Hc Hf. repeat match goal with H : _ \/ _ |- _ => destruct H | H : _ /\ _ |- _ => destruct H | H : exists _, _ |- _ => destruct H end; subst;
          repeat (split; [reflexivity|]); (split; [intros j [?|?]; [discriminate|exact (Hf j H)||exact (Hf j H0)||exact (Hf j H1)||exact (Hf j H2)||exact (Hf j H3)||exact (Hf j H4)||eapply Hf; eassumption]|]); repeat (split; [reflexivity|]); repeat split; discriminate. }
        destruct Hcl as (Hcl & Hw & Hsd & Has & Hm1 & Hm2 & Hm3 & Hm4 & Hm5). split; [|exact Has].
        assert (Hps : forall f : qpc -> bool, f p' = false -> forall n, f (q_pc s' n) = true -> f (q_pc s n) = true).
        { intros f Hf' n. rewrite (Hp n). destruct (Nat.eq_dec n i) as [->|Hn]; [rewrite pset_same; congruence|rewrite pset_other by exact Hn; auto]. }
        assert (Hpe : forall n p, q_pc s' n = p -> p <> p' -> q_pc s n = p).
        { intros n p. rewrite (Hp n). destruct (Nat.eq_dec n i) as [->|Hn]; [rewrite pset_same; congruence|rewrite pset_other by exact Hn; auto]. }
        constructor; rewrite ?Hcl, ?Hw, ?Hst, ?Hsd.
        * exact (N_wait _ _ _ HN).
        * intros X1 X2. destruct (N_full _ _ _ HN X1 X2) as [?|[k Hk]]; [auto|]. right. exists k. rewrite (Hp k), pset_other; [exact Hk|].
          intros ->. rewrite E in Hk. discriminate.
        * intros X1 k Hk. exact (N_mid _ _ _ HN X1 k (Hps wmid Hm1 k Hk)).
        * intros k v Hk. apply (N_lock _ _ _ HN k v). destruct Hk as [Hk|Hk]; [left|right]; apply (Hpe _ _ Hk); auto.
        * intros k v Hk. apply (N_cas _ _ _ HN k v). apply (Hpe _ _ Hk); auto.
        * exact (N_stored _ _ _ HN).
        * exact (N_dom _ _ _ HN).
        * intros k j Hk. destruct (is_d (q_pc s' j)) eqn:Ed; [|reflexivity].
          assert (Hcase : (is_t p' = false /\ is_d p' = false) \/ (e = Some (EDrop i) /\ is_t p' = false) \/ (e = Some (ECallNotify i) /\ is_d p' = false)).
          { clear - Hc. repeat match goal with H : _ \/ _ |- _ => destruct H | H : _ /\ _ |- _ => destruct H | H : exists _, _ |- _ => destruct H end; subst; auto. }
          destruct Hcase as [[T D]|[[-> T]|[-> D]]].
          -- rewrite <- (Hps is_d D j Ed). exact (N_drop _ _ _ HN k j (Hps is_t T k Hk)).
          -- destruct Hok as (_ & _ & Hd). simpl in Hd. apply (Hps is_t T) in Hk. rewrite <- (proj1 (HB k)), (proj1 Hd k) in Hk. discriminate.
          -- destruct Hok as (_ & _ & Hd). simpl in Hd. apply (Hps is_d D) in Ed. rewrite <- (proj1 (proj2 (HB j))), (proj1 Hd j) in Ed. discriminate.
  Qed.

  Lemma ninv_run es s : qrun debug es s -> solo_ok r es -> NInv r es s /\ no_failure es.
  Proof. intros Hr. apply (ninv_lrun any (fun _ _ _ => I) es s Hr I). Qed.
End StoredStep.
