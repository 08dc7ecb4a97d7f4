(** The moves of the wait queue on weak memory: what steps and calls do to what the invariants talk about. *)
From Coq Require Import List Bool Arith NArith Lia.
From Verif Require Import WaitCellModel WaitList WaitListSpec WaitListFacts WaitQueueModel WaitQueueSpec WaitQueueFacts WaitQueueSafety
  WaitQueueWake WaitQueueStored WeakQueueModel WeakQueueFacts WeakQueueInv.
Import ListNotations.
(** ** The steps and the calls are such moves. *)
Lemma q_writes debug y i y' e : qstep debug y i false = Some (y', e) ->
  if writes_state y i then wcase y y' i e else q_state y' = q_state y.
Proof.
  intros Hs. unfold writes_state, wcase. qcases Hs E y i; unfold with_pc, with_mem, with_phase, with_state, with_lock; cbn [q_pc q_state]; rewrite ?pset_same, ?E, ?C;
    cbn [andb]; try reflexivity; try (destruct l; reflexivity).
  all: cbn [negb] in *; rewrite ?andb_true_r in *; rewrite ?C; try reflexivity.
  all: repeat match goal with H : (_ && _)%bool = true |- _ => apply andb_prop in H; destruct H end; repeat match goal with H : (_ =? _)%N = true |- _ => apply N.eqb_eq in H end.
  all: cbn [holds casing is_t is_d]; subst; auto 8.
  all: try (destruct (list_is_empty (q_list y)); cbn [q_state andb]; auto 8; fail).
Qed.

Lemma q_casing debug y i spur y' e : qstep debug y i spur = Some (y', e) -> casing (q_pc y' i) = true ->
  uses_state y i = true /\ q_state y' <> Q_WAITING /\ q_state y <> Q_WAITING.
Proof.
  intros Hs. unfold uses_state. qcases Hs E y i; unfold with_pc, with_mem, with_phase, with_state, with_lock; cbn [q_pc q_state q_lock]; rewrite ?pset_same, ?E; try discriminate; intros Hc.
  
  all: try discriminate Hc; try (exfalso; repeat match type of Hc with casing (match ?o with _ => _ end) = true => destruct o end; discriminate).
  all: try (split; [reflexivity|]; match goal with H : (_ =? Q_WAITING)%N = false |- _ => apply N.eqb_neq in H; split; exact H | H : (q_state _ =? ?v)%N = true |- _ => apply N.eqb_eq in H; rewrite H; split; discriminate end).
Qed.

Lemma q_tcas debug y i spur y' e v : qstep debug y i spur = Some (y', e) -> q_pc y' i = TCas v -> v = Q_EMPTY \/ v = Q_WAKING.
Proof.
  intros Hs. qcases Hs E y i; unfold with_pc, with_mem, with_phase, with_state, with_lock; cbn [q_pc q_state q_lock]; rewrite ?pset_same, ?E; intros Hc; try discriminate Hc; try congruence.
  all: try (repeat match type of Hc with (match ?o with _ => _ end) = _ => destruct o end; discriminate).
  all: try (injection Hc as <-; eqs; match goal with H : _ \/ _ |- _ => destruct H as [H|H]; apply N.eqb_eq in H; auto end).
Qed.

Lemma q_swapped debug y i y' e : qstep debug y i false = Some (y', e) -> swapped (q_pc y' i) = true ->
  swapped (q_pc y i) = true \/ (writes_state y i = true /\ q_state y' = Q_CLOSED).
Proof.
  intros Hs. unfold writes_state. qcases Hs E y i; unfold with_pc, with_mem, with_phase, with_state, with_lock; cbn [q_pc q_state q_lock]; rewrite ?pset_same, ?E; intros Hc; try discriminate Hc; auto.
  all: try (exfalso; repeat match type of Hc with swapped (match ?o with _ => _ end) = _ => destruct o end; discriminate).
Qed.

Lemma q_retclose debug y i y' k : qstep debug y i false = Some (y', Some (ERetClose k)) ->
  k = i /\ swapped (q_pc y i) = true /\ holds (q_pc y i) = true.
Proof.
  intros Hs. unfold qstep, s_dispatch, n_dispatch, failed, undefined in Hs. destruct (q_pc y i) eqn:E; [discriminate|..];
  repeat match type of Hs with
    | context [if ?b then _ else _] => destruct b eqn:?
    | context [match q_lock ?b with Some _ => _ | None => _ end] => destruct (q_lock b) eqn:?
    | context [match l_tail ?b with Some _ => _ | None => _ end] => destruct (l_tail b) eqn:?
    | context [let '(_, _) := ?b in _] => destruct b as [[? ?] ?] eqn:? || destruct b as [? ?] eqn:?
    end; try discriminate. injection Hs as _ <-. auto.
Qed.

Lemma q_swaps debug es y i y' e : QInv es y -> qstep debug y i false = Some (y', e) -> e <> Some (EUb i) ->
  match swaps i (q_pc y i) (q_pc y' i) with
  | None => (forall n, n_state (q_heap y' n) = n_state (q_heap y n)) /\ half (q_pc y' i) = None
  | Some n => (forall m, m <> n -> n_state (q_heap y' m) = n_state (q_heap y m)) /\ holds (q_pc y i) = true /\ half (q_pc y i) = None /\ carries (q_pc y i) = None /\
      ncase es y y' i n e
  end.
Proof.
  intros HI Hs Hub. pose proof (qstep_states _ _ _ _ _ _ _ HI Hs Hub) as Hst. unfold swaps, ncase.
  destruct Hst as [(n & st & q & -> & Hv & Hw & _ & _ & Hm)|(Hns & Hm)].
  - assert (Hpp : exists v, (q_pc y i = TSlow v /\ q_pc y' i = TLinks n) \/ (q_pc y i = KLoop /\ q_pc y' i = KLinks n)).
    { clear - Hs. unfold qstep, s_dispatch, n_dispatch, failed, undefined in Hs. destruct (q_pc y i) eqn:E; [discriminate|..];
      repeat match type of Hs with
      | context [if ?b then _ else _] => destruct b eqn:?
      | context [match q_lock ?b with Some _ => _ | None => _ end] => destruct (q_lock b) eqn:?
      | context [match l_tail ?b with Some _ => _ | None => _ end] => destruct (l_tail b) eqn:?
      | context [let '(_, _) := ?b in _] => destruct b as [[? ?] ?] eqn:? || destruct b as [? ?] eqn:?
      end; try discriminate; injection Hs as <- Hx Hy; subst; unfold with_pc; cbn [q_pc]; rewrite ?pset_same; first [eexists; left; split; reflexivity|exists 0%N; right; split; reflexivity]. }
    assert (Hmm : forall m, m <> n -> n_state (q_heap y' m) = n_state (q_heap y m)) by (intros m Hne; rewrite Hm, (proj2 (Nat.eqb_neq _ _) Hne); reflexivity).
    assert (Hnn : n_state (q_heap y' n) <> Q_WAITING) by (rewrite Hm, Nat.eqb_refl; destruct Hv as [->| ->]; discriminate).
    assert (Hin : In n (waiting es)) by (rewrite Hw; now left).
    destruct Hpp as (v & [[E1 E2]|[E1 E2]]); rewrite E1, E2; simpl; (split; [exact Hmm|auto 10]).
  - assert (Hnk : half (q_pc y' i) = None).
    { destruct (half (q_pc y' i)) as [n|] eqn:Eh; [|reflexivity]. exfalso. clear - Hs Hub Hns Eh. qcases Hs E y i; unfold with_pc, with_mem, with_phase, with_state, with_lock in Eh; cbn [q_pc] in Eh; rewrite ?pset_same in Eh; try discriminate Eh; try congruence.
      all: try (rewrite E in Eh; discriminate).
      all: try (repeat match type of Eh with half (match ?o with _ => _ end) = _ => destruct o end; discriminate). }
    destruct (q_pc y i) eqn:E; try (split; [|exact Hnk]; intros m; destruct (Hm m) as [K|(_ & w' & K & _)]; [exact K|discriminate]).
    + destruct (q_pc y' i) eqn:E'; try (split; [|exact Hnk]; intros m; destruct (Hm m) as [K|(_ & w' & K & K')]; [exact K|discriminate]).
      split; [intros m Hne; destruct (Hm m) as [K|(? & _)]; [exact K|contradiction]|]. simpl. repeat (split; [reflexivity|]). left. split; [reflexivity|]. split; [|reflexivity].
      clear - Hs E E'. unfold qstep in Hs. rewrite E in Hs. destruct (debug && _)%bool.
      * unfold failed in Hs. injection Hs as <- _. exfalso. cbn [with_pc q_pc] in E'. destruct (q_lock y) as [k|]; [destruct (k =? i)|]; cbn [with_lock q_pc] in E'; rewrite pset_same in E'; discriminate.
      * injection Hs as <- _. unfold with_pc, with_mem, set_state, hset. cbn. now rewrite Nat.eqb_refl.
    + destruct (q_pc y' i) eqn:E'; try (split; [|exact Hnk]; intros m; destruct (Hm m) as [K|(_ & w' & K & _)]; [exact K|discriminate]). discriminate Hnk.
    + destruct (q_pc y' i) eqn:E'; try (split; [|exact Hnk]; intros m; destruct (Hm m) as [K|(_ & w' & K & _)]; [exact K|discriminate]). discriminate Hnk.
Qed.

Lemma q_carry debug y i y' e n : qstep debug y i false = Some (y', e) -> carries (q_pc y' i) = Some n ->
  half (q_pc y' i) = Some n \/ (carries (q_pc y i) = Some n /\ loads_node y i = false /\ ~ (q_lock y = None /\ q_lock y' <> None) /\ swaps i (q_pc y i) (q_pc y' i) = None).
Proof.
  intros Hs Hc. assert (Hac : q_lock y = None -> q_lock y' <> None -> carries (q_pc y i) = None).
  { intros H1 H2. destruct (qstep_acquire _ _ _ _ _ _ Hs H1 H2) as (K & _). clear - Hs H1 H2. qcases Hs E y i; unfold with_pc, with_mem, with_phase, with_state, with_lock in *; cbn [q_lock] in *; try congruence; try reflexivity.
    all: try (destruct (list_is_empty (q_list y)); cbn [q_lock] in *; congruence). }
  assert (Hcc : half (q_pc y' i) = Some n \/ (carries (q_pc y i) = Some n /\ loads_node y i = false /\ swaps i (q_pc y i) (q_pc y' i) = None)).
  { clear Hac. unfold loads_node, swaps. qcases Hs E y i; unfold with_pc, with_mem, with_phase, with_state, with_lock in *; cbn [q_pc q_state q_lock] in *; rewrite ?pset_same in *; rewrite ?E in *; try discriminate Hc.
    all: simpl in Hc |- *; auto.
    all: repeat match goal with o : option _ |- _ => destruct o as [[? ?]|] end; simpl in Hc |- *; auto; try discriminate.
    all: repeat match type of Hc with carries (match ?o with _ => _ end) = _ => destruct o end; simpl in *; try discriminate; auto.
    all: match type of Hc with context [option_map _ ?o] => destruct o end; simpl in Hc; [right; auto|discriminate]. }
  destruct Hcc as [?|(H1 & H2 & H3)]; [auto|]. right. split; [exact H1|]. split; [exact H2|]. split; [|exact H3]. intros [K1 K2]. rewrite (Hac K1 K2) in H1. discriminate.
Qed.

Lemma q_woke debug y i y' k n w : qstep debug y i false = Some (y', Some (EWoke k n w)) ->
  carries (q_pc y i) = Some n /\ half (q_pc y i) = None /\ loads_node y i = false /\ q_lock y' = q_lock y /\ swaps i (q_pc y i) (q_pc y' i) = None.
Proof.
  intros Hs. unfold loads_node. unfold qstep, s_dispatch, n_dispatch, failed, undefined in Hs. destruct (q_pc y i) eqn:E; [discriminate|..];
  repeat match type of Hs with
    | context [if ?b then _ else _] => destruct b eqn:?
    | context [match q_lock ?b with Some _ => _ | None => _ end] => destruct (q_lock b) eqn:?
    | context [match l_tail ?b with Some _ => _ | None => _ end] => destruct (l_tail b) eqn:?
    | context [let '(_, _) := ?b in _] => destruct b as [[? ?] ?] eqn:? || destruct b as [? ?] eqn:?
    end; try discriminate; injection Hs as <- _ <- _; auto.
Qed.

Lemma newest_wakes debug s i s' e : newest debug s i = Some (s', e) ->
  wq_woken s' = wq_woken s /\ ((forall k n w, e <> Some (EWoke k n w)) -> wq_wakes s' = wq_wakes s).
Proof.
  unfold newest. destruct (qstep debug (wq_sys s) i false) as [[y' e0]|]; [|discriminate].
  destruct (swaps i (q_pc (wq_sys s) i) (q_pc y' i)); intros Hn; injection Hn as <- <-.
  all: unfold mutex_sync, access; destruct (q_lock (wq_sys s)), (q_lock y'); cbn [wq_woken wq_wakes].
  all: split; [reflexivity|]; intros He; destruct e0 as [[]|]; try reflexivity; destruct (He _ _ _ eq_refl).
Qed.

Lemma newest_mv debug r es s i s' e : Bounded s -> QInv es (wq_sys s) -> QInv (app_ev e es) (wq_sys s') -> SI r es s ->
  newest debug s i = Some (s', e) -> e <> Some (EUb i) -> Mv es s s' i e (touches (wq_sys s) i) (wq_views s i).
Proof.
  intros HB HI HI' HS Hn Hub. destruct (newest_spec _ _ _ _ _ HB Hn) as (y' & Hs & Hy & HW & Hv & Hh & Hu & Hnd & Hl & Hnv & _). subst y'.
  destruct (qstep_agent _ _ _ _ _ _ Hs) as (Ha & Hpc & Hph).
  pose proof (q_writes _ _ _ _ _ Hs) as Hw. pose proof (q_swaps _ _ _ _ _ _ HI Hs Hub) as Hsw.
  assert (Hlast : nth_error (wq_hist s') (last_index (wq_hist s')) = Some (q_state (wq_sys s'))).
  { rewrite Hh. destruct (writes_state (wq_sys s) i); [|rewrite Hw; apply (S_new _ _ _ HS)]. rewrite last_app, nth_error_app2, Nat.sub_diag by lia. reflexivity. }
  constructor; auto.
  - apply (wstep_bounded _ _ _ _ _ _ HW HB Hv).
  - destruct (writes_state (wq_sys s) i) eqn:Ew; [right|left; auto]. split; [exact Hh|]. split; [|exact Hw].
    rewrite (Hu (writes_uses _ _ Ew)), Hh. apply last_app.
  - intros Hc. destruct (q_casing _ _ _ _ _ _ Hs Hc) as (K1 & K2 & _). rewrite (Hu K1), Hlast. congruence.
  - intros v. apply (q_tcas _ _ _ _ _ _ _ Hs).
  - intros Hc. destruct (q_swapped _ _ _ _ _ Hs Hc) as [?|[K1 K2]]; [auto|]. right. rewrite (Hu (writes_uses _ _ K1)), Hh, K1. split; [apply last_app|exact K2].
  - intros k ->. exact (q_retclose _ _ _ _ _ Hs).
  - destruct (swaps i (q_pc (wq_sys s) i) (q_pc (wq_sys s') i)) as [n|] eqn:Ew.
    + right. exists n. destruct Hsw as (H1 & H2 & H3 & H4 & H5). split; [rewrite Hnd, Nat.eqb_refl; reflexivity|]. split; [intros m Hm; rewrite Hnd, (proj2 (Nat.eqb_neq _ _) Hm); reflexivity|].
      split; [exact H1|]. split.
      { destruct (W_nodes _ _ _ _ _ _ HW) as [K|(m & K1 & K2 & K3)].
        - specialize (K n). rewrite Hnd, Nat.eqb_refl in K. apply (f_equal (@length N)) in K. rewrite app_length in K. simpl in K. lia.
        - destruct (Nat.eq_dec m n) as [->|Hm]; [exact K3|]. specialize (Hnd n). rewrite K2 in Hnd by congruence. rewrite (Nat.eqb_refl) in Hnd. apply (f_equal (@length N)) in Hnd. rewrite app_length in Hnd. simpl in Hnd. lia. }
      repeat (split; [assumption|]). assert (He : forall k m w, e <> Some (EWoke k m w)).
      { intros k m w ->. apply q_woke in Hs. destruct Hs as (_ & _ & _ & _ & Hs). congruence. }
      destruct (newest_wakes _ _ _ _ _ Hn) as [K1 K2]. split; [exact K1|exact (K2 He)].
    + left. split; [|exact Hsw]. intros n. apply Hnd.
  - intros n Hc. destruct (q_carry _ _ _ _ _ _ Hs Hc) as [?|(K1 & K2 & K3 & K4)]; [auto|]. right. split; [exact K1|]. apply Hnv; [exact K2|exact K3|congruence].
  - intros n w ->. destruct (q_woke _ _ _ _ _ _ _ Hs) as (K1 & K2 & K3 & K4 & K5). split; [exact K1|]. split; [exact K2|]. apply Hnv; [exact K3| |congruence].
    intros [L1 L2]. congruence.
Qed.

Lemma q_read debug y i spur y' e w : qstep debug y i spur = Some (y', e) -> loads_node y i = true \/ may_read (q_pc y i) w = true ->
  carries (q_pc y' i) = None /\ half (q_pc y' i) = None /\ swapped (q_pc y' i) = false /\ (forall k, e <> Some (ERetClose k)) /\ (forall k n w, e <> Some (EWoke k n w)).
Proof.
  intros Hs Hc. unfold loads_node in Hc. qcases Hs E y i; cbn [may_read] in Hc; try (destruct Hc; discriminate); clear Hc.
  all: unfold with_pc, with_mem, with_phase, with_state, with_lock in *; cbn [q_pc q_state q_lock] in *; rewrite ?pset_same in *.
  all: repeat (split; [reflexivity|]); split; discriminate.
Qed.

Lemma older_mv debug r es s i k s' e : Bounded s -> QInv es (wq_sys s) -> QInv (app_ev e es) (wq_sys s') -> SI r es s ->
  older debug s i k = Some (s', e) -> exists q, Mv es s s' i e q (wq_views s i) /\ (q = [] \/ q = touches (wq_sys s) i) /\
    (loads_node (wq_sys s) i = false -> q = touches (wq_sys s) i) /\ wq_wakes s' = wq_wakes s /\ wq_woken s' = wq_woken s.
Proof.
  intros HB HI HI' HS Ho. destruct (older_spec _ _ _ _ _ _ HB Ho) as (q & HW & Hv & H1 & H2 & H3 & H4 & Hc). exists q.
  set (y := wq_sys s) in *.
  assert (Hg : exists y0 r0 spur w, qstep debug y0 i spur = Some (r0, e) /\ wq_sys s' = merged y r0 /\ q_pc y0 = q_pc y /\
    (loads_node y0 i = true \/ may_read (q_pc y0 i) w = true) /\
    (casing (q_pc r0 i) = true -> nth_error (wq_hist s) (qv_state (wq_views s' i)) <> Some Q_WAITING)).
  { destruct Hc as [(K0 & K1 & w & r0 & K2 & K3 & K4 & K5 & K6 & K7 & _)|(K0 & K0' & K1 & w & r0 & K2 & K3 & K4 & K5 & K6 & K7 & _)].
    - eexists _, r0, _, w. split; [exact K4|]. split; [exact K5|]. split; [reflexivity|]. split; [left; exact K0|].
      intros Hcc. destruct (q_casing _ _ _ _ _ _ K4 Hcc) as (Hu & _). clear - K0 Hu. unfold loads_node, uses_state in *. cbn [with_mem q_pc q_list] in Hu. destruct (q_pc y i); discriminate.
    - eexists _, r0, _, w. split; [exact K5|]. split; [exact K6|]. split; [reflexivity|]. split; [right; exact K4|].
      intros Hcc. destruct (q_casing _ _ _ _ _ _ K5 Hcc) as (_ & _ & Hu). rewrite K7, K2. cbn [with_state q_state] in Hu. congruence. }
  destruct Hg as (y0 & r0 & spur & w & Hs & Hm & Hpc0 & Hrd & Hcas).
  destruct (q_read _ _ _ _ _ _ _ Hs Hrd) as (R1 & R2 & R3 & R4 & R5).
  destruct (qstep_agent _ _ _ _ _ _ Hs) as (_ & Ha & _).
  split; [|split; [|split; [|split; [exact H3|exact H4]]]].
  - constructor; auto; fold y; rewrite ?Hm; cbn [merged q_pc q_phase q_state q_heap q_lock]; auto.
    + apply (wstep_bounded _ _ _ _ _ _ HW HB Hv).
    + intros j Hj. rewrite (Ha j Hj), Hpc0. reflexivity.
    + rewrite H1. exact Hcas.
    + intros v. apply (q_tcas _ _ _ _ _ _ _ Hs).
    + rewrite R3. discriminate.
    + intros j Hj. destruct (R4 j Hj).
    + left. rewrite H2. auto.
    + rewrite R1. discriminate.
    + intros n w' He. destruct (R5 _ _ _ He).
  - destruct Hc as [(_ & -> & _)|(_ & _ & -> & _)]; auto.
  - intros Hl. destruct Hc as [(K & _)|(_ & _ & -> & _)]; [congruence|reflexivity].
Qed.

Lemma call_mv debug es s a sync s' e : Bounded s -> QInv es (wq_sys s) -> QInv (app_ev e es) (wq_sys s') ->
  call debug s a sync = Some (s', e) -> exists v0, Mv es s s' (call_agent a) e (ev_touches e) v0.
Proof.
  intros HB HI HI' Hc. destruct (call_spec _ _ _ _ _ _ HB Hc) as (i & v0 & Hs & Hn & -> & HW & Hv & H1 & H2 & H3 & H4 & H5 & _).
  set (i := call_agent a) in *. exists v0.
  destruct (qcall_agent _ _ _ _ _ Hn Hs) as (j & p' & ph' & J1 & J2 & J3 & J4 & J5 & J6 & J7 & J8).
  assert (Hj : j = i).
  { clear - J1 J2 J3 J8 Hs Hn. subst i. set (y2 := wq_sys s') in *. clearbody y2. destruct a as [i|i w|i w|i|i|i|i|i|i spur]; try (destruct (Hn i spur); reflexivity); qcalls Hs (wq_sys s) i E Ep;
    repeat match goal with H : _ \/ _ |- _ => destruct H | H : _ /\ _ |- _ => destruct H | H : exists _, _ |- _ => destruct H end; cbn [call_agent]; congruence. }
  subst j.
  assert (Hp : casing p' = false /\ carries p' = None /\ half p' = None /\ swapped p' = false /\ (forall v, p' <> TCas v) /\ (forall k, e <> Some (ERetClose k)) /\ (forall k n w, e <> Some (EWoke k n w))).
  { clear - J8. repeat match goal with H : _ \/ _ |- _ => destruct H | H : _ /\ _ |- _ => destruct H | H : exists _, _ |- _ => destruct H end; subst; repeat (split; [reflexivity|]); (split; [discriminate|]); split; discriminate. }
  destruct Hp as (P1 & P2 & P3 & P4 & P5 & P6 & P7).
  assert (Hpi : q_pc (wq_sys s') i = p') by (rewrite J2; apply pset_same).
  constructor; auto; rewrite ?Hpi, ?P1, ?P2, ?P3, ?P4; try discriminate.
  - apply (wstep_bounded _ _ _ _ _ _ HW HB Hv).
  - intros j Hj. rewrite J2. now apply pset_other.
  - intros j Hj. rewrite J3. now apply pset_other.
  - intros v Hx. destruct (P5 v Hx).
  - intros k Hk. destruct (P6 k Hk).
  - left. rewrite H2. split; [reflexivity|]. split; [|reflexivity]. intros n. destruct (Nat.eq_dec n i) as [->|Hne]; [|now rewrite J7].
    destruct J8 as [(_ & _ & Hph & _ & Hh)|(Hh & _)]; [|now rewrite Hh]. rewrite Hh. pose proof (I_node _ _ HI i) as Hk. rewrite J1, Hph in Hk. simpl in Hk. symmetry. apply Hk.
  - intros n w He. destruct (P7 _ _ _ He).
Qed.
