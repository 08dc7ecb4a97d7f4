(** Every interleaving of [WaitCellModel] and of [WaitQueueModel] is an execution of the weak-memory model: the one
    in which every load returns the newest value. *)
From Coq Require Import List Bool Arith NArith Lia.
From Verif Require Import WaitCellModel WeakCellModel WaitList WaitQueueModel WaitQueueWake WeakQueueModel WeakQueueFacts WeakQueueMove WeakQueueData.
Import ListNotations.

(** ** The wait cell *)
Section Cell.
  Variables (debug : bool) (k : cell_orders).
  Definition ltop (l : list cmsg) : option N := option_map cm_word (nth_error l (Nat.pred (length l))).
  Definition cfits (s : wcell) : Prop :=
    ltop (wc_msgs s) = Some (w_state (ws_cell (wc_sys s))) /\ forall j, cv_lock (wc_views s j) <= Nat.pred (length (wc_msgs s)).
  Lemma ltop_snoc l m : ltop (l ++ [m]) = Some (cm_word m).
  Proof.
    unfold ltop. rewrite app_length. cbn [length]. replace (Nat.pred (length l + 1)) with (length l) by lia.
    rewrite nth_error_app2 by lia. now rewrite Nat.sub_diag.
  Qed.
  Definition cmatched (y : wsys) (e : option wevent) (r : option (wcell * option wevent)) : Prop :=
    exists s', r = Some (s', e) /\ wc_sys s' = y /\ cfits s'.
  Lemma views_updc s i v : (forall j, cv_lock (wc_views s j) <= Nat.pred (length (wc_msgs s))) -> cv_lock v <= Nat.pred (length (wc_msgs s)) ->
    forall j, cv_lock (updc (wc_views s) i v j) <= Nat.pred (length (wc_msgs s)).
  Proof. intros H Hv j. unfold updc. destruct (Nat.eqb j i); auto. Qed.

  Lemma csim s i y e : cfits s -> wstep_sys debug (wc_sys s) (WAStep i) = Some (y, e) -> exists x, cmatched y e (kstep debug k s (KStep i x)).
  Proof.
    intros [Ht Hv] Hs. cbn [wstep_sys] in Hs.
    destruct (wstep debug (ws_cell (wc_sys s)) i (ws_pc (wc_sys s) i)) as [[c' p'] e0] eqn:Ew.
    assert (Hy : y = mkW c' (wset (ws_pc (wc_sys s)) i p') /\ e = e0 /\ ws_pc (wc_sys s) i <> WIdle).
    { destruct (ws_pc (wc_sys s) i); try discriminate Hs; rewrite Ew in Hs; injection Hs as <- <-; repeat split; discriminate. }
    destruct Hy as (-> & -> & Hi). clear Hs.
    assert (Hplain : forall v acc races, w_state c' = w_state (ws_cell (wc_sys s)) -> cv_lock v <= cv_lock (wc_views s i) ->
      cmatched (mkW c' (wset (ws_pc (wc_sys s)) i p')) e0 (let (s', e) := plain debug s i v acc races in Some (s', e))).
    { intros v acc races Hw Hl. unfold plain. rewrite Ew. eexists. split; [reflexivity|]. split; [reflexivity|]. split; cbn.
      - now rewrite Hw.
      - apply views_updc; auto. specialize (Hv i). lia. }
    assert (Hrmw : forall o, cmatched (mkW c' (wset (ws_pc (wc_sys s)) i p')) e0 (let '(s', e, _) := rmw debug s i o in Some (s', e))).
    { intros o. unfold rmw, plain. rewrite Ew. eexists. split; [reflexivity|]. split; [reflexivity|]. split; cbn.
      - now rewrite ltop_snoc.
      - intros j. rewrite app_length. cbn [length]. unfold updc. destruct (Nat.eqb j i); cbn; [lia|]. specialize (Hv j). lia. }
    assert (Hfail : forall expected, (w_state (ws_cell (wc_sys s)) =? expected)%N = false -> c' = ws_cell (wc_sys s) ->
      cmatched (mkW c' (wset (ws_pc (wc_sys s)) i p')) e0
        (match cas_fails debug k s i expected (Nat.pred (length (wc_msgs s))) with Some (s', e, _) => Some (s', e) | None => None end)).
    { intros expected Hx Hc. unfold cas_fails. rewrite (proj2 (Nat.leb_le _ _) (Hv i)).
      unfold ltop in Ht. destruct (nth_error (wc_msgs s) _) as [m|] eqn:Em; [|discriminate]. cbn in Ht. injection Ht as Ht. rewrite Ht, Hx.
      replace (mkCell (w_state (ws_cell (wc_sys s))) (w_waiter (ws_cell (wc_sys s)))) with (ws_cell (wc_sys s)) by (now destruct (ws_cell (wc_sys s))).
      rewrite Ew. eexists. split; [reflexivity|]. split; [cbn; now rewrite Hc|]. split; cbn.
      - unfold ltop. rewrite Em. cbn. now rewrite Ht.
      - apply views_updc; auto. }
    cbn [kstep]. unfold wcell_step, cas, no_sync, access_waker.
    destruct (ws_pc (wc_sys s) i) eqn:Ep; cbn [wstep] in Ew; try (destruct (Hi eq_refl); fail).
    all: try (exists None; apply Hrmw).
    all: try (exists None; apply Hplain; [|reflexivity];
              repeat match type of Ew with (match ?b with _ => _ end) = _ => destruct b end; injection Ew as <- _ _; reflexivity).
    - destruct (w_state (ws_cell (wc_sys s)) =? WAITING)%N eqn:E; [exists None; apply Hrmw|].
      exists (Some (Nat.pred (length (wc_msgs s)))). apply Hfail; [exact E|].
      repeat match type of Ew with (if ?b then _ else _) = _ => destruct b end; now injection Ew as <- _ _.
    - exists None. destruct pan; (apply Hplain; [now injection Ew as <- _ _|reflexivity]).
    - destruct (w_state (ws_cell (wc_sys s)) =? PARKING)%N eqn:E; [exists None; apply Hrmw|].
      exists (Some (Nat.pred (length (wc_msgs s)))). apply Hfail; [exact E|]. now injection Ew as <- _ _.
  Qed.
  Lemma cell_simulated es y : wrun debug es y -> exists s, krun debug k es s /\ wc_sys s = y /\ cfits s.
  Proof.
    intros Hr. induction Hr as [|es y a y' e Hr (s & Hk & <- & HF) Hs].
    - exists wcell_init. split; [constructor|]. split; [reflexivity|]. split; [reflexivity|]. cbn. auto.
    - assert (H : exists a', cmatched y' e (kstep debug k s a')).
      { destruct a as [i w pan|i c|i].
        - exists (KWait i w pan). cbn [kstep wstep_sys] in *. unfold wcell_call. destruct (ws_pc (wc_sys s) i); try discriminate.
          injection Hs as <- <-. eexists. split; [reflexivity|]. split; [reflexivity|exact HF].
        - exists (KNotify i c). cbn [kstep wstep_sys] in *. unfold wcell_call. destruct (ws_pc (wc_sys s) i); try discriminate.
          injection Hs as <- <-. eexists. split; [reflexivity|]. split; [reflexivity|exact HF].
        - destruct (csim _ _ _ _ HF Hs) as [x Hx]. eauto. }
      destruct H as (a' & s' & H1 & H2 & H3). exists s'. split; [exact (krun_step debug k _ _ _ _ _ Hk H1)|auto].
  Qed.
End Cell.

(** ** The wait queue *)
Definition qfits (s : wqueue) : Prop := nth_error (wq_hist s) (last_index (wq_hist s)) = Some (q_state (wq_sys s)).
Definition qmatched (y : qsys) (e : option qevent) (r : option (wqueue * option qevent)) : Prop :=
  exists s', r = Some (s', e) /\ wq_sys s' = y /\ qfits s'.

(** Which steps a spurious failure changes. *)
Definition weak_cas (p : qpc) : bool := match p with SCasEmpty _ | SCasWaking _ | TCas _ => true | _ => false end.
Lemma not_spurious debug y i : weak_cas (q_pc y i) = false -> qstep debug y i true = qstep debug y i false.
Proof. unfold qstep. destruct (q_pc y i); try discriminate; reflexivity. Qed.

Lemma qsim_new debug s i y e : Bounded s -> qfits s -> qstep debug (wq_sys s) i false = Some (y, e) -> qmatched y e (newest debug s i).
Proof.
  intros HB HF Hs. destruct (newest debug s i) as [[s' e']|] eqn:En.
  - destruct (newest_spec _ _ _ _ _ HB En) as (y' & Hs' & Hy & _ & _ & Hh & _). rewrite Hs in Hs'. injection Hs' as <- <-.
    exists s'. split; [reflexivity|]. split; [exact Hy|]. unfold qfits. rewrite Hy, Hh. pose proof (q_writes _ _ _ _ _ Hs) as Hw.
    destruct (writes_state (wq_sys s) i).
    + rewrite last_app, nth_error_app2, Nat.sub_diag by lia. reflexivity.
    + rewrite Hw. exact HF.
  - exfalso. unfold newest in En. rewrite Hs in En. destruct (swaps _ _ _); discriminate En.
Qed.
Lemma qsim_spur debug s i y e : Bounded s -> qfits s -> weak_cas (q_pc (wq_sys s) i) = true -> qstep debug (wq_sys s) i true = Some (y, e) ->
  qmatched y e (older debug s i (last_index (wq_hist s))).
Proof.
  intros HB HF Hp Hs.
  assert (Hk : qv_state (wq_views s i) <= last_index (wq_hist s)) by (apply (B_view _ HB i)).
  assert (Hw : with_state (wq_sys s) (q_state (wq_sys s)) = wq_sys s) by (now destruct (wq_sys s)).
  assert (Hy : q_state y = q_state (wq_sys s) /\ q_list y = q_list (wq_sys s) /\ q_heap y = q_heap (wq_sys s) /\ q_phase y = q_phase (wq_sys s)).
  { clear HB HF Hk Hw. revert Hp Hs. generalize (wq_sys s) as x. intros x Hp Hs. qcases Hs E x i;
      try discriminate Hp; unfold with_pc, with_lock, with_state; cbn [q_state q_list q_heap q_phase]; auto;
      try (cbn [negb] in *; rewrite ?andb_false_r in *; discriminate);
      repeat match goal with |- context [match q_lock x with _ => _ end] => destruct (q_lock x) as [n|] | |- context [if Nat.eqb ?n i then _ else _] => destruct (Nat.eqb n i) end; auto. }
  unfold older. unfold qfits in HF. rewrite HF, (proj2 (Nat.leb_le _ _) Hk), Hw, Hs.
  destruct (q_pc (wq_sys s) i) eqn:Ep; try discriminate Hp;
    unfold loads_node, uses_state; rewrite Ep; cbn [may_read andb]; unfold after_load;
    (eexists; split; [reflexivity|]); destruct Hy as (H1 & H2 & H3 & H4); unfold qfits, mutex_sync;
    destruct (q_lock (wq_sys (access s i (touches (wq_sys s) i)))), (q_lock y) eqn:El; cbn; rewrite ?HF; (split; [|reflexivity]);
    destruct y; cbn in *; congruence.
Qed.
Lemma queue_simulated debug es y : qrun debug es y -> exists s, wqrun debug es s /\ wq_sys s = y /\ qfits s.
Proof.
  intros Hr. induction Hr as [|es y a y' e Hr (s & Hk & <- & HF) Hs].
  - exists wq_init. split; [constructor|]. split; reflexivity.
  - pose proof (wq_bounded _ _ _ Hk) as HB.
    assert (H : exists a', qmatched y' e (wq_step debug s a')).
    { assert (Hcall : (forall i spur, a <> QStep i spur) -> exists a', qmatched y' e (wq_step debug s a')).
      { intros Ha. exists (ACall a false). cbn [wq_step]. destruct (call debug s a false) as [[s' e']|] eqn:Ec.
        - destruct (call_spec _ _ _ _ _ _ HB Ec) as (i & v0 & Hs' & _ & _ & _ & _ & Hh & _). rewrite Hs in Hs'. injection Hs' as -> <-.
          exists s'. split; [reflexivity|]. split; [reflexivity|]. unfold qfits. rewrite Hh.
          assert (Hq : q_state (wq_sys s') = q_state (wq_sys s)).
          { destruct a as [i0|i0 w|i0 w|i0|i0|i0|i0|i0|i0 spur]; try (now destruct (Ha i0 spur)); cbn [qstep_sys] in Hs;
              repeat match type of Hs with (match ?x with _ => _ end) = _ => destruct x end; try discriminate Hs; now injection Hs as <- _. }
          rewrite Hq. exact HF.
        - exfalso. unfold call in Ec. rewrite Hs in Ec. destruct a; try (now destruct (Ha i spur)); discriminate Ec. }
      destruct a as [i|i w|i w|i|i|i|i|i|i spur]; try (apply Hcall; intros; discriminate). clear Hcall.
      cbn [qstep_sys] in Hs. destruct spur; [|exists (AStep i None); now apply qsim_new].
      destruct (weak_cas (q_pc (wq_sys s) i)) eqn:Ew.
      - exists (AStep i (Some (last_index (wq_hist s)))). now apply qsim_spur.
      - exists (AStep i None). rewrite not_spurious in Hs by exact Ew. now apply qsim_new. }
    destruct H as (a' & s' & H1 & H2 & H3). exists s'. split; [exact (wqrun_step debug _ _ _ _ _ Hk H1)|auto].
Qed.
