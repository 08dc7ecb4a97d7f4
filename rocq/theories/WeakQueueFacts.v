(** What the steps of the wait queue on weak memory do. *)
From Coq Require Import List Bool Arith NArith Lia.
From Verif Require Import WaitCellModel WaitList WaitListSpec WaitListFacts WaitQueueModel WaitQueueSpec WaitQueueFacts WaitQueueSafety
  WaitQueueWake WaitQueueStored WeakQueueModel.
Import ListNotations.

(** ** What has been seen. *)
Definition vle (a b : qview) : Prop :=
  qv_state a <= qv_state b /\ (forall n, qv_node a n <= qv_node b n) /\ (forall x, qv_data a x <= qv_data b x).
Lemma vle_refl a : vle a a.
Proof. repeat split; auto. Qed.
Lemma vle_trans a b c : vle a b -> vle b c -> vle a c.
Proof. intros (H1 & H2 & H3) (K1 & K2 & K3). split; [lia|]. split; [intros n; specialize (H2 n); specialize (K2 n); lia|intros x; specialize (H3 x); specialize (K3 x); lia]. Qed.
Lemma vle_join_l a b : vle a (qv_join a b).
Proof. unfold qv_join. repeat split; simpl; intros; lia. Qed.
Lemma vle_join_r a b : vle b (qv_join a b).
Proof. unfold qv_join. repeat split; simpl; intros; lia. Qed.
Lemma vle_join a b c : vle a c -> vle b c -> vle (qv_join a b) c.
Proof.
  intros (H1 & H2 & H3) (K1 & K2 & K3). unfold qv_join. split; simpl; [lia|].
  split; [intros n; specialize (H2 n); specialize (K2 n); lia|intros x; specialize (H3 x); specialize (K3 x); lia].
Qed.

(** Everything. *)
Definition top (s : wqueue) : qview := mkQV (last_index (wq_hist s)) (fun n => last_index (wq_nodes s n)) (wq_data s).

Record Bounded (s : wqueue) : Prop := {
  B_hist : wq_hist s <> [];
  B_nodes : forall n, wq_nodes s n <> [];
  B_view : forall j, vle (wq_views s j) (top s);
  B_lockv : vle (wq_lockv s) (top s);
  B_wakes : forall n u, wq_wakes s n = Some u -> vle u (top s);
  B_woken : forall n, wq_woken s n <= last_index (wq_nodes s n)
}.

Lemma last_app l (x : N) : last_index (l ++ [x]) = length l.
Proof. unfold last_index. rewrite app_length. simpl. lia. Qed.
Lemma last_lt l : l <> [] -> S (last_index l) = length l.
Proof. unfold last_index. destruct l; [congruence|reflexivity]. Qed.

Lemma loc_eqb_eq x y : loc_eqb x y = true <-> x = y.
Proof. destruct x, y; simpl; split; try congruence; rewrite ?Nat.eqb_eq; congruence. Qed.
Lemma touched_in q x : touched q x = true <-> In x q.
Proof.
  unfold touched. rewrite existsb_exists. split.
  - intros (y & H1 & H2). apply loc_eqb_eq in H2. now subst.
  - intros H. exists x. split; [exact H|]. now apply loc_eqb_eq.
Qed.

(** What a step may do; [q]: the ordinary memory it accesses, [v0]: what the agent has seen when it does so. *)
Record WStep (s s' : wqueue) (i : nat) (e : option qevent) (q : list (option nat)) (v0 : qview) : Prop := {
  W_views : forall j, j <> i -> wq_views s' j = wq_views s j;
  W_v0 : vle (wq_views s i) v0;
  W_le : vle v0 (wq_views s' i);
  W_hist : wq_hist s' = wq_hist s \/
           (wq_hist s' = wq_hist s ++ [q_state (wq_sys s')] /\ qv_state (wq_views s' i) = length (wq_hist s));
  W_nodes : (forall n, wq_nodes s' n = wq_nodes s n) \/
            exists n, wq_nodes s' n = wq_nodes s n ++ [n_state (q_heap (wq_sys s') n)] /\ (forall m, m <> n -> wq_nodes s' m = wq_nodes s m) /\
              qv_node (wq_views s' i) n = length (wq_nodes s n);
  W_lock : (q_lock (wq_sys s') = q_lock (wq_sys s) /\ wq_lockv s' = wq_lockv s) \/
           (q_lock (wq_sys s) = None /\ q_lock (wq_sys s') <> None /\ wq_lockv s' = wq_lockv s /\ vle (wq_lockv s) (wq_views s' i)) \/
           (q_lock (wq_sys s) <> None /\ q_lock (wq_sys s') = None /\ wq_lockv s' = wq_views s' i);
  W_data : forall x, wq_data s' x = if touched q x then S (wq_data s x) else wq_data s x;
  W_seen : forall x, touched q x = true -> qv_data (wq_views s' i) x = wq_data s' x;
  W_races : (forall x, In x q -> qv_data v0 x = wq_data s x) -> wq_races s' = wq_races s;
  W_wakes : forall n, wq_wakes s' n = wq_wakes s n \/ wq_wakes s' n = None \/
            exists w, e = Some (EWoke i n w) /\
              wq_wakes s' n = Some (match wq_wakes s n with Some u => qv_join u (wq_views s' i) | None => wq_views s' i end);
  W_woken : forall n, wq_woken s' n = wq_woken s n \/
            (n = i /\ exists u, wq_wakes s i = Some u /\ wq_woken s' i = Nat.max (wq_woken s i) (qv_node u i) /\ vle u v0);
  W_hasty : wq_hasty s' = [] -> wq_hasty s = []
}.

Lemma wstep_bounded s s' i e q v0 : WStep s s' i e q v0 -> Bounded s -> vle (wq_views s' i) (top s') -> Bounded s' /\ vle (top s) (top s').
Proof.
  intros [V1 V2 V3 H1 N1 L1 D1 D2 R1 K1 K2 Y1] [B1 B2 B3 B4 B5 B6] Hv.
  assert (Hh : wq_hist s' <> [] /\ last_index (wq_hist s) <= last_index (wq_hist s')).
  { destruct H1 as [->|[-> _]]; [auto|]. split; [intros K; apply app_eq_nil in K; destruct K; discriminate|].
    rewrite last_app. unfold last_index. lia. }
  assert (Hn : forall n, wq_nodes s' n <> [] /\ last_index (wq_nodes s n) <= last_index (wq_nodes s' n)).
  { intros n. destruct N1 as [N1|(m & N1 & N2 & _)]; [rewrite N1; auto|].
    destruct (Nat.eq_dec n m) as [->|Hm]; [|rewrite N2 by exact Hm; auto]. rewrite N1.
    split; [intros K; apply app_eq_nil in K; destruct K; discriminate|]. rewrite last_app. unfold last_index. lia. }
  assert (Ht : vle (top s) (top s')).
  { split; [apply Hh|]. split; [intros n; apply Hn|]. intros x. simpl. rewrite D1. destruct (touched q x); lia. }
  split; [|exact Ht]. constructor.
  - apply Hh.
  - intros n. apply Hn.
  - intros j. destruct (Nat.eq_dec j i) as [->|Hj]; [exact Hv|]. rewrite V1 by exact Hj. eapply vle_trans; [apply B3|exact Ht].
  - destruct L1 as [[_ ->]|[(_ & _ & -> & _)|(_ & _ & ->)]]; [eapply vle_trans; eauto..|exact Hv].
  - intros n u Hu. destruct (K1 n) as [K|[K|(w & _ & K)]]; rewrite K in Hu.
    + eapply vle_trans; [eapply B5; exact Hu|exact Ht].
    + discriminate.
    + injection Hu as <-. destruct (wq_wakes s n) as [u'|] eqn:Eu; [|exact Hv]. apply vle_join; [|exact Hv].
      eapply vle_trans; [eapply B5; exact Eu|exact Ht].
  - intros n. destruct (K2 n) as [->|(-> & u & Hu & -> & _)].
    + etransitivity; [apply B6|apply Hn].
    + etransitivity; [|apply Hn]. apply Nat.max_lub; [apply B6|]. apply (B5 _ _ Hu).
Qed.

Ltac prim := unfold mutex_sync, access, see_state, see_node, qv_set, hasten in *; cbn [wq_sys wq_hist wq_nodes wq_views wq_lockv wq_wakes wq_woken wq_data wq_races wq_hasty qv_state qv_node qv_data qv_join] in *.

(** *** Steps that act on the newest values. *)
Definition v_access (s : wqueue) (i : nat) (q : list (option nat)) : qview :=
  mkQV (qv_state (wq_views s i)) (qv_node (wq_views s i)) (fun x => if touched q x then S (wq_data s x) else qv_data (wq_views s i) x).

Lemma forallb_seen s i q : (forall x, In x q -> qv_data (wq_views s i) x = wq_data s x) ->
  forallb (fun x => Nat.eqb (qv_data (wq_views s i) x) (wq_data s x)) q = true.
Proof. intros H. apply forallb_forall. intros x Hx. apply Nat.eqb_eq. auto. Qed.

Lemma qstep_acquire debug s i spur s' e : qstep debug s i spur = Some (s', e) -> q_lock s = None -> q_lock s' <> None ->
  uses_state s i = false /\ writes_state s i = false /\ loads_node s i = false /\ swaps i (q_pc s i) (q_pc s' i) = None /\ touches s i = [] /\ e = None.
Proof.
  intros Hs. unfold uses_state, writes_state, loads_node, swaps, touches.
  qcases Hs E s i; unfold with_pc, with_mem, with_phase, with_state, with_lock; cbn [q_pc q_lock]; intros H1 H2.
  all: try contradiction; try congruence.
  all: try (repeat split; reflexivity).
  all: try (destruct (list_is_empty (q_list s)); cbn [q_lock] in H2; congruence).
Qed.

Lemma qstep_same debug s i spur s' e l l' : qstep debug s i spur = Some (s', e) -> q_lock s = Some l -> q_lock s' = Some l' -> l' = l.
Proof.
  intros Hs. qcases Hs E s i; unfold with_pc, with_mem, with_phase, with_state, with_lock; cbn [q_pc q_lock]; intros H1 H2; try congruence.
  all: try (destruct (list_is_empty (q_list s)); cbn [q_lock] in H2; congruence).
Qed.

Lemma writes_uses s i : writes_state s i = true -> uses_state s i = true.
Proof. unfold writes_state, uses_state. destruct (q_pc s i); try congruence. intros H. apply andb_prop in H. apply H. Qed.

Lemma newest_spec debug s i s' e : Bounded s -> newest debug s i = Some (s', e) ->
  exists y', qstep debug (wq_sys s) i false = Some (y', e) /\ wq_sys s' = y' /\
  WStep s s' i e (touches (wq_sys s) i) (wq_views s i) /\ vle (wq_views s' i) (top s') /\
  (wq_hist s' = if writes_state (wq_sys s) i then wq_hist s ++ [q_state y'] else wq_hist s) /\
  (uses_state (wq_sys s) i = true -> qv_state (wq_views s' i) = last_index (wq_hist s')) /\
  (forall n, wq_nodes s' n = match swaps i (q_pc (wq_sys s) i) (q_pc y' i) with
                             | Some m => if Nat.eqb n m then wq_nodes s n ++ [n_state (q_heap y' n)] else wq_nodes s n
                             | None => wq_nodes s n end) /\
  (loads_node (wq_sys s) i = true -> swaps i (q_pc (wq_sys s) i) (q_pc y' i) = None -> qv_node (wq_views s' i) i = last_index (wq_nodes s i)) /\
  (loads_node (wq_sys s) i = false -> ~ (q_lock (wq_sys s) = None /\ q_lock y' <> None) ->
     forall n, swaps i (q_pc (wq_sys s) i) (q_pc y' i) <> Some n -> qv_node (wq_views s' i) n = qv_node (wq_views s i) n) /\
  (e = Some (EPeek i) -> wq_hasty s' = [] -> last_index (wq_nodes s i) <= wq_woken s i).
Proof.
  intros HB Hn. unfold newest in Hn. destruct (qstep debug (wq_sys s) i false) as [[y' e0]|] eqn:Hs; [|discriminate].
  assert (Hacq : q_lock (wq_sys s) = None -> q_lock y' <> None -> uses_state (wq_sys s) i = false /\ writes_state (wq_sys s) i = false /\
    loads_node (wq_sys s) i = false /\ swaps i (q_pc (wq_sys s) i) (q_pc y' i) = None /\ touches (wq_sys s) i = [] /\ e0 = None) by (apply (qstep_acquire _ _ _ _ _ _ Hs)).
  pose proof (writes_uses (wq_sys s) i) as Hwu.
  assert (Hq : exists t, (forall n, swaps i (q_pc (wq_sys s) i) (q_pc y' i) = Some n -> loads_node (wq_sys s) i = false) /\ t = 0).
  { exists 0. split; [|reflexivity]. unfold swaps, loads_node. destruct (q_pc (wq_sys s) i); congruence. }
  destruct Hq as (_ & Hq & _).
  pose proof HB as [B1 B2 B3 B4 B5 B6]. pose proof (B3 i) as (Bi1 & Bi2 & Bi3). cbn [top qv_state qv_node qv_data] in Bi1, Bi2, Bi3.
  exists y'. assert (e0 = e) by (destruct (swaps i (q_pc (wq_sys s) i) (q_pc y' i)); congruence). subst e0. split; [reflexivity|].
  set (us := uses_state (wq_sys s) i) in *. set (ws := writes_state (wq_sys s) i) in *. set (ld := loads_node (wq_sys s) i) in *.
  set (sw := swaps i (q_pc (wq_sys s) i) (q_pc y' i)) in *. set (q := touches (wq_sys s) i) in *.
  clearbody us ws ld sw q.
  destruct (q_lock (wq_sys s)) as [l|] eqn:El, (q_lock y') as [l'|] eqn:El'.
  3:{ destruct Hacq as (-> & -> & -> & -> & -> & ->); [reflexivity|discriminate|]. cbn [access] in Hn.
      injection Hn as <-. prim. split; [reflexivity|]. split; [|split; [|split; [reflexivity|split; [discriminate|split; [reflexivity|split; [discriminate|split; [|discriminate]]]]]]].
      - constructor; prim; unfold pset; rewrite ?Nat.eqb_refl; cbn [touched existsb].
        all: try reflexivity; try discriminate; auto.
        + intros j Hj. rewrite (proj2 (Nat.eqb_neq _ _) Hj). reflexivity.
        + repeat split; auto.
        + repeat split; intros; simpl; lia.
        + right; left. split; [exact El|]. split; [congruence|]. split; [reflexivity|]. apply vle_join_r.
      - unfold pset. rewrite !Nat.eqb_refl. destruct B4 as (B41 & B42 & B43). cbn [top qv_state qv_node qv_data] in *.
        split; [simpl; lia|]. split; [intros n; specialize (B42 n); specialize (Bi2 n); simpl; lia|intros x; specialize (B43 x); specialize (Bi3 x); simpl; lia].
      - intros _ H. destruct H. split; [reflexivity|discriminate]. }
  all: clear Hacq; try (assert (l' = l) by exact (qstep_same _ _ _ _ _ _ _ _ Hs El El'); subst l').
  all: set (h' := if ws then wq_hist s ++ [q_state y'] else wq_hist s) in *.
  all: assert (Hh' : h' = wq_hist s \/ (h' = wq_hist s ++ [q_state y'] /\ us = true /\ last_index h' = length (wq_hist s)))
    by (subst h'; destruct ws; [right; split; [reflexivity|split; [auto|apply last_app]]|left; reflexivity]).
  all: assert (Hle' : last_index (wq_hist s) <= last_index h')
    by (destruct Hh' as [->|(-> & _)]; [lia|rewrite last_app; unfold last_index; lia]).
  all: pose proof (fun x => proj1 (touched_in q x)) as Htin.
  all: destruct sw as [n0|]; [rewrite (Hq _ eq_refl) in *|]; prim; unfold pset in Hn; rewrite ?Nat.eqb_refl in Hn; injection Hn as <-; prim; (split; [reflexivity|]).
  all: fold h'; unfold pset; rewrite ?Nat.eqb_refl.
  all: destruct us; try destruct ld; cbn [qv_state qv_node qv_data] in *.
  all: try (destruct Hh' as [Hh'|(_ & Hd & _)]; [|discriminate]).
  all: split; [constructor; prim; unfold pset; rewrite ?Nat.eqb_refl; cbn [qv_state qv_node qv_data]|].
  all: try solve [intros j Hj; rewrite ?(proj2 (Nat.eqb_neq _ _) Hj); reflexivity].
  all: try solve [apply vle_refl].
  all: try solve [left; auto].
  all: try solve [intros; left; auto].
  all: try solve [intros; reflexivity].
  all: try solve [intros x Hx; rewrite Hx; reflexivity].
  all: try solve [intros Hx; rewrite (forallb_seen s i q Hx); reflexivity].
  all: try solve [destruct e as [[]|]; intros Hx; try exact Hx; destruct (last_index (wq_nodes s i) <=? wq_woken s i); [exact Hx|discriminate]].
  all: try solve [destruct Hh' as [Hh'|(Hh' & _ & Hk)]; [left; exact Hh'|right; split; [exact Hh'|exact Hk]]].
  all: try solve [right; exists n0; rewrite Nat.eqb_refl; split; [reflexivity|]; split; [intros m Hm; now rewrite (proj2 (Nat.eqb_neq _ _) Hm)|apply last_app]].
  all: try solve [intros n; destruct e as [[]|]; try (left; reflexivity); match goal with |- (if Nat.eqb n ?m then _ else _) = _ \/ _ => destruct (Nat.eqb_spec n m) as [->|]; [right; right|left; reflexivity] end;
    match goal with H : qstep _ _ _ _ = Some (_, Some (EWoke ?k _ _)) |- _ => assert (k = i) by exact (proj1 (qstep_agent _ _ _ _ _ _ H)); subst k end; eauto].
  all: try solve [split; [cbn [qv_state]; lia|split; [intros n; specialize (Bi2 n); cbn [qv_node]; try lia|intros x; specialize (Bi3 x); cbn [qv_data]; destruct (touched q x); lia]];
     match goal with |- context [Nat.eqb ?a ?b] => destruct (Nat.eqb_spec a b) as [->|]; [|lia] end; rewrite ?last_app; unfold last_index in *; lia].
  all: try solve [right; right; split; [congruence|split; [congruence|reflexivity]]].
  all: try solve [left; split; [congruence|reflexivity]].
  all: try match goal with |- _ /\ _ => split; [|split; [reflexivity|split; [first [reflexivity|discriminate]|split; [first [reflexivity|intros n; destruct (Nat.eqb_spec n n0) as [->|]; reflexivity]|
      split; [first [discriminate|intros _ _; rewrite Nat.eqb_refl; reflexivity]|split; [first [discriminate|intros _ _ n Hn; first [reflexivity|destruct (Nat.eqb_spec n n0) as [->|]; [congruence|reflexivity]]]|]]]]]];
      [|intros ->; destruct (Nat.leb_spec (last_index (wq_nodes s i)) (wq_woken s i)); [auto|discriminate]] end.
  all: try match goal with |- vle _ (top _) => split; [cbn [qv_state top wq_hist]; try lia|
     split; [intros n; specialize (Bi2 n); cbn [qv_node top wq_nodes]; try lia|intros x; specialize (Bi3 x); cbn [qv_data top wq_data]; destruct (touched q x); lia]] end.
  all: repeat match goal with |- context [Nat.eqb ?a ?b] => destruct (Nat.eqb_spec a b) as [->|]; try lia end.
  all: rewrite ?last_app; try lia.
Qed.

(** *** Steps that read an old value. *)
Definition merged (y r : qsys) : qsys := mkQ (q_state y) (q_lock r) (q_list y) (q_heap y) (q_pc r) (q_phase y).

Record Acc (s0 s : wqueue) (i : nat) (q : list (option nat)) : Prop := {
  A_sys : wq_sys s = wq_sys s0; A_hist : wq_hist s = wq_hist s0; A_nodes : wq_nodes s = wq_nodes s0; A_lockv : wq_lockv s = wq_lockv s0;
  A_wakes : wq_wakes s = wq_wakes s0; A_woken : wq_woken s = wq_woken s0; A_hasty : wq_hasty s = wq_hasty s0;
  A_views : forall j, j <> i -> wq_views s j = wq_views s0 j;
  A_state : qv_state (wq_views s i) = qv_state (wq_views s0 i);
  A_node : forall n, qv_node (wq_views s i) n = qv_node (wq_views s0 i) n;
  A_view : forall x, qv_data (wq_views s i) x = if touched q x then S (wq_data s0 x) else qv_data (wq_views s0 i) x;
  A_data : forall x, wq_data s x = if touched q x then S (wq_data s0 x) else wq_data s0 x;
  A_races : (forall x, In x q -> qv_data (wq_views s0 i) x = wq_data s0 x) -> wq_races s = wq_races s0
}.
Lemma acc_access s i q : Acc s (access s i q) i q.
Proof.
  constructor; unfold access, qv_set, pset; cbn; rewrite ?Nat.eqb_refl; auto.
  - intros j Hj. now rewrite (proj2 (Nat.eqb_neq _ _) Hj).
  - intros Hx. now rewrite (forallb_seen s i q Hx).
Qed.
Lemma acc_refl s i : Acc s s i [].
Proof. constructor; auto. Qed.

Lemma acc_bounded s0 s i q : Bounded s0 -> Acc s0 s i q -> vle (wq_views s0 i) (wq_views s i) /\ vle (wq_views s i) (top s).
Proof.
  intros HB HA. pose proof (B_view _ HB i) as (H1 & H2 & H3). cbn [top qv_state qv_node qv_data] in H1, H2, H3. split.
  - split; [rewrite (A_state _ _ _ _ HA); lia|]. split; [intros n; rewrite (A_node _ _ _ _ HA); lia|].
    intros x. rewrite (A_view _ _ _ _ HA). specialize (H3 x). destruct (touched q x); lia.
  - unfold top. split; [cbn; rewrite (A_state _ _ _ _ HA), (A_hist _ _ _ _ HA); exact H1|].
    split; [intros n; cbn; rewrite (A_node _ _ _ _ HA), (A_nodes _ _ _ _ HA); apply H2|].
    intros x. cbn. rewrite (A_view _ _ _ _ HA), (A_data _ _ _ _ HA). specialize (H3 x). destruct (touched q x); lia.
Qed.

Lemma after_spec s i k v r s' e y0 debug spur q s0 :
  Bounded s0 -> after_load s i k v r = Some (s', e) -> r = qstep debug y0 i spur ->
  q_pc y0 = q_pc (wq_sys s0) -> q_lock y0 = q_lock (wq_sys s0) ->
  (uses_state y0 i = true \/ loads_node y0 i = true) ->
  Acc s0 s i q -> vle (wq_views s i) v -> vle v (top s) ->
  exists y', r = Some (y', e) /\ wq_sys s' = merged (wq_sys s0) y' /\ WStep s0 s' i e q (wq_views s0 i) /\
    wq_views s' i = v /\ wq_hist s' = wq_hist s0 /\ wq_nodes s' = wq_nodes s0 /\ wq_wakes s' = wq_wakes s0 /\ wq_woken s' = wq_woken s0 /\ vle (wq_views s' i) (top s') /\
    (e = Some (EPeek i) -> wq_hasty s' = [] -> k <= wq_woken s0 i).
Proof.
  intros HB Ha Hr Hpc Hlk Huse HA Hv Ht. unfold after_load in Ha. destruct r as [[y' e0]|]; [|discriminate]. symmetry in Hr.
  destruct (acc_bounded _ _ _ _ HB HA) as [Hd0 _].
  assert (Hd : vle (wq_views s0 i) v) by (eapply vle_trans; eauto).
  destruct HA as [X0 X1 X2 X5 X3 X4 X6 A1 A2 A3 A4 A5 A6].
  assert (Hde : forall x, touched q x = true -> qv_data v x = S (wq_data s0 x)).
  { intros x Hx. destruct Hv as (_ & _ & H1). destruct Ht as (_ & _ & H2). specialize (H1 x). specialize (H2 x). cbn [top qv_data] in H2.
    rewrite A4, Hx in H1. rewrite A5, Hx in H2. lia. }
  rewrite X0 in Ha.
  assert (Hl : q_lock y' = q_lock (wq_sys s0) \/ (q_lock (wq_sys s0) <> None /\ q_lock y' = None)).
  { rewrite <- Hlk. destruct (q_lock y0) as [l|] eqn:E1, (q_lock y') as [l'|] eqn:E2; auto.
    - left. f_equal. exact (qstep_same _ _ _ _ _ _ _ _ Hr E1 E2).
    - right. split; [discriminate|reflexivity].
    - destruct (qstep_acquire _ _ _ _ _ _ Hr E1) as (K1 & _ & K2 & _); [congruence|]. destruct Huse; congruence. }
  assert (e0 = e) by congruence. subst e0.
  assert (Hst : forall sp,
     (q_lock y' = q_lock (wq_sys s0) /\ sp = wq_lockv s0) \/
           (q_lock (wq_sys s0) = None /\ q_lock y' <> None /\ sp = wq_lockv s0 /\ vle (wq_lockv s0) v) \/
           (q_lock (wq_sys s0) <> None /\ q_lock y' = None /\ sp = v) ->
     WStep s0 (mkWQ (merged (wq_sys s0) y') (wq_hist s0) (wq_nodes s0) (qv_set (wq_views s) i v) sp (wq_wakes s0) (wq_woken s0) (wq_data s) (wq_races s) (hasten s i k e)) i e q (wq_views s0 i)).
  { intros sp L. constructor; unfold merged, qv_set, pset; cbn [wq_sys wq_hist wq_nodes wq_views wq_lockv wq_wakes wq_woken wq_data wq_races wq_hasty q_lock q_heap q_state]; rewrite ?Nat.eqb_refl; auto.
      + intros j Hj. rewrite (proj2 (Nat.eqb_neq _ _) Hj). auto.
      + apply vle_refl.
      + intros x Hx. rewrite Hde by exact Hx. rewrite A5, Hx. reflexivity.
      + unfold hasten. rewrite X4, X6. destruct e as [[]|]; auto. destruct (k <=? wq_woken s0 i); [auto|discriminate]. }
  assert (Hh : e = Some (EPeek i) -> hasten s i k e = [] -> k <= wq_woken s0 i).
  { intros ->. unfold hasten. rewrite X4. destruct (Nat.leb_spec k (wq_woken s0 i)); [auto|discriminate]. }
  injection Ha as <-. exists y'. split; [reflexivity|].
  rewrite X1, X2, X3, X4, X5 in *.
  destruct Hl as [Hl|[Hl1 Hl2]].
  - assert (Hm : forall w, mutex_sync w i (q_lock (wq_sys s0)) (q_lock y') = w) by (intros w; rewrite Hl; unfold mutex_sync; destruct (q_lock (wq_sys s0)); reflexivity).
    rewrite Hm. split; [reflexivity|]. split; [apply Hst; left; split; [exact Hl|reflexivity]|].
    cbn [wq_sys wq_hist wq_nodes wq_views wq_lockv wq_wakes wq_woken wq_data wq_races wq_hasty]. unfold qv_set. rewrite pset_same.
    repeat (split; [reflexivity|]). split; [|exact Hh]. destruct Ht as (T1 & T2 & T3). unfold top in *. cbn in *. rewrite X1, X2 in *. split; auto.
  - rewrite Hl2 in *. destruct (q_lock (wq_sys s0)) as [l|] eqn:El; [|congruence]. unfold mutex_sync.
    cbn [wq_sys wq_hist wq_nodes wq_views wq_lockv wq_wakes wq_woken wq_data wq_races wq_hasty]. unfold qv_set. rewrite !pset_same.
    split; [unfold merged; rewrite Hl2; reflexivity|]. split.
    { replace (mkQ (q_state (wq_sys s0)) None (q_list (wq_sys s0)) (q_heap (wq_sys s0)) (q_pc y') (q_phase (wq_sys s0))) with (merged (wq_sys s0) y') by (unfold merged; now rewrite Hl2).
      apply Hst. right; right. split; [discriminate|]. split; [reflexivity|]. reflexivity. }
    repeat (split; [reflexivity|]). split; [|exact Hh]. destruct Ht as (T1 & T2 & T3). unfold top in *. cbn in *. rewrite X1, X2 in *. split; auto.
Qed.

Lemma older_spec debug s i k s' e : Bounded s -> older debug s i k = Some (s', e) -> exists q,
  WStep s s' i e q (wq_views s i) /\ vle (wq_views s' i) (top s') /\ wq_hist s' = wq_hist s /\ wq_nodes s' = wq_nodes s /\ wq_wakes s' = wq_wakes s /\ wq_woken s' = wq_woken s /\
  ((loads_node (wq_sys s) i = true /\ q = [] /\ exists w r, nth_error (wq_nodes s i) k = Some w /\ qv_node (wq_views s i) i <= k /\
      qstep debug (with_mem (wq_sys s) (set_state (q_heap (wq_sys s)) i w) (q_list (wq_sys s))) i false = Some (r, e) /\ wq_sys s' = merged (wq_sys s) r /\
      (forall n, qv_node (wq_views s' i) n = pset (qv_node (wq_views s i)) i k n) /\ qv_state (wq_views s' i) = qv_state (wq_views s i) /\
      (e = Some (EPeek i) -> wq_hasty s' = [] -> k <= wq_woken s i)) \/
   (loads_node (wq_sys s) i = false /\ uses_state (wq_sys s) i = true /\ q = touches (wq_sys s) i /\ exists w r, nth_error (wq_hist s) k = Some w /\ qv_state (wq_views s i) <= k /\
      may_read (q_pc (wq_sys s) i) w = true /\ qstep debug (with_state (wq_sys s) w) i true = Some (r, e) /\ wq_sys s' = merged (wq_sys s) r /\
      qv_state (wq_views s' i) = k /\ (forall n, qv_node (wq_views s' i) n = qv_node (wq_views s i) n))).
Proof.
  intros HB Ho. unfold older in Ho. pose proof (B_view _ HB i) as Hb. pose proof Hb as (Hb1 & Hb2 & Hb3). cbn [top qv_state qv_node qv_data] in Hb1, Hb2, Hb3.
  destruct (loads_node (wq_sys s) i) eqn:El.
  - destruct (nth_error (wq_nodes s i) k) as [w|] eqn:Ew; [|discriminate].
    destruct (Nat.leb_spec (qv_node (wq_views s i) i) k) as [Hk|]; [|discriminate].
    assert (Hkl : k <= last_index (wq_nodes s i)) by (assert (k < length (wq_nodes s i)) by (apply nth_error_Some; congruence); unfold last_index; lia).
    exists []. set (r0 := qstep _ _ _ _) in *.
    destruct (after_spec s i k _ r0 s' e _ debug false [] s HB Ho eq_refl) as (y' & R1 & R2 & R3 & R4 & R5 & R6 & R7 & R8 & R9 & R10); auto.
    + apply acc_refl.
    + split; [reflexivity|]. split; [|reflexivity]. intros n. cbn. unfold pset. destruct (Nat.eqb_spec n i) as [->|]; auto.
    + split; [exact Hb1|]. split; [|exact Hb3]. intros n. cbn. unfold pset. destruct (Nat.eqb_spec n i) as [->|]; auto.
    + split; [exact R3|]. split; [exact R9|]. repeat (split; [assumption|]). left. split; [reflexivity|]. split; [reflexivity|].
      exists w, y'. rewrite R4. split; [first [reflexivity|exact Ew]|]. split; [exact Hk|]. split; [exact R1|]. split; [exact R2|]. split; [reflexivity|]. split; [reflexivity|exact R10].
  - destruct (uses_state (wq_sys s) i) eqn:Eu; [|discriminate].
    destruct (nth_error (wq_hist s) k) as [w|] eqn:Ew; [|discriminate].
    destruct ((qv_state (wq_views s i) <=? k) && may_read (q_pc (wq_sys s) i) w) eqn:Ec; [|discriminate].
    apply andb_prop in Ec. destruct Ec as [Hk Hm]. apply Nat.leb_le in Hk.
    assert (Hkl : k <= last_index (wq_hist s)) by (assert (k < length (wq_hist s)) by (apply nth_error_Some; congruence); unfold last_index; lia).
    exists (touches (wq_sys s) i). set (r0 := qstep _ _ _ _) in *.
    pose proof (acc_access s i (touches (wq_sys s) i)) as HA. destruct (acc_bounded _ _ _ _ HB HA) as [_ (T1 & T2 & T3)].
    destruct (after_spec _ i k _ r0 s' e _ debug true (touches (wq_sys s) i) s HB Ho eq_refl) as (y' & R1 & R2 & R3 & R4 & R5 & R6 & R7 & R8 & R9 & R10); auto.
    + split; [|split; reflexivity]. cbn [see_state qv_state]. rewrite (A_state _ _ _ _ HA). exact Hk.
    + split; [|split; [exact T2|exact T3]]. cbn. exact Hkl.
    + split; [exact R3|]. split; [exact R9|]. repeat (split; [assumption|]). right. split; [reflexivity|]. split; [reflexivity|]. split; [reflexivity|].
      exists w, y'. rewrite R4. split; [first [reflexivity|exact Ew]|]. split; [exact Hk|]. split; [exact Hm|]. split; [exact R1|]. split; [exact R2|]. split; [reflexivity|].
      intros n. cbn [see_state qv_node]. apply (A_node _ _ _ _ HA).
Qed.

(** *** Calls. *)
Definition ev_touches (e : option qevent) : list (option nat) :=
  match e with Some (ENew i | EFreed i | ETimeout i) => [Some i] | _ => [] end.

Lemma call_spec debug s a sync s' e : Bounded s -> call debug s a sync = Some (s', e) ->
  exists i v0, qstep_sys debug (wq_sys s) a = Some (wq_sys s', e) /\ (forall i spur, a <> QStep i spur) /\ i = call_agent a /\
  WStep s s' i e (ev_touches e) v0 /\ vle (wq_views s' i) (top s') /\
  wq_hist s' = wq_hist s /\ wq_nodes s' = wq_nodes s /\ q_lock (wq_sys s') = q_lock (wq_sys s) /\
  (v0 = wq_views s i \/ exists u, wq_wakes s i = Some u /\ v0 = qv_join (wq_views s i) u) /\
  (forall n, qv_node (wq_views s' i) n = qv_node v0 n) /\
  (e = Some (ETimeout i) -> wq_hasty s' = [] -> last_index (wq_nodes s i) <= wq_woken s' i).
Proof.
  intros HB Hc. unfold call in Hc. set (i := call_agent a) in *.
  set (wake := match caller a with Some _ => if sync then wq_wakes s i else None | None => None end) in *.
  assert (Hw : wake = None \/ exists u, wake = Some u /\ wq_wakes s i = Some u).
  { subst wake. destruct (caller a); [destruct sync|]; auto. destruct (wq_wakes s i) as [u|]; eauto. }
  assert (Hn : forall j spur, a <> QStep j spur) by (intros j spur ->; discriminate).
  set (wk := match wake with Some u => Nat.max (wq_woken s i) (qv_node u i) | None => wq_woken s i end) in *.
  set (v0 := match wake with Some u => qv_join (wq_views s i) u | None => wq_views s i end) in *.
  assert (He : exists y', qstep_sys debug (wq_sys s) a = Some (y', e) /\
     s' = access (mkWQ y' (wq_hist s) (wq_nodes s) (qv_set (wq_views s) i v0) (wq_lockv s)
                           (match wake with Some _ => pset (wq_wakes s) i None | None => wq_wakes s end)
                           (pset (wq_woken s) i wk) (wq_data s) (wq_races s)
                           (if gives_up s a wk then i :: wq_hasty s else wq_hasty s)) i (call_touches a)).
  { destruct (qstep_sys debug (wq_sys s) a) as [[y' e0]|] eqn:Eq.
    - exists y'. subst wk v0. destruct a as [j|j w|j w|j|j|j|j|j|j spur]; try (destruct (Hn j spur eq_refl)); destruct sync, wake; try discriminate; injection Hc as <- <-; split; reflexivity.
    - destruct a as [j|j w|j w|j|j|j|j|j|j spur]; try (destruct (Hn j spur eq_refl)); destruct sync, wake; discriminate. }
  clear Hc. destruct He as (y' & Hq & ->). exists i, v0.
  assert (Hk : call_touches a = ev_touches e /\ q_lock y' = q_lock (wq_sys s) /\ (forall k n w, e <> Some (EWoke k n w)) /\ (e = Some (ETimeout i) -> a = QTimeout i)).
  { clear - Hq Hn. subst i. destruct a as [i|i w|i w|i|i|i|i|i|i spur]; try (destruct (Hn i spur); reflexivity); qcalls Hq (wq_sys s) i E Ep;
    (split; [reflexivity|]); (split; [reflexivity|]); (split; [discriminate|]); try discriminate; reflexivity. }
  destruct Hk as (Hk1 & Hk2 & Hk3 & Hk4). rewrite Hk1.
  set (q := ev_touches e) in *.
  pose proof (B_view _ HB i) as (Hb1 & Hb2 & Hb3). cbn [top qv_state qv_node qv_data] in Hb1, Hb2, Hb3.
  assert (Hv0 : vle (wq_views s i) v0 /\ vle v0 (top s)).
  { subst v0. destruct Hw as [->|(u & -> & Hu)]; [split; [apply vle_refl|apply (B_view _ HB)]|].
    split; [apply vle_join_l|apply vle_join; [apply (B_view _ HB)|exact (B_wakes _ HB _ _ Hu)]]. }
  destruct Hv0 as [Hv0 Hv1]. pose proof Hv1 as (Hv11 & Hv12 & Hv13). cbn [top qv_state qv_node qv_data] in Hv11, Hv12, Hv13.
  split; [exact Hq|]. split; [exact Hn|]. split; [reflexivity|]. split; [|split; [|split; [reflexivity|split; [reflexivity|split; [exact Hk2|split; [|split]]]]]].
  - constructor; unfold access, qv_set, pset; cbn [wq_sys wq_hist wq_nodes wq_views wq_lockv wq_wakes wq_woken wq_data wq_races wq_hasty]; rewrite ?Nat.eqb_refl; auto.
    + intros j Hj. rewrite (proj2 (Nat.eqb_neq _ _) Hj). reflexivity.
    + split; [reflexivity|]. split; [reflexivity|]. intros x. cbn. specialize (Hv13 x). destruct (touched q x); lia.
    + intros x Hx. cbn. now rewrite Hx.
    + intros Hx. replace (forallb _ q) with true; [reflexivity|]. symmetry. apply forallb_forall. intros x Hin. apply Nat.eqb_eq. auto.
    + intros n. destruct wake; [|auto]. destruct (n =? i); auto.
    + intros n. destruct (Nat.eqb_spec n i) as [->|]; [|auto]. subst wk v0. destruct Hw as [->|(u & -> & Hu)]; [auto|]. right. split; [reflexivity|]. exists u. split; [exact Hu|]. split; [reflexivity|apply vle_join_r].
    + destruct (gives_up s a wk); [discriminate|auto].
  - unfold access, qv_set, pset. cbn [wq_views]. rewrite !Nat.eqb_refl. unfold top. cbn. split; [exact Hv11|]. split; [exact Hv12|]. intros x. cbn. specialize (Hv13 x). destruct (touched q x); lia.
  - subst v0. destruct Hw as [->|(u & -> & Hu)]; eauto.
  - intros n. unfold access, qv_set, pset. cbn. rewrite !Nat.eqb_refl. reflexivity.
  - intros Ht. specialize (Hk4 Ht). unfold access, qv_set, pset. cbn. rewrite Nat.eqb_refl. rewrite Hk4. unfold gives_up.
    destruct (Nat.ltb_spec wk (last_index (wq_nodes s i))); [discriminate|auto].
Qed.
