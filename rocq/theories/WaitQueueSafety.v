(** Memory safety of the wait queue. *)
From Coq Require Import List Bool Arith NArith Lia.
From Verif Require Import WaitCellModel WaitList WaitListSpec WaitListFacts WaitQueueModel WaitQueueSpec WaitQueueFacts.
Import ListNotations.

Lemma qrun_split {G} debug es s : lrun G debug es s -> forall es2 e es1, es = es2 ++ e :: es1 ->
  exists s1 a s2, lrun G debug es1 s1 /\ qstep_sys debug s1 a = Some (s2, Some e) /\ lrun G debug (e :: es1) s2.
Proof.
  induction 1 as [|es s a s' e0 Hr IH Hs|es s i p' Hr IH Hs]; intros es2 e es1 He; [..|exact (IH _ _ _ He)].
  - destruct es2; discriminate.
  - destruct e0 as [x|].
    + destruct es2 as [|y es2]; simpl in He; injection He as Hx He.
      * subst. exists s, a, s'. split; [exact Hr|]. split; [exact Hs|]. exact (lrun_step G debug es1 s a s' (Some e) Hr Hs).
      * exact (IH _ _ _ He).
    + exact (IH _ _ _ He).
Qed.

Lemma no_ub_app es2 es1 : no_ub (es2 ++ es1) -> no_ub es1.
Proof. intros H i Hi. apply (H i). apply in_or_app. now right. Qed.

(** ** The window between taking and unlinking, in the events. *)
Definition WInv (es : list qevent) (s : qsys) : Prop := forall n, half_taken n es = true <-> window s = Some n.

Definition calm_win (e : option qevent) : bool :=
  match e with Some (ESwap _ _ _ | EUnlink _ _ _) => false | _ => true end.

Lemma calm_half e es n : calm_win e = true -> half_taken n (app_ev e es) = half_taken n es.
Proof. destruct e as [[]|]; simpl; congruence. Qed.

Lemma winv_local es s st' l' ls' h' i p' ph' e :
  WInv es s -> calm_win e = true -> lock_move s i p' l' -> half (q_pc s i) = None -> half p' = None ->
  WInv (app_ev e es) (mkQ st' l' ls' h' (pset (q_pc s) i p') ph').
Proof. intros HW He Hl Hh Hh' n. rewrite calm_half, window_same by assumption. apply HW. Qed.

Section Window.
  Variable debug : bool.

  Ltac lockt E Hlk := unfold lock_move; rewrite E; first
    [ left; split; reflexivity
    | right; left; split; [assumption|split; reflexivity]
    | right; right; split; [apply Hlk; reflexivity|split; reflexivity] ].
  Ltac wloc HW E Hlk := unfold with_pc, with_state, with_lock, with_phase, with_mem; cbn [q_state q_lock q_list q_heap q_pc q_phase];
    match type of HW with WInv ?es ?s => match type of E with q_pc _ ?i = _ => apply (winv_local es s) with (i := i) end end;
    [exact HW|reflexivity|lockt E Hlk|rewrite E; reflexivity|reflexivity].

  Lemma winv_step es s i spur s' e :
    QInv es s -> WInv es s -> qstep debug s i spur = Some (s', e) -> e <> Some (EUb i) -> WInv (app_ev e es) s'.
  Proof.
    intros HI HW Hs Hub.
    assert (Hlk : holds (q_pc s i) = true -> q_lock s = Some i) by apply (I_lock _ _ HI).
    assert (Hown : forall n, window s = Some n -> holds (q_pc s i) = true -> half (q_pc s i) = Some n).
    { intros n Hn Hh. unfold window in Hn. now rewrite (Hlk Hh) in Hn. }
    unfold qstep, s_dispatch, n_dispatch in Hs.
    destruct (q_pc s i) eqn:E; [discriminate|..].
    all: repeat match type of Hs with
      | context [if ?b then _ else _] => destruct b eqn:?
      | context [match q_lock ?b with Some _ => _ | None => _ end] => destruct (q_lock b) eqn:?
      | context [match l_tail ?b with Some _ => _ | None => _ end] => destruct (l_tail b) eqn:?
      | context [let '(_, _) := ?b in _] => let E := fresh "E" in destruct b as [[? ?] ?] eqn:E || destruct b as [? ?] eqn:E
      | context [match ?o with Some _ => _ | None => _ end] => destruct o as [[? ?]|] eqn:? || destruct o eqn:?
      end; try discriminate.
    all: try (unfold undefined in Hs; injection Hs as <- <-; destruct Hub; reflexivity).
    all: try (unfold failed in Hs; rewrite ?(Hlk eq_refl), ?Nat.eqb_refl in Hs).
    all: injection Hs as <- <-.
    all: try solve [wloc HW E Hlk].
    all: try (exact HW).
    all: try (solve [destruct (q_lock s) as [k|] eqn:Ek; [destruct (Nat.eqb_spec k i) as [->|]|];
      [exfalso; apply (I_lock _ _ HI) in Ek; rewrite E in Ek; discriminate|wloc HW E Hlk..]]).
    (* taking *)
    all: try match goal with |- WInv (app_ev (Some (ESwap _ ?n _)) _) _ =>
      intros m; unfold window; cbn [app_ev half_taken q_lock q_pc with_pc with_mem]; rewrite (Hlk eq_refl), pset_same; simpl;
      destruct (Nat.eqb_spec n m) as [->|Hne]; [tauto|];
      split; [|intros Hx; congruence]; intros Hx; apply HW in Hx; apply Hown in Hx; [discriminate|reflexivity] end.
    (* unlinking *)
    all: try match goal with |- WInv (app_ev (Some (EUnlink _ ?n _)) _) _ =>
      intros m; unfold window; cbn [app_ev half_taken q_lock q_pc with_pc with_mem]; rewrite (Hlk eq_refl), pset_same; simpl;
      destruct (Nat.eqb_spec n m) as [->|Hne]; [split; discriminate|];
      split; [|discriminate]; intros Hx; apply HW in Hx; apply Hown in Hx; [simpl in Hx; congruence|reflexivity] end.
  Qed.
End Window.

(** ** Nobody releases a waiter that is still linked. *)
Definition unpeeked (p : qpc) (ph : phase) : Prop :=
  match p with
  | SRet Wait => True
  | SCas _ | SLock _ | SLoad _ | SCasEmpty _ | SCasWaking _ | SNode _ | SSwap _ | SEnq _ | SUnlock _ | SRet _
  | CLoad2 _ | CUpd _ | DRemove | DEmpty | DUnlock | DFree => False
  | _ => ph = PWaiting
  end.

Definition LiveInv (es : list qevent) (s : qsys) : Prop :=
  (forall n, In n (members es s) -> q_phase s n <> PGone) /\
  (forall n, window s = Some n -> unpeeked (q_pc s n) (q_phase s n)).

Lemma live_local es s i p' ph' l' st' ls' h' e :
  LiveInv es s -> waiting (app_ev e es) = waiting es -> lock_move s i p' l' ->
  half (q_pc s i) = None -> half p' = None ->
  (forall j, j <> i -> ph' j = q_phase s j) ->
  (ph' i = PGone -> q_phase s i = PGone \/ ~ In i (members es s)) ->
  (window s = Some i -> unpeeked p' (ph' i)) ->
  LiveInv (app_ev e es) (mkQ st' l' ls' h' (pset (q_pc s) i p') ph').
Proof.
  intros [L1 L2] He Hl Hh Hh' Hp Hg Hu.
  assert (Hm : members (app_ev e es) (mkQ st' l' ls' h' (pset (q_pc s) i p') ph') = members es s).
  { unfold members. rewrite He, window_same by assumption. reflexivity. }
  split.
  - intros n. rewrite Hm. intros Hn. simpl. destruct (Nat.eq_dec n i) as [->|Hni]; [|rewrite Hp by exact Hni; auto].
    intros Hx. destruct (Hg Hx) as [Hy|Hy]; [exact (L1 i Hn Hy)|contradiction].
  - intros n. rewrite window_same by assumption. intros Hn. simpl.
    destruct (Nat.eq_dec n i) as [->|Hni]; [rewrite pset_same; auto|]. rewrite pset_other, Hp by exact Hni. auto.
Qed.

Lemma live_all es s q : LiveInv es s -> (forall n, q_phase s n = PAbsent -> ~ In n (members es s)) ->
  (forall n, In n q -> In n (members es s)) -> forallb (live s) q = true.
Proof.
  intros [L1 _] Hab Hq. apply forallb_forall. intros n Hn. unfold live. specialize (L1 n (Hq n Hn)). specialize (Hab n).
  destruct (q_phase s n); try reflexivity; exfalso; [apply Hab; auto|congruence].
Qed.

Lemma linked_prev_in h o q nw x y : linked h o q nw -> In x q -> n_prev (h x) = Some y -> In y q \/ nw = Some y.
Proof.
  revert o. induction q as [|z q IH]; simpl; intros o Hl; [tauto|]; intros [->|Hx] Hy.
  - destruct Hl as (_ & H2 & _). rewrite H2 in Hy. destruct q; simpl in *; [auto|]. injection Hy as ->. auto.
  - destruct Hl as (_ & _ & H3). destruct (IH _ H3 Hx Hy); auto.
Qed.

Lemma linked_next_in h o q nw x y : linked h o q nw -> In x q -> n_next (h x) = Some y -> In y q \/ o = Some y.
Proof.
  revert o. induction q as [|z q IH]; simpl; intros o Hl; [tauto|]; intros [->|Hx] Hy.
  - destruct Hl as (H1 & _). right. congruence.
  - destruct Hl as (_ & _ & H3). destruct (IH _ H3 Hx Hy) as [?|E]; [auto|]. left. left. congruence.
Qed.

Lemma rep_prev_in h l q x y : represents h l q -> In x q -> n_prev (h x) = Some y -> In y q.
Proof. intros (_ & H & _) Hx Hy. destruct (linked_prev_in _ _ _ _ _ _ H Hx Hy); [assumption|discriminate]. Qed.
Lemma rep_next_in h l q x y : represents h l q -> In x q -> n_next (h x) = Some y -> In y q.
Proof. intros (_ & H & _) Hx Hy. destruct (linked_next_in _ _ _ _ _ _ H Hx Hy); [assumption|discriminate]. Qed.
Lemma rep_head_in h l q y : represents h l q -> l_head l = Some y -> In y q.
Proof. intros (_ & _ & _ & H) Hy. apply last_or_in. congruence. Qed.
Lemma rep_tail_in h l q y : represents h l q -> l_tail l = Some y -> In y q.
Proof. intros (_ & _ & H & _) Hy. apply hd_or_in. congruence. Qed.

Lemma pointed_member es s n : QInv es s -> points_to s n -> In n (members es s).
Proof.
  intros HI [H|[H|[[m H]|[k H]]]].
  - eapply rep_head_in; [apply (I_rep _ _ HI)|exact H].
  - eapply rep_tail_in; [apply (I_rep _ _ HI)|exact H].
  - destruct (in_dec Nat.eq_dec m (members es s)) as [Hm|Hm].
    + destruct H as [H|H]; [eapply rep_next_in|eapply rep_prev_in]; try exact H; try exact Hm; apply (I_rep _ _ HI).
    + destruct (I_det _ _ HI m Hm) as [D1 D2]. destruct H; congruence.
  - assert (Hh : holds (q_pc s k) = true) by (destruct H as [-> | ->]; reflexivity).
    apply (I_lock _ _ HI) in Hh. unfold members, window. rewrite Hh.
    destruct H as [-> | ->]; simpl; auto.
Qed.

Lemma unpeeked_taken p ph st : node_ok p ph st True -> ph <> PGone -> holds p = false \/ (exists v, p = TSlow v) \/ p = KLoop -> unpeeked p ph.
Proof.
  intros H Hg Hh. destruct p as [| | | | | | | | |[]|[]| | | | | | | | | | | | | | | | | | | | | | | | |]; simpl in *;
    try exact I; try (destruct ph; simpl in *; intuition discriminate);
    try (destruct Hh as [?|[[? ?]|?]]; discriminate).
Qed.

Lemma live_take es s i n st p' h' :
  QInv es s -> LiveInv es s -> (exists v, q_pc s i = TSlow v) \/ q_pc s i = KLoop ->
  p' = TLinks n \/ p' = KLinks n -> l_tail (q_list s) = Some n ->
  LiveInv (ESwap i n st :: es) (mkQ (q_state s) (q_lock s) (q_list s) h' (pset (q_pc s) i p') (q_phase s)).
Proof.
  intros HI HL Hp Hp' Ht.
  assert (Hh : holds (q_pc s i) = true) by (destruct Hp as [[v ->]| ->]; reflexivity).
  assert (Hl : q_lock s = Some i) by now apply (I_lock _ _ HI).
  assert (Hm : members es s = waiting es) by (apply (holder_members es s i HI Hh); destruct Hp as [[v ->]| ->]; reflexivity).
  assert (Hin : In n (members es s)) by (eapply rep_tail_in; [apply (I_rep _ _ HI)|exact Ht]).
  assert (Hw : half p' = Some n) by (destruct Hp' as [-> | ->]; reflexivity).
  split.
  - intros m. unfold members, window. cbn [q_lock q_pc q_phase waiting]. rewrite Hl, pset_same, Hw.
    intros [<-|Hx]; apply (proj1 HL); [exact Hin|]. rewrite Hm. apply without_in in Hx. tauto.
  - intros m. unfold window. cbn [q_lock q_pc q_phase]. rewrite Hl, pset_same, Hw. intros Hx. injection Hx as <-.
    assert (Hu : unpeeked (q_pc s n) (q_phase s n)).
    { apply (unpeeked_taken _ _ (n_state (q_heap s n))).
      - apply (node_ok_iff _ _ _ (In n (waiting es))); [rewrite <- Hm; tauto|apply (I_node _ _ HI)].
      - apply (proj1 HL). exact Hin.
      - destruct (holds (q_pc s n)) eqn:Eh; [right|left; reflexivity].
        apply (I_lock _ _ HI) in Eh. rewrite Hl in Eh. injection Eh as <-. exact Hp. }
    destruct (Nat.eq_dec n i) as [->|Hni]; [rewrite pset_same|rewrite pset_other by exact Hni; exact Hu].
    destruct Hp as [[v Hp]|Hp]; rewrite Hp in Hu; destruct Hp' as [-> | ->]; exact Hu.
Qed.

Section Live.
  Variable debug : bool.

  Ltac lockt E Hlk := unfold lock_move; rewrite E; first
    [ left; split; reflexivity
    | right; left; split; [assumption|split; reflexivity]
    | right; right; split; [apply Hlk; reflexivity|split; reflexivity] ].
  Ltac lloc HL E Hlk Hun := unfold with_pc, with_state, with_lock, with_phase, with_mem; cbn [q_state q_lock q_list q_heap q_pc q_phase];
    match type of HL with LiveInv ?es ?s => match type of E with q_pc _ ?i = _ => apply (live_local es s) with (i := i) end end;
    [exact HL|reflexivity|lockt E Hlk|rewrite E; reflexivity|reflexivity|intros; first [reflexivity|apply pset_other; assumption]
    |first [intros K; left; exact K|rewrite pset_same; try discriminate]
    |let K := fresh in intros K; first
       [ exact (Hun K) | exfalso; exact (Hun K) | exfalso; unfold window in K; rewrite ?Hlk, ?E in K by reflexivity; discriminate
       | exfalso; unfold window in K; match goal with H : q_lock _ = None |- _ => rewrite H in K end; discriminate | idtac ] ].

  Lemma live_step es s i spur s' e :
    QInv es s -> WInv es s -> LiveInv es s -> (forall n, q_phase s n = PAbsent -> ~ In n (members es s)) ->
    qstep debug s i spur = Some (s', e) -> (e = Some (EPeek i) -> half_taken i es = false) ->
    e <> Some (EUb i) /\ LiveInv (app_ev e es) s'.
  Proof.
    intros HI HW HL Hab Hs Hpk.
    assert (Hlk : holds (q_pc s i) = true -> q_lock s = Some i) by apply (I_lock _ _ HI).
    assert (Hfail : e = Some (EAssert i) -> may_fail (q_pc s i)).
    { intros He. apply (qinv_step debug es s i spur s' e HI Hs); [rewrite He; discriminate|exact He]. }
    pose proof (proj2 HL i) as Hun. pose proof (I_node _ _ HI i) as Hi.
    assert (Hown := fun K => own_not_gone (q_pc s i) (n_state (q_heap s i)) (In i (waiting es)) (eq_ind _ (fun ph => node_ok (q_pc s i) ph _ _) Hi _ K)).
    unfold qstep, s_dispatch, n_dispatch in Hs.
    destruct (q_pc s i) eqn:E; [discriminate|..];
      try (assert (Hng : q_phase s i <> PGone) by exact Hown); clear Hown.
    all: repeat match type of Hs with
      | context [if ?b then _ else _] => destruct b eqn:?
      | context [match q_lock ?b with Some _ => _ | None => _ end] => destruct (q_lock b) eqn:?
      | context [match l_tail ?b with Some _ => _ | None => _ end] => destruct (l_tail b) eqn:?
      | context [let '(_, _) := ?b in _] => let E := fresh "E" in destruct b as [[? ?] ?] eqn:E || destruct b as [? ?] eqn:E
      | context [match ?o with Some _ => _ | None => _ end] => destruct o as [[? ?]|] eqn:? || destruct o eqn:?
      end; try discriminate.
    all: try (unfold failed in Hs; rewrite ?(Hlk eq_refl), ?Nat.eqb_refl in Hs).
    all: injection Hs as <- <-.
    all: try (split; [discriminate|]).
    all: try solve [cbn [unpeeked] in Hun; lloc HL E Hlk Hun].
    all: try (exact HL).
    (* no access to released memory *)
    all: try match goal with |- Some (EUb _) <> _ /\ _ => exfalso end.
    all: try match goal with
      | H : forallb (live _) (enqueue_touches _) = false |- False =>
          rewrite (live_all es s) in H; [discriminate|exact HL|exact Hab|unfold enqueue_touches];
          destruct (l_head (q_list s)) eqn:Ex; [|now intros ? []];
          intros m [<-|[]]; eapply rep_head_in; [apply (I_rep _ _ HI)|exact Ex]
      | H : l_tail _ = Some ?n, H1 : live _ ?n = false |- False =>
          assert (Hx : forallb (live s) [n] = true) by
            (apply (live_all es s); [exact HL|exact Hab|]; intros m [<-|[]]; eapply rep_tail_in; [apply (I_rep _ _ HI)|exact H]);
          simpl in Hx; rewrite H1 in Hx; discriminate
      | H : forallb (live _) (dequeue_touches _ ?n) = false |- False =>
          assert (Hin : In n (members es s)) by (unfold members, window; rewrite (Hlk eq_refl), E; now left);
          rewrite (live_all es s) in H; [discriminate|exact HL|exact Hab|unfold dequeue_touches];
          destruct (n_prev (q_heap s n)) eqn:Ex; [|intros m [<-|[]]; exact Hin];
          intros m [<-|[<-|[]]]; [exact Hin|eapply rep_prev_in; [apply (I_rep _ _ HI)|exact Hin|exact Ex]]
      end.
    all: try match goal with H : forallb (live _) (remove_touches _ _) = false |- False =>
      assert (Hli : live s i = true) by (unfold live; rewrite (proj1 Hi); reflexivity);
      destruct (in_dec Nat.eq_dec i (members es s)) as [Hin|Hin];
        [|destruct (I_det _ _ HI i Hin) as [D1 D2]; unfold remove_touches in H; rewrite D1, D2 in H; simpl in H; rewrite Hli in H; discriminate];
      rewrite (live_all es s) in H; [discriminate|exact HL|exact Hab|unfold remove_touches];
      intros m [<-|Hm]; [exact Hin|]; apply in_app_or in Hm;
      destruct Hm as [Hm|Hm];
      [ destruct (n_prev (q_heap s i)) eqn:Ex; [|destruct Hm]; destruct Hm as [<-|[]]; eapply rep_prev_in; [apply (I_rep _ _ HI)|exact Hin|exact Ex]
      | destruct (n_next (q_heap s i)) eqn:Ex; [|destruct Hm]; destruct Hm as [<-|[]]; eapply rep_next_in; [apply (I_rep _ _ HI)|exact Hin|exact Ex] ] end.
    (* peeking *)
    all: try match goal with |- LiveInv (app_ev (Some (EPeek _)) _) _ =>
      specialize (Hpk eq_refl); assert (Hnw : window s <> Some i) by (intros K; apply HW in K; congruence);
      lloc HL E Hlk Hun; contradiction end.
    (* unlinking *)
    all: try match goal with |- LiveInv (app_ev (Some (EUnlink _ ?n _)) _) _ =>
      assert (Hin : window s = Some n) by (unfold window; rewrite (Hlk eq_refl), E; reflexivity);
      split; [|intros m; unfold window; cbn [q_lock q_pc with_pc with_mem]; rewrite (Hlk eq_refl), pset_same; discriminate];
      intros m; unfold members, window; cbn [q_lock q_pc with_pc with_mem q_phase app_ev waiting]; rewrite (Hlk eq_refl), pset_same; cbn [half];
      intros Hm; apply (proj1 HL); unfold members; rewrite Hin; now right end.
    - (* SEnq *)
      assert (Hm : members es s = waiting es) by (apply (holder_members es s i HI); rewrite E; reflexivity).
      split.
      + intros m. unfold members, window. cbn [q_lock q_pc with_pc with_mem q_phase app_ev waiting]. rewrite (Hlk eq_refl), pset_same. cbn [half].
        intros Hx. apply in_app_or in Hx. destruct Hx as [Hx|[<-|[]]]; [|exact Hng]. apply (proj1 HL). rewrite Hm. exact Hx.
      + intros m. unfold window. cbn [q_lock q_pc with_pc with_mem]. rewrite (Hlk eq_refl), pset_same. discriminate.
    - (* SRet *)
      lloc HL E Hlk Hun.
      + intros Hx. left. destruct r; simpl in Hx; try discriminate. destruct (q_phase s i); congruence || discriminate.
      + rewrite pset_same. pose proof (Hun H) as Hx. destruct r; simpl in Hx; [reflexivity|contradiction..].
    - (* an assertion that cannot fail *)
      destruct (Hfail eq_refl) as [v Hv]. congruence.
    - apply (live_take es s i n Q_WAKING (TLinks n)); auto; rewrite E; eauto.
    - apply (live_take es s i n Q_WAKING (TLinks n)); auto; rewrite E; eauto.
    - apply (live_take es s i n Q_CLOSED (KLinks n)); auto; rewrite E; eauto.
    - (* ERemoved *)
      assert (Hm : members es s = waiting es) by (apply (holder_members es s i HI); rewrite E; reflexivity).
      split.
      + intros m. unfold members, window. cbn [q_lock q_pc with_pc with_mem q_phase app_ev waiting]. rewrite (Hlk eq_refl), pset_same. cbn [half].
        intros Hx. apply (proj1 HL). rewrite Hm. apply without_in in Hx. tauto.
      + intros m. unfold window. cbn [q_lock q_pc with_pc with_mem]. rewrite (Hlk eq_refl), pset_same. discriminate.
    - (* DFree *)
      lloc HL E Hlk Hun. intros _. right. unfold members. destruct (window s) as [m|] eqn:Ew; [|exact (proj2 Hi)].
      intros [->|Hx]; [exact (Hun eq_refl)|exact (proj2 Hi Hx)].
  Qed.
End Live.

Lemma winv_call es s i p' e ph' h' :
  WInv es s -> calm_win e = true -> q_pc s i = QIdle -> holds p' = false -> half p' = None ->
  WInv (app_ev e es) (mkQ (q_state s) (q_lock s) (q_list s) h' (pset (q_pc s) i p') ph').
Proof. intros HW He E H1 H2. apply (winv_local es s); auto; [left; rewrite E; auto|rewrite E; reflexivity]. Qed.

Lemma winv_phase es s e ph' h' :
  WInv es s -> calm_win e = true -> WInv (app_ev e es) (mkQ (q_state s) (q_lock s) (q_list s) h' (q_pc s) ph').
Proof. intros HW He n. rewrite calm_half by exact He. apply HW. Qed.

Lemma live_call es s i p' e :
  LiveInv es s -> waiting (app_ev e es) = waiting es -> q_pc s i = QIdle -> holds p' = false -> half p' = None ->
  (window s = Some i -> unpeeked p' (q_phase s i)) -> LiveInv (app_ev e es) (with_pc s i p').
Proof. intros HL He E H1 H2 H3. unfold with_pc. apply (live_local es s); auto; [left; rewrite E; auto|rewrite E; reflexivity]. Qed.

Lemma live_phase es s i ph' e h' :
  LiveInv es s -> waiting (app_ev e es) = waiting es -> q_pc s i = QIdle -> window s <> Some i ->
  (ph' = PGone -> ~ In i (waiting es)) ->
  LiveInv (app_ev e es) (mkQ (q_state s) (q_lock s) (q_list s) h' (q_pc s) (pset (q_phase s) i ph')).
Proof.
  intros HL He E Hw Hg. split.
  - intros n. unfold members, window in *. rewrite He. cbn [q_lock q_pc q_phase]. intros Hn.
    destruct (Nat.eq_dec n i) as [->|Hni]; [rewrite pset_same|rewrite pset_other by exact Hni; exact (proj1 HL n Hn)].
    intros K. apply (Hg K). destruct (match q_lock s with Some k => half (q_pc s k) | None => None end) as [m|]; [|exact Hn].
    destruct Hn as [->|Hn]; [congruence|exact Hn].
  - intros n Hn. change (window s = Some n) in Hn. cbn [q_pc q_phase]. rewrite pset_other by congruence. exact (proj2 HL n Hn).
Qed.

Definition GoneInv (es : list qevent) (s : qsys) : Prop := forall n, released n es <-> q_phase s n = PGone.

Lemma released_calm e es n : (forall i, e <> Some (EFreed i)) -> (forall i, e <> Some (ETimeout i)) ->
  (released n (app_ev e es) <-> released n es).
Proof.
  intros H1 H2. destruct e as [x|]; [|tauto]. unfold released. simpl. specialize (H1 n). specialize (H2 n). split; [|tauto].
  intros [[?|?]|[?|?]]; subst; auto; congruence.
Qed.

Lemma released_freed es n m : released n (EFreed m :: es) <-> n = m \/ released n es.
Proof.
  unfold released. simpl. split.
  - intros [[?|?]|[?|?]]; auto; try discriminate. left. congruence.
  - intros [->|[?|?]]; auto.
Qed.
Lemma released_timeout es n m : released n (ETimeout m :: es) <-> n = m \/ released n es.
Proof.
  unfold released. simpl. split.
  - intros [[?|?]|[?|?]]; auto; try discriminate. left. congruence.
  - intros [->|[?|?]]; auto.
Qed.

Lemma gone_freed es s i ph' : GoneInv es s -> (forall j, j <> i -> ph' j = q_phase s j) -> ph' i = PGone ->
  forall n, (n = i \/ released n es) <-> ph' n = PGone.
Proof.
  intros HG Hp Hi n. destruct (Nat.eq_dec n i) as [->|Hni]; [tauto|]. rewrite Hp by exact Hni. rewrite <- (HG n). intuition.
Qed.

Lemma gone_step debug es s i spur s' e :
  QInv es s -> GoneInv es s -> qstep debug s i spur = Some (s', e) -> GoneInv (app_ev e es) s'.
Proof.
  intros HI HG Hs. pose proof (I_node _ _ HI i) as Hi. unfold qstep, failed, undefined in Hs.
  destruct (q_pc s i) eqn:E; [discriminate|..].
  all: repeat match type of Hs with
    | context [if ?b then _ else _] => destruct b eqn:?
    | context [match q_lock ?b with Some _ => _ | None => _ end] => destruct (q_lock b) eqn:?
    | context [match l_tail ?b with Some _ => _ | None => _ end] => destruct (l_tail b) eqn:?
    | context [let '(_, _) := ?b in _] => let E := fresh "E" in destruct b as [[? ?] ?] eqn:E || destruct b as [? ?] eqn:E
    end; try discriminate.
  all: injection Hs as <- <-.
  all: intros m; cbn [q_phase with_pc with_mem with_phase with_lock with_state].
  all: try solve [rewrite released_calm by discriminate; apply HG].
  - rewrite released_calm by discriminate. rewrite (HG m).
    destruct (Nat.eq_dec m i) as [->|Hni]; [rewrite pset_same|rewrite pset_other by exact Hni; tauto].
    destruct (q_phase s i) eqn:Ep; simpl; destruct r; simpl; try tauto; try (split; discriminate).
    all: exfalso; apply (own_not_gone _ _ _ Hi).
  - cbn [app_ev]. rewrite released_freed. apply (gone_freed es s); auto; [intros; now apply pset_other|apply pset_same].
Qed.

Lemma winv_stale G es s i p' : QInv es s -> WInv es s -> stale G es s i p' -> WInv es (with_pc s i p').
Proof.
  intros HI HW H. change es with (app_ev None es). unfold with_pc. destruct (stale_half _ _ _ _ _ H) as [H1 H2]. apply (winv_local es s); auto.
  left. split; [reflexivity|apply (stale_holds _ _ _ _ _ H)].
Qed.

Lemma live_stale G es s i p' : QInv es s -> LiveInv es s -> stale G es s i p' -> LiveInv es (with_pc s i p').
Proof.
  intros HI HL H. change es with (app_ev None es). unfold with_pc. destruct (stale_half _ _ _ _ _ H) as [H1 H2]. apply (live_local es s); auto.
  - left. split; [reflexivity|apply (stale_holds _ _ _ _ _ H)].
  - intros K. pose proof (proj2 HL i K) as Hu. stales H; rewrite E in Hu; cbn [unpeeked] in Hu; try contradiction; exact Hu.
Qed.

Theorem qrun_safe {G} debug es s : lrun G debug es s -> undisturbed es -> timeouts_unqueued es ->
  no_ub es /\ QInv es s /\ WInv es s /\ LiveInv es s /\ GoneInv es s.
Proof.
  intros Hr. induction Hr as [|es s a s' e Hr IH Hs|es s i p' Hr IH Hs]; intros Hd Ht.
  3:{ destruct (IH Hd Ht) as (Hu & HI & HW & HL & HG). split; [exact Hu|]. split; [exact (qinv_stale G es s i p' HI Hs)|].
      split; [exact (winv_stale G es s i p' HI HW Hs)|]. split; [exact (live_stale G es s i p' HI HL Hs)|exact HG]. }
  - split; [intros i []|]. split; [exact qinv_init|]. split; [|split].
    + intros n. unfold window. simpl. split; discriminate.
    + split; [intros n []|]. intros n. unfold window. simpl. discriminate.
    + intros n. unfold released. simpl. split; [tauto|discriminate].
  - assert (Hd0 : undisturbed es) by (destruct e as [[]|]; simpl in Hd; tauto).
    assert (Ht0 : timeouts_unqueued es) by (destruct e as [[]|]; simpl in Ht; tauto).
    destruct (IH Hd0 Ht0) as (Hu & HI & HW & HL & HG). clear IH.
    destruct (qrun_inv _ _ _ Hr Hu) as [_ Hgv].
    assert (Hab : forall n, q_phase s n = PAbsent -> ~ In n (members es s)).
    { intros n Hn Hin. apply (I_given _ _ HI) in Hin. destruct (proj2 Hin). auto. }
    pose proof (lrun_step G debug es s a s' e Hr Hs) as Hr'.
    assert (Hu' : (forall i, e <> Some (EUb i)) -> no_ub (app_ev e es)).
    { intros He i. destruct e as [x|]; [|apply Hu]. intros [Hx|Hx]; [subst; eapply He; reflexivity|exact (Hu i Hx)]. }
    enough (Hmain : (forall i, e <> Some (EUb i)) /\ WInv (app_ev e es) s' /\ LiveInv (app_ev e es) s' /\ GoneInv (app_ev e es) s').
    { destruct Hmain as (M1 & M2 & M3 & M4). split; [auto|]. split; [|auto]. apply (qrun_inv _ _ _ Hr'). auto. }
    destruct a as [i|i w|i w|i|i|i|i|i|i spur]; cbn [qstep_sys] in Hs.
    9:{ destruct (live_step debug es s i spur s' e HI HW HL Hab Hs) as [He HL'].
        { intros ->. simpl in Hd. tauto. }
        split.
        - intros j Hj. subst e. assert (j = i); [|congruence].
          clear - Hs. unfold qstep, failed, undefined in Hs. destruct (q_pc s i); try discriminate;
          repeat match type of Hs with
          | context [if ?b then _ else _] => destruct b
          | context [match ?o with Some _ => _ | None => _ end] => destruct o
          | context [let '(_, _) := ?b in _] => destruct b as [[? ?] ?] || destruct b as [? ?]
          end; congruence.
        - split; [exact (winv_step debug es s i spur s' e HI HW Hs He)|]. split; [exact HL'|]. exact (gone_step debug es s i spur s' e HI HG Hs). }
    all: destruct (idle s i) eqn:E; [apply idle_pc in E|discriminate].
    all: pose proof (I_node _ _ HI i) as Hi; rewrite E in Hi; cbn [node_ok] in Hi.
    all: pose proof (proj2 HL i) as Hun; rewrite E in Hun; cbn [unpeeked] in Hun.
    1-3,6-8: destruct (q_phase s i) eqn:Ep; try discriminate.
    all: injection Hs as <- <-; (split; [discriminate|]).
    all: try match type of Ht with timeouts_unqueued (app_ev (Some (ETimeout _)) _) => destruct Ht as [[Ht1 Ht2] _] end.
    all: split; [unfold with_phase, with_mem, with_pc; cbn [q_state q_lock q_list q_heap q_pc q_phase];
                 first [apply winv_call; auto; fail|apply winv_phase; auto]|].
    all: split; [first
      [ apply live_call; [exact HL|reflexivity|exact E|reflexivity|reflexivity|];
        intros K; pose proof (Hun K); cbn [unpeeked]; first [discriminate|assumption|congruence]
      | unfold with_phase, with_mem; cbn [q_state q_lock q_list q_heap q_pc q_phase];
        apply live_phase; [exact HL|reflexivity|exact E|intros K; first [specialize (Hun K); congruence|apply HW in K; congruence]|];
        intros K; first [discriminate|exact Ht1|exact (proj2 Hi)|exact Hi] ]|].
    all: intros n; cbn [q_phase with_pc with_phase with_mem].
    all: try solve [rewrite released_calm by discriminate; apply HG].
    all: try (cbn [app_ev]; rewrite released_freed; apply (gone_freed es s); auto; [intros; now apply pset_other|apply pset_same]).
    all: try (cbn [app_ev]; rewrite released_timeout; apply (gone_freed es s); auto; [intros; now apply pset_other|apply pset_same]).
    rewrite released_calm by discriminate. rewrite (HG n).
    destruct (Nat.eq_dec n i) as [->|Hni]; [rewrite pset_same, Ep; split; discriminate|rewrite pset_other by exact Hni; tauto].
Qed.

(** A released waiter is not reachable from the queue. *)
Theorem released_unreachable {G} debug es s n : lrun G debug es s -> undisturbed es -> timeouts_unqueued es ->
  released n es -> ~ points_to s n.
Proof.
  intros Hr Hd Ht Hn Hp. destruct (qrun_safe _ _ _ Hr Hd Ht) as (_ & HI & _ & HL & HG).
  apply (proj1 HL n); [exact (pointed_member _ _ _ HI Hp)|]. now apply HG.
Qed.
