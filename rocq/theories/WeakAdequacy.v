(** Every interleaving of [CoreModel] is an execution of [WeakModel]: the one in which every load returns the
    newest value. *)
From Coq Require Import List Bool Arith NArith Lia.
From Verif Require Import Word QueueSpec CoreModel CoreArith RingSpec HistoryFacts WeakModel WeakSpec WeakInv WeakFacts History.
Import ListNotations.

(** The newest word of a modification order. *)
Definition top (l : list msg) : option N := option_map m_word (nth_error l (newest l)).

(** [v] points at values that exist. *)
Definition inb (hs ts : list msg) (ss : N -> list msg) (v : view) : Prop :=
  v_head v <= newest hs /\ v_tail v <= newest ts /\ forall i, v_state v i <= newest (ss i).

Lemma top_snoc l m : top (l ++ [m]) = Some (m_word m).
Proof.
  unfold top, newest. rewrite app_length. cbn [length]. replace (Nat.pred (length l + 1)) with (length l) by lia.
  rewrite nth_error_app2 by lia. now rewrite Nat.sub_diag.
Qed.
Lemma newest_snoc l (m : msg) : newest (l ++ [m]) = length l.
Proof. unfold newest. rewrite app_length. cbn [length]. lia. Qed.
Lemma newest_le l (m : msg) : newest l <= newest (l ++ [m]).
Proof. rewrite newest_snoc. unfold newest. lia. Qed.
Lemma top_read l w : top l = Some w -> exists m, nth_error l (newest l) = Some m /\ m_word m = w.
Proof. unfold top. destruct (nth_error l (newest l)) as [m|]; cbn; [|discriminate]. intros [= <-]. eauto. Qed.
Lemma top_in l w m : top l = Some w -> nth_error l (newest l) = Some m -> In m l.
Proof. intros _ H. now apply nth_error_In in H. Qed.

Lemma inb_join hs ts ss a b : inb hs ts ss a -> inb hs ts ss b -> inb hs ts ss (join a b).
Proof.
  intros (A1 & A2 & A3) (B1 & B2 & B3). repeat split; cbn; try lia. intros i. specialize (A3 i). specialize (B3 i). lia.
Qed.
Lemma inb_acquire hs ts ss b v m : inb hs ts ss v -> inb hs ts ss m -> inb hs ts ss (acquire b v m).
Proof. intros H1 H2. destruct b; [now apply inb_join|exact H1]. Qed.
Lemma inb_event {T} hs ts ss v (e : option (event T)) n : inb hs ts ss v -> inb hs ts ss (with_event v e n).
Proof. intros H. destruct e; exact H. Qed.
Lemma inb0 hs ts ss : inb hs ts ss view0.
Proof. repeat split; cbn; intros; lia. Qed.
Lemma inb_tail hs ts ss v k : inb hs ts ss v -> k <= newest ts -> inb hs ts ss (saw_tailw v k).
Proof. intros (A & B & C) H. now repeat split. Qed.
Lemma inb_head hs ts ss v k : inb hs ts ss v -> k <= newest hs -> inb hs ts ss (saw_head v k).
Proof. intros (A & B & C) H. now repeat split. Qed.
Lemma inb_state hs ts ss v i k : inb hs ts ss v -> k <= newest (ss i) -> inb hs ts ss (saw_state v i k).
Proof.
  intros (A & B & C) H. repeat split; auto. intros j. cbn. destruct (N.eqb_spec j i) as [->|]; auto.
Qed.
Lemma inb_value hs ts ss v i k : inb hs ts ss v -> inb hs ts ss (saw_value v i k).
Proof. auto. Qed.
Lemma inb_grow_tail hs ts ss v m : inb hs ts ss v -> inb hs (ts ++ [m]) ss v.
Proof. intros (A & B & C). repeat split; auto. pose proof (newest_le ts m). lia. Qed.
Lemma inb_grow_head hs ts ss v m : inb hs ts ss v -> inb (hs ++ [m]) ts ss v.
Proof. intros (A & B & C). repeat split; auto. pose proof (newest_le hs m). lia. Qed.
Lemma inb_grow_state hs ts ss v m i : inb hs ts ss v -> inb hs ts (fun j => if (j =? i)%N then ss i ++ [m] else ss j) v.
Proof.
  intros (A & B & C). repeat split; auto. intros j. destruct (N.eqb_spec j i) as [->|]; auto.
  pose proof (newest_le (ss i) m). specialize (C i). lia.
Qed.

Section Fit.
  Context {T : Type}.
  Variables (W : N) (cap : nat) (pol : policy T) (o : orders).
  Notation P := (core_new W (N.of_nat cap)).

  (** The newest entries are the values of the memory, and nobody has seen anything newer. *)
  Record fit (c : core T) (hs ts : list msg) (ss : N -> list msg) (vs : agent -> view) : Prop := {
    F_head : top hs = Some (c_head c);
    F_tail : top ts = Some (c_tail c);
    F_state : forall i, top (ss i) = Some (s_state (c_slots c i));
    F_views : forall j, inb hs ts ss (vs j);
    F_heads : forall m, In m hs -> inb hs ts ss (m_view m);
    F_tails : forall m, In m ts -> inb hs ts ss (m_view m);
    F_states : forall i m, In m (ss i) -> inb hs ts ss (m_view m) }.
  Definition fits (s : wstate (T := T)) : Prop := fit (w_core s) (w_heads s) (w_tails s) (w_states s) (w_views s).

  Lemma fit_same c hs ts ss vs c' i v : fit c hs ts ss vs -> c_head c' = c_head c -> c_tail c' = c_tail c ->
    (forall j, s_state (c_slots c' j) = s_state (c_slots c j)) -> inb hs ts ss v -> fit c' hs ts ss (updv vs i v).
  Proof.
    intros [] Eh Et Es Hv. constructor; auto.
    - congruence.
    - congruence.
    - intros j. rewrite Es. auto.
    - intros j. unfold updv. destruct (Nat.eqb j i); auto.
  Qed.
  Lemma last_in hs ts ss l w : (forall m, In m l -> inb hs ts ss (m_view m)) -> top l = Some w -> inb hs ts ss (last_view l).
  Proof.
    intros H Ht. unfold last_view. destruct (nth_error l (newest l)) as [m|] eqn:E; [|apply inb0].
    apply H. now apply nth_error_In in E.
  Qed.
  Lemma in_released hs ts ss b v m : inb hs ts ss v -> inb hs ts ss m -> inb hs ts ss (released_view b v m).
  Proof. intros H1 H2. destruct b; [now apply inb_join|exact H2]. Qed.

  Lemma fit_tail c hs ts ss vs c' i v e n : fit c hs ts ss vs -> c_head c' = c_head c ->
    (forall j, s_state (c_slots c' j) = s_state (c_slots c j)) -> inb hs ts ss v ->
    let v1 := with_event (T := T) (saw_tailw (acquire (o_rmw o) v (last_view ts)) (length ts)) e n in
    fit c' hs (ts ++ [mkM (c_tail c') (released_view (o_rmw o) v1 (last_view ts))]) ss (updv vs i v1).
  Proof.
    intros [] Eh Es Hv v1. set (m := mkM _ _).
    assert (Hl : inb hs (ts ++ [m]) ss (last_view ts)) by (apply inb_grow_tail; eapply last_in; eauto).
    assert (H1 : inb hs (ts ++ [m]) ss v1).
    { apply inb_event, inb_tail; [|rewrite newest_snoc; lia]. apply inb_acquire; [now apply inb_grow_tail|exact Hl]. }
    assert (Hm : inb hs (ts ++ [m]) ss (m_view m)) by (now apply in_released).
    constructor; auto.
    - congruence.
    - now rewrite top_snoc.
    - intros j. rewrite Es. auto.
    - intros j. unfold updv. destruct (Nat.eqb j i); [exact H1|now apply inb_grow_tail].
    - intros x Hx. now apply inb_grow_tail, F_heads0.
    - intros x Hx. apply in_app_or in Hx. destruct Hx as [Hx|[<-|[]]]; [now apply inb_grow_tail, F_tails0|exact Hm].
    - intros j x Hx. apply inb_grow_tail. eauto.
  Qed.
  Lemma fit_head c hs ts ss vs c' i v e n : fit c hs ts ss vs -> c_tail c' = c_tail c ->
    (forall j, s_state (c_slots c' j) = s_state (c_slots c j)) -> inb hs ts ss v ->
    let v1 := with_event (T := T) (saw_head (acquire (o_rmw o) v (last_view hs)) (length hs)) e n in
    fit c' (hs ++ [mkM (c_head c') (released_view (o_rmw o) v1 (last_view hs))]) ts ss (updv vs i v1).
  Proof.
    intros [] Eh Es Hv v1. set (m := mkM _ _).
    assert (Hl : inb (hs ++ [m]) ts ss (last_view hs)) by (apply inb_grow_head; eapply last_in; eauto).
    assert (H1 : inb (hs ++ [m]) ts ss v1).
    { apply inb_event, inb_head; [|rewrite newest_snoc; lia]. apply inb_acquire; [now apply inb_grow_head|exact Hl]. }
    assert (Hm : inb (hs ++ [m]) ts ss (m_view m)) by (now apply in_released).
    constructor; auto.
    - now rewrite top_snoc.
    - congruence.
    - intros j. rewrite Es. auto.
    - intros j. unfold updv. destruct (Nat.eqb j i); [exact H1|now apply inb_grow_head].
    - intros x Hx. apply in_app_or in Hx. destruct Hx as [Hx|[<-|[]]]; [now apply inb_grow_head, F_heads0|exact Hm].
    - intros x Hx. now apply inb_grow_head, F_tails0.
    - intros j x Hx. apply inb_grow_head. eauto.
  Qed.
  Lemma fit_slot c hs ts ss vs r i n : fit c hs ts ss vs ->
    let l := ss (r_idx r) in
    let v1 := saw_event (saw_state (vs i) (r_idx r) (length l)) n in
    fit (ref_drop c r) hs ts
      (fun j => if (j =? r_idx r)%N then l ++ [mkM (r_new r) (if o_drop o then v1 else saw_state view0 (r_idx r) (length l))] else ss j)
      (updv vs i v1).
  Proof.
    intros [] l v1. set (m := mkM _ _). set (ss' := fun j => _).
    assert (Hg : forall v, inb hs ts ss v -> inb hs ts ss' v) by (intros v Hv; now apply inb_grow_state).
    assert (Hn : newest (ss' (r_idx r)) = length l) by (unfold ss'; rewrite N.eqb_refl; apply newest_snoc).
    assert (H1 : inb hs ts ss' v1) by (apply (inb_state hs ts ss'); [now apply Hg|lia]).
    assert (Hm : inb hs ts ss' (m_view m)).
    { unfold m. cbn [m_view]. destruct (o_drop o); [exact H1|]. apply inb_state; [apply inb0|lia]. }
    constructor; auto.
    - intros j. unfold ss', ref_drop, set_state, set_slot. cbn. destruct (N.eqb_spec j (r_idx r)) as [->|]; [now rewrite top_snoc|auto].
    - intros j. unfold updv. destruct (Nat.eqb j i); auto.
    - intros j x Hx. unfold ss' in Hx. destruct (N.eqb_spec j (r_idx r)) as [->|]; [|eauto].
      apply in_app_or in Hx. destruct Hx as [Hx|[<-|[]]]; [eauto|exact Hm].
  Qed.
  Lemma fit_init : fits (weak_init P).
  Proof.
    constructor; try reflexivity; cbn; intros; try apply inb0.
    all: match goal with H : _ \/ False |- _ => destruct H as [<-|[]] end; apply inb0.
  Qed.

  (** ** The simulation *)
  Definition like (s : state (T := T)) (ws : wstate (T := T)) : Prop :=
    w_core ws = st_core s /\ (forall j, w_pcs ws j = st_agents s j) /\ fits ws.
  (** A step of the weak model that does what [e] and [s'] say, or is a race. *)
  Definition matched (s' : state (T := T)) (e : option (event T)) (r : option (wstate (T := T) * option (event T))) : Prop :=
    exists ws' e', r = Some (ws', e') /\ ((e' = e /\ like s' ws') \/ exists i, e' = Some (UB i)).

  Lemma upd_like (f g : agent -> pc) i p : (forall j, f j = g j) -> forall j, upd f i p j = upd g i p j.
  Proof. intros H j. unfold upd. destruct (Nat.eqb j i); auto. Qed.
  Lemma upd_self (f g : agent -> pc) i p : (forall j, f j = g j) -> p = g i -> forall j, upd f i p j = g j.
  Proof. intros H -> j. unfold upd. destruct (Nat.eqb_spec j i) as [->|]; auto. Qed.
  Lemma readable_top l seen w : top l = Some w -> seen <= newest l -> exists m, readable l seen (newest l) = Some m /\ m_word m = w /\ In m l.
  Proof.
    intros Ht Hs. destruct (top_read _ _ Ht) as (m & Hm & E). exists m. unfold readable.
    rewrite (proj2 (Nat.leb_le _ _) Hs). split; [exact Hm|]. split; [exact E|]. now apply nth_error_In in Hm.
  Qed.

  Lemma read_tail s ws i p acq c' p' e : like s ws -> st_agents s i = p ->
    cstep P pol (set_tail (st_core s) (c_tail (st_core s))) i p true = (c', p', e) ->
    matched (mkS (st_core s) (upd (st_agents s) i p')) e (load_tail P pol ws i p (newest (w_tails ws)) acq).
  Proof.
    intros (Hc & Hp & HF) E Hs. destruct (F_views _ _ _ _ _ HF i) as (_ & Hv & _).
    destruct (readable_top _ _ _ (F_tail _ _ _ _ _ HF) Hv) as (m & Hm & Hw & Hin).
    unfold load_tail. rewrite Hm, Hw, Hc, Hs. eexists _, _. split; [reflexivity|]. left. split; [reflexivity|].
    split; [exact Hc|]. split; [now apply upd_like|].
    apply (fit_same (w_core ws)); auto. cbn [local w_core w_heads w_tails w_states w_views]. apply inb_event, inb_acquire; [apply inb_tail; [apply (F_views _ _ _ _ _ HF)|apply Nat.le_refl]|exact (F_tails _ _ _ _ _ HF m Hin)].
  Qed.
  Lemma read_head s ws i p acq c' p' e : like s ws -> st_agents s i = p ->
    cstep P pol (set_head (st_core s) (c_head (st_core s))) i p true = (c', p', e) ->
    matched (mkS (st_core s) (upd (st_agents s) i p')) e (load_head P pol ws i p (newest (w_heads ws)) acq).
  Proof.
    intros (Hc & Hp & HF) E Hs. destruct (F_views _ _ _ _ _ HF i) as (Hv & _ & _).
    destruct (readable_top _ _ _ (F_head _ _ _ _ _ HF) Hv) as (m & Hm & Hw & Hin).
    unfold load_head. rewrite Hm, Hw, Hc, Hs. eexists _, _. split; [reflexivity|]. left. split; [reflexivity|].
    split; [exact Hc|]. split; [now apply upd_like|].
    apply (fit_same (w_core ws)); auto. cbn [local w_core w_heads w_tails w_states w_views]. apply inb_event, inb_acquire; [apply inb_head; [apply (F_views _ _ _ _ _ HF)|apply Nat.le_refl]|exact (F_heads _ _ _ _ _ HF m Hin)].
  Qed.
  Lemma read_state s ws i p w acq c' p' e : like s ws -> st_agents s i = p -> let idx := fst (idx_gen P w) in
    cstep P pol (set_state (st_core s) idx (s_state (c_slots (st_core s) idx))) i p true = (c', p', e) ->
    matched (mkS (st_core s) (upd (st_agents s) i p')) e (load_state P pol ws i p w (newest (w_states ws idx)) acq).
  Proof.
    intros (Hc & Hp & HF) E idx Hs. destruct (F_views _ _ _ _ _ HF i) as (_ & _ & Hv).
    destruct (readable_top _ _ _ (F_state _ _ _ _ _ HF idx) (Hv idx)) as (m & Hm & Hw & Hin).
    unfold load_state. fold idx. rewrite Hm, Hw, Hc, Hs. eexists _, _. split; [reflexivity|]. left. split; [reflexivity|].
    split; [exact Hc|]. split; [now apply upd_like|].
    apply (fit_same (w_core ws)); auto. cbn [local w_core w_heads w_tails w_states w_views]. apply inb_event, inb_acquire; [apply inb_state; [apply (F_views _ _ _ _ _ HF)|apply Nat.le_refl]|exact (F_states _ _ _ _ _ HF idx m Hin)].
  Qed.
  (** What a load of a word finds depends on that word only. *)
  Lemma same_step c c2 i p spur : c_head c2 = c_head c -> c_tail c2 = c_tail c -> c_len c2 = c_len c ->
    (forall j, s_state (c_slots c2 j) = s_state (c_slots c j)) ->
    match p with
    | PStart | PReload | PState _ | QStart | QReload _ | QState _ _ | LTail | LHead _ | LCheck _ _ => True
    | PCas t => (c_tail c =? t)%N && negb spur = false
    | QCas h _ => (c_head c =? h)%N && negb spur = false
    | _ => False
    end ->
    exists p' e, cstep P pol c i p spur = (c, p', e) /\ cstep P pol c2 i p true = (c2, p', e).
  Proof.
    intros Eh Et El Es Hp. destruct p; try (destruct Hp; fail); cbn [cstep].
    all: try rewrite Hp. all: rewrite ?andb_false_r, ?Eh, ?Et, ?El.
    all: try (destruct (push_top P i (c_tail c)) as [p' e] eqn:E; eauto; fail).
    all: try (destruct (idx_gen P _) as [idx gen]; rewrite ?Es).
    all: repeat match goal with |- context [if ?b then _ else _] => destruct b end; eauto.
    destruct (push_top P i (c_tail c)) as [p' e]; eauto.
  Qed.

  Lemma raced s' e ws i : matched s' e (Some (race ws i)).
  Proof. eexists _, _. split; [reflexivity|]. right. now exists i. Qed.
  Lemma sim s a s' e ws : step P pol s a = Some (s', e) -> like s ws -> exists a', matched s' e (weak_step P pol o ws a').
  Proof.
    intros Hs HL. pose proof HL as (Hc & Hp & HF). destruct a as [i op|i spur|i v|i|i|i pan]; cbn [step] in Hs.
    - destruct (st_agents s i) eqn:E; try discriminate. injection Hs as <- <-. exists (XInvoke i op).
      cbn [weak_step]. rewrite Hp, E. eexists _, _. split; [reflexivity|]. left. split; [reflexivity|].
      split; [exact Hc|]. split; [now apply upd_like|]. apply (fit_same (w_core ws)); auto. apply HF.
    - destruct (stepping (st_agents s i)) eqn:Est; [|discriminate].
      destruct (cstep P pol (st_core s) i (st_agents s i) spur) as [[c' p'] e0] eqn:Ec. injection Hs as <- <-.
      assert (Hread : forall p, st_agents s i = p ->
        match p with
        | PStart | PReload | PState _ | QStart | QReload _ | QState _ _ | LTail | LHead _ | LCheck _ _ => True
        | PCas t => (c_tail (st_core s) =? t)%N && negb spur = false
        | QCas h _ => (c_head (st_core s) =? h)%N && negb spur = false
        | _ => False
        end -> c' = st_core s /\
          (exists c1, cstep P pol (set_tail (st_core s) (c_tail (st_core s))) i p true = (c1, p', e0)) /\
          (exists c1, cstep P pol (set_head (st_core s) (c_head (st_core s))) i p true = (c1, p', e0)) /\
          forall idx, exists c1, cstep P pol (set_state (st_core s) idx (s_state (c_slots (st_core s) idx))) i p true = (c1, p', e0)).
      { intros p Ep Hok. rewrite Ep in Ec.
        assert (G : forall c2, c_head c2 = c_head (st_core s) -> c_tail c2 = c_tail (st_core s) -> c_len c2 = c_len (st_core s) ->
          (forall j, s_state (c_slots c2 j) = s_state (c_slots (st_core s) j)) -> c' = st_core s /\ exists c1, cstep P pol c2 i p true = (c1, p', e0)).
        { intros c2 H1 H2 H3 H4. destruct (same_step _ c2 i p spur H1 H2 H3 H4 Hok) as (p1 & e1 & G1 & G2).
          rewrite Ec in G1. injection G1 as -> -> ->. eauto. }
        split; [exact (proj1 (G _ eq_refl eq_refl eq_refl (fun _ => eq_refl)))|].
        split; [now apply G|]. split; [now apply G|]. intros idx. apply G; auto.
        intros j. cbn. destruct (N.eqb_spec j idx) as [->|]; reflexivity. }
      destruct (st_agents s i) eqn:Ep; try discriminate Est.
      all: try (destruct (Hread _ eq_refl I) as (-> & [c1 H1] & _ & _); exists (XStep i (newest (w_tails ws)) spur);
                cbn [weak_step]; unfold wstep; rewrite Hp, Ep; exact (read_tail s ws i _ _ _ _ _ HL Ep H1)).
      all: try (destruct (Hread _ eq_refl I) as (-> & _ & [c1 H1] & _); exists (XStep i (newest (w_heads ws)) spur);
                cbn [weak_step]; unfold wstep; rewrite Hp, Ep; exact (read_head s ws i _ _ _ _ _ HL Ep H1)).
      all: try (destruct (Hread _ eq_refl I) as (-> & _ & _ & H1);
                match type of Ep with _ = PState ?w => exists (XStep i (newest (w_states ws (fst (idx_gen P w)))) spur); destruct (H1 (fst (idx_gen P w))) as [c1 H2]
                                    | _ = QState ?w _ => exists (XStep i (newest (w_states ws (fst (idx_gen P w)))) spur); destruct (H1 (fst (idx_gen P w))) as [c1 H2] end;
                cbn [weak_step]; unfold wstep; rewrite Hp, Ep; exact (read_state s ws i _ _ _ _ _ _ HL Ep H2)).
      + destruct ((c_tail (st_core s) =? tail)%N && negb spur) eqn:Eb.
        * exists (XStep i 0 spur). cbn [weak_step]. unfold wstep. rewrite Hp, Ep, Hc, Eb.
          cbn [cstep] in *. destruct (idx_gen P tail) as [idx gen]. rewrite Eb in Ec. apply andb_true_iff in Eb. destruct Eb as [Eb _]. rewrite Eb.
          cbn [negb andb]. injection Ec as <- <- <-.
          eexists _, _. split; [reflexivity|]. left. split; [reflexivity|]. split; [reflexivity|]. split; [now apply upd_like|].
          apply (fit_tail (w_core ws)); auto; rewrite ?Hc; auto. apply (F_views _ _ _ _ _ HF).
        * destruct (Hread _ eq_refl Eb) as (-> & [c1 H1] & _ & _). exists (XStep i (newest (w_tails ws)) spur).
          cbn [weak_step]. unfold wstep. rewrite Hp, Ep, Hc, Eb. exact (read_tail s ws i _ _ _ _ _ HL Ep H1).
      + exists (XStep i 0 spur). cbn [weak_step]. unfold wstep, access. rewrite Hp, Ep, Hc.
        destruct (Nat.eqb _ _); [|now apply raced].
        change (cstep P pol (st_core s) i (PInit tail) spur) with (cstep P pol (st_core s) i (PInit tail) false) in Ec. rewrite Ec.
        eexists _, _. split; [reflexivity|]. left. split; [reflexivity|]. split; [reflexivity|]. split; [now apply upd_like|].
        assert (Hw : c_head c' = c_head (st_core s) /\ c_tail c' = c_tail (st_core s) /\ forall j, s_state (c_slots c' j) = s_state (c_slots (st_core s) j)).
        { cbn [cstep] in Ec. destruct (idx_gen P tail) as [idx gen].
          assert (Hv : forall v, c_head (set_value (st_core s) idx v) = c_head (st_core s) /\ c_tail (set_value (st_core s) idx v) = c_tail (st_core s) /\
            forall j, s_state (c_slots (set_value (st_core s) idx v) j) = s_state (c_slots (st_core s) j)).
          { intros v. repeat split. intros j. cbn. destruct (N.eqb_spec j idx) as [->|]; reflexivity. }
          destruct (gen =? 0)%N; [injection Ec as <- _ _; apply Hv|].
          destruct (s_value _); injection Ec as <- _ _; [apply Hv|auto]. }
        destruct Hw as (H1 & H2 & H3). unfold local. cbn [w_core w_heads w_tails w_states w_views].
        apply (fit_same c'); auto.
        * apply (fit_same (w_core ws)); auto; rewrite ?Hc; auto. apply inb_value, (F_views _ _ _ _ _ HF).
        * rewrite WeakInv.updv_same. apply inb_event, inb_value, (F_views _ _ _ _ _ HF).
      + exists (XStep i 0 spur). cbn [weak_step]. unfold wstep. rewrite Hp, Ep, Hc.
        change (cstep P pol (st_core s) i (PHead tail) spur) with (cstep P pol (st_core s) i (PHead tail) false) in Ec. rewrite Ec.
        assert (c' = st_core s) as -> by (cbn [cstep] in Ec; destruct (_ =? tail)%N; now injection Ec).
        eexists _, _. split; [reflexivity|]. left. split; [reflexivity|]. split; [reflexivity|]. split; [now apply upd_like|].
        apply (fit_head (w_core ws)); auto; rewrite ?Hc; auto. apply (F_views _ _ _ _ _ HF).
      + destruct ((c_head (st_core s) =? head)%N && negb spur) eqn:Eb.
        * exists (XStep i 0 spur). cbn [weak_step]. unfold wstep, access. rewrite Hp, Ep, Hc, Eb. apply andb_true_iff in Eb. destruct Eb as [Eb Es].
          destruct (Nat.eqb _ _); [|now apply raced].
          assert (Hw : cstep P pol (st_core s) i (QCas head b) false = (c', p', e0)).
          { rewrite <- Ec. cbn [cstep]. rewrite Es. reflexivity. }
          rewrite Hw. cbn [cstep] in Ec. destruct (idx_gen P head) as [idx gen]. rewrite Eb, Es in Ec. cbn [andb] in Ec.
          assert (Hk : c' = set_head (st_core s) (next P idx gen)) by (destruct (s_value _); now injection Ec).
          eexists _, _. split; [reflexivity|]. left. split; [reflexivity|]. split; [reflexivity|]. split; [now apply upd_like|].
          apply (fit_head (w_core ws)); auto; rewrite ?Hk, ?Hc; auto; cbn [w_core w_heads w_tails w_states w_views].
          -- rewrite <- Hc. apply (fit_same (w_core ws)); auto. apply inb_value, (F_views _ _ _ _ _ HF).
          -- rewrite WeakInv.updv_same. apply inb_value, (F_views _ _ _ _ _ HF).
        * destruct (Hread _ eq_refl Eb) as (-> & _ & [c1 H1] & _). exists (XStep i (newest (w_heads ws)) spur).
          cbn [weak_step]. unfold wstep. rewrite Hp, Ep, Hc, Eb. exact (read_head s ws i _ _ _ _ _ HL Ep H1).
      + exists (XStep i 0 spur). cbn [weak_step]. unfold wstep. rewrite Hp, Ep, Hc.
        change (cstep P pol (st_core s) i (QTail head b) spur) with (cstep P pol (st_core s) i (QTail head b) false) in Ec. rewrite Ec.
        assert (c' = st_core s) as ->.
        { cbn [cstep] in Ec. destruct (_ =? head)%N; [now injection Ec|]. destruct (done_spinning b); now injection Ec. }
        eexists _, _. split; [reflexivity|]. left. split; [reflexivity|]. split; [reflexivity|]. split; [now apply upd_like|].
        apply (fit_tail (w_core ws)); auto; rewrite ?Hc; auto. apply (F_views _ _ _ _ _ HF).
    - assert (Hw : forall r, st_agents s i = PHold r \/ st_agents s i = QHold r ->
        Some (mkS (set_value (st_core s) (r_idx r) (Some v)) (st_agents s), Some (Wrote i v)) = Some (s', e) ->
        exists a', matched s' e (weak_step P pol o ws a')).
      { clear Hs. intros r E Hs. injection Hs as <- <-. exists (XWrite i v). cbn [weak_step]. rewrite Hp, Hc.
        assert (G : matched (mkS (set_value (st_core s) (r_idx r) (Some v)) (st_agents s)) (Some (Wrote i v))
          (match access ws i (r_idx r) with
            | Some s' =>
                let e := Some (Wrote i v) in
                Some (local (mkWS (set_value (st_core s) (r_idx r) (Some v)) (w_heads s') (w_tails s') (w_states s') (w_acc s') (w_pcs s')
                                  (w_views s') (w_call s') (w_time s')) i (st_agents s i) (w_views s' i) e, e)
            | None => Some (race ws i)
            end)).
        { unfold access. destruct (Nat.eqb _ _); [|now apply raced]. cbv zeta.
          eexists _, _. split; [reflexivity|]. left. split; [reflexivity|]. split; [reflexivity|]. split; [now apply upd_self|].
          unfold local. cbn [w_core w_heads w_tails w_states w_views].
          apply (fit_same (st_core s)); auto.
          - rewrite <- Hc. apply (fit_same (w_core ws)); auto. apply inb_value, (F_views _ _ _ _ _ HF).
          - intros j. cbn. destruct (N.eqb_spec j (r_idx r)) as [->|]; reflexivity.
          - rewrite WeakInv.updv_same. apply inb_value, (F_views _ _ _ _ _ HF). }
        destruct E as [E|E]; rewrite E in *; exact G. }
      destruct (st_agents s i) eqn:E; try discriminate; [exact (Hw r (or_introl eq_refl) Hs)|exact (Hw r (or_intror eq_refl) Hs)].
    - assert (Hst : forall r x, matched (mkS (ref_drop (st_core s) r) (upd (st_agents s) i Idle)) (Some x) (Some (store_state o ws i r x))).
      { intros r x. unfold store_state. destruct (Nat.eqb _ _); [|now apply raced].
        eexists _, _. split; [reflexivity|]. left. split; [reflexivity|]. split; [now rewrite <- Hc|]. split; [now apply upd_like|].
        apply (fit_slot (w_core ws) _ _ _ _ r i (w_time ws)). exact HF. }
      exists (XDrop i). cbn [weak_step]. rewrite Hp. destruct (st_agents s i) eqn:E; try discriminate; injection Hs as <- <-; rewrite Hc; apply Hst.
    - destruct (st_agents s i) eqn:E; try discriminate. injection Hs as <- <-. exists (XPanic i). cbn [weak_step]. rewrite Hp, E.
      eexists _, _. split; [reflexivity|]. left. split; [reflexivity|]. split; [exact Hc|]. split; [now apply upd_like|].
      apply (fit_same (w_core ws)); auto. apply inb_event, (F_views _ _ _ _ _ HF).
    - destruct (st_agents s i) eqn:E; try discriminate. exists (XClose i pan). cbn [weak_step]. rewrite Hp, E, Hc.
      unfold core_close in *. destruct pan; injection Hs as <- <-; (eexists _, _; split; [reflexivity|]; left; split; [reflexivity|]).
      + split; [exact Hc|]. split; [now apply upd_self|]. apply (fit_same (w_core ws)); auto. apply inb_event, (F_views _ _ _ _ _ HF).
      + split; [reflexivity|]. split; [now apply upd_self|].
        apply (fit_tail (w_core ws)); auto; rewrite ?Hc; auto. apply (F_views _ _ _ _ _ HF).
  Qed.

  Hypothesis Hwf : wf W cap.
  Hypothesis Ho : sound_orders o.
  Lemma simulated es s : CoreModel.run P pol es s -> few_pushes W cap es -> exists ws, weak_run P pol o es ws /\ like s ws.
  Proof.
    intros Hr. induction Hr as [|es s a s' e Hr IH Hs]; intros Hf.
    - exists (weak_init P). split; [constructor|]. split; [reflexivity|]. split; [reflexivity|exact fit_init].
    - assert (Hf0 : few_pushes W cap es).
      { unfold few_pushes in *. destruct e as [e|]; [|exact Hf]. cbn [ocons count] in Hf. destruct (is_reserve e); lia. }
      destruct (IH Hf0) as (ws & Hw & HL). destruct (sim _ _ _ _ _ Hs HL) as (a' & ws' & e' & Hs' & [[-> HL']|[i ->]]).
      + exists ws'. split; [exact (weak_run_step P pol o _ _ _ _ _ Hw Hs')|exact HL'].
      + exfalso. apply (weak_no_ub W cap pol o Hwf Ho (UB i :: es) i).
        * exists ws'. exact (weak_run_step P pol o _ _ _ _ _ Hw Hs').
        * exact Hf0.
        * now left.
  Qed.
End Fit.
