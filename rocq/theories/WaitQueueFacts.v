From Coq Require Import List Bool Arith NArith Lia.
From Verif Require Import WaitCellModel WaitList WaitListSpec WaitListFacts WaitQueueModel WaitQueueSpec.
Import ListNotations.

Lemma pset_same {A} (f : nat -> A) i p : pset f i p i = p.
Proof. unfold pset. now rewrite Nat.eqb_refl. Qed.
Lemma pset_other {A} (f : nat -> A) i p j : j <> i -> pset f i p j = f j.
Proof. intros H. unfold pset. now rewrite (proj2 (Nat.eqb_neq j i) H). Qed.

(** Does an agent at [p] hold the lock? *)
Definition holds (p : qpc) : bool :=
  match p with
  | SLoad _ | SCasEmpty _ | SCasWaking _ | SNode _ | SSwap _ | SEnq _ | SUnlock _ | CLoad2 _ | CUpd _
  | TSlow _ | TLinks _ | TEmpty _ | TUnlock _ | KLoop | KLinks _ | KWake _ _ | KUnlock | DRemove | DEmpty | DUnlock => true
  | _ => false
  end.

(** The waiter half taken by an agent at [p]. *)
Definition half (p : qpc) : option nat := match p with TLinks n | KLinks n => Some n | _ => None end.

Definition window (s : qsys) : option nat := match q_lock s with Some k => half (q_pc s k) | None => None end.

(** What is in the list in memory. *)
Definition members (es : list qevent) (s : qsys) : list nat :=
  match window s with Some n => n :: waiting es | None => waiting es end.

(** Waiter not in the list whose waker field may be set. *)
Definition keeps (p : qpc) : bool :=
  match p with SSwap _ | SEnq _ | DEmpty | DUnlock | DFree => true | _ => false end.

(** State [st] of a waiter at rest in phase [ph]; [inw]: it is waiting. *)
Definition rest (ph : phase) (st : N) (inw : Prop) : Prop :=
  match ph with
  | PAbsent | PFresh => st = Q_EMPTY /\ ~ inw
  | PWoken => st = Q_WAKING /\ ~ inw
  | PWaiting => (st = Q_WAITING /\ inw) \/ ((st = Q_WAKING \/ st = Q_CLOSED) /\ ~ inw)
  | PDone => ~ inw
  | PGone => True
  end.

Definition node_ok (p : qpc) (ph : phase) (st : N) (inw : Prop) : Prop :=
  match p with
  | SCas _ | SLock _ | SLoad _ | SCasEmpty _ | SCasWaking _ | SNode _ | SSwap _ =>
      (ph = PFresh \/ ph = PWoken) /\ rest ph st inw
  | SEnq _ => (ph = PFresh \/ ph = PWoken) /\ st = Q_WAITING /\ ~ inw
  | SUnlock Wait | SRet Wait =>
      (ph = PFresh \/ ph = PWoken \/ ph = PWaiting) /\ rest PWaiting st inw
  | SUnlock Notified | SRet Notified =>
      ((ph = PFresh \/ ph = PWoken) /\ rest ph st inw) \/ (ph = PWaiting /\ st = Q_WAKING /\ ~ inw)
  | SUnlock Closed | SRet Closed =>
      ((ph = PFresh \/ ph = PWoken) /\ rest ph st inw) \/ (ph = PWaiting /\ st = Q_CLOSED /\ ~ inw)
  | CLoad _ | CLock _ | CLoad2 _ => (ph = PWaiting \/ ph = PWoken) /\ rest ph st inw
  | CUpd _ => (ph = PWaiting \/ ph = PWoken) /\ st = Q_WAITING /\ inw
  | DLoad | DLock | DRemove => ph = PWaiting /\ rest ph st inw
  | DEmpty | DUnlock => ph = PWaiting /\ ~ inw
  | DFree => ph = PWaiting /\ ~ inw
  | _ => rest ph st inw
  end.

Definition casing (p : qpc) : bool := match p with SCasEmpty _ | SCasWaking _ => true | _ => false end.
Definition carried (p : qpc) : option waker := match p with SSwap w | SEnq w => Some w | _ => None end.

Record QInv (es : list qevent) (s : qsys) : Prop := {
  I_lock : forall i, holds (q_pc s i) = true <-> q_lock s = Some i;
  I_rep : represents (q_heap s) (q_list s) (members es s);
  I_det : forall n, ~ In n (members es s) -> detached (q_heap s) n;
  I_wait : forall n, In n (waiting es) -> n_state (q_heap s n) = Q_WAITING;
  I_given : forall n, In n (members es s) -> n_waker (q_heap s n) = given n es /\ given n es <> None;
  I_none : forall n, ~ In n (members es s) -> keeps (q_pc s n) = false -> q_phase s n <> PGone -> n_waker (q_heap s n) = None;
  I_node : forall n, node_ok (q_pc s n) (q_phase s n) (n_state (q_heap s n)) (In n (waiting es));
  I_cas : forall n, casing (q_pc s n) = true -> q_state s <> Q_WAITING;
  I_mid : forall n w, carried (q_pc s n) = Some w -> n_waker (q_heap s n) = Some w
}.

Lemma qinv_init : QInv [] q_init.
Proof.
  constructor; simpl; try (intros; repeat split; try discriminate; tauto).
  apply rep_new.
Qed.

Definition app_ev (e : option qevent) (es : list qevent) : list qevent := match e with Some x => x :: es | None => es end.

(** Events that leave the list and the stored wakers alone. *)
Definition calm_ev (e : option qevent) : bool :=
  match e with Some (EEnq _ _ | EUpd _ _ | ESwap _ _ _ | ERemoved _) => false | _ => true end.

Lemma calm_waiting e es : calm_ev e = true -> waiting (app_ev e es) = waiting es.
Proof. destruct e as [[]|]; simpl; congruence. Qed.
Lemma calm_given e es n : calm_ev e = true -> given n (app_ev e es) = given n es.
Proof. destruct e as [[]|]; simpl; congruence. Qed.

Definition lock_move (s : qsys) (i : nat) (p' : qpc) (l' : option nat) : Prop :=
  (l' = q_lock s /\ holds p' = holds (q_pc s i)) \/
  (q_lock s = None /\ l' = Some i /\ holds p' = true) \/
  (q_lock s = Some i /\ l' = None /\ holds p' = false).

Lemma lock_pset s i p' l' :
  (forall j, holds (q_pc s j) = true <-> q_lock s = Some j) -> lock_move s i p' l' ->
  forall j, holds (pset (q_pc s) i p' j) = true <-> l' = Some j.
Proof.
  intros H Hc j. specialize (H j) as Hj. destruct (Nat.eq_dec j i) as [->|Hji].
  - rewrite pset_same. destruct Hc as [[-> ->]|[(_ & -> & ->)|(_ & -> & ->)]]; [exact Hj|tauto|split; discriminate].
  - rewrite pset_other by exact Hji. rewrite Hj. destruct Hc as [[-> _]|[(E & -> & _)|(E & -> & _)]]; [tauto|..].
    + rewrite E. split; [discriminate|]. intros H1. congruence.
    + rewrite E. split; [|discriminate]. intros H1. congruence.
Qed.

Lemma window_same s st' i p' ph' l' h' ls' :
  lock_move s i p' l' -> half (q_pc s i) = None -> half p' = None ->
  window (mkQ st' l' ls' h' (pset (q_pc s) i p') ph') = window s.
Proof.
  intros Hl Hh Hh'. unfold window. simpl. destruct Hl as [[-> _]|[(E & -> & _)|(E & -> & _)]].
  - destruct (q_lock s) as [k|]; [|reflexivity]. destruct (Nat.eq_dec k i) as [->|Hk']; [rewrite pset_same; congruence|now rewrite pset_other].
  - rewrite E, pset_same. exact Hh'.
  - rewrite E, Hh. reflexivity.
Qed.

Lemma casing_holds p : casing p = true -> holds p = true.
Proof. destruct p; simpl; congruence. Qed.

Lemma cas_pset (es : list qevent) s i p' st' :
  QInv es s ->
  (st' = q_state s \/ st' <> Q_WAITING \/ holds (q_pc s i) = true) ->
  (casing p' = true -> st' <> Q_WAITING) ->
  forall n, casing (pset (q_pc s) i p' n) = true -> st' <> Q_WAITING.
Proof.
  intros HI Hst Hp n. destruct (Nat.eq_dec n i) as [->|Hni]; [rewrite pset_same; exact Hp|].
  rewrite pset_other by exact Hni. intros Hc. destruct Hst as [->|[?|Hh]]; [eapply I_cas; eassumption|assumption|].
  apply (I_lock _ _ HI) in Hh. apply casing_holds, (I_lock _ _ HI) in Hc. congruence.
Qed.

(** Steps that leave the memory alone. *)
Lemma qinv_local es s i p' ph' l' st' e :
  QInv es s -> calm_ev e = true -> lock_move s i p' l' ->
  half (q_pc s i) = None -> half p' = None ->
  (forall j, j <> i -> ph' j = q_phase s j) ->
  node_ok p' (ph' i) (n_state (q_heap s i)) (In i (waiting es)) ->
  (keeps p' = true \/ ph' i = PGone \/ (keeps (q_pc s i) = false /\ q_phase s i <> PGone)) ->
  (st' = q_state s \/ st' <> Q_WAITING \/ holds (q_pc s i) = true) ->
  (casing p' = true -> st' <> Q_WAITING) ->
  carried p' = None ->
  QInv (app_ev e es) (mkQ st' l' (q_list s) (q_heap s) (pset (q_pc s) i p') ph').
Proof.
  intros HI He Hl Hh Hh' Hp Hn Hk Hst Hcas Hcar. pose proof HI as [H1 H2 H3 H4 H5 H6 H7 H8 H9].
  assert (Hw : waiting (app_ev e es) = waiting es) by now apply calm_waiting.
  assert (Hm : members (app_ev e es) (mkQ st' l' (q_list s) (q_heap s) (pset (q_pc s) i p') ph') = members es s).
  { unfold members. rewrite Hw, window_same by assumption. reflexivity. }
  constructor; rewrite ?Hm, ?Hw; simpl.
  - now apply lock_pset.
  - exact H2.
  - exact H3.
  - exact H4.
  - intros n. rewrite calm_given by exact He. auto.
  - intros n Hn1. destruct (Nat.eq_dec n i) as [->|Hni].
    + rewrite !pset_same. intros K1 K2. apply H6; [exact Hn1|..]; destruct Hk as [?|[?|[? ?]]]; congruence.
    + rewrite !pset_other, Hp by exact Hni. now apply H6.
  - intros n. destruct (Nat.eq_dec n i) as [->|Hni]; [now rewrite !pset_same|rewrite !pset_other, Hp by exact Hni; apply H7].
  - eapply cas_pset; eassumption.
  - intros n w. destruct (Nat.eq_dec n i) as [->|Hni]; [rewrite pset_same; congruence|rewrite pset_other by exact Hni; apply H9].
Qed.

Lemma node_ok_iff p ph st (A B : Prop) : (A <-> B) -> node_ok p ph st A -> node_ok p ph st B.
Proof.
  intros H. assert (R : forall ph, rest ph st A <-> rest ph st B) by (intros []; simpl; tauto).
  destruct p as [| | | | | | | | |[]|[]| | | | | | | | | | | | | | | | | | | | | | | | |]; cbn [node_ok]; rewrite ?R; tauto.
Qed.

Ltac at_ i n := destruct (Nat.eq_dec n i) as [->|?]; [rewrite ?pset_same in *|rewrite ?pset_other in * by assumption].

Lemma holder_members es s i : QInv es s -> holds (q_pc s i) = true -> half (q_pc s i) = None -> members es s = waiting es.
Proof. intros HI Hh Hf. apply (I_lock _ _ HI) in Hh. unfold members, window. rewrite Hh, Hf. reflexivity. Qed.

Lemma rep_nodup h l q : represents h l q -> NoDup q.
Proof. intros [H _]. exact H. Qed.

(** Storing the waker in the waiter. *)
Lemma qinv_node es s i w :
  QInv es s -> q_pc s i = SNode w ->
  QInv es (mkQ (q_state s) (q_lock s) (q_list s) (set_waker (q_heap s) i (Some w)) (pset (q_pc s) i (SSwap w)) (q_phase s)).
Proof.
  intros HI E. pose proof HI as [H1 H2 H3 H4 H5 H6 H7 H8 H9].
  assert (Hm : forall h, members es (mkQ (q_state s) (q_lock s) (q_list s) h (pset (q_pc s) i (SSwap w)) (q_phase s)) = members es s).
  { intros h. unfold members. rewrite window_same; [reflexivity|left; rewrite E; auto|now rewrite E|reflexivity]. }
  pose proof (holder_members es s i HI ltac:(now rewrite E) ltac:(now rewrite E)) as Hmw.
  pose proof (H7 i) as Hi. rewrite E in Hi.
  assert (Hni : ~ In i (waiting es)) by (destruct Hi as [[Hp|Hp] Hr]; rewrite Hp in Hr; apply Hr).
  constructor; rewrite ?Hm; cbn [q_pc q_lock q_heap q_list q_phase q_state].
  - apply lock_pset; [exact H1|]. left. rewrite E. auto.
  - apply (rep_frame (q_heap s)); [|exact H2]. intros x _. autorewrite with mem. auto.
  - intros n Hn. unfold detached. autorewrite with mem. now apply H3.
  - intros n Hn. autorewrite with mem. auto.
  - intros n Hn. autorewrite with mem. destruct (Nat.eqb_spec n i) as [->|]; [rewrite Hmw in Hn; contradiction|auto].
  - intros n Hn. autorewrite with mem. destruct (Nat.eqb_spec n i) as [->|Hne]; [rewrite pset_same; discriminate|].
    rewrite pset_other by exact Hne. auto.
  - intros n. autorewrite with mem. at_ i n; [|apply H7]. simpl. exact Hi.
  - eapply cas_pset; [exact HI|tauto|discriminate].
  - intros n v. autorewrite with mem. destruct (Nat.eqb_spec n i) as [->|Hne]; [rewrite pset_same; simpl; congruence|].
    rewrite pset_other by exact Hne. apply H9.
Qed.

Lemma qinv_swap es s i w :
  QInv es s -> q_pc s i = SSwap w ->
  QInv es (mkQ (q_state s) (q_lock s) (q_list s) (set_state (q_heap s) i Q_WAITING) (pset (q_pc s) i (SEnq w)) (q_phase s)).
Proof.
  intros HI E. pose proof HI as [H1 H2 H3 H4 H5 H6 H7 H8 H9].
  assert (Hm : forall h, members es (mkQ (q_state s) (q_lock s) (q_list s) h (pset (q_pc s) i (SEnq w)) (q_phase s)) = members es s).
  { intros h. unfold members. rewrite window_same; [reflexivity|left; rewrite E; auto|now rewrite E|reflexivity]. }
  pose proof (holder_members es s i HI ltac:(now rewrite E) ltac:(now rewrite E)) as Hmw.
  pose proof (H7 i) as Hi. rewrite E in Hi.
  assert (Hni : ~ In i (waiting es)) by (destruct Hi as [[Hp|Hp] Hr]; rewrite Hp in Hr; apply Hr).
  constructor; rewrite ?Hm; cbn [q_pc q_lock q_heap q_list q_phase q_state].
  - apply lock_pset; [exact H1|]. left. rewrite E. auto.
  - apply (rep_frame (q_heap s)); [|exact H2]. intros x _. autorewrite with mem. auto.
  - intros n Hn. unfold detached. autorewrite with mem. now apply H3.
  - intros n Hn. autorewrite with mem. destruct (Nat.eqb n i); auto.
  - intros n Hn. autorewrite with mem. auto.
  - intros n Hn. autorewrite with mem. at_ i n; [discriminate|auto].
  - intros n. autorewrite with mem. at_ i n.
    + rewrite Nat.eqb_refl. simpl. destruct Hi as [Hp _]. auto.
    + rewrite (proj2 (Nat.eqb_neq n i)) by assumption. apply H7.
  - eapply cas_pset; [exact HI|tauto|discriminate].
  - intros n v. autorewrite with mem. at_ i n; [|apply H9]. simpl. intros K. apply H9. now rewrite E.
Qed.

Lemma qinv_enq es s i w h' l' :
  QInv es s -> q_pc s i = SEnq w -> enqueue (q_heap s) (q_list s) i = (h', l') ->
  QInv (EEnq i w :: es) (mkQ (q_state s) (q_lock s) l' h' (pset (q_pc s) i (SUnlock Wait)) (q_phase s)).
Proof.
  intros HI E Ee. pose proof HI as [H1 H2 H3 H4 H5 H6 H7 H8 H9].
  pose proof (holder_members es s i HI ltac:(now rewrite E) ltac:(now rewrite E)) as Hmw.
  assert (Hm : members (EEnq i w :: es) (mkQ (q_state s) (q_lock s) l' h' (pset (q_pc s) i (SUnlock Wait)) (q_phase s)) = waiting es ++ [i]).
  { unfold members. rewrite window_same; [|left; rewrite E; auto|now rewrite E|reflexivity].
    unfold members in Hmw. destruct (window s); [|reflexivity].
    exfalso. apply (f_equal (@length nat)) in Hmw. simpl in Hmw. lia. }
  pose proof (H7 i) as Hi. rewrite E in Hi. destruct Hi as (Hp & Hst & Hni).
  rewrite Hmw in *.
  destruct (enqueue_spec _ _ _ _ _ _ H2 Hni Ee) as (R1 & (R2 & R3 & R4) & R5).
  constructor; rewrite ?Hm; cbn [q_pc q_lock q_heap q_list q_phase q_state waiting given].
  - apply lock_pset; [exact H1|]. left. rewrite E. auto.
  - exact R1.
  - intros n Hn. rewrite in_app_iff in Hn. simpl in Hn.
    unfold detached. rewrite R4; [apply H3; tauto|]. simpl. tauto.
  - intros n Hn. rewrite R2. apply in_app_or in Hn as [Hn|[->|[]]]; auto.
  - intros n Hn. destruct (Nat.eqb_spec i n) as [->|Hne].
    + rewrite R5. split; [|discriminate]. apply H9. now rewrite E.
    + rewrite R3 by congruence. apply H5. apply in_app_or in Hn as [Hn|[->|[]]]; [exact Hn|congruence].
  - intros n Hn. at_ i n; [exfalso; apply Hn; apply in_or_app; right; now left|].
    rewrite R3 by assumption. apply H6. intros Hx. apply Hn. apply in_or_app. now left.
  - intros n. rewrite R2. at_ i n.
    + simpl. split; [tauto|]. left. split; [exact Hst|]. apply in_or_app. right. now left.
    + refine (node_ok_iff _ _ _ _ _ _ (H7 n)). rewrite in_app_iff. simpl.
      split; [tauto|intros [?|[?|[]]]; [assumption|congruence]].
  - eapply cas_pset; [exact HI|tauto|discriminate].
  - intros n v. at_ i n; [discriminate|]. intros K. rewrite R3 by assumption. auto.
Qed.

Lemma qinv_upd es s i w :
  QInv es s -> q_pc s i = CUpd w ->
  QInv (EUpd i w :: es) (mkQ (q_state s) (q_lock s) (q_list s) (set_waker (q_heap s) i (Some w)) (pset (q_pc s) i (SUnlock Wait)) (q_phase s)).
Proof.
  intros HI E. pose proof HI as [H1 H2 H3 H4 H5 H6 H7 H8 H9].
  assert (Hm : forall h, members (EUpd i w :: es) (mkQ (q_state s) (q_lock s) (q_list s) h (pset (q_pc s) i (SUnlock Wait)) (q_phase s)) = members es s).
  { intros h. unfold members. rewrite window_same; [reflexivity|left; rewrite E; auto|now rewrite E|reflexivity]. }
  pose proof (holder_members es s i HI ltac:(now rewrite E) ltac:(now rewrite E)) as Hmw.
  pose proof (H7 i) as Hi. rewrite E in Hi. destruct Hi as (Hp & Hst & Hin).
  constructor; rewrite ?Hm; cbn [q_pc q_lock q_heap q_list q_phase q_state waiting given].
  - apply lock_pset; [exact H1|]. left. rewrite E. auto.
  - apply (rep_frame (q_heap s)); [|exact H2]. intros x _. autorewrite with mem. auto.
  - intros n Hn. unfold detached. autorewrite with mem. now apply H3.
  - intros n Hn. autorewrite with mem. auto.
  - intros n Hn. autorewrite with mem. rewrite (Nat.eqb_sym i n).
    destruct (Nat.eqb_spec n i) as [->|]; [split; [reflexivity|discriminate]|auto].
  - intros n Hn. autorewrite with mem. destruct (Nat.eqb_spec n i) as [->|Hne]; [rewrite Hmw in Hn; contradiction|].
    rewrite pset_other by exact Hne. auto.
  - intros n. autorewrite with mem. at_ i n; [|apply H7]. simpl. split; [tauto|]. left. auto.
  - eapply cas_pset; [exact HI|tauto|discriminate].
  - intros n v. autorewrite with mem. destruct (Nat.eqb_spec n i) as [->|Hne]; [rewrite pset_same; discriminate|].
    rewrite pset_other by exact Hne. apply H9.
Qed.

Lemma node_ok_taken p ph st : (forall w, p <> CUpd w) -> st = Q_WAKING \/ st = Q_CLOSED ->
  node_ok p ph Q_WAITING True -> node_ok p ph st False.
Proof.
  intros Hp Hs.
  assert (R : ph = PWaiting \/ ph = PGone -> rest ph st False) by (intros [-> | ->]; simpl; tauto).
  assert (R' : rest ph Q_WAITING True -> ph = PWaiting \/ ph = PGone) by (destruct ph; simpl; intuition discriminate).
  destruct p as [| | | | | | | | |[]|[]| | | | | | | | | | | | | | | | | | | | | | | | |]; cbn [node_ok];
    try solve [intros H; exfalso; intuition (congruence || (subst; simpl in *; tauto))];
    try solve [intros H; apply R; apply R'; tauto]; try solve [simpl; tauto]; try (destruct (Hp w); reflexivity).
  all: try solve [intros [Ha Hb]; pose proof (R' Hb); split; [tauto|apply R; tauto]].
  all: intros [[Ha Hb]|(_ & Ha & _)]; [|discriminate]; destruct (R' Hb); intuition congruence.
Qed.

(** A waking thread takes the oldest waiter. *)
Lemma qinv_take es s i n st p' :
  QInv es s -> holds (q_pc s i) = true -> half (q_pc s i) = None ->
  keeps (q_pc s i) = false -> (forall ph st inw, node_ok (q_pc s i) ph st inw = rest ph st inw) ->
  p' = TLinks n \/ p' = KLinks n -> st = Q_WAKING \/ st = Q_CLOSED -> l_tail (q_list s) = Some n ->
  QInv (ESwap i n st :: es) (mkQ (q_state s) (q_lock s) (q_list s) (set_state (q_heap s) n st) (pset (q_pc s) i p') (q_phase s)) /\
  exists q, waiting es = n :: q.
Proof.
  intros HI Hh Hf Hk Hno Hp' Hst Ht. pose proof HI as [H1 H2 H3 H4 H5 H6 H7 H8 H9].
  pose proof (holder_members es s i HI Hh Hf) as Hmw.
  assert (Hq : exists q, waiting es = n :: q).
  { pose proof (rep_tail _ _ _ H2) as Ht'. rewrite Ht, Hmw in Ht'. destruct (waiting es) as [|x q]; [discriminate|].
    injection Ht' as ->. exists q. reflexivity. }
  split; [|exact Hq]. destruct Hq as [q Hq]. rewrite Hmw, Hq in *.
  pose proof (rep_nodup _ _ _ H2) as Hd. inversion Hd as [|? ? Hnq Hdq]; subst.
  assert (Hw : waiting (ESwap i n st :: es) = q).
  { cbn [waiting]. rewrite Hq. apply (without_split n []). exact Hd. }
  pose proof Hh as Hlk. apply (I_lock _ _ HI) in Hlk.
  assert (Hm : members (ESwap i n st :: es) (mkQ (q_state s) (q_lock s) (q_list s) (set_state (q_heap s) n st) (pset (q_pc s) i p') (q_phase s)) = n :: q).
  { unfold members, window. cbn [q_lock q_pc]. rewrite Hlk, pset_same, Hw. destruct Hp' as [-> | ->]; reflexivity. }
  assert (Hhp : holds p' = true) by (destruct Hp' as [-> | ->]; reflexivity).
  constructor; rewrite ?Hm, ?Hw; cbn [q_pc q_lock q_heap q_list q_phase q_state given].
  - apply lock_pset; [exact H1|]. left. rewrite Hh. auto.
  - apply (rep_frame (q_heap s)); [|exact H2]. intros x _. autorewrite with mem. auto.
  - intros m Hn. unfold detached. autorewrite with mem. now apply H3.
  - intros m Hn. autorewrite with mem. destruct (Nat.eqb_spec m n) as [->|]; [contradiction|]. apply H4. now right.
  - intros m Hn. autorewrite with mem. now apply H5.
  - intros m Hn. autorewrite with mem. specialize (H6 m Hn). at_ i m; [|exact H6]. intros _. apply H6. exact Hk.
  - intros m. autorewrite with mem. specialize (H7 m). destruct (Nat.eqb_spec m n) as [->|Hne].
    + assert (H7' : node_ok (pset (q_pc s) i p' n) (q_phase s n) (n_state (q_heap s n)) (In n (n :: q))).
      { at_ i n; [|exact H7]. rewrite Hno in H7. destruct Hp' as [-> | ->]; exact H7. }
      rewrite (H4 n) in H7' by now left.
      refine (node_ok_iff _ _ _ False _ _ (node_ok_taken _ _ _ _ Hst (node_ok_iff _ _ _ _ True _ H7'))); [tauto| |simpl; tauto].
      intros w Hw'. at_ i n; [destruct Hp'; congruence|].
      assert (Hc : holds (q_pc s n) = true) by (rewrite Hw'; reflexivity). apply H1 in Hc. congruence.
    + refine (node_ok_iff _ _ _ (In m (n :: q)) _ _ _); [simpl; intuition congruence|].
      at_ i m; [|exact H7]. rewrite Hno in H7. destruct Hp' as [-> | ->]; exact H7.
  - eapply cas_pset; [exact HI|tauto|]. destruct Hp' as [-> | ->]; discriminate.
  - intros m w. autorewrite with mem. at_ i m; [destruct Hp' as [-> | ->]; discriminate|apply H9].
Qed.

(** ... and unlinks it. *)
Lemma qinv_unlink es s i n p' h' l' ow st' :
  QInv es s -> half (q_pc s i) = Some n ->
  holds p' = true -> half p' = None -> casing p' = false -> carried p' = None -> keeps p' = false ->
  (forall ph st inw, node_ok p' ph st inw = rest ph st inw) ->
  st' = q_state s ->
  dequeue_links (q_heap s) (q_list s) n = (h', l', ow) ->
  QInv (EUnlink i n ow :: es) (mkQ st' (q_lock s) l' h' (pset (q_pc s) i p') (q_phase s)) /\
  ow = given n es /\ ow <> None.
Proof.
  intros HI Hf Hh' Hf' Hc' Hcar' Hk' Hno' -> Ed. pose proof HI as [H1 H2 H3 H4 H5 H6 H7 H8 H9].
  assert (Hh : holds (q_pc s i) = true) by (destruct (q_pc s i); try discriminate; reflexivity).
  assert (Hno : forall ph st inw, node_ok (q_pc s i) ph st inw = rest ph st inw) by (destruct (q_pc s i); try discriminate; reflexivity).
  pose proof Hh as Hlk. apply H1 in Hlk.
  assert (Hmw : members es s = n :: waiting es) by (unfold members, window; now rewrite Hlk, Hf).
  assert (Hm : members (EUnlink i n ow :: es) (mkQ (q_state s) (q_lock s) l' h' (pset (q_pc s) i p') (q_phase s)) = waiting es).
  { unfold members, window. cbn [q_lock q_pc]. rewrite Hlk, pset_same, Hf'. reflexivity. }
  rewrite Hmw in *. destruct (dequeue_spec _ _ _ _ _ _ _ H2 Ed) as (R1 & (R2 & R3 & R4) & R5 & R6 & R7).
  pose proof (rep_nodup _ _ _ H2) as Hd. inversion Hd as [|? ? Hnq Hdq]; subst.
  split; [|destruct (H5 n) as [K1 K2]; [now left|]; rewrite K1; auto].
  constructor; rewrite ?Hm; cbn [q_pc q_lock q_heap q_list q_phase q_state waiting given].
  - apply lock_pset; [exact H1|]. left. rewrite Hh. auto.
  - exact R1.
  - intros m Hn. destruct (Nat.eq_dec m n) as [->|Hmn]; [exact R7|]. unfold detached. rewrite R4; [apply H3|]; simpl; intuition congruence.
  - intros m Hn. rewrite R2. auto.
  - intros m Hn. rewrite R3 by (intros ->; contradiction). apply H5. now right.
  - intros m Hn K1 K2. destruct (Nat.eq_dec m n) as [->|Hmn]; [exact R6|]. rewrite R3 by exact Hmn.
    apply H6; [simpl; intuition congruence| |exact K2]. at_ i m; [destruct (q_pc s i); try discriminate; reflexivity|exact K1].
  - intros m. rewrite R2. specialize (H7 m). at_ i m; [|exact H7]. rewrite Hno in H7. rewrite Hno'. exact H7.
  - eapply cas_pset; [exact HI|tauto|congruence].
  - intros m w. at_ i m; [congruence|]. intros K. destruct (Nat.eq_dec m n) as [->|Hmn]; [|rewrite R3 by exact Hmn; auto].
    exfalso. assert (Hx : holds (q_pc s n) = true) by (destruct (q_pc s n); try discriminate; reflexivity).
    apply H1 in Hx. congruence.
Qed.

Lemma qinv_remove es s i h' l' ok :
  QInv es s -> q_pc s i = DRemove -> list_remove (q_heap s) (q_list s) i = (h', l', ok) ->
  QInv (ERemoved i :: es) (mkQ (q_state s) (q_lock s) l' h' (pset (q_pc s) i DEmpty) (q_phase s)) /\ ok = true.
Proof.
  intros HI E Er. pose proof HI as [H1 H2 H3 H4 H5 H6 H7 H8 H9].
  pose proof (holder_members es s i HI ltac:(now rewrite E) ltac:(now rewrite E)) as Hmw.
  assert (Hlk : q_lock s = Some i) by (apply H1; now rewrite E).
  assert (Hm : members (ERemoved i :: es) (mkQ (q_state s) (q_lock s) l' h' (pset (q_pc s) i DEmpty) (q_phase s)) = without i (waiting es)).
  { unfold members, window. cbn [q_lock q_pc]. rewrite Hlk, pset_same. reflexivity. }
  rewrite Hmw in *.
  assert (Hor : In i (waiting es) \/ detached (q_heap s) i) by (destruct (in_dec Nat.eq_dec i (waiting es)); auto).
  destruct (remove_spec _ _ _ _ _ _ _ H2 Hor Er) as (R1 & (R2 & R3 & R4) & R5 & R6 & R7).
  pose proof (H7 i) as Hi. rewrite E in Hi. destruct Hi as [Hp Hr]. rewrite Hp in Hr. simpl in Hr.
  split.
  2:{ destruct Hor as [Hin|[D1 D2]]; [auto|]. unfold list_remove in Er. rewrite D1, D2 in Er. now injection Er. }
  constructor; rewrite ?Hm; cbn [q_pc q_lock q_heap q_list q_phase q_state waiting given].
  - apply lock_pset; [exact H1|]. left. rewrite E. auto.
  - exact R1.
  - intros m Hn. rewrite without_in in Hn. destruct (Nat.eq_dec m i) as [->|Hmi]; [exact R6|].
    unfold detached. rewrite R4; [apply H3; tauto|]. simpl. intuition congruence.
  - intros m Hn. apply without_in in Hn as [Hn _]. rewrite R2. auto.
  - intros m Hn. apply without_in in Hn as [Hn Hne]. rewrite R3 by exact Hne. auto.
  - intros m Hn. rewrite without_in in Hn. at_ i m; [discriminate|]. rewrite R3 by assumption. intros. apply H6; tauto.
  - intros m. rewrite R2. at_ i m.
    + simpl. split; [exact Hp|]. rewrite without_in. tauto.
    + refine (node_ok_iff _ _ _ _ _ _ (H7 m)). rewrite without_in. tauto.
  - eapply cas_pset; [exact HI|tauto|discriminate].
  - intros m w. at_ i m; [discriminate|]. rewrite R3 by assumption. apply H9.
Qed.

Lemma qinv_new es s i :
  QInv es s -> q_pc s i = QIdle -> q_phase s i = PAbsent -> ~ In i (members es s) ->
  QInv (ENew i :: es) (mkQ (q_state s) (q_lock s) (q_list s) (hset (q_heap s) i waiter_new) (q_pc s) (pset (q_phase s) i PFresh)).
Proof.
  intros HI E Ep Hni. pose proof HI as [H1 H2 H3 H4 H5 H6 H7 H8 H9].
  assert (Hm : members (ENew i :: es) (mkQ (q_state s) (q_lock s) (q_list s) (hset (q_heap s) i waiter_new) (q_pc s) (pset (q_phase s) i PFresh)) = members es s) by reflexivity.
  pose proof (H7 i) as Hi. rewrite E, Ep in Hi. simpl in Hi.
  constructor; rewrite ?Hm; cbn [q_pc q_lock q_heap q_list q_phase q_state waiting given].
  - exact H1.
  - apply (rep_frame (q_heap s)); [|exact H2]. intros x Hx. rewrite hset_other; [auto|]. intros ->. contradiction.
  - intros n Hn. unfold detached. hcase n i; [split; reflexivity|]. now apply H3.
  - intros n Hn. hcase n i; [tauto|auto].
  - intros n Hn. hcase n i; [contradiction|auto].
  - intros n Hn. hcase n i; [reflexivity|]. rewrite pset_other by assumption. auto.
  - intros n. hcase n i; [|rewrite pset_other by assumption; apply H7]. rewrite pset_same, E. simpl. tauto.
  - exact H8.
  - intros n w. hcase n i; [rewrite E; discriminate|apply H9].
Qed.

Lemma waiting_given n es : In n (waiting es) -> given n es <> None.
Proof.
  induction es as [|e es IH]; [intros []|]. destruct e; simpl; try exact IH.
  - rewrite in_app_iff. simpl. destruct (Nat.eqb_spec i n); [discriminate|]. intros [H|[H|[]]]; [auto|contradiction].
  - destruct (Nat.eqb i n); [discriminate|exact IH].
  - rewrite without_in. tauto.
  - rewrite without_in. tauto.
Qed.

Lemma eqb_n_true a b : (a =? b)%N = true -> a = b.
Proof. apply N.eqb_eq. Qed.
Lemma eqb_n_false a b : (a =? b)%N = false -> a <> b.
Proof. apply N.eqb_neq. Qed.

(** The assertions that can fail are those of notify_slow. *)
Definition may_fail (p : qpc) : Prop := exists v, p = TSlow v.

Lemma own_not_gone p st inw : node_ok p PGone st inw ->
  match p with
  | SCas _ | SLock _ | SLoad _ | SCasEmpty _ | SCasWaking _ | SNode _ | SSwap _ | SEnq _ | SUnlock _ | SRet _
  | CLoad _ | CLock _ | CLoad2 _ | CUpd _ | DLoad | DLock | DRemove | DEmpty | DUnlock | DFree => False
  | _ => True
  end.
Proof.
  destruct p as [| | | | | | | | |[]|[]| | | | | | | | | | | | | | | | | | | | | | | | |]; simpl; intuition discriminate.
Qed.

Section Step.
  Variable debug : bool.

  Ltac brk Hs :=
    repeat match type of Hs with
    | context [if ?b then _ else _] => let E := fresh "C" in destruct b eqn:E
    | context [match ?b with Some _ => _ | None => _ end] => let E := fresh "C" in destruct b eqn:E
    end.

  Ltac lockt E Hlk := unfold lock_move; rewrite E; first
    [ left; split; reflexivity
    | right; left; split; [assumption|split; reflexivity]
    | right; right; split; [apply Hlk; reflexivity|split; reflexivity] ].
  Ltac keept E := rewrite ?E, ?pset_same; first
    [ left; reflexivity | right; left; reflexivity
    | right; right; split; [reflexivity|assumption]
    | right; left; assumption
    | match goal with H : _ = PGone \/ _ <> PGone |- _ => destruct H; [right; left; assumption|right; right; split; [reflexivity|assumption]] end ].
  Ltac stt E := first [left; reflexivity | right; left; discriminate | right; right; rewrite E; reflexivity].
  Ltac loc HI E Hlk := unfold with_pc, with_state, with_lock, with_phase, with_mem; cbn [q_state q_lock q_list q_heap q_pc q_phase];
    match type of HI with QInv ?es ?s => match type of E with q_pc _ ?i = _ => eapply (qinv_local es s i) end end;
    [exact HI|reflexivity|lockt E Hlk|rewrite E; reflexivity|reflexivity|intros; first [reflexivity|apply pset_other; assumption]
    |rewrite ?pset_same|keept E|stt E|first [discriminate|idtac]|reflexivity].

  Lemma qinv_step es s i spur s' e :
    QInv es s -> qstep debug s i spur = Some (s', e) -> e <> Some (EUb i) ->
    QInv (app_ev e es) s' /\ (e = Some (EAssert i) -> may_fail (q_pc s i)).
  Proof.
    intros HI Hs Hub. pose proof HI as [H1 H2 H3 H4 H5 H6 H7 H8 H9].
    pose proof (H7 i) as Hi. unfold qstep in Hs.
    assert (Hlk : holds (q_pc s i) = true -> q_lock s = Some i) by apply H1.
    assert (Hg : q_phase s i = PGone \/ q_phase s i <> PGone) by (destruct (q_phase s i); auto; right; discriminate).
    assert (Hown := fun K => own_not_gone (q_pc s i) (n_state (q_heap s i)) (In i (waiting es)) (eq_ind _ (fun ph => node_ok (q_pc s i) ph _ _) Hi _ K)).
    destruct (q_pc s i) eqn:E; [discriminate|..];
      try (assert (Hng : q_phase s i <> PGone) by exact Hown); clear Hown.
    - (* SCas *) brk Hs; injection Hs as <- <-; (split; [|discriminate]); loc HI E Hlk; try exact Hi; left; exact Hi.
    - (* SLock *) brk Hs; [discriminate|]. injection Hs as <- <-. split; [|discriminate]. loc HI E Hlk. exact Hi.
    - (* SLoad *) injection Hs as <- <-. split; [|discriminate].
      unfold s_dispatch. destruct (N.eqb_spec (q_state s) Q_EMPTY) as [C|C]; [|destruct (N.eqb_spec (q_state s) Q_WAKING) as [C1|C1];
        [|destruct (N.eqb_spec (q_state s) Q_CLOSED)]]; loc HI E Hlk; try exact Hi; try (left; exact Hi).
      + intros _. rewrite C. discriminate.
      + intros _. rewrite C1. discriminate.
    - (* SCasEmpty *)
      destruct ((q_state s =? Q_EMPTY)%N && negb spur).
      { injection Hs as <- <-. split; [|discriminate]. loc HI E Hlk. exact Hi. }
      assert (Hc : (q_state s =? Q_WAITING)%N = false) by (apply N.eqb_neq; eapply H8; rewrite E; reflexivity).
      rewrite Hc, andb_false_r in Hs. injection Hs as <- <-. split; [|discriminate]. apply eqb_n_false in Hc.
      unfold s_dispatch. destruct (N.eqb_spec (q_state s) Q_EMPTY) as [C|C]; [|destruct (N.eqb_spec (q_state s) Q_WAKING) as [C1|C1];
        [|destruct (N.eqb_spec (q_state s) Q_CLOSED)]]; loc HI E Hlk; try exact Hi; try (left; exact Hi); intros _; exact Hc.
    - (* SCasWaking *)
      destruct ((q_state s =? Q_WAKING)%N && negb spur).
      { injection Hs as <- <-. split; [|discriminate]. loc HI E Hlk. left. exact Hi. }
      assert (Hc : (q_state s =? Q_WAITING)%N = false) by (apply N.eqb_neq; eapply H8; rewrite E; reflexivity).
      rewrite Hc, andb_false_r in Hs. injection Hs as <- <-. split; [|discriminate]. apply eqb_n_false in Hc.
      unfold s_dispatch. destruct (N.eqb_spec (q_state s) Q_EMPTY) as [C|C]; [|destruct (N.eqb_spec (q_state s) Q_WAKING) as [C1|C1];
        [|destruct (N.eqb_spec (q_state s) Q_CLOSED)]]; loc HI E Hlk; try exact Hi; try (left; exact Hi); intros _; exact Hc.
    - (* SNode *)
      assert (Hn : n_waker (q_heap s i) = None).
      { apply H6; [|now rewrite E|exact Hng]. rewrite (holder_members es s i HI) by now rewrite E.
        destruct Hi as [[Hp|Hp] Hr]; rewrite Hp in Hr; apply Hr. }
      rewrite Hn, andb_false_r in Hs. injection Hs as <- <-. split; [|discriminate]. exact (qinv_node es s i w HI E).
    - (* SSwap *)
      assert (Hn : ((n_state (q_heap s i) =? Q_EMPTY) || (n_state (q_heap s i) =? Q_WAKING))%N = true).
      { destruct Hi as [[Hp|Hp] Hr]; rewrite Hp in Hr; destruct Hr as [-> _]; reflexivity. }
      rewrite Hn, andb_false_r in Hs. injection Hs as <- <-. split; [|discriminate]. exact (qinv_swap es s i w HI E).
    - (* SEnq *)
      destruct (forallb (live s) (enqueue_touches (q_list s))); [|injection Hs as <- <-; destruct Hub; reflexivity].
      destruct (enqueue (q_heap s) (q_list s) i) as [h' l'] eqn:Ee. injection Hs as <- <-. split; [|discriminate].
      exact (qinv_enq es s i w h' l' HI E Ee).
    - (* SUnlock *) injection Hs as <- <-. split; [|discriminate]. loc HI E Hlk. destruct r; exact Hi.
    - (* SRet *) injection Hs as <- <-. split; [|discriminate]. loc HI E Hlk.
      destruct r; cbn [node_ok ret_phase] in *.
      + exact (proj2 Hi).
      + simpl. destruct Hi as [[[Hp|Hp] Hr]|(Hp & _ & Hr)]; [rewrite Hp in Hr; apply Hr..|exact Hr].
      + destruct Hi as [[[Hp|Hp] Hr]|(Hp & Hr)]; rewrite Hp in *; assumption.
    - (* CLoad *)
      destruct (N.eqb_spec (n_state (q_heap s i)) Q_WAKING) as [C|C].
      { injection Hs as <- <-. split; [|discriminate]. loc HI E Hlk. rewrite C in *.
        destruct Hi as [[Hp|Hp] Hr]; rewrite Hp in *; simpl in *; [right|left].
        - destruct Hr as [[Hr _]|Hr]; [discriminate|tauto].
        - tauto. }
      destruct (N.eqb_spec (n_state (q_heap s i)) Q_CLOSED) as [C1|C1].
      { injection Hs as <- <-. split; [|discriminate]. loc HI E Hlk. rewrite C1 in *.
        destruct Hi as [[Hp|Hp] Hr]; rewrite Hp in *; simpl in *; [right|].
        - destruct Hr as [[Hr _]|Hr]; [discriminate|tauto].
        - destruct Hr; discriminate. }
      assert (Hw : n_state (q_heap s i) = Q_WAITING).
      { destruct Hi as [[Hp|Hp] Hr]; rewrite Hp in *; simpl in Hr; tauto. }
      rewrite (proj2 (N.eqb_eq _ _) Hw), andb_false_r in Hs. injection Hs as <- <-. split; [|discriminate].
      loc HI E Hlk. exact Hi.
    - (* CLock *) brk Hs; [discriminate|]. injection Hs as <- <-. split; [|discriminate]. loc HI E Hlk. exact Hi.
    - (* CLoad2 *)
      destruct (N.eqb_spec (n_state (q_heap s i)) Q_WAKING) as [C|C].
      { injection Hs as <- <-. split; [|discriminate]. loc HI E Hlk. rewrite C in *.
        destruct Hi as [[Hp|Hp] Hr]; rewrite Hp in *; simpl in *; [right|left].
        - destruct Hr as [[Hr _]|Hr]; [discriminate|tauto].
        - tauto. }
      destruct (N.eqb_spec (n_state (q_heap s i)) Q_CLOSED) as [C1|C1].
      { injection Hs as <- <-. split; [|discriminate]. loc HI E Hlk. rewrite C1 in *.
        destruct Hi as [[Hp|Hp] Hr]; rewrite Hp in *; simpl in *; [right|].
        - destruct Hr as [[Hr _]|Hr]; [discriminate|tauto].
        - destruct Hr; discriminate. }
      assert (Hw : n_state (q_heap s i) = Q_WAITING /\ In i (waiting es)).
      { destruct Hi as [[Hp|Hp] Hr]; rewrite Hp in *; simpl in Hr; tauto. }
      rewrite (proj2 (N.eqb_eq _ _) (proj1 Hw)), andb_false_r in Hs. injection Hs as <- <-. split; [|discriminate].
      loc HI E Hlk. split; [exact (proj1 Hi)|exact Hw].
    - (* CUpd *) injection Hs as <- <-. split; [|discriminate]. exact (qinv_upd es s i w HI E).
    - (* TLoad *) injection Hs as <- <-. split; [|discriminate]. unfold n_dispatch.
      destruct ((q_state s =? Q_WAKING)%N || (q_state s =? Q_EMPTY)%N); loc HI E Hlk; exact Hi.
    - (* TCas *) brk Hs; injection Hs as <- <-; (split; [|discriminate]).
      + loc HI E Hlk. exact Hi.
      + unfold n_dispatch. destruct ((q_state s =? Q_WAKING)%N || (q_state s =? Q_EMPTY)%N); loc HI E Hlk; exact Hi.
    - (* TLock *) brk Hs; [discriminate|]. injection Hs as <- <-. split; [|discriminate]. loc HI E Hlk. exact Hi.
    - (* TSlow *)
      assert (Hf : failed s i = (s', e) -> QInv (app_ev e es) s' /\ may_fail (TSlow st)).
      { intros Hx. unfold failed in Hx. rewrite Hlk in Hx by reflexivity. rewrite Nat.eqb_refl in Hx. injection Hx as <- <-.
        split; [|eexists; reflexivity]. loc HI E Hlk. exact Hi. }
      assert (Hf' : Some (failed s i) = Some (s', e) -> QInv (app_ev e es) s' /\ (e = Some (EAssert i) -> may_fail (TSlow st))).
      { intros Hx. assert (Hx' : failed s i = (s', e)) by congruence. destruct (Hf Hx'). auto. }
      destruct (N.eqb_spec st Q_WAITING).
      + destruct (l_tail (q_list s)) as [n|] eqn:Et.
        * destruct (live s n); [|injection Hs as <- <-; destruct Hub; reflexivity].
          destruct (debug && negb (n_state (q_heap s n) =? Q_WAITING)%N); [exact (Hf' Hs)|].
          injection Hs as <- <-. split; [|discriminate].
          refine (proj1 (qinv_take es s i n Q_WAKING (TLinks n) HI _ _ _ _ _ _ Et)); rewrite ?E; auto.
        * destruct debug; [exact (Hf' Hs)|]. injection Hs as <- <-. split; [|discriminate]. loc HI E Hlk. exact Hi.
      + destruct debug; [exact (Hf' Hs)|]. injection Hs as <- <-. split; [|discriminate]. loc HI E Hlk. exact Hi.
    - (* TLinks *)
      destruct (forallb (live s) (dequeue_touches (q_heap s) n)); [|injection Hs as <- <-; destruct Hub; reflexivity].
      destruct (dequeue_links (q_heap s) (q_list s) n) as [[h' l'] ow] eqn:Ed. injection Hs as <- <-. split; [|discriminate].
      refine (proj1 (qinv_unlink es s i n _ h' l' ow (q_state s) HI _ _ _ _ _ _ _ _ Ed)); rewrite ?E; auto.
    - (* TEmpty *) injection Hs as <- <-. split; [|discriminate].
      destruct (list_is_empty (q_list s)); loc HI E Hlk; exact Hi.
    - (* TUnlock *) injection Hs as <- <-. split; [|discriminate]. destruct o as [[n w]|]; loc HI E Hlk; exact Hi.
    - (* TWake *) injection Hs as <- <-. split; [|discriminate]. loc HI E Hlk. exact Hi.
    - (* TRet *) injection Hs as <- <-. split; [|discriminate]. loc HI E Hlk. exact Hi.
    - (* KSwap *) injection Hs as <- <-. split; [|discriminate]. loc HI E Hlk. exact Hi.
    - (* KLock *) brk Hs; [discriminate|]. injection Hs as <- <-. split; [|discriminate]. loc HI E Hlk. exact Hi.
    - (* KLoop *)
      destruct (list_is_empty (q_list s)) eqn:El.
      { injection Hs as <- <-. split; [|discriminate]. loc HI E Hlk. exact Hi. }
      destruct (l_tail (q_list s)) as [n|] eqn:Et.
      + destruct (live s n); [|injection Hs as <- <-; destruct Hub; reflexivity].
        pose proof (qinv_take es s i n Q_CLOSED (KLinks n) HI ltac:(rewrite E; reflexivity) ltac:(rewrite E; reflexivity)
          ltac:(rewrite E; reflexivity) ltac:(rewrite E; reflexivity) (or_intror eq_refl) (or_intror eq_refl) Et) as [Hq [q Hw]].
        rewrite (H4 n) in Hs by (rewrite Hw; now left).
        rewrite N.eqb_refl, andb_false_r in Hs. injection Hs as <- <-. split; [exact Hq|discriminate].
      + injection Hs as <- <-. split; [exact HI|discriminate].
    - (* KLinks *)
      destruct (forallb (live s) (dequeue_touches (q_heap s) n)); [|injection Hs as <- <-; destruct Hub; reflexivity].
      destruct (dequeue_links (q_heap s) (q_list s) n) as [[h' l'] ow] eqn:Ed. injection Hs as <- <-. split; [|discriminate].
      refine (proj1 (qinv_unlink es s i n _ h' l' ow (q_state s) HI _ _ _ _ _ _ _ _ Ed)); rewrite ?E; auto; destruct ow; reflexivity.
    - (* KWake *) injection Hs as <- <-. split; [|discriminate]. loc HI E Hlk. exact Hi.
    - (* KUnlock *) injection Hs as <- <-. split; [|discriminate]. loc HI E Hlk. exact Hi.
    - (* DLoad *)
      destruct (N.eqb_spec (n_state (q_heap s i)) Q_WAITING) as [C|C]; injection Hs as <- <-; (split; [|discriminate]); loc HI E Hlk; [exact Hi|].
      destruct Hi as [Hp Hr]. rewrite Hp in Hr. simpl in Hr. simpl. tauto.
    - (* DLock *) brk Hs; [discriminate|]. injection Hs as <- <-. split; [|discriminate]. loc HI E Hlk. exact Hi.
    - (* DRemove *)
      destruct (forallb (live s) (remove_touches (q_heap s) i)); [|injection Hs as <- <-; destruct Hub; reflexivity].
      destruct (list_remove (q_heap s) (q_list s) i) as [[h' l'] ok] eqn:Er.
      destruct (qinv_remove es s i h' l' ok HI E Er) as [Hq ->]. rewrite andb_false_r in Hs.
      injection Hs as <- <-. split; [exact Hq|discriminate].
    - (* DEmpty *) injection Hs as <- <-. split; [|discriminate].
      destruct (list_is_empty (q_list s) && (q_state s =? Q_WAITING)%N); loc HI E Hlk; exact Hi.
    - (* DUnlock *) injection Hs as <- <-. split; [|discriminate]. loc HI E Hlk. exact Hi.
    - (* DFree *) injection Hs as <- <-. split; [|discriminate]. loc HI E Hlk. simpl. exact I.
  Qed.
End Step.

(** The waker fields of [e] belong to an existing waiter. *)
Lemma step_given debug es s i spur s' e n :
  QInv es s -> qstep debug s i spur = Some (s', e) -> q_phase s' n = PAbsent ->
  q_phase s n = PAbsent /\ given n (app_ev e es) = given n es.
Proof.
  intros HI Hs Hp. pose proof (I_node _ _ HI i) as Hi. unfold qstep, failed, undefined in Hs. revert Hs.
  destruct (q_pc s i) eqn:E; [discriminate|..];
  repeat match goal with
  | |- context [if ?b then _ else _] => destruct b
  | |- context [match q_lock s with Some _ => _ | None => _ end] => destruct (q_lock s)
  | |- context [match l_tail ?b with Some _ => _ | None => _ end] => destruct (l_tail b)
  | |- context [let '(_, _) := ?b in _] => let E := fresh "E" in destruct b as [[? ?] ?] eqn:E || destruct b as [? ?] eqn:E
  end; intros Hs; try discriminate; injection Hs as <- <-; cbn [q_phase with_pc with_mem with_phase with_lock with_state app_ev given] in *;
  try (split; [exact Hp|reflexivity]).
  all: at_ i n; cbn [node_ok] in Hi.
  all: try (rewrite Hp in Hi; intuition congruence).
  all: try (rewrite (proj2 (Nat.eqb_neq i n)) by congruence).
  all: try (split; [assumption|reflexivity]).
  - destruct r; simpl in Hp; try discriminate. destruct (q_phase s i); try discriminate. split; reflexivity.
  - discriminate.
Qed.

(** Steps that change only the phase of an idle owner. *)
Lemma qinv_phase es s i ph' e :
  QInv es s -> calm_ev e = true -> q_pc s i = QIdle ->
  rest ph' (n_state (q_heap s i)) (In i (waiting es)) -> ph' = PGone \/ q_phase s i <> PGone ->
  QInv (app_ev e es) (mkQ (q_state s) (q_lock s) (q_list s) (q_heap s) (q_pc s) (pset (q_phase s) i ph')).
Proof.
  intros HI He E Hr Hg. pose proof HI as [H1 H2 H3 H4 H5 H6 H7 H8 H9].
  assert (Hm : members (app_ev e es) (mkQ (q_state s) (q_lock s) (q_list s) (q_heap s) (q_pc s) (pset (q_phase s) i ph')) = members es s)
    by (unfold members; rewrite calm_waiting by exact He; reflexivity).
  constructor; rewrite ?Hm, ?calm_waiting by exact He; simpl; try assumption.
  - intros n. rewrite calm_given by exact He. auto.
  - intros n Hn K1 K2. apply H6; [exact Hn|exact K1|]. at_ i n; [|exact K2]. destruct Hg; [contradiction|assumption].
  - intros n. at_ i n; [|apply H7]. rewrite E. exact Hr.
Qed.

(** Starting a call. *)
Lemma qinv_call es s i p' e :
  QInv es s -> calm_ev e = true -> q_pc s i = QIdle ->
  holds p' = false -> half p' = None -> keeps p' = false -> casing p' = false -> carried p' = None ->
  node_ok p' (q_phase s i) (n_state (q_heap s i)) (In i (waiting es)) ->
  QInv (app_ev e es) (with_pc s i p').
Proof.
  intros HI He E H1 H2 H3 H4 H5 H6. unfold with_pc. apply (qinv_local es s i); try assumption; rewrite ?E; auto.
  - left. rewrite E. auto.
  - destruct (q_phase s i) eqn:Ep; auto; right; right; (split; [reflexivity|discriminate]).
  - congruence.
Qed.

Lemma idle_pc s i : idle s i = true -> q_pc s i = QIdle.
Proof. unfold idle. destruct (q_pc s i); congruence. Qed.

(** ** Executions in which some loads return old values ([WeakQueueModel]).

    A step of agent [i] that read an old value of the state word, or of its waiter's state, and moved to
    [p'].  [G]: on executions that satisfy it, notify takes the slow path only if the newest value says so. *)
Inductive stale (G : list qevent -> Prop) (es : list qevent) (s : qsys) (i : nat) : qpc -> Prop :=
| st_scas w : q_pc s i = SCas w -> stale G es s i (SLock w)
| st_scas_closed w : q_pc s i = SCas w -> q_closed es = true -> stale G es s i (SRet Closed)
| st_sload w p' : q_pc s i = SLoad w \/ q_pc s i = SCasEmpty w \/ q_pc s i = SCasWaking w ->
    q_state s <> Q_WAITING -> p' = SCasEmpty w \/ p' = SCasWaking w -> stale G es s i p'
| st_sclosed w : q_pc s i = SLoad w \/ q_pc s i = SCasEmpty w \/ q_pc s i = SCasWaking w ->
    q_closed es = true -> stale G es s i (SUnlock Closed)
| st_snode w : q_pc s i = SLoad w -> q_state s = Q_CLOSED ->
    (no_ub es -> close_exclusive es -> forall k, ~ In (ERetClose k) es) -> stale G es s i (SNode w)
| st_tcas v : (q_pc s i = TLoad \/ exists u, q_pc s i = TCas u) -> v = Q_EMPTY \/ v = Q_WAKING -> stale G es s i (TCas v)
| st_tlock v : (q_pc s i = TLoad \/ exists u, q_pc s i = TCas u) -> v <> Q_EMPTY -> v <> Q_WAKING ->
    (G es -> v = q_state s) -> stale G es s i (TLock v)
| st_cload w : q_pc s i = CLoad w -> stale G es s i (CLock w)
| st_dload : q_pc s i = DLoad -> stale G es s i DLock.

Inductive lrun (G : list qevent -> Prop) (debug : bool) : list qevent -> qsys -> Prop :=
| lrun_init : lrun G debug [] q_init
| lrun_step es s a s' e : lrun G debug es s -> qstep_sys debug s a = Some (s', e) -> lrun G debug (app_ev e es) s'
| lrun_stale es s i p' : lrun G debug es s -> stale G es s i p' -> lrun G debug es (with_pc s i p').

Lemma qrun_lrun G debug es s : qrun debug es s -> lrun G debug es s.
Proof. induction 1 as [|es s a s' e Hr IH Hs]; [constructor|]. exact (lrun_step G debug es s a s' e IH Hs). Qed.

(** Theorems about such executions hold of ordinary ones. *)
Definition any (_ : list qevent) : Prop := True.
Definition qrun_any debug es s (H : qrun debug es s) : lrun any debug es s := qrun_lrun any debug es s H.
Coercion qrun_any : qrun >-> lrun.

Ltac stales H := let w := fresh "w" in let v := fresh "v" in let p' := fresh "p'" in let E := fresh "E" in
  destruct H as [w E|w E H|w p' E H H'|w E H|w E H H'|v E H|v E H H' H''|w E|E];
  repeat match goal with K : q_pc _ _ = _ \/ _ |- _ => destruct K as [K|K] | K : exists _, _ |- _ => destruct K as [? K] end.

(** Where such a step leads from and to. *)
Lemma stale_holds G es s i p' : stale G es s i p' -> holds p' = holds (q_pc s i).
Proof. intros H. stales H; rewrite ?E; try reflexivity; destruct H' as [->| ->]; reflexivity. Qed.
Lemma stale_half G es s i p' : stale G es s i p' -> half p' = None /\ half (q_pc s i) = None.
Proof. intros H. stales H; rewrite ?E; try (split; reflexivity); destruct H' as [->| ->]; split; reflexivity. Qed.

Lemma qinv_stale G es s i p' : QInv es s -> stale G es s i p' -> QInv es (with_pc s i p').
Proof.
  intros HI H. pose proof (I_node _ _ HI i) as Hi. destruct (stale_half _ _ _ _ _ H) as [H1 H2]. pose proof (stale_holds _ _ _ _ _ H) as H3.
  unfold with_pc. change es with (app_ev None es).
  assert (Hg : q_phase s i = PGone \/ q_phase s i <> PGone) by (destruct (q_phase s i); auto; right; discriminate).
  apply (qinv_local es s i); auto.
  - left. auto.
  - stales H; rewrite ?E in *; cbn [node_ok] in *; try exact Hi; try (left; exact Hi); destruct H' as [->| ->]; exact Hi.
  - right. destruct Hg as [Hg|Hg]; [auto|right]. split; [|exact Hg]. stales H; rewrite ?E; reflexivity.
  - stales H; rewrite ?E in *; try discriminate; intros _; exact H.
  - stales H; try reflexivity; destruct H' as [->| ->]; reflexivity.
Qed.

Lemma qrun_inv {G} debug es s : lrun G debug es s -> no_ub es ->
  QInv es s /\ forall n, q_phase s n = PAbsent -> given n es = None.
Proof.
  induction 1 as [|es s a s' e Hr IH Hs|es s i p' Hr IH Hs]; intros Hu; [split; [exact qinv_init|reflexivity]|..].
  - assert (Hu0 : no_ub es) by (intros i Hi; apply (Hu i); destruct e; [right|]; exact Hi).
    destruct (IH Hu0) as [HI Hg]. clear IH.
    assert (Hab : forall n, q_phase s n = PAbsent -> ~ In n (members es s)).
    { intros n Hn Hin. apply (I_given _ _ HI) in Hin. destruct (proj2 Hin). auto. }
    destruct a as [i|i w|i w|i|i|i|i|i|i spur]; cbn [qstep_sys] in Hs.
    9:{ destruct (qinv_step debug es s i spur s' e HI Hs) as [HI' _]; [intros ->; apply (Hu i); now left|].
        split; [exact HI'|]. intros n Hn. destruct (step_given debug es s i spur s' e n HI Hs Hn) as [Hn' ->]. auto. }
    all: destruct (idle s i) eqn:E; [apply idle_pc in E|discriminate].
    all: pose proof (I_node _ _ HI i) as Hi; rewrite E in Hi; cbn [node_ok] in Hi.
    1-3,6-8: destruct (q_phase s i) eqn:Ep; try discriminate.
    all: injection Hs as <- <-.
    all: (split;
      [|intros n Hn; cbn [app_ev given]; apply Hg; cbn [q_phase with_pc with_mem with_phase] in Hn; try exact Hn; at_ i n; (discriminate || assumption)]).
    all: try solve [apply (qinv_new es s i); auto].
    all: try solve [apply qinv_call; auto; simpl; rewrite ?Ep; split; [auto|exact Hi]].
    all: try solve [apply qinv_call; auto].
    all: apply (qinv_phase es s i); simpl; auto.
  - destruct (IH Hu) as [HI Hg]. split; [exact (qinv_stale G es s i p' HI Hs)|exact Hg].
Qed.
