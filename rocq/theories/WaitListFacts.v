From Coq Require Import List Bool Arith NArith Lia.
From Verif Require Import WaitCellModel WaitList WaitListSpec.
Import ListNotations.

Lemma hset_same h n x : hset h n x n = x.
Proof. unfold hset. now rewrite Nat.eqb_refl. Qed.
Lemma hset_other h n x m : m <> n -> hset h n x m = h m.
Proof. intros H. unfold hset. now rewrite (proj2 (Nat.eqb_neq m n) H). Qed.

Ltac hcase m n := destruct (Nat.eq_dec m n) as [?|?]; [subst; rewrite ?hset_same in *|rewrite ?hset_other in * by assumption].

Lemma sn_next h n v m : n_next (set_next h n v m) = if Nat.eqb m n then v else n_next (h m).
Proof. unfold set_next, hset. destruct (Nat.eqb_spec m n); subst; reflexivity. Qed.
Lemma sn_prev h n v m : n_prev (set_next h n v m) = n_prev (h m).
Proof. unfold set_next, hset. destruct (Nat.eqb_spec m n); subst; reflexivity. Qed.
Lemma sn_state h n v m : n_state (set_next h n v m) = n_state (h m).
Proof. unfold set_next, hset. destruct (Nat.eqb_spec m n); subst; reflexivity. Qed.
Lemma sn_waker h n v m : n_waker (set_next h n v m) = n_waker (h m).
Proof. unfold set_next, hset. destruct (Nat.eqb_spec m n); subst; reflexivity. Qed.
Lemma sp_next h n v m : n_next (set_prev h n v m) = n_next (h m).
Proof. unfold set_prev, hset. destruct (Nat.eqb_spec m n); subst; reflexivity. Qed.
Lemma sp_prev h n v m : n_prev (set_prev h n v m) = if Nat.eqb m n then v else n_prev (h m).
Proof. unfold set_prev, hset. destruct (Nat.eqb_spec m n); subst; reflexivity. Qed.
Lemma sp_state h n v m : n_state (set_prev h n v m) = n_state (h m).
Proof. unfold set_prev, hset. destruct (Nat.eqb_spec m n); subst; reflexivity. Qed.
Lemma sp_waker h n v m : n_waker (set_prev h n v m) = n_waker (h m).
Proof. unfold set_prev, hset. destruct (Nat.eqb_spec m n); subst; reflexivity. Qed.
Lemma sw_next h n v m : n_next (set_waker h n v m) = n_next (h m).
Proof. unfold set_waker, hset. destruct (Nat.eqb_spec m n); subst; reflexivity. Qed.
Lemma sw_prev h n v m : n_prev (set_waker h n v m) = n_prev (h m).
Proof. unfold set_waker, hset. destruct (Nat.eqb_spec m n); subst; reflexivity. Qed.
Lemma sw_state h n v m : n_state (set_waker h n v m) = n_state (h m).
Proof. unfold set_waker, hset. destruct (Nat.eqb_spec m n); subst; reflexivity. Qed.
Lemma sw_waker h n v m : n_waker (set_waker h n v m) = if Nat.eqb m n then v else n_waker (h m).
Proof. unfold set_waker, hset. destruct (Nat.eqb_spec m n); subst; reflexivity. Qed.
Lemma ss_next h n v m : n_next (set_state h n v m) = n_next (h m).
Proof. unfold set_state, hset. destruct (Nat.eqb_spec m n); subst; reflexivity. Qed.
Lemma ss_prev h n v m : n_prev (set_state h n v m) = n_prev (h m).
Proof. unfold set_state, hset. destruct (Nat.eqb_spec m n); subst; reflexivity. Qed.
Lemma ss_waker h n v m : n_waker (set_state h n v m) = n_waker (h m).
Proof. unfold set_state, hset. destruct (Nat.eqb_spec m n); subst; reflexivity. Qed.
Lemma ss_state h n v m : n_state (set_state h n v m) = if Nat.eqb m n then v else n_state (h m).
Proof. unfold set_state, hset. destruct (Nat.eqb_spec m n); subst; reflexivity. Qed.

Global Hint Rewrite sn_next sn_prev sn_state sn_waker sp_next sp_prev sp_state sp_waker
  sw_next sw_prev sw_state sw_waker ss_next ss_prev ss_waker ss_state : mem.

Lemma set_other h n m :
  m <> n -> (forall v, set_next h n v m = h m) /\ (forall v, set_prev h n v m = h m) /\ (forall v, set_waker h n v m = h m) /\ (forall v, set_state h n v m = h m).
Proof. intros H. repeat split; intros v; apply hset_other; exact H. Qed.

Lemma last_or_app a b d : last_or (a ++ b) d = last_or b (last_or a d).
Proof. revert d. induction a; simpl; auto. Qed.

Lemma linked_app h o a b n : linked h o (a ++ b) n <-> linked h o a (hd_or b n) /\ linked h (last_or a o) b n.
Proof.
  revert o. induction a as [|x a IH]; simpl; intros o; [tauto|].
  rewrite IH. destruct a; simpl; [destruct b; simpl|]; tauto.
Qed.

Lemma linked_frame h h' o q n :
  (forall x, In x q -> n_next (h' x) = n_next (h x) /\ n_prev (h' x) = n_prev (h x)) -> linked h o q n -> linked h' o q n.
Proof.
  revert o. induction q as [|x q IH]; simpl; intros o H; [tauto|]. intros (H1 & H2 & H3).
  destruct (H x (or_introl eq_refl)) as [E1 E2]. rewrite E1, E2. repeat split; auto.
Qed.

(** Redirecting the newest one's [prev]. *)
Lemma linked_set_last h o a n n' x :
  NoDup a -> linked h o a n -> last_or a None = Some x -> linked (set_prev h x n') o a n'.
Proof.
  intros Hd Hl Hx. destruct (exists_last (l := a)) as (a' & y & ->); [intros ->; discriminate|].
  rewrite last_or_app in Hx. simpl in Hx. injection Hx as ->.
  apply linked_app in Hl as [Hl1 Hl2]. apply linked_app. simpl in *.
  apply NoDup_remove in Hd as [Hd Hni]. rewrite app_nil_r in *. split.
  - eapply linked_frame; [|exact Hl1]. intros z Hz. autorewrite with mem.
    destruct (Nat.eqb_spec z x); [subst; contradiction|auto].
  - autorewrite with mem. rewrite Nat.eqb_refl. intuition.
Qed.

(** Redirecting the oldest one's [next]. *)
Lemma linked_set_first h o o' x b n :
  NoDup (x :: b) -> linked h o (x :: b) n -> linked (set_next h x o') o' (x :: b) n.
Proof.
  intros Hd (H1 & H2 & H3). inversion Hd as [|? ? Hni _]; subst. simpl. autorewrite with mem. rewrite Nat.eqb_refl.
  repeat split; auto. eapply linked_frame; [|exact H3]. intros z Hz. autorewrite with mem.
  destruct (Nat.eqb_spec z x); [subst; contradiction|auto].
Qed.

Lemma last_or_some q x : q <> [] -> exists y, last_or q x = Some y /\ In y q.
Proof.
  intros H. destruct (exists_last H) as (a & y & ->). exists y. rewrite last_or_app. simpl.
  split; [reflexivity|]. apply in_or_app. right. now left.
Qed.

Lemma rep_tail h l q : represents h l q -> l_tail l = hd_or q None.
Proof. intros (_ & _ & H & _). exact H. Qed.

Lemma rep_empty h l q : represents h l q -> (list_is_empty l = true <-> q = []).
Proof.
  intros (_ & _ & H1 & H2). unfold list_is_empty. rewrite H1, H2. destruct q as [|x q]; simpl.
  - split; auto.
  - destruct (last_or q (Some x)) eqn:E; split; intros H; try discriminate.
Qed.

Lemma rep_new h : represents h list_new [].
Proof. repeat split. constructor. Qed.

Lemma rep_frame h h' l q :
  (forall x, In x q -> n_next (h' x) = n_next (h x) /\ n_prev (h' x) = n_prev (h x)) -> represents h l q -> represents h' l q.
Proof. intros H (H1 & H2 & H3). split; [exact H1|]. split; [|exact H3]. eapply linked_frame; eassumption. Qed.

Lemma NoDup_snoc (q : list nat) n : NoDup q -> ~ In n q -> NoDup (q ++ [n]).
Proof.
  intros H1 H2. induction q as [|x q IH]; simpl; [constructor; [tauto|constructor]|].
  inversion H1; subst. constructor.
  - rewrite in_app_iff. simpl in *. intuition.
  - apply IH; [assumption|]. intros H. apply H2. now right.
Qed.

Theorem enqueue_spec h l q n h' l' :
  represents h l q -> ~ In n q -> enqueue h l n = (h', l') ->
  represents h' l' (q ++ [n]) /\ only_links h h' n q /\ n_waker (h' n) = n_waker (h n).
Proof.
  intros (Hd & Hl & Ht & Hh) Hni E. unfold enqueue in E. injection E as Eh El.
  assert (Hne : forall x, In x q -> x <> n) by (intros x Hx ->; contradiction).
  assert (Hl1 : linked (set_prev (set_next h n (l_head l)) n None) None q None).
  { eapply linked_frame; [|exact Hl]. intros x Hx. autorewrite with mem.
    rewrite (proj2 (Nat.eqb_neq x n) (Hne x Hx)). auto. }
  split; [|split].
  - split; [now apply NoDup_snoc|]. rewrite <- El. simpl.
    rewrite last_or_app. simpl. split.
    + apply linked_app. simpl. split.
      * rewrite <- Eh. destruct (l_head l) as [x|] eqn:Ex.
        -- eapply linked_set_last; eauto.
        -- destruct q; [exact I|]. destruct (last_or_some (n0 :: q) None ltac:(discriminate)) as (y & Hy & _). congruence.
      * rewrite <- Eh, Hh. split; [|split; [|exact I]].
        -- destruct (last_or q None); autorewrite with mem; rewrite Nat.eqb_refl; reflexivity.
        -- destruct (last_or q None) as [x|] eqn:Ex; autorewrite with mem; rewrite Nat.eqb_refl; [|reflexivity].
           destruct (Nat.eqb_spec n x); [|reflexivity]. subst x. exfalso.
           destruct q; [discriminate|]. destruct (last_or_some (n0 :: q) None ltac:(discriminate)) as (y & Hy & Hin). congruence.
    + split; [|reflexivity]. rewrite Ht. destruct q; reflexivity.
  - rewrite <- Eh. split; [|split].
    + intros m. destruct (l_head l); autorewrite with mem; reflexivity.
    + intros m Hm. destruct (l_head l); autorewrite with mem; reflexivity.
    + intros m Hm. simpl in Hm. assert (Hmn : m <> n) by (intros ->; apply Hm; now left).
      assert (E1 : set_prev (set_next h n (l_head l)) n None m = h m).
      { destruct (set_other (set_next h n (l_head l)) n m Hmn) as (_ & -> & _).
        now destruct (set_other h n m Hmn) as (-> & _). }
      destruct (l_head l) as [x|] eqn:Ex; [|exact E1].
      destruct (Nat.eq_dec m x) as [->|Hx].
      * exfalso. apply Hm. right. destruct q; [discriminate|].
        destruct (last_or_some (n0 :: q) None ltac:(discriminate)) as (y & Hy & Hin). congruence.
      * destruct (set_other (set_prev (set_next h n (Some x)) n None) x m Hx) as (_ & -> & _). exact E1.
  - rewrite <- Eh. destruct (l_head l); autorewrite with mem; reflexivity.
Qed.

Theorem dequeue_spec h l q n h' l' w :
  represents h l (n :: q) -> dequeue_links h l n = (h', l', w) ->
  represents h' l' q /\ only_links h h' n q /\ w = n_waker (h n) /\ n_waker (h' n) = None /\ detached h' n.
Proof.
  intros (Hd & (Hn1 & Hn2 & Hl) & Ht & Hh) E. unfold dequeue_links in E. rewrite Hn2 in E.
  inversion Hd as [|? ? Hni Hd']; subst.
  set (h1 := set_waker (set_prev (set_next h n None) n None) n None) in *.
  assert (H1 : forall m, m <> n -> h1 m = h m).
  { intros m Hm. unfold h1. destruct (set_other (set_prev (set_next h n None) n None) n m Hm) as (_ & _ & -> & _).
    destruct (set_other (set_next h n None) n m Hm) as (_ & -> & _). now destruct (set_other h n m Hm) as (-> & _). }
  assert (Hnn : n_next (h1 n) = None /\ n_prev (h1 n) = None /\ n_waker (h1 n) = None /\ n_state (h1 n) = n_state (h n)).
  { unfold h1. autorewrite with mem. rewrite Nat.eqb_refl. auto. }
  assert (Hs : forall m, n_state (h1 m) = n_state (h m)).
  { intros m. destruct (Nat.eq_dec m n) as [->|Hm]; [apply Hnn|now rewrite H1]. }
  assert (Hl1 : linked h1 (Some n) q None).
  { eapply linked_frame; [|exact Hl]. intros x Hx. rewrite H1; [auto|]. intros ->. contradiction. }
  destruct q as [|p q]; simpl in E; injection E as <- <- <-.
  - split; [repeat split; constructor|]. split; [|split; [reflexivity|split; [apply Hnn|split; apply Hnn]]].
    split; [exact Hs|]. split; [intros m Hm; now rewrite H1|]. intros m Hm. apply H1. intros ->. apply Hm. now left.
  - assert (Hpn : n <> p) by (intros ->; apply Hni; now left).
    split; [|split; [|split; [reflexivity|]]].
    + split; [exact Hd'|]. split; [eapply linked_set_first; eassumption|]. simpl in *. auto.
    + split; [|split].
      * intros m. autorewrite with mem. apply Hs.
      * intros m Hm. autorewrite with mem. now rewrite H1.
      * intros m Hm. simpl in Hm. destruct (set_other h1 p m ltac:(intros ->; apply Hm; simpl; auto)) as (-> & _).
        apply H1. intros ->. tauto.
    + destruct (set_other h1 p n Hpn) as (E1 & _). unfold detached. rewrite E1. tauto.
Qed.

Lemma without_notin n q : ~ In n q -> without n q = q.
Proof.
  unfold without. induction q as [|x q IH]; simpl; [reflexivity|]. intros H.
  destruct (Nat.eqb_spec x n); simpl; [tauto|]. f_equal. apply IH. tauto.
Qed.

Lemma without_split n a b : NoDup (a ++ n :: b) -> without n (a ++ n :: b) = a ++ b.
Proof.
  intros Hd. pose proof (NoDup_remove_2 _ _ _ Hd) as Hni. rewrite in_app_iff in Hni.
  unfold without. rewrite filter_app. simpl. rewrite Nat.eqb_refl. simpl.
  fold (without n a). fold (without n b). rewrite !without_notin by tauto. reflexivity.
Qed.

Lemma without_in n q x : In x (without n q) <-> In x q /\ x <> n.
Proof.
  unfold without. rewrite filter_In. destruct (Nat.eqb_spec x n); simpl; intuition congruence.
Qed.

Lemma hd_or_in b x : hd_or b None = Some x -> In x b.
Proof. destruct b; simpl; [discriminate|]. intros H. injection H as ->. now left. Qed.
Lemma last_or_in a x : last_or a None = Some x -> In x a.
Proof.
  intros H. destruct a as [|y a]; [discriminate|].
  destruct (last_or_some (y :: a) None ltac:(discriminate)) as (z & Hz & Hin). congruence.
Qed.

Lemma opt_is_true o n : opt_is o n = true <-> o = Some n.
Proof. unfold opt_is. destruct o; [rewrite Nat.eqb_eq|]; split; congruence. Qed.

Theorem remove_spec h l q n h' l' ok :
  represents h l q -> In n q \/ detached h n -> list_remove h l n = (h', l', ok) ->
  represents h' l' (without n q) /\ only_links h h' n q /\ n_waker (h' n) = n_waker (h n) /\
  detached h' n /\ (In n q -> ok = true).
Proof.
  intros Hr Hin E. destruct (in_dec Nat.eq_dec n q) as [Hq|Hq].
  - destruct Hr as (Hd & Hl & Ht & Hh). apply in_split in Hq as (a & b & ->).
    rewrite without_split by exact Hd.
    pose proof (NoDup_remove_1 _ _ _ Hd) as Hd'. pose proof (NoDup_remove_2 _ _ _ Hd) as Hni. rewrite in_app_iff in Hni.
    assert (Hda : NoDup a) by (clear -Hd'; induction a as [|y a IH]; [constructor|]; inversion Hd'; subst; constructor;
      [rewrite in_app_iff in *; tauto|auto]).
    assert (Hdb : NoDup b) by (clear -Hd'; induction a as [|y a IH]; [exact Hd'|]; inversion Hd'; subst; auto).
    assert (Hdis : forall x, In x a -> ~ In x b).
    { clear -Hd'. induction a as [|y a IH]; simpl; [tauto|]. inversion Hd' as [|? ? H1 H2]; subst. rewrite in_app_iff in H1.
      intros x [<-|Hx]; [tauto|auto]. }
    apply linked_app in Hl as [Hla Hlb]. simpl in Hla, Hlb. destruct Hlb as (Hn1 & Hn2 & Hlb).
    rewrite last_or_app in Hh. simpl in Hh.
    unfold list_remove in E. rewrite Hn1, Hn2 in E.
    set (h1 := set_next (set_prev h n None) n None) in *.
    assert (H1 : forall m, m <> n -> h1 m = h m).
    { intros m Hm. unfold h1. destruct (set_other (set_prev h n None) n m Hm) as (-> & _).
      now destruct (set_other h n m Hm) as (_ & -> & _). }
    assert (Hnn : n_next (h1 n) = None /\ n_prev (h1 n) = None /\ n_waker (h1 n) = n_waker (h n) /\ n_state (h1 n) = n_state (h n)).
    { unfold h1. autorewrite with mem. rewrite Nat.eqb_refl. auto. }
    assert (Hs : forall m, n_state (h1 m) = n_state (h m)).
    { intros m. destruct (Nat.eq_dec m n) as [->|Hm]; [apply Hnn|now rewrite H1]. }
    assert (Hw : forall m, n_waker (h1 m) = n_waker (h m)).
    { intros m. destruct (Nat.eq_dec m n) as [->|Hm]; [apply Hnn|now rewrite H1]. }
    assert (Hla1 : linked h1 None a (Some n)).
    { eapply linked_frame; [|exact Hla]. intros x Hx. rewrite H1; [auto|]. intros ->. tauto. }
    assert (Hlb1 : linked h1 (Some n) b None).
    { eapply linked_frame; [|exact Hlb]. intros x Hx. rewrite H1; [auto|]. intros ->. tauto. }
    (* the first half of the code: b's oldest *)
    set (h2 := match hd_or b None with Some p => set_next h1 p (last_or a None) | None => h1 end) in *.
    assert (Hlb2 : linked h2 (last_or a None) b None).
    { unfold h2. destruct b as [|p b]; [exact I|]. simpl hd_or. eapply linked_set_first; [exact Hdb|exact Hlb1]. }
    assert (H2 : forall m, n_next (h2 m) = (if opt_is (hd_or b None) m then last_or a None else n_next (h1 m)) /\
                 n_prev (h2 m) = n_prev (h1 m) /\ n_waker (h2 m) = n_waker (h1 m) /\ n_state (h2 m) = n_state (h1 m) /\
                 (opt_is (hd_or b None) m = false -> h2 m = h1 m)).
    { intros m. unfold h2, opt_is. destruct (hd_or b None) as [p|]; autorewrite with mem; [|auto].
      rewrite (Nat.eqb_sym m p). repeat split. intros Hm. apply Nat.eqb_neq in Hm.
      destruct (set_other h1 p m ltac:(congruence)) as (-> & _). reflexivity. }
    assert (Hla2 : linked h2 None a (Some n)).
    { eapply linked_frame; [|exact Hla1]. intros x Hx. destruct (H2 x) as (E1 & E2 & _). rewrite E1, E2.
      destruct (opt_is (hd_or b None) x) eqn:Ex; [|auto]. apply opt_is_true, hd_or_in in Ex. destruct (Hdis x Hx Ex). }
    set (l2 := match hd_or b None with Some _ => l | None => if opt_is (l_head l) n then mkList (last_or a None) (l_tail l) else l end) in *.
    set (ok1 := match hd_or b None with Some p => opt_is (n_next (h1 p)) n | None => true end) in *.
    assert (Hok1 : ok1 = true).
    { unfold ok1. destruct b as [|p b]; [reflexivity|]. simpl. apply opt_is_true. apply Hlb1. }
    assert (E' : match last_or a None with
                 | Some x => (set_prev h2 x (hd_or b None), l2, ok1 && opt_is (n_prev (h2 x)) n)
                 | None => (h2, (if opt_is (l_tail l2) n then mkList (l_head l2) (hd_or b None) else l2), ok1)
                 end = (h', l', ok)).
    { rewrite <- E. unfold h2, l2, ok1. destruct (hd_or b None); reflexivity. }
    clear E. rename E' into E.
    assert (Hl2h : l_head l2 = last_or b (last_or a None)).
    { unfold l2. destruct b as [|p b]; simpl in *; [|exact Hh]. rewrite Hh. simpl. rewrite Nat.eqb_refl. reflexivity. }
    assert (Hl2t : l_tail l2 = l_tail l).
    { unfold l2. destruct (hd_or b None); [reflexivity|]. destruct (opt_is (l_head l) n); reflexivity. }
    assert (Hfin : linked h' None a (hd_or b None) /\ linked h' (last_or a None) b None /\
      l_tail l' = hd_or (a ++ b) None /\ l_head l' = last_or b (last_or a None) /\ ok = true /\
      (forall m, n_waker (h' m) = n_waker (h2 m) /\ n_state (h' m) = n_state (h2 m) /\ n_next (h' m) = n_next (h2 m)) /\
      (forall m, ~ In m a -> h' m = h2 m)).
    { destruct (last_or a None) as [x|] eqn:Ea.
      - injection E as <- <- <-. pose proof (last_or_in _ _ Ea) as Hxa.
        split; [eapply linked_set_last; eauto|]. split.
        { eapply linked_frame; [|exact Hlb2]. intros y Hy. autorewrite with mem.
          destruct (Nat.eqb_spec y x); [subst; destruct (Hdis x Hxa Hy)|auto]. }
        split; [rewrite Hl2t, Ht; destruct a; [discriminate|reflexivity]|].
        split; [exact Hl2h|]. split.
        { rewrite Hok1. simpl. apply opt_is_true. destruct (H2 x) as (_ & -> & _).
          destruct (exists_last (l := a)) as (a' & y & Ea'); [intros ->; discriminate|]. subst a.
          rewrite last_or_app in Ea. simpl in Ea. injection Ea as ->.
          apply linked_app in Hla1 as [_ (_ & H & _)]. exact H. }
        split; [intros m; autorewrite with mem; auto|]. intros m Hm.
        destruct (set_other h2 x m ltac:(intros ->; contradiction)) as (_ & -> & _). reflexivity.
      - destruct a as [|y a]; [|destruct (last_or_some (y :: a) None ltac:(discriminate)) as (z & Hz & _); congruence].
        simpl in *. rewrite Hl2t, Ht in E. simpl in E. rewrite Nat.eqb_refl in E. injection E as <- <- <-.
        simpl. auto 10. }
    destruct Hfin as (F1 & F2 & F3 & F4 & F5 & F6 & F7).
    assert (Hnb : opt_is (hd_or b None) n = false).
    { destruct (opt_is (hd_or b None) n) eqn:Ex; [|reflexivity]. apply opt_is_true, hd_or_in in Ex. tauto. }
    split; [|split; [|split; [|split]]].
    + split; [exact Hd'|]. split; [apply linked_app; split; assumption|]. split; [exact F3|].
      rewrite last_or_app. exact F4.
    + split; [|split].
      * intros m. destruct (F6 m) as (_ & -> & _). destruct (H2 m) as (_ & _ & _ & -> & _). apply Hs.
      * intros m _. destruct (F6 m) as (-> & _ & _). destruct (H2 m) as (_ & _ & -> & _). apply Hw.
      * intros m Hm. simpl in Hm. rewrite in_app_iff in Hm. simpl in Hm. rewrite F7 by tauto.
        destruct (H2 m) as (_ & _ & _ & _ & E2). rewrite E2; [apply H1; intros ->; apply Hm; now left|].
        destruct (opt_is (hd_or b None) m) eqn:Ex; [|reflexivity]. apply opt_is_true, hd_or_in in Ex. tauto.
    + destruct (F6 n) as (-> & _ & _). destruct (H2 n) as (_ & _ & -> & _). apply Hnn.
    + unfold detached. rewrite F7 by tauto. destruct (H2 n) as (_ & _ & _ & _ & E2). rewrite E2 by exact Hnb. tauto.
    + intros _. exact F5.
  - destruct Hin as [?|[Hx1 Hx2]]; [contradiction|]. rewrite without_notin by exact Hq.
    unfold list_remove in E. rewrite Hx1, Hx2 in E.
    destruct Hr as (Hd & Hl & Ht & Hh).
    assert (Eh : opt_is (l_head l) n = false).
    { destruct (opt_is (l_head l) n) eqn:Ex; [|reflexivity]. apply opt_is_true in Ex. rewrite Hh in Ex. apply last_or_in in Ex. contradiction. }
    rewrite Eh in E.
    assert (Et : opt_is (l_tail l) n = false).
    { destruct (opt_is (l_tail l) n) eqn:Ex; [|reflexivity]. apply opt_is_true in Ex. rewrite Ht in Ex. apply hd_or_in in Ex. contradiction. }
    rewrite Et in E. injection E as <- <- <-.
    assert (H1 : forall m, m <> n -> set_next (set_prev h n None) n None m = h m).
    { intros m Hm. destruct (set_other (set_prev h n None) n m Hm) as (-> & _).
      now destruct (set_other h n m Hm) as (_ & -> & _). }
    split; [|split; [|split; [|split]]].
    + apply (rep_frame h); [|repeat split; assumption]. intros x Hx. rewrite H1; [auto|]. intros ->. contradiction.
    + split; [|split].
      * intros m. autorewrite with mem. reflexivity.
      * intros m _. autorewrite with mem. reflexivity.
      * intros m Hm. apply H1. intros ->. apply Hm. now left.
    + autorewrite with mem. reflexivity.
    + split; autorewrite with mem; rewrite Nat.eqb_refl; reflexivity.
    + contradiction.
Qed.
