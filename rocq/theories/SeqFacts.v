(** A ThingBuf driven by one thread refines the sequential specification. *)
From Coq Require Import List Bool Arith NArith Lia.
From Coq Require Import ZifyN ZifyNat ZifyBool.
From Verif Require Import Word QueueSpec CoreModel CoreArith CoreInv CoreStep History HistoryFacts
  SeqModel SoloSpec Solo SeqSpec.
Import ListNotations.

Lemma set_nth_mid {A} (l1 : list A) x y l2 : set_nth (l1 ++ x :: l2) (length l1) y = l1 ++ y :: l2.
Proof. induction l1; simpl; congruence. Qed.

Definition unown {T} (l : list (entry T)) : Prop := forall e, In e l -> owner e = None.

Lemma own_mid {T} (l1 : list (entry T)) x l2 p e i : unown l1 -> unown l2 ->
  nth_error (l1 ++ x :: l2) p = Some e -> owner e = Some i -> p = length l1 /\ e = x.
Proof.
  intros H1 H2 He Ho. destruct (Nat.lt_trichotomy p (length l1)) as [Hp|[Hp|Hp]].
  - rewrite nth_error_app1 in He by auto. apply nth_error_In in He. rewrite (H1 _ He) in Ho. discriminate.
  - subst. rewrite nth_error_app2, Nat.sub_diag in He by auto. simpl in He. split; congruence.
  - rewrite nth_error_app2 in He by lia. destruct (p - length l1) as [|m] eqn:E; [lia|]. simpl in He.
    apply nth_error_In in He. rewrite (H2 _ He) in Ho. discriminate.
Qed.

Lemma unown_nil {T} : @unown T [].
Proof. intros e []. Qed.

Section SeqFacts.
  Context {T : Type}.
  Variables (W : N) (cap : nat) (pol : policy T).
  Hypothesis Hwf : wf W cap.
  Notation P := (core_new W (N.of_nat cap)).
  Notation enc := (enc W cap).
  Notation ifld := (ifield cap).
  Notation SInv := (SInv (T := T) W cap).
  Notation call := (call P pol).
  Notation B := (slack W cap).
  Notation fresh := (fresh_pos W cap).
  Notation sstep := (sstep cap fresh (new_element pol) (recycle pol)).
  Notation explains := (explains cap fresh (new_element pol) (recycle pol)).

  (** ** Determinism of the specification *)
  Definition not_closing (e : event T) : Prop := match e with Closing _ _ => False | _ => True end.

  Lemma sstep_det q e q1 q2 :
    (forall p p' e e' i, nth_error (qlog q) p = Some e -> nth_error (qlog q) p' = Some e' ->
       owner e = Some i -> owner e' = Some i -> p = p') ->
    not_closing e -> sstep q e q1 -> sstep q e q2 -> q1 = q2.
  Proof.
    intros Hu Hn H1 H2.
    destruct e; simpl in Hn; try tauto; inversion H1; subst; inversion H2; subst; auto;
      match goal with
      | A : nth_error (qlog q) ?p = Some ?x, B : nth_error (qlog q) ?p' = Some ?y |- _ =>
          assert (p = p') by (eapply (Hu p p' x y); eauto; reflexivity); subst p'; congruence
      end.
  Qed.

  Lemma explains_inv e es l : explains (e :: es) l -> exists q q' hist, l = q' :: q :: hist /\
    explains es (q :: hist) /\ sstep q e q' /\
    exists q0, In q0 (since_call (agent_of e) es (q :: hist)) /\ observes cap q0 e.
  Proof. inversion 1; subst. eauto 10. Qed.

  Lemma explains_det es : Forall not_closing es -> forall q1 h1 q2 h2,
    explains es (q1 :: h1) -> explains es (q2 :: h2) -> q1 = q2.
  Proof.
    induction es as [|e es IH]; intros HF q1 h1 q2 h2 H1 H2.
    - inversion H1; inversion H2; congruence.
    - apply Forall_cons_iff in HF as [He HF].
      apply explains_inv in H1 as (a & a' & l & E & Hx & Hs & _). injection E as -> ->.
      apply explains_inv in H2 as (b & b' & l' & E & Hy & Ht & _). injection E as -> ->.
      assert (a = b) by eauto. subst b. eapply sstep_det; eauto.
      eapply h_uniq. eapply explains_hist; eauto.
  Qed.

  (** ** Histories of one agent are calm *)
  Definition solo (es : list (event T)) : Prop := Forall (fun e => agent_of e = 0) es.

  Lemma calm_solo es : solo es -> calm B es.
  Proof.
    assert (HB : (0 < B)%N).
    { pose proof (ngen_ge2 _ _ Hwf). pose proof (cap_pos _ _ Hwf). unfold slack. nia. }
    induction es as [|e es IH]; intros HF; [exact I|]. pose proof HF as HF0.
    apply Forall_cons_iff in HF as [He HF]. split; auto.
    intros i [o Hf].
    assert (Hi : i = 0).
    { apply find_some in Hf as [Hin Hf]. eapply Forall_forall in Hin; [|exact HF0]. simpl in Hin. apply Nat.eqb_eq in Hf. congruence. }
    subst i. cbn [find] in Hf. rewrite He in Hf. simpl in Hf. injection Hf as ->. simpl. auto.
  Qed.

  (** ** Quiet states *)
  Definition shape (q : queue T) (s : sq) : Prop :=
    qclosed q = false /\ exists rel, qlog q = map Released rel ++ map Published (sq_items s) /\
      length rel = qtaken q /\ sq_pushed s = length (qlog q) /\ sq_free s = skipn (sq_pushed s - cap) rel.

  Definition Seq (x : tb (T := T)) (s : sq) : Prop :=
    run P pol (snd x) (fst x) /\ solo (snd x) /\ Forall not_closing (snd x) /\
    (forall j, st_agents (fst x) j = Idle) /\
    exists q hist, explains (snd x) (q :: hist) /\ shape q s.

  Lemma unown_released l : unown (map (@Released T) l).
  Proof. intros e He. apply in_map_iff in He as (v & <- & _). reflexivity. Qed.
  Lemma unown_published l : unown (map (@Published T) l).
  Proof. intros e He. apply in_map_iff in He as (v & <- & _). reflexivity. Qed.
  Lemma unown_app (l1 l2 : list (entry T)) : unown l1 -> unown l2 -> unown (l1 ++ l2).
  Proof. intros H1 H2 e He. apply in_app_iff in He as [He|He]; auto. Qed.

  Lemma Seq_init : Seq (tb_init P) sq_empty.
  Proof.
    split; [constructor|]. split; [constructor|]. split; [constructor|]. split; [reflexivity|].
    exists empty_queue, []. split; [constructor|]. split; [reflexivity|]. exists []. repeat split.
  Qed.

  (** The abstract queue of a quiet state, with its invariant. *)
  Lemma Seq_SInv x s : Seq x s -> exists q hist g, explains (snd x) (q :: hist) /\ shape q s /\
    SInv (st_core (fst x)) (st_agents (fst x)) q g.
  Proof.
    intros (Hr & Hso & Hnc & Hid & q & hist & He & Hsh).
    destruct (run_good _ _ _ Hwf _ _ Hr (calm_solo _ Hso)) as (q' & hist' & g & HI & HE).
    assert (q' = q) by (eapply explains_det; eauto). subst q'.
    exists q, hist, g. split; auto. split; auto. apply HI.
  Qed.

  Lemma Seq_next x es q hist s s' q' :
    explains es (q :: hist) ->
    run P pol (snd x) (fst x) -> solo (snd x) -> Forall not_closing (snd x) ->
    (forall j, st_agents (fst x) j = Idle) ->
    (forall l, explains (snd x) l -> exists l', l = q' :: l') -> shape q s -> shape q' s' -> Seq x s'.
  Proof.
    intros He Hr Hso Hnc Hid Hq Hsh Hsh'. split; auto. split; auto. split; auto. split; auto.
    destruct (run_good _ _ _ Hwf _ _ Hr (calm_solo _ Hso)) as (q2 & hist' & g & HI & HE).
    destruct (Hq _ HE) as [l' [= -> ->]]. eauto.
  Qed.

  (** ** Effects of whole operations on the log *)
  Lemma invoke_eff q o q' : sstep q (Invoke 0 o) q' -> q' = q.
  Proof. inversion 1; auto. Qed.
  Lemma quiet_eff q e q' : match e with RetFull _ | RetEmpty _ | RetLen _ _ => True | _ => False end ->
    sstep q e q' -> q' = q.
  Proof. intros H. destruct e; try tauto; inversion 1; auto. Qed.

  Lemma reserve_eff q q' : sstep q (Reserve 0) q' -> qlog q' = qlog q ++ [Reserved 0] /\ qtaken q' = qtaken q /\ qclosed q' = false.
  Proof. inversion 1; simpl; auto. Qed.
  Lemma handout_eff l1 q v q' e : unown l1 -> qlog q = l1 ++ [Reserved 0] ->
    (e = HandOut 0 v \/ exists l, e = Overwrite 0 l v) -> sstep q e q' ->
    qlog q' = l1 ++ [Filling 0 v] /\ qtaken q' = qtaken q /\ qclosed q' = qclosed q.
  Proof.
    intros Hu El He Hs.
    assert (HX : exists p, nth_error (qlog q) p = Some (Reserved 0) /\ q' = set_entry q p (Filling 0 v)).
    { destruct He as [->|[l ->]]; inversion Hs; subst; eauto. }
    destruct HX as (p & Hp & ->). rewrite El in Hp.
    destruct (own_mid _ _ _ _ _ 0 Hu unown_nil Hp eq_refl) as [-> _].
    simpl. rewrite El, set_nth_mid. auto.
  Qed.
  Lemma wrote_inv q i v q' : sstep q (Wrote i v) q' -> exists p u,
    (nth_error (qlog q) p = Some (Filling i u) /\ q' = set_entry q p (Filling i v)) \/
    (nth_error (qlog q) p = Some (Held i u) /\ q' = set_entry q p (Held i v)).
  Proof. inversion 1; subst; eauto 8. Qed.
  Lemma commit_inv' q i v q' : sstep q (Commit i v) q' -> exists p,
    nth_error (qlog q) p = Some (Filling i v) /\ q' = set_entry q p (Published v).
  Proof. inversion 1; subst; eauto. Qed.
  Lemma release_inv' q i v q' : sstep q (Release i v) q' -> exists p,
    nth_error (qlog q) p = Some (Held i v) /\ q' = set_entry q p (Released v).
  Proof. inversion 1; subst; eauto. Qed.

  Lemma wrote_push_eff l1 q u v q' : unown l1 -> qlog q = l1 ++ [Filling 0 u] -> sstep q (Wrote 0 v) q' ->
    qlog q' = l1 ++ [Filling 0 v] /\ qtaken q' = qtaken q /\ qclosed q' = qclosed q.
  Proof.
    intros Hu El Hs. apply wrote_inv in Hs as (p & w & [[Hp ->]|[Hp ->]]); rewrite El in Hp;
      destruct (own_mid _ _ _ _ _ 0 Hu unown_nil Hp eq_refl) as [-> E]; [|discriminate].
    simpl. rewrite El, set_nth_mid. auto.
  Qed.
  Lemma commit_eff l1 q u v q' : unown l1 -> qlog q = l1 ++ [Filling 0 u] -> sstep q (Commit 0 v) q' ->
    qlog q' = l1 ++ [Published v] /\ qtaken q' = qtaken q /\ qclosed q' = qclosed q.
  Proof.
    intros Hu El Hs. apply commit_inv' in Hs as (p & Hp & ->). rewrite El in Hp.
    destruct (own_mid _ _ _ _ _ 0 Hu unown_nil Hp eq_refl) as [-> E].
    simpl. rewrite El, set_nth_mid. auto.
  Qed.
  Lemma take_eff l1 u l2 q v q' : length l1 = qtaken q -> qlog q = l1 ++ u :: l2 -> sstep q (Take 0 v) q' ->
    qlog q' = l1 ++ Held 0 v :: l2 /\ qtaken q' = S (qtaken q) /\ qclosed q' = qclosed q.
  Proof. intros Hl El Hs. inversion Hs; subst; simpl. rewrite El, <- Hl, set_nth_mid. auto. Qed.
  Lemma wrote_pop_eff l1 u l2 q v q' : unown l1 -> unown l2 -> qlog q = l1 ++ Held 0 u :: l2 -> sstep q (Wrote 0 v) q' ->
    qlog q' = l1 ++ Held 0 v :: l2 /\ qtaken q' = qtaken q /\ qclosed q' = qclosed q.
  Proof.
    intros Hu Hu2 El Hs. apply wrote_inv in Hs as (p & w & [[Hp ->]|[Hp ->]]); rewrite El in Hp;
      destruct (own_mid _ _ _ _ _ 0 Hu Hu2 Hp eq_refl) as [-> E]; [discriminate|].
    simpl. rewrite El, set_nth_mid. auto.
  Qed.
  Lemma release_eff l1 u l2 q v q' : unown l1 -> unown l2 -> qlog q = l1 ++ Held 0 u :: l2 -> sstep q (Release 0 v) q' ->
    qlog q' = l1 ++ Released v :: l2 /\ qtaken q' = qtaken q /\ qclosed q' = qclosed q.
  Proof.
    intros Hu Hu2 El Hs. apply release_inv' in Hs as (p & Hp & ->). rewrite El in Hp.
    destruct (own_mid _ _ _ _ _ 0 Hu Hu2 Hp eq_refl) as [-> E].
    simpl. rewrite El, set_nth_mid. auto.
  Qed.

  Lemma queue_eq (q q' : queue T) : qlog q = qlog q' -> qtaken q = qtaken q' -> qclosed q = qclosed q' -> q = q'.
  Proof. destruct q, q'; simpl; congruence. Qed.

  (** ** Finishing through a handle *)
  Lemma finish_eff s es r f v : st_agents s 0 = PHold r \/ st_agents s 0 = QHold r ->
    s_value (c_slots (st_core s) (r_idx r)) = Some v -> run P pol es s ->
    exists s', finish P pol (s, es) f = Some ((s', (match st_agents s 0 with PHold _ => Commit 0 (f v) | _ => Release 0 (f v) end)
                                                :: Wrote 0 (f v) :: es), ROk v) /\
      (forall j, st_agents s' j = upd (st_agents s) 0 Idle j) /\
      run P pol (match st_agents s 0 with PHold _ => Commit 0 (f v) | _ => Release 0 (f v) end :: Wrote 0 (f v) :: es) s'.
  Proof.
    intros Ha Hv Hr.
    set (s1 := mkS (set_value (st_core s) (r_idx r) (Some (f v))) (st_agents s)).
    set (s2 := mkS (ref_drop (st_core s1) r) (upd (st_agents s) 0 Idle)).
    set (e := match st_agents s 0 with PHold _ => Commit 0 (f v) | _ => Release 0 (f v) end).
    assert (E1 : step P pol s (AWrite 0 (f v)) = Some (s1, Some (Wrote 0 (f v)))).
    { cbn [CoreModel.step]. destruct Ha as [-> | ->]; reflexivity. }
    assert (E2 : step P pol s1 (ADrop 0) = Some (s2, Some e)).
    { unfold e, s2. cbn [CoreModel.step s1 st_agents st_core]. destruct Ha as [-> | ->]; simpl; rewrite N.eqb_refl; reflexivity. }
    exists s2. split; [|split].
    - unfold finish, seen_by. cbn [fst].
      assert (Hs : match st_agents s 0 with PHold r | QHold r => s_value (c_slots (st_core s) (r_idx r)) | _ => None end = Some v)
        by (destruct Ha as [-> | ->]; auto).
      rewrite Hs. unfold act. cbn [fst snd]. rewrite E1. cbn [fst snd]. rewrite E2. reflexivity.
    - reflexivity.
    - change (run P pol (ocons (Some e) (ocons (Some (Wrote 0 (f v))) es)) s2).
      econstructor; [|exact E2]. econstructor; [|exact E1]. exact Hr.
  Qed.

  (** ** push *)
  Lemma handout_is q s : shape q s -> length (sq_items s) < cap ->
    handout_event W cap pol q 0 (length (qlog q)) = HandOut 0 (sq_element (fresh_at W cap) pol s) \/
    exists l, handout_event W cap pol q 0 (length (qlog q)) = Overwrite 0 l (sq_element (fresh_at W cap) pol s).
  Proof.
    intros (Hcl & rel & El & Hrel & Hp & Hf) Hlt. unfold handout_event, leftover, sq_element.
    rewrite Hp. set (n := length (qlog q)) in *. pose proof (cap_pos _ _ Hwf).
    assert (Hn : n = length rel + length (sq_items s)).
    { unfold n. rewrite El, app_length, !map_length. reflexivity. }
    destruct (Nat.ltb_spec n cap) as [Hc|Hc].
    - left. unfold fresh_at. rewrite Nat.div_small by auto.
      rewrite N.mod_0_l by (pose proof (ngen_ge2 _ _ Hwf); lia). reflexivity.
    - assert (Hrl : n - cap < length rel) by lia.
      destruct (nth_ex rel (n - cap) Hrl) as [old Hold].
      assert (Hlog : nth_error (qlog q) (n - cap) = Some (Released old)).
      { rewrite El, nth_error_app1 by (now rewrite map_length). now apply map_nth_error. }
      rewrite Hlog, Hf, Hp.
      assert (Hsk : exists t, skipn (n - cap) rel = old :: t).
      { clear - Hold. revert Hold. generalize (n - cap) as k. induction rel as [|a rel IH]; intros [|k] H; simpl in *; try discriminate.
        - injection H as ->. eauto.
        - auto. }
      destruct Hsk as [t ->]. change (gfield W cap n) with (N.of_nat (n / cap) mod ngen W cap)%N.
      unfold fresh_at. destruct (_ =? 0)%N; eauto.
  Qed.

  Lemma handout_over q s : shape q s -> length (sq_items s) < cap -> cap <= sq_pushed s ->
    fresh_at W cap (sq_pushed s) = true -> exists old, hd_error (sq_free s) = Some old /\
    handout_event W cap pol q 0 (length (qlog q)) = Overwrite 0 old (new_element pol).
  Proof.
    intros (Hcl & rel & El & Hrel & Hp & Hf) Hlt Hge Hfr. unfold handout_event, leftover.
    rewrite Hp in *. set (n := length (qlog q)) in *. pose proof (cap_pos _ _ Hwf).
    assert (Hn : n = length rel + length (sq_items s)).
    { unfold n. rewrite El, app_length, !map_length. reflexivity. }
    destruct (Nat.ltb_spec n cap) as [Hc|Hc]; [lia|].
    destruct (nth_ex rel (n - cap) ltac:(lia)) as [old Hold]. exists old.
    assert (Hlog : nth_error (qlog q) (n - cap) = Some (Released old)).
    { rewrite El, nth_error_app1 by (rewrite map_length; lia). now apply map_nth_error. }
    rewrite Hlog, Hf. split.
    - clear - Hold. revert Hold. generalize (n - cap) as k. induction rel as [|a rel IH]; intros [|k] H; simpl in *; try discriminate; auto.
    - change (gfield W cap n) with (N.of_nat (n / cap) mod ngen W cap)%N. unfold fresh_at in Hfr. now rewrite Hfr.
  Qed.

  Lemma shape_free q s : shape q s -> unblocked_push cap q /\ unblocked_pop cap q.
  Proof.
    intros (Hcl & rel & El & Hrel & Hp & Hf). pose proof (cap_pos _ _ Hwf).
    assert (HX : free_at cap q (length (qlog q)) \/ (cap <= length (qlog q) /\ length rel <= length (qlog q) - cap)).
    { unfold free_at. destruct (Nat.lt_ge_cases (length (qlog q)) cap) as [|Hc]; [left; now left|].
      destruct (Nat.lt_ge_cases (length (qlog q) - cap) (length rel)) as [Hr|Hr]; [|auto].
      left. right. destruct (nth_ex rel _ Hr) as [old Hold]. exists old.
      rewrite El at 1. rewrite nth_error_app1 by (now rewrite map_length). now apply map_nth_error. }
    split.
    - destruct HX as [HX|[HX1 HX2]]; [now left|]. right. split; auto.
      destruct (nth_ex (qlog q) (length (qlog q) - cap)) as [e He]; [lia|].
      rewrite He. rewrite El in He at 1. rewrite nth_error_app2 in He by (rewrite map_length; lia).
      apply nth_error_In in He. apply in_map_iff in He as (v & <- & _). eauto.
    - intros E. destruct HX as [HX|[HX1 HX2]]; auto. exfalso.
      assert (length (qlog q) = length rel + length (sq_items s)) by (rewrite El, app_length, !map_length; reflexivity). lia.
  Qed.

  Lemma act_invoke x s o : Seq x s ->
    act P pol x (AInvoke 0 o) = Some (mkS (st_core (fst x)) (upd (st_agents (fst x)) 0 (entry_pc o)), Invoke 0 o :: snd x) /\
    run P pol (Invoke 0 o :: snd x) (mkS (st_core (fst x)) (upd (st_agents (fst x)) 0 (entry_pc o))).
  Proof.
    intros (Hr & _ & _ & Hid & _).
    assert (E : step P pol (fst x) (AInvoke 0 o) =
       Some (mkS (st_core (fst x)) (upd (st_agents (fst x)) 0 (entry_pc o)), Some (Invoke 0 o))).
    { cbn [CoreModel.step]. now rewrite Hid. }
    split.
    - unfold act. rewrite E. reflexivity.
    - change (Invoke 0 o :: snd x) with (ocons (Some (Invoke 0 o)) (snd x)). econstructor; eauto.
  Qed.

  Definition pushes_with (o : top (T := T)) (f : T -> T) (back : option T) : Prop :=
    (exists v, o = TPush v /\ f = (fun _ => v) /\ back = Some v) \/ (o = TPushWith f /\ back = None).
  Definition pops_with (o : top (T := T)) (f : T -> T) : Prop :=
    (o = TPop /\ f = fun _ => new_element pol) \/ o = TPopWith f.

  Lemma push_seq fuel x s o f back : Seq x s -> 12 <= fuel -> pushes_with o f back ->
    exists x', tb_op P pol fuel x o = Some (x', snd (sq_push cap (fresh_at W cap) pol s f back)) /\
               Seq x' (fst (sq_push cap (fresh_at W cap) pol s f back)) /\
               (length (sq_items s) < cap -> cap <= sq_pushed s -> fresh_at W cap (sq_pushed s) = true ->
                exists old, hd_error (sq_free s) = Some old /\ In (Overwrite 0 old (new_element pol)) (snd x')).
  Proof.
    intros HQ Hfuel Ho. pose proof (Seq_SInv _ _ HQ) as (q & hist & g & HE & Hsh & HS).
    destruct (act_invoke x s OpPush HQ) as [Ea Hrun1].
    destruct HQ as (Hr & Hso & Hnc & Hid & _).
    set (s1 := mkS (st_core (fst x)) (upd (st_agents (fst x)) 0 PStart)) in *.
    assert (HS1 : SInv (st_core s1) (st_agents s1) q g) by (apply SInv_upd; auto; now rewrite Hid).
    destruct (push_fresh W cap pol Hwf s1 (Invoke 0 OpPush :: snd x) q g 0 HS1) as (s2 & es2 & Hcall & Hoth & Hres).
    { left. simpl. reflexivity. }
    { eapply shape_free; eauto. }
    pose proof (call_run _ _ _ _ _ _ _ _ _ Hrun1 Hcall) as Hrun2.
    assert (Hcall' : call fuel s1 (Invoke 0 OpPush :: snd x) 0 = Some (s2, es2)) by (eapply call_mono; [|exact Hcall]; lia).
    pose proof (Seq_SInv) as _.
    pose proof Hsh as (Hcl & rel & El & Hrel & Hp & Hf).
    assert (Hlen : length (qlog q) = qtaken q + length (sq_items s)).
    { rewrite El, app_length, !map_length. lia. }
    pose proof (cap_pos _ _ Hwf) as Hcap.
    unfold sq_push. destruct (Nat.ltb_spec (length (sq_items s)) cap) as [Hlt|Hge].
    - (* room *)
      destruct Hres as [(H & _)|[(_ & Hfr & A2 & Ees)|(_ & H & _)]]; [congruence| |lia].
      set (v := sq_element (fresh_at W cap) pol s) in *.
      pose proof (handout_is q s Hsh Hlt) as Hh. fold v in Hh.
      set (h := handout_event W cap pol q 0 (length (qlog q))) in *.
      assert (Hso2 : solo es2).
      { rewrite Ees. repeat (constructor; [try reflexivity|]); auto. destruct Hh as [-> |[l ->]]; reflexivity. }
      assert (Hnc2 : Forall not_closing es2).
      { rewrite Ees. repeat (constructor; [try exact I|]); auto. destruct Hh as [-> |[l ->]]; exact I. }
      assert (Heff : forall l, explains es2 l -> exists q2 l', l = q2 :: l' /\
                qlog q2 = qlog q ++ [Filling 0 v] /\ qtaken q2 = qtaken q /\ qclosed q2 = false).
      { intros l Hl. rewrite Ees in Hl.
        apply explains_inv in Hl as (qa & qb & h1 & -> & Hl & S1 & _).
        apply explains_inv in Hl as (qc & qd & h2 & E & Hl & S2 & _). injection E as -> ->.
        apply explains_inv in Hl as (qe & qf & h3 & E & Hl & S3 & _). injection E as -> ->.
        assert (qe = q) by (eapply explains_det; [exact Hnc|exact Hl|exact HE]). subst qe.
        apply invoke_eff in S3. subst qf. apply reserve_eff in S2 as (L1 & L2 & L3).
        assert (Hu : unown (qlog q)) by (rewrite El; apply unown_app; [apply unown_released|apply unown_published]).
        destruct (handout_eff _ _ v _ h Hu L1 Hh S1) as (M1 & M2 & M3).
        exists qb, (qd :: q :: q :: h3). repeat split; congruence. }
      destruct (run_good _ _ _ Hwf _ _ Hrun2 (calm_solo _ Hso2)) as (q2 & hist2 & g2 & HI2 & HE2).
      destruct (Heff _ HE2) as (q2' & l' & E & L1 & L2 & L3). injection E as <- <-.
      assert (Hv : s_value (c_slots (st_core s2) (ifld (length (qlog q)))) = Some v).
      { pose proof (inv_s _ _ _ _ _ _ _ HI2) as HS2.
        assert (Hn : nth_error (qlog q2) (length (qlog q)) = Some (Filling 0 v)) by (rewrite L1; apply nth_snoc).
        assert (Hs := i_slot _ _ _ _ _ _ HS2 _ _ Hn). simpl in Hs. apply Hs.
        rewrite L1, app_length. simpl. lia. }
      destruct (finish_eff s2 es2 _ f v (or_introl A2) Hv Hrun2) as (s3 & Hfin & Hag & Hrun3).
      rewrite A2 in Hfin, Hrun3.
      exists (s3, Commit 0 (f v) :: Wrote 0 (f v) :: es2). split.
      + unfold tb_op. destruct Ho as [(w & -> & -> & ->)|[-> ->]]; rewrite Ea; cbn [fst snd]; fold s1;
          change (entry_pc OpPush) with PStart; fold s1; rewrite Hcall'; cbn [fst snd]; rewrite A2; exact Hfin.
      + split.
        2:{ intros _ Hge Hfra. destruct (handout_over q s Hsh Hlt Hge Hfra) as (old & Ho1 & Ho2). exists old.
            split; auto. cbn [snd]. right. right. rewrite Ees. left. exact Ho2. }
        split; [exact Hrun3|]. split; [repeat (constructor; [reflexivity|]); auto|].
        split; [repeat (constructor; [exact I|]); auto|]. split.
        { intros j. cbn [fst]. rewrite Hag. destruct (Nat.eq_dec j 0) as [->|Hj]; [apply upd_same|].
          rewrite upd_other by auto. rewrite Hoth by auto. unfold s1. cbn [st_agents]. rewrite upd_other by auto. apply Hid. }
        cbn [fst snd].
        assert (Hso4 : solo (Commit 0 (f v) :: Wrote 0 (f v) :: es2)) by (repeat (constructor; [reflexivity|]); auto).
        destruct (run_good _ _ _ Hwf _ _ Hrun3 (calm_solo _ Hso4)) as (q4 & hist4 & g4 & _ & HE4).
        exists q4, hist4. split; auto.
        apply explains_inv in HE4 as (qa & qb & h1 & E & Hl & S1 & _). injection E as -> ->.
        apply explains_inv in Hl as (qc & qd & h2 & E & Hl & S2 & _). injection E as -> ->.
        destruct (Heff _ Hl) as (qx & l2 & E & K1 & K2 & K3). injection E as -> ->.
        assert (Hu : unown (qlog q)) by (rewrite El; apply unown_app; [apply unown_released|apply unown_published]).
        destruct (wrote_push_eff _ _ _ _ _ Hu K1 S2) as (M1 & M2 & M3).
        destruct (commit_eff _ _ _ _ _ Hu M1 S1) as (N1 & N2 & N3).
        split; [congruence|]. exists rel. cbn [sq_items sq_pushed sq_free fst].
        rewrite N1, app_length. cbn [length]. repeat split.
        * rewrite El, map_app, app_assoc. reflexivity.
        * congruence.
        * lia.
        * rewrite Hf. destruct (Nat.ltb_spec (sq_pushed s) cap) as [Hc|Hc].
          -- replace (sq_pushed s - cap) with 0 by lia. replace (S (sq_pushed s) - cap) with 0 by lia. reflexivity.
          -- replace (S (sq_pushed s) - cap) with (S (sq_pushed s - cap)) by lia.
             generalize (sq_pushed s - cap) as k. clear. revert rel. induction rel as [|a rel IH]; intros k; [now rewrite !skipn_nil|].
             destruct k; [reflexivity|]. cbn [skipn]. rewrite IH. reflexivity.
    - (* full *)
      destruct Hres as [(H & _)|[(_ & Hfr & A2 & Ees)|(_ & H & A2 & Ees)]]; [congruence| |].
      { exfalso. pose proof (i_order _ _ _ _ _ _ HS) as Hord. unfold free_at in Hfr. destruct Hfr as [Hfr|[w Hfr]]; [lia|].
        assert (Hd := i_done _ _ _ _ _ _ HS _ _ Hfr). simpl in Hd. destruct Hd as [_ Hd]. specialize (Hd I). lia. }
      exists (s2, es2). split.
      + unfold tb_op. destruct Ho as [(w & -> & -> & ->)|[-> ->]]; rewrite Ea; cbn [fst snd];
          change (entry_pc OpPush) with PStart; fold s1; rewrite Hcall'; cbn [fst snd]; rewrite A2, Ees; reflexivity.
      + split; [|lia]. cbn [fst]. assert (Hso2 : solo es2) by (rewrite Ees; repeat (constructor; [reflexivity|]); auto).
        split; [exact Hrun2|]. split; [exact Hso2|].
        split; [rewrite Ees; repeat (constructor; [exact I|]); auto|]. split.
        { intros j. cbn [fst]. destruct (Nat.eq_dec j 0) as [->|Hj]; [exact A2|].
          rewrite Hoth by auto. unfold s1. cbn [st_agents]. rewrite upd_other by auto. apply Hid. }
        cbn [fst snd].
        destruct (run_good _ _ _ Hwf _ _ Hrun2 (calm_solo _ Hso2)) as (q4 & hist4 & g4 & _ & HE4).
        exists q4, hist4. split; auto. rewrite Ees in HE4.
        apply explains_inv in HE4 as (qa & qb & h1 & E & Hl & S1 & _). injection E as -> ->.
        apply explains_inv in Hl as (qc & qd & h2 & E & Hl & S2 & _). injection E as -> ->.
        assert (qc = q) by (eapply explains_det; [exact Hnc|exact Hl|exact HE]). subst qc.
        apply invoke_eff in S2. subst qd. apply quiet_eff in S1; [|exact I]. subst qb. exact Hsh.
  Qed.

  (** ** pop *)
  Lemma pop_seq fuel x s o f : Seq x s -> 12 <= fuel -> pops_with o f ->
    exists x', tb_op P pol fuel x o = Some (x', snd (sq_pop s f)) /\ Seq x' (fst (sq_pop s f)).
  Proof.
    intros HQ Hfuel Ho. pose proof (Seq_SInv _ _ HQ) as (q & hist & g & HE & Hsh & HS).
    destruct (act_invoke x s OpPop HQ) as [Ea Hrun1].
    destruct HQ as (Hr & Hso & Hnc & Hid & _).
    set (s1 := mkS (st_core (fst x)) (upd (st_agents (fst x)) 0 QStart)) in *.
    assert (HS1 : SInv (st_core s1) (st_agents s1) q g) by (apply SInv_upd; auto; now rewrite Hid).
    destruct (pop_fresh W cap pol Hwf s1 (Invoke 0 OpPop :: snd x) q g 0 0%N HS1) as (s2 & es2 & Hcall & Hoth & Hres).
    { eapply shape_free; eauto. }
    { left. simpl. reflexivity. }
    pose proof (call_run _ _ _ _ _ _ _ _ _ Hrun1 Hcall) as Hrun2.
    assert (Hcall' : call fuel s1 (Invoke 0 OpPop :: snd x) 0 = Some (s2, es2)) by (eapply call_mono; [|exact Hcall]; lia).
    pose proof Hsh as (Hcl & rel & El & Hrel & Hp & Hf).
    assert (Hlen : length (qlog q) = qtaken q + length (sq_items s)).
    { rewrite El, app_length, !map_length. lia. }
    pose proof (cap_pos _ _ Hwf) as Hcap.
    unfold sq_pop. destruct (sq_items s) as [|v rest] eqn:Eit.
    - (* empty *)
      simpl in Hlen.
      destruct Hres as [(w & Hw & _)|(Hno & A2 & Ees)].
      { exfalso. apply nth_lt in Hw. lia. }
      rewrite Hcl, Bool.andb_false_r in Ees.
      exists (s2, es2). split.
      + unfold tb_op. destruct Ho as [[-> ->]| ->]; rewrite Ea; cbn [fst snd];
          change (entry_pc OpPop) with QStart; fold s1; rewrite Hcall'; cbn [fst snd]; rewrite A2, Ees; reflexivity.
      + cbn [fst]. assert (Hso2 : solo es2) by (rewrite Ees; repeat (constructor; [reflexivity|]); auto).
        split; [exact Hrun2|]. split; [exact Hso2|].
        split; [rewrite Ees; repeat (constructor; [exact I|]); auto|]. split.
        { intros j. cbn [fst]. destruct (Nat.eq_dec j 0) as [->|Hj]; [exact A2|].
          rewrite Hoth by auto. unfold s1. cbn [st_agents]. rewrite upd_other by auto. apply Hid. }
        cbn [fst snd].
        destruct (run_good _ _ _ Hwf _ _ Hrun2 (calm_solo _ Hso2)) as (q4 & hist4 & g4 & _ & HE4).
        exists q4, hist4. split; auto. rewrite Ees in HE4.
        apply explains_inv in HE4 as (qa & qb & h1 & E & Hl & S1 & _). injection E as -> ->.
        apply explains_inv in Hl as (qc & qd & h2 & E & Hl & S2 & _). injection E as -> ->.
        assert (qc = q) by (eapply explains_det; [exact Hnc|exact Hl|exact HE]). subst qc.
        apply invoke_eff in S2. subst qd. apply quiet_eff in S1; [|exact I]. subst qb. exact Hsh.
    - simpl in Hlen. cbn [map] in El.
      assert (Hfront : nth_error (qlog q) (qtaken q) = Some (Published v)).
      { rewrite El, nth_error_app2, map_length, Hrel, Nat.sub_diag by (rewrite map_length; lia). reflexivity. }
      destruct Hres as [(w & Hw & A2 & Ees)|(Hno & _)]; [|now destruct (Hno v)].
      assert (w = v) by congruence. subst w.
      assert (Hso2 : solo es2) by (rewrite Ees; repeat (constructor; [reflexivity|]); auto).
      assert (Hnc2 : Forall not_closing es2) by (rewrite Ees; repeat (constructor; [exact I|]); auto).
      assert (Hur := unown_released rel). assert (Hup := unown_published rest).
      assert (Hml : length (map (@Released T) rel) = qtaken q) by (now rewrite map_length).
      assert (Heff : forall l, explains es2 l -> exists q2 l', l = q2 :: l' /\
                qlog q2 = map Released rel ++ Held 0 v :: map Published rest /\ qtaken q2 = S (qtaken q) /\ qclosed q2 = false).
      { intros l Hl. rewrite Ees in Hl.
        apply explains_inv in Hl as (qa & qb & h1 & -> & Hl & S1 & _).
        apply explains_inv in Hl as (qc & qd & h2 & E & Hl & S2 & _). injection E as -> ->.
        assert (qc = q) by (eapply explains_det; [exact Hnc|exact Hl|exact HE]). subst qc.
        apply invoke_eff in S2. subst qd.
        destruct (take_eff _ _ _ _ _ _ Hml El S1) as (M1 & M2 & M3).
        exists qb, (q :: q :: h2). repeat split; congruence. }
      destruct (run_good _ _ _ Hwf _ _ Hrun2 (calm_solo _ Hso2)) as (q2 & hist2 & g2 & HI2 & HE2).
      destruct (Heff _ HE2) as (q2' & l' & E & L1 & L2 & L3). injection E as <- <-.
      assert (Hv : s_value (c_slots (st_core s2) (ifld (qtaken q))) = Some v).
      { pose proof (inv_s _ _ _ _ _ _ _ HI2) as HS2. pose proof (i_order _ _ _ _ _ _ HS2).
        assert (Hn : nth_error (qlog q2) (qtaken q) = Some (Held 0 v)).
        { rewrite L1, nth_error_app2, Hml, Nat.sub_diag by lia. reflexivity. }
        pose proof (live_in_window _ _ _ _ _ _ HS2 _ _ Hn ltac:(discriminate)) as Hw2.
        assert (Hs := i_slot _ _ _ _ _ _ HS2 _ _ Hn Hw2). simpl in Hs. apply Hs. }
      destruct (finish_eff s2 es2 _ f v (or_intror A2) Hv Hrun2) as (s3 & Hfin & Hag & Hrun3).
      rewrite A2 in Hfin, Hrun3.
      exists (s3, Release 0 (f v) :: Wrote 0 (f v) :: es2). split.
      + unfold tb_op. destruct Ho as [[-> ->]| ->]; rewrite Ea; cbn [fst snd];
          change (entry_pc OpPop) with QStart; fold s1; rewrite Hcall'; cbn [fst snd]; rewrite A2; exact Hfin.
      + split; [exact Hrun3|]. split; [repeat (constructor; [reflexivity|]); auto|].
        split; [repeat (constructor; [exact I|]); auto|]. split.
        { intros j. cbn [fst]. rewrite Hag. destruct (Nat.eq_dec j 0) as [->|Hj]; [apply upd_same|].
          rewrite upd_other by auto. rewrite Hoth by auto. unfold s1. cbn [st_agents]. rewrite upd_other by auto. apply Hid. }
        cbn [fst snd].
        assert (Hso4 : solo (Release 0 (f v) :: Wrote 0 (f v) :: es2)) by (repeat (constructor; [reflexivity|]); auto).
        destruct (run_good _ _ _ Hwf _ _ Hrun3 (calm_solo _ Hso4)) as (q4 & hist4 & g4 & _ & HE4).
        exists q4, hist4. split; auto.
        apply explains_inv in HE4 as (qa & qb & h1 & E & Hl & S1 & _). injection E as -> ->.
        apply explains_inv in Hl as (qc & qd & h2 & E & Hl & S2 & _). injection E as -> ->.
        destruct (Heff _ Hl) as (qx & l2 & E & K1 & K2 & K3). injection E as -> ->.
        destruct (wrote_pop_eff _ _ _ _ _ _ Hur Hup K1 S2) as (M1 & M2 & M3).
        destruct (release_eff _ _ _ _ _ _ Hur Hup M1 S1) as (N1 & N2 & N3).
        split; [congruence|]. exists (rel ++ [f v]). cbn [sq_items sq_pushed sq_free fst].
        pose proof (i_order _ _ _ _ _ _ HS) as Hord.
        rewrite N1, !app_length. cbn [length]. repeat split.
        * rewrite map_app, <- app_assoc. reflexivity.
        * lia.
        * rewrite !map_length. lia.
        * rewrite Hf, skipn_app. f_equal. replace (sq_pushed s - cap - length rel) with 0 by lia. reflexivity.
  Qed.

  (** ** len *)
  Lemma len_seq fuel x s : Seq x s -> 12 <= fuel -> exists s2 es2,
    act P pol x (AInvoke 0 OpLen) = Some (mkS (st_core (fst x)) (upd (st_agents (fst x)) 0 LTail), Invoke 0 OpLen :: snd x) /\
    call fuel (mkS (st_core (fst x)) (upd (st_agents (fst x)) 0 LTail)) (Invoke 0 OpLen :: snd x) 0 =
      Some (s2, RetLen 0 (N.of_nat (length (sq_items s))) :: es2) /\ st_agents s2 0 = Idle /\
    Seq (s2, RetLen 0 (N.of_nat (length (sq_items s))) :: es2) s.
  Proof.
    intros HQ Hfuel. pose proof (Seq_SInv _ _ HQ) as (q & hist & g & HE & Hsh & HS).
    destruct (act_invoke x s OpLen HQ) as [Ea Hrun1].
    destruct HQ as (Hr & Hso & Hnc & Hid & _). change (entry_pc OpLen) with LTail in *.
    set (s1 := mkS (st_core (fst x)) (upd (st_agents (fst x)) 0 LTail)) in *.
    destruct (len_fresh W cap pol s1 (Invoke 0 OpLen :: snd x) 0) as (s2 & n & Hcall & Hoth & A2 & _).
    { reflexivity. }
    pose proof (call_run _ _ _ _ _ _ _ _ _ Hrun1 Hcall) as Hrun2.
    set (es2 := RetLen 0 n :: Invoke 0 OpLen :: snd x) in *.
    assert (Hso2 : solo es2) by (repeat (constructor; [reflexivity|]); auto).
    pose proof Hsh as (Hcl & rel & El & Hrel & Hp & Hf).
    assert (Hlen : length (qlog q) = qtaken q + length (sq_items s)).
    { rewrite El, app_length, !map_length. lia. }
    assert (Hn : n = N.of_nat (length (sq_items s)) /\ exists q4 hist4, explains es2 (q4 :: hist4) /\ shape q4 s).
    { destruct (run_good _ _ _ Hwf _ _ Hrun2 (calm_solo _ Hso2)) as (q4 & hist4 & g4 & _ & HE4).
      pose proof HE4 as HE5. unfold es2 in HE4.
      apply explains_inv in HE4 as (qa & qb & h1 & E & Hl & S1 & q0 & Hin & Hobs). injection E as -> ->.
      apply explains_inv in Hl as (qc & qd & h2 & E & Hl & S2 & _). injection E as -> ->.
      assert (qc = q) by (eapply explains_det; [exact Hnc|exact Hl|exact HE]). subst qc.
      apply invoke_eff in S2. subst qd. apply quiet_eff in S1; [|exact I]. subst qb.
      simpl in Hin. destruct Hin as [<-|[]]. simpl in Hobs. split.
      - destruct Hobs as [Hobs|Hobs]; [congruence|]. unfold qlen in Hobs. lia.
      - eauto. }
    destruct Hn as [-> Hq].
    exists s2, (Invoke 0 OpLen :: snd x). split; [exact Ea|]. split; [|split; [exact A2|]].
    - eapply call_mono; [|exact Hcall]. lia.
    - split; [exact Hrun2|]. split; [exact Hso2|]. split; [repeat (constructor; [exact I|]); auto|]. split; [|exact Hq].
      intros j. cbn [fst]. destruct (Nat.eq_dec j 0) as [->|Hj]; [exact A2|].
      rewrite Hoth by auto. unfold s1. cbn [st_agents]. rewrite upd_other by auto. apply Hid.
  Qed.

  Lemma items_le x s : Seq x s -> length (sq_items s) <= cap.
  Proof.
    intros HQ. destruct (Seq_SInv _ _ HQ) as (q & hist & g & _ & (_ & rel & El & Hrel & _) & HS).
    pose proof (i_order _ _ _ _ _ _ HS) as Ho. rewrite El, app_length, !map_length in Ho. lia.
  Qed.

  Lemma op_seq fuel x s o : Seq x s -> 12 <= fuel ->
    exists x', tb_op P pol fuel x o = Some (x', snd (sq_op cap (fresh_at W cap) pol s o)) /\
               Seq x' (fst (sq_op cap (fresh_at W cap) pol s o)).
  Proof.
    intros HQ Hf. pose proof (items_le _ _ HQ) as Hle.
    destruct o as [v| |f|f| | |]; cbn [sq_op].
    - destruct (push_seq fuel x s (TPush v) (fun _ => v) (Some v) HQ Hf) as (x' & H1 & H2 & _); eauto. left. eauto.
    - apply pop_seq; auto. now left.
    - destruct (push_seq fuel x s (TPushWith f) f None HQ Hf) as (x' & H1 & H2 & _); eauto. now right.
    - apply pop_seq; auto. now right.
    - destruct (len_seq fuel x s HQ Hf) as (s2 & es2 & E1 & E2 & A2 & HQ2). eexists. split; [|exact HQ2].
      unfold tb_op. rewrite E1. cbn [fst snd]. rewrite E2. cbn [fst snd]. rewrite A2. reflexivity.
    - destruct (len_seq fuel x s HQ Hf) as (s2 & es2 & E1 & E2 & A2 & HQ2). eexists. split; [|exact HQ2].
      unfold tb_op. rewrite E1. cbn [fst snd]. rewrite E2. cbn [fst snd]. rewrite A2.
      change (p_capacity P) with (N.of_nat cap).
      replace (N.of_nat cap <? N.of_nat (length (sq_items s)))%N with false by lia.
      do 3 f_equal. cbn [snd]. lia.
    - destruct (len_seq fuel x s HQ Hf) as (s2 & es2 & E1 & E2 & A2 & HQ2). eexists. split; [|exact HQ2].
      unfold tb_op. rewrite E1. cbn [fst snd]. rewrite E2. cbn [fst snd]. rewrite A2.
      do 3 f_equal. cbn [snd]. lia.
  Qed.

  Lemma run_seq fuel ops : 12 <= fuel -> forall x s, Seq x s ->
    exists x', tb_run P pol fuel x ops = Some (x', snd (sq_run cap (fresh_at W cap) pol s ops)) /\
               Seq x' (fst (sq_run cap (fresh_at W cap) pol s ops)).
  Proof.
    intros Hf. induction ops as [|o ops IH]; intros x s HQ.
    - exists x. split; auto.
    - destruct (op_seq fuel x s o HQ Hf) as (x1 & E1 & HQ1). cbn [tb_run sq_run].
      destruct (sq_op cap (fresh_at W cap) pol s o) as [s1 r]. cbn [fst snd] in *. rewrite E1.
      destruct (IH _ _ HQ1) as (x2 & E2 & HQ2). rewrite E2.
      destruct (sq_run cap (fresh_at W cap) pol s1 ops) as [s2 rs]. exists x2. auto.
  Qed.

  Lemma tb_run_app fuel l1 l2 : forall x x1 r1, tb_run P pol fuel x l1 = Some (x1, r1) ->
    tb_run P pol fuel x (l1 ++ l2) =
      match tb_run P pol fuel x1 l2 with Some (x2, r2) => Some (x2, r1 ++ r2) | None => None end.
  Proof.
    induction l1 as [|o l1 IH]; intros x x1 r1 H; cbn [tb_run app] in *.
    - injection H as -> <-. destruct (tb_run P pol fuel x1 l2) as [[? ?]|]; reflexivity.
    - destruct (tb_op P pol fuel x o) as [[x' r]|]; [|discriminate].
      destruct (tb_run P pol fuel x' l1) as [[x2 rs]|] eqn:E; [|discriminate]. injection H as -> <-.
      rewrite (IH _ _ _ E). destruct (tb_run P pol fuel x1 l2) as [[? ?]|]; reflexivity.
  Qed.

  (** ** Projection to a plain FIFO *)
  Lemma fifo_refine fresh' ops : forallb by_value ops = true -> forall s,
    fifo_run cap (sq_items s) ops =
      (sq_items (fst (sq_run cap fresh' pol s ops)), map (fun x => visible (fst x) (snd x)) (combine ops (snd (sq_run cap fresh' pol s ops)))).
  Proof.
    induction ops as [|o ops IH]; intros Hb s; [reflexivity|].
    cbn [forallb] in Hb. apply andb_true_iff in Hb as [Hb1 Hb2]. cbn [fifo_run sq_run].
    assert (HX : fifo_op cap (sq_items s) o =
      (sq_items (fst (sq_op cap fresh' pol s o)), visible o (snd (sq_op cap fresh' pol s o)))).
    { destruct o; try discriminate; cbn [fifo_op sq_op sq_push sq_pop]; unfold sq_push, sq_pop.
      - destruct (_ <? _); reflexivity.
      - destruct (sq_items s) eqn:E; cbn [fst snd sq_items visible]; rewrite ?E; reflexivity.
      - destruct (sq_items s) eqn:E; cbn [fst snd sq_items visible]; rewrite ?E; reflexivity.
      - reflexivity.
      - reflexivity.
      - reflexivity. }
    rewrite HX. destruct (sq_op cap fresh' pol s o) as [s1 r]. cbn [fst snd].
    rewrite (IH Hb2 s1). destruct (sq_run cap fresh' pol s1 ops) as [s2 rs]. reflexivity.
  Qed.

  (** ** Wrap-around *)
  Fixpoint pairs (v : T) (k : nat) : list (top (T := T)) :=
    match k with 0 => [] | S k' => TPush v :: TPop :: pairs v k' end.

  Lemma pairs_run fresh' v k : forall s, sq_items s = [] ->
    sq_items (fst (sq_run cap fresh' pol s (pairs v k))) = [] /\
    sq_pushed (fst (sq_run cap fresh' pol s (pairs v k))) = sq_pushed s + k.
  Proof.
    pose proof (cap_pos _ _ Hwf) as Hcap.
    induction k as [|k IH]; intros s Hs; cbn [pairs sq_run]; [cbn [fst]; split; auto; lia|].
    cbn [sq_op]. unfold sq_push. rewrite Hs. cbn [length]. replace (0 <? cap) with true by (symmetry; apply Nat.ltb_lt; lia).
    cbn [app sq_op]. unfold sq_pop. cbn [sq_items].
    match goal with |- context [sq_run cap fresh' pol ?x (pairs v k)] => specialize (IH x eq_refl) end.
    destruct (sq_run cap fresh' pol _ (pairs v k)) as [s2 rs]. cbn [fst sq_pushed] in *. split; [tauto|lia].
  Qed.

  Lemma span_fresh : fresh_at W cap (N.to_nat (span W cap)) = true.
  Proof.
    pose proof (cap_pos _ _ Hwf) as Hcap. pose proof (ngen_ge2 _ _ Hwf).
    unfold fresh_at, span. apply N.eqb_eq.
    rewrite Nat2N.inj_div, N2Nat.id, N.mul_comm, N.div_mul by lia. apply N.mod_same. lia.
  Qed.

  Lemma wrap_overwrites (v : T) : exists ops x rs old,
    tb_run P pol 12 (tb_init P) ops = Some (x, rs) /\ In (Overwrite 0 old (new_element pol)) (snd x).
  Proof.
    pose proof (cap_pos _ _ Hwf) as Hcap. pose proof (ngen_ge2 _ _ Hwf).
    set (n := N.to_nat (span W cap)).
    destruct (run_seq 12 (pairs v n) (le_n _) _ _ Seq_init) as (x1 & E1 & HQ1).
    destruct (pairs_run (fresh_at W cap) v n sq_empty eq_refl) as [H1 H2].
    set (s1 := fst (sq_run cap (fresh_at W cap) pol sq_empty (pairs v n))) in *.
    destruct (push_seq 12 x1 s1 (TPush v) (fun _ => v) (Some v) HQ1 (le_n _)) as (x2 & E2 & _ & H3).
    { left. eauto. }
    simpl in H2. destruct H3 as (old & _ & Hin).
    { rewrite H1. simpl. lia. }
    { rewrite H2. unfold n, span. nia. }
    { rewrite H2. apply span_fresh. }
    exists (pairs v n ++ [TPush v]), x2, (snd (sq_run cap (fresh_at W cap) pol sq_empty (pairs v n)) ++
       [snd (sq_push cap (fresh_at W cap) pol s1 (fun _ => v) (Some v))]), old.
    split; auto. rewrite (tb_run_app _ _ _ _ _ _ E1). cbn [tb_run]. rewrite E2. reflexivity.
  Qed.

  (** ** Failed calls have no effect *)
  Lemma silent_core s a s' oe : step P pol s a = Some (s', oe) ->
    (forall e, oe = Some e -> mutates e = false) -> st_core s' = st_core s.
  Proof.
    intros H Hm. destruct a as [k o|k sp|k v|k|k|k pa]; cbn [step] in H.
    - destruct (st_agents s k); try discriminate. injection H as <- <-. reflexivity.
    - destruct (stepping (st_agents s k)); [|discriminate].
      destruct (cstep P pol (st_core s) k (st_agents s k) sp) as [[c' p'] e'] eqn:Ec. injection H as <- <-. cbn [st_core].
      destruct (st_agents s k); cbn [cstep] in Ec; unfold push_top in Ec;
        repeat match type of Ec with
          | context [if ?x then _ else _] => destruct x
          | context [match ?x with _ => _ end] => destruct x end;
        inversion Ec; subst; auto; exfalso; specialize (Hm _ eq_refl); discriminate.
    - destruct (st_agents s k); try discriminate; injection H as <- <-; specialize (Hm _ eq_refl); discriminate.
    - destruct (st_agents s k); try discriminate; injection H as <- <-; specialize (Hm _ eq_refl);
        destruct (s_value _); discriminate.
    - destruct (st_agents s k); try discriminate; injection H as <- <-; reflexivity.
    - destruct (st_agents s k); try discriminate; destruct (core_close P (st_core s) pa); injection H as <- <-;
        specialize (Hm _ eq_refl); discriminate.
  Qed.

  (** A step that emits an event ends the call, except the reservation. *)
  Lemma event_ends c i p c' p' e : stepping p = true -> cstep P pol c i p false = (c', p', Some e) ->
    stepping p' = false \/ (e = Reserve i /\ exists t, p' = PInit t).
  Proof.
    intros _ Ec. destruct p; cbn [cstep] in Ec; unfold push_top in Ec;
      repeat match type of Ec with
        | context [if ?x then _ else _] => destruct x
        | context [match ?x with _ => _ end] => destruct x end;
      inversion Ec; subst; eauto.
  Qed.

  Lemma init_event c i t c' p' oe : cstep P pol c i (PInit t) false = (c', p', oe) ->
    stepping p' = false /\ exists e, oe = Some e /\ mutates e = true.
  Proof.
    cbn [cstep]. destruct (idx_gen P t). destruct (_ =? 0)%N; [|destruct (s_value _)]; intros [= <- <- <-]; split; auto;
      eexists; split; eauto. destruct (s_value _); reflexivity.
  Qed.

  Lemma call_ret k : forall s es i s' es', call k s es i = Some (s', es') -> stepping (st_agents s i) = true ->
    exists e d, es' = e :: d /\ (mutates e = false -> d = es /\ st_core s' = st_core s).
  Proof.
    induction k as [|k IH]; intros s es i s' es' H Hs; cbn [SeqModel.call] in H; rewrite Hs in H; [discriminate|].
    destruct (step P pol s (AStep i false)) as [[s1 oe]|] eqn:E; [|discriminate].
    pose proof E as E0. cbn [step] in E. rewrite Hs in E.
    destruct (cstep P pol (st_core s) i (st_agents s i) false) as [[c' p'] oe'] eqn:Ec. injection E as <- <-.
    destruct oe' as [e|]; cbn [ocons] in H.
    - destruct (event_ends _ _ _ _ _ _ Hs Ec) as [Hn|(-> & t & ->)].
      + rewrite call_done in H by (cbn [st_agents]; now rewrite upd_same). injection H as <- <-.
        exists e, es. split; auto. intros Hm. split; auto.
        apply (silent_core _ _ _ _ E0). intros e0 [= <-]. auto.
      + destruct k as [|k]; [cbn [SeqModel.call st_agents] in H; rewrite upd_same in H; discriminate|].
        cbn [SeqModel.call st_agents] in H. rewrite upd_same in H. cbn [stepping] in H.
        destruct (step P pol (mkS c' (upd (st_agents s) i (PInit t))) (AStep i false)) as [[s2 oe2]|] eqn:E2; [|discriminate].
        cbn [step st_agents st_core] in E2. rewrite upd_same in E2. cbn [stepping] in E2.
        destruct (cstep P pol c' i (PInit t) false) as [[c2 p2] oe3] eqn:Ec2. injection E2 as <- <-.
        destruct (init_event _ _ _ _ _ _ Ec2) as (Hn & e & -> & Hm).
        rewrite call_done in H by (cbn [st_agents]; now rewrite upd_same). injection H as <- <-.
        exists e, (Reserve i :: es). split; auto. congruence.
    - assert (Hc : c' = st_core s) by (apply (silent_core _ _ _ _ E0); discriminate).
      destruct (stepping p') eqn:Hp.
      + destruct (IH _ _ _ _ _ H) as (e & d & -> & Hd); [cbn [st_agents]; now rewrite upd_same|].
        exists e, d. split; auto. intros Hm. destruct (Hd Hm) as [-> Hcore]. split; auto. rewrite Hcore. exact Hc.
      + exfalso. clear - Hp Ec Hs. destruct (st_agents s i); try discriminate; cbn [cstep] in Ec; unfold push_top in Ec;
          repeat match type of Ec with
            | context [if ?x then _ else _] => destruct x
            | context [match ?x with _ => _ end] => destruct x end;
          inversion Ec; subst; discriminate.
  Qed.

  Lemma failed_op fuel x o x' r : tb_op P pol fuel x o = Some (x', r) ->
    (match r with RFull _ | RNone | RLength _ | RBool _ => True | ROk _ => False end) ->
    st_core (fst x') = st_core (fst x) /\
    (forall b, r = RFull b -> b = match o with TPush v => Some v | _ => None end).
  Proof.
    intros H Hr. unfold tb_op in H.
    set (start := match o with TPush _ | TPushWith _ => OpPush | TPop | TPopWith _ => OpPop | _ => OpLen end) in *.
    unfold act in H. cbn [step] in H. destruct (st_agents (fst x) 0); try discriminate. cbn [fst snd ocons] in H.
    destruct (call fuel _ (Invoke 0 start :: snd x) 0) as [[s2 es2]|] eqn:Ec; [|discriminate]. cbn [fst snd] in H.
    apply call_ret in Ec as (e & d & -> & Hd).
    2:{ cbn [st_agents]. rewrite upd_same. destruct start; reflexivity. }
    cbn [st_core] in Hd.
    assert (HX : x' = (s2, e :: d) /\ mutates e = false /\ forall b, r = RFull b -> b = match o with TPush v => Some v | _ => None end).
    { destruct o; destruct (st_agents s2 0); try discriminate;
        try (unfold finish in H; destruct (seen_by _ _); [|discriminate];
             destruct (act _ _ _ _); [|discriminate]; destruct (act _ _ _ _); [|discriminate];
             injection H as <- <-; destruct Hr);
        destruct e; try discriminate;
        repeat match type of H with context [if ?b then _ else _] => destruct b; try discriminate end;
        injection H as <- <-; split; auto; split; auto; intros b Eb; try discriminate; now injection Eb as <-. }
    destruct HX as (-> & Hm & HX). cbn [fst snd]. split; auto. apply Hd. auto.
  Qed.

  (** ** The step behind an event *)
  Lemma run_split es s : run P pol es s -> forall es2 e es1, es = es2 ++ e :: es1 ->
    exists s1 a s1', run P pol es1 s1 /\ step P pol s1 a = Some (s1', Some e).
  Proof.
    induction 1 as [|es s a s' oe Hr IH Hst]; intros es2 e es1 E.
    - destruct es2; discriminate.
    - destruct oe as [e0|]; simpl in E; [|eauto].
      destruct es2 as [|e2 es2]; simpl in E; injection E as -> ->; eauto 8.
  Qed.

  Lemma calm_tail es2 (es1 : list (event T)) : calm B (es2 ++ es1) -> calm B es1.
  Proof. induction es2 as [|e es2 IH]; simpl; auto. intros [H _]. auto. Qed.

  Lemma failed_pending es2 e i es1 s : run P pol (es2 ++ e :: es1) s -> calm B (es2 ++ e :: es1) ->
    (e = RetFull i \/ e = RetPushClosed i \/ e = RetEmpty i \/ e = RetPopClosed i) ->
    exists o, find (fun x => Nat.eqb i (agent_of x)) es1 = Some (Invoke i o).
  Proof.
    intros Hr HC He. destruct (run_split _ _ Hr _ _ _ eq_refl) as (s1 & a & s1' & Hr1 & Hst).
    apply calm_tail in HC. cbn [calm] in HC. destruct HC as [HC _].
    destruct (run_good _ _ _ Hwf _ _ Hr1 HC) as (q & hist & g & HI & HE).
    pose proof (inv_a _ _ _ _ _ _ _ HI i) as HA.
    enough (pending i es1) by assumption.
    destruct a as [k o|k sp|k v|k|k|k pa]; cbn [step] in Hst.
    - destruct (st_agents s1 k); try discriminate. injection Hst as _ <-. exfalso. intuition discriminate.
    - destruct (stepping (st_agents s1 k)) eqn:Hs; [|discriminate].
      destruct (cstep P pol (st_core s1) k (st_agents s1 k) sp) as [[c' p'] oe'] eqn:Ec. injection Hst as _ ->.
      assert (Ek : k = i /\ match st_agents s1 i with PInit _ | LCheck _ _ | LTail | LHead _ => False | _ => True end).
      { destruct (st_agents s1 k) eqn:Ep; try discriminate; cbn [cstep] in Ec; unfold push_top in Ec;
          repeat match type of Ec with
            | context [if ?x then _ else _] => destruct x
            | context [match ?x with _ => _ end] => destruct x end;
          inversion Ec; subst; intuition (try discriminate);
          repeat match goal with H : _ = _ |- _ => first [discriminate H | injection H as ->] end; rewrite ?Ep; auto. }
      destruct Ek as [-> Hpc].
      destruct (st_agents s1 i); try discriminate; simpl in HA; try tauto; unfold push_local, pop_local in HA; tauto.
    - destruct (st_agents s1 k); try discriminate; injection Hst as _ <-; exfalso; intuition discriminate.
    - destruct (st_agents s1 k); try discriminate; injection Hst as _ <-; exfalso; destruct (s_value _); intuition discriminate.
    - destruct (st_agents s1 k); try discriminate; injection Hst as _ <-; exfalso; intuition discriminate.
    - destruct (st_agents s1 k); try discriminate; destruct (core_close P (st_core s1) pa); injection Hst as _ <-; exfalso; intuition discriminate.
  Qed.
End SeqFacts.
