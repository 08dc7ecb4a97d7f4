(** Encoding of log positions as words, and the effect of the model's word
    operations on it. *)
From Coq Require Import List Bool Arith NArith Lia.
From Coq Require Import ZifyN ZifyNat ZifyBool.
From Verif Require Import Word QueueSpec CoreModel.
Local Open Scope N_scope.

(** Capacities for which the counters have room for two generations. *)
Definition wf (W : N) (cap : nat) : Prop := (0 < cap)%nat /\ 4 * N.of_nat cap < 2 ^ W.

(** Width in bits of the index field. *)
Definition kbits (cap : nat) : N := N.log2_up (N.of_nat cap + 1).
Definition kword (cap : nat) : N := 2 ^ kbits cap.
Definition gword (cap : nat) : N := 2 ^ (kbits cap + 1).
(** Number of generations a word can hold. *)
Definition ngen (W : N) (cap : nat) : N := 2 ^ (W - (kbits cap + 1)).

(** Positions that are distinguishable by their words: [cap * ngen]. *)
Definition span (W : N) (cap : nat) : N := N.of_nat cap * ngen W cap.
(** Staleness bound: one generation less than [span]. *)
Definition slack (W : N) (cap : nat) : N := N.of_nat cap * (ngen W cap - 1).

Definition ifield (cap p : nat) : N := N.of_nat (p mod cap).
Definition gfield (W : N) (cap p : nat) : N := N.of_nat (p / cap) mod ngen W cap.
Definition word (W : N) (cap : nat) (b : bool) (p : nat) : N :=
  gfield W cap p * gword cap + N.b2n b * kword cap + ifield cap p.
Definition enc (W : N) (cap p : nat) : N := word W cap false p.

Lemma mod_close a d m : 0 < m -> a mod m = d mod m -> a <= d -> d < a + m -> a = d.
Proof.
  intros Hm E H1 H2.
  assert (Ha := N.div_mod a m ltac:(lia)). assert (Hd := N.div_mod d m ltac:(lia)).
  rewrite <- E in Hd. pose proof (N.mod_lt a m ltac:(lia)) as Hr.
  revert Ha Hd Hr. generalize (a / m) (d / m) (a mod m). intros x y r Ha Hd Hr. clear E.
  subst a d. assert (m * x <= m * y) by lia. assert (m * y < m * (x + 1)) by lia.
  assert (x <= y) by (apply (N.mul_le_mono_pos_l _ _ m); lia).
  assert (y < x + 1) by (apply (N.mul_lt_mono_pos_l m); lia).
  assert (x = y) by lia. now subst.
Qed.

Section Arith.
  Variables (W : N) (cap : nat).
  Hypothesis Hwf : wf W cap.
  Let P := core_new W (N.of_nat cap).
  Notation enc := (enc W cap).
  Notation word := (word W cap).
  Notation K := (kword cap).
  Notation G := (gword cap).
  Notation ngen := (ngen W cap).

  Lemma cap_pos : (0 < cap)%nat. Proof. apply Hwf. Qed.

  Lemma cap_lt_K : N.of_nat cap < K.
  Proof. pose proof (npow2_ge (N.of_nat cap + 1)). unfold kword, kbits, next_power_of_two in *. lia. Qed.

  Lemma K_le : K <= 2 * N.of_nat cap.
  Proof.
    pose proof cap_pos. pose proof (npow2_lt (N.of_nat cap + 1)) as H1.
    unfold kword, kbits. unfold next_power_of_two in H1.
    assert (H2 : 2 ^ N.log2_up (N.of_nat cap + 1) < 2 * (N.of_nat cap + 1)) by (apply H1; lia).
    assert (0 < N.log2_up (N.of_nat cap + 1)) as Hp by (apply N.log2_up_pos; lia).
    replace (N.log2_up (N.of_nat cap + 1)) with (N.succ (N.pred (N.log2_up (N.of_nat cap + 1)))) in * by lia.
    rewrite N.pow_succ_r' in *. lia.
  Qed.

  Lemma G_eq : G = 2 * K.
  Proof. unfold gword, kword. rewrite N.add_1_r, N.pow_succ_r'. reflexivity. Qed.

  Lemma K_pos : 0 < K. Proof. pose proof cap_lt_K. lia. Qed.

  Lemma G_lt : G < 2 ^ W.
  Proof. rewrite G_eq. pose proof K_le. destruct Hwf. lia. Qed.

  Lemma kbits_lt : kbits cap + 1 < W.
  Proof. apply (N.pow_lt_mono_r_iff 2); [lia|]. exact G_lt. Qed.

  Lemma W_split : 2 ^ W = ngen * G.
  Proof.
    unfold CoreArith.ngen, gword. rewrite <- N.pow_add_r. f_equal. pose proof kbits_lt. lia.
  Qed.

  Lemma ngen_ge2 : 2 <= ngen.
  Proof.
    unfold CoreArith.ngen. change 2 with (2 ^ 1) at 1. apply N.pow_le_mono_r; [lia|].
    pose proof kbits_lt. lia.
  Qed.

  Lemma slack_span : slack W cap + N.of_nat cap = span W cap.
  Proof. unfold slack, span. pose proof ngen_ge2. nia. Qed.

  (** ** The parameters *)
  Lemma P_closed : p_closed P = K. Proof. reflexivity. Qed.
  Lemma P_idx_mask : p_idx_mask P = K - 1. Proof. reflexivity. Qed.
  Lemma P_capacity : p_capacity P = N.of_nat cap. Proof. reflexivity. Qed.
  Lemma P_mod : p_mod P = 2 ^ W. Proof. reflexivity. Qed.
  Lemma P_width : p_width P = W. Proof. reflexivity. Qed.
  Lemma P_gen_mask : p_gen_mask P = N.lnot (N.lor K (K - 1)) W. Proof. reflexivity. Qed.
  Lemma P_gen : p_gen P = G.
  Proof.
    unfold P, core_new. cbn [p_gen]. fold (kbits cap).
    change (next_power_of_two (N.of_nat cap + 1)) with K.
    rewrite N.shiftl_mul_pow2. change (2 ^ 1) with 2.
    rewrite N.mod_small; [rewrite G_eq; lia|]. pose proof G_lt. rewrite G_eq in *. lia.
  Qed.

  (** ** Fields *)
  Lemma ifield_lt p : ifield cap p < N.of_nat cap.
  Proof. unfold ifield. pose proof cap_pos. pose proof (Nat.mod_upper_bound p cap). lia. Qed.

  Lemma ifield_ltK p : ifield cap p < K.
  Proof. pose proof (ifield_lt p). pose proof cap_lt_K. lia. Qed.

  Lemma gfield_lt p : gfield W cap p < ngen.
  Proof. unfold gfield. pose proof ngen_ge2. apply N.mod_lt. lia. Qed.

  Lemma b2n_lt b : N.b2n b < 2. Proof. destruct b; cbn; lia. Qed.

  Lemma word_lt b p : word b p + 1 < 2 ^ W.
  Proof.
    unfold CoreArith.word. rewrite W_split. pose proof (gfield_lt p). pose proof (ifield_lt p).
    pose proof cap_lt_K. pose proof (b2n_lt b). pose proof K_pos.
    assert (gfield W cap p * G + G <= ngen * G) by nia. rewrite G_eq in *. nia.
  Qed.

  Lemma enc_lt p : enc p + 1 < 2 ^ W. Proof. apply word_lt. Qed.

  Lemma k_lt_W : kbits cap < W. Proof. pose proof kbits_lt. lia. Qed.

  Lemma idx_gen_word b p : idx_gen P (word b p) = (ifield cap p, gfield W cap p * G).
  Proof.
    pose proof (word_lt b p). pose proof (ifield_ltK p). pose proof (b2n_lt b).
    unfold idx_gen. f_equal.
    - rewrite P_idx_mask. unfold CoreArith.word. now apply (field_idx (kbits cap)).
    - rewrite P_gen_mask. unfold CoreArith.word in *. apply (field_gen (kbits cap)); auto; [unfold kword, gword in *; lia|apply k_lt_W].
  Qed.

  Lemma idx_gen_enc p : idx_gen P (enc p) = (ifield cap p, gfield W cap p * G).
  Proof. apply idx_gen_word. Qed.

  Lemma closed_word b p : N.land (word b p) (p_closed P) = N.b2n b * K.
  Proof.
    rewrite P_closed. unfold CoreArith.word. apply (field_closed (kbits cap)).
    apply ifield_ltK. apply b2n_lt.
  Qed.

  Lemma closed_test b p : negb (N.land (word b p) (p_closed P) =? 0) = b.
  Proof.
    rewrite closed_word. pose proof K_pos. destruct b; cbn [N.b2n]; rewrite ?N.mul_0_l, ?N.mul_1_l.
    - apply negb_true_iff, N.eqb_neq. lia.
    - reflexivity.
  Qed.

  Lemma closed_eqb b p : (N.land (word b p) (p_closed P) =? 0) = negb b.
  Proof. rewrite <- (closed_test b p) at 2. now rewrite negb_involutive. Qed.

  Lemma unclosed_word b p : N.land (word b p) (N.lnot (p_closed P) (p_width P)) = enc p.
  Proof.
    rewrite P_closed, P_width. pose proof (word_lt b p).
    unfold CoreArith.enc, CoreArith.word in *. cbn [N.b2n].
    pose proof (field_unclosed (kbits cap) W (gfield W cap p) (N.b2n b) (ifield cap p)
                  (ifield_ltK p) (b2n_lt b)) as F.
    fold (kword cap) in F. fold (gword cap) in F. rewrite F; [lia|lia|apply k_lt_W].
  Qed.

  Lemma set_closed_word b p : N.lor (word b p) (p_closed P) = word true p.
  Proof.
    rewrite P_closed. unfold CoreArith.word.
    pose proof (field_set_closed (kbits cap) (gfield W cap p) (N.b2n b) (ifield cap p)
                  (ifield_ltK p) (b2n_lt b)) as F. exact F.
  Qed.

  (** ** Moving to the next position *)
  Lemma mod_S p : (S (p mod cap) < cap)%nat -> (S p mod cap = S (p mod cap) /\ S p / cap = p / cap)%nat.
  Proof.
    intros H. pose proof cap_pos. pose proof (Nat.div_mod p cap).
    assert (E : (S p = cap * (p / cap) + S (p mod cap))%nat) by lia.
    split; symmetry; [eapply Nat.mod_unique|eapply Nat.div_unique]; try exact E; lia.
  Qed.

  Lemma mod_S_wrap p : (S (p mod cap) >= cap)%nat -> (S p mod cap = 0 /\ S p / cap = S (p / cap))%nat.
  Proof.
    intros H. pose proof cap_pos. pose proof (Nat.div_mod p cap). pose proof (Nat.mod_upper_bound p cap).
    assert (E : (S p = cap * S (p / cap) + 0)%nat) by nia.
    split; symmetry; [eapply Nat.mod_unique|eapply Nat.div_unique]; try exact E; lia.
  Qed.

  Lemma gen_wrap g : ((g mod ngen) * G + G) mod 2 ^ W = ((g + 1) mod ngen) * G.
  Proof.
    pose proof ngen_ge2. pose proof K_pos. pose proof G_eq.
    rewrite W_split. replace ((g mod ngen) * G + G) with (((g mod ngen) + 1) * G) by lia.
    rewrite N.mul_mod_distr_r by lia. rewrite N.add_mod_idemp_l by lia. reflexivity.
  Qed.

  Lemma next_enc p : next P (ifield cap p) (gfield W cap p * G) = enc (S p).
  Proof.
    unfold next. rewrite P_capacity, P_mod, P_gen.
    destruct (N.ltb_spec (ifield cap p + 1) (N.of_nat cap)) as [H|H].
    - unfold kword, gword.
      rewrite (field_join (kbits cap)) by apply ifield_ltK. fold (gword cap).
      unfold ifield in H. destruct (mod_S p) as [E1 E2]; [lia|].
      unfold CoreArith.enc, CoreArith.word, gfield, ifield. rewrite E1, E2. cbn [N.b2n]. lia.
    - unfold wrapping_add, gfield. rewrite gen_wrap.
      unfold ifield in H. destruct (mod_S_wrap p) as [E1 E2]; [lia|].
      unfold CoreArith.enc, CoreArith.word, gfield, ifield. rewrite E1, E2. cbn [N.b2n].
      rewrite Nat2N.inj_succ, <- N.add_1_r. lia.
  Qed.

  Lemma div_add_cap p : ((p + cap) / cap = S (p / cap))%nat.
  Proof. pose proof cap_pos. replace (p + cap)%nat with (p + 1 * cap)%nat by lia. rewrite Nat.div_add; lia. Qed.
  Lemma mod_add_cap p : ((p + cap) mod cap = p mod cap)%nat.
  Proof. pose proof cap_pos. replace (p + cap)%nat with (p + 1 * cap)%nat by lia. rewrite Nat.mod_add; lia. Qed.

  Lemma ifield_add_cap p : ifield cap (p + cap) = ifield cap p.
  Proof. unfold ifield. now rewrite mod_add_cap. Qed.

  Lemma wadd_gen_gen p i : i < K -> (gfield W cap p * G + i + G) mod 2 ^ W = gfield W cap (p + cap) * G + i.
  Proof.
    intros Hi. unfold gfield. rewrite div_add_cap, Nat2N.inj_succ, <- N.add_1_r.
    rewrite <- gen_wrap.
    replace (N.of_nat (p / cap) mod ngen * G + i + G) with ((N.of_nat (p / cap) mod ngen + 1) * G + i) by lia.
    replace (N.of_nat (p / cap) mod ngen * G + G) with ((N.of_nat (p / cap) mod ngen + 1) * G) by lia.
    pose proof ngen_ge2. pose proof K_pos. pose proof G_eq.
    rewrite W_split. rewrite N.mul_mod_distr_r by lia.
    set (a := N.of_nat (p / cap) mod ngen + 1).
    assert (i < G) by lia.
    rewrite (N.mul_comm ngen G), N.mod_mul_r by lia.
    rewrite (N.add_comm (a * G) i), N.mod_add, N.div_add, !N.div_small, N.mod_small by lia.
    rewrite N.add_0_l. lia.
  Qed.

  Lemma wadd_gen p : wrapping_add (p_mod P) (enc p) (p_gen P) = enc (p + cap).
  Proof.
    unfold wrapping_add. rewrite P_mod, P_gen. unfold CoreArith.enc, CoreArith.word. cbn [N.b2n].
    rewrite N.mul_0_l, !N.add_0_r. rewrite wadd_gen_gen by apply ifield_ltK.
    now rewrite ifield_add_cap.
  Qed.

  Lemma wadd_gen1 p : wrapping_add (p_mod P) (enc p + 1) (p_gen P) = enc (p + cap) + 1.
  Proof.
    unfold wrapping_add. rewrite P_mod, P_gen. unfold CoreArith.enc, CoreArith.word. cbn [N.b2n].
    rewrite N.mul_0_l, !N.add_0_r. rewrite <- (N.add_assoc _ (ifield cap p) 1).
    rewrite wadd_gen_gen by (pose proof (ifield_lt p); pose proof cap_lt_K; lia).
    rewrite ifield_add_cap. lia.
  Qed.

  (** ** Injectivity *)
  Lemma word_inj b p b' q : word b p = word b' q ->
    b = b' /\ ifield cap p = ifield cap q /\ gfield W cap p = gfield W cap q.
  Proof.
    intros E. pose proof (idx_gen_word b p) as E1. pose proof (idx_gen_word b' q) as E2.
    pose proof (closed_word b p) as E3. pose proof (closed_word b' q) as E4.
    rewrite E in E1, E3. rewrite E1 in E2. rewrite E3 in E4. injection E2 as H1 H2.
    pose proof K_pos. pose proof G_eq.
    split; [|split]; [|exact H1|].
    - destruct b, b'; cbn [N.b2n] in E4; auto; lia.
    - apply N.mul_cancel_r in H2; lia.
  Qed.

  Lemma fields_inj p q : ifield cap p = ifield cap q -> gfield W cap p = gfield W cap q ->
    (p <= q)%nat -> N.of_nat q < N.of_nat p + span W cap -> p = q.
  Proof.
    unfold ifield, gfield, span. intros Hi Hg Hle Hlt.
    pose proof cap_pos as Hc. pose proof ngen_ge2 as Hn.
    assert (Hm : (p mod cap = q mod cap)%nat) by lia.
    assert (Hp : (p = cap * (p / cap) + p mod cap)%nat) by (apply Nat.div_mod; lia).
    assert (Hq : (q = cap * (q / cap) + q mod cap)%nat) by (apply Nat.div_mod; lia).
    assert (Hd : (p / cap <= q / cap)%nat) by (apply Nat.div_le_mono; lia).
    rewrite <- Hm in Hq. clear Hm Hi.
    revert Hp Hq Hg Hd. generalize (p / cap)%nat (q / cap)%nat (p mod cap)%nat.
    intros a d r Hp Hq Hg Hd.
    assert (Hd2 : N.of_nat d < N.of_nat a + ngen).
    { clear Hg Hd Hle. subst p q. clear -Hlt Hc. nia. }
    cut (N.of_nat a = N.of_nat d); [intros E; apply Nat2N.inj in E; congruence|].
    eapply mod_close; eauto; lia.
  Qed.

  Lemma enc_inj p q : enc p = enc q -> (p <= q)%nat ->
    N.of_nat q < N.of_nat p + span W cap -> p = q.
  Proof. intros E. apply word_inj in E as (_ & ? & ?). now apply fields_inj. Qed.

  Lemma enc_S_neq p q : ifield cap p = ifield cap q -> enc p + 1 <> enc q.
  Proof.
    unfold CoreArith.enc, CoreArith.word. cbn [N.b2n]. intros Hi E.
    pose proof (ifield_lt p). pose proof cap_lt_K. pose proof G_eq. pose proof K_pos.
    assert (gfield W cap p = gfield W cap q) by nia. nia.
  Qed.

  Lemma enc_neq_cap p : enc (p + cap) <> enc p.
  Proof.
    intros E. symmetry in E. apply enc_inj in E; pose proof cap_pos; [lia|lia|].
    unfold span. pose proof ngen_ge2. nia.
  Qed.

  Lemma gfield_zero p : gfield W cap p * G = 0 <-> N.of_nat (p / cap) mod ngen = 0.
  Proof. unfold gfield. pose proof K_pos. pose proof G_eq. nia. Qed.

  Lemma mod_window p q : ifield cap p = ifield cap q -> (p <= q)%nat -> (q < p + cap)%nat -> p = q.
  Proof.
    unfold ifield. intros Hi H1 H2. pose proof cap_pos.
    pose proof (Nat.div_mod p cap). pose proof (Nat.div_mod q cap).
    assert (p mod cap = q mod cap)%nat by lia.
    assert (p / cap = q / cap)%nat; [|nia]. nia.
  Qed.

  Lemma enc_small p : (p < cap)%nat -> enc p = N.of_nat p.
  Proof.
    intros H. unfold CoreArith.enc, CoreArith.word, ifield, gfield.
    rewrite Nat.div_small, Nat.mod_small by assumption. pose proof ngen_ge2.
    change (N.of_nat 0) with 0. rewrite N.mod_0_l by lia. cbn [N.b2n]. lia.
  Qed.
End Arith.
