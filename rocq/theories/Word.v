(** Machine words: [N] below [2^W], and the bit-level facts the ring needs. *)
From Coq Require Import NArith Lia Arith.
From Coq Require Import ZifyN ZifyNat ZifyBool.
Local Open Scope N_scope.

(** usize::next_power_of_two (Rust core): the smallest power of two >= n.
    Used at /repo/src/lib.rs:109. *)
Definition next_power_of_two (n : N) : N := 2 ^ N.log2_up n.

(** usize::wrapping_add (Rust core), used at /repo/src/lib.rs:159,260,269,324. *)
Definition wrapping_add (M a b : N) : N := (a + b) mod M.

Lemma npow2_is_pow2 n : exists k, next_power_of_two n = 2 ^ k.
Proof. now exists (N.log2_up n). Qed.

Lemma npow2_ge n : n <= next_power_of_two n.
Proof.
  unfold next_power_of_two. destruct (N.le_gt_cases n 1).
  - rewrite N.log2_up_eqn0 by lia. simpl. lia.
  - pose proof (N.log2_up_spec n). lia.
Qed.

Lemma npow2_lt n : 1 < n -> next_power_of_two n < 2 * n.
Proof.
  intros H. unfold next_power_of_two. pose proof (N.log2_up_spec n H) as [H1 H2].
  assert (0 < N.log2_up n) by (apply N.log2_up_pos; lia).
  replace (N.log2_up n) with (N.succ (N.pred (N.log2_up n))) by lia.
  rewrite N.pow_succ_r'. lia.
Qed.

(** ** Masks *)

Lemma land_low a k : N.land a (2 ^ k - 1) = a mod 2 ^ k.
Proof.
  rewrite <- N.land_ones. f_equal. rewrite N.ones_equiv. lia.
Qed.

(** A word [g * 2^(k+1) + c * 2^k + i] with [i < 2^k], [c < 2]. *)
Section Fields.
  Variable k : N.
  Let K := 2 ^ k.
  Let G := 2 ^ (k + 1).

  Lemma Kpos : 0 < K.
  Proof. unfold K. apply N.neq_0_lt_0, N.pow_nonzero; lia. Qed.

  Lemma G_2K : G = 2 * K.
  Proof. unfold G, K. rewrite N.add_1_r, N.pow_succ_r'. reflexivity. Qed.

  Lemma field_idx g c i : i < K -> N.land (g * G + c * K + i) (K - 1) = i.
  Proof.
    intros Hi. unfold K at 2. rewrite land_low. fold K.
    rewrite G_2K. replace (g * (2 * K) + c * K + i) with (i + (2 * g + c) * K) by lia.
    rewrite N.mod_add by (pose proof Kpos; lia). now apply N.mod_small.
  Qed.

  Lemma testbit_k g c i : i < K -> c < 2 -> N.testbit (g * G + c * K + i) k = N.eqb c 1.
  Proof.
    intros Hi Hc. rewrite N.testbit_eqb. fold K. rewrite G_2K.
    replace (g * (2 * K) + c * K + i) with (i + (2 * g + c) * K) by lia.
    pose proof Kpos.
    rewrite N.div_add by lia. rewrite N.div_small by lia.
    replace (0 + (2 * g + c)) with (c + g * 2) by lia.
    rewrite N.mod_add by lia. now rewrite N.mod_small by lia.
  Qed.

  Lemma field_closed g c i : i < K -> c < 2 ->
    N.land (g * G + c * K + i) K = c * K.
  Proof.
    intros Hi Hc. apply N.bits_inj. intros n. rewrite N.land_spec.
    unfold K at 2. rewrite N.pow2_bits_eqb.
    destruct (N.eqb_spec k n) as [<-|Hn].
    - rewrite testbit_k by assumption. rewrite Bool.andb_true_r.
      assert (c = 0 \/ c = 1) as [-> | ->] by lia.
      + now rewrite N.mul_0_l, N.bits_0.
      + rewrite N.mul_1_l. unfold K. now rewrite N.pow2_bits_true.
    - rewrite Bool.andb_false_r.
      assert (c = 0 \/ c = 1) as [-> | ->] by lia.
      + now rewrite N.mul_0_l, N.bits_0.
      + rewrite N.mul_1_l. unfold K. now rewrite N.pow2_bits_false.
  Qed.

  Lemma testbit_hi g c i n : i < K -> c < 2 -> k < n ->
    N.testbit (g * G + c * K + i) n = N.testbit (g * G) n.
  Proof.
    intros Hi Hc Hn.
    rewrite <- (N.sub_add (k+1) n) by lia.
    rewrite <- !N.div_pow2_bits. fold G.
    pose proof Kpos. assert (0 < G) by (rewrite G_2K; lia).
    f_equal. replace (g * G + c * K + i) with (c * K + i + g * G) by lia.
    rewrite N.div_add, N.div_mul by lia. rewrite N.div_small; [lia|].
    rewrite G_2K. nia.
  Qed.

  Lemma testbit_lowG g n : n <= k -> N.testbit (g * G) n = false.
  Proof.
    intros Hn. unfold G. apply N.mul_pow2_bits_low. lia.
  Qed.

  (** [val & !(closed | idx_mask)] keeps exactly the generation field. *)
  Lemma field_gen W g c i : i < K -> c < 2 -> g * G + c * K + i < 2 ^ W -> k < W ->
    N.land (g * G + c * K + i) (N.lnot (N.lor K (K - 1)) W) = g * G.
  Proof.
    intros Hi Hc HW HkW. apply N.bits_inj. intros n. rewrite N.land_spec.
    assert (Hlor : N.testbit (N.lor K (K - 1)) n = (n <=? k)%N).
    { rewrite N.lor_spec. unfold K at 1. rewrite N.pow2_bits_eqb.
      replace (K - 1) with (N.ones k) by (rewrite N.ones_equiv; unfold K; lia).
      destruct (N.eqb_spec k n) as [<-|Hne].
      - symmetry. cbn. apply N.leb_refl.
      - rewrite Bool.orb_false_l. destruct (N.le_gt_cases n k).
        + rewrite N.ones_spec_low by lia. symmetry. now apply N.leb_le.
        + rewrite N.ones_spec_high by lia. symmetry. apply N.leb_gt. lia. }
    destruct (N.le_gt_cases W n) as [HWn|HWn].
    - assert (N.testbit (g * G + c * K + i) n = false) as ->.
      { apply N.bits_above_log2. destruct (N.eq_dec (g * G + c * K + i) 0) as [->|H0].
        - cbn. lia.
        - apply N.log2_lt_pow2 in HW; lia. }
      cbn. symmetry. destruct (N.eq_dec (g * G) 0) as [->|H0].
      + apply N.bits_0.
      + apply N.bits_above_log2.
        assert (HG: g * G < 2 ^ W) by lia.
        apply N.log2_lt_pow2 in HG; lia.
    - rewrite N.lnot_spec_low by assumption. rewrite Hlor.
      destruct (N.leb_spec n k).
      + cbn. rewrite Bool.andb_false_r. symmetry. now apply testbit_lowG.
      + cbn. rewrite Bool.andb_true_r. now apply testbit_hi.
  Qed.

  (** [tail & !closed]. *)
  Lemma field_unclosed W g c i : i < K -> c < 2 -> g * G + c * K + i < 2 ^ W -> k < W ->
    N.land (g * G + c * K + i) (N.lnot K W) = g * G + i.
  Proof.
    intros Hi Hc HW HkW. set (a := g * G + c * K + i) in *.
    rewrite <- N.ldiff_land_low.
    2:{ destruct (N.eq_dec a 0) as [->|]; [cbn; lia|]. apply N.log2_lt_pow2; lia. }
    assert (Hs : N.ldiff a K + N.land a K = a).
    { rewrite N.add_nocarry_lxor, N.lxor_lor, N.lor_ldiff_and; try reflexivity.
      all: apply N.bits_inj; intros n;
        rewrite !N.land_spec, N.ldiff_spec, N.bits_0;
        destruct (N.testbit a n), (N.testbit K n); reflexivity. }
    unfold a in Hs at 2. rewrite field_closed in Hs by assumption. unfold a in *. lia.
  Qed.

  (** [tail | closed]. *)
  Lemma field_set_closed g c i : i < K -> c < 2 ->
    N.lor (g * G + c * K + i) K = g * G + 1 * K + i.
  Proof.
    intros Hi Hc. set (a := g * G + c * K + i).
    assert (Hs : N.ldiff a K + N.land a K = a).
    { rewrite N.add_nocarry_lxor, N.lxor_lor, N.lor_ldiff_and; try reflexivity.
      all: apply N.bits_inj; intros n;
        rewrite !N.land_spec, N.ldiff_spec, N.bits_0;
        destruct (N.testbit a n), (N.testbit K n); reflexivity. }
    assert (Ht : N.ldiff a K + K = N.lor a K).
    { rewrite N.add_nocarry_lxor, N.lxor_lor.
      1: apply N.bits_inj; intros n; rewrite !N.lor_spec, N.ldiff_spec;
         destruct (N.testbit a n), (N.testbit K n); reflexivity.
      all: apply N.bits_inj; intros n;
        rewrite !N.land_spec, N.ldiff_spec, N.bits_0;
        destruct (N.testbit a n), (N.testbit K n); reflexivity. }
    unfold a in Hs at 2. rewrite field_closed in Hs by assumption. unfold a in *. lia.
  Qed.

  (** [idx | gen]. *)
  Lemma field_join g i : i < K -> N.lor i (g * G) = g * G + i.
  Proof.
    intros Hi. rewrite N.add_comm. symmetry.
    assert (Hl : N.land i (g * G) = 0).
    { apply N.bits_inj. intros n. rewrite N.land_spec, N.bits_0.
      destruct (N.le_gt_cases n k).
      - rewrite testbit_lowG by assumption. apply Bool.andb_false_r.
      - replace (N.testbit i n) with false; [reflexivity|]. symmetry.
        destruct (N.eq_dec i 0) as [->|]; [apply N.bits_0|].
        apply N.bits_above_log2.
        assert (N.log2 i < k) by (apply N.log2_lt_pow2; [lia|exact Hi]). lia. }
    rewrite N.add_nocarry_lxor by exact Hl. now apply N.lxor_lor.
  Qed.
End Fields.
