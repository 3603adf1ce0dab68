(** The scalar rounding helper with the roundings of double and float. *)
From Coq Require Import Reals Lra Lia ZArith.
From Flocq Require Import Core.Core Relative.
From Verif Require Import Rounding RoundingThms.
Local Open Scope R_scope.

(** Rounding to the formats of double and float, to nearest even, with gradual
    underflow.  Simplification: unbounded exponents upwards, that is, no overflow. *)
Definition fl64 (x : R) : R := round radix2 (FLT_exp (-1074) 53) ZnearestE x.
Definition fl32 (x : R) : R := round radix2 (FLT_exp (-149) 24) ZnearestE x.

(** round_to_decimal_place(float, size_t), utils.hpp:43-49: std::pow(10.0f,
    size_t) is std::pow(double, double), the product and the quotient are
    double, the result is converted to float.  Simplification: std::pow is
    correctly rounded. *)
Definition round_to_fl (d : nat) (n : R) : R :=
  let multiplier := fl64 (10 ^ d) in
  fl32 (fl64 (c_round (fl64 (n * multiplier)) / multiplier)).

Local Instance prec_double : Prec_gt_0 53 := eq_refl.
Local Instance prec_float : Prec_gt_0 24 := eq_refl.

Lemma fl64_mono x y : x <= y -> fl64 x <= fl64 y.
Proof. apply round_le; typeclasses eauto. Qed.
Lemma fl32_mono x y : x <= y -> fl32 x <= fl32 y.
Proof. apply round_le; typeclasses eauto. Qed.
Lemma fl64_opp x : fl64 (- x) = - fl64 x.
Proof. apply round_NE_opp. Qed.
Lemma fl32_opp x : fl32 (- x) = - fl32 x.
Proof. apply round_NE_opp. Qed.
Lemma fl64_pow10_pos d : 0 < fl64 (10 ^ d).
Proof.
  apply Rlt_le_trans with (fl64 1); [|apply fl64_mono, pow_R1_Rle; lra].
  unfold fl64. rewrite round_generic; [lra|typeclasses eauto|].
  change 1 with (bpow radix2 0). apply generic_format_bpow. compute. discriminate.
Qed.

(** Monotone and odd, for every number of decimals *)
Lemma round_to_fl_mono d x y : x <= y -> round_to_fl d x <= round_to_fl d y.
Proof.
  intros H. pose proof (fl64_pow10_pos d) as P. apply fl32_mono, fl64_mono.
  apply Rmult_le_compat_r; [left; now apply Rinv_0_lt_compat|].
  apply c_round_mono, fl64_mono, Rmult_le_compat_r; lra.
Qed.
Lemma round_to_fl_opp d x : round_to_fl d (- x) = - round_to_fl d x.
Proof.
  unfold round_to_fl. cbv zeta. rewrite Ropp_mult_distr_l_reverse, fl64_opp, c_round_opp.
  unfold Rdiv. now rewrite Ropp_mult_distr_l_reverse, fl64_opp, fl32_opp.
Qed.

(** Up to 22 decimals the multiplier is exact. *)
Lemma fl64_pow10 d : (d <= 22)%nat -> fl64 (10 ^ d) = 10 ^ d.
Proof.
  intros H. unfold fl64. apply round_generic; [typeclasses eauto|].
  apply generic_format_FLT. exists (Float radix2 (5 ^ Z.of_nat d) (Z.of_nat d)).
  - unfold F2R. cbn [Fnum Fexp]. rewrite pow_IZR. change 10%Z with (5 * 2)%Z.
    rewrite Z.pow_mul_l, mult_IZR. f_equal. rewrite bpow_powerRZ. cbn. rewrite <- pow_powerRZ. now rewrite <- pow_IZR.
  - cbn [Fnum]. rewrite Z.abs_eq by (apply Z.pow_nonneg; lia).
    apply Z.le_lt_trans with (5 ^ 22)%Z; [apply Z.pow_le_mono_r; lia|reflexivity].
  - cbn [Fexp]. lia.
Qed.

(** Relative errors *)
Lemma bpow_neg (n : nat) : bpow radix2 (- Z.of_nat n) = / 2 ^ n.
Proof. rewrite bpow_opp, bpow_powerRZ, <- pow_powerRZ. reflexivity. Qed.
Lemma half_pow (n : nat) : / 2 * / 2 ^ n = / 2 ^ S n.
Proof. rewrite <- Rinv_mult, tech_pow_Rmult. reflexivity. Qed.
Lemma fl64_error x : / 2 ^ 200 <= Rabs x -> Rabs (fl64 x - x) <= / 2 ^ 53 * Rabs x.
Proof.
  intros H. rewrite <- (half_pow 52), <- (bpow_neg 52).
  apply (relative_error_N_FLT radix2 (-1074) 53); [reflexivity|].
  eapply Rle_trans; [|exact H]. rewrite <- bpow_neg. apply bpow_le. cbn. lia.
Qed.
Lemma fl32_error x : / 2 ^ 100 <= Rabs x -> Rabs (fl32 x - x) <= / 2 ^ 24 * Rabs x.
Proof.
  intros H. rewrite <- (half_pow 23), <- (bpow_neg 23).
  apply (relative_error_N_FLT radix2 (-149) 24); [reflexivity|].
  eapply Rle_trans; [|exact H]. rewrite <- bpow_neg. apply bpow_le. cbn. lia.
Qed.

(** How far the quotient is from a multiple of the last decimal *)
Lemma quotient_error d k : (d <= 22)%nat ->
  Rabs (fl32 (fl64 (IZR k / 10 ^ d)) * 10 ^ d - IZR k) <= 3 * / 2 ^ 25 * Rabs (IZR k).
Proof.
  intros Hd. pose proof (pow10_pos d) as P.
  assert (HP : 10 ^ d <= 10 ^ 22) by (apply Rle_pow; [lra|lia]).
  destruct (Z.eq_dec k 0) as [->|Hk0].
  { unfold Rdiv. rewrite Rmult_0_l. unfold fl64. rewrite round_0 by typeclasses eauto.
    unfold fl32. rewrite round_0 by typeclasses eauto. rewrite Rmult_0_l, Rminus_0_r, Rabs_R0. lra. }
  assert (K1 : 1 <= Rabs (IZR k)) by (rewrite <- abs_IZR; apply (IZR_le 1); lia).
  set (a := IZR k) in *. set (q := a / 10 ^ d).
  assert (Q : Rabs q * 10 ^ d = Rabs a).
  { rewrite <- scale_abs. f_equal. unfold q. field. lra. }
  assert (Qlo : / 2 ^ 90 <= Rabs q).
  { apply (Rmult_le_reg_r (10 ^ d)); [lra|]. rewrite Q. apply Rle_trans with 1; [|lra].
    apply Rle_trans with (/ 2 ^ 90 * 10 ^ 22); [apply Rmult_le_compat_l; lra|lra]. }
  assert (E1 := fl64_error q ltac:(lra)). set (q1 := fl64 q) in *.
  assert (Q1 : Rabs q1 <= Rabs q * (1 + / 2 ^ 53) /\ Rabs q * (1 - / 2 ^ 53) <= Rabs q1).
  { pose proof (Rabs_triang (q1 - q) q) as T1. replace (q1 - q + q) with q1 in T1 by lra.
    pose proof (Rabs_triang (q - q1) q1) as T2. replace (q - q1 + q1) with q in T2 by lra.
    rewrite (Rabs_minus_sym q q1) in T2. lra. }
  assert (E2 := fl32_error q1 ltac:(lra)). set (q2 := fl32 q1) in *.
  assert (E3 : Rabs (q2 - q) <= 3 * / 2 ^ 25 * Rabs q).
  { replace (q2 - q) with ((q2 - q1) + (q1 - q)) by lra. eapply Rle_trans; [apply Rabs_triang|]. lra. }
  replace (q2 * 10 ^ d - a) with ((q2 - q) * 10 ^ d) by (unfold q; field; lra).
  rewrite scale_abs, <- Q, <- Rmult_assoc. apply Rmult_le_compat_r; lra.
Qed.
Lemma recover d k : (d <= 22)%nat -> Rabs (IZR k) <= 2 ^ 22 ->
  c_round (fl64 (fl32 (fl64 (IZR k / 10 ^ d)) * 10 ^ d)) = IZR k.
Proof.
  intros Hd K2. pose proof (quotient_error d k Hd) as E4.
  destruct (Z.eq_dec k 0) as [->|Hk0].
  { unfold Rdiv. rewrite Rmult_0_l. unfold fl64 at 2. rewrite round_0 by typeclasses eauto.
    unfold fl32. rewrite round_0 by typeclasses eauto. rewrite Rmult_0_l. unfold fl64.
    rewrite round_0 by typeclasses eauto. apply (c_round_fix 0). }
  assert (K1 : 1 <= Rabs (IZR k)) by (rewrite <- abs_IZR; apply (IZR_le 1); lia).
  set (a := IZR k) in *. set (p := fl32 _ * 10 ^ d) in *.
  assert (P1 : Rabs a - 3 / 8 <= Rabs p <= Rabs a + 3 / 8).
  { pose proof (Rabs_triang (p - a) a) as T1. replace (p - a + a) with p in T1 by lra.
    pose proof (Rabs_triang (a - p) p) as T2. replace (a - p + p) with a in T2 by lra.
    rewrite (Rabs_minus_sym a p) in T2. lra. }
  assert (E5 := fl64_error p ltac:(lra)). set (p1 := fl64 p) in *.
  assert (E6 : Rabs (p1 - a) < 1 / 2).
  { replace (p1 - a) with ((p1 - p) + (p - a)) by lra. eapply Rle_lt_trans; [apply Rabs_triang|]. lra. }
  unfold a. rewrite Rabs_minus_sym in E6. apply c_round_unique; fold a; lra.
Qed.
(** Bounds carried through *)
Lemma fl64_int m : (Z.abs m <= 2 ^ 52)%Z -> fl64 (IZR m) = IZR m.
Proof.
  intros H. unfold fl64. apply round_generic; [typeclasses eauto|]. apply generic_format_FLT.
  exists (Float radix2 m 0); [unfold F2R; cbn; lra| |cbn; lia].
  cbn [Fnum]. apply Z.le_lt_trans with (1 := H). reflexivity.
Qed.
Lemma abs_between a b : 0 <= b -> Rabs a <= b <-> - b <= a <= b.
Proof. intros Hb. split; [apply Rabs_le_inv|apply Rabs_le]. Qed.
Lemma units_bound d x : Rabs x * 10 ^ d <= 2 ^ 22 -> Rabs (c_round (fl64 (x * 10 ^ d))) <= 2 ^ 22.
Proof.
  rewrite <- scale_abs. intros H. apply Rabs_le_inv in H. apply Rabs_le.
  assert (E : 2 ^ 22 = IZR (2 ^ 22)) by (apply (pow_IZR 2 22)).
  assert (E' : - 2 ^ 22 = IZR (- 2 ^ 22)) by (rewrite opp_IZR, <- E; reflexivity).
  assert (F : fl64 (2 ^ 22) = 2 ^ 22) by (rewrite E; apply fl64_int; cbn; lia).
  assert (F' : fl64 (- 2 ^ 22) = - 2 ^ 22) by (now rewrite fl64_opp, F).
  assert (C : c_round (2 ^ 22) = 2 ^ 22) by (rewrite E; apply c_round_fix).
  assert (C' : c_round (- 2 ^ 22) = - 2 ^ 22) by (rewrite E'; apply c_round_fix).
  split.
  - rewrite <- C'. apply c_round_mono. rewrite <- F'. apply fl64_mono. lra.
  - rewrite <- C. apply c_round_mono. rewrite <- F. apply fl64_mono. lra.
Qed.
Lemma round_to_fl_idem d x : (d <= 22)%nat -> Rabs x * 10 ^ d <= 2 ^ 22 ->
  round_to_fl d (round_to_fl d x) = round_to_fl d x.
Proof.
  intros Hd Hx%units_bound. unfold round_to_fl. cbv zeta. rewrite (fl64_pow10 d Hd).
  destruct (c_round_int (fl64 (x * 10 ^ d))) as [k E]. rewrite E in *.
  now rewrite recover.
Qed.
(** Not further away than one unit *)
Lemma round_to_fl_near d x : (d <= 22)%nat -> Rabs x * 10 ^ d <= 2 ^ 22 ->
  Rabs (round_to_fl d x - x) <= / 10 ^ d.
Proof.
  intros Hd Hx. pose proof (units_bound d x Hx) as Hk. pose proof (pow10_pos d) as P.
  unfold round_to_fl. cbv zeta. rewrite (fl64_pow10 d Hd).
  pose proof (c_round_near (fl64 (x * 10 ^ d))) as N.
  assert (F : Rabs (fl64 (x * 10 ^ d) - x * 10 ^ d) <= 1 / 2 ^ 20).
  { rewrite <- scale_abs in Hx. destruct (Rle_dec (/ 2 ^ 200) (Rabs (x * 10 ^ d))) as [L|L].
    - eapply Rle_trans; [apply fl64_error; exact L|]. lra.
    - assert (B : Rabs (x * 10 ^ d) <= bpow radix2 (-200)) by (change (-200)%Z with (- Z.of_nat 200)%Z; rewrite bpow_neg; lra).
      assert (G : fl64 (bpow radix2 (-200)) = bpow radix2 (-200)).
      { apply round_generic; [typeclasses eauto|]. apply generic_format_bpow. compute. discriminate. }
      apply Rabs_le_inv in B.
      assert (U : fl64 (x * 10 ^ d) <= bpow radix2 (-200)) by (rewrite <- G; apply fl64_mono; lra).
      assert (V : - bpow radix2 (-200) <= fl64 (x * 10 ^ d)) by (rewrite <- G, <- fl64_opp; apply fl64_mono; lra).
      assert (W : bpow radix2 (-200) <= / 2 ^ 30) by (rewrite <- bpow_neg; apply bpow_le; cbn; lia).
      apply Rabs_le. lra. }
  destruct (c_round_int (fl64 (x * 10 ^ d))) as [k E]. rewrite E in *.
  pose proof (quotient_error d k Hd) as Q. set (y := fl32 (fl64 (IZR k / 10 ^ d))) in *.
  apply (Rmult_le_reg_r (10 ^ d)); [lra|]. rewrite Rinv_l by lra. rewrite <- scale_abs, Rmult_minus_distr_r.
  replace (y * 10 ^ d - x * 10 ^ d) with ((y * 10 ^ d - IZR k) + ((IZR k - fl64 (x * 10 ^ d)) + (fl64 (x * 10 ^ d) - x * 10 ^ d))) by lra.
  eapply Rle_trans; [apply Rabs_triang|]. eapply Rle_trans; [apply Rplus_le_compat_l, Rabs_triang|]. lra.
Qed.
