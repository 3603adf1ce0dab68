(** Accurate trigonometric functions exist: the exact values, rounded. *)
From Coq Require Import ZArith Reals Lra Lia Bool Psatz.
From Flocq Require Import Core IEEE754.BinarySingleNaN.
From Verif Require Import Float FloatProofs Motion RealArith DoubleArith DoubleThms SumSquares64 PiDouble TrigSpec AngleAccuracy.
Local Open Scope R_scope.

(** The double nearest to a real number *)
Definition near64 (r : R) : f64 :=
  binary_normalize 53 1024 _ _ mode_NE (Ztrunc (scaled_mantissa radix2 fexp64 (rnd64 r))) (cexp radix2 fexp64 (rnd64 r)) false.
Lemma near64_value r : Rabs r <= bpow radix2 1000 -> B2R (near64 r) = rnd64 r /\ is_finite (near64 r) = true.
Proof.
  intros H. generalize (binary_normalize_correct 53 1024 _ _ mode_NE
    (Ztrunc (scaled_mantissa radix2 fexp64 (rnd64 r))) (cexp radix2 fexp64 (rnd64 r)) false). cbv zeta.
  assert (G : format64 (rnd64 r)) by (apply generic_format_round; typeclasses eauto).
  set (m := Ztrunc _). set (e := cexp _ _ _).
  assert (Q : F2R (Float radix2 m e) = rnd64 r) by (symmetry; exact G). rewrite Q. change (round_mode mode_NE) with ZnearestE. fold (rnd64 (rnd64 r)). rewrite (rnd64_id _ G).
  rewrite Rlt_bool_true; [intros (C1 & C2 & _); split; assumption|].
  eapply Rle_lt_trans; [apply (rnd64_bound r 1000); [lia|exact H]|]. apply bpow_lt. lia.
Qed.
Lemma small_enough r k : Rabs r <= k -> k <= 4 -> Rabs r <= bpow radix2 1000.
Proof.
  intros H K. apply Rle_trans with (bpow radix2 2); [change (bpow radix2 2) with 4; lra|]. apply bpow_le. lia.
Qed.
Lemma unit_near r : Rabs r <= 1 ->
  is_finite (near64 r) = true /\ Rabs (B2R (near64 r)) <= 1 /\ Rabs (B2R (near64 r) - r) <= bpow radix2 (-52).
Proof.
  intros H. destruct (near64_value r (small_enough r 1 H ltac:(lra))) as [-> F]. split; [exact F|]. split.
  - exact (rnd64_bound r 0 ltac:(lia) H).
  - eapply Rle_trans; [apply (rnd64_near r 1); [change (bpow radix2 1) with 2; lra|lia]|]. apply bpow_le. lia.
Qed.

Lemma argR_value r a : 0 < r -> - PI < a <= PI -> argR (r * cos a) (r * sin a) = a.
Proof.
  intros R0 H. unfold argR. pose proof (sin2_cos2 a) as P. unfold Rsqr in P.
  replace (r * cos a * (r * cos a) + r * sin a * (r * sin a)) with (r * r) by nra.
  rewrite sqrt_square by lra. destruct (Req_EM_T r 0); [lra|].
  replace (r * cos a / r) with (cos a) by (field; lra).
  destruct (Rlt_dec (r * sin a) 0) as [S|S].
  - assert (a < 0). { destruct (Rlt_dec a 0); [assumption|]. assert (0 <= sin a) by (apply sin_ge_0; lra). nra. }
    rewrite <- cos_neg, acos_cos by lra. lra.
  - assert (0 <= a). { destruct (Rle_dec 0 a); [assumption|]. assert (0 < sin (- a)) by (apply sin_gt_0; lra). rewrite sin_neg in *. nra. }
    rewrite acos_cos by lra. reflexivity.
Qed.

Lemma pi_rounds : rnd64 PI <= pi_real.
Proof.
  pose proof pi_real_close as PC. pose proof pi_real_bounds as PB. pose proof pi_eighteen as P18.
  change (bpow radix2 (-52)) with (/ 4503599627370496) in PC.
  assert (U : ulp radix2 fexp64 pi_real = / 2251799813685248).
  { rewrite ulp_neq_0 by lra. unfold cexp. rewrite (mag_unique_pos radix2 pi_real 2).
    - reflexivity.
    - change (bpow radix2 (2 - 1)) with 2. change (bpow radix2 2) with 4. unfold pi_real.
      change (bpow radix2 (-51)) with (/ 2251799813685248). lra. }
  apply round_N_le_midp; [typeclasses eauto| |].
  - unfold pi_real. apply format64_int; lia.
  - rewrite succ_eq_pos by lra. rewrite U. unfold pi_real in *. change (bpow radix2 (-51)) with (/ 2251799813685248) in *. lra.
Qed.

Lemma accurate_exists :
  accurate (fun x => near64 (sin (B2R x))) (fun x => near64 (cos (B2R x))) (fun x y => near64 (argR (B2R x) (B2R y))).
Proof.
  split.
  - intros x _. apply unit_near. apply Rabs_le. apply SIN_bound.
  - intros x _. apply unit_near. apply Rabs_le. apply COS_bound.
  - intros x y r a _ _ R0 -> -> Ha. rewrite (argR_value r a R0 Ha).
    pose proof pi_eighteen as P18. assert (A : Rabs a <= PI) by (apply Rabs_le; lra).
    destruct (near64_value a (small_enough a PI A ltac:(lra))) as [-> F]. destruct pi64_value as [-> _].
    split; [exact F|]. split.
    + assert (E : forall x, rnd64 (- x) = - rnd64 x).
      { intros z. unfold rnd64. apply round_NE_opp. }
      apply Rabs_le. split.
      * rewrite <- (Ropp_involutive a), E. apply Ropp_le_contravar.
        eapply Rle_trans; [apply (rnd64_le (- a) PI); lra|exact pi_rounds].
      * eapply Rle_trans; [apply (rnd64_le a PI); lra|exact pi_rounds].
    + exists 0%Z. replace (rnd64 a - (a + 0 * (2 * PI))) with (rnd64 a - a) by ring.
      eapply Rle_trans; [apply (rnd64_near a 2); [change (bpow radix2 2) with 4; lra|lia]|]. apply bpow_le. lia.
Qed.
