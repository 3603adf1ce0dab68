(** The units library's comparison with tolerance in double precision against the
    same comparison of the exact values. *)
From Coq Require Import ZArith Reals Lra Lia Bool Psatz List.
From Flocq Require Import Core Relative Mult_error IEEE754.BinarySingleNaN.
From Verif Require Import Float FloatProofs Motion RealArith DoubleArith DoubleThms SumSquares64 StateEq MotionAccuracy.
Import ListNotations.
Local Open Scope R_scope.

Lemma eps64_value : B2R dbl_eps64 = bpow radix2 (-52) /\ is_finite dbl_eps64 = true.
Proof.
  unfold dbl_eps64. pose proof (binary_normalize_correct 53 1024 _ _ mode_NE 1 (-52) false) as C.
  unfold F2R in C. cbn [Fnum Fexp round_mode] in C. rewrite Rmult_1_l in C.
  rewrite round_generic in C; [|typeclasses eauto|apply fmt64_bpow; lia].
  rewrite Rlt_bool_true in C; [tauto|]. rewrite Rabs_pos_eq by apply bpow_ge_0. apply bpow_lt. lia.
Qed.
(** Rounding commutes with scaling up by 2^52 above the subnormal range *)
Lemma rnd64_scale z : bpow radix2 (-1022) <= Rabs z -> rnd64 (z * bpow radix2 52) = rnd64 z * bpow radix2 52.
Proof.
  intros H. assert (NZ : z <> 0) by (intros ->; rewrite Rabs_R0 in H; pose proof (bpow_gt_0 radix2 (-1022)); lra).
  assert (M : (-1021 <= mag radix2 z)%Z) by (pose proof (mag_ge_bpow radix2 z (-1021) H); lia).
  unfold rnd64, round, F2R, scaled_mantissa, cexp. cbn [Fnum Fexp]. rewrite mag_mult_bpow by exact NZ.
  set (m := mag radix2 z : Z) in *.
  assert (E : fexp64 (m + 52) = (fexp64 m + 52)%Z) by (unfold SpecFloat.fexp, SpecFloat.emin; lia). rewrite E.
  rewrite (Z.opp_add_distr _ 52). replace (z * bpow radix2 52 * bpow radix2 (- fexp64 m + - (52))) with (z * bpow radix2 (- fexp64 m)).
  - rewrite bpow_plus. ring.
  - rewrite Rmult_assoc, <- bpow_plus. do 2 f_equal. lia.
Qed.
Lemma rnd64_rel z : bpow radix2 (-1022) <= Rabs z -> Rabs (rnd64 z - z) <= bpow radix2 (-53) * Rabs z.
Proof.
  intros H. unfold rnd64. pose proof (relative_error_N_FLT radix2 (-1074) 53 ltac:(lia) (fun x => negb (Z.even x)) z) as R.
  change (-1074 + 53 - 1)%Z with (-1022)%Z in R. specialize (R H).
  change (bpow radix2 (-53)) with (bpow radix2 (-1 + -52)). rewrite bpow_plus. change (bpow radix2 (-1)) with (/ 2). exact R.
Qed.
Lemma diff_exact (x y : f64) : Rabs (B2R x - B2R y) < bpow radix2 (-1022) -> rnd64 (B2R x - B2R y) = B2R x - B2R y.
Proof.
  intros H. apply rnd64_id. apply (generic_format_FLT radix2 (-1074) 53).
  pose proof (FLT_format_generic radix2 (-1074) 53 _ (fmt_B2R x)) as [[m1 e1] E1 _ L1].
  pose proof (FLT_format_generic radix2 (-1074) 53 _ (fmt_B2R y)) as [[m2 e2] E2 _ L2]. cbn [Fnum Fexp] in *.
  set (M := (m1 * 2 ^ (e1 + 1074) - m2 * 2 ^ (e2 + 1074))%Z).
  assert (E : B2R x - B2R y = F2R (Float radix2 M (-1074))).
  { rewrite E1, E2. unfold F2R, M. cbn [Fnum Fexp]. rewrite minus_IZR, !mult_IZR.
    replace (IZR (2 ^ (e1 + 1074))) with (bpow radix2 (e1 + 1074)) by (rewrite <- IZR_Zpower by lia; reflexivity).
    replace (IZR (2 ^ (e2 + 1074))) with (bpow radix2 (e2 + 1074)) by (rewrite <- IZR_Zpower by lia; reflexivity).
    rewrite Rmult_minus_distr_r, !Rmult_assoc, <- !bpow_plus. do 2 f_equal; f_equal; f_equal; lia. }
  exists (Float radix2 M (-1074)); cbn [Fnum Fexp]; [exact E| |lia].
  rewrite E in H. unfold F2R in H. cbn [Fnum Fexp] in H.
  rewrite Rabs_mult, (Rabs_pos_eq (bpow _ _)), <- abs_IZR in H by apply bpow_ge_0.
  apply lt_IZR. rewrite <- (Rmult_1_r (IZR (Z.abs M))). apply Rlt_trans with (bpow radix2 52).
  - apply (Rmult_lt_reg_r (bpow radix2 (-1074))); [apply bpow_gt_0|]. rewrite Rmult_1_r.
    rewrite <- (bpow_plus radix2 52). exact H.
  - rewrite IZR_Zpower by lia. apply bpow_lt. lia.
Qed.

Section Equal.
Variables x y : f64.
Hypotheses (Fx : is_finite x = true) (Fy : is_finite y = true)
  (Bx : Rabs (B2R x) <= bpow radix2 1000) (By : Rabs (B2R y) <= bpow radix2 1000).
Notation d := (Rabs (B2R x - B2R y)).
Notation S := (Rabs (B2R x + B2R y)).
Notation eps := (bpow radix2 (-52)).
Lemma equal_values : units_eqb64 x y = true <-> rnd64 d < rnd64 (eps * rnd64 S) \/ rnd64 d < bpow radix2 (-1022).
Proof.
  assert (T : forall u v, Rabs u <= bpow radix2 1000 -> Rabs v <= bpow radix2 1000 -> Rabs (u + v) <= bpow radix2 1001).
  { intros u v U V. eapply Rle_trans; [apply Rabs_triang|]. change 1001%Z with (1000 + 1)%Z. rewrite double_bpow. lra. }
  assert (BD : Rabs (B2R x - B2R y) <= bpow radix2 1001) by (apply T; [exact Bx|now rewrite Rabs_Ropp]).
  assert (BS : Rabs (B2R x + B2R y) <= bpow radix2 1001) by (now apply T).
  destruct (minus64_value x y 1001 ltac:(lia) Fx Fy BD) as [E1 F1].
  destruct (plus64_value x y 1001 ltac:(lia) Fx Fy BS) as [E2 F2].
  destruct eps64_value as [Ee Fe].
  assert (F3 : is_finite (Babs (Bminus mode_NE x y)) = true) by now rewrite is_finite_Babs.
  assert (F4 : is_finite (Babs (Bplus mode_NE x y)) = true) by now rewrite is_finite_Babs.
  assert (ABS : forall z, Rabs (rnd64 z) = rnd64 (Rabs z)) by (intros z; symmetry; apply round_NE_abs; typeclasses eauto).
  assert (V4 : B2R (Babs (Bplus mode_NE x y)) = rnd64 S) by (rewrite B2R_Babs, E2; apply ABS).
  assert (V3 : B2R (Babs (Bminus mode_NE x y)) = rnd64 d) by (rewrite B2R_Babs, E1; apply ABS).
  assert (BM : Rabs (B2R dbl_eps64 * B2R (Babs (Bplus mode_NE x y))) <= bpow radix2 1001).
  { rewrite Ee, V4, Rabs_mult, (Rabs_pos_eq (bpow _ _)) by apply bpow_ge_0.
    rewrite <- (Rmult_1_l (bpow radix2 1001)). apply Rmult_le_compat; auto using bpow_ge_0, Rabs_pos.
    - change 1 with (bpow radix2 0). apply bpow_le. lia.
    - apply rnd64_bound; [lia|]. now rewrite Rabs_Rabsolu. }
  destruct (mult64_value _ _ 1001 ltac:(lia) Fe F4 BM) as [E5 F5]. rewrite Ee, V4 in E5.
  unfold units_eqb64. rewrite orb_true_iff. rewrite !Bltb_correct by (try assumption; exact (proj2 dbl_min64_value)).
  rewrite V3, E5. rewrite (proj1 dbl_min64_value).
  split; (intros [H|H]; [left|right]).
  - destruct (Rlt_bool_spec (rnd64 d) (rnd64 (eps * rnd64 S))); [assumption|discriminate].
  - destruct (Rlt_bool_spec (rnd64 d) (bpow radix2 (-1022))); [assumption|discriminate].
  - now apply Rlt_bool_true.
  - now apply Rlt_bool_true.
Qed.
Lemma small_exact : rnd64 d < bpow radix2 (-1022) <-> d < bpow radix2 (-1022).
Proof.
  split; intros H.
  - apply Rnot_le_lt. intros C. assert (bpow radix2 (-1022) <= Rabs (rnd64 d)).
    { unfold rnd64. apply abs_round_ge_generic; [typeclasses eauto|typeclasses eauto|apply fmt64_bpow; lia|]. now rewrite Rabs_Rabsolu. }
    rewrite Rabs_pos_eq in H0; [lra|]. unfold rnd64. rewrite <- (round_0 radix2 fexp64 ZnearestE). apply round_le; [typeclasses eauto|typeclasses eauto|apply Rabs_pos].
  - pose proof (diff_exact x y H) as E. unfold rnd64 in *. rewrite round_NE_abs by typeclasses eauto. rewrite E. exact H.
Qed.
(** Equal in double precision: equal with the same tolerance in exact arithmetic. *)
Lemma equal_sound : units_eqb64 x y = true -> d < eps * S \/ d < bpow radix2 (-1022).
Proof.
  intros H. apply equal_values in H. destruct (Rlt_le_dec d (bpow radix2 (-1022))) as [L|L]; [now right|left].
  destruct H as [H|H]; [|apply small_exact in H; lra].
  apply Rnot_le_lt. intros C. apply (Rlt_not_le _ _ H).
  assert (Q : rnd64 S <= rnd64 d * bpow radix2 52).
  { rewrite <- rnd64_scale by now rewrite Rabs_Rabsolu. unfold rnd64. apply round_le; [typeclasses eauto|typeclasses eauto|].
    apply (Rmult_le_reg_l eps); [apply bpow_gt_0|]. eapply Rle_trans; [exact C|].
    rewrite (Rmult_comm d), <- Rmult_assoc, <- bpow_plus. change (bpow radix2 (-52 + 52)) with 1. lra. }
  assert (Q' : eps * rnd64 S <= rnd64 d).
  { apply Rle_trans with (eps * (rnd64 d * bpow radix2 52)); [apply Rmult_le_compat_l; [apply bpow_ge_0|exact Q]|].
    rewrite (Rmult_comm (rnd64 d)), <- Rmult_assoc, <- bpow_plus. change (bpow radix2 (-52 + 52)) with 1. lra. }
  rewrite <- (rnd64_id (rnd64 d)) by (apply generic_format_round; typeclasses eauto).
  unfold rnd64 at 1 3. apply round_le; [typeclasses eauto|typeclasses eauto|exact Q'].
Qed.
(** Closer than the tolerance, by a factor just below one: equal in double precision. *)
Lemma equal_complete : d < eps * S * (1 - eps) \/ d < bpow radix2 (-1022) -> units_eqb64 x y = true.
Proof.
  intros H. apply equal_values. destruct (Rlt_le_dec d (bpow radix2 (-1022))) as [L|L]; [right; now apply small_exact|].
  destruct H as [H|H]; [left|right; now apply small_exact].
  assert (EP : 0 < eps <= / 1000) by (split; [apply bpow_gt_0|change eps with (/ 4503599627370496); lra]).
  assert (E53 : bpow radix2 (-53) = eps / 2) by (change (-53)%Z with (-52 + -1)%Z; rewrite bpow_plus; reflexivity).
  pose proof (Rabs_pos (B2R x + B2R y)) as PS. pose proof (Rabs_pos (B2R x - B2R y)) as PD.
  assert (LS : bpow radix2 (-1022) <= S) by nra.
  pose proof (rnd64_rel d) as RD. rewrite Rabs_Rabsolu in RD. specialize (RD L).
  pose proof (rnd64_rel S) as RS. rewrite Rabs_Rabsolu in RS. specialize (RS LS).
  rewrite E53 in RD, RS. apply Rabs_le_inv in RD, RS.
  assert (LT : rnd64 d < eps * rnd64 S).
  { apply Rle_lt_trans with (d * (1 + eps / 2)); [lra|]. apply Rlt_le_trans with (eps * (S * (1 - eps / 2))); [|apply Rmult_le_compat_l; lra].
    apply Rlt_le_trans with (eps * S * (1 - eps) * (1 + eps / 2)); [apply Rmult_lt_compat_r; lra|].
    assert (0 <= eps * S) by (apply Rmult_le_pos; lra). nra. }
  assert (G : fmt (eps * rnd64 S)).
  { assert (PR : bpow radix2 (-1022) <= rnd64 d).
    { assert (Q : bpow radix2 (-1022) <= Rabs (rnd64 d)).
      { unfold rnd64. apply abs_round_ge_generic; [typeclasses eauto|typeclasses eauto|apply fmt64_bpow; lia|now rewrite Rabs_Rabsolu]. }
      rewrite Rabs_pos_eq in Q; [exact Q|]. nra. }
    rewrite Rmult_comm. apply (mult_bpow_exact_FLT radix2 (-1074) 53); [apply generic_format_round; typeclasses eauto|].
    assert (GE : bpow radix2 (-970) <= Rabs (rnd64 S)).
    { rewrite Rabs_pos_eq by nra. apply (Rmult_le_reg_l eps); [lra|]. rewrite <- bpow_plus. change (-52 + -970)%Z with (-1022)%Z. lra. }
    pose proof (mag_ge_bpow radix2 (rnd64 S) (-969) GE). lia. }
  rewrite (rnd64_id (eps * rnd64 S) G). exact LT.
Qed.
End Equal.

Lemma pow_bpow n : 2 ^ n = bpow radix2 (Z.of_nat n).
Proof. rewrite <- IZR_Zpower by lia. change 2 with (IZR 2). rewrite pow_IZR. reflexivity. Qed.
Lemma equal_sound' (x y : f64) : is_finite x = true -> is_finite y = true -> Rabs (B2R x) <= 2 ^ 1000 -> Rabs (B2R y) <= 2 ^ 1000 ->
  units_eqb64 x y = true ->
  Rabs (B2R x - B2R y) < / 2 ^ 52 * Rabs (B2R x + B2R y) * 1 \/ Rabs (B2R x - B2R y) < / 2 ^ 1022.
Proof.
  rewrite !pow_bpow, <- !bpow_opp, Rmult_1_r. exact (equal_sound x y).
Qed.
Lemma equal_complete' (x y : f64) : is_finite x = true -> is_finite y = true -> Rabs (B2R x) <= 2 ^ 1000 -> Rabs (B2R y) <= 2 ^ 1000 ->
  Rabs (B2R x - B2R y) < / 2 ^ 52 * Rabs (B2R x + B2R y) * (1 - / 2 ^ 52) \/ Rabs (B2R x - B2R y) < / 2 ^ 1022 ->
  units_eqb64 x y = true.
Proof.
  rewrite !pow_bpow, <- !bpow_opp. exact (equal_complete x y).
Qed.
Lemma ctrv_eqb_double sine cosine phase (s t : ctrv_state (doubles sine cosine phase)) :
  (forall f, In f [@v_x (doubles sine cosine phase); @v_y (doubles sine cosine phase); @v_vel (doubles sine cosine phase); @v_rate (doubles sine cosine phase)] ->
     is_finite (f s : f64) = true /\ is_finite (f t : f64) = true /\
     Rabs (B2R (f s : f64)) <= 2 ^ 1000 /\ Rabs (B2R (f t : f64)) <= 2 ^ 1000) ->
  let close c := forall f, In f [@v_x (doubles sine cosine phase); @v_y (doubles sine cosine phase); @v_vel (doubles sine cosine phase); @v_rate (doubles sine cosine phase)] ->
     Rabs (B2R (f s : f64) - B2R (f t : f64)) < / 2 ^ 52 * Rabs (B2R (f s : f64) + B2R (f t : f64)) * c \/
     Rabs (B2R (f s : f64) - B2R (f t : f64)) < / 2 ^ 1022 in
  let same_heading := Beqb (re (v_yaw s) : f64) (re (v_yaw t) : f64) = true /\ Beqb (im (v_yaw s) : f64) (im (v_yaw t) : f64) = true in
  (ctrv_eqb (doubles_eq sine cosine phase) s t = true -> same_heading /\ close 1) /\
  (same_heading /\ close (1 - / 2 ^ 52) -> ctrv_eqb (doubles_eq sine cosine phase) s t = true).
Proof.
  intros B close same. split.
  - intros H. unfold ctrv_eqb, angle_eqb in H. rewrite !andb_true_iff in H.
    split; [unfold same; tauto|]. intros f Hf. destruct (B f Hf) as (F1 & F2 & L1 & L2). apply equal_sound'; try assumption.
    cbn [In] in Hf. cbn [neq_units doubles_eq] in H. repeat (destruct Hf as [<-|Hf]; [tauto|]). destruct Hf.
  - intros [[H1 H2] C]. unfold ctrv_eqb, angle_eqb. rewrite !andb_true_iff. cbn [neq_units neq_plain doubles_eq].
    assert (E : forall f, In f [@v_x (doubles sine cosine phase); @v_y (doubles sine cosine phase); @v_vel (doubles sine cosine phase); @v_rate (doubles sine cosine phase)] -> units_eqb64 (f s) (f t) = true).
    { intros f Hf. destruct (B f Hf) as (F1 & F2 & L1 & L2). apply equal_complete'; try assumption. exact (C f Hf). }
    repeat split; try assumption; apply (E _); cbn; tauto.
Qed.
Lemma ctra_eqb_double sine cosine phase (s t : ctra_state (doubles sine cosine phase)) :
  (forall f, In f [@a_x (doubles sine cosine phase); @a_y (doubles sine cosine phase); @a_vel (doubles sine cosine phase); @a_rate (doubles sine cosine phase); @a_acc (doubles sine cosine phase)] ->
     is_finite (f s : f64) = true /\ is_finite (f t : f64) = true /\
     Rabs (B2R (f s : f64)) <= 2 ^ 1000 /\ Rabs (B2R (f t : f64)) <= 2 ^ 1000) ->
  let close c := forall f, In f [@a_x (doubles sine cosine phase); @a_y (doubles sine cosine phase); @a_vel (doubles sine cosine phase); @a_rate (doubles sine cosine phase); @a_acc (doubles sine cosine phase)] ->
     Rabs (B2R (f s : f64) - B2R (f t : f64)) < / 2 ^ 52 * Rabs (B2R (f s : f64) + B2R (f t : f64)) * c \/
     Rabs (B2R (f s : f64) - B2R (f t : f64)) < / 2 ^ 1022 in
  let same_heading := Beqb (re (a_yaw s) : f64) (re (a_yaw t) : f64) = true /\ Beqb (im (a_yaw s) : f64) (im (a_yaw t) : f64) = true in
  (ctra_eqb (doubles_eq sine cosine phase) s t = true -> same_heading /\ close 1) /\
  (same_heading /\ close (1 - / 2 ^ 52) -> ctra_eqb (doubles_eq sine cosine phase) s t = true).
Proof.
  intros B close same. split.
  - intros H. unfold ctra_eqb, angle_eqb in H. rewrite !andb_true_iff in H.
    split; [unfold same; tauto|]. intros f Hf. destruct (B f Hf) as (F1 & F2 & L1 & L2). apply equal_sound'; try assumption.
    cbn [In] in Hf. cbn [neq_units doubles_eq] in H. repeat (destruct Hf as [<-|Hf]; [tauto|]). destruct Hf.
  - intros [[H1 H2] C]. unfold ctra_eqb, angle_eqb. rewrite !andb_true_iff. cbn [neq_units neq_plain doubles_eq].
    assert (E : forall f, In f [@a_x (doubles sine cosine phase); @a_y (doubles sine cosine phase); @a_vel (doubles sine cosine phase); @a_rate (doubles sine cosine phase); @a_acc (doubles sine cosine phase)] -> units_eqb64 (f s) (f t) = true).
    { intros f Hf. destruct (B f Hf) as (F1 & F2 & L1 & L2). apply equal_complete'; try assumption. exact (C f Hf). }
    repeat split; try assumption; apply (E _); cbn; tauto.
Qed.
