(** Fusion of a track and a detection in single precision, for covariances with
    correlations: property C119.  The model is FloatFusion.v; what is compared with is in
    FusionResidualSpec.v and DeterminantSpec.v.  The number of rows is 5 (CTRV) or 6 (CTRA).
    Nothing is assumed about the orders in which Eigen multiplies and adds up. *)
From Coq Require Import ZArith Reals Lra Lia List Arith Bool.
From Flocq Require Import Core IEEE754.BinarySingleNaN.
From Verif Require Import DeterminantSpec DeterminantThms.
From Verif Require Import Float FloatProofs Motion DoubleArith FloatDistance FloatDistanceThms FloatWeight FloatWeightThms FloatUnscented FloatUnscentedThms FloatHeading FloatPredict
  FloatLltThms FloatLu FloatLuThms FloatFusion InverseSpec FloatInverse FloatPivots FloatDetThms FloatFusionGeneral FloatTables FusionResidualSpec Properties_FloatInverse.
Import ListNotations.
Open Scope R_scope.
Notation total := FloatUnscentedThms.total.

(** ** Determinants and the weight *)

Lemma det_near n e m a t : states n -> (-9 <= e <= 11)%Z -> entries_within (bpow radix2 e) n m ->
  at_least a n (values m) -> INR n * bpow radix2 (e + Z.of_nat n - 17) <= a -> order_of n t ->
  is_finite (determinant32 n t m) = true /\
  bpow radix2 ((e + Z.of_nat n - 17) * Z.of_nat n) <= Rabs (B2R (determinant32 n t m)) <= bpow radix2 ((e + Z.of_nat n) * Z.of_nat n) /\
  exists A eps, within (bpow radix2 (e + Z.of_nat n - 22)) n A (values m) /\ Rabs eps <= 5.1 * u32 /\
    B2R (determinant32 n t m) = determinant n A * (1 + eps).
Proof.
  intros Hn He Hm Ha Hc O.
  destruct (determinant_parts n e m a t) as (F & B & A & lu & ts & eps & Hw & Hp & Hr & Hs & E); try assumption.
  { destruct Hn; lia. }
  split; [exact F|]. split; [exact B|]. exists A, eps. split; [exact Hw|]. split; [exact Hs|].
  rewrite E, (@determinant_signed n ts lu A Hp Hr). reflexivity.
Qed.

(** determinant() is the determinant of a matrix close to the given one, up to six
    roundings. *)
Theorem C119_determinant n e m a t : states n -> (-9 <= e <= 11)%Z -> entries_within (bpow radix2 e) n m ->
  at_least a n (values m) -> INR n * bpow radix2 (e + Z.of_nat n - 17) <= a -> order_of n t ->
  is_finite (determinant32 n t m) = true /\ B2R (determinant32 n t m) <> 0 /\
  exists A, within (bpow radix2 (e + Z.of_nat n - 22)) n A (values m) /\
    Rabs (B2R (determinant32 n t m) - determinant n A) <= 6 / 2 ^ 24 * Rabs (determinant n A).
Proof.
  intros Hn He Hm Ha Hc O. destruct (det_near n e m a t Hn He Hm Ha Hc O) as (F & B & A & eps & W & Hs & E).
  split; [exact F|]. split.
  { intros Z0. rewrite Z0, Rabs_R0 in B. pose proof (bpow_gt_0 radix2 ((e + Z.of_nat n - 17) * Z.of_nat n)). lra. }
  exists A. split; [exact W|]. rewrite E. replace (determinant n A * (1 + eps) - determinant n A) with (eps * determinant n A) by ring.
  rewrite Rabs_mult. apply Rmult_le_compat_r; [apply Rabs_pos|]. unfold u32 in Hs. lra.
Qed.

(** The weight is finite and that of matrices close to the two inverses and to their sum. *)
Theorem C119_weight n e Y1 Y2 a t : states n -> (-9 <= e <= 10)%Z ->
  entries_within (bpow radix2 e) n Y1 -> entries_within (bpow radix2 e) n Y2 ->
  at_least a n (values Y1) -> at_least a n (values Y2) -> 1.01 * INR n * bpow radix2 (e + Z.of_nat n - 17) <= a -> order_of n t ->
  let w := generate_weight32 n t Y1 Y2 in
  is_finite w = true /\
  exists A1 A2 A, within (bpow radix2 (e + Z.of_nat n - 22)) n A1 (values Y1) /\
    within (bpow radix2 (e + Z.of_nat n - 22)) n A2 (values Y2) /\
    within (bpow radix2 (e + Z.of_nat n - 20)) n A (plus (values Y1) (values Y2)) /\
    let D1 := determinant n A1 in let D2 := determinant n A2 in let S := determinant n A in
    S <> 0 /\ Rabs (B2R w - weight_of D1 D2 S) <= 7 / 2 ^ 24 * ((Rabs S + Rabs D1 + Rabs D2) / Rabs S).
Proof.
  intros Hn He H1 H2 L1 L2 Hc O w. assert (P0 := bpow_gt_0 radix2 (e + Z.of_nat n - 17)).
  assert (N0 : 0 <= INR n) by apply pos_INR.
  assert (NP : 0 <= INR n * bpow radix2 (e + Z.of_nat n - 17)) by (apply Rmult_le_pos; lra).
  destruct (det_near n e Y1 a t Hn ltac:(lia) H1 L1 ltac:(lra) O) as (F1 & B1 & A1 & e1 & W1 & S1 & E1).
  destruct (det_near n e Y2 a t Hn ltac:(lia) H2 L2 ltac:(lra) O) as (F2 & B2 & A2 & e2 & W2 & S2 & E2).
  destruct (sum_entries n e Y1 Y2 a ltac:(destruct Hn; lia) ltac:(lia) H1 H2 L1 L2) as [Hs Ls].
  set (Y := fun i j => f32_add (Y1 i j) (Y2 i j)) in *.
  assert (C : INR n * bpow radix2 (e + 1 + Z.of_nat n - 17) <= 2 * a - INR n * bpow radix2 (e - 23)).
  { replace (e + 1 + Z.of_nat n - 17)%Z with (1 + (e + Z.of_nat n - 17))%Z by lia. rewrite (bpow_plus radix2 1). change (bpow radix2 1) with 2.
    assert (T : bpow radix2 (e - 23) <= 0.001 * bpow radix2 (e + Z.of_nat n - 17)).
    { apply Rle_trans with (bpow radix2 (-11 + (e + Z.of_nat n - 17))); [apply bpow_le; destruct Hn; lia|].
      rewrite bpow_plus. apply Rmult_le_compat_r; [lra|]. change (bpow radix2 (-11)) with (/ 2048). lra. }
    assert (INR n * bpow radix2 (e - 23) <= INR n * (0.001 * bpow radix2 (e + Z.of_nat n - 17))) by (apply Rmult_le_compat_l; lra). lra. }
  assert (HY : entries_within (bpow radix2 (e + 1)) n Y) by (intros i j Hi Hj; destruct (Hs i j Hi Hj) as (G & K & _); now split).
  destruct (det_near n (e + 1) Y _ t Hn ltac:(lia) HY Ls C O) as (F3 & B3 & A & e3 & W3 & S3 & E3).
  assert (Ew : w = f32_div (f32_add (f32_sub (determinant32 n t Y) (determinant32 n t Y2)) (determinant32 n t Y1)) (f32_mul (f32_of_Z 2) (determinant32 n t Y))) by reflexivity.
  destruct (weight_finite (determinant32 n t Y1) (determinant32 n t Y2) (determinant32 n t Y)
    ((e + 1 + Z.of_nat n - 17) * Z.of_nat n) ((e + 1 + Z.of_nat n) * Z.of_nat n)) as [Fd Fw]; try assumption.
  { destruct Hn as [-> | ->]; cbn; lia. } { destruct Hn as [-> | ->]; cbn; lia. } { destruct Hn as [-> | ->]; cbn; lia. }
  { eapply Rle_trans; [apply B1|]. apply bpow_le. destruct Hn as [-> | ->]; cbn; lia. }
  { eapply Rle_trans; [apply B2|]. apply bpow_le. destruct Hn as [-> | ->]; cbn; lia. }
  split; [rewrite Ew; exact Fw|]. exists A1, A2, A. split; [exact W1|]. split; [exact W2|]. split.
  { intros i j Hi Hj. destruct (Hs i j Hi Hj) as (_ & _ & K). pose proof (W3 i j Hi Hj) as K3. unfold plus, values in *. unfold real in K.
    set (y := B2R (Y i j)) in *. set (y12 := B2R (Y1 i j) + B2R (Y2 i j)) in *.
    replace (A i j - y12) with ((A i j - y) + (y - y12)) by ring. eapply Rle_trans; [apply Rabs_triang|].
    eapply Rle_trans; [apply Rplus_le_compat; [exact K3|exact K]|].
    replace (e + Z.of_nat n - 20)%Z with (1 + (e + 1 + Z.of_nat n - 22))%Z by lia. rewrite (bpow_plus radix2 1). change (bpow radix2 1) with 2.
    assert (bpow radix2 (e - 23) <= bpow radix2 (e + 1 + Z.of_nat n - 22)) by (apply bpow_le; lia). lra. }
  cbv zeta. assert (S0 : determinant n A <> 0).
  { intros Z0. rewrite E3, Z0, Rmult_0_l, Rabs_R0 in B3. pose proof (bpow_gt_0 radix2 ((e + 1 + Z.of_nat n - 17) * Z.of_nat n)). lra. }
  split; [exact S0|].
  pose proof (weight_of_determinants _ _ _ _ _ _ e1 e2 e3 F3 Fd Fw S0 S1 S2 S3 E1 E2 E3) as K. unfold u32 in K.
  rewrite Ew. unfold weight_of. eapply Rle_trans; [exact K|]. apply Rmult_le_compat_r; [|lra].
  apply Rmult_le_pos; [|left; apply Rinv_0_lt_compat; now apply Rabs_pos_lt].
  pose proof (Rabs_pos (determinant n A)). pose proof (Rabs_pos (determinant n A1)). pose proof (Rabs_pos (determinant n A2)). lra.
Qed.

(** ** The fused covariance and vector *)

Definition nearly_a_weight (w : f32) : Prop := is_finite w = true /\ - / 1024 <= B2R w <= 1 + / 1024.

Section Intersection.
Variables (n : nat) (o : fusion_orders) (e : Z) (w : f32) (x1 : nat -> f32) (Y1 : nat -> nat -> f32) (x2 : nat -> f32) (Y2 : nat -> nat -> f32).
Notation W := (B2R w).
Notation fused := (compute_covariance_intersection32 n o x1 Y1 x2 Y2 w).
Notation Y := (fun i j => combined32 w (Y1 i j) (Y2 i j)).

Lemma weight_parts : nearly_a_weight w -> Rabs W + Rabs (1 - W) <= 1 + / 512.
Proof. intros [_ R]. destruct (Rle_lt_dec 0 W), (Rle_lt_dec W 1); [rewrite !Rabs_pos_eq by lra|rewrite (Rabs_pos_eq W), (Rabs_left (1 - W)) by lra|rewrite (Rabs_left W), (Rabs_pos_eq (1 - W)) by lra|]; lra. Qed.

Lemma combined_within : states n -> (-50 <= e <= 40)%Z -> nearly_a_weight w -> entries_within (bpow radix2 e) n Y1 -> entries_within (bpow radix2 e) n Y2 ->
  entries_within (bpow radix2 (e + 1)) n Y /\
  within (bpow radix2 (e - 22)) n (values Y) (mixture W (values Y1) (values Y2)).
Proof.
  intros Hn He Hw H1 H2. pose proof (weight_parts Hw) as WP. destruct Hw as [Fw Rw]. pose proof u32_small as U. assert (E0 := bpow_gt_0 radix2 e).
  destruct (one_minus w Fw ltac:(apply Rabs_le; lra)) as [Fr Er].
  assert (Dbl : bpow radix2 (e + 1) = 2 * bpow radix2 e) by (rewrite bpow_plus; change (bpow radix2 1) with 2; ring).
  pose proof (Rabs_pos W) as W0. pose proof (Rabs_pos (1 - W)) as W1.
  assert (Br : Rabs (B2R (f32_sub (f32_of_Z 1) w)) <= (1 + u32) * Rabs (1 - W)).
  { pose proof (Rabs_triang_inv (B2R (f32_sub (f32_of_Z 1) w)) (1 - W)). lra. }
  assert (K : forall i j, (i < n)%nat -> (j < n)%nat -> is_finite (combined32 w (Y1 i j) (Y2 i j)) = true /\
    Rabs (values Y i j - mixture W (values Y1) (values Y2) i j) <= bpow radix2 (e - 22)).
  { intros i j Hi Hj. destruct (H1 i j Hi Hj) as [F1 B1]. destruct (H2 i j Hi Hj) as [F2 B2].
    pose proof (Rabs_pos (B2R (Y1 i j))) as p1. pose proof (Rabs_pos (B2R (Y2 i j))) as p2.
    assert (Fc : is_finite (combined32 w (Y1 i j) (Y2 i j)) = true).
    { unfold combined32.
      assert (M1 : Rabs (W * B2R (Y1 i j)) <= bpow radix2 (e + 1)).
      { rewrite Rabs_mult, Dbl. apply Rmult_le_compat; try apply Rabs_pos; lra. }
      assert (M2 : Rabs (B2R (f32_sub (f32_of_Z 1) w) * B2R (Y2 i j)) <= bpow radix2 (e + 1)).
      { rewrite Rabs_mult, Dbl. apply Rmult_le_compat; try apply Rabs_pos; [|lra]. assert (u32 * Rabs (1 - W) <= / 1000000 * 2) by (apply Rmult_le_compat; lra). lra. }
      destruct (mul32_value w (Y1 i j) (e + 1) ltac:(lia) Fw F1 M1) as [V1 G1].
      destruct (mul32_value (f32_sub (f32_of_Z 1) w) (Y2 i j) (e + 1) ltac:(lia) Fr F2 M2) as [V2 G2].
      apply (add32_value _ _ (e + 1 + 1) ltac:(lia) G1 G2). rewrite V1, V2.
      pose proof (rnd32_bound _ (e + 1) ltac:(lia) M1). pose proof (rnd32_bound _ (e + 1) ltac:(lia) M2).
      eapply Rle_trans; [apply Rabs_triang|]. rewrite (bpow_plus radix2 (e + 1)). change (bpow radix2 1) with 2. lra. }
    split; [exact Fc|].
    assert (Up : bpow radix2 e <= bpow radix2 40) by (apply bpow_le; lia).
    assert (bY1 : bounded_entries n Y1) by (intros a b Ha Hb; destruct (H1 a b Ha Hb); unfold real; lra).
    assert (bY2 : bounded_entries n Y2) by (intros a b Ha Hb; destruct (H2 a b Ha Hb); unfold real; lra).
    assert (CE : Rabs (B2R (combined32 w (Y1 i j) (Y2 i j)) - (W * real Y1 i j + (1 - W) * real Y2 i j)) <=
      3.1 * u32 * (Rabs W * Rabs (real Y1 i j) + Rabs (1 - W) * Rabs (real Y2 i j)) + bpow radix2 (-148)).
    { eapply combined_error; try eassumption; try (destruct Hn; lia). apply Rabs_le. lra. }
    unfold values, mixture. unfold real in CE. eapply Rle_trans; [exact CE|].
    assert (Rabs W * Rabs (B2R (Y1 i j)) <= Rabs W * bpow radix2 e) by (apply Rmult_le_compat_l; lra).
    assert (Rabs (1 - W) * Rabs (B2R (Y2 i j)) <= Rabs (1 - W) * bpow radix2 e) by (apply Rmult_le_compat_l; lra).
    assert ((Rabs W + Rabs (1 - W)) * bpow radix2 e <= (1 + / 512) * bpow radix2 e) by (apply Rmult_le_compat_r; lra).
    set (q := Rabs W * Rabs (B2R (Y1 i j)) + Rabs (1 - W) * Rabs (B2R (Y2 i j))) in *.
    assert (Q : q <= (1 + / 512) * bpow radix2 e) by (unfold q; lra).
    assert (T : bpow radix2 (-148) <= / 1000000000 * bpow radix2 e).
    { apply Rle_trans with (bpow radix2 (-30 + e)); [apply bpow_le; lia|]. rewrite bpow_plus. apply Rmult_le_compat_r; [lra|]. change (bpow radix2 (-30)) with (/ 1073741824). lra. }
    assert (L : 3.1 * u32 * q <= 3.1 * u32 * ((1 + / 512) * bpow radix2 e)) by (apply Rmult_le_compat_l; lra).
    unfold Z.sub. rewrite bpow_plus. change (bpow radix2 (-(22))) with (/ 4194304). unfold u32 in L |- *. lra. }
  split; [|intros i j Hi Hj; now apply K].
  intros i j Hi Hj. destruct (K i j Hi Hj) as [Fc C]. split; [exact Fc|]. destruct (H1 i j Hi Hj) as [_ B1]. destruct (H2 i j Hi Hj) as [_ B2].
  unfold values, mixture in C. pose proof (Rabs_triang_inv (B2R (combined32 w (Y1 i j) (Y2 i j))) (W * B2R (Y1 i j) + (1 - W) * B2R (Y2 i j))) as T.
  pose proof (Rabs_triang (W * B2R (Y1 i j)) ((1 - W) * B2R (Y2 i j))) as T'. rewrite !Rabs_mult in T'.
  assert (Rabs W * Rabs (B2R (Y1 i j)) <= Rabs W * bpow radix2 e) by (apply Rmult_le_compat_l; lra).
  assert (Rabs (1 - W) * Rabs (B2R (Y2 i j)) <= Rabs (1 - W) * bpow radix2 e) by (apply Rmult_le_compat_l; lra).
  assert ((Rabs W + Rabs (1 - W)) * bpow radix2 e <= (1 + / 512) * bpow radix2 e) by (apply Rmult_le_compat_r; lra).
  assert (S : bpow radix2 (e - 22) <= / 4 * bpow radix2 e).
  { apply Rle_trans with (bpow radix2 (-2 + e)); [apply bpow_le; lia|]. rewrite bpow_plus. apply Req_le. reflexivity. }
  rewrite Dbl. lra.
Qed.

(** Column j of the fused covariance solves w Y1 + (1 - w) Y2 times column = unit vector. *)
Theorem C119_covariance j : states n -> (-50 <= e <= 40)%Z -> nearly_a_weight w ->
  entries_within (bpow radix2 e) n Y1 -> entries_within (bpow radix2 e) n Y2 ->
  (forall k, (k < n)%nat -> is_finite (snd fused k j) = true) ->
  forall i, (i < n)%nat ->
  Rabs (apply n (mixture W (values Y1) (values Y2)) (fun k => values (snd fused) k j) i - unit_entry i j)
    <= 1.1 * bpow radix2 (e + Z.of_nat n - 18) * total (fun k => Rabs (values (snd fused) k j)) (seq 0 n) + bpow radix2 (-80).
Proof.
  intros Hn He Hw H1 H2 F i Hi. destruct (combined_within Hn He Hw H1 H2) as [HY HW]. cbn [compute_covariance_intersection32 snd] in *.
  pose proof (C116_residual n (e + 1) Y j Hn ltac:(lia) HY F i Hi) as R.
  set (P := fun k => B2R (inverse32 n Y k j)) in *.
  assert (D : Rabs (apply n (mixture W (values Y1) (values Y2)) P i - apply n (values Y) P i) <= bpow radix2 (e - 22) * total (fun k => Rabs (P k)) (seq 0 n)).
  { unfold apply. rewrite <- total_minus. eapply Rle_trans; [apply total_abs|]. rewrite <- total_scale. apply total_le. intros k Hk. apply in_seq in Hk.
    rewrite <- Rmult_minus_distr_r, Rabs_mult. apply Rmult_le_compat_r; [apply Rabs_pos|]. rewrite Rabs_minus_sym. apply HW; lia. }
  set (T := total (fun k => Rabs (P k)) (seq 0 n)) in *. assert (T0 : 0 <= T) by (apply total_nonneg; intros; apply Rabs_pos).
  change (Rabs (apply n (mixture W (values Y1) (values Y2)) P i - unit_entry i j) <= 1.1 * bpow radix2 (e + Z.of_nat n - 18) * T + bpow radix2 (-80)).
  replace (apply n (mixture W (values Y1) (values Y2)) P i - unit_entry i j)
    with ((apply n (mixture W (values Y1) (values Y2)) P i - apply n (values Y) P i) + (apply n (values Y) P i - unit_entry i j)) by ring.
  eapply Rle_trans; [apply Rabs_triang|]. replace (e + 1 + Z.of_nat n - 19)%Z with (e + Z.of_nat n - 18)%Z in R by lia.
  assert (S : bpow radix2 (e - 22) <= 0.1 * bpow radix2 (e + Z.of_nat n - 18)).
  { apply Rle_trans with (bpow radix2 (-4 + (e + Z.of_nat n - 18))); [apply bpow_le; destruct Hn; lia|]. rewrite bpow_plus. apply Rmult_le_compat_r; [apply bpow_ge_0|].
    change (bpow radix2 (-4)) with (/ 16). lra. }
  assert (bpow radix2 (e - 22) * T <= 0.1 * bpow radix2 (e + Z.of_nat n - 18) * T) by (apply Rmult_le_compat_r; assumption).
  change (Rabs (apply n (values Y) P i - unit_entry i j) <= bpow radix2 (e + Z.of_nat n - 18) * T + bpow radix2 (-80)) in R.
  lra.
Qed.

(** It is finite, if w is a weight and the two inverses are positive definite. *)
Theorem C119_finite a : states n -> (-20 <= e <= 39)%Z -> is_finite w = true -> 0 <= W <= 1 ->
  entries_within (bpow radix2 e) n Y1 -> entries_within (bpow radix2 e) n Y2 ->
  at_least a n (values Y1) -> at_least a n (values Y2) -> 1.1 * INR n * bpow radix2 (e + Z.of_nat n - 16) <= a ->
  forall i j, (i < n)%nat -> (j < n)%nat -> is_finite (snd fused i j) = true.
Proof.
  intros Hn He Fw Rw H1 H2 A1 A2 Ha i j Hi Hj. cbn [compute_covariance_intersection32 snd].
  assert (Hw : nearly_a_weight w) by (split; [exact Fw|lra]).
  destruct (combined_within Hn ltac:(lia) Hw H1 H2) as [HY HW].
  assert (AM : at_least a n (mixture W (values Y1) (values Y2))).
  { intros z. specialize (A1 z). specialize (A2 z).
    rewrite (total_ext (fun i => z i * apply n (mixture W (values Y1) (values Y2)) z i) (fun i => W * (z i * apply n (values Y1) z i) + (1 - W) * (z i * apply n (values Y2) z i))).
    - rewrite total_plus, !total_scale. set (N := total (fun i => z i * z i) (seq 0 n)) in *.
      pose proof (Rmult_le_compat_l W _ _ ltac:(lra) A1). pose proof (Rmult_le_compat_l (1 - W) _ _ ltac:(lra) A2). lra.
    - intros k _. unfold apply, mixture. rewrite (total_ext (fun j0 => (W * values Y1 k j0 + (1 - W) * values Y2 k j0) * z j0) (fun j0 => W * (values Y1 k j0 * z j0) + (1 - W) * (values Y2 k j0 * z j0))) by (intros; ring).
      rewrite total_plus, !total_scale. ring. }
  pose proof (at_least_near n a _ (values Y) _ AM (bpow_ge_0 radix2 (e - 22)) HW) as AY.
  apply (C116_accuracy n (e + 1) Y _ Hn ltac:(lia) HY AY); [|exact Hi|exact Hj].
  replace (e + 1 + Z.of_nat n - 17)%Z with (e + Z.of_nat n - 16)%Z by lia.
  assert (S : bpow radix2 (e - 22) <= 0.1 * bpow radix2 (e + Z.of_nat n - 16)).
  { apply Rle_trans with (bpow radix2 (-4 + (e + Z.of_nat n - 16))); [apply bpow_le; destruct Hn; lia|]. rewrite bpow_plus. apply Rmult_le_compat_r; [apply bpow_ge_0|].
    change (bpow radix2 (-4)) with (/ 16). lra. }
  pose proof (Rmult_le_compat_l (INR n) _ _ (pos_INR n) S). lra.
Qed.

(** Each entry is used once. *)
Definition uses_all : Prop :=
  match order_information o with
  | On_matrix t | On_vector t => forall i, (i < n)%nat -> order_of (2 * n) (t i)
  | On_product t1 t2 => forall i, (i < n)%nat -> order_of n (t1 i) /\ order_of n (t2 i)
  end /\ forall i, (i < n)%nat -> order_of n (order_fused o i).
Definition vector_within (b : R) (x : nat -> f32) : Prop := forall i, (i < n)%nat -> Rabs (B2R (mean_copy32 x i)) <= b.
Notation mean x := (fun i => B2R (mean_copy32 x i)).

(** The fused vector is the fused covariance times w Y1 x1 + (1 - w) Y2 x2, up to 33
    roundings of the terms. *)
Theorem C119_mean i : states n -> (e <= 40)%Z -> nearly_a_weight w ->
  entries_within (bpow radix2 e) n Y1 -> entries_within (bpow radix2 e) n Y2 ->
  vector_within (bpow radix2 40) x1 -> vector_within (bpow radix2 40) x2 -> uses_all ->
  (i < n)%nat -> is_finite (fst fused i) = true ->
  let P := values (snd fused) in
  Rabs (B2R (fst fused i) - apply n P (information n W (values Y1) (mean x1) (values Y2) (mean x2)) i) <=
    33 / 2 ^ 24 * total (fun k => Rabs (P i k) * information_size n W (values Y1) (mean x1) (values Y2) (mean x2) k) (seq 0 n) +
    bpow radix2 (-100) * total (fun k => Rabs (P i k)) (seq 0 n) + bpow radix2 (-140).
Proof.
  intros Hn He [Fw Rw] H1 H2 B1 B2 [O1 O2] Hi F P. assert (Up : bpow radix2 e <= bpow radix2 40) by (apply bpow_le; lia).
  assert (K : Rabs (B2R (fst fused i) - apply n P (info n w Y1 Y2 (mean_copy32 x1) (mean_copy32 x2)) i) <=
    33 * u32 * total (fun k => Rabs (P i k) * info_size n w Y1 Y2 (mean_copy32 x1) (mean_copy32 x2) k) (seq 0 n) +
    bpow radix2 (-100) * total (fun k => Rabs (P i k)) (seq 0 n) + bpow radix2 (-140)).
  { apply (mean_error n w Y1 Y2 (mean_copy32 x1) (mean_copy32 x2)); try assumption; try (apply O2; assumption).
    - destruct Hn; lia.
    - apply Rabs_le. lra.
    - intros a b Ha Hb. destruct (H1 a b Ha Hb). unfold real. lra.
    - intros a b Ha Hb. destruct (H2 a b Ha Hb). unfold real. lra. }
  replace (33 / 2 ^ 24) with (33 * u32) by (unfold u32; lra). exact K.
Qed.
End Intersection.

(** ** The visitor *)

(** The computed inverses invert the covariances of track and detection, the weight is that
    of matrices close to them, and, if it is close to a weight and the fused covariance and
    vector are finite, those are as in [C119_covariance] and [C119_mean]. *)
Theorem C119_visitor (ST : state_type64) (o : fusion_orders) e1 e2 e a track P1 detection P2 :
  let n := s_dim ST in
  states n -> (-60 <= e1 <= 60)%Z -> (-60 <= e2 <= 60)%Z -> (-9 <= e <= 10)%Z ->
  entries_within (bpow radix2 e1) n P1 -> entries_within (bpow radix2 e2) n P2 ->
  entries_within (bpow radix2 e) n (inverse32 n P1) -> entries_within (bpow radix2 e) n (inverse32 n P2) ->
  at_least a n (values (inverse32 n P1)) -> at_least a n (values (inverse32 n P2)) ->
  1.01 * INR n * bpow radix2 (e + Z.of_nat n - 17) <= a ->
  vector_within n (bpow radix2 40) (s_to ST track) -> vector_within n (bpow radix2 40) (s_to ST detection) ->
  order_of n (order_diagonal o) -> uses_all n o ->
  exists (Y1 Y2 A1 A2 A : nat -> nat -> R) (w : f32),
    inverts (bpow radix2 (e1 + Z.of_nat n - 19)) n (values P1) Y1 /\
    inverts (bpow radix2 (e2 + Z.of_nat n - 19)) n (values P2) Y2 /\
    within (bpow radix2 (e + Z.of_nat n - 22)) n A1 Y1 /\ within (bpow radix2 (e + Z.of_nat n - 22)) n A2 Y2 /\
    within (bpow radix2 (e + Z.of_nat n - 20)) n A (plus Y1 Y2) /\
    (let D1 := determinant n A1 in let D2 := determinant n A2 in let S := determinant n A in
     is_finite w = true /\ S <> 0 /\ Rabs (B2R w - weight_of D1 D2 S) <= 7 / 2 ^ 24 * ((Rabs S + Rabs D1 + Rabs D2) / Rabs S)) /\
    (- / 1024 <= B2R w <= 1 + / 1024 ->
     let '(x, P) := fused_vector32 ST o track P1 detection P2 in
     (forall i j, (i < n)%nat -> (j < n)%nat -> is_finite (P i j) = true) ->
     inverts (1.1 * bpow radix2 (e + Z.of_nat n - 18)) n (mixture (B2R w) Y1 Y2) (values P) /\
     forall i, (i < n)%nat -> is_finite (x i) = true ->
     let mean v := fun i => B2R (mean_copy32 (s_to ST v) i) in
     Rabs (B2R (x i) - apply n (values P) (information n (B2R w) Y1 (mean track) Y2 (mean detection)) i) <=
       33 / 2 ^ 24 * total (fun k => Rabs (values P i k) * information_size n (B2R w) Y1 (mean track) Y2 (mean detection) k) (seq 0 n) +
       bpow radix2 (-100) * total (fun k => Rabs (values P i k)) (seq 0 n) + bpow radix2 (-140)).
Proof.
  intros n Hn He1 He2 He H1 H2 HY1 HY2 L1 L2 Hc V1 V2 O U.
  destruct (C119_weight n e _ _ a _ Hn He HY1 HY2 L1 L2 Hc O) as (Fw & A1 & A2 & A & W1 & W2 & W3 & S0 & K).
  exists (values (inverse32 n P1)), (values (inverse32 n P2)), A1, A2, A, (visitor_weight32 ST o P1 P2).
  split; [|split; [|split; [exact W1|split; [exact W2|split; [exact W3|split; [split; [exact Fw|split; [exact S0|exact K]]|]]]]]].
  - intros i j Hi Hj. apply (C116_residual n e1 P1 j Hn He1 H1); [intros k Hk; now apply HY1|exact Hi].
  - intros i j Hi Hj. apply (C116_residual n e2 P2 j Hn He2 H2); [intros k Hk; now apply HY2|exact Hi].
  - intros Rw. assert (Hw : nearly_a_weight (visitor_weight32 ST o P1 P2)) by (split; [exact Fw|exact Rw]).
    destruct (fused_vector32 ST o track P1 detection P2) as [x P] eqn:Ef. intros FP.
    assert (Ex : x = fst (fused_vector32 ST o track P1 detection P2)) by now rewrite Ef.
    assert (EP : P = snd (fused_vector32 ST o track P1 detection P2)) by now rewrite Ef.
    split.
    + intros i j Hi Hj. rewrite EP.
      apply (C119_covariance n o e (visitor_weight32 ST o P1 P2) (s_to ST track) (inverse32 n P1) (s_to ST detection) (inverse32 n P2)); try assumption; [lia|].
      intros k Hk. specialize (FP k j Hk Hj). rewrite EP in FP. exact FP.
    + intros i Hi Fx. rewrite EP. rewrite Ex in *.
      apply (C119_mean n o e (visitor_weight32 ST o P1 P2) (s_to ST track) (inverse32 n P1) (s_to ST detection) (inverse32 n P2)); try assumption. lia.
Qed.

(** ** A weight above 1 *)

(** k / 2^20 as a float *)
Definition part (k : Z) : f32 := binary_normalize 24 128 eq_refl eq_refl mode_NE k (-20) false.
Lemma part_value k : (Z.abs k < 2 ^ 24)%Z -> B2R (part k) = IZR k / 1048576 /\ is_finite (part k) = true.
Proof.
  intros H. generalize (binary_normalize_correct 24 128 eq_refl eq_refl mode_NE k (-20) false). cbv zeta.
  change (round_mode mode_NE) with ZnearestE. fold (rnd32 (F2R (Float radix2 k (-20)))).
  rewrite rnd32_id.
  2:{ apply generic_format_FLT. exists (Float radix2 k (-20)); [reflexivity|exact H|cbn; lia]. }
  unfold F2R. cbn [Fnum Fexp]. change (bpow radix2 (-20)) with (/ 1048576).
  rewrite Rlt_bool_true; [unfold part, Rdiv; tauto|].
  rewrite Rabs_mult, (Rabs_pos_eq (/ 1048576)) by lra. rewrite <- abs_IZR.
  apply Rlt_trans with (IZR (2 ^ 24)); [|change (IZR (2 ^ 24)) with (bpow radix2 24); apply bpow_lt; lia].
  assert (IZR (Z.abs k) < IZR (2 ^ 24)) by (apply IZR_lt; exact H). assert (0 <= IZR (Z.abs k)) by (apply IZR_le; lia). lra.
Qed.
Definition C119_table : list Z := [13;-2;5;-7;1; -2;16;7;2;-5; 5;7;12;-7;0; -7;2;-7;15;6; 1;-5;0;6;12]%Z.
Definition C119_sharp (i j : nat) : f32 := part (nth (5 * i + j) C119_table 0%Z).
Definition C119_vague (i j : nat) : f32 := if (i =? j)%nat then f32_of_Z 32 else f32_of_Z 0.
Lemma sharp_value i j : (i < 5)%nat -> (j < 5)%nat -> B2R (C119_sharp i j) = IZR (nth (5 * i + j) C119_table 0%Z) / 1048576 /\ is_finite (C119_sharp i j) = true.
Proof. intros Hi Hj. apply part_value. below; below; cbn; lia. Qed.
Lemma vague_value i j : B2R (C119_vague i j) = (if (i =? j)%nat then 32 else 0) /\ is_finite (C119_vague i j) = true.
Proof. unfold C119_vague. destruct (i =? j)%nat; [destruct (int32_value 32 ltac:(lia))|destruct (int32_value 0 ltac:(lia))]; now split. Qed.
Lemma sharp_at_least : at_least (bpow radix2 (-25)) 5 (values C119_sharp).
Proof.
  intros z. unfold apply, values.
  rewrite (total_ext (fun i => z i * total (fun j => B2R (C119_sharp i j) * z j) (seq 0 5)) (fun i => z i * total (fun j => IZR (nth (5 * i + j) C119_table 0%Z) / 1048576 * z j) (seq 0 5)) (seq 0 5)).
  2:{ intros i Hi. apply in_seq in Hi. f_equal. apply total_ext. intros j Hj. apply in_seq in Hj. now rewrite (proj1 (sharp_value i j ltac:(lia) ltac:(lia))). }
  change (bpow radix2 (-25)) with (/ 33554432).
  cbn [seq total]. cbn [Nat.mul Nat.add C119_table nth].
  set (a := z 0%nat). set (b := z 1%nat). set (c := z 2%nat). set (d := z 3%nat). set (g := z 4%nat).
  assert (Q : forall x, 0 <= x * x) by (intros; apply Rle_0_sqr).
  pose proof (Q ((1) * a + (-64 / 415) * b + (32 / 83) * c + (-224 / 415) * d + (32 / 415) * g)). pose proof (Q ((1) * b + (34400 / 69323) * c + (12224 / 207969) * d + (-64352 / 207969) * g)). pose proof (Q ((1) * c + (-10554784 / 13719989) * d + (4478976 / 13719989) * g)). pose proof (Q ((1) * d + (11034630976 / 9846813953) * g)). pose proof (Q ((1) * g)).
  lra.
Qed.

Definition C119_order : tree := Node (Node (Node (Node (Leaf 0) (Leaf 1)) (Leaf 2)) (Leaf 3)) (Leaf 4).
Lemma weight_entries : generate_weight32 5 C119_order (inverse32 5 C119_sharp) (inverse32 5 C119_vague) =
  generate_weight32 5 C119_order (of_entries 5 (inverse_entries 5 C119_sharp)) (of_entries 5 (inverse_entries 5 C119_vague)).
Proof. apply weight_agree; [apply inverse_agree|apply inverse_agree|]. cbn. intros i Hi. lia. Qed.

(** The weight of a sharp estimate may exceed 1: Eigen's products from left to right. *)
Theorem C119_weight_refuted : exists P1 P2 t,
  (forall i j, (i < 5)%nat -> (j < 5)%nat -> P1 i j = P1 j i /\ P2 i j = P2 j i) /\
  entries_within (bpow radix2 (-16)) 5 P1 /\ at_least (bpow radix2 (-25)) 5 (values P1) /\
  (forall i j, (i < 5)%nat -> (j < 5)%nat -> B2R (P2 i j) = 32 * unit_entry i j) /\ order_of 5 t /\
  let w := generate_weight32 5 t (inverse32 5 P1) (inverse32 5 P2) in is_finite w = true /\ 1 < B2R w.
Proof.
  exists C119_sharp, C119_vague, C119_order.
  split; [intros i j Hi Hj; below; below; split; reflexivity|]. split; [|split; [exact sharp_at_least|split; [|split]]].
  - intros i j Hi Hj. destruct (sharp_value i j Hi Hj) as [-> F]. split; [exact F|].
    change (bpow radix2 (-16)) with (/ 65536). unfold Rdiv. rewrite Rabs_mult, (Rabs_pos_eq (/ 1048576)) by lra. rewrite <- abs_IZR.
    assert (IZR (Z.abs (nth (5 * i + j) C119_table 0%Z)) <= IZR 16) by (apply IZR_le; below; below; vm_compute; discriminate). lra.
  - intros i j _ _. rewrite (proj1 (vague_value i j)). unfold unit_entry. destruct (i =? j)%nat; lra.
  - apply Permutation.Permutation_refl.
  - cbv zeta. rewrite weight_entries. set (w := generate_weight32 _ _ _ _).
    assert (FB : is_finite w && Bltb (f32_of_Z 1) w = true) by (vm_compute; reflexivity). clearbody w.
    apply andb_prop in FB. destruct FB as [F B]. split; [exact F|].
    destruct (int32_value 1 ltac:(lia)) as [E1 F1]. pose proof (Bltb_correct _ _ _ _ F1 F) as C. rewrite B, E1 in C. symmetry in C.
    destruct (Rlt_bool_spec 1 (B2R w)); [assumption|discriminate].
Qed.

(** ** Cases *)

(** The covariance of C116 as the first inverse, the second one without correlations *)
Definition C119_plain (v : Z) (i j : nat) : f32 := if (i =? j)%nat then f32_of_Z v else f32_of_Z 0.
Lemma plain_value v i j : (Z.abs v < 2 ^ 24)%Z -> B2R (C119_plain v i j) = IZR v * unit_entry i j /\ is_finite (C119_plain v i j) = true.
Proof.
  intros H. unfold C119_plain, unit_entry. destruct (int32_value v H) as [E F]. destruct (int32_value 0 ltac:(lia)) as [E0 F0].
  destruct (i =? j)%nat; split; try assumption; [rewrite E|rewrite E0]; ring.
Qed.
Lemma unit_apply n z i : (i < n)%nat -> apply n unit_entry z i = z i.
Proof.
  intros Hi. unfold apply. rewrite (total_ext _ (fun k => z k * FloatLltRuns.delta i k)).
  - apply FloatLltRuns.total_delta; [apply seq_NoDup|apply in_seq; lia].
  - intros k _. unfold unit_entry, FloatLltRuns.delta. rewrite (Nat.eqb_sym k i). destruct (i =? k)%nat; ring.
Qed.
Lemma scaled_at_least n c (A : nat -> nat -> R) : (forall i j, (i < n)%nat -> (j < n)%nat -> A i j = c * unit_entry i j) -> at_least c n A.
Proof.
  intros H z. rewrite (total_ext (fun i => z i * apply n A z i) (fun i => c * (z i * z i))); [rewrite total_scale; lra|].
  intros i Hi. apply in_seq in Hi. replace (apply n A z i) with (c * apply n unit_entry z i); [rewrite unit_apply by lia; ring|].
  unfold apply. rewrite <- total_scale. apply total_ext. intros j Hj. apply in_seq in Hj. rewrite H by lia. ring.
Qed.
Lemma plain_at_least v : (Z.abs v < 2 ^ 24)%Z -> at_least (IZR v) 5 (values (C119_plain v)).
Proof. intros H. apply scaled_at_least. intros i j _ _. now apply plain_value. Qed.
Lemma plain_within v e : (Z.abs v < 2 ^ 24)%Z -> IZR (Z.abs v) <= bpow radix2 e -> entries_within (bpow radix2 e) 5 (C119_plain v).
Proof.
  intros H He i j _ _. destruct (plain_value v i j H) as [-> F]. split; [exact F|]. rewrite Rabs_mult, <- abs_IZR.
  assert (0 <= IZR (Z.abs v)) by (apply IZR_le; lia). unfold unit_entry. destruct (i =? j)%nat; rewrite ?Rabs_R0, ?Rabs_R1; lra.
Qed.
Definition C119_orders : fusion_orders := Build_fusion_orders C119_order
  (On_product (fun _ => C119_order) (fun _ => C119_order)) (fun _ => C119_order).
Lemma orders_use : uses_all 5 C119_orders.
Proof. split; cbn [order_information C119_orders order_fused]; intros; [split|]; apply Permutation.Permutation_refl. Qed.
Lemma at_least_less a b n A : b <= a -> at_least a n A -> at_least b n A.
Proof.
  intros H L z. eapply Rle_trans; [|apply L]. apply Rmult_le_compat_r; [|exact H]. apply total_nonneg. intros; apply Rle_0_sqr.
Qed.

Example C119_case : let w := generate_weight32 5 C119_order C116_cov (C119_plain 8) in
  entries_within (bpow radix2 4) 5 C116_cov /\ entries_within (bpow radix2 4) 5 (C119_plain 8) /\
  at_least 2 5 (values C116_cov) /\ at_least 2 5 (values (C119_plain 8)) /\
  1.01 * INR 5 * bpow radix2 (4 + Z.of_nat 5 - 17) <= 2 /\ 1.1 * INR 5 * bpow radix2 (4 + Z.of_nat 5 - 16) <= 2 /\
  order_of 5 C119_order /\ uses_all 5 C119_orders /\
  nearly_a_weight w /\ 0.5 < B2R w <= 1 /\
  vector_within 5 (bpow radix2 40) (fun i => f32_of_Z (Z.of_nat i)) /\
  forall i j, (i < 5)%nat -> (j < 5)%nat ->
    is_finite (snd (compute_covariance_intersection32 5 C119_orders (fun i => f32_of_Z (Z.of_nat i)) C116_cov (fun _ => f32_of_Z 1) (C119_plain 8) w) i j) = true.
Proof.
  intros w.
  assert (FB : is_finite w && Bltb (f32_div (f32_of_Z 1) (f32_of_Z 2)) w && Bleb w (f32_of_Z 1) = true) by (vm_compute; reflexivity). clearbody w.
  apply andb_prop in FB. destruct FB as [FB B1]. apply andb_prop in FB. destruct FB as [F B2].
  destruct (int32_value 1 ltac:(lia)) as [E1 F1]. pose proof (Bleb_correct _ _ _ _ F F1) as C1. rewrite B1, E1 in C1. symmetry in C1.
  assert (L1 : B2R w <= 1) by (destruct (Rle_bool_spec (B2R w) 1); [assumption|discriminate]).
  assert (Eh : B2R (f32_div (f32_of_Z 1) (f32_of_Z 2)) = / 2) by (vm_compute; lra).
  assert (Fh : is_finite (f32_div (f32_of_Z 1) (f32_of_Z 2)) = true) by (vm_compute; reflexivity).
  pose proof (Bltb_correct _ _ _ _ Fh F) as C2. rewrite B2, Eh in C2. symmetry in C2.
  assert (L2 : / 2 < B2R w) by (destruct (Rlt_bool_spec (/ 2) (B2R w)); [assumption|discriminate]).
  assert (W8 : entries_within (bpow radix2 4) 5 (C119_plain 8)) by (apply plain_within; [lia|change (bpow radix2 4) with 16; cbn; lra]).
  assert (A8 : at_least 2 5 (values (C119_plain 8))) by (apply (at_least_less 8); [lra|apply (plain_at_least 8); lia]).
  assert (I5 : INR 5 = 5) by (rewrite INR_IZR_INZ; reflexivity).
  assert (K1 : 1.01 * INR 5 * bpow radix2 (4 + Z.of_nat 5 - 17) <= 2) by (rewrite I5; change (bpow radix2 (4 + Z.of_nat 5 - 17)) with (/ 256); lra).
  assert (K2 : 1.1 * INR 5 * bpow radix2 (4 + Z.of_nat 5 - 16) <= 2) by (rewrite I5; change (bpow radix2 (4 + Z.of_nat 5 - 16)) with (/ 128); lra).
  split; [exact cov_within|]. split; [exact W8|]. split; [exact cov_at_least|]. split; [exact A8|]. split; [exact K1|]. split; [exact K2|].
  split; [apply Permutation.Permutation_refl|]. split; [exact orders_use|]. split; [split; [exact F|lra]|]. split; [lra|]. split.
  - intros i Hi. apply Rle_trans with (bpow radix2 3); [|apply bpow_le; lia]. change (bpow radix2 3) with 8.
    assert (Bd : forall x : f32, is_finite x && Bleb (Babs x) (f32_of_Z 8) = true -> Rabs (B2R x) <= 8).
    { intros x H. apply andb_prop in H. destruct H as [Fx Bx]. destruct (int32_value 8 ltac:(lia)) as [E8 F8].
      assert (FA : is_finite (Babs x) = true) by (now rewrite is_finite_Babs). pose proof (Bleb_correct _ _ _ _ FA F8) as C. rewrite Bx, E8, B2R_Babs in C. symmetry in C.
      destruct (Rle_bool_spec (Rabs (B2R x)) 8); [assumption|discriminate]. }
    apply Bd. below; vm_compute; reflexivity.
  - apply (C119_finite 5 C119_orders 4 w _ C116_cov _ (C119_plain 8) 2); try assumption; [now left|lia|lra|exact cov_within|exact cov_at_least].
Qed.

(** Track and detection: the covariance of C116, and one without correlations *)
Lemma exact_norm j : (j < 5)%nat -> norm 5 (fun k => C116_exact k j) <= / 5.
Proof.
  intros Hj. unfold norm. rewrite <- (sqrt_square (/ 5)) by lra. apply sqrt_le_1_alt. unfold C116_exact.
  below; cbn [seq total Nat.mul Nat.add C116_exact_table nth]; lra.
Qed.
Lemma exact_at_least : at_least (/ 50) 5 C116_exact.
Proof.
  intros z. unfold apply, C116_exact. cbn [seq total]. cbn [Nat.mul Nat.add C116_exact_table nth].
  set (a := z 0%nat). set (b := z 1%nat). set (c := z 2%nat). set (d := z 3%nat). set (g := z 4%nat).
  assert (Q : forall x, 0 <= x * x) by (intros; apply Rle_0_sqr).
  pose proof (Q (a - b)). pose proof (Q (a - c)). pose proof (Q (a + d)). pose proof (Q (a - g)). pose proof (Q (b - c)).
  pose proof (Q (b - d)). pose proof (Q (b + g)). pose proof (Q (c - d)). pose proof (Q (c - g)). pose proof (Q (d - g)).
  pose proof (Q a). pose proof (Q b). pose proof (Q c). pose proof (Q d). pose proof (Q g). lra.
Qed.
Lemma near_inverse m exact b c eps : (forall k j, (k < 5)%nat -> (j < 5)%nat -> is_finite (inverse32 5 m k j) = true) ->
  0 <= eps -> within eps 5 (values (inverse32 5 m)) exact ->
  at_least c 5 exact -> (forall i j, (i < 5)%nat -> (j < 5)%nat -> Rabs (exact i j) + eps <= b) ->
  entries_within b 5 (inverse32 5 m) /\ at_least (c - 5 * eps) 5 (values (inverse32 5 m)).
Proof.
  intros F E0 E L B. split.
  - intros i j Hi Hj. split; [now apply F|]. specialize (E i j Hi Hj). specialize (B i j Hi Hj). unfold values in E.
    pose proof (Rabs_triang_inv (B2R (inverse32 5 m i j)) (exact i j)). lra.
  - replace (c - 5 * eps) with (c - INR 5 * eps) by (rewrite INR_IZR_INZ; cbn; ring). apply (at_least_near 5 c exact); assumption.
Qed.
Lemma cov_inverse_near : entries_within (bpow radix2 (-2)) 5 (inverse32 5 C116_cov) /\ at_least (/ 100) 5 (values (inverse32 5 C116_cov)).
Proof.
  assert (I5 : INR 5 = 5) by (rewrite INR_IZR_INZ; reflexivity).
  assert (K : INR 5 * bpow radix2 (4 + Z.of_nat 5 - 17) <= 2) by (rewrite I5; change (bpow radix2 (4 + Z.of_nat 5 - 17)) with (/ 256); lra).
  destruct (C116_accuracy 5 4 C116_cov 2) as [F A]; [now left|lia|exact cov_within|exact cov_at_least|exact K|].
  destruct (near_inverse C116_cov C116_exact (/ 4) (/ 50) (/ 1000)) as [H1 H2]; [exact F|lra| |exact exact_at_least| |].
  - intros k j Hk Hj. eapply Rle_trans; [exact (A C116_exact cov_inverse k j Hk Hj)|]. change (bpow radix2 (4 + Z.of_nat 5 - 19)) with (/ 1024). rewrite I5.
    pose proof (exact_norm j Hj). lra.
  - intros i j Hi Hj. unfold C116_exact, Rdiv. rewrite Rabs_mult, (Rabs_pos_eq (/ 64275)) by lra. rewrite <- abs_IZR.
    assert (IZR (Z.abs (nth (5 * i + j) C116_exact_table 0%Z)) <= IZR 10436) by (apply IZR_le; below; below; vm_compute; discriminate). lra.
  - split; [exact H1|]. apply (at_least_less (/ 50 - 5 * / 1000)); [lra|exact H2].
Qed.
Lemma plain_inverse_near : entries_within (bpow radix2 (-2)) 5 (inverse32 5 (C119_plain 32)) /\ at_least (/ 100) 5 (values (inverse32 5 (C119_plain 32))).
Proof.
  assert (I5 : INR 5 = 5) by (rewrite INR_IZR_INZ; reflexivity).
  assert (K : INR 5 * bpow radix2 (5 + Z.of_nat 5 - 17) <= 32) by (rewrite I5; change (bpow radix2 (5 + Z.of_nat 5 - 17)) with (/ 128); lra).
  destruct (C116_accuracy 5 5 (C119_plain 32) 32) as [F A]; [now left|lia|apply plain_within; [lia|change (bpow radix2 5) with 32; cbn; lra]|apply (plain_at_least 32); lia|exact K|].
  assert (I : inverse_of 5 (values (C119_plain 32)) (fun i j => / 32 * unit_entry i j)).
  { intros i j Hi Hj. unfold apply. rewrite (total_ext _ (fun k => unit_entry i k * unit_entry k j)).
    - exact (unit_apply 5 (fun k => unit_entry k j) i Hi).
    - intros k _. unfold values. rewrite (proj1 (plain_value 32 i k ltac:(lia))). lra. }
  destruct (near_inverse (C119_plain 32) (fun i j => / 32 * unit_entry i j) (/ 4) (/ 32) (/ 1000)) as [H1 H2]; [exact F|lra| | | |].
  - intros k j Hk Hj. eapply Rle_trans; [exact (A _ I k j Hk Hj)|]. change (bpow radix2 (5 + Z.of_nat 5 - 19)) with (/ 512). rewrite I5.
    rewrite (NormThms.norm_scale 5 (/ 32)), NormThms.norm_unit, Rabs_pos_eq by (assumption || lra). lra.
  - apply scaled_at_least. reflexivity.
  - intros i j _ _. unfold unit_entry. destruct (i =? j)%nat; rewrite Rabs_pos_eq; lra.
  - split; [exact H1|]. apply (at_least_less (/ 32 - 5 * / 1000)); [lra|exact H2].
Qed.
(** CTRV, with trigonometric functions that are constant *)
Definition C119_model : state_type64 := ctrv64 (fun _ => f64_of_Z 0) (fun _ => f64_of_Z 1) (fun _ _ => f64_of_Z 1).
Definition C119_state (x : Z) : s_car C119_model :=
  s_from C119_model (fun i => f32_of_Z (x + Z.of_nat i)).
Example C119_visitor_case :
  states (s_dim C119_model) /\ entries_within (bpow radix2 4) 5 C116_cov /\ entries_within (bpow radix2 5) 5 (C119_plain 32) /\
  entries_within (bpow radix2 (-2)) 5 (inverse32 5 C116_cov) /\ entries_within (bpow radix2 (-2)) 5 (inverse32 5 (C119_plain 32)) /\
  at_least (/ 100) 5 (values (inverse32 5 C116_cov)) /\ at_least (/ 100) 5 (values (inverse32 5 (C119_plain 32))) /\
  1.01 * INR 5 * bpow radix2 (-2 + Z.of_nat 5 - 17) <= / 100 /\
  vector_within 5 (bpow radix2 40) (s_to C119_model (C119_state 10)) /\ vector_within 5 (bpow radix2 40) (s_to C119_model (C119_state 12)) /\
  order_of 5 (order_diagonal C119_orders) /\ uses_all 5 C119_orders.
Proof.
  destruct cov_inverse_near as [E1 A1]. destruct plain_inverse_near as [E2 A2].
  split; [now left|]. split; [exact cov_within|]. split; [apply plain_within; [lia|change (bpow radix2 5) with 32; cbn; lra]|].
  split; [exact E1|]. split; [exact E2|]. split; [exact A1|]. split; [exact A2|]. split.
  { rewrite INR_IZR_INZ. change (bpow radix2 (-2 + Z.of_nat 5 - 17)) with (/ 16384). cbn. lra. }
  assert (Bd : forall x : f32, is_finite x && Bleb (Babs x) (f32_of_Z 32) = true -> Rabs (B2R x) <= bpow radix2 40).
  { intros x H. apply andb_prop in H. destruct H as [Fx Bx]. destruct (int32_value 32 ltac:(lia)) as [E8 F8].
    assert (FA : is_finite (Babs x) = true) by (now rewrite is_finite_Babs). pose proof (Bleb_correct _ _ _ _ FA F8) as C. rewrite Bx, E8, B2R_Babs in C. symmetry in C.
    apply Rle_trans with (bpow radix2 5); [|apply bpow_le; lia]. change (bpow radix2 5) with 32.
    destruct (Rle_bool_spec (Rabs (B2R x)) 32); [assumption|discriminate]. }
  split; [intros i Hi; apply Bd; below; vm_compute; reflexivity|]. split; [intros i Hi; apply Bd; below; vm_compute; reflexivity|].
  split; [apply Permutation.Permutation_refl|exact orders_use].
Qed.

Print Assumptions C119_determinant.
Print Assumptions C119_weight.
Print Assumptions C119_covariance.
Print Assumptions C119_finite.
Print Assumptions C119_mean.
Print Assumptions C119_visitor.
Print Assumptions C119_weight_refuted.
