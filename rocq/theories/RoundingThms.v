(** Proofs about the rounding helpers. *)
From Coq Require Import Reals Lra Lia ZArith Machin.
From Flocq Require Import Core.Raux.
From Verif Require Import Motion RealArith StateVec PiBounds Rounding.
Local Open Scope R_scope.

(** ** Specification: the multiple of 10^-d nearest to x, halves away from zero *)
Definition decimal (d : nat) (y : R) : Prop := exists m : Z, y * 10 ^ d = IZR m.
Definition half_unit (d : nat) : R := / (2 * 10 ^ d).

Lemma floor_bounds x : IZR (Zfloor x) <= x < IZR (Zfloor x) + 1.
Proof. split; [apply Zfloor_lb|apply Zfloor_ub]. Qed.

Lemma c_round_int x : exists m : Z, c_round x = IZR m.
Proof. unfold c_round. destruct (Rle_dec 0 x); [eauto|]. rewrite <- opp_IZR. eauto. Qed.
Lemma c_round_near x : Rabs (c_round x - x) <= 1 / 2.
Proof.
  unfold c_round. destruct (Rle_dec 0 x).
  - pose proof (floor_bounds (x + 1 / 2)). apply Rabs_le. lra.
  - pose proof (floor_bounds (- x + 1 / 2)). apply Rabs_le. lra.
Qed.
Lemma c_round_away x : Rabs (c_round x - x) = 1 / 2 -> Rabs (c_round x) = Rabs x + 1 / 2.
Proof.
  unfold c_round. destruct (Rle_dec 0 x) as [H|H].
  - pose proof (floor_bounds (x + 1 / 2)) as B. intros E.
    destruct (Rle_dec 0 (IZR (Zfloor (x + 1 / 2)) - x)) as [P|P].
    + rewrite Rabs_pos_eq in E by lra. rewrite !Rabs_pos_eq by lra. lra.
    + rewrite Rabs_left in E by lra. lra.
  - pose proof (floor_bounds (- x + 1 / 2)) as B. intros E.
    destruct (Rle_dec 0 (- IZR (Zfloor (- x + 1 / 2)) - x)) as [P|P].
    + rewrite Rabs_pos_eq in E by lra. lra.
    + rewrite Rabs_left in E by lra. rewrite (Rabs_left x) by lra. rewrite Rabs_left1 by lra. lra.
Qed.
Lemma int_close (m n : Z) : Rabs (IZR m - IZR n) < 1 -> m = n.
Proof.
  rewrite <- minus_IZR, <- abs_IZR. change 1 with (IZR 1). intros H. apply lt_IZR in H. lia.
Qed.
Lemma c_round_fix m : c_round (IZR m) = IZR m.
Proof.
  destruct (c_round_int (IZR m)) as [n E]. pose proof (c_round_near (IZR m)) as H. rewrite E in *.
  f_equal. apply int_close. lra.
Qed.
Lemma no_half m : IZR m <> 1 / 2 /\ IZR m <> - (1 / 2).
Proof.
  split; intros H; [assert (E : IZR (2 * m) = IZR 1)|assert (E : IZR (2 * m) = IZR (-1))];
    try (rewrite mult_IZR; lra); apply eq_IZR in E; lia.
Qed.
Lemma tie_away m x : Rabs (IZR m - x) = 1 / 2 -> Rabs (IZR m) = Rabs x + 1 / 2 ->
  IZR m = if Rle_dec 0 x then x + 1 / 2 else x - 1 / 2.
Proof.
  pose proof (no_half m) as [N1 N2]. unfold Rabs.
  destruct (Rcase_abs (IZR m - x)), (Rcase_abs (IZR m)), (Rcase_abs x), (Rle_dec 0 x); intros; try lra.
  all: exfalso; assert (x = 0) by lra; lra.
Qed.
Lemma c_round_unique x m : Rabs (IZR m - x) <= 1 / 2 ->
  (Rabs (IZR m - x) = 1 / 2 -> Rabs (IZR m) = Rabs x + 1 / 2) -> c_round x = IZR m.
Proof.
  intros H1 H2. destruct (c_round_int x) as [n E]. pose proof (c_round_near x) as N1.
  pose proof (c_round_away x) as N2. rewrite E in *. f_equal.
  assert (T : Rabs (IZR m - x) < 1 / 2 \/ Rabs (IZR n - x) < 1 / 2 \/ IZR n = IZR m).
  { destruct (Req_dec (Rabs (IZR m - x)) (1 / 2)) as [Em|Em]; [|left; lra].
    destruct (Req_dec (Rabs (IZR n - x)) (1 / 2)) as [En|En]; [|right; left; lra].
    right. right. now rewrite (tie_away m x Em (H2 Em)), (tie_away n x En (N2 En)). }
  destruct T as [T|[T|T]]; [| |now apply eq_IZR].
  all: apply int_close; replace (IZR n - IZR m) with ((IZR n - x) + - (IZR m - x)) by lra.
  all: eapply Rle_lt_trans; [apply Rabs_triang|]; rewrite Rabs_Ropp; lra.
Qed.
Lemma c_round_mono x y : x <= y -> c_round x <= c_round y.
Proof.
  intros H. destruct (c_round_int x) as [m Em], (c_round_int y) as [n En].
  destruct (Rle_dec (c_round x) (c_round y)) as [|C]; [assumption|exfalso].
  assert (M : (n + 1 <= m)%Z) by (rewrite Em, En in C; apply Rnot_le_lt, lt_IZR in C; lia).
  apply IZR_le in M. rewrite plus_IZR in M.
  pose proof (c_round_near x) as Nx. pose proof (c_round_near y) as Ny. rewrite Em, En in *.
  apply Rabs_le_inv in Nx, Ny. assert (x = y) by lra. subst y. rewrite Em in En. lra.
Qed.
Lemma c_round_opp x : c_round (- x) = - c_round x.
Proof.
  destruct (c_round_int x) as [m E]. rewrite E, <- opp_IZR. apply c_round_unique; rewrite opp_IZR.
  - pose proof (c_round_near x) as N. rewrite E in N. replace (- IZR m - - x) with (- (IZR m - x)) by lra.
    now rewrite Rabs_Ropp.
  - replace (- IZR m - - x) with (- (IZR m - x)) by lra. rewrite !Rabs_Ropp. rewrite <- E. apply c_round_away.
Qed.

Lemma pow10_pos d : 0 < 10 ^ d.
Proof. apply pow_lt. lra. Qed.
Lemma round_to_scale d x : round_to d x * 10 ^ d = c_round (x * 10 ^ d).
Proof. unfold round_to. pose proof (pow10_pos d). field. lra. Qed.

Lemma round_to_decimal d x : decimal d (round_to d x).
Proof. unfold decimal. rewrite round_to_scale. apply c_round_int. Qed.
Lemma scale_abs d a : Rabs (a * 10 ^ d) = Rabs a * 10 ^ d.
Proof. rewrite Rabs_mult. now rewrite (Rabs_pos_eq (10 ^ d)) by (pose proof (pow10_pos d); lra). Qed.
Lemma half_unit_scale d : half_unit d * 10 ^ d = 1 / 2.
Proof. unfold half_unit. pose proof (pow10_pos d). field. lra. Qed.
Lemma round_to_near d x : Rabs (round_to d x - x) <= half_unit d.
Proof.
  pose proof (pow10_pos d) as P. apply (Rmult_le_reg_r (10 ^ d)); [lra|].
  rewrite <- scale_abs, half_unit_scale, Rmult_minus_distr_r, round_to_scale. apply c_round_near.
Qed.
Lemma round_to_away d x : Rabs (round_to d x - x) = half_unit d -> Rabs (round_to d x) = Rabs x + half_unit d.
Proof.
  pose proof (pow10_pos d) as P. intros E. apply (Rmult_eq_reg_r (10 ^ d)); [|lra].
  rewrite <- scale_abs, round_to_scale, Rmult_plus_distr_r, half_unit_scale, <- scale_abs.
  apply c_round_away. rewrite <- round_to_scale, <- Rmult_minus_distr_r, scale_abs, E. apply half_unit_scale.
Qed.
Lemma round_to_unique d x y : decimal d y -> Rabs (y - x) <= half_unit d ->
  (Rabs (y - x) = half_unit d -> Rabs y = Rabs x + half_unit d) -> round_to d x = y.
Proof.
  intros [m Em] H1 H2. pose proof (pow10_pos d) as P. apply (Rmult_eq_reg_r (10 ^ d)); [|lra].
  rewrite round_to_scale, Em. apply c_round_unique; rewrite <- Em, <- Rmult_minus_distr_r, scale_abs, <- (half_unit_scale d).
  - apply Rmult_le_compat_r; lra.
  - intros E. apply Rmult_eq_reg_r in E; [|lra]. rewrite !scale_abs, H2 by exact E. lra.
Qed.
Lemma round_to_mono d x y : x <= y -> round_to d x <= round_to d y.
Proof.
  intros H. pose proof (pow10_pos d) as P. apply (Rmult_le_reg_r (10 ^ d)); [lra|].
  rewrite !round_to_scale. apply c_round_mono. apply Rmult_le_compat_r; lra.
Qed.
Lemma round_to_fix d y : decimal d y <-> round_to d y = y.
Proof.
  split; [|intros <-; apply round_to_decimal]. intros H. apply round_to_unique; [exact H| |];
    replace (y - y) with 0 by lra; rewrite Rabs_R0; assert (0 < half_unit d) by (apply Rinv_0_lt_compat; pose proof (pow10_pos d); lra); lra.
Qed.
Lemma round_to_idem d x : round_to d (round_to d x) = round_to d x.
Proof. apply round_to_fix, round_to_decimal. Qed.
Lemma round_to_opp d x : round_to d (- x) = - round_to d x.
Proof. unfold round_to. rewrite Ropp_mult_distr_l_reverse, c_round_opp. pose proof (pow10_pos d). field. lra. Qed.
Lemma round_to_0 d : round_to d 0 = 0.
Proof. apply round_to_fix. exists 0%Z. lra. Qed.

(** Rounding to fewer decimals keeps shorter decimals. *)
Lemma decimal_more d e y : (d <= e)%nat -> decimal d y -> decimal e y.
Proof.
  intros H [m E]. exists (m * 10 ^ Z.of_nat (e - d))%Z. rewrite mult_IZR, <- E.
  replace e with (d + (e - d))%nat at 1 by lia. rewrite pow_add, <- pow_IZR. ring.
Qed.

(** ** Headings *)
Lemma rounded_heading d z : on_circle z ->
  let r := round_to d (get_angle z) in
  0 <= r < 2 * PI + half_unit d /\
  get_angle (angleR r) = if Rlt_dec r (2 * PI) then r else r - 2 * PI.
Proof.
  intros Hz r. destruct (circle_is_angle z Hz) as (x & Hx & Ez). pose proof pi_bounds as PB.
  assert (Hr : r = round_to d x) by (unfold r; rewrite Ez, get_angle_canonical by exact Hx; reflexivity).
  assert (B : 0 <= r < 2 * PI + half_unit d).
  { rewrite Hr. split; [rewrite <- (round_to_0 d); apply round_to_mono; lra|].
    pose proof (round_to_near d x) as N. apply Rabs_le_inv in N. lra. }
  split; [exact B|]. destruct (Rlt_dec r (2 * PI)); [apply get_angle_canonical; lra|].
  assert (half_unit d <= 1 / 2).
  { unfold half_unit. rewrite <- (Rmult_1_l (/ _)). apply Rmult_le_reg_r with (2 * 10 ^ d); [pose proof (pow10_pos d); lra|].
    rewrite Rmult_assoc, Rinv_l by (pose proof (pow10_pos d); lra). pose proof (pow_R1_Rle 10 d). lra. }
  rewrite (angle_of_turn r (r - 2 * PI)); [apply get_angle_canonical; lra|]. exists 1%Z. lra.
Qed.

Lemma half_unit_range d : 0 < half_unit d <= 1 / 2.
Proof.
  pose proof (pow10_pos d) as P. split; [apply Rinv_0_lt_compat; lra|].
  apply Rmult_le_reg_r with (10 ^ d); [lra|]. rewrite half_unit_scale. pose proof (pow_R1_Rle 10 d). lra.
Qed.
Lemma round_to_small d x : Rabs x < half_unit d -> round_to d x = 0.
Proof.
  intros H. apply round_to_unique; [exists 0%Z; lra| |]; rewrite Rminus_0_l, Rabs_Ropp; lra.
Qed.
(** Rounding the heading again *)
Lemma rounded_heading_again d z : on_circle z ->
  let once := angleR (round_to d (get_angle z)) in
  angleR (round_to d (get_angle once)) = once <-> round_to d (get_angle z) <= 2 * PI.
Proof.
  intros Hz. destruct (rounded_heading d z Hz) as [B E]. cbv zeta. rewrite E. pose proof pi_bounds as PB.
  set (r := round_to d (get_angle z)) in *. destruct (Rlt_dec r (2 * PI)) as [L|L].
  - assert (I : round_to d r = r) by apply round_to_idem. rewrite I. split; [lra|reflexivity].
  - pose proof (half_unit_range d) as U.
    rewrite round_to_small by (rewrite Rabs_pos_eq; lra).
    assert (T : same_turn r (r - 2 * PI)) by (exists 1%Z; lra). rewrite (angle_of_turn _ _ T). split; intros C.
    + apply (f_equal (@get_angle reals)) in C. rewrite !get_angle_canonical in C by lra. lra.
    + f_equal. lra.
Qed.
(** One decimal place: 6.27 is rounded to 6.3, more than a turn. *)
Lemma tenth_over : round_to 1 6.27 = 6.3.
Proof.
  apply round_to_unique; unfold half_unit; [exists 63%Z; lra| |]; rewrite !Rabs_pos_eq by lra; lra.
Qed.
Lemma pi_below : PI < 3.15.
Proof.
  pose proof (PI_2_3_7_ineq 1) as H.
  unfold tg_alt, PI_2_3_7_tg, Ratan_seq in H. cbn -[Rdiv Rinv] in H. lra.
Qed.

(** A rounded entry, and the heading of a rounded state *)
Lemma rounded_entry d x : (exists m : Z, round_to d x = IZR m * / 10 ^ d) /\ Rabs (round_to d x - x) <= / 10 ^ d / 2.
Proof.
  pose proof (pow10_pos d) as P. replace (/ 10 ^ d / 2) with (half_unit d) by (unfold half_unit; field; lra).
  split; [|apply round_to_near]. destruct (round_to_decimal d x) as [m E]. exists m. rewrite <- E. field. lra.
Qed.
Lemma rounded_heading_near d (z : rangle) : on_circle z ->
  let h := get_angle z in let h' := get_angle (angleR (round_to d h)) in
  exists k : Z, Rabs (h' + IZR k * (2 * PI) - h) <= / 10 ^ d / 2 /\ (k = 0 \/ k = 1)%Z /\
  (exists m : Z, h' + IZR k * (2 * PI) = IZR m * / 10 ^ d).
Proof.
  intros Hc h h'. destruct (rounded_heading d z Hc) as [B E]. fold h in B, E. fold h' in E.
  destruct (rounded_entry d h) as [M N]. revert E. destruct (Rlt_dec _ _) as [L|L]; intros E.
  - exists 0%Z. replace (h' + 0 * (2 * PI)) with (round_to d h) by (rewrite E; lra). auto.
  - exists 1%Z. replace (h' + 1 * (2 * PI)) with (round_to d h) by (rewrite E; lra). auto.
Qed.
