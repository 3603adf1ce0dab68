(** Prediction of a CTRA state with its covariance in the number types of the code:
    property C120, as C114 (Properties_FloatPredict.v) for CTRV states. *)
From Coq Require Import ZArith Reals Lra Lia List Arith.
From mathcomp Require ssreflect ssrbool ssrnat fintype seq matrix.
From Flocq Require Import Core IEEE754.BinarySingleNaN.
From Verif Require Import Float FloatProofs Motion RealArith DoubleArith DoubleThms SumSquares64 PiDouble TrigSpec AngleAccuracy
  MotionAccuracy FloatDistance FloatDistanceThms FloatWeight FloatUnscented FloatUnscentedThms FloatCovariance FloatLlt FloatLltThms
  FloatHeading FloatPredict SigmaAccuracy Properties_FloatUnscented Properties_FloatCovariance Properties_FloatLlt FloatPredictThms
  Displacement PredictSpec RealField PosDef StateVec Unscented PredictBridge Properties_Accuracy Properties_CtraAccuracy Properties_FloatPredict
  CtraPredictSpec CtraSigma CtraBridge CtraPredictAccuracy CtraPredictInput.
Import ListNotations.
Open Scope R_scope.

(** Entry (j, k) of a matrix *)
Definition cell_of6 (P : matrix.matrix R 6 6) (j k : nat) : R :=
  matrix.fun_of_matrix P (fintype.inord j) (fintype.inord k).
Definition matrix6 (f : nat -> nat -> R) : matrix.matrix R 6 6 :=
  matrix.matrix_of_fun matrix.matrix_key (fun i j => f (fintype.nat_of_ord i) (fintype.nat_of_ord j)).

Section Accuracy.
Variables (sine cosine : f64 -> f64) (phase : f64 -> f64 -> f64).
Notation ST := (ctra64 sine cosine phase).
Notation exact := (exact_ctra sine cosine phase).

(** The displacements the code computes, with lambda = 2 *)
Definition displacements6 (o : summation) (cov : nat -> nat -> f32) : nat -> nat -> f32 :=
  displacement32 ST (llt_matrixL32 6 (order_L o) cov) (f32_of_Z 2).
(** A predicted state and its covariance in floats, and in exact arithmetic: the errors for
    entries within r(j) of c(j) and M(j) of zero *)
Definition predicted_near6 (M r : nat -> R) (float : ctra_state (doubles sine cosine phase) * (nat -> nat -> f32))
    (real : ctra_state reals * matrix.matrix R 6 6) : Prop :=
  let (s, P) := float in let (e, Q) := real in
  Rabs (B2R (a_x s : f64) - a_x e) <= 18 / 2 ^ 24 * M 0%nat /\
  Rabs (B2R (a_y s : f64) - a_y e) <= 18 / 2 ^ 24 * M 1%nat /\
  Rabs (B2R (a_vel s : f64) - a_vel e) <= 18 / 2 ^ 24 * M 2%nat /\
  turn_close (19 / 2 ^ 24 * M 3%nat) (B2R (get_angle (a_yaw s) : f64)) (get_angle (a_yaw e)) /\
  Rabs (B2R (a_rate s : f64) - a_rate e) <= 18 / 2 ^ 24 * M 4%nat /\
  Rabs (B2R (a_acc s : f64) - a_acc e) <= 18 / 2 ^ 24 * M 5%nat /\
  forall j k, (j < 6)%nat -> (k < 6)%nat -> is_finite (P j k) = true /\
    Rabs (B2R (P j k) - cell_of6 Q j k) <= 220 / 2 ^ 24 * (M j * r k + M k * r j) + 2000 / 2 ^ 48 * (M j * M k).

Record fits6 (o : summation) (s : ctra_state (doubles sine cosine phase)) (cov : nat -> nat -> f32) (dt : f64) : Prop := {
  fit6_L : orders 6 (order_L o);
  fit6_x : forall j, (j < 6)%nat -> order_of 13 (order_x o j);
  fit6_P : forall j k, (j < 6)%nat -> (k < 6)%nat -> order_of 13 (order_P o j k);
  fit6_state : ordinary_ctra sine cosine phase s;
  fit6_time : is_finite dt = true /\ Rabs (B2R dt) <= bpow radix2 30;
  fit6_var : forall i, (i < 6)%nat -> bpow radix2 (-80) <= B2R (cov i i) <= bpow radix2 80;
  fit6_llt : snd (llt32 6 (order_L o) cov) = true /\ finite_lower 6 (llt_matrixL32 6 (order_L o) cov)
}.

(** C120: as for CTRV states, the sigma points of the code are those of a covariance Q that
    differs from the given one by 23 roundings of the products of standard deviations ... *)
Theorem C120_covariance o s cov dt : fits6 o s cov dt ->
  let Q := effective 6 (displacements6 o cov) in
  (forall i j, (i < 6)%nat -> (j < 6)%nat ->
     Rabs (Q i j - matrix_of cov i j) <= 23 / 2 ^ 24 * sqrt (B2R (cov i i) * B2R (cov j j))) /\
  @spd R_realFieldType 6 (matrix6 Q) /\
  forall e : ctra_state reals, generate_sigma_points (ST := ctra_type) e (matrix6 Q) 2 =
    flat_map (fun c => [ctra_add e (exact_from6 (displacements6 o cov c)); ctra_sub e (exact_from6 (displacements6 o cov c))]) (seq 0 6).
Proof.
  intros [OL Ox OP Os [Fd Bd] V [Ok Fin]] Q.
  assert (Up : forall i c, is_true (ssrnat.leq (S i) c) -> B2R (displacements6 o cov c i) = 0).
  { intros i c H. apply (disp_upper 6 (order_L o) cov (or_intror eq_refl) OL V Ok Fin). now apply (ssrbool.elimT (@ssrnat.leP _ _)). }
  assert (Dia : forall i, is_true (ssrnat.leq (S i) 6) -> 0 < B2R (displacements6 o cov i i)).
  { intros i H. apply (disp_diagonal 6 (order_L o) cov (or_intror eq_refl) OL V Ok Fin).
    now apply (ssrbool.elimT (@ssrnat.leP _ _)). }
  split; [|split].
  - intros i j Hi Hj. exact (effective_near 6 (order_L o) cov (or_intror eq_refl) OL V Ok Fin i j Hi Hj).
  - exact (effective_spd Up Dia).
  - intros e. rewrite <- displaced_ctra. exact (@sigma_displaced 5 ctra_type e (displacements6 o cov) Up Dia).
Qed.

(** ... and the state and covariance the library predicts are those predicted exactly from
    Q, up to errors of the order of 2^-24, if the sigma points are calm. *)
Theorem C120_accuracy o s cov dt (M c r : nat -> R) : accurate sine cosine phase -> fits6 o s cov dt -> frame6 M c r ->
  let Q := matrix6 (effective 6 (displacements6 o cov)) in
  Forall (calm6 M c r (B2R dt)) (exact s :: generate_sigma_points (ST := ctra_type) (exact s) Q 2) ->
  predicted_near6 M r (default_unscented_transform32 ST o s cov dt) (default_unscented_transform (ST := ctra_type) (exact s) Q (B2R dt)).
Proof.
  intros ACC Fit FR Q Calm. pose proof Fit as [OL Ox OP Os [Fd Bd] V [Ok Fin]].
  assert (Up : forall i c, is_true (ssrnat.leq (S i) c) -> B2R (displacements6 o cov c i) = 0).
  { intros i k H. apply (disp_upper 6 (order_L o) cov (or_intror eq_refl) OL V Ok Fin). now apply (ssrbool.elimT (@ssrnat.leP _ _)). }
  assert (Dia : forall i, is_true (ssrnat.leq (S i) 6) -> 0 < B2R (displacements6 o cov i i)).
  { intros i H. apply (disp_diagonal 6 (order_L o) cov (or_intror eq_refl) OL V Ok Fin).
    now apply (ssrbool.elimT (@ssrnat.leP _ _)). }
  assert (ES : generate_sigma_points (ST := ctra_type) (exact s) Q 2 = @displaced 5 ctra_type (exact s) (displacements6 o cov))
    by exact (@sigma_displaced 5 ctra_type (exact s) (displacements6 o cov) Up Dia).
  rewrite ES in Calm.
  assert (EP : default_unscented_transform (ST := ctra_type) (exact s) Q (B2R dt) = _)
    by exact (@predict_exact 5 ctra_type (exact s) (displacements6 o cov) (B2R dt) Up Dia).
  rewrite EP. clear EP ES.
  pose proof (fun j k => transform_accurate6 sine cosine phase ACC M c r FR o s cov dt OL Ox OP V Ok Fin Os Fd Bd Calm j k) as T.
  unfold default_unscented_transform32, unscented_transform32, unscented_kalman_filter_predict32.
  change (Z.of_nat (s_dim ST)) with 6%Z. rewrite default_lambda in T |- * by now right.
  destruct (generate_weights32 6 (f32_of_Z 1) (f32_of_Z 1) (f32_of_Z 2)) as [Wm Wc].
  cbn [st_from st_car ctra_type]. rewrite from_ctra. change (Z.of_nat 6) with 6%Z.
  fold (displacements6 o cov) in T.
  set (rows := PredictBridge.rows _ _ _) in *.
  destruct (compute_unscented_transform32 _ _ _ _ _) as [x P] eqn:EX.
  assert (U : u32 = / 2 ^ 24) by (unfold u32; cbn; lra).
  assert (T' : forall j k, (j < 6)%nat -> (k < 6)%nat ->
    (is_finite (x j) = true /\ Rabs (B2R (x j) - exact_mean 6 rows j) <= 18 * u32 * M j) /\
    (is_finite (P j k) = true /\
     Rabs (B2R (P j k) - exact_covariance 6 rows j k) <= 220 * u32 * (M j * r k + M k * r j) + 2000 * u32 * u32 * (M j * M k))).
  { intros j k Hj Hk. exact (T j k Hj Hk). }
  clear T. unfold predicted_near6. cbn [s_from ctra64 ctra_from32 a_x a_y a_vel a_yaw a_rate a_acc].
  assert (X : forall j, (j < 6)%nat -> is_finite (f64_of_f32 (x j)) = true /\
    Rabs (B2R (f64_of_f32 (x j)) - exact_mean 6 rows j) <= 18 / 2 ^ 24 * M j).
  { intros j Hj. destruct (T' j 0%nat Hj ltac:(lia)) as [[F E] _]. destruct (conv64 (x j) F) as [E' F'].
    split; [exact F'|]. rewrite E'. unfold Rdiv. rewrite <- U. exact E. }
  split; [apply X; lia|]. split; [apply X; lia|]. split; [apply X; lia|]. split; [|split; [apply X; lia|split; [apply X; lia|]]].
  - destruct (X 3%nat ltac:(lia)) as [F E]. destruct (angle_roundtrip _ _ _ ACC _ F) as (_ & _ & R1).
    pose proof (f6_yaw _ _ _ FR) as M3. rewrite u52_value in R1.
    apply turn_close_le with (8.1 * / 4503599627370496 + 18 / 2 ^ 24 * M 3%nat).
    { replace (19 / 2 ^ 24 * M 3%nat) with (/ 2 ^ 24 * M 3%nat + 18 / 2 ^ 24 * M 3%nat) by field.
      apply Rplus_le_compat_r. rewrite <- U. unfold u32. lra. }
    eapply turn_close_trans2; [exact R1|]. eapply turn_close_same; [|apply get_angle_spec].
    exists 0%Z. replace (exact_mean 6 rows 3 + 0 * (2 * PI)) with (exact_mean 6 rows 3) by ring. exact E.
  - intros j k Hj Hk. destruct (T' j k Hj Hk) as [_ [F E]]. split; [exact F|].
    replace (220 / 2 ^ 24) with (220 * u32) by (rewrite U; reflexivity).
    replace (2000 / 2 ^ 48) with (2000 * u32 * u32) by (unfold u32; cbn; lra).
    unfold cell_of6. rewrite matrix.mxE, !fintype.inordK by (apply (ssrbool.introT (@ssrnat.leP _ _)); lia). exact E.
Qed.

(** This is so in terms of the given state and covariance only, with deviations of 2.9
    standard deviations (more than the square root of 8): for a vehicle that surely turns
    by at least [w0], and for one, moving straight on for instance, whose yaw rate is
    independent of the first four entries and known by 2.8 standard deviations no closer than [w0]. *)
Definition deviations6 (cov : nat -> nat -> f32) (j : nat) : R := 2.9 * sqrt (B2R (cov j j)).
Lemma deviations_pos6 cov j : 0 <= deviations6 cov j.
Proof. apply Rmult_le_pos; [lra|apply sqrt_pos]. Qed.
(** The sigma points deviate by no more than that. *)
Definition about6 (dev : nat -> R) (e0 e : ctra_state reals) : Prop :=
  Rabs (a_x e - a_x e0) <= dev 0%nat /\ Rabs (a_y e - a_y e0) <= dev 1%nat /\
  Rabs (a_vel e - a_vel e0) <= dev 2%nat /\ Rabs (a_rate e - a_rate e0) <= dev 4%nat /\ Rabs (a_acc e - a_acc e0) <= dev 5%nat /\
  turn_close (dev 3%nat) (get_angle (a_yaw e)) (get_angle (a_yaw e0)).
Lemma displaced_about6 o s cov dt : fits6 o s cov dt ->
  Forall (about6 (deviations6 cov) (exact s)) (exact s :: @displaced 5 ctra_type (exact s) (displacements6 o cov)).
Proof.
  intros Fit. pose proof Fit as [OL Ox OP Os [Fd Bd] V [Ok Fin]]. set (d := displacements6 o cov). set (dev := deviations6 cov).
  assert (Dev := deviations_pos6 cov). fold dev in Dev.
  assert (B : forall k i, (k < 6)%nat -> (i < 6)%nat -> Rabs (B2R (d k i)) <= dev i).
  { intros k i Hk Hi. eapply Rle_trans; [exact (disp_size 6 (order_L o) cov (or_intror eq_refl) OL V Ok Fin i k Hi Hk)|].
    unfold dev, deviations6. apply Rmult_le_compat_r; [apply sqrt_pos|].
    assert (R8 : sqrt (INR 6 + 2) <= 2.83).
    { rewrite <- (sqrt_square 2.83) by lra. apply sqrt_le_1_alt. cbn [INR]. lra. }
    lra. }
  assert (Sub0 : forall x y : R, Rabs (x + y - x) = Rabs y) by (intros; f_equal; ring).
  assert (Sub1 : forall x y : R, Rabs (x - y - x) = Rabs y) by (intros; rewrite <- Rabs_Ropp; f_equal; ring).
  assert (Yaw0 : forall z : rangle, turn_close (dev 3%nat) (get_angle z) (get_angle z)).
  { intros z. exists 0%Z. replace (get_angle z - (get_angle z + 0 * (2 * PI))) with 0 by ring. rewrite Rabs_R0. apply Dev. }
  assert (Yaw1 : forall (z : rangle) b, Rabs b <= dev 3%nat ->
    turn_close (dev 3%nat) (get_angle (angle_add z (angleR b))) (get_angle z) /\
    turn_close (dev 3%nat) (get_angle (angle_sub z (angleR b))) (get_angle z)).
  { intros z b Hb. destruct (get_angle_spec b) as [_ [kb Eb]]. split.
    - destruct (angle_add_spec z (angleR b)) as [j Ej]. rewrite Ej, Eb. exists (kb + j)%Z. rewrite plus_IZR.
      match goal with |- Rabs ?a <= _ => replace a with b by ring end. exact Hb.
    - assert (S : same_turn (get_angle (angle_sub z (angleR b))) (get_angle z - get_angle (angleR b))) by apply get_angle_spec.
      destruct S as [j Ej]. rewrite Ej, Eb. exists (j - kb)%Z. rewrite minus_IZR.
      match goal with |- Rabs ?a <= _ => replace a with (- b) by ring end. rewrite Rabs_Ropp. exact Hb. }
  rewrite displaced_ctra. constructor.
  - unfold about6, Rminus. rewrite !Rplus_opp_r, Rabs_R0. repeat (split; [apply Dev|]). apply Yaw0.
  - rewrite Forall_forall. intros e He. apply in_flat_map in He. destruct He as (k & Hk & He). apply in_seq in Hk.
    assert (Hk6 : (k < 6)%nat) by lia. clear Hk.
    destruct (Yaw1 (a_yaw (exact s)) (B2R (d k 3%nat)) (B k 3%nat Hk6 ltac:(lia))) as [Y1 Y2].
    destruct He as [<-|[<-|[]]]; unfold about6;
      cbn [ctra_add ctra_sub exact_from6 a_x a_y a_vel a_rate a_acc nadd nsub reals]; rewrite ?Sub0, ?Sub1;
      repeat (split; [apply B; lia|]); assumption.
Qed.
Definition rates6 (e : ctra_state reals) (cov : nat -> nat -> f32) (w0 : R) : Prop :=
  let w := Rabs (a_rate e) in let sigma := sqrt (B2R (cov 4%nat 4%nat)) in
  w0 <= w - 2.9 * sigma \/
  ((forall j, (j < 4)%nat -> B2R (cov 4%nat j) = 0) /\ straight_or_turning6 w0 e /\ w + w0 <= 2.8 * sigma).
Lemma displaced_rates6 o s cov dt w0 : fits6 o s cov dt -> rates6 (exact s) cov w0 ->
  Forall (straight_or_turning6 w0) (exact s :: @displaced 5 ctra_type (exact s) (displacements6 o cov)).
Proof.
  intros Fit [W|(Z & S0 & W)].
  - eapply Forall_impl; [|exact (displaced_about6 o s cov dt Fit)]. intros e (_ & _ & _ & D & _ & _). right.
    change (deviations6 cov 4) with (2.9 * sqrt (B2R (cov 4%nat 4%nat))) in D.
    set (x := a_rate e : R) in *. set (y := a_rate (exact s) : R) in *.
    unfold Rabs in *. destruct (Rcase_abs (x - y)), (Rcase_abs x), (Rcase_abs y); lra.
  - pose proof Fit as [OL Ox OP Os [Fd Bd] V [Ok Fin]].
    pose proof (disp_alone 6 (order_L o) cov (or_intror eq_refl) OL V Ok Fin 4 ltac:(lia) Z) as Al.
    pose proof (disp_once 6 (order_L o) cov (or_intror eq_refl) OL V Ok Fin 4 ltac:(lia) Z) as On.
    change (float_displacement 6 (llt_matrixL32 6 (order_L o) cov)) with (displacements6 o cov) in Al, On.
    pose proof (V 4%nat ltac:(lia)) as [V4 _]. pose proof (bpow_gt_0 radix2 (-80)) as P80.
    set (d := displacements6 o cov) in *. set (P := B2R (cov 4%nat 4%nat)) in *. set (x := B2R (d 4%nat 4%nat)) in *.
    assert (X : 2.8 * sqrt P <= Rabs x).
    { rewrite <- (sqrt_square 2.8), <- sqrt_mult_alt, <- sqrt_Rsqr_abs by lra. apply sqrt_le_1_alt. unfold Rsqr.
      replace (INR 6 + 2) with 8 in On by (cbn; lra). apply Rabs_le_inv in On. lra. }
    rewrite displaced_ctra. constructor; [exact S0|]. rewrite Forall_forall. intros e He. apply in_flat_map in He.
    destruct He as (k & Hk & He). apply in_seq in Hk. destruct (Nat.eq_dec k 4) as [->|Nk].
    + assert (Far : forall y, Rabs (y - a_rate (exact s)) = Rabs x -> w0 <= Rabs y).
      { intros y Hy. set (z := a_rate (exact s) : R) in *. unfold Rabs in *.
        destruct (Rcase_abs (y - z)), (Rcase_abs y), (Rcase_abs z), (Rcase_abs x); lra. }
      destruct He as [<-|[<-|[]]]; right; apply Far; cbn [ctra_add ctra_sub exact_from6 a_rate nadd nsub reals]; fold x.
      * f_equal; ring.
      * rewrite <- Rabs_Ropp; f_equal; ring.
    + assert (Al' : B2R (d k 4%nat) = 0).
      { destruct (Nat.eq_dec k 5) as [->|]; [|apply Al; lia].
        apply (disp_upper 6 (order_L o) cov (or_intror eq_refl) OL V Ok Fin). lia. }
      clear Al. rename Al' into Al.
      destruct He as [<-|[<-|[]]]; unfold straight_or_turning6 in *; cbn [ctra_add ctra_sub exact_from6 a_rate nadd nsub reals] in *;
        rewrite Al, ?Rplus_0_r, ?Rminus_0_r; exact S0.
Qed.
Lemma about_calm6 o s cov dt h w0 : fits6 o s cov dt -> steady6 (exact s) (B2R dt) h (deviations6 cov) w0 -> rates6 (exact s) cov w0 ->
  Forall (calm6 (extent6 (exact s) (B2R dt) h (deviations6 cov)) (center6 (exact s) (B2R dt) h) (spread6 (exact s) (B2R dt) (deviations6 cov)) (B2R dt))
    (exact s :: @displaced 5 ctra_type (exact s) (displacements6 o cov)).
Proof.
  intros Fit TU Ra. pose proof (displaced_about6 o s cov dt Fit) as Ab. pose proof (displaced_rates6 o s cov dt w0 Fit Ra) as Sp.
  rewrite Forall_forall in Ab, Sp |- *. intros e He. destruct (Ab e He) as (A & B & C & D & E & F).
  assert (Dev := deviations_pos6 cov). eapply steady_calm6; eauto using Dev.
Qed.
Theorem C120_steady o s cov dt (h w0 : R) : accurate sine cosine phase -> fits6 o s cov dt ->
  let dev := deviations6 cov in let t := B2R dt in
  steady6 (exact s) t h dev w0 -> rates6 (exact s) cov w0 ->
  exists Q : matrix.matrix R 6 6, @spd R_realFieldType 6 Q /\
    (forall i j, (i < 6)%nat -> (j < 6)%nat ->
       Rabs (cell_of6 Q i j - matrix_of cov i j) <= 23 / 2 ^ 24 * sqrt (B2R (cov i i) * B2R (cov j j))) /\
    predicted_near6 (extent6 (exact s) t h dev) (spread6 (exact s) t dev)
      (default_unscented_transform32 ST o s cov dt) (default_unscented_transform (ST := ctra_type) (exact s) Q t).
Proof.
  intros ACC Fit dev t TU Ra. pose proof (C120_covariance o s cov dt Fit) as CV. cbv zeta in CV.
  destruct CV as (Near & Spd & Sigma).
  exists (matrix6 (effective 6 (displacements6 o cov))). split; [exact Spd|]. split.
  { intros i j Hi Hj. unfold cell_of6. unfold matrix6.
    rewrite matrix.mxE, !fintype.inordK by (apply (ssrbool.introT (@ssrnat.leP _ _)); lia). now apply Near. }
  assert (Dev := deviations_pos6 cov).
  apply C120_accuracy with (c := center6 (exact s) (B2R dt) h); [exact ACC|exact Fit|eapply steady_frame6; eauto using Dev|].
  rewrite Sigma, <- displaced_ctra. now apply about_calm6 with (w0 := w0).
Qed.
End Accuracy.
Print Assumptions C120_covariance.
Print Assumptions C120_accuracy.
Print Assumptions C120_steady.

(** The factorization succeeds (C113) for a covariance with no eigenvalue of its
    correlation matrix below 2^-16. *)
Lemma fits_definite6 sine cosine phase o (s : ctra_state (doubles sine cosine phase)) cov dt : orders 6 (order_L o) ->
  (forall j, (j < 6)%nat -> order_of 13 (order_x o j)) ->
  (forall j k, (j < 6)%nat -> (k < 6)%nat -> order_of 13 (order_P o j k)) ->
  ordinary_ctra sine cosine phase s -> is_finite dt = true /\ Rabs (B2R dt) <= bpow radix2 30 ->
  (forall i, (i < 6)%nat -> bpow radix2 (-80) <= B2R (cov i i) <= bpow radix2 80) ->
  finite_lower 6 cov -> definite_by (/ 2 ^ 16) 6 (matrix_of cov) -> fits6 sine cosine phase o s cov dt.
Proof.
  intros OL Ox OP Os T V F D. constructor; try assumption. apply C113_success; try assumption. lia.
Qed.

(** A case: the lorry of C101, 100 m to the right, with 20 m/s and 1 m/s^2, that turns with
    2 rad/s or moves straight on, and the covariance of C113, predicted by 1/8 s.  The predicted
    position is within 0.12 mm of the prediction in exact arithmetic, its variance within 0.025 m^2. *)
Definition left_to_right6 : summation := Summation (fun _ j => chain j) (fun _ => chain 12) (fun _ _ => chain 12).
Definition truck (rate : Z) : ctra_state (doubles sin64 cos64 arg64) := lorry (f64_of_Z rate).
Lemma truck_ordinary rate : rate = 0%Z \/ rate = 2%Z -> ordinary_ctra _ _ _ (truck rate).
Proof.
  intros Hr. destruct (int64_value 1 ltac:(lia)) as [E1 F1].
  destruct (lorry_ordinary (f64_of_Z 1) F1) as [Fx Bx Fy By Fv Bv _ _ Fa Ba P]; [rewrite E1, Rabs_R1; lra|].
  destruct (int64_value rate ltac:(lia)) as [E F].
  constructor; try assumption. cbn [truck lorry a_rate]. rewrite E. apply Rle_trans with (bpow radix2 1); [|apply bpow_le; lia].
  change (bpow radix2 1) with 2. destruct Hr as [-> | ->]; rewrite Rabs_pos_eq; lra.
Qed.
Lemma cov_definite6 : definite_by (/ 2 ^ 16) 6 (matrix_of C113_cov).
Proof.
  intros x. cbn [seq total]. unfold matrix_of. cbn [Nat.leb C113_cov Nat.eqb]. rewrite v0, Properties_FloatLlt.w0, w1, w2, w3.
  assert (Q : forall a, 0 <= a * a) by (intros; apply Rle_0_sqr).
  pose proof (Q (x 0%nat)). pose proof (Q (x 1%nat)). pose proof (Q (x 2%nat)). pose proof (Q (x 3%nat)). pose proof (Q (x 4%nat)).
  pose proof (Q (x 5%nat)). pose proof (Q (x 0%nat + x 1%nat)). pose proof (Q (x 0%nat + / 5 * x 1%nat)). cbn [pow]. nra.
Qed.
Lemma case_fits6 rate : rate = 0%Z \/ rate = 2%Z -> fits6 sin64 cos64 arg64 left_to_right6 (truck rate) C113_cov eighth.
Proof.
  intros Hr. destruct eighth_value as [E8 F8].
  apply fits_definite6; try exact cov_definite6.
  - intros i j _. apply chain_order.
  - intros j _. apply (chain_order 12).
  - intros j k _ _. apply (chain_order 12).
  - now apply truck_ordinary.
  - split; [exact F8|]. rewrite E8. change (bpow radix2 30) with 1073741824. rewrite Rabs_pos_eq; lra.
  - intros i Hi. assert (A : bpow radix2 (-80) <= bpow radix2 (-3)) by (apply bpow_le; lia).
    assert (B : bpow radix2 2 <= bpow radix2 80) by (apply bpow_le; lia).
    change (bpow radix2 (-3)) with (/ 8) in A. change (bpow radix2 2) with 4 in B.
    destruct i as [|[|[|[|[|[|]]]]]]; [| | | | | |lia]; cbn [C113_cov Nat.eqb]; rewrite ?Properties_FloatLlt.w0, ?w2, ?w3; lra.
  - intros i j Hi. destruct i as [|[|[|[|[|[|]]]]]]; [| | | | | |lia]; destruct j as [|[|[|[|[|[|]]]]]]; try lia; vm_compute; reflexivity.
Qed.
Section Case.
Variable rate : Z.
Hypothesis Hr : rate = 0%Z \/ rate = 2%Z.
Notation e := (exact_ctra sin64 cos64 arg64 (truck rate)).
Notation dev := (deviations6 C113_cov).
Lemma truck_entries : a_x e = 100 /\ a_y e = 0 /\ a_vel e = 20 /\ a_rate e = IZR rate /\ a_acc e = 1.
Proof. repeat split; apply int64_value; lia. Qed.
Lemma truck_rate : Rabs (IZR rate) = IZR rate /\ (IZR rate = 0 \/ IZR rate = 2).
Proof. destruct Hr as [-> | ->]; rewrite Rabs_pos_eq; lra. Qed.
Lemma truck_dev : dev 0%nat = 5.8 /\ dev 1%nat = 1.45 /\ forall i, (2 <= i <= 5)%nat -> 1.01 <= dev i <= 1.03.
Proof.
  unfold deviations6. split; [|split].
  - cbn [C113_cov]. rewrite Properties_FloatLlt.w0. replace 4 with (2 * 2) by ring. rewrite sqrt_square; lra.
  - cbn [C113_cov]. rewrite w2. replace (1 / 4) with (/2 * /2) by field. rewrite sqrt_square; lra.
  - assert (Q1 : sqrt (1 / 8) <= 0.355) by (rewrite <- (sqrt_square 0.355) by lra; apply sqrt_le_1_alt; lra).
    assert (Q2 : 0.35 <= sqrt (1 / 8)) by (rewrite <- (sqrt_square 0.35) by lra; apply sqrt_le_1_alt; lra).
    intros i Hi. destruct i as [|[|[|[|[|[|]]]]]]; try lia; cbn [C113_cov Nat.eqb]; rewrite w3; lra.
Qed.
Lemma truck_speed : 21 <= speed6 e (/ 8) dev <= 21.3.
Proof.
  destruct truck_entries as (_ & _ & V & _ & A). destruct truck_dev as (_ & _ & D).
  pose proof (D 2%nat ltac:(lia)). pose proof (D 5%nat ltac:(lia)). unfold speed6. rewrite V, A. rewrite !Rabs_pos_eq by lra. lra.
Qed.
Lemma case_steady6 : (exists h, steady6 e (/ 8) h dev 0.9) /\ rates6 e C113_cov 0.9.
Proof.
  destruct truck_entries as (X & Y & V & W & A). destruct truck_rate as [AR VR]. destruct truck_dev as (D0 & D1 & D).
  pose proof (D 2%nat ltac:(lia)) as D2. pose proof (D 3%nat ltac:(lia)) as D3. pose proof (D 4%nat ltac:(lia)) as D4.
  pose proof (D 5%nat ltac:(lia)) as D5. pose proof truck_speed as Sp.
  destruct (small_rate_value (-1) ltac:(lia)) as [E1 F1].
  destruct (angle_roundtrip _ _ _ C99_satisfiable _ F1) as (_ & _ & [k T]). rewrite E1 in T. change (bpow radix2 (-1)) with (/ 2) in T.
  set (a := B2R (get_angle (angle_of (A := doubles sin64 cos64 arg64) (small_rate (-1))) : f64)) in T.
  assert (S : same_turn (get_angle (a_yaw e)) a) by apply get_angle_spec. destruct S as [j S].
  assert (A8 : Rabs (/ 8) = / 8) by (apply Rabs_pos_eq; lra).
  assert (Lr : 2.6 <= reach6 e (/ 8) dev <= 2.67) by (unfold reach6; rewrite A8; lra).
  assert (Rad : radius6 e (/ 8) dev 0.9 <= 27).
  { unfold radius6. rewrite A, (Rabs_pos_eq 1) by lra. lra. }
  split.
  - exists (a - IZR k * (2 * PI) + IZR rate * / 8). constructor.
    + apply Rle_trans with (bpow radix2 (-1)); [apply bpow_le; lia|]. change (bpow radix2 (-1)) with (/ 2). lra.
    + rewrite W, AR, A8. lra.
    + exists (- k - j)%Z. rewrite S, W, minus_IZR, opp_IZR. ring.
    + change (bpow radix2 (-18)) with (/ 262144). rewrite A8. rewrite u52_value in T.
      assert (T' : Rabs (a - IZR k * (2 * PI) - / 2) <= 8.1 * / 4503599627370496).
      { replace (a - IZR k * (2 * PI) - / 2) with (a - (/ 2 + IZR k * (2 * PI))) by ring. exact T. }
      apply Rabs_le_inv in T'. rewrite Rabs_pos_eq; destruct VR; lra.
    + change (bpow radix2 17) with 131072. unfold extent6. cbn [center6 spread6]. rewrite X, D0. rewrite Rabs_pos_eq by lra. lra.
    + change (bpow radix2 17) with 131072. unfold extent6. cbn [center6 spread6]. rewrite Y, D1. rewrite Rabs_R0. lra.
    + change (bpow radix2 18) with 262144. unfold extent6. cbn [center6 spread6]. rewrite V, A, A8. rewrite (Rabs_pos_eq (20 + 1 * / 8)) by lra. lra.
    + intros i Hi. change (bpow radix2 39) with 549755813888. change (bpow radix2 (-39)) with (/ 549755813888).
      destruct i as [|[|[|[|[|[|]]]]]]; [| | | | | |lia]; unfold extent6; cbn [center6 spread6];
        rewrite ?X, ?Y, ?V, ?W, ?A, ?D0, ?D1, ?A8, ?Rabs_R0, ?AR;
        rewrite ?(Rabs_pos_eq 100), ?(Rabs_pos_eq (20 + 1 * / 8)), ?(Rabs_pos_eq 1) by lra; lra.
  - unfold rates6. rewrite W, AR.
    assert (S8 : 0.34 <= sqrt (B2R (C113_cov 4%nat 4%nat)) <= 0.36) by (unfold deviations6 in D4; lra).
    destruct VR as [Z | One]; [right|left; lra].
    split; [|split; [|lra]].
    + intros [|[|[|[|j']]]] Hj; try lia; cbn [C113_cov Nat.eqb]; apply v0.
    + left. rewrite W, AR, Z. apply bpow_gt_0.
Qed.
Example C120_case : exists Q : matrix.matrix R 6 6, @spd R_realFieldType 6 Q /\ Rabs (cell_of6 Q 0 0 - 4) <= 92 / 2 ^ 24 /\
  let (s', P) := default_unscented_transform32 (ctra64 sin64 cos64 arg64) left_to_right6 (truck rate) C113_cov eighth in
  let (e', Q') := default_unscented_transform (ST := ctra_type) e Q (/ 8) in
  Rabs (B2R (a_x s' : f64) - a_x e') <= 0.00012 /\ Rabs (B2R (P 0%nat 0%nat) - cell_of6 Q' 0 0) <= 0.025.
Proof.
  destruct case_steady6 as [[h TU] Ra]. destruct eighth_value as [E8 _]. rewrite <- E8 in TU.
  destruct (C120_steady sin64 cos64 arg64 left_to_right6 (truck rate) C113_cov eighth h 0.9 C99_satisfiable (case_fits6 rate Hr) TU Ra) as (Q & S & N & A).
  rewrite E8 in A. exists Q. split; [exact S|]. split.
  { specialize (N 0%nat 0%nat ltac:(lia) ltac:(lia)). change (matrix_of C113_cov 0 0) with (B2R (f32_of_Z 4)) in N.
    cbn [C113_cov] in N. rewrite Properties_FloatLlt.w0 in N. rewrite sqrt_square in N by lra. lra. }
  destruct (default_unscented_transform32 _ _ _ _ _) as [s' P]. destruct (default_unscented_transform _ _ _) as [e' Q'].
  destruct A as (A1 & _ & _ & _ & _ & _ & A2). destruct (A2 0%nat 0%nat ltac:(lia) ltac:(lia)) as [_ A3]. clear A2.
  destruct truck_entries as (X & _). destruct truck_dev as (D0 & _). pose proof truck_speed as Sp.
  assert (B0 : 0 <= spread6 e (/ 8) dev 0 <= 8.47).
  { cbn [spread6]. unfold reach6. rewrite D0, (Rabs_pos_eq (/ 8)) by lra. lra. }
  set (r := spread6 _ _ _) in *. set (M := extent6 _ _ _ _) in *.
  assert (B1 : M 0%nat = 100 + r 0%nat) by (unfold M, extent6; cbn [center6]; rewrite X, Rabs_pos_eq; [reflexivity|lra]).
  split; [lra|]. eapply Rle_trans; [exact A3|]. rewrite B1.
  apply Rle_trans with (220 / 2 ^ 24 * (108.47 * 8.47 + 108.47 * 8.47) + 2000 / 2 ^ 48 * (108.47 * 108.47)); [|cbn; lra].
  assert (C1 : (100 + r 0%nat) * r 0%nat <= 108.47 * 8.47) by (apply Rmult_le_compat; lra).
  assert (C2 : (100 + r 0%nat) * (100 + r 0%nat) <= 108.47 * 108.47) by (apply Rmult_le_compat; lra).
  lra.
Qed.
End Case.
