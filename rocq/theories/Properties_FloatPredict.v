(** Prediction of a state with its covariance in the number types of the code: property
    C114.  The model is FloatPredict.v: the state and its motion in doubles, the factor
    of the covariance, the displacements, the matrix of points, the weights and the
    transform in floats; [o] are the orders of the additions, about which nothing is
    assumed.  It is compared with the model of Unscented.v in exact arithmetic. *)
From Coq Require Import ZArith Reals Lra Lia List Arith.
From mathcomp Require ssreflect ssrbool ssrnat fintype seq matrix.
From Flocq Require Import Core IEEE754.BinarySingleNaN.
From Verif Require Import Float FloatProofs Motion RealArith DoubleArith DoubleThms SumSquares64 PiDouble TrigSpec AngleAccuracy
  MotionAccuracy FloatDistance FloatDistanceThms FloatWeight FloatUnscented FloatUnscentedThms FloatCovariance FloatLlt FloatLltThms
  FloatHeading FloatPredict SigmaAccuracy Properties_FloatUnscented Properties_FloatCovariance Properties_FloatLlt FloatPredictThms
  Displacement PredictSpec RealField PosDef StateVec Unscented PredictBridge PredictAccuracy PredictInput Properties_Accuracy.
Import ListNotations.
Open Scope R_scope.

(** Entry (j, k) of a matrix *)
Definition cell_of (P : matrix.matrix R 5 5) (j k : nat) : R :=
  matrix.fun_of_matrix P (fintype.inord j) (fintype.inord k).
Definition matrix5 (f : nat -> nat -> R) : matrix.matrix R 5 5 :=
  matrix.matrix_of_fun matrix.matrix_key (fun i j => f (fintype.nat_of_ord i) (fintype.nat_of_ord j)).

Section Accuracy.
Variables (sine cosine : f64 -> f64) (phase : f64 -> f64 -> f64).
Notation ST := (ctrv64 sine cosine phase).
Notation exact := (exact_ctrv sine cosine phase).

(** The displacements the code computes, with lambda = 2 *)
Definition displacements (o : summation) (cov : nat -> nat -> f32) : nat -> nat -> f32 :=
  displacement32 ST (llt_matrixL32 5 (order_L o) cov) (f32_of_Z 2).
(** A predicted state and its covariance in floats, and in exact arithmetic: the errors for
    entries within r(j) of c(j) and M(j) of zero *)
Definition predicted_near (M r : nat -> R) (float : ctrv_state (doubles sine cosine phase) * (nat -> nat -> f32))
    (real : ctrv_state reals * matrix.matrix R 5 5) : Prop :=
  let (s, P) := float in let (e, Q) := real in
  Rabs (B2R (v_x s : f64) - v_x e) <= 18 / 2 ^ 24 * M 0%nat /\
  Rabs (B2R (v_y s : f64) - v_y e) <= 18 / 2 ^ 24 * M 1%nat /\
  Rabs (B2R (v_vel s : f64) - v_vel e) <= 18 / 2 ^ 24 * M 2%nat /\
  turn_close (19 / 2 ^ 24 * M 3%nat) (B2R (get_angle (v_yaw s) : f64)) (get_angle (v_yaw e)) /\
  Rabs (B2R (v_rate s : f64) - v_rate e) <= 18 / 2 ^ 24 * M 4%nat /\
  forall j k, (j < 5)%nat -> (k < 5)%nat -> is_finite (P j k) = true /\
    Rabs (B2R (P j k) - cell_of Q j k) <= 220 / 2 ^ 24 * (M j * r k + M k * r j) + 2000 / 2 ^ 48 * (M j * M k).

Record fits (o : summation) (s : ctrv_state (doubles sine cosine phase)) (cov : nat -> nat -> f32) (dt : f64) : Prop := {
  fit_L : orders 5 (order_L o);
  fit_x : forall j, (j < 5)%nat -> order_of 11 (order_x o j);
  fit_P : forall j k, (j < 5)%nat -> (k < 5)%nat -> order_of 11 (order_P o j k);
  fit_state : ordinary_ctrv sine cosine phase s;
  fit_time : is_finite dt = true /\ Rabs (B2R dt) <= bpow radix2 30;
  fit_var : forall i, (i < 5)%nat -> bpow radix2 (-80) <= B2R (cov i i) <= bpow radix2 80;
  fit_llt : snd (llt32 5 (order_L o) cov) = true /\ finite_lower 5 (llt_matrixL32 5 (order_L o) cov)
}.

(** C114: the sigma points of the code are those of a covariance Q that differs from the
    given one by 23 roundings of the products of standard deviations ... *)
Theorem C114_covariance o s cov dt : fits o s cov dt ->
  let Q := effective 5 (displacements o cov) in
  (forall i j, (i < 5)%nat -> (j < 5)%nat ->
     Rabs (Q i j - matrix_of cov i j) <= 23 / 2 ^ 24 * sqrt (B2R (cov i i) * B2R (cov j j))) /\
  @spd R_realFieldType 5 (matrix5 Q) /\
  forall e : ctrv_state reals, generate_sigma_points (ST := ctrv_type) e (matrix5 Q) 2 =
    flat_map (fun c => [ctrv_add e (exact_from (displacements o cov c)); ctrv_sub e (exact_from (displacements o cov c))]) (seq 0 5).
Proof.
  intros [OL Ox OP Os [Fd Bd] V [Ok Fin]] Q.
  assert (Up : forall i c, is_true (ssrnat.leq (S i) c) -> B2R (displacements o cov c i) = 0).
  { intros i c H. apply (disp_upper 5 (order_L o) cov (or_introl eq_refl) OL V Ok Fin). now apply (ssrbool.elimT (@ssrnat.leP _ _)). }
  assert (Dia : forall i, is_true (ssrnat.leq (S i) 5) -> 0 < B2R (displacements o cov i i)).
  { intros i H. apply (disp_diagonal 5 (order_L o) cov (or_introl eq_refl) OL V Ok Fin).
    now apply (ssrbool.elimT (@ssrnat.leP _ _)). }
  split; [|split].
  - intros i j Hi Hj. exact (effective_near 5 (order_L o) cov (or_introl eq_refl) OL V Ok Fin i j Hi Hj).
  - exact (effective_spd Up Dia).
  - intros e. rewrite <- displaced_ctrv. exact (@sigma_displaced 4 ctrv_type e (displacements o cov) Up Dia).
Qed.

(** ... and the state and covariance the library predicts are those predicted exactly from
    Q, up to errors of the order of 2^-24, if the sigma points are calm. *)
Theorem C114_accuracy o s cov dt (M c r : nat -> R) : accurate sine cosine phase -> fits o s cov dt -> frame M c r ->
  let Q := matrix5 (effective 5 (displacements o cov)) in
  Forall (calm M c r (B2R dt)) (exact s :: generate_sigma_points (ST := ctrv_type) (exact s) Q 2) ->
  predicted_near M r (default_unscented_transform32 ST o s cov dt) (default_unscented_transform (ST := ctrv_type) (exact s) Q (B2R dt)).
Proof.
  intros ACC Fit FR Q Calm. pose proof Fit as [OL Ox OP Os [Fd Bd] V [Ok Fin]].
  assert (Up : forall i c, is_true (ssrnat.leq (S i) c) -> B2R (displacements o cov c i) = 0).
  { intros i k H. apply (disp_upper 5 (order_L o) cov (or_introl eq_refl) OL V Ok Fin). now apply (ssrbool.elimT (@ssrnat.leP _ _)). }
  assert (Dia : forall i, is_true (ssrnat.leq (S i) 5) -> 0 < B2R (displacements o cov i i)).
  { intros i H. apply (disp_diagonal 5 (order_L o) cov (or_introl eq_refl) OL V Ok Fin).
    now apply (ssrbool.elimT (@ssrnat.leP _ _)). }
  assert (ES : generate_sigma_points (ST := ctrv_type) (exact s) Q 2 = @displaced 4 ctrv_type (exact s) (displacements o cov))
    by exact (@sigma_displaced 4 ctrv_type (exact s) (displacements o cov) Up Dia).
  rewrite ES in Calm.
  assert (EP : default_unscented_transform (ST := ctrv_type) (exact s) Q (B2R dt) = _)
    by exact (@predict_exact 4 ctrv_type (exact s) (displacements o cov) (B2R dt) Up Dia).
  rewrite EP. clear EP ES.
  pose proof (fun j k => transform_accurate sine cosine phase ACC M c r FR o s cov dt OL Ox OP V Ok Fin Os Fd Bd Calm j k) as T.
  unfold default_unscented_transform32, unscented_transform32, unscented_kalman_filter_predict32.
  change (Z.of_nat (s_dim ST)) with 5%Z. rewrite default_lambda in T |- * by now left.
  destruct (generate_weights32 5 (f32_of_Z 1) (f32_of_Z 1) (f32_of_Z 2)) as [Wm Wc].
  cbn [st_from st_car ctrv_type]. rewrite from_ctrv. change (Z.of_nat 5) with 5%Z.
  fold (displacements o cov) in T.
  set (rows := PredictBridge.rows _ _ _) in *.
  destruct (compute_unscented_transform32 _ _ _ _ _) as [x P] eqn:EX.
  assert (U : u32 = / 2 ^ 24) by (unfold u32; cbn; lra).
  assert (T' : forall j k, (j < 5)%nat -> (k < 5)%nat ->
    (is_finite (x j) = true /\ Rabs (B2R (x j) - exact_mean 5 rows j) <= 18 * u32 * M j) /\
    (is_finite (P j k) = true /\
     Rabs (B2R (P j k) - exact_covariance 5 rows j k) <= 220 * u32 * (M j * r k + M k * r j) + 2000 * u32 * u32 * (M j * M k))).
  { intros j k Hj Hk. exact (T j k Hj Hk). }
  clear T. unfold predicted_near. cbn [s_from ctrv64 ctrv_from32 v_x v_y v_vel v_yaw v_rate].
  assert (X : forall j, (j < 5)%nat -> is_finite (f64_of_f32 (x j)) = true /\
    Rabs (B2R (f64_of_f32 (x j)) - exact_mean 5 rows j) <= 18 / 2 ^ 24 * M j).
  { intros j Hj. destruct (T' j 0%nat Hj ltac:(lia)) as [[F E] _]. destruct (conv64 (x j) F) as [E' F'].
    split; [exact F'|]. rewrite E'. unfold Rdiv. rewrite <- U. exact E. }
  split; [apply X; lia|]. split; [apply X; lia|]. split; [apply X; lia|]. split; [|split; [apply X; lia|]].
  - destruct (X 3%nat ltac:(lia)) as [F E]. destruct (angle_roundtrip _ _ _ ACC _ F) as (_ & _ & R1).
    pose proof (f_yaw _ _ _ FR) as M3. rewrite u52_value in R1.
    apply turn_close_le with (8.1 * / 4503599627370496 + 18 / 2 ^ 24 * M 3%nat).
    { replace (19 / 2 ^ 24 * M 3%nat) with (/ 2 ^ 24 * M 3%nat + 18 / 2 ^ 24 * M 3%nat) by field.
      apply Rplus_le_compat_r. rewrite <- U. unfold u32. lra. }
    eapply turn_close_trans2; [exact R1|]. eapply turn_close_same; [|apply get_angle_spec].
    exists 0%Z. replace (exact_mean 5 rows 3 + 0 * (2 * PI)) with (exact_mean 5 rows 3) by ring. exact E.
  - intros j k Hj Hk. destruct (T' j k Hj Hk) as [_ [F E]]. split; [exact F|].
    replace (220 / 2 ^ 24) with (220 * u32) by (rewrite U; reflexivity).
    replace (2000 / 2 ^ 48) with (2000 * u32 * u32) by (unfold u32; cbn; lra).
    unfold cell_of. rewrite matrix.mxE, !fintype.inordK by (apply (ssrbool.introT (@ssrnat.leP _ _)); lia). exact E.
Qed.

(** This is so in terms of the given state and covariance only, with deviations of 2.7
    standard deviations (more than the square root of 7): for a vehicle that surely turns
    by at least [w0], and for one, moving straight on for instance, whose yaw rate is known
    independently of everything else, by 2.6 standard deviations no closer than [w0]. *)
Definition deviations (cov : nat -> nat -> f32) (j : nat) : R := 2.7 * sqrt (B2R (cov j j)).
Lemma deviations_pos cov j : 0 <= deviations cov j.
Proof. apply Rmult_le_pos; [lra|apply sqrt_pos]. Qed.
(** The sigma points deviate by no more than that. *)
Definition about (dev : nat -> R) (e0 e : ctrv_state reals) : Prop :=
  Rabs (v_x e - v_x e0) <= dev 0%nat /\ Rabs (v_y e - v_y e0) <= dev 1%nat /\
  Rabs (v_vel e - v_vel e0) <= dev 2%nat /\ Rabs (v_rate e - v_rate e0) <= dev 4%nat /\
  turn_close (dev 3%nat) (get_angle (v_yaw e)) (get_angle (v_yaw e0)).
Lemma displaced_about o s cov dt : fits o s cov dt ->
  Forall (about (deviations cov) (exact s)) (exact s :: @displaced 4 ctrv_type (exact s) (displacements o cov)).
Proof.
  intros Fit. pose proof Fit as [OL Ox OP Os [Fd Bd] V [Ok Fin]]. set (d := displacements o cov). set (dev := deviations cov).
  assert (Dev := deviations_pos cov). fold dev in Dev.
  assert (B : forall k i, (k < 5)%nat -> (i < 5)%nat -> Rabs (B2R (d k i)) <= dev i).
  { intros k i Hk Hi. eapply Rle_trans; [exact (disp_size 5 (order_L o) cov (or_introl eq_refl) OL V Ok Fin i k Hi Hk)|].
    unfold dev, deviations. apply Rmult_le_compat_r; [apply sqrt_pos|].
    assert (R7 : sqrt (INR 5 + 2) <= 2.65).
    { rewrite <- (sqrt_square 2.65) by lra. apply sqrt_le_1_alt. cbn [INR]. lra. }
    lra. }
  assert (Sub0 : forall x y : R, Rabs (x + y - x) = Rabs y) by (intros; f_equal; ring).
  assert (Sub1 : forall x y : R, Rabs (x - y - x) = Rabs y) by (intros; rewrite <- Rabs_Ropp; f_equal; ring).
  assert (Yaw0 : forall z : rangle, turn_close (dev 3%nat) (get_angle z) (get_angle z)).
  { intros z. exists 0%Z. replace (get_angle z - (get_angle z + 0 * (2 * PI))) with 0 by ring. rewrite Rabs_R0. apply Dev. }
  assert (Yaw1 : forall (z : rangle) b, Rabs b <= dev 3%nat ->
    turn_close (dev 3%nat) (get_angle (angle_add z (angleR b))) (get_angle z) /\
    turn_close (dev 3%nat) (get_angle (angle_sub z (angleR b))) (get_angle z)).
  { intros z b Hb. destruct (get_angle_spec b) as [_ [kb Eb]]. split.
    - destruct (angle_add_spec z (angleR b)) as [j Ej]. rewrite Ej, Eb. exists (kb + j)%Z. rewrite plus_IZR.
      match goal with |- Rabs ?a <= _ => replace a with b by ring end. exact Hb.
    - assert (S : same_turn (get_angle (angle_sub z (angleR b))) (get_angle z - get_angle (angleR b))) by apply get_angle_spec.
      destruct S as [j Ej]. rewrite Ej, Eb. exists (j - kb)%Z. rewrite minus_IZR.
      match goal with |- Rabs ?a <= _ => replace a with (- b) by ring end. rewrite Rabs_Ropp. exact Hb. }
  rewrite displaced_ctrv. constructor.
  - unfold about, Rminus. rewrite !Rplus_opp_r, Rabs_R0. repeat (split; [apply Dev|]). apply Yaw0.
  - rewrite Forall_forall. intros e He. apply in_flat_map in He. destruct He as (k & Hk & He). apply in_seq in Hk.
    assert (Hk5 : (k < 5)%nat) by lia. clear Hk.
    destruct (Yaw1 (v_yaw (exact s)) (B2R (d k 3%nat)) (B k 3%nat Hk5 ltac:(lia))) as [Y1 Y2].
    destruct He as [<-|[<-|[]]]; unfold about;
      cbn [ctrv_add ctrv_sub exact_from v_x v_y v_vel v_rate nadd nsub reals]; rewrite ?Sub0, ?Sub1;
      repeat (split; [apply B; lia|]); assumption.
Qed.
Definition rates (e : ctrv_state reals) (cov : nat -> nat -> f32) (w0 : R) : Prop :=
  let w := Rabs (v_rate e) in let sigma := sqrt (B2R (cov 4%nat 4%nat)) in
  w0 <= w - 2.7 * sigma \/
  ((forall j, (j < 4)%nat -> B2R (cov 4%nat j) = 0) /\ straight_or_turning w0 e /\ w + w0 <= 2.6 * sigma).
Lemma displaced_rates o s cov dt w0 : fits o s cov dt -> rates (exact s) cov w0 ->
  Forall (straight_or_turning w0) (exact s :: @displaced 4 ctrv_type (exact s) (displacements o cov)).
Proof.
  intros Fit [W|(Z & S0 & W)].
  - eapply Forall_impl; [|exact (displaced_about o s cov dt Fit)]. intros e (_ & _ & _ & D & _). right.
    change (deviations cov 4) with (2.7 * sqrt (B2R (cov 4%nat 4%nat))) in D.
    set (x := v_rate e : R) in *. set (y := v_rate (exact s) : R) in *.
    unfold Rabs in *. destruct (Rcase_abs (x - y)), (Rcase_abs x), (Rcase_abs y); lra.
  - pose proof Fit as [OL Ox OP Os [Fd Bd] V [Ok Fin]].
    pose proof (disp_alone 5 (order_L o) cov (or_introl eq_refl) OL V Ok Fin 4 ltac:(lia) Z) as Al.
    pose proof (disp_once 5 (order_L o) cov (or_introl eq_refl) OL V Ok Fin 4 ltac:(lia) Z) as On.
    change (float_displacement 5 (llt_matrixL32 5 (order_L o) cov)) with (displacements o cov) in Al, On.
    pose proof (V 4%nat ltac:(lia)) as [V4 _]. pose proof (bpow_gt_0 radix2 (-80)) as P80.
    set (d := displacements o cov) in *. set (P := B2R (cov 4%nat 4%nat)) in *. set (x := B2R (d 4%nat 4%nat)) in *.
    assert (X : 2.6 * sqrt P <= Rabs x).
    { rewrite <- (sqrt_square 2.6), <- sqrt_mult_alt, <- sqrt_Rsqr_abs by lra. apply sqrt_le_1_alt. unfold Rsqr.
      replace (INR 5 + 2) with 7 in On by (cbn; lra). apply Rabs_le_inv in On. lra. }
    rewrite displaced_ctrv. constructor; [exact S0|]. rewrite Forall_forall. intros e He. apply in_flat_map in He.
    destruct He as (k & Hk & He). apply in_seq in Hk. destruct (Nat.eq_dec k 4) as [->|Nk].
    + assert (Far : forall y, Rabs (y - v_rate (exact s)) = Rabs x -> w0 <= Rabs y).
      { intros y Hy. set (z := v_rate (exact s) : R) in *. unfold Rabs in *.
        destruct (Rcase_abs (y - z)), (Rcase_abs y), (Rcase_abs z), (Rcase_abs x); lra. }
      destruct He as [<-|[<-|[]]]; right; apply Far; cbn [ctrv_add ctrv_sub exact_from v_rate nadd nsub reals]; fold x.
      * f_equal; ring.
      * rewrite <- Rabs_Ropp; f_equal; ring.
    + specialize (Al k ltac:(lia)).
      destruct He as [<-|[<-|[]]]; unfold straight_or_turning in *; cbn [ctrv_add ctrv_sub exact_from v_rate nadd nsub reals] in *;
        rewrite Al, ?Rplus_0_r, ?Rminus_0_r; exact S0.
Qed.
Lemma about_calm o s cov dt h w0 : fits o s cov dt -> steady (exact s) (B2R dt) h (deviations cov) w0 -> rates (exact s) cov w0 ->
  Forall (calm (extent (exact s) (B2R dt) h (deviations cov)) (center (exact s) h) (spread (exact s) (B2R dt) (deviations cov)) (B2R dt))
    (exact s :: @displaced 4 ctrv_type (exact s) (displacements o cov)).
Proof.
  intros Fit TU Ra. pose proof (displaced_about o s cov dt Fit) as Ab. pose proof (displaced_rates o s cov dt w0 Fit Ra) as Sp.
  rewrite Forall_forall in Ab, Sp |- *. intros e He. destruct (Ab e He) as (A & B & C & D & E).
  assert (Dev := deviations_pos cov). eapply steady_calm; eauto using Dev.
Qed.
Theorem C114_steady o s cov dt (h w0 : R) : accurate sine cosine phase -> fits o s cov dt ->
  let dev := deviations cov in let t := B2R dt in
  steady (exact s) t h dev w0 -> rates (exact s) cov w0 ->
  exists Q : matrix.matrix R 5 5, @spd R_realFieldType 5 Q /\
    (forall i j, (i < 5)%nat -> (j < 5)%nat ->
       Rabs (cell_of Q i j - matrix_of cov i j) <= 23 / 2 ^ 24 * sqrt (B2R (cov i i) * B2R (cov j j))) /\
    predicted_near (extent (exact s) t h dev) (spread (exact s) t dev)
      (default_unscented_transform32 ST o s cov dt) (default_unscented_transform (ST := ctrv_type) (exact s) Q t).
Proof.
  intros ACC Fit dev t TU Ra. pose proof (C114_covariance o s cov dt Fit) as CV. cbv zeta in CV.
  destruct CV as (Near & Spd & Sigma).
  exists (matrix5 (effective 5 (displacements o cov))). split; [exact Spd|]. split.
  { intros i j Hi Hj. unfold cell_of. unfold matrix5.
    rewrite matrix.mxE, !fintype.inordK by (apply (ssrbool.introT (@ssrnat.leP _ _)); lia). now apply Near. }
  assert (Dev := deviations_pos cov).
  apply C114_accuracy with (c := center (exact s) h); [exact ACC|exact Fit|eapply steady_frame; eauto using Dev|].
  rewrite Sigma, <- displaced_ctrv. now apply about_calm with (w0 := w0).
Qed.
End Accuracy.
Print Assumptions C114_covariance.
Print Assumptions C114_accuracy.
Print Assumptions C114_steady.

(** The factorization succeeds (C113) for a covariance with no eigenvalue of its
    correlation matrix below 2^-16. *)
Lemma fits_definite sine cosine phase o (s : ctrv_state (doubles sine cosine phase)) cov dt : orders 5 (order_L o) ->
  (forall j, (j < 5)%nat -> order_of 11 (order_x o j)) ->
  (forall j k, (j < 5)%nat -> (k < 5)%nat -> order_of 11 (order_P o j k)) ->
  ordinary_ctrv sine cosine phase s -> is_finite dt = true /\ Rabs (B2R dt) <= bpow radix2 30 ->
  (forall i, (i < 5)%nat -> bpow radix2 (-80) <= B2R (cov i i) <= bpow radix2 80) ->
  finite_lower 5 cov -> definite_by (/ 2 ^ 16) 5 (matrix_of cov) -> fits sine cosine phase o s cov dt.
Proof.
  intros OL Ox OP Os T V F D. constructor; try assumption. apply C113_success; try assumption. lia.
Qed.

(** A case: the car of C100, 100 m to the right, with 20 m/s and 1 rad/s or moving straight
    on, the covariance of C113, predicted by 1/8 s.  The predicted position is within 0.12 mm of the
    prediction in exact arithmetic, its variance within 0.023 m^2. *)
Definition left_to_right : summation := Summation (fun _ j => chain j) (fun _ => chain 10) (fun _ _ => chain 10).
Definition eighth : f64 := Bdiv mode_NE (f64_of_Z 1) (f64_of_Z 8).
Lemma eighth_value : B2R eighth = / 8 /\ is_finite eighth = true.
Proof.
  split; [|vm_compute; reflexivity]. rewrite <- SF2R_B2SF.
  match goal with |- SF2R _ ?a = _ => let v := eval vm_compute in a in change a with v end.
  unfold SF2R, F2R; cbn; lra.
Qed.
Definition vehicle (rate : Z) : ctrv_state (doubles sin64 cos64 arg64) :=
  CtrvState (A := doubles sin64 cos64 arg64) (v_x car) (v_y car) (v_vel car) (v_yaw car) (f64_of_Z rate).
Lemma case_fits rate : rate = 0%Z \/ rate = 1%Z -> fits sin64 cos64 arg64 left_to_right (vehicle rate) C113_cov eighth.
Proof.
  intros Hr.
  destruct C113_case as (O & F & V & D & _). destruct eighth_value as [E8 F8].
  apply fits_definite; try assumption.
  - intros j _. apply (chain_order 10).
  - intros j k _ _. apply (chain_order 10).
  - destruct car_ordinary. constructor; try assumption. cbn [vehicle v_rate]. destruct Hr as [-> | ->]; reflexivity.
  - split; [exact F8|]. rewrite E8. change (bpow radix2 30) with 1073741824. rewrite Rabs_pos_eq; lra.
Qed.
Lemma case_steady rate : rate = 0%Z \/ rate = 1%Z ->
  (exists h, steady (exact_ctrv sin64 cos64 arg64 (vehicle rate)) (B2R eighth) h (deviations C113_cov) 0.04) /\
  rates (exact_ctrv sin64 cos64 arg64 (vehicle rate)) C113_cov 0.04.
Proof.
  intros Hr. destruct eighth_value as [E8 F8]. rewrite E8.
  assert (E : forall k, (0 <= k <= 100)%Z -> B2R (f64_of_Z k) = IZR k /\ is_finite (f64_of_Z k) = true).
  { intros k Hk. apply int64_value. lia. }
  destruct (E 1%Z ltac:(lia)) as [E1 F1]. destruct (E 20%Z ltac:(lia)) as [E20 _]. destruct (E 100%Z ltac:(lia)) as [E100 _].
  destruct (E 0%Z ltac:(lia)) as [E0 _].
  set (e := exact_ctrv sin64 cos64 arg64 (vehicle rate)).
  assert (R1 : v_rate e = IZR rate) by (apply E; lia).
  assert (AR : Rabs (IZR rate) = IZR rate /\ (IZR rate = 0 \/ IZR rate = 1)) by (destruct Hr as [-> | ->]; rewrite ?Rabs_R0, ?Rabs_R1; lra).
  destruct AR as [AR VR]. assert (V : v_vel e = 20) by exact E20.
  assert (X : v_x e = 100) by exact E100. assert (Y : v_y e = 0) by exact E0.
  destruct (angle_roundtrip _ _ _ C99_satisfiable _ F1) as (_ & _ & [k T]). rewrite E1 in T.
  set (a := B2R (get_angle (angle_of (A := doubles sin64 cos64 arg64) (f64_of_Z 1)) : f64)) in T.
  assert (S : same_turn (get_angle (v_yaw e)) a) by apply get_angle_spec. destruct S as [j S].
  assert (H4 : deviations C113_cov 0 = 5.4).
  { unfold deviations. cbn [C113_cov]. rewrite w0. replace 4 with (2 * 2) by ring. rewrite sqrt_square; lra. }
  assert (H1 : deviations C113_cov 1 = 1.35).
  { unfold deviations. cbn [C113_cov]. rewrite w2. replace (1 / 4) with (/2 * /2) by field. rewrite sqrt_square; lra. }
  assert (HS : 0.9 <= 2.7 * sqrt (1 / 8) <= 0.96).
  { assert (Q1 : sqrt (1 / 8) <= 0.3555).
    { rewrite <- (sqrt_square 0.3555) by lra. apply sqrt_le_1_alt. lra. }
    assert (Q2 : 0.35 <= sqrt (1 / 8)).
    { rewrite <- (sqrt_square 0.35) by lra. apply sqrt_le_1_alt. lra. }
    lra. }
  assert (HD : forall i, (2 <= i <= 4)%nat -> 0.9 <= deviations C113_cov i <= 0.96).
  { intros i Hi. unfold deviations. destruct i as [|[|[|[|[|]]]]]; try lia; cbn [C113_cov Nat.eqb]; rewrite w3; exact HS. }
  pose proof (HD 2%nat ltac:(lia)) as D2. pose proof (HD 3%nat ltac:(lia)) as D3. pose proof (HD 4%nat ltac:(lia)) as D4.
  set (dev := deviations C113_cov) in *. clear HD.
  assert (A8 : Rabs (/ 8) = / 8) by (apply Rabs_pos_eq; lra).
  assert (L18 : bpow radix2 18 = 262144) by reflexivity. assert (Lm : bpow radix2 (-1022) <= / 1024).
  { change (/ 1024) with (bpow radix2 (-10)). apply bpow_le; lia. }
  assert (Lr : reach e (/ 8) dev = (20 + dev 2%nat) * / 8) by (unfold reach; rewrite V, A8, Rabs_pos_eq; lra).
  assert (Rad : radius e dev 0.04 <= 525).
  { unfold radius. rewrite V, Rabs_pos_eq by lra. lra. }
  split.
  - exists (a - IZR k * (2 * PI) + IZR rate * / 8). constructor.
    + lra.
    + rewrite R1, AR, A8. lra.
    + exists (- k - j)%Z. rewrite S, R1, minus_IZR, opp_IZR. ring.
    + change (bpow radix2 (-18)) with (/ 262144). rewrite A8. rewrite u52_value in T.
      assert (T' : Rabs (a - IZR k * (2 * PI) - 1) <= 8.1 * / 4503599627370496).
      { replace (a - IZR k * (2 * PI) - 1) with (a - (1 + IZR k * (2 * PI))) by ring. exact T. }
      apply Rabs_le_inv in T'. rewrite Rabs_pos_eq; destruct VR; lra.
    + change (bpow radix2 17) with 131072. unfold extent. cbn [center spread]. rewrite X, H4, Lr. rewrite Rabs_pos_eq by lra. lra.
    + change (bpow radix2 17) with 131072. unfold extent. cbn [center spread]. rewrite Y, H1, Lr. rewrite Rabs_R0. lra.
    + intros i Hi. change (bpow radix2 39) with 549755813888. change (bpow radix2 (-39)) with (/ 549755813888).
      destruct i as [|[|[|[|[|]]]]]; [| | | | |lia]; unfold extent; cbn [center spread];
        rewrite ?X, ?Y, ?V, ?R1, ?H4, ?H1, ?Lr, ?Rabs_R0, ?AR; rewrite ?(Rabs_pos_eq 100), ?(Rabs_pos_eq 20) by lra; lra.
  - unfold rates. rewrite R1, AR. cbn [C113_cov Nat.eqb]. rewrite w3.
    assert (S8 : 0.33 <= sqrt (1 / 8)) by lra. destruct VR as [Z | One]; [right|left; lra].
    split; [|split; [|lra]].
    + intros [|[|[|[|j']]]] Hj; try lia; cbn [C113_cov Nat.eqb]; apply v0.
    + left. rewrite R1, AR, Z. apply bpow_gt_0.
Qed.
Example C114_case rate : rate = 0%Z \/ rate = 1%Z -> exists Q : matrix.matrix R 5 5, @spd R_realFieldType 5 Q /\
  Rabs (cell_of Q 0 0 - 4) <= 92 / 2 ^ 24 /\
  let (s', P) := default_unscented_transform32 (ctrv64 sin64 cos64 arg64) left_to_right (vehicle rate) C113_cov eighth in
  let (e, Q') := default_unscented_transform (ST := ctrv_type) (exact_ctrv sin64 cos64 arg64 (vehicle rate)) Q (/ 8) in
  Rabs (B2R (v_x s' : f64) - v_x e) <= 0.00012 /\ Rabs (B2R (P 0%nat 0%nat) - cell_of Q' 0 0) <= 0.023.
Proof.
  intros Hr. destruct (case_steady rate Hr) as [[h TU] Ra]. destruct eighth_value as [E8 _].
  destruct (C114_steady sin64 cos64 arg64 left_to_right (vehicle rate) C113_cov eighth h 0.04 C99_satisfiable (case_fits rate Hr) TU Ra) as (Q & S & N & A).
  rewrite E8 in A. exists Q. split; [exact S|]. split.
  { specialize (N 0%nat 0%nat ltac:(lia) ltac:(lia)). change (matrix_of C113_cov 0 0) with (B2R (f32_of_Z 4)) in N.
    cbn [C113_cov] in N. rewrite w0 in N. rewrite sqrt_square in N by lra. lra. }
  destruct (default_unscented_transform32 _ _ _ _ _) as [s' P]. destruct (default_unscented_transform _ _ _) as [e Q'].
  destruct A as (A1 & _ & _ & _ & _ & A2). destruct (A2 0%nat 0%nat ltac:(lia) ltac:(lia)) as [_ A3]. clear A2.
  assert (E : forall k, (0 <= k <= 100)%Z -> B2R (f64_of_Z k) = IZR k /\ is_finite (f64_of_Z k) = true).
  { intros k Hk. apply int64_value. lia. }
  assert (X : v_x (exact_ctrv sin64 cos64 arg64 (vehicle rate)) = 100) by exact (proj1 (E 100%Z ltac:(lia))).
  assert (V : v_vel (exact_ctrv sin64 cos64 arg64 (vehicle rate)) = 20) by exact (proj1 (E 20%Z ltac:(lia))).
  assert (B0 : spread (exact_ctrv sin64 cos64 arg64 (vehicle rate)) (/ 8) (deviations C113_cov) 0 = 5.4 + (20 + 2.7 * sqrt (1 / 8)) * / 8).
  { cbn [spread]. unfold reach. rewrite V. unfold deviations. cbn [C113_cov Nat.eqb]. rewrite w0, w3.
    rewrite (Rabs_pos_eq 20), (Rabs_pos_eq (/ 8)) by lra. replace 4 with (2 * 2) by ring. rewrite sqrt_square; lra. }
  assert (Q1 : 0 <= sqrt (1 / 8) <= 0.3555).
  { split; [apply sqrt_pos|]. rewrite <- (sqrt_square 0.3555) by lra. apply sqrt_le_1_alt. lra. }
  set (r := spread _ _ _) in *. set (M := extent _ _ _ _) in *.
  assert (B1 : M 0%nat = 100 + r 0%nat) by (unfold M, extent; cbn [center]; rewrite X, Rabs_pos_eq; [reflexivity|lra]).
  assert (B2 : 0 <= r 0%nat <= 8.02) by lra.
  split; [lra|]. eapply Rle_trans; [exact A3|]. rewrite B1.
  apply Rle_trans with (220 / 2 ^ 24 * (108.02 * 8.02 + 108.02 * 8.02) + 2000 / 2 ^ 48 * (108.02 * 108.02)); [|cbn; lra].
  assert (C1 : (100 + r 0%nat) * r 0%nat <= 108.02 * 8.02) by (apply Rmult_le_compat; lra).
  assert (C2 : (100 + r 0%nat) * (100 + r 0%nat) <= 108.02 * 108.02) by (apply Rmult_le_compat; lra).
  lra.
Qed.
