(** Prediction of the components that move linearly: property C98. *)
From Coq Require Import Reals Lra ZArith.
From mathcomp Require Import all_ssreflect all_algebra.
From Verif Require Import Base Uuid DynObj RealField PosDef Motion RealArith MotionThms StateVec StateVecThms
  CovInt CovIntThms PiBounds PiTight FusionThms Unscented UnscentedThms UnscentedShift UnscentedLoss UnscentedDefinite
  UnscentedLinear.
Import Order.Theory GRing.Theory Num.Theory.
Local Open Scope ring_scope.

(** C98: velocity, turn rate and acceleration are predicted exactly as a linear
    Kalman filter would, for every positive definite covariance, time step and
    choice of parameters with a positive spread: the means move by
    [linear_step] and their block of the covariance is [A P A'] ... *)
Theorem C98_ctrv (s : ctrvR) (P : 'M[R]_5) (dt alpha beta kappa : R) :
  spd (P : 'M[R_rcfType]_5) -> (0 < alpha * alpha * (5 + kappa))%coqR ->
  let out := @unscented_kalman_filter_predict 5 ctrv_type s P dt alpha beta kappa in
  let G := linear_step 5 dt *m P *m (linear_step 5 dt)^T in
  v_vel out.1 = v_vel s /\ v_rate out.1 = v_rate s /\
  (forall j k : 'I_5, (1 < j)%N -> (j : nat) <> 3%N -> (1 < k)%N -> (k : nat) <> 3%N -> out.2 j k = G j k).
Proof. exact: ctrv_linear. Qed.
Theorem C98_ctra (s : ctraR) (P : 'M[R]_6) (dt alpha beta kappa : R) :
  spd (P : 'M[R_rcfType]_6) -> (0 < alpha * alpha * (6 + kappa))%coqR ->
  let out := @unscented_kalman_filter_predict 6 ctra_type s P dt alpha beta kappa in
  let G := linear_step 6 dt *m P *m (linear_step 6 dt)^T in
  a_vel out.1 = (a_vel s + a_acc s * dt)%coqR /\ a_rate out.1 = a_rate s /\ a_acc out.1 = a_acc s /\
  (forall j k : 'I_6, (1 < j)%N -> (j : nat) <> 3%N -> (1 < k)%N -> (k : nat) <> 3%N -> out.2 j k = G j k).
Proof. exact: ctra_linear. Qed.
(** ... and with the parameters of the library the heading joins them, up to
    1e-9 because the program's pi is not exact: as long as the predicted heading,
    taken around zero, stays [r] away from 3.14, where [r] is the square root of
    7 (CTRV) or 8 (CTRA) predicted standard deviations.  In particular headings on
    both sides of zero, which are stored near 0 and near 2 PI, are averaged
    correctly ... *)
Theorem C98_heading_ctrv (s : ctrvR) (P : 'M[R]_5) (dt psi r : R) :
  v_yaw s = angleR psi -> spd (P : 'M[R_rcfType]_5) ->
  let G := linear_step 5 dt *m P *m (linear_step 5 dt)^T in
  (0 <= r)%coqR -> (7 * G (inord 3) (inord 3) <= r * r)%coqR -> (Rabs (psi + v_rate s * dt) + r <= 3.14)%coqR ->
  let out := @default_unscented_transform 5 ctrv_type s P dt in
  (exists h, v_yaw out.1 = angleR h /\ (Rabs (h - (psi + v_rate s * dt)) <= 0.000000001)%coqR) /\
  (forall j k : 'I_5, (1 < j)%N -> (1 < k)%N ->
     (Rabs (out.2 j k - G j k) <= 0.000000001 * (1 + G j j + G k k))%coqR).
Proof. exact: ctrv_heading. Qed.
Theorem C98_heading_ctra (s : ctraR) (P : 'M[R]_6) (dt psi r : R) :
  a_yaw s = angleR psi -> spd (P : 'M[R_rcfType]_6) ->
  let G := linear_step 6 dt *m P *m (linear_step 6 dt)^T in
  (0 <= r)%coqR -> (8 * G (inord 3) (inord 3) <= r * r)%coqR -> (Rabs (psi + a_rate s * dt) + r <= 3.14)%coqR ->
  let out := @default_unscented_transform 6 ctra_type s P dt in
  (exists h, a_yaw out.1 = angleR h /\ (Rabs (h - (psi + a_rate s * dt)) <= 0.000000001)%coqR) /\
  (forall j k : 'I_6, (1 < j)%N -> (1 < k)%N ->
     (Rabs (out.2 j k - G j k) <= 0.000000001 * (1 + G j j + G k k))%coqR).
Proof. exact: ctra_heading. Qed.
(** ... where the matrix adds [dt] times the rate to the heading and [dt] times the
    acceleration, if there is one, to the velocity *)
Theorem C98_step (dt : R) :
  (forall v : 'cV[R]_5, let w := linear_step 5 dt *m v in
     ent w 2 = ent v 2 /\ ent w 3 = (ent v 3 + ent v 4 * dt)%coqR /\ ent w 4 = ent v 4) /\
  (forall v : 'cV[R]_6, let w := linear_step 6 dt *m v in
     ent w 2 = (ent v 2 + ent v 5 * dt)%coqR /\ ent w 3 = (ent v 3 + ent v 4 * dt)%coqR /\
     ent w 4 = ent v 4 /\ ent w 5 = ent v 5).
Proof. by split=> v; [exact: step5|exact: step6]. Qed.
Print Assumptions C98_ctrv.
Print Assumptions C98_ctra.
Print Assumptions C98_heading_ctrv.
Print Assumptions C98_heading_ctra.
Print Assumptions C98_step.
(** A car driving almost along the x axis, heading -0.1, with points on both sides:
    the predicted heading variance is 0.101. *)
Definition C98_car : ctrvR := CtrvState (A := reals) 3%coqR 4%coqR 10%coqR (angleR (-0.1)%coqR) 0.2%coqR.
Example C98_case :
  let P : 'M[R]_5 := diag_mx (const_mx 0.1%coqR) in
  let out := @default_unscented_transform 5 ctrv_type C98_car P 0.1%coqR in
  spd (P : 'M[R_rcfType]_5) /\ v_vel out.1 = 10%coqR /\
  (exists h, v_yaw out.1 = angleR h /\ (Rabs (h - (-0.08)) <= 0.000000001)%coqR) /\
  (Rabs (out.2 (inord 3) (inord 3) - 0.101) <= 0.00000001)%coqR.
Proof.
move=> P out.
have EP : P = (0.1%coqR : R_rcfType) *: 1%:M by rewrite /P diag_const_mx scalemx1.
have sP : spd (P : 'M[R_rcfType]_5).
  rewrite EP; apply: spd_scale; [by apply/RltP; change (0 < 0.1)%coqR; lra|exact: spd_id].
have EG : (linear_step 5 0.1%coqR *m P *m (linear_step 5 0.1%coqR)^T) (inord 3) (inord 3) = 0.101%coqR.
  rewrite EP -scalemxAr mulmx1 -scalemxAl scalemxE.
  have -> : (linear_step 5 0.1%coqR *m (linear_step 5 0.1%coqR)^T) (inord 3) (inord 3) = (1 + 0.1 * 0.1)%coqR.
    rewrite mxE; under eq_bigr do rewrite !mxE -!(inj_eq val_inj) /= inordK //.
    rewrite !big_ord_recr !big_ord0 /= -!RaddE -!RmulE; change (0 : R) with 0%coqR; lra.
  rewrite -RmulE; lra.
have q0 : (0 < 1 * 1 * (5 + 2))%coqR by lra.
have [V _] := C98_ctrv C98_car P 0.1%coqR 1%coqR 1%coqR 2%coqR sP q0.
have H0 : (0 <= 0.9)%coqR by lra.
have H1 : (7 * (linear_step 5 0.1%coqR *m P *m (linear_step 5 0.1%coqR)^T)%R (inord 3) (inord 3) <= 0.9 * 0.9)%coqR.
  by rewrite EG; lra.
have H2 : (Rabs (-0.1 + v_rate C98_car * 0.1) + 0.9 <= 3.14)%coqR by rewrite /=; split_Rabs; lra.
have [[h [Eh Hh]] HG] := C98_heading_ctrv C98_car P 0.1%coqR (-0.1)%coqR 0.9%coqR erefl sP H0 H1 H2.
split=> //; split=> //; split.
- exists h; split=> //; move: Hh; rewrite /=; split_Rabs; lra.
- have := HG (inord 3) (inord 3); rewrite EG inordK // => /(_ isT isT) H.
  by apply: Rle_trans H _; lra.
Qed.
