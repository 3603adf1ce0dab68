(** Prediction, propagation and conversions: properties C59 to C65, C70 and C74. *)
From Coq Require String.
From Coq Require Import Reals Lra ZArith.
From mathcomp Require Import all_ssreflect all_algebra.
From Verif Require Import Base Uuid DynObj RealField PosDef Motion RealArith MotionThms StateVec StateVecThms
  CovInt CovIntThms PiBounds FusionThms Unscented UnscentedThms UnscentedSeam UnscentedShift Propagation PredictionThms.
Import Order.Theory GRing.Theory Num.Theory.
Local Open Scope ring_scope.

Notation predict_ctrv := (@unscented_kalman_filter_predict 5 ctrv_type).
Notation predict_ctra := (@unscented_kalman_filter_predict 6 ctra_type).

(** C59 *)
Theorem C59_weights (F : realFieldType) (n : nat) (alpha beta kappa : F) : alpha != 0 -> n%:R + kappa != 0 ->
  let lambda := generate_lambda n alpha kappa in
  let '(Wm, Wc) := generate_weights n alpha beta lambda in
  let q := alpha ^+ 2 * (n%:R + kappa) in
  \sum_(i < (2 * n).+1) Wm i 0 = 1 /\ \sum_(i < (2 * n).+1) Wc i 0 = 2%:R - alpha ^+ 2 + beta /\
  (forall i : 'I_(2 * n).+1, (i : nat) <> 0%N -> Wm i 0 = (2%:R * q)^-1 /\ Wc i 0 = (2%:R * q)^-1).
Proof.
move=> a0 k0 lambda; have [E [Hm Hc]] := @weights_value F n alpha beta kappa a0 k0.
have h0 : n%:R + lambda != 0 by rewrite /lambda E mulf_neq0 // expf_neq0.
have := mean_weights alpha beta h0; have := cov_weights alpha beta h0; move: Hm Hc; rewrite -/lambda.
case: (generate_weights _ _ _ _) => Wm Wc /= Hm Hc -> ->; split=> //; split=> // i /eqP i0.
by rewrite Hm Hc (negbTE i0).
Qed.
Print Assumptions C59_weights.
Example C59_case : (1 : rat) != 0 /\ (5%:R + 2%:R : rat) != 0 /\
  (generate_weights 5 (1 : rat) 1 (generate_lambda 5 (1 : rat) 2%:R)).1 0 0 = 2%:R / 7%:R.
Proof. by rewrite !mxE. Qed.

(** C60: the sigma points are the mean plus and minus the columns of a square
    root of the scaled covariance ... *)
Theorem C60_points n (ST : state_type n) (s : st_car ST) (P : 'M[R]_n) (alpha beta kappa : R) :
  spd (P : 'M[R_rcfType]_n) -> (0 < alpha * alpha * (n%:R + kappa))%coqR ->
  let points := (generate_sigma_points_and_weights s P alpha beta kappa).1 in
  size points = (2 * n)%N /\
  exists L : 'M[R]_n, L *m L^T = (alpha * alpha * (n%:R + kappa))%coqR *: P /\
    forall (d : st_car ST) (c : 'I_n),
      nth d points (2 * c)%N = st_add ST s (st_from ST (col c L)) /\
      nth d points (2 * c).+1 = st_sub ST s (st_from ST (col c L)).
Proof. exact: sigma_shape. Qed.
(** ... from which mean and covariance come back, for state types that are
    vectors ... *)
Theorem C60_linear n (ST : state_type n) s P (alpha beta kappa : R) :
  (forall s v, st_to ST (st_add ST s (st_from ST v)) = st_to ST s + v) ->
  (forall s v, st_to ST (st_sub ST s (st_from ST v)) = st_to ST s - v) ->
  spd (P : 'M[R_rcfType]_n) -> (0 < alpha * alpha * (n%:R + kappa))%coqR ->
  let '(points, (Wm, Wc)) := generate_sigma_points_and_weights s P alpha beta kappa in
  compute_unscented_transform
    (mean_and_sigma_points_to_matrix_xf (2 * n) s points : 'M[R_realFieldType]_(_, _)) Wm Wc = (st_to ST s, P).
Proof. exact: recover_linear. Qed.
(** ... and for the two motion models when the headings of the sigma points stay
    within one turn ... *)
Theorem C60_ctrv s P (alpha beta kappa r : R) :
  let i3 : 'I_5 := inord 3 in let h := get_angle (v_yaw s) in
  spd (P : 'M[R_rcfType]_5) -> on_circle (v_yaw s) ->
  (0 < alpha * alpha * (5 + kappa))%coqR -> (alpha * alpha * (5 + kappa) * P i3 i3 <= r * r)%coqR ->
  (0 <= r)%coqR -> (r <= h)%coqR -> (h + r < 2 * PI)%coqR ->
  let '(points, (Wm, Wc)) := @generate_sigma_points_and_weights 5 ctrv_type s P alpha beta kappa in
  compute_unscented_transform
    (@mean_and_sigma_points_to_matrix_xf 5 ctrv_type (2 * 5) s points : 'M[R_realFieldType]_(_, _)) Wm Wc
  = (ctrv_to_vec s, P).
Proof. exact: ctrv_recover. Qed.
Theorem C60_ctra s P (alpha beta kappa r : R) :
  let i3 : 'I_6 := inord 3 in let h := get_angle (a_yaw s) in
  spd (P : 'M[R_rcfType]_6) -> on_circle (a_yaw s) ->
  (0 < alpha * alpha * (6 + kappa))%coqR -> (alpha * alpha * (6 + kappa) * P i3 i3 <= r * r)%coqR ->
  (0 <= r)%coqR -> (r <= h)%coqR -> (h + r < 2 * PI)%coqR ->
  let '(points, (Wm, Wc)) := @generate_sigma_points_and_weights 6 ctra_type s P alpha beta kappa in
  compute_unscented_transform
    (@mean_and_sigma_points_to_matrix_xf 6 ctra_type (2 * 6) s points : 'M[R_realFieldType]_(_, _)) Wm Wc
  = (ctra_to_vec s, P).
Proof. exact: ctra_recover. Qed.
(** ... all entries but those of the heading come back in any case. *)
Theorem C60_others (ctra : bool) :
  let n := if ctra then 6%N else 5%N in
  let ST : state_type n := if ctra as b return state_type (if b then 6%N else 5%N) then ctra_type else ctrv_type in
  forall (s : st_car ST) (P : 'M[R]_n) (alpha beta kappa : R),
  spd (P : 'M[R_rcfType]_n) -> (0 < alpha * alpha * (n%:R + kappa))%coqR ->
  let '(points, (Wm, Wc)) := generate_sigma_points_and_weights s P alpha beta kappa in
  let out := compute_unscented_transform
    (mean_and_sigma_points_to_matrix_xf (2 * n) s points : 'M[R_realFieldType]_(_, _)) Wm Wc in
  (forall j : 'I_n, (j : nat) <> 3%N -> out.1 j 0 = st_to ST s j 0) /\
  (forall j k : 'I_n, (j : nat) <> 3%N -> (k : nat) <> 3%N -> out.2 j k = P j k).
Proof. by case: ctra => n ST s P alpha beta kappa; [exact: (recover_others ctra_tame)|exact: (recover_others ctrv_tame)]. Qed.
Print Assumptions C60_points.
Print Assumptions C60_linear.
Print Assumptions C60_ctrv.
Print Assumptions C60_ctra.
Print Assumptions C60_others.
(** Heading 1, unit covariance scaled by 1/100, parameters 1, 2, 1 as documented *)
Definition mild : ctrvR := CtrvState (A := reals) 3%coqR 4%coqR 5%coqR (angleR 1%coqR) (0.5)%coqR.
Definition hundredth : 'M[R]_5 := ((/ 100)%coqR : R_rcfType)%:M.
Lemma mild_heading : get_angle (v_yaw mild) = 1%coqR.
Proof. by have [PB1 PB2] := pi_bounds; apply: get_angle_canonical; lra. Qed.
Lemma hundredth_spd : spd (hundredth : 'M[R_rcfType]_5).
Proof. by apply: spd_scalar; apply/RltP; change (0 < / 100)%coqR; lra. Qed.
Lemma hundredth_entry i : hundredth i i = (/ 100)%coqR.
Proof. by rewrite mxE eqxx mulr1n. Qed.
Example C60_case : let i3 : 'I_5 := inord 3 in let h := get_angle (v_yaw mild) in
  spd (hundredth : 'M[R_rcfType]_5) /\ on_circle (v_yaw mild) /\ (0 < 1 * 1 * (5 + 1))%coqR /\
  (1 * 1 * (5 + 1) * hundredth i3 i3 <= 1 / 2 * (1 / 2))%coqR /\ (0 <= 1 / 2 <= h)%coqR /\ (h + 1 / 2 < 2 * PI)%coqR.
Proof.
have [PB1 PB2] := pi_bounds; move=> i3 h; rewrite /h mild_heading hundredth_entry.
split; first exact: hundredth_spd.
by split; [exact: circle_of|lra].
Qed.

(** C61 *)
Theorem C61_symmetric (F : realFieldType) (m n : nat) (S : 'M[F]_(m, n)) (Wm Wc : 'cV[F]_m) :
  let out := compute_unscented_transform S Wm Wc in
  out.2^T = out.2 /\
  ((forall i, 0 <= Wc i 0) -> forall v : 'cV[F]_n, 0 <= (v^T *m out.2 *m v) 0 0).
Proof.
split; first exact: ut_sym.
by move=> W0 v; have [_] := @ut_psd F m n S Wm Wc W0; apply.
Qed.
(** ... in particular the default propagator gives a positive semidefinite
    covariance, whatever it is given. *)
Theorem C61_default :
  (forall s P dt, psd ((@default_unscented_transform 5 ctrv_type s P dt).2 : 'M[R_realFieldType]_5)) /\
  (forall s P dt, psd ((@default_unscented_transform 6 ctra_type s P dt).2 : 'M[R_realFieldType]_6)).
Proof. split; [exact: default_psd_ctrv|exact: default_psd_ctra]. Qed.
Theorem C61_parameters n (ST : state_type n) s P dt (alpha beta kappa : R) :
  (0 < alpha * alpha * (n%:R + kappa))%coqR ->
  (0 <= 2 - n%:R / (alpha * alpha * (n%:R + kappa)) - alpha * alpha + beta)%coqR ->
  psd ((@unscented_kalman_filter_predict n ST s P dt alpha beta kappa).2 : 'M[R_realFieldType]_n).
Proof. exact: predict_psd. Qed.
Print Assumptions C61_symmetric.
Print Assumptions C61_default.
Print Assumptions C61_parameters.
(** The documented default parameters meet the condition for five dimensions. *)
Example C61_case : (0 < 1 * 1 * (5 + 1) /\ 0 <= 2 - 5 / (1 * 1 * (5 + 1)) - 1 * 1 + 2)%coqR.
Proof. lra. Qed.

(** C62: the two propagators are the same ... *)
Theorem C62_same n (ST : state_type n) (alpha beta kappa : R) (o : dyn_obj R (st_car ST) 'M[R]_n) (t : R) :
  ukf_prediction_visitor (ST := ST) alpha beta kappa o t =
  propagate_to_time Rminus (unscented_transform (ST := ST) alpha beta kappa) o t.
Proof. exact: visitor_propagate. Qed.
(** ... use beta as the UKF prediction uses kappa, and kappa as it uses beta: kappa
    does not influence the mean, and adds to the covariance a multiple of the
    outer product of the deviation of the propagated mean state
    ([centre_vector], UnscentedShift.v) ... *)
Theorem C62_exchanged n (ST : state_type n) (alpha beta : R) s P dt :
  exists (x : 'cV[R]_n) (C : 'M[R]_n), let d := centre_vector (ST := ST) s dt - x in
  forall kappa : R,
    unscented_transform (ST := ST) alpha beta kappa s P dt =
      (st_from ST x, C + (kappa : R_realFieldType) *: (d *m d^T)) /\
    unscented_kalman_filter_predict s P dt alpha kappa beta =
      (st_from ST x, C + (kappa : R_realFieldType) *: (d *m d^T)).
Proof. by have [x [C H]] := @beta_role n ST s P dt alpha beta; exists x, C => d kappa; split; apply: H. Qed.
(** ... with the default parameters: once. *)
Theorem C62_default n (ST : state_type n) s P dt :
  exists (x : 'cV[R]_n) (C : 'M[R]_n), let d := centre_vector (ST := ST) s dt - x in
  unscented_transform (ST := ST) 1%coqR 2%coqR 0%coqR s P dt = (st_from ST x, C) /\
  default_unscented_transform (ST := ST) s P dt = (st_from ST x, C + d *m d^T).
Proof.
have [x [C H]] := @beta_role n ST s P dt 1%coqR 2%coqR; exists x, C => d; split.
  by apply: etrans (H 0%coqR) _; rewrite -/d (_ : 0%coqR = 0) // scale0r addr0.
by apply: etrans (H 1%coqR) _; rewrite -/d (_ : 1%coqR = 1) // scale1r.
Qed.
(** ... and this makes a difference, for all parameters with a reasonable spread. *)
Theorem C62_documented_refuted (alpha beta kappa : R) : (1 <= alpha * alpha * (5 + beta))%coqR ->
  (1 <= alpha * alpha * (5 + kappa))%coqR -> beta <> kappa ->
  exists (s : ctrvR) (P : 'M[R]_5), on_circle (v_yaw s) /\ spd (P : 'M[R_rcfType]_5) /\
    v_yaw (@unscented_transform 5 ctrv_type alpha beta kappa s P 0%coqR).1 <>
    v_yaw (predict_ctrv s P 0%coqR alpha beta kappa).1.
Proof. exact: swap_matters. Qed.
Print Assumptions C62_same.
Print Assumptions C62_exchanged.
Print Assumptions C62_default.
Print Assumptions C62_documented_refuted.
(** The default parameters *)
Example C62_case : (1 <= 1 * 1 * (5 + 2) /\ 1 <= 1 * 1 * (5 + 1) /\ 2 <> 1)%coqR.
Proof. lra. Qed.

(** C63 *)
Theorem C63_frame (S C : Type) (prop : S -> C -> R -> S * C) (o : dyn_obj R S C) (t : R) :
  let o' := propagate_to_time Rminus prop o t in
  o_timestamp o' = t /\ o_uuid o' = o_uuid o /\ o_class o' = o_class o /\
  (o_state o', o_cov o') = prop (o_state o) (o_cov o) (t - o_timestamp o)%coqR.
Proof. exact: propagate_frame. Qed.
Theorem C63_variant (S1 C1 S2 C2 : Type) (p1 : S1 -> C1 -> R -> S1 * C1) (p2 : S2 -> C2 -> R -> S2 * C2)
    (o : vobj R S1 C1 S2 C2) (t : R) :
  let o' := v_propagate_to_time Rminus p1 p2 o t in
  v_timestamp o' = t /\ v_uuid o' = v_uuid o /\ v_class o' = v_class o /\
  match o, o' with
  | Ctrv a, Ctrv a' => (o_state a', o_cov a') = p1 (o_state a) (o_cov a) (t - o_timestamp a)%coqR
  | Ctra a, Ctra a' => (o_state a', o_cov a') = p2 (o_state a) (o_cov a) (t - o_timestamp a)%coqR
  | _, _ => False
  end.
Proof.
by case: o => a; rewrite /=; [have := propagate_frame p1 a t|have := propagate_frame p2 a t] => -[? [? [? ?]]].
Qed.
(** Two propagations are one if the propagator composes. *)
Theorem C63_twice (S C : Type) (prop : S -> C -> R -> S * C) (o : dyn_obj R S C) (t1 t2 : R) :
  (forall s c d1 d2, prop (prop s c d1).1 (prop s c d1).2 d2 = prop s c (d1 + d2)%coqR) ->
  propagate_to_time Rminus prop (propagate_to_time Rminus prop o t1) t2 = propagate_to_time Rminus prop o t2.
Proof. exact: propagate_two. Qed.
Theorem C63_predict (S C : Type) (prop : S -> C -> R -> S * C) (o : dyn_obj R S C) (t : R) :
  let o' := predict_to_time (propagate_to_time Rminus prop) o t in
  o_timestamp o' = t /\ o_uuid o' = o_uuid o /\ o_class o' = o_class o /\
  (o_state o', o_cov o') = prop (o_state o) (o_cov o) (t - o_timestamp o)%coqR.
Proof. exact: propagate_frame. Qed.
Print Assumptions C63_frame.
Print Assumptions C63_variant.
Print Assumptions C63_twice.
Print Assumptions C63_predict.
(** Constant velocity on a line composes; backwards in time works too. *)
Definition glide (s : R * R) (c : unit) (d : R) : (R * R) * unit := ((s.1 + s.2 * d, s.2)%coqR, c).
Example C63_case :
  (forall s c d1 d2, glide (glide s c d1).1 (glide s c d1).2 d2 = glide s c (d1 + d2)%coqR) /\
  o_state (propagate_to_time Rminus glide (DynObj 5%coqR (1, 2)%coqR tt String.EmptyString kPedestrian) 3%coqR) = ((-3), 2)%coqR.
Proof.
split; first by move=> [x v] c d1 d2; rewrite /glide /=; congr ((_, _), _); lra.
by rewrite /glide /=; congr (_, _); lra.
Qed.

(** C64: at the seam the heading jumps, however small the covariance; only the
    default parameters are needed ... *)
Theorem C64_zero_time_refuted (eps : R) : (0 < eps)%coqR -> exists (s : ctrvR) (p : R),
  on_circle (v_yaw s) /\ (0 < p <= eps)%coqR /\
  let out := @default_unscented_transform 5 ctrv_type s (p : R_rcfType)%:M 0%coqR in
  forall k : Z, (0.4 < Rabs (get_angle (v_yaw out.1) - get_angle (v_yaw s) + IZR k * (2 * PI)))%coqR.
Proof. exact: zero_time_jump. Qed.
(** ... away from it nothing changes. *)
Theorem C64_ctrv s P (alpha beta kappa r : R) :
  let i3 : 'I_5 := inord 3 in let h := get_angle (v_yaw s) in
  spd (P : 'M[R_rcfType]_5) -> on_circle (v_yaw s) ->
  (0 < alpha * alpha * (5 + kappa))%coqR -> (alpha * alpha * (5 + kappa) * P i3 i3 <= r * r)%coqR ->
  (0 <= r)%coqR -> (r <= h)%coqR -> (h + r <= 3.14159265359)%coqR ->
  predict_ctrv s P 0%coqR alpha beta kappa = (s, P).
Proof. exact: ctrv_still. Qed.
Theorem C64_ctra s P (alpha beta kappa r : R) :
  let i3 : 'I_6 := inord 3 in let h := get_angle (a_yaw s) in
  spd (P : 'M[R_rcfType]_6) -> on_circle (a_yaw s) ->
  (0 < alpha * alpha * (6 + kappa))%coqR -> (alpha * alpha * (6 + kappa) * P i3 i3 <= r * r)%coqR ->
  (0 <= r)%coqR -> (r <= h)%coqR -> (h + r <= 3.14159265359)%coqR ->
  predict_ctra s P 0%coqR alpha beta kappa = (s, P).
Proof. exact: ctra_still. Qed.
Print Assumptions C64_zero_time_refuted.
Print Assumptions C64_ctrv.
Print Assumptions C64_ctra.
Example C64_case : predict_ctrv mild hundredth 0%coqR 1%coqR 1%coqR 2%coqR = (mild, hundredth).
Proof.
by apply: (@C64_ctrv _ _ _ _ _ (1 / 2)%coqR); rewrite ?mild_heading ?hundredth_entry;
  [exact: hundredth_spd|exact: circle_of|lra..].
Qed.

(** C65 *)
Theorem C65_make_track (T S C : Type) (d : dyn_obj T S C) (u : uuid) :
  let t := make_track d in let t' := make_track_with_uuid d u in
  (o_timestamp t = o_timestamp d /\ o_state t = o_state d /\ o_cov t = o_cov d /\ o_uuid t = o_uuid d /\
   o_class t = o_class d) /\
  (o_timestamp t' = o_timestamp d /\ o_state t' = o_state d /\ o_cov t' = o_cov d /\ o_uuid t' = u /\
   o_class t' = o_class d).
Proof. by []. Qed.
Print Assumptions C65_make_track.
Example C65_case : let d := DynObj 1%N 2%N 3%N String.EmptyString kSmallVehicle in
  o_uuid (make_track_with_uuid d (String.String (Ascii.ascii_of_nat 97) String.EmptyString)) <> o_uuid d.
Proof. by []. Qed.

(** C70 *)
Theorem C70_state_ctrv (s : ctrvR) : on_circle (v_yaw s) -> ctrv_from_vec (ctrv_to_vec s) = s.
Proof. exact: ctrv_round_trip. Qed.
Theorem C70_state_ctra (s : ctraR) : on_circle (a_yaw s) -> ctra_from_vec (ctra_to_vec s) = s.
Proof. exact: ctra_round_trip. Qed.
Theorem C70_vector_ctrv (v : 'cV[R]_5) : let u := ctrv_to_vec (ctrv_from_vec v) in
  (forall k, (k <= 4)%N -> k <> 3%N -> ent u k = ent v k) /\
  (0 <= ent u 3 < 2 * PI)%coqR /\ exists k : Z, (ent u 3 = ent v 3 + IZR k * (2 * PI))%coqR.
Proof. exact: ctrv_vec_trip. Qed.
Theorem C70_vector_ctra (v : 'cV[R]_6) : let u := ctra_to_vec (ctra_from_vec v) in
  (forall k, (k <= 5)%N -> k <> 3%N -> ent u k = ent v k) /\
  (0 <= ent u 3 < 2 * PI)%coqR /\ exists k : Z, (ent u 3 = ent v 3 + IZR k * (2 * PI))%coqR.
Proof. exact: ctra_vec_trip. Qed.
Theorem C70_augmented n (S : Type) (from : 'cV[R]_n -> S) (v : 'cV[R]_(n + 2)) :
  exists u : 'cV[R]_n, (forall j, u j 0 = v (lshift 2 j) 0) /\
  g_state (augmented_from_vec from v) = from u /\
  n_lin (g_noise (augmented_from_vec from v)) = v (rshift n 0) 0 /\
  n_ang (g_noise (augmented_from_vec from v)) = v (rshift n 1) 0.
Proof. exact: augmented_parts. Qed.
Print Assumptions C70_state_ctrv.
Print Assumptions C70_state_ctra.
Print Assumptions C70_vector_ctrv.
Print Assumptions C70_vector_ctra.
Print Assumptions C70_augmented.
Example C70_case : on_circle (v_yaw mild) /\ get_angle (v_yaw mild) <> 0%coqR.
Proof. by split; [exact: circle_of|rewrite mild_heading; lra]. Qed.

(** C74: predictions do not depend on the origin of the coordinates. *)
Theorem C74_ctrv dx dy s P dt alpha beta kappa : alpha <> 0%coqR -> (5 + kappa)%coqR <> 0%coqR ->
  let move (s : ctrvR) := CtrvState (A := reals) (v_x s + dx)%coqR (v_y s + dy)%coqR (v_vel s) (v_yaw s) (v_rate s) in
  predict_ctrv (move s) P dt alpha beta kappa =
  (move (predict_ctrv s P dt alpha beta kappa).1, (predict_ctrv s P dt alpha beta kappa).2).
Proof. exact: ctrv_predict_move. Qed.
Theorem C74_ctra dx dy s P dt alpha beta kappa : alpha <> 0%coqR -> (6 + kappa)%coqR <> 0%coqR ->
  let move (s : ctraR) := CtraState (A := reals) (a_x s + dx)%coqR (a_y s + dy)%coqR (a_vel s) (a_yaw s) (a_rate s) (a_acc s) in
  predict_ctra (move s) P dt alpha beta kappa =
  (move (predict_ctra s P dt alpha beta kappa).1, (predict_ctra s P dt alpha beta kappa).2).
Proof. exact: ctra_predict_move. Qed.
Print Assumptions C74_ctrv.
Print Assumptions C74_ctra.
Example C74_case : (1 <> 0 /\ 5 + 2 <> 0 /\ 6 + 2 <> 0)%coqR.
Proof. lra. Qed.
