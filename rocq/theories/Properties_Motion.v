(** The angle class and the motion models: properties C50 to C58 of
    properties.jsonl, proved in RealArith.v, MotionThms.v and DoubleThms.v.
    C50 and C52 to C57 are over exact arithmetic, C51 and C58 over IEEE double. *)
From Coq Require Import ZArith Reals Lra Lia.
From Flocq Require Import Core IEEE754.BinarySingleNaN.
From Verif Require Import Float Motion RealArith MotionSpec MotionThms DoubleArith DoubleThms.
Open Scope R_scope.

(** C50: get_angle normalises to [0, 2pi); addition and subtraction are those of
    angles modulo whole turns. *)
Theorem C50_get_angle (a : R) :
  0 <= get_angle (angleR a) < 2 * PI /\ exists k : Z, get_angle (angleR a) = a + IZR k * (2 * PI).
Proof. exact (get_angle_spec a). Qed.
Theorem C50_equal_angles (a b : R) :
  angleR a = angleR b <-> exists k : Z, a = b + IZR k * (2 * PI).
Proof. exact (angle_of_iff a b). Qed.
Theorem C50_add_mod (x y : rangle) :
  exists k : Z, get_angle (angle_add x y) = get_angle x + get_angle y + IZR k * (2 * PI).
Proof. exact (angle_add_spec x y). Qed.
Theorem C50_sub_mod (x y : rangle) :
  exists k : Z, get_angle (angle_sub x y) = get_angle x - get_angle y + IZR k * (2 * PI).
Proof. exact (angle_sub_spec x y). Qed.
Theorem C50_add_comm (x y : rangle) : angle_add x y = angle_add y x.
Proof. exact (angle_add_comm x y). Qed.
Theorem C50_add_assoc (x y z : rangle) : angle_add x (angle_add y z) = angle_add (angle_add x y) z.
Proof. exact (angle_add_assoc x y z). Qed.
Theorem C50_add_zero (x : rangle) : re x * re x + im x * im x = 1 -> angle_add x (angleR 0) = x.
Proof. exact (angle_add_0 x). Qed.
Theorem C50_sub_undoes_add (x y : rangle) :
  re x * re x + im x * im x = 1 -> angle_sub (angle_add x y) y = x.
Proof. exact (angle_sub_add x y). Qed.
Print Assumptions C50_sub_undoes_add.
Example C50_case : get_angle (angleR (- (PI / 2))) = 3 * PI / 2.
Proof.
  rewrite (angle_of_turn (- (PI / 2)) (3 * PI / 2)).
  - apply get_angle_canonical. pose proof PI_RGT_0. lra.
  - exists (-1)%Z. lra.
Qed.
Example C50_case_add : get_angle (angle_add (angleR (3 * PI / 2)) (angleR PI)) = PI / 2.
Proof.
  pose proof PI_RGT_0. rewrite angle_add_of by apply circle_of.
  rewrite (get_angle_canonical (3 * PI / 2)) by lra.
  rewrite (angle_of_turn (3 * PI / 2 + PI) (PI / 2)).
  - apply get_angle_canonical. lra.
  - exists 1%Z. lra.
Qed.

(** C51: in double precision the result stays in the closed range for every phase
    in [-pi, pi], and reaches its upper end for tiny negative phases, whatever
    sine, cosine and phase functions are used. *)
Theorem C51_closed_range sine cosine phase (z : angle (doubles sine cosine phase)) :
  is_finite (phase (re z) (im z)) = true -> Rabs (B2R (phase (re z) (im z))) <= B2R pi64 ->
  is_finite (get_angle z : f64) = true /\ 0 <= B2R (get_angle z : f64) <= 2 * B2R pi64.
Proof. exact (get_angle_closed sine cosine phase z). Qed.
Theorem C51_half_open_refuted sine cosine phase (z : angle (doubles sine cosine phase)) :
  is_finite (phase (re z) (im z)) = true ->
  - bpow radix2 (-52) <= B2R (phase (re z) (im z)) < 0 ->
  B2R (get_angle z : f64) = 2 * B2R pi64.
Proof. exact (get_angle_full_turn sine cosine phase z). Qed.
Print Assumptions C51_half_open_refuted.
(** -2^-60 is such a phase; -1 is an ordinary one. *)
Example C51_case : exists p : f64, is_finite p = true /\ - bpow radix2 (-52) <= B2R p < 0.
Proof.
  exists (binary_normalize 53 1024 _ _ mode_NE (-1) (-60) false).
  destruct (value_of_normal (-1) (-60)) as [-> ->]; try (cbn; lia).
  split; [reflexivity|]. pose proof (bpow_gt_0 radix2 (-60)).
  assert (bpow radix2 (-60) < bpow radix2 (-52)) by (apply bpow_lt; lia). lra.
Qed.
Example C51_case_ordinary : exists p : f64, is_finite p = true /\ Rabs (B2R p) <= B2R pi64 /\ B2R p < 0.
Proof.
  exists (f64_of_Z (-1)). destruct (int64_value (-1)) as [-> ->]; [cbn; lia|].
  destruct pi64_value as [-> _]. pose proof pi_real_bounds.
  rewrite Rabs_left by lra. repeat split; lra.
Qed.

(** C52: the predictions of a CTRV state are the solution of the differential
    equations of constant turn rate and velocity motion that starts in it. *)
Theorem C52_ctrv_solves (s : ctrv_state reals) : on_circle (v_yaw s) -> regular_rate (v_rate s) ->
  ctrv_next s 0 = s /\
  forall t,
    derivable_pt_lim (fun t => v_x (ctrv_next s t)) t (v_vel s * cos (get_angle (v_yaw (ctrv_next s t)))) /\
    derivable_pt_lim (fun t => v_y (ctrv_next s t)) t (v_vel s * sin (get_angle (v_yaw (ctrv_next s t)))) /\
    v_vel (ctrv_next s t) = v_vel s /\ v_rate (ctrv_next s t) = v_rate s /\
    exists k : Z, get_angle (v_yaw (ctrv_next s t)) = get_angle (v_yaw s) + v_rate s * t + IZR k * (2 * PI).
Proof. exact (ctrv_solves s). Qed.
Theorem C52_ctrv_only_solution (s : ctrv_state reals) (T : trajectory) :
  on_circle (v_yaw s) -> regular_rate (v_rate s) -> turn_motion T ->
  x_ T 0 = v_x s -> y_ T 0 = v_y s -> v_ T 0 = v_vel s ->
  c_ T 0 = cos (get_angle (v_yaw s)) -> s_ T 0 = sin (get_angle (v_yaw s)) ->
  w_ T 0 = v_rate s -> a_ T 0 = 0 ->
  forall t, v_x (ctrv_next s t) = x_ T t /\ v_y (ctrv_next s t) = y_ T t /\
    v_vel (ctrv_next s t) = v_ T t /\ cos (get_angle (v_yaw (ctrv_next s t))) = c_ T t /\
    sin (get_angle (v_yaw (ctrv_next s t))) = s_ T t /\ v_rate (ctrv_next s t) = w_ T t.
Proof. exact (ctrv_only_solution s T). Qed.
Print Assumptions C52_ctrv_only_solution.
(** A state meeting the hypotheses, and a solution: the unit circle. *)
Definition turning : ctrv_state reals := CtrvState (A := reals) 1 2 3 (angleR (PI / 3)) (1 / 2).
Definition unit_circle_motion : trajectory :=
  Traj sin (fun t => 1 - cos t) (fun _ => 1) cos sin (fun _ => 1) (fun _ => 0).
Example C52_case : on_circle (v_yaw turning) /\ regular_rate (v_rate turning).
Proof.
  split; [apply circle_of|]. right. cbn. rewrite Rabs_pos_eq by lra.
  apply Rle_trans with (/ 2 ^ 1); [|cbn; lra]. unfold dbl_min.
  apply Rinv_le_contravar; [apply pow_lt; lra|]. apply Rle_pow; [lra|lia].
Qed.
Example C52_case_motion : turn_motion unit_circle_motion.
Proof. exact circle_motion. Qed.

(** C53: predictions compose. *)
Theorem C53_ctrv_compose (st : ctrv_state reals) (s t : R) :
  on_circle (v_yaw st) -> regular_rate (v_rate st) ->
  ctrv_next (ctrv_next st s) t = ctrv_next st (s + t).
Proof. exact (ctrv_compose st s t). Qed.
Theorem C53_ctrv_zero (st : ctrv_state reals) : on_circle (v_yaw st) -> ctrv_next st 0 = st.
Proof. exact (ctrv_zero st). Qed.
Theorem C53_ctrv_back (st : ctrv_state reals) (t : R) :
  on_circle (v_yaw st) -> regular_rate (v_rate st) ->
  ctrv_next (ctrv_next st t) (- t) = st.
Proof. exact (ctrv_back st t). Qed.
Theorem C53_band_refuted : exists (st : ctrv_state reals) (t : R),
  on_circle (v_yaw st) /\ 0 < v_rate st < dbl_min /\
  ctrv_next (ctrv_next st t) t <> ctrv_next st (t + t).
Proof. exact ctrv_band. Qed.
Print Assumptions C53_ctrv_back.
Example C53_case : on_circle (v_yaw turning) /\ regular_rate (v_rate turning).
Proof. exact C52_case. Qed.

(** C54: the predicted position is at most |v| |t| away. *)
Theorem C54_ctrv_displacement (s : ctrv_state reals) (t : R) :
  sqrt ((v_x (ctrv_next s t) - v_x s) ^ 2 + (v_y (ctrv_next s t) - v_y s) ^ 2) <= Rabs (v_vel s) * Rabs t.
Proof. exact (ctrv_displacement_abs s t). Qed.
Theorem C54_ctrv_straight (s : ctrv_state reals) (t : R) : v_rate s = 0 ->
  sqrt ((v_x (ctrv_next s t) - v_x s) ^ 2 + (v_y (ctrv_next s t) - v_y s) ^ 2) = Rabs (v_vel s) * Rabs t.
Proof. exact (ctrv_straight_abs s t). Qed.
Print Assumptions C54_ctrv_displacement.
(** A quarter of a circle: the chord is shorter than the arc. *)
Definition circling : ctrv_state reals := CtrvState (A := reals) 0 0 1 (angleR 0) 1.
Example C54_case : v_x (ctrv_next circling (PI / 2)) = 1 /\ v_y (ctrv_next circling (PI / 2)) = 1.
Proof. exact quarter_circle. Qed.

(** C55: the predictions of a CTRA state solve the equations with acceleration. *)
Theorem C55_ctra_solves (s : ctra_state reals) : on_circle (a_yaw s) -> regular_rate (a_rate s) ->
  ctra_next s 0 = s /\
  forall t,
    derivable_pt_lim (fun t => a_x (ctra_next s t)) t
      (a_vel (ctra_next s t) * cos (get_angle (a_yaw (ctra_next s t)))) /\
    derivable_pt_lim (fun t => a_y (ctra_next s t)) t
      (a_vel (ctra_next s t) * sin (get_angle (a_yaw (ctra_next s t)))) /\
    a_vel (ctra_next s t) = a_vel s + a_acc s * t /\
    a_rate (ctra_next s t) = a_rate s /\ a_acc (ctra_next s t) = a_acc s /\
    exists k : Z, get_angle (a_yaw (ctra_next s t)) = get_angle (a_yaw s) + a_rate s * t + IZR k * (2 * PI).
Proof. exact (ctra_solves s). Qed.
Theorem C55_ctra_only_solution (s : ctra_state reals) (T : trajectory) :
  on_circle (a_yaw s) -> regular_rate (a_rate s) -> turn_motion T ->
  x_ T 0 = a_x s -> y_ T 0 = a_y s -> v_ T 0 = a_vel s ->
  c_ T 0 = cos (get_angle (a_yaw s)) -> s_ T 0 = sin (get_angle (a_yaw s)) ->
  w_ T 0 = a_rate s -> a_ T 0 = a_acc s ->
  forall t, a_x (ctra_next s t) = x_ T t /\ a_y (ctra_next s t) = y_ T t /\
    a_vel (ctra_next s t) = v_ T t /\ cos (get_angle (a_yaw (ctra_next s t))) = c_ T t /\
    sin (get_angle (a_yaw (ctra_next s t))) = s_ T t /\ a_rate (ctra_next s t) = w_ T t /\
    a_acc (ctra_next s t) = a_ T t.
Proof. exact (ctra_only_solution s T). Qed.
Print Assumptions C55_ctra_only_solution.
Definition accelerating : ctra_state reals := CtraState (A := reals) 1 2 3 (angleR (PI / 3)) (1 / 2) (1 / 4).
Example C55_case : on_circle (a_yaw accelerating) /\ regular_rate (a_rate accelerating).
Proof. exact C52_case. Qed.

(** C56: CTRA predictions compose, and extend those of CTRV. *)
Theorem C56_ctra_compose (st : ctra_state reals) (s t : R) :
  on_circle (a_yaw st) -> regular_rate (a_rate st) ->
  ctra_next (ctra_next st s) t = ctra_next st (s + t).
Proof. exact (ctra_compose st s t). Qed.
Theorem C56_ctra_zero (st : ctra_state reals) : on_circle (a_yaw st) -> ctra_next st 0 = st.
Proof. exact (ctra_zero st). Qed.
Theorem C56_ctra_back (st : ctra_state reals) (t : R) :
  on_circle (a_yaw st) -> regular_rate (a_rate st) ->
  ctra_next (ctra_next st t) (- t) = st.
Proof. exact (ctra_back st t). Qed.
Theorem C56_ctra_extends_ctrv (x y v w : R) (yaw : rangle) (t : R) : on_circle yaw ->
  let p := ctra_next (CtraState (A := reals) x y v yaw w 0) t in
  let q := ctrv_next (CtrvState (A := reals) x y v yaw w) t in
  a_x p = v_x q /\ a_y p = v_y q /\ a_vel p = v_vel q /\ a_yaw p = v_yaw q /\ a_rate p = v_rate q /\
  a_acc p = 0.
Proof. exact (ctra_extends x y v w yaw t). Qed.
Print Assumptions C56_ctra_compose.
Example C56_case : on_circle (a_yaw accelerating) /\ regular_rate (a_rate accelerating).
Proof. exact C55_case. Qed.

(** C57: how process noise enters. *)
Theorem C57_ctrv_noise (s : ctrv_state reals) (t la aa : R) :
  let p := ctrv_next s t in let q := ctrv_next_noise s t (Noise (A := reals) la aa) in
  v_x q = v_x p + la * t ^ 2 / 2 * cos (get_angle (v_yaw s)) /\
  v_y q = v_y p + la * t ^ 2 / 2 * sin (get_angle (v_yaw s)) /\
  v_vel q = v_vel p + la * t /\
  (exists k : Z, get_angle (v_yaw q) = get_angle (v_yaw p) + aa * t ^ 2 / 2 + IZR k * (2 * PI)) /\
  v_rate q = v_rate p + aa * t.
Proof. exact (noise_ctrv s t (Noise (A := reals) la aa)). Qed.
Theorem C57_ctra_noise (s : ctra_state reals) (t la aa : R) :
  let p := ctra_next s t in let q := ctra_next_noise s t (Noise (A := reals) la aa) in
  a_x q = a_x p + la * t ^ 2 / 2 * cos (get_angle (a_yaw s)) /\
  a_y q = a_y p + la * t ^ 2 / 2 * sin (get_angle (a_yaw s)) /\
  a_vel q = a_vel p + la * t /\
  (exists k : Z, get_angle (a_yaw q) = get_angle (a_yaw p) + aa * t ^ 2 / 2 + IZR k * (2 * PI)) /\
  a_rate q = a_rate p + aa * t /\
  a_acc q = a_acc p + la.
Proof. exact (noise_ctra s t (Noise (A := reals) la aa)). Qed.
Theorem C57_no_noise_ctrv (s : ctrv_state reals) (t : R) :
  ctrv_next_noise s t (Noise (A := reals) 0 0) = ctrv_next s t.
Proof. exact (no_noise_ctrv s t). Qed.
Theorem C57_no_noise_ctra (s : ctra_state reals) (t : R) :
  ctra_next_noise s t (Noise (A := reals) 0 0) = ctra_next s t.
Proof. exact (no_noise_ctra s t). Qed.
Print Assumptions C57_no_noise_ctra.
(** Starting at rest at the origin, heading along x, with acceleration noise 2. *)
Example C57_case :
  v_x (ctrv_next_noise (CtrvState (A := reals) 0 0 0 (angleR 0) 0) 3 (Noise (A := reals) 2 0)) = 9.
Proof. exact noise_case. Qed.

(** C58: in double precision a turn below 2^-54 rad is lost in a heading of at
    least 1 rad, and then the predicted position is the old one, for any velocity
    and any sine and cosine that return finite values. *)
Theorem C58_frozen sine cosine phase (s : ctrv_state (doubles sine cosine phase)) (dt : f64) :
  let psi := get_angle (v_yaw s) : f64 in
  let turn := Bmult mode_NE (v_rate s) dt : f64 in
  is_finite (v_x s : f64) = true -> is_finite (v_y s : f64) = true ->
  is_finite psi = true -> 1 <= B2R psi ->
  is_finite turn = true -> Rabs (B2R turn) < bpow radix2 (-54) ->
  is_finite (v_rate s : f64) = true -> bpow radix2 (-1022) <= Rabs (B2R (v_rate s : f64)) ->
  is_finite (Bdiv mode_NE (v_vel s) (v_rate s) : f64) = true ->
  is_finite (sine psi) = true -> is_finite (cosine psi) = true ->
  B2R (v_x (ctrv_next s dt) : f64) = B2R (v_x s : f64) /\
  B2R (v_y (ctrv_next s dt) : f64) = B2R (v_y s : f64).
Proof. exact (ctrv_frozen sine cosine phase s dt). Qed.
Print Assumptions C58_frozen.
(** 10 m/s for one second with a turn rate of 2^-60 rad/s: whatever sine and cosine
    with finite values, for the stored heading whose phase is 1.5 rad, the object
    stays at the origin although it should be 10 m away. *)
Theorem C58_frozen_witness : exists v w dt psi : f64,
  B2R v = 10 /\ B2R dt = 1 /\ B2R w = bpow radix2 (-60) /\ B2R psi = 3 / 2 /\
  forall sine cosine phase (yaw : angle (doubles sine cosine phase)),
    (forall x, is_finite x = true -> is_finite (sine x) = true /\ is_finite (cosine x) = true) ->
    phase (re yaw) (im yaw) = psi ->
    let s := CtrvState (A := doubles sine cosine phase) (f64_of_Z 0) (f64_of_Z 0) v yaw w in
    B2R (v_x (ctrv_next s dt) : f64) = 0 /\ B2R (v_y (ctrv_next s dt) : f64) = 0.
Proof. exact frozen_witness. Qed.
Print Assumptions C58_frozen_witness.
