(** Arithmetic and equality of angles, states, process noises and augmented
    states: properties C79 to C81 of properties.jsonl (see also Properties_StateVec.v). *)
From Coq Require Import Reals Lra ZArith Bool List.
From Flocq Require Import IEEE754.BinarySingleNaN.
From Flocq Require Import Core.
From Verif Require Import Float Motion RealArith DoubleArith StateEq MotionThms StateArithThms EqDouble.
Import ListNotations.
Open Scope R_scope.

(** [mk_ctrv x y v psi w] and [mk_ctra x y v psi w a] are the states a caller builds
    from real numbers, with heading Angle(psi). *)

(** ** C79: sums and differences are those of the numbers the states were built
    from, headings included (any real headings, in or out of [0, 2pi)). *)
Theorem C79_ctrv_add : forall x y v psi w x' y' v' psi' w',
  ctrv_add (mk_ctrv x y v psi w) (mk_ctrv x' y' v' psi' w') = mk_ctrv (x + x') (y + y') (v + v') (psi + psi') (w + w').
Proof. exact ctrv_add_hom. Qed.
Theorem C79_ctrv_sub : forall x y v psi w x' y' v' psi' w',
  ctrv_sub (mk_ctrv x y v psi w) (mk_ctrv x' y' v' psi' w') = mk_ctrv (x - x') (y - y') (v - v') (psi - psi') (w - w').
Proof. exact ctrv_sub_hom. Qed.
Theorem C79_ctra_add : forall x y v psi w a x' y' v' psi' w' a',
  ctra_add (mk_ctra x y v psi w a) (mk_ctra x' y' v' psi' w' a') =
  mk_ctra (x + x') (y + y') (v + v') (psi + psi') (w + w') (a + a').
Proof. exact ctra_add_hom. Qed.
Theorem C79_ctra_sub : forall x y v psi w a x' y' v' psi' w' a',
  ctra_sub (mk_ctra x y v psi w a) (mk_ctra x' y' v' psi' w' a') =
  mk_ctra (x - x') (y - y') (v - v') (psi - psi') (w - w') (a - a').
Proof. exact ctra_sub_hom. Qed.
Example C79_case :
  ctrv_add (mk_ctrv 1 2 3 (3 * PI / 2) 4) (mk_ctrv 10 20 30 PI 40) = mk_ctrv 11 22 33 (PI / 2) 44.
Proof.
  rewrite C79_ctrv_add.
  replace (mk_ctrv 11 22 33 (PI / 2) 44) with (mk_ctrv 11 22 33 (PI / 2 + 2 * PI) 44).
  - f_equal; lra.
  - unfold mk_ctrv. f_equal. apply angle_of_turn. exists 1%Z. lra.
Qed.

(** ** C80: multiples and quotients. *)
Theorem C80_angle_times_integer : forall (psi : R) (n : Z),
  angle_mul (angleR psi) (IZR n : num reals) = angleR (IZR n * psi).
Proof. exact angle_mul_int. Qed.
Theorem C80_angle_times : forall psi k : R, 0 <= psi < 2 * PI ->
  angle_mul (angleR psi) (k : num reals) = angleR (k * psi) /\
  angle_div (angleR psi) (k : num reals) = angleR (psi / k).
Proof. intros psi k H. split; [now apply angle_mul_range | now apply angle_div_range]. Qed.
Theorem C80_divide_then_multiply : forall (z : rangle) (n : Z),
  re z * re z + im z * im z = 1 -> n <> 0%Z ->
  angle_mul (angle_div z (IZR n : num reals)) (IZR n : num reals) = z.
Proof. exact angle_div_mul. Qed.
(** Multiplying first loses the whole turns, exactly when there are any. *)
Theorem C80_multiply_then_divide : forall (z : rangle) (k : R),
  re z * re z + im z * im z = 1 -> 1 <= k ->
  (angle_div (angle_mul z (k : num reals)) (k : num reals) = z <-> k * get_angle z < 2 * PI).
Proof. exact angle_mul_div. Qed.
Theorem C80_scale_by_integer : forall x y v psi w (n : Z),
  ctrv_scale (mk_ctrv x y v psi w) (IZR n : num reals) =
  mk_ctrv (x * IZR n) (y * IZR n) (v * IZR n) (psi * IZR n) (w * IZR n).
Proof. exact ctrv_scale_int. Qed.
Theorem C80_scale : forall x y v psi w k, 0 <= psi < 2 * PI ->
  ctrv_scale (mk_ctrv x y v psi w) (k : num reals) = mk_ctrv (x * k) (y * k) (v * k) (psi * k) (w * k).
Proof. exact ctrv_scale_range. Qed.
(** Scaling is not linear in the heading ... *)
Theorem C80_scale_linear_refuted :
  exists (a b : ctrv_state reals) (k : R),
    re (v_yaw a) * re (v_yaw a) + im (v_yaw a) * im (v_yaw a) = 1 /\
    re (v_yaw b) * re (v_yaw b) + im (v_yaw b) * im (v_yaw b) = 1 /\
    ctrv_scale (ctrv_add a b) (k : num reals) <>
    ctrv_add (ctrv_scale a (k : num reals)) (ctrv_scale b (k : num reals)).
Proof. exact scale_not_linear. Qed.
(** ... and half of one state plus half of another, with headings a little to
    either side of zero, faces backwards. *)
Theorem C80_average_faces_backwards : forall x y v w eps, 0 < eps < PI ->
  ctrv_add (ctrv_scale (mk_ctrv x y v eps w) (/ 2 : num reals))
           (ctrv_scale (mk_ctrv x y v (- eps) w) (/ 2 : num reals)) = mk_ctrv x y v PI w.
Proof. exact average_opposite. Qed.
Example C80_case :
  angle_mul (angleR (3 * PI / 2)) (2 : num reals) = angleR PI /\
  angle_div (angle_mul (angleR (3 * PI / 2)) (2 : num reals)) (2 : num reals) = angleR (PI / 2).
Proof.
  pose proof PI_RGT_0 as HP.
  assert (E : angle_mul (angleR (3 * PI / 2)) (2 : num reals) = angleR PI).
  { rewrite (C80_angle_times_integer (3 * PI / 2) 2). apply angle_of_turn. exists 1%Z. lra. }
  split; [exact E|]. rewrite E. apply angle_div_range. lra.
Qed.

(** ** C81: equality.  States are documented as compared exactly; the comparison
    is reflexive and symmetric, but has a tolerance. *)
Theorem C81_reflexive : forall s : ctrv_state reals, ctrv_eqb reals_eq s s = true.
Proof. intros s. apply ctrv_eqb_iff. split; [reflexivity|]. intros. apply units_eqb_refl. Qed.
Theorem C81_symmetric : forall s t : ctrv_state reals, ctrv_eqb reals_eq s t = ctrv_eqb reals_eq t s.
Proof. exact ctrv_eqb_sym. Qed.
Theorem C81_ctra_reflexive : forall s : ctra_state reals, ctra_eqb reals_eq s s = true.
Proof. intros s. apply ctra_eqb_iff. split; [reflexivity|]. intros. apply units_eqb_refl. Qed.
Theorem C81_ctra_symmetric : forall s t : ctra_state reals, ctra_eqb reals_eq s t = ctra_eqb reals_eq t s.
Proof. exact ctra_eqb_sym. Qed.
Theorem C81_noise : forall s t : process_noise reals,
  noise_eqb reals_eq s s = true /\ noise_eqb reals_eq s t = noise_eqb reals_eq t s.
Proof. exact noise_eqb_laws. Qed.
(** States are equal exactly when they have the same heading and, in every other
    entry, differ by less than the smallest normal double or 2^-52 of their sum. *)
Theorem C81_equal_states : forall s t : ctrv_state reals, ctrv_eqb reals_eq s t = true <->
  v_yaw s = v_yaw t /\
  forall f, In f [@v_x reals; @v_y reals; @v_vel reals; @v_rate reals] ->
    Rabs (f s - f t) < / 2 ^ 52 * Rabs (f s + f t) \/ Rabs (f s - f t) < / 2 ^ 1022.
Proof.
  intros s t. rewrite ctrv_eqb_iff. split; (intros [H1 H2]; split; [exact H1|]; intros f Hf; apply units_eqb_iff, H2, Hf).
Qed.
Theorem C81_ctra_equal_states : forall s t : ctra_state reals, ctra_eqb reals_eq s t = true <->
  a_yaw s = a_yaw t /\
  forall f, In f [@a_x reals; @a_y reals; @a_vel reals; @a_rate reals; @a_acc reals] ->
    Rabs (f s - f t) < / 2 ^ 52 * Rabs (f s + f t) \/ Rabs (f s - f t) < / 2 ^ 1022.
Proof.
  intros s t. rewrite ctra_eqb_iff. split; (intros [H1 H2]; split; [exact H1|]; intros f Hf; apply units_eqb_iff, H2, Hf).
Qed.
Theorem C81_equal_noises : forall s t : process_noise reals, noise_eqb reals_eq s t = true <->
  forall f, In f [@n_lin reals; @n_ang reals] ->
    Rabs (f s - f t) < / 2 ^ 52 * Rabs (f s + f t) \/ Rabs (f s - f t) < / 2 ^ 1022.
Proof.
  intros s t. rewrite noise_eqb_iff, !units_eqb_iff. split.
  - intros [H1 H2] f [<-|[<-|[]]]; assumption.
  - intros H. split; apply (H _); cbn; auto.
Qed.
Theorem C81_exact_refuted : exists s t : ctrv_state reals, ctrv_eqb reals_eq s t = true /\ s <> t.
Proof. exact not_exact. Qed.
Theorem C81_transitive_refuted : exists s t u : ctrv_state reals,
  ctrv_eqb reals_eq s t = true /\ ctrv_eqb reals_eq t u = true /\ ctrv_eqb reals_eq s u = false.
Proof. exact not_transitive. Qed.
(** Headings are compared without tolerance: equal exactly when equal modulo
    whole turns. *)
Theorem C81_headings : forall a b : R,
  angle_eqb reals_eq (angleR a) (angleR b) = true <-> exists k : Z, a = b + IZR k * (2 * PI).
Proof. intros a b. rewrite angle_eqb_iff. apply angle_of_iff. Qed.
(** In double precision a state equals itself exactly when its entries are finite
    and its heading is not NaN: a state with an infinite position differs from
    itself. *)
Theorem C81_double_reflexive : forall sine cosine phase (s : ctrv_state (doubles sine cosine phase)),
  ctrv_eqb (doubles_eq sine cosine phase) s s =
  is_finite (v_x s : f64) && is_finite (v_y s : f64) && is_finite (v_vel s : f64) &&
  (negb (is_nan (re (v_yaw s) : f64)) && negb (is_nan (im (v_yaw s) : f64))) && is_finite (v_rate s : f64).
Proof. exact ctrv_self_equal. Qed.
Theorem C81_double_reflexive_ctra : forall sine cosine phase (s : ctra_state (doubles sine cosine phase)),
  ctra_eqb (doubles_eq sine cosine phase) s s =
  is_finite (a_x s : f64) && is_finite (a_y s : f64) && is_finite (a_vel s : f64) &&
  (negb (is_nan (re (a_yaw s) : f64)) && negb (is_nan (im (a_yaw s) : f64))) &&
  is_finite (a_rate s : f64) && is_finite (a_acc s : f64).
Proof. exact ctra_self_equal. Qed.
(** Two states that compare equal in double precision have the same heading, and
    their other entries are within the tolerance in exact arithmetic; closer than a
    factor just below one of the tolerance, they compare equal. *)
Theorem C81_double_equal : forall sine cosine phase (s t : ctrv_state (doubles sine cosine phase)),
  (forall f, In f [@v_x (doubles sine cosine phase); @v_y (doubles sine cosine phase); @v_vel (doubles sine cosine phase); @v_rate (doubles sine cosine phase)] ->
     is_finite (f s : f64) = true /\ is_finite (f t : f64) = true /\
     Rabs (B2R (f s : f64)) <= 2 ^ 1000 /\ Rabs (B2R (f t : f64)) <= 2 ^ 1000) ->
  let close c := forall f, In f [@v_x (doubles sine cosine phase); @v_y (doubles sine cosine phase); @v_vel (doubles sine cosine phase); @v_rate (doubles sine cosine phase)] ->
     Rabs (B2R (f s : f64) - B2R (f t : f64)) < / 2 ^ 52 * Rabs (B2R (f s : f64) + B2R (f t : f64)) * c \/
     Rabs (B2R (f s : f64) - B2R (f t : f64)) < / 2 ^ 1022 in
  let same_heading := Beqb (re (v_yaw s) : f64) (re (v_yaw t) : f64) = true /\ Beqb (im (v_yaw s) : f64) (im (v_yaw t) : f64) = true in
  (ctrv_eqb (doubles_eq sine cosine phase) s t = true -> same_heading /\ close 1) /\
  (same_heading /\ close (1 - / 2 ^ 52) -> ctrv_eqb (doubles_eq sine cosine phase) s t = true).
Proof. exact ctrv_eqb_double. Qed.
Theorem C81_double_equal_ctra : forall sine cosine phase (s t : ctra_state (doubles sine cosine phase)),
  (forall f, In f [@a_x (doubles sine cosine phase); @a_y (doubles sine cosine phase); @a_vel (doubles sine cosine phase); @a_rate (doubles sine cosine phase); @a_acc (doubles sine cosine phase)] ->
     is_finite (f s : f64) = true /\ is_finite (f t : f64) = true /\
     Rabs (B2R (f s : f64)) <= 2 ^ 1000 /\ Rabs (B2R (f t : f64)) <= 2 ^ 1000) ->
  let close c := forall f, In f [@a_x (doubles sine cosine phase); @a_y (doubles sine cosine phase); @a_vel (doubles sine cosine phase); @a_rate (doubles sine cosine phase); @a_acc (doubles sine cosine phase)] ->
     Rabs (B2R (f s : f64) - B2R (f t : f64)) < / 2 ^ 52 * Rabs (B2R (f s : f64) + B2R (f t : f64)) * c \/
     Rabs (B2R (f s : f64) - B2R (f t : f64)) < / 2 ^ 1022 in
  let same_heading := Beqb (re (a_yaw s) : f64) (re (a_yaw t) : f64) = true /\ Beqb (im (a_yaw s) : f64) (im (a_yaw t) : f64) = true in
  (ctra_eqb (doubles_eq sine cosine phase) s t = true -> same_heading /\ close 1) /\
  (same_heading /\ close (1 - / 2 ^ 52) -> ctra_eqb (doubles_eq sine cosine phase) s t = true).
Proof. exact ctra_eqb_double. Qed.
Example C81_case : ctrv_eqb reals_eq (mk_ctrv 1 2 3 (- PI) 4) (mk_ctrv 1 2 3 PI 4) = true /\
  ctrv_eqb reals_eq (mk_ctrv 1 2 3 PI 4) (mk_ctrv (1 + 4 * / 2 ^ 52) 2 3 PI 4) = false.
Proof.
  split.
  - replace (mk_ctrv 1 2 3 (- PI) 4) with (mk_ctrv 1 2 3 PI 4); [apply C81_reflexive|].
    unfold mk_ctrv. f_equal. apply angle_of_turn. exists 1%Z. lra.
  - rewrite ctrv_eqb_x. exact far_pair.
Qed.

Print Assumptions C79_ctrv_add.
Print Assumptions C79_ctrv_sub.
Print Assumptions C79_ctra_add.
Print Assumptions C79_ctra_sub.
Print Assumptions C80_angle_times_integer.
Print Assumptions C80_angle_times.
Print Assumptions C80_divide_then_multiply.
Print Assumptions C80_multiply_then_divide.
Print Assumptions C80_scale_by_integer.
Print Assumptions C80_scale.
Print Assumptions C80_scale_linear_refuted.
Print Assumptions C80_average_faces_backwards.
Print Assumptions C81_reflexive.
Print Assumptions C81_symmetric.
Print Assumptions C81_ctra_reflexive.
Print Assumptions C81_ctra_symmetric.
Print Assumptions C81_noise.
Print Assumptions C81_equal_states.
Print Assumptions C81_ctra_equal_states.
Print Assumptions C81_equal_noises.
Print Assumptions C81_exact_refuted.
Print Assumptions C81_transitive_refuted.
Print Assumptions C81_headings.
Print Assumptions C81_double_reflexive.
Print Assumptions C81_double_reflexive_ctra.
Print Assumptions C81_double_equal.
Print Assumptions C81_double_equal_ctra.
