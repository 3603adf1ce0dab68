(** Symmetries of the motion models. *)
From Coq Require Import ZArith Reals Lra.
From Verif Require Import Motion RealArith MotionThms StateArithThms.
Open Scope R_scope.

(** The displacements computed by the two models, for a heading [p] (any
    representative). *)
Definition ctrv_dx (v p w t : R) : R :=
  if nnear0 reals w then v * cos p * t else v / w * (sin (p + w * t) - sin p).
Definition ctrv_dy (v p w t : R) : R :=
  if nnear0 reals w then v * sin p * t else - (v / w * (cos (p + w * t) - cos p)).
Definition ctra_dx (v p w a t : R) : R :=
  if nnear0 reals w then (v * t + a * t * t / 2) * cos p else
  1 / (w * w) * ((v + a * t) * w * sin (p + w * t) + a * cos (p + w * t) - v * w * sin p - a * cos p).
Definition ctra_dy (v p w a t : R) : R :=
  if nnear0 reals w then (v * t + a * t * t / 2) * sin p else
  1 / (w * w) * (- (v + a * t) * w * cos (p + w * t) + a * sin (p + w * t) + v * w * cos p - a * sin p).

Lemma angle_arg (a b : R) : a = b -> angleR a = angleR b.
Proof. now intros ->. Qed.

(** Equations between numbers or headings *)
Ltac numbers := first [apply angle_arg; ring|match goal with |- @eq _ ?a ?b => change (@eq R a b); ring end|reflexivity].

Lemma heading_of p : exists q, get_angle (angleR p) = q /\ cos q = cos p /\ sin q = sin p /\
  (forall d, cos (q + d) = cos (p + d) /\ sin (q + d) = sin (p + d)).
Proof.
  destruct (get_angle_spec p) as [_ H]. exists (get_angle (angleR p)). split; [reflexivity|].
  split; [now apply same_turn_cos|split; [now apply same_turn_sin|]]. intros d.
  assert (H' : same_turn (get_angle (angleR p) + d) (p + d)) by now apply same_turn_add, same_turn_refl.
  split; [now apply same_turn_cos|now apply same_turn_sin].
Qed.

Lemma ctrv_noise_closed (x y v p w t la aa : R) :
  ctrv_next_noise (mk_ctrv x y v p w) t (Noise (A := reals) la aa) =
  mk_ctrv (x + ctrv_dx v p w t + la * t ^ 2 / 2 * cos p) (y + ctrv_dy v p w t + la * t ^ 2 / 2 * sin p)
    (v + la * t) (p + w * t + aa * t ^ 2 / 2) (w + aa * t).
Proof.
  destruct (heading_of p) as (q & E & C & S & CS). destruct (CS (w * t)) as [C' S'].
  unfold ctrv_next_noise, mk_ctrv.
  destruct (nnear0 reals (v_rate (mk_ctrv x y v p w))) eqn:N; unfold ctrv_dx, ctrv_dy;
    cbn [mk_ctrv v_rate] in N; unfold mk_ctrv in N; cbn [v_rate] in N;
    [rewrite ctrv_next_straight by exact N|rewrite ctrv_next_turn by exact N];
    cbn [v_x v_y v_vel v_yaw v_rate n_lin n_ang nadd nmul nsub ndiv nhalf ncos nsin reals num];
    rewrite N, E, ?C', ?S', C, S, !angle_add_hom; apply ctrv_eq; cbn [v_x v_y v_vel v_yaw v_rate];
    unfold Rdiv; numbers.
Qed.
Lemma ctra_noise_closed (x y v p w a t la aa : R) :
  ctra_next_noise (mk_ctra x y v p w a) t (Noise (A := reals) la aa) =
  mk_ctra (x + ctra_dx v p w a t + la * t ^ 2 / 2 * cos p) (y + ctra_dy v p w a t + la * t ^ 2 / 2 * sin p)
    (v + a * t + la * t) (p + w * t + aa * t ^ 2 / 2) (w + aa * t) (a + la).
Proof.
  destruct (heading_of p) as (q & E & C & S & CS). destruct (CS (w * t)) as [C' S'].
  pose (s := mk_ctra x y v p w a). fold s. unfold ctra_next_noise.
  destruct (ctra_fields s t) as (F1 & F2 & F3 & F4). rewrite F1, F2, F3, F4.
  unfold ctra_dx, ctra_dy.
  destruct (nnear0 reals w) eqn:N;
    [destruct (ctra_next_straight s t N) as [-> ->]|destruct (ctra_next_turn s t (circle_of p) N) as [-> ->]];
    unfold s, mk_ctra;
    cbn [a_x a_y a_vel a_yaw a_rate a_acc n_lin n_ang nadd nmul nsub ndiv nhalf ncos nsin reals num];
    rewrite E, ?C', ?S', C, S, !angle_add_hom; apply ctra_eq; cbn [a_x a_y a_vel a_yaw a_rate a_acc];
    unfold Rdiv; numbers.
Qed.

(** *** Rotations, mirror images, scale, driving backwards *)
Lemma near0_opp w : nnear0 reals (- w) = nnear0 reals w.
Proof. cbn. now rewrite Rabs_Ropp. Qed.
Lemma near0_false w : nnear0 reals w = false -> w <> 0.
Proof. cbn. destruct (Rlt_dec (Rabs w) dbl_min) as [|n]; [discriminate|]. intros _ ->. apply n. rewrite Rabs_R0. exact dbl_min_pos. Qed.

Lemma ctrv_rotate v p w t phi :
  ctrv_dx v (p + phi) w t = cos phi * ctrv_dx v p w t - sin phi * ctrv_dy v p w t /\
  ctrv_dy v (p + phi) w t = sin phi * ctrv_dx v p w t + cos phi * ctrv_dy v p w t.
Proof.
  unfold ctrv_dx, ctrv_dy. replace (p + phi + w * t) with (p + w * t + phi) by ring.
  destruct (nnear0 reals w); rewrite ?sin_plus, ?cos_plus; split; unfold Rdiv; rewrite ?sin_plus, ?cos_plus; ring.
Qed.
Lemma ctra_rotate v p w a t phi :
  ctra_dx v (p + phi) w a t = cos phi * ctra_dx v p w a t - sin phi * ctra_dy v p w a t /\
  ctra_dy v (p + phi) w a t = sin phi * ctra_dx v p w a t + cos phi * ctra_dy v p w a t.
Proof.
  unfold ctra_dx, ctra_dy. replace (p + phi + w * t) with (p + w * t + phi) by ring.
  rewrite !(sin_plus _ phi), !(cos_plus _ phi).
  destruct (nnear0 reals w); split; ring.
Qed.
Lemma neg_turn p w t : - p + - w * t = - (p + w * t). Proof. ring. Qed.
Lemma ctrv_mirror v p w t :
  ctrv_dx v (- p) (- w) t = ctrv_dx v p w t /\ ctrv_dy v (- p) (- w) t = - ctrv_dy v p w t.
Proof.
  unfold ctrv_dx, ctrv_dy. rewrite near0_opp, neg_turn, !cos_neg, !sin_neg.
  destruct (nnear0 reals w) eqn:N; split; try ring; pose proof (near0_false w N); field; assumption.
Qed.
Lemma ctra_mirror v p w a t :
  ctra_dx v (- p) (- w) a t = ctra_dx v p w a t /\ ctra_dy v (- p) (- w) a t = - ctra_dy v p w a t.
Proof.
  unfold ctra_dx, ctra_dy. rewrite near0_opp, neg_turn, !cos_neg, !sin_neg.
  destruct (nnear0 reals w) eqn:N; [split; field|pose proof (near0_false w N); split; field; assumption].
Qed.
Lemma ctrv_scaled k v p w t :
  ctrv_dx (k * v) p w t = k * ctrv_dx v p w t /\ ctrv_dy (k * v) p w t = k * ctrv_dy v p w t.
Proof. unfold ctrv_dx, ctrv_dy. destruct (nnear0 reals w); split; unfold Rdiv; ring. Qed.
Lemma ctra_scaled k v p w a t :
  ctra_dx (k * v) p w (k * a) t = k * ctra_dx v p w a t /\ ctra_dy (k * v) p w (k * a) t = k * ctra_dy v p w a t.
Proof. unfold ctra_dx, ctra_dy. destruct (nnear0 reals w); split; unfold Rdiv; ring. Qed.


Lemma ctrv_moved (x y v p w t la aa : R) : exists x' y' v' p' w',
  ctrv_next_noise (mk_ctrv x y v p w) t (Noise (A := reals) la aa) = mk_ctrv x' y' v' p' w' /\
  forall phi dx dy,
    ctrv_next_noise (mk_ctrv (cos phi * x - sin phi * y + dx) (sin phi * x + cos phi * y + dy) v (p + phi) w) t
      (Noise (A := reals) la aa) =
    mk_ctrv (cos phi * x' - sin phi * y' + dx) (sin phi * x' + cos phi * y' + dy) v' (p' + phi) w'.
Proof.
  do 5 eexists. split; [apply ctrv_noise_closed|]. intros phi dx dy. rewrite ctrv_noise_closed.
  destruct (ctrv_rotate v p w t phi) as [-> ->]. rewrite sin_plus, cos_plus. unfold mk_ctrv.
  apply ctrv_eq; cbn [v_x v_y v_vel v_yaw v_rate]; unfold Rdiv; numbers.
Qed.
Lemma ctra_moved (x y v p w a t la aa : R) : exists x' y' v' p' w' a',
  ctra_next_noise (mk_ctra x y v p w a) t (Noise (A := reals) la aa) = mk_ctra x' y' v' p' w' a' /\
  forall phi dx dy,
    ctra_next_noise (mk_ctra (cos phi * x - sin phi * y + dx) (sin phi * x + cos phi * y + dy) v (p + phi) w a) t
      (Noise (A := reals) la aa) =
    mk_ctra (cos phi * x' - sin phi * y' + dx) (sin phi * x' + cos phi * y' + dy) v' (p' + phi) w' a'.
Proof.
  do 6 eexists. split; [apply ctra_noise_closed|]. intros phi dx dy. rewrite ctra_noise_closed.
  destruct (ctra_rotate v p w a t phi) as [-> ->]. rewrite sin_plus, cos_plus. unfold mk_ctra.
  apply ctra_eq; cbn [a_x a_y a_vel a_yaw a_rate a_acc]; unfold Rdiv; numbers.
Qed.
Lemma ctrv_mirrored (x y v p w t la aa : R) : exists x' y' v' p' w',
  ctrv_next_noise (mk_ctrv x y v p w) t (Noise (A := reals) la aa) = mk_ctrv x' y' v' p' w' /\
  ctrv_next_noise (mk_ctrv x (- y) v (- p) (- w)) t (Noise (A := reals) la (- aa)) = mk_ctrv x' (- y') v' (- p') (- w').
Proof.
  do 5 eexists. split; [apply ctrv_noise_closed|]. rewrite ctrv_noise_closed.
  destruct (ctrv_mirror v p w t) as [-> ->]. rewrite sin_neg, cos_neg. unfold mk_ctrv.
  apply ctrv_eq; cbn [v_x v_y v_vel v_yaw v_rate]; unfold Rdiv; numbers.
Qed.
Lemma ctra_mirrored (x y v p w a t la aa : R) : exists x' y' v' p' w' a',
  ctra_next_noise (mk_ctra x y v p w a) t (Noise (A := reals) la aa) = mk_ctra x' y' v' p' w' a' /\
  ctra_next_noise (mk_ctra x (- y) v (- p) (- w) a) t (Noise (A := reals) la (- aa)) = mk_ctra x' (- y') v' (- p') (- w') a'.
Proof.
  do 6 eexists. split; [apply ctra_noise_closed|]. rewrite ctra_noise_closed.
  destruct (ctra_mirror v p w a t) as [-> ->]. rewrite sin_neg, cos_neg. unfold mk_ctra.
  apply ctra_eq; cbn [a_x a_y a_vel a_yaw a_rate a_acc]; unfold Rdiv; numbers.
Qed.
Lemma ctrv_rescaled (k x y v p w t la aa : R) : exists x' y' v' p' w',
  ctrv_next_noise (mk_ctrv x y v p w) t (Noise (A := reals) la aa) = mk_ctrv x' y' v' p' w' /\
  ctrv_next_noise (mk_ctrv (k * x) (k * y) (k * v) p w) t (Noise (A := reals) (k * la) aa) =
    mk_ctrv (k * x') (k * y') (k * v') p' w'.
Proof.
  do 5 eexists. split; [apply ctrv_noise_closed|]. rewrite ctrv_noise_closed.
  destruct (ctrv_scaled k v p w t) as [-> ->]. unfold mk_ctrv.
  apply ctrv_eq; cbn [v_x v_y v_vel v_yaw v_rate]; unfold Rdiv; numbers.
Qed.
Lemma ctra_rescaled (k x y v p w a t la aa : R) : exists x' y' v' p' w' a',
  ctra_next_noise (mk_ctra x y v p w a) t (Noise (A := reals) la aa) = mk_ctra x' y' v' p' w' a' /\
  ctra_next_noise (mk_ctra (k * x) (k * y) (k * v) p w (k * a)) t (Noise (A := reals) (k * la) aa) =
    mk_ctra (k * x') (k * y') (k * v') p' w' (k * a').
Proof.
  do 6 eexists. split; [apply ctra_noise_closed|]. rewrite ctra_noise_closed.
  destruct (ctra_scaled k v p w a t) as [-> ->]. unfold mk_ctra.
  apply ctra_eq; cbn [a_x a_y a_vel a_yaw a_rate a_acc]; unfold Rdiv; numbers.
Qed.

(** A quarter of a circle starting northwards *)
Lemma quarter_north :
  ctrv_next (mk_ctrv 0 0 1 (PI / 2) 1) (PI / 2) = mk_ctrv (-1) 1 1 PI 1.
Proof.
  rewrite <- no_noise_ctrv, ctrv_noise_closed. unfold ctrv_dx, ctrv_dy.
  assert (N : nnear0 reals 1 = false).
  { apply near0_far. rewrite Rabs_R1. unfold dbl_min. rewrite <- Rinv_1. apply Rinv_le_contravar; [lra|].
    apply pow_R1_Rle. lra. }
  rewrite N. replace (PI / 2 + 1 * (PI / 2)) with PI by field. rewrite sin_PI, cos_PI, sin_PI2, cos_PI2.
  apply ctrv_eq; unfold mk_ctrv; cbn [v_x v_y v_vel v_yaw v_rate];
    first [apply angle_arg; field|match goal with |- @eq _ ?a ?b => change (@eq R a b); field end].
Qed.
