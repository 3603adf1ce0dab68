(** Arithmetic and equality of angles, states and process noises. *)
From Coq Require Import Reals Lra Lia ZArith Bool List.
From Flocq Require Import Core.Core IEEE754.BinarySingleNaN.
From Verif Require Import Float Motion RealArith DoubleArith StateEq FloatProofs DoubleThms MotionThms.
Import ListNotations.
Open Scope R_scope.

(** ** Angles built from real headings *)
Lemma angle_add_hom a b : angle_add (angleR a) (angleR b) = angleR (a + b).
Proof.
  unfold angle_add. apply angle_of_turn. apply same_turn_add; apply get_angle_spec.
Qed.
Lemma angle_sub_hom a b : angle_sub (angleR a) (angleR b) = angleR (a - b).
Proof.
  unfold angle_sub. apply angle_of_turn. apply same_turn_sub; apply get_angle_spec.
Qed.
Lemma angle_mul_int a (n : Z) : angle_mul (angleR a) (IZR n : num reals) = angleR (IZR n * a).
Proof.
  unfold angle_mul. apply angle_of_turn.
  destruct (get_angle_spec a) as [_ [k ->]]. exists (n * k)%Z. cbn. rewrite mult_IZR. ring.
Qed.
Lemma angle_mul_range a (k : R) : 0 <= a < 2 * PI -> angle_mul (angleR a) (k : num reals) = angleR (k * a).
Proof. intros H. unfold angle_mul. now rewrite get_angle_canonical. Qed.
Lemma angle_div_range a (k : R) : 0 <= a < 2 * PI -> angle_div (angleR a) (k : num reals) = angleR (a / k).
Proof. intros H. unfold angle_div. now rewrite get_angle_canonical. Qed.
Lemma angle_div_mul (z : rangle) (n : Z) : on_circle z -> n <> 0%Z ->
  angle_mul (angle_div z (IZR n : num reals)) (IZR n : num reals) = z.
Proof.
  intros Hz Hn. unfold angle_div. rewrite angle_mul_int.
  assert (E : forall x : R, IZR n * (x / IZR n) = x) by (intros x; field; now apply not_0_IZR).
  cbn [ndiv reals]. rewrite (E (get_angle z)). now apply angle_of_get.
Qed.
Lemma angle_mul_div (z : rangle) (k : R) : on_circle z -> 1 <= k -> 
  (angle_div (angle_mul z (k : num reals)) (k : num reals) = z <-> k * get_angle z < 2 * PI).
Proof.
  intros Hz Hk. pose proof (get_angle_range z Hz) as [H0 H1]. pose proof PI_RGT_0 as HP.
  unfold angle_mul, angle_div.
  set (x := get_angle z : R) in *.
  destruct (get_angle_spec (k * x)) as [[G0 G1] G].
  assert (Hx : z = angleR x) by (symmetry; now apply angle_of_get).
  rewrite Hx. cbn [nmul ndiv reals]. set (g := get_angle (angleR (k * x))) in *.
  assert (Eg : g / k * k = g) by (field; lra).
  assert (H2 : 0 <= g / k < 2 * PI).
  { split; [apply Rmult_le_pos; [lra|]; left; apply Rinv_0_lt_compat; lra|].
    apply Rmult_lt_reg_r with k; [lra|]. rewrite Eg. nra. }
  split.
  - intros E. assert (g / k = x).
    { rewrite <- (get_angle_canonical (g / k)), E by exact H2. now apply get_angle_canonical. }
    nra.
  - intros Hkx. assert (g = k * x) as ->.
    { unfold g. apply get_angle_canonical. split; [apply Rmult_le_pos; lra|lra]. }
    f_equal. field. lra.
Qed.

(** ** States built from real numbers *)
Definition mk_ctrv (x y v psi w : R) : ctrv_state reals := @CtrvState reals x y v (angleR psi) w.
Definition mk_ctra (x y v psi w a : R) : ctra_state reals := @CtraState reals x y v (angleR psi) w a.

Lemma ctrv_add_hom x y v p w x' y' v' p' w' :
  ctrv_add (mk_ctrv x y v p w) (mk_ctrv x' y' v' p' w') = mk_ctrv (x + x') (y + y') (v + v') (p + p') (w + w').
Proof. unfold ctrv_add, mk_ctrv. cbn [v_x v_y v_vel v_yaw v_rate]. now rewrite angle_add_hom. Qed.
Lemma ctrv_sub_hom x y v p w x' y' v' p' w' :
  ctrv_sub (mk_ctrv x y v p w) (mk_ctrv x' y' v' p' w') = mk_ctrv (x - x') (y - y') (v - v') (p - p') (w - w').
Proof. unfold ctrv_sub, mk_ctrv. cbn [v_x v_y v_vel v_yaw v_rate]. now rewrite angle_sub_hom. Qed.
Lemma ctra_add_hom x y v p w a x' y' v' p' w' a' :
  ctra_add (mk_ctra x y v p w a) (mk_ctra x' y' v' p' w' a') =
  mk_ctra (x + x') (y + y') (v + v') (p + p') (w + w') (a + a').
Proof. unfold ctra_add, mk_ctra. cbn [a_x a_y a_vel a_yaw a_rate a_acc]. now rewrite angle_add_hom. Qed.
Lemma ctra_sub_hom x y v p w a x' y' v' p' w' a' :
  ctra_sub (mk_ctra x y v p w a) (mk_ctra x' y' v' p' w' a') =
  mk_ctra (x - x') (y - y') (v - v') (p - p') (w - w') (a - a').
Proof. unfold ctra_sub, mk_ctra. cbn [a_x a_y a_vel a_yaw a_rate a_acc]. now rewrite angle_sub_hom. Qed.
Lemma ctrv_scale_range x y v p w k : 0 <= p < 2 * PI ->
  ctrv_scale (mk_ctrv x y v p w) (k : num reals) = mk_ctrv (x * k) (y * k) (v * k) (p * k) (w * k).
Proof.
  intros H. unfold ctrv_scale, mk_ctrv. cbn [v_x v_y v_vel v_yaw v_rate].
  rewrite angle_mul_range by exact H. now rewrite (Rmult_comm k p).
Qed.
Lemma ctrv_scale_int x y v p w (n : Z) :
  ctrv_scale (mk_ctrv x y v p w) (IZR n : num reals) =
  mk_ctrv (x * IZR n) (y * IZR n) (v * IZR n) (p * IZR n) (w * IZR n).
Proof.
  unfold ctrv_scale, mk_ctrv. cbn [v_x v_y v_vel v_yaw v_rate].
  rewrite angle_mul_int. now rewrite (Rmult_comm (IZR n) p).
Qed.

(** Averaging two states by halving each of them. *)
Lemma average_opposite x y v w eps : 0 < eps < PI ->
  ctrv_add (ctrv_scale (mk_ctrv x y v eps w) (/ 2 : num reals)) (ctrv_scale (mk_ctrv x y v (- eps) w) (/ 2 : num reals))
  = mk_ctrv x y v PI w.
Proof.
  intros He. pose proof PI_RGT_0 as HP.
  replace (mk_ctrv x y v (- eps) w) with (mk_ctrv x y v (2 * PI - eps) w).
  - rewrite !ctrv_scale_range by lra. rewrite ctrv_add_hom. f_equal; lra.
  - unfold mk_ctrv. f_equal. apply angle_of_turn. exists 1%Z. lra.
Qed.
Lemma scale_not_linear :
  exists (a b : ctrv_state reals) (k : R), on_circle (v_yaw a) /\ on_circle (v_yaw b) /\
    ctrv_scale (ctrv_add a b) (k : num reals) <>
    ctrv_add (ctrv_scale a (k : num reals)) (ctrv_scale b (k : num reals)).
Proof.
  pose proof PI_RGT_0 as HP.
  exists (mk_ctrv 0 0 0 PI 0), (mk_ctrv 0 0 0 PI 0), (/ 2).
  split; [apply circle_of|]. split; [apply circle_of|].
  rewrite ctrv_add_hom.
  replace (mk_ctrv (0 + 0) (0 + 0) (0 + 0) (PI + PI) (0 + 0)) with (mk_ctrv 0 0 0 0 0).
  - rewrite !ctrv_scale_range by lra. rewrite ctrv_add_hom. intros E.
    apply (f_equal (fun s => get_angle (v_yaw s))) in E. unfold mk_ctrv in E. cbn [v_yaw] in E.
    rewrite !get_angle_canonical in E by lra. lra.
  - unfold mk_ctrv. replace (0 + 0) with 0 by lra. f_equal. apply angle_of_turn. exists (-1)%Z. lra.
Qed.

(** ** Equality *)
Lemma dbl_min_pos : 0 < dbl_min.
Proof. unfold dbl_min. apply Rinv_0_lt_compat. apply pow_lt. lra. Qed.
Lemma dbl_eps_pos : 0 < dbl_eps.
Proof. unfold dbl_eps. apply Rinv_0_lt_compat. apply pow_lt. lra. Qed.

Lemma units_eqb_iff x y : units_eqb x y = true <->
  Rabs (x - y) < dbl_eps * Rabs (x + y) \/ Rabs (x - y) < dbl_min.
Proof.
  unfold units_eqb. destruct (Rlt_dec _ (dbl_eps * _)), (Rlt_dec _ dbl_min); cbn; intuition; discriminate.
Qed.
Lemma units_eqb_refl x : units_eqb x x = true.
Proof. apply units_eqb_iff. right. rewrite Rminus_diag_eq, Rabs_R0 by reflexivity. apply dbl_min_pos. Qed.
Lemma units_eqb_sym x y : units_eqb x y = units_eqb y x.
Proof. unfold units_eqb. now rewrite (Rabs_minus_sym x y), (Rplus_comm x y). Qed.

Lemma angle_eqb_iff (x y : rangle) : angle_eqb reals_eq x y = true <-> x = y.
Proof.
  unfold angle_eqb, reals_eq. cbn. destruct x as [a b], y as [c d]. cbn.
  destruct (Req_EM_T a c) as [->|N], (Req_EM_T b d) as [->|M]; cbn; split; try congruence.
Qed.

Lemma ctrv_eqb_iff (s t : ctrv_state reals) :
  ctrv_eqb reals_eq s t = true <->
  v_yaw s = v_yaw t /\
  forall f, List.In f [@v_x reals; @v_y reals; @v_vel reals; @v_rate reals]%list ->
    units_eqb (f s) (f t) = true.
Proof.
  unfold ctrv_eqb. rewrite !andb_true_iff, angle_eqb_iff. cbn [neq_units reals_eq List.In].
  split.
  - intros [[[[? ?] ?] ?] ?]. split; [assumption|]. intros f [<-|[<-|[<-|[<-|[]]]]]; assumption.
  - intros [? H]. repeat split; try assumption; apply H; auto.
Qed.
Lemma ctra_eqb_iff (s t : ctra_state reals) :
  ctra_eqb reals_eq s t = true <->
  a_yaw s = a_yaw t /\
  forall f, List.In f [@a_x reals; @a_y reals; @a_vel reals; @a_rate reals; @a_acc reals]%list ->
    units_eqb (f s) (f t) = true.
Proof.
  unfold ctra_eqb. rewrite !andb_true_iff, angle_eqb_iff. cbn [neq_units reals_eq List.In].
  split.
  - intros [[[[[? ?] ?] ?] ?] ?]. split; [assumption|]. intros f [<-|[<-|[<-|[<-|[<-|[]]]]]]; assumption.
  - intros [? H]. repeat split; try assumption; apply H; auto 6.
Qed.
Lemma noise_eqb_iff (s t : process_noise reals) :
  noise_eqb reals_eq s t = true <-> units_eqb (n_lin s) (n_lin t) = true /\ units_eqb (n_ang s) (n_ang t) = true.
Proof. unfold noise_eqb. apply andb_true_iff. Qed.

(** Not transitive, and true for different numbers: 1, 1 + 2u, 1 + 4u with u = 2^-52. *)
Lemma eps_value : dbl_eps = / 4503599627370496.
Proof. unfold dbl_eps. f_equal. lra. Qed.
Lemma min_small : dbl_min < / 4503599627370496.
Proof.
  unfold dbl_min. replace 1022%nat with (52 + 970)%nat by reflexivity. rewrite pow_add.
  assert (1 <= 2 ^ 970) by (apply pow_R1_Rle; lra).
  assert (1 < 2 ^ 970) by (apply Rlt_pow_R1; [lra|lia]).
  replace (2 ^ 52) with 4503599627370496 by lra.
  apply Rinv_lt_contravar; lra.
Qed.
Lemma near_pair x : 1 <= x -> units_eqb x (x + 2 * dbl_eps) = true.
Proof.
  intros H. apply units_eqb_iff. left. pose proof dbl_eps_pos.
  rewrite Rabs_left, Rabs_right by lra. nra.
Qed.
Lemma far_pair : units_eqb 1 (1 + 4 * dbl_eps) = false.
Proof.
  apply not_true_is_false. rewrite units_eqb_iff. pose proof min_small. pose proof eps_value as E.
  rewrite Rabs_left, Rabs_right by lra. intros [H1|H1]; nra.
Qed.

Lemma ctrv_eqb_x x x' y v p w :
  ctrv_eqb reals_eq (mk_ctrv x y v p w) (mk_ctrv x' y v p w) = units_eqb x x'.
Proof.
  destruct (units_eqb x x') eqn:E.
  - apply ctrv_eqb_iff. split; [reflexivity|].
    intros f [<-|[<-|[<-|[<-|[]]]]]; cbn; try apply units_eqb_refl. exact E.
  - apply not_true_is_false. intros H. apply ctrv_eqb_iff in H as [_ H].
    specialize (H (@v_x reals) (or_introl eq_refl)). cbn in H. congruence.
Qed.

Lemma not_transitive :
  exists a b c : ctrv_state reals,
    ctrv_eqb reals_eq a b = true /\ ctrv_eqb reals_eq b c = true /\ ctrv_eqb reals_eq a c = false.
Proof.
  pose proof dbl_eps_pos.
  exists (mk_ctrv 1 0 0 0 0), (mk_ctrv (1 + 2 * dbl_eps) 0 0 0 0), (mk_ctrv (1 + 4 * dbl_eps) 0 0 0 0).
  rewrite !ctrv_eqb_x. split; [apply near_pair; lra|]. split; [|apply far_pair].
  replace (1 + 4 * dbl_eps) with (1 + 2 * dbl_eps + 2 * dbl_eps) by lra. apply near_pair. lra.
Qed.
Lemma not_exact :
  exists a b : ctrv_state reals, ctrv_eqb reals_eq a b = true /\ a <> b.
Proof.
  exists (mk_ctrv 1 0 0 0 0), (mk_ctrv (1 + 2 * dbl_eps) 0 0 0 0).
  rewrite ctrv_eqb_x. split; [apply near_pair; lra|]. intros E. injection E. pose proof dbl_eps_pos. lra.
Qed.
(** Equal entries are close. *)
Lemma units_close x y : units_eqb x y = true ->
  Rabs (x - y) < dbl_min \/ Rabs (x - y) < dbl_eps * (Rabs x + Rabs y).
Proof.
  intros H. apply units_eqb_iff in H as [H|H]; [right|now left].
  eapply Rlt_le_trans; [exact H|]. apply Rmult_le_compat_l; [left; apply dbl_eps_pos|apply Rabs_triang].
Qed.

(** IEEE double *)
Section Double.
Context (sine cosine : f64 -> f64) (phase : f64 -> f64 -> f64).
Notation D := (doubles sine cosine phase).
Notation DE := (doubles_eq sine cosine phase).

(** A finite value equals itself, infinities and NaN do not. *)
Lemma self_equal (x : f64) : units_eqb64 x x = is_finite x.
Proof.
  unfold units_eqb64. destruct x as [s|s| |s m e H]; try (cbn; destruct s; reflexivity); try reflexivity.
  set (x := B754_finite s m e H).
  destruct (sub_self sine cosine phase x eq_refl) as [F E].
  assert (E1 : is_finite (Babs (Bminus mode_NE x x)) = true) by (rewrite is_finite_Babs; exact F).
  assert (E2 : B2R (Babs (Bminus mode_NE x x)) = 0) by (rewrite B2R_Babs, E; apply Rabs_R0).
  destruct dbl_min64_value as [M1 M2].
  rewrite (ltb64 _ dbl_min64 E1 M2), E2, M1.
  rewrite Rlt_bool_true by apply bpow_gt_0. apply orb_true_r.
Qed.
Lemma plain_self_equal (z : f64) : Beqb z z = negb (is_nan z).
Proof.
  unfold Beqb. destruct z as [b|b| |b m e H]; try (destruct b; reflexivity); try reflexivity.
  unfold SpecFloat.SFeqb. cbn. destruct b; rewrite Z.compare_refl, Pcompare_refl; reflexivity.
Qed.
Lemma ctrv_self_equal (s : ctrv_state D) :
  ctrv_eqb DE s s =
  is_finite (v_x s : f64) && is_finite (v_y s : f64) && is_finite (v_vel s : f64) &&
  (negb (is_nan (re (v_yaw s) : f64)) && negb (is_nan (im (v_yaw s) : f64))) && is_finite (v_rate s : f64).
Proof.
  unfold ctrv_eqb, angle_eqb. cbn [neq_units neq_plain doubles_eq]. now rewrite !self_equal, !plain_self_equal.
Qed.
Lemma ctra_self_equal (s : ctra_state D) :
  ctra_eqb DE s s =
  is_finite (a_x s : f64) && is_finite (a_y s : f64) && is_finite (a_vel s : f64) &&
  (negb (is_nan (re (a_yaw s) : f64)) && negb (is_nan (im (a_yaw s) : f64))) &&
  is_finite (a_rate s : f64) && is_finite (a_acc s : f64).
Proof.
  unfold ctra_eqb, angle_eqb. cbn [neq_units neq_plain doubles_eq]. now rewrite !self_equal, !plain_self_equal.
Qed.
End Double.

(** Symmetry *)
Lemma angle_eqb_sym (x y : rangle) : angle_eqb reals_eq x y = angle_eqb reals_eq y x.
Proof.
  destruct (angle_eqb reals_eq y x) eqn:E; [apply angle_eqb_iff in E as ->; now apply angle_eqb_iff|].
  apply not_true_is_false. intros H. apply angle_eqb_iff in H as ->.
  assert (T : angle_eqb reals_eq y y = true) by now apply angle_eqb_iff. congruence.
Qed.
Lemma ctrv_eqb_sym (s t : ctrv_state reals) : ctrv_eqb reals_eq s t = ctrv_eqb reals_eq t s.
Proof.
  unfold ctrv_eqb. rewrite angle_eqb_sym. cbn [neq_units reals_eq].
  now rewrite (units_eqb_sym (v_x s)), (units_eqb_sym (v_y s)), (units_eqb_sym (v_vel s)), (units_eqb_sym (v_rate s)).
Qed.
Lemma ctra_eqb_sym (s t : ctra_state reals) : ctra_eqb reals_eq s t = ctra_eqb reals_eq t s.
Proof.
  unfold ctra_eqb. rewrite angle_eqb_sym. cbn [neq_units reals_eq].
  now rewrite (units_eqb_sym (a_x s)), (units_eqb_sym (a_y s)), (units_eqb_sym (a_vel s)),
    (units_eqb_sym (a_rate s)), (units_eqb_sym (a_acc s)).
Qed.
Lemma noise_eqb_laws (s t : process_noise reals) :
  noise_eqb reals_eq s s = true /\ noise_eqb reals_eq s t = noise_eqb reals_eq t s.
Proof.
  split.
  - apply noise_eqb_iff. split; apply units_eqb_refl.
  - unfold noise_eqb. cbn [neq_units reals_eq].
    now rewrite (units_eqb_sym (n_lin s)), (units_eqb_sym (n_ang s)).
Qed.
