(** When the sigma points of a turning vehicle are calm, in terms of its state and of its
    standard deviations. *)
From Coq Require Import ZArith Reals Lra Lia Bool List Arith Psatz.
From Flocq Require Import Core IEEE754.BinarySingleNaN.
From Verif Require Import Float Motion RealArith DoubleThms PiDouble TrigSpec AngleAccuracy MotionAccuracy SigmaAccuracy PredictSpec.
Import ListNotations.
Local Open Scope R_scope.

Lemma sin_lip x y : Rabs (sin x - sin y) <= Rabs (x - y).
Proof. apply wave_sin. Qed.
Lemma cos_lip x y : Rabs (cos x - cos y) <= Rabs (x - y).
Proof. apply wave_cos. Qed.
(** A chord is not longer than its arc. *)
Lemma arc_chord (f : R -> R) v w psi t : (forall x y, Rabs (f x - f y) <= Rabs (x - y)) -> w <> 0 ->
  Rabs (v / w * (f (psi + w * t) - f psi)) <= Rabs (v * t).
Proof.
  intros L W. unfold Rdiv. rewrite !Rabs_mult, Rabs_inv, Rmult_assoc. apply Rmult_le_compat_l; [apply Rabs_pos|].
  assert (0 < Rabs w) by now apply Rabs_pos_lt.
  apply Rmult_le_reg_l with (Rabs w); [assumption|]. rewrite <- Rmult_assoc, Rinv_r, Rmult_1_l by lra.
  eapply Rle_trans; [apply L|]. replace (psi + w * t - psi) with (w * t) by ring. rewrite Rabs_mult. lra.
Qed.

(** A heading near h, away from the constant *)
Lemma signed_near (a h d : R) : 0 <= a < 2 * PI -> turn_close d a h -> 0 <= d -> Rabs h + d + bpow radix2 (-18) <= 3.14159265359 ->
  bpow radix2 (-20) <= Rabs (a - 3.14159265359) /\ Rabs (signed a - h) <= d + bpow radix2 (-40).
Proof.
  intros Ha [k Hk] Hd Hh. pose proof pi_eighteen as P.
  change (bpow radix2 (-18)) with (/ 262144) in Hh. change (bpow radix2 (-20)) with (/ 1048576).
  change (bpow radix2 (-40)) with (/ 1099511627776).
  assert (Hh' : - (3.14159265359 - / 262144 - d) <= h <= 3.14159265359 - / 262144 - d) by (apply Rabs_le_inv; lra).
  apply Rabs_le_inv in Hk.
  assert (K : (-1 < IZR k) /\ (IZR k < 2)) by (split; nra). destruct K as [K1 K2]. apply lt_IZR in K1, K2.
  assert (C : k = 0%Z \/ k = 1%Z) by lia. unfold signed. destruct C as [-> | ->].
  - destruct (Rlt_dec 3.14159265359 a); [lra|]. split; [rewrite Rabs_left1 by lra; lra|apply Rabs_le; lra].
  - destruct (Rlt_dec 3.14159265359 a); [|lra]. split; [rewrite Rabs_pos_eq by lra; lra|apply Rabs_le; lra].
Qed.

Section Steady.
Variables (e0 : ctrv_state reals) (t h : R) (dev : nat -> R) (w0 : R).
Notation dx := (dev 0%nat). Notation dy := (dev 1%nat). Notation dv := (dev 2%nat).
Notation dpsi := (dev 3%nat). Notation dw := (dev 4%nat).
Notation t_size := (extent e0 t h dev). Notation t_center := (center e0 h). Notation t_radius := (spread e0 t dev).
Notation reach := (reach e0 t dev). Notation radius := (radius e0 dev w0).
Hypothesis Hd : 0 <= dx /\ 0 <= dy /\ 0 <= dv /\ 0 <= dpsi /\ 0 <= dw.
Hypothesis TU : steady e0 t h dev w0.

Lemma reach_pos : 0 <= reach.
Proof. unfold PredictSpec.reach. apply Rmult_le_pos; [pose proof (Rabs_pos (v_vel e0 : R)); lra|apply Rabs_pos]. Qed.
Lemma radius_pos : 0 <= radius.
Proof.
  pose proof TU as [W _ _ _ _ _ _]. pose proof (bpow_gt_0 radix2 (-1022)). pose proof (Rabs_pos (v_vel e0 : R)).
  unfold PredictSpec.radius. apply Rmult_le_pos; [lra|]. apply Rlt_le, Rinv_0_lt_compat. lra.
Qed.
Lemma steady_frame : frame t_size t_center t_radius.
Proof.
  destruct Hd as (D0 & D1 & D2 & D3 & D4). pose proof TU as [Slow Turn Hh Hs Hx Hy Hsize]. pose proof (Rabs_pos t) as T0.
  pose proof reach_pos as R0.
  assert (W0 : 0 <= dw * Rabs t) by (apply Rmult_le_pos; lra).
  pose proof (bpow_gt_0 radix2 (-40)) as B40.
  constructor; [exact Hsize|cbn; lra|].
  intros [|[|[|[|[|j]]]]] Hj; [| | | | |lia]; cbn [extent center spread]; try (split; lra).
  split; [lra|]. change (bpow radix2 (-40)) with (/ 1099511627776) in *. change (bpow radix2 (-18)) with (/ 262144) in Hs. lra.
Qed.

Lemma steady_way (e : ctrv_state reals) : Rabs (v_vel e - v_vel e0) <= dv -> straight_or_turning w0 e ->
  way e t <= reach + radius /\ Rabs (v_vel e * t) <= reach.
Proof.
  intros Ev Sp. destruct Hd as (D0 & D1 & D2 & D3 & D4). pose proof TU as [Slow _ _ _ _ _ _].
  pose proof reach_pos as R0. pose proof radius_pos as R1.
  assert (Bv : Rabs (v_vel e : R) <= Rabs (v_vel e0 : R) + dv).
  { unfold Rabs in *. destruct (Rcase_abs (v_vel e - v_vel e0)), (Rcase_abs (v_vel e : R)), (Rcase_abs (v_vel e0 : R)); lra. }
  assert (A1 : Rabs (v_vel e * t) <= reach) by (rewrite Rabs_mult; apply Rmult_le_compat_r; [apply Rabs_pos|exact Bv]).
  split; [|exact A1]. pose proof (bpow_gt_0 radix2 (-1022)) as Pm. unfold way.
  destruct (Rlt_dec (Rabs (v_rate e : R)) (bpow radix2 (-1022))) as [N|N]; [lra|]. destruct Sp as [Sp|Sp]; [lra|].
  assert (A2 : Rabs (v_vel e / v_rate e) <= radius).
  { unfold PredictSpec.radius, Rdiv. rewrite Rabs_mult, Rabs_inv.
    apply Rmult_le_compat; [apply Rabs_pos| |exact Bv|apply Rinv_le_contravar; lra]. apply Rlt_le, Rinv_0_lt_compat. lra. }
  lra.
Qed.

Lemma steady_calm (e : ctrv_state reals) : Rabs (v_x e - v_x e0) <= dx -> Rabs (v_y e - v_y e0) <= dy ->
  Rabs (v_vel e - v_vel e0) <= dv -> Rabs (v_rate e - v_rate e0) <= dw ->
  turn_close dpsi (get_angle (v_yaw e)) (get_angle (v_yaw e0)) -> straight_or_turning w0 e -> calm t_size t_center t_radius t e.
Proof.
  intros Ex Ey Ev Ew Ea Sp. destruct Hd as (D0 & D1 & D2 & D3 & D4). pose proof TU as [Slow Turn Hh Hs Hx Hy Hsize]. pose proof (Rabs_pos t) as T0.
  assert (Tri : forall a b d, Rabs (a - b) <= d -> Rabs a <= Rabs b + d).
  { intros a b d H. unfold Rabs in *. destruct (Rcase_abs (a - b)), (Rcase_abs a), (Rcase_abs b); lra. }
  pose proof (Tri _ _ _ Ex) as Bx. pose proof (Tri _ _ _ Ey) as By. pose proof (Tri _ _ _ Ew) as Bw. clear Tri.
  destruct (steady_way e Ev Sp) as [Way A1].
  set (w := v_rate e : R) in *. set (v := v_vel e : R) in *.
  pose proof reach_pos as R0. pose proof radius_pos as R1.
  assert (Wt : Rabs (w * t) <= 7).
  { rewrite Rabs_mult. eapply Rle_trans; [|exact Turn]. apply Rmult_le_compat_r; [exact T0|exact Bw]. }
  assert (XY : Rabs (v_x (ctrv_next e t) - v_x e) <= reach /\ Rabs (v_y (ctrv_next e t) - v_y e) <= reach).
  { destruct (Rlt_dec (Rabs w) (bpow radix2 (-1022))) as [N|N].
    - destruct (next_line e t) as (X & Y & _); [fold w; rewrite dbl_min_bpow; exact N|]. rewrite X, Y. fold v.
      assert (Tr : forall c, Rabs c <= 1 -> Rabs (v * t * c) <= reach).
      { intros c Hc. rewrite Rabs_mult. rewrite <- (Rmult_1_r reach). apply Rmult_le_compat; auto using Rabs_pos. }
      split; match goal with |- Rabs ?z <= _ => ring_simplify z end.
      + eapply Rle_trans; [|apply (Tr (cos (get_angle (v_yaw e))))]; [right; f_equal; ring|]. apply Rabs_le. apply COS_bound.
      + eapply Rle_trans; [|apply (Tr (sin (get_angle (v_yaw e))))]; [right; f_equal; ring|]. apply Rabs_le. apply SIN_bound.
    - pose proof (bpow_gt_0 radix2 (-1022)) as Pm.
      assert (W0 : w <> 0). { intros Z. rewrite Z, Rabs_R0 in N. lra. }
      destruct (next_turn e t) as (X & Y & _); [fold w; rewrite dbl_min_bpow; lra|]. rewrite X, Y. fold v w. split.
      + pose proof (arc_chord sin v w (get_angle (v_yaw e)) t sin_lip W0) as C. eapply Rle_trans; [|exact A1].
        eapply Rle_trans; [|exact C]. right. f_equal. ring.
      + pose proof (arc_chord cos v w (get_angle (v_yaw e)) t cos_lip W0) as C. eapply Rle_trans; [|exact A1].
        eapply Rle_trans; [|exact C]. right. rewrite <- Rabs_Ropp. f_equal. ring. }
  destruct XY as [X Y].
  assert (Yaw : turn_close (dpsi + dw * Rabs t) (get_angle (v_yaw (ctrv_next e t))) h).
  { apply turn_close_sym. eapply turn_close_same; [|apply next_yaw]. apply turn_close_sym.
    eapply turn_close_same; [|exact Hh]. apply turn_close_add; [exact Ea|].
    exists 0%Z. fold w. replace (w * t - ((v_rate e0 : R) * t + 0 * (2 * PI))) with ((w - v_rate e0) * t) by ring.
    rewrite Rabs_mult. apply Rmult_le_compat_r; assumption. }
  assert (Wd : 0 <= dpsi + dw * Rabs t) by (assert (0 <= dw * Rabs t) by (apply Rmult_le_pos; lra); lra).
  assert (Range : 0 <= get_angle (v_yaw (ctrv_next e t)) < 2 * PI).
  { assert (E : v_yaw (ctrv_next e t) = angle_add (v_yaw e) (angleR ((v_rate e : R) * t))).
    { unfold ctrv_next. cbn [nnear0 reals]. destruct (Rlt_dec _ _); reflexivity. }
    rewrite E. apply get_angle_spec. }
  destruct (signed_near _ _ _ Range Yaw Wd Hs) as [Seam Near].
  change (bpow radix2 17) with 131072 in Hx, Hy.
  constructor.
  - change (bpow radix2 18) with 262144. unfold extent in *. cbn [center spread] in *. pose proof (Rabs_pos (v_x e0 : R)). lra.
  - change (bpow radix2 18) with 262144. unfold extent in *. cbn [center spread] in *. pose proof (Rabs_pos (v_y e0 : R)). lra.
  - exact Wt.
  - exact Seam.
  - assert (VE : v_vel (ctrv_next e t) = v_vel e /\ v_rate (ctrv_next e t) = v_rate e).
    { unfold ctrv_next. destruct (nnear0 reals (v_rate e)); split; reflexivity. }
    destruct VE as [VE WE].
    intros [|[|[|[|[|j]]]]] Hj; [| | | | |lia]; cbn [component center spread].
    + match goal with |- Rabs ?z <= _ => replace z with ((v_x e - v_x e0) + (v_x (ctrv_next e t) - v_x e)) by ring end.
      eapply Rle_trans; [apply Rabs_triang|]. now apply Rplus_le_compat.
    + match goal with |- Rabs ?z <= _ => replace z with ((v_y e - v_y e0) + (v_y (ctrv_next e t) - v_y e)) by ring end.
      eapply Rle_trans; [apply Rabs_triang|]. now apply Rplus_le_compat.
    + rewrite VE. exact Ev.
    + exact Near.
    + rewrite WE. exact Ew.
Qed.
End Steady.
