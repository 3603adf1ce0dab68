(** Fusion in another coordinate frame: property C91, over exact arithmetic.
    The change of coordinates is spelled out in FrameSpec.v. *)
From Coq Require Import Reals Lra.
From mathcomp Require Import all_ssreflect all_algebra.
From Verif Require Import Base Uuid DynObj RealField PosDef Motion RealArith MotionThms StateVec StateVecThms
  CovInt CovIntThms FusionVisitor FusionThms FrameSpec FrameThms.
Import Order.Theory GRing.Theory Num.Theory.
Local Open Scope ring_scope.

(** C91: the weight does not depend on the coordinates, units included ... *)
Theorem C91_weight (F : realFieldType) n (S A B : 'M[F]_n) : S \in unitmx ->
  generate_weight (S^T *m A *m S) (S^T *m B *m S) = generate_weight A B.
Proof. exact: weight_congr. Qed.
(** ... and in the coordinates [T m + b] the fused mean and covariance are the images
    of those in the original ones, as long as the subtraction of a full turn
    applies in neither. *)
Theorem C91_coordinates (F : realFieldType) n (T A B : 'M[F]_n) (b m1 m2 : 'cV[F]_n) (w : F) :
  T \in unitmx -> spd A -> spd B -> 0 <= w <= 1 ->
  (forall m (i : 'I_n), m = m1 \/ m = m2 -> (i : nat) = 3%N -> m i 0 <= pi11 F /\ (T *m m + b) i 0 <= pi11 F) ->
  let S := invmx T in
  let fused := compute_covariance_intersection m1 A m2 B w in
  compute_covariance_intersection (T *m m1 + b) (S^T *m A *m S) (T *m m2 + b) (S^T *m B *m S) w =
  (T *m fused.1 + b, T *m fused.2 *m T^T).
Proof.
move=> uT sA sB w01 H; apply: fused_affine => //; apply: wrap_heading_below => i Hi.
- by case: (H m1 i (or_introl erefl) Hi).
- by case: (H m2 i (or_intror erefl) Hi).
- by case: (H m1 i (or_introl erefl) Hi).
- by case: (H m2 i (or_intror erefl) Hi).
Qed.
Print Assumptions C91_weight.
Print Assumptions C91_coordinates.

(** Hence for objects: rotate and shift the map, and the fused object moves along. *)
Theorem C91_ctrv (phi dx dy : R) (t d : ctrv_obj) : spd (o_cov t) -> spd (o_cov d) ->
  (forall o, o = t \/ o = d -> low_heading (get_angle (v_yaw (o_state o))) /\
     low_heading (get_angle (v_yaw (o_state o)) + phi)%coqR) ->
  let moved := image (turn_mx 5 phi) (ctrv_turned phi dx dy) in
  covariance_intersection_visitor (Ctrv (moved t)) (Ctrv (moved d)) = Ok (Ctrv (moved (ctrv_fuse t d))) /\
  covariance_intersection_visitor (Ctrv t) (Ctrv d) = Ok (Ctrv (ctrv_fuse t d)).
Proof. by move=> st sd H /=; rewrite ctrv_fuse_turned. Qed.
Theorem C91_ctra (phi dx dy : R) (t d : ctra_obj) : spd (o_cov t) -> spd (o_cov d) ->
  (forall o, o = t \/ o = d -> low_heading (get_angle (a_yaw (o_state o))) /\
     low_heading (get_angle (a_yaw (o_state o)) + phi)%coqR) ->
  let moved := image (turn_mx 6 phi) (ctra_turned phi dx dy) in
  covariance_intersection_visitor (Ctra (moved t)) (Ctra (moved d)) = Ok (Ctra (moved (ctra_fuse t d))) /\
  covariance_intersection_visitor (Ctra t) (Ctra d) = Ok (Ctra (ctra_fuse t d)).
Proof. by move=> st sd H /=; rewrite ctra_fuse_turned. Qed.
Print Assumptions C91_ctrv.
Print Assumptions C91_ctra.

(** Not so in general: objects with nearly equal headings and equal covariances are
    fused to something else after some rotation of the map. *)
Theorem C91_seam_refuted : exists (t d : ctrv_obj) (phi : R), spd (o_cov t) /\ o_cov d = o_cov t /\
  on_circle (v_yaw (o_state t)) /\ on_circle (v_yaw (o_state d)) /\
  (Rabs (get_angle (v_yaw (o_state t)) - get_angle (v_yaw (o_state d))) < / 10)%coqR /\
  let moved := image (turn_mx 5 phi) (ctrv_turned phi 0 0) in
  ctrv_fuse (moved t) (moved d) <> moved (ctrv_fuse t d).
Proof. exact: turned_seam. Qed.
Print Assumptions C91_seam_refuted.

(** Two objects with headings 0 and 1, turned by 1. *)
Example C91_case (o : dyn_obj R ctrvR 'M[R]_5) :
  let s (p : R) := CtrvState (A := reals) 1 2 10 (angleR p) 0 in
  let t := set_state_covariance (set_state o (s 0%coqR)) 1%:M in
  let d := set_state_covariance (set_state o (s 1%coqR)) (2%:R)%:M in
  spd (o_cov t) /\ spd (o_cov d) /\
  (forall x, x = t \/ x = d -> low_heading (get_angle (v_yaw (o_state x))) /\
     low_heading (get_angle (v_yaw (o_state x)) + 1)%coqR).
Proof.
move=> s t d; have := PI2_1 => P.
have G p : (0 <= p <= 1)%coqR -> get_angle (angleR p) = p.
  by move=> H; apply: get_angle_canonical; lra.
split; last split.
- by rewrite /t /=; apply: spd_scalar; rewrite ltr01.
- by rewrite /d /=; apply: spd_scalar; rewrite ltr0n.
- by move=> x [->|->] /=; rewrite G; rewrite /low_heading; lra.
Qed.
