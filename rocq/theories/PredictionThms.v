(** Proofs about propagation, prediction and the augmented state: the forms used
    in Properties_Prediction.v. *)
From Coq Require Import Reals Lra ZArith.
From mathcomp Require Import all_ssreflect all_algebra ring.
From Verif Require Import Base Uuid DynObj RealField PosDef Motion RealArith MotionThms StateVec StateVecThms
  CovInt CovIntThms PiBounds FusionThms Unscented UnscentedThms UnscentedSeam UnscentedShift Propagation.
Set Implicit Arguments.
Unset Strict Implicit.
Unset Printing Implicit Defensive.
Import Order.Theory GRing.Theory Num.Theory.
Local Open Scope ring_scope.

Lemma lambdaE n (alpha kappa : R) :
  (n%:R + generate_lambda n (alpha : R_realFieldType) kappa : R) = (alpha * alpha * (n%:R + kappa))%coqR.
Proof. by rewrite /generate_lambda addrC subrK. Qed.

Lemma sigma_shape n (ST : state_type n) (s : st_car ST) (P : 'M[R]_n) (alpha beta kappa : R) :
  spd (P : 'M[R_rcfType]_n) -> (0 < alpha * alpha * (n%:R + kappa))%coqR ->
  let points := (generate_sigma_points_and_weights s P alpha beta kappa).1 in
  size points = (2 * n)%N /\
  exists L : 'M[R]_n, L *m L^T = (alpha * alpha * (n%:R + kappa))%coqR *: P /\
    forall (d : st_car ST) (c : 'I_n),
      nth d points (2 * c)%N = st_add ST s (st_from ST (col c L)) /\
      nth d points (2 * c).+1 = st_sub ST s (st_from ST (col c L)).
Proof.
move=> sP q0 points; split; first exact: sigma_size.
exists (spread P (generate_lambda n (alpha : R_realFieldType) kappa)); split.
  by rewrite spread_sq // ?lambdaE // RaddE lambdaE.
by move=> d c; exact: sigma_nth.
Qed.

Section Tamed.
Variables (n : nat) (ST : state_type n) (i3 : 'I_n) (circle : st_car ST -> Prop) (T : tame i3 circle).
Lemma recover_points s P (alpha beta kappa r : R) : spd (P : 'M[R_rcfType]_n) ->
  (0 < alpha * alpha * (n%:R + kappa))%coqR -> circle s ->
  let h := st_to ST s i3 0 in
  (0 <= r)%coqR -> (alpha * alpha * (n%:R + kappa) * P i3 i3 <= r * r)%coqR ->
  (r <= h)%coqR -> (h + r < 2 * PI)%coqR ->
  let '(points, (Wm, Wc)) := generate_sigma_points_and_weights s P alpha beta kappa in
  compute_unscented_transform
    (mean_and_sigma_points_to_matrix_xf (2 * n) s points : 'M[R_realFieldType]_(_, _)) Wm Wc = (st_to ST s, P).
Proof.
move=> sP q0 C h r0 Hr H1 H2; rewrite /generate_sigma_points_and_weights.
set lambda := generate_lambda _ _ _.
have l0 : (0 < n%:R + lambda)%coqR by rewrite RaddE lambdaE.
have rm : roomy i3 s P lambda r (h + r)%coqR.
  by rewrite /roomy RaddE lambdaE; split=> //; split=> //; split=> //; apply: Rle_refl.
have := recover_all T alpha beta sP l0 C rm H2.
by case: (generate_weights _ _ _ _) => Wm Wc.
Qed.
Lemma recover_others s P (alpha beta kappa : R) : spd (P : 'M[R_rcfType]_n) ->
  (0 < alpha * alpha * (n%:R + kappa))%coqR ->
  let '(points, (Wm, Wc)) := generate_sigma_points_and_weights s P alpha beta kappa in
  let out := compute_unscented_transform
    (mean_and_sigma_points_to_matrix_xf (2 * n) s points : 'M[R_realFieldType]_(_, _)) Wm Wc in
  (forall j : 'I_n, (j : nat) <> 3%N -> out.1 j 0 = st_to ST s j 0) /\
  (forall j k : 'I_n, (j : nat) <> 3%N -> (k : nat) <> 3%N -> out.2 j k = P j k).
Proof.
move=> sP q0; rewrite /generate_sigma_points_and_weights.
set lambda := generate_lambda _ _ _.
have l0 : (0 < n%:R + lambda)%coqR by rewrite RaddE lambdaE.
have := recover_rest T s alpha beta sP l0.
by case: (generate_weights _ _ _ _) => Wm Wc.
Qed.
End Tamed.

(** State types of any dimension without a heading *)
Lemma recover_linear n (ST : state_type n) s P (alpha beta kappa : R) : 
  (forall s v, st_to ST (st_add ST s (st_from ST v)) = st_to ST s + v) ->
  (forall s v, st_to ST (st_sub ST s (st_from ST v)) = st_to ST s - v) ->
  spd (P : 'M[R_rcfType]_n) -> (0 < alpha * alpha * (n%:R + kappa))%coqR ->
  let '(points, (Wm, Wc)) := generate_sigma_points_and_weights s P alpha beta kappa in
  compute_unscented_transform
    (mean_and_sigma_points_to_matrix_xf (2 * n) s points : 'M[R_realFieldType]_(_, _)) Wm Wc = (st_to ST s, P).
Proof.
move=> Ha Hs sP q0; rewrite /generate_sigma_points_and_weights.
set lambda := generate_lambda _ _ _; case EW: (generate_weights _ _ _ _) => [Wm Wc] /=.
have l0 : (0 < n%:R + lambda)%coqR by rewrite RaddE lambdaE.
have [|H1 H2] := @recovered n ST s P lambda id (st_to ST s) alpha beta predT sP l0 (fun j _ => erefl).
  by move=> j c _ v; rewrite Ha Hs !mxE.
rewrite map_id EW in H1 H2; rewrite [LHS]surjective_pairing; congr pair.
  by apply/colP => j; apply: H1.
by apply/matrixP => j k; apply: H2.
Qed.

Lemma six_R : (6%:R : R) = 6%coqR. Proof. by rewrite natR /=; lra. Qed.

Lemma ctrv_recover s P (alpha beta kappa r : R) :
  let i3 : 'I_5 := inord 3 in let h := get_angle (v_yaw s) in
  spd (P : 'M[R_rcfType]_5) -> on_circle (v_yaw s) ->
  (0 < alpha * alpha * (5 + kappa))%coqR -> (alpha * alpha * (5 + kappa) * P i3 i3 <= r * r)%coqR ->
  (0 <= r)%coqR -> (r <= h)%coqR -> (h + r < 2 * PI)%coqR ->
  let '(points, (Wm, Wc)) := @generate_sigma_points_and_weights 5 ctrv_type s P alpha beta kappa in
  compute_unscented_transform
    (@mean_and_sigma_points_to_matrix_xf 5 ctrv_type (2 * 5) s points : 'M[R_realFieldType]_(_, _)) Wm Wc = (ctrv_to_vec s, P).
Proof.
move=> i3 h sP C q0 Hr r0 H1 H2.
have E : ctrv_to_vec s i3 0 = h by rewrite /i3 mxE inordK.
apply: (@recover_points 5 ctrv_type _ _ ctrv_tame s P alpha beta kappa r) => //; by rewrite ?[st_to _ _ _ _]E ?five_R.
Qed.
Lemma ctra_recover s P (alpha beta kappa r : R) :
  let i3 : 'I_6 := inord 3 in let h := get_angle (a_yaw s) in
  spd (P : 'M[R_rcfType]_6) -> on_circle (a_yaw s) ->
  (0 < alpha * alpha * (6 + kappa))%coqR -> (alpha * alpha * (6 + kappa) * P i3 i3 <= r * r)%coqR ->
  (0 <= r)%coqR -> (r <= h)%coqR -> (h + r < 2 * PI)%coqR ->
  let '(points, (Wm, Wc)) := @generate_sigma_points_and_weights 6 ctra_type s P alpha beta kappa in
  compute_unscented_transform
    (@mean_and_sigma_points_to_matrix_xf 6 ctra_type (2 * 6) s points : 'M[R_realFieldType]_(_, _)) Wm Wc = (ctra_to_vec s, P).
Proof.
move=> i3 h sP C q0 Hr r0 H1 H2.
have E : ctra_to_vec s i3 0 = h by rewrite /i3 mxE inordK.
apply: (@recover_points 6 ctra_type _ _ ctra_tame s P alpha beta kappa r) => //; by rewrite ?[st_to _ _ _ _]E ?six_R.
Qed.

(** Zero seconds *)
Lemma ctrv_still s P (alpha beta kappa r : R) :
  let i3 : 'I_5 := inord 3 in let h := get_angle (v_yaw s) in
  spd (P : 'M[R_rcfType]_5) -> on_circle (v_yaw s) ->
  (0 < alpha * alpha * (5 + kappa))%coqR -> (alpha * alpha * (5 + kappa) * P i3 i3 <= r * r)%coqR ->
  (0 <= r)%coqR -> (r <= h)%coqR -> (h + r <= 3.14159265359)%coqR ->
  @unscented_kalman_filter_predict 5 ctrv_type s P 0%coqR alpha beta kappa = (s, P).
Proof.
move=> i3 h sP C q0 Hr r0 H1 H2.
have E : ctrv_to_vec s i3 0 = h by rewrite /i3 mxE inordK.
apply: (@predict_zero 5 ctrv_type _ _ ctrv_tame s P alpha beta kappa r) => //; first by rewrite five_R.
rewrite /roomy [st_to _ _ _ _]E RaddE lambdaE five_R pi11_R; split=> //.
Qed.
Lemma ctra_still s P (alpha beta kappa r : R) :
  let i3 : 'I_6 := inord 3 in let h := get_angle (a_yaw s) in
  spd (P : 'M[R_rcfType]_6) -> on_circle (a_yaw s) ->
  (0 < alpha * alpha * (6 + kappa))%coqR -> (alpha * alpha * (6 + kappa) * P i3 i3 <= r * r)%coqR ->
  (0 <= r)%coqR -> (r <= h)%coqR -> (h + r <= 3.14159265359)%coqR ->
  @unscented_kalman_filter_predict 6 ctra_type s P 0%coqR alpha beta kappa = (s, P).
Proof.
move=> i3 h sP C q0 Hr r0 H1 H2.
have E : ctra_to_vec s i3 0 = h by rewrite /i3 mxE inordK.
apply: (@predict_zero 6 ctra_type _ _ ctra_tame s P alpha beta kappa r) => //; first by rewrite six_R.
rewrite /roomy [st_to _ _ _ _]E RaddE lambdaE six_R pi11_R; split=> //.
Qed.

(** The augmented state *)
Lemma augmented_parts n (S : Type) (from : 'cV[R]_n -> S) (v : 'cV[R]_(n + 2)) :
  exists u : 'cV[R]_n, (forall j, u j 0 = v (lshift 2 j) 0) /\
  g_state (augmented_from_vec from v) = from u /\
  n_lin (g_noise (augmented_from_vec from v)) = v (rshift n 0) 0 /\
  n_ang (g_noise (augmented_from_vec from v)) = v (rshift n 1) 0.
Proof.
exists (usubmx v); split; first by move=> j; rewrite mxE.
split=> //=; rewrite /ent !mxE; split; congr (v (rshift n _) _); apply: val_inj; rewrite /= inordK //.
Qed.

(** Propagation *)
Lemma propagate_frame (S C : Type) (prop : S -> C -> R -> S * C) (o : dyn_obj R S C) (t : R) :
  let o' := propagate_to_time Rminus prop o t in
  o_timestamp o' = t /\ o_uuid o' = o_uuid o /\ o_class o' = o_class o /\
  (o_state o', o_cov o') = prop (o_state o) (o_cov o) (t - o_timestamp o)%coqR.
Proof. by rewrite /propagate_to_time; case: (prop _ _ _). Qed.

Lemma propagate_two (S C : Type) (prop : S -> C -> R -> S * C) (o : dyn_obj R S C) (t1 t2 : R) :
  (forall s c d1 d2, prop (prop s c d1).1 (prop s c d1).2 d2 = prop s c (d1 + d2)%coqR) ->
  propagate_to_time Rminus prop (propagate_to_time Rminus prop o t1) t2 = propagate_to_time Rminus prop o t2.
Proof.
move=> H; rewrite /propagate_to_time; have := H (o_state o) (o_cov o) (t1 - o_timestamp o)%coqR (t2 - t1)%coqR.
have -> : ((t1 - o_timestamp o) + (t2 - t1) = t2 - o_timestamp o)%coqR by lra.
by case: (prop (o_state o) _ _) => s c /=; case: (prop s c _) => s' c' /= <-.
Qed.

Lemma visitor_propagate n (ST : state_type n) (alpha beta kappa : R) (o : dyn_obj R (st_car ST) 'M[R]_n) (t : R) :
  ukf_prediction_visitor (ST := ST) alpha beta kappa o t =
  propagate_to_time Rminus (unscented_transform (ST := ST) alpha beta kappa) o t.
Proof. by []. Qed.
