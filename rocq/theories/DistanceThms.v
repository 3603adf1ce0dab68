(** Proofs about the two distances. *)
From Coq Require Import Reals Lra ZArith.
From mathcomp Require Import all_ssreflect all_algebra.
From Verif Require Import RealField PosDef Motion RealArith StateVec Distance PiBounds.
Set Implicit Arguments.
Unset Strict Implicit.
Unset Printing Implicit Defensive.
Import Order.Theory GRing.Theory Num.Theory.
Local Open Scope ring_scope.
Delimit Scope R_scope with coqR.

Lemma two_R : (2%:R : R) = 2%coqR.
Proof. by change ((1 + 1)%coqR = 2%coqR); lra. Qed.

(** ** Norms given by positive semidefinite matrices *)
Definition norm_of n (M : 'M[R]_n) (v : 'cV_n) : R := sqrt (qf M v).

Lemma qf_nonneg n (M : 'M[R]_n) v : psd M -> (0 <= qf M v)%coqR.
Proof. by move=> [_ P]; apply/RleP. Qed.

Lemma norm_ge0 n (M : 'M[R]_n) v : (0 <= norm_of M v)%coqR.
Proof. exact: sqrt_pos. Qed.

Lemma norm_opp n (M : 'M[R]_n) v : norm_of M (- v) = norm_of M v.
Proof. by rewrite /norm_of -scaleN1r qf_scale sqrrN expr1n mul1r. Qed.

Lemma norm_eq0 n (M : 'M[R]_n) v : spd M -> norm_of M v = 0%coqR <-> v = 0.
Proof.
move=> sM; split=> [|->]; last by rewrite /norm_of qf0; exact: sqrt_0.
rewrite /norm_of; have [// |v0 E] := eqVneq v 0; exfalso.
have [_ /(_ v v0) /RltP P] := sM.
by move: (sqrt_lt_R0 _ P); rewrite E => /Rlt_irrefl.
Qed.

Definition bil n (M : 'M[R]_n) (u v : 'cV_n) : R := (u^T *m M *m v) 0 0.

Lemma qf_line n (M : 'M[R]_n) (u v : 'cV_n) (t : R) : psd M ->
  (0 <= qf M u + 2 * t * bil M u v + t * t * qf M v)%coqR.
Proof.
move=> pM; have := qf_nonneg (u + t *: v) pM; have [sM _] := pM.
have B : (u^T *m M *m (t *: v)) 0 0 = t * bil M u v by rewrite -scalemxAr scalemxE.
rewrite qf_add // qf_scale B.
rewrite two_R.
rewrite expr2.
change (0 <= qf M u + t * t * qf M v + 2 * (t * bil M u v) -> 0 <= qf M u + 2 * t * bil M u v + t * t * qf M v)%coqR.
lra.
Qed.

Lemma cauchy_schwarz n (M : 'M[R]_n) (u v : 'cV_n) : psd M ->
  (bil M u v * bil M u v <= qf M u * qf M v)%coqR.
Proof.
move=> pM; have H t := qf_line u v t pM.
have c0 := qf_nonneg v pM; have a0 := qf_nonneg u pM.
move: (qf M u) (qf M v) (bil M u v) H a0 c0 => a c b H a0 c0.
case: (Req_dec c 0) => [E|N].
  case: (Req_dec b 0) => [->|Nb]; first nra.
  have := H (- (a + 1) / (2 * b))%coqR; rewrite E.
  have -> : (a + 2 * (- (a + 1) / (2 * b)) * b + - (a + 1) / (2 * b) * (- (a + 1) / (2 * b)) * 0 = -1)%coqR by field.
  lra.
have := H (- b / c)%coqR.
have -> : (a + 2 * (- b / c) * b + - b / c * (- b / c) * c = (a * c - b * b) / c)%coqR by field.
move=> Hc; have cp : (0 < c)%coqR by lra.
have := Rmult_le_pos _ _ Hc c0.
have -> : ((a * c - b * b) / c * c = a * c - b * b)%coqR by field.
lra.
Qed.

Lemma norm_triangle n (M : 'M[R]_n) (u v : 'cV_n) : psd M ->
  (norm_of M (u + v) <= norm_of M u + norm_of M v)%coqR.
Proof.
move=> pM; have CS := cauchy_schwarz u v pM; have [sM _] := pM.
have a0 := qf_nonneg u pM; have c0 := qf_nonneg v pM.
rewrite /norm_of; have E : qf M (u + v) = (qf M u + qf M v + 2 * bil M u v)%coqR.
  by rewrite qf_add // two_R.
have s0 := qf_nonneg (u + v) pM; rewrite E in s0 *.
move: (qf M u) (qf M v) (bil M u v) CS a0 c0 s0 => a c b CS a0 c0 s0 {E}.
have Sa := sqrt_pos a; have Sc := sqrt_pos c.
have Ea := sqrt_sqrt a a0; have Ec := sqrt_sqrt c c0.
apply: Rsqr_incr_0_var; last lra.
rewrite Rsqr_sqrt // /Rsqr.
have : (b <= sqrt a * sqrt c)%coqR.
  apply: Rsqr_incr_0_var; last exact: Rmult_le_pos.
  rewrite /Rsqr; nra.
nra.
Qed.

(** ** The pose distance *)
Lemma dot_qf n (v : 'cV[R]_n) : (v^T *m v) 0 0 = qf 1%:M v.
Proof. by rewrite /qf mulmx1. Qed.

Lemma pose_distance_norm p q : pose_distance p q = norm_of 1%:M (p - q).
Proof. by rewrite /pose_distance dot_qf. Qed.

Lemma vec3_dot (a b c d e f : R) :
  let v := vec_of 3 [:: a; b; c] - vec_of 3 [:: d; e; f] in
  (v^T *m v) 0 0 = ((a - d) * (a - d) + (b - e) * (b - e) + (c - f) * (c - f))%coqR.
Proof. by rewrite /= mxE !big_ord_recl big_ord0 !mxE /= addr0 addrA. Qed.

Lemma vec3_eq (a b c d e f : R) :
  vec_of 3 [:: a; b; c] = vec_of 3 [:: d; e; f] <-> a = d /\ b = e /\ c = f.
Proof.
split=> [E|[-> [-> ->]] //].
have H k : nth 0 [:: a; b; c] (k : 'I_3) = nth 0 [:: d; e; f] k.
  by move/colP/(_ k): E; rewrite !mxE.
by move: (H (@Ordinal 3 0 isT)) (H (@Ordinal 3 1 isT)) (H (@Ordinal 3 2 isT)) => /= -> -> ->.
Qed.

Lemma pose_distance_sym p q : pose_distance p q = pose_distance q p.
Proof. by rewrite !pose_distance_norm -opprB norm_opp. Qed.
Lemma pose_distance_eq0 p q : pose_distance p q = 0%coqR <-> p = q.
Proof.
rewrite pose_distance_norm norm_eq0; last exact: spd_id.
by split=> [/subr0_eq|->]; rewrite ?subrr.
Qed.
Lemma pose_distance_triangle p q r :
  (pose_distance p r <= pose_distance p q + pose_distance q r)%coqR.
Proof.
rewrite !pose_distance_norm; have -> : p - r = (p - q) + (q - r) by rewrite addrA subrK.
exact/norm_triangle/spd_psd/spd_id.
Qed.

(** ** Mahalanobis *)
Lemma pose_mahalanobis_norm n p (C : 'M[R]_n.+1) q :
  pose_mahalanobis p C q = norm_of (invmx (pose_block C)) (p - q).
Proof. by []. Qed.

(** The pose block of a positive definite covariance of at least four rows is
    positive definite. *)
Lemma pose_block_spd n (C : 'M[R]_n.+4) : spd C -> spd (pose_block C).
Proof.
case=> sC pC; pose k (i : 'I_3) : 'I_n.+4 := inord (nth 0%N [:: 0; 1; 3]%N i).
have k_inj : injective k.
  have vk i : k i = nth 0%N [:: 0; 1; 3]%N i :> nat.
    by rewrite /k inordK //; case: i => [[|[|[|//]]]].
  move=> i j /(congr1 val); rewrite /= !vk.
  by case: i j => [[|[|[|//]]] hi] [[|[|[|//]]] hj] //= _; apply: val_inj.
pose S : 'M[R]_(n.+4, 3) := \matrix_(a, i) (a == k i)%:R.
have ES v a : (S *m v) (k a) 0 = v a 0 :> R.
  rewrite mxE (bigD1 a) //= mxE eqxx mul1r big1 ?addr0 // => b ba.
  by rewrite mxE (inj_eq k_inj) eq_sym (negPf ba) mul0r.
have -> : pose_block C = S^T *m C *m S.
  apply/matrixP => i j; rewrite !mxE.
  rewrite (bigD1 (k j)) //= big1 ?addr0; last first.
    by move=> b bj; rewrite [S b j]mxE (negPf bj) mulr0.
  rewrite [S _ j]mxE eqxx mulr1 mxE (bigD1 (k i)) //= big1 ?addr0; last first.
    by move=> b bi; rewrite !mxE (negPf bi) mul0r.
  by rewrite !mxE eqxx mul1r.
split; first by rewrite /symmetric !trmx_mul trmxK sC mulmxA.
move=> v v0; rewrite qf_congr; apply: pC.
apply: contra_neq v0 => E; apply/colP => a; move/colP/(_ (k a)): E.
by rewrite ES !mxE.
Qed.

Lemma mahalanobis_id n p (C : 'M[R]_n.+1) q : pose_block C = 1%:M ->
  pose_mahalanobis p C q = pose_distance p q.
Proof. by move=> E; rewrite pose_mahalanobis_norm E invmx1 pose_distance_norm. Qed.
Lemma mahalanobis_sym n p (C : 'M[R]_n.+1) q :
  pose_mahalanobis p C q = pose_mahalanobis q C p.
Proof. by rewrite !pose_mahalanobis_norm -opprB norm_opp. Qed.
Lemma mahalanobis_eq0 n p (C : 'M[R]_n.+1) q : spd (pose_block C) ->
  pose_mahalanobis p C q = 0%coqR <-> p = q.
Proof.
move=> sC; rewrite pose_mahalanobis_norm norm_eq0; last exact: spd_inv.
by split=> [/subr0_eq|->]; rewrite ?subrr.
Qed.
Lemma mahalanobis_triangle n p (C : 'M[R]_n.+1) q r : spd (pose_block C) ->
  (pose_mahalanobis p C r <= pose_mahalanobis p C q + pose_mahalanobis q C r)%coqR.
Proof.
move=> sC; rewrite !pose_mahalanobis_norm; have -> : p - r = (p - q) + (q - r) by rewrite addrA subrK.
exact/norm_triangle/spd_psd/spd_inv.
Qed.

(** ** States *)
Local Open Scope R_scope.
Lemma ctrv_euclidean_formula (s t : ctrvR) :
  ctrv_euclidean s t = sqrt ((v_x s - v_x t) ^ 2 + (v_y s - v_y t) ^ 2 +
                             (get_angle (v_yaw s) - get_angle (v_yaw t)) ^ 2).
Proof.
rewrite /ctrv_euclidean /pose_distance /ctrv_pose vec3_dot; congr sqrt.
by cbv zeta; rewrite /= !Rmult_1_r.
Qed.
Lemma ctra_euclidean_formula (s t : ctraR) :
  ctra_euclidean s t = sqrt ((a_x s - a_x t) ^ 2 + (a_y s - a_y t) ^ 2 +
                             (get_angle (a_yaw s) - get_angle (a_yaw t)) ^ 2).
Proof.
rewrite /ctra_euclidean /pose_distance /ctra_pose vec3_dot; congr sqrt.
by rewrite /= !Rmult_1_r.
Qed.

Lemma ctrv_pose_eq (s t : ctrvR) :
  ctrv_pose s = ctrv_pose t <-> v_x s = v_x t /\ v_y s = v_y t /\ get_angle (v_yaw s) = get_angle (v_yaw t).
Proof. exact: vec3_eq. Qed.
Lemma ctra_pose_eq (s t : ctraR) :
  ctra_pose s = ctra_pose t <-> a_x s = a_x t /\ a_y s = a_y t /\ get_angle (a_yaw s) = get_angle (a_yaw t).
Proof. exact: vec3_eq. Qed.

(** Two headings a small rotation apart across the seam. *)
Lemma seam eps : 0 < eps -> exists s t : ctrvR,
  v_x s = v_x t /\ v_y s = v_y t /\
  (exists k : Z, Rabs (get_angle (v_yaw s) - get_angle (v_yaw t) + IZR k * (2 * PI)) < eps) /\
  6 < ctrv_euclidean s t.
Proof.
move=> e0; have [P1 P2] := pi_bounds.
pose d := Rmin (eps / 2) (1 / 10).
have d0 : 0 < d by apply: Rmin_glb_lt; lra.
have d1 : d <= eps / 2 by apply: Rmin_l.
have d2 : d <= 1 / 10 by apply: Rmin_r.
exists (CtrvState (A := reals) 0 0 0 (angleR (2 * PI - d)) 0), (CtrvState (A := reals) 0 0 0 (angleR 0) 0).
rewrite ctrv_euclidean_formula.
cbn [v_x v_y v_yaw v_vel v_rate].
rewrite (get_angle_canonical (2 * PI - d)); last lra.
rewrite (get_angle_canonical 0); last lra.
do 3 (split => //).
  exists (Zneg xH); rewrite Rabs_left1; lra.
have -> : sqrt ((0 - 0) ^ 2 + (0 - 0) ^ 2 + (2 * PI - d - 0) ^ 2) = 2 * PI - d.
  rewrite -[RHS]sqrt_square; last lra.
  by congr sqrt; ring.
lra.
Qed.

Lemma seam_ctra eps : 0 < eps -> exists s t : ctraR,
  a_x s = a_x t /\ a_y s = a_y t /\
  (exists k : Z, Rabs (get_angle (a_yaw s) - get_angle (a_yaw t) + IZR k * (2 * PI)) < eps) /\
  6 < ctra_euclidean s t.
Proof.
move=> /seam [s [t [Ex [Ey [Ea H]]]]].
exists (CtraState (A := reals) (v_x s) (v_y s) 0 (v_yaw s) 0 0),
  (CtraState (A := reals) (v_x t) (v_y t) 0 (v_yaw t) 0 0).
by do 3 (split => //); move: H; rewrite ctrv_euclidean_formula ctra_euclidean_formula.
Qed.

Lemma mahalanobis_solve n (u v : 'cV[R]_3) (C : 'M[R]_n.+1) (x : 'cV[R]_3) :
  (pose_block C \in unitmx)%R -> (pose_block C *m x = u - v)%R ->
  pose_mahalanobis u C v = sqrt (((u - v)^T *m x) ord0 ord0)%R.
Proof.
move=> U E; rewrite /pose_mahalanobis; congr sqrt.
by rewrite -mulmxA -{2}E mulmxA -mulmxA mulKmx.
Qed.
Lemma mahalanobis_entries n (l k : seq R) (C : 'M[R]_n.+1) (x y z : R) :
  (pose_block C \in unitmx)%R ->
  let c i j := C (inord i) (inord j) in let d i := (nth 0 l i - nth 0 k i : R) in
  c 0%N 0%N * x + c 0%N 1%N * y + c 0%N 3%N * z = d 0%N ->
  c 1%N 0%N * x + c 1%N 1%N * y + c 1%N 3%N * z = d 1%N ->
  c 3%N 0%N * x + c 3%N 1%N * y + c 3%N 3%N * z = d 2%N ->
  pose_mahalanobis (vec_of 3 l) C (vec_of 3 k) = sqrt (d 0%N * x + d 1%N * y + d 2%N * z).
Proof.
move=> U c d E0 E1 E3.
rewrite (@mahalanobis_solve _ _ _ _ (vec_of 3 [:: x; y; z])) //.
  congr sqrt; rewrite mxE !big_ord_recl big_ord0 !mxE /= addr0.
  change (d 0%N * x + (d 1%N * y + d 2%N * z) = d 0%N * x + d 1%N * y + d 2%N * z); ring.
apply/colP => i; rewrite mxE !big_ord_recl big_ord0 !mxE /= addr0.
case: i => [[|[|[|//]]] h] /=.
- change (c 0%N 0%N * x + (c 0%N 1%N * y + c 0%N 3%N * z) = d 0%N); rewrite -E0; ring.
- change (c 1%N 0%N * x + (c 1%N 1%N * y + c 1%N 3%N * z) = d 1%N); rewrite -E1; ring.
- change (c 3%N 0%N * x + (c 3%N 1%N * y + c 3%N 3%N * z) = d 2%N); rewrite -E3; ring.
Qed.

Lemma mahalanobis_diagonal (m p : ctrvR) (C : 'M[R]_5) (sx sy sa : R) :
  0 < sx -> 0 < sy -> 0 < sa ->
  pose_block C = diag_mx (\row_(i < 3) nth 0 [:: sx ^ 2; sy ^ 2; sa ^ 2] i) ->
  ctrv_mahalanobis m C p =
    sqrt (((v_x m - v_x p) / sx) ^ 2 + ((v_y m - v_y p) / sy) ^ 2 +
          ((get_angle (v_yaw m) - get_angle (v_yaw p)) / sa) ^ 2).
Proof.
move=> x0 y0 a0 E.
have EI : invmx (pose_block C) = diag_mx (\row_(i < 3) nth 0 [:: / sx ^ 2; / sy ^ 2; / sa ^ 2] i).
  have U : (pose_block C *m diag_mx (\row_(i < 3) nth 0 [:: / sx ^ 2; / sy ^ 2; / sa ^ 2] i) = 1%:M)%R.
    rewrite E mulmx_diag; apply/matrixP => i j; rewrite !mxE; congr (_ *+ _)%R.
    by case: i => [[|[|[|//]]] h] /=; apply: Rinv_r => Z; nra.
  have uC : (pose_block C \in unitmx)%R by case/mulmx1_unit: U.
  by rewrite -[LHS]mulmx1 -U mulmxA mulVmx // mul1mx.
rewrite /ctrv_mahalanobis /pose_mahalanobis EI; congr sqrt.
rewrite -mulmxA mxE !big_ord_recl big_ord0 !mul_diag_mx !mxE /= addr0.
set a := get_angle _; set b := get_angle _.
change ((v_x m - v_x p) * (/ (sx * (sx * 1)) * (v_x m - v_x p)) +
  ((v_y m - v_y p) * (/ (sy * (sy * 1)) * (v_y m - v_y p)) +
   ((a : R) - b) * (/ (sa * (sa * 1)) * ((a : R) - b))) =
  ((v_x m - v_x p) / sx) ^ 2 + ((v_y m - v_y p) / sy) ^ 2 + (((a : R) - b) / sa) ^ 2).
by field; lra.
Qed.
