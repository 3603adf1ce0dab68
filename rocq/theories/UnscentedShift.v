(** The unscented prediction does not depend on the origin of the coordinates,
    and its covariance with the default parameters is positive semidefinite. *)
From Coq Require Import Reals Lra ZArith.
From mathcomp Require Import all_ssreflect all_algebra ring.
From Verif Require Import Base Uuid DynObj RealField PosDef Motion RealArith MotionThms StateVec StateVecThms
  CovInt CovIntThms FusionThms Unscented UnscentedThms.
Set Implicit Arguments.
Unset Strict Implicit.
Unset Printing Implicit Defensive.
Import Order.Theory GRing.Theory Num.Theory.
Local Open Scope ring_scope.

Section Shift.
Variable F : realFieldType.
Lemma ut_shift m n (S S' : 'M[F]_(m, n)) (Wm Wc : 'cV[F]_m) (a : 'cV[F]_n) :
  \sum_i Wm i 0 = 1 -> (forall i j, S' i j = S i j + a j 0) ->
  compute_unscented_transform S' Wm Wc =
  ((compute_unscented_transform S Wm Wc).1 + a, (compute_unscented_transform S Wm Wc).2).
Proof.
move=> W1 H; rewrite [LHS]surjective_pairing.
have Em j : (compute_unscented_transform S' Wm Wc).1 j 0 = (compute_unscented_transform S Wm Wc).1 j 0 + a j 0.
  rewrite !ut_mean -[a j 0]mul1r -W1 mulr_suml -big_split; apply: eq_bigr => i _.
  by rewrite H mulrDr.
congr pair; first by apply/colP => j; rewrite Em addmxE.
apply/matrixP => j k; rewrite !ut_cov; apply: eq_bigr => i _; rewrite !Em !H.
have E (x y z : F) : x + z - (y + z) = x - y by ring.
by rewrite !E.
Qed.
End Shift.

(** Moving the origin *)
Definition ctrv_move (dx dy : R) (s : ctrvR) : ctrvR :=
  CtrvState (A := reals) (v_x s + dx)%coqR (v_y s + dy)%coqR (v_vel s) (v_yaw s) (v_rate s).
Definition ctra_move (dx dy : R) (s : ctraR) : ctraR :=
  CtraState (A := reals) (a_x s + dx)%coqR (a_y s + dy)%coqR (a_vel s) (a_yaw s) (a_rate s) (a_acc s).

Lemma ctrv_next_move dx dy s dt : @ctrv_next reals (ctrv_move dx dy s) dt = ctrv_move dx dy (ctrv_next s dt).
Proof.
rewrite /ctrv_next /ctrv_move; cbn [v_x v_y v_vel v_yaw v_rate].
by case: (nnear0 reals _); cbn [v_x v_y v_vel v_yaw v_rate]; congr CtrvState; cbn; lra.
Qed.
Lemma ctra_next_move dx dy s dt : @ctra_next reals (ctra_move dx dy s) dt = ctra_move dx dy (ctra_next s dt).
Proof.
rewrite /ctra_next /ctra_move; cbn [a_x a_y a_vel a_yaw a_rate a_acc].
by case: (nnear0 reals _); cbn [a_x a_y a_vel a_yaw a_rate a_acc]; congr CtraState; cbn; lra.
Qed.

Section Moving.
Variables (n : nat) (ST : state_type n) (mv : st_car ST -> st_car ST) (a : 'cV[R]_n).
Hypotheses (Ha3 : forall j : 'I_n, (j : nat) = 3%N -> a j 0 = 0)
  (Hto : forall s, st_to ST (mv s) = st_to ST s + a)
  (Hadd : forall s v, st_add ST (mv s) v = mv (st_add ST s v))
  (Hsub : forall s v, st_sub ST (mv s) v = mv (st_sub ST s v))
  (Hnext : forall s dt, st_next ST (mv s) dt = mv (st_next ST s dt))
  (Hfrom : forall v, st_from ST (v + a) = mv (st_from ST v)).

Lemma sigma_move s P lambda : generate_sigma_points (mv s) P lambda = map mv (generate_sigma_points s P lambda).
Proof.
rewrite /generate_sigma_points map_flatten -map_comp; congr flatten; apply: eq_map => c /=.
by rewrite /sigma_pair Hadd Hsub.
Qed.

Lemma predict_move s P dt alpha beta kappa : alpha <> 0%coqR -> (n%:R + kappa : R) <> 0 ->
  unscented_kalman_filter_predict (mv s) P dt alpha beta kappa =
  (mv (unscented_kalman_filter_predict s P dt alpha beta kappa).1,
   (unscented_kalman_filter_predict s P dt alpha beta kappa).2).
Proof.
move=> a0 k0; rewrite /unscented_kalman_filter_predict /generate_sigma_points_and_weights.
set lambda := generate_lambda _ _ _; set W := generate_weights _ _ _ _; case EW: W => [Wm Wc].
have h0 : (n%:R + lambda : R) != 0.
  rewrite /lambda /generate_lambda addrC subrK !mulf_neq0 //; exact/eqP.
have W1 : \sum_i Wm i 0 = 1.
  by have := mean_weights (F := R_realFieldType) alpha beta h0; rewrite -/W EW.
set M' := wrap_rows _; set M := wrap_rows (mean_and_sigma_points_to_matrix_xf _ (st_next ST s dt) _).
have HM i j : M' i j = M i j + a j 0.
  rewrite !mxE sigma_move Hnext -map_comp.
  have -> : map ((fun p => st_next ST p dt) \o mv) (generate_sigma_points s P lambda) =
    map mv [seq st_next ST p dt | p <- generate_sigma_points s P lambda].
    by rewrite -map_comp; apply: eq_map => p /=; rewrite Hnext.
  rewrite -map_cons; set l := _ :: _.
  have -> : nth (mv (st_next ST s dt)) (map mv l) i = mv (nth (st_next ST s dt) l i).
    case: (ltnP i (size l)) => hi; first by rewrite (nth_map (st_next ST s dt)).
    by rewrite !nth_default // size_map.
  rewrite Hto addmxE; case: eqP => // j3.
  by rewrite Ha3 // !addr0.
have := ut_shift (S := M : 'M[R_realFieldType]_(_, _)) (S' := M') Wc W1 HM.
case: (compute_unscented_transform _ Wm Wc) => x C; case: (compute_unscented_transform _ Wm Wc) => x' C' [-> ->].
by rewrite Hfrom.
Qed.
End Moving.

Lemma ctrv_predict_move dx dy s P dt alpha beta kappa : alpha <> 0%coqR -> (5 + kappa)%coqR <> 0%coqR ->
  @unscented_kalman_filter_predict 5 ctrv_type (ctrv_move dx dy s) P dt alpha beta kappa =
  (ctrv_move dx dy (@unscented_kalman_filter_predict 5 ctrv_type s P dt alpha beta kappa).1,
   (@unscented_kalman_filter_predict 5 ctrv_type s P dt alpha beta kappa).2).
Proof.
move=> a0 k0; apply: (@predict_move 5 ctrv_type (ctrv_move dx dy) (vec_of 5 [:: dx; dy])) => //=.
- by move=> j j3; rewrite mxE j3.
- move=> s'; apply/colP => -[[|[|[|[|[|//]]]]] h]; rewrite !mxE //=; by rewrite addr0.
- by move=> s' v; rewrite /ctrv_add /ctrv_move /=; congr CtrvState; cbn; lra.
- by move=> s' v; rewrite /ctrv_sub /ctrv_move /=; congr CtrvState; cbn; lra.
- exact: ctrv_next_move.
- move=> v; rewrite /ctrv_from_vec /ctrv_move /ent; cbn [v_x v_y v_vel v_yaw v_rate]; congr CtrvState; rewrite !mxE !inordK //=; by rewrite addr0.
- have five : (5%:R : R) = 5%coqR by rewrite natR /=; lra.
  by rewrite five.
Qed.
Lemma ctra_predict_move dx dy s P dt alpha beta kappa : alpha <> 0%coqR -> (6 + kappa)%coqR <> 0%coqR ->
  @unscented_kalman_filter_predict 6 ctra_type (ctra_move dx dy s) P dt alpha beta kappa =
  (ctra_move dx dy (@unscented_kalman_filter_predict 6 ctra_type s P dt alpha beta kappa).1,
   (@unscented_kalman_filter_predict 6 ctra_type s P dt alpha beta kappa).2).
Proof.
move=> a0 k0; apply: (@predict_move 6 ctra_type (ctra_move dx dy) (vec_of 6 [:: dx; dy])) => //=.
- by move=> j j3; rewrite mxE j3.
- move=> s'; apply/colP => -[[|[|[|[|[|[|//]]]]]] h]; rewrite !mxE //=; by rewrite addr0.
- by move=> s' v; rewrite /ctra_add /ctra_move /=; congr CtraState; cbn; lra.
- by move=> s' v; rewrite /ctra_sub /ctra_move /=; congr CtraState; cbn; lra.
- exact: ctra_next_move.
- move=> v; rewrite /ctra_from_vec /ctra_move /ent; cbn [a_x a_y a_vel a_yaw a_rate a_acc]; congr CtraState; rewrite !mxE !inordK //=; by rewrite addr0.
- have six : (6%:R : R) = 6%coqR by rewrite natR /=; lra.
  by rewrite six.
Qed.

(** Non-negative covariance weights *)
Lemma predict_psd n (ST : state_type n) s P dt (alpha beta kappa : R) :
  (0 < alpha * alpha * (n%:R + kappa))%coqR ->
  (0 <= 2 - n%:R / (alpha * alpha * (n%:R + kappa)) - alpha * alpha + beta)%coqR ->
  psd ((@unscented_kalman_filter_predict n ST s P dt alpha beta kappa).2 : 'M[R_realFieldType]_n).
Proof.
move=> q0 w0; rewrite /unscented_kalman_filter_predict /generate_sigma_points_and_weights.
set lambda := generate_lambda _ _ _; set W := generate_weights _ _ _ _; case EW: W => [Wm Wc].
set M := wrap_rows _.
have := @ut_psd R_realFieldType _ _ (M : 'M[R_realFieldType]_(_, _)) Wm Wc.
case: (compute_unscented_transform _ _ _) => x C /=; apply => i.
have -> : Wc = W.2 by rewrite EW.
have a0 : (alpha : R) != 0 by apply/eqP => E; move: q0; rewrite E !Rmult_0_l => /Rlt_irrefl.
have k0 : (n%:R + kappa : R) != 0.
  apply/eqP => E; move: q0; rewrite (_ : (n%:R + kappa)%coqR = 0%coqR) // Rmult_0_r => /Rlt_irrefl //.
have [_ [_ ->]] := @weights_value R_realFieldType n alpha beta kappa a0 k0.
set q := (alpha * alpha * (n%:R + kappa))%coqR in q0 w0.
have -> : (alpha : R_realFieldType) ^+ 2 * (n%:R + kappa) = q by rewrite expr2.
have two : (2%:R : R) = 2%coqR by rewrite natR /=; lra.
case: eqP => _; last by rewrite invr_ge0 mulr_ge0 ?ler0n //; apply/RleP/Rlt_le.
apply/RleP; move: w0; rewrite /Rdiv RinvE; last exact: Rgt_not_eq.
by rewrite -two expr2.
Qed.

Lemma default_psd_ctrv s P dt :
  psd ((@default_unscented_transform 5 ctrv_type s P dt).2 : 'M[R_realFieldType]_5).
Proof. by apply: predict_psd; rewrite natR /=; lra. Qed.
Lemma default_psd_ctra s P dt :
  psd ((@default_unscented_transform 6 ctra_type s P dt).2 : 'M[R_realFieldType]_6).
Proof. by apply: predict_psd; rewrite natR /=; lra. Qed.

(** Changing the first covariance weight adds a multiple of one outer product. *)
Lemma ut_centre (F : realFieldType) (m n : nat) (S : 'M[F]_(m.+1, n)) (Wm Wc Wc' : 'cV[F]_m.+1) :
  (forall i : 'I_m.+1, (i : nat) != 0%N -> Wc' i 0 = Wc i 0) ->
  let x := (compute_unscented_transform S Wm Wc).1 in
  let d := (row 0 S)^T - x in
  compute_unscented_transform S Wm Wc' =
    (x, (compute_unscented_transform S Wm Wc).2 + (Wc' 0 0 - Wc 0 0) *: (d *m d^T)).
Proof.
move=> E x d.
have H : forall W j k, (compute_unscented_transform S Wm W).2 j k =
    W 0 0 * ((S 0 j - x j 0) * (S 0 k - x k 0)) +
    \sum_(i < m) W (lift ord0 i) 0 * ((S (lift ord0 i) j - x j 0) * (S (lift ord0 i) k - x k 0)).
  by move=> W j k; rewrite ut_cov big_ord_recl.
suff H2 : (compute_unscented_transform S Wm Wc').2 =
    (compute_unscented_transform S Wm Wc).2 + (Wc' 0 0 - Wc 0 0) *: (d *m d^T).
  by rewrite -H2.
apply/matrixP => j k; rewrite H [in RHS]mxE H.
have -> : \sum_(i < m) Wc' (lift ord0 i) 0 * ((S (lift ord0 i) j - x j 0) * (S (lift ord0 i) k - x k 0)) =
          \sum_(i < m) Wc (lift ord0 i) 0 * ((S (lift ord0 i) j - x j 0) * (S (lift ord0 i) k - x k 0)).
  by apply: eq_bigr => i _; rewrite E.
have -> : ((Wc' 0 0 - Wc 0 0) *: (d *m d^T)) j k = (Wc' 0 0 - Wc 0 0) * ((S 0 j - x j 0) * (S 0 k - x k 0)).
  by rewrite mxE mxE big_ord1 [d^T _ _]mxE /d !mxE.
move: ((S 0 j - x j 0) * (S 0 k - x k 0)) (\sum_(_ < _) _) => p r.
by rewrite mulrBl [RHS]addrAC [X in _ = X + r]addrC subrK.
Qed.

Section Roles.
Variables (n : nat) (ST : state_type n).
(** The propagated state as a vector, heading wrapped. *)
Definition centre_vector (s : st_car ST) (dt : R) : 'cV[R]_n :=
  \col_j (if (j : nat) == 3%N then wrap (st_to ST (st_next ST s dt) j 0 : R_realFieldType)
          else st_to ST (st_next ST s dt) j 0).
Lemma beta_role (s : st_car ST) (P : 'M[R]_n) dt (alpha kappa : R) :
  exists (x : 'cV[R]_n) (C : 'M[R]_n), forall beta : R,
    unscented_kalman_filter_predict s P dt alpha beta kappa =
      (st_from ST x, C + (beta : R_realFieldType) *: ((centre_vector s dt - x) *m (centre_vector s dt - x)^T)).
Proof.
pose lambda := generate_lambda n (alpha : R_realFieldType) kappa.
pose M : 'M[R_realFieldType]_((2 * n).+1, n) := wrap_rows (mean_and_sigma_points_to_matrix_xf (2 * n) (st_next ST s dt)
  [seq st_next ST p dt | p <- generate_sigma_points s P lambda]).
pose W b := generate_weights n (alpha : R_realFieldType) b lambda.
have E : forall b, unscented_kalman_filter_predict s P dt alpha b kappa =
    (st_from ST (compute_unscented_transform M (W b).1 (W b).2).1, (compute_unscented_transform M (W b).1 (W b).2).2) by [].
exists (compute_unscented_transform M (W 0).1 (W 0).2).1, (compute_unscented_transform M (W 0).1 (W 0).2).2 => beta.
rewrite E.
have -> : (W beta).1 = (W 0).1 by [].
rewrite (@ut_centre _ _ _ M (W 0).1 (W 0).2 (W beta).2); last by move=> i /negbTE i0; rewrite !mxE i0.
have -> : (W beta).2 0 0 - (W 0).2 0 0 = beta.
  by rewrite !mxE /= addr0 opprD addrACA subrr add0r [_ + beta]addrC addrK.
have -> : (row 0 M)^T = centre_vector s dt by apply/matrixP => j k; rewrite !mxE.
by [].
Qed.
End Roles.
